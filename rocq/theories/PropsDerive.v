(** * PropsDerive: for which declarations #[derive(Model)] implements Model (C77) *)
From Verif Require Import Derive PropsModel.
Set Implicit Arguments.
Unset Strict Implicit.

(** ** Specification *)
(** the parameter used as an argument *)
Definition itself (p : gparam) : garg := match p with GType x _ _ => AType x | GLife x _ => ALife x | GConst x _ _ => ABlock x end.
Inductive kind3 := KLifetime | KType | KConst.
Definition kind_of (p : gparam) : kind3 := match p with GType _ _ _ => KType | GLife _ _ => KLifetime | GConst _ _ _ => KConst end.
(** what may stand for a parameter of this kind *)
Definition fits_kind (p : gparam) (a : garg) : Prop := match p, a with GType _ _ _, AType _ | GLife _ _, ALife _ | GConst _ _ _, ABlock _ => True | _, _ => False end.
Definition default_of (p : gparam) : option string := match p with GType _ _ d | GConst _ _ d => d | GLife _ _ => None end.
(** lifetimes first (Rust demands that), and no type after a const *)
Definition rank (p : gparam) : nat := match kind_of p with KLifetime => 0 | KType => 1 | KConst => 2 end.
Definition in_order (ps : list gparam) : Prop := forall i j p q, i < j -> nth_error ps i = Some p -> nth_error ps j = Some q -> rank p <= rank q.
(** what rustc asks of the header: no defaults in [impl<..>], and arguments of the kinds that the struct has *)
Definition well_formed (ps : list gparam) (g : generated) : Prop := (forall p, In p (i_params g) -> default_of p = None) /\ Forall2 fits_kind ps (i_args g).

(** ** Proofs *)
Definition names (k : kind3) (ps : list gparam) : list string :=
  flat_map (fun p => match k, p with KType, GType x _ _ | KLifetime, GLife x _ | KConst, GConst x _ _ => [x] | _, _ => [] end) ps.
Lemma by_kind_eq ps : forall t l c, by_kind ps t l c = (t ++ names KType ps, l ++ names KLifetime ps, c ++ names KConst ps).
Proof.
  induction ps as [|[x b d|x b|x b d] ps IH]; intros t l c; cbn [by_kind].
  - cbn. rewrite !app_nil_r. reflexivity.
  - rewrite IH. cbn. rewrite <- app_assoc. reflexivity.
  - rewrite IH. cbn. rewrite <- app_assoc. reflexivity.
  - rewrite IH. cbn. rewrite <- app_assoc. reflexivity.
Qed.
Definition args (ps : list gparam) : list garg := map ALife (names KLifetime ps) ++ map AType (names KType ps) ++ map ABlock (names KConst ps).
Lemma derive_eq x : derive_model x = match d_body x with NamedStruct fs => first <- idx (names KLifetime (d_params x)) 0 ;; Ok (mkGen (d_params x) first (d_name x) (args (d_params x)) (d_where x) (called_fields fs)) | _ => Panic end.
Proof. unfold derive_model. rewrite by_kind_eq. reflexivity. Qed.
Lemma first_life ps : (exists x, idx (names KLifetime ps) 0 = Ok x) <-> exists x b, In (GLife x b) ps.
Proof.
  induction ps as [|[x b d|x b|x b d] ps IH].
  - cbn. split; [intros (x & E); discriminate|intros (x & b & [])].
  - cbn [names flat_map app]. change (flat_map _ ps) with (names KLifetime ps). rewrite IH. split; intros (y & c & H); exists y, c; [right; auto|]. destruct H as [H|H]; [discriminate|auto].
  - split; [intros _; exists x, b; left; auto|intros _; exists x; reflexivity].
  - cbn [names flat_map app]. change (flat_map _ ps) with (names KLifetime ps). rewrite IH. split; intros (y & c & H); exists y, c; [right; auto|]. destruct H as [H|H]; [discriminate|auto].
Qed.
Lemma first_life_eq ps x : idx (names KLifetime ps) 0 = Ok x -> exists pre b post, ps = pre ++ GLife x b :: post /\ forall y c, ~ In (GLife y c) pre.
Proof.
  induction ps as [|[z b d|z b|z b d] ps IH]; intros E.
  - discriminate.
  - destruct (IH E) as (pre & b' & post & -> & H). exists (GType z b d :: pre), b', post. split; auto. intros y c [?|?]; [discriminate|]. eapply H; eauto.
  - cbn in E. injection E as ->. exists [], b, ps. split; auto.
  - destruct (IH E) as (pre & b' & post & -> & H). exists (GConst z b d :: pre), b', post. split; auto. intros y c [?|?]; [discriminate|]. eapply H; eauto.
Qed.
(** the macro accepts exactly the structs with named fields and a lifetime parameter *)
Theorem C77_accepted : forall x, (exists g, derive_model x = Ok g) <-> (exists fs, d_body x = NamedStruct fs) /\ exists l b, In (GLife l b) (d_params x).
Proof.
  intros x. rewrite derive_eq. rewrite <- first_life. destruct (d_body x) as [fs| | | |]; (split; [intros (g & E); try discriminate|intros ((fs' & E) & l & El); try discriminate]).
  - split; [eauto|]. destruct (idx (names KLifetime (d_params x)) 0) as [y| |] eqn:E1; try discriminate. eauto.
  - rewrite El. cbn [bind]. eauto.
Qed.
Lemma updated_filter keep fs : (forall f, keep f = true <-> ~ skipped f) -> called_fields fs = map f_ident (filter keep fs).
Proof.
  intros HK. unfold called_fields, sel. assert (G : forall pre fs, flat_map (fun i => match nth_error (pre ++ fs) i with Some x => [x] | None => [] end) (field_updater (length pre) fs) = filter keep fs).
  { intros pre fs0. revert pre. induction fs0 as [|f fs0 IH]; intros pre; [reflexivity|]. specialize (IH (pre ++ [f])). rewrite app_length, <- app_assoc in IH. cbn [length app] in IH. rewrite Nat.add_1_r in IH.
    cbn [field_updater filter]. destruct (attrs_skip (f_attrs f)) eqn:EA.
    - replace (keep f) with false; [exact IH|]. symmetry. apply Bool.not_true_iff_false. rewrite HK. apply skip_iff in EA. tauto.
    - replace (keep f) with true by (symmetry; apply HK, noskip_iff, EA). cbn [flat_map]. rewrite nth_error_app2, Nat.sub_diag by lia. cbn [nth_error app]. f_equal. exact IH. }
  f_equal. exact (G [] fs).
Qed.
(** what it writes: the generics and the where clause of the struct, its first lifetime for the parameters, and the calls on the fields that are not skipped, in order *)
Theorem C77_written : forall x fs g keep, derive_model x = Ok g -> d_body x = NamedStruct fs -> (forall f, keep f = true <-> ~ skipped f) ->
  i_self g = d_name x /\ i_params g = d_params x /\ i_where g = d_where x /\ i_fields g = map f_ident (filter keep fs) /\
  exists pre b post, d_params x = pre ++ GLife (i_lifetime g) b :: post /\ forall y c, ~ In (GLife y c) pre.
Proof.
  intros x fs g keep E B HK. rewrite derive_eq, B in E. apply bind_Ok in E. destruct E as (l & El & E). injection E as <-. cbn. repeat (split; [auto; fail|]). split; [apply updated_filter; auto|]. apply first_life_eq; auto.
Qed.
Lemma names_none k ps : (forall p, In p ps -> kind_of p <> k) -> names k ps = [].
Proof.
  induction ps as [|p ps IH]; intros H; [reflexivity|]. cbn. fold (names k ps). rewrite IH by (intros q Hq; apply H; right; auto). assert (Hp := H p (or_introl eq_refl)). destruct k, p; try reflexivity; exfalso; apply Hp; reflexivity.
Qed.
Lemma in_order_tail p ps : in_order (p :: ps) -> in_order ps /\ forall q, In q ps -> rank p <= rank q.
Proof.
  intros H. split.
  - intros i j a b Hij Ha Hb. apply (H (S i) (S j)); auto. lia.
  - intros q Hq. apply In_nth_error in Hq. destruct Hq as (j & Hj). apply (H 0 (S j)); auto. lia.
Qed.
Lemma in_order_args ps : in_order ps -> args ps = map itself ps.
Proof.
  induction ps as [|p ps IH]; intros H; [reflexivity|]. destruct (in_order_tail H) as (H1 & H2). specialize (IH H1). destruct p as [x b d|x b|x b d]; unfold args in * ; cbn [names flat_map app map itself] in * .
  - fold (names KLifetime ps) (names KType ps) (names KConst ps) in * . assert (NL : names KLifetime ps = []) by (apply names_none; intros q Hq K; specialize (H2 q Hq); unfold rank in H2; rewrite K in H2; cbn in H2; lia).
    rewrite NL in IH |- * . cbn [map app] in IH |- * . rewrite IH. reflexivity.
  - fold (names KLifetime ps) (names KType ps) (names KConst ps) in * . rewrite IH. reflexivity.
  - fold (names KLifetime ps) (names KType ps) (names KConst ps) in * . assert (NL : names KLifetime ps = []) by (apply names_none; intros q Hq K; specialize (H2 q Hq); unfold rank in H2; rewrite K in H2; cbn in H2; lia).
    assert (NT : names KType ps = []) by (apply names_none; intros q Hq K; specialize (H2 q Hq); unfold rank in H2; rewrite K in H2; cbn in H2; lia).
    rewrite NL, NT in IH |- * . cbn [map app] in IH |- * . rewrite IH. reflexivity.
Qed.
Definition rank_arg (a : garg) : nat := match a with ALife _ => 0 | AType _ => 1 | ABlock _ => 2 end.
Lemma fits_rank p a : fits_kind p a -> rank p = rank_arg a.
Proof. destruct p, a; cbn; tauto. Qed.
Lemma args_ordered ps i j a b : i < j -> nth_error (args ps) i = Some a -> nth_error (args ps) j = Some b -> rank_arg a <= rank_arg b.
Proof.
  unfold args. generalize (names KLifetime ps) (names KType ps) (names KConst ps). intros l t c H Ha Hb.
  assert (C : forall k z, nth_error (map ALife l ++ map AType t ++ map ABlock c) k = Some z -> (k < length l /\ rank_arg z = 0) \/ (length l <= k < length l + length t /\ rank_arg z = 1) \/ (length l + length t <= k /\ rank_arg z = 2)).
  { intros k z E. destruct (Nat.lt_ge_cases k (length l)) as [L|L].
    - left. rewrite nth_error_app1, nth_error_map in E by (rewrite map_length; auto). destruct (nth_error l k); cbn in E; [injection E as <-; auto|discriminate].
    - right. rewrite nth_error_app2, map_length in E by (rewrite map_length; auto). destruct (Nat.lt_ge_cases (k - length l) (length t)) as [L'|L'].
      + left. split; [lia|]. rewrite nth_error_app1, nth_error_map in E by (rewrite map_length; auto). destruct (nth_error t (k - length l)); cbn in E; [injection E as <-; auto|discriminate].
      + right. split; [lia|]. rewrite nth_error_app2, nth_error_map in E by (rewrite map_length; auto). destruct (nth_error c _); cbn in E; [injection E as <-; auto|discriminate]. }
  destruct (C _ _ Ha) as [?|[?|?]], (C _ _ Hb) as [?|[?|?]]; lia.
Qed.
Lemma Forall2_nth A B (R : A -> B -> Prop) l l' i a : Forall2 R l l' -> nth_error l i = Some a -> exists b, nth_error l' i = Some b /\ R a b.
Proof.
  intros H; revert i; induction H as [|x y l l' HR H IH]; intros [|i] E; try discriminate; cbn in E |- * .
  - injection E as ->. eauto.
  - apply IH; auto.
Qed.
(** the arguments of the struct are its own parameters exactly when none is a type after a const (or a lifetime after either) *)
Theorem C77_for_itself : forall x g, derive_model x = Ok g -> (i_args g = map itself (d_params x) <-> in_order (d_params x)).
Proof.
  intros x g E. rewrite derive_eq in E. destruct (d_body x) as [fs| | | |]; try discriminate. apply bind_Ok in E. destruct E as (l & El & E). injection E as <-. cbn [i_args]. split; [|apply in_order_args].
  intros EA i j p q Hij Hp Hq. assert (R : forall p, rank p = rank_arg (itself p)) by (intros []; reflexivity). rewrite !R.
  apply (@args_ordered (d_params x) i j); auto; rewrite EA, nth_error_map; [rewrite Hp|rewrite Hq]; reflexivity.
Qed.
(** the header it writes is one that the compiler takes exactly when moreover no generic parameter has a default *)
Theorem C77_compiles : forall x g, derive_model x = Ok g -> (well_formed (d_params x) g <-> in_order (d_params x) /\ forall p, In p (d_params x) -> default_of p = None).
Proof.
  intros x g E. pose proof (C77_for_itself E) as I. rewrite derive_eq in E. destruct (d_body x) as [fs| | | |]; try discriminate. apply bind_Ok in E. destruct E as (l & El & E). injection E as <-. unfold well_formed. cbn [i_params i_args] in * . split.
  - intros (D & F). split; auto. intros i j p q Hij Hp Hq. destruct (Forall2_nth F Hp) as (a & Ha & Fa). destruct (Forall2_nth F Hq) as (b & Hb & Fb). rewrite (fits_rank Fa), (fits_rank Fb). apply (@args_ordered (d_params x) i j); auto.
  - intros (O & D). split; auto. apply I in O. rewrite O. clear. induction (d_params x) as [|p ps IH]; constructor; auto. destruct p; exact Logic.I.
Qed.
(** a struct on which it panics for want of a lifetime, and two that Rust takes but whose implementation it rejects: a type after a const, a default *)
Theorem C77_refuted : (exists fs, derive_model (mkDecl "M" [GType "T" "" None] None (NamedStruct fs)) = Panic) /\
  (exists fs g, derive_model (mkDecl "M" [GLife "'a" ""; GConst "N" "usize" None; GType "T" "" None] None (NamedStruct fs)) = Ok g /\ i_args g = [ALife "'a"; AType "T"; ABlock "N"] /\
     ~ well_formed [GLife "'a" ""; GConst "N" "usize" None; GType "T" "" None] g) /\
  exists fs g, derive_model (mkDecl "M" [GLife "'a" ""; GType "T" "" (Some "f32"%string)] None (NamedStruct fs)) = Ok g /\ ~ well_formed [GLife "'a" ""; GType "T" "" (Some "f32"%string)] g.
Proof.
  split; [exists []; reflexivity|]. split.
  - exists []. eexists. split; [reflexivity|]. split; [reflexivity|]. intros (_ & F). inversion F as [|? ? ? ? _ F1]; subst. inversion F1 as [|? ? ? ? F2 _]; subst. exact F2.
  - exists []. eexists. split; [reflexivity|]. intros (D & _). specialize (D (GType "T" "" (Some "f32"%string)) (or_intror (or_introl eq_refl))). discriminate.
Qed.
(** a struct to which C77_compiles applies *)
Example C77_applies : exists g, derive_model (mkDecl "M" [GLife "'a" ""; GType "T" "Model<'a>" None; GConst "N" "usize" None] None
    (NamedStruct [mkField "w" []; mkField "n" [Some (List (mkPath false [("parameter"%string, false)]) [NMeta (Path (mkPath false [("skip"%string, false)]))])]; mkField "inner" []])) = Ok g /\
  i_args g = [ALife "'a"; AType "T"; ABlock "N"] /\ i_fields g = ["w"; "inner"]%string /\ i_lifetime g = "'a"%string.
Proof. eexists. split; [reflexivity|]. repeat split. Qed.
