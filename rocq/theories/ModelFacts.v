(** * ModelFacts: places, borrows and loops over the parameters of a model *)
From Verif Require Export Model.
Set Implicit Arguments.
Unset Strict Implicit.

Lemma map_map_app A B (f : A -> B) (l1 l2 : list A) : map f (l1 ++ l2) = map f l1 ++ map f l2. Proof. apply map_app. Qed.
Lemma nth_error_mid A (pre : list A) x l : nth_error (pre ++ x :: l) (length pre) = Some x.
Proof. rewrite nth_error_app2 by lia. rewrite Nat.sub_diag. reflexivity. Qed.
Lemma sel_fields A (fs : list field) : forall (pre per : list (list A)), length per = length fs ->
  concat (sel (pre ++ per) (field_updater (length pre) fs)) = flat_map (fun fx => if attrs_skip (f_attrs (fst fx)) then [] else snd fx) (combine fs per).
Proof.
  induction fs as [|f fs IH]; intros pre per HL; destruct per as [|x per]; try discriminate; [reflexivity|].
  injection HL as HL. cbn [field_updater combine flat_map fst snd]. specialize (IH (pre ++ [x]) per HL). rewrite app_length in IH. cbn in IH. rewrite Nat.add_1_r in IH. rewrite <- app_assoc in IH. cbn in IH.
  destruct (attrs_skip (f_attrs f)); [exact IH|]. cbn [sel flat_map]. fold (sel (pre ++ x :: per) (field_updater (S (length pre)) fs)). rewrite nth_error_mid. cbn [app concat]. rewrite IH. reflexivity.
Qed.

Section Facts.
Variable K : num.
Notation param := (param K).
Notation model := (model K).

Lemma model_ind' (P : model -> Prop) : (forall p, P (MParam p)) -> (forall fs, (forall fx, In fx fs -> P (snd fx)) -> P (MStruct fs)) -> (forall l, (forall y, In y l -> P y) -> P (MVec l)) ->
  (forall d, P (MOther d)) -> forall x, P x.
Proof.
  intros H1 H2 H3 H4. fix IH 1. intros [p|fs|l|d]; [exact (H1 p)| | |exact (H4 d)].
  - apply H2. induction fs as [|fx fs IHf]; intros fx' HI; [contradiction|]. destruct HI as [<-|HI]; [destruct fx as [f y]; exact (IH y)|exact (IHf _ HI)].
  - apply H3. induction l as [|y l IHl]; intros y' HI; [contradiction|]. destruct HI as [<-|HI]; [exact (IH y)|exact (IHl _ HI)].
Qed.

(** the children of a value, with whether the enumeration enters them *)
Definition kids (x : model) : list (bool * model) :=
  match x with MParam _ | MOther _ => [] | MStruct fs => map (fun fx => (negb (attrs_skip (f_attrs (fst fx))), snd fx)) fs | MVec l => map (fun y => (true, y)) l end.
Fixpoint kmut (i : nat) (ks : list (bool * model)) : list place :=
  match ks with [] => [] | (b, y) :: ks' => (if b then map (cons i) (parameters_mut y) else []) ++ kmut (S i) ks' end.

Lemma params_struct fs : parameters (MStruct fs) = flat_map (fun k : bool * model => if fst k then parameters (snd k) else []) (kids (MStruct fs)).
Proof.
  cbn [parameters]. match goal with |- context [sel ?g _] => assert (L : g = map (fun fx => parameters (snd fx)) fs) end.
  { induction fs as [|[f y] l IH]; [reflexivity|]; cbn [map snd]; rewrite IH; reflexivity. }
  rewrite L. pose proof (@sel_fields param (map fst fs) [] (map (fun fx => parameters (snd fx)) fs)) as S. cbn [length app] in S. rewrite S by (rewrite !map_length; reflexivity). clear.
  cbn [kids]. induction fs as [|[f y] fs IH]; [reflexivity|]. cbn [map combine flat_map fst snd]. rewrite IH. destruct (attrs_skip (f_attrs f)); reflexivity.
Qed.
Lemma params_vec l : parameters (MVec l) = flat_map (fun k : bool * model => if fst k then parameters (snd k) else []) (kids (MVec l)).
Proof. cbn [parameters kids]. induction l as [|y l IH]; [reflexivity|]. cbn. rewrite IH. reflexivity. Qed.
Lemma mut_struct fs : parameters_mut (MStruct fs) = kmut 0 (kids (MStruct fs)).
Proof.
  cbn [parameters_mut]. match goal with |- context [sel (?g 0 fs) _] => set (go := g) end.
  assert (LL : forall i fs, length (go i fs) = length fs) by (intros i l; revert i; induction l as [|[f y] l IH]; intros; cbn; auto).
  pose proof (@sel_fields place (map fst fs) [] (go 0 fs)) as S. cbn [length app] in S. etransitivity; [apply S; rewrite LL, map_length; reflexivity|]. clear S LL.
  cbn [kids]. generalize 0. induction fs as [|[f y] fs IH]; intros i; [reflexivity|]. cbn [map go combine flat_map fst snd kmut]. rewrite IH. destruct (attrs_skip (f_attrs f)); reflexivity.
Qed.
Lemma mut_vec l : parameters_mut (MVec l) = kmut 0 (kids (MVec l)).
Proof. cbn [parameters_mut kids]. generalize 0. induction l as [|y l IH]; intros i; [reflexivity|]. cbn [map kmut]. rewrite IH. reflexivity. Qed.

(** load and store through the children *)
Lemma load_cons (x : model) i q : load x (i :: q) = match nth_error (kids x) i with Some (_, y) => load y q | None => None end.
Proof.
  destruct x as [p|fs|l|d]; cbn [load kids]; try (destruct i; reflexivity).
  - revert i. induction fs as [|[f y] fs IH]; intros [|i]; cbn; auto.
  - revert i. induction l as [|y l IH]; intros [|i]; cbn; auto.
Qed.
Definition put_kid (x : model) (i : nat) (y : model) : model :=
  match x with MStruct fs => MStruct (match nth_error fs i with Some (f, _) => lset fs i (f, y) | None => fs end) | MVec l => MVec (match nth_error l i with Some _ => lset l i y | None => l end) | _ => x end.
Lemma store_cons (x : model) i q p : store x (i :: q) p = match nth_error (kids x) i with Some (_, y) => put_kid x i (store y q p) | None => x end.
Proof.
  destruct x as [p0|fs|l|d]; cbn [store kids put_kid]; try (destruct i; reflexivity).
  - rewrite nth_error_map. destruct (nth_error fs i) as [[f y]|] eqn:E; cbn [option_map].
    + f_equal. revert i E. induction fs as [|[g z] fs IH]; intros [|i] E; try discriminate; cbn in E |- * .
      * injection E as -> ->. reflexivity.
      * rewrite IH by exact E. reflexivity.
    + f_equal. revert i E. induction fs as [|[g z] fs IH]; intros [|i] E; try discriminate; cbn in E |- * ; auto. rewrite IH; auto.
  - rewrite nth_error_map. destruct (nth_error l i) as [y|] eqn:E; cbn [option_map].
    + f_equal. revert i E. induction l as [|z l IH]; intros [|i] E; try discriminate; cbn in E |- * .
      * injection E as ->. reflexivity.
      * rewrite IH by exact E. reflexivity.
    + f_equal. revert i E. induction l as [|z l IH]; intros [|i] E; try discriminate; cbn in E |- * ; auto. rewrite IH; auto.
Qed.
Lemma nth_error_lset A (l : list A) i j v : nth_error (lset l i v) j = if i =? j then (if i <? length l then Some v else None) else nth_error l j.
Proof.
  revert i j. induction l as [|x l IH]; intros i j.
  - destruct i, j; cbn; auto. destruct (i =? j); reflexivity.
  - destruct i, j; cbn; auto. rewrite IH. reflexivity.
Qed.
Lemma kids_put x i b y y' : nth_error (kids x) i = Some (b, y) -> kids (put_kid x i y') = lset (kids x) i (b, y').
Proof.
  destruct x as [p0|fs|l|d]; cbn [kids put_kid]; try (destruct i; discriminate); rewrite nth_error_map.
  - destruct (nth_error fs i) as [[f z]|] eqn:E; cbn [option_map]; [|discriminate]. intros H. injection H as H1 H2. cbn [fst snd] in * . subst.
    revert i E. induction fs as [|[g w] fs IH]; intros [|i] E; try discriminate; cbn in E |- * .
    + injection E as -> ->. reflexivity.
    + f_equal. apply IH. exact E.
  - destruct (nth_error l i) as [z|] eqn:E; cbn [option_map]; [|discriminate]. intros H. injection H as H1 H2. subst.
    revert i E. induction l as [|w l IH]; intros [|i] E; try discriminate; cbn in E |- * ; [reflexivity|]. f_equal. apply IH. exact E.
Qed.
Lemma lt_kids x i b y : nth_error (kids x) i = Some (b, y) -> (i <? length (kids x)) = true.
Proof. intros E. apply Nat.ltb_lt. apply nth_error_Some. congruence. Qed.

Definition loads_ (x : model) (q : place) : Prop := exists p, load x q = Some p.
Lemma load_store_same (x : model) : forall q p0 p, load x q = Some p0 -> load (store x q p) q = Some p.
Proof.
  intros q. revert x. induction q as [|i q IH]; intros x p0 p H.
  - destruct x; try discriminate. reflexivity.
  - rewrite load_cons in H. rewrite store_cons. destruct (nth_error (kids x) i) as [[b y]|] eqn:E; [|discriminate].
    rewrite load_cons, (kids_put _ E), nth_error_lset, Nat.eqb_refl, (lt_kids E). eapply IH; eauto.
Qed.
Lemma load_store_other (x : model) : forall q q' p0 p, load x q = Some p0 -> q <> q' -> load (store x q p) q' = load x q'.
Proof.
  intros q. revert x. induction q as [|i q IH]; intros x q' p0 p H N.
  - destruct x; try discriminate. cbn in H. destruct q' as [|j q']; [congruence|]. reflexivity.
  - rewrite load_cons in H. rewrite store_cons. destruct (nth_error (kids x) i) as [[b y]|] eqn:E; [|discriminate].
    destruct q' as [|j q'].
    + destruct x; try reflexivity.
    + rewrite !load_cons, (kids_put _ E), nth_error_lset. destruct (Nat.eqb_spec i j) as [->|NE]; [|reflexivity].
      rewrite (lt_kids E), E. eapply IH; eauto. congruence.
Qed.
Lemma kmut_lset b y y' : parameters_mut y' = parameters_mut y -> forall ks i k, nth_error ks i = Some (b, y) -> kmut k (lset ks i (b, y')) = kmut k ks.
Proof.
  intros HM. induction ks as [|[c z] ks IH]; intros [|i] k E; try discriminate; cbn in E |- * .
  - injection E as -> ->. rewrite HM. reflexivity.
  - rewrite IH; auto.
Qed.
Lemma mut_kids x : (forall p, x <> MParam p) -> parameters_mut x = kmut 0 (kids x).
Proof. destruct x; intros H; [congruence|apply mut_struct|apply mut_vec|reflexivity]. Qed.
Lemma params_kids x : (forall p, x <> MParam p) -> parameters x = flat_map (fun k : bool * model => if fst k then parameters (snd k) else []) (kids x).
Proof. destruct x; intros H; [congruence|apply params_struct|apply params_vec|reflexivity]. Qed.
Lemma not_param_kids x i k : nth_error (kids x) i = Some k -> forall p, x <> MParam p.
Proof. intros E p ->. destruct i; discriminate. Qed.
Lemma put_not_param x i y p : (forall p, x <> MParam p) -> put_kid x i y <> MParam p.
Proof. destruct x; intros H; cbn; try discriminate. intros _. exact (H p0 eq_refl). Qed.
Lemma mut_store (x : model) : forall q p, parameters_mut (store x q p) = parameters_mut x.
Proof.
  intros q. revert x. induction q as [|i q IH]; intros x p.
  - destruct x; reflexivity.
  - rewrite store_cons. destruct (nth_error (kids x) i) as [[b y]|] eqn:E; [|reflexivity].
    rewrite !mut_kids by (try (intros; apply put_not_param); eapply not_param_kids; eauto). rewrite (kids_put _ E). apply kmut_lset with (1 := IH y p). exact E.
Qed.
(** what the borrows read is what parameters() gives *)
Lemma load_params (x : model) : map (load x) (parameters_mut x) = map Some (parameters x).
Proof.
  induction x as [p|fs IH|l IH|d] using model_ind'; try reflexivity.
  - assert (KI : forall k, In k (kids (MStruct fs)) -> map (load (snd k)) (parameters_mut (snd k)) = map Some (parameters (snd k))).
    { cbn [kids]. intros k HI. apply in_map_iff in HI. destruct HI as (fx & <- & HI). apply (IH _ HI). }
    rewrite params_struct, mut_struct. revert KI. assert (G : forall ks pre, kids (MStruct fs) = pre ++ ks -> (forall k, In k ks -> map (load (snd k)) (parameters_mut (snd k)) = map Some (parameters (snd k))) ->
      map (load (MStruct fs)) (kmut (length pre) ks) = map Some (flat_map (fun k : bool * model => if fst k then parameters (snd k) else []) ks)).
    { induction ks as [|[b y] ks IHk]; intros pre EK KI; [reflexivity|]. cbn [kmut flat_map fst snd]. rewrite !map_app. f_equal.
      - destruct b; [|reflexivity]. rewrite map_map. pose proof (KI (true, y) (or_introl eq_refl)) as KY. cbn [snd] in KY. rewrite <- KY. apply map_ext. intros q. rewrite load_cons, EK, nth_error_mid. reflexivity.
      - specialize (IHk (pre ++ [(b, y)])). rewrite app_length, Nat.add_1_r in IHk. apply IHk; [rewrite <- app_assoc; exact EK|]. intros; apply KI; right; auto. }
    intros KI. apply (G _ []); auto.
  - assert (KI : forall k, In k (kids (MVec l)) -> map (load (snd k)) (parameters_mut (snd k)) = map Some (parameters (snd k))).
    { cbn [kids]. intros k HI. apply in_map_iff in HI. destruct HI as (y & <- & HI). apply (IH _ HI). }
    rewrite params_vec, mut_vec. revert KI. assert (G : forall ks pre, kids (MVec l) = pre ++ ks -> (forall k, In k ks -> map (load (snd k)) (parameters_mut (snd k)) = map Some (parameters (snd k))) ->
      map (load (MVec l)) (kmut (length pre) ks) = map Some (flat_map (fun k : bool * model => if fst k then parameters (snd k) else []) ks)).
    { induction ks as [|[b y] ks IHk]; intros pre EK KI; [reflexivity|]. cbn [kmut flat_map fst snd]. rewrite !map_app. f_equal.
      - destruct b; [|reflexivity]. rewrite map_map. pose proof (KI (true, y) (or_introl eq_refl)) as KY. cbn [snd] in KY. rewrite <- KY. apply map_ext. intros q. rewrite load_cons, EK, nth_error_mid. reflexivity.
      - specialize (IHk (pre ++ [(b, y)])). rewrite app_length, Nat.add_1_r in IHk. apply IHk; [rewrite <- app_assoc; exact EK|]. intros; apply KI; right; auto. }
    intros KI. apply (G _ []); auto.
Qed.
(** the places are in declaration order *)
Inductive before : place -> place -> Prop :=
| bf_here i j q q' : i < j -> before (i :: q) (j :: q')
| bf_deeper i q q' : before q q' -> before (i :: q) (i :: q').
Lemma before_irrefl q : ~ before q q.
Proof. induction q as [|i q IH]; intros H; inversion H; subst; [lia|auto]. Qed.
Lemma kmut_ge ks : forall i q, In q (kmut i ks) -> exists j q', q = j :: q' /\ i <= j.
Proof.
  induction ks as [|[b y] ks IH]; intros i q H; [contradiction|]. cbn [kmut] in H. apply in_app_iff in H. destruct H as [H|H].
  - destruct b; [|contradiction]. apply in_map_iff in H. destruct H as (q' & <- & _). eauto.
  - destruct (IH _ _ H) as (j & q' & -> & L). exists j, q'. split; auto. lia.
Qed.
Lemma SSorted_app A (R : A -> A -> Prop) l1 l2 : StronglySorted R l1 -> StronglySorted R l2 -> (forall a b, In a l1 -> In b l2 -> R a b) -> StronglySorted R (l1 ++ l2).
Proof.
  intros S1 S2 H. induction S1 as [|a l1 S IH F]; [exact S2|]. cbn. constructor.
  - apply IH. intros; apply H; auto. right; auto.
  - apply Forall_app. split; auto. apply Forall_forall. intros b Hb. apply H; auto. left; auto.
Qed.
Lemma kmut_sorted ks : (forall k, In k ks -> StronglySorted before (parameters_mut (snd k))) -> forall i, StronglySorted before (kmut i ks).
Proof.
  induction ks as [|[b y] ks IH]; intros H i; [constructor|]. cbn [kmut]. apply SSorted_app.
  - destruct b; [|constructor]. specialize (H (true, y) (or_introl eq_refl)). cbn in H. induction H as [|q qs S IHs F]; constructor; auto.
    apply Forall_forall. intros q' HI. apply in_map_iff in HI. destruct HI as (q2 & <- & HI). apply bf_deeper. rewrite Forall_forall in F. auto.
  - apply IH. intros; apply H; right; auto.
  - intros p q Hp Hq. destruct b; [|contradiction]. apply in_map_iff in Hp. destruct Hp as (p' & <- & _). destruct (kmut_ge Hq) as (j & q' & -> & L). apply bf_here. lia.
Qed.
Lemma mut_sorted (x : model) : StronglySorted before (parameters_mut x).
Proof.
  induction x as [p|fs IH|l IH|d] using model_ind'; try (repeat constructor; fail).
  - rewrite mut_struct. apply kmut_sorted. intros k HI. cbn [kids] in HI. apply in_map_iff in HI. destruct HI as (fx & <- & HI). apply (IH _ HI).
  - rewrite mut_vec. apply kmut_sorted. intros k HI. cbn [kids] in HI. apply in_map_iff in HI. destruct HI as (y & <- & HI). apply (IH _ HI).
Qed.
Lemma sorted_nodup l : StronglySorted before l -> NoDup l.
Proof. induction 1 as [|a l S IH F]; constructor; auto. intros HI. rewrite Forall_forall in F. exact (before_irrefl (F _ HI)). Qed.

(** ** loops *)
Lemma visit_each f qs : forall i (x : model) ps, NoDup qs -> map (load x) qs = map Some ps -> visit f i qs x = (ps' <- each f i ps ;; Ok (stores x qs ps')).
Proof.
  induction qs as [|q qs IH]; intros i x ps ND E; destruct ps as [|p ps]; try discriminate; [reflexivity|]. cbn [map] in E. injection E as E1 E2. inversion ND as [|? ? NI ND']; subst.
  cbn [visit each]. rewrite E1. cbn [unwrap bind]. destruct (f i p) as [p'| |]; cbn [bind]; auto.
  rewrite (IH (S i) (store x q p') ps ND').
  - destruct (each f (S i) ps); reflexivity.
  - rewrite <- E2. apply map_ext_in. intros q' HI. apply (load_store_other p' E1). intros ->. contradiction.
Qed.
Lemma loads_eq (x : model) qs ps : map (load x) qs = map Some ps -> loads x qs = Ok ps.
Proof.
  unfold loads. generalize 0. revert ps. induction qs as [|q qs IH]; intros [|p ps] i E; try discriminate; [reflexivity|]. cbn [map] in E. injection E as E1 E2.
  cbn [each]. rewrite E1. cbn [unwrap bind]. rewrite (IH ps (S i) E2). reflexivity.
Qed.
Lemma each_length A B (f : nat -> A -> res B) l : forall i r, each f i l = Ok r -> length r = length l.
Proof.
  induction l as [|a l IH]; intros i r E; cbn [each] in E; [injection E as <-; reflexivity|].
  apply bind_Ok in E. destruct E as (b & _ & E). apply bind_Ok in E. destruct E as (bs & Eb & E). injection E as <-. cbn. f_equal. eauto.
Qed.
Lemma mut_stores qs : forall ps (x : model), parameters_mut (stores x qs ps) = parameters_mut x.
Proof.
  induction qs as [|q qs IH]; intros [|p ps] x; try reflexivity. unfold stores. cbn [combine fold_left fst snd]. fold (stores (store x q p) qs ps). rewrite IH. apply mut_store.
Qed.
Lemma load_stores_other qs : forall ps (x : model) q, (forall q', In q' qs -> loads_ x q') -> ~ In q qs -> load (stores x qs ps) q = load x q.
Proof.
  induction qs as [|q0 qs IH]; intros [|p ps] x q HL NI; try reflexivity. unfold stores. cbn [combine fold_left fst snd]. fold (stores (store x q0 p) qs ps).
  destruct (HL q0 (or_introl eq_refl)) as (p0 & E0). rewrite IH.
  - apply (load_store_other p E0). intros ->. apply NI. left; auto.
  - intros q' HI. destruct (list_eq_dec Nat.eq_dec q0 q') as [->|NE]; [exists p; eapply load_store_same; eauto|]. destruct (HL q' (or_intror HI)) as (p' & E'). exists p'. rewrite (load_store_other p E0 NE). exact E'.
  - intros HI. apply NI. right; auto.
Qed.
Lemma load_stores qs : forall ps (x : model), NoDup qs -> (forall q', In q' qs -> loads_ x q') -> length ps = length qs -> map (load (stores x qs ps)) qs = map Some ps.
Proof.
  induction qs as [|q0 qs IH]; intros [|p ps] x ND HL HE; try discriminate; [reflexivity|]. injection HE as HE. inversion ND as [|? ? NI ND']; subst. unfold stores. cbn [combine fold_left fst snd]. fold (stores (store x q0 p) qs ps).
  destruct (HL q0 (or_introl eq_refl)) as (p0 & E0).
  assert (HL' : forall q', In q' qs -> loads_ (store x q0 p) q').
  { intros q' HI. destruct (HL q' (or_intror HI)) as (p' & E'). exists p'. rewrite (load_store_other p E0); auto. intros ->. contradiction. }
  cbn [map]. f_equal; [|apply IH; auto]. rewrite load_stores_other by auto. apply (load_store_same p E0).
Qed.
Lemma mut_loads (x : model) q : In q (parameters_mut x) -> loads_ x q.
Proof.
  intros HI. apply (in_map (load x)) in HI. rewrite load_params in HI. apply in_map_iff in HI. destruct HI as (p & E & _). exists p. auto.
Qed.
Lemma params_stores (x : model) ps : length ps = length (parameters x) -> parameters (stores x (parameters_mut x) ps) = ps.
Proof.
  intros HL. assert (LM : length ps = length (parameters_mut x)) by (rewrite HL, <- (map_length Some), <- load_params, map_length; reflexivity).
  pose proof (load_params (stores x (parameters_mut x) ps)) as A. rewrite mut_stores in A. rewrite load_stores in A; auto; [|apply sorted_nodup, mut_sorted|apply mut_loads].
  clear -A. revert A. generalize (parameters (stores x (parameters_mut x) ps)). induction ps as [|p ps IH]; intros [|q qs] A; try discriminate; auto. injection A as -> A. f_equal. auto.
Qed.
End Facts.
