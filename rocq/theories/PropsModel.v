(** * PropsModel: C48 enumeration of parameters, C49 saving and loading *)
From Verif Require Export PropsOptim ModelFacts.
From Coq Require Import Permutation.
Set Implicit Arguments.
Unset Strict Implicit.

Section C48.
Variable K : num.
Notation F := (F K).
Notation tensor := (tensor K).
Notation param := (param K).
Notation model := (model K).

(** ** Specification *)
(** a field is left out exactly when it carries #[parameter(..., skip, ...)] *)
Definition word (s : string) : spath := mkPath false [(s, false)].
Definition skipped (f : field) : Prop := exists ns, In (Some (List (word "parameter") ns)) (f_attrs f) /\ In (NMeta (Path (word "skip"))) ns.
(** parameter [p] stands at place [q] of [x], reached without entering a skipped field *)
Inductive holds : model -> place -> param -> Prop :=
| h_param p : holds (MParam p) [] p
| h_field fs i f y q p : nth_error fs i = Some (f, y) -> ~ skipped f -> holds y q p -> holds (MStruct fs) (i :: q) p
| h_item l i y q p : nth_error l i = Some y -> holds y q p -> holds (MVec l) (i :: q) p.
(** [x'] is [x] with other parameters in the places that are not skipped, and nothing else changed *)
Inductive alike : model -> model -> Prop :=
| a_param p p' : alike (MParam p) (MParam p')
| a_other d : alike (MOther d) (MOther d)
| a_vec l l' : length l = length l' -> (forall i y y', nth_error l i = Some y -> nth_error l' i = Some y' -> alike y y') -> alike (MVec l) (MVec l')
| a_struct fs fs' : length fs = length fs' ->
    (forall i f y f' y', nth_error fs i = Some (f, y) -> nth_error fs' i = Some (f', y') -> f = f') ->
    (forall i f y f' y', nth_error fs i = Some (f, y) -> nth_error fs' i = Some (f', y') -> skipped f -> y = y') ->
    (forall i f y f' y', nth_error fs i = Some (f, y) -> nth_error fs' i = Some (f', y') -> ~ skipped f -> alike y y') ->
    alike (MStruct fs) (MStruct fs').
(** [rx] does to the parameters of [x], in order and once each, what [r] does to their list, and nothing else *)
Definition acts (r : res (list param)) (x : model) (rx : res model) : Prop :=
  match r with
  | Ok ps => exists x', rx = Ok x' /\ parameters x' = ps /\ parameters_mut x' = parameters_mut x /\ alike x x'
  | Panic => rx = Panic
  | UB => rx = UB
  end.

(** ** proofs *)
Lemma is_ident_iff p s : is_ident p s = true <-> p = word s.
Proof.
  destruct p as [c segs]. unfold is_ident, word. cbn [sp_colon sp_segs]. split.
  - intros H. apply andb_true_iff in H. destruct H as (H1 & H2). destruct c; [discriminate|]. destruct segs as [|[x b] [|? ?]]; try discriminate; [|destruct b; discriminate]. destruct b; [discriminate|]. apply String.eqb_eq in H2. subst. reflexivity.
  - intros E. injection E as -> ->. cbn. apply String.eqb_refl.
Qed.
Lemma nested_skip_iff ns : nested_skip ns = true <-> In (NMeta (Path (word "skip"))) ns.
Proof.
  induction ns as [|n ns IH]; [cbn; split; [discriminate|contradiction]|]. cbn [nested_skip In].
  assert (S : forall P : Prop, (n <> NMeta (Path (word "skip"))) -> (P <-> In (NMeta (Path (word "skip"))) ns) -> (P <-> n = NMeta (Path (word "skip")) \/ In (NMeta (Path (word "skip"))) ns)) by (intros P N; tauto).
  destruct n as [[p|p|p l]|]; try (apply S; [discriminate|exact IH]).
  destruct (is_ident p "skip") eqn:E.
  - apply is_ident_iff in E. subst. split; auto.
  - apply S; [|exact IH]. intros H. injection H as ->. rewrite (proj2 (is_ident_iff _ _) eq_refl) in E. discriminate.
Qed.
Lemma skip_iff f : attrs_skip (f_attrs f) = true <-> skipped f.
Proof.
  unfold skipped. generalize (f_attrs f) as l. induction l as [|a l IH]; [cbn; split; [discriminate|intros (? & [] & _)]|].
  assert (S : (forall ns, a = Some (List (word "parameter") ns) -> In (NMeta (Path (word "skip"))) ns -> False) -> attrs_skip (a :: l) = attrs_skip l -> (attrs_skip (a :: l) = true <-> exists ns, In (Some (List (word "parameter") ns)) (a :: l) /\ In (NMeta (Path (word "skip"))) ns)).
  { intros N E. rewrite E, IH. split; intros (ns & H1 & H2); exists ns; split; auto; [right; auto|]. destruct H1 as [H1|H1]; auto. exfalso. eauto. }
  destruct a as [[p|p|p ns]|]; try (apply S; [discriminate|reflexivity]).
  destruct (is_ident p "parameter") eqn:E.
  - apply is_ident_iff in E. subst. destruct (nested_skip ns) eqn:EN.
    + split; [intros _|intros _; cbn [attrs_skip]; rewrite (proj2 (is_ident_iff _ _) eq_refl), EN; reflexivity]. exists ns. split; [left; auto|apply nested_skip_iff; auto].
    + apply S; [|cbn [attrs_skip]; rewrite (proj2 (is_ident_iff _ _) eq_refl), EN; reflexivity]. intros ns' H HI. injection H as ->. apply nested_skip_iff in HI. congruence.
  - apply S; [|cbn [attrs_skip]; rewrite E; reflexivity]. intros ns' H. injection H as -> ->. rewrite (proj2 (is_ident_iff _ _) eq_refl) in E. discriminate.
Qed.
Lemma noskip_iff f : attrs_skip (f_attrs f) = false <-> ~ skipped f.
Proof. rewrite <- skip_iff. destruct (attrs_skip (f_attrs f)); split; congruence. Qed.

Lemma kmut_in i q (ks : list (bool * model)) : forall k, In (k + i :: q) (kmut k ks) <-> exists y, nth_error ks i = Some (true, y) /\ In q (parameters_mut y).
Proof.
  revert i. induction ks as [|[b y] ks IH]; intros i k.
  - cbn. split; [contradiction|]. intros (y & E & _). destruct i; discriminate.
  - cbn [kmut]. rewrite in_app_iff. destruct i as [|i].
    + rewrite Nat.add_0_r. cbn [nth_error]. split.
      * intros [H|H]; [destruct b; [|contradiction]; apply in_map_iff in H; destruct H as (q' & E & HI); injection E as ->; eauto|].
        destruct (kmut_ge H) as (j & q' & E & L). injection E as -> _. lia.
      * intros (y' & E & HI). injection E as -> ->. left. apply in_map_iff. eauto.
    + cbn [nth_error]. rewrite <- (IH i (S k)). replace (k + S i) with (S k + i) by lia. split; [|auto]. intros [H|H]; auto.
      destruct b; [|contradiction]. apply in_map_iff in H. destruct H as (q' & E & _). injection E as E _. lia.
Qed.
Lemma mut_cons (x : model) i q : In (i :: q) (parameters_mut x) <-> exists y, nth_error (kids x) i = Some (true, y) /\ In q (parameters_mut y).
Proof.
  destruct x as [p|fs|l|d].
  - cbn. split; [intros [H|[]]; discriminate|]. intros (y & E & _). destruct i; discriminate.
  - rewrite mut_struct. apply (@kmut_in i q _ 0).
  - rewrite mut_vec. apply (@kmut_in i q _ 0).
  - cbn. split; [contradiction|]. intros (y & E & _). destruct i; discriminate.
Qed.
Lemma nil_in (x : model) : In [] (parameters_mut x) <-> exists p, x = MParam p.
Proof.
  split; [|intros (p & ->); left; reflexivity]. intros H. destruct x as [p|fs|l|d]; eauto; exfalso; [rewrite mut_struct in H|rewrite mut_vec in H|contradiction]; destruct (kmut_ge H) as (j & q & E & _); discriminate.
Qed.
Lemma kid_struct fs i b y : nth_error (kids (K := K) (MStruct fs)) i = Some (b, y) <-> exists f, nth_error fs i = Some (f, y) /\ b = negb (attrs_skip (f_attrs f)).
Proof.
  cbn [kids]. rewrite nth_error_map. destruct (nth_error fs i) as [[f z]|]; cbn; split; try discriminate.
  - intros H. injection H as <- <-. eauto.
  - intros (f' & E & ->). injection E as -> ->. reflexivity.
  - intros (f' & E & _). discriminate.
Qed.
Lemma kid_vec l i b y : nth_error (kids (K := K) (MVec l)) i = Some (b, y) <-> nth_error l i = Some y /\ b = true.
Proof.
  cbn [kids]. rewrite nth_error_map. destruct (nth_error l i) as [z|]; cbn; split; try discriminate.
  - intros H. injection H as <- <-. auto.
  - intros (E & ->). injection E as ->. reflexivity.
  - intros (E & _). discriminate.
Qed.
Lemma holds_iff (x : model) q p : holds x q p <-> In q (parameters_mut x) /\ load x q = Some p.
Proof.
  split.
  - induction 1 as [p|fs i f y q p E NS H IH|l i y q p E H IH].
    + split; [left; reflexivity|reflexivity].
    + assert (EK : nth_error (kids (MStruct fs)) i = Some (true, y)) by (apply kid_struct; exists f; split; auto; apply noskip_iff in NS; rewrite NS; auto).
      destruct IH as (IH1 & IH2). split; [apply mut_cons; eauto|]. rewrite load_cons, EK. exact IH2.
    + assert (EK : nth_error (kids (MVec l)) i = Some (true, y)) by (apply kid_vec; auto).
      destruct IH as (IH1 & IH2). split; [apply mut_cons; eauto|]. rewrite load_cons, EK. exact IH2.
  - revert x. induction q as [|i q IH]; intros x (HI & HL).
    + apply nil_in in HI. destruct HI as (p' & ->). cbn in HL. injection HL as ->. constructor.
    + apply mut_cons in HI. destruct HI as (y & EK & HI). rewrite load_cons, EK in HL. specialize (IH y (conj HI HL)).
      destruct x as [p0|fs|l|d]; try (destruct i; discriminate EK).
      * apply kid_struct in EK. destruct EK as (f & E & B). eapply h_field; eauto. apply noskip_iff. destruct (attrs_skip (f_attrs f)); auto; discriminate.
      * apply kid_vec in EK. destruct EK as (E & _). eapply h_item; eauto.
Qed.
Lemma alike_refl x : alike x x.
Proof.
  induction x as [p|fs IH|l IH|d] using model_ind'; constructor; auto.
  - intros i f y f' y' E E'. congruence.
  - intros i f y f' y' E E'. congruence.
  - intros i f y f' y' E E' _. rewrite E in E'. injection E' as <- <-. apply (IH (f, y)). eapply nth_error_In; eauto.
  - intros i y y' E E'. rewrite E in E'. injection E' as <-. apply IH. eapply nth_error_In; eauto.
Qed.
Lemma nth_error_len A B (l : list A) (l' : list B) i x : length l = length l' -> nth_error l i = Some x -> exists y, nth_error l' i = Some y.
Proof. intros HL E. destruct (nth_error l' i) eqn:E'; eauto. apply nth_error_None in E'. assert (i < length l) by (apply nth_error_Some; congruence). lia. Qed.
Lemma alike_trans x : forall y z, alike x y -> alike y z -> alike x z.
Proof.
  induction x as [p|fs IH|l IH|d] using model_ind'; intros y z H1 H2; inversion H1; subst; inversion H2; subst; constructor; try congruence.
  - intros i f y f' y' E E'. destruct (nth_error_len H0 E) as ([g w] & EW). transitivity g; eauto.
  - intros i f y f' y' E E' S. destruct (nth_error_len H0 E) as ([g w] & EW). assert (f = g) by eauto. subst g. transitivity w; eauto.
  - intros i f y f' y' E E' S. destruct (nth_error_len H0 E) as ([g w] & EW). assert (f = g) by eauto. subst g. apply (IH (f, y)) with w; eauto. eapply nth_error_In; eauto.
  - intros i y y' E E'. destruct (nth_error_len H0 E) as (w & EW). apply (IH y) with w; eauto. eapply nth_error_In; eauto.
Qed.
Lemma alike_store q : forall x p, In q (parameters_mut x) -> alike x (store x q p).
Proof.
  induction q as [|i q IH]; intros x p HI.
  - apply nil_in in HI. destruct HI as (p' & ->). constructor.
  - apply mut_cons in HI. destruct HI as (y & EK & HI). rewrite store_cons, EK. destruct x as [p0|fs|l|d]; try (destruct i; discriminate EK).
    + apply kid_struct in EK. destruct EK as (f & E & B). cbn [put_kid]. rewrite E. assert (NS : ~ skipped f) by (apply noskip_iff; destruct (attrs_skip (f_attrs f)); auto; discriminate).
      assert (LI : (i <? length fs) = true) by (apply Nat.ltb_lt; apply nth_error_Some; congruence).
      constructor; [rewrite lset_length; reflexivity| | |]; intros j g z g' z' Ej Ej'; rewrite nth_error_lset, LI in Ej'; destruct (Nat.eqb_spec i j) as [->|NE].
      * rewrite E in Ej. injection Ej as <- <-. injection Ej' as <- <-. reflexivity.
      * congruence.
      * rewrite E in Ej. injection Ej as <- <-. contradiction.
      * congruence.
      * rewrite E in Ej. injection Ej as <- <-. injection Ej' as <- <-. intros _. apply IH. exact HI.
      * intros _. rewrite Ej in Ej'. injection Ej' as <- <-. apply alike_refl.
    + apply kid_vec in EK. destruct EK as (E & _). cbn [put_kid]. rewrite E. assert (LI : (i <? length l) = true) by (apply Nat.ltb_lt; apply nth_error_Some; congruence).
      constructor; [rewrite lset_length; reflexivity|]. intros j z z' Ej Ej'. rewrite nth_error_lset, LI in Ej'. destruct (Nat.eqb_spec i j) as [->|NE].
      * rewrite E in Ej. injection Ej as <-. injection Ej' as <-. apply IH. exact HI.
      * rewrite Ej in Ej'. injection Ej' as <-. apply alike_refl.
Qed.
Lemma alike_stores qs : forall ps x, (forall q, In q qs -> In q (parameters_mut x)) -> alike x (stores x qs ps).
Proof.
  induction qs as [|q qs IH]; intros [|p ps] x H; try apply alike_refl. unfold stores. cbn [combine fold_left fst snd]. fold (stores (store x q p) qs ps).
  eapply alike_trans; [apply alike_store; apply H; left; auto|]. apply IH. intros q' HI. rewrite mut_store. apply H. right; auto.
Qed.
Lemma acts_stores (r : res (list param)) x : (forall ps, r = Ok ps -> length ps = length (parameters x)) -> acts r x (ps <- r ;; Ok (stores x (parameters_mut x) ps)).
Proof.
  intros HL. destruct r as [ps| |]; cbn [bind acts]; auto. eexists. split; [reflexivity|]. split; [apply params_stores; auto|]. split; [apply mut_stores|]. apply alike_stores. auto.
Qed.
Lemma loads_all (x : model) : loads x (parameters_mut x) = Ok (parameters x).
Proof. apply loads_eq, load_params. Qed.

(** ** C48 *)
(** parameters() and parameters_mut() enumerate exactly the parameters that are not in a skipped field, in the order of declaration *)
Theorem C48_enumeration : forall x : model, exists pairs,
  map snd pairs = parameters x /\ map fst pairs = parameters_mut x /\ StronglySorted before (map fst pairs) /\ (forall q p, In (q, p) pairs <-> holds x q p).
Proof.
  intros x. pose proof (load_params x) as E. pose proof (mut_sorted x) as S. pose proof (fun q p => holds_iff x q p) as H. revert E S H. generalize (parameters_mut x) as qs. generalize (parameters x) as ps.
  intros ps qs E S H. assert (L : length qs = length ps) by (rewrite <- (map_length (load x)), E, map_length; reflexivity). exists (combine qs ps).
  assert (M1 : map fst (combine qs ps) = qs) by (clear -L; revert ps L; induction qs; intros [|? ?] L; try discriminate; cbn; auto; f_equal; auto).
  assert (M2 : map snd (combine qs ps) = ps) by (clear -L; revert ps L; induction qs; intros [|? ?] L; try discriminate; cbn; auto; f_equal; auto).
  split; auto. split; auto. split; [rewrite M1; auto|]. intros q p. rewrite H. clear -E S. assert (ND : NoDup qs) by (apply sorted_nodup, S). clear S. revert ps E. induction qs as [|q0 qs IH]; intros [|p0 ps] E; try discriminate; [cbn; tauto|].
  cbn [map] in E. injection E as E1 E2. inversion ND as [|? ? NI ND']; subst. cbn [combine In]. rewrite (IH ND' ps E2). split.
  - intros [HE|(HI & HL)]; [injection HE as <- <-; auto|auto].
  - intros ([->|HI] & HL); [left; congruence|auto].
Qed.
(** so each exactly once *)
Theorem C48_once : forall (x : model) q p, holds x q p -> exists! i, nth_error (parameters_mut x) i = Some q /\ nth_error (parameters x) i = Some p.
Proof.
  intros x q p H. destruct (C48_enumeration x) as (prs & E1 & E2 & S & HI). apply HI in H. apply In_nth_error in H. destruct H as (i & Ei). rewrite <- E1, <- E2. exists i. split.
  - split; rewrite nth_error_map, Ei; reflexivity.
  - intros j (E & _). apply sorted_nodup in S. rewrite NoDup_nth_error in S. apply S; [rewrite map_length; apply nth_error_Some; congruence|]. rewrite E, nth_error_map, Ei. reflexivity.
Qed.
(** the derived list of fields: those without the attribute, in order *)
Theorem C48_fields : forall fs i, In i (field_updater 0 fs) <-> exists f, nth_error fs i = Some f /\ ~ skipped f.
Proof.
  intros fs. assert (G : forall k i, In i (field_updater k fs) <-> exists f, k <= i /\ nth_error fs (i - k) = Some f /\ ~ skipped f).
  { induction fs as [|f fs IH]; intros k i.
    - cbn. split; [contradiction|]. intros (f & _ & E & _). destruct (i - k); discriminate.
    - assert (T : (exists g, S k <= i /\ nth_error fs (i - S k) = Some g /\ ~ skipped g) <-> (k <> i /\ exists g, k <= i /\ nth_error (f :: fs) (i - k) = Some g /\ ~ skipped g)).
      { split.
        - intros (g & L & E & N). split; [lia|]. exists g. split; [lia|]. replace (i - k) with (S (i - S k)) by lia. auto.
        - intros (NE & g & L & E & N). exists g. split; [lia|]. replace (i - k) with (S (i - S k)) in E by lia. auto. }
      cbn [field_updater]. destruct (attrs_skip (f_attrs f)) eqn:ES.
      + rewrite IH, T. apply skip_iff in ES. split; [tauto|]. intros (g & L & E & N). split; [|eauto]. intros ->. rewrite Nat.sub_diag in E. injection E as ->. contradiction.
      + cbn [In]. rewrite IH, T. apply noskip_iff in ES. split; [|intros H; destruct (Nat.eq_dec k i); tauto]. intros [->|H]; [|tauto]. exists f. rewrite Nat.sub_diag. auto. }
  intros i. rewrite G, Nat.sub_0_r. split; intros (f & H); exists f; [tauto|]. split; [lia|tauto].
Qed.
(** a loop over parameters_mut() treats each parameter once, in order, and changes nothing else *)
Theorem C48_loop : forall f (x : model), acts (each f 0 (parameters x)) x (visit f 0 (parameters_mut x) x).
Proof.
  intros f x. rewrite (@visit_each K f (parameters_mut x) 0 x (parameters x) (sorted_nodup (mut_sorted x)) (load_params x)). apply acts_stores. intros ps E. eapply each_length; eauto.
Qed.
Variable m : build.
Theorem C48_configure_model : forall als o (x : model), acts (configure_parameters m als o (parameters x)) x (configure_model m als o x).
Proof.
  intros als o x. unfold configure_model. rewrite loads_all. cbn [bind]. apply acts_stores. intros ps E. eapply each_length; eauto.
Qed.
Lemma update_length als (o : opt K) ps r : update_parameters m als o ps = Ok r -> length (snd r) = length ps.
Proof.
  unfold update_parameters. intros E. apply bind_Ok in E. destruct E as (ps1 & E1 & E). apply bind_Ok in E. destruct E as (ps2 & E2 & E). apply bind_Ok in E. destruct E as (ps3 & E3 & E).
  apply bind_Ok in E. destruct E as (e & _ & E). injection E as <-. cbn [snd]. rewrite (each_length E3).
  transitivity (length ps1).
  - destruct (ngt (o_clip o) n0); [|congruence]. apply bind_Ok in E2. destruct E2 as (q & _ & E2). destruct (ngt q _); [|congruence]. apply (each_length E2).
  - destruct (ngt (o_l2 o) n0); [|congruence]. apply (each_length E1).
Qed.
Theorem C48_update_model : forall als o (x : model),
  acts (r <- update_parameters m als o (parameters x) ;; Ok (snd r)) x (r <- update_model m als o x ;; Ok (snd r)) /\
  (forall o' x', update_model m als o x = Ok (o', x') -> exists ps, update_parameters m als o (parameters x) = Ok (o', ps)).
Proof.
  intros als o x. unfold update_model. rewrite loads_all. cbn [bind]. split.
  - pose proof (@acts_stores (r <- update_parameters m als o (parameters x) ;; Ok (snd r)) x) as A. destruct (update_parameters m als o (parameters x)) as [r| |] eqn:E; cbn [bind] in A |- * ; [|reflexivity|reflexivity]. cbn [snd]. apply A. intros ps H. injection H as <-. eapply update_length; eauto.
  - intros o' x' E. apply bind_Ok in E. destruct E as ([o1 ps] & E & H). cbn in H. injection H as <- _. eauto.
Qed.
Lemma each_app A B (f : nat -> A -> res B) l1 : forall i l2, each f i (l1 ++ l2) = (a <- each f i l1 ;; b <- each f (i + length l1) l2 ;; Ok (a ++ b)).
Proof.
  induction l1 as [|a l1 IH]; intros i l2; cbn [each app length].
  - rewrite Nat.add_0_r. cbn [bind]. destruct (each f i l2); reflexivity.
  - destruct (f i a); cbn [bind]; auto. rewrite IH. replace (S i + length l1) with (i + S (length l1)) by lia. destruct (each f (S i) l1); cbn [bind]; auto. destruct (each f _ l2); reflexivity.
Qed.
(** move_to_device: of a parameter, of a struct, of a vector (of models or of parameters) *)
Theorem C48_move_to_device : forall d als (x : model), acts (each (fun i p => param_move m d (als i) p) 0 (parameters x)) x (model_move m d als x).
Proof.
  intros d als x. set (f := fun i p => param_move m d (als i) p). destruct x as [p|fs|l|n].
  - cbn [model_move parameters each]. change (param_move m d (als 0) p) with (f 0 p). destruct (f 0 p) as [p'| |]; cbn; auto. exists (MParam p'). split; auto. split; auto. split; auto. constructor.
  - apply C48_loop.
  - cbn [model_move]. fold f. match goal with |- context [?g 0 l] => set (go := g) end.
    assert (G : forall l i, match each f i (flat_map (@parameters K) l) with
       Ok ps => exists l', go i l = Ok l' /\ flat_map (@parameters K) l' = ps /\ length l' = length l /\ (forall j y y', nth_error l j = Some y -> nth_error l' j = Some y' -> alike y y' /\ parameters_mut y' = parameters_mut y)
     | Panic => go i l = Panic | UB => go i l = UB end).
    { clear l. induction l as [|y l IH]; intros i.
      - cbn. exists []. split; auto. split; auto. split; auto. intros [|j] y y' E; discriminate.
      - cbn [flat_map]. rewrite each_app. change (go i (y :: l)) with (y' <- visit f i (parameters_mut y) y ;; ys <- go (i + length (parameters_mut y)) l ;; Ok (y' :: ys)).
        assert (LM : length (parameters_mut y) = length (parameters y)) by (rewrite <- (map_length (load y)), load_params, map_length; reflexivity). rewrite LM.
        rewrite (@visit_each K f (parameters_mut y) i y (parameters y) (sorted_nodup (mut_sorted y)) (load_params y)).
        pose proof (@acts_stores (each f i (parameters y)) y) as A. destruct (each f i (parameters y)) as [ps| |] eqn:EY; cbn [bind] in A |- * ; auto.
        destruct A as (y' & E & P1 & P2 & P3); [intros ? H; injection H as <-; eapply each_length; eauto|]. injection E as <-.
        specialize (IH (i + length (parameters y))). destruct (each f (i + length (parameters y)) (flat_map (parameters (K:=K)) l)) as [qs| |]; cbn [bind]; try (rewrite IH; reflexivity).
        destruct IH as (l' & E & Q1 & Q2 & Q3). rewrite E. cbn [bind]. eexists. split; [reflexivity|]. cbn [flat_map length]. rewrite P1, Q1. split; auto. split; auto.
        intros [|j] z z' Ez Ez'; cbn in Ez, Ez'; [injection Ez as <-; injection Ez' as <-; auto|eauto]. }
    assert (PV : forall l, parameters (MVec l) = flat_map (@parameters K) l) by (clear; intros l; rewrite params_vec; cbn [kids]; induction l; cbn; f_equal; auto).
    rewrite PV. specialize (G l 0). destruct (each f 0 (flat_map (@parameters K) l)) as [ps| |]; cbn [acts]; try (rewrite G; reflexivity).
    destruct G as (l' & E & Q1 & Q2 & Q3). rewrite E. cbn [bind]. exists (MVec l'). split; auto. split; [rewrite PV; auto|]. split.
    + rewrite !mut_vec. cbn [kids]. clear -Q2 Q3. generalize 0. revert l Q2 Q3. induction l' as [|y' l' IH]; intros [|y l] Q2 Q3 i; try discriminate; auto. injection Q2 as Q2. cbn [map kmut]. f_equal.
      * destruct (Q3 0 y y' eq_refl eq_refl) as (_ & ->). reflexivity.
      * apply IH; auto. intros j z z' E E'. apply (Q3 (S j)); auto.
    + constructor; auto. intros j y y' E1 E2. apply (Q3 j y y' E1 E2).
  - cbn. exists (MOther n). split; auto. split; auto. split; auto. constructor.
Qed.
(** read as: afterwards every place holds the result of its own parameter *)
Theorem C48_each_place : forall f (x x' : model) rx, acts (each f 0 (parameters x)) x rx -> rx = Ok x' ->
  (forall q p, holds x q p -> exists i p', nth_error (parameters x) i = Some p /\ f i p = Ok p' /\ holds x' q p') /\ (forall q p', holds x' q p' -> exists p, holds x q p).
Proof.
  intros f x x' rx A E. subst rx. destruct (each f 0 (parameters x)) as [ps| |] eqn:EE; cbn [acts] in A; try discriminate. destruct A as (x1 & E1 & P1 & P2 & _). injection E1 as <-.
  assert (NE : forall l i r, each f i l = Ok r -> forall j p, nth_error l j = Some p -> exists p', f (i + j) p = Ok p' /\ nth_error r j = Some p').
  { clear. induction l as [|a l IH]; intros i r E j p Ej; [destruct j; discriminate|]. cbn [each] in E. apply bind_Ok in E. destruct E as (b & Eb & E). apply bind_Ok in E. destruct E as (bs & Ebs & E). injection E as <-.
    destruct j as [|j]; cbn in Ej |- * . { injection Ej as <-. rewrite Nat.add_0_r. eauto. } replace (i + S j) with (S i + j) by lia. eauto. }
  split.
  - intros q p H. destruct (C48_once H) as (i & (Eq & Ep) & _). destruct (NE _ _ _ EE _ _ Ep) as (p' & Ef & Er). exists i, p'. split; auto. split; auto.
    destruct (C48_enumeration x') as (prs & M1 & M2 & _ & HI). apply HI. rewrite <- P2, <- M2, nth_error_map in Eq. rewrite <- P1, <- M1, nth_error_map in Er. destruct (nth_error prs i) as [[q0 p0]|] eqn:EN; try discriminate. cbn in Eq, Er. injection Eq as ->. injection Er as ->. eapply nth_error_In; eauto.
  - intros q p' H. apply holds_iff in H. destruct H as (HI & _). rewrite P2 in HI. destruct (mut_loads HI) as (p & HL). exists p. apply holds_iff. auto.
Qed.
End C48.

Section C49.
Variable K : num.
Notation F := (F K).
Notation tensor := (tensor K).
Notation param := (param K).
Notation model := (model K).

(** ** Specification *)
(** [t'] is on device [d] and has the shape and the elements of [t] *)
Definition copy_of (d : nat) (t t' : tensor) : Prop := is_tensor d (t_shape t) (fun c b => at_ t c b) t'.
(** every tensor of [p] is on some device, and the map of statistics has one entry per name *)
Definition live (p : param) : Prop :=
  (exists d, ready d (p_value p)) /\ (exists d, ready d (p_grad p)) /\ (forall n t, In (n, t) (p_stats p) -> exists d, ready d t) /\ NoDup (map fst (p_stats p)).
Definition restored (d : nat) (p p' : param) : Prop :=
  copy_of d (p_value p) (p_value p') /\ copy_of d (p_grad p) (p_grad p') /\
  forall name, match st_get name (p_stats p) with Some t => exists t', st_get name (p_stats p') = Some t' /\ copy_of d t t' | None => st_get name (p_stats p') = None end.
(** the same data, the map of statistics possibly in another order *)
Definition same_data (x y : param_data K) : Prop := pd_value x = pd_value y /\ pd_grad x = pd_grad y /\ Permutation (pd_stats x) (pd_stats y).

Variable m m' : build.     (* of the program that saves and of the one that loads *)
Definition brings (td : tensor_data K) (t : tensor) : Prop :=
  exists t0, tensor_deserialize m' td = Ok t0 /\ forall d al, al_ok al -> exists t', move_to_device m' d al t0 = Ok t' /\ copy_of d t t'.
Lemma tensor_saved d0 t : ready d0 t -> exists td, tensor_serialize m t = Ok td /\ brings td t.
Proof.
  intros R. unfold tensor_serialize. rewrite (ready_device_of R). cbn [bind]. rewrite (to_vector_Ok m R). cbn [bind]. eexists. split; [reflexivity|].
  pose proof (ready_fits R) as HF. unfold brings, tensor_deserialize. cbn [td_shape td_values]. rewrite (@C07_roundtrip m' _ (fits_wf HF)). cbn [bind]. eexists. split; [reflexivity|].
  intros d al HA. destruct (@move_flat K m' d al (@new_host_tensor K (t_shape t) (firstn (tot (t_shape t)) (buf t))) _ HA HF eq_refl) as (t' & E & HT).
  { cbn. rewrite firstn_length. pose proof (ready_len R). lia. }
  exists t'. split; [exact E|]. cbn [t_shape new_host_tensor] in HT.
  assert (Y : yields (Ok t') d (t_shape t) (fun c b => at_ t c b)); [|destruct Y as (y & Ey & HY); injection Ey as <-; exact HY].
  eapply yields_of_flat; [exists t'; split; [reflexivity|exact HT]|]. intros c b Hc Hb. cbv beta. rewrite nth_firstn_lt by (apply pos_lt; auto; apply (fits_wf HF)).
  unfold at_. destruct (ready_vt R) as (_ & B & _). rewrite B. reflexivity.
Qed.
Lemma stats_saved st : forall i, (forall n t, In (n, t) st -> exists d, ready d t) ->
  exists sd, each (fun _ ns => t <- tensor_serialize m (snd ns) ;; Ok (fst ns, t)) i st = Ok sd /\ Forall2 (fun (nd : string * tensor_data K) ns => fst nd = fst ns /\ brings (snd nd) (snd ns)) sd st.
Proof.
  induction st as [|[n t] st IH]; intros i H; [exists []; split; [reflexivity|constructor]|]. destruct (H n t (or_introl eq_refl)) as (d & R). destruct (tensor_saved R) as (td & E & HB).
  destruct (IH (S i)) as (sd & E' & HS); [intros; eapply H; right; eauto|]. cbn [each fst snd]. rewrite E. cbn [bind]. rewrite E'. cbn [bind]. eexists. split; [reflexivity|]. constructor; auto.
Qed.
Lemma stats_loaded d als : (forall i, al_ok (als i)) -> forall sd st i j, Forall2 (fun (nd : string * tensor_data K) ns => fst nd = fst ns /\ brings (snd nd) (snd ns)) sd st ->
  exists s0 s', each (fun _ ns => t <- tensor_deserialize m' (snd ns) ;; Ok (fst ns, t)) i sd = Ok s0 /\ each (fun i ns => t <- move_to_device m' d (als i) (snd ns) ;; Ok (fst ns, t)) j s0 = Ok s' /\
  Forall2 (fun ns ns' => fst ns = fst ns' /\ copy_of d (snd ns) (snd ns')) st s'.
Proof.
  intros HA sd st i j H. revert i j. induction H as [|[n td] [n2 t] sd st (EN & t0 & E0 & HB) H IH]; intros i j; [exists [], []; repeat split; constructor|]. cbn in EN. subst n2.
  destruct (HB d (als j) (HA j)) as (t' & E & HC). destruct (IH (S i) (S j)) as (s0 & s' & E1 & E2 & HS). exists ((n, t0) :: s0), ((n, t') :: s'). cbn [each fst snd] in E0 |- * .
  rewrite E0. cbn [bind]. rewrite E1. cbn [bind each fst snd]. rewrite E. cbn [bind]. rewrite E2. cbn [bind]. split; auto.
Qed.
Lemma st_get_in name (st : list (string * tensor)) t : NoDup (map fst st) -> (st_get name st = Some t <-> In (name, t) st).
Proof.
  intros ND. induction st as [|[n t0] st IH]; [cbn; split; [discriminate|contradiction]|]. cbn in ND. inversion ND as [|? ? NI ND']; subst. cbn [st_get In]. destruct (String.eqb_spec n name) as [->|NE].
  - split; [intros E; injection E as ->; auto|]. intros [E|HI]; [congruence|]. exfalso. apply NI. change name with (fst (name, t)). apply in_map. exact HI.
  - rewrite (IH ND'). split; auto. intros [E|HI]; auto. congruence.
Qed.
Lemma st_get_perm name (s1 s2 : list (string * tensor)) : Permutation s1 s2 -> NoDup (map fst s1) -> st_get name s1 = st_get name s2.
Proof.
  intros P N1. assert (N2 : NoDup (map fst s2)) by (eapply Permutation_NoDup; [apply Permutation_map; exact P|exact N1]).
  destruct (st_get name s1) as [t|] eqn:E1.
  - apply st_get_in in E1; auto. symmetry. apply st_get_in; auto. eapply Permutation_in; eauto.
  - destruct (st_get name s2) as [t|] eqn:E2; auto. apply st_get_in in E2; auto. apply Permutation_sym in P. eapply Permutation_in in E2; [|exact P]. apply st_get_in in E2; auto. congruence.
Qed.
Lemma st_get_Forall2 d name st s' : Forall2 (fun ns ns' : string * tensor => fst ns = fst ns' /\ copy_of d (snd ns) (snd ns')) st s' ->
  match st_get name st with Some t => exists t', st_get name s' = Some t' /\ copy_of d t t' | None => st_get name s' = None end.
Proof.
  induction 1 as [|[n t] [n2 t2] st s' (EN & HC) H IH]; [reflexivity|]. cbn in EN, HC. subst n2. cbn [st_get]. destruct (String.eqb n name); [eauto|exact IH].
Qed.

(** ** C49 *)
(** saving a parameter succeeds; whoever loads the data, in whatever order the statistics arrive, and moves it to any device has the same parameter *)
Theorem C49_parameter : forall p, live p -> exists x, param_serialize m p = Ok x /\
  forall y, same_data x y -> exists p0, param_deserialize m' y = Ok p0 /\
  forall d als, (forall i, al_ok (als i)) -> exists p', param_move m' d als p0 = Ok p' /\ restored d p p'.
Proof.
  intros p ((dv & RV) & (dg & RG) & HS & ND). destruct (tensor_saved RV) as (tv & Ev & HV). destruct (tensor_saved RG) as (tg & Eg & HG). destruct (stats_saved 0 HS) as (sd & Es & HSD).
  exists (mkPData tv tg sd). split; [unfold param_serialize; rewrite Ev; cbn [bind]; rewrite Eg; cbn [bind]; rewrite Es; reflexivity|].
  intros y (Y1 & Y2 & Y3). cbn [pd_value pd_grad pd_stats] in Y1, Y2, Y3. destruct HV as (tv0 & Ev0 & HV). destruct HG as (tg0 & Eg0 & HG).
  destruct (Permutation_Forall2 Y3 HSD) as (st1 & P1 & HSD'). 
  assert (NE : exists s0, each (fun _ ns => t <- tensor_deserialize m' (snd ns) ;; Ok (fst ns, t)) 0 (pd_stats y) = Ok s0).
  { clear -HSD'. revert HSD'. generalize 0. generalize (pd_stats y). intros l i H. revert i. induction H as [|[n td] ns l st (_ & t0 & E & _) H IH]; intros i; [exists []; reflexivity|]. cbn [snd] in E. destruct (IH (S i)) as (s0 & E0). cbn [each fst snd]. rewrite E. cbn [bind]. rewrite E0. cbn [bind]. eauto. }
  destruct NE as (s0 & E0). exists (mkParam tv0 tg0 s0). split; [unfold param_deserialize; rewrite <- Y1, <- Y2, Ev0; cbn [bind]; rewrite Eg0; cbn [bind]; rewrite E0; reflexivity|].
  intros d als HA. destruct (HV d (als 0) (HA 0)) as (v & EV & CV). destruct (HG d (als 1) (HA 1)) as (g & EG & CG). destruct (stats_loaded d HA 0 2 HSD') as (s1 & s' & E1 & E2 & CS).
  assert (s1 = s0) by congruence. subst s1. exists (mkParam v g s'). split.
  - unfold param_move. cbn [p_value p_grad p_stats]. rewrite EV. cbn [bind]. rewrite EG. cbn [bind]. rewrite E2. reflexivity.
  - split; [exact CV|]. split; [exact CG|]. intros name. cbn [p_stats]. rewrite (st_get_perm name P1 ND). apply (st_get_Forall2 name CS).
Qed.

(** a model: its parameters are saved and loaded, everything else is as before; then move_to_device *)
Definition loaded (p p0 : param) : Prop := exists x y, param_serialize m p = Ok x /\ same_data x y /\ param_deserialize m' y = Ok p0.
Lemma each_restored d als : (forall i k, al_ok (als i k)) -> forall ps ps0 i, (forall p, In p ps -> live p) -> Forall2 loaded ps ps0 -> exists ps', each (fun i p => param_move m' d (als i) p) i ps0 = Ok ps' /\ Forall2 (restored d) ps ps'.
Proof.
  intros HA ps ps0 i HL H. revert i. induction H as [|p p0 ps ps0 (x & y & E1 & SD & E2) H IH]; intros i; [exists []; split; [reflexivity|constructor]|].
  destruct (C49_parameter (HL p (or_introl eq_refl))) as (x' & E1' & G). assert (x' = x) by congruence. subst x'. destruct (G y SD) as (p0' & E2' & G'). assert (p0' = p0) by congruence. subst p0'.
  destruct (G' d (als i) (HA i)) as (p' & E3 & R). destruct (IH (fun p H => HL p (or_intror H)) (S i)) as (ps' & E4 & RS). exists (p' :: ps'). cbn [each]. rewrite E3. cbn [bind]. rewrite E4. auto.
Qed.
Theorem C49_model : forall x x0 : model, (forall q p, holds x q p -> live p) -> alike x x0 -> Forall2 loaded (parameters x) (parameters x0) ->
  forall d als, (forall i k, al_ok (als i k)) -> exists x', model_move m' d als x0 = Ok x' /\ Forall2 (restored d) (parameters x) (parameters x') /\ alike x x'.
Proof.
  intros x x0 HL HA HP d als OK.
  assert (HL' : forall p, In p (parameters x) -> live p).
  { intros p HI. destruct (C48_enumeration x) as (prs & M1 & _ & _ & H). rewrite <- M1 in HI. apply in_map_iff in HI. destruct HI as ([q p1] & E & HI). cbn in E. subst p1. apply H in HI. eauto. }
  destruct (@each_restored d als OK _ _ 0 HL' HP) as (ps' & E & R). pose proof (C48_move_to_device m' d als x0) as A. rewrite E in A. destruct A as (x' & E' & P1 & _ & A). exists x'. split; auto. split; [congruence|]. eapply alike_trans; eauto.
Qed.
Theorem C49_model_can_be_saved : forall x : model, (forall q p, holds x q p -> live p) -> exists x0, alike x x0 /\ Forall2 loaded (parameters x) (parameters x0).
Proof.
  intros x HL. assert (HL' : forall p, In p (parameters x) -> live p).
  { intros p HI. destruct (C48_enumeration x) as (prs & M1 & _ & _ & H). rewrite <- M1 in HI. apply in_map_iff in HI. destruct HI as ([q p1] & E & HI). cbn in E. subst p1. apply H in HI. eauto. }
  assert (E : exists ps0, Forall2 loaded (parameters x) ps0).
  { revert HL'. generalize (parameters x). induction l as [|p l IH]; intros H; [exists []; constructor|]. destruct (C49_parameter (H p (or_introl eq_refl))) as (y & E1 & G). assert (S : same_data y y) by (repeat split; auto).
    destruct (G y S) as (p0 & E2 & _). destruct (IH (fun p H' => H p (or_intror H'))) as (ps0 & HP). exists (p0 :: ps0). constructor; auto. exists y, y. auto. }
  destruct E as (ps0 & HP). exists (stores x (parameters_mut x) ps0). rewrite params_stores by (symmetry; eapply Forall2_len; eauto). split; auto. apply alike_stores. auto.
Qed.
(** data with the wrong number of values loads, but is rejected by move_to_device *)
Theorem C49_wrong_length : forall (td : tensor_data K) t0, tensor_deserialize m' td = Ok t0 -> fits (t_shape t0) -> length (td_values td) <> tot (t_shape t0) ->
  forall d (al : alloc_oracle K), al_ok al -> move_to_device m' d al t0 = Panic.
Proof.
  intros td t0 E HF HN d al HA. unfold tensor_deserialize in E. apply bind_Ok in E. destruct E as (s & _ & E). injection E as <-. cbn [t_shape new_host_tensor] in HF, HN.
  unfold move_to_device. cbn [t_host new_host_tensor assert bind t_shape unwrap]. rewrite (fits_size m' HF). cbn [bind]. destruct (al_ok_fits HA HF) as (l & El & _). rewrite El. cbn [bind].
  unfold reset_tensor_by_slice. cbn [t_shape]. rewrite (fits_size m' HF). cbn [bind]. rewrite Nat2N.id. replace (tot s =? length (td_values td)) with false by (symmetry; apply Nat.eqb_neq; auto). reflexivity.
Qed.
(** before it is moved, a loaded tensor cannot be saved, read or computed with; after, it cannot be moved again *)
Theorem C49_host_tensor : forall (td : tensor_data K) t0, tensor_deserialize m' td = Ok t0 -> tensor_serialize m t0 = Panic /\ to_vec m t0 = Panic /\ device_of t0 = Panic.
Proof. intros td t0 E. unfold tensor_deserialize in E. apply bind_Ok in E. destruct E as (s & _ & E). injection E as <-. repeat split. Qed.
Theorem C49_moved_once : forall d0 (t : tensor), ready d0 t -> forall d al, move_to_device m' d al t = Panic.
Proof. intros d0 t (_ & _ & H & _) d al. unfold move_to_device. rewrite H. reflexivity. Qed.
End C49.

(** ** A concrete model: a struct with a parameter, a skipped parameter, and a vector holding a parameter and a struct with other data *)
Definition skip_attr : attr := Some (List (word "parameter") [NLit; NMeta (Path (word "skip"))]).
Definition fld (n : string) (al : list attr) : field := mkField n al.
Definition pz (v : Z) : param Znum := @mkParam Znum (tz 1 [2%N] 1 [v; (v + 1)%Z]) (tz 1 [2%N] 1 [0; 0]%Z) [("s"%string, tz 1 [2%N] 1 [7; v]%Z)].
Definition net : model Znum := MStruct
  [(fld "w" [Some (Path (word "doc"))], MParam (pz 1)); (fld "frozen" [skip_attr], MParam (pz 2));
   (fld "layers" [Some (List (word "serde") [NMeta (Path (word "skip"))])], MVec [MParam (pz 3); MStruct [(fld "k" [Some (Path (word "doc")); skip_attr], MOther 5); (fld "b" [], MParam (pz 4))]])].
Example C48_applies : parameters net = [pz 1; pz 3; pz 4] /\ parameters_mut net = [[0]; [2; 0]; [2; 1; 1]] /\ holds net [2; 1; 1] (pz 4) /\ ~ (exists p, holds net [1] p).
Proof.
  split; [reflexivity|]. split; [reflexivity|]. split.
  - apply holds_iff. split; [cbn; auto|reflexivity].
  - intros (p & H). apply holds_iff in H. destruct H as (H & _). cbn in H. repeat (destruct H as [H|H]; try discriminate). contradiction.
Qed.
Example C49_applies : (forall q p, holds net q p -> live p) /\ tensor_deserialize Debug (@mkTData Znum (mkSerde [2%N] 1) [1; 2; 3]%Z) = Ok (@new_host_tensor Znum (sh [2%N] 1) [1; 2; 3]%Z) /\ fits (sh [2%N] 1) /\ tot (sh [2%N] 1) = 2.
Proof.
  split.
  - intros q p H. apply holds_iff in H. destruct H as (HI & HL). cbn in HI. 
    assert (L : forall v, live (pz v)).
    { intros v. split; [exists 1; rdy|]. split; [exists 1; rdy|]. split; [|repeat constructor; intros []]. intros n t [E|[]]. injection E as <- <-. exists 1. rdy. }
    repeat (destruct HI as [HI|HI]; [subst q; cbn in HL; injection HL as <-; apply L|]). contradiction.
  - split; [reflexivity|]. split; [apply (sh_fits [2%N] (b := 1%N)); reflexivity|reflexivity].
Qed.
