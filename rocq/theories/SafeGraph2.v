(** * SafeGraph2: every operator is safe, forward and backward (lemmas) *)
From Verif Require Export SafeGraph.
Set Implicit Arguments.
Unset Strict Implicit.

Section Family.
Variable K : num.
Notation F := (F K).
Notation tensor := (tensor K).
Notation nat32 x := (N.to_nat x).
Implicit Types (d : nat) (al : alloc_oracle K) (x y a b t gx gy : tensor).
Local Opaque call_fw call_bw call_u32 fw_registry bw_registry new_alloc alloc.

(** tensors that agree: given extents, minibatch 1 or B *)
Definition fam (e : nat -> nat) (B : nat) t : Prop := sane t /\ (forall i, ext (t_shape t) i = e i) /\ (bat (t_shape t) = 1 \/ bat (t_shape t) = B) /\ 1 <= B.
Lemma fam_sane e B t : fam e B t -> sane t. Proof. intros H; apply H. Qed.
Lemma fam_assign e B x y : fam e B x -> fam e B y -> assign_ok x y.
Proof. intros (_ & H1 & H2 & _) (_ & H3 & H4 & _). split; [intros i; congruence|lia]. Qed.
Lemma fam_joins e B a b t : fam e B a -> fam e B b -> sane t -> joins (t_shape a) (t_shape b) (t_shape t) -> fam e B t.
Proof. intros (_ & H1 & H2 & L) (_ & H3 & H4 & _) S (J1 & J2 & J3 & _). split; auto. split; [intros i; rewrite J1; auto|]. split; [lia|auto]. Qed.
Lemma fam_same e B a t : fam e B a -> sane t -> t_shape t = t_shape a -> fam e B t.
Proof. intros (_ & H) S E. split; auto. rewrite E. exact H. Qed.
Lemma fam_shape e e' B t u : fam e B u -> sane t -> shape_is (t_shape t) e' (bat (t_shape u)) -> fam e' B t.
Proof. intros (_ & H1 & H2 & L) S (W & E1 & E2). split; auto. split; auto. split; auto. rewrite E2. auto. Qed.

Lemma good_and A (P Q : A -> Prop) r : good P r -> (forall z : A, r = Ok z -> P z -> Q z) -> good Q r.
Proof. destruct r; cbn; auto. Qed.
Lemma f_mul e B al a b : al_ok al -> fam e B a -> fam e B b -> good (fam e B) (t_mul Debug al a b).
Proof. intros HA Fa Fb. eapply good_and; [apply g_t_mul; auto; eapply fam_sane; eauto|]. intros t E S. eapply fam_joins; [exact Fa|exact Fb|exact S|]. eapply sh_t_mul; [exact (fam_sane Fa)|exact (fam_sane Fb)| |exact E]. intros i. destruct Fa as (_ & Ha & _), Fb as (_ & Hb & _). congruence. Qed.
Lemma f_sub e B al a b : al_ok al -> fam e B a -> fam e B b -> good (fam e B) (t_sub Debug al a b).
Proof. intros HA Fa Fb. eapply good_and; [apply g_t_sub; auto; eapply fam_sane; eauto|]. intros t E S. eapply fam_joins; [exact Fa|exact Fb|exact S|]. eapply sh_t_sub; [exact (fam_sane Fa)|exact (fam_sane Fb)| |exact E]. intros i. destruct Fa as (_ & Ha & _), Fb as (_ & Hb & _). congruence. Qed.
Lemma f_div e B al a b : al_ok al -> fam e B a -> fam e B b -> good (fam e B) (t_div Debug al a b).
Proof. intros HA Fa Fb. eapply good_and; [apply g_t_div; auto; eapply fam_sane; eauto|]. intros t E S. eapply fam_joins; [exact Fa|exact Fb|exact S|]. eapply sh_t_div; [exact (fam_sane Fa)|exact (fam_sane Fb)| |exact E]. intros i. destruct Fa as (_ & Ha & _), Fb as (_ & Hb & _). congruence. Qed.
Lemma f_x e B name op d al x : assoc (fw_registry K Debug) name = Some (fx (k_fw_x Debug op)) -> odd_name name = false -> al_ok al -> fam e B x -> good (fam e B) (define_fw_x Debug name d al x).
Proof. intros HN HO HA Fx. eapply good_and; [eapply g_fw_x; eauto; eapply fam_sane; eauto|]. intros t E S. eapply fam_same; eauto. eapply sh_x; eauto. Qed.
Local Transparent fw_registry.
Lemma f_exp e B al x : al_ok al -> fam e B x -> good (fam e B) (t_exp Debug al x).
Proof. intros HA Fx. unfold t_exp, via1. eapply good_bind; [apply good_dev|]. intros d _ _. eapply f_x; eauto; reflexivity. Qed.
Lemma f_ln e B al x : al_ok al -> fam e B x -> good (fam e B) (t_ln Debug al x).
Proof. intros HA Fx. unfold t_ln, via1. eapply good_bind; [apply good_dev|]. intros d _ _. eapply f_x; eauto; reflexivity. Qed.
Lemma f_sigmoid e B d al x : al_ok al -> fam e B x -> good (fam e B) (sigmoid_fw Debug d al x).
Proof. intros HA Fx. eapply f_x; eauto; reflexivity. Qed.
Local Opaque fw_registry.
Lemma f_flat_sum e B al0 al1 x : al_ok al0 -> al_ok al1 -> fam e B x -> good (fam (fun _ => 1) B) (flat_sum Debug al0 al1 x).
Proof.
  intros H0 H1 Fx. eapply good_and with (P := @sane K).
  - unfold flat_sum. eapply good_bind; [apply g_flatten; auto; eapply fam_sane; eauto|]. intros f _ Sf. unfold t_sum. apply Safe3.via_dev. intros. apply g_sum; auto.
  - intros t E S. eapply fam_shape; [exact Fx|exact S|]. exact (sh_flat_sum H0 (fam_sane Fx) E).
Qed.
Lemma f_sum e B al x dim : al_ok al -> fam e B x -> good (fam (fun i => if i =? nat32 dim then 1 else e i) B) (t_sum Debug al x dim).
Proof.
  intros HA Fx. eapply good_and with (P := @sane K); [unfold t_sum; apply Safe3.via_dev; intros; apply g_sum; auto; eapply fam_sane; eauto|]. intros t E S.
  destruct (sh_t_sum (fam_sane Fx) E) as (_ & W & H1 & H2). eapply fam_shape; [exact Fx|exact S|]. split; auto. split; auto. intros i. rewrite H1. unfold eset. destruct (i =? nat32 dim); auto. apply Fx.
Qed.
Lemma f_broadcast e B al x dim n : al_ok al -> fam e B x -> good (fam (fun i => if i =? nat32 dim then nat32 n else e i) B) (t_broadcast Debug al x dim n).
Proof.
  intros HA Fx. eapply good_and with (P := @sane K); [unfold t_broadcast; apply Safe3.via_dev; intros; apply g_broadcast; auto; eapply fam_sane; eauto|]. intros t E S.
  destruct (sh_t_broadcast (fam_sane Fx) E) as (_ & _ & W & H1 & H2). eapply fam_shape; [exact Fx|exact S|]. split; auto. split; auto. intros i. rewrite H1. unfold eset. destruct (i =? nat32 dim); auto. apply Fx.
Qed.
Lemma fam_ext e e' B t : (forall i, e i = e' i) -> fam e B t -> fam e' B t.
Proof. intros H (S & H1 & H2). split; auto. split; auto. intros i. rewrite H1. auto. Qed.
Lemma f_logsumexp e B d al x dim : al_ok al -> fam e B x -> good (fam (fun i => if i =? nat32 dim then 1 else e i) B) (logsumexp_fw Debug d al x dim).
Proof.
  intros HA Fx. eapply good_and with (P := @sane K); [apply g_logsumexp; auto; eapply fam_sane; eauto|]. intros t E S.
  apply (@sh_reduce K Debug "logsumexp_fw_impl" _ _ _ _ _ eq_refl) in E. apply resize_dim_iff in E; [|apply (sane_wf (fam_sane Fx))]. destruct E as (_ & _ & E).
  destruct (is_upd E (eq_refl _)) as (W & H1 & H2). eapply fam_shape; [exact Fx|exact S|]. split; auto. split; auto. intros i. rewrite H1. unfold eset. destruct (i =? nat32 dim); auto. apply Fx.
Qed.
Lemma f_ln_softmax e B als x dim : (forall i, al_ok (als i)) -> fam e B x -> good (fam e B) (t_ln_softmax Debug als x dim).
Proof.
  intros HA Fx. unfold t_ln_softmax. eapply good_bind; [eapply good_bind; [apply good_dev|]; intros; apply f_logsumexp; eauto|]. intros l _ Fl.
  eapply good_bind; [apply f_broadcast; eauto|]. intros b _ Fb. apply f_sub; auto. eapply fam_ext; [|exact Fb]. cbv beta. intros i. destruct (Nat.eqb_spec i (nat32 dim)); auto. subst i. apply Fx.
Qed.
Lemma f_softmax e B als x dim : (forall i, al_ok (als i)) -> fam e B x -> good (fam e B) (t_softmax Debug als x dim).
Proof. intros HA Fx. unfold t_softmax. eapply good_bind; [eapply f_ln_softmax; eauto|]. intros y _ Fy. apply f_exp; auto. Qed.

Local Transparent fw_registry.
Lemma f_plus e B r gx : good (fam e B) r -> fam e B gx -> good (@sane K) (plus Debug r gx).
Proof. intros H Fx. unfold plus. eapply good_bind; [exact H|]. intros t _ Ft. apply g_assign; [eapply fam_sane; eauto..|eapply fam_assign; eauto]. Qed.
Lemma f_minus e B r gx : good (fam e B) r -> fam e B gx -> good (@sane K) (minus Debug r gx).
Proof.
  intros H Fx. unfold minus. eapply good_bind; [exact H|]. intros t _ Ft. unfold t_sub_assign. apply good_bind with (Q := anything); [apply good_dev|]. intros d _ _.
  unfold sub_assign. eapply g_assign_gen; [reflexivity|eapply fam_sane; eauto..|eapply fam_assign; eauto].
Qed.

End Family.
