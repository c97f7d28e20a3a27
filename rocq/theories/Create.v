(** * Create: what node creation accepts *)
From Verif Require Export Typed.
Set Implicit Arguments.
Unset Strict Implicit.

Section Create.
Variable K : num.
Notation kind := (kind K).
Notation nat32 x := (N.to_nat x).

(** number of arguments; [None] for the concatenations *)
Definition arity (k : kind) : option nat :=
  match k with
  | KInput _ | KInputOwner _ | KParameter _ => Some 0
  | KAdd | KSub | KMul | KDiv | KPow
  | KAddScalar | KSubScalarL | KSubScalarR | KMulScalar | KDivScalarL | KDivScalarR | KPowScalarL | KPowScalarR
  | KSoftmaxCrossEntropy _ | KMatmul => Some 2
  | KConcat _ | KBatchConcat => None
  | _ => Some 1
  end.
(** what the functions on nodes do not check when the node is created, and what
    they ensure before they create it *)
Definition unchecked (k : kind) (ss : list shape) : Prop :=
  match k with
  | KAddScalar | KSubScalarL | KSubScalarR | KMulScalar | KDivScalarL | KDivScalarR | KPowScalarL | KPowScalarR =>
      forall s, nth_error ss 1 = Some s -> is_scalar s = true
  | KTriangularL n | KTriangularU n => forall x, nth_error ss 0 = Some x -> matrix x /\ ext x 1 = ext x 0 /\ (N.of_nat (ext x 0) + n <= two32)%N
  | KReshape r => forall x, nth_error ss 0 = Some x -> tot r = tot x
  | KSoftmaxCrossEntropy d => forall x t, ss = [x; t] -> (is_scalar t = false \/ commutes K) /\ forall s0, batchable x t s0 -> fits s0
  | KPick ids _ | KSparseSoftmaxCrossEntropy ids _ | KBatchPick ids => (N.of_nat (length ids) < two32)%N
  | KBatchSplit n => (n < two32)%N
  | _ => True
  end.
Definition arity_ok (k : kind) (ss : list shape) : Prop := match arity k with Some n => length ss = n | None => True end.

Lemma batchable_of a b s : wf a -> wf b -> so_elementwise a b = Ok s -> batchable a b s.
Proof.
  intros Wa Wb E. apply so_elementwise_iff in E; auto. destruct E as (H1 & H2 & H3). split; [intros i; unfold ext; rewrite H1; auto|].
  split; [unfold compat, bat in *; lia|]. eapply is_shape_nat; [exact H3|reflexivity|]. unfold bat. rewrite N2Nat.inj_max. auto.
Qed.
Lemma is_upd s x d k b k' : is_shape s (upd_ext x d k) b -> k' = nat32 k -> shape_is s (eset x d k') (nat32 b).
Proof. intros H E. eapply is_shape_nat; [exact H| |reflexivity]. intros; apply eset_upd'; auto. Qed.
Lemma shape1_inv f ss rs : shape1 f ss = Ok rs -> exists x r l, ss = x :: l /\ rs = [r] /\ f x = Ok r.
Proof.
  unfold shape1. intros E. apply bind_Ok in E. destruct E as (x & E1 & E). apply bind_Ok in E. destruct E as (r & E2 & E).
  destruct ss as [|a l]; [discriminate|]. cbn in E1. inversion E1; inversion E; subst. eauto 8.
Qed.
Lemma shape2_inv f ss rs : shape2 f ss = Ok rs -> exists a b r l, ss = a :: b :: l /\ rs = [r] /\ f a b = Ok r.
Proof.
  unfold shape2. intros E. apply bind_Ok in E. destruct E as (x & E1 & E). apply bind_Ok in E. destruct E as (y & E2 & E). apply bind_Ok in E. destruct E as (r & E3 & E).
  destruct ss as [|a [|b l]]; cbn in E1, E2; try discriminate. inversion E1; inversion E2; inversion E; subst. eauto 8.
Qed.

Theorem creation_typed k ss rs : Forall wf ss -> arity_ok k ss -> unchecked k ss -> forward_shape Debug k ss = Ok rs -> typed k ss rs.
Proof.
  intros W HA HU E. unfold arity_ok in HA.
  assert (I1 : forall f (P : shape -> shape -> Prop), shape1 f ss = Ok rs -> length ss = 1 -> (forall x r, ss = [x] -> wf x -> f x = Ok r -> P x r) -> on1 P ss rs).
  { intros f P H L HP. destruct (shape1_inv H) as (x & r & l & -> & -> & Hf). destruct l; [|discriminate]. inversion W; subst. exists x, r. auto. }
  assert (I2 : forall f (P : shape -> shape -> shape -> Prop), shape2 f ss = Ok rs -> length ss = 2 -> (forall a b r, ss = [a; b] -> wf a -> wf b -> f a b = Ok r -> P a b r) -> on2 P ss rs).
  { intros f P H L HP. destruct (shape2_inv H) as (a & b & r & l & -> & -> & Hf). destruct l; [|discriminate]. inversion W; subst. inversion H3; subst. exists a, b, r. auto 6. }
  destruct k; cbn [arity] in HA; cbn [forward_shape] in E; cbn [typed]; cbn [unchecked] in HU;
  try (unfold shape_same in E; apply (I1 _ _ E HA); intros x r _ _ Ex; inversion Ex; auto; fail);
  try (unfold shape_ab in E; apply (I2 _ _ E HA); intros a b r _ Wa Wb Ex; apply batchable_of; auto; fail);
  try (unfold shape_ab in E; apply (I2 _ _ E HA); intros a b r -> Wa Wb Ex; destruct (batchable_of Wa Wb Ex) as (H1 & H2 & H3); split; [apply scalar_ext; auto|auto]; fail);
  try (inversion E; destruct ss; [auto|discriminate]).
  - (* broadcast *) apply (I1 _ _ E HA). intros x r _ Wx Ex. apply so_broadcast_iff in Ex; auto. destruct Ex as (H1 & H2 & H3 & H4).
    split; auto. split; [unfold ext; rewrite H2; auto|]. split; auto. eapply is_upd; eauto.
  - apply (I1 _ _ E HA). intros x r _ Wx Ex. apply resize_dim_iff in Ex; auto. destruct Ex as (H1 & H2 & H3). split; auto. eapply is_upd; eauto.
  - apply (I1 _ _ E HA). intros x r _ Wx Ex. apply resize_dim_iff in Ex; auto. destruct Ex as (H1 & H2 & H3). split; auto. eapply is_upd; eauto.
  - apply (I1 _ _ E HA). intros x r _ Wx Ex. apply resize_dim_iff in Ex; auto. destruct Ex as (H1 & H2 & H3). split; auto. eapply is_upd; eauto.
  - apply (I1 _ _ E HA). intros x r _ Wx Ex. apply resize_dim_iff in Ex; auto. destruct Ex as (H1 & H2 & H3). split; auto. eapply is_upd; eauto.
  - (* cross entropy *) apply (I2 _ _ E HA). intros x t r Es Wx Wt Ex. apply bind_Ok in Ex. destruct Ex as (s0 & E0 & Ex).
    destruct (HU _ _ Es) as (U1 & U2). pose proof (batchable_of Wx Wt E0) as HB. assert (W0 : wf s0) by apply HB.
    apply resize_dim_iff in Ex; auto. destruct Ex as (H1 & H2 & H3). split; auto. split; auto. exists s0. split; auto. split; auto. eapply is_upd; eauto.
  - (* sparse *) apply (I1 _ _ E HA). intros x r _ Wx Ex. apply so_pick_iff in Ex; auto. destruct Ex as (H1 & H2 & H3 & H4 & H5). split; auto. split; auto. split; auto.
    split; [unfold compat, bat in *; lia|]. split; [rewrite Forall_forall in *; intros id Hid; specialize (H4 _ Hid); unfold ext; lia|].
    eapply is_shape_nat; [exact H5|intros; apply eset_upd'; auto|]. unfold bat. rewrite N2Nat.inj_max, Nat2N.id. auto.
  - (* matmul *) apply (I2 _ _ E HA). intros a b r _ Wa Wb Ex. apply so_matmul_iff in Ex; auto. destruct Ex as (H1 & H2 & H3 & H4 & H5).
    split; [intros i Hi; unfold ext; rewrite H1; auto|]. split; [intros i Hi; unfold ext; rewrite H2; auto|]. split; [unfold ext; rewrite H3; auto|].
    split; [unfold compat, bat in *; lia|]. eapply is_shape_nat; [exact H5|intros; apply m2_ext2|]. unfold bat. rewrite N2Nat.inj_max. auto.
  - (* transpose *) apply (I1 _ _ E HA). intros x r _ Wx Ex. apply so_transpose_iff in Ex; auto. destruct Ex as (H1 & H2).
    split; [intros i Hi; unfold ext; rewrite H1; auto|]. eapply is_shape_nat; [exact H2|intros; apply m2_ext2|]. auto.
  - (* triangular *) unfold shape_same in E; apply (I1 _ _ E HA); intros x r -> _ Ex; inversion Ex; subst. destruct (HU _ eq_refl) as (? & ? & ?). auto.
  - unfold shape_same in E; apply (I1 _ _ E HA); intros x r -> _ Ex; inversion Ex; subst. destruct (HU _ eq_refl) as (? & ? & ?). auto.
  - (* pick *) apply (I1 _ _ E HA). intros x r _ Wx Ex. apply so_pick_iff in Ex; auto. destruct Ex as (H1 & H2 & H3 & H4 & H5). split; auto. split; auto. split; auto.
    split; [unfold compat, bat in *; lia|]. split; [rewrite Forall_forall in *; intros id Hid; specialize (H4 _ Hid); unfold ext; lia|].
    eapply is_shape_nat; [exact H5|intros; apply eset_upd'; auto|]. unfold bat. rewrite N2Nat.inj_max, Nat2N.id. auto.
  - (* slice *) apply (I1 _ _ E HA). intros x r _ Wx Ex. apply so_slice_iff in Ex; auto. destruct Ex as (H1 & H2 & H3 & H4).
    split; auto. split; auto. split; [unfold ext; lia|]. eapply is_upd; [exact H4|]. lia.
  - (* split *) unfold split_shapes in E. apply bind_Ok in E. destruct E as (x & E0 & E). destruct ss as [|x' [|]]; try discriminate. cbn in E0. inversion E0; subst x'. inversion W as [|? ? Wx _]; subst.
    apply bind_Ok in E. destruct E as (sz & E1 & E). apply bind_Ok in E. destruct E as (r & E2 & E). inversion E; subst.
    unfold split_skip in E1. inv_ok. apply resize_dim_iff in E2; auto. destruct E2 as (H1 & H2 & H3).
    exists x, r. split; auto. split; auto. split; auto.
    match goal with H : negb _ = true |- _ => apply negb_true_iff, N.eqb_neq in H; rename H into Hn end.
    match goal with H : (_ =? _)%N = true |- _ => apply N.eqb_eq in H; rename H into Hm end.
    split; [lia|]. split.
    + unfold ext. rewrite <- Hm. rewrite N2Nat.inj_mul. apply Nat.mod_mul. lia.
    + eapply is_upd; [exact H3|]. unfold ext. rewrite N2Nat.inj_div. auto.
  - (* batch concat *) apply bind_Ok in E. destruct E as (s & E & Er). inversion Er; subst. apply so_batch_concat_iff in E; auto. destruct E as (x0 & ss0 & -> & H1 & H2).
    exists x0, ss0, s. split; auto. split; auto. split; [eapply Forall_impl; [|exact H1]; cbv beta; intros a Ha i; unfold ext; rewrite Ha; auto|].
    eapply is_shape_nat; [exact H2|reflexivity|]. clear. induction (x0 :: ss0) as [|a l IH]; auto. cbn [map]. unfold list_sum, sumN in *. cbn [fold_right]. rewrite IH. unfold bat. lia.
  - (* batch pick *) apply (I1 _ _ E HA). intros x r _ Wx Ex. apply so_batch_pick_iff in Ex; auto. destruct Ex as (H1 & H2 & H3). split; auto. split; auto.
    split; [rewrite Forall_forall in *; intros id Hid; specialize (H2 _ Hid); unfold bat; lia|]. eapply is_shape_nat; [exact H3|reflexivity|]. rewrite Nat2N.id. auto.
  - (* batch slice *) apply (I1 _ _ E HA). intros x r _ Wx Ex. apply so_batch_slice_iff in Ex; auto. destruct Ex as (H1 & H2 & H3).
    split; auto. split; [unfold bat; lia|]. eapply is_shape_nat; [exact H3|reflexivity|]. lia.
  - (* batch split *) unfold batch_split_shapes in E. apply bind_Ok in E. destruct E as (x & E0 & E). destruct ss as [|x' [|]]; try discriminate. cbn in E0. inversion E0; subst x'. inversion W as [|? ? Wx _]; subst.
    apply bind_Ok in E. destruct E as (sz & E1 & E). apply bind_Ok in E. destruct E as (r & E2 & E). inversion E; subst.
    unfold split_skip in E1. inv_ok.
    match goal with H : negb _ = true |- _ => apply negb_true_iff, N.eqb_neq in H; rename H into Hn end.
    match goal with H : (_ =? _)%N = true |- _ => apply N.eqb_eq in H; rename H into Hm end.
    pose proof (wf_batch Wx) as HB. apply resize_batch_iff in E2; auto; [|apply N.le_lt_trans with (batch x); [apply N.div_le_upper_bound; nia|lia]].
    exists x, r. split; auto. split; auto. split; [lia|]. split.
    + unfold bat. rewrite <- Hm. rewrite N2Nat.inj_mul. apply Nat.mod_mul. lia.
    + eapply is_shape_nat; [exact E2|reflexivity|]. unfold bat. rewrite N2Nat.inj_div. auto.
  - (* batch sum *) apply (I1 _ _ E HA). intros x r _ Wx Ex. apply resize_batch_iff in Ex; auto; [|reflexivity]. eapply is_shape_nat; [exact Ex|reflexivity|reflexivity].
  - (* concat *) apply bind_Ok in E. destruct E as (s & E & Er). inversion Er; subst. apply so_concat_iff in E; auto. destruct E as (x0 & ss0 & -> & H0 & H1 & H2 & H3).
    exists x0, ss0, s. split; auto. split; auto. split; auto. split; [eapply Forall_impl; [|exact H1]; cbv beta; intros a Ha i Hi; unfold ext; rewrite Ha; auto|].
    split.
    + destruct H2 as (C1 & C2). split.
      * rewrite Forall_forall in *. intros b Hb. apply in_map_iff in Hb. destruct Hb as (a & <- & Ha). specialize (C1 (batch a) (in_map _ _ _ Ha)). unfold bat. lia.
      * destruct C2 as [C2|C2]; [left; unfold bat; lia|right]. apply in_map_iff in C2. destruct C2 as (a & Ea & Ha). apply in_map_iff. exists a. split; auto. unfold bat. lia.
    + eapply is_upd; [exact H3|]. clear. unfold sum_ext. induction (x0 :: ss0) as [|a l IH]; auto. cbn [map]. unfold list_sum, sumN in *. cbn [fold_right]. rewrite IH. unfold ext. lia.
  - (* reshape *) destruct ss as [|x [|]]; try discriminate. inversion E; subst. exists x, s. auto 6.
Qed.
End Create.
