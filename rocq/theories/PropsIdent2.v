(** * PropsIdent2: C68 on f32 and over the reals *)
From Flocq Require Import Core IEEE754.BinarySingleNaN.
From Verif Require Import PVocab PropsElem PropsMove Typed PropsOps PropsIdent PropsSoftmax Float32 PropsNan.
Set Implicit Arguments.
Close Scope R_scope. Open Scope nat_scope.

(** ** f32: the laws that (a b)^T = b^T a^T and max(x) = -min(-x) need hold, NaN and infinities included *)
Lemma opp_compare (u v : f32) : SpecFloat.SFcompare (B2SF (Bopp u)) (B2SF (Bopp v)) = SpecFloat.SFcompare (B2SF v) (B2SF u).
Proof.
  change (SpecFloat.SFcompare (B2SF v) (B2SF u)) with (Bcompare v u). rewrite (Bcompare_swap _ _ u v). unfold Bcompare.
  destruct u as [[]|[]| |[] mu eu Hu], v as [[]|[]| |[] mv ev Hv]; cbn [Bopp B2SF SpecFloat.SFcompare negb]; try reflexivity;
    destruct (eu ?= ev)%Z; cbn [CompOpp]; try reflexivity; rewrite ?CompOpp_involutive; reflexivity.
Qed.
Theorem C68_f32_laws : forall M : libm, commutes (Fnum M) /\ (forall v : F (Fnum M), nneg (Fnum M) (nneg (Fnum M) v) = v) /\
  (forall u v : F (Fnum M), nlt (Fnum M) (nneg (Fnum M) u) (nneg (Fnum M) v) = nlt (Fnum M) v u).
Proof.
  intros M. split; [apply C61_commutes|]. split; [intros v; apply (@Bopp_involutive 24 128)|].
  intros u v. cbn [nlt nneg Fnum]. unfold Bltb, SpecFloat.SFltb. rewrite (opp_compare u v). reflexivity.
Qed.
(** so on f32, whatever the elements *)
Theorem C68_f32_transpose_of_product : forall (M : libm) m d (als : nat -> alloc_oracle (Fnum M)) a b s, (forall i, al_ok (als i)) ->
  ready d a -> ready d b -> mat_ok a b ->
  shape_is s (m2 (ext (t_shape a) 0) (ext (t_shape b) 1)) (Nat.max (bat (t_shape a)) (bat (t_shape b))) -> fits s ->
  same m (y <- t_matmul m (als 0) a b ;; t_transpose m (als 1) y)
       (bt <- t_transpose m (als 2) b ;; at' <- t_transpose m (als 3) a ;; t_matmul m (als 4) bt at').
Proof. intros. eapply C68_transpose_of_product; eauto. apply C68_f32_laws. Qed.
Theorem C68_f32_max_of_min : forall (M : libm) m d (als : nat -> alloc_oracle (Fnum M)) x dim, (forall i, al_ok (als i)) -> ready d x -> (dim < 8)%N ->
  same m (t_max m (als 0) x dim) (n <- t_neg m (als 1) x ;; y <- t_min m (als 2) n dim ;; t_neg m (als 3) y).
Proof. intros. eapply C68_max_of_min; eauto; apply C68_f32_laws. Qed.
(** on f32 the two triangles do not add up to the matrix in one respect: -0 becomes 0; and neither do sums associate *)
Theorem C68_f32_triangular_parts_refuted : exists x : tensor K0, ready 0 x /\ to_vec Debug x = Ok [mzero] /\
  (l <- t_triangular_l Debug alf x 0 ;; u <- t_triangular_u Debug alf x 1 ;; y <- t_add Debug alf l u ;; to_vec Debug y) = Ok [v32 0].
Proof. exists (tf []%N 1 [mzero]). split; [rdyf|]. split; vm_compute; reflexivity. Qed.
Theorem C68_f32_associativity_refuted : ~ adds_up K0.
Proof.
  intros (A & _). pose (big := v32 16777216). specialize (A (big : F K0) (v32 1 : F K0) (v32 1 : F K0)). apply (f_equal (fun v : f32 => Beqb v big)) in A. vm_compute in A. discriminate.
Qed.

(** ** Over the reals *)
Open Scope R_scope.
Lemma R_ring : ring_like Rnum.
Proof. unfold ring_like, adds_up. cbn [nadd nmul n0 Rnum F]. ssplit; intros; ring. Qed.
Section Real.
Variable m : build.
Variables (d : nat) (x : rtensor) (dim : N).
Hypothesis HR : ready d x.
Hypothesis Hd : (N.to_nat dim < 8)%nat.
Lemma expsum_shift n (u : nat -> R) k : expsum n (fun j => u j + k) = expsum n u * exp k.
Proof. unfold expsum. rewrite <- rsum_scal_r. apply rsum_ext. intros i _. apply exp_plus. Qed.
(** adding a number to all elements does not change softmax and log softmax, and adds it to logsumexp *)
Theorem C68_softmax_shift : forall als k, (forall i, al_ok (als i)) ->
  same m (y <- t_add_const m (als 0%nat) x k ;; t_softmax m (fun i => als (1 + i)%nat) y dim) (t_softmax m (fun i => als (9 + i)%nat) x dim) /\
  same m (y <- t_add_const m (als 0%nat) x k ;; t_ln_softmax m (fun i => als (1 + i)%nat) y dim) (t_ln_softmax m (fun i => als (9 + i)%nat) x dim) /\
  same m (y <- t_add_const m (als 0%nat) x k ;; t_logsumexp m (als 1%nat) y dim) (y <- t_logsumexp m (als 2%nat) x dim ;; t_add_const m (als 3%nat) y k).
Proof.
  intros als k HA. pose proof (C17_methods Rnum m) as (_ & _ & _ & _ & _ & _ & _ & _ & _ & _ & _ & _ & _ & CC & _).
  destruct (CC d (als 0%nat) x k (HA 0%nat) HR) as (y & -> & Hy). cbn [bind].
  set (e := N.to_nat dim) in * . assert (Hp : (1 <= ext (t_shape x) e)%nat) by apply (ext_pos e (ready_wf HR)).
  assert (AL : forall c b j, (forall i, i <> e -> (c i < ext (t_shape x) i)%nat) -> (b < bat (t_shape x))%nat -> (j < ext (t_shape x) e)%nat -> along y e c b j = along x e c b j + k).
  { intros c b j Hc Hb Hj. unfold along. rewrite (at_is Hy); auto. intros i. unfold cset. destruct (Nat.eqb_spec i e) as [->|Ne]; auto. }
  assert (ES : forall c b, (forall i, i <> e -> (c i < ext (t_shape x) i)%nat) -> (b < bat (t_shape x))%nat -> expsum (ext (t_shape x) e) (along y e c b) = expsum (ext (t_shape x) e) (along x e c b) * exp k).
  { intros c b Hc Hb. rewrite <- expsum_shift. unfold expsum. apply rsum_ext. intros i Hi. rewrite AL; auto. }
  assert (SY : t_shape y = t_shape x) by exact (is_tensor_shape Hy).
  ssplit.
  - pose proof (@C50_softmax m d y dim (is_tensor_ready Hy) Hd (fun i => als (1 + i)%nat) (fun i => HA _)) as Y1. pose proof (@C50_softmax m d x dim HR Hd (fun i => als (9 + i)%nat) (fun i => HA _)) as Y2.
    rewrite SY in Y1. fold e in Y1, Y2. eapply yields_same; [exact Y1|exact Y2|]. intros c b Hc Hb. cbv beta. unfold softmax_of. rewrite ES, AL by auto. rewrite exp_plus. cbn [F Rnum]. field.
    split; [|apply Rgt_not_eq, exp_pos]. apply Rgt_not_eq. apply expsum_pos. exact Hp.
  - pose proof (@C50_ln_softmax m d y dim (is_tensor_ready Hy) Hd (fun i => als (1 + i)%nat) (fun i => HA _)) as Y1. pose proof (@C50_ln_softmax m d x dim HR Hd (fun i => als (9 + i)%nat) (fun i => HA _)) as Y2.
    rewrite SY in Y1. fold e in Y1, Y2. eapply yields_same; [exact Y1|exact Y2|]. intros c b Hc Hb. cbv beta. unfold ln_softmax_of. rewrite ES, AL by auto. rewrite ln_mult, ln_exp; [cbn [F Rnum]; ring|apply expsum_pos; exact Hp|apply exp_pos].
  - destruct (@C50_logsumexp m d y dim (is_tensor_ready Hy) Hd (als 1%nat) (HA _)) as (s1 & Hs1 & Y1). destruct (@C50_logsumexp m d x dim HR Hd (als 2%nat) (HA _)) as (s2 & Hs2 & (z & -> & Hz)). cbn [bind].
    rewrite SY in Y1, Hs1. fold e in Y1, Hz, Hs1, Hs2. pose proof (CC d (als 3%nat) z k (HA _) (is_tensor_ready Hz)) as Y2. rewrite (is_tensor_shape Hz) in Y2. rewrite (shape_is_unique Hs1 Hs2) in Y1.
    eapply yields_same; [exact Y1|exact Y2|]. intros c b Hc Hb. cbv beta. rewrite (at_is Hz Hc Hb).
    assert (Hc' : forall i, i <> e -> (c i < ext (t_shape x) i)%nat). { intros i Hi. specialize (Hc i). destruct Hs2 as (_ & X & _). rewrite X in Hc. unfold eset in Hc. destruct (Nat.eqb_spec i e); [contradiction|exact Hc]. }
    rewrite ES; auto; [|destruct Hs2 as (_ & _ & B2); rewrite <- B2; exact Hb]. rewrite ln_mult, ln_exp; [reflexivity|apply expsum_pos; exact Hp|apply exp_pos].
Qed.
(** summing n copies multiplies by n *)
Theorem C68_sum_of_broadcast : forall als n s, (forall i, al_ok (als i)) -> ext (t_shape x) (N.to_nat dim) = 1%nat -> (1 <= n)%N ->
  shape_is s (eset (t_shape x) (N.to_nat dim) (N.to_nat n)) (bat (t_shape x)) -> fits s ->
  same m (y <- t_broadcast m (als 0%nat) x dim n ;; t_sum m (als 1%nat) y dim) (t_mul_const m (als 2%nat) x (INR (N.to_nat n))).
Proof.
  intros als n s HA E1 Hn Hs HF. set (e := N.to_nat dim) in * .
  destruct (@C23_broadcast Rnum m d (als 0%nat) x dim n s (HA _) HR Hd E1 Hn Hs HF) as (y & -> & Hy). cbn [bind]. fold e in Hy.
  destruct (@C20_sum Rnum m d (als 1%nat) y dim (HA _) (is_tensor_ready Hy) Hd) as (s1 & Hs1 & Y1). fold e in Hs1, Y1. rewrite (is_tensor_shape Hy) in Hs1, Y1.
  pose proof (C17_methods Rnum m) as (_ & _ & _ & _ & _ & _ & _ & _ & _ & _ & _ & _ & _ & _ & _ & _ & _ & CM & _). pose proof (CM d (als 2%nat) x (INR (N.to_nat n)) (HA _) HR) as Y2.
  assert (ES : s1 = t_shape x).
  { eapply shape_is_unique; [exact Hs1|]. split; [exact (ready_wf HR)|]. split; [|destruct Hs as (_ & _ & ->); reflexivity].
    intros i. unfold eset. destruct (Nat.eqb_spec i e) as [->|Ne]; [exact E1|]. destruct Hs as (_ & X & _). rewrite X. unfold eset. destruct (Nat.eqb_spec i e); [contradiction|reflexivity]. }
  subst s1. eapply yields_same; [exact Y1|exact Y2|]. intros c b Hc Hb. cbv beta. rewrite rsum_red0.
  assert (X : ext s e = N.to_nat n) by (destruct Hs as (_ & -> & _); unfold eset; rewrite Nat.eqb_refl; reflexivity). rewrite X.
  rewrite (rsum_ext (n := N.to_nat n) (g := fun _ => (at_ x c b : R) * 1)).
  - rewrite rsum_scal. cbn [nmul Rnum]. f_equal. clear. induction (N.to_nat n) as [|q IH]; [reflexivity|]. cbn [rsum]. rewrite IH, S_INR. ring.
  - intros j Hj. rewrite (at_is Hy).
    + cbn [F Rnum]. rewrite Rmult_1_r. apply (@at_ext Rnum x). intros i. unfold cset. destruct (Nat.eqb_spec i e) as [->|]; [|reflexivity]. specialize (Hc e). lia.
    + intros i. destruct Hs as (_ & -> & _). unfold cset, eset. destruct (Nat.eqb_spec i e); auto.
    + destruct Hs as (_ & _ & ->). exact Hb.
Qed.
End Real.
(** logits 1, 2 and 101, 102 have the same softmax *)
Example C68_softmax_shift_applies : forall m, let x := tr 0 [2%N] 1 [1; 2] in
  same m (y <- t_add_const m alr x 100 ;; t_softmax m (fun _ => alr) y 0) (t_softmax m (fun _ => alr) x 0).
Proof. intros m x. assert (HR : ready 0 x) by rdyr. apply (@C68_softmax_shift m 0 x 0%N HR ltac:(cbn; lia) (fun _ => alr) 100). intros _. apply alr_ok. Qed.
