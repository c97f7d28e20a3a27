(** * PropsIdent: C68 identities between tensor functions

    Two ways of computing the same thing give the same tensor. The identities of
    the first part hold for every arithmetic (so bit for bit on f32), except
    where a law of arithmetic is a hypothesis; those of the second part need the
    laws of a ring and those of the last part are about real arithmetic. *)
From Verif Require Import PVocab PropsElem PropsMove Typed PropsOps.
Set Implicit Arguments.

(** ** Specification *)
Section Defs.
Variable K : num.
Variable m : build.
Notation F := (F K).
Notation tensor := (tensor K).
Notation "x +. y" := (nadd K x y) (at level 50, left associativity).
Notation "x *. y" := (nmul K x y) (at level 40, left associativity).

(** two computations succeed with tensors of the same shape and the same elements *)
Definition same (r1 r2 : res tensor) : Prop :=
  exists y1 y2 l, r1 = Ok y1 /\ r2 = Ok y2 /\ t_shape y1 = t_shape y2 /\ to_vec m y1 = Ok l /\ to_vec m y2 = Ok l.

Lemma yields_same d s f f' r r' : yields r d s f -> yields r' d s f' ->
  (forall c b, inb s c -> b < bat s -> f c b = f' c b) -> same r r'.
Proof.
  intros (y & -> & H) (y' & -> & H') E. exists y, y'. pose proof (@same_to_vec K m d s f f' y y' H H' E) as Q.
  pose proof (to_vec_Ok m (is_tensor_ready H)) as Q'. eexists. ssplit; eauto; [|rewrite <- Q; eauto].
  rewrite (is_tensor_shape H), (is_tensor_shape H'). reflexivity.
Qed.
Lemma yields_bind d s f (r : res tensor) (g : tensor -> res tensor) d' s' f' : yields r d s f ->
  (forall y, is_tensor d s f y -> yields (g y) d' s' f') -> yields (y <- r ;; g y) d' s' f'.
Proof. intros (y & -> & H) G. cbn [bind]. auto. Qed.

(** ** Helpers *)
Lemma bsel_lt s t b : wf s -> wf t -> (bat s = bat t \/ bat s = 1 \/ bat t = 1) -> b < Nat.max (bat s) (bat t) -> bsel s b < bat s.
Proof. intros W W' C H. pose proof (bat_pos W). pose proof (bat_pos W'). unfold bsel. destruct (Nat.eqb_spec (bat s) 1); lia. Qed.
Lemma bsel_eq s t b : bat s = bat t -> bsel s b = bsel t b.
Proof. intros E. unfold bsel. rewrite E. reflexivity. Qed.
Lemma inb_c2 s p q B i j : shape_is s (m2 p q) B -> i < p -> j < q -> inb s (c2 i j).
Proof. intros (_ & E & _) Hi Hj k. rewrite E. destruct k as [|[|k]]; cbn; auto. Qed.
Lemma inb_m2 s p q B c : shape_is s (m2 p q) B -> inb s c -> c 0 < p /\ c 1 < q.
Proof. intros (_ & E & _) H. pose proof (H 0) as H0. pose proof (H 1) as H1. rewrite E in H0, H1. auto. Qed.
Lemma by_blocks_ext (f g : nat -> F) n : (forall j, j < n -> f j = g j) -> by_blocks K f n = by_blocks K g n.
Proof. intros H. unfold by_blocks. apply red_ext. intros jb Hb. apply red_ext. intros t Ht. apply H. lia. Qed.
Lemma is_mat_of (y : tensor) d s f p q B : is_tensor d s f y -> shape_is s (m2 p q) B -> is_mat y.
Proof. intros H (_ & E & _) i Hi. rewrite (is_tensor_shape H), E. destruct i as [|[|i]]; [lia|lia|reflexivity]. Qed.

Lemma at_is d s f (y : tensor) c b : is_tensor d s f y -> inb s c -> b < bat s -> at_ y c b = f c b.
Proof. intros H Hc Hb. apply (is_tensor_at H Hc Hb). Qed.
Lemma shape_m2 d s f (y : tensor) p q B : is_tensor d s f y -> shape_is s (m2 p q) B ->
  ext (t_shape y) 0 = p /\ ext (t_shape y) 1 = q /\ bat (t_shape y) = B.
Proof. intros H (_ & E & Eb). rewrite (is_tensor_shape H), !E, Eb. auto. Qed.

(** ** C68: identities of every arithmetic *)
(** (a b)^T = b^T a^T *)
Theorem C68_transpose_of_product : forall d (als : nat -> alloc_oracle K) a b s, (forall i, al_ok (als i)) -> commutes K ->
  ready d a -> ready d b -> mat_ok a b ->
  shape_is s (m2 (ext (t_shape a) 0) (ext (t_shape b) 1)) (Nat.max (bat (t_shape a)) (bat (t_shape b))) -> fits s ->
  same (y <- t_matmul m (als 0) a b ;; t_transpose m (als 1) y)
       (bt <- t_transpose m (als 2) b ;; at' <- t_transpose m (als 3) a ;; t_matmul m (als 4) bt at').
Proof.
  intros d als a b s HA HC Ra Rb HM Hs HF. destruct (@C27_matmul K m d (als 0) a b s (HA 0) Ra Rb HM Hs HF) as ((y & Ey & Hy) & _).
  rewrite Ey. cbn [bind]. destruct (@C28_transpose K m d (als 1) y (HA 1) (is_tensor_ready Hy) (is_mat_of Hy Hs)) as (s' & Hs' & Y').
  destruct (shape_m2 Hy Hs) as (E0 & E1 & EB). rewrite E0, E1, EB in Hs'.
  destruct HM as (Ma & Mb & E & Hb).
  destruct (@C28_transpose K m d (als 2) b (HA 2) Rb Mb) as (sb & Hsb & (bt & -> & Hbt)).
  destruct (@C28_transpose K m d (als 3) a (HA 3) Ra Ma) as (sa & Hsa & (at' & -> & Hat)). cbn [bind].
  destruct (shape_m2 Hbt Hsb) as (B0 & B1 & BB). destruct (shape_m2 Hat Hsa) as (A0 & A1 & AB).
  assert (HM' : mat_ok bt at').
  { unfold mat_ok; ssplit; [exact (is_mat_of Hbt Hsb)|exact (is_mat_of Hat Hsa)|congruence|]. rewrite BB, AB. lia. }
  assert (HF' : fits s'). { destruct Y' as (z & _ & Hz). rewrite <- (is_tensor_shape Hz). exact (ready_fits (is_tensor_ready Hz)). }
  destruct (@C27_matmul K m d (als 4) bt at' s' (HA 4) (is_tensor_ready Hbt) (is_tensor_ready Hat) HM') as (Y2 & _); [|exact HF'|].
  { rewrite B0, A1, BB, AB, Nat.max_comm. exact Hs'. }
  eapply yields_same; [exact Y'|exact Y2|]. intros c n Hc Hn. cbv beta. destruct (inb_m2 Hs' Hc) as (C0 & C1).
  assert (Hn' : n < Nat.max (bat (t_shape a)) (bat (t_shape b))) by (destruct Hs' as (_ & _ & Eb); lia).
  rewrite (at_is Hy (inb_c2 Hs C1 C0)) by (destruct Hs as (_ & _ & Eb); lia).
  unfold mprod. rewrite B1, <- E. apply by_blocks_ext. intros j Hj. cbn [c2].
  pose proof (@bsel_lt (t_shape a) (t_shape b) n (ready_wf Ra) (ready_wf Rb) Hb ltac:(lia)). pose proof (@bsel_lt (t_shape b) (t_shape a) n (ready_wf Rb) (ready_wf Ra) ltac:(lia) ltac:(lia)).
  rewrite (@bsel_eq _ (t_shape a) n AB), (@bsel_eq _ (t_shape b) n BB).
  rewrite (at_is Hat (inb_c2 Hsa Hj C1)) by (destruct Hsa as (_ & _ & Eb); lia).
  assert (Hj2 : j < ext (t_shape b) 0) by lia. rewrite (at_is Hbt (inb_c2 Hsb C0 Hj2)) by (destruct Hsb as (_ & _ & Eb); lia). cbn [c2]. apply HC.
Qed.
(** columns lo .. hi-1 of a product are the product with those columns: slice(a b) = a slice(b); likewise rows *)
Theorem C68_columns_of_product : forall d (als : nat -> alloc_oracle K) a b lo hi s, (forall i, al_ok (als i)) ->
  ready d a -> ready d b -> mat_ok a b -> (lo < hi)%N -> N.to_nat hi <= ext (t_shape b) 1 ->
  shape_is s (m2 (ext (t_shape a) 0) (ext (t_shape b) 1)) (Nat.max (bat (t_shape a)) (bat (t_shape b))) -> fits s ->
  same (y <- t_matmul m (als 0) a b ;; t_slice m (als 1) y 1 lo hi)
       (b' <- t_slice m (als 2) b 1 lo hi ;; t_matmul m (als 3) a b').
Proof.
  intros d als a b lo hi s HA Ra Rb HM Hlh Hh Hs HF. destruct (@C27_matmul K m d (als 0) a b s (HA 0) Ra Rb HM Hs HF) as ((y & -> & Hy) & _). cbn [bind].
  destruct (shape_m2 Hy Hs) as (E0 & E1 & EB).
  destruct (@C24_slice K m d (als 1) y 1 lo hi (HA 1) (is_tensor_ready Hy)) as (s' & Hs' & Y'); [change (N.to_nat 1) with 1; change (N.to_nat 0) with 0; lia|auto|change (N.to_nat 1) with 1; change (N.to_nat 0) with 0; lia|].
  destruct (@C24_slice K m d (als 2) b 1 lo hi (HA 2) Rb) as (sb & Hsb & (b' & -> & Hb')); [change (N.to_nat 1) with 1; change (N.to_nat 0) with 0; lia|auto|change (N.to_nat 1) with 1; change (N.to_nat 0) with 0; lia|]. cbn [bind].
  change (N.to_nat 1) with 1 in * . destruct HM as (Ma & Mb & E & Hbb).
  assert (X : forall i, ext (t_shape b') i = if i =? 1 then N.to_nat hi - N.to_nat lo else ext (t_shape b) i) by (intros; rewrite (is_tensor_shape Hb'); apply Hsb).
  assert (XB : bat (t_shape b') = bat (t_shape b)) by (rewrite (is_tensor_shape Hb'); apply Hsb).
  assert (HM' : mat_ok a b'). { unfold mat_ok; ssplit; auto; [intros i Hi; rewrite X; destruct (Nat.eqb_spec i 1); [lia|auto]|rewrite X; exact E|lia]. }
  assert (Hs2 : shape_is s' (m2 (ext (t_shape a) 0) (N.to_nat hi - N.to_nat lo)) (Nat.max (bat (t_shape a)) (bat (t_shape b)))).
  { destruct Hs' as (W & Xs & Bs). unfold shape_is; ssplit; auto; [|lia]. intros i. rewrite Xs. unfold eset. destruct i as [|[|i]]; cbn; auto. rewrite (is_tensor_shape Hy). destruct Hs as (_ & Xs2 & _). rewrite Xs2. reflexivity. }
  assert (HF' : fits s'). { destruct Y' as (z & _ & Hz). rewrite <- (is_tensor_shape Hz). exact (ready_fits (is_tensor_ready Hz)). }
  destruct (@C27_matmul K m d (als 3) a b' s' (HA 3) Ra (is_tensor_ready Hb') HM') as (Y2 & _); [|exact HF'|].
  { rewrite X, XB. exact Hs2. }
  eapply yields_same; [exact Y'|exact Y2|]. intros c n Hc Hn. cbv beta. destruct (inb_m2 Hs2 Hc) as (C0 & C1). assert (Hn' : n < bat s) by (destruct Hs2 as (_ & _ & B2); destruct Hs as (_ & _ & B1); lia).
  rewrite (at_is Hy); auto.
  2:{ intros i. destruct Hs as (_ & Xs & _). rewrite Xs. unfold cset. destruct i as [|[|i]]; cbn; auto; [lia|]. specialize (Hc (S (S i))). destruct Hs2 as (_ & X2 & _). rewrite X2 in Hc. exact Hc. }
  unfold mprod. apply by_blocks_ext. intros j Hj. f_equal. cbn [cset Nat.eqb]. rewrite (@bsel_eq _ (t_shape b) n XB). symmetry. etransitivity; [eapply at_is; [exact Hb'| |]|].
  - intros i. destruct Hsb as (_ & Xs & _). rewrite Xs. unfold eset. destruct i as [|[|i]]; cbn; [lia|auto|]. rewrite Mb by lia. lia.
  - destruct Hsb as (_ & _ & ->). apply (@bsel_lt (t_shape b) (t_shape a) n (ready_wf Rb) (ready_wf Ra)); destruct Hs as (_ & _ & B1); lia.
  - cbv beta. apply at_ext. intros i. destruct i as [|[|i]]; reflexivity.
Qed.
Theorem C68_rows_of_product : forall d (als : nat -> alloc_oracle K) a b lo hi s, (forall i, al_ok (als i)) ->
  ready d a -> ready d b -> mat_ok a b -> (lo < hi)%N -> N.to_nat hi <= ext (t_shape a) 0 ->
  shape_is s (m2 (ext (t_shape a) 0) (ext (t_shape b) 1)) (Nat.max (bat (t_shape a)) (bat (t_shape b))) -> fits s ->
  same (y <- t_matmul m (als 0) a b ;; t_slice m (als 1) y 0 lo hi)
       (a' <- t_slice m (als 2) a 0 lo hi ;; t_matmul m (als 3) a' b).
Proof.
  intros d als a b lo hi s HA Ra Rb HM Hlh Hh Hs HF. destruct (@C27_matmul K m d (als 0) a b s (HA 0) Ra Rb HM Hs HF) as ((y & -> & Hy) & _). cbn [bind].
  destruct (shape_m2 Hy Hs) as (E0 & E1 & EB).
  destruct (@C24_slice K m d (als 1) y 0 lo hi (HA 1) (is_tensor_ready Hy)) as (s' & Hs' & Y'); [change (N.to_nat 1) with 1; change (N.to_nat 0) with 0; lia|auto|change (N.to_nat 1) with 1; change (N.to_nat 0) with 0; lia|].
  destruct (@C24_slice K m d (als 2) a 0 lo hi (HA 2) Ra) as (sa & Hsa & (a' & -> & Ha')); [change (N.to_nat 1) with 1; change (N.to_nat 0) with 0; lia|auto|change (N.to_nat 1) with 1; change (N.to_nat 0) with 0; lia|]. cbn [bind].
  change (N.to_nat 0) with 0 in * . destruct HM as (Ma & Mb & E & Hbb).
  assert (X : forall i, ext (t_shape a') i = if i =? 0 then N.to_nat hi - N.to_nat lo else ext (t_shape a) i) by (intros; rewrite (is_tensor_shape Ha'); apply Hsa).
  assert (XB : bat (t_shape a') = bat (t_shape a)) by (rewrite (is_tensor_shape Ha'); apply Hsa).
  assert (HM' : mat_ok a' b). { unfold mat_ok; ssplit; auto; [intros i Hi; rewrite X; destruct (Nat.eqb_spec i 0); [lia|auto]|rewrite X; exact E|lia]. }
  assert (Hs2 : shape_is s' (m2 (N.to_nat hi - N.to_nat lo) (ext (t_shape b) 1)) (Nat.max (bat (t_shape a)) (bat (t_shape b)))).
  { destruct Hs' as (W & Xs & Bs). unfold shape_is; ssplit; auto; [|lia]. intros i. rewrite Xs. unfold eset. destruct i as [|[|i]]; cbn; auto. rewrite (is_tensor_shape Hy). destruct Hs as (_ & Xs2 & _). rewrite Xs2. reflexivity. }
  assert (HF' : fits s'). { destruct Y' as (z & _ & Hz). rewrite <- (is_tensor_shape Hz). exact (ready_fits (is_tensor_ready Hz)). }
  destruct (@C27_matmul K m d (als 3) a' b s' (HA 3) (is_tensor_ready Ha') Rb HM') as (Y2 & _); [|exact HF'|].
  { rewrite X, XB. exact Hs2. }
  eapply yields_same; [exact Y'|exact Y2|]. intros c n Hc Hn. cbv beta. destruct (inb_m2 Hs2 Hc) as (C0 & C1). assert (Hn' : n < bat s) by (destruct Hs2 as (_ & _ & B2); destruct Hs as (_ & _ & B1); lia).
  rewrite (at_is Hy); auto.
  2:{ intros i. destruct Hs as (_ & Xs & _). rewrite Xs. unfold cset. destruct i as [|[|i]]; cbn; auto; [lia|]. specialize (Hc (S (S i))). destruct Hs2 as (_ & X2 & _). rewrite X2 in Hc. exact Hc. }
  unfold mprod. rewrite X. cbn [Nat.eqb]. apply by_blocks_ext. intros j Hj. f_equal. cbn [cset Nat.eqb]. rewrite (@bsel_eq _ (t_shape a) n XB). symmetry. etransitivity; [eapply at_is; [exact Ha'| |]|].
  - intros i. destruct Hsa as (_ & Xs & _). rewrite Xs. unfold eset. destruct i as [|[|i]]; cbn; [auto|lia|]. rewrite Ma by lia. lia.
  - destruct Hsa as (_ & _ & ->). apply (@bsel_lt (t_shape a) (t_shape b) n (ready_wf Ra) (ready_wf Rb)); destruct Hs as (_ & _ & B1); lia.
  - cbv beta. apply at_ext. intros i. destruct i as [|[|i]]; reflexivity.
Qed.
(** a part of a part: slice(slice(x, lo, hi), p, q) = slice(x, lo+p, lo+q) *)
Theorem C68_slice_of_slice : forall d (als : nat -> alloc_oracle K) x dim lo hi p q, (forall i, al_ok (als i)) -> ready d x ->
  (dim < 8)%N -> (lo < hi)%N -> N.to_nat hi <= ext (t_shape x) (N.to_nat dim) -> (p < q)%N -> (q <= hi - lo)%N ->
  same (y <- t_slice m (als 0) x dim lo hi ;; t_slice m (als 1) y dim p q) (t_slice m (als 2) x dim (lo + p) (lo + q)).
Proof.
  intros d als x dim lo hi p q HA HR Hd H1 H2 H3 H4. set (e := N.to_nat dim) in * . assert (He : e < 8) by (unfold e; lia).
  destruct (@C24_slice K m d (als 0) x dim lo hi (HA 0) HR He H1 H2) as (s & Hs & (y & -> & Hy)). cbn [bind]. fold e in Hs, Hy.
  assert (Xs : ext (t_shape y) e = N.to_nat hi - N.to_nat lo) by (rewrite (is_tensor_shape Hy); destruct Hs as (_ & -> & _); unfold eset; rewrite Nat.eqb_refl; reflexivity).
  destruct (@C24_slice K m d (als 1) y dim p q (HA 1) (is_tensor_ready Hy) He H3 ltac:(fold e; lia)) as (s1 & Hs1 & Y1). fold e in Hs1, Y1.
  destruct (@C24_slice K m d (als 2) x dim (lo + p) (lo + q) (HA 2) HR He ltac:(lia) ltac:(fold e; lia)) as (s2 & Hs2 & Y2). fold e in Hs2, Y2.
  assert (E12 : s1 = s2).
  { eapply shape_is_unique; [exact Hs1|]. destruct Hs2 as (W & X & B). unfold shape_is; ssplit; auto.
    - intros i. rewrite X. unfold eset. destruct (Nat.eqb_spec i e); [lia|]. rewrite (is_tensor_shape Hy). destruct Hs as (_ & -> & _). unfold eset. destruct (Nat.eqb_spec i e); [contradiction|reflexivity].
    - rewrite B, (is_tensor_shape Hy). destruct Hs as (_ & _ & ->). reflexivity. }
  subst s2. eapply yields_same; [exact Y1|exact Y2|]. intros c b Hc Hb. cbv beta.
  assert (Ce : c e < N.to_nat q - N.to_nat p). { specialize (Hc e). destruct Hs1 as (_ & X & _). rewrite X in Hc. unfold eset in Hc. rewrite Nat.eqb_refl in Hc. exact Hc. }
  rewrite (at_is Hy).
  - apply at_ext. intros i. unfold cset. rewrite Nat.eqb_refl. destruct (Nat.eqb_spec i e); [lia|reflexivity].
  - intros i. destruct Hs as (_ & -> & _). unfold cset, eset. destruct (Nat.eqb_spec i e) as [->|Ne]; [lia|].
    specialize (Hc i). destruct Hs2 as (_ & X & _). rewrite X in Hc. unfold eset in Hc. destruct (Nat.eqb_spec i e); [contradiction|exact Hc].
  - destruct Hs as (_ & _ & ->). destruct Hs2 as (_ & _ & <-). exact Hb.
Qed.
(** a square matrix is its lower triangle plus what lies strictly above the diagonal *)
Theorem C68_triangular_parts : forall d (als : nat -> alloc_oracle K) x, (forall i, al_ok (als i)) -> ready d x -> is_mat x ->
  ext (t_shape x) 1 = ext (t_shape x) 0 -> (forall v : F, v +. n0 = v) -> (forall v : F, n0 +. v = v) ->
  same (l <- t_triangular_l m (als 0) x 0 ;; u <- t_triangular_u m (als 1) x 1 ;; t_add m (als 2) l u) (Ok x).
Proof.
  intros d als x HA HR HM E Z1 Z2.
  assert (HL : (N.of_nat (ext (t_shape x) 0) + 1 <= two32)%N).
  { pose proof (ready_fits HR) as (W & Hv). pose proof (@prod_lt_le (ext (t_shape x)) 1 8 ltac:(lia) (fun i => ext_pos i W)) as L. replace (prod_lt (ext (t_shape x)) 1) with (ext (t_shape x) 0) in L by (cbn [prod_lt]; lia).
    pose proof (vol_volume W) as V. unfold vol, low in V. pose proof (wf_batch W). assert (volume (t_shape x) <= 2147483648)%N by nia. change two32 with 4294967296%N. lia. }
  destruct (@C28_triangular K m d (als 0) x 0 (HA 0) HR HM E ltac:(lia)) as ((l & -> & Hl) & _). destruct (@C28_triangular K m d (als 1) x 1 (HA 1) HR HM E HL) as (_ & (u & -> & Hu)). cbn [bind].
  assert (HB : bin_ok (t_shape l) (t_shape u) (t_shape x)).
  { rewrite (is_tensor_shape Hl), (is_tensor_shape Hu). unfold bin_ok; ssplit; auto. rewrite Nat.max_id. destruct (is_scalar (t_shape x)); (split; [exact (ready_wf HR)|auto]). }
  pose proof (t_add_yields m (HA 2) (is_tensor_ready Hl) (is_tensor_ready Hu) HB (ready_fits HR)) as Y.
  eapply yields_same; [exact Y|exists x; split; [reflexivity|]; split; [exact HR|split; [reflexivity|intros; reflexivity]]|].
  intros c b Hc Hb. cbv beta.
  assert (G : forall (t : tensor) f, is_tensor d (t_shape x) f t -> opnd t c b = f c b).
  { intros t f Ht. unfold opnd. rewrite (is_tensor_shape Ht). assert (EB : bsel (t_shape x) b = b) by (unfold bsel; destruct (Nat.eqb_spec (bat (t_shape x)) 1); lia). rewrite EB. rewrite <- (at_is Ht Hc Hb).
    destruct (is_scalar (t_shape x)) eqn:S; [|reflexivity]. apply at_ext. intros i. pose proof (scalar_ext (ready_wf HR) S i). specialize (Hc i). unfold czero. lia. }
  rewrite (G _ _ Hl), (G _ _ Hu). rewrite Nat.add_0_r. change (N.to_nat 1) with 1.
  destruct (Nat.leb_spec (c 1) (c 0)); destruct (Nat.leb_spec (c 0 + 1) (c 1)); try lia; destruct (is_scalar (t_shape l)); auto.
Qed.
(** max(x) = -min(-x) wherever negation reverses the order *)
Theorem C68_max_of_min : forall d (als : nat -> alloc_oracle K) x dim, (forall i, al_ok (als i)) -> ready d x -> (dim < 8)%N ->
  (forall v : F, nneg K (nneg K v) = v) -> (forall u v : F, nlt K (nneg K u) (nneg K v) = nlt K v u) ->
  same (t_max m (als 0) x dim) (n <- t_neg m (als 1) x ;; y <- t_min m (als 2) n dim ;; t_neg m (als 3) y).
Proof.
  intros d als x dim HA HR Hd NN NL. set (e := N.to_nat dim) in * . assert (He : e < 8) by (unfold e; lia).
  destruct (C20_max_min K m) as (CM & Cm). destruct (C17_methods K m) as (CN & _). destruct (CM d (als 0) x dim (HA 0) HR He) as (s & Hs & Y). fold e in Hs, Y.
  destruct (CN d (als 1) x (HA 1) HR) as (n & -> & Hn). cbn [bind].
  destruct (Cm d (als 2) n dim (HA 2) (is_tensor_ready Hn) He) as (s' & Hs' & (y & -> & Hy)). fold e in Hs', Hy. cbn [bind].
  pose proof (CN d (als 3) y (HA 3) (is_tensor_ready Hy)) as Y2. rewrite (is_tensor_shape Hy) in Y2.
  assert (ES : s' = s). { eapply shape_is_unique; [exact Hs'|]. rewrite (is_tensor_shape Hn). exact Hs. } subst s'.
  eapply yields_same; [exact Y|exact Y2|]. intros c b Hc Hb. cbv beta. rewrite (at_is Hy Hc Hb), (is_tensor_shape Hn).
  assert (A : forall j, j < ext (t_shape x) e -> at_ n (cset c e j) b = nneg K (at_ x (cset c e j) b)).
  { intros j Hj. rewrite (at_is Hn); auto.
    - intros i. unfold cset. destruct (Nat.eqb_spec i e) as [->|Ne]; auto. specialize (Hc i). destruct Hs as (_ & X & _). rewrite X in Hc. unfold eset in Hc. destruct (Nat.eqb_spec i e); [contradiction|exact Hc].
    - destruct Hs as (_ & _ & <-). exact Hb. }
  pose proof (ext_pos e (ready_wf HR)) as Hp. rewrite (A 0) by lia. set (f := fun j => at_ x (cset c e j) b) in * .
  assert (G : forall q, q <= ext (t_shape x) e -> red (fun t v => if nlt K v t then v else t) (nneg K (f 0)) (fun j => at_ n (cset c e j) b) q =
     nneg K (red (fun t v => if nlt K t v then v else t) (f 0) f q)).
  { induction q as [|q IH]; intros Hq; [reflexivity|]. rewrite !red_S, IH, A by lia. fold (f q). rewrite NL. destruct (nlt K _ (f q)); reflexivity. }
  rewrite G by lia. rewrite NN. reflexivity.
Qed.
(** sums of columns are sums of rows of the transposed matrix *)
Theorem C68_sum_of_transpose : forall d (als : nat -> alloc_oracle K) x, (forall i, al_ok (als i)) -> ready d x -> is_mat x ->
  same (y <- t_transpose m (als 0) x ;; t_sum m (als 1) y 0) (y <- t_sum m (als 2) x 1 ;; t_transpose m (als 3) y).
Proof.
  intros d als x HA HR HM. destruct (@C28_transpose K m d (als 0) x (HA 0) HR HM) as (s & Hs & (y & -> & Hy)). cbn [bind].
  destruct (@C20_sum K m d (als 1) y 0%N (HA 1) (is_tensor_ready Hy)) as (s1 & Hs1 & Y1); [cbn; lia|]. change (N.to_nat 0) with 0 in * .
  destruct (@C20_sum K m d (als 2) x 1%N (HA 2) HR) as (s2 & Hs2 & (z & -> & Hz)); [change (N.to_nat 1) with 1; lia|]. change (N.to_nat 1) with 1 in * . cbn [bind].
  assert (Hs2' : shape_is s2 (m2 (ext (t_shape x) 0) 1) (bat (t_shape x))).
  { destruct Hs2 as (W & X & B). unfold shape_is; ssplit; auto. intros i. rewrite X. unfold eset. destruct i as [|[|i]]; cbn; auto; apply HM; lia. }
  destruct (@C28_transpose K m d (als 3) z (HA 3) (is_tensor_ready Hz) (is_mat_of Hz Hs2')) as (s3 & Hs3 & Y3).
  destruct (shape_m2 Hz Hs2') as (Z0 & Z1 & ZB). rewrite Z0, Z1, ZB in Hs3.
  assert (ES : s1 = s3).
  { eapply shape_is_unique; [exact Hs1|]. destruct Hs3 as (W & X & B). unfold shape_is; ssplit; auto.
    - intros i. rewrite X. unfold eset. rewrite (is_tensor_shape Hy). destruct Hs as (_ & Xs & _). destruct i as [|[|i]]; cbn [Nat.eqb]; rewrite ?Xs; reflexivity.
    - rewrite B, (is_tensor_shape Hy). destruct Hs as (_ & _ & ->). reflexivity. }
  subst s3. eapply yields_same; [exact Y1|exact Y3|]. intros c b Hc Hb. cbv beta. destruct (inb_m2 Hs3 Hc) as (C0 & C1).
  assert (Hbb : b < bat (t_shape x)) by (destruct Hs3 as (_ & _ & B3); lia).
  assert (Hb2 : b < bat s2) by (destruct Hs2' as (_ & _ & ->); exact Hbb). rewrite (at_is Hz (inb_c2 Hs2' C1 C0) Hb2). cbn [c2].
  destruct (shape_m2 Hy Hs) as (Y0 & Y1' & YB). rewrite Y0. apply red_ext. intros j Hj. rewrite (at_is Hy).
  - apply at_ext. intros i. unfold cset. destruct i as [|[|i]]; cbn; try reflexivity; lia.
  - intros i. destruct Hs as (_ & -> & _). unfold cset. destruct i as [|[|i]]; cbn; auto. specialize (Hc (S (S i))). destruct Hs3 as (_ & X & _). rewrite X in Hc. exact Hc.
  - destruct Hs as (_ & _ & ->). exact Hbb.
Qed.
(** a function of the single elements can be applied before or after moving them *)
Theorem C68_elementwise_and_moves : forall (f : alloc_oracle K -> tensor -> res tensor) op, method_maps f op ->
  forall d (als : nat -> alloc_oracle K) x, (forall i, al_ok (als i)) -> ready d x ->
  (is_mat x -> same (y <- t_transpose m (als 0) x ;; f (als 1) y) (y <- f (als 2) x ;; t_transpose m (als 3) y)) /\
  (forall dim lo hi, (dim < 8)%N -> (lo < hi)%N -> N.to_nat hi <= ext (t_shape x) (N.to_nat dim) ->
     same (y <- t_slice m (als 0) x dim lo hi ;; f (als 1) y) (y <- f (als 2) x ;; t_slice m (als 3) y dim lo hi)) /\
  (forall dim n s, (dim < 8)%N -> ext (t_shape x) (N.to_nat dim) = 1 -> (1 <= n)%N ->
     shape_is s (eset (t_shape x) (N.to_nat dim) (N.to_nat n)) (bat (t_shape x)) -> fits s ->
     same (y <- t_broadcast m (als 0) x dim n ;; f (als 1) y) (y <- f (als 2) x ;; t_broadcast m (als 3) y dim n)) /\
  (forall lo hi s, (lo < hi)%N -> N.to_nat hi <= bat (t_shape x) -> shape_is s (ext (t_shape x)) (N.to_nat hi - N.to_nat lo) ->
     same (y <- t_batch_slice m (als 0) x lo hi ;; f (als 1) y) (y <- f (als 2) x ;; t_batch_slice m (als 3) y lo hi)).
Proof.
  intros f op Hf d als x HA HR. destruct (Hf d (als 2) x (HA 2) HR) as (z & Ez & Hz). rewrite !Ez. cbn [bind]. pose proof (is_tensor_shape Hz) as Sz.
  assert (G : forall r r' s g, yields r d s g -> yields r' d s (fun c b => op (g c b)) -> same (y <- r ;; f (als 1) y) r').
  { intros r r' s g (y & -> & Hy) Y'. cbn [bind]. pose proof (Hf d (als 1) y (HA 1) (is_tensor_ready Hy)) as Y. rewrite (is_tensor_shape Hy) in Y.
    eapply yields_same; [exact Y|exact Y'|]. intros c b Hc Hb. cbv beta. rewrite (at_is Hy Hc Hb). reflexivity. }
  ssplit.
  - intros HM. destruct (@C28_transpose K m d (als 0) x (HA 0) HR HM) as (s & Hs & Y). eapply G; [exact Y|].
    destruct (@C28_transpose K m d (als 3) z (HA 3) (is_tensor_ready Hz)) as (s' & Hs' & Y'); [unfold is_mat; rewrite Sz; exact HM|]. rewrite Sz in Hs'. rewrite (shape_is_unique Hs' Hs) in Y'.
    eapply yields_ext; [exact Y'|]. intros c b Hc Hb. cbv beta. destruct (inb_m2 Hs Hc) as (C0 & C1). apply (at_is Hz); [|destruct Hs as (_ & _ & <-); exact Hb].
    intros i. destruct i as [|[|i]]; cbn [c2]; auto. rewrite HM; lia.
  - intros dim lo hi Hd H1 H2. destruct (@C24_slice K m d (als 0) x dim lo hi (HA 0) HR ltac:(lia) H1 H2) as (s & Hs & Y). eapply G; [exact Y|].
    destruct (@C24_slice K m d (als 3) z dim lo hi (HA 3) (is_tensor_ready Hz) ltac:(lia) H1) as (s' & Hs' & Y'); [rewrite Sz; exact H2|]. rewrite Sz in Hs'. rewrite (shape_is_unique Hs' Hs) in Y'.
    eapply yields_ext; [exact Y'|]. intros c b Hc Hb. cbv beta. apply (at_is Hz); [|destruct Hs as (_ & _ & <-); exact Hb].
    intros i. specialize (Hc i). destruct Hs as (_ & X & _). rewrite X in Hc. unfold eset, cset in * . destruct (Nat.eqb_spec i (N.to_nat dim)) as [Qi|Qi]; [rewrite Qi in Hc |- *|]; lia.
  - intros dim n s Hd H1 H2 Hs HF. eapply G; [apply (@C23_broadcast K m d (als 0) x dim n s); auto; lia|].
    eapply yields_ext; [apply (@C23_broadcast K m d (als 3) z dim n s); auto; try lia; try exact (is_tensor_ready Hz); rewrite Sz; auto|]. intros c b Hc Hb. cbv beta. apply (at_is Hz); [|destruct Hs as (_ & _ & <-); exact Hb].
    intros i. specialize (Hc i). destruct Hs as (_ & X & _). rewrite X in Hc. unfold eset, cset in * . destruct (Nat.eqb_spec i (N.to_nat dim)) as [Qi|Qi]; [rewrite Qi in Hc |- *|]; lia.
  - intros lo hi s H1 H2 Hs. eapply G; [apply (@C29_batch_slice K m d (als 0) x lo hi s); auto|].
    eapply yields_ext; [apply (@C29_batch_slice K m d (als 3) z lo hi s); auto; try exact (is_tensor_ready Hz); rewrite Sz; auto|]. intros c b Hc Hb. cbv beta. apply (at_is Hz).
    + intros i. specialize (Hc i). destruct Hs as (_ & X & _). rewrite X in Hc. exact Hc.
    + destruct Hs as (_ & _ & B). lia.
Qed.
(** picking the position argmax gives is taking the maximum (a minibatch of vectors along [dim]), also among ties; likewise argmin *)
Lemma scan_first (better : F -> F -> bool) f n j : 1 <= n -> weak_order_on K better f n -> first_best K better f n j ->
  red (fun t v => if better v t then v else t) (f 0) f n = f j.
Proof.
  intros Hn HW HB. destruct (HB HW) as (Hj & H1 & H2). destruct HW as (HI & HT & HW).
  assert (G : forall q, 1 <= q <= n -> exists k, k < q /\ red (fun t v => if better v t then v else t) (f 0) f q = f k /\
     (forall i, i < q -> better (f i) (f k) = false) /\ (forall i, i < k -> better (f k) (f i) = true)).
  { induction q as [|q IH]; intros Hq; [lia|]. destruct (Nat.eq_dec q 0) as [->|].
    - exists 0. unfold red. cbn [seq fold_left]. rewrite HI by lia. ssplit; auto; [|intros; lia]. intros i Hi. replace i with 0 by lia. apply HI; lia.
    - destruct IH as (k & Hk & Ek & Ha & Hb); [lia|]. rewrite red_S, Ek. destruct (better (f q) (f k)) eqn:E.
      + exists q. ssplit; auto.
        * intros i Hi. destruct (Nat.eq_dec i q) as [->|]; [apply HI; lia|]. destruct (better (f i) (f q)) eqn:E2; [|reflexivity]. rewrite <- (Ha i) by lia. symmetry. apply HT with q; auto; lia.
        * intros i Hi. apply HW with k; auto; try lia. 
      + exists k. ssplit; auto. intros i Hi. destruct (Nat.eq_dec i q) as [->|]; [exact E|apply Ha; lia]. }
  destruct (G n ltac:(lia)) as (k & Hk & -> & Ha & Hb). f_equal. destruct (Nat.lt_trichotomy k j) as [L|[L|L]]; auto.
  - specialize (H2 k L). rewrite Ha in H2 by lia. discriminate.
  - specialize (Hb j L). rewrite H1 in Hb by lia. discriminate.
Qed.
Theorem C68_pick_of_argmax : forall (srt : (nat -> nat -> option comparison) -> list nat -> res (list nat)) d (als : nat -> alloc_oracle K) x dim, (forall i, al_ok (als i)) -> ready d x -> (dim < 8)%N ->
  (forall i, i <> N.to_nat dim -> ext (t_shape x) i = 1) ->
  ((forall b, b < bat (t_shape x) -> weak_order_on K (fun u v => nlt K v u) (fun j => at_ x (cset czero (N.to_nat dim) j) b) (ext (t_shape x) (N.to_nat dim))) ->
   exists ids, t_argmax m srt x dim = Ok ids /\ same (t_pick m (als 0) x ids dim) (t_max m (als 1) x dim)) /\
  ((forall b, b < bat (t_shape x) -> weak_order_on K (nlt K) (fun j => at_ x (cset czero (N.to_nat dim) j) b) (ext (t_shape x) (N.to_nat dim))) ->
   exists ids, t_argmin m srt x dim = Ok ids /\ same (t_pick m (als 0) x ids dim) (t_min m (als 1) x dim)).
Proof.
  intros srt d als x dim HA HR Hd HV. set (e := N.to_nat dim) in * . assert (He : e < 8) by (unfold e; lia).
  assert (G : forall (f : alloc_oracle K -> tensor -> N -> res tensor) (arg : tensor -> N -> res (list N)) (better : F -> F -> bool),
     reduces_by f (fun g n => red (fun t v => if better v t then v else t) (g 0) g n) -> indexes_by arg (first_best K better) ->
     (forall b, b < bat (t_shape x) -> weak_order_on K better (fun j => at_ x (cset czero e j) b) (ext (t_shape x) e)) ->
     exists ids, arg x dim = Ok ids /\ same (t_pick m (als 0) x ids dim) (f (als 1) x dim)).
  { intros f arg better Hf Ha HW. destruct (Ha d x dim HR) as (s & ids & Hs & Ei & Li & HP). fold e in Hs, HP. exists ids. split; [exact Ei|].
    destruct (Hf d (als 1) x dim (HA 1) HR He) as (s' & Hs' & Y'). fold e in Hs', Y'. rewrite (shape_is_unique Hs' Hs) in Y'.
    assert (E1 : forall i, ext s i = 1). { intros i. destruct Hs as (_ & -> & _). unfold eset. destruct (Nat.eqb_spec i e); auto. }
    assert (EB : bat s = bat (t_shape x)) by apply Hs.
    assert (V1 : vol s = 1). { unfold vol, low. rewrite (@prod_lt_ext _ (fun _ => 1)) by auto. reflexivity. }
    assert (L1 : length ids = bat (t_shape x)) by (rewrite Li; unfold tot; rewrite V1, EB; lia).
    assert (P1 : forall c b, inb s c -> pos s c b = b).
    { intros c b Hc. unfold pos. rewrite V1. rewrite (@lin_lt_ext (ext s) (fun _ => 1) c (fun _ => 0)) by (auto; intros i _; specialize (Hc i); rewrite E1 in Hc; lia). cbn. lia. }
    assert (C1 : forall c, inb s c -> forall i, c i = czero i) by (intros c Hc i; specialize (Hc i); rewrite E1 in Hc; unfold czero; lia).
    assert (Hz : inb s czero) by (intros i; rewrite E1; unfold czero; lia).
    pose proof (bat_pos (ready_wf HR)) as Bp.
    assert (HB : forall b, b < bat (t_shape x) -> first_best K better (fun j => at_ x (cset czero e j) b) (ext (t_shape x) e) (N.to_nat (nth b ids 0%N))).
    { intros b Hb. specialize (HP czero b Hz ltac:(lia)). rewrite P1 in HP by auto. exact HP. }
    pose proof (ready_fits HR) as FX.
    assert (Hbt : (N.of_nat (bat (t_shape x)) < two32)%N). { destruct FX as (W & Hv). unfold bat. pose proof (vol_pos W); pose proof (vol_volume W). change two32 with 4294967296%N. nia. }
    eapply yields_same; [apply (@C25_pick K m d (als 0) x ids dim s); auto| exact Y'|].
    - rewrite L1. exact Hbt.
    - intros ->. cbn in L1. lia.
    - apply Forall_forall. intros id Hi. destruct (In_nth _ _ 0%N Hi) as (b & Hb & <-). fold e. apply (HB b ltac:(lia)). apply HW. lia.
    - rewrite L1, Nat.max_id. exact Hs.
    - destruct Y' as (z & _ & Hzz). rewrite <- (is_tensor_shape Hzz). exact (ready_fits (is_tensor_ready Hzz)).
    - intros c b Hc Hb. cbv beta. rewrite EB in Hb. fold e.
      assert (X : forall j, at_ x (cset c e j) b = at_ x (cset czero e j) b) by (intros j; apply at_ext; intros i; unfold cset; destruct (i =? e); auto).
      assert (EBS : bsel (t_shape x) b = b) by (unfold bsel; destruct (Nat.eqb_spec (bat (t_shape x)) 1); lia). rewrite EBS.
      replace (if length ids =? 1 then nth 0 ids 0%N else nth b ids 0%N) with (nth b ids 0%N).
      2:{ destruct (Nat.eqb_spec (length ids) 1); auto. replace b with 0 by lia. reflexivity. }
      rewrite X. symmetry. rewrite (X 0). rewrite (@red_ext _ _ _ _ _ (fun j => at_ x (cset czero e j) b)) by (intros; apply X).
      apply (@scan_first better (fun j => at_ x (cset czero e j) b)); auto. apply (ext_pos e (ready_wf HR)). }
  destruct (C20_max_min K m) as (CM & Cm). destruct (C21_argmax_argmin K m srt) as (AM & Am). split; intros HW.
  - apply (G _ _ _ CM AM HW).
  - apply (G _ _ _ Cm Am HW).
Qed.

(** ** identities that need laws of arithmetic *)
Definition adds_up : Prop := (forall u v w : F, (u +. v) +. w = u +. (v +. w)) /\ (forall u v : F, u +. v = v +. u) /\ (forall v : F, v +. n0 = v).
Definition ring_like : Prop := adds_up /\ (forall u v w : F, (u *. v) *. w = u *. (v *. w)) /\
  (forall u v w : F, u *. (v +. w) = u *. v +. u *. w) /\ (forall u v w : F, (u +. v) *. w = u *. w +. v *. w) /\ (forall v : F, v *. n0 = n0) /\ (forall v : F, n0 *. v = n0).
Notation Sum f n := (red (nadd K) n0 f n).
Lemma sum_zero n : adds_up -> Sum (fun _ => n0) n = n0.
Proof. intros (_ & _ & Z). induction n; auto. rewrite red_S, IHn. apply Z. Qed.
Lemma sum_plus f g n : adds_up -> Sum (fun i => f i +. g i) n = Sum f n +. Sum g n.
Proof. intros (A & C & Z). induction n; [symmetry; apply Z|]. rewrite !red_S, IHn, !A. f_equal. rewrite <- !A. f_equal. apply C. Qed.
Lemma sum_swap f n q : adds_up -> Sum (fun i => Sum (fun j => f i j) q) n = Sum (fun j => Sum (fun i => f i j) n) q.
Proof.
  intros H. induction n; [symmetry; apply sum_zero; auto|]. rewrite red_S, IHn, <- sum_plus by auto. apply red_ext. intros j _. rewrite red_S. reflexivity.
Qed.
Lemma sum_mul_l u f n : ring_like -> u *. Sum f n = Sum (fun i => u *. f i) n.
Proof. intros (_ & _ & D & _ & Z & _). induction n; [apply Z|]. rewrite !red_S, D, IHn. reflexivity. Qed.
Lemma sum_mul_r u f n : ring_like -> Sum f n *. u = Sum (fun i => f i *. u) n.
Proof. intros (_ & _ & _ & D & _ & Z). induction n; [apply Z|]. rewrite !red_S, D, IHn. reflexivity. Qed.

(** (a b) c = a (b c) *)
Theorem C68_matmul_associative : forall d (als : nat -> alloc_oracle K) a b c sab sbc s, (forall i, al_ok (als i)) -> ring_like ->
  ready d a -> ready d b -> ready d c -> mat_ok a b -> mat_ok b c ->
  (bat (t_shape a) = bat (t_shape c) \/ bat (t_shape a) = 1 \/ bat (t_shape c) = 1) ->
  shape_is sab (m2 (ext (t_shape a) 0) (ext (t_shape b) 1)) (Nat.max (bat (t_shape a)) (bat (t_shape b))) -> fits sab ->
  shape_is sbc (m2 (ext (t_shape b) 0) (ext (t_shape c) 1)) (Nat.max (bat (t_shape b)) (bat (t_shape c))) -> fits sbc ->
  shape_is s (m2 (ext (t_shape a) 0) (ext (t_shape c) 1)) (Nat.max (bat (t_shape a)) (Nat.max (bat (t_shape b)) (bat (t_shape c)))) -> fits s ->
  same (y <- t_matmul m (als 0) a b ;; t_matmul m (als 1) y c) (y <- t_matmul m (als 2) b c ;; t_matmul m (als 3) a y).
Proof.
  intros d als a b c sab sbc s HA HL Ra Rb Rc HMab HMbc Hac Hsab Fab Hsbc Fbc Hs HF. destruct HL as (HAd & HMul). pose proof HAd as (LA & LC & LZ).
  destruct (@C27_matmul K m d (als 0) a b sab (HA 0) Ra Rb HMab Hsab Fab) as (_ & Y1). destruct (Y1 LA LZ) as (y & -> & Hy). clear Y1.
  destruct (@C27_matmul K m d (als 2) b c sbc (HA 2) Rb Rc HMbc Hsbc Fbc) as (_ & Y2). destruct (Y2 LA LZ) as (z & -> & Hz). clear Y2. cbn [bind].
  destruct (shape_m2 Hy Hsab) as (Y0 & Y1 & YB). destruct (shape_m2 Hz Hsbc) as (Z0 & Z1 & ZB).
  destruct HMab as (Ma & Mb & E1 & B1). destruct HMbc as (_ & Mc & E2 & B2).
  destruct (@C27_matmul K m d (als 1) y c s (HA 1) (is_tensor_ready Hy) Rc) as (_ & W1); [|rewrite Y0, YB, <- Nat.max_assoc; exact Hs|exact HF|].
  { unfold mat_ok; ssplit; auto; [exact (is_mat_of Hy Hsab)|lia|lia]. }
  destruct (@C27_matmul K m d (als 3) a z s (HA 3) Ra (is_tensor_ready Hz)) as (_ & W2); [|rewrite Z1, ZB; exact Hs|exact HF|].
  { unfold mat_ok; ssplit; auto; [exact (is_mat_of Hz Hsbc)|lia|lia]. }
  eapply yields_same; [apply (W1 LA LZ)|apply (W2 LA LZ)|]. intros co n Hc Hn. destruct (inb_m2 Hs Hc) as (C0 & C1). unfold mprod. rewrite Y1.
  assert (Hn' : n < Nat.max (bat (t_shape a)) (Nat.max (bat (t_shape b)) (bat (t_shape c)))) by (destruct Hs as (_ & _ & <-); exact Hn).
  pose proof (bat_pos (ready_wf Ra)). pose proof (bat_pos (ready_wf Rb)). pose proof (bat_pos (ready_wf Rc)).
  assert (BA : bsel (t_shape a) (bsel (t_shape y) n) = bsel (t_shape a) n /\ bsel (t_shape b) (bsel (t_shape y) n) = bsel (t_shape b) n /\ bsel (t_shape y) n < bat sab).
  { unfold bsel. rewrite YB. destruct Hsab as (_ & _ & ->). destruct (Nat.eqb_spec (Nat.max (bat (t_shape a)) (bat (t_shape b))) 1); destruct (Nat.eqb_spec (bat (t_shape a)) 1); destruct (Nat.eqb_spec (bat (t_shape b)) 1); lia. }
  assert (BC : bsel (t_shape b) (bsel (t_shape z) n) = bsel (t_shape b) n /\ bsel (t_shape c) (bsel (t_shape z) n) = bsel (t_shape c) n /\ bsel (t_shape z) n < bat sbc).
  { unfold bsel. rewrite ZB. destruct Hsbc as (_ & _ & ->). destruct (Nat.eqb_spec (Nat.max (bat (t_shape b)) (bat (t_shape c))) 1); destruct (Nat.eqb_spec (bat (t_shape b)) 1); destruct (Nat.eqb_spec (bat (t_shape c)) 1); lia. }
  destruct BA as (BA1 & BA2 & BA3). destruct BC as (BC1 & BC2 & BC3).
  pose proof (conj HAd HMul) as HL. destruct HMul as (MA & _).
  rewrite (@red_ext _ _ _ _ _ (fun k => Sum (fun j => at_ a (c2 (co 0) j) (bsel (t_shape a) n) *. (at_ b (c2 j k) (bsel (t_shape b) n) *. at_ c (c2 k (co 1)) (bsel (t_shape c) n))) (ext (t_shape a) 1))).
  2:{ intros k Hk. rewrite (at_is Hy (inb_c2 Hsab C0 Hk) BA3). unfold mprod. cbn [c2]. rewrite BA1, BA2, sum_mul_r by auto. apply red_ext. intros j _. apply MA. }
  rewrite sum_swap by auto. apply red_ext. intros j Hj. rewrite <- sum_mul_l by auto. f_equal.
  rewrite (at_is Hz (inb_c2 Hsbc (eq_ind _ (fun v => j < v) Hj _ E1) C1) BC3). unfold mprod. cbn [c2]. rewrite BC1, BC2. reflexivity.
Qed.
(** sums over two dimensions can be taken in either order *)
Theorem C68_sums_commute : forall d (als : nat -> alloc_oracle K) x p q, (forall i, al_ok (als i)) -> adds_up -> ready d x -> (p < 8)%N -> (q < 8)%N -> p <> q ->
  same (y <- t_sum m (als 0) x p ;; t_sum m (als 1) y q) (y <- t_sum m (als 2) x q ;; t_sum m (als 3) y p).
Proof.
  intros d als x p' q' HA HL HR Hp Hq Ne0. set (p := N.to_nat p') in * . set (q := N.to_nat q') in * .
  assert (Ne : p <> q) by (unfold p, q; lia). assert (Hp8 : p < 8) by (unfold p; lia). assert (Hq8 : q < 8) by (unfold q; lia).
  destruct (@C20_sum K m d (als 0) x p' (HA 0) HR Hp8) as (s1 & Hs1 & (y & -> & Hy)). destruct (@C20_sum K m d (als 2) x q' (HA 2) HR Hq8) as (s2 & Hs2 & (z & -> & Hz)). cbn [bind].
  destruct (@C20_sum K m d (als 1) y q' (HA 1) (is_tensor_ready Hy) Hq8) as (s3 & Hs3 & Y3). destruct (@C20_sum K m d (als 3) z p' (HA 3) (is_tensor_ready Hz) Hp8) as (s4 & Hs4 & Y4).
  fold p q in Hs1, Hs2, Hs3, Hs4, Hy, Hz, Y3, Y4. rewrite (is_tensor_shape Hy) in Hs3, Y3. rewrite (is_tensor_shape Hz) in Hs4, Y4.
  destruct Hs1 as (W1 & X1 & B1). destruct Hs2 as (W2 & X2 & B2).
  assert (ES : s3 = s4).
  { eapply shape_is_unique; [exact Hs3|]. destruct Hs4 as (W & X & B). unfold shape_is; ssplit; auto; [|congruence]. intros i. rewrite X. unfold eset. rewrite X1, X2. unfold eset. destruct (Nat.eqb_spec i p), (Nat.eqb_spec i q); auto; lia. }
  subst s4. eapply yields_same; [exact Y3|exact Y4|]. intros c b Hc Hb. cbv beta.
  assert (Hc' : forall i, i <> p -> i <> q -> c i < ext (t_shape x) i). { intros i N1 N2. specialize (Hc i). destruct Hs3 as (_ & X & _). rewrite X in Hc. unfold eset in Hc. destruct (Nat.eqb_spec i q); [contradiction|]. rewrite X1 in Hc. unfold eset in Hc. destruct (Nat.eqb_spec i p); [contradiction|exact Hc]. }
  assert (Cp : c p = 0). { specialize (Hc p). destruct Hs4 as (_ & X & _). rewrite X in Hc. unfold eset in Hc. rewrite Nat.eqb_refl in Hc. lia. }
  assert (Cq : c q = 0). { specialize (Hc q). destruct Hs3 as (_ & X & _). rewrite X in Hc. unfold eset in Hc. rewrite Nat.eqb_refl in Hc. lia. }
  assert (Hb' : b < bat (t_shape x)) by (destruct Hs3 as (_ & _ & B); congruence).
  assert (EQ : ext s1 q = ext (t_shape x) q) by (rewrite X1; unfold eset; destruct (Nat.eqb_spec q p); [lia|reflexivity]).
  assert (EP : ext s2 p = ext (t_shape x) p) by (rewrite X2; unfold eset; destruct (Nat.eqb_spec p q); [lia|reflexivity]).
  rewrite EQ, EP.
  rewrite (@red_ext _ _ _ _ _ (fun j => Sum (fun i => at_ x (cset (cset c q j) p i) b) (ext (t_shape x) p))).
  2:{ intros j Hj. rewrite (at_is Hy); [reflexivity| |congruence]. intros i. rewrite X1. unfold eset, cset. destruct (Nat.eqb_spec i p), (Nat.eqb_spec i q); subst; try lia; auto. }
  rewrite sum_swap by auto. apply red_ext. intros j Hj. rewrite (at_is Hz); [| |congruence].
  - apply red_ext. intros i Hi. apply at_ext. intros k. unfold cset. destruct (Nat.eqb_spec k p), (Nat.eqb_spec k q); auto; lia.
  - intros i. rewrite X2. unfold eset, cset. destruct (Nat.eqb_spec i p), (Nat.eqb_spec i q); subst; try lia; auto.
Qed.
(** a (b + c) = a b + a c and (a + b) c = a c + b c, for operands of the same shape *)
Theorem C68_matmul_distributes : forall d (als : nat -> alloc_oracle K) a b c s, (forall i, al_ok (als i)) -> ring_like ->
  ready d a -> ready d b -> ready d c ->
  (mat_ok a b -> t_shape c = t_shape b ->
   shape_is s (m2 (ext (t_shape a) 0) (ext (t_shape b) 1)) (Nat.max (bat (t_shape a)) (bat (t_shape b))) -> fits s ->
   same (y <- t_add m (als 0) b c ;; t_matmul m (als 1) a y) (y <- t_matmul m (als 2) a b ;; z <- t_matmul m (als 3) a c ;; t_add m (als 4) y z)) /\
  (mat_ok a c -> t_shape b = t_shape a ->
   shape_is s (m2 (ext (t_shape a) 0) (ext (t_shape c) 1)) (Nat.max (bat (t_shape a)) (bat (t_shape c))) -> fits s ->
   same (y <- t_add m (als 0) a b ;; t_matmul m (als 1) y c) (y <- t_matmul m (als 2) a c ;; z <- t_matmul m (als 3) b c ;; t_add m (als 4) y z)).
Proof.
  intros d als a b c s HA HL Ra Rb Rc. pose proof HL as (HAd & HMul). pose proof HAd as (LA & LC & LZ). destruct HMul as (_ & DL & DR & _).
  destruct (C18_operator_syntax K m) as (CA & _). specialize (CA LC).
  assert (Add : forall al (t u : tensor) s0 f g, al_ok al -> is_tensor d s0 f t -> is_tensor d s0 g u -> yields (t_add m al t u) d s0 (fun co n => f co n +. g co n)).
  { intros al t u s0 f g Ha Ht Hu. pose proof (ready_wf (is_tensor_ready Ht)) as W. rewrite (is_tensor_shape Ht) in W.
    assert (HB : bin_ok (t_shape t) (t_shape u) s0). { rewrite (is_tensor_shape Ht), (is_tensor_shape Hu). unfold bin_ok; ssplit; auto. rewrite Nat.max_id. destruct (is_scalar s0); (split; [exact W|auto]). }
    eapply yields_ext; [apply (CA d al t u s0 Ha (is_tensor_ready Ht) (is_tensor_ready Hu) HB); rewrite <- (is_tensor_shape Ht); exact (ready_fits (is_tensor_ready Ht))|].
    intros co n Hc Hn. cbv beta.
    assert (G : forall (t : tensor) f, is_tensor d s0 f t -> opnd t co n = f co n).
    { intros t' f' Ht'. unfold opnd. rewrite (is_tensor_shape Ht'). assert (EB : bsel s0 n = n) by (unfold bsel; destruct (Nat.eqb_spec (bat s0) 1); lia). rewrite EB. rewrite <- (at_is Ht' Hc Hn).
      destruct (is_scalar s0) eqn:S; [|reflexivity]. apply at_ext. intros i. pose proof (scalar_ext W S i). specialize (Hc i). unfold czero. lia. }
    rewrite (G _ _ Ht), (G _ _ Hu). reflexivity. }
  assert (Self : forall x : tensor, ready d x -> is_tensor d (t_shape x) (fun co n => at_ x co n) x) by (intros x Hx; split; [exact Hx|split; [reflexivity|intros; reflexivity]]).
  split.
  - intros HM Ec Hs HF. pose proof (Self c Rc) as Sc. rewrite Ec in Sc. destruct (Add (als 0) b c _ _ _ (HA 0) (Self b Rb) Sc) as (y & -> & Hy). cbn [bind].
    assert (HMc : mat_ok a c) by (unfold mat_ok in *; rewrite Ec; exact HM). assert (HMy : mat_ok a y) by (unfold mat_ok in *; rewrite (is_tensor_shape Hy); exact HM).
    destruct (@C27_matmul K m d (als 1) a y s (HA 1) Ra (is_tensor_ready Hy) HMy) as (_ & Y1); [rewrite (is_tensor_shape Hy); exact Hs|exact HF|].
    destruct (@C27_matmul K m d (als 2) a b s (HA 2) Ra Rb HM Hs HF) as (_ & Y2). destruct (Y2 LA LZ) as (u & -> & Hu).
    destruct (@C27_matmul K m d (als 3) a c s (HA 3) Ra Rc HMc) as (_ & Y3); [rewrite Ec; exact Hs|exact HF|]. destruct (Y3 LA LZ) as (v & -> & Hv). cbn [bind].
    eapply yields_same; [apply (Y1 LA LZ)|apply (Add _ _ _ _ _ _ (HA 4) Hu Hv)|]. intros co n Hc Hn. destruct (inb_m2 Hs Hc) as (C0 & C1). cbv beta. unfold mprod. rewrite <- sum_plus by auto. apply red_ext. intros j Hj.
    rewrite <- DL. f_equal. rewrite (is_tensor_shape Hy), Ec. destruct HM as (Ma & Mb & E & Hb). apply (at_is Hy).
    + intros i. destruct i as [|[|i]]; cbn [c2]; [lia|auto|]. rewrite Mb by lia. lia.
    + apply (@bsel_lt (t_shape b) (t_shape a) n (ready_wf Rb) (ready_wf Ra)); destruct Hs as (_ & _ & B); lia.
  - intros HM Eb Hs HF. pose proof (Self b Rb) as Sb. rewrite Eb in Sb. destruct (Add (als 0) a b _ _ _ (HA 0) (Self a Ra) Sb) as (y & -> & Hy). cbn [bind].
    assert (HMb : mat_ok b c) by (unfold mat_ok in *; rewrite Eb; exact HM). assert (HMy : mat_ok y c) by (unfold mat_ok in *; rewrite (is_tensor_shape Hy); exact HM).
    destruct (@C27_matmul K m d (als 1) y c s (HA 1) (is_tensor_ready Hy) Rc HMy) as (_ & Y1); [rewrite (is_tensor_shape Hy); exact Hs|exact HF|].
    destruct (@C27_matmul K m d (als 2) a c s (HA 2) Ra Rc HM Hs HF) as (_ & Y2). destruct (Y2 LA LZ) as (u & -> & Hu).
    destruct (@C27_matmul K m d (als 3) b c s (HA 3) Rb Rc HMb) as (_ & Y3); [rewrite Eb; exact Hs|exact HF|]. destruct (Y3 LA LZ) as (v & -> & Hv). cbn [bind].
    eapply yields_same; [apply (Y1 LA LZ)|apply (Add _ _ _ _ _ _ (HA 4) Hu Hv)|]. intros co n Hc Hn. destruct (inb_m2 Hs Hc) as (C0 & C1). cbv beta. unfold mprod. rewrite (is_tensor_shape Hy), Eb. rewrite <- sum_plus by auto. apply red_ext. intros j Hj.
    rewrite <- DR. f_equal. destruct HM as (Ma & Mb & E & Hb). apply (at_is Hy).
    + intros i. destruct i as [|[|i]]; cbn [c2]; [auto|lia|]. rewrite Ma by lia. lia.
    + apply (@bsel_lt (t_shape a) (t_shape c) n (ready_wf Ra) (ready_wf Rc)); destruct Hs as (_ & _ & B); lia.
Qed.
(** concatenating part by part: concat(concat(xs), ys...) = concat(xs..., ys...); no law of arithmetic is needed *)
Theorem C68_concat_of_concat : forall d (als : nat -> alloc_oracle K) x0 xs0 ys dim s0 s, let xs := x0 :: xs0 in let e := N.to_nat dim in
  (forall i, al_ok (als i)) -> Forall (ready d) (xs ++ ys) -> e < 8 ->
  Forall (fun x : tensor => forall i, i <> e -> ext (t_shape x) i = ext (t_shape x0) i) (xs ++ ys) ->
  common (map (fun x : tensor => bat (t_shape x)) xs) (bat s0) -> shape_is s0 (eset (t_shape x0) e (exts xs e)) (bat s0) -> fits s0 ->
  common (map (fun x : tensor => bat (t_shape x)) (xs ++ ys)) (bat s) -> shape_is s (eset (t_shape x0) e (exts (xs ++ ys) e)) (bat s) -> fits s ->
  same (y <- t_concat m (als 0) xs dim ;; t_concat m (als 1) (y :: ys) dim) (t_concat m (als 2) (xs ++ ys) dim).
Proof.
  intros d als x0 xs0 ys dim s0 s xs e HA HR He HX HC0 Hs0 HF0 HC Hs HF. pose proof HR as HRa. apply Forall_app in HR. destruct HR as (HRx & HRy). pose proof HX as HXa. apply Forall_app in HX. destruct HX as (HXx & HXy).
  destruct (@C26_concat K m d (als 0) x0 xs0 dim s0 (HA 0) HRx He HXx HC0 Hs0 HF0) as (y & Ey & Ry & Sy & Ay). fold xs e in Ey, Ay. rewrite Ey. cbn [bind].
  destruct (@C26_concat K m d (als 2) x0 (xs0 ++ ys) dim s (HA 2) HRa He HXa HC Hs HF) as (z & Ez & Rz & Sz & Az). change (x0 :: xs0 ++ ys) with (xs ++ ys) in Ez, Az. fold e in Az.
  assert (Xy : ext (t_shape y) e = exts xs e) by (rewrite Sy; destruct Hs0 as (_ & -> & _); unfold eset; rewrite Nat.eqb_refl; reflexivity).
  assert (Xy' : forall i, i <> e -> ext (t_shape y) i = ext (t_shape x0) i) by (intros i Hi; rewrite Sy; destruct Hs0 as (_ & -> & _); unfold eset; destruct (Nat.eqb_spec i e); [contradiction|reflexivity]).
  assert (XT : exts (y :: ys) e = exts (xs ++ ys) e) by (rewrite exts_app; unfold exts at 1; cbn [fold_right]; rewrite Xy; reflexivity).
  destruct HC0 as (C0a & C0b). pose proof HC as (Ca & Cb). rewrite map_app in Ca, Cb. apply Forall_app in Ca. destruct Ca as (Cax & Cay).
  assert (B0 : bat s0 = 1 \/ bat s0 = bat s). { destruct C0b as [Q|Q]; [left; exact Q|]. rewrite Forall_forall in Cax. destruct (Cax _ Q); auto. }
  destruct (@C26_concat K m d (als 1) y ys dim s (HA 1)) as (w & Ew & Rw & Sw & Aw); fold e; auto.
  { constructor; [intros i Hi; reflexivity|]. eapply Forall_impl; [|exact HXy]. intros t Ht i Hi. rewrite (Ht i Hi), Xy'; auto. }
  { cbn [map]. rewrite Sy. split; [constructor; auto|]. destruct Cb as [Q|Q]; [left; exact Q|]. apply in_app_or in Q. destruct Q as [Q|Q]; [|right; right; exact Q].
    rewrite Forall_forall in C0a. destruct (C0a _ Q) as [Q1|Q1]; [left; exact Q1|right; left; auto]. }
  { rewrite XT. destruct Hs as (W & X & B). unfold shape_is; ssplit; auto. intros i. rewrite X. unfold eset. destruct (Nat.eqb_spec i e); auto. symmetry; apply Xy'; auto. }
  fold e in Aw.
  assert (Y1 : yields (t_concat m (als 1) (y :: ys) dim) d s (fun c b => at_ w c b)) by (exists w; split; [exact Ew|split; [exact Rw|split; [exact Sw|intros; reflexivity]]]).
  assert (Y2 : yields (t_concat m (als 2) (xs ++ ys) dim) d s (fun c b => at_ z c b)) by (exists z; split; [exact Ez|split; [exact Rz|split; [exact Sz|intros; reflexivity]]]).
  eapply yields_same; [exact Y1|exact Y2|]. intros c b Hc Hb. cbv beta.
  assert (Hce : c e < exts (xs ++ ys) e) by (specialize (Hc e); destruct Hs as (_ & X & _); rewrite X in Hc; unfold eset in Hc; rewrite Nat.eqb_refl in Hc; exact Hc).
  assert (Hci : forall i, i <> e -> c i < ext (t_shape x0) i) by (intros i Hi; specialize (Hc i); destruct Hs as (_ & X & _); rewrite X in Hc; unfold eset in Hc; destruct (Nat.eqb_spec i e); [contradiction|exact Hc]).
  assert (Hin : forall t (l1 : list tensor), In t (xs ++ ys) -> exts l1 e <= c e < exts l1 e + ext (t_shape t) e -> inb (t_shape t) (cset c e (c e - exts l1 e))).
  { intros t l1 Ht H1 i. unfold cset. destruct (Nat.eqb_spec i e) as [->|Ni]; [lia|]. rewrite Forall_forall in HXa. rewrite (HXa t Ht i Ni). auto. }
  assert (Hco : forall (t : tensor) (l1 : list tensor), exts l1 e <= c e -> at_ t (cset (cset c e (c e - exts l1 e)) e (cset c e (c e - exts l1 e) e + exts l1 e)) b = at_ t c b).
  { intros t l1 H1. apply at_ext. intros i. unfold cset. rewrite Nat.eqb_refl. destruct (Nat.eqb_spec i e) as [->|]; [lia|reflexivity]. }
  destruct (Nat.lt_ge_cases (c e) (exts xs e)) as [L|L].
  - destruct (C26_concat_covers xs e L) as (l1 & x & l2 & Exs & Hx).
    assert (Ix : In x xs) by (rewrite Exs; apply in_or_app; right; left; reflexivity). assert (Ix' : In x (xs ++ ys)) by (apply in_or_app; auto).
    rewrite <- (Hco z l1) by lia. rewrite (Az l1 x (l2 ++ ys)); [|rewrite Exs, <- app_assoc; reflexivity|apply Hin; auto|exact Hb].
    assert (Iy : inb (t_shape y) c). { intros i. destruct (Nat.eq_dec i e) as [->|Ni]; [lia|rewrite Xy' by auto; auto]. }
    assert (EW : at_ w c b = at_ y c (bsel (t_shape y) b)).
    { rewrite <- (Aw [] y ys c b eq_refl Iy Hb). apply at_ext. intros i. unfold cset. cbn [exts fold_right]. destruct (Nat.eqb_spec i e) as [->|]; lia. }
    rewrite EW. assert (Hb0 : bsel (t_shape y) b < bat s0) by (unfold bsel; rewrite Sy; destruct (Nat.eqb_spec (bat s0) 1); lia).
    pose proof (Ay l1 x l2 (cset c e (c e - exts l1 e)) _ Exs ltac:(apply Hin; auto) Hb0) as A. rewrite <- Sy in Hb0.
    etransitivity; [etransitivity; [|exact A]|].
    + apply at_ext. intros i. unfold cset. rewrite Nat.eqb_refl. destruct (Nat.eqb_spec i e) as [->|]; [lia|reflexivity].
    + f_equal. assert (Q : bat (t_shape x) = 1 \/ bat (t_shape x) = bat s0). { rewrite Forall_forall in C0a. apply C0a. apply (in_map (fun t : tensor => bat (t_shape t))) in Ix. exact Ix. }
      unfold bsel. rewrite Sy. destruct (Nat.eqb_spec (bat (t_shape x)) 1); auto. destruct (Nat.eqb_spec (bat s0) 1); lia.
  - destruct (C26_concat_covers (xs ++ ys) e Hce) as (l1 & x & l2 & Exs & Hx).
    assert (SP : exists l3, l1 = xs ++ l3 /\ ys = l3 ++ x :: l2).
    { clear - Exs Hx L. assert (G : forall (xs l1 : list tensor) ys, xs ++ ys = l1 ++ x :: l2 -> (exists l3, l1 = xs ++ l3 /\ ys = l3 ++ x :: l2) \/ (exists r, xs = l1 ++ x :: r)).
      { intros zs; induction zs as [|t l IH]; intros [|u l1'] ys0 H; cbn in H.
        - left. exists []. auto.
        - left. exists (u :: l1'). auto.
        - injection H as <- _. right. exists l. reflexivity.
        - injection H as <- H. destruct (IH _ _ H) as [(l3 & -> & ->)|(r & ->)]; [left; exists l3; auto|right; exists r; reflexivity]. }
      destruct (G _ _ _ Exs) as [Q|(r & Q)]; [exact Q|]. rewrite Q in L. rewrite exts_app in L. unfold exts in L at 2. cbn [fold_right] in L. lia. }
    destruct SP as (l3 & -> & Eys). assert (Ix' : In x (xs ++ ys)) by (rewrite Exs; apply in_or_app; right; left; reflexivity).
    assert (EL : exts (y :: l3) e = exts (xs ++ l3) e) by (rewrite exts_app; unfold exts at 1; cbn [fold_right]; rewrite Xy; reflexivity).
    rewrite <- (Hco z (xs ++ l3)) by lia. rewrite (Az (xs ++ l3) x l2); [|exact Exs|apply Hin; auto|exact Hb].
    rewrite <- (Hco w (y :: l3)) by lia. rewrite (Aw (y :: l3) x l2); [rewrite EL; reflexivity|rewrite Eys; reflexivity|apply Hin; [exact Ix'|lia]|exact Hb].
Qed.
End Defs.
Arguments same {K} m r1 r2.

(** ** Concrete cases *)
Example C68_ring_applies : ring_like Znum /\ commutes Znum /\ (forall v : F Znum, nneg Znum (nneg Znum v) = v) /\ (forall u v : F Znum, nlt Znum (nneg Znum u) (nneg Znum v) = nlt Znum v u).
Proof. unfold ring_like, adds_up, commutes. cbn [nadd nmul nneg nlt n0 Znum F]. ssplit; intros; try (apply Z.mul_assoc || lia). Qed.
Definition q32 : tensor Znum := tz 0 [3; 2]%N 2 [3;1;2; 5;5;-1;  0;7;7; 4;2;2]%Z.
Definition q23 : tensor Znum := tz 0 [2; 3]%N 1 [1;10; 2;20; 3;30]%Z.
Lemma q_mat : mat_ok q32 q23.
Proof.
  pose proof (@sh_is [3;2]%N 2 eq_refl eq_refl) as Hx. pose proof (@sh_is [2;3]%N 1 eq_refl eq_refl) as Hy.
  unfold mat_ok. cbn [t_shape q32 q23 tz]. split; [|split; [|split; [reflexivity|right; right; reflexivity]]];
    intros i Hi; [rewrite (proj1 (proj2 Hx))|rewrite (proj1 (proj2 Hy))]; destruct i as [|[|i]]; try lia; destruct i; reflexivity.
Qed.
Lemma q_shape : shape_is (sh [3;3]%N 2) (m2 (ext (t_shape q32) 0) (ext (t_shape q23) 1)) (Nat.max (bat (t_shape q32)) (bat (t_shape q23))).
Proof.
  pose proof (@sh_is [3;3]%N 2 eq_refl eq_refl) as (W & X & B). split; [exact W|]. split; [|reflexivity]. intros i. rewrite X. destruct i as [|[|i]]; try reflexivity. destruct i; reflexivity.
Qed.
Lemma q_ready : ready 0 q32 /\ ready 0 q23. Proof. split; rdy. Qed.
Example C68_transpose_applies :
  same Release (y <- t_matmul Release alz q32 q23 ;; t_transpose Release alz y)
    (bt <- t_transpose Release alz q23 ;; at' <- t_transpose Release alz q32 ;; t_matmul Release alz bt at') /\
  (y <- t_matmul Release alz q32 q23 ;; y' <- t_transpose Release alz y ;; to_vec Release y') = Ok [53;106;159; 51;102;153; -8;-16;-24; 40;80;120; 27;54;81; 27;54;81]%Z.
Proof.
  split; [|reflexivity]. apply (@C68_transpose_of_product Znum Release 0 (fun _ => alz) q32 q23 (sh [3;3]%N 2)); try apply q_ready; try apply q_mat; try apply q_shape.
  - intros _. apply alz_ok.
  - apply C68_ring_applies.
  - apply sh_fits; reflexivity.
Qed.
Example C68_columns_applies :
  same Release (y <- t_matmul Release alz q32 q23 ;; t_slice Release alz y 1 1 3) (b' <- t_slice Release alz q23 1 1 3 ;; t_matmul Release alz q32 b').
Proof.
  apply (@C68_columns_of_product Znum Release 0 (fun _ => alz) q32 q23 1%N 3%N (sh [3;3]%N 2)); try apply q_ready; try apply q_mat; try apply q_shape; try (apply sh_fits; reflexivity); try lia.
  - intros _. apply alz_ok.
  - apply Nat.leb_le. reflexivity.
Qed.
Example C68_pick_applies : exists ids, t_argmax Release isort (tz 0 [3]%N 2 [4;9;9; 7;1;2]%Z) 0 = Ok ids /\ ids = [1; 0]%N /\
  same Release (t_pick Release alz (tz 0 [3]%N 2 [4;9;9; 7;1;2]%Z) ids 0) (t_max Release alz (tz 0 [3]%N 2 [4;9;9; 7;1;2]%Z) 0).
Proof.
  destruct (@C68_pick_of_argmax Znum Release isort 0 (fun _ => alz) (tz 0 [3]%N 2 [4;9;9; 7;1;2]%Z) 0%N) as (H & _).
  - intros _. apply alz_ok.
  - rdy.
  - lia.
  - intros i Hi. pose proof (@sh_is [3]%N 2 eq_refl eq_refl) as (_ & X & _). cbn [t_shape tz]. rewrite X. destruct i as [|i]; [cbn in Hi; lia|]. destruct i; reflexivity.
  - destruct H as (ids & E & Sm); [intros b _; cbn [nlt Znum]; split; [|split]; intros; lia|]. exists ids. split; [exact E|]. split; [|exact Sm].
    assert (E' : t_argmax Release isort (tz 0 [3]%N 2 [4;9;9; 7;1;2]%Z) 0 = Ok [1; 0]%N) by reflexivity. congruence.
Qed.
