(** * PropsFloat: C62 rounding of tensor arithmetic, C63 activation functions on binary32 *)
From Coq Require Import ZArith Reals Lra.
From Flocq Require Import Core IEEE754.BinarySingleNaN.
From Verif Require Import PropsElem PropsMove Float32 RSum Rounding PropsNan.
Set Implicit Arguments. Unset Strict Implicit.
Close Scope R_scope. Close Scope Z_scope. Open Scope nat_scope.

Section C62.
Variable M : libm.
Variable m : build.
Notation K := (Fnum M).
Notation tensor := (tensor (Fnum M)).

(** ** Specification *)
(** [rnd x] is the binary32 number (unbounded exponent) nearest to the real [x], ties to even.
    An operation is correctly rounded if its result is [rnd] of the exact result, and it overflows
    only when that is 2^128 or more. *)
Definition round_op (u v r : f32) (exact : R) : Prop :=
  (finite r = true <-> finite u = true /\ finite v = true /\ (Rabs (rnd exact) < 2 ^ 128)%R) /\
  (finite r = true -> val r = rnd exact).
(** all elements of the result of a binary operator relate to the elements of the operands *)
Definition elementwise (f : alloc_oracle K -> tensor -> tensor -> res tensor) (P : f32 -> f32 -> f32 -> Prop) : Prop :=
  forall d al a b s, al_ok al -> ready d a -> ready d b -> bin_ok (t_shape a) (t_shape b) s -> fits s ->
  exists y, f al a b = Ok y /\ ready d y /\ t_shape y = s /\
    forall c n, inb s c -> n < bat s -> P (opnd a c n) (opnd b c n) (at_ y c n).
(** [n] numbers [f j]: how far a sum may be from the exact one *)
Definition sum_within (f : nat -> f32) (n : nat) (r : f32) : Prop :=
  finite r = true -> (forall j, j < n -> finite (f j) = true) /\
  (Rabs (val r - rsum n (fun j => val (f j))) <= ((1 + u32r) ^ (n - 1) - 1) * rsum n (fun j => Rabs (val (f j))))%R.
(** ... and a sum of [n] products f j * g j, in blocks of eight *)
Definition dot_within (f g : nat -> f32) (n : nat) (r : f32) : Prop :=
  finite r = true -> (forall j, j < n -> finite (f j) = true /\ finite (g j) = true) /\
  let nb := (n + 7) / 8 in
  (Rabs (val r - rsum n (fun j => val (f j) * val (g j))) <=
   ((1 + u32r) ^ (nb + 7) - 1) * rsum n (fun j => Rabs (val (f j) * val (g j))) + (1 + u32r) ^ (nb + 6) * (INR n * eta32))%R.

Lemma two128 : (2 ^ 128 = bpow radix2 128)%R.
Proof. change (bpow radix2 128) with (IZR (2 ^ 128)). rewrite pow_IZR. reflexivity. Qed.
Lemma operator_elementwise f (op : f32 -> f32 -> f32) (P : f32 -> f32 -> f32 -> Prop) : operator (K := K) f op -> (forall u v, P u v (op u v)) -> elementwise f P.
Proof.
  intros H HP d al a b s HA Ra Rb HS HF. destruct (H d al a b s HA Ra Rb HS HF) as (y & E & Ry & Sy & Y). exists y. ssplit; auto.
  intros c n Hc Hn. rewrite Y by auto. apply HP.
Qed.

(** ** C62 *)
(** what [rnd] is: no binary32 number is closer, and binary32 numbers are left alone *)
Theorem C62_nearest : (forall (x : R) (z : f32), Rabs (rnd x - x) <= Rabs (val z - x))%R /\ (forall z : f32, rnd (val z) = val z).
Proof. split; [exact rnd_nearest|]. intros z. unfold rnd. apply round_generic; [apply valid_rnd_N|apply format32]. Qed.
Theorem C62_operators :
  elementwise (t_add m) (fun u v r => round_op u v r (val u + val v)%R) /\
  elementwise (t_sub m) (fun u v r => round_op u v r (val u - val v)%R) /\
  elementwise (t_mul m) (fun u v r => round_op u v r (val u * val v)%R) /\
  elementwise (t_div m) (fun u v r => finite v = true -> val v <> 0%R -> round_op u v r (val u / val v)%R).
Proof.
  destruct (C18_operator_syntax K m) as (H1 & H2 & H3 & H4 & _). specialize (H1 (proj1 (C61_commutes M))). specialize (H3 (proj2 (C61_commutes M))).
  unfold round_op. rewrite two128.
  split; [eapply operator_elementwise; [exact H1|]; intros; apply plus32|]. split; [eapply operator_elementwise; [exact H2|]; intros; apply minus32|].
  split; [eapply operator_elementwise; [exact H3|]; intros; apply mult32|]. eapply operator_elementwise; [exact H4|].
  intros u v Fv Hv. destruct (div32 u Hv) as (A & B). cbn [ndiv Fnum]. tauto.
Qed.
(** a function of one tensor: the result relates to the operand element by element *)
Definition pointwise (f : alloc_oracle K -> tensor -> res tensor) (P : f32 -> f32 -> Prop) : Prop :=
  forall d al x, al_ok al -> ready d x -> exists y, f al x = Ok y /\ ready d y /\ t_shape y = t_shape x /\
    forall c b, inb (t_shape x) c -> b < bat (t_shape x) -> P (at_ x c b) (at_ y c b).
Lemma maps_pointwise f (op : f32 -> f32) (P : f32 -> f32 -> Prop) : method_maps (K := K) f op -> (forall v, P v (op v)) -> pointwise f P.
Proof.
  intros H HP d al x HA HR. destruct (H d al x HA HR) as (y & E & Ry & Sy & Y). exists y. ssplit; auto. intros c b Hc Hb. rewrite Y by auto. apply HP.
Qed.
(** negation and absolute value are exact; the square root is correctly rounded, NaN below zero *)
Theorem C62_neg_abs_sqrt :
  pointwise (t_neg m) (fun v r => finite r = finite v /\ val r = (- val v)%R) /\
  pointwise (t_abs m) (fun v r => finite r = finite v /\ val r = Rabs (val v)) /\
  pointwise (t_sqrt m) (fun v r => (finite r = true <-> finite v = true /\ (0 <= val v)%R) /\ val r = rnd (sqrt (val v))).
Proof.
  destruct (C17_methods K m) as (H1 & H2 & H3 & _). split; [|split].
  - eapply maps_pointwise; [exact H1|]. intros v. split; [apply is_finite_Bopp|apply B2R_Bopp].
  - eapply maps_pointwise; [exact H2|]. intros v. split; [apply is_finite_Babs|apply B2R_Babs].
  - eapply maps_pointwise; [exact H3|]. intros v. destruct (sqrt32 v). auto.
Qed.

(** sums: [t_sum] along a dimension, [t_batch_sum] over the minibatch *)
Theorem C62_sum : forall d (al : alloc_oracle K) x dim, al_ok al -> ready d x -> N.to_nat dim < 8 ->
  exists s y, without (t_shape x) (N.to_nat dim) s /\ t_sum m al x dim = Ok y /\ ready d y /\ t_shape y = s /\
    forall c b, inb s c -> b < bat s -> sum_within (fun j => at_ x (cset c (N.to_nat dim) j) b) (ext (t_shape x) (N.to_nat dim)) (at_ y c b).
Proof.
  intros d al x dim HA HR Hd. destruct (@C20_sum K m d al x dim HA HR Hd) as (s & W & y & E & Ry & Sy & Y). exists s, y. ssplit; auto.
  intros c b Hc Hb HF. rewrite Y in HF |- * by auto. apply fsum_error; [apply (ext_pos _ (ready_wf HR))|exact HF].
Qed.
Theorem C62_batch_sum : forall d (al : alloc_oracle K) x s, al_ok al -> ready d x -> shape_is s (ext (t_shape x)) 1 ->
  exists y, t_batch_sum m al x = Ok y /\ ready d y /\ t_shape y = s /\
    forall c, inb s c -> sum_within (fun b => at_ x c b) (bat (t_shape x)) (at_ y c 0).
Proof.
  intros d al x s HA HR HS. destruct (@C29_batch_sum K m d al x s HA HR HS) as (y & E & Ry & Sy & Y). exists y. ssplit; auto.
  intros c Hc HF. assert (B0 : 0 < bat s) by (destruct HS as (_ & _ & ->); lia). rewrite Y in HF |- * by auto. apply fsum_error; [apply (bat_pos (ready_wf HR))|exact HF].
Qed.
Theorem C62_matmul : forall d (al : alloc_oracle K) a b s, al_ok al -> ready d a -> ready d b -> mat_ok a b ->
  shape_is s (m2 (ext (t_shape a) 0) (ext (t_shape b) 1)) (Nat.max (bat (t_shape a)) (bat (t_shape b))) -> fits s ->
  exists y, t_matmul m al a b = Ok y /\ ready d y /\ t_shape y = s /\
    forall c n, inb s c -> n < bat s ->
      dot_within (fun j => at_ a (c2 (c 0) j) (bsel (t_shape a) n)) (fun j => at_ b (c2 j (c 1)) (bsel (t_shape b) n)) (ext (t_shape a) 1) (at_ y c n).
Proof.
  intros d al a b s HA Ra Rb HM HS HF. destruct (proj1 (@C27_matmul K m d al a b s HA Ra Rb HM HS HF)) as (y & E & Ry & Sy & Y). exists y. ssplit; auto.
  intros c n Hc Hn HFi. rewrite Y in HFi |- * by auto.
  apply (@fblocks_error (fun j => at_ a (c2 (c 0) j) (bsel (t_shape a) n)) (fun j => at_ b (c2 j (c 1)) (bsel (t_shape b) n)) (ext (t_shape a) 1)); [apply (ext_pos _ (ready_wf Ra))|exact HFi].
Qed.
(** no rounding at all as long as the numbers are integers and their absolute values do not add up to more than 2^24 *)
Theorem C62_integer_sum : forall d (al : alloc_oracle K) x dim, al_ok al -> ready d x -> N.to_nat dim < 8 ->
  exists s y, without (t_shape x) (N.to_nat dim) s /\ t_sum m al x dim = Ok y /\ ready d y /\ t_shape y = s /\
    forall c b z, inb s c -> b < bat s -> let n := ext (t_shape x) (N.to_nat dim) in
      (forall j, j < n -> is_int (at_ x (cset c (N.to_nat dim) j) b) (z j)) -> (zsum n (fun j => Z.abs (z j)) <= 2 ^ 24)%Z ->
      is_int (at_ y c b) (zsum n z).
Proof.
  intros d al x dim HA HR Hd. destruct (@C20_sum K m d al x dim HA HR Hd) as (s & W & y & E & Ry & Sy & Y). exists s, y. ssplit; auto.
  intros c b z Hc Hb n Hz HB. rewrite Y by auto. apply (fsum_int Hz HB).
Qed.
Theorem C62_integer_matmul : forall d (al : alloc_oracle K) a b s, al_ok al -> ready d a -> ready d b -> mat_ok a b ->
  shape_is s (m2 (ext (t_shape a) 0) (ext (t_shape b) 1)) (Nat.max (bat (t_shape a)) (bat (t_shape b))) -> fits s ->
  exists y, t_matmul m al a b = Ok y /\ ready d y /\ t_shape y = s /\
    forall c n p q, inb s c -> n < bat s -> let k := ext (t_shape a) 1 in
      (forall j, j < k -> is_int (at_ a (c2 (c 0) j) (bsel (t_shape a) n)) (p j) /\ is_int (at_ b (c2 j (c 1)) (bsel (t_shape b) n)) (q j)) ->
      (zsum k (fun j => Z.abs (p j * q j)) <= 2 ^ 24)%Z -> is_int (at_ y c n) (zsum k (fun j => (p j * q j)%Z)).
Proof.
  intros d al a b s HA Ra Rb HM HS HF. destruct (proj1 (@C27_matmul K m d al a b s HA Ra Rb HM HS HF)) as (y & E & Ry & Sy & Y). exists y. ssplit; auto.
  intros c n p q Hc Hn k Hz HB. rewrite Y by auto. apply (fblocks_int Hz HB).
Qed.

(** ** C63 *)
Definition pos32 (v : f32) : bool := Bltb (f32_of_Z 0) v.
Lemma pos32_val v : finite v = true -> pos32 v = true <-> (0 < val v)%R.
Proof.
  intros H. unfold pos32. rewrite Bltb_correct by auto. change (val (f32_of_Z 0)) with 0%R. destruct (Rlt_bool_spec 0 (val v)); split; auto; try discriminate. lra.
Qed.
Lemma mul_one (v : f32) : v *f f32_of_Z 1 = v.
Proof.
  destruct (finite v) eqn:F.
  - destruct (@of_Z_int 1 ltac:(cbv; discriminate)) as (F1 & E1). pose proof (Bmult_correct 24 128 _ _ mode_NE v (f32_of_Z 1)) as H.
    rewrite rnd_fexp, E1, Rmult_1_r in H. replace (rnd (val v)) with (val v) in H by (symmetry; apply C62_nearest).
    rewrite Rlt_bool_true in H by (apply abs_B2R_lt_emax). destruct H as (H1 & H2 & H3). rewrite F, F1 in H2. cbn [andb] in H2.
    apply B2R_Bsign_inj; auto. rewrite H3; [|destruct (v *f f32_of_Z 1); try discriminate; reflexivity]. change (Bsign (f32_of_Z 1)) with false. apply xorb_false_r.
  - destruct v as [?|[]| |]; try discriminate; reflexivity.
Qed.
Lemma mul_zero (v : f32) : finite v = true -> exists s, v *f f32_of_Z 0 = B754_zero s.
Proof. intros F. destruct v as [s|?| |s ? ? ?]; try discriminate; exists (xorb s false); reflexivity. Qed.
Lemma zero_plus_val (k : f32) : finite k = true -> finite (f32_of_Z 0 +f k) = true /\ val (f32_of_Z 0 +f k) = val k.
Proof.
  intros F. destruct (plus32 (f32_of_Z 0) k) as (H1 & H2). change (val (f32_of_Z 0)) with 0%R in * . rewrite Rplus_0_l in * .
  replace (rnd (val k)) with (val k) in * by (symmetry; apply C62_nearest). assert (finite (f32_of_Z 0 +f k) = true) by (apply H1; split; [reflexivity|]; split; auto; apply abs_B2R_lt_emax). auto.
Qed.
(** prelu and lrelu: x itself above zero; slope times x, correctly rounded, from zero down *)
Definition leaky (k v r : f32) : Prop :=
  (pos32 v = true -> r = v) /\ (finite v = true -> (val v <= 0)%R -> round_op v k r (val v * val k)%R) /\ (is_nan v = true -> is_nan r = true).
Lemma leaky_ok (k v : f32) : finite k = true ->
  leaky k v (v *f (f32_of_Z (if pos32 v then 1 else 0) +f f32_of_Z (if Bleb v (f32_of_Z 0) then 1 else 0) *f k)).
Proof.
  intros Fk. split; [|split].
  - intros Hp. rewrite Hp. assert (Bleb v (f32_of_Z 0) = false) as ->.
    { destruct (is_nan v) eqn:N; [unfold pos32 in Hp; rewrite ltb_nan_r in Hp by auto; discriminate|]. rewrite leb32 by auto. unfold pos32 in Hp. rewrite Hp. reflexivity. }
    rewrite (mul_comm32 (f32_of_Z 0) k). destruct (mul_zero Fk) as (s & ->).
    replace (f32_of_Z 1 +f B754_zero s) with (f32_of_Z 1) by (destruct s; reflexivity). apply mul_one.
  - intros Fv Hv. assert (pos32 v = false) as ->. { apply not_true_iff_false. rewrite pos32_val by auto. lra. }
    assert (Bleb v (f32_of_Z 0) = true) as ->. { rewrite Bleb_correct by auto. change (val (f32_of_Z 0)) with 0%R. apply Rle_bool_true. exact Hv. }
    rewrite (mul_comm32 (f32_of_Z 1) k), mul_one. destruct (zero_plus_val Fk) as (F0 & E0). unfold round_op. rewrite two128.
    destruct (mult32 v (f32_of_Z 0 +f k)) as (H1 & H2). rewrite E0 in H1, H2. split; [|exact H2]. rewrite H1, F0, Fk. tauto.
  - intros N. destruct v; try discriminate. reflexivity.
Qed.
Theorem C63_leaky : pointwise (t_lrelu m) (leaky (@nc001 K)) /\
  forall k : f32, finite k = true -> pointwise (fun al x => t_prelu m al x k) (leaky k).
Proof.
  destruct (C17_methods K m) as (_ & _ & _ & _ & _ & _ & _ & _ & _ & _ & _ & _ & H1 & _ & _ & _ & _ & _ & _ & _ & _ & _ & H2 & _). split.
  - eapply maps_pointwise; [exact H1|]. intros v. apply leaky_ok. reflexivity.
  - intros k Fk d al x HA HR. destruct (H2 d al x k HA HR) as (y & E & Ry & Sy & Y). exists y. ssplit; auto. intros c b Hc Hb. rewrite Y by auto. apply (@leaky_ok k); auto.
Qed.
(** relu: x above zero, a zero for the other finite numbers; NaN for NaN, and NaN for minus infinity *)
Theorem C63_relu : pointwise (t_relu m) (fun v r => (pos32 v = true -> r = v) /\
  (finite v = true -> (val v <= 0)%R -> exists s, r = B754_zero s) /\ (is_nan v = true -> is_nan r = true) /\ (v = B754_infinity true -> is_nan r = true)).
Proof.
  destruct (C17_methods K m) as (_ & _ & _ & _ & _ & _ & _ & _ & _ & _ & _ & H1 & _).
  eapply maps_pointwise; [exact H1|]. intros v. destruct (@leaky_ok (f32_of_Z 0) v eq_refl) as (A & B & C).
  split; [exact A|]. split; [|split; [exact C|intros ->; reflexivity]]. intros Fv Hv.
  assert (E1 : pos32 v = false). { apply not_true_iff_false. rewrite pos32_val by auto. lra. }
  assert (E2 : Bleb v (f32_of_Z 0) = true). { rewrite Bleb_correct by auto. change (val (f32_of_Z 0)) with 0%R. apply Rle_bool_true. exact Hv. }
  change (exists s, v *f (f32_of_Z (if pos32 v then 1 else 0) +f f32_of_Z (if Bleb v (f32_of_Z 0) then 1 else 0) *f f32_of_Z 0) = B754_zero s).
  rewrite E1, E2. change (f32_of_Z 0 +f f32_of_Z 1 *f f32_of_Z 0) with (f32_of_Z 0). apply mul_zero. exact Fv.
Qed.
(** softplus of minus infinity is NaN, whatever exp and ln are *)
Theorem C63_softplus_minus_infinity : pointwise (t_softplus m) (fun v r => v = B754_infinity true -> is_nan r = true).
Proof.
  destruct (C17_methods K m) as (_ & _ & _ & _ & _ & _ & _ & _ & _ & _ & H1 & _).
  eapply maps_pointwise; [exact H1|]. intros v ->. cbn [nadd nmul nofZ nlt n0 Fnum].
  change (Bltb (f32_of_Z 0) (B754_infinity true)) with false. change (f32_of_Z 0 *f B754_infinity true) with (@B754_nan 24 128). rewrite add_comm32. reflexivity.
Qed.
(** elu above zero *)
Theorem C63_elu : forall k : f32, pointwise (fun al x => t_elu m al x k) (fun v r => pos32 v = true -> r = v).
Proof.
  intros k. destruct (C17_methods K m) as (_ & _ & _ & _ & _ & _ & _ & _ & _ & _ & _ & _ & _ & _ & _ & _ & _ & _ & _ & _ & _ & _ & _ & H2).
  intros d al x HA HR. destruct (H2 d al x k HA HR) as (y & E & Ry & Sy & Y). exists y. ssplit; auto. intros c b Hc Hb Hp. rewrite Y by auto.
  change (nlt K (@n0 K) (at_ x c b)) with (pos32 (at_ x c b)). rewrite Hp. reflexivity.
Qed.
(** sigmoid stays in [0, 1] if tanh stays in [-1, 1] *)
Theorem C63_sigmoid : (forall v : f32, is_nan v = false -> finite (l_tanh M v) = true /\ (-1 <= val (l_tanh M v) <= 1)%R) ->
  pointwise (t_sigmoid m) (fun v r => is_nan v = false -> finite r = true /\ (0 <= val r <= 1)%R).
Proof.
  intros HT. destruct (C17_methods K m) as (_ & _ & _ & _ & _ & _ & _ & _ & _ & H1 & _).
  eapply maps_pointwise; [exact H1|]. intros v Nv. cbn [nadd nmul nhalf ntanh Fnum]. set (h := binary_normalize 24 128 eq_refl eq_refl mode_NE 1 (-1) false).
  assert (Eh : val h = (/ 2)%R). { unfold h. pose proof (binary_normalize_correct 24 128 eq_refl eq_refl mode_NE 1 (-1) false) as Q. cbv zeta in Q. rewrite rnd_fexp in Q.
    replace (F2R {| Defs.Fnum := 1; Fexp := -1 |}) with (bpow radix2 (-1)) in Q by (unfold F2R; cbn; ring).
    assert (RH : rnd (bpow radix2 (-1)) = bpow radix2 (-1)). { unfold rnd. apply round_generic; [apply valid_rnd_N|]. apply generic_format_FLT_bpow; [reflexivity|discriminate]. }
    rewrite RH in Q. rewrite Rlt_bool_true in Q. { destruct Q as (Q & _). rewrite Q. reflexivity. }
    rewrite Rabs_pos_eq by (apply bpow_ge_0). apply bpow_lt. reflexivity. }
  assert (Fh : finite h = true) by reflexivity.
  assert (RH : rnd (/ 2) = (/ 2)%R) by (rewrite <- Eh; apply C62_nearest).
  assert (RN : rnd (- / 2) = (- / 2)%R). { replace (- / 2)%R with (val (Bopp h)) by (rewrite B2R_Bopp, Eh; reflexivity). apply C62_nearest. }
  assert (R0 : rnd 0 = 0%R) by (apply round_0; apply valid_rnd_N).
  assert (R1 : rnd 1 = 1%R) by (apply (@rnd_int 1); cbv; discriminate).
  assert (ML : forall x y : R, (x <= y)%R -> (rnd x <= rnd y)%R). { intros x y H. unfold rnd. apply round_le; [apply FLT_exp_valid; reflexivity|apply valid_rnd_N|exact H]. }
  assert (NV : is_nan (h *f v) = false).
  { pose proof (Bmult_correct 24 128 _ _ mode_NE h v) as H. destruct (finite v) eqn:Fv.
    - destruct (Rlt_bool _ _).
      + destruct H as (_ & H & _). rewrite ?Fv, Fh in H. destruct (h *f v); try discriminate; reflexivity.
      + destruct (h *f v); try reflexivity; discriminate.
    - destruct v as [?|[]| |]; try discriminate; reflexivity. }
  destruct (HT _ NV) as (Ft & Bt). set (t := l_tanh M (h *f v)) in * .
  destruct (mult32 h t) as (M1 & M2). rewrite Eh in M1, M2.
  assert (BW : (- / 2 <= rnd (/ 2 * val t) <= / 2)%R). { split; [eapply Rle_trans; [right; symmetry; exact RN|]|eapply Rle_trans; [|right; exact RH]]; apply ML; lra. }
  assert (B128 : (1 < bpow radix2 128)%R) by (change (bpow radix2 0 < bpow radix2 128)%R; apply bpow_lt; reflexivity).
  assert (FW : finite (h *f t) = true). { apply M1. ssplit; auto. apply Rle_lt_trans with (/ 2)%R; [apply Rabs_le; exact BW|lra]. }
  specialize (M2 FW). destruct (plus32 h (h *f t)) as (P1 & P2). rewrite Eh, M2 in P1, P2.
  assert (BS : (0 <= rnd (/ 2 + rnd (/ 2 * val t)) <= 1)%R). { split; [eapply Rle_trans; [right; symmetry; exact R0|]|eapply Rle_trans; [|right; exact R1]]; apply ML; lra. }
  assert (FS : finite (h +f h *f t) = true). { apply P1. ssplit; auto. apply Rle_lt_trans with 1%R; [|exact B128]. apply Rabs_le. lra. }
  split; [exact FS|]. rewrite (P2 FS). exact BS.
Qed.
End C62.

(** ** Concrete cases *)
(** 16777216 + 1 + 1 from left to right loses both ones, 1 + 1 + 16777216 does not: the bound of C62_sum is not vacuous
    and addition is not associative *)
Definition sa : tensor K0 := tf [3]%N 1 [v32 16777216; v32 1; v32 1].
Definition sb : tensor K0 := tf [3]%N 1 [v32 1; v32 1; v32 16777216].
Definition ma : tensor K0 := tf [1; 9]%N 1 (map v32 [1; 2; 3; 4; 5; 6; 7; 8; -9]%Z).
Definition mb : tensor K0 := tf [9; 1]%N 1 (map v32 [1; 1; 1; 1; 1; 1; 1; 1; 4]%Z).
Definition first_bits (r : res (tensor K0)) : option (SpecFloat.spec_float) := match r with Ok t => option_map (@B2SF 24 128) (nth_error (buf t) 0) | _ => None end.
Example C62_applies : al_ok alf /\ ready 0 sa /\ ready 0 sb /\ ready 0 ma /\ ready 0 mb /\ mat_ok ma mb /\ fits (sh []%N 1) /\
  shape_is (sh []%N 1) (m2 (ext (t_shape ma) 0) (ext (t_shape mb) 1)) (Nat.max (bat (t_shape ma)) (bat (t_shape mb))) /\
  first_bits (t_sum Release alf sa 0) = Some (B2SF (v32 16777216)) /\ first_bits (t_sum Release alf sb 0) = Some (B2SF (v32 16777218)) /\
  first_bits (t_matmul Release alf ma mb) = Some (B2SF (v32 0)) /\ finite (v32 16777216) = true /\
  first_bits (t_add Release alf sa sb) = Some (B2SF (v32 16777216)).
Proof.
  split; [exact alf_ok|]. split; [rdyf|]. split; [rdyf|]. split; [rdyf|]. split; [rdyf|]. split.
  - split; [|split; [|split]].
    + intros i Hi. do 2 (destruct i as [|i]; [lia|]). do 7 (destruct i as [|i]; [reflexivity|]). reflexivity.
    + intros i Hi. do 2 (destruct i as [|i]; [lia|]). do 7 (destruct i as [|i]; [reflexivity|]). reflexivity.
    + reflexivity.
    + left. reflexivity.
  - split; [apply sh_fits; reflexivity|]. split.
    + destruct (@sh_is []%N 1 eq_refl eq_refl) as (A & B & C). split; [exact A|]. split; [|rewrite C; reflexivity]. intros i. rewrite B. destruct i as [|[|i]]; reflexivity.
    + ssplit; vm_compute; reflexivity.
Qed.
Theorem C62_not_associative_refuted : ~ forall x y z : f32, (x +f y) +f z = x +f (y +f z).
Proof. intros H. specialize (H (v32 16777216) (v32 1) (v32 1)). apply (f_equal (@B2SF 24 128)) in H. vm_compute in H. discriminate. Qed.
(** a tanh that meets the contract of C63_sigmoid *)
Definition clamp (v : f32) : f32 := if Bltb v (v32 (-1)) then v32 (-1) else if Bltb (v32 1) v then v32 1 else v.
Lemma clamp_ok (v : f32) : is_nan v = false -> finite (clamp v) = true /\ (-1 <= val (clamp v) <= 1)%R.
Proof.
  intros N. destruct (@of_Z_int 1 ltac:(cbv; discriminate)) as (F1 & E1). destruct (@of_Z_int (-1) ltac:(cbv; discriminate)) as (F2 & E2).
  unfold clamp, v32. destruct (Bltb v (f32_of_Z (-1))) eqn:L1; [rewrite E2; split; [exact F2|lra]|]. destruct (Bltb (f32_of_Z 1) v) eqn:L2; [rewrite E1; split; [exact F1|lra]|].
  assert (F : finite v = true) by (destruct v as [?|[]| |]; try discriminate; reflexivity). split; [exact F|].
  rewrite Bltb_correct in L1, L2 by auto. rewrite E1 in L2. rewrite E2 in L1. destruct (Rlt_bool_spec (val v) (-1)); try discriminate. destruct (Rlt_bool_spec 1 (val v)); try discriminate. lra.
Qed.
Definition ra : tensor K0 := tf [5]%N 1 [v32 3; v32 (-3); inf; minf; qnan].
Example C63_applies : al_ok alf /\ ready 0 ra /\ (forall v : f32, is_nan v = false -> finite (clamp v) = true /\ (-1 <= val (clamp v) <= 1)%R) /\
  match t_relu Release alf ra with Ok y => map (@B2SF 24 128) (firstn 5 (buf y)) | _ => [] end =
    [B2SF (v32 3); B2SF mzero; B2SF inf; B2SF qnan; B2SF qnan].
Proof. split; [exact alf_ok|]. split; [rdyf|]. split; [exact clamp_ok|]. vm_compute. reflexivity. Qed.
