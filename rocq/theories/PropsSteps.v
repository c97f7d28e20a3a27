(** * PropsSteps: how far the optimizers move a parameter (C72) *)
From Verif Require Export PropsOptim.
From Coq Require Import Reals Lra.
Set Implicit Arguments.
Unset Strict Implicit.
Open Scope R_scope.

(** ** Sequences of reals *)
Lemma two_products (A B X t : R) : 0 <= A -> 0 <= B -> X * X <= A * B -> 2 * X * t <= A + B * t * t.
Proof.
  intros HA HB H. destruct (Rle_lt_dec (X * t) 0) as [L|L]; [assert (0 <= B * t * t) by (rewrite Rmult_assoc; apply Rmult_le_pos; [auto|nra]); nra|].
  assert (S : (2 * X * t) * (2 * X * t) <= (A + B * t * t) * (A + B * t * t)).
  { assert (0 <= (A - B * t * t) * (A - B * t * t)) by (destruct (Rle_lt_dec 0 (A - B * t * t)); nra). assert ((X * X) * (t * t) <= (A * B) * (t * t)) by (apply Rmult_le_compat_r; nra). nra. }
  assert (P : 0 <= A + B * t * t) by (assert (0 <= B * t * t) by (rewrite Rmult_assoc; apply Rmult_le_pos; [auto|nra]); lra).
  nra.
Qed.
(** the square of a weighted sum, against the weighted sum of the squares *)
Lemma weighted_square (a b r : R) (g x y : nat -> R) : 0 < a -> 0 < b -> r * b = a * a -> x 0%nat = 0 -> y 0%nat = 0 ->
  forall N, (forall n, (n < N)%nat -> x (S n) = x n * a + g n /\ y (S n) = y n * b + g n * g n) ->
  forall n, (n <= N)%nat -> 0 <= y n /\ x n * x n <= rsum n (fun j => r ^ j) * y n.
Proof.
  intros Ha Hb Hr X0 Y0 N H n. induction n as [|n IH]; intros Hn; [rewrite X0, Y0; cbn; lra|]. destruct IH as (IH1 & IH2); [lia|]. destruct (H n ltac:(lia)) as (E1 & E2). rewrite E1, E2. split; [assert (0 <= y n * b) by (apply Rmult_le_pos; lra); nra|].
  assert (Hr0 : 0 < r) by (assert (0 < r * b) by (rewrite Hr; apply Rmult_lt_0_compat; auto); nra).
  assert (SS : rsum (S n) (fun j => r ^ j) = 1 + r * rsum n (fun j => r ^ j)).
  { rewrite <- rsum_scal. clear. induction n as [|n IH]; [cbn; ring|]. cbn [rsum]. cbn [rsum] in IH. rewrite IH. cbn [pow]. ring. }
  rewrite SS. set (S := rsum n (fun j => r ^ j)) in * . assert (S0 : 0 <= S) by (apply rsum_nonneg; intros; left; apply pow_lt; auto).
  assert (T : 2 * (a * x n) * g n <= b * y n + (r * S) * g n * g n).
  { apply two_products; [apply Rmult_le_pos; lra|apply Rmult_le_pos; lra|]. replace (a * x n * (a * x n)) with (a * a * (x n * x n)) by ring. replace (b * y n * (r * S)) with (r * b * (S * y n)) by ring. rewrite Hr. apply Rmult_le_compat_l; [nra|auto]. }
  replace ((x n * a + g n) * (x n * a + g n)) with (a * a * (x n * x n) + 2 * (a * x n) * g n + g n * g n) by ring.
  replace ((1 + r * S) * (y n * b + g n * g n)) with (b * y n + r * S * g n * g n + (r * b) * (S * y n) + g n * g n) by ring. rewrite Hr.
  assert (a * a * (x n * x n) <= a * a * (S * y n)) by (apply Rmult_le_compat_l; [nra|auto]). lra.
Qed.
Lemma geom n r : (1 - r) * rsum n (fun j => r ^ j) = 1 - r ^ n.
Proof. induction n as [|n IH]; [cbn; ring|]. cbn [rsum pow]. rewrite Rmult_plus_distr_l, IH. ring. Qed.
Lemma pow_lt1 r n : 0 < r < 1 -> 0 < r ^ S n < 1.
Proof. intros H. split; [apply pow_lt; lra|]. apply pow_lt_1_compat; [lra|lia]. Qed.
Lemma pow_small r n : 0 <= r <= 1 -> 0 <= r ^ n <= 1.
Proof. intros H. split; [apply pow_le; lra|]. rewrite <- (pow1 n). apply pow_incr; lra. Qed.

Section Runs.
Variable m : build.
Notation param := (param Rnum).
Notation opt := (opt Rnum).
(** the [i]-th parameter of a run: [P n] after [n] updates, [Q n] when the next update is called *)
Record tracked (a : algo Rnum) (N : nat) (os : nat -> opt) (s : shape) (P Q : nat -> param) : Prop := mkTracked {
  t_more : exists ds ps qs i d, run m a N ds os ps qs /\ nth_error ds i = Some (d, s) /\
    (forall n, (n <= N)%nat -> nth_error (ps n) i = Some (P n)) /\ (forall n, (n < N)%nat -> nth_error (qs n) i = Some (Q n));
  t_zero : forall n c, In n (needed a) -> inb s c -> stat n (P 0%nat) c = 0 }.

(** *** Momentum *)
Section Mom.
Variables (eta mu : R) (N : nat) (os : nat -> opt) (s : shape) (P Q : nat -> param).
Hypothesis T : tracked (Momentum (K := Rnum) eta mu) N os s P Q.
Notation vel n c := (stat "MomentumSGD.m" (P n) c).
Lemma mom_start c : inb s c -> vel 0%nat c = 0.
Proof. intros Hc. apply (t_zero T); auto. left; auto. Qed.
Lemma mom_step n c : (n < N)%nat -> inb s c ->
  vel (S n) c = vel n c * mu - (o_scale (os n) * eta) * grad (Q n) c /\ val (P (S n)) c = val (P n) c + vel (S n) c.
Proof. intros Hn Hc. destruct (t_more T) as (ds & ps & qs & i & d & R & E & HP & HQ). eapply momentum_step; eauto. Qed.
(** gradients at most [G], steps at most [h]: every step is at most h * G / (1 - mu) *)
Theorem C72_momentum_bound : forall n c G h, (n < N)%nat -> inb s c -> 0 <= mu < 1 -> (forall k, (k <= n)%nat -> Rabs (grad (Q k) c) <= G) -> (forall k, (k <= n)%nat -> Rabs (o_scale (os k) * eta) <= h) ->
  Rabs (val (P (S n)) c - val (P n) c) <= h * G / (1 - mu).
Proof.
  intros n c G h Hn Hc Hmu HG Hh. destruct (mom_step Hn Hc) as (_ & E). replace (val (P (S n)) c - val (P n) c) with (vel (S n) c) by lra. clear E.
  assert (G0 : 0 <= G) by (eapply Rle_trans; [apply Rabs_pos|apply (HG n); lia]). assert (h0 : 0 <= h) by (eapply Rle_trans; [apply Rabs_pos|apply (Hh n); lia]).
  set (B := h * G / (1 - mu)). assert (EB : B * mu + h * G = B) by (unfold B; field; lra). assert (B0 : 0 <= B) by (unfold B; apply Rmult_le_pos; [apply Rmult_le_pos; auto|left; apply Rinv_0_lt_compat; lra]).
  assert (IND : forall k, (k <= S n)%nat -> Rabs (vel k c) <= B).
  { induction k as [|k IH]; intros Hk; [rewrite mom_start, Rabs_R0; auto|]. destruct (@mom_step k c) as (E & _); [lia|auto|]. rewrite E. unfold Rminus. eapply Rle_trans; [apply Rabs_triang|]. rewrite Rabs_Ropp, !Rabs_mult, (Rabs_right mu) by lra. rewrite <- EB at 1. apply Rplus_le_compat.
    - apply Rmult_le_compat_r; [lra|apply IH; lia].
    - rewrite <- Rabs_mult. apply Rmult_le_compat; auto using Rabs_pos; [apply Hh; lia|apply HG; lia]. }
  apply IND. lia.
Qed.
(** a constant gradient: step n is (1 - mu^n) / (1 - mu) times the step of SGD *)
Theorem C72_momentum_constant : forall n c g h, (n < N)%nat -> inb s c -> mu <> 1 -> (forall k, (k <= n)%nat -> grad (Q k) c = g /\ o_scale (os k) * eta = h) ->
  val (P (S n)) c = val (P n) c - (1 - mu ^ S n) / (1 - mu) * (h * g).
Proof.
  intros n c g h Hn Hc Hmu HG. destruct (mom_step Hn Hc) as (_ & E). rewrite E.
  assert (IND : forall k, (k <= S n)%nat -> vel k c = - ((1 - mu ^ k) / (1 - mu) * (h * g))).
  { induction k as [|k IH]; intros Hk; [rewrite mom_start by auto; cbn; field; lra|]. destruct (@mom_step k c) as (E' & _); [lia|auto|]. rewrite E', IH by lia. destruct (HG k ltac:(lia)) as (-> & ->). rewrite pow_last. field. lra. }
  rewrite IND by lia. lra.
Qed.
(** without momentum this is SGD *)
Theorem C72_momentum_zero : forall n c, (n <= N)%nat -> inb s c -> mu = 0 -> val (P n) c = val (P 0%nat) c - rsum n (fun k => (o_scale (os k) * eta) * grad (Q k) c).
Proof.
  intros n c Hn Hc Z. induction n as [|n IH]; [cbn; ring|]. destruct (@mom_step n c) as (E1 & E2); [lia|auto|]. rewrite E2, IH, E1, Z by lia. cbn [rsum]. ring.
Qed.
End Mom.

(** *** Adam *)
Section Adm.
Variables (alpha b1 b2 eps : R) (N : nat) (os : nat -> opt) (s : shape) (P Q : nat -> param).
Hypothesis H1 : 0 < b1 < 1.
Hypothesis H2 : 0 < b2 < 1.
Hypothesis T : tracked (Adam (K := Rnum) alpha b1 b2 eps) N os s P Q.
Notation m1 n c := (stat "Adam.m1" (P n) c).
Notation m2 n c := (stat "Adam.m2" (P n) c).
Lemma adm_start c : inb s c -> m1 0%nat c = 0 /\ m2 0%nat c = 0.
Proof. intros Hc. split; apply (t_zero T); auto; cbn; auto. Qed.
Lemma adm_step n c : (n < N)%nat -> inb s c ->
  m1 (S n) c = m1 n c * b1 + (1 - b1) * grad (Q n) c /\
  m2 (S n) c = m2 n c * b2 + (1 - b2) * (grad (Q n) c * grad (Q n) c) /\
  val (P (S n)) c = val (P n) c - (o_scale (os n) * alpha) * (m1 (S n) c / (1 - b1 ^ S n)) / (sqrt (m2 (S n) c / (1 - b2 ^ S n)) + eps).
Proof. intros Hn Hc. destruct (t_more T) as (ds & ps & qs & i & d & R & E & HP & HQ). eapply adam_step; eauto; lra. Qed.
(** gradients that are [g] in every step up to now: the step is alpha * g / (|g| + eps), also the first one *)
Theorem C72_adam_constant : forall n c g, (n < N)%nat -> inb s c -> 0 < Rabs g + eps -> (forall k, (k <= n)%nat -> grad (Q k) c = g) ->
  val (P (S n)) c = val (P n) c - (o_scale (os n) * alpha) * g / (Rabs g + eps).
Proof.
  intros n c g Hn Hc HE HG. destruct (adm_step Hn Hc) as (_ & _ & E). rewrite E.
  assert (IND : forall k, (k <= S n)%nat -> m1 k c = (1 - b1 ^ k) * g /\ m2 k c = (1 - b2 ^ k) * (g * g)).
  { induction k as [|k IH]; intros Hk; [destruct (adm_start Hc) as (-> & ->); cbn; split; ring|]. destruct (@adm_step k c) as (E1 & E2 & _); [lia|auto|]. destruct IH as (I1 & I2); [lia|]. rewrite E1, E2, I1, I2, (HG k) by lia. cbn [pow]. split; ring. }
  destruct (IND (S n)) as (-> & ->); [lia|]. pose proof (pow_lt1 n H1). pose proof (pow_lt1 n H2).
  replace ((1 - b1 ^ S n) * g / (1 - b1 ^ S n)) with g by (field; lra). replace ((1 - b2 ^ S n) * (g * g) / (1 - b2 ^ S n)) with (g * g) by (field; lra).
  rewrite <- (sqrt_Rsqr_abs g). reflexivity.
Qed.
(** whatever the gradients, the first step is shorter than alpha *)
Theorem C72_adam_first_step : forall c, (0 < N)%nat -> inb s c -> 0 < eps ->
  val (P 1%nat) c = val (P 0%nat) c - (o_scale (os 0%nat) * alpha) * grad (Q 0%nat) c / (Rabs (grad (Q 0%nat) c) + eps) /\
  Rabs (val (P 1%nat) c - val (P 0%nat) c) <= Rabs (o_scale (os 0%nat) * alpha).
Proof.
  intros c Hn Hc HE. set (g := grad (Q 0%nat) c). assert (E : val (P 1%nat) c = val (P 0%nat) c - (o_scale (os 0%nat) * alpha) * g / (Rabs g + eps)).
  { apply C72_adam_constant; auto; [pose proof (Rabs_pos g); lra|]. intros k Hk. replace k with 0%nat by lia. reflexivity. }
  split; auto. rewrite E. set (h := o_scale (os 0%nat) * alpha). replace (val (P 0%nat) c - h * g / (Rabs g + eps) - val (P 0%nat) c) with (- (h * g / (Rabs g + eps))) by ring.
  pose proof (Rabs_pos g). unfold Rdiv. rewrite Rabs_Ropp, !Rabs_mult, (Rabs_right (/ (Rabs g + eps))) by (apply Rle_ge; left; apply Rinv_0_lt_compat; lra).
  rewrite Rmult_assoc. rewrite <- (Rmult_1_r (Rabs h)) at 2. apply Rmult_le_compat_l; [apply Rabs_pos|]. apply (Rmult_le_reg_r (Rabs g + eps)); [lra|]. rewrite Rmult_assoc, Rinv_l by lra. lra.
Qed.
Lemma moments_bound n c : (n <= N)%nat -> inb s c -> b1 * b1 < b2 -> 0 <= m2 n c /\ (1 - b2) * (1 - b1 * b1 / b2) * (m1 n c * m1 n c) <= (1 - b1) * (1 - b1) * m2 n c.
Proof.
  intros Hn Hc HB. set (r := b1 * b1 / b2). assert (Hr : r * b2 = b1 * b1) by (unfold r; field; lra).
  assert (r0 : 0 < r) by (unfold r; apply Rmult_lt_0_compat; [nra|apply Rinv_0_lt_compat; lra]). assert (r1 : r < 1) by (apply (Rmult_lt_reg_r b2); [lra|]; rewrite Hr; lra).
  set (x := fun k => m1 k c / (1 - b1)). set (y := fun k => m2 k c / (1 - b2)).
  destruct (@weighted_square b1 b2 r (fun k => grad (Q k) c) x y) with (N := N) (n := n) as (Y & XY); auto; try lra.
  - unfold x. destruct (adm_start Hc) as (-> & _). field. lra.
  - unfold y. destruct (adm_start Hc) as (_ & ->). field. lra.
  - intros k Hk. destruct (@adm_step k c Hk Hc) as (E1 & E2 & _). unfold x, y. rewrite E1, E2. split; field; lra.
  - set (S := rsum n (fun j => r ^ j)) in * . assert (HS : (1 - r) * S <= 1) by (unfold S; rewrite geom; assert (0 <= r ^ n) by (apply pow_le; lra); lra).
    assert (E1 : m1 n c = (1 - b1) * x n) by (unfold x; field; lra). assert (E2 : m2 n c = (1 - b2) * y n) by (unfold y; field; lra). rewrite E1, E2. split; [apply Rmult_le_pos; lra|].
    replace ((1 - b2) * (1 - r) * ((1 - b1) * x n * ((1 - b1) * x n))) with ((1 - b2) * ((1 - b1) * (1 - b1)) * ((1 - r) * (x n * x n))) by ring.
    replace ((1 - b1) * (1 - b1) * ((1 - b2) * y n)) with ((1 - b2) * ((1 - b1) * (1 - b1)) * y n) by ring. apply Rmult_le_compat_l; [apply Rmult_le_pos; [lra|apply Rmult_le_pos; lra]|].
    apply Rle_trans with ((1 - r) * (S * y n)); [apply Rmult_le_compat_l; [lra|auto]|]. rewrite <- Rmult_assoc. rewrite <- (Rmult_1_l (y n)) at 2. apply Rmult_le_compat_r; auto.
Qed.
(** whatever the gradients were, step n is at most alpha times (1 - b1) / (1 - b1^n) * sqrt ((1 - b2^n) / ((1 - b2) (1 - b1^2 / b2))) *)
Theorem C72_adam_bound : forall n c, (n < N)%nat -> inb s c -> 0 < eps -> b1 * b1 < b2 ->
  Rabs (val (P (S n)) c - val (P n) c) <= Rabs (o_scale (os n) * alpha) * ((1 - b1) / (1 - b1 ^ S n) * sqrt ((1 - b2 ^ S n) / ((1 - b2) * (1 - b1 * b1 / b2)))).
Proof.
  intros n c Hn Hc HE HB. destruct (adm_step Hn Hc) as (_ & _ & E). rewrite E. clear E. destruct (@moments_bound (S n) c Hn Hc HB) as (Y & XY). pose proof (pow_lt1 n H1) as P1. pose proof (pow_lt1 n H2) as P2.
  set (x := m1 (S n) c) in * . set (y := m2 (S n) c) in * . set (h := o_scale (os n) * alpha). set (u := 1 - b1 ^ S n) in * . set (w := 1 - b2 ^ S n) in * . set (K := (1 - b2) * (1 - b1 * b1 / b2)) in * .
  assert (K0 : 0 < K). { unfold K. apply Rmult_lt_0_compat; [lra|]. assert (b1 * b1 / b2 < 1) by (apply (Rmult_lt_reg_r b2); [lra|]; unfold Rdiv; rewrite Rmult_assoc, Rinv_l by lra; lra). lra. }
  assert (u0 : 0 < u) by (unfold u; lra). assert (w0 : 0 < w) by (unfold w; lra).
  assert (yw : 0 <= y / w) by (unfold Rdiv; apply Rmult_le_pos; [auto|left; apply Rinv_0_lt_compat; auto]). pose proof (sqrt_pos (y / w)) as SP.
  replace (val (P n) c - h * (x / u) / (sqrt (y / w) + eps) - val (P n) c) with (- (h * ((x / u) / (sqrt (y / w) + eps)))) by (field; lra). rewrite Rabs_Ropp, Rabs_mult. apply Rmult_le_compat_l; [apply Rabs_pos|].
  unfold Rdiv at 1. rewrite Rabs_mult, (Rabs_right (/ _)) by (apply Rle_ge; left; apply Rinv_0_lt_compat; lra). apply (Rmult_le_reg_r (sqrt (y / w) + eps)); [lra|]. rewrite Rmult_assoc, Rinv_l, Rmult_1_r by lra.
  assert (B : Rabs (x / u) <= (1 - b1) / u * sqrt (w / K) * sqrt (y / w)).
  { rewrite Rmult_assoc, <- sqrt_mult_alt by (left; unfold Rdiv; apply Rmult_lt_0_compat; [auto|apply Rinv_0_lt_compat; auto]). replace (w / K * (y / w)) with (y / K) by (field; lra).
    unfold Rdiv at 1. rewrite Rabs_mult, (Rabs_right (/ u)) by (apply Rle_ge; left; apply Rinv_0_lt_compat; auto). unfold Rdiv. rewrite (Rmult_comm (Rabs x)), (Rmult_comm (1 - b1)), Rmult_assoc. apply Rmult_le_compat_l; [left; apply Rinv_0_lt_compat; auto|].
    rewrite <- (sqrt_Rsqr_abs x). unfold Rsqr. rewrite <- (sqrt_square (1 - b1)) by lra. rewrite <- sqrt_mult_alt by nra. apply sqrt_le_1_alt. apply (Rmult_le_reg_l K); auto. replace (K * ((1 - b1) * (1 - b1) * (y * / K))) with ((1 - b1) * (1 - b1) * y) by (field; lra). exact XY. }
  eapply Rle_trans; [exact B|]. apply Rmult_le_compat_l; [|lra]. apply Rmult_le_pos; [|apply sqrt_pos]. unfold Rdiv. apply Rmult_le_pos; [lra|left; apply Rinv_0_lt_compat; auto].
Qed.
(** so one bound holds for all steps *)
Theorem C72_adam_bound_all : forall n c, (n < N)%nat -> inb s c -> 0 < eps -> b1 * b1 < b2 ->
  Rabs (val (P (S n)) c - val (P n) c) <= Rabs (o_scale (os n) * alpha) / sqrt ((1 - b2) * (1 - b1 * b1 / b2)).
Proof.
  intros n c Hn Hc HE HB. eapply Rle_trans; [apply C72_adam_bound; auto|]. match goal with |- _ <= ?a / ?b => change (a / b) with (a * / b) end. apply Rmult_le_compat_l; [apply Rabs_pos|]. pose proof (pow_lt1 n H1) as P1. pose proof (pow_lt1 n H2) as P2. set (K := (1 - b2) * (1 - b1 * b1 / b2)).
  assert (K0 : 0 < K). { unfold K. apply Rmult_lt_0_compat; [lra|]. assert (b1 * b1 / b2 < 1) by (apply (Rmult_lt_reg_r b2); [lra|]; unfold Rdiv; rewrite Rmult_assoc, Rinv_l by lra; lra). lra. }
  rewrite <- (Rmult_1_l (/ sqrt K)). apply Rmult_le_compat.
  - unfold Rdiv. apply Rmult_le_pos; [lra|left; apply Rinv_0_lt_compat; lra].
  - apply sqrt_pos.
  - apply (Rmult_le_reg_r (1 - b1 ^ S n)); [lra|]. unfold Rdiv. rewrite Rmult_assoc, Rinv_l by lra. assert (b1 ^ S n <= b1) by (cbn [pow]; pose proof (@pow_small b1 n); nra). lra.
  - rewrite <- sqrt_inv. apply sqrt_le_1_alt. unfold Rdiv. rewrite <- (Rmult_1_l (/ K)) at 2. apply Rmult_le_compat_r; [left; apply Rinv_0_lt_compat; auto|lra].
Qed.
End Adm.

(** without eps, Adam does not see the scale of the gradients: with all gradients of an element multiplied by k > 0 the
    element takes the same values *)
Theorem C72_adam_scale_free : forall alpha b1 b2 N os os' s s' P Q P' Q' c c' k, 0 < b1 < 1 -> 0 < b2 < 1 ->
  tracked (Adam (K := Rnum) alpha b1 b2 0) N os s P Q -> tracked (Adam (K := Rnum) alpha b1 b2 0) N os' s' P' Q' -> inb s c -> inb s' c' ->
  0 < k -> (forall n, (n < N)%nat -> grad (Q' n) c' = k * grad (Q n) c /\ o_scale (os' n) = o_scale (os n)) -> grad (Q 0%nat) c <> 0 -> val (P' 0%nat) c' = val (P 0%nat) c ->
  forall n, (n <= N)%nat -> val (P' n) c' = val (P n) c.
Proof.
  intros alpha b1 b2 N os os' s s' P Q P' Q' c c' k H1 H2 T T' Hc Hc' Hk HG G0 V0 n Hn.
  assert (M : forall n, (n <= N)%nat -> stat "Adam.m1" (P' n) c' = k * stat "Adam.m1" (P n) c /\ stat "Adam.m2" (P' n) c' = k * k * stat "Adam.m2" (P n) c /\ ((0 < n)%nat -> 0 < stat "Adam.m2" (P n) c)).
  { clear n Hn. induction n as [|n IH]; intros Hn.
    - destruct (adm_start T Hc) as (-> & ->). destruct (adm_start T' Hc') as (-> & ->). split; [ring|]. split; [ring|]. intros; lia.
    - destruct IH as (I1 & I2 & I3); [lia|]. destruct (@adm_step alpha b1 b2 0 N os s P Q H1 H2 T n c) as (E1 & E2 & _); auto. destruct (@adm_step alpha b1 b2 0 N os' s' P' Q' H1 H2 T' n c') as (E1' & E2' & _); auto.
      destruct (HG n) as (GG & _); [lia|]. rewrite E1', E2', E1, E2, I1, I2, GG. split; [ring|]. split; [ring|]. intros _. destruct n as [|n].
      + destruct (adm_start T Hc) as (_ & ->). assert (0 < grad (Q 0%nat) c * grad (Q 0%nat) c) by nra. nra.
      + specialize (I3 ltac:(lia)). assert (0 <= grad (Q (S n)) c * grad (Q (S n)) c) by nra. assert (0 < stat "Adam.m2" (P (S n)) c * b2) by (apply Rmult_lt_0_compat; lra). assert (0 <= (1 - b2) * (grad (Q (S n)) c * grad (Q (S n)) c)) by (apply Rmult_le_pos; lra). lra. }
  induction n as [|n IH]; auto. destruct (@adm_step alpha b1 b2 0 N os s P Q H1 H2 T n c) as (_ & _ & E); auto. destruct (@adm_step alpha b1 b2 0 N os' s' P' Q' H1 H2 T' n c') as (_ & _ & E'); auto.
  destruct (M (S n) Hn) as (M1 & M2 & M3). specialize (M3 ltac:(lia)). destruct (HG n) as (_ & SC); [lia|]. rewrite E, E', IH, M1, M2, SC by lia. pose proof (pow_lt1 n H1). pose proof (pow_lt1 n H2).
  set (y := stat "Adam.m2" (P (S n)) c) in * . set (w := 1 - b2 ^ S n) in * . assert (0 < y / w) by (unfold Rdiv; apply Rmult_lt_0_compat; [auto|apply Rinv_0_lt_compat; unfold w; lra]).
  replace (k * k * y / w) with (k * k * (y / w)) by (unfold Rdiv; ring). rewrite sqrt_mult_alt by nra. rewrite sqrt_square by lra. assert (0 < sqrt (y / w)) by (apply sqrt_lt_R0; auto). field. repeat split; lra.
Qed.

(** *** A program that uses an optimizer: a new optimizer, [configure_parameter] on each parameter, then [N] times
    gradients (from anywhere) and [update_parameters] *)
Record use (a : algo Rnum) (N : nat) (ds : list (nat * shape)) (ps0 : list param) (os : nat -> opt) (ps qs : nat -> list param) : Prop := mkUse {
  u_params : Forall2 (fun i p => whole (fst i) (snd i) (p_value p) /\ whole (fst i) (snd i) (p_grad p) /\ p_stats p = []) ds ps0;
  u_new : os 0%nat = opt_new (K := Rnum) a;
  u_configured : Forall2 (fun p0 p => exists als, (forall i, al_ok (als i)) /\ configure_parameter m als (os 0%nat) p0 = Ok p) ps0 (ps 0%nat);
  u_grads : forall n, (n < N)%nat -> Forall2 same_but_grad (ps n) (qs n) /\ Forall2 (fun i q => whole (fst i) (snd i) (p_grad q)) ds (qs n);
  u_small : (N.of_nat N < two32)%N;
  u_step : forall n, (n < N)%nat -> exists als, (forall i j k, al_ok (als i j k)) /\ update_parameters m als (os n) (qs n) = Ok (os (S n), ps (S n)) }.
Lemma is_param_good (a : algo Rnum) d s x p : is_param d s x p -> bat s = 1%nat -> Forall (fun n => c_stat x n <> None) (needed a) -> good d s (needed a) p.
Proof.
  intros (V & G & ST) B H. assert (W : forall f t, elems (K := Rnum) d s f t -> whole d s t) by (intros f t (A1 & A2 & A3 & _); split; [auto|split; auto]).
  split; [eapply W; eauto|]. split; [eapply W; eauto|]. split.
  - intros n t E. specialize (ST n). rewrite E in ST. destruct (c_stat x n) as [f|]; [eapply W; exact ST|contradiction].
  - rewrite Forall_forall in H |- * . intros n Hn. specialize (H n Hn). specialize (ST n). destruct (st_get n (p_stats p)); [discriminate|]. destruct (c_stat x n); [contradiction|congruence].
Qed.
Lemma q_good (a : algo Rnum) ds : forall (l l' : list param), Forall2 (fun i p => good (fst i) (snd i) (needed a) p) ds l -> Forall2 same_but_grad l l' -> Forall2 (fun i q => whole (fst i) (snd i) (p_grad q)) ds l' ->
  Forall2 (fun i p => good (fst i) (snd i) (needed a) p) ds l'.
Proof.
  induction ds as [|i ds IH]; intros l l' H S W; inversion H; subst; inversion S; subst; inversion W; subst; constructor; eauto. destruct H2 as (A1 & A2 & A3 & A4). match goal with X : same_but_grad _ _ |- _ => destruct X as (E1 & E2) end.
  split; [rewrite E1; auto|]. split; auto. split; rewrite E2; auto.
Qed.
Definition opt_after (a : algo Rnum) (n : nat) : opt := @mkOpt Rnum (N.of_nat n) 1 0 0 a.
Lemma step_good (a : algo Rnum) ds qs n als : Forall2 (fun i p => good (fst i) (snd i) (needed a) p) ds qs -> (forall i j k, al_ok (als i j k)) -> (N.of_nat n < two32 - 1)%N ->
  exists ps', update_parameters m als (opt_after a n) qs = Ok (opt_after a (S n), ps') /\ Forall2 (fun i p => good (fst i) (snd i) (needed a) p) ds ps'.
Proof.
  intros G HA Hn. set (xs := map (fun '(i, q) => mkI (fst i) (snd i) (view q)) (combine ds qs)).
  assert (AP : are_params xs qs).
  { unfold xs. clear - G. induction G as [|i1 q1 ds1 l1 H G IH]; [constructor|]. constructor; auto. cbn. eapply view_ok; eauto. }
  assert (STEP : forall q d s, good d s (needed a) q -> exists z, stepped a 1 (N.of_nat n + 1) (view q) = Some z /\ Forall (fun x => c_stat z x <> None) (needed a)).
  { intros q0 d0 s0 (_ & _ & _ & H). unfold stepped. destruct a; cbn [needed] in H |- * ; cbn [view c_stat]; [eauto| |].
    - inversion H; subst. destruct (st_get _ _); [|congruence]. eexists. split; [reflexivity|]. constructor; auto. cbn. discriminate.
    - inversion H as [|? ? H1 H2]; subst. inversion H2; subst. destruct (st_get "Adam.m1" _); [|congruence]. destruct (st_get "Adam.m2" _); [|congruence]. eexists. split; [reflexivity|]. constructor; [|constructor; auto]; cbn; discriminate. }
  assert (YS : exists ys, Forall2 (updated (opt_after a n)) xs ys /\ Forall2 (fun i (y : item Rnum) => i_dev y = fst i /\ i_shape y = snd i /\ bat (snd i) = 1%nat /\ Forall (fun x => c_stat (i_c y) x <> None) (needed a)) ds ys).
  { unfold xs. clear AP xs. induction G as [|i q ds l H G IH]; [exists []; split; constructor|]. destruct IH as (ys & Y1 & Y2). destruct (STEP q _ _ H) as (z & Ez & Hz). exists (mkI (fst i) (snd i) (no_grad z) :: ys). split.
    - constructor; [|exact Y1]. split; [reflexivity|]. split; [reflexivity|]. exists z. split; [exact Ez|reflexivity].
    - constructor; [|exact Y2]. split; [reflexivity|]. split; [reflexivity|]. split; [destruct H as ((B & _) & _); exact B|exact Hz]. }
  destruct YS as (ys & Y1 & Y2). destruct (@C46_update_parameters Rnum m Rnum_commutes als (opt_after a n) xs qs ys HA Hn AP) as (ps' & E & AP').
  - unfold prepared. cbn [o_l2 o_clip opt_after nlt Rnum n0]. rewrite Rltb_false by lra. exact Y1.
  - exists ps'. split; [|clear - Y2 AP'; revert ps' AP'; induction Y2 as [|i y ds ys (A1 & A2 & A3 & A4) Y2 IH]; intros ps' H; inversion H; subst; constructor; [|apply IH; auto]; rewrite <- A1, <- A2 in * ; eapply is_param_good; eauto].
    rewrite E. unfold opt_after. cbn [o_epoch o_scale o_l2 o_clip o_algo]. do 2 f_equal. f_equal. lia.
Qed.
Lemma use_conf a N ds ps0 os ps qs : use a N ds ps0 os ps qs -> forall i p0, whole (fst i) (snd i) (p_value p0) /\ whole (fst i) (snd i) (p_grad p0) /\ p_stats p0 = [] -> forall p, (exists als, (forall k, al_ok (als k)) /\ configure_parameter m als (os 0%nat) p0 = Ok p) ->
    is_param (fst i) (snd i) (configured a (view p0)) p /\ bat (snd i) = 1%nat.
Proof.
  intros [UP UN UC UG US UST]. assert (O0 : os 0%nat = opt_after a 0) by (rewrite UN; reflexivity).
  intros i p0 (W1 & W2 & W3) p (als & HA & E). destruct (@C47_configure Rnum m als (os 0%nat) (fst i) (snd i) (view p0) p0 HA) as (p' & E' & H).
  - apply (@view_ok (fst i) (snd i) []). split; auto. split; auto. split; [intros n t; rewrite W3; discriminate|constructor].
  - rewrite E in E'. injection E' as <-. rewrite O0 in H. split; [exact H|apply W1].
Qed.
Lemma use_inv a N ds ps0 os ps qs : use a N ds ps0 os ps qs -> forall n, (n <= N)%nat -> os n = opt_after a n /\ Forall2 (fun i p => good (fst i) (snd i) (needed a) p) ds (ps n).
Proof.
  intros U. pose proof (use_conf U) as CF. destruct U as [UP UN UC UG US UST]. assert (O0 : os 0%nat = opt_after a 0) by (rewrite UN; reflexivity).
  assert (G0 : Forall2 (fun i p => good (fst i) (snd i) (needed a) p) ds (ps 0%nat)).
  { clear - UP UC CF. revert UC. generalize (ps 0%nat) as l. induction UP as [|i p0 ds ps0 H UP IH]; intros l UC; inversion UC; subst; constructor; auto. destruct (CF _ _ H _ ltac:(eassumption)) as (IP & B). eapply is_param_good; eauto.
    destruct H as (_ & _ & E). rewrite Forall_forall. intros n Hn. unfold configured. cbn [c_stat view]. rewrite E. cbn [st_get]. destruct (existsb _ _) eqn:X; [discriminate|]. exfalso. assert (existsb (String.eqb n) (needed a) = true) by (apply existsb_exists; exists n; split; [auto|apply String.eqb_refl]). congruence. }
  induction n as [|n IH]; intros Hn; auto. destruct IH as (I1 & I2); [lia|]. destruct (UG n Hn) as (G1 & G2). destruct (UST n Hn) as (als & HA & E). destruct (@step_good a ds (qs n) n als (q_good I2 G1 G2) HA) as (ps' & E' & G'); [change two32 with 4294967296%N in * ; lia|].
    rewrite I1, E' in E. injection E as <- <-. auto.
Qed.
(** such a program is a run from zero statistics: its steps are numbered from 1, the learning rate is not scaled, nothing is
    decayed or clipped, and configuring has not changed the values *)
Theorem C72_use : forall a N ds ps0 os ps qs, use a N ds ps0 os ps qs ->
  run m a N ds (opt_after a) ps qs /\ (forall n, (n <= N)%nat -> os n = opt_after a n) /\
  forall i d s, nth_error ds i = Some (d, s) -> forall p0 p, nth_error ps0 i = Some p0 -> nth_error (ps 0%nat) i = Some p ->
    forall c, inb s c -> val p c = val p0 c /\ grad p c = grad p0 c /\ forall n, In n (needed a) -> stat n p c = 0.
Proof.
  intros a N ds ps0 os ps qs U. pose proof (use_inv U) as INV. pose proof (use_conf U) as CF. destruct U as [UP UN UC UG US UST].
  split; [|split; [intros n Hn; apply INV; auto|]].
  - constructor; auto.
    + intros n Hn. destruct (INV n) as (_ & I); [lia|]. destruct (UG n Hn). eapply q_good; eauto.
    + intros n Hn. apply UG; auto.
    + intros n Hn. destruct (INV n) as (I & _); [lia|]. destruct (UST n Hn) as (als & HA & E). rewrite I in E. eauto.
  - intros i d s Hi p0 p H0 H c Hc. pose proof (F2nth UP Hi H0) as HP. pose proof (F2nth UC H0 H) as HC. destruct (CF _ _ HP _ HC) as ((V & GR & ST) & B). cbn [fst snd] in * . destruct HP as (W1 & W2 & W3).
    pose proof (elems_at V (c := c) (b := 0%nat) Hc ltac:(lia)) as EV. pose proof (elems_at GR (c := c) (b := 0%nat) Hc ltac:(lia)) as EG. split; [exact EV|]. split; [exact EG|]. intros n Hn. specialize (ST n). unfold configured in ST. cbn [c_stat view] in ST. rewrite W3 in ST. cbn [st_get] in ST.
    assert (X : existsb (String.eqb n) (needed a) = true) by (apply existsb_exists; exists n; split; [auto|apply String.eqb_refl]). rewrite X in ST. unfold stat. destruct (st_get n (p_stats p)) as [t|]; [|contradiction]. apply (elems_at ST (c := c) (b := 0%nat) Hc ltac:(lia)).
Qed.
(** every parameter of such a program can be followed through the run, and every such program can go on *)
Corollary C72_followed : forall a N ds ps0 os ps qs i d s P Q, use a N ds ps0 os ps qs -> nth_error ds i = Some (d, s) ->
  (forall n, (n <= N)%nat -> nth_error (ps n) i = Some (P n)) -> (forall n, (n < N)%nat -> nth_error (qs n) i = Some (Q n)) -> tracked a N (opt_after a) s P Q.
Proof.
  intros a N ds ps0 os ps qs i d s P Q U Hi HP HQ. destruct (C72_use U) as (R & _ & Z). constructor; [exists ds, ps, qs, i, d; auto|]. intros n c Hn Hc.
  assert (exists p0, nth_error ps0 i = Some p0) as (p0 & H0) by (destruct (Forall2_nth (u_params U) Hi) as (p0 & E & _); eauto). exact (proj2 (proj2 (Z i d s Hi p0 (P 0%nat) H0 (HP 0%nat ltac:(lia)) c Hc)) n Hn).
Qed.
Theorem C72_goes_on : forall a N ds ps0 os ps qs q als, use a N ds ps0 os ps qs -> (N.of_nat (S N) < two32)%N -> (forall i j k, al_ok (als i j k)) ->
  Forall2 same_but_grad (ps N) q -> Forall2 (fun i q => whole (fst i) (snd i) (p_grad q)) ds q ->
  exists o' p', update_parameters m als (os N) q = Ok (o', p') /\
    use a (S N) ds ps0 (fun n => if Nat.eqb n (S N) then o' else os n) (fun n => if Nat.eqb n (S N) then p' else ps n) (fun n => if Nat.eqb n N then q else qs n).
Proof.
  intros a N ds ps0 os ps qs q als U HN HA S1 S2. destruct (use_inv U (Nat.le_refl N)) as (EO & G).
  destruct (@step_good a ds q N als (q_good G S1 S2) HA) as (p' & E & _); [change two32 with 4294967296%N in * ; lia|]. rewrite EO. exists (opt_after a (S N)), p'. split; auto. destruct U as [UP UN UC UG US UST].
  constructor; auto.
  - intros n Hn. destruct (Nat.eqb_spec n (S N)); [lia|]. destruct (Nat.eqb_spec n N); subst; auto. apply UG. lia.
  - intros n Hn. destruct (Nat.eqb_spec n (S N)); [lia|]. destruct (Nat.eqb_spec n N); subst.
    + exists als. split; auto. rewrite Nat.eqb_refl, EO. exact E.
    + destruct (Nat.eqb_spec (S n) (S N)); [lia|]. apply UST. lia.
Qed.
Theorem C72_starts : forall a ds ps0 als, Forall2 (fun i p => whole (fst i) (snd i) (p_value p) /\ whole (fst i) (snd i) (p_grad p) /\ p_stats p = []) ds ps0 -> (forall i, al_ok (als i)) ->
  exists ps, use a 0 ds ps0 (fun _ => opt_new (K := Rnum) a) (fun _ => ps) (fun _ => []) /\ Forall2 (fun p0 p => configure_parameter m als (opt_new (K := Rnum) a) p0 = Ok p) ps0 ps.
Proof.
  intros a ds ps0 als H HA. assert (C : exists ps, Forall2 (fun p0 p => configure_parameter m als (opt_new (K := Rnum) a) p0 = Ok p) ps0 ps).
  { induction H as [|i p0 ds ps0 (W1 & W2 & W3) H (ps & IH)]; [exists []; constructor|]. destruct (@C47_configure Rnum m als (opt_new (K := Rnum) a) (fst i) (snd i) (view p0) p0 HA) as (p' & E' & _).
    - apply (@view_ok (fst i) (snd i) []). split; auto. split; auto. split; [intros n t; rewrite W3; discriminate|constructor].
    - exists (p' :: ps). constructor; auto. }
  destruct C as (ps & C). exists ps. split; auto. constructor; auto; try (intros; lia); [|reflexivity]. clear - C HA. induction C; constructor; eauto.
Qed.
End Runs.

(** *** A concrete case: a parameter (1, 2) whose gradient is always (3, -4); with alpha = 1 and eps = 1 every step of Adam is 3 / (3 + 1) *)
Definition ps0 : list (param Rnum) := [@mkParam Rnum (tr 0 [2]%N 1 [1; 2]) (tr 0 [2]%N 1 [3; -4]) []].
Definition regrad (p : param Rnum) : param Rnum := @mkParam Rnum (p_value p) (tr 0 [2]%N 1 [3; -4]) (p_stats p).
Example C72_applies : forall m a N, (N.of_nat N < two32)%N -> exists os ps qs, use m a N [(0%nat, sh [2]%N 1)] ps0 os ps qs /\
  (forall n, (n < N)%nat -> exists p, ps n = [p] /\ qs n = [regrad p]) /\ exists p, ps N = [p].
Proof.
  intros m a. assert (W : forall u v, whole 0 (sh [2%N] 1) (tr 0 [2]%N 1 [u; v])) by (intros; split; [reflexivity|]; split; [rdyr|reflexivity]).
  induction N as [|N IH]; intros HN.
  - destruct (@C72_starts m a [(0%nat, sh [2]%N 1)] ps0 (fun _ => alr)) as (ps & U & C); [constructor; [split; [apply W|split; [apply W|reflexivity]]|constructor]|intros; apply alr_ok|]. exists (fun _ => opt_new (K := Rnum) a), (fun _ => ps), (fun _ => []). split; auto. split; [intros; lia|]. inversion C; subst. match goal with X : Forall2 _ [] _ |- _ => inversion X; subst end. eauto.
  - destruct IH as (os & ps & qs & U & H & (p & Ep)); [lia|]. destruct (@C72_goes_on m a N [(0%nat, sh [2]%N 1)] ps0 os ps qs [regrad p] (fun _ _ _ => alr) U HN) as (o' & p' & E & U'); [intros; apply alr_ok|rewrite Ep; constructor; [split; reflexivity|constructor]|constructor; [apply W|constructor]|].
    eexists _, _, _. split; [exact U'|]. split.
    + intros n Hn. cbv beta. destruct (Nat.eqb_spec n (S N)); [lia|]. destruct (Nat.eqb_spec n N); subst; eauto. apply H. lia.
    + cbv beta. rewrite Nat.eqb_refl. destruct (use_inv U' (Nat.le_refl _)) as (_ & G). cbv beta in G. rewrite Nat.eqb_refl in G. inversion G; subst. match goal with X : Forall2 _ [] _ |- _ => inversion X; subst end. eauto.
Qed.
Definition head (l : list (param Rnum)) : param Rnum := match l with p :: _ => p | [] => @mkParam Rnum (tr 0 [2]%N 1 [1; 2]) (tr 0 [2]%N 1 [3; -4]) [] end.
Example C72_adam_applies : forall m N, (N.of_nat N < two32)%N -> exists os ps qs p, use m (Adam (K := Rnum) 1 (1/2) (3/4) 1) N [(0%nat, sh [2]%N 1)] ps0 os ps qs /\ ps N = [p] /\ val p (fun _ => 0%nat) = 1 - INR N * (3 / 4).
Proof.
  intros m N HN. destruct (C72_applies m (Adam (K := Rnum) 1 (1/2) (3/4) 1) HN) as (os & ps & qs & U & H & (p & Ep)). exists os, ps, qs, p. split; auto. split; auto.
  assert (T : tracked m (Adam (K := Rnum) 1 (1/2) (3/4) 1) N (opt_after (Adam (K := Rnum) 1 (1/2) (3/4) 1)) (sh [2]%N 1) (fun n => head (ps n)) (fun n => head (qs n))).
  { eapply C72_followed with (i := 0%nat); [exact U|reflexivity| |].
    - intros n Hn. destruct (Nat.eq_dec n N) as [-> | NE]; [rewrite Ep; reflexivity|]. destruct (H n) as (q & -> & _); [lia|reflexivity].
    - intros n Hn. destruct (H n Hn) as (q & _ & ->). reflexivity. }
  assert (I0 : inb (sh [2]%N 1) (fun _ => 0%nat)) by (intros i; destruct i as [|[|[|[|[|[|[|[|i]]]]]]]]; cbn; try lia).
  assert (V : forall n, (n <= N)%nat -> val (head (ps n)) (fun _ => 0%nat) = 1 - INR n * (3 / 4)).
  { induction n as [|n IH]; intros Hn.
    - destruct (C72_use U) as (_ & _ & Z). destruct (Z 0%nat 0%nat (sh [2]%N 1) eq_refl (head ps0) (head (ps 0%nat)) eq_refl) with (c := fun _ : nat => 0%nat) as (E & _); auto.
      + destruct (Nat.eq_dec 0 N) as [<- | NE]; [rewrite Ep; reflexivity|]. destruct (H 0%nat) as (q & -> & _); [lia|reflexivity].
      + rewrite E. cbn. lra.
    - rewrite (@C72_adam_constant m 1 (1/2) (3/4) 1 N _ _ _ _ ltac:(lra) ltac:(lra) T n (fun _ => 0%nat) 3); auto.
      + rewrite IH by lia. rewrite S_INR. cbn [o_scale opt_after]. rewrite Rabs_right by lra. field.
      + rewrite Rabs_right by lra. lra.
      + intros k Hk. destruct (H k) as (q & _ & ->); [lia|]. reflexivity. }
  specialize (V N (Nat.le_refl N)). rewrite Ep in V. exact V.
Qed.
