(** * LseAcc: accuracy of the logsumexp loop in double precision *)
From Coq Require Import ZArith Reals Lra Psatz Lia List.
From Flocq Require Import Core IEEE754.BinarySingleNaN Plus_error Relative.
From Verif Require Import RSum Float32 Rounding.
Import ListNotations.
Set Implicit Arguments. Unset Strict Implicit.
Open Scope R_scope.

Notation "x +d y" := (Bplus (prec := 53) (emax := 1024) mode_NE x y) (at level 50, left associativity).
Notation "x -d y" := (Bminus (prec := 53) (emax := 1024) mode_NE x y) (at level 50, left associativity).
Notation dval := (@B2R 53 1024).
Notation dfin := (@is_finite 53 1024).
(** half the distance from 1 to the next double *)
Definition u64r : R := / 2 ^ 53.
Definition rndd (x : R) : R := round radix2 (FLT_exp (-1074) 53) ZnearestE x.

(** ** Specification *)
(** log of the sum of two exponentials, in doubles; over a line, from left to right *)
Definition lse2 (M : libm) (t v : f64) : f64 :=
  if Bltb v t then t +d l_wln M (f64_of_Z 1 +d l_wexp M (v -d t)) else v +d l_wln M (f64_of_Z 1 +d l_wexp M (t -d v)).
Fixpoint lse_list (M : libm) (t : f64) (l : list f32) : f64 := match l with [] => t | v :: r => lse_list M (lse2 M t (f64_of_f32 v)) r end.
Definition lse (M : libm) (l : list f32) : f32 := match l with [] => B754_nan | v :: r => f32_of_f64 (lse_list M (f64_of_f32 v) r) end.
(** exp and ln of the standard library, where logsumexp uses them, are within [eps] *)
Definition accurate (M : libm) (eps : R) : Prop :=
  (forall x, dfin x = true -> dval x <= 0 ->
     dfin (l_wexp M x) = true /\ 0 <= dval (l_wexp M x) <= 1 /\ Rabs (dval (l_wexp M x) - exp (dval x)) <= eps) /\
  (forall x, dfin x = true -> 1 <= dval x <= 2 ->
     dfin (l_wln M x) = true /\ 0 <= dval (l_wln M x) <= 1 /\ Rabs (dval (l_wln M x) - ln (dval x)) <= eps).

(** ** Real numbers *)
Lemma exp_lip a b : a <= 0 -> b <= 0 -> Rabs (exp a - exp b) <= Rabs (a - b).
Proof.
  assert (G : forall a b, b <= a -> a <= 0 -> 0 <= exp a - exp b <= a - b).
  { clear. intros a b H Ha. replace b with (a + (b - a)) at 1 2 by ring. rewrite exp_plus. pose proof (exp_pos a). pose proof (exp_ineq1_le (b - a)).
    assert (exp a <= 1) by (rewrite <- exp_0; destruct Ha as [Ha| -> ]; [left; apply exp_increasing; auto|lra]).
    assert (exp (b - a) <= 1). { rewrite <- exp_0. destruct (Req_dec (b - a) 0) as [-> |]; [lra|]. left. apply exp_increasing. lra. } split; nra. }
  intros Ha Hb. destruct (Rle_dec b a) as [H|H].
  - destruct (G a b H Ha). rewrite !Rabs_pos_eq by lra. lra.
  - destruct (G b a ltac:(lra) Hb). rewrite (Rabs_minus_sym (exp a)), (Rabs_minus_sym a), !Rabs_pos_eq by lra. lra.
Qed.
Lemma ln_le1 x : 0 < x -> ln x <= x - 1.
Proof. intros H. pose proof (exp_ineq1_le (ln x)). rewrite exp_ln in * by auto. lra. Qed.
Lemma ln_lip a b : 1 <= a -> 1 <= b -> Rabs (ln a - ln b) <= Rabs (a - b).
Proof.
  assert (G : forall a b, 1 <= b -> b <= a -> 0 <= ln a - ln b <= a - b).
  { clear. intros a b Hb H. split.
    - destruct H as [H| -> ]; [|lra]. pose proof (ln_increasing b a ltac:(lra) H). lra.
    - replace (ln a - ln b) with (ln (a / b)) by (unfold Rdiv; rewrite ln_mult, ln_Rinv by (try apply Rinv_0_lt_compat; lra); ring). eapply Rle_trans; [apply ln_le1; apply Rdiv_lt_0_compat; lra|].
      replace (a / b - 1) with ((a - b) * / b) by (field; lra). rewrite <- (Rmult_1_r (a - b)) at 2. apply Rmult_le_compat_l; [lra|]. rewrite <- Rinv_1. apply Rinv_le_contravar; lra. }
  intros Ha Hb. destruct (Rle_dec b a) as [H|H].
  - destruct (G a b Hb H). rewrite !Rabs_pos_eq by lra. lra.
  - destruct (G b a Ha ltac:(lra)). rewrite (Rabs_minus_sym (ln a)), (Rabs_minus_sym a), !Rabs_pos_eq by lra. lra.
Qed.
Lemma ln2_bound : ln 2 <= 5 / 6.
Proof.
  replace 2 with (sqrt 2 * sqrt 2) by (apply sqrt_sqrt; lra). assert (0 < sqrt 2) by (apply sqrt_lt_R0; lra). rewrite ln_mult by auto.
  pose proof (ln_le1 H). assert (sqrt 2 <= 17 / 12); [|lra]. rewrite <- (sqrt_Rsqr (17 / 12)) by lra. apply sqrt_le_1_alt. unfold Rsqr. lra.
Qed.
Definition g2 (t v : R) : R := ln (exp t + exp v).
Lemma g2_max a b : b <= a -> g2 a b = a + ln (1 + exp (b - a)).
Proof.
  intros H. unfold g2. pose proof (exp_pos a). pose proof (exp_pos (b - a)). replace (exp a + exp b) with (exp a * (1 + exp (b - a))).
  - rewrite ln_mult, ln_exp by lra. reflexivity.
  - replace b with (a + (b - a)) at 2 by ring. rewrite exp_plus. ring.
Qed.
Lemma g2_comm a b : g2 a b = g2 b a. Proof. unfold g2. rewrite Rplus_comm. reflexivity. Qed.
Lemma g2_bounds a b : b <= a -> a <= g2 a b <= a + 5 / 6.
Proof.
  intros H. rewrite g2_max by auto. pose proof (exp_pos (b - a)). assert (exp (b - a) <= 1).
  { rewrite <- exp_0. destruct (Req_dec (b - a) 0) as [-> |]; [lra|]. left. apply exp_increasing. lra. }
  assert (0 <= ln (1 + exp (b - a))). { rewrite <- ln_1. left. apply ln_increasing; lra. }
  assert (ln (1 + exp (b - a)) <= ln 2). { destruct (Req_dec (1 + exp (b - a)) 2) as [-> |]; [lra|]. left. apply ln_increasing; lra. }
  pose proof ln2_bound. lra.
Qed.
Lemma ln_sum_lip t t' z : 0 <= z -> Rabs (ln (exp t + z) - ln (exp t' + z)) <= Rabs (t - t').
Proof.
  assert (G : forall t t', t' <= t -> 0 <= z -> 0 <= ln (exp t + z) - ln (exp t' + z) <= t - t').
  { clear. intros t t' H Hz. pose proof (exp_pos t). pose proof (exp_pos t'). destruct H as [H| -> ]; [|lra]. pose proof (exp_increasing _ _ H). split.
    - pose proof (ln_increasing (exp t' + z) (exp t + z) ltac:(lra) ltac:(lra)). lra.
    - assert (exp t + z <= exp (t - t') * (exp t' + z)).
      { rewrite Rmult_plus_distr_l, <- exp_plus. replace (t - t' + t') with t by ring. assert (1 <= exp (t - t')) by (pose proof (exp_ineq1_le (t - t')); lra). nra. }
      assert (ln (exp t + z) <= ln (exp (t - t') * (exp t' + z))) as Q.
      { destruct H3 as [H3| -> ]; [|lra]. left. apply ln_increasing; lra. }
      rewrite ln_mult, ln_exp in Q by (try apply exp_pos; lra). lra. }
  intros Hz. destruct (Rle_dec t' t) as [H|H].
  - destruct (G t t' H Hz). rewrite !Rabs_pos_eq by lra. lra.
  - destruct (G t' t ltac:(lra) Hz). rewrite Rabs_minus_sym, (Rabs_minus_sym t), !Rabs_pos_eq by lra. lra.
Qed.

(** ** Doubles *)
Lemma rndd_fexp x : round radix2 (SpecFloat.fexp 53 1024) (round_mode mode_NE) x = rndd x. Proof. reflexivity. Qed.
Lemma u64r_pos : 0 < u64r. Proof. unfold u64r. apply Rinv_0_lt_compat. apply pow_lt. lra. Qed.
Lemma u_ro64 : u_ro radix2 53 = u64r.
Proof. unfold u_ro, u64r. change (bpow radix2 (Z.opp 53 + 1)) with (/ 4503599627370496). replace (2 ^ 53) with 9007199254740992 by (cbn; lra). lra. Qed.
Lemma format64 (x : f64) : generic_format radix2 (FLT_exp (-1074) 53) (dval x). Proof. apply (generic_format_B2R 53 1024 x). Qed.
Lemma rndd_plus x y : generic_format radix2 (FLT_exp (-1074) 53) x -> generic_format radix2 (FLT_exp (-1074) 53) y -> Rabs (rndd (x + y) - (x + y)) <= u64r * Rabs (x + y).
Proof.
  intros Hx Hy. unfold rndd. destruct (FLT_plus_error_N_ex radix2 (-1074) 53 (fun n => negb (Z.even n)) _ _ Hx Hy) as (eps & H1 & H2). rewrite H2.
  replace ((x + y) * (1 + eps) - (x + y)) with (eps * (x + y)) by ring. rewrite Rabs_mult. apply Rmult_le_compat_r; [apply Rabs_pos|].
  eapply Rle_trans; [exact H1|]. rewrite u_ro64. pose proof u64r_pos. apply Rmult_le_reg_r with (1 + u64r); [lra|]. unfold Rdiv. rewrite Rmult_assoc, Rinv_l by lra. nra.
Qed.
Lemma rndd_le x y : x <= y -> rndd x <= rndd y. Proof. apply round_le; [apply FLT_exp_valid; reflexivity|apply valid_rnd_N]. Qed.
Lemma rndd_id x : generic_format radix2 (FLT_exp (-1074) 53) x -> rndd x = x. Proof. apply round_generic. apply valid_rnd_N. Qed.
Lemma rndd_0 : rndd 0 = 0. Proof. apply round_0. apply valid_rnd_N. Qed.
Lemma big64 : 2 ^ 100 < bpow radix2 1024.
Proof. rewrite pow_IZR. unfold bpow. apply IZR_lt. reflexivity. Qed.
Lemma plus64 (x y : f64) : dfin x = true -> dfin y = true -> Rabs (dval x + dval y) <= 2 ^ 90 ->
  dfin (x +d y) = true /\ dval (x +d y) = rndd (dval x + dval y) /\ Rabs (dval (x +d y) - (dval x + dval y)) <= u64r * Rabs (dval x + dval y).
Proof.
  intros Fx Fy H. pose proof (Bplus_correct 53 1024 _ _ mode_NE x y Fx Fy) as Q. rewrite rndd_fexp in Q. pose proof (rndd_plus (format64 x) (format64 y)) as E.
  rewrite Rlt_bool_true in Q.
  - destruct Q as (Q1 & Q2 & _). rewrite Q1. auto.
  - eapply Rle_lt_trans; [|exact big64]. replace (rndd (dval x + dval y)) with (rndd (dval x + dval y) - (dval x + dval y) + (dval x + dval y)) by ring.
    eapply Rle_trans; [apply Rabs_triang|]. assert (u64r <= 1). { unfold u64r. rewrite <- Rinv_1. apply Rinv_le_contravar; [lra|]. apply pow_R1_Rle. lra. }
    pose proof (Rabs_pos (dval x + dval y)). assert (2 * 2 ^ 90 <= 2 ^ 100) by (change (2 * 2 ^ 90) with (2 ^ 91); apply Rle_pow; [lra|lia]). nra.
Qed.
Lemma minus64 (x y : f64) : dfin x = true -> dfin y = true -> Rabs (dval x - dval y) <= 2 ^ 90 ->
  dfin (x -d y) = true /\ dval (x -d y) = rndd (dval x - dval y) /\ Rabs (dval (x -d y) - (dval x - dval y)) <= u64r * Rabs (dval x - dval y).
Proof.
  intros Fx Fy H. pose proof (Bminus_correct 53 1024 _ _ mode_NE x y Fx Fy) as Q. rewrite rndd_fexp in Q. pose proof (rndd_plus (format64 x) (generic_format_opp _ _ _ (format64 y))) as E.
  change (dval x + - dval y) with (dval x - dval y) in E. rewrite Rlt_bool_true in Q.
  - destruct Q as (Q1 & Q2 & _). rewrite Q1. auto.
  - eapply Rle_lt_trans; [|exact big64]. replace (rndd (dval x - dval y)) with (rndd (dval x - dval y) - (dval x - dval y) + (dval x - dval y)) by ring.
    eapply Rle_trans; [apply Rabs_triang|]. assert (u64r <= 1). { unfold u64r. rewrite <- Rinv_1. apply Rinv_le_contravar; [lra|]. apply pow_R1_Rle. lra. }
    pose proof (Rabs_pos (dval x - dval y)). assert (2 * 2 ^ 90 <= 2 ^ 100) by (change (2 * 2 ^ 90) with (2 ^ 91); apply Rle_pow; [lra|lia]). nra.
Qed.
Lemma one64 : dfin (f64_of_Z 1) = true /\ dval (f64_of_Z 1) = 1 /\ Bsign (f64_of_Z 1) = false.
Proof.
  change (f64_of_Z 1) with (@Bone 53 1024 _ _). pose proof (is_finite_Bone 53 1024 _ _). pose proof (Bone_correct 53 1024 _ _).
  pose proof (Bsign_Bone 53 1024 _ _). auto.
Qed.

(** ** One step *)
Lemma pow_90_90 : 0 < 2 ^ 80 /\ 2 * 2 ^ 80 + 10 <= 2 ^ 90.
Proof.
  assert (2 ^ 90 = 2 ^ 10 * 2 ^ 80) by (rewrite <- pow_add; reflexivity). assert (2 ^ 10 = 1024) by (cbn; lra). assert (1 <= 2 ^ 80) by (apply pow_R1_Rle; lra). lra.
Qed.
Lemma half_step M eps (a b : f64) B : accurate M eps -> dfin a = true -> dfin b = true -> dval b <= dval a -> Rabs (dval a) <= B -> Rabs (dval b) <= B -> B <= 2 ^ 80 ->
  let r := a +d l_wln M (f64_of_Z 1 +d l_wexp M (b -d a)) in
  dfin r = true /\ Rabs (dval r - g2 (dval a) (dval b)) <= 2 * eps + 3 * u64r * (B + 1).
Proof.
  intros (HE & HL) Fa Fb Hab Ha Hb HB. destruct pow_90_90 as (P0 & P1). pose proof u64r_pos as U. set (s := b -d a). cbv zeta.
  assert (AB : Rabs (dval b - dval a) <= 2 * B). { eapply Rle_trans; [apply Rabs_triang|]. rewrite Rabs_Ropp. lra. }
  destruct (minus64 Fb Fa ltac:(lra)) as (S1 & S2 & S3). fold s in S1, S2, S3.
  assert (S0 : dval s <= 0). { rewrite S2. rewrite <- rndd_0. apply rndd_le. lra. }
  destruct (HE s S1 S0) as (E1 & E2 & E3). set (e := l_wexp M s) in * .
  destruct one64 as (O1 & O2 & _).
  destruct (@plus64 (f64_of_Z 1) e O1 E1) as (Q1 & Q2 & Q3). { rewrite O2, Rabs_pos_eq by lra. lra. }
  rewrite O2 in Q2, Q3. set (o := f64_of_Z 1 +d e) in * .
  assert (G2 : generic_format radix2 (FLT_exp (-1074) 53) 2). { change 2 with (bpow radix2 1). apply generic_format_bpow. unfold FLT_exp. lia. }
  assert (G1 : generic_format radix2 (FLT_exp (-1074) 53) 1). { rewrite <- O2. apply format64. }
  assert (Q0 : 1 <= dval o <= 2). { rewrite Q2. split; [rewrite <- (rndd_id G1) at 1|rewrite <- (rndd_id G2)]; apply rndd_le; lra. }
  destruct (HL o Q1 Q0) as (L1 & L2 & L3). set (l := l_wln M o) in * .
  destruct (@plus64 a l Fa L1) as (R1 & _ & R3). { eapply Rle_trans; [apply Rabs_triang|]. rewrite (Rabs_pos_eq (dval l)) by lra. lra. }
  split; [exact R1|]. rewrite g2_max by auto.
  assert (D1 : Rabs (dval e - exp (dval b - dval a)) <= eps + u64r * (2 * B)).
  { replace (dval e - exp (dval b - dval a)) with (dval e - exp (dval s) + (exp (dval s) - exp (dval b - dval a))) by ring. eapply Rle_trans; [apply Rabs_triang|].
    apply Rplus_le_compat; [exact E3|]. eapply Rle_trans; [apply exp_lip; lra|]. eapply Rle_trans; [exact S3|]. apply Rmult_le_compat_l; lra. }
  assert (D2 : Rabs (dval o - (1 + exp (dval b - dval a))) <= eps + u64r * (2 * B) + u64r * 2).
  { replace (dval o - (1 + exp (dval b - dval a))) with (dval o - (1 + dval e) + (dval e - exp (dval b - dval a))) by ring. eapply Rle_trans; [apply Rabs_triang|].
    rewrite (Rabs_pos_eq (1 + dval e)) in Q3 by lra. assert (u64r * (1 + dval e) <= u64r * 2) by (apply Rmult_le_compat_l; lra). lra. }
  assert (D3 : Rabs (dval l - ln (1 + exp (dval b - dval a))) <= 2 * eps + u64r * (2 * B) + u64r * 2).
  { replace (dval l - ln (1 + exp (dval b - dval a))) with (dval l - ln (dval o) + (ln (dval o) - ln (1 + exp (dval b - dval a)))) by ring. eapply Rle_trans; [apply Rabs_triang|].
    pose proof (exp_pos (dval b - dval a)). pose proof (@ln_lip (dval o) (1 + exp (dval b - dval a)) ltac:(lra) ltac:(lra)). lra. }
  match goal with |- Rabs (?r - _) <= _ => replace (r - (dval a + ln (1 + exp (dval b - dval a)))) with (r - (dval a + dval l) + (dval l - ln (1 + exp (dval b - dval a)))) by ring end.
  eapply Rle_trans; [apply Rabs_triang|]. assert (u64r * Rabs (dval a + dval l) <= u64r * (B + 1)).
  { apply Rmult_le_compat_l; [lra|]. eapply Rle_trans; [apply Rabs_triang|]. rewrite (Rabs_pos_eq (dval l)) by lra. lra. }
  lra.
Qed.
Lemma step64 M eps (t v : f64) B : accurate M eps -> dfin t = true -> dfin v = true -> Rabs (dval t) <= B -> Rabs (dval v) <= B -> B <= 2 ^ 80 ->
  dfin (lse2 M t v) = true /\ Rabs (dval (lse2 M t v) - g2 (dval t) (dval v)) <= 2 * eps + 3 * u64r * (B + 1).
Proof.
  intros HA Ft Fv Ht Hv HB. unfold lse2. rewrite (Bltb_correct _ _ _ _ Fv Ft). destruct (Rlt_bool_spec (dval v) (dval t)) as [H|H].
  - apply half_step; auto. lra.
  - rewrite g2_comm. apply half_step; auto.
Qed.
Lemma step_bound M eps (t v : f64) B : accurate M eps -> dfin t = true -> dfin v = true -> Rabs (dval t) <= B -> Rabs (dval v) <= B -> B <= 2 ^ 80 ->
  2 * eps + 3 * u64r * (B + 1) <= / 6 -> Rabs (dval (lse2 M t v)) <= B + 1.
Proof.
  intros HA Ft Fv Ht Hv HB HD. destruct (@step64 M eps t v B HA Ft Fv Ht Hv HB) as (_ & E).
  replace (dval (lse2 M t v)) with (dval (lse2 M t v) - g2 (dval t) (dval v) + g2 (dval t) (dval v)) by ring. eapply Rle_trans; [apply Rabs_triang|].
  assert (Rabs (g2 (dval t) (dval v)) <= B + 5 / 6); [|lra]. apply Rabs_le_inv in Ht, Hv. apply Rabs_le.
  destruct (Rle_dec (dval v) (dval t)) as [H|H]; [pose proof (g2_bounds H); lra|]. rewrite (g2_comm (dval t)). pose proof (@g2_bounds (dval v) (dval t) ltac:(lra)). lra.
Qed.

(** ** The line *)
(** the exact value *)
Definition exps (l : list R) : R := fold_right (fun x r => exp x + r) 0 l.
Lemma exps_nonneg l : 0 <= exps l. Proof. induction l; [cbn; lra|]. change (exps (a :: l)) with (exp a + exps l). pose proof (exp_pos a). lra. Qed.
Lemma widen_finite (x : f32) : finite x = true -> dfin (f64_of_f32 x) = true /\ dval (f64_of_f32 x) = val x /\ Bsign (f64_of_f32 x) = Bsign x.
Proof.
  destruct x as [s|s| |s q e He]; try discriminate; intros _; [auto|]. cbn [f64_of_f32].
  pose proof (binary_normalize_correct 53 1024 eq_refl eq_refl mode_NE (cond_Zopp s (Zpos q)) e s) as H. cbv zeta in H.
  pose proof (generic_format_B2R 24 128 (B754_finite s q e He)) as G. pose proof (abs_B2R_lt_emax 24 128 (B754_finite s q e He)) as L.
  cbn [B2R] in * . rewrite round_generic in H; [|apply valid_rnd_round_mode|].
  2:{ revert G. apply generic_inclusion_mag. intros _. unfold SpecFloat.fexp, SpecFloat.emin. lia. }
  rewrite Rlt_bool_true in H. 2:{ eapply Rlt_trans; [exact L|]. apply bpow_lt. reflexivity. }
  destruct H as (H1 & H2 & H3). split; auto. split; auto. rewrite H3. cbn [Bsign]. destruct s; cbn [cond_Zopp Z.opp].
  - rewrite Rcompare_Lt; [reflexivity|]. apply F2R_lt_0. reflexivity.
  - rewrite Rcompare_Gt; [reflexivity|]. apply F2R_gt_0. reflexivity.
Qed.
Lemma list64 M eps l : forall (t : f64) A, accurate M eps -> 0 <= A -> Forall (fun x => finite x = true /\ Rabs (val x) <= A) l -> dfin t = true -> Rabs (dval t) <= A ->
  forall D, 2 * eps + 3 * u64r * (A + INR (length l) + 1) <= D -> D <= / 6 -> A + INR (length l) <= 2 ^ 80 ->
  dfin (lse_list M t l) = true /\ Rabs (dval (lse_list M t l)) <= A + INR (length l) /\
  Rabs (dval (lse_list M t l) - ln (exp (dval t) + exps (map val l))) <= INR (length l) * D.
Proof.
  pose proof u64r_pos as U. induction l as [|x l IH]; intros t A HA A0 HF Ft Ht D HD D6 HB.
  - cbn. rewrite !Rplus_0_r, ln_exp. split; [auto|]. split; [lra|]. rewrite Rminus_eq_0, Rabs_R0. lra.
  - inversion_clear HF as [|? ? (Fx & Hx) HF']. destruct (widen_finite Fx) as (W1 & W2 & _). cbn [length lse_list map exps fold_right] in * . rewrite S_INR in * .
    pose proof (pos_INR (length l)) as PL.
    assert (M1 : 3 * u64r * (A + 1) <= 3 * u64r * (A + (INR (length l) + 1) + 1)) by (apply Rmult_le_compat_l; lra).
    destruct (@step64 M eps t (f64_of_f32 x) A HA Ft W1 Ht) as (T1 & T2); [rewrite W2; auto|lra|].
    pose proof (@step_bound M eps t (f64_of_f32 x) A HA Ft W1 Ht ltac:(rewrite W2; auto) ltac:(lra) ltac:(lra)) as T3. set (t' := lse2 M t (f64_of_f32 x)) in * .
    destruct (IH t' (A + 1) HA ltac:(lra)) with (D := D) as (I1 & I2 & I3); auto; try lra.
    + eapply Forall_impl; [|exact HF']. intros y (Y1 & Y2). split; auto. lra.
    + split; [exact I1|]. split; [lra|]. set (z := exps (map val l)) in * . pose proof (exps_nonneg (map val l)) as Z0. fold z in Z0.
      match goal with |- Rabs (?r - ?q) <= _ => replace (r - q) with (r - ln (exp (dval t') + z) + (ln (exp (dval t') + z) - ln (exp (g2 (dval t) (val x)) + z))) end.
      * eapply Rle_trans; [apply Rabs_triang|]. pose proof (@ln_sum_lip (dval t') (g2 (dval t) (val x)) z Z0) as Q. rewrite W2 in T2. lra.
      * unfold g2. pose proof (exp_pos (dval t)). pose proof (exp_pos (val x)). rewrite exp_ln by lra. change (fold_right (fun x0 r : R => exp x0 + r) 0 (map val l)) with z.
        rewrite <- Rplus_assoc. ring.
Qed.
Lemma narrow_close (t : f64) : dfin t = true -> Rabs (dval t) <= 2 ^ 80 -> finite (f32_of_f64 t) = true /\ val (f32_of_f64 t) = rnd (dval t).
Proof.
  destruct t as [s|s| |s q e He]; try discriminate; intros _ H; [split; [reflexivity|]; cbn; symmetry; apply round_0; apply valid_rnd_N|]. cbn [f32_of_f64].
  pose proof (binary_normalize_correct 24 128 eq_refl eq_refl mode_NE (cond_Zopp s (Zpos q)) e s) as Q. cbv zeta in Q. rewrite rnd_fexp in Q. cbn [B2R] in * .
  rewrite Rlt_bool_true in Q; [destruct Q as (Q1 & Q2 & _); auto|].
  assert (G80 : generic_format radix2 (FLT_exp (-149) 24) (2 ^ 80)). { rewrite pow_IZR. change (IZR (2 ^ Z.of_nat 80)) with (bpow radix2 80). apply generic_format_bpow. unfold FLT_exp. lia. }
  assert (B80 : 2 ^ 80 < bpow radix2 128). { rewrite pow_IZR. unfold bpow. apply IZR_lt. reflexivity. }
  eapply Rle_lt_trans; [|exact B80]. unfold rnd. apply abs_round_le_generic; [apply FLT_exp_valid; reflexivity|apply valid_rnd_N|exact G80|exact H].
Qed.
(** the whole: [A] bounds the elements *)
Theorem lse_accuracy M eps l A : accurate M eps -> l <> [] -> Forall (fun x => finite x = true /\ Rabs (val x) <= A) l ->
  let n := INR (length l) in let D := 2 * eps + 3 * u64r * (A + n + 1) in D <= / 6 -> A + n <= 2 ^ 80 ->
  finite (lse M l) = true /\
  Rabs (val (lse M l) - ln (exps (map val l))) <= n * D + u32r * (A + n) + eta32.
Proof.
  intros HA NE HF n D D6 HB. destruct l as [|x l]; [contradiction|]. inversion_clear HF as [|? ? (Fx & Hx) HF']. destruct (widen_finite Fx) as (W1 & W2 & _).
  assert (A0 : 0 <= A) by (eapply Rle_trans; [apply Rabs_pos|exact Hx]). pose proof u64r_pos as U. pose proof (pos_INR (length l)) as PL.
  subst n D. cbn [length] in * . rewrite S_INR in * .
  destruct (@list64 M eps l (f64_of_f32 x) A HA A0 HF' W1 ltac:(rewrite W2; auto) (2 * eps + 3 * u64r * (A + (INR (length l) + 1) + 1))) as (I1 & I2 & I3); auto; [|lra|].
  { apply Rplus_le_compat_l. apply Rmult_le_compat_l; lra. }
  cbn [lse map exps fold_right]. destruct (@narrow_close _ I1 ltac:(lra)) as (N1 & N2). split; [exact N1|]. rewrite N2, <- W2. set (t := lse_list M (f64_of_f32 x) l) in * .
  pose proof (rnd_eps (dval t)) as Q. pose proof u32r_pos. assert (u32r * Rabs (dval t) <= u32r * (A + (INR (length l) + 1))) by (apply Rmult_le_compat_l; lra).
  replace (rnd (dval t) - ln (exp (dval (f64_of_f32 x)) + fold_right (fun x0 r : R => exp x0 + r) 0 (map val l)))
    with (rnd (dval t) - dval t + (dval t - ln (exp (dval (f64_of_f32 x)) + exps (map val l)))) by (unfold exps; ring).
  eapply Rle_trans; [apply Rabs_triang|].
  assert (0 <= 2 * eps + 3 * u64r * (A + (INR (length l) + 1) + 1)). { destruct HA as (HE & _). destruct (HE (B754_zero false) eq_refl (Rle_refl 0)) as (_ & _ & E). pose proof (Rabs_pos (dval (l_wexp M (B754_zero false)) - exp (dval (B754_zero false)))).
    assert (0 <= 3 * u64r * (A + (INR (length l) + 1) + 1)) by (apply Rmult_le_pos; lra). lra. }
  nra.
Qed.
