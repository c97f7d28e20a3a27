(** * PropsClip: C69 the norm of the clipped gradients on binary32 *)
From Coq Require Import ZArith Reals Lra.
From Flocq Require Import Core IEEE754.BinarySingleNaN.
From Verif Require Import PropsElem PropsMove Float32 RSum Rounding PropsNan PropsFloat PropsOptim PropsOptimF32.
Set Implicit Arguments. Unset Strict Implicit.
Open Scope R_scope.
Notation val := (@B2R 24 128).

(** ** Lower bounds of sums *)
Lemma u_small : u32r <= / 1000000. Proof. unfold u32r. apply Rinv_le_contravar; [lra|]. rewrite pow_IZR. apply IZR_le. cbv. discriminate. Qed.
Lemma pw01 i : 0 <= (1 - u32r) ^ i <= 1.
Proof. pose proof u_small as US. pose proof u32r_pos as UP. split; [apply pow_le; lra|]. apply Rle_trans with (1 ^ i); [apply pow_incr; lra|rewrite pow1; lra]. Qed.
Lemma plus_ge (x y : f32) : finite (x +f y) = true -> 0 <= val x -> 0 <= val y -> (1 - u32r) * (val x + val y) <= val (x +f y).
Proof.
  intros H Hx Hy. destruct (plus_eps H) as (eps & He & E). rewrite E. assert (- u32r <= eps) by (apply Rabs_le_inv in He; lra). nra.
Qed.
Lemma fsum_ge (A : nat -> f32) n : finite (fsum A n) = true -> (forall j, (j < n)%nat -> 0 <= val (A j)) ->
  0 <= val (fsum A n) /\ (1 - u32r) ^ n * rsum n (fun j => val (A j)) <= val (fsum A n).
Proof.
  pose proof u_small as US. pose proof u32r_pos as UP. induction n as [|n IH]; intros HF HA; [cbn; lra|]. rewrite red_S in * . destruct (plus32 (fsum A n) (A n)) as (C & _). destruct (proj1 C HF) as (F1 & F2 & _).
  destruct IH as (P & L); auto. pose proof (HA n ltac:(lia)) as Pn. pose proof (plus_ge HF P Pn) as G.
  assert (0 <= (1 - u32r) ^ n <= 1). { apply pw01. }
  split; [eapply Rle_trans; [|exact G]; apply Rmult_le_pos; lra|]. eapply Rle_trans; [|exact G]. cbn [pow rsum]. rewrite Rmult_assoc. apply Rmult_le_compat_l; [lra|]. rewrite Rmult_plus_distr_l.
  apply Rplus_le_compat; [exact L|]. nra.
Qed.
Lemma sq_ge (g : f32) : finite (g *f g) = true -> 0 <= val (g *f g) /\ (1 - u32r) * val g ^ 2 - eta32 <= val (g *f g).
Proof.
  intros H. destruct (mult32 g g) as (_ & E). rewrite (E H). pose proof (Rle_0_sqr (val g)) as S. unfold Rsqr in S. split; [apply rnd_pos; exact S|].
  pose proof (rnd_eps (val g * val g)) as R. rewrite (Rabs_pos_eq (val g * val g)) in R by auto. apply Rabs_le_inv in R. cbn [pow]. lra.
Qed.
Lemma dotsq_ge (g : nat -> f32) n : finite (fsum (fun j => g j *f g j) n) = true ->
  0 <= val (fsum (fun j => g j *f g j) n) /\ (1 - u32r) ^ (n + 1) * rsum n (fun j => val (g j) ^ 2) - INR n * eta32 <= val (fsum (fun j => g j *f g j) n).
Proof.
  intros H. assert (FA : forall j, (j < n)%nat -> finite (g j *f g j) = true).
  { revert H. induction n as [|n IH]; [lia|]. rewrite red_S. intros H. destruct (plus32 (fsum (fun j => g j *f g j) n) (g n *f g n)) as (C & _). destruct (proj1 C H) as (F1 & F2 & _).
    intros j Hj. destruct (Nat.eq_dec j n) as [->|]; [exact F2|]. apply IH; auto. lia. }
  destruct (fsum_ge H) as (P & L). { intros j Hj. apply sq_ge. auto. } split; [exact P|]. eapply Rle_trans; [|exact L].
  pose proof u_small as US. pose proof u32r_pos as UP. pose proof eta32_pos as EP.
  assert (Q : 0 <= (1 - u32r) ^ n <= 1). { apply pw01. }
  apply Rle_trans with ((1 - u32r) ^ n * rsum n (fun j => (1 - u32r) * val (g j) ^ 2 - eta32)).
  - replace (rsum n (fun j => (1 - u32r) * val (g j) ^ 2 - eta32)) with ((1 - u32r) * rsum n (fun j => val (g j) ^ 2) - INR n * eta32).
    2:{ rewrite <- rsum_scal, <- rsum_const. unfold Rminus. rewrite <- rsum_opp, <- rsum_plus. apply rsum_ext. auto. }
    rewrite pow_add, pow_1. pose proof (pos_INR n). assert (0 <= INR n * eta32) by (apply Rmult_le_pos; lra). nra.
  - apply Rmult_le_compat_l; [lra|]. apply rsum_le. intros j Hj. apply sq_ge. auto.
Qed.

Lemma bernoulli n : 1 - INR n * u32r <= (1 - u32r) ^ n.
Proof.
  pose proof u_small as US. pose proof u32r_pos as UP. induction n as [|n IH]; [cbn; lra|]. rewrite S_INR. cbn [pow]. pose proof (pos_INR n). assert (0 <= INR n * u32r * u32r) by (repeat apply Rmult_le_pos; lra).
  apply Rle_trans with ((1 - u32r) * (1 - INR n * u32r)); [lra|]. apply Rmult_le_compat_l; lra.
Qed.
Lemma e140 : / 2 ^ 140 = 1024 * eta32.
Proof. unfold eta32. replace (2 ^ 150) with (1024 * 2 ^ 140) by (rewrite !pow_IZR, <- mult_IZR; apply f_equal; reflexivity). rewrite Rinv_mult, <- Rmult_assoc, Rinv_r, Rmult_1_l by lra. reflexivity. Qed.
Lemma sq_split a b : (a + b) ^ 2 <= 65 / 64 * a ^ 2 + 65 * b ^ 2.
Proof. pose proof (pow2_ge_0 (a / 8 - 8 * b)). nra. Qed.
Lemma tiny_sqrt (q : f32) : finite q = true -> 0 < val q -> eta32 <= u32r * sqrt (val q).
Proof.
  intros Fq Q0. assert (HS : is_finite_strict q = true) by (destruct q; try discriminate; cbn in Q0; [lra|reflexivity]).
  pose proof (abs_B2R_ge_emin 24 128 q HS) as A. rewrite Rabs_pos_eq in A by lra.
  assert (B : (/ 2 ^ 75) ^ 2 <= val q).
  { eapply Rle_trans; [|exact A]. change (bpow radix2 (SpecFloat.emin 24 128)) with (/ IZR (2 ^ 149)). rewrite pow_inv, <- pow_mult. apply Rinv_le_contravar; [apply IZR_lt; reflexivity|]. rewrite pow_IZR. apply IZR_le. cbv. discriminate. }
  assert (P : 0 < / 2 ^ 75) by (apply Rinv_0_lt_compat; apply pow_lt; lra).
  assert (C : / 2 ^ 75 <= sqrt (val q)). { rewrite <- (sqrt_pow2 (/ 2 ^ 75)) by lra. apply sqrt_le_1_alt. exact B. }
  pose proof u32r_pos. apply Rle_trans with (u32r * / 2 ^ 75); [|apply Rmult_le_compat_l; lra]. unfold eta32, u32r. rewrite <- Rinv_mult, <- pow_add. apply Rinv_le_contravar; [apply pow_lt; lra|]. apply Rle_pow; [lra|]. lia.
Qed.
(** the real inequality behind the bound *)
Lemma clip_math t q r k S T N b : 0 < t -> t ^ 2 <= q -> q < bpow radix2 128 -> 0 <= S -> 1 <= N -> 1 / 2 <= b <= 1 -> b * S <= q + N * eta32 ->
  (1 - 2 * u32r) * sqrt q <= r -> 0 <= k -> k <= (1 + u32r) * (t / r) + eta32 -> T <= 65 / 64 * (1 + u32r) ^ 2 * k ^ 2 * S + 65 * N * eta32 ^ 2 ->
  T <= 17 / 16 / b * (t ^ 2 + N * / 2 ^ 140).
Proof.
  intros Ht Hq Hm HS HN Hb HbS Hr Hk0 Hk HT. pose proof u_small as US. pose proof u32r_pos as UP. pose proof eta32_pos as EP.
  pose proof e140 as E140.
  assert (Eq : bpow radix2 128 * eta32 <= 1). { unfold eta32. change (bpow radix2 128) with (IZR (2 ^ 128)). apply Rmult_le_reg_r with (2 ^ 150); [apply pow_lt; lra|]. rewrite Rmult_assoc, Rinv_l by (apply pow_nonzero; lra). rewrite Rmult_1_r, Rmult_1_l, pow_IZR. apply IZR_le. cbv. discriminate. }
  assert (E1 : eta32 <= / 1000000). { unfold eta32. apply Rinv_le_contravar; [lra|]. rewrite pow_IZR. apply IZR_le. cbv. discriminate. }
  assert (Pq : 0 < q) by (assert (0 < t ^ 2) by (apply pow_lt; auto); lra). pose proof (sqrt_lt_R0 _ Pq) as Psq. pose proof (sqrt_sqrt q ltac:(lra)) as SS.
  assert (Pr : 0 < r) by (eapply Rlt_le_trans; [|exact Hr]; apply Rmult_lt_0_compat; lra).
  set (k1 := (1 + u32r) * (t / r)) in * .
  (* k1^2 q <= c t^2 *)
  assert (K1 : k1 ^ 2 * q <= (1 + / 10000) * t ^ 2).
  { assert (R2 : (1 - 2 * u32r) ^ 2 * q <= r ^ 2). { rewrite <- SS. replace ((1 - 2 * u32r) ^ 2 * (sqrt q * sqrt q)) with (((1 - 2 * u32r) * sqrt q) ^ 2) by ring. apply pow_incr. split; [|exact Hr]. apply Rmult_le_pos; lra. }
    assert (Kr : k1 * r = (1 + u32r) * t) by (unfold k1; field; lra).
    assert (A : k1 ^ 2 * r ^ 2 = (1 + u32r) ^ 2 * t ^ 2) by (rewrite <- !Rpow_mult_distr, Kr; reflexivity).
    assert (B : (1 - 2 * u32r) ^ 2 * (k1 ^ 2 * q) <= (1 + u32r) ^ 2 * t ^ 2). { rewrite <- A. replace ((1 - 2 * u32r) ^ 2 * (k1 ^ 2 * q)) with (k1 ^ 2 * ((1 - 2 * u32r) ^ 2 * q)) by ring. apply Rmult_le_compat_l; [apply pow2_ge_0|exact R2]. }
    assert (P2 : 0 <= t ^ 2) by apply pow2_ge_0. assert (C : (1 + u32r) ^ 2 <= (1 - 2 * u32r) ^ 2 * (1 + / 10000)) by nra.
    apply Rmult_le_reg_l with ((1 - 2 * u32r) ^ 2); [apply pow_lt; lra|]. eapply Rle_trans; [exact B|]. rewrite <- Rmult_assoc. apply Rmult_le_compat_r; auto. }
  assert (K2 : k ^ 2 <= 65 / 64 * k1 ^ 2 + 65 * eta32 ^ 2). { eapply Rle_trans; [|apply sq_split]. apply pow_incr. lra. }
  (* k1^2 S *)
  assert (K1N : 0 <= k1 ^ 2) by apply pow2_ge_0. assert (K3 : k1 ^ 2 <= 1 + / 10000). { apply Rmult_le_reg_r with q; auto. eapply Rle_trans; [exact K1|]. apply Rmult_le_compat_l; lra. }
  assert (K4 : b * (k1 ^ 2 * S) <= (1 + / 10000) * (t ^ 2 + N * eta32)).
  { replace (b * (k1 ^ 2 * S)) with (k1 ^ 2 * (b * S)) by ring. eapply Rle_trans; [apply Rmult_le_compat_l; [exact K1N|exact HbS]|]. rewrite Rmult_plus_distr_l, Rmult_plus_distr_l. apply Rplus_le_compat; [exact K1|]. apply Rmult_le_compat_r; [apply Rmult_le_pos; lra|exact K3]. }
  assert (K5 : b * (eta32 ^ 2 * S) <= 2 * N * eta32).
  { replace (b * (eta32 ^ 2 * S)) with (eta32 * (eta32 * (b * S))) by ring. replace (2 * N * eta32) with (eta32 * (2 * N)) by ring. apply Rmult_le_compat_l; [lra|].
    apply Rle_trans with (eta32 * (q + N * eta32)); [apply Rmult_le_compat_l; lra|]. rewrite Rmult_plus_distr_l. assert (eta32 * q <= 1) by nra. assert (eta32 * (N * eta32) <= N) by nra. lra. }
  assert (K6 : b * (k ^ 2 * S) <= 65 / 64 * (1 + / 10000) * (t ^ 2 + N * eta32) + 130 * N * eta32).
  { apply Rle_trans with (b * ((65 / 64 * k1 ^ 2 + 65 * eta32 ^ 2) * S)); [apply Rmult_le_compat_l; [lra|]; apply Rmult_le_compat_r; auto|]. lra. }
  assert (PN : 0 <= N * eta32) by (apply Rmult_le_pos; lra). assert (P2 : 0 <= t ^ 2) by apply pow2_ge_0.
  apply Rmult_le_reg_l with b; [lra|]. replace (b * (17 / 16 / b * (t ^ 2 + N * / 2 ^ 140))) with (17 / 16 * (t ^ 2 + N * / 2 ^ 140)) by (field; lra). rewrite E140.
  assert (UU : (1 + u32r) ^ 2 <= 1 + / 10000) by nra. assert (U0 : 0 <= (1 + u32r) ^ 2) by apply pow2_ge_0.
  assert (K7 : b * (65 / 64 * (1 + u32r) ^ 2 * k ^ 2 * S) <= 65 / 64 * (1 + / 10000) * (65 / 64 * (1 + / 10000) * (t ^ 2 + N * eta32) + 130 * N * eta32)).
  { replace (b * (65 / 64 * (1 + u32r) ^ 2 * k ^ 2 * S)) with (65 / 64 * (1 + u32r) ^ 2 * (b * (k ^ 2 * S))) by ring. apply Rmult_le_compat; [lra|repeat apply Rmult_le_pos; try lra; apply pow2_ge_0|lra|exact K6]. }
  assert (K8 : b * (65 * N * eta32 ^ 2) <= 65 * (N * eta32)).
  { replace (b * (65 * N * eta32 ^ 2)) with (65 * ((N * eta32) * (b * eta32))) by ring. apply Rmult_le_compat_l; [lra|]. rewrite <- (Rmult_1_r (N * eta32)) at 2. apply Rmult_le_compat_l; auto. nra. }
  apply Rle_trans with (b * (65 / 64 * (1 + u32r) ^ 2 * k ^ 2 * S) + b * (65 * N * eta32 ^ 2)); [rewrite <- Rmult_plus_distr_l; apply Rmult_le_compat_l; lra|]. lra.
Qed.

Section C69.
Variable M : libm.
Variable m : build.
Notation K := (Fnum M).
Notation item := (item (Fnum M)).
Notation opt := (opt (Fnum M)).
(** sums over all parameters: of the squares of the gradients [G], of the number of elements *)
Definition squares (xs : list item) (G : item -> coord' -> f32) : R := fold_right Rplus 0 (map (fun x => vsum (i_shape x) (fun c => val (G x c) ^ 2)) xs).
Definition count (xs : list item) : R := fold_right Rplus 0 (map (fun x => INR (vol (i_shape x))) xs).
Lemma count_nonneg xs : 0 <= count xs.
Proof. unfold count. induction xs as [|x xs IH]; cbn [map fold_right]; [lra|]. pose proof (pos_INR (vol (i_shape x))). lra. Qed.
Lemma item_wf (x : item) p : is_param (i_dev x) (i_shape x) (i_c x) p -> wf (i_shape x).
Proof. intros (HV & _). pose proof (ready_wf (elems_ready HV)) as W. rewrite (elems_shape HV) in W. exact W. Qed.
Lemma sqn_ge o D xs ps : are_params xs ps -> finite (sqn o xs) = true -> (forall x, In x xs -> (vol (i_shape x) + length xs + 1 <= D)%nat) ->
  (1 - u32r) ^ D * squares xs (used o) - count xs * eta32 <= val (sqn o xs).
Proof.
  intros HP HF HD. pose proof u_small as US. pose proof u32r_pos as UP. pose proof eta32_pos as EP.
  assert (PW : forall j k, (j <= k)%nat -> 0 <= (1 - u32r) ^ k <= (1 - u32r) ^ j /\ (1 - u32r) ^ j <= 1).
  { intros j k H. pose proof pw01 as PB.
    split; [|apply PB]. split; [apply PB|]. replace k with (j + (k - j))%nat by lia. rewrite pow_add. pose proof (PB j). pose proof (PB (k - j)%nat). nra. }
  unfold sqn in * .
  assert (GE : forall a : f32, let q := fold_left (fun acc x => acc +f fsum (fun p => used o x (coord (ext (i_shape x)) 8 p) *f used o x (coord (ext (i_shape x)) 8 p)) (vol (i_shape x))) xs a in
    finite q = true -> 0 <= val a -> finite a = true /\ (1 - u32r) ^ (length xs) * val a + (1 - u32r) ^ D * squares xs (used o) - count xs * eta32 <= val q).
  { clear HF. induction HP as [|x p xs ps Hx HP IH]; intros a q HF Ha.
    - cbn in * . split; [exact HF|]. unfold squares, count. cbn. lra.
    - cbn [fold_left] in q. set (s := fsum _ _) in q. specialize (IH ltac:(intros y Hy; specialize (HD y (or_intror Hy)); cbn [length] in HD; lia) (a +f s)). fold q in IH. cbv zeta in IH.
      assert (FS : forall b : f32, finite (fold_left (fun acc x => acc +f fsum (fun p => used o x (coord (ext (i_shape x)) 8 p) *f used o x (coord (ext (i_shape x)) 8 p)) (vol (i_shape x))) xs b) = true -> finite b = true).
      { clear. induction xs as [|y xs IH]; cbn [fold_left]; auto. intros b Hb. apply IH in Hb. apply (proj1 (plus32 _ _)) in Hb. tauto. }
      pose proof (FS _ HF) as FAS. destruct (plus32 a s) as (C & _). destruct (proj1 C FAS) as (Fa & Fs & _). split; [exact Fa|].
      destruct (dotsq_ge (g := fun p => used o x (coord (ext (i_shape x)) 8 p)) Fs) as (Ps & Ls). fold s in Ps, Ls. pose proof (plus_ge FAS Ha Ps) as Gas.
      assert (Pas : 0 <= val (a +f s)) by (eapply Rle_trans; [|exact Gas]; apply Rmult_le_pos; lra). destruct (IH HF Pas) as (_ & I).
      eapply Rle_trans; [|exact I]. unfold squares, count. cbn [map fold_right length]. fold (squares xs (used o)) (count xs). rewrite (vsum_flat (fun c => val (used o x c) ^ 2)) by (apply (item_wf Hx)).
      set (X := rsum (vol (i_shape x)) _) in * . set (n := vol (i_shape x)) in * . pose proof (HD x (or_introl eq_refl)) as Dx. fold n in Dx. cbn [length] in Dx. set (l := length xs) in * .
      assert (PX : 0 <= X) by (apply rsum_nonneg; intros; apply pow2_ge_0).
      destruct (PW l l ltac:(lia)) as (P1 & P2). destruct (PW (S l) (S l) ltac:(lia)) as (P3 & P4).
      assert (E1 : (1 - u32r) ^ l * ((1 - u32r) * (val a + val s)) <= (1 - u32r) ^ l * val (a +f s)) by (apply Rmult_le_compat_l; lra).
      assert (E2 : (1 - u32r) ^ S l * ((1 - u32r) ^ (n + 1) * X - INR n * eta32) <= (1 - u32r) ^ S l * val s) by (apply Rmult_le_compat_l; lra).
      assert (E3 : (1 - u32r) ^ D * X <= (1 - u32r) ^ S l * (1 - u32r) ^ (n + 1) * X). { apply Rmult_le_compat_r; auto. rewrite <- pow_add. apply PW. lia. }
      assert (E4 : (1 - u32r) ^ S l * (INR n * eta32) <= INR n * eta32). { assert (0 <= INR n * eta32) by (apply Rmult_le_pos; [apply pos_INR|lra]). nra. }
      cbn [pow] in * . nra. }
  destruct (GE (f32_of_Z 0) HF) as (_ & H); [cbn; lra|]. change (val (f32_of_Z 0)) with 0 in H. rewrite Rmult_0_r in H. lra.
Qed.
Lemma squares_le (xs : list item) ps (G H : item -> coord' -> f32) (a b : R) : are_params xs ps -> (forall x c, In x xs -> inb (i_shape x) c -> val (G x c) ^ 2 <= a * val (H x c) ^ 2 + b) ->
  squares xs G <= a * squares xs H + count xs * b.
Proof.
  intros HP. induction HP as [|x p xs ps Hx HP IH]; intros HL; unfold squares, count; cbn [map fold_right]; [lra|]. fold (squares xs G) (squares xs H) (count xs).
  specialize (IH ltac:(intros y c Hy; apply HL; right; auto)). pose proof (item_wf Hx) as W. rewrite !vsum_flat by auto.
  assert (L : rsum (vol (i_shape x)) (fun p0 => val (G x (coord (ext (i_shape x)) 8 p0)) ^ 2) <= rsum (vol (i_shape x)) (fun p0 => a * val (H x (coord (ext (i_shape x)) 8 p0)) ^ 2 + b)).
  { apply rsum_le. intros j Hj. apply HL; [left; reflexivity|]. apply inb_coord; auto. }
  rewrite rsum_plus, rsum_scal, rsum_const in L. lra.
Qed.
Lemma squares_nonneg xs ps (G : item -> coord' -> f32) : are_params xs ps -> 0 <= squares xs G.
Proof.
  intros HP. induction HP as [|x p xs ps Hx HP IH]; unfold squares; cbn [map fold_right]; [lra|]. fold (squares xs G). rewrite vsum_flat by (apply (item_wf Hx)).
  assert (0 <= rsum (vol (i_shape x)) (fun p0 => val (G x (coord (ext (i_shape x)) 8 p0)) ^ 2)) by (apply rsum_nonneg; intros; apply pow2_ge_0). lra.
Qed.
Lemma count_ge1 xs ps : are_params xs ps -> xs <> [] -> 1 <= count xs.
Proof.
  intros HP HN. destruct HP as [|x p xs ps Hx HP]; [congruence|]. unfold count. cbn [map fold_right]. fold (count xs). pose proof (count_nonneg xs).
  assert (1 <= INR (vol (i_shape x))); [|lra]. change 1 with (INR 1). apply le_INR. pose proof (vol_pos (item_wf Hx)). lia.
Qed.
(** with a threshold whose square is finite, the norm of the gradients used in the update is at most about 3% above the threshold
    (the square about 6%), for [D] roundings per element with D * 2^-24 small, up to underflow of 2^-70 per element *)
Theorem C69_clipped_norm : forall als o xs ps D, callable als o xs ps -> every xs (fun x c => finite (used o x c) = true) ->
  pos32 (o_clip o) = true -> finite (o_clip o *f o_clip o) = true ->
  (forall x, In x xs -> (vol (i_shape x) + length xs + 1 <= D)%nat) -> INR D * / 2 ^ 24 <= 1 / 2 ->
  exists G, steps_with m als o xs ps G /\ squares xs G <= 17 / 16 / (1 - INR D * / 2 ^ 24) * (val (o_clip o) ^ 2 + count xs * / 2 ^ 140).
Proof.
  intros als o xs ps D HC HE Hp Hf HD HU. pose proof (steps_clipped m HC) as H. destruct HC as (_ & _ & HP). exists (clipped o xs). split; [exact H|]. clear H. change (/ 2 ^ 24) with u32r in * .
  pose proof u_small as US. pose proof u32r_pos as UP. pose proof eta32_pos as EP. set (t := o_clip o) in * . set (b := 1 - INR D * u32r) in * .
  assert (Hb : 1 / 2 <= b <= 1). { unfold b. pose proof (pos_INR D). assert (0 <= INR D * u32r) by (apply Rmult_le_pos; lra). lra. }
  destruct (mult32 t t) as (C1 & C2). destruct (proj1 C1 Hf) as (Ft & _ & _). pose proof Hp as Hp'. rewrite pos32_val in Hp' by auto.
  assert (P140 : 0 < / 2 ^ 140) by (apply Rinv_0_lt_compat; apply pow_lt; lra). pose proof (count_nonneg xs) as CN.
  assert (RHS : 0 <= 17 / 16 / b * (val t ^ 2 + count xs * / 2 ^ 140)).
  { apply Rmult_le_pos; [apply Rmult_le_pos; [lra|apply Rlt_le, Rinv_0_lt_compat; lra]|]. apply Rplus_le_le_0_compat; [apply pow2_ge_0|apply Rmult_le_pos; lra]. }
  destruct xs as [|x0 xs0] eqn:EX; [unfold squares at 1; cbn; exact RHS|]. rewrite <- EX in * . assert (NE : xs <> []) by (rewrite EX; discriminate). clear EX x0 xs0.
  pose proof (count_ge1 HP NE) as CN1.
  assert (HN : every xs (fun x c => is_nan (used o x c) = false)). { intros x c Hx Hc. specialize (HE x c Hx Hc). cbv beta in HE. destruct (used o x c); try discriminate; reflexivity. }
  destruct (sqn_nn HP HN) as [EI|(Fq & Pq)].
  { (* overflow: zeros *)
    eapply Rle_trans; [apply (@squares_le xs ps (clipped o xs) (used o) 0 0 HP)|rewrite Rmult_0_l, Rmult_0_r, Rplus_0_l; exact RHS]. intros x c Hx Hc. specialize (HE x c Hx Hc). cbv beta in HE.
    unfold clipped, clips. fold t. rewrite EI, Hp. assert (LT : Bltb (t *f t) (B754_infinity false) = true) by (destruct (t *f t) as [?|[]| |[]]; try discriminate; reflexivity). rewrite LT. cbn [andb].
    change (Bsqrt mode_NE (B754_infinity false)) with (B754_infinity false : f32). assert (EZ : t /f B754_infinity false = B754_zero false) by (unfold pos32 in Hp; destruct t as [[]|?| |[]]; try discriminate; reflexivity).
    rewrite EZ. destruct (used o x c) as [[]|[]| |[]]; try discriminate; cbn; lra. }
  pose proof (sqn_ge HP Fq HD) as GE. set (q := sqn o xs) in * . set (S := squares xs (used o)) in * . assert (PS : 0 <= S) by apply (squares_nonneg (used o) HP).
  assert (HS : b * S <= val q + count xs * eta32). { pose proof (bernoulli D) as B. fold b in B. assert (b * S <= (1 - u32r) ^ D * S) by (apply Rmult_le_compat_r; auto). lra. }
  destruct (clips o xs) eqn:EC.
  - pose proof EC as EC'. unfold clips in EC'. fold t q in EC'. apply andb_true_iff in EC'. destruct EC' as (_ & LT).
    destruct (@clip_scale t q (or_intror (conj Fq Pq)) Hp LT) as (FK & K0 & _). rewrite Bltb_correct in LT by auto. rewrite (C2 Hf) in LT. destruct (Rlt_bool_spec (rnd (val t * val t)) (val q)) as [L|]; [|discriminate].
    assert (L2 : val t ^ 2 <= val q). { apply Rlt_le. apply Rnot_le_lt. intros Q. cbn [pow] in Q. rewrite Rmult_1_r in Q. apply rnd_mono in Q. rewrite rnd_val in Q. lra. }
    set (r := Bsqrt mode_NE q) in * . destruct (sqrt32 q) as (ER & _). fold r in ER.
    assert (Q0 : 0 < val q) by (assert (0 < val t ^ 2) by (apply pow_lt; auto); lra).
    assert (QM : val q < bpow radix2 128). { pose proof (abs_B2R_lt_emax 24 128 q) as A. rewrite Rabs_pos_eq in A by lra. exact A. }
    assert (QE : eta32 <= u32r * sqrt (val q)).
    { apply tiny_sqrt; auto. }
    assert (HR : (1 - 2 * u32r) * sqrt (val q) <= val r). { rewrite ER. pose proof (rnd_eps (sqrt (val q))) as A. rewrite (Rabs_pos_eq (sqrt _)) in A by (apply sqrt_pos). apply Rabs_le_inv in A. lra. }
    assert (PR : 0 < val r). { eapply Rlt_le_trans; [|exact HR]. apply Rmult_lt_0_compat; [lra|]. apply sqrt_lt_R0. exact Q0. }
    destruct (@div32 t r ltac:(lra)) as (_ & D2). set (k := t /f r) in * .
    apply (@clip_math (val t) (val q) (val r) (val k) S (squares xs (clipped o xs)) (count xs) b); auto.
    + rewrite (D2 FK). assert (0 <= val t / val r) by (apply Rmult_le_pos; [apply Rlt_le; exact Hp'|apply Rlt_le, Rinv_0_lt_compat; auto]). pose proof (rnd_eps (val t / val r)) as A. rewrite (Rabs_pos_eq (val t / val r)) in A by auto. apply Rabs_le_inv in A. lra.
    + eapply Rle_trans; [apply (@squares_le xs ps (clipped o xs) (used o) (65 / 64 * (1 + u32r) ^ 2 * val k ^ 2) (65 * eta32 ^ 2) HP)|fold S; lra]. intros x c Hx Hc. specialize (HE x c Hx Hc). cbv beta in HE.
      unfold clipped. rewrite EC. fold t q r k. set (g := used o x c) in * . destruct (mult32 g k) as (M1 & M2).
      destruct (finite (g *f k)) eqn:FG.
      * rewrite (M2 eq_refl). pose proof (rnd_eps (val g * val k)) as A. replace (65 / 64 * (1 + u32r) ^ 2 * val k ^ 2 * val g ^ 2 + 65 * eta32 ^ 2) with (65 / 64 * ((1 + u32r) * Rabs (val g * val k)) ^ 2 + 65 * eta32 ^ 2).
        2:{ rewrite Rpow_mult_distr, pow2_abs. ring. }
        eapply Rle_trans; [|apply sq_split]. rewrite <- (pow2_abs (rnd (val g * val k))). apply pow_incr. split; [apply Rabs_pos|].
        replace (rnd (val g * val k)) with ((rnd (val g * val k) - val g * val k) + val g * val k) by ring. eapply Rle_trans; [apply Rabs_triang|]. lra.
      * assert (E0 : val (g *f k) = 0) by (destruct (g *f k); try discriminate; reflexivity). rewrite E0. pose proof (pow2_ge_0 eta32). pose proof (pow2_ge_0 (val k)). pose proof (pow2_ge_0 (val g)). pose proof (pow2_ge_0 (1 + u32r)).
        assert (0 <= 65 / 64 * (1 + u32r) ^ 2 * val k ^ 2 * val g ^ 2) by (apply Rmult_le_pos; [apply Rmult_le_pos; [apply Rmult_le_pos; [lra|assumption]|assumption]|assumption]). replace (0 ^ 2) with 0 by ring. lra.
  - assert (ES : squares xs (clipped o xs) = S). { unfold S, squares, clipped. rewrite EC. reflexivity. } rewrite ES. clear ES.
    unfold clips in EC. fold t q in EC. rewrite Hp in EC. cbn [andb] in EC. rewrite Bltb_correct in EC by auto. rewrite (C2 Hf) in EC. destruct (Rlt_bool_spec (rnd (val t * val t)) (val q)) as [|L]; [discriminate|].
    pose proof (rnd_eps (val t * val t)) as A. assert (0 <= val t * val t) by (apply Rmult_le_pos; lra). rewrite (Rabs_pos_eq (val t * val t)) in A by auto. apply Rabs_le_inv in A.
    assert (E140 : / 2 ^ 140 = 1024 * eta32) by apply e140. rewrite E140. apply Rmult_le_reg_l with b; [lra|].
    replace (b * (17 / 16 / b * (val t ^ 2 + count xs * (1024 * eta32)))) with (17 / 16 * (val t ^ 2 + count xs * (1024 * eta32))) by (field; lra). cbn [pow]. rewrite Rmult_1_r.
    assert (eta32 <= count xs * eta32) by nra. nra.
Qed.
End C69.

(** ** Where the bound ends: sums of more than 2^24 terms stand still *)
Lemma fsum_ones n : is_int (fsum (fun _ => f32_of_Z 1) n) (Z.min (Z.of_nat n) (2 ^ 24)).
Proof.
  induction n as [|n IH]; [split; reflexivity|]. rewrite red_S. destruct (Z_lt_ge_dec (Z.of_nat n) (2 ^ 24)) as [L|L].
  - rewrite Z.min_l in * by lia. replace (Z.of_nat (S n)) with (Z.of_nat n + 1)%Z by lia. apply plus_int; [exact IH|apply of_Z_int; cbv; discriminate|lia].
  - rewrite Z.min_r in * by lia. assert (E : fsum (fun _ => f32_of_Z 1) n = f32_of_Z (2 ^ 24)).
    { destruct IH as (F & V). apply B2R_inj; [|reflexivity|].
      - destruct (fsum (fun _ => f32_of_Z 1) n); try discriminate; [|reflexivity]. exfalso. cbn in V. apply eq_IZR in V. discriminate.
      - rewrite V. symmetry. apply (@of_Z_int (2 ^ 24)). cbv. discriminate. }
    rewrite E. assert (E2 : f32_of_Z (2 ^ 24) +f f32_of_Z 1 = f32_of_Z (2 ^ 24)) by (apply B2SF_inj; vm_compute; reflexivity). rewrite E2. apply of_Z_int. cbv. discriminate.
Qed.
Section Stagnation.
Variable M : libm.
Variable m : build.
Notation K := (Fnum M).
Notation item := (item (Fnum M)).
Notation opt := (opt (Fnum M)).
(** one parameter of 2^24 or more elements whose gradients are all 1, a threshold of 4096, no weight decay: the gradients are used as they
    are, although their norm is the square root of the number of elements, however large *)
Theorem C69_norm_stagnates : forall als o (x : item) ps, callable als o [x] ps -> pos32 (o_l2 o) = false -> o_clip o = f32_of_Z 4096 ->
  (16777216 <= N.of_nat (vol (i_shape x)))%N -> (forall c, inb (i_shape x) c -> c_grad (i_c x) c = f32_of_Z 1) ->
  steps_with m als o [x] ps (used o) /\ (forall c, inb (i_shape x) c -> used o x c = f32_of_Z 1) /\ squares [x] (used o) = INR (vol (i_shape x)) /\ val (o_clip o) = 4096.
Proof.
  intros als o x ps HC HL EC HV HG. pose proof (steps_clipped m HC) as H. destruct HC as (_ & _ & HP). inversion HP as [|x' p xs' ps' Hx HP' E1 E2]; subst.
  assert (HU : forall c, inb (i_shape x) c -> used o x c = f32_of_Z 1) by (intros c Hc; unfold used; rewrite HL, HG by auto; reflexivity).
  pose proof (item_wf Hx) as W. assert (E1 : f32_of_Z 1 *f f32_of_Z 1 = f32_of_Z 1) by (apply B2SF_inj; vm_compute; reflexivity).
  assert (EQ : is_int (sqn o [x]) (2 ^ 24)).
  { unfold sqn. cbn [fold_left].
    assert (ES : fsum (fun p => used o x (coord (ext (i_shape x)) 8 p) *f used o x (coord (ext (i_shape x)) 8 p)) (vol (i_shape x)) = fsum (fun _ => f32_of_Z 1) (vol (i_shape x))).
    { apply red_ext. intros j Hj. rewrite HU by (apply inb_coord; auto). exact E1. }
    rewrite ES. pose proof (fsum_ones (vol (i_shape x))) as I. rewrite Z.min_r in I by (change (2 ^ 24)%Z with 16777216%Z; lia).
    change (2 ^ 24)%Z with (0 + 2 ^ 24)%Z. apply plus_int; [split; reflexivity|exact I|cbv; discriminate]. }
  assert (NC : clips o [x] = false).
  { unfold clips. rewrite EC. apply andb_false_iff. right. destruct EQ as (F & V). assert (ET : f32_of_Z 4096 *f f32_of_Z 4096 = f32_of_Z (2 ^ 24)) by (apply B2SF_inj; vm_compute; reflexivity). rewrite ET.
    destruct (@of_Z_int (2 ^ 24) ltac:(cbv; discriminate)) as (F2 & V2). rewrite Bltb_correct by auto. rewrite V, V2. apply Rlt_bool_false. lra. }
  split; [|split; [exact HU|split]].
  - intros ys HY. apply H. unfold clipped. rewrite NC. exact HY.
  - unfold squares. cbn [map fold_right]. rewrite vsum_flat, Rplus_0_r by auto. rewrite (rsum_ext (g := fun _ => 1)); [rewrite rsum_const; ring|].
    intros j Hj. rewrite HU by (apply inb_coord; auto). destruct (@of_Z_int 1 ltac:(cbv; discriminate)) as (_ & V1). rewrite V1. ring.
  - rewrite EC. apply (@of_Z_int 4096). cbv. discriminate.
Qed.
End Stagnation.

(** ** Concrete cases *)
Close Scope R_scope. Open Scope nat_scope.
Definition pf (ds : list N) (v g : list f32) : param K0 := @mkParam K0 (tf ds 1 v) (tf ds 1 g) [].
Definition cf (p : param K0) : contents K0 := @mkC K0 (fun c => at_ (p_value p) c 0) (fun c => at_ (p_grad p) c 0) (fun _ => None).
Definition xf (ds : list N) (v g : list f32) : item K0 := @mkI K0 0 (sh ds 1) (cf (pf ds v g)).
Lemma tf_elems ds (l : list f32) : succeeds (shape_new Debug ds 1) = true -> (batch (sh ds 1) * volume (sh ds 1) <=? 2147483648)%N = true -> tot (sh ds 1) <= length l -> bat (sh ds 1) = 1 ->
  elems (K := K0) 0 (sh ds 1) (fun c => at_ (tf ds 1 l) c 0) (tf ds 1 l).
Proof.
  intros H1 H2 H3 HB. split; [exact HB|]. split; [apply tf_ready; auto; [reflexivity|apply Nat.leb_le; exact H3]|]. split; [reflexivity|]. intros c b Hc Hb. rewrite HB in Hb. replace b with 0 by lia. reflexivity.
Qed.
Lemma pf_ok ds v g : succeeds (shape_new Debug ds 1) = true -> (batch (sh ds 1) * volume (sh ds 1) <=? 2147483648)%N = true -> tot (sh ds 1) <= length v -> tot (sh ds 1) <= length g -> bat (sh ds 1) = 1 ->
  are_params [xf ds v g] [pf ds v g].
Proof.
  intros. constructor; [|constructor]. split; [apply tf_elems; auto|]. split; [apply tf_elems; auto|]. intros n. exact I.
Qed.
(** SGD with learning rate 1, clipping at 1 *)
Definition oc : opt K0 := @mkOpt K0 0 (f32_of_Z 1) (f32_of_Z 0) (f32_of_Z 1) (SGD (K := K0) (f32_of_Z 1)).
Definition big : f32 := f32_of_Z (2 ^ 70).
Definition new_values (p : param K0) : list SpecFloat.spec_float :=
  match update_parameters Release (fun _ _ _ => alf) oc [p] with Ok (_, [q]) => map (@B2SF 24 128) (firstn 2 (buf (p_value q))) | _ => [] end.
Example C69_applies :
  callable (M := libm0) (fun _ _ _ => alf) oc [xf [2]%N [v32 1; v32 2] [v32 3; v32 4]] [pf [2]%N [v32 1; v32 2] [v32 3; v32 4]] /\
  pos32 (o_clip oc) = true /\ finite (o_clip oc *f o_clip oc) = true /\ finite (o_scale oc *f f32_of_Z 1) = true /\
  new_values (pf [2]%N [v32 1; v32 2] [v32 3; v32 4]) = map (@B2SF 24 128) [v32 1 -f v32 3 *f (v32 1 /f v32 5); v32 2 -f v32 4 *f (v32 1 /f v32 5)] /\
  new_values (pf [2]%N [v32 1; v32 2] [big; v32 4]) = map (@B2SF 24 128) [v32 1; v32 2] /\
  new_values (pf [2]%N [v32 1; v32 2] [qnan; v32 4]) = map (@B2SF 24 128) [qnan; v32 (-2)] /\
  new_values (pf [2]%N [v32 1; v32 2] [inf; v32 4]) = map (@B2SF 24 128) [qnan; v32 2] /\
  (2 ^ 64 <= Rabs (val big))%R.
Proof.
  split.
  - split; [intros; exact alf_ok|]. split; [reflexivity|]. apply pf_ok; reflexivity || (cbv; lia).
  - do 7 (split; [vm_compute; reflexivity|]). unfold big. assert (E : val (f32_of_Z (2 ^ 70)) = IZR (2 ^ 70)).
    { rewrite <- (SF2R_B2SF 24 128). replace (B2SF (f32_of_Z (2 ^ 70))) with (SpecFloat.S754_finite false 8388608 47) by (vm_compute; reflexivity). unfold SF2R, F2R. cbn [cond_Zopp Fnum Fexp]. change (bpow radix2 47) with (IZR (2 ^ 47)). rewrite <- mult_IZR. reflexivity. }
    rewrite E, pow_IZR, Rabs_pos_eq by (apply IZR_le; cbv; discriminate). apply IZR_le. cbv. discriminate.
Qed.
(** 2^26 gradients of 1: norm 8192, clipping at 4096 does nothing *)
Definition os : opt K0 := @mkOpt K0 0 (f32_of_Z 1) (f32_of_Z 0) (f32_of_Z 4096) (SGD (K := K0) (f32_of_Z 1)).
Definition wide : shape := sh [67108864]%N 1.
Lemma wide_wf : wf wide. Proof. apply (@sh_is [67108864]%N 1%N); reflexivity. Qed.
Lemma wide_vol : N.of_nat (vol wide) = 67108864%N. Proof. rewrite (vol_spec wide_wf), N2Nat.id. reflexivity. Qed.
Definition ones : list f32 := repeat (f32_of_Z 1) (vol wide).
Example C69_stagnation_applies :
  let x := xf [67108864]%N ones ones in let p := pf [67108864]%N ones ones in
  callable (M := libm0) (fun _ _ _ => alf) os [x] [p] /\ pos32 (o_l2 os) = false /\ o_clip os = f32_of_Z 4096 /\ (16777216 <= N.of_nat (vol (i_shape x)))%N /\
  (forall c, inb (i_shape x) c -> c_grad (i_c x) c = f32_of_Z 1) /\
  steps_with Release (fun _ _ _ => alf) os [x] [p] (used os) /\ sqrt (squares [x] (used os)) = 8192%R.
Proof.
  intros x p. assert (BT : bat wide = 1) by reflexivity. assert (TT : tot wide = vol wide) by (unfold tot; rewrite BT; lia).
  assert (HC : callable (M := libm0) (fun _ _ _ => alf) os [x] [p]).
  { split; [intros; exact alf_ok|]. split; [reflexivity|]. assert (L : tot wide <= length ones) by (rewrite TT; unfold ones; rewrite repeat_length; apply Nat.le_refl). apply pf_ok; [reflexivity|reflexivity|exact L|exact L|exact BT]. }
  assert (HG : forall c, inb (i_shape x) c -> c_grad (i_c x) c = f32_of_Z 1).
  { intros c Hc. change (nth (pos wide c 0) ones (@n0 K0) = f32_of_Z 1). unfold ones. assert (P : pos wide c 0 < vol wide) by (rewrite <- TT; apply pos_lt; [exact wide_wf|exact Hc|lia]).
    rewrite (nth_indep _ _ (f32_of_Z 1)) by (rewrite repeat_length; exact P). apply nth_repeat. }
  assert (HV : (16777216 <= N.of_nat (vol (i_shape x)))%N) by (change (i_shape x) with wide; rewrite wide_vol; discriminate).
  destruct (@C69_norm_stagnates libm0 Release (fun _ _ _ => alf) os x [p] HC eq_refl eq_refl HV HG) as (H1 & _ & H2 & _).
  split; [exact HC|]. split; [reflexivity|]. split; [reflexivity|]. split; [exact HV|]. split; [exact HG|]. split; [exact H1|].
  rewrite H2. change (i_shape x) with wide. rewrite INR_IZR_INZ, <- nat_N_Z, wide_vol. change (Z.of_N 67108864) with (8192 * 8192)%Z. rewrite mult_IZR. apply sqrt_square. lra.
Qed.
