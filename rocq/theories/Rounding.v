(** * Rounding: sums and products of binary32 numbers against exact ones *)
From Coq Require Import ZArith Reals Lra Psatz.
From Flocq Require Import Core IEEE754.BinarySingleNaN Plus_error Relative.
From Verif Require Import KLib Rnum RSum Float32.
Set Implicit Arguments. Unset Strict Implicit.
Open Scope R_scope.

(** the binary32 number next to a real, ties to even; subnormals included, no overflow *)
Definition rnd (x : R) : R := round radix2 (FLT_exp (-149) 24) ZnearestE x.
(** half the distance from 1 to the next number; half the smallest positive number *)
Definition u32r : R := / 2 ^ 24.
Definition eta32 : R := / 2 ^ 150.
Notation val := (@B2R 24 128).
Notation finite := (@is_finite 24 128).
Notation "x +f y" := (Bplus (prec := 24) (emax := 128) mode_NE x y) (at level 50, left associativity).
Notation "x -f y" := (Bminus (prec := 24) (emax := 128) mode_NE x y) (at level 50, left associativity).
Notation "x *f y" := (Bmult (prec := 24) (emax := 128) mode_NE x y) (at level 40, left associativity).
Notation "x /f y" := (Bdiv (prec := 24) (emax := 128) mode_NE x y) (at level 40, left associativity).

Lemma rnd_fexp x : round radix2 (SpecFloat.fexp 24 128) (round_mode mode_NE) x = rnd x.
Proof. reflexivity. Qed.
Lemma format32 (x : f32) : generic_format radix2 (FLT_exp (-149) 24) (val x).
Proof. apply (generic_format_B2R 24 128 x). Qed.
Lemma u_ro32 : u_ro radix2 24 = u32r.
Proof. unfold u_ro, u32r. change (bpow radix2 (Z.opp 24 + 1)) with (/ 8388608). replace (2 ^ 24) with 16777216 by (cbn; lra). lra. Qed.
Lemma u32r_pos : 0 < u32r. Proof. unfold u32r. apply Rinv_0_lt_compat. apply pow_lt. lra. Qed.
Lemma eta32_pos : 0 < eta32. Proof. unfold eta32. apply Rinv_0_lt_compat. apply pow_lt. lra. Qed.
Lemma overflow_inf (x : f32) s : B2SF x = binary_overflow 24 128 mode_NE s -> finite x = false.
Proof. destruct x; cbn; intros H; try discriminate; reflexivity. Qed.
Lemma Rlt_max x : (if Rlt_bool (Rabs x) (bpow radix2 128) then Rabs x < bpow radix2 128 else ~ Rabs x < bpow radix2 128).
Proof. destruct (Rlt_bool_spec (Rabs x) (bpow radix2 128)); [auto|]. apply Rle_not_lt. auto. Qed.

(** ** The four operations *)
Lemma plus32 (x y : f32) : (finite (x +f y) = true <-> finite x = true /\ finite y = true /\ Rabs (rnd (val x + val y)) < bpow radix2 128) /\
  (finite (x +f y) = true -> val (x +f y) = rnd (val x + val y)).
Proof.
  destruct (finite x) eqn:Fx; [destruct (finite y) eqn:Fy|].
  - pose proof (Bplus_correct 24 128 _ _ mode_NE x y Fx Fy) as H. rewrite rnd_fexp in H. pose proof (Rlt_max (rnd (val x + val y))) as L.
    destruct (Rlt_bool _ _).
    + destruct H as (H1 & H2 & _). split; [|auto]. tauto.
    + destruct H as (H1 & _). apply overflow_inf in H1. rewrite H1. split; [|discriminate]. split; [discriminate|]. tauto.
  - assert (finite (x +f y) = false) as ->. { destruct x as [?|?| |], y as [?|?| |]; try discriminate; cbn; auto. }
    split; [|discriminate]. split; [discriminate|]. intros (_ & Q & _). discriminate.
  - assert (finite (x +f y) = false) as ->. { destruct x as [?|[]| |], y as [?|[]| |]; try discriminate; cbn; auto. }
    split; [|discriminate]. split; [discriminate|]. intros (Q & _). discriminate.
Qed.
Lemma minus32 (x y : f32) : (finite (x -f y) = true <-> finite x = true /\ finite y = true /\ Rabs (rnd (val x - val y)) < bpow radix2 128) /\
  (finite (x -f y) = true -> val (x -f y) = rnd (val x - val y)).
Proof.
  destruct (finite x) eqn:Fx; [destruct (finite y) eqn:Fy|].
  - pose proof (Bminus_correct 24 128 _ _ mode_NE x y Fx Fy) as H. rewrite rnd_fexp in H. pose proof (Rlt_max (rnd (val x - val y))) as L.
    destruct (Rlt_bool _ _).
    + destruct H as (H1 & H2 & _). split; [|auto]. tauto.
    + destruct H as (H1 & _). apply overflow_inf in H1. rewrite H1. split; [|discriminate]. split; [discriminate|]. tauto.
  - assert (finite (x -f y) = false) as ->. { destruct x as [?|?| |], y as [?|?| |]; try discriminate; cbn; auto. }
    split; [|discriminate]. split; [discriminate|]. intros (_ & Q & _). discriminate.
  - assert (finite (x -f y) = false) as ->. { destruct x as [?|[]| |], y as [?|[]| |]; try discriminate; cbn; auto. }
    split; [|discriminate]. split; [discriminate|]. intros (Q & _). discriminate.
Qed.
Lemma mult32 (x y : f32) : (finite (x *f y) = true <-> finite x = true /\ finite y = true /\ Rabs (rnd (val x * val y)) < bpow radix2 128) /\
  (finite (x *f y) = true -> val (x *f y) = rnd (val x * val y)).
Proof.
  pose proof (Bmult_correct 24 128 _ _ mode_NE x y) as H. rewrite rnd_fexp in H. pose proof (Rlt_max (rnd (val x * val y))) as L.
  destruct (Rlt_bool _ _).
  - destruct H as (H1 & H2 & _). rewrite H2, andb_true_iff. tauto.
  - apply overflow_inf in H. rewrite H. split; [|discriminate]. split; [discriminate|]. tauto.
Qed.
Lemma div32 (x y : f32) : val y <> 0 -> (finite (x /f y) = true <-> finite x = true /\ Rabs (rnd (val x / val y)) < bpow radix2 128) /\
  (finite (x /f y) = true -> val (x /f y) = rnd (val x / val y)).
Proof.
  intros Hy. pose proof (Bdiv_correct 24 128 _ _ mode_NE x y Hy) as H. rewrite rnd_fexp in H. pose proof (Rlt_max (rnd (val x / val y))) as L.
  destruct (Rlt_bool _ _).
  - destruct H as (H1 & H2 & _). rewrite H2. tauto.
  - apply overflow_inf in H. rewrite H. split; [|discriminate]. split; [discriminate|]. tauto.
Qed.
Lemma sqrt32 (x : f32) : val (Bsqrt mode_NE x) = rnd (sqrt (val x)) /\
  (finite (Bsqrt mode_NE x) = true <-> finite x = true /\ 0 <= val x).
Proof.
  destruct (Bsqrt_correct 24 128 _ _ mode_NE x) as (H1 & H2 & _). rewrite rnd_fexp in H1. split; [exact H1|]. rewrite H2.
  destruct x as [?|?| |[] q e ?]; cbn; split; intros H; try discriminate; auto; try (destruct H; discriminate).
  - split; [reflexivity|lra].
  - exfalso. destruct H as (_ & H). apply (Rlt_not_le 0 (F2R (Defs.Float radix2 (Z.neg q) e))); [|exact H]. apply F2R_lt_0. reflexivity.
  - split; [reflexivity|]. apply F2R_ge_0. discriminate.
Qed.
(** [rnd] picks the nearest of all binary32 numbers *)
Lemma rnd_nearest (x : R) (z : f32) : Rabs (rnd x - x) <= Rabs (val z - x).
Proof. unfold rnd. destruct (round_N_pt radix2 (FLT_exp (-149) 24) (fun n => negb (Z.even n)) x) as (_ & H). apply H. apply format32. Qed.

(** ** Relative errors *)
Lemma plus_eps (x y : f32) : finite (x +f y) = true -> exists eps, Rabs eps <= u32r /\ val (x +f y) = (val x + val y) * (1 + eps).
Proof.
  intros H. destruct (plus32 x y) as (_ & E). rewrite (E H). unfold rnd.
  destruct (FLT_plus_error_N_ex radix2 (-149) 24 (fun n => negb (Z.even n)) _ _ (format32 x) (format32 y)) as (eps & H1 & H2).
  exists eps. split; [|exact H2]. eapply Rle_trans; [exact H1|]. rewrite u_ro32. pose proof u32r_pos. apply Rmult_le_reg_r with (1 + u32r); [lra|].
  unfold Rdiv. rewrite Rmult_assoc, Rinv_l by lra. nra.
Qed.
Lemma rnd_eps (x : R) : Rabs (rnd x - x) <= u32r * Rabs x + eta32.
Proof.
  unfold rnd. destruct (relative_error_N_FLT'_ex radix2 (-149) 24 ltac:(reflexivity) (fun n => negb (Z.even n)) x) as (eps & et & H1 & H2 & _ & H3).
  rewrite H3. replace (x * (1 + eps) + et - x) with (x * eps + et) by ring. eapply Rle_trans; [apply Rabs_triang|]. rewrite Rabs_mult.
  apply Rplus_le_compat.
  - rewrite Rmult_comm. apply Rmult_le_compat_r; [apply Rabs_pos|]. eapply Rle_trans; [exact H1|]. rewrite u_ro32. pose proof u32r_pos.
    apply Rmult_le_reg_r with (1 + u32r); [lra|]. unfold Rdiv. rewrite Rmult_assoc, Rinv_l by lra. nra.
  - eapply Rle_trans; [exact H2|]. unfold eta32. change (bpow radix2 (-149)) with (/ IZR (Z.pow_pos 2 149)).
    rewrite <- (Rinv_mult 2). apply Req_le. f_equal. change (Z.pow_pos 2 149) with (2 ^ 149)%Z. rewrite (pow_IZR 2 150), <- mult_IZR. f_equal.
Qed.

(** ** Sums, from left to right, starting at zero *)
Notation fzero := (f32_of_Z 0).
Notation fsum := (red (fun x y : f32 => x +f y) fzero).
Lemma pow_c_le j k : (j <= k)%nat -> (1 + u32r) ^ j <= (1 + u32r) ^ k.
Proof. intros H. apply Rle_pow; auto. pose proof u32r_pos. lra. Qed.
Lemma rsum_le n f g : (forall i, (i < n)%nat -> f i <= g i) -> rsum n f <= rsum n g.
Proof. induction n; cbn; intros H; [lra|]. apply Rplus_le_compat; auto. Qed.
Lemma rsum_Rabs n f : Rabs (rsum n f) <= rsum n (fun i => Rabs (f i)).
Proof. induction n; cbn; [rewrite Rabs_R0; lra|]. eapply Rle_trans; [apply Rabs_triang|]. lra. Qed.
Lemma rsum_const n c : rsum n (fun _ => c) = INR n * c.
Proof. induction n; [cbn; ring|]. cbn [rsum]. rewrite IHn, S_INR. ring. Qed.

(** terms that are themselves approximations: [A j] of [s j], with [k] roundings of magnitude [a j] and [e j] of underflow *)
Lemma sum_error (A : nat -> f32) (s a e : nat -> R) k n : (1 <= n)%nat ->
  finite (fsum A n) = true ->
  (forall j, (j < n)%nat -> finite (A j) = true -> Rabs (val (A j) - s j) <= ((1 + u32r) ^ k - 1) * a j + e j /\ Rabs (s j) <= a j /\ 0 <= e j) ->
  (forall j, (j < n)%nat -> finite (A j) = true) /\
  Rabs (val (fsum A n) - rsum n s) <= ((1 + u32r) ^ (k + (n - 1)) - 1) * rsum n a + (1 + u32r) ^ (n - 1) * rsum n e.
Proof.
  intros Hn. induction n as [|n IH]; [lia|]. clear Hn. rewrite red_S. intros HF HA.
  destruct (plus32 (fsum A n) (A n)) as (HFi & _). destruct (proj1 HFi HF) as (F1 & F2 & _).
  destruct (HA n ltac:(lia) F2) as (E2 & B2 & P2). destruct (Nat.eq_dec n 0) as [->|].
  - split; [intros j Hj; replace j with O by lia; exact F2|]. cbn [Nat.sub rsum]. rewrite Nat.add_0_r.
    assert (val (fsum A 0 +f A 0%nat) = val (A 0%nat)) as ->.
    { destruct (plus32 (fsum A 0) (A 0%nat)) as (_ & E). rewrite (E HF). change (val (fsum A 0)) with 0. rewrite Rplus_0_l. unfold rnd. apply round_generic; [apply valid_rnd_N|apply format32]. }
    replace (val (A 0%nat) - (0 + s 0%nat)) with (val (A 0%nat) - s 0%nat) by ring. eapply Rle_trans; [exact E2|]. cbn [pow]. lra.
  - destruct IH as (IH1 & IH2); [lia|exact F1|intros j Hj; apply HA; lia|].
    split. { intros j Hj. destruct (Nat.eq_dec j n) as [->|]; [exact F2|apply IH1; lia]. }
    destruct (plus_eps HF) as (eps & He & ->). cbn [rsum].
    set (T := val (fsum A n)) in *. set (t := val (A n)) in *. set (c := 1 + u32r) in *.
    assert (SA : Rabs (rsum n s) <= rsum n a).
    { eapply Rle_trans; [apply rsum_Rabs|]. apply rsum_le. intros i Hi. apply HA; auto. }
    assert (SE : 0 <= rsum n e). { apply rsum_nonneg. intros i Hi. apply HA; auto. }
    replace (S n - 1)%nat with n by lia. replace (k + (n - 1))%nat with (k + n - 1)%nat in IH2 by lia.
    pose proof u32r_pos as UP. 
    assert (C1 : c ^ (k + n) = c * c ^ (k + n - 1)). { replace (k + n)%nat with (S (k + n - 1)) at 1 by lia. reflexivity. }
    assert (C2 : c ^ n = c * c ^ (n - 1)). { replace n with (S (n - 1)) at 1 by lia. reflexivity. }
    assert (C3 : c ^ S k <= c ^ (k + n)) by (apply pow_c_le; lia). cbn [pow] in C3.
    assert (C4 : c ^ 1 <= c ^ n) by (apply pow_c_le; lia). rewrite pow_1 in C4.
    assert (EB : Rabs (1 + eps) <= c). { unfold c. eapply Rle_trans; [apply Rabs_triang|]. rewrite Rabs_R1. lra. }
    replace ((T + t) * (1 + eps) - (rsum n s + s n)) with ((T - rsum n s) * (1 + eps) + (t - s n) * (1 + eps) + eps * (rsum n s + s n)) by ring.
    eapply Rle_trans; [apply Rabs_triang|]. eapply Rle_trans; [apply Rplus_le_compat_r, Rabs_triang|]. rewrite !Rabs_mult.
    assert (X1 : Rabs (T - rsum n s) * Rabs (1 + eps) <= ((c ^ (k + n - 1) - 1) * rsum n a + c ^ (n - 1) * rsum n e) * c).
    { apply Rmult_le_compat; auto using Rabs_pos. }
    assert (X2 : Rabs (t - s n) * Rabs (1 + eps) <= ((c ^ k - 1) * a n + e n) * c).
    { apply Rmult_le_compat; auto using Rabs_pos. }
    assert (X3 : Rabs eps * Rabs (rsum n s + s n) <= u32r * (rsum n a + a n)).
    { apply Rmult_le_compat; auto using Rabs_pos. eapply Rle_trans; [apply Rabs_triang|]. lra. }
    assert (PA : 0 <= a n) by (eapply Rle_trans; [apply Rabs_pos|exact B2]).
    assert (Y1 : (c * c ^ k - 1) * a n <= (c ^ (k + n) - 1) * a n) by (apply Rmult_le_compat_r; lra).
    assert (Y2 : c * e n <= c ^ n * e n) by (apply Rmult_le_compat_r; lra).
    rewrite C1 in *. rewrite C2 in *. unfold c in *. lra.
Qed.
(** a plain sum: no error before the additions *)
Lemma fsum_error (A : nat -> f32) n : (1 <= n)%nat -> finite (fsum A n) = true ->
  (forall j, (j < n)%nat -> finite (A j) = true) /\
  Rabs (val (fsum A n) - rsum n (fun j => val (A j))) <= ((1 + u32r) ^ (n - 1) - 1) * rsum n (fun j => Rabs (val (A j))).
Proof.
  intros Hn HF. destruct (@sum_error A (fun j => val (A j)) (fun j => Rabs (val (A j))) (fun _ => 0) 0 n Hn HF) as (H1 & H2).
  { intros j Hj _. cbn [pow]. rewrite Rminus_diag_eq by reflexivity. rewrite Rabs_R0. lra. }
  split; [exact H1|]. cbn [Nat.add] in H2. rewrite (rsum_0 (n := n) (f := fun _ => 0)) in H2 by auto. lra.
Qed.
(** a sum of products by blocks of eight, as in the matrix product *)
Definition fblocks (f : nat -> f32) (n : nat) : f32 :=
  fsum (fun jb => fsum (fun t => f (jb * 8 + t)%nat) (Nat.min 8 (n - jb * 8))) ((n + 7) / 8).
Lemma blocks_rsum (f : nat -> R) n : rsum ((n + 7) / 8) (fun jb => rsum (Nat.min 8 (n - jb * 8)) (fun t => f (jb * 8 + t)%nat)) = rsum n f.
Proof.
  rewrite <- (rsum_blocks n f). unfold blocksum. rewrite rsum_red0. apply rsum_ext. intros i Hi. rewrite rsum_red0. reflexivity.
Qed.
Lemma block_size n jb : (jb < (n + 7) / 8)%nat -> (1 <= Nat.min 8 (n - jb * 8) <= 8)%nat.
Proof. intros H. pose proof (Nat.div_mod (n + 7) 8 ltac:(lia)). pose proof (Nat.mod_upper_bound (n + 7) 8). lia. Qed.
Lemma block_of n j : (j < n)%nat -> (j / 8 < (n + 7) / 8 /\ j mod 8 < Nat.min 8 (n - j / 8 * 8) /\ j / 8 * 8 + j mod 8 = j)%nat.
Proof.
  intros H. pose proof (Nat.div_mod (n + 7) 8 ltac:(lia)). pose proof (Nat.mod_upper_bound (n + 7) 8).
  pose proof (Nat.div_mod j 8 ltac:(lia)). pose proof (Nat.mod_upper_bound j 8). lia.
Qed.
Lemma fblocks_error (a b : nat -> f32) n : (1 <= n)%nat -> let p := fun j => a j *f b j in let nb := ((n + 7) / 8)%nat in
  finite (fblocks p n) = true ->
  (forall j, (j < n)%nat -> finite (a j) = true /\ finite (b j) = true) /\
  Rabs (val (fblocks p n) - rsum n (fun j => val (a j) * val (b j))) <=
    ((1 + u32r) ^ (nb + 7) - 1) * rsum n (fun j => Rabs (val (a j) * val (b j))) + (1 + u32r) ^ (nb + 6) * (INR n * eta32).
Proof.
  intros Hn p nb HF. assert (Hb : (1 <= nb)%nat). { unfold nb. pose proof (Nat.div_mod (n + 7) 8 ltac:(lia)). pose proof (Nat.mod_upper_bound (n + 7) 8). lia. }
  pose proof u32r_pos as UP. pose proof eta32_pos as EP. set (c := 1 + u32r) in *.
  set (bs := fun jb => Nat.min 8 (n - jb * 8)).
  set (s := fun jb => rsum (bs jb) (fun t => val (a (jb * 8 + t)%nat) * val (b (jb * 8 + t)%nat))).
  set (aa := fun jb => rsum (bs jb) (fun t => Rabs (val (a (jb * 8 + t)%nat) * val (b (jb * 8 + t)%nat)))).
  set (e := fun jb => c ^ 7 * rsum (bs jb) (fun _ => eta32)).
  assert (IN : forall jb, (jb < nb)%nat -> finite (fsum (fun t => p (jb * 8 + t)%nat) (bs jb)) = true ->
     (forall t, (t < bs jb)%nat -> finite (p (jb * 8 + t)%nat) = true) /\
     Rabs (val (fsum (fun t => p (jb * 8 + t)%nat) (bs jb)) - s jb) <= (c ^ 8 - 1) * aa jb + e jb).
  { intros jb Hjb HF1. pose proof (block_size Hjb) as SZ. fold (bs jb) in SZ.
    destruct (@sum_error (fun t => p (jb * 8 + t)%nat) (fun t => val (a (jb * 8 + t)%nat) * val (b (jb * 8 + t)%nat))
       (fun t => Rabs (val (a (jb * 8 + t)%nat) * val (b (jb * 8 + t)%nat))) (fun _ => eta32) 1 (bs jb) ltac:(lia) HF1) as (Q1 & Q2).
    { intros t Ht HFt. split; [|split; [lra|lra]]. rewrite pow_1. destruct (mult32 (a (jb * 8 + t)%nat) (b (jb * 8 + t)%nat)) as (_ & E).
      unfold p. rewrite (E HFt). eapply Rle_trans; [apply rnd_eps|]. unfold c. lra. }
    fold c in Q2. split; [exact Q1|]. eapply Rle_trans; [exact Q2|]. apply Rplus_le_compat.
    - apply Rmult_le_compat_r; [apply rsum_nonneg; intros; apply Rabs_pos|]. pose proof (@pow_c_le (1 + (bs jb - 1)) 8 ltac:(lia)). fold c in H. lra.
    - unfold e. apply Rmult_le_compat_r; [apply rsum_nonneg; intros; lra|]. unfold c. apply pow_c_le. lia. }
  destruct (@sum_error (fun jb => fsum (fun t => p (jb * 8 + t)%nat) (bs jb)) s aa e 8 nb Hb HF) as (Q1 & Q2).
  { intros jb Hjb HF1. destruct (IN jb Hjb HF1) as (_ & Q). split; [exact Q|]. split; [apply rsum_Rabs|].
    unfold e. apply Rmult_le_pos; [apply pow_le; unfold c; lra|]. apply rsum_nonneg. intros; lra. }
  assert (FP : forall j, (j < n)%nat -> finite (p j) = true).
  { intros j Hj. destruct (block_of Hj) as (J1 & J2 & J3). rewrite <- J3. apply (IN (j / 8)%nat J1); auto. }
  split. { intros j Hj. destruct (mult32 (a j) (b j)) as (E & _). destruct (proj1 E (FP j Hj)) as (? & ? & _). auto. }
  unfold fblocks. fold nb. change (fun jb => fsum (fun t => p (jb * 8 + t)%nat) (Nat.min 8 (n - jb * 8))) with (fun jb => fsum (fun t => p (jb * 8 + t)%nat) (bs jb)).
  assert (ES : rsum nb s = rsum n (fun j => val (a j) * val (b j))) by (apply (@blocks_rsum (fun j => val (a j) * val (b j)) n)).
  assert (EA : rsum nb aa = rsum n (fun j => Rabs (val (a j) * val (b j)))) by (apply (@blocks_rsum (fun j => Rabs (val (a j) * val (b j))) n)).
  assert (EE : rsum nb e = c ^ 7 * (INR n * eta32)).
  { unfold e. rewrite rsum_scal. f_equal. rewrite <- rsum_const. apply (@blocks_rsum (fun _ => eta32) n). }
  rewrite ES, EA, EE in Q2. eapply Rle_trans; [exact Q2|]. fold c.
  replace (8 + (nb - 1))%nat with (nb + 7)%nat by lia.
  rewrite <- Rmult_assoc, <- pow_add. replace (nb - 1 + 7)%nat with (nb + 6)%nat by lia. lra.
Qed.

(** ** Small integers are exact *)
Lemma rnd_int (z : Z) : (Z.abs z <= 2 ^ 24)%Z -> rnd (IZR z) = IZR z.
Proof.
  intros H. unfold rnd. apply round_generic; [apply valid_rnd_N|].
  destruct (Z.eq_dec (Z.abs z) (2 ^ 24)) as [E|N].
  - assert (G : generic_format radix2 (FLT_exp (-149) 24) (IZR (2 ^ 24))).
    { change (IZR (2 ^ 24)) with (bpow radix2 24). apply generic_format_FLT_bpow; [reflexivity|]. discriminate. }
    destruct (Z.abs_eq_or_opp z) as [A|A]; rewrite A in E; [rewrite E; exact G|]. replace z with (- (2 ^ 24))%Z by lia. rewrite opp_IZR. apply generic_format_opp. exact G.
  - apply generic_format_FLT. exists (Defs.Float radix2 z 0); cbn [Fnum Fexp].
    + unfold F2R. cbn. ring.
    + change (Z.abs z < 2 ^ 24)%Z. lia.
    + discriminate.
Qed.
Lemma int_small (z : Z) : (Z.abs z <= 2 ^ 24)%Z -> Rabs (IZR z) < bpow radix2 128.
Proof. intros H. rewrite <- abs_IZR. change (bpow radix2 128) with (IZR (2 ^ 128)). apply IZR_lt. eapply Z.le_lt_trans; [exact H|]. reflexivity. Qed.
(** [x] is the integer [z] *)
Definition is_int (x : f32) (z : Z) : Prop := finite x = true /\ val x = IZR z.
Lemma of_Z_int z : (Z.abs z <= 2 ^ 24)%Z -> is_int (f32_of_Z z) z.
Proof.
  intros H. unfold is_int, f32_of_Z. pose proof (binary_normalize_correct 24 128 eq_refl eq_refl mode_NE z 0 false) as Q. cbv zeta in Q. rewrite rnd_fexp in Q.
  replace (F2R {| Defs.Fnum := z; Fexp := 0 |}) with (IZR z) in Q by (unfold F2R; cbn; ring). rewrite rnd_int in Q by auto.
  rewrite Rlt_bool_true in Q by (apply int_small; auto). destruct Q as (Q1 & Q2 & _). auto.
Qed.
Lemma plus_int x y p q : is_int x p -> is_int y q -> (Z.abs (p + q) <= 2 ^ 24)%Z -> is_int (x +f y) (p + q).
Proof.
  intros [Fx Ex] [Fy Ey] H. destruct (plus32 x y) as (Q1 & Q2). rewrite Ex, Ey, <- plus_IZR, rnd_int in Q1, Q2 by auto.
  assert (finite (x +f y) = true) as F by (apply Q1; auto using int_small). split; auto.
Qed.
Lemma mult_int x y p q : is_int x p -> is_int y q -> (Z.abs (p * q) <= 2 ^ 24)%Z -> is_int (x *f y) (p * q).
Proof.
  intros [Fx Ex] [Fy Ey] H. destruct (mult32 x y) as (Q1 & Q2). rewrite Ex, Ey, <- mult_IZR, rnd_int in Q1, Q2 by auto.
  assert (finite (x *f y) = true) as F by (apply Q1; auto using int_small). split; auto.
Qed.
Fixpoint zsum (n : nat) (f : nat -> Z) : Z := match n with O => 0%Z | S k => (zsum k f + f k)%Z end.
Lemma zsum_abs n f : (Z.abs (zsum n f) <= zsum n (fun j => Z.abs (f j)))%Z.
Proof. induction n; cbn [zsum]; lia. Qed.
Lemma zsum_nonneg n f : (0 <= zsum n (fun j => Z.abs (f j)))%Z.
Proof. induction n; cbn [zsum]; lia. Qed.
Lemma fsum_int (A : nat -> f32) (z : nat -> Z) n : (forall j, (j < n)%nat -> is_int (A j) (z j)) -> (zsum n (fun j => Z.abs (z j)) <= 2 ^ 24)%Z ->
  is_int (fsum A n) (zsum n z).
Proof.
  induction n as [|n IH]; intros HA HB.
  - split; reflexivity.
  - rewrite red_S. cbn [zsum] in *. apply plus_int; auto.
    + apply IH; [intros; apply HA; lia|lia].
    + pose proof (@zsum_abs n z). lia.
Qed.
Lemma zsum_ext n f g : (forall i, (i < n)%nat -> f i = g i) -> zsum n f = zsum n g.
Proof. induction n; cbn [zsum]; intros H; auto. rewrite IHn, H; auto. Qed.
Lemma zsum_IZR n f : IZR (zsum n f) = rsum n (fun j => IZR (f j)).
Proof. induction n; cbn; auto. rewrite plus_IZR, IHn. auto. Qed.
Lemma zsum_blocks (f : nat -> Z) n : zsum ((n + 7) / 8) (fun jb => zsum (Nat.min 8 (n - jb * 8)) (fun t => f (jb * 8 + t)%nat)) = zsum n f.
Proof.
  apply eq_IZR. rewrite !zsum_IZR. rewrite <- (blocks_rsum (fun j => IZR (f j)) n). apply rsum_ext. intros. apply zsum_IZR.
Qed.
Lemma zsum_le n f g : (forall i, (i < n)%nat -> (f i <= g i)%Z) -> (zsum n f <= zsum n g)%Z.
Proof. induction n; cbn [zsum]; intros H; [lia|]. specialize (IHn ltac:(intros; apply H; lia)). specialize (H n ltac:(lia)). lia. Qed.
Lemma zsum_one n f i : (i < n)%nat -> (f i <= zsum n (fun j => Z.abs (f j)))%Z.
Proof.
  induction n; intros H; [lia|]. cbn [zsum]. pose proof (@zsum_nonneg n f). destruct (Nat.eq_dec i n) as [->|]; [lia|]. specialize (IHn ltac:(lia)). lia.
Qed.
Lemma fblocks_int (a b : nat -> f32) (p q : nat -> Z) n : (forall j, (j < n)%nat -> is_int (a j) (p j) /\ is_int (b j) (q j)) ->
  (zsum n (fun j => Z.abs (p j * q j)) <= 2 ^ 24)%Z ->
  is_int (fblocks (fun j => a j *f b j) n) (zsum n (fun j => (p j * q j)%Z)).
Proof.
  intros HA HB. rewrite <- zsum_blocks. unfold fblocks.
  assert (BB : (zsum ((n + 7) / 8) (fun jb => zsum (Nat.min 8 (n - jb * 8)) (fun t => Z.abs (p (jb * 8 + t)%nat * q (jb * 8 + t)%nat))) <= 2 ^ 24)%Z).
  { rewrite (zsum_blocks (fun j => Z.abs (p j * q j)) n). exact HB. }
  assert (B1 : forall jb, (jb < (n + 7) / 8)%nat -> (zsum (Nat.min 8 (n - jb * 8)) (fun t => Z.abs (p (jb * 8 + t)%nat * q (jb * 8 + t)%nat)) <= 2 ^ 24)%Z).
  { intros jb Hjb. eapply Z.le_trans; [|exact BB]. eapply Z.le_trans; [apply (zsum_one (f := fun jb => zsum (Nat.min 8 (n - jb * 8)) (fun t => Z.abs (p (jb * 8 + t)%nat * q (jb * 8 + t)%nat))) Hjb)|].
    apply zsum_le. intros i Hi. rewrite Z.abs_eq; [lia|apply zsum_nonneg]. }
  assert (PP : forall j, (j < n)%nat -> is_int (a j *f b j) (p j * q j)).
  { intros j Hj. destruct (HA j Hj). apply mult_int; auto. eapply Z.le_trans; [|exact HB].
    eapply Z.le_trans; [apply (zsum_one (f := fun j => Z.abs (p j * q j)) Hj)|]. apply zsum_le. intros. lia. }
  apply fsum_int.
  - intros jb Hjb. apply fsum_int; [|apply B1; exact Hjb]. intros t Ht. apply PP. lia.
  - eapply Z.le_trans; [|exact BB]. apply zsum_le. intros jb Hjb. apply zsum_abs.
Qed.
