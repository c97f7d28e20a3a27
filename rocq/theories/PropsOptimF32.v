(** * PropsOptimF32: C69 weight decay, gradient clipping and updates on binary32 *)
From Coq Require Import ZArith Reals Lra.
From Flocq Require Import Core IEEE754.BinarySingleNaN.
From Verif Require Import PropsElem PropsMove Float32 RSum Rounding PropsNan PropsFloat PropsOptim.
Set Implicit Arguments. Unset Strict Implicit.
Close Scope R_scope. Close Scope Z_scope. Open Scope nat_scope.
Notation val := (@B2R 24 128).

(** ** Squares and their sums *)
(** +infinity, or finite and not negative *)
Definition nn (x : f32) : Prop := x = B754_infinity false \/ (finite x = true /\ (0 <= val x)%R).
Lemma rnd_pos x : (0 <= x)%R -> (0 <= rnd x)%R.
Proof. intros H. unfold rnd. apply round_ge_generic; auto; try typeclasses eauto. apply generic_format_0. Qed.
Lemma rnd_mono x y : (x <= y)%R -> (rnd x <= rnd y)%R.
Proof. intros H. unfold rnd. apply round_le; auto; typeclasses eauto. Qed.
Lemma rnd_val (x : f32) : rnd (val x) = val x. Proof. apply C62_nearest. Qed.
Lemma rnd_1 : rnd 1 = 1%R. Proof. exact (@rnd_int 1 ltac:(cbv; discriminate)). Qed.
Lemma rnd_abs x : rnd (Rabs x) = Rabs (rnd x).
Proof. unfold rnd. apply (round_NE_abs radix2 (FLT_exp (-149) 24) x). Qed.
Lemma sq_nn (g : f32) : is_nan g = false -> nn (g *f g).
Proof.
  intros Ng. destruct g as [s|s| |s q e H]; try discriminate; try (left; destruct s; reflexivity).
  - right. destruct s; cbn; split; auto; lra.
  - set (g := B754_finite s q e H). pose proof (Bmult_correct 24 128 _ _ mode_NE g g) as C. rewrite rnd_fexp in C. destruct (Rlt_bool _ _).
    + right. destruct C as (E & F & _). rewrite E, F. split; [reflexivity|]. apply rnd_pos. apply Rle_0_sqr.
    + left. apply B2SF_inj. rewrite C. unfold binary_overflow. cbn. rewrite xorb_nilpotent. reflexivity.
Qed.
Lemma nn_plus (x y : f32) : nn x -> nn y -> nn (x +f y).
Proof.
  intros [->|(Fx & Px)] [->|(Fy & Py)].
  - left. reflexivity.
  - left. destruct y as [[]|?| |]; try discriminate; reflexivity.
  - left. destruct x as [[]|?| |]; try discriminate; reflexivity.
  - pose proof (Bplus_correct 24 128 _ _ mode_NE x y Fx Fy) as C. rewrite rnd_fexp in C. destruct (Rlt_bool _ _) eqn:L.
    + right. destruct C as (E & F & _). rewrite E, F. split; [reflexivity|]. apply rnd_pos. lra.
    + left. apply B2SF_inj. destruct C as (C & ES). rewrite C. unfold binary_overflow. cbn. f_equal.
      destruct x as [[]|?| |[] q e H]; try discriminate; auto; cbn in Px; try (exfalso; pose proof (F2R_lt_0 radix2 (Defs.Float radix2 (Z.neg q) e) ltac:(reflexivity)); lra).
      destruct y as [[]|?| |[] q e H]; try discriminate; auto; cbn in Py; try (exfalso; pose proof (F2R_lt_0 radix2 (Defs.Float radix2 (Z.neg q) e) ltac:(reflexivity)); lra).
Qed.
Lemma inf_plus_r (x : f32) : nn x -> x +f B754_infinity false = B754_infinity false.
Proof. intros [->|(F & _)]; [reflexivity|]. destruct x as [[]|?| |]; try discriminate; reflexivity. Qed.
Lemma nan_plus_l (x y : f32) : is_nan x = true -> is_nan (x +f y) = true.
Proof. destruct x; try discriminate. reflexivity. Qed.
Lemma nan_plus_r (x y : f32) : is_nan y = true -> is_nan (x +f y) = true.
Proof. intros H. rewrite add_comm32. apply nan_plus_l; auto. Qed.
Lemma fsum_nn A n : (forall j, j < n -> nn (A j)) -> nn (fsum A n).
Proof. induction n; intros H; [right; cbn; split; [reflexivity|lra]|]. rewrite red_S. apply nn_plus; auto. Qed.
Lemma fsum_inf A n : (forall j, j < n -> nn (A j)) -> (exists j, j < n /\ A j = B754_infinity false) -> fsum A n = B754_infinity false.
Proof.
  induction n; intros H (j & Hj & E); [lia|]. rewrite red_S. destruct (Nat.eq_dec j n) as [->|].
  - rewrite E. apply inf_plus_r. apply fsum_nn. auto.
  - rewrite IHn by (auto; exists j; split; auto; lia). rewrite add_comm32. apply inf_plus_r. auto.
Qed.
Lemma fsum_nan A n : (exists j, j < n /\ is_nan (A j) = true) -> is_nan (fsum A n) = true.
Proof.
  induction n; intros (j & Hj & E); [lia|]. rewrite red_S. destruct (Nat.eq_dec j n) as [->|]; [apply nan_plus_r; auto|apply nan_plus_l; apply IHn; exists j; split; auto; lia].
Qed.
Lemma sq_nan (g : f32) : is_nan g = true -> is_nan (g *f g) = true. Proof. destruct g; try discriminate. reflexivity. Qed.
(** 2^64 and more: the square is infinite *)
Definition huge (g : f32) : Prop := finite g = false \/ (2 ^ 64 <= Rabs (val g))%R.
Lemma sq_huge (g : f32) : is_nan g = false -> huge g -> g *f g = B754_infinity false.
Proof.
  intros Ng H. destruct (sq_nn Ng) as [E|(F & _)]; [exact E|]. exfalso. destruct (mult32 g g) as (C & _). destruct (proj1 C F) as (Fg & _ & L). destruct H as [H|H]; [congruence|].
  apply (Rlt_not_le _ _ L). rewrite <- rnd_abs, Rabs_mult.
  replace (bpow radix2 128) with (rnd (bpow radix2 128)). 2:{ unfold rnd. apply round_generic; [typeclasses eauto|]. apply generic_format_bpow. cbv. discriminate. }
  apply rnd_mono. change (bpow radix2 128) with (IZR (2 ^ 128)). replace (IZR (2 ^ 128)) with (2 ^ 64 * 2 ^ 64)%R by (rewrite <- pow_add, pow_IZR; reflexivity).
  apply Rmult_le_compat; auto; apply pow_le; lra.
Qed.

(** the factor of the clipping *)
Lemma clip_scale (t q : f32) : nn q -> pos32 t = true -> Bltb (t *f t) q = true -> finite (t /f Bsqrt mode_NE q) = true /\ (0 <= val (t /f Bsqrt mode_NE q) <= 1)%R.
Proof.
  intros [->|(Fq & Pq)] Hp HL.
  - unfold pos32 in Hp. destruct t as [[]|[]| |[]]; try discriminate; cbn; split; auto; lra.
  - assert (Nt : is_nan t = false) by (unfold pos32 in Hp; destruct t; try discriminate; reflexivity).
    destruct (sq_nn Nt) as [E|(F2 & _)]. { rewrite E in HL. destruct q as [?|[]| |[]]; discriminate. }
    destruct (mult32 t t) as (C1 & C2). destruct (proj1 C1 F2) as (Ft & _ & _). rewrite pos32_val in Hp by auto.
    rewrite Bltb_correct in HL by auto. rewrite (C2 F2) in HL. destruct (Rlt_bool_spec (rnd (val t * val t)) (val q)) as [L|]; [|discriminate].
    assert (L2 : (val t * val t < val q)%R). { apply Rnot_le_lt. intros Q. apply rnd_mono in Q. rewrite rnd_val in Q. lra. }
    assert (L3 : (val t <= sqrt (val q))%R). { rewrite <- (sqrt_square (val t)) by lra. apply sqrt_le_1_alt. lra. }
    destruct (sqrt32 q) as (ER & _). set (r := Bsqrt mode_NE q) in * . assert (L4 : (val t <= val r)%R). { rewrite ER, <- (rnd_val t). apply rnd_mono. exact L3. }
    destruct (@div32 t r ltac:(lra)) as (D1 & D2).
    assert (B : (0 <= rnd (val t / val r) <= 1)%R).
    { assert (0 < / val r)%R by (apply Rinv_0_lt_compat; lra). split; [apply rnd_pos; apply Rmult_le_pos; lra|]. apply Rle_trans with (rnd 1); [|rewrite rnd_1; lra]. apply rnd_mono. apply Rmult_le_reg_r with (val r); [lra|]. unfold Rdiv. rewrite Rmult_assoc, Rinv_l by lra. lra. }
    assert (FD : finite (t /f r) = true). { apply D1. split; [exact Ft|]. rewrite Rabs_pos_eq by lra. eapply Rle_lt_trans; [apply B|]. change (bpow radix2 128) with (IZR (2 ^ 128)). apply IZR_lt. reflexivity. }
    split; [exact FD|]. rewrite (D2 FD). exact B.
Qed.

Section C69.
Variable M : libm.
Variable m : build.
Notation K := (Fnum M).
Notation item := (item (Fnum M)).
Notation opt := (opt (Fnum M)).
(** ** Specification *)
(** the gradient element after weight decay *)
Definition used (o : opt) (x : item) (c : coord') : f32 :=
  let v := c_value (i_c x) c : f32 in let g := c_grad (i_c x) c : f32 in
  if pos32 (o_l2 o) then g +f v *f o_l2 o else g.
(** every / some gradient element of the parameters *)
Definition every (xs : list item) (P : item -> coord' -> Prop) : Prop := forall x c, In x xs -> inb (i_shape x) c -> P x c.
Definition some (xs : list item) (P : item -> coord' -> Prop) : Prop := exists x c, In x xs /\ inb (i_shape x) c /\ P x c.
(** [update_parameters] is one step of the bare rule of the optimizer (no decay, no clipping) with the gradients [G],
    after which the gradients are zero *)
Definition steps_with (als : nat -> nat -> nat -> alloc_oracle K) (o : opt) (xs : list item) (ps : list (param K)) (G : item -> coord' -> f32) : Prop :=
  forall ys : list item, Forall2 (fun x y => i_dev y = i_dev x /\ i_shape y = i_shape x /\
      exists z, stepped (o_algo o) (o_scale o) (o_epoch o + 1) (mkC (c_value (i_c x)) (G x : coord' -> F K) (c_stat (i_c x))) = Some z /\
        i_c y = mkC (c_value z) (fun _ => f32_of_Z 0 : F K) (c_stat z)) xs ys ->
  exists ps', update_parameters m als o ps = Ok (mkOpt (o_epoch o + 1) (o_scale o) (o_l2 o) (o_clip o) (o_algo o), ps') /\ are_params ys ps'.
(** a call that does not panic for a reason other than its numbers *)
Definition callable (als : nat -> nat -> nat -> alloc_oracle K) (o : opt) (xs : list item) (ps : list (param K)) : Prop :=
  (forall i j k, al_ok (als i j k)) /\ (o_epoch o < two32 - 1)%N /\ are_params xs ps.

(** ** The gradients that are used *)
Definition sqn (o : opt) (xs : list item) : f32 :=
  fold_left (fun acc x => acc +f fsum (fun p => used o x (coord (ext (i_shape x)) 8 p) *f used o x (coord (ext (i_shape x)) 8 p)) (vol (i_shape x))) xs (f32_of_Z 0).
Definition clips (o : opt) (xs : list item) : bool := pos32 (o_clip o) && Bltb (o_clip o *f o_clip o) (sqn o xs).
Definition clipped (o : opt) (xs : list item) (x : item) (c : coord') : f32 :=
  if clips o xs then used o x c *f (o_clip o /f Bsqrt mode_NE (sqn o xs)) else used o x c.
Lemma steps_clipped als o xs ps : callable als o xs ps -> steps_with als o xs ps (clipped o xs).
Proof.
  intros (HA & HE & HP) ys HY. apply (@C46_update_parameters K m (proj2 (C61_commutes M)) als o xs ps ys HA HE HP).
  assert (EQ : prepared o xs = map (fun x => @mkI K (i_dev x) (i_shape x) (mkC (c_value (i_c x)) (clipped o xs x : coord' -> F K) (c_stat (i_c x)))) xs).
  { unfold prepared. set (xs1 := if nlt K (@n0 K) (o_l2 o) then _ else xs).
    assert (E1 : xs1 = map (fun x => @mkI K (i_dev x) (i_shape x) (mkC (c_value (i_c x)) (used o x : coord' -> F K) (c_stat (i_c x)))) xs).
    { unfold xs1, used, pos32. change (nlt K (@n0 K) (o_l2 o)) with (Bltb (f32_of_Z 0) (o_l2 o)). destruct (Bltb (f32_of_Z 0) (o_l2 o)).
      - reflexivity.
      - clear. induction xs as [|[d s [v g t]] xs IH]; [reflexivity|]. cbn [map]. rewrite <- IH. reflexivity. }
    assert (E2 : sq_sum xs1 = sqn o xs).
    { rewrite E1. unfold sq_sum, sqn. change (@n0 K) with (f32_of_Z 0). generalize (f32_of_Z 0) at 1 3. clear.
      induction xs as [|x xs IH]; [reflexivity|]. intros b. cbn [map fold_left]. rewrite IH. reflexivity. }
    rewrite E2, E1. unfold clipped. change (nlt K (@n0 K) (o_clip o) && nlt K (nmul K (o_clip o) (o_clip o)) (sqn o xs)) with (clips o xs).
    destruct (clips o xs); [|reflexivity]. rewrite map_map. reflexivity. }
  rewrite EQ. clear EQ HP. set (G := clipped o xs) in * . clearbody G. induction HY as [|x y xs' ys' H HY IH]; cbn [map]; constructor; auto.
Qed.

(** every element of a parameter is at a position *)
Lemma elems_coord d s (f : coord' -> F K) t c : elems d s f t -> inb s c -> f c = f (coord (ext s) 8 (pos s c 0)) /\ pos s c 0 < vol s.
Proof.
  intros HT Hc. pose proof (elems_ready HT) as HR. pose proof (elems_shape HT) as Es. pose proof (proj1 HT) as B1. pose proof (ready_wf HR) as W. rewrite Es in W.
  assert (P : pos s c 0 < vol s). { pose proof (@pos_lt s c 0 W Hc ltac:(lia)) as P. unfold tot in P. rewrite B1 in P. lia. }
  split; [|exact P]. rewrite <- (elems_at HT (c := c) (b := 0)) by (auto; lia). rewrite <- (elems_at HT (c := coord (ext s) 8 (pos s c 0)) (b := 0)) by (try apply inb_coord; auto; lia).
  rewrite !at_buf, Es, pos_coord by auto. reflexivity.
Qed.
Lemma used_coord o (x : item) p c : is_param (i_dev x) (i_shape x) (i_c x) p -> inb (i_shape x) c ->
  used o x c = used o x (coord (ext (i_shape x)) 8 (pos (i_shape x) c 0)) /\ pos (i_shape x) c 0 < vol (i_shape x).
Proof.
  intros (HV & HG & _) Hc. destruct (elems_coord HV Hc) as (E1 & P). destruct (elems_coord HG Hc) as (E2 & _). split; [|exact P]. unfold used. rewrite <- E1, <- E2. reflexivity.
Qed.
Lemma coord_inb (x : item) p n : is_param (i_dev x) (i_shape x) (i_c x) p -> n < vol (i_shape x) -> inb (i_shape x) (coord (ext (i_shape x)) 8 n).
Proof. intros (HV & _) Hn. apply inb_coord; auto. pose proof (ready_wf (elems_ready HV)) as W. rewrite (elems_shape HV) in W. exact W. Qed.

Lemma sqn_fold o (xs : list item) ps : are_params xs ps -> forall a : f32,
  let q := fold_left (fun acc x => acc +f fsum (fun p => used o x (coord (ext (i_shape x)) 8 p) *f used o x (coord (ext (i_shape x)) 8 p)) (vol (i_shape x))) xs a in
  ((is_nan a = true \/ some xs (fun x c => is_nan (used o x c) = true)) -> is_nan q = true) /\
  (nn a -> every xs (fun x c => is_nan (used o x c) = false) ->
     nn q /\ ((a = B754_infinity false \/ some xs (fun x c => huge (used o x c))) -> q = B754_infinity false)).
Proof.
  intros HP. induction HP as [|x p xs ps Hx HP IH]; intros a q.
  - cbn in q. subst q. split; [intros [H|(x & c & H & _)]; [auto|destruct H]|]. intros Ha _. split; [exact Ha|]. intros [H|(x & c & H & _)]; [auto|destruct H].
  - cbn [fold_left] in q. set (s := fsum _ _) in q. specialize (IH (a +f s)). fold q in IH. cbv zeta in IH. destruct IH as (I1 & I2). split.
    + intros H. apply I1. destruct H as [H|(y & c & [<-|Hy] & Hc & Hn)].
      * left. apply nan_plus_l; auto.
      * left. apply nan_plus_r. apply fsum_nan. destruct (used_coord o Hx Hc) as (E & L). exists (pos (i_shape x) c 0). split; [exact L|]. rewrite <- E. apply sq_nan; auto.
      * right. exists y, c. auto.
    + intros Ha HE. assert (SN : forall j, j < vol (i_shape x) -> nn (used o x (coord (ext (i_shape x)) 8 j) *f used o x (coord (ext (i_shape x)) 8 j))).
      { intros j Hj. apply sq_nn. apply HE; [left; reflexivity|]. apply (coord_inb Hx Hj). }
      pose proof (fsum_nn SN) as NS. destruct I2 as (I2 & I3); [apply nn_plus; auto|intros y c Hy Hc; apply HE; [right|]; auto|]. split; [exact I2|]. intros H. apply I3.
      destruct H as [H|(y & c & [<-|Hy] & Hc & Hh)].
      * left. rewrite H, add_comm32. apply inf_plus_r; auto.
      * left. assert (ES : s = B754_infinity false). { apply fsum_inf; [exact SN|]. destruct (used_coord o Hx Hc) as (E & L). exists (pos (i_shape x) c 0). split; [exact L|]. rewrite <- E. apply sq_huge; auto. apply HE; [left|]; auto. }
        rewrite ES. apply inf_plus_r; auto.
      * right. exists y, c. auto.
Qed.
Lemma sqn_nan o xs ps : are_params xs ps -> some xs (fun x c => is_nan (used o x c) = true) -> is_nan (sqn o xs) = true.
Proof. intros HP H. apply (@sqn_fold o xs ps HP (f32_of_Z 0)). auto. Qed.
Lemma nn_0 : nn (f32_of_Z 0). Proof. right. cbn. split; [reflexivity|lra]. Qed.
Lemma sqn_nn o xs ps : are_params xs ps -> every xs (fun x c => is_nan (used o x c) = false) -> nn (sqn o xs).
Proof. intros HP H. apply (@sqn_fold o xs ps HP (f32_of_Z 0)); auto using nn_0. Qed.
Lemma sqn_inf o xs ps : are_params xs ps -> every xs (fun x c => is_nan (used o x c) = false) -> some xs (fun x c => huge (used o x c)) -> sqn o xs = B754_infinity false.
Proof. intros HP H H2. apply (@sqn_fold o xs ps HP (f32_of_Z 0)); auto using nn_0. Qed.

(** ** C69 *)
(** a NaN among the gradients: no clipping at all, whatever the threshold *)
Theorem C69_nan_disables_clipping : forall als o xs ps, callable als o xs ps ->
  some xs (fun x c => is_nan (used o x c) = true) -> steps_with als o xs ps (used o).
Proof.
  intros als o xs ps HC HN. pose proof (steps_clipped HC) as H. destruct HC as (_ & _ & HP).
  assert (E : clips o xs = false). { unfold clips. rewrite ltb_nan_r by (apply (sqn_nan HP HN)). apply andb_false_r. }
  intros ys HY. apply H. unfold clipped. rewrite E. exact HY.
Qed.
(** a gradient of 2^64 or more (infinite ones included), no NaN: the squared norm is infinite, finite gradients
    are replaced by zeros and infinite ones by NaN *)
Theorem C69_overflow : forall als o xs ps, callable als o xs ps -> pos32 (o_clip o) = true -> finite (o_clip o *f o_clip o) = true ->
  every xs (fun x c => is_nan (used o x c) = false) -> some xs (fun x c => huge (used o x c)) ->
  exists G, steps_with als o xs ps G /\ every xs (fun x c => (finite (used o x c) = true -> finite (G x c) = true /\ val (G x c) = 0%R) /\ (finite (used o x c) = false -> is_nan (G x c) = true)).
Proof.
  intros als o xs ps HC Hp Hf HE HS. pose proof (steps_clipped HC) as H. destruct HC as (_ & _ & HP). exists (clipped o xs). split; [exact H|].
  pose proof (sqn_inf HP HE HS) as EQ. unfold clipped, clips. rewrite Hp, EQ. assert (LT : Bltb (o_clip o *f o_clip o) (B754_infinity false) = true) by (destruct (o_clip o *f o_clip o) as [?|[]| |[]]; try discriminate; reflexivity).
  rewrite LT. cbn [andb]. change (Bsqrt mode_NE (B754_infinity false)) with (B754_infinity false : f32).
  assert (FC : finite (o_clip o) = true) by (apply (proj1 (mult32 (o_clip o) (o_clip o))) in Hf; tauto).
  assert (EZ : o_clip o /f B754_infinity false = B754_zero false).
  { unfold pos32 in Hp. destruct (o_clip o) as [[]|?| |[]]; try discriminate; reflexivity. }
  rewrite EZ. intros x c Hx Hc. specialize (HE x c Hx Hc). cbv beta in HE. destruct (used o x c) as [[]|[]| |[]]; try discriminate; cbn; split; intros; try discriminate; auto; split; auto; lra.
Qed.
(** finite gradients: clipping never enlarges a gradient and never turns it around *)
Theorem C69_never_enlarges : forall als o xs ps, callable als o xs ps -> every xs (fun x c => finite (used o x c) = true) ->
  exists G, steps_with als o xs ps G /\ every xs (fun x c => finite (G x c) = true /\ (Rabs (val (G x c)) <= Rabs (val (used o x c)) /\ 0 <= val (G x c) * val (used o x c))%R).
Proof.
  intros als o xs ps HC HE. pose proof (steps_clipped HC) as H. destruct HC as (_ & _ & HP). exists (clipped o xs). split; [exact H|].
  assert (HN : every xs (fun x c => is_nan (used o x c) = false)). { intros x c Hx Hc. specialize (HE x c Hx Hc). cbv beta in HE. destruct (used o x c); try discriminate; reflexivity. }
  unfold clipped. destruct (clips o xs) eqn:EC.
  2:{ intros x c Hx Hc. split; [apply HE; auto|]. split; [lra|]. apply Rle_0_sqr. }
  assert (HK : finite (o_clip o /f Bsqrt mode_NE (sqn o xs)) = true /\ (0 <= val (o_clip o /f Bsqrt mode_NE (sqn o xs)) <= 1)%R).
  { unfold clips in EC. apply andb_true_iff in EC. destruct EC as (EP & EL). exact (@clip_scale (o_clip o) (sqn o xs) (sqn_nn HP HN) EP EL). }
  destruct HK as (FK & K0 & K1). set (k := o_clip o /f Bsqrt mode_NE (sqn o xs)) in * . intros x c Hx Hc. specialize (HE x c Hx Hc). cbv beta in HE. set (g := used o x c) in * .
  destruct (mult32 g k) as (C1 & C2). assert (LE : (Rabs (rnd (val g * val k)) <= Rabs (val g))%R).
  { rewrite <- rnd_abs, Rabs_mult, (Rabs_pos_eq (val k)) by auto. replace (Rabs (val g)) with (rnd (Rabs (val g))) by (rewrite rnd_abs, rnd_val; reflexivity). apply rnd_mono.
    rewrite <- (Rmult_1_r (Rabs (val g))) at 2. rewrite rnd_abs, rnd_val. apply Rmult_le_compat_l; auto. apply Rabs_pos. }
  assert (FR : finite (g *f k) = true). { apply C1. split; auto. split; auto. eapply Rle_lt_trans; [exact LE|]. apply abs_B2R_lt_emax. }
  split; [exact FR|]. rewrite (C2 FR). split; [exact LE|]. destruct (Rle_or_lt 0 (val g)) as [P|P].
  - apply Rmult_le_pos; auto. apply rnd_pos. apply Rmult_le_pos; auto.
  - assert (rnd (val g * val k) <= 0)%R. { replace 0%R with (rnd 0) by (unfold rnd; apply round_0; typeclasses eauto). apply rnd_mono. rewrite <- (Rmult_0_l (val k)). apply Rmult_le_compat_r; auto. lra. }
    replace (rnd (val g * val k) * val g)%R with ((- rnd (val g * val k)) * - val g)%R by ring. apply Rmult_le_pos; lra.
Qed.
(** ... with plain gradient descent: the parameters stay where they are *)
Theorem C69_overflow_stops_sgd : forall als o eta xs ps, callable als o xs ps -> o_algo o = SGD (eta : F K) -> pos32 (o_clip o) = true -> finite (o_clip o *f o_clip o) = true ->
  finite (o_scale o *f eta) = true ->
  every xs (fun x c => finite (c_value (i_c x) c) = true /\ finite (used o x c) = true) -> some xs (fun x c => (2 ^ 64 <= Rabs (val (used o x c)))%R) ->
  exists ps' ys, update_parameters m als o ps = Ok (mkOpt (o_epoch o + 1) (o_scale o) (o_l2 o) (o_clip o) (o_algo o), ps') /\ are_params ys ps' /\
    Forall2 (fun x y : item => i_dev y = i_dev x /\ i_shape y = i_shape x /\ forall c, inb (i_shape x) c ->
      finite (c_value (i_c y) c) = true /\ val (c_value (i_c y) c) = val (c_value (i_c x) c) /\ (val (c_value (i_c x) c) <> 0%R -> c_value (i_c y) c = c_value (i_c x) c)) xs ys.
Proof.
  intros als o eta xs ps HC EA Hp Hf HFe HE HS. destruct (@C69_overflow als o xs ps HC Hp Hf) as (G & HG & EG).
  - intros x c Hx Hc. destruct (HE x c Hx Hc) as (_ & F). destruct (used o x c); try discriminate; reflexivity.
  - destruct HS as (x & c & Hx & Hc & H). exists x, c. ssplit; auto. right. exact H.
  - set (up := fun x : item => @mkI K (i_dev x) (i_shape x) (mkC (fun c => c_value (i_c x) c -f G x c *f (o_scale o *f eta) : F K) (fun _ => f32_of_Z 0 : F K) (c_stat (i_c x)))).
    destruct (HG (map up xs)) as (ps' & E & HP').
    { clear - EA. induction xs as [|x xs IH]; cbn [map]; constructor; auto. split; [reflexivity|]. split; [reflexivity|]. rewrite EA. eexists. split; [reflexivity|reflexivity]. }
    exists ps', (map up xs). split; [exact E|]. split; [exact HP'|]. assert (HI : forall x, In x xs -> In x xs) by auto. revert HI. generalize xs at 1 3 4. intros l HI.
    induction l as [|x l IH]; cbn [map]; constructor; [|apply IH; intros y Hy; apply HI; right; auto]. split; [reflexivity|]. split; [reflexivity|]. intros c Hc.
    destruct (HE x c (HI x (or_introl eq_refl)) Hc) as (FV & FU). destruct (EG x c (HI x (or_introl eq_refl)) Hc) as (EG1 & _). destruct (EG1 FU) as (FG & VG).
    cbn [up i_c c_value]. set (v := c_value (i_c x) c : f32) in * . set (g := G x c) in * . set (e := o_scale o *f eta) in * .
    assert (EZ : exists s, g *f e = B754_zero s). { destruct g as [s|?| |s q ex Hq]; try discriminate. { destruct e; try discriminate; eexists; reflexivity. } exfalso. apply (eq_0_F2R radix2 (cond_Zopp s (Z.pos q)) ex) in VG. destruct s; discriminate. }
    destruct EZ as (s & EZ). rewrite EZ. change (F K) with f32. destruct v as [sv|?| |sv qv ev Hv]; try discriminate.
    + destruct sv, s; cbn; ssplit; auto; intros Q; exfalso; apply Q; reflexivity.
    + cbn. ssplit; auto.
Qed.
End C69.
