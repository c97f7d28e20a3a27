(** * PropsInit: C54 initializers and new_parameter *)
From Verif Require Export Init PropsOptim PropsReal.
Set Implicit Arguments.
Unset Strict Implicit.
Close Scope R_scope.
Open Scope nat_scope.

Section C54.
Variable K : num.
Notation F := (F K).
Notation tensor := (tensor K).
Variable m : build.

(** Specification: what an initializer makes of a shape. The samples are taken in storage order. *)
Definition filled (r : randomizer K) (i : initializer K) (s : shape) : res ((nat -> nat) -> nat -> F) :=
  match i with
  | Constant k => Ok (fun _ _ => k)
  | Normal mean sd => f <- rnd_normal r mean sd ;; Ok (fun c b => f (pos s c b))
  | Uniform lower upper => f <- rnd_uniform r lower upper ;; Ok (fun c b => f (pos s c b))
  | XavierUniform scale =>
      if forallb (fun d => ext s d =? 1) [2; 3; 4; 5; 6; 7] then
        let bound := nmul K scale (nsqrt K (ndiv K (nofZ K 6) (nofZ K (Z.of_nat (ext s 0 + ext s 1))))) in
        f <- rnd_uniform r (nneg K bound) bound ;; Ok (fun c b => f (pos s c b))
      else Panic
  end.

Lemma matrix_dec s : wf s -> is_matrix s = forallb (fun d => ext s d =? 1) [2; 3; 4; 5; 6; 7].
Proof.
  intros W. apply Bool.eq_true_iff_eq. rewrite (is_matrix_iff W), forallb_forall. split.
  - intros H d Hd. apply Nat.eqb_eq. unfold ext. rewrite H; [reflexivity|]. cbn in Hd. lia.
  - intros H d Hd. destruct (Nat.lt_ge_cases d 8) as [L|L].
    + assert (I : In d [2; 3; 4; 5; 6; 7]) by (cbn; lia). apply H in I. apply Nat.eqb_eq in I. unfold ext in I. lia.
    + pose proof (ext_ge8 W L) as E. unfold ext in E. lia.
Qed.
Lemma bound_ok s scale : fits s -> xavier_bound m scale s = Ok (nmul K scale (nsqrt K (ndiv K (nofZ K 6) (nofZ K (Z.of_nat (ext s 0 + ext s 1)))))).
Proof.
  intros HF. pose proof (fits_wf HF) as W. assert (B : N.to_nat (index s 0 + index s 1) = ext s 0 + ext s 1) by (unfold ext; lia).
  assert (L : ext s 0 * ext s 1 <= tot s).
  { unfold tot, vol, low. pose proof (bat_pos W). assert (P : prod_lt (ext s) 2 <= prod_lt (ext s) 8) by (apply prod_lt_le; [lia|intros; apply ext_pos; auto]). change (prod_lt (ext s) 2) with (1 * ext s 0 * ext s 1) in P. set (V := prod_lt (ext s) 8) in * . clearbody V. nia. }
  pose proof (@ext_pos s 0 W). pose proof (@ext_pos s 1 W). apply (proj1 (fits_tot W)) in HF.
  unfold xavier_bound, add32, norm32. change two32 with 4294967296%N. destruct (N.ltb_spec (index s 0 + index s 1) 4294967296) as [_|G].
  - cbn [bind]. do 5 f_equal. rewrite <- B. rewrite N_nat_Z. reflexivity.
  - exfalso. nia.
Qed.
Lemma value_of_flat d s (r : res tensor) (f : (nat -> nat) -> nat -> F) g : (forall c b, inb s c -> b < bat s -> g (pos s c b) = f c b) -> yields_flat r d s g -> yields r d s f.
Proof. intros H Y. eapply yields_of_flat; [exact Y|]. exact H. Qed.

(** applying an initializer to a fresh tensor *)
Lemma ini_filled d al r i s : al_ok al -> fits s ->
  match filled r i s with Ok f => yields (ini_apply m al r i (new_tensor K d s)) d s f | _ => True end /\ (filled r i s = Panic -> ini_apply m al r i (new_tensor K d s) = Panic).
Proof.
  intros HA HF. pose proof (fits_wf HF) as W.
  assert (RU : forall dr, match dr with Ok f => yields (y <- (y <- new_alloc m d al s ;; k_random m dr y) ;; replace (new_tensor K d s) y) d s (fun c b => f (pos s c b)) | _ => True end /\
     (dr = Panic -> (y <- (y <- new_alloc m d al s ;; k_random m dr y) ;; replace (new_tensor K d s) y) = Panic)).
  { intros dr. split.
    - destruct dr as [f| |]; auto. destruct (@random_flat K m d al s f HA HF) as (y & E & HY). rewrite E. cbn [bind]. destruct (replace_flat HY) as (t & Et & HT).
      apply (@value_of_flat d s _ _ (fun p => f p)); [auto|]. exists t. auto.
    - intros ->. rewrite (@random_Panic K m d al s HA HF). reflexivity. }
  destruct i as [k|mean sd|lower upper|scale]; cbn [filled ini_apply device_of new_tensor t_dev unwrap bind t_shape].
  - split; [|discriminate]. destruct (@by_constant_flat K m d al s k HA HF) as (y & E & HY). apply (@value_of_flat d s _ _ (fun _ => k)); [auto|]. exists y. auto.
  - unfold random_normal. destruct (RU (rnd_normal r mean sd)) as (A & B). destruct (rnd_normal r mean sd); cbn [bind]; split; auto; discriminate.
  - unfold random_uniform. destruct (RU (rnd_uniform r lower upper)) as (A & B). destruct (rnd_uniform r lower upper); cbn [bind]; split; auto; discriminate.
  - rewrite (matrix_dec W). destruct (forallb _ _); cbn [assert bind]; [|auto]. rewrite (bound_ok scale HF). cbn [bind]. set (bd := nmul K scale _).
    unfold random_uniform. destruct (RU (rnd_uniform r (nneg K bd) bd)) as (A & B). destruct (rnd_uniform r (nneg K bd) bd); cbn [bind]; split; auto; discriminate.
Qed.

(** new_parameter: the value as specified, whatever the buffers contained before; the gradient zero; no statistics *)
Theorem C54_new_parameter : forall d (al1 al2 : alloc_oracle K) (r : randomizer K) i s f, al_ok al1 -> al_ok al2 -> fits s -> bat s = 1 -> filled r i s = Ok f ->
  exists p, new_parameter m d al1 al2 r s i = Ok p /\ is_tensor d s f (p_value p) /\ is_tensor d s (fun _ _ => n0) (p_grad p) /\ p_stats p = [].
Proof.
  intros d al1 al2 r i s f H1 H2 HF HB E. destruct (@ini_filled d al1 r i s H1 HF) as (A & _). rewrite E in A. destruct A as (v & Ev & HV).
  destruct (@by_constant_flat K m d al2 s n0 H2 HF) as (g & Eg & HG). unfold new_parameter. rewrite Ev. cbn [bind]. unfold new_tensor_by_constant, new_alloc in Eg.
  destruct (alloc m al2 (new_tensor K d s)) as [g0| |]; cbn [bind] in Eg |- * ; try discriminate. rewrite Eg. cbn [bind]. unfold param_new. rewrite (is_tensor_shape HV). destruct HG as (G1 & G2 & G3). rewrite G2.
  replace (batch s =? 1)%N with true by (symmetry; apply N.eqb_eq; unfold bat in HB; lia). cbn [assert bind]. eexists. split; [reflexivity|]. cbn. split; [auto|]. split; [|auto].
  split; [auto|]. split; [auto|]. intros c b Hc Hb. unfold at_. destruct (ready_vt G1) as (_ & B & _). rewrite B, G2. apply G3. apply pos_lt; auto. apply (fits_wf HF).
Qed.
(** a distribution that cannot be made, and Xavier on something that is not a matrix, panic *)
Theorem C54_rejected : forall d (al1 al2 : alloc_oracle K) (r : randomizer K) i s, al_ok al1 -> fits s -> filled r i s = Panic -> new_parameter m d al1 al2 r s i = Panic.
Proof.
  intros d al1 al2 r i s H1 HF E. destruct (@ini_filled d al1 r i s H1 HF) as (_ & B). unfold new_parameter. rewrite (B E). reflexivity.
Qed.
(** a batched shape panics *)
Theorem C54_batched_panics : forall d (al1 al2 : alloc_oracle K) (r : randomizer K) i s, al_ok al1 -> al_ok al2 -> fits s -> bat s <> 1 -> filled r i s <> UB -> new_parameter m d al1 al2 r s i = Panic.
Proof.
  intros d al1 al2 r i s H1 H2 HF HB NU. destruct (filled r i s) as [f| |] eqn:E; [|apply C54_rejected; auto|congruence].
  destruct (@ini_filled d al1 r i s H1 HF) as (A & _). rewrite E in A. destruct A as (v & Ev & HV).
  destruct (@by_constant_flat K m d al2 s n0 H2 HF) as (g & Eg & HG). unfold new_parameter. rewrite Ev. cbn [bind]. unfold new_tensor_by_constant, new_alloc in Eg.
  destruct (alloc m al2 (new_tensor K d s)) as [g0| |]; cbn [bind] in Eg |- * ; try discriminate. rewrite Eg. cbn [bind]. unfold param_new. rewrite (is_tensor_shape HV).
  replace (batch s =? 1)%N with false by (symmetry; apply N.eqb_neq; unfold bat in HB; lia). reflexivity.
Qed.
(** random tensors on their own: random_bernoulli gives zeros and ones *)
Theorem C54_random_bernoulli : forall d (al : alloc_oracle K) (r : randomizer K) s p b, al_ok al -> fits s -> rnd_bernoulli r p = Ok b ->
  yields (random_bernoulli m d al r s p) d s (fun c k => nofB (b (pos s c k))).
Proof.
  intros d al r s p b HA HF E. unfold random_bernoulli. rewrite E. cbn [bits bind]. apply (@value_of_flat d s _ _ (fun p => nofB (b p))); [auto|]. apply random_flat; auto.
Qed.
Theorem C54_random_uniform_normal : forall d (al : alloc_oracle K) (r : randomizer K) s x y f, al_ok al -> fits s ->
  (rnd_uniform r x y = Ok f -> yields (random_uniform m d al r s x y) d s (fun c k => f (pos s c k))) /\
  (rnd_normal r x y = Ok f -> yields (random_normal m d al r s x y) d s (fun c k => f (pos s c k))).
Proof.
  intros d al r s x y f HA HF. split; intros E; [unfold random_uniform|unfold random_normal]; rewrite E; (apply (@value_of_flat d s _ _ (fun p => f p)); [auto|]; apply random_flat; auto).
Qed.
End C54.

(** over the reals, with a uniform distribution that keeps its bounds, Xavier's values lie within scale * sqrt (6 / (n + m)) *)
Section Real.
Open Scope R_scope.
Definition keeps_bounds (r : randomizer Rnum) : Prop := forall l u f, rnd_uniform r l u = Ok f -> forall i, l <= f i < u.
Theorem C54_xavier_range : forall m d al1 al2 r s scale p, al_ok al1 -> al_ok al2 -> keeps_bounds r -> fits s -> bat s = 1%nat ->
  new_parameter m d al1 al2 r s (@XavierUniform Rnum scale) = Ok p ->
  (forall i, (2 <= i)%nat -> ext s i = 1%nat) /\
  forall c, inb s c -> let B := scale * sqrt (6 / INR (ext s 0 + ext s 1)) in - B <= at_ (p_value p) c 0 < B.
Proof.
  intros m d al1 al2 r s scale p H1 H2 HK HF HB E. pose proof (fits_wf HF) as W.
  destruct (filled r (@XavierUniform Rnum scale) s) as [f| |] eqn:Ef.
  - destruct (@C54_new_parameter Rnum m d al1 al2 r _ s f H1 H2 HF HB Ef) as (p' & E' & HV & _). assert (p' = p) by congruence. subst p'. cbn [filled] in Ef.
    destruct (forallb _ _) eqn:M; [|discriminate]. split.
    + intros i Hi. rewrite <- (matrix_dec W) in M. pose proof (proj1 (is_matrix_iff W) M i Hi) as X. unfold ext. rewrite X. reflexivity.
    + intros c Hc B. cbv zeta in Ef. apply bind_Ok in Ef. destruct Ef as (g & Eg & Ef). injection Ef as Ef. subst f. rewrite (is_tensor_at HV) by (auto; rewrite HB; lia).
      pose proof (HK _ _ _ Eg (pos s c 0)) as L. cbn [nneg nmul nsqrt ndiv nofZ Rnum] in L. rewrite <- INR_IZR_INZ in L. exact L.
  - rewrite (@C54_rejected Rnum m d al1 al2 r _ s H1 HF Ef) in E. discriminate.
  - exfalso. revert E. cbn [filled] in Ef. destruct (forallb _ _) eqn:M; [|discriminate]. cbv zeta in Ef. set (bd := nmul Rnum scale _) in Ef.
    destruct (rnd_uniform r (nneg Rnum bd) bd) eqn:EU; cbn [bind] in Ef; try discriminate. unfold new_parameter, ini_apply, new_tensor. cbn [t_shape]. rewrite (matrix_dec W), M. cbn [assert bind].
    rewrite (bound_ok m scale HF). cbn [bind]. fold bd. cbn [device_of t_dev unwrap bind]. unfold random_uniform. rewrite EU. destruct (new_alloc m d al1 s) as [t'| |]; cbn [bind]; try discriminate.
    unfold k_random. destruct (ptr t'); cbn [bind]; try discriminate. destruct (size m (t_shape t')); cbn [bind]; try discriminate. destruct (_ <=? _)%nat; cbn [bind]; discriminate.
Qed.
End Real.
(** a concrete randomizer and a 2x3 parameter *)
Definition rz : randomizer Znum := @mkRandomizer Znum (fun _ => Ok (fun i => Nat.odd i)) (fun l u => if (l <? u)%Z then Ok (fun _ => l) else Panic) (fun mean _ => Ok (fun i => (mean + Z.of_nat i)%Z)).
Example C54_applies : fits (sh [2; 3]%N 1) /\ bat (sh [2; 3]%N 1) = 1 /\ (exists f, filled rz (@Uniform Znum 5 9)%Z (sh [2; 3]%N 1) = Ok f) /\
  filled rz (@Uniform Znum 9 5)%Z (sh [2; 3]%N 1) = Panic /\ filled rz (@XavierUniform Znum 1)%Z (sh [2; 3; 4]%N 1) = Panic.
Proof. split; [apply (sh_fits [2; 3]%N (b := 1%N)); reflexivity|]. split; [reflexivity|]. split; [eexists; reflexivity|]. split; reflexivity. Qed.
(** a randomizer over the reals that keeps its bounds, and a matrix the Xavier initializer accepts *)
Definition rrnd : randomizer Rnum := @mkRandomizer Rnum (fun _ => Panic) (fun l u => if Rltb l u then Ok (fun _ => l) else Panic) (fun _ _ => Panic).
Example C54_xavier_applies : keeps_bounds rrnd /\ exists f, filled rrnd (@XavierUniform Rnum 1%R) (sh [2; 3]%N 1) = Ok f.
Proof.
  split.
  - intros l u f E i. cbn in E. destruct (Rltb_spec l u) as [L|L]; [|discriminate]. injection E as E. subst f. lra.
  - cbn [filled]. change (forallb (fun d => ext (sh [2; 3]%N 1) d =? 1) [2; 3; 4; 5; 6; 7]) with true. cbv zeta iota.
    change (ext (sh [2; 3]%N 1) 0 + ext (sh [2; 3]%N 1) 1) with 5. change (Z.of_nat 5) with 5%Z. cbn [nmul nsqrt ndiv nofZ nneg Rnum].
    assert (P : (0 < 1 * sqrt (6 / 5))%R) by (rewrite Rmult_1_l; apply sqrt_lt_R0; lra).
    set (B := (1 * sqrt (6 / 5))%R) in * . clearbody B. cbn [rnd_uniform rrnd].
    assert (L : Rltb (- B) B = true) by (apply Rltb_true; lra). 
    eexists. etransitivity; [|reflexivity]. match goal with |- context [Rltb ?a ?b] => replace (Rltb a b) with true by (symmetry; exact L) end. cbn [bind]. reflexivity.
Qed.
