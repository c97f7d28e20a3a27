(** * PropsMinibatchGrad: the gradients of a minibatch are the sums of the gradients of its examples (C71) *)
From Verif Require Import NodeFacts.
From Verif Require Export PropsMinibatch PropsProgram NodeContrib.
From Coq Require Import Reals Lra.
Set Implicit Arguments.
Unset Strict Implicit.
Open Scope R_scope.
Notation shpr := (@t_shape Rnum).

Section Both.
Variable m : build.
Notation itp := (interp (K := Rnum) m).
Variables (d b B : nat) (g g1 : rgraph) (root : nat) (w w1 : nat -> rtensor).
Hypothesis GW : gwf g.
Hypothesis GW1 : gwf g1.
Hypothesis PL : placed itp g.
Hypothesis PL1 : placed itp g1.
Hypothesis SUP : forall i o, uses g root i -> nth_error (g_ops g) i = Some o -> supported d g o.
Hypothesis SUP1 : forall i o, uses g1 root i -> nth_error (g_ops g1) i = Some o -> supported d g1 o.
Hypothesis PW : forall i o v, uses g root i -> nth_error (g_ops g) i = Some o -> o_kind (oi_op o) = KParameter v -> ready d (w i) /\ t_shape (w i) = t_shape v.
Hypothesis PW1 : forall i o v, uses g1 root i -> nth_error (g_ops g1) i = Some o -> o_kind (oi_op o) = KParameter v -> ready d (w1 i) /\ t_shape (w1 i) = t_shape v.
Hypothesis RUN : run_on_example b g root g1.
Hypothesis KM : forall i o, uses g root i -> nth_error (g_ops g) i = Some o -> keeps_minibatch (o_kind (oi_op o)) (arg_shapes g o).
Hypothesis Hb : (b < B)%nat.
Hypothesis SZ : forall i o, uses g root i -> nth_error (g_ops g) i = Some o -> Forall (sized B) (map shpr (oi_vals o)).
Hypothesis EW : forall i o v, uses g root i -> nth_error (g_ops g) i = Some o -> o_kind (oi_op o) = KParameter v -> example_of b (w i) (w1 i).

Lemma run_uses : forall i j, uses g i j -> uses g root i -> uses g1 i j.
Proof.
  induction 1 as [i|i o n j Ho Hn Uj IH]; intros U; [constructor|]. destruct (RUN U Ho) as (o1 & Ho1 & EA & _). eapply uses_step; [exact Ho1|rewrite EA; exact Hn|]. apply IH. eapply GraphDiff.uses_arg; eauto.
Qed.
Lemma typed_with (g' : rgraph) (w' : nat -> rtensor) i o ss : supported d g' o -> (forall v, o_kind (oi_op o) = KParameter v -> ready d (w' i) /\ t_shape (w' i) = t_shape v) -> arg_shapes g' o = ss ->
  typed (o_kind (oi_op (with_param (w' i) o))) ss (map shpr (oi_vals o)).
Proof.
  intros S P E. pose proof (sup_typed S) as T. rewrite E in T. unfold with_param. destruct (o_kind (oi_op o)) eqn:EK; try (rewrite EK; auto; fail). destruct (P _ eq_refl) as (P1 & P2). cbn [oi_op o_kind typed] in * . rewrite P2. auto.
Qed.
Lemma both_params : forall i o, uses g root i -> nth_error (g_ops g) i = Some o -> exists ys ys1,
  eval itp (with_params w g) i = Ok ys /\ eval itp (with_params w1 g1) i = Ok ys1 /\ map shpr ys = map shpr (oi_vals o) /\ Forall2 (example_of b) ys ys1.
Proof.
  induction i as [i IH] using (well_founded_induction lt_wf). intros o U Ho. destruct (RUN U Ho) as (o1 & Ho1 & EA & HK). pose proof (run_uses U (uses_refl _ _)) as U1.
  destruct (eval_at GW PL SUP PW U Ho) as (xs & ys & X & RX & SX & E & RY & SY & VY). destruct (eval_at GW1 PL1 SUP1 PW1 U1 Ho1) as (xs1 & ys1 & X1 & RX1 & SX1 & E1 & RY1 & SY1 & VY1).
  exists ys, ys1. split; auto. split; auto. split; auto.
  assert (EX : Forall2 (example_of b) xs xs1).
  { rewrite EA in X1. assert (AX : forall n y y1, In n (oi_args o) -> eval_node itp (with_params w g) n = Ok y -> eval_node itp (with_params w1 g1) n = Ok y1 -> example_of b y y1).
    { intros n y y1 Hn Ey Ey1. destruct (gwf_args GW Ho Hn) as (L & p & Hp & _). destruct (IH (fst n) L p (GraphDiff.uses_arg U Ho Hn) Hp) as (zs & zs1 & Z & Z1 & _ & ZX). unfold eval_node in Ey, Ey1. rewrite Z in Ey. rewrite Z1 in Ey1. cbn [bind] in Ey, Ey1.
      apply idx_nth_inv in Ey. apply idx_nth_inv in Ey1. destruct (Forall2_at' ZX Ey) as (z & Hz & XZ). replace y1 with z by congruence. exact XZ. }
    clear - X X1 AX. revert xs xs1 X X1 AX. induction (oi_args o) as [|n l IHl]; intros xs xs1 X X1 AX.
    - cbn in X, X1. inversion X; inversion X1. constructor.
    - rewrite mapM_cons in X, X1. apply bind_Ok in X. destruct X as (y & Ey & X). apply bind_Ok in X. destruct X as (l2 & El & X). apply bind_Ok in X1. destruct X1 as (y1 & Ey1 & X1). apply bind_Ok in X1. destruct X1 as (l3 & El1 & X1). inversion X; inversion X1. constructor; [apply (AX n); auto; left; auto|]. apply IHl; auto. intros; eapply AX; eauto; right; auto. }
  assert (SS : Forall (sized B) (arg_shapes g o)).
  { unfold arg_shapes. rewrite Forall_map. apply Forall_forall. intros n Hn. destruct (gwf_args GW Ho Hn) as (L & p & Hp & L2 & _). pose proof (SZ (GraphDiff.uses_arg U Ho Hn) Hp) as Z. rewrite Forall_forall in Z. apply Z. unfold node_shape, value_of. rewrite (idx_nth Hp). cbn [bind].
    destruct (nth_error (oi_vals p) (snd n)) as [q|] eqn:Eq; [|apply nth_error_None in Eq; lia]. rewrite (idx_nth Eq). apply in_map. eapply nth_error_In; eauto. }
  pose proof (@typed_with g w i o _ (SUP U Ho) (fun v EK => PW U Ho EK) (eq_sym SX)) as TY. pose proof (@typed_with g1 w1 i o1 _ (SUP1 U1 Ho1) (fun v EK => PW1 U1 Ho1 EK) (eq_sym SX1)) as TY1.
  assert (HK' : for_example b (o_kind (oi_op (with_param (w i) o))) (o_kind (oi_op (with_param (w1 i) o1)))).
  { unfold with_param. pose proof (fun v => EW (v := v) U Ho) as EW'. destruct (o_kind (oi_op o)) eqn:EK; cbn [for_example] in HK; try (destruct HK; fail);
      try (destruct HK as (q & EQ & HQ); rewrite EQ; rewrite ?EK, ?EQ; cbn [o_kind oi_op for_example]; eauto; fail); rewrite HK; rewrite ?EK, ?HK; cbn [for_example]; reflexivity. }
  assert (KM' : keeps_minibatch (o_kind (oi_op (with_param (w i) o))) (map shpr xs)).
  { rewrite SX. pose proof (KM U Ho) as Q. unfold with_param. destruct (o_kind (oi_op o)) eqn:EK; rewrite ?EK; cbn [o_kind oi_op] in * ; auto; exact I. }
  assert (Wrs : forall s, In s (map shpr (oi_vals o)) -> wf s) by (intros s Hs; pose proof (sup_fits (SUP U Ho)) as F; rewrite Forall_forall in F; apply fits_wf; auto).
  destruct (for_example_sem Hb HK' KM' TY TY1 EX) as (LR & SEM); auto; [eapply Forall_impl; [|exact RX]; intros; eapply ready_wf; eauto|rewrite SX; auto|apply (SZ U Ho)|].
  assert (LL : length ys1 = length ys) by (rewrite <- (map_length shpr ys1), <- (map_length shpr ys), SY, SY1; auto).
  assert (PT : forall v y y1, nth_error ys v = Some y -> nth_error ys1 v = Some y1 -> example_of b y y1).
  { intros v y y1 Hv Hv1. assert (Es : nth_error (map shpr (oi_vals o)) v = Some (shpr y)) by (rewrite <- SY; apply map_nth_error; auto). assert (Es1 : nth_error (map shpr (oi_vals o1)) v = Some (shpr y1)) by (rewrite <- SY1; apply map_nth_error; auto).
    destruct (SEM v _ _ Es Es1) as (O & SE). split; [exact O|]. intros c Hc.
    assert (Zs : sized B (shpr y)). { pose proof (SZ U Ho) as Z. rewrite Forall_forall in Z. apply Z. eapply nth_error_In; eauto. } assert (Ws : wf (shpr y)) by (apply Wrs; eapply nth_error_In; eauto).
    pose proof (VY v _ c (bsel (shpr y) b) Es Hc (bsel_in Hb Ws Zs)) as V. pose proof (VY1 v _ c 0%nat Es1 (proj1 (one_inb c O) Hc)) as V1. rewrite (arg_nth Hv) in V. rewrite (arg_nth Hv1) in V1. rewrite V, V1; [apply SE; auto|]. destruct O as (_ & _ & ->). lia. }
  clear - LL PT. revert ys1 LL PT. induction ys as [|y ys IHl]; intros [|y1 ys1] LL PT; try discriminate; constructor.
  - apply (PT 0%nat); auto.
  - apply IHl; [cbn in LL; lia|]. intros v. apply (PT (S v)).
Qed.
End Both.

(** ** C71, gradients *)
Lemma example_tsum (y : rtensor) (ys : nat -> rtensor) B : wf (t_shape y) -> bat (t_shape y) = B -> (forall b, (b < B)%nat -> example_of b y (ys b)) ->
  tsum (t_shape y) (fun c b => at_ y c b) = rsum B (fun b => tsum (t_shape (ys b)) (fun c q => at_ (ys b) c q)).
Proof.
  intros W <- H. unfold tsum at 1. apply rsum_ext. intros b Hb. destruct (H b Hb) as ((W1 & E & E1) & V). unfold tsum. rewrite E1. cbn [rsum]. rewrite Rplus_0_l.
  assert (EE : vsum (t_shape (ys b)) (fun c => at_ (ys b) c 0%nat) = vsum (t_shape y) (fun c => at_ (ys b) c 0%nat)).
  { unfold vsum. generalize 8%nat as n, (fun c => at_ (ys b) c 0%nat : R). induction n as [|n IH]; intros f; cbn [csum]; auto. rewrite E. apply rsum_ext. intros j _. apply IH. }
  rewrite EE. apply vsum_ext; auto. intros c Hc. rewrite (V c Hc). f_equal. unfold bsel. destruct (Nat.eqb_spec (bat (t_shape y)) 1); [lia|auto].
Qed.
Lemma value_is (g : rgraph) j p v : nth_error (g_ops g) j = Some p -> o_kind (oi_op p) = KParameter v -> param_value g j = v.
Proof. intros Hp EK. unfold param_value, kind_of. rewrite Hp, EK. auto. Qed.
Lemma example_bump d b (v v1 : rtensor) c t : ready d v -> ready d v1 -> bat (t_shape v) = 1%nat -> example_of b v v1 -> inb (t_shape v) c -> example_of b (bump v c 0 t) (bump v1 c 0 t).
Proof.
  intros R R1 B1 ((W & E & E1) & V) Hc. split; [cbn; split; auto|]. cbn [t_shape bump with_buf]. intros c' Hc'. replace (bsel (t_shape v) b) with 0%nat by (unfold bsel; rewrite B1; reflexivity).
  assert (I1 : forall c0, inb (t_shape v) c0 -> inb (t_shape v1) c0) by (intros c0 H i; rewrite E; auto).
  rewrite (@bump_at d v c 0 t c' 0), (@bump_at d v1 c 0 t c' 0); auto; try lia. rewrite (V c' Hc'). replace (bsel (t_shape v) b) with 0%nat by (unfold bsel; rewrite B1; reflexivity).
  rewrite !(@pos_ext (t_shape v1) (t_shape v) _ _ 0 (fun i _ => E i) (fun i _ => eq_refl)). reflexivity.
Qed.

Section Gradients.
Variables (d : nat) (g : rgraph) (gs : nat -> rgraph) (n : nat * nat) (s : shape).
Hypothesis PG : program d g.
Hypothesis LG : loss_of g n.
Hypothesis ACC : all_acceptable g (fst n).
Hypothesis HS : SafeGraph4.node_shape g n = Some s.
Hypothesis EXS : forall b, (b < bat s)%nat -> program d (gs b) /\ loss_of (gs b) n /\ run_on_example b g (fst n) (gs b).

Lemma sup_of (g' : rgraph) : program d g' -> loss_of g' n -> forall i o, uses g' (fst n) i -> nth_error (g_ops g') i = Some o -> supported d g' o.
Proof. intros P L i o U Ho. eapply program_supported; eauto. eapply l_usable; eauto. Qed.
(** moving one number of a parameter *)
Lemma total_examples i o v c t : uses g (fst n) i -> nth_error (g_ops g) i = Some o -> o_kind (oi_op o) = KParameter v -> bat (t_shape v) = 1%nat -> inb (t_shape v) c ->
  total Debug (with_value i (bump v c 0 t) g) n = rsum (bat s) (fun b => total Debug (with_value i (bump (param_value (gs b) i) c 0 t) (gs b)) n).
Proof.
  intros U Ho EK B1 Hc. destruct (clean_inv (interp_lawful (K := Rnum) (m := Debug)) (program_clean PG)) as (GW & _).
  pose proof (history_placed (interp_lawful (K := Rnum) (m := Debug)) (clean_history (program_clean PG))) as PL.
  set (w := fun j => if Nat.eqb j i then bump v c 0 t else param_value g j). set (w1 := fun b j => if Nat.eqb j i then bump (param_value (gs b) i) c 0 t else param_value (gs b) j).
  assert (RV : ready d v) by (pose proof (sup_wt (sup_of PG LG U Ho)) as Q; rewrite EK in Q; exact Q).
  assert (HSo : exists on sn, nth_error (g_ops g) (fst n) = Some on /\ nth_error (map shpr (oi_vals on)) (snd n) = Some sn /\ sn = s).
  { pose proof HS as Q. unfold SafeGraph4.node_shape in Q. destruct (nth_error (g_ops g) (fst n)) as [on|]; [|discriminate]. eauto. }
  destruct HSo as (on & sn & Hon & Hsn & ->).
  assert (Ws : wf s) by (eapply shape_wf; [apply (session_ginv (program_session PG))|exact HS]).
  assert (BB : forall b, (b < bat s)%nat -> exists ys ys1, eval (interp Debug) (with_params w g) (fst n) = Ok ys /\ eval (interp Debug) (with_params (w1 b) (gs b)) (fst n) = Ok ys1 /\ map shpr ys = map shpr (oi_vals on) /\ Forall2 (example_of b) ys ys1).
  { intros b Hb. destruct (EXS Hb) as (P1 & L1 & RUN). destruct (clean_inv (interp_lawful (K := Rnum) (m := Debug)) (program_clean P1)) as (GW1 & _).
    pose proof (history_placed (interp_lawful (K := Rnum) (m := Debug)) (clean_history (program_clean P1))) as PL1.
    refine (@both_params Debug d b (bat s) g (gs b) (fst n) w (w1 b) GW GW1 PL PL1 (sup_of PG LG) (sup_of P1 L1) _ _ RUN _ Hb (sized_below PG RUN ACC HS) _ (fst n) on (uses_refl _ _) Hon).
    - intros j p v' Uj Hp EKp. unfold w. pose proof (sup_wt (sup_of PG LG Uj Hp)) as Q. rewrite EKp in Q. destruct (Nat.eqb_spec j i) as [->|]; [replace v' with v by congruence; apply bump_ready; auto|]. rewrite (value_is Hp EKp). auto.
    - intros j p v' Uj Hp EKp. unfold w1. pose proof (sup_wt (sup_of P1 L1 Uj Hp)) as Q. rewrite EKp in Q. destruct (Nat.eqb_spec j i) as [->|]; rewrite (value_is Hp EKp); auto. apply bump_ready; auto.
    - intros j p Uj Hp. destruct (program_op PG Hp) as (ss & AS & _). destruct (ACC Uj Hp AS) as (_ & M & _). pose proof (args_are AS) as Q. unfold arg_shapes. rewrite Q. exact M.
    - intros j p v' Uj Hp EKp. destruct (RUN j p Uj Hp) as (p1 & Hp1 & _ & HK). rewrite EKp in HK. cbn [for_example] in HK. destruct HK as (v1 & EK1 & X). unfold w, w1. destruct (Nat.eqb_spec j i) as [->|].
      + replace v' with v in X by congruence. rewrite (value_is Hp1 EK1). eapply example_bump; eauto. pose proof (sup_wt (sup_of P1 L1 (run_uses RUN Uj (uses_refl _ _)) Hp1)) as Q. rewrite EK1 in Q. exact Q.
      + rewrite (value_is Hp EKp), (value_is Hp1 EK1). exact X. }
  assert (B0 : (0 < bat s)%nat) by (pose proof (bat_pos Ws); lia).
  destruct (BB 0%nat B0) as (ys & _ & E & _ & SY & _). assert (Ey : exists y, nth_error ys (snd n) = Some y /\ t_shape y = s).
  { rewrite <- SY, nth_error_map in Hsn. destruct (nth_error ys (snd n)) as [y|]; [|discriminate]. cbn in Hsn. injection Hsn as <-. eauto. }
  destruct Ey as (y & Ey & Sy). unfold total at 1. unfold with_value at 1. fold w. unfold eval_node. rewrite E. cbn [bind]. rewrite (idx_nth Ey).
  pose (ysb := fun b => match eval_node (interp Debug) (with_params (w1 b) (gs b)) n with Ok z => z | _ => y end).
  rewrite (@example_tsum y ysb (bat s)); [|congruence|congruence|].
  - apply rsum_ext. intros b Hb. unfold total, with_value. fold (w1 b). unfold ysb. destruct (BB b Hb) as (zs & zs1 & Z & Z1 & _ & X). unfold eval_node. rewrite Z1. cbn [bind]. assert (zs = ys) by congruence. subst zs. destruct (Forall2_at' X Ey) as (z & Hz & _). rewrite (idx_nth Hz). reflexivity.
  - intros b Hb. unfold ysb. destruct (BB b Hb) as (zs & zs1 & Z & Z1 & _ & X). unfold eval_node. rewrite Z1. cbn [bind]. assert (zs = ys) by congruence. subst zs. destruct (Forall2_at' X Ey) as (z & Hz & XZ). rewrite (idx_nth Hz). exact XZ.
Qed.

(** what [n.backward()] adds to the gradient of a parameter on the minibatch is the sum of what it adds on the examples *)
Theorem C71_gradients : forall gal popf popb (gals : nat -> grad_alloc Rnum) popfs popbs, min_heap popf -> max_heap popb -> fair_grads gal ->
  (forall b, (b < bat s)%nat -> min_heap (popfs b) /\ max_heap (popbs b) /\ fair_grads (gals b)) ->
  exists g' gs', node_backward Debug (interp Debug) gal popf popb g n = Ok g' /\
    (forall b, (b < bat s)%nat -> node_backward Debug (interp Debug) (gals b) (popfs b) (popbs b) (gs b) n = Ok (gs' b)) /\
    forall i o v, uses g (fst n) i -> nth_error (g_ops g) i = Some o -> o_kind (oi_op o) = KParameter v -> bat (t_shape v) = 1%nat ->
    exists a a' (before after : nat -> rtensor), own_of g i = Some a /\ own_of g' i = Some a' /\
      (forall b, (b < bat s)%nat -> own_of (gs b) i = Some (before b) /\ own_of (gs' b) i = Some (after b)) /\
      forall c, inb (t_shape v) c -> at_ a' c 0 - at_ a c 0 = rsum (bat s) (fun b => at_ (after b) c 0 - at_ (before b) c 0).
Proof.
  intros gal popf popb gals popfs popbs HF HX HA HB. destruct (C38_programs PG LG HF HX HA) as (g' & E & _ & DG).
  pose (gs' := fun b => match node_backward Debug (interp Debug) (gals b) (popfs b) (popbs b) (gs b) n with Ok z => z | _ => g end).
  assert (DB : forall b, (b < bat s)%nat -> node_backward Debug (interp Debug) (gals b) (popfs b) (popbs b) (gs b) n = Ok (gs' b) /\
    forall i o v, uses (gs b) (fst n) i -> nth_error (g_ops (gs b)) i = Some o -> o_kind (oi_op o) = KParameter v -> exists a a', own_of (gs b) i = Some a /\ own_of (gs' b) i = Some a' /\ ready d a' /\ t_shape a' = t_shape v /\
      forall c q, inb (t_shape v) c -> (q < bat (t_shape v))%nat -> D (fun t => total Debug (with_value i (bump v c q t) (gs b)) n) (at_ a' c q - at_ a c q)).
  { intros b Hb. destruct (EXS Hb) as (P1 & L1 & _). destruct (HB b Hb) as (H1 & H2 & H3). destruct (C38_programs P1 L1 H1 H2 H3) as (z & Ez & _ & Dz). assert (Q : gs' b = z) by (unfold gs'; rewrite Ez; auto). rewrite Q. auto. }
  exists g', gs'. split; auto. split; [intros b Hb; apply (DB b Hb)|]. intros i o v U Ho EK B1. destruct (DG i o v U Ho EK) as (a & a' & A1 & A2 & _ & _ & DA).
  pose (before := fun b => match own_of (gs b) i with Some z => z | None => a end). pose (after := fun b => match own_of (gs' b) i with Some z => z | None => a end).
  assert (OB : forall b, (b < bat s)%nat -> own_of (gs b) i = Some (before b) /\ own_of (gs' b) i = Some (after b) /\
    forall c, inb (t_shape v) c -> D (fun t => total Debug (with_value i (bump (param_value (gs b) i) c 0 t) (gs b)) n) (at_ (after b) c 0 - at_ (before b) c 0)).
  { intros b Hb. destruct (EXS Hb) as (P1 & L1 & RUN). destruct (RUN i o U Ho) as (o1 & Ho1 & _ & HK). rewrite EK in HK. cbn [for_example] in HK. destruct HK as (v1 & EK1 & ((W1 & E1 & E2) & _)).
    destruct (proj2 (DB b Hb) i o1 v1 (run_uses RUN U (uses_refl _ _)) Ho1 EK1) as (a1 & a2 & Q1 & Q2 & _ & _ & DD). unfold before, after. rewrite Q1, Q2. split; auto. split; auto. intros c Hc. rewrite (value_is Ho1 EK1). apply DD; [intros j; rewrite E1; auto|lia]. }
  exists a, a', before, after. split; auto. split; auto. split; [intros b Hb; destruct (OB b Hb) as (Q1 & Q2 & _); auto|]. intros c Hc.
  assert (D1 : D (fun t => total Debug (with_value i (bump v c 0 t) g) n) (at_ a' c 0 - at_ a c 0)) by (apply DA; auto; lia).
  assert (D2 : D (fun t => total Debug (with_value i (bump v c 0 t) g) n) (rsum (bat s) (fun b => at_ (after b) c 0 - at_ (before b) c 0))).
  { eapply deriv_ext; [intros t; symmetry; apply (total_examples t U Ho EK B1 Hc)|]. cbv beta. apply (@deriv_rsum (bat s) (fun b t => total Debug (with_value i (bump (param_value (gs b) i) c 0 t) (gs b)) n)). intros b Hb. apply (OB b Hb); auto. }
  exact (uniqueness_limite _ _ _ _ D1 D2).
Qed.
End Gradients.

(** ** The sum and the mean over the minibatch *)
(** node [y] is made by an operator [k] from node [x] alone *)
Definition made (g : rgraph) (k : kind Rnum) (x y : nat * nat) : Prop := snd y = 0%nat /\ exists o, nth_error (g_ops g) (fst y) = Some o /\ o_kind (oi_op o) = k /\ oi_args o = [x].
Lemma made_uses (g : rgraph) k x y : made g k x y -> uses g (fst y) (fst x).
Proof. intros (_ & o & Ho & _ & EA). eapply uses_step; [exact Ho|rewrite EA; left; reflexivity|constructor]. Qed.
Lemma uses_made (g : rgraph) k x y i : made g k x y -> uses g (fst y) i -> i = fst y \/ uses g (fst x) i.
Proof. intros (_ & o & Ho & _ & EA) U. inversion U as [|i' o' n' j' Ho' Hn Uj]; subst; auto. right. replace o' with o in Hn by congruence. rewrite EA in Hn. destruct Hn as [<- | []]. exact Uj. Qed.
Lemma loss_over d (g : rgraph) k x y : program d g -> loss_of g x -> made g k x y -> (exists sx sy, typed k [sx] [sy] /\ node_shape g x = sx /\ usable k [sx] [sy] /\ forall o, nth_error (g_ops g) (fst y) = Some o -> map shpr (oi_vals o) = [sy]) ->
  (forall xs rs, smooth k xs rs) -> loss_of g y.
Proof.
  intros P L M (sx & sy & _ & NS & US & RS) SM. pose proof M as (Y0 & o & Ho & EK & EA). assert (AS : arg_shapes g o = [sx]) by (unfold arg_shapes; rewrite EA; cbn; rewrite NS; reflexivity). constructor.
  - split; auto. exists o. split; auto. rewrite <- (map_length shpr), (RS o Ho). reflexivity.
  - intros i p U Hp. destruct (@uses_made g k x y i M U) as [-> | Ux]; [|eapply (l_usable L); eauto]. replace p with o by congruence. rewrite AS, EK, (RS o Ho). exact US.
  - intros i p xs U Hp E. destruct (@uses_made g k x y i M U) as [-> | Ux]; [|apply (l_smooth L Ux Hp E)]. replace p with o by congruence. rewrite EK. apply SM.
  - intros i p v U NE Hp Hv. destruct (@uses_made g k x y i M U) as [Q | Ux]; [congruence|]. destruct (Nat.eq_dec i (fst x)) as [-> | NX].
    + exists (fst y). split; [constructor|]. unfold args_of. rewrite Ho, EA. left. destruct (l_one L) as (X0 & q & Hq & L1). replace p with q in Hv by congruence. destruct x as [x1 x2]. cbn in * . f_equal. lia.
    + destruct (l_used L Ux NX Hp Hv) as (j & Uj & Hj). exists j. split; auto. eapply uses_trans; [apply (made_uses M)|exact Uj].
Qed.
(** what [y] is, for any values of the parameters *)
Lemma made_value d (g : rgraph) k x y (w : nat -> rtensor) : program d g -> loss_of g y -> made g k x y -> (forall v, k <> KParameter v) ->
  (forall j p v, uses g (fst y) j -> nth_error (g_ops g) j = Some p -> o_kind (oi_op p) = KParameter v -> ready d (w j) /\ t_shape (w j) = t_shape v) ->
  exists tx ty, eval_node (interp Debug) (with_params w g) x = Ok tx /\ eval_node (interp Debug) (with_params w g) y = Ok ty /\ ready d tx /\ ready d ty /\ typed k [t_shape tx] [t_shape ty] /\
    forall c b, inb (t_shape ty) c -> (b < bat (t_shape ty))%nat -> at_ ty c b = sem k [tx] 0 c b.
Proof.
  intros P L M NP W. destruct (clean_inv (interp_lawful (K := Rnum) (m := Debug)) (program_clean P)) as (GW & _). pose proof (history_placed (interp_lawful (K := Rnum) (m := Debug)) (clean_history (program_clean P))) as PL.
  assert (SUP : forall i o, uses g (fst y) i -> nth_error (g_ops g) i = Some o -> supported d g o) by (intros i o U Ho; eapply program_supported; eauto; eapply l_usable; eauto).
  pose proof M as (Y0 & o & Ho & EK & EA). destruct (eval_at GW PL SUP W (uses_refl _ _) Ho) as (xs & ys & X & RX & SX & E & RY & SY & VY).
  rewrite EA in X. cbn [mapM] in X. apply bind_Ok in X. destruct X as (tx & Ex & X). cbn [bind] in X. injection X as <-. destruct (l_one L) as (_ & q & Hq & L1). replace q with o in L1 by congruence.
  assert (Ly : length ys = 1%nat) by (rewrite <- (map_length shpr ys), SY, map_length; auto). destruct ys as [|ty [|? ?]]; try discriminate. exists tx, ty. split; auto. unfold eval_node at 1. rewrite E. cbn [bind]. rewrite Y0. cbn [idx]. split; [reflexivity|].
  inversion RX; subst. inversion RY; subst. split; auto. split; auto. pose proof (sup_typed (SUP _ _ (uses_refl _ _) Ho)) as T. rewrite <- SX, <- SY in T. split; [exact T|].
  assert (EW : o_kind (oi_op (with_param (w (fst y)) o)) = o_kind (oi_op o)) by (unfold with_param; destruct (o_kind (oi_op o)) eqn:Q; rewrite ?Q; auto; exfalso; eapply NP; eauto).
  intros c b Hc Hb. specialize (VY 0%nat (t_shape ty) c b). rewrite <- SY in VY. cbn [map nth_error] in VY. specialize (VY eq_refl Hc Hb). rewrite EW in VY. exact VY.
Qed.

Lemma made_shapes d (g : rgraph) k x y o : program d g -> loss_of g x -> made g k x y -> (forall ss, checks_out k ss) -> nth_error (g_ops g) (fst y) = Some o ->
  exists sx, node_shape g x = sx /\ fits sx /\ typed k [sx] (map shpr (oi_vals o)).
Proof.
  intros P L (_ & o' & Ho' & EK & EA) CO Ho. replace o' with o in * by congruence. clear o' Ho'. destruct (program_op P Ho) as (ss & AS & _ & _ & _ & _ & _ & T). rewrite EK in T. specialize (T (CO ss)). pose proof (args_are AS) as Q. rewrite EA in Q. cbn [map] in Q. subst ss.
  exists (node_shape g x). split; auto. split; auto. unfold arguments_have in AS. rewrite EA in AS. inversion AS as [|? ? ? ? NS _]; subst. unfold SafeGraph4.node_shape in NS. destruct (nth_error (g_ops g) (fst x)) as [q|] eqn:Hq; [|discriminate].
  pose proof (proj1 (l_usable L (uses_refl _ _) Hq)) as F. rewrite Forall_forall in F. apply F. eapply nth_error_In; eauto.
Qed.
Lemma sum_loss d (g : rgraph) x y : program d g -> loss_of g x -> made g KBatchSum x y -> loss_of g y.
Proof.
  intros P L M. pose proof M as (_ & o & Ho & _). destruct (made_shapes P L M (fun _ => I) Ho) as (sx & NS & FX & (x' & sy & E & ES & T)). inversion E; subst x'. eapply loss_over; eauto.
  - exists sx, sy. split; [exists sx, sy; auto|]. split; auto. split; [split; [constructor; [|constructor]; eapply fits_one; [exact FX|exact T]|exact I]|]. intros q Hq. replace q with o by congruence. exact ES.
  - intros xs rs s c b _ _ _. cbn. auto.
Qed.
Lemma div_loss d (g : rgraph) (k : R) x y : program d g -> loss_of g x -> made g (KDivConstR (K := Rnum) k) x y -> k <> 0 -> loss_of g y.
Proof.
  intros P L M NZ. pose proof M as (_ & o & Ho & _). destruct (made_shapes P L M (fun _ => I) Ho) as (sx & NS & FX & (x' & sy & E & ES & T)). inversion E; subst x'. subst sy. eapply loss_over; eauto.
  - exists sx, sx. split; [exists sx, sx; auto|]. split; auto. split; [split; [constructor; [exact FX|constructor]|exact I]|]. intros q Hq. replace q with o by congruence. exact ES.
  - intros xs rs s c b _ _ _. cbn. auto.
Qed.
Lemma total_sum d (g : rgraph) x y (w : nat -> rtensor) : program d g -> loss_of g y -> made g KBatchSum x y ->
  (forall j p v, uses g (fst y) j -> nth_error (g_ops g) j = Some p -> o_kind (oi_op p) = KParameter v -> ready d (w j) /\ t_shape (w j) = t_shape v) ->
  total Debug (with_params w g) y = total Debug (with_params w g) x.
Proof.
  intros P L M W. destruct (@made_value d g _ x y w P L M) as (tx & ty & Ex & Ey & RX & RY & (x' & s' & E1 & E2 & T) & V); auto; [discriminate|]. injection E1 as <-. injection E2 as <-. destruct T as (WY & EE & B1).
  unfold total. rewrite Ex, Ey. transitivity (vsum (t_shape ty) (fun c => rsum (bat (t_shape tx)) (fun q => at_ tx c q))).
  - unfold tsum. rewrite B1. cbn [rsum]. rewrite Rplus_0_l. apply vsum_ext; auto. intros c Hc. rewrite V by (auto; lia). cbn [sem arg nth]. apply rsum_red0.
  - rewrite vsum_rsum. unfold tsum. apply rsum_ext. intros q Hq. apply vsum_same. auto.
Qed.
Lemma total_div d (g : rgraph) (k : R) x y (w : nat -> rtensor) : program d g -> loss_of g y -> made g (KDivConstR (K := Rnum) k) x y ->
  (forall j p v, uses g (fst y) j -> nth_error (g_ops g) j = Some p -> o_kind (oi_op p) = KParameter v -> ready d (w j) /\ t_shape (w j) = t_shape v) ->
  total Debug (with_params w g) y = / k * total Debug (with_params w g) x.
Proof.
  intros P L M W. destruct (@made_value d g _ x y w P L M) as (tx & ty & Ex & Ey & RX & RY & (x' & s' & E1 & E2 & T) & V); auto; [discriminate|]. injection E1 as <-. injection E2 as <-.
  unfold total. rewrite Ex, Ey, <- tsum_scal. rewrite T in * . apply tsum_ext; [rewrite <- T; apply (ready_wf RY)|]. intros c b Hc Hb. rewrite V by auto. cbn. unfold Rdiv. apply Rmult_comm.
Qed.

Lemma op1_made k (g g' : rgraph) bs x y : is_split k = false -> n_op1 Debug k g bs x = Ok (g', y) -> made g' k x y /\ forall i o, nth_error (g_ops g) i = Some o -> nth_error (g_ops g') i = Some o.
Proof.
  intros SP E. unfold n_op1, pop1, n_create in E. apply bind_Ok in E. destruct E as ([g1 ns] & E & E2). apply bind_Ok in E. destruct E as (dd & _ & E). apply create_inv in E. destruct E as (ss & rs & vals & grads & ds & _ & E1 & _ & _ & _ & _ & _ & _ & -> & ->).
  assert (L : length rs = 1%nat) by (eapply single_output; [exact SP|exact E1]). rewrite L in E2. cbn in E2. injection E2 as <- <-. split.
  - split; [reflexivity|]. eexists. split; [cbn; rewrite nth_error_app2, Nat.sub_diag by lia; reflexivity|]. split; reflexivity.
  - intros i o Ho. cbn. rewrite nth_error_app1; auto. eapply nth_error_Some_lt; eauto.
Qed.
Lemma made_mono (g g' : rgraph) k x y : (forall i o, nth_error (g_ops g) i = Some o -> nth_error (g_ops g') i = Some o) -> made g k x y -> made g' k x y.
Proof. intros H (A & o & B & C). split; auto. exists o. split; auto. Qed.
Section Mean.
Variables (d : nat) (g : rgraph) (gs : nat -> rgraph) (n : nat * nat) (s : shape).
Hypothesis PG : program d g.
Hypothesis LG : loss_of g n.
Hypothesis ACC : all_acceptable g (fst n).
Hypothesis HS : SafeGraph4.node_shape g n = Some s.
Hypothesis EXS : forall b, (b < bat s)%nat -> program d (gs b) /\ loss_of (gs b) n /\ run_on_example b g (fst n) (gs b).
(** the losses of the examples may also be added up ([y = n.batch_sum()]) and divided ([z = y / k], as in [n.batch_mean()]) first *)
Theorem C71_mean_gradients : forall (k : R) y z, k <> 0 -> made g KBatchSum n y -> made g (KDivConstR (K := Rnum) k) y z ->
  forall gal popf popb (gals : nat -> grad_alloc Rnum) popfs popbs, min_heap popf -> max_heap popb -> fair_grads gal ->
  (forall b, (b < bat s)%nat -> min_heap (popfs b) /\ max_heap (popbs b) /\ fair_grads (gals b)) ->
  exists g' gs', node_backward Debug (interp Debug) gal popf popb g z = Ok g' /\
    (forall b, (b < bat s)%nat -> node_backward Debug (interp Debug) (gals b) (popfs b) (popbs b) (gs b) n = Ok (gs' b)) /\
    forall i o v, uses g (fst n) i -> nth_error (g_ops g) i = Some o -> o_kind (oi_op o) = KParameter v -> bat (t_shape v) = 1%nat ->
    exists a a' (before after : nat -> rtensor), own_of g i = Some a /\ own_of g' i = Some a' /\
      (forall b, (b < bat s)%nat -> own_of (gs b) i = Some (before b) /\ own_of (gs' b) i = Some (after b)) /\
      forall c, inb (t_shape v) c -> at_ a' c 0 - at_ a c 0 = / k * rsum (bat s) (fun b => at_ (after b) c 0 - at_ (before b) c 0).
Proof.
  intros k y z NZ MY MZ gal popf popb gals popfs popbs HF HX HA HB. pose proof (sum_loss PG LG MY) as LY. pose proof (div_loss PG LY MZ NZ) as LZ.
  destruct (C38_programs PG LZ HF HX HA) as (g' & E & _ & DG). destruct (C38_programs PG LG HF HX HA) as (gn & Egn & _ & DN).
  destruct (@C71_gradients d g gs n s PG LG ACC HS EXS gal popf popb gals popfs popbs HF HX HA HB) as (gn' & gs' & En & EB & G). assert (EE : gn' = gn) by congruence. subst gn'.
  exists g', gs'. split; auto. split; auto. intros i o v U Ho EK B1. assert (Uz : uses g (fst z) i) by (eapply uses_trans; [apply (made_uses MZ)|]; eapply uses_trans; [apply (made_uses MY)|exact U]).
  destruct (DG i o v Uz Ho EK) as (a & a' & A1 & A2 & _ & _ & DA). destruct (G i o v U Ho EK B1) as (an & an' & bf & af & N1 & N2 & NB & NE). exists a, a', bf, af. split; auto. split; auto. split; auto. intros c Hc. rewrite <- NE by auto.
  destruct (DN i o v U Ho EK) as (b & b' & D1 & D2 & _ & _ & DD). replace b with an in * by congruence. replace b' with an' in * by congruence.
  assert (Dz : D (fun t => total Debug (with_value i (bump v c 0 t) g) z) (at_ a' c 0 - at_ a c 0)) by (apply DA; auto; lia). assert (Dn : D (fun t => total Debug (with_value i (bump v c 0 t) g) n) (at_ an' c 0 - at_ an c 0)) by (apply DD; auto; lia).
  assert (TT : forall t, total Debug (with_value i (bump v c 0 t) g) z = / k * total Debug (with_value i (bump v c 0 t) g) n).
  { intros t. assert (W : forall j p v', uses g (fst z) j -> nth_error (g_ops g) j = Some p -> o_kind (oi_op p) = KParameter v' -> ready d ((fun j => if Nat.eqb j i then bump v c 0 t else param_value g j) j) /\ t_shape ((fun j => if Nat.eqb j i then bump v c 0 t else param_value g j) j) = t_shape v').
    { intros j p v' Uj Hp EKp. cbv beta. pose proof (sup_wt (sup_of PG LZ Uj Hp)) as Q. rewrite EKp in Q. destruct (Nat.eqb_spec j i) as [->|]; [replace v' with v in * by congruence; apply bump_ready; auto|]. rewrite (value_is Hp EKp). auto. }
    unfold with_value. rewrite (total_div PG LZ MZ W), (total_sum PG LY MY); auto. intros j p v' Uj. apply W. eapply uses_trans; [apply (made_uses MZ)|exact Uj]. }
  assert (Dz' : D (fun t => total Debug (with_value i (bump v c 0 t) g) z) (/ k * (at_ an' c 0 - at_ an c 0))) by (eapply deriv_ext; [intros t; symmetry; apply TT|]; apply (derivable_pt_lim_scal _ (/ k)); exact Dn).
  exact (uniqueness_limite _ _ _ _ Dz Dz').
Qed.
(** [z = n.batch_mean()]: the gradients of the mean loss are the means of the gradients of the examples *)
Theorem C71_batch_mean : forall g0 bss z, n_batch_mean Debug g0 bss n = Ok (g, z) ->
  forall gal popf popb (gals : nat -> grad_alloc Rnum) popfs popbs, min_heap popf -> max_heap popb -> fair_grads gal ->
  (forall b, (b < bat s)%nat -> min_heap (popfs b) /\ max_heap (popbs b) /\ fair_grads (gals b)) ->
  exists g' gs', node_backward Debug (interp Debug) gal popf popb g z = Ok g' /\
    (forall b, (b < bat s)%nat -> node_backward Debug (interp Debug) (gals b) (popfs b) (popbs b) (gs b) n = Ok (gs' b)) /\
    forall i o v, uses g (fst n) i -> nth_error (g_ops g) i = Some o -> o_kind (oi_op o) = KParameter v -> bat (t_shape v) = 1%nat ->
    exists a a' (before after : nat -> rtensor), own_of g i = Some a /\ own_of g' i = Some a' /\
      (forall b, (b < bat s)%nat -> own_of (gs b) i = Some (before b) /\ own_of (gs' b) i = Some (after b)) /\
      forall c, inb (t_shape v) c -> at_ a' c 0 - at_ a c 0 = / INR (bat s) * rsum (bat s) (fun b => at_ (after b) c 0 - at_ (before b) c 0).
Proof.
  intros g0 bss z E. unfold n_batch_mean in E. apply bind_Ok in E. destruct E as ([g1 y] & E1 & E). apply bind_Ok in E. destruct E as (s' & ES & E). destruct (op1_made (k := KBatchSum) eq_refl E1) as (M1 & I1). destruct (op1_made (k := KDivConstR (K := Rnum) _) eq_refl E) as (M2 & I2).
  unfold n_shape in ES. apply bind_Ok in ES. destruct ES as (vx & Ev & ES). injection ES as <-. apply value_of_inv in Ev. destruct Ev as (p & Hp & Hv). apply I2 in Hp. assert (SS : t_shape vx = s). { pose proof HS as Q. unfold SafeGraph4.node_shape in Q. rewrite Hp, nth_error_map, Hv in Q. cbn in Q. congruence. }
  assert (WS : wf s) by (eapply shape_wf; [apply (session_ginv (program_session PG))|exact HS]).
  assert (EK : nofZ Rnum (Z.of_N (batch (t_shape vx))) = INR (bat s)) by (rewrite SS; cbn; rewrite INR_IZR_INZ; f_equal; unfold bat; lia). rewrite EK in M2.
  apply C71_mean_gradients with (y := y); auto. - apply not_0_INR. pose proof (bat_pos WS). lia. - eapply made_mono; eauto.
Qed.
End Mean.

(** *** A concrete case: the sum of w = (2, 3) times a minibatch of two examples (5, 7) and (11, 13) *)
Definition dot (x : rtensor) : res (rgraph * (nat * nat)) :=
  ' (g1, w) <- n_parameter Debug (@empty Rnum (oper Rnum)) br (PropsReal.tr 0 [2%N] 1 [2; 3]) (PropsReal.tr 0 [2%N] 1 [10; 20]) ;;
  ' (g2, x) <- n_input Debug g1 br x ;;
  ' (g3, y) <- n_mul Debug g2 br w x ;;
  n_sum Debug 0 g3 br y.
Definition dot_batch : rgraph := Eval lazy -[alr Rnum IZR] in fst (okv (@empty Rnum (oper Rnum), (0%nat, 0%nat)) (dot (PropsReal.tr 0 [2%N] 2 [5; 7; 11; 13]))).
Definition dot_second : rgraph := Eval lazy -[alr Rnum IZR] in fst (okv (@empty Rnum (oper Rnum), (0%nat, 0%nat)) (dot (PropsReal.tr 0 [2%N] 1 [11; 13]))).
Lemma dot_batch_eq : dot (PropsReal.tr 0 [2%N] 2 [5; 7; 11; 13]) = Ok (dot_batch, (3%nat, 0%nat)). Proof. reflexivity. Qed.
Lemma dot_second_eq : dot (PropsReal.tr 0 [2%N] 1 [11; 13]) = Ok (dot_second, (3%nat, 0%nat)). Proof. reflexivity. Qed.
Lemma dot_first_eq : dot (PropsReal.tr 0 [2%N] 1 [5; 7]) = Ok (loss_g, (3%nat, 0%nat)). Proof. reflexivity. Qed.
Lemma dot_program x g n : dot x = Ok (g, n) -> ready 0 x -> program 0 g.
Proof.
  intros E R. unfold dot in E. apply bind_Ok in E. destruct E as ([g1 w] & E1 & E). apply bind_Ok in E. destruct E as ([g2 x'] & E2 & E). apply bind_Ok in E. destruct E as ([g3 y] & E3 & E).
  refine (pr_op1 (k := KSum 0%N) _ br_fair eq_refl I E). refine (pr_op2 _ br_fair _ E3); [|right; right; left; reflexivity].
  refine (pr_input _ br_fair R E2). refine (pr_parameter (pr_empty Rnum 0) br_fair _ _ _ E1); [rdyr|rdyr|reflexivity].
Qed.
Lemma dot_uses g x i : dot x = Ok (g, (3%nat, 0%nat)) -> ready 0 x -> length (g_ops g) = 4%nat -> uses g 3 i -> (i < 4)%nat.
Proof. intros E R L U. destruct (clean_inv (interp_lawful (K := Rnum) (m := Debug)) (program_clean (dot_program E R))) as (W & _). assert (L3 : (3 < length (g_ops g))%nat) by lia. pose proof (uses_lt W U L3). lia. Qed.
Ltac dot_loss E := constructor;
  [ split; [reflexivity|eexists; split; reflexivity]
  | intros i o U Ho; assert (Li : (i < 4)%nat) by (eapply dot_uses; [exact E|rdyr|reflexivity|exact U]); destruct i as [|[|[|[|i]]]]; try lia; cbn in Ho; inversion Ho; subst o; clear Ho
  | intros i o xs U Ho EX; assert (Li : (i < 4)%nat) by (eapply dot_uses; [exact E|rdyr|reflexivity|exact U]); intros s c b ER Hc Hb; destruct i as [|[|[|[|i]]]]; try lia; cbn in Ho; inversion Ho; subst o; cbn; auto
  | intros i o v U NE Ho Lv; assert (Li : (i < 4)%nat) by (eapply dot_uses; [exact E|rdyr|reflexivity|exact U]); cbn [fst] in * ].
Ltac dot_used := match goal with |- exists j, uses ?g 3 j /\ _ =>
  assert (U2 : uses g 3 2) by (eapply uses_step with (n := (2%nat, 0%nat)); [reflexivity|left; reflexivity|constructor]) end.
Lemma dot_batch_loss : loss_of dot_batch (3%nat, 0%nat).
Proof.
  assert (F1 : fits (sh [2%N] 1)) by (apply sh_fits; reflexivity). assert (F2 : fits (sh [2%N] 2)) by (apply sh_fits; reflexivity). assert (F3 : fits (sh [] 2)) by (apply sh_fits; reflexivity).
  dot_loss dot_batch_eq.
  - split; [repeat (apply Forall_cons; [first [exact F1|exact F2|exact F3]|]); apply Forall_nil|exact I].
  - split; [repeat (apply Forall_cons; [first [exact F1|exact F2|exact F3]|]); apply Forall_nil|exact I].
  - split; [repeat (apply Forall_cons; [first [exact F1|exact F2|exact F3]|]); apply Forall_nil|exact I].
  - split; [repeat (apply Forall_cons; [first [exact F1|exact F2|exact F3]|]); apply Forall_nil|intros x E; inversion E; subst x; cbn; lia].
  - dot_used. destruct i as [|[|[|[|i]]]]; try lia; cbn in Ho; inversion Ho; subst o; cbn in Lv; assert (v = 0%nat) by lia; subst v.
    + exists 2%nat. split; [exact U2|left; reflexivity].
    + exists 2%nat. split; [exact U2|right; left; reflexivity].
    + exists 3%nat. split; [constructor|left; reflexivity].
Qed.
Lemma dot_second_loss : loss_of dot_second (3%nat, 0%nat).
Proof.
  assert (F1 : fits (sh [2%N] 1)) by (apply sh_fits; reflexivity). assert (F3 : fits (sh [] 1)) by (apply sh_fits; reflexivity).
  dot_loss dot_second_eq.
  - split; [repeat (apply Forall_cons; [first [exact F1|exact F3]|]); apply Forall_nil|exact I].
  - split; [repeat (apply Forall_cons; [first [exact F1|exact F3]|]); apply Forall_nil|exact I].
  - split; [repeat (apply Forall_cons; [first [exact F1|exact F3]|]); apply Forall_nil|exact I].
  - split; [repeat (apply Forall_cons; [first [exact F1|exact F3]|]); apply Forall_nil|intros x E; inversion E; subst x; cbn; lia].
  - dot_used. destruct i as [|[|[|[|i]]]]; try lia; cbn in Ho; inversion Ho; subst o; cbn in Lv; assert (v = 0%nat) by lia; subst v.
    + exists 2%nat. split; [exact U2|left; reflexivity].
    + exists 2%nat. split; [exact U2|right; left; reflexivity].
    + exists 3%nat. split; [constructor|left; reflexivity].
Qed.
Definition dots (b : nat) : rgraph := match b with O => loss_g | _ => dot_second end.
Lemma dot_runs b : (b < 2)%nat -> run_on_example b dot_batch 3 (dots b).
Proof.
  intros Hb i o U Ho. assert (W1 : wf (sh [2%N] 1)) by exact (proj1 (@sh_is [2%N] 1%N eq_refl eq_refl)).
  assert (CC : forall c, inb (sh [2%N] 1) c -> (c 0 < 2 /\ c 1 = 0 /\ c 2 = 0 /\ c 3 = 0 /\ c 4 = 0 /\ c 5 = 0 /\ c 6 = 0 /\ c 7 = 0)%nat).
  { intros c Hc. pose proof (Hc 0%nat) as H0. pose proof (Hc 1%nat) as H1. pose proof (Hc 2%nat) as H2. pose proof (Hc 3%nat) as H3. pose proof (Hc 4%nat) as H4. pose proof (Hc 5%nat) as H5. pose proof (Hc 6%nat) as H6. pose proof (Hc 7%nat) as H7. cbn in H0, H1, H2, H3, H4, H5, H6, H7. lia. }
  destruct b as [|[|b]]; try lia; destruct i as [|[|[|[|i]]]]; cbn in Ho; try (destruct i; discriminate); injection Ho as <-; eexists; (split; [reflexivity|]; split; [reflexivity|]); cbn [for_example o_kind oi_op]; auto;
  (eexists; split; [reflexivity|]; split; [split; [exact W1|split; [reflexivity|reflexivity]]|]); try reflexivity; intros c Hc; destruct (CC c Hc) as (H0 & H1 & H2 & H3 & H4 & H5 & H6 & H7); unfold at_, Spec.pos; cbn [lin_lt t_shape]; rewrite ?H1, ?H2, ?H3, ?H4, ?H5, ?H6, ?H7; destruct (c 0%nat) as [|[|]]; try reflexivity; try lia.
Qed.
Lemma dot_acceptable : all_acceptable dot_batch 3.
Proof.
  intros i o ss U Ho AS. assert (F1 : fits (sh [2%N] 1)) by (apply sh_fits; reflexivity). assert (F2 : fits (sh [2%N] 2)) by (apply sh_fits; reflexivity). assert (F3 : fits (sh [] 2)) by (apply sh_fits; reflexivity).
  destruct i as [|[|[|[|i]]]]; cbn in Ho; [| | | |destruct i; discriminate]; injection Ho as <-; (split; [|split; exact I]); constructor; auto.
Qed.
Example C71_gradients_applies : exists g' a' a1 a2,
  node_backward Debug (interp Debug) (fun _ _ => alr) lifo_min fifo_max dot_batch (3%nat, 0%nat) = Ok g' /\ own_of g' 0 = Some a' /\
  (exists g1, node_backward Debug (interp Debug) (fun _ _ => alr) lifo_min fifo_max loss_g (3%nat, 0%nat) = Ok g1 /\ own_of g1 0 = Some a1) /\
  (exists g2, node_backward Debug (interp Debug) (fun _ _ => alr) lifo_min fifo_max dot_second (3%nat, 0%nat) = Ok g2 /\ own_of g2 0 = Some a2) /\
  at_ a' (c2 1 0) 0 - 20 = (at_ a1 (c2 1 0) 0 - 20) + (at_ a2 (c2 1 0) 0 - 20).
Proof.
  assert (P : program 0 dot_batch) by (eapply dot_program; [exact dot_batch_eq|rdyr]). assert (P2 : program 0 dot_second) by (eapply dot_program; [exact dot_second_eq|rdyr]).
  assert (EX : forall b, (b < bat (sh [] 2))%nat -> program 0 (dots b) /\ loss_of (dots b) (3%nat, 0%nat) /\ run_on_example b dot_batch 3 (dots b)).
  { intros b Hb. change (b < 2)%nat in Hb. split; [|split; [|apply dot_runs; auto]]; destruct b as [|[|b]]; try lia; [apply loss_program|exact P2|apply loss_is_loss|apply dot_second_loss]. }
  assert (FA : fair_grads (fun _ _ : nat => alr)) by (intros i v; apply alr_ok).
  destruct (@C71_gradients 0 dot_batch dots (3%nat, 0%nat) (sh [] 2) P dot_batch_loss dot_acceptable eq_refl EX (fun _ _ => alr) lifo_min fifo_max (fun _ _ _ => alr) (fun _ => lifo_min) (fun _ => fifo_max)) as (g' & gs' & E & EB & G); try apply heaps_ok; auto.
  { intros b Hb. split; [apply heaps_ok|]. split; [apply heaps_ok|exact FA]. }
  - assert (U0 : uses dot_batch 3 0). { eapply uses_step with (n := (2%nat, 0%nat)); [reflexivity|left; reflexivity|]. eapply uses_step with (n := (0%nat, 0%nat)); [reflexivity|left; reflexivity|constructor]. }
    destruct (G 0%nat _ (PropsReal.tr 0 [2%N] 1 [2; 3]) U0 eq_refl eq_refl eq_refl) as (a & a' & bf & af & A1 & A2 & AB & EQ).
    assert (H0 : (0 < bat (sh [] 2))%nat) by (cbn; lia). assert (H1 : (1 < bat (sh [] 2))%nat) by (cbn; lia). destruct (AB 0%nat H0) as (B1 & B2). destruct (AB 1%nat H1) as (B3 & B4).
    exists g', a', (af 0%nat), (af 1%nat). split; [exact E|]. split; [exact A2|]. split; [exists (gs' 0%nat); split; [exact (EB 0%nat H0)|exact B2]|]. split; [exists (gs' 1%nat); split; [exact (EB 1%nat H1)|exact B4]|].
    assert (I : inb (sh [2%N] 1) (c2 1 0)) by (intros i; destruct i as [|[|i]]; cbn; lia). specialize (EQ (c2 1 0) I). change (bat (sh [] 2)) with 2%nat in EQ. cbn [rsum] in EQ. injection A1 as <-.
    assert (Q1 : bf 0%nat = PropsReal.tr 0 [2%N] 1 [10; 20]) by (injection B1 as Q; symmetry; exact Q). assert (Q2 : bf 1%nat = PropsReal.tr 0 [2%N] 1 [10; 20]) by (injection B3 as Q; symmetry; exact Q).
    rewrite Q1, Q2 in EQ. assert (T : at_ (PropsReal.tr 0 [2%N] 1 [10; 20]) (c2 1 0) 0 = 20) by reflexivity. rewrite T in EQ. eapply eq_trans; [exact EQ|]. cbn [F Rnum] in * . lra.
Qed.
(** the mean of the two losses *)
Definition dot_mean_g : rgraph := Eval lazy -[alr Rnum IZR] in fst (okv (@empty Rnum (oper Rnum), (0%nat, 0%nat)) (n_batch_mean (K := Rnum) Debug dot_batch (fun _ => br) (3%nat, 0%nat))).
Lemma dot_mean_eq : n_batch_mean (K := Rnum) Debug dot_batch (fun _ => br) (3%nat, 0%nat) = Ok (dot_mean_g, (5%nat, 0%nat)). Proof. reflexivity. Qed.
Lemma dot_mean_program : program 0 dot_mean_g.
Proof.
  pose proof dot_mean_eq as E. unfold n_batch_mean in E. apply bind_Ok in E. destruct E as ([g1 y] & E1 & E). apply bind_Ok in E. destruct E as (s' & ES & E).
  refine (pr_op1 (k := KDivConstR _) _ br_fair eq_refl I E). refine (pr_op1 (k := KBatchSum) _ br_fair eq_refl I E1). eapply dot_program; [exact dot_batch_eq|rdyr].
Qed.
Lemma dot_mean_uses i : uses dot_mean_g 3 i -> (i < 4)%nat.
Proof. intros U. destruct (clean_inv (interp_lawful (K := Rnum) (m := Debug)) (program_clean dot_mean_program)) as (W & _). assert (L3 : (3 < length (g_ops dot_mean_g))%nat) by (cbn; lia). pose proof (uses_lt W U L3). lia. Qed.
Lemma dot_mean_loss : loss_of dot_mean_g (3%nat, 0%nat).
Proof.
  assert (F1 : fits (sh [2%N] 1)) by (apply sh_fits; reflexivity). assert (F2 : fits (sh [2%N] 2)) by (apply sh_fits; reflexivity). assert (F3 : fits (sh [] 2)) by (apply sh_fits; reflexivity). constructor.
  - split; [reflexivity|eexists; split; reflexivity].
  - intros i o U Ho. pose proof (dot_mean_uses U) as Li. destruct i as [|[|[|[|i]]]]; try lia; cbn in Ho; inversion Ho; subst o; clear Ho;
      (split; [repeat (apply Forall_cons; [first [exact F1|exact F2|exact F3]|]); apply Forall_nil|]); first [exact I|intros x E; inversion E; subst x; cbn; lia].
  - intros i o xs U Ho EX. pose proof (dot_mean_uses U) as Li. intros s c b ER Hc Hb. destruct i as [|[|[|[|i]]]]; try lia; cbn in Ho; inversion Ho; subst o; cbn; auto.
  - intros i o v U NE Ho Lv. pose proof (dot_mean_uses U) as Li. cbn [fst] in * . dot_used. destruct i as [|[|[|[|i]]]]; try lia; cbn in Ho; inversion Ho; subst o; cbn in Lv; assert (v = 0%nat) by lia; subst v.
    + exists 2%nat. split; [exact U2|left; reflexivity].
    + exists 2%nat. split; [exact U2|right; left; reflexivity].
    + exists 3%nat. split; [constructor|left; reflexivity].
Qed.
Lemma dot_same i : (i < 4)%nat -> nth_error (g_ops dot_mean_g) i = nth_error (g_ops dot_batch) i.
Proof. intros H. destruct i as [|[|[|[|i]]]]; try lia; reflexivity. Qed.
Lemma dot_same_uses i : uses dot_mean_g 3 i -> uses dot_batch 3 i.
Proof.
  assert (G : forall j i, uses dot_mean_g j i -> uses dot_mean_g 3 j -> uses dot_batch j i); [|intros U; apply G; [exact U|constructor]].
  induction 1 as [j|j o n i' Ho Hn Ui IH]; intros U; [constructor|]. pose proof (dot_mean_uses U) as Lj. rewrite dot_same in Ho by auto. eapply uses_step; [exact Ho|exact Hn|]. apply IH. eapply uses_trans; [exact U|]. rewrite <- dot_same in Ho by auto. eapply uses_step; [exact Ho|exact Hn|constructor].
Qed.
Example C71_batch_mean_applies : exists g' a' a1 a2,
  node_backward Debug (interp Debug) (fun _ _ => alr) lifo_min fifo_max dot_mean_g (5%nat, 0%nat) = Ok g' /\ own_of g' 0 = Some a' /\
  (exists g1, node_backward Debug (interp Debug) (fun _ _ => alr) lifo_min fifo_max loss_g (3%nat, 0%nat) = Ok g1 /\ own_of g1 0 = Some a1) /\
  (exists g2, node_backward Debug (interp Debug) (fun _ _ => alr) lifo_min fifo_max dot_second (3%nat, 0%nat) = Ok g2 /\ own_of g2 0 = Some a2) /\
  at_ a' (c2 1 0) 0 - 20 = ((at_ a1 (c2 1 0) 0 - 20) + (at_ a2 (c2 1 0) 0 - 20)) / 2.
Proof.
  assert (P2 : program 0 dot_second) by (eapply dot_program; [exact dot_second_eq|rdyr]).
  assert (EX : forall b, (b < bat (sh [] 2))%nat -> program 0 (dots b) /\ loss_of (dots b) (3%nat, 0%nat) /\ run_on_example b dot_mean_g 3 (dots b)).
  { intros b Hb. change (b < 2)%nat in Hb. split; [|split; [|intros i o U Ho; pose proof (dot_mean_uses U) as Li; rewrite dot_same in Ho by auto; apply (dot_runs Hb (dot_same_uses U) Ho)]]; destruct b as [|[|b]]; try lia; [apply loss_program|exact P2|apply loss_is_loss|apply dot_second_loss]. }
  assert (AC : all_acceptable dot_mean_g 3).
  { intros i o ss U Ho AS. pose proof (dot_mean_uses U) as Li. destruct (clean_inv (interp_lawful (K := Rnum) (m := Debug)) (program_clean dot_mean_program)) as (W & _).
    assert (HA : forall n, In n (oi_args o) -> (fst n < 4)%nat) by (intros n Hn; destruct (gwf_args W Ho Hn) as (LL & _); lia). rewrite dot_same in Ho by auto. apply (dot_acceptable (dot_same_uses U) Ho). unfold arguments_have in * .
    clear - AS HA. induction AS as [|n s ns ss Q AS IH]; constructor; [|apply IH; intros; apply HA; right; auto]. unfold SafeGraph4.node_shape in Q |- * . rewrite dot_same in Q by (apply HA; left; auto). exact Q. }
  assert (FA : fair_grads (fun _ _ : nat => alr)) by (intros i v; apply alr_ok).
  destruct (@C71_batch_mean 0 dot_mean_g dots (3%nat, 0%nat) (sh [] 2) dot_mean_program dot_mean_loss AC eq_refl EX dot_batch (fun _ => br) (5%nat, 0%nat) dot_mean_eq (fun _ _ => alr) lifo_min fifo_max (fun _ _ _ => alr) (fun _ => lifo_min) (fun _ => fifo_max)) as (g' & gs' & E & EB & G); try apply heaps_ok; auto.
  { intros b Hb. split; [apply heaps_ok|]. split; [apply heaps_ok|exact FA]. }
  assert (U0 : uses dot_mean_g 3 0). { eapply uses_step with (n := (2%nat, 0%nat)); [reflexivity|left; reflexivity|]. eapply uses_step with (n := (0%nat, 0%nat)); [reflexivity|left; reflexivity|constructor]. }
  destruct (G 0%nat _ (PropsReal.tr 0 [2%N] 1 [2; 3]) U0 eq_refl eq_refl eq_refl) as (a & a' & bf & af & A1 & A2 & AB & EQ).
  assert (H0 : (0 < bat (sh [] 2))%nat) by (cbn; lia). assert (H1 : (1 < bat (sh [] 2))%nat) by (cbn; lia). destruct (AB 0%nat H0) as (B1 & B2). destruct (AB 1%nat H1) as (B3 & B4).
  exists g', a', (af 0%nat), (af 1%nat). split; [exact E|]. split; [exact A2|]. split; [exists (gs' 0%nat); split; [exact (EB 0%nat H0)|exact B2]|]. split; [exists (gs' 1%nat); split; [exact (EB 1%nat H1)|exact B4]|].
  assert (I : inb (sh [2%N] 1) (c2 1 0)) by (intros i; destruct i as [|[|i]]; cbn; lia). specialize (EQ (c2 1 0) I). change (bat (sh [] 2)) with 2%nat in EQ. cbn [rsum] in EQ. injection A1 as <-.
  assert (Q1 : bf 0%nat = PropsReal.tr 0 [2%N] 1 [10; 20]) by (injection B1 as Q; symmetry; exact Q). assert (Q2 : bf 1%nat = PropsReal.tr 0 [2%N] 1 [10; 20]) by (injection B3 as Q; symmetry; exact Q).
  rewrite Q1, Q2 in EQ. assert (T : at_ (PropsReal.tr 0 [2%N] 1 [10; 20]) (c2 1 0) 0 = 20) by reflexivity. rewrite T in EQ. eapply eq_trans; [exact EQ|]. replace (INR 2) with 2 by (cbn; ring). cbn [F Rnum] in * . lra.
Qed.
