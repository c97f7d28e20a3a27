(** * PropsAutoDiff: the backward pass computes derivatives (C38) *)
From Verif Require Export GraphGrad3.
Set Implicit Arguments.
Unset Strict Implicit.
Open Scope R_scope.

(** ** Specification *)
(** a graph that has been created and perhaps evaluated, but not differentiated *)
Inductive built (m : build) : rgraph -> Prop :=
| b_empty : built m (@empty Rnum (oper Rnum))
| b_create g op own xs g' ns : built m g -> create (interp m) g op own xs = Ok (g', ns) -> built m g'
| b_forward g pop root g' : built m g -> min_heap pop -> (root < length (g_ops g))%nat -> forward (interp m) pop g root = (g', Ok tt) -> built m g'.
(** the sum of the elements of a node; graphs are evaluated from scratch *)
Definition total (m : build) (g : rgraph) (n : node) : R := match eval_node (interp m) g n with Ok y => tsum (t_shape y) (fun c b => at_ y c b) | _ => 0 end.
(** every operator below [root] is supported and, at the current values, differentiable;
    every output of an operator other than [root] is used; [root] has one output *)
Record differentiable (m : build) (d : nat) (g : rgraph) (root : nat) : Prop := mkDifferentiable {
  df_sup : forall i o, uses g root i -> nth_error (g_ops g) i = Some o -> supported d g o;
  df_smooth : forall i o xs, uses g root i -> nth_error (g_ops g) i = Some o -> mapM (eval_node (interp m) g) (oi_args o) = Ok xs -> smooth (o_kind (oi_op o)) xs (map shp (oi_vals o));
  df_used : forall i o v, uses g root i -> i <> root -> nth_error (g_ops g) i = Some o -> (v < length (oi_vals o))%nat -> exists j, uses g root j /\ In (i, v) (args_of g j);
  df_root : exists o, nth_error (g_ops g) root = Some o /\ length (oi_vals o) = 1%nat }.
(** the same without a condition on the number of outputs of [root] *)
Record differentiable_below (m : build) (d : nat) (g : rgraph) (root : nat) : Prop := mkDiffBelow {
  db_sup : forall i o, uses g root i -> nth_error (g_ops g) i = Some o -> supported d g o;
  db_smooth : forall i o xs, uses g root i -> nth_error (g_ops g) i = Some o -> mapM (eval_node (interp m) g) (oi_args o) = Ok xs -> smooth (o_kind (oi_op o)) xs (map shp (oi_vals o));
  db_used : forall i o v, uses g root i -> i <> root -> nth_error (g_ops g) i = Some o -> (v < length (oi_vals o))%nat -> exists j, uses g root j /\ In (i, v) (args_of g j);
  db_root : (root < length (g_ops g))%nat }.
(** all elements of all outputs of operator [root] *)
Definition totals (m : build) (g : rgraph) (outs root : nat) : R := rsum outs (fun v => total m g (root, v)).
(** the parameters move through their current values with speed [dW] *)
Record moving (d : nat) (g : rgraph) (root : nat) (W : R -> nat -> rtensor) (dW : nat -> coord' -> nat -> R) : Prop := mkMoving {
  mv_now : forall i o v, uses g root i -> nth_error (g_ops g) i = Some o -> o_kind (oi_op o) = KParameter v -> W 0 i = v;
  mv_ready : forall t i o v, uses g root i -> nth_error (g_ops g) i = Some o -> o_kind (oi_op o) = KParameter v -> ready d (W t i) /\ t_shape (W t i) = t_shape v;
  mv_speed : forall i o v c b, uses g root i -> nth_error (g_ops g) i = Some o -> o_kind (oi_op o) = KParameter v -> inb (t_shape v) c -> (b < bat (t_shape v))%nat ->
    D (fun t => at_ (W t i) c b) (dW i c b) }.
(** how much the gradient of the parameter operator [i] grew, paired with [dw] *)
Definition growth (g g' : rgraph) (i : nat) (dw : coord' -> nat -> R) : R :=
  match own_of g i, own_of g' i with Some a, Some a' => tsum (t_shape a) (fun c b => (at_ a' c b - at_ a c b) * dw c b) | _, _ => 0 end.
(** one element of a tensor increased by [r] *)
Definition bump (v : rtensor) (c : coord') (b : nat) (r : R) : rtensor := with_buf v (lset (buf v) (pos (t_shape v) c b) (at_ v c b + r)).
(** the parameter operator [i] with value [w], the others as they are *)
Definition param_value (g : rgraph) (j : nat) : rtensor := match kind_of g j with Some (KParameter v) => v | _ => @no_tensor Rnum end.
Definition with_value (i : nat) (w : rtensor) (g : rgraph) : rgraph := with_params (fun j => if Nat.eqb j i then w else param_value g j) g.

(** what the gradient of a node holds: nothing counts as zero *)
Definition held (g : rgraph) (n : node) (c : coord') (b : nat) : R := match grad_of g n with Ok t => if valid t then at_ t c b else 0 | _ => 0 end.
(** the gradients of the operators [root] uses: untouched, or tensors on device [d]; those of [root] itself untouched *)
Record graded (d : nat) (g : rgraph) (root : nat) : Prop := mkGraded {
  gr_used : forall i o v t, uses g root i -> nth_error (g_ops g) i = Some o -> nth_error (oi_grads o) v = Some t ->
    exists y, nth_error (oi_vals o) v = Some y /\ (t = blank y \/ ready d t /\ t_shape t = t_shape y);
  gr_root : forall o t, nth_error (g_ops g) root = Some o -> In t (oi_grads o) -> valid t = false }.
(** the outputs of operator [i], evaluated in [gt], weighted with what their gradients hold in [g] *)
Definition weighted (m : build) (gt : rgraph) (n : node) (w : coord' -> nat -> R) : R := match eval_node (interp m) gt n with Ok y => tsum (t_shape y) (fun c b => w c b * at_ y c b) | _ => 0 end.
Definition carried (m : build) (g gt : rgraph) (i : nat) : R := rsum (length (ys_of g i)) (fun v => weighted m gt (i, v) (held g (i, v))).

(** ** Built graphs *)
Lemma built_clean m g : built m g -> clean (interp m) g.
Proof. induction 1; [constructor|eapply c_create|eapply c_forward]; eauto. Qed.
Definition keeps_grads (g g' : rgraph) : Prop := forall i, option_map (fun o => (oi_grads o, oi_own o)) (nth_error (g_ops g') i) = option_map (fun o => (oi_grads o, oi_own o)) (nth_error (g_ops g) i).
Lemma step_fw_grads m (g : rgraph) i : keeps_grads g (fst (step_fw (interp m) g i)).
Proof.
  intros j. unfold step_fw. destruct (nth_error (g_ops g) i) as [o|] eqn:Ho; [|reflexivity]. destruct (oi_fwd o); [reflexivity|]. pose proof (nth_error_Some_lt Ho) as L.
  destruct (bind _ _); cbn [fst g_ops set_op]; rewrite ?nth_error_lset by (rewrite ?lset_length; auto); destruct (Nat.eqb_spec j i) as [->|]; rewrite ?Ho; try reflexivity.
Qed.
Lemma forward_grads m pop (g g' : rgraph) root r : forward (interp m) pop g root = (g', r) -> keeps_grads g g'.
Proof.
  unfold forward. generalize (pop (depth0 g) (requests g root)) as l. intros l. revert g. induction l as [|i l IH]; intros g E; cbn in E; [inversion E; intros j; reflexivity|].
  destruct (step_fw (interp m) g i) as [g1 r1] eqn:E1. pose proof (step_fw_grads m g i) as K. rewrite E1 in K. cbn [fst] in K. destruct r1; try (inversion E; subst; exact K).
  intros j. rewrite (IH _ E j). apply K.
Qed.
Lemma built_grads m g : built m g -> forall i o, nth_error (g_ops g) i = Some o -> oi_grads o = map blank (oi_vals o).
Proof.
  induction 1 as [|g op own xs g' ns H IH E|g pop root g' H IH HP L E]; intros i o Ho; [destruct i; discriminate| |].
  - apply create_inv in E. destruct E as (ss & rs & vals & grads & ds & _ & _ & _ & EG & _ & EB & _ & _ & -> & _). cbn [g_ops] in Ho. destruct (Nat.lt_ge_cases i (length (g_ops g))) as [L|L]; [rewrite nth_error_app1 in Ho by auto; eauto|].
    rewrite nth_error_app2 in Ho by auto. destruct (i - length (g_ops g))%nat as [|k]; cbn in Ho; [|destruct k; discriminate]. inversion Ho; subst. cbn. auto.
  - pose proof (forward_grads E i) as K. rewrite Ho in K. cbn in K. destruct (nth_error (g_ops g) i) as [p|] eqn:Hp; [|discriminate]. injection K as K1 K2. rewrite K1, (IH i p Hp).
    destruct (clean_inv (interp_lawful (K := Rnum) (m := m)) (built_clean H)) as (W & Lg & S). destruct (proj2 (forward_spec (interp_lawful (K := Rnum) (m := m)) W S Lg HP L E) eq_refl) as (_ & _ & _ & X & _).
    destruct (X i p Hp) as (p' & Hp' & SK). replace p' with o in SK by congruence. apply SK.
Qed.
Lemma with_params_now (g : rgraph) : with_params (param_value g) g = g.
Proof.
  destruct g as [ops log]. unfold with_params. cbn [g_ops g_log]. f_equal. apply nth_ext_error. intros i. rewrite nth_error_map. destruct (nth_error ops i) as [o|] eqn:E.
  - rewrite (nth_error_combine_seq 0 E). cbn [option_map fst snd Nat.add]. f_equal. unfold with_param, param_value, kind_of. cbn [g_ops]. rewrite E. destruct (o_kind (oi_op o)) eqn:EK; auto. destruct o as [[? ? ? ?] ? ? ? ? ? ?]. cbn in * . congruence.
  - apply nth_error_None in E. replace (nth_error (combine _ _) i) with (@None (nat * ropinfo)); [reflexivity|]. symmetry. apply nth_error_None. rewrite combine_length, seq_length. lia.
Qed.

(** ** The backward pass, whatever the gradients hold *)
Lemma lsum_perm A (f : A -> R) l l' : Permutation l l' -> lsum f l = lsum f l'.
Proof. induction 1; cbn [lsum]; try lra; congruence. Qed.
Lemma grads_none (g g' : rgraph) n : grads_changed g g' -> (forall t, grad_of g n <> Ok t) -> grad_of g n = grad_of g' n.
Proof.
  intros (_ & F2) H. unfold grad_of, idx in * . destruct (nth_error (g_ops g) (fst n)) as [o|] eqn:Ho.
  - destruct (Forall2_nth F2 Ho) as (o' & Ho' & (_&_&_&L&_)). rewrite Ho'. cbn [bind] in * . destruct (nth_error (oi_grads o) (snd n)) as [t|] eqn:Et; [exfalso; apply (H t); auto|].
    replace (nth_error (oi_grads o') (snd n)) with (@None rtensor); auto. symmetry. apply nth_error_None. apply nth_error_None in Et. lia.
  - replace (nth_error (g_ops g') (fst n)) with (@None ropinfo); auto. symmetry. apply nth_error_None. apply nth_error_None in Ho. rewrite <- (Forall2_len F2). auto.
Qed.
Theorem backward_derivative_all : forall m gal popf popb (g : rgraph) d n, clean (interp m) g -> graded d g (fst n) -> min_heap popf -> max_heap popb -> (forall i v, al_ok (gal i v)) ->
  differentiable_below m d g (fst n) ->
  exists g', node_backward m (interp m) gal popf popb g n = Ok g' /\
    (forall i o v, uses g (fst n) i -> nth_error (g_ops g) i = Some o -> o_kind (oi_op o) = KParameter v ->
       exists a a', own_of g i = Some a /\ own_of g' i = Some a' /\ ready d a' /\ t_shape a = t_shape v /\ t_shape a' = t_shape v /\
         forall c q, inb (t_shape v) c -> (q < bat (t_shape v))%nat -> @eq R (at_ a' c q) (at_ a c q + held g' (i, 0%nat) c q)) /\
    (forall i, ~ uses g (fst n) i -> own_of g' i = own_of g i) /\
    (forall i o, uses g (fst n) i -> nth_error (g_ops g) i = Some o -> (forall v, o_kind (oi_op o) <> KParameter v) -> own_of g' i = own_of g i) /\
    (clean (interp m) g' /\ extends g g' /\ extends g' g) /\
    (forall k, ~ uses g (fst n) (fst k) -> grad_of g' k = grad_of g k) /\
    (forall i o v, uses g (fst n) i -> nth_error (g_ops g) i = Some o -> (v < length (oi_vals o))%nat -> exists t, grad_of g' (i, v) = Ok t /\ ready d t /\ t_shape t = node_shape g (i, v)) /\
    forall l, NoDup l -> (forall i, In i l <-> uses g (fst n) i /\ i <> fst n) -> forall W dW, moving d g (fst n) W dW ->
      D (fun t => totals m (with_params (W t) g) (length (ys_of g (fst n))) (fst n) + lsum (carried m g (with_params (W t) g)) l) (rsum (length (g_ops g)) (fun i => growth g g' i (dW i))).
Proof.
  intros m gal popf popb g d [root v0] HC HG HF HX HA [SUP SM USED LR]. cbn [fst snd] in * .
  destruct (nth_error (g_ops g) root) as [oR|] eqn:HoR; [|apply nth_error_None in HoR; lia].
  pose proof (interp_lawful (K := Rnum) (m := m)) as LAW. pose proof (interp_lawful_bw (K := Rnum) (m := m)) as LAWB.
  destruct (clean_inv LAW HC) as (GW & LG & SO). pose proof (history_placed LAW (clean_history HC)) as PL.
  assert (UR : uses g root root) by constructor.
  (* the graph has values *)
  assert (PV : forall i o v, uses g root i -> nth_error (g_ops g) i = Some o -> o_kind (oi_op o) = KParameter v -> ready d (param_value g i) /\ t_shape (param_value g i) = t_shape v).
  { intros i o v U Ho EK. assert (E : param_value g i = v) by (unfold param_value, kind_of; rewrite Ho, EK; auto). rewrite E. split; auto. pose proof (sup_wt (SUP i o U Ho)) as HW. rewrite EK in HW. exact HW. }
  assert (EV : forall i o, uses g root i -> nth_error (g_ops g) i = Some o -> exists xs ys, mapM (eval_node (interp m) g) (oi_args o) = Ok xs /\ eval (interp m) g i = Ok ys /\ Forall (ready d) ys /\ map shp ys = map shp (oi_vals o)).
  { intros i o U Ho. destruct (eval_at GW PL SUP PV U Ho) as (xs & ys & E1 & _ & _ & E4 & E5 & E6 & _). rewrite with_params_now in E1, E4. eauto 8. }
  unfold node_backward, node_forward. cbn [fst]. destruct (forward (interp m) popf g root) as [gf r] eqn:EF. destruct (forward_spec LAW GW SO LG HF LR EF) as (FR & FO).
  assert (Hr : r = Ok tt). { apply FR. destruct (EV root oR UR HoR) as (_ & ys & _ & E & _). eauto. } destruct (FO Hr) as (SO' & GW' & _ & X & X' & FI & _ & _). rewrite Hr.
  pose proof (forward_grads EF) as KG.
  (* the same operators, with values *)
  assert (OP : forall i o, uses g root i -> nth_error (g_ops g) i = Some o -> exists o', nth_error (g_ops gf) i = Some o' /\ oi_op o' = oi_op o /\ oi_args o' = oi_args o /\ oi_grads o' = oi_grads o /\ oi_own o' = oi_own o /\
    eval (interp m) g i = Ok (oi_vals o') /\ eval (interp m) gf i = Ok (oi_vals o') /\ Forall (ready d) (oi_vals o') /\ map shp (oi_vals o') = map shp (oi_vals o)).
  { intros i o U Ho. destruct (X i o Ho) as (o' & Ho' & (S1 & S2 & S3 & _)). exists o'. split; auto. split; auto. split; auto. pose proof (KG i) as K. rewrite Ho, Ho' in K. cbn in K. inversion K as [[K1 K2]]. split; auto. split; auto.
    destruct (FI i U) as (o2 & Ho2 & Ef). replace o2 with o' in Ef by congruence. pose proof (SO' i o' Ho') as S. rewrite Ef in S. destruct (EV i o U Ho) as (_ & ys & _ & E1 & E2 & E3).
    assert (EE : eval (interp m) gf i = eval (interp m) g i) by (apply (eval_extends (interp m) GW X); eapply nth_error_Some_lt; eauto). rewrite <- EE. split; auto. split; auto. assert (Ok ys = Ok (oi_vals o')) as Q by congruence. inversion Q; subst. auto. }
  assert (US : forall i, uses gf root i <-> uses g root i).
  { assert (G : forall (a b : rgraph), extends a b -> forall i j, uses a i j -> uses b i j). { intros a b XX i j U. induction U as [|i o n j Ho Hn U IH]; [constructor|]. destruct (XX _ _ Ho) as (o' & Ho' & (_ & E & _)). eapply uses_step; eauto. rewrite <- E. auto. }
    intros i; split; apply G; auto. }
  assert (UO : forall i o', uses gf root i -> nth_error (g_ops gf) i = Some o' -> exists o, uses g root i /\ nth_error (g_ops g) i = Some o).
  { intros i o' U Ho'. apply US in U. destruct (X' i o' Ho') as (o & Ho & _). eauto. }
  assert (VF : forall i o', uses gf root i -> nth_error (g_ops gf) i = Some o' -> Forall (ready d) (oi_vals o')).
  { intros i o' U Ho'. destruct (UO i o' U Ho') as (o & Ug & Ho). destruct (OP i o Ug Ho) as (o2 & Ho2 & _ & _ & _ & _ & _ & _ & R & _). replace o' with o2 by congruence. auto. }
  assert (NS : forall n, uses g root (fst n) -> node_shape gf n = node_shape g n).
  { intros [j w] U. cbn [fst] in U. destruct (uses_lt GW U LR) as (L & _). destruct (nth_error (g_ops g) j) as [o|] eqn:Ho; [|apply nth_error_None in Ho; lia]. destruct (OP j o U Ho) as (o' & Ho' & _ & _ & _ & _ & _ & _ & _ & SH).
    unfold node_shape, value_of. cbn [fst snd]. rewrite (idx_nth Ho), (idx_nth Ho'). cbn [bind]. unfold idx. assert (Q : nth_error (map shp (oi_vals o')) w = nth_error (map shp (oi_vals o)) w) by congruence. rewrite !nth_error_map in Q.
    destruct (nth_error (oi_vals o') w), (nth_error (oi_vals o) w); cbn in * ; try congruence; auto; inversion Q; auto. }
  assert (SUPF : forall i o', uses gf root i -> nth_error (g_ops gf) i = Some o' -> supported d gf o').
  { intros i o' U Ho'. destruct (UO i o' U Ho') as (o & Ug & Ho). destruct (OP i o Ug Ho) as (o2 & Ho2 & E1 & E2 & _ & E4 & _ & _ & _ & E8). replace o' with o2 in * by congruence.
    assert (AS : arg_shapes gf o2 = arg_shapes g o) by (unfold arg_shapes; rewrite E2; apply map_ext_in; intros n Hn; apply NS; eapply uses_arg; eauto).
    destruct (SUP i o Ug Ho) as [Q1 Q2 Q3 Q4 Q5 Q6 Q7 Q8]. constructor; rewrite ?E1, ?AS, ?E8, ?E4; auto. }
  assert (PLF : placed (interp m) gf) by (apply (placed_extends PL X')).
  assert (EVF : forall i o', uses gf root i -> nth_error (g_ops gf) i = Some o' -> eval (interp m) gf i = Ok (oi_vals o')).
  { intros i o' U Ho'. destruct (UO i o' U Ho') as (o & Ug & Ho). destruct (OP i o Ug Ho) as (o2 & Ho2 & _ & _ & _ & _ & _ & E & _). replace o' with o2 by congruence. auto. }
  assert (LRF : (root < length (g_ops gf))%nat) by (destruct (OP root oR UR HoR) as (o' & Ho' & _); eapply nth_error_Some_lt; eauto).
  assert (AOF : forall i, uses g root i -> args_of gf i = args_of g i).
  { intros i U. destruct (uses_lt GW U LR) as (L & _). destruct (nth_error (g_ops g) i) as [o|] eqn:Ho; [|apply nth_error_None in Ho; lia]. destruct (OP i o U Ho) as (o' & Ho' & _ & E2 & _). unfold args_of. rewrite Ho, Ho'. auto. }
  assert (USEDF : forall i o' v, uses gf root i -> i <> root -> nth_error (g_ops gf) i = Some o' -> (v < length (oi_vals o'))%nat -> exists j, uses gf root j /\ In (i, v) (args_of gf j)).
  { intros i o' v U NE Ho' Hv. destruct (UO i o' U Ho') as (o & Ug & Ho). destruct (OP i o Ug Ho) as (o2 & Ho2 & _ & _ & _ & _ & _ & _ & _ & E8). replace o' with o2 in * by congruence.
    destruct (USED i o v Ug NE Ho) as (j & Uj & HI); [rewrite <- (map_length shp), <- E8, map_length; auto|]. exists j. split; [apply US; auto|rewrite AOF; auto]. }
  assert (SMF : forall i o', uses gf root i -> nth_error (g_ops gf) i = Some o' -> smooth (o_kind (oi_op o')) (xs_of gf i) (map shp (oi_vals o'))).
  { intros i o' U Ho'. destruct (UO i o' U Ho') as (o & Ug & Ho). destruct (OP i o Ug Ho) as (o2 & Ho2 & E1 & E2 & _ & _ & _ & _ & _ & E8). replace o' with o2 in * by congruence. rewrite E1, E8.
    destruct (xs_values GW' LRF VF U Ho2) as (XV & _). apply (SM i o _ Ug Ho). rewrite <- XV, E2. apply mapM_ext. intros nn Hn. pose proof (uses_arg Ug Ho Hn) as Un. destruct (FI (fst nn) Un) as (p & Hp & Ef). symmetry.
    rewrite (sound_value (itp := interp m) GW' SO' (FI _ Un)). unfold eval_node. rewrite (eval_extends (interp m) GW X); auto. destruct (uses_lt GW Un LR); auto. }
  assert (GRF : forall i v t, uses g root i -> grad_of gf (i, v) = Ok t -> t_shape t = node_shape gf (i, v) /\ (ready d t /\ valid t = true /\ i <> root \/ t_buf t = None /\ t_host t = None /\ t_dev t = Some d /\ fits (t_shape t))).
  { intros i v t U Ht. destruct (grad_of_inv Ht) as (o' & Ho' & Hv). cbn [fst snd] in * . destruct (X' i o' Ho') as (o & Ho & _). destruct (OP i o U Ho) as (o2 & Ho2 & _ & _ & E3 & _ & _ & _ & _ & E8). assert (o2 = o') by congruence. subst o2.
    rewrite E3 in Hv. destruct (gr_used HG U Ho Hv) as (y & Ey & CASES).
    assert (SY : t_shape y = node_shape gf (i, v)). { rewrite NS by auto. pose proof (node_shape_val (g := g) (root := root) LR (i := i) Ho (nth_error_Some_lt Ey)) as Q. rewrite nth_error_map, Ey in Q. inversion Q. auto. }
    destruct CASES as [Et|(Rt & St)]; [subst t; split; [exact SY|]; right|split; [congruence|]; left; split; auto; split; [unfold valid; rewrite (ready_buf Rt); auto|]; intros ->; pose proof (gr_root HG Ho (nth_error_In _ _ Hv)) as NV; unfold valid in NV; rewrite (ready_buf Rt) in NV; discriminate]. cbn. split; auto. split; auto.
    pose proof (SUP i o U Ho) as S. split.
    - destruct (PL i o y Ho (nth_error_In _ _ Ey)) as (A & B). cbn [interp op_device] in A. rewrite (leaf_device S) in A. destruct (t_dev y) as [e|]; congruence.
    - pose proof (sup_fits S) as FT. rewrite Forall_forall in FT. apply FT. apply in_map. eapply nth_error_In; eauto.
  }
  assert (GRE : forall n, grad_of gf n = grad_of g n).
  { intros n. pose proof (KG (fst n)) as K. unfold grad_of, idx. destruct (nth_error (g_ops gf) (fst n)) as [o'|], (nth_error (g_ops g) (fst n)) as [o|]; cbn in K; try discriminate; auto. cbn [bind]. injection K as K1 K2. rewrite K1. reflexivity. }
  (* seed *)
  assert (SEED : exists g1, seed m gal gf root = Ok g1).
  { unfold seed. destruct (OP root oR UR HoR) as (o' & Ho' & _). rewrite (idx_nth Ho'). cbn [bind].
    destruct (@mapM_Ok _ _ (fun vt : nat * rtensor => t <- alloc m (gal root (fst vt)) (snd vt) ;; reset m t n1) (combine (seq 0 (length (oi_grads o'))) (oi_grads o'))) as (gs & E); [|rewrite E; cbn; eauto].
    intros [v t] Hvt. assert (grad_of gf (root, v) = Ok t).
    { destruct (In_nth_error _ _ Hvt) as (q & Hq). pose proof (nth_error_Some_lt Hq) as Lq. rewrite combine_length, seq_length, Nat.min_id in Lq. destruct (nth_error (oi_grads o') q) as [t'|] eqn:Et; [|apply nth_error_None in Et; lia]. rewrite (nth_error_combine_seq 0 Et) in Hq. inversion Hq; subst. eapply grad_of_Ok; eauto. }
    destruct (GRF root v t UR H) as (_ & [(_ & _ & NR)|(B1 & B2 & B3 & B4)]); [congruence|]. destruct (@alloc_reset Rnum m (gal root v) d t n1 (HA _ _) B3 B1 B2 B4) as (t' & E & _). cbn [fst snd]. eauto. }
  destruct SEED as (g1 & ES). destruct (seed_spec ES) as (GC & OW & SG).
  destruct (requests_spec (grads_gwf GW' GC) (g := g1) (root := root)) as (NDr & HRq). { destruct GC as (_ & F2). rewrite <- (Forall2_len F2). auto. }
  destruct (HX (depth0 g1) (requests g1 root)) as (PM & STD). set (order := popb (depth0 g1) (requests g1 root)) in * .
  assert (ND : NoDup order) by (eapply Permutation_NoDup; eauto).
  assert (ORD : forall i, In i order <-> uses gf root i).
  { intros i. transitivity (uses g1 root i); [rewrite <- HRq; split; apply Permutation_in; [symmetry|]; auto|]. split; apply uses_grads; auto. apply grads_sym; auto. }
  apply StronglySorted_of in STD; [|intros; lia].
  assert (G1G : forall i v t1, uses gf root i -> grad_of g1 (i, v) = Ok t1 -> exists t, grad_of gf (i, v) = Ok t /\ (if Nat.eqb i root then t1 <- alloc m (gal i v) t ;; reset m t1 n1 else Ok t) = Ok t1).
  { intros i v t1 U Ht1. destruct (grad_of_inv Ht1) as (p & Hp & Hv). cbn [fst snd] in * . destruct GC as (_ & F2). destruct (Forall2_nth' F2 Hp) as (q & Hq & _&_&_&LL&_). pose proof (nth_error_Some_lt Hv) as L. rewrite <- LL in L. destruct (nth_error (oi_grads q) v) as [t|] eqn:Et; [|apply nth_error_None in Et; lia].
    assert (Ht : grad_of gf (i, v) = Ok t) by (eapply grad_of_Ok; eauto). exists t. split; auto. destruct (SG (i, v) t Ht) as (t2 & E2 & E3). cbn [fst snd] in E2. congruence. }
  assert (INIR : forall v t, grad_of g1 (root, v) = Ok t -> ready d t /\ t_shape t = node_shape gf (root, v) /\ forall c q, inb (t_shape t) c -> (q < bat (t_shape t))%nat -> at_ t c q = 1).
  { intros v t Ht. destruct (G1G root v t ltac:(apply US; auto) Ht) as (t0 & H0 & E0). rewrite Nat.eqb_refl in E0. destruct (GRF root v t0 UR H0) as (B5 & [(_ & _ & NR)|(B1 & B2 & B3 & B4)]); [congruence|]. destruct (@alloc_reset Rnum m (gal root v) d t0 n1 (HA _ _) B3 B1 B2 B4) as (t' & E & (F1 & F2 & F3)).
    assert (t' = t) by congruence. subst t'. split; auto. split; [congruence|]. intros c q Hc Hq. rewrite at_buf. rewrite F2 in Hc, Hq |- * . apply F3. apply pos_lt; auto. rewrite <- F2. apply F1. }
  assert (ININ : forall i v t, uses gf root i -> i <> root -> grad_of g1 (i, v) = Ok t ->
     exists t0, touch m gal (i, v) t = Ok t0 /\ ready d t0 /\ t_shape t0 = node_shape gf (i, v) /\ forall c q, inb (t_shape t0) c -> (q < bat (t_shape t0))%nat -> at_ t0 c q = held g (i, v) c q).
  { intros i v t U NE Ht. destruct (G1G i v t U Ht) as (t0 & H0 & E0). apply Nat.eqb_neq in NE. rewrite NE in E0. inversion E0; subst t0. 
    assert (HE : held g (i, v) = held gf (i, v)). { assert (GE : grad_of gf (i, v) = grad_of g (i, v)) by (apply GRE; auto). unfold held. rewrite GE. reflexivity. }
    destruct (GRF i v t ltac:(apply US; auto) H0) as (B5 & [(RT & VT & _)|(B1 & B2 & B3 & B4)]).
    { exists t. unfold touch. rewrite VT. split; auto. split; auto. split; auto. intros c q _ _. rewrite HE. unfold held. rewrite H0, VT. reflexivity. }
    assert (HZ : forall c q, held g (i, v) c q = 0) by (intros; rewrite HE; unfold held; rewrite H0; unfold valid; rewrite B1; reflexivity).
     destruct (@alloc_reset Rnum m (gal i v) d t n0 (HA _ _) B3 B1 B2 B4) as (t' & E & (F1 & F2 & F3)).
    exists t'. unfold touch, valid. rewrite B1. cbn [fst snd]. split; auto. split; auto. split; [congruence|]. intros c q Hc Hq. rewrite HZ, at_buf. rewrite F2 in Hc, Hq |- * . apply F3. apply pos_lt; auto. rewrite <- F2. apply F1. }
  destruct (good_all GW' SUPF LRF VF USEDF ORD GC INIR ININ (length (g_ops gf))) as (us & fin & GOOD0).
  assert (GOOD : forall i o, uses gf root i -> nth_error (g_ops gf) i = Some o -> good m gf g1 d root gal order (held g) us fin i o) by (intros i o U Ho; apply GOOD0; auto; lia).
  destruct (backward_plan GW' SUPF LRF VF ORD GC OW GOOD ND STD) as (g' & EG & OG0 & O1 & O2 & O3).
  assert (EB : backward m (interp m) gal popb gf root = Ok g') by (unfold backward; rewrite ES; cbn [bind]; exact EG).
  exists g'. split; [exact EB|]. split.
  { intros i o v U Ho EK. destruct (OP i o U Ho) as (o' & Ho' & E1 & _ & _ & E4 & _). destruct (O3 i o' v (proj2 (US i) U) Ho' ltac:(congruence)) as (a & a' & A1 & A2 & A3 & A4 & A5 & A6). exists a, a'.
    destruct (sup_own (SUP i o U Ho) EK) as (a0 & Q1 & _ & Q3). unfold own_of in A1. rewrite Ho' in A1. assert (a0 = a) by congruence. subst a0.
    split; [unfold own_of; rewrite Ho; congruence|split; [exact A2|split; [exact A4|split; [exact Q3|split; [congruence|]]]]]. intros c q Hc Hq. rewrite <- Q3 in Hc, Hq. rewrite (A6 c q Hc Hq). f_equal.
    destruct (own_value SUPF (proj2 (US i) U) Ho' ltac:(rewrite E1; exact EK)) as (_ & y & EV1 & _).
    assert (exists t, grad_of g1 (i, 0%nat) = Ok t) as (t & Ht). { destruct (grads_nth GC Ho') as (o1 & Ho1 & (_&_&_&LGr&_)). pose proof (gwf_len GW' Ho') as LE. rewrite EV1 in LE. cbn in LE. destruct (oi_grads o1) as [|t l] eqn:E; [rewrite LE in LGr; discriminate|]. exists t. eapply grad_of_Ok; eauto. cbn [snd]. rewrite E. reflexivity. }
    destruct (go_fin (GOOD i o' (proj2 (US i) U) Ho') (v := 0%nat) ltac:(rewrite EV1; cbn; lia)) as (RF & _).
    unfold held. rewrite (OG0 _ _ Ht). cbn [fst]. destruct (in_dec Nat.eq_dec i order) as [|NI]; [|exfalso; apply NI, ORD, US, U]. unfold valid. rewrite (ready_buf RF). reflexivity. }
  split.
  { intros i NU. rewrite O1 by (intros HI; apply NU; apply US; exact HI). pose proof (KG i) as K. unfold own_of. destruct (nth_error (g_ops gf) i), (nth_error (g_ops g) i); cbn in K; congruence. }
  split.
  { intros i o U Ho NK. destruct (OP i o U Ho) as (o' & Ho' & E1 & _). rewrite (O2 i o' (proj2 (US i) U) Ho') by (intros v; rewrite E1; apply NK). pose proof (KG i) as K. unfold own_of. destruct (nth_error (g_ops gf) i), (nth_error (g_ops g) i); cbn in K; congruence. }
  split.
  { destruct (backward_spec LAWB GW' HX LRF EB) as (GC' & _). split; [eapply c_backward; [|exact GC']; eapply c_forward; eauto; rewrite <- Hr; exact EF|]. destruct (grads_extends GC') as (X1 & X2). split; eapply extends_trans; eauto. }
  split.
  { intros k NU. rewrite <- GRE. destruct (grad_of gf k) as [t| |] eqn:Ek.
    - destruct (SG k t Ek) as (t1 & E1 & E2). destruct (Nat.eqb_spec (fst k) root) as [ER|]; [exfalso; apply NU; rewrite ER; exact UR|]. injection E1 as <-. rewrite (OG0 k t E2). destruct (in_dec Nat.eq_dec (fst k) order) as [HI|]; auto. exfalso. apply NU, US, ORD, HI.
    - destruct (backward_spec LAWB GW' HX LRF EB) as (GC' & _). rewrite <- Ek. symmetry. apply (grads_none GC'). intros t Et. rewrite Ek in Et. discriminate.
    - destruct (backward_spec LAWB GW' HX LRF EB) as (GC' & _). rewrite <- Ek. symmetry. apply (grads_none GC'). intros t Et. rewrite Ek in Et. discriminate. }
  split.
  { intros i o v U Ho Hv. destruct (OP i o U Ho) as (o' & Ho' & _ & _ & _ & _ & _ & _ & _ & E8). assert (Hv' : (v < length (oi_vals o'))%nat) by (rewrite <- (map_length shp), E8, map_length; auto).
    assert (UG : uses gf root i) by (apply US; auto). destruct (go_fin (GOOD i o' UG Ho') Hv') as (F1 & F2 & _).
    assert (exists t, grad_of g1 (i, v) = Ok t) as (t & Ht). { destruct (grads_nth GC Ho') as (o1 & Ho1 & (_&_&_&LGr&_)). rewrite <- (gwf_len GW' Ho'), LGr in Hv'. destruct (nth_error (oi_grads o1) v) as [t|] eqn:E; [|apply nth_error_None in E; lia]. exists t. eapply grad_of_Ok; eauto. }
    exists (fin (i, v)). rewrite (OG0 _ _ Ht). cbn [fst]. destruct (in_dec Nat.eq_dec i order) as [|NI]; [|exfalso; apply NI, ORD, UG]. split; auto. split; auto. rewrite <- NS by auto. exact F2. }
  intros lo NDl HL W dW [W0 WR WD].
  (* the chain rule *)
  assert (KO : forall i o' v, uses gf root i -> nth_error (g_ops gf) i = Some o' -> o_kind (oi_op o') = KParameter v -> exists o, uses g root i /\ nth_error (g_ops g) i = Some o /\ o_kind (oi_op o) = KParameter v).
  { intros i o' v U Ho' EK. destruct (UO i o' U Ho') as (o & Ug & Ho). destruct (OP i o Ug Ho) as (o2 & Ho2 & E1 & _). exists o. split; auto. split; auto. assert (o2 = o') by congruence. subst. congruence. }
  assert (R1 : nout gf root = length (ys_of g root)). { destruct (OP root oR UR HoR) as (o' & Ho' & _ & _ & _ & _ & _ & _ & _ & E8). unfold nout, ys_of. rewrite Ho', HoR, <- (map_length shp), E8, map_length. auto. }
  pose proof (@chain_rule m gf g1 d root gal order GW' PLF SUPF LRF EVF VF SMF ORD ND us fin (held g) GOOD W dW) as CR.
  assert (CR' := CR ltac:(intros i o v U Ho EK; destruct (KO i o v U Ho EK) as (p & Up & Hp & EKp); eapply W0; eauto) ltac:(intros t i o v U Ho EK; destruct (KO i o v U Ho EK) as (p & Up & Hp & EKp); eapply WR; eauto)
      ltac:(intros i o v c b U Ho EK; destruct (KO i o v U Ho EK) as (p & Up & Hp & EKp); eapply WD; eauto)). clear CR.
  eapply deriv_ext; [|eapply deriv_val; [exact CR'|]].
  - intros t.
    assert (XT : extends (with_params (W t) g) (with_params (W t) gf)).
    { intros i o Ho. rewrite nth_with_params in Ho |- * . destruct (nth_error (g_ops g) i) as [p|] eqn:Hp; inversion Ho; subst o. destruct (X i p Hp) as (p' & Hp' & S1 & S2 & S3 & S4 & S5). rewrite Hp'. cbn [option_map]. eexists. split; [reflexivity|].
      destruct (with_param_fields (W t i) p) as (A1 & A2 & A3 & A4 & _). destruct (with_param_fields (W t i) p') as (B1 & B2 & B3 & B4 & _). unfold same_skel. rewrite A1, A2, A3, A4, B1, B2, B3, B4. split; auto. unfold with_param. rewrite S1. destruct (o_kind (oi_op p')); auto. }
    assert (NODE : forall i o v, uses g root i -> nth_error (g_ops g) i = Some o -> (v < length (oi_vals o))%nat -> eval_node (interp m) (with_params (W t) g) (i, v) = Ok (arg (Y m gf W t i) v) /\ t_shape (arg (Y m gf W t i) v) = node_shape gf (i, v)).
    { intros i o v U Ho Hv. destruct (OP i o U Ho) as (o' & Ho' & _ & _ & _ & _ & _ & _ & _ & E8). assert (Hv' : (v < length (oi_vals o'))%nat) by (rewrite <- (map_length shp), E8, map_length; auto).
      destruct (eval_at (w := W t) GW' PLF SUPF (fun i o v U Ho EK => ltac:(destruct (KO i o v U Ho EK) as (p & Up & Hp & EKp); eapply WR; eauto)) (proj2 (US i) U) Ho') as (xs & ys & _ & _ & _ & E4 & E5 & E6 & _).
      unfold eval_node, Y. cbn [fst snd]. rewrite <- (eval_extends (interp m) (with_params_gwf (W t) GW) XT) by (unfold with_params; cbn [g_ops]; rewrite map_length, combine_length, seq_length, Nat.min_id; eapply nth_error_Some_lt; eauto).
      rewrite E4. cbn [bind]. destruct (nth_error ys v) as [y|] eqn:Ey; [|apply nth_error_None in Ey; rewrite <- (map_length shp), E6, map_length in Ey; lia].
      rewrite (idx_nth Ey), (arg_nth Ey). split; auto. pose proof (node_shape_val (g := gf) (root := root) LRF (i := i) (v := v) Ho' Hv') as Q. rewrite <- E6, nth_error_map, Ey in Q. inversion Q. auto. }
    apply (f_equal2 Rplus).
    + unfold totals. rewrite R1. apply rsum_ext. intros v Hv. unfold total. unfold ys_of in Hv. rewrite HoR in Hv. destruct (NODE root oR v UR HoR Hv) as (N1 & N2). rewrite N1, N2. reflexivity.
    + assert (PP : Permutation order (root :: lo)).
      { apply NoDup_Permutation; auto; [constructor; auto; intros HI; apply HL in HI; tauto|]. intros i. rewrite ORD, US. cbn [In]. rewrite HL. destruct (Nat.eq_dec root i) as [<-|NE]; [tauto|]. split; [intros HU; right; split; auto|intros [?|(?&_)]; [congruence|auto]]. }
      rewrite (lsum_perm _ PP). cbn [lsum]. rewrite Nat.eqb_refl, Rplus_0_l. apply lsum_ext. intros i Hi. apply HL in Hi. destruct Hi as (U & NE). apply Nat.eqb_neq in NE. rewrite NE.
      destruct (uses_lt GW U LR) as (L & _). destruct (nth_error (g_ops g) i) as [o|] eqn:Ho; [|apply nth_error_None in Ho; lia]. destruct (OP i o U Ho) as (o' & Ho' & _ & _ & _ & _ & _ & _ & _ & E8).
      assert (LE : nout gf i = length (ys_of g i)) by (unfold nout, ys_of; rewrite Ho, Ho', <- (map_length shp), E8, map_length; auto).
      unfold carried. rewrite LE. apply rsum_ext. intros v Hv. unfold ys_of in Hv. rewrite Ho in Hv. unfold weighted. destruct (NODE i o v U Ho Hv) as (N1 & N2). rewrite N1, N2. reflexivity.
  - assert (LL : length (g_ops gf) = length (g_ops g)).
    { destruct (Nat.lt_trichotomy (length (g_ops gf)) (length (g_ops g))) as [L|[L|L]]; auto; exfalso.
      - destruct (nth_error (g_ops g) (length (g_ops gf))) as [o|] eqn:Ho; [|apply nth_error_None in Ho; lia]. destruct (X _ _ Ho) as (o' & Ho' & _). apply nth_error_Some_lt in Ho'. lia.
      - destruct (nth_error (g_ops gf) (length (g_ops g))) as [o|] eqn:Ho; [|apply nth_error_None in Ho; lia]. destruct (X' _ _ Ho) as (o' & Ho' & _). apply nth_error_Some_lt in Ho'. lia. }
    rewrite LL. apply rsum_ext. intros i Hi.
    assert (OG : own_of gf i = own_of g i). { pose proof (KG i) as K. unfold own_of. destruct (nth_error (g_ops gf) i), (nth_error (g_ops g) i); cbn in K; congruence. }
    destruct (in_dec Nat.eq_dec i order) as [HI|NI].
    + apply ORD in HI. destruct (nth_error (g_ops gf) i) as [o'|] eqn:Ho'; [|apply nth_error_None in Ho'; lia]. unfold kind_of. rewrite Ho'.
      assert (KP : (exists v, o_kind (oi_op o') = KParameter v) \/ forall v, o_kind (oi_op o') <> KParameter v) by (destruct (o_kind (oi_op o')); try (right; congruence); left; eauto). destruct KP as [(v & EK)|NK].
      * rewrite EK. destruct (O3 i o' v HI Ho' EK) as (a & a' & A1 & A2 & A3 & A4 & A5 & A6). unfold growth. rewrite <- OG, A1, A2, A3. apply tsum_ext; [rewrite <- A3, <- A5; apply A4|]. intros c b Hc Hb. rewrite <- A3 in Hc, Hb. rewrite (A6 c b Hc Hb). change (F Rnum) with R in * . ring.
      * transitivity 0; [destruct (o_kind (oi_op o')) eqn:EK; auto; exfalso; eapply NK; reflexivity|]. unfold growth. rewrite (O2 i o' HI Ho' NK), OG. destruct (own_of g i) as [a|]; auto. symmetry. unfold tsum. apply rsum_0. intros b _. apply csum_0. intros c _. change (F Rnum) with R in * . ring.
    + unfold growth. rewrite O1, OG by (rewrite <- ORD; auto). destruct (own_of g i) as [a|]; auto. symmetry. unfold tsum. apply rsum_0. intros b _. apply csum_0. intros c _. change (F Rnum) with R in * . ring.
Qed.

Lemma differentiable_is_below m d g root : differentiable m d g root -> differentiable_below m d g root.
Proof. intros [A B C (o & Ho & _)]. constructor; auto. eapply nth_error_Some_lt; eauto. Qed.
Theorem backward_derivative : forall m gal popf popb (g : rgraph) d n, clean (interp m) g -> graded d g (fst n) -> min_heap popf -> max_heap popb -> (forall i v, al_ok (gal i v)) ->
  snd n = 0%nat -> differentiable m d g (fst n) ->
  exists g', node_backward m (interp m) gal popf popb g n = Ok g' /\
    (forall i o v, uses g (fst n) i -> nth_error (g_ops g) i = Some o -> o_kind (oi_op o) = KParameter v ->
       exists a a', own_of g i = Some a /\ own_of g' i = Some a' /\ ready d a' /\ t_shape a = t_shape v /\ t_shape a' = t_shape v /\
         forall c q, inb (t_shape v) c -> (q < bat (t_shape v))%nat -> @eq R (at_ a' c q) (at_ a c q + held g' (i, 0%nat) c q)) /\
    (forall i, ~ uses g (fst n) i -> own_of g' i = own_of g i) /\
    (forall i o, uses g (fst n) i -> nth_error (g_ops g) i = Some o -> (forall v, o_kind (oi_op o) <> KParameter v) -> own_of g' i = own_of g i) /\
    (clean (interp m) g' /\ extends g g' /\ extends g' g) /\
    (forall k, ~ uses g (fst n) (fst k) -> grad_of g' k = grad_of g k) /\
    (forall i o v, uses g (fst n) i -> nth_error (g_ops g) i = Some o -> (v < length (oi_vals o))%nat -> exists t, grad_of g' (i, v) = Ok t /\ ready d t /\ t_shape t = node_shape g (i, v)) /\
    forall l, NoDup l -> (forall i, In i l <-> uses g (fst n) i /\ i <> fst n) -> forall W dW, moving d g (fst n) W dW ->
      D (fun t => total m (with_params (W t) g) n + lsum (carried m g (with_params (W t) g)) l) (rsum (length (g_ops g)) (fun i => growth g g' i (dW i))).
Proof.
  intros m gal popf popb g d n HC HG HF HX HA HV DF. destruct (backward_derivative_all HC HG HF HX HA (differentiable_is_below DF)) as (g' & E & A1 & A2 & A3 & A4 & A5 & A6 & DD).
  exists g'. do 7 (split; [assumption|]). intros l ND HL W dW MV. eapply deriv_ext; [|apply (DD l ND HL W dW MV)]. intros t. cbv beta. f_equal.
  destruct (df_root DF) as (o & Ho & L1). unfold totals, ys_of. rewrite Ho, L1, rsum_1. destruct n as [r v]. cbn [fst snd] in * . rewrite HV. reflexivity.
Qed.

(** ** C38 *)
Lemma built_graded m d g root : built m g -> graded d g root /\ forall n c b, held g n c b = 0.
Proof.
  intros HB. split; [constructor|].
  - intros i o v t _ Ho Hv. rewrite (built_grads HB Ho), nth_error_map in Hv. destruct (nth_error (oi_vals o) v) as [y|] eqn:Ey; inversion Hv. eauto.
  - intros o t Ho Ht. rewrite (built_grads HB Ho) in Ht. apply in_map_iff in Ht. destruct Ht as (y & <- & _). reflexivity.
  - intros n c b. unfold held. destruct (grad_of g n) as [t| |] eqn:E; auto. destruct (grad_of_inv E) as (o & Ho & Hv). rewrite (built_grads HB Ho), nth_error_map in Hv. destruct (nth_error (oi_vals o) (snd n)); inversion Hv. reflexivity.
Qed.
Lemma carried_0 m g gt i : (forall v c b, held g (i, v) c b = 0) -> carried m g gt i = 0.
Proof. intros H. unfold carried. apply rsum_0. intros v _. unfold weighted. destruct (eval_node _ _ _); auto. unfold tsum. apply rsum_0. intros b _. apply csum_0. intros c _. rewrite H. ring. Qed.
(** the operators below [root] *)
Lemma below_list (g : rgraph) root : gwf g -> (root < length (g_ops g))%nat -> exists l, NoDup l /\ forall i, In i l <-> uses g root i /\ i <> root.
Proof.
  intros GW L. destruct (requests_spec GW L) as (ND & H). exists (filter (fun i => negb (Nat.eqb i root)) (requests g root)). split; [apply NoDup_filter; auto|]. intros i. rewrite filter_In, H. destruct (Nat.eqb_spec i root); cbn; intuition congruence.
Qed.
Theorem C38_directional_derivative : forall m gal popf popb (g : rgraph) d n, built m g -> min_heap popf -> max_heap popb -> (forall i v, al_ok (gal i v)) ->
  snd n = 0%nat -> differentiable m d g (fst n) ->
  exists g', node_backward m (interp m) gal popf popb g n = Ok g' /\
    (forall i o v, uses g (fst n) i -> nth_error (g_ops g) i = Some o -> o_kind (oi_op o) = KParameter v ->
       exists a a', own_of g i = Some a /\ own_of g' i = Some a' /\ ready d a' /\ t_shape a = t_shape v /\ t_shape a' = t_shape v) /\
    (forall i, ~ uses g (fst n) i -> own_of g' i = own_of g i) /\
    forall W dW, moving d g (fst n) W dW ->
      D (fun t => total m (with_params (W t) g) n) (rsum (length (g_ops g)) (fun i => growth g g' i (dW i))).
Proof.
  intros m gal popf popb g d n HB HF HX HA HV DF. destruct (built_graded d (fst n) HB) as (GR & HZ).
  destruct (backward_derivative (built_clean HB) GR HF HX HA HV DF) as (g' & E & A & B & _ & _ & _ & _ & DD). exists g'. split; auto. split; [intros i o v U Ho EK; destruct (A i o v U Ho EK) as (a & a' & A1 & A2 & A3 & A4 & A5 & _); eauto 8|]. split; auto. intros W dW MV.
  destruct (clean_inv (interp_lawful (K := Rnum) (m := m)) (built_clean HB)) as (GW & _). destruct (df_root DF) as (oR & HoR & _). destruct (below_list GW (nth_error_Some_lt HoR)) as (l & ND & HL).
  eapply deriv_ext; [|apply (DD l ND HL W dW MV)]. intros t. cbv beta. rewrite (lsum_0 (l := l)); [ring|]. intros i _. apply carried_0. intros. apply HZ.
Qed.

Lemma bump_0 d (v : rtensor) c b : ready d v -> inb (t_shape v) c -> (b < bat (t_shape v))%nat -> bump v c b 0 = v.
Proof.
  intros RV Hc Hb. unfold bump. pose proof (pos_lt (ready_wf RV) Hc Hb) as L. pose proof (ready_len RV) as LL. replace (lset (buf v) (pos (t_shape v) c b) (at_ v c b + 0)) with (buf v).
  - destruct v as [s dv bf h]. pose proof (ready_buf RV) as EB. cbn in * . unfold with_buf. cbn. rewrite EB. reflexivity.
  - apply nth_ext with (d := 0) (d' := 0); [rewrite lset_length; auto|]. intros p Hp. rewrite nth_lset by lia. destruct (Nat.eqb_spec p (pos (t_shape v) c b)) as [->|]; auto. rewrite Rplus_0_r, at_buf. reflexivity.
Qed.
Lemma bump_at d (v : rtensor) c0 b0 r c b : ready d v -> inb (t_shape v) c0 -> (b0 < bat (t_shape v))%nat -> inb (t_shape v) c -> (b < bat (t_shape v))%nat ->
  at_ (bump v c0 b0 r) c b = at_ v c b + (if Nat.eqb (pos (t_shape v) c0 b0) (pos (t_shape v) c b) then r else 0).
Proof.
  intros RV Hc0 Hb0 Hc Hb. pose proof (pos_lt (ready_wf RV) Hc0 Hb0) as L0. pose proof (pos_lt (ready_wf RV) Hc Hb) as L. pose proof (ready_len RV) as LL.
  transitivity (nth0 (lset (buf v) (pos (t_shape v) c0 b0) (at_ v c0 b0 + r)) (pos (t_shape v) c b)); [rewrite at_buf; reflexivity|].
  rewrite (@nth_lset (F Rnum)) by (apply Nat.lt_le_trans with (tot (t_shape v)); auto). rewrite Nat.eqb_sym, at_buf. destruct (Nat.eqb_spec (pos (t_shape v) c0 b0) (pos (t_shape v) c b)) as [E|]; [rewrite E|]; rewrite ?at_buf, ?Rplus_0_r; auto.
Qed.
Lemma bump_ready d (v : rtensor) c b r : ready d v -> ready d (bump v c b r) /\ t_shape (bump v c b r) = t_shape v.
Proof. intros RV. split; [|reflexivity]. apply ready_with; auto. apply lset_length. Qed.

(** the gradient a parameter receives, element by element, is the partial derivative *)
Theorem C38_partial_derivatives : forall m gal popf popb (g : rgraph) d n, built m g -> min_heap popf -> max_heap popb -> (forall i v, al_ok (gal i v)) ->
  snd n = 0%nat -> differentiable m d g (fst n) ->
  exists g', node_backward m (interp m) gal popf popb g n = Ok g' /\ (forall i, ~ uses g (fst n) i -> own_of g' i = own_of g i) /\
    forall i o v c b, uses g (fst n) i -> nth_error (g_ops g) i = Some o -> o_kind (oi_op o) = KParameter v -> inb (t_shape v) c -> (b < bat (t_shape v))%nat ->
    exists a a', own_of g i = Some a /\ own_of g' i = Some a' /\
      D (fun t => total m (with_value i (bump v c b t) g) n) (at_ a' c b - at_ a c b).
Proof.
  intros m gal popf popb g d n HB HF HX HA HV DF. destruct (C38_directional_derivative HB HF HX HA HV DF) as (g' & E & OW & NOW & DD). exists g'. split; auto. split; auto.
  intros i o v c0 b0 U Ho EK Hc0 Hb0. destruct (OW i o v U Ho EK) as (a & a' & A1 & A2 & A3 & A4 & A5). exists a, a'. split; auto. split; auto.
  pose proof (sup_wt (df_sup DF U Ho)) as RV. rewrite EK in RV. cbn in RV.
  assert (PV : forall j p w, nth_error (g_ops g) j = Some p -> o_kind (oi_op p) = KParameter w -> param_value g j = w) by (intros j p w Hp EKp; unfold param_value, kind_of; rewrite Hp, EKp; auto).
  eapply deriv_val; [apply (DD (fun t j => if Nat.eqb j i then bump v c0 b0 t else param_value g j) (fun j c b => if Nat.eqb j i then (if Nat.eqb (pos (t_shape v) c0 b0) (pos (t_shape v) c b) then 1 else 0) else 0))|].
  - constructor.
    + intros j p w Uj Hp EKp. cbv beta. destruct (Nat.eqb_spec j i) as [->|]; [|eapply PV; eauto]. assert (w = v) by congruence. subst w. eapply bump_0; eauto.
    + intros t j p w Uj Hp EKp. cbv beta. destruct (Nat.eqb_spec j i) as [->|]. * assert (w = v) by congruence. subst w. apply bump_ready; auto. * rewrite (PV _ _ _ Hp EKp). split; auto. pose proof (sup_wt (df_sup DF Uj Hp)) as RW. rewrite EKp in RW. exact RW.
    + intros j p w c b Uj Hp EKp Hc Hb. cbv beta. destruct (Nat.eqb_spec j i) as [->|]; [|apply deriv_const]. assert (w = v) by congruence. subst w.
      eapply deriv_ext with (f := fun t => at_ v c b + (if Nat.eqb (pos (t_shape v) c0 b0) (pos (t_shape v) c b) then t else 0)); [intros t; symmetry; eapply bump_at; eauto|].
      destruct (Nat.eqb _ _); [|apply deriv_const]. eapply deriv_val; [apply deriv_add; [apply deriv_const|apply deriv_id]|ring].
  - transitivity (rsum (length (g_ops g)) (fun j => if Nat.eqb i j then growth g g' j (fun c b => if Nat.eqb (pos (t_shape v) c0 b0) (pos (t_shape v) c b) then 1 else 0) else 0)).
    + apply rsum_ext. intros j _. rewrite Nat.eqb_sym. destruct (Nat.eqb_spec i j); auto. unfold growth. destruct (own_of g j); auto. destruct (own_of g' j); auto. unfold tsum. apply rsum_0. intros q _. apply csum_0. intros q' _. ring.
    + rewrite rsum_delta by (eapply nth_error_Some_lt; eauto). unfold growth. rewrite A1, A2, A4.
      transitivity (tsum (t_shape v) (fun c b => (fun p => if Nat.eqb (pos (t_shape v) c0 b0) p then nth0 (buf a') p - nth0 (buf a) p else 0) (pos (t_shape v) c b))).
      * apply tsum_ext; [apply (ready_wf RV)|]. intros c b Hc Hb. cbv beta. rewrite !at_buf, A4, A5. destruct (Nat.eqb _ _); [ring|ring].
      * rewrite (tsum_flat (fun p => if Nat.eqb (pos (t_shape v) c0 b0) p then nth0 (buf a') p - nth0 (buf a) p else 0) (ready_wf RV)). rewrite (@rsum_delta _ _ (fun p => nth0 (buf a') p - nth0 (buf a) p)) by (apply pos_lt; auto; apply (ready_wf RV)). rewrite !at_buf, A4, A5. reflexivity.
Qed.

(** ** A concrete case: loss = sum (w * x) with w = (2, 3) a parameter and x = (5, 7) *)
Definition br : buffers Rnum := (fun _ => alr, fun _ => alr).
Definition loss_build : res (rgraph * node) :=
  ' (g1, w) <- n_parameter Debug (@empty Rnum (oper Rnum)) br (PropsReal.tr 0 [2%N] 1 [2; 3]) (PropsReal.tr 0 [2%N] 1 [10; 20]) ;;
  ' (g2, x) <- n_input Debug g1 br (PropsReal.tr 0 [2%N] 1 [5; 7]) ;;
  ' (g3, y) <- n_mul Debug g2 br w x ;;
  n_sum Debug 0 g3 br y.
Lemma built_leaf m g bs k own g' n : built m g -> leaf m g bs k own = Ok (g', n) -> built m g'.
Proof. intros H E. unfold leaf, pop1 in E. apply bind_Ok in E. destruct E as ([g1 ns] & E & E2). apply bind_Ok in E2. destruct E2 as (n1 & _ & E2). inversion E2; subst. eapply b_create; eauto. Qed.
Lemma built_op m g bs k x args g' n : built m g -> pop1 (n_create m g bs k x args) = Ok (g', n) -> built m g'.
Proof. intros H E. unfold n_create, pop1 in E. apply bind_Ok in E. destruct E as ([g1 ns] & E & E2). apply bind_Ok in E2. destruct E2 as (n1 & _ & E2). inversion E2; subst. apply bind_Ok in E. destruct E as (d & _ & E). eapply b_create; eauto. Qed.
Lemma built_op2 m k kl kr g bs a b g' n : built m g -> n_op2 m k kl kr g bs a b = Ok (g', n) -> built m g'.
Proof. intros H E. unfold n_op2 in E. apply bind_Ok in E. destruct E as (va & _ & E). destruct (is_scalar _); [eapply built_op; eauto|]. apply bind_Ok in E. destruct E as (vb & _ & E). destruct (is_scalar _); eapply built_op; eauto. Qed.
Lemma loss_built g n : loss_build = Ok (g, n) -> built Debug g.
Proof.
  unfold loss_build. intros E. apply bind_Ok in E. destruct E as ([g1 w] & E1 & E). apply bind_Ok in E. destruct E as ([g2 x] & E2 & E). apply bind_Ok in E. destruct E as ([g3 y] & E3 & E).
  eapply built_op; [|exact E]. eapply built_op2; [|exact E3]. eapply built_leaf; [|exact E2]. eapply built_leaf; [|exact E1]. constructor.
Qed.
Definition loss_g : rgraph := Eval lazy -[alr Rnum IZR] in fst (okv (@empty Rnum (oper Rnum), (0%nat, 0%nat)) loss_build).
Lemma loss_eq : loss_build = Ok (loss_g, (3%nat, 0%nat)). Proof. reflexivity. Qed.
Lemma loss_uses i : uses loss_g 3 i -> (i < 4)%nat.
Proof. intros U. destruct (clean_inv (interp_lawful (K := Rnum) (m := Debug)) (built_clean (loss_built loss_eq))) as (W & _). apply (uses_lt W U). cbn. lia. Qed.
Definition sh2 : shape := Eval lazy in sh [2%N] 1.
Definition sh1 : shape := Eval lazy in sh [] 1.
Lemma sh2_is : shape_is sh2 (fun i => N.to_nat (nth i [2%N] 1%N)) 1. Proof. exact (sh_is [2%N] (b := 1%N) eq_refl eq_refl). Qed.
Lemma sh1_is : shape_is sh1 (fun i => N.to_nat (nth i [] 1%N)) 1. Proof. exact (sh_is [] (b := 1%N) eq_refl eq_refl). Qed.
Lemma loss_differentiable : differentiable Debug 0 loss_g 3.
Proof.
  assert (R0 : ready 0 (PropsReal.tr 0 [2%N] 1 [2; 3])) by rdyr. assert (R1 : ready 0 (PropsReal.tr 0 [2%N] 1 [5; 7])) by rdyr. assert (R2 : ready 0 (PropsReal.tr 0 [2%N] 1 [10; 20])) by rdyr.
  assert (F2 : fits sh2) by (apply (sh_fits [2%N] (b := 1%N)); reflexivity). assert (F1 : fits sh1) by (apply (sh_fits [] (b := 1%N)); reflexivity).
  assert (AS : forall o, In o (g_ops loss_g) -> Forall fits (map shp (oi_vals o))).
  { intros o Ho. cbn in Ho. repeat destruct Ho as [<-|Ho]; try contradiction; (apply Forall_cons; [first [exact F2|exact F1]|apply Forall_nil]). }
  constructor.
  - intros i o U Ho. pose proof (AS o (nth_error_In _ _ Ho)) as FT. pose proof (loss_uses U) as Li.
    destruct i as [|[|[|[|i]]]]; try lia; cbn in Ho; inversion Ho; subst o; clear Ho; (constructor; [reflexivity| |intros; apply alr_ok|intros; apply alr_ok| |exact FT| |]); cbn -[nat32].
    + exact R0. + split; reflexivity. + exact I. + intros v E. inversion E; subst v. eexists. split; [reflexivity|]. split; [exact R2|reflexivity].
    + exact R1. + split; reflexivity. + exact I. + discriminate.
    + exact I. + exists sh2, sh2, sh2. split; [reflexivity|]. split; [reflexivity|]. split; [reflexivity|]. split; [left; reflexivity|]. exact (conj (proj1 sh2_is) (conj (fun i => eq_refl) eq_refl)). + exact I. + discriminate.
    + exact I. + exists sh2, sh1. split; [reflexivity|]. split; [reflexivity|]. split; [cbn; lia|]. destruct sh1_is as (W & E & B). split; [exact W|split; [|exact B]]. intros i. rewrite E. destruct i as [|i]; [reflexivity|]. destruct sh2_is as (_ & E2 & _). unfold eset. change (S i =? nat32 0)%nat with false. cbv iota. rewrite E2. destruct i; reflexivity. + intros x E. inversion E; subst x. cbn. lia. + discriminate.
  - intros i o xs U Ho EX. pose proof (loss_uses U) as Li. intros s c b ER Hc Hb. destruct i as [|[|[|[|i]]]]; try lia; cbn in Ho; inversion Ho; subst o; cbn; auto.
  - intros i o v U NE Ho Lv. pose proof (loss_uses U) as Li.
    assert (U2 : uses loss_g 3 2) by (eapply uses_step with (n := (2%nat, 0%nat)); [reflexivity|left; reflexivity|constructor]).
    destruct i as [|[|[|[|i]]]]; try lia; cbn in Ho; inversion Ho; subst o; cbn in Lv; assert (v = 0%nat) by lia; subst v.
    + exists 2%nat. split; [exact U2|left; reflexivity].
    + exists 2%nat. split; [exact U2|right; left; reflexivity].
    + exists 3%nat. split; [constructor|left; reflexivity].
  - eexists. split; reflexivity.
Qed.
(** the gradient of w was (10, 20); its second element grows by d/dw_1 (w_0 * 5 + w_1 * 7) *)
Example C38_applies : exists g' a', node_backward Debug (interp Debug) (fun _ _ => alr) fifo_min lifo_max loss_g (3%nat, 0%nat) = Ok g' /\ own_of g' 0 = Some a' /\
  D (fun t => total Debug (with_value 0 (PropsReal.tr 0 [2%N] 1 [2; 3 + t]) loss_g) (3%nat, 0%nat)) (at_ a' (c2 1 0) 0 - 20).
Proof.
  destruct (@C38_partial_derivatives Debug (fun _ _ => alr) fifo_min lifo_max loss_g 0 (3%nat, 0%nat) (loss_built loss_eq)) as (g' & E & _ & H); try apply heaps_ok; auto; [intros; apply alr_ok|exact loss_differentiable|].
  assert (U0 : uses loss_g 3 0). { eapply uses_step with (n := (2%nat, 0%nat)); [reflexivity|left; reflexivity|]. eapply uses_step with (n := (0%nat, 0%nat)); [reflexivity|left; reflexivity|constructor]. }
  destruct (H 0%nat _ (PropsReal.tr 0 [2%N] 1 [2; 3]) (c2 1 0) 0%nat U0 eq_refl eq_refl) as (a & a' & A1 & A2 & DD).
  - intros i. destruct i as [|[|i]]; cbn; lia.
  - cbn; lia.
  - exists g', a'. split; [exact E|]. split; [exact A2|]. inversion A1; subst a. exact DD.
Qed.
