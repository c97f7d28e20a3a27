(** * GraphDiff: the derivative of a graph with respect to its parameters (for C38) *)
From Verif Require Export LocalDiff GraphShape PropsGraph OpsFacts Create.
From Coq Require Import FunctionalExtensionality.
Set Implicit Arguments.
Unset Strict Implicit.
Open Scope R_scope.
Notation rgraph := (graph Rnum (oper Rnum)).
Notation ropinfo := (opinfo Rnum (oper Rnum)).

(** ** Specification *)
(** the same graph with [w i] in place of the value of the parameter operator [i] *)
Definition with_param (w : rtensor) (o : ropinfo) : ropinfo :=
  match o_kind (oi_op o) with
  | KParameter _ => mkOpinfo (mkOper (KParameter w) (o_dev (oi_op o)) (o_fal (oi_op o)) (o_bal (oi_op o)))
                      (oi_args o) (oi_vals o) (oi_grads o) (oi_own o) (oi_fwd o) (oi_depth o)
  | _ => o
  end.
Definition with_params (w : nat -> rtensor) (g : rgraph) : rgraph :=
  mkGraph (map (fun io => with_param (w (fst io)) (snd io)) (combine (seq 0 (length (g_ops g))) (g_ops g))) (g_log g).
Definition node_shape (g : rgraph) (n : nat * nat) : shape := match value_of g n with Ok t => t_shape t | _ => d0 end.
Definition arg_shapes (g : rgraph) (o : ropinfo) : list shape := map (node_shape g) (oi_args o).
(** an operator on device [d] whose operands agree and whose backward code works; a
    parameter has a gradient like its value *)
Record supported (d : nat) (g : rgraph) (o : ropinfo) : Prop := mkSupported {
  sup_dev : device_op (oi_op o) = Ok d;
  sup_wt : wt d (o_kind (oi_op o));
  sup_fal : forall i, al_ok (o_fal (oi_op o) i);
  sup_bal : forall i, al_ok (o_bal (oi_op o) i);
  sup_typed : typed (o_kind (oi_op o)) (arg_shapes g o) (map shp (oi_vals o));
  sup_fits : Forall fits (map shp (oi_vals o));
  sup_bw : has_bw (o_kind (oi_op o)) (arg_shapes g o) (map shp (oi_vals o));
  sup_own : forall v, o_kind (oi_op o) = KParameter v -> exists a, oi_own o = Some a /\ ready d a /\ t_shape a = t_shape v }.

Lemma nth_with_params w g i : nth_error (g_ops (with_params w g)) i = option_map (with_param (w i)) (nth_error (g_ops g) i).
Proof.
  unfold with_params. cbn [g_ops]. rewrite nth_error_map. destruct (nth_error (g_ops g) i) as [o|] eqn:E.
  - rewrite (nth_error_combine_seq 0 E). reflexivity.
  - apply nth_error_None in E. replace (nth_error (combine _ _) i) with (@None (nat * ropinfo)); [reflexivity|]. symmetry. apply nth_error_None. rewrite combine_length, seq_length. lia.
Qed.
Lemma with_param_fields w o : oi_args (with_param w o) = oi_args o /\ oi_vals (with_param w o) = oi_vals o /\ oi_grads (with_param w o) = oi_grads o /\ oi_depth (with_param w o) = oi_depth o /\
  o_dev (oi_op (with_param w o)) = o_dev (oi_op o) /\ o_fal (oi_op (with_param w o)) = o_fal (oi_op o).
Proof. unfold with_param. destruct (o_kind (oi_op o)); cbn; auto 7. Qed.
Lemma with_params_gwf w g : gwf g -> gwf (with_params w g).
Proof.
  intros [A B]. assert (INV : forall i o', nth_error (g_ops (with_params w g)) i = Some o' -> exists o, nth_error (g_ops g) i = Some o /\ o' = with_param (w i) o).
  { intros i o' H. rewrite nth_with_params in H. destruct (nth_error (g_ops g) i) as [o|]; inversion H. eauto. }
  split.
  - intros i o' n H Hn. destruct (INV _ _ H) as (o & Ho & ->). destruct (with_param_fields (w i) o) as (E1 & _ & _ & E4 & _). rewrite E1 in Hn. destruct (A _ _ _ Ho Hn) as (L & p & Hp & L2 & L3).
    split; auto. exists (with_param (w (fst n)) p). rewrite nth_with_params, Hp. destruct (with_param_fields (w (fst n)) p) as (_ & F2 & _ & F4 & _). rewrite F2, F4, E4. auto.
  - intros i o' H. destruct (INV _ _ H) as (o & Ho & ->). destruct (with_param_fields (w i) o) as (_ & E2 & E3 & _). rewrite E2, E3. eauto.
Qed.

Lemma arg_nth (ys : list rtensor) v y : nth_error ys v = Some y -> arg ys v = y.
Proof. intros H. unfold arg. apply nth_error_nth. auto. Qed.

(** leaves have no device of their own *)
Lemma forward_dev m (o : oper Rnum) d fal : device_op o = Ok d -> forward_op m (o_dev o) fal (o_kind o) = forward_op m d fal (o_kind o).
Proof. unfold device_op. destruct (o_kind o); try (intros E; injection E as ->; reflexivity); reflexivity. Qed.
Lemma backward_dev m (o : oper Rnum) d bal : device_op o = Ok d -> backward_op m (o_dev o) bal (o_kind o) = backward_op m d bal (o_kind o).
Proof. unfold device_op. destruct (o_kind o); try (intros E; injection E as ->; reflexivity); reflexivity. Qed.
Lemma with_param_dev w (o : ropinfo) d : device_op (oi_op o) = Ok d -> (forall v, o_kind (oi_op o) = KParameter v -> ready d w) -> device_op (oi_op (with_param w o)) = Ok d.
Proof.
  intros E H. unfold with_param. destruct (o_kind (oi_op o)) eqn:EK; try exact E. cbn. apply (ready_device_of (H _ eq_refl)).
Qed.

Section Eval.
Variable m : build.
Notation itp := (interp (K := Rnum) m).
Variables (g : rgraph) (d root : nat) (w : nat -> rtensor).
Hypothesis GW : gwf g.
Hypothesis PL : placed itp g.
Hypothesis SUP : forall i o, uses g root i -> nth_error (g_ops g) i = Some o -> supported d g o.
Hypothesis PW : forall i o v, uses g root i -> nth_error (g_ops g) i = Some o -> o_kind (oi_op o) = KParameter v -> ready d (w i) /\ t_shape (w i) = t_shape v.
Notation gw := (with_params w g).

Lemma leaf_device (o : ropinfo) : supported d g o -> device_op (oi_op o) = Ok d.
Proof. intros S. apply (sup_dev S). Qed.
Lemma blank_vals i o : uses g root i -> nth_error (g_ops g) i = Some o -> map blank (oi_vals o) = map (@new_tensor Rnum d) (map shp (oi_vals o)).
Proof.
  intros U Ho. rewrite map_map. apply map_ext_in. intros t Ht. destruct (PL Ho Ht) as (A & B). cbn [interp op_device] in A. rewrite (leaf_device (SUP U Ho)) in A.
  unfold blank, new_tensor. destruct (t_dev t) as [e|]; [|congruence]. inversion A. auto.
Qed.
Lemma uses_arg i o n : uses g root i -> nth_error (g_ops g) i = Some o -> In n (oi_args o) -> uses g root (fst n).
Proof. intros U Ho Hn. eapply uses_trans; [exact U|]. eapply uses_step; eauto. constructor. Qed.

(** every operator the root uses has a value *)
Lemma eval_at : forall i o, uses g root i -> nth_error (g_ops g) i = Some o -> exists xs ys,
  mapM (eval_node itp gw) (oi_args o) = Ok xs /\ Forall (ready d) xs /\ map shp xs = arg_shapes g o /\
  eval itp gw i = Ok ys /\ Forall (ready d) ys /\ map shp ys = map shp (oi_vals o) /\
  (forall v s c b, nth_error (map shp (oi_vals o)) v = Some s -> inb s c -> (b < bat s)%nat -> at_ (arg ys v) c b = sem (o_kind (oi_op (with_param (w i) o))) xs v c b).
Proof.
  induction i as [i IH] using (well_founded_induction lt_wf). intros o U Ho. pose proof (SUP U Ho) as S.
  assert (AX : forall n, In n (oi_args o) -> exists y, eval_node itp gw n = Ok y /\ ready d y /\ t_shape y = node_shape g n).
  { intros n Hn. destruct (gwf_args GW Ho Hn) as (L & p & Hp & L2 & _). destruct (IH (fst n) L p (uses_arg U Ho Hn) Hp) as (_ & ys & _ & _ & _ & E & R & SH & _).
    assert (LY : (snd n < length ys)%nat). { rewrite <- (map_length shp ys), SH, map_length. auto. }
    destruct (nth_error ys (snd n)) as [y|] eqn:Ey; [|apply nth_error_None in Ey; lia]. exists y. unfold eval_node. rewrite E. cbn [bind]. rewrite (idx_nth Ey). split; auto. split; [rewrite Forall_forall in R; apply R; eapply nth_error_In; eauto|].
    unfold node_shape, value_of. rewrite (idx_nth Hp). cbn [bind]. destruct (nth_error (oi_vals p) (snd n)) as [q|] eqn:Eq; [|apply nth_error_None in Eq; lia]. rewrite (idx_nth Eq).
    assert (N : nth_error (map shp ys) (snd n) = nth_error (map shp (oi_vals p)) (snd n)) by congruence. rewrite !nth_error_map, Ey, Eq in N. inversion N. auto. }
  assert (XS : exists xs, mapM (eval_node itp gw) (oi_args o) = Ok xs /\ Forall (ready d) xs /\ map shp xs = arg_shapes g o).
  { unfold arg_shapes. clear -AX. induction (oi_args o) as [|n l IHl]; [exists []; repeat split; constructor|]. destruct (AX n) as (y & E1 & E2 & E3); [left; auto|].
    destruct IHl as (xs & X1 & X2 & X3); [intros; apply AX; right; auto|]. exists (y :: xs). rewrite mapM_cons, E1, X1. cbn. repeat split; [constructor; auto|congruence]. }
  destruct XS as (xs & X1 & X2 & X3).
  assert (Hgo : nth_error (g_ops gw) i = Some (with_param (w i) o)) by (rewrite nth_with_params, Ho; auto). destruct (with_param_fields (w i) o) as (F1 & F2 & _ & _ & F5 & F6).
  pose proof (eval_eq itp (with_params_gwf w GW) Hgo) as EV. rewrite F1, X1, F2 in EV. cbn [bind interp op_forward] in EV. rewrite (blank_vals U Ho), F6 in EV. rewrite (@forward_dev m (oi_op (with_param (w i) o)) d _ (with_param_dev (sup_dev S) (fun v EK => proj1 (PW U Ho EK)))) in EV.
  assert (TY : typed (o_kind (oi_op (with_param (w i) o))) (map shp xs) (map shp (oi_vals o)) /\ wt d (o_kind (oi_op (with_param (w i) o)))).
  { rewrite X3. pose proof (sup_typed S) as T. pose proof (sup_wt S) as HW. unfold with_param. destruct (o_kind (oi_op o)) eqn:EK; try (rewrite EK; auto; fail). destruct (PW U Ho EK) as (P1 & P2). cbn [oi_op o_kind typed wt] in * . rewrite P2. auto. }
  destruct (@forward_sem Rnum m d (o_fal (oi_op o)) (sup_fal S) _ xs _ (proj1 TY) (proj2 TY) X2 (sup_fits S)) as (ys & E & LY & HY).
  exists xs, ys. split; auto. split; auto. split; auto. split; [congruence|]. rewrite map_length in LY.
  assert (PT : forall v y s, nth_error ys v = Some y -> nth_error (map shp (oi_vals o)) v = Some s -> is_tensor d s (sem (o_kind (oi_op (with_param (w i) o))) xs v) y) by auto.
  split; [|split].
  - apply Forall_forall. intros y Hy. destruct (In_nth_error _ _ Hy) as (v & Hv). destruct (nth_error (map shp (oi_vals o)) v) as [s|] eqn:Es; [|apply nth_error_None in Es; rewrite map_length in Es; apply nth_error_Some_lt in Hv; lia]. apply (PT v y s Hv Es).
  - apply nth_ext_error. intros v. rewrite nth_error_map. destruct (nth_error ys v) as [y|] eqn:Hv.
    + destruct (nth_error (map shp (oi_vals o)) v) as [s|] eqn:Es; [|apply nth_error_None in Es; rewrite map_length in Es; apply nth_error_Some_lt in Hv; lia]. destruct (PT v y s Hv Es) as (_ & Q & _). cbn. congruence.
    + apply nth_error_None in Hv. symmetry. apply nth_error_None. rewrite map_length. lia.
  - intros v s c b Es Hc Hb. destruct (nth_error ys v) as [y|] eqn:Hv; [|apply nth_error_None in Hv; apply nth_error_Some_lt in Es; rewrite map_length in Es; lia].
    rewrite (arg_nth Hv). apply (PT v y s Hv Es); auto.
Qed.
End Eval.
