(** * Program: graphs built by the functions on nodes (for C38 and C59) *)
From Verif Require Export PropsSafeGraph Create.
Set Implicit Arguments.
Unset Strict Implicit.

Section Program.
Variable K : num.
Notation F := (F K).
Notation tensor := (tensor K).
Notation graph := (graph K (oper K)).
Notation node := (nat * nat)%type.
Notation itp := (@interp K Debug).

(** ** Specification *)
(** the graphs of a program that only uses tensors of device [d]: it makes nodes of tensors and parameters, applies the
    functions on nodes, and evaluates. A function that panics leaves no node behind (Graph.v, [create]). *)
Inductive program (d : nat) : graph -> Prop :=
| pr_empty : program d empty
| pr_input g bs t g' n : program d g -> fair_buffers bs -> ready d t -> n_input Debug g bs t = Ok (g', n) -> program d g'
| pr_input_owner g bs t g' n : program d g -> fair_buffers bs -> ready d t -> n_input_owner Debug g bs t = Ok (g', n) -> program d g'
| pr_parameter g bs value gradient g' n : program d g -> fair_buffers bs -> ready d value -> ready d gradient -> t_shape gradient = t_shape value ->
    n_parameter Debug g bs value gradient = Ok (g', n) -> program d g'
| pr_op1 k g bs x g' n : program d g -> fair_buffers bs -> arity k = Some 1 -> supplied k -> n_op1 Debug k g bs x = Ok (g', n) -> program d g'
| pr_op2 k kl kr g bs a b g' n : program d g -> fair_buffers bs ->
    In (k, kl, kr) [(KAdd, KAddScalar, KAddScalar); (KSub, KSubScalarL, KSubScalarR); (KMul, KMulScalar, KMulScalar); (KDiv, KDivScalarL, KDivScalarR); (KPow, KPowScalarL, KPowScalarR)] ->
    n_op2 Debug k kl kr g bs a b = Ok (g', n) -> program d g'
| pr_softmax_cross_entropy dim g bs x t g' n : program d g -> fair_buffers bs -> n_softmax_cross_entropy Debug dim g bs x t = Ok (g', n) -> program d g'
| pr_matmul g bs a b g' n : program d g -> fair_buffers bs -> n_matmul Debug g bs a b = Ok (g', n) -> program d g'
| pr_split dim k g bs x g' ns : program d g -> fair_buffers bs -> n_split Debug dim k g bs x = Ok (g', ns) -> program d g'
| pr_batch_split k g bs x g' ns : program d g -> fair_buffers bs -> n_batch_split Debug k g bs x = Ok (g', ns) -> program d g'
| pr_concat dim g bs xs g' n : program d g -> fair_buffers bs -> n_concat Debug dim g bs xs = Ok (g', n) -> program d g'
| pr_batch_concat g bs xs g' n : program d g -> fair_buffers bs -> n_batch_concat Debug g bs xs = Ok (g', n) -> program d g'
| pr_evaluate g pop n g' : program d g -> min_heap pop -> fst n < length (g_ops g) -> node_forward itp pop g n = (g', Ok tt) -> program d g'.

(** ** Programs are sessions *)
Theorem program_session d g : program d g -> session g.
Proof.
  induction 1 as [|g bs t g' n H IH HB HR E|g bs t g' n H IH HB HR E|g bs v t g' n H IH HB HR HR' ES E|k g bs x g' n H IH HB HK HS E|k kl kr g bs a b g' n H IH HB HI E|dim g bs x t g' n H IH HB E|g bs a b g' n H IH HB E
    |dim k g bs x g' ns H IH HB E|k g bs x g' ns H IH HB E|dim g bs xs g' n H IH HB E|g bs xs g' n H IH HB E|g pop n g' H IH HP HL E].
  - constructor.
  - destruct (@C58_leaves K g bs g' n IH HB) as (A & _). eapply A; [apply (ready_sane HR)|exact E].
  - destruct (@C58_leaves K g bs g' n IH HB) as (_ & A & _). eapply A; [apply (ready_sane HR)|exact E].
  - destruct (@C58_leaves K g bs g' n IH HB) as (_ & _ & A). eapply A; [apply (ready_sane HR)|apply (ready_sane HR')|exact ES|exact E].
  - eapply C58_functions_with_one_operand; [exact IH|exact HB|exact HS| |exact E]. destruct k; try discriminate HK; reflexivity.
  - eapply C58_arithmetic; eauto.
  - destruct (@C58_functions_with_more_operands K g bs g' IH HB) as (A & _). eauto.
  - destruct (@C58_functions_with_more_operands K g bs g' IH HB) as (_ & A & _). eauto.
  - destruct (@C58_functions_with_more_operands K g bs g' IH HB) as (_ & _ & A & _). eauto.
  - destruct (@C58_functions_with_more_operands K g bs g' IH HB) as (_ & _ & _ & A & _). eauto.
  - destruct (@C58_functions_with_more_operands K g bs g' IH HB) as (_ & _ & _ & _ & A & _). eauto.
  - destruct (@C58_functions_with_more_operands K g bs g' IH HB) as (_ & _ & _ & _ & _ & A). eauto.
  - eapply s_forward; eauto.
Qed.

(** ** Their operators *)
Definition proper (d : nat) (o : opinfo K (oper K)) : Prop :=
  device_op (oi_op o) = Ok d /\ wt d (o_kind (oi_op o)) /\ (match arity (o_kind (oi_op o)) with Some n => length (oi_args o) = n | None => True end) /\
  (forall v, o_kind (oi_op o) = KParameter v -> exists a, oi_own o = Some a /\ ready d a /\ t_shape a = t_shape v) /\
  ((forall v, o_kind (oi_op o) <> KParameter v) -> oi_own o = None).
Definition all_proper d (g : graph) : Prop := forall i o, nth_error (g_ops g) i = Some o -> proper d o.

Lemma create_proper d (g : graph) op own xs g' ns : all_proper d g -> create itp g op own xs = Ok (g', ns) ->
  (forall vals grads dep, proper d (mkOpinfo op xs vals grads own false dep)) -> all_proper d g'.
Proof.
  intros A E H. apply create_inv in E. destruct E as (ss & rs & vals & grads & ds & _ & _ & _ & _ & _ & _ & _ & _ & -> & _).
  intros i o Ho. cbn [g_ops] in Ho. destruct (Nat.lt_ge_cases i (length (g_ops g))) as [L|L]; [rewrite nth_error_app1 in Ho by auto; eauto|].
  rewrite nth_error_app2 in Ho by auto. destruct (i - length (g_ops g)) as [|j]; cbn in Ho; [|destruct j; discriminate]. injection Ho as <-. apply H.
Qed.
Lemma n_create_proper d (g : graph) bs k x xs g' ns : all_proper d g -> supplied k -> arity k <> Some 0 -> match arity k with Some n => length xs = n | None => True end -> n_create Debug g bs k x xs = Ok (g', ns) -> all_proper d g'.
Proof.
  intros A HS HN HK E. unfold n_create in E. apply bind_Ok in E. destruct E as (e & Ed & E). assert (e = d).
  { unfold device_at in Ed. apply bind_Ok in Ed. destruct Ed as (o & Eo & Ed). apply idx_nth_inv in Eo. destruct (A _ _ Eo) as (Q & _). cbn [interp op_device] in Ed. congruence. }
  subst e. eapply create_proper; [exact A|exact E|]. intros vals grads dep. unfold proper. cbn [oi_op o_kind o_dev oi_args oi_own device_op].
  split; [destruct k; try reflexivity; exfalso; apply HN; reflexivity|]. split; [destruct k; cbn in *; auto; exfalso; apply HN; reflexivity|]. split; [exact HK|]. split; [intros v ->; exfalso; apply HN; reflexivity|auto].
Qed.
Lemma leaf_proper d (g : graph) bs k own g' n : all_proper d g -> arity k = Some 0 -> wt d k -> (forall v, k = KParameter v -> exists a, own = Some a /\ ready d a /\ t_shape a = t_shape v) ->
  ((forall v, k <> KParameter v) -> own = None) -> leaf Debug g bs k own = Ok (g', n) -> all_proper d g'.
Proof.
  intros A HK HW HO HN E. unfold leaf in E. apply pop1_inv in E. destruct E as (ns & E). eapply create_proper; [exact A|exact E|]. intros vals grads dep. unfold proper. cbn [oi_op o_kind oi_args oi_own]. rewrite HK.
  split; [|auto]. unfold device_op. cbn [o_kind]. destruct k; try discriminate HK; cbn in HW; apply (ready_device_of HW).
Qed.
Lemma forward_keeps_op pop (g g' : graph) root r : forward itp pop g root = (g', r) -> forall i, option_map (fun o => (oi_op o, oi_args o, oi_own o)) (nth_error (g_ops g') i) = option_map (fun o => (oi_op o, oi_args o, oi_own o)) (nth_error (g_ops g) i).
Proof.
  unfold forward. generalize (pop (depth0 g) (requests g root)) as l. intros l. revert g. induction l as [|j l IH]; intros g E i; cbn in E; [inversion E; reflexivity|].
  assert (K1 : forall i, option_map (fun o => (oi_op o, oi_args o, oi_own o)) (nth_error (g_ops (fst (step_fw itp g j))) i) = option_map (fun o => (oi_op o, oi_args o, oi_own o)) (nth_error (g_ops g) i)).
  { clear. intros i. unfold step_fw. destruct (nth_error (g_ops g) j) as [o|] eqn:Ho; [|reflexivity]. destruct (oi_fwd o); [reflexivity|]. pose proof (nth_error_Some_lt Ho) as L.
    destruct (bind _ _); cbn [fst g_ops set_op]; rewrite ?nth_error_lset by (rewrite ?lset_length; auto); destruct (Nat.eqb_spec i j) as [->|]; rewrite ?Ho; try reflexivity. }
  destruct (step_fw itp g j) as [g1 r1] eqn:E1. cbn [fst] in K1. destruct r1; try (inversion E; subst; apply K1). rewrite (IH _ E i). apply K1.
Qed.
Theorem program_proper d g : program d g -> all_proper d g.
Proof.
  induction 1 as [|g bs t g' n H IH HB HR E|g bs t g' n H IH HB HR E|g bs v t g' n H IH HB HR HR' ES E|k g bs x g' n H IH HB HK HS E|k kl kr g bs a b g' n H IH HB HI E|dim g bs x t g' n H IH HB E|g bs a b g' n H IH HB E
    |dim k g bs x g' ns H IH HB E|k g bs x g' ns H IH HB E|dim g bs xs g' n H IH HB E|g bs xs g' n H IH HB E|g pop n g' H IH HP HL E].
  - intros [|i] o Ho; discriminate.
  - refine (leaf_proper IH _ _ _ _ E); [reflexivity|exact HR|discriminate|auto].
  - refine (leaf_proper IH _ _ _ _ E); [reflexivity|exact HR|discriminate|auto].
  - refine (leaf_proper IH _ _ _ _ E); [reflexivity|exact HR|intros w Ew; injection Ew as <-; eauto|]. intros C. exfalso. eapply C. reflexivity.
  - apply pop1_inv in E. destruct E as (ns & E). eapply n_create_proper; [exact IH|exact HS| | |exact E]; rewrite HK; [discriminate|reflexivity].
  - assert (HS : (supplied k /\ arity k = Some 2) /\ (supplied kl /\ arity kl = Some 2) /\ (supplied kr /\ arity kr = Some 2)) by (cbn [In] in HI; repeat (destruct HI as [HI|HI]; [injection HI as <- <- <-; cbn; auto 6|]); destruct HI).
    destruct HS as ((S1 & A1) & (S2 & A2) & S3 & A3). unfold n_op2 in E. apply bind_Ok in E. destruct E as (va & _ & E).
    destruct (is_scalar (t_shape va)); [|apply bind_Ok in E; destruct E as (vb & _ & E); destruct (is_scalar (t_shape vb))]; apply pop1_inv in E; destruct E as (ns & E);
      (refine (n_create_proper IH _ _ _ E); auto; rewrite ?A1, ?A2, ?A3; [discriminate|reflexivity]).
  - apply pop1_inv in E. destruct E as (ns & E). refine (n_create_proper IH _ _ _ E); [exact I|discriminate|reflexivity].
  - apply pop1_inv in E. destruct E as (ns & E). refine (n_create_proper IH _ _ _ E); [exact I|discriminate|reflexivity].
  - refine (n_create_proper IH _ _ _ E); [exact I|discriminate|reflexivity].
  - refine (n_create_proper IH _ _ _ E); [exact I|discriminate|reflexivity].
  - unfold n_concat in E. apply bind_Ok in E. destruct E as (? & _ & E). apply bind_Ok in E. destruct E as (x0 & _ & E). apply pop1_inv in E. destruct E as (ns & E). refine (n_create_proper IH _ _ _ E); [exact I|discriminate|exact I].
  - unfold n_batch_concat in E. apply bind_Ok in E. destruct E as (? & _ & E). apply bind_Ok in E. destruct E as (x0 & _ & E). apply pop1_inv in E. destruct E as (ns & E). refine (n_create_proper IH _ _ _ E); [exact I|discriminate|exact I].
  - intros i o Ho. pose proof (forward_keeps_op E i) as Q. rewrite Ho in Q. destruct (nth_error (g_ops g) i) as [o0|] eqn:Ho0; [|discriminate]. cbn in Q. injection Q as Q1 Q2 Q3. destruct (IH _ _ Ho0) as (P1 & P2 & P3 & P4 & P5).
    unfold proper. rewrite Q1, Q2, Q3. auto.
Qed.
End Program.
