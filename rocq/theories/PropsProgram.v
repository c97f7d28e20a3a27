(** * PropsProgram: every program that uses the functions on nodes is differentiated correctly (C38)

    PropsAutoDiff.v proves C38 for graphs whose operators are [supported]; here the functions on nodes are shown to
    create such operators, up to the conditions [usable]. *)
From Verif Require Export Program PropsAutoDiff.
Set Implicit Arguments.
Unset Strict Implicit.
Open Scope R_scope.

(** ** Specification *)
(** what the functions on nodes do not check and the kernels need, for an operator with operands of shapes [ss] and
    outputs of shapes [rs]: no tensor has more than 2^31 elements, reshape keeps the number of elements, triangular
    matrices are square, sum and logsumexp run over a dimension the operand has; negation, batch_pick, batch_slice and
    batch_split have no working backward function (C42) *)
Definition usable (k : kind Rnum) (ss rs : list shape) : Prop :=
  Forall fits rs /\
  match k with
  | KNeg | KBatchPick _ | KBatchSlice _ _ | KBatchSplit _ => False
  | KSum d | KLogsumexp d => forall x, ss = [x] -> (nat32 d < depth x)%nat
  | KPowi n => (n <> -2147483648)%Z
  | KReshape r => forall x, ss = [x] -> tot r = tot x
  | KTriangularL n | KTriangularU n => forall x, ss = [x] -> matrix x /\ ext x 1 = ext x 0 /\ (N.of_nat (ext x 0) + n <= two32)%N
  | KSoftmaxCrossEntropy _ => forall x t s, ss = [x; t] -> batchable x t s -> fits s
  | KSparseSoftmaxCrossEntropy _ _ => forall x y, ss = [x] -> rs = [y] -> (N.of_nat (bat y * vol x) <= 2147483648)%N
  | KMatmul => forall a b y, ss = [a; b] -> rs = [y] -> (N.of_nat (bat y * vol a) <= 2147483648)%N /\ (N.of_nat (bat y * vol b) <= 2147483648)%N
  | _ => True
  end.
(** the loss [n] of the program: it has one output, everything it uses is usable and differentiable at the current
    values, and all outputs of its splits are used *)
Record loss_of (g : rgraph) (n : node) : Prop := mkLoss {
  l_one : snd n = 0%nat /\ exists o, nth_error (g_ops g) (fst n) = Some o /\ length (oi_vals o) = 1%nat;
  l_usable : forall i o, uses g (fst n) i -> nth_error (g_ops g) i = Some o -> usable (o_kind (oi_op o)) (arg_shapes g o) (map shp (oi_vals o));
  l_smooth : forall i o xs, uses g (fst n) i -> nth_error (g_ops g) i = Some o -> mapM (eval_node (interp Debug) g) (oi_args o) = Ok xs -> smooth (o_kind (oi_op o)) xs (map shp (oi_vals o));
  l_used : forall i o v, uses g (fst n) i -> i <> fst n -> nth_error (g_ops g) i = Some o -> (v < length (oi_vals o))%nat -> exists j, uses g (fst n) j /\ In (i, v) (args_of g j) }.

(** ** Programs are built *)
Lemma built_n_create m g bs k x args g' ns : built m g -> n_create m g bs k x args = Ok (g', ns) -> built m g'.
Proof. intros H E. unfold n_create in E. apply bind_Ok in E. destruct E as (d & _ & E). eapply b_create; eauto. Qed.
Lemma program_built d (g : rgraph) : program d g -> built Debug g.
Proof.
  induction 1 as [|g bs t g' n H IH HB HR E|g bs t g' n H IH HB HR E|g bs v t g' n H IH HB HR HR' ES E|k g bs x g' n H IH HB HK HS E|k kl kr g bs a b g' n H IH HB HI E|dim g bs x t g' n H IH HB E|g bs a b g' n H IH HB E
    |dim k g bs x g' ns H IH HB E|k g bs x g' ns H IH HB E|dim g bs xs g' n H IH HB E|g bs xs g' n H IH HB E|g pop n g' H IH HP HL E].
  - constructor.
  - exact (built_leaf IH E).
  - exact (built_leaf IH E).
  - exact (built_leaf IH E).
  - exact (built_op IH E).
  - exact (built_op2 IH E).
  - exact (built_op IH E).
  - exact (built_op IH E).
  - exact (built_n_create IH E).
  - exact (built_n_create IH E).
  - unfold n_concat in E. apply bind_Ok in E. destruct E as (? & _ & E). apply bind_Ok in E. destruct E as (x0 & _ & E). exact (built_op IH E).
  - unfold n_batch_concat in E. apply bind_Ok in E. destruct E as (? & _ & E). apply bind_Ok in E. destruct E as (x0 & _ & E). exact (built_op IH E).
  - eapply b_forward; [exact IH|exact HP|exact HL|exact E].
Qed.

(** ** Usable operators are supported *)
Lemma node_shape_some (g : rgraph) n s : SafeGraph4.node_shape g n = Some s -> node_shape g n = s.
Proof.
  unfold SafeGraph4.node_shape, node_shape, value_of, idx. destruct (nth_error (g_ops g) (fst n)) as [o|]; [|discriminate]. cbn [bind]. rewrite nth_error_map. destruct (nth_error (oi_vals o) (snd n)) as [v|]; [|discriminate]. cbn. congruence.
Qed.
Lemma args_are (g : rgraph) xs ss : Forall2 (fun n s => SafeGraph4.node_shape g n = Some s) xs ss -> map (node_shape g) xs = ss.
Proof. induction 1 as [|n s xs ss H H' IH]; cbn; auto. rewrite IH, (node_shape_some H). auto. Qed.
Lemma node_shape_wf (g : rgraph) n s : ginv g -> SafeGraph4.node_shape g n = Some s -> wf s.
Proof.
  intros G H. unfold SafeGraph4.node_shape in H. destruct (nth_error (g_ops g) (fst n)) as [o|] eqn:Ho; [|discriminate]. rewrite nth_error_map in H. destruct (nth_error (oi_vals o) (snd n)) as [v|] eqn:Hv; [|discriminate]. cbn in H. injection H as <-.
  destruct (G _ _ Ho) as (_ & D1 & _). rewrite Forall_forall in D1. apply sane_wf. apply D1. eapply nth_error_In; eauto.
Qed.
Theorem program_supported d (g : rgraph) i o : program d g -> nth_error (g_ops g) i = Some o -> usable (o_kind (oi_op o)) (arg_shapes g o) (map shp (oi_vals o)) -> supported d g o.
Proof.
  intros P Ho (HF & HU). pose proof (session_ginv (program_session P)) as G. destruct (G _ _ Ho) as ((S1 & S2 & S3 & ss & S4 & S5 & S6) & _). destruct (program_proper P Ho) as (P1 & P2 & P3 & P4 & _).
  pose proof (args_are S4) as AS. fold (arg_shapes g o) in AS. rewrite AS in HU.
  assert (W : Forall wf ss) by (clear - S4 G; induction S4; constructor; auto; eapply node_shape_wf; eauto).
  assert (L : length (oi_args o) = length ss) by (clear - S4; induction S4; cbn; auto).
  assert (AR : arity_ok (o_kind (oi_op o)) ss) by (unfold arity_ok; rewrite <- L; exact P3).
  assert (O1 : forall x, arity (o_kind (oi_op o)) = Some 1%nat -> nth_error ss 0 = Some x -> ss = [x]) by (intros x EA Hx; rewrite EA in P3; destruct ss as [|y [|z l]]; cbn in * ; try lia; congruence).
  constructor; auto; try (intros j; apply (S2 j)).
  - rewrite AS. eapply creation_typed; [exact W|exact AR| |exact S5]. destruct (o_kind (oi_op o)) eqn:EK; cbn [unchecked supplied scalar_kind arity] in * ; auto; try (destruct HU; fail).
    + intros x t Ex. split; [right; apply Rnum_commutes|]. intros s Hs. eapply HU; eauto.
  - rewrite AS. destruct (o_kind (oi_op o)) eqn:EK; cbn [has_bw]; auto.
Qed.

(** ** C38 for programs *)
Lemma loss_is_differentiable d (g : rgraph) n : program d g -> loss_of g n -> differentiable Debug d g (fst n).
Proof. intros P [(_ & L1) L2 L3 L4]. constructor; auto. intros i o U Ho. eapply program_supported; eauto. Qed.
(** [n.backward()] succeeds, and adds to the gradient of every parameter the loss uses the partial derivatives of the
    loss; the gradients of the other parameters are left as they are *)
Theorem C38_programs : forall gal popf popb (g : rgraph) d n, program d g -> loss_of g n -> min_heap popf -> max_heap popb -> fair_grads gal ->
  exists g', node_backward Debug (interp Debug) gal popf popb g n = Ok g' /\
    (forall i, ~ uses g (fst n) i -> own_of g' i = own_of g i) /\
    forall i o v, uses g (fst n) i -> nth_error (g_ops g) i = Some o -> o_kind (oi_op o) = KParameter v ->
    exists a a', own_of g i = Some a /\ own_of g' i = Some a' /\ ready d a' /\ t_shape a' = t_shape v /\
      forall c b, inb (t_shape v) c -> (b < bat (t_shape v))%nat -> D (fun t => total Debug (with_value i (bump v c b t) g) n) (at_ a' c b - at_ a c b).
Proof.
  intros gal popf popb g d n P L HF HX HA. pose proof (loss_is_differentiable P L) as DF. pose proof (proj1 (l_one L)) as L0.
  destruct (C38_directional_derivative (program_built P) HF HX HA L0 DF) as (g' & E & OW & NOW & _). destruct (C38_partial_derivatives (program_built P) HF HX HA L0 DF) as (g2 & E2 & _ & PD).
  assert (QQ : g2 = g') by congruence. rewrite QQ in PD. exists g'. split; auto. split; auto. intros i o v U Ho EK. destruct (OW i o v U Ho EK) as (a & a' & A1 & A2 & A3 & A4 & A5). exists a, a'. split; auto. split; auto. split; auto. split; auto.
  intros c b Hc Hb. destruct (PD i o v c b U Ho EK Hc Hb) as (b1 & b2 & B1 & B2 & DD). replace b1 with a in DD by congruence. replace b2 with a' in DD by congruence. exact DD.
Qed.

(** *** A concrete program: loss = sum (w * x), see PropsAutoDiff.v *)
Lemma br_fair : fair_buffers br. Proof. intros i. split; apply alr_ok. Qed.
Lemma loss_program : program 0 loss_g.
Proof.
  pose proof loss_eq as E. unfold loss_build in E. apply bind_Ok in E. destruct E as ([g1 w] & E1 & E). apply bind_Ok in E. destruct E as ([g2 x] & E2 & E). apply bind_Ok in E. destruct E as ([g3 y] & E3 & E).
  refine (pr_op1 (k := KSum 0%N) _ br_fair eq_refl I E). refine (pr_op2 _ br_fair _ E3); [|right; right; left; reflexivity].
  refine (pr_input _ br_fair _ E2); [|rdyr]. refine (pr_parameter (pr_empty Rnum 0) br_fair _ _ _ E1); [rdyr|rdyr|reflexivity].
Qed.
Lemma loss_is_loss : loss_of loss_g (3%nat, 0%nat).
Proof.
  pose proof loss_differentiable as [D1 D2 D3 D4]. constructor; auto. intros i o U Ho. split; [apply (sup_fits (D1 i o U Ho))|]. pose proof (sup_bw (D1 i o U Ho)) as B. pose proof (loss_uses U) as Li.
  destruct i as [|[|[|[|i]]]]; try lia; cbn in Ho; inversion Ho; subst o; cbn [o_kind oi_op] in * ; auto.
Qed.
Example C38_programs_applies : exists g' a', node_backward Debug (interp Debug) (fun _ _ => alr) lifo_min fifo_max loss_g (3%nat, 0%nat) = Ok g' /\ own_of g' 0 = Some a' /\
  D (fun t => total Debug (with_value 0 (PropsReal.tr 0 [2%N] 1 [2 + t; 3]) loss_g) (3%nat, 0%nat)) (at_ a' (c2 0 0) 0 - 10).
Proof.
  destruct (@C38_programs (fun _ _ => alr) lifo_min fifo_max loss_g 0 (3%nat, 0%nat) loss_program loss_is_loss) as (g' & E & _ & H); try apply heaps_ok; [intros i v; apply alr_ok|].
  assert (U0 : uses loss_g 3 0). { eapply uses_step with (n := (2%nat, 0%nat)); [reflexivity|left; reflexivity|]. eapply uses_step with (n := (0%nat, 0%nat)); [reflexivity|left; reflexivity|constructor]. }
  destruct (H 0%nat _ (PropsReal.tr 0 [2%N] 1 [2; 3]) U0 eq_refl eq_refl) as (a & a' & A1 & A2 & _ & _ & DD). exists g', a'. split; [exact E|]. split; [exact A2|]. inversion A1; subst a.
  refine (DD (c2 0 0) 0%nat _ _); [|cbn; lia]. intros i. destruct i as [|[|i]]; cbn; lia.
Qed.
