(** * NodeFacts: what creating an operator on nodes with known values gives *)
From Verif Require Export Agree PropsGraph ApiComp.
Set Implicit Arguments.
Unset Strict Implicit.

Section NodeFacts.
Variable K : num.
Notation F := (F K).
Notation tensor := (tensor K).
Variable m : build.
Notation itp := (@interp K m).
Notation graph := (graph K (oper K)).
Notation node := (nat * nat)%type.
Notation buffers := (buffers K).
Notation nat32 x := (N.to_nat x).

Definition is_leaf (k : kind K) : bool := match k with KInput _ | KInputOwner _ | KParameter _ => true | _ => false end.
Definition valued (g : graph) (xs : list node) (vs : list tensor) : Prop := Forall2 (fun n v => eval_node itp g n = Ok v) xs vs.

Lemma clean_create (g : graph) bs k x xs r : clean itp g -> n_create m g bs k x xs = Ok r -> clean itp (fst r).
Proof. intros H E. unfold n_create in E. inv_ok. destruct r. eapply c_create; eauto. Qed.
Lemma create_facts (g : graph) bs k x xs vx vs d : clean itp g -> valued g xs vs -> eval_node itp g x = Ok vx -> t_dev vx = Some d -> is_leaf k = false ->
  (forall r, n_create m g bs k x xs = Ok r -> exists rs, forward_shape m k (map (@t_shape K) vs) = Ok rs /\ clean itp (fst r) /\ extends g (fst r) /\
     snd r = map (fun v => (length (g_ops g), v)) (seq 0 (length rs)) /\ length (g_ops g) < length (g_ops (fst r)) /\
     eval itp (fst r) (length (g_ops g)) = forward_op m d (fst bs) k vs (map (@new_tensor K d) rs)) /\
  (forall rs, forward_shape m k (map (@t_shape K) vs) = Ok rs -> exists r, n_create m g bs k x xs = Ok r).
Proof.
  intros HC HV EX HD HL. pose proof (clean_history HC) as HH.
  assert (DV : device_at itp g x = Ok d) by (eapply eval_device; eauto; apply interp_lawful).
  assert (DO : op_device (itp (mkOper k d (fst bs) (snd bs))) = Ok d) by (cbn; destruct k; try discriminate HL; reflexivity).
  destruct (@create_eval K _ itp (@interp_lawful K m) g (mkOper k d (fst bs) (snd bs)) None xs vs d HH HV DO) as (A & B).
  unfold n_create. rewrite DV. cbn [bind]. split; [|exact B].
  intros r E. destruct (A r E) as (rs & E1 & E2 & E3 & E4 & E5). exists rs. split; [exact E1|]. split; [destruct r; eapply c_create; eauto|]. split; [auto|]. split; [auto|]. split; [|exact E5].
  destruct r as [g' ns]. apply create_inv in E. destruct E as (? & ? & ? & ? & ? & _ & _ & _ & _ & _ & _ & _ & _ & EG & _). cbn [fst]. rewrite EG. cbn [g_ops]. rewrite app_length. cbn. lia.
Qed.
Lemma forward_op_length d fal (k : kind K) xs ys ys' : forward_op m d fal k xs ys = Ok ys' -> length ys' = length ys.
Proof. intros E. pose proof (@interp_lawful K m (mkOper k d fal fal) xs ys ys' E) as H. apply (f_equal (@length _)) in H. rewrite !map_length in H. exact H. Qed.
(** methods returning one node *)
Lemma one_node (g : graph) bs k x xs vx vs d y : clean itp g -> valued g xs vs -> eval_node itp g x = Ok vx -> t_dev vx = Some d -> is_leaf k = false ->
  (forall rs, forward_shape m k (map (@t_shape K) vs) = Ok rs -> length rs = 1) ->
  (exists g' n, pop1 (n_create m g bs k x xs) = Ok (g', n) /\ eval_node itp g' n = Ok y) <->
  (exists rs, forward_shape m k (map (@t_shape K) vs) = Ok rs /\ forward_op m d (fst bs) k vs (map (@new_tensor K d) rs) = Ok [y]).
Proof.
  intros HC HV EX HD HL H1. destruct (create_facts bs HC HV EX HD HL) as (A & B). split.
  - intros (g' & n & E & EV). unfold pop1 in E. apply bind_Ok in E. destruct E as ([g2 ns] & E & E2). destruct (A _ E) as (rs & S & _ & _ & EN & _ & EE). cbn [fst snd] in * .
    exists rs. split; [auto|]. specialize (H1 rs S). rewrite H1 in EN. cbn in EN. subst ns. cbn in E2. inversion E2; subst g' n.
    unfold eval_node in EV. cbn [fst snd] in EV. apply bind_Ok in EV. destruct EV as (vs' & E3 & E4). rewrite E3 in EE. rewrite <- EE. pose proof (forward_op_length (eq_sym EE)) as L. rewrite map_length, H1 in L.
    destruct vs' as [|a [|b l]]; try discriminate L. cbn in E4. inversion E4; subst. reflexivity.
  - intros (rs & S & EF). destruct (B rs S) as ([g' ns] & E). destruct (A _ E) as (rs' & S' & _ & _ & EN & _ & EE). cbn [fst snd] in * . assert (rs' = rs) by congruence. subst rs'.
    rewrite (H1 rs S) in EN. cbn in EN. exists g', (length (g_ops g), 0). unfold pop1. rewrite E. subst ns. split; [reflexivity|]. unfold eval_node. cbn [fst snd]. rewrite EE, EF. reflexivity.
Qed.
(** ... and the graph it leaves *)
Lemma one_node_graph (g : graph) bs k x xs vx vs d g' n : clean itp g -> valued g xs vs -> eval_node itp g x = Ok vx -> t_dev vx = Some d -> is_leaf k = false ->
  (forall rs, forward_shape m k (map (@t_shape K) vs) = Ok rs -> length rs = 1) ->
  pop1 (n_create m g bs k x xs) = Ok (g', n) -> clean itp g' /\ extends g g' /\ fst n < length (g_ops g').
Proof.
  intros HC HV EX HD HL H1 E. destruct (create_facts bs HC HV EX HD HL) as (A & _). unfold pop1 in E. apply bind_Ok in E. destruct E as ([g2 ns] & E & E2).
  destruct (A _ E) as (rs & S & C & X & EN & L & EE). cbn [fst snd] in * . rewrite (H1 rs S) in EN. cbn in EN. subst ns. cbn in E2. inversion E2; subst. auto.
Qed.
Lemma kept (g g' : graph) x v : clean itp g -> extends g g' -> eval_node itp g x = Ok v -> eval_node itp g' x = Ok v.
Proof.
  intros HC X E. destruct (clean_inv (@interp_lawful K m) HC) as (W & _). unfold eval_node in * . rewrite (eval_extends itp W X); auto.
  destruct (Nat.lt_ge_cases (fst x) (length (g_ops g))); auto. exfalso. unfold eval in E. cbn [eval_op] in E. rewrite (proj2 (nth_error_None _ _)) in E by auto. discriminate.
Qed.

Lemma single_shape1 f ss rs : shape1 f ss = Ok rs -> length rs = 1.
Proof. unfold shape1. intros E. inv_ok. reflexivity. Qed.
Lemma single_shape2 f ss rs : shape2 f ss = Ok rs -> length rs = 1.
Proof. unfold shape2. intros E. inv_ok. reflexivity. Qed.
Definition is_split (k : kind K) : bool := match k with KSplit _ _ | KBatchSplit _ => true | _ => false end.
Lemma single_output (k : kind K) ss rs : is_split k = false -> forward_shape m k ss = Ok rs -> length rs = 1.
Proof.
  destruct k; intros HS E; try discriminate HS; cbn [forward_shape] in E; unfold shape_ab, shape_same in E;
    first [exact (single_shape1 E)|exact (single_shape2 E)|inv_ok; reflexivity].
Qed.
Lemma valued1 (g : graph) x v : eval_node itp g x = Ok v -> valued g [x] [v].
Proof. intros; constructor; auto; constructor. Qed.
Lemma valued2 (g : graph) a b va vb : eval_node itp g a = Ok va -> eval_node itp g b = Ok vb -> valued g [a; b] [va; vb].
Proof. intros; constructor; auto; apply valued1; auto. Qed.

(** ** both operands scalars *)
Definition method_sc (fal : nat -> alloc_oracle K) (k : kind K) : option (tensor -> tensor -> res tensor) :=
  match k with
  | KAdd => Some (fun a b => d <- device_of a ;; add_scalar_fw m d (fal 0) b a)
  | KSub => Some (fun a b => d <- device_of a ;; sub_scalar_l_fw m d (fal 0) b a)
  | KMul => Some (fun a b => d <- device_of a ;; mul_scalar_fw m d (fal 0) b a)
  | KDiv => Some (fun a b => d <- device_of a ;; div_scalar_l_fw m d (fal 0) b a)
  | _ => None end.
Definition scalar_l (k : kind K) : kind K := match k with KAdd => KAddScalar | KSub => KSubScalarL | KMul => KMulScalar | KDiv => KDivScalarL | KPow => KPowScalarL | _ => k end.
Definition scalar_r (k : kind K) : kind K := match k with KAdd => KAddScalar | KSub => KSubScalarR | KMul => KMulScalar | KDiv => KDivScalarR | KPow => KPowScalarR | _ => k end.
Lemma scalar_elementwise a b : wf a -> wf b -> is_scalar a = true -> is_scalar b = true -> forall s, so_elementwise a b = Ok s <-> so_scalar_op a b = Ok s.
Proof.
  intros Wa Wb Sa Sb s. rewrite so_elementwise_iff, so_scalar_op_iff; auto. pose proof (proj1 (is_scalar_iff Wa) Sa) as A. pose proof (proj1 (is_scalar_iff Wb) Sb) as B.
  split; intros (P & Q & R); split; auto; intros i; rewrite A, B; reflexivity.
Qed.
Lemma scalar_mirror fal k tf d a b y : method_sc fal k = Some tf -> ready d a -> ready d b -> is_scalar (t_shape a) = true -> is_scalar (t_shape b) = true ->
  (exists rs, forward_shape m (scalar_l k) [t_shape b; t_shape a] = Ok rs /\ forward_op m d fal (scalar_l k) [b; a] (map (@new_tensor K d) rs) = Ok [y]) <-> tf a b = Ok y.
Proof.
  intros E HRa HRb Sa Sb. pose proof (ready_device_of HRa) as ED. pose proof (scalar_elementwise (ready_wf HRb) (ready_wf HRa) Sb Sa) as EQ.
  destruct k; cbn [method_sc] in E; inversion E; subst; clear E; cbn [scalar_l forward_shape forward_op]; unfold shape_ab, shape2, fw2; cbn [idx nth_error bind]; rewrite ED; cbn [bind];
    (apply (@mirror K _ _ d y); [intros t E; unfold add_scalar_fw, sub_scalar_l_fw, mul_scalar_fw, div_scalar_l_fw, define_fw_ab in E; inv_ok; eexists; apply EQ; eauto|
      intros s Es; unfold add_scalar_fw, sub_scalar_l_fw, mul_scalar_fw, div_scalar_l_fw, define_fw_ab; apply makes_bind; intros _ _; apply makes_bind; intros _ _; rewrite (proj1 (EQ _) Es); cbn [bind]; apply new_call]).
Qed.

Lemma pow_scalar_mirror fal d a b y : ready d a -> ready d b -> is_scalar (t_shape a) = true -> is_scalar (t_shape b) = true ->
  (exists rs, forward_shape m (@KPowScalarL K) [t_shape b; t_shape a] = Ok rs /\ forward_op m d fal KPowScalarL [b; a] (map (@new_tensor K d) rs) = Ok [y]) <-> powf_scalar_l_fw m d (fal 0) b a = Ok y.
Proof.
  intros HRa HRb Sa Sb. pose proof (scalar_elementwise (ready_wf HRb) (ready_wf HRa) Sb Sa) as EQ.
  cbn [forward_shape forward_op]; unfold shape_ab, shape2, fw2; cbn [idx nth_error bind].
  apply (@mirror K _ _ d y); [intros t E; unfold powf_scalar_l_fw, define_fw_ab in E; inv_ok; eexists; apply EQ; eauto|
      intros s Es; unfold powf_scalar_l_fw, define_fw_ab; apply makes_bind; intros _ _; apply makes_bind; intros _ _; rewrite (proj1 (EQ _) Es); cbn [bind]; apply new_call].
Qed.
(** softmax_cross_entropy of two scalars *)
Lemma cross_entropy_scalar_mirror fal dim d a b y : (forall i, al_ok (fal i)) -> ready d a -> ready d b -> is_scalar (t_shape a) = true -> is_scalar (t_shape b) = true ->
  (exists rs, forward_shape m (@KSoftmaxCrossEntropy K dim) [t_shape a; t_shape b] = Ok rs /\ forward_op m d fal (KSoftmaxCrossEntropy dim) [a; b] (map (@new_tensor K d) rs) = Ok [y]) <-> t_softmax_cross_entropy m fal a b dim = Ok y.
Proof.
  intros HA HRa HRb Sa Sb. cbn [forward_shape forward_op]; unfold shape_ab, shape2, fw2; cbn [idx nth_error bind].
  assert (ML : forall l, t_ln_softmax m fal a dim = Ok l -> t_dev l = Some d /\ t_shape l = t_shape a) by (intros l El; destruct (ln_softmax_makes HA HRa El) as (A & B & _); auto).
  assert (MM : forall l, t_dev l = Some d -> t_shape l = t_shape a -> forall al z, t_mul m al b l = Ok z -> exists s, so_elementwise (t_shape a) (t_shape b) = Ok s /\ t_dev z = Some d /\ t_shape z = s).
  { intros l D S al z Ez. unfold t_mul, define_ab_op in Ez. rewrite Sb in Ez. rewrite (ready_device_of HRb) in Ez. cbn [bind] in Ez. unfold mul_scalar_fw, define_fw_ab in Ez.
    apply bind_Ok in Ez. destruct Ez as (? & _ & Ez). apply bind_Ok in Ez. destruct Ez as (? & _ & Ez). apply bind_Ok in Ez. destruct Ez as (s & Es & Ez).
    destruct (new_call Ez) as (A & B & _). exists s. rewrite S in Es. split; auto. apply scalar_elementwise; auto; [apply (ready_wf HRa)|apply (ready_wf HRb)]. }
  apply mirror.
  - intros t E. unfold t_softmax_cross_entropy in E. apply bind_Ok in E. destruct E as (l & El & E). destruct (ML l El) as (D & S). apply bind_Ok in E. destruct E as (z & Ez & E).
    destruct (MM l D S _ z Ez) as (s & Es & Dz & Sz). apply bind_Ok in E. destruct E as (u & Eu & E). unfold t_sum, sum_fw, reduce_fw in Eu. inv_ok. rewrite Es. cbn [bind]. rewrite <- Sz. eauto.
  - intros s E. apply bind_Ok in E. destruct E as (s0 & Es0 & E). unfold t_softmax_cross_entropy. apply makes_bind. intros l El. destruct (ML l El) as (D & S).
    apply makes_bind. intros z Ez. destruct (MM l D S _ z Ez) as (s1 & Es & Dz & Sz). assert (ES : s1 = s0) by congruence. rewrite ES in Sz. apply makes_bind. intros u Eu.
    assert (MU : makes (t_sum m (fal 4) z dim) d s). { unfold t_sum, sum_fw, reduce_fw, device_of. rewrite Dz. cbn [unwrap bind]. apply makes_bind. intros _ _. rewrite Sz, E. cbn [bind]. apply new_call. }
    destruct (MU u Eu) as (Du & Su & _). rewrite <- Su. apply neg_makes; auto.
Qed.
End NodeFacts.
