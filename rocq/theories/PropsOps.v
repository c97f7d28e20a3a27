(** * PropsOps: C34 nodes and tensors compute the same, C33 shape inference, C42 backward passes *)
From Verif Require Import NodeFacts Typed Create BwSem.
Set Implicit Arguments.
Unset Strict Implicit.

(** ** C34 *)
Section Same.
Variable K : num.
Notation F := (F K).
Notation tensor := (tensor K).
Variable m : build.
Notation itp := (@interp K m).
Notation graph := (graph K (oper K)).
Notation node := (nat * nat)%type.
Notation buffers := (buffers K).
Notation oracles := (nat -> alloc_oracle K).
Notation nat32 x := (N.to_nat x).

(** a method creates a node and [to_vec] of that node is [l] *)
Definition reads (pop : heap) (r : res (graph * node)) (l : list F) : Prop :=
  exists g' n, r = Ok (g', n) /\ snd (node_to_vec m itp pop g' n) = Ok l.
(** a function returns a tensor whose [to_vec] is [l] *)
Definition holds (r : res tensor) (l : list F) : Prop := exists y, r = Ok y /\ to_vec m y = Ok l.
(** a method [nf] of nodes and a method [tf] of tensors agree: on a node whose value
    is the tensor [v], both give the same elements, and one is refused (at creation or
    when it is evaluated) exactly when the other is *)
Definition same1 (nf : graph -> buffers -> node -> res (graph * node)) (tf : oracles -> tensor -> res tensor) : Prop :=
  forall pop g bs x v d l, min_heap pop -> clean itp g -> (forall i, al_ok (fst bs i)) -> eval_node itp g x = Ok v -> ready d v ->
  reads pop (nf g bs x) l <-> holds (tf (fst bs) v) l.
Definition same2 (ok : shape -> shape -> Prop) (nf : graph -> buffers -> node -> node -> res (graph * node)) (tf : oracles -> tensor -> tensor -> res tensor) : Prop :=
  forall pop g bs a b va vb d l, min_heap pop -> clean itp g -> (forall i, al_ok (fst bs i)) -> eval_node itp g a = Ok va -> ready d va -> eval_node itp g b = Ok vb -> ready d vb ->
  ok (t_shape va) (t_shape vb) -> reads pop (nf g bs a b) l <-> holds (tf (fst bs) va vb) l.

(** from values of expressions to [to_vec] *)
Lemma reads_of pop r (tr : res tensor) l : min_heap pop ->
  (forall g' n, r = Ok (g', n) -> clean itp g' /\ fst n < length (g_ops g')) ->
  (forall y, (exists g' n, r = Ok (g', n) /\ eval_node itp g' n = Ok y) <-> tr = Ok y) -> reads pop r l <-> holds tr l.
Proof.
  intros HP HG HY. split.
  - intros (g' & n & E & EV). destruct (HG _ _ E) as (C & L). apply (C35_to_vec m (@interp_lawful K m) l C HP L) in EV. destruct EV as (t & Et & El).
    exists t. split; auto. apply HY. eauto.
  - intros (y & Ey & El). apply HY in Ey. destruct Ey as (g' & n & E & EV). exists g', n. split; auto. destruct (HG _ _ E) as (C & L).
    apply (C35_to_vec m (@interp_lawful K m) l C HP L). eauto.
Qed.

Lemma op1_same k tf : is_leaf k = false -> is_split k = false -> (forall fal, method1 m fal k = Some (tf fal)) -> same1 (n_op1 m k) tf.
Proof.
  intros HL HS HM pop g bs x v d l HP HC HA EX HR. assert (HD : t_dev v = Some d) by apply HR.
  assert (H1 : forall rs, forward_shape m k (map (@t_shape K) [v]) = Ok rs -> length rs = 1) by (intros rs; apply single_output; auto).
  apply reads_of; auto.
  - intros g' n E. destruct (one_node_graph HC (valued1 EX) EX HD HL H1 E) as (A & _ & B). auto.
  - intros y. unfold n_op1. rewrite (one_node bs y HC (valued1 EX) EX HD HL H1). exact (@method1_mirror K m (fst bs) k _ d v y HA (HM _) HR).
Qed.
Ltac o1 := apply op1_same; [reflexivity|reflexivity|reflexivity].

(** every method of one node *)
Theorem C34_one_operand :
  same1 (n_neg m) (fun al x => t_neg m (al 0) x) /\
  same1 (n_abs m) (fun al x => t_abs m (al 0) x) /\
  same1 (n_sqrt m) (fun al x => t_sqrt m (al 0) x) /\
  same1 (n_sin m) (fun al x => t_sin m (al 0) x) /\
  same1 (n_cos m) (fun al x => t_cos m (al 0) x) /\
  same1 (n_tan m) (fun al x => t_tan m (al 0) x) /\
  same1 (n_exp m) (fun al x => t_exp m (al 0) x) /\
  same1 (n_ln m) (fun al x => t_ln m (al 0) x) /\
  same1 (n_tanh m) (fun al x => t_tanh m (al 0) x) /\
  same1 (n_sigmoid m) (fun al x => t_sigmoid m (al 0) x) /\
  same1 (n_softplus m) (fun al x => t_softplus m (al 0) x) /\
  same1 (n_relu m) (fun al x => t_relu m (al 0) x) /\
  same1 (n_lrelu m) (fun al x => t_lrelu m (al 0) x) /\
  same1 (n_transpose m) (fun al x => t_transpose m (al 0) x) /\
  same1 (n_batch_sum m) (fun al x => t_batch_sum m (al 0) x) /\
  same1 (n_flatten m) (fun al x => t_flatten m (al 0) x).
Proof.
  ssplit; try o1.
  intros pop g bs x v d l HP HC HA EX HR. destruct (clean_inv (@interp_lawful K m) HC) as (W & _). destruct (eval_shape (@interp_lawful K m) W EX) as (w & EW & SW & _).
  unfold n_flatten, t_flatten. rewrite EW. cbn [bind]. rewrite SW. destruct (shape_new m [volume (t_shape v)] (batch (t_shape v))) as [s| |]; cbn [bind].
  - assert (S : same1 (n_reshape m s) (fun al x => t_reshape m (al 0) x s)) by o1. exact (S pop g bs x v d l HP HC HA EX HR).
  - split; [intros (? & ? & E & _); discriminate|intros (? & E & _); discriminate].
  - split; [intros (? & ? & E & _); discriminate|intros (? & E & _); discriminate].
Qed.
Theorem C34_constant_operand : forall k : F,
  same1 (n_add_const m k) (fun al x => t_add_const m (al 0) x k) /\
  same1 (n_sub_const m k) (fun al x => t_sub_const m (al 0) x k) /\
  same1 (n_const_sub m k) (fun al x => t_const_sub m (al 0) k x) /\
  same1 (n_mul_const m k) (fun al x => t_mul_const m (al 0) x k) /\
  same1 (n_div_const m k) (fun al x => t_div_const m (al 0) x k) /\
  same1 (n_const_div m k) (fun al x => t_const_div m (al 0) k x) /\
  same1 (n_powf m k) (fun al x => t_powf m (al 0) x k) /\
  same1 (n_prelu m k) (fun al x => t_prelu m (al 0) x k).
Proof. intros k. ssplit; o1. Qed.
Theorem C34_integer_operands : forall (n : Z) (d i j : N) (ids : list N) (s : shape),
  same1 (n_powi m n) (fun al x => t_powi m (al 0) x n) /\
  same1 (n_sum m d) (fun al x => t_sum m (al 0) x d) /\
  same1 (n_max m d) (fun al x => t_max m (al 0) x d) /\
  same1 (n_min m d) (fun al x => t_min m (al 0) x d) /\
  same1 (n_logsumexp m d) (fun al x => t_logsumexp m (al 0) x d) /\
  same1 (n_broadcast m d i) (fun al x => t_broadcast m (al 0) x d i) /\
  same1 (n_triangular_l m d) (fun al x => t_triangular_l m (al 0) x d) /\
  same1 (n_triangular_u m d) (fun al x => t_triangular_u m (al 0) x d) /\
  same1 (n_slice m d i j) (fun al x => t_slice m (al 0) x d i j) /\
  same1 (n_batch_slice m i j) (fun al x => t_batch_slice m (al 0) x i j) /\
  same1 (n_pick m ids d) (fun al x => t_pick m (al 0) x ids d) /\
  same1 (n_batch_pick m ids) (fun al x => t_batch_pick m (al 0) x ids) /\
  same1 (n_reshape m s) (fun al x => t_reshape m (al 0) x s) /\
  same1 (n_sparse_softmax_cross_entropy m ids d) (fun al x => t_sparse_softmax_cross_entropy m al x ids d).
Proof. intros. ssplit; o1. Qed.

(** two nodes *)
Lemma op2_plain k tf g bs a b va vb d : is_leaf k = false -> is_split k = false -> (forall fal, method2 m fal k = Some (tf fal)) ->
  clean itp g -> (forall i, al_ok (fst bs i)) -> eval_node itp g a = Ok va -> ready d va -> eval_node itp g b = Ok vb -> ready d vb ->
  is_scalar (t_shape va) = false -> is_scalar (t_shape vb) = false -> forall pop l, min_heap pop ->
  reads pop (pop1 (n_create m g bs k a [a; b])) l <-> holds (tf (fst bs) va vb) l.
Proof.
  intros HL HS HM HC HA EA HRa EB HRb Sa Sb pop l HP. assert (HD : t_dev va = Some d) by apply HRa.
  assert (H1 : forall rs, forward_shape m k (map (@t_shape K) [va; vb]) = Ok rs -> length rs = 1) by (intros rs; apply single_output; auto).
  apply reads_of; auto.
  - intros g' n E. destruct (one_node_graph HC (valued2 EA EB) EA HD HL H1 E) as (A & _ & B). auto.
  - intros y. rewrite (one_node bs y HC (valued2 EA EB) EA HD HL H1). exact (@method2_mirror K m (fst bs) k _ d va vb y HA (HM _) HRa HRb Sa Sb).
Qed.
Definition neither_scalar (a b : shape) : Prop := is_scalar a = false /\ is_scalar b = false.
Definition both_or_neither_scalar (a b : shape) : Prop := is_scalar a = is_scalar b.
Lemma op2_same k tf : (forall fal, method2 m fal k = Some (tf fal)) -> (forall fal, exists sc, method_sc m fal k = Some sc /\ forall a b, is_scalar (t_shape a) = true -> tf fal a b = sc a b) ->
  is_leaf k = false -> is_split k = false -> is_leaf (scalar_l k) = false -> is_split (scalar_l k) = false ->
  same2 both_or_neither_scalar (n_op2 m k (scalar_l k) (scalar_r k)) tf.
Proof.
  intros HM HSC HL HS HL' HS' pop g bs a b va vb d l HP HC HA EA HRa EB HRb HSS. unfold both_or_neither_scalar in HSS.
  destruct (clean_inv (@interp_lawful K m) HC) as (W & _). destruct (eval_shape (@interp_lawful K m) W EA) as (wa & EWa & SWa & _). destruct (eval_shape (@interp_lawful K m) W EB) as (wb & EWb & SWb & _).
  unfold n_op2. rewrite EWa, EWb. cbn [bind]. rewrite SWa, SWb. destruct (is_scalar (t_shape va)) eqn:Sa.
  - assert (HD : t_dev va = Some d) by apply HRa. destruct (HSC (fst bs)) as (sc & EM & EQ). rewrite (EQ va vb Sa).
    assert (H1 : forall rs, forward_shape m (scalar_l k) (map (@t_shape K) [vb; va]) = Ok rs -> length rs = 1) by (intros rs; apply single_output; auto).
    apply reads_of; auto.
    + intros g' n E. destruct (one_node_graph HC (valued2 EB EA) EA HD HL' H1 E) as (A & _ & B). auto.
    + intros y. rewrite (one_node bs y HC (valued2 EB EA) EA HD HL' H1). apply scalar_mirror; auto.
  - rewrite <- HSS. cbn [bind]. eapply op2_plain; eauto.
Qed.
Theorem C34_two_operands :
  same2 both_or_neither_scalar (n_add m) (fun al a b => t_add m (al 0) a b) /\
  same2 both_or_neither_scalar (n_sub m) (fun al a b => t_sub m (al 0) a b) /\
  same2 both_or_neither_scalar (n_mul m) (fun al a b => t_mul m (al 0) a b) /\
  same2 both_or_neither_scalar (n_div m) (fun al a b => t_div m (al 0) a b) /\
  same2 (fun _ _ => True) (n_matmul m) (fun al a b => t_matmul m (al 0) a b) /\
  forall d, same2 both_or_neither_scalar (n_softmax_cross_entropy m d) (fun al x t => t_softmax_cross_entropy m al x t d).
Proof.
  ssplit.
  1-4: (apply op2_same; try reflexivity; intros fal; eexists; split; [reflexivity|]; intros a b H; unfold t_add, t_sub, t_mul, t_div, define_ab_op; rewrite H; reflexivity).
  - intros pop g bs a b va vb d l HP HC HA EA HRa EB HRb _. assert (HD : t_dev va = Some d) by apply HRa.
    assert (H1 : forall rs, forward_shape m (@KMatmul K) (map (@t_shape K) [va; vb]) = Ok rs -> length rs = 1) by (intros rs; apply single_output; auto).
    unfold n_matmul. apply reads_of; auto.
    + intros g' n E. destruct (@one_node_graph K m g bs KMatmul _ _ _ _ _ _ _ HC (valued2 EA EB) EA HD eq_refl H1 E) as (A & _ & B). auto.
    + intros y. rewrite (@one_node K m g bs KMatmul _ _ _ _ _ y HC (valued2 EA EB) EA HD eq_refl H1). cbn [map forward_shape forward_op]. unfold shape2, fw2, t_matmul. cbn [idx nth_error bind].
      rewrite (ready_device_of HRa). cbn [bind].
      apply (@mirror K _ _ d y); [intros t E; unfold matmul_fw in E; inv_ok; eauto|intros s Es; unfold matmul_fw; apply makes_bind; intros _ _; apply makes_bind; intros _ _; rewrite Es; cbn [bind]; apply new_call].
  - intros dim pop g bs a b va vb d l HP HC HA EA HRa EB HRb SS. unfold both_or_neither_scalar in SS. unfold n_softmax_cross_entropy. destruct (is_scalar (t_shape va)) eqn:Sa.
    { assert (HD : t_dev va = Some d) by apply HRa.
      assert (H1 : forall rs, forward_shape m (@KSoftmaxCrossEntropy K dim) (map (@t_shape K) [va; vb]) = Ok rs -> length rs = 1) by (intros rs; apply single_output; auto).
      apply reads_of; auto.
      - intros g' n E. destruct (@one_node_graph K m g bs (KSoftmaxCrossEntropy dim) _ _ _ _ _ _ _ HC (valued2 EA EB) EA HD eq_refl H1 E) as (A & _ & B). auto.
      - intros y. rewrite (@one_node K m g bs (KSoftmaxCrossEntropy dim) _ _ _ _ _ y HC (valued2 EA EB) EA HD eq_refl H1). apply cross_entropy_scalar_mirror; auto. }
    symmetry in SS. eapply (@op2_plain (KSoftmaxCrossEntropy dim) (fun al x t => t_softmax_cross_entropy m al x t dim)); eauto.
Qed.

(** concatenations *)
Definition same_list (nf : graph -> buffers -> list node -> res (graph * node)) (tf : oracles -> list tensor -> res tensor) : Prop :=
  forall pop g bs xs vs d l, min_heap pop -> clean itp g -> (forall i, al_ok (fst bs i)) -> Forall2 (fun x v => eval_node itp g x = Ok v) xs vs -> Forall (ready d) vs ->
  reads pop (nf g bs xs) l <-> holds (tf (fst bs) vs) l.
Lemma cat_same k tf : is_leaf k = false -> is_split k = false ->
  (forall fal d xs y, Forall (ready d) xs -> (xs <> [] /\ exists rs, forward_shape m k (map (@t_shape K) xs) = Ok rs /\ forward_op m d fal k xs (map (@new_tensor K d) rs) = Ok [y]) <-> tf fal xs = Ok y) ->
  same_list (fun g bs xs => _ <- assert (negb (length xs =? 0)) ;; x0 <- idx xs 0 ;; pop1 (n_create m g bs k x0 xs)) tf.
Proof.
  intros HL HS HM pop g bs xs vs d l HP HC HA HV HR. destruct HV as [|x v xs vs EX HV].
  - cbn [length Nat.eqb negb assert bind]. split; [intros (? & ? & E & _); discriminate|]. intros (y & E & _). apply (HM _ d) in E; auto. destruct E as (E & _). contradiction.
  - cbn [length Nat.eqb negb assert bind idx nth_error]. assert (HD : t_dev v = Some d) by apply (Forall_inv HR).
    assert (HV' : valued m g (x :: xs) (v :: vs)) by (constructor; auto).
    assert (H1 : forall rs, forward_shape m k (map (@t_shape K) (v :: vs)) = Ok rs -> length rs = 1) by (intros rs; apply single_output; auto).
    apply reads_of; auto.
    + intros g' n E. destruct (one_node_graph HC HV' EX HD HL H1 E) as (A & _ & B). auto.
    + intros y. rewrite (one_node bs y HC HV' EX HD HL H1). rewrite <- (HM (fst bs) d (v :: vs) y HR). split; [intros H; split; [discriminate|exact H]|intros (_ & H); exact H].
Qed.
Theorem C34_concat :
  (forall d, same_list (fun g bs xs => n_concat m d g bs xs) (fun al xs => t_concat m (al 0) xs d)) /\
  same_list (fun g bs xs => n_batch_concat m g bs xs) (fun al xs => t_batch_concat m (al 0) xs).
Proof.
  split; [intros dim|]; apply cat_same; try reflexivity; intros fal d xs y HR; [apply concat_mirror|apply batch_concat_mirror]; auto.
Qed.

(** splits: the same number of results, with the same elements in the same order *)
Definition reads_all (pop : heap) (r : res (graph * list node)) (ls : list (list F)) : Prop :=
  exists g' ns, r = Ok (g', ns) /\ Forall2 (fun n l => snd (node_to_vec m itp pop g' n) = Ok l) ns ls.
Definition holds_all (r : res (list tensor)) (ls : list (list F)) : Prop := exists ys, r = Ok ys /\ Forall2 (fun y l => to_vec m y = Ok l) ys ls.
Definition same_parts (nf : graph -> buffers -> node -> res (graph * list node)) (tf : oracles -> tensor -> res (list tensor)) : Prop :=
  forall pop g bs x v d ls, min_heap pop -> clean itp g -> (forall i, al_ok (fst bs i)) -> eval_node itp g x = Ok v -> ready d v -> ls <> [] ->
  reads_all pop (nf g bs x) ls <-> holds_all (tf (fst bs) v) ls.
Lemma split_same k tf : is_leaf k = false ->
  (forall fal d x ys, ready d x -> (exists rs, forward_shape m k [t_shape x] = Ok rs /\ forward_op m d fal k [x] (map (@new_tensor K d) rs) = Ok ys) <-> tf fal x = Ok ys) ->
  same_parts (fun g bs x => n_create m g bs k x [x]) tf.
Proof.
  intros HL HM pop g bs x v d ls HP HC HA EX HR HN. assert (HD : t_dev v = Some d) by apply HR. destruct (create_facts bs HC (valued1 EX) EX HD HL) as (A & B).
  split.
  - intros (g' & ns & E & EV). destruct (A _ E) as (rs & S & C & X & EN & L & EE). cbn [fst snd] in * .
    assert (EY : exists ys, eval itp g' (length (g_ops g)) = Ok ys).
    { destruct EV as [|n l ns' ls' EV _]; [contradiction|]. destruct (seq 0 (length rs)) as [|i0 js]; [discriminate|]. cbn [map] in EN. inversion EN; subst.
      apply (C35_to_vec m (@interp_lawful K m) l C HP) in EV; [|exact L]. destruct EV as (t & Et & _). unfold eval_node in Et. cbn [fst] in Et. inv_ok. eauto. }
    destruct EY as (ys & EY). rewrite EY in EE. exists ys. split; [apply (HM _ d); auto; exists rs; auto|]. pose proof (forward_op_length (eq_sym EE)) as LY. rewrite map_length in LY.
    assert (EV' : Forall2 (fun n l => exists t, eval_node itp g' n = Ok t /\ to_vec m t = Ok l) ns ls).
    { subst ns. revert EV. generalize (seq 0 (length rs)). clear -HP C L. intros js. revert ls. induction js as [|j js IH]; intros ls EV; inversion EV; subst; constructor; [|auto].
      apply (C35_to_vec m (@interp_lawful K m) _ C HP) in H1; [auto|exact L]. }
    clear -EV' EN EY LY. subst ns. rewrite <- LY in EV'. unfold eval_node in EV'. cbn [fst snd] in EV'.
    assert (G : forall k ls, Forall2 (fun n l => exists t, (vs <- eval itp g' (fst n) ;; idx vs (snd n)) = Ok t /\ to_vec m t = Ok l) (map (fun v => (length (g_ops g), v)) (seq k (length ys - k))) ls -> Forall2 (fun y l => to_vec m y = Ok l) (skipn k ys) ls).
    { intros k. remember (length ys - k) as r. revert k Heqr. induction r as [|r IH]; intros k Hr ls0 H; cbn [seq map] in H; inversion H; subst.
      - rewrite skipn_all2 by lia. constructor.
      - destruct H2 as (t & Et & El). cbn [fst snd] in Et. rewrite EY in Et. cbn [bind] in Et. apply idx_nth_inv in Et.
        assert (SK : skipn k ys = t :: skipn (S k) ys). { clear -Et. revert k Et. induction ys as [|y ys IH]; intros k Et; [destruct k; discriminate|]. destruct k; cbn in Et |- * ; [congruence|]. apply IH; auto. }
        rewrite SK. constructor; auto. apply IH; [lia|auto]. }
    specialize (G 0 ls). rewrite Nat.sub_0_r in G. apply G. exact EV'.
  - intros (ys & ET & EV). apply (HM _ d) in ET; auto. destruct ET as (rs & S & EF). destruct (B rs S) as ([g' ns] & E). destruct (A _ E) as (rs' & S' & C & X & EN & L & EE). cbn [fst snd] in * .
    cbn [map] in S'. assert (rs' = rs) by congruence. subst rs'. rewrite EF in EE. pose proof (forward_op_length EF) as LY. rewrite map_length in LY.
    exists g', ns. split; auto. subst ns. rewrite <- LY. clear -EV EE L HP C.
    assert (G : forall k ls, Forall2 (fun y l => to_vec m y = Ok l) (skipn k ys) ls -> Forall2 (fun n l => snd (node_to_vec m itp pop g' n) = Ok l) (map (fun v => (length (g_ops g), v)) (seq k (length ys - k))) ls).
    { intros k. remember (length ys - k) as r. revert k Heqr. induction r as [|r IH]; intros k Hr ls0 H.
      - rewrite skipn_all2 in H by lia. inversion H; subst. constructor.
      - cbn. destruct (nth_error ys k) as [t|] eqn:Et; [|apply nth_error_None in Et; lia].
        assert (SK : skipn k ys = t :: skipn (S k) ys). { clear -Et. revert k Et. induction ys as [|y ys IH]; intros k Et; [destruct k; discriminate|]. destruct k; cbn in Et |- * ; [congruence|]. apply IH; auto. }
        rewrite SK in H. inversion H; subst. constructor; [|apply IH; [lia|auto]].
        apply (C35_to_vec m (@interp_lawful K m) _ C HP); [exact L|]. exists t. split; auto. unfold eval_node. cbn [fst snd]. rewrite EE. cbn [bind]. apply idx_nth; auto. }
    specialize (G 0 ls). rewrite Nat.sub_0_r in G. apply G. exact EV.
Qed.
Theorem C34_split : forall d n,
  same_parts (fun g bs x => n_split m d n g bs x) (fun al x => t_split m al x d n) /\
  same_parts (fun g bs x => n_batch_split m n g bs x) (fun al x => t_batch_split m al x n).
Proof.
  intros dim n. split; apply split_same; try reflexivity; intros fal d x ys HR; [apply split_mirror|apply batch_split_mirror]; auto.
Qed.

(** methods made of several operators *)
Lemma op1_step k tf g bs x v d y : is_leaf k = false -> is_split k = false -> (forall fal, method1 m fal k = Some (tf fal)) ->
  clean itp g -> (forall i, al_ok (fst bs i)) -> eval_node itp g x = Ok v -> ready d v -> tf (fst bs) v = Ok y ->
  exists g' n, n_op1 m k g bs x = Ok (g', n) /\ eval_node itp g' n = Ok y /\ clean itp g' /\ extends g g' /\ fst n < length (g_ops g').
Proof.
  intros HL HS HM HC HA EX HR ET. assert (HD : t_dev v = Some d) by apply HR.
  assert (H1 : forall rs, forward_shape m k (map (@t_shape K) [v]) = Ok rs -> length rs = 1) by (intros rs; apply single_output; auto).
  apply (@method1_mirror K m (fst bs) k _ d v y HA (HM _) HR) in ET. apply (one_node bs y HC (valued1 EX) EX HD HL H1) in ET.
  destruct ET as (g' & n & E & EV). exists g', n. split; [exact E|]. split; [auto|]. exact (one_node_graph HC (valued1 EX) EX HD HL H1 E).
Qed.
Lemma ln_steps d als (x : tensor) dim : (forall i, al_ok (als i)) -> ready d x -> nat32 dim < 8 ->
  exists l b, t_logsumexp m (als 0) x dim = Ok l /\ ready d l /\ t_broadcast m (als 1) l dim (index (t_shape x) (nat32 dim)) = Ok b /\ ready d b /\ t_shape b = t_shape x.
Proof.
  intros HA HR Hd. set (e := nat32 dim) in *. unfold t_logsumexp, t_broadcast. rewrite (ready_device_of HR). cbn [bind].
  destruct (@logsumexp_yields K m d (als 0) x dim) as (s & R & (l & El & Hl)); auto. exists l.
  pose proof (is_tensor_ready Hl) as Rl. pose proof (is_tensor_shape Hl) as Es. rewrite (ready_device_of Rl). cbn [bind]. fold e in R.
  destruct (@broadcast_yields K m d (als 1) l dim (index (t_shape x) e) (t_shape x)) as (bt & Eb & Hb); auto.
  - fold e. rewrite Es. apply (rd_one R).
  - pose proof (wf_index_pos e (ready_wf HR)). lia.
  - fold e. rewrite Es. split; [apply (ready_wf HR)|]. split; [|symmetry; apply (rd_bat R)].
    intros i. unfold eset. destruct (Nat.eqb_spec i e) as [->|Hi]; [reflexivity|]. symmetry. apply (rd_ext R); auto.
  - apply (ready_fits HR).
  - exists bt. split; [exact El|]. split; [exact Rl|]. split; [exact Eb|]. split; [apply (is_tensor_ready Hb)|apply (is_tensor_shape Hb)].
Qed.
Lemma logsumexp_dim al (x l : tensor) dim : t_logsumexp m al x dim = Ok l -> nat32 dim < 8.
Proof.
  intros E. unfold t_logsumexp, logsumexp_fw, reduce_fw in E. inv_ok. unfold resize_dim, update_dim in * . inv_ok.
  match goal with H : (_ <? _) = true |- _ => apply Nat.ltb_lt in H; exact H end.
Qed.
Lemma n_logsumexp_dim g bs x v d r dim : clean itp g -> eval_node itp g x = Ok v -> ready d v -> n_logsumexp m dim g bs x = Ok r -> nat32 dim < 8.
Proof.
  intros HC EX HR E. assert (HD : t_dev v = Some d) by apply HR. unfold n_logsumexp, n_op1, pop1 in E. apply bind_Ok in E. destruct E as ([g' ns] & E & _).
  destruct (@create_facts K m g bs (KLogsumexp dim) x [x] v [v] d HC (valued1 EX) EX HD eq_refl) as (A & _). destruct (A _ E) as (rs & S & _). cbn [map forward_shape] in S. unfold shape1 in S. inv_ok.
  unfold resize_dim, update_dim in * . inv_ok. match goal with H : (_ <? _) = true |- _ => apply Nat.ltb_lt in H; exact H end.
Qed.
Lemma ln_softmax_nodes g (bss : nat -> buffers) x v d dim : clean itp g -> (forall i j, al_ok (fst (bss i) j)) -> eval_node itp g x = Ok v -> ready d v -> nat32 dim < 8 ->
  exists g' n y, n_ln_softmax m dim g bss x = Ok (g', n) /\ eval_node itp g' n = Ok y /\ clean itp g' /\ fst n < length (g_ops g') /\ ready d y /\ t_ln_softmax m (fun i => fst (bss i) 0) v dim = Ok y.
Proof.
  intros HC HA EX HR Hd. set (als := fun i => fst (bss i) 0). assert (HA' : forall i, al_ok (als i)) by (intros; apply HA).
  destruct (ln_steps HA' HR Hd) as (l & b & El & Rl & Eb & Rb & Sb).
  destruct (@op1_step (KLogsumexp dim) (fun al x => t_logsumexp m (al 0) x dim) g (bss 0) x v d l) as (g1 & n1 & E1 & V1 & C1 & X1 & L1); auto.
  pose proof (kept HC X1 EX) as EX1.
  destruct (@op1_step (KBroadcast dim (index (t_shape v) (nat32 dim))) (fun al l => t_broadcast m (al 0) l dim (index (t_shape v) (nat32 dim))) g1 (bss 1) n1 l d b) as (g2 & n2 & E2 & V2 & C2 & X2 & L2); auto.
  pose proof (kept C1 X2 EX1) as EX2.
  destruct (ln_softmax_yields m als dim HA' HR Hd) as (y & Ey & Ty). exists (fst (okv (empty, (0, 0)) (n_sub m g2 (bss 2) x n2))), (snd (okv (empty, (0, 0)) (n_sub m g2 (bss 2) x n2))), y.
  assert (Hfst : forall i, al_ok (fst (bss 2) i)) by (intros; apply HA).
  assert (ES : t_sub m (als 2) v b = Ok y). { unfold t_ln_softmax in Ey. rewrite El in Ey. cbn [bind] in Ey. rewrite Eb in Ey. exact Ey. }
  assert (HS2 : forall y', (exists g' n, n_sub m g2 (bss 2) x n2 = Ok (g', n) /\ eval_node itp g' n = Ok y') <-> t_sub m (als 2) v b = Ok y').
  { intros y'. destruct (clean_inv (@interp_lawful K m) C2) as (W & _). destruct (eval_shape (@interp_lawful K m) W EX2) as (wa & EWa & SWa & _). destruct (eval_shape (@interp_lawful K m) W V2) as (wb & EWb & SWb & _).
    unfold n_sub, n_op2. rewrite EWa, EWb. cbn [bind]. rewrite SWa, SWb, Sb. destruct (is_scalar (t_shape v)) eqn:Sv.
    - rewrite (@one_node K m g2 (bss 2) KSubScalarL _ _ _ _ d y' C2 (valued2 V2 EX2) EX2) by (auto; try apply HR; intros rs; apply single_output; reflexivity).
      rewrite (@scalar_mirror K m (fst (bss 2)) KSub (fun a b => d <- device_of a ;; sub_scalar_l_fw m d (fst (bss 2) 0) b a) d v b y') by (auto; rewrite Sb; auto).
      unfold t_sub, define_ab_op. rewrite Sv. reflexivity.
    - rewrite (@one_node K m g2 (bss 2) KSub _ _ _ _ d y' C2 (valued2 EX2 V2) EX2) by (auto; try apply HR; intros rs; apply single_output; reflexivity).
      apply (@method2_mirror K m (fst (bss 2)) KSub (t_sub m (fst (bss 2) 0)) d v b y'); auto. rewrite Sb; auto. }
  apply HS2 in ES. destruct ES as (g3 & n3 & E3 & V3). rewrite E3. cbn [okv fst snd].
  assert (HG : clean itp g3 /\ fst n3 < length (g_ops g3)).
  { destruct (clean_inv (@interp_lawful K m) C2) as (W & _). destruct (eval_shape (@interp_lawful K m) W EX2) as (wa & EWa & SWa & _). destruct (eval_shape (@interp_lawful K m) W V2) as (wb & EWb & SWb & _).
    unfold n_sub, n_op2 in E3. rewrite EWa, EWb in E3. cbn [bind] in E3. rewrite SWa, SWb, Sb in E3. destruct (is_scalar (t_shape v)) eqn:Sv.
    - destruct (@one_node_graph K m g2 (bss 2) KSubScalarL _ _ _ _ d g3 n3 C2 (valued2 V2 EX2) EX2) as (A & _ & B); auto; [apply HR|intros rs; apply single_output; reflexivity].
    - destruct (@one_node_graph K m g2 (bss 2) KSub _ _ _ _ d g3 n3 C2 (valued2 EX2 V2) EX2) as (A & _ & B); auto; [apply HR|intros rs; apply single_output; reflexivity]. }
  destruct HG as (C3 & L3). split; [|split; [auto|split; [auto|split; [auto|split; [apply (is_tensor_ready Ty)|exact Ey]]]]].
  unfold n_ln_softmax. unfold n_logsumexp. rewrite E1. cbn [bind].
  destruct (clean_inv (@interp_lawful K m) C1) as (W1 & _). destruct (eval_shape (@interp_lawful K m) W1 EX1) as (w1 & EW1 & SW1 & _). rewrite EW1. cbn [bind]. rewrite SW1. unfold n_broadcast. rewrite E2. cbn [bind]. exact E3.
Qed.
Lemma det_same pop r (tr : res tensor) g' n y l : min_heap pop -> r = Ok (g', n) -> eval_node itp g' n = Ok y -> clean itp g' -> fst n < length (g_ops g') -> tr = Ok y -> reads pop r l <-> holds tr l.
Proof.
  intros HP E EV C L ET. apply reads_of; auto.
  - intros g2 n2 E2. assert (EQ : (g2, n2) = (g', n)) by congruence. inversion EQ; subst. auto.
  - intros y'. split; [|intros E2; exists g', n; split; congruence]. intros (g2 & n2 & E2 & EV2). assert (EQ : (g2, n2) = (g', n)) by congruence. inversion EQ; subst. congruence.
Qed.
Theorem C34_softmax : forall dim pop g (bss : nat -> buffers) x v d l, min_heap pop -> clean itp g -> (forall i j, al_ok (fst (bss i) j)) -> eval_node itp g x = Ok v -> ready d v ->
  (reads pop (n_ln_softmax m dim g bss x) l <-> holds (t_ln_softmax m (fun i => fst (bss i) 0) v dim) l) /\
  (reads pop (n_softmax m dim g bss x) l <-> holds (t_softmax m (fun i => fst (bss i) 0) v dim) l).
Proof.
  intros dim pop g bss x v d l HP HC HA EX HR. destruct (Nat.lt_ge_cases (nat32 dim) 8) as [Hd|Hd].
  - destruct (ln_softmax_nodes HC HA EX HR Hd) as (g' & n & y & E & EV & C & L & Ry & ET). split; [eapply det_same; eauto|].
    destruct (@t_exp_yields K m d (fst (bss 3) 0) y) as (z & Ez & _); auto.
    destruct (@op1_step KExp (fun al x => t_exp m (al 0) x) g' (bss 3) n y d z) as (g2 & n2 & E2 & V2 & C2 & X2 & L2); auto.
    apply det_same with (g' := g2) (n := n2) (y := z); auto.
    + unfold n_softmax. rewrite E. cbn [bind]. exact E2.
    + unfold t_softmax. rewrite ET. cbn [bind]. exact Ez.
  - assert (N1 : forall r, n_ln_softmax m dim g bss x <> Ok r).
    { intros r E. unfold n_ln_softmax in E. apply bind_Ok in E. destruct E as ([g1 l1] & E & _). pose proof (n_logsumexp_dim HC EX HR E). lia. }
    assert (T1 : forall y, t_ln_softmax m (fun i => fst (bss i) 0) v dim <> Ok y).
    { intros y E. unfold t_ln_softmax in E. apply bind_Ok in E. destruct E as (l1 & E & _). pose proof (logsumexp_dim E). lia. }
    split; (split; [intros (g' & n & E & _)|intros (y & E & _)]); exfalso.
    + exact (N1 _ E).
    + exact (T1 _ E).
    + unfold n_softmax in E. apply bind_Ok in E. destruct E as ([g1 l1] & E & _). exact (N1 _ E).
    + unfold t_softmax in E. apply bind_Ok in E. destruct E as (l1 & E & _). exact (T1 _ E).
Qed.
End Same.

(** ** C34: where it fails *)
Section Differ.
Variable K : num.
Notation F := (F K).
Notation tensor := (tensor K).
Variable m : build.
Notation itp := (@interp K m).
Notation graph := (graph K (oper K)).
Notation node := (nat * nat)%type.
(** the node method [elu] computes [prelu] *)
Theorem C34_elu_computes_prelu : forall a : F, same1 m (n_elu m a) (fun al x => t_prelu m (al 0) x a).
Proof.
  intros a pop g bs x v d l HP HC HA EX HR. assert (HD : t_dev v = Some d) by apply HR.
  assert (H1 : forall rs, forward_shape m (KELU a) (map (@t_shape K) [v]) = Ok rs -> length rs = 1) by (intros rs; apply single_output; auto).
  apply reads_of; auto.
  - intros g' n E. destruct (@one_node_graph K m g bs (KELU a) _ _ _ _ _ _ _ HC (valued1 EX) EX HD eq_refl H1 E) as (A & _ & B). auto.
  - intros y. unfold n_elu, n_op1. rewrite (@one_node K m g bs (KELU a) _ _ _ _ _ y HC (valued1 EX) EX HD eq_refl H1). exact (@method1_mirror K m (fst bs) (KPReLU a) _ d v y HA eq_refl HR).
Qed.
(** arithmetic between a scalar and a tensor that is not a scalar: accepted for
    tensors, refused at creation for nodes, whatever the operands *)
Lemma mixed_refused k g bs a b va vb d : clean itp g -> eval_node itp g a = Ok va -> ready d va -> eval_node itp g b = Ok vb -> ready d vb ->
  is_scalar (t_shape va) <> is_scalar (t_shape vb) ->
  (forall ss, forward_shape m (scalar_l k) ss = shape_ab ss) -> (forall ss, forward_shape m (scalar_r k) ss = shape_ab ss) -> is_leaf (scalar_l k) = false -> is_leaf (scalar_r k) = false ->
  forall r, n_op2 m k (scalar_l k) (scalar_r k) g bs a b <> Ok r.
Proof.
  intros HC EA HRa EB HRb NE SL SR LL LR r E. destruct (clean_inv (@interp_lawful K m) HC) as (W & _).
  destruct (eval_shape (@interp_lawful K m) W EA) as (wa & EWa & SWa & _). destruct (eval_shape (@interp_lawful K m) W EB) as (wb & EWb & SWb & _).
  assert (HD : t_dev va = Some d) by apply HRa.
  assert (NS : forall p q s, wf p -> wf q -> is_scalar p <> is_scalar q -> so_elementwise p q <> Ok s).
  { intros p q s Wp Wq N Es. apply so_elementwise_iff in Es; auto. destruct Es as (A & _). apply N. apply eq_true_iff_eq. rewrite (is_scalar_iff Wp), (is_scalar_iff Wq). split; intros H i; [rewrite <- A|rewrite A]; apply H. }
  unfold n_op2 in E. rewrite EWa, EWb in E. cbn [bind] in E. rewrite SWa, SWb in E. destruct (is_scalar (t_shape va)) eqn:Sa, (is_scalar (t_shape vb)) eqn:Sb; try contradiction; unfold pop1 in E; apply bind_Ok in E; destruct E as ([g' ns] & E & _).
  - destruct (@create_facts K m g bs (scalar_l k) a [b; a] va [vb; va] d HC (valued2 EB EA) EA HD LL) as (A & _). destruct (A _ E) as (rs & S & _). rewrite SL in S. cbn [map] in S. unfold shape_ab, shape2 in S. cbn [idx nth_error bind] in S.
    inv_ok. match goal with H : so_elementwise _ _ = Ok _ |- _ => revert H end. apply NS; [apply (ready_wf HRb)|apply (ready_wf HRa)|congruence].
  - destruct (@create_facts K m g bs (scalar_r k) a [a; b] va [va; vb] d HC (valued2 EA EB) EA HD LR) as (A & _). destruct (A _ E) as (rs & S & _). rewrite SR in S. cbn [map] in S. unfold shape_ab, shape2 in S. cbn [idx nth_error bind] in S.
    inv_ok. match goal with H : so_elementwise _ _ = Ok _ |- _ => revert H end. apply NS; [apply (ready_wf HRa)|apply (ready_wf HRb)|congruence].
Qed.
Theorem C34_mixed_scalar_refuted : forall pop g bs (a b : node) va vb d s, clean itp g -> (forall i, al_ok (fst bs i)) ->
  eval_node itp g a = Ok va -> ready d va -> eval_node itp g b = Ok vb -> ready d vb -> is_scalar (t_shape va) <> is_scalar (t_shape vb) ->
  bin_ok (t_shape va) (t_shape vb) s -> fits s ->
  (exists l, holds m (t_add m (fst bs 0) va vb) l /\ forall l', ~ reads m pop (n_add m g bs a b) l') /\
  (exists l, holds m (t_sub m (fst bs 0) va vb) l /\ forall l', ~ reads m pop (n_sub m g bs a b) l') /\
  (exists l, holds m (t_mul m (fst bs 0) va vb) l /\ forall l', ~ reads m pop (n_mul m g bs a b) l') /\
  (exists l, holds m (t_div m (fst bs 0) va vb) l /\ forall l', ~ reads m pop (n_div m g bs a b) l').
Proof.
  intros pop g bs a b va vb d s HC HA EA HRa EB HRb NE HB HF.
  assert (HH : forall r d s f, @yields K r d s f -> exists l, holds m r l). { intros r0 d0 s0 f (t & Et & Ht). exists (firstn (tot (t_shape t)) (buf t)), t. split; auto. apply (to_vec_Ok m (is_tensor_ready Ht)). }
  assert (NR : forall r : res (graph * node), (forall x, r <> Ok x) -> forall l', ~ reads m pop r l') by (intros r H l' (g' & n & E & _); exact (H _ E)).
  split; [|split; [|split]].
  - destruct (HH _ _ _ _ (t_add_yields m (HA 0) HRa HRb HB HF)) as (l & Hl). exists l. split; [exact Hl|]. apply NR. exact (@mixed_refused KAdd g bs a b va vb d HC EA HRa EB HRb NE (fun _ => eq_refl) (fun _ => eq_refl) eq_refl eq_refl).
  - destruct (HH _ _ _ _ (t_sub_yields m (HA 0) HRa HRb HB HF)) as (l & Hl). exists l. split; [exact Hl|]. apply NR. exact (@mixed_refused KSub g bs a b va vb d HC EA HRa EB HRb NE (fun _ => eq_refl) (fun _ => eq_refl) eq_refl eq_refl).
  - destruct (HH _ _ _ _ (t_mul_yields m (HA 0) HRa HRb HB HF)) as (l & Hl). exists l. split; [exact Hl|]. apply NR. exact (@mixed_refused KMul g bs a b va vb d HC EA HRa EB HRb NE (fun _ => eq_refl) (fun _ => eq_refl) eq_refl eq_refl).
  - destruct (HH _ _ _ _ (t_div_yields m (HA 0) HRa HRb HB HF)) as (l & Hl). exists l. split; [exact Hl|]. apply NR. exact (@mixed_refused KDiv g bs a b va vb d HC EA HRa EB HRb NE (fun _ => eq_refl) (fun _ => eq_refl) eq_refl eq_refl).
Qed.

(** pow: the two agree on all operands (tensors refuse mixed operands too) *)
Lemma same_to_vec d s f f' (t t' : tensor) : is_tensor d s f t -> is_tensor d s f' t' -> (forall c b, inb s c -> b < bat s -> f c b = f' c b) -> to_vec m t = to_vec m t'.
Proof.
  intros H H' HE. rewrite (to_vec_Ok m (is_tensor_ready H)), (to_vec_Ok m (is_tensor_ready H')). f_equal. rewrite (is_tensor_shape H), (is_tensor_shape H').
  pose proof (ready_wf (is_tensor_ready H)) as W. rewrite (is_tensor_shape H) in W.
  assert (L : forall (t0 : tensor) f0, is_tensor d s f0 t0 -> tot s <= length (buf t0)). { intros t0 f0 H0. destruct (is_tensor_ready H0) as (_ & _ & _ & V). rewrite <- (is_tensor_shape H0). apply V. }
  apply nth_ext with n0 n0; rewrite !firstn_length, !Nat.min_l by eauto; auto.
  intros p Hp. rewrite !nth_firstn_lt by auto. destruct (pos_surj W Hp) as (c & b & Hc & Hb & <-).
  pose proof (is_tensor_at H Hc Hb) as A. pose proof (is_tensor_at H' Hc Hb) as A'. rewrite at_buf in A, A'. rewrite (is_tensor_shape H) in A. rewrite (is_tensor_shape H') in A'. rewrite A, A'. auto.
Qed.
Lemma pow_scalars d al (a b : tensor) l : al_ok al -> ready d a -> ready d b -> is_scalar (t_shape a) = true -> is_scalar (t_shape b) = true ->
  holds m (powf_scalar_l_fw m d al b a) l <-> holds m (t_pow m al a b) l.
Proof.
  intros HA HRa HRb Sa Sb. unfold t_pow. rewrite (ready_device_of HRa). cbn [bind].
  assert (HB : forall s, so_elementwise (t_shape a) (t_shape b) = Ok s <-> so_scalar_op (t_shape b) (t_shape a) = Ok s).
  { intros s. rewrite <- (scalar_elementwise (ready_wf HRb) (ready_wf HRa) Sb Sa). split; apply elementwise_sym; (apply (ready_wf HRa) || apply (ready_wf HRb)). }
  destruct (so_elementwise (t_shape a) (t_shape b)) as [s| |] eqn:ES.
  - pose proof (elementwise_fits (ready_fits HRa) (ready_fits HRb) ES) as HF. pose proof (proj1 (HB s) eq_refl) as ES'.
    destruct (@fw_ab_yields K m "powf_fw_impl" (e_powf K) d al a b s eq_refl HA HRa HRb ES) as (t & Et & Ht).
    destruct (@fw_scalar_yields K m "powf_scalar_l_fw_impl" (e_powf_scalar_l K) d al b a s eq_refl HA HRb HRa ES' HF) as (t' & Et' & Ht').
    unfold powf_fw, powf_scalar_l_fw. assert (EV : to_vec m t' = to_vec m t).
    { eapply same_to_vec; [exact Ht'|exact Ht|]. intros c n Hc Hn. cbv beta. unfold e_powf_scalar_l, e_powf. f_equal. rewrite !at_buf. f_equal. apply pos_ext; auto. intros i _.
      assert (Hi : c i < 1). { specialize (Hc i). destruct (elementwise_shape (ready_wf HRa) (ready_wf HRb) ES) as (_ & Ea & _). pose proof (Ea i) as Ei. rewrite (scalar_ext (ready_wf HRa) Sa) in Ei. lia. } unfold czero. lia. }
    split; intros (y & Ey & Hy); [rewrite Et' in Ey; exists t; split; [exact Et|]|rewrite Et in Ey; exists t'; split; [exact Et'|]]; injection Ey as <-; congruence.
  - split; intros (y & Ey & _); exfalso; [unfold powf_scalar_l_fw, define_fw_ab in Ey|unfold powf_fw, define_fw_ab in Ey]; inv_ok; [|congruence].
    match goal with H : so_scalar_op _ _ = Ok _ |- _ => apply HB in H; discriminate H end.
  - split; intros (y & Ey & _); exfalso; [unfold powf_scalar_l_fw, define_fw_ab in Ey|unfold powf_fw, define_fw_ab in Ey]; inv_ok; [|congruence].
    match goal with H : so_scalar_op _ _ = Ok _ |- _ => apply HB in H; discriminate H end.
Qed.
Theorem C34_pow : same2 (K := K) m (fun _ _ => True) (n_pow m) (fun al a b => t_pow m (al 0) a b).
Proof.
  intros pop g bs a b va vb d l HP HC HA EA HRa EB HRb _.
  destruct (Bool.bool_dec (is_scalar (t_shape va)) (is_scalar (t_shape vb))) as [SS|NE].
  - destruct (clean_inv (@interp_lawful K m) HC) as (W & _). destruct (eval_shape (@interp_lawful K m) W EA) as (wa & EWa & SWa & _). destruct (eval_shape (@interp_lawful K m) W EB) as (wb & EWb & SWb & _).
    unfold n_pow, n_op2. rewrite EWa, EWb. cbn [bind]. rewrite SWa, SWb. destruct (is_scalar (t_shape va)) eqn:Sa.
    + rewrite <- (pow_scalars l (HA 0) HRa HRb Sa (eq_sym SS)). assert (HD : t_dev va = Some d) by apply HRa.
      assert (H1 : forall rs, forward_shape m (@KPowScalarL K) (map (@t_shape K) [vb; va]) = Ok rs -> length rs = 1) by (intros rs; apply single_output; auto).
      apply reads_of; auto.
      * intros g' n E. destruct (@one_node_graph K m g bs KPowScalarL _ _ _ _ _ _ _ HC (valued2 EB EA) EA HD eq_refl H1 E) as (A & _ & B). auto.
      * intros y. rewrite (@one_node K m g bs KPowScalarL _ _ _ _ _ y HC (valued2 EB EA) EA HD eq_refl H1). apply pow_scalar_mirror; auto.
    + rewrite <- SS. cbn [bind]. eapply (@op2_plain K m KPow (fun al a b => t_pow m (al 0) a b)); eauto.
  - split; [intros (g' & n & E & _)|intros (y & E & _)]; exfalso.
    + revert E. exact (@mixed_refused KPow g bs a b va vb d HC EA HRa EB HRb NE (fun _ => eq_refl) (fun _ => eq_refl) eq_refl eq_refl (g', n)).
    + unfold t_pow, powf_fw, define_fw_ab in E. inv_ok. match goal with H : so_elementwise _ _ = Ok _ |- _ => apply so_elementwise_iff in H; [|apply (ready_wf HRa)|apply (ready_wf HRb)]; destruct H as (A & _) end.
      apply NE. apply eq_true_iff_eq. rewrite (is_scalar_iff (ready_wf HRa)), (is_scalar_iff (ready_wf HRb)). split; intros X i; [rewrite <- A|rewrite A]; apply X.
Qed.
End Differ.

(** a graph holding x = [-1, 3] (two elements), w = [2] (a scalar) and z = [5, 7] *)
Definition three_inputs : res (Zgraph * ((nat * nat) * (nat * nat) * (nat * nat))) :=
  ' (g1, x) <- inputz empty bz (tz 0 [2%N] 1 [-1;3]%Z) ;;
  ' (g2, w) <- inputz g1 bz (tz 0 [1%N] 1 [2]%Z) ;;
  ' (g3, z) <- inputz g2 bz (tz 0 [2%N] 1 [5;7]%Z) ;;
  Ok (g3, (x, w, z)).
Lemma three_inputs_clean g xs : three_inputs = Ok (g, xs) -> clean itz g.
Proof.
  unfold three_inputs. intros E. apply bind_Ok in E. destruct E as ([g1 x] & E1 & E). apply bind_Ok in E. destruct E as ([g2 w] & E2 & E). apply bind_Ok in E. destruct E as ([g3 z] & E3 & E). inversion E; subst.
  eapply clean_leaf; [|exact E3]. eapply clean_leaf; [|exact E2]. eapply clean_leaf; [|exact E1]. constructor.
Qed.
Definition ti_g : Zgraph := Eval lazy -[alz Znum] in fst (okv (empty, ((0, 0), (0, 0), (0, 0))) three_inputs).
Lemma ti_eq : three_inputs = Ok (ti_g, ((0, 0), (1, 0), (2, 0))). Proof. reflexivity. Qed.
Lemma ti_clean : clean itz ti_g. Proof. apply (three_inputs_clean ti_eq). Qed.
Theorem C34_elu_refuted : exists (g : Zgraph) x v, clean itz g /\ eval_node itz g x = Ok v /\ ready 0 v /\
  reads Debug fifo_min (n_elu (K := Znum) Debug 2%Z g bz x) [-2; 3]%Z /\ holds Debug (t_elu (K := Znum) Debug (fst bz 0) v 2%Z) [2; 3]%Z.
Proof.
  exists ti_g, (0, 0), (tz 0 [2%N] 1 [-1;3]%Z). split; [exact ti_clean|]. split; [reflexivity|]. split; [rdy|]. split.
  - do 2 eexists. split; reflexivity.
  - eexists. split; reflexivity.
Qed.
(** softmax_cross_entropy of a tensor with two elements and a scalar target: accepted for tensors, refused for nodes *)
Theorem C34_cross_entropy_mixed_refuted : exists (g : Zgraph) x t vx vt, clean itz g /\ eval_node itz g x = Ok vx /\ ready 0 vx /\ eval_node itz g t = Ok vt /\ ready 0 vt /\
  (exists l, holds Debug (t_softmax_cross_entropy (K := Znum) Debug (fst bz) vx vt 0) l) /\ forall l, ~ reads Debug fifo_min (n_softmax_cross_entropy (K := Znum) Debug 0 g bz x t) l.
Proof.
  exists ti_g, (0, 0), (1, 0), (tz 0 [2%N] 1 [-1;3]%Z), (tz 0 [1%N] 1 [2]%Z). split; [exact ti_clean|]. split; [reflexivity|]. split; [rdy|]. split; [reflexivity|]. split; [rdy|]. split.
  - assert (X : exists l, (y <- t_softmax_cross_entropy (K := Znum) Debug (fst bz) (tz 0 [2%N] 1 [-1;3]%Z) (tz 0 [1%N] 1 [2]%Z) 0 ;; to_vec Debug y) = Ok l) by (eexists; vm_compute; reflexivity).
    destruct X as (l & X). apply bind_Ok in X. destruct X as (y & Ey & X). exists l, y. auto.
  - intros l (g' & n & E & _). assert (X : n_softmax_cross_entropy (K := Znum) Debug 0 ti_g bz (0, 0) (1, 0) = Panic) by (vm_compute; reflexivity). rewrite X in E. discriminate.
Qed.
Example C34_pow_applies : reads Debug lifo_min (n_pow (K := Znum) Debug ti_g bz (1, 0) (1, 0)) [4]%Z.
Proof.
  apply (@C34_pow Znum Debug lifo_min ti_g bz (1, 0) (1, 0) (tz 0 [1%N] 1 [2]%Z) (tz 0 [1%N] 1 [2]%Z) 0); try rdy; try reflexivity.
  - apply heaps_ok. - exact ti_clean. - intros i. apply alz_ok. - eexists. split; reflexivity.
Qed.
(** the theorems above apply: subtracting two nodes with two elements each *)
Lemma bz_ok : forall i, al_ok (fst bz i). Proof. intros i. apply alz_ok. Qed.
Example C34_applies : reads Debug lifo_min (n_sub Debug ti_g bz (0, 0) (2, 0)) [-6; -4]%Z.
Proof.
  apply (proj1 (proj2 (@C34_two_operands Znum Debug)) lifo_min ti_g bz (0, 0) (2, 0) (tz 0 [2%N] 1 [-1;3]%Z) (tz 0 [2%N] 1 [5;7]%Z) 0); try rdy; try reflexivity.
  - apply heaps_ok. - exact ti_clean. - exact bz_ok. - eexists. split; reflexivity.
Qed.
Example C34_mixed_applies : exists l, holds Debug (t_sub Debug (fst bz 0) (tz 0 [2%N] 1 [-1;3]%Z) (tz 0 [1%N] 1 [2]%Z)) l /\ forall l', ~ reads Debug fifo_min (n_sub Debug ti_g bz (0, 0) (1, 0)) l'.
Proof.
  refine (proj1 (proj2 (@C34_mixed_scalar_refuted Znum Debug fifo_min ti_g bz (0, 0) (1, 0) (tz 0 [2%N] 1 [-1;3]%Z) (tz 0 [1%N] 1 [2]%Z) 0 (sh [2%N] 1) ti_clean bz_ok _ _ _ _ _ _ _))); try rdy; try reflexivity; try discriminate.
  - split; [discriminate|]. split; [auto|]. assert (H : shape_is (sh [2%N] 1) (fun i => N.to_nat (nth i [2%N] 1%N)) (N.to_nat 1)) by (apply sh_is; reflexivity). split; [apply H|split; reflexivity].
  - apply sh_fits; reflexivity.
Qed.

(** ** C33 *)
Section Infer.
Variable K : num.
Notation tensor := (tensor K).
Notation node := (nat * nat)%type.
(** whenever the shape rule accepts the operands, executing the operator (in either
    build) gives one tensor for each inferred shape, with exactly that shape.
    [unchecked] lists what node creation does not check (refuted below without it). *)
Theorem C33_execution_matches : forall m d fal (k : kind K) xs rs, (forall i, al_ok (fal i)) -> Forall (ready d) xs -> wt d k ->
  arity_ok k (map (@t_shape K) xs) -> unchecked k (map (@t_shape K) xs) ->
  forward_shape Debug k (map (@t_shape K) xs) = Ok rs -> Forall fits rs ->
  exists ys, forward_op m d fal k xs (map (@new_tensor K d) rs) = Ok ys /\ Forall2 (fun y s => t_shape y = s /\ ready d y) ys rs.
Proof.
  intros m d fal k xs rs HA HR HW HAr HU E HF.
  assert (W : Forall wf (map (@t_shape K) xs)). { apply Forall_map. eapply Forall_impl; [|exact HR]. intros t H; apply (ready_wf H). }
  pose proof (creation_typed W HAr HU E) as HT. destruct (@forward_sem K m d fal HA k xs rs HT HW HR HF) as (ys & EY & L & HY).
  exists ys. split; [exact EY|].
  assert (HY' : forall v y s, nth_error ys v = Some y -> nth_error rs v = Some s -> t_shape y = s /\ ready d y) by (intros v y s A B; specialize (HY v y s A B); split; [apply (is_tensor_shape HY)|apply (is_tensor_ready HY)]).
  clear -L HY'. revert rs L HY'. induction ys as [|y ys IH]; intros [|s rs] L HY; try discriminate; constructor.
  - exact (HY 0 y s eq_refl eq_refl).
  - apply IH; [inversion L; auto|]. intros v y0 s0 A B. exact (HY (S v) y0 s0 A B).
Qed.
(** at the level of nodes: once the operator node has been created, evaluating its
    nodes succeeds and their shapes are those [Node::shape] already reports *)
Theorem C33_created_nodes_evaluate : forall (g : graph K (oper K)) bs (k : kind K) x xs vx vs d g' ns,
  clean (@interp K Debug) g -> (forall i, al_ok (fst bs i)) -> Forall2 (fun n v => eval_node (@interp K Debug) g n = Ok v) xs vs -> Forall (ready d) vs ->
  eval_node (@interp K Debug) g x = Ok vx -> ready d vx -> is_leaf k = false -> wt d k ->
  arity_ok k (map (@t_shape K) vs) -> unchecked k (map (@t_shape K) vs) ->
  n_create Debug g bs k x xs = Ok (g', ns) -> (forall n t, In n ns -> value_of g' n = Ok t -> fits (t_shape t)) ->
  forall n, In n ns -> exists y t, eval_node (@interp K Debug) g' n = Ok y /\ ready d y /\ value_of g' n = Ok t /\ t_shape t = t_shape y.
Proof.
  intros g bs k x xs vx vs d g' ns HC HA HV HR EX HX HL HW HAr HU E HF n Hn.
  assert (HD : t_dev vx = Some d) by apply HX. destruct (create_facts bs HC HV EX HD HL) as (A & _). destruct (A _ E) as (rs & S & C & _ & EN & L & EE). cbn [fst snd] in * .
  destruct (clean_inv (@interp_lawful K Debug) C) as (W' & _).
  assert (HFR : Forall fits rs).
  { unfold n_create in E. apply bind_Ok in E. destruct E as (d0 & _ & E). apply create_inv in E. destruct E as (ss & rs' & vals & grads & ds & E1 & E2 & E3 & E4 & E5 & E6 & E7 & E8 & EG & EN2).
    assert (RV : rs' = rs). { cbn in E2. assert (ES : ss = map (@t_shape K) vs). { clear -E1 HV HC. destruct (clean_inv (@interp_lawful K Debug) HC) as (W & _). revert ss E1. induction HV as [|q v qs vs EV HV IH]; intros ss E1; [inversion E1; reflexivity|].
          rewrite mapM_cons in E1. apply bind_Ok in E1. destruct E1 as (s & E1 & E3). apply bind_Ok in E3. destruct E3 as (ss' & E3 & E4). inversion E4; subst ss. cbn [map]. f_equal; [|auto].
          destruct (eval_shape (@interp_lawful K Debug) W EV) as (w & EW & SW & _). rewrite EW in E1. cbn [bind] in E1. inversion E1; subst. auto. }
        subst ss. congruence. } rewrite RV in E7.
    apply Forall_forall. intros s Hs. apply In_nth_error in Hs. destruct Hs as (v & Hv).
    assert (Hlt : v < length rs) by (apply nth_error_Some; congruence).
    assert (HT : exists t, nth_error vals v = Some t /\ t_shape t = s). { rewrite <- E7, nth_error_map in Hv. destruct (nth_error vals v) as [t|] eqn:Et; [|discriminate]. exists t. cbn in Hv. split; [auto|congruence]. }
    destruct HT as (t & Ht & <-). apply (HF (length (g_ops g), v) t).
    - rewrite EN. apply in_map_iff. exists v. split; [reflexivity|]. apply in_seq. lia.
    - unfold value_of. cbn [fst snd]. rewrite EG. cbn [g_ops]. unfold idx at 1. rewrite nth_error_app2 by lia. rewrite Nat.sub_diag. cbn [nth_error bind oi_vals]. apply idx_nth; auto. }
  destruct (@C33_execution_matches Debug d (fst bs) k vs rs HA HR HW HAr HU S HFR) as (ys & EY & HY). rewrite EY in EE.
  rewrite EN in Hn. apply in_map_iff in Hn. destruct Hn as (v & <- & Hv). apply in_seq in Hv.
  assert (LY : length ys = length rs) by (apply (Forall2_len HY)). destruct (nth_error ys v) as [y|] eqn:Ey; [|apply nth_error_None in Ey; lia].
  assert (EVN : eval_node (@interp K Debug) g' (length (g_ops g), v) = Ok y). { unfold eval_node. cbn [fst snd]. rewrite EE. cbn [bind]. apply idx_nth; auto. }
  destruct (eval_shape (@interp_lawful K Debug) W' EVN) as (w & EW & SW & _).
  exists y, w. split; [auto|]. split; [|split; [auto|congruence]]. clear -HY Ey. revert v Ey. induction HY as [|a b l l' H HY IH]; intros v Ey; [destruct v; discriminate|]. destruct v; [inversion Ey; subst; apply H|eauto].
Qed.
(** the shape of a node never changes *)
Theorem C33_shape_is_stable : forall m (g g' : graph K (oper K)) n t, history (@interp K m) g -> later (@interp K m) g g' -> value_of g n = Ok t ->
  exists t', value_of g' n = Ok t' /\ t_shape t' = t_shape t.
Proof.
  intros m g g' n t H L E. destruct (extends_shape (later_extends (@interp_lawful K m) H L) E) as (t' & A & B & _). eauto.
Qed.
Theorem C33_shape_of_value : forall m (g : graph K (oper K)) n v, clean (@interp K m) g -> eval_node (@interp K m) g n = Ok v ->
  exists t, value_of g n = Ok t /\ t_shape t = t_shape v.
Proof. intros m g n v HC E. destruct (clean_inv (@interp_lawful K m) HC) as (W & _). destruct (eval_shape (@interp_lawful K m) W E) as (t & A & B & _). eauto. Qed.
End Infer.
(** reshape and the triangular functions are accepted at creation and refused when evaluated *)
Theorem C33_reshape_refuted : forall (K : num) m (g : graph K (oper K)) bs x v d s, clean (@interp K m) g -> eval_node (@interp K m) g x = Ok v -> ready d v -> fits s -> tot s <> tot (t_shape v) ->
  exists g' n, n_reshape m s g bs x = Ok (g', n) /\ forall y, eval_node (@interp K m) g' n <> Ok y.
Proof.
  intros K m g bs x v d s HC EX HR HS HN. assert (HD : t_dev v = Some d) by apply HR.
  assert (H1 : forall rs, forward_shape m (KReshape (K := K) s) (map (@t_shape K) [v]) = Ok rs -> length rs = 1) by (intros rs; apply single_output; auto).
  destruct (@create_facts K m g bs (KReshape s) x [x] v [v] d HC (valued1 EX) EX HD eq_refl) as (A & B). destruct (B [s] eq_refl) as ([g' ns] & E).
  destruct (A _ E) as (rs & S & C & X & EN & L & EE). cbn [fst snd map forward_shape] in * . inversion S; subst rs. cbn in EN. subst ns.
  assert (EP : n_reshape m s g bs x = Ok (g', (length (g_ops g), 0))) by (unfold n_reshape, n_op1, pop1; rewrite E; reflexivity).
  exists g', (length (g_ops g), 0). split; [exact EP|]. intros y EV.
  assert (EX2 : exists g' n, n_reshape m s g bs x = Ok (g', n) /\ eval_node (@interp K m) g' n = Ok y) by eauto.
  apply (@one_node K m g bs (KReshape s) x [x] v [v] d y HC (valued1 EX) EX HD eq_refl H1) in EX2. destruct EX2 as (rs & _ & EF). cbn [forward_op] in EF. unfold fw1, into in EF. cbn [idx nth_error bind] in EF.
  apply bind_Ok in EF. destruct EF as (t & ET & _). apply bind_Ok in ET. destruct ET as (u & EU & ET). unfold copy_tensor in EU. destruct (copy_makes (m := m) (d := d) (al := fst bs 0) (x := v) EU) as (_ & SU & _). unfold update_shape in ET. inv_ok.
  rewrite SU in * . rewrite (fits_size m HS) in * . rewrite (fits_size m (ready_fits HR)) in * . apply HN.
  repeat match goal with H : Ok _ = Ok _ |- _ => injection H as <- end. match goal with H : (_ =? _)%N = true |- _ => apply N.eqb_eq in H; lia end.
Qed.
(** x = [1,2;3,4;5,6] is 2 by 3 *)
Theorem C33_triangular_refuted : exists (g : Zgraph) y, (' (g1, x) <- inputz empty bz (tz 0 [2%N; 3%N] 1 [1;2;3;4;5;6]%Z) ;; n_triangular_l (K := Znum) Debug 0 g1 bz x) = Ok (g, y) /\
  eval_node itz g y = Panic.
Proof. do 2 eexists. split; reflexivity. Qed.
Example C33_applies : exists g' ns, n_create Debug ti_g bz KSub (0, 0) [(0, 0); (2, 0)] = Ok (g', ns) /\
  forall n, In n ns -> exists y t, eval_node itz g' n = Ok y /\ ready 0 y /\ value_of g' n = Ok t /\ t_shape t = t_shape y.
Proof.
  do 2 eexists. split; [reflexivity|]. intros n Hn. assert (R0 : ready 0 (tz 0 [2%N] 1 [-1;3]%Z)) by rdy. assert (R2 : ready 0 (tz 0 [2%N] 1 [5;7]%Z)) by rdy.
  refine (@C33_created_nodes_evaluate Znum ti_g bz KSub (0, 0) [(0, 0); (2, 0)] (tz 0 [2%N] 1 [-1;3]%Z) [tz 0 [2%N] 1 [-1;3]%Z; tz 0 [2%N] 1 [5;7]%Z] 0 _ _ ti_clean bz_ok _ _ _ R0 eq_refl I eq_refl I eq_refl _ n Hn).
  - repeat constructor; reflexivity.
  - repeat constructor; apply R0 || apply R2.
  - reflexivity.
  - intros n' t Hn' Ht. destruct Hn' as [<-|[]]. assert (E : t = @new_tensor Znum 0 (sh [2%N] 1)) by (injection Ht as <-; reflexivity). rewrite E. apply sh_fits; reflexivity.
Qed.

(** ** C42 *)
Section Backward.
Variable K : num.
Notation tensor := (tensor K).
Notation nat32 x := (N.to_nat x).
(** the gradient an update writes to exists: it belongs to an argument, or to a parameter *)
Definition target_ok (k : kind K) (xs : list tensor) (t : target) : Prop := match t with Arg j => j < length xs | Own => exists v, k = KParameter v end.
Lemma cat_parts_to gy e xs : forall i off p, In p (cat_parts (K := K) gy e i off xs) -> exists j, p_to p = Arg j /\ i <= j < i + length xs.
Proof.
  induction xs as [|x xs IH]; intros i off p H; cbn in H; [destruct H|]. destruct H as [<-|H]; [exists i; cbn; split; [reflexivity|lia]|]. destruct (IH _ _ _ H) as (j & A & B). exists j. cbn. split; [auto|lia].
Qed.
Lemma bcat_parts_to gy xs : forall i off p, In p (bcat_parts (K := K) gy i off xs) -> exists j, p_to p = Arg j /\ i <= j < i + length xs.
Proof.
  induction xs as [|x xs IH]; intros i off p H; cbn in H; [destruct H|]. destruct H as [<-|H]; [exists i; cbn; split; [reflexivity|lia]|]. destruct (IH _ _ _ H) as (j & A & B). exists j. cbn. split; [auto|lia].
Qed.
Lemma parts_to (k : kind K) xs ys gys p : arity_ok k (map (@t_shape K) xs) -> In p (bwsem k xs ys gys) -> target_ok k xs (p_to p).
Proof.
  intros HA H. unfold arity_ok in HA. rewrite map_length in HA. unfold target_ok.
  destruct k; cbn [arity] in HA; cbn [bwsem] in H; cbn [ubw bbw_a bbw_b sbw_x sbw_k] in H;
    try (repeat (destruct H as [<-|H]; [cbn [p_to]; first [eexists; reflexivity|lia]|]); destruct H).
  - apply in_map_iff in H. destruct H as (i & <- & _). cbn [p_to]. lia.
  - destruct (bcat_parts_to H) as (j & -> & B). lia.
  - destruct (cat_parts_to H) as (j & -> & B). lia.
Qed.
(** once node creation has accepted the operands (Debug; [unchecked] as for C33), the
    backward pass runs for every operator except those of [has_bw], whatever the
    gradients: it returns a list of updates, each of which goes to the gradient of an
    argument (or of the parameter) and succeeds on it, leaving its shape unchanged *)
Theorem C42_backward_runs : forall m d bal (k : kind K) xs ys gys, commutes K -> (forall i, al_ok (bal i)) ->
  Forall (ready d) xs -> Forall (ready d) ys -> Forall (ready d) gys -> wt d k ->
  arity_ok k (map (@t_shape K) xs) -> unchecked k (map (@t_shape K) xs) ->
  forward_shape Debug k (map (@t_shape K) xs) = Ok (map (@t_shape K) ys) -> map (@t_shape K) gys = map (@t_shape K) ys ->
  has_bw k (map (@t_shape K) xs) (map (@t_shape K) ys) ->
  exists us, backward_op m d bal k xs ys gys = Ok us /\
    Forall (fun u => target_ok k xs (fst u) /\
      forall gx, ready d gx -> t_shape gx = target_shape xs ys (fst u) -> exists gx', snd u gx = Ok gx' /\ ready d gx' /\ t_shape gx' = t_shape gx) us.
Proof.
  intros m d bal k xs ys gys HC HA HR HRy HRg HW HAr HU E EG HB.
  assert (W : Forall wf (map (@t_shape K) xs)). { apply Forall_map. eapply Forall_impl; [|exact HR]. intros t H; apply (ready_wf H). }
  pose proof (creation_typed W HAr HU E) as HT. destruct (@backward_sem K m d bal HA HC k xs ys gys HT HW HB HR HRy HRg EG) as (us & EU & HUs).
  exists us. split; [exact EU|]. unfold updates_are in HUs.
  assert (HP : forall p, In p (bwsem k xs ys gys) -> target_ok k xs (p_to p)) by (intros p; apply parts_to; auto).
  clear -HUs HP. induction HUs as [|u p us ps (H1 & H2) HUs IH]; constructor; [|apply IH; intros q Hq; apply HP; right; auto].
  rewrite H1. split; [apply HP; left; auto|]. intros gx Hg Sg. destruct (H2 gx Hg Sg) as (l' & EL & LL & _). exists (with_buf gx l'). split; [exact EL|]. split; [|reflexivity].
  apply ready_with; auto.
Qed.
(** ... and what it adds is [bwsem], operator by operator (that this is the derivative is C38) *)
Theorem C42_backward_contents : forall m d bal (k : kind K) xs ys gys us, commutes K -> (forall i, al_ok (bal i)) ->
  Forall (ready d) xs -> Forall (ready d) ys -> Forall (ready d) gys -> wt d k ->
  arity_ok k (map (@t_shape K) xs) -> unchecked k (map (@t_shape K) xs) ->
  forward_shape Debug k (map (@t_shape K) xs) = Ok (map (@t_shape K) ys) -> map (@t_shape K) gys = map (@t_shape K) ys ->
  has_bw k (map (@t_shape K) xs) (map (@t_shape K) ys) -> backward_op m d bal k xs ys gys = Ok us ->
  updates_are d us xs ys (bwsem k xs ys gys).
Proof.
  intros m d bal k xs ys gys us HC HA HR HRy HRg HW HAr HU E EG HB EB.
  assert (W : Forall wf (map (@t_shape K) xs)). { apply Forall_map. eapply Forall_impl; [|exact HR]. intros t H; apply (ready_wf H). }
  pose proof (creation_typed W HAr HU E) as HT. destruct (@backward_sem K m d bal HA HC k xs ys gys HT HW HB HR HRy HRg EG) as (us' & EU & HUs). congruence.
Qed.

(** the operators without a working backward pass *)
(** negation: no kernel is registered under the name it asks for *)
Theorem C42_neg_refuted : forall m d bal (x y gy gx : tensor), exists f, backward_op m d bal KNeg [x] [y] [gy] = Ok [(Arg 0, f)] /\ forall gx', f gx <> Ok gx'.
Proof.
  intros. eexists. split; [reflexivity|]. intros gx' E. unfold neg_bw, define_bw_x in E. do 7 (try (apply bind_Ok in E; destruct E as (? & _ & E))). cbn in E. discriminate.
Qed.
(** batch_slice: the kernel is given one number where it reads two *)
Theorem C42_batch_slice_refuted : forall m d bal lo up (x y gy gx : tensor), exists f, backward_op m d bal (KBatchSlice lo up) [x] [y] [gy] = Ok [(Arg 0, f)] /\
  forall gx', f gx <> Ok gx'.
Proof.
  intros. eexists. split; [reflexivity|]. intros gx' E. unfold batch_slice_bw in E. do 5 (apply bind_Ok in E; destruct E as (? & _ & E)). cbn in E. discriminate.
Qed.
Theorem C42_batch_split_refuted : forall m d bal n (x gy gx : tensor) ys gys, (1 <= n)%N -> exists us, backward_op m d bal (KBatchSplit n) [x] ys (gy :: gys) = Ok us /\
  length us = nat32 n /\ Forall (fun u => fst u = Arg 0 /\ forall gx', snd u gx <> Ok gx') us.
Proof.
  intros m d bal n x gy gx ys gys Hn. cbn [backward_op]. unfold bw_batch_split. cbn [idx nth_error bind].
  assert (G : forall l, exists us, mapM (fun i : nat => Ok (Arg 0, fun gx : tensor => batch_slice_bw m d gy (N.of_nat i * (batch (t_shape gx) / n))%N gx)) l = Ok us /\ length us = length l /\ Forall (fun u => fst u = Arg 0 /\ forall gx', snd u gx <> Ok gx') us).
  { induction l as [|i l (us & E & L & H)]; [exists []; cbn; auto|]. rewrite mapM_cons. cbn [bind]. rewrite E. cbn [bind]. eexists. split; [reflexivity|]. split; [cbn; congruence|]. constructor; [|exact H].
    cbn [fst snd]. split; [reflexivity|]. intros gx' E'. unfold batch_slice_bw in E'. do 5 (apply bind_Ok in E'; destruct E' as (? & _ & E')). cbn in E'. discriminate. }
  destruct (G (seq 0 (nat32 n))) as (us & A & B & C). exists us. rewrite seq_length in B. auto.
Qed.
(** batch_pick with any number of ids other than two *)
Lemma batch_pick_bw_fails m d (gy gx gx' : tensor) ids : length ids <> 2 -> (N.of_nat (length ids) < two32)%N -> batch_pick_bw m d gy ids gx <> Ok gx'.
Proof.
  intros HL HB E. unfold batch_pick_bw in E. do 2 (apply bind_Ok in E; destruct E as (? & _ & E)). apply bind_Ok in E. destruct E as (s & Es & E). apply bind_Ok in E. destruct E as (? & Ea & E).
  assert (HN : batch (t_shape gy) = N.of_nat (length ids) /\ length ids <> 0).
  { unfold assert in Ea. destruct (shape_eqb s (t_shape gy)) eqn:Q; [|discriminate]. assert (batch s = batch (t_shape gy)) as <-. { unfold shape_eqb in Q. apply andb_prop in Q. destruct Q as [Q Q2]. repeat (apply andb_prop in Q; destruct Q as [Q ?]). apply N.eqb_eq. first [exact Q2|assumption]. }
    unfold so_batch_pick in Es. apply bind_Ok in Es. destruct Es as (? & E0 & Es). apply bind_Ok in Es; destruct Es as (? & _ & Es). unfold resize_batch, update_batch in Es. repeat (apply bind_Ok in Es; destruct Es as (? & _ & Es)). inversion Es. cbn [batch].
    unfold len32 in * . rewrite N.mod_small in * by auto. split; [reflexivity|]. intros HZ. rewrite HZ in E0. discriminate. }
  destruct HN as (HN & H0). unfold call_bw in E. cbn [assoc bw_registry String.eqb Ascii.eqb Bool.eqb] in E. cbn [idx nth_error bind] in E. unfold k_pick_bw in E.
  destruct ids as [|a l]; [cbn in H0; lia|]. cbn [idx nth_error bind tl] in E. do 3 (apply bind_Ok in E; destruct E as (? & _ & E)). apply bind_Ok in E. destruct E as (st & E & _).
  rewrite HN in E. rewrite Nat2N.id in E. cbn [length] in * . rewrite forN_S in E. apply bind_Ok in E. destruct E as (st1 & _ & E). apply bind_Ok in E. destruct E as (id & E & _).
  apply idx_nth_inv in E. apply nth_error_Some_lt in E. destruct (Nat.ltb_spec 1 (length l)); lia.
Qed.
Theorem C42_batch_pick_refuted : forall m d bal ids (x y gy gx : tensor), length ids <> 2 -> (N.of_nat (length ids) < two32)%N -> exists f, backward_op m d bal (KBatchPick ids) [x] [y] [gy] = Ok [(Arg 0, f)] /\
  forall gx', f gx <> Ok gx'.
Proof.
  intros m d bal ids x y gy gx HL HB. eexists. split; [reflexivity|]. intros gx' E. apply bind_Ok in E. destruct E as (dv & _ & E). apply (batch_pick_bw_fails HL HB E).
Qed.
(** sum and logsumexp over a dimension past the last one that is stored *)
Theorem C42_sum_past_depth_refuted : forall m d bal dim (x y gy : tensor), wf (t_shape x) -> depth (t_shape x) <= nat32 dim ->
  backward_op m d bal (KSum dim) [x] [y] [gy] = Panic /\ backward_op m d bal (KLogsumexp dim) [x] [y] [gy] = Panic.
Proof.
  intros m d bal dim x y gy W H. cbn [backward_op idx nth_error bind].
  assert (E : dims_at (t_shape x) dim = Panic). { unfold dims_at, idx. rewrite (proj2 (nth_error_None _ _)); [reflexivity|]. unfold dims. rewrite firstn_length. lia. }
  rewrite E. cbn [bind]. auto.
Qed.
End Backward.
(** batch_pick with two ids: x has two minibatch elements, y = x.batch_pick([1, 0]),
    gy = [1,2] and [3,4]; the gradient of x should be [3,4] and [1,2] *)
Theorem C42_batch_pick_wrong_refuted : exists f, backward_op Debug 0 (snd bz) (KBatchPick [1;0]%N) [tz 0 [2%N] 2 [5;6;7;8]%Z] [tz 0 [2%N] 2 [7;8;5;6]%Z] [tz 0 [2%N] 2 [1;2;3;4]%Z] = Ok [(Arg 0, f)] /\
  (t <- f (tz 0 [2%N] 2 [0;0;0;0]%Z) ;; to_vec Debug t) = Ok [1;2;3;4]%Z.
Proof. eexists. split; reflexivity. Qed.
Example C42_applies : exists us, backward_op Debug 0 (snd bz) KMul [tz 0 [2%N] 1 [-1;3]%Z; tz 0 [2%N] 1 [5;7]%Z] [tz 0 [2%N] 1 [-5;21]%Z] [tz 0 [2%N] 1 [1;1]%Z] = Ok us /\
  Forall (fun u => target_ok (K := Znum) KMul [tz 0 [2%N] 1 [-1;3]%Z; tz 0 [2%N] 1 [5;7]%Z] (fst u) /\
      forall gx, ready 0 gx -> t_shape gx = target_shape (K := Znum) [tz 0 [2%N] 1 [-1;3]%Z; tz 0 [2%N] 1 [5;7]%Z] [tz 0 [2%N] 1 [-5;21]%Z] (fst u) ->
        exists gx', snd u gx = Ok gx' /\ ready 0 gx' /\ t_shape gx' = t_shape gx) us.
Proof.
  apply C42_backward_runs; try exact I; try reflexivity.
  - intros u v. apply Z.mul_comm. - intros i. apply alz_ok.
  - repeat constructor; apply tz_ready; reflexivity. - repeat constructor; apply tz_ready; reflexivity. - repeat constructor; apply tz_ready; reflexivity.
Qed.
