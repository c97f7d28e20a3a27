(** * PropsBlocked: when a backward pass over a graph cannot succeed (C41, C42) *)
From Verif Require Import PropsGraph PropsOps NodeFacts Typed Create BwSem PVocab GraphTie OpsFacts.
Set Implicit Arguments.
Unset Strict Implicit.

(** ** Specification *)
(** operators whose backward functions never succeed *)
Definition no_gradient K (k : kind K) : Prop :=
  match k with KNeg | KBatchSlice _ _ => True | KBatchPick ids => length ids <> 2 /\ (N.of_nat (length ids) < two32)%N | KBatchSplit n => (1 <= n)%N | _ => False end.
(** output [n] of an operator is an argument of no operator that [root] uses *)
Definition unused K Oper (g : graph K Oper) (root : nat) (n : nat * nat) : Prop := forall j, uses g root j -> ~ In n (args_of g j).

Section Blocked.
Variable K : num.
Notation F := (F K).
Notation tensor := (tensor K).
Notation nat32 x := (N.to_nat x).
Notation graph := (graph K (oper K)).
Variable m : build.
Notation itp := (@interp K m).

(** ** Forward keeps gradients *)
Definition keeps_gr (g g' : graph) : Prop := forall i, option_map (@oi_grads K (oper K)) (nth_error (g_ops g') i) = option_map (@oi_grads K (oper K)) (nth_error (g_ops g) i).
Lemma step_fw_gr (g : graph) i : keeps_gr g (fst (step_fw itp g i)).
Proof.
  intros j. unfold step_fw. destruct (nth_error (g_ops g) i) as [o|] eqn:Ho; [|reflexivity]. destruct (oi_fwd o); [reflexivity|]. pose proof (nth_error_Some_lt Ho) as L.
  destruct (bind _ _); cbn [fst g_ops set_op]; rewrite ?nth_error_lset by (rewrite ?lset_length; auto); destruct (Nat.eqb_spec j i) as [->|]; rewrite ?Ho; try reflexivity.
Qed.
Lemma forward_gr pop (g g' : graph) root r : forward itp pop g root = (g', r) -> keeps_gr g g'.
Proof.
  unfold forward. generalize (pop (depth0 g) (requests g root)) as l. intros l. revert g. induction l as [|i l IH]; intros g E; cbn in E; [inversion E; intros j; reflexivity|].
  destruct (step_fw itp g i) as [g1 r1] eqn:E1. pose proof (step_fw_gr g i) as KG. rewrite E1 in KG. cbn [fst] in KG. destruct r1; try (inversion E; subst; exact KG).
  intros j. rewrite (IH _ E j). apply KG.
Qed.
Lemma extends_use (a b : graph) : extends a b -> forall i j, uses a i j -> uses b i j.
Proof. intros XX i j U. induction U as [|i o n j Ho Hn U IH]; [constructor|]. destruct (XX _ _ Ho) as (o' & Ho' & (_ & E & _)). eapply uses_step; eauto. rewrite <- E. auto. Qed.
Lemma extends_args (a b : graph) i : extends a b -> extends b a -> args_of b i = args_of a i.
Proof.
  intros XX YY. unfold args_of. destruct (nth_error (g_ops a) i) as [o|] eqn:Ho.
  - destruct (XX _ _ Ho) as (o' & Ho' & (_ & E & _)). rewrite Ho'. auto.
  - destruct (nth_error (g_ops b) i) as [o|] eqn:Ho2; auto. destruct (YY _ _ Ho2) as (o' & Ho' & _). congruence.
Qed.

(** ** An update that cannot be applied *)
Lemma apply_all_In fs : forall (t t' : tensor) f, apply_all fs t = Ok t' -> In f fs -> exists a b, f a = Ok b.
Proof.
  induction fs as [|h fs IH]; intros t t' f E Hf; [destruct Hf|]. unfold apply_all in E. cbn in E. apply bind_Ok in E. destruct E as (t1 & E1 & E2).
  destruct Hf as [->|Hf]; [eauto|]. apply (IH t1 t' f E2 Hf).
Qed.
Lemma applied gal pop (g g' : graph) root i : gwf g -> max_heap pop -> root < length (g_ops g) -> backward m itp gal pop g root = Ok g' -> uses g root i ->
  exists o o' xs us, nth_error (g_ops g) i = Some o /\ nth_error (g_ops g') i = Some o' /\ mapM (value_of g) (oi_args o) = Ok xs /\
    op_backward (itp (oi_op o)) xs (oi_vals o) (oi_grads o') = Ok us /\
    (forall v t, i <> root -> unused g root (i, v) -> nth_error (oi_grads o) v = Some t -> nth_error (oi_grads o') v = Some t) /\
    forall k f, In (Arg k, f) us -> exists a b, f a = Ok b.
Proof.
  intros GW HX L E U. pose proof (interp_lawful_bw (K := K) (m := m)) as LAWB. destruct (backward_spec LAWB GW HX L E) as (G & order & us & A1 & A2 & A3 & A4 & A5 & A6 & A7 & A8).
  destruct (A4 i U) as (o & o' & xs & Ho & Ho' & EX & EB & AR). exists o, o', xs, (us i). do 4 (split; [assumption|]). split.
  - intros v t NE HU Ht. assert (Eg : grad_of g (i, v) = Ok t) by (unfold grad_of; cbn [fst snd]; rewrite (idx_nth Ho); cbn [bind]; apply (idx_nth Ht)).
    destruct (A5 _ _ Eg) as (t0 & t' & S1 & S2 & S3).
    assert (NA : is_arg g order (i, v) = false).
    { destruct (is_arg g order (i, v)) eqn:EX2; auto. unfold is_arg in EX2. apply existsb_exists in EX2. destruct EX2 as (j & Hj & EX2). apply existsb_node in EX2. exfalso. apply (HU j); auto. apply A2; auto. }
    rewrite (received_not_arg _ NA) in S2. cbn in S2. inversion S2; subst t'. unfold initial in S1. cbn [fst] in S1. destruct (Nat.eqb_spec i root) as [->|]; [congruence|]. rewrite NA in S1. cbn in S1. inversion S1; subst t0.
    unfold grad_of in S3. cbn [fst snd] in S3. rewrite (idx_nth Ho') in S3. cbn [bind] in S3. apply idx_nth_inv in S3. exact S3.
  - intros k f Hf. pose proof (AR _ k Hf eq_refl) as Lk. destruct (nth_error (oi_args o) k) as [n|] eqn:En; [|apply nth_error_None in En; lia].
    destruct (gwf_args GW Ho (nth_error_In _ _ En)) as (_ & p & Hp & Lp & _). rewrite <- (gwf_len GW Hp) in Lp.
    destruct (nth_error (oi_grads p) (snd n)) as [t|] eqn:Et; [|apply nth_error_None in Et; lia].
    assert (Eg : grad_of g n = Ok t) by (unfold grad_of; rewrite (idx_nth Hp); cbn [bind]; apply (idx_nth Et)).
    destruct (A5 _ _ Eg) as (t0 & t' & _ & S2 & _). refine (apply_all_In S2 _). unfold received. apply in_flat_map. exists i. split; [apply A2; auto|].
    unfold sent, args_of. rewrite Ho. apply in_flat_map. exists (Arg k, f). split; auto. cbn [fst snd]. rewrite En. replace (node_eqb n n) with true; [left; auto|]. unfold node_eqb. rewrite !Nat.eqb_refl. auto.
Qed.
(** ... forward first *)
Lemma applied_node gal popf popb (g g' : graph) n i : history itp g -> min_heap popf -> max_heap popb -> fst n < length (g_ops g) -> node_backward m itp gal popf popb g n = Ok g' -> uses g (fst n) i ->
  exists o o' xs ys us, nth_error (g_ops g) i = Some o /\ nth_error (g_ops g') i = Some o' /\ length xs = length (oi_args o) /\
    backward_op m (o_dev (oi_op o)) (o_bal (oi_op o)) (o_kind (oi_op o)) xs ys (oi_grads o') = Ok us /\
    (forall v t, i <> fst n -> unused g (fst n) (i, v) -> nth_error (oi_grads o) v = Some t -> nth_error (oi_grads o') v = Some t) /\
    forall k f, In (Arg k, f) us -> exists a b, f a = Ok b.
Proof.
  intros H HF HX L E U. pose proof (interp_lawful (K := K) (m := m)) as LAW. unfold node_backward, node_forward in E. destruct (forward itp popf g (fst n)) as [gf r] eqn:EF.
  destruct r as [[]| |]; try discriminate. destruct (history_inv LAW H) as (W & Lg). pose proof EF as EF'. unfold forward in EF'. destruct (run_fw_inv LAW W Lg EF') as (W' & _ & X & Y).
  pose proof (forward_gr EF) as KG. assert (L' : fst n < length (g_ops gf)). { destruct (nth_error (g_ops g) (fst n)) as [oR|] eqn:Q; [|apply nth_error_None in Q; lia]. destruct (X _ _ Q) as (q & Hq & _). eapply nth_error_Some_lt; eauto. }
  destruct (applied W' HX L' E (extends_use X U)) as (o & o' & xs & us & B1 & B2 & B3 & B4 & B5 & B6). destruct (Y _ _ B1) as (p & Hp & (S1 & S2 & _)).
  exists p, o', xs, (oi_vals o), us. split; auto. split; auto. split; [rewrite (mapM_length B3), S2; auto|]. split; [rewrite <- S1; exact B4|]. split; [|exact B6].
  intros v t NE HU Ht. apply B5; auto.
  - intros j Uj. rewrite (extends_args j X Y). apply HU. apply (extends_use Y Uj).
  - specialize (KG i). rewrite B1, Hp in KG. cbn in KG. inversion KG as [Q]. rewrite Q. exact Ht.
Qed.

Lemma len1 A (l : list A) : length l = 1 -> exists a, l = [a].
Proof. destruct l as [|a [|b l]]; cbn; intros; try lia; eauto. Qed.
Lemma no_gradient_blocks d bal (k : kind K) xs ys gys us : no_gradient k -> backward_op m d bal k xs ys gys = Ok us -> exists f, In (Arg 0, f) us /\ forall gx gx', f gx <> Ok gx'.
Proof.
  intros H E. destruct k; try (destruct H; fail); cbn [backward_op no_gradient] in * .
  - unfold bw_x in E. do 3 (apply bind_Ok in E; destruct E as (? & _ & E)). inversion E; subst. eexists. split; [left; reflexivity|]. intros gx gx' E'. unfold neg_bw, define_bw_x in E'. do 7 (try (apply bind_Ok in E'; destruct E' as (? & _ & E'))). cbn in E'. discriminate.
  - destruct H as (HL & HB). unfold bw_gy in E. apply bind_Ok in E. destruct E as (gy & _ & E). inversion E; subst. eexists. split; [left; reflexivity|]. intros gx gx' E'.
    apply bind_Ok in E'. destruct E' as (dv & _ & E'). apply (batch_pick_bw_fails HL HB E').
  - unfold bw_gy in E. apply bind_Ok in E. destruct E as (gy & _ & E). inversion E; subst. eexists. split; [left; reflexivity|]. intros gx gx' E'. unfold batch_slice_bw in E'. do 5 (apply bind_Ok in E'; destruct E' as (? & _ & E')). cbn in E'. discriminate.
  - unfold bw_batch_split in E. destruct (nat32 n) as [|k] eqn:En; [lia|]. cbn [seq] in E. rewrite mapM_cons in E. apply bind_Ok in E. destruct E as (u & Eu & E). apply bind_Ok in Eu. destruct Eu as (gy & _ & Eu). inversion Eu; subst u. apply bind_Ok in E. destruct E as (l & _ & E). inversion E; subst.
    eexists. split; [left; reflexivity|]. intros gx gx' E'. unfold batch_slice_bw in E'. do 5 (apply bind_Ok in E'; destruct E' as (? & _ & E')). cbn in E'. discriminate.
Qed.

(** ** C42: no node that depends on such an operator can be differentiated *)
Theorem C42_dependent_nodes_refuted : forall gal popf popb (g : graph) n i k, history itp g -> min_heap popf -> max_heap popb -> fst n < length (g_ops g) ->
  uses g (fst n) i -> option_map (fun o => o_kind (oi_op o)) (nth_error (g_ops g) i) = Some k -> no_gradient k ->
  forall g', node_backward m itp gal popf popb g n <> Ok g'.
Proof.
  intros gal popf popb g n i k H HF HX L U EK NG g' E. destruct (applied_node H HF HX L E U) as (o & o' & xs & ys & us & Ho & Ho' & _ & EB & _ & AP).
  rewrite Ho in EK. cbn in EK. inversion EK; subst k. destruct (no_gradient_blocks NG EB) as (f & Hf & ND). destruct (AP _ _ Hf) as (a & b & Q). apply (ND _ _ Q).
Qed.

(** ** C41: a split of which one part is not used cannot be differentiated *)
Theorem C41_unused_output_panics : forall gal popf popb (g : graph) n i v dim parts, history itp g -> min_heap popf -> max_heap popb -> fst n < length (g_ops g) ->
  uses g (fst n) i -> i <> fst n -> option_map (fun o => o_kind (oi_op o)) (nth_error (g_ops g) i) = Some (KSplit dim parts) -> v < nat32 parts ->
  unused g (fst n) (i, v) -> (exists t, grad_of g (i, v) = Ok t /\ valid t = false) ->
  forall g', node_backward m itp gal popf popb g n <> Ok g'.
Proof.
  intros gal popf popb g n i v dim parts H HF HX L U NE EK LV UN (t & Et & VT) g' E. destruct (applied_node H HF HX L E U) as (o & o' & xs & ys & us & Ho & Ho' & _ & EB & KP & AP).
  rewrite Ho in EK. cbn in EK. injection EK as EK. rewrite EK in EB. cbn [backward_op] in EB.
  assert (Ht : nth_error (oi_grads o') v = Some t). { apply KP; auto. unfold grad_of in Et. cbn [fst snd] in Et. rewrite (idx_nth Ho) in Et. cbn [bind] in Et. apply idx_nth_inv in Et. exact Et. }
  unfold bw_split in EB. apply mapM_Forall2 in EB. assert (Hs : nth_error (seq 0 (nat32 parts)) v = Some v). { rewrite nth_error_nth' with (d := 0) by (rewrite seq_length; auto). rewrite seq_nth by auto. auto. }
  destruct (Forall2_nth EB Hs) as (u & Hu & Eu). rewrite (idx_nth Ht) in Eu. cbn [bind] in Eu. inversion Eu; subst u. destruct (AP _ _ (nth_error_In _ _ Hu)) as (a & b & Q). cbv beta in Q.
  unfold slice_bw in Q. do 5 (apply bind_Ok in Q; destruct Q as (? & _ & Q)). unfold call_bw in Q. cbn [assoc bw_registry String.eqb Ascii.eqb Bool.eqb] in Q. cbn [idx nth_error bind] in Q.
  unfold k_slice_bw in Q. cbn [idx nth_error bind] in Q. apply bind_Ok in Q. destruct Q as (? & _ & Q). apply bind_Ok in Q. destruct Q as (src & Q & _).
  unfold valid in VT. unfold ptr in Q. destruct (t_buf t); [discriminate|]. discriminate.
Qed.

(** ** C34: softmax_cross_entropy of a scalar node and another one is refused, whatever they hold *)
Theorem C34_cross_entropy_mixed : forall (g : graph) bs dim (a b : nat * nat) va vb d, clean itp g -> eval_node itp g a = Ok va -> ready d va -> eval_node itp g b = Ok vb -> ready d vb ->
  is_scalar (t_shape va) <> is_scalar (t_shape vb) -> forall r, n_softmax_cross_entropy m dim g bs a b <> Ok r.
Proof.
  intros g bs dim a b va vb d HC EA HRa EB HRb NE r E. unfold n_softmax_cross_entropy, pop1 in E. apply bind_Ok in E. destruct E as ([g' ns] & E & _).
  assert (HD : t_dev va = Some d) by apply HRa. destruct (@create_facts K m g bs (KSoftmaxCrossEntropy dim) a [a; b] va [va; vb] d HC (valued2 EA EB) EA HD eq_refl) as (A & _).
  destruct (A _ E) as (rs & S & _). cbn [map forward_shape] in S. unfold shape2 in S. cbn [idx nth_error bind] in S. apply bind_Ok in S. destruct S as (r0 & S & _). apply bind_Ok in S. destruct S as (s & Es & _).
  apply so_elementwise_iff in Es; [|apply (ready_wf HRa)|apply (ready_wf HRb)]. destruct Es as (Q & _). apply NE. apply eq_true_iff_eq. rewrite (is_scalar_iff (ready_wf HRa)), (is_scalar_iff (ready_wf HRb)). split; intros H i; [rewrite <- Q|rewrite Q]; apply H.
Qed.
End Blocked.

(** ** The hypotheses are met *)
Definition hu_g : Zgraph := Eval lazy -[alz Znum] in fst (okv (empty, ((0, 0), (0, 0))) half_used).
Lemma hu_eq : half_used = Ok (hu_g, ((1, 0), (2, 0))). Proof. reflexivity. Qed.
Lemma hu_clean : clean itz hu_g.
Proof.
  pose proof hu_eq as E. unfold half_used in E. apply bind_Ok in E. destruct E as ([g1 x] & E1 & E). apply bind_Ok in E. destruct E as ([g2 ps] & E2 & E). apply bind_Ok in E. destruct E as (a & _ & E).
  apply bind_Ok in E. destruct E as ([g3 l] & E3 & E). inversion E; subst g3. eapply clean_pop1; [|exact E3]. apply (clean_n_create (r := (g2, ps))) in E2; [exact E2|]. eapply clean_leaf; [|exact E1]. constructor.
Qed.
(** x is split in two, and only the first half is used *)
Example C41_panics_applies : forall g', node_backward (K := Znum) Debug itz gz fifo_min lifo_max hu_g (2, 0) <> Ok g'.
Proof.
  apply (@C41_unused_output_panics Znum Debug gz fifo_min lifo_max hu_g (2, 0) 1 1 0%N 2%N); try apply heaps_ok; try reflexivity.
  - apply clean_history, hu_clean.
  - cbn; lia.
  - eapply uses_step with (n := (1, 0)); [reflexivity|left; reflexivity|constructor].
  - discriminate.
  - cbn; lia.
  - intros j U. destruct (clean_inv (interp_lawful (K := Znum) (m := Debug)) hu_clean) as (W & _). assert (Lj : j <= 2) by (apply (uses_lt W U); cbn; lia).
    destruct j as [|[|[|j]]]; try lia; cbn; intuition congruence.
  - eexists. split; reflexivity.
Qed.
(** y = - x, l = 3 y *)
Definition negated : res (Zgraph * (nat * nat)) :=
  ' (g1, x) <- paramz empty bz (tz 0 [2%N] 1 [1;2]%Z) (tz 0 [2%N] 1 [0;0]%Z) ;;
  ' (g2, y) <- n_neg (K := Znum) Debug g1 bz x ;;
  mulc 3%Z g2 bz y.
Definition ng_g : Zgraph := Eval lazy -[alz Znum] in fst (okv (empty, (0, 0)) negated).
Lemma ng_eq : negated = Ok (ng_g, (2, 0)). Proof. reflexivity. Qed.
Example C42_dependent_applies : snd (node_to_vec (K := Znum) Debug itz fifo_min ng_g (2, 0)) = Ok [-3; -6]%Z /\ forall g', node_backward (K := Znum) Debug itz gz fifo_min lifo_max ng_g (2, 0) <> Ok g'.
Proof.
  split; [reflexivity|]. apply (@C42_dependent_nodes_refuted Znum Debug gz fifo_min lifo_max ng_g (2, 0) 1 KNeg); try apply heaps_ok; try reflexivity; try exact I.
  - apply clean_history. pose proof ng_eq as E. unfold negated in E. apply bind_Ok in E. destruct E as ([g1 x] & E1 & E). apply bind_Ok in E. destruct E as ([g2 y] & E2 & E3).
    eapply clean_pop1; [|exact E3]. eapply clean_pop1; [|exact E2]. eapply clean_leaf; [|exact E1]. constructor.
  - cbn; lia.
  - eapply uses_step with (n := (1, 0)); [reflexivity|left; reflexivity|constructor].
Qed.
