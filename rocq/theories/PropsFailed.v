(** * PropsFailed: what is left of a graph after a forward pass that panicked (C57) *)
From Verif Require Import PropsGraph PVocab GraphTie OpsFacts.
Set Implicit Arguments.
Unset Strict Implicit.

Section Failed.
Variable K : num.
Notation tensor := (tensor K).
Variable Oper : Type.
Variable itp : Oper -> Graph.operator K.
Notation graph := (graph K Oper).
Hypothesis HF : forall op, lawful (itp op).

(** whatever an operator that has been started uses has been started too *)
Lemma uses_logged (g : graph) i j : history itp g -> In i (g_log g) -> uses g i j -> In j (g_log g).
Proof.
  intros H Hi U. pose proof (history_ordered HF H) as HO. induction U as [|i o n j Ho Hn U IH]; auto.
  apply IH. apply in_split in Hi. destruct Hi as (l1 & l2 & E). pose proof (HO l1 i l2 o n E Ho Hn) as Q. rewrite E. apply in_or_app. auto.
Qed.
Lemma run_fw_flagged l : forall g : graph, (forall i, In i l -> fwd_in g i) -> run_fw itp g l = (g, Ok tt).
Proof.
  induction l as [|i l IH]; intros g H; [reflexivity|]. cbn. destruct (H i (or_introl eq_refl)) as (o & Ho & Ef). rewrite (step_fw_cases itp Ho), Ef. apply IH. intros j Hj. apply H. right; auto.
Qed.
Lemma forward_flagged pop (g : graph) i : history itp g -> min_heap pop -> In i (g_log g) -> forward itp pop g i = (g, Ok tt).
Proof.
  intros H HP Hi. destruct (history_inv HF H) as (W & _ & LG). assert (L : i < length (g_ops g)). { destruct (proj1 (LG i) Hi) as (o & Ho & _). eapply nth_error_Some_lt; eauto. }
  unfold forward. apply run_fw_flagged. intros j Hj. apply LG. destruct (HP (depth0 g) (requests g i)) as (PP & _). apply (Permutation_in _ (Permutation_sym PP)) in Hj.
  destruct (requests_spec W L) as (_ & RS). apply RS in Hj. eapply uses_logged; eauto.
Qed.
(** the operator a failing pass stops at *)
Lemma run_fw_stops l : forall (g g1 : graph) r, run_fw itp g l = (g1, r) -> r <> Ok tt -> (forall i, In i l -> i < length (g_ops g)) ->
  exists i o, In i l /\ nth_error (g_ops g) i = Some o /\ oi_fwd o = false /\ nth_error (g_ops g1) i = Some (mark o) /\ exists l0, g_log g1 = l0 ++ [i].
Proof.
  induction l as [|i l IH]; intros g g1 r E NR B; cbn in E; [inversion E; congruence|].
  destruct (step_fw itp g i) as [g0 r0] eqn:E0. pose proof (step_fw_only E0) as FO. specialize (B i (or_introl eq_refl)) as Bi.
  destruct (nth_error (g_ops g) i) as [o|] eqn:Ho; [|apply nth_error_None in Ho; lia].
  assert (C : r0 <> Ok tt -> g1 = g0 /\ r = r0). { intros N. destruct r0 as [[]| |]; [congruence| |]; inversion E; auto. }
  assert (LEN : length (g_ops g0) = length (g_ops g)).
  { rewrite (step_fw_cases itp Ho) in E0. destruct (oi_fwd o); [inversion E0; auto|]. destruct (bind _ _); inversion E0; cbn [g_ops]; apply lset_length. }
  destruct r0 as [[]| |].
  - destruct (IH g0 g1 r E NR) as (k & p & Hk & Hp & Ef & Hp1 & LL). { intros j Hj. rewrite LEN. apply B. right; auto. }
    specialize (FO k). rewrite Hp in FO. destruct (nth_error (g_ops g) k) as [q|] eqn:Hq; [|tauto]. destruct FO as (_&_&_&_&_&_&FO). assert (p = q) by (apply FO; auto). subst p. exists k, q. split; [right; auto|]. repeat (split; [assumption|]). assumption.
  - destruct C as (-> & ->); [congruence|]. rewrite (step_fw_cases itp Ho) in E0. destruct (oi_fwd o) eqn:Ef; [discriminate|]. destruct (bind _ _); inversion E0; subst. exists i, o. split; [left; auto|]. split; auto. split; auto. cbn [g_ops g_log]. rewrite nth_error_lset, Nat.eqb_refl by auto. split; eauto.
  - destruct C as (-> & ->); [congruence|]. rewrite (step_fw_cases itp Ho) in E0. destruct (oi_fwd o) eqn:Ef; [discriminate|]. destruct (bind _ _); inversion E0; subst. exists i, o. split; [left; auto|]. split; auto. split; auto. cbn [g_ops g_log]. rewrite nth_error_lset, Nat.eqb_refl by auto. split; eauto.
Qed.
(** started operators keep what they hold *)
Lemma later_vals (g g' : graph) i o : later itp g g' -> nth_error (g_ops g) i = Some o -> oi_fwd o = true ->
  exists o', nth_error (g_ops g') i = Some o' /\ oi_fwd o' = true /\ oi_vals o' = oi_vals o.
Proof.
  intros L Ho Ef. induction L as [|g' g'' L IH A]; [eauto|]. destruct IH as (o' & Ho' & Ef' & EV). destruct A as [g' op own xs g'' ns E|g' pop root g'' r HP LL E|g' g'' (EL & HFA)].
  - apply create_inv in E. destruct E as (ss & rs & vals & grads & ds & _ & _ & _ & _ & _ & _ & _ & _ & -> & _). exists o'. cbn [g_ops]. rewrite nth_error_app1 by (eapply nth_error_Some_lt; eauto). auto.
  - apply forward_only in E. specialize (E i). rewrite Ho' in E. destruct (nth_error (g_ops g'') i) as [p|] eqn:Hp; [|tauto]. destruct E as (_&_&_&_&_&E&_). rewrite (E Ef') in Hp. exists o'. rewrite (E Ef'). auto.
  - destruct (Forall2_nth HFA Ho') as (p & Hp & S). destruct S as (_&_&EV'&_&_&EF&_). exists p. split; auto. split; congruence.
Qed.
Lemma later_log (g g' : graph) i : history itp g -> later itp g g' -> In i (g_log g) -> In i (g_log g').
Proof.
  intros H L Hi. destruct (history_inv HF H) as (_ & _ & LG). destruct (proj1 (LG i) Hi) as (o & Ho & Ef). destruct (later_vals L Ho Ef) as (o' & Ho' & Ef' & _).
  destruct (history_inv HF (history_later H L)) as (_ & _ & LG'). apply LG'. eauto.
Qed.

(** ** C57: when a forward pass does not return normally, one of the operators it needs (the
    last one it started) is from then on taken as evaluated: whatever happens to the graph
    later, its outputs hold no values, and forward on them succeeds at once *)
Theorem C57_silent_success : forall (g g1 : graph) pop root r, history itp g -> min_heap pop -> root < length (g_ops g) ->
  forward itp pop g root = (g1, r) -> r <> Ok tt ->
  exists i, uses g root i /\ ~ In i (g_log g) /\
    forall g2, later itp g1 g2 ->
      (forall v t, value_of g2 (i, v) = Ok t -> t_buf t = None) /\
      forall pop', min_heap pop' -> forward itp pop' g2 i = (g2, Ok tt).
Proof.
  intros g g1 pop root r H HP L E NR. destruct (history_inv HF H) as (W & Lg). assert (H1 : history itp g1) by (eapply h_forward; eauto).
  destruct (requests_spec W L) as (_ & RS). destruct (HP (depth0 g) (requests g root)) as (PP & _).
  assert (IN : forall i, In i (pop (depth0 g) (requests g root)) -> uses g root i). { intros i Hi. apply RS. apply (Permutation_in _ (Permutation_sym PP) Hi). }
  unfold forward in E. destruct (run_fw_stops E NR) as (i & o & Hi & Ho & Ef & Ho1 & l0 & El). { intros i Hi. apply (uses_lt W (IN i Hi) L). }
  assert (Hl : In i (g_log g1)) by (rewrite El; apply in_or_app; right; left; auto).
  exists i. split; auto. split. { intros Q. destruct Lg as (_ & LG). destruct (proj1 (LG i) Q) as (o' & Ho' & Ef'). congruence. }
  intros g2 LA. split.
  - intros v t V. destruct (later_vals LA Ho1 eq_refl) as (o2 & Ho2 & _ & EV). destruct (value_of_inv V) as (o3 & Ho3 & Hv). cbn [fst snd] in * . assert (o3 = o2) by congruence. subst o3. rewrite EV in Hv. cbn [mark oi_vals] in Hv.
    apply (history_pending H Ho Ef). eapply nth_error_In; eauto.
  - intros pop' HP'. apply forward_flagged; auto. eapply history_later; eauto. eapply later_log; eauto.
Qed.
(** the converse: a graph on which every forward pass returned normally has values wherever
    it claims to, so the flag is only wrong after a panic *)
Theorem C57_normal_passes : forall (g : graph) i v t, clean itp g -> In i (g_log g) -> value_of g (i, v) = Ok t -> eval_node itp g (i, v) = Ok t.
Proof.
  intros g i v t HC Hi V. destruct (clean_inv HF HC) as (W & (ND & LG) & SO). rewrite <- (sound_value W SO); auto. apply LG. auto.
Qed.
End Failed.
(** the concrete case: y = x reshaped to the wrong number of elements *)
Definition br_g : Zgraph := Eval lazy -[alz Znum] in fst (okv (empty, (0, 0)) bad_reshape).
Lemma br_eq : bad_reshape = Ok (br_g, (1, 0)). Proof. reflexivity. Qed.
Example C57_applies : history itz br_g /\ snd (node_forward itz fifo_min br_g (1, 0)) = Panic /\
  exists i, uses br_g 1 i /\ forall g2, later itz (fst (node_forward itz fifo_min br_g (1, 0))) g2 -> forward itz fifo_min g2 i = (g2, Ok tt).
Proof.
  assert (H : history itz br_g).
  { apply clean_history. pose proof br_eq as E. unfold bad_reshape in E. apply bind_Ok in E. destruct E as ([g1 x] & E1 & E2). eapply clean_pop1; [|exact E2]. eapply clean_leaf; [|exact E1]. constructor. }
  assert (LT : 1 < length (g_ops br_g)) by (cbn; lia).
  split; auto. split; [reflexivity|]. destruct (forward itz fifo_min br_g 1) as [g1 r] eqn:E. assert (R : r = Panic) by (change r with (snd (g1, r)); rewrite <- E; reflexivity).
  destruct (@C57_silent_success Znum _ itz (@interp_lawful Znum Debug) br_g g1 fifo_min 1 r H (proj1 heaps_ok) LT E) as (i & U & _ & P); [congruence|].
  exists i. split; auto. unfold node_forward. cbn [fst]. rewrite E. cbn [fst]. intros g2 LA. apply (P g2 LA). apply heaps_ok.
Qed.
