(** * PropsBorrow: C60, the references a user holds into the graph *)
From Verif Require Import PVocab GraphTie OpsFacts Borrow PropsGraph.
Set Implicit Arguments. Unset Strict Implicit.

Section Engine.
Variable K : num.
Notation tensor := (tensor K).
Variable m : build.
(** any operators, a user's own included *)
Variable Oper : Type.
Variable itp : Oper -> Graph.operator K.
Hypothesis HF : forall op, lawful (itp op).
Hypothesis HB : forall op, lawful_bw (itp op).
Notation graph := (graph K Oper).
Notation node := (nat * nat)%type.

(** ** What is in the way *)
(** [refs L]: the guards alive are [Ref]s, all a user can hold.
    [history_b g]: [g] was reached by any calls, made with any [Ref]s held. *)
(** node [n] is read, and the forward pass from [root] has to compute it *)
Definition in_the_way_fw (L : guards) (g : graph) (root : nat) (n : node) : Prop :=
  holds L (Val n) /\ uses g root (fst n) /\ exists o t, nth_error (g_ops g) (fst n) = Some o /\ oi_fwd o = false /\ value_of g n = Ok t.
(** the gradient of node [n] is read, and the backward pass from [root] has to write it:
    [n] is an output of the root's operator or an argument of an operator the root uses *)
Definition in_the_way_bw (L : guards) (g : graph) (root : nat) (n : node) : Prop :=
  holds L (Grad n) /\ exists t, grad_of g n = Ok t /\ (fst n = root \/ exists i o, uses g root i /\ nth_error (g_ops g) i = Some o /\ In n (oi_args o)).

Lemma order_fw (g : graph) pop root : gwf g -> min_heap pop -> root < length (g_ops g) -> forall i, In i (pop (depth0 g) (requests g root)) <-> uses g root i.
Proof.
  intros W HP L i. destruct (requests_spec W L) as (_ & HR). destruct (HP (depth0 g) (requests g root)) as (PM & _). rewrite <- HR. split; apply Permutation_in; [symmetry|]; auto.
Qed.
Lemma order_bw (g : graph) pop root : gwf g -> max_heap pop -> root < length (g_ops g) -> forall i, In i (pop (depth0 g) (requests g root)) <-> uses g root i.
Proof.
  intros W HP L i. destruct (requests_spec W L) as (_ & HR). destruct (HP (depth0 g) (requests g root)) as (PM & _). rewrite <- HR. split; apply Permutation_in; [symmetry|]; auto.
Qed.
Lemma blocked_way (L : guards) (g : graph) root : (exists i, uses g root i /\ blocked L g i) <-> exists n, in_the_way_fw L g root n.
Proof.
  split.
  - intros (i & U & o & v & Ho & Ef & Hv & Hh). exists (i, v). split; auto. split; auto. destruct (nth_error (oi_vals o) v) as [t|] eqn:Et; [|apply nth_error_None in Et; lia].
    exists o, t. ssplit; auto. unfold value_of. cbn [fst snd]. rewrite (idx_nth Ho). cbn [bind]. apply idx_nth; auto.
  - intros ([i v] & Hh & U & o & t & Ho & Ef & Hv). cbn [fst] in * . exists i. split; auto. exists o, v. ssplit; auto.
    apply value_of_inv in Hv. destruct Hv as (p & Hp & Hv). cbn [fst snd] in * . replace p with o in Hv by congruence. eapply nth_error_Some_lt; eauto.
Qed.

(** ** C60 *)
(** forward: nothing is in the way, then the references do not matter *)
Theorem C60_forward : forall L (g : graph) pop n, history_b itp g -> refs L -> min_heap pop -> fst n < length (g_ops g) ->
  (forall k, ~ in_the_way_fw L g (fst n) k) -> node_forward_b itp L pop g n = node_forward itp pop g n.
Proof.
  intros L g pop n H R HP Lt NW. destruct (history_b_inv HF H) as (W & Lg). unfold node_forward_b, node_forward, forward_b, forward.
  apply run_fw_b_free; auto. intros i Hi Hb. apply (order_fw W HP Lt) in Hi. destruct (proj1 (blocked_way L g (fst n))) as (k & Hk); eauto. exact (NW k Hk).
Qed.
(** ... otherwise it panics, and a node that was in the way is marked as computed,
    with the value it had *)
Theorem C60_forward_refused : forall L (g : graph) pop n, history_b itp g -> refs L -> min_heap pop -> fst n < length (g_ops g) ->
  (exists k, in_the_way_fw L g (fst n) k) ->
  snd (node_forward_b itp L pop g n) <> Ok tt /\
  (snd (node_forward itp pop g n) = Ok tt -> snd (node_forward_b itp L pop g n) = Panic /\
     let g' := fst (node_forward_b itp L pop g n) in
     exists k o, in_the_way_fw L g (fst n) k /\ nth_error (g_ops g') (fst k) = Some o /\ oi_fwd o = true /\ value_of g' k = value_of g k).
Proof.
  intros L g pop n H R HP Lt HW. destruct (history_b_inv HF H) as (W & Lg). apply blocked_way in HW. destruct HW as (i & U & Hb).
  unfold node_forward_b, node_forward, forward_b, forward.
  destruct (@run_fw_b_held K Oper itp HF L (pop (depth0 g) (requests g (fst n))) R g W Lg) as (A & B).
  { exists i. split; auto. apply (order_fw W HP Lt); auto. }
  split; auto. intros E. destruct (B E) as (P & j & o & Hj & Hbj & Ho & Hm). split; auto. cbv zeta. destruct Hbj as (o' & v & Ho' & Ef & Hv & Hh).
  replace o' with o in * by congruence. exists (j, v), (mark o). destruct (nth_error (oi_vals o) v) as [t|] eqn:Et; [|apply nth_error_None in Et; lia].
  assert (Vv : value_of g (j, v) = Ok t). { unfold value_of. cbn [fst snd]. rewrite (idx_nth Ho). cbn [bind]. apply idx_nth; auto. }
  ssplit; auto.
  - split; auto. split; [apply (order_fw W HP Lt); auto|]. exists o, t. auto.
  - rewrite Vv. unfold value_of. cbn [fst snd]. rewrite (idx_nth Hm). cbn [bind]. apply idx_nth; auto.
Qed.
(** ... for good: no later forward pass, with the references dropped or not, computes it *)
Theorem C60_refused_for_good : forall L (g : graph) pop root g' r k o, history_b itp g -> refs L -> min_heap pop ->
  nth_error (g_ops g) (fst k) = Some o -> oi_fwd o = true -> forward_b itp L pop g root = (g', r) -> value_of g' k = value_of g k.
Proof.
  intros L g pop root g' r k o H R HP Ho Ef E. destruct (history_b_inv HF H) as (W & Lg). unfold forward_b in E.
  destruct (run_fw_b_inv HF R W Lg E) as (_ & _ & M & _). unfold value_of. rewrite (idx_nth Ho), (idx_nth (M _ _ Ho Ef)). reflexivity.
Qed.
(** backward: the same with gradients; values may be read all along *)
Theorem C60_backward : forall L (g : graph) gal pop root, history_b itp g -> refs L -> max_heap pop -> root < length (g_ops g) ->
  (forall k, ~ in_the_way_bw L g root k) -> backward_b m itp L gal pop g root = backward m itp gal pop g root.
Proof.
  intros L g gal pop root H R HP Lt NW. destruct (history_b_inv HF H) as (W & Lg). unfold backward_b, backward. rewrite seed_b_free.
  - apply bind_ext. intros g1 E1. apply seed_spec in E1. destruct E1 as (G & _). pose proof (grads_gwf W G) as W1.
    assert (L1 : root < length (g_ops g1)) by (destruct G as (_ & FA); rewrite <- (Forall2_len FA); auto).
    apply run_bw_b_free; auto. intros i Hi n Hn Hh. apply (order_bw W1 HP L1) in Hi. apply (uses_grads (grads_sym G)) in Hi.
    rewrite (grads_args i G) in Hn. unfold args_of in Hn. destruct (nth_error (g_ops g) i) as [o|] eqn:Ho; [|destruct Hn].
    apply (NW n). split; auto. destruct (gwf_args W Ho Hn) as (_ & p & Hp & LP & _).
    destruct (nth_error (oi_grads p) (snd n)) as [t|] eqn:Et; [|apply nth_error_None in Et; pose proof (gwf_len W Hp); lia].
    exists t. split; [eapply grad_of_Ok; eauto|]. right. exists i, o. auto.
  - intros v t Ht Hh. apply (NW (root, v)). split; auto. exists t. split; auto.
Qed.
Theorem C60_backward_refused : forall L (g : graph) gal pop root, history_b itp g -> refs L -> max_heap pop -> root < length (g_ops g) ->
  (exists k, in_the_way_bw L g root k) ->
  (forall g', backward_b m itp L gal pop g root <> Ok g') /\
  ((exists g', backward m itp gal pop g root = Ok g') -> backward_b m itp L gal pop g root = Panic).
Proof.
  intros L g gal pop root H R HP Lt (n & Hh & t & Ht & HW). destruct (history_b_inv HF H) as (W & Lg). unfold backward_b, backward.
  assert (SD : (exists v t, grad_of g (root, v) = Ok t /\ holds L (Grad (root, v))) \/ (forall v t, grad_of g (root, v) = Ok t -> ~ holds L (Grad (root, v)))).
  { destruct (nth_error (g_ops g) root) as [o|] eqn:Ho; [|apply nth_error_None in Ho; lia].
    assert (D : forall len, len <= length (oi_grads o) -> (exists v t, grad_of g (root, v) = Ok t /\ holds L (Grad (root, v))) \/ (forall v, v < len -> ~ holds L (Grad (root, v)))).
    { induction len as [|len IH]; intros Hl; [right; intros; lia|]. destruct IH as [IH|IH]; [lia|left; auto|].
      destruct (holds_dec L (Grad (root, len))) as [Hd|Hd].
      - left. destruct (nth_error (oi_grads o) len) as [t'|] eqn:Et; [|apply nth_error_None in Et; lia]. exists len, t'. split; auto. eapply grad_of_Ok; eauto.
      - right. intros v Hv. destruct (Nat.eq_dec v len) as [->|]; auto. apply IH. lia. }
    destruct (D (length (oi_grads o)) ltac:(lia)) as [X|X]; [left; auto|right]. intros v t' E. apply X. apply grad_of_inv in E. destruct E as (p & Hp & E). cbn [fst snd] in * .
    replace p with o in E by congruence. eapply nth_error_Some_lt; eauto. }
  destruct SD as [(v & t' & Hv & Hhv)|NS].
  - destruct (@seed_b_held K m Oper L gal g root v t' Hv Hhv) as (A & B). split.
    + intros g' E. apply bind_Ok in E. destruct E as (g1 & E & _). exact (A g1 E).
    + intros (g' & E). apply bind_Ok in E. destruct E as (g1 & E & _). rewrite B; eauto.
  - destruct HW as [E|(i & o & U & Ho & Hn)].
    { destruct n as [i v]. cbn [fst] in E. subst i. destruct (NS v t Ht Hh). }
    rewrite seed_b_free by auto. destruct (seed m gal g root) as [g1| |] eqn:E1; cbn [bind]; [|split; [discriminate|intros (g' & E); discriminate E]..].
    apply seed_spec in E1. destruct E1 as (G & _). pose proof (grads_gwf W G) as W1.
    assert (L1 : root < length (g_ops g1)) by (destruct G as (_ & FA); rewrite <- (Forall2_len FA); auto).
    apply run_bw_b_held; auto. exists i. split.
    + apply (order_bw W1 HP L1). apply (uses_grads G). auto.
    + exists n. split; auto. rewrite (grads_args i G). unfold args_of. rewrite Ho. auto.
Qed.
(** without references a pass never meets a borrowed cell, whatever the graph: the same
    node as several operands, several outputs, operators shared between roots *)
Theorem C60_no_conflict : forall (g : graph) gal popf popb n, history_b itp g -> min_heap popf -> max_heap popb -> fst n < length (g_ops g) ->
  node_forward_b itp [] popf g n = node_forward itp popf g n /\
  backward_b m itp [] gal popb g (fst n) = backward m itp gal popb g (fst n) /\
  node_backward_b m itp [] gal popf popb g n = node_backward m itp gal popf popb g n.
Proof.
  intros g gal popf popb n H HP HQ Lt. assert (R : refs []) by (intros b []).
  assert (A : node_forward_b itp [] popf g n = node_forward itp popf g n) by (apply C60_forward; auto; intros k ((a & []) & _)).
  assert (B : forall g, history_b itp g -> fst n < length (g_ops g) -> backward_b m itp [] gal popb g (fst n) = backward m itp gal popb g (fst n)).
  { intros g0 H0 L0. apply C60_backward; auto. intros k ((a & []) & _). }
  ssplit; auto. unfold node_backward_b, node_backward. rewrite A. destruct (node_forward itp popf g n) as [g1 [[]| |]] eqn:E; auto. apply B.
  - eapply (@hb_forward K Oper itp []); eauto.
  - destruct (history_b_inv HF H) as (W & Lg). destruct (run_fw_b_inv HF R W Lg A) as (_ & _ & _ & ->). auto.
Qed.
(** reading never panics, and building on a node whose value is read neither *)
Theorem C60_reading : forall L (g : graph) n, refs L ->
  (forall t, value_of g n = Ok t -> inner_value_b L g n = Ok ((Val n, Shared) :: L, t) /\ refs ((Val n, Shared) :: L)) /\
  (forall t, grad_of g n = Ok t -> inner_gradient_b L g n = Ok ((Grad n, Shared) :: L, t) /\ refs ((Grad n, Shared) :: L)).
Proof.
  intros L g n R. split; intros t Ht; (split; [|apply refs_cons; auto]); unfold inner_value_b, inner_gradient_b; rewrite Ht; cbn [bind]; rewrite borrow_refs by auto; reflexivity.
Qed.
Theorem C60_create : forall L (g : graph) op own xs, refs L -> create_b itp L g op own xs = create itp g op own xs.
Proof.
  intros L g op own xs R. unfold create_b, create.
  assert (NU : forall n, value_of g n = UB -> False).
  { intros n. unfold value_of, idx. destruct (nth_error _ (fst n)) as [p|]; cbn [bind]; [destruct (nth_error _ (snd n))|]; intros E; discriminate E. }
  assert (E : (exists ys, mapM (fun n => inner_value_b L g n) xs = Ok ys) \/
    mapM (fun n => inner_value_b L g n) xs = Panic /\ mapM (fun n => v <- value_of g n ;; Ok (t_shape v)) xs = Panic).
  { induction xs as [|n xs IH]; [left; eexists; reflexivity|]. rewrite !mapM_cons. unfold inner_value_b at 1 3. destruct (value_of g n) as [t| |] eqn:Ev; cbn [bind]; [|right; auto|destruct (NU n Ev)].
    rewrite borrow_refs by auto. cbn [bind]. destruct IH as [(ys & ->)|(E1 & E2)]; [left; eexists; reflexivity|right]. rewrite E1, E2. auto. }
  destruct E as [(ys & ->)|(-> & ->)]; reflexivity.
Qed.
(** the calls of Operator::forward stay at most one per operator (C36) *)
Theorem C60_at_most_once : forall g : graph, history_b itp g -> NoDup (g_log g).
Proof. intros g H. apply (history_b_inv HF H). Qed.
End Engine.

(** ** Concrete graphs *)
(** x = [5] (a parameter), y = x * x *)
Definition squared : res (Zgraph * (node * node)) :=
  ' (g1, x) <- paramz empty bz (tz 0 [1%N] 1 [5%Z]) (tz 0 [1%N] 1 [0%Z]) ;;
  ' (g2, y) <- n_mul (K := Znum) Debug g1 bz x x ;;
  Ok (g2, (x, y)).
Definition sq_g : Zgraph := Eval lazy -[alz Znum] in fst (okv (empty, ((0, 0), (0, 0))) squared).
Lemma sq_eq : squared = Ok (sq_g, ((0, 0), (1, 0))).
Proof. reflexivity. Qed.
Lemma sq_history : history_b itz sq_g.
Proof.
  pose proof sq_eq as E. unfold squared in E. apply bind_Ok in E. destruct E as ([g1 x] & E1 & E). apply bind_Ok in E. destruct E as ([g2 y] & E2 & E).
  replace sq_g with g2 by congruence.
  assert (C1 : history_b itz g1). { unfold paramz, n_parameter, leaf, pop1 in E1. inv_ok. destruct x0 as [g3 ns]. inv_ok. eapply hb_create; eauto. constructor. }
  assert (P : forall bs k x xs g' n, pop1 (n_create Debug g1 bs k x xs) = Ok (g', n) -> history_b itz g').
  { intros bs k x1 xs g' n Ep. unfold pop1 in Ep. inv_ok. destruct x0 as [g3 ns]. inv_ok. unfold n_create in * . inv_ok. eapply hb_create; eauto. }
  clear E. unfold n_mul, n_op2 in E2. inv_ok. repeat match goal with H : (if ?b then _ else _) = Ok _ |- _ => destruct b; inv_ok end; match goal with H : pop1 _ = Ok (g2, _) |- _ => exact (P _ _ _ _ _ _ H) end.
Qed.
(** y = x * x borrows x's value twice and x's gradient twice; held references to x or
    y's gradient are in the way of y's passes, references to values afterwards are not *)
Definition fwd_b (L : guards) (g : Zgraph) (n : node) := node_forward_b itz L fifo_min g n.
Definition bwd_b (L : guards) (g : Zgraph) (n : node) := node_backward_b (K := Znum) Debug itz L gz fifo_min fifo_max g n.
Example C60_applies : history_b itz sq_g /\ (forall o, lawful (itz o)) /\ (forall o, lawful_bw (itz o)) /\ min_heap fifo_min /\ max_heap fifo_max /\
  (g' <- bwd_b [] sq_g (1, 0) ;; param_grad g' 0) = Ok [10%Z] /\
  refs [(Val (0, 0), Shared)] /\ in_the_way_fw [(Val (0, 0), Shared)] sq_g 1 (0, 0) /\ snd (fwd_b [(Val (0, 0), Shared)] sq_g (1, 0)) = Panic /\
  in_the_way_bw [(Grad (0, 0), Shared)] (fst (fwd_b [] sq_g (1, 0))) 1 (0, 0) /\
  (match bwd_b [(Grad (0, 0), Shared)] sq_g (1, 0) with Panic => true | _ => false end) = true /\
  (let g1 := fst (fwd_b [] sq_g (1, 0)) in (g' <- bwd_b [(Val (1, 0), Shared); (Val (0, 0), Shared)] g1 (1, 0) ;; param_grad g' 0) = Ok [10%Z]).
Proof.
  ssplit; try apply heaps_ok; try reflexivity.
  - apply sq_history.
  - intros; apply interp_lawful.
  - intros; apply interp_lawful_bw.
  - intros b [<-|[]]; reflexivity.
  - split; [exists Shared; left; reflexivity|]. split.
    + eapply uses_step; [reflexivity|left; reflexivity|constructor].
    + do 2 eexists. ssplit; reflexivity.
  - split; [exists Shared; left; reflexivity|]. eexists. split; [reflexivity|]. right. exists 1. eexists. ssplit; [constructor|reflexivity|left; reflexivity].
Qed.
(** the English reading "drop the reference and try again" is false: y's forward is
    refused while y is read; afterwards it claims success and the value is never there *)
Theorem C60_try_again_refuted : exists g1, fwd_b [(Val (1, 0), Shared)] sq_g (1, 0) = (g1, Panic) /\
  snd (fwd_b [] sq_g (1, 0)) = Ok tt /\
  fwd_b [] g1 (1, 0) = (g1, Ok tt) /\ (t <- value_of g1 (1, 0) ;; Ok (t_buf t)) = Ok None.
Proof. eexists. ssplit; reflexivity. Qed.
