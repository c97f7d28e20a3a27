(** * PropsGraph: C35 forward, C36 once, C37 backward, C40 two losses, C41 several outputs, C57 failed forward *)
From Verif Require Import PVocab GraphTie OpsFacts.
Set Implicit Arguments. Unset Strict Implicit.

(** ** Concrete heaps and graphs *)
(** a heap that returns equal depths first-in first-out, and one that returns them
    last-in first-out *)
Section Sort.
Variable le : nat -> nat -> bool.
Fixpoint insert (x : nat) (l : list nat) : list nat :=
  match l with [] => [x] | y :: l' => if le x y then x :: l else y :: insert x l' end.
Definition isort (l : list nat) : list nat := fold_right insert [] l.
Hypothesis total : forall x y, le x y = false -> le y x = true.
Lemma insert_perm x l : Permutation (x :: l) (insert x l).
Proof. induction l as [|y l IH]; cbn; auto. destruct (le x y); auto. rewrite perm_swap. auto. Qed.
Lemma isort_perm l : Permutation l (isort l).
Proof. induction l as [|x l IH]; cbn; auto. rewrite <- insert_perm. auto. Qed.
Lemma insert_sorted x l : Sorted (fun a b => le a b = true) l -> Sorted (fun a b => le a b = true) (insert x l).
Proof.
  induction 1 as [|y l S IH H]; cbn; [repeat constructor|]. destruct (le x y) eqn:E; [constructor; auto|]. constructor; auto.
  destruct l as [|z l]; cbn; [constructor; auto|]. destruct (le x z); constructor; auto. inversion H; auto.
Qed.
Lemma isort_sorted l : Sorted (fun a b => le a b = true) (isort l).
Proof. induction l; cbn; [constructor|]. apply insert_sorted; auto. Qed.
End Sort.
Definition up (depth : nat -> nat) (a b : nat) : bool := depth a <=? depth b.
Definition down (depth : nat -> nat) (a b : nat) : bool := depth b <=? depth a.
Definition fifo_min : heap := fun depth l => isort (up depth) l.
Definition lifo_min : heap := fun depth l => isort (up depth) (rev l).
Definition fifo_max : heap := fun depth l => isort (down depth) l.
Definition lifo_max : heap := fun depth l => isort (down depth) (rev l).
Lemma Sorted_weaken A (R S : A -> A -> Prop) l : (forall a b, R a b -> S a b) -> Sorted R l -> Sorted S l.
Proof. intros H. induction 1 as [|a l HS IH HH]; constructor; auto. destruct HH; constructor; auto. Qed.
Lemma heaps_ok : min_heap fifo_min /\ min_heap lifo_min /\ max_heap fifo_max /\ max_heap lifo_max.
Proof.
  unfold min_heap, max_heap, fifo_min, lifo_min, fifo_max, lifo_max.
  assert (TU : forall depth x y, up depth x y = false -> up depth y x = true) by (unfold up; intros depth x y H; apply Nat.leb_gt in H; apply Nat.leb_le; lia).
  assert (TD : forall depth x y, down depth x y = false -> down depth y x = true) by (unfold down; intros depth x y H; apply Nat.leb_gt in H; apply Nat.leb_le; lia).
  assert (SU : forall depth l, Sorted (fun a b => depth a <= depth b) (isort (up depth) l)).
  { intros. eapply Sorted_weaken; [|apply isort_sorted; apply TU]. intros a b H. apply Nat.leb_le; exact H. }
  assert (SD : forall depth l, Sorted (fun a b => depth b <= depth a) (isort (down depth) l)).
  { intros. eapply Sorted_weaken; [|apply isort_sorted; apply TD]. intros a b H. apply Nat.leb_le; exact H. }
  ssplit; intros depth l; split; auto; try apply isort_perm; rewrite <- isort_perm; apply Permutation_rev.
Qed.

Section Engine.
Variable K : num.
Notation tensor := (tensor K).
Variable m : build.
(** any operators, a user's own included, which fill their outputs and update
    gradients in place *)
Variable Oper : Type.
Variable itp : Oper -> Graph.operator K.
Hypothesis HF : forall op, lawful (itp op).
Hypothesis HB : forall op, lawful_bw (itp op).
Notation graph := (graph K Oper).
Notation node := (nat * nat)%type.

(** ** C35 *)
(** [eval_node itp g n] is the value of the expression node [n] denotes: the operator
    applied to the values of its arguments *)
Theorem C35_meaning : forall (g : graph) i o, clean itp g -> nth_error (g_ops g) i = Some o ->
  eval itp g i = (xs <- mapM (eval_node itp g) (oi_args o) ;; op_forward (itp (oi_op o)) xs (map blank (oi_vals o))).
Proof. intros g i o HC Ho. apply eval_eq; auto. apply (clean_inv HF HC). Qed.
Theorem C35_forward_evaluates : forall (g : graph) pop n g' r, clean itp g -> min_heap pop -> fst n < length (g_ops g) ->
  node_forward itp pop g n = (g', r) ->
  (r = Ok tt <-> exists ys, eval itp g (fst n) = Ok ys) /\
  (r = Ok tt -> (forall k, uses g (fst n) (fst k) -> value_of g' k = eval_node itp g k) /\
     (forall j, ~ uses g (fst n) j -> nth_error (g_ops g') j = nth_error (g_ops g) j)).
Proof.
  intros g pop n g' r HC HP L E. destruct (clean_inv HF HC) as (W & Lg & S). destruct (forward_spec HF W S Lg HP L E) as (A & B).
  split; auto. intros Hr. destruct (B Hr) as (S' & W' & _ & X & _ & F' & _ & N'). split; auto.
  intros k Hk. rewrite (sound_value (itp := itp) W' S' (F' _ Hk)). unfold eval_node. rewrite (eval_extends itp W X); auto. apply (uses_lt W Hk L).
Qed.
Theorem C35_to_vec : forall (g : graph) pop n l, clean itp g -> min_heap pop -> fst n < length (g_ops g) ->
  snd (node_to_vec m itp pop g n) = Ok l <-> exists t, eval_node itp g n = Ok t /\ to_vec m t = Ok l.
Proof.
  intros g pop n l HC HP L. unfold node_to_vec. destruct (node_forward itp pop g n) as [g' r] eqn:E.
  destruct (C35_forward_evaluates HC HP L E) as (A & B).
  assert (EN : forall t, eval_node itp g n = Ok t -> r = Ok tt). { intros t Ht. unfold eval_node in Ht. inv_ok. apply A. eauto. }
  destruct r as [[]| |]; cbn [snd].
  - destruct (B eq_refl) as (V & _). rewrite (V n (uses_refl _ _)). split; [intros H; apply bind_Ok in H; auto|]. intros H. apply bind_Ok; auto.
  - split; [discriminate|]. intros (t & Ht & _). specialize (EN t Ht). discriminate.
  - split; [discriminate|]. intros (t & Ht & _). specialize (EN t Ht). discriminate.
Qed.
(** the whole graph is left in the same state whatever the order of equal depths *)
Theorem C35_any_tie_order : forall (g : graph) p1 p2 n g1 g2 r2, clean itp g -> min_heap p1 -> min_heap p2 -> fst n < length (g_ops g) ->
  node_forward itp p1 g n = (g1, Ok tt) -> node_forward itp p2 g n = (g2, r2) -> r2 = Ok tt /\ g_ops g1 = g_ops g2.
Proof. intros. eapply (forward_unique HF (p1 := p1) (p2 := p2)); eauto. Qed.

(** ** C36 *)
(** [g_log g] lists the calls of Operator::forward; [history] allows panics *)
Theorem C36_at_most_once : forall g : graph, history itp g -> NoDup (g_log g).
Proof. intros g H. apply (history_inv HF H). Qed.
Theorem C36_arguments_first : forall (g : graph) l1 i l2 o n, history itp g -> g_log g = l1 ++ i :: l2 ->
  nth_error (g_ops g) i = Some o -> In n (oi_args o) -> In (fst n) l1.
Proof. intros g l1 i l2 o n H. apply (history_ordered HF H). Qed.
Theorem C36_values_are_stable : forall (g g' : graph) n t, history itp g -> later itp g g' -> value_of g n = Ok t -> t_buf t <> None ->
  value_of g' n = Ok t.
Proof. intros g g' n t H L V B. eapply later_stable; eauto. Qed.

(** ** C37 *)
(** a graph that has not been differentiated *)
Definition fresh (g : graph) : Prop := forall n t, grad_of g n = Ok t ->
  t_buf t = None /\ t_host t = None /\ fits (t_shape t) /\ exists d, t_dev t = Some d.
(** [t] with every element [k] *)
Definition filled (t : tensor) (k : F K) (t' : tensor) : Prop := exists d, t_dev t = Some d /\ is_flat d (t_shape t) (fun _ => k) t'.
Lemma alloc_reset (al : alloc_oracle K) d t k : al_ok al -> t_dev t = Some d -> t_buf t = None -> t_host t = None -> fits (t_shape t) ->
  exists t', (t1 <- alloc m al t ;; reset m t1 k) = Ok t' /\ is_flat d (t_shape t) (fun _ => k) t'.
Proof.
  intros HA Hd Hb Hh Hf. destruct t as [dv s b h]. cbn in * . subst. destruct (new_alloc_Ok m d HA Hf) as (l & E & Ll). unfold new_alloc, new_tensor in E. rewrite E. cbn [bind].
  pose proof (@new_ready K d s l Hf Ll) as HR. exact (updates_flat HR (@reset_updates K m d _ k HR)).
Qed.
Theorem C37_reverse_mode : forall gal pop (g g' : graph) root, history itp g -> fresh g -> (forall i v, al_ok (gal i v)) -> max_heap pop ->
  root < length (g_ops g) -> backward m itp gal pop g root = Ok g' ->
  exists order us,
    (* the operators the root uses, each once, consumers before their arguments *)
    NoDup order /\ (forall i, In i order <-> uses g root i) /\
    (forall l1 i l2 j v, order = l1 ++ i :: l2 -> uses g root j -> In (i, v) (args_of g j) -> In j l1) /\
    (* each asks for updates, given its values and the final gradients of its outputs *)
    (forall i, uses g root i -> exists o o' xs, nth_error (g_ops g) i = Some o /\ nth_error (g_ops g') i = Some o' /\
        mapM (value_of g) (oi_args o) = Ok xs /\ op_backward (itp (oi_op o)) xs (oi_vals o) (oi_grads o') = Ok (us i)) /\
    (* final gradients *)
    (forall n t, grad_of g n = Ok t ->
        if fst n =? root then exists t1, filled t n1 t1 /\ grad_of g' n = Ok t1
        else if is_arg g order n then exists t0 t', filled t n0 t0 /\ apply_all (received g us order n) t0 = Ok t' /\ grad_of g' n = Ok t'
        else grad_of g' n = Ok t) /\
    (* the gradients of parameters: only those of used parameter operators change *)
    (forall i, ~ uses g root i -> own_of g' i = own_of g i) /\
    (forall i t, uses g root i -> own_of g i = Some t -> exists t', apply_all (sent_own (us i)) t = Ok t' /\ own_of g' i = Some t') /\
    (* values, structure and flags do not change *)
    grads_changed g g'.
Proof.
  intros gal pop g g' root H FR HA HP L E. destruct (history_inv HF H) as (W & _).
  destruct (backward_spec HB W HP L E) as (G & order & us & A1 & A2 & A3 & A4 & A5 & A6 & A7 & A8). exists order, us. ssplit; auto.
  - intros l1 i l2 j v EO Hj Hi. apply A2 in Hj. rewrite EO in Hj. apply in_app_or in Hj. destruct Hj as [Hj|Hj]; auto. exfalso.
    unfold args_of in Hi. destruct (nth_error (g_ops g) j) as [p|] eqn:Hp; [|destruct Hi]. destruct (gwf_args W Hp Hi) as (Lj & q & Hq & _ & D). cbn [fst] in * .
    destruct Hj as [Hj|Hj]; [lia|]. rewrite EO in A3. clear -A3 Hj Hp Hq D. induction l1 as [|a l1 IH]; cbn in A3; apply StronglySorted_inv in A3; destruct A3 as (S & FA); auto.
    rewrite Forall_forall in FA. specialize (FA _ Hj). unfold depth0 in FA. rewrite Hp, Hq in FA. lia.
  - intros i Hi. destruct (A4 i Hi) as (o & o' & xs & ? & ? & ? & ? & _). exists o, o', xs. auto.
  - intros n t Hn. destruct (A5 _ _ Hn) as (t0 & t' & S1 & S2 & S3). destruct (FR _ _ Hn) as (Fb & Fh & Ff & d & Fd).
    unfold initial in S1. destruct (Nat.eqb_spec (fst n) root) as [En|Ne].
    + assert (NA : is_arg g order n = false).
      { destruct (is_arg g order n) eqn:EX; auto. unfold is_arg in EX. apply existsb_exists in EX. destruct EX as (j & Hj & EX). apply existsb_node in EX. exfalso.
        apply A2 in Hj. destruct (uses_lt W Hj L) as (_ & Lj). unfold args_of in EX. destruct (nth_error (g_ops g) j) as [p|] eqn:Hp; [|destruct EX].
        destruct (gwf_args W Hp EX) as (LL & _). lia. }
      rewrite (received_not_arg _ NA) in S2. cbn in S2. inversion S2; subst t0. exists t'. split; auto.
      destruct (@alloc_reset (gal (fst n) (snd n)) d t n1 (HA _ _) Fd Fb Fh Ff) as (t1 & E1 & HH). exists d. split; auto. cbn in * . congruence.
    + unfold start in S1. destruct (is_arg g order n) eqn:EX.
      * exists t0, t'. ssplit; auto. unfold touch, valid in S1. rewrite Fb in S1. destruct (@alloc_reset (gal (fst n) (snd n)) d t n0 (HA _ _) Fd Fb Fh Ff) as (t1 & E1 & HH).
        exists d. split; auto. cbn in * . congruence.
      * inv_ok. rewrite (received_not_arg _ EX) in S2. cbn in S2. inv_ok. auto.
Qed.
(** Node::backward on a graph nobody has run yet: it computes the values first, so the pass above works on the values of the expressions *)
Theorem C37_values_first : forall gal popf popb (g g' : graph) n, clean itp g -> min_heap popf -> max_heap popb -> fst n < length (g_ops g) ->
  node_backward m itp gal popf popb g n = Ok g' ->
  (exists ys, eval itp g (fst n) = Ok ys) /\ forall k, uses g (fst n) (fst k) -> value_of g' k = eval_node itp g k.
Proof.
  intros gal popf popb g g' n HC HPf HPb L E. unfold node_backward in E. destruct (node_forward itp popf g n) as [ge r] eqn:EF.
  destruct (C35_forward_evaluates HC HPf L EF) as (A & B). destruct r as [[]| |]; try discriminate. split; [apply A; auto|].
  destruct (B eq_refl) as (B1 & _). intros k Hk. rewrite <- B1 by auto. apply grads_value.
  destruct (clean_inv HF HC) as (W0 & Lg & S). destruct (forward_spec HF W0 S Lg HPf L EF) as (_ & C). destruct (C eq_refl) as (_ & W & _ & X & _).
  assert (L' : fst n < length (g_ops ge)) by (destruct (nth_error (g_ops g) (fst n)) as [o|] eqn:Ho; [|apply nth_error_None in Ho; lia]; destruct (X _ _ Ho) as (o' & Ho' & _); eapply nth_error_Some_lt; eauto).
  destruct (backward_spec HB W HPb L' E) as (G & _). exact G.
Qed.
(** when the updates operators ask for commute (exact arithmetic), the order among
    equal depths does not matter: same success, same graph. [P n] is any property of
    the gradient tensors of [n] that the updates preserve. *)
Theorem C37_any_tie_order : forall gal p1 p2 (g g' : graph) root (P : node -> tensor -> Prop), history itp g -> max_heap p1 -> max_heap p2 ->
  root < length (g_ops g) ->
  (forall n t t0, grad_of g n = Ok t -> touch m gal n t = Ok t0 -> P n t0) ->
  (forall n f t t', asked itp g root f -> P n t -> f t = Ok t' -> P n t') ->
  (forall n f h t, asked itp g root f -> asked itp g root h -> P n t -> bind (f t) h = bind (h t) f) ->
  backward m itp gal p1 g root = Ok g' -> backward m itp gal p2 g root = Ok g'.
Proof. intros gal p1 p2 g g' root P H. intros. eapply (backward_tie HB (P := P) (p1 := p1)); eauto. apply (history_inv HF H). Qed.

(** ** C57 *)
(** an operator that panicked is never run again: the claim fails for every graph *)
Theorem C57_never_retried : forall (g g1 : graph) pop root r i, history itp g -> min_heap pop -> root < length (g_ops g) ->
  forward itp pop g root = (g1, r) -> In i (g_log g1) ->
  forall g2, later itp g1 g2 -> exists l, g_log g2 = g_log g1 ++ l /\ ~ In i l.
Proof.
  intros g g1 pop root r i H HP L E Hi g2 HL. assert (H1 : history itp g1) by (eapply h_forward; eauto).
  assert (PRE : exists l, g_log g2 = g_log g1 ++ l).
  { clear Hi. induction HL as [|a b HL (l & IH) A]; [exists []; rewrite app_nil_r; auto|]. destruct A as [a op own xs b ns Ec|a pop' root' b r' HP' L' Ef|a b (EL & _)].
    - apply create_inv in Ec. destruct Ec as (ss & rs & vals & grads & ds & _ & _ & _ & _ & _ & _ & _ & _ & -> & _). exists l. auto.
    - unfold forward in Ef. revert Ef. generalize (pop' (depth0 a) (requests a root')). intros order. clear -IH. revert a l IH b r'.
      induction order as [|j order IO]; intros a l IH b r' E; cbn in E; [inversion E; subst; eauto|].
      assert (ST : forall a' q, step_fw itp a j = (a', q) -> exists l', g_log a' = g_log g1 ++ l').
      { intros a' q Es. destruct (nth_error (g_ops a) j) as [o|] eqn:Ho.
        - rewrite (step_fw_cases itp Ho) in Es. destruct (oi_fwd o); [inversion Es; subst; eauto|].
          destruct (xs <- mapM (value_of a) (oi_args o) ;; op_forward (itp (oi_op o)) xs (oi_vals o)); inversion Es; subst; cbn [g_log]; rewrite IH, <- app_assoc; eauto.
        - unfold step_fw in Es. rewrite Ho in Es. inversion Es; subst; eauto. }
      destruct (step_fw itp a j) as [a' [u| |]] eqn:Es; destruct (ST _ _ eq_refl) as (l' & El'); [exact (IO _ _ El' _ _ E)| |]; inversion E; subst; eauto.
    - exists l. congruence. }
  destruct PRE as (l & El). exists l. split; auto. intros Hl. pose proof (history_inv HF (history_later H1 HL)) as (_ & ND & _). rewrite El in ND.
  clear -ND Hi Hl. induction (g_log g1) as [|a g' IH]; [destruct Hi|]. cbn in ND. inversion ND; subst. destruct Hi as [->|Hi]; [apply H1, in_or_app; auto|auto].
Qed.
End Engine.

(** ** Concrete graphs *)
Definition bz : buffers Znum := (fun _ => alz, fun _ => alz).
Definition gz : grad_alloc Znum := fun _ _ => alz.
Notation Zgraph := (graph Znum (oper Znum)).
Notation itz := (interp (K := Znum) Debug).
Definition paramz := n_parameter (K := Znum) Debug.
Definition inputz := n_input (K := Znum) Debug.
Definition mulc := n_mul_const (K := Znum) Debug.
Definition backz := node_backward (K := Znum) Debug itz gz fifo_min fifo_max.
(** the gradient of the parameter behind operator [i], as values *)
Definition param_grad (g : Zgraph) (i : nat) : res (list Z) := t <- unwrap (own_of g i) ;; to_vec (K := Znum) Debug t.

(** x = [5] (a parameter with gradient 0), z = 2x, l1 = 3z, l2 = 4z *)
Definition two_losses : res (Zgraph * ((nat * nat) * (nat * nat))) :=
  ' (g1, x) <- paramz empty bz (tz 0 [1%N] 1 [5%Z]) (tz 0 [1%N] 1 [0%Z]) ;;
  ' (g2, z) <- mulc 2%Z g1 bz x ;;
  ' (g3, l1) <- mulc 3%Z g2 bz z ;;
  ' (g4, l2) <- mulc 4%Z g3 bz z ;;
  Ok (g4, (l1, l2)).
(** x = [1,2,3,4], (a, b) = split(x), l = 3a *)
Definition half_used : res (Zgraph * ((nat * nat) * (nat * nat))) :=
  ' (g1, x) <- paramz empty bz (tz 0 [4%N] 1 [1;2;3;4]%Z) (tz 0 [4%N] 1 [0;0;0;0]%Z) ;;
  ' (g2, parts) <- n_split (K := Znum) Debug 0 2 g1 bz x ;;
  a <- idx parts 0 ;;
  ' (g3, l) <- mulc 3%Z g2 bz a ;;
  Ok (g3, (a, l)).
(** x = [1,2], y = x reshaped to three elements *)
Definition bad_reshape : res (Zgraph * (nat * nat)) :=
  ' (g1, x) <- inputz empty bz (tz 0 [2%N] 1 [1;2]%Z) ;;
  n_reshape (K := Znum) Debug (sh [3%N] 1) g1 bz x.

(** ** C40 *)
(** alone the losses give 6 and 8; one after the other they give 26 *)
Theorem C40_two_losses_refuted : exists (g : Zgraph) l1 l2, two_losses = Ok (g, (l1, l2)) /\
  (g' <- backz g l1 ;; param_grad g' 0) = Ok [6%Z] /\
  (g' <- backz g l2 ;; param_grad g' 0) = Ok [8%Z] /\
  (g' <- backz g l1 ;; g'' <- backz g' l2 ;; param_grad g'' 0) = Ok [26%Z].
Proof. do 3 eexists. split; [reflexivity|]. ssplit; reflexivity. Qed.
(** what holds: a backward pass leaves the gradients of operators its root does not
    use as they were, so losses that share no operator do not disturb each other *)
Theorem C40_independent_losses : forall K m (Oper : Type) (itp : Oper -> Graph.operator K) gal pop (g g' : graph K Oper) root,
  (forall op, lawful (itp op)) -> (forall op, lawful_bw (itp op)) -> history itp g -> max_heap pop -> root < length (g_ops g) ->
  backward m itp gal pop g root = Ok g' ->
  forall i, ~ uses g root i -> own_of g' i = own_of g i /\ forall v, grad_of g' (i, v) = grad_of g (i, v).
Proof.
  intros K m Oper itp gal pop g g' root HF HB H HP L E i Hi. destruct (history_inv HF H) as (W & _).
  destruct (backward_spec HB W HP L E) as (G & order & us & A1 & A2 & A3 & A4 & A5 & A6 & A7 & A8). split; auto.
  intros v. destruct (grad_of g (i, v)) as [t| |] eqn:Eg.
  - destruct (A5 _ _ Eg) as (t0 & t' & S1 & S2 & S3).
    assert (NA : is_arg g order (i, v) = false).
    { destruct (is_arg g order (i, v)) eqn:EX; auto. unfold is_arg in EX. apply existsb_exists in EX. destruct EX as (j & Hj & EX). apply existsb_node in EX. exfalso.
      apply A2 in Hj. apply Hi. eapply uses_trans; eauto. unfold args_of in EX. destruct (nth_error (g_ops g) j) as [p|] eqn:Hp; [|destruct EX].
      apply (@uses_step K Oper g j p (i, v) i Hp EX). constructor. }
    rewrite (received_not_arg _ NA) in S2. cbn in S2. inversion S2; subst. unfold initial in S1. cbn [fst] in S1. destruct (Nat.eqb_spec i root) as [->|]; [destruct Hi; constructor|].
    rewrite NA in S1. cbn in S1. congruence.
  - unfold grad_of in * . cbn [fst snd] in * . destruct (nth_error (g_ops g) i) as [p|] eqn:Hp.
    + destruct (grads_nth G Hp) as (q & Hq & _&_&_&LL&_). rewrite (idx_nth Hp) in Eg. rewrite (idx_nth Hq). cbn in * . unfold idx in * .
      destruct (nth_error (oi_grads p) v) eqn:Q; [discriminate|]. apply nth_error_None in Q. rewrite LL in Q. apply nth_error_None in Q. rewrite Q. auto.
    + unfold idx at 1. apply nth_error_None in Hp. destruct G as (_ & FA). rewrite (Forall2_len FA) in Hp. apply nth_error_None in Hp. rewrite Hp. auto.
  - unfold grad_of, idx in Eg. cbn [fst snd] in Eg. destruct (nth_error (g_ops g) i) as [p|]; cbn in Eg; [destruct (nth_error (oi_grads p) v)|]; discriminate.
Qed.

(** ** C41 *)
Theorem C41_unused_output_refuted : exists (g : Zgraph) a l, half_used = Ok (g, (a, l)) /\
  snd (node_to_vec (K := Znum) Debug itz fifo_min g l) = Ok [3; 6]%Z /\ backz g l = Panic.
Proof. do 3 eexists. split; [reflexivity|]. split; reflexivity. Qed.
(** the gradient of the elements of the first half is 1 everywhere, not [1,1,0,0] *)
Theorem C41_one_output_refuted : exists (g : Zgraph) a l, half_used = Ok (g, (a, l)) /\
  (g' <- backz g a ;; param_grad g' 0) = Ok [1; 1; 1; 1]%Z.
Proof. do 3 eexists. split; reflexivity. Qed.

(** ** C57 *)
(** the first forward panics; the second claims success although nothing was computed *)
Theorem C57_failed_forward_refuted : exists (g : Zgraph) y, bad_reshape = Ok (g, y) /\
  exists g1, node_forward itz fifo_min g y = (g1, Panic) /\ node_forward itz fifo_min g1 y = (g1, Ok tt) /\
  (t <- value_of g1 y ;; Ok (t_buf t)) = Ok None.
Proof. do 2 eexists. split; [reflexivity|]. eexists. ssplit; reflexivity. Qed.

(** ** The hypotheses are met *)
Definition okv A (d : A) (r : res A) : A := match r with Ok a => a | _ => d end.
Lemma clean_n_create (g : Zgraph) bs k x xs r : clean itz g -> n_create Debug g bs k x xs = Ok r -> clean itz (fst r).
Proof. intros H E. unfold n_create in E. inv_ok. destruct r. eapply c_create; eauto. Qed.
Lemma clean_pop1 (g : Zgraph) bs k x xs g' n : clean itz g -> pop1 (n_create Debug g bs k x xs) = Ok (g', n) -> clean itz g'.
Proof. intros H E. unfold pop1 in E. inv_ok. destruct x0 as [g2 ns]. inv_ok. apply (clean_n_create H H0). Qed.
Lemma clean_leaf (g : Zgraph) bs k own g' n : clean itz g -> leaf Debug g bs k own = Ok (g', n) -> clean itz g'.
Proof. intros H E. unfold leaf, pop1 in E. inv_ok. destruct x as [g2 ns]. inv_ok. eapply c_create; eauto. Qed.
Lemma clean_history (K : num) Oper (itp : Oper -> Graph.operator K) g : clean itp g -> history itp g.
Proof. induction 1; [constructor|eapply h_create|eapply h_forward|eapply h_backward]; eauto. Qed.
Lemma two_losses_clean g l1 l2 : two_losses = Ok (g, (l1, l2)) -> clean itz g.
Proof.
  unfold two_losses. intros E. apply bind_Ok in E. destruct E as ([g1 x] & E1 & E). apply bind_Ok in E. destruct E as ([g2 z] & E2 & E).
  apply bind_Ok in E. destruct E as ([g3 a] & E3 & E). apply bind_Ok in E. destruct E as ([g4 b] & E4 & E). inversion E; subst.
  eapply clean_pop1; [|exact E4]. eapply clean_pop1; [|exact E3]. eapply clean_pop1; [|exact E2]. eapply clean_leaf; [|exact E1]. constructor.
Qed.
Definition new_grads (g : Zgraph) : Prop := Forall (fun o => Forall (fun t => exists d s, t = @new_tensor Znum d s /\ fits s) (oi_grads o)) (g_ops g).
Lemma fresh_of (g : Zgraph) : new_grads g -> fresh g.
Proof.
  intros H n t Hn. destruct (grad_of_inv Hn) as (o & Ho & Ht). unfold new_grads in H. rewrite Forall_forall in H. specialize (H o (nth_error_In _ _ Ho)).
  rewrite Forall_forall in H. destruct (H t (nth_error_In _ _ Ht)) as (d & s & -> & HS). ssplit; try exact HS; try reflexivity. exists d. reflexivity.
Qed.
Lemma fresh_forward (g g' : Zgraph) pop root r : fresh g -> forward itz pop g root = (g', r) -> fresh g'.
Proof.
  intros H E n t Hn. apply forward_only in E. destruct (grad_of_inv Hn) as (o & Ho & Ht). specialize (E (fst n)). rewrite Ho in E.
  destruct (nth_error (g_ops g) (fst n)) as [p|] eqn:Hp; [|tauto]. destruct E as (_&_&EG&_). rewrite EG in Ht. apply (H n t). eapply grad_of_Ok; eauto.
Qed.
Definition tl_g : Zgraph := Eval lazy -[alz Znum] in fst (okv (empty, ((0, 0), (0, 0))) two_losses).
Lemma tl_eq : two_losses = Ok (tl_g, ((2, 0), (3, 0))).
Proof. reflexivity. Qed.
Lemma tl_clean : clean itz tl_g.
Proof. apply (two_losses_clean tl_eq). Qed.
Lemma tl_new : new_grads tl_g.
Proof.
  assert (E : fits (sh [1%N] 1)) by (refine (@sh_fits [1%N] 1 _ _ _); reflexivity).
  unfold new_grads. repeat (apply Forall_cons || apply Forall_nil); (exists 0, (sh [1%N] 1); split; [reflexivity|exact E]).
Qed.
(** C35-C37 on l1: forward computes 5 -> 10 -> 30, backward 3 -> 6 *)
Example graph_example : two_losses = Ok (tl_g, ((2, 0), (3, 0))) /\ clean itz tl_g /\ history itz tl_g /\ fresh tl_g /\ 2 < length (g_ops tl_g) /\
  min_heap fifo_min /\ max_heap fifo_max /\ (forall i v, al_ok (gz i v)) /\ (forall o, lawful (itz o)) /\ (forall o, lawful_bw (itz o)) /\
  snd (node_to_vec (K := Znum) Debug itz fifo_min tl_g (2, 0)) = Ok [30%Z] /\
  g_log (fst (node_forward itz fifo_min tl_g (2, 0))) = [0; 1; 2] /\
  (g' <- backz tl_g (2, 0) ;; param_grad g' 0) = Ok [6%Z].
Proof.
  ssplit; try reflexivity; try apply heaps_ok.
  - apply tl_clean.
  - apply clean_history, tl_clean.
  - apply fresh_of, tl_new.
  - cbn; lia.
  - intros; apply alz_ok.
  - intros; apply interp_lawful.
  - intros; apply interp_lawful_bw.
Qed.
