(** * GraphBw: the backward pass *)
From Verif Require Export GraphFw.
Set Implicit Arguments.
Unset Strict Implicit.

Section GraphBw.
Variable K : num.
Notation F := (F K).
Notation tensor := (tensor K).
Variable m : build.
Variable Oper : Type.
Variable itp : Oper -> operator K.
Notation graph := (graph K Oper).
Notation opinfo := (opinfo K Oper).
Notation node := (nat * nat)%type.
Notation update := (update K).

(** ** Specification vocabulary *)
Definition node_eqb (a b : node) : bool := (fst a =? fst b) && (snd a =? snd b).
(** the updates in [us] (of an operator with arguments [args]) that reach node [n] *)
Definition sent (args : list node) (us : list update) (n : node) : list (tensor -> res tensor) :=
  flat_map (fun u => match fst u with
    | Arg k => match nth_error args k with Some a => if node_eqb a n then [snd u] else [] | None => [] end
    | Own => [] end) us.
(** ... and those for the gradient of the operator's own Parameter *)
Definition sent_own (us : list update) : list (tensor -> res tensor) :=
  flat_map (fun u => match fst u with Own => [snd u] | Arg _ => [] end) us.
Definition args_of (g : graph) (i : nat) : list node := match nth_error (g_ops g) i with Some o => oi_args o | None => [] end.
Definition own_of (g : graph) (i : nat) : option tensor := match nth_error (g_ops g) i with Some o => oi_own o | None => None end.
(** all updates that reach [n] when the operators in [order] are processed *)
Definition received (g : graph) (us : nat -> list update) (order : list nat) (n : node) : list (tensor -> res tensor) :=
  flat_map (fun j => sent (args_of g j) (us j) n) order.
(** apply updates one after the other *)
Definition apply_all (fs : list (tensor -> res tensor)) (t : tensor) : res tensor := forL fs (fun f t => f t) t.
(** a gradient with no buffer becomes zero *)
Definition touch (gal : grad_alloc K) (n : node) (t : tensor) : res tensor :=
  if valid t then Ok t else t1 <- alloc m (gal (fst n) (snd n)) t ;; reset m t1 n0.
Definition is_arg (g : graph) (order : list nat) (n : node) : bool := existsb (fun j => existsb (node_eqb n) (args_of g j)) order.
Definition start (gal : grad_alloc K) (b : bool) (n : node) (t : tensor) : res tensor := if b then touch gal n t else Ok t.

(** backward rules update gradients in place: they keep device, shape and buffer *)
Definition keeps (f : tensor -> res tensor) : Prop := forall t t', f t = Ok t' -> blank t' = blank t /\ (valid t = true -> valid t' = true).
Definition lawful_bw (op : operator K) : Prop := forall xs ys gys us u, op_backward op xs ys gys = Ok us -> In u us -> keeps (snd u).
Hypothesis HBW : forall op, lawful_bw (itp op).

(** ** Cells *)
Lemma node_eqb_spec a b : reflect (a = b) (node_eqb a b).
Proof.
  destruct a as [a1 a2], b as [b1 b2]. unfold node_eqb; cbn. destruct (Nat.eqb_spec a1 b1), (Nat.eqb_spec a2 b2); subst; constructor; congruence.
Qed.
Lemma existsb_node n l : existsb (node_eqb n) l = true <-> In n l.
Proof.
  rewrite existsb_exists. split; [intros (x & H & E); destruct (node_eqb_spec n x); [subst; auto|discriminate]|].
  intros H. exists n. split; auto. destruct (node_eqb_spec n n); congruence.
Qed.
Lemma grad_of_inv (g : graph) n t : grad_of g n = Ok t -> exists o, nth_error (g_ops g) (fst n) = Some o /\ nth_error (oi_grads o) (snd n) = Some t.
Proof. unfold grad_of. intros E. inv_ok. eexists. split; apply idx_nth_inv; eauto. Qed.
Lemma grad_of_Ok (g : graph) n o t : nth_error (g_ops g) (fst n) = Some o -> nth_error (oi_grads o) (snd n) = Some t -> grad_of g n = Ok t.
Proof. intros H1 H2. unfold grad_of. rewrite (idx_nth H1). cbn. apply idx_nth; auto. Qed.

Lemma same_but_grads_refl o : @same_but_grads K Oper o o.
Proof. repeat split; auto. Qed.
Lemma Forall2_refl A (P : A -> A -> Prop) l : (forall x, P x x) -> Forall2 P l l.
Proof. intros H. induction l; constructor; auto. Qed.
Lemma grads_refl (g : graph) : grads_changed g g.
Proof. split; auto. apply Forall2_refl. apply same_but_grads_refl. Qed.
Lemma grads_trans (a b c : graph) : grads_changed a b -> grads_changed b c -> grads_changed a c.
Proof.
  intros (L1 & H1) (L2 & H2). split; [congruence|]. revert H2. generalize (g_ops c). revert H1. generalize (g_ops a), (g_ops b).
  intros l1 l2 H. induction H as [|x y l l' H H' IH]; intros l3 H3; inversion H3; subst; constructor; auto.
  match goal with H0 : same_but_grads y _ |- _ => destruct H as (?&?&?&?&?&?&?), H0 as (?&?&?&?&?&?&?) end. unfold same_but_grads.
  ssplit; try congruence; try tauto.
Qed.
Lemma Forall2_lset A (P : A -> A -> Prop) l i x y : (forall x, P x x) -> nth_error l i = Some x -> P x y -> Forall2 P l (lset l i y).
Proof.
  intros R. revert i. induction l as [|a l IH]; intros [|i] E H; simpl in *; try discriminate.
  - inversion E; subst. constructor; [auto|apply Forall2_refl; auto].
  - constructor; [auto|eapply IH; eauto].
Qed.
Lemma grads_nth (g g' : graph) i o : grads_changed g g' -> nth_error (g_ops g) i = Some o -> exists o', nth_error (g_ops g') i = Some o' /\ same_but_grads o o'.
Proof. intros (_ & H). apply (Forall2_nth H). Qed.
Lemma grads_args (g g' : graph) i : grads_changed g g' -> args_of g' i = args_of g i.
Proof.
  intros H. unfold args_of. destruct (nth_error (g_ops g) i) as [o|] eqn:E.
  - destruct (grads_nth H E) as (o' & -> & _ & E' & _). auto.
  - destruct H as (_ & H). destruct (nth_error (g_ops g') i) as [o|] eqn:E'; auto. destruct (Forall2_nth' H E') as (o' & E'' & _). congruence.
Qed.
Lemma grads_value (g g' : graph) n : grads_changed g g' -> value_of g' n = value_of g n.
Proof.
  intros H. unfold value_of, idx. destruct (nth_error (g_ops g) (fst n)) as [o|] eqn:E.
  - destruct (grads_nth H E) as (o' & -> & S). destruct S as (_&_&SV&_). cbn. rewrite SV. reflexivity.
  - destruct H as (_ & H). destruct (nth_error (g_ops g') (fst n)) as [o|] eqn:E'; auto. destruct (Forall2_nth' H E') as (o' & E'' & _). congruence.
Qed.
Lemma grads_depth (g g' : graph) i : grads_changed g g' -> depth0 g' i = depth0 g i.
Proof.
  intros H. unfold depth0. destruct (nth_error (g_ops g) i) as [o|] eqn:E.
  - destruct (grads_nth H E) as (o' & -> & S). destruct S as (_&_&_&_&_&_&<-). reflexivity.
  - destruct H as (_ & H). destruct (nth_error (g_ops g') i) as [o|] eqn:E'; auto. destruct (Forall2_nth' H E') as (o' & E'' & _). congruence.
Qed.
Lemma grads_gwf (g g' : graph) : gwf g -> grads_changed g g' -> gwf g'.
Proof. intros W H. destruct (grads_extends H) as (X & Y). eapply gwf_extends; eauto. Qed.

Lemma set_grad_spec (g : graph) n t0 t : grad_of g n = Ok t0 -> grads_changed g (set_grad g n t) /\
  (forall n', grad_of (set_grad g n t) n' = if node_eqb n n' then Ok t else grad_of g n') /\
  (forall i, own_of (set_grad g n t) i = own_of g i).
Proof.
  intros E. destruct (grad_of_inv E) as (o & Ho & Ht). unfold set_grad. rewrite Ho. pose proof (nth_error_Some_lt Ho) as L. ssplit.
  - split; auto. cbn [set_op g_ops]. eapply Forall2_lset; eauto; [apply same_but_grads_refl|]. repeat split; cbn; auto. rewrite lset_length. auto.
  - intros n'. unfold grad_of, set_op; cbn [g_ops]. unfold idx at 1. rewrite nth_error_lset by auto. unfold node_eqb.
    rewrite (Nat.eqb_sym (fst n)). destruct (Nat.eqb_spec (fst n') (fst n)) as [En|]; [|reflexivity]. cbn. rewrite En, (idx_nth Ho). cbn.
    unfold idx. rewrite nth_error_lset by (eapply nth_error_Some_lt; eauto). rewrite (Nat.eqb_sym (snd n)). destruct (Nat.eqb_spec (snd n') (snd n)); auto.
  - intros i. unfold own_of, set_op; cbn [g_ops]. rewrite nth_error_lset by auto. destruct (Nat.eqb_spec i (fst n)) as [->|]; auto. rewrite Ho. reflexivity.
Qed.
Lemma set_own_spec (g : graph) i t0 t : own_of g i = Some t0 -> grads_changed g (set_own g i t) /\
  (forall n', grad_of (set_own g i t) n' = grad_of g n') /\ (forall j, own_of (set_own g i t) j = if j =? i then Some t else own_of g j).
Proof.
  intros E. unfold own_of in E. destruct (nth_error (g_ops g) i) as [o|] eqn:Ho; [|discriminate]. unfold set_own. rewrite Ho. pose proof (nth_error_Some_lt Ho) as L. ssplit.
  - split; auto. cbn [set_op g_ops]. eapply Forall2_lset; eauto; [apply same_but_grads_refl|]. repeat split; cbn; auto; congruence.
  - intros n'. unfold grad_of, set_op; cbn [g_ops]. unfold idx at 1 3. rewrite nth_error_lset by auto. destruct (Nat.eqb_spec (fst n') i) as [->|]; [|reflexivity]. rewrite Ho. reflexivity.
  - intros j. unfold own_of, set_op; cbn [g_ops]. rewrite nth_error_lset by auto. destruct (Nat.eqb_spec j i) as [->|]; auto.
Qed.

(** ** touch *)
Lemma reset_valid (t t' : tensor) k : reset m t k = Ok t' -> valid t' = true /\ blank t' = blank t.
Proof.
  unfold reset, reset_tensor, call_fw. cbn. unfold k_reset. intros E. inv_ok. split; reflexivity.
Qed.
Lemma touch_valid gal n t t' : touch gal n t = Ok t' -> valid t' = true /\ blank t' = blank t.
Proof.
  unfold touch. destruct (valid t) eqn:V; [intros E; inv_ok; auto|]. intros E. inv_ok.
  match goal with H : reset _ _ _ = Ok _ |- _ => apply reset_valid in H; destruct H as (-> & ->) end. split; auto.
  unfold alloc in *. inv_ok. reflexivity.
Qed.
Lemma touch_id gal n t : valid t = true -> touch gal n t = Ok t.
Proof. unfold touch. intros ->. reflexivity. Qed.

Lemma ensure_spec gal args : forall (g g1 : graph), forL args (ensure_grad m gal) g = Ok g1 ->
  grads_changed g g1 /\ (forall i, own_of g1 i = own_of g i) /\
  forall n t, grad_of g n = Ok t -> exists t', start gal (existsb (node_eqb n) args) n t = Ok t' /\ grad_of g1 n = Ok t'.
Proof.
  induction args as [|a args IH]; intros g g1 E; simpl in E.
  - inv_ok. ssplit; auto using grads_refl. intros n t Hn. exists t. split; auto.
  - inv_ok. rename x into g0. rename H into E0.
    assert (A : grads_changed g g0 /\ (forall i, own_of g0 i = own_of g i) /\ exists t0 t1, grad_of g a = Ok t0 /\ touch gal a t0 = Ok t1 /\
       forall n, grad_of g0 n = if node_eqb a n then Ok t1 else grad_of g n).
    { unfold ensure_grad in E0. inv_ok. rename x into t0. destruct (valid t0) eqn:V.
      - inv_ok. ssplit; auto using grads_refl. exists t0, t0. ssplit; auto; [apply touch_id; auto|]. intros n. destruct (node_eqb_spec a n) as [->|]; auto.
      - inv_ok. match goal with |- context [set_grad g a ?t] => rename t into t2 end.
        destruct (set_grad_spec t2 H) as (S1 & S2 & S3). ssplit; auto. exists t0, t2. ssplit; auto.
        unfold touch. rewrite V. match goal with HA : alloc _ _ _ = Ok _ |- _ => rewrite HA end. cbn. auto. }
    destruct A as (G0 & O0 & t0 & t1 & Ht0 & Ht1 & HG). destruct (IH _ _ H0) as (G1 & O1 & H1). ssplit.
    + eapply grads_trans; eauto.
    + intros i. rewrite O1, O0. auto.
    + intros n t Hn. pose proof (HG n) as Hn0. destruct (node_eqb_spec a n) as [->|Na].
      * destruct (H1 _ _ Hn0) as (t' & S' & Hn1). exists t'. split; auto. simpl. destruct (node_eqb_spec n n) as [_|]; [|congruence]. cbn [orb start].
        replace t with t0 by congruence. rewrite Ht1. pose proof (touch_valid Ht1) as (V1 & _).
        unfold start in S'. destruct (existsb (node_eqb n) args); [rewrite (touch_id _ _ V1) in S'; auto|auto].
      * rewrite Hn in Hn0. destruct (H1 _ _ Hn0) as (t' & S' & Hn1). exists t'. split; auto. simpl. destruct (node_eqb_spec n a); [congruence|]. auto.
Qed.

Lemma apply_all_app fs fs' t : apply_all (fs ++ fs') t = (t' <- apply_all fs t ;; apply_all fs' t').
Proof. apply forL_app. Qed.

Lemma updates_spec i args us : forall (g g1 : graph), forL us (apply_update i args) g = Ok g1 ->
  grads_changed g g1 /\
  (forall n t, grad_of g n = Ok t -> exists t', apply_all (sent args us n) t = Ok t' /\ grad_of g1 n = Ok t') /\
  (forall j, j <> i -> own_of g1 j = own_of g j) /\
  (own_of g i = None -> sent_own us = []) /\
  (forall t, own_of g i = Some t -> exists t', apply_all (sent_own us) t = Ok t' /\ own_of g1 i = Some t').
Proof.
  induction us as [|u us IH]; intros g g1 E; simpl in E.
  - inv_ok. ssplit; auto using grads_refl; intros; eexists; split; eauto; reflexivity.
  - inv_ok. rename x into g0. rename H into E0. destruct (IH _ _ H0) as (G1 & H1 & O1 & ON & O2). clear IH H0.
    unfold apply_update in E0. destruct u as [[k|] f]; cbn [fst snd] in E0.
    + inv_ok. rename x into a. rename x0 into t0. rename x1 into t1. apply idx_nth_inv in H.
      destruct (set_grad_spec t1 H0) as (S1 & S2 & S3). ssplit.
      * eapply grads_trans; eauto.
      * intros n t Hn. pose proof (S2 n) as Hn0. unfold sent; cbn [flat_map fst snd]. rewrite H. destruct (node_eqb_spec a n) as [->|Na].
        -- destruct (H1 _ _ Hn0) as (t' & A & B). exists t'. split; auto. rewrite apply_all_app. cbn. replace t with t0 by congruence. rewrite H2. cbn. auto.
        -- rewrite Hn in Hn0. destruct (H1 _ _ Hn0) as (t' & A & B). exists t'. split; auto.
      * intros j Hj. rewrite O1, S3; auto.
      * cbn. rewrite <- S3. intros HN. apply ON; auto.
      * intros t Ht. rewrite <- S3 in Ht. destruct (O2 _ Ht) as (t' & A & B). exists t'. split; auto.
    + inv_ok. rename x0 into t0. rename x1 into t1. assert (Hown : own_of g i = Some t0).
      { unfold own_of. apply idx_nth_inv in H. rewrite H. unfold unwrap in H0. destruct (oi_own x); inversion H0; auto. }
      destruct (set_own_spec t1 Hown) as (S1 & S2 & S3). ssplit.
      * eapply grads_trans; eauto.
      * intros n t Hn. rewrite <- S2 in Hn. destruct (H1 _ _ Hn) as (t' & A & B). exists t'. split; auto.
      * intros j Hj. rewrite O1, S3 by auto. apply Nat.eqb_neq in Hj. rewrite Hj. auto.
      * congruence.
      * intros t Ht. specialize (S3 i). rewrite Nat.eqb_refl in S3. destruct (O2 _ S3) as (t' & A & B). exists t'. split; auto.
        cbn. replace t with t0 by congruence. rewrite H2. cbn. auto.
Qed.

(** ** Processing operators in order of decreasing depth *)
Lemma is_arg_cons g i order n : is_arg g (i :: order) n = existsb (node_eqb n) (args_of g i) || is_arg g order n.
Proof. reflexivity. Qed.
Lemma is_arg_grads (g g' : graph) order n : grads_changed g g' -> is_arg g' order n = is_arg g order n.
Proof. intros H. induction order as [|j order IH]; auto. rewrite !is_arg_cons, IH, (grads_args j H). auto. Qed.
Lemma received_grads (g g' : graph) us order n : grads_changed g g' -> received g' us order n = received g us order n.
Proof. intros H. induction order as [|j order IH]; auto. cbn. rewrite (grads_args j H). f_equal. exact IH. Qed.
Lemma received_ext g us us' order n : (forall j, In j order -> us j = us' j) -> received g us order n = received g us' order n.
Proof. intros H. induction order as [|j order IH]; auto. cbn. rewrite H by (left; auto). f_equal. apply IH. intros; apply H; right; auto. Qed.
Lemma sent_not_arg args us n : ~ In n args -> sent args us n = [].
Proof.
  intros H. induction us as [|u us IH]; auto. unfold sent; cbn. fold (sent args us n). rewrite IH. destruct (fst u) as [k|]; auto.
  destruct (nth_error args k) as [a|] eqn:E; auto. destruct (node_eqb_spec a n) as [->|]; auto. apply nth_error_In in E. tauto.
Qed.
Lemma received_not_arg g us order n : is_arg g order n = false -> received g us order n = [].
Proof.
  induction order as [|j order IH]; auto. rewrite is_arg_cons. intros E. apply orb_false_iff in E. destruct E as (E1 & E2). cbn.
  rewrite sent_not_arg; [auto|]. rewrite <- existsb_node. congruence.
Qed.
Lemma apply_all_valid fs : (forall f, In f fs -> keeps f) -> keeps (apply_all fs).
Proof.
  induction fs as [|f fs IH]; intros H t t' E; cbn in E; [inv_ok; auto|]. inv_ok.
  destruct (H f (or_introl eq_refl) _ _ H0) as (A & B). destruct (IH (fun f h => H f (or_intror h)) _ _ H1) as (C & D). split; [congruence|auto].
Qed.
Lemma sent_In args us n f : In f (sent args us n) -> exists u, In u us /\ snd u = f.
Proof.
  unfold sent. rewrite in_flat_map. intros (u & Hu & Hf). exists u. split; auto. destruct (fst u) as [k|]; [|destruct Hf].
  destruct (nth_error args k) as [a|]; [|destruct Hf]. destruct (node_eqb a n); [|destruct Hf]. destruct Hf as [Hf|[]]; auto.
Qed.

Definition bw_step_spec (g g' : graph) (us : nat -> list update) (i : nat) : Prop :=
  exists o o' xs, nth_error (g_ops g) i = Some o /\ nth_error (g_ops g') i = Some o' /\ mapM (value_of g) (oi_args o) = Ok xs /\
    op_backward (itp (oi_op o)) xs (oi_vals o) (oi_grads o') = Ok (us i) /\
    (forall u k, In u (us i) -> fst u = Arg k -> k < length (oi_args o)).
Lemma updates_arity i args us : forall (g g1 : graph), forL us (apply_update i args) g = Ok g1 -> forall u k, In u us -> fst u = Arg k -> k < length args.
Proof.
  induction us as [|u0 us IH]; intros g g1 E u k Hu Ek; simpl in E; [destruct Hu|]. apply bind_Ok in E. destruct E as (g0 & E0 & E).
  destruct Hu as [->|Hu]; [|eapply IH; eauto]. unfold apply_update in E0. rewrite Ek in E0. inv_ok. match goal with H : idx args k = Ok _ |- _ => apply idx_nth_inv in H; eapply nth_error_Some_lt; eauto end.
Qed.

Lemma grads_of_eq (g g' : graph) i o : grads_changed g g' -> nth_error (g_ops g) i = Some o ->
  (forall v, grad_of g' (i, v) = grad_of g (i, v)) -> exists o', nth_error (g_ops g') i = Some o' /\ oi_grads o' = oi_grads o.
Proof.
  intros H Ho HE. destruct (grads_nth H Ho) as (o' & Ho' & S). exists o'. split; auto. destruct S as (_&_&_&HL&_).
  assert (HV : forall v, nth_error (oi_grads o') v = nth_error (oi_grads o) v).
  { intros v. specialize (HE v). unfold grad_of in HE; cbn [fst snd] in HE. rewrite (idx_nth Ho), (idx_nth Ho') in HE. cbn in HE. unfold idx in HE.
    destruct (nth_error (oi_grads o') v), (nth_error (oi_grads o) v); congruence. }
  clear -HV. revert HV. generalize (oi_grads o), (oi_grads o'). intros l l'. revert l. induction l' as [|a l' IH]; intros [|b l] H; auto.
  - specialize (H 0); discriminate.
  - specialize (H 0); discriminate.
  - f_equal; [specialize (H 0); inversion H; auto|]. apply IH. intros v. apply (H (S v)).
Qed.

Theorem run_bw_spec gal order : forall (g g' : graph), gwf g -> NoDup order -> (forall i, In i order -> i < length (g_ops g)) ->
  StronglySorted (fun a b => depth0 g b <= depth0 g a) order ->
  forL order (fun i g => step_bw m itp gal g i) g = Ok g' ->
  grads_changed g g' /\ exists us,
    (forall i, In i order -> bw_step_spec g g' us i) /\
    (forall n t, grad_of g n = Ok t -> exists t0 t', start gal (is_arg g order n) n t = Ok t0 /\
        apply_all (received g us order n) t0 = Ok t' /\ grad_of g' n = Ok t') /\
    (forall i, ~ In i order -> own_of g' i = own_of g i) /\
    (forall i, In i order -> own_of g i = None -> sent_own (us i) = []) /\
    (forall i t, In i order -> own_of g i = Some t -> exists t', apply_all (sent_own (us i)) t = Ok t' /\ own_of g' i = Some t').
Proof.
  induction order as [|i order IH]; intros g g' W ND HB HS E; simpl in E.
  - inv_ok. split; [apply grads_refl|]. exists (fun _ => []). ssplit; auto; try (intros; contradiction).
    intros n t Hn. exists t, t. ssplit; auto.
  - apply bind_Ok in E. destruct E as (g1 & E1 & E). apply StronglySorted_inv in HS. destruct HS as (HS & HF). inversion ND; subst. rename H1 into NI. rename H2 into ND'.
    assert (Li : i < length (g_ops g)) by (apply HB; left; auto).
    destruct (nth_error (g_ops g) i) as [o|] eqn:Ho; [|apply nth_error_None in Ho; lia].
    unfold step_bw in E1. rewrite (idx_nth Ho) in E1. cbn [bind] in E1. inv_ok. rename x into xs. rename x0 into ge. rename x1 into usi.
    destruct (ensure_spec H0) as (Ge & Oe & He). destruct (updates_spec H2) as (Gu & Hu & Ou & OuN & OuS).
    assert (G1 : grads_changed g g1) by (eapply grads_trans; eauto).
    assert (W1 : gwf g1) by (eapply grads_gwf; eauto).
    assert (LEN : length (g_ops g1) = length (g_ops g)) by (destruct G1 as (_ & HH); symmetry; eapply Forall2_len; eauto).
    assert (HS1 : StronglySorted (fun a b => depth0 g1 b <= depth0 g1 a) order).
    { clear -HS G1. induction HS as [|a l HS IH HF]; constructor; auto. rewrite Forall_forall in * . intros x Hx. rewrite !(grads_depth _ G1). auto. }
    destruct (IH g1 g' W1 ND') as (G' & us & A1 & A2 & A3 & A4 & A5); auto.
    { intros j Hj. rewrite LEN. apply HB; right; auto. }
    split; [eapply grads_trans; eauto|].
    assert (EU : exists us', us' i = usi /\ forall j, In j order -> us' j = us j).
    { exists (fun j => if j =? i then usi else us j). split; [rewrite Nat.eqb_refl; auto|]. intros j Hj. destruct (Nat.eqb_spec j i); auto. subst; tauto. }
    destruct EU as (us' & EI & EJ).
    assert (ARGS : args_of g i = oi_args o) by (unfold args_of; rewrite Ho; auto).
    (* the cells of i receive nothing from i or later operators *)
    assert (NOARG : forall j v, In j (i :: order) -> ~ In (i, v) (args_of g j)).
    { intros j v Hj HI. unfold args_of in HI. destruct (nth_error (g_ops g) j) as [p|] eqn:Hp; [|destruct HI].
      destruct (gwf_args W Hp HI) as (L & p' & Hp' & _ & D). cbn [fst] in * .
      destruct Hj as [<-|Hj]; [lia|]. rewrite Forall_forall in HF. specialize (HF _ Hj). unfold depth0 in HF. rewrite Hp, Ho in HF. replace p' with o in D by congruence. lia. }
    assert (FIN : forall v, grad_of g' (i, v) = grad_of g (i, v)).
    { intros v. destruct (grad_of g (i, v)) as [t| |] eqn:Et.
      - destruct (He _ _ Et) as (t1 & S1 & B1). assert (HX : existsb (node_eqb (i, v)) (oi_args o) = false).
        { destruct (existsb (node_eqb (i, v)) (oi_args o)) eqn:EX; auto. apply existsb_node in EX. exfalso. apply (NOARG i v); [left; auto|]. rewrite ARGS; auto. }
        rewrite HX in S1. cbn in S1. inv_ok. destruct (Hu _ _ B1) as (t2 & S2 & B2). rewrite sent_not_arg in S2; [|rewrite <- ARGS; apply NOARG; left; auto].
        cbn in S2. inv_ok. destruct (A2 _ _ B2) as (t3 & t4 & S3 & S4 & B3).
        assert (HY : is_arg g1 order (i, v) = false).
        { rewrite (is_arg_grads _ _ G1). destruct (is_arg g order (i, v)) eqn:EX; auto. unfold is_arg in EX. apply existsb_exists in EX. destruct EX as (j & Hj & EX). apply existsb_node in EX. exfalso. apply (NOARG j v); [right; auto|auto]. }
        rewrite HY in S3. cbn in S3. inv_ok. rewrite received_not_arg in S4 by auto. cbn in S4. inv_ok. congruence.
      - assert (GG : grads_changed g g') by (eapply grads_trans; eauto). destruct (grads_nth GG Ho) as (o' & Ho' & S'). destruct S' as (_&_&_&LL&_).
        unfold grad_of in * . cbn [fst snd] in * . rewrite (idx_nth Ho) in Et. rewrite (idx_nth Ho'). cbn in * . unfold idx in * . destruct (nth_error (oi_grads o) v) eqn:Q; [discriminate|].
        apply nth_error_None in Q. rewrite LL in Q. apply nth_error_None in Q. rewrite Q. auto.
      - unfold grad_of in Et. cbn [fst snd] in Et. rewrite (idx_nth Ho) in Et. cbn in Et. unfold idx in Et. destruct (nth_error (oi_grads o) v); discriminate. }
    assert (GG : grads_changed g g') by (eapply grads_trans; eauto).
    exists us'. ssplit.
    + intros j [<-|Hj].
      * destruct (grads_of_eq GG Ho FIN) as (o' & Ho' & EG). exists o, o', xs. ssplit; auto; [rewrite EG, EI; auto|]. rewrite EI. eapply updates_arity; eauto.
      * destruct (A1 j Hj) as (p & p' & ys & P1 & P2 & P3 & P4 & P5). destruct G1 as (L1 & F1). destruct (Forall2_nth' F1 P1) as (q & Q1 & Q2 & Q3 & Q4 & _).
        exists q, p', ys. ssplit; auto; [|rewrite Q2, Q4, EJ; auto|rewrite Q3, EJ; auto]. rewrite Q3. rewrite <- P3. apply mapM_ext. intros n _. symmetry. apply grads_value. split; auto.
    + intros n t Hn. destruct (He _ _ Hn) as (t1 & S1 & B1). destruct (Hu _ _ B1) as (t2 & S2 & B2). destruct (A2 _ _ B2) as (t3 & t4 & S3 & S4 & B3).
      rewrite is_arg_cons, ARGS. rewrite (is_arg_grads _ _ G1) in S3.
      assert (RC : received g us' (i :: order) n = sent (oi_args o) usi n ++ received g1 us order n).
      { cbn. rewrite ARGS, EI. f_equal. rewrite (received_grads _ _ _ G1). apply received_ext. auto. }
      destruct (existsb (node_eqb n) (oi_args o)) eqn:EX; cbn [orb].
      * cbn [start] in S1. exists t1, t4. ssplit; auto. rewrite RC, apply_all_app, S2. cbn. pose proof (touch_valid S1) as (V1 & _).
        assert (V2 : valid t2 = true).
        { eapply apply_all_valid; [|exact S2|exact V1]. intros f Hf. apply sent_In in Hf. destruct Hf as (u & Hu' & <-). eapply HBW; eauto. }
        unfold start in S3. destruct (is_arg g order n); [rewrite (touch_id _ _ V2) in S3|]; inv_ok; auto.
      * cbn [start] in S1. inv_ok. rewrite sent_not_arg in S2 by (rewrite <- existsb_node; congruence). cbn in S2. inv_ok.
        rewrite RC, sent_not_arg by (rewrite <- existsb_node; congruence). cbn [app]. exists t3, t4. ssplit; auto.
    + intros j Hj. simpl in Hj. rewrite A3 by auto. rewrite Ou by auto. auto.
    + intros j [<-|Hj] HN; [rewrite EI; apply OuN; rewrite Oe; auto|]. rewrite EJ by auto. apply A4; auto. rewrite Ou, Oe; auto. intros ->; tauto.
    + intros j t [<-|Hj] HN.
      * rewrite EI. rewrite <- Oe in HN. destruct (OuS _ HN) as (t' & P1 & P2). exists t'. split; auto. rewrite A3; auto.
      * rewrite EJ by auto. apply A5; auto. rewrite Ou, Oe; auto. intros ->; tauto.
Qed.

(** ** The whole backward pass *)
(** the gradient an operator starts from: one for the root, zero for an argument of
    an operator the root uses that has no gradient yet, and otherwise what it was *)
Definition initial (gal : grad_alloc K) (g : graph) (root : nat) (order : list nat) (n : node) (t : tensor) : res tensor :=
  if fst n =? root then t1 <- alloc m (gal (fst n) (snd n)) t ;; reset m t1 n1 else start gal (is_arg g order n) n t.

Lemma nth_error_combine_seq A (l : list A) k v x : nth_error l v = Some x -> nth_error (combine (seq k (length l)) l) v = Some (k + v, x).
Proof.
  revert k v. induction l as [|a l IH]; intros k [|v] E; simpl in *; try discriminate.
  - inversion E; subst. rewrite Nat.add_0_r. auto.
  - rewrite (IH (S k) v E). f_equal. f_equal. lia.
Qed.

Lemma seed_spec gal (g g1 : graph) root : seed m gal g root = Ok g1 ->
  grads_changed g g1 /\ (forall i, own_of g1 i = own_of g i) /\
  (forall n t, grad_of g n = Ok t -> exists t1, (if fst n =? root then t1 <- alloc m (gal (fst n) (snd n)) t ;; reset m t1 n1 else Ok t) = Ok t1 /\ grad_of g1 n = Ok t1).
Proof.
  unfold seed. intros E. apply bind_Ok in E. destruct E as (o & Ho & E). apply idx_nth_inv in Ho. inv_ok. rename x into gs.
  pose proof (nth_error_Some_lt Ho) as L. pose proof (mapM_length H) as LG. rewrite combine_length, seq_length, Nat.min_id in LG.
  apply mapM_Forall2 in H. ssplit.
  - split; auto. cbn [set_op g_ops]. eapply Forall2_lset; eauto; [apply same_but_grads_refl|]. repeat split; cbn; auto.
  - intros i. unfold own_of, set_op; cbn [g_ops]. rewrite nth_error_lset by auto. destruct (Nat.eqb_spec i root) as [->|]; auto. rewrite Ho. reflexivity.
  - intros [i v] t Hn. destruct (grad_of_inv Hn) as (p & Hp & Ht). cbn [fst snd] in * . destruct (Nat.eqb_spec i root) as [->|Ne].
    + replace p with o in Ht by congruence. destruct (Forall2_nth H (nth_error_combine_seq 0 Ht)) as (t1 & Ht1 & Et1). cbn [fst snd Nat.add] in Et1.
      exists t1. split; auto. eapply grad_of_Ok; cbn [fst snd]; [cbn [set_op g_ops]; rewrite nth_error_lset, Nat.eqb_refl by auto; reflexivity|]. exact Ht1.
    + exists t. split; auto. eapply grad_of_Ok; cbn [fst snd]; [cbn [set_op g_ops]; rewrite nth_error_lset by auto; apply Nat.eqb_neq in Ne; rewrite Ne; eauto|]. auto.
Qed.

Lemma uses_grads (g g' : graph) i j : grads_changed g g' -> uses g i j -> uses g' i j.
Proof.
  intros H U. induction U as [|i o n j Ho Hn U IH]; [constructor|]. destruct (grads_nth H Ho) as (o' & Ho' & S). destruct S as (_&EA&_).
  eapply uses_step; eauto. rewrite <- EA. auto.
Qed.
Lemma grads_sym (g g' : graph) : grads_changed g g' -> grads_changed g' g.
Proof.
  intros (H1 & H2). split; [auto|]. induction H2; constructor; auto. destruct H as (?&?&?&?&?&?&?). unfold same_but_grads. ssplit; try congruence. tauto.
Qed.

Theorem backward_spec gal pop (g g' : graph) root : gwf g -> max_heap pop -> root < length (g_ops g) ->
  backward m itp gal pop g root = Ok g' ->
  grads_changed g g' /\ exists order us,
    NoDup order /\ (forall i, In i order <-> uses g root i) /\ StronglySorted (fun a b => depth0 g b <= depth0 g a) order /\
    (forall i, uses g root i -> bw_step_spec g g' us i) /\
    (forall n t, grad_of g n = Ok t -> exists t0 t', initial gal g root order n t = Ok t0 /\
        apply_all (received g us order n) t0 = Ok t' /\ grad_of g' n = Ok t') /\
    (forall i, ~ uses g root i -> own_of g' i = own_of g i) /\
    (forall i, uses g root i -> own_of g i = None -> sent_own (us i) = []) /\
    (forall i t, uses g root i -> own_of g i = Some t -> exists t', apply_all (sent_own (us i)) t = Ok t' /\ own_of g' i = Some t').
Proof.
  intros W HP L E. unfold backward in E. apply bind_Ok in E. destruct E as (g1 & E1 & E).
  destruct (seed_spec E1) as (G1 & O1 & H1). pose proof (grads_gwf W G1) as W1.
  assert (L1 : root < length (g_ops g1)). { destruct G1 as (_ & HH). rewrite <- (Forall2_len HH). auto. }
  destruct (requests_spec W1 L1) as (ND & HR). destruct (HP (depth0 g1) (requests g1 root)) as (PM & SO).
  set (order := pop (depth0 g1) (requests g1 root)) in * .
  assert (IN1 : forall i, In i order <-> uses g1 root i). { intros i. rewrite <- HR. split; apply Permutation_in; [symmetry|]; auto. }
  assert (IN : forall i, In i order <-> uses g root i). { intros i. rewrite IN1. split; apply uses_grads; auto. apply grads_sym; auto. }
  apply StronglySorted_of in SO; [|intros; lia].
  assert (NDo : NoDup order) by (eapply Permutation_NoDup; eauto).
  destruct (@run_bw_spec gal order g1 g' W1 NDo) as (G2 & us & A1 & A2 & A3 & A4 & A5); auto.
  { intros i Hi. apply IN1 in Hi. apply (uses_lt W1 Hi L1). }
  split; [eapply grads_trans; eauto|]. exists order, us. ssplit; auto.
  - clear -SO G1. induction SO as [|a l SO IH HF]; constructor; auto. rewrite Forall_forall in * . intros x Hx. specialize (HF x Hx). rewrite !(grads_depth _ G1) in HF. auto.
  - intros i Hi. apply IN in Hi. destruct (A1 i Hi) as (p & p' & xs & P1 & P2 & P3 & P4 & P5). pose proof G1 as (_ & F1). destruct (Forall2_nth' F1 P1) as (q & Q1 & Q2 & Q3 & Q4 & _).
    exists q, p', xs. ssplit; auto; [|rewrite Q2, Q4; auto|rewrite Q3; auto]. rewrite Q3, <- P3. apply mapM_ext. intros n _. symmetry. apply grads_value; auto.
  - intros n t Hn. destruct (H1 n t Hn) as (t1 & S1 & B1). destruct (A2 _ _ B1) as (t2 & t3 & S2 & S3 & B2). rewrite (is_arg_grads _ _ G1) in S2. rewrite (received_grads _ _ _ G1) in S3.
    unfold initial. destruct (Nat.eqb_spec (fst n) root) as [En|Ne].
    + exists t1, t3. ssplit; auto. assert (HY : is_arg g order n = false).
      { destruct (is_arg g order n) eqn:EX; auto. unfold is_arg in EX. apply existsb_exists in EX. destruct EX as (j & Hj & EX). apply existsb_node in EX. exfalso.
        apply IN in Hj. destruct (uses_lt W Hj L) as (_ & Lj). unfold args_of in EX. destruct (nth_error (g_ops g) j) as [p|] eqn:Hp; [|destruct EX].
        destruct (gwf_args W Hp EX) as (LL & _). lia. }
      rewrite HY in S2. cbn in S2. inv_ok. auto.
    + inv_ok. exists t2, t3. auto.
  - intros i Hi. rewrite A3, O1; auto. rewrite IN; auto.
  - intros i Hi HN. apply A4; [apply IN; auto|]. rewrite O1; auto.
  - intros i t Hi HN. apply A5; [apply IN; auto|]. rewrite O1; auto.
Qed.
End GraphBw.
