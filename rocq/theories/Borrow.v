(** * Borrow: the RefCells of the graph

    prima_undine/src/graph.rs keeps the value and the gradient of every output of an
    operator in a [RefCell] (L10-13). Here the same engine as in Graph.v runs with the
    guards that are alive written down: [borrow] and [borrow_mut] panic on a conflict,
    as std::cell::RefCell does. The engine's own guards are local to a step, so they
    are released when the step returns or unwinds; what stays are the [Ref]s a user
    got from [Node::inner_value] and [Node::inner_gradient] and has not dropped. *)
From Verif Require Export GraphBw.
Set Implicit Arguments. Unset Strict Implicit.

Notation node := (nat * nat)%type.
(** graph.rs L10-13 *)
Inductive cell := Val (n : node) | Grad (n : node).
Definition cell_eqb (a b : cell) : bool :=
  match a, b with Val x, Val y | Grad x, Grad y => node_eqb x y | _, _ => false end.
(** a guard that is alive: [Ref] or [RefMut] *)
Inductive access := Shared | Exclusive.
Definition guards := list (cell * access).
Definition exclusive (a : access) : bool := match a with Exclusive => true | Shared => false end.
(** [RefCell::borrow]: panics if a [RefMut] to the cell is alive *)
Definition borrow (L : guards) (c : cell) : res guards :=
  _ <- assert (negb (existsb (fun b => cell_eqb (fst b) c && exclusive (snd b)) L)) ;; Ok ((c, Shared) :: L).
(** [RefCell::borrow_mut]: panics if any guard of the cell is alive *)
Definition borrow_mut (L : guards) (c : cell) : res guards :=
  _ <- assert (negb (existsb (fun b => cell_eqb (fst b) c) L)) ;; Ok ((c, Exclusive) :: L).
(** a Vec of guards, collected in order *)
Definition borrow_all (L : guards) (cs : list cell) : res guards := forL cs (fun c L => borrow L c) L.
Definition borrow_mut_all (L : guards) (cs : list cell) : res guards := forL cs (fun c L => borrow_mut L c) L.

Section Borrow.
Variable K : num.
Notation tensor := (tensor K).
Variable m : build.
Variable Oper : Type.
Variable itp : Oper -> Graph.operator K.
Notation graph := (graph K Oper).

Definition outs (i len : nat) : list node := map (fun v => (i, v)) (seq 0 len).

(** forward L107-129: [xs] holds a [Ref] to the value of every argument, [ys] a [RefMut]
    to the value of every output *)
Definition step_fw_b (L : guards) (g : graph) (i : nat) : graph * res unit :=
  match nth_error (g_ops g) i with
  | None => (g, Panic)
  | Some o =>
      if oi_fwd o then (g, Ok tt) else
      let o1 := mkOpinfo (oi_op o) (oi_args o) (oi_vals o) (oi_grads o) (oi_own o) true (oi_depth o) in
      let g1 := mkGraph (lset (g_ops g) i o1) (g_log g ++ [i]) in
      match L1 <- borrow_all L (map Val (oi_args o)) ;;
            xs <- mapM (value_of g1) (oi_args o) ;;
            _ <- borrow_mut_all L1 (map Val (outs i (length (oi_vals o)))) ;;
            op_forward (itp (oi_op o)) xs (oi_vals o) with
      | Ok ys => (set_op g1 i (mkOpinfo (oi_op o) (oi_args o) ys (oi_grads o) (oi_own o) true (oi_depth o)), Ok tt)
      | Panic => (g1, Panic)
      | UB => (g1, UB)
      end
  end.
Fixpoint run_fw_b (L : guards) (g : graph) (order : list nat) : graph * res unit :=
  match order with
  | [] => (g, Ok tt)
  | i :: order' => match step_fw_b L g i with (g', Ok _) => run_fw_b L g' order' | r => r end
  end.
Definition forward_b (L : guards) (pop : heap) (g : graph) (root : nat) : graph * res unit :=
  run_fw_b L g (pop (depth0 g) (requests g root)).

(** backward L135-141: one gradient at a time is borrowed *)
Definition seed_b (L : guards) (gal : grad_alloc K) (g : graph) (root : nat) : res graph :=
  o <- idx (g_ops g) root ;;
  gs <- mapM (fun vt => _ <- borrow_mut L (Grad (root, fst vt)) ;;
                        t <- alloc m (gal root (fst vt)) (snd vt) ;; reset m t n1) (combine (seq 0 (length (oi_grads o))) (oi_grads o)) ;;
  Ok (set_op g root (set_grads o gs)).
(** L169-180: [gx] is dropped at the end of the closure *)
Definition ensure_grad_b (L : guards) (gal : grad_alloc K) (n : node) (g : graph) : res graph :=
  _ <- borrow_mut L (Grad n) ;; ensure_grad m gal n g.
(** an operator's backward: each statement borrows one gradient and drops it. The
    operator Parameter has a RefCell of its own, which only this statement borrows. *)
Definition apply_update_b (L : guards) (i : nat) (args : list node) (u : update K) (g : graph) : res graph :=
  _ <- match fst u with
       | Arg k => n <- idx args k ;; _ <- borrow_mut L (Grad n) ;; Ok tt
       | Own => Ok tt
       end ;;
  apply_update i args u g.
(** L153-185: [xs], [ys] and [gys] are alive until the operator returns *)
Definition step_bw_b (L : guards) (gal : grad_alloc K) (g : graph) (i : nat) : res graph :=
  o <- idx (g_ops g) i ;;
  L1 <- borrow_all L (map Val (oi_args o)) ;;
  xs <- mapM (value_of g) (oi_args o) ;;
  L2 <- borrow_all L1 (map Val (outs i (length (oi_vals o)))) ;;
  L3 <- borrow_all L2 (map Grad (outs i (length (oi_grads o)))) ;;
  g1 <- forL (oi_args o) (ensure_grad_b L3 gal) g ;;
  us <- op_backward (itp (oi_op o)) xs (oi_vals o) (oi_grads o) ;;
  forL us (apply_update_b L3 i (oi_args o)) g1.
Definition backward_b (L : guards) (gal : grad_alloc K) (pop : heap) (g : graph) (root : nat) : res graph :=
  g1 <- seed_b L gal g root ;;
  forL (pop (depth0 g1) (requests g1 root)) (fun i g => step_bw_b L gal g i) g1.

(** ** Node methods L204-222 and basic/node.rs L13-21 *)
(** the [Ref] joins the guards the user holds *)
Definition inner_value_b (L : guards) (g : graph) (n : node) : res (guards * tensor) :=
  t <- value_of g n ;; L' <- borrow L (Val n) ;; Ok (L', t).
Definition inner_gradient_b (L : guards) (g : graph) (n : node) : res (guards * tensor) :=
  t <- grad_of g n ;; L' <- borrow L (Grad n) ;; Ok (L', t).
Definition node_forward_b (L : guards) (pop : heap) (g : graph) (n : node) : graph * res unit := forward_b L pop g (fst n).
Definition node_backward_b (L : guards) (gal : grad_alloc K) (popf popb : heap) (g : graph) (n : node) : res graph :=
  match node_forward_b L popf g n with
  | (g1, Ok _) => backward_b L gal popb g1 (fst n)
  | (_, Panic) => Panic
  | (_, UB) => UB
  end.
(** OperatorInfo::new L58-89: [inner_value().shape], one temporary guard per argument *)
Definition create_b (L : guards) (g : graph) (op : Oper) (own : option tensor) (xs : list node) : res (graph * list node) :=
  _ <- mapM (fun n => inner_value_b L g n) xs ;; create itp g op own xs.

(** ** Facts *)
Definition refs (L : guards) : Prop := forall b, In b L -> snd b = Shared.
Definition holds (L : guards) (c : cell) : Prop := exists a, In (c, a) L.

Lemma cell_eqb_spec a b : cell_eqb a b = true <-> a = b.
Proof.
  unfold cell_eqb, node_eqb. destruct a as [[i v]|[i v]], b as [[j w]|[j w]]; cbn; try (split; discriminate).
  - rewrite andb_true_iff, !Nat.eqb_eq. split; [intros (-> & ->); auto|intros [= -> ->]; auto].
  - rewrite andb_true_iff, !Nat.eqb_eq. split; [intros (-> & ->); auto|intros [= -> ->]; auto].
Qed.
Lemma borrow_refs L c : refs L -> borrow L c = Ok ((c, Shared) :: L).
Proof.
  intros R. unfold borrow. replace (existsb _ L) with false; auto. symmetry. apply not_true_iff_false. rewrite existsb_exists.
  intros (b & Hb & E). apply andb_true_iff in E. rewrite (R b Hb) in E. destruct E; discriminate.
Qed.
Lemma refs_cons L c : refs L -> refs ((c, Shared) :: L).
Proof. intros R b [<-|H]; auto. Qed.
Lemma borrow_all_refs cs : forall L, refs L -> exists L', borrow_all L cs = Ok L' /\ refs L' /\ forall c, holds L' c <-> In c cs \/ holds L c.
Proof.
  induction cs as [|c cs IH]; intros L R; unfold borrow_all; cbn [forL].
  - exists L. ssplit; auto. intros c. cbn. tauto.
  - rewrite borrow_refs by auto. cbn [bind]. destruct (IH _ (@refs_cons L c R)) as (L' & E & R' & H'). exists L'. ssplit; auto.
    intros c'. rewrite H'. unfold holds. cbn. split.
    + intros [H|(a & [[= <- <-]|H])]; eauto.
    + intros [[<-|H]|(a & H)]; eauto.
Qed.
Lemma borrow_mut_free L c : ~ holds L c -> borrow_mut L c = Ok ((c, Exclusive) :: L).
Proof.
  intros H. unfold borrow_mut. replace (existsb _ L) with false; auto. symmetry. apply not_true_iff_false. rewrite existsb_exists.
  intros ([c' a] & Hb & E). apply cell_eqb_spec in E. cbn in E. subst. apply H. exists a. auto.
Qed.
Lemma borrow_mut_held L c : holds L c -> borrow_mut L c = Panic.
Proof.
  intros (a & H). unfold borrow_mut. replace (existsb _ L) with true; auto. symmetry. rewrite existsb_exists.
  exists (c, a). split; auto. apply cell_eqb_spec. auto.
Qed.
Lemma borrow_mut_all_free cs : forall L, NoDup cs -> (forall c, In c cs -> ~ holds L c) -> exists L', borrow_mut_all L cs = Ok L'.
Proof.
  induction cs as [|c cs IH]; intros L ND H; unfold borrow_mut_all; cbn [forL]; eauto. inversion ND; subst.
  rewrite borrow_mut_free by (apply H; left; auto). cbn [bind]. apply IH; auto. intros c' Hc (a & [[= <- <-]|Hx]); auto. apply (H c' (or_intror Hc)). exists a; auto.
Qed.
Lemma borrow_mut_all_held cs : forall L c, In c cs -> holds L c -> borrow_mut_all L cs = Panic.
Proof.
  induction cs as [|c0 cs IH]; intros L c [] HL; unfold borrow_mut_all; cbn [forL].
  - subst. rewrite borrow_mut_held; auto.
  - unfold borrow_mut. destruct (assert _) as [[]| |] eqn:E; cbn [bind]; auto.
    + apply (IH _ c); auto. destruct HL as (a & Ha). exists a. right; auto.
    + unfold assert in E. destruct (negb _); discriminate.
Qed.

Lemma outs_nodup i len : NoDup (outs i len).
Proof. unfold outs. apply FinFun.Injective_map_NoDup; [intros a b [=]; auto|apply seq_NoDup]. Qed.
Lemma outs_In i len n : In n (outs i len) <-> fst n = i /\ snd n < len.
Proof.
  unfold outs. rewrite in_map_iff. split.
  - intros (v & <- & H). apply in_seq in H. cbn. lia.
  - intros (<- & H). exists (snd n). split; [destruct n; auto|]. apply in_seq. lia.
Qed.
Lemma map_Val_In n l : In (Val n) (map Val l) <-> In n l.
Proof. rewrite in_map_iff. split; [intros (x & [= ->] & H); auto|eauto]. Qed.
Lemma map_Grad_In n l : In (Grad n) (map Grad l) <-> In n l.
Proof. rewrite in_map_iff. split; [intros (x & [= ->] & H); auto|eauto]. Qed.
Lemma map_Grad_Val n l : ~ In (Grad n) (map Val l).
Proof. rewrite in_map_iff. intros (x & E & _). discriminate. Qed.
Lemma NoDup_Val l : NoDup l -> NoDup (map Val l).
Proof. apply FinFun.Injective_map_NoDup. intros a b [=]; auto. Qed.

(** *** forward *)
(** the outputs an operator would write are free *)
Definition writable (L : guards) (g : graph) (i : nat) : Prop :=
  forall o v, nth_error (g_ops g) i = Some o -> oi_fwd o = false -> v < length (oi_vals o) -> ~ holds L (Val (i, v)).

Lemma step_fw_b_free L g i : refs L -> gwf g -> writable L g i -> step_fw_b L g i = step_fw itp g i.
Proof.
  intros R W H. unfold step_fw_b, step_fw. destruct (nth_error (g_ops g) i) as [o|] eqn:Ho; auto. destruct (oi_fwd o) eqn:Ef; auto.
  destruct (borrow_all_refs (map Val (oi_args o)) R) as (L1 & E1 & R1 & H1). rewrite E1. cbn [bind].
  destruct (@borrow_mut_all_free (map Val (outs i (length (oi_vals o)))) L1) as (L2 & E2).
  - apply NoDup_Val, outs_nodup.
  - intros c Hc. apply in_map_iff in Hc. destruct Hc as ([j v] & <- & Hc). apply outs_In in Hc. cbn in Hc. destruct Hc as (-> & Hv).
    rewrite H1. rewrite map_Val_In. intros [Ha|Hh]; [|apply (H o v); auto]. destruct (gwf_args W Ho Ha) as (LT & _). cbn in LT. lia.
  - rewrite E2. reflexivity.
Qed.
Lemma values_no_ub (g : graph) l : mapM (value_of g) l = UB -> False.
Proof.
  induction l as [|n l IH]; [discriminate|]. unfold mapM in *. cbn [fold_right].
  unfold value_of at 1, idx. destruct (nth_error _ (fst n)) as [p|]; cbn [bind]; [|intros E; discriminate E].
  destruct (nth_error _ (snd n)); cbn [bind]; [|intros E; discriminate E].
  destruct (fold_right _ _ _); cbn [bind]; auto; intros E; discriminate E.
Qed.
(** a step that is blocked panics, after the operator was marked *)
Lemma step_fw_b_held L g i o v : refs L -> nth_error (g_ops g) i = Some o -> oi_fwd o = false -> v < length (oi_vals o) ->
  holds L (Val (i, v)) ->
  step_fw_b L g i = (mkGraph (lset (g_ops g) i (mkOpinfo (oi_op o) (oi_args o) (oi_vals o) (oi_grads o) (oi_own o) true (oi_depth o))) (g_log g ++ [i]), Panic).
Proof.
  intros R Ho Ef Hv Hh. unfold step_fw_b. rewrite Ho, Ef. destruct (borrow_all_refs (map Val (oi_args o)) R) as (L1 & E1 & R1 & H1). rewrite E1. cbn [bind].
  destruct (mapM _ _) as [xs| |] eqn:EM; cbn [bind]; auto.
  - rewrite (@borrow_mut_all_held _ L1 (Val (i, v))); auto.
    + apply map_Val_In. apply outs_In. auto.
    + apply H1. auto.
  - exfalso. exact (values_no_ub EM).
Qed.

Hypothesis HF : forall op, lawful (itp op).

Definition unblocked (L : guards) (g : graph) (i : nat) : bool :=
  match nth_error (g_ops g) i with
  | Some o => oi_fwd o || negb (existsb (fun v => existsb (fun b => cell_eqb (fst b) (Val (i, v))) L) (seq 0 (length (oi_vals o))))
  | None => true
  end.
Definition blocked (L : guards) (g : graph) (i : nat) : Prop :=
  exists o v, nth_error (g_ops g) i = Some o /\ oi_fwd o = false /\ v < length (oi_vals o) /\ holds L (Val (i, v)).
Lemma blocked_dec L g i : writable L g i \/ blocked L g i.
Proof.
  destruct (unblocked L g i) eqn:E; unfold unblocked in E; destruct (nth_error (g_ops g) i) as [o|] eqn:Ho; try discriminate.
  - left. intros p v Hp Ef Hv (a & Ha). replace p with o in * by congruence. rewrite Ef in E. cbn [orb] in E. apply negb_true_iff in E. apply not_true_iff_false in E.
    apply E. apply existsb_exists. exists v. split; [apply in_seq; lia|]. apply existsb_exists. exists (Val (i, v), a). split; auto. apply cell_eqb_spec; auto.
  - left. intros p v Hp. congruence.
  - right. apply orb_false_iff in E. destruct E as (Ef & E). apply negb_false_iff in E. apply existsb_exists in E. destruct E as (v & Hv & E). apply in_seq in Hv.
    apply existsb_exists in E. destruct E as ([c a] & Hb & E). apply cell_eqb_spec in E. cbn in E. subst c. exists o, v. ssplit; auto; [lia|]. exists a; auto.
Qed.
Lemma blocked_writable L g i : writable L g i -> blocked L g i -> False.
Proof. intros W (o & v & Ho & Ef & Hv & Hh). exact (W o v Ho Ef Hv Hh). Qed.

(** a forward step changes its own operator only *)
Lemma step_fw_other (g g' : graph) i r j : step_fw itp g i = (g', r) -> j <> i -> nth_error (g_ops g') j = nth_error (g_ops g) j.
Proof.
  intros E N. destruct (nth_error (g_ops g) i) as [o|] eqn:Ho.
  - rewrite (@step_fw_cases K Oper itp g _ _ Ho) in E. destruct (oi_fwd o); [inversion E; auto|].
    destruct (xs <- mapM (value_of g) (oi_args o) ;; op_forward (itp (oi_op o)) xs (oi_vals o)); inversion E; cbn [g_ops];
      (rewrite nth_error_lset by (eapply nth_error_Some_lt; eauto)); apply Nat.eqb_neq in N; rewrite N; auto.
  - unfold step_fw in E. rewrite Ho in E. inversion E; auto.
Qed.
(** ... and no marked operator *)
Lemma step_fw_marked (g g' : graph) i r j o : step_fw itp g i = (g', r) -> nth_error (g_ops g) j = Some o -> oi_fwd o = true -> nth_error (g_ops g') j = Some o.
Proof.
  intros E Ho Ef. destruct (Nat.eq_dec j i) as [->|N]; [|rewrite (step_fw_other E N); auto].
  rewrite (@step_fw_cases K Oper itp g _ _ Ho), Ef in E. inversion E; subst; auto.
Qed.
Lemma step_fw_b_cases L g i : refs L -> gwf g -> logged g ->
  step_fw_b L g i = step_fw itp g i \/
  blocked L g i /\ exists o, nth_error (g_ops g) i = Some o /\ step_fw_b L g i = (mkGraph (lset (g_ops g) i (mark o)) (g_log g ++ [i]), Panic).
Proof.
  intros R W Lg. destruct (blocked_dec L g i) as [H|H]; [left; apply step_fw_b_free; auto|].
  right. split; auto. destruct H as (o & v & Ho & Ef & Hv & Hh). exists o. split; auto. eapply step_fw_b_held; eauto.
Qed.
Lemma step_fw_b_inv L g i g' r : refs L -> gwf g -> logged g -> step_fw_b L g i = (g', r) ->
  gwf g' /\ logged g' /\ (forall j o, nth_error (g_ops g) j = Some o -> oi_fwd o = true -> nth_error (g_ops g') j = Some o) /\ length (g_ops g') = length (g_ops g).
Proof.
  assert (LX : forall g g' : graph, extends g g' -> extends g' g -> length (g_ops g') = length (g_ops g)).
  { clear. intros g g' X Y. apply Nat.le_antisymm; apply Nat.nlt_ge; intros HH.
    - apply nth_error_Some in HH. destruct (nth_error (g_ops g') (length (g_ops g))) as [o|] eqn:E; [|congruence]. destruct (Y _ _ E) as (p & Hp & _). apply nth_error_Some_lt in Hp. lia.
    - apply nth_error_Some in HH. destruct (nth_error (g_ops g) (length (g_ops g'))) as [o|] eqn:E; [|congruence]. destruct (X _ _ E) as (p & Hp & _). apply nth_error_Some_lt in Hp. lia. }
  intros R W Lg E. destruct (step_fw_b_cases i R W Lg) as [EQ|(B & o & Ho & EQ)]; rewrite EQ in E.
  - destruct (step_fw_inv HF W Lg E) as (W' & L' & X & Y). ssplit; auto. intros j o. apply (step_fw_marked E).
  - inversion E; subst. destruct B as (o' & v & Ho' & Ef & _). replace o' with o in * by congruence.
    destruct (@set_op_extends K Oper g i o (mark o) (g_log g ++ [i]) Ho ltac:(repeat split)) as (X & Y). ssplit.
    + eapply gwf_extends; eauto.
    + eapply logged_set; eauto.
    + intros j p Hp Ep. cbn [g_ops]. rewrite nth_error_lset by (eapply nth_error_Some_lt; eauto). destruct (Nat.eqb_spec j i) as [->|]; auto. congruence.
    + apply LX; auto.
Qed.
Lemma run_fw_b_inv L order : refs L -> forall g g' r, gwf g -> logged g -> run_fw_b L g order = (g', r) ->
  gwf g' /\ logged g' /\ (forall j o, nth_error (g_ops g) j = Some o -> oi_fwd o = true -> nth_error (g_ops g') j = Some o) /\ length (g_ops g') = length (g_ops g).
Proof.
  intros R. induction order as [|i order IH]; intros g g' r W Lg E; cbn [run_fw_b] in E; [inversion E; subst; auto|].
  destruct (step_fw_b L g i) as [g1 r1] eqn:E1. destruct (step_fw_b_inv R W Lg E1) as (W1 & L1 & M1 & N1). destruct r1 as [[]| |]; [|inversion E; subst; auto..].
  destruct (IH _ _ _ W1 L1 E) as (W2 & L2 & M2 & N2). ssplit; auto. lia.
Qed.

Lemma run_fw_b_free L order : refs L -> forall g, gwf g -> logged g -> (forall i, In i order -> ~ blocked L g i) ->
  run_fw_b L g order = run_fw itp g order.
Proof.
  intros R. induction order as [|i order IH]; intros g W Lg H; cbn [run_fw_b run_fw]; auto.
  destruct (blocked_dec L g i) as [Hw|Hb]; [|destruct (H i (or_introl eq_refl) Hb)].
  rewrite (step_fw_b_free R W Hw). destruct (step_fw itp g i) as [g1 r1] eqn:E1. destruct r1 as [[]| |]; auto.
  destruct (step_fw_inv HF W Lg E1) as (W1 & L1 & X & Y). apply IH; auto. intros j Hj (o & v & Ho & Ef & Hv & Hh).
  destruct (Nat.eq_dec j i) as [->|N].
  - destruct (nth_error (g_ops g) i) as [p|] eqn:Hp; [|unfold step_fw in E1; rewrite Hp in E1; discriminate].
    rewrite (@step_fw_cases K Oper itp g _ _ Hp) in E1. destruct (oi_fwd p) eqn:Ep; [inversion E1; subst; congruence|].
    destruct (xs <- mapM (value_of g) (oi_args p) ;; op_forward (itp (oi_op p)) xs (oi_vals p)); inversion E1; subst. cbn [g_ops] in Ho.
    rewrite nth_error_lset, Nat.eqb_refl in Ho by (eapply nth_error_Some_lt; eauto). inversion Ho; subst. discriminate.
  - apply (H j (or_intror Hj)). exists o, v. rewrite <- (step_fw_other E1 N). auto.
Qed.
(** a blocked operator in the order: the pass does not succeed, and if it would have, it
    panics at the first blocked operator, which is left marked and without its value *)
Lemma run_fw_b_held L order : refs L -> forall g, gwf g -> logged g -> (exists i, In i order /\ blocked L g i) ->
  snd (run_fw_b L g order) <> Ok tt /\
  (snd (run_fw itp g order) = Ok tt -> snd (run_fw_b L g order) = Panic /\
     exists i o, In i order /\ blocked L g i /\ nth_error (g_ops g) i = Some o /\ nth_error (g_ops (fst (run_fw_b L g order))) i = Some (mark o)).
Proof.
  intros R. induction order as [|i order IH]; intros g W Lg (j & Hj & Hb); [destruct Hj|]. cbn [run_fw_b run_fw].
  destruct (blocked_dec L g i) as [Hw|Hbi].
  - rewrite (step_fw_b_free R W Hw). destruct (step_fw itp g i) as [g1 r1] eqn:E1. destruct Hj as [->|Hj]; [destruct (blocked_writable Hw Hb)|].
    assert (N : j <> i) by (intros ->; exact (blocked_writable Hw Hb)). destruct r1 as [[]| |]; [|cbn; split; congruence..].
    destruct (step_fw_inv HF W Lg E1) as (W1 & L1 & X & Y). destruct (IH g1 W1 L1) as (A & B).
    + exists j. split; auto. destruct Hb as (o & v & Ho & Hr). exists o, v. rewrite (step_fw_other E1 N). auto.
    + split; auto. intros E. destruct (B E) as (P & k & o & Hk & Hbk & Hok & Hmk). split; auto. exists k, o.
      assert (Nk : k <> i).
      { intros ->. destruct Hbk as (o' & v & Ho' & Ef & Hv & Hh). destruct (nth_error (g_ops g) i) as [p|] eqn:Hp; [|unfold step_fw in E1; rewrite Hp in E1; discriminate].
        rewrite (@step_fw_cases K Oper itp g _ _ Hp) in E1. destruct (oi_fwd p) eqn:Ep; [inversion E1; subst; congruence|].
        destruct (xs <- mapM (value_of g) (oi_args p) ;; op_forward (itp (oi_op p)) xs (oi_vals p)); inversion E1; subst. cbn [g_ops] in Ho'.
        rewrite nth_error_lset, Nat.eqb_refl in Ho' by (eapply nth_error_Some_lt; eauto). inversion Ho'; subst. discriminate. }
      assert (Eo : nth_error (g_ops g) k = Some o) by (rewrite <- (step_fw_other E1 Nk); auto).
      ssplit; auto; [right; auto|]. destruct Hbk as (o' & v & Ho' & Hr). exists o', v. rewrite <- (step_fw_other E1 Nk). auto.
  - destruct Hbi as (o & v & Ho & Ef & Hv & Hh). rewrite (step_fw_b_held R Ho Ef Hv Hh). cbn [fst snd]. split; [congruence|]. intros _. split; auto.
    exists i, o. ssplit; auto; [left; auto|exists o, v; auto|]. cbn [g_ops]. rewrite nth_error_lset, Nat.eqb_refl by (eapply nth_error_Some_lt; eauto). reflexivity.
Qed.

(** *** backward *)
(** a loop whose steps first ask for something *)
Lemma asked_loop A S (l : list A) (chk : A -> res unit) (f : A -> S -> res S) : (forall x, chk x <> UB) -> (exists x, In x l /\ chk x = Panic) -> forall s,
  (forall s', forL l (fun x s => _ <- chk x ;; f x s) s <> Ok s') /\
  ((exists s', forL l f s = Ok s') -> forL l (fun x s => _ <- chk x ;; f x s) s = Panic).
Proof.
  intros NU. induction l as [|x l IH]; intros (y & Hy & Ey) s; [destruct Hy|]. cbn [forL]. destruct (chk x) as [[]| |] eqn:Ex; cbn [bind].
  - destruct Hy as [->|Hy]; [congruence|]. destruct (f x s) as [s1| |]; cbn [bind]; [|split; [discriminate|intros (s' & E); discriminate E]..].
    apply IH. eauto.
  - split; [discriminate|auto].
  - destruct (NU x Ex).
Qed.
Lemma asked_map A B (l : list A) (chk : A -> res unit) (f : A -> res B) : (forall x, chk x <> UB) -> (exists x, In x l /\ chk x = Panic) ->
  (forall ys, mapM (fun x => _ <- chk x ;; f x) l <> Ok ys) /\
  ((exists ys, mapM f l = Ok ys) -> mapM (fun x => _ <- chk x ;; f x) l = Panic).
Proof.
  intros NU. induction l as [|x l IH]; intros (y & Hy & Ey); [destruct Hy|]. rewrite !mapM_cons. destruct (chk x) as [[]| |] eqn:Ex; cbn [bind].
  - destruct Hy as [->|Hy]; [congruence|]. destruct (f x) as [z| |]; cbn [bind]; [|split; [discriminate|intros (s' & E); discriminate E]..].
    destruct IH as (A1 & A2); eauto. split.
    + intros ys E. apply bind_Ok in E. destruct E as (zs & E & _). exact (A1 zs E).
    + intros (ys & E). apply bind_Ok in E. destruct E as (zs & E & _). rewrite A2; eauto.
  - split; [discriminate|auto].
  - destruct (NU x Ex).
Qed.
Definition ask (L : guards) (n : node) : res unit := _ <- borrow_mut L (Grad n) ;; Ok tt.
Lemma ask_free L n : ~ holds L (Grad n) -> ask L n = Ok tt.
Proof. intros H. unfold ask. rewrite borrow_mut_free by auto. reflexivity. Qed.
Lemma ask_held L n : holds L (Grad n) -> ask L n = Panic.
Proof. intros H. unfold ask. rewrite borrow_mut_held by auto. reflexivity. Qed.
Lemma ask_no_ub L n : ask L n <> UB.
Proof. unfold ask, borrow_mut, assert. destruct (negb _); discriminate. Qed.
Lemma holds_dec L c : holds L c \/ ~ holds L c.
Proof.
  destruct (existsb (fun b => cell_eqb (fst b) c) L) eqn:E.
  - left. apply existsb_exists in E. destruct E as ([c' a] & H & E). apply cell_eqb_spec in E. cbn in E. subst. exists a; auto.
  - right. intros (a & H). apply not_true_iff_false in E. apply E. apply existsb_exists. exists (c, a). split; auto. apply cell_eqb_spec; auto.
Qed.
Lemma ensure_ask L gal : forall n (g : graph), ensure_grad_b L gal n g = (_ <- ask L n ;; ensure_grad m gal n g).
Proof. intros n g. unfold ensure_grad_b, ask, borrow_mut, assert. destruct (negb _); reflexivity. Qed.
Lemma seed_ask L gal g root : seed_b L gal g root =
  (o <- idx (g_ops g) root ;;
   gs <- mapM (fun vt => _ <- ask L (root, fst vt) ;; t <- alloc m (gal root (fst vt)) (snd vt) ;; reset m t n1) (combine (seq 0 (length (oi_grads o))) (oi_grads o)) ;;
   Ok (set_op g root (set_grads o gs))).
Proof.
  unfold seed_b. apply bind_ext. intros o _. rewrite (mapM_ext _ (fun vt => _ <- ask L (root, fst vt) ;; t <- alloc m (gal root (fst vt)) (snd vt) ;; reset m t n1)); auto.
  intros vt _. unfold ask, borrow_mut, assert. destruct (negb _); reflexivity.
Qed.

(** no held gradient is an argument of operator [i] *)
Definition open (L : guards) (g : graph) (i : nat) : Prop := forall n, In n (args_of g i) -> ~ holds L (Grad n).
Definition shut (L : guards) (g : graph) (i : nat) : Prop := exists n, In n (args_of g i) /\ holds L (Grad n).
Lemma open_dec L g i : open L g i \/ shut L g i.
Proof.
  unfold open, shut. induction (args_of g i) as [|n l [IH|IH]].
  - left. intros n [].
  - destruct (holds_dec L (Grad n)) as [H|H]; [right; exists n; split; [left|]; auto|]. left. intros k [<-|Hk]; auto.
  - right. destruct IH as (k & Hk & Hh). exists k. split; [right|]; auto.
Qed.
(** the guards of a step *)
Lemma step_guards L (g : graph) i (o : opinfo K Oper) : refs L -> gwf g -> nth_error (g_ops g) i = Some o -> exists L1 L2 L3,
  borrow_all L (map Val (oi_args o)) = Ok L1 /\ borrow_all L1 (map Val (outs i (length (oi_vals o)))) = Ok L2 /\
  borrow_all L2 (map Grad (outs i (length (oi_grads o)))) = Ok L3 /\
  (forall n, In n (oi_args o) -> holds L3 (Grad n) <-> holds L (Grad n)).
Proof.
  intros R W Ho. destruct (borrow_all_refs (map Val (oi_args o)) R) as (L1 & E1 & R1 & H1).
  destruct (borrow_all_refs (map Val (outs i (length (oi_vals o)))) R1) as (L2 & E2 & R2 & H2).
  destruct (borrow_all_refs (map Grad (outs i (length (oi_grads o)))) R2) as (L3 & E3 & R3 & H3).
  exists L1, L2, L3. ssplit; auto. intros n Hn. rewrite H3, H2, H1, map_Grad_In, outs_In. destruct (gwf_args W Ho Hn) as (LT & _). split; [|tauto].
  intros [(E & _)|[H|[H|H]]]; auto; [lia|apply map_Grad_Val in H; tauto..].
Qed.
Lemma step_bw_b_free L gal g i : refs L -> gwf g -> open L g i -> step_bw_b L gal g i = step_bw m itp gal g i.
Proof.
  intros R W H. unfold step_bw_b, step_bw. unfold idx at 1 2. destruct (nth_error (g_ops g) i) as [o|] eqn:Ho; auto. cbn [bind].
  destruct (step_guards R W Ho) as (L1 & L2 & L3 & E1 & E2 & E3 & HG). unfold open, args_of in H. rewrite Ho in H.
  rewrite E1. cbn [bind]. apply bind_ext. intros xs _. rewrite E2. cbn [bind]. rewrite E3. cbn [bind].
  rewrite (@forL_ext _ _ (oi_args o) (ensure_grad_b L3 gal) (ensure_grad m gal)).
  - apply bind_ext. intros g1 _. apply bind_ext. intros us _. apply forL_ext. intros u s _. unfold apply_update_b, apply_update.
    destruct (fst u) as [k|]; [|reflexivity]. unfold idx. destruct (nth_error (oi_args o) k) as [n|] eqn:En; [|reflexivity]. cbn [bind].
    rewrite borrow_mut_free; [reflexivity|]. apply nth_error_In in En. rewrite HG by auto. auto.
  - intros n s Hn. rewrite ensure_ask, ask_free; auto. rewrite HG; auto.
Qed.
Lemma step_bw_b_held L gal g i : refs L -> gwf g -> shut L g i ->
  (forall g', step_bw_b L gal g i <> Ok g') /\ ((exists g', step_bw m itp gal g i = Ok g') -> step_bw_b L gal g i = Panic).
Proof.
  intros R W (n & Hn & Hh). unfold step_bw_b, step_bw. unfold args_of in Hn. unfold idx at 1 2 3. destruct (nth_error (g_ops g) i) as [o|] eqn:Ho; [|split; [discriminate|auto]]. cbn [bind].
  destruct (step_guards R W Ho) as (L1 & L2 & L3 & E1 & E2 & E3 & HG). rewrite E1. cbn [bind].
  destruct (mapM (value_of g) (oi_args o)) as [xs| |] eqn:EX; cbn [bind]; [|split; [discriminate|auto]|destruct (values_no_ub EX)].
  rewrite E2. cbn [bind]. rewrite E3. cbn [bind].
  rewrite (@forL_ext _ _ (oi_args o) (ensure_grad_b L3 gal) (fun n g => _ <- ask L3 n ;; ensure_grad m gal n g)) by (intros; apply ensure_ask).
  destruct (@asked_loop _ graph (oi_args o) (ask L3) (ensure_grad m gal) (@ask_no_ub L3)) with (s := g) as (A & B).
  { exists n. split; auto. apply ask_held. apply HG; auto. }
  split.
  - intros g' E. apply bind_Ok in E. destruct E as (g1 & E & _). exact (A g1 E).
  - intros (g' & E). apply bind_Ok in E. destruct E as (g1 & E & _). rewrite B; eauto.
Qed.
Lemma step_bw_grads gal (g g' : graph) i : step_bw m itp gal g i = Ok g' -> grads_changed g g'.
Proof.
  unfold step_bw. intros E. inv_ok. repeat match goal with
  | H : forL _ (ensure_grad _ _) _ = Ok _ |- _ => apply ensure_spec in H; destruct H as (? & _)
  | H : forL _ (apply_update _ _) _ = Ok _ |- _ => apply updates_spec in H; destruct H as (? & _) end.
  eapply grads_trans; eauto.
Qed.
Lemma run_bw_b_free L gal order : refs L -> forall g, gwf g -> (forall i, In i order -> open L g i) ->
  forL order (fun i g => step_bw_b L gal g i) g = forL order (fun i g => step_bw m itp gal g i) g.
Proof.
  intros R. induction order as [|i order IH]; intros g W H; cbn [forL]; auto. rewrite (step_bw_b_free gal R W (H i (or_introl eq_refl))).
  destruct (step_bw m itp gal g i) as [g1| |] eqn:E1; cbn [bind]; auto. apply step_bw_grads in E1. apply IH; [eapply grads_gwf; eauto|].
  intros j Hj n. rewrite (grads_args j E1). apply (H j (or_intror Hj)).
Qed.
Lemma run_bw_b_held L gal order : refs L -> forall g, gwf g -> (exists i, In i order /\ shut L g i) ->
  (forall g', forL order (fun i g => step_bw_b L gal g i) g <> Ok g') /\
  ((exists g', forL order (fun i g => step_bw m itp gal g i) g = Ok g') -> forL order (fun i g => step_bw_b L gal g i) g = Panic).
Proof.
  intros R. induction order as [|i order IH]; intros g W (j & Hj & Hs); [destruct Hj|]. cbn [forL]. destruct (open_dec L g i) as [Ho|Hi].
  - rewrite (step_bw_b_free gal R W Ho). destruct Hj as [->|Hj]; [destruct Hs as (n & Hn & Hh); destruct (Ho n Hn Hh)|].
    destruct (step_bw m itp gal g i) as [g1| |] eqn:E1; cbn [bind]; [|split; [discriminate|intros (g' & E); discriminate E]..].
    apply step_bw_grads in E1. apply IH; [eapply grads_gwf; eauto|]. exists j. split; auto. destruct Hs as (n & Hn & Hh). exists n. rewrite (grads_args j E1). auto.
  - destruct (step_bw_b_held gal R W Hi) as (A & B). split.
    + intros g' E. apply bind_Ok in E. destruct E as (g1 & E & _). exact (A g1 E).
    + intros (g' & E). apply bind_Ok in E. destruct E as (g1 & E & _). rewrite B; eauto.
Qed.
Lemma seed_b_free L gal g root : (forall v t, grad_of g (root, v) = Ok t -> ~ holds L (Grad (root, v))) -> seed_b L gal g root = seed m gal g root.
Proof.
  intros H. rewrite seed_ask. unfold seed. unfold idx at 1 2. destruct (nth_error (g_ops g) root) as [o|] eqn:Ho; auto. cbn [bind].
  rewrite (mapM_ext _ (fun vt => t <- alloc m (gal root (fst vt)) (snd vt) ;; reset m t n1)); auto. intros [v t] Hv. cbn [fst snd].
  rewrite ask_free; auto. apply in_combine_l in Hv. apply in_seq in Hv. destruct (nth_error (oi_grads o) v) as [t'|] eqn:E; [|apply nth_error_None in E; lia].
  apply (H v t'). eapply grad_of_Ok; eauto.
Qed.
Lemma seed_b_held L gal g root v t : grad_of g (root, v) = Ok t -> holds L (Grad (root, v)) ->
  (forall g', seed_b L gal g root <> Ok g') /\ ((exists g', seed m gal g root = Ok g') -> seed_b L gal g root = Panic).
Proof.
  intros Hg Hh. apply grad_of_inv in Hg. destruct Hg as (o & Ho & Ht). cbn [fst snd] in * . rewrite seed_ask. unfold seed. rewrite (idx_nth Ho). cbn [bind].
  destruct (@asked_map _ _ (combine (seq 0 (length (oi_grads o))) (oi_grads o)) (fun vt => ask L (root, fst vt)) (fun vt => t <- alloc m (gal root (fst vt)) (snd vt) ;; reset m t n1)) as (A & B).
  - intros x. apply ask_no_ub.
  - exists (v, t). split; [|apply ask_held; auto]. pose proof (nth_error_combine_seq 0 Ht) as E. eapply nth_error_In; exact E.
  - split.
    + intros g' E. apply bind_Ok in E. destruct E as (gs & E & _). exact (A gs E).
    + intros (g' & E). apply bind_Ok in E. destruct E as (gs & E & _). rewrite B; eauto.
Qed.

(** *** histories with references held *)
Inductive history_b : graph -> Prop :=
| hb_empty : history_b empty
| hb_create g op own xs g' ns : history_b g -> create itp g op own xs = Ok (g', ns) -> history_b g'
| hb_forward L g pop root g' r : history_b g -> refs L -> min_heap pop -> root < length (g_ops g) -> forward_b L pop g root = (g', r) -> history_b g'
| hb_backward g g' : history_b g -> grads_changed g g' -> history_b g'.
Lemma history_b_inv g : history_b g -> gwf g /\ logged g.
Proof.
  induction 1 as [|g op own xs g' ns H (W & Lg) E|L g pop root g' r H (W & Lg) R HP Lt E|g g' H (W & Lg) HG].
  - split; [constructor; intros [|i]; discriminate|]. split; [constructor|]. intros i; simpl. split; [intros []|]. intros (o & Ho & _). destruct i; discriminate.
  - split; [eapply create_gwf; eauto|]. apply create_inv in E. destruct E as (ss & rs & vals & grads & ds & _ & _ & _ & _ & _ & _ & _ & _ & -> & _).
    destruct Lg as (N & HI). split; auto. cbn [g_log g_ops]. intros i. rewrite HI. split; intros (o & Ho & Ef).
    + exists o. split; auto. rewrite nth_error_app1; auto. eapply nth_error_Some_lt; eauto.
    + destruct (Nat.lt_ge_cases i (length (g_ops g))) as [L|L]; [rewrite nth_error_app1 in Ho by auto; eauto|].
      rewrite nth_error_app2 in Ho by auto. destruct (i - length (g_ops g)) as [|k]; cbn in Ho; [inversion Ho; subst; discriminate|destruct k; discriminate].
  - destruct (run_fw_b_inv R W Lg E) as (W' & L' & _). auto.
  - destruct (grads_extends HG) as (X & Y). split; [eapply gwf_extends; eauto|]. destruct HG as (EL & HFo). destruct Lg as (N & HI). rewrite <- EL in N. split; auto.
    intros i. rewrite EL, HI. split; intros (o & Ho & Ef).
    + destruct (Forall2_nth HFo Ho) as (o' & Ho' & S). exists o'. split; auto. destruct S as (?&?&?&?&?&?&?). congruence.
    + destruct (Forall2_nth' HFo Ho) as (o' & Ho' & S). exists o'. split; auto. destruct S as (?&?&?&?&?&?&?). congruence.
Qed.
End Borrow.
