(** * Graph: the computation graph engine

    Models prima_undine/src/graph.rs, for any operators: a user may implement the
    trait Operator (operator.rs) and call Node::create.

    The reference-counted operator cells are an arena: a list of cells, an
    operator is its index and a node the pair (operator, output index). *)
From Verif Require Export Api.
From Coq Require Export Permutation Sorting.Sorted.
Set Implicit Arguments.

Section Graph.
Variable K : num.
Notation F := (F K).
Notation tensor := (tensor K).
Variable m : build.

(** ** operator.rs L5-19: the trait Operator *)
(** A backward pass is a sequence of in-place updates of the gradients of the
    arguments ([gx[i].borrow_mut()]) and, for operators/parameter.rs, of the
    gradient the operator itself borrows from the Parameter. *)
Inductive target := Arg (i : nat) | Own.
Definition update : Type := target * (tensor -> res tensor).
Record operator := mkOperator {
  op_device : res nat;
  op_shapes : list shape -> res (list shape);
  (** [forward(x, y)]: the arguments and the outputs before, the outputs after *)
  op_forward : list tensor -> list tensor -> res (list tensor);
  (** [backward(x, y, gy, gx)]; what is computed before the first update may panic *)
  op_backward : list tensor -> list tensor -> list tensor -> res (list update) }.

(** tensor.rs L60-68 and L70-78 as seen by the reader of [self]: the buffer becomes
    that of [other]. Who owns it is the subject of Lifecycle.v. *)
Definition take_buf (self other : tensor) : res tensor :=
  _ <- assert (match t_dev self, t_dev other with Some a, Some b => a =? b | None, None => true | _, _ => false end) ;;
  _ <- assert (negb (valid self)) ;;
  _ <- assert (shape_eqb (t_shape self) (t_shape other)) ;;
  _ <- assert (match t_host self with None => true | Some _ => false end) ;;
  Ok (mkTensor (t_dev self) (t_shape self) (t_buf other) (t_host self)).
Definition replace (self other : tensor) : res tensor := take_buf self other.
Definition refer (self other : tensor) : res tensor := take_buf self other.

Section Engine.
(** the operators of the graph and what they do *)
Variable Oper : Type.
Variable itp : Oper -> operator.

Notation node := (nat * nat)%type.

(** graph.rs L10-29. [oi_own]: the gradient tensor borrowed from a Parameter. *)
Record opinfo := mkOpinfo {
  oi_op : Oper;
  oi_args : list node;
  oi_vals : list tensor;
  oi_grads : list tensor;
  oi_own : option tensor;
  oi_fwd : bool;
  oi_depth : nat }.
(** [g_log] is not in the code: it records the calls of [Operator::forward] *)
Record graph := mkGraph { g_ops : list opinfo; g_log : list nat }.

Definition empty : graph := mkGraph [] [].
Definition set_op (g : graph) (i : nat) (o : opinfo) : graph := mkGraph (lset (g_ops g) i o) (g_log g).

(** ** Reading cells *)
Definition mapM {A B} (f : A -> res B) (l : list A) : res (list B) :=
  fold_right (fun x r => y <- f x ;; ys <- r ;; Ok (y :: ys)) (Ok []) l.
Definition value_of (g : graph) (n : node) : res tensor := o <- idx (g_ops g) (fst n) ;; idx (oi_vals o) (snd n).
Definition grad_of (g : graph) (n : node) : res tensor := o <- idx (g_ops g) (fst n) ;; idx (oi_grads o) (snd n).
(** Node::device L212-214 *)
Definition device_at (g : graph) (n : node) : res nat := o <- idx (g_ops g) (fst n) ;; op_device (itp (oi_op o)).

(** ** OperatorInfo::new L58-89 and Node::create L189-202 *)
Definition depth_of (g : graph) (i : nat) : res nat := o <- idx (g_ops g) i ;; Ok (oi_depth o).
Definition create (g : graph) (op : Oper) (own : option tensor) (xs : list node) : res (graph * list node) :=
  arg_shapes <- mapM (fun n => v <- value_of g n ;; Ok (t_shape v)) xs ;;
  ret_shapes <- op_shapes (itp op) arg_shapes ;;
  vals <- mapM (fun s => d <- op_device (itp op) ;; Ok (@new_tensor K d s)) ret_shapes ;;
  grads <- mapM (fun s => d <- op_device (itp op) ;; Ok (@new_tensor K d s)) ret_shapes ;;
  ds <- mapM (fun n => depth_of g (fst n)) xs ;;
  let depth := fold_left Nat.max ds 0 + 1 in
  let i := length (g_ops g) in
  Ok (mkGraph (g_ops g ++ [mkOpinfo op xs vals grads own false depth]) (g_log g),
      map (fun v => (i, v)) (seq 0 (length ret_shapes))).

(** ** The breadth-first collection, L93-106 and L132-134, L142-152 *)
Definition arg_ops (g : graph) (i : nat) : list nat :=
  match nth_error (g_ops g) i with Some o => map fst (oi_args o) | None => [] end.
Definition mem (i : nat) (l : list nat) : bool := existsb (Nat.eqb i) l.
(** the loop over the arguments L98-104 *)
Definition visit (st : list nat * list nat) (a : nat) : list nat * list nat :=
  let (queue, reached) := st in if mem a reached then st else (queue ++ [a], a :: reached).
(** the loop over the queue; it pops at most one entry per operator (proved in
    GraphFacts.v), so the number of operators plus one is enough fuel *)
Fixpoint collect (g : graph) (fuel : nat) (queue reached acc : list nat) : list nat :=
  match fuel, queue with
  | S fuel', i :: queue' =>
      let (q, r) := fold_left visit (arg_ops g i) (queue', reached) in collect g fuel' q r (acc ++ [i])
  | _, _ => acc
  end.
Definition requests (g : graph) (root : nat) : list nat := collect g (S (length (g_ops g))) [root] [] [].

(** The heap std::collections::BinaryHeap, ordered by depth only (L31-51). All
    entries are pushed before the first is popped, so its effect is the order in
    which it returns them: some ordering of the entries by depth, ties in any
    order. The parameter [pop] gives that order. *)
Definition heap := (nat -> nat) -> list nat -> list nat.
Definition min_heap (pop : heap) : Prop := forall depth l,
  Permutation l (pop depth l) /\ Sorted (fun a b => depth a <= depth b) (pop depth l).
Definition max_heap (pop : heap) : Prop := forall depth l,
  Permutation l (pop depth l) /\ Sorted (fun a b => depth b <= depth a) (pop depth l).
Definition depth0 (g : graph) (i : nat) : nat := match nth_error (g_ops g) i with Some o => oi_depth o | None => 0 end.

(** ** forward L107-129 *)
(** one popped operator. The flag is set before the operator runs; if the operator
    panics the graph is left in that state. *)
Definition step_fw (g : graph) (i : nat) : graph * res unit :=
  match nth_error (g_ops g) i with
  | None => (g, Panic)
  | Some o =>
      if oi_fwd o then (g, Ok tt) else
      let o1 := mkOpinfo (oi_op o) (oi_args o) (oi_vals o) (oi_grads o) (oi_own o) true (oi_depth o) in
      let g1 := mkGraph (lset (g_ops g) i o1) (g_log g ++ [i]) in
      match xs <- mapM (value_of g1) (oi_args o) ;; op_forward (itp (oi_op o)) xs (oi_vals o) with
      | Ok ys => (set_op g1 i (mkOpinfo (oi_op o) (oi_args o) ys (oi_grads o) (oi_own o) true (oi_depth o)), Ok tt)
      | Panic => (g1, Panic)
      | UB => (g1, UB)
      end
  end.
Fixpoint run_fw (g : graph) (order : list nat) : graph * res unit :=
  match order with
  | [] => (g, Ok tt)
  | i :: order' => match step_fw g i with (g', Ok _) => run_fw g' order' | r => r end
  end.
Definition forward (pop : heap) (g : graph) (root : nat) : graph * res unit :=
  run_fw g (pop (depth0 g) (requests g root)).

(** ** backward L131-186 *)
(** buffers for the gradients, by node *)
Definition grad_alloc := nat -> nat -> alloc_oracle K.
Definition set_grads (o : opinfo) (gs : list tensor) : opinfo :=
  mkOpinfo (oi_op o) (oi_args o) (oi_vals o) gs (oi_own o) (oi_fwd o) (oi_depth o).
Definition set_grad (g : graph) (n : node) (t : tensor) : graph :=
  match nth_error (g_ops g) (fst n) with
  | Some o => set_op g (fst n) (set_grads o (lset (oi_grads o) (snd n) t))
  | None => g
  end.
Definition set_own (g : graph) (i : nat) (t : tensor) : graph :=
  match nth_error (g_ops g) i with
  | Some o => set_op g i (mkOpinfo (oi_op o) (oi_args o) (oi_vals o) (oi_grads o) (Some t) (oi_fwd o) (oi_depth o))
  | None => g
  end.
(** L135-141 *)
Definition seed (gal : grad_alloc) (g : graph) (root : nat) : res graph :=
  o <- idx (g_ops g) root ;;
  gs <- mapM (fun vt => t <- alloc m (gal root (fst vt)) (snd vt) ;; reset m t n1) (combine (seq 0 (length (oi_grads o))) (oi_grads o)) ;;
  Ok (set_op g root (set_grads o gs)).
(** L169-180: the gradient of an argument, zero if it has none yet *)
Definition ensure_grad (gal : grad_alloc) (n : node) (g : graph) : res graph :=
  t <- grad_of g n ;;
  if valid t then Ok g else
  t1 <- alloc m (gal (fst n) (snd n)) t ;;
  t2 <- reset m t1 n0 ;;
  Ok (set_grad g n t2).
Definition apply_update (i : nat) (args : list node) (u : update) (g : graph) : res graph :=
  match fst u with
  | Arg k => n <- idx args k ;; t <- grad_of g n ;; t' <- snd u t ;; Ok (set_grad g n t')
  | Own => o <- idx (g_ops g) i ;; t <- unwrap (oi_own o) ;; t' <- snd u t ;; Ok (set_own g i t')
  end.
(** one popped operator L153-185 *)
Definition step_bw (gal : grad_alloc) (g : graph) (i : nat) : res graph :=
  o <- idx (g_ops g) i ;;
  xs <- mapM (value_of g) (oi_args o) ;;
  g1 <- forL (oi_args o) (ensure_grad gal) g ;;
  us <- op_backward (itp (oi_op o)) xs (oi_vals o) (oi_grads o) ;;
  forL us (apply_update i (oi_args o)) g1.
Definition backward (gal : grad_alloc) (pop : heap) (g : graph) (root : nat) : res graph :=
  g1 <- seed gal g root ;;
  forL (pop (depth0 g1) (requests g1 root)) (fun i g => step_bw gal g i) g1.

(** ** Node methods L204-222 *)
Definition inner_value (g : graph) (n : node) : res tensor := value_of g n.
Definition inner_gradient (g : graph) (n : node) : res tensor := grad_of g n.
Definition node_forward (pop : heap) (g : graph) (n : node) : graph * res unit := forward pop g (fst n).
Definition node_backward (gal : grad_alloc) (popf popb : heap) (g : graph) (n : node) : res graph :=
  match node_forward popf g n with
  | (g1, Ok _) => backward gal popb g1 (fst n)
  | (_, Panic) => Panic
  | (_, UB) => UB
  end.
(** basic/node.rs L13-21 *)
Definition node_to_vec (pop : heap) (g : graph) (n : node) : graph * res (list F) :=
  match node_forward pop g n with
  | (g1, Ok _) => (g1, t <- value_of g1 n ;; to_vec m t)
  | (g1, Panic) => (g1, Panic)
  | (g1, UB) => (g1, UB)
  end.
End Engine.
End Graph.
Arguments mkOpinfo {K Oper}. Arguments oi_op {K Oper}. Arguments oi_args {K Oper}. Arguments oi_vals {K Oper}.
Arguments oi_grads {K Oper}. Arguments oi_own {K Oper}. Arguments oi_fwd {K Oper}. Arguments oi_depth {K Oper}.
Arguments mkGraph {K Oper}. Arguments g_ops {K Oper}. Arguments g_log {K Oper}.
Arguments empty {K Oper}.
