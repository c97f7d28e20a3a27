(** * Lifecycle: tensors as owners of pool buffers

    Models prima_undine/src/tensor.rs with its handles: who owns which buffer, and
    what the memory behind a handle contains. The tensors of Kernels.v, Api.v, ... are
    the views of the tensors here ([view]); the theorems of PropsLife.v justify
    working with views. One thread; the pool under concurrency is MemPool.v. *)
From Verif Require MemPool.
From Verif Require Export PVocab GraphFacts.
Set Implicit Arguments.
Unset Strict Implicit.
Import MemPool.

Section Life.
Variable K : num.
Notation F := (F K).
Notation tensor := (tensor K).
Variable m : build.

(** tensor.rs L10-19. [c_hdl]: the address, 0 for null; [c_ref]: the tensor behind [reference] *)
Record cell := mkCell { c_dev : option nat; c_shape : shape; c_hdl : ptr; c_host : option (list F); c_ref : option nat }.
(** the pools of the devices, the contents of the memory behind every address, and
    the tensors ever made ([None]: dropped or moved away) *)
Record world := mkW { w_pool : nat -> pstate; w_mem : ptr -> list F; w_ts : list (option cell) }.
Definition world_init : world := mkW (fun _ => pool_init) (fun _ => []) [].
(** the next address the backend would hand out, and what is in a new buffer of n elements
    (devices/naive.rs L68-71: [Vec::with_capacity], uninitialised) *)
Record backend := mkB { b_addr : ptr; b_init : N -> list F }.

Definition at' (w : world) (i : nat) : option cell := match nth_error (w_ts w) i with Some (Some c) => Some c | _ => None end.
(** what the tensor functions see of a tensor *)
Definition view_of (w : world) (c : cell) : tensor :=
  mkTensor (c_dev c) (c_shape c) (if (c_hdl c =? 0)%N then None else Some (w_mem w (c_hdl c))) (c_host c).
Definition view (w : world) (i : nat) : option tensor := option_map (view_of w) (at' w i).

Definition fset A (f : nat -> A) (i : nat) (a : A) : nat -> A := fun j => if Nat.eqb j i then a else f j.
Definition mset (f : ptr -> list F) (p : ptr) (l : list F) : ptr -> list F := fun q => if N.eqb q p then l else f q.
Definition set_cell (w : world) (i : nat) (c : option cell) : world := mkW (w_pool w) (w_mem w) (lset (w_ts w) i c).

(** [device.new_handle(size)] (device.rs L124-126): the pool, and the memory if the
    backend made a new buffer *)
Definition known (st : pstate) (p : ptr) : bool := existsb (fun e => N.eqb (fst e) p) (created st).
Definition get_handle (w : world) (d : nat) (sz : N) (be : backend) : res (world * ptr) :=
  ' (st, p) <- new_handle (w_pool w d) sz (b_addr be) ;;
  let mem := if known (w_pool w d) p then w_mem w else mset (w_mem w) p (b_init be (snd (hd (0, 0)%N (created st)))) in
  Ok (mkW (fset (w_pool w) d st) mem (w_ts w), p).
(** Drop, L98-104; [device()] unwraps *)
Definition drop_cell (w : world) (c : cell) : world * res unit :=
  if (c_hdl c =? 0)%N then (w, Ok tt) else
  match c_ref c with
  | Some _ => (w, Ok tt)
  | None => match c_dev c with
            | None => (w, Panic)
            | Some d => let '(st, r) := drop_handle (w_pool w d) (c_hdl c) in (mkW (fset (w_pool w) d st) (w_mem w) (w_ts w), r)
            end
  end.

(** ** The operations *)
Inductive op :=
| New (d : nat) (s : shape)                       (* Tensor::new L22-30 *)
| NewHost (s : shape) (vs : list F)               (* Tensor::new_host_tensor L32-40, and Deserialize L112-120 *)
| Alloc (i : nat) (be : backend)                  (* L50-54 *)
| MoveToDevice (i d : nat) (be : backend)         (* L42-48 *)
| Refer (i j : nat)                               (* L60-68 *)
| Replace (i j : nat)                             (* L70-78 *)
| SetShape (i : nat) (s : shape)                  (* update_shape L92-95 *)
| Update (i : nat) (js : list nat) (f : list tensor -> tensor -> res tensor) (junk : list F)
    (* any function that writes into the buffer of [i], reading the tensors [js]: reset, reset_tensor_by_*, the kernels.
       [junk]: what the buffer holds if the function panics half way, or if one of [js] shares the buffer *)
| Drop (i : nat).

Definition same_dev (a b : option nat) : bool := match a, b with Some a, Some b => Nat.eqb a b | None, None => true | _, _ => false end.
Definition no_host (c : cell) : bool := match c_host c with None => true | Some _ => false end.
(** the checks of refer and replace, in their order; none has an effect *)
Definition may_take (a b : cell) : bool := same_dev (c_dev a) (c_dev b) && (c_hdl a =? 0)%N && shape_eqb (c_shape a) (c_shape b) && no_host a.
Fixpoint all_views (w : world) (js : list nat) : option (list tensor) :=
  match js with [] => Some [] | j :: js => match view w j, all_views w js with Some v, Some vs => Some (v :: vs) | _, _ => None end end.
Definition hdls (w : world) (js : list nat) : list ptr := flat_map (fun j => match at' w j with Some c => [c_hdl c] | None => [] end) js.

Definition exec (w : world) (o : op) : world * res unit :=
  match o with
  | New d s => (mkW (w_pool w) (w_mem w) (w_ts w ++ [Some (mkCell (Some d) s 0%N None None)]), Ok tt)
  | NewHost s vs => (mkW (w_pool w) (w_mem w) (w_ts w ++ [Some (mkCell None s 0%N (Some vs) None)]), Ok tt)
  | Alloc i be =>
      match at' w i with None => (w, Panic) | Some c =>
      if negb (c_hdl c =? 0)%N then (w, Panic) else
      if negb (no_host c) then (w, Panic) else
      match (d <- unwrap (c_dev c) ;; sz <- size m (c_shape c) ;; get_handle w d sz be) with
      | Ok (w1, p) => (set_cell w1 i (Some (mkCell (c_dev c) (c_shape c) p (c_host c) (c_ref c))), Ok tt)
      | Panic => (w, Panic) | UB => (w, UB)
      end end
  | MoveToDevice i d be =>
      match at' w i with None => (w, Panic) | Some c =>
      match c_host c with None => (w, Panic) | Some vs =>
      let c1 := mkCell (Some d) (c_shape c) (c_hdl c) (c_host c) (c_ref c) in
      match (sz <- size m (c_shape c) ;; get_handle w d sz be) with
      | Ok (w1, p) =>
          let c2 := mkCell (Some d) (c_shape c) p None (c_ref c) in
          let w2 := set_cell w1 i (Some c2) in
          match reset_tensor_by_slice m (view_of w2 c2) vs with
          | Ok t => (mkW (w_pool w2) (mset (w_mem w2) p (buf t)) (w_ts w2), Ok tt)
          | Panic => (w2, Panic) | UB => (w2, UB)
          end
      | Panic => (set_cell w i (Some c1), Panic) | UB => (set_cell w i (Some c1), UB)
      end end end
  | Refer i j =>
      match at' w i, at' w j with
      | Some a, Some b => if may_take a b then (set_cell w i (Some (mkCell (c_dev a) (c_shape a) (c_hdl b) (c_host a) (Some j))), Ok tt) else (w, Panic)
      | _, _ => (w, Panic) end
  | Replace i j =>
      match at' w i, at' w j with
      | Some a, Some b =>
          if may_take a b
          then let w1 := set_cell w i (Some (mkCell (c_dev a) (c_shape a) (c_hdl b) (c_host a) (c_ref a))) in
               drop_cell (set_cell w1 j None) (mkCell (c_dev b) (c_shape b) 0%N (c_host b) (c_ref b))
          else let '(w1, r) := drop_cell (set_cell w j None) b in (w1, match r with UB => UB | _ => Panic end)   (* [other] is dropped while unwinding *)
      | _, _ => (w, Panic) end
  | SetShape i s =>
      match at' w i with None => (w, Panic) | Some c =>
      match (a <- size m s ;; b <- size m (c_shape c) ;; assert (a =? b)%N) with
      | Ok _ => (set_cell w i (Some (mkCell (c_dev c) s (c_hdl c) (c_host c) (c_ref c))), Ok tt)
      | Panic => (w, Panic) | UB => (w, UB)
      end end
  | Update i js f junk =>
      match at' w i, all_views w js with
      | Some c, Some xs =>
          let v := view_of w c in
          let put l := if (c_hdl c =? 0)%N then w else mkW (w_pool w) (mset (w_mem w) (c_hdl c) (if Nat.eqb (length l) (length (w_mem w (c_hdl c))) then l else w_mem w (c_hdl c))) (w_ts w) in
          match f xs v with
          | Ok t => (put (if existsb (N.eqb (c_hdl c)) (hdls w js) then junk else buf t), Ok tt)
          | Panic => (put junk, Panic)
          | UB => (put junk, UB)
          end
      | _, _ => (w, Panic) end
  | Drop i =>
      match at' w i with None => (w, Panic) | Some c => drop_cell (set_cell w i None) c end
  end.

(** ** What Rust's ownership permits *)
(** no live tensor holds a reference to [i]: while one does, [i] is borrowed and can be
    neither changed nor moved nor dropped *)
Definition free (w : world) (i : nat) : Prop := forall j c, at' w j = Some c -> c_ref c <> Some i.
Definition live (w : world) (i : nat) : Prop := exists c, at' w i = Some c.
Definition new_addr (w : world) (be : backend) : Prop :=
  b_addr be <> 0%N /\ (forall d, ~ In (b_addr be) (map fst (created (w_pool w d)))) /\ forall n, N.of_nat (length (b_init be n)) = n.
Definition permitted (w : world) (o : op) : Prop :=
  match o with
  | New _ _ | NewHost _ _ => True
  | Alloc i be | MoveToDevice i _ be => live w i /\ free w i /\ new_addr w be
  | Refer i j => live w i /\ free w i /\ live w j /\ i <> j
  | Replace i j => live w i /\ free w i /\ live w j /\ free w j /\ i <> j
  | SetShape i _ | Drop i => live w i /\ free w i
  | Update i js f _ => live w i /\ free w i /\ Forall (live w) js /\ ~ In i js
  end.
(** the two uses that break the ownership of buffers are excluded here: replacing by
    a tensor that is a reference, and referring to a tensor without a buffer *)
Definition proper (w : world) (o : op) : Prop :=
  match o with
  | Refer _ j => forall c, at' w j = Some c -> c_hdl c <> 0%N
  | Replace _ j => forall c, at' w j = Some c -> c_ref c = None
  | _ => True
  end.
Inductive run (P : world -> op -> Prop) : world -> Prop :=
| r_init : run P world_init
| r_step w o w' r : run P w -> permitted w o -> P w o -> exec w o = (w', r) -> run P w'.
(** [i] is, or refers through references to, the tensor [r] that is no reference *)
Inductive rooted (w : world) : nat -> nat -> Prop :=
| rt_own i c : at' w i = Some c -> c_ref c = None -> rooted w i i
| rt_ref i c k r : at' w i = Some c -> c_ref c = Some k -> rooted w k r -> rooted w i r.
(** [i] owns a buffer *)
Definition owns (w : world) (i : nat) : Prop := exists c, at' w i = Some c /\ c_hdl c <> 0%N /\ c_ref c = None.
End Life.
Arguments New {K} _ _. Arguments NewHost {K} _ _. Arguments Alloc {K} _ _. Arguments MoveToDevice {K} _ _ _. Arguments Refer {K} _ _. Arguments Replace {K} _ _.
Arguments SetShape {K} _ _. Arguments Update {K} _ _ _ _. Arguments Drop {K} _.
