(** * Calls: the tensor functions of the public API, one value per call

    Everything a program can do with tensors of the naive device through [Device],
    [Tensor] and the functions of [prima_undine::functions], except [refer],
    [replace] and dropping (Lifecycle.v), graphs, and the random generators. The
    functions are those of Api.v, which cites the lines they model. *)
From Verif Require Export Safe3 Release.
Set Implicit Arguments.
Unset Strict Implicit.

Section Calls.
Variable K : num.
Notation F := (F K).
Notation tensor := (tensor K).
Notation oracle := (alloc_oracle K).
(** the standard library's [sort_unstable_by] *)
Variable srt : (nat -> nat -> option comparison) -> list nat -> res (list nat).

(** functions by what they take besides the device and the allocator *)
Definition unary (m : build) : list (nat -> oracle -> tensor -> res tensor) :=
  [ neg_fw m; sqrt_fw m; abs_fw m; sin_fw m; cos_fw m; tan_fw m; exp_fw m; ln_fw m; tanh_fw m; sigmoid_fw m; softplus_fw m;
    transpose_fw m; batch_sum_fw m; copy_tensor m ].
Definition with_const (m : build) : list (nat -> oracle -> tensor -> F -> res tensor) :=
  [ add_const_fw m; sub_const_l_fw m; sub_const_r_fw m; mul_const_fw m; div_const_l_fw m; div_const_r_fw m;
    powf_const_l_fw m; powf_const_r_fw m; prelu_fw m; elu_fw m ].
Definition binary (m : build) : list (nat -> oracle -> tensor -> tensor -> res tensor) :=
  [ add_fw m; sub_fw m; mul_fw m; div_fw m; powf_fw m; matmul_fw m;
    add_scalar_fw m; sub_scalar_l_fw m; sub_scalar_r_fw m; mul_scalar_fw m; div_scalar_l_fw m; div_scalar_r_fw m; powf_scalar_l_fw m; powf_scalar_r_fw m ].
(** one u32 argument: a dimension, or the offset of a diagonal *)
Definition with_u32 (m : build) : list (nat -> oracle -> tensor -> N -> res tensor) :=
  [ sum_fw m; max_fw m; min_fw m; logsumexp_fw m; triangular_l_fw m; triangular_u_fw m ].
Definition operators (m : build) : list (oracle -> tensor -> tensor -> res tensor) := [ t_add m; t_sub m; t_mul m; t_div m ].
(** gradients: of a function of x, with y = f(x), into gx *)
Definition unary_bw (m : build) : list (nat -> tensor -> tensor -> tensor -> tensor -> res tensor) :=
  [ neg_bw m; sqrt_bw m; abs_bw m; sin_bw m; cos_bw m; tan_bw m; exp_bw m; ln_bw m; tanh_bw m; sigmoid_bw m ].
Definition const_bw (m : build) : list (nat -> tensor -> tensor -> tensor -> F -> tensor -> res tensor) :=
  [ add_const_bw m; sub_const_l_bw m; sub_const_r_bw m; mul_const_bw m; div_const_l_bw m; div_const_r_bw m;
    powf_const_l_bw m; powf_const_r_bw m; prelu_bw m; elu_bw m ].
Definition binary_bw (m : build) : list ((nat -> oracle) -> nat -> tensor -> tensor -> tensor -> tensor -> tensor -> res tensor) :=
  [ (fun _ => add_bw_a m); (fun _ => add_bw_b m); (fun _ => sub_bw_a m); (fun _ => sub_bw_b m); (fun _ => mul_bw_a m); (fun _ => mul_bw_b m);
    (fun _ => div_bw_a m); (fun _ => div_bw_b m); (fun _ => powf_bw_a m); (fun _ => powf_bw_b m); matmul_bw_a m; matmul_bw_b m ].
Definition with_u32_bw (m : build) : list ((nat -> oracle) -> nat -> tensor -> tensor -> tensor -> N -> tensor -> res tensor) :=
  [ (fun _ => max_bw m); (fun _ => min_bw m); triangular_l_bw m; triangular_u_bw m ].

(** a function is called on a device, or as a method of its (first) operand *)
Definition device := option nat.
Definition pick_device (o : device) (x : tensor) : res nat := match o with Some d => Ok d | None => device_of x end.

Inductive call : Type :=
| CNew (d : nat) (s : shape) | CHost (s : shape) (vs : list F) | CAlloc (al : oracle) (x : tensor)
| CConst (d : nat) (al : oracle) (s : shape) (k : F) | CSlice (d : nat) (al : oracle) (s : shape) (vs : list F) | CMove (d : nat) (al : oracle) (x : tensor)
| CReset (x : tensor) (k : F) | CResetSlice (x : tensor) (vs : list F) | CResetTensor (x source : tensor) | CUpdateShape (x : tensor) (s : shape) | CMulAssign (x : tensor) (k : F)
| CVec (x : tensor) | CFloat (x : tensor) | CArgmax (o : device) (x : tensor) (dim : N) | CArgmin (o : device) (x : tensor) (dim : N) | CArgsort (o : device) (x : tensor) (dim : N)
| CUnary (i : nat) (o : device) (al : oracle) (x : tensor) | CWithConst (i : nat) (o : device) (al : oracle) (x : tensor) (k : F)
| CBinary (i : nat) (o : device) (al : oracle) (a b : tensor) | CWithU32 (i : nat) (o : device) (al : oracle) (x : tensor) (u : N)
| CPowi (o : device) (al : oracle) (x : tensor) (k : Z) | CBroadcast (o : device) (al : oracle) (x : tensor) (dim n : N)
| CSub (o : device) (al : oracle) (x : tensor) (dim lower upper : N) | CPick (o : device) (al : oracle) (x : tensor) (ids : list N) (dim : N)
| CBatchSub (o : device) (al : oracle) (x : tensor) (lower upper : N) | CBatchPick (o : device) (al : oracle) (x : tensor) (ids : list N)
| CConcat (al : oracle) (xs : list tensor) (dim : N) | CBatchConcat (al : oracle) (xs : list tensor)
| COperator (i : nat) (al : oracle) (a b : tensor)
| CSplit (als : nat -> oracle) (x : tensor) (dim n : N) | CBatchSplit (als : nat -> oracle) (x : tensor) (n : N)
| CReshape (al : oracle) (x : tensor) (s : shape) | CFlatten (al : oracle) (x : tensor)
| CLnSoftmax (als : nat -> oracle) (x : tensor) (dim : N) | CSoftmax (als : nat -> oracle) (x : tensor) (dim : N)
| CCrossEntropy (als : nat -> oracle) (x t : tensor) (dim : N) | CSparse (als : nat -> oracle) (x : tensor) (ids : list N) (dim : N)
| CUnaryBw (i : nat) (d : nat) (x y gy gx : tensor) | CConstBw (i : nat) (d : nat) (x y gy : tensor) (k : F) (gx : tensor)
| CBinaryBw (i : nat) (als : nat -> oracle) (d : nat) (a b y gy g : tensor) | CWithU32Bw (i : nat) (als : nat -> oracle) (d : nat) (x y gy : tensor) (u : N) (gx : tensor)
| CPowiBw (d : nat) (x y gy : tensor) (k : Z) (gx : tensor) | CTransposeBw (als : nat -> oracle) (d : nat) (x y gy gx : tensor)
| CSubBw (d : nat) (gy : tensor) (dim lower : N) (gx : tensor) | CPickBw (d : nat) (gy : tensor) (ids : list N) (dim : N) (gx : tensor)
| CBatchSubBw (d : nat) (gy : tensor) (lower : N) (gx : tensor)
| CBatchPickBw (d : nat) (gy : tensor) (ids : list N) (gx : tensor)
| CAddAssign (o : device) (x y : tensor) | CSubAssign (o : device) (x y : tensor).

Definition one (r : res tensor) : res (list tensor) := y <- r ;; Ok [y].
Definition none A (r : res A) : res (list tensor) := _ <- r ;; Ok [].
Arguments none {A} r.

(** the tensors a call makes or overwrites *)
Definition perform (m : build) (c : call) : res (list tensor) :=
  match c with
  | CNew d s => Ok [new_tensor K d s] | CHost s vs => Ok [@new_host_tensor K s vs] | CAlloc al x => one (alloc m al x)
  | CConst d al s k => one (new_tensor_by_constant m d al s k) | CSlice d al s vs => one (new_tensor_by_slice m d al s vs) | CMove d al x => one (move_to_device m d al x)
  | CReset x k => one (reset m x k) | CResetSlice x vs => one (reset_tensor_by_slice m x vs) | CResetTensor x source => one (reset_tensor_by_tensor m x source)
  | CUpdateShape x s => one (update_shape m x s) | CMulAssign x k => one (t_mul_assign m x k)
  | CVec x => none (to_vec m x) | CFloat x => none (to_float m x)
  | CArgmax o x dim => none (d <- pick_device o x ;; argmax m srt d x dim) | CArgmin o x dim => none (d <- pick_device o x ;; argmin m srt d x dim)
  | CArgsort o x dim => none (d <- pick_device o x ;; argsort m srt d x dim)
  | CUnary i o al x => one (f <- idx (unary m) i ;; d <- pick_device o x ;; f d al x)
  | CWithConst i o al x k => one (f <- idx (with_const m) i ;; d <- pick_device o x ;; f d al x k)
  | CBinary i o al a b => one (f <- idx (binary m) i ;; d <- pick_device o a ;; f d al a b)
  | CWithU32 i o al x u => one (f <- idx (with_u32 m) i ;; d <- pick_device o x ;; f d al x u)
  | CPowi o al x k => one (d <- pick_device o x ;; powi_fw m d al x k)
  | CBroadcast o al x dim n => one (d <- pick_device o x ;; broadcast_fw m d al x dim n)
  | CSub o al x dim lo hi => one (d <- pick_device o x ;; slice_fw m d al x dim lo hi)
  | CPick o al x ids dim => one (d <- pick_device o x ;; pick_fw m d al x ids dim)
  | CBatchSub o al x lo hi => one (d <- pick_device o x ;; batch_slice_fw m d al x lo hi)
  | CBatchPick o al x ids => one (d <- pick_device o x ;; batch_pick_fw m d al x ids)
  | CConcat al xs dim => one (t_concat m al xs dim) | CBatchConcat al xs => one (t_batch_concat m al xs)
  | COperator i al a b => one (f <- idx (operators m) i ;; f al a b)
  | CSplit als x dim n => t_split m als x dim n | CBatchSplit als x n => t_batch_split m als x n
  | CReshape al x s => one (t_reshape m al x s) | CFlatten al x => one (t_flatten m al x)
  | CLnSoftmax als x dim => one (t_ln_softmax m als x dim) | CSoftmax als x dim => one (t_softmax m als x dim)
  | CCrossEntropy als x t dim => one (t_softmax_cross_entropy m als x t dim) | CSparse als x ids dim => one (t_sparse_softmax_cross_entropy m als x ids dim)
  | CUnaryBw i d x y gy gx => one (f <- idx (unary_bw m) i ;; f d x y gy gx)
  | CConstBw i d x y gy k gx => one (f <- idx (const_bw m) i ;; f d x y gy k gx)
  | CBinaryBw i als d a b y gy g => one (f <- idx (binary_bw m) i ;; f als d a b y gy g)
  | CWithU32Bw i als d x y gy u gx => one (f <- idx (with_u32_bw m) i ;; f als d x y gy u gx)
  | CPowiBw d x y gy k gx => one (powi_bw m d x y gy k gx) | CTransposeBw als d x y gy gx => one (transpose_bw m als d x y gy gx)
  | CSubBw d gy dim lo gx => one (slice_bw m d gy dim lo gx) | CPickBw d gy ids dim gx => one (pick_bw m d gy ids dim gx)
  | CBatchSubBw d gy lo gx => one (batch_slice_bw m d gy lo gx)
  | CBatchPickBw d gy ids gx => one (batch_pick_bw m d gy ids gx)
  | CAddAssign o x y => one (d <- pick_device o y ;; add_assign m d x y) | CSubAssign o x y => one (d <- pick_device o y ;; sub_assign m d x y)
  end.

(** the tensors a call is given *)
Definition operands (c : call) : list tensor :=
  match c with
  | CNew _ _ | CHost _ _ | CConst _ _ _ _ | CSlice _ _ _ _ => []
  | CAlloc _ x | CMove _ _ x | CReset x _ | CResetSlice x _ | CUpdateShape x _ | CMulAssign x _ | CVec x | CFloat x
  | CArgmax _ x _ | CArgmin _ x _ | CArgsort _ x _ | CUnary _ _ _ x | CWithConst _ _ _ x _ | CWithU32 _ _ _ x _ | CPowi _ _ x _ | CBroadcast _ _ x _ _
  | CSub _ _ x _ _ _ | CPick _ _ x _ _ | CBatchSub _ _ x _ _ | CBatchPick _ _ x _ | CSplit _ x _ _ | CBatchSplit _ x _ | CReshape _ x _ | CFlatten _ x
  | CLnSoftmax _ x _ | CSoftmax _ x _ | CSparse _ x _ _ => [x]
  | CResetTensor x y | CBinary _ _ _ x y | COperator _ _ x y | CCrossEntropy _ x y _ | CSubBw _ x _ _ y | CPickBw _ x _ _ y | CBatchSubBw _ x _ y | CBatchPickBw _ x _ y | CAddAssign _ x y | CSubAssign _ x y => [x; y]
  | CConcat _ xs _ | CBatchConcat _ xs => xs
  | CUnaryBw _ _ x y gy gx | CConstBw _ _ x y gy _ gx | CWithU32Bw _ _ _ x y gy _ gx | CPowiBw _ x y gy _ gx | CTransposeBw _ _ x y gy gx => [x; y; gy; gx]
  | CBinaryBw _ _ _ a b y gy g => [a; b; y; gy; g]
  end.

(** what the caller and the allocator guarantee: shapes are built by the API of [Shape], arguments have their
    Rust types, a slice of ids has fewer than 2^32 elements *)
Definition fair (c : call) : Prop :=
  match c with
  | CNew _ s | CHost s _ | CUpdateShape _ s => wf s
  | CConst _ al s _ | CSlice _ al s _ | CReshape al _ s => al_ok al /\ wf s
  | CAlloc al _ | CMove _ al _ | CUnary _ _ al _ | CWithConst _ _ al _ _ | CBinary _ _ al _ _ | CWithU32 _ _ al _ _ | CBroadcast _ al _ _ _
  | CSub _ al _ _ _ _ | CBatchSub _ al _ _ _ | CConcat al _ _ | CBatchConcat al _ | COperator _ al _ _ | CFlatten al _ => al_ok al
  | CPick _ al _ ids _ | CBatchPick _ al _ ids => al_ok al /\ (N.of_nat (length ids) < two32)%N
  | CPowi _ al _ k => al_ok al /\ (-2147483648 <= k <= 2147483647)%Z
  | CSplit als _ _ _ | CBatchSplit als _ _ | CLnSoftmax als _ _ | CSoftmax als _ _ | CCrossEntropy als _ _ _
  | CBinaryBw _ als _ _ _ _ _ _ | CWithU32Bw _ als _ _ _ _ _ _ | CTransposeBw als _ _ _ _ _ => forall i, al_ok (als i)
  | CSparse als _ ids _ => (forall i, al_ok (als i)) /\ (N.of_nat (length ids) < two32)%N
  | CPickBw _ _ ids _ _ | CBatchPickBw _ _ ids _ => (N.of_nat (length ids) < two32)%N
  | _ => True
  end.
End Calls.
