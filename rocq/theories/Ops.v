(** * Ops: the operators of the crate and the functions on nodes

    Models prima_undine/src/operators/*.rs, functions/arithmetic/node.rs and
    functions/basic/node.rs. *)
From Verif Require Export Graph.
Set Implicit Arguments.

Section Ops.
Variable K : num.
Notation F := (F K).
Notation tensor := (tensor K).
Variable m : build.
Notation nat32 x := (N.to_nat x).

(** one constructor per operator struct (operators.rs L55-122), with its parameters *)
Inductive kind :=
| KInput (value : tensor)            (* input.rs L5-35 *)
| KInputOwner (value : tensor)       (* input.rs L37-68 *)
| KParameter (value : tensor)        (* parameter.rs *)
| KAdd | KAddConst (k : F) | KAddScalar
| KSub | KSubConstL (k : F) | KSubConstR (k : F) | KSubScalarL | KSubScalarR
| KMul | KMulConst (k : F) | KMulScalar
| KDiv | KDivConstL (k : F) | KDivConstR (k : F) | KDivScalarL | KDivScalarR
| KNeg | KAbs | KPow | KPowConstL (k : F) | KPowConstR (k : F) | KPowScalarL | KPowScalarR | KPowi (k : Z) | KSqrt
| KCos | KSin | KTan | KExp | KLn | KSigmoid | KSoftplus | KTanh
| KBroadcast (dim size : N) | KLogsumexp (dim : N) | KMax (dim : N) | KMin (dim : N) | KSum (dim : N)
| KSoftmaxCrossEntropy (dim : N) | KSparseSoftmaxCrossEntropy (ids : list N) (dim : N)
| KMatmul | KTranspose | KTriangularL (k : N) | KTriangularU (k : N)
| KELU (a : F) | KPReLU (a : F)
| KPick (ids : list N) (dim : N) | KSlice (dim lower upper : N) | KSplit (dim n : N)
| KBatchConcat | KBatchPick (ids : list N) | KBatchSlice (lower upper : N) | KBatchSplit (n : N) | KBatchSum
| KConcat (dim : N) | KReshape (s : shape).

(** an operator object: what it is, the device reference it was given (ignored by
    the three leaf operators, which ask their tensor), and the buffers the
    allocator will hand to its forward and backward code *)
Record oper := mkOper { o_kind : kind; o_dev : nat; o_fal : nat -> alloc_oracle K; o_bal : nat -> alloc_oracle K }.

Section Interp.
Variable dev : nat.
Variable fal bal : nat -> alloc_oracle K.

(** ** forward_shape *)
Definition shape1 (f : shape -> res shape) (ss : list shape) : res (list shape) := s <- idx ss 0 ;; r <- f s ;; Ok [r].
Definition shape2 (f : shape -> shape -> res shape) (ss : list shape) : res (list shape) := a <- idx ss 0 ;; b <- idx ss 1 ;; r <- f a b ;; Ok [r].
(** common.rs L68-70 (define_operator_x) and the operators with the same line *)
Definition shape_same : list shape -> res (list shape) := shape1 (fun s => Ok s).
(** common.rs L36-38: define_operator_ab uses the elementwise rule for every
    two-argument operator, the scalar ones included *)
Definition shape_ab : list shape -> res (list shape) := shape2 so_elementwise.
(** split.rs L16-21 *)
Definition split_shapes (dim n : N) (ss : list shape) : res (list shape) :=
  s <- idx ss 0 ;; sz <- split_skip (index s (nat32 dim)) n ;; r <- resize_dim m s (nat32 dim) sz ;; Ok (repeat r (nat32 n)).
(** batch_split.rs L16-21 *)
Definition batch_split_shapes (n : N) (ss : list shape) : res (list shape) :=
  s <- idx ss 0 ;; sz <- split_skip (batch s) n ;; r <- resize_batch s sz ;; Ok (repeat r (nat32 n)).
Definition forward_shape (k : kind) (ss : list shape) : res (list shape) :=
  match k with
  | KInput v | KInputOwner v | KParameter v => Ok [t_shape v]
  | KAdd | KAddScalar | KSub | KSubScalarL | KSubScalarR | KMul | KMulScalar | KDiv | KDivScalarL | KDivScalarR
  | KPow | KPowScalarL | KPowScalarR => shape_ab ss
  | KAddConst _ | KSubConstL _ | KSubConstR _ | KMulConst _ | KDivConstL _ | KDivConstR _ | KNeg | KAbs
  | KPowConstL _ | KPowConstR _ | KPowi _ | KSqrt | KCos | KSin | KTan | KExp | KLn | KSigmoid | KSoftplus | KTanh
  | KTriangularL _ | KTriangularU _ | KELU _ | KPReLU _ => shape_same ss
  | KBroadcast d n => shape1 (fun s => so_broadcast m s (nat32 d) n) ss
  | KLogsumexp d | KMax d | KMin d | KSum d => shape1 (fun s => resize_dim m s (nat32 d) 1) ss
  | KSoftmaxCrossEntropy d => shape2 (fun a b => s <- so_elementwise a b ;; resize_dim m s (nat32 d) 1) ss
  | KSparseSoftmaxCrossEntropy ids d | KPick ids d => shape1 (fun s => so_pick m s ids (nat32 d)) ss
  | KMatmul => shape2 (so_matmul m) ss
  | KTranspose => shape1 (so_transpose m) ss
  | KSlice d l u => shape1 (fun s => so_slice m s (nat32 d) l u) ss
  | KSplit d n => split_shapes d n ss
  | KBatchConcat => s <- so_batch_concat m ss ;; Ok [s]
  | KBatchPick ids => shape1 (fun s => so_batch_pick s ids) ss
  | KBatchSlice l u => shape1 (fun s => so_batch_slice s l u) ss
  | KBatchSplit n => batch_split_shapes n ss
  | KBatchSum => shape1 (fun s => resize_batch s 1) ss
  | KConcat d => s <- so_concat m ss (nat32 d) ;; Ok [s]
  | KReshape s => Ok [s]
  end.

(** ** forward: compute, then [y[0].replace(..)] *)
Definition into (r : res tensor) (ys : list tensor) : res (list tensor) :=
  t <- r ;; y <- idx ys 0 ;; y' <- replace y t ;; Ok (lset ys 0 y').
Definition fw1 (f : tensor -> res tensor) (xs ys : list tensor) : res (list tensor) := x <- idx xs 0 ;; into (f x) ys.
Definition fw2 (f : tensor -> tensor -> res tensor) (xs ys : list tensor) : res (list tensor) :=
  a <- idx xs 0 ;; b <- idx xs 1 ;; into (f a b) ys.
(** split.rs L23-32, batch_split.rs L23-29. [i * skip] and [(i + 1) * skip] are at most
    the total, so u32 arithmetic does not overflow; [total / n] with n = 0 has
    already panicked in forward_shape. *)
Definition fw_split (total : shape -> N) (sl : (nat -> alloc_oracle K) -> nat -> tensor -> N -> N -> res tensor) (n : N)
    (xs ys : list tensor) : res (list tensor) :=
  x <- idx xs 0 ;;
  let skip := (total (t_shape x) / n)%N in
  forN (nat32 n) (fun i ys =>
    t <- sl fal i x (N.of_nat i * skip)%N ((N.of_nat i + 1) * skip)%N ;;
    y <- idx ys i ;; y' <- replace y t ;; Ok (lset ys i y')) ys.
Definition forward_op (k : kind) (xs ys : list tensor) : res (list tensor) :=
  match k with
  | KInput v | KParameter v => y <- idx ys 0 ;; y' <- refer y v ;; Ok (lset ys 0 y')
  | KInputOwner v => y <- idx ys 0 ;; y1 <- alloc m (fal 0) y ;; _ <- device_of y1 ;; y2 <- reset_tensor_by_tensor m y1 v ;; Ok (lset ys 0 y2)
  | KAdd => fw2 (add_fw m dev (fal 0)) xs ys
  | KAddConst k => fw1 (fun x => add_const_fw m dev (fal 0) x k) xs ys
  | KAddScalar => fw2 (add_scalar_fw m dev (fal 0)) xs ys
  | KSub => fw2 (sub_fw m dev (fal 0)) xs ys
  | KSubConstL k => fw1 (fun x => sub_const_l_fw m dev (fal 0) x k) xs ys
  | KSubConstR k => fw1 (fun x => sub_const_r_fw m dev (fal 0) x k) xs ys
  | KSubScalarL => fw2 (sub_scalar_l_fw m dev (fal 0)) xs ys
  | KSubScalarR => fw2 (sub_scalar_r_fw m dev (fal 0)) xs ys
  | KMul => fw2 (mul_fw m dev (fal 0)) xs ys
  | KMulConst k => fw1 (fun x => mul_const_fw m dev (fal 0) x k) xs ys
  | KMulScalar => fw2 (mul_scalar_fw m dev (fal 0)) xs ys
  | KDiv => fw2 (div_fw m dev (fal 0)) xs ys
  | KDivConstL k => fw1 (fun x => div_const_l_fw m dev (fal 0) x k) xs ys
  | KDivConstR k => fw1 (fun x => div_const_r_fw m dev (fal 0) x k) xs ys
  | KDivScalarL => fw2 (div_scalar_l_fw m dev (fal 0)) xs ys
  | KDivScalarR => fw2 (div_scalar_r_fw m dev (fal 0)) xs ys
  | KNeg => fw1 (neg_fw m dev (fal 0)) xs ys
  | KAbs => fw1 (abs_fw m dev (fal 0)) xs ys
  | KPow => fw2 (powf_fw m dev (fal 0)) xs ys
  | KPowConstL k => fw1 (fun x => powf_const_l_fw m dev (fal 0) x k) xs ys
  | KPowConstR k => fw1 (fun x => powf_const_r_fw m dev (fal 0) x k) xs ys
  | KPowScalarL => fw2 (powf_scalar_l_fw m dev (fal 0)) xs ys
  | KPowScalarR => fw2 (powf_scalar_r_fw m dev (fal 0)) xs ys
  | KPowi k => fw1 (fun x => powi_fw m dev (fal 0) x k) xs ys
  | KSqrt => fw1 (sqrt_fw m dev (fal 0)) xs ys
  | KCos => fw1 (cos_fw m dev (fal 0)) xs ys
  | KSin => fw1 (sin_fw m dev (fal 0)) xs ys
  | KTan => fw1 (tan_fw m dev (fal 0)) xs ys
  | KExp => fw1 (exp_fw m dev (fal 0)) xs ys
  | KLn => fw1 (ln_fw m dev (fal 0)) xs ys
  | KSigmoid => fw1 (sigmoid_fw m dev (fal 0)) xs ys
  | KSoftplus => fw1 (softplus_fw m dev (fal 0)) xs ys
  | KTanh => fw1 (tanh_fw m dev (fal 0)) xs ys
  | KBroadcast d n => fw1 (fun x => broadcast_fw m dev (fal 0) x d n) xs ys
  | KLogsumexp d => fw1 (fun x => logsumexp_fw m dev (fal 0) x d) xs ys
  | KMax d => fw1 (fun x => max_fw m dev (fal 0) x d) xs ys
  | KMin d => fw1 (fun x => min_fw m dev (fal 0) x d) xs ys
  | KSum d => fw1 (fun x => sum_fw m dev (fal 0) x d) xs ys
  | KSoftmaxCrossEntropy d => fw2 (fun x t => t_softmax_cross_entropy m fal x t d) xs ys
  | KSparseSoftmaxCrossEntropy ids d => fw1 (fun x => t_sparse_softmax_cross_entropy m fal x ids d) xs ys
  | KMatmul => fw2 (matmul_fw m dev (fal 0)) xs ys
  | KTranspose => fw1 (transpose_fw m dev (fal 0)) xs ys
  | KTriangularL k => fw1 (fun x => triangular_l_fw m dev (fal 0) x k) xs ys
  | KTriangularU k => fw1 (fun x => triangular_u_fw m dev (fal 0) x k) xs ys
  | KELU a | KPReLU a => fw1 (fun x => prelu_fw m dev (fal 0) x a) xs ys   (* elu.rs L3: prelu_fw *)
  | KPick ids d => fw1 (fun x => t_pick m (fal 0) x ids d) xs ys
  | KSlice d l u => fw1 (fun x => slice_fw m dev (fal 0) x d l u) xs ys
  | KSplit d n => fw_split (fun s => index s (nat32 d)) (fun fal i x l u => slice_fw m dev (fal i) x d l u) n xs ys
  | KBatchConcat => into (batch_concat_fw m dev (fal 0) xs) ys
  | KBatchPick ids => fw1 (fun x => t_batch_pick m (fal 0) x ids) xs ys
  | KBatchSlice l u => fw1 (fun x => batch_slice_fw m dev (fal 0) x l u) xs ys
  | KBatchSplit n => fw_split batch (fun fal i x l u => batch_slice_fw m dev (fal i) x l u) n xs ys
  | KBatchSum => fw1 (batch_sum_fw m dev (fal 0)) xs ys
  | KConcat d => into (concat_fw m dev (fal 0) xs d) ys
  | KReshape s => fw1 (fun x => t <- copy_tensor m dev (fal 0) x ;; update_shape m t s) xs ys   (* reshape.rs L19-23 *)
  end.

(** ** backward *)
Notation ups := (list (update K)).
Definition bw_x (f : tensor -> tensor -> tensor -> tensor -> res tensor) (xs ys gys : list tensor) : res ups :=
  x <- idx xs 0 ;; y <- idx ys 0 ;; gy <- idx gys 0 ;; Ok [(Arg 0, f x y gy)].
Definition bw_ab (fa fb : tensor -> tensor -> tensor -> tensor -> tensor -> res tensor) (xs ys gys : list tensor) : res ups :=
  a <- idx xs 0 ;; b <- idx xs 1 ;; y <- idx ys 0 ;; gy <- idx gys 0 ;; Ok [(Arg 0, fa a b y gy); (Arg 1, fb a b y gy)].
(** [.flatten().sum(0)] *)
Definition flat_sum (al0 al1 : alloc_oracle K) (t : tensor) : res tensor := f <- t_flatten m al0 t ;; t_sum m al1 f 0.
(** [*gx += e] and [*gx -= e], the expression computed when the update is reached *)
Definition plus (e : res tensor) (gx : tensor) : res tensor := t <- e ;; t_add_assign m gx t.
Definition minus (e : res tensor) (gx : tensor) : res tensor := t <- e ;; t_sub_assign m gx t.
(** the scalar operators: closures in operators/{add,sub,mul,div,powf}.rs; [pre]
    is what is computed before the first update *)
Definition bw_scalar (pre : tensor -> tensor -> tensor -> tensor -> res tensor)
    (fa fb : tensor -> tensor -> tensor -> tensor -> tensor -> res tensor) (xs ys gys : list tensor) : res ups :=
  x <- idx xs 0 ;; k <- idx xs 1 ;; y <- idx ys 0 ;; gy <- idx gys 0 ;;
  a <- pre x k y gy ;; Ok [(Arg 0, fa x k y a); (Arg 1, fb x k y a)].
(** sum.rs L25, logsumexp.rs L25: [x.shape().dims()[dim]]; [dims()] is the slice of
    the first [depth] entries (shape.rs), so the index panics when dim >= depth *)
Definition dims_at (s : shape) (dim : N) : res N := idx (dims s) (nat32 dim).
(** concat.rs L24-32 and batch_concat.rs L24-32. The offset after the i-th update is
    the sum of the spans of the gradients so far; gradients have the shapes of the
    arguments, whose total is the extent of gy, a u32. The check that would fail
    first if it were not is the addition [offset + span] before each slice. *)
Fixpoint concat_ups (sl : alloc_oracle K -> tensor -> N -> N -> res tensor) (span : shape -> N) (gy : tensor)
    (i : nat) (offset : N) (xs : list tensor) : ups :=
  match xs with
  | [] => []
  | x :: xs' =>
      (Arg i, fun gx => upper <- add32 m offset (span (t_shape gx)) ;; plus (sl (bal i) gy offset upper) gx)
      :: concat_ups sl span gy (S i) (offset + span (t_shape x))%N xs'
  end.
Definition bw_concat sl span (xs gys : list tensor) : res ups :=
  match xs with [] => Ok [] | _ => gy <- idx gys 0 ;; Ok (concat_ups sl span gy 0 0%N xs) end.
(** split.rs L34-41 *)
Definition bw_split (dim n : N) (gys : list tensor) : res ups :=
  mapM (fun i => gy <- idx gys i ;;
    Ok (Arg 0, fun gx => slice_bw m dev gy dim (N.of_nat i * (index (t_shape gx) (nat32 dim) / n))%N gx)) (seq 0 (nat32 n)).
(** batch_split.rs L31-38: [gy[0]] for every part *)
Definition bw_batch_split (n : N) (gys : list tensor) : res ups :=
  mapM (fun i => gy <- idx gys 0 ;;
    Ok (Arg 0, fun gx => batch_slice_bw m dev gy (N.of_nat i * (batch (t_shape gx) / n))%N gx)) (seq 0 (nat32 n)).
(** operators whose update uses gy only *)
Definition bw_gy (f : tensor -> tensor -> res tensor) (gys : list tensor) : res ups := gy <- idx gys 0 ;; Ok [(Arg 0, f gy)].

Definition backward_op (k : kind) (xs ys gys : list tensor) : res ups :=
  match k with
  | KInput _ | KInputOwner _ => Ok []                                            (* input.rs L32-34, L65-67 *)
  | KParameter _ => gy <- idx gys 0 ;; Ok [(Own, plus (Ok gy))]                  (* parameter.rs L36-38 *)
  | KAdd => bw_ab (add_bw_a m dev) (add_bw_b m dev) xs ys gys                    (* add.rs *)
  | KAddConst k => bw_x (fun x y gy => add_const_bw m dev x y gy k) xs ys gys
  | KAddScalar => bw_scalar (fun _ _ _ gy => Ok gy)
      (fun _ _ _ gy => plus (Ok gy)) (fun _ _ _ gy => plus (flat_sum (bal 0) (bal 1) gy)) xs ys gys
  | KSub => bw_ab (sub_bw_a m dev) (sub_bw_b m dev) xs ys gys                    (* sub.rs *)
  | KSubConstL k => bw_x (fun x y gy => sub_const_l_bw m dev x y gy k) xs ys gys
  | KSubConstR k => bw_x (fun x y gy => sub_const_r_bw m dev x y gy k) xs ys gys
  | KSubScalarL => bw_scalar (fun _ _ _ gy => Ok gy)
      (fun _ _ _ gy => minus (Ok gy)) (fun _ _ _ gy => plus (flat_sum (bal 0) (bal 1) gy)) xs ys gys
  | KSubScalarR => bw_scalar (fun _ _ _ gy => Ok gy)
      (fun _ _ _ gy => plus (Ok gy)) (fun _ _ _ gy => minus (flat_sum (bal 0) (bal 1) gy)) xs ys gys
  | KMul => bw_ab (mul_bw_a m dev) (mul_bw_b m dev) xs ys gys                    (* mul.rs *)
  | KMulConst k => bw_x (fun x y gy => mul_const_bw m dev x y gy k) xs ys gys
  | KMulScalar => bw_scalar (fun _ _ _ gy => Ok gy)
      (fun _ k _ gy => plus (t_mul m (bal 0) k gy))
      (fun x _ _ gy => plus (t <- t_mul m (bal 1) x gy ;; flat_sum (bal 2) (bal 3) t)) xs ys gys
  | KDiv => bw_ab (div_bw_a m dev) (div_bw_b m dev) xs ys gys                    (* div.rs *)
  | KDivConstL k => bw_x (fun x y gy => div_const_l_bw m dev x y gy k) xs ys gys
  | KDivConstR k => bw_x (fun x y gy => div_const_r_bw m dev x y gy k) xs ys gys
  | KDivScalarL => bw_scalar (fun x _ _ gy => t_div m (bal 0) gy x)
      (fun _ _ y a => minus (t_mul m (bal 1) a y)) (fun _ _ _ a => plus (flat_sum (bal 2) (bal 3) a)) xs ys gys
  | KDivScalarR => bw_scalar (fun _ k _ gy => t_div m (bal 0) gy k)
      (fun _ _ _ a => plus (Ok a)) (fun _ _ y a => minus (t <- t_mul m (bal 1) a y ;; flat_sum (bal 2) (bal 3) t)) xs ys gys
  | KNeg => bw_x (neg_bw m dev) xs ys gys
  | KAbs => bw_x (abs_bw m dev) xs ys gys
  | KPow => bw_ab (powf_bw_a m dev) (powf_bw_b m dev) xs ys gys                  (* powf.rs *)
  | KPowConstL k => bw_x (fun x y gy => powf_const_l_bw m dev x y gy k) xs ys gys
  | KPowConstR k => bw_x (fun x y gy => powf_const_r_bw m dev x y gy k) xs ys gys
  | KPowScalarL => bw_scalar (fun _ _ y gy => t_mul m (bal 0) gy y)
      (fun _ k _ a => plus (l <- t_ln m (bal 1) k ;; t_mul m (bal 2) a l))
      (fun x k _ a => plus (t <- t_mul m (bal 3) a x ;; u <- t_div m (bal 4) t k ;; flat_sum (bal 5) (bal 6) u)) xs ys gys
  | KPowScalarR => bw_scalar (fun _ _ y gy => t_mul m (bal 0) gy y)
      (fun x k _ a => plus (t <- t_mul m (bal 1) a k ;; t_div m (bal 2) t x))
      (fun x _ _ a => plus (l <- t_ln m (bal 3) x ;; t <- t_mul m (bal 4) a l ;; flat_sum (bal 5) (bal 6) t)) xs ys gys
  | KPowi k => bw_x (fun x y gy => powi_bw m dev x y gy k) xs ys gys             (* powi.rs L24-27 *)
  | KSqrt => bw_x (sqrt_bw m dev) xs ys gys
  | KCos => bw_x (cos_bw m dev) xs ys gys
  | KSin => bw_x (sin_bw m dev) xs ys gys
  | KTan => bw_x (tan_bw m dev) xs ys gys
  | KExp => bw_x (exp_bw m dev) xs ys gys
  | KLn => bw_x (ln_bw m dev) xs ys gys
  | KSigmoid => bw_x (sigmoid_bw m dev) xs ys gys
  | KTanh => bw_x (tanh_bw m dev) xs ys gys
  | KSoftplus => bw_x (fun x _ gy => plus (s <- sigmoid_fw m dev (bal 0) x ;; t_mul m (bal 1) s gy)) xs ys gys   (* softplus.rs L24-26 *)
  | KBroadcast d _ => bw_gy (fun gy => plus (t_sum m (bal 0) gy d)) gys           (* broadcast.rs L29-31 *)
  | KSum d => x <- idx xs 0 ;; n <- dims_at (t_shape x) d ;;
      bw_gy (fun gy => plus (t_broadcast m (bal 0) gy d n)) gys                   (* sum.rs L24-27 *)
  | KLogsumexp d => x <- idx xs 0 ;; n <- dims_at (t_shape x) d ;;               (* logsumexp.rs L24-28 *)
      bw_x (fun x y gy => plus (
        yb <- t_broadcast m (bal 0) y d n ;; s <- t_sub m (bal 1) x yb ;; e <- t_exp m (bal 2) s ;;
        gb <- t_broadcast m (bal 3) gy d n ;; t_mul m (bal 4) e gb)) xs ys gys
  | KMax d => bw_x (fun x y gy => max_bw m dev x y gy d) xs ys gys               (* max.rs L24-27 *)
  | KMin d => bw_x (fun x y gy => min_bw m dev x y gy d) xs ys gys
  | KSoftmaxCrossEntropy d =>                                                    (* softmax_cross_entropy.rs L24-29 *)
      x <- idx xs 0 ;; ls <- t_ln_softmax m bal x d ;;
      gy <- idx gys 0 ;; gb <- t_broadcast m (bal 3) gy d (index (t_shape x) (nat32 d)) ;;
      t <- idx xs 1 ;;
      Ok [(Arg 0, plus (e <- t_exp m (bal 4) ls ;; u <- t_sub m (bal 5) e t ;; t_mul m (bal 6) u gb));
          (Arg 1, minus (t_mul m (bal 7) ls gb))]
  | KSparseSoftmaxCrossEntropy ids d =>                                          (* softmax_cross_entropy.rs L69-75 *)
      x <- idx xs 0 ;; gy <- idx gys 0 ;;
      Ok [(Arg 0, plus (s <- t_softmax m bal x d ;; gb <- t_broadcast m (bal 4) gy d (index (t_shape x) (nat32 d)) ;; t_mul m (bal 5) s gb));
          (Arg 0, fun gx => dv <- device_of gy ;; ng <- t_neg m (bal 6) gy ;; pick_bw m dv ng ids d gx)]
  | KMatmul => bw_ab (matmul_bw_a m bal dev) (matmul_bw_b m (fun i => bal (10 + i)) dev) xs ys gys
  | KTranspose => bw_x (transpose_bw m bal dev) xs ys gys
  | KTriangularL k => bw_x (fun x y gy => triangular_l_bw m bal dev x y gy k) xs ys gys
  | KTriangularU k => bw_x (fun x y gy => triangular_u_bw m bal dev x y gy k) xs ys gys
  | KELU a | KPReLU a => bw_x (fun x y gy => prelu_bw m dev x y gy a) xs ys gys  (* elu.rs L3: prelu_bw *)
  | KPick ids d => bw_gy (fun gy gx => dv <- device_of gy ;; pick_bw m dv gy ids d gx) gys   (* pick.rs L39-43 *)
  | KSlice d l _ => bw_gy (fun gy => slice_bw m dev gy d l) gys                  (* slice.rs L34-37 *)
  | KSplit d n => bw_split d n gys
  | KBatchConcat => bw_concat (t_batch_slice m) batch xs gys
  | KBatchPick ids => bw_gy (fun gy gx => dv <- device_of gy ;; batch_pick_bw m dv gy ids gx) gys  (* batch_pick.rs L37-41 *)
  | KBatchSlice l _ => bw_gy (fun gy => batch_slice_bw m dev gy l) gys           (* batch_slice.rs L29-32 *)
  | KBatchSplit n => bw_batch_split n gys
  | KBatchSum => bw_gy (fun gy => plus (Ok gy)) gys                              (* batch_sum.rs L24-26 *)
  | KConcat d => bw_concat (fun al gy => t_slice m al gy d) (fun s => index s (nat32 d)) xs gys
  | KReshape _ => bw_gy (fun gy gx => plus (t <- copy_tensor m dev (bal 0) gy ;; update_shape m t (t_shape gx)) gx) gys   (* reshape.rs L25-30 *)
  end.
End Interp.

(** [Operator::device]: input.rs L20-22, L52-54, parameter.rs L24-26; the others
    return the reference they were created with *)
Definition device_op (o : oper) : res nat :=
  match o_kind o with KInput v | KInputOwner v | KParameter v => device_of v | _ => Ok (o_dev o) end.
Definition interp (o : oper) : operator K :=
  mkOperator (device_op o) (forward_shape (o_kind o))
    (forward_op (o_dev o) (o_fal o) (o_kind o)) (backward_op (o_dev o) (o_bal o) (o_kind o)).

(** ** Functions on nodes *)
Notation graph := (graph K oper).
Notation node := (nat * nat)%type.
(** the buffers an operator object will be given *)
Definition buffers : Type := (nat -> alloc_oracle K) * (nat -> alloc_oracle K).
(** [Node::create(op, args)] with an operator on the device of node [x] *)
Definition n_create (g : graph) (bs : buffers) (k : kind) (x : node) (args : list node) : res (graph * list node) :=
  d <- device_at interp g x ;; create interp g (mkOper k d (fst bs) (snd bs)) None args.
(** [.pop().unwrap()] *)
Definition pop1 (r : res (graph * list node)) : res (graph * node) :=
  ' (g, ns) <- r ;; n <- unwrap (last (map Some ns) None) ;; Ok (g, n).
(** every method with one node argument *)
Definition n_op1 (k : kind) (g : graph) (bs : buffers) (x : node) : res (graph * node) := pop1 (n_create g bs k x [x]).
(** arithmetic/node.rs L28-108 and basic/node.rs L42-57 *)
Definition n_op2 (k kl kr : kind) (g : graph) (bs : buffers) (a b : node) : res (graph * node) :=
  va <- value_of g a ;;
  if is_scalar (t_shape va) then pop1 (n_create g bs kl a [b; a]) else
  vb <- value_of g b ;;
  if is_scalar (t_shape vb) then pop1 (n_create g bs kr a [a; b])
  else pop1 (n_create g bs k a [a; b]).
Definition n_add := n_op2 KAdd KAddScalar KAddScalar.
Definition n_sub := n_op2 KSub KSubScalarL KSubScalarR.
Definition n_mul := n_op2 KMul KMulScalar KMulScalar.
Definition n_div := n_op2 KDiv KDivScalarL KDivScalarR.
Definition n_pow := n_op2 KPow KPowScalarL KPowScalarR.
(** arithmetic/node.rs L10-26, L110-182 and basic/node.rs L59-173, L202-302 *)
Definition n_neg := n_op1 KNeg.
Definition n_add_const k := n_op1 (KAddConst k).
Definition n_sub_const k := n_op1 (KSubConstR k).
Definition n_const_sub k := n_op1 (KSubConstL k).
Definition n_mul_const k := n_op1 (KMulConst k).
Definition n_div_const k := n_op1 (KDivConstR k).
Definition n_const_div k := n_op1 (KDivConstL k).
Definition n_powf k := n_op1 (KPowConstR k).
Definition n_powi k := n_op1 (KPowi k).
Definition n_sqrt := n_op1 KSqrt.
Definition n_abs := n_op1 KAbs.
Definition n_sin := n_op1 KSin.
Definition n_cos := n_op1 KCos.
Definition n_tan := n_op1 KTan.
Definition n_exp := n_op1 KExp.
Definition n_ln := n_op1 KLn.
Definition n_tanh := n_op1 KTanh.
Definition n_sigmoid := n_op1 KSigmoid.
Definition n_softplus := n_op1 KSoftplus.
Definition n_sum d := n_op1 (KSum d).
Definition n_max d := n_op1 (KMax d).
Definition n_min d := n_op1 (KMin d).
Definition n_broadcast d n := n_op1 (KBroadcast d n).
Definition n_logsumexp d := n_op1 (KLogsumexp d).
Definition n_transpose := n_op1 KTranspose.
Definition n_triangular_l k := n_op1 (KTriangularL k).
Definition n_triangular_u k := n_op1 (KTriangularU k).
Definition n_relu := n_op1 (KPReLU n0).
Definition n_lrelu := n_op1 (KPReLU nc001).
Definition n_prelu a := n_op1 (KPReLU a).
Definition n_elu a := n_op1 (KELU a).
Definition n_slice d l u := n_op1 (KSlice d l u).
Definition n_pick ids d := n_op1 (KPick ids d).
Definition n_reshape s := n_op1 (KReshape s).
Definition n_batch_sum := n_op1 KBatchSum.
Definition n_batch_slice l u := n_op1 (KBatchSlice l u).
Definition n_batch_pick ids := n_op1 (KBatchPick ids).
Definition n_sparse_softmax_cross_entropy ids d := n_op1 (KSparseSoftmaxCrossEntropy ids d).
(** basic/node.rs L175-182, L195-200 *)
Definition n_softmax_cross_entropy d (g : graph) bs (x t : node) := pop1 (n_create g bs (KSoftmaxCrossEntropy d) x [x; t]).
Definition n_matmul (g : graph) bs (a b : node) := pop1 (n_create g bs KMatmul a [a; b]).
(** L254-256, L296-298 *)
Definition n_split d n (g : graph) bs (x : node) := n_create g bs (KSplit d n) x [x].
Definition n_batch_split n (g : graph) bs (x : node) := n_create g bs (KBatchSplit n) x [x].
(** L264-269, L306-311 *)
Definition n_concat d (g : graph) bs (xs : list node) : res (graph * node) :=
  _ <- assert (negb (length xs =? 0)) ;; x0 <- idx xs 0 ;; pop1 (n_create g bs (KConcat d) x0 xs).
Definition n_batch_concat (g : graph) bs (xs : list node) : res (graph * node) :=
  _ <- assert (negb (length xs =? 0)) ;; x0 <- idx xs 0 ;; pop1 (n_create g bs KBatchConcat x0 xs).
(** L277-280 *)
Definition n_flatten (g : graph) bs (x : node) : res (graph * node) :=
  v <- value_of g x ;; s <- shape_new m [volume (t_shape v)] (batch (t_shape v)) ;; n_reshape s g bs x.
(** L167-173 *)
Definition n_ln_softmax d (g : graph) (bss : nat -> buffers) (x : node) : res (graph * node) :=
  ' (g1, l) <- n_logsumexp d g (bss 0) x ;;
  v <- value_of g1 x ;;
  ' (g2, b) <- n_broadcast d (index (t_shape v) (nat32 d)) g1 (bss 1) l ;;
  n_sub g2 (bss 2) x b.
Definition n_softmax d (g : graph) (bss : nat -> buffers) (x : node) : res (graph * node) :=
  ' (g1, l) <- n_ln_softmax d g bss x ;; n_exp g1 (bss 3) l.
(** graph.rs: From<&Tensor>, From<Tensor>, From<&mut Parameter> for Node *)
Definition leaf (g : graph) (bs : buffers) (k : kind) (own : option tensor) : res (graph * node) :=
  pop1 (create interp g (mkOper k 0 (fst bs) (snd bs)) own []).
Definition n_input (g : graph) bs (t : tensor) := leaf g bs (KInput t) None.
Definition n_input_owner (g : graph) bs (t : tensor) := leaf g bs (KInputOwner t) None.
Definition n_parameter (g : graph) bs (value gradient : tensor) := leaf g bs (KParameter value) (Some gradient).
End Ops.
Arguments KInput {K} _. Arguments KInputOwner {K} _. Arguments KParameter {K} _. Arguments KAdd {K}. Arguments KAddConst {K} _. Arguments KAddScalar {K}. Arguments KSub {K}. Arguments KSubConstL {K} _. Arguments KSubConstR {K} _. Arguments KSubScalarL {K}. Arguments KSubScalarR {K}. Arguments KMul {K}. Arguments KMulConst {K} _. Arguments KMulScalar {K}. Arguments KDiv {K}. Arguments KDivConstL {K} _. Arguments KDivConstR {K} _. Arguments KDivScalarL {K}. Arguments KDivScalarR {K}. Arguments KNeg {K}. Arguments KAbs {K}. Arguments KPow {K}. Arguments KPowConstL {K} _. Arguments KPowConstR {K} _. Arguments KPowScalarL {K}. Arguments KPowScalarR {K}. Arguments KPowi {K} _. Arguments KSqrt {K}. Arguments KCos {K}. Arguments KSin {K}. Arguments KTan {K}. Arguments KExp {K}. Arguments KLn {K}. Arguments KSigmoid {K}. Arguments KSoftplus {K}. Arguments KTanh {K}. Arguments KBroadcast {K} _ _. Arguments KLogsumexp {K} _. Arguments KMax {K} _. Arguments KMin {K} _. Arguments KSum {K} _. Arguments KSoftmaxCrossEntropy {K} _. Arguments KSparseSoftmaxCrossEntropy {K} _ _. Arguments KMatmul {K}. Arguments KTranspose {K}. Arguments KTriangularL {K} _. Arguments KTriangularU {K} _. Arguments KELU {K} _. Arguments KPReLU {K} _. Arguments KPick {K} _ _. Arguments KSlice {K} _ _ _. Arguments KSplit {K} _ _. Arguments KBatchConcat {K}. Arguments KBatchPick {K} _. Arguments KBatchSlice {K} _ _. Arguments KBatchSplit {K} _. Arguments KBatchSum {K}. Arguments KConcat {K} _. Arguments KReshape {K} _.
