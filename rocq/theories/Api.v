(** * Api: the device functions, the tensor methods and the function registry

    Models prima_undine/src/device.rs, tensor.rs, functions.rs,
    functions/{basic,arithmetic}/{device,tensor}.rs and the registrations in
    devices/naive.rs. *)
From Verif Require Export Kernels KSort Elem.
From Coq Require String.
Export String.StringSyntax.
Notation string := String.string.
Delimit Scope string_scope with string.
Bind Scope string_scope with String.string.
Set Implicit Arguments.

Section Api.
Variable K : num.
Notation F := (F K).
Notation tensor := (tensor K).
Variable m : build.
(** slice::sort_by of the standard library, used by argsort (see KSort) *)
Variable srt : (nat -> nat -> option comparison) -> list nat -> res (list nat).
Notation nat32 x := (N.to_nat x).

(** The allocator: MemoryPool::new_handle (memory_pool.rs L53-85) as seen by one
    caller: for a size it panics or returns a buffer with unspecified contents.
    One oracle per allocation; a function which allocates several times takes a
    numbered supply of them. *)
Definition alloc_oracle := N -> res (list F).

(** ** The kernels as registered objects *)
(** device_impl.rs FunctionFwImpl::call. Every kernel of the naive device uses
    only the first output, [ys[0]], so the output is one tensor. *)
Definition kfw := list tensor -> list N -> list F -> tensor -> res tensor.
Definition kfwu32 := list tensor -> list N -> list N -> res (list N).
Definition kfwf32 := list tensor -> list F -> res (list F).

Fixpoint assoc {A} (l : list (string * A)) (s : string) : option A :=
  match l with
  | [] => None
  | (n, v) :: l' => if String.eqb n s then Some v else assoc l' s
  end.

Definition fx (k : tensor -> tensor -> res tensor) : kfw := fun xs _ _ y => x <- idx xs 0 ;; k x y.
Definition fxx (k : tensor -> tensor -> tensor -> res tensor) : kfw :=
  fun xs _ _ y => a <- idx xs 0 ;; b <- idx xs 1 ;; k a b y.
Definition fxc (k : tensor -> F -> tensor -> res tensor) : kfw := fun xs _ f y => x <- idx xs 0 ;; c <- idx f 0 ;; k x c y.
Definition fxd (k : tensor -> nat -> tensor -> res tensor) : kfw := fun xs u _ y => x <- idx xs 0 ;; d <- idx u 0 ;; k x (nat32 d) y.
Definition fxu (k : tensor -> N -> tensor -> res tensor) : kfw := fun xs u _ y => x <- idx xs 0 ;; d <- idx u 0 ;; k x d y.

(** device.rs L42-48, L69-97; devices/naive.rs L99-102, L132-136 *)
Definition f32_registry : list (string * kfwf32) :=
  [ ("tensor_to_vector_impl"%string, fun xs y => x <- idx xs 0 ;; k_to_vector m x y) ].
Definition u32_registry : list (string * kfwu32) :=
  [ ("argmax_impl"%string, fun xs u y => x <- idx xs 0 ;; d <- idx u 0 ;; k_arg m (@ngt K) x (nat32 d) y);
    ("argmin_impl"%string, fun xs u y => x <- idx xs 0 ;; d <- idx u 0 ;; k_arg m (nlt K) x (nat32 d) y);
    ("argsort_impl"%string, fun xs u y => x <- idx xs 0 ;; d <- idx u 0 ;; k_argsort m srt x (nat32 d) y) ].
Definition call_f32 (name : string) xs y : res (list F) :=
  match assoc f32_registry name with Some k => k xs y | None => Panic end.
Definition call_u32 (name : string) xs u y : res (list N) :=
  match assoc u32_registry name with Some k => k xs u y | None => Panic end.

(** ** device.rs, tensor.rs: reading *)
(** tensor.rs L80-82 with the comparison [x.device() == self]; devices are compared
    by address (device.rs L198-202) *)
Definition device_of (t : tensor) : res nat := unwrap (t_dev t).
Definition check_dev (self : nat) (t : tensor) : res unit := d <- device_of t ;; assert (d =? self).
Definition valid (t : tensor) : bool := match t_buf t with Some _ => true | None => false end.

(** device.rs L178-182 *)
Definition tensor_to_vector (x : tensor) : res (list F) :=
  sz <- size m (t_shape x) ;; call_f32 "tensor_to_vector_impl" [x] (repeat n0 (nat32 sz)).
(** device.rs L184-189 *)
Definition tensor_to_float (x : tensor) : res F :=
  sz <- size m (t_shape x) ;; _ <- assert (sz =? 1)%N ;;
  r <- call_f32 "tensor_to_vector_impl" [x] [n0] ;; idx r 0.
(** basic/tensor.rs L13-19 *)
Definition to_vec (x : tensor) : res (list F) := _ <- device_of x ;; tensor_to_vector x.
Definition to_float (x : tensor) : res F := _ <- device_of x ;; tensor_to_float x.

(** *** reset_tensor.rs L36-49 *)
Definition k_reset_tensor (x y : tensor) : res tensor :=
  sz <- size m (t_shape y) ;;
  xd <- to_vec x ;;
  py <- ptr y ;;
  py' <- forN (nat32 sz) (fun i py => v <- idx xd i ;; wr py i v) py ;;
  Ok (with_buf y py').

(** ** devices/naive.rs L89-308: the forward registrations, in order. The random
    kernels draw from a generator; they are modelled in Init.v. *)
Definition fw_registry : list (string * kfw) := [
  ("reset_tensor_impl", fun _ _ f y => k <- idx f 0 ;; k_reset m k y);
  ("reset_tensor_by_slice_impl", fun _ _ f y => k_reset_slice m f y);
  ("reset_tensor_by_tensor_impl", fx k_reset_tensor);
  ("identity_impl", fun _ _ _ y => k_identity m y);
  ("add_assign_impl", fx (k_assign (nadd K)));
  ("sub_assign_impl", fx (k_assign (nsub K)));
  ("mul_assign_const_impl", fun _ _ f y => k <- idx f 0 ;; k_mul_assign m k y);
  ("neg_fw_impl", fx (k_fw_x m (e_neg K)));
  ("add_fw_impl", fxx (k_fw_ab (e_add K)));
  ("add_const_fw_impl", fxc (k_fw_const m (e_add_const K)));
  ("add_scalar_fw_impl", fxx (k_fw_scalar (e_add_scalar K)));
  ("sub_fw_impl", fxx (k_fw_ab (e_sub K)));
  ("sub_const_l_fw_impl", fxc (k_fw_const m (e_sub_const_l K)));
  ("sub_const_r_fw_impl", fxc (k_fw_const m (e_sub_const_r K)));
  ("sub_scalar_l_fw_impl", fxx (k_fw_scalar (e_sub_scalar_l K)));
  ("sub_scalar_r_fw_impl", fxx (k_fw_scalar (e_sub_scalar_r K)));
  ("mul_fw_impl", fxx (k_fw_ab (e_mul K)));
  ("mul_const_fw_impl", fxc (k_fw_const m (e_mul_const K)));
  ("mul_scalar_fw_impl", fxx (k_fw_scalar (e_mul_scalar K)));
  ("div_fw_impl", fxx (k_fw_ab (e_div K)));
  ("div_const_l_fw_impl", fxc (k_fw_const m (e_div_const_l K)));
  ("div_const_r_fw_impl", fxc (k_fw_const m (e_div_const_r K)));
  ("div_scalar_l_fw_impl", fxx (k_fw_scalar (e_div_scalar_l K)));
  ("div_scalar_r_fw_impl", fxx (k_fw_scalar (e_div_scalar_r K)));
  ("powf_fw_impl", fxx (k_fw_ab (e_powf K)));
  ("powf_const_l_fw_impl", fxc (k_fw_const m (e_powf_const_l K)));
  ("powf_const_r_fw_impl", fxc (k_fw_const m (e_powf_const_r K)));
  ("powf_scalar_l_fw_impl", fxx (k_fw_scalar (e_powf_scalar_l K)));
  ("powf_scalar_r_fw_impl", fxx (k_fw_scalar (e_powf_scalar_r K)));
  ("sqrt_fw_impl", fx (k_fw_x m (e_sqrt K)));
  ("abs_fw_impl", fx (k_fw_x m (e_abs K)));
  ("powi_fw_impl", fun xs u _ y => x <- idx xs 0 ;; k_powi_fw m x u y);
  ("sin_fw_impl", fx (k_fw_x m (e_sin K)));
  ("cos_fw_impl", fx (k_fw_x m (e_cos K)));
  ("tan_fw_impl", fx (k_fw_x m (e_tan K)));
  ("exp_fw_impl", fx (k_fw_x m (e_exp K)));
  ("ln_fw_impl", fx (k_fw_x m (e_ln K)));
  ("tanh_fw_impl", fx (k_fw_x m (e_tanh K)));
  ("sigmoid_fw_impl", fx (k_fw_x m (e_sigmoid K)));
  ("softplus_fw_impl", fx (k_fw_x m (e_softplus K)));
  ("sum_fw_impl", fxd (k_sum m));
  ("logsumexp_fw_impl", fxd (k_logsumexp m));
  ("max_fw_impl", fxd (k_extremum m (@ngt K)));
  ("min_fw_impl", fxd (k_extremum m (nlt K)));
  ("broadcast_fw_impl", fun xs u _ y => x <- idx xs 0 ;; d <- idx u 0 ;; s <- idx u 1 ;; k_broadcast m x (nat32 d) s y);
  ("matmul_fw_impl", fxx (@k_matmul K));
  ("transpose_fw_impl", fx (@k_transpose K));
  ("permute_dims_fw_impl", fun xs u _ y => x <- idx xs 0 ;; k_permute_fw x u y);
  ("flip_fw_impl", fxd (k_flip_fw m));
  ("triangular_l_fw_impl", fxu (k_triangular m false));
  ("triangular_u_fw_impl", fxu (k_triangular m true));
  ("prelu_fw_impl", fxc (k_fw_const m (e_prelu K)));
  ("elu_fw_impl", fxc (k_fw_const m (e_elu K)));
  ("slice_fw_impl", fun xs u _ y => x <- idx xs 0 ;; k_slice_fw m x u y);
  ("pick_fw_impl", fun xs u _ y => x <- idx xs 0 ;; k_pick_fw m x u y);
  ("concat_fw_impl", fun xs u _ y => d <- idx u 0 ;; k_concat m xs (nat32 d) y);
  ("batch_concat_fw_impl", fun xs _ _ y => k_batch_concat m xs y);
  ("batch_pick_fw_impl", fun xs u _ y => x <- idx xs 0 ;; k_batch_pick_fw x u y);
  ("batch_slice_fw_impl", fun xs u _ y => x <- idx xs 0 ;; k_batch_slice_fw x u y);
  ("batch_sum_fw_impl", fx (k_batch_sum m)) ]%string.
(** device.rs L54-67 *)
Definition call_fw (name : string) xs u f y : res tensor :=
  match assoc fw_registry name with Some k => k xs u f y | None => Panic end.

(** ** tensor.rs / device.rs: creation and writing *)
(** Tensor::new L22-30, Device::new_tensor *)
Definition new_tensor (self : nat) (s : shape) : tensor := mkTensor (Some self) s None None.
(** Tensor::new_host_tensor L32-40 *)
Definition new_host_tensor (s : shape) (vs : list F) : tensor := mkTensor None s None (Some vs).
(** Tensor::alloc L50-54 *)
Definition alloc (al : alloc_oracle) (t : tensor) : res tensor :=
  _ <- assert (negb (valid t)) ;;
  _ <- assert (match t_host t with None => true | Some _ => false end) ;;
  d <- device_of t ;;
  sz <- size m (t_shape t) ;;
  l <- al sz ;;
  Ok (mkTensor (t_dev t) (t_shape t) (Some l) (t_host t)).
(** [let mut y = self.new_tensor(s); y.alloc();] *)
Definition new_alloc (self : nat) (al : alloc_oracle) (s : shape) : res tensor := alloc al (new_tensor self s).
(** device.rs L162-164 and tensor.rs L88-90 *)
Definition reset_tensor (x : tensor) (k : F) : res tensor := call_fw "reset_tensor_impl" [] [] [k] x.
Definition reset (x : tensor) (k : F) : res tensor := _ <- device_of x ;; reset_tensor x k.
(** device.rs L166-169 *)
Definition reset_tensor_by_slice (x : tensor) (vs : list F) : res tensor :=
  sz <- size m (t_shape x) ;; _ <- assert (nat32 sz =? length vs) ;;
  call_fw "reset_tensor_by_slice_impl" [] [] vs x.
(** device.rs L171-176 *)
Definition reset_tensor_by_tensor (x source : tensor) : res tensor :=
  _ <- assert (valid x) ;; _ <- assert (valid source) ;;
  sx <- size m (t_shape x) ;; ss <- size m (t_shape source) ;; _ <- assert (sx =? ss)%N ;;
  call_fw "reset_tensor_by_tensor_impl" [source] [] [] x.
(** device.rs L132-151 *)
Definition new_tensor_by_constant (self : nat) al (s : shape) (k : F) : res tensor :=
  t <- new_alloc self al s ;; reset t k.
Definition new_tensor_by_slice (self : nat) al (s : shape) (vs : list F) : res tensor :=
  t <- new_alloc self al s ;; reset_tensor_by_slice t vs.
Definition copy_tensor (self : nat) al (source : tensor) : res tensor :=
  t <- new_alloc self al (t_shape source) ;; reset_tensor_by_tensor t source.
(** tensor.rs L42-48. The old handle is overwritten (a leak if it was valid, see
    Lifecycle.v). *)
Definition move_to_device (self : nat) (al : alloc_oracle) (t : tensor) : res tensor :=
  _ <- assert (match t_host t with Some _ => true | None => false end) ;;
  sz <- size m (t_shape t) ;;
  l <- al sz ;;
  vs <- unwrap (t_host t) ;;
  reset_tensor_by_slice (mkTensor (Some self) (t_shape t) (Some l) None) vs.
(** tensor.rs L92-95 *)
Definition update_shape (t : tensor) (s : shape) : res tensor :=
  a <- size m s ;; b <- size m (t_shape t) ;; _ <- assert (a =? b)%N ;;
  Ok (mkTensor (t_dev t) s (t_buf t) (t_host t)).

(** ** functions.rs: the forward macros *)
(** define_fw_ab L1-12 *)
Definition define_fw_ab (name : string) (sop : shape -> shape -> res shape) (self : nat) (al : alloc_oracle) (a b : tensor) : res tensor :=
  _ <- check_dev self a ;; _ <- check_dev self b ;;
  s <- sop (t_shape a) (t_shape b) ;;
  y <- new_alloc self al s ;;
  call_fw name [a; b] [] [] y.
(** define_fw_const L46-56 *)
Definition define_fw_const (name : string) (self : nat) (al : alloc_oracle) (x : tensor) (k : F) : res tensor :=
  _ <- check_dev self x ;;
  y <- new_alloc self al (t_shape x) ;;
  call_fw name [x] [] [k] y.
(** define_fw_x L73-83 *)
Definition define_fw_x (name : string) (self : nat) (al : alloc_oracle) (x : tensor) : res tensor :=
  _ <- check_dev self x ;;
  y <- new_alloc self al (t_shape x) ;;
  call_fw name [x] [] [] y.

(** ** functions/arithmetic/device.rs L47-99: forward *)
Definition add_assign (self : nat) (x y : tensor) : res tensor :=
  _ <- check_dev self x ;; _ <- check_dev self y ;; call_fw "add_assign_impl" [x] [] [] y.
Definition sub_assign (self : nat) (x y : tensor) : res tensor :=
  _ <- check_dev self x ;; _ <- check_dev self y ;; call_fw "sub_assign_impl" [x] [] [] y.
Definition mul_assign_const (self : nat) (k : F) (y : tensor) : res tensor :=
  _ <- check_dev self y ;; call_fw "mul_assign_const_impl" [] [] [k] y.
Definition neg_fw := define_fw_x "neg_fw_impl".
Definition add_fw := define_fw_ab "add_fw_impl" so_elementwise.
Definition add_const_fw := define_fw_const "add_const_fw_impl".
Definition add_scalar_fw := define_fw_ab "add_scalar_fw_impl" so_scalar_op.
Definition sub_fw := define_fw_ab "sub_fw_impl" so_elementwise.
Definition sub_const_l_fw := define_fw_const "sub_const_l_fw_impl".
Definition sub_const_r_fw := define_fw_const "sub_const_r_fw_impl".
Definition sub_scalar_l_fw := define_fw_ab "sub_scalar_l_fw_impl" so_scalar_op.
Definition sub_scalar_r_fw := define_fw_ab "sub_scalar_r_fw_impl" so_scalar_op.
Definition mul_fw := define_fw_ab "mul_fw_impl" so_elementwise.
Definition mul_const_fw := define_fw_const "mul_const_fw_impl".
Definition mul_scalar_fw := define_fw_ab "mul_scalar_fw_impl" so_scalar_op.
Definition div_fw := define_fw_ab "div_fw_impl" so_elementwise.
Definition div_const_l_fw := define_fw_const "div_const_l_fw_impl".
Definition div_const_r_fw := define_fw_const "div_const_r_fw_impl".
Definition div_scalar_l_fw := define_fw_ab "div_scalar_l_fw_impl" so_scalar_op.
Definition div_scalar_r_fw := define_fw_ab "div_scalar_r_fw_impl" so_scalar_op.

(** ** functions/basic/device.rs: forward *)
(** L112-131; [x.shape[dim]] is positive, so the division does not panic *)
Definition argmax (self : nat) (x : tensor) (dim : N) : res (list N) :=
  _ <- check_dev self x ;; sz <- size m (t_shape x) ;;
  call_u32 "argmax_impl" [x] [dim] (repeat 0%N (nat32 (sz / index (t_shape x) (nat32 dim)))).
Definition argmin (self : nat) (x : tensor) (dim : N) : res (list N) :=
  _ <- check_dev self x ;; sz <- size m (t_shape x) ;;
  call_u32 "argmin_impl" [x] [dim] (repeat 0%N (nat32 (sz / index (t_shape x) (nat32 dim)))).
Definition argsort (self : nat) (x : tensor) (dim : N) : res (list N) :=
  _ <- check_dev self x ;; sz <- size m (t_shape x) ;;
  call_u32 "argsort_impl" [x] [dim] (repeat 0%N (nat32 sz)).
(** L135-139, L149-150 *)
Definition powf_fw := define_fw_ab "powf_fw_impl" so_elementwise.
Definition powf_const_l_fw := define_fw_const "powf_const_l_fw_impl".
Definition powf_const_r_fw := define_fw_const "powf_const_r_fw_impl".
Definition powf_scalar_l_fw := define_fw_ab "powf_scalar_l_fw_impl" so_scalar_op.
Definition powf_scalar_r_fw := define_fw_ab "powf_scalar_r_fw_impl" so_scalar_op.
(** L141-147 *)
Definition powi_fw (self : nat) (al : alloc_oracle) (x : tensor) (k : Z) : res tensor :=
  _ <- check_dev self x ;;
  y <- new_alloc self al (t_shape x) ;;
  call_fw "powi_fw_impl" [x] [as_u32 k] [] y.
Definition sqrt_fw := define_fw_x "sqrt_fw_impl".
Definition abs_fw := define_fw_x "abs_fw_impl".
(** L173-175, L183-187 *)
Definition sin_fw := define_fw_x "sin_fw_impl".
Definition cos_fw := define_fw_x "cos_fw_impl".
Definition tan_fw := define_fw_x "tan_fw_impl".
Definition exp_fw := define_fw_x "exp_fw_impl".
Definition ln_fw := define_fw_x "ln_fw_impl".
Definition tanh_fw := define_fw_x "tanh_fw_impl".
Definition sigmoid_fw := define_fw_x "sigmoid_fw_impl".
Definition softplus_fw := define_fw_x "softplus_fw_impl".
(** L196-226: the four reductions have the same body *)
Definition reduce_fw (name : string) (self : nat) (al : alloc_oracle) (x : tensor) (dim : N) : res tensor :=
  _ <- check_dev self x ;;
  s <- resize_dim m (t_shape x) (nat32 dim) 1 ;;
  y <- new_alloc self al s ;;
  call_fw name [x] [dim] [] y.
Definition sum_fw := reduce_fw "sum_fw_impl".
Definition max_fw := reduce_fw "max_fw_impl".
Definition min_fw := reduce_fw "min_fw_impl".
Definition logsumexp_fw := reduce_fw "logsumexp_fw_impl".
(** L228-234 *)
Definition broadcast_fw (self : nat) (al : alloc_oracle) (x : tensor) (dim n : N) : res tensor :=
  _ <- check_dev self x ;;
  s <- so_broadcast m (t_shape x) (nat32 dim) n ;;
  y <- new_alloc self al s ;;
  call_fw "broadcast_fw_impl" [x] [dim; n] [] y.
(** L260-267 *)
Definition matmul_fw (self : nat) (al : alloc_oracle) (a b : tensor) : res tensor :=
  _ <- check_dev self a ;; _ <- check_dev self b ;;
  s <- so_matmul m (t_shape a) (t_shape b) ;;
  y <- new_alloc self al s ;;
  call_fw "matmul_fw_impl" [a; b] [] [] y.
(** L269-275 *)
Definition transpose_fw (self : nat) (al : alloc_oracle) (x : tensor) : res tensor :=
  _ <- check_dev self x ;;
  s <- so_transpose m (t_shape x) ;;
  y <- new_alloc self al s ;;
  call_fw "transpose_fw_impl" [x] [] [] y.
(** L277-294 *)
Definition triangular_fw (name : string) (self : nat) (al : alloc_oracle) (x : tensor) (k : N) : res tensor :=
  _ <- check_dev self x ;;
  _ <- assert (is_matrix (t_shape x) && (index (t_shape x) 0 =? index (t_shape x) 1)%N) ;;
  y <- new_alloc self al (t_shape x) ;;
  call_fw name [x] [k] [] y.
Definition triangular_l_fw := triangular_fw "triangular_l_fw_impl".
Definition triangular_u_fw := triangular_fw "triangular_u_fw_impl".
(** L355-356 *)
Definition prelu_fw := define_fw_const "prelu_fw_impl".
Definition elu_fw := define_fw_const "elu_fw_impl".
(** L363-369 *)
Definition slice_fw (self : nat) (al : alloc_oracle) (x : tensor) (dim lower upper : N) : res tensor :=
  _ <- check_dev self x ;;
  s <- so_slice m (t_shape x) (nat32 dim) lower upper ;;
  y <- new_alloc self al s ;;
  call_fw "slice_fw_impl" [x] [dim; lower] [] y.
(** L371-380: u32data = dim followed by ids *)
Definition pick_fw (self : nat) (al : alloc_oracle) (x : tensor) (ids : list N) (dim : N) : res tensor :=
  _ <- check_dev self x ;;
  s <- so_pick m (t_shape x) ids (nat32 dim) ;;
  y <- new_alloc self al s ;;
  call_fw "pick_fw_impl" [x] (dim :: ids) [] y.
(** L382-393 *)
Definition concat_fw (self : nat) (al : alloc_oracle) (xs : list tensor) (dim : N) : res tensor :=
  _ <- assert (negb (length xs =? 0)) ;;
  _ <- forL xs (fun x (_ : unit) => check_dev self x) tt ;;
  s <- so_concat m (map t_shape xs) (nat32 dim) ;;
  y <- new_alloc self al s ;;
  call_fw "concat_fw_impl" xs [dim] [] y.
(** L415-421 *)
Definition batch_sum_fw (self : nat) (al : alloc_oracle) (x : tensor) : res tensor :=
  _ <- check_dev self x ;;
  s <- resize_batch (t_shape x) 1 ;;
  y <- new_alloc self al s ;;
  call_fw "batch_sum_fw_impl" [x] [] [] y.
(** L423-435 *)
Definition batch_slice_fw (self : nat) (al : alloc_oracle) (x : tensor) (lower upper : N) : res tensor :=
  _ <- check_dev self x ;;
  s <- so_batch_slice (t_shape x) lower upper ;;
  y <- new_alloc self al s ;;
  call_fw "batch_slice_fw_impl" [x] [lower; upper] [] y.
(** L437-443 *)
Definition batch_pick_fw (self : nat) (al : alloc_oracle) (x : tensor) (ids : list N) : res tensor :=
  _ <- check_dev self x ;;
  s <- so_batch_pick (t_shape x) ids ;;
  y <- new_alloc self al s ;;
  call_fw "batch_pick_fw_impl" [x] ids [] y.
(** L445-456 *)
Definition batch_concat_fw (self : nat) (al : alloc_oracle) (xs : list tensor) : res tensor :=
  _ <- assert (negb (length xs =? 0)) ;;
  _ <- forL xs (fun x (_ : unit) => check_dev self x) tt ;;
  s <- so_batch_concat m (map t_shape xs) ;;
  y <- new_alloc self al s ;;
  call_fw "batch_concat_fw_impl" xs [] [] y.

(** ** functions/arithmetic/tensor.rs: operator syntax *)
Definition via1 (f : nat -> alloc_oracle -> tensor -> res tensor) (al : alloc_oracle) (x : tensor) : res tensor :=
  d <- device_of x ;; f d al x.
(** L13-41: [y += x], [y -= x], [y *= k]; the device is that of the left operand *)
Definition t_add_assign (y x : tensor) : res tensor := d <- device_of y ;; add_assign d x y.
Definition t_sub_assign (y x : tensor) : res tensor := d <- device_of y ;; sub_assign d x y.
Definition t_mul_assign (y : tensor) (k : F) : res tensor := d <- device_of y ;; mul_assign_const d k y.
(** L43-55 *)
Definition t_neg := via1 neg_fw.
(** define_ab_op L57-113: the four impls (by value or reference) have the same body *)
Definition define_ab_op (fw scalar_l scalar_r : nat -> alloc_oracle -> tensor -> tensor -> res tensor)
    (al : alloc_oracle) (a b : tensor) : res tensor :=
  if is_scalar (t_shape a) then d <- device_of a ;; scalar_l d al b a
  else if is_scalar (t_shape b) then d <- device_of a ;; scalar_r d al a b
  else d <- device_of a ;; fw d al a b.
Definition t_add := define_ab_op add_fw add_scalar_fw add_scalar_fw.
Definition t_sub := define_ab_op sub_fw sub_scalar_l_fw sub_scalar_r_fw.
Definition t_mul := define_ab_op mul_fw mul_scalar_fw mul_scalar_fw.
Definition t_div := define_ab_op div_fw div_scalar_l_fw div_scalar_r_fw.
(** define_const_op L115-171: tensor op f32, and f32 op tensor *)
Definition const_r (f : nat -> alloc_oracle -> tensor -> F -> res tensor) (al : alloc_oracle) (x : tensor) (k : F) : res tensor :=
  d <- device_of x ;; f d al x k.
Definition const_l (f : nat -> alloc_oracle -> tensor -> F -> res tensor) (al : alloc_oracle) (k : F) (x : tensor) : res tensor :=
  d <- device_of x ;; f d al x k.
Definition t_add_const := const_r add_const_fw.
Definition t_const_add := const_l add_const_fw.
Definition t_sub_const := const_r sub_const_r_fw.
Definition t_const_sub := const_l sub_const_l_fw.
Definition t_mul_const := const_r mul_const_fw.
Definition t_const_mul := const_l mul_const_fw.
Definition t_div_const := const_r div_const_r_fw.
Definition t_const_div := const_l div_const_l_fw.

(** ** functions/basic/tensor.rs L23-231 *)
Definition t_argmax (x : tensor) (dim : N) := d <- device_of x ;; argmax d x dim.
Definition t_argmin (x : tensor) (dim : N) := d <- device_of x ;; argmin d x dim.
Definition t_argsort (x : tensor) (dim : N) := d <- device_of x ;; argsort d x dim.
Definition t_pow (al : alloc_oracle) (x k : tensor) := d <- device_of x ;; powf_fw d al x k.
Definition t_powf := const_r powf_const_r_fw.
Definition t_powi (al : alloc_oracle) (x : tensor) (k : Z) := d <- device_of x ;; powi_fw d al x k.
Definition t_sqrt := via1 sqrt_fw.
Definition t_abs := via1 abs_fw.
Definition t_sin := via1 sin_fw.
Definition t_cos := via1 cos_fw.
Definition t_tan := via1 tan_fw.
Definition t_exp := via1 exp_fw.
Definition t_ln := via1 ln_fw.
Definition t_tanh := via1 tanh_fw.
Definition t_sigmoid := via1 sigmoid_fw.
Definition t_softplus := via1 softplus_fw.
Definition t_sum (al : alloc_oracle) (x : tensor) (dim : N) := d <- device_of x ;; sum_fw d al x dim.
Definition t_max (al : alloc_oracle) (x : tensor) (dim : N) := d <- device_of x ;; max_fw d al x dim.
Definition t_min (al : alloc_oracle) (x : tensor) (dim : N) := d <- device_of x ;; min_fw d al x dim.
Definition t_broadcast (al : alloc_oracle) (x : tensor) (dim n : N) := d <- device_of x ;; broadcast_fw d al x dim n.
Definition t_logsumexp (al : alloc_oracle) (x : tensor) (dim : N) := d <- device_of x ;; logsumexp_fw d al x dim.
(** L115-117 *)
Definition t_ln_softmax (als : nat -> alloc_oracle) (x : tensor) (dim : N) : res tensor :=
  l <- t_logsumexp (als 0) x dim ;;
  b <- t_broadcast (als 1) l dim (index (t_shape x) (nat32 dim)) ;;
  t_sub (als 2) x b.
(** L119-121 *)
Definition t_softmax (als : nat -> alloc_oracle) (x : tensor) (dim : N) : res tensor :=
  y <- t_ln_softmax als x dim ;; t_exp (als 3) y.
(** L123-125 *)
Definition t_softmax_cross_entropy (als : nat -> alloc_oracle) (x t : tensor) (dim : N) : res tensor :=
  y <- t_ln_softmax als x dim ;; z <- t_mul (als 3) t y ;; s <- t_sum (als 4) z dim ;; t_neg (als 5) s.
(** L127-129 *)
Definition t_pick (al : alloc_oracle) (x : tensor) (ids : list N) (dim : N) := d <- device_of x ;; pick_fw d al x ids dim.
Definition t_sparse_softmax_cross_entropy (als : nat -> alloc_oracle) (x : tensor) (ids : list N) (dim : N) : res tensor :=
  y <- t_ln_softmax als x dim ;; p <- t_pick (als 3) y ids dim ;; t_neg (als 4) p.
(** L133-147 *)
Definition t_matmul (al : alloc_oracle) (a b : tensor) := d <- device_of a ;; matmul_fw d al a b.
Definition t_transpose := via1 transpose_fw.
Definition t_triangular_l (al : alloc_oracle) (x : tensor) (k : N) := d <- device_of x ;; triangular_l_fw d al x k.
Definition t_triangular_u (al : alloc_oracle) (x : tensor) (k : N) := d <- device_of x ;; triangular_u_fw d al x k.
(** L151-165 *)
Definition t_relu (al : alloc_oracle) (x : tensor) := d <- device_of x ;; prelu_fw d al x n0.
Definition t_lrelu (al : alloc_oracle) (x : tensor) := d <- device_of x ;; prelu_fw d al x nc001.
Definition t_prelu := const_r prelu_fw.
Definition t_elu := const_r elu_fw.
(** L169-171 *)
Definition t_slice (al : alloc_oracle) (x : tensor) (dim lower upper : N) := d <- device_of x ;; slice_fw d al x dim lower upper.
(** [total / n] (n = 0 panics), [skip * n == total]: the products are bounded by
    [total], so u32 arithmetic does not overflow *)
Definition split_skip (total n : N) : res N :=
  _ <- assert (negb (n =? 0)%N) ;; let skip := (total / n)%N in _ <- assert (skip * n =? total)%N ;; Ok skip.
(** L173-182 *)
Definition t_split (als : nat -> alloc_oracle) (x : tensor) (dim n : N) : res (list tensor) :=
  skip <- split_skip (index (t_shape x) (nat32 dim)) n ;;
  forN (nat32 n) (fun i ret =>
    y <- t_slice (als i) x dim (N.of_nat i * skip) ((N.of_nat i + 1) * skip) ;; Ok (ret ++ [y])) [].
(** L188-190: [xs[0]] panics on an empty slice *)
Definition t_concat (al : alloc_oracle) (xs : list tensor) (dim : N) : res tensor :=
  x0 <- idx xs 0 ;; d <- device_of x0 ;; concat_fw d al xs dim.
(** L192-196 *)
Definition t_reshape (al : alloc_oracle) (x : tensor) (s : shape) : res tensor :=
  d <- device_of x ;; t <- copy_tensor d al x ;; update_shape t s.
(** L198-201 *)
Definition t_flatten (al : alloc_oracle) (x : tensor) : res tensor :=
  s <- shape_new m [volume (t_shape x)] (batch (t_shape x)) ;; t_reshape al x s.
(** L205-231 *)
Definition t_batch_sum := via1 batch_sum_fw.
Definition t_batch_slice (al : alloc_oracle) (x : tensor) (lower upper : N) := d <- device_of x ;; batch_slice_fw d al x lower upper.
Definition t_batch_split (als : nat -> alloc_oracle) (x : tensor) (n : N) : res (list tensor) :=
  skip <- split_skip (batch (t_shape x)) n ;;
  forN (nat32 n) (fun i ret =>
    y <- t_batch_slice (als i) x (N.of_nat i * skip) ((N.of_nat i + 1) * skip) ;; Ok (ret ++ [y])) [].
Definition t_batch_pick (al : alloc_oracle) (x : tensor) (ids : list N) := d <- device_of x ;; batch_pick_fw d al x ids.
Definition t_batch_concat (al : alloc_oracle) (xs : list tensor) : res tensor :=
  _ <- assert (negb (length xs =? 0)) ;; x0 <- idx xs 0 ;; d <- device_of x0 ;; batch_concat_fw d al xs.

(** ** Backward kernels as registered objects *)
(** device_impl.rs FunctionBwImpl::call. [als]: buffers for the kernels that
    compute intermediate tensors. *)
Definition kbw := (nat -> alloc_oracle) -> list tensor -> list tensor -> list tensor -> list N -> list F -> tensor -> res tensor.
Definition bx (k : tensor -> tensor -> tensor -> tensor -> res tensor) : kbw :=
  fun _ xs ys gys _ _ gx => x <- idx xs 0 ;; y <- idx ys 0 ;; gy <- idx gys 0 ;; k x y gy gx.
Definition bxc (k : tensor -> tensor -> tensor -> F -> tensor -> res tensor) : kbw :=
  fun _ xs ys gys _ f gx => x <- idx xs 0 ;; y <- idx ys 0 ;; gy <- idx gys 0 ;; c <- idx f 0 ;; k x y gy c gx.

(** matmul.rs L56-90 *)
Definition k_matmul_bw_a (als : nat -> alloc_oracle) (b gy ga : tensor) : res tensor :=
  dg <- device_of gy ;; db <- device_of b ;;
  bt <- transpose_fw db (als 0) b ;;
  p <- matmul_fw dg (als 1) gy bt ;;
  t_add_assign ga p.
Definition k_matmul_bw_b (als : nat -> alloc_oracle) (a gy gb : tensor) : res tensor :=
  da <- device_of a ;;
  at' <- transpose_fw da (als 0) a ;;
  p <- matmul_fw da (als 1) at' gy ;;
  t_add_assign gb p.
(** transpose.rs L36-50 *)
Definition k_transpose_bw (als : nat -> alloc_oracle) (gy gx : tensor) : res tensor :=
  t <- t_transpose (als 0) gy ;; t_add_assign gx t.
(** triangular_l.rs L29-44, triangular_u.rs L29-44 *)
Definition k_triangular_bw (upper : bool) (als : nat -> alloc_oracle) (gy : tensor) (k : N) (gx : tensor) : res tensor :=
  t <- (if upper then t_triangular_u (als 0) gy k else t_triangular_l (als 0) gy k) ;; t_add_assign gx t.

(** devices/naive.rs L89-308, the backward registrations. There is none for
    "neg_bw_impl". *)
Definition bw_registry : list (string * kbw) := [
  ("add_bw_a_impl", fun _ _ _ gys _ _ ga => gy <- idx gys 0 ;; k_bw_lin (nadd K) gy ga);
  ("add_bw_b_impl", fun _ _ _ gys _ _ gb => gy <- idx gys 0 ;; k_bw_lin (nadd K) gy gb);
  ("add_const_bw_impl", bxc (k_bw_const m (e_add_const_bw K)));
  ("sub_bw_a_impl", fun _ _ _ gys _ _ ga => gy <- idx gys 0 ;; k_bw_lin (nadd K) gy ga);
  ("sub_bw_b_impl", fun _ _ _ gys _ _ gb => gy <- idx gys 0 ;; k_bw_lin (nsub K) gy gb);
  ("sub_const_l_bw_impl", bxc (k_bw_const m (e_sub_const_l_bw K)));
  ("sub_const_r_bw_impl", bxc (k_bw_const m (e_sub_const_r_bw K)));
  ("mul_bw_a_impl", fun _ xs _ gys _ _ ga => b <- idx xs 1 ;; gy <- idx gys 0 ;; k_bw_other (e_mul_bw_a K) b gy ga);
  ("mul_bw_b_impl", fun _ xs _ gys _ _ gb => a <- idx xs 0 ;; gy <- idx gys 0 ;; k_bw_other (e_mul_bw_b K) a gy gb);
  ("mul_const_bw_impl", bxc (k_bw_const m (e_mul_const_bw K)));
  ("div_bw_a_impl", fun _ xs _ gys _ _ ga => b <- idx xs 1 ;; gy <- idx gys 0 ;; k_bw_other (e_div_bw_a K) b gy ga);
  ("div_bw_b_impl", fun _ xs ys gys _ _ gb => b <- idx xs 1 ;; y <- idx ys 0 ;; gy <- idx gys 0 ;; k_div_bw_b b y gy gb);
  ("div_const_l_bw_impl", bxc (k_bw_const m (e_div_const_l_bw K)));
  ("div_const_r_bw_impl", bxc (k_bw_const m (e_div_const_r_bw K)));
  ("powf_bw_a_impl", fun _ xs _ gys _ _ ga => a <- idx xs 0 ;; b <- idx xs 1 ;; gy <- idx gys 0 ;; k_powf_bw_a a b gy ga);
  ("powf_bw_b_impl", fun _ xs ys gys _ _ gb => a <- idx xs 0 ;; y <- idx ys 0 ;; gy <- idx gys 0 ;; k_powf_bw_b a y gy gb);
  ("powf_const_l_bw_impl", bxc (k_bw_const m (e_powf_const_l_bw K)));
  ("powf_const_r_bw_impl", bxc (k_bw_const m (e_powf_const_r_bw K)));
  ("sqrt_bw_impl", bx (k_bw_x m (e_sqrt_bw K)));
  ("abs_bw_impl", bx (k_bw_x m (e_abs_bw K)));
  ("powi_bw_impl", fun _ xs _ gys u _ gx => x <- idx xs 0 ;; gy <- idx gys 0 ;; k_powi_bw m x gy u gx);
  ("sin_bw_impl", bx (k_bw_x m (e_sin_bw K)));
  ("cos_bw_impl", bx (k_bw_x m (e_cos_bw K)));
  ("tan_bw_impl", bx (k_bw_x m (e_tan_bw K)));
  ("exp_bw_impl", bx (k_bw_x m (e_exp_bw K)));
  ("ln_bw_impl", bx (k_bw_x m (e_ln_bw K)));
  ("tanh_bw_impl", bx (k_bw_x m (e_tanh_bw K)));
  ("sigmoid_bw_impl", bx (k_bw_x m (e_sigmoid_bw K)));
  ("max_bw_impl", fun _ xs ys gys u _ gx => x <- idx xs 0 ;; y <- idx ys 0 ;; gy <- idx gys 0 ;; d <- idx u 0 ;; k_extremum_bw m x y gy (nat32 d) gx);
  ("min_bw_impl", fun _ xs ys gys u _ gx => x <- idx xs 0 ;; y <- idx ys 0 ;; gy <- idx gys 0 ;; d <- idx u 0 ;; k_extremum_bw m x y gy (nat32 d) gx);
  ("matmul_bw_a_impl", fun als xs _ gys _ _ ga => b <- idx xs 1 ;; gy <- idx gys 0 ;; k_matmul_bw_a als b gy ga);
  ("matmul_bw_b_impl", fun als xs _ gys _ _ gb => a <- idx xs 0 ;; gy <- idx gys 0 ;; k_matmul_bw_b als a gy gb);
  ("transpose_bw_impl", fun als _ _ gys _ _ gx => gy <- idx gys 0 ;; k_transpose_bw als gy gx);
  ("permute_dims_bw_impl", fun _ _ _ gys u _ gx => gy <- idx gys 0 ;; k_permute_bw gy u gx);
  ("flip_bw_impl", fun _ _ _ gys u _ gx => gy <- idx gys 0 ;; d <- idx u 0 ;; k_flip_bw m gy (nat32 d) gx);
  ("triangular_l_bw_impl", fun als _ _ gys u _ gx => gy <- idx gys 0 ;; k <- idx u 0 ;; k_triangular_bw false als gy k gx);
  ("triangular_u_bw_impl", fun als _ _ gys u _ gx => gy <- idx gys 0 ;; k <- idx u 0 ;; k_triangular_bw true als gy k gx);
  ("prelu_bw_impl", bxc (k_bw_const m (e_prelu_bw K)));
  ("elu_bw_impl", bxc (k_bw_const m (e_elu_bw K)));
  ("slice_bw_impl", fun _ _ _ gys u _ gx => gy <- idx gys 0 ;; k_slice_bw m gy u gx);
  ("pick_bw_impl", fun _ _ _ gys u _ gx => gy <- idx gys 0 ;; k_pick_bw m gy u gx);
  ("batch_pick_bw_impl", fun _ _ _ gys u _ gx => gy <- idx gys 0 ;; k_batch_pick_bw gy u gx);
  ("batch_slice_bw_impl", fun _ _ _ gys u _ gx => gy <- idx gys 0 ;; k_batch_slice_bw gy u gx) ]%string.
(** device.rs L99-114 *)
Definition call_bw (als : nat -> alloc_oracle) (name : string) xs ys gys u f gx : res tensor :=
  match assoc bw_registry name with Some k => k als xs ys gys u f gx | None => Panic end.

(** ** functions.rs: the backward macros *)
Definition same_shape (a b : tensor) : res unit := assert (shape_eqb (t_shape a) (t_shape b)).
(** define_bw_ab_a L14-28 *)
Definition define_bw_ab_a (name : string) (sop : shape -> shape -> res shape) (als : nat -> alloc_oracle)
    (self : nat) (a b y gy ga : tensor) : res tensor :=
  _ <- check_dev self a ;; _ <- check_dev self b ;; _ <- check_dev self y ;; _ <- check_dev self gy ;; _ <- check_dev self ga ;;
  _ <- same_shape a ga ;; _ <- same_shape y gy ;;
  s <- sop (t_shape a) (t_shape b) ;; _ <- assert (shape_eqb (t_shape y) s) ;;
  call_bw als name [a; b] [y] [gy] [] [] ga.
(** define_bw_ab_b L30-44 *)
Definition define_bw_ab_b (name : string) (sop : shape -> shape -> res shape) (als : nat -> alloc_oracle)
    (self : nat) (a b y gy gb : tensor) : res tensor :=
  _ <- check_dev self a ;; _ <- check_dev self b ;; _ <- check_dev self y ;; _ <- check_dev self gy ;; _ <- check_dev self gb ;;
  _ <- same_shape b gb ;; _ <- same_shape y gy ;;
  s <- sop (t_shape a) (t_shape b) ;; _ <- assert (shape_eqb (t_shape y) s) ;;
  call_bw als name [a; b] [y] [gy] [] [] gb.
(** the common assertions of define_bw_const L58-71, define_bw_x L85-98, powi_bw, triangular_*_bw *)
Definition bw_x_checks (self : nat) (x y gy gx : tensor) : res unit :=
  _ <- check_dev self x ;; _ <- check_dev self y ;; _ <- check_dev self gy ;; _ <- check_dev self gx ;;
  _ <- same_shape x gx ;; _ <- same_shape y gy ;; same_shape x y.
Definition no_als : nat -> alloc_oracle := fun _ _ => Panic.
Definition define_bw_const (name : string) (self : nat) (x y gy : tensor) (k : F) (gx : tensor) : res tensor :=
  _ <- bw_x_checks self x y gy gx ;; call_bw no_als name [x] [y] [gy] [] [k] gx.
Definition define_bw_x (name : string) (self : nat) (x y gy gx : tensor) : res tensor :=
  _ <- bw_x_checks self x y gy gx ;; call_bw no_als name [x] [y] [gy] [] [] gx.

(** ** arithmetic/device.rs L64-99: backward *)
Definition neg_bw := define_bw_x "neg_bw_impl".
Definition add_bw_a := define_bw_ab_a "add_bw_a_impl" so_elementwise no_als.
Definition add_bw_b := define_bw_ab_b "add_bw_b_impl" so_elementwise no_als.
Definition add_const_bw := define_bw_const "add_const_bw_impl".
Definition sub_bw_a := define_bw_ab_a "sub_bw_a_impl" so_elementwise no_als.
Definition sub_bw_b := define_bw_ab_b "sub_bw_b_impl" so_elementwise no_als.
Definition sub_const_l_bw := define_bw_const "sub_const_l_bw_impl".
Definition sub_const_r_bw := define_bw_const "sub_const_r_bw_impl".
Definition mul_bw_a := define_bw_ab_a "mul_bw_a_impl" so_elementwise no_als.
Definition mul_bw_b := define_bw_ab_b "mul_bw_b_impl" so_elementwise no_als.
Definition mul_const_bw := define_bw_const "mul_const_bw_impl".
Definition div_bw_a := define_bw_ab_a "div_bw_a_impl" so_elementwise no_als.
Definition div_bw_b := define_bw_ab_b "div_bw_b_impl" so_elementwise no_als.
Definition div_const_l_bw := define_bw_const "div_const_l_bw_impl".
Definition div_const_r_bw := define_bw_const "div_const_r_bw_impl".

(** ** basic/device.rs: backward *)
(** L152-155 *)
Definition powf_bw_a := define_bw_ab_a "powf_bw_a_impl" so_elementwise no_als.
Definition powf_bw_b := define_bw_ab_b "powf_bw_b_impl" so_elementwise no_als.
Definition powf_const_l_bw := define_bw_const "powf_const_l_bw_impl".
Definition powf_const_r_bw := define_bw_const "powf_const_r_bw_impl".
(** L157-166 *)
Definition powi_bw (self : nat) (x y gy : tensor) (k : Z) (gx : tensor) : res tensor :=
  _ <- bw_x_checks self x y gy gx ;; call_bw no_als "powi_bw_impl" [x] [y] [gy] [as_u32 k] [] gx.
(** L168-192 *)
Definition sqrt_bw := define_bw_x "sqrt_bw_impl".
Definition abs_bw := define_bw_x "abs_bw_impl".
Definition sin_bw := define_bw_x "sin_bw_impl".
Definition cos_bw := define_bw_x "cos_bw_impl".
Definition tan_bw := define_bw_x "tan_bw_impl".
Definition exp_bw := define_bw_x "exp_bw_impl".
Definition ln_bw := define_bw_x "ln_bw_impl".
Definition tanh_bw := define_bw_x "tanh_bw_impl".
Definition sigmoid_bw := define_bw_x "sigmoid_bw_impl".
(** L236-256 *)
Definition extremum_bw (name : string) (self : nat) (x y gy : tensor) (dim : N) (gx : tensor) : res tensor :=
  _ <- check_dev self x ;; _ <- check_dev self y ;; _ <- check_dev self gy ;; _ <- check_dev self gx ;;
  _ <- same_shape x gx ;; _ <- same_shape y gy ;;
  s <- resize_dim m (t_shape x) (nat32 dim) 1 ;; _ <- assert (shape_eqb (t_shape y) s) ;;
  call_bw no_als name [x] [y] [gy] [dim] [] gx.
Definition max_bw := extremum_bw "max_bw_impl".
Definition min_bw := extremum_bw "min_bw_impl".
(** L296-318 *)
Definition matmul_bw_a := define_bw_ab_a "matmul_bw_a_impl" (so_matmul m).
Definition matmul_bw_b := define_bw_ab_b "matmul_bw_b_impl" (so_matmul m).
(** L320-329 *)
Definition transpose_bw (als : nat -> alloc_oracle) (self : nat) (x y gy gx : tensor) : res tensor :=
  _ <- check_dev self x ;; _ <- check_dev self y ;; _ <- check_dev self gy ;; _ <- check_dev self gx ;;
  _ <- same_shape x gx ;; _ <- same_shape y gy ;;
  s <- so_transpose m (t_shape x) ;; _ <- assert (shape_eqb (t_shape y) s) ;;
  call_bw als "transpose_bw_impl" [x] [y] [gy] [] [] gx.
(** L331-351 *)
Definition triangular_bw (name : string) (als : nat -> alloc_oracle) (self : nat) (x y gy : tensor) (k : N) (gx : tensor) : res tensor :=
  _ <- check_dev self x ;; _ <- check_dev self y ;; _ <- check_dev self gy ;; _ <- check_dev self gx ;;
  _ <- same_shape x gx ;; _ <- same_shape y gy ;; _ <- same_shape y x ;;
  call_bw als name [x] [y] [gy] [k] [] gx.
Definition triangular_l_bw := triangular_bw "triangular_l_bw_impl".
Definition triangular_u_bw := triangular_bw "triangular_u_bw_impl".
(** L358-359 *)
Definition prelu_bw := define_bw_const "prelu_bw_impl".
Definition elu_bw := define_bw_const "elu_bw_impl".
(** L395-401 *)
Definition slice_bw (self : nat) (gy : tensor) (dim lower : N) (gx : tensor) : res tensor :=
  _ <- check_dev self gy ;; _ <- check_dev self gx ;;
  upper <- add32 m lower (index (t_shape gy) (nat32 dim)) ;;
  s <- so_slice m (t_shape gx) (nat32 dim) lower upper ;;
  _ <- assert (shape_eqb s (t_shape gy)) ;;
  call_bw no_als "slice_bw_impl" [] [] [gy] [dim; lower] [] gx.
(** L403-411 *)
Definition pick_bw (self : nat) (gy : tensor) (ids : list N) (dim : N) (gx : tensor) : res tensor :=
  _ <- check_dev self gy ;; _ <- check_dev self gx ;;
  s <- so_pick m (t_shape gx) ids (nat32 dim) ;;
  _ <- assert (shape_eqb s (t_shape gy)) ;;
  call_bw no_als "pick_bw_impl" [] [] [gy] (dim :: ids) [] gx.
(** L458-464 *)
Definition batch_slice_bw (self : nat) (gy : tensor) (lower : N) (gx : tensor) : res tensor :=
  _ <- check_dev self gy ;; _ <- check_dev self gx ;;
  upper <- add32 m lower (batch (t_shape gy)) ;;
  s <- so_batch_slice (t_shape gx) lower upper ;;
  _ <- assert (shape_eqb s (t_shape gy)) ;;
  call_bw no_als "slice_bw_impl" [] [] [gy] [lower] [] gx.
(** L466-471 *)
Definition batch_pick_bw (self : nat) (gy : tensor) (ids : list N) (gx : tensor) : res tensor :=
  _ <- check_dev self gy ;; _ <- check_dev self gx ;;
  s <- so_batch_pick (t_shape gx) ids ;;
  _ <- assert (shape_eqb s (t_shape gy)) ;;
  call_bw no_als "pick_bw_impl" [] [] [gy] ids [] gx.

End Api.
