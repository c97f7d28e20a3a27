(** * Contrib: the functions of prima_undine_contrib on tensors
    (prima_undine_contrib/src/functions/contrib/tensor.rs) *)
From Verif Require Export Init ApiComp.
Set Implicit Arguments.
Unset Strict Implicit.

Section Contrib.
Variable K : num.
Notation F := (F K).
Notation tensor := (tensor K).
Notation "x /. y" := (ndiv K x y) (at level 40, left associativity).
Notation "x -. y" := (nsub K x y) (at level 50, left associativity).
Variable m : build.
(** [als i]: the allocator of the i-th temporary *)
Notation allocs := (nat -> alloc_oracle K).
(** contrib/tensor.rs L10-12 *)
Definition c_mean (als : allocs) (x : tensor) (dim : N) : res tensor :=
  s <- t_sum m (als 0) x dim ;; t_div_const m (als 1) s (nofZ K (Z.of_N (index (t_shape x) (N.to_nat dim)))).
(** L14-16 *)
Definition c_batch_mean (als : allocs) (x : tensor) : res tensor :=
  s <- t_batch_sum m (als 0) x ;; t_div_const m (als 1) s (nofZ K (Z.of_N (batch (t_shape x)))).
(** L18-27 *)
Definition c_dropout (als : allocs) (r : randomizer K) (x : tensor) (rate : F) (enabled : bool) : res tensor :=
  if negb enabled then t_const_mul m (als 0) n1 x
  else if nle K n1 rate then t_const_mul m (als 0) n0 x
  else let p := n1 -. rate in
    y <- t_const_mul m (als 0) (n1 /. p) x ;;
    d <- device_of x ;; rb <- random_bernoulli m d (als 1) r (t_shape x) p ;;
    t_mul m (als 2) y rb.
(** L29-40 *)
Definition c_dropout_dim (als : allocs) (r : randomizer K) (x : tensor) (dim : N) (rate : F) (enabled : bool) : res tensor :=
  if negb enabled then t_const_mul m (als 0) n1 x
  else if nle K n1 rate then t_const_mul m (als 0) n0 x
  else let p := n1 -. rate in
    s <- resize_dim m (t_shape x) (N.to_nat dim) 1 ;;
    d <- device_of x ;; rb <- random_bernoulli m d (als 0) r s p ;;
    y <- t_const_mul m (als 1) (n1 /. p) x ;;
    rb' <- t_broadcast m (als 2) rb dim (index (t_shape x) (N.to_nat dim)) ;;
    t_mul m (als 3) y rb'.
(** L42-49; [als 0] for the zero tensor, [als (i+1)] for the i-th sum *)
Fixpoint c_sum_loop (als : allocs) (i : nat) (ret : tensor) (xs : list tensor) : res tensor :=
  match xs with [] => Ok ret | x :: xs' => ret' <- t_add m (als i) ret x ;; c_sum_loop als (S i) ret' xs' end.
Definition c_slice_sum (als : allocs) (xs : list tensor) : res tensor :=
  _ <- assert (negb (length xs =? 0)) ;;
  x0 <- idx xs 0 ;; d <- device_of x0 ;;
  ret <- new_tensor_by_constant m d (als 0) (t_shape x0) n0 ;;
  c_sum_loop als 1 ret xs.
(** L51-61 and L63-69; [mean] is the function that takes the mean, [als i k]: the k-th temporary of step i *)
Definition c_normalize (mean : allocs -> tensor -> res tensor) (als : nat -> allocs) (x g b : tensor) (eps : F) : res tensor :=
  mu <- mean (als 0) x ;;
  shift <- t_sub m (als 1 0) x mu ;;
  sq <- t_mul m (als 1 1) shift shift ;;
  v0 <- mean (als 2) sq ;;
  v <- t_add_const m (als 3 0) v0 eps ;;
  num <- t_sub m (als 3 1) x mu ;;
  den <- t_sqrt m (als 3 2) v ;;
  xh <- t_div m (als 3 3) num den ;;
  gx <- t_mul m (als 3 4) g xh ;;
  t_add m (als 3 5) gx b.
Definition c_batch_normalization (als : nat -> allocs) (x g b : tensor) (eps : F) (enabled : bool) : res tensor :=
  if enabled then c_normalize c_batch_mean als x g b eps else t_const_mul m (als 0 0) n1 x.
Definition c_flat_mean (als : allocs) (x : tensor) : res tensor := f <- t_flatten m (als 2) x ;; c_mean als f 0.
Definition c_layer_normalization (als : nat -> allocs) (x g b : tensor) (eps : F) : res tensor :=
  c_normalize c_flat_mean als x g b eps.
End Contrib.
