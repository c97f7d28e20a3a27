(** * NodeContrib: the functions of prima_undine_contrib on graph nodes
    (prima_undine_contrib/src/functions/contrib/node.rs) *)
From Verif Require Export Contrib Ops.
Set Implicit Arguments.
Unset Strict Implicit.

Section NodeContrib.
Variable K : num.
Notation F := (F K).
Notation tensor := (tensor K).
Notation "x /. y" := (ndiv K x y) (at level 40, left associativity).
Notation "x -. y" := (nsub K x y) (at level 50, left associativity).
Variable m : build.
Notation itp := (@interp K m).
Notation graph := (graph K (oper K)).
Notation node := (nat * nat)%type.
Notation buffers := (buffers K).
(** [bss i]: the buffers of the i-th operator; [al], [al']: those of the tensors made outside the graph *)
Notation many := (nat -> buffers).
(** the shape a node has (graph.rs: Node::shape) *)
Definition n_shape (g : graph) (x : node) : res shape := v <- value_of g x ;; Ok (t_shape v).
(** contrib/node.rs L12-14 *)
Definition n_mean dim (g : graph) (bss : many) (x : node) : res (graph * node) :=
  ' (g1, y) <- n_sum m dim g (bss 0) x ;; s <- n_shape g1 x ;; n_div_const m (nofZ K (Z.of_N (index s (N.to_nat dim)))) g1 (bss 1) y.
(** L16-18 *)
Definition n_batch_mean (g : graph) (bss : many) (x : node) : res (graph * node) :=
  ' (g1, y) <- n_batch_sum m g (bss 0) x ;; s <- n_shape g1 x ;; n_div_const m (nofZ K (Z.of_N (batch s))) g1 (bss 1) y.
(** L20-29 *)
Definition n_dropout (g : graph) (bss : many) (al : alloc_oracle K) (r : randomizer K) (x : node) (rate : F) (enabled : bool) : res (graph * node) :=
  if negb enabled then n_mul_const m n1 g (bss 0) x
  else if nle K n1 rate then n_mul_const m n0 g (bss 0) x
  else let p := n1 -. rate in
    ' (g1, y) <- n_mul_const m (n1 /. p) g (bss 0) x ;;
    d <- device_at itp g1 x ;; s <- n_shape g1 x ;; rb <- random_bernoulli m d al r s p ;;
    ' (g2, z) <- n_input_owner m g1 (bss 1) rb ;;
    n_mul m g2 (bss 2) y z.
(** L31-42 *)
Definition n_dropout_dim (g : graph) (bss : many) (al al' : alloc_oracle K) (r : randomizer K) (x : node) (dim : N) (rate : F) (enabled : bool) : res (graph * node) :=
  if negb enabled then n_mul_const m n1 g (bss 0) x
  else if nle K n1 rate then n_mul_const m n0 g (bss 0) x
  else let p := n1 -. rate in
    s <- n_shape g x ;; sm <- resize_dim m s (N.to_nat dim) 1 ;;
    d <- device_at itp g x ;; rb <- random_bernoulli m d al r sm p ;;
    ' (g1, y) <- n_mul_const m (n1 /. p) g (bss 0) x ;;
    rb' <- t_broadcast m al' rb dim (index s (N.to_nat dim)) ;;
    ' (g2, z) <- n_input_owner m g1 (bss 1) rb' ;;
    n_mul m g2 (bss 2) y z.
(** L44-51 *)
Fixpoint n_sum_loop (bss : many) (i : nat) (g : graph) (ret : node) (xs : list node) : res (graph * node) :=
  match xs with [] => Ok (g, ret) | x :: xs' => ' (g', ret') <- n_add m g (bss i) ret x ;; n_sum_loop bss (S i) g' ret' xs' end.
Definition n_slice_sum (g : graph) (bss : many) (al : alloc_oracle K) (xs : list node) : res (graph * node) :=
  _ <- assert (negb (length xs =? 0)) ;;
  x0 <- idx xs 0 ;; d <- device_at itp g x0 ;; s <- n_shape g x0 ;;
  z <- new_tensor_by_constant m d al s n0 ;;
  ' (g0, ret) <- n_input_owner m g (bss 0) z ;;
  n_sum_loop bss 1 g0 ret xs.
(** L53-63 and L65-71; [bsss i k]: the k-th operator of step i *)
Definition n_normalize (mean : graph -> many -> node -> res (graph * node)) (g : graph) (bsss : nat -> many) (x gain b : node) (eps : F) : res (graph * node) :=
  ' (g1, mu) <- mean g (bsss 0) x ;;
  ' (g2, shift) <- n_sub m g1 (bsss 1 0) x mu ;;
  ' (g3, sq) <- n_mul m g2 (bsss 1 1) shift shift ;;
  ' (g4, v0) <- mean g3 (bsss 2) sq ;;
  ' (g5, v) <- n_add_const m eps g4 (bsss 3 0) v0 ;;
  ' (g6, num) <- n_sub m g5 (bsss 3 1) x mu ;;
  ' (g7, den) <- n_sqrt m g6 (bsss 3 2) v ;;
  ' (g8, xh) <- n_div m g7 (bsss 3 3) num den ;;
  ' (g9, gx) <- n_mul m g8 (bsss 3 4) gain xh ;;
  n_add m g9 (bsss 3 5) gx b.
Definition n_batch_normalization (g : graph) (bsss : nat -> many) (x gain b : node) (eps : F) (enabled : bool) : res (graph * node) :=
  if enabled then n_normalize n_batch_mean g bsss x gain b eps else n_mul_const m n1 g (bsss 0 0) x.
Definition n_flat_mean (g : graph) (bss : many) (x : node) : res (graph * node) := ' (g1, f) <- n_flatten m g (bss 2) x ;; n_mean 0 g1 bss f.
Definition n_layer_normalization (g : graph) (bsss : nat -> many) (x gain b : node) (eps : F) : res (graph * node) :=
  n_normalize n_flat_mean g bsss x gain b eps.
End NodeContrib.
