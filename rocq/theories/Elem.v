(** * Elem: the closures of the elementwise kernels (prima_undine/src/devices/naive/) *)
From Verif Require Export Num.
Set Implicit Arguments.

Section Elem.
Variable K : num.
Notation F := (F K).
Notation "x +. y" := (nadd K x y) (at level 50, left associativity).
Notation "x -. y" := (nsub K x y) (at level 50, left associativity).
Notation "x *. y" := (nmul K x y) (at level 40, left associativity).
Notation "x /. y" := (ndiv K x y) (at level 40, left associativity).
Notation "-. x" := (nneg K x) (at level 35, right associativity).

(** abs.rs L1-3: gy * ((x > 0.) as i32 - (x < 0.) as i32) as f32 *)
Definition e_abs (x : F) : F := nabs K x.
Definition e_abs_bw (x y gy : F) : F :=
  gy *. nofZ K ((if ngt x n0 then 1 else 0) - (if nlt K x n0 then 1 else 0))%Z.
(** cos.rs L1-2 *)
Definition e_cos (x : F) : F := ncos K x.
Definition e_cos_bw (x y gy : F) : F := -. gy *. nsin K x.
(** sin.rs L1-2 *)
Definition e_sin (x : F) : F := nsin K x.
Definition e_sin_bw (x y gy : F) : F := gy *. ncos K x.
(** tan.rs L1-2 *)
Definition e_tan (x : F) : F := ntan K x.
Definition e_tan_bw (x y gy : F) : F := gy *. (n1 +. y *. y).
(** tanh.rs L1-2 *)
Definition e_tanh (x : F) : F := ntanh K x.
Definition e_tanh_bw (x y gy : F) : F := gy *. (n1 -. y *. y).
(** sigmoid.rs L1-2 *)
Definition e_sigmoid (x : F) : F := nhalf +. nhalf *. ntanh K (nhalf *. x).
Definition e_sigmoid_bw (x y gy : F) : F := gy *. y *. (n1 -. y).
(** sqrt.rs L1-2 *)
Definition e_sqrt (x : F) : F := nsqrt K x.
Definition e_sqrt_bw (x y gy : F) : F := gy *. nhalf /. y.
(** exp.rs L1-2 *)
Definition e_exp (x : F) : F := nexp K x.
Definition e_exp_bw (x y gy : F) : F := gy *. y.
(** ln.rs L1-2 *)
Definition e_ln (x : F) : F := nln K x.
Definition e_ln_bw (x y gy : F) : F := gy /. x.
(** softplus.rs L1-2 *)
Definition e_softplus (x : F) : F := nln K (n1 +. nexp K (-. nabs K x)) +. nofB (ngt x n0) *. x.
(** neg.rs L1 *)
Definition e_neg (x : F) : F := -. x.
(** prelu.rs L1-4 *)
Definition e_prelu (x k : F) : F := x *. (nofB (ngt x n0) +. nofB (nle K x n0) *. k).
Definition e_prelu_bw (x y gy k : F) : F := gy *. (nofB (ngt x n0) +. nofB (nle K x n0) *. k).
(** elu.rs L1-14 *)
Definition e_elu (x k : F) : F := if ngt x n0 then x else k *. (nexp K x -. n1).
Definition e_elu_bw (x y gy k : F) : F := if ngt x n0 then gy else gy *. (y +. k).
(** add.rs L4, L64-66 *)
Definition e_add (a b : F) : F := a +. b.
Definition e_add_const (x k : F) : F := x +. k.
Definition e_add_const_bw (x y gy k : F) : F := gy.
Definition e_add_scalar (x k : F) : F := x +. k.
(** sub.rs L4, L64-71 *)
Definition e_sub (a b : F) : F := a -. b.
Definition e_sub_const_l (x k : F) : F := k -. x.
Definition e_sub_const_l_bw (x y gy k : F) : F := -. gy.
Definition e_sub_const_r (x k : F) : F := x -. k.
Definition e_sub_const_r_bw (x y gy k : F) : F := gy.
Definition e_sub_scalar_l (x k : F) : F := k -. x.
Definition e_sub_scalar_r (x k : F) : F := x -. k.
(** mul.rs L4, L72-76 *)
Definition e_mul (a b : F) : F := a *. b.
Definition e_mul_const (x k : F) : F := x *. k.
Definition e_mul_const_bw (x y gy k : F) : F := k *. gy.
Definition e_mul_scalar (x k : F) : F := x *. k.
(** div.rs L4, L74-83 *)
Definition e_div (a b : F) : F := a /. b.
Definition e_div_const_l (x k : F) : F := k /. x.
Definition e_div_const_l_bw (x y gy k : F) : F := -. gy *. y /. x.
Definition e_div_const_r (x k : F) : F := x /. k.
Definition e_div_const_r_bw (x y gy k : F) : F := gy /. k.
Definition e_div_scalar_l (x k : F) : F := k /. x.
Definition e_div_scalar_r (x k : F) : F := x /. k.
(** powf.rs L4, L78-87 *)
Definition e_powf (a b : F) : F := npowf K a b.
Definition e_powf_const_l (x k : F) : F := npowf K k x.
Definition e_powf_const_l_bw (x y gy k : F) : F := gy *. nln K k *. y.
Definition e_powf_const_r (x k : F) : F := npowf K x k.
Definition e_powf_const_r_bw (x y gy k : F) : F := gy *. k *. npowf K x (k -. n1).
Definition e_powf_scalar_l (x k : F) : F := npowf K k x.
Definition e_powf_scalar_r (x k : F) : F := npowf K x k.
(** the accumulations of the two-operand backward kernels: mul.rs L29, L62
    (b * gy, a * gy), div.rs L29 (gy / b) *)
Definition e_mul_bw_a (b gy : F) : F := b *. gy.
Definition e_mul_bw_b (a gy : F) : F := a *. gy.
Definition e_div_bw_a (b gy : F) : F := gy /. b.
End Elem.
