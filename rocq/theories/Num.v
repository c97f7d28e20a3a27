(** * Num: the numeric interface used by the kernels

    The kernels of /repo compute with [f32] (and [f64] inside of logsumexp). A
    [num] packages the operations they use; every theorem about kernels is
    stated for an arbitrary [num], so it holds for IEEE arithmetic with exactly
    the order of operations written in the code. *)
From Verif Require Export Base.
Set Implicit Arguments.

Record num := mkNum {
  F : Type;                                  (* f32 *)
  n0 : F; n1 : F; nhalf : F; nc001 : F;      (* literals 0., 1., 0.5, 0.01 *)
  nadd : F -> F -> F; nsub : F -> F -> F; nmul : F -> F -> F; ndiv : F -> F -> F;
  nneg : F -> F; nabs : F -> F; nsqrt : F -> F; nexp : F -> F; nln : F -> F;
  ntanh : F -> F; nsin : F -> F; ncos : F -> F; ntan : F -> F;
  npowf : F -> F -> F; npowi : F -> Z -> F;
  nlt : F -> F -> bool; nle : F -> F -> bool; neqb : F -> F -> bool;
  nofZ : Z -> F;                             (* u32 / i32 `as f32` *)
  W : Type;                                  (* f64 *)
  widen : F -> W; narrow : W -> F;           (* `as f64`, `as f32` *)
  w1 : W; wadd : W -> W -> W; wsub : W -> W -> W; wexp : W -> W; wln : W -> W;
  wlt : W -> W -> bool }.

Arguments n0 {n}. Arguments n1 {n}. Arguments nhalf {n}. Arguments nc001 {n}.
Arguments w1 {n}.

(** x > y is written [nlt y x] *)
Definition ngt {K : num} (x y : F K) : bool := nlt K y x.
(** bool as u32 as f32 *)
Definition nofB {K : num} (b : bool) : F K := nofZ K (if b then 1 else 0)%Z.
Arguments ngt {K} x y. Arguments nofB {K} b.

(** ** An executable instance: the integers
    Only [+ - * neg abs < <= ==] and integer division carry their usual meaning;
    the transcendental functions are placeholders. It is used to run examples
    and to exhibit counterexamples, never for a general theorem. *)
Definition Znum : num := {|
  F := Z; n0 := 0%Z; n1 := 1%Z; nhalf := 0%Z; nc001 := 0%Z;
  nadd := Z.add; nsub := Z.sub; nmul := Z.mul; ndiv := Z.div;
  nneg := Z.opp; nabs := Z.abs; nsqrt := Z.sqrt; nexp := fun x => (x * x + 1)%Z; nln := fun x => (x - 1)%Z;
  ntanh := fun x => (x + 3)%Z; nsin := fun x => (x + 4)%Z; ncos := fun x => (x + 5)%Z; ntan := fun x => (x + 6)%Z;
  npowf := Z.pow; npowi := Z.pow;
  nlt := Z.ltb; nle := Z.leb; neqb := Z.eqb;
  nofZ := fun z => z;
  W := Z; widen := fun z => z; narrow := fun z => z; w1 := 1%Z; wadd := Z.add; wsub := Z.sub;
  wexp := fun x => (x * x + 1)%Z; wln := fun x => (x - 1)%Z; wlt := Z.ltb |}.
