(** * Text: the text a shape prints as *)
From Coq Require Import Strings.String Decimal DecimalString DecimalN.
From Verif Require Export Shape.
Set Implicit Arguments.
Unset Strict Implicit.
Local Open Scope string_scope.

(** what Rust's [{}] and [{:?}] print for a u32: decimal digits, without leading zeros *)
Definition decimal (n : N) : string := NilZero.string_of_uint (N.to_uint n).
(** what [{:?}] prints for a slice of u32 *)
Fixpoint more (l : list N) : string := match l with [] => "" | x :: l' => ", " ++ decimal x ++ more l' end.
Definition list_text (l : list N) : string := "[" ++ match l with [] => "" | x :: l' => decimal x ++ more l' end ++ "]".
(** shape.rs L163-167: Debug for Shape. The flags of the outer format are not handed on to the inner one. *)
Definition shape_text (s : shape) : string := "Shape { " ++ list_text (dims s) ++ ", " ++ decimal (batch s) ++ " }".
