(** * Derive: the header of the implementation that #[derive(Model)] writes

    Models prima_undine_derive/src/lib.rs L12-88 (which fields it visits: Model.v). Bounds, types, default
    values and where clauses are copied as they are: strings here. *)
From Verif Require Import Model.
Set Implicit Arguments.
Unset Strict Implicit.

(** syn::GenericParam: what is declared between < and >. The bounds of a type, the type of a const, the default *)
Inductive gparam :=
| GType (x bounds : string) (default : option string)
| GLife (x bounds : string)
| GConst (x type : string) (default : option string).
(** syn::Data and syn::Fields; the fields only matter for a named struct *)
Inductive body := NamedStruct (fs : list field) | TupleStruct | UnitStruct | Enum | Union.
(** syn::DeriveInput *)
Record declaration := mkDecl { d_name : string; d_params : list gparam; d_where : option string; d_body : body }.
(** an argument between < and > in a type; [ABlock n] is written {n} *)
Inductive garg := AType (x : string) | ALife (x : string) | ABlock (x : string).
(** [impl<params> Model<lifetime> for self<args> where]; [i_fields]: the fields whose parameters() and
    parameters_mut() are called, in order (L64, L69) *)
Record generated := mkGen { i_params : list gparam; i_lifetime : string; i_self : string; i_args : list garg; i_where : option string; i_fields : list string }.

(** lib.rs L19-33: the loop that sorts the parameters by kind *)
Fixpoint by_kind (ps : list gparam) (types lifes consts : list string) : list string * list string * list string :=
  match ps with
  | [] => (types, lifes, consts)
  | GType x _ _ :: ps' => by_kind ps' (types ++ [x]) lifes consts
  | GLife x _ :: ps' => by_kind ps' types (lifes ++ [x]) consts
  | GConst x _ _ :: ps' => by_kind ps' types lifes (consts ++ [x])
  end.
(** lib.rs L36-57: the names of the fields that are visited (Model.v: [field_updater] gives their positions) *)
Definition called_fields (fs : list field) : list string := map f_ident (sel fs (field_updater 0 fs)).
(** lib.rs L13-88. A panic of the macro is a compile error. The attributes are looked at before
    [glifetimes[0]], which has no effect on the outcome: parse_meta's errors are ignored. *)
Definition derive_model (x : declaration) : res generated :=
  let '(gtypes, glifetimes, gconsts) := by_kind (d_params x) [] [] [] in
  match d_body x with
  | NamedStruct fs =>
      first <- idx glifetimes 0 ;;
      Ok (mkGen (d_params x) first (d_name x) (map ALife glifetimes ++ map AType gtypes ++ map ABlock gconsts) (d_where x) (called_fields fs))
  | TupleStruct | UnitStruct | Enum | Union => Panic
  end.
