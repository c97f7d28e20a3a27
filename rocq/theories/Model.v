(** * Model: models made of parameters, the derive macro, saving and loading

    Models prima_undine/src/model.rs, prima_undine_derive/src/lib.rs, the parameter parts of
    prima_undine/src/parameter.rs, the Serialize/Deserialize implementations of tensor.rs L106-132
    and parameter.rs L9-14, and optimizer.rs L50-55. *)
From Verif Require Export Optim PropsShape.
Set Implicit Arguments.
Unset Strict Implicit.

(** ** The attributes of a field, as the crate syn presents them *)
(** syn::Path: a leading [::], then segments, each with or without arguments *)
Record spath := mkPath { sp_colon : bool; sp_segs : list (string * bool) }.
(** syn::Path::is_ident *)
Definition is_ident (p : spath) (s : string) : bool :=
  negb (sp_colon p) && match sp_segs p with [(x, false)] => String.eqb x s | _ => false end.
(** syn::Meta and syn::NestedMeta *)
Inductive meta := Path (p : spath) | NameValue (p : spath) | List (p : spath) (nested : list nested)
with nested := NMeta (x : meta) | NLit.
(** one attribute: what [parse_meta] gives, None for Err *)
Definition attr := option meta.
Record field := mkField { f_ident : string; f_attrs : list attr }.

(** prima_undine_derive/src/lib.rs L42-48: the loop over [lst.nested] finds [skip] *)
Fixpoint nested_skip (l : list nested) : bool :=
  match l with
  | [] => false
  | NMeta (Path p) :: l' => if is_ident p "skip" then true else nested_skip l'
  | _ :: l' => nested_skip l'
  end.
(** lib.rs L37-54: the loop over the attributes; true when [continue 'a] is reached *)
Fixpoint attrs_skip (l : list attr) : bool :=
  match l with
  | [] => false
  | Some (List p ns) :: l' => if is_ident p "parameter" then (if nested_skip ns then true else attrs_skip l') else attrs_skip l'
  | _ :: l' => attrs_skip l'
  end.
(** lib.rs L35-56: the fields pushed to [field_updater], in the order of declaration *)
Fixpoint field_updater (i : nat) (fs : list field) : list nat :=
  match fs with
  | [] => []
  | f :: fs' => if attrs_skip (f_attrs f) then field_updater (S i) fs' else i :: field_updater (S i) fs'
  end.

Section Model.
Variable K : num.
Notation F := (F K).
Notation tensor := (tensor K).
Notation param := (param K).

(** a value of a type implementing Model, or a Parameter, or other data (only possible in a
    skipped field, since the generated code calls parameters() on every other field) *)
Inductive model := MParam (p : param) | MStruct (fs : list (field * model)) | MVec (l : list model) | MOther (data : nat).

(** [params.append(...)] for the fields selected: the [i]-th field of the struct *)
Definition sel A (l : list A) (is : list nat) : list A := flat_map (fun i => match nth_error l i with Some x => [x] | None => [] end) is.

(** parameters(): parameter.rs L53-55 (a parameter), the code generated by lib.rs L61-65 (a struct),
    model.rs L17-23 (a vector of models), L40-42 (a vector of parameters) *)
Fixpoint parameters (x : model) : list param :=
  match x with
  | MParam p => [p]
  | MStruct fs =>
      let per := (fix go fs := match fs with [] => [] | (_, y) :: fs' => parameters y :: go fs' end) fs in
      concat (sel per (field_updater 0 (map fst fs)))
  | MVec l => (fix go l := match l with [] => [] | y :: l' => parameters y ++ go l' end) l
  | MOther _ => []
  end.

(** a place inside a value: which field or element, at each level *)
Definition place := list nat.
(** parameters_mut(): parameter.rs L57-59, lib.rs L66-70, model.rs L24-30, L43-45.
    A [&mut Parameter] is the place it borrows. *)
Fixpoint parameters_mut (x : model) : list place :=
  match x with
  | MParam _ => [[]]
  | MStruct fs =>
      let per := (fix go i fs := match fs with [] => [] | (_, y) :: fs' => map (cons i) (parameters_mut y) :: go (S i) fs' end) 0 fs in
      concat (sel per (field_updater 0 (map fst fs)))
  | MVec l => (fix go i l := match l with [] => [] | y :: l' => map (cons i) (parameters_mut y) ++ go (S i) l' end) 0 l
  | MOther _ => []
  end.
(** reading and writing through such a borrow *)
Fixpoint load (x : model) (q : place) : option param :=
  match x, q with
  | MParam p, [] => Some p
  | MStruct fs, i :: q' => (fix go fs i := match fs, i with (_, y) :: _, 0 => load y q' | _ :: fs', S i' => go fs' i' | [], _ => None end) fs i
  | MVec l, i :: q' => (fix go l i := match l, i with y :: _, 0 => load y q' | _ :: l', S i' => go l' i' | [], _ => None end) l i
  | _, _ => None
  end.
Fixpoint store (x : model) (q : place) (p : param) : model :=
  match x, q with
  | MParam _, [] => MParam p
  | MStruct fs, i :: q' => MStruct ((fix go fs i := match fs, i with (f, y) :: fs', 0 => (f, store y q' p) :: fs' | z :: fs', S i' => z :: go fs' i' | [], _ => [] end) fs i)
  | MVec l, i :: q' => MVec ((fix go l i := match l, i with y :: l', 0 => store y q' p :: l' | z :: l', S i' => z :: go l' i' | [], _ => [] end) l i)
  | _, _ => x
  end.
(** [for param in places { f(param) }]; [f] gets the number of the iteration *)
Fixpoint visit (f : nat -> param -> res param) (i : nat) (qs : list place) (x : model) : res model :=
  match qs with
  | [] => Ok x
  | q :: qs' => p <- unwrap (load x q) ;; p' <- f i p ;; visit f (S i) qs' (store x q p')
  end.

Variable m : build.
(** parameter.rs L27-33; [als]: value, gradient, then the statistics *)
Definition param_move (self : nat) (als : nat -> alloc_oracle K) (p : param) : res param :=
  v <- move_to_device m self (als 0) (p_value p) ;;
  g <- move_to_device m self (als 1) (p_grad p) ;;
  st <- each (fun i ns => t <- move_to_device m self (als i) (snd ns) ;; Ok (fst ns, t)) 2 (p_stats p) ;;
  Ok (mkParam v g st).
(** move_to_device: the default of the trait, model.rs L6-10 (a struct); model.rs L31-37 (a vector of
    models: a loop over the models, and over the parameters of each); L46-50 (a vector of parameters);
    parameter.rs L27-33. [als i]: allocators for the parameter visited as number [i]. *)
Definition model_move (self : nat) (als : nat -> nat -> alloc_oracle K) (x : model) : res model :=
  let f i p := param_move self (als i) p in
  match x with
  | MParam p => p' <- f 0 p ;; Ok (MParam p')
  | MStruct fs => visit f 0 (parameters_mut x) x
  | MVec l =>
      l' <- (fix go i l := match l with
                           | [] => Ok []
                           | y :: l' => y' <- visit f i (parameters_mut y) y ;; ys <- go (i + length (parameters_mut y)) l' ;; Ok (y' :: ys)
                           end) 0 l ;;
      Ok (MVec l')
  | MOther _ => Ok x   (* not a model: never called *)
  end.
(** optimizer.rs L50-52, L53-55: the list of borrows is built, the loops of configure_parameters
    and update_parameters (L17-49) run over it, and what they write ends up in those places *)
Definition loads (x : model) (qs : list place) : res (list param) := each (fun _ q => unwrap (load x q)) 0 qs.
Definition stores (x : model) (qs : list place) (ps : list param) : model := fold_left (fun x qp => store x (fst qp) (snd qp)) (combine qs ps) x.
Definition configure_model (als : nat -> nat -> alloc_oracle K) (o : opt K) (x : model) : res model :=
  ps <- loads x (parameters_mut x) ;;
  ps' <- configure_parameters m als o ps ;;
  Ok (stores x (parameters_mut x) ps').
Definition update_model (als : nat -> nat -> nat -> alloc_oracle K) (o : opt K) (x : model) : res (opt K * model) :=
  ps <- loads x (parameters_mut x) ;;
  ' r <- update_parameters m als o ps ;;
  Ok (fst r, stores x (parameters_mut x) (snd r)).

(** ** Saving and loading (serde's data format is trusted to return what was given to it) *)
(** tensor.rs L106-110 *)
Record tensor_data := mkTData { td_shape : shape_serde; td_values : list F }.
(** tensor.rs L122-132 *)
Definition tensor_serialize (t : tensor) : res tensor_data :=
  _ <- device_of t ;; vs <- tensor_to_vector m t ;; Ok (mkTData (shape_serialize (t_shape t)) vs).
(** tensor.rs L112-120 *)
Definition tensor_deserialize (x : tensor_data) : res tensor :=
  s <- shape_deserialize m (td_shape x) ;; Ok (@new_host_tensor K s (td_values x)).
(** parameter.rs L9: derived; the map of statistics in any order, here the order of the list *)
Record param_data := mkPData { pd_value : tensor_data; pd_grad : tensor_data; pd_stats : list (string * tensor_data) }.
Definition param_serialize (p : param) : res param_data :=
  v <- tensor_serialize (p_value p) ;;
  g <- tensor_serialize (p_grad p) ;;
  st <- each (fun _ ns => t <- tensor_serialize (snd ns) ;; Ok (fst ns, t)) 0 (p_stats p) ;;
  Ok (mkPData v g st).
Definition param_deserialize (x : param_data) : res param :=
  v <- tensor_deserialize (pd_value x) ;;
  g <- tensor_deserialize (pd_grad x) ;;
  st <- each (fun _ ns => t <- tensor_deserialize (snd ns) ;; Ok (fst ns, t)) 0 (pd_stats x) ;;
  Ok (mkParam v g st).
End Model.
Arguments MOther {K} data.
