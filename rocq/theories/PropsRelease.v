(** * PropsRelease: builds with and without overflow checks (C65) *)
From Verif Require Export RelMore.
From Verif Require Import PVocab GraphTie OpsFacts PropsGraph.
Set Implicit Arguments.
Unset Strict Implicit.

Section Release.
Variable K : num.
Notation F := (F K).
Notation tensor := (tensor K).
Notation node := (nat * nat)%type.
Notation graph := (graph K (oper K)).
Notation oracle := (alloc_oracle K).
Notation many := (nat -> buffers K).
(** the standard library's [sort_unstable_by] *)
Variable srt : (nat -> nat -> option comparison) -> list nat -> res (list nat).

(** ** Specification *)
(** what a program asks the library for, next to one graph. The parameters a call works on are handed over and given back *)
Inductive command :=
(* tensors *)
| Tensors (c : call K) | Vec (x : tensor) | Float (x : tensor) | Argmax (d : nat) (x : tensor) (dim : N) | Argmin (d : nat) (x : tensor) (dim : N) | Argsort (d : nat) (x : tensor) (dim : N)
| Bernoulli (d : nat) (al : oracle) (r : randomizer K) (s : shape) (p : F) | Normally (d : nat) (al : oracle) (r : randomizer K) (s : shape) (mean sd : F) | Uniformly (d : nat) (al : oracle) (r : randomizer K) (s : shape) (lo hi : F)
(* nodes of the graph: leaves, any operator, the functions *)
| Input (bs : buffers K) (t : tensor) | InputOwner (bs : buffers K) (t : tensor) | ParameterOf (bs : buffers K) (value gradient : tensor)
| Create (o : oper K) (own : option tensor) (xs : list node)
| Apply1 (k : kind K) (bs : buffers K) (x : node) | Apply2 (k kl kr : kind K) (bs : buffers K) (a b : node) | Apply (k : kind K) (bs : buffers K) (x : node) (xs : list node)
| Concat (dim : N) (bs : buffers K) (xs : list node) | BatchConcat (bs : buffers K) (xs : list node) | Flatten (bs : buffers K) (x : node)
| LnSoftmax (dim : N) (bss : many) (x : node) | Softmax (dim : N) (bss : many) (x : node)
(* evaluating nodes *)
| Forward (pop : heap) (n : node) | Backward (gal : grad_alloc K) (popf popb : heap) (n : node) | ToVec (pop : heap) (n : node) | Value (n : node) | Gradient (n : node) | ParameterGradient (i : nat)
(* parameters, optimizers, models *)
| NewParameter (d : nat) (al1 al2 : oracle) (r : randomizer K) (s : shape) (i : initializer K) | ResetGradient (p : param K) | AddStat (al : oracle) (p : param K) (name : string) (s : shape)
| Configure (als : nat -> nat -> oracle) (o : opt K) (ps : list (param K)) | Update (als : nat -> nat -> nat -> oracle) (o : opt K) (ps : list (param K))
| ConfigureModel (als : nat -> nat -> oracle) (o : opt K) (x : model K) | UpdateModel (als : nat -> nat -> nat -> oracle) (o : opt K) (x : model K) | MoveModel (d : nat) (als : nat -> nat -> oracle) (x : model K)
| Save (p : param K) | Load (x : param_data K)
(* the contrib crate, on tensors and on nodes *)
| CMean (als : nat -> oracle) (x : tensor) (dim : N) | CBatchMean (als : nat -> oracle) (x : tensor) | CDropout (als : nat -> oracle) (r : randomizer K) (x : tensor) (rate : F) (e : bool) | CDropoutDim (als : nat -> oracle) (r : randomizer K) (x : tensor) (dim : N) (rate : F) (e : bool)
| CSliceSum (als : nat -> oracle) (xs : list tensor) | CBatchNorm (als : nat -> nat -> oracle) (x g b : tensor) (eps : F) (e : bool) | CLayerNorm (als : nat -> nat -> oracle) (x g b : tensor) (eps : F)
| NMean (dim : N) (bss : many) (x : node) | NBatchMean (bss : many) (x : node) | NDropout (bss : many) (al : oracle) (r : randomizer K) (x : node) (rate : F) (e : bool) | NDropoutDim (bss : many) (al al' : oracle) (r : randomizer K) (x : node) (dim : N) (rate : F) (e : bool)
| NSliceSum (bss : many) (al : oracle) (xs : list node) | NBatchNorm (bsss : nat -> many) (x g b : node) (eps : F) (e : bool) | NLayerNorm (bsss : nat -> many) (x g b : node) (eps : F).
(** what it gets back *)
Inductive reply :=
| GotTensors (ts : list tensor) | GotFloats (l : list F) | GotIndices (l : list N) | GotNodes (ns : list node) | GotParams (ps : list (param K)) | GotOpt (o : opt K) (ps : list (param K)) | GotModel (o : option (opt K)) (x : model K) | GotData (x : param_data K) | Got_nothing.

Section Exec.
Variable m : build.
Variable g : graph.
Definition same A (r : res A) (f : A -> reply) : res (graph * reply) := x <- r ;; Ok (g, f x).
Definition made1 (r : res (graph * node)) : res (graph * reply) := ' (g', n) <- r ;; Ok (g', GotNodes [n]).
Definition made_all (r : res (graph * list node)) : res (graph * reply) := ' (g', ns) <- r ;; Ok (g', GotNodes ns).
Definition kept A (r : graph * res A) (f : A -> reply) : res (graph * reply) := x <- snd r ;; Ok (fst r, f x).
Definition exec (c : command) : res (graph * reply) :=
  match c with
  | Tensors c => same (perform srt m c) GotTensors | Vec x => same (to_vec m x) GotFloats | Float x => same (to_float m x) (fun v => GotFloats [v])
  | Argmax d x dim => same (argmax m srt d x dim) GotIndices | Argmin d x dim => same (argmin m srt d x dim) GotIndices | Argsort d x dim => same (argsort m srt d x dim) GotIndices
  | Bernoulli d al r s p => same (random_bernoulli m d al r s p) (fun t => GotTensors [t]) | Normally d al r s a b => same (random_normal m d al r s a b) (fun t => GotTensors [t]) | Uniformly d al r s a b => same (random_uniform m d al r s a b) (fun t => GotTensors [t])
  | Input bs t => made1 (n_input m g bs t) | InputOwner bs t => made1 (n_input_owner m g bs t) | ParameterOf bs v gr => made1 (n_parameter m g bs v gr)
  | Create o own xs => made_all (create (interp m) g o own xs)
  | Apply1 k bs x => made1 (n_op1 m k g bs x) | Apply2 k kl kr bs a b => made1 (n_op2 m k kl kr g bs a b) | Apply k bs x xs => made_all (n_create m g bs k x xs)
  | Concat dim bs xs => made1 (n_concat m dim g bs xs) | BatchConcat bs xs => made1 (n_batch_concat m g bs xs) | Flatten bs x => made1 (n_flatten m g bs x)
  | LnSoftmax dim bss x => made1 (n_ln_softmax m dim g bss x) | Softmax dim bss x => made1 (n_softmax m dim g bss x)
  | Forward pop n => kept (node_forward (interp m) pop g n) (fun _ => Got_nothing) | Backward gal popf popb n => g' <- node_backward m (interp m) gal popf popb g n ;; Ok (g', Got_nothing)
  | ToVec pop n => kept (node_to_vec m (interp m) pop g n) GotFloats
  | Value n => same (value_of g n) (fun t => GotTensors [t]) | Gradient n => same (grad_of g n) (fun t => GotTensors [t]) | ParameterGradient i => same (unwrap (own_of g i)) (fun t => GotTensors [t])
  | NewParameter d al1 al2 r s i => same (new_parameter m d al1 al2 r s i) (fun p => GotParams [p]) | ResetGradient p => same (reset_gradient m p) (fun p => GotParams [p]) | AddStat al p name s => same (add_stat m al p name s) (fun p => GotParams [p])
  | Configure als o ps => same (configure_parameters m als o ps) GotParams | Update als o ps => same (update_parameters m als o ps) (fun r => GotOpt (fst r) (snd r))
  | ConfigureModel als o x => same (configure_model m als o x) (GotModel None) | UpdateModel als o x => same (update_model m als o x) (fun r => GotModel (Some (fst r)) (snd r)) | MoveModel d als x => same (model_move m d als x) (GotModel None)
  | Save p => same (param_serialize m p) GotData | Load x => same (param_deserialize m x) (fun p => GotParams [p])
  | CMean als x dim => same (c_mean m als x dim) (fun t => GotTensors [t]) | CBatchMean als x => same (c_batch_mean m als x) (fun t => GotTensors [t])
  | CDropout als r x rate e => same (c_dropout m als r x rate e) (fun t => GotTensors [t]) | CDropoutDim als r x dim rate e => same (c_dropout_dim m als r x dim rate e) (fun t => GotTensors [t])
  | CSliceSum als xs => same (c_slice_sum m als xs) (fun t => GotTensors [t]) | CBatchNorm als x a b eps e => same (c_batch_normalization m als x a b eps e) (fun t => GotTensors [t]) | CLayerNorm als x a b eps => same (c_layer_normalization m als x a b eps) (fun t => GotTensors [t])
  | NMean dim bss x => made1 (n_mean m dim g bss x) | NBatchMean bss x => made1 (n_batch_mean m g bss x)
  | NDropout bss al r x rate e => made1 (n_dropout m g bss al r x rate e) | NDropoutDim bss al al' r x dim rate e => made1 (n_dropout_dim m g bss al al' r x dim rate e)
  | NSliceSum bss al xs => made1 (n_slice_sum m g bss al xs) | NBatchNorm bsss x a b eps e => made1 (n_batch_normalization m g bsss x a b eps e) | NLayerNorm bsss x a b eps => made1 (n_layer_normalization m g bsss x a b eps)
  end.
End Exec.
(** a program: given all replies so far, the next thing it does. [play m p n g h]: its next [n] calls in a build of mode [m] *)
Definition client := list reply -> command.
Fixpoint play (m : build) (p : client) (n : nat) (g : graph) (h : list reply) : res (graph * list reply) :=
  match n with 0 => Ok (g, h) | S n' => ' (g', r) <- exec m g (p h) ;; play m p n' g' (h ++ [r]) end.

(** ** Proofs *)
Lemma le_same g A (r1 r2 : res A) f : le_res r1 r2 -> le_res (same g r1 f) (same g r2 f).
Proof. intros H. apply le_bind; [exact H|intros; apply Mode.le_refl]. Qed.
Lemma le_made1 r1 r2 : le_res r1 r2 -> le_res (made1 r1) (made1 r2).
Proof. intros H. apply le_bind; [exact H|intros; apply Mode.le_refl]. Qed.
Lemma le_made_all r1 r2 : le_res r1 r2 -> le_res (made_all r1) (made_all r2).
Proof. intros H. apply le_bind; [exact H|intros; apply Mode.le_refl]. Qed.
Lemma le_kept A (r1 r2 : graph * res A) f : (forall g v, r1 = (g, Ok v) -> r2 = (g, Ok v)) -> le_res (kept r1 f) (kept r2 f).
Proof. intros H x E. destruct r1 as [g1 [v| |]]; try discriminate E. rewrite (H _ _ eq_refl). exact E. Qed.
Local Opaque call_fw call_bw call_u32 fw_registry bw_registry new_alloc alloc.
Theorem le_exec m g c : le_res (exec Debug g c) (exec m g c).
Proof.
  destruct c; cbn [exec]; first [simple apply le_same|simple apply le_made1|simple apply le_made_all|idtac].
  - simple apply le_perform.
  - simple apply le_to_vec.
  - simple apply le_to_float.
  - simple apply le_argmax.
  - simple apply le_argmin.
  - simple apply le_argsort.
  - simple apply le_bernoulli.
  - simple apply le_normal.
  - simple apply le_uniform.
  - unfold n_input. simple apply le_leaf.
  - unfold n_input_owner. simple apply le_leaf.
  - unfold n_parameter. simple apply le_leaf.
  - simple apply le_icreate.
  - simple apply le_n_op1.
  - simple apply le_n_op2.
  - simple apply le_n_create.
  - simple apply le_n_concat.
  - simple apply le_n_batch_concat.
  - simple apply le_n_flatten.
  - simple apply le_n_ln_softmax.
  - simple apply le_n_softmax.
  - simple apply le_kept. intros g1 [] E. eapply le_forward; [|exact E]. intros; apply le_interp.
  - simple apply le_bind; [|intros; simple apply Mode.le_refl]. apply le_node_backward. intros; apply le_interp.
  - simple apply le_kept. intros g1 v E. eapply le_node_to_vec; [|exact E]. intros; apply le_interp.
  - simple apply Mode.le_refl.
  - simple apply Mode.le_refl.
  - simple apply Mode.le_refl.
  - simple apply le_new_parameter.
  - simple apply le_reset_gradient.
  - unfold add_stat. repeat (simple apply le_bind; [first [simple apply Mode.le_refl|simple apply le_constant]|intros]). simple apply Mode.le_refl.
  - simple apply le_configure_parameters.
  - simple apply le_update_parameters.
  - simple apply le_configure_model.
  - simple apply le_update_model.
  - simple apply le_model_move.
  - simple apply le_param_serialize.
  - simple apply le_param_deserialize.
  - simple apply le_c_mean.
  - simple apply le_c_batch_mean.
  - simple apply le_c_dropout.
  - simple apply le_c_dropout_dim.
  - simple apply le_c_slice_sum.
  - simple apply le_c_batch_normalization.
  - simple apply le_c_layer_normalization.
  - simple apply le_n_mean.
  - simple apply le_n_batch_mean.
  - simple apply le_n_dropout.
  - simple apply le_n_dropout_dim.
  - simple apply le_n_slice_sum.
  - simple apply le_n_batch_normalization.
  - simple apply le_n_layer_normalization.
Qed.

(** ** C65: whatever a program has done without a panic in a build with overflow checks, it does in a build
    without, with the same replies and the same graph, in every state on the way *)
Theorem C65_release_agrees : forall m p n g h g' h', play Debug p n g h = Ok (g', h') -> play m p n g h = Ok (g', h').
Proof.
  intros m p n. induction n as [|n IH]; intros g h g' h' E; [exact E|]. cbn [play] in * . apply bind_Ok in E. destruct E as ([g1 r] & E1 & E). rewrite (@le_exec m g (p h) (g1, r) E1). cbn [bind]. apply IH, E.
Qed.
(** the first call whose outcome differs is one that panics (or worse) with overflow checks *)
Theorem C65_first_difference : forall m p n g h, play m p n g h <> play Debug p n g h ->
  exists k g1 h1, k < n /\ play Debug p k g h = Ok (g1, h1) /\ play m p k g h = Ok (g1, h1) /\ forall v, exec Debug g1 (p h1) <> Ok v.
Proof.
  intros m p n. induction n as [|n IH]; intros g h NE; [contradiction NE; reflexivity|]. cbn [play] in NE. destruct (exec Debug g (p h)) as [[g1 r]| |] eqn:E.
  - pose proof (@le_exec m g (p h) _ E) as E'. rewrite E' in NE. cbn [bind] in NE. destruct (IH _ _ NE) as (k & g2 & h2 & L & P1 & P2 & P3). exists (S k), g2, h2. split; [lia|]. cbn [play]. rewrite E, E'. cbn [bind]. auto.
  - exists 0, g, h. split; [lia|]. split; [reflexivity|]. split; [reflexivity|]. intros v. congruence.
  - exists 0, g, h. split; [lia|]. split; [reflexivity|]. split; [reflexivity|]. intros v. congruence.
Qed.
End Release.

(** *** a client that makes a parameter w and an input x, multiplies them (using the nodes it was given),
    differentiates, and reads the gradient: all its calls succeed with overflow checks *)
Definition last_node (h : list (reply Znum)) : nat * nat := match last h (Got_nothing Znum) with GotNodes _ [n] => n | _ => (0, 0) end.
Definition demo : client Znum := fun h =>
  match length h with
  | 0 => ParameterOf bz (tz 0 [2%N] 1 [3; 4]%Z) (tz 0 [2%N] 1 [10; 20]%Z)
  | 1 => Input bz (tz 0 [2%N] 1 [5; 6]%Z)
  | 2 => Apply2 KMul KMulScalar KMulScalar bz (0, 0) (last_node h)
  | 3 => Backward (fun _ _ => alz) fifo_min lifo_max (last_node h)
  | 4 => ParameterGradient _ 0
  | _ => Vec (match last h (Got_nothing Znum) with GotTensors [t] => t | _ => tz 0 [] 1 [] end)
  end.
(** the numbers in the last reply, if all calls succeeded *)
Definition outcome (r : res (graph Znum (oper Znum) * list (reply Znum))) : option (list Z) :=
  match r with Ok (_, h) => match last h (Got_nothing Znum) with GotFloats l => Some l | _ => None end | _ => None end.
Definition no_sort : (nat -> nat -> option comparison) -> list nat -> res (list nat) := fun _ _ => Panic.
Lemma demo_outcome : outcome (play no_sort Debug demo 6 empty []) = Some [15; 26]%Z.
Proof. reflexivity. Qed.
Example C65_applies : exists g h, play no_sort Debug demo 6 empty [] = Ok (g, h) /\ outcome (Ok (g, h)) = Some [15; 26]%Z /\ play no_sort Release demo 6 empty [] = Ok (g, h).
Proof.
  pose proof demo_outcome as E. destruct (play no_sort Debug demo 6 empty []) as [[g h]| |] eqn:EP; try discriminate E. exists g, h. split; [reflexivity|]. split; [exact E|]. apply C65_release_agrees. exact EP.
Qed.
(** the converse fails: without overflow checks a node of 2 x (2^32 - 1) elements can be made *)
Definition overflowing : client Znum := fun h =>
  match length h with 0 => Input bz (tz 0 [1%N; 2%N] 1 [5; 6]%Z) | _ => Apply1 (KBroadcast 0 4294967295) bz (last_node h) end.
Theorem C65_converse_refuted : succeeds (play no_sort Release overflowing 2 empty []) = true /\ play no_sort Debug overflowing 2 empty [] = Panic /\ succeeds (play no_sort Debug overflowing 1 empty []) = true.
Proof. split; [reflexivity|]. split; reflexivity. Qed.
Print Assumptions C65_release_agrees.
Print Assumptions C65_first_difference.
