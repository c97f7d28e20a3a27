(** * GraphFacts: the graph engine, for any operators and any tie order *)
From Verif Require Export Graph.
Set Implicit Arguments.

Section GraphFacts.
Variable K : num.
Notation F := (F K).
Notation tensor := (tensor K).
Variable m : build.
Variable Oper : Type.
Variable itp : Oper -> operator K.
Notation graph := (graph K Oper).
Notation opinfo := (opinfo K Oper).
Notation node := (nat * nat)%type.

(** ** Specification vocabulary *)
(** operator [j] is [i] or is used, directly or not, by operator [i] *)
Inductive uses (g : graph) : nat -> nat -> Prop :=
| uses_refl i : uses g i i
| uses_step i o n j : nth_error (g_ops g) i = Some o -> In n (oi_args o) -> uses g (fst n) j -> uses g i j.
(** an output as it was created: no buffer *)
Definition blank (t : tensor) : tensor := mkTensor (t_dev t) (t_shape t) None None.
(** the meaning of the graph: evaluate the arguments, then the operator *)
Fixpoint eval_op (g : graph) (fuel i : nat) : res (list tensor) :=
  match fuel with
  | O => Panic
  | S fuel' =>
      match nth_error (g_ops g) i with
      | None => Panic
      | Some o =>
          xs <- mapM (fun n => ys <- eval_op g fuel' (fst n) ;; idx ys (snd n)) (oi_args o) ;;
          op_forward (itp (oi_op o)) xs (map blank (oi_vals o))
      end
  end.
Definition eval (g : graph) (i : nat) : res (list tensor) := eval_op g (S i) i.
Definition eval_node (g : graph) (n : node) : res tensor := ys <- eval g (fst n) ;; idx ys (snd n).

(** states that differ in gradients only (a backward pass, completed or not) *)
Definition same_but_grads (a b : opinfo) : Prop :=
  oi_op a = oi_op b /\ oi_args a = oi_args b /\ oi_vals a = oi_vals b /\ length (oi_grads a) = length (oi_grads b) /\
  (oi_own a = None <-> oi_own b = None) /\ oi_fwd a = oi_fwd b /\ oi_depth a = oi_depth b.
Definition grads_changed (g g' : graph) : Prop := g_log g' = g_log g /\ Forall2 same_but_grads (g_ops g) (g_ops g').

(** the states a program can bring a graph into, whatever panics and is caught *)
Inductive history : graph -> Prop :=
| h_empty : history empty
| h_create g op own xs g' ns : history g -> create itp g op own xs = Ok (g', ns) -> history g'
| h_forward g pop root g' r : history g -> min_heap pop -> root < length (g_ops g) -> forward itp pop g root = (g', r) -> history g'
| h_backward g g' : history g -> grads_changed g g' -> history g'.
(** ... when no forward panics *)
Inductive clean : graph -> Prop :=
| c_empty : clean empty
| c_create g op own xs g' ns : clean g -> create itp g op own xs = Ok (g', ns) -> clean g'
| c_forward g pop root g' : clean g -> min_heap pop -> root < length (g_ops g) -> forward itp pop g root = (g', Ok tt) -> clean g'
| c_backward g g' : clean g -> grads_changed g g' -> clean g'.

(** Operator::forward fills its outputs: it changes neither their number nor their
    device or shape (all operators of the crate; see OpsFacts.v) *)
Definition lawful (op : operator K) : Prop := forall xs ys ys', op_forward op xs ys = Ok ys' -> map blank ys' = map blank ys.

(** ** mapM *)
Lemma Forall2_len A B (P : A -> B -> Prop) l l' : Forall2 P l l' -> length l = length l'.
Proof. induction 1; simpl; auto. Qed.
Lemma mapM_cons A B (f : A -> res B) x l : mapM f (x :: l) = (y <- f x ;; ys <- mapM f l ;; Ok (y :: ys)).
Proof. reflexivity. Qed.
Lemma mapM_ext A B (f g : A -> res B) l : (forall x, In x l -> f x = g x) -> mapM f l = mapM g l.
Proof.
  induction l as [|x l IH]; intros H; [reflexivity|]. rewrite !mapM_cons, (H x) by (left; auto).
  rewrite IH by (intros; apply H; right; auto). reflexivity.
Qed.
Lemma mapM_Forall2 A B (f : A -> res B) l ys : mapM f l = Ok ys <-> Forall2 (fun x y => f x = Ok y) l ys.
Proof.
  revert ys. induction l as [|x l IH]; intros ys.
  - split; [intros E; inversion E; constructor|intros E; inversion E; reflexivity].
  - rewrite mapM_cons. split.
    + intros E. inv_ok. constructor; auto. apply IH; auto.
    + intros E. inversion E; subst. rewrite H1. apply IH in H3. rewrite H3. reflexivity.
Qed.
Lemma mapM_length A B (f : A -> res B) l ys : mapM f l = Ok ys -> length ys = length l.
Proof. intros E. apply mapM_Forall2 in E. symmetry. eapply Forall2_len; eauto. Qed.
Lemma mapM_Ok A B (f : A -> res B) l : (forall x, In x l -> exists y, f x = Ok y) -> exists ys, mapM f l = Ok ys.
Proof.
  induction l as [|x l IH]; intros H; [exists []; reflexivity|].
  destruct (H x) as [y Ey]; [left; auto|]. destruct IH as [ys Eys]; [intros; apply H; right; auto|].
  exists (y :: ys). rewrite mapM_cons, Ey, Eys. reflexivity.
Qed.
Lemma mapM_in A B (f : A -> res B) l ys x : mapM f l = Ok ys -> In x l -> exists y, f x = Ok y.
Proof.
  intros E. apply mapM_Forall2 in E. induction E; intros []; [subst; eauto|auto].
Qed.

Arguments mapM_length {A B f l ys}. Arguments mapM_in {A B f l ys x}. Arguments mapM_Ok {A B f l}.
Lemma nth_error_lset A (l : list A) i x j : i < length l -> nth_error (lset l i x) j = if j =? i then Some x else nth_error l j.
Proof.
  revert i j. induction l as [|y l IH]; intros [|i] [|j]; simpl; intros H; try lia; try reflexivity.
  rewrite IH by lia. reflexivity.
Qed.
Lemma nth_error_Some_lt A (l : list A) i x : nth_error l i = Some x -> i < length l.
Proof. intros E. apply nth_error_Some. congruence. Qed.
Lemma idx_nth A (l : list A) i x : nth_error l i = Some x -> idx l i = Ok x.
Proof. unfold idx. intros ->. reflexivity. Qed.
Arguments idx_nth {A l i x}.
Lemma idx_nth_inv A (l : list A) i x : idx l i = Ok x -> nth_error l i = Some x.
Proof. unfold idx. destruct (nth_error l i); intros E; inversion E; auto. Qed.

(** ** Well-formed arenas *)
Record gwf (g : graph) : Prop := {
  gwf_args : forall i o n, nth_error (g_ops g) i = Some o -> In n (oi_args o) -> fst n < i /\
     exists p, nth_error (g_ops g) (fst n) = Some p /\ snd n < length (oi_vals p) /\ oi_depth p < oi_depth o;
  gwf_len : forall i o, nth_error (g_ops g) i = Some o -> length (oi_grads o) = length (oi_vals o) }.

Arguments gwf_args {g} _ {i o n}. Arguments gwf_len {g} _ {i o}.
Lemma fold_max_ge l a x : (In x l -> x <= fold_left Nat.max l a) /\ a <= fold_left Nat.max l a.
Proof.
  revert a. induction l as [|y l IH]; intros a; simpl; [lia|].
  destruct (IH (Nat.max a y)) as [H1 H2]. split; [|lia]. intros [->|H]; [lia|auto].
Qed.

Lemma create_inv g op own xs g' ns : create itp g op own xs = Ok (g', ns) ->
  exists ss rs vals grads ds, mapM (fun n => v <- value_of g n ;; Ok (t_shape v)) xs = Ok ss /\
   op_shapes (itp op) ss = Ok rs /\ mapM (fun n => depth_of g (fst n)) xs = Ok ds /\
   vals = grads /\ length vals = length rs /\ map blank vals = vals /\ map t_shape vals = rs /\
   (forall t, In t vals -> t_buf t = None /\ t_host t = None /\ op_device (itp op) = Ok (match t_dev t with Some d => d | None => 0 end) /\ t_dev t <> None) /\
   g' = mkGraph (g_ops g ++ [mkOpinfo op xs vals grads own false (fold_left Nat.max ds 0 + 1)]) (g_log g) /\
   ns = map (fun v => (length (g_ops g), v)) (seq 0 (length rs)).
Proof.
  intros E. unfold create in E. inv_ok.
  match goal with H1 : mapM (fun s => _) ?rs = Ok ?v1, H2 : mapM (fun s => _) ?rs = Ok ?v2 |- _ =>
    assert (v1 = v2) as EV by congruence; subst v2 end.
  rename x1 into vals; rename x0 into rs0. pose proof (mapM_length H1) as HL; apply mapM_Forall2 in H1; rename H1 into HV; clear H2.
  assert (HB : map blank vals = vals /\ map t_shape vals = rs0 /\ (forall t, In t vals -> t_buf t = None /\ t_host t = None /\ op_device (itp op) = Ok (match t_dev t with Some d => d | None => 0 end) /\ t_dev t <> None)).
  { clear -HV. induction HV as [|s t rs vals H HV IH]; simpl; [split; [auto|split; [auto|intros ? []]]|].
    inv_ok. destruct IH as (I1 & I2 & I3). rewrite I1, I2. split; [auto|split; [auto|]]. intros u [<-|Hu]; [|apply I3; auto]. cbn. repeat split; auto; congruence. }
  destruct HB as (HB1 & HB2 & HB3). exists x, rs0, vals, vals, x3. ssplit; auto.
Qed.

Lemma value_of_inv (g : graph) n v : value_of g n = Ok v -> exists o, nth_error (g_ops g) (fst n) = Some o /\ nth_error (oi_vals o) (snd n) = Some v.
Proof.
  unfold value_of. intros E. inv_ok. eexists. split; apply idx_nth_inv; eauto.
Qed.
Arguments value_of_inv {g n v}.

Lemma create_gwf g op own xs g' ns : gwf g -> create itp g op own xs = Ok (g', ns) -> gwf g'.
Proof.
  intros W E. apply create_inv in E. destruct E as (ss & rs & vals & grads & ds & E1 & E2 & E3 & E4 & E5 & E6 & _ & _ & -> & E7).
  assert (HX : forall n, In n xs -> fst n < length (g_ops g) /\ exists p, nth_error (g_ops g) (fst n) = Some p /\ snd n < length (oi_vals p) /\ oi_depth p <= fold_left Nat.max ds 0).
  { intros n Hn. destruct (mapM_in E1 Hn) as [s Es]. inv_ok.
    match goal with H : value_of _ _ = Ok _ |- _ => destruct (value_of_inv H) as (p & Hp1 & Hp2) end.
    split; [eapply nth_error_Some_lt; eauto|]. exists p. split; auto. split; [eapply nth_error_Some_lt; eauto|].
    apply fold_max_ge. apply mapM_Forall2 in E3. clear -E3 Hn Hp1. induction E3 as [|n' d xs ds H E3 IH]; [destruct Hn|].
    destruct Hn as [->|Hn]; [left|right; auto]. unfold depth_of in H. rewrite (idx_nth Hp1) in H. cbn in H. congruence. }
  assert (HO : forall i p, nth_error (g_ops g) i = Some p -> nth_error (g_ops g ++ [mkOpinfo op xs vals grads own false (fold_left Nat.max ds 0 + 1)]) i = Some p).
  { intros i p Hp. rewrite nth_error_app1; auto. eapply nth_error_Some_lt; eauto. }
  constructor; cbn [g_ops].
  - intros i o n Hi Hn. destruct (Nat.lt_ge_cases i (length (g_ops g))) as [L|L].
    + rewrite nth_error_app1 in Hi by auto. destruct (gwf_args W Hi Hn) as (A & p & B & C). split; auto. exists p. split; auto.
    + rewrite nth_error_app2 in Hi by auto. destruct (i - length (g_ops g)) eqn:Ei; [|destruct n0; discriminate].
      cbn in Hi. inversion Hi; subst o; cbn [oi_args oi_depth] in *. destruct (HX _ Hn) as (A & p & B & C & D). split; [lia|].
      exists p. split; [auto|]. split; auto. lia.
  - intros i o Hi. destruct (Nat.lt_ge_cases i (length (g_ops g))) as [L|L].
    + rewrite nth_error_app1 in Hi by auto. eapply gwf_len; eauto.
    + rewrite nth_error_app2 in Hi by auto. destruct (i - length (g_ops g)) eqn:Ei; [|destruct n; discriminate].
      cbn in Hi. inversion Hi; subst o; cbn. subst; auto.
Qed.

(** ** Collection *)
Lemma mem_In i l : mem i l = true <-> In i l.
Proof.
  unfold mem. rewrite existsb_exists. split; [intros (x & H & E); apply Nat.eqb_eq in E; subst; auto|].
  intros H; exists i; split; auto. apply Nat.eqb_refl.
Qed.
Lemma arg_ops_In (g : graph) i j : In j (arg_ops g i) <-> exists o n, nth_error (g_ops g) i = Some o /\ In n (oi_args o) /\ fst n = j.
Proof.
  unfold arg_ops. destruct (nth_error (g_ops g) i) as [o|] eqn:E.
  - rewrite in_map_iff. split; [intros (n & <- & H); eauto|]. intros (o' & n & E' & H & <-). inversion E'; subst. eauto.
  - split; [intros []|]. intros (o & n & E' & _). discriminate.
Qed.

(** what one pass over the arguments does *)
Lemma visit_fold l : forall q r, exists new, fold_left visit l (q, r) = (q ++ new, rev new ++ r) /\ NoDup new /\
  (forall x, In x new <-> In x l /\ ~ In x r).
Proof.
  induction l as [|a l IH]; intros q r; simpl.
  - exists []. rewrite app_nil_r. split; [reflexivity|split; [constructor|]]. intros x; simpl; tauto.
  - destruct (mem a r) eqn:M.
    + apply mem_In in M. destruct (IH q r) as (new & E & N & H). exists new. split; [exact E|split; [exact N|]]. intros x. rewrite H. simpl. split; [tauto|]. intros ([->|H1] & H2); tauto.
    + assert (~ In a r) as M' by (rewrite <- mem_In; congruence).
      destruct (IH (q ++ [a]) (a :: r)) as (new & E & N & H). exists (a :: new). rewrite E. split; [|split].
      * rewrite <- app_assoc. cbn. rewrite <- app_assoc. reflexivity.
      * constructor; auto. rewrite H. simpl. tauto.
      * intros x. simpl. rewrite H. simpl. split; [intros [->|(A & B)]; tauto|].
        intros ([->|A] & B); [tauto|]. destruct (Nat.eq_dec a x); [tauto|]. right; tauto.
Qed.

(** loop invariant: the popped and the queued operators are distinct, they are the
    root and the operators reached, everything is used by the root, and the
    arguments of popped operators have been reached *)
Record cinv (g : graph) (root : nat) (queue reached acc : list nat) : Prop := {
  ci_nodup : NoDup (acc ++ queue);
  ci_split : forall x, In x (acc ++ queue) <-> x = root \/ In x reached;
  ci_root : ~ In root reached;
  ci_uses : forall x, In x (acc ++ queue) -> uses g root x /\ x < length (g_ops g) /\ (x = root \/ x < root);
  ci_closed : forall x y, In x acc -> In y (arg_ops g x) -> In y reached }.

Lemma uses_trans g a b c : uses g a b -> uses g b c -> uses g a c.
Proof. induction 1; auto. intros; eapply uses_step; eauto. Qed.

Lemma collect_step g root i queue reached acc : gwf g -> cinv g root (i :: queue) reached acc ->
  forall q r, fold_left visit (arg_ops g i) (queue, reached) = (q, r) -> cinv g root q r (acc ++ [i]).
Proof.
  intros W [N S Rt U C] q r E. destruct (visit_fold (arg_ops g i) queue reached) as (new & E' & N' & H').
  rewrite E' in E. inversion E; subst q r; clear E E'.
  assert (Hi : uses g root i /\ i < length (g_ops g) /\ (i = root \/ i < root)) by (apply U; apply in_or_app; right; left; auto).
  assert (Hnew : forall x, In x new -> uses g root x /\ x < i).
  { intros x Hx. apply H' in Hx. destruct Hx as (Hx & _). apply arg_ops_In in Hx. destruct Hx as (o & n & Ho & Hn & <-).
    split; [|apply (gwf_args W Ho Hn)]. eapply uses_trans; [apply Hi|]. eapply uses_step; eauto. constructor. }
  assert (EA : (acc ++ [i]) ++ queue ++ new = (acc ++ i :: queue) ++ new) by (rewrite <- !app_assoc; reflexivity).
  assert (Hin : forall x, In x new -> ~ In x (acc ++ i :: queue)).
  { intros x Hx Hx'. apply S in Hx'. destruct Hx' as [->|Hx']; [|apply H' in Hx; tauto].
    destruct (Hnew _ Hx). destruct Hi as (_ & _ & [?|?]); lia. }
  constructor.
  - rewrite EA.
    clear -N N' Hin. revert N Hin. generalize (acc ++ i :: queue). intros l. induction l as [|a l IH]; simpl; intros N H; auto.
    inversion N; subst. constructor; [|apply IH; auto; intros x Hx Hx'; apply (H x); auto].
    intros HI. apply in_app_or in HI. destruct HI as [HI|HI]; [tauto|]. apply (H a); auto.
  - intros x. rewrite EA, !in_app_iff, <- in_app_iff, S. rewrite <- in_rev. tauto.
  - rewrite in_app_iff, <- in_rev. intros [Hx|Hx]; [|tauto]. apply (Hin _ Hx). apply S; auto.
  - intros x. rewrite EA, in_app_iff. intros [Hx|Hx]; [apply U; auto|]. destruct (Hnew _ Hx). split; auto. split; [lia|]. right. destruct Hi as (_ & _ & [?|?]); lia.
  - intros x y. rewrite !in_app_iff, <- in_rev. intros [Hx|[<-|[]]] Hy; [right; eapply C; eauto|].
    destruct (in_dec Nat.eq_dec y reached); [right; auto|]. left. apply H'. auto.
Qed.

Lemma NoDup_app_l A (l l' : list A) : NoDup (l ++ l') -> NoDup l.
Proof. induction l; simpl; intros H; [constructor|]. inversion H; subst. constructor; auto. intros Hi; apply H2; apply in_or_app; auto. Qed.
Lemma collect_spec g root : gwf g -> forall fuel queue reached acc, cinv g root queue reached acc ->
  length (g_ops g) + 1 <= fuel + length acc ->
  exists reached', cinv g root [] reached' (collect g fuel queue reached acc).
Proof.
  intros W fuel. induction fuel as [|fuel IH]; intros queue reached acc I L.
  - exfalso. assert (length acc <= length (g_ops g)); [|lia].
    assert (N : NoDup acc) by (pose proof (ci_nodup I) as N; apply NoDup_app_l in N; auto).
    rewrite <- (seq_length (length (g_ops g)) 0). apply NoDup_incl_length; auto.
    intros x Hx. apply in_seq. assert (x < length (g_ops g)); [|lia]. apply (ci_uses I). apply in_or_app; auto.
  - simpl. destruct queue as [|i queue]; [eauto|].
    destruct (fold_left visit (arg_ops g i) (queue, reached)) as [q r] eqn:E.
    pose proof (collect_step W I E) as I'. apply IH; auto. rewrite app_length; simpl; lia.
Qed.

(** every operator the root uses is requested, once, and no other *)
Theorem requests_spec g root : gwf g -> root < length (g_ops g) ->
  NoDup (requests g root) /\ forall i, In i (requests g root) <-> uses g root i.
Proof.
  intros W L. assert (I0 : cinv g root [root] [] []).
  { constructor; simpl; auto; try tauto.
    - constructor; [intros []|constructor].
    - intros x; split; intros [<-|H]; auto; destruct H.
    - intros x [<-|[]]. split; [constructor|]. auto. }
  destruct (@collect_spec g root W (S (length (g_ops g))) _ _ _ I0) as (r & I); [simpl; lia|].
  fold (requests g root) in I. destruct I as [N S Rt U C]. rewrite app_nil_r in *. split; auto.
  intros i. split; [apply U|]. intros Hu. assert (Hr : In root (requests g root)) by (apply S; auto).
  enough (G : forall k i, uses g k i -> In k (requests g root) -> In i (requests g root)) by (intros; eapply G; eauto).
  clear i Hu Hr. induction 1 as [i|i o n j Ho Hn Hu IH]; auto. intros Hi. apply IH.
  apply S. right. eapply C; eauto. apply arg_ops_In. eauto.
Qed.

Lemma uses_lt g i j : gwf g -> uses g i j -> i < length (g_ops g) -> j < length (g_ops g) /\ j <= i.
Proof.
  intros W H. induction H as [|i o n j Ho Hn Hu IH]; intros L; [lia|]. destruct (gwf_args W Ho Hn) as (A & _). destruct IH; lia.
Qed.
Lemma uses_depth g i j : gwf g -> uses g i j -> i = j \/ depth0 g j < depth0 g i.
Proof.
  intros W H. induction H as [|i o n j Ho Hn Hu IH]; auto. right.
  destruct (gwf_args W Ho Hn) as (A & p & Hp & _ & D).
  assert (depth0 g (fst n) < depth0 g i) by (unfold depth0; rewrite Hp, Ho; auto). destruct IH as [E|IH]; [rewrite <- E|]; lia.
Qed.
End GraphFacts.
Arguments blank {K}.
Arguments gwf_args {K Oper g} _ {i o n}. Arguments gwf_len {K Oper g} _ {i o}.
Arguments mapM_length {A B f l ys}. Arguments mapM_in {A B f l ys x}. Arguments mapM_Ok {A B f l}.
Arguments idx_nth {A l i x}. Arguments value_of_inv {K Oper g n v}. Arguments idx_nth_inv {A l i x}.
Arguments nth_error_Some_lt {A l i x}.
