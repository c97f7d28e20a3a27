(** * Base: outcomes, loops and raw buffers

    The vocabulary shared by all models of /repo. *)
From Coq Require Export List Arith NArith ZArith Lia Bool.
Export ListNotations.
Set Implicit Arguments.

(** ** Outcomes of a Rust function
    [Ok v]: the function returned v.  [Panic]: a Rust panic (assert!, unwrap on
    None, slice index out of range, integer overflow in a debug build...).
    [UB]: a raw pointer was read or written outside of the allocation. *)
Inductive res (A : Type) : Type :=
| Ok (a : A)
| Panic
| UB.
Arguments Ok {A} a.
Arguments Panic {A}.
Arguments UB {A}.

Definition bind {A B} (r : res A) (f : A -> res B) : res B :=
  match r with Ok a => f a | Panic => Panic | UB => UB end.
Notation "x <- r ;; k" := (bind r (fun x => k)) (at level 61, r at next level, right associativity).
Notation "' p <- r ;; k" := (bind r (fun p => k)) (at level 61, p pattern, r at next level, right associativity).

(** assert!(b) *)
Definition assert (b : bool) : res unit := if b then Ok tt else Panic.
(** Option::unwrap *)
Definition unwrap {A} (o : option A) : res A := match o with Some a => Ok a | None => Panic end.

Definition isOk {A} (r : res A) : Prop := exists a, r = Ok a.

Lemma bind_Ok A B (r : res A) (f : A -> res B) b :
  bind r f = Ok b <-> exists a, r = Ok a /\ f a = Ok b.
Proof.
  split.
  - destruct r; simpl; intros H; try discriminate. eauto.
  - intros (a & -> & H). exact H.
Qed.

Lemma bind_assoc A B C (r : res A) (f : A -> res B) (g : B -> res C) :
  bind (bind r f) g = bind r (fun a => bind (f a) g).
Proof. destruct r; reflexivity. Qed.

Lemma bind_Ok_r A (r : res A) : bind r (fun a => Ok a) = r.
Proof. destruct r; reflexivity. Qed.

Lemma bind_ext A B (r : res A) (f g : A -> res B) :
  (forall a, r = Ok a -> f a = g a) -> bind r f = bind r g.
Proof. destruct r; simpl; auto. Qed.

Lemma assert_Ok b u : assert b = Ok u <-> b = true.
Proof. destruct b, u; simpl; split; congruence. Qed.

Lemma assert_bind_Ok A b (k : unit -> res A) a :
  bind (assert b) k = Ok a <-> b = true /\ k tt = Ok a.
Proof. destruct b; simpl; split; intros H; try tauto; try discriminate; destruct H; congruence. Qed.

Lemma assert_bind_true A (b : bool) (k : unit -> res A) : b = true -> bind (assert b) k = k tt.
Proof. intros ->. reflexivity. Qed.
Lemma assert_bind_false A (b : bool) (k : unit -> res A) : b = false -> bind (assert b) k = Panic.
Proof. intros ->. reflexivity. Qed.

(** split visible conjunctions only *)
Ltac ssplit := repeat match goal with |- _ /\ _ => split end.

Ltac inv_ok :=
  repeat match goal with
  | H : bind (assert _) _ = Ok _ |- _ => apply assert_bind_Ok in H; destruct H
  | H : bind _ _ = Ok _ |- _ => apply bind_Ok in H; destruct H as (? & ? & ?)
  | H : Ok _ = Ok _ |- _ => injection H; clear H; intros; subst
  | H : Panic = Ok _ |- _ => discriminate H
  | H : UB = Ok _ |- _ => discriminate H
  end.

(** ** Loops *)

(** [for a in l { s = body(a, s) }] *)
Fixpoint forL {A S} (l : list A) (body : A -> S -> res S) (s : S) : res S :=
  match l with
  | [] => Ok s
  | a :: l' => s' <- body a s ;; forL l' body s'
  end.

(** [for i in 0..n { .. }] *)
Definition forN {S} (n : nat) (body : nat -> S -> res S) (s : S) : res S := forL (seq 0 n) body s.
(** [for i in lo..hi { .. }] *)
Definition forR {S} (lo hi : nat) (body : nat -> S -> res S) (s : S) : res S := forL (seq lo (hi - lo)) body s.

Lemma forL_app A S (l1 l2 : list A) (body : A -> S -> res S) s :
  forL (l1 ++ l2) body s = (s' <- forL l1 body s ;; forL l2 body s').
Proof.
  revert s; induction l1 as [|a l1 IH]; intros s; simpl; [reflexivity|].
  destruct (body a s); simpl; auto.
Qed.

Lemma forL_inv A S (P : list A -> S -> Prop) (l : list A) body (s : S) :
  P [] s ->
  (forall l1 a l2 s, l = l1 ++ a :: l2 -> P l1 s -> exists s', body a s = Ok s' /\ P (l1 ++ [a]) s') ->
  exists s', forL l body s = Ok s' /\ P l s'.
Proof.
  intros H0 Hstep.
  assert (G : forall l2 l1 s, l = l1 ++ l2 -> P l1 s -> exists s', forL l2 body s = Ok s' /\ P l s').
  { induction l2 as [|a l2 IH]; intros l1 s1 Hl HP.
    - rewrite app_nil_r in Hl; subst. simpl. eauto.
    - destruct (Hstep l1 a l2 s1 Hl HP) as (s' & Hb & HP').
      simpl. rewrite Hb. simpl. apply (IH (l1 ++ [a])); [|exact HP'].
      rewrite <- app_assoc. exact Hl. }
  apply (G l [] s); auto.
Qed.

Lemma forN_S S n (body : nat -> S -> res S) s :
  forN (Datatypes.S n) body s = (s' <- forN n body s ;; body n s').
Proof.
  unfold forN. rewrite seq_S, forL_app. simpl. apply bind_ext. intros a _.
  apply bind_Ok_r.
Qed.

Lemma forN_inv S (P : nat -> S -> Prop) n body (s : S) :
  P 0 s ->
  (forall i s, i < n -> P i s -> exists s', body i s = Ok s' /\ P (Datatypes.S i) s') ->
  exists s', forN n body s = Ok s' /\ P n s'.
Proof.
  intros H0; induction n as [|n IH]; intros Hstep.
  - exists s; split; [reflexivity|exact H0].
  - destruct IH as (s1 & E1 & HP1); [intros; apply Hstep; auto; lia|].
    destruct (Hstep n s1 ltac:(lia) HP1) as (s2 & E2 & HP2).
    exists s2. rewrite forN_S, E1. simpl. auto.
Qed.

Lemma forL_ext A S (l : list A) (b1 b2 : A -> S -> res S) s :
  (forall a s, In a l -> b1 a s = b2 a s) -> forL l b1 s = forL l b2 s.
Proof.
  revert s; induction l as [|a l IH]; intros s H; simpl; [reflexivity|].
  rewrite H by (left; auto). apply bind_ext; intros; apply IH; intros; apply H; right; auto.
Qed.

Lemma forN_ext S n (b1 b2 : nat -> S -> res S) s :
  (forall i s, i < n -> b1 i s = b2 i s) -> forN n b1 s = forN n b2 s.
Proof.
  intros H; apply forL_ext; intros a s' Ha; apply H; apply in_seq in Ha; lia.
Qed.

Lemma forL_map A B S (f : A -> B) (l : list A) (body : B -> S -> res S) s :
  forL (map f l) body s = forL l (fun a => body (f a)) s.
Proof. revert s; induction l; intros; simpl; auto. apply bind_ext; auto. Qed.

(** nested loops are one loop over the flattened index list *)
Lemma forL_flat_map A B S (f : A -> list B) (l : list A) (body : B -> S -> res S) s :
  forL (flat_map f l) body s = forL l (fun a s => forL (f a) body s) s.
Proof.
  revert s; induction l as [|a l IH]; intros s; simpl; [reflexivity|].
  rewrite forL_app. apply bind_ext; auto.
Qed.

(** a loop that also advances a pointer by a constant stride *)
Lemma forN_stride S n k (body : nat -> nat -> S -> res S) p0 (s0 : S) :
  forN n (fun i '(p, s) => s' <- body i p s ;; Ok (p + k, s')) (p0, s0)
  = (s' <- forN n (fun i s => body i (p0 + i * k) s) s0 ;; Ok (p0 + n * k, s')).
Proof.
  induction n as [|n IH].
  - unfold forN; simpl. rewrite Nat.add_0_r. reflexivity.
  - rewrite !forN_S, IH, !bind_assoc. apply bind_ext; intros s1 _. simpl.
    apply bind_ext; intros s2 _. do 2 f_equal; lia.
Qed.

Lemma forN_stride2 S n k1 k2 (body : nat -> nat -> nat -> S -> res S) p0 q0 (s0 : S) :
  forN n (fun i '(p, q, s) => s' <- body i p q s ;; Ok (p + k1, q + k2, s')) (p0, q0, s0)
  = (s' <- forN n (fun i s => body i (p0 + i * k1) (q0 + i * k2) s) s0 ;; Ok (p0 + n * k1, q0 + n * k2, s')).
Proof.
  induction n as [|n IH].
  - unfold forN; simpl. rewrite !Nat.add_0_r. reflexivity.
  - rewrite !forN_S, IH, !bind_assoc. apply bind_ext; intros s1 _. simpl.
    apply bind_ext; intros s2 _.
    repeat match goal with |- context [?p + (?k + ?n * ?k)] => replace (p + (k + n * k)) with (p + n * k + k) by lia end.
    reflexivity.
Qed.

Lemma forN_stride3 S n k1 k2 k3 (body : nat -> nat -> nat -> nat -> S -> res S) p0 q0 r0 (s0 : S) :
  forN n (fun i '(p, q, r, s) => s' <- body i p q r s ;; Ok (p + k1, q + k2, r + k3, s')) (p0, q0, r0, s0)
  = (s' <- forN n (fun i s => body i (p0 + i * k1) (q0 + i * k2) (r0 + i * k3) s) s0 ;;
     Ok (p0 + n * k1, q0 + n * k2, r0 + n * k3, s')).
Proof.
  induction n as [|n IH].
  - unfold forN; simpl. rewrite !Nat.add_0_r. reflexivity.
  - rewrite !forN_S, IH, !bind_assoc. apply bind_ext; intros s1 _. simpl.
    apply bind_ext; intros s2 _.
    repeat match goal with |- context [?p + (?k + ?n * ?k)] => replace (p + (k + n * k)) with (p + n * k + k) by lia end.
    reflexivity.
Qed.

(** ** Raw buffers *)

(** [*p.add(i)] (read) *)
Definition rd {A} (l : list A) (i : nat) : res A :=
  match nth_error l i with Some a => Ok a | None => UB end.

Fixpoint lset {A} (l : list A) (i : nat) (v : A) : list A :=
  match l, i with
  | [], _ => []
  | _ :: l', 0 => v :: l'
  | a :: l', Datatypes.S i' => a :: lset l' i' v
  end.

(** [*p.add(i) = v] (write) *)
Definition wr {A} (l : list A) (i : nat) (v : A) : res (list A) :=
  if i <? length l then Ok (lset l i v) else UB.

(** indexing of a Rust slice or Vec: out of range panics *)
Definition idx {A} (l : list A) (i : nat) : res A :=
  match nth_error l i with Some a => Ok a | None => Panic end.

Lemma lset_length A (l : list A) i v : length (lset l i v) = length l.
Proof. revert i; induction l as [|a l IH]; intros [|i]; simpl; auto. Qed.

Lemma nth_lset A (l : list A) i v j d :
  i < length l -> nth j (lset l i v) d = if j =? i then v else nth j l d.
Proof.
  revert i j; induction l as [|a l IH]; intros i j H; simpl in *; [lia|].
  destruct i as [|i]; destruct j as [|j]; simpl; auto.
  apply IH; lia.
Qed.

Lemma nth_lset_eq A (l : list A) i v d : i < length l -> nth i (lset l i v) d = v.
Proof. intros; rewrite nth_lset, Nat.eqb_refl by auto; auto. Qed.
Lemma nth_lset_neq A (l : list A) i j v d : i <> j -> nth j (lset l i v) d = nth j l d.
Proof.
  revert i j; induction l as [|a l IH]; intros [|i] [|j] H; simpl; auto; try lia.
Qed.

Lemma rd_Ok A (l : list A) i d : i < length l -> rd l i = Ok (nth i l d).
Proof. intros H; unfold rd. rewrite (nth_error_nth' l d H). reflexivity. Qed.
Lemma idx_Ok A (l : list A) i d : i < length l -> idx l i = Ok (nth i l d).
Proof. intros H; unfold idx. rewrite (nth_error_nth' l d H). reflexivity. Qed.
Lemma idx_Panic A (l : list A) i : length l <= i -> idx l i = Panic.
Proof. intros H; unfold idx. apply nth_error_None in H. rewrite H; reflexivity. Qed.
Lemma wr_Ok A (l : list A) i v : i < length l -> wr l i v = Ok (lset l i v).
Proof. intros H; unfold wr. apply Nat.ltb_lt in H. rewrite H; reflexivity. Qed.
Arguments rd_Ok {A} l i d _.
Arguments idx_Ok {A} l i d _.
Arguments wr_Ok {A} l i v _.
Lemma idx_inv A (l : list A) i a : idx l i = Ok a -> nth_error l i = Some a.
Proof. unfold idx. destruct (nth_error l i); congruence. Qed.

Lemma nth_ext_len A (l1 l2 : list A) d :
  length l1 = length l2 -> (forall i, i < length l1 -> nth i l1 d = nth i l2 d) -> l1 = l2.
Proof. intros; eapply nth_ext; eauto. Qed.

(** ** The scatter lemma
    A loop whose every iteration updates one cell [g a] of a buffer as a
    function of its old contents. *)
Definition upd {A} (l : list A) (i : nat) (f : A -> res A) : res (list A) :=
  v <- rd l i ;; v' <- f v ;; wr l i v'.

Definition hits {A B} (g : A -> nat) (h : A -> B -> B) (l : list A) (p : nat) (v : B) : B :=
  fold_left (fun acc a => if g a =? p then h a acc else acc) l v.

Lemma hits_app A B g (h : A -> B -> B) l1 l2 p v :
  hits g h (l1 ++ l2) p v = hits g h l2 p (hits g h l1 p v).
Proof. unfold hits; apply fold_left_app. Qed.

Lemma scatter A B (g : A -> nat) (h : A -> B -> B) (body : A -> list B -> res (list B)) (l : list A) (y : list B) d :
  (forall a y', In a l -> length y' = length y ->
     body a y' = Ok (lset y' (g a) (h a (nth (g a) y' d))) /\ g a < length y) ->
  exists y', forL l body y = Ok y' /\ length y' = length y /\
    forall p, nth p y' d = if p <? length y then hits g h l p (nth p y d) else d.
Proof.
  intros Hb.
  destruct (@forL_inv A (list B)
     (fun l1 y1 => length y1 = length y /\
        forall p, nth p y1 d = if p <? length y then hits g h l1 p (nth p y d) else d)
     l body y) as (y' & E & HP).
  - split; [reflexivity|]. intros p. simpl.
    destruct (Nat.ltb_spec p (length y)); auto. rewrite nth_overflow; auto.
  - intros l1 a l2 s Hl (Hlen & Hn).
    assert (Ha : In a l) by (rewrite Hl; apply in_or_app; right; left; auto).
    destruct (Hb a s Ha Hlen) as (Eb & Hg).
    exists (lset s (g a) (h a (nth (g a) s d))); split; [exact Eb|].
    split; [rewrite lset_length; exact Hlen|].
    intros p. rewrite nth_lset by lia.
    rewrite hits_app. unfold hits at 1; simpl.
    rewrite (Nat.eqb_sym p (g a)).
    destruct (Nat.eqb_spec (g a) p) as [Heq|Hne].
    + assert (Hlt : p <? length y = true) by (apply Nat.ltb_lt; lia).
      rewrite Heq, Hn, Hlt. reflexivity.
    + rewrite Hn. destruct (p <? length y); reflexivity.
  - exists y'; split; [exact E|]. exact HP.
Qed.

Lemma hits_none A B g (h : A -> B -> B) l p v :
  (forall a, In a l -> g a <> p) -> hits g h l p v = v.
Proof.
  revert v; induction l as [|a l IH]; intros v H; simpl; auto. unfold hits in *; simpl.
  destruct (Nat.eqb_spec (g a) p) as [E|E]; [exfalso; apply (H a); simpl; auto|].
  apply IH. intros; apply H; right; auto.
Qed.

Lemma hits_filter A B g (h : A -> B -> B) l p v :
  hits g h l p v = fold_left (fun acc a => h a acc) (filter (fun a => g a =? p) l) v.
Proof.
  revert v; induction l as [|a l IH]; intros v; simpl; auto. unfold hits in *; simpl.
  destruct (g a =? p); simpl; apply IH.
Qed.

(** exactly one iteration hits p *)
Lemma hits_one A B g (h : A -> B -> B) l1 a l2 p v :
  g a = p -> (forall a', In a' l1 -> g a' <> p) -> (forall a', In a' l2 -> g a' <> p) ->
  hits g h (l1 ++ a :: l2) p v = h a v.
Proof.
  intros Ha H1 H2. rewrite hits_app. rewrite (@hits_none A B g h l1 p v H1).
  unfold hits; simpl. rewrite (proj2 (Nat.eqb_eq _ _) Ha).
  change (hits g h l2 p (h a v) = h a v). apply hits_none; exact H2.
Qed.

Lemma hits_unique A B g (h : A -> B -> B) l a p v :
  NoDup l -> In a l -> g a = p -> (forall a', In a' l -> g a' = p -> a' = a) ->
  hits g h l p v = h a v.
Proof.
  intros Hnd Hin Hg Hu. destruct (in_split _ _ Hin) as (l1 & l2 & ->).
  apply hits_one; auto; intros a' Ha' E;
    apply NoDup_remove_2 in Hnd; apply Hnd;
    (rewrite <- (Hu a'); [|apply in_or_app; simpl; auto|exact E]); apply in_or_app; auto.
Qed.

(** Rewriting with lists of indices *)
Lemma map_nth_seq A (l : list A) d : map (fun i => nth i l d) (seq 0 (length l)) = l.
Proof.
  apply nth_ext_len with (d := d); [rewrite map_length, seq_length; auto|].
  intros i Hi. rewrite map_length, seq_length in Hi.
  rewrite (nth_indep _ d (nth 0 l d)) by (rewrite map_length, seq_length; auto).
  rewrite (map_nth (fun i => nth i l d)). rewrite seq_nth; auto.
Qed.

Lemma nth_map_seq A (f : nat -> A) n i d : i < n -> nth i (map f (seq 0 n)) d = f i.
Proof.
  intros H. rewrite nth_indep with (d' := f 0) by (rewrite map_length, seq_length; auto).
  rewrite map_nth, seq_nth; auto.
Qed.

Lemma nth_firstn_lt A (l : list A) n i d : i < n -> nth i (firstn n l) d = nth i l d.
Proof.
  revert l i; induction n as [|n IH]; intros l i H; [lia|].
  destruct l as [|a l]; simpl; [destruct i; auto|]. destruct i; auto. apply IH; lia.
Qed.

Lemma NoDup_flat_map A B (f : A -> list B) l :
  NoDup l -> (forall a, In a l -> NoDup (f a)) ->
  (forall a1 a2 b, In a1 l -> In a2 l -> In b (f a1) -> In b (f a2) -> a1 = a2) ->
  NoDup (flat_map f l).
Proof.
  induction l as [|a l IH]; intros Hnd Hf Hd; simpl; [constructor|].
  inversion Hnd; subst.
  assert (IH' : NoDup (flat_map f l)).
  { apply IH; auto. - intros; apply Hf; right; auto. - intros a1 a2 b ? ? ? ?. apply (Hd a1 a2 b); simpl; auto. }
  clear IH.
  assert (G : forall l1, NoDup l1 -> (forall b, In b l1 -> ~ In b (flat_map f l)) -> NoDup (l1 ++ flat_map f l)).
  { induction l1 as [|b l1 IHl]; intros H3 H4; simpl; auto.
    inversion H3; subst. constructor.
    - rewrite in_app_iff. intros [?|?]; auto. apply (H4 b); simpl; auto.
    - apply IHl; auto. intros; apply H4; right; auto. }
  apply G.
  - apply Hf; left; auto.
  - intros b Hb1 Hb2. apply in_flat_map in Hb2. destruct Hb2 as (a2 & Ha2 & Hb2).
    assert (a = a2) by (apply (Hd a a2 b); simpl; auto). subst; auto.
Qed.
