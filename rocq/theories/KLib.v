(** * KLib: loop lemmas used to characterise kernels *)
From Verif Require Export Kernels.
Set Implicit Arguments.

(** a loop whose successive states are known *)
Lemma forN_det S n (body : nat -> S -> res S) (st : nat -> S) :
  (forall i, i < n -> body i (st i) = Ok (st (Datatypes.S i))) -> forN n body (st 0) = Ok (st n).
Proof.
  intros H. induction n; [reflexivity|]. rewrite forN_S, IHn by auto. simpl. apply H. lia.
Qed.
Lemma forR_det S lo hi (body : nat -> S -> res S) (st : nat -> S) :
  lo <= hi -> (forall i, lo <= i < hi -> body i (st i) = Ok (st (Datatypes.S i))) -> forR lo hi body (st lo) = Ok (st hi).
Proof.
  intros Hl H. unfold forR. replace hi with (lo + (hi - lo)) at 2 by lia.
  remember (hi - lo) as n. assert (Hn : forall i, lo <= i < lo + n -> body i (st i) = Ok (st (Datatypes.S i))) by (intros; apply H; lia).
  clear H Hl Heqn hi. revert lo Hn; induction n; intros lo Hn; simpl.
  - rewrite Nat.add_0_r; auto.
  - rewrite Hn by lia. simpl. replace (lo + Datatypes.S n) with (Datatypes.S lo + n) by lia. apply IHn. intros; apply Hn; lia.
Qed.

(** nested loops over a rectangle are one loop *)
Lemma forN_nest S B V (f : nat -> S -> res S) s :
  forN (B * V) f s = forN B (fun b s => forN V (fun i s => f (b * V + i) s) s) s.
Proof.
  revert s; induction B; intros s; [reflexivity|].
  rewrite forN_S. rewrite <- IHB. unfold forN.
  replace (Datatypes.S B * V) with (B * V + V) by lia.
  rewrite seq_app, forL_app. apply bind_ext; intros s' _.
  simpl. replace (seq (B * V) V) with (map (fun i => B * V + i) (seq 0 V)).
  - apply forL_map.
  - clear. generalize (B * V) as a. intros a. induction V using nat_ind; auto.
    rewrite seq_S, map_app, IHV, seq_S. simpl. auto.
Qed.

Lemma forN_nest_rev S B V (g : nat -> nat -> S -> res S) s : 
  forN B (fun b s => forN V (fun i s => g b i s) s) s = forN (B * V) (fun p s => g (p / V) (p mod V) s) s.
Proof.
  rewrite forN_nest. apply forN_ext; intros b s1 Hb. apply forN_ext; intros i s2 Hi.
  f_equal.
  - rewrite Nat.div_add_l by lia. rewrite Nat.div_small by lia. lia.
  - rewrite Nat.add_comm, Nat.mod_add by lia. rewrite Nat.mod_small; auto.
Qed.

Lemma forN_stride4 S n k1 k2 k3 k4 (body : nat -> nat -> nat -> nat -> nat -> S -> res S) p0 q0 r0 t0 (s0 : S) :
  forN n (fun i '(p, q, r, t, s) => s' <- body i p q r t s ;; Ok (p + k1, q + k2, r + k3, t + k4, s')) (p0, q0, r0, t0, s0)
  = (s' <- forN n (fun i s => body i (p0 + i * k1) (q0 + i * k2) (r0 + i * k3) (t0 + i * k4) s) s0 ;;
     Ok (p0 + n * k1, q0 + n * k2, r0 + n * k3, t0 + n * k4, s')).
Proof.
  induction n as [|n IH].
  - unfold forN; simpl. rewrite !Nat.add_0_r. reflexivity.
  - rewrite !forN_S, IH, !bind_assoc. apply bind_ext; intros s1 _. simpl.
    apply bind_ext; intros s2 _.
    repeat match goal with |- context [?p + (?k + ?n * ?k)] => replace (p + (k + n * k)) with (p + n * k + k) by lia end.
    reflexivity.
Qed.

Section Buf.
Variable A : Type.
Variable d : A.

(** [l'] is [l] with the first [n] cells replaced by [f 0 .. f (n-1)] *)
Definition over (l l' : list A) (n : nat) (f : nat -> A) : Prop :=
  length l' = length l /\ forall p, nth p l' d = if p <? n then f p else nth p l d.

Lemma upd_Ok (l : list A) i (f : A -> A) : i < length l ->
  upd l i (fun v => Ok (f v)) = Ok (lset l i (f (nth i l d))).
Proof. intros H. unfold upd. rewrite (rd_Ok l i d H). simpl. apply wr_Ok; auto. Qed.

(** update every cell below n once *)
Lemma upd_loop n (body : nat -> list A -> res (list A)) (h : nat -> A -> A) l :
  n <= length l ->
  (forall i l', i < n -> length l' = length l -> body i l' = Ok (lset l' i (h i (nth i l' d)))) ->
  exists l', forN n body l = Ok l' /\ over l l' n (fun p => h p (nth p l d)).
Proof.
  intros Hn Hb. unfold over.
  destruct (@forN_inv (list A) (fun k l' => length l' = length l /\
     forall p, nth p l' d = if p <? k then h p (nth p l d) else nth p l d) n body l) as (l' & E & H).
  - split; auto.
  - intros i l1 Hi (HL & HP). eexists; split; [apply Hb; auto|].
    split; [rewrite lset_length; auto|].
    intros p. rewrite nth_lset by lia. destruct (Nat.eqb_spec p i).
    + subst. rewrite HP. replace (i <? i) with false by (symmetry; apply Nat.ltb_ge; lia).
      replace (i <? S i) with true by (symmetry; apply Nat.ltb_lt; lia). auto.
    + rewrite HP. destruct (Nat.ltb_spec p i), (Nat.ltb_spec p (S i)); auto; lia.
  - eauto.
Qed.

Lemma wr_loop n (body : nat -> list A -> res (list A)) (f : nat -> A) l :
  n <= length l ->
  (forall i l', i < n -> length l' = length l -> body i l' = Ok (lset l' i (f i))) ->
  exists l', forN n body l = Ok l' /\ over l l' n f.
Proof. intros Hn Hb. apply (@upd_loop n body (fun i _ => f i) l Hn Hb). Qed.

(** outer loop over b < B, inner over i < V, updating cell (g b) * V + i *)
Lemma upd_loop2 B B' V (body : nat -> nat -> list A -> res (list A)) (g : nat -> nat) (h : nat -> nat -> A -> A) l :
  B' * V <= length l -> (forall b, b < B -> g b < B') ->
  (forall b i l', b < B -> i < V -> length l' = length l ->
      body b i l' = Ok (lset l' (g b * V + i) (h b i (nth (g b * V + i) l' d)))) ->
  exists l', forN B (fun b l => forN V (fun i l => body b i l) l) l = Ok l' /\
    length l' = length l /\
    (forall q i, q < B' -> i < V ->
       nth (q * V + i) l' d =
       fold_left (fun acc b => if g b =? q then h b i acc else acc) (seq 0 B) (nth (q * V + i) l d)) /\
    (forall p, B' * V <= p -> nth p l' d = nth p l d).
Proof.
  intros HL Hg Hb.
  destruct (@forN_inv (list A) (fun k l' => length l' = length l /\
     (forall q i, q < B' -> i < V ->
       nth (q * V + i) l' d =
       fold_left (fun acc b => if g b =? q then h b i acc else acc) (seq 0 k) (nth (q * V + i) l d)) /\
     (forall p, B' * V <= p -> nth p l' d = nth p l d)) B
     (fun b l => forN V (fun i l => body b i l) l) l) as (l' & E & H).
  - split; [|split]; auto.
  - intros b l1 HbB (HL1 & HP & HO).
    destruct (@forN_inv (list A) (fun k l' => length l' = length l /\
      (forall i, i < V -> nth (g b * V + i) l' d = if i <? k then h b i (nth (g b * V + i) l1 d) else nth (g b * V + i) l1 d) /\
      (forall p, (p < g b * V \/ g b * V + V <= p) -> nth p l' d = nth p l1 d)) V (fun i l => body b i l) l1) as (l2 & E2 & HL2 & HP2 & HO2).
    + split; auto.
    + intros i l2 Hi (HL2 & HP2 & HO2). specialize (Hg b HbB).
      assert (Hlt : g b * V + i < length l) by nia.
      eexists; split; [apply Hb; auto|]. split; [rewrite lset_length; auto|]. split.
      * intros i' Hi'. rewrite nth_lset by lia. destruct (Nat.eqb_spec (g b * V + i') (g b * V + i)).
        -- assert (i' = i) by lia. subst. rewrite HP2 by auto.
           replace (i <? i) with false by (symmetry; apply Nat.ltb_ge; lia).
           replace (i <? S i) with true by (symmetry; apply Nat.ltb_lt; lia). auto.
        -- rewrite HP2 by auto. destruct (Nat.ltb_spec i' i), (Nat.ltb_spec i' (S i)); auto; lia.
      * intros p Hp. rewrite nth_lset_neq by lia. apply HO2; auto.
    + exists l2; split; [exact E2|]. split; auto. split.
      * intros q i Hq Hi. rewrite seq_S, fold_left_app. simpl.
        rewrite <- HP by auto.
        destruct (Nat.eqb_spec (g b) q).
        -- subst q. rewrite HP2 by auto. replace (i <? V) with true by (symmetry; apply Nat.ltb_lt; auto). auto.
        -- apply HO2. destruct (Nat.lt_ge_cases q (g b)).
           ++ left. nia.
           ++ right. nia.
      * intros p Hp. specialize (Hg b HbB). rewrite HO2; [apply HO; auto|]. right. nia.
  - eauto.
Qed.

Lemma over_firstn l l' n f : over l l' n f -> n <= length l -> firstn n l' = map f (seq 0 n).
Proof.
  intros (H1 & H2) Hn. apply nth_ext_len with (d := d).
  - rewrite firstn_length, map_length, seq_length. lia.
  - intros i Hi. rewrite firstn_length in Hi. rewrite nth_firstn_lt by lia.
    rewrite H2, nth_map_seq by lia. replace (i <? n) with true by (symmetry; apply Nat.ltb_lt; lia). auto.
Qed.
End Buf.
Arguments over {A} d l l' n f.

(** ** Reductions *)
(** [red op z f n] = op (.. (op (op z (f 0)) (f 1)) ..) (f (n-1)) *)
Definition red {A B} (op : A -> B -> A) (z : A) (f : nat -> B) (n : nat) : A :=
  fold_left (fun acc j => op acc (f j)) (seq 0 n) z.
Lemma red_S A B (op : A -> B -> A) z f n : red op z f (S n) = op (red op z f n) (f n).
Proof. unfold red. rewrite seq_S, fold_left_app. reflexivity. Qed.
Lemma red_ext A B (op : A -> B -> A) z f g n : (forall j, j < n -> f j = g j) -> red op z f n = red op z g n.
Proof. induction n; intros H; auto. rewrite !red_S, IHn, H; auto. Qed.

(** ** Valid tensors *)
Section Valid.
Variable K : num.
(** an allocated tensor: its buffer holds at least as many cells as it has elements *)
Definition vt (t : tensor K) (l : list (F K)) : Prop :=
  okshape (t_shape t) /\ t_buf t = Some l /\ tot (t_shape t) <= length l.
(** element (c, b) *)
Definition at_ (t : tensor K) (c : nat -> nat) (b : nat) : F K :=
  nth (pos (t_shape t) c b) (match t_buf t with Some l => l | None => [] end) n0.
(** which minibatch element of an operand is used for minibatch element b of the result *)
Definition bsel (s : shape) (b : nat) : nat := if bat s =? 1 then 0 else b.

Lemma ptr_vt t l : vt t l -> ptr t = Ok l.
Proof. intros (_ & H & _). unfold ptr. rewrite H; auto. Qed.
Lemma vt_wf t l : vt t l -> wf (t_shape t).
Proof. intros ((H & _) & _); auto. Qed.
Lemma size_vt m t l : vt t l -> size m (t_shape t) = Ok (N.of_nat (tot (t_shape t))).
Proof. intros (H & _). apply size_tot; auto. Qed.
Lemma at_vt t l c b : vt t l -> at_ t c b = nth (pos (t_shape t) c b) l n0.
Proof. intros (_ & H & _). unfold at_. rewrite H; auto. Qed.
Lemma vt_with_buf t l l' : vt t l -> length l' = length l -> vt (with_buf t l') l'.
Proof. intros (H1 & H2 & H3) E. split; [auto|split; auto]. simpl. lia. Qed.
Lemma at_over t l l' f c b : vt t l -> over n0 l l' (tot (t_shape t)) f ->
  inb (t_shape t) c -> b < bat (t_shape t) -> at_ (with_buf t l') c b = f (pos (t_shape t) c b).
Proof.
  intros Hv (H1 & H2) Hc Hb. unfold at_; simpl. rewrite H2.
  replace (_ <? _) with true; auto. symmetry. apply Nat.ltb_lt. apply pos_lt; auto. apply (vt_wf Hv).
Qed.
Lemma shift_bsel s v b : wf s -> b * shift s v = bsel s b * v.
Proof.
  intros H. unfold shift, bsel, bat. destruct (N.eqb_spec (batch s) 1) as [E|E].
  - rewrite E. simpl. lia.
  - replace (N.to_nat (batch s) =? 1) with false; auto.
    symmetry; apply Nat.eqb_neq. lia.
Qed.
End Valid.
