(** * Spec: coordinates and elements of a tensor

    The small independent vocabulary in which the properties of tensors are
    stated. A tensor has extents e_0, e_1, ... (1 from index 8 on) and a batch
    size; an element is addressed by a coordinate function [c] (c i < e_i) and a
    batch index [b]; storage is column major, one minibatch element after
    another. *)
From Verif Require Export ShapeOps ShapeFacts Num.
Set Implicit Arguments.

(** extents, batch and volumes as numbers of elements *)
Definition ext (s : shape) (i : nat) : nat := N.to_nat (index s i).
Definition bat (s : shape) : nat := N.to_nat (batch s).
Fixpoint prod_lt (e : nat -> nat) (d : nat) : nat :=
  match d with O => 1 | S d' => prod_lt e d' * e d' end.
(** number of elements with coordinates only below dimension d *)
Definition low (s : shape) (d : nat) : nat := prod_lt (ext s) d.
(** elements per minibatch element, and in total *)
Definition vol (s : shape) : nat := low s 8.
Definition tot (s : shape) : nat := bat s * vol s.

Fixpoint lin_lt (e : nat -> nat) (c : nat -> nat) (d : nat) : nat :=
  match d with O => 0 | S d' => lin_lt e c d' + c d' * prod_lt e d' end.
(** position of element (c, b) in column-major storage *)
Definition pos (s : shape) (c : nat -> nat) (b : nat) : nat := b * vol s + lin_lt (ext s) c 8.

(** the coordinates are in range *)
Definition inb (s : shape) (c : nat -> nat) : Prop := forall i, c i < ext s i.
(** coordinate c with the entry at d replaced *)
Definition cset (c : nat -> nat) (d k : nat) : nat -> nat := fun i => if i =? d then k else c i.
(** the coordinate (i, j) of a matrix *)
Definition c2 (i j : nat) : nat -> nat := fun d => match d with 0 => i | 1 => j | _ => 0 end.
Definition czero : nat -> nat := fun _ => 0.

(** a shape as it exists in a running program: consistent and with an element
    count that fits in u32 (C08: exactly what a debug build guarantees) *)
Definition okshape (s : shape) : Prop := wf s /\ (batch s * volume s < two32)%N.

(** ** Facts about the vocabulary *)
Lemma ext_pos s i : wf s -> 1 <= ext s i.
Proof. intros H; unfold ext. pose proof (wf_index_pos i H). lia. Qed.
Lemma bat_pos s : wf s -> 1 <= bat s.
Proof. intros H; unfold bat. pose proof (wf_batch H). lia. Qed.
Lemma ext_ge8 s i : wf s -> 8 <= i -> ext s i = 1.
Proof. intros H Hi; unfold ext. rewrite index_ge8; auto. Qed.

Lemma prod_lt_ext e1 e2 d : (forall i, i < d -> e1 i = e2 i) -> prod_lt e1 d = prod_lt e2 d.
Proof. induction d; simpl; intros H; auto. rewrite IHd, H; auto. Qed.
Lemma prod_lt_pos e d : (forall i, i < d -> 1 <= e i) -> 1 <= prod_lt e d.
Proof.
  induction d; simpl; intros H; auto. specialize (IHd ltac:(auto)). specialize (H d ltac:(auto)). nia.
Qed.
Lemma low_pos s d : wf s -> 1 <= low s d.
Proof. intros; apply prod_lt_pos; intros; apply ext_pos; auto. Qed.
Lemma vol_pos s : wf s -> 1 <= vol s.
Proof. intros; apply low_pos; auto. Qed.
Lemma prod_lt_le e d n : d <= n -> (forall i, 1 <= e i) -> prod_lt e d <= prod_lt e n.
Proof. induction 1; simpl; intros; auto. specialize (IHle H0). specialize (H0 m). nia. Qed.
Lemma low_ge8 s d : wf s -> 8 <= d -> low s d = vol s.
Proof.
  intros H Hd. induction Hd; auto. unfold low in *; simpl. rewrite IHHd, ext_ge8; auto. lia.
Qed.

Lemma low_spec s d : wf s -> low s d = N.to_nat (prodN (firstn d (dims8 s))).
Proof.
  intros H. rewrite <- prod_below_firstn by auto.
  induction d; simpl; auto. unfold low in *; simpl. rewrite IHd. unfold ext. lia.
Qed.
Lemma vol_spec s : wf s -> vol s = N.to_nat (volume s).
Proof.
  intros H. unfold vol. rewrite low_spec by auto. rewrite (wf_vol H).
  rewrite firstn_all2; auto. rewrite (wf_len H); auto.
Qed.
Lemma lower_volume_low m s d : wf s -> lower_volume m s d = Ok (N.of_nat (low s d)).
Proof. intros H. rewrite lower_volume_Ok by auto. rewrite low_spec by auto. rewrite N2Nat.id; auto. Qed.
Lemma size_tot m s : okshape s -> size m s = Ok (N.of_nat (tot s)).
Proof.
  intros (H & Hs). unfold size, mul32. rewrite norm32_lt by auto. f_equal.
  unfold tot. rewrite vol_spec by auto. unfold bat. lia.
Qed.
Lemma tot_pos s : wf s -> 1 <= tot s.
Proof. intros H; unfold tot. pose proof (bat_pos H). pose proof (vol_pos H). nia. Qed.
Lemma vol_volume s : wf s -> N.to_nat (volume s) = vol s.
Proof. intros; symmetry; apply vol_spec; auto. Qed.

(** the hi part: dimensions strictly between d and 8, and the batch *)
Fixpoint prod_from (e : nat -> nat) (d n : nat) : nat :=
  match n with O => 1 | S n' => prod_from e d n' * (if n' <=? d then 1 else e n') end.
Fixpoint lin_from (e c : nat -> nat) (d n : nat) : nat :=
  match n with O => 0 | S n' => lin_from e c d n' + (if n' <=? d then 0 else c n' * prod_from e d n') end.
Definition hi (s : shape) (c : nat -> nat) (b d : nat) : nat :=
  lin_from (ext s) c d 8 + b * prod_from (ext s) d 8.
Definition lo (s : shape) (c : nat -> nat) (d : nat) : nat :=
  lin_lt (ext s) c (Nat.min d 8).

Lemma prod_from_le e d n : n <= S d -> prod_from e d n = 1.
Proof.
  induction n; simpl; intros H; auto. destruct (Nat.leb_spec n d); [|lia]. rewrite IHn; lia.
Qed.
Lemma lin_from_le e c d n : n <= S d -> lin_from e c d n = 0.
Proof.
  induction n; simpl; intros H; auto. destruct (Nat.leb_spec n d); [|lia]. rewrite IHn; lia.
Qed.
Lemma prod_split e d n : d < n -> prod_lt e n = prod_lt e d * e d * prod_from e d n.
Proof.
  induction n; simpl; intros H; [lia|]. destruct (Nat.leb_spec n d).
  - assert (n = d) by lia; subst. rewrite prod_from_le by lia. lia.
  - rewrite IHn by lia. lia.
Qed.
Lemma lin_split e c d n : d < n ->
  lin_lt e c n = lin_lt e c d + prod_lt e d * (c d + e d * lin_from e c d n).
Proof.
  induction n; simpl; intros H; [lia|]. destruct (Nat.leb_spec n d).
  - assert (n = d) by lia; subst. rewrite lin_from_le by lia. lia.
  - rewrite IHn by lia. rewrite (@prod_split e d n) by lia.
    remember (prod_lt e d) as P. remember (prod_from e d n) as Q. remember (lin_from e c d n) as R0. nia.
Qed.

(** splitting a position at dimension d *)
Lemma pos_split s c b d : wf s -> inb s c ->
  pos s c b = lo s c d + low s d * (c d + ext s d * hi s c b d).
Proof.
  intros H Hc. unfold pos, lo, hi, vol, low.
  destruct (Nat.lt_ge_cases d 8) as [Hd|Hd].
  - rewrite Nat.min_l by lia. rewrite (@lin_split _ c d 8) by auto. rewrite (@prod_split _ d 8) by auto. ring.
  - rewrite Nat.min_r by lia.
    assert (E : prod_lt (ext s) d = prod_lt (ext s) 8) by (apply low_ge8; auto). rewrite E.
    rewrite prod_from_le, lin_from_le, ext_ge8 by (auto; lia).
    assert (E0 : c d = 0) by (specialize (Hc d); rewrite ext_ge8 in Hc; auto; lia).
    rewrite E0. ring.
Qed.

Lemma lin_lt_lt e c d : (forall i, i < d -> c i < e i) -> lin_lt e c d < prod_lt e d.
Proof.
  induction d; simpl; intros H; [lia|]. specialize (IHd ltac:(auto)). specialize (H d ltac:(auto)). nia.
Qed.
Lemma lo_lt s c d : wf s -> inb s c -> lo s c d < low s d.
Proof.
  intros H Hc. unfold lo, low. destruct (Nat.lt_ge_cases d 8).
  - rewrite Nat.min_l by lia. apply lin_lt_lt; auto.
  - rewrite Nat.min_r by lia. change (prod_lt (ext s) d) with (low s d). rewrite low_ge8 by auto. apply lin_lt_lt; auto.
Qed.

Lemma lin_lt_ext e1 e2 c1 c2 d : (forall i, i < d -> e1 i = e2 i) -> (forall i, i < d -> c1 i = c2 i) ->
  lin_lt e1 c1 d = lin_lt e2 c2 d.
Proof.
  induction d; simpl; intros H1 H2; auto. rewrite IHd, H2 by auto. rewrite (@prod_lt_ext e1 e2) by auto. auto.
Qed.
Lemma prod_from_ext e1 e2 d n : (forall i, i <> d -> e1 i = e2 i) -> prod_from e1 d n = prod_from e2 d n.
Proof. induction n; simpl; intros H; auto. rewrite IHn by auto. destruct (Nat.leb_spec n d); auto. rewrite H by lia. auto. Qed.
Lemma lin_from_ext e1 e2 c1 c2 d n : (forall i, i <> d -> e1 i = e2 i) -> (forall i, i <> d -> c1 i = c2 i) ->
  lin_from e1 c1 d n = lin_from e2 c2 d n.
Proof.
  induction n; simpl; intros H1 H2; auto. rewrite IHn by auto. destruct (Nat.leb_spec n d); auto.
  rewrite H2 by lia. rewrite (@prod_from_ext e1 e2) by auto. auto.
Qed.
Lemma lo_ext s1 s2 ca cb d : (forall i, i <> d -> ext s1 i = ext s2 i) -> (forall i, i <> d -> ca i = cb i) ->
  lo s1 ca d = lo s2 cb d.
Proof.
  intros H1 H2. unfold lo. apply lin_lt_ext; intros; [apply H1|apply H2]; lia.
Qed.
Lemma hi_ext s1 s2 ca cb b d : (forall i, i <> d -> ext s1 i = ext s2 i) -> (forall i, i <> d -> ca i = cb i) ->
  hi s1 ca b d = hi s2 cb b d.
Proof.
  intros H1 H2. unfold hi. rewrite (@lin_from_ext (ext s1) (ext s2) ca cb) by auto.
  rewrite (@prod_from_ext (ext s1) (ext s2)) by auto. auto.
Qed.
Lemma low_ext s1 s2 d : (forall i, i < d -> ext s1 i = ext s2 i) -> low s1 d = low s2 d.
Proof. intros; apply prod_lt_ext; auto. Qed.

Lemma inb_cset s s' c d k : inb s c -> (forall i, i <> d -> ext s' i = ext s i) -> k < ext s' d -> inb s' (cset c d k).
Proof. intros H H1 H2 i. unfold cset. destruct (Nat.eqb_spec i d); subst; auto. rewrite H1; auto. Qed.
Lemma cset_eq c d k : cset c d k d = k.
Proof. unfold cset; rewrite Nat.eqb_refl; auto. Qed.
Lemma cset_neq c d k i : i <> d -> cset c d k i = c i.
Proof. unfold cset; intros; destruct (Nat.eqb_spec i d); congruence. Qed.

(** the lower positions and the upper positions are in range *)
Lemma pos_lt s c b : wf s -> inb s c -> b < bat s -> pos s c b < tot s.
Proof.
  intros H Hc Hb. unfold pos, tot. pose proof (@lin_lt_lt (ext s) c 8 ltac:(auto)).
  change (prod_lt (ext s) 8) with (vol s) in *. nia.
Qed.

(** every position is the position of exactly one element *)
Fixpoint coord (e : nat -> nat) (d p : nat) : nat -> nat :=
  match d with
  | O => czero
  | S d' => fun i => if i =? d' then p / prod_lt e d' else coord e d' (p mod prod_lt e d') i
  end.
Lemma coord_spec e d p : (forall i, 1 <= e i) -> p < prod_lt e d ->
  (forall i, i < d -> coord e d p i < e i) /\ (forall i, d <= i -> coord e d p i = 0) /\ lin_lt e (coord e d p) d = p.
Proof.
  intros He. revert p; induction d; intros p Hp; simpl in *.
  - repeat split; auto; lia.
  - assert (HP : 1 <= prod_lt e d) by (apply prod_lt_pos; auto).
    destruct (IHd (p mod prod_lt e d)) as (H1 & H2 & H3).
    { apply Nat.mod_upper_bound; lia. }
    repeat split.
    + intros i Hi. destruct (Nat.eqb_spec i d); [subst|apply H1; lia].
      apply Nat.div_lt_upper_bound; lia.
    + intros i Hi. destruct (Nat.eqb_spec i d); [lia|apply H2; lia].
    + rewrite Nat.eqb_refl. rewrite <- (@lin_lt_ext e e (coord e d (p mod prod_lt e d)) _ d); auto.
      * rewrite H3. rewrite (Nat.div_mod p (prod_lt e d)) at 3 by lia. lia.
      * intros i Hi. destruct (Nat.eqb_spec i d); [lia|auto].
Qed.
Lemma pos_surj s p : wf s -> p < tot s -> exists c b, inb s c /\ b < bat s /\ pos s c b = p.
Proof.
  intros H Hp. pose proof (vol_pos H) as HV.
  assert (Hm : p mod vol s < vol s) by (apply Nat.mod_upper_bound; lia).
  destruct (@coord_spec (ext s) 8 (p mod vol s) (fun i => ext_pos i H) Hm) as (H1 & H2 & H3).
  exists (coord (ext s) 8 (p mod vol s)), (p / vol s). repeat split.
  - intros i. destruct (Nat.lt_ge_cases i 8); auto. rewrite H2, ext_ge8 by auto. lia.
  - unfold tot in Hp. apply Nat.div_lt_upper_bound; [lia|]. lia.
  - unfold pos. rewrite H3. rewrite (Nat.div_mod p (vol s)) at 3 by lia. lia.
Qed.
Lemma lin_inj e c1 c2 d : (forall i, i < d -> c1 i < e i) -> (forall i, i < d -> c2 i < e i) ->
  lin_lt e c1 d = lin_lt e c2 d -> forall i, i < d -> c1 i = c2 i.
Proof.
  induction d; simpl; intros H1 H2 E i Hi; [lia|].
  pose proof (@lin_lt_lt e c1 d ltac:(auto)). pose proof (@lin_lt_lt e c2 d ltac:(auto)).
  assert (c1 d = c2 d) by nia.
  destruct (Nat.eq_dec i d); [subst; auto|].
  apply IHd; auto; lia.
Qed.
Lemma pos_inj s c1 b1 c2 b2 : wf s -> inb s c1 -> inb s c2 -> pos s c1 b1 = pos s c2 b2 ->
  b1 = b2 /\ forall i, c1 i = c2 i.
Proof.
  intros H H1 H2 E. unfold pos in E.
  pose proof (@lin_lt_lt (ext s) c1 8 ltac:(auto)). pose proof (@lin_lt_lt (ext s) c2 8 ltac:(auto)).
  change (prod_lt (ext s) 8) with (vol s) in *.
  assert (b1 = b2) by nia. subst. split; auto.
  intros i. destruct (Nat.lt_ge_cases i 8).
  - apply (@lin_inj (ext s) c1 c2 8); auto. lia.
  - specialize (H1 i). specialize (H2 i). rewrite ext_ge8 in * by auto. lia.
Qed.

Lemma pos_ext s1 s2 ca cb b : (forall i, i < 8 -> ext s1 i = ext s2 i) -> (forall i, i < 8 -> ca i = cb i) -> pos s1 ca b = pos s2 cb b.
Proof.
  intros H1 H2. unfold pos, vol. rewrite (@low_ext s1 s2) by auto. rewrite (@lin_lt_ext (ext s1) (ext s2) ca cb) by auto. auto.
Qed.
Lemma vol_ext s1 s2 : (forall i, i < 8 -> ext s1 i = ext s2 i) -> vol s1 = vol s2.
Proof. apply low_ext. Qed.

(** matrices *)
Definition matrix (s : shape) : Prop := forall i, 2 <= i -> ext s i = 1.
Lemma matrix_vol s : matrix s -> vol s = ext s 0 * ext s 1.
Proof. intros H; unfold vol, low; simpl. rewrite (H 2), (H 3), (H 4), (H 5), (H 6), (H 7) by lia. lia. Qed.
Lemma matrix_pos s i j b : matrix s -> pos s (c2 i j) b = b * (ext s 0 * ext s 1) + (i + j * ext s 0).
Proof. intros H. unfold pos. rewrite matrix_vol by auto. simpl. lia. Qed.
Lemma matrix_inb s i j : matrix s -> i < ext s 0 -> j < ext s 1 -> inb s (c2 i j).
Proof. intros H Hi Hj d. destruct d as [|[|d]]; simpl; auto. rewrite H; lia. Qed.
Lemma matrix_c2 s c : matrix s -> inb s c -> forall i, c i = c2 (c 0) (c 1) i.
Proof. intros H Hc i. destruct i as [|[|i]]; simpl; auto. specialize (Hc (S (S i))). rewrite H in Hc; lia. Qed.
