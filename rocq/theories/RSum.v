(** * RSum: finite sums of real numbers over the elements of a tensor *)
From Coq Require Export FunctionalExtensionality.
From Verif Require Export Rnum.
Set Implicit Arguments.
Unset Strict Implicit.
Open Scope R_scope.
Notation coord' := (nat -> nat).

(** f 0 + ... + f (n-1) *)
Fixpoint rsum (n : nat) (f : nat -> R) : R := match n with O => 0 | S k => rsum k f + f k end.
Lemma rsum_ext n f g : (forall i, (i < n)%nat -> f i = g i) -> rsum n f = rsum n g.
Proof. induction n; cbn; intros H; auto. rewrite IHn, H; auto. Qed.
Lemma rsum_0 n f : (forall i, (i < n)%nat -> f i = 0) -> rsum n f = 0.
Proof. induction n; cbn; intros H; auto. rewrite IHn, H; auto. ring. Qed.
Lemma rsum_plus n f g : rsum n (fun i => f i + g i) = rsum n f + rsum n g.
Proof. induction n; cbn; [ring|]. rewrite IHn. ring. Qed.
Lemma rsum_scal n a f : rsum n (fun i => a * f i) = a * rsum n f.
Proof. induction n; cbn; [ring|]. rewrite IHn. ring. Qed.
Lemma rsum_scal_r n a f : rsum n (fun i => f i * a) = rsum n f * a.
Proof. induction n; cbn; [ring|]. rewrite IHn. ring. Qed.
Lemma rsum_opp n f : rsum n (fun i => - f i) = - rsum n f.
Proof. induction n; cbn; [ring|]. rewrite IHn. ring. Qed.
Lemma rsum_swap n m f : rsum n (fun i => rsum m (fun j => f i j)) = rsum m (fun j => rsum n (fun i => f i j)).
Proof. induction n; cbn. - symmetry. apply rsum_0; auto. - rewrite IHn, <- rsum_plus. reflexivity. Qed.
Lemma rsum_app n m f : rsum (n + m) f = rsum n f + rsum m (fun i => f (n + i)%nat).
Proof. induction m. - rewrite Nat.add_0_r. cbn. ring. - rewrite Nat.add_succ_r. cbn. rewrite IHm. ring. Qed.
Lemma rsum_mul a b f : rsum (a * b) f = rsum b (fun j => rsum a (fun q => f (j * a + q)%nat)).
Proof. induction b. - rewrite Nat.mul_0_r. reflexivity. - rewrite Nat.mul_succ_r, rsum_app, IHb. cbn. f_equal. apply rsum_ext. intros i _. f_equal. lia. Qed.
Lemma rsum_one n k f : (k < n)%nat -> (forall i, (i < n)%nat -> i <> k -> f i = 0) -> rsum n f = f k.
Proof.
  induction n; cbn; intros H HF; [lia|]. destruct (Nat.eq_dec n k) as [->|NE].
  - rewrite rsum_0; [ring|]. intros i Hi. apply HF; lia.
  - rewrite IHn by (auto; lia). rewrite (HF n) by lia. ring.
Qed.
Lemma rsum_delta n k (f : nat -> R) : (k < n)%nat -> rsum n (fun i => if Nat.eqb k i then f i else 0) = f k.
Proof. intros H. rewrite (@rsum_one n k); auto. - rewrite Nat.eqb_refl; auto. - intros i _ N. destruct (Nat.eqb_spec k i); [congruence|auto]. Qed.
Lemma rsum_1 f : rsum 1 f = f 0%nat. Proof. cbn. ring. Qed.
Lemma rsum_nonneg n f : (forall i, (i < n)%nat -> 0 <= f i) -> 0 <= rsum n f.
Proof. induction n; cbn; intros H; [lra|]. assert (0 <= rsum n f) by auto. assert (0 <= f n) by auto. lra. Qed.
Lemma rsum_pos n f : (1 <= n)%nat -> (forall i, (i < n)%nat -> 0 < f i) -> 0 < rsum n f.
Proof.
  intros Hn. induction n; cbn; intros H; [lia|]. assert (0 < f n) by auto. destruct n; [cbn; lra|].
  assert (0 < rsum (S n) f) by (apply IHn; [lia|auto]). lra.
Qed.
Lemma rsum_red n f z : red Rplus z f n = z + rsum n f.
Proof. induction n; [cbn; ring|]. rewrite red_S, IHn. cbn. ring. Qed.
Lemma rsum_red0 n f : red (nadd Rnum) (@n0 Rnum) f n = rsum n f.
Proof. change (red Rplus 0 f n = rsum n f). rewrite rsum_red. ring. Qed.
Lemma rsum_blocks n f : blocksum Rnum f n = rsum n f.
Proof. rewrite blocksum_red; [|intros; cbn; ring|intros; cbn; ring]. apply rsum_red0. Qed.
Lemma rsum_seq n f : fold_right Rplus 0 (map f (seq 0 n)) = rsum n f.
Proof.
  assert (G : forall l z, fold_right Rplus z l = fold_right Rplus 0 l + z) by (induction l as [|x l IH]; intros z; cbn; [ring|rewrite IH; ring]).
  induction n; [reflexivity|]. rewrite seq_S, map_app, fold_right_app. cbn [map fold_right Nat.add]. rewrite G, IHn. cbn. ring.
Qed.

(** accumulation of minibatch elements *)
Lemma acc_rsum s B q (f : nat -> R) (v : R) : @eq R (acc_batches Rnum s B q (fun n v => v + f n) v) (v + rsum B (fun n => if (bsel s n =? q)%nat then f n else 0)).
Proof.
  unfold acc_batches. change (F Rnum) with R. induction B; [cbn; ring|]. rewrite seq_S, fold_left_app, IHB. cbn [fold_left rsum Nat.add]. destruct (_ =? _)%nat; ring.
Qed.

(** ** sums over coordinates: c i < e i for i < n, and c i = 0 from n on *)
Fixpoint csum (e : nat -> nat) (n : nat) (f : coord' -> R) : R :=
  match n with O => f czero | S k => rsum (e k) (fun j => csum e k (fun c => f (cset c k j))) end.
Definition inc (e : nat -> nat) (n : nat) (c : coord') : Prop := (forall i, (i < n)%nat -> (c i < e i)%nat) /\ (forall i, (n <= i)%nat -> c i = 0%nat).
Lemma cset_same c d : cset c d (c d) = c.
Proof. apply functional_extensionality. intros i. unfold cset. destruct (Nat.eqb_spec i d); subst; auto. Qed.
Lemma cset_set c d j k : cset (cset c d j) d k = cset c d k.
Proof. apply functional_extensionality. intros i. unfold cset. destruct (Nat.eqb_spec i d); auto. Qed.
Lemma cset_comm c d d' j k : d <> d' -> cset (cset c d j) d' k = cset (cset c d' k) d j.
Proof. intros H. apply functional_extensionality. intros i. unfold cset. destruct (Nat.eqb_spec i d), (Nat.eqb_spec i d'); auto. congruence. Qed.
Lemma cset_at c d j : cset c d j d = j. Proof. unfold cset. rewrite Nat.eqb_refl. auto. Qed.
Lemma cset_ne c d j i : i <> d -> cset c d j i = c i. Proof. intros. unfold cset. destruct (Nat.eqb_spec i d); congruence. Qed.
Lemma inc_cset e k c j : inc e k c -> (j < e k)%nat -> inc e (S k) (cset c k j).
Proof. intros (H1 & H2) Hj. split; intros i Hi; unfold cset; destruct (Nat.eqb_spec i k); subst; auto; [apply H1; lia|lia|apply H2; lia]. Qed.
Lemma csum_ext e n f g : (forall c, inc e n c -> f c = g c) -> csum e n f = csum e n g.
Proof.
  revert f g. induction n as [|n IH]; intros f g H; cbn.
  - apply H. split; [intros; lia|reflexivity].
  - apply rsum_ext. intros j Hj. apply IH. intros c Hc. apply H. apply inc_cset; auto.
Qed.
Lemma csum_0 e n f : (forall c, inc e n c -> f c = 0) -> csum e n f = 0.
Proof.
  revert f. induction n as [|n IH]; intros f H; cbn.
  - apply H. split; [intros; lia|reflexivity].
  - apply rsum_0. intros j Hj. apply IH. intros c Hc. apply H. apply inc_cset; auto.
Qed.
Lemma csum_plus e n f g : csum e n (fun c => f c + g c) = csum e n f + csum e n g.
Proof. revert f g. induction n as [|n IH]; intros; cbn; auto. rewrite <- rsum_plus. apply rsum_ext. intros j _. apply IH. Qed.
Lemma csum_scal e n a f : csum e n (fun c => a * f c) = a * csum e n f.
Proof. revert f. induction n as [|n IH]; intros; cbn; auto. rewrite <- rsum_scal. apply rsum_ext. intros j _. apply IH. Qed.
Lemma csum_opp e n f : csum e n (fun c => - f c) = - csum e n f.
Proof. revert f. induction n as [|n IH]; intros; cbn; auto. rewrite <- rsum_opp. apply rsum_ext. intros j _. apply IH. Qed.
Lemma csum_rsum e n m f : csum e n (fun c => rsum m (fun j => f c j)) = rsum m (fun j => csum e n (fun c => f c j)).
Proof. revert f. induction n as [|n IH]; intros; cbn; auto. rewrite rsum_swap. apply rsum_ext. intros j _. apply (IH (fun c => f (cset c n j))). Qed.
Lemma csum_e e e' n f : (forall i, (i < n)%nat -> e i = e' i) -> csum e n f = csum e' n f.
Proof. revert f. induction n as [|n IH]; intros; cbn; auto. rewrite H by auto. apply rsum_ext. intros j _. apply IH. auto. Qed.
Definition esub (e : nat -> nat) (d k : nat) : nat -> nat := fun i => if Nat.eqb i d then k else e i.
(** one dimension summed separately *)
Lemma csum_split e n d f : (d < n)%nat -> csum e n f = csum (esub e d 1) n (fun c => rsum (e d) (fun j => f (cset c d j))).
Proof.
  revert f. induction n as [|n IH]; intros f H; [lia|]. cbn [csum]. destruct (Nat.eq_dec d n) as [->|NE].
  - replace (esub e n 1 n) with 1%nat by (unfold esub; rewrite Nat.eqb_refl; auto). rewrite rsum_1, csum_rsum. apply rsum_ext. intros j _.
    rewrite (@csum_e (esub e n 1) e). 2:{ intros i Hi. unfold esub. destruct (Nat.eqb_spec i n); [lia|auto]. }
    apply csum_ext. intros c _. rewrite cset_set. reflexivity.
  - replace (esub e d 1 n) with (e n) by (unfold esub; destruct (Nat.eqb_spec n d); congruence). apply rsum_ext. intros j _.
    rewrite IH by lia. apply csum_ext. intros c _. apply rsum_ext. intros i _. rewrite (@cset_comm c n d); auto.
Qed.
Lemma csum_last1 e n f : e n = 1%nat -> csum e (S n) f = csum e n f.
Proof.
  intros H. cbn [csum]. rewrite H, rsum_1. apply csum_ext. intros c (H1 & H2). f_equal. replace 0%nat with (c n) by (apply H2; auto). apply cset_same.
Qed.
Lemma csum_ones e n k f : (k <= n)%nat -> (forall i, (k <= i < n)%nat -> e i = 1%nat) -> csum e n f = csum e k f.
Proof. intros H. induction H; intros HE; auto. rewrite csum_last1 by (apply HE; lia). apply IHle. intros; apply HE; lia. Qed.
(** storage order *)
Lemma coord_step e k j q : (1 <= prod_lt e k)%nat -> (q < prod_lt e k)%nat -> coord e (S k) (j * prod_lt e k + q) = cset (coord e k q) k j.
Proof.
  intros HP Hq. apply functional_extensionality. intros i. cbn [coord]. unfold cset. rewrite Nat.div_add_l, Nat.div_small by lia.
  rewrite (Nat.add_comm (j * prod_lt e k) q), Nat.mod_add, Nat.mod_small by lia. rewrite Nat.add_0_r. reflexivity.
Qed.
Lemma csum_flat e n f : (forall i, (1 <= e i)%nat) -> csum e n f = rsum (prod_lt e n) (fun p => f (coord e n p)).
Proof.
  intros HE. revert f. induction n as [|n IH]; intros f.
  - cbn [csum prod_lt]. rewrite rsum_1. cbn [coord]. reflexivity.
  - cbn [csum prod_lt]. rewrite rsum_mul. apply rsum_ext. intros j _. rewrite IH. apply rsum_ext. intros q Hq. rewrite coord_step; auto. apply prod_lt_pos; auto.
Qed.
Lemma csum_matrix e f : (forall i, (2 <= i)%nat -> e i = 1%nat) -> csum e 8 f = rsum (e 1%nat) (fun j => rsum (e 0%nat) (fun i => f (c2 i j))).
Proof.
  intros H. rewrite (@csum_ones e 8 2 f); [|lia|intros; apply H; lia]. cbn [csum]. apply rsum_ext. intros j _. apply rsum_ext. intros i _. f_equal.
  apply functional_extensionality. intros k. unfold cset, c2, czero. destruct k as [|[|k]]; reflexivity.
Qed.
(** all elements of a tensor of shape [s] *)
Definition vsum (s : shape) (f : coord' -> R) : R := csum (ext s) 8 f.
Definition tsum (s : shape) (f : coord' -> nat -> R) : R := rsum (bat s) (fun b => vsum s (fun c => f c b)).
Lemma inc_inb s c : wf s -> inc (ext s) 8 c -> inb s c.
Proof. intros W (H1 & H2) i. destruct (Nat.lt_ge_cases i 8); auto. rewrite H2 by auto. rewrite ext_ge8; auto. Qed.
Lemma vsum_ext s f g : wf s -> (forall c, inb s c -> f c = g c) -> vsum s f = vsum s g.
Proof. intros W H. apply csum_ext. intros c Hc. apply H. apply inc_inb; auto. Qed.
Lemma tsum_ext s f g : wf s -> (forall c b, inb s c -> (b < bat s)%nat -> f c b = g c b) -> tsum s f = tsum s g.
Proof. intros W H. apply rsum_ext. intros b Hb. apply vsum_ext; auto. Qed.
Lemma tsum_0 s f : wf s -> (forall c b, inb s c -> (b < bat s)%nat -> f c b = 0) -> tsum s f = 0.
Proof. intros W H. apply rsum_0. intros b Hb. apply csum_0. intros c Hc. apply H; auto. apply inc_inb; auto. Qed.
Lemma tsum_plus s f g : tsum s (fun c b => f c b + g c b) = tsum s f + tsum s g.
Proof. unfold tsum. rewrite <- rsum_plus. apply rsum_ext. intros b _. apply csum_plus. Qed.
Lemma tsum_scal s a f : tsum s (fun c b => a * f c b) = a * tsum s f.
Proof. unfold tsum. rewrite <- rsum_scal. apply rsum_ext. intros b _. apply csum_scal. Qed.
Lemma vsum_flat s f : wf s -> vsum s f = rsum (vol s) (fun p => f (coord (ext s) 8 p)).
Proof. intros W. apply csum_flat. intros i. apply ext_pos; auto. Qed.
Lemma flat_vsum s f : wf s -> flat (K := Rnum) s f = vsum s f.
Proof. intros W. rewrite vsum_flat by auto. unfold flat. apply rsum_red0. Qed.
Lemma coord_ge e d p i : (d <= i)%nat -> coord e d p i = 0%nat.
Proof. revert p i. induction d as [|d IH]; intros p i H; cbn [coord]; auto. destruct (Nat.eqb_spec i d); [lia|]. apply IH. lia. Qed.
Lemma pos_coord s p b : wf s -> (p < vol s)%nat -> pos s (coord (ext s) 8 p) b = (b * vol s + p)%nat.
Proof. intros W H. unfold pos. f_equal. destruct (@coord_spec (ext s) 8 p) as (_ & _ & E); auto. intros i. apply ext_pos; auto. Qed.
Lemma inb_coord s p : wf s -> (p < vol s)%nat -> inb s (coord (ext s) 8 p).
Proof.
  intros W H. destruct (@coord_spec (ext s) 8 p) as (E & E' & _); auto. { intros i. apply ext_pos; auto. } intros i. destruct (Nat.lt_ge_cases i 8); auto.
  rewrite E' by auto. rewrite ext_ge8; auto.
Qed.
Lemma tsum_flat s g : wf s -> tsum s (fun c b => g (pos s c b)) = rsum (tot s) g.
Proof.
  intros W. unfold tsum, tot. rewrite Nat.mul_comm, rsum_mul. apply rsum_ext. intros b _. rewrite vsum_flat by auto. apply rsum_ext. intros p Hp.
  rewrite pos_coord; auto.
Qed.
