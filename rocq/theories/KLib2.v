(** * KLib2: further loop lemmas (counters, scatter loops, lines along a dimension) *)
From Verif Require Export KElem.
Set Implicit Arguments.

(** ** counters *)
Lemma forN_counter S n (body : nat -> nat -> S -> res S) d0 s0 :
  forN n (fun i '(d, s) => s' <- body i d s ;; Ok (d + 1, s')) (d0, s0)
  = (s' <- forN n (fun i s => body i (d0 + i) s) s0 ;; Ok (d0 + n, s')).
Proof.
  rewrite (forN_stride n 1 body d0 s0). rewrite Nat.mul_1_r.
  erewrite (@forN_ext S n); [reflexivity|]. intros; cbv beta. rewrite Nat.mul_1_r; auto.
Qed.
Lemma forN_counter2 S R V (body : nat -> nat -> nat -> S -> res S) d0 s0 :
  forN R (fun i st => forN V (fun j '(d, s) => s' <- body i j d s ;; Ok (d + 1, s')) st) (d0, s0)
  = (s' <- forN (R * V) (fun p s => body (p / V) (p mod V) (d0 + p) s) s0 ;; Ok (d0 + R * V, s')).
Proof.
  rewrite (@forN_ext _ R _ (fun i '(d, s) => s' <- forN V (fun j s => body i j (d + j) s) s ;; Ok (d + V, s'))).
  2:{ intros i [d s] _. apply (forN_counter V (body i) d s). }
  rewrite (forN_stride R V (fun i d s => forN V (fun j s => body i j (d + j) s) s) d0 s0).
  rewrite (forN_nest_rev R V (fun i j s => body i j (d0 + i * V + j) s) s0). apply f_equal2; [|reflexivity].
  apply forN_ext. intros p s Hp. f_equal.
  assert (HV : V <> 0) by (intros ->; lia). pose proof (Nat.div_mod p V HV). lia.
Qed.
Lemma forN_counter3 S B R V (body : nat -> nat -> nat -> nat -> S -> res S) d0 s0 :
  forN B (fun b st => forN R (fun i st => forN V (fun j '(d, s) => s' <- body b i j d s ;; Ok (d + 1, s')) st) st) (d0, s0)
  = (s' <- forN (B * (R * V)) (fun p s => body (p / (R * V)) ((p mod (R * V)) / V) ((p mod (R * V)) mod V) (d0 + p) s) s0 ;;
     Ok (d0 + B * (R * V), s')).
Proof.
  rewrite (@forN_ext _ B _ (fun b '(d, s) => s' <- forN (R * V) (fun p s => body b (p / V) (p mod V) (d + p) s) s ;; Ok (d + R * V, s'))).
  2:{ intros b [d s] _. apply (forN_counter2 R V (body b) d s). }
  rewrite (forN_stride B (R * V) (fun b d s => forN (R * V) (fun p s => body b (p / V) (p mod V) (d + p) s) s) d0 s0).
  rewrite (forN_nest_rev B (R * V) (fun b p s => body b (p / V) (p mod V) (d0 + b * (R * V) + p) s) s0). apply f_equal2; [|reflexivity].
  apply forN_ext. intros p s Hp. f_equal.
  assert (HV : R * V <> 0) by nia. pose proof (Nat.div_mod p (R * V) HV). lia.
Qed.

(** the same with a read before the update *)
Lemma forN_counter2v S A R V (r : nat -> nat -> nat -> res A) (body : nat -> nat -> nat -> A -> S -> res S) d0 s0 :
  forN R (fun i st => forN V (fun j '(d, s) => v <- r i j d ;; s' <- body i j d v s ;; Ok (d + 1, s')) st) (d0, s0)
  = (s' <- forN (R * V) (fun p s => v <- r (p / V) (p mod V) (d0 + p) ;; body (p / V) (p mod V) (d0 + p) v s) s0 ;; Ok (d0 + R * V, s')).
Proof.
  rewrite <- (forN_counter2 R V (fun i j d s => v <- r i j d ;; body i j d v s) d0 s0).
  apply forN_ext; intros i st _. apply forN_ext; intros j [d s] _. rewrite bind_assoc. reflexivity.
Qed.
Lemma forN_counter3v S A B R V (r : nat -> nat -> nat -> nat -> res A) (body : nat -> nat -> nat -> nat -> A -> S -> res S) d0 s0 :
  forN B (fun b st => forN R (fun i st => forN V (fun j '(d, s) => v <- r b i j d ;; s' <- body b i j d v s ;; Ok (d + 1, s')) st) st) (d0, s0)
  = (s' <- forN (B * (R * V)) (fun p s => v <- r (p / (R * V)) ((p mod (R * V)) / V) ((p mod (R * V)) mod V) (d0 + p) ;;
         body (p / (R * V)) ((p mod (R * V)) / V) ((p mod (R * V)) mod V) (d0 + p) v s) s0 ;; Ok (d0 + B * (R * V), s')).
Proof.
  rewrite <- (forN_counter3 B R V (fun b i j d s => v <- r b i j d ;; body b i j d v s) d0 s0).
  apply forN_ext; intros b st _. apply forN_ext; intros i st' _. apply forN_ext; intros j [d s] _. rewrite bind_assoc. reflexivity.
Qed.

Lemma forR_forN S lo hi (body : nat -> S -> res S) s : forR lo hi body s = forN (hi - lo) (fun i => body (lo + i)) s.
Proof.
  unfold forR, forN. rewrite <- (forL_map (fun i => lo + i) (seq 0 (hi - lo)) body s).
  assert (E : forall n, seq lo n = map (fun i => lo + i) (seq 0 n)).
  { induction n; auto. rewrite !seq_S, map_app, IHn. auto. }
  rewrite E. reflexivity.
Qed.

Lemma forN_det2 S n (body : nat -> S -> res S) (st : nat -> S) s0 :
  st 0 = s0 -> (forall i, i < n -> body i (st i) = Ok (st (Datatypes.S i))) -> forN n body s0 = Ok (st n).
Proof. intros <- H. apply forN_det; auto. Qed.

(** ** scatter loops *)
Section Scat.
Variable A : Type.
Variable d : A.
Lemma scatterN N (g : nat -> nat) (h : nat -> A -> A) (body : nat -> list A -> res (list A)) l :
  (forall p l', p < N -> length l' = length l -> body p l' = Ok (lset l' (g p) (h p (nth (g p) l' d)))) ->
  (forall p, p < N -> g p < length l) ->
  exists l', forN N body l = Ok l' /\ length l' = length l /\
    forall q, nth q l' d = hits g h (seq 0 N) q (nth q l d).
Proof.
  intros Hb Hg. destruct (@scatter nat A g h body (seq 0 N) l d) as (l' & E & HL & HP).
  - intros p l' Hp HL. apply in_seq in Hp. split; [apply Hb|apply Hg]; auto; lia.
  - exists l'; split; [exact E|]. split; auto.
    intros q. rewrite HP. destruct (Nat.ltb_spec q (length l)); [auto|].
    rewrite nth_overflow by lia. symmetry. apply hits_none.
    intros p Hp. apply in_seq in Hp. specialize (Hg p ltac:(lia)). lia.
Qed.

(** a bijective scatter overwrites every cell of [0, n) exactly once *)
Lemma bij_loop n (g gi : nat -> nat) (h : nat -> A -> A) (body : nat -> list A -> res (list A)) l :
  n <= length l ->
  (forall p, p < n -> g p < n /\ gi (g p) = p) ->
  (forall q, q < n -> gi q < n /\ g (gi q) = q) ->
  (forall p l', p < n -> length l' = length l -> body p l' = Ok (lset l' (g p) (h p (nth (g p) l' d)))) ->
  exists l', forN n body l = Ok l' /\ over d l l' n (fun q => h (gi q) (nth q l d)).
Proof.
  intros Hn Hg Hgi Hb. destruct (@scatterN n g h body l Hb) as (l' & E & HL & HP).
  { intros p Hp. destruct (Hg p Hp). lia. }
  exists l'; split; auto. split; auto. intros q. rewrite HP. destruct (Nat.ltb_spec q n).
  - apply hits_unique; auto using seq_NoDup.
    + apply in_seq. destruct (Hgi q); auto; lia.
    + apply Hgi; auto.
    + intros p Hp Ep. apply in_seq in Hp. rewrite <- Ep. symmetry. apply Hg. lia.
  - apply hits_none. intros p Hp. apply in_seq in Hp. destruct (Hg p); lia.
Qed.
End Scat.

(** ** lines: the positions of a tensor along one dimension *)
(** total number of lines above dimension d *)
Definition hic (s : shape) (d : nat) : nat := bat s * prod_from (ext s) d 8.
Lemma tot_split s d : wf s -> tot s = low s d * ext s d * hic s d.
Proof.
  intros H. unfold tot, hic. destruct (Nat.lt_ge_cases d 8).
  - unfold vol, low. rewrite (@prod_split (ext s) d 8) by auto. lia.
  - rewrite low_ge8, ext_ge8 by auto. rewrite prod_from_le by lia. lia.
Qed.
Lemma hi_lt s c b d : wf s -> inb s c -> b < bat s -> hi s c b d < hic s d.
Proof.
  intros H Hc Hb. pose proof (pos_lt H Hc Hb) as Hp. rewrite (pos_split b d H Hc) in Hp. rewrite (tot_split d H) in Hp.
  pose proof (low_pos d H). pose proof (ext_pos d H).
  set (a := hi s c b d) in *. set (e := ext s d) in *. set (w := low s d) in *. set (z := hic s d) in *.
  destruct (Nat.lt_ge_cases a z); auto. exfalso.
  assert (e * a >= e * z) by (apply Nat.mul_le_mono_l; auto).
  assert (w * (c d + e * a) >= w * (e * z)) by (apply Nat.mul_le_mono_l; lia). lia.
Qed.

(** [sy] is [sx] with dimension d reduced to 1 *)
Record reduces (sx sy : shape) (d : nat) : Prop := {
  rd_wx : wf sx; rd_wy : wf sy; rd_bat : bat sy = bat sx; rd_one : ext sy d = 1;
  rd_ext : forall i, i <> d -> ext sy i = ext sx i }.

Section Lines.
Variables (sx sy : shape) (d : nat).
Hypothesis HR : reduces sx sy d.
Notation s1 := (low sx d). Notation n := (ext sx d).
Lemma red_low : low sy d = s1.
Proof. apply low_ext. intros; apply (rd_ext HR). lia. Qed.
Lemma red_hic : hic sy d = hic sx d.
Proof. unfold hic. rewrite (rd_bat HR). f_equal. apply prod_from_ext. apply (rd_ext HR). Qed.
Lemma red_tot : tot sy * n = tot sx.
Proof. rewrite (tot_split d (rd_wx HR)), (tot_split d (rd_wy HR)), red_low, red_hic, (rd_one HR). lia. Qed.
Lemma red_s1 : 1 <= s1. Proof. apply low_pos, (rd_wx HR). Qed.
Lemma red_n : 1 <= n. Proof. apply ext_pos, (rd_wx HR). Qed.

(** start of line i is at line i s1 (s1 * n); element j of it is j * s1 further *)
Definition lpos (i j : nat) : nat := line i s1 (s1 * n) + j * s1.
(** the line a position belongs to, and its index in it *)
Definition lline (p : nat) : nat := p mod s1 + (p / (s1 * n)) * s1.
Definition lidx (p : nat) : nat := (p / s1) mod n.

Lemma lpos_alt i j : lpos i j = i mod s1 + s1 * (j + n * (i / s1)).
Proof. unfold lpos, line. lia. Qed.
Lemma lpos_lt i j : i < tot sy -> j < n -> lpos i j < tot sx.
Proof.
  intros Hi Hj. rewrite lpos_alt. rewrite <- red_tot. pose proof red_s1. pose proof red_n.
  rewrite (tot_split d (rd_wy HR)), red_low, (rd_one HR) in *. rewrite Nat.mul_1_r in *.
  set (hh := hic sy d) in *.
  assert (i mod s1 < s1) by (apply Nat.mod_upper_bound; lia).
  assert (i / s1 < hh) by (apply Nat.div_lt_upper_bound; lia).
  nia.
Qed.
Lemma div_mod_add a b q : b < a -> (b + a * q) / a = q /\ (b + a * q) mod a = b.
Proof.
  intros H. split.
  - rewrite Nat.add_comm, Nat.mul_comm, Nat.div_add_l by lia. rewrite Nat.div_small; lia.
  - rewrite Nat.add_comm, Nat.mul_comm, Nat.add_comm, Nat.mod_add by lia. apply Nat.mod_small; auto.
Qed.
Lemma lpos_inv i j : j < n -> lline (lpos i j) = i /\ lidx (lpos i j) = j.
Proof.
  intros Hj. pose proof red_s1. pose proof red_n. rewrite lpos_alt. unfold lline, lidx.
  assert (Hm : i mod s1 < s1) by (apply Nat.mod_upper_bound; lia).
  destruct (div_mod_add (j + n * (i / s1)) Hm) as (E1 & E2).
  destruct (div_mod_add (i / s1) Hj) as (E3 & E4).
  rewrite <- Nat.div_div by lia. rewrite E1, E2, E3, E4.
  split; auto. pose proof (Nat.div_mod i s1). lia.
Qed.
Lemma lpos_surj p : p < tot sx -> lline p < tot sy /\ lidx p < n /\ lpos (lline p) (lidx p) = p.
Proof.
  intros Hp. pose proof red_s1. pose proof red_n. unfold lline, lidx. rewrite lpos_alt.
  rewrite <- Nat.div_div by lia.
  assert (Hm : p mod s1 < s1) by (apply Nat.mod_upper_bound; lia).
  assert (Hj : (p / s1) mod n < n) by (apply Nat.mod_upper_bound; lia).
  destruct (div_mod_add (p / s1 / n) Hm) as (E1 & E2).
  rewrite (Nat.mul_comm _ s1) at 1. split; [|split; auto].
  - rewrite (tot_split d (rd_wy HR)), red_low, (rd_one HR), Nat.mul_1_r.
    assert (p / s1 / n < hic sy d).
    { rewrite Nat.div_div by lia. apply Nat.div_lt_upper_bound; [nia|]. rewrite red_hic.
      rewrite (tot_split d (rd_wx HR)) in Hp. lia. }
    nia.
  - rewrite (Nat.mul_comm _ s1). rewrite E1, E2. pose proof (Nat.div_mod p s1). pose proof (Nat.div_mod (p / s1) n). nia.
Qed.

(** in coordinates: line (c, b) of the reduced tensor; element j *)
Lemma inb_red c j : inb sy c -> j < n -> inb sx (cset c d j).
Proof. intros Hc Hj. apply inb_cset with (s := sy); auto. intros i Hi. symmetry; apply (rd_ext HR); auto. Qed.
Lemma inb_red' c : inb sx c -> inb sy (cset c d 0).
Proof. intros Hc. apply inb_cset with (s := sx); auto. intros i Hi. apply (rd_ext HR); auto. rewrite (rd_one HR). lia. Qed.
Lemma lpos_pos c b j : inb sy c -> j < n -> lpos (pos sy c b) j = pos sx (cset c d j) b.
Proof.
  intros Hc Hj. rewrite lpos_alt. pose proof (inb_red Hc Hj) as Hc'.
  rewrite (pos_split b d (rd_wx HR) Hc'), cset_eq.
  rewrite (pos_split b d (rd_wy HR) Hc), red_low, (rd_one HR).
  pose proof (lo_lt d (rd_wy HR) Hc) as Hlo. rewrite red_low in Hlo.
  assert (c d = 0) by (specialize (Hc d); rewrite (rd_one HR) in Hc; lia).
  rewrite H. rewrite Nat.add_0_l, Nat.mul_1_l.
  destruct (div_mod_add (hi sy c b d) Hlo) as (E1 & E2). rewrite E1, E2.
  rewrite (@lo_ext sx sy (cset c d j) c d), (@hi_ext sx sy (cset c d j) c b d); auto;
    intros i Hi; try (symmetry; apply (rd_ext HR); auto); rewrite cset_neq; auto.
Qed.
Lemma lline_pos c b : inb sx c -> lline (pos sx c b) = pos sy (cset c d 0) b /\ lidx (pos sx c b) = c d.
Proof.
  intros Hc. pose proof (inb_red' Hc) as Hc'. assert (Hd : c d < n) by apply Hc.
  pose proof (@lpos_pos (cset c d 0) b (c d) Hc' Hd) as E.
  assert (E2 : pos sx (cset (cset c d 0) d (c d)) b = pos sx c b).
  { apply pos_ext; auto. intros i _. unfold cset. destruct (Nat.eqb_spec i d); subst; auto. }
  rewrite E2 in E. destruct (@lpos_inv (pos sy (cset c d 0) b) (c d) Hd) as (E3 & E4). rewrite E in *. auto.
Qed.
End Lines.
