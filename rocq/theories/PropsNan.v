(** * PropsNan: C61, the order of IEEE single precision numbers, NaN included *)
From Coq Require Import ZArith Reals Lra.
From Flocq Require Import Core IEEE754.BinarySingleNaN.
From Verif Require Import PropsMove Float32 KNan Typed.
From Coq Require Import Permutation.
Set Implicit Arguments. Unset Strict Implicit.
Close Scope R_scope. Close Scope Z_scope. Open Scope nat_scope.

Section C61.
Variable M : libm.
Variable m : build.
Variable srt : (nat -> nat -> option comparison) -> list nat -> res (list nat).
Notation K := (Fnum M).
Notation tensor := (tensor (Fnum M)).
Notation "x <=. y" := (@Bleb 24 128 x y = true) (at level 70).
Notation "x <. y" := (@Bltb 24 128 x y = true) (at level 70).

(** ** Specification *)
(** position [j] of a line of [n] numbers: the first of its greatest numbers. A NaN
    in front wins; any other NaN is passed over. *)
Definition first_greatest (f : nat -> f32) (n j : nat) : Prop :=
  j < n /\ (is_nan (f 0) = true -> j = 0) /\
  (is_nan (f 0) = false -> is_nan (f j) = false /\
     (forall i, i < n -> is_nan (f i) = false -> f i <=. f j) /\ (forall i, i < j -> is_nan (f i) = false -> f i <. f j)).
Definition first_least (f : nat -> f32) (n j : nat) : Prop :=
  j < n /\ (is_nan (f 0) = true -> j = 0) /\
  (is_nan (f 0) = false -> is_nan (f j) = false /\
     (forall i, i < n -> is_nan (f i) = false -> f j <=. f i) /\ (forall i, i < j -> is_nan (f i) = false -> f j <. f i)).
(** each element of the result is the element of its line at a position [P] describes *)
Definition picks_by (f : alloc_oracle K -> tensor -> N -> res tensor) (P : (nat -> f32) -> nat -> nat -> Prop) : Prop :=
  forall d al (x : tensor) dim, al_ok al -> ready d x -> N.to_nat dim < 8 ->
  exists s y, without (t_shape x) (N.to_nat dim) s /\ f al x dim = Ok y /\ ready d y /\ t_shape y = s /\
    forall c b, inb s c -> b < bat s -> exists j, P (fun j => at_ x (cset c (N.to_nat dim) j) b) (ext (t_shape x) (N.to_nat dim)) j /\
      at_ y c b = at_ x (cset c (N.to_nat dim) j) b.
Definition no_nan (x : tensor) : Prop := forall c b, inb (t_shape x) c -> b < bat (t_shape x) -> is_nan (at_ x c b : f32) = false.

(** ** Lemmas *)
Lemma nan_gt (x y : f32) : negb (is_nan x) = false -> ngt (K := K) x y = false.
Proof. intros H. apply negb_false_iff in H. apply (@ltb_nan_r y x H). Qed.
Lemma scan_greatest (f : nat -> f32) n : 1 <= n -> first_greatest f n (snd (arg_scan K (@ngt K) f n)).
Proof.
  intros Hn. destruct (@arg_scan_nan K (@ngt K) (fun x => negb (@is_nan 24 128 x)) f n Hn) as (A & B & C).
  - intros x y H. apply nan_gt; auto.
  - intros x y H. apply negb_false_iff in H. apply (@ltb_nan_l y x H).
  - intros x. apply (ltb_irrefl x).
  - intros x y z H1 H2. unfold ngt in *. cbn [nlt Fnum] in * .
    destruct (is_nan x) eqn:Nx; [rewrite ltb_nan_r in H1 by auto; discriminate|]. destruct (is_nan y) eqn:Ny; [rewrite ltb_nan_l in H1 by auto; discriminate|].
    destruct (is_nan z) eqn:Nz; [rewrite ltb_nan_l in H2 by auto; discriminate|]. eapply ltb_trans32; [| | |exact H2|exact H1]; auto.
  - intros x y z Nx Ny Nz H1 H2. apply negb_true_iff in Nx, Ny, Nz. unfold ngt in * . cbn [nlt Fnum] in * .
    destruct (Bltb z x) eqn:E; auto. rewrite (@leb_trans32 x z y Nx Nz Ny) in H1; auto.
  - split; [exact A|]. split; [intros H; apply B; rewrite H; reflexivity|]. intros H0. destruct C as (C1 & C2 & C3); [rewrite H0; reflexivity|].
    apply negb_true_iff in C1. split; [exact C1|]. split.
    + intros i Hi Ni. specialize (C2 i Hi ltac:(rewrite Ni; reflexivity)). rewrite leb32 by auto. apply negb_true_iff. exact C2.
    + intros i Hi Ni. specialize (C3 i Hi ltac:(rewrite Ni; reflexivity)). exact C3.
Qed.
Lemma scan_least (f : nat -> f32) n : 1 <= n -> first_least f n (snd (arg_scan K (nlt K) f n)).
Proof.
  intros Hn. destruct (@arg_scan_nan K (nlt K) (fun x => negb (@is_nan 24 128 x)) f n Hn) as (A & B & C).
  - intros x y H. apply negb_false_iff in H. apply (@ltb_nan_l x y H).
  - intros x y H. apply negb_false_iff in H. apply (@ltb_nan_r x y H).
  - intros x. apply (ltb_irrefl x).
  - intros x y z H1 H2. cbn [nlt Fnum] in * .
    destruct (is_nan x) eqn:Nx; [rewrite ltb_nan_l in H1 by auto; discriminate|]. destruct (is_nan y) eqn:Ny; [rewrite ltb_nan_r in H1 by auto; discriminate|].
    destruct (is_nan z) eqn:Nz; [rewrite ltb_nan_r in H2 by auto; discriminate|]. eapply ltb_trans32; [| | |exact H1|exact H2]; auto.
  - intros x y z Nx Ny Nz H1 H2. apply negb_true_iff in Nx, Ny, Nz. cbn [nlt Fnum] in * .
    destruct (Bltb x z) eqn:E; auto. rewrite (@leb_trans32 y z x Ny Nz Nx) in H1; auto.
  - split; [exact A|]. split; [intros H; apply B; rewrite H; reflexivity|]. intros H0. destruct C as (C1 & C2 & C3); [rewrite H0; reflexivity|].
    apply negb_true_iff in C1. split; [exact C1|]. split.
    + intros i Hi Ni. specialize (C2 i Hi ltac:(rewrite Ni; reflexivity)). rewrite leb32 by auto. apply negb_true_iff. exact C2.
    + intros i Hi Ni. specialize (C3 i Hi ltac:(rewrite Ni; reflexivity)). exact C3.
Qed.

(** ** C61 *)
Theorem C61_argmax_argmin : indexes_by (K := K) (t_argmax m srt) first_greatest /\ indexes_by (K := K) (t_argmin m srt) first_least.
Proof.
  split; intros d x dim HR; unfold t_argmax, t_argmin; rewrite (ready_device_of HR); cbn [bind].
  - destruct (@argmax_spec K m srt d x dim HR) as (s & l & R & E & HL & HP). exists s, l. split; [apply reduces_shape_is; auto|]. split; [exact E|]. split; [exact HL|].
    intros c b Hc Hb. rewrite HP, Nat2N.id by auto. apply scan_greatest. apply (ext_pos _ (ready_wf HR)).
  - destruct (@argmin_spec K m srt d x dim HR) as (s & l & R & E & HL & HP). exists s, l. split; [apply reduces_shape_is; auto|]. split; [exact E|]. split; [exact HL|].
    intros c b Hc Hb. rewrite HP, Nat2N.id by auto. apply scan_least. apply (ext_pos _ (ready_wf HR)).
Qed.
Theorem C61_max_min : picks_by (t_max m) first_greatest /\ picks_by (t_min m) first_least.
Proof.
  destruct (C20_max_min K m) as [H1 H2]. split; intros d al x dim HA HR Hd.
  - destruct (H1 d al x dim HA HR Hd) as (s & W & y & E & Ry & Sy & Y). exists s, y. ssplit; auto. intros c b Hc Hb.
    pose proof (ext_pos (N.to_nat dim) (ready_wf HR)) as P. eexists. split; [apply scan_greatest; exact P|].
    rewrite Y by auto. apply (@red_arg_scan K (@ngt K)); auto. apply (ltb_irrefl).
  - destruct (H2 d al x dim HA HR Hd) as (s & W & y & E & Ry & Sy & Y). exists s, y. ssplit; auto. intros c b Hc Hb.
    pose proof (ext_pos (N.to_nat dim) (ready_wf HR)) as P. eexists. split; [apply scan_least; exact P|].
    rewrite Y by auto. apply (@red_arg_scan K (nlt K)); auto. apply (ltb_irrefl).
Qed.
(** a line whose extremum came out as NaN gets no gradient at all: the gradient of
    that line is lost, the other lines are not affected *)
Theorem C61_extremum_bw_nan : forall d (x y gy gx : tensor) dim, N.to_nat dim < 8 ->
  ready d x -> ready d y -> ready d gy -> ready d gx ->
  without (t_shape x) (N.to_nat dim) (t_shape y) -> t_shape gx = t_shape x -> t_shape gy = t_shape y ->
  (exists gx', max_bw m d x y gy dim gx = Ok gx' /\
     forall c b, inb (t_shape gx) c -> b < bat (t_shape gx) -> is_nan (at_ y (cset c (N.to_nat dim) 0) b : f32) = true -> at_ gx' c b = at_ gx c b) /\
  (exists gx', min_bw m d x y gy dim gx = Ok gx' /\
     forall c b, inb (t_shape gx) c -> b < bat (t_shape gx) -> is_nan (at_ y (cset c (N.to_nat dim) 0) b : f32) = true -> at_ gx' c b = at_ gx c b).
Proof.
  intros d x y gy gx dim Hd Rx Ry Rg Rgx W E1 E2. pose proof (@C20_extremum_bw K m d x y gy gx dim Hd Rx Ry Rg Rgx W E1 E2) as H. cbv zeta in H.
  assert (Q : forall a b : f32, is_nan b = true -> Beqb a b = false).
  { intros a b Nb. destruct b; try discriminate. destruct a as [?|[]| |[]]; reflexivity. }
  destruct H as [H1 H2]. apply (writes_yields Rgx) in H1, H2. destruct H1 as (y1 & Q1 & _ & _ & Y1), H2 as (y2 & Q2 & _ & _ & Y2).
  split; [exists y1|exists y2]; (split; [assumption|]); intros c b Hc Hb Nb.
  - specialize (Y1 c b Hc Hb). cbv beta in Y1. rewrite (Q _ _ Nb : neqb K _ _ = false) in Y1. exact Y1.
  - specialize (Y2 c b Hc Hb). cbv beta in Y2. rewrite (Q _ _ Nb : neqb K _ _ = false) in Y2. exact Y2.
Qed.

Lemma cmp32 (x y : f32) : partial_cmp K x y = Bcompare x y.
Proof.
  unfold partial_cmp. cbn [nlt neqb Fnum]. unfold Bltb, Beqb, SpecFloat.SFltb, SpecFloat.SFeqb.
  change (SpecFloat.SFcompare (B2SF x) (B2SF y)) with (Bcompare x y). change (SpecFloat.SFcompare (B2SF y) (B2SF x)) with (Bcompare y x).
  rewrite (Bcompare_swap _ _ x y). destruct (Bcompare x y) as [[]|]; reflexivity.
Qed.
Lemma cmp32_none (x y : f32) : Bcompare x y = None <-> is_nan x = true \/ is_nan y = true.
Proof. destruct x as [?|[]| |[]], y as [?|[]| |[]]; cbn; intuition discriminate. Qed.
Lemma cmp32_gt (x y : f32) : is_nan x = false -> is_nan y = false -> Bcompare x y <> Some Gt <-> Bltb y x = false.
Proof.
  intros Nx Ny. unfold Bltb, SpecFloat.SFltb. change (SpecFloat.SFcompare (B2SF y) (B2SF x)) with (Bcompare y x). rewrite (Bcompare_swap _ _ x y).
  destruct (Bcompare x y) as [[]|]; cbn; intuition congruence.
Qed.
Lemma total32 A (f : A -> f32) (l : list A) : (forall p, In p l -> is_nan (f p) = false) ->
  (forall i j, In i l -> In j l -> partial_cmp K (f i) (f j) <> None) /\
  (forall i j, In i l -> In j l -> partial_cmp K (f i) (f j) = option_map CompOpp (partial_cmp K (f j) (f i))) /\
  (forall i j k, In i l -> In j l -> In k l -> partial_cmp K (f i) (f j) <> Some Gt -> partial_cmp K (f j) (f k) <> Some Gt -> partial_cmp K (f i) (f k) <> Some Gt).
Proof.
  intros H. ssplit.
  - intros i j Hi Hj. rewrite cmp32, cmp32_none, (H i), (H j) by auto. intuition discriminate.
  - intros i j Hi Hj. rewrite !cmp32, (Bcompare_swap _ _ (f j) (f i)). reflexivity.
  - intros i j k Hi Hj Hk. rewrite !cmp32, !cmp32_gt by auto. intros. eapply leb_trans32 with (y := f j); auto.
Qed.
Lemma no_nan_at d (x : tensor) : ready d x -> no_nan x -> forall p, p < tot (t_shape x) -> is_nan (nth0 (buf x) p : f32) = false.
Proof.
  intros HR HN p Hp. destruct (pos_surj (ready_wf HR) Hp) as (c & b & Hc & Hb & <-). apply (HN c b); auto.
Qed.

(** argsort of a tensor without NaN: each line of positions is rearranged so that
    the numbers ascend *)
Theorem C61_argsort : forall d (x : tensor) dim, ready d x -> sort_contract srt -> no_nan x ->
  let e := N.to_nat dim in let n := ext (t_shape x) e in
  exists s l, without (t_shape x) e s /\ t_argsort m srt x dim = Ok l /\ length l = tot (t_shape x) /\
   forall c b, inb s c -> b < bat s ->
     Permutation (map (fun j => N.of_nat (pos (t_shape x) (cset c e j) b)) (seq 0 n))
                 (map (fun j => nth (pos (t_shape x) (cset c e j) b) l 0%N) (seq 0 n)) /\
     forall j k, j < k < n -> nth0 (buf x) (N.to_nat (nth (pos (t_shape x) (cset c e j) b) l 0%N)) <=.
                              nth0 (buf x) (N.to_nat (nth (pos (t_shape x) (cset c e k) b) l 0%N)).
Proof.
  intros d x dim HR HC HN e n. pose proof (no_nan_at HR HN) as HA. destruct (@C22_argsort K m srt d x dim HR HC) as (s & l & W & E & HL & HP).
  { intros p q r Hp Hq Hr. apply (@total32 nat (fun p => nth0 (buf x) p)). intros k [<-|[<-|[<-|[]]]]; auto. }
  exists s, l. ssplit; auto. intros c b Hc Hb. destruct (HP c b Hc Hb) as [P1 P2]. split; [exact P1|]. intros j k Hjk. specialize (P2 j k Hjk). fold e in P2.
  assert (IN : forall j, j < n -> is_nan (nth0 (buf x) (N.to_nat (nth (pos (t_shape x) (cset c e j) b) l 0%N)) : f32) = false).
  { intros i Hi. assert (In (nth (pos (t_shape x) (cset c e i) b) l 0%N) (map (fun j => N.of_nat (pos (t_shape x) (cset c e j) b)) (seq 0 n))) as Q.
    { eapply Permutation_in; [apply Permutation_sym; exact P1|]. apply in_map_iff. exists i. split; [reflexivity|]. apply in_seq. split; [lia|exact Hi]. }
    apply in_map_iff in Q. destruct Q as (i' & <- & Hi'). rewrite Nat2N.id. apply in_seq in Hi'. apply HA. apply pos_lt; [apply (ready_wf HR)| |].
    - apply (inb_red (shape_is_eset_reduces (ready_wf HR) W)); [exact Hc|]. change (i' < n). lia.
    - destruct W as (_ & _ & Wb). rewrite <- Wb. exact Hb. }
  rewrite cmp32, cmp32_gt in P2 by (apply IN; lia). rewrite leb32 by (apply IN; lia). rewrite P2. reflexivity.
Qed.

(** a sorting routine has to look at every element: one that cannot be compared
    with anything (not even itself) makes the comparator panic *)
Definition sort_looks : Prop := forall cmp l i, 2 <= length l -> In i l -> (forall j, In j l -> cmp i j = None /\ cmp j i = None) -> srt cmp l = Panic.
Theorem C61_argsort_nan_panics : forall d (x : tensor) dim c b, ready d x -> sort_contract srt -> sort_looks ->
  2 <= ext (t_shape x) (N.to_nat dim) -> inb (t_shape x) c -> b < bat (t_shape x) -> is_nan (at_ x c b : f32) = true ->
  t_argsort m srt x dim = Panic.
Proof.
  intros d x dim c b HR HC HL Hn Hc Hb HN. set (e := N.to_nat dim) in * . unfold t_argsort. rewrite (ready_device_of HR). cbn [bind].
  unfold argsort. rewrite (ready_check HR). cbn [bind]. rewrite (fits_size m (ready_fits HR)). cbn [bind].
  destruct (@reduces_exists (t_shape x) e (ready_wf HR)) as (s & R). set (n := ext (t_shape x) e) in * .
  set (cmp := fun p q => partial_cmp K (nth0 (buf x) p) (nth0 (buf x) q)).
  assert (LN : forall i, i < tot s -> (exists j, j < n /\ is_nan (nth0 (buf x) (lpos (t_shape x) e i j) : f32) = true) -> srt cmp (map (lpos (t_shape x) e i) (seq 0 n)) = Panic).
  { intros i Hi (j & Hj & Hj2). apply (HL _ _ (lpos (t_shape x) e i j)).
    - rewrite map_length, seq_length. exact Hn.
    - apply in_map_iff. exists j. split; [reflexivity|]. apply in_seq. lia.
    - intros q _. unfold cmp. rewrite !cmp32, !cmp32_none. auto. }
  assert (Hp : pos (t_shape x) c b < tot (t_shape x)) by (apply pos_lt; auto; apply (ready_wf HR)).
  destruct (lpos_surj R Hp) as (H1 & H2 & H3).
  apply (@k_argsort_panic K m srt x e _ s (buf x) (lline (t_shape x) e (pos (t_shape x) c b)) (ready_vt HR) R H1).
  - apply LN; auto. exists (lidx (t_shape x) e (pos (t_shape x) c b)). split; [exact H2|]. rewrite H3. exact HN.
  - intros i Hi. fold n cmp. destruct (existsb (fun j => @is_nan 24 128 (nth0 (buf x) (lpos (t_shape x) e i j))) (seq 0 n)) eqn:E.
    + left. apply LN; auto. apply existsb_exists in E. destruct E as (j & Hj & Hj2). apply in_seq in Hj. exists j. split; [lia|exact Hj2].
    + right. destruct (HC cmp (map (lpos (t_shape x) e i) (seq 0 n))) as (l & El & Pl & _).
      * apply (@total32 nat (fun p => nth0 (buf x) p)). intros p Hp'. apply in_map_iff in Hp'. destruct Hp' as (j & <- & Hj).
        apply not_true_iff_false. intros Q. apply not_true_iff_false in E. apply E. apply existsb_exists. exists j. split; [exact Hj|exact Q].
      * exists l. split; [exact El|]. rewrite <- (Permutation_length Pl), map_length, seq_length. reflexivity.
Qed.
(** addition and multiplication of f32 commute, NaN and infinities included; the
    second is what other theorems here assume of a number type ([commutes]) *)
Theorem C61_commutes : (forall x y : F K, nadd K x y = nadd K y x) /\ commutes K.
Proof. split; intros x y; [apply add_comm32|apply mul_comm32]. Qed.
End C61.

(** ** Concrete cases: NaN, infinities, both zeros *)
Definition libm0 : libm := mkLibm (fun x => x) (fun x => x) (fun x => x) (fun x => x) (fun x => x) (fun x => x) (fun x _ => x) (fun x _ => x) (fun x => x) (fun x => x).
Notation K0 := (Fnum libm0).
Definition qnan : f32 := B754_nan. Definition inf : f32 := B754_infinity false. Definition minf : f32 := B754_infinity true.
Definition mzero : f32 := B754_zero true.
Definition v32 (z : Z) : f32 := f32_of_Z z.
Definition tf (ds : list N) (b : N) (l : list f32) : tensor K0 := @mkTensor K0 (Some 0) (sh ds b) (Some l) None.
Definition alf : alloc_oracle K0 := fun n => if ((1 <=? n) && (n <=? 2147483648))%N then Ok (repeat qnan (N.to_nat n)) else Panic.
Lemma tf_ready ds b l : (b < two32)%N -> succeeds (shape_new Debug ds b) = true ->
  (batch (sh ds b) * volume (sh ds b) <=? 2147483648)%N = true -> (tot (sh ds b) <=? length l) = true -> ready 0 (tf ds b l).
Proof.
  intros Hb HO HV HL. apply N.leb_le in HV. apply Nat.leb_le in HL. destruct (sh_wf _ Hb HO) as [W _].
  split; [reflexivity|]. split; [split; auto|]. split; [reflexivity|]. split; [split; auto; cbn [t_shape tf]; change two32 with 4294967296%N; lia|]. split; [reflexivity|exact HL].
Qed.
Ltac rdyf := apply tf_ready; reflexivity.
(** insertion sort with the comparator's panic *)
Definition isort_p (cmp : nat -> nat -> option comparison) (l : list nat) : res (list nat) :=
  if (2 <=? length l) && existsb (fun i => forallb (fun j => match cmp i j, cmp j i with None, None => true | _, _ => false end) l) l then Panic else isort cmp l.
Lemma isort_p_contract : sort_contract isort_p /\ sort_looks isort_p.
Proof.
  split.
  - intros cmp l H. unfold isort_p. assert ((2 <=? length l) && existsb (fun i => forallb (fun j => match cmp i j, cmp j i with None, None => true | _, _ => false end) l) l = false) as ->.
    { apply andb_false_iff. right. apply not_true_iff_false. intros Q. apply existsb_exists in Q. destruct Q as (i & Hi & Q). rewrite forallb_forall in Q. specialize (Q i Hi).
      destruct H as (H & _). specialize (H i i Hi Hi). destruct (cmp i i); congruence. }
    apply isort_contract. exact H.
  - intros cmp l i H1 H2 H3. unfold isort_p. assert ((2 <=? length l) && existsb (fun i => forallb (fun j => match cmp i j, cmp j i with None, None => true | _, _ => false end) l) l = true) as ->; [|reflexivity].
    apply andb_true_iff. split; [apply Nat.leb_le; exact H1|]. apply existsb_exists. exists i. split; [exact H2|]. apply forallb_forall. intros j Hj. destruct (H3 j Hj) as [-> -> ]. reflexivity.
Qed.
(** 4 x 2: NaN inside the first line, NaN in front of the second *)
Definition tn : tensor K0 := tf [4; 2]%N 1 [v32 1; qnan; inf; v32 3;  qnan; v32 1; minf; v32 2].
Definition ts : tensor K0 := tf [4]%N 1 [inf; v32 2; mzero; minf].
Lemma alf_ok : al_ok alf.
Proof.
  intros n. unfold alf. destruct ((1 <=? n) && (n <=? 2147483648))%N; [|reflexivity]. eexists. split; [reflexivity|]. rewrite repeat_length. lia.
Qed.
Example C61_applies : ready 0 tn /\ ready 0 ts /\ no_nan ts /\ al_ok alf /\ sort_contract isort_p /\ sort_looks isort_p /\
  t_argmax Release isort_p tn 0 = Ok [2; 0]%N /\ t_argmin Release isort_p tn 0 = Ok [0; 0]%N /\
  t_argsort Release isort_p ts 0 = Ok [3; 2; 1; 0]%N /\ t_argsort Release isort_p tn 0 = Panic /\
  is_nan (at_ tn (fun i => match i with 0 => 1 | _ => 0 end) 0 : f32) = true /\ 2 <= ext (t_shape tn) 0.
Proof.
  split; [rdyf|]. split; [rdyf|]. split.
  - intros c b Hc Hb. assert (P : pos (t_shape ts) c b < 4) by (apply (pos_lt (s := t_shape ts)); auto; apply (ready_wf (d := 0)); rdyf).
    unfold at_. destruct (pos (t_shape ts) c b) as [|[|[|[|?]]]]; try reflexivity. lia.
  - split; [exact alf_ok|]. destruct isort_p_contract as [A B]. split; [exact A|]. split; [exact B|].
    ssplit; try (vm_compute; reflexivity). apply Nat.leb_le. vm_compute. reflexivity.
Qed.
