(** * Minibatch: one element of a minibatch at a time (lemmas for C71) *)
From Verif Require Export KPerm Typed Create.
Set Implicit Arguments.
Unset Strict Implicit.

Section Minibatch.
Variable K : num.
Notation F := (F K).
Notation tensor := (tensor K).
Notation kind := (kind K).
Notation nat32 x := (N.to_nat x).

(** ** Specification *)
(** [t1] holds example [b] of the minibatch [t]; a tensor without a minibatch is used for every example *)
Definition example_of (b : nat) (t t1 : tensor) : Prop :=
  shape_is (t_shape t1) (ext (t_shape t)) 1 /\ forall c, inb (t_shape t) c -> at_ t1 c 0 = at_ t c (bsel (t_shape t) b).
(** the id of example [b]; one id is used for every example *)
Definition id_for (b : nat) (ids : list N) : list N := [nth (if length ids =? 1 then 0 else b) ids 0%N].
(** [k1] is the operator [k] for example [b]: the leaves hold the example, the lists of ids its id, shapes have no
    minibatch; there are no operators that mix the elements of a minibatch *)
Definition for_example (b : nat) (k k1 : kind) : Prop :=
  match k with
  | KInput t => exists t1, k1 = KInput t1 /\ example_of b t t1
  | KInputOwner t => exists t1, k1 = KInputOwner t1 /\ example_of b t t1
  | KParameter t => exists t1, k1 = KParameter t1 /\ example_of b t t1
  | KPick ids d => k1 = KPick (id_for b ids) d
  | KSparseSoftmaxCrossEntropy ids d => k1 = KSparseSoftmaxCrossEntropy (id_for b ids) d
  | KReshape r => exists r1, k1 = KReshape r1 /\ shape_is r1 (ext r) 1
  | KBatchConcat | KBatchPick _ | KBatchSlice _ _ | KBatchSplit _ | KBatchSum => False
  | _ => k1 = k
  end.
(** reshape does not turn elements of the minibatch into elements of its members *)
Definition keeps_minibatch (k : kind) (ss : list shape) : Prop :=
  match k with KReshape r => forall x, ss = [x] -> bat r = bat x | _ => True end.

(** ** Lemmas *)
Definition one (s s1 : shape) : Prop := shape_is s1 (ext s) 1.
Variables B b : nat.
Hypothesis Hb : b < B.
Definition sized (s : shape) : Prop := bat s = 1 \/ bat s = B.

Lemma one_inb s s1 c : one s s1 -> inb s c <-> inb s1 c.
Proof. intros (_ & E & _). unfold inb. split; intros H i; specialize (H i); rewrite E in * ; auto. Qed.
Lemma one_vol s s1 : one s s1 -> vol s1 = vol s.
Proof. intros (_ & E & _). unfold vol, low. cbn [prod_lt]. rewrite !E. reflexivity. Qed.
Lemma bsel_one s : bat s = 1 -> forall n, bsel s n = 0.
Proof. intros E n. unfold bsel. rewrite E. reflexivity. Qed.
Lemma bsel_same s t : bat s = bat t -> bsel s b = bsel t b.
Proof. intros E. unfold bsel. rewrite E. reflexivity. Qed.
Lemma bsel_bsel s x : sized s -> (bat x = 1 \/ bat x = bat s) -> bsel x (bsel s b) = bsel x b.
Proof. intros _ H. unfold bsel. destruct (Nat.eqb_spec (bat x) 1), (Nat.eqb_spec (bat s) 1); auto. lia. Qed.
Lemma bsel_in s : wf s -> sized s -> bsel s b < bat s.
Proof. intros W [E|E]; unfold bsel; destruct (Nat.eqb_spec (bat s) 1); lia. Qed.
Lemma example_at x x1 s c : example_of b x x1 -> bat s = bat (t_shape x) -> inb (t_shape x) c -> at_ x1 c 0 = at_ x c (bsel s b).
Proof. intros (_ & H) E Hc. rewrite (bsel_same E). auto. Qed.
(** two operands, one of which may be without a minibatch *)
Lemma example_at2 x x1 s c : example_of b x x1 -> sized s -> (bat (t_shape x) = 1 \/ bat (t_shape x) = bat s) -> inb (t_shape x) c ->
  at_ x1 c (bsel (t_shape x1) 0) = at_ x c (bsel (t_shape x) (bsel s b)).
Proof. intros ((W & E & E1) & H) S C Hc. rewrite (bsel_one E1), (bsel_bsel S C). auto. Qed.
Lemma cset_inb s c e j : inb s c -> j < ext s e -> inb s (cset c e j).
Proof. intros H L i. unfold cset. destruct (Nat.eqb_spec i e) as [->|]; auto. Qed.
Lemma cset_inb' s x c e j n : (forall i, ext s i = eset x e n i) -> inb s c -> j < ext x e -> inb x (cset c e j).
Proof. intros E H L i. unfold cset. specialize (H i). rewrite E in H. unfold eset in H. destruct (Nat.eqb_spec i e) ; subst; auto. Qed.
Lemma line_example x x1 s s' c e n j : example_of b x x1 -> (forall i, ext s i = eset (t_shape x) e n i) -> bat s' = bat (t_shape x) -> inb s c -> j < ext (t_shape x) e ->
  line x1 e c 0 j = line x e c (bsel s' b) j.
Proof. intros X E EB Hc Hj. unfold line. apply example_at with (1 := X); auto. eapply cset_inb'; eauto. Qed.
Lemma one_eset x x1 s s1 e n n1 : one x x1 -> n1 = n -> shape_is s (eset x e n) (bat x) -> shape_is s1 (eset x1 e n1) (bat x1) -> one s s1.
Proof. intros (W & E & E1) -> (_ & S & _) (W1 & S1 & SB). split; auto. split; [|congruence]. intros i. rewrite S, S1. unfold eset. destruct (i =? e); auto. Qed.

Notation conclusion k k1 xs xs1 rs rs1 := (length rs1 = length rs /\ forall v s s1, nth_error rs v = Some s -> nth_error rs1 v = Some s1 ->
  one s s1 /\ forall c, inb s c -> sem (K := K) k1 xs1 v c 0 = sem (K := K) k xs v c (bsel s b)).
Lemma concl1 k k1 xs xs1 s s1 : one s s1 -> (forall c, inb s c -> sem (K := K) k1 xs1 0 c 0 = sem (K := K) k xs 0 c (bsel s b)) -> conclusion k k1 xs xs1 [s] [s1].
Proof. intros O H. split; auto. intros [|v] t t1 Ht Ht1; cbn in * ; [|destruct v; discriminate]. inversion Ht; inversion Ht1; subst. auto. Qed.

Lemma on1_inv P (xs : list tensor) rs : on1 P (map (@t_shape K) xs) rs -> exists x s, xs = [x] /\ rs = [s] /\ P (t_shape x) s.
Proof. intros (x & s & E & -> & H). destruct xs as [|y [|z l]]; inversion E; subst. eauto. Qed.
Lemma on2_inv P (xs : list tensor) rs : on2 P (map (@t_shape K) xs) rs -> exists x y s, xs = [x; y] /\ rs = [s] /\ P (t_shape x) (t_shape y) s.
Proof. intros (x & y & s & E & -> & H). destruct xs as [|u [|v [|w l]]]; inversion E; subst. eauto 6. Qed.

Lemma cat_example : forall xs xs1, Forall2 (example_of b) xs xs1 -> forall e c s, sized s -> Forall (fun x : tensor => bat (t_shape x) = 1 \/ bat (t_shape x) = bat s) xs ->
  Forall (fun x : tensor => forall i, i <> e -> c i < ext (t_shape x) i) xs -> cat_at xs1 e c 0 = cat_at xs e c (bsel s b).
Proof.
  induction 1 as [|x x1 xs xs1 X X' IH]; intros e c s S HB HC; [reflexivity|]. inversion HB as [|? ? B1 B2]; inversion HC as [|? ? C1 C2]; subst. cbn [cat_at]. pose proof X as ((W & EE & E1) & XV). rewrite EE.
  destruct (Nat.ltb_spec (c e) (ext (t_shape x) e)) as [L|L].
  - apply example_at2; auto. intros i. destruct (Nat.eq_dec i e) as [->|N]; auto.
  - apply IH; auto. eapply Forall_impl; [|exact C2]. cbv beta. intros z Hz i Hi. unfold cset. destruct (Nat.eqb_spec i e); [congruence|auto].
Qed.

Theorem for_example_sem k k1 xs xs1 rs rs1 : for_example b k k1 -> keeps_minibatch k (map (@t_shape K) xs) ->
  typed k (map (@t_shape K) xs) rs -> typed k1 (map (@t_shape K) xs1) rs1 -> Forall2 (example_of b) xs xs1 -> Forall (fun x : tensor => wf (t_shape x)) xs ->
  Forall sized (map (@t_shape K) xs) -> Forall sized rs -> (forall s, In s rs -> wf s) -> conclusion k k1 xs xs1 rs rs1.
Proof.
  intros HK HM T T1 HX HW HS HR HWR.
  assert (I1 : forall x, xs = [x] -> exists x1, xs1 = [x1] /\ example_of b x x1 /\ wf (t_shape x) /\ sized (t_shape x)).
  { intros x ->. inversion HX as [|? x1 ? l X Y]; subst. inversion Y; subst. inversion HW; inversion HS; subst. eauto 6. }
  assert (I2 : forall x y, xs = [x; y] -> exists x1 y1, xs1 = [x1; y1] /\ example_of b x x1 /\ example_of b y y1 /\ wf (t_shape x) /\ wf (t_shape y)).
  { intros x y ->. inversion HX as [|? x1 ? l X Y]; subst. inversion Y as [|? y1 ? l' X' Y']; subst. inversion Y'; subst. inversion HW as [|? ? W1 W2]; inversion W2; subst. eauto 8. }
  assert (U : forall k f, uop k = Some f -> (forall zs v c n, sem k zs v c n = f (at_ (arg zs 0) c n)) -> on1 (fun x s => s = x) (map (@t_shape K) xs) rs -> on1 (fun x s => s = x) (map (@t_shape K) xs1) rs1 -> conclusion k k xs xs1 rs rs1).
  { intros k2 f _ EF U U1. destruct (on1_inv U) as (x & s & Ex & -> & ->). destruct (I1 x Ex) as (x1 & -> & X & W & Z). destruct (on1_inv U1) as (x2 & s1 & Ex1 & -> & ->). injection Ex1 as <-. subst xs.
    apply concl1; [apply X|]. intros c Hc. rewrite !EF. unfold arg. cbn [nth]. f_equal. eapply example_at; eauto. }
  assert (BI : forall k f, (forall zs v c n, sem k zs v c n = f (at_ (arg zs 0) c (bsel (t_shape (arg zs 0)) n)) (at_ (arg zs 1) c (bsel (t_shape (arg zs 1)) n))) -> on2 batchable (map (@t_shape K) xs) rs -> on2 batchable (map (@t_shape K) xs1) rs1 -> conclusion k k xs xs1 rs rs1).
  { intros k2 f EF U2 U1. destruct (on2_inv U2) as (x & y & s & Ex & -> & (Q1 & Q2 & Q3 & Q4 & Q5)). destruct (I2 x y Ex) as (x1 & y1 & -> & X & Y & Wx & Wy). destruct (on2_inv U1) as (x2 & y2 & s1 & Ex1 & -> & (R1 & R2 & R3 & R4 & R5)). injection Ex1 as <- <-. subst xs.
    inversion HR as [|? ? Z _]; subst. pose proof X as ((A1 & A2 & A3) & _). pose proof Y as ((C1 & C2 & C3) & _). pose proof (bat_pos Wx). pose proof (bat_pos Wy). apply concl1.
    - split; auto. split; [intros i; rewrite R4, A2, Q4; auto|]. rewrite R5. lia.
    - intros c Hc. rewrite !EF. unfold arg. cbn [nth]. f_equal; apply example_at2; auto; try lia; intros i; specialize (Hc i); rewrite Q4 in Hc; [auto|rewrite <- Q1; auto]. }
  assert (SC : forall k f, (forall zs v c n, sem k zs v c n = f (at_ (arg zs 0) c (bsel (t_shape (arg zs 0)) n)) (at_ (arg zs 1) czero (bsel (t_shape (arg zs 1)) n))) -> on2 scalable (map (@t_shape K) xs) rs -> on2 scalable (map (@t_shape K) xs1) rs1 -> conclusion k k xs xs1 rs rs1).
  { intros k2 f EF U2 U1. destruct (on2_inv U2) as (x & y & s & Ex & -> & (Q1 & Q2 & Q3 & Q4 & Q5)). destruct (I2 x y Ex) as (x1 & y1 & -> & X & Y & Wx & Wy). destruct (on2_inv U1) as (x2 & y2 & s1 & Ex1 & -> & (R1 & R2 & R3 & R4 & R5)). injection Ex1 as <- <-. subst xs.
    inversion HR as [|? ? Z _]; subst. pose proof X as ((A1 & A2 & A3) & _). pose proof Y as ((C1 & C2 & C3) & _). pose proof (bat_pos Wx). pose proof (bat_pos Wy). apply concl1.
    - split; auto. split; [intros i; rewrite R4, A2, Q4; auto|]. rewrite R5. lia.
    - intros c Hc. rewrite !EF. unfold arg. cbn [nth]. f_equal; apply example_at2; auto; try lia; intros i; [specialize (Hc i); rewrite Q4 in Hc; auto|rewrite Q1; unfold czero; lia]. }
  destruct k; cbn [for_example] in HK; try (destruct HK; fail); try (subst k1); try (destruct HK as (q & -> & HQ)); cbn [typed] in T, T1;
    try (match goal with |- context [sem ?k] => let o := eval cbn [uop] in (uop k) in match o with Some ?f => apply (U k f); [reflexivity|reflexivity|exact T|exact T1] end end); try (eapply BI; [reflexivity|exact T|exact T1]); try (match type of T with on2 scalable _ _ => match goal with |- context [sem ?k] => let o := eval cbn [sop] in (sop k) in match o with Some ?f => apply (SC k f); [reflexivity|exact T|exact T1] end end end);
    try (destruct T as (E1 & ->), T1 as (E2 & ->); destruct xs; [|discriminate]; apply concl1; [apply HQ|intros c Hc; cbn [sem]; apply HQ; auto]; fail).
  - (* broadcast *) destruct (on1_inv T) as (x & s & Ex & -> & Q1 & Q2 & Q3 & Q4). destruct (I1 x Ex) as (x1 & -> & X & W & Z). destruct (on1_inv T1) as (x2 & s1 & Ex1 & -> & _ & _ & _ & R4). injection Ex1 as <-. subst xs.
    apply concl1; [exact (one_eset (proj1 X) eq_refl Q4 R4)|]. intros c Hc. cbn [sem]. unfold arg. cbn [nth]. apply example_at with (1 := X); [apply Q4|]. apply cset_inb' with (1 := proj1 (proj2 Q4)); auto. lia.
  - (* logsumexp *) destruct (on1_inv T) as (x & s & Ex & -> & Q1 & Q2). destruct (I1 x Ex) as (x1 & -> & X & W & Z). destruct (on1_inv T1) as (x2 & s1 & Ex1 & -> & _ & R2). injection Ex1 as <-. subst xs.
    apply concl1; [exact (one_eset (proj1 X) eq_refl Q2 R2)|]. intros c Hc. cbn [sem]. unfold arg. cbn [nth]. rewrite (proj1 (proj2 (proj1 X))). apply lse_ext; [apply ext_pos; auto|]. intros j Hj. eapply line_example; [exact X|apply Q2|apply Q2|auto|auto].
  - (* max *) destruct (on1_inv T) as (x & s & Ex & -> & Q1 & Q2). destruct (I1 x Ex) as (x1 & -> & X & W & Z). destruct (on1_inv T1) as (x2 & s1 & Ex1 & -> & _ & R2). injection Ex1 as <-. subst xs.
    apply concl1; [exact (one_eset (proj1 X) eq_refl Q2 R2)|]. intros c Hc. cbn [sem]. unfold arg. cbn [nth]. rewrite (proj1 (proj2 (proj1 X))).
    assert (LE : forall j, j < ext (t_shape x) (nat32 dim) -> line x1 (nat32 dim) c 0 j = line x (nat32 dim) c (bsel s b) j) by (intros j Hj; eapply line_example; [exact X|apply Q2|apply Q2|auto|auto]).
    cbv zeta. rewrite (LE 0) by (apply ext_pos; auto). apply red_ext. auto.
  - (* min *) destruct (on1_inv T) as (x & s & Ex & -> & Q1 & Q2). destruct (I1 x Ex) as (x1 & -> & X & W & Z). destruct (on1_inv T1) as (x2 & s1 & Ex1 & -> & _ & R2). injection Ex1 as <-. subst xs.
    apply concl1; [exact (one_eset (proj1 X) eq_refl Q2 R2)|]. intros c Hc. cbn [sem]. unfold arg. cbn [nth]. rewrite (proj1 (proj2 (proj1 X))).
    assert (LE : forall j, j < ext (t_shape x) (nat32 dim) -> line x1 (nat32 dim) c 0 j = line x (nat32 dim) c (bsel s b) j) by (intros j Hj; eapply line_example; [exact X|apply Q2|apply Q2|auto|auto]).
    cbv zeta. rewrite (LE 0) by (apply ext_pos; auto). apply red_ext. auto.
  - (* sum *) destruct (on1_inv T) as (x & s & Ex & -> & Q1 & Q2). destruct (I1 x Ex) as (x1 & -> & X & W & Z). destruct (on1_inv T1) as (x2 & s1 & Ex1 & -> & _ & R2). injection Ex1 as <-. subst xs.
    apply concl1; [exact (one_eset (proj1 X) eq_refl Q2 R2)|]. intros c Hc. cbn [sem]. unfold arg. cbn [nth]. rewrite (proj1 (proj2 (proj1 X))). apply red_ext. intros j Hj. eapply line_example; [exact X|apply Q2|apply Q2|auto|auto].
  - (* cross entropy *) destruct (on2_inv T) as (x & y & s & Ex & -> & Q1 & Q2 & s0 & (V1 & V2 & V3) & Q4 & Q5). destruct (I2 x y Ex) as (x1 & y1 & -> & X & Y & Wx & Wy).
    destruct (on2_inv T1) as (x2 & y2 & s1 & Ex1 & -> & _ & _ & s2 & (R1 & R2 & R3) & _ & R5). injection Ex1 as <- <-. subst xs. pose proof (bat_pos Wx). pose proof (bat_pos Wy). inversion HR as [|? ? Z _]; subst.
    pose proof X as ((A1 & A2 & A3) & _). pose proof Y as ((C1 & C2 & C3) & _). destruct V3 as (V3 & V4 & V5), R3 as (R3 & R4 & R6), Q5 as (Q5 & Q6 & Q7), R5 as (R5 & R7 & R8).
    apply concl1; [split; [auto|]; split; [|lia]; intros i; rewrite R7, Q6; unfold eset; rewrite R4, A2, V4; auto|]. intros c Hc. cbn [sem]. unfold arg. cbn [nth]. f_equal. rewrite A2. apply red_ext. intros j Hj. cbv zeta.
    assert (HC : forall k, k < ext (t_shape x) (nat32 dim) -> inb (t_shape x) (cset c (nat32 dim) k)) by (intros k Hk i; specialize (Hc i); rewrite Q6 in Hc; unfold eset in Hc; rewrite V4 in Hc; unfold cset; destruct (Nat.eqb_spec i (nat32 dim)); subst; auto).
    f_equal; [apply example_at2; auto; [lia|intros i; rewrite <- V1; apply HC; auto]|]. unfold lsm. f_equal; [apply example_at2; auto; lia|]. rewrite A2. apply lse_ext; [apply ext_pos; auto|]. intros k Hk. unfold line. apply example_at2; auto; [lia|].
    intros i. rewrite cset_cset. apply HC; auto.
  - (* sparse cross entropy *) destruct (on1_inv T) as (x & s & Ex & -> & Q1 & Q2 & Q3 & Q4 & Q5 & (Q6 & Q7 & Q8)). destruct (I1 x Ex) as (x1 & -> & X & W & Z). destruct (on1_inv T1) as (x2 & s1 & Ex1 & -> & _ & _ & _ & _ & _ & (R6 & R7 & R8)). injection Ex1 as <-. subst xs. inversion HR as [|? ? Zs _]; subst.
    pose proof X as ((A1 & A2 & A3) & _). pose proof (bat_pos W). assert (L1 : 1 <= length ids) by (destruct ids; [congruence|cbn; lia]).
    assert (EP : pid (id_for b ids) 0 = pid ids (bsel s b)). { unfold pid, id_for, bsel. cbn [length nth Nat.eqb]. destruct (Nat.eqb_spec (length ids) 1), (Nat.eqb_spec (bat s) 1); auto. lia. }
    assert (PL : pid ids (bsel s b) < ext (t_shape x) (nat32 dim)). { rewrite Forall_forall in Q5. apply Q5. apply nth_In. pose proof (bsel_in Q6 Zs). destruct (Nat.eqb_spec (length ids) 1); lia. }
    apply concl1; [split; [auto|]; split; [|unfold id_for in R8; cbn in R8; lia]; intros i; rewrite R7, Q7; unfold eset; rewrite A2; auto|]. intros c Hc. cbn [sem]. unfold arg. cbn [nth]. f_equal. rewrite EP. unfold lsm.
    assert (HC : forall k, k < ext (t_shape x) (nat32 dim) -> inb (t_shape x) (cset c (nat32 dim) k)) by (intros k Hk; eapply cset_inb'; eauto).
    f_equal; [apply example_at2; auto; lia|]. rewrite A2. apply lse_ext; [apply ext_pos; auto|]. intros k Hk. unfold line. apply example_at2; auto; [lia|]. intros i. rewrite cset_cset. apply HC; auto.
  - (* matmul *) destruct (on2_inv T) as (x & y & s & Ex & -> & Q1 & Q2 & Q3 & Q4 & (Q5 & Q6 & Q7)). destruct (I2 x y Ex) as (x1 & y1 & -> & X & Y & Wx & Wy).
    destruct (on2_inv T1) as (x2 & y2 & s1 & Ex1 & -> & _ & _ & R3 & R4 & (R5 & R6 & R7)). injection Ex1 as <- <-. subst xs. pose proof (bat_pos Wx). pose proof (bat_pos Wy). inversion HR as [|? ? Z _]; subst.
    pose proof X as ((A1 & A2 & A3) & _). pose proof Y as ((C1 & C2 & C3) & _).
    apply concl1; [split; [auto|]; split; [|lia]; intros i; rewrite R6, Q6, A2, C2; auto|]. intros c Hc. cbn [sem]. unfold arg. cbn [nth]. rewrite A2. apply blocksum_ext. intros j Hj.
    pose proof (Hc 0) as Hc0. pose proof (Hc 1) as Hc1. rewrite Q6 in Hc0, Hc1. cbn in Hc0, Hc1.
    f_equal; apply example_at2; auto; try lia; intros [|[|i]]; cbn [c2]; auto; try (apply ext_pos; auto). rewrite <- Q3. auto.
  - (* transpose *) destruct (on1_inv T) as (x & s & Ex & -> & Q1 & (Q2 & Q3 & Q4)). destruct (I1 x Ex) as (x1 & -> & X & W & Z). destruct (on1_inv T1) as (x2 & s1 & Ex1 & -> & _ & (R2 & R3 & R4)). injection Ex1 as <-. subst xs. pose proof X as ((A1 & A2 & A3) & _).
    apply concl1; [split; [auto|]; split; [|lia]; intros i; rewrite R3, Q3, !A2; auto|]. intros c Hc. cbn [sem]. unfold arg. cbn [nth]. apply example_at with (1 := X); auto.
    pose proof (Hc 0) as Hc0. pose proof (Hc 1) as Hc1. rewrite Q3 in Hc0, Hc1. cbn in Hc0, Hc1. intros [|[|i]]; cbn [c2]; auto. apply ext_pos; auto.
  - (* triangular *) destruct (on1_inv T) as (x & s & Ex & -> & Q1 & Q2 & Q3 & ->). destruct (I1 x Ex) as (x1 & -> & X & W & Z). destruct (on1_inv T1) as (x2 & s1 & Ex1 & -> & _ & _ & _ & ->). injection Ex1 as <-. subst xs.
    apply concl1; [apply X|]. intros c Hc. cbn [sem]. unfold arg. cbn [nth]. destruct (_ <=? _)%N; auto. apply example_at with (1 := X); auto.
  - destruct (on1_inv T) as (x & s & Ex & -> & Q1 & Q2 & Q3 & ->). destruct (I1 x Ex) as (x1 & -> & X & W & Z). destruct (on1_inv T1) as (x2 & s1 & Ex1 & -> & _ & _ & _ & ->). injection Ex1 as <-. subst xs.
    apply concl1; [apply X|]. intros c Hc. cbn [sem]. unfold arg. cbn [nth]. destruct (_ <=? _)%N; auto. apply example_at with (1 := X); auto.
  - (* pick *) destruct (on1_inv T) as (x & s & Ex & -> & Q1 & Q2 & Q3 & Q4 & Q5 & (Q6 & Q7 & Q8)). destruct (I1 x Ex) as (x1 & -> & X & W & Z). destruct (on1_inv T1) as (x2 & s1 & Ex1 & -> & _ & _ & _ & _ & _ & (R6 & R7 & R8)). injection Ex1 as <-. subst xs. inversion HR as [|? ? Zs _]; subst.
    pose proof X as ((A1 & A2 & A3) & _). pose proof (bat_pos W). assert (L1 : 1 <= length ids) by (destruct ids; [congruence|cbn; lia]).
    assert (EP : pid (id_for b ids) 0 = pid ids (bsel s b)). { unfold pid, id_for, bsel. cbn [length nth Nat.eqb]. destruct (Nat.eqb_spec (length ids) 1), (Nat.eqb_spec (bat s) 1); auto. lia. }
    assert (PL : pid ids (bsel s b) < ext (t_shape x) (nat32 dim)). { rewrite Forall_forall in Q5. apply Q5. apply nth_In. pose proof (bsel_in Q6 Zs). destruct (Nat.eqb_spec (length ids) 1); lia. }
    apply concl1; [split; [auto|]; split; [|unfold id_for in R8; cbn in R8; lia]; intros i; rewrite R7, Q7; unfold eset; rewrite A2; auto|]. intros c Hc. cbn [sem]. unfold arg. cbn [nth]. rewrite EP. apply example_at2; auto; [lia|]. eapply cset_inb'; eauto.
  - (* slice *) destruct (on1_inv T) as (x & s & Ex & -> & Q1 & Q2 & Q3 & Q4). destruct (I1 x Ex) as (x1 & -> & X & W & Z). destruct (on1_inv T1) as (x2 & s1 & Ex1 & -> & _ & _ & _ & R4). injection Ex1 as <-. subst xs.
    apply concl1; [exact (one_eset (proj1 X) eq_refl Q4 R4)|]. intros c Hc. cbn [sem]. unfold arg. cbn [nth]. apply example_at with (1 := X); [apply Q4|]. eapply cset_inb'; [apply Q4|auto|]. pose proof (Hc (nat32 dim)) as H. rewrite (proj1 (proj2 Q4)) in H. unfold eset in H. rewrite Nat.eqb_refl in H. lia.
  - (* split *) destruct T as (sx & s & Ex & -> & Q1 & Q2 & Q3 & Q4), T1 as (sx1 & s1 & Ex1 & -> & _ & _ & _ & R4). destruct xs as [|x [|]]; try discriminate. injection Ex as <-. destruct (I1 x eq_refl) as (x1 & -> & X & W & Z). injection Ex1 as <-.
    pose proof X as ((A1 & A2 & A3) & _). split; [rewrite !repeat_length; auto|]. intros v t t1 Ht Ht1. pose proof (nth_error_Some_lt Ht) as Lv. rewrite repeat_length in Lv. apply nth_error_In, repeat_spec in Ht. apply nth_error_In, repeat_spec in Ht1. subst t t1.
    split; [eapply one_eset; [apply X| |exact Q4|exact R4]; rewrite A2; auto|]. intros c Hc. cbn [sem]. unfold arg. cbn [nth]. rewrite A2. apply example_at with (1 := X); [apply Q4|]. eapply cset_inb'; [apply Q4|auto|].
    pose proof (Hc (nat32 dim)) as H. rewrite (proj1 (proj2 Q4)) in H. unfold eset in H. rewrite Nat.eqb_refl in H. pose proof (Nat.div_mod (ext (t_shape x) (nat32 dim)) (nat32 n) ltac:(lia)). nia.
  - (* concat *) destruct T as (s0 & ss0 & s & Ex & -> & Q1 & Q2 & (Q3 & Q3') & (Q4 & Q5 & _)), T1 as (t0 & ts0 & s1 & Ex1 & -> & _ & _ & (R3 & R3') & (R4 & R5 & _)).
    inversion HX as [E1 E2|x x1 xs' xs1' X X' E1 E2]; subst xs xs1; [discriminate|]. cbn [map] in Ex, Ex1. injection Ex as <- <-. injection Ex1 as <- <-. inversion HR as [|? ? Z _]; subst. change (t_shape x :: map (@t_shape K) xs') with (map (@t_shape K) (x :: xs')) in Q2. apply Forall_map1 in Q2.
    assert (B1 : bat s1 = 1). { destruct R3' as [R|R]; auto. apply in_map_iff in R. destruct R as (t & <- & Ht). change (In t (map (@t_shape K) (x1 :: xs1'))) in Ht. apply in_map_iff in Ht. destruct Ht as (z1 & <- & Hz). destruct (In_nth_error _ _ Hz) as (n & Hn). clear - HX Hn. revert n Hn. induction HX as [|u u1 l l1 U V IH]; intros [|n] Hn; cbn in Hn; try discriminate; [inversion Hn; subst; apply U|eauto]. }
    assert (EE : forall e, exts (x1 :: xs1') e = exts (x :: xs') e). { intros e. clear - HX. induction HX as [|u u1 l l1 U V IH]; auto. unfold exts in * . cbn [fold_right]. rewrite IH. rewrite (proj1 (proj2 (proj1 U))). auto. }
    apply concl1.
    + split; auto. split; auto. intros i. rewrite R5, Q5. unfold eset. destruct (i =? nat32 dim); [|apply X]. change (t_shape x1 :: map (@t_shape K) xs1') with (map (@t_shape K) (x1 :: xs1')). change (t_shape x :: map (@t_shape K) xs') with (map (@t_shape K) (x :: xs')). rewrite !exts_list. auto.
    + intros c Hc. cbn [sem]. apply cat_example; auto.
      * change (bat (t_shape x) :: map bat (map (@t_shape K) xs')) with (map bat (map (@t_shape K) (x :: xs'))) in Q3. rewrite map_map in Q3. rewrite Forall_map in Q3. exact Q3.
      * eapply Forall_impl; [|exact Q2]. cbv beta. intros z Hz i Hi. rewrite Hz by auto. specialize (Hc i). rewrite Q5 in Hc. unfold eset in Hc. destruct (Nat.eqb_spec i (nat32 dim)); [congruence|auto].
  - (* reshape *) destruct (on1_inv T) as (x & s' & Ex & -> & -> & Q2). destruct (I1 x Ex) as (x1 & -> & X & W & Z). destruct (on1_inv T1) as (x2 & s1 & Ex1 & -> & -> & R2). injection Ex1 as <-. subst xs. pose proof X as ((A1 & A2 & A3) & XV). pose proof (HM _ eq_refl) as EB. pose proof (bat_pos W).
    assert (EV : vol s = vol (t_shape x)) by (unfold tot in Q2; rewrite EB in Q2; apply Nat.mul_cancel_l in Q2; lia).
    apply concl1; [exact HQ|]. intros c Hc. cbn [sem]. unfold arg. cbn [nth]. rewrite (bsel_same EB).
    assert (Ws : wf s) by (apply HWR; left; auto).
    assert (L : pos s c 0 < tot (t_shape x)). { pose proof (pos_lt (b := 0) Ws Hc ltac:(pose proof (bat_pos Ws); lia)). lia. }
    set (p := pos s c 0) in * . assert (Lv : p < vol (t_shape x)). { unfold p. assert (P1 : pos s c 0 / vol s = 0) by (eapply (@KPerm.pos_parts s s eq_refl); auto). rewrite EV in P1. apply Nat.div_small_iff in P1; auto. pose proof (vol_pos W). lia. }
    assert (E0 : forall n, pos (t_shape x) (cpos (t_shape x) p) n = n * vol (t_shape x) + p). { intros n. unfold pos. rewrite (@cpos_lin (t_shape x) (t_shape x) eq_refl), Nat.mod_small by auto. auto. }
    assert (E1 : pos (t_shape x1) (cpos (t_shape x) p) 0 = p). { rewrite (@pos_ext (t_shape x1) (t_shape x) _ (cpos (t_shape x) p) 0); [rewrite E0; lia|auto|auto]. }
    assert (EP : forall n, pos s c n = n * vol (t_shape x) + p). { intros n. unfold p, pos. rewrite EV. lia. }
    assert (EP1 : pos q c 0 = p). { unfold p. apply pos_ext; [intros; apply HQ|auto]. }
    pose proof (XV _ (@cpos_inb (t_shape x) (t_shape x) eq_refl (t_shape x) p W)) as G. unfold at_ in G. rewrite E1, E0 in G. rewrite EP1, EP. exact G.
Qed.
End Minibatch.
