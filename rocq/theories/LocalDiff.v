(** * LocalDiff: for each operator, the update rule of backward is the adjoint of the derivative (for C38) *)
From Verif Require Export AutoDiff.
From Coq Require Import FunctionalExtensionality.
Set Implicit Arguments.
Unset Strict Implicit.
Open Scope R_scope.
Notation nat32 x := (N.to_nat x).
Notation d0 := (mkShape [] 0 0 0).
Notation shp := (@t_shape Rnum).

(** ** Where an operator has a derivative *)
Definition is_sop (k : rkind) : bool := match sop k with Some _ => true | None => false end.
Definition smooth (k : rkind) (xs : list rtensor) (rs : list shape) : Prop :=
  let x := arg xs 0 in let z := arg xs 1 in
  forall s c b, rs = [s] -> inb s c -> (b < bat s)%nat ->
  match k with
  | KMax d => exists j0, (j0 < ext (t_shape x) (nat32 d))%nat /\ forall j, (j < ext (t_shape x) (nat32 d))%nat -> j <> j0 -> (line x (nat32 d) c b j : R) < line x (nat32 d) c b j0
  | KMin d => exists j0, (j0 < ext (t_shape x) (nat32 d))%nat /\ forall j, (j < ext (t_shape x) (nat32 d))%nat -> j <> j0 -> (line x (nat32 d) c b j0 : R) < line x (nat32 d) c b j
  | KSoftmaxCrossEntropy d => rsum (ext (t_shape x) (nat32 d)) (fun j => at_ z (cset c (nat32 d) j) (bsel (t_shape z) b)) = 1
  | _ => udom k (at_ x c b) /\
         bdom k (at_ x c (bsel (t_shape x) b)) (at_ z (if is_sop k then czero else c) (bsel (t_shape z) b))
  end.

(** ** Little facts *)
Lemma esub_eset s d n : esub (ext s) d n = eset s d n. Proof. reflexivity. Qed.
Lemma bsel_lt s B b : wf s -> (bat s = 1 \/ bat s = B)%nat -> (b < B)%nat -> (bsel s b < bat s)%nat.
Proof. intros W H Hb. unfold bsel. pose proof (bat_pos W). destruct (Nat.eqb_spec (bat s) 1); lia. Qed.
Lemma bsel_id s b : (b < bat s)%nat -> bsel s b = b.
Proof. intros H. unfold bsel. destruct (Nat.eqb_spec (bat s) 1); lia. Qed.
Lemma shape_is_inb s e b c : shape_is s e b -> (inb s c <-> forall i, (c i < e i)%nat).
Proof. intros (_ & E & _). unfold inb. split; intros H i; specialize (H i); rewrite E in *; auto. Qed.
Lemma lsum_rsum A n (f : A -> nat -> R) l : lsum (fun a => rsum n (f a)) l = rsum n (fun i => lsum (fun a => f a i) l).
Proof. induction l as [|a l IH]; cbn [lsum]; [symmetry; apply rsum_0; auto|]. rewrite IH, rsum_plus. auto. Qed.
Lemma lsum_app A (f : A -> R) l l' : lsum f (l ++ l') = lsum f l + lsum f l'.
Proof. induction l as [|a l IH]; cbn; [ring|]. rewrite IH. ring. Qed.
Lemma vsum_plus s f g : vsum s (fun c => f c + g c) = vsum s f + vsum s g. Proof. apply csum_plus. Qed.
Lemma vsum_scal s a f : vsum s (fun c => a * f c) = a * vsum s f. Proof. apply csum_scal. Qed.
Lemma vsum_same s s' f : (forall i, ext s i = ext s' i) -> vsum s f = vsum s' f.
Proof. intros H. apply csum_e. auto. Qed.
Lemma vsum_split s s' d f : wf s' -> (d < 8)%nat -> (forall i, ext s' i = eset s d 1 i) -> vsum s f = vsum s' (fun c => rsum (ext s d) (fun j => f (cset c d j))).
Proof. intros W Hd E. unfold vsum. rewrite (@csum_split (ext s) 8 d f Hd). apply csum_e. intros i _. rewrite E. reflexivity. Qed.
Lemma vsum_rsum s n f : vsum s (fun c => rsum n (fun j => f c j)) = rsum n (fun j => vsum s (fun c => f c j)). Proof. apply csum_rsum. Qed.
Lemma vsum_mat s f : wf s -> matrix s -> vsum s f = rsum (ext s 1) (fun j => rsum (ext s 0) (fun i => f (c2 i j))).
Proof. intros W M. apply csum_matrix. apply M. Qed.
Lemma inb_cset s d c j : inb s c -> (j < ext s d)%nat -> inb s (cset c d j).
Proof. intros H Hj i. unfold cset. destruct (Nat.eqb_spec i d); subst; auto. Qed.
Lemma inb_cset' s s' d c j n : (forall i, ext s' i = eset s d n i) -> inb s' c -> (j < ext s d)%nat -> inb s (cset c d j).
Proof. intros E H Hj i. unfold cset. specialize (H i). rewrite E in H. unfold eset in H. destruct (Nat.eqb_spec i d); subst; auto. Qed.

(** ** Unique extrema *)
Lemma red_best (better : R -> R -> bool) (lt : R -> R -> Prop) f n j0 : (forall u v, reflect (lt v u) (better u v)) ->
  (forall u v, lt u v -> lt v u -> False) -> (forall u v w, ~ lt u v -> ~ lt v w -> ~ lt u w) ->
  (j0 < n)%nat -> (forall j, (j < n)%nat -> j <> j0 -> lt (f j) (f j0)) -> @eq R (red (pick_better Rnum better) (f 0%nat) f n) (f j0).
Proof.
  intros HB AS TR Hj H.
  assert (G : forall m, (m <= n)%nat -> exists i, (i < Nat.max 1 m)%nat /\ red (pick_better Rnum better) (f 0%nat) f m = f i /\ forall j, (j < m)%nat -> ~ lt (f i) (f j)).
  { induction m as [|m IH]; intros Hm; [exists 0%nat; split; [lia|]; split; [reflexivity|]; intros; lia|]. destruct IH as (i & I1 & I2 & I3); [lia|].
    unfold red in *. rewrite seq_S, fold_left_app. cbn [fold_left Nat.add]. rewrite I2. unfold pick_better. destruct (HB (f m) (f i)) as [L|L].
    - exists m. split; [lia|]. split; [auto|]. intros j Hj'. destruct (Nat.eq_dec j m) as [->|NE]; [intros Q; eapply AS; eauto|]. eapply TR; [|apply I3; lia]. intros Q; eapply AS; eauto.
    - exists i. split; [lia|]. split; [auto|]. intros j Hj'. destruct (Nat.eq_dec j m) as [->|NE]; [auto|apply I3; lia]. }
  destruct (G n (le_n n)) as (i & I1 & I2 & I3). rewrite I2. destruct (Nat.eq_dec i j0) as [->|NE]; auto. exfalso. apply (I3 j0 Hj). apply H; auto. lia.
Qed.
Lemma first_eq_one (f : nat -> R) (v : R) n j j0 : (j <= j0 < j + n)%nat -> f j0 = v -> (forall i, (j <= i < j0)%nat -> f i <> v) -> first_eq Rnum f v n j = Some j0.
Proof.
  revert j. induction n as [|n IH]; intros j Hj E H; [lia|]. cbn [first_eq]. cbn [neqb Rnum]. destruct (Reqb_spec (f j) v) as [Q|Q].
  - destruct (Nat.eq_dec j j0) as [->|NE]; auto. exfalso. apply (H j); auto. lia.
  - apply IH; auto; [|intros; apply H; lia]. destruct (Nat.eq_dec j j0) as [->|NE]; [contradiction|lia].
Qed.

Section Local.
Variables (k : rkind) (ss rs : list shape) (xs : R -> list rtensor) (dx : nat -> coord' -> nat -> R) (ys gys : list rtensor).
Hypothesis HX : forall t, map shp (xs t) = ss.
Hypothesis HW : Forall wf ss.
Hypothesis HR : Forall wf rs.
Hypothesis HD : forall j s c b, nth_error ss j = Some s -> inb s c -> (b < bat s)%nat -> D (fun t => at_ (arg (xs t) j) c b) (dx j c b).
Hypothesis HYS : map shp ys = rs.
Hypothesis HGS : map shp gys = rs.
Hypothesis HY : forall v s c b, nth_error rs v = Some s -> inb s c -> (b < bat s)%nat -> at_ (arg ys v) c b = sem k (xs 0) v c b.

(** the derivative carried by one update: the change it makes, paired with the change of the argument *)
Definition pbat (p : part Rnum) (n : nat) : R :=
  match p_to p with Own => 0 | Arg j => vsum (nth j ss d0) (fun c => cval (p_val p c n) * dx j c (bsel (nth j ss d0) n)) end.
Definition psum (p : part Rnum) : R := rsum (p_bat p) (pbat p).
Definition local_ok : Prop := exists dy : nat -> coord' -> nat -> R,
  (forall v s c b, nth_error rs v = Some s -> inb s c -> (b < bat s)%nat -> D (fun t => sem k (xs t) v c b) (dy v c b)) /\
  rsum (length rs) (fun v => tsum (nth v rs d0) (fun c b => at_ (arg gys v) c b * dy v c b)) = lsum psum (bwsem k (xs 0) ys gys).

Lemma arg_shape t j s : nth_error ss j = Some s -> t_shape (arg (xs t) j) = s.
Proof. intros H. rewrite <- (HX t), nth_error_map in H. unfold arg. destruct (nth_error (xs t) j) eqn:E; inversion H. rewrite (nth_error_nth _ _ _ E). auto. Qed.
Lemma ys_shape v s : nth_error rs v = Some s -> t_shape (arg ys v) = s.
Proof. intros H. rewrite <- HYS, nth_error_map in H. unfold arg. destruct (nth_error ys v) eqn:E; inversion H. rewrite (nth_error_nth _ _ _ E). auto. Qed.
Lemma gys_shape v s : nth_error rs v = Some s -> t_shape (arg gys v) = s.
Proof. intros H. rewrite <- HGS, nth_error_map in H. unfold arg. destruct (nth_error gys v) eqn:E; inversion H. rewrite (nth_error_nth _ _ _ E). auto. Qed.
Lemma ss_wf j s : nth_error ss j = Some s -> wf s.
Proof. intros H. rewrite Forall_forall in HW. apply HW. eapply nth_error_In; eauto. Qed.
Lemma rs_wf j s : nth_error rs j = Some s -> wf s.
Proof. intros H. rewrite Forall_forall in HR. apply HR. eapply nth_error_In; eauto. Qed.

(** one output, and every update runs over the minibatch of the output *)
Lemma local1 s (dy : coord' -> nat -> R) : rs = [s] ->
  (forall c b, inb s c -> (b < bat s)%nat -> D (fun t => sem k (xs t) 0 c b) (dy c b)) ->
  Forall (fun p => p_bat p = bat s) (bwsem k (xs 0) ys gys) ->
  (forall b, (b < bat s)%nat -> vsum s (fun c => at_ (arg gys 0) c b * dy c b) = lsum (fun p => pbat p b) (bwsem k (xs 0) ys gys)) -> local_ok.
Proof.
  intros ER HA HP HB. exists (fun _ => dy). split.
  - intros v s' c b Hv. rewrite ER in Hv. destruct v as [|v]; [|destruct v; discriminate]. inversion Hv; subst s'. apply HA.
  - rewrite ER. cbn [length]. rewrite rsum_1. cbn [nth]. unfold tsum. rewrite (rsum_ext (n := bat s) (g := fun b => lsum (fun p => pbat p b) (bwsem k (xs 0) ys gys))) by exact HB.
    rewrite <- lsum_rsum. apply lsum_ext. intros p Hp. rewrite Forall_forall in HP. unfold psum. rewrite (HP _ Hp). auto.
Qed.

Lemma local_u x f h : ss = [x] -> rs = [x] -> uop k = Some f -> ubw k = Some h -> smooth k (xs 0) rs ->
  (forall t c b, sem k (xs t) 0 c b = f (at_ (arg (xs t) 0) c b)) ->
  bwsem k (xs 0) ys gys = [mkPart (Arg 0) (bat (t_shape (arg ys 0))) (fun c n => Plus (h (at_ (arg (xs 0) 0) c n) (at_ (arg ys 0) c n) (at_ (arg gys 0) c n)))] -> local_ok.
Proof.
  intros ES ER EF EH SM ESem EB. assert (E0 : nth_error ss 0 = Some x) by (rewrite ES; auto). assert (R0 : nth_error rs 0 = Some x) by (rewrite ER; auto). pose proof (ss_wf E0) as W.
  assert (DM : forall c b, inb x c -> (b < bat x)%nat -> udom k (at_ (arg (xs 0) 0) c b)).
  { intros c b Hc Hb. specialize (SM x c b ER Hc Hb). destruct k; cbn [uop] in EF; try discriminate; exact (proj1 SM) || exact I. }
  pose (X := fun c b => at_ (arg (xs 0) 0) c b : R). pose (l := fun c b => h (X c b) (f (X c b)) 1 : R).
  assert (HL : forall c b, inb x c -> (b < bat x)%nat -> derivable_pt_lim f (X c b) (l c b) /\ forall gy : R, @eq R (h (X c b) (f (X c b)) gy) (gy * l c b)).
  { intros c b Hc Hb. destruct (u_deriv EF EH (DM c b Hc Hb)) as (l' & L1 & L2). assert (E : l c b = l') by (unfold l; rewrite L2; ring). rewrite E. auto. }
  apply (@local1 x (fun c b => l c b * dx 0 c b)); auto.
  - intros c b Hc Hb. eapply deriv_ext; [intros t; symmetry; apply ESem|]. eapply deriv_val; [apply (@deriv_comp (fun t => at_ (arg (xs t) 0) c b) f 0 (dx 0 c b) (l c b)); [apply (HD E0); auto|apply HL; auto]|ring].
  - rewrite EB. constructor; auto. cbn. rewrite (ys_shape R0). auto.
  - intros b Hb. rewrite EB. cbn [lsum]. unfold pbat. cbn [p_to p_val]. rewrite Rplus_0_r, ES. cbn [nth]. apply vsum_ext; auto. intros c Hc. cbn [cval].
    rewrite (HY R0 Hc Hb), ESem. change (at_ (arg (xs 0) 0) c b) with (X c b). rewrite (proj2 (HL c b Hc Hb)), bsel_id by auto. ring.
Qed.

Lemma local_b a z s f ha hb : ss = [a; z] -> rs = [s] -> batchable a z s -> bop k = Some f -> bbw_a k = Some ha -> bbw_b k = Some hb -> smooth k (xs 0) rs ->
  (forall t c b, sem k (xs t) 0 c b = f (at_ (arg (xs t) 0) c (bsel a b)) (at_ (arg (xs t) 1) c (bsel z b))) ->
  (let v h := fun c n => h (at_ (arg (xs 0) 0) c (bsel a n)) (at_ (arg (xs 0) 1) c (bsel z n)) (at_ (arg ys 0) c n) (at_ (arg gys 0) c n) in
   bwsem k (xs 0) ys gys = [mkPart (Arg 0) (bat s) (v ha); mkPart (Arg 1) (bat s) (v hb)]) -> local_ok.
Proof.
  intros ES ER (BE & BB & SI) EF EA EB SM ESem EP. cbv zeta in EP. assert (E0 : nth_error ss 0 = Some a) by (rewrite ES; auto). assert (E1 : nth_error ss 1 = Some z) by (rewrite ES; auto).
  assert (R0 : nth_error rs 0 = Some s) by (rewrite ER; auto). pose proof (ss_wf E0) as Wa. pose proof (ss_wf E1) as Wz. pose proof (rs_wf R0) as Ws. destruct SI as (_ & SE & SB).
  assert (BSA : forall b, (b < bat s)%nat -> (bsel a b < bat a)%nat). { intros b Hb. pose proof (bat_pos Wa). pose proof (bat_pos Wz). apply (@bsel_lt a (bat s)); auto. rewrite SB. lia. }
  assert (BSZ : forall b, (b < bat s)%nat -> (bsel z b < bat z)%nat). { intros b Hb. pose proof (bat_pos Wa). pose proof (bat_pos Wz). apply (@bsel_lt z (bat s)); auto. rewrite SB. lia. }
  assert (IA : forall c, inb s c -> inb a c) by (intros c Hc i; rewrite <- SE; auto). assert (IZ : forall c, inb s c -> inb z c) by (intros c Hc i; rewrite <- BE, <- SE; auto).
  pose (A := fun c b => at_ (arg (xs 0) 0) c (bsel a b) : R). pose (Z := fun c b => at_ (arg (xs 0) 1) c (bsel z b) : R).
  assert (DM : forall c b, inb s c -> (b < bat s)%nat -> bdom k (A c b) (Z c b)).
  { intros c b Hc Hb. specialize (SM s c b ER Hc Hb). cbv zeta in SM. rewrite (arg_shape 0 E0), (arg_shape 0 E1) in SM. destruct k; cbn [bop] in EF; try discriminate; exact (proj2 SM) || exact I. }
  pose (la := fun c b => cval (ha (A c b) (Z c b) (f (A c b) (Z c b)) 1)). pose (lb := fun c b => cval (hb (A c b) (Z c b) (f (A c b) (Z c b)) 1)).
  assert (HL : forall c b, inb s c -> (b < bat s)%nat -> b_rule f (A c b) (Z c b) (la c b) (lb c b) /\
     forall gy : R, cval (ha (A c b) (Z c b) (f (A c b) (Z c b)) gy) = gy * la c b /\ cval (hb (A c b) (Z c b) (f (A c b) (Z c b)) gy) = gy * lb c b).
  { intros c b Hc Hb. destruct (b_deriv EF EA EB (DM c b Hc Hb)) as (l1 & l2 & L1 & L2). pose proof (L2 1) as (M1 & M2).
    assert (Ea : la c b = l1) by (unfold la; rewrite M1; ring). assert (Eb : lb c b = l2) by (unfold lb; rewrite M2; ring). rewrite Ea, Eb. auto. }
  apply (@local1 s (fun c b => la c b * dx 0 c (bsel a b) + lb c b * dx 1 c (bsel z b))); auto.
  - intros c b Hc Hb. eapply deriv_ext; [intros t; symmetry; apply ESem|]. apply (proj1 (HL c b Hc Hb) (fun t => at_ (arg (xs t) 0) c (bsel a b)) (fun t => at_ (arg (xs t) 1) c (bsel z b))); auto.
    + apply (HD E0); auto. + apply (HD E1); auto.
  - rewrite EP. repeat constructor.
  - intros b Hb. rewrite EP. cbn [lsum]. unfold pbat. cbn [p_to p_val]. rewrite Rplus_0_r, ES. cbn [nth]. rewrite <- (@vsum_same s a), <- (@vsum_same s z) by (intros; rewrite <- ?BE; auto).
    rewrite <- vsum_plus. apply vsum_ext; auto. intros c Hc. rewrite (HY R0 Hc Hb), ESem.
    change (at_ (arg (xs 0) 0) c (bsel a b)) with (A c b). change (at_ (arg (xs 0) 1) c (bsel z b)) with (Z c b). destruct (HL c b Hc Hb) as (_ & HG). destruct (HG (at_ (arg gys 0) c b)) as (G1 & G2).
    rewrite G1, G2. ring.
Qed.

Lemma cval_signed sg (g : R) : cval (@signed Rnum sg g) = (if sg then 1 else -1) * g.
Proof. destruct sg; cbn; ring. Qed.
Lemma vsum_one z f : (forall i, ext z i = 1%nat) -> vsum z f = f czero.
Proof.
  intros E. unfold vsum. rewrite (@csum_matrix (ext z) f) by (intros; apply E). rewrite !E, rsum_1, rsum_1. f_equal. apply functional_extensionality. intros [|[|i]]; reflexivity.
Qed.
Lemma local_s a z s f hx sg hk : ss = [a; z] -> rs = [s] -> scalable a z s -> sop k = Some f -> sbw_x k = Some hx -> sbw_k k = Some (sg, hk) -> smooth k (xs 0) rs ->
  (forall t c b, sem k (xs t) 0 c b = f (at_ (arg (xs t) 0) c (bsel a b)) (at_ (arg (xs t) 1) czero (bsel z b))) ->
  bwsem k (xs 0) ys gys = [mkPart (Arg 0) (bat s) (fun c n => hx (at_ (arg (xs 0) 0) c (bsel a n)) (at_ (arg (xs 0) 1) czero (bsel z n)) (at_ (arg ys 0) c n) (at_ (arg gys 0) c n));
       mkPart (Arg 1) (bat s) (fun _ n => signed sg (flat s (fun c => hk (at_ (arg (xs 0) 0) c (bsel a n)) (at_ (arg (xs 0) 1) czero (bsel z n)) (at_ (arg ys 0) c n) (at_ (arg gys 0) c n))))] -> local_ok.
Proof.
  intros ES ER (BE & BB & SI) EF EA EB SM ESem EP. assert (E0 : nth_error ss 0 = Some a) by (rewrite ES; auto). assert (E1 : nth_error ss 1 = Some z) by (rewrite ES; auto).
  assert (R0 : nth_error rs 0 = Some s) by (rewrite ER; auto). pose proof (ss_wf E0) as Wa. pose proof (ss_wf E1) as Wz. pose proof (rs_wf R0) as Ws. destruct SI as (_ & SE & SB).
  assert (BSA : forall b, (b < bat s)%nat -> (bsel a b < bat a)%nat). { intros b Hb. pose proof (bat_pos Wa). pose proof (bat_pos Wz). apply (@bsel_lt a (bat s)); auto. rewrite SB. lia. }
  assert (BSZ : forall b, (b < bat s)%nat -> (bsel z b < bat z)%nat). { intros b Hb. pose proof (bat_pos Wa). pose proof (bat_pos Wz). apply (@bsel_lt z (bat s)); auto. rewrite SB. lia. }
  assert (IA : forall c, inb s c -> inb a c) by (intros c Hc i; rewrite <- SE; auto). assert (IZ : inb z czero) by (intros i; rewrite BE; unfold czero; lia).
  pose (A := fun c b => at_ (arg (xs 0) 0) c (bsel a b) : R). pose (Z := fun b => at_ (arg (xs 0) 1) czero (bsel z b) : R).
  assert (DM : forall c b, inb s c -> (b < bat s)%nat -> bdom k (A c b) (Z b)).
  { intros c b Hc Hb. specialize (SM s c b ER Hc Hb). cbv zeta in SM. rewrite (arg_shape 0 E0), (arg_shape 0 E1) in SM. destruct k; cbn [sop] in EF; try discriminate; exact (proj2 SM) || exact I. }
  pose (la := fun c b => cval (hx (A c b) (Z b) (f (A c b) (Z b)) 1)). pose (lb := fun c b => (if sg then 1 else -1) * (hk (A c b) (Z b) (f (A c b) (Z b)) 1 : R)).
  assert (HL : forall c b, inb s c -> (b < bat s)%nat -> b_rule f (A c b) (Z b) (la c b) (lb c b) /\
     forall gy : R, cval (hx (A c b) (Z b) (f (A c b) (Z b)) gy) = gy * la c b /\ (if sg then 1 else -1) * (hk (A c b) (Z b) (f (A c b) (Z b)) gy : R) = gy * lb c b).
  { intros c b Hc Hb. destruct (s_deriv EF EA EB (DM c b Hc Hb)) as (l1 & l2 & L1 & L2). pose proof (L2 1) as (M1 & M2).
    assert (Ea : la c b = l1) by (unfold la; rewrite M1; ring). assert (Eb : lb c b = l2) by (unfold lb; rewrite M2; ring). rewrite Ea, Eb. auto. }
  apply (@local1 s (fun c b => la c b * dx 0 c (bsel a b) + lb c b * dx 1 czero (bsel z b))); auto.
  - intros c b Hc Hb. eapply deriv_ext; [intros t; symmetry; apply ESem|]. apply (proj1 (HL c b Hc Hb) (fun t => at_ (arg (xs t) 0) c (bsel a b)) (fun t => at_ (arg (xs t) 1) czero (bsel z b))); auto.
    + apply (HD E0); auto. + apply (HD E1); auto.
  - rewrite EP. repeat constructor.
  - intros b Hb. rewrite EP. cbn [lsum]. unfold pbat. cbn [p_to p_val]. rewrite Rplus_0_r, ES. cbn [nth]. rewrite <- (@vsum_same s a) by (intros; auto). rewrite (@vsum_one z) by auto.
    rewrite cval_signed, flat_vsum by auto. rewrite <- vsum_scal. rewrite Rmult_comm. rewrite <- vsum_scal. rewrite <- vsum_plus. apply vsum_ext; auto. intros c Hc. rewrite (HY R0 Hc Hb), ESem.
    change (at_ (arg (xs 0) 0) c (bsel a b)) with (A c b). change (at_ (arg (xs 0) 1) czero (bsel z b)) with (Z b). destruct (HL c b Hc Hb) as (_ & HG). destruct (HG (at_ (arg gys 0) c b)) as (G1 & G2).
    rewrite G1, G2. ring.
Qed.

Lemma local_tri x (cond : coord' -> bool) : ss = [x] -> rs = [x] ->
  (forall t c b, sem k (xs t) 0 c b = if cond c then at_ (arg (xs t) 0) c b else @n0 Rnum) ->
  bwsem k (xs 0) ys gys = [mkPart (Arg 0) (bat x) (fun c n => Plus (if cond c then at_ (arg gys 0) c n else @n0 Rnum))] -> local_ok.
Proof.
  intros ES ER ESem EB. assert (E0 : nth_error ss 0 = Some x) by (rewrite ES; auto). pose proof (ss_wf E0) as W.
  apply (@local1 x (fun c b => if cond c then dx 0 c b else 0)); auto.
  - intros c b Hc Hb. eapply deriv_ext; [intros t; symmetry; apply ESem|]. destruct (cond c); [apply (HD E0); auto|apply deriv_const].
  - rewrite EB. repeat constructor.
  - intros b Hb. rewrite EB. cbn [lsum]. unfold pbat. cbn [p_to p_val]. rewrite Rplus_0_r, ES. cbn [nth]. apply vsum_ext; auto. intros c Hc. cbn [cval]. rewrite bsel_id by auto.
    destruct (cond c); [auto|cbn; ring].
Qed.

Lemma cset_eq c d j : c d = j -> cset c d j = c. Proof. intros <-. apply cset_same. Qed.
Lemma local_broadcast d n x s : k = KBroadcast d n -> ss = [x] -> rs = [s] -> (nat32 d < 8)%nat -> ext x (nat32 d) = 1%nat -> shape_is s (eset x (nat32 d) (nat32 n)) (bat x) -> local_ok.
Proof.
  intros EK ES ER Hd E1 (_ & SE & SB). assert (E0 : nth_error ss 0 = Some x) by (rewrite ES; auto). assert (R0 : nth_error rs 0 = Some s) by (rewrite ER; auto).
  pose proof (ss_wf E0) as W. pose proof (rs_wf R0) as Ws. set (e := nat32 d) in * .
  assert (I0 : forall c, inb s c -> inb x (cset c e 0)). { intros c Hc i. specialize (Hc i). rewrite SE in Hc. unfold eset, cset in * . destruct (Nat.eqb_spec i e); [subst; lia|auto]. }
  apply (@local1 s (fun c b => dx 0 (cset c e 0) b)); auto.
  - intros c b Hc Hb. rewrite EK. cbn [sem]. fold e. apply (HD E0); auto. congruence.
  - rewrite EK. cbn [bwsem]. repeat constructor. cbn. rewrite (ys_shape R0). auto.
  - intros b Hb. rewrite EK. cbn [bwsem lsum]. unfold pbat. cbn [p_to p_val]. rewrite Rplus_0_r, ES. cbn [nth]. rewrite (@vsum_split s x e); auto.
    2:{ intros i. unfold eset. destruct (Nat.eqb_spec i e); [congruence|]. rewrite SE. unfold eset. destruct (Nat.eqb_spec i e); congruence. }
    apply vsum_ext; auto. intros c Hc. fold e. cbn [cval]. rewrite rsum_red0, (gys_shape R0), <- rsum_scal_r. apply rsum_ext. intros j Hj. rewrite cset_set. unfold line. rewrite bsel_id by congruence. 
    rewrite (@cset_eq c e 0); auto. specialize (Hc e). lia.
Qed.

Lemma line_deriv x e c b j : nth_error ss 0 = Some x -> inb x (cset c e j) -> (b < bat x)%nat -> D (fun t => line (arg (xs t) 0) e c b j) (dx 0 (cset c e j) b).
Proof. intros E0 H1 H2. unfold line. apply (HD E0); auto. Qed.
Lemma local_sum d x s : k = KSum d -> ss = [x] -> rs = [s] -> (nat32 d < 8)%nat -> shape_is s (eset x (nat32 d) 1) (bat x) -> local_ok.
Proof.
  intros EK ES ER Hd (_ & SE & SB). assert (E0 : nth_error ss 0 = Some x) by (rewrite ES; auto). assert (R0 : nth_error rs 0 = Some s) by (rewrite ER; auto).
  pose proof (ss_wf E0) as W. pose proof (rs_wf R0) as Ws. set (e := nat32 d) in * .
  apply (@local1 s (fun c b => rsum (ext x e) (fun j => dx 0 (cset c e j) b))); auto.
  - intros c b Hc Hb. rewrite EK. cbn [sem]. fold e. eapply deriv_ext; [intros t; symmetry; rewrite (arg_shape t E0); apply rsum_red0|].
    apply (@deriv_rsum (ext x e) (fun j t => line (arg (xs t) 0) e c b j)). intros j Hj. apply line_deriv with (x := x); auto; [|congruence]. eapply inb_cset'; eauto.
  - rewrite EK. cbn [bwsem]. repeat constructor. cbn. rewrite (ys_shape R0). auto.
  - intros b Hb. rewrite EK. cbn [bwsem lsum]. unfold pbat. cbn [p_to p_val]. rewrite Rplus_0_r, ES. cbn [nth]. rewrite (@vsum_split x s e); auto.
    apply vsum_ext; auto. intros c Hc. fold e. cbn [cval]. rewrite <- rsum_scal. apply rsum_ext. intros j Hj. rewrite cset_set, bsel_id by congruence.
    rewrite (@cset_eq c e 0); auto. specialize (Hc e). rewrite SE in Hc. unfold eset in Hc. rewrite Nat.eqb_refl in Hc. lia.
Qed.
Lemma local_lse d x s : k = KLogsumexp d -> ss = [x] -> rs = [s] -> (nat32 d < 8)%nat -> shape_is s (eset x (nat32 d) 1) (bat x) -> local_ok.
Proof.
  intros EK ES ER Hd (_ & SE & SB). assert (E0 : nth_error ss 0 = Some x) by (rewrite ES; auto). assert (R0 : nth_error rs 0 = Some s) by (rewrite ER; auto).
  pose proof (ss_wf E0) as W. pose proof (rs_wf R0) as Ws. set (e := nat32 d) in * .
  apply (@local1 s (fun c b => rsum (ext x e) (fun j => exp (line (arg (xs 0) 0) e c b j - lse Rnum (line (arg (xs 0) 0) e c b) (ext x e)) * dx 0 (cset c e j) b))); auto.
  - intros c b Hc Hb. rewrite EK. cbn [sem]. fold e. eapply deriv_ext; [intros t; symmetry; rewrite (arg_shape t E0); reflexivity|].
    apply (@deriv_lse (ext x e) (fun j t => line (arg (xs t) 0) e c b j)). { apply ext_pos; auto. } intros j Hj. apply line_deriv with (x := x); auto; [|congruence]. eapply inb_cset'; eauto.
  - rewrite EK. cbn [bwsem]. repeat constructor. cbn. rewrite (ys_shape R0). auto.
  - intros b Hb. rewrite EK at 1. cbn [bwsem lsum]. unfold pbat. cbn [p_to p_val]. rewrite Rplus_0_r, ES. cbn [nth]. rewrite (@vsum_split x s e); auto.
    apply vsum_ext; auto. intros c Hc. fold e. cbn [cval]. rewrite <- rsum_scal. apply rsum_ext. intros j Hj. rewrite cset_set, bsel_id by congruence.
    rewrite (@cset_eq c e 0). 2:{ specialize (Hc e). rewrite SE in Hc. unfold eset in Hc. rewrite Nat.eqb_refl in Hc. lia. }
    rewrite (HY R0 Hc Hb), EK. cbn [sem]. fold e. rewrite (arg_shape 0 E0). cbn [nexp nsub nmul Rnum]. unfold line. ring.
Qed.

(** max and min share a proof: [better] selects, [lt] orders *)
Lemma local_ext d x s (better : R -> R -> bool) (lt : R -> R -> Prop) :
  (forall u v, reflect (lt v u) (better u v)) -> (forall u v, lt u v -> lt v u -> False) -> (forall u v w, ~ lt u v -> ~ lt v w -> ~ lt u w) ->
  (forall f g lf lg, D f lf -> D g lg -> lt (f 0) (g 0) -> exists r, 0 < r /\ forall t, Rabs (t - 0) < r -> lt (f t) (g t)) ->
  ss = [x] -> rs = [s] -> (nat32 d < 8)%nat -> shape_is s (eset x (nat32 d) 1) (bat x) ->
  (forall t c b, sem k (xs t) 0 c b = red (pick_better Rnum better) (line (arg (xs t) 0) (nat32 d) c b 0) (line (arg (xs t) 0) (nat32 d) c b) (ext x (nat32 d))) ->
  bwsem k (xs 0) ys gys = [mkPart (Arg 0) (bat s) (extremum_val (arg (xs 0) 0) (arg ys 0) (arg gys 0) (nat32 d))] ->
  (forall c b, inb s c -> (b < bat s)%nat -> exists j0, (j0 < ext x (nat32 d))%nat /\ forall j, (j < ext x (nat32 d))%nat -> j <> j0 -> lt (line (arg (xs 0) 0) (nat32 d) c b j) (line (arg (xs 0) 0) (nat32 d) c b j0)) ->
  local_ok.
Proof.
  intros RF AS TR NEAR ES ER Hd (_ & SE & SB) ESem EB SM. assert (E0 : nth_error ss 0 = Some x) by (rewrite ES; auto). assert (R0 : nth_error rs 0 = Some s) by (rewrite ER; auto).
  pose proof (ss_wf E0) as W. pose proof (rs_wf R0) as Ws. set (e := nat32 d) in * . set (n := ext x e) in * . set (X := line (arg (xs 0) 0) e) in * .
  assert (C0 : forall c, inb s c -> cset c e 0 = c). { intros c Hc. apply cset_eq. specialize (Hc e). rewrite SE in Hc. unfold eset in Hc. rewrite Nat.eqb_refl in Hc. lia. }
  assert (IN : forall c j, inb s c -> (j < n)%nat -> inb x (cset c e j)) by (intros; eapply inb_cset'; eauto).
  assert (FE : forall c b, inb s c -> (b < bat s)%nat -> exists j0, (j0 < n)%nat /\ first_eq Rnum (X c b) (at_ (arg ys 0) c b) n 0 = Some j0 /\ forall j, (j < n)%nat -> j <> j0 -> lt (X c b j) (X c b j0)).
  { intros c b Hc Hb. destruct (SM c b Hc Hb) as (j0 & J1 & J2). exists j0. split; [auto|]. split; [|auto]. apply first_eq_one; [lia| |].
    - rewrite (HY R0 Hc Hb), ESem. symmetry. apply (red_best RF AS TR); auto.
    - intros i Hi Q. rewrite (HY R0 Hc Hb), ESem in Q. assert (Q2 : X c b i = X c b j0). { etransitivity; [exact Q|]. apply (red_best RF AS TR); auto. }
      assert (L : lt (X c b i) (X c b j0)) by (apply J2; lia). rewrite Q2 in L. eapply AS; eauto. }
  apply (@local1 s (fun c b => match first_eq Rnum (X c b) (at_ (arg ys 0) c b) n 0 with Some j => dx 0 (cset c e j) b | None => 0 end)); auto.
  - intros c b Hc Hb. destruct (FE c b Hc Hb) as (j0 & J1 & -> & J2). assert (Hb' : (b < bat x)%nat) by congruence.
    assert (HDl : forall j, (j < n)%nat -> D (fun t => line (arg (xs t) 0) e c b j) (dx 0 (cset c e j) b)). { intros j Hj. apply line_deriv with (x := x); auto. }
    assert (NR : exists r, 0 < r /\ forall t, Rabs (t - 0) < r -> forall j, (j < n)%nat -> j <> j0 -> lt (line (arg (xs t) 0) e c b j) (line (arg (xs t) 0) e c b j0)).
    { assert (Gm : forall m, (m <= n)%nat -> exists r, 0 < r /\ forall t, Rabs (t - 0) < r -> forall j, (j < m)%nat -> j <> j0 -> lt (line (arg (xs t) 0) e c b j) (line (arg (xs t) 0) e c b j0)); [|apply Gm; auto].
      induction m as [|m IH]; intros Hm; [exists 1; split; [lra|]; intros; lia|]. destruct IH as (r1 & R1 & H1); [lia|]. destruct (Nat.eq_dec m j0) as [->|NE].
      - exists r1. split; auto. intros t Ht j Hj Hk. apply H1; auto. lia.
      - destruct (NEAR _ _ _ _ (HDl m Hm) (HDl j0 J1) (J2 m Hm NE)) as (r2 & R2 & H2). exists (Rmin r1 r2). split; [apply Rmin_pos; auto|].
        intros t Ht j Hj Hk. assert (Rabs (t - 0) < r1 /\ Rabs (t - 0) < r2) as (B1 & B2). { pose proof (Rmin_l r1 r2). pose proof (Rmin_r r1 r2). lra. }
        destruct (Nat.eq_dec j m) as [->|]; auto. apply H1; auto. lia. }
    destruct NR as (r & Rp & NR). eapply deriv_near; [exact Rp| |apply (HDl j0 J1)]. intros t Ht. symmetry. rewrite ESem. apply (red_best RF AS TR); auto.
  - rewrite EB. repeat constructor.
  - intros b Hb. rewrite EB. cbn [lsum]. unfold pbat. cbn [p_to p_val]. rewrite Rplus_0_r, ES. cbn [nth]. rewrite (@vsum_split x s e); auto.
    apply vsum_ext; auto. intros c Hc. fold n. destruct (FE c b Hc Hb) as (j0 & J1 & J & J2). rewrite J.
    rewrite (@rsum_one n j0); auto.
    + unfold extremum_val. rewrite cset_set, C0 by auto. rewrite (arg_shape 0 E0). fold n. replace (line (arg (xs 0) 0) e (cset c e j0) b) with (X c b).
      2:{ unfold X, line. apply functional_extensionality. intros j. rewrite cset_set. auto. }
      rewrite J, cset_at, Nat.eqb_refl. cbn [cval]. rewrite bsel_id by congruence. auto.
    + intros j Hj NE. unfold extremum_val. rewrite cset_set, C0 by auto. rewrite (arg_shape 0 E0). fold n. replace (line (arg (xs 0) 0) e (cset c e j) b) with (X c b).
      2:{ unfold X, line. apply functional_extensionality. intros i. rewrite cset_set. auto. }
      rewrite J, cset_at. destruct (Nat.eqb_spec j0 j); [congruence|]. cbn [cval]. ring.
Qed.
Lemma local_max d x s : k = KMax d -> ss = [x] -> rs = [s] -> (nat32 d < 8)%nat -> shape_is s (eset x (nat32 d) 1) (bat x) -> smooth k (xs 0) rs -> local_ok.
Proof.
  intros EK ES ER Hd SI SM. assert (E0 : nth_error ss 0 = Some x) by (rewrite ES; auto). assert (R0 : nth_error rs 0 = Some s) by (rewrite ER; auto).
  apply (@local_ext d x s (@ngt Rnum) Rlt); auto; try (intros; lra).
  - intros u v. unfold ngt. cbn. apply Rltb_spec.
  - intros f g lf lg HF HG L. eapply lt_near; eauto.
  - intros t c b. rewrite EK. cbn [sem]. rewrite (arg_shape t E0). auto.
  - rewrite EK. cbn [bwsem]. rewrite (ys_shape R0). auto.
  - intros c b Hc Hb. specialize (SM s c b ER Hc Hb). rewrite EK in SM. cbv zeta beta iota in SM. rewrite (arg_shape 0 E0) in SM. exact SM.
Qed.
Lemma local_min d x s : k = KMin d -> ss = [x] -> rs = [s] -> (nat32 d < 8)%nat -> shape_is s (eset x (nat32 d) 1) (bat x) -> smooth k (xs 0) rs -> local_ok.
Proof.
  intros EK ES ER Hd SI SM. assert (E0 : nth_error ss 0 = Some x) by (rewrite ES; auto). assert (R0 : nth_error rs 0 = Some s) by (rewrite ER; auto).
  apply (@local_ext d x s (nlt Rnum) Rgt); auto; try (intros; lra).
  - intros u v. cbn. apply Rltb_spec.
  - intros f g lf lg HF HG L. destruct (lt_near HG HF L) as (r & Rp & H). exists r. split; auto.
  - intros t c b. rewrite EK. cbn [sem]. rewrite (arg_shape t E0). auto.
  - rewrite EK. cbn [bwsem]. rewrite (ys_shape R0). auto.
  - intros c b Hc Hb. specialize (SM s c b ER Hc Hb). rewrite EK in SM. cbv zeta beta iota in SM. rewrite (arg_shape 0 E0) in SM. exact SM.
Qed.

(** log-softmax along a path *)
Lemma lsm_deriv x e c b : nth_error ss 0 = Some x -> inb x c -> (b < bat x)%nat ->
  D (fun t => lsm (arg (xs t) 0) e c b) (dx 0 c b - rsum (ext x e) (fun j => exp (lsm (arg (xs 0) 0) e (cset c e j) b) * dx 0 (cset c e j) b)).
Proof.
  intros E0 Hc Hb. pose proof (ss_wf E0) as W. assert (IN : forall j, (j < ext x e)%nat -> inb x (cset c e j)) by (intros; apply inb_cset; auto).
  unfold lsm. apply (@deriv_sub (fun t => at_ (arg (xs t) 0) c b)); [apply (HD E0); auto|].
  eapply deriv_ext; [intros t; symmetry; rewrite (arg_shape t E0); reflexivity|]. eapply deriv_val.
  - apply (@deriv_lse (ext x e) (fun j t => line (arg (xs t) 0) e c b j) (fun j => dx 0 (cset c e j) b)); [apply ext_pos; auto|]. intros j Hj. apply line_deriv with (x := x); auto.
  - apply rsum_ext. intros j Hj. cbn [nsub Rnum]. rewrite (arg_shape 0 E0). f_equal. f_equal. unfold Rminus. f_equal. f_equal. apply lse_ext; [apply ext_pos; auto|]. intros i Hi. unfold line. rewrite cset_set. auto.
Qed.
Lemma eset1_c s x e c : (forall i, ext s i = eset x e 1 i) -> inb s c -> cset c e 0 = c.
Proof. intros SE Hc. apply cset_eq. specialize (Hc e). rewrite SE in Hc. unfold eset in Hc. rewrite Nat.eqb_refl in Hc. lia. Qed.

Lemma local_sce d x z s : k = KSoftmaxCrossEntropy d -> ss = [x; z] -> rs = [s] -> (nat32 d < 8)%nat ->
  (exists s0, batchable x z s0 /\ fits s0 /\ shape_is s (eset s0 (nat32 d) 1) (bat s0)) -> smooth k (xs 0) rs -> local_ok.
Proof.
  intros EK ES ER Hd (s0 & (BE & BB & (_ & SE0 & SB0)) & _ & (_ & SE' & SB')) SM. assert (E0 : nth_error ss 0 = Some x) by (rewrite ES; auto). assert (E1 : nth_error ss 1 = Some z) by (rewrite ES; auto).
  assert (R0 : nth_error rs 0 = Some s) by (rewrite ER; auto). pose proof (ss_wf E0) as W. pose proof (ss_wf E1) as Wz. pose proof (rs_wf R0) as Ws. set (e := nat32 d) in * . set (n := ext x e).
  assert (SB : bat s = Nat.max (bat x) (bat z)) by congruence. clear SB'. assert (SE : forall i, ext s i = eset x e 1 i). { intros i. rewrite SE'. unfold eset. rewrite SE0. auto. }
  assert (SEz : forall i, ext s i = eset z e 1 i). { intros i. rewrite SE'. unfold eset. rewrite SE0, BE. auto. } assert (EN : ext z e = n) by (unfold n; rewrite BE; auto).
  assert (BX : forall b, (b < bat s)%nat -> (bsel x b < bat x)%nat). { intros b Hb. pose proof (bat_pos W). pose proof (bat_pos Wz). apply (@bsel_lt x (bat s)); auto. rewrite SB. lia. }
  assert (BZ : forall b, (b < bat s)%nat -> (bsel z b < bat z)%nat). { intros b Hb. pose proof (bat_pos W). pose proof (bat_pos Wz). apply (@bsel_lt z (bat s)); auto. rewrite SB. lia. }
  assert (INx : forall c j, inb s c -> (j < n)%nat -> inb x (cset c e j)) by (intros; eapply inb_cset'; eauto).
  assert (INz : forall c j, inb s c -> (j < n)%nat -> inb z (cset c e j)) by (intros; eapply inb_cset'; eauto; lia).
  pose (L := fun c b j => lsm (arg (xs 0) 0) e (cset c e j) (bsel x b) : R). pose (T := fun c b j => at_ (arg (xs 0) 1) (cset c e j) (bsel z b) : R).
  pose (dxx := fun c b j => dx 0 (cset c e j) (bsel x b)). pose (dz := fun c b j => dx 1 (cset c e j) (bsel z b)).
  apply (@local1 s (fun c b => - rsum n (fun j => dz c b j * L c b j + T c b j * (dxx c b j - rsum n (fun i => exp (L c b i) * dxx c b i))))); auto.
  - intros c b Hc Hb. rewrite EK. cbn [sem]. fold e. cbn [nneg Rnum]. eapply deriv_ext; [intros t; symmetry; rewrite (arg_shape t E0), (arg_shape t E1), rsum_red0; reflexivity|]. apply (@deriv_opp (fun t => rsum (ext x e) (fun j => _))).
    apply (@deriv_rsum (ext x e) (fun j t => at_ (arg (xs t) 1) (cset c e j) (bsel z b) * lsm (arg (xs t) 0) e (cset c e j) (bsel x b))). intros j Hj. fold n in Hj. eapply deriv_val.
    + apply deriv_mul; [apply (HD E1); auto|apply lsm_deriv with (x := x); auto].
    + fold (T c b j) (L c b j). unfold dz, dxx. fold n. f_equal. f_equal. f_equal. apply rsum_ext. intros i Hi. rewrite cset_set. auto.
  - rewrite EK. cbn [bwsem]. repeat constructor; cbn; rewrite (ys_shape R0); auto.
  - intros b Hb. rewrite EK. cbn [bwsem lsum]. unfold pbat. cbn [p_to p_val]. rewrite Rplus_0_r, ES. cbn [nth]. fold e. rewrite (@vsum_split x s e), (@vsum_split z s e) by auto.
    rewrite <- vsum_plus. apply vsum_ext; auto. intros c Hc. rewrite EN. fold n. rewrite (arg_shape 0 E0), (arg_shape 0 E1). cbn [cval nexp nsub nmul Rnum]. set (g := at_ (arg gys 0) c b : R).
    rewrite (rsum_ext (n := n) (f := fun j => _ * dx 0 _ _) (g := fun j => g * (exp (L c b j) * dxx c b j) - g * (T c b j * dxx c b j))).
    2:{ intros j Hj. rewrite cset_set, (eset1_c SE Hc). fold (L c b j) (T c b j) (dxx c b j) g. ring. }
    rewrite (rsum_ext (n := n) (f := fun j => - _ * dx 1 _ _) (g := fun j => - g * (dz c b j * L c b j))).
    2:{ intros j Hj. rewrite cset_set, (eset1_c SE Hc). fold (L c b j) (dz c b j) g. ring. }
    specialize (SM s c b ER Hc Hb). rewrite EK in SM. cbv zeta beta iota in SM. fold e in SM. rewrite (arg_shape 0 E0), (arg_shape 0 E1) in SM. fold n in SM.
    change (rsum n (T c b) = 1) in SM. set (m := rsum n (fun i => exp (L c b i) * dxx c b i)).
    rewrite (rsum_ext (n := n) (f := fun j => dz c b j * L c b j + _) (g := fun j => dz c b j * L c b j + (T c b j * dxx c b j + - m * T c b j))) by (intros; ring).
    rewrite (rsum_ext (n := n) (f := fun j => g * _ - g * _) (g := fun j => g * (exp (L c b j) * dxx c b j) + - g * (T c b j * dxx c b j))) by (intros; ring).
    rewrite !rsum_plus, !rsum_scal, SM. fold m. ring.
Qed.

Lemma pid_lt ids B b n : ids <> [] -> (length ids = 1 \/ length ids = B)%nat -> Forall (fun id => (nat32 id < n)%nat) ids -> (b < B)%nat -> (pid ids b < n)%nat.
Proof.
  intros HN HL HF Hb. unfold pid. rewrite Forall_forall in HF. apply HF. apply nth_In. destruct ids; [congruence|]. destruct (Nat.eqb_spec (length (n0 :: ids)) 1); lia.
Qed.
Lemma local_sparse ids d x s : k = KSparseSoftmaxCrossEntropy ids d -> ss = [x] -> rs = [s] -> (nat32 d < 8)%nat -> ids <> [] -> (length ids = 1 \/ bat x = 1 \/ length ids = bat x)%nat ->
  Forall (fun id => (nat32 id < ext x (nat32 d))%nat) ids -> shape_is s (eset x (nat32 d) 1) (Nat.max (bat x) (length ids)) -> local_ok.
Proof.
  intros EK ES ER Hd HN HL HF (_ & SE & SB). assert (E0 : nth_error ss 0 = Some x) by (rewrite ES; auto).
  assert (R0 : nth_error rs 0 = Some s) by (rewrite ER; auto). pose proof (ss_wf E0) as W. pose proof (rs_wf R0) as Ws. set (e := nat32 d) in * . set (n := ext x e) in * .
  assert (LP : (1 <= length ids)%nat) by (destruct ids; [congruence|cbn; lia]). pose proof (bat_pos W) as BP.
  assert (BX : forall b, (b < bat s)%nat -> (bsel x b < bat x)%nat). { intros b Hb. apply (@bsel_lt x (bat s)); auto. rewrite SB. lia. }
  assert (PI : forall b, (b < bat s)%nat -> (pid ids b < n)%nat). { intros b Hb. apply (@pid_lt ids (bat s)); auto. rewrite SB. lia. }
  assert (INx : forall c j, inb s c -> (j < n)%nat -> inb x (cset c e j)) by (intros; eapply inb_cset'; eauto).
  pose (L := fun c b j => lsm (arg (xs 0) 0) e (cset c e j) (bsel x b) : R). pose (dxx := fun c b j => dx 0 (cset c e j) (bsel x b)).
  apply (@local1 s (fun c b => - (dxx c b (pid ids b) - rsum n (fun i => exp (L c b i) * dxx c b i)))); auto.
  - intros c b Hc Hb. rewrite EK. cbn [sem]. fold e. cbn [nneg Rnum]. eapply deriv_ext; [intros t; symmetry; rewrite (arg_shape t E0); reflexivity|]. apply (@deriv_opp (fun t => lsm (arg (xs t) 0) e (cset c e (pid ids b)) (bsel x b))).
    eapply deriv_val; [apply lsm_deriv with (x := x); auto|]. unfold dxx. f_equal. fold n. apply rsum_ext. intros i Hi. rewrite cset_set. auto.
  - rewrite EK. cbn [bwsem]. repeat constructor; cbn; rewrite (ys_shape R0); auto.
  - intros b Hb. rewrite EK. cbn [bwsem lsum]. unfold pbat. cbn [p_to p_val]. rewrite Rplus_0_r, ES. cbn [nth]. fold e. rewrite !(@vsum_split x s e) by auto.
    rewrite <- vsum_plus. apply vsum_ext; auto. intros c Hc. fold n. rewrite (arg_shape 0 E0). cbn [cval nexp nsub nmul Rnum]. set (g := at_ (arg gys 0) c b : R).
    rewrite (rsum_ext (n := n) (f := fun j => exp _ * _ * dx 0 _ _) (g := fun j => g * (exp (L c b j) * dxx c b j))).
    2:{ intros j Hj. rewrite cset_set, (eset1_c SE Hc). fold (L c b j) (dxx c b j) g. ring. }
    rewrite (@rsum_one n (pid ids b) (fun j => cval _ * _)); auto.
    + rewrite rsum_scal, cset_at, Nat.eqb_refl, cset_set, (eset1_c SE Hc). cbn [cval nneg Rnum]. fold g (dxx c b (pid ids b)). ring.
    + intros j Hj NE. rewrite cset_at. destruct (Nat.eqb_spec (pid ids b) j); [congruence|]. cbn [cval]. ring.
Qed.
Lemma local_pick ids d x s : k = KPick ids d -> ss = [x] -> rs = [s] -> (nat32 d < 8)%nat -> ids <> [] -> (length ids = 1 \/ bat x = 1 \/ length ids = bat x)%nat ->
  Forall (fun id => (nat32 id < ext x (nat32 d))%nat) ids -> shape_is s (eset x (nat32 d) 1) (Nat.max (bat x) (length ids)) -> local_ok.
Proof.
  intros EK ES ER Hd HN HL HF (_ & SE & SB). assert (E0 : nth_error ss 0 = Some x) by (rewrite ES; auto).
  assert (R0 : nth_error rs 0 = Some s) by (rewrite ER; auto). pose proof (ss_wf E0) as W. pose proof (rs_wf R0) as Ws. set (e := nat32 d) in * . set (n := ext x e) in * .
  assert (LP : (1 <= length ids)%nat) by (destruct ids; [congruence|cbn; lia]). pose proof (bat_pos W) as BP.
  assert (BX : forall b, (b < bat s)%nat -> (bsel x b < bat x)%nat). { intros b Hb. apply (@bsel_lt x (bat s)); auto. rewrite SB. lia. }
  assert (PI : forall b, (b < bat s)%nat -> (pid ids b < n)%nat). { intros b Hb. apply (@pid_lt ids (bat s)); auto. rewrite SB. lia. }
  assert (INx : forall c j, inb s c -> (j < n)%nat -> inb x (cset c e j)) by (intros; eapply inb_cset'; eauto).
  apply (@local1 s (fun c b => dx 0 (cset c e (pid ids b)) (bsel x b))); auto.
  - intros c b Hc Hb. rewrite EK. cbn [sem]. fold e. eapply deriv_ext; [intros t; symmetry; rewrite (arg_shape t E0); reflexivity|]. apply (HD E0); auto.
  - rewrite EK. cbn [bwsem]. repeat constructor; cbn; rewrite (ys_shape R0); auto.
  - intros b Hb. rewrite EK. cbn [bwsem lsum]. unfold pbat. cbn [p_to p_val]. rewrite Rplus_0_r, ES. cbn [nth]. fold e. rewrite !(@vsum_split x s e) by auto.
    apply vsum_ext; auto. intros c Hc. fold n. rewrite (@rsum_one n (pid ids b)); auto.
    + rewrite cset_at, Nat.eqb_refl, cset_set, (eset1_c SE Hc). auto.
    + intros j Hj NE. rewrite cset_at. destruct (Nat.eqb_spec (pid ids b) j); [congruence|]. cbn [cval]. ring.
Qed.

Lemma c2_m2 s a b i j : (forall i, ext s i = m2 a b i) -> (i < a)%nat -> (j < b)%nat -> inb s (c2 i j).
Proof. intros E Hi Hj [|[|q]]; rewrite E; cbn; lia. Qed.
Lemma c2_mat s i j : matrix s -> (i < ext s 0)%nat -> (j < ext s 1)%nat -> inb s (c2 i j).
Proof. intros M Hi Hj [|[|q]]; cbn; auto. rewrite (M (S (S q))); lia. Qed.
Lemma m2_matrix s a b : (forall i, ext s i = m2 a b i) -> matrix s.
Proof. intros E [|[|i]] Hi; try lia. rewrite E. auto. Qed.
Lemma local_transpose x s : k = (@KTranspose Rnum) -> ss = [x] -> rs = [s] -> matrix x -> shape_is s (m2 (ext x 1) (ext x 0)) (bat x) -> local_ok.
Proof.
  intros EK ES ER MX (_ & SE & SB). assert (E0 : nth_error ss 0 = Some x) by (rewrite ES; auto).
  assert (R0 : nth_error rs 0 = Some s) by (rewrite ER; auto). pose proof (ss_wf E0) as W. pose proof (rs_wf R0) as Ws.
  apply (@local1 s (fun c b => dx 0 (c2 (c 1%nat) (c 0%nat)) b)); auto.
  - intros c b Hc Hb. rewrite EK. cbn [sem]. apply (HD E0); [|congruence]. pose proof (Hc 0%nat) as H0. pose proof (Hc 1%nat) as H1. rewrite SE in H0, H1. apply c2_mat; auto.
  - rewrite EK. cbn [bwsem]. repeat constructor; cbn; rewrite (ys_shape R0); auto.
  - intros b Hb. rewrite EK. cbn [bwsem lsum]. unfold pbat. cbn [p_to p_val]. rewrite Rplus_0_r, ES. cbn [nth]. rewrite (@vsum_mat s), (@vsum_mat x) by (auto; eapply m2_matrix; eauto).
    rewrite rsum_swap. rewrite !SE. cbn [m2]. apply rsum_ext. intros j Hj. apply rsum_ext. intros i Hi. cbn [cval c2]. rewrite bsel_id by congruence. auto.
Qed.
Lemma local_matmul x z s : k = (@KMatmul Rnum) -> ss = [x; z] -> rs = [s] -> matrix x -> matrix z -> ext x 1 = ext z 0 -> (bat x = bat z \/ bat x = 1 \/ bat z = 1)%nat ->
  shape_is s (m2 (ext x 0) (ext z 1)) (Nat.max (bat x) (bat z)) -> local_ok.
Proof.
  intros EK ES ER MX MZ EI BB (_ & SE & SB). assert (E0 : nth_error ss 0 = Some x) by (rewrite ES; auto). assert (E1 : nth_error ss 1 = Some z) by (rewrite ES; auto).
  assert (R0 : nth_error rs 0 = Some s) by (rewrite ER; auto). pose proof (ss_wf E0) as W. pose proof (ss_wf E1) as Wz. pose proof (rs_wf R0) as Ws. pose proof (bat_pos W). pose proof (bat_pos Wz).
  assert (BX : forall b, (b < bat s)%nat -> (bsel x b < bat x)%nat). { intros b Hb. apply (@bsel_lt x (bat s)); auto. rewrite SB. lia. }
  assert (BZ : forall b, (b < bat s)%nat -> (bsel z b < bat z)%nat). { intros b Hb. apply (@bsel_lt z (bat s)); auto. rewrite SB. lia. }
  pose (A := fun b i j => at_ (arg (xs 0) 0) (c2 i j) (bsel x b) : R). pose (Z := fun b i j => at_ (arg (xs 0) 1) (c2 i j) (bsel z b) : R).
  apply (@local1 s (fun c b => rsum (ext x 1) (fun j => dx 0 (c2 (c 0%nat) j) (bsel x b) * Z b j (c 1%nat) + A b (c 0%nat) j * dx 1 (c2 j (c 1%nat)) (bsel z b)))); auto.
  - intros c b Hc Hb. pose proof (Hc 0%nat) as h0. pose proof (Hc 1%nat) as h1. rewrite SE in h0, h1. cbn [m2] in h0, h1. rewrite EK. cbn [sem].
    eapply deriv_ext; [intros t; symmetry; rewrite (arg_shape t E0), (arg_shape t E1); apply rsum_blocks|].
    apply (@deriv_rsum (ext x 1) (fun j t => at_ (arg (xs t) 0) (c2 (c 0%nat) j) (bsel x b) * at_ (arg (xs t) 1) (c2 j (c 1%nat)) (bsel z b))). intros j Hj.
    apply deriv_mul; [apply (HD E0)|apply (HD E1)]; auto; apply c2_mat; auto. lia.
  - rewrite EK. cbn [bwsem]. repeat constructor; cbn; rewrite (ys_shape R0); auto.
  - intros b Hb. rewrite EK. cbn [bwsem lsum]. unfold pbat. cbn [p_to p_val]. rewrite Rplus_0_r, ES. cbn [nth]. rewrite (@vsum_mat s), (@vsum_mat x), (@vsum_mat z) by (auto; eapply m2_matrix; eauto).
    rewrite !SE, (arg_shape 0 E0), (arg_shape 0 E1). cbn [m2 cval nmul Rnum]. rewrite <- EI. pose (g := fun i j => at_ (arg gys 0) (c2 i j) b : R).
    rewrite (rsum_ext (n := ext z 1) (f := fun j => rsum (ext x 0) (fun i => at_ (arg gys 0) _ _ * _))
       (g := fun j => rsum (ext x 0) (fun i => rsum (ext x 1) (fun l => g i j * Z b l j * dx 0 (c2 i l) (bsel x b))) + rsum (ext x 0) (fun i => rsum (ext x 1) (fun l => A b i l * g i j * dx 1 (c2 l j) (bsel z b))))).
    2:{ intros j Hj. rewrite <- rsum_plus. apply rsum_ext. intros i Hi. rewrite <- rsum_plus, <- rsum_scal. apply rsum_ext. intros l Hl. cbn [c2]. fold (g i j). ring. }
    rewrite rsum_plus. f_equal.
    + rewrite (rsum_ext (n := ext z 1) (g := fun j => rsum (ext x 1) (fun l => rsum (ext x 0) (fun i => g i j * Z b l j * dx 0 (c2 i l) (bsel x b))))) by (intros; apply rsum_swap).
      rewrite rsum_swap. apply rsum_ext. intros l Hl. rewrite rsum_swap. apply rsum_ext. intros i Hi. rewrite rsum_blocks, <- rsum_scal_r. apply rsum_ext. intros j Hj. cbn [c2]. fold (g i j) (Z b l j). ring.
    + apply rsum_ext. intros j Hj. rewrite rsum_swap. apply rsum_ext. intros l Hl. rewrite rsum_blocks, <- rsum_scal_r. apply rsum_ext. intros i Hi. cbn [c2]. fold (g i j) (A b i l). ring.
Qed.

(** ** Slices, concatenations, batches *)
Lemma rsum_window n m lo g : (lo + m <= n)%nat -> rsum n (fun j => if (Nat.leb lo j && Nat.ltb j (lo + m))%bool then g j else 0) = rsum m (fun j => g (j + lo)%nat).
Proof.
  intros H. replace n with (lo + (m + (n - lo - m)))%nat by lia. rewrite rsum_app, rsum_0, rsum_app.
  2:{ intros i Hi. destruct (Nat.leb_spec lo i); [lia|]. auto. }
  rewrite (rsum_0 (n := (n - lo - m)%nat)). 2:{ intros i Hi. destruct (Nat.ltb_spec (lo + (m + i)) (lo + m)); [lia|]. rewrite Bool.andb_false_r. auto. }
  rewrite Rplus_0_l, Rplus_0_r. apply rsum_ext. intros i Hi. destruct (Nat.leb_spec lo (lo + i)); [|lia]. destruct (Nat.ltb_spec (lo + i) (lo + m)); [|lia]. cbn. f_equal. lia.
Qed.
Lemma slice_vsum x s e lo (gy : rtensor) b (G : coord' -> R) : (e < 8)%nat -> (lo + ext s e <= ext x e)%nat -> (forall i, i <> e -> ext s i = ext x i) -> t_shape gy = s ->
  vsum s (fun c => at_ gy c b * G (cset c e (c e + lo))) = vsum x (fun c => cval (slice_val gy e lo c b) * G c).
Proof.
  intros He HL HE HG. unfold vsum. rewrite (@csum_split (ext s) 8 e), (@csum_split (ext x) 8 e) by auto.
  rewrite (@csum_e (esub (ext s) e 1) (esub (ext x) e 1)). 2:{ intros i _. unfold esub. destruct (Nat.eqb_spec i e); auto. }
  apply csum_ext. intros c _. transitivity (rsum (ext s e) (fun j => (fun j => at_ gy (cset c e (j - lo)) b * G (cset c e j)) (j + lo)%nat)).
  - apply rsum_ext. intros j Hj. rewrite cset_at, cset_set, Nat.add_sub. auto.
  - rewrite <- (@rsum_window (ext x e) (ext s e) lo (fun j => at_ gy (cset c e (j - lo)) b * G (cset c e j))) by auto.
    apply rsum_ext. intros j Hj. unfold slice_val. rewrite HG, cset_at, cset_set. destruct (_ && _)%bool; cbn [cval]; [auto|ring].
Qed.
Lemma local_slice d l u x s : k = KSlice d l u -> ss = [x] -> rs = [s] -> (nat32 d < 8)%nat -> (l < u)%N -> (nat32 u <= ext x (nat32 d))%nat -> shape_is s (eset x (nat32 d) (nat32 u - nat32 l)) (bat x) -> local_ok.
Proof.
  intros EK ES ER Hd LU HU (_ & SE & SB). assert (E0 : nth_error ss 0 = Some x) by (rewrite ES; auto).
  assert (R0 : nth_error rs 0 = Some s) by (rewrite ER; auto). pose proof (ss_wf E0) as W. pose proof (rs_wf R0) as Ws. set (e := nat32 d) in * .
  assert (EE : ext s e = (nat32 u - nat32 l)%nat) by (rewrite SE; unfold eset; rewrite Nat.eqb_refl; auto).
  assert (NE : forall i, i <> e -> ext s i = ext x i). { intros i Hi. rewrite SE. unfold eset. destruct (Nat.eqb_spec i e); congruence. }
  apply (@local1 s (fun c b => dx 0 (cset c e (c e + nat32 l)) b)); auto.
  - intros c b Hc Hb. rewrite EK. cbn [sem]. fold e. apply (HD E0); [|congruence]. intros i. unfold cset. destruct (Nat.eqb_spec i e); [subst i; specialize (Hc e); lia|rewrite <- NE; auto].
  - rewrite EK. cbn [bwsem]. repeat constructor; cbn; rewrite (ys_shape R0); auto.
  - intros b Hb. rewrite EK. cbn [bwsem lsum]. unfold pbat. cbn [p_to p_val]. rewrite Rplus_0_r, ES. cbn [nth]. fold e. rewrite (bsel_id (s := x)) by congruence.
    apply (@slice_vsum x s e (nat32 l) (arg gys 0) b (fun c => dx 0 c b)); auto; [lia|apply (gys_shape R0)].
Qed.
Lemma local_split d n x s : k = KSplit d n -> ss = [x] -> rs = repeat s (nat32 n) -> (nat32 d < 8)%nat -> (1 <= n)%N -> ext x (nat32 d) mod nat32 n = 0%nat ->
  shape_is s (eset x (nat32 d) (ext x (nat32 d) / nat32 n)) (bat x) -> local_ok.
Proof.
  intros EK ES ER Hd LN HM (Ws & SE & SB). assert (E0 : nth_error ss 0 = Some x) by (rewrite ES; auto). pose proof (ss_wf E0) as W. set (e := nat32 d) in * .
  set (w := (ext x e / nat32 n)%nat) in * . assert (EE : ext s e = w) by (rewrite SE; unfold eset; rewrite Nat.eqb_refl; auto).
  assert (NE : forall i, i <> e -> ext s i = ext x i). { intros i Hi. rewrite SE. unfold eset. destruct (Nat.eqb_spec i e); congruence. }
  assert (EX : ext x e = (nat32 n * w)%nat) by (apply Nat.div_exact; [lia|auto]).
  assert (RV : forall v, (v < nat32 n)%nat -> nth_error rs v = Some s). { intros v Hv. rewrite ER. apply nth_error_repeat; auto. }
  exists (fun v c b => dx 0 (cset c e (c e + v * w)) b). split.
  - intros v s' c b Hv Hc Hb. assert (Lv : (v < nat32 n)%nat). { rewrite <- (repeat_length s (nat32 n)), <- ER. apply nth_error_Some. congruence. }
    assert (s' = s) by (rewrite (RV v Lv) in Hv; congruence). subst s'. rewrite EK. cbn [sem]. fold e. eapply deriv_ext; [intros t; symmetry; rewrite (arg_shape t E0); reflexivity|]. fold w. apply (HD E0); [|congruence].
    intros i. unfold cset. destruct (Nat.eqb_spec i e); [subst i; specialize (Hc e); nia|rewrite <- NE; auto].
  - rewrite EK. cbn [bwsem]. rewrite lsum_map, lsum_seq, ER, repeat_length. apply rsum_ext. intros v Hv. replace (nth v (repeat s (nat32 n)) d0) with s by (symmetry; apply nth_error_nth; rewrite <- ER; auto).
    unfold tsum, psum. cbn [p_bat]. rewrite (ys_shape (RV 0%nat ltac:(lia))). apply rsum_ext. intros b Hb. unfold pbat. cbn [p_to p_val]. rewrite ES. cbn [nth]. fold e. rewrite (arg_shape 0 E0). fold w. rewrite (bsel_id (s := x)) by congruence.
    apply (@slice_vsum x s e (v * w) (arg gys v) b (fun c => dx 0 c b)); auto; [nia|apply (gys_shape (RV v Hv))].
Qed.

Fixpoint dcat (e i : nat) (l : list shape) (c : coord') (b : nat) : R :=
  match l with [] => 0 | s :: l' => if (c e <? ext s e)%nat then dx i c (bsel s b) else dcat e (S i) l' (cset c e (c e - ext s e)) b end.
Fixpoint dbcat (i : nat) (l : list shape) (c : coord') (b : nat) : R :=
  match l with [] => 0 | s :: l' => if (b <? bat s)%nat then dx i c b else dbcat (S i) l' c (b - bat s) end.
Lemma head_tail (X : list rtensor) s sl : map shp X = s :: sl -> X = arg X 0 :: tl X /\ t_shape (arg X 0) = s /\ map shp (tl X) = sl.
Proof. destruct X as [|y X]; cbn; intros H; inversion H. auto. Qed.
Lemma cat_deriv e x0 B : forall sl i (X : R -> list rtensor) c b, (forall t, map shp (X t) = sl) -> (forall t q, (q < length sl)%nat -> arg (X t) q = arg (xs t) (i + q)) ->
  (forall q s, nth_error sl q = Some s -> nth_error ss (i + q) = Some s) -> Forall (fun s => (forall q, q <> e -> ext s q = ext x0 q) /\ (bat s = 1 \/ bat s = B)%nat) sl ->
  (forall q, q <> e -> (c q < ext x0 q)%nat) -> (b < B)%nat -> D (fun t => cat_at (X t) e c b) (dcat e i sl c b).
Proof.
  induction sl as [|s sl IH]; intros i X c b HM HA HS HF Hc Hb.
  - eapply deriv_ext; [intros t; symmetry; rewrite (map_eq_nil _ _ (HM t)); reflexivity|]. apply deriv_const.
  - inversion HF as [|? ? (F1 & F1') F2]; subst. assert (Es : nth_error ss i = Some s) by (rewrite <- (Nat.add_0_r i); apply HS; auto). cbn [dcat].
    eapply deriv_ext; [intros t; symmetry; destruct (head_tail (HM t)) as (E1 & E2 & _); rewrite E1; cbn [cat_at]; rewrite E2; reflexivity|].
    destruct (Nat.ltb_spec (c e) (ext s e)) as [L|L].
    + eapply deriv_ext; [intros t; symmetry; rewrite (HA t 0%nat) by (cbn; lia); rewrite Nat.add_0_r; reflexivity|]. apply (HD Es); [|apply (@bsel_lt s B); auto; apply (ss_wf Es)].
      intros q. destruct (Nat.eq_dec q e) as [->|NE]; [auto|rewrite F1; auto].
    + apply (IH (S i) (fun t => tl (X t))); auto.
      * intros t. apply (head_tail (HM t)).
      * intros t q Hq. rewrite Nat.add_succ_comm. rewrite <- HA by (cbn; lia). destruct (X t); [destruct q; reflexivity|reflexivity].
      * intros q s' H'. rewrite Nat.add_succ_comm. apply HS. auto.
      * intros q NE. rewrite cset_ne; auto.
Qed.
Lemma cat_sum e x0 (gy : rtensor) b : (e < 8)%nat -> forall l i off, (forall q s, nth_error (map shp l) q = Some s -> nth_error ss (i + q) = Some s) ->
  Forall (fun s => forall q, q <> e -> ext s q = ext x0 q) (map shp l) ->
  lsum (fun p => pbat p b) (cat_parts gy e i off l) = csum (esub (ext x0) e 1) 8 (fun c => rsum (exts l e) (fun j => at_ gy (cset c e (j + off)) b * dcat e i (map shp l) (cset c e j) b)).
Proof.
  intros He. induction l as [|x l IH]; intros i off HS HF; [symmetry; apply csum_0; auto|]. cbn [cat_parts lsum]. cbn [map] in HF, HS. inversion HF as [|? ? F1 F2]; subst.
  rewrite (IH (S i)); auto. 2:{ intros q s Hq. rewrite Nat.add_succ_comm. apply HS. auto. }
  assert (Ei : nth i ss d0 = t_shape x) by (apply nth_error_nth; rewrite <- (Nat.add_0_r i); apply HS; auto).
  unfold pbat. cbn [p_to p_val]. rewrite Ei. unfold vsum. rewrite (@csum_split (ext (t_shape x)) 8 e) by auto.
  rewrite (@csum_e (esub (ext (t_shape x)) e 1) (esub (ext x0) e 1)). 2:{ intros q _. unfold esub. destruct (Nat.eqb_spec q e); auto. }
  rewrite <- csum_plus. apply csum_ext. intros c _. change (exts (x :: l) e) with (ext (t_shape x) e + exts l e)%nat. rewrite rsum_app. f_equal.
  - apply rsum_ext. intros j Hj. cbn [map dcat cval]. rewrite cset_at, cset_set. destruct (Nat.ltb_spec j (ext (t_shape x) e)); [auto|lia].
  - apply rsum_ext. intros j Hj. cbn [map dcat]. rewrite cset_at, cset_set. destruct (Nat.ltb_spec (ext (t_shape x) e + j) (ext (t_shape x) e)); [lia|].
    f_equal; [f_equal; f_equal; lia|]. f_equal. f_equal. lia.
Qed.
Lemma local_concat d x0 ss0 s : k = KConcat d -> ss = x0 :: ss0 -> rs = [s] -> (nat32 d < 8)%nat -> Forall (fun x => forall i, i <> nat32 d -> ext x i = ext x0 i) ss -> common (map bat ss) (bat s) ->
  shape_is s (eset x0 (nat32 d) (list_sum (map (fun x => ext x (nat32 d)) ss))) (bat s) -> local_ok.
Proof.
  intros EK ES ER Hd HF (HC & _) (_ & SE & _). assert (R0 : nth_error rs 0 = Some s) by (rewrite ER; auto). pose proof (rs_wf R0) as Ws. set (e := nat32 d) in * .
  assert (EX : ext s e = exts (xs 0) e). { rewrite SE. unfold eset. rewrite Nat.eqb_refl. rewrite <- (HX 0). apply exts_list. }
  assert (EPB : forall gy e i off l B, t_shape gy = s -> B = bat s -> Forall (fun p => p_bat p = B) (@cat_parts Rnum gy e i off l)).
  { clear -k. intros gy e i off l B HG HB. revert i off. induction l; intros; cbn [cat_parts]; constructor; auto. cbn. congruence. }
  apply (@local1 s (fun c b => dcat e 0 ss c b)); auto.
  - intros c b Hc Hb. rewrite EK. cbn [sem]. fold e. apply (@cat_deriv e x0 (bat s) ss 0 xs c b); auto.
    + rewrite Forall_forall in * . intros x Hx. split; [apply HF; auto|apply HC; apply in_map; auto].
    + intros q NE. specialize (Hc q). rewrite SE in Hc. unfold eset in Hc. destruct (Nat.eqb_spec q e); congruence.
  - rewrite EK. cbn [bwsem]. apply EPB; auto. apply (gys_shape R0).
  - intros b Hb. rewrite EK. cbn [bwsem]. fold e. rewrite (@cat_sum e x0); auto; [| rewrite HX; cbn; auto | rewrite HX; auto].
    unfold vsum. rewrite (@csum_split (ext s) 8 e) by auto. rewrite (@csum_e (esub (ext s) e 1) (esub (ext x0) e 1)). 2:{ intros q _. unfold esub. rewrite SE. unfold eset. destruct (Nat.eqb_spec q e); auto. }
    apply csum_ext. intros c _. rewrite EX, HX. apply rsum_ext. intros j Hj. rewrite Nat.add_0_r. auto.
Qed.

Lemma bcat_deriv x0 : forall sl i (X : R -> list rtensor) c b, (forall t, map shp (X t) = sl) -> (forall t q, (q < length sl)%nat -> arg (X t) q = arg (xs t) (i + q)) ->
  (forall q s, nth_error sl q = Some s -> nth_error ss (i + q) = Some s) -> Forall (fun s => forall q, ext s q = ext x0 q) sl ->
  inb x0 c -> D (fun t => bcat_at (X t) c b) (dbcat i sl c b).
Proof.
  induction sl as [|s sl IH]; intros i X c b HM HA HS HF Hc.
  - eapply deriv_ext; [intros t; symmetry; rewrite (map_eq_nil _ _ (HM t)); reflexivity|]. apply deriv_const.
  - inversion HF as [|? ? F1 F2]; subst. assert (Es : nth_error ss i = Some s) by (rewrite <- (Nat.add_0_r i); apply HS; auto). cbn [dbcat].
    eapply deriv_ext; [intros t; symmetry; destruct (head_tail (HM t)) as (E1 & E2 & _); rewrite E1; cbn [bcat_at]; rewrite E2; reflexivity|].
    destruct (Nat.ltb_spec b (bat s)) as [L|L].
    + eapply deriv_ext; [intros t; symmetry; rewrite (HA t 0%nat) by (cbn; lia); rewrite Nat.add_0_r; reflexivity|]. apply (HD Es); auto. intros q. rewrite F1. auto.
    + apply (IH (S i) (fun t => tl (X t))); auto.
      * intros t. apply (head_tail (HM t)).
      * intros t q Hq. rewrite Nat.add_succ_comm. rewrite <- HA by (cbn; lia). destruct (X t); [destruct q; reflexivity|reflexivity].
      * intros q s' H'. rewrite Nat.add_succ_comm. apply HS. auto.
Qed.
Lemma bcat_sum x0 (gy : rtensor) : forall l i off, (forall q s, nth_error (map shp l) q = Some s -> nth_error ss (i + q) = Some s) ->
  Forall (fun s => forall q, ext s q = ext x0 q) (map shp l) ->
  lsum psum (bcat_parts gy i off l) = rsum (bats l) (fun b => vsum x0 (fun c => at_ gy c (off + b) * dbcat i (map shp l) c b)).
Proof.
  induction l as [|x l IH]; intros i off HS HF; [auto|]. cbn [bcat_parts lsum]. cbn [map] in HF, HS. inversion HF as [|? ? F1 F2]; subst.
  rewrite (IH (S i)); auto. 2:{ intros q s Hq. rewrite Nat.add_succ_comm. apply HS. auto. }
  assert (Ei : nth i ss d0 = t_shape x) by (apply nth_error_nth; rewrite <- (Nat.add_0_r i); apply HS; auto).
  change (bats (x :: l)) with (bat (t_shape x) + bats l)%nat. rewrite rsum_app. f_equal.
  - unfold psum. cbn [p_bat]. apply rsum_ext. intros b Hb. unfold pbat. cbn [p_to p_val]. rewrite Ei, (@vsum_same (t_shape x) x0) by auto. rewrite bsel_id by auto. f_equal. apply functional_extensionality. intros c.
    cbn [map dbcat cval]. destruct (Nat.ltb_spec b (bat (t_shape x))); [auto|lia].
  - apply rsum_ext. intros b Hb. f_equal. apply functional_extensionality. intros c. cbn [map dbcat]. destruct (Nat.ltb_spec (bat (t_shape x) + b) (bat (t_shape x))); [lia|].
    f_equal; [f_equal; lia|f_equal; lia].
Qed.
Lemma local_bconcat x0 ss0 s : k = (@KBatchConcat Rnum) -> ss = x0 :: ss0 -> rs = [s] -> Forall (fun x => forall i, ext x i = ext x0 i) ss -> shape_is s (ext x0) (list_sum (map bat ss)) -> local_ok.
Proof.
  intros EK ES ER HF (_ & SE & SB). assert (R0 : nth_error rs 0 = Some s) by (rewrite ER; auto). pose proof (rs_wf R0) as Ws.
  assert (EX : bat s = bats (xs 0)). { rewrite SB. rewrite <- (HX 0). apply bats_list. }
  exists (fun _ c b => dbcat 0 ss c b). split.
  - intros v s' c b Hv Hc Hb. rewrite ER in Hv. destruct v as [|v]; [|destruct v; discriminate]. assert (s' = s) by congruence. subst s'.
    rewrite EK. cbn [sem]. apply (@bcat_deriv x0 ss 0 xs c b); auto. intros q. rewrite <- SE. auto.
  - rewrite EK. cbn [bwsem]. rewrite (@bcat_sum x0); [| rewrite HX; cbn; auto | rewrite HX; auto].
    rewrite ER. cbn [length]. rewrite rsum_1. cbn [nth]. unfold tsum. rewrite EX, HX. apply rsum_ext. intros b Hb. rewrite (@vsum_same s x0) by auto. auto.
Qed.
Lemma local_batch_sum x s : k = (@KBatchSum Rnum) -> ss = [x] -> rs = [s] -> shape_is s (ext x) 1 -> local_ok.
Proof.
  intros EK ES ER (_ & SE & SB). assert (E0 : nth_error ss 0 = Some x) by (rewrite ES; auto). assert (R0 : nth_error rs 0 = Some s) by (rewrite ER; auto). pose proof (ss_wf E0) as W. pose proof (rs_wf R0) as Ws.
  exists (fun _ c b => rsum (bat x) (fun q => dx 0 c q)). split.
  - intros v s' c b Hv Hc Hb. rewrite ER in Hv. destruct v as [|v]; [|destruct v; discriminate]. assert (s' = s) by congruence. subst s'.
    rewrite EK. cbn [sem]. eapply deriv_ext; [intros t; symmetry; rewrite (arg_shape t E0); apply rsum_red0|].
    apply (@deriv_rsum (bat x) (fun q t => at_ (arg (xs t) 0) c q)). intros q Hq. apply (HD E0); auto. intros i. rewrite <- SE. auto.
  - rewrite EK. cbn [bwsem lsum]. rewrite Rplus_0_r. unfold psum, pbat. cbn [p_bat p_to p_val]. rewrite (arg_shape 0 E0), ES. cbn [nth].
    rewrite ER. cbn [length]. rewrite rsum_1. cbn [nth]. unfold tsum. rewrite SB, rsum_1. rewrite (@vsum_same s x) by auto.
    rewrite (rsum_ext (n := bat x) (g := fun n => vsum x (fun c => at_ (arg gys 0) c 0 * dx 0 c n))). 2:{ intros n Hn. rewrite bsel_id by auto. auto. }
    rewrite <- vsum_rsum. f_equal. apply functional_extensionality. intros c. rewrite rsum_scal. auto.
Qed.
Lemma local_reshape r x s : k = (@KReshape Rnum r) -> ss = [x] -> rs = [s] -> s = r -> tot r = tot x -> local_ok.
Proof.
  intros EK ES ER -> ET. assert (E0 : nth_error ss 0 = Some x) by (rewrite ES; auto). assert (R0 : nth_error rs 0 = Some r) by (rewrite ER; auto). pose proof (ss_wf E0) as W. pose proof (rs_wf R0) as Wr.
  pose (df := fun p => dx 0 (coord (ext x) 8 (p mod vol x)) (p / vol x)). pose proof (vol_pos W) as VP.
  assert (DF : forall c b, inb x c -> df (pos x c b) = dx 0 c b).
  { intros c b Hc. unfold df. set (p := pos x c b). assert (Hm : (p mod vol x < vol x)%nat) by (apply Nat.mod_upper_bound; lia).
    destruct (@pos_inj x (coord (ext x) 8 (p mod vol x)) (p / vol x) c b) as (I1 & I2); auto.
    - apply inb_coord; auto. - rewrite pos_coord by auto. fold p. rewrite Nat.mul_comm. symmetry. apply Nat.div_mod. lia.
    - rewrite I1. f_equal. apply functional_extensionality. auto. }
  exists (fun _ c b => df (pos r c b)). split.
  - intros v s' c b Hv Hc Hb. rewrite ER in Hv. destruct v as [|v]; [|destruct v; discriminate]. assert (s' = r) by congruence. subst s'.
    rewrite EK. cbn [sem]. destruct (@pos_surj x (pos r c b)) as (c' & b' & H1 & H2 & H3); auto. { rewrite <- ET. apply pos_lt; auto. }
    rewrite <- H3. rewrite DF by auto. apply (@deriv_ext (fun t => at_ (arg (xs t) 0) c' b')); [|apply (HD E0 H1 H2)]. intros t. rewrite at_buf, (arg_shape t E0). auto.
  - rewrite EK. cbn [bwsem lsum]. rewrite Rplus_0_r. unfold psum, pbat. cbn [p_bat p_to p_val]. rewrite (arg_shape 0 E0), ES. cbn [nth].
    rewrite ER. cbn [length]. rewrite rsum_1. cbn [nth]. set (gb := fun p => nth p (buf (arg gys 0)) (@n0 Rnum) : R).
    transitivity (tsum r (fun c b => (fun p => gb p * df p) (pos r c b))).
    { apply tsum_ext; auto. intros c b Hc Hb. rewrite at_buf, (gys_shape R0). auto. }
    etransitivity; [apply (@tsum_flat r (fun p => gb p * df p)); auto|]. rewrite ET. etransitivity; [symmetry; apply (@tsum_flat x (fun p => gb p * df p)); auto|]. unfold tsum. apply rsum_ext. intros b Hb. apply vsum_ext; auto. intros c Hc. rewrite DF, bsel_id by auto. auto.
Qed.
Lemma local_const s : ss = [] -> rs = [s] -> (forall t c b, sem k (xs t) 0 c b = sem k (xs 0) 0 c b) -> lsum psum (bwsem k (xs 0) ys gys) = 0 -> local_ok.
Proof.
  intros ES ER EC EB. exists (fun _ _ _ => 0). split.
  - intros v s' c b Hv Hc Hb. rewrite ER in Hv. destruct v as [|v]; [|destruct v; discriminate]. eapply deriv_ext; [intros t; symmetry; apply EC|apply deriv_const].
  - rewrite EB. apply rsum_0. intros v Hv. unfold tsum. apply rsum_0. intros b Hb. apply csum_0. intros. ring.
Qed.

(** every operator with a working backward *)
Theorem local_all : typed k ss rs -> has_bw k ss rs -> smooth k (xs 0) rs -> local_ok.
Proof.
  intros TY HB SM.
  assert (S1 : forall x, ss = [x] -> forall t, t_shape (arg (xs t) 0) = x) by (intros x ES t; apply arg_shape; rewrite ES; auto).
  assert (S2 : forall x z, ss = [x; z] -> forall t, t_shape (arg (xs t) 0) = x /\ t_shape (arg (xs t) 1) = z) by (intros x z ES t; split; apply arg_shape; rewrite ES; auto).
  assert (Y1 : forall s, rs = [s] -> t_shape (arg ys 0) = s) by (intros s ER; apply ys_shape; rewrite ER; auto).
  destruct (uop k) as [f|] eqn:EU.
  { destruct (ubw k) as [h|] eqn:EH; [|destruct k; discriminate || contradiction].
    assert (T1 : exists x, ss = [x] /\ rs = [x]) by (destruct k; try discriminate EU; destruct TY as (x & s & E1 & E2 & E3); subst; eauto).
    destruct T1 as (x & ES & ER). apply (@local_u x f h); auto.
    - intros t c b. destruct k; try discriminate EU; inversion EU; subst; reflexivity.
    - destruct k; try discriminate EU; inversion EH; subst; reflexivity. }
  destruct (bop k) as [f|] eqn:EBo.
  { destruct (bbw_a k) as [ha|] eqn:EA; [|destruct k; discriminate]. destruct (bbw_b k) as [hb|] eqn:EB; [|destruct k; discriminate].
    assert (T1 : on2 batchable ss rs) by (destruct k; try discriminate EBo; exact TY). destruct T1 as (a & z & s & ES & ER & BT). apply (@local_b a z s f ha hb); auto.
    - intros t c b. destruct (S2 _ _ ES t) as (<- & <-). destruct k; try discriminate EBo; inversion EBo; subst; reflexivity.
    - cbv zeta. destruct (S2 _ _ ES 0) as (<- & <-). rewrite <- (Y1 _ ER). destruct k; try discriminate EBo; inversion EA; inversion EB; subst; reflexivity. }
  destruct (sop k) as [f|] eqn:ESo.
  { destruct (sbw_x k) as [hx|] eqn:EA; [|destruct k; discriminate]. destruct (sbw_k k) as [(sg & hk)|] eqn:EB; [|destruct k; discriminate].
    assert (T1 : on2 scalable ss rs) by (destruct k; try discriminate ESo; exact TY). destruct T1 as (a & z & s & ES & ER & BT). apply (@local_s a z s f hx sg hk); auto.
    - intros t c b. destruct (S2 _ _ ES t) as (<- & <-). destruct k; try discriminate ESo; inversion ESo; subst; reflexivity.
    - destruct (S2 _ _ ES 0) as (<- & <-). rewrite <- (Y1 _ ER). destruct k; try discriminate ESo; inversion EA; inversion EB; subst; reflexivity. }
  assert (EK0 : exists k', k = k') by eauto. destruct EK0 as (k' & EK). rewrite EK in TY, HB, EU, EBo, ESo.
  destruct k'; try discriminate EU; try discriminate EBo; try discriminate ESo; try contradiction; cbn [typed] in TY.
  all: try (destruct TY as (ES & ER); eapply local_const; [exact ES|exact ER|intros; rewrite EK; reflexivity|rewrite EK; cbn; unfold psum, pbat; cbn; rewrite ?rsum_0 by auto; ring]).
  - destruct TY as (x & s & ES & ER & Hd & E1 & _ & SI). eapply local_broadcast; eauto.
  - destruct TY as (x & s & ES & ER & Hd & SI). eapply local_lse; eauto.
  - destruct TY as (x & s & ES & ER & Hd & SI). eapply local_max; eauto.
  - destruct TY as (x & s & ES & ER & Hd & SI). eapply local_min; eauto.
  - destruct TY as (x & s & ES & ER & Hd & SI). eapply local_sum; eauto.
  - destruct TY as (x & z & s & ES & ER & Hd & _ & SI). eapply local_sce; eauto.
  - destruct TY as (x & s & ES & ER & Hd & _ & HN & HL & HF & SI). eapply local_sparse; eauto.
  - destruct TY as (x & z & s & ES & ER & M1 & M2 & EE & BB & SI). eapply local_matmul; eauto.
  - destruct TY as (x & s & ES & ER & M1 & SI). eapply local_transpose; eauto.
  - destruct TY as (x & s & ES & ER & MX & E1 & EN & E2). subst s. apply (@local_tri x (fun c => (N.of_nat (c 1%nat) + k0 <=? N.of_nat (c 0%nat))%N)); auto; [intros; rewrite EK; reflexivity|rewrite EK; cbn; rewrite (Y1 _ ER); reflexivity].
  - destruct TY as (x & s & ES & ER & MX & E1 & EN & E2). subst s. apply (@local_tri x (fun c => (N.of_nat (c 0%nat) + k0 <=? N.of_nat (c 1%nat))%N)); auto; [intros; rewrite EK; reflexivity|rewrite EK; cbn; rewrite (Y1 _ ER); reflexivity].
  - destruct TY as (x & s & ES & ER & Hd & _ & HN & HL & HF & SI). eapply local_pick; eauto.
  - destruct TY as (x & s & ES & ER & Hd & L1 & L2 & SI). eapply local_slice; eauto.
  - destruct TY as (x & s & ES & ER & Hd & L1 & L2 & SI). eapply local_split; eauto.
  - destruct TY as (x0 & ss0 & s & ES & ER & HF & SI). eapply local_bconcat; eauto.
  - destruct TY as (x & s & ES & ER & SI). eapply local_batch_sum; eauto.
  - destruct TY as (x0 & ss0 & s & ES & ER & Hd & HF & HC & SI). eapply local_concat; eauto.
  - destruct TY as (x & s0 & ES & ER & E1 & E2). eapply local_reshape; eauto.
Qed.
End Local.
