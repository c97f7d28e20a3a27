(** * GraphGrad: the gradients the backward pass computes, as sums (for C38) *)
From Verif Require Export GraphDiff PropsOps.
Set Implicit Arguments.
Unset Strict Implicit.
Open Scope R_scope.
Notation rpart := (part Rnum).
Notation rupdate := (update Rnum).

(** ** Sums over lists *)
Lemma lsum_0 A (f : A -> R) l : (forall a, In a l -> f a = 0) -> lsum f l = 0.
Proof. induction l as [|a l IH]; intros H; cbn; auto. rewrite H, IH by (cbn; auto; intros; apply H; cbn; auto). ring. Qed.
Lemma lsum_plus A (f g : A -> R) l : lsum (fun a => f a + g a) l = lsum f l + lsum g l.
Proof. induction l as [|a l IH]; cbn; [ring|]. rewrite IH. ring. Qed.
Lemma lsum_scal_r A (f : A -> R) r l : lsum (fun a => f a * r) l = lsum f l * r.
Proof. induction l as [|a l IH]; cbn; [ring|]. rewrite IH. ring. Qed.
Lemma lsum_swap A B (f : A -> B -> R) l l' : lsum (fun a => lsum (fun b => f a b) l') l = lsum (fun b => lsum (fun a => f a b) l) l'.
Proof. induction l as [|a l IH]; cbn; [symmetry; apply lsum_0; auto|]. rewrite IH, <- lsum_plus. auto. Qed.
Lemma lsum_flat_map A B (h : A -> list B) (f : B -> R) l : lsum f (flat_map h l) = lsum (fun a => lsum f (h a)) l.
Proof. induction l as [|a l IH]; cbn; auto. rewrite lsum_app, IH. auto. Qed.
Lemma lsum_delta (l : list nat) j (r : R) : NoDup l -> In j l -> lsum (fun i => if Nat.eqb j i then r else 0) l = r.
Proof.
  induction l as [|a l IH]; intros ND HI; [destruct HI|]. inversion ND; subst. cbn [lsum]. destruct (Nat.eqb_spec j a) as [->|NE].
  - rewrite lsum_0; [ring|]. intros b Hb. destruct (Nat.eqb_spec a b); [congruence|auto].
  - destruct HI as [HI|HI]; [congruence|]. rewrite IH by auto. ring.
Qed.
Lemma lsum_in (l : list nat) n f : NoDup l -> (forall i, In i l -> (i < n)%nat) -> (forall i, (i < n)%nat -> ~ In i l -> f i = 0) -> lsum f l = rsum n f.
Proof.
  intros ND HB HZ. rewrite (rsum_ext (n := n) (g := fun i => lsum (fun j => if Nat.eqb j i then f j else 0) l)).
  - rewrite <- lsum_rsum. apply lsum_ext. intros j Hj. rewrite (@rsum_one n j); [rewrite Nat.eqb_refl; auto|auto|]. intros i _ NE. destruct (Nat.eqb_spec j i); [congruence|auto].
  - intros i Hi. destruct (in_dec Nat.eq_dec i l) as [HI|HI].
    + rewrite (lsum_ext (g := fun j => if Nat.eqb i j then f i else 0)); [rewrite lsum_delta; auto|]. intros j _. rewrite Nat.eqb_sym. destruct (Nat.eqb_spec i j); [subst|]; auto.
    + rewrite HZ by auto. symmetry. apply lsum_0. intros j Hj. destruct (Nat.eqb_spec j i); [congruence|auto].
Qed.
Lemma tsum_lsum A s (f : A -> coord' -> nat -> R) l : tsum s (fun c b => lsum (fun a => f a c b) l) = lsum (fun a => tsum s (f a)) l.
Proof.
  induction l as [|a l IH]; cbn [lsum]; [unfold tsum; apply rsum_0; intros; apply csum_0; auto|]. rewrite <- IH. apply tsum_plus.
Qed.
Lemma deriv_csum e n (f : R -> coord' -> R) df x : (forall c, inc e n c -> derivable_pt_lim (fun t => f t c) x (df c)) -> derivable_pt_lim (fun t => csum e n (f t)) x (csum e n df).
Proof.
  revert f df. induction n as [|n IH]; intros f df H.
  - cbn. apply H. split; intros; [lia|]. reflexivity.
  - cbn [csum]. apply (@deriv_rsum (e n) (fun i t => csum e n (fun c => f t (cset c n i)))). intros i Hi.
    apply (@IH (fun t c => f t (cset c n i)) (fun c => df (cset c n i))). intros c Hc. apply H. apply inc_cset; auto.
Qed.
Lemma deriv_tsum s (f : R -> coord' -> nat -> R) df x : wf s -> (forall c b, inb s c -> (b < bat s)%nat -> derivable_pt_lim (fun t => f t c b) x (df c b)) ->
  derivable_pt_lim (fun t => tsum s (f t)) x (tsum s df).
Proof.
  intros W H. unfold tsum. apply (@deriv_rsum (bat s) (fun b t => vsum s (fun c => f t c b))). intros b Hb. apply (@deriv_csum (ext s) 8 (fun t c => f t c b)). intros c Hc. apply H; auto. apply inc_inb; auto.
Qed.

Lemma deriv_lsum A (l : list A) (f : R -> A -> R) df x : (forall a, In a l -> derivable_pt_lim (fun t => f t a) x (df a)) -> derivable_pt_lim (fun t => lsum (f t) l) x (lsum df l).
Proof. induction l as [|a l IH]; intros H; cbn [lsum]; [apply deriv_const|]. apply deriv_add; [apply H; cbn; auto|apply IH; intros; apply H; cbn; auto]. Qed.
Lemma deriv_scal k f x a : derivable_pt_lim f x a -> derivable_pt_lim (fun t => k * f t) x (k * a).
Proof. intros H. eapply deriv_val; [apply deriv_mul; [apply deriv_const|exact H]|cbv beta; ring]. Qed.

(** ** What a list of updates does to a gradient *)
(** the change one update makes to the element [c], [q] of a gradient with shape [s] *)
Definition adds_up (s : shape) (p : rpart) (c : coord') (q : nat) : R := rsum (p_bat p) (fun n => if Nat.eqb (bsel s n) q then cval (p_val p c n) else 0).
Lemma apply_parts d s : forall fs (ps : list rpart) t0, Forall2 (fun f p => does d f s (p_bat p) (p_val p)) fs ps -> ready d t0 -> t_shape t0 = s ->
  exists t', apply_all fs t0 = Ok t' /\ ready d t' /\ t_shape t' = s /\ forall c q, inb s c -> (q < bat s)%nat -> @eq R (at_ t' c q) (at_ t0 c q + lsum (fun p => adds_up s p c q) ps).
Proof.
  induction fs as [|f fs IH]; intros ps t0 HF HR HS; inversion HF as [|f' p fs' ps' H1 H3]; subst; cbn [lsum].
  - exists t0. split; [reflexivity|]. split; auto. split; auto. intros. symmetry. apply Rplus_0_r.
  - destruct (writes_yields HR (H1 t0 HR eq_refl)) as (t1 & E1 & R1 & S1 & A1).
    destruct (IH ps' t1 H3 R1 S1) as (t' & E & R' & S' & A'). exists t'. split; [unfold apply_all; cbn [forL]; rewrite E1; cbn [bind]; exact E|]. split; auto. split; auto.
    intros c q Hc Hq. rewrite A', A1 by auto. rewrite (@acc_ext Rnum (t_shape t0) (p_bat p) q (fun n v => apply_c (p_val p c n) v) (fun n v => v + cval (p_val p c n))).
    + rewrite acc_rsum. apply Rplus_assoc.
    + intros n v _. destruct (p_val p c n) as [r|r|]; cbn; [reflexivity|reflexivity|symmetry; apply Rplus_0_r].
Qed.
Lemma adds_up_own s (h : coord' -> nat -> contrib Rnum) c q : (q < bat s)%nat -> adds_up s (mkPart Own (bat s) h) c q = cval (h c q).
Proof.
  intros Hq. unfold adds_up. cbn [p_bat p_val]. rewrite (@rsum_one (bat s) q); auto; [rewrite bsel_id, Nat.eqb_refl by auto; auto|]. intros n Hn NE. rewrite bsel_id by auto. destruct (Nat.eqb_spec n q); [congruence|auto].
Qed.

(** the updates that reach node [n], in terms of parts *)
Definition gets (args : list (nat * nat)) (ps : list rpart) (n : nat * nat) : list rpart :=
  flat_map (fun p => match p_to p with
    | Arg k => match nth_error args k with Some a => if node_eqb a n then [p] else [] | None => [] end
    | Own => [] end) ps.
Lemma sent_gets d xs ys args us ps n s : updates_are d us xs ys ps -> length xs = length args -> (forall k, nth_error args k = Some n -> t_shape (arg xs k) = s) ->
  Forall2 (fun f (p : rpart) => does d f s (p_bat p) (p_val p)) (sent args us n) (gets args ps n).
Proof.
  intros H L HS. induction H as [|u p us ps (E & HD) H IH]; [constructor|]. unfold sent, gets in * . cbn [flat_map]. apply Forall2_app; [|exact IH]. clear IH H.
  rewrite E. destruct (p_to p) as [k|]; [|constructor]. destruct (nth_error args k) as [a|] eqn:Ea; [|constructor]. destruct (node_eqb_spec a n) as [->|]; constructor; [|constructor].
  cbn [target_shape] in HD. rewrite (HS k Ea) in HD. exact HD.
Qed.
Definition own_parts (ps : list rpart) : list rpart := flat_map (fun p => match p_to p with Own => [p] | Arg _ => [] end) ps.
Lemma sent_own_parts d xs ys us ps : updates_are d us xs ys ps -> Forall2 (fun f (p : rpart) => does d f (t_shape (arg ys 0)) (p_bat p) (p_val p)) (sent_own us) (own_parts ps).
Proof.
  intros H. induction H as [|u p us ps (E & HD) H IH]; [constructor|]. unfold sent_own, own_parts in * . cbn [flat_map]. apply Forall2_app; [|exact IH]. rewrite E. destruct (p_to p); constructor; [exact HD|constructor].
Qed.

(** every update fits the argument it goes to *)
Definition p_fits (k : rkind) (ss : list shape) (p : rpart) : Prop := match p_to p with Arg j => exists s, nth_error ss j = Some s /\ (bat s = 1 \/ p_bat p <= bat s)%nat | Own => exists v, k = KParameter v end.
Lemma cat_fits k (gy : rtensor) e ss : forall l i off, (forall q s, nth_error (map shp l) q = Some s -> nth_error ss (i + q) = Some s) -> Forall (fun s => bat s = 1 \/ bat s = bat (t_shape gy))%nat (map shp l) ->
  Forall (p_fits k ss) (cat_parts gy e i off l).
Proof.
  induction l as [|x l IH]; intros i off H HF; cbn [cat_parts]; constructor; inversion HF; subst.
  - unfold p_fits. cbn. exists (t_shape x). split; [rewrite <- (Nat.add_0_r i); apply H; reflexivity|]. lia.
  - apply IH; auto. intros q s Hq. replace (S i + q)%nat with (i + S q)%nat by lia. apply H. exact Hq.
Qed.
Lemma bcat_fits k (gy : rtensor) ss : forall l i off, (forall q s, nth_error (map shp l) q = Some s -> nth_error ss (i + q) = Some s) ->
  Forall (p_fits k ss) (bcat_parts gy i off l).
Proof.
  induction l as [|x l IH]; intros i off H; cbn [bcat_parts]; constructor.
  - unfold p_fits. cbn. exists (t_shape x). split; [rewrite <- (Nat.add_0_r i); apply H; reflexivity|]. lia.
  - apply IH; auto. intros q s Hq. replace (S i + q)%nat with (i + S q)%nat by lia. apply H. exact Hq.
Qed.
Lemma parts_fit (k : rkind) xs ys gys : typed k (map shp xs) (map shp ys) -> has_bw k (map shp xs) (map shp ys) -> map shp gys = map shp ys ->
  Forall wf (map shp xs) -> Forall (p_fits k (map shp xs)) (bwsem k xs ys gys).
Proof.
  intros TY HB EG HW. remember (map shp xs) as ss eqn:Es. remember (map shp ys) as rs eqn:Er.
  assert (AX : forall j s, nth_error ss j = Some s -> t_shape (arg xs j) = s). { intros j s H. rewrite Es, nth_error_map in H. unfold arg. destruct (nth_error xs j) eqn:E; inversion H. rewrite (nth_error_nth _ _ _ E). auto. }
  assert (AY : forall j s, nth_error rs j = Some s -> t_shape (arg ys j) = s). { intros j s H. rewrite Er, nth_error_map in H. unfold arg. destruct (nth_error ys j) eqn:E; inversion H. rewrite (nth_error_nth _ _ _ E). auto. }
  assert (AG : forall j s, nth_error rs j = Some s -> t_shape (arg gys j) = s). { intros j s H. rewrite <- EG, nth_error_map in H. unfold arg. destruct (nth_error gys j) eqn:E; inversion H. rewrite (nth_error_nth _ _ _ E). auto. }
  assert (P1 : forall j s p, nth_error ss j = Some s -> p_to p = Arg j -> (bat s = 1 \/ p_bat p <= bat s)%nat -> p_fits k ss p). { intros j s p H1 H2 H3. unfold p_fits. rewrite H2. eauto. }
  assert (T1 : forall x s h, ss = [x] -> rs = [s] -> (bat x = 1 \/ bat s <= bat x)%nat -> p_fits k ss (mkPart (Arg 0) (bat (shp (arg ys 0))) h)).
  { intros x s h ES ER H. apply (P1 0%nat x); [rewrite ES; auto|auto|]. cbn [p_bat]. rewrite (AY 0%nat s) by (rewrite ER; auto). exact H. }
  assert (T2 : forall x s h, ss = [x] -> rs = [s] -> p_fits k ss (mkPart (Arg 0) (bat (shp (arg xs 0))) h)).
  { intros x s h ES ER. apply (P1 0%nat x); [rewrite ES; auto|auto|]. cbn [p_bat]. rewrite (AX 0%nat x) by (rewrite ES; auto). right. auto. }
  assert (T3 : forall x z s h h', ss = [x; z] -> rs = [s] -> (bat x = bat z \/ bat x = 1 \/ bat z = 1)%nat -> bat s = Nat.max (bat x) (bat z) ->
    Forall (p_fits k ss) [mkPart (Arg 0) (bat (shp (arg ys 0))) h; mkPart (Arg 1) (bat (shp (arg ys 0))) h']).
  { intros x z s h h' ES ER H HB'. assert (0 < bat x /\ 0 < bat z)%nat by (rewrite ES in HW; inversion HW as [|? ? W1 HW2]; inversion HW2 as [|? ? W2 HW3]; split; apply bat_pos; auto).
    constructor; [|constructor; [|constructor]]; [apply (P1 0%nat x)|apply (P1 1%nat z)]; auto; try (rewrite ES; auto; fail); cbn [p_bat]; rewrite (AY 0%nat s) by (rewrite ER; auto); lia. }
  assert (B1 : on1 (fun x s => s = x) ss rs -> forall h, Forall (p_fits k ss) [mkPart (Arg 0) (bat (shp (arg ys 0))) h]).
  { intros (x & s & ES & ER & E) h. constructor; [|constructor]. eapply T1; eauto. subst. auto. }
  assert (B2 : on2 batchable ss rs -> forall h h', Forall (p_fits k ss) [mkPart (Arg 0) (bat (shp (arg ys 0))) h; mkPart (Arg 1) (bat (shp (arg ys 0))) h']).
  { intros (x & z & s & ES & ER & _ & E & (_ & _ & E')) h h'. eapply T3; eauto. }
  assert (B3 : on2 scalable ss rs -> forall h h', Forall (p_fits k ss) [mkPart (Arg 0) (bat (shp (arg ys 0))) h; mkPart (Arg 1) (bat (shp (arg ys 0))) h']).
  { intros (x & z & s & ES & ER & _ & E & (_ & _ & E')) h h'. eapply T3; eauto. }
  destruct k; cbn [typed] in TY; cbn [has_bw] in HB; try contradiction; cbn [bwsem ubw bbw_a bbw_b sbw_x sbw_k]; try (apply B1; exact TY); try (apply B2; exact TY); try (apply B3; exact TY);
    try (destruct TY as (ES & ER); repeat constructor; unfold p_fits; cbn; eauto; fail).
  - destruct TY as (x & s & ES & ER & Hd & E1 & _ & (_ & _ & SB)). constructor; [|constructor]. eapply T1; eauto. lia.
  - destruct TY as (x & s & ES & ER & Hd & (_ & _ & SB)). constructor; [|constructor]. eapply T1; eauto. lia.
  - destruct TY as (x & s & ES & ER & Hd & (_ & _ & SB)). constructor; [|constructor]. eapply T1; eauto. lia.
  - destruct TY as (x & s & ES & ER & Hd & (_ & _ & SB)). constructor; [|constructor]. eapply T1; eauto. lia.
  - destruct TY as (x & s & ES & ER & Hd & (_ & _ & SB)). constructor; [|constructor]. eapply T1; eauto. lia.
  - destruct TY as (x & z & s & ES & ER & Hd & _ & s0 & (_ & E & (_ & _ & E')) & _ & (_ & _ & SB)). eapply T3; eauto. congruence.
  - destruct TY as (x & s & ES & ER & Hd & _ & HN & HL & HF & (_ & _ & SB)). assert (0 < length ids)%nat by (destruct ids; [congruence|cbn; lia]). assert (0 < bat x)%nat by (rewrite ES in HW; inversion HW; apply bat_pos; auto). constructor; [|constructor; [|constructor]]; eapply T1; eauto; lia.
  - destruct TY as (x & z & s & ES & ER & M1 & M2 & EE & BB & (_ & _ & SB)). eapply T3; eauto.
  - destruct TY as (x & s & ES & ER & Hd & (_ & _ & SB)). constructor; [|constructor]. eapply T1; eauto. lia.
  - destruct TY as (x & s & ES & ER & Hd & _ & _ & SB). constructor; [|constructor]. eapply T1; eauto. subst; auto.
  - destruct TY as (x & s & ES & ER & Hd & _ & _ & SB). constructor; [|constructor]. eapply T1; eauto. subst; auto.
  - destruct TY as (x & s & ES & ER & Hd & _ & HN & HL & HF & (_ & _ & SB)). assert (0 < length ids)%nat by (destruct ids; [congruence|cbn; lia]). assert (0 < bat x)%nat by (rewrite ES in HW; inversion HW; apply bat_pos; auto). constructor; [|constructor]; eapply T1; eauto; lia.
  - destruct TY as (x & s & ES & ER & Hd & _ & _ & (_ & _ & SB)). constructor; [|constructor]. eapply T1; eauto. lia.
  - destruct TY as (x & s & ES & ER & Hd & L1 & _ & (_ & _ & SB)). apply Forall_forall. intros p Hp. apply in_map_iff in Hp. destruct Hp as (i & <- & Hi). apply (P1 0%nat x); [rewrite ES; auto|auto|]. cbn [p_bat].
    rewrite (AY 0%nat s); [lia|]. rewrite ER. destruct (nat32 n) eqn:En; [lia|reflexivity].
  - apply bcat_fits. intros q s Hq. rewrite Es. exact Hq.
  - destruct TY as (x & s & ES & ER & _). constructor; [|constructor]. eapply T2; eauto.
  - destruct TY as (x0 & ss0 & s & ES & ER & Hd & HF & (HC & _) & _). apply cat_fits; [intros q s' Hq; rewrite Es; exact Hq|]. rewrite <- Es. rewrite (AG 0%nat s) by (rewrite ER; auto). rewrite Forall_forall in * . intros s' Hs. apply HC. apply in_map. exact Hs.
  - destruct TY as (x & s9 & ES & ER & _). constructor; [|constructor]. eapply T2; eauto.
Qed.
