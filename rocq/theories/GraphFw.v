(** * GraphFw: the forward pass *)
From Verif Require Export GraphFacts.
Set Implicit Arguments.
Unset Strict Implicit.

Lemma StronglySorted_of A (R : A -> A -> Prop) l : (forall a b c, R a b -> R b c -> R a c) -> Sorted R l -> StronglySorted R l.
Proof. intros T. apply Sorted_StronglySorted. intros a b c. apply T. Qed.

Section GraphFw.
Variable K : num.
Notation F := (F K).
Notation tensor := (tensor K).
Variable Oper : Type.
Variable itp : Oper -> operator K.
Notation graph := (graph K Oper).
Notation opinfo := (opinfo K Oper).
Notation node := (nat * nat)%type.
Hypothesis HL : forall op, lawful (itp op).

(** what evaluation depends on *)
Definition same_skel (a b : opinfo) : Prop :=
  oi_op a = oi_op b /\ oi_args a = oi_args b /\ map blank (oi_vals a) = map blank (oi_vals b) /\
  length (oi_grads a) = length (oi_grads b) /\ oi_depth a = oi_depth b.
Definition extends (g g' : graph) : Prop := forall i o, nth_error (g_ops g) i = Some o -> exists o', nth_error (g_ops g') i = Some o' /\ same_skel o o'.

Lemma same_skel_refl o : same_skel o o. Proof. repeat split. Qed.
Lemma same_skel_sym a b : same_skel a b -> same_skel b a.
Proof. intros (?&?&?&?&?); repeat split; congruence. Qed.
Lemma same_skel_trans a b c : same_skel a b -> same_skel b c -> same_skel a c.
Proof. intros (?&?&?&?&?) (?&?&?&?&?); repeat split; congruence. Qed.
Lemma extends_refl g : extends g g. Proof. intros i o H; exists o; split; auto. apply same_skel_refl. Qed.
Lemma extends_trans a b c : extends a b -> extends b c -> extends a c.
Proof.
  intros H1 H2 i o Ho. destruct (H1 _ _ Ho) as (o1 & E1 & S1). destruct (H2 _ _ E1) as (o2 & E2 & S2). exists o2. split; auto.
  eapply same_skel_trans; eauto.
Qed.
Lemma blank_len o o' : same_skel o o' -> length (oi_vals o) = length (oi_vals o').
Proof. intros (_ & _ & H & _). rewrite <- (map_length blank (oi_vals o)), H, map_length. reflexivity. Qed.

Lemma eval_op_extends g g' : gwf g -> extends g g' -> forall fuel i, i < length (g_ops g) -> eval_op itp g' fuel i = eval_op itp g fuel i.
Proof.
  intros W X. induction fuel as [|fuel IH]; intros i L; [reflexivity|]. simpl.
  destruct (nth_error (g_ops g) i) as [o|] eqn:Ho; [|apply nth_error_None in Ho; lia].
  destruct (X _ _ Ho) as (o' & Ho' & E1 & E2 & E3 & _). rewrite Ho', <- E1, <- E2, <- E3.
  rewrite (mapM_ext (fun n => ' ys <- eval_op itp g' fuel (fst n);; idx ys (snd n)) (fun n => ' ys <- eval_op itp g fuel (fst n);; idx ys (snd n))); auto.
  intros n Hn. rewrite IH; auto. destruct (gwf_args W Ho Hn) as (A & _). lia.
Qed.
Lemma eval_extends g g' i : gwf g -> extends g g' -> i < length (g_ops g) -> eval itp g' i = eval itp g i.
Proof. intros; apply eval_op_extends; auto. Qed.

Lemma eval_op_fuel g : gwf g -> forall f1 f2 i, i < f1 -> i < f2 -> eval_op itp g f1 i = eval_op itp g f2 i.
Proof.
  intros W. induction f1 as [|f1 IH]; intros f2 i L1 L2; [lia|]. destruct f2 as [|f2]; [lia|]. simpl.
  destruct (nth_error (g_ops g) i) as [o|] eqn:Ho; [|reflexivity].
  rewrite (mapM_ext (fun n => ' ys <- eval_op itp g f1 (fst n);; idx ys (snd n)) (fun n => ' ys <- eval_op itp g f2 (fst n);; idx ys (snd n))); auto.
  intros n Hn. destruct (gwf_args W Ho Hn) as (A & _). rewrite (IH f2); auto; lia.
Qed.
(** the value of an operator in terms of the values of its arguments *)
Lemma eval_eq g i o : gwf g -> nth_error (g_ops g) i = Some o ->
  eval itp g i = (xs <- mapM (eval_node itp g) (oi_args o) ;; op_forward (itp (oi_op o)) xs (map blank (oi_vals o))).
Proof.
  intros W Ho. unfold eval at 1. simpl. rewrite Ho.
  rewrite (mapM_ext (fun n => ' ys <- eval_op itp g i (fst n);; idx ys (snd n)) (eval_node itp g)); auto.
  intros n Hn. unfold eval_node, eval. destruct (gwf_args W Ho Hn) as (A & _). rewrite (@eval_op_fuel g W i (S (fst n)) (fst n)); auto.
Qed.

(** ** Invariants *)
(** operators that ran hold the value of the graph, the others nothing *)
Definition sound (g : graph) : Prop := forall i o, nth_error (g_ops g) i = Some o ->
  if oi_fwd o then eval itp g i = Ok (oi_vals o) else oi_vals o = map blank (oi_vals o).

Lemma gwf_extends g g' : gwf g -> extends g g' -> extends g' g -> gwf g'.
Proof.
  intros W X Y. constructor.
  - intros i o n Ho Hn. destruct (Y _ _ Ho) as (o1 & Ho1 & S1). pose proof S1 as (E1 & E2 & E3 & E4 & E5). rewrite E2 in Hn.
    destruct (gwf_args W Ho1 Hn) as (A & p & Hp & B & C). split; auto.
    destruct (X _ _ Hp) as (p' & Hp' & S'). exists p'. split; auto. rewrite <- (blank_len S'). split; auto. destruct S' as (_&_&_&_&<-). lia.
  - intros i o Ho. destruct (Y _ _ Ho) as (o1 & Ho1 & S1). rewrite (blank_len S1). destruct S1 as (_&_&_&->&_). eapply gwf_len; eauto.
Qed.

Lemma set_op_extends (g : graph) i o o' log : nth_error (g_ops g) i = Some o -> same_skel o o' ->
  extends g (mkGraph (lset (g_ops g) i o') log) /\ extends (mkGraph (lset (g_ops g) i o') log) g.
Proof.
  intros Ho S. pose proof (nth_error_Some_lt Ho) as L. split; intros j p Hp; cbn [g_ops] in * .
  - rewrite nth_error_lset by auto. destruct (Nat.eqb_spec j i) as [->|n]; [|exists p; split; auto; apply same_skel_refl].
    exists o'. split; auto. replace p with o by congruence. auto.
  - rewrite nth_error_lset in Hp by auto. destruct (Nat.eqb_spec j i) as [->|n]; [|exists p; split; auto; apply same_skel_refl].
    exists o. split; auto. inversion Hp; subst. apply same_skel_sym; auto.
Qed.

(** one step *)
Definition mark (o : opinfo) : opinfo := mkOpinfo (oi_op o) (oi_args o) (oi_vals o) (oi_grads o) (oi_own o) true (oi_depth o).
Definition fill (o : opinfo) (ys : list tensor) : opinfo := mkOpinfo (oi_op o) (oi_args o) ys (oi_grads o) (oi_own o) true (oi_depth o).
Lemma lset_lset A (l : list A) i x y : lset (lset l i x) i y = lset l i y.
Proof. revert i. induction l as [|a l IH]; intros [|i]; simpl; auto. rewrite IH. auto. Qed.

Lemma value_mark (g : graph) i o log n : nth_error (g_ops g) i = Some o ->
  value_of (mkGraph (lset (g_ops g) i (mark o)) log) n = value_of g n.
Proof.
  intros Ho. unfold value_of; cbn [g_ops]. unfold idx. rewrite nth_error_lset by (eapply nth_error_Some_lt; eauto).
  destruct (Nat.eqb_spec (fst n) i) as [->|]; [|reflexivity]. rewrite Ho. reflexivity.
Qed.

Lemma step_fw_cases (g : graph) i o : nth_error (g_ops g) i = Some o ->
  step_fw itp g i =
  if oi_fwd o then (g, Ok tt) else
  match xs <- mapM (value_of g) (oi_args o) ;; op_forward (itp (oi_op o)) xs (oi_vals o) with
  | Ok ys => (mkGraph (lset (g_ops g) i (fill o ys)) (g_log g ++ [i]), Ok tt)
  | Panic => (mkGraph (lset (g_ops g) i (mark o)) (g_log g ++ [i]), Panic)
  | UB => (mkGraph (lset (g_ops g) i (mark o)) (g_log g ++ [i]), UB)
  end.
Proof.
  intros Ho. unfold step_fw. rewrite Ho. destruct (oi_fwd o); [reflexivity|].
  change (mkOpinfo (oi_op o) (oi_args o) (oi_vals o) (oi_grads o) (oi_own o) true (oi_depth o)) with (mark o).
  cbv zeta. rewrite (mapM_ext (value_of (mkGraph (lset (g_ops g) i (mark o)) (g_log g ++ [i]))) (value_of g)) by (intros; apply value_mark; auto).
  destruct (' xs <- mapM (value_of g) (oi_args o);; op_forward (itp (oi_op o)) xs (oi_vals o)); auto.
  unfold set_op; cbn [g_ops g_log]. rewrite lset_lset. reflexivity.
Qed.

(** the calls of Operator::forward are exactly those of the marked operators *)
Definition logged (g : graph) : Prop := NoDup (g_log g) /\ forall i, In i (g_log g) <-> exists o, nth_error (g_ops g) i = Some o /\ oi_fwd o = true.

Lemma logged_set (g : graph) i o o' : logged g -> nth_error (g_ops g) i = Some o -> oi_fwd o = false -> oi_fwd o' = true ->
  logged (mkGraph (lset (g_ops g) i o') (g_log g ++ [i])).
Proof.
  intros (N & H) Ho E E'. pose proof (nth_error_Some_lt Ho) as L.
  assert (Hi : ~ In i (g_log g)). { intros Hi. apply H in Hi. destruct Hi as (p & Hp & Ep). congruence. }
  split; cbn [g_log g_ops].
  - apply NoDup_rev in N. rewrite <- (rev_involutive (g_log g ++ [i])). apply NoDup_rev. rewrite rev_app_distr. simpl. constructor; auto. rewrite <- in_rev. auto.
  - intros j. rewrite in_app_iff, H. simpl. rewrite nth_error_lset by auto. destruct (Nat.eqb_spec j i) as [->|n].
    + split; [intros _; eauto|]. intros _. auto.
    + split; [intros [A|[->|[]]]; [auto|congruence]|auto].
Qed.

(** every history keeps the arena well formed and the log exact *)
Lemma step_fw_inv g i g' r : gwf g -> logged g -> step_fw itp g i = (g', r) -> gwf g' /\ logged g' /\ extends g g' /\ extends g' g.
Proof.
  intros W Lg E. destruct (nth_error (g_ops g) i) as [o|] eqn:Ho.
  - rewrite (step_fw_cases Ho) in E. destruct (oi_fwd o) eqn:Ef; [inversion E; subst; auto using extends_refl|].
    assert (EM : same_skel o (mark o)) by (repeat split).
    assert (G1 : forall o', same_skel o o' -> oi_fwd o' = true -> let g1 := mkGraph (lset (g_ops g) i o') (g_log g ++ [i]) in gwf g1 /\ logged g1 /\ extends g g1 /\ extends g1 g).
    { intros o' S' F'. destruct (set_op_extends (g_log g ++ [i]) Ho S') as (X & Y). cbv zeta. split; [eapply gwf_extends; eauto|]. split; auto.
      eapply logged_set; eauto. }
    destruct (xs <- mapM (value_of g) (oi_args o) ;; op_forward (itp (oi_op o)) xs (oi_vals o)) as [ys| |] eqn:Ey; inversion E; subst; try (apply G1; auto).
    repeat split; cbn. inv_ok. match goal with H : op_forward _ _ _ = Ok _ |- _ => apply HL in H; auto end.
  - unfold step_fw in E. rewrite Ho in E. inversion E; subst; auto using extends_refl.
Qed.
Lemma run_fw_inv order : forall g g' r, gwf g -> logged g -> run_fw itp g order = (g', r) -> gwf g' /\ logged g' /\ extends g g' /\ extends g' g.
Proof.
  induction order as [|i order IH]; intros g g' r W Lg E; simpl in E; [inversion E; subst; auto using extends_refl|].
  destruct (step_fw itp g i) as [g1 [u| |]] eqn:E1; pose proof (step_fw_inv W Lg E1) as (W1 & L1 & X1 & Y1); try (inversion E; subst; auto; fail).
  destruct (IH _ _ _ W1 L1 E) as (W2 & L2 & X2 & Y2). ssplit; auto; eapply extends_trans; eauto.
Qed.

Lemma Forall2_nth A B (P : A -> B -> Prop) l l' : Forall2 P l l' -> forall i x, nth_error l i = Some x -> exists y, nth_error l' i = Some y /\ P x y.
Proof. induction 1; intros [|i] z E; simpl in *; try discriminate; [inversion E; subst; eauto|eauto]. Qed.
Lemma Forall2_nth' A B (P : A -> B -> Prop) l l' : Forall2 P l l' -> forall i y, nth_error l' i = Some y -> exists x, nth_error l i = Some x /\ P x y.
Proof. induction 1; intros [|i] z E; simpl in *; try discriminate; [inversion E; subst; eauto|eauto]. Qed.

Lemma grads_extends (g g' : graph) : grads_changed g g' -> extends g g' /\ extends g' g.
Proof.
  intros (_ & H). split; intros i o Ho.
  - destruct (Forall2_nth H Ho) as (o' & Ho' & S). exists o'; split; auto. destruct S as (?&?&?&?&?&?&?). repeat split; try congruence.
  - destruct (Forall2_nth' H Ho) as (o' & Ho' & S). exists o'; split; auto. destruct S as (?&?&?&?&?&?&?). repeat split; try congruence.
Qed.

Lemma history_inv g : history itp g -> gwf g /\ logged g.
Proof.
  induction 1 as [|g op own xs g' ns H (W & Lg) E|g pop root g' r H (W & Lg) HP L E|g g' H (W & Lg) HG].
  - split; [constructor; intros [|i]; discriminate|]. split; [constructor|]. intros i; simpl. split; [intros []|]. intros (o & Ho & _). destruct i; discriminate.
  - split; [eapply create_gwf; eauto|]. apply create_inv in E. destruct E as (ss & rs & vals & grads & ds & _ & _ & _ & _ & _ & _ & _ & _ & -> & _).
    destruct Lg as (N & HI). split; auto. cbn [g_log g_ops]. intros i. rewrite HI. split; intros (o & Ho & Ef).
    + exists o. split; auto. rewrite nth_error_app1; auto. eapply nth_error_Some_lt; eauto.
    + destruct (Nat.lt_ge_cases i (length (g_ops g))) as [L|L]; [rewrite nth_error_app1 in Ho by auto; eauto|].
      rewrite nth_error_app2 in Ho by auto. destruct (i - length (g_ops g)) as [|k]; cbn in Ho; [inversion Ho; subst; discriminate|destruct k; discriminate].
  - destruct (run_fw_inv W Lg E) as (W' & L' & _). auto.
  - destruct (grads_extends HG) as (X & Y). split; [eapply gwf_extends; eauto|]. destruct HG as (EL & HF). destruct Lg as (N & HI). rewrite <- EL in N. split; auto.
    intros i. rewrite EL, HI. split; intros (o & Ho & Ef).
    + destruct (Forall2_nth HF Ho) as (o' & Ho' & S). exists o'. split; auto. destruct S as (?&?&?&?&?&?&?). congruence.
    + destruct (Forall2_nth' HF Ho) as (o' & Ho' & S). exists o'. split; auto. destruct S as (?&?&?&?&?&?&?). congruence.
Qed.

(** ** The forward pass computes the meaning of the graph *)
Definition fwd_in (g : graph) (i : nat) : Prop := exists o, nth_error (g_ops g) i = Some o /\ oi_fwd o = true.

Lemma sound_value g n : gwf g -> sound g -> fwd_in g (fst n) -> value_of g n = eval_node itp g n.
Proof.
  intros W S (o & Ho & Ef). pose proof (S _ _ Ho) as H. rewrite Ef in H. unfold value_of, eval_node. rewrite (idx_nth Ho), H. reflexivity.
Qed.

Lemma step_fw_sound g i o : gwf g -> sound g -> nth_error (g_ops g) i = Some o ->
  (forall n, In n (oi_args o) -> fwd_in g (fst n)) ->
  match eval itp g i with
  | Ok ys => exists g', step_fw itp g i = (g', Ok tt) /\ sound g' /\ fwd_in g' i /\ (forall j, fwd_in g j -> fwd_in g' j) /\
       (forall j, j <> i -> nth_error (g_ops g') j = nth_error (g_ops g) j) /\ g_log g' = g_log g ++ (if oi_fwd o then [] else [i])
  | Panic => snd (step_fw itp g i) = Panic
  | UB => snd (step_fw itp g i) = UB
  end.
Proof.
  intros W S Ho HA. rewrite (step_fw_cases Ho). pose proof (S _ _ Ho) as Si. destruct (oi_fwd o) eqn:Ef.
  - rewrite Si. exists g. ssplit; auto; [exists o; auto|rewrite app_nil_r; auto].
  - assert (EX : mapM (value_of g) (oi_args o) = mapM (eval_node itp g) (oi_args o)).
    { apply mapM_ext. intros n Hn. apply sound_value; auto. }
    assert (EE : eval itp g i = (xs <- mapM (value_of g) (oi_args o) ;; op_forward (itp (oi_op o)) xs (oi_vals o))).
    { rewrite (eval_eq W Ho), EX, Si. rewrite map_map. unfold blank at 3. cbn. reflexivity. }
    rewrite <- EE. destruct (eval itp g i) as [ys| |] eqn:Ev; [|reflexivity|reflexivity].
    pose proof (nth_error_Some_lt Ho) as L.
    assert (SK : same_skel o (fill o ys)).
    { repeat split; cbn. symmetry in EE. inv_ok. match goal with H : op_forward _ _ _ = Ok _ |- _ => apply HL in H; auto end. }
    destruct (set_op_extends (g_log g ++ [i]) Ho SK) as (X & Y).
    eexists. ssplit; [reflexivity| | | | |reflexivity].
    + intros j p Hp. assert (Lj : j < length (g_ops g)). { cbn [g_ops] in Hp. apply nth_error_Some_lt in Hp. rewrite lset_length in Hp. auto. }
      rewrite (eval_extends W X Lj). cbn [g_ops] in Hp. rewrite nth_error_lset in Hp by auto.
      destruct (Nat.eqb_spec j i) as [->|n]; [inversion Hp; subst; cbn; auto|apply S; auto].
    + exists (fill o ys). cbn [g_ops]. rewrite nth_error_lset, Nat.eqb_refl; auto.
    + intros j (p & Hp & Ep). cbn. unfold fwd_in. cbn [g_ops]. rewrite nth_error_lset by auto. destruct (Nat.eqb_spec j i) as [->|n]; eauto.
    + intros j Hj. cbn [g_ops]. rewrite nth_error_lset by auto. destruct (Nat.eqb_spec j i); [congruence|auto].
Qed.

Lemma run_fw_sound order : forall g, gwf g -> sound g -> logged g ->
  (forall i, In i order -> i < length (g_ops g)) ->
  StronglySorted (fun a b => depth0 g a <= depth0 g b) order ->
  (forall i o n, In i order -> nth_error (g_ops g) i = Some o -> In n (oi_args o) -> fwd_in g (fst n) \/ In (fst n) order) ->
  forall g' r, run_fw itp g order = (g', r) ->
  (r = Ok tt <-> forall i, In i order -> exists ys, eval itp g i = Ok ys) /\
  (r = Ok tt -> sound g' /\ (forall i, In i order -> fwd_in g' i) /\ (forall i, fwd_in g i -> fwd_in g' i) /\
     (forall j, ~ In j order -> nth_error (g_ops g') j = nth_error (g_ops g) j)).
Proof.
  induction order as [|i order IH]; intros g W S Lg HB HS HC g' r E.
  - simpl in E. inversion E; subst. split; [split; [intros _ ? []|auto]|]. intros _. ssplit; auto. intros ? [].
  - simpl in E. assert (Li : i < length (g_ops g)) by (apply HB; left; auto).
    destruct (nth_error (g_ops g) i) as [o|] eqn:Ho; [|apply nth_error_None in Ho; lia].
    apply StronglySorted_inv in HS. destruct HS as (HS & HF).
    assert (HA : forall n, In n (oi_args o) -> fwd_in g (fst n)).
    { intros n Hn. destruct (HC i o n) as [A|A]; auto; [left; auto|]. exfalso.
      destruct (gwf_args W Ho Hn) as (A1 & p & Hp & _ & D).
      assert (D' : depth0 g (fst n) < depth0 g i) by (unfold depth0; rewrite Hp, Ho; auto).
      destruct A as [A|A]; [lia|]. rewrite Forall_forall in HF. specialize (HF _ A). lia. }
    pose proof (step_fw_sound W S Ho HA) as St.
    destruct (step_fw itp g i) as [g1 r1] eqn:E1. pose proof (step_fw_inv W Lg E1) as (W1 & L1 & X1 & Y1).
    destruct (eval itp g i) as [ys| |] eqn:Ev.
    + destruct St as (g2 & E2 & S2 & F2 & P2 & N2 & _). inversion E2; subst g2 r1.
      assert (LEN : forall j, j < length (g_ops g) -> j < length (g_ops g1)).
      { intros j Hj. destruct (nth_error (g_ops g) j) as [p|] eqn:Hp; [|apply nth_error_None in Hp; lia]. destruct (X1 _ _ Hp) as (p' & Hp' & _). eapply nth_error_Some_lt; eauto. }
      assert (DEP : forall j, j < length (g_ops g) -> depth0 g1 j = depth0 g j).
      { intros j Hj. unfold depth0. destruct (nth_error (g_ops g) j) as [p|] eqn:Hp; [|apply nth_error_None in Hp; lia]. destruct (X1 _ _ Hp) as (p' & Hp' & _&_&_&_&D). rewrite Hp'. auto. }
      assert (HB' : forall j, In j order -> j < length (g_ops g)) by (intros; apply HB; right; auto).
      assert (SS : StronglySorted (fun a b => depth0 g1 a <= depth0 g1 b) order).
      { clear -HS DEP HB'. induction HS as [|a l HS IH HF]; constructor; [apply IH; intros; apply HB'; right; auto|].
        rewrite Forall_forall in * . intros x Hx. rewrite !DEP; auto; apply HB'; simpl; auto. }
      destruct (IH g1 W1 S2 L1) with (g' := g') (r := r) as (I1 & I2); auto.
      { intros j p n Hj Hp Hn. destruct (Y1 _ _ Hp) as (p' & Hp' & _ & EA & _). rewrite EA in Hn.
        destruct (HC j p' n) as [A|[A|A]]; auto; [right; auto|]. left. rewrite <- A. auto. }
      assert (EV : forall j, In j order -> eval itp g1 j = eval itp g j).
      { intros j Hj. apply eval_extends; auto. }
      split.
      * rewrite I1. split.
        -- intros H j [<-|Hj]; [eauto|]. rewrite <- EV by auto. auto.
        -- intros H j Hj. rewrite EV by auto. apply H. right; auto.
      * intros Hr. destruct (I2 Hr) as (A & B & C & D). ssplit; auto.
        -- intros j [<-|Hj]; auto.
        -- intros j Hj. simpl in Hj. rewrite D, N2; auto.
    + cbn in St. subst r1. inversion E; subst. split; [|discriminate]. split; [discriminate|].
      intros H. destruct (H i) as (ys & Hys); [left; auto|]. congruence.
    + cbn in St. subst r1. inversion E; subst. split; [|discriminate]. split; [discriminate|].
      intros H. destruct (H i) as (ys & Hys); [left; auto|]. congruence.
Qed.

Lemma eval_uses g i j : gwf g -> uses g i j -> (exists ys, eval itp g i = Ok ys) -> exists ys, eval itp g j = Ok ys.
Proof.
  intros W H. induction H as [|i o n j Ho Hn Hu IH]; auto. intros (ys & E). apply IH.
  rewrite (eval_eq W Ho) in E. inv_ok. match goal with H : mapM _ _ = Ok _ |- _ => destruct (mapM_in H Hn) as (y & Ey) end.
  unfold eval_node in Ey. inv_ok. eauto.
Qed.

(** forward succeeds iff the meaning is defined, and then every operator the root
    uses holds its meaning; nothing else is touched *)
Theorem forward_spec g pop root g' r : gwf g -> sound g -> logged g -> min_heap pop -> root < length (g_ops g) ->
  forward itp pop g root = (g', r) ->
  (r = Ok tt <-> exists ys, eval itp g root = Ok ys) /\
  (r = Ok tt -> sound g' /\ gwf g' /\ logged g' /\ extends g g' /\ extends g' g /\
     (forall i, uses g root i -> fwd_in g' i) /\ (forall i, fwd_in g i -> fwd_in g' i) /\
     (forall j, ~ uses g root j -> nth_error (g_ops g') j = nth_error (g_ops g) j)).
Proof.
  intros W S Lg HP L E. unfold forward in E. destruct (requests_spec W L) as (ND & HR).
  destruct (HP (depth0 g) (requests g root)) as (PM & SO). set (order := pop (depth0 g) (requests g root)) in * .
  assert (IN : forall i, In i order <-> uses g root i).
  { intros i. rewrite <- HR. split; apply Permutation_in; [symmetry|]; auto. }
  apply StronglySorted_of in SO; [|intros; lia].
  destruct (run_fw_inv W Lg E) as (W' & L' & X & Y).
  destruct (@run_fw_sound order g W S Lg) with (g' := g') (r := r) as (I1 & I2); auto.
  - intros i Hi. apply IN in Hi. apply (uses_lt W Hi L).
  - intros i o n Hi Ho Hn. right. apply IN. apply IN in Hi. eapply uses_trans; eauto. eapply uses_step; eauto. constructor.
  - split.
    + rewrite I1. split; [intros H; apply H, IN; constructor|]. intros H i Hi. apply IN in Hi. eapply eval_uses; eauto.
    + intros Hr. destruct (I2 Hr) as (A & B & C & D). ssplit; auto; intros i Hi; [apply B, IN; auto|]. apply D. rewrite IN. auto.
Qed.

Lemma extends_create g op own xs g' ns : create itp g op own xs = Ok (g', ns) -> extends g g'.
Proof.
  intros E. apply create_inv in E. destruct E as (ss & rs & vals & grads & ds & _ & _ & _ & _ & _ & _ & _ & _ & -> & _).
  intros i o Ho. exists o. cbn. rewrite nth_error_app1 by (eapply nth_error_Some_lt; eauto). split; auto. apply same_skel_refl.
Qed.

Lemma clean_inv g : clean itp g -> gwf g /\ logged g /\ sound g.
Proof.
  induction 1 as [|g op own xs g' ns H (W & Lg & S) E|g pop root g' H (W & Lg & S) HP L E|g g' H (W & Lg & S) HG].
  - destruct (history_inv (h_empty _)). ssplit; auto. intros [|i]; discriminate.
  - pose proof (extends_create E) as X. assert (W' : gwf g') by (eapply create_gwf; eauto). split; [auto|].
    apply create_inv in E. destruct E as (ss & rs & vals & grads & ds & _ & _ & _ & _ & _ & EB & _ & _ & -> & _). split.
    + destruct Lg as (N & HI). split; auto. cbn [g_log g_ops]. intros i. rewrite HI. split; intros (o & Ho & Ef).
      * exists o. split; auto. rewrite nth_error_app1; auto. eapply nth_error_Some_lt; eauto.
      * destruct (Nat.lt_ge_cases i (length (g_ops g))) as [L|L]; [rewrite nth_error_app1 in Ho by auto; eauto|].
        rewrite nth_error_app2 in Ho by auto. destruct (i - length (g_ops g)) as [|k]; cbn in Ho; [inversion Ho; subst; discriminate|destruct k; discriminate].
    + intros i o Ho. cbn [g_ops] in Ho. destruct (Nat.lt_ge_cases i (length (g_ops g))) as [L|L].
      * rewrite (eval_extends W X L). rewrite nth_error_app1 in Ho by auto. apply S; auto.
      * rewrite nth_error_app2 in Ho by auto. destruct (i - length (g_ops g)) as [|k]; cbn in Ho; [inversion Ho; subst; cbn; auto|destruct k; discriminate].
  - destruct (forward_spec W S Lg HP L E) as (_ & I). destruct (I eq_refl) as (A & B & C & _). auto.
  - destruct (grads_extends HG) as (X & Y). pose proof (gwf_extends W X Y) as W'. split; [exact W'|]. pose proof HG as (EL & HF). destruct Lg as (N & HI). split.
    + rewrite <- EL in N. split; auto. intros i. rewrite EL, HI. split; intros (o & Ho & Ef).
      * destruct (Forall2_nth HF Ho) as (o' & Ho' & SS). exists o'. split; auto. destruct SS as (?&?&?&?&?&?&?). congruence.
      * destruct (Forall2_nth' HF Ho) as (o' & Ho' & SS). exists o'. split; auto. destruct SS as (?&?&?&?&?&?&?). congruence.
    + intros i o' Ho'. destruct (Forall2_nth' HF Ho') as (o & Ho & SS). destruct SS as (?&?&EV&?&?&EF&?).
      rewrite (eval_extends W X) by (eapply nth_error_Some_lt; eauto). rewrite <- EF, <- EV. apply S; auto.
Qed.
End GraphFw.
