(** * GraphTie: when a backward pass succeeds, and independence of the tie order *)
From Verif Require Export GraphMore.
Set Implicit Arguments. Unset Strict Implicit.

Section GraphTie.
Variable K : num.
Notation tensor := (tensor K).
Variable m : build.
Variable Oper : Type.
Variable itp : Oper -> operator K.
Notation graph := (graph K Oper).
Notation opinfo := (opinfo K Oper).
Notation node := (nat * nat)%type.
Notation update := (update K).
Notation touch := (@touch K m).
Notation start := (@start K m).
Hypothesis HBW : forall op, lawful_bw (itp op).

Lemma ensure_ok gal args : forall g : graph, (forall n, In n args -> exists t t', grad_of g n = Ok t /\ touch gal n t = Ok t') ->
  exists g1, forL args (ensure_grad m gal) g = Ok g1.
Proof.
  induction args as [|a args IH]; intros g H; simpl; [eauto|].
  destruct (H a (or_introl eq_refl)) as (t & t' & Hg & Ht). unfold ensure_grad at 1. rewrite Hg. cbn [bind].
  unfold GraphBw.touch in Ht. destruct (valid t) eqn:V; cbn [bind].
  - apply IH. intros n Hn. apply H. right; auto.
  - inv_ok. rewrite H0. cbn [bind]. rewrite H1. cbn [bind]. destruct (set_grad_spec t' Hg) as (S1 & S2 & S3).
    apply IH. intros n Hn. rewrite S2. destruct (node_eqb_spec a n) as [->|Ne].
    + exists t', t'. split; auto. apply touch_id. unfold reset in H1. pose proof (@reset_valid K m _ _ _ H1). tauto.
    + apply H. right; auto.
Qed.

Lemma updates_ok i args us : forall g : graph,
  (forall u k, In u us -> fst u = Arg k -> exists n t, nth_error args k = Some n /\ grad_of g n = Ok t) ->
  (forall n t, grad_of g n = Ok t -> exists t', apply_all (sent args us n) t = Ok t') ->
  (own_of g i = None -> sent_own us = []) ->
  (forall t, own_of g i = Some t -> exists t', apply_all (sent_own us) t = Ok t') ->
  exists g1, forL us (apply_update i args) g = Ok g1.
Proof.
  induction us as [|u us IH]; intros g HA HS HN HO; simpl; [eauto|].
  unfold apply_update at 1. destruct u as [[k|] f]; cbn [fst snd].
  - destruct (HA (Arg k, f) k (or_introl eq_refl) eq_refl) as (n & t & Hk & Hg). rewrite (idx_nth Hk). cbn [bind]. rewrite Hg. cbn [bind].
    destruct (HS _ _ Hg) as (t2 & E2). unfold sent in E2; cbn [flat_map fst snd] in E2. rewrite Hk in E2. destruct (node_eqb_spec n n) as [_|]; [|congruence].
    rewrite apply_all_app in E2. apply bind_Ok in E2. destruct E2 as (t1 & E1 & E2). cbn in E1. apply bind_Ok in E1. destruct E1 as (t1' & E1 & E1'). inv_ok. rewrite E1. cbn [bind].
    destruct (set_grad_spec t1 Hg) as (S1 & S2 & S3). apply IH.
    + intros u k' Hu Ek. destruct (HA u k' (or_intror Hu) Ek) as (n' & t' & H1 & H2). exists n'. rewrite S2. destruct (node_eqb n n'); eauto.
    + intros n' t' Hn'. rewrite S2 in Hn'. destruct (node_eqb_spec n n') as [<-|Ne].
      * inversion Hn'; subst. exists t2. exact E2.
      * destruct (HS _ _ Hn') as (t3 & E3). exists t3. unfold sent in E3; cbn [flat_map fst snd] in E3. rewrite Hk in E3. destruct (node_eqb_spec n n'); [congruence|]. exact E3.
    + rewrite S3. intros HH. specialize (HN HH). cbn in HN. exact HN.
    + rewrite S3. intros t' HH. specialize (HO _ HH). cbn in HO. exact HO.
  - destruct (own_of g i) as [t|] eqn:Eo; [|specialize (HN eq_refl); discriminate].
    assert (EI : exists o, nth_error (g_ops g) i = Some o /\ oi_own o = Some t).
    { unfold own_of in Eo. destruct (nth_error (g_ops g) i) as [o|]; [eauto|discriminate]. }
    destruct EI as (o & Ho & Eo'). rewrite (idx_nth Ho). cbn [bind]. rewrite Eo'. cbn [unwrap bind].
    destruct (HO _ eq_refl) as (t2 & E2). cbn in E2. apply bind_Ok in E2. destruct E2 as (t1 & E1 & E2). rewrite E1. cbn [bind].
    destruct (set_own_spec t1 Eo) as (S1 & S2 & S3). apply IH.
    + intros u k' Hu Ek. destruct (HA u k' (or_intror Hu) Ek) as (n' & t' & H1 & H2). exists n', t'. rewrite S2. auto.
    + intros n' t' Hn'. rewrite S2 in Hn'. apply (HS _ _ Hn').
    + rewrite S3, Nat.eqb_refl. discriminate.
    + rewrite S3, Nat.eqb_refl. intros t' HH. inversion HH; subst. eauto.
Qed.

(** the data of a successful pass over [order]: the updates every operator asks for
    and the final gradients *)
Definition plan (gal : grad_alloc K) (g : graph) (order : list nat) (us : nat -> list update) (fin : node -> tensor) : Prop :=
  (forall i, In i order -> exists o xs gs, nth_error (g_ops g) i = Some o /\ mapM (value_of g) (oi_args o) = Ok xs /\
      length gs = length (oi_grads o) /\ (forall v t, nth_error gs v = Some t -> t = fin (i, v)) /\
      op_backward (itp (oi_op o)) xs (oi_vals o) gs = Ok (us i) /\
      (forall u k, In u (us i) -> fst u = Arg k -> k < length (oi_args o)) /\
      (own_of g i = None -> sent_own (us i) = []) /\
      (forall t, own_of g i = Some t -> exists t', apply_all (sent_own (us i)) t = Ok t')) /\
  (forall n t, grad_of g n = Ok t -> exists t0, start gal (is_arg g order n) n t = Ok t0 /\ apply_all (received g us order n) t0 = Ok (fin n)).

Lemma gwf_grad (g : graph) i o n : gwf g -> nth_error (g_ops g) i = Some o -> In n (oi_args o) -> exists t, grad_of g n = Ok t.
Proof.
  intros W Ho Hn. destruct (gwf_args W Ho Hn) as (_ & p & Hp & L & _). rewrite <- (gwf_len W Hp) in L. apply nth_error_Some in L.
  destruct (nth_error (oi_grads p) (snd n)) as [t|] eqn:E; [|congruence]. exists t. eapply grad_of_Ok; eauto.
Qed.

Lemma run_bw_complete gal us fin order : forall g : graph, gwf g -> NoDup order -> (forall i, In i order -> i < length (g_ops g)) ->
  StronglySorted (fun a b => depth0 g b <= depth0 g a) order -> plan gal g order us fin ->
  exists g', forL order (fun i g => step_bw m itp gal g i) g = Ok g' /\ (forall n t, grad_of g n = Ok t -> grad_of g' n = Ok (fin n)) /\
    (forall i, ~ In i order -> own_of g' i = own_of g i) /\
    (forall i, In i order -> own_of g i = None -> own_of g' i = None) /\
    (forall i t, In i order -> own_of g i = Some t -> exists t', apply_all (sent_own (us i)) t = Ok t' /\ own_of g' i = Some t').
Proof.
  induction order as [|i order IH]; intros g W ND HB HS (P1 & P2); simpl.
  - exists g. ssplit; auto; try (intros; contradiction). intros n t Hn. destruct (P2 _ _ Hn) as (t0 & E1 & E2). cbn in E1, E2. inv_ok. congruence.
  - apply StronglySorted_inv in HS. destruct HS as (HS & HF). inversion ND; subst. rename H1 into NI. rename H2 into ND'.
    destruct (P1 i (or_introl eq_refl)) as (o & xs & gs & Ho & Hxs & Lgs & Hgs & Hbw & Hk & HN & HO).
    assert (ARGS : args_of g i = oi_args o) by (unfold args_of; rewrite Ho; auto).
    unfold step_bw at 1. rewrite (idx_nth Ho). cbn [bind]. rewrite Hxs. cbn [bind].
    assert (NOARG : forall j v, In j (i :: order) -> ~ In (i, v) (args_of g j)).
    { intros j v Hj HI. unfold args_of in HI. destruct (nth_error (g_ops g) j) as [p|] eqn:Hp; [|destruct HI].
      destruct (gwf_args W Hp HI) as (L & p' & Hp' & _ & D). cbn [fst] in * .
      destruct Hj as [<-|Hj]; [lia|]. rewrite Forall_forall in HF. specialize (HF _ Hj). unfold depth0 in HF. rewrite Hp, Ho in HF. replace p' with o in D by congruence. lia. }
    assert (NA : forall v, is_arg g (i :: order) (i, v) = false).
    { intros v. destruct (is_arg g (i :: order) (i, v)) eqn:EX; auto. unfold is_arg in EX. apply existsb_exists in EX. destruct EX as (j & Hj & EX). apply existsb_node in EX. exfalso. apply (NOARG j v Hj EX). }
    (* the gradients of i are final *)
    assert (GS : oi_grads o = gs).
    { apply nth_ext_error. intros v. destruct (nth_error (oi_grads o) v) as [t|] eqn:Et.
      - assert (Hg : grad_of g (i, v) = Ok t) by (eapply grad_of_Ok; eauto). destruct (P2 _ _ Hg) as (t0 & E1 & E2). rewrite NA in E1. cbn in E1. inv_ok.
        rewrite (received_not_arg _ (NA v)) in E2. cbn in E2. inv_ok. pose proof (nth_error_Some_lt Et) as L. rewrite <- Lgs in L. apply nth_error_Some in L.
        destruct (nth_error gs v) as [t'|] eqn:Eg; [|congruence]. rewrite (Hgs _ _ Eg). congruence.
      - symmetry. apply nth_error_None. rewrite Lgs. apply nth_error_None; auto. }
    destruct (@ensure_ok gal (oi_args o) g) as (ge & Ege).
    { intros n Hn. destruct (gwf_grad W Ho Hn) as (t & Ht). destruct (P2 _ _ Ht) as (t0 & E1 & _). exists t, t0. split; auto.
      rewrite is_arg_cons, ARGS in E1. replace (existsb (node_eqb n) (oi_args o)) with true in E1 by (symmetry; apply existsb_node; auto). exact E1. }
    rewrite Ege. cbn [bind]. rewrite GS, Hbw. cbn [bind]. destruct (ensure_spec Ege) as (Ge & Oe & He).
    assert (We : gwf ge) by (eapply grads_gwf; eauto).
    assert (RCV : forall n, received g us (i :: order) n = sent (oi_args o) (us i) n ++ received g us order n).
    { intros n. cbn. rewrite ARGS. reflexivity. }
    (* every gradient before and after the updates of i *)
    assert (PRE : forall n t, grad_of ge n = Ok t -> exists t1, apply_all (sent (oi_args o) (us i) n) t = Ok t1 /\
        exists t2, start gal (is_arg g order n) n t1 = Ok t2 /\ apply_all (received g us order n) t2 = Ok (fin n)).
    { intros n te Hne. assert (exists t, grad_of g n = Ok t) as (t & Hn).
      { destruct (grad_of_inv Hne) as (p & Hp & Hv). destruct Ge as (_ & F1). destruct (Forall2_nth' F1 Hp) as (q & Hq & _&_&_&LL&_).
        pose proof (nth_error_Some_lt Hv) as L. rewrite <- LL in L. apply nth_error_Some in L. destruct (nth_error (oi_grads q) (snd n)) as [t|] eqn:E; [|congruence]. exists t. eapply grad_of_Ok; eauto. }
      destruct (He _ _ Hn) as (t' & S1 & S2). replace t' with te in S1 by congruence. destruct (P2 _ _ Hn) as (t0 & E1 & E2). rewrite is_arg_cons, ARGS in E1. rewrite RCV, apply_all_app in E2.
      apply bind_Ok in E2. destruct E2 as (t1 & E2 & E3). destruct (existsb (node_eqb n) (oi_args o)) eqn:EX; cbn [orb] in E1.
      - cbn [GraphBw.start] in S1, E1. replace t0 with te in * by congruence. exists t1. split; auto. exists t1. split; auto.
        unfold GraphBw.start. destruct (is_arg g order n); auto. apply touch_id. eapply apply_all_valid; [|exact E2|eapply touch_valid; eauto].
        intros f Hf. apply sent_In in Hf. destruct Hf as (u & Hu & <-). eapply HBW; eauto.
      - cbn [GraphBw.start] in S1. inv_ok. rewrite sent_not_arg in * by (rewrite <- existsb_node; congruence). cbn in E2. inv_ok. eexists. split; [reflexivity|]. eexists. split; [exact E1|exact E3]. }
    destruct (@updates_ok i (oi_args o) (us i) ge) as (g1 & Eg1).
    { intros u k Hu Ek. specialize (Hk u k Hu Ek). apply nth_error_Some in Hk. destruct (nth_error (oi_args o) k) as [n|] eqn:E; [|congruence].
      destruct (grads_nth Ge Ho) as (o' & Ho' & SS). destruct SS as (_&EA&_). destruct (@gwf_grad ge i o' n We Ho') as (t & Ht); [rewrite <- EA; eapply nth_error_In; eauto|]. eauto. }
    { intros n t Hn. destruct (PRE _ _ Hn) as (t1 & E1 & _). eauto. }
    { rewrite Oe. auto. }
    { intros t. rewrite Oe. auto. }
    destruct (updates_spec Eg1) as (Gu & Hu & Ou & OuN & OuS).
    assert (G1 : grads_changed g g1) by (eapply grads_trans; eauto).
    assert (W1 : gwf g1) by (eapply grads_gwf; eauto).
    assert (LEN : length (g_ops g1) = length (g_ops g)) by (destruct G1 as (_ & HH); symmetry; eapply Forall2_len; eauto).
    assert (HS1 : StronglySorted (fun a b => depth0 g1 b <= depth0 g1 a) order).
    { clear -HS G1. induction HS as [|a l HS IH HF]; constructor; auto. rewrite Forall_forall in * . intros x Hx. rewrite !(grads_depth _ G1). auto. }
    assert (BACK : forall n t, grad_of g1 n = Ok t -> exists te, grad_of ge n = Ok te /\ apply_all (sent (oi_args o) (us i) n) te = Ok t).
    { intros n t Hn. assert (exists te, grad_of ge n = Ok te) as (te & Hne).
      { destruct (grad_of_inv Hn) as (p & Hp & Hv). destruct Gu as (_ & F1). destruct (Forall2_nth' F1 Hp) as (q & Hq & _&_&_&LL&_).
        pose proof (nth_error_Some_lt Hv) as L. rewrite <- LL in L. apply nth_error_Some in L. destruct (nth_error (oi_grads q) (snd n)) as [te|] eqn:E; [|congruence]. exists te. eapply grad_of_Ok; eauto. }
      exists te. split; auto. destruct (Hu _ _ Hne) as (t' & A & B). congruence. }
    destruct (IH g1 W1 ND') as (g' & Eg' & R1 & R2 & R3 & R4); auto.
    { intros j Hj. rewrite LEN. apply HB; right; auto. }
    { split.
      - intros j Hj. assert (Nj : j <> i) by (intros ->; tauto). destruct (P1 j (or_intror Hj)) as (p & ys & hs & Q1 & Q2 & Q3 & Q4 & Q5 & Q6 & Q7 & Q8).
        destruct (grads_nth G1 Q1) as (p' & Hp' & SS). destruct SS as (A1&A2&A3&A4&A5&A6&A7). exists p', ys, hs. ssplit; auto.
        + rewrite <- A2, <- Q2. apply mapM_ext. intros n _. apply grads_value; auto.
        + congruence.
        + rewrite <- A1, <- A3. auto.
        + rewrite <- A2. auto.
        + rewrite Ou, Oe by auto. auto.
        + intros t. rewrite Ou, Oe by auto. auto.
      - intros n t Hn. destruct (BACK _ _ Hn) as (te & Hne & E1). destruct (PRE _ _ Hne) as (t1 & E1' & t2 & E2 & E3). replace t1 with t in * by congruence.
        exists t2. rewrite (is_arg_grads _ _ G1), (received_grads _ _ _ G1). auto. }
    exists g'. split; [apply bind_Ok; exists g1; split; [exact Eg1|exact Eg']|]. ssplit.
    + intros n t Hn. destruct (He _ _ Hn) as (te & _ & Hne). destruct (Hu _ _ Hne) as (t1 & _ & H1). eapply R1; eauto.
    + intros j Hj. simpl in Hj. rewrite R2 by auto. rewrite Ou by auto. auto.
    + intros j [<-|Hj] Hn.
      * rewrite R2 by auto. rewrite <- Oe in Hn. unfold own_of in * . destruct (grads_nth Ge Ho) as (o' & Ho' & SS). rewrite Ho' in Hn. destruct (grads_nth Gu Ho') as (o'' & Ho'' & S2).
        rewrite Ho''. destruct S2 as (_&_&_&_&B&_). apply B; auto.
      * apply R3; auto. rewrite Ou, Oe; auto. intros ->; tauto.
    + intros j t [<-|Hj] Hn.
      * rewrite R2 by auto. rewrite <- Oe in Hn. auto.
      * apply R4; auto. rewrite Ou, Oe; auto. intros ->; tauto.
Qed.

(** ** Tie orders *)
Lemma apply_all_perm (P : tensor -> Prop) fs fs' : Permutation fs fs' ->
  (forall f t t', In f fs -> P t -> f t = Ok t' -> P t') ->
  (forall f h t, In f fs -> In h fs -> P t -> bind (f t) h = bind (h t) f) ->
  forall t, P t -> apply_all fs t = apply_all fs' t.
Proof.
  induction 1 as [|f l l' H IH|f h l|l1 l2 l3 H1 IH1 H2 IH2]; intros HP HC t Ht; auto.
  - cbn. destruct (f t) as [t1| |] eqn:E; auto. cbn. apply IH; [intros f' t0 t'' Hf; apply HP; right; auto|intros f' h' t0 Hf Hh; apply HC; right; auto|]. eapply HP; eauto. left; auto.
  - cbn. specialize (HC f h t (or_intror (or_introl eq_refl)) (or_introl eq_refl) Ht). rewrite <- !bind_assoc.
    change (fun x => h x) with h. change (fun x => f x) with f. rewrite HC. reflexivity.
  - rewrite IH1 by auto. apply IH2; auto.
    + intros f t0 t' Hf. apply HP. eapply Permutation_in; [symmetry|]; eauto.
    + intros f h t0 Hf Hh. apply HC; eapply Permutation_in; try (symmetry; eauto; fail); auto.
Qed.

Lemma existsb_perm A (f : A -> bool) l l' : Permutation l l' -> existsb f l = existsb f l'.
Proof. induction 1; cbn; auto; try congruence. rewrite !orb_assoc, (orb_comm (f y)). auto. Qed.

Lemma grads_same_eq (g a b : graph) : grads_changed g a -> grads_changed g b ->
  (forall n, grad_of a n = grad_of b n) -> (forall i, own_of a i = own_of b i) -> a = b.
Proof.
  intros (LA & FA) (LB & FB) HG HO. destruct a as [oa la], b as [ob lb]. cbn in LA, LB. f_equal; [|congruence]. cbn in FA, FB.
  apply nth_ext_error. intros i. pose proof (Forall2_len FA) as NA. pose proof (Forall2_len FB) as NB.
  destruct (nth_error oa i) as [x|] eqn:Ex.
  - destruct (Forall2_nth' FA Ex) as (o & Ho & A1&A2&A3&A4&A5&A6&A7). destruct (Forall2_nth FB Ho) as (y & Hy & B1&B2&B3&B4&B5&B6&B7). rewrite Hy. f_equal.
    assert (E1 : oi_grads x = oi_grads y).
    { apply nth_ext_error. intros v. specialize (HG (i, v)). unfold grad_of in HG; cbn [fst snd g_ops] in HG. rewrite (idx_nth Ex), (idx_nth Hy) in HG. cbn in HG. unfold idx in HG.
      destruct (nth_error (oi_grads x) v), (nth_error (oi_grads y) v); congruence. }
    assert (E2 : oi_own x = oi_own y). { specialize (HO i). unfold own_of in HO; cbn [g_ops] in HO. rewrite Ex, Hy in HO. auto. }
    destruct x, y; cbn in * . congruence.
  - symmetry. apply nth_error_None. apply nth_error_None in Ex. lia.
Qed.

(** the updates operators of the graph may ask for *)
Definition asked (g : graph) (root : nat) (f : tensor -> res tensor) : Prop :=
  exists i o xs gs us u, uses g root i /\ nth_error (g_ops g) i = Some o /\ op_backward (itp (oi_op o)) xs (oi_vals o) gs = Ok us /\ In u us /\ snd u = f.

Theorem backward_tie gal p1 p2 (g g' : graph) root (P : node -> tensor -> Prop) : gwf g -> max_heap p1 -> max_heap p2 -> root < length (g_ops g) ->
  (forall n t t0, grad_of g n = Ok t -> touch gal n t = Ok t0 -> P n t0) ->
  (forall n f t t', asked g root f -> P n t -> f t = Ok t' -> P n t') ->
  (forall n f h t, asked g root f -> asked g root h -> P n t -> bind (f t) h = bind (h t) f) ->
  backward m itp gal p1 g root = Ok g' -> backward m itp gal p2 g root = Ok g'.
Proof.
  intros W M1 M2 L HP0 HP1 HC E. unfold backward in * . apply bind_Ok in E. destruct E as (g1 & E1 & E). rewrite E1. cbn [bind].
  destruct (seed_spec E1) as (G1 & O1 & H1). pose proof (grads_gwf W G1) as W1.
  assert (L1 : root < length (g_ops g1)). { destruct G1 as (_ & HH). rewrite <- (Forall2_len HH). auto. }
  destruct (requests_spec W1 L1) as (ND & HR). destruct (M1 (depth0 g1) (requests g1 root)) as (PM1 & SO1). destruct (M2 (depth0 g1) (requests g1 root)) as (PM2 & SO2).
  set (r1 := p1 (depth0 g1) (requests g1 root)) in * . set (r2 := p2 (depth0 g1) (requests g1 root)) in * .
  assert (PM : Permutation r1 r2) by (rewrite <- PM1; auto).
  assert (IN : forall i, In i r1 <-> uses g1 root i). { intros i. rewrite <- HR. split; apply Permutation_in; [symmetry|]; auto. }
  assert (ING : forall i, In i r1 <-> uses g root i). { intros i. rewrite IN. split; apply uses_grads; auto. apply grads_sym; auto. }
  apply StronglySorted_of in SO1; [|intros; lia]. apply StronglySorted_of in SO2; [|intros; lia].
  assert (ND1 : NoDup r1) by (eapply Permutation_NoDup; eauto). assert (ND2 : NoDup r2) by (eapply Permutation_NoDup; eauto).
  assert (B1 : forall i, In i r1 -> i < length (g_ops g1)) by (intros i Hi; apply IN in Hi; apply (uses_lt W1 Hi L1)).
  destruct (@run_bw_spec K m Oper itp HBW gal r1 g1 g' W1 ND1) as (G2 & us & A1 & A2 & A3 & A4 & A5); auto.
  set (fin := fun n => match grad_of g' n with Ok t => t | _ => mkTensor None (mkShape [] 0 0 0) None None end).
  assert (ASK : forall i u, In i r1 -> In u (us i) -> asked g root (snd u)).
  { intros i u Hi Hu. destruct (A1 i Hi) as (o & o' & xs & Ho & Ho' & Hx & Hb & _). pose proof G1 as (_ & F1). destruct (Forall2_nth' F1 Ho) as (q & Hq & Q1 & Q2 & Q3 & _).
    exists i, q, xs, (oi_grads o'), (us i), u. rewrite Q1, Q3. ssplit; auto. apply ING; auto. }
  assert (RCV : forall n f, In f (received g1 us r1 n) -> asked g root f).
  { intros n f Hf. unfold received in Hf. apply in_flat_map in Hf. destruct Hf as (j & Hj & Hf). apply sent_In in Hf. destruct Hf as (u & Hu & <-). eapply ASK; eauto. }
  assert (PL : plan gal g1 r2 us fin).
  { split.
    - intros i Hi. assert (Hi1 : In i r1) by (eapply Permutation_in; [symmetry|]; eauto). destruct (A1 i Hi1) as (o & o' & xs & Ho & Ho' & Hx & Hb & Hk).
      destruct (grads_nth G2 Ho) as (o2 & Ho2 & S2). replace o2 with o' in S2 by congruence. destruct S2 as (_&_&_&LL&_).
      exists o, xs, (oi_grads o'). ssplit; auto.
      + intros v t Hv. unfold fin. rewrite (grad_of_Ok (n := (i, v)) Ho' Hv). auto.
      + intros t Ht. destruct (A5 i t Hi1 Ht) as (t' & E' & _). eauto.
    - intros n t Hn. destruct (A2 _ _ Hn) as (t0 & t' & S1 & S2 & S3). exists t0. assert (EA : is_arg g1 r2 n = is_arg g1 r1 n) by (symmetry; apply existsb_perm; auto).
      rewrite EA. split; auto. unfold fin. rewrite S3. rewrite <- S2. destruct (is_arg g1 r1 n) eqn:EX.
      + symmetry. apply (@apply_all_perm (P n)).
        * unfold received. apply Permutation_flat_map; auto.
        * intros f x x' Hf. apply HP1. eapply RCV; eauto.
        * intros f h x Hf Hh. apply HC; eapply RCV; eauto.
        * assert (exists tg, grad_of g n = Ok tg) as (tg & Htg).
          { destruct (grad_of_inv Hn) as (p & Hp & Hv). destruct G1 as (_ & F1). destruct (Forall2_nth' F1 Hp) as (q & Hq & _&_&_&LL&_).
            pose proof (nth_error_Some_lt Hv) as Lv. rewrite <- LL in Lv. apply nth_error_Some in Lv. destruct (nth_error (oi_grads q) (snd n)) as [tt|] eqn:Et; [|congruence]. exists tt. eapply grad_of_Ok; eauto. }
          destruct (H1 _ _ Htg) as (t1 & T1 & T2). destruct (Nat.eqb_spec (fst n) root) as [En|Ne].
          -- exfalso. unfold is_arg in EX. apply existsb_exists in EX. destruct EX as (j & Hj & EX). apply existsb_node in EX.
             apply IN in Hj. destruct (uses_lt W1 Hj L1) as (_ & Lj). unfold args_of in EX. destruct (nth_error (g_ops g1) j) as [p|] eqn:Hp; [|destruct EX].
             destruct (gwf_args W1 Hp EX) as (LL & _). lia.
          -- assert (tg = t) by congruence. subst tg. eapply HP0; eauto.
      + rewrite !received_not_arg; auto. }
  destruct (@run_bw_complete gal us fin r2 g1 W1 ND2) as (g2 & E2 & C1 & C2 & C3 & C4); auto.
  { intros i Hi. apply B1. eapply Permutation_in; [symmetry|]; eauto. }
  rewrite E2. f_equal. 
  destruct (@run_bw_spec K m Oper itp HBW gal r2 g1 g2 W1 ND2) as (G3 & _); auto.
  { intros i Hi. apply B1. eapply Permutation_in; [symmetry|]; eauto. }
  assert (NG : forall (a : graph) n r, grads_changed g1 a -> grad_of g1 n = r -> (forall t, r <> Ok t) -> grad_of a n = Panic).
  { intros a n r GA Hr Hn. unfold grad_of in * . destruct (nth_error (g_ops g1) (fst n)) as [p|] eqn:Hp.
    - destruct (grads_nth GA Hp) as (q & Hq & _&_&_&LL&_). rewrite (idx_nth Hp) in Hr. rewrite (idx_nth Hq). cbn in * . unfold idx in * .
      destruct (nth_error (oi_grads p) (snd n)) eqn:Q; [exfalso; eapply Hn; eauto|]. apply nth_error_None in Q. rewrite LL in Q. apply nth_error_None in Q. rewrite Q. auto.
    - unfold idx at 1. apply nth_error_None in Hp. destruct GA as (_ & FA). rewrite (Forall2_len FA) in Hp. apply nth_error_None in Hp. rewrite Hp. auto. }
  apply (grads_same_eq G3 G2).
  - intros n. destruct (grad_of g1 n) as [t| |] eqn:En.
    + rewrite (C1 _ _ En). destruct (A2 _ _ En) as (t0 & t' & _ & _ & S3). unfold fin. rewrite S3. auto.
    + rewrite (NG g2 n Panic), (NG g' n Panic); auto; congruence.
    + rewrite (NG g2 n UB), (NG g' n UB); auto; congruence.
  - intros i. destruct (in_dec Nat.eq_dec i r1) as [Hi|Hi].
    + assert (Hi2 : In i r2) by (eapply Permutation_in; eauto). destruct (own_of g1 i) as [t|] eqn:Eo.
      * destruct (C4 i t Hi2 Eo) as (t1 & Q1 & Q2). destruct (A5 i t Hi Eo) as (t2 & Q3 & Q4). congruence.
      * rewrite (C3 i Hi2 Eo). symmetry. unfold own_of in * . specialize (B1 i Hi). destruct (nth_error (g_ops g1) i) as [p|] eqn:Hp; [|apply nth_error_None in Hp; lia].
        destruct (grads_nth G2 Hp) as (q & Hq & _&_&_&_&B&_). rewrite Hq. apply B; auto.
    + rewrite A3 by auto. rewrite C2; auto. intros Hi2. apply Hi. eapply Permutation_in; [symmetry|]; eauto.
Qed.
End GraphTie.
