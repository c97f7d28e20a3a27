(** * GraphMore: order of evaluation, stability of values, tie orders *)
From Verif Require Export GraphBw.
Set Implicit Arguments. Unset Strict Implicit.

Lemma nth_ext_error A (l l' : list A) : (forall i, nth_error l i = nth_error l' i) -> l = l'.
Proof.
  revert l'. induction l as [|a l IH]; intros [|b l'] H; auto.
  - specialize (H 0); discriminate.
  - specialize (H 0); discriminate.
  - f_equal; [specialize (H 0); inversion H; auto|apply IH; intros i; apply (H (S i))].
Qed.

Section GraphMore.
Variable K : num.
Notation tensor := (tensor K).
Variable Oper : Type.
Variable itp : Oper -> operator K.
Notation graph := (graph K Oper).
Notation opinfo := (opinfo K Oper).
Notation node := (nat * nat)%type.

(** ** What a program may do with a graph *)
Inductive action : graph -> graph -> Prop :=
| a_create g op own xs g' ns : create itp g op own xs = Ok (g', ns) -> action g g'
| a_forward g pop root g' r : min_heap pop -> root < length (g_ops g) -> forward itp pop g root = (g', r) -> action g g'
| a_backward g g' : grads_changed g g' -> action g g'.
(** any sequence of actions *)
Inductive later (g : graph) : graph -> Prop :=
| l_now : later g g
| l_then g' g'' : later g g' -> action g' g'' -> later g g''.

Lemma history_later g g' : history itp g -> later g g' -> history itp g'.
Proof.
  intros H. induction 1 as [|g' g'' L IH A]; auto. destruct A.
  - eapply h_create; eauto.
  - eapply h_forward; eauto.
  - eapply h_backward; eauto.
Qed.

(** operators that did not run hold no value *)
Definition pending_blank (g : graph) : Prop := forall i o, nth_error (g_ops g) i = Some o -> oi_fwd o = false -> forall t, In t (oi_vals o) -> t_buf t = None.
(** arguments run first *)
Definition ordered (g : graph) : Prop := forall l1 i l2 o n, g_log g = l1 ++ i :: l2 -> nth_error (g_ops g) i = Some o -> In n (oi_args o) -> In (fst n) l1.

Hypothesis HL : forall op, lawful (itp op).

(** what one forward step leaves alone *)
Definition fwd_only (g g' : graph) : Prop := forall i, match nth_error (g_ops g) i, nth_error (g_ops g') i with
  | Some o, Some o' => oi_op o' = oi_op o /\ oi_args o' = oi_args o /\ oi_grads o' = oi_grads o /\ oi_own o' = oi_own o /\ oi_depth o' = oi_depth o /\
      (oi_fwd o = true -> o' = o) /\ (oi_fwd o' = false -> o' = o)
  | None, None => True | _, _ => False end.
Lemma fwd_only_refl g : fwd_only g g.
Proof. intros i. destruct (nth_error (g_ops g) i); auto. ssplit; auto. Qed.
Lemma fwd_only_trans a b c : fwd_only a b -> fwd_only b c -> fwd_only a c.
Proof.
  intros H1 H2 i. specialize (H1 i). specialize (H2 i).
  destruct (nth_error (g_ops a) i) as [x|], (nth_error (g_ops b) i) as [y|], (nth_error (g_ops c) i) as [z|]; auto; try tauto.
  destruct H1 as (A1&A2&A3&A4&A5&A6&A7), H2 as (B1&B2&B3&B4&B5&B6&B7). ssplit; try congruence.
  - intros E. specialize (A6 E). rewrite <- A6 in E. rewrite (B6 E). auto.
  - intros E. specialize (B7 E). rewrite B7 in E. rewrite B7. auto.
Qed.
Lemma step_fw_only g i g' r : step_fw itp g i = (g', r) -> fwd_only g g'.
Proof.
  intros E. destruct (nth_error (g_ops g) i) as [o|] eqn:Ho.
  - rewrite (step_fw_cases itp Ho) in E. destruct (oi_fwd o) eqn:Ef; [inversion E; subst; apply fwd_only_refl|].
    assert (G : forall o', oi_op o' = oi_op o -> oi_args o' = oi_args o -> oi_grads o' = oi_grads o -> oi_own o' = oi_own o -> oi_depth o' = oi_depth o -> oi_fwd o' = true ->
       fwd_only g (mkGraph (lset (g_ops g) i o') (g_log g ++ [i]))).
    { intros o' A B C D F1 F2 j. cbn [g_ops]. rewrite nth_error_lset by (eapply nth_error_Some_lt; eauto). destruct (Nat.eqb_spec j i) as [->|].
      - rewrite Ho. ssplit; auto; congruence.
      - destruct (nth_error (g_ops g) j); auto. ssplit; auto. }
    destruct (xs <- mapM (value_of g) (oi_args o) ;; op_forward (itp (oi_op o)) xs (oi_vals o)) as [ys| |]; inversion E; subst; apply G; auto.
  - unfold step_fw in E. rewrite Ho in E. inversion E; subst. apply fwd_only_refl.
Qed.
Lemma run_fw_only order : forall g g' r, run_fw itp g order = (g', r) -> fwd_only g g'.
Proof.
  induction order as [|i order IH]; intros g g' r E; simpl in E; [inversion E; subst; apply fwd_only_refl|].
  destruct (step_fw itp g i) as [g1 [u| |]] eqn:E1; pose proof (step_fw_only E1); try (inversion E; subst; auto; fail).
  eapply fwd_only_trans; eauto.
Qed.
Lemma forward_only pop g root g' r : forward itp pop g root = (g', r) -> fwd_only g g'.
Proof. apply run_fw_only. Qed.

Lemma history_pending g : history itp g -> pending_blank g.
Proof.
  induction 1 as [|g op own xs g' ns H IH E|g pop root g' r H IH HP L E|g g' H IH HG].
  - intros [|i] o; discriminate.
  - apply create_inv in E. destruct E as (ss & rs & vals & grads & ds & _ & _ & _ & _ & _ & _ & _ & HB & -> & _).
    intros i o Ho Ef t Ht. cbn [g_ops] in Ho. destruct (Nat.lt_ge_cases i (length (g_ops g))) as [L|L].
    + rewrite nth_error_app1 in Ho by auto. eapply IH; eauto.
    + rewrite nth_error_app2 in Ho by auto. destruct (i - length (g_ops g)) as [|k]; cbn in Ho; [inversion Ho; subst; cbn in Ht; apply HB; auto|destruct k; discriminate].
  - apply forward_only in E. intros i o Ho Ef t Ht. specialize (E i). rewrite Ho in E. destruct (nth_error (g_ops g) i) as [p|] eqn:Hp; [|tauto].
    destruct E as (_&_&_&_&_&_&E). specialize (E Ef). subst o. eapply IH; eauto.
  - destruct HG as (_ & HF). intros i o Ho Ef t Ht. destruct (Forall2_nth' HF Ho) as (p & Hp & S). destruct S as (_&_&EV&_&_&EF&_). rewrite <- EV in Ht. rewrite <- EF in Ef. eapply IH; eauto.
Qed.

(** ** Arguments run first *)
Lemma ordered_snoc (g : graph) i o log' : nth_error (g_ops g) i = Some o -> ordered g -> NoDup (g_log g ++ [i]) ->
  (forall n, In n (oi_args o) -> In (fst n) (g_log g)) -> forall o', oi_args o' = oi_args o -> log' = g_log g ++ [i] ->
  ordered (mkGraph (lset (g_ops g) i o') log').
Proof.
  intros Ho HO ND HA o' EA -> l1 j l2 p n EL Hp Hn. cbn [g_log g_ops] in * . rewrite nth_error_lset in Hp by (eapply nth_error_Some_lt; eauto).
  destruct l2 as [|x l2'] using rev_ind.
  - apply app_inj_tail in EL. destruct EL as (<- & <-). rewrite Nat.eqb_refl in Hp. inversion Hp; subst. rewrite EA in Hn. auto.
  - clear IHl2'. rewrite app_comm_cons, app_assoc in EL. apply app_inj_tail in EL. destruct EL as (EL & <-).
    destruct (Nat.eqb_spec j i) as [->|Ne].
    + exfalso. apply NoDup_remove_2 in ND. rewrite app_nil_r, EL in ND. apply ND. apply in_or_app. right; left; auto.
    + eapply HO; eauto.
Qed.
Lemma step_fw_ordered g i g' r : gwf g -> logged g -> ordered g ->
  (forall o n, nth_error (g_ops g) i = Some o -> In n (oi_args o) -> fwd_in g (fst n)) ->
  step_fw itp g i = (g', r) -> ordered g' /\ (r = Ok tt -> fwd_in g' i).
Proof.
  intros W Lg HO HA E. destruct (nth_error (g_ops g) i) as [o|] eqn:Ho.
  - pose proof E as E0. rewrite (step_fw_cases itp Ho) in E. destruct (oi_fwd o) eqn:Ef.
    { inversion E; subst. split; auto. intros _. exists o; auto. }
    pose proof (nth_error_Some_lt Ho) as Li. pose proof (step_fw_inv HL W Lg E0) as (_ & (ND' & _) & _).
    assert (HA' : forall n, In n (oi_args o) -> In (fst n) (g_log g)). { intros n Hn. destruct Lg as (_ & HI). apply HI. eapply HA; eauto. }
    destruct (xs <- mapM (value_of g) (oi_args o) ;; op_forward (itp (oi_op o)) xs (oi_vals o)) as [ys| |]; inversion E; subst; cbn [g_log] in ND'; split; try discriminate;
      try (eapply ordered_snoc; eauto; reflexivity).
    intros _. exists (fill o ys). cbn [g_ops]. rewrite nth_error_lset, Nat.eqb_refl by auto. auto.
  - unfold step_fw in E. rewrite Ho in E. inversion E; subst. split; auto. discriminate.
Qed.
Lemma run_fw_ordered order : forall g g' r, gwf g -> logged g -> ordered g ->
  (forall i, In i order -> i < length (g_ops g)) ->
  StronglySorted (fun a b => depth0 g a <= depth0 g b) order ->
  (forall i o n, In i order -> nth_error (g_ops g) i = Some o -> In n (oi_args o) -> fwd_in g (fst n) \/ In (fst n) order) ->
  run_fw itp g order = (g', r) -> ordered g'.
Proof.
  induction order as [|i order IH]; intros g g' r W Lg HO HB HS HC E; simpl in E; [inversion E; subst; auto|].
  apply StronglySorted_inv in HS. destruct HS as (HS & HF).
  destruct (step_fw itp g i) as [g1 r1] eqn:E1. pose proof (step_fw_inv HL W Lg E1) as (W1 & L1 & X1 & Y1).
  assert (HA : forall o n, nth_error (g_ops g) i = Some o -> In n (oi_args o) -> fwd_in g (fst n)).
  { intros o n Ho Hn. destruct (HC i o n) as [A|A]; auto; [left; auto|]. exfalso.
    destruct (gwf_args W Ho Hn) as (A1 & p & Hp & _ & D).
    assert (D' : depth0 g (fst n) < depth0 g i) by (unfold depth0; rewrite Hp, Ho; auto).
    destruct A as [A|A]; [lia|]. rewrite Forall_forall in HF. specialize (HF _ A). lia. }
  destruct (step_fw_ordered W Lg HO HA E1) as (O1 & F1).
  destruct r1 as [[]| |]; [|inversion E; subst; auto|inversion E; subst; auto].
  pose proof (step_fw_only E1) as FO.
  assert (DEP : forall j, depth0 g1 j = depth0 g j).
  { intros j. unfold depth0. specialize (FO j). destruct (nth_error (g_ops g) j), (nth_error (g_ops g1) j); try tauto. }
  assert (ARG : forall j p, nth_error (g_ops g1) j = Some p -> exists q, nth_error (g_ops g) j = Some q /\ oi_args q = oi_args p /\ (oi_fwd q = true -> oi_fwd p = true)).
  { intros j p Hp. specialize (FO j). rewrite Hp in FO. destruct (nth_error (g_ops g) j) as [q|]; [|tauto]. destruct FO as (?&?&?&?&?&Q&?). exists q. ssplit; auto. intros Ef. rewrite (Q Ef). auto. }
  assert (FW : forall j, fwd_in g j -> fwd_in g1 j).
  { intros j (q & Hq & Ef). specialize (FO j). rewrite Hq in FO. destruct (nth_error (g_ops g1) j) as [p|] eqn:Hp; [|tauto]. destruct FO as (?&?&?&?&?&Q&?). exists p. split; auto. rewrite (Q Ef); auto. }
  eapply (IH g1); eauto.
  - intros j Hj. specialize (HB j (or_intror Hj)). destruct (nth_error (g_ops g) j) as [q|] eqn:Hq; [|apply nth_error_None in Hq; lia].
    specialize (FO j). rewrite Hq in FO. destruct (nth_error (g_ops g1) j) eqn:Hp; [|tauto]. eapply nth_error_Some_lt; eauto.
  - clear -HS DEP. induction HS as [|a l HS IH HF]; constructor; auto. rewrite Forall_forall in * . intros x Hx. rewrite !DEP. auto.
  - intros j p n Hj Hp Hn. destruct (ARG _ _ Hp) as (q & Hq & EA & _). rewrite <- EA in Hn. destruct (HC j q n) as [A|[A|A]]; auto; [right; auto|]. left. rewrite <- A. auto.
Qed.
Lemma history_ordered g : history itp g -> ordered g.
Proof.
  induction 1 as [|g op own xs g' ns H IH E|g pop root g' r H IH HP L E|g g' H IH HG].
  - intros l1 i l2 o n EL. destruct l1; discriminate.
  - pose proof (history_inv HL H) as (W & Lg). apply create_inv in E. destruct E as (ss & rs & vals & grads & ds & _ & _ & _ & _ & _ & _ & _ & HB & -> & _).
    intros l1 i l2 o n EL Ho Hn. cbn [g_log g_ops] in * .
    assert (Hi : In i (g_log g)) by (rewrite EL; apply in_or_app; right; left; auto). apply Lg in Hi. destruct Hi as (p & Hp & _).
    rewrite nth_error_app1 in Ho by (eapply nth_error_Some_lt; eauto). exact (IH l1 i l2 o n EL Ho Hn).
  - pose proof (history_inv HL H) as (W & Lg). unfold forward in E. destruct (requests_spec W L) as (ND & HR).
    destruct (HP (depth0 g) (requests g root)) as (PM & SO). set (order := pop (depth0 g) (requests g root)) in * .
    assert (IN : forall i, In i order <-> uses g root i).
    { intros i. rewrite <- HR. split; apply Permutation_in; [symmetry|]; auto. }
    apply StronglySorted_of in SO; [|intros; lia]. eapply run_fw_ordered; eauto.
    + intros i Hi. apply IN in Hi. apply (uses_lt W Hi L).
    + intros i o n Hi Ho Hn. right. apply IN. apply IN in Hi. eapply uses_trans; eauto. eapply uses_step; eauto. constructor.
  - destruct HG as (EL & HF). intros l1 i l2 o n Hlog Ho Hn. destruct (Forall2_nth' HF Ho) as (p & Hp & S). destruct S as (_&EA&_). rewrite <- EA in Hn. rewrite EL in Hlog. exact (IH l1 i l2 p n Hlog Hp Hn).
Qed.

(** ** Values never change once computed *)
Lemma action_stable g g' n t : history itp g -> action g g' -> value_of g n = Ok t -> t_buf t <> None -> value_of g' n = Ok t.
Proof.
  intros H A V B. pose proof (history_pending H) as PB. destruct (value_of_inv V) as (o & Ho & Hv).
  assert (Ef : oi_fwd o = true). { destruct (oi_fwd o) eqn:Ef; auto. exfalso. apply B. eapply PB; eauto. eapply nth_error_In; eauto. }
  destruct A as [g op own xs g' ns E|g pop root g' r HP L E|g g' (EL & HF)].
  - apply create_inv in E. destruct E as (ss & rs & vals & grads & ds & _ & _ & _ & _ & _ & _ & _ & _ & -> & _).
    unfold value_of. cbn [g_ops]. rewrite (idx_nth (x := o)) by (rewrite nth_error_app1; auto; eapply nth_error_Some_lt; eauto). cbn. apply idx_nth; auto.
  - apply forward_only in E. specialize (E (fst n)). rewrite Ho in E. destruct (nth_error (g_ops g') (fst n)) as [p|] eqn:Hp; [|tauto].
    destruct E as (_&_&_&_&_&E&_). rewrite (E Ef) in Hp. unfold value_of. rewrite (idx_nth Hp). cbn. apply idx_nth; auto.
  - destruct (Forall2_nth HF Ho) as (p & Hp & S). destruct S as (_&_&EV&_). unfold value_of. rewrite (idx_nth Hp). cbn. rewrite <- EV. apply idx_nth; auto.
Qed.
Lemma later_stable g g' n t : history itp g -> later g g' -> value_of g n = Ok t -> t_buf t <> None -> value_of g' n = Ok t.
Proof.
  intros H L V B. induction L as [|g' g'' L IH A]; auto. exact (action_stable (history_later H L) A IH B).
Qed.

(** ** The order among equal depths does not matter *)
Lemma forward_unique g p1 p2 root g1 g2 r2 : clean itp g -> min_heap p1 -> min_heap p2 -> root < length (g_ops g) ->
  forward itp p1 g root = (g1, Ok tt) -> forward itp p2 g root = (g2, r2) -> r2 = Ok tt /\ g_ops g1 = g_ops g2.
Proof.
  intros HC M1 M2 L E1 E2. destruct (clean_inv HL HC) as (W & Lg & S).
  destruct (forward_spec HL W S Lg M1 L E1) as (A1 & B1). destruct (forward_spec HL W S Lg M2 L E2) as (A2 & B2).
  assert (R2 : r2 = Ok tt) by (apply A2, A1; auto). split; auto.
  destruct (B1 eq_refl) as (S1 & W1 & _ & X1 & Y1 & F1 & _ & N1). destruct (B2 R2) as (S2 & W2 & _ & X2 & Y2 & F2 & _ & N2).
  pose proof (forward_only E1) as O1. pose proof (forward_only E2) as O2. destruct (requests_spec W L) as (_ & HR).
  assert (EQ : forall i, nth_error (g_ops g1) i = nth_error (g_ops g2) i).
  { intros i. destruct (in_dec Nat.eq_dec i (requests g root)) as [U|U]; [|rewrite N1, N2; auto; rewrite <- HR; auto].
    apply HR in U. destruct (F1 i U) as (o1 & Ho1 & T1). destruct (F2 i U) as (o2 & Ho2 & T2). rewrite Ho1, Ho2. f_equal.
    destruct (uses_lt W U L) as (Li & _). specialize (O1 i). specialize (O2 i). rewrite Ho1 in O1. rewrite Ho2 in O2.
    destruct (nth_error (g_ops g) i) as [o|] eqn:Ho; [|tauto].
    pose proof (S1 _ _ Ho1) as V1. rewrite T1 in V1. pose proof (S2 _ _ Ho2) as V2. rewrite T2 in V2.
    rewrite (eval_extends itp W X1 Li) in V1. rewrite (eval_extends itp W X2 Li) in V2. assert (oi_vals o1 = oi_vals o2) by congruence.
    destruct o1, o2, O1 as (?&?&?&?&?&_), O2 as (?&?&?&?&?&_). cbn in * . congruence. }
  apply nth_ext_error; auto.
Qed.
End GraphMore.
