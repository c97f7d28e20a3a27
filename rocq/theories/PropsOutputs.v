(** * PropsOutputs: backward on one output of an operator with several (C41) *)
From Verif Require Export PropsAutoDiff.
Set Implicit Arguments.
Unset Strict Implicit.
Open Scope R_scope.

(** backward on any output of an operator differentiates the sum of all elements of ALL
    outputs of that operator ([totals]), provided that below it every output is used *)
Theorem C41_derivative_of_all_outputs : forall m gal popf popb (g : rgraph) d n, built m g -> min_heap popf -> max_heap popb -> (forall i v, al_ok (gal i v)) ->
  differentiable_below m d g (fst n) ->
  exists g', node_backward m (interp m) gal popf popb g n = Ok g' /\
    (forall i o v, uses g (fst n) i -> nth_error (g_ops g) i = Some o -> o_kind (oi_op o) = KParameter v ->
       exists a a', own_of g i = Some a /\ own_of g' i = Some a' /\ ready d a' /\ t_shape a = t_shape v /\ t_shape a' = t_shape v) /\
    (forall i, ~ uses g (fst n) i -> own_of g' i = own_of g i) /\
    forall W dW, moving d g (fst n) W dW ->
      D (fun t => totals m (with_params (W t) g) (length (ys_of g (fst n))) (fst n)) (rsum (length (g_ops g)) (fun i => growth g g' i (dW i))).
Proof.
  intros m gal popf popb g d n HB HF HX HA DF. destruct (built_graded d (fst n) HB) as (GR & HZ).
  destruct (backward_derivative_all (built_clean HB) GR HF HX HA DF) as (g' & E & A & B & _ & _ & _ & _ & DD). exists g'. split; auto. split; [intros i o v U Ho EK; destruct (A i o v U Ho EK) as (a & a' & A1 & A2 & A3 & A4 & A5 & _); eauto 8|]. split; auto. intros W dW MV.
  destruct (clean_inv (interp_lawful (K := Rnum) (m := m)) (built_clean HB)) as (GW & _). destruct (below_list GW (db_root DF)) as (l & ND & HL).
  eapply deriv_ext; [|apply (DD l ND HL W dW MV)]. intros t. cbv beta. rewrite (lsum_0 (l := l)); [ring|]. intros i _. apply carried_0. intros. apply HZ.
Qed.

(** element by element *)
Theorem C41_partial_derivatives : forall m gal popf popb (g : rgraph) d n, built m g -> min_heap popf -> max_heap popb -> (forall i v, al_ok (gal i v)) ->
  differentiable_below m d g (fst n) ->
  exists g', node_backward m (interp m) gal popf popb g n = Ok g' /\ (forall i, ~ uses g (fst n) i -> own_of g' i = own_of g i) /\
    forall i o v c b, uses g (fst n) i -> nth_error (g_ops g) i = Some o -> o_kind (oi_op o) = KParameter v -> inb (t_shape v) c -> (b < bat (t_shape v))%nat ->
    exists a a', own_of g i = Some a /\ own_of g' i = Some a' /\
      D (fun t => totals m (with_value i (bump v c b t) g) (length (ys_of g (fst n))) (fst n)) (at_ a' c b - at_ a c b).
Proof.
  intros m gal popf popb g d n HB HF HX HA DF. destruct (C41_derivative_of_all_outputs HB HF HX HA DF) as (g' & E & OW & NOW & DD). exists g'. split; auto. split; auto.
  intros i o v c0 b0 U Ho EK Hc0 Hb0. destruct (OW i o v U Ho EK) as (a & a' & A1 & A2 & A3 & A4 & A5). exists a, a'. split; auto. split; auto.
  pose proof (sup_wt (db_sup DF U Ho)) as RV. rewrite EK in RV. cbn in RV.
  assert (PV : forall j p w, nth_error (g_ops g) j = Some p -> o_kind (oi_op p) = KParameter w -> param_value g j = w) by (intros j p w Hp EKp; unfold param_value, kind_of; rewrite Hp, EKp; auto).
  eapply deriv_val; [apply (DD (fun t j => if Nat.eqb j i then bump v c0 b0 t else param_value g j) (fun j c b => if Nat.eqb j i then (if Nat.eqb (pos (t_shape v) c0 b0) (pos (t_shape v) c b) then 1 else 0) else 0))|].
  - constructor.
    + intros j p w Uj Hp EKp. cbv beta. destruct (Nat.eqb_spec j i) as [->|]; [|eapply PV; eauto]. assert (w = v) by congruence. subst w. eapply bump_0; eauto.
    + intros t j p w Uj Hp EKp. cbv beta. destruct (Nat.eqb_spec j i) as [->|]. * assert (w = v) by congruence. subst w. apply bump_ready; auto. * rewrite (PV _ _ _ Hp EKp). split; auto. pose proof (sup_wt (db_sup DF Uj Hp)) as RW. rewrite EKp in RW. exact RW.
    + intros j p w c b Uj Hp EKp Hc Hb. cbv beta. destruct (Nat.eqb_spec j i) as [->|]; [|apply deriv_const]. assert (w = v) by congruence. subst w.
      eapply deriv_ext with (f := fun t => at_ v c b + (if Nat.eqb (pos (t_shape v) c0 b0) (pos (t_shape v) c b) then t else 0)); [intros t; symmetry; eapply bump_at; eauto|].
      destruct (Nat.eqb _ _); [|apply deriv_const]. eapply deriv_val; [apply deriv_add; [apply deriv_const|apply deriv_id]|ring].
  - transitivity (rsum (length (g_ops g)) (fun j => if Nat.eqb i j then growth g g' j (fun c b => if Nat.eqb (pos (t_shape v) c0 b0) (pos (t_shape v) c b) then 1 else 0) else 0)).
    + apply rsum_ext. intros j _. rewrite Nat.eqb_sym. destruct (Nat.eqb_spec i j); auto. unfold growth. destruct (own_of g j); auto. destruct (own_of g' j); auto. unfold tsum. apply rsum_0. intros q _. apply csum_0. intros q' _. ring.
    + rewrite rsum_delta by (eapply nth_error_Some_lt; eauto). unfold growth. rewrite A1, A2, A4.
      transitivity (tsum (t_shape v) (fun c b => (fun p => if Nat.eqb (pos (t_shape v) c0 b0) p then nth0 (buf a') p - nth0 (buf a) p else 0) (pos (t_shape v) c b))).
      * apply tsum_ext; [apply (ready_wf RV)|]. intros c b Hc Hb. cbv beta. rewrite !at_buf, A4, A5. destruct (Nat.eqb _ _); [ring|ring].
      * rewrite (tsum_flat (fun p => if Nat.eqb (pos (t_shape v) c0 b0) p then nth0 (buf a') p - nth0 (buf a) p else 0) (ready_wf RV)). rewrite (@rsum_delta _ _ (fun p => nth0 (buf a') p - nth0 (buf a) p)) by (apply pos_lt; auto; apply (ready_wf RV)). rewrite !at_buf, A4, A5. reflexivity.
Qed.
(** so both halves of a split get the same gradients, whichever is asked for *)
Theorem C41_outputs_indistinguishable : forall m gal popf popb (g : rgraph) i v w, node_backward m (interp m) gal popf popb g (i, v) = node_backward m (interp m) gal popf popb g (i, w).
Proof. reflexivity. Qed.

(** ** A concrete case: x = (2, 3) a parameter, split in two; backward on the first half *)
Definition halves_build : res (rgraph * list node) :=
  ' (g1, x) <- n_parameter Debug (@empty Rnum (oper Rnum)) br (PropsReal.tr 0 [2%N] 1 [2; 3]) (PropsReal.tr 0 [2%N] 1 [10; 20]) ;;
  n_split (K := Rnum) Debug 0 2 g1 br x.
Lemma halves_built g ns : halves_build = Ok (g, ns) -> built Debug g.
Proof.
  unfold halves_build. intros E. apply bind_Ok in E. destruct E as ([g1 x] & E1 & E2). unfold n_split, n_create in E2. apply bind_Ok in E2. destruct E2 as (d & _ & E2). eapply b_create; [|exact E2].
  eapply built_leaf; [|exact E1]. constructor.
Qed.
Definition halves_g : rgraph := Eval lazy -[alr Rnum IZR] in fst (okv (@empty Rnum (oper Rnum), []) halves_build).
Lemma halves_eq : halves_build = Ok (halves_g, [(1%nat, 0%nat); (1%nat, 1%nat)]). Proof. reflexivity. Qed.
Lemma halves_uses i : uses halves_g 1 i -> (i < 2)%nat.
Proof. intros U. destruct (clean_inv (interp_lawful (K := Rnum) (m := Debug)) (built_clean (halves_built halves_eq))) as (W & _). apply (uses_lt W U). cbn. lia. Qed.
Lemma halves_differentiable : differentiable_below Debug 0 halves_g 1.
Proof.
  assert (R0 : ready 0 (PropsReal.tr 0 [2%N] 1 [2; 3])) by rdyr. assert (R2 : ready 0 (PropsReal.tr 0 [2%N] 1 [10; 20])) by rdyr.
  assert (F2 : fits sh2) by (apply (sh_fits [2%N] (b := 1%N)); reflexivity). assert (F1 : fits (sh [1%N] 1)) by (apply (sh_fits [1%N] (b := 1%N)); reflexivity).
  constructor.
  - intros i o U Ho. pose proof (halves_uses U) as Li.
    destruct i as [|[|i]]; try lia; cbn in Ho; inversion Ho; subst o; clear Ho; (constructor; [reflexivity| |intros; apply alr_ok|intros; apply alr_ok| | | |]); cbn -[nat32].
    + exact R0. + split; reflexivity. + apply Forall_cons; [exact F2|apply Forall_nil]. + exact I. + intros v E. inversion E; subst v. eexists. split; [reflexivity|]. split; [exact R2|reflexivity].
    + exact I.
    + exists sh2, (sh [1%N] 1). split; [reflexivity|]. split; [reflexivity|]. split; [cbn; lia|]. split; [lia|]. split; [reflexivity|]. destruct (@sh_is [1%N] 1%N eq_refl eq_refl) as (W & E & B). split; [exact W|split; [|exact B]]. intros i. rewrite E. unfold eset. destruct i as [|i]; [reflexivity|]. change (S i =? nat32 0)%nat with false. cbv iota. destruct sh2_is as (_ & E2 & _). rewrite E2. destruct i as [|[|i]]; reflexivity.
    + apply Forall_cons; [exact F1|apply Forall_cons; [exact F1|apply Forall_nil]]. + exact I. + discriminate.
  - intros i o xs U Ho EX. pose proof (halves_uses U) as Li. intros s c b ER Hc Hb. destruct i as [|[|i]]; try lia; cbn in Ho; inversion Ho; subst o; cbn; auto.
  - intros i o v U NE Ho Lv. pose proof (halves_uses U) as Li. destruct i as [|[|i]]; try lia. cbn in Ho. inversion Ho; subst o. cbn in Lv. assert (v = 0%nat) by lia. subst v. exists 1%nat. split; [constructor|left; reflexivity].
  - cbn. lia.
Qed.
(** backward on the first half alone also changes the gradient of x_1, which that half does not depend on *)
Example C41_all_outputs_applies : exists g' a', node_backward Debug (interp Debug) (fun _ _ => alr) fifo_min lifo_max halves_g (1%nat, 0%nat) = Ok g' /\ own_of g' 0 = Some a' /\
  D (fun t => totals Debug (with_value 0 (PropsReal.tr 0 [2%N] 1 [2; 3 + t]) halves_g) 2 1) (at_ a' (c2 1 0) 0 - 20).
Proof.
  destruct (@C41_partial_derivatives Debug (fun _ _ => alr) fifo_min lifo_max halves_g 0 (1%nat, 0%nat) (halves_built halves_eq)) as (g' & E & _ & H); try apply heaps_ok; auto; [intros; apply alr_ok|exact halves_differentiable|].
  assert (U0 : uses halves_g 1 0). { eapply uses_step with (n := (0%nat, 0%nat)); [reflexivity|left; reflexivity|constructor]. }
  destruct (H 0%nat _ (PropsReal.tr 0 [2%N] 1 [2; 3]) (c2 1 0) 0%nat U0 eq_refl eq_refl) as (a & a' & A1 & A2 & DD).
  - intros i. destruct i as [|[|i]]; cbn; lia.
  - cbn; lia.
  - exists g', a'. split; [exact E|]. split; [exact A2|]. inversion A1; subst a. exact DD.
Qed.
