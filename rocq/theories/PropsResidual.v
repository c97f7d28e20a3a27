(** * PropsResidual: several backward passes over one graph (C40) *)
From Verif Require Export PropsProgram.
Set Implicit Arguments.
Unset Strict Implicit.
Open Scope R_scope.

(** ** Specification *)
(** a graph that has been created, evaluated and differentiated (from any number of
    losses) without a panic *)
Inductive lived (m : build) (d : nat) : rgraph -> Prop :=
| lv_empty : lived m d (@empty Rnum (oper Rnum))
| lv_create g op own xs g' ns : lived m d g -> create (interp m) g op own xs = Ok (g', ns) -> lived m d g'
| lv_forward g pop root g' : lived m d g -> min_heap pop -> (root < length (g_ops g))%nat -> forward (interp m) pop g root = (g', Ok tt) -> lived m d g'
| lv_backward g gal popf popb n g' : lived m d g -> min_heap popf -> max_heap popb -> (forall i v, al_ok (gal i v)) -> snd n = 0%nat -> differentiable m d g (fst n) ->
    node_backward m (interp m) gal popf popb g n = Ok g' -> lived m d g'.
(** the gradient of [n] has been written by an earlier backward pass *)
Definition touched (g : rgraph) (n : node) : Prop := exists t, grad_of g n = Ok t /\ valid t = true.

(** ** Facts *)
Definition grads_kind (d : nat) (g : rgraph) : Prop := forall i o v t, nth_error (g_ops g) i = Some o -> nth_error (oi_grads o) v = Some t ->
  exists y, nth_error (oi_vals o) v = Some y /\ (t = blank y \/ ready d t /\ t_shape t = t_shape y).
Lemma same_blank (a b : list rtensor) v y : map blank a = map blank b -> nth_error a v = Some y -> exists y', nth_error b v = Some y' /\ blank y' = blank y.
Proof.
  intros E H. assert (Q : nth_error (map blank b) v = Some (blank y)) by (rewrite <- E, nth_error_map, H; auto). rewrite nth_error_map in Q. destruct (nth_error b v) as [y'|]; [|discriminate Q]. exists y'. split; auto. cbn in Q. congruence.
Qed.
Lemma blank_shape (a b : rtensor) : blank a = blank b -> t_shape a = t_shape b. Proof. unfold blank. intros H. injection H. auto. Qed.
Lemma node_shape_extends (g g' : rgraph) n : extends g g' -> (exists o, nth_error (g_ops g) (fst n) = Some o /\ (snd n < length (oi_vals o))%nat) -> node_shape g' n = node_shape g n.
Proof.
  intros X (o & Ho & L). destruct (X _ _ Ho) as (o' & Ho' & (_ & _ & E & _)). unfold node_shape, value_of. rewrite (idx_nth Ho), (idx_nth Ho'). cbn [bind]. destruct (nth_error (oi_vals o) (snd n)) as [y|] eqn:Ey; [|apply nth_error_None in Ey; lia].
  destruct (same_blank E Ey) as (y' & Ey' & B). rewrite (idx_nth Ey), (idx_nth Ey'). apply blank_shape; auto.
Qed.

Lemma root_untouched m gal popf popb (g g' : rgraph) n : (fst n < length (g_ops g))%nat -> node_backward m (interp m) gal popf popb g n = Ok g' ->
  forall o t, nth_error (g_ops g) (fst n) = Some o -> In t (oi_grads o) -> valid t = false.
Proof.
  intros L E o t Ho Ht. unfold node_backward, node_forward in E. destruct (forward (interp m) popf g (fst n)) as [gf r] eqn:EF. pose proof (forward_grads EF (fst n)) as K. rewrite Ho in K.
  destruct (nth_error (g_ops gf) (fst n)) as [o'|] eqn:Ho'; [|discriminate]. cbn in K. injection K as K1 K2. destruct r as [[]| |]; try discriminate. unfold backward in E. apply bind_Ok in E. destruct E as (g1 & E & _). unfold seed in E. rewrite (idx_nth Ho') in E. cbn [bind] in E.
  apply bind_Ok in E. destruct E as (gs & E & _). apply mapM_Forall2 in E. rewrite <- K1 in Ht. destruct (In_nth_error _ _ Ht) as (v & Hv). destruct (Forall2_nth E (nth_error_combine_seq 0 Hv)) as (t' & _ & Q). cbn [fst snd] in Q. apply bind_Ok in Q. destruct Q as (t1 & Q & _).
  unfold alloc in Q. apply bind_Ok in Q. destruct Q as (u & Q & _). apply assert_Ok in Q. destruct (valid t); [discriminate|auto].
Qed.
Lemma extends_len (g g' : rgraph) : extends g g' -> (length (g_ops g) <= length (g_ops g'))%nat.
Proof.
  intros X. destruct (Nat.le_gt_cases (length (g_ops g)) (length (g_ops g'))) as [L|L]; auto. exfalso. destruct (nth_error (g_ops g) (length (g_ops g'))) as [o|] eqn:Ho; [|apply nth_error_None in Ho; lia]. destruct (X _ _ Ho) as (o' & Ho' & _). apply nth_error_Some_lt in Ho'. lia.
Qed.
Lemma uses_decided (g : rgraph) root i : gwf g -> (root < length (g_ops g))%nat -> uses g root i \/ ~ uses g root i.
Proof. intros GW L. destruct (requests_spec GW L) as (_ & H). destruct (in_dec Nat.eq_dec i (requests g root)) as [HI|HI]; [left|right]; rewrite <- H; auto. Qed.
Lemma built_lived m d g : built m g -> lived m d g.
Proof. induction 1; [constructor|eapply lv_create|eapply lv_forward]; eauto. Qed.
Lemma kind_graded d (g : rgraph) root : grads_kind d g -> (forall o t, nth_error (g_ops g) root = Some o -> In t (oi_grads o) -> valid t = false) -> graded d g root.
Proof. intros K U. constructor; auto. intros i o v t _. apply K. Qed.
Lemma grads_kind_after m gal popf popb d (g g' : rgraph) n : clean (interp m) g -> grads_kind d g -> min_heap popf -> max_heap popb -> (forall i v, al_ok (gal i v)) -> snd n = 0%nat -> differentiable m d g (fst n) ->
  node_backward m (interp m) gal popf popb g n = Ok g' -> clean (interp m) g' /\ grads_kind d g' /\ extends g g' /\ extends g' g.
Proof.
  intros HC HK HF HX HA HV DF E. destruct (clean_inv (interp_lawful (K := Rnum) (m := m)) HC) as (GW & _). destruct (df_root DF) as (oR & HoR & _). pose proof (nth_error_Some_lt HoR) as LR.
  destruct (backward_derivative HC (kind_graded HK (root_untouched LR E)) HF HX HA HV DF) as (g2 & E2 & _ & _ & _ & (C2 & X1 & X2) & NU & US & _). assert (g2 = g') by congruence. subst g2. split; auto. split; [|auto].
  intros i o' v t Ho' Hv. destruct (X2 _ _ Ho') as (o & Ho & (_ & _ & SB & SL & _)). assert (Lv : (v < length (oi_vals o))%nat) by (rewrite <- (gwf_len GW Ho), <- SL; eapply nth_error_Some_lt; eauto).
  destruct (nth_error (oi_vals o) v) as [y0|] eqn:Ey0; [|apply nth_error_None in Ey0; lia]. destruct (same_blank (eq_sym SB) Ey0) as (y & Ey & B). exists y. split; auto. assert (Hg : grad_of g' (i, v) = Ok t) by (eapply grad_of_Ok; eauto).
  destruct (uses_decided i GW LR) as [U|U].
  - right. destruct (US i o v U Ho Lv) as (t' & Ht' & RT & ST). assert (t' = t) by congruence. subst t'. split; auto. rewrite ST. unfold node_shape, value_of. cbn [fst snd]. rewrite (idx_nth Ho). cbn [bind]. rewrite (idx_nth Ey0). symmetry. apply blank_shape; auto.
  - rewrite NU in Hg by auto. destruct (grad_of_inv Hg) as (o2 & Ho2 & Hv2). cbn [fst snd] in * . assert (o2 = o) by congruence. subst o2. destruct (HK i o v t Ho Hv2) as (y1 & Ey1 & CS). assert (y1 = y0) by congruence. subst y1.
    destruct CS as [CS|(CS1 & CS2)]; [left; congruence|right; split; auto]. rewrite CS2. symmetry. apply blank_shape; auto.
Qed.
Lemma lived_inv m d g : lived m d g -> clean (interp m) g /\ grads_kind d g.
Proof.
  induction 1 as [|g op own xs g' ns H (HC & HK) E|g pop root g' H (HC & HK) HP L E|g gal popf popb n g' H (HC & HK) HF HX HA HV DF E].
  - split; [constructor|]. intros [|i]; discriminate.
  - split; [eapply c_create; eauto|]. apply create_inv in E. destruct E as (ss & rs & vals & grads & ds & _ & _ & _ & EG & _ & EB & _ & _ & -> & _). intros i o v t Ho Hv. cbn [g_ops] in Ho. destruct (Nat.lt_ge_cases i (length (g_ops g))) as [L|L]; [rewrite nth_error_app1 in Ho by auto; eapply HK; eauto|].
    rewrite nth_error_app2 in Ho by auto. destruct (i - length (g_ops g))%nat as [|k]; cbn in Ho; [|destruct k; discriminate]. injection Ho as <-. cbn [oi_grads oi_vals] in * . exists t. rewrite EG. split; auto. left. assert (Q : nth_error (map blank grads) v = Some t) by (rewrite <- EG, EB, EG; auto). rewrite nth_error_map, Hv in Q. cbn in Q. congruence.
  - split; [eapply c_forward; eauto|]. intros i o v t Ho Hv. pose proof (forward_grads E i) as K. rewrite Ho in K. cbn in K. destruct (nth_error (g_ops g) i) as [p|] eqn:Hp; [|discriminate]. injection K as K1 K2. rewrite K1 in Hv. destruct (HK i p v t Hp Hv) as (y & Ey & CS).
    destruct (clean_inv (interp_lawful (K := Rnum) (m := m)) HC) as (W & Lg & S). destruct (proj2 (forward_spec (interp_lawful (K := Rnum) (m := m)) W S Lg HP L E) eq_refl) as (_ & _ & _ & X & _).
    destruct (X i p Hp) as (p' & Hp' & (_ & _ & SB & _)). assert (p' = o) by congruence. subst p'. destruct (same_blank SB Ey) as (y' & Ey' & B). exists y'. split; auto. destruct CS as [CS|(C1 & C2)]; [left; congruence|right; split; auto]. rewrite C2. symmetry. apply blank_shape; auto.
  - destruct (grads_kind_after HC HK HF HX HA HV DF E) as (A & B & _). auto.
Qed.

(** ** C40 *)
(** what a backward pass computes in a graph that has already been differentiated: the
    derivative of the loss plus, for every other operator the loss uses, its outputs
    weighted with the gradients earlier passes left there.  With nothing left over this is C38. *)
Theorem C40_leftover_gradients : forall m gal popf popb (g : rgraph) d n, lived m d g -> min_heap popf -> max_heap popb -> (forall i v, al_ok (gal i v)) ->
  snd n = 0%nat -> differentiable m d g (fst n) -> ~ touched g n ->
  exists g', node_backward m (interp m) gal popf popb g n = Ok g' /\ lived m d g' /\
    (forall i, ~ uses g (fst n) i -> own_of g' i = own_of g i) /\
    forall l, NoDup l -> (forall i, In i l <-> uses g (fst n) i /\ i <> fst n) -> forall W dW, moving d g (fst n) W dW ->
      D (fun t => total m (with_params (W t) g) n + lsum (carried m g (with_params (W t) g)) l) (rsum (length (g_ops g)) (fun i => growth g g' i (dW i))).
Proof.
  intros m gal popf popb g d n HL HF HX HA HV DF NT. destruct (lived_inv HL) as (HC & HK). destruct (df_root DF) as (oR & HoR & LR1). destruct (clean_inv (interp_lawful (K := Rnum) (m := m)) HC) as (GW & _).
  destruct (@backward_derivative m gal popf popb g d n HC) as (g' & E & _ & B & _ & _ & _ & _ & DD); auto.
  - apply kind_graded; auto. intros o t Ho Ht. assert (o = oR) by congruence. subst o. destruct (valid t) eqn:V; auto. exfalso. apply NT. exists t. split; auto. destruct (In_nth_error _ _ Ht) as (v & Hv). pose proof (nth_error_Some_lt Hv) as Lv. rewrite (gwf_len GW HoR), LR1 in Lv. eapply grad_of_Ok; eauto. rewrite HV. replace v with 0%nat in Hv by lia. auto.
  - exists g'. split; auto. split; auto. eapply lv_backward; eauto.
Qed.
(** a second pass from the same root, or from a node below an earlier root, never succeeds *)
Theorem C40_touched_root_refused : forall m gal popf popb (g : rgraph) n, (fst n < length (g_ops g))%nat -> touched g n ->
  forall g', node_backward m (interp m) gal popf popb g n <> Ok g'.
Proof.
  intros m gal popf popb g n L (t & Ht & V) g' E. destruct (grad_of_inv Ht) as (o & Ho & Hv). pose proof (root_untouched L E Ho (nth_error_In _ _ Hv)). congruence.
Qed.

(** ** Two losses that share only parameters *)
Lemma extends_uses (a b : rgraph) : extends a b -> forall i j, uses a i j -> uses b i j.
Proof. intros XX i j U. induction U as [|i o n j Ho Hn U IH]; [constructor|]. destruct (XX _ _ Ho) as (o' & Ho' & (_ & E & _)). eapply uses_step; eauto. rewrite <- E. auto. Qed.
Lemma with_params_extends w (g g' : rgraph) : extends g g' -> extends (with_params w g) (with_params w g').
Proof.
  intros X i o Ho. rewrite nth_with_params in Ho |- * . destruct (nth_error (g_ops g) i) as [p|] eqn:Hp; inversion Ho; subst o. destruct (X i p Hp) as (p' & Hp' & S1 & S2 & S3 & S4 & S5). rewrite Hp'. cbn [option_map]. eexists. split; [reflexivity|].
  destruct (with_param_fields (w i) p) as (A1 & A2 & A3 & A4 & _). destruct (with_param_fields (w i) p') as (B1 & B2 & B3 & B4 & _). unfold same_skel. rewrite A1, A2, A3, A4, B1, B2, B3, B4. split; auto. unfold with_param. rewrite S1. destruct (o_kind (oi_op p')); auto.
Qed.
Lemma with_params_len w (g : rgraph) : length (g_ops (with_params w g)) = length (g_ops g).
Proof. unfold with_params. cbn [g_ops]. rewrite map_length, combine_length, seq_length. apply Nat.min_id. Qed.
Lemma with_params_ext w w' (g : rgraph) : (forall j, w j = w' j) -> with_params w g = with_params w' g.
Proof. intros H. unfold with_params. f_equal. apply map_ext. intros io. rewrite H. auto. Qed.
Lemma same_kinds (g g' : rgraph) j : extends g g' -> extends g' g -> kind_of g' j = kind_of g j.
Proof.
  intros X X'. unfold kind_of. destruct (nth_error (g_ops g) j) as [o|] eqn:Ho; [destruct (X _ _ Ho) as (o' & Ho' & (E & _)); rewrite Ho', E; auto|].
  destruct (nth_error (g_ops g') j) as [o'|] eqn:Ho'; auto. destruct (X' _ _ Ho') as (o & Ho2 & _). congruence.
Qed.
Lemma with_value_extends i w (g g' : rgraph) : extends g g' -> extends g' g -> extends (with_value i w g) (with_value i w g').
Proof.
  intros X X'. unfold with_value. rewrite (@with_params_ext (fun j => if Nat.eqb j i then w else param_value g' j) (fun j => if Nat.eqb j i then w else param_value g j) g').
  - apply with_params_extends; auto.
  - intros j. unfold param_value. rewrite (same_kinds j X X'). auto.
Qed.
Lemma not_used_eval m (g : rgraph) i w j : gwf g -> (j < length (g_ops g))%nat -> ~ uses g j i -> eval (interp m) (with_value i w g) j = eval (interp m) g j.
Proof.
  intros GW. induction j as [j IH] using (well_founded_induction lt_wf). intros L NU. destruct (nth_error (g_ops g) j) as [o|] eqn:Ho; [|apply nth_error_None in Ho; lia].
  assert (NE : j <> i) by (intros ->; apply NU; constructor).
  assert (Hw : nth_error (g_ops (with_value i w g)) j = Some o).
  { unfold with_value. rewrite nth_with_params, Ho. cbn [option_map]. apply Nat.eqb_neq in NE. rewrite NE. f_equal. unfold with_param, param_value, kind_of. rewrite Ho. destruct (o_kind (oi_op o)) eqn:EK; auto. destruct o as [[? ? ? ?] ? ? ? ? ? ?]. cbn in * . congruence. }
  assert (GW2 : gwf (with_value i w g)) by (apply with_params_gwf; auto).
  rewrite (eval_eq (interp m) GW2 Hw), (eval_eq (interp m) GW Ho). f_equal. apply mapM_ext. intros n Hn. destruct (gwf_args GW Ho Hn) as (Ln & p & Hp & _). unfold eval_node. rewrite IH; auto; [eapply nth_error_Some_lt; eauto|]. intros U. apply NU. eapply uses_step; eauto.
Qed.
(** the parameter [i] moves along one of its elements *)
Definition unit_at (v : rtensor) (c0 : coord') (b0 : nat) (i : nat) (j : nat) (c : coord') (b : nat) : R := if Nat.eqb j i then (if Nat.eqb (pos (t_shape v) c0 b0) (pos (t_shape v) c b) then 1 else 0) else 0.
Definition bump_path (g : rgraph) (i : nat) (v : rtensor) (c0 : coord') (b0 : nat) (t : R) (j : nat) : rtensor := if Nat.eqb j i then bump v c0 b0 t else param_value g j.
Lemma bump_speed d (v : rtensor) c0 b0 c b : ready d v -> inb (t_shape v) c0 -> (b0 < bat (t_shape v))%nat -> inb (t_shape v) c -> (b < bat (t_shape v))%nat ->
  D (fun t => at_ (bump v c0 b0 t) c b) (if Nat.eqb (pos (t_shape v) c0 b0) (pos (t_shape v) c b) then 1 else 0).
Proof.
  intros RV Hc0 Hb0 Hc Hb. eapply deriv_ext with (f := fun t => at_ v c b + (if Nat.eqb (pos (t_shape v) c0 b0) (pos (t_shape v) c b) then t else 0)); [intros t; symmetry; eapply bump_at; eauto|].
  destruct (Nat.eqb _ _); [|apply deriv_const]. eapply deriv_val; [apply deriv_add; [apply deriv_const|apply deriv_id]|cbv beta; ring].
Qed.
Lemma bump_moving d (g : rgraph) root i o v c0 b0 : (forall j p w, uses g root j -> nth_error (g_ops g) j = Some p -> o_kind (oi_op p) = KParameter w -> ready d w) ->
  nth_error (g_ops g) i = Some o -> o_kind (oi_op o) = KParameter v -> ready d v -> inb (t_shape v) c0 -> (b0 < bat (t_shape v))%nat -> moving d g root (bump_path g i v c0 b0) (unit_at v c0 b0 i).
Proof.
  intros RD Ho EK RV Hc0 Hb0.
  assert (PV : forall j p w, nth_error (g_ops g) j = Some p -> o_kind (oi_op p) = KParameter w -> param_value g j = w) by (intros j p w Hp EKp; unfold param_value, kind_of; rewrite Hp, EKp; auto).
  constructor; unfold bump_path, unit_at.
  + intros j p w Uj Hp EKp. cbv beta. destruct (Nat.eqb_spec j i) as [->|]; [|eapply PV; eauto]. assert (w = v) by congruence. subst w. eapply bump_0; eauto.
  + intros t j p w Uj Hp EKp. cbv beta. destruct (Nat.eqb_spec j i) as [->|]. * assert (w = v) by congruence. subst w. apply bump_ready; auto. * rewrite (PV _ _ _ Hp EKp). split; auto. eapply RD; eauto.
  + intros j p w c b Uj Hp EKp Hc Hb. cbv beta. destruct (Nat.eqb_spec j i) as [->|]; [|apply deriv_const]. assert (w = v) by congruence. subst w. eapply bump_speed; eauto.
Qed.
Lemma pick_element (s : shape) (f : coord' -> nat -> R) (h : nat -> R) c0 b0 : wf s -> inb s c0 -> (b0 < bat s)%nat -> (forall c b, inb s c -> (b < bat s)%nat -> f c b = h (pos s c b)) ->
  tsum s (fun c b => f c b * (if Nat.eqb (pos s c0 b0) (pos s c b) then 1 else 0)) = f c0 b0.
Proof.
  intros W Hc0 Hb0 HF. transitivity (tsum s (fun c b => (fun p => if Nat.eqb (pos s c0 b0) p then h p else 0) (pos s c b))).
  - apply tsum_ext; auto. intros c b Hc Hb. cbv beta. rewrite (HF c b Hc Hb). destruct (Nat.eqb _ _); ring.
  - rewrite (tsum_flat (fun p => if Nat.eqb (pos s c0 b0) p then h p else 0) W). rewrite (@rsum_delta _ _ h) by (apply pos_lt; auto). symmetry. auto.
Qed.
Lemma growth_unit (g g' : rgraph) i v c0 b0 a a' : (i < length (g_ops g))%nat -> wf (t_shape v) -> inb (t_shape v) c0 -> (b0 < bat (t_shape v))%nat -> own_of g i = Some a -> own_of g' i = Some a' -> t_shape a = t_shape v -> t_shape a' = t_shape v ->
  rsum (length (g_ops g)) (fun j => growth g g' j (unit_at v c0 b0 i j)) = at_ a' c0 b0 - at_ a c0 b0.
Proof.
  intros L WV Hc0 Hb0 A1 A2 S1 S2. transitivity (rsum (length (g_ops g)) (fun j => if Nat.eqb i j then growth g g' j (fun c b => if Nat.eqb (pos (t_shape v) c0 b0) (pos (t_shape v) c b) then 1 else 0) else 0)).
  - apply rsum_ext. intros j _. unfold unit_at. rewrite Nat.eqb_sym. destruct (Nat.eqb_spec i j); auto. unfold growth. destruct (own_of g j); auto. destruct (own_of g' j); auto. unfold tsum. apply rsum_0. intros q _. apply csum_0. intros q' _. ring.
  - rewrite rsum_delta by auto. unfold growth. rewrite A1, A2, S1. apply (@pick_element (t_shape v) (fun c b => at_ a' c b - at_ a c b) (fun p => nth0 (buf a') p - nth0 (buf a) p)); auto. intros c b _ _. rewrite !at_buf, S1, S2. reflexivity.
Qed.
Lemma differentiable_after m gal popf popb d (g g' : rgraph) n root : clean (interp m) g -> grads_kind d g -> min_heap popf -> max_heap popb -> (forall i v, al_ok (gal i v)) -> snd n = 0%nat -> differentiable m d g (fst n) ->
  node_backward m (interp m) gal popf popb g n = Ok g' -> differentiable m d g root -> differentiable m d g' root.
Proof.
  intros HC HK HF HX HA HV DF E [SUP SM USED (oR & HoR & LR1)]. destruct (clean_inv (interp_lawful (K := Rnum) (m := m)) HC) as (GW & _). destruct (df_root DF) as (oN & HoN & _). pose proof (nth_error_Some_lt HoN) as LN. pose proof (nth_error_Some_lt HoR) as LR.
  destruct (backward_derivative HC (kind_graded HK (root_untouched LN E)) HF HX HA HV DF) as (g2 & E2 & PA & NU & NK & (C2 & X1 & X2) & _). assert (g2 = g') by congruence. subst g2. clear E2.
  assert (US : forall i j, uses g' i j <-> uses g i j) by (intros; split; apply extends_uses; auto).
  assert (OP : forall i o', uses g' root i -> nth_error (g_ops g') i = Some o' -> exists o, uses g root i /\ nth_error (g_ops g) i = Some o /\ oi_op o' = oi_op o /\ oi_args o' = oi_args o /\ map shp (oi_vals o') = map shp (oi_vals o)).
  { intros i o' U Ho'. destruct (X2 _ _ Ho') as (o & Ho & (A & B & C & _)). exists o. split; [apply US; auto|]. split; auto. split; auto. split; auto. apply (f_equal (map shp)) in C. rewrite !map_map in C. exact C. }
  constructor.
  - intros i o' U Ho'. destruct (OP i o' U Ho') as (o & Ug & Ho & E1 & E2 & E3). destruct (SUP i o Ug Ho) as [Q1 Q2 Q3 Q4 Q5 Q6 Q7 Q8].
    assert (AS : arg_shapes g' o' = arg_shapes g o). { unfold arg_shapes. rewrite E2. apply map_ext_in. intros k Hk. apply node_shape_extends; auto. destruct (gwf_args GW Ho Hk) as (_ & p & Hp & Lp & _). eauto. }
    constructor; rewrite ?E1, ?AS, ?E3; auto. intros v EK. destruct (Q8 v EK) as (a & A1 & A2 & A3). destruct (uses_decided i GW LN) as [U1|U1].
    + destruct (PA i o v U1 Ho EK) as (b & b' & B1 & B2 & B3 & _ & B5 & _). unfold own_of in B2. rewrite Ho' in B2. eauto.
    + pose proof (NU i U1) as Q. unfold own_of in Q. rewrite Ho, Ho' in Q. exists a. rewrite Q. auto.
  - intros i o' xs U Ho' Hxs. destruct (OP i o' U Ho') as (o & Ug & Ho & E1 & E2 & E3). rewrite E1, E3. apply (SM i o xs Ug Ho). rewrite <- Hxs, E2. apply mapM_ext. intros k Hk. destruct (gwf_args GW Ho Hk) as (_ & p & Hp & _). unfold eval_node. rewrite (eval_extends (interp m) GW X1); auto. eapply nth_error_Some_lt; eauto.
  - intros i o' v U NE Ho' Hv. destruct (OP i o' U Ho') as (o & Ug & Ho & E1 & E2 & E3). destruct (USED i o v Ug NE Ho) as (j & Uj & HI); [rewrite <- (map_length shp), <- E3, map_length; auto|]. exists j. split; [apply US; auto|]. unfold args_of in * . destruct (nth_error (g_ops g) j) as [p|] eqn:Hp; [|destruct HI]. destruct (X1 _ _ Hp) as (p' & Hp' & (_ & B & _)). rewrite Hp', <- B. auto.
  - destruct (X1 _ _ HoR) as (o' & Ho' & (_ & _ & B & _)). exists o'. split; auto. rewrite <- LR1, <- (map_length blank), <- B, map_length. auto.
Qed.
(** no operator used by both losses depends on a parameter, except the parameter nodes themselves *)
Definition share_only_parameters (g : rgraph) (n1 n2 : node) : Prop := forall j i, uses g (fst n1) j -> uses g (fst n2) j -> uses g j i -> (exists v, kind_of g i = Some (KParameter v)) -> j = i.

Theorem C40_shared_parameters : forall m gal1 gal2 popf1 popb1 popf2 popb2 (g : rgraph) d n1 n2, built m g ->
  min_heap popf1 -> max_heap popb1 -> min_heap popf2 -> max_heap popb2 -> (forall i v, al_ok (gal1 i v)) -> (forall i v, al_ok (gal2 i v)) ->
  snd n1 = 0%nat -> snd n2 = 0%nat -> differentiable m d g (fst n1) -> differentiable m d g (fst n2) -> ~ uses g (fst n1) (fst n2) -> share_only_parameters g n1 n2 ->
  exists g1 g2, node_backward m (interp m) gal1 popf1 popb1 g n1 = Ok g1 /\ node_backward m (interp m) gal2 popf2 popb2 g1 n2 = Ok g2 /\
    forall i o v c b, uses g (fst n1) i \/ uses g (fst n2) i -> nth_error (g_ops g) i = Some o -> o_kind (oi_op o) = KParameter v -> inb (t_shape v) c -> (b < bat (t_shape v))%nat ->
    exists a a2, own_of g i = Some a /\ own_of g2 i = Some a2 /\
      let l1 := fun t => total m (with_value i (bump v c b t) g) n1 in let l2 := fun t => total m (with_value i (bump v c b t) g) n2 in
      (~ (uses g (fst n1) i /\ uses g (fst n2) i) -> D (fun t => l1 t + l2 t) (at_ a2 c b - at_ a c b)) /\
      (uses g (fst n1) i /\ uses g (fst n2) i -> D (fun t => 2 * l1 t + l2 t) (at_ a2 c b - at_ a c b)).
Proof.
  intros m gal1 gal2 popf1 popb1 popf2 popb2 g d n1 n2 HB HF1 HX1 HF2 HX2 HA1 HA2 V1 V2 DF1 DF2 NU12 SH.
  pose proof (built_clean HB) as HC. destruct (built_graded d (fst n1) HB) as (GR1 & HZ).
  assert (HK : grads_kind d g). { intros i o v t Ho Hv. rewrite (built_grads HB Ho), nth_error_map in Hv. destruct (nth_error (oi_vals o) v) as [y|] eqn:Ey; inversion Hv. eauto. }
  destruct (clean_inv (interp_lawful (K := Rnum) (m := m)) HC) as (GW & _).
  destruct (df_root DF1) as (o1 & Ho1 & _). destruct (df_root DF2) as (o2 & Ho2 & _). pose proof (nth_error_Some_lt Ho1) as L1. pose proof (nth_error_Some_lt Ho2) as L2.
  destruct (backward_derivative HC GR1 HF1 HX1 HA1 V1 DF1) as (g1 & E1 & P1 & N1 & _ & (C1 & X1 & X1') & G1 & G1' & DD1).
  destruct (grads_kind_after HC HK HF1 HX1 HA1 V1 DF1 E1) as (_ & HK1 & _).
  assert (DF2' : differentiable m d g1 (fst n2)) by (apply (differentiable_after HC HK HF1 HX1 HA1 V1 DF1 E1 DF2)).
  assert (GR2 : graded d g1 (fst n2)).
  { apply kind_graded; auto. intros o t Ho Ht. destruct (In_nth_error _ _ Ht) as (v & Hv). assert (Hg : grad_of g1 (fst n2, v) = Ok t) by (eapply grad_of_Ok; eauto). rewrite G1 in Hg by auto.
    destruct (grad_of_inv Hg) as (o' & Ho' & Hv'). cbn [fst snd] in * . rewrite (built_grads HB Ho'), nth_error_map in Hv'. destruct (nth_error (oi_vals o') v); inversion Hv'. reflexivity. }
  destruct (backward_derivative C1 GR2 HF2 HX2 HA2 V2 DF2') as (g2 & E2 & P2 & N2 & _ & _ & _ & _ & DD2).
  assert (US : forall i j, uses g1 i j <-> uses g i j) by (intros; split; apply extends_uses; auto).
  destruct (clean_inv (interp_lawful (K := Rnum) (m := m)) C1) as (GW1 & _).
  exists g1, g2. split; auto. split; auto. intros i o v c0 b0 U Ho EK Hc0 Hb0. pose proof (nth_error_Some_lt Ho) as Li.
  destruct (X1 _ _ Ho) as (o' & Ho' & (SO & _)). assert (EK' : o_kind (oi_op o') = KParameter v) by (rewrite <- SO; auto).
  assert (RV : ready d v) by (destruct U as [U|U]; [pose proof (sup_wt (df_sup DF1 U Ho)) as Q|pose proof (sup_wt (df_sup DF2 U Ho)) as Q]; rewrite EK in Q; exact Q).
  pose proof (ready_wf RV) as WV.
  (* totals do not depend on the run *)
  assert (TOT : forall t n, (fst n < length (g_ops g))%nat -> total m (with_params (bump_path g1 i v c0 b0 t) g1) n = total m (with_value i (bump v c0 b0 t) g) n).
  { intros t n L. change (with_params (bump_path g1 i v c0 b0 t) g1) with (with_value i (bump v c0 b0 t) g1). unfold total, eval_node. rewrite (eval_extends (interp m) (with_params_gwf _ GW) (@with_value_extends i (bump v c0 b0 t) g g1 X1 X1')) by (unfold with_value; rewrite with_params_len; auto). reflexivity. }
  assert (CONST : forall n, (fst n < length (g_ops g))%nat -> ~ uses g (fst n) i -> D (fun t => total m (with_value i (bump v c0 b0 t) g) n) 0).
  { intros n L NU. eapply deriv_ext; [|apply (deriv_const (total m g n))]. intros t. unfold total, eval_node. rewrite not_used_eval; auto. }
  destruct (below_list GW L1) as (l1 & ND1 & HL1). destruct (below_list GW1 (root := fst n2) ltac:(pose proof (extends_len X1); lia)) as (l2 & ND2 & HL2).
  assert (DD1' : forall a a1, own_of g i = Some a -> own_of g1 i = Some a1 -> t_shape a = t_shape v -> t_shape a1 = t_shape v -> D (fun t => total m (with_value i (bump v c0 b0 t) g) n1) (at_ a1 c0 b0 - at_ a c0 b0)).
  { intros a a1 A1 A2 S1 S2. pose proof (DD1 l1 ND1 HL1 _ _ (bump_moving (d := d) (g := g) (root := fst n1) (fun j p w Uj Hp EKp => ltac:(pose proof (sup_wt (df_sup DF1 Uj Hp)) as Q; rewrite EKp in Q; exact Q)) Ho EK RV Hc0 Hb0)) as Q.
    rewrite (growth_unit Li WV Hc0 Hb0 A1 A2 S1 S2) in Q. eapply deriv_ext; [|exact Q]. intros t. cbv beta. rewrite (lsum_0 (l := l1)); [unfold with_value, bump_path; ring|]. intros j _. apply carried_0. intros. apply HZ. }
  (* what the first pass left in the operators of the second *)
  assert (LEFT : forall j, In j l2 -> D (fun t => carried m g1 (with_value i (bump v c0 b0 t) g1) j) (if Nat.eqb i j then (if in_dec Nat.eq_dec i (requests g (fst n1)) then held g1 (i, 0%nat) c0 b0 else 0) else 0)).
  { intros j Hj. apply HL2 in Hj. destruct Hj as (Uj & NEj). apply US in Uj. destruct (requests_spec GW L1) as (_ & HR). destruct (uses_lt GW Uj L2) as (Lj & _).
    destruct (uses_decided j GW L1) as [U1|U1]; cycle 1.
    { assert (HZj : forall w c b, held g1 (j, w) c b = 0) by (intros; unfold held; rewrite G1 by auto; apply HZ). eapply deriv_val; [eapply deriv_ext; [|apply (deriv_const 0)]; intros t; rewrite carried_0; auto|]. destruct (Nat.eqb_spec i j) as [EIJ|]; [|reflexivity]. destruct (in_dec Nat.eq_dec i (requests g (fst n1))) as [HI|]; [|reflexivity]. exfalso. apply U1, HR. rewrite <- EIJ. exact HI. }
    destruct (Nat.eqb_spec i j) as [EIJ|NE].
    - rewrite <- EIJ in * . destruct (in_dec Nat.eq_dec i (requests g (fst n1))) as [|NI]; [|exfalso; apply NI, HR; auto].
      assert (S2 : supported d g1 o') by (apply (df_sup DF2' (i := i)); auto; apply US; auto).
      pose proof (sup_typed S2) as T. rewrite EK' in T. cbn [typed] in T. destruct T as (T1 & T2). assert (AR : oi_args o' = []) by (unfold arg_shapes in T1; destruct (oi_args o'); [auto|discriminate]).
      assert (EY : length (ys_of g1 i) = 1%nat). { unfold ys_of. rewrite Ho', <- (map_length shp), T2. reflexivity. }
      assert (PVx : forall j' p w, uses g1 (fst n2) j' -> nth_error (g_ops g1) j' = Some p -> o_kind (oi_op p) = KParameter w -> ready d w) by (intros j' p w Uj' Hp EKp; pose proof (sup_wt (df_sup DF2' Uj' Hp)) as Q; rewrite EKp in Q; exact Q).
      assert (MV := bump_moving PVx Ho' EK' RV Hc0 Hb0).
      assert (HE : exists th, grad_of g1 (i, 0%nat) = Ok th /\ ready d th /\ t_shape th = t_shape v).
      { pose proof (sup_typed (df_sup DF1 U1 Ho)) as TT. rewrite EK in TT. cbn [typed] in TT. destruct TT as (_ & TT). assert (LV : (0 < length (oi_vals o))%nat) by (rewrite <- (map_length shp), TT; cbn; lia). destruct (G1' i o 0%nat U1 Ho LV) as (th & T3 & T4 & T5). exists th. split; auto. split; auto. rewrite T5.
        pose proof (node_shape_val (g := g) (root := fst n1) L1 (i := i) (v := 0%nat) Ho LV) as Q. rewrite TT in Q. cbn in Q. inversion Q. auto. }
      destruct HE as (th & T3 & T4 & T5). assert (HH : forall c b, held g1 (i, 0%nat) c b = at_ th c b) by (intros; unfold held; rewrite T3; unfold valid; rewrite (ready_buf T4); auto).
      eapply deriv_ext with (f := fun t => tsum (t_shape v) (fun c b => at_ th c b * at_ (bump v c0 b0 t) c b)).
      + intros t. unfold carried. rewrite EY, rsum_1. unfold weighted.
        destruct (@eval_at m g1 d (fst n2) (bump_path g1 i v c0 b0 t) GW1 (history_placed (interp_lawful (K := Rnum) (m := m)) (clean_history C1)) (fun i o U Ho => df_sup DF2' U Ho) (fun i o w U Ho EK => mv_ready MV t U Ho EK) i o' (proj2 (US _ _) Uj) Ho') as (xs & ys & _ & _ & _ & E4 & _ & E6 & E7).
        change (with_params (bump_path g1 i v c0 b0 t) g1) with (with_value i (bump v c0 b0 t) g1) in E4. unfold eval_node. cbn [fst snd]. rewrite E4. cbn [bind]. rewrite T2 in E6, E7. destruct ys as [|y [|]]; inversion E6 as [S6]. cbn [idx nth_error]. apply tsum_ext; [rewrite S6; auto|].
        intros c b Hc Hb. rewrite S6 in Hc, Hb. rewrite HH. f_equal. symmetry. pose proof (E7 0%nat (t_shape v) c b eq_refl Hc Hb) as Q7. unfold arg in Q7. cbn [nth] in Q7. rewrite Q7. unfold with_param. rewrite EK'. cbn [oi_op o_kind sem]. unfold bump_path. rewrite Nat.eqb_refl. reflexivity.
      + eapply deriv_val; [apply (@deriv_tsum (t_shape v) (fun t c b => at_ th c b * at_ (bump v c0 b0 t) c b) (fun c b => at_ th c b * (if Nat.eqb (pos (t_shape v) c0 b0) (pos (t_shape v) c b) then 1 else 0))); auto; intros c b Hc Hb; apply deriv_scal; eapply bump_speed; eauto|].
        rewrite HH. apply (@pick_element (t_shape v) (fun c b => at_ th c b) (fun p => nth0 (buf th) p)); auto. intros c b _ _. rewrite at_buf, T5. reflexivity.
    - assert (NUj : ~ uses g j i). { intros HU. apply NE. symmetry. apply (SH j i U1 Uj HU). exists v. unfold kind_of. rewrite Ho, EK. auto. }
      eapply deriv_ext; [|apply (deriv_const (carried m g1 g1 j))]. intros t. unfold carried. apply rsum_ext. intros w _. unfold weighted, eval_node. cbn [fst]. rewrite not_used_eval; auto; [pose proof (extends_len X1); lia|]. intros HU. apply NUj, US, HU. }
  assert (DD2' : forall a1 a2, uses g (fst n2) i -> own_of g1 i = Some a1 -> own_of g2 i = Some a2 -> t_shape a1 = t_shape v -> t_shape a2 = t_shape v ->
    D (fun t => total m (with_value i (bump v c0 b0 t) g) n2) (at_ a2 c0 b0 - at_ a1 c0 b0 - (if in_dec Nat.eq_dec i (requests g (fst n1)) then held g1 (i, 0%nat) c0 b0 else 0))).
  { intros a1 a2 Ui A1 A2 S1 S2. assert (PVx : forall j' p w, uses g1 (fst n2) j' -> nth_error (g_ops g1) j' = Some p -> o_kind (oi_op p) = KParameter w -> ready d w) by (intros j' p w Uj' Hp EKp; pose proof (sup_wt (df_sup DF2' Uj' Hp)) as Q; rewrite EKp in Q; exact Q).
    pose proof (DD2 l2 ND2 HL2 _ _ (bump_moving PVx Ho' EK' RV Hc0 Hb0)) as Q. rewrite (@growth_unit g1 g2 i v c0 b0 a1 a2) in Q; auto; [|pose proof (extends_len X1); lia].
    assert (SL : lsum (fun j => if Nat.eqb i j then (if in_dec Nat.eq_dec i (requests g (fst n1)) then held g1 (i, 0%nat) c0 b0 else 0) else 0) l2 = (if in_dec Nat.eq_dec i (requests g (fst n1)) then held g1 (i, 0%nat) c0 b0 else 0)).
    { destruct (Nat.eq_dec i (fst n2)) as [Ei|NE]; [|apply lsum_delta; auto; apply HL2; split; auto; apply US; auto]. destruct (requests_spec GW L1) as (_ & HR). destruct (in_dec Nat.eq_dec i (requests g (fst n1))) as [HI|]; [exfalso; apply NU12; rewrite <- Ei; apply HR, HI|]. apply lsum_0. intros j _. destruct (Nat.eqb i j); auto. }
    rewrite <- SL. eapply deriv_ext with (f := fun t => (total m (with_params (bump_path g1 i v c0 b0 t) g1) n2 + lsum (carried m g1 (with_params (bump_path g1 i v c0 b0 t) g1)) l2) - lsum (carried m g1 (with_value i (bump v c0 b0 t) g1)) l2).
    - intros t. rewrite <- (TOT t n2 L2). change (with_params (bump_path g1 i v c0 b0 t) g1) with (with_value i (bump v c0 b0 t) g1). ring.
    - apply deriv_sub; [exact Q|]. apply (@deriv_lsum nat l2 (fun t j => carried m g1 (with_value i (bump v c0 b0 t) g1) j)). exact LEFT. }
  destruct (requests_spec GW L1) as (_ & HR).
  destruct (uses_decided i GW L1) as [U1|U1], (uses_decided i GW L2) as [U2|U2]; try (exfalso; tauto).
  - destruct (P1 i o v U1 Ho EK) as (a & a1 & A1 & A2 & _ & S1 & S2 & AH). destruct (P2 i o' v (proj2 (US _ _) U2) Ho' EK') as (a1' & a2 & A3 & A4 & _ & S3 & S4 & _). assert (a1' = a1) by congruence. subst a1'.
    exists a, a2. split; auto. split; auto. cbv zeta. split; [tauto|]. intros _. pose proof (DD2' a1 a2 U2 A2 A4 S2 S4) as Q2. destruct (in_dec Nat.eq_dec i (requests g (fst n1))) as [|NI]; [|exfalso; apply NI, HR; auto].
    eapply deriv_val; [apply deriv_add; [apply deriv_scal; apply (DD1' a a1 A1 A2 S1 S2)|exact Q2]|]. pose proof (AH c0 b0 Hc0 Hb0) as AE. change (F Rnum) with R in * . lra.
  - destruct (P1 i o v U1 Ho EK) as (a & a1 & A1 & A2 & _ & S1 & S2 & AH). exists a, a1. split; auto. split; [rewrite N2; auto; intros HU; apply U2, US, HU|]. cbv zeta. split; [|tauto]. intros _. eapply deriv_val; [apply deriv_add; [apply (DD1' a a1 A1 A2 S1 S2)|apply (CONST n2 L2 U2)]|]. change (F Rnum) with R in * . ring.
  - destruct (P2 i o' v (proj2 (US _ _) U2) Ho' EK') as (a1 & a2 & A3 & A4 & _ & S3 & S4 & _). assert (A1 : own_of g i = Some a1) by (rewrite <- N1; auto). exists a1, a2. split; auto. split; auto. cbv zeta. split; [|tauto]. intros _.
    pose proof (DD2' a1 a2 U2 A3 A4 S3 S4) as Q2. destruct (in_dec Nat.eq_dec i (requests g (fst n1))) as [HI|]; [exfalso; apply U1, HR, HI|]. eapply deriv_val; [apply deriv_add; [apply (CONST n1 L1 U1)|exact Q2]|]. change (F Rnum) with R in * . ring.
Qed.

(** ** A concrete case: two losses w * w and tanh w over one parameter w = (2, 3) with gradient (10, 20) *)
Definition twice_build : res (rgraph * node) :=
  ' (g1, w) <- n_parameter Debug (@empty Rnum (oper Rnum)) br (PropsReal.tr 0 [2%N] 1 [2; 3]) (PropsReal.tr 0 [2%N] 1 [10; 20]) ;;
  ' (g2, y) <- n_mul Debug g1 br w w ;;
  n_op1 Debug KTanh g2 br w.
Definition twice_g : rgraph := Eval lazy -[alr Rnum IZR] in fst (okv (@empty Rnum (oper Rnum), (0%nat, 0%nat)) twice_build).
Lemma twice_eq : twice_build = Ok (twice_g, (2%nat, 0%nat)). Proof. reflexivity. Qed.
Lemma twice_program : program 0 twice_g.
Proof.
  pose proof twice_eq as E. unfold twice_build in E. apply bind_Ok in E. destruct E as ([g1 w] & E1 & E). apply bind_Ok in E. destruct E as ([g2 x] & E2 & E).
  refine (pr_op1 (k := KTanh) _ br_fair eq_refl I E). refine (pr_op2 _ br_fair _ E2); [|right; right; left; reflexivity].
  refine (pr_parameter (pr_empty Rnum 0) br_fair _ _ _ E1); [rdyr|rdyr|reflexivity].
Qed.
Lemma twice_uses n i : (n = 1 \/ n = 2)%nat -> uses twice_g n i -> i = n \/ i = 0%nat.
Proof.
  intros HN U. inversion U as [|? o k ? Ho Hk U2]; subst; auto. right. destruct HN as [-> | -> ]; cbn in Ho; inversion Ho; subst o; cbn in Hk; repeat destruct Hk as [<-|Hk]; try contradiction; cbn [fst] in U2; inversion U2 as [|? o2 k2 ? Ho2 Hk2 _]; subst; auto; cbn in Ho2; inversion Ho2; subst o2; destruct Hk2.
Qed.
Lemma twice_loss n : (n = 1 \/ n = 2)%nat -> loss_of twice_g (n, 0%nat).
Proof.
  intros HN. assert (F2 : fits sh2) by (apply (sh_fits [2%N] (b := 1%N)); reflexivity).
  assert (UN : uses twice_g n n) by constructor.
  constructor; cbn [fst snd].
  - split; auto. destruct HN as [-> | -> ]; eexists; split; reflexivity.
  - intros i o U Ho. destruct (twice_uses HN U) as [-> | -> ]; [destruct HN as [-> | -> ]|]; cbn in Ho; inversion Ho; subst o; (split; [apply Forall_cons; [exact F2|apply Forall_nil]|exact I]).
  - intros i o xs U Ho _ s c b ER Hc Hb. destruct (twice_uses HN U) as [-> | -> ]; [destruct HN as [-> | -> ]|]; cbn in Ho; inversion Ho; subst o; cbn; auto.
  - intros i o v U NE Ho Lv. destruct (twice_uses HN U) as [-> | -> ]; [congruence|]. cbn in Ho. inversion Ho; subst o. cbn in Lv. assert (v = 0%nat) by lia. subst v. exists n. split; auto. destruct HN as [-> | -> ]; left; reflexivity.
Qed.
Lemma twice_differentiable n : (n = 1 \/ n = 2)%nat -> differentiable Debug 0 twice_g n.
Proof. intros HN. exact (loss_is_differentiable twice_program (twice_loss HN)). Qed.
Example C40_applies : exists g1 g2 a2,
  node_backward Debug (interp Debug) (fun _ _ => alr) fifo_min lifo_max twice_g (1%nat, 0%nat) = Ok g1 /\
  node_backward Debug (interp Debug) (fun _ _ => alr) fifo_min lifo_max g1 (2%nat, 0%nat) = Ok g2 /\ own_of g2 0 = Some a2 /\ lived Debug 0 g2 /\ touched g2 (1%nat, 0%nat) /\
  D (fun t => 2 * total Debug (with_value 0 (PropsReal.tr 0 [2%N] 1 [2; 3 + t]) twice_g) (1%nat, 0%nat) + total Debug (with_value 0 (PropsReal.tr 0 [2%N] 1 [2; 3 + t]) twice_g) (2%nat, 0%nat)) (at_ a2 (c2 1 0) 0 - 20).
Proof.
  pose proof (program_built twice_program) as HB. assert (D1 := twice_differentiable (or_introl eq_refl)). assert (D2 := twice_differentiable (or_intror eq_refl)).
  destruct (@C40_shared_parameters Debug (fun _ _ => alr) (fun _ _ => alr) fifo_min lifo_max fifo_min lifo_max twice_g 0 (1%nat, 0%nat) (2%nat, 0%nat) HB) as (g1 & g2 & E1 & E2 & H); try apply heaps_ok; auto; try (intros; apply alr_ok).
  { intros U. destruct (twice_uses (or_introl eq_refl) U); discriminate. }
  { intros j i U1 U2 UI _. cbn [fst] in * . destruct (twice_uses (or_introl eq_refl) U1) as [-> | -> ]; [destruct (twice_uses (or_intror eq_refl) U2); discriminate|]. inversion UI as [|? o2 k2 ? Ho2 Hk2 _]; subst; auto. cbn in Ho2. inversion Ho2; subst o2. destruct Hk2. }
  assert (U1 : uses twice_g 1 0) by (eapply uses_step with (n := (0%nat, 0%nat)); [reflexivity|left; reflexivity|constructor]). assert (U2 : uses twice_g 2 0) by (eapply uses_step with (n := (0%nat, 0%nat)); [reflexivity|left; reflexivity|constructor]).
  destruct (H 0%nat _ (PropsReal.tr 0 [2%N] 1 [2; 3]) (c2 1 0) 0%nat (or_introl U1) eq_refl eq_refl) as (a & a2 & A1 & A2 & _ & DD); [intros i; destruct i as [|[|i]]; cbn; lia|cbn; lia|].
  exists g1, g2, a2. split; auto. split; auto. split; auto. inversion A1; subst a.
  assert (L0 : lived Debug 0 twice_g). { apply built_lived. exact HB. }
  assert (L1 : lived Debug 0 g1) by (eapply (lv_backward (gal := fun _ _ => alr) (n := (1%nat, 0%nat)) L0); [| | | | |exact E1]; try apply heaps_ok; auto; intros; apply alr_ok).
  destruct (lived_inv L0) as (C0 & K0). destruct (lived_inv L1) as (C1 & K1).
  assert (D2' : differentiable Debug 0 g1 2). { eapply (differentiable_after (gal := fun _ _ => alr) (n := (1%nat, 0%nat)) C0 K0); [| | | | |exact E1|exact D2]; try apply heaps_ok; auto; intros; apply alr_ok. }
  split; [eapply (lv_backward (gal := fun _ _ => alr) (n := (2%nat, 0%nat)) L1); [| | | | |exact E2]; try apply heaps_ok; auto; intros; apply alr_ok|]. split; [|exact (DD (conj U1 U2))].
  (* the first loss cannot be differentiated again *)
  assert (LN : (2 < length (g_ops g1))%nat). { destruct (df_root D2') as (o & Ho & _). eapply nth_error_Some_lt; eauto. }
  destruct (@backward_derivative Debug (fun _ _ => alr) fifo_min lifo_max twice_g 0 (1%nat, 0%nat) C0) as (h1 & F1 & _ & _ & _ & (_ & X1 & X1') & _ & T1 & _); try apply heaps_ok; auto; [apply kind_graded; auto; eapply (root_untouched (n := (1%nat, 0%nat))); [cbn; lia|exact E1]|intros; apply alr_ok|]. assert (h1 = g1) by congruence. subst h1.
  destruct (@backward_derivative Debug (fun _ _ => alr) fifo_min lifo_max g1 0 (2%nat, 0%nat) C1) as (h2 & F2 & _ & _ & _ & _ & T2 & _ & _); try apply heaps_ok; auto; [apply kind_graded; auto; eapply (root_untouched (n := (2%nat, 0%nat))); [exact LN|exact E2]|intros; apply alr_ok|]. assert (h2 = g2) by congruence. subst h2.
  destruct (T1 1%nat _ 0%nat (uses_refl _ _) eq_refl) as (t & Ht & RT & _); [cbn; lia|]. exists t. split; [|unfold valid; rewrite (ready_buf RT); auto]. rewrite T2; auto. cbn [fst]. intros U. apply (extends_uses X1') in U. destruct (twice_uses (or_intror eq_refl) U); discriminate.
Qed.
