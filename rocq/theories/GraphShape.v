(** * GraphShape: shapes and devices of nodes, creation on top of evaluated nodes *)
From Verif Require Export GraphMore.
Set Implicit Arguments. Unset Strict Implicit.

Section GraphShape.
Variable K : num.
Notation tensor := (tensor K).
Variable Oper : Type.
Variable itp : Oper -> operator K.
Notation graph := (graph K Oper).
Notation node := (nat * nat)%type.
Hypothesis HL : forall op, lawful (itp op).

(** the outputs of an operator are on its device *)
Definition placed (g : graph) : Prop := forall i o t, nth_error (g_ops g) i = Some o -> In t (oi_vals o) ->
  op_device (itp (oi_op o)) = Ok (match t_dev t with Some d => d | None => 0 end) /\ t_dev t <> None.
Lemma placed_extends (g g' : graph) : placed g -> extends g' g -> placed g'.
Proof.
  intros P X i o' t Ho' Ht. destruct (X _ _ Ho') as (o & Ho & E1 & _ & E3 & _).
  assert (HB : In (blank t) (map blank (oi_vals o))) by (rewrite <- E3; apply in_map; auto).
  apply in_map_iff in HB. destruct HB as (u & Eu & Hu). destruct (P _ _ _ Ho Hu) as (A & B).
  assert (ED : t_dev t = t_dev u) by (inversion Eu; auto). rewrite E1, ED. auto.
Qed.
Lemma history_placed g : history itp g -> placed g.
Proof.
  induction 1 as [|g op own xs g' ns H IH E|g pop root g' r H IH HP L E|g g' H IH HG].
  - intros [|i]; discriminate.
  - apply create_inv in E. destruct E as (ss & rs & vals & grads & ds & _ & _ & _ & _ & _ & _ & _ & E8 & -> & _).
    intros i o t Ho Ht. cbn [g_ops] in Ho. destruct (Nat.lt_ge_cases i (length (g_ops g))) as [L|L].
    + rewrite nth_error_app1 in Ho by auto. eapply IH; eauto.
    + rewrite nth_error_app2 in Ho by auto. destruct (i - length (g_ops g)) as [|k]; cbn in Ho; [|destruct k; discriminate].
      inversion Ho; subst o. cbn in * . destruct (E8 _ Ht) as (_ & _ & A & B). auto.
  - destruct (history_inv HL H) as (W & Lg). unfold forward in E. destruct (run_fw_inv HL W Lg E) as (_ & _ & _ & X). eapply placed_extends; eauto.
  - destruct (grads_extends HG) as (_ & X). eapply placed_extends; eauto.
Qed.

Lemma history_step_extends g g' : history itp g -> action itp g g' -> extends g g'.
Proof.
  intros H A. destruct A as [g op own xs g' ns E|g pop root g' r HP L E|g g' HG].
  - exact (extends_create E).
  - destruct (history_inv HL H) as (W & Lg). unfold forward in E. destruct (run_fw_inv HL W Lg E) as (_ & _ & X & _). exact X.
  - exact (proj1 (grads_extends HG)).
Qed.
Lemma later_extends g g' : history itp g -> later itp g g' -> extends g g'.
Proof.
  intros H. induction 1 as [|g' g'' L IH A]; [apply extends_refl|]. eapply extends_trans; [exact IH|].
  eapply history_step_extends; [|exact A]. eapply history_later; eauto.
Qed.
Lemma extends_shape (g g' : graph) n t : extends g g' -> value_of g n = Ok t -> exists t', value_of g' n = Ok t' /\ t_shape t' = t_shape t /\ t_dev t' = t_dev t.
Proof.
  intros X V. destruct (value_of_inv V) as (o & Ho & Ht). destruct (X _ _ Ho) as (o' & Ho' & _ & _ & EB & _).
  assert (N : nth_error (map blank (oi_vals o')) (snd n) = Some (blank t)) by (rewrite <- EB; apply map_nth_error; auto).
  rewrite nth_error_map in N. destruct (nth_error (oi_vals o') (snd n)) as [t'|] eqn:Ht'; [|discriminate]. exists t'. unfold value_of. rewrite (idx_nth Ho'). cbn [bind].
  rewrite (idx_nth Ht'). inversion N. auto.
Qed.

Lemma eval_blank (g : graph) i o ys : gwf g -> nth_error (g_ops g) i = Some o -> eval itp g i = Ok ys -> map blank ys = map blank (oi_vals o).
Proof.
  intros W Ho E. rewrite (@eval_eq _ _ itp g i o W Ho) in E. apply bind_Ok in E. destruct E as (xs & _ & E). apply HL in E. rewrite E.
  rewrite map_map. apply map_ext. reflexivity.
Qed.
Lemma eval_shape (g : graph) n v : gwf g -> eval_node itp g n = Ok v -> exists w, value_of g n = Ok w /\ t_shape w = t_shape v /\ t_dev w = t_dev v.
Proof.
  intros W E. unfold eval_node in E. apply bind_Ok in E. destruct E as (ys & E & EI). apply idx_nth_inv in EI.
  destruct (nth_error (g_ops g) (fst n)) as [o|] eqn:Ho.
  - pose proof (eval_blank W Ho E) as EB. assert (N : nth_error (map blank (oi_vals o)) (snd n) = Some (blank v)) by (rewrite <- EB; apply map_nth_error; auto).
    rewrite nth_error_map in N. destruct (nth_error (oi_vals o) (snd n)) as [w|] eqn:Hw; [|discriminate]. exists w. unfold value_of. rewrite (idx_nth Ho). cbn [bind].
    rewrite (idx_nth Hw). inversion N. auto.
  - unfold eval in E. simpl in E. rewrite Ho in E. discriminate.
Qed.
Lemma eval_device g n v d : history itp g -> eval_node itp g n = Ok v -> t_dev v = Some d -> device_at itp g n = Ok d.
Proof.
  intros H E Hd. destruct (history_inv HL H) as (W & _). destruct (eval_shape W E) as (w & V & _ & D). destruct (value_of_inv V) as (o & Ho & Hw).
  destruct (history_placed H Ho (nth_error_In _ _ Hw)) as (A & _). unfold device_at. rewrite (idx_nth Ho). cbn [bind]. rewrite A, D, Hd. reflexivity.
Qed.

(** creating an operator on nodes whose values are known *)
Lemma create_eval g op own xs vs d : history itp g -> Forall2 (fun n v => eval_node itp g n = Ok v) xs vs -> op_device (itp op) = Ok d ->
  (forall r, create itp g op own xs = Ok r -> exists rs, op_shapes (itp op) (map (@t_shape K) vs) = Ok rs /\ gwf (fst r) /\ extends g (fst r) /\
     snd r = map (fun v => (length (g_ops g), v)) (seq 0 (length rs)) /\
     eval itp (fst r) (length (g_ops g)) = op_forward (itp op) vs (map (@new_tensor K d) rs)) /\
  (forall rs, op_shapes (itp op) (map (@t_shape K) vs) = Ok rs -> exists r, create itp g op own xs = Ok r).
Proof.
  intros H HV HD. destruct (history_inv HL H) as (W & _).
  assert (SS : mapM (fun n => v <- value_of g n ;; Ok (t_shape v)) xs = Ok (map (@t_shape K) vs)).
  { apply mapM_Forall2. clear HD. induction HV as [|n v xs vs E HV IH]; cbn [map]; constructor; auto.
    destruct (eval_shape W E) as (w & V & S & _). rewrite V. cbn [bind]. rewrite S. reflexivity. }
  split.
  - intros [g' ns] E. assert (W' : gwf g') by (eapply create_gwf; eauto). pose proof (extends_create E) as X. apply create_inv in E.
    destruct E as (ss & rs & vals & grads & ds & E1 & E2 & E3 & E4 & E5 & E6 & E7 & E8 & EG & EN). rewrite SS in E1. inversion E1; subst ss. clear E1.
    exists rs. split; [auto|]. split; [auto|]. split; [auto|]. split; [auto|]. cbn [fst].
    assert (HN : nth_error (g_ops g') (length (g_ops g)) = Some (mkOpinfo op xs vals grads own false (fold_left Nat.max ds 0 + 1))).
    { rewrite EG. cbn [g_ops]. rewrite nth_error_app2 by lia. rewrite Nat.sub_diag. reflexivity. }
    rewrite (@eval_eq _ _ itp g' _ _ W' HN). cbn [oi_args oi_op oi_vals]. rewrite E6.
    assert (EM : mapM (eval_node itp g') xs = Ok vs).
    { apply mapM_Forall2. clear -HV W X. induction HV as [|n v xs vs E HV IH]; constructor; auto. unfold eval_node in * . rewrite (eval_extends itp W X); auto.
      destruct (Nat.lt_ge_cases (fst n) (length (g_ops g))); auto. exfalso. unfold eval in E. cbn [eval_op] in E. rewrite (proj2 (nth_error_None _ _)) in E by auto. discriminate. }
    rewrite EM. cbn [bind]. f_equal. rewrite <- E7, map_map. clear -E6 E8 HD.
    induction vals as [|t vals IH]; [reflexivity|]. cbn [map]. injection E6 as H0 H1. f_equal.
    + destruct (E8 t (or_introl eq_refl)) as (B & HH & D & N). destruct (t_dev t) as [d'|] eqn:EE; [|contradiction]. rewrite HD in D. inversion D; subst d'.
      unfold new_tensor. rewrite <- EE. destruct t; cbn in * . subst. reflexivity.
    + apply IH; auto. intros u Hu. apply E8. right; auto.
  - intros rs ER. unfold create. rewrite SS. cbn [bind]. rewrite ER. cbn [bind].
    assert (EM : mapM (fun s => d0 <- op_device (itp op) ;; Ok (@new_tensor K d0 s)) rs = Ok (map (@new_tensor K d) rs)).
    { apply mapM_Forall2. clear -HD. induction rs; cbn [map]; constructor; auto. rewrite HD. reflexivity. }
    rewrite EM. cbn [bind].
    assert (ED : exists ds, mapM (fun n => depth_of g (fst n)) xs = Ok ds).
    { apply mapM_Ok. intros n Hn. clear -HV Hn W HL. induction HV as [|m v xs vs E HV IH]; [destruct Hn|]. destruct Hn as [->|Hn]; auto.
      destruct (eval_shape W E) as (w & V & _). destruct (value_of_inv V) as (o & Ho & _). exists (oi_depth o). unfold depth_of. rewrite (idx_nth Ho). reflexivity. }
    destruct ED as (ds & ->). cbn [bind]. eauto.
Qed.
End GraphShape.
