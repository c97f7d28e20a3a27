(** * SafeGraph4: graphs stay sane (lemmas) *)
From Verif Require Export SafeGraph3 GraphShape.
Set Implicit Arguments.
Unset Strict Implicit.

Section Graphs.
Variable K : num.
Notation F := (F K).
Notation tensor := (tensor K).
Notation graph := (graph K (oper K)).
Notation node := (nat * nat)%type.
Notation shapes l := (map (@t_shape K) l).
Notation itp := (@interp K Debug).
Implicit Types (g : graph) (t : tensor) (n : node) (o : opinfo K (oper K)).
Local Opaque call_fw call_bw call_u32 fw_registry bw_registry new_alloc alloc forward_op backward_op forward_shape.

(** how an operator must be created *)
Record fit g (op : oper K) (own : option tensor) (xs : list node) : Prop := mkFit {
  fit_supplied : supplied (o_kind op);
  fit_alloc : forall i, al_ok (o_fal op i) /\ al_ok (o_bal op i);
  fit_scalar : scalar_kind (o_kind op) = true -> forall n v, nth_error xs 1 = Some n -> value_of g n = Ok v -> is_scalar (t_shape v) = true;
  fit_own : forall t, own = Some t -> sane t /\ own_shape (o_kind op) = Some (t_shape t) }.

Definition node_shape g n : option shape := match nth_error (g_ops g) (fst n) with Some o => nth_error (shapes (oi_vals o)) (snd n) | None => None end.
Definition static1 g o : Prop :=
  supplied (o_kind (oi_op o)) /\ (forall i, al_ok (o_fal (oi_op o) i) /\ al_ok (o_bal (oi_op o) i)) /\ shapes (oi_grads o) = shapes (oi_vals o) /\
  exists ss, Forall2 (fun n s => node_shape g n = Some s) (oi_args o) ss /\ forward_shape Debug (o_kind (oi_op o)) ss = Ok (shapes (oi_vals o)) /\
    (scalar_kind (o_kind (oi_op o)) = true -> forall s, nth_error ss 1 = Some s -> is_scalar s = true).
Definition data1 o : Prop := Forall (@sane K) (oi_vals o) /\ Forall (@sane K) (oi_grads o) /\ forall t, oi_own o = Some t -> sane t /\ own_shape (o_kind (oi_op o)) = Some (t_shape t).
Definition ginv g : Prop := forall i o, nth_error (g_ops g) i = Some o -> static1 g o /\ data1 o.

(** the same operators on the same arguments with outputs of the same shapes *)
Definition like o o' : Prop := oi_op o' = oi_op o /\ oi_args o' = oi_args o /\ shapes (oi_vals o') = shapes (oi_vals o) /\ shapes (oi_grads o') = shapes (oi_grads o).
Definition alike g g' : Prop := Forall2 like (g_ops g) (g_ops g').
Lemma like_refl o : like o o. Proof. repeat split. Qed.
Lemma alike_refl g : alike g g. Proof. apply Forall2_refl. apply like_refl. Qed.
Lemma Forall2_at A B (P : A -> B -> Prop) l l' i y : Forall2 P l l' -> nth_error l' i = Some y -> exists x, nth_error l i = Some x /\ P x y.
Proof. intros H. revert i. induction H as [|a b l l' H H' IH]; intros [|i] E; cbn in *; try discriminate; [inversion E; subst; eauto|eauto]. Qed.
Lemma Forall2_at' A B (P : A -> B -> Prop) l l' i x : Forall2 P l l' -> nth_error l i = Some x -> exists y, nth_error l' i = Some y /\ P x y.
Proof. intros H. revert i. induction H as [|a b l l' H H' IH]; intros [|i] E; cbn in *; try discriminate; [inversion E; subst; eauto|eauto]. Qed.
Lemma alike_shape g g' n s : alike g g' -> node_shape g n = Some s -> node_shape g' n = Some s.
Proof. intros H E. unfold node_shape in *. destruct (nth_error (g_ops g) (fst n)) as [o|] eqn:Ho; [|discriminate]. destruct (Forall2_at' H Ho) as (o' & -> & _ & _ & EV & _). rewrite EV. auto. Qed.
Lemma Forall2_imp A B (P Q : A -> B -> Prop) l l' : (forall x y, P x y -> Q x y) -> Forall2 P l l' -> Forall2 Q l l'.
Proof. intros H. induction 1; constructor; auto. Qed.
(** an invariant of the parts *)
Lemma ginv_alike g g' : ginv g -> alike g g' -> (forall i o', nth_error (g_ops g') i = Some o' -> data1 o') -> ginv g'.
Proof.
  intros G H D i o' Ho'. split; [|eapply D; eauto]. destruct (Forall2_at H Ho') as (o & Ho & E1 & E2 & E3 & E4). destruct (G i o Ho) as ((S1 & S2 & S3 & ss & S4 & S5 & S6) & _).
  unfold static1. rewrite E1, E2, E3, E4. split; auto. split; auto. split; auto. exists ss. split; auto. eapply Forall2_imp; [|exact S4]. intros n s Es. eapply alike_shape; eauto.
Qed.
Lemma nth_lset_cases A (l : list A) i j x y : nth_error (lset l i x) j = Some y -> (j = i /\ y = x) \/ nth_error l j = Some y.
Proof. revert i j. induction l as [|a l IH]; intros [|i] [|j] H; cbn in *; auto; try discriminate. - left. inversion H; auto. - destruct (IH _ _ H) as [(-> & ->)|]; auto. Qed.
Lemma set_ginv g i o o' log : ginv g -> nth_error (g_ops g) i = Some o -> like o o' -> data1 o' -> ginv (mkGraph (lset (g_ops g) i o') log).
Proof.
  intros G Ho L D. eapply ginv_alike; [exact G| |].
  - unfold alike. cbn [g_ops]. eapply Forall2_lset; [apply like_refl|exact Ho|exact L].
  - intros j q Hq. cbn [g_ops] in Hq. destruct (nth_lset_cases Hq) as [(_ & ->)|H]; [exact D|]. apply (G _ _ H).
Qed.
Lemma value_sane g n : ginv g -> good (fun v => sane v /\ node_shape g n = Some (t_shape v)) (value_of g n).
Proof.
  intros G. unfold value_of, idx at 1, node_shape. destruct (nth_error (g_ops g) (fst n)) as [o|] eqn:Ho; [|exact I]. cbn [bind]. unfold idx. destruct (nth_error (oi_vals o) (snd n)) as [v|] eqn:Hv; [|exact I]. cbn.
  destruct (G _ _ Ho) as (_ & D & _). rewrite Forall_forall in D. split; [apply D; eapply nth_error_In; eauto|]. apply map_nth_error; auto.
Qed.
Lemma args_sane g ns : ginv g -> good (fun xs => Forall (@sane K) xs /\ Forall2 (fun n s => node_shape g n = Some s) ns (shapes xs)) (mapM (value_of g) ns).
Proof.
  intros G. induction ns as [|n ns IH]; [cbn; auto|]. cbn [mapM fold_right]. eapply good_bind; [apply value_sane; auto|]. intros v _ (Sv & Ev). eapply good_bind; [exact IH|]. intros vs _ (Svs & Evs). cbn. auto.
Qed.
Lemma Forall2_fun A B (P : A -> B -> Prop) l s1 s2 : (forall a x y, P a x -> P a y -> x = y) -> Forall2 P l s1 -> Forall2 P l s2 -> s1 = s2.
Proof. intros H H1. revert s2. induction H1 as [|a b l l' Hab H1 IH]; intros s2 H2; inversion H2; subst; auto. f_equal; eauto. Qed.
Lemma static_args g o xs : static1 g o -> Forall2 (fun n s => node_shape g n = Some s) (oi_args o) (shapes xs) ->
  forward_shape Debug (o_kind (oi_op o)) (shapes xs) = Ok (shapes (oi_vals o)) /\ (scalar_kind (o_kind (oi_op o)) = true -> forall s, nth_error (shapes xs) 1 = Some s -> is_scalar s = true).
Proof. intros (_ & _ & _ & ss & H1 & H2 & H3) H. assert (E : ss = shapes xs) by (eapply Forall2_fun; [|exact H1|exact H]; cbv beta; intros; congruence). rewrite <- E. auto. Qed.

(** ** creation *)
Lemma good_shapes (k : kind K) ss : good anything (forward_shape Debug k ss).
Proof. Local Transparent forward_shape. destruct k; cbn [forward_shape]; unfold shape_ab, shape_same, shape1, shape2, split_shapes, batch_split_shapes, split_skip; gp. Local Opaque forward_shape. Qed.
Lemma good_mapM_any A B (f : A -> res B) l : (forall a, good anything (f a)) -> good anything (mapM f l).
Proof. intros H. induction l as [|a l IH]; [exact I|]. cbn [mapM fold_right]. eapply good_bind; [apply H|]. intros. eapply good_bind; [exact IH|]. intros. exact I. Qed.
Lemma good_device (op : oper K) : good anything (device_op op).
Proof. unfold device_op. destruct (o_kind op); try exact I; apply good_dev. Qed.
Lemma good_value g n : good anything (value_of g n).
Proof. unfold value_of. eapply good_bind; [apply good_idx|]. intros. apply good_idx. Qed.
Lemma create_good g op own xs : good anything (create itp g op own xs).
Proof.
  unfold create. eapply good_bind; [apply good_mapM_any; intros; eapply good_bind; [apply good_value|]; intros; exact I|]. intros ss _ _. eapply good_bind; [apply good_shapes|]. intros rs _ _.
  eapply good_bind; [apply good_mapM_any; intros; eapply good_bind; [apply good_device|]; intros; exact I|]. intros vs _ _.
  eapply good_bind; [apply good_mapM_any; intros; eapply good_bind; [apply good_device|]; intros; exact I|]. intros gs _ _.
  eapply good_bind; [apply good_mapM_any; intros; unfold depth_of; eapply good_bind; [apply good_idx|]; intros; exact I|]. intros ds _ _. exact I.
Qed.
(** shapes computed at creation are consistent *)
Lemma shapes_wf (k : kind K) ss rs : supplied k -> Forall wf ss -> forward_shape Debug k ss = Ok rs -> Forall wf rs.
Proof.
  Local Transparent forward_shape. intros HS W E.
  assert (I1 : forall f, shape1 f ss = Ok rs -> (forall s r, wf s -> f s = Ok r -> wf r) -> Forall wf rs).
  { intros f H HP. destruct (shape1_inv H) as (x & r & l & -> & -> & Hf). inversion W; subst. constructor; [eapply HP; eauto|constructor]. }
  assert (I2 : forall f, shape2 f ss = Ok rs -> (forall s s2 r, wf s -> wf s2 -> f s s2 = Ok r -> wf r) -> Forall wf rs).
  { intros f H HP. destruct (shape2_inv H) as (a & b & r & l & -> & -> & Hf). inversion W as [|? ? ? W']; subst. inversion W'; subst. constructor; [eapply HP; [| |exact Hf]; auto|constructor]. }
  assert (EW : forall a b r, wf a -> wf b -> so_elementwise a b = Ok r -> wf r) by (intros a b r Wa Wb H; destruct (joins_elementwise Wa Wb H) as (_ & _ & _ & _ & H'); exact H').
  assert (RP : forall s (c : nat), wf s -> Forall wf (repeat s c)) by (intros s n Hs; apply Forall_forall; intros x Hx; apply repeat_spec in Hx; subst; auto).
  destruct k; cbn [forward_shape supplied] in *; try (apply (I2 _ E EW)); try (apply (I1 _ E); intros s r Ws H; inversion H; subst; auto; fail);
    try (injection E as <-; constructor; [apply (sane_wf HS)|constructor]).
  - apply (I1 _ E). intros s r Ws H. apply so_broadcast_iff in H; auto. apply H.
  - apply (I1 _ E). intros s r Ws H. apply resize_dim_iff in H; auto. apply H.
  - apply (I1 _ E). intros s r Ws H. apply resize_dim_iff in H; auto. apply H.
  - apply (I1 _ E). intros s r Ws H. apply resize_dim_iff in H; auto. apply H.
  - apply (I1 _ E). intros s r Ws H. apply resize_dim_iff in H; auto. apply H.
  - apply (I2 _ E). intros a b r Wa Wb H. apply bind_Ok in H. destruct H as (s & Es & H). pose proof (EW _ _ _ Wa Wb Es) as Ws. apply resize_dim_iff in H; auto. apply H.
  - apply (I1 _ E). intros s r Ws H. apply so_pick_iff in H; auto. apply H.
  - apply (I2 _ E). intros a b r Wa Wb H. apply so_matmul_iff in H; auto. apply H.
  - apply (I1 _ E). intros s r Ws H. apply so_transpose_iff in H; auto. apply H.
  - apply (I1 _ E). intros s r Ws H. apply so_pick_iff in H; auto. apply H.
  - apply (I1 _ E). intros s r Ws H. apply so_slice_iff in H; auto. apply H.
  - unfold split_shapes in E. apply bind_Ok in E. destruct E as (s & Es & E). apply bind_Ok in E. destruct E as (sz & _ & E). apply bind_Ok in E. destruct E as (r & Er & E). injection E as <-. apply RP.
    assert (Ws : wf s). { rewrite Forall_forall in W. apply W. unfold idx in Es. destruct (nth_error ss 0) eqn:EN; inversion Es; subst. eapply nth_error_In; eauto. } apply resize_dim_iff in Er; auto. apply Er.
  - apply bind_Ok in E. destruct E as (s & Es & E). injection E as <-. apply so_batch_concat_iff in Es; auto. destruct Es as (? & ? & _ & _ & Hs). constructor; [apply Hs|constructor].
  - apply (I1 _ E). intros s r Ws H. apply so_batch_pick_iff in H; auto. apply H.
  - apply (I1 _ E). intros s r Ws H. apply so_batch_slice_iff in H; auto. apply H.
  - unfold batch_split_shapes in E. apply bind_Ok in E. destruct E as (s & Es & E). apply bind_Ok in E. destruct E as (sz & Ez & E). apply bind_Ok in E. destruct E as (r & Er & E). injection E as <-. apply RP.
    assert (Ws : wf s). { rewrite Forall_forall in W. apply W. unfold idx in Es. destruct (nth_error ss 0) eqn:EN; inversion Es; subst. eapply nth_error_In; eauto. }
    pose proof (wf_batch Ws). assert (sz < two32)%N. { unfold split_skip in Ez. inv_ok. assert (batch s / n <= batch s)%N by (destruct (N.eq_dec n 0) as [->|]; [destruct (batch s); cbn; lia|apply N.div_le_upper_bound; nia]). lia. } apply resize_batch_iff in Er; auto. apply Er.
  - apply (I1 _ E). intros s r Ws H. apply resize_batch_iff in H; [|auto|reflexivity]. apply H.
  - apply bind_Ok in E. destruct E as (s & Es & E). injection E as <-. apply so_concat_iff in Es; auto. destruct Es as (? & ? & _ & _ & _ & _ & Hs). constructor; [apply Hs|constructor].
  - injection E as <-. auto.
  Local Opaque forward_shape.
Qed.

Lemma mapM_shapes (f : shape -> res tensor) rs ts : (forall s t, f s = Ok t -> t_shape t = s /\ (wf s -> sane t)) -> mapM f rs = Ok ts -> shapes ts = rs /\ (Forall wf rs -> Forall (@sane K) ts).
Proof.
  intros H. revert ts. induction rs as [|r rs IH]; intros ts E; cbn [mapM fold_right] in E; [inversion E; subst; auto|]. apply bind_Ok in E. destruct E as (t & Et & E). apply bind_Ok in E. destruct E as (us & Eu & E). inversion E; subst.
  destruct (H _ _ Et) as (H1 & H2). destruct (IH _ Eu) as (H3 & H4). split; [cbn; congruence|]. intros HF. inversion HF; subst. constructor; auto.
Qed.
Lemma create_ginv g op own xs g' ns : ginv g -> fit g op own xs -> create itp g op own xs = Ok (g', ns) -> ginv g'.
Proof.
  intros G [F1 F2 F3 F4] E. unfold create in E. apply bind_Ok in E. destruct E as (ss & Es & E). apply bind_Ok in E. destruct E as (rs & Er & E). apply bind_Ok in E. destruct E as (vs & Ev & E). apply bind_Ok in E. destruct E as (gs & Eg & E).
  apply bind_Ok in E. destruct E as (ds & _ & E). injection E as <- <-. cbn [interp op_shapes op_device] in *.
  assert (NW : forall s t, (d <- device_op op ;; Ok (new_tensor K d s)) = Ok t -> t_shape t = s /\ (wf s -> sane t)).
  { intros s t Et. apply bind_Ok in Et. destruct Et as (d & _ & Et). injection Et as <-. split; auto. intros W. split; auto. cbn. discriminate. }
  destruct (mapM_shapes NW Ev) as (V1 & V2). destruct (mapM_shapes NW Eg) as (G1 & G2).
  assert (SS : Forall2 (fun n s => node_shape g n = Some s) xs ss /\ Forall wf ss).
  { clear - Es G. revert ss Es. induction xs as [|n xs IH]; intros ss Es; cbn [mapM fold_right] in Es; [inversion Es; subst; auto|]. apply bind_Ok in Es. destruct Es as (s & E1 & Es). apply bind_Ok in Es. destruct Es as (us & Eu & Es). inversion Es; subst.
    apply bind_Ok in E1. destruct E1 as (v & E2 & E1). inversion E1; subst. pose proof (value_sane n G) as H. rewrite E2 in H. destruct H as (H1 & H2). destruct (IH _ Eu). split; constructor; auto. apply (sane_wf H1). }
  destruct SS as (S1 & S2). pose proof (shapes_wf F1 S2 Er) as WR.
  assert (MO : forall n s, node_shape g n = Some s -> node_shape (mkGraph (g_ops g ++ [mkOpinfo op xs vs gs own false (fold_left Nat.max ds 0 + 1)]) (g_log g)) n = Some s).
  { intros n s. unfold node_shape. cbn [g_ops]. destruct (nth_error (g_ops g) (fst n)) as [o|] eqn:Ho; [|discriminate]. rewrite nth_error_app1 by (apply nth_error_Some; congruence). rewrite Ho. auto. }
  intros i o Ho. cbn [g_ops] in Ho. destruct (Nat.lt_ge_cases i (length (g_ops g))) as [L|L].
  - rewrite nth_error_app1 in Ho by auto. destruct (G _ _ Ho) as ((A1 & A2 & A3 & zs & A4 & A5 & A6) & D). split; [|exact D]. split; auto. split; auto. split; auto. exists zs. split; auto. eapply Forall2_imp; [|exact A4]. auto.
  - rewrite nth_error_app2 in Ho by auto. destruct (i - length (g_ops g)) as [|j]; cbn in Ho; [|destruct j; discriminate]. injection Ho as <-. unfold static1, data1. cbn [oi_op oi_args oi_vals oi_grads oi_own]. split.
    + split; auto. split; auto. split; [congruence|]. exists ss. split; [eapply Forall2_imp; [|exact S1]; auto|]. split; [congruence|]. intros HK s Hs. destruct (Forall2_at S1 Hs) as (n & Hn & Hsn).
      unfold node_shape in Hsn. destruct (nth_error (g_ops g) (fst n)) as [q|] eqn:Hq; [|discriminate]. destruct (nth_error (oi_vals q) (snd n)) as [v|] eqn:Hv; [|apply nth_error_None in Hv; assert (NN : nth_error (shapes (oi_vals q)) (snd n) = None) by (apply nth_error_None; rewrite map_length; auto); congruence].
      rewrite (map_nth_error _ _ _ Hv) in Hsn. injection Hsn as <-. apply (F3 HK n v Hn). unfold value_of. rewrite (idx_nth Hq). cbn [bind]. apply idx_nth; auto.
    + split; [auto|]. split; auto.
Qed.

(** ** forward *)
Lemma shapes_of_blank (ys ys' : list tensor) : map (@blank K) ys' = map (@blank K) ys -> shapes ys' = shapes ys.
Proof. intros E. assert (H : map (@t_shape K) (map (@blank K) ys') = map (@t_shape K) (map (@blank K) ys)) by (rewrite E; auto). rewrite !map_map in H. exact H. Qed.
Lemma step_fw_safe g i : ginv g -> ginv (fst (step_fw itp g i)) /\ snd (step_fw itp g i) <> UB.
Proof.
  intros G. unfold step_fw. destruct (nth_error (g_ops g) i) as [o|] eqn:Ho; [|cbn; split; [auto|discriminate]]. destruct (oi_fwd o); [cbn; split; [auto|discriminate]|].
  set (o1 := mkOpinfo (oi_op o) (oi_args o) (oi_vals o) (oi_grads o) (oi_own o) true (oi_depth o)). set (g1 := mkGraph (lset (g_ops g) i o1) (g_log g ++ [i])).
  destruct (G _ _ Ho) as (SO & DO). assert (G1 : ginv g1) by (eapply set_ginv; [exact G|exact Ho|repeat split|exact DO]).
  assert (H : good (fun ys => Forall (@sane K) ys /\ shapes ys = shapes (oi_vals o)) (xs <- mapM (value_of g1) (oi_args o) ;; op_forward (itp (oi_op o)) xs (oi_vals o))).
  { eapply good_bind; [apply args_sane; exact G1|]. intros xs _ (Sx & _). destruct SO as (A1 & A2 & _). destruct DO as (D1 & _). eapply good_and; [cbn [interp op_forward]; apply forward_good; auto; intros j; apply (A2 j)|].
    intros ys Ey Sy. split; auto. apply shapes_of_blank. apply (@interp_lawful K Debug (oi_op o) _ _ _ Ey). }
  destruct (bind _ _) as [ys| |]; [|cbn [fst snd]; split; [exact G1|discriminate]|destruct H]. cbn [fst snd]. split; [|discriminate]. destruct H as (H1 & H2).
  unfold set_op, g1. cbn [g_ops g_log]. eapply (@set_ginv g1 i o1); [exact G1| |repeat split; exact H2|].
  - unfold g1. cbn [g_ops]. rewrite nth_error_lset by (apply nth_error_Some; congruence). rewrite Nat.eqb_refl. reflexivity.
  - destruct DO as (D1 & D2 & D3). split; [exact H1|]. split; auto.
Qed.
Lemma run_fw_safe order : forall g, ginv g -> ginv (fst (run_fw itp g order)) /\ snd (run_fw itp g order) <> UB.
Proof.
  induction order as [|i order IH]; intros g G; cbn [run_fw]; [split; [auto|discriminate]|]. destruct (step_fw_safe i G) as (H1 & H2). destruct (step_fw itp g i) as [g' [u| |]]; cbn [fst snd] in *; auto.
Qed.

(** ** backward *)
Lemma g_fresh al t k : al_ok al -> sane t -> good (fun t' => sane t' /\ t_shape t' = t_shape t) (t1 <- alloc Debug al t ;; reset Debug t1 k).
Proof.
  intros HA S. eapply good_bind with (Q := fun t1 => sane t1 /\ t_shape t1 = t_shape t).
  - eapply good_and; [apply g_alloc; auto|]. intros t1 E S1. split; auto. Local Transparent alloc. unfold alloc in E. inv_ok. reflexivity. Local Opaque alloc.
  - intros t1 _ (S1 & E1). eapply good_and; [apply g_reset; auto|]. intros t2 E S2. split; auto. rewrite <- E1. apply (f_equal t_shape) with (x := blank t2) (y := blank t1).
    assert (HF : fills (reset Debug t1 k) t1). { Local Transparent call_fw fw_registry. unfold reset. apply fills_bind; intros. unfold reset_tensor. apply call_fw_fills. reflexivity. Local Opaque call_fw fw_registry. }
    apply HF; auto.
Qed.

Lemma alike_trans g1 g2 g3 : alike g1 g2 -> alike g2 g3 -> alike g1 g3.
Proof.
  unfold alike. generalize (g_ops g1), (g_ops g2), (g_ops g3). intros l1 l2 l3 H. revert l3. induction H as [|a b l l' H H' IH]; intros l3 H3; inversion H3; subst; constructor; auto.
  match goal with H0 : like b _ |- _ => destruct H as (?&?&?&?), H0 as (?&?&?&?) end. repeat split; congruence.
Qed.
(** a change of one operator that keeps what it is *)
Definition keeps_all g g' : Prop := ginv g' /\ alike g g'.
Lemma set_keeps g i o o' : ginv g -> nth_error (g_ops g) i = Some o -> like o o' -> data1 o' -> keeps_all g (set_op g i o').
Proof. intros G Ho L D. split; [eapply set_ginv; eauto|]. unfold alike, set_op. cbn [g_ops]. eapply Forall2_lset; [apply like_refl|exact Ho|exact L]. Qed.
Lemma lset_shapes (l : list tensor) i t t' : nth_error l i = Some t -> t_shape t' = t_shape t -> shapes (lset l i t') = shapes l.
Proof. revert i. induction l as [|a l IH]; intros [|i] E H; cbn in *; try discriminate; [inversion E; subst; congruence|]. f_equal. eauto. Qed.
Lemma grad_sane g n : ginv g -> good (fun t => sane t /\ node_shape g n = Some (t_shape t) /\ forall t', sane t' -> t_shape t' = t_shape t -> keeps_all g (set_grad g n t')) (grad_of g n).
Proof.
  intros G. unfold grad_of, idx at 1. destruct (nth_error (g_ops g) (fst n)) as [o|] eqn:Ho; [|exact I]. cbn [bind]. unfold idx. destruct (nth_error (oi_grads o) (snd n)) as [t|] eqn:Ht; [|exact I]. cbn [good].
  destruct (G _ _ Ho) as (S1 & D1 & D2 & D3). pose proof D2 as D2'. rewrite Forall_forall in D2'. split; [apply D2'; eapply nth_error_In; eauto|]. split.
  - unfold node_shape. rewrite Ho. destruct S1 as (_ & _ & E & _). rewrite <- E. apply map_nth_error; auto.
  - intros t' St' Et'. unfold set_grad. rewrite Ho. eapply set_keeps; [exact G|exact Ho| |].
    + unfold set_grads. repeat split; cbn. eapply lset_shapes; eauto.
    + split; [exact D1|]. split; [|exact D3]. unfold set_grads. cbn [oi_grads]. apply Forall_lset; auto.
Qed.
Definition fair_grads (gal : grad_alloc K) : Prop := forall i v, al_ok (gal i v).
Lemma ensure_good gal n g : fair_grads gal -> ginv g -> good (keeps_all g) (ensure_grad Debug gal n g).
Proof.
  intros HA G. unfold ensure_grad. eapply good_bind; [apply grad_sane; exact G|]. intros t _ (S & _ & H). destruct (valid t); [cbn; split; [auto|apply alike_refl]|].
  pose proof (@g_fresh (gal (fst n) (snd n)) t n0 (HA _ _) S) as GF. destruct (alloc Debug (gal (fst n) (snd n)) t) as [t1| |]; cbn [bind] in GF |- *; auto.
  destruct (reset Debug t1 n0) as [t2| |]; cbn [bind good] in GF |- *; auto. destruct GF. auto.
Qed.
Lemma loop_keeps A (f : A -> graph -> res graph) l : forall g0 g, ginv g -> alike g0 g -> (forall a g', In a l -> ginv g' -> alike g0 g' -> good (keeps_all g') (f a g')) -> good (keeps_all g0) (forL l f g).
Proof.
  intros g0 g G H Hf. apply good_forL with (I := keeps_all g0); [|split; auto]. intros a g' Ha (G' & H'). eapply good_weaken; [apply Hf; auto|]. intros g2 (G2 & H2). split; auto. eapply alike_trans; eauto.
Qed.
Lemma update_good g0 g i o xs (u : update K) : ginv g -> alike g0 g -> nth_error (g_ops g0) i = Some o -> Forall2 (fun n s => node_shape g0 n = Some s) (oi_args o) (shapes xs) ->
  upd_ok xs (own_shape (o_kind (oi_op o))) u -> keeps (snd u) -> good (keeps_all g) (apply_update i (oi_args o) u g).
Proof.
  intros G H Ho HS HU HK. unfold apply_update. destruct u as [[j|] f]; cbn [fst snd] in *.
  - unfold idx at 1. destruct (nth_error (oi_args o) j) as [n|] eqn:Hn; [|exact I]. cbn [bind]. eapply good_bind; [apply grad_sane; exact G|]. intros t _ (S & E & HT).
    destruct (Forall2_at' HS Hn) as (s & Hs & Es). pose proof (alike_shape H Es) as Es'. rewrite Es' in E. injection E as E.
    eapply good_bind; [eapply good_and; [apply HU; [exact S|]|]|].
    + cbn [fst]. destruct (nth_error xs j) as [x|] eqn:Hx; [|apply nth_error_None in Hx; assert (NN : nth_error (shapes xs) j = None) by (apply nth_error_None; rewrite map_length; auto); congruence].
      exists x. split; auto. rewrite (map_nth_error _ _ _ Hx) in Hs. congruence.
    + intros t' Et' St'. instantiate (1 := fun t' => sane t' /\ t_shape t' = t_shape t). split; auto. destruct (HK _ _ Et') as (EB & _). unfold blank in EB. inversion EB; auto.
    + intros t' _ (St' & Et'). cbn. auto.
  - unfold idx at 1. destruct (Forall2_at' H Ho) as (o' & Ho' & L1 & L2 & L3 & L4). rewrite Ho'. cbn [bind]. destruct (oi_own o') as [t|] eqn:EO; [|exact I]. cbn [unwrap bind].
    destruct (G _ _ Ho') as (S1 & D1 & D2 & D3). destruct (D3 _ EO) as (S & ES). rewrite L1 in ES.
    eapply good_bind; [eapply good_and; [apply HU; [exact S|]|]|].
    + cbn [fst]. exact ES.
    + intros t' Et' St'. instantiate (1 := fun t' => sane t' /\ t_shape t' = t_shape t). split; auto. destruct (HK _ _ Et') as (EB & _). unfold blank in EB. inversion EB; auto.
    + intros t' _ (St' & Et'). cbn. unfold set_own. rewrite Ho'. eapply set_keeps; [exact G|exact Ho'|repeat split|]. split; [exact D1|]. split; [exact D2|]. cbn [oi_own oi_op]. intros q Eq. injection Eq as <-. split; auto. rewrite L1. congruence.
Qed.
Lemma step_bw_good gal g i : fair_grads gal -> ginv g -> (forall o ids, nth_error (g_ops g) i = Some o -> o_kind (oi_op o) <> KBatchPick ids) -> good (keeps_all g) (step_bw Debug itp gal g i).
Proof.
  intros HA G HB. unfold step_bw, idx at 1. destruct (nth_error (g_ops g) i) as [o|] eqn:Ho; [|exact I]. cbn [bind]. eapply good_bind; [apply args_sane; exact G|]. intros xs _ (Sx & Ex).
  eapply good_bind; [apply (loop_keeps (g0 := g)); [exact G|apply alike_refl|]; intros n g' _ G' _; apply ensure_good; auto|]. intros g1 _ (G1 & H1).
  destruct (G _ _ Ho) as (SO & D1 & D2 & D3). destruct (static_args SO Ex) as (E1 & E2). destruct SO as (A1 & A2 & A3 & _).
  eapply good_bind; [eapply good_and with (Q := Forall (fun u : update K => upd_ok xs (own_shape (o_kind (oi_op o))) u /\ keeps (snd u))); [cbn [interp op_backward]; apply backward_good; auto; intros j; apply (A2 j)|]|].
  - intros us Eu Hu. rewrite Forall_forall in Hu |- * . intros u Hin. split; auto. eapply (@interp_lawful_bw K Debug (oi_op o)); [exact Eu|exact Hin].
  - intros us _ Hu. rewrite Forall_forall in Hu. apply (loop_keeps (g0 := g)); [exact G1|exact H1|]. intros u g' Hin G' H'. destruct (Hu u Hin). eapply update_good; eauto.
Qed.
Lemma seed_good gal g root : fair_grads gal -> ginv g -> good (keeps_all g) (seed Debug gal g root).
Proof.
  intros HA G. unfold seed, idx. destruct (nth_error (g_ops g) root) as [o|] eqn:Ho; [|exact I]. cbn [bind]. destruct (G _ _ Ho) as (S1 & D1 & D2 & D3).
  eapply good_bind with (Q := fun gs => Forall (@sane K) gs /\ shapes gs = shapes (oi_grads o)).
  - revert D2. generalize 0 as k. generalize (oi_grads o) as l. induction l as [|t l IH]; intros k HF; [cbn; auto|]. inversion HF; subst. cbn [length seq combine mapM fold_right fst snd].
    eapply good_bind; [apply g_fresh; auto|]. intros t' _ (St & Et). eapply good_bind; [apply (IH (S k)); auto|]. intros ts _ (Sts & Ets). cbn. split; auto. congruence.
  - intros gs _ (Sgs & Egs). cbn. eapply set_keeps; [exact G|exact Ho| |].
    + unfold set_grads. repeat split; cbn. exact Egs.
    + split; [exact D1|]. split; [exact Sgs|exact D3].
Qed.
Lemma backward_keeps gal pop g root : fair_grads gal -> ginv g -> (forall i o ids, nth_error (g_ops g) i = Some o -> o_kind (oi_op o) <> KBatchPick ids) -> good (keeps_all g) (backward Debug itp gal pop g root).
Proof.
  intros HA G HB. unfold backward. eapply good_bind; [apply seed_good; auto|]. intros g1 _ (G1 & H1). apply (loop_keeps (g0 := g)); [exact G1|exact H1|]. intros i g' _ G' H'. apply step_bw_good; auto.
  intros o ids Ho. destruct (Forall2_at H' Ho) as (o0 & Ho0 & L & _). rewrite L. eauto.
Qed.
End Graphs.
