(** * PropsShapeHistory: C01 and C02 in builds without overflow checks *)
From Verif Require Import ShapeFacts ShapeOps PropsShape PropsCount Mode.
Set Implicit Arguments.
Unset Strict Implicit.
Local Open Scope N_scope.

(** the shape is consistent but for its volume *)
Record formed (s : shape) : Prop := mkFormed {
  fm_len : length (dims8 s) = 8%nat;
  fm_pos : forall i, (i < 8)%nat -> 1 <= nth i (dims8 s) 1;
  fm_batch : 1 <= batch s;
  fm_depth : (depth s <= 8)%nat;
  fm_last : (0 < depth s)%nat -> nth (depth s - 1) (dims8 s) 1 <> 1;
  fm_ones : forall i, (depth s <= i)%nat -> nth i (dims8 s) 1 = 1 }.
Lemma wf_formed s : wf s -> formed s.
Proof. intros []. constructor; auto. lia. Qed.
Lemma formed_index s i : formed s -> index s i = nth i (dims8 s) 1.
Proof. intros H; unfold index. destruct (Nat.ltb_spec i (depth s)); auto. symmetry; apply (fm_ones H); auto. Qed.

(** ** C01 *)
Lemma new_formed ds b s : shape_new Release ds b = Ok s -> (length ds <= 8)%nat /\ Forall (fun d => 1 <= d) ds /\ 1 <= b /\ dims8 s = fill ds /\ batch s = b /\ volume s = prodN ds mod two32 /\ formed s.
Proof.
  intros E. unfold shape_new in E. apply assert_bind_Ok in E. destruct E as (E1 & E). apply assert_bind_Ok in E. destruct E as (E2 & E). apply Nat.leb_le in E1. apply N.leb_le in E2. unfold MAX_DEPTH in E1.
  apply bind_Ok in E. destruct E as ([[f v] dep] & El & E). injection E as <-. unfold forN in El.
  assert (G : forall n st, (n <= length ds)%nat -> forL (seq 0 n) (fun i '(filled, vol, dep) => di <- idx ds i ;; _ <- assert (negb (di =? 0)) ;; filled' <- aset filled i di ;;
          (let dep' := if negb (di =? 1) then S i else dep in vol' <- mul32 Release vol di ;; Ok (filled', vol', dep'))) (repeat 1 MAX_DEPTH, 1, 0%nat) = Ok st ->
      Forall (fun d => 1 <= d) (firstn n ds) /\ wrapping ds n st /\ ((0 < snd st)%nat -> nth (snd st - 1) ds 1 <> 1)).
  { induction n as [|n IH]; intros st Hn E.
    - injection E as <-. split; [constructor|]. split; [|cbn; lia]. cbn. repeat split; auto; intros; lia.
    - rewrite seq_S, forL_app in E. apply bind_Ok in E. destruct E as ([[f1 v1] d1] & Ea & E). destruct (IH _ ltac:(lia) Ea) as (F1 & (Hf & Hv & Hd & Ho) & HL). clear IH Ea. cbn [forL Nat.add] in E. apply bind_Ok in E. destruct E as (st1 & E & E'). injection E' as <-.
      rewrite (idx_Ok ds n 1) in E by lia. cbn [bind] in E. apply assert_bind_Ok in E. destruct E as (E0 & E). apply negb_true_iff, N.eqb_neq in E0. apply bind_Ok in E. destruct E as (f2 & Ef & E). unfold mul32 in E. rewrite norm32_release in E. cbn [bind] in E. injection E as <-.
      unfold aset in Ef. rewrite Hf, fill_length in Ef by (rewrite firstn_length; lia). replace (n <? 8)%nat with true in Ef by (symmetry; apply Nat.ltb_lt; lia). injection Ef as <-.
      assert (Enth : nth_error ds n = Some (nth n ds 1)) by (apply nth_error_nth'; lia). cbn [snd] in HL |- * .
      split; [rewrite (firstn_snoc _ _ Enth); apply Forall_app; split; [exact F1|constructor; [lia|constructor]]|]. split.
      + split; [rewrite <- fill_step by lia; reflexivity|]. split; [rewrite Hv, N.mul_mod_idemp_l by discriminate; rewrite (firstn_snoc _ _ Enth), prodN_app; cbn [prodN fold_right]; rewrite N.mul_1_r; reflexivity|].
        split; [destruct (N.eqb_spec (nth n ds 1) 1); cbn [negb]; lia|]. intros j Hj. destruct (N.eqb_spec (nth n ds 1) 1) as [E1'|E1']; cbn [negb] in Hj; [|lia]. destruct (Nat.eq_dec j n); [subst; auto|apply Ho; lia].
      + destruct (N.eqb_spec (nth n ds 1) 1) as [E1'|E1']; cbn [negb]; auto. intros _. rewrite Nat.sub_succ, Nat.sub_0_r. exact E1'. }
  destruct (G _ _ (le_n _) El) as (F & (Hf & Hv & Hd & Ho) & HL). rewrite firstn_all in * . subst f v. cbn [snd] in HL. cbn [dims8 batch volume]. repeat (split; [auto; fail|]).
  constructor; cbn [dims8 batch depth]; auto; try lia.
  - apply fill_length; auto.
  - intros i _. rewrite nth_fill. destruct (Nat.lt_ge_cases i (length ds)); [eapply Forall_forall; [exact F|apply nth_In; auto]|rewrite nth_overflow by auto; lia].
  - intros P. rewrite nth_fill. auto.
  - intros i Hi. rewrite nth_fill. destruct (Nat.lt_ge_cases i (length ds)); [apply Ho; lia|apply nth_overflow; auto].
Qed.
Theorem C01_new_without_checks : forall ds b,
  ((exists s, shape_new Release ds b = Ok s) <-> (length ds <= 8)%nat /\ ~ In 0 ds /\ 1 <= b) /\
  forall s, shape_new Release ds b = Ok s -> (forall i, index s i = nth i ds 1) /\ batch s = b /\ volume s = prodN ds mod 2 ^ 32 /\
    (depth s <= length ds)%nat /\ (forall i, (depth s <= i)%nat -> nth i ds 1 = 1) /\ ((0 < depth s)%nat -> nth (depth s - 1) ds 1 <> 1).
Proof.
  intros ds b. change (2 ^ 32) with two32. split; [split|].
  - intros (s & E). destruct (new_formed E) as (H1 & H2 & H3 & _). split; auto. split; auto. intros HI. rewrite Forall_forall in H2. specialize (H2 _ HI). lia.
  - intros (H1 & H2 & H3). destruct (@C08_new_without_checks ds b) as (s & E & _); eauto. apply Forall_forall. intros x Hx. destruct (N.eq_dec x 0); [subst; contradiction|lia].
  - intros s E. destruct (new_formed E) as (H1 & H2 & H3 & D & B & V & FM). split; [intros i; rewrite formed_index by auto; rewrite D; apply nth_fill|]. split; auto. split; auto.
    assert (L : (0 < depth s)%nat -> nth (depth s - 1) ds 1 <> 1) by (intros P; rewrite <- nth_fill, <- D; apply (fm_last FM P)). split; [|split; auto].
    + destruct (Nat.le_gt_cases (depth s) (length ds)); auto. exfalso. apply L; [lia|]. apply nth_overflow. lia.
    + intros i Hi. rewrite <- nth_fill, <- D. apply (fm_ones FM Hi).
Qed.
Lemma formed_ext s1 s2 : formed s1 -> formed s2 -> (forall i, index s1 i = index s2 i) -> dims8 s1 = dims8 s2 /\ depth s1 = depth s2.
Proof.
  intros H1 H2 He. assert (Ed : dims8 s1 = dims8 s2).
  { apply nth_ext_len with (d := 1); [rewrite (fm_len H1), (fm_len H2); auto|]. intros i Hi. rewrite <- !formed_index by auto. apply He. }
  split; auto. apply (@depth_unique (dims8 s1)); try apply H1; rewrite Ed; apply H2.
Qed.
Theorem C01_equality_without_checks : forall ds1 b1 s1 ds2 b2 s2, shape_new Release ds1 b1 = Ok s1 -> shape_new Release ds2 b2 = Ok s2 ->
  (shape_eqb s1 s2 = true <-> (forall i, nth i ds1 1 = nth i ds2 1) /\ b1 = b2).
Proof.
  intros ds1 b1 s1 ds2 b2 s2 E1 E2. destruct (new_formed E1) as (L1 & _ & _ & D1 & B1 & V1 & F1). destruct (new_formed E2) as (L2 & _ & _ & D2 & B2 & V2 & F2).
  assert (I1 : forall i, index s1 i = nth i ds1 1) by (intros i; rewrite formed_index by auto; rewrite D1; apply nth_fill). assert (I2 : forall i, index s2 i = nth i ds2 1) by (intros i; rewrite formed_index by auto; rewrite D2; apply nth_fill).
  rewrite shape_eqb_spec. split.
  - intros ->. split; [|congruence]. intros i. rewrite <- I1, <- I2. reflexivity.
  - intros (H & HB). assert (He : forall i, index s1 i = index s2 i) by (intros i; rewrite I1, I2; auto). destruct (formed_ext F1 F2 He) as (ED & EP).
    assert (EV : volume s1 = volume s2) by (rewrite V1, V2, <- (prodN_fill ds1), <- (prodN_fill ds2), <- D1, <- D2, ED; reflexivity). clear - ED EP EV B1 B2 HB. destruct s1 as [x1 x2 x3 x4], s2 as [y1 y2 y3 y4]. cbn in * . congruence.
Qed.

(** ** C02 *)
(** one resize is refused only for a dimension past 7 or an extent (or batch) of 0 *)
Definition allowed (o : resize_op) : Prop := match o with RDim d k => (d < 8)%nat /\ k <> 0 | RBatch b => b <> 0 end.
Lemma update_formed s dim k : formed s -> (dim < 8)%nat -> 1 <= k -> exists s', update_dim Release s dim k = Ok s' /\ formed s' /\ dims8 s' = lset (dims8 s) dim k /\ batch s' = batch s /\ volume s' = (volume s / index s dim * k) mod two32.
Proof.
  intros H Hd Hk. set (s1 := mkShape (dims8 s) (batch s) (Nat.max (depth s) (dim + 1)) (volume s)).
  assert (Hs1 : (if (depth s <=? dim)%nat then ds <- forR (depth s) (dim + 1) (fun i ds => aset ds i 1) (dims8 s) ;; Ok (mkShape ds (batch s) (dim + 1) (volume s)) else Ok s) = Ok s1).
  { destruct (Nat.leb_spec (depth s) dim).
    - unfold forR. rewrite aset_ones; [|rewrite (fm_len H); lia|apply H]. cbn [bind]. unfold s1. rewrite Nat.max_r by lia. reflexivity.
    - unfold s1. rewrite Nat.max_l by lia. destruct s; reflexivity. }
  assert (Hlen : (dim < length (dims8 s))%nat) by (rewrite (fm_len H); auto). pose proof (fm_depth H) as HD.
  destruct (@strip_spec (lset (dims8 s) dim k) (depth s1)) as (dep & Es & Hle & Hl & Ho). { rewrite lset_length, (fm_len H). unfold s1; simpl. lia. }
  unfold s1 in Hle; simpl in Hle. pose proof (fm_pos H Hd) as Hp.
  assert (E : update_dim Release s dim k = Ok (mkShape (lset (dims8 s) dim k) (batch s) dep ((volume s / index s dim * k) mod two32))).
  { unfold update_dim. replace (dim <? MAX_DEPTH)%nat with true by (symmetry; apply Nat.ltb_lt; exact Hd). replace (negb (k =? 0)) with true by (symmetry; apply negb_true_iff, N.eqb_neq; lia).
    cbn [assert bind]. rewrite Hs1. cbn [bind]. unfold s1 at 1; cbn [dims8]. rewrite (idx_Ok _ _ 1) by auto. cbn [bind]. replace (negb (nth dim (dims8 s) 1 =? 0)) with true by (symmetry; apply negb_true_iff, N.eqb_neq; lia).
    cbn [assert bind]. unfold s1 at 1; cbn [volume]. rewrite formed_index by auto. unfold mul32. rewrite norm32_release. cbn [bind]. unfold aset. unfold s1 at 1 2; cbn [dims8].
    replace (dim <? length (dims8 s))%nat with true by (symmetry; apply Nat.ltb_lt; auto). cbn [bind]. rewrite Es. reflexivity. }
  eexists. split; [exact E|]. cbn [dims8 batch volume]. split; [|auto]. constructor; cbn [dims8 batch depth]; auto; try lia.
  - rewrite lset_length; apply H.
  - intros i Hi. rewrite nth_lset by auto. destruct (i =? dim)%nat; [lia|apply (fm_pos H); auto].
  - apply H.
  - intros i Hi. destruct (Nat.lt_ge_cases i (depth s1)) as [Hlt|Hge]; [apply Ho; lia|]. unfold s1 in Hge; simpl in Hge. rewrite nth_lset_neq by lia. apply (fm_ones H); lia.
Qed.
Lemma history_formed ops : forall s, formed s ->
  ((exists s', run_resizes Release ops s = Ok s') <-> Forall allowed ops) /\
  forall s', run_resizes Release ops s = Ok s' -> formed s' /\ (dims8 s', batch s') = fold_left track ops (dims8 s, batch s).
Proof.
  induction ops as [|o ops IH]; intros s H.
  - split; [split; [intros _; constructor|intros _; exists s; reflexivity]|]. intros s' E. injection E as <-. auto.
  - unfold run_resizes. cbn [forL fold_left].
    assert (ST : (allowed o -> exists s1, run_resize Release s o = Ok s1 /\ formed s1 /\ (dims8 s1, batch s1) = track (dims8 s, batch s) o) /\ forall s1, run_resize Release s o = Ok s1 -> allowed o).
    { destruct o as [d k|b]; cbn [allowed run_resize track fst snd].
      - split.
        + intros (Hd & Hk). destruct (@update_formed s d k H Hd) as (s1 & E & F1 & D1 & B1 & _); [lia|]. exists s1. split; auto. split; auto. congruence.
        + intros s1 E. split; [destruct (Nat.lt_ge_cases d 8); auto; rewrite update_dim_Panic in E by auto; discriminate|]. intros ->. rewrite update_dim_Panic in E by auto. discriminate.
      - unfold update_batch. split.
        + intros Hb. exists (mkShape (dims8 s) b (depth s) (volume s)). split; [apply assert_bind_Ok; split; [apply N.leb_le; lia|reflexivity]|]. split; auto. destruct H. constructor; cbn; auto. lia.
        + intros s1 E. apply assert_bind_Ok in E. destruct E as (E & _). apply N.leb_le in E. lia. }
    destruct ST as (ST1 & ST2). split.
    + split.
      * intros (s' & E). apply bind_Ok in E. destruct E as (s1 & E1 & E). pose proof (ST2 _ E1) as A. destruct (ST1 A) as (s1' & E1' & F1 & _). assert (s1' = s1) by congruence. subst s1'. constructor; auto. apply (IH s1 F1). eauto.
      * intros A. inversion A as [|? ? A1 A2]; subst. destruct (ST1 A1) as (s1 & E1 & F1 & _). rewrite E1. cbn [bind]. apply (proj1 (IH s1 F1)). auto.
    + intros s' E. apply bind_Ok in E. destruct E as (s1 & E1 & E). destruct (ST1 (ST2 _ E1)) as (s1' & E1' & F1 & T). assert (s1' = s1) by congruence. subst s1'. destruct (proj2 (IH s1 F1) s' E) as (F' & T'). split; auto. rewrite T', T. reflexivity.
Qed.
(** without overflow checks a history of resizes always has the right extents, batch and depth: those of [Shape::new] *)
Theorem C02_histories_without_checks : forall ds b s ops, shape_new Release ds b = Ok s ->
  let final := fold_left track ops (ds ++ repeat 1 (8 - length ds), b) in
  ((exists s', run_resizes Release ops s = Ok s') <-> Forall allowed ops) /\
  forall s', run_resizes Release ops s = Ok s' -> exists s2, shape_new Release (fst final) (snd final) = Ok s2 /\
    (forall i, index s' i = index s2 i) /\ batch s' = batch s2 /\ depth s' = depth s2.
Proof.
  intros ds b s ops E. cbv zeta. destruct (new_formed E) as (H1 & H2 & H3 & D & B & _ & FM). destruct (@history_formed ops s FM) as (A1 & A2). split; auto. intros s' E'. destruct (A2 s' E') as (F' & T).
  change (ds ++ repeat 1 (8 - length ds)) with (fill ds). rewrite <- D, <- B, <- T. cbn [fst snd].
  destruct (proj2 (proj1 (C01_new_without_checks (dims8 s') (batch s')))) as (s2 & E2).
  { split; [rewrite (fm_len F'); auto|]. split; [|apply F']. intros HI. destruct (In_nth _ _ 1 HI) as (i & Hi & Z). pose proof (fm_pos F' (i := i)) as P. rewrite (fm_len F') in Hi. specialize (P Hi). lia. }
  destruct (new_formed E2) as (_ & _ & _ & D2 & B2 & _ & F2). assert (I : forall i, index s' i = index s2 i) by (intros i; rewrite !formed_index by auto; rewrite D2; symmetry; apply nth_fill).
  exists s2. split; auto. split; auto. split; auto. apply (formed_ext F' F2 I).
Qed.
(** and when no product on the way is too large the same shape *)
Theorem C02_same_without_checks : forall m ops s s', run_resizes Debug ops s = Ok s' -> run_resizes m ops s = Ok s'.
Proof.
  intros m ops s s' E. unfold run_resizes in * . refine (@le_forL _ _ ops _ _ _ s _ E). intros [d k|b] s0; [apply le_update_dim|]. cbn. apply le_refl.
Qed.
(** but the volume of a shape that has once been too large stays wrong: 65537 x 65537 resized to 1 x 65537 is no shape [Shape::new] gives, and is not equal to the one with its extents *)
Theorem C02_release_refuted : exists s s' s2, shape_new Release [65537] 1 = Ok s /\ run_resizes Release [RDim 1 65537; RDim 0 1] s = Ok s' /\ shape_new Release [1; 65537] 1 = Ok s2 /\
  volume s' = 1 /\ volume s2 = 65537 /\ shape_eqb s' s2 = false /\ forall ds b, shape_new Release ds b <> Ok s'.
Proof.
  do 3 eexists. split; [vm_compute; reflexivity|]. split; [vm_compute; reflexivity|]. split; [vm_compute; reflexivity|]. split; [reflexivity|]. split; [reflexivity|]. split; [reflexivity|].
  intros ds b E. destruct (new_formed E) as (_ & _ & _ & D & _ & V & _). rewrite <- prodN_fill, <- D in V. vm_compute in V. discriminate.
Qed.

(** ** C07 *)
(** without overflow checks too, what has been deserialised serialises and deserialises to itself *)
Theorem C07_deserialize_without_checks : forall d s, shape_deserialize Release d = Ok s ->
  shape_deserialize Release (shape_serialize s) = Ok s /\ (forall i, index s i = nth i (sd_dims d) 1) /\ batch s = sd_batch d /\ volume s = prodN (sd_dims d) mod 2 ^ 32.
Proof.
  intros d s E. unfold shape_deserialize in E. destruct (proj2 (C01_new_without_checks (sd_dims d) (sd_batch d)) s E) as (I & B & V & _). split; auto.
  destruct (new_formed E) as (L & _ & _ & D & _ & _ & FM). unfold shape_deserialize, shape_serialize; cbn [sd_dims sd_batch].
  assert (N1 : forall i, nth i (dims s) 1 = index s i).
  { intros i. unfold dims, index. rewrite <- (firstn_skipn (depth s) (dims8 s)) at 2. assert (LF : length (firstn (depth s) (dims8 s)) = depth s) by (rewrite firstn_length, (fm_len FM); pose proof (fm_depth FM); lia).
    destruct (Nat.ltb_spec i (depth s)); [rewrite app_nth1 by lia; auto|apply nth_overflow; lia]. }
  assert (L8 : (length (dims s) <= 8)%nat) by (unfold dims; rewrite firstn_length, (fm_len FM); lia).
  destruct (proj2 (proj1 (C01_new_without_checks (dims s) (batch s)))) as (s2 & E2).
  { split; auto. split; [|apply FM]. intros HI. destruct (In_nth _ _ 1 HI) as (i & Hi & Z). rewrite N1, formed_index in Z by auto. pose proof (fm_pos FM (i := i)). lia. }
  rewrite E2. f_equal. destruct (new_formed E2) as (_ & _ & _ & D2 & B2 & V2 & F2). destruct (new_formed E) as (_ & _ & _ & _ & _ & V1 & _).
  destruct (formed_ext F2 FM) as (ED & EP); [intros i; rewrite formed_index by auto; rewrite D2, nth_fill; apply N1|].
  assert (EV : volume s2 = volume s) by (rewrite V1, V2, <- (prodN_fill (dims s)), <- (prodN_fill (sd_dims d)), <- D2, <- D, ED; reflexivity).
  clear - ED EP EV B2. destruct s as [x1 x2 x3 x4], s2 as [y1 y2 y3 y4]. cbn in * . congruence.
Qed.
(** but a shape with a wrong volume does not survive it *)
Theorem C07_release_refuted : exists s0 s s', shape_new Release [65537] 1 = Ok s0 /\ run_resizes Release [RDim 1 65537; RDim 0 1] s0 = Ok s /\
  shape_deserialize Release (shape_serialize s) = Ok s' /\ shape_eqb s s' = false.
Proof.
  destruct C02_release_refuted as (s0 & s & s2 & E0 & E1 & E2 & V1 & V2 & N1 & _). exists s0, s, s2. split; auto. split; auto. split; auto.
  vm_compute in E0. injection E0 as <-. vm_compute in E1. injection E1 as <-. exact E2.
Qed.

(** ** C03 *)
Lemma prod_below_ones f n d : (forall i, (n <= i)%nat -> f i = 1) -> prod_below f d = prod_below f (Nat.min d n).
Proof.
  intros H. induction d as [|d IH]; [reflexivity|]. cbn [prod_below]. destruct (Nat.le_gt_cases n d).
  - rewrite H, N.mul_1_r, IH by auto. f_equal. lia.
  - replace (Nat.min (S d) n) with (S d) by lia. reflexivity.
Qed.
Lemma lower_formed s d : formed s -> lower_volume Release s d = Ok (prod_below (index s) d mod two32).
Proof.
  intros H. rewrite (@prod_below_ones (index s) (depth s) d) by (intros i Hi; unfold index; destruct (Nat.ltb_spec i (depth s)); auto; lia). unfold lower_volume, forN.
  assert (G : forall n, (n <= 8)%nat -> forL (seq 0 n) (fun i ret => e <- idx (dims8 s) i ;; mul32 Release ret e) 1 = Ok (prod_below (index s) n mod two32)).
  { induction n as [|n IH]; intros Hn; [reflexivity|]. rewrite seq_S, forL_app, IH by lia. cbn [bind forL Nat.add]. rewrite (idx_Ok _ _ 1) by (rewrite (fm_len H); lia). cbn [bind]. unfold mul32. rewrite norm32_release. cbn [bind prod_below].
    rewrite N.mul_mod_idemp_l by discriminate. rewrite (formed_index n H). reflexivity. }
  apply G. pose proof (fm_depth H). lia.
Qed.
(** without overflow checks the stride is the product of the extents below modulo 2^32, after any history of resizes *)
Theorem C03_lower_volume_without_checks : forall ds b s ops s' d, shape_new Release ds b = Ok s -> run_resizes Release ops s = Ok s' ->
  lower_volume Release s' d = Ok (prod_below (index s') d mod 2 ^ 32).
Proof.
  intros ds b s ops s' d E R. change (2 ^ 32) with two32. destruct (new_formed E) as (_ & _ & _ & _ & _ & _ & FM). destruct (proj2 (history_formed ops FM) s' R) as (F' & _). apply lower_formed; auto.
Qed.
Example C03_without_checks_applies : exists s s', shape_new Release [65537] 1 = Ok s /\ run_resizes Release [RDim 1 65537; RDim 2 3] s = Ok s' /\ lower_volume Release s' 2 = Ok 131073 /\ prod_below (index s') 2 = 4295098369.
Proof. do 2 eexists. split; [vm_compute; reflexivity|]. split; [vm_compute; reflexivity|]. split; vm_compute; reflexivity. Qed.
