(** * CallDev: a call that gets past its checks has all its operands on one device *)
From Verif Require Export CallRel Agree.
Set Implicit Arguments.
Unset Strict Implicit.

Section Dev.
Variable K : num.
Variable srt : (nat -> nat -> option comparison) -> list nat -> res (list nat).
Variable m : build.
Notation tensor := (tensor K).
Notation F := (F K).

(** the device a function was called on, if it was called on one *)
Definition home (c : call K) : option nat :=
  match c with
  | CArgmax o _ _ | CArgmin o _ _ | CArgsort o _ _ | CUnary _ o _ _ | CWithConst _ o _ _ _ | CBinary _ o _ _ _ | CWithU32 _ o _ _ _ | CPowi o _ _ _ | CBroadcast o _ _ _ _
  | CSub o _ _ _ _ _ | CPick o _ _ _ _ | CBatchSub o _ _ _ _ | CBatchPick o _ _ _ | CAddAssign o _ _ | CSubAssign o _ _ => o
  | CUnaryBw _ d _ _ _ _ | CConstBw _ d _ _ _ _ _ | CBinaryBw _ _ d _ _ _ _ _ | CWithU32Bw _ _ d _ _ _ _ _ | CPowiBw d _ _ _ _ _ | CTransposeBw _ d _ _ _ _
  | CSubBw d _ _ _ _ | CPickBw d _ _ _ _ | CBatchSubBw d _ _ _ | CBatchPickBw d _ _ _ => Some d
  | _ => None
  end.
(** calls that make, fill, read back or transfer a tensor; entry 13 of the unary functions is [copy_tensor] *)
Definition transfer (c : call K) : bool :=
  match c with
  | CNew _ _ _ | CHost _ _ | CAlloc _ _ | CConst _ _ _ _ | CSlice _ _ _ _ | CMove _ _ _ | CReset _ _ | CResetSlice _ _ | CResetTensor _ _ | CUpdateShape _ _ | CVec _ | CFloat _ => true
  | CUnary 13 _ _ _ => true
  | _ => false
  end.
Definition gathered (d : nat) (c : call K) : Prop := (forall e, home c = Some e -> e = d) /\ Forall (fun x => t_dev x = Some d) (operands c).

Lemma np_check A d (x : tensor) (k : res A) : (_ <- check_dev d x ;; k) <> Panic -> t_dev x = Some d /\ k <> Panic.
Proof.
  unfold check_dev, device_of. destruct (t_dev x) as [e|]; cbn [unwrap bind]; [|congruence]. destruct (e =? d) eqn:E; cbn [assert bind]; [|congruence].
  apply Nat.eqb_eq in E. subst e. auto.
Qed.
Lemma np_bind A B (r : res A) (k : A -> res B) : bind r k <> Panic -> r <> Panic.
Proof. destruct r; cbn; congruence. Qed.
Lemma np_dev A (x : tensor) (k : nat -> res A) : (d <- device_of x ;; k d) <> Panic -> exists d, t_dev x = Some d /\ k d <> Panic.
Proof. unfold device_of. destruct (t_dev x) as [e|]; cbn [unwrap bind]; [eauto|congruence]. Qed.
Lemma np_pick A o (x : tensor) (k : nat -> res A) : (d <- pick_device o x ;; k d) <> Panic -> exists d, (forall e, o = Some e -> e = d) /\ (o = None -> t_dev x = Some d) /\ k d <> Panic.
Proof.
  destruct o as [e|]; cbn [pick_device bind]; [intros H; exists e; repeat split; [congruence|discriminate|auto]|].
  intros H. apply np_dev in H. destruct H as (d & E & H). exists d. repeat split; auto. discriminate.
Qed.
Lemma np_idx A B (l : list A) i (k : A -> res B) : (f <- idx l i ;; k f) <> Panic -> exists f, nth_error l i = Some f /\ k f <> Panic.
Proof. unfold idx. destruct (nth_error l i); cbn [bind]; [eauto|congruence]. Qed.
Lemma np_checks A d (xs : list tensor) (k : res A) : (_ <- forL xs (fun x (_ : unit) => check_dev d x) tt ;; k) <> Panic -> Forall (fun x => t_dev x = Some d) xs.
Proof.
  induction xs as [|x xs IH]; intros H; [constructor|]. cbn [forL] in H. rewrite bind_assoc in H. 
  assert (E := np_bind H). unfold check_dev, device_of in E, H. destruct (t_dev x) as [e|] eqn:D; cbn [unwrap bind] in E, H; [|congruence].
  destruct (e =? d) eqn:Q; cbn [assert bind] in E, H; [|congruence]. apply Nat.eqb_eq in Q. subst e. constructor; auto.
Qed.
Lemma np_one (r : res tensor) : one r <> Panic -> r <> Panic. Proof. apply np_bind. Qed.
Lemma np_none A (r : res A) : @none K A r <> Panic -> r <> Panic. Proof. apply np_bind. Qed.

Lemma entry A (P : A -> Prop) (l : list A) i f : nth_error l i = Some f -> Forall P l -> P f.
Proof. intros E H. apply nth_error_In in E. rewrite Forall_forall in H. auto. Qed.

(** *** the functions, by their checks *)
Lemma np_fw_x name d al (x : tensor) : define_fw_x m name d al x <> Panic -> t_dev x = Some d. Proof. intros H. apply np_check in H. tauto. Qed.
Lemma np_fw_const name d al (x : tensor) k : define_fw_const m name d al x k <> Panic -> t_dev x = Some d. Proof. intros H. apply np_check in H. tauto. Qed.
Lemma np_fw_ab name sop d al (a b : tensor) : define_fw_ab m name sop d al a b <> Panic -> t_dev a = Some d /\ t_dev b = Some d.
Proof. intros H. apply np_check in H. destruct H as [A H]. apply np_check in H. tauto. Qed.
Lemma np_matmul d al (a b : tensor) : matmul_fw m d al a b <> Panic -> t_dev a = Some d /\ t_dev b = Some d.
Proof. intros H. apply np_check in H. destruct H as [A H]. apply np_check in H. tauto. Qed.
Lemma np_transpose d al (x : tensor) : transpose_fw m d al x <> Panic -> t_dev x = Some d. Proof. intros H. apply np_check in H. tauto. Qed.
Lemma np_batch_sum d al (x : tensor) : batch_sum_fw m d al x <> Panic -> t_dev x = Some d. Proof. intros H. apply np_check in H. tauto. Qed.
Lemma np_reduce name d al (x : tensor) k : reduce_fw m name d al x k <> Panic -> t_dev x = Some d. Proof. intros H. apply np_check in H. tauto. Qed.
Lemma np_tri name d al (x : tensor) k : triangular_fw m name d al x k <> Panic -> t_dev x = Some d. Proof. intros H. apply np_check in H. tauto. Qed.
Lemma np_powi d al (x : tensor) k : powi_fw m d al x k <> Panic -> t_dev x = Some d. Proof. intros H. apply np_check in H. tauto. Qed.
Lemma np_broadcast d al (x : tensor) dim n : broadcast_fw m d al x dim n <> Panic -> t_dev x = Some d. Proof. intros H. apply np_check in H. tauto. Qed.
Lemma np_slice d al (x : tensor) dim lo hi : slice_fw m d al x dim lo hi <> Panic -> t_dev x = Some d. Proof. intros H. apply np_check in H. tauto. Qed.
Lemma np_pick_fw d al (x : tensor) ids dim : pick_fw m d al x ids dim <> Panic -> t_dev x = Some d. Proof. intros H. apply np_check in H. tauto. Qed.
Lemma np_batch_slice d al (x : tensor) lo hi : batch_slice_fw m d al x lo hi <> Panic -> t_dev x = Some d. Proof. intros H. apply np_check in H. tauto. Qed.
Lemma np_batch_pick d al (x : tensor) ids : batch_pick_fw m d al x ids <> Panic -> t_dev x = Some d. Proof. intros H. apply np_check in H. tauto. Qed.
Lemma np_argmax d (x : tensor) dim : argmax m srt d x dim <> Panic -> t_dev x = Some d. Proof. intros H. apply np_check in H. tauto. Qed.
Lemma np_argmin d (x : tensor) dim : argmin m srt d x dim <> Panic -> t_dev x = Some d. Proof. intros H. apply np_check in H. tauto. Qed.
Lemma np_argsort d (x : tensor) dim : argsort m srt d x dim <> Panic -> t_dev x = Some d. Proof. intros H. apply np_check in H. tauto. Qed.
Lemma np_concat d al (xs : list tensor) dim : concat_fw m d al xs dim <> Panic -> Forall (fun x => t_dev x = Some d) xs.
Proof. unfold concat_fw. destruct (negb (length xs =? 0)); cbn [assert bind]; [|congruence]. apply np_checks. Qed.
Lemma np_batch_concat d al (xs : list tensor) : batch_concat_fw m d al xs <> Panic -> Forall (fun x => t_dev x = Some d) xs.
Proof. unfold batch_concat_fw. destruct (negb (length xs =? 0)); cbn [assert bind]; [|congruence]. apply np_checks. Qed.
Definition all4 (d : nat) (x y gy gx : tensor) := t_dev x = Some d /\ t_dev y = Some d /\ t_dev gy = Some d /\ t_dev gx = Some d.
Definition all5 (d : nat) (a x y gy gx : tensor) := t_dev a = Some d /\ all4 d x y gy gx.
Lemma np_bw_checks d (x y gy gx : tensor) : bw_x_checks d x y gy gx <> Panic -> all4 d x y gy gx.
Proof.
  intros H. apply np_check in H. destruct H as [A H]. apply np_check in H. destruct H as [B H]. apply np_check in H. destruct H as [C H]. apply np_check in H. destruct H as [D H]. repeat split; auto.
Qed.
Lemma np_bw_x name d (x y gy gx : tensor) : define_bw_x m name d x y gy gx <> Panic -> all4 d x y gy gx.
Proof. intros H. apply np_bind in H. apply np_bw_checks, H. Qed.
Lemma np_bw_const name d (x y gy : tensor) k gx : define_bw_const m name d x y gy k gx <> Panic -> all4 d x y gy gx.
Proof. intros H. apply np_bind in H. apply np_bw_checks, H. Qed.
Lemma np_powi_bw d (x y gy : tensor) k gx : powi_bw m d x y gy k gx <> Panic -> all4 d x y gy gx.
Proof. intros H. apply np_bind in H. apply np_bw_checks, H. Qed.
Lemma np_extremum_bw name d (x y gy : tensor) k gx : extremum_bw m name d x y gy k gx <> Panic -> all4 d x y gy gx.
Proof.
  intros H. apply np_check in H. destruct H as [A H]. apply np_check in H. destruct H as [B H]. apply np_check in H. destruct H as [C H]. apply np_check in H. destruct H as [D H]. repeat split; auto.
Qed.
Lemma np_transpose_bw als d (x y gy : tensor) gx : transpose_bw m als d x y gy gx <> Panic -> all4 d x y gy gx.
Proof.
  intros H. apply np_check in H. destruct H as [A H]. apply np_check in H. destruct H as [B H]. apply np_check in H. destruct H as [C H]. apply np_check in H. destruct H as [D H]. repeat split; auto.
Qed.
Lemma np_tri_bw name als d (x y gy : tensor) k gx : triangular_bw m name als d x y gy k gx <> Panic -> all4 d x y gy gx.
Proof.
  intros H. apply np_check in H. destruct H as [A H]. apply np_check in H. destruct H as [B H]. apply np_check in H. destruct H as [C H]. apply np_check in H. destruct H as [D H]. repeat split; auto.
Qed.
Lemma np_bw_a name sop als d (a b y gy ga : tensor) : define_bw_ab_a m name sop als d a b y gy ga <> Panic -> all5 d a b y gy ga.
Proof.
  intros H. apply np_check in H. destruct H as [A H]. apply np_check in H. destruct H as [B H]. apply np_check in H. destruct H as [C H]. apply np_check in H. destruct H as [D H]. apply np_check in H. destruct H as [G H]. repeat split; auto.
Qed.
Lemma np_bw_b name sop als d (a b y gy ga : tensor) : define_bw_ab_b m name sop als d a b y gy ga <> Panic -> all5 d a b y gy ga.
Proof.
  intros H. apply np_check in H. destruct H as [A H]. apply np_check in H. destruct H as [B H]. apply np_check in H. destruct H as [C H]. apply np_check in H. destruct H as [D H]. apply np_check in H. destruct H as [G H]. repeat split; auto.
Qed.
Lemma np_slice_bw d (gy : tensor) dim lo gx : slice_bw m d gy dim lo gx <> Panic -> t_dev gy = Some d /\ t_dev gx = Some d.
Proof. intros H. apply np_check in H. destruct H as [A H]. apply np_check in H. tauto. Qed.
Lemma np_pick_bw d (gy : tensor) ids dim gx : pick_bw m d gy ids dim gx <> Panic -> t_dev gy = Some d /\ t_dev gx = Some d.
Proof. intros H. apply np_check in H. destruct H as [A H]. apply np_check in H. tauto. Qed.
Lemma np_batch_slice_bw d (gy : tensor) lo gx : batch_slice_bw m d gy lo gx <> Panic -> t_dev gy = Some d /\ t_dev gx = Some d.
Proof. intros H. apply np_check in H. destruct H as [A H]. apply np_check in H. tauto. Qed.
Lemma np_batch_pick_bw d (gy : tensor) ids gx : batch_pick_bw m d gy ids gx <> Panic -> t_dev gy = Some d /\ t_dev gx = Some d.
Proof. intros H. apply np_check in H. destruct H as [A H]. apply np_check in H. tauto. Qed.
Lemma np_add_assign d (x y : tensor) : add_assign m d x y <> Panic -> t_dev x = Some d /\ t_dev y = Some d.
Proof. intros H. apply np_check in H. destruct H as [A H]. apply np_check in H. tauto. Qed.
Lemma np_sub_assign d (x y : tensor) : sub_assign m d x y <> Panic -> t_dev x = Some d /\ t_dev y = Some d.
Proof. intros H. apply np_check in H. destruct H as [A H]. apply np_check in H. tauto. Qed.
Lemma np_ab_op fw sl sr al (a b : tensor) : (forall d x y, fw d al x y <> Panic -> t_dev x = Some d /\ t_dev y = Some d) ->
  (forall d x y, sl d al x y <> Panic -> t_dev x = Some d /\ t_dev y = Some d) -> (forall d x y, sr d al x y <> Panic -> t_dev x = Some d /\ t_dev y = Some d) ->
  define_ab_op fw sl sr al a b <> Panic -> exists d, t_dev a = Some d /\ t_dev b = Some d.
Proof.
  intros H1 H2 H3 H. unfold define_ab_op in H.
  destruct (is_scalar (t_shape a)); [|destruct (is_scalar (t_shape b))]; apply np_dev in H; destruct H as (d & E & H); exists d; [apply H2 in H|apply H3 in H|apply H1 in H]; tauto.
Qed.
Definition is_cross_entropy (c : call K) : bool := match c with CCrossEntropy _ _ _ _ => true | _ => false end.
Local Opaque call_fw call_bw call_u32 fw_registry bw_registry new_alloc alloc.
Lemma perform_gathered (c : call K) : transfer c = false -> is_cross_entropy c = false -> perform srt m c <> Panic -> exists d, gathered d c.
Proof.
  intros HT HX H.
  destruct c; cbn [transfer is_cross_entropy perform] in HT, HX, H; try discriminate; unfold gathered; cbn [operands home];
    try (apply np_one in H); try (apply np_none in H); try (apply np_pick in H; destruct H as (d & Ho & Hn & H)).
  - apply np_dev in H. destruct H as (d & E & H). exists d. split; [discriminate|auto].
  - exists d. apply np_argmax in H. auto.
  - exists d. apply np_argmin in H. auto.
  - exists d. apply np_argsort in H. auto.
  - apply np_idx in H. destruct H as (f & E & H). apply np_pick in H. destruct H as (d & Ho & Hn & H). exists d. split; [auto|]. constructor; [|constructor].
    do 11 (destruct i as [|i]; [inversion E; subst f; exact (np_fw_x H)|]). destruct i as [|i]; [inversion E; subst f; exact (np_transpose H)|]. destruct i as [|i]; [inversion E; subst f; exact (np_batch_sum H)|].
    destruct i as [|i]; [discriminate|destruct i; discriminate].
  - apply np_idx in H. destruct H as (f & E & H). apply np_pick in H. destruct H as (d & Ho & Hn & H). exists d. split; [auto|]. constructor; [|constructor].
    do 10 (destruct i as [|i]; [inversion E; subst f; exact (np_fw_const H)|]). destruct i; discriminate.
  - apply np_idx in H. destruct H as (f & E & H). apply np_pick in H. destruct H as (d & Ho & Hn & H). exists d. split; [auto|].
    assert (G : t_dev a = Some d /\ t_dev b = Some d).
    { do 5 (destruct i as [|i]; [inversion E; subst f; exact (np_fw_ab H)|]). destruct i as [|i]; [inversion E; subst f; exact (np_matmul H)|].
      do 8 (destruct i as [|i]; [inversion E; subst f; exact (np_fw_ab H)|]). destruct i; discriminate. }
    destruct G. auto.
  - apply np_idx in H. destruct H as (f & E & H). apply np_pick in H. destruct H as (d & Ho & Hn & H). exists d. split; [auto|]. constructor; [|constructor].
    do 4 (destruct i as [|i]; [inversion E; subst f; exact (np_reduce H)|]). do 2 (destruct i as [|i]; [inversion E; subst f; exact (np_tri H)|]). destruct i; discriminate.
  - exists d. apply np_powi in H. auto.
  - exists d. apply np_broadcast in H. auto.
  - exists d. apply np_slice in H. auto.
  - exists d. apply np_pick_fw in H. auto.
  - exists d. apply np_batch_slice in H. auto.
  - exists d. apply np_batch_pick in H. auto.
  - apply np_idx in H. destruct H as (x0 & E & H). apply np_dev in H. destruct H as (d & D & H). exists d. split; [discriminate|]. exact (np_concat H).
  - unfold t_batch_concat in H. destruct (negb (length xs =? 0)); cbn [assert bind] in H; [|congruence]. apply np_idx in H. destruct H as (x0 & E & H). apply np_dev in H. destruct H as (d & D & H). exists d. split; [discriminate|]. exact (np_batch_concat H).
  - apply np_idx in H. destruct H as (f & E & H).
    assert (G : exists d, t_dev a = Some d /\ t_dev b = Some d).
    { do 4 (destruct i as [|i]; [inversion E; subst f; eapply np_ab_op in H; eauto; intros ? ? ?; apply np_fw_ab|]). destruct i; discriminate. }
    destruct G as (d & D1 & D2). exists d. split; [discriminate|auto].
  - assert (G : exists d, t_dev x = Some d).
    { unfold t_split in H. unfold split_skip in H. destruct (N.eqb_spec n 0) as [->|Hn]; cbn [negb assert bind] in H; [congruence|]. destruct (_ =? _)%N; cbn [assert bind] in H; [|congruence].
      destruct (N.to_nat n) eqn:E; [lia|]. unfold forN in H. cbn [seq forL] in H. apply np_bind in H. apply np_bind in H. apply np_dev in H. destruct H as (d & D & _). eauto. }
    destruct G as (d & D). exists d. split; [discriminate|auto].
  - assert (G : exists d, t_dev x = Some d).
    { unfold t_batch_split in H. unfold split_skip in H. destruct (N.eqb_spec n 0) as [->|Hn]; cbn [negb assert bind] in H; [congruence|]. destruct (_ =? _)%N; cbn [assert bind] in H; [|congruence].
      destruct (N.to_nat n) eqn:E; [lia|]. unfold forN in H. cbn [seq forL] in H. apply np_bind in H. apply np_bind in H. apply np_dev in H. destruct H as (d & D & _). eauto. }
    destruct G as (d & D). exists d. split; [discriminate|auto].
  - apply np_dev in H. destruct H as (d & D & _). exists d. split; [discriminate|auto].
  - unfold t_flatten in H. destruct (shape_new m [volume (t_shape x)] (batch (t_shape x))) eqn:E; cbn [bind] in H; [|congruence|].
    + apply np_dev in H. destruct H as (d & D & _). exists d. split; [discriminate|auto].
    + exfalso. pose proof (good_new m [volume (t_shape x)] (batch (t_shape x))) as G. rewrite E in G. destruct G.
  - apply np_bind in H. apply np_dev in H. destruct H as (d & D & _). exists d. split; [discriminate|auto].
  - apply np_bind in H. apply np_bind in H. apply np_dev in H. destruct H as (d & D & _). exists d. split; [discriminate|auto].
  - apply np_bind in H. apply np_bind in H. apply np_dev in H. destruct H as (d & D & _). exists d. split; [discriminate|auto].
  - apply np_idx in H. destruct H as (f & E & H). exists d. split; [congruence|].
    assert (G : all4 d x y gy gx). { do 10 (destruct i as [|i]; [inversion E; subst f; exact (np_bw_x H)|]). destruct i; discriminate. } destruct G as (A & B & C & D). auto.
  - apply np_idx in H. destruct H as (f & E & H). exists d. split; [congruence|].
    assert (G : all4 d x y gy gx). { do 10 (destruct i as [|i]; [inversion E; subst f; exact (np_bw_const H)|]). destruct i; discriminate. } destruct G as (A & B & C & D). auto.
  - apply np_idx in H. destruct H as (f & E & H). exists d. split; [congruence|].
    assert (G : all5 d a b y gy g). { do 6 (destruct i as [|i]; [inversion E; subst f; exact (np_bw_a H)|]; destruct i as [|i]; [inversion E; subst f; exact (np_bw_b H)|]). destruct i; discriminate. } destruct G as (A & B & C & D & G'). auto 7.
  - apply np_idx in H. destruct H as (f & E & H). exists d. split; [congruence|].
    assert (G : all4 d x y gy gx). { do 2 (destruct i as [|i]; [inversion E; subst f; exact (np_extremum_bw H)|]). do 2 (destruct i as [|i]; [inversion E; subst f; exact (np_tri_bw H)|]). destruct i; discriminate. } destruct G as (A & B & C & D). auto.
  - apply np_powi_bw in H. exists d. split; [congruence|]. destruct H as (A & B & C & D). auto.
  - apply np_transpose_bw in H. exists d. split; [congruence|]. destruct H as (A & B & C & D). auto.
  - apply np_slice_bw in H. exists d. split; [congruence|]. destruct H. auto.
  - apply np_pick_bw in H. exists d. split; [congruence|]. destruct H. auto.
  - apply np_batch_slice_bw in H. exists d. split; [congruence|]. destruct H. auto.
  - apply np_batch_pick_bw in H. exists d. split; [congruence|]. destruct H. auto.
  - exists d. split; [auto|]. apply np_add_assign in H. destruct H. auto.
  - exists d. split; [auto|]. apply np_sub_assign in H. destruct H. auto.
Qed.
End Dev.
