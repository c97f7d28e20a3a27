(** * Safe: no function reaches memory outside the buffers of its operands (lemmas)

    A read or write outside a buffer is [UB] in the model (Base.v: rd, wr). *)
From Verif Require Export PVocab ApiMat ApiComp ApiCat.
Set Implicit Arguments.
Unset Strict Implicit.

(** the call returns (with a result satisfying [P]) or panics *)
Definition good A (P : A -> Prop) (r : res A) : Prop := match r with Ok a => P a | Panic => True | UB => False end.
Notation anything := (fun _ => True).

Lemma good_bind A B (Q : A -> Prop) (P : B -> Prop) r k : good Q r -> (forall a, r = Ok a -> Q a -> good P (k a)) -> good P (bind r k).
Proof. destruct r; cbn; auto. Qed.
Lemma good_weaken A (P Q : A -> Prop) r : good P r -> (forall a, P a -> Q a) -> good Q r.
Proof. destruct r; cbn; auto. Qed.
Lemma good_ok A (P : A -> Prop) a : P a -> good P (Ok a). Proof. auto. Qed.
Lemma good_assert b : good anything (assert b). Proof. destruct b; exact I. Qed.
Lemma good_idx A (l : list A) i : good anything (idx l i). Proof. unfold idx. destruct (nth_error l i); exact I. Qed.
Lemma good_unwrap A (o : option A) : good anything (unwrap o). Proof. destruct o; exact I. Qed.
Lemma good_norm32 m x : good anything (norm32 m x). Proof. unfold norm32. destruct (_ <? _)%N, m; exact I. Qed.
Lemma good_aset A (l : list A) i v : good anything (aset l i v). Proof. unfold aset. destruct (_ <? _); exact I. Qed.
Lemma good_forL A S (I : S -> Prop) (l : list A) (f : A -> S -> res S) : (forall a s, In a l -> I s -> good I (f a s)) -> forall s, I s -> good I (forL l f s).
Proof.
  induction l as [|a l IH]; intros H s Hs; [exact Hs|]. cbn. apply good_bind with (Q := I); [apply H; [left; auto|auto]|]. intros s' _ Hs'. apply IH; auto. intros; apply H; [right; auto|auto].
Qed.
Lemma good_forN S (I : S -> Prop) n (f : nat -> S -> res S) : (forall a s, a < n -> I s -> good I (f a s)) -> forall s, I s -> good I (forN n f s).
Proof. intros H. apply good_forL. intros a s Ha. apply H. apply in_seq in Ha. lia. Qed.
Lemma good_forR S (I : S -> Prop) lo hi (f : nat -> S -> res S) : (forall a s, I s -> good I (f a s)) -> forall s, I s -> good I (forR lo hi f s).
Proof. intros H. apply good_forL. intros a s _. apply H. Qed.
Lemma good_rd A (l : list A) i : i < length l -> good anything (rd l i).
Proof. intros H. unfold rd. destruct (nth_error l i) eqn:E; [exact I|]. apply nth_error_None in E. lia. Qed.
Lemma good_wr A (l : list A) i v : i < length l -> good (fun l' => length l' = length l) (wr l i v).
Proof. intros H. unfold wr. apply Nat.ltb_lt in H. rewrite H. apply lset_length. Qed.

(** ** Shapes *)
Ltac gd := repeat first
  [ exact I
  | apply good_assert | apply good_idx | apply good_unwrap | apply good_norm32 | apply good_aset
  | match goal with
    | |- good _ (bind _ _) => apply good_bind with (Q := anything); [|intros ? _ _]
    | |- good _ (forL _ _ _) => apply good_forL; [intros ? ? _ _|exact I]
    | |- good _ (forN _ _ _) => apply good_forN; [intros ? ? _ _|exact I]
    | |- good _ (forR _ _ _ _) => apply good_forR; [intros ? ? _|exact I]
    | |- good _ (match ?x with _ => _ end) => destruct x
    | |- good _ (let _ := _ in _) => cbv zeta
    | |- good _ ((fun _ => _) _) => cbv beta
    end ].
Section Shapes.
Variable m : build.
Lemma good_size s : good anything (size m s). Proof. unfold size, mul32. gd. Qed.
Lemma good_lower s d : good anything (lower_volume m s d). Proof. unfold lower_volume, mul32. gd. Qed.
Lemma good_new ds b : good anything (shape_new m ds b). Proof. unfold shape_new, mul32. gd. Qed.
Lemma good_strip l d : good anything (strip l d).
Proof. induction d; cbn; gd. auto. Qed.
Lemma good_resize_batch s b : good anything (resize_batch s b). Proof. unfold resize_batch, update_batch. gd. Qed.
Lemma good_update_dim s d k : good anything (update_dim m s d k). Proof. unfold update_dim, mul32. gd; try apply good_strip. Qed.
Lemma good_resize_dim s d k : good anything (resize_dim m s d k). Proof. apply good_update_dim. Qed.
Lemma good_loo a b d : good anything (has_same_loo_dims m a b d). Proof. unfold has_same_loo_dims, add32. gd; try apply good_strip. Qed.
Lemma good_same_dims a b : good anything (has_same_dims a b). Proof. unfold has_same_dims. gd. Qed.
Ltac gs := gd; try apply good_same_dims; try apply good_resize_dim; try apply good_resize_batch; try apply good_new; try apply good_loo.
Lemma good_scalar_op a b : good anything (so_scalar_op a b). Proof. unfold so_scalar_op. gs. Qed.
Lemma good_elementwise a b : good anything (so_elementwise a b). Proof. unfold so_elementwise. gs. Qed.
Lemma good_so_broadcast x d n : good anything (so_broadcast m x d n). Proof. unfold so_broadcast. gs. Qed.
Lemma good_so_matmul a b : good anything (so_matmul m a b). Proof. unfold so_matmul. gs. Qed.
Lemma good_so_transpose a : good anything (so_transpose m a). Proof. unfold so_transpose. gs. Qed.
Lemma good_so_slice x d lo hi : good anything (so_slice m x d lo hi). Proof. unfold so_slice. gs. Qed.
Lemma good_so_pick x ids d : good anything (so_pick m x ids d). Proof. unfold so_pick. gs. Qed.
Lemma good_so_concat xs d : good anything (so_concat m xs d). Proof. unfold so_concat, add32. gs. Qed.
Lemma good_so_batch_pick x ids : good anything (so_batch_pick x ids). Proof. unfold so_batch_pick. gs. Qed.
Lemma good_so_batch_slice x lo hi : good anything (so_batch_slice x lo hi). Proof. unfold so_batch_slice. gs. Qed.
Lemma good_so_batch_concat xs : good anything (so_batch_concat m xs). Proof. unfold so_batch_concat, add32. gs. Qed.
End Shapes.

Section Tensors.
Variable K : num.
Notation F := (F K).
Notation tensor := (tensor K).

(** a tensor safe code can hold in a build with overflow checks: a consistent shape, and
    if there is a buffer, it belongs to a device and has room for all elements *)
Definition sane (t : tensor) : Prop :=
  wf (t_shape t) /\ forall l, t_buf t = Some l -> t_host t = None /\ fits (t_shape t) /\ tot (t_shape t) <= length l /\ t_dev t <> None.

Lemma ready_sane d (t : tensor) : ready d t -> sane t.
Proof. intros H. split; [apply (ready_wf H)|]. intros l E. pose proof (ready_len H) as L. unfold buf in L. rewrite E in L. split; [apply H|]. split; [apply H|]. split; [auto|]. rewrite (proj1 H). discriminate. Qed.
Lemma sane_ready d (t : tensor) l : sane t -> t_dev t = Some d -> t_buf t = Some l -> ready d t.
Proof. intros (W & H) D B. destruct (H l B) as (H1 & H2 & H3 & _). split; auto. split; auto. split; auto. split; [apply fits_ok; auto|]. unfold buf. rewrite B. auto. Qed.
Lemma sane_wf (t : tensor) : sane t -> wf (t_shape t). Proof. intros H; apply H. Qed.
Lemma dev_cases d (x : tensor) : t_dev x = Some d \/ check_dev d x = Panic.
Proof. unfold check_dev, device_of. destruct (t_dev x) as [e|]; cbn; auto. destruct (Nat.eqb_spec e d); [left; congruence|right; auto]. Qed.
Lemma good_al (al : alloc_oracle K) n : al_ok al -> good anything (al n).
Proof. intros H. specialize (H n). destruct (_ && _); [destruct H as (l & -> & _)|rewrite H]; exact I. Qed.
Lemma good_check d (x : tensor) : good anything (check_dev d x).
Proof. unfold check_dev, device_of. gd. Qed.
Lemma good_new_alloc m d (al : alloc_oracle K) s : al_ok al -> good anything (new_alloc m d al s).
Proof. intros H. unfold new_alloc, alloc, device_of. gd; try apply good_size. apply good_al; auto. Qed.
Lemma new_alloc_fits d (al : alloc_oracle K) s y : al_ok al -> wf s -> new_alloc Debug d al s = Ok y -> fits s.
Proof.
  intros HA W E. unfold new_alloc, alloc, new_tensor in E. cbn in E. apply bind_Ok in E. destruct E as (n & En & E). apply bind_Ok in E. destruct E as (l & El & _).
  unfold size, mul32, norm32 in En. destruct (N.ltb_spec (batch s * volume s) two32); inversion En; subst. specialize (HA (batch s * volume s)%N).
  destruct ((1 <=? batch s * volume s) && (batch s * volume s <=? 2147483648))%N eqn:EB; [|congruence]. apply andb_true_iff in EB. destruct EB as (_ & EB). apply N.leb_le in EB. split; auto.
Qed.
Lemma good_yields r d s (f : (nat -> nat) -> nat -> F) : yields r d s f -> good sane r.
Proof. intros (y & -> & H & _). cbn. eapply ready_sane; eauto. Qed.
Lemma good_flat r d s (f : nat -> F) : yields_flat r d s f -> good sane r.
Proof. intros (y & -> & H & _). cbn. eapply ready_sane; eauto. Qed.
Lemma good_updates r d (x : tensor) (f : nat -> F) : ready d x -> updates r x f -> good sane r.
Proof. intros R U. eapply good_flat, updates_flat; eauto. Qed.
Lemma good_writes r d (x : tensor) f : ready d x -> writes r x f -> good sane r.
Proof. intros R U. eapply good_yields, writes_yields; eauto. Qed.
Lemma good_dev (x : tensor) : good anything (device_of x). Proof. unfold device_of. gd. Qed.
Lemma good_same_shape (a b : tensor) : good anything (same_shape a b). Proof. unfold same_shape. gd. Qed.
End Tensors.

(** a call with an operand without buffer panics before the buffers are used *)
Ltac gp := repeat first
  [ exact I
  | apply good_assert | apply good_idx | apply good_unwrap | apply good_norm32 | apply good_aset
  | apply good_size | apply good_lower | apply good_check | apply good_dev | apply good_same_shape
  | apply good_resize_dim | apply good_resize_batch | apply good_new | apply good_scalar_op | apply good_elementwise | apply good_so_broadcast | apply good_so_matmul
  | apply good_so_transpose | apply good_so_slice | apply good_so_pick | apply good_so_concat | apply good_so_batch_pick | apply good_so_batch_slice | apply good_so_batch_concat
  | (apply good_new_alloc; now eauto)
  | match goal with
    | |- good _ (bind Panic _) => exact I
    | |- good _ (bind _ _) => apply good_bind with (Q := anything); [|intros ? _ _]
    | |- good _ (match ?x with _ => _ end) => destruct x
    | |- good _ (let _ := _ in _) => cbv zeta
    | |- good _ ((fun _ => _) _) => cbv beta
    end ].
Ltac nobuf B := cbn [idx nth_error unwrap bind]; unfold ptr; rewrite ?B; cbn [unwrap bind]; gp.

Section Forward.
Variable K : num.
Notation F := (F K).
Notation tensor := (tensor K).
Implicit Types (d : nat) (al : alloc_oracle K) (x y a b : tensor).

Lemma g_fw_x name op d al x : assoc (fw_registry K Debug) name = Some (fx (k_fw_x Debug op)) -> al_ok al -> sane x -> good (@sane K) (define_fw_x Debug name d al x).
Proof.
  intros HN HA HX. destruct (dev_cases d x) as [D|P]; [|unfold define_fw_x; rewrite P; exact I]. destruct (t_buf x) as [l|] eqn:B.
  - eapply good_flat, fw_x_flat; eauto using sane_ready.
  - unfold define_fw_x, call_fw. rewrite HN. unfold fx, k_fw_x. nobuf B.
Qed.
Lemma g_fw_const name op d al x k : assoc (fw_registry K Debug) name = Some (fxc (k_fw_const Debug op)) -> al_ok al -> sane x -> good (@sane K) (define_fw_const Debug name d al x k).
Proof.
  intros HN HA HX. destruct (dev_cases d x) as [D|P]; [|unfold define_fw_const; rewrite P; exact I]. destruct (t_buf x) as [l|] eqn:B.
  - eapply good_flat, fw_const_flat; eauto using sane_ready.
  - unfold define_fw_const, call_fw. rewrite HN. unfold fxc, k_fw_const. nobuf B.
Qed.
Lemma g_powi d al x k : (-2147483648 <= k <= 2147483647)%Z -> al_ok al -> sane x -> good (@sane K) (powi_fw Debug d al x k).
Proof.
  intros HK HA HX. destruct (dev_cases d x) as [D|P]; [|unfold powi_fw; rewrite P; exact I]. destruct (t_buf x) as [l|] eqn:B.
  - eapply good_flat, powi_flat; eauto using sane_ready.
  - unfold powi_fw, call_fw. cbn [assoc fw_registry String.eqb Ascii.eqb Bool.eqb]. unfold k_powi_fw. nobuf B.
Qed.
(** a function of two operands: one of them on another device or without buffer, or both ready *)
Lemma two_cases d a b : sane a -> sane b -> check_dev d a = Panic \/ (t_dev a = Some d /\ check_dev d b = Panic) \/
  (t_dev a = Some d /\ t_dev b = Some d /\ (t_buf a = None \/ t_buf b = None)) \/ (ready d a /\ ready d b).
Proof.
  intros HA HB. destruct (dev_cases d a) as [Da|]; auto. destruct (dev_cases d b) as [Db|]; auto. right. right. destruct (t_buf a) as [la|] eqn:Ba; [|auto]. destruct (t_buf b) as [lb|] eqn:Bb; [|auto]. right. eauto using sane_ready.
Qed.
Lemma g_check_Panic d x A (k : unit -> res A) (P : A -> Prop) : check_dev d x = Panic -> good P (bind (check_dev d x) k).
Proof. intros ->. exact I. Qed.
Lemma g_fw_ab name op d al a b : assoc (fw_registry K Debug) name = Some (fxx (k_fw_ab op)) -> al_ok al -> sane a -> sane b -> good (@sane K) (define_fw_ab Debug name so_elementwise d al a b).
Proof.
  intros HN HA Sa Sb. destruct (two_cases d Sa Sb) as [P|[(_ & P)|[(Da & Db & B)|(Ra & Rb)]]].
  - unfold define_fw_ab. rewrite P. exact I.
  - unfold define_fw_ab. rewrite P. gp.
  - unfold define_fw_ab, call_fw. rewrite HN. unfold fxx, k_fw_ab. destruct B as [B|B]; nobuf B.
  - destruct (so_elementwise (t_shape a) (t_shape b)) as [s| |] eqn:E.
    + eapply good_flat, fw_ab_flat; eauto.
    + unfold define_fw_ab. rewrite E. gp.
    + pose proof (good_elementwise (t_shape a) (t_shape b)) as G. rewrite E in G. destruct G.
Qed.
(** the common form of the forward functions *)
Lemma g_one d al x (r : res shape) (k : tensor -> res tensor) : let W := _ <- check_dev d x ;; s <- r ;; y <- new_alloc Debug d al s ;; k y in
  al_ok al -> sane x -> good anything r -> (forall s, r = Ok s -> wf s) -> (t_buf x = None -> forall y, good (@sane K) (k y)) ->
  (forall s, r = Ok s -> ready d x -> fits s -> good (@sane K) W) -> good (@sane K) W.
Proof.
  intros W HA HX HR HW HN HG. destruct (dev_cases d x) as [D|P]; [|unfold W; rewrite P; exact I]. destruct (t_buf x) as [l|] eqn:B.
  - destruct r as [s| |] eqn:E; [|unfold W; gp|destruct HR]. destruct (new_alloc Debug d al s) as [y0| |] eqn:EA.
    + eapply HG; [reflexivity|eauto using sane_ready|]. eapply new_alloc_fits; eauto.
    + unfold W. cbn [bind]. rewrite EA. gp.
    + pose proof (good_new_alloc Debug d s HA) as G. rewrite EA in G. destruct G.
  - unfold W. gp; eauto.
Qed.
Lemma g_two d al a b (r : res shape) (k : tensor -> res tensor) : let W := _ <- check_dev d a ;; _ <- check_dev d b ;; s <- r ;; y <- new_alloc Debug d al s ;; k y in
  al_ok al -> sane a -> sane b -> good anything r -> (forall s, r = Ok s -> wf s) -> (t_buf a = None \/ t_buf b = None -> forall y, good (@sane K) (k y)) ->
  (forall s, r = Ok s -> ready d a -> ready d b -> fits s -> good (@sane K) W) -> good (@sane K) W.
Proof.
  intros W HA Sa Sb HR HW HN HG. destruct (two_cases d Sa Sb) as [P|[(_ & P)|[(Da & Db & B)|(Ra & Rb)]]].
  - unfold W. rewrite P. exact I.
  - unfold W. rewrite P. gp.
  - unfold W. gp; eauto.
  - destruct r as [s| |] eqn:E; [|unfold W; gp|destruct HR]. destruct (new_alloc Debug d al s) as [y0| |] eqn:EA.
    + eapply HG; [reflexivity|auto|auto|]. eapply new_alloc_fits; eauto.
    + unfold W. cbn [bind]. rewrite EA. gp.
    + pose proof (good_new_alloc Debug d s HA) as G. rewrite EA in G. destruct G.
Qed.
Lemma to_matrix s : (forall i, (2 <= i)%nat -> index s i = 1%N) -> matrix s.
Proof. intros H i Hi. unfold ext. rewrite H; auto. Qed.
Lemma g_fw_scalar name op d al a b : assoc (fw_registry K Debug) name = Some (fxx (k_fw_scalar op)) -> al_ok al -> sane a -> sane b -> good (@sane K) (define_fw_ab Debug name so_scalar_op d al a b).
Proof.
  intros HN HA Sa Sb. apply g_two; auto; [apply good_scalar_op| | |].
  - intros s E. apply so_scalar_op_iff in E; auto using sane_wf. apply E.
  - intros B y. unfold call_fw. rewrite HN. unfold fxx, k_fw_scalar. destruct B as [B|B]; nobuf B.
  - intros s E Ra Rb Fs. eapply good_flat, fw_scalar_flat; eauto.
Qed.
Lemma reduce_wf (x : shape) dim s : wf x -> resize_dim Debug x dim 1 = Ok s -> wf s.
Proof. intros W E. apply resize_dim_iff in E; auto. apply E. Qed.
Lemma resize1_dim (x : shape) dim s : wf x -> resize_dim Debug x dim 1 = Ok s -> dim < 8.
Proof. intros W E. apply resize_dim_iff in E; auto. apply E. Qed.
Lemma g_sum d al x dim : al_ok al -> sane x -> good (@sane K) (sum_fw Debug d al x dim).
Proof.
  intros HA Sx. apply g_one; auto; [apply good_resize_dim|intros s; apply reduce_wf; auto using sane_wf| |].
  - intros B y. unfold call_fw. cbn [assoc fw_registry String.eqb Ascii.eqb Bool.eqb]. unfold fxd, k_sum. nobuf B.
  - intros s E Rx Fs. destruct (@sum_yields K Debug d al x dim HA Rx) as (s' & _ & Y); [eapply resize1_dim; eauto using sane_wf|]. eapply good_yields; exact Y.
Qed.
Lemma g_extremum better name d al x dim : assoc (fw_registry K Debug) name = Some (fxd (k_extremum Debug better)) -> al_ok al -> sane x -> good (@sane K) (reduce_fw Debug name d al x dim).
Proof.
  intros HN HA Sx. apply g_one; auto; [apply good_resize_dim|intros s; apply reduce_wf; auto using sane_wf| |].
  - intros B y. unfold call_fw. rewrite HN. unfold fxd, k_extremum. nobuf B.
  - intros s E Rx Fs. destruct (@extremum_yields K Debug better name d al x dim HN HA Rx) as (s' & _ & Y); [eapply resize1_dim; eauto using sane_wf|]. eapply good_yields; exact Y.
Qed.
Lemma g_logsumexp d al x dim : al_ok al -> sane x -> good (@sane K) (logsumexp_fw Debug d al x dim).
Proof.
  intros HA Sx. apply g_one; auto; [apply good_resize_dim|intros s; apply reduce_wf; auto using sane_wf| |].
  - intros B y. unfold call_fw. cbn [assoc fw_registry String.eqb Ascii.eqb Bool.eqb]. unfold fxd, k_logsumexp. nobuf B.
  - intros s E Rx Fs. destruct (@logsumexp_yields K Debug d al x dim HA Rx) as (s' & _ & Y); [eapply resize1_dim; eauto using sane_wf|]. eapply good_yields; exact Y.
Qed.
Lemma g_broadcast d al x dim n : al_ok al -> sane x -> good (@sane K) (broadcast_fw Debug d al x dim n).
Proof.
  intros HA Sx. apply g_one; auto; [apply good_so_broadcast|intros s E; apply so_broadcast_iff in E; auto using sane_wf; apply E| |].
  - intros B y. unfold call_fw. cbn [assoc fw_registry String.eqb Ascii.eqb Bool.eqb]. unfold k_broadcast. nobuf B.
  - intros s E Rx Fs. apply so_broadcast_iff in E; auto using sane_wf. destruct E as (E1 & E2 & E3 & E4). eapply good_yields, broadcast_yields; eauto; [unfold ext; rewrite E2; reflexivity|].
    eapply is_shape_nat; [exact E4|apply eset_upd|reflexivity].
Qed.
Lemma g_slice d al x dim lo hi : al_ok al -> sane x -> good (@sane K) (slice_fw Debug d al x dim lo hi).
Proof.
  intros HA Sx. apply g_one; auto; [apply good_so_slice|intros s E; apply so_slice_iff in E; auto using sane_wf; apply E| |].
  - intros B y. unfold call_fw. cbn [assoc fw_registry String.eqb Ascii.eqb Bool.eqb]. unfold k_slice_fw. nobuf B.
  - intros s E Rx Fs. apply so_slice_iff in E; auto using sane_wf. destruct E as (E1 & E2 & E3 & E4). eapply good_yields, slice_yields; eauto; [unfold ext; lia|].
    eapply is_shape_nat; [exact E4|intros i; apply eset_upd'; lia|reflexivity].
Qed.
Lemma compat_bats (a b : shape) : compat (batch a) (batch b) -> bat a = bat b \/ bat a = 1 \/ bat b = 1.
Proof. unfold bat, compat. intros [H|[H|H]]; rewrite H; auto. Qed.
Lemma g_pick d al x ids dim : al_ok al -> sane x -> (N.of_nat (length ids) < two32)%N -> good (@sane K) (pick_fw Debug d al x ids dim).
Proof.
  intros HA Sx HL. apply g_one; auto; [apply good_so_pick|intros s E; apply so_pick_iff in E; auto using sane_wf; apply E| |].
  - intros B y. unfold call_fw. cbn [assoc fw_registry String.eqb Ascii.eqb Bool.eqb]. unfold k_pick_fw. nobuf B.
  - intros s E Rx Fs. apply so_pick_iff in E; auto using sane_wf. destruct E as (E1 & E2 & E3 & E4 & E5). eapply good_yields, pick_yields; eauto.
    + unfold compat in E3. unfold bat. lia.
    + eapply Forall_impl; [|exact E4]. cbn. intros id Hid. unfold ext. lia.
    + eapply is_shape_nat; [exact E5|intros i; apply eset_upd'; lia|unfold bat; rewrite N2Nat.inj_max, Nat2N.id; reflexivity].
Qed.
Lemma g_batch_sum d al x : al_ok al -> sane x -> good (@sane K) (batch_sum_fw Debug d al x).
Proof.
  intros HA Sx. pose proof (sane_wf Sx) as W. apply g_one; auto; [apply good_resize_batch|intros s E; apply resize_batch_iff in E; auto; [apply E|reflexivity]| |].
  - intros B y. unfold call_fw. cbn [assoc fw_registry String.eqb Ascii.eqb Bool.eqb]. unfold fx, k_batch_sum. nobuf B.
  - intros s E Rx Fs. apply resize_batch_iff in E; auto; [|reflexivity]. eapply good_yields, batch_sum_yields; eauto.
    eapply is_shape_nat; [exact E|reflexivity|reflexivity].
Qed.
Lemma g_batch_slice d al x lo hi : al_ok al -> sane x -> good (@sane K) (batch_slice_fw Debug d al x lo hi).
Proof.
  intros HA Sx. pose proof (sane_wf Sx) as W. apply g_one; auto; [apply good_so_batch_slice|intros s E; apply so_batch_slice_iff in E; auto; apply E| |].
  - intros B y. unfold call_fw. cbn [assoc fw_registry String.eqb Ascii.eqb Bool.eqb]. unfold k_batch_slice_fw. nobuf B.
  - intros s E Rx Fs. apply so_batch_slice_iff in E; auto. destruct E as (E1 & E2 & E3). eapply good_yields, batch_slice_yields; eauto; [unfold bat; lia|].
    eapply is_shape_nat; [exact E3|reflexivity|lia].
Qed.
Lemma g_batch_pick d al x ids : al_ok al -> sane x -> (N.of_nat (length ids) < two32)%N -> good (@sane K) (batch_pick_fw Debug d al x ids).
Proof.
  intros HA Sx HL. pose proof (sane_wf Sx) as W. apply g_one; auto; [apply good_so_batch_pick|intros s E; apply so_batch_pick_iff in E; auto; apply E| |].
  - intros B y. unfold call_fw. cbn [assoc fw_registry String.eqb Ascii.eqb Bool.eqb]. unfold k_batch_pick_fw. nobuf B.
  - intros s E Rx Fs. apply so_batch_pick_iff in E; auto. destruct E as (E1 & E2 & E3). eapply good_yields, batch_pick_yields; eauto.
    + eapply Forall_impl; [|exact E2]. cbn. intros id Hid. unfold bat. lia.
    + eapply is_shape_nat; [exact E3|reflexivity|lia].
Qed.
Lemma g_transpose d al x : al_ok al -> sane x -> good (@sane K) (transpose_fw Debug d al x).
Proof.
  intros HA Sx. pose proof (sane_wf Sx) as W. apply g_one; auto; [apply good_so_transpose|intros s E; apply so_transpose_iff in E; auto; apply E| |].
  - intros B y. unfold call_fw. cbn [assoc fw_registry String.eqb Ascii.eqb Bool.eqb]. unfold fx, k_transpose. nobuf B.
  - intros s E Rx Fs. apply so_transpose_iff in E; auto. destruct E as (E1 & E2). eapply good_yields, transpose_yields; eauto using to_matrix.
    eapply is_shape_nat; [exact E2|intros i; unfold ext; apply m2_ext2|reflexivity].
Qed.
Lemma g_matmul d al a b : al_ok al -> sane a -> sane b -> good (@sane K) (matmul_fw Debug d al a b).
Proof.
  intros HA Sa Sb. pose proof (sane_wf Sa) as Wa. pose proof (sane_wf Sb) as Wb. apply g_two; auto; [apply good_so_matmul|intros s E; apply so_matmul_iff in E; auto; apply E| |].
  - intros B y. unfold call_fw. cbn [assoc fw_registry String.eqb Ascii.eqb Bool.eqb]. unfold fxx, k_matmul. destruct B as [B|B]; nobuf B.
  - intros s E Ra Rb Fs. apply so_matmul_iff in E; auto. destruct E as (E1 & E2 & E3 & E4 & E5). eapply good_yields, matmul_yields; eauto using to_matrix, compat_bats.
    + unfold ext. congruence.
    + eapply is_shape_nat; [exact E5|intros i; unfold ext; apply m2_ext2|unfold bat; rewrite N2Nat.inj_max; reflexivity].
Qed.
Lemma good_forN_ix S (J : nat -> S -> Prop) n (f : nat -> S -> res S) : (forall i s, i < n -> J i s -> good (J (Datatypes.S i)) (f i s)) -> forall s, J 0 s -> good (J n) (forN n f s).
Proof.
  unfold forN. intros H. assert (G : forall (k a : nat) s, a + k <= n -> J a s -> good (J (a + k)) (forL (seq a k) f s)).
  { induction k as [|k IH]; intros a s L Ha; cbn; [replace (a + 0) with a by lia; auto|]. apply good_bind with (Q := J (Datatypes.S a)); [apply H; [lia|auto]|]. intros s' _ Hs. replace (a + Datatypes.S k) with (Datatypes.S a + k) by lia. apply IH; [lia|auto]. }
  intros s H0. apply (G n 0 s); [lia|auto].
Qed.
Lemma g_triangular (upper : bool) name d al x k : assoc (fw_registry K Debug) name = Some (fxu (k_triangular Debug upper)) -> al_ok al -> sane x -> good (@sane K) (triangular_fw Debug name d al x k).
Proof.
  intros HN HA Sx. pose proof (sane_wf Sx) as W. unfold triangular_fw. destruct (dev_cases d x) as [D|P]; [|rewrite P; exact I]. apply good_bind with (Q := anything); [apply good_check|intros _ _ _].
  destruct (is_matrix (t_shape x) && (index (t_shape x) 0 =? index (t_shape x) 1)%N) eqn:EM; [|exact I]. cbn [assert bind]. apply andb_true_iff in EM. destruct EM as (E1 & E2). apply N.eqb_eq in E2. pose proof (to_matrix (proj1 (is_matrix_iff W) E1)) as M.
  unfold call_fw. rewrite HN. unfold fxu. destruct (t_buf x) as [l|] eqn:B; [|unfold k_triangular; nobuf B]. pose proof (sane_ready Sx D B) as Rx.
  destruct (@new_alloc_Ok K Debug d al (t_shape x) HA (ready_fits Rx)) as (ly & -> & Ly). cbn [bind idx nth_error]. unfold k_triangular, ptr. cbn [t_buf unwrap bind t_shape]. rewrite B. cbn [unwrap bind].
  pose proof (@new_ready K d _ ly (ready_fits Rx) Ly) as Ry. pose proof (ready_len Rx) as Lx. unfold buf in Lx. rewrite B in Lx.
  set (n := N.to_nat (index (t_shape x) 0)). set (bs := N.to_nat (batch (t_shape x))).
  assert (HT : tot (t_shape x) = bs * (n * n)). { unfold tot. rewrite (matrix_vol M). unfold ext. rewrite <- E2. reflexivity. }
  apply good_bind with (Q := fun st => length (snd st) = length ly).
  - eapply good_weaken. { apply good_forN_ix with (J := fun (b9 : nat) st => fst st = b9 * (n * n) /\ length (snd st) = length ly); [|split; auto]. intros b0 [p py] Hb (Ep & Lp). cbn [fst snd] in Ep, Lp.
      eapply good_weaken. { apply good_forN_ix with (J := fun j st => fst st = b0 * (n * n) + j * n /\ length (snd st) = length ly); [|split; cbn; [lia|auto]]. intros j [p' py'] Hj (Ep' & Lp'). cbn [fst snd] in Ep', Lp'.
        eapply good_weaken. { apply good_forN_ix with (J := fun i st => fst st = b0 * (n * n) + j * n + i /\ length (snd st) = length ly); [|split; cbn; [lia|auto]]. intros i [q pz] Hi (Eq & Lz). cbn [fst snd] in Eq, Lz.
          assert (Hq : q < tot (t_shape x)). { subst q. rewrite HT. assert (j * n + i < n * n) by nia. nia. }
          apply good_bind with (Q := anything); [destruct upper; (apply good_bind with (Q := anything); [unfold add32; apply good_norm32|intros; exact I])|]. intros kp _ _. apply good_bind with (Q := anything); [destruct kp; [apply good_rd; lia|exact I]|]. intros v _ _.
          apply good_bind with (Q := fun l' => length l' = length pz); [apply good_wr; lia|]. intros l' _ Hl. cbn. split; [lia|congruence]. }
        intros [q pz] (A1 & A2). cbn [fst snd] in *. split; [lia|auto]. }
      intros [q pz] (A1 & A2). cbn [fst snd] in *. split; [nia|auto]. }
    intros [q pz] (A1 & A2). exact A2.
  - intros [p py] _ L. cbn [snd] in L |- *. cbn [good]. apply ready_sane with (d := d). apply ready_with; auto.
Qed.
Lemma g_reset x k : sane x -> good (@sane K) (reset Debug x k).
Proof.
  intros Sx. unfold reset. destruct (t_dev x) as [d|] eqn:D; [|unfold device_of; rewrite D; exact I]. destruct (t_buf x) as [l|] eqn:B.
  - pose proof (sane_ready Sx D B) as R. eapply good_updates; [exact R|]. apply (reset_updates Debug k R).
  - unfold reset_tensor, call_fw. cbn [assoc fw_registry String.eqb Ascii.eqb Bool.eqb]. unfold k_reset. nobuf B.
Qed.
End Forward.
