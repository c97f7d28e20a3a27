(** * ShapeFacts: specifications over histories of shape operations and the
    proofs of the shape properties C01-C08 (statements are in PropsShape.v). *)
From Verif Require Export ShapeOps.
Set Implicit Arguments.
Local Open Scope N_scope.

Definition u32 (x : N) : Prop := x < two32.

(** ** C01 *)
Lemma C01_accept_l ds b : Forall u32 ds -> u32 b ->
  (exists s, shape_new Debug ds b = Ok s) <->
  (length ds <= 8)%nat /\ ~ In 0 ds /\ 1 <= b /\ prodN ds < two32.
Proof.
  intros _ Hb. split.
  - intros (s & E). destruct (shape_new_Debug_inv _ _ E) as (H1 & H2 & H3 & H4).
    ssplit; auto. intros Hin. rewrite Forall_forall in H2. specialize (H2 _ Hin). lia.
  - intros (H1 & H2 & H3 & H4). destruct (@shape_new_Ok Debug ds b) as (s & E & _); eauto.
    apply Forall_forall. intros x Hx. destruct (N.eq_dec x 0); [subst; tauto|lia].
Qed.

Lemma shape_new_noUB m ds b : shape_new m ds b <> UB.
Proof.
  unfold shape_new. destruct (assert _) eqn:E0; cbn [bind]; [|discriminate|unfold assert in E0; destruct (_ <=? _)%nat; discriminate].
  destruct (assert (1 <=? b)) eqn:E1; cbn [bind]; [|discriminate|unfold assert in E1; destruct (_ <=? _); discriminate].
  match goal with |- bind (forN ?n ?bd ?s0) _ <> UB => assert (G : forall k st, forL (seq k (n - k)) bd st <> UB) end.
  { intros k. remember (length ds - k)%nat as j. clear Heqj. revert k; induction j as [|j IH]; intros k st; cbn [seq forL]; [discriminate|].
    destruct st as [[f v] d]. unfold idx. destruct (nth_error ds k); cbn [bind]; [|discriminate].
    destruct (n =? 0); cbn [negb assert bind]; [discriminate|]. unfold aset. destruct (k <? length f)%nat; cbn [bind]; [|discriminate].
    unfold mul32, norm32. destruct (v * n <? two32); cbn [bind]; [apply IH|]. destruct m; cbn [bind]; [discriminate|apply IH]. }
  specialize (G O (repeat 1 MAX_DEPTH, 1, 0%nat)). rewrite Nat.sub_0_r in G. unfold forN.
  destruct (forL _ _ _) as [[[f v] d]| |]; cbn [bind]; congruence.
Qed.

Lemma C01_result_l m ds b s : Forall u32 ds -> u32 b -> shape_new Debug ds b = Ok s ->
  shape_new m ds b = Ok s /\
  (forall i, index s i = nth i ds 1) /\ batch s = b /\ volume s = prodN ds /\
  (depth s <= length ds)%nat /\
  (forall i, (depth s <= i)%nat -> nth i ds 1 = 1) /\
  ((0 < depth s)%nat -> nth (depth s - 1) ds 1 <> 1).
Proof.
  intros _ Hb E. destruct (shape_new_Debug_inv _ _ E) as (H1 & H2 & H3 & H4).
  destruct (@shape_new_Ok Debug ds b) as (s' & E' & W & Eb & Ei); auto. rewrite E in E'; injection E' as <-.
  destruct (@shape_new_Ok m ds b) as (s' & E' & W' & Eb' & Ei'); auto.
  assert (s' = s) by (apply wf_ext; auto; [intros i; rewrite Ei, Ei'; auto|congruence]). subst s'.
  assert (Hn : forall i, nth i (dims8 s) 1 = nth i ds 1) by (intros i; rewrite <- wf_index by auto; auto).
  assert (Hlast : (0 < depth s)%nat -> nth (depth s - 1) ds 1 <> 1) by (rewrite <- Hn; apply W).
  ssplit; auto.
  - rewrite (wf_vol W). rewrite <- (prodN_fill ds). f_equal. apply nth_ext_len with (d := 1).
    + rewrite (wf_len W), fill_length; auto.
    + intros i _. rewrite nth_fill; auto.
  - destruct (Nat.le_gt_cases (depth s) (length ds)); auto. exfalso. apply Hlast; [lia|]. apply nth_overflow; lia.
  - intros i Hi. rewrite <- Hn. apply (wf_depth_ones W); auto.
Qed.

Lemma C01_equality_l ds1 b1 s1 ds2 b2 s2 : u32 b1 -> u32 b2 ->
  shape_new Debug ds1 b1 = Ok s1 -> shape_new Debug ds2 b2 = Ok s2 ->
  (shape_eqb s1 s2 = true <-> (forall i, nth i ds1 1 = nth i ds2 1) /\ b1 = b2).
Proof.
  intros Hb1 Hb2 E1 E2. apply shape_new_iff in E1; auto. apply shape_new_iff in E2; auto.
  destruct E1 as (_ & _ & W1 & I1 & B1). destruct E2 as (_ & _ & W2 & I2 & B2).
  rewrite shape_eqb_spec. split.
  - intros ->. split; [|congruence]. intros i; rewrite <- I1, <- I2; auto.
  - intros (H1 & H2). apply wf_ext; auto; [|congruence]. intros i; rewrite I1, I2; auto.
Qed.

(** ** C02: histories of resizes *)
Inductive resize_op :=
| RDim (dim : nat) (k : N)   (* resize_dim / update_dim *)
| RBatch (b : N).            (* resize_batch / update_batch *)

Definition run_resize (m : build) (s : shape) (o : resize_op) : res shape :=
  match o with RDim d k => update_dim m s d k | RBatch b => update_batch s b end.
Definition run_resizes (m : build) (ops : list resize_op) (s : shape) : res shape :=
  forL ops (fun o s => run_resize m s o) s.

(** the specification keeps just the 8 extents and the batch *)
Definition track (eb : list N * N) (o : resize_op) : list N * N :=
  match o with RDim d k => (lset (fst eb) d k, snd eb) | RBatch b => (fst eb, b) end.
(** an operation is acceptable on (extents, batch) *)
Definition op_ok (eb : list N * N) (o : resize_op) : Prop :=
  match o with
  | RDim d k => (d < 8)%nat /\ k <> 0 /\ prodN (lset (fst eb) d k) < two32
  | RBatch b => b <> 0
  end.
Fixpoint history_ok (eb : list N * N) (ops : list resize_op) : Prop :=
  match ops with [] => True | o :: ops' => op_ok eb o /\ history_ok (track eb o) ops' end.
Definition op_u32 (o : resize_op) : Prop := match o with RDim _ k => u32 k | RBatch b => u32 b end.

Definition rep (eb : list N * N) (s : shape) : Prop := wf s /\ dims8 s = fst eb /\ batch s = snd eb.

Lemma rep_new eb s : rep eb s -> shape_new Debug (fst eb) (snd eb) = Ok s.
Proof. intros (W & <- & <-). apply shape_new_dims8; auto. Qed.

Lemma step_iff eb s o : rep eb s -> op_u32 o ->
  (op_ok eb o -> exists s', run_resize Debug s o = Ok s' /\ rep (track eb o) s') /\
  (forall s', run_resize Debug s o = Ok s' -> op_ok eb o).
Proof.
  intros (W & Ed & Eb) Hu. destruct eb as [e b]; simpl in *; subst e b. destruct o as [d k|b]; simpl in *.
  - split.
    + intros (Hd & Hk & Hv).
      assert (Hp : prodN (lset (dims8 s) d k) = volume s / index s d * k).
      { rewrite prodN_lset; [|rewrite (wf_len W); auto|pose proof (wf_pos W Hd); lia]. rewrite <- (wf_vol W), wf_index; auto. }
      destruct (@update_dim_Ok Debug s d k W Hd) as (s' & E & W' & Eb' & Ei' & _); [lia|lia|].
      exists s'; split; auto. split; auto. split; auto. simpl. apply nth_ext_len with (d := 1).
      * rewrite lset_length, (wf_len W), (wf_len W'); auto.
      * intros i Hi. rewrite <- wf_index by auto. rewrite Ei'. rewrite nth_lset by (rewrite (wf_len W); auto).
        unfold upd_ext. rewrite wf_index; auto.
    + intros s' E. destruct (update_dim_Debug_inv _ _ W E) as (Hd & Hk & Hv). ssplit; auto; [lia|].
      rewrite prodN_lset; [|rewrite (wf_len W); auto|pose proof (wf_pos W Hd); lia]. rewrite <- (wf_vol W), <- wf_index; auto.
  - split.
    + intros Hb. rewrite update_batch_Ok by lia. eexists; split; [reflexivity|].
      split; [|auto]. apply wf_shape_mk; auto. unfold u32 in Hu. lia.
    + intros s' E. unfold update_batch in E. apply assert_bind_Ok in E. destruct E as (E & _). apply N.leb_le in E. lia.
Qed.

Lemma C02_history_l ops : forall eb s, rep eb s -> Forall op_u32 ops ->
  forall s', run_resizes Debug ops s = Ok s' <->
     history_ok eb ops /\ shape_new Debug (fst (fold_left track ops eb)) (snd (fold_left track ops eb)) = Ok s'.
Proof.
  induction ops as [|o ops IH]; intros eb s R Hu s'.
  - cbn [run_resizes forL history_ok fold_left]. rewrite (rep_new R). unfold run_resizes; simpl. split; [intros E; auto|tauto].
  - inversion Hu as [|? ? Ho Hops]; subst. destruct (step_iff _ R Ho) as (S1 & S2).
    unfold run_resizes. cbn [forL history_ok fold_left]. split.
    + intros E. apply bind_Ok in E. destruct E as (s1 & E1 & E). pose proof (S2 _ E1) as Hok.
      destruct (S1 Hok) as (s1' & E1' & R'). rewrite E1 in E1'; injection E1' as <-.
      apply IH with (eb := track eb o) in E; auto. tauto.
    + intros ((Hok & Hh) & E). destruct (S1 Hok) as (s1 & E1 & R'). rewrite E1. cbn [bind].
      apply (IH (track eb o)); auto.
Qed.

Lemma C02_l ds b s ops s' : u32 b -> Forall op_u32 ops ->
  shape_new Debug ds b = Ok s ->
  let start := (ds ++ repeat 1 (8 - length ds), b) in
  let final := fold_left track ops start in
  run_resizes Debug ops s = Ok s' <-> history_ok start ops /\ shape_new Debug (fst final) (snd final) = Ok s'.
Proof.
  intros Hb Hu E. apply shape_new_iff in E; auto. destruct E as (Hl & _ & W & I & B).
  apply C02_history_l; auto. split; [auto|]. split; [|auto]. cbn [fst].
  apply nth_ext_len with (d := 1).
  - rewrite (wf_len W). symmetry; apply fill_length; auto.
  - intros i _. transitivity (nth i (fill ds) 1); [|reflexivity]. rewrite nth_fill, <- wf_index; auto.
Qed.

(** the resized index has the new extent, every other one is unchanged, observed through indexing *)
Lemma C02_step_l s dim k s' : wf s -> update_dim Debug s dim k = Ok s' ->
  wf s' /\ batch s' = batch s /\ index s' dim = k /\ (forall i, i <> dim -> index s' i = index s i).
Proof.
  intros W E. destruct (update_dim_Debug_wf _ _ W E) as (W' & Eb & Ei & _). ssplit; auto.
  - rewrite Ei; unfold upd_ext; rewrite Nat.eqb_refl; auto.
  - intros i Hi. rewrite Ei; unfold upd_ext. apply Nat.eqb_neq in Hi. rewrite Hi; auto.
Qed.

(** ** consistency is exactly reachability *)
Definition reachable (s : shape) : Prop :=
  exists ds b s0 ops, u32 b /\ Forall op_u32 ops /\ shape_new Debug ds b = Ok s0 /\ run_resizes Debug ops s0 = Ok s.

Lemma reachable_iff_wf_l s : reachable s <-> wf s.
Proof.
  split.
  - intros (ds & b & s0 & ops & Hb & Hu & E0 & E). apply (@C02_l ds b s0 ops s Hb Hu E0) in E.
    destruct E as (_ & E). apply shape_new_iff in E; [apply E|].
    clear E0 E. assert (G : forall eb, u32 (snd eb) -> u32 (snd (fold_left track ops eb))).
    { clear -Hu. induction ops as [|o ops IH]; intros eb H; simpl; auto. inversion Hu; subst.
      apply IH; auto. destruct o; simpl in *; auto. }
    apply (G (ds ++ repeat 1 (8 - length ds), b)). exact Hb.
  - intros W. exists (dims8 s), (batch s), s, []. ssplit; auto.
    + apply W.
    + apply shape_new_dims8; auto.
Qed.

(** ** C03 *)
Fixpoint prod_below (f : nat -> N) (d : nat) : N := match d with O => 1 | S d' => prod_below f d' * f d' end.

Lemma prod_below_firstn s d : wf s -> prod_below (index s) d = prodN (firstn d (dims8 s)).
Proof.
  intros W. induction d as [|d IH]; [reflexivity|]. cbn [prod_below]. rewrite IH.
  destruct (Nat.lt_ge_cases d 8).
  - rewrite (@firstn_snoc _ (dims8 s) d (nth d (dims8 s) 1)) by (apply nth_error_nth'; rewrite (wf_len W); auto).
    rewrite prodN_app, wf_index by auto. simpl. lia.
  - rewrite index_ge8 by auto. rewrite !firstn_all2 by (rewrite (wf_len W); lia). lia.
Qed.

Lemma C03_l m s d : wf s ->
  lower_volume m s d = Ok (prod_below (index s) d) /\
  (exists q, volume s = q * prod_below (index s) d) /\
  prod_below (index s) d * index s d = prod_below (index s) (S d) /\
  volume s = prod_below (index s) 8.
Proof.
  intros W. ssplit; auto.
  - rewrite prod_below_firstn by auto. apply lower_volume_Ok; auto.
  - rewrite prod_below_firstn, (wf_vol W) by auto. exists (prodN (skipn d (dims8 s))).
    rewrite (prodN_firstn_skipn d). lia.
  - rewrite prod_below_firstn, (wf_vol W) by auto. rewrite firstn_all2; auto. rewrite (wf_len W); auto.
Qed.

(** ** C08 *)
(** every way a program obtains a shape from u32 arguments, in build m *)
Inductive obtained (m : build) : shape -> Prop :=
| ob_new ds b s : Forall u32 ds -> u32 b -> shape_new m ds b = Ok s -> obtained m s
| ob_deser d s : Forall u32 (sd_dims d) -> u32 (sd_batch d) -> shape_deserialize m d = Ok s -> obtained m s
| ob_resize s dim k s' : obtained m s -> u32 k -> resize_dim m s dim k = Ok s' -> obtained m s'
| ob_batch s b s' : obtained m s -> u32 b -> resize_batch s b = Ok s' -> obtained m s'
| ob_scalar a b s : obtained m a -> obtained m b -> so_scalar_op a b = Ok s -> obtained m s
| ob_elem a b s : obtained m a -> obtained m b -> so_elementwise a b = Ok s -> obtained m s
| ob_bcast a d n s : obtained m a -> u32 n -> so_broadcast m a d n = Ok s -> obtained m s
| ob_matmul a b s : obtained m a -> obtained m b -> so_matmul m a b = Ok s -> obtained m s
| ob_transpose a s : obtained m a -> so_transpose m a = Ok s -> obtained m s
| ob_slice a d lo hi s : obtained m a -> so_slice m a d lo hi = Ok s -> obtained m s
| ob_pick a ids d s : obtained m a -> so_pick m a ids d = Ok s -> obtained m s
| ob_concat xs d s : Forall (obtained m) xs -> so_concat m xs d = Ok s -> obtained m s
| ob_bpick a ids s : obtained m a -> so_batch_pick a ids = Ok s -> obtained m s
| ob_bslice a lo hi s : obtained m a -> so_batch_slice a lo hi = Ok s -> obtained m s
| ob_bconcat xs s : Forall (obtained m) xs -> so_batch_concat m xs = Ok s -> obtained m s.

Lemma len32_lt {A} (l : list A) : len32 l < two32.
Proof. apply N.mod_lt. discriminate. Qed.

(** the pick rule keeps shapes consistent even for more than 2^32 ids *)
Lemma so_pick_wf x ids dim s : wf x -> so_pick Debug x ids dim = Ok s -> wf s.
Proof.
  intros W E. unfold so_pick in E. apply assert_bind_Ok in E. destruct E as (_ & E).
  apply bind_Ok in E. destruct E as (_ & _ & E). apply bind_Ok in E. destruct E as (y & E1 & E).
  apply resize_dim_iff in E1; auto. destruct E1 as (_ & _ & Wy & _).
  apply resize_batch_iff in E; auto; [apply E|]. pose proof (wf_batch W). pose proof (len32_lt ids). lia.
Qed.

Section obtained_wf.
  Fixpoint obtained_wf s (H : obtained Debug s) {struct H} : wf s.
  Proof.
    destruct H.
    - apply shape_new_iff in H1; auto; apply H1.
    - apply shape_new_iff in H1; auto; apply H1.
    - apply resize_dim_iff in H1; auto; apply H1.
    - apply resize_batch_iff in H1; auto; apply H1.
    - apply so_scalar_op_iff in H1; auto. apply H1.
    - apply so_elementwise_iff in H1; auto. apply H1.
    - apply so_broadcast_iff in H1; auto. apply H1.
    - apply so_matmul_iff in H1; auto. apply H1.
    - apply so_transpose_iff in H0; auto. apply H0.
    - apply so_slice_iff in H0; auto. apply H0.
    - apply so_pick_wf in H0; auto.
    - apply so_concat_iff in H0.
      + destruct H0 as (x0 & xs' & _ & _ & _ & _ & W & _). exact W.
      + clear H0. induction H; constructor; auto.
    - unfold so_batch_pick in H0. apply assert_bind_Ok in H0. destruct H0 as (_ & E).
      apply bind_Ok in E. destruct E as (_ & _ & E). apply resize_batch_iff in E; auto; [apply E|apply len32_lt].
    - apply so_batch_slice_iff in H0; auto. apply H0.
    - apply so_batch_concat_iff in H0.
      + destruct H0 as (x0 & xs' & _ & _ & W & _). exact W.
      + clear H0. induction H; constructor; auto.
  Qed.
End obtained_wf.

Lemma C08_debug_l s : obtained Debug s ->
  volume s = prod_below (index s) 8 /\
  forall n, size Debug s = Ok n -> n = batch s * prod_below (index s) 8.
Proof.
  intros H. apply obtained_wf in H. assert (E : volume s = prod_below (index s) 8) by (apply (C03_l Debug 0 H)).
  split; auto. intros n Hs. apply norm32_Debug in Hs. rewrite <- E. apply Hs.
Qed.

Lemma C08_release_refuted_l : exists s, obtained Release s /\ volume s <> prod_below (index s) 8.
Proof.
  destruct (shape_new Release [65537; 65537] 1) as [s| |] eqn:E; [|discriminate|discriminate].
  exists s. split.
  - apply (@ob_new Release [65537; 65537] 1 s); auto; repeat constructor.
  - vm_compute in E. injection E as <-. vm_compute. discriminate.
Qed.

(** the size() of a correct shape also wraps in release *)
Lemma C08_release_size_refuted_l :
  exists s n, obtained Release s /\ wf s /\ size Release s = Ok n /\ n <> batch s * prod_below (index s) 8.
Proof.
  destruct (shape_new Release [65536] 65537) as [s| |] eqn:E; [|discriminate|discriminate].
  exists s, 65536. ssplit.
  - apply (@ob_new Release [65536] 65537 s); auto; repeat constructor.
  - destruct (@shape_new_Ok Release [65536] 65537) as (s' & E' & W & _).
    + simpl; lia.
    + repeat constructor; discriminate.
    + split; [discriminate|reflexivity].
    + reflexivity.
    + rewrite E in E'; injection E' as ->; auto.
  - vm_compute in E. injection E as <-. reflexivity.
  - vm_compute in E. injection E as <-. vm_compute. discriminate.
Qed.

(** ** C07 *)
Lemma C07_deser_l m d s : u32 (sd_batch d) -> shape_deserialize Debug d = Ok s ->
  wf s /\ shape_deserialize m (shape_serialize s) = Ok s /\ (forall i, index s i = nth i (sd_dims d) 1) /\ batch s = sd_batch d.
Proof.
  intros Hb E. apply shape_new_iff in E; auto. destruct E as (_ & _ & W & I & B). ssplit; auto.
  apply serde_roundtrip; auto.
Qed.
