(** * PVocab: the words in which the properties of tensor functions are stated,
    and concrete tensors for the examples *)
From Verif Require Export ApiCat.
Set Implicit Arguments.

Section V.
Variable K : num.
Notation F := (F K).
Notation tensor := (tensor K).

(** a function that applies [op] to every element *)
Definition maps (f : nat -> alloc_oracle K -> tensor -> res tensor) (op : F -> F) : Prop :=
  forall d al x, al_ok al -> ready d x -> yields (f d al x) d (t_shape x) (fun c b => op (at_ x c b)).
(** ... with a constant argument *)
Definition maps_const (f : nat -> alloc_oracle K -> tensor -> F -> res tensor) (op : F -> F -> F) : Prop :=
  forall d al x k, al_ok al -> ready d x -> yields (f d al x k) d (t_shape x) (fun c b => op (at_ x c b) k).
(** the same for methods of the tensor, which look up the device themselves *)
Definition method_maps (f : alloc_oracle K -> tensor -> res tensor) (op : F -> F) : Prop :=
  forall d al x, al_ok al -> ready d x -> yields (f al x) d (t_shape x) (fun c b => op (at_ x c b)).
Definition method_maps_const (f : alloc_oracle K -> tensor -> F -> res tensor) (op : F -> F -> F) : Prop :=
  forall d al x k, al_ok al -> ready d x -> yields (f al x k) d (t_shape x) (fun c b => op (at_ x c b) k).
(** backward of an elementwise function: every element of [gx] is increased by
    [op x y gy] of the corresponding elements *)
Definition adds (f : nat -> tensor -> tensor -> tensor -> tensor -> res tensor) (op : F -> F -> F -> F) : Prop :=
  forall d x y gy gx, ready d x -> ready d y -> ready d gy -> ready d gx ->
    t_shape y = t_shape x -> t_shape gy = t_shape x -> t_shape gx = t_shape x ->
    writes (f d x y gy gx) gx (fun c b => nadd K (at_ gx c b) (op (at_ x c b) (at_ y c b) (at_ gy c b))).
Definition adds_const (f : nat -> tensor -> tensor -> tensor -> F -> tensor -> res tensor) (op : F -> F -> F -> F -> F) : Prop :=
  forall d x y gy k gx, ready d x -> ready d y -> ready d gy -> ready d gx ->
    t_shape y = t_shape x -> t_shape gy = t_shape x -> t_shape gx = t_shape x ->
    writes (f d x y gy k gx) gx (fun c b => nadd K (at_ gx c b) (op (at_ x c b) (at_ y c b) (at_ gy c b) k)).

(** same extents, batches equal or one of them 1; the result has the larger batch *)
Definition batchable (a b s : shape) : Prop :=
  (forall i, ext a i = ext b i) /\ (bat a = bat b \/ bat a = 1 \/ bat b = 1) /\ shape_is s (ext a) (Nat.max (bat a) (bat b)).
(** a scalar [k] next to [x] *)
Definition scalable (x k s : shape) : Prop :=
  (forall i, ext k i = 1) /\ (bat x = bat k \/ bat x = 1 \/ bat k = 1) /\ shape_is s (ext x) (Nat.max (bat x) (bat k)).
Definition zips (f : nat -> alloc_oracle K -> tensor -> tensor -> res tensor) (op : F -> F -> F) : Prop :=
  forall d al a b s, al_ok al -> ready d a -> ready d b -> batchable (t_shape a) (t_shape b) s ->
    yields (f d al a b) d s (fun c n => op (at_ a c (bsel (t_shape a) n)) (at_ b c (bsel (t_shape b) n))).
Definition zips_scalar (f : nat -> alloc_oracle K -> tensor -> tensor -> res tensor) (op : F -> F -> F) : Prop :=
  forall d al x k s, al_ok al -> ready d x -> ready d k -> scalable (t_shape x) (t_shape k) s -> fits s ->
    yields (f d al x k) d s (fun c n => op (at_ x c (bsel (t_shape x) n)) (at_ k czero (bsel (t_shape k) n))).
(** operator syntax: extents equal, or one side scalar *)
Definition operator (f : alloc_oracle K -> tensor -> tensor -> res tensor) (op : F -> F -> F) : Prop :=
  forall d al a b s, al_ok al -> ready d a -> ready d b -> bin_ok (t_shape a) (t_shape b) s -> fits s ->
    yields (f al a b) d s (fun c n => op (opnd a c n) (opnd b c n)).
(** backward of a two-operand elementwise function: batch [q] of the gradient of
    the operand goes through [h], in order, for each minibatch element [n] of the
    result that used batch [q] of the operand *)
Definition accumulates (r : res tensor) (a b y gy g : tensor) (h : F -> F -> F -> F -> F -> F) : Prop :=
  writes r g (fun c q => acc_batches K (t_shape g) (bat (t_shape y)) q
    (fun n v => h (at_ a c (bsel (t_shape a) n)) (at_ b c (bsel (t_shape b) n)) (at_ y c n) (at_ gy c n) v) (at_ g c q)).
Definition zips_bw_a (f : nat -> tensor -> tensor -> tensor -> tensor -> tensor -> res tensor) (h : F -> F -> F -> F -> F -> F) : Prop :=
  forall d a b y gy ga, ready d a -> ready d b -> ready d y -> ready d gy -> ready d ga ->
    batchable (t_shape a) (t_shape b) (t_shape y) -> t_shape gy = t_shape y -> t_shape ga = t_shape a ->
    accumulates (f d a b y gy ga) a b y gy ga h.
Definition zips_bw_b (f : nat -> tensor -> tensor -> tensor -> tensor -> tensor -> res tensor) (h : F -> F -> F -> F -> F -> F) : Prop :=
  forall d a b y gy gb, ready d a -> ready d b -> ready d y -> ready d gy -> ready d gb ->
    batchable (t_shape a) (t_shape b) (t_shape y) -> t_shape gy = t_shape y -> t_shape gb = t_shape b ->
    accumulates (f d a b y gy gb) a b y gy gb h.

(** ** Proof helpers *)
Variable m : build.
Lemma maps_x name op : assoc (fw_registry K m) name = Some (fx (k_fw_x m op)) -> maps (define_fw_x m name) op.
Proof. intros HN d al x HA HR. apply fw_x_yields; auto. Qed.
Lemma maps_c name op : assoc (fw_registry K m) name = Some (fxc (k_fw_const m op)) -> maps_const (define_fw_const m name) op.
Proof. intros HN d al x k HA HR. apply (@fw_const_yields K m name op); auto. Qed.
Lemma method_x f op : maps f op -> method_maps (via1 f) op.
Proof. intros H d al x HA HR. unfold via1. rewrite (ready_device_of HR). cbn [bind]. apply H; auto. Qed.
Lemma method_c f op : maps_const f op -> method_maps_const (const_r f) op.
Proof. intros H d al x k HA HR. unfold const_r. rewrite (ready_device_of HR). cbn [bind]. apply H; auto. Qed.
Lemma adds_x name op : assoc (bw_registry K m) name = Some (bx (k_bw_x m op)) -> adds (define_bw_x m name) op.
Proof.
  intros HN d x y gy gx Hx Hy Hg Hgx E1 E2 E3. eapply writes_of_updates; [apply (ready_wf Hgx)|eapply bw_x_updates; eauto|].
  intros c b Hc Hb. cbv beta. rewrite !at_buf, E1, E2, E3. reflexivity.
Qed.
Lemma adds_c name op : assoc (bw_registry K m) name = Some (bxc (k_bw_const m op)) -> adds_const (define_bw_const m name) op.
Proof.
  intros HN d x y gy k gx Hx Hy Hg Hgx E1 E2 E3. eapply writes_of_updates; [apply (ready_wf Hgx)|eapply bw_const_updates; eauto|].
  intros c b Hc Hb. cbv beta. rewrite !at_buf, E1, E2, E3. reflexivity.
Qed.
Lemma batchable_so a b s : wf a -> wf b -> batchable a b s -> so_elementwise a b = Ok s.
Proof. intros Wa Wb (H1 & H2 & H3). apply elementwise_of; auto. Qed.
Lemma zips_ab name op : assoc (fw_registry K m) name = Some (fxx (k_fw_ab op)) -> zips (define_fw_ab m name so_elementwise) op.
Proof.
  intros HN d al a b s HA Ha Hb HB. eapply fw_ab_yields; eauto. apply batchable_so; auto; [apply (ready_wf Ha)|apply (ready_wf Hb)].
Qed.
Lemma zips_sc name op : assoc (fw_registry K m) name = Some (fxx (k_fw_scalar op)) -> zips_scalar (define_fw_ab m name so_scalar_op) op.
Proof.
  intros HN d al x k s HA Hx Hk (H1 & H2 & H3) HF. eapply yields_ext; [eapply fw_scalar_yields; eauto|].
  - apply scalar_op_of; auto; [apply (ready_wf Hx)|apply (ready_wf Hk)|]. apply (is_scalar_iff (ready_wf Hk)). intros i. specialize (H1 i). unfold ext in H1. lia.
  - intros c n Hc Hn. cbv beta. reflexivity.
Qed.

(** from the storage-order form of the binary gradients *)
Lemma collects_acc (a b y gy g : tensor) d r h hh : ready d a -> ready d b -> ready d g ->
  batchable (t_shape a) (t_shape b) (t_shape y) -> t_shape gy = t_shape y -> (t_shape g = t_shape a \/ t_shape g = t_shape b) ->
  collects (t_shape y) r g hh ->
  (forall n q v, hh n q v = h (nth0 (buf a) (bsel (t_shape a) n * vol (t_shape y) + q)) (nth0 (buf b) (bsel (t_shape b) n * vol (t_shape y) + q))
      (nth0 (buf y) (n * vol (t_shape y) + q)) (nth0 (buf gy) (n * vol (t_shape y) + q)) v) ->
  accumulates r a b y gy g h.
Proof.
  intros Ha Hb Hg (E1 & _ & (_ & E3 & _)) Eg EG HC HH.
  assert (EA : forall i, ext (t_shape y) i = ext (t_shape a) i) by auto.
  assert (EB : forall i, ext (t_shape y) i = ext (t_shape b) i) by (intros; rewrite E3; auto).
  assert (Ex : forall i, ext (t_shape g) i = ext (t_shape y) i) by (intros; destruct EG as [->| ->]; auto).
  unfold accumulates. eapply collects_writes; [apply (ready_wf Hg)|exact Ex|exact HC|].
  intros c n v Hc Hn. rewrite HH. rewrite !at_buf.
  assert (VA : vol (t_shape y) = vol (t_shape a)) by (apply vol_ext; auto).
  assert (VB : vol (t_shape y) = vol (t_shape b)) by (apply vol_ext; auto).
  rewrite <- (@pos_of_lin (t_shape g) (t_shape a) c (bsel (t_shape a) n)) by (intros; rewrite Ex; auto).
  rewrite <- (@pos_of_lin (t_shape g) (t_shape b) c (bsel (t_shape b) n)) by (intros; rewrite Ex; auto).
  rewrite <- (@pos_of_lin (t_shape g) (t_shape y) c n) by auto.
  rewrite Eg. rewrite <- (@pos_of_lin (t_shape g) (t_shape y) c n) by auto.
  rewrite <- VA, <- VB. reflexivity.
Qed.
End V.

(** ** Concrete tensors over the integers *)
Definition succeeds A (r : res A) : bool := match r with Ok _ => true | _ => false end.
Definition sh (ds : list N) (b : N) : shape := match shape_new Debug ds b with Ok s => s | _ => mkShape [] 0 0 0 end.
Definition tz (d : nat) (ds : list N) (b : N) (l : list Z) : tensor Znum := @mkTensor Znum (Some d) (sh ds b) (Some l) None.
(** an allocator that hands out buffers full of 99 with three spare cells *)
Definition alz : alloc_oracle Znum := fun n => if ((1 <=? n) && (n <=? 2147483648))%N then Ok (repeat 99%Z (N.to_nat n + 3)) else Panic.
Lemma alz_ok : al_ok alz.
Proof.
  intros n. unfold alz. destruct ((1 <=? n) && (n <=? 2147483648))%N; [|reflexivity]. eexists. split; [reflexivity|]. rewrite repeat_length. lia.
Qed.
Lemma sh_wf ds b : (b < two32)%N -> succeeds (shape_new Debug ds b) = true -> wf (sh ds b) /\ is_shape (sh ds b) (fun i => nth i ds 1%N) b.
Proof.
  intros Hb H. unfold sh. destruct (shape_new Debug ds b) as [s| |] eqn:E; try discriminate. apply shape_new_iff in E; auto.
  destruct E as (_ & _ & E). split; [apply E|exact E].
Qed.
Lemma tz_ready d ds b l : (b < two32)%N -> succeeds (shape_new Debug ds b) = true ->
  (batch (sh ds b) * volume (sh ds b) <=? 2147483648)%N = true -> (tot (sh ds b) <=? length l) = true -> ready d (tz d ds b l).
Proof.
  intros Hb HO HV HL. apply N.leb_le in HV. apply Nat.leb_le in HL. destruct (sh_wf _ Hb HO) as [W _].
  split; [reflexivity|]. split; [split; auto|]. split; [reflexivity|]. split; [split; auto; cbn [t_shape tz]; change two32 with 4294967296%N; lia|]. split; [reflexivity|exact HL].
Qed.
Ltac rdy := apply tz_ready; reflexivity.
(** shapes that are the result of [sh] *)
Lemma sh_is ds b : (b < two32)%N -> succeeds (shape_new Debug ds b) = true -> shape_is (sh ds b) (fun i => N.to_nat (nth i ds 1%N)) (N.to_nat b).
Proof. intros Hb HO. destruct (sh_wf _ Hb HO) as [W H]. eapply is_shape_nat; [exact H|reflexivity|reflexivity]. Qed.
Lemma sh_fits ds b : (b < two32)%N -> succeeds (shape_new Debug ds b) = true -> (batch (sh ds b) * volume (sh ds b) <=? 2147483648)%N = true -> fits (sh ds b).
Proof. intros Hb HO HV. apply N.leb_le in HV. split; auto. apply (sh_wf _ Hb HO). Qed.
