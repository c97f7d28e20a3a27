(** * Agree: the operators store what the tensor functions return *)
From Verif Require Export OpsFacts PVocab GraphShape.
Set Implicit Arguments.
Unset Strict Implicit.

Section Agree.
Variable K : num.
Notation F := (F K).
Notation tensor := (tensor K).
Variable m : build.
Notation nat32 x := (N.to_nat x).

(** [r] returns only tensors with the device, shape and host data of [y], with a buffer *)
Definition held (r : res tensor) (y : tensor) : Prop := forall y', r = Ok y' ->
  t_dev y' = t_dev y /\ t_shape y' = t_shape y /\ t_host y' = t_host y /\ (valid y = true -> valid y' = true).
Lemma held_bind A (r : res A) (k : A -> res tensor) y : (forall a, held (k a) y) -> held (bind r k) y.
Proof. intros H y' E. apply bind_Ok in E. destruct E as (a & _ & E). exact (H a y' E). Qed.
Lemma held_with (y : tensor) l : held (Ok (with_buf y l)) y.
Proof. intros y' E. inversion E; subst. repeat split; reflexivity. Qed.
Lemma held_Panic y : held Panic y. Proof. intros y' E; discriminate. Qed.
Ltac hd := repeat first [ progress intros | apply held_with | apply held_Panic | apply held_bind
   | match goal with |- held (match ?x with _ => _ end) _ => destruct x end ].
Lemma k_concat_held (xs : list tensor) d y : held (k_concat m xs d y) y.
Proof.
  unfold k_concat. apply held_bind. intros base. intros y' E. apply bind_Ok in E. destruct E as ([off y1] & E & E2). inversion E2; subst. cbn [snd].
  match type of E with forL _ ?f _ = _ => assert (G : forall xs off0 y0 r, forL xs f (off0, y0) = Ok r -> t_dev (snd r) = t_dev y0 /\ t_shape (snd r) = t_shape y0 /\ t_host (snd r) = t_host y0 /\ (valid y0 = true -> valid (snd r) = true)) end.
  { clear. induction xs as [|x xs IH]; intros off0 y0 r E; [inversion E; subst; auto|]. apply bind_Ok in E. destruct E as ([o1 y1] & E1 & E).
    destruct (IH _ _ _ E) as (A & B & C & D). assert (H : exists l, y1 = with_buf y0 l). { apply bind_Ok in E1. destruct E1 as (src & _ & E1). apply bind_Ok in E1. destruct E1 as (py & _ & E1).
      apply bind_Ok in E1. destruct E1 as (st & _ & E1). inversion E1; subst. eauto. }
    destruct H as (l & ->). cbn in * . auto. }
  exact (G _ _ _ _ E).
Qed.
Lemma k_identity_held (y : tensor) : held (k_identity m y) y.
Proof.
  unfold k_identity. intros y' E. apply bind_Ok in E. destruct E as (y1 & E1 & E). assert (H1 : held (k_reset m n0 y) y) by (unfold k_reset; hd). destruct (H1 y1 E1) as (A & B & C & D).
  apply bind_Ok in E. destruct E as (py & _ & E). apply bind_Ok in E. destruct E as (py' & _ & E). inversion E; subst. cbn. repeat split; auto.
Qed.
Lemma fw_registry_held : Forall (fun e : string * kfw K => forall xs u f y, held (snd e xs u f y) y) (fw_registry K m).
Proof.
  unfold fw_registry. repeat apply Forall_cons; try apply Forall_nil; cbn [snd]; intros; unfold fx, fxx, fxc, fxd, fxu; first [apply k_identity_held|apply held_bind; intros; apply k_concat_held|hd];
  try (match goal with |- held (?f _ _ _) _ => unfold f | |- held (?f _ _) _ => unfold f | |- held (?f _ _ _ _) _ => unfold f | |- held (?f _ _ _ _ _) _ => unfold f
    | |- held (?f _ _ _ _ _ _) _ => unfold f | |- held (?f _ _ _ _ _ _ _) _ => unfold f | |- held (?f _ _ _ _ _ _ _ _) _ => unfold f end; hd).
Qed.
Lemma call_fw_held name xs u f y : held (@call_fw K m name xs u f y) y.
Proof.
  unfold call_fw. destruct (assoc (fw_registry K m) name) as [k|] eqn:E; [|apply held_Panic].
  destruct (assoc_In E) as (s & H). pose proof (proj1 (Forall_forall _ _) fw_registry_held _ H) as L. apply L.
Qed.

(** [r] returns only tensors of device [d] and shape [s] that own their elements *)
Definition makes (r : res tensor) (d : nat) (s : shape) : Prop := forall t, r = Ok t ->
  t_dev t = Some d /\ t_shape t = s /\ t_host t = None /\ valid t = true.
Lemma new_call d al s name xs u f : makes (y <- @new_alloc K m d al s ;; call_fw m name xs u f y) d s.
Proof.
  intros t E. apply bind_Ok in E. destruct E as (y & Ey & E). destruct (call_fw_held E) as (A & B & C & D). unfold new_alloc, alloc in Ey. inv_ok. cbn in * . auto.
Qed.
Lemma makes_bind A (r : res A) k d s : (forall a, r = Ok a -> makes (k a) d s) -> makes (bind r k) d s.
Proof. intros H t E. apply bind_Ok in E. destruct E as (a & E1 & E). exact (H a E1 t E). Qed.

(** storing what [r] returned in an output created with shape [s] *)
Lemma into_iff r d s y : makes r d s -> into r [new_tensor K d s] = Ok [y] <-> r = Ok y.
Proof.
  intros HM. unfold into. split.
  - intros E. apply bind_Ok in E. destruct E as (t & Et & E). rewrite Et. destruct (HM t Et) as (D & S & H & V). cbn [idx nth_error bind] in E. apply bind_Ok in E.
    destruct E as (y' & E1 & E2). inversion E2; subst y'. f_equal. unfold replace, take_buf in E1. inv_ok. unfold new_tensor; cbn. destruct t; cbn in * . congruence.
  - intros E. destruct (HM y E) as (D & S & H & V). rewrite E. cbn [bind idx nth_error].
    assert (ER : replace (new_tensor K d s) y = Ok y).
    { unfold replace, take_buf, new_tensor, valid. cbn. rewrite D, Nat.eqb_refl. cbn [assert bind]. rewrite S.
      replace (shape_eqb s s) with true by (symmetry; apply shape_eqb_spec; reflexivity). cbn. destruct y; cbn in * . congruence. }
    rewrite ER. reflexivity.
Qed.

Lemma makes_Panic d s : makes Panic d s. Proof. intros t E; discriminate. Qed.
Lemma mirror (sh : res shape) r d y : (forall t, r = Ok t -> exists s, sh = Ok s) -> (forall s, sh = Ok s -> makes r d s) ->
  (exists rs, (s <- sh ;; Ok [s]) = Ok rs /\ into r (map (@new_tensor K d) rs) = Ok [y]) <-> r = Ok y.
Proof.
  intros HS HM. split.
  - intros (rs & E1 & E2). apply bind_Ok in E1. destruct E1 as (s & Es & E1). inversion E1; subst rs. cbn [map] in E2. apply (into_iff y (HM s Es)); auto.
  - intros E. destruct (HS y E) as (s & Es). exists [s]. rewrite Es. split; [reflexivity|]. cbn [map]. apply (into_iff y (HM s Es)); auto.
Qed.
(** the usual shape of a forward function *)
Lemma mirror_fw A (pre : res A) sh d al name xs u f y :
  let r := (_ <- pre ;; s <- sh ;; z <- @new_alloc K m d al s ;; call_fw m name xs u f z) in
  (exists rs, (s <- sh ;; Ok [s]) = Ok rs /\ into r (map (@new_tensor K d) rs) = Ok [y]) <-> r = Ok y.
Proof.
  intros r. apply mirror; unfold r.
  - intros t E. apply bind_Ok in E. destruct E as (a & _ & E). apply bind_Ok in E. destruct E as (s & Es & _). eauto.
  - intros s Es. rewrite Es. cbn [bind]. apply makes_bind. intros a _. apply new_call.
Qed.
Lemma mirror_same A (pre : res A) s d al name xs u f y :
  let r := (_ <- pre ;; z <- @new_alloc K m d al s ;; call_fw m name xs u f z) in
  (exists rs, Ok [s] = Ok rs /\ into r (map (@new_tensor K d) rs) = Ok [y]) <-> r = Ok y.
Proof. exact (@mirror_fw A pre (Ok s) d al name xs u f y). Qed.

Lemma copy_makes d al (x : tensor) : makes (copy_tensor m d al x) d (t_shape x).
Proof.
  unfold copy_tensor, reset_tensor_by_tensor. intros t E. apply bind_Ok in E. destruct E as (z & Ez & E).
  repeat (match type of E with bind _ _ = _ => apply bind_Ok in E; destruct E as (? & _ & E) end). destruct (call_fw_held E) as (A & B & C & D). unfold new_alloc, alloc in Ez. inv_ok. cbn in * . auto.
Qed.
Lemma ln_softmax_makes d als (x : tensor) dim : (forall i, al_ok (als i)) -> ready d x -> makes (t_ln_softmax m als x dim) d (t_shape x).
Proof.
  intros HA HR t E. assert (Hd : nat32 dim < 8).
  { unfold t_ln_softmax, t_logsumexp, logsumexp_fw, reduce_fw in E. inv_ok. unfold resize_dim, update_dim in * . inv_ok.
    match goal with H : (_ <? _) = true |- _ => apply Nat.ltb_lt in H; exact H end. }
  destruct (@ln_softmax_yields K m d als x dim HA HR Hd) as (t' & E' & HT). rewrite E in E'. inversion E'; subst t'.
  destruct HT as (R & S & _). destruct R as (R1 & _ & R3 & R4). split; auto. split; auto. split; auto. unfold valid. destruct R4 as (_ & R4 & _). rewrite R4. reflexivity.
Qed.

Lemma neg_makes d al (x : tensor) : t_dev x = Some d -> makes (t_neg m al x) d (t_shape x).
Proof. intros D. unfold t_neg, via1, neg_fw, define_fw_x, device_of. rewrite D. cbn [unwrap bind]. apply makes_bind. intros _ _. apply new_call. Qed.
(** the operator of each one-argument method and the tensor function of the same name *)
Definition method1 (fal : nat -> alloc_oracle K) (k : kind K) : option (tensor -> res tensor) :=
  match k with
  | KAddConst c => Some (fun x => t_add_const m (fal 0) x c)
  | KSubConstL c => Some (fun x => t_const_sub m (fal 0) c x)
  | KSubConstR c => Some (fun x => t_sub_const m (fal 0) x c)
  | KMulConst c => Some (fun x => t_mul_const m (fal 0) x c)
  | KDivConstL c => Some (fun x => t_const_div m (fal 0) c x)
  | KDivConstR c => Some (fun x => t_div_const m (fal 0) x c)
  | KPowConstR c => Some (fun x => t_powf m (fal 0) x c)
  | KPowi c => Some (fun x => t_powi m (fal 0) x c)
  | KNeg => Some (t_neg m (fal 0)) | KAbs => Some (t_abs m (fal 0)) | KSqrt => Some (t_sqrt m (fal 0))
  | KCos => Some (t_cos m (fal 0)) | KSin => Some (t_sin m (fal 0)) | KTan => Some (t_tan m (fal 0))
  | KExp => Some (t_exp m (fal 0)) | KLn => Some (t_ln m (fal 0)) | KSigmoid => Some (t_sigmoid m (fal 0))
  | KSoftplus => Some (t_softplus m (fal 0)) | KTanh => Some (t_tanh m (fal 0))
  | KBroadcast d n => Some (fun x => t_broadcast m (fal 0) x d n)
  | KLogsumexp d => Some (fun x => t_logsumexp m (fal 0) x d)
  | KMax d => Some (fun x => t_max m (fal 0) x d) | KMin d => Some (fun x => t_min m (fal 0) x d)
  | KSum d => Some (fun x => t_sum m (fal 0) x d)
  | KSparseSoftmaxCrossEntropy ids d => Some (fun x => t_sparse_softmax_cross_entropy m fal x ids d)
  | KTranspose => Some (t_transpose m (fal 0))
  | KTriangularL k => Some (fun x => t_triangular_l m (fal 0) x k)
  | KTriangularU k => Some (fun x => t_triangular_u m (fal 0) x k)
  | KPReLU a => Some (fun x => t_prelu m (fal 0) x a)
  | KPick ids d => Some (fun x => t_pick m (fal 0) x ids d)
  | KSlice d l u => Some (fun x => t_slice m (fal 0) x d l u)
  | KBatchPick ids => Some (fun x => t_batch_pick m (fal 0) x ids)
  | KBatchSlice l u => Some (fun x => t_batch_slice m (fal 0) x l u)
  | KBatchSum => Some (t_batch_sum m (fal 0))
  | KReshape s => Some (fun x => t_reshape m (fal 0) x s)
  | _ => None
  end.
Lemma method1_mirror fal k tf d x y : (forall i, al_ok (fal i)) -> method1 fal k = Some tf -> ready d x ->
  (exists rs, forward_shape m k [t_shape x] = Ok rs /\ forward_op m d fal k [x] (map (@new_tensor K d) rs) = Ok [y]) <-> tf x = Ok y.
Proof.
  intros HA E HR. pose proof (ready_device_of HR) as ED.
  destruct k; cbn [method1] in E; inversion E; subst; clear E; cbn [forward_shape forward_op]; unfold shape_same, shape1, fw1; cbn [idx nth_error bind];
    unfold t_neg, t_abs, t_sqrt, t_cos, t_sin, t_tan, t_exp, t_ln, t_sigmoid, t_softplus, t_tanh, t_transpose, t_batch_sum, via1, t_add_const, t_const_sub, t_sub_const, t_mul_const, t_const_div, t_div_const, t_powf, t_prelu, const_r, const_l,
      t_powi, t_broadcast, t_logsumexp, t_max, t_min, t_sum, t_triangular_l, t_triangular_u, t_pick, t_slice, t_batch_pick, t_batch_slice, t_reshape; rewrite ?ED; cbn [bind];
    try (exact (@mirror_same _ _ _ d (fal 0) _ _ _ _ y)); try (exact (@mirror_fw _ _ _ d (fal 0) _ _ _ _ y)).
  - (* sparse softmax cross entropy *) apply mirror.
    + intros t E. unfold t_sparse_softmax_cross_entropy in E. apply bind_Ok in E. destruct E as (l & El & E). destruct (ln_softmax_makes HA HR El) as (_ & S & _).
      apply bind_Ok in E. destruct E as (p & Ep & _). unfold t_pick, pick_fw in Ep. inv_ok. rewrite S in * . eauto.
    + intros s Es. unfold t_sparse_softmax_cross_entropy. apply makes_bind. intros l El. destruct (ln_softmax_makes HA HR El) as (D & S & _ & _).
      apply makes_bind. intros p Ep. assert (MP : makes (t_pick m (fal 3) l ids dim) d s).
      { unfold t_pick, pick_fw, device_of. rewrite D. cbn [unwrap bind]. apply makes_bind. intros _ _. rewrite S, Es. cbn [bind]. apply new_call. }
      destruct (MP p Ep) as (D2 & S2 & _). rewrite <- S2. apply neg_makes; auto.
  - apply (@mirror (Ok (t_shape x)) (triangular_l_fw m d (fal 0) x k) d y); [eauto|]. intros s Es. inversion Es; subst.
    unfold triangular_l_fw, triangular_fw. apply makes_bind; intros _ _. apply makes_bind; intros _ _. apply new_call.
  - apply (@mirror (Ok (t_shape x)) (triangular_u_fw m d (fal 0) x k) d y); [eauto|]. intros s Es. inversion Es; subst.
    unfold triangular_u_fw, triangular_fw. apply makes_bind; intros _ _. apply makes_bind; intros _ _. apply new_call.
  - apply (@mirror (Ok s) _ d y); [eauto|]. intros s' Es. inversion Es; subst s'. intros t E. apply bind_Ok in E. destruct E as (c & Ec & E). destruct (copy_makes Ec) as (A & B & C & D).
    unfold update_shape in E. inv_ok. cbn. auto.
Qed.
(** the same for operators with two arguments *)
Definition method2 (fal : nat -> alloc_oracle K) (k : kind K) : option (tensor -> tensor -> res tensor) :=
  match k with
  | KAdd => Some (t_add m (fal 0)) | KSub => Some (t_sub m (fal 0)) | KMul => Some (t_mul m (fal 0)) | KDiv => Some (t_div m (fal 0))
  | KPow => Some (t_pow m (fal 0)) | KMatmul => Some (t_matmul m (fal 0))
  | KSoftmaxCrossEntropy d => Some (fun x t => t_softmax_cross_entropy m fal x t d)
  | _ => None
  end.
Lemma elementwise_sym a b s : wf a -> wf b -> so_elementwise b a = Ok s -> so_elementwise a b = Ok s.
Proof.
  intros Wa Wb E. apply so_elementwise_iff in E; auto. apply so_elementwise_iff; auto. destruct E as (A & B & C). split; [auto|]. split.
  - unfold compat in * . intuition.
  - rewrite N.max_comm. destruct C as (C1 & C2 & C3). split; [auto|]. split; [|auto]. intros i. rewrite C2, A. reflexivity.
Qed.
Lemma method2_mirror fal k tf d a b y : (forall i, al_ok (fal i)) -> method2 fal k = Some tf -> ready d a -> ready d b ->
  is_scalar (t_shape a) = false -> is_scalar (t_shape b) = false ->
  (exists rs, forward_shape m k [t_shape a; t_shape b] = Ok rs /\ forward_op m d fal k [a; b] (map (@new_tensor K d) rs) = Ok [y]) <-> tf a b = Ok y.
Proof.
  intros HA E HRa HRb Sa Sb. pose proof (ready_device_of HRa) as ED.
  destruct k; cbn [method2] in E; inversion E; subst; clear E; cbn [forward_shape forward_op]; unfold shape_ab, shape2, fw2; cbn [idx nth_error bind];
    unfold t_add, t_sub, t_mul, t_div, t_pow, define_ab_op, t_matmul; rewrite ?Sa, ?Sb, ?ED; cbn [bind];
    try (apply (@mirror _ _ d y); [intros t E; unfold add_fw, sub_fw, mul_fw, div_fw, powf_fw, define_fw_ab, matmul_fw in E; inv_ok; eauto|
      intros s Es; unfold add_fw, sub_fw, mul_fw, div_fw, powf_fw, define_fw_ab, matmul_fw; apply makes_bind; intros _ _; apply makes_bind; intros _ _; rewrite Es; cbn [bind]; apply new_call]).
  (* softmax cross entropy *)
  assert (ML : forall l, t_ln_softmax m fal a dim = Ok l -> t_dev l = Some d /\ t_shape l = t_shape a) by (intros l El; destruct (ln_softmax_makes HA HRa El) as (A & B & _); auto).
  assert (MM : forall l, t_dev l = Some d -> t_shape l = t_shape a -> forall al z, t_mul m al b l = Ok z -> exists s, so_elementwise (t_shape a) (t_shape b) = Ok s /\ t_dev z = Some d /\ t_shape z = s).
  { intros l D S al z Ez. unfold t_mul, define_ab_op in Ez. rewrite S, Sa, Sb in Ez. rewrite (ready_device_of HRb) in Ez. cbn [bind] in Ez. unfold mul_fw, define_fw_ab in Ez.
    apply bind_Ok in Ez. destruct Ez as (? & _ & Ez). apply bind_Ok in Ez. destruct Ez as (? & _ & Ez). apply bind_Ok in Ez. destruct Ez as (s & Es & Ez).
    destruct (new_call Ez) as (A & B & _). exists s. rewrite S in Es. split; auto. apply elementwise_sym; auto; [apply (ready_wf HRa)|apply (ready_wf HRb)]. }
  apply mirror.
  - intros t E. unfold t_softmax_cross_entropy in E. apply bind_Ok in E. destruct E as (l & El & E). destruct (ML l El) as (D & S). apply bind_Ok in E. destruct E as (z & Ez & E).
    destruct (MM l D S _ z Ez) as (s & Es & Dz & Sz). apply bind_Ok in E. destruct E as (u & Eu & E). unfold t_sum, sum_fw, reduce_fw in Eu. inv_ok. rewrite Es. cbn [bind]. rewrite <- Sz. eauto.
  - intros s E. apply bind_Ok in E. destruct E as (s0 & Es0 & E). unfold t_softmax_cross_entropy. apply makes_bind. intros l El. destruct (ML l El) as (D & S).
    apply makes_bind. intros z Ez. destruct (MM l D S _ z Ez) as (s1 & Es & Dz & Sz). assert (ES : s1 = s0) by congruence. rewrite ES in Sz. apply makes_bind. intros u Eu.
    assert (MU : makes (t_sum m (fal 4) z dim) d s). { unfold t_sum, sum_fw, reduce_fw, device_of. rewrite Dz. cbn [unwrap bind]. apply makes_bind. intros _ _. rewrite Sz, E. cbn [bind]. apply new_call. }
    destruct (MU u Eu) as (Du & Su & _). rewrite <- Su. apply neg_makes; auto.
Qed.

(** concatenations *)
Lemma concat_mirror fal d xs dim y : Forall (ready d) xs ->
  (xs <> [] /\ exists rs, forward_shape m (@KConcat K dim) (map (@t_shape K) xs) = Ok rs /\ forward_op m d fal (KConcat dim) xs (map (@new_tensor K d) rs) = Ok [y]) <->
  t_concat m (fal 0) xs dim = Ok y.
Proof.
  intros HR. destruct xs as [|x xs]; [split; [intros [H _]; contradiction|discriminate]|].
  unfold t_concat. cbn [idx nth_error bind]. rewrite (ready_device_of (Forall_inv HR)). cbn [bind forward_shape forward_op].
  rewrite <- (@mirror (so_concat m (map (@t_shape K) (x :: xs)) (nat32 dim)) (concat_fw m d (fal 0) (x :: xs) dim) d y).
  - split; [intros [_ H]; exact H|]. intros H; split; [discriminate|exact H].
  - intros t E. unfold concat_fw in E. apply bind_Ok in E. destruct E as (? & _ & E). apply bind_Ok in E. destruct E as (? & _ & E). apply bind_Ok in E. destruct E as (s & E & _). eauto.
  - intros s Es. unfold concat_fw. apply makes_bind; intros _ _. apply makes_bind; intros _ _. rewrite Es. cbn [bind]. apply new_call.
Qed.
Lemma batch_concat_mirror fal d xs y : Forall (ready d) xs ->
  (xs <> [] /\ exists rs, forward_shape m (@KBatchConcat K) (map (@t_shape K) xs) = Ok rs /\ forward_op m d fal KBatchConcat xs (map (@new_tensor K d) rs) = Ok [y]) <->
  t_batch_concat m (fal 0) xs = Ok y.
Proof.
  intros HR. destruct xs as [|x xs]; [split; [intros [H _]; contradiction|discriminate]|].
  unfold t_batch_concat. cbn [idx nth_error bind length Nat.eqb negb assert]. rewrite (ready_device_of (Forall_inv HR)). cbn [bind forward_shape forward_op].
  rewrite <- (@mirror (so_batch_concat m (map (@t_shape K) (x :: xs))) (batch_concat_fw m d (fal 0) (x :: xs)) d y).
  - split; [intros [_ H]; exact H|]. intros H; split; [discriminate|exact H].
  - intros t E. unfold batch_concat_fw in E. apply bind_Ok in E. destruct E as (? & _ & E). apply bind_Ok in E. destruct E as (? & _ & E). apply bind_Ok in E. destruct E as (s & E & _). eauto.
  - intros s Es. unfold batch_concat_fw. apply makes_bind; intros _ _. apply makes_bind; intros _ _. rewrite Es. cbn [bind]. apply new_call.
Qed.

(** splits *)
Lemma map_repeat A B (f : A -> B) x n : map f (repeat x n) = repeat (f x) n.
Proof. induction n; cbn; congruence. Qed.
Lemma split_loop (f : nat -> res tensor) d s : (forall i, makes (f i) d s) -> forall k i (acc : list tensor), length acc = i ->
  forL (seq i k) (fun i ys => t <- f i ;; y <- idx ys i ;; y' <- replace y t ;; Ok (lset ys i y')) (acc ++ repeat (new_tensor K d s) k) =
  forL (seq i k) (fun i ret => y <- f i ;; Ok (ret ++ [y])) acc.
Proof.
  intros HM. induction k as [|k IH]; intros i acc HL; [cbn; rewrite app_nil_r; reflexivity|]. cbn [seq forL].
  destruct (f i) as [t| |] eqn:Ef; cbn [bind]; auto. destruct (HM i t Ef) as (D & S & H & V).
  assert (EI : idx (acc ++ repeat (new_tensor K d s) (Datatypes.S k)) i = Ok (new_tensor K d s)).
  { apply idx_nth. rewrite nth_error_app2 by lia. replace (i - length acc) with 0 by lia. reflexivity. }
  rewrite EI. cbn [bind].
  assert (ER : replace (new_tensor K d s) t = Ok t).
  { unfold replace, take_buf, new_tensor, valid. cbn. rewrite D, Nat.eqb_refl. cbn [assert bind]. rewrite S.
    replace (shape_eqb s s) with true by (symmetry; apply shape_eqb_spec; reflexivity). cbn. destruct t; cbn in * . congruence. }
  rewrite ER. cbn [bind].
  assert (EL : lset (acc ++ repeat (new_tensor K d s) (Datatypes.S k)) i t = (acc ++ [t]) ++ repeat (new_tensor K d s) k).
  { clear -HL. revert i HL. induction acc as [|a acc IH]; intros i HL; cbn in HL; subst i; [reflexivity|]. cbn. f_equal. apply IH. reflexivity. }
  rewrite EL. apply IH. rewrite app_length. cbn. lia.
Qed.
Lemma split_mirror fal d x dim n ys : ready d x ->
  (exists rs, forward_shape m (@KSplit K dim n) [t_shape x] = Ok rs /\ forward_op m d fal (KSplit dim n) [x] (map (@new_tensor K d) rs) = Ok ys) <->
  t_split m fal x dim n = Ok ys.
Proof.
  intros HR. cbn [forward_shape forward_op]. unfold split_shapes, fw_split, t_split. cbn [idx nth_error bind].
  unfold split_skip. destruct (negb (n =? 0)%N) eqn:En; cbn [assert bind]; [|split; [intros (rs & E & _); discriminate|discriminate]].
  set (skip := (index (t_shape x) (nat32 dim) / n)%N). cbv zeta. destruct (skip * n =? index (t_shape x) (nat32 dim))%N eqn:Es; cbn [assert bind]; [|split; [intros (rs & E & _); discriminate|discriminate]].
  unfold t_slice. rewrite (ready_device_of HR). cbn [bind].
  assert (Ediff : forall i, ((N.of_nat i + 1) * skip - N.of_nat i * skip = skip)%N) by (intros; lia).
  assert (SH : forall i r, slice_fw m d (fal i) x dim (N.of_nat i * skip) ((N.of_nat i + 1) * skip) = Ok r -> exists s, resize_dim m (t_shape x) (nat32 dim) skip = Ok s).
  { intros i r E. unfold slice_fw, so_slice in E. rewrite Ediff in E. inv_ok. eauto. }
  assert (MK : forall i s, resize_dim m (t_shape x) (nat32 dim) skip = Ok s -> makes (slice_fw m d (fal i) x dim (N.of_nat i * skip) ((N.of_nat i + 1) * skip)) d s).
  { intros i s E. unfold slice_fw, so_slice. apply makes_bind; intros _ _. rewrite bind_assoc. apply makes_bind; intros _ _. rewrite bind_assoc. apply makes_bind; intros _ _.
    rewrite Ediff, E. cbn [bind]. apply new_call. }
  split.
  - intros (rs & E1 & E2). apply bind_Ok in E1. destruct E1 as (s & E1 & E3). inversion E3; subst rs. rewrite map_repeat in E2.
    exact (eq_trans (eq_sym (@split_loop _ d s (fun i => MK i s E1) (nat32 n) 0 [] eq_refl)) E2).
  - intros E. assert (HS : exists s, resize_dim m (t_shape x) (nat32 dim) skip = Ok s).
    { destruct (nat32 n) as [|k] eqn:E0; [apply negb_true_iff, N.eqb_neq in En; lia|]. unfold forN in E. cbn [seq forL] in E. apply bind_Ok in E. destruct E as (? & E & _).
      apply bind_Ok in E. destruct E as (t & E & _). eauto. }
    destruct HS as (s & HS). exists (repeat s (nat32 n)). rewrite HS. split; [reflexivity|]. rewrite map_repeat.
    exact (eq_trans (@split_loop _ d s (fun i => MK i s HS) (nat32 n) 0 [] eq_refl) E).
Qed.
Lemma batch_split_mirror fal d x n ys : ready d x ->
  (exists rs, forward_shape m (@KBatchSplit K n) [t_shape x] = Ok rs /\ forward_op m d fal (KBatchSplit n) [x] (map (@new_tensor K d) rs) = Ok ys) <->
  t_batch_split m fal x n = Ok ys.
Proof.
  intros HR. cbn [forward_shape forward_op]. unfold batch_split_shapes, fw_split, t_batch_split. cbn [idx nth_error bind].
  unfold split_skip. destruct (negb (n =? 0)%N) eqn:En; cbn [assert bind]; [|split; [intros (rs & E & _); discriminate|discriminate]].
  set (skip := (batch (t_shape x) / n)%N). cbv zeta. destruct (skip * n =? batch (t_shape x))%N eqn:Es; cbn [assert bind]; [|split; [intros (rs & E & _); discriminate|discriminate]].
  unfold t_batch_slice. rewrite (ready_device_of HR). cbn [bind].
  assert (Ediff : forall i, ((N.of_nat i + 1) * skip - N.of_nat i * skip = skip)%N) by (intros; lia).
  assert (SH : forall i r, batch_slice_fw m d (fal i) x (N.of_nat i * skip) ((N.of_nat i + 1) * skip) = Ok r -> exists s, resize_batch (t_shape x) skip = Ok s).
  { intros i r E. unfold batch_slice_fw, so_batch_slice in E. rewrite Ediff in E. inv_ok. eauto. }
  assert (MK : forall i s, resize_batch (t_shape x) skip = Ok s -> makes (batch_slice_fw m d (fal i) x (N.of_nat i * skip) ((N.of_nat i + 1) * skip)) d s).
  { intros i s E. unfold batch_slice_fw, so_batch_slice. apply makes_bind; intros _ _. rewrite bind_assoc. apply makes_bind; intros _ _.
    rewrite Ediff, E. cbn [bind]. apply new_call. }
  split.
  - intros (rs & E1 & E2). apply bind_Ok in E1. destruct E1 as (s & E1 & E3). inversion E3; subst rs. rewrite map_repeat in E2.
    exact (eq_trans (eq_sym (@split_loop _ d s (fun i => MK i s E1) (nat32 n) 0 [] eq_refl)) E2).
  - intros E. assert (HS : exists s, resize_batch (t_shape x) skip = Ok s).
    { destruct (nat32 n) as [|k] eqn:E0; [apply negb_true_iff, N.eqb_neq in En; lia|]. unfold forN in E. cbn [seq forL] in E. apply bind_Ok in E. destruct E as (? & E & _).
      apply bind_Ok in E. destruct E as (t & E & _). eauto. }
    destruct HS as (s & HS). exists (repeat s (nat32 n)). rewrite HS. split; [reflexivity|]. rewrite map_repeat.
    exact (eq_trans (@split_loop _ d s (fun i => MK i s HS) (nat32 n) 0 [] eq_refl) E).
Qed.
End Agree.
