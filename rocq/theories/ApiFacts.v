(** * ApiFacts: specification vocabulary for tensors and generic lemmas *)
From Verif Require Export Api Mode KElem KRed KMove2 KMat KConcat.
Set Implicit Arguments.

(** ** Specification vocabulary *)
Section Vocab.
Variable K : num.
Notation F := (F K).
Notation tensor := (tensor K).

(** the contents of the buffer of a tensor (empty if it has none) *)
Definition buf (t : tensor) : list F := match t_buf t with Some l => l | None => [] end.
(** a shape a buffer can be allocated for: at most 2^31 elements (memory_pool.rs L11-30, L55-56) *)
Definition fits (s : shape) : Prop := wf s /\ (batch s * volume s <= 2147483648)%N.
(** [t] is a tensor of device [d] with a buffer large enough for its shape *)
Definition ready (d : nat) (t : tensor) : Prop := t_dev t = Some d /\ fits (t_shape t) /\ t_host t = None /\ vt t (buf t).
(** what an allocation may do: give a buffer of at least the requested size with
    arbitrary contents, for sizes 1 .. 2^31, and panic for other sizes *)
Definition al_ok (al : alloc_oracle K) : Prop := forall n,
  if ((1 <=? n) && (n <=? 2147483648))%N then exists l, al n = Ok l /\ N.to_nat n <= length l else al n = Panic.

(** [y] is on device [d], has shape [s], and its element at coordinate [c] of
    minibatch element [b] is [f c b] *)
Definition is_tensor (d : nat) (s : shape) (f : (nat -> nat) -> nat -> F) (y : tensor) : Prop :=
  ready d y /\ t_shape y = s /\ forall c b, inb s c -> b < bat s -> at_ y c b = f c b.
(** [r] succeeds with such a tensor *)
Definition yields (r : res tensor) (d : nat) (s : shape) (f : (nat -> nat) -> nat -> F) : Prop :=
  exists y, r = Ok y /\ is_tensor d s f y.

(** the same in terms of the storage order *)
Definition is_flat (d : nat) (s : shape) (f : nat -> F) (y : tensor) : Prop :=
  ready d y /\ t_shape y = s /\ forall p, p < tot s -> nth p (buf y) n0 = f p.
Definition yields_flat (r : res tensor) (d : nat) (s : shape) (f : nat -> F) : Prop :=
  exists y, r = Ok y /\ is_flat d s f y.
(** in-place update of [x]: same device and shape, elements [f], nothing beyond the
    elements of the tensor is written *)
Definition updates (r : res tensor) (x : tensor) (f : nat -> F) : Prop :=
  exists l', r = Ok (with_buf x l') /\ over n0 (buf x) l' (tot (t_shape x)) f.
End Vocab.
Arguments buf {K} t. Arguments ready {K} d t. Arguments al_ok {K} al.

Notation nth0 l p := (nth p l n0).

Section Facts.
Variable K : num.
Notation F := (F K).
Notation tensor := (tensor K).
Variable m : build.

Lemma fits_ok s : fits s -> okshape s.
Proof. intros [H1 H2]; split; auto. unfold two32; lia. Qed.
Lemma fits_wf s : fits s -> wf s. Proof. intros [H _]; exact H. Qed.
Lemma fits_tot s : wf s -> fits s <-> (N.of_nat (tot s) <= 2147483648)%N.
Proof.
  intros H. unfold fits. rewrite <- (vol_volume H) in * || idtac.
  unfold tot, bat. rewrite <- (vol_volume H), Nat2N.inj_mul, !N2Nat.id. tauto.
Qed.
Lemma fits_size s : fits s -> size m s = Ok (N.of_nat (tot s)).
Proof. intros H; apply size_tot, fits_ok, H. Qed.

Lemma ready_dev d (t : tensor) : ready d t -> t_dev t = Some d. Proof. intros H; apply H. Qed.
Lemma ready_fits d (t : tensor) : ready d t -> fits (t_shape t). Proof. intros H; apply H. Qed.
Lemma ready_vt d (t : tensor) : ready d t -> vt t (buf t). Proof. intros H; apply H. Qed.
Lemma ready_wf d (t : tensor) : ready d t -> wf (t_shape t). Proof. intros H; apply fits_wf, H. Qed.
Lemma ready_device_of d (t : tensor) : ready d t -> device_of t = Ok d.
Proof. intros H; unfold device_of; rewrite (ready_dev H); reflexivity. Qed.
Lemma ready_check d (t : tensor) : ready d t -> check_dev d t = Ok tt.
Proof. intros H. unfold check_dev. rewrite (ready_device_of H). cbn. rewrite Nat.eqb_refl. reflexivity. Qed.
Lemma ready_valid d (t : tensor) : ready d t -> valid t = true.
Proof. intros H. destruct (ready_vt H) as (_ & E & _). unfold valid. rewrite E. reflexivity. Qed.
Lemma ready_buf d (t : tensor) : ready d t -> t_buf t = Some (buf t).
Proof. intros H. apply (ready_vt H). Qed.
Lemma buf_with (t : tensor) l : buf (with_buf t l) = l. Proof. reflexivity. Qed.
Lemma ready_len d (t : tensor) : ready d t -> tot (t_shape t) <= length (buf t).
Proof. intros H. apply (ready_vt H). Qed.

Lemma ready_with d (t : tensor) l : ready d t -> length l = length (buf t) -> ready d (with_buf t l).
Proof.
  intros H E. destruct H as (H1 & H2 & H3 & H4). split; [|split; [|split]]; auto.
  rewrite buf_with. eapply vt_with_buf; eauto.
Qed.

Lemma at_buf (t : tensor) c b : at_ t c b = nth0 (buf t) (pos (t_shape t) c b).
Proof. reflexivity. Qed.

Lemma flat_tensor d s f (y : tensor) g : is_flat d s f y -> (forall c b, inb s c -> b < bat s -> f (pos s c b) = g c b) -> is_tensor d s g y.
Proof.
  intros (HR & HS & HF) HG. split; [exact HR|]. split; [exact HS|]. intros c b Hc Hb.
  rewrite at_buf, HS. rewrite HF, HG; auto. apply pos_lt; auto. rewrite <- HS. apply (ready_wf HR).
Qed.
Lemma yields_of_flat d s f (r : res tensor) g : yields_flat r d s f -> (forall c b, inb s c -> b < bat s -> f (pos s c b) = g c b) -> yields r d s g.
Proof. intros (y & E & H) HG. exists y; split; auto. eapply flat_tensor; eauto. Qed.
Lemma is_tensor_ext d s f g (y : tensor) : is_tensor d s f y -> (forall c b, inb s c -> b < bat s -> f c b = g c b) -> is_tensor d s g y.
Proof. intros (H1 & H2 & H3) H. split; [|split]; auto. intros; rewrite H3; auto. Qed.
Lemma yields_ext d s f g (r : res tensor) : yields r d s f -> (forall c b, inb s c -> b < bat s -> f c b = g c b) -> yields r d s g.
Proof. intros (y & E & H) HG; exists y; split; auto. eapply is_tensor_ext; eauto. Qed.
Lemma is_flat_ext d s f g (y : tensor) : is_flat d s f y -> (forall p, p < tot s -> f p = g p) -> is_flat d s g y.
Proof. intros (H1 & H2 & H3) H. split; [|split]; auto. intros; rewrite H3; auto. Qed.
Lemma yields_flat_ext d s f g (r : res tensor) : yields_flat r d s f -> (forall p, p < tot s -> f p = g p) -> yields_flat r d s g.
Proof. intros (y & E & H) HG; exists y; split; auto. eapply is_flat_ext; eauto. Qed.
Lemma tensor_flat d s f (y : tensor) : is_tensor d s f y -> is_flat d s (fun p => nth0 (buf y) p) y.
Proof. intros (H1 & H2 & H3). split; [|split]; auto. Qed.

(** ** Allocation *)
Lemma al_ok_fits (al : alloc_oracle K) s : al_ok al -> fits s -> exists l, al (N.of_nat (tot s)) = Ok l /\ tot s <= length l.
Proof.
  intros HA HF. specialize (HA (N.of_nat (tot s))).
  pose proof (tot_pos (fits_wf HF)) as P. pose proof (proj1 (fits_tot (fits_wf HF)) HF) as Q.
  destruct (((1 <=? N.of_nat (tot s)) && (N.of_nat (tot s) <=? 2147483648))%N) eqn:E.
  - destruct HA as (l & El & Hl). exists l. rewrite Nat2N.id in Hl. auto.
  - apply andb_false_iff in E. destruct E as [E|E]; apply N.leb_gt in E; lia.
Qed.
Lemma new_alloc_Ok d (al : alloc_oracle K) s : al_ok al -> fits s ->
  exists l, new_alloc m d al s = Ok (mkTensor (Some d) s (Some l) None) /\ tot s <= length l.
Proof.
  intros HA HF. destruct (al_ok_fits HA HF) as (l & El & Hl). exists l. split; auto.
  unfold new_alloc, alloc, new_tensor; cbn. rewrite (fits_size HF). cbn. rewrite El. reflexivity.
Qed.
Lemma new_ready d s l : fits s -> tot s <= length l -> ready d (@mkTensor K (Some d) s (Some l) None).
Proof. intros HF HL. split; [reflexivity|]. split; [exact HF|]. split; [reflexivity|]. split; [apply fits_ok, HF|]. split; [reflexivity|exact HL]. Qed.

(** a forward function: allocate, then run a kernel which overwrites all elements *)
Lemma fw_flat d (al : alloc_oracle K) s (k : tensor -> res tensor) f : al_ok al -> fits s ->
  (forall y ly, vt y ly -> t_shape y = s -> exists l', k y = Ok (with_buf y l') /\ over n0 ly l' (tot s) f) ->
  yields_flat (y <- new_alloc m d al s ;; k y) d s f.
Proof.
  intros HA HF HK. destruct (@new_alloc_Ok d al s HA HF) as (l & El & Hl).
  pose proof (new_ready d l HF Hl) as HR.
  destruct (HK _ _ (ready_vt HR) eq_refl) as (l' & E & HL & HO). cbn in HL.
  exists (with_buf (mkTensor (Some d) s (Some l) None) l'). rewrite El. cbn [bind]. split; [exact E|].
  split; [apply ready_with; auto|]. split; [reflexivity|].
  intros p Hp. rewrite buf_with, HO. apply Nat.ltb_lt in Hp. rewrite Hp. reflexivity.
Qed.

(** ** Updates *)
Lemma updates_ready d (x : tensor) r f : ready d x -> updates r x f -> exists y, r = Ok y /\ ready d y /\ t_shape y = t_shape x /\
   (forall p, p < tot (t_shape x) -> nth0 (buf y) p = f p).
Proof.
  intros HR (l' & E & HL & HO). exists (with_buf x l'). split; [exact E|]. split; [apply ready_with; auto|]. split; [reflexivity|].
  intros p Hp. rewrite buf_with, HO. apply Nat.ltb_lt in Hp. rewrite Hp. reflexivity.
Qed.
Lemma updates_flat d (x : tensor) r f : ready d x -> updates r x f -> yields_flat r d (t_shape x) f.
Proof.
  intros HR HU. destruct (updates_ready HR HU) as (y & E & H1 & H2 & H3). exists y; split; auto. split; auto.
Qed.
Lemma updates_ext r (x : tensor) f g : updates r x f -> (forall p, p < tot (t_shape x) -> f p = g p) -> updates r x g.
Proof.
  intros (l' & E & HL & HO) H. exists l'; split; auto. split; auto. intros p. rewrite HO.
  destruct (p <? tot (t_shape x)) eqn:E1; auto. apply H, Nat.ltb_lt, E1.
Qed.

(** ** shape facts in terms of [ext] and [bat] *)
Lemma is_shape_ext' s e b : is_shape s e b -> (forall i, ext s i = N.to_nat (e i)) /\ bat s = N.to_nat b /\ wf s.
Proof. intros (H1 & H2 & H3). split; [|split]; auto. intros i; unfold ext; rewrite H2; reflexivity. unfold bat; rewrite H3; reflexivity. Qed.
Lemma upd_ext_ext x d k i : N.to_nat (upd_ext x d k i) = if i =? d then N.to_nat k else ext x i.
Proof. unfold upd_ext. destruct (i =? d); reflexivity. Qed.
Lemma shape_eqb_refl s : wf s -> shape_eqb s s = true.
Proof. intros H. apply shape_eqb_spec; auto. Qed.
Lemma same_shape_Ok (a b : tensor) : wf (t_shape a) -> t_shape a = t_shape b -> same_shape a b = Ok tt.
Proof. intros H E. unfold same_shape. rewrite <- E, shape_eqb_refl; auto. Qed.
Lemma assert_eqb s : wf s -> assert (shape_eqb s s) = Ok tt.
Proof. intros H. rewrite shape_eqb_refl; auto. Qed.

(** ** Elementwise: batches *)
Lemma elementwise_shape a b s : wf a -> wf b -> so_elementwise a b = Ok s ->
  wf s /\ (forall i, ext s i = ext a i) /\ (forall i, ext s i = ext b i) /\ vol s = vol a /\ vol s = vol b /\
  (bat a = 1 \/ bat a = bat s) /\ (bat b = 1 \/ bat b = bat s) /\ bat s = Nat.max (bat a) (bat b) /\ (s = a \/ s = b).
Proof.
  intros Ha Hb H. apply so_elementwise_iff in H; auto. destruct H as (He & Hc & Hs).
  destruct (is_shape_ext' Hs) as (E1 & E2 & E3).
  assert (Ea : forall i, ext s i = ext a i) by (intros i; rewrite E1; reflexivity).
  assert (Eb : forall i, ext s i = ext b i) by (intros i; rewrite E1, He; reflexivity).
  assert (Eq: s = a \/ s = b).
  { destruct Hs as (_ & Hi & Hbt). pose proof (wf_batch Ha); pose proof (wf_batch Hb).
    destruct Hc as [Hc|[Hc|Hc]].
    - left. apply wf_ext; auto. lia.
    - right. apply wf_ext; auto. intros i; rewrite Hi; apply He. lia.
    - left. apply wf_ext; auto. lia. }
  split; [exact E3|]. split; [exact Ea|]. split; [exact Eb|].
  split; [apply vol_ext; auto|]. split; [apply vol_ext; auto|].
  unfold bat in *. pose proof (wf_batch Ha); pose proof (wf_batch Hb). unfold compat in Hc. destruct Hs as (_ & _ & Hbt). rewrite Hbt.
  split; [|split; [|split; [|exact Eq]]]; destruct Hc as [Hc|[Hc|Hc]]; lia.
Qed.
Lemma elementwise_fits a b s : fits a -> fits b -> so_elementwise a b = Ok s -> fits s.
Proof. intros Ha Hb H. destruct (elementwise_shape (fits_wf Ha) (fits_wf Hb) H) as (_ & _ & _ & _ & _ & _ & _ & _ & [->| ->]); auto. Qed.

Lemma bpos_pos s sy c b : (forall i, ext sy i = ext s i) -> wf sy -> inb sy c -> b < bat sy ->
  bpos s (vol sy) (pos sy c b) = pos s c (bsel s b).
Proof.
  intros HE HW Hc Hb. unfold bpos, pos.
  assert (HL : lin_lt (ext sy) c 8 < vol sy) by (apply lin_lt_lt; intros; apply Hc).
  replace (b * vol sy + lin_lt (ext sy) c 8) with (b * vol sy + lin_lt (ext sy) c 8) by lia.
  destruct (divmod_of b HL) as [-> ->].
  rewrite (vol_ext sy s) by (intros; apply HE). f_equal. apply lin_lt_ext; auto.
Qed.

Lemma okb_of s sy : wf s -> vol s = vol sy -> (bat s = 1 \/ bat s = bat sy) -> okb (bat sy) (vol sy) s.
Proof. intros; split; [|split]; auto. Qed.
End Facts.
