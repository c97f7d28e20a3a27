(** * Init: the random kernels, the initializers and Device::new_parameter

    Models prima_undine/src/{random.rs,initializers/*.rs,devices/naive/random.rs,
    functions/random/device.rs} and device.rs L153-160. *)
From Verif Require Export Optim Graph.
Set Implicit Arguments.
Unset Strict Implicit.

Section Init.
Variable K : num.
Notation F := (F K).
Notation tensor := (tensor K).
Variable m : build.

(** random.rs L4-9 and the crate rand (trusted): the constructor of a distribution panics
    ([unwrap] of Bernoulli::new, Normal::new; Uniform::new asserts lower < upper) or gives
    a source of samples, one per element in order. One randomizer per call: the samples of
    different calls are unrelated. *)
Record randomizer := mkRandomizer {
  rnd_bernoulli : F -> res (nat -> bool); rnd_uniform : F -> F -> res (nat -> F); rnd_normal : F -> F -> res (nat -> F) }.

(** [for d in data { *d = sample }] on the slice of the first size elements (random.rs L23-25, L31-33, L39-41;
    devices/naive/random.rs L24-33, L53-62, L83-92). [slice::from_raw_parts_mut] needs a buffer that long. *)
Definition k_random (draws : res (nat -> F)) (y : tensor) : res tensor :=
  py <- ptr y ;; sz <- size m (t_shape y) ;;
  _ <- (if N.to_nat sz <=? length py then Ok tt else UB) ;;
  f <- draws ;;
  py' <- forN (N.to_nat sz) (fun i py => wr py i (f i)) py ;;
  Ok (with_buf y py').
(** fill_bernoulli: [dist.sample(&mut rng) as u32 as f32] *)
Definition bits (r : res (nat -> bool)) : res (nat -> F) := b <- r ;; Ok (fun i => nofB (b i)).

(** functions/random/device.rs L10-35 *)
Definition random_bernoulli (self : nat) (al : alloc_oracle K) (r : randomizer) (s : shape) (p : F) : res tensor :=
  y <- new_alloc m self al s ;; k_random (bits (rnd_bernoulli r p)) y.
Definition random_normal (self : nat) (al : alloc_oracle K) (r : randomizer) (s : shape) (mean sd : F) : res tensor :=
  y <- new_alloc m self al s ;; k_random (rnd_normal r mean sd) y.
Definition random_uniform (self : nat) (al : alloc_oracle K) (r : randomizer) (s : shape) (lower upper : F) : res tensor :=
  y <- new_alloc m self al s ;; k_random (rnd_uniform r lower upper) y.

(** initializers/{constant,normal,uniform,xavier_uniform}.rs *)
Inductive initializer := Constant (k : F) | Normal (mean sd : F) | Uniform (lower upper : F) | XavierUniform (scale : F).
(** initializers/xavier_uniform.rs L16-19; the literal 6. is the conversion of the integer 6 *)
Definition xavier_bound (scale : F) (s : shape) : res F :=
  n <- add32 m (index s 0) (index s 1) ;;
  Ok (nmul K scale (nsqrt K (ndiv K (nofZ K 6) (nofZ K (Z.of_N n))))).
(** constant.rs L14-17, normal.rs L16-21, uniform.rs L19-22, xavier_uniform.rs L15-22 *)
Definition ini_apply (al : alloc_oracle K) (r : randomizer) (i : initializer) (t : tensor) : res tensor :=
  match i with
  | Constant k => t1 <- alloc m al t ;; reset m t1 k
  | Normal mean sd => d <- device_of t ;; y <- random_normal d al r (t_shape t) mean sd ;; replace t y
  | Uniform lower upper => d <- device_of t ;; y <- random_uniform d al r (t_shape t) lower upper ;; replace t y
  | XavierUniform scale =>
      let s := t_shape t in
      _ <- assert (is_matrix s) ;;
      bound <- xavier_bound scale s ;;
      d <- device_of t ;; y <- random_uniform d al r s (nneg K bound) bound ;; replace t y
  end.
(** device.rs L153-160 *)
Definition new_parameter (self : nat) (al1 al2 : alloc_oracle K) (r : randomizer) (s : shape) (i : initializer) : res (param K) :=
  let value := new_tensor K self s in
  let gradient := new_tensor K self s in
  value <- ini_apply al1 r i value ;;
  gradient <- alloc m al2 gradient ;;
  gradient <- reset m gradient n0 ;;
  param_new value gradient.

(** ** facts *)
Lemma k_random_updates d f (y : tensor) : ready d y -> updates (k_random (Ok f) y) y (fun p => f p).
Proof.
  intros HR. destruct (ready_vt HR) as (_ & B & L). unfold k_random, ptr. rewrite B. cbn [unwrap bind]. rewrite (fits_size m (ready_fits HR)). cbn [bind]. rewrite Nat2N.id.
  rewrite (proj2 (Nat.leb_le _ _) L). cbn [bind].
  edestruct (@wr_loop F n0 (tot (t_shape y))) with (l := buf y) (f := f) as (l' & E & HO).
  3:{ rewrite E. cbn [bind]. exists l'. split; [reflexivity|exact HO]. }
  - exact L.
  - intros i l' Hi HL. cbv beta. apply wr_Ok. lia.
Qed.
Lemma k_random_Panic d (y : tensor) : ready d y -> k_random Panic y = Panic.
Proof.
  intros HR. destruct (ready_vt HR) as (_ & B & L). unfold k_random, ptr. rewrite B. cbn [unwrap bind]. rewrite (fits_size m (ready_fits HR)). cbn [bind]. rewrite Nat2N.id.
  rewrite (proj2 (Nat.leb_le _ _) L). reflexivity.
Qed.
Lemma random_flat d al s f : al_ok al -> fits s -> yields_flat (y <- new_alloc m d al s ;; k_random (Ok f) y) d s f.
Proof. intros HA HF. apply new_then_updates; auto. intros t HR _. eapply k_random_updates; eauto. Qed.
Lemma random_Panic d (al : alloc_oracle K) s : al_ok al -> fits s -> (y <- new_alloc m d al s ;; k_random Panic y) = Panic.
Proof.
  intros HA HF. destruct (@new_alloc_Ok K m d al s HA HF) as (l & El & Hl). rewrite El. cbn [bind]. apply (@k_random_Panic d). apply (@new_ready K d _ l HF Hl).
Qed.
Lemma replace_flat d s (f : nat -> F) (y : tensor) : is_flat d s f y -> exists t, replace (new_tensor K d s) y = Ok t /\ is_flat d s f t.
Proof.
  intros (HR & Es & HV). destruct HR as (H1 & H2 & H3 & H4). exists y. split; [|split; [split; auto|auto]].
  unfold replace, take_buf, new_tensor, valid. cbn. rewrite H1, Nat.eqb_refl. cbn [assert bind]. rewrite <- Es. rewrite (proj2 (shape_eqb_spec (t_shape y) (t_shape y)) eq_refl). cbn [assert bind].
  destruct y; cbn in * . subst. reflexivity.
Qed.
End Init.
