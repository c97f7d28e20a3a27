(** * PropsElem: C16 transfers, C17 unary, C18 binary, C19 gradients, C30 compound assignment *)
From Verif Require Import PVocab.
Set Implicit Arguments.

Lemma nth_repeat_lt A (x y : A) n i : i < n -> nth i (repeat x n) y = x.
Proof. revert i. induction n; intros [|i] H; simpl; try lia; auto. apply IHn. lia. Qed.
Section Defs.
Variable K : num.
Notation F := (F K).
Notation "x +. y" := (nadd K x y) (at level 50, left associativity).
Notation "x -. y" := (nsub K x y) (at level 50, left associativity).
Notation "x *. y" := (nmul K x y) (at level 40, left associativity).
Notation "x /. y" := (ndiv K x y) (at level 40, left associativity).
Notation "-. x" := (nneg K x) (at level 35, right associativity).
Variable m : build.

(** ** C16 *)
(** values go up and come back; a constant fills; copies (even across devices),
    reshaped and flattened tensors keep the element sequence *)
Theorem C16_upload_download : forall d (al : alloc_oracle K) s vs, al_ok al -> fits s -> length vs = tot s ->
  exists t, new_tensor_by_slice m d al s vs = Ok t /\ ready d t /\ t_shape t = s /\ to_vec m t = Ok vs.
Proof.
  intros d al s vs HA HF HL. destruct (@by_slice_flat K m d al s vs HA HF HL) as (t & E & (HR & HS & HV)).
  exists t. split; [exact E|]. split; [exact HR|]. split; [exact HS|]. rewrite (to_vec_Ok m HR). f_equal.
  apply nth_ext_len with (d := n0).
  - rewrite firstn_length, HS, HL. pose proof (ready_len HR) as L. rewrite HS in L. lia.
  - intros i Hi. rewrite firstn_length, HS in Hi. rewrite HS, nth_firstn_lt by lia. apply HV. lia.
Qed.
Theorem C16_wrong_length_panics : forall d (al : alloc_oracle K) s vs, al_ok al -> fits s -> length vs <> tot s ->
  new_tensor_by_slice m d al s vs = Panic.
Proof.
  intros d al s vs HA HF HL. unfold new_tensor_by_slice. destruct (@new_alloc_Ok K m d al s HA HF) as (l & E & _). rewrite E. cbn [bind].
  unfold reset_tensor_by_slice. cbn [t_shape]. rewrite (fits_size m HF). cbn [bind]. rewrite Nat2N.id.
  apply Nat.eqb_neq in HL. rewrite Nat.eqb_sym, HL. reflexivity.
Qed.
Theorem C16_constant : forall d (al : alloc_oracle K) s k, al_ok al -> fits s ->
  exists t, new_tensor_by_constant m d al s k = Ok t /\ ready d t /\ t_shape t = s /\ to_vec m t = Ok (repeat k (tot s)).
Proof.
  intros d al s k HA HF. destruct (@by_constant_flat K m d al s k HA HF) as (t & E & (HR & HS & HV)).
  exists t. split; [exact E|]. split; [exact HR|]. split; [exact HS|]. rewrite (to_vec_Ok m HR). f_equal.
  apply nth_ext_len with (d := n0).
  - rewrite firstn_length, HS, repeat_length. pose proof (ready_len HR). rewrite HS in H. lia.
  - intros i Hi. rewrite firstn_length, HS in Hi. rewrite HS, nth_firstn_lt by lia. rewrite HV by lia.
    symmetry. apply nth_repeat_lt. lia.
Qed.
Lemma to_vec_same d d' (x t : tensor K) s : ready d x -> is_flat d' s (fun p => nth0 (buf x) p) t -> tot s = tot (t_shape x) -> to_vec m t = to_vec m x.
Proof.
  intros HX (HR & HS & HV) HT. rewrite (to_vec_Ok m HR), (to_vec_Ok m HX). f_equal. rewrite HS, HT.
  pose proof (ready_len HR) as L1. pose proof (ready_len HX) as L2. rewrite HS in L1.
  apply nth_ext_len with (d := n0); [rewrite !firstn_length; lia|].
  intros i Hi. rewrite firstn_length in Hi. rewrite !nth_firstn_lt by lia. apply HV. lia.
Qed.
Theorem C16_copy_reshape_flatten : forall d d' (al : alloc_oracle K) x, al_ok al -> ready d x ->
  (exists t, copy_tensor m d' al x = Ok t /\ ready d' t /\ t_shape t = t_shape x /\ to_vec m t = to_vec m x) /\
  (forall s, fits s -> tot s = tot (t_shape x) ->
     exists t, t_reshape m al x s = Ok t /\ ready d t /\ t_shape t = s /\ to_vec m t = to_vec m x) /\
  (forall s, wf s -> fits s -> tot s <> tot (t_shape x) -> t_reshape m al x s = Panic) /\
  (exists s t, shape_is s (fun i => if i =? 0 then vol (t_shape x) else 1) (bat (t_shape x)) /\
     t_flatten m al x = Ok t /\ ready d t /\ t_shape t = s /\ to_vec m t = to_vec m x).
Proof.
  intros d d' al x HA HR. ssplit.
  - destruct (@copy_flat K m d' d al x HA HR) as (t & E & HT). exists t. split; [exact E|]. destruct (HT) as (H1 & H2 & _).
    split; [exact H1|]. split; [exact H2|]. eapply to_vec_same; eauto.
  - intros s HF HT. destruct (@reshape_flat K m d al x s HA HR HF HT) as (t & E & HH). exists t. split; [exact E|]. destruct (HH) as (H1 & H2 & _).
    split; [exact H1|]. split; [exact H2|]. eapply to_vec_same; eauto.
  - intros s _ HF HT. unfold t_reshape. rewrite (ready_device_of HR). cbn [bind].
    destruct (@copy_flat K m d d al x HA HR) as (t & E & (H1 & H2 & _)). rewrite E. cbn [bind].
    unfold update_shape. rewrite (fits_size m HF), H2, (fits_size m (ready_fits HR)). cbn [bind].
    destruct (N.eqb_spec (N.of_nat (tot s)) (N.of_nat (tot (t_shape x)))) as [Q|]; [lia|reflexivity].
  - destruct (@flatten_flat K m d al x HA HR) as (s & Hs & (t & E & HH)). exists s, t. split; [exact Hs|]. split; [exact E|].
    destruct (HH) as (H1 & H2 & _). split; [exact H1|]. split; [exact H2|]. eapply to_vec_same; eauto.
    unfold tot. destruct Hs as (_ & Es & ->). f_equal. unfold vol at 1, low. simpl. rewrite !Es. simpl. lia.
Qed.

(** ** C17 *)
Theorem C17_unary_functions :
  maps (neg_fw m) (fun x => -. x) /\ maps (abs_fw m) (nabs K) /\ maps (sqrt_fw m) (nsqrt K) /\
  maps (sin_fw m) (nsin K) /\ maps (cos_fw m) (ncos K) /\ maps (tan_fw m) (ntan K) /\
  maps (exp_fw m) (nexp K) /\ maps (ln_fw m) (nln K) /\ maps (tanh_fw m) (ntanh K) /\
  maps (sigmoid_fw m) (fun x => nhalf +. nhalf *. ntanh K (nhalf *. x)) /\
  maps (softplus_fw m) (fun x => nln K (n1 +. nexp K (-. nabs K x)) +. nofZ K (if nlt K n0 x then 1 else 0)%Z *. x).
Proof. ssplit; apply maps_x; reflexivity. Qed.
Theorem C17_const_functions :
  maps_const (add_const_fw m) (fun x k => x +. k) /\
  maps_const (sub_const_l_fw m) (fun x k => k -. x) /\ maps_const (sub_const_r_fw m) (fun x k => x -. k) /\
  maps_const (mul_const_fw m) (fun x k => x *. k) /\
  maps_const (div_const_l_fw m) (fun x k => k /. x) /\ maps_const (div_const_r_fw m) (fun x k => x /. k) /\
  maps_const (powf_const_l_fw m) (fun x k => npowf K k x) /\ maps_const (powf_const_r_fw m) (npowf K) /\
  maps_const (prelu_fw m) (fun x k => x *. (nofZ K (if nlt K n0 x then 1 else 0)%Z +. nofZ K (if nle K x n0 then 1 else 0)%Z *. k)) /\
  maps_const (elu_fw m) (fun x k => if nlt K n0 x then x else k *. (nexp K x -. n1)).
Proof. ssplit; apply maps_c; reflexivity. Qed.
Theorem C17_powi : forall d (al : alloc_oracle K) x k, (-2147483648 <= k <= 2147483647)%Z -> al_ok al -> ready d x ->
  yields (powi_fw m d al x k) d (t_shape x) (fun c b => npowi K (at_ x c b) k).
Proof. intros. apply powi_yields; auto. Qed.
(** the methods and operators of Tensor reach these functions *)
Theorem C17_methods :
  method_maps (t_neg m) (fun x => -. x) /\ method_maps (t_abs m) (nabs K) /\ method_maps (t_sqrt m) (nsqrt K) /\
  method_maps (t_sin m) (nsin K) /\ method_maps (t_cos m) (ncos K) /\ method_maps (t_tan m) (ntan K) /\
  method_maps (t_exp m) (nexp K) /\ method_maps (t_ln m) (nln K) /\ method_maps (t_tanh m) (ntanh K) /\
  method_maps (t_sigmoid m) (fun x => nhalf +. nhalf *. ntanh K (nhalf *. x)) /\
  method_maps (t_softplus m) (fun x => nln K (n1 +. nexp K (-. nabs K x)) +. nofZ K (if nlt K n0 x then 1 else 0)%Z *. x) /\
  method_maps (t_relu m) (fun x => x *. (nofZ K (if nlt K n0 x then 1 else 0)%Z +. nofZ K (if nle K x n0 then 1 else 0)%Z *. n0)) /\
  method_maps (t_lrelu m) (fun x => x *. (nofZ K (if nlt K n0 x then 1 else 0)%Z +. nofZ K (if nle K x n0 then 1 else 0)%Z *. nc001)) /\
  method_maps_const (t_add_const m) (fun x k => x +. k) /\ method_maps_const (fun al x k => t_const_add m al k x) (fun x k => x +. k) /\
  method_maps_const (t_sub_const m) (fun x k => x -. k) /\ method_maps_const (fun al x k => t_const_sub m al k x) (fun x k => k -. x) /\
  method_maps_const (t_mul_const m) (fun x k => x *. k) /\ method_maps_const (fun al x k => t_const_mul m al k x) (fun x k => x *. k) /\
  method_maps_const (t_div_const m) (fun x k => x /. k) /\ method_maps_const (fun al x k => t_const_div m al k x) (fun x k => k /. x) /\
  method_maps_const (t_powf m) (npowf K) /\
  method_maps_const (t_prelu m) (fun x k => x *. (nofZ K (if nlt K n0 x then 1 else 0)%Z +. nofZ K (if nle K x n0 then 1 else 0)%Z *. k)) /\
  method_maps_const (t_elu m) (fun x k => if nlt K n0 x then x else k *. (nexp K x -. n1)).
Proof.
  ssplit;
    try (apply method_x; apply maps_x; reflexivity);
    try match goal with
    | |- method_maps_const (fun al x k => _) _ => apply (@method_c K _ _ (@maps_c K m _ _ eq_refl))
    | |- method_maps_const _ _ => apply method_c; apply maps_c; reflexivity
    end;
    intros d al x; intros; unfold t_relu, t_lrelu; rewrite (ready_device_of (d:=d)) by auto; cbn [bind];
    match goal with |- yields (prelu_fw _ _ _ _ ?k) _ _ _ => apply (@maps_c K m "prelu_fw_impl"%string (e_prelu K) eq_refl d al x k); auto end.
Qed.

(** ** C18 *)
Theorem C18_binary_functions :
  zips (add_fw m) (nadd K) /\ zips (sub_fw m) (nsub K) /\ zips (mul_fw m) (nmul K) /\ zips (div_fw m) (ndiv K) /\ zips (powf_fw m) (npowf K).
Proof. ssplit; apply zips_ab; reflexivity. Qed.
Theorem C18_scalar_functions :
  zips_scalar (add_scalar_fw m) (fun x k => x +. k) /\
  zips_scalar (sub_scalar_l_fw m) (fun x k => k -. x) /\ zips_scalar (sub_scalar_r_fw m) (fun x k => x -. k) /\
  zips_scalar (mul_scalar_fw m) (fun x k => x *. k) /\
  zips_scalar (div_scalar_l_fw m) (fun x k => k /. x) /\ zips_scalar (div_scalar_r_fw m) (fun x k => x /. k) /\
  zips_scalar (powf_scalar_l_fw m) (fun x k => npowf K k x) /\ zips_scalar (powf_scalar_r_fw m) (fun x k => npowf K x k).
Proof. ssplit; apply zips_sc; reflexivity. Qed.
(** a - b and a / b keep the order of the operands; a + b and a * b may be
    computed with the operands exchanged (when a is scalar), which changes
    nothing when the operation is commutative, as in IEEE arithmetic *)
Theorem C18_operator_syntax :
  ((forall x y, x +. y = y +. x) -> operator (t_add m) (nadd K)) /\ operator (t_sub m) (nsub K) /\
  ((forall x y, x *. y = y *. x) -> operator (t_mul m) (nmul K)) /\ operator (t_div m) (ndiv K) /\
  (forall d (al : alloc_oracle K) a b s, al_ok al -> ready d a -> ready d b -> batchable (t_shape a) (t_shape b) s ->
    yields (t_pow m al a b) d s (fun c n => npowf K (at_ a c (bsel (t_shape a) n)) (at_ b c (bsel (t_shape b) n)))).
Proof.
  ssplit.
  - intros HC d al a b s H1 H2 H3 H4 H5. eapply yields_ext; [eapply t_add_yields; eauto|]. intros c n _ _. cbv beta. destruct (is_scalar _); auto.
  - intros d al a b s H1 H2 H3 H4 H5. eapply t_sub_yields; eauto.
  - intros HC d al a b s H1 H2 H3 H4 H5. eapply yields_ext; [eapply t_mul_yields; eauto|]. intros c n _ _. cbv beta. destruct (is_scalar _); auto.
  - intros d al a b s H1 H2 H3 H4 H5. eapply t_div_yields; eauto.
  - intros d al a b s H1 H2 H3 (H4 & H5 & H6). eapply t_pow_yields; eauto.
Qed.

(** ** C19 *)
Theorem C19_unary_gradients :
  adds (sqrt_bw m) (fun x y gy => gy *. nhalf /. y) /\
  adds (abs_bw m) (fun x y gy => gy *. nofZ K ((if nlt K n0 x then 1 else 0) - (if nlt K x n0 then 1 else 0))%Z) /\
  adds (sin_bw m) (fun x y gy => gy *. ncos K x) /\ adds (cos_bw m) (fun x y gy => -. gy *. nsin K x) /\
  adds (tan_bw m) (fun x y gy => gy *. (n1 +. y *. y)) /\ adds (exp_bw m) (fun x y gy => gy *. y) /\
  adds (ln_bw m) (fun x y gy => gy /. x) /\ adds (tanh_bw m) (fun x y gy => gy *. (n1 -. y *. y)) /\
  adds (sigmoid_bw m) (fun x y gy => gy *. y *. (n1 -. y)).
Proof. ssplit; apply adds_x; reflexivity. Qed.
Theorem C19_const_gradients :
  adds_const (add_const_bw m) (fun x y gy k : F => gy) /\
  adds_const (sub_const_l_bw m) (fun x y gy k => -. gy) /\ adds_const (sub_const_r_bw m) (fun x y gy k : F => gy) /\
  adds_const (mul_const_bw m) (fun x y gy k => k *. gy) /\
  adds_const (div_const_l_bw m) (fun x y gy k => -. gy *. y /. x) /\ adds_const (div_const_r_bw m) (fun x y gy k => gy /. k) /\
  adds_const (powf_const_l_bw m) (fun x y gy k => gy *. nln K k *. y) /\
  adds_const (powf_const_r_bw m) (fun x y gy k => gy *. k *. npowf K x (k -. n1)) /\
  adds_const (prelu_bw m) (fun x y gy k => gy *. (nofZ K (if nlt K n0 x then 1 else 0)%Z +. nofZ K (if nle K x n0 then 1 else 0)%Z *. k)) /\
  adds_const (elu_bw m) (fun x y gy k => if nlt K n0 x then gy else gy *. (y +. k)).
Proof. ssplit; apply adds_c; reflexivity. Qed.
Theorem C19_powi_gradient : forall d (x y gy gx : tensor K) k, (-2147483648 < k <= 2147483647)%Z ->
  ready d x -> ready d y -> ready d gy -> ready d gx -> t_shape y = t_shape x -> t_shape gy = t_shape x -> t_shape gx = t_shape x ->
  writes (powi_bw m d x y gy k gx) gx (fun c b => at_ gx c b +. at_ gy c b *. nofZ K k *. npowi K (at_ x c b) (k - 1)).
Proof.
  intros d x y gy gx k Hk Hx Hy Hg Hgx E1 E2 E3. eapply writes_of_updates; [apply (ready_wf Hgx)|eapply powi_bw_updates; eauto|].
  intros c b Hc Hb. cbv beta. rewrite !at_buf, E2, E3. reflexivity.
Qed.
Theorem C19_binary_gradients :
  zips_bw_a (add_bw_a m) (fun a b y gy v => v +. gy) /\ zips_bw_b (add_bw_b m) (fun a b y gy v => v +. gy) /\
  zips_bw_a (sub_bw_a m) (fun a b y gy v => v +. gy) /\ zips_bw_b (sub_bw_b m) (fun a b y gy v => v -. gy) /\
  zips_bw_a (mul_bw_a m) (fun a b y gy v => v +. b *. gy) /\ zips_bw_b (mul_bw_b m) (fun a b y gy v => v +. a *. gy) /\
  zips_bw_a (div_bw_a m) (fun a b y gy v => v +. gy /. b) /\ zips_bw_b (div_bw_b m) (fun a b y gy v => v -. gy *. y /. b) /\
  zips_bw_a (powf_bw_a m) (fun a b y gy v => v +. gy *. b *. npowf K a (b -. n1)) /\
  zips_bw_b (powf_bw_b m) (fun a b y gy v => v +. gy *. nln K a *. y).
Proof.
  ssplit; intros d a b y gy g Ha Hb Hy Hg Hgx HB Eg E;
    assert (HS : so_elementwise (t_shape a) (t_shape b) = Ok (t_shape y)) by (apply batchable_so; auto; [apply (ready_wf Ha)|apply (ready_wf Hb)]);
    (eapply (@collects_acc K a b y gy g d _ _); [exact Ha|exact Hb|exact Hgx|exact HB|exact Eg|auto| |]).
  - eapply lin_collects_a; eauto; reflexivity.
  - reflexivity.
  - eapply lin_collects_b; eauto; reflexivity.
  - reflexivity.
  - eapply lin_collects_a; eauto; reflexivity.
  - reflexivity.
  - eapply lin_collects_b; eauto; reflexivity.
  - reflexivity.
  - eapply other_collects_a; eauto; reflexivity.
  - reflexivity.
  - eapply other_collects_b; eauto; reflexivity.
  - reflexivity.
  - eapply other_collects_a; eauto; reflexivity.
  - reflexivity.
  - eapply div_collects_b; eauto.
  - reflexivity.
  - eapply powf_collects_a; eauto.
  - reflexivity.
  - eapply powf_collects_b; eauto.
  - reflexivity.
Qed.
(** reading of [acc_batches]: an operand with the batch of the result gets its own
    contribution; an operand with batch 1 collects all of them *)
Theorem C19_accumulation_meaning : forall s B q (f : nat -> F -> F) v,
  (bat s = B -> q < B -> acc_batches K s B q f v = f q v) /\
  (bat s = 1 -> acc_batches K s B 0 f v = fold_left (fun acc n => f n acc) (seq 0 B) v).
Proof. intros. split; intros; [apply acc_batches_id; auto|apply acc_batches_all; auto]. Qed.

(** ** C30 *)
Theorem C30_assign : forall d (x y : tensor K), ready d x -> ready d y ->
  (forall i, ext (t_shape x) i = ext (t_shape y) i) ->
  (bat (t_shape x) = 1 \/ bat (t_shape y) = 1 \/ bat (t_shape x) = bat (t_shape y)) ->
  let B := Nat.max (bat (t_shape x)) (bat (t_shape y)) in
  writes (t_add_assign m y x) y (fun c q => acc_batches K (t_shape y) B q (fun n v => v +. at_ x c (bsel (t_shape x) n)) (at_ y c q)) /\
  writes (t_sub_assign m y x) y (fun c q => acc_batches K (t_shape y) B q (fun n v => v -. at_ x c (bsel (t_shape x) n)) (at_ y c q)).
Proof.
  intros d x y Hx Hy HE HB B. split; [eapply add_assign_writes|eapply sub_assign_writes]; eauto; split; auto.
Qed.
Theorem C30_scale : forall d (y : tensor K) k, ready d y -> writes (t_mul_assign m y k) y (fun c b => at_ y c b *. k).
Proof. intros. eapply mul_assign_writes; eauto. Qed.
End Defs.
(** ** Concrete cases *)
Definition x23 : tensor Znum := tz 0 [2; 3]%N 2 [1;2;3;4;5;6; -1;-2;-3;-4;-5;-6; 77; 78]%Z.
Definition y23 : tensor Znum := tz 0 [2; 3]%N 1 [10;20;30;40;50;60]%Z.
Definition k1 : tensor Znum := tz 0 []%N 2 [100; 200]%Z.
Lemma x23_ready : ready 0 x23. Proof. rdy. Qed.
Lemma y23_ready : ready 0 y23. Proof. rdy. Qed.
Lemma k1_ready : ready 0 k1. Proof. rdy. Qed.
Example C16_witness : new_tensor_by_slice Debug 0 alz (sh [2]%N 2) [5;6;7;8]%Z = Ok (tz 0 [2]%N 2 [5;6;7;8;99;99;99]%Z) /\
  fits (sh [2]%N 2) /\ length [5;6;7;8]%Z = tot (sh [2]%N 2).
Proof. split; [reflexivity|]. split; [apply sh_fits; reflexivity|reflexivity]. Qed.
Example C17_witness : ready 0 x23 /\ al_ok alz /\
  t_neg Release alz x23 = Ok (tz 0 [2;3]%N 2 [-1;-2;-3;-4;-5;-6; 1;2;3;4;5;6; 99; 99; 99]%Z).
Proof. split; [exact x23_ready|]. split; [exact alz_ok|reflexivity]. Qed.
Example C18_witness : batchable (t_shape x23) (t_shape y23) (t_shape x23) /\
  t_sub Release alz y23 x23 = Ok (tz 0 [2;3]%N 2 [9;18;27;36;45;54; 11;22;33;44;55;66; 99; 99; 99]%Z) /\
  bin_ok (t_shape k1) (t_shape y23) (t_shape x23) /\
  t_sub Release alz k1 y23 = Ok (tz 0 [2;3]%N 2 [90;80;70;60;50;40; 190;180;170;160;150;140; 99; 99; 99]%Z).
Proof.
  pose proof (@sh_is [2;3]%N 2 eq_refl eq_refl) as Hx. pose proof (@sh_is [2;3]%N 1 eq_refl eq_refl) as Hy.
  split; [|split; [reflexivity|split; [|reflexivity]]].
  - split; [|split]; cbn [t_shape x23 y23 tz].
    + intros i. rewrite (proj1 (proj2 Hx)), (proj1 (proj2 Hy)). reflexivity.
    + right. right. reflexivity.
    + split; [apply Hx|]. split; reflexivity.
  - split; [|split]; cbn [t_shape x23 y23 k1 tz].
    + intros H. discriminate H.
    + right. right. reflexivity.
    + change (is_scalar (sh [] 2)) with true. cbv iota. split; [apply Hx|]. split; [|reflexivity].
      intros i. rewrite (proj1 (proj2 Hx)), (proj1 (proj2 Hy)). reflexivity.
Qed.
Example C19_witness :
  mul_bw_b Release 0 x23 y23 (tz 0 [2;3]%N 2 (repeat 0 12)%Z) (tz 0 [2;3]%N 2 [1;1;1;1;1;1; 2;2;2;2;2;2]%Z) (tz 0 [2;3]%N 1 [7;7;7;7;7;7]%Z)
  = Ok (tz 0 [2;3]%N 1 [6;5;4;3;2;1]%Z).
Proof. reflexivity. Qed.
Example C30_witness : t_add_assign Release y23 x23 = Ok (tz 0 [2;3]%N 1 [10;20;30;40;50;60]%Z) /\
  t_add_assign Release x23 y23 = Ok (tz 0 [2;3]%N 2 [11;22;33;44;55;66; 9;18;27;36;45;54; 77;78]%Z).
Proof. split; reflexivity. Qed.
