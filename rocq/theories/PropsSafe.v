(** * PropsSafe: C31 memory safety of the tensor API, C32 devices do not mix

    A kernel that reads or writes outside a buffer evaluates to [UB] in the model
    (Base.v: [rd], [wr]); [call], [perform] and [operands] (Calls.v) range over the
    whole tensor API. *)
From Coq Require Import Permutation.
From Verif Require Export CallDev.
Set Implicit Arguments.
Unset Strict Implicit.

Section Safety.
Variable K : num.
Variable srt : (nat -> nat -> option comparison) -> list nat -> res (list nat).
Notation tensor := (tensor K).
Notation call := (call K).

(** ** Specification *)
(** the tensors a safe program can hold: what calls returned, starting from nothing. [ok] restricts the calls. *)
Inductive holds (m : build) (ok : call -> Prop) : list tensor -> Prop :=
| holds_nothing : holds m ok []
| holds_more held c ys : holds m ok held -> ok c -> fair c -> incl (operands c) held -> perform srt m c = Ok ys -> holds m ok (ys ++ held).
(** operands that [+=] and [-=] should require and do not check; and the backward function of batch_pick excluded *)
Definition shapes_agree (x y : tensor) : Prop :=
  (forall i, ext (t_shape x) i = ext (t_shape y) i) /\ (bat (t_shape x) = 1 \/ bat (t_shape y) = 1 \/ bat (t_shape x) = bat (t_shape y)).
Definition careful (c : call) : Prop :=
  match c with
  | CAddAssign _ x y | CSubAssign _ x y => shapes_agree x y
  | CBatchPickBw _ _ _ _ => False
  | _ => True
  end.
(** the standard library's sort returns a permutation, or panics *)
Definition sorts : Prop := forall cmp l, match srt cmp l with Ok l' => Permutation l l' | Panic => True | UB => False end.

Lemma held_sane held : sorts -> holds Debug careful held -> Forall (@sane K) held.
Proof.
  intros HS H. induction H as [|held c ys H IH Hc Hf Hi E]; [constructor|].
  pose proof (@perform_good K srt c HS Hf) as G. rewrite E in G. cbn in G. apply Forall_app. split; [|exact IH]. apply G.
  - destruct c; exact Hc.
  - rewrite Forall_forall in IH |- * . auto.
Qed.

(** ** C31 in a build with overflow checks: after any history of calls, no call leaves the buffers of its operands *)
Theorem C31_no_access_out_of_bounds : sorts -> forall held c,
  holds Debug careful held -> careful c -> fair c -> incl (operands c) held -> perform srt Debug c <> UB.
Proof.
  intros HS held c H Hc Hf Hi E. pose proof (held_sane HS H) as HF. pose proof (@perform_good K srt c HS Hf) as G. rewrite E in G. apply G.
  - destruct c; exact Hc.
  - rewrite Forall_forall in HF |- * . auto.
Qed.

(** a program that runs through with overflow checks does the same without them *)
Lemma holds_release m held : holds Debug careful held -> holds m careful held.
Proof. induction 1; [constructor|]. eapply holds_more; eauto. apply le_perform; auto. Qed.
Theorem C31_release_agrees : forall m (c : call) ys, perform srt Debug c = Ok ys -> perform srt m c = Ok ys.
Proof. intros m c ys. apply le_perform. Qed.
Theorem C31_release_histories : forall m held, holds Debug careful held -> holds m careful held.
Proof. exact holds_release. Qed.

(** ** C32 *)
(** a call is placed when all its operands live on one device, the one it was called on if there is one.
    [home] is that device, [transfer] the calls that make, fill, read back, copy or move a tensor. *)
Definition placed (c : call) : Prop := exists d, (home c = Some d \/ home c = None) /\ forall x, In x (operands c) -> t_dev x = Some d.

Lemma gathered_placed c d : gathered d c -> placed c.
Proof.
  intros (H1 & H2). exists d. split; [|rewrite Forall_forall in H2; auto]. destruct (home c) as [e|]; [left; rewrite (H1 e eq_refl); reflexivity|auto].
Qed.
(** whatever the buffers are, even if there are none: nothing was read or written when the call panics *)
Theorem C32_other_device_panics : forall m (c : call), transfer c = false -> is_cross_entropy c = false -> ~ placed c -> perform srt m c = Panic.
Proof.
  intros m c HT HX HN. destruct (perform srt m c) eqn:E; auto; exfalso; apply HN;
  (assert (NP : perform srt m c <> Panic) by (rewrite E; discriminate)); destruct (perform_gathered HT HX NP) as (d & G); exact (gathered_placed G).
Qed.

Local Opaque call_fw fw_registry new_alloc.
Lemma ln_softmax_dev m als (x y : tensor) dim : t_ln_softmax m als x dim = Ok y -> t_dev y = t_dev x.
Proof.
  unfold t_ln_softmax. intros E. apply bind_Ok in E. destruct E as (l & El & E). apply bind_Ok in E. destruct E as (b & Eb & E).
  assert (MK : forall name sop d al (p q : tensor) t, define_fw_ab m name sop d al p q = Ok t -> t_dev t = Some d).
  { intros name sop d al p q t Et. unfold define_fw_ab in Et. do 3 (apply bind_Ok in Et; destruct Et as (? & _ & Et)). exact (proj1 (new_call Et)). }
  unfold t_sub, define_ab_op in E. destruct (is_scalar (t_shape x)); [|destruct (is_scalar (t_shape b))]; apply bind_Ok in E; destruct E as (d & Ed & E);
    (assert (D : t_dev x = Some d) by (unfold device_of in Ed; destruct (t_dev x); cbn [unwrap] in Ed; congruence)); rewrite D; eapply MK; exact E.
Qed.
(** softmax_cross_entropy(x, t) reads x first; it never succeeds when t is elsewhere *)
Theorem C32_cross_entropy_other_device : forall m als (x t : tensor) dim, ~ placed (CCrossEntropy als x t dim) -> forall y, t_softmax_cross_entropy m als x t dim <> Ok y.
Proof.
  intros m als x t dim HN y E. apply HN. unfold t_softmax_cross_entropy in E. apply bind_Ok in E. destruct E as (l & El & E). apply bind_Ok in E. destruct E as (z & Ez & E). clear E.
  pose proof (ln_softmax_dev El) as D. assert (NP : t_mul m (als 3) t l <> Panic) by (rewrite Ez; discriminate).
  apply np_ab_op in NP; [|intros ? ? ?; apply np_fw_ab ..]. destruct NP as (d & D1 & D2). exists d. split; [right; reflexivity|]. cbn [operands]. intros u [<-|[<-|[]]]; congruence.
Qed.
Theorem C32_cross_entropy_panics : sorts -> forall als (x t : tensor) dim held, holds Debug careful held -> In x held -> In t held -> (forall i, al_ok (als i)) ->
  ~ placed (CCrossEntropy als x t dim) -> perform srt Debug (CCrossEntropy als x t dim) = Panic.
Proof.
  intros HS als x t dim held HH Hx Ht HA HN. cbn [perform]. pose proof (C32_cross_entropy_other_device (m := Debug) HN) as H1.
  assert (H2 : perform srt Debug (CCrossEntropy als x t dim) <> UB) by (apply (C31_no_access_out_of_bounds HS HH); cbn; auto; intros u [<-|[<-|[]]]; auto).
  cbn [perform] in H2. destruct (t_softmax_cross_entropy Debug als x t dim) as [y| |]; cbn in *; auto; [destruct (H1 y); auto|congruence].
Qed.
End Safety.

(** ** What the restrictions leave out, on concrete programs *)
(** the identity is a permutation, so any [srt] below could be used *)
Definition nosort : (nat -> nat -> option comparison) -> list nat -> res (list nat) := fun _ l => Ok l.
Lemma nosort_sorts : sorts nosort. Proof. intros cmp l. apply Permutation_refl. Qed.
Definition anyc (c : call Znum) : Prop := True.
Definition zc (d : nat) (ds : list N) (b : N) (k : Z) : call Znum := @CConst Znum d alz (sh ds b) k.
Definition made (d : nat) (ds : list N) (b : N) (k : Z) : tensor Znum := match perform nosort Debug (zc d ds b k) with Ok [t] => t | _ => new_tensor Znum 0 (sh ds b) end.

(** [y += x] with y of shape [1] and x of shape [5] writes behind the end of y's buffer *)
Theorem C31_add_assign_refuted : exists held x y, holds nosort Debug anyc held /\ In x held /\ In y held /\ t_add_assign Debug y x = UB.
Proof.
  exists ([made 0 [1%N] 1 7] ++ [made 0 [5%N] 1 3] ++ []), (made 0 [5%N] 1 3), (made 0 [1%N] 1 7). split; [|split; [right; left; reflexivity|split; [left; reflexivity|vm_compute; reflexivity]]].
  eapply (@holds_more Znum nosort Debug anyc _ (zc 0 [1%N] 1 7) [made 0 [1%N] 1 7]); [|exact I|split; [apply alz_ok|apply sh_wf; reflexivity]|intros ? []|vm_compute; reflexivity].
  eapply (@holds_more Znum nosort Debug anyc _ (zc 0 [5%N] 1 3) [made 0 [5%N] 1 3]); [|exact I|split; [apply alz_ok|apply sh_wf; reflexivity]|intros ? []|vm_compute; reflexivity].
  constructor.
Qed.
Theorem C31_sub_assign_refuted : exists held x y, holds nosort Debug anyc held /\ In x held /\ In y held /\ t_sub_assign Debug y x = UB.
Proof.
  exists ([made 0 [1%N] 1 7] ++ [made 0 [5%N] 1 3] ++ []), (made 0 [5%N] 1 3), (made 0 [1%N] 1 7). split; [|split; [right; left; reflexivity|split; [left; reflexivity|vm_compute; reflexivity]]].
  eapply (@holds_more Znum nosort Debug anyc _ (zc 0 [1%N] 1 7) [made 0 [1%N] 1 7]); [|exact I|split; [apply alz_ok|apply sh_wf; reflexivity]|intros ? []|vm_compute; reflexivity].
  eapply (@holds_more Znum nosort Debug anyc _ (zc 0 [5%N] 1 3) [made 0 [5%N] 1 3]); [|exact I|split; [apply alz_ok|apply sh_wf; reflexivity]|intros ? []|vm_compute; reflexivity].
  constructor.
Qed.
(** the gradient of batch_pick with ids [7, 7, 7, 7, 7, 7] into a tensor of shape [1] with 8 minibatch elements *)
Theorem C31_batch_pick_gradient_refuted : exists held gy gx, holds nosort Debug anyc held /\ In gy held /\ In gx held /\ batch_pick_bw Debug 0 gy [7%N; 7%N; 7%N; 7%N; 7%N; 7%N] gx = UB.
Proof.
  exists ([made 0 [1%N] 8 0] ++ [made 0 [1%N] 6 1] ++ []), (made 0 [1%N] 6 1), (made 0 [1%N] 8 0). split; [|split; [right; left; reflexivity|split; [left; reflexivity|vm_compute; reflexivity]]].
  eapply (@holds_more Znum nosort Debug anyc _ (zc 0 [1%N] 8 0) [made 0 [1%N] 8 0]); [|exact I|split; [apply alz_ok|apply sh_wf; reflexivity]|intros ? []|vm_compute; reflexivity].
  eapply (@holds_more Znum nosort Debug anyc _ (zc 0 [1%N] 6 1) [made 0 [1%N] 6 1]); [|exact I|split; [apply alz_ok|apply sh_wf; reflexivity]|intros ? []|vm_compute; reflexivity].
  constructor.
Qed.

(** *** without overflow checks *)
(** [4] times a scalar with 2^30 + 1 minibatch elements: the result has 2^32 + 4 elements, its buffer 4 *)
Definition huge : N := 1073741825%N.
Definition exact_al : alloc_oracle Znum := fun n => if ((1 <=? n) && (n <=? 2147483648))%N then Ok (repeat 0%Z (N.to_nat n)) else Panic.
Lemma exact_al_ok : al_ok exact_al.
Proof. intros n. unfold exact_al. destruct (_ && _)%bool; [|reflexivity]. eexists. split; [reflexivity|]. rewrite repeat_length. lia. Qed.
Definition four : tensor Znum := tz 0 [4%N] 1 [1; 2; 3; 4]%Z.
Definition scalars (l : list Z) : tensor Znum := tz 0 [] huge l.
Lemma scalar_overrun op (x k y : tensor Znum) v0 v1 l n : ptr x = Ok [1; 2; 3; 4]%Z -> ptr k = Ok (v0 :: v1 :: l) -> ptr y = Ok [0; 0; 0; 0]%Z -> volume (t_shape y) = 4%N ->
  N.to_nat (batch (t_shape y)) = S (S n) -> Kernels.shift (t_shape x) (N.to_nat 4) = 0 -> Kernels.shift (t_shape k) 1 = 1 -> k_fw_scalar op x k y = UB.
Proof.
  intros E1 E2 E3 E4 E5 E6 E7. unfold k_fw_scalar. rewrite E1, E2, E3, E4, E5, E6, E7. cbn [bind]. unfold forN at 1. cbn [seq forL]. generalize (seq 2 n). intros rest. reflexivity.
Qed.
Lemma scalars_ready l : N.to_nat huge <= length l -> ready 0 (scalars l).
Proof.
  intros HL. assert (W : wf (sh [] huge)) by (apply sh_wf; reflexivity).
  assert (HB : batch (sh [] huge) = huge) by reflexivity. assert (HV : volume (sh [] huge) = 1%N) by reflexivity.
  assert (T : tot (sh [] huge) = N.to_nat huge) by (unfold tot; rewrite <- vol_volume by auto; unfold bat; rewrite HB, HV; lia).
  unfold scalars, tz. revert HB HV T W. generalize (sh [] huge). intros s HB HV T W.
  assert (HH : huge = 1073741825%N) by reflexivity.
  split; [reflexivity|]. cbn [t_shape t_buf t_host]. split; [split; [exact W|]|split; [reflexivity|]].
  - rewrite HB, HV, HH. lia.
  - split; [split; [exact W|]|split; [reflexivity|]].
    + cbn [t_shape]. rewrite HB, HV, HH. reflexivity.
    + unfold buf. cbn [t_shape t_buf]. rewrite T. exact HL.
Qed.
Lemma two_of (l : list Z) : N.to_nat huge <= length l -> exists v0 v1 l' n, l = v0 :: v1 :: l' /\ N.to_nat huge = S (S n).
Proof.
  assert (HH : (2 <= huge)%N) by (unfold huge; lia). generalize dependent huge. intros h HH H. destruct l as [|v0 [|v1 l]]; cbn [length] in H; try lia.
  exists v0, v1, l, (N.to_nat h - 2). split; [reflexivity|lia].
Qed.
Lemma scaled_shape : so_scalar_op (sh [4%N] 1) (sh [] huge) = Ok (sh [4%N] huge). Proof. lazy. reflexivity. Qed.
Lemma scaled_size : size Release (sh [4%N] huge) = Ok 4%N /\ size Debug (sh [4%N] huge) = Panic /\ batch (sh [4%N] huge) = huge /\ volume (sh [4%N] huge) = 4%N. Proof. repeat split; lazy; reflexivity. Qed.
Lemma release_ub l : N.to_nat huge <= length l -> mul_scalar_fw Release 0 exact_al four (scalars l) = UB.
Proof.
  intros HL. destruct (two_of HL) as (v0 & v1 & l' & n & -> & HB). unfold mul_scalar_fw, define_fw_ab.
  assert (C1 : check_dev 0 four = Ok tt) by reflexivity. assert (C2 : check_dev 0 (scalars (v0 :: v1 :: l')) = Ok tt) by reflexivity. rewrite C1, C2. cbn [bind].
  assert (S1 : t_shape four = sh [4%N] 1) by reflexivity. assert (S2 : t_shape (scalars (v0 :: v1 :: l')) = sh [] huge) by reflexivity. rewrite S1, S2, scaled_shape. cbn [bind].
  destruct scaled_size as (Z1 & _ & Z3 & Z4). revert Z1 Z3 Z4. generalize (sh [4%N] huge). intros s Z1 Z3 Z4.
  unfold new_alloc, alloc, new_tensor. cbn [valid t_buf t_host t_dev t_shape negb assert bind device_of unwrap]. rewrite Z1. cbn [bind].
  assert (A4 : exact_al 4%N = Ok [0; 0; 0; 0]%Z) by reflexivity. rewrite A4. cbn [bind].
  rewrite (@call_fw_at Znum Release "mul_scalar_fw_impl" (fxx (k_fw_scalar (nmul Znum))) eq_refl). unfold fxx. cbn [idx nth_error bind].
  apply (@scalar_overrun _ four (scalars (v0 :: v1 :: l')) (@mkTensor Znum (Some 0) s (Some [0; 0; 0; 0]%Z) None) v0 v1 l' n); [reflexivity|reflexivity|reflexivity|exact Z4|cbn [t_shape]; rewrite Z3; exact HB|reflexivity|reflexivity].
Qed.
Lemma debug_panics l : mul_scalar_fw Debug 0 exact_al four (scalars l) = Panic.
Proof.
  unfold mul_scalar_fw, define_fw_ab.
  assert (C1 : check_dev 0 four = Ok tt) by reflexivity. assert (C2 : check_dev 0 (scalars l) = Ok tt) by reflexivity. rewrite C1, C2. cbn [bind].
  assert (S1 : t_shape four = sh [4%N] 1) by reflexivity. assert (S2 : t_shape (scalars l) = sh [] huge) by reflexivity. rewrite S1, S2, scaled_shape. cbn [bind].
  destruct scaled_size as (_ & Z1 & _ & _). revert Z1. generalize (sh [4%N] huge). intros s Z1.
  unfold new_alloc, alloc, new_tensor. cbn [valid t_buf t_host t_dev t_shape negb assert bind device_of unwrap]. rewrite Z1. reflexivity.
Qed.
Theorem C31_release_wraparound_refuted : forall l, N.to_nat huge <= length l ->
  ready 0 four /\ ready 0 (scalars l) /\ mul_scalar_fw Release 0 exact_al four (scalars l) = UB /\ mul_scalar_fw Debug 0 exact_al four (scalars l) = Panic.
Proof. intros l HL. split; [rdy|]. split; [apply scalars_ready; exact HL|]. split; [apply release_ub; exact HL|apply debug_panics]. Qed.

(** *** the hypotheses are met: a careful program that makes two tensors, and calls on them *)
Example C31_applies : exists held x y, holds nosort Debug (@careful Znum) held /\ In x held /\ In y held /\
  careful (CAddAssign None x y) /\ fair (CAddAssign None x y) /\ succeeds (perform nosort Debug (CAddAssign None x y)) = true /\
  perform nosort Debug (CBinary 5 None alz x y) = Panic /\ succeeds (perform nosort Debug (CBinary 0 None alz x y)) = true.
Proof.
  exists ([made 0 [2%N; 3%N] 1 7] ++ [made 0 [2%N; 3%N] 4 3] ++ []), (made 0 [2%N; 3%N] 4 3), (made 0 [2%N; 3%N] 1 7).
  split; [|split; [right; left; reflexivity|split; [left; reflexivity|]]].
  - eapply (@holds_more Znum nosort Debug (@careful Znum) _ (zc 0 [2%N; 3%N] 1 7) [made 0 [2%N; 3%N] 1 7]); [|exact I|split; [apply alz_ok|apply sh_wf; reflexivity]|intros ? []|vm_compute; reflexivity].
    eapply (@holds_more Znum nosort Debug (@careful Znum) _ (zc 0 [2%N; 3%N] 4 3) [made 0 [2%N; 3%N] 4 3]); [|exact I|split; [apply alz_ok|apply sh_wf; reflexivity]|intros ? []|vm_compute; reflexivity].
    constructor.
  - split; [split; [intros i; do 9 (destruct i as [|i]; [reflexivity|]); reflexivity|right; left; reflexivity]|]. split; [exact I|]. split; [vm_compute; reflexivity|]. split; vm_compute; reflexivity.
Qed.
Example C32_applies : exists x y : tensor Znum, ready 0 x /\ ready 1 y /\ t_shape x = t_shape y /\ ~ placed (CBinary 0 (Some 0) alz x y) /\ ~ placed (CBinary 0 None alz y x) /\
  placed (CBinary 0 (Some 0) alz x x) /\ transfer (CBinary 0 (Some 0) alz x y) = false /\ succeeds (perform nosort Debug (CBinary 0 (Some 0) alz x x)) = true /\
  (* copying is how a tensor gets to another device *) succeeds (perform nosort Debug (CUnary 13 (Some 0) alz y)) = true.
Proof.
  exists (tz 0 [2%N] 1 [1; 2]%Z), (tz 1 [2%N] 1 [3; 4]%Z). split; [rdy|]. split; [rdy|]. split; [reflexivity|].
  assert (N1 : forall d, ~ ((forall z, In z [tz 0 [2%N] 1 [1; 2]%Z; tz 1 [2%N] 1 [3; 4]%Z] -> t_dev z = Some d))).
  { intros d H. pose proof (H _ (or_introl eq_refl)) as A. pose proof (H _ (or_intror (or_introl eq_refl))) as B. cbn in A, B. congruence. }
  split; [intros (d & _ & H); exact (N1 d H)|]. split; [intros (d & _ & H); apply (N1 d); intros z Hz; apply H; cbn in *; tauto|].
  split; [exists 0; split; [left; reflexivity|intros z [<-|[<-|[]]]; reflexivity]|]. split; [reflexivity|]. split; vm_compute; reflexivity.
Qed.
Print Assumptions C31_no_access_out_of_bounds.
Print Assumptions C31_release_histories.
Print Assumptions C31_release_wraparound_refuted.
Print Assumptions C31_add_assign_refuted.
Print Assumptions C31_batch_pick_gradient_refuted.
Print Assumptions C32_other_device_panics.
Print Assumptions C32_cross_entropy_panics.
