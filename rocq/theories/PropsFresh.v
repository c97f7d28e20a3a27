(** * PropsFresh: C66, what recycled memory contained never shows

    The memory pool hands out blocks it got back without clearing them, and fresh
    blocks without initialising them. Two runs of the same program that differ only
    in what those blocks contained have the same outcome: the same replies, or a
    panic at the same call.

    The buffer of a tensor is taken to be its elements, without the unused rest of
    the block: C31 and C58 show that nothing beyond them is accessed. *)
From Verif Require Export PropsSafe PropsRelease Fresh7.
From Verif Require Import PVocab GraphTie OpsFacts PropsGraph.
Set Implicit Arguments.
Unset Strict Implicit.

Section Fresh.
Variable K : num.
Notation F := (F K).
Notation tensor := (tensor K).
Notation node := (nat * nat)%type.
Notation graph := (graph K (oper K)).
Notation oracle := (alloc_oracle K).
Notation command := (command K).
Notation reply := (reply K).
Notation client := (client K).
Notation itp := (@interp K Debug).
Variable srt : (nat -> nat -> option comparison) -> list nat -> res (list nat).

(** ** Specification *)
(** [al_exact al] (Fresh.v): a request for n elements, 1 <= n <= 2^31, is served with n elements, whatever they are;
    other requests are refused.
    The memory one call is served with: a call may ask for several buffers, now and (operators of a graph) later;
    the list of numbers says which one it is *)
Definition memory := list nat -> oracle.
Definition uncleared (w : memory) : Prop := forall a, al_exact (w a).
(** the buffers of the operator with number [a]: for its values, and for gradients *)
Definition bufs (w : memory) (a : list nat) : buffers K := (fun i => w (0 :: i :: a), fun i => w (1 :: i :: a)).
Definition many (w : memory) (a : list nat) : nat -> buffers K := fun j => bufs w (j :: a).
(** a command, served with memory [w] *)
Definition served (w : memory) (c : command) : command :=
  let w1 := w [] in let w2 := w [1] in let ws := fun i => w [i] in let wss := fun i j => w [i; j] in let wsss := fun i j k => w [i; j; k] in
  match c with
  | Tensors c => Tensors (reallocated ws c)
  | Bernoulli d _ r s p => Bernoulli d w1 r s p | Normally d _ r s a b => Normally d w1 r s a b | Uniformly d _ r s a b => Uniformly d w1 r s a b
  | Input _ t => Input (bufs w []) t | InputOwner _ t => InputOwner (bufs w []) t | ParameterOf _ v gr => ParameterOf (bufs w []) v gr
  | Create o own xs => Create (mkOper (o_kind o) (o_dev o) (fst (bufs w [])) (snd (bufs w []))) own xs
  | Apply1 k _ x => Apply1 k (bufs w []) x | Apply2 k kl kr _ a b => Apply2 k kl kr (bufs w []) a b | Apply k _ x xs => Apply k (bufs w []) x xs
  | Concat dim _ xs => Concat dim (bufs w []) xs | BatchConcat _ xs => BatchConcat (bufs w []) xs | Flatten _ x => Flatten (bufs w []) x
  | LnSoftmax dim _ x => LnSoftmax dim (many w []) x | Softmax dim _ x => Softmax dim (many w []) x
  | Backward _ popf popb n => Backward wss popf popb n
  | NewParameter d _ _ r s i => NewParameter d w1 w2 r s i | AddStat _ p name s => AddStat w1 p name s
  | Configure _ o ps => Configure wss o ps | Update _ o ps => Update wsss o ps
  | ConfigureModel _ o x => ConfigureModel wss o x | UpdateModel _ o x => UpdateModel wsss o x | MoveModel d _ x => MoveModel d wss x
  | CMean _ x dim => CMean ws x dim | CBatchMean _ x => CBatchMean ws x | CDropout _ r x rate e => CDropout ws r x rate e | CDropoutDim _ r x dim rate e => CDropoutDim ws r x dim rate e
  | CSliceSum _ xs => CSliceSum ws xs | CBatchNorm _ x g b eps e => CBatchNorm wss x g b eps e | CLayerNorm _ x g b eps => CLayerNorm wss x g b eps
  | NMean dim _ x => NMean dim (many w []) x | NBatchMean _ x => NBatchMean (many w []) x | NDropout _ _ r x rate e => NDropout (many w []) w1 r x rate e | NDropoutDim _ _ _ r x dim rate e => NDropoutDim (many w []) w1 w2 r x dim rate e
  | NSliceSum _ _ xs => NSliceSum (many w []) w1 xs | NBatchNorm _ x g b eps e => NBatchNorm (fun i => many w [i]) x g b eps e | NLayerNorm _ x g b eps => NLayerNorm (fun i => many w [i]) x g b eps
  | Vec _ | Float _ | Argmax _ _ _ | Argmin _ _ _ | Argsort _ _ _ | Forward _ _ _ | ToVec _ _ _ | Value _ _ | Gradient _ _ | ParameterGradient _ _ | ResetGradient _ | Save _ | Load _ => c   (* nothing allocated *)
  end.
(** the program [p] in a world whose i-th call is served with memory [w i] *)
Definition within (w : nat -> memory) (p : client) : client := fun h => served (w (length h)) (p h).

(** How the calls must be used. [fair] with any memory, [sane], [psane], [msane], [wf], [supplied]: arguments
    that safe Rust can pass; [careful], [no_batch_pick]: the conditions under which nothing outside of a buffer is
    accessed (PropsSafe.v, PropsSafeGraph.v); [by_depth pop]: the order in which a heap returns its elements is
    determined by their depths. Tensor::alloc is left out: it exists to show uninitialised memory. *)
Definition proper (g : graph) (c : command) : Prop :=
  match c with
  | Tensors c => ~ is_alloc c /\ fair (reallocated (zals K) c) /\ careful c /\ Forall (@sane K) (operands c)
  | Bernoulli _ _ _ s _ | Normally _ _ _ s _ _ | Uniformly _ _ _ s _ _ | NewParameter _ _ _ _ s _ => wf s
  | Input _ t | InputOwner _ t => sane t
  | ParameterOf _ v t => sane v /\ sane t /\ t_shape t = t_shape v
  | Create o own xs => supplied (o_kind o) /\ (scalar_kind (o_kind o) = true -> forall n v, nth_error xs 1 = Some n -> value_of g n = Ok v -> is_scalar (t_shape v) = true) /\
      (forall t, own = Some t -> sane t /\ exists v, o_kind o = KParameter v /\ t_shape t = t_shape v)
  | Apply1 k _ _ | Apply k _ _ _ => supplied k /\ scalar_kind k = false
  | Apply2 k kl kr _ _ _ => In (k, kl, kr) [(KAdd, KAddScalar, KAddScalar); (KSub, KSubScalarL, KSubScalarR); (KMul, KMulScalar, KMulScalar); (KDiv, KDivScalarL, KDivScalarR); (KPow, KPowScalarL, KPowScalarR)]
  | Forward _ pop _ | ToVec _ pop _ => by_depth pop
  | Backward _ popf popb n => by_depth popf /\ by_depth popb /\ max_heap popb /\ no_batch_pick g (fst n)
  | AddStat _ p _ s => psane p /\ wf s
  | Configure _ _ ps | Update _ _ ps => Forall (@psane K) ps
  | ConfigureModel _ _ x | UpdateModel _ _ x | MoveModel _ _ x => msane x
  | CMean _ x _ | CBatchMean _ x | CDropout _ _ x _ _ | CDropoutDim _ _ x _ _ _ => sane x
  | CSliceSum _ xs => Forall (@sane K) xs
  | CBatchNorm _ x a b _ _ | CLayerNorm _ x a b _ => sane x /\ sane a /\ sane b
  | _ => True
  end.
(** what one program gets to see: its replies *)
Definition seen (r : res (graph * list reply)) : res (list reply) := rmap snd r.

(** ** Proofs *)
(** ** C66 for one call: the same tensors, or a panic, whatever the new buffers contained *)
Theorem C66_calls : sorts srt -> forall als c, ~ is_alloc c -> fair c -> careful c -> exact_memory c -> exacts als -> Forall (@sane K) (operands c) ->
  perform srt Debug (reallocated als c) = perform srt Debug c /\ perform srt Debug c <> UB.
Proof. intros HS als c HN HF HC HM HA HO. destruct (calls_eq HS HN HF HC HM HA HO) as (E & G). split; [exact E|]. intros U. rewrite U in G. exact G. Qed.
(** and in a build without overflow checks, if the call succeeds with them *)
Theorem C66_calls_release : sorts srt -> forall als c m ys, ~ is_alloc c -> fair c -> careful c -> exact_memory c -> exacts als -> Forall (@sane K) (operands c) ->
  perform srt Debug c = Ok ys -> perform srt m (reallocated als c) = Ok ys.
Proof. intros HS als c m ys HN HF HC HM HA HO E. apply le_perform. destruct (C66_calls HS HN HF HC HM HA HO) as (-> & _). exact E. Qed.

(** ** programs *)
Definition zero : memory := fun _ => zal K.
Lemma zero_uncleared : uncleared zero. Proof. intros a. apply zal_exact. Qed.
Lemma bufs_exact w a : uncleared w -> exact_bufs (bufs w a). Proof. intros U. split; intros i; apply U. Qed.
Lemma perform_served (HS : sorts srt) c w : ~ is_alloc c -> fair (reallocated (zals K) c) -> careful c -> Forall (@sane K) (operands c) -> uncleared w ->
  perform srt Debug (reallocated (zals K) c) = perform srt Debug (reallocated (fun i => w [i]) c).
Proof.
  intros HN HF HC HO U. assert (E : reallocated (fun i => w [i]) c = reallocated (fun i => w [i]) (reallocated (zals K) c)) by (destruct c; reflexivity). rewrite E. symmetry. apply (C66_calls HS); auto using realloc_alloc, realloc_careful, realloc_exact, zals_exact. intros i; apply U. rewrite realloc_operands. auto.
Qed.
Lemma follows_same g A (r r' : res A) (f : A -> reply) : calm g -> r' = r -> follows (same g r f) (same (erase g) r' f).
Proof. intros C E. apply follows_look; auto. intros x _. apply follows_Ok, C. Qed.
Lemma follows_made1 r r' : follows r r' -> follows (made1 (K := K) r) (made1 r').
Proof. intros H. apply follows_bind; auto. intros g n C. apply follows_Ok, C. Qed.
Lemma follows_made_all r r' : follows r r' -> follows (made_all (K := K) r) (made_all r').
Proof. intros H. apply follows_bind; auto. intros g n C. apply follows_Ok, C. Qed.
Lemma follows_kept A g (r : res A) r' (f : A -> reply) : calm g -> r' = (erase g, r) -> follows (kept (g, r) f) (kept r' f).
Proof. intros C ->. unfold kept. cbn [fst snd]. apply follows_look; auto. intros x _. apply follows_Ok, C. Qed.
Local Opaque perform to_vec to_float argmax argmin argsort n_op1 n_op2 n_create n_concat n_batch_concat n_flatten n_ln_softmax n_softmax create node_forward node_backward node_to_vec new_parameter reset_gradient add_stat configure_parameters update_parameters configure_model update_model model_move param_serialize param_deserialize c_mean c_batch_mean c_dropout c_dropout_dim c_slice_sum c_batch_normalization c_layer_normalization n_mean n_batch_mean n_dropout n_dropout_dim n_slice_sum n_batch_normalization n_layer_normalization.
Lemma follows_steadily g A (P : A -> Prop) (r r' : res A) (f : A -> reply) : calm g -> steady P r r' -> follows (same g r f) (same (erase g) r' f).
Proof. intros C (E & _). apply follows_same; auto. Qed.
Lemma step (HS : sorts srt) w g c : uncleared w -> calm g -> proper g c -> follows (exec srt Debug g (served w c)) (exec srt Debug (erase g) (served zero c)).
Proof.
  intros U C P. pose proof (fun a => bufs_exact a U) as B. assert (BM : forall a j, exact_bufs (many w a j)) by (intros; apply B). assert (X1 : exacts (fun i => w [i])) by (intros i; apply U). assert (X2 : forall i, exacts (fun j => w [i; j])) by (intros i j; apply U). assert (X3 : forall i j, exacts (fun k => w [i; j; k])) by (intros i j k; apply U).
  assert (Z1 : exacts (fun _ : nat => zal K)) by (intros i; apply zal_exact). pose proof zero_uncleared as UZ.
  destruct c; cbn [proper] in P; cbn [served exec]; cbv zeta.
  - destruct P as (P1 & P2 & P3 & P4). apply follows_same; auto. apply perform_served; auto.
  - apply follows_same; auto.
  - apply follows_same; auto.
  - apply follows_same; auto.
  - apply follows_same; auto.
  - apply follows_same; auto.
  - apply follows_same; auto. apply random_eq; auto.
  - apply follows_same; auto. apply random_eq; auto.
  - apply follows_same; auto. apply random_eq; auto.
  - apply follows_made1, follows_leaf; auto. discriminate.
  - apply follows_made1, follows_leaf; auto. discriminate.
  - destruct P as (P1 & P2 & P3). apply follows_made1, follows_leaf; auto. intros t0 E. injection E as <-. eauto.
  - destruct P as (P1 & P2 & P3). apply follows_made_all. apply (@follows_create K g (mkOper (o_kind o) (o_dev o) (fst (bufs w [])) (snd (bufs w [])))); auto; intros i; apply U.
  - destruct P as (P1 & P2). apply follows_made1, follows_op1; auto.
  - apply follows_made1, follows_op2; auto.
  - destruct P as (P1 & P2). apply follows_made_all, follows_n_create; auto. congruence.
  - apply follows_made1, follows_concat; auto.
  - apply follows_made1, follows_batch_concat; auto.
  - apply follows_made1, follows_flatten; auto.
  - apply follows_made1, follows_ln_softmax; auto.
  - apply follows_made1, follows_softmax; auto.
  - pose proof (calm_forward pop n C) as C1. destruct C as (G & X). pose proof (erase_forward n P G X) as E. destruct (node_forward itp pop g n) as [g1 r]. cbn [fst snd] in *. apply follows_kept; auto.
  - destruct P as (P1 & P2 & P3 & P4). apply follows_backward; auto.
  - assert (C1 : calm (fst (node_to_vec Debug itp pop g n))).
    { pose proof (calm_forward pop n C) as C1. Local Transparent node_to_vec. unfold node_to_vec. destruct (node_forward itp pop g n) as [g1 [u| |]]; exact C1. }
    destruct C as (G & X). pose proof (erase_to_vec n P G X) as E. destruct (node_to_vec Debug itp pop g n) as [g1 r]. cbn [fst snd] in *. apply follows_kept; auto.
  - apply follows_same; auto. apply erase_value.
  - apply follows_same; auto. apply erase_grad.
  - apply follows_same; auto. rewrite erase_own. reflexivity.
  - eapply follows_steadily; auto. apply st_new_parameter; auto using zal_exact.
  - apply follows_same; auto.
  - destruct P as (P1 & P2). eapply follows_steadily; auto. apply (@st_add_stat K (fun _ => w []) (fun _ => zero []) (fun _ => U []) (fun _ => UZ []) 0); auto.
  - eapply follows_steadily; auto. apply st_configure_parameters; auto.
  - eapply follows_steadily; auto. apply st_update_parameters; auto.
  - eapply follows_steadily; auto. apply st_configure_model; auto.
  - eapply follows_steadily; auto. apply st_update_model; auto.
  - eapply follows_steadily; auto. apply st_model_move; auto.
  - apply follows_same; auto.
  - apply follows_same; auto.
  - eapply follows_steadily; auto. apply st_mean; auto.
  - eapply follows_steadily; auto. apply st_batch_mean; auto.
  - eapply follows_steadily; auto. apply st_dropout; auto.
  - eapply follows_steadily; auto. apply st_dropout_dim; auto.
  - eapply follows_steadily; auto. apply st_slice_sum; auto.
  - destruct P as (P1 & P2 & P3). eapply follows_steadily; auto. apply st_batch_norm; auto.
  - destruct P as (P1 & P2 & P3). eapply follows_steadily; auto. apply st_layer_norm; auto.
  - apply follows_made1, follows_mean; auto.
  - apply follows_made1, follows_batch_mean; auto.
  - apply follows_made1, follows_dropout; auto.
  - apply follows_made1, follows_dropout_dim; auto.
  - apply follows_made1, follows_slice_sum; auto.
  - apply follows_made1, follows_batch_norm; auto.
  - apply follows_made1, follows_layer_norm; auto.
Qed.
Lemma uses_erase (g : graph) i j : uses (erase g) i j -> uses g i j.
Proof.
  induction 1 as [|i o n j Ho Hn _ IH]; [constructor|]. rewrite erase_nth in Ho. destruct (nth_error (g_ops g) i) as [o0|] eqn:E; [|discriminate]. injection Ho as <-. eapply uses_step; [exact E|exact Hn|exact IH].
Qed.
Lemma uses_erase' (g : graph) i j : uses g i j -> uses (erase g) i j.
Proof. induction 1 as [|i o n j Ho Hn _ IH]; [constructor|]. eapply uses_step; [rewrite erase_nth, Ho; reflexivity|exact Hn|exact IH]. Qed.
Lemma no_pick_erase (g : graph) i : no_batch_pick (erase g) i <-> no_batch_pick g i.
Proof.
  split; intros H j o ids Hu Ho.
  - specialize (H j (erase_i o) ids (uses_erase' Hu)). rewrite erase_nth, Ho in H. exact (H eq_refl).
  - rewrite erase_nth in Ho. destruct (nth_error (g_ops g) j) as [o0|] eqn:E; [|discriminate]. injection Ho as <-. exact (H j o0 ids (uses_erase Hu) E).
Qed.
Lemma proper_erase g c : proper (erase g) c <-> proper g c.
Proof.
  destruct c; cbn [proper]; try tauto.
  - split; intros (P1 & P2 & P3); split; auto; split; auto; intros HK n v Hn Hv; [rewrite <- erase_value in Hv|rewrite erase_value in Hv]; eauto.
  - rewrite no_pick_erase. tauto.
Qed.
Lemma runs_agree (HS : sorts srt) w w' p : (forall i, uncleared (w i)) -> (forall i, uncleared (w' i)) -> forall n g g' h, calm g -> calm g' -> erase g' = erase g ->
  (forall k g1 h1, k < n -> play srt Debug (within w p) k g h = Ok (g1, h1) -> proper g1 (p h1)) ->
  seen (play srt Debug (within w' p) n g' h) = seen (play srt Debug (within w p) n g h).
Proof.
  intros U U'. induction n as [|n IH]; intros g g' h C C' EE P; [reflexivity|]. cbn [play].
  assert (PG : proper g (p h)) by (apply (P 0 g h); [lia|reflexivity]). assert (PG' : proper g' (p h)) by (apply proper_erase; rewrite EE; apply proper_erase; exact PG).
  destruct (step HS (U (length h)) C PG) as (E & CC). destruct (step HS (U' (length h)) C' PG') as (E' & CC'). unfold within at 1 3. rewrite EE, E in E'.
  destruct (exec srt Debug g (served (w (length h)) (p h))) as [[g1 r]| |] eqn:EX; destruct (exec srt Debug g' (served (w' (length h)) (p h))) as [[g1' r']| |] eqn:EX'; cbn [rmap] in E'; try discriminate; auto.
  cbn [bind]. unfold ep in E'. cbn [fst snd] in E'. assert (E1 : erase g1' = erase g1) by congruence. assert (E2 : r' = r) by congruence. subst r'. apply IH; [apply (CC _ eq_refl)|apply (CC' _ eq_refl)|exact E1|].
  intros k g2 h2 L E3. apply (P (S k)); [lia|]. cbn [play]. unfold within at 1. rewrite EX. exact E3.
Qed.

(** ** C66: two runs of a program in builds with overflow checks, that differ only in what the memory they are
    given contains, show it the same replies, or both panic, at the same call *)
Theorem C66_programs : sorts srt -> forall w w' p n, (forall i, uncleared (w i)) -> (forall i, uncleared (w' i)) ->
  (forall k g h, k < n -> play srt Debug (within w p) k empty [] = Ok (g, h) -> proper g (p h)) ->
  seen (play srt Debug (within w' p) n empty []) = seen (play srt Debug (within w p) n empty []).
Proof.
  intros HS w w' p n U U' P. assert (C : calm (K := K) empty) by (split; intros i o H; destruct i; discriminate). apply runs_agree; auto.
Qed.
(** ... and so do builds without overflow checks, if nothing panics with them *)
Theorem C66_any_build : sorts srt -> forall m w w' p n g h, (forall i, uncleared (w i)) -> (forall i, uncleared (w' i)) ->
  (forall k g h, k < n -> play srt Debug (within w p) k empty [] = Ok (g, h) -> proper g (p h)) ->
  play srt Debug (within w p) n empty [] = Ok (g, h) -> exists g', play srt m (within w' p) n empty [] = Ok (g', h).
Proof.
  intros HS m w w' p n g h U U' P E. pose proof (C66_programs HS U U' P) as S. rewrite E in S. cbn [seen rmap snd] in S.
  destruct (play srt Debug (within w' p) n empty []) as [[g' h']| |] eqn:E'; try discriminate. cbn [seen rmap snd] in S. injection S as ->. exists g'. apply C65_release_agrees. exact E'.
Qed.
End Fresh.

(** *** the client [demo] (PropsRelease.v): leaves, a product, its gradient. It keeps the conditions; what it sees does
    not depend on whether its memory is full of zeros or of sevens *)
Definition sevens : alloc_oracle Znum := fun n => if ((1 <=? n) && (n <=? 2147483648))%N then Ok (repeat 7%Z (N.to_nat n)) else Panic.
Lemma sevens_exact : al_exact (K := Znum) sevens.
Proof. intros n. unfold sevens. destruct ((1 <=? n) && (n <=? 2147483648))%N; auto. eexists. split; [reflexivity|]. apply repeat_length. Qed.
Definition stale : memory Znum := fun _ => sevens.
Lemma stale_uncleared : uncleared stale. Proof. intros a. apply sevens_exact. Qed.
Lemma insert_ext le le' x l : (forall a b, le a b = le' a b) -> insert le x l = insert le' x l.
Proof. intros H. induction l as [|y l IH]; cbn; auto. rewrite H, IH. reflexivity. Qed.
Lemma isort_ext le le' l : (forall a b, le a b = le' a b) -> isort le l = isort le' l.
Proof. intros H. unfold isort. induction l as [|y l IH]; cbn; auto. rewrite IH. apply insert_ext, H. Qed.
Lemma heaps_by_depth : by_depth fifo_min /\ by_depth lifo_max.
Proof. split; intros d d' l H; apply isort_ext; intros a b; [unfold up|unfold down]; rewrite !H; reflexivity. Qed.
Lemma play_length K srt m (p : client K) n : forall g h g' h', play srt m p n g h = Ok (g', h') -> length h' = n + length h.
Proof.
  induction n as [|n IH]; intros g h g' h' E; cbn [play] in E; [injection E as _ <-; reflexivity|]. apply bind_Ok in E. destruct E as ([g1 r] & _ & E). apply IH in E. rewrite E, app_length. cbn. lia.
Qed.
Definition picks (o : opinfo Znum (oper Znum)) : bool := match o_kind (oi_op o) with KBatchPick _ => true | _ => false end.
Lemma demo_proper : forall k g h, k < 6 -> play no_sort Debug (within (fun _ => stale) demo) k empty [] = Ok (g, h) -> proper g (demo h).
Proof.
  intros k g h L E. pose proof (play_length E) as EL. rewrite Nat.add_0_r in EL. unfold demo. rewrite EL. destruct k as [|[|[|[|[|[|k]]]]]]; try lia; cbn [proper]; try exact I.
  - split; [apply tz_sane; rdy|]. split; [apply tz_sane; rdy|reflexivity].
  - apply tz_sane. rdy.
  - right; right; left; reflexivity.
  - destruct heaps_by_depth, heaps_ok as (_ & _ & _ & HM). split; auto. split; auto. split; auto.
    assert (N : match play no_sort Debug (within (fun _ => stale) demo) 3 empty [] with Ok (g, _) => forallb (fun o => negb (picks o)) (g_ops g) | _ => true end = true) by reflexivity.
    rewrite E in N. rewrite forallb_forall in N. intros i o ids _ Ho EK. apply nth_error_In in Ho. apply N in Ho. unfold picks in Ho. rewrite EK in Ho. discriminate.
Qed.
Lemma no_sort_sorts : sorts no_sort. Proof. intros cmp l. exact I. Qed.
Example C66_applies : outcome (play no_sort Debug (within (fun _ => stale) demo) 6 empty []) = Some [15; 26]%Z /\
  seen (play no_sort Debug (within (fun _ => zero Znum) demo) 6 empty []) = seen (play no_sort Debug (within (fun _ => stale) demo) 6 empty []).
Proof. split; [reflexivity|]. apply C66_programs; auto using no_sort_sorts, stale_uncleared, zero_uncleared. apply demo_proper. Qed.
(** Tensor::alloc shows what was there before *)
Definition peek : client Znum := fun h =>
  match length h with 0 => Tensors (CAlloc alz (new_tensor Znum 0 (t_shape (tz 0 [2%N] 1 [0; 0]%Z)))) | _ => Vec (match last h (Got_nothing Znum) with GotTensors [t] => t | _ => tz 0 [] 1 [] end) end.
Theorem C66_alloc_refuted : exists w w', uncleared w /\ uncleared w' /\
  outcome (play no_sort Debug (within (fun _ => w) peek) 2 empty []) = Some [7; 7]%Z /\ outcome (play no_sort Debug (within (fun _ => w') peek) 2 empty []) = Some [0; 0]%Z.
Proof. exists stale, (zero Znum). split; [apply stale_uncleared|]. split; [apply zero_uncleared|]. split; reflexivity. Qed.
