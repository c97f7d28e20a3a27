(** * Fresh6: the contents of new buffers do not matter: functions on nodes, random tensors (lemmas)

    No code of the crate is modelled here. *)
From Verif Require Export Fresh5 Init.
Set Implicit Arguments.
Unset Strict Implicit.

Section Follow.
Variable K : num.
Notation F := (F K).
Notation tensor := (tensor K).
Notation oracle := (alloc_oracle K).
Notation graph := (graph K (oper K)).
Notation node := (nat * nat)%type.
Notation itp := (@interp K Debug).
Implicit Types (g : graph) (n : node).

Definition calm g : Prop := ginv g /\ gexact g.
Definition ep X (p : graph * X) : graph * X := (erase (fst p), snd p).
(** [r'] is [r] with the memory of all operators replaced by zeros, and [r] keeps the graph in order *)
Definition follows X (r r' : res (graph * X)) : Prop := r' = rmap (@ep X) r /\ forall p, r = Ok p -> calm (fst p).
Lemma follows_bind X Y (r r' : res (graph * X)) (k k' : graph * X -> res (graph * Y)) : follows r r' -> (forall g x, calm g -> follows (k (g, x)) (k' (erase g, x))) -> follows (bind r k) (bind r' k').
Proof.
  intros (-> & C) H. destruct r as [[g x]| |]; cbn [bind rmap]; [|split; [reflexivity|discriminate]..]. exact (H g x (C _ eq_refl)).
Qed.
Lemma follows_look X Y (r r' : res X) (k k' : X -> res (graph * Y)) : r' = r -> (forall x, r = Ok x -> follows (k x) (k' x)) -> follows (bind r k) (bind r' k').
Proof. intros -> H. destruct r as [x| |]; cbn [bind]; [apply H; auto|split; [reflexivity|discriminate]..]. Qed.
Lemma follows_Ok X g (x : X) : calm g -> follows (Ok (g, x)) (Ok (erase g, x)).
Proof. intros C. split; [reflexivity|]. intros p E. injection E as <-. exact C. Qed.
Lemma follows_Panic X : follows (X := X) Panic Panic. Proof. split; [reflexivity|discriminate]. Qed.

Definition exact_bufs (bs : buffers K) : Prop := exacts (fst bs) /\ exacts (snd bs).
Definition zbufs : buffers K := (@zals K, @zals K).
Lemma follows_create g op own xs : calm g -> exacts (o_fal op) -> exacts (o_bal op) -> supplied (o_kind op) ->
  (scalar_kind (o_kind op) = true -> forall n v, nth_error xs 1 = Some n -> value_of g n = Ok v -> is_scalar (t_shape v) = true) ->
  (forall t, own = Some t -> sane t /\ exists v, o_kind op = KParameter v /\ t_shape t = t_shape v) ->
  follows (create itp g op own xs) (create itp (erase g) (erase_op op) own xs).
Proof.
  intros (G & X) H1 H2 HS HC HO. split; [apply erase_create|]. intros (g' & ns) E. cbn [fst]. split; [|eapply create_exact; eauto].
  eapply create_ginv; [exact G| |exact E]. apply well_fit. constructor; [exact HS| | |exact HO].
  - intros i. split; apply exact_ok; [apply H1|apply H2].
  - destruct (o_kind op); auto; apply HC; reflexivity.
Qed.
Lemma follows_pop1 r r' : follows r r' -> follows (pop1 (K := K) r) (pop1 r').
Proof. intros H. apply follows_bind; [exact H|]. intros g ns C. apply follows_look; [reflexivity|]. intros n _. apply follows_Ok, C. Qed.
Lemma follows_n_create g bs k x args : calm g -> exact_bufs bs -> supplied k -> (scalar_kind k = true -> forall n v, nth_error args 1 = Some n -> value_of g n = Ok v -> is_scalar (t_shape v) = true) ->
  follows (n_create Debug g bs k x args) (n_create Debug (erase g) zbufs k x args).
Proof.
  intros C (B1 & B2) HS HC. apply follows_look; [apply erase_device|]. intros d _. apply (@follows_create g (mkOper k d (fst bs) (snd bs))); auto. discriminate.
Qed.
Lemma follows_op1 k g bs x : calm g -> exact_bufs bs -> supplied k -> scalar_kind k = false -> follows (n_op1 Debug k g bs x) (n_op1 Debug k (erase g) zbufs x).
Proof. intros C B HS HC. apply follows_pop1, follows_n_create; auto. congruence. Qed.
Definition arithmetic (k kl kr : kind K) : Prop := In (k, kl, kr) [(KAdd, KAddScalar, KAddScalar); (KSub, KSubScalarL, KSubScalarR); (KMul, KMulScalar, KMulScalar); (KDiv, KDivScalarL, KDivScalarR); (KPow, KPowScalarL, KPowScalarR)].
Lemma follows_op2 k kl kr g bs a b : calm g -> exact_bufs bs -> arithmetic k kl kr -> follows (n_op2 Debug k kl kr g bs a b) (n_op2 Debug k kl kr (erase g) zbufs a b).
Proof.
  intros C B HK. assert (HS : supplied k /\ supplied kl /\ supplied kr /\ scalar_kind k = false) by (unfold arithmetic in HK; cbn [In] in HK; repeat (destruct HK as [HK|HK]; [injection HK as <- <- <-; cbn; auto|]); destruct HK).
  destruct HS as (S1 & S2 & S3 & S4). unfold n_op2. apply follows_look; [apply erase_value|]. intros va Ea. destruct (is_scalar (t_shape va)) eqn:Sa.
  - apply follows_pop1, follows_n_create; auto. intros _ q v Hq Hv. cbn in Hq. injection Hq as <-. congruence.
  - apply follows_look; [apply erase_value|]. intros vb Eb. destruct (is_scalar (t_shape vb)) eqn:Sb; apply follows_pop1, follows_n_create; auto; try congruence. intros _ q v Hq Hv. cbn in Hq. injection Hq as <-. congruence.
Qed.
Lemma follows_concat dim g bs xs : calm g -> exact_bufs bs -> follows (n_concat Debug dim g bs xs) (n_concat Debug dim (erase g) zbufs xs).
Proof. intros C B. do 2 (apply follows_look; [reflexivity|intros ? _]). apply follows_pop1, follows_n_create; auto; try exact I; discriminate. Qed.
Lemma follows_batch_concat g bs xs : calm g -> exact_bufs bs -> follows (n_batch_concat Debug g bs xs) (n_batch_concat Debug (erase g) zbufs xs).
Proof. intros C B. do 2 (apply follows_look; [reflexivity|intros ? _]). apply follows_pop1, follows_n_create; auto; try exact I; discriminate. Qed.
Lemma follows_flatten g bs x : calm g -> exact_bufs bs -> follows (n_flatten Debug g bs x) (n_flatten Debug (erase g) zbufs x).
Proof.
  intros C B. apply follows_look; [apply erase_value|]. intros v Ev. apply follows_look; [reflexivity|]. intros s Es. pose proof (value_sane x (proj1 C)) as V. rewrite Ev in V. destruct V as (V & _).
  apply shape_new_iff in Es; [|apply (wf_batch (sane_wf V))]. destruct Es as (_ & _ & W & _). apply follows_op1; auto.
Qed.
Definition zmany : nat -> buffers K := fun _ => zbufs.
Lemma follows_ln_softmax dim g bss x : calm g -> (forall j, exact_bufs (bss j)) -> follows (n_ln_softmax Debug dim g bss x) (n_ln_softmax Debug dim (erase g) zmany x).
Proof.
  intros C B. apply follows_bind; [apply follows_op1; auto; try exact I; reflexivity|]. intros g1 l C1. apply follows_look; [apply erase_value|]. intros v _. apply follows_bind; [apply follows_op1; auto; try exact I; reflexivity|]. intros g2 b C2.
  apply follows_op2; auto. right; left; reflexivity.
Qed.
Lemma follows_softmax dim g bss x : calm g -> (forall j, exact_bufs (bss j)) -> follows (n_softmax Debug dim g bss x) (n_softmax Debug dim (erase g) zmany x).
Proof. intros C B. apply follows_bind; [apply follows_ln_softmax; auto|]. intros g1 l C1. apply follows_op1; auto; try exact I; reflexivity. Qed.
Lemma follows_leaf g bs k own : calm g -> exact_bufs bs -> supplied k -> scalar_kind k = false -> (forall t, own = Some t -> sane t /\ exists v, k = KParameter v /\ t_shape t = t_shape v) -> follows (leaf Debug g bs k own) (leaf Debug (erase g) zbufs k own).
Proof. intros C (B1 & B2) HS HC HO. apply follows_pop1. apply (@follows_create g (mkOper k 0 (fst bs) (snd bs))); auto. cbn. congruence. Qed.
Lemma follows_backward gal popf popb g n : calm g -> grads_exact gal -> max_heap popb -> by_depth popf -> by_depth popb -> no_batch_pick g (fst n) -> forall X (x : X),
  follows (g' <- node_backward Debug itp gal popf popb g n ;; Ok (g', x)) (g' <- node_backward Debug itp (@zgal K) popf popb (erase g) n ;; Ok (g', x)).
Proof.
  intros (G & XX) HA HM H1 H2 HB X x. rewrite (erase_node_backward (gal := gal)) by auto.
  assert (KA : good (fun g' => calm g') (node_backward Debug itp gal popf popb g n)).
  { unfold node_backward. destruct (node_forward itp popf g n) as [g1 r] eqn:E. destruct (forward_session G E) as (G1 & A1 & NU). destruct r as [u| |]; [|exact I|congruence].
    eapply good_weaken; [apply backward_session; [apply grads_fair; exact HA|auto|auto|]|].
    - intros i o ids Hi Ho. destruct (Forall2_at A1 Ho) as (o0 & Ho0 & L & _). rewrite L. eapply HB; [|exact Ho0]. eapply uses_alike; eauto.
    - intros g2 (G2 & A2). split; auto. eapply alike_exact; [|exact A2]. eapply alike_exact; eauto. }
  destruct (node_backward Debug itp gal popf popb g n) as [g'| |]; cbn [rmap bind]; [|split; [reflexivity|discriminate]..]. apply follows_Ok. exact KA.
Qed.
Lemma calm_forward pop g n : calm g -> calm (fst (node_forward itp pop g n)).
Proof. intros (G & X). destruct (node_forward itp pop g n) as [g' r] eqn:E. destruct (forward_session G E) as (G1 & A1 & _). split; auto. eapply alike_exact; eauto. Qed.

(** *** random tensors *)
Lemma len_random dr (y : tensor) : lenk (k_random Debug dr y) y.
Proof. unfold k_random. lk. Qed.
Lemma new_alloc_either d (al : oracle) s : al_exact al -> wf s -> (fits s /\ exists l, new_alloc Debug d al s = Ok (mkTensor (Some d) s (Some l) None) /\ length l = tot s) \/ (~ fits s /\ new_alloc Debug d al s = Panic).
Proof.
  intros HA W. pose proof (good_new_alloc Debug d s (exact_ok HA)) as G. destruct (new_alloc Debug d al s) as [y| |] eqn:E; [|right; split; auto|destruct G].
  - left. pose proof (new_alloc_fits (exact_ok HA) W E) as Fs. split; auto. destruct (@new_alloc_Ok K Debug d al s (exact_ok HA) Fs) as (l & E' & L). rewrite E' in E. injection E as <-. exists l. split; auto. destruct (alloc_exact HA W E') as (_ & T). exact T.
  - intros Fs. destruct (@new_alloc_Ok K Debug d al s (exact_ok HA) Fs) as (l & E' & L). congruence.
Qed.
Lemma random_eq d (al al' : oracle) s dr : al_exact al -> al_exact al' -> wf s -> (y <- new_alloc Debug d al s ;; k_random Debug dr y) = (y <- new_alloc Debug d al' s ;; k_random Debug dr y).
Proof.
  intros HA HA' W. destruct (new_alloc_either d HA W) as [(Fs & l & E & L)|(NF & ->)]; destruct (new_alloc_either d HA' W) as [(Fs' & l' & E' & L')|(NF' & E')]; try contradiction; [|rewrite E'; reflexivity].
  rewrite E, E'. cbn [bind]. pose proof (@new_ready K d s _ Fs (Nat.eq_le_incl _ _ (eq_sym L))) as R. pose proof (@new_ready K d s _ Fs (Nat.eq_le_incl _ _ (eq_sym L'))) as R'.
  set (y := mkTensor (Some d) s (Some l) None) in *. set (y' := mkTensor (Some d) s (Some l') None) in *.
  destruct dr as [f| |].
  - assert (T : tight y) by exact L. assert (T' : tight y') by exact L'. pose proof (k_random_updates Debug f R) as U. pose proof (k_random_updates Debug f R') as U'. destruct (updates_flat R U) as (z & Ez & _).
    rewrite Ez. symmetry. apply (@fills_same K d (k_random Debug (Ok f)) f y y'); auto using len_random.
  - rewrite (k_random_Panic Debug R), (k_random_Panic Debug R'). reflexivity.
  - unfold k_random. cbn [y y' ptr t_buf unwrap bind t_shape]. rewrite (fits_size Debug Fs). cbn [bind]. rewrite Nat2N.id, L, L', Nat.leb_refl. reflexivity.
Qed.
Lemma random_sane d (al : oracle) s dr : al_exact al -> wf s -> oks (@sane K) (y <- new_alloc Debug d al s ;; k_random Debug dr y).
Proof.
  intros HA W v E. destruct (new_alloc_either d HA W) as [(Fs & _)|(_ & E')]; [|rewrite E' in E; discriminate].
  destruct dr as [f| |].
  - destruct (@random_flat K Debug d al s f (exact_ok HA) Fs) as (z & Ez & Rz & _). rewrite Ez in E. injection E as <-. eapply ready_sane; eauto.
  - rewrite (random_Panic Debug d (exact_ok HA) Fs) in E. discriminate.
  - apply bind_Ok in E. destruct E as (y & _ & E). unfold k_random in E. repeat (apply bind_Ok in E; destruct E as (? & ? & E)). discriminate.
Qed.
End Follow.
