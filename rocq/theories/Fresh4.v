(** * Fresh4: the contents of new buffers do not matter: operators (lemmas) *)
From Verif Require Export Fresh3 SafeGraph4 RelGraph.
Set Implicit Arguments.
Unset Strict Implicit.

Section Operators.
Variable K : num.
Notation F := (F K).
Notation tensor := (tensor K).
Notation oracle := (alloc_oracle K).
Implicit Types (d : nat) (al : oracle) (x y a b gx gy : tensor).
Notation sanes := (Forall (@sane K)).

Lemma idx_good (xs : list tensor) i : sanes xs -> good (@sane K) (idx xs i).
Proof. intros H. unfold idx. destruct (nth_error xs i) eqn:E; [|exact I]. cbn. rewrite Forall_forall in H. apply H. eapply nth_error_In; eauto. Qed.
Lemma u_idx B (xs : list tensor) i (k k' : tensor -> res B) : sanes xs -> (forall x, sane x -> le_res (k x) (k' x)) -> le_res (bind (idx xs i) k) (bind (idx xs i) k').
Proof. intros H L. eapply u_bind; [apply idx_good; exact H|apply Mode.le_refl|exact L]. Qed.
Lemma u_into r r' (ys : list tensor) : le_res r r' -> le_res (into r ys) (into r' ys).
Proof. apply le_into. Qed.
Lemma u_fw1 f f' (xs ys : list tensor) : sanes xs -> (forall x, sane x -> le_res (f x) (f' x)) -> le_res (fw1 f xs ys) (fw1 f' xs ys).
Proof. intros H L. unfold fw1. apply u_idx; auto. intros x S. apply le_into, L, S. Qed.
Lemma u_fw2 f f' (xs ys : list tensor) : sanes xs -> (forall x y, sane x -> sane y -> le_res (f x y) (f' x y)) -> le_res (fw2 f xs ys) (fw2 f' xs ys).
Proof. intros H L. unfold fw2. apply u_idx; auto. intros x S. apply u_idx; auto. intros y S'. apply le_into, L; auto. Qed.
Lemma u_fw_split fal fal' total sl n (xs ys : list tensor) : sanes xs -> (forall i x l u, sane x -> le_res (sl fal i x l u) (sl fal' i x l u)) -> le_res (fw_split fal total sl n xs ys) (fw_split fal' total sl n xs ys).
Proof. intros H L. unfold fw_split. apply u_idx; auto. intros x S. cbv zeta. apply le_forN. intros. apply le_bind; [apply L, S|intros; apply Mode.le_refl]. Qed.

Local Opaque call_fw call_bw call_u32 fw_registry bw_registry new_alloc alloc.

Lemma alloc_cases x : (forall al, alloc Debug al x = Panic) \/ exists d, x = new_tensor K d (t_shape x).
Proof.
  Local Transparent alloc. unfold alloc, valid. destruct x as [[d|] s [l|] [h|]]; cbn; auto. right. exists d. reflexivity. Local Opaque alloc.
Qed.
Lemma u_alloc_then al al' x (k k' : tensor -> res tensor) : al_exact al -> al_exact al' -> sane x -> (forall y, k y = k' y) ->
  (forall d s y y', fits s -> ready d y -> ready d y' -> t_shape y = s -> t_shape y' = s -> tight y -> tight y' -> le_res (k y) (k y')) ->
  le_res (y <- alloc Debug al x ;; k y) (y <- alloc Debug al' x ;; k' y).
Proof.
  intros HA HA' S EK HK. destruct (alloc_cases x) as [P|(d & ->)]; [rewrite !P; apply Mode.le_refl|]. change (alloc Debug al (new_tensor K d (t_shape x))) with (new_alloc Debug d al (t_shape x)). change (alloc Debug al' (new_tensor K d (t_shape x))) with (new_alloc Debug d al' (t_shape x)).
  assert (E : (y <- new_alloc Debug d al' (t_shape x) ;; k' y) = (y <- new_alloc Debug d al' (t_shape x) ;; k y)) by (apply bind_ext; intros y _; symmetry; apply EK). rewrite E.
  apply u_new_then; auto; [apply (sane_wf S)|]. intros Fs y y' R R' E1 E2. eapply HK; eauto.
Qed.
Lemma u_fresh al al' x k : al_exact al -> al_exact al' -> sane x -> le_res (t <- alloc Debug al x ;; reset Debug t k) (t <- alloc Debug al' x ;; reset Debug t k).
Proof.
  intros HA HA' S. apply u_alloc_then; auto. intros d s y y' Fs R R' E E' T T'. apply (@fills_same K d (fun y => reset Debug y k) (fun _ => k)); auto using len_reset_t; try congruence; eapply reset_updates; eauto.
Qed.
Lemma u_owner al al' y v : al_exact al -> al_exact al' -> sane y -> sane v ->
  le_res (y1 <- alloc Debug al y ;; _ <- device_of y1 ;; reset_tensor_by_tensor Debug y1 v) (y1 <- alloc Debug al' y ;; _ <- device_of y1 ;; reset_tensor_by_tensor Debug y1 v).
Proof.
  intros HA HA' S Sv. apply u_alloc_then; auto. intros d s z z' Fs R R' E E' T T'. apply le_bind; [rewrite (ready_device_of R), (ready_device_of R'); apply Mode.le_refl|intros dv _]. destruct (t_buf v) as [l|] eqn:B.
  - destruct (sane_buf Sv B) as (d' & Rx). intros w EW. assert (TT : tot (t_shape z) = tot (t_shape v)).
    { unfold reset_tensor_by_tensor in EW. rewrite (ready_valid R), (ready_valid Rx) in EW. cbn [assert bind] in EW. rewrite !fits_size in EW by (eapply ready_fits; eauto). cbn [bind] in EW. destruct (N.eqb_spec (N.of_nat (tot (t_shape z))) (N.of_nat (tot (t_shape v)))); [lia|discriminate]. }
    revert w EW. eapply fills_same with (k := fun y => reset_tensor_by_tensor Debug y v); eauto using len_by_tensor; [congruence| |]; eapply by_tensor_updates; eauto; congruence.
  - intros w EW. unfold reset_tensor_by_tensor, valid in EW. rewrite B in EW. apply bind_Ok in EW. destruct EW as (? & _ & EW). discriminate.
Qed.
Ltac rg := reflexivity.
Lemma u_forward_op d fal fal' (k : kind K) xs ys : supplied k -> exacts fal -> exacts fal' -> sanes xs -> sanes ys -> le_res (forward_op Debug d fal k xs ys) (forward_op Debug d fal' k xs ys).
Proof.
  intros HK HA HA' HX HY. pose proof (HA 0) as A0. pose proof (HA' 0) as A0'.
  assert (FX : forall name op, assoc (fw_registry K Debug) name = Some (fx (k_fw_x Debug op)) -> le_res (fw1 (define_fw_x Debug name d (fal 0)) xs ys) (fw1 (define_fw_x Debug name d (fal' 0)) xs ys)) by (intros; simple apply u_fw1; auto; intros; eapply u_fw_x; eauto).
  assert (FC : forall name op k, assoc (fw_registry K Debug) name = Some (fxc (k_fw_const Debug op)) -> le_res (fw1 (fun x => define_fw_const Debug name d (fal 0) x k) xs ys) (fw1 (fun x => define_fw_const Debug name d (fal' 0) x k) xs ys)) by (intros; simple apply u_fw1; auto; intros; eapply u_fw_const; eauto).
  assert (FA : forall name op, assoc (fw_registry K Debug) name = Some (fxx (k_fw_ab op)) -> le_res (fw2 (define_fw_ab Debug name so_elementwise d (fal 0)) xs ys) (fw2 (define_fw_ab Debug name so_elementwise d (fal' 0)) xs ys)) by (intros; simple apply u_fw2; auto; intros; eapply u_fw_ab; eauto).
  assert (FS : forall name op, assoc (fw_registry K Debug) name = Some (fxx (k_fw_scalar op)) -> le_res (fw2 (define_fw_ab Debug name so_scalar_op d (fal 0)) xs ys) (fw2 (define_fw_ab Debug name so_scalar_op d (fal' 0)) xs ys)) by (intros; simple apply u_fw2; auto; intros; eapply u_fw_scalar; eauto).
  Local Transparent fw_registry.
  destruct k; cbn [forward_op supplied] in *; try (simple apply Mode.le_refl).
  - simple apply u_idx; auto. intros y S. intros v E. pose proof (u_owner A0 A0' S HK) as L. apply bind_Ok in E. destruct E as (y1 & E1 & E). apply bind_Ok in E. destruct E as (dv & E2 & E). apply bind_Ok in E. destruct E as (y2 & E3 & E).
    specialize (L y2). rewrite E1 in L. cbn [bind] in L. rewrite E2 in L. cbn [bind] in L. specialize (L E3). apply bind_Ok in L. destruct L as (z1 & L1 & L). apply bind_Ok in L. destruct L as (z2 & L2 & L). rewrite L1. cbn [bind]. rewrite L2. cbn [bind]. rewrite L. exact E.
  - eapply FA; rg.
  - eapply FC; rg.
  - eapply FS; rg.
  - eapply FA; rg.
  - eapply FC; rg.
  - eapply FC; rg.
  - eapply FS; rg.
  - eapply FS; rg.
  - eapply FA; rg.
  - eapply FC; rg.
  - eapply FS; rg.
  - eapply FA; rg.
  - eapply FC; rg.
  - eapply FC; rg.
  - eapply FS; rg.
  - eapply FS; rg.
  - eapply FX; rg.
  - eapply FX; rg.
  - eapply FA; rg.
  - eapply FC; rg.
  - eapply FC; rg.
  - eapply FS; rg.
  - eapply FS; rg.
  - simple apply u_fw1; auto. intros. apply u_powi; auto.
  - eapply FX; rg.
  - eapply FX; rg.
  - eapply FX; rg.
  - eapply FX; rg.
  - eapply FX; rg.
  - eapply FX; rg.
  - eapply FX; rg.
  - eapply FX; rg.
  - eapply FX; rg.
  - simple apply u_fw1; auto. intros. apply u_broadcast; auto.
  - simple apply u_fw1; auto. intros. apply u_logsumexp; auto.
  - simple apply u_fw1; auto. intros. eapply u_extremum; eauto; rg.
  - simple apply u_fw1; auto. intros. eapply u_extremum; eauto; rg.
  - simple apply u_fw1; auto. intros. apply u_sum; auto.
  - simple apply u_fw2; auto. intros. apply u_sce; auto.
  - simple apply u_fw1; auto. intros. apply u_sparse; auto.
  - simple apply u_fw2; auto. intros. apply u_matmul; auto.
  - simple apply u_fw1; auto. intros. apply u_transpose; auto.
  - simple apply u_fw1; auto. intros. apply (@u_triangular K false); auto.
  - simple apply u_fw1; auto. intros. apply (@u_triangular K true); auto.
  - eapply FC; rg.
  - eapply FC; rg.
  - simple apply u_fw1; auto. intros. unfold t_pick. apply u_via. intros. apply u_pick; auto.
  - simple apply u_fw1; auto. intros. apply u_slice; auto.
  - simple apply u_fw_split; auto. intros. apply u_slice; auto.
  - apply le_into. apply u_batch_concat; auto.
  - simple apply u_fw1; auto. intros. unfold t_batch_pick. apply u_via. intros. apply u_batch_pick; auto.
  - simple apply u_fw1; auto. intros. apply u_batch_slice; auto.
  - simple apply u_fw_split; auto. intros. apply u_batch_slice; auto.
  - simple apply u_fw1; auto. intros. apply u_batch_sum; auto.
  - apply le_into. apply u_concat; auto.
  - simple apply u_fw1; auto. intros. apply le_bind; [apply u_copy; auto|]. intros; apply Mode.le_refl.
  Local Opaque fw_registry.
Qed.

(** ** backward *)
Definition u_update (u v : update K) : Prop := fst u = fst v /\ forall t, sane t -> le_res (snd u t) (snd v t).
Definition u_ups (r1 r2 : res (list (update K))) : Prop := forall us, r1 = Ok us -> exists vs, r2 = Ok vs /\ Forall2 u_update us vs.
Lemma u_ups_ok us vs : Forall2 u_update us vs -> u_ups (Ok us) (Ok vs).
Proof. intros H ws E. injection E as <-. eauto. Qed.
Lemma u_ups_refl r : u_ups r r.
Proof. intros us E. exists us. split; auto. clear. induction us; constructor; auto. split; auto. intros; simple apply Mode.le_refl. Qed.
Lemma u_ups_bind A (P : A -> Prop) (r1 r2 : res A) k1 k2 : good P r1 -> le_res r1 r2 -> (forall a : A, P a -> u_ups (k1 a) (k2 a)) -> u_ups (bind r1 k1) (bind r2 k2).
Proof. intros G H1 H2 us E. apply bind_Ok in E. destruct E as (a & E1 & E). rewrite (H1 _ E1). cbn [bind]. rewrite E1 in G. simple apply (H2 a G _ E). Qed.
Lemma u_ups_idx (xs : list tensor) i k1 k2 : sanes xs -> (forall a, sane a -> u_ups (k1 a) (k2 a)) -> u_ups (bind (idx xs i) k1) (bind (idx xs i) k2).
Proof. intros H L. eapply u_ups_bind; [apply idx_good; exact H|apply Mode.le_refl|exact L]. Qed.
Lemma u_ups_1 t f1 f2 : (forall gx, sane gx -> le_res (f1 gx) (f2 gx)) -> u_ups (Ok [(t, f1)]) (Ok [(t, f2)]).
Proof. intros H. apply u_ups_ok. constructor; [split; auto|constructor]. Qed.
Lemma u_ups_2 t t' f1 f2 h1 h2 : (forall gx, sane gx -> le_res (f1 gx) (f2 gx)) -> (forall gx, sane gx -> le_res (h1 gx) (h2 gx)) -> u_ups (Ok [(t, f1); (t', h1)]) (Ok [(t, f2); (t', h2)]).
Proof. intros H H'. apply u_ups_ok. constructor; [split; auto|]. constructor; [split; auto|constructor]. Qed.
Lemma u_bwx f1 f2 (xs ys gys : list tensor) : sanes xs -> sanes ys -> sanes gys -> (forall x y gy gx, sane x -> sane y -> sane gy -> sane gx -> le_res (f1 x y gy gx) (f2 x y gy gx)) -> u_ups (bw_x f1 xs ys gys) (bw_x f2 xs ys gys).
Proof. intros HX HY HG H. unfold bw_x. do 3 (simple apply u_ups_idx; auto; intros). apply u_ups_1. auto. Qed.
Lemma u_bwab f1 f2 h1 h2 (xs ys gys : list tensor) : sanes xs -> sanes ys -> sanes gys -> (forall a b y gy gx, sane a -> sane b -> sane y -> sane gy -> sane gx -> le_res (f1 a b y gy gx) (f2 a b y gy gx)) ->
  (forall a b y gy gx, sane a -> sane b -> sane y -> sane gy -> sane gx -> le_res (h1 a b y gy gx) (h2 a b y gy gx)) -> u_ups (bw_ab f1 h1 xs ys gys) (bw_ab f2 h2 xs ys gys).
Proof. intros HX HY HG H1 H2. unfold bw_ab. do 4 (simple apply u_ups_idx; auto; intros). apply u_ups_2; auto. Qed.
Lemma u_bwscalar p1 p2 f1 f2 h1 h2 (xs ys gys : list tensor) : sanes xs -> sanes ys -> sanes gys -> (forall x k y gy, sane x -> sane k -> sane y -> sane gy -> good (@sane K) (p1 x k y gy) /\ le_res (p1 x k y gy) (p2 x k y gy)) ->
  (forall a b y gy gx, sane a -> sane b -> sane y -> sane gy -> sane gx -> le_res (f1 a b y gy gx) (f2 a b y gy gx)) -> (forall a b y gy gx, sane a -> sane b -> sane y -> sane gy -> sane gx -> le_res (h1 a b y gy gx) (h2 a b y gy gx)) ->
  u_ups (bw_scalar p1 f1 h1 xs ys gys) (bw_scalar p2 f2 h2 xs ys gys).
Proof. intros HX HY HG H0 H1 H2. unfold bw_scalar. do 4 (simple apply u_ups_idx; auto; intros). eapply u_ups_bind; [apply H0; auto|apply H0; auto|]. intros. apply u_ups_2; auto. Qed.
Lemma u_bwgy f1 f2 (gys : list tensor) : sanes gys -> (forall gy gx, sane gy -> sane gx -> le_res (f1 gy gx) (f2 gy gx)) -> u_ups (bw_gy f1 gys) (bw_gy f2 gys).
Proof. intros HG H. unfold bw_gy. simple apply u_ups_idx; auto; intros. apply u_ups_1. auto. Qed.
Lemma u_plus e1 e2 (gx : tensor) : le_res e1 e2 -> le_res (plus Debug e1 gx) (plus Debug e2 gx).
Proof. intros H. unfold plus. simple apply le_bind; [exact H|intros; simple apply Mode.le_refl]. Qed.
Lemma u_minus e1 e2 (gx : tensor) : le_res e1 e2 -> le_res (minus Debug e1 gx) (minus Debug e2 gx).
Proof. intros H. unfold minus. simple apply le_bind; [exact H|intros; simple apply Mode.le_refl]. Qed.
Local Transparent fw_registry.
Lemma u_t_sum al al' x dim : al_exact al -> al_exact al' -> sane x -> le_res (t_sum Debug al x dim) (t_sum Debug al' x dim).
Proof. intros. apply u_via. intros. apply u_sum; auto. Qed.
Lemma u_t_broadcast al al' x dim n : al_exact al -> al_exact al' -> sane x -> le_res (t_broadcast Debug al x dim n) (t_broadcast Debug al' x dim n).
Proof. intros. apply u_via. intros. apply u_broadcast; auto. Qed.
Lemma u_t_exp al al' x : al_exact al -> al_exact al' -> sane x -> le_res (t_exp Debug al x) (t_exp Debug al' x).
Proof. intros. apply u_via. intros. eapply u_fw_x; eauto; reflexivity. Qed.
Lemma u_t_ln al al' x : al_exact al -> al_exact al' -> sane x -> le_res (t_ln Debug al x) (t_ln Debug al' x).
Proof. intros. apply u_via. intros. eapply u_fw_x; eauto; reflexivity. Qed.
Lemma gs_sum al x dim : al_exact al -> sane x -> good (@sane K) (t_sum Debug al x dim).
Proof. intros. apply Safe3.via_dev; intros; apply g_sum; auto. Qed.
Lemma gs_broadcast al x dim n : al_exact al -> sane x -> good (@sane K) (t_broadcast Debug al x dim n).
Proof. intros. apply Safe3.via_dev; intros; apply g_broadcast; auto. Qed.
Lemma gs_exp al x : al_exact al -> sane x -> good (@sane K) (t_exp Debug al x).
Proof. intros. apply Safe3.via_dev; intros. eapply g_fw_x; eauto; reflexivity. Qed.
Lemma gs_ln al x : al_exact al -> sane x -> good (@sane K) (t_ln Debug al x).
Proof. intros. apply Safe3.via_dev; intros. eapply g_fw_x; eauto; reflexivity. Qed.
Lemma gs_sigmoid d al x : al_exact al -> sane x -> good (@sane K) (sigmoid_fw Debug d al x).
Proof. intros. eapply g_fw_x; eauto; reflexivity. Qed.
Lemma u_sigmoid d al al' x : al_exact al -> al_exact al' -> sane x -> le_res (sigmoid_fw Debug d al x) (sigmoid_fw Debug d al' x).
Proof. intros. eapply u_fw_x; eauto; reflexivity. Qed.
Local Opaque fw_registry.
Lemma u_flat_sum al0 al1 al0' al1' x : al_exact al0 -> al_exact al1 -> al_exact al0' -> al_exact al1' -> sane x -> le_res (flat_sum Debug al0 al1 x) (flat_sum Debug al0' al1' x).
Proof. intros. unfold flat_sum. eapply u_bind; [apply g_flatten; auto|apply u_flatten; auto|]. intros f Sf. apply u_t_sum; auto. Qed.
Lemma u_concat_ups bal bal' sl span gy xs : (forall i l u, le_res (sl (bal i) gy l u) (sl (bal' i) gy l u)) -> forall i off, Forall2 u_update (concat_ups Debug bal sl span gy i off xs) (concat_ups Debug bal' sl span gy i off xs).
Proof.
  intros H. induction xs as [|x xs IH]; intros i off; cbn [concat_ups]; [constructor|]. constructor; [|apply IH]. split; [reflexivity|]. intros gx S. cbn [snd]. simple apply le_bind; [simple apply Mode.le_refl|intros; apply u_plus, H].
Qed.
Lemma u_bwconcat bal bal' sl span (xs gys : list tensor) : sanes gys -> (forall i gy l u, sane gy -> le_res (sl (bal i) gy l u) (sl (bal' i) gy l u)) -> u_ups (bw_concat Debug bal sl span xs gys) (bw_concat Debug bal' sl span xs gys).
Proof. intros HG H. unfold bw_concat. destruct xs; [apply u_ups_refl|]. simple apply u_ups_idx; auto. intros gy S. apply u_ups_ok. apply u_concat_ups. intros. apply H, S. Qed.
Ltac ust := first [simple apply Mode.le_refl
  |simple apply u_t_add; solve [auto]|simple apply u_t_sub; solve [auto]|simple apply u_t_mul; solve [auto]|simple apply u_t_div; solve [auto]|simple apply u_t_neg; solve [auto]|simple apply u_t_sum; solve [auto]|simple apply u_t_broadcast; solve [auto]|simple apply u_t_exp; solve [auto]|simple apply u_t_ln; solve [auto]
  |simple apply u_sigmoid; solve [auto]|simple apply u_flat_sum; solve [auto]|simple apply u_ln_softmax; solve [auto]|simple apply u_softmax; solve [auto]|simple apply u_copy; solve [auto]].
Ltac gst := first [simple apply g_t_add; solve [auto]|simple apply g_t_sub; solve [auto]|simple apply g_t_mul; solve [auto]|simple apply g_t_div; solve [auto]|simple apply g_t_neg; solve [auto]|simple apply gs_sum; solve [auto]|simple apply gs_broadcast; solve [auto]|simple apply gs_exp; solve [auto]|simple apply gs_ln; solve [auto]
  |simple apply gs_sigmoid; solve [auto]|simple apply g_ln_softmax; solve [auto]|simple apply g_softmax; solve [auto]|simple apply g_copy; solve [auto]].
Ltac ut := first [ust | match goal with |- le_res (bind _ _) _ => eapply u_bind; [gst|ust|intros ? ?; ut] end].
Lemma u_backward_op d bal bal' (k : kind K) xs ys gys : supplied k -> exacts bal -> exacts bal' -> sanes xs -> sanes ys -> sanes gys -> u_ups (backward_op Debug d bal k xs ys gys) (backward_op Debug d bal' k xs ys gys).
Proof.
  intros HK HA HA' HX HY HG. assert (HL : forall i, al_exact (bal i)) by exact HA. assert (HL' : forall i, al_exact (bal' i)) by exact HA'. assert (HO : forall i, al_ok (bal i)) by (intros; apply exact_ok; auto).
  assert (SELF : forall x, sane x -> good (@sane K) (Ok x)) by (intros; exact H).
  destruct k; cbn [backward_op supplied] in *; try (simple apply u_ups_refl).
  all: try (simple apply u_bwscalar; auto; intros; [split; [first [apply SELF; assumption|gst]|ust]|first [simple apply u_plus|simple apply u_minus]; ut|first [simple apply u_plus|simple apply u_minus]; ut]).
  - (* softplus *) simple apply u_bwx; auto. intros. simple apply u_plus. ut.
  - (* broadcast *) simple apply u_bwgy; auto. intros. simple apply u_plus. ut.
  - (* logsumexp *) simple apply u_ups_idx; auto. intros x0 S0. eapply u_ups_bind; [apply good_idx|simple apply Mode.le_refl|intros n _]. simple apply u_bwx; auto. intros. simple apply u_plus. ut.
  - (* sum *) simple apply u_ups_idx; auto. intros x0 S0. eapply u_ups_bind; [apply good_idx|simple apply Mode.le_refl|intros n _]. simple apply u_bwgy; auto. intros. simple apply u_plus. ut.
  - (* cross entropy *) simple apply u_ups_idx; auto. intros x S. eapply u_ups_bind; [gst|ust|intros ls Sl]. simple apply u_ups_idx; auto. intros gy Sg. eapply u_ups_bind; [gst|ust|intros gb Sb]. simple apply u_ups_idx; auto. intros t St.
    simple apply u_ups_2; intros gx Sx; [simple apply u_plus; ut|simple apply u_minus; ut].
  - (* sparse *) simple apply u_ups_idx; auto. intros x S. simple apply u_ups_idx; auto. intros gy Sg. simple apply u_ups_2; intros gx Sx; [simple apply u_plus; ut|]. simple apply le_bind; [simple apply Mode.le_refl|intros dv _]. simple apply le_bind; [ut|intros; simple apply Mode.le_refl].
  - simple apply u_bwab; auto; intros; [apply u_matmul_bw_a; auto|apply u_matmul_bw_b; auto]; intros i; auto.
  - simple apply u_bwx; auto. intros. apply u_transpose_bw; auto.
  - simple apply u_bwx; auto. intros. apply (@u_triangular_bw K bal bal') with (upper := false); auto.
  - simple apply u_bwx; auto. intros. apply (@u_triangular_bw K bal bal') with (upper := true); auto.
  - simple apply u_bwconcat; auto. intros. apply u_via. intros. apply u_batch_slice; auto.
  - simple apply u_bwconcat; auto. intros. apply u_via. intros. apply u_slice; auto.
  - (* reshape *) simple apply u_bwgy; auto. intros. simple apply u_plus. simple apply le_bind; [ut|intros; simple apply Mode.le_refl].
Qed.
End Operators.
