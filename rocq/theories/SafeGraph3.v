(** * SafeGraph3: every operator is safe, forward and backward (lemmas) *)
From Verif Require Export SafeGraph2.
Set Implicit Arguments.
Unset Strict Implicit.

Section Operators.
Variable K : num.
Notation F := (F K).
Notation tensor := (tensor K).
Notation nat32 x := (N.to_nat x).
Implicit Types (d : nat) (al : alloc_oracle K) (x y a b t gx gy : tensor) (xs ys gys : list tensor).
Local Opaque call_fw call_bw call_u32 fw_registry bw_registry new_alloc alloc.

(** ** What the user supplies when creating an operator *)
Definition supplied (k : kind K) : Prop :=
  match k with
  | KInput v | KInputOwner v | KParameter v => sane v
  | KPowi k => (-2147483648 <= k <= 2147483647)%Z
  | KPick ids _ | KSparseSoftmaxCrossEntropy ids _ | KBatchPick ids => (N.of_nat (length ids) < two32)%N
  | KReshape s => wf s
  | _ => True
  end.

(** ** forward *)
Lemma g_take y t : sane y -> sane t -> good (@sane K) (take_buf y t).
Proof.
  intros (W & Hy) (W' & Ht). unfold take_buf. eapply good_and with (P := anything); [gp|]. intros z E _. apply bind_Ok in E. destruct E as (u1 & E1 & E). apply bind_Ok in E. destruct E as (u2 & E2 & E).
  apply bind_Ok in E. destruct E as (u3 & E3 & E). apply bind_Ok in E. destruct E as (u4 & E4 & E). inversion E; subst z. clear E. split; [exact W|]. cbn [t_buf t_host t_shape t_dev]. intros l El.
  destruct (Ht l El) as (H1 & H2 & H3 & H4). apply Safe2.eqb_eq in E3. rewrite E3. destruct (t_host y); [discriminate|]. split; auto. split; auto. split; auto.
  destruct (t_dev y); [discriminate|]. destruct (t_dev t); [discriminate|]. exact H4.
Qed.
Lemma idx_sane xs i : Forall (@sane K) xs -> good (@sane K) (idx xs i).
Proof. intros H. unfold idx. destruct (nth_error xs i) eqn:E; cbn; auto. rewrite Forall_forall in H. apply H. eapply nth_error_In; eauto. Qed.
Lemma g_into r ys : good (@sane K) r -> Forall (@sane K) ys -> good (Forall (@sane K)) (into r ys).
Proof.
  intros Hr Hy. unfold into. eapply good_bind; [exact Hr|]. intros t _ St. eapply good_bind; [apply idx_sane; exact Hy|]. intros y _ Sy.
  eapply good_bind; [apply g_take; eauto|]. intros z _ Sz. cbn. apply Forall_lset; auto.
Qed.
Lemma g_fw1 f xs ys : (forall x, sane x -> good (@sane K) (f x)) -> Forall (@sane K) xs -> Forall (@sane K) ys -> good (Forall (@sane K)) (fw1 f xs ys).
Proof. intros Hf Hx Hy. unfold fw1. eapply good_bind; [apply idx_sane; exact Hx|]. intros x _ Sx. apply g_into; auto. Qed.
Lemma g_fw2 f xs ys : (forall a b, sane a -> sane b -> good (@sane K) (f a b)) -> Forall (@sane K) xs -> Forall (@sane K) ys -> good (Forall (@sane K)) (fw2 f xs ys).
Proof. intros Hf Hx Hy. unfold fw2. eapply good_bind; [apply idx_sane; exact Hx|]. intros a _ Sa. eapply good_bind; [apply idx_sane; exact Hx|]. intros b _ Sb. apply g_into; auto. Qed.
Lemma g_fw_split fal tot sl n xs ys : (forall i x l u, sane x -> good (@sane K) (sl fal i x l u)) -> Forall (@sane K) xs -> Forall (@sane K) ys -> good (Forall (@sane K)) (fw_split fal tot sl n xs ys).
Proof.
  intros Hf Hx Hy. unfold fw_split. eapply good_bind; [apply idx_sane; exact Hx|]. intros x _ Sx. apply good_forN; [|exact Hy]. intros i zs _ Hz.
  eapply good_bind; [apply Hf; exact Sx|]. intros t _ St. eapply good_bind; [apply idx_sane; exact Hz|]. intros y _ Sy. eapply good_bind; [apply g_take; eauto|]. intros z _ Sz. cbn. apply Forall_lset; auto.
Qed.
Local Transparent fw_registry.
Ltac xfw := first [ simple apply g_fw1; [intros ? ?|assumption|assumption] | simple apply g_fw2; [intros ? ? ? ?|assumption|assumption] ].
Theorem forward_good (k : kind K) dev fal xs ys : supplied k -> (forall i, al_ok (fal i)) -> Forall (@sane K) xs -> Forall (@sane K) ys ->
  good (Forall (@sane K)) (forward_op Debug dev fal k xs ys).
Proof.
  intros HS HA Hx Hy. destruct k; cbn [forward_op supplied] in *.
  (* leaves *)
  - eapply good_bind; [apply idx_sane; exact Hy|]. intros y _ Sy. eapply good_bind; [apply g_take; eauto|]. intros z _ Sz. cbn. apply Forall_lset; auto.
  - eapply good_bind; [apply idx_sane; exact Hy|]. intros y _ Sy. eapply good_bind; [apply g_alloc; eauto|]. intros y1 _ S1. eapply good_bind; [apply good_dev|]. intros _ _ _.
    eapply good_bind; [apply g_by_tensor; eauto|]. intros z _ Sz. cbn. apply Forall_lset; auto.
  - eapply good_bind; [apply idx_sane; exact Hy|]. intros y _ Sy. eapply good_bind; [apply g_take; eauto|]. intros z _ Sz. cbn. apply Forall_lset; auto.
  (* arithmetic *)
  - xfw. eapply g_fw_ab; eauto; reflexivity.
  - xfw. eapply g_fw_const; eauto; reflexivity.
  - xfw. eapply g_fw_scalar; eauto; reflexivity.
  - xfw. eapply g_fw_ab; eauto; reflexivity.
  - xfw. eapply g_fw_const; eauto; reflexivity.
  - xfw. eapply g_fw_const; eauto; reflexivity.
  - xfw. eapply g_fw_scalar; eauto; reflexivity.
  - xfw. eapply g_fw_scalar; eauto; reflexivity.
  - xfw. eapply g_fw_ab; eauto; reflexivity.
  - xfw. eapply g_fw_const; eauto; reflexivity.
  - xfw. eapply g_fw_scalar; eauto; reflexivity.
  - xfw. eapply g_fw_ab; eauto; reflexivity.
  - xfw. eapply g_fw_const; eauto; reflexivity.
  - xfw. eapply g_fw_const; eauto; reflexivity.
  - xfw. eapply g_fw_scalar; eauto; reflexivity.
  - xfw. eapply g_fw_scalar; eauto; reflexivity.
  - xfw. eapply g_fw_x; eauto; reflexivity.
  - xfw. eapply g_fw_x; eauto; reflexivity.
  - xfw. eapply g_fw_ab; eauto; reflexivity.
  - xfw. eapply g_fw_const; eauto; reflexivity.
  - xfw. eapply g_fw_const; eauto; reflexivity.
  - xfw. eapply g_fw_scalar; eauto; reflexivity.
  - xfw. eapply g_fw_scalar; eauto; reflexivity.
  - xfw. apply g_powi; auto.
  - xfw. eapply g_fw_x; eauto; reflexivity.
  - xfw. eapply g_fw_x; eauto; reflexivity.
  - xfw. eapply g_fw_x; eauto; reflexivity.
  - xfw. eapply g_fw_x; eauto; reflexivity.
  - xfw. eapply g_fw_x; eauto; reflexivity.
  - xfw. eapply g_fw_x; eauto; reflexivity.
  - xfw. eapply g_fw_x; eauto; reflexivity.
  - xfw. eapply g_fw_x; eauto; reflexivity.
  - xfw. eapply g_fw_x; eauto; reflexivity.
  - xfw. apply g_broadcast; auto.
  - xfw. apply g_logsumexp; auto.
  - xfw. eapply g_extremum; eauto; reflexivity.
  - xfw. eapply g_extremum; eauto; reflexivity.
  - xfw. apply g_sum; auto.
  - xfw. apply g_sce; auto.
  - xfw. apply g_sparse_sce; auto.
  - xfw. apply g_matmul; auto.
  - xfw. apply g_transpose; auto.
  - xfw. apply (@g_triangular K false); auto.
  - xfw. apply (@g_triangular K true); auto.
  - xfw. eapply g_fw_const; eauto; reflexivity.
  - xfw. eapply g_fw_const; eauto; reflexivity.
  - xfw. unfold t_pick. apply Safe3.via_dev. intros. apply g_pick; auto.
  - xfw. apply g_slice; auto.
  - apply g_fw_split; auto. intros. apply g_slice; auto.
  - apply g_into; auto. apply g_batch_concat; auto.
  - xfw. unfold t_batch_pick. apply Safe3.via_dev. intros. apply g_batch_pick; auto.
  - xfw. apply g_batch_slice; auto.
  - apply g_fw_split; auto. intros. apply g_batch_slice; auto.
  - xfw. apply g_batch_sum; auto.
  - apply g_into; auto. apply g_concat; auto.
  - xfw. eapply good_bind; [apply g_copy; auto|]. intros t _ St. apply g_update_shape; auto.
Qed.

(** ** backward *)
(** an update of the gradient of argument [j], or of the gradient [os] the operator borrows, is safe on gradients of that shape *)
Definition upd_ok xs (os : option shape) (u : update K) : Prop := forall gx, sane gx ->
  match fst u with Arg j => exists x, nth_error xs j = Some x /\ t_shape gx = t_shape x | Own => os = Some (t_shape gx) end -> good (@sane K) (snd u gx).
Lemma good_two xs os u v : upd_ok xs os u -> upd_ok xs os v -> good (Forall (upd_ok xs os)) (Ok [u; v]). Proof. cbn. auto. Qed.
Lemma good_one_upd xs os u : upd_ok xs os u -> good (Forall (upd_ok xs os)) (Ok [u]). Proof. cbn. auto. Qed.
Lemma upd_any xs os tg f : (forall gx, sane gx -> good (@sane K) (f gx)) -> upd_ok xs os (tg, f). Proof. intros H gx S _. cbn. auto. Qed.
Lemma b_x xs ys gys os f : (forall x y gy gx, sane x -> sane y -> sane gy -> sane gx -> good (@sane K) (f x y gy gx)) ->
  Forall (@sane K) xs -> Forall (@sane K) ys -> Forall (@sane K) gys -> good (Forall (upd_ok xs os)) (bw_x f xs ys gys).
Proof.
  intros Hf Hx Hy Hg. unfold bw_x. eapply good_bind; [apply idx_sane; exact Hx|]. intros x _ Sx. eapply good_bind; [apply idx_sane; exact Hy|]. intros y _ Sy.
  eapply good_bind; [apply idx_sane; exact Hg|]. intros gy _ Sg. apply good_one_upd, upd_any. auto.
Qed.
Lemma b_ab xs ys gys os fa fb : (forall a b y gy gx, sane a -> sane b -> sane y -> sane gy -> sane gx -> good (@sane K) (fa a b y gy gx)) ->
  (forall a b y gy gx, sane a -> sane b -> sane y -> sane gy -> sane gx -> good (@sane K) (fb a b y gy gx)) ->
  Forall (@sane K) xs -> Forall (@sane K) ys -> Forall (@sane K) gys -> good (Forall (upd_ok xs os)) (bw_ab fa fb xs ys gys).
Proof.
  intros Ha Hb Hx Hy Hg. unfold bw_ab. eapply good_bind; [apply idx_sane; exact Hx|]. intros a _ Sa. eapply good_bind; [apply idx_sane; exact Hx|]. intros b _ Sb. eapply good_bind; [apply idx_sane; exact Hy|]. intros y _ Sy.
  eapply good_bind; [apply idx_sane; exact Hg|]. intros gy _ Sg. apply good_two; apply upd_any; auto.
Qed.
Lemma b_gy xs gys os f : (forall gy gx, sane gy -> sane gx -> good (@sane K) (f gy gx)) -> Forall (@sane K) gys -> good (Forall (upd_ok xs os)) (bw_gy f gys).
Proof. intros Hf Hg. unfold bw_gy. eapply good_bind; [apply idx_sane; exact Hg|]. intros gy _ Sg. apply good_one_upd, upd_any. auto. Qed.
Lemma g_mapM A B (P : B -> Prop) (f : A -> res B) l : (forall z : A, good P (f z)) -> good (Forall P) (mapM f l).
Proof. intros H. induction l as [|z l IH]; [constructor|]. cbn. eapply good_bind; [apply H|]. intros w _ Hw. eapply good_bind; [exact IH|]. intros ws _ Hws. cbn. auto. Qed.

(** the shapes recorded when the operator was created *)
Lemma nth_shape xs i x : idx xs i = Ok x -> nth_error (map (@t_shape K) xs) i = Some (t_shape x).
Proof. unfold idx. destruct (nth_error xs i) eqn:E; intros H; inversion H; subst. apply map_nth_error; auto. Qed.
Lemma fam_elementwise (a b r : shape) t : wf a -> wf b -> so_elementwise a b = Ok r -> sane t -> t_shape t = a \/ t_shape t = b \/ t_shape t = r -> fam (ext a) (bat r) t.
Proof.
  intros Wa Wb E S HT. destruct (joins_elementwise Wa Wb E) as (H1 & H2 & H3 & H4 & H5). split; auto. pose proof (wf_batch Wa). pose proof (wf_batch Wb). unfold bat in *.
  split; [intros i; destruct HT as [HT|[HT|HT]]; rewrite HT; auto|]. split; [destruct HT as [HT|[HT|HT]]; rewrite HT; lia|lia].
Qed.
Lemma fam_of t : sane t -> fam (ext (t_shape t)) (bat (t_shape t)) t.
Proof. intros S. split; auto. split; auto. split; [auto|]. pose proof (wf_batch (sane_wf S)). unfold bat. lia. Qed.

Section Backward.
Variables (dev : nat) (bal : nat -> alloc_oracle K) (xs ys gys : list tensor).
Hypothesis HA : forall i, al_ok (bal i).
Hypothesis Hx : Forall (@sane K) xs.
Hypothesis Hy : Forall (@sane K) ys.
Hypothesis Hg : Forall (@sane K) gys.
Hypothesis HG : map (@t_shape K) gys = map (@t_shape K) ys.
Local Notation shapes l := (map (@t_shape K) l).
Lemma HW : Forall wf (shapes xs). Proof using Hx. apply Forall_map. eapply Forall_impl; [|exact Hx]. intros z H. apply (sane_wf H). Qed.

Lemma dims_at_ext (s : shape) dim n : dims_at s dim = Ok n -> nat32 n = ext s (nat32 dim).
Proof.
  unfold dims_at, dims, idx, ext, index. destruct (nth_error (firstn (depth s) (dims8 s)) (nat32 dim)) as [v|] eqn:EV; intros E; inversion E; subst v.
  assert (L' : nat32 dim < length (firstn (depth s) (dims8 s))) by (apply nth_error_Some; congruence).
  assert (L : nat32 dim < depth s) by (rewrite firstn_length in L'; lia).
  apply Nat.ltb_lt in L. rewrite L. f_equal. rewrite <- (firstn_skipn (depth s) (dims8 s)). apply nth_error_nth with (d := 1%N) in EV. rewrite app_nth1; auto.
Qed.
(** the operators with a scalar argument *)
Lemma b_scalar os pre fa fb : shape_ab (shapes xs) = Ok (shapes ys) -> (forall s, nth_error (shapes xs) 1 = Some s -> is_scalar s = true) ->
  (forall B x k y gy, fam (fun _ => 1) B x -> fam (fun _ => 1) B k -> fam (fun _ => 1) B y -> fam (fun _ => 1) B gy -> good (fam (fun _ => 1) B) (pre x k y gy)) ->
  (forall B x k y a gx, fam (fun _ => 1) B x -> fam (fun _ => 1) B k -> fam (fun _ => 1) B y -> fam (fun _ => 1) B a -> fam (fun _ => 1) B gx -> good (@sane K) (fa x k y a gx) /\ good (@sane K) (fb x k y a gx)) ->
  good (Forall (upd_ok xs os)) (bw_scalar pre fa fb xs ys gys).
Proof using Hx Hy Hg HG.
  intros E HS Hp Hf. pose proof HW as W. unfold shape_ab in E. destruct (shape2_inv E) as (sa & sb & r & l & E1 & E2 & E3). rewrite E1 in W. inversion W as [|? ? Wa W']; subst. inversion W' as [|? ? Wb _]; subst.
  assert (Sc : forall i, ext sb i = 1) by (apply scalar_ext; auto; apply HS; rewrite E1; reflexivity).
  assert (Q : forall t, sane t -> t_shape t = sa \/ t_shape t = sb \/ t_shape t = r -> fam (fun _ => 1) (bat r) t).
  { intros t S HT. eapply fam_ext; [|exact (fam_elementwise Wa Wb E3 S HT)]. intros i. destruct (joins_elementwise Wa Wb E3) as (H1 & _). rewrite <- H1. auto. }
  unfold bw_scalar. eapply good_bind; [apply idx_sane; exact Hx|]. intros x Ex Sx. eapply good_bind; [apply idx_sane; exact Hx|]. intros k Ek Sk. eapply good_bind; [apply idx_sane; exact Hy|]. intros y Ey Sy.
  eapply good_bind; [apply idx_sane; exact Hg|]. intros gy Eg Sg.
  pose proof (nth_shape Ex) as Nx. pose proof (nth_shape Ek) as Nk. pose proof (nth_shape Ey) as Ny. pose proof (nth_shape Eg) as Ng. rewrite HG in Ng. rewrite E1 in Nx, Nk. rewrite E2 in Ny, Ng. cbn in Nx, Nk, Ny, Ng.
  assert (Fx : fam (fun _ => 1) (bat r) x) by (apply Q; auto; left; congruence). assert (Fk : fam (fun _ => 1) (bat r) k) by (apply Q; auto; right; left; congruence).
  assert (Fy : fam (fun _ => 1) (bat r) y) by (apply Q; auto; right; right; congruence). assert (Fg : fam (fun _ => 1) (bat r) gy) by (apply Q; auto; right; right; congruence).
  eapply good_bind; [apply Hp; eauto|]. intros a _ Fa. apply good_two; intros gx Sgx (z & Hz & Ez); cbn [fst snd] in *; apply (map_nth_error (@t_shape K)) in Hz; rewrite E1 in Hz; cbn in Hz.
  - apply (Hf (bat r)); auto. apply Q; auto. left. congruence.
  - apply (Hf (bat r)); auto. apply Q; auto. right; left. congruence.
Qed.

Lemma b_concat os sl span : (forall gy i off x gx, idx gys 0 = Ok gy -> sane gy -> In x xs -> sane gx -> t_shape gx = t_shape x -> good (@sane K) (upper <- add32 Debug off (span (t_shape gx)) ;; plus Debug (sl (bal i) gy off upper) gx)) ->
  good (Forall (upd_ok xs os)) (bw_concat Debug bal sl span xs gys).
Proof using Hx Hg.
  intros H. unfold bw_concat. assert (G : forall gy, idx gys 0 = Ok gy -> sane gy -> forall l i off, Forall (upd_ok xs os) (concat_ups Debug bal sl span gy i off l)).
  2:{ destruct xs as [|x0 xs0]; [constructor|]. eapply good_bind; [apply idx_sane; exact Hg|]. intros gy Eg Sg. exact (G gy Eg Sg (x0 :: xs0) 0 0%N). }
  intros gy Eg Sg. induction l as [|x l IH]; intros i off; cbn [concat_ups]; constructor; [|apply IH].
  intros gx S (z & Hz & Ez). cbn [fst snd] in *. eapply H; eauto. eapply nth_error_In; eauto.
Qed.
Lemma add32_sum (a b c : N) : add32 Debug a b = Ok c -> c = (a + b)%N. Proof. unfold add32, norm32. destruct (_ <? _)%N; intros E; inversion E; auto. Qed.
Lemma good_add32 (a b : N) : good anything (add32 Debug a b). Proof. unfold add32, norm32. destruct (_ <? _)%N; exact I. Qed.
Lemma fam_slice gx e B t : sane t -> 1 <= B -> shape_is (t_shape t) e (bat (t_shape t)) -> (bat (t_shape t) = 1 \/ bat (t_shape t) = B) -> (forall i, ext (t_shape gx) i = e i) -> fam (ext (t_shape gx)) B t.
Proof. intros S L (W & H1 & _) HB HE. split; auto. split; [intros i; rewrite H1, HE; auto|]. auto. Qed.

(** the shapes are those of an operator created by a function on nodes: a scalar argument is scalar, gradients of a parameter have its shape *)
Definition scalar_kind (k : kind K) : bool :=
  match k with KAddScalar | KSubScalarL | KSubScalarR | KMulScalar | KDivScalarL | KDivScalarR | KPowScalarL | KPowScalarR => true | _ => false end.
Definition own_shape (k : kind K) : option shape := match k with KParameter v => Some (t_shape v) | _ => None end.

Local Transparent bw_registry.
Theorem backward_good (k : kind K) : supplied k -> forward_shape Debug k (shapes xs) = Ok (shapes ys) ->
  (scalar_kind k = true -> forall s, nth_error (shapes xs) 1 = Some s -> is_scalar s = true) -> (forall ids, k <> KBatchPick ids) ->
  good (Forall (upd_ok xs (own_shape k))) (backward_op Debug dev bal k xs ys gys).
Proof using HA Hx Hy Hg HG.
  intros HS E HSc HBP. pose proof HW as W. destruct k; cbn [backward_op supplied forward_shape scalar_kind own_shape] in *.
  (* leaves *)
  - constructor.
  - constructor.
  - eapply good_bind; [apply idx_sane; exact Hg|]. intros gy Eg Sg. apply good_one_upd. intros gx Sx EO. cbn [fst snd] in *. inversion EO as [EO']. apply nth_shape in Eg. rewrite HG in Eg. injection E as E. rewrite <- E in Eg. cbn in Eg.
    apply f_plus with (e := ext (t_shape gx)) (B := bat (t_shape gx)); [|apply fam_of; auto]. cbn. eapply fam_same; [apply fam_of; exact Sx|exact Sg|congruence].
  (* arithmetic *)
  - apply b_ab; auto; intros; [eapply g_lin_a|eapply g_lin_b]; eauto; reflexivity.
  - apply b_x; auto; intros; eapply g_bw_const; eauto; reflexivity.
  - apply b_scalar; [exact E|exact (HSc eq_refl)|intros B x k y gy; intros; assumption|intros B x k y gy]. intros gx Fx Fk Fy Fg Fgx. split; (eapply f_plus; [|exact Fgx]); [assumption|]. eapply f_flat_sum; eauto.
  - apply b_ab; auto; intros; [eapply g_lin_a|eapply g_lin_b]; eauto; reflexivity.
  - apply b_x; auto; intros; eapply g_bw_const; eauto; reflexivity.
  - apply b_x; auto; intros; eapply g_bw_const; eauto; reflexivity.
  - apply b_scalar; [exact E|exact (HSc eq_refl)|intros B x k y gy; intros; assumption|intros B x k y gy]. intros gx Fx Fk Fy Fg Fgx. split; [eapply f_minus|eapply f_plus]; try exact Fgx; [assumption|]. eapply f_flat_sum; eauto.
  - apply b_scalar; [exact E|exact (HSc eq_refl)|intros B x k y gy; intros; assumption|intros B x k y gy]. intros gx Fx Fk Fy Fg Fgx. split; [eapply f_plus|eapply f_minus]; try exact Fgx; [assumption|]. eapply f_flat_sum; eauto.
  - apply b_ab; auto; intros; [eapply g_other_a|eapply g_other_b]; eauto; reflexivity.
  - apply b_x; auto; intros; eapply g_bw_const; eauto; reflexivity.
  - apply b_scalar; [exact E|exact (HSc eq_refl)|intros B x k y gy; intros; assumption|intros B x k y gy]. intros gx Fx Fk Fy Fg Fgx. split; (eapply f_plus; [|exact Fgx]); [eapply f_mul; eauto|]. eapply good_bind; [eapply f_mul; eauto|]. intros t _ Ft. eapply f_flat_sum; eauto.
  - apply b_ab; auto; intros; [eapply g_other_a; eauto; reflexivity|apply g_div_b; auto].
  - apply b_x; auto; intros; eapply g_bw_const; eauto; reflexivity.
  - apply b_x; auto; intros; eapply g_bw_const; eauto; reflexivity.
  - apply b_scalar; [exact E|exact (HSc eq_refl)|intros B x k y gy; intros; eapply f_div; eauto|intros B x k y gy]. intros gx Fx Fk Fy Fg Fgx. split; [eapply f_minus|eapply f_plus]; try exact Fgx; [eapply f_mul; eauto|]. eapply f_flat_sum; eauto.
  - apply b_scalar; [exact E|exact (HSc eq_refl)|intros B x k y gy; intros; eapply f_div; eauto|intros B x k y gy]. intros gx Fx Fk Fy Fg Fgx. split; [eapply f_plus|eapply f_minus]; try exact Fgx; [assumption|]. eapply good_bind; [eapply f_mul; eauto|]. intros t _ Ft. eapply f_flat_sum; eauto.
  - apply b_x; auto; intros; apply g_neg_bw.
  - apply b_x; auto; intros; eapply g_bw_x; eauto; reflexivity.
  - apply b_ab; auto; intros; [apply g_powf_a|apply g_powf_b]; auto.
  - apply b_x; auto; intros; eapply g_bw_const; eauto; reflexivity.
  - apply b_x; auto; intros; eapply g_bw_const; eauto; reflexivity.
  - apply b_scalar; [exact E|exact (HSc eq_refl)|intros B x k y gy; intros; eapply f_mul; eauto|intros B x k y gy]. intros gx Fx Fk Fy Fg Fgx. split; (eapply f_plus; [|exact Fgx]).
    + eapply good_bind; [eapply f_ln; eauto|]. intros l _ Fl. eapply f_mul; eauto.
    + eapply good_bind; [eapply f_mul; eauto|]. intros t _ Ft. eapply good_bind; [eapply f_div; eauto|]. intros u _ Fu. eapply f_flat_sum; eauto.
  - apply b_scalar; [exact E|exact (HSc eq_refl)|intros B x k y gy; intros; eapply f_mul; eauto|intros B x k y gy]. intros gx Fx Fk Fy Fg Fgx. split; (eapply f_plus; [|exact Fgx]).
    + eapply good_bind; [eapply f_mul; eauto|]. intros t _ Ft. eapply f_div; eauto.
    + eapply good_bind; [eapply f_ln; eauto|]. intros l _ Fl. eapply good_bind; [eapply f_mul; eauto|]. intros t _ Ft. eapply f_flat_sum; eauto.
  - apply b_x; auto; intros; apply g_powi_bw; auto.
  - apply b_x; auto; intros; eapply g_bw_x; eauto; reflexivity.
  - apply b_x; auto; intros; eapply g_bw_x; eauto; reflexivity.
  - apply b_x; auto; intros; eapply g_bw_x; eauto; reflexivity.
  - apply b_x; auto; intros; eapply g_bw_x; eauto; reflexivity.
  - apply b_x; auto; intros; eapply g_bw_x; eauto; reflexivity.
  - apply b_x; auto; intros; eapply g_bw_x; eauto; reflexivity.
  - apply b_x; auto; intros; eapply g_bw_x; eauto; reflexivity.
  - (* softplus *) destruct (shape1_inv E) as (s & r & l & E1 & E2 & E3). inversion E3; subst r. unfold bw_x. eapply good_bind; [apply idx_sane; exact Hx|]. intros x Ex Sx. eapply good_bind; [apply idx_sane; exact Hy|]. intros y Ey Sy.
    eapply good_bind; [apply idx_sane; exact Hg|]. intros gy Eg Sg. apply good_one_upd. intros gx Sgx (z & Hz & Ez). cbn [fst snd] in *. apply (map_nth_error (@t_shape K)) in Hz. apply nth_shape in Ex. apply nth_shape in Eg. rewrite HG in Eg. rewrite E2 in Eg. rewrite E1 in Hz, Ex. cbn in Hz, Ex, Eg.
    eapply f_plus; [|apply fam_of; exact Sgx]. eapply good_bind; [eapply f_sigmoid; auto; eapply fam_same; [apply fam_of; exact Sgx|exact Sx|congruence]|]. intros t _ Ft. eapply f_mul; auto. eapply fam_same; [apply fam_of; exact Sgx|exact Sg|congruence].
  - apply b_x; auto; intros; eapply g_bw_x; eauto; reflexivity.
  - (* broadcast *) destruct (shape1_inv E) as (s & r & l & E1 & E2 & E3). rewrite E1 in W. inversion W as [|? ? Ws _]; subst. apply so_broadcast_iff in E3; auto. destruct E3 as (_ & E4 & _ & E5). destruct (is_upd E5 eq_refl) as (_ & E6 & E7).
    unfold bw_gy. eapply good_bind; [apply idx_sane; exact Hg|]. intros gy Eg Sg. apply good_one_upd. intros gx Sgx (z & Hz & Ez). cbn [fst snd] in *. apply (map_nth_error (@t_shape K)) in Hz. apply nth_shape in Eg. rewrite HG, E2 in Eg. rewrite E1 in Hz. cbn in Hz, Eg.
    assert (EG : t_shape gy = r) by congruence. assert (EX : t_shape gx = s) by congruence. eapply f_plus; [|apply fam_of; exact Sgx]. eapply good_weaken; [apply f_sum; auto; apply fam_of; exact Sg|].
    intros t Ft. rewrite EG, EX in *. unfold bat in *. rewrite E7 in Ft. eapply fam_ext; [|exact Ft]. cbv beta. intros i. rewrite E6. unfold eset. destruct (Nat.eqb_spec i (nat32 dim)); auto. subst i. unfold ext. rewrite E4. reflexivity.
  - (* logsumexp *) destruct (shape1_inv E) as (s & r & l & E1 & E2 & E3). rewrite E1 in W. inversion W as [|? ? Ws _]; subst. apply resize_dim_iff in E3; auto. destruct E3 as (Hd & _ & E5). destruct (is_upd E5 eq_refl) as (_ & E6 & E7).
    eapply good_bind; [apply idx_sane; exact Hx|]. intros x0 Ex0 Sx0. eapply good_bind; [apply good_idx|]. intros n En _.
    unfold bw_x. eapply good_bind; [apply idx_sane; exact Hx|]. intros x Ex Sx. eapply good_bind; [apply idx_sane; exact Hy|]. intros y Ey Sy.
    eapply good_bind; [apply idx_sane; exact Hg|]. intros gy Eg Sg. apply good_one_upd. intros gx Sgx (z & Hz & Ez). cbn [fst snd] in *.
    assert (Exx : x0 = x) by congruence. subst x0.
    apply (map_nth_error (@t_shape K)) in Hz. apply nth_shape in Ex. apply nth_shape in Ey. apply nth_shape in Eg. rewrite HG in Eg. rewrite E2 in Eg, Ey. rewrite E1 in Hz, Ex. cbn in Hz, Ex, Eg, Ey.
    assert (EXs : t_shape x = s) by congruence. assert (EYs : t_shape y = r) by congruence. assert (EGs : t_shape gy = r) by congruence. assert (EXg : t_shape gx = s) by congruence.
    assert (Dn : nat32 n = ext s (nat32 dim)).
    { rewrite <- EXs. apply dims_at_ext. exact En. }
    assert (FX : fam (ext s) (bat s) gx) by (rewrite <- EXg; apply fam_of; auto). assert (Fxx : fam (ext s) (bat s) x) by (rewrite <- EXs; apply fam_of; auto).
    assert (FB : forall u al, al_ok al -> sane u -> t_shape u = r -> good (fam (ext s) (bat s)) (t_broadcast Debug al u dim n)).
    { intros u al Hal Su Eu. eapply good_weaken; [apply f_broadcast; auto; apply fam_of; exact Su|]. intros t Ft. rewrite Eu in Ft. unfold bat in *. rewrite E7 in Ft. eapply fam_ext; [|exact Ft]. cbv beta. intros i. rewrite E6. unfold eset. destruct (Nat.eqb_spec i (nat32 dim)); auto. subst i. auto. }
    eapply f_plus; [|exact FX]. eapply good_bind; [apply FB; auto|]. intros yb _ Fyb. eapply good_bind; [apply f_sub; eauto|]. intros q _ Fq. eapply good_bind; [apply f_exp; eauto|]. intros e _ Fe.
    eapply good_bind; [apply FB; auto|]. intros gb _ Fgb. apply f_mul; auto.
  - apply b_x; auto; intros; eapply g_extremum_bw; eauto; reflexivity.
  - apply b_x; auto; intros; eapply g_extremum_bw; eauto; reflexivity.
  - (* sum *) destruct (shape1_inv E) as (s & r & l & E1 & E2 & E3). rewrite E1 in W. inversion W as [|? ? Ws _]; subst. apply resize_dim_iff in E3; auto. destruct E3 as (Hd & _ & E5). destruct (is_upd E5 eq_refl) as (_ & E6 & E7).
    eapply good_bind; [apply idx_sane; exact Hx|]. intros x Ex Sx. eapply good_bind; [apply good_idx|]. intros n En _.
    unfold bw_gy. eapply good_bind; [apply idx_sane; exact Hg|]. intros gy Eg Sg. apply good_one_upd. intros gx Sgx (z & Hz & Ez). cbn [fst snd] in *.
    apply (map_nth_error (@t_shape K)) in Hz. apply nth_shape in Ex. apply nth_shape in Eg. rewrite HG in Eg. rewrite E2 in Eg. rewrite E1 in Hz, Ex. cbn in Hz, Ex, Eg.
    assert (EXs : t_shape x = s) by congruence. assert (EGs : t_shape gy = r) by congruence. assert (EXg : t_shape gx = s) by congruence.
    assert (Dn : nat32 n = ext s (nat32 dim)).
    { rewrite <- EXs. apply dims_at_ext. exact En. }
    assert (FX : fam (ext s) (bat s) gx) by (rewrite <- EXg; apply fam_of; auto).
    eapply f_plus; [|exact FX]. eapply good_weaken; [apply f_broadcast; auto; apply fam_of; exact Sg|]. intros t Ft. rewrite EGs in Ft. unfold bat in *. rewrite E7 in Ft. eapply fam_ext; [|exact Ft]. cbv beta. intros i. rewrite E6. unfold eset. destruct (Nat.eqb_spec i (nat32 dim)); auto. subst i. auto.
  - (* softmax_cross_entropy *) destruct (shape2_inv E) as (sx & st & r & l & E1 & E2 & E3). rewrite E1 in W. inversion W as [|? ? Wx W']; subst. inversion W' as [|? ? Wt _]; subst.
    apply bind_Ok in E3. destruct E3 as (sj & Ej & E3). destruct (joins_elementwise Wx Wt Ej) as (J0 & J1 & J2 & J3 & J4). apply resize_dim_iff in E3; auto. destruct E3 as (Hd & _ & E5). destruct (is_upd E5 eq_refl) as (Wr & E6 & E7).
    eapply good_bind; [apply idx_sane; exact Hx|]. intros x Ex Sx. apply nth_shape in Ex. rewrite E1 in Ex. cbn in Ex. assert (EXs : t_shape x = sx) by congruence.
    assert (FQ : forall u : tensor, sane u -> t_shape u = sx \/ t_shape u = st \/ t_shape u = sj -> fam (ext sx) (bat sj) u) by exact (fun u Su Hu => fam_elementwise Wx Wt Ej Su Hu).
    eapply good_bind; [apply (f_ln_softmax (e := ext sx) (B := bat sj)); auto|]. intros ls _ Fls.
    eapply good_bind; [apply idx_sane; exact Hg|]. intros gy Eg Sg. apply nth_shape in Eg. rewrite HG, E2 in Eg. cbn in Eg. assert (EGs : t_shape gy = r) by congruence.
    eapply good_bind with (Q := fam (ext sx) (bat sj)).
    { eapply good_weaken; [apply f_broadcast; auto; apply fam_of; exact Sg|]. intros t Ft. rewrite EGs in Ft. unfold bat in *. rewrite E7 in Ft. eapply fam_ext; [|exact Ft]. cbv beta. intros i. rewrite EXs, E6. unfold eset. destruct (Nat.eqb_spec i (nat32 dim)); [subst i; reflexivity|]. apply J1. }
    intros gb _ Fgb. eapply good_bind; [apply idx_sane; exact Hx|]. intros t Et St. apply nth_shape in Et. rewrite E1 in Et. cbn in Et. assert (Ft : fam (ext sx) (bat sj) t) by (apply FQ; auto; right; left; congruence).
    apply good_two; intros gx Sgx (z & Hz & Ez); cbn [fst snd] in *; apply (map_nth_error (@t_shape K)) in Hz; rewrite E1 in Hz; cbn in Hz.
    + eapply f_plus; [|apply FQ; [exact Sgx|left; congruence]]. eapply good_bind; [apply f_exp; eauto|]. intros e _ Fe. eapply good_bind; [apply f_sub; eauto|]. intros u _ Fu. apply f_mul; auto.
    + eapply f_minus; [|apply FQ; [exact Sgx|right; left; congruence]]. apply f_mul; auto.
  - (* sparse_softmax_cross_entropy *) destruct (shape1_inv E) as (s & r & l & E1 & E2 & E3). rewrite E1 in W. inversion W as [|? ? Ws _]; subst. apply so_pick_iff in E3; auto. destruct E3 as (Hd & _ & HC & _ & E5). destruct (is_upd E5 eq_refl) as (Wr & E6 & E7).
    eapply good_bind; [apply idx_sane; exact Hx|]. intros x Ex Sx. apply nth_shape in Ex. rewrite E1 in Ex. cbn in Ex. assert (EXs : t_shape x = s) by congruence.
    eapply good_bind; [apply idx_sane; exact Hg|]. intros gy Eg Sg. apply nth_shape in Eg. rewrite HG, E2 in Eg. cbn in Eg. assert (EGs : t_shape gy = r) by congruence.
    assert (FQ : forall u : tensor, sane u -> t_shape u = s -> fam (ext s) (bat r) u).
    { intros u Su Eu. split; auto. rewrite Eu. split; auto. pose proof (wf_batch Ws). rewrite E7. unfold bat, compat in *. split; lia. }
    apply good_two; intros gx Sgx (z & Hz & Ez); cbn [fst snd] in *; apply (map_nth_error (@t_shape K)) in Hz; rewrite E1 in Hz; cbn in Hz.
    + eapply f_plus; [|apply FQ; [exact Sgx|congruence]]. eapply good_bind; [eapply f_softmax; auto|]. intros q _ Fq. eapply good_bind with (Q := fam (ext s) (bat r)).
      { eapply good_weaken; [apply f_broadcast; auto; apply fam_of; exact Sg|]. intros t Ft. rewrite EGs in Ft. eapply fam_ext; [|exact Ft]. cbv beta. intros i. rewrite EXs, E6. unfold eset. destruct (Nat.eqb_spec i (nat32 dim)); [subst i; reflexivity|]. reflexivity. }
      intros gb _ Fgb. apply f_mul; auto.
    + eapply good_bind; [apply good_dev|]. intros dv _ _. eapply good_bind; [apply g_t_neg; auto|]. intros ng _ Sn. apply g_pick_bw; auto.
  - apply b_ab; auto; intros; [apply g_matmul_bw_a|apply g_matmul_bw_b]; auto.
  - apply b_x; auto; intros; apply g_transpose_bw; auto.
  - apply b_x; auto; intros; apply (@g_triangular_bw K false); auto.
  - apply b_x; auto; intros; apply (@g_triangular_bw K true); auto.
  - apply b_x; auto; intros; eapply g_bw_const; eauto; reflexivity.
  - apply b_x; auto; intros; eapply g_bw_const; eauto; reflexivity.
  - apply b_gy; auto. intros gy gx Sg Sgx. eapply good_bind; [apply good_dev|]. intros dv _ _. apply g_pick_bw; auto.
  - apply b_gy; auto. intros gy gx Sg Sgx. apply g_slice_bw; auto.
  - unfold bw_split. apply g_mapM. intros i. eapply good_bind; [apply idx_sane; exact Hg|]. intros gy _ Sg. cbn. apply upd_any. intros gx Sgx. apply g_slice_bw; auto.
  - (* batch_concat *) apply bind_Ok in E. destruct E as (sy & Es & E). injection E as E. apply b_concat. intros gy i off x gx Eg Sg Hin Sgx Egx. eapply good_bind; [apply good_add32|]. intros up Eu _. apply add32_sum in Eu.
    apply nth_shape in Eg. rewrite HG, <- E in Eg. cbn in Eg. apply so_batch_concat_iff in Es; auto. destruct Es as (x0 & xs' & _ & HE & W0 & Hi & Hb). rewrite Forall_forall in HE.
    assert (HXE : forall j, index (t_shape gx) j = index x0 j) by (rewrite Egx; apply HE; apply in_map; auto).
    eapply f_plus; [|apply fam_of; exact Sgx]. eapply good_and with (P := @sane K); [unfold t_batch_slice; apply Safe3.via_dev; intros; apply g_batch_slice; auto|]. intros t Et St.
    unfold t_batch_slice in Et. apply bind_Ok in Et. destruct Et as (dv & _ & Et). apply sh_batch_slice in Et. apply so_batch_slice_iff in Et; [|apply (sane_wf Sg)]. destruct Et as (_ & _ & Wt & Ht & Hbt).
    pose proof (wf_batch (sane_wf Sgx)). split; auto. split; [intros j; unfold ext; rewrite Ht, HXE, <- Hi; congruence|]. unfold bat. rewrite Hbt, Eu. split; lia.
  - exfalso. eapply HBP; reflexivity.
  - apply b_gy; auto. intros gy gx Sg Sgx. apply g_batch_slice_bw.
  - unfold bw_batch_split. apply g_mapM. intros i. eapply good_bind; [apply idx_sane; exact Hg|]. intros gy _ Sg. cbn. apply upd_any. intros gx Sgx. apply g_batch_slice_bw.
  - (* batch_sum *) destruct (shape1_inv E) as (s & r & l & E1 & E2 & E3). rewrite E1 in W. inversion W as [|? ? Ws _]; subst. apply resize_batch_iff in E3; [|auto|reflexivity]. destruct E3 as (Wr & E5 & E6).
    unfold bw_gy. eapply good_bind; [apply idx_sane; exact Hg|]. intros gy Eg Sg. apply good_one_upd. intros gx Sgx (z & Hz & Ez). cbn [fst snd] in *. apply (map_nth_error (@t_shape K)) in Hz. apply nth_shape in Eg. rewrite HG, E2 in Eg. rewrite E1 in Hz. cbn in Hz, Eg.
    eapply f_plus; [|apply fam_of; exact Sgx]. cbn. assert (EG : t_shape gy = r) by congruence. assert (EX : t_shape gx = s) by congruence. pose proof (wf_batch Ws). split; auto. rewrite EG, EX. split; [intros i; unfold ext; rewrite E5; auto|]. unfold bat. rewrite E6. split; [auto|lia].
  - (* concat *) apply bind_Ok in E. destruct E as (sy & Es & E). injection E as E. apply b_concat. intros gy i off x gx Eg Sg Hin Sgx Egx. eapply good_bind; [apply good_add32|]. intros up Eu _. apply add32_sum in Eu.
    apply nth_shape in Eg. rewrite HG, <- E in Eg. cbn in Eg. apply so_concat_iff in Es; auto. destruct Es as (x0 & xs' & _ & Hd & HE & (HB & _) & W0 & Hi & Hb). rewrite Forall_forall in HE, HB.
    assert (HXE : forall j, j <> nat32 dim -> index (t_shape gx) j = index x0 j) by (rewrite Egx; apply HE; apply in_map; auto).
    assert (HXB : batch (t_shape gx) = 1%N \/ batch (t_shape gx) = batch sy) by (rewrite Egx; apply HB; apply in_map, in_map; auto).
    assert (EG : t_shape gy = sy) by congruence. pose proof (wf_batch W0) as WB.
    eapply f_plus with (e := ext (t_shape gx)) (B := bat sy).
    + eapply good_and with (P := @sane K); [unfold t_slice; apply Safe3.via_dev; intros; apply g_slice; auto|]. intros t Et St.
      unfold t_slice in Et. apply bind_Ok in Et. destruct Et as (dv & _ & Et). apply sh_slice in Et. apply so_slice_iff in Et; [|apply (sane_wf Sg)]. destruct Et as (_ & _ & _ & Wt & Ht & Hbt).
      split; auto. split; [intros j; unfold ext; rewrite Ht; unfold upd_ext; destruct (Nat.eqb_spec j (nat32 dim)) as [->|Hj]|].
      * f_equal. lia.
      * rewrite EG, Hi, HXE by auto. unfold upd_ext. apply Nat.eqb_neq in Hj. rewrite Hj. reflexivity.
      * unfold bat. rewrite Hbt, EG. split; [auto|lia].
    + split; auto. split; auto. unfold bat. split; [destruct HXB as [HXB|HXB]; rewrite HXB; auto|lia].
  - (* reshape *) apply b_gy; auto. intros gy gx Sg Sgx. eapply f_plus; [|apply fam_of; exact Sgx]. eapply good_bind; [apply g_copy; auto|]. intros t _ St.
    eapply good_and; [apply g_update_shape; [exact St|apply (sane_wf Sgx)]|]. intros u Eu Su. eapply fam_same; [apply fam_of; exact Sgx|exact Su|]. apply sh_update_shape in Eu. auto.
Qed.
End Backward.
End Operators.
