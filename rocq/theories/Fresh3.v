(** * Fresh3: the contents of new buffers do not matter: calls (lemmas) *)
From Verif Require Export Fresh2.
Set Implicit Arguments.
Unset Strict Implicit.

Lemma u_bind A B (P : A -> Prop) (r r' : res A) (k k' : A -> res B) : good P r -> le_res r r' -> (forall a, P a -> le_res (k a) (k' a)) -> le_res (bind r k) (bind r' k').
Proof.
  intros G L H v E. apply bind_Ok in E. destruct E as (a & E1 & E2). rewrite E1 in G. cbn in G. rewrite (L a E1). cbn [bind]. exact (H a G v E2).
Qed.
Section More.
Variable K : num.
Notation F := (F K).
Notation tensor := (tensor K).
Notation oracle := (alloc_oracle K).
Implicit Types (d : nat) (al : oracle) (x y a b gx gy : tensor).
Lemma u_ab_op fw sl sr al al' a b : (forall d, le_res (fw d al a b) (fw d al' a b)) -> (forall d (x y : tensor), sane x -> sane y -> le_res (sl d al x y) (sl d al' x y)) -> (forall d (x y : tensor), sane x -> sane y -> le_res (sr d al x y) (sr d al' x y)) ->
  sane a -> sane b -> le_res (define_ab_op fw sl sr al a b) (define_ab_op fw sl sr al' a b).
Proof. intros H1 H2 H3 Sa Sb. unfold define_ab_op. repeat match goal with |- le_res (if ?c then _ else _) _ => destruct c end; apply u_via; auto. Qed.
Lemma u_t_add al al' a b : al_exact al -> al_exact al' -> sane a -> sane b -> le_res (t_add Debug al a b) (t_add Debug al' a b).
Proof. intros. apply u_ab_op; auto; intros; [eapply u_fw_ab|eapply u_fw_scalar|eapply u_fw_scalar]; eauto; reflexivity. Qed.
Lemma u_t_sub al al' a b : al_exact al -> al_exact al' -> sane a -> sane b -> le_res (t_sub Debug al a b) (t_sub Debug al' a b).
Proof. intros. apply u_ab_op; auto; intros; [eapply u_fw_ab|eapply u_fw_scalar|eapply u_fw_scalar]; eauto; reflexivity. Qed.
Lemma u_t_mul al al' a b : al_exact al -> al_exact al' -> sane a -> sane b -> le_res (t_mul Debug al a b) (t_mul Debug al' a b).
Proof. intros. apply u_ab_op; auto; intros; [eapply u_fw_ab|eapply u_fw_scalar|eapply u_fw_scalar]; eauto; reflexivity. Qed.
Lemma u_t_div al al' a b : al_exact al -> al_exact al' -> sane a -> sane b -> le_res (t_div Debug al a b) (t_div Debug al' a b).
Proof. intros. apply u_ab_op; auto; intros; [eapply u_fw_ab|eapply u_fw_scalar|eapply u_fw_scalar]; eauto; reflexivity. Qed.
Lemma u_t_neg al al' x : al_exact al -> al_exact al' -> sane x -> le_res (t_neg Debug al x) (t_neg Debug al' x).
Proof. intros. apply u_via. intros. eapply u_fw_x; eauto; reflexivity. Qed.
Definition exacts (als : nat -> oracle) : Prop := forall i, al_exact (als i).
Lemma exacts_ok als : exacts als -> forall i, al_ok (als i). Proof. intros H i. apply exact_ok, H. Qed.
Hint Resolve exacts_ok : core.
Variables als als' : nat -> oracle.
Hypothesis HA : exacts als.
Hypothesis HA' : exacts als'.
Lemma u_ln_softmax x dim : sane x -> le_res (t_ln_softmax Debug als x dim) (t_ln_softmax Debug als' x dim).
Proof.
  intros S. unfold t_ln_softmax. eapply u_bind; [apply Safe3.via_dev; intros; apply g_logsumexp; auto|apply u_via; intros; apply u_logsumexp; auto|]. intros l Sl.
  eapply u_bind; [apply Safe3.via_dev; intros; apply g_broadcast; auto|apply u_via; intros; apply u_broadcast; auto|]. intros b Sb. apply u_t_sub; auto.
Qed.
Lemma u_softmax x dim : sane x -> le_res (t_softmax Debug als x dim) (t_softmax Debug als' x dim).
Proof. intros S. unfold t_softmax. eapply u_bind; [apply g_ln_softmax; auto|apply u_ln_softmax; auto|]. intros y Sy. apply u_via. intros. eapply u_fw_x; eauto; reflexivity. Qed.
Lemma u_sce x t dim : sane x -> sane t -> le_res (t_softmax_cross_entropy Debug als x t dim) (t_softmax_cross_entropy Debug als' x t dim).
Proof.
  intros S St. unfold t_softmax_cross_entropy. eapply u_bind; [apply g_ln_softmax; auto|apply u_ln_softmax; auto|]. intros y Sy. eapply u_bind; [apply g_t_mul; auto|apply u_t_mul; auto|]. intros z Sz.
  eapply u_bind; [apply Safe3.via_dev; intros; apply g_sum; auto|apply u_via; intros; apply u_sum; auto|]. intros s Ss. apply u_t_neg; auto.
Qed.
Lemma u_sparse x ids dim : (N.of_nat (length ids) < two32)%N -> sane x -> le_res (t_sparse_softmax_cross_entropy Debug als x ids dim) (t_sparse_softmax_cross_entropy Debug als' x ids dim).
Proof.
  intros HL S. unfold t_sparse_softmax_cross_entropy. eapply u_bind; [apply g_ln_softmax; auto|apply u_ln_softmax; auto|]. intros y Sy. eapply u_bind; [apply Safe3.via_dev; intros; apply g_pick; auto|apply u_via; intros; apply u_pick; auto|]. intros p Sp. apply u_t_neg; auto.
Qed.
Lemma u_split x dim n : sane x -> le_res (t_split Debug als x dim n) (t_split Debug als' x dim n).
Proof. intros S. apply le_bind; [apply Mode.le_refl|]. intros k _. apply (@le_forN (list tensor) (N.to_nat n)). intros i ret. apply le_bind; [apply u_via; intros; apply u_slice; auto|]. intros; apply Mode.le_refl. Qed.
Lemma u_batch_split x n : sane x -> le_res (t_batch_split Debug als x n) (t_batch_split Debug als' x n).
Proof. intros S. apply le_bind; [apply Mode.le_refl|]. intros k _. apply (@le_forN (list tensor) (N.to_nat n)). intros i ret. apply le_bind; [apply u_via; intros; apply u_batch_slice; auto|]. intros; apply Mode.le_refl. Qed.
Lemma u_t_concat al al' xs dim : al_exact al -> al_exact al' -> Forall (@sane K) xs -> le_res (t_concat Debug al xs dim) (t_concat Debug al' xs dim).
Proof. intros. apply le_bind; [apply Mode.le_refl|]. intros x0 _. apply u_via. intros. apply u_concat; auto. Qed.
Lemma u_t_batch_concat al al' xs : al_exact al -> al_exact al' -> Forall (@sane K) xs -> le_res (t_batch_concat Debug al xs) (t_batch_concat Debug al' xs).
Proof. intros. apply le_bind; [apply Mode.le_refl|]. intros _ _. apply le_bind; [apply Mode.le_refl|]. intros x0 _. apply u_via. intros. apply u_batch_concat; auto. Qed.
(** *** gradients that compute an intermediate tensor *)
Lemma u_k_matmul_a b gy ga : sane b -> sane gy -> le_res (k_matmul_bw_a Debug als b gy ga) (k_matmul_bw_a Debug als' b gy ga).
Proof.
  intros Sb Sg. unfold k_matmul_bw_a. apply le_bind; [apply Mode.le_refl|]. intros dg _. apply le_bind; [apply Mode.le_refl|]. intros db _.
  eapply u_bind; [apply g_transpose; auto|apply u_transpose; auto|]. intros bt Sbt. eapply le_bind; [apply u_matmul; auto|]. intros; apply Mode.le_refl.
Qed.
Lemma u_k_matmul_b a gy gb : sane a -> sane gy -> le_res (k_matmul_bw_b Debug als a gy gb) (k_matmul_bw_b Debug als' a gy gb).
Proof.
  intros Sa Sg. unfold k_matmul_bw_b. apply le_bind; [apply Mode.le_refl|]. intros da _.
  eapply u_bind; [apply g_transpose; auto|apply u_transpose; auto|]. intros bt Sbt. eapply le_bind; [apply u_matmul; auto|]. intros; apply Mode.le_refl.
Qed.
Tactic Notation "chks" integer(n) := do n (apply le_bind; [apply Mode.le_refl|intros ? _]).
Lemma u_matmul_bw_a d a b y gy g : sane b -> sane gy -> le_res (matmul_bw_a Debug als d a b y gy g) (matmul_bw_a Debug als' d a b y gy g).
Proof. intros Sb Sg. unfold matmul_bw_a, define_bw_ab_a. chks 9. unfold call_bw. cbn [assoc bw_registry String.eqb Ascii.eqb Bool.eqb idx nth_error bind]. apply u_k_matmul_a; auto. Qed.
Lemma u_matmul_bw_b d a b y gy g : sane a -> sane gy -> le_res (matmul_bw_b Debug als d a b y gy g) (matmul_bw_b Debug als' d a b y gy g).
Proof. intros Sa Sg. unfold matmul_bw_b, define_bw_ab_b. chks 9. unfold call_bw. cbn [assoc bw_registry String.eqb Ascii.eqb Bool.eqb idx nth_error bind]. apply u_k_matmul_b; auto. Qed.
Lemma u_transpose_bw d x y gy gx : sane gy -> le_res (transpose_bw Debug als d x y gy gx) (transpose_bw Debug als' d x y gy gx).
Proof.
  intros Sg. unfold transpose_bw. chks 8. unfold call_bw. cbn [assoc bw_registry String.eqb Ascii.eqb Bool.eqb idx nth_error bind]. unfold k_transpose_bw. apply le_bind; [apply u_via; intros; apply u_transpose; auto|]. intros; apply Mode.le_refl.
Qed.
Lemma u_triangular_bw (upper : bool) name d x y gy k gx : name = (if upper then "triangular_u_bw_impl" else "triangular_l_bw_impl")%string -> sane gy -> le_res (triangular_bw Debug name als d x y gy k gx) (triangular_bw Debug name als' d x y gy k gx).
Proof.
  intros -> Sg. unfold triangular_bw. chks 7. unfold call_bw. destruct upper; cbn [assoc bw_registry String.eqb Ascii.eqb Bool.eqb idx nth_error bind]; unfold k_triangular_bw; (apply le_bind; [apply u_via; intros|intros; apply Mode.le_refl]).
  - apply (@u_triangular K true); auto.
  - apply (@u_triangular K false); auto.
Qed.
End More.
#[export] Hint Resolve exacts_ok : core.

Section Calls.
Variable K : num.
Notation F := (F K).
Notation tensor := (tensor K).
Notation oracle := (alloc_oracle K).
Variable srt : (nat -> nat -> option comparison) -> list nat -> res (list nat).
(** every buffer the call gets from the pool has exactly the requested size *)
Definition exact_memory (c : call K) : Prop :=
  match c with
  | CAlloc al _ | CConst _ al _ _ | CSlice _ al _ _ | CMove _ al _ | CUnary _ _ al _ | CWithConst _ _ al _ _ | CBinary _ _ al _ _ | CWithU32 _ _ al _ _ | CPowi _ al _ _ | CBroadcast _ al _ _ _
  | CSub _ al _ _ _ _ | CPick _ al _ _ _ | CBatchSub _ al _ _ _ | CBatchPick _ al _ _ | CConcat al _ _ | CBatchConcat al _ | COperator _ al _ _ | CReshape al _ _ | CFlatten al _ => al_exact al
  | CSplit als _ _ _ | CBatchSplit als _ _ | CLnSoftmax als _ _ | CSoftmax als _ _ | CCrossEntropy als _ _ _ | CSparse als _ _ _
  | CBinaryBw _ als _ _ _ _ _ _ | CWithU32Bw _ als _ _ _ _ _ _ | CTransposeBw als _ _ _ _ _ => exacts als
  | _ => True
  end.
(** the same call served by another allocator *)
Definition reallocated (als : nat -> oracle) (c : call K) : call K :=
  match c with
  | CAlloc _ x => CAlloc (als 0) x | CConst d _ s k => CConst d (als 0) s k | CSlice d _ s vs => CSlice d (als 0) s vs | CMove d _ x => CMove d (als 0) x
  | CUnary i o _ x => CUnary i o (als 0) x | CWithConst i o _ x k => CWithConst i o (als 0) x k | CBinary i o _ a b => CBinary i o (als 0) a b | CWithU32 i o _ x u => CWithU32 i o (als 0) x u
  | CPowi o _ x k => CPowi o (als 0) x k | CBroadcast o _ x dim n => CBroadcast o (als 0) x dim n | CSub o _ x dim lo hi => CSub o (als 0) x dim lo hi | CPick o _ x ids dim => CPick o (als 0) x ids dim
  | CBatchSub o _ x lo hi => CBatchSub o (als 0) x lo hi | CBatchPick o _ x ids => CBatchPick o (als 0) x ids | CConcat _ xs dim => CConcat (als 0) xs dim | CBatchConcat _ xs => CBatchConcat (als 0) xs
  | COperator i _ a b => COperator i (als 0) a b | CSplit _ x dim n => CSplit als x dim n | CBatchSplit _ x n => CBatchSplit als x n | CReshape _ x s => CReshape (als 0) x s | CFlatten _ x => CFlatten (als 0) x
  | CLnSoftmax _ x dim => CLnSoftmax als x dim | CSoftmax _ x dim => CSoftmax als x dim | CCrossEntropy _ x t dim => CCrossEntropy als x t dim | CSparse _ x ids dim => CSparse als x ids dim
  | CBinaryBw i _ d a b y gy g => CBinaryBw i als d a b y gy g | CWithU32Bw i _ d x y gy u gx => CWithU32Bw i als d x y gy u gx | CTransposeBw _ d x y gy gx => CTransposeBw als d x y gy gx
  | c => c
  end.
Definition is_alloc (c : call K) : Prop := match c with CAlloc _ _ => True | _ => False end.
Local Opaque call_fw call_bw call_u32 fw_registry bw_registry new_alloc alloc.
Ltac tab := apply le_pickf; unfold unary, with_const, binary, with_u32, operators, unary_bw, const_bw, binary_bw, with_u32_bw; repeat match goal with |- Forall2 _ (_ :: _) (_ :: _) => apply Forall2_cons | |- Forall2 _ [] [] => apply Forall2_nil end.
Lemma u_perform als c : ~ is_alloc c -> fair c -> exact_memory c -> exacts als -> Forall (@sane K) (operands c) -> le_res (perform srt Debug c) (perform srt Debug (reallocated als c)).
Proof.
  intros HN HF HE HA HO. pose proof (HA 0) as HA0.
  destruct c; cbn [perform operands fair reallocated exact_memory is_alloc] in *; repeat match goal with H : Forall _ (_ :: _) |- _ => let H1 := fresh "S" in apply Forall_cons_iff in H; destruct H as (H1 & H) | H : _ /\ _ |- _ => destruct H end;
    try (simple apply Mode.le_refl); try (simple apply le_one); try (simple apply le_none); try (simple apply le_dev; intros).
  - destruct (HN I).
  - apply u_constant; auto.
  - apply u_new_slice; auto.
  - apply u_move; auto.
  - tab; apply le_dev; intros. Local Transparent fw_registry. 1-11: (eapply u_fw_x; eauto; reflexivity). apply u_transpose; auto. apply u_batch_sum; auto. apply u_copy; auto.
  - tab; apply le_dev; intros; eapply u_fw_const; eauto; reflexivity.
  - tab; apply le_dev; intros. 1-5: (eapply u_fw_ab; eauto; reflexivity). apply u_matmul; auto. all: eapply u_fw_scalar; eauto; reflexivity.
  - tab; apply le_dev; intros. apply u_sum; auto. 1-2: eapply u_extremum; eauto; reflexivity. apply u_logsumexp; auto. apply (@u_triangular K false); auto. apply (@u_triangular K true); auto.
  - apply u_powi; auto.
  - apply u_broadcast; auto.
  - apply u_slice; auto.
  - apply u_pick; auto.
  - apply u_batch_slice; auto.
  - apply u_batch_pick; auto.
  - apply u_t_concat; auto.
  - apply u_t_batch_concat; auto.
  - tab; [apply u_t_add|apply u_t_sub|apply u_t_mul|apply u_t_div]; auto.
  - apply u_split; auto.
  - apply u_batch_split; auto.
  - apply u_reshape; auto.
  - apply u_flatten; auto.
  - apply u_ln_softmax; auto.
  - apply u_softmax; auto.
  - apply u_sce; auto.
  - apply u_sparse; auto.
  - tab; try (simple apply Mode.le_refl); [apply u_matmul_bw_a|apply u_matmul_bw_b]; auto.
  - tab; try (simple apply Mode.le_refl); [apply (@u_triangular_bw K als0 als) with (upper := false)|apply (@u_triangular_bw K als0 als) with (upper := true)]; auto.
  - apply u_transpose_bw; auto.
Qed.
End Calls.
