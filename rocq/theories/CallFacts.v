(** * CallFacts: safety of the calls; agreement of the two kinds of build *)
From Coq Require Import Permutation.
From Verif Require Export Calls.
Set Implicit Arguments.
Unset Strict Implicit.

Section Facts.
Variable K : num.
Notation F := (F K).
Notation tensor := (tensor K).
Notation oracle := (alloc_oracle K).
Variable srt : (nat -> nat -> option comparison) -> list nat -> res (list nat).

Lemma good_one (r : res tensor) : good (@sane K) r -> good (Forall (@sane K)) (one r).
Proof. intros H. unfold one. eapply good_bind; [exact H|]. intros y _ S. cbn. auto. Qed.
Lemma good_none A (r : res A) : good anything r -> good (Forall (@sane K)) (none K r).
Proof. intros H. unfold none. eapply good_bind; [exact H|]. intros y _ S. cbn. auto. Qed.
Lemma good_pick_device o (x : tensor) : good anything (pick_device o x).
Proof. destruct o; [exact I|apply good_dev]. Qed.
Lemma via_pick A (P : A -> Prop) o (x : tensor) (k : nat -> res A) : (forall d, good P (k d)) -> good P (bind (pick_device o x) k).
Proof. intros H. eapply good_bind; [apply good_pick_device|]. auto. Qed.
Lemma good_table A B (P : B -> Prop) (l : list A) i (k : A -> res B) : Forall (fun f => good P (k f)) l -> good P (f <- idx l i ;; k f).
Proof. intros H. unfold idx. destruct (nth_error l i) as [f|] eqn:E; [|exact I]. rewrite Forall_forall in H. apply H. eapply nth_error_In; eauto. Qed.
Ltac table := apply good_table; unfold unary, with_const, binary, with_u32, operators, unary_bw, const_bw, binary_bw, with_u32_bw; repeat match goal with |- Forall _ (_ :: _) => apply Forall_cons | |- Forall _ [] => apply Forall_nil end; try (apply via_pick; intros d).
Lemma g_alloc al (x : tensor) : al_ok al -> sane x -> good (@sane K) (alloc Debug al x).
Proof.
  intros HA S. unfold alloc. destruct (t_buf x) as [l|] eqn:B; [unfold valid; rewrite B; exact I|]. unfold valid. rewrite B. cbn [negb assert bind]. destruct (t_host x) as [vs|] eqn:EH; [exact I|]. cbn [assert bind].
  unfold device_of. destruct (t_dev x) as [d|] eqn:D; [|exact I]. cbn [unwrap bind]. pose proof (g_new_alloc d HA (sane_wf S)) as G. unfold new_alloc, alloc, new_tensor in G. cbn [valid t_buf t_host t_dev t_shape negb assert bind device_of unwrap] in G. exact G.
Qed.

(** the calls that do not check what they need: [+=] and [-=] accept any two shapes, the backward function of
    batch_pick passes its ids without the dimension *)
Definition checked (c : call K) : Prop :=
  match c with
  | CAddAssign _ x y | CSubAssign _ x y => assign_ok x y
  | CBatchPickBw _ _ _ _ => False
  | _ => True
  end.

Lemma g_assign_gen name acc d (x y : tensor) : assoc (fw_registry K Debug) name = Some (fx (k_assign acc)) -> sane x -> sane y -> assign_ok x y ->
  good (@sane K) (_ <- check_dev d x ;; _ <- check_dev d y ;; call_fw Debug name [x] [] [] y).
Proof.
  intros HN Sx Sy HO. destruct (dev_cases d x) as [Dx|P]; [|rewrite P; exact I]. destruct (dev_cases d y) as [Dy|P]; [|rewrite P; gp].
  nb x; [unfold call_fw; rewrite HN; unfold fx, k_assign; nobuf B|]. nb y; [unfold call_fw; rewrite HN; unfold fx, k_assign; nobuf B|].
  eapply good_updates; [exact R0|]. eapply (@assign_updates K Debug name acc d x y (fun d x y => _ <- check_dev d x ;; _ <- check_dev d y ;; call_fw Debug name [x] [] [] y)); eauto.
Qed.
Theorem perform_good c : sort_sound srt -> fair c -> checked c -> Forall (@sane K) (operands c) -> good (Forall (@sane K)) (perform srt Debug c).
Proof.
  intros HS HF HC HO.
  destruct c; cbn [perform operands fair checked] in *; repeat match goal with H : Forall _ (_ :: _) |- _ => let H1 := fresh "S" in apply Forall_cons_iff in H; destruct H as (H1 & H) | H : _ /\ _ |- _ => destruct H end;
    try (apply good_one); try (apply good_none); try (apply via_pick; intros).
  (* creation *)
  - cbn. constructor; [|constructor]. split; auto. cbn. discriminate.
  - cbn. constructor; [|constructor]. split; auto. cbn. discriminate.
  - apply g_alloc; auto.
  - apply g_by_constant; auto.
  - apply g_new_by_slice; auto.
  - apply g_move; auto.
  - apply g_reset; auto.
  - apply g_by_slice; auto.
  - apply g_by_tensor; auto.
  - apply g_update_shape; auto.
  - apply g_mul_assign; auto.
  - apply g_to_vec; auto.
  - apply g_to_float; auto.
  - apply g_argmax; auto.
  - apply g_argmin; auto.
  - apply g_argsort; auto.
  - table. 1-11: eapply g_fw_x; eauto; reflexivity. apply g_transpose; auto. apply g_batch_sum; auto. apply g_copy; auto.
  - table. all: eapply g_fw_const; eauto; reflexivity.
  - table. 1-5: eapply g_fw_ab; eauto; reflexivity. apply g_matmul; auto. all: eapply g_fw_scalar; eauto; reflexivity.
  - table. apply g_sum; auto. 1-2: eapply g_extremum; eauto; reflexivity. apply g_logsumexp; auto. apply (@g_triangular K false); auto. apply (@g_triangular K true); auto.
  - apply g_powi; auto.
  - apply g_broadcast; auto.
  - apply g_slice; auto.
  - apply g_pick; auto.
  - apply g_batch_slice; auto.
  - apply g_batch_pick; auto.
  - apply g_t_concat; auto.
  - apply g_t_batch_concat; auto.
  - table; [apply g_t_add|apply g_t_sub|apply g_t_mul|apply g_t_div]; auto.
  - apply g_split; auto.
  - apply g_batch_split; auto.
  - apply g_reshape; auto.
  - apply g_flatten; auto.
  - apply g_ln_softmax; auto.
  - apply g_softmax; auto.
  - apply g_sce; auto.
  - apply g_sparse_sce; auto.
  - table. apply g_neg_bw. all: eapply g_bw_x; eauto; reflexivity.
  - table. all: eapply g_bw_const; eauto; reflexivity.
  - table. 1,3: eapply g_lin_a; eauto; reflexivity. 1,2: eapply g_lin_b; eauto; reflexivity. 1,3: eapply g_other_a; eauto; reflexivity. 1: eapply g_other_b; eauto; reflexivity.
    apply g_div_b; auto. apply g_powf_a; auto. apply g_powf_b; auto. apply g_matmul_bw_a; auto. apply g_matmul_bw_b; auto.
  - table. 1,2: eapply g_extremum_bw; eauto; reflexivity. apply (@g_triangular_bw K false); auto. apply (@g_triangular_bw K true); auto.
  - apply g_powi_bw; auto.
  - apply g_transpose_bw; auto.
  - apply g_slice_bw; auto.
  - apply g_pick_bw; auto.
  - apply g_batch_slice_bw; auto.
  - destruct HC.
  - eapply g_assign_gen; eauto; reflexivity.
  - eapply g_assign_gen; eauto; reflexivity.
Qed.
End Facts.
