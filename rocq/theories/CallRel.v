(** * CallRel: a call that succeeds with overflow checks does the same without them *)
From Verif Require Export CallFacts.
Set Implicit Arguments.
Unset Strict Implicit.

Section Rel.
Variable K : num.
Variable srt : (nat -> nat -> option comparison) -> list nat -> res (list nat).
Variable m : build.
Notation tensor := (tensor K).

Local Opaque call_fw call_bw call_u32 fw_registry bw_registry new_alloc alloc.
Lemma le_one (r1 r2 : res tensor) : le_res r1 r2 -> le_res (one r1) (one r2).
Proof. intros H. apply le_bind; [exact H|intros; apply Mode.le_refl]. Qed.
Lemma le_none A (r1 r2 : res A) : le_res r1 r2 -> le_res (@none K A r1) (@none K A r2).
Proof. intros H. apply le_bind; [exact H|intros; apply Mode.le_refl]. Qed.
Lemma le_dev A (o : device) (x : tensor) (k1 k2 : nat -> res A) : (forall d, le_res (k1 d) (k2 d)) -> le_res (d <- pick_device o x ;; k1 d) (d <- pick_device o x ;; k2 d).
Proof. intros H. apply le_bind; [apply Mode.le_refl|intros; apply H]. Qed.
Lemma le_pickf T A (l1 l2 : list T) i (k1 k2 : T -> res A) : Forall2 (fun f g => le_res (k1 f) (k2 g)) l1 l2 -> le_res (f <- idx l1 i ;; k1 f) (f <- idx l2 i ;; k2 f).
Proof.
  intros H v. revert i. induction H as [|f g l1 l2 L _ IH]; intros [|i]; unfold idx; cbn [nth_error bind]; try discriminate; [apply L|]. apply IH.
Qed.
Ltac tab := apply le_pickf; repeat constructor.
Lemma le_perform (c : call K) : le_res (perform srt Debug c) (perform srt m c).
Proof.
  destruct c; cbn [perform]; try (apply Mode.le_refl); try (apply le_one); try (apply le_none).
  - apply le_alloc.
  - apply le_constant.
  - apply le_new_slice.
  - apply le_move.
  - apply le_reset.
  - apply le_by_slice.
  - apply le_by_tensor.
  - apply le_update_shape.
  - apply le_mul_assign.
  - apply le_to_vec.
  - apply le_to_float.
  - apply le_dev; intros; apply le_argmax.
  - apply le_dev; intros; apply le_argmin.
  - apply le_dev; intros; apply le_argsort.
  - tab; apply le_dev; intros d; first [apply le_fw_x|apply le_transpose_fw|apply le_batch_sum_fw|apply le_copy].
  - tab; apply le_dev; intros d; apply le_fw_const.
  - tab; apply le_dev; intros d; first [apply le_fw_ab|apply le_matmul_fw].
  - tab; apply le_dev; intros d; first [apply le_reduce|apply le_tri].
  - apply le_dev; intros; apply le_powi.
  - apply le_dev; intros; apply le_broadcast_fw.
  - apply le_dev; intros; apply le_slice_fw.
  - apply le_dev; intros; apply le_pick_fw.
  - apply le_dev; intros; apply le_batch_slice_fw.
  - apply le_dev; intros; apply le_batch_pick_fw.
  - apply le_t_concat.
  - apply le_t_batch_concat.
  - tab; [apply le_t_add|apply le_t_sub|apply le_t_mul|apply le_t_div].
  - apply le_split.
  - apply le_batch_split.
  - apply le_reshape.
  - apply le_flatten.
  - apply le_ln_softmax.
  - apply le_softmax.
  - apply le_sce.
  - apply le_sparse.
  - tab; apply le_bw_x.
  - tab; apply le_bw_const.
  - tab; first [apply le_bw_a|apply le_bw_b]; intros; first [apply Mode.le_refl|apply le_matmul].
  - tab; first [apply le_extremum_bw|apply le_tri_bw].
  - apply le_powi_bw.
  - apply le_transpose_bw.
  - apply le_slice_bw.
  - apply le_pick_bw.
  - apply le_batch_slice_bw.
  - apply le_batch_pick_bw.
Qed.
End Rel.
