(** * Release: a call that succeeds in a build with overflow checks returns the same without them *)
From Verif Require Export Mode Api.
Set Implicit Arguments.
Unset Strict Implicit.

Section Rel.
Variable K : num.
Notation F := (F K).
Notation tensor := (tensor K).
Variable m : build.
Variable srt : (nat -> nat -> option comparison) -> list nat -> res (list nat).
Implicit Types (al : alloc_oracle K).

Ltac lm := repeat first [ progress intros | simple apply le_mul32 | simple apply le_add32 | simple apply le_norm32 | simple apply Mode.le_refl | simple apply le_size | simple apply le_lower_volume | simple apply le_shape_new | simple apply le_resize_dim
    | simple apply le_loo | simple apply le_broadcast | simple apply le_matmul | simple apply le_transpose | simple apply le_slice | simple apply le_pick | simple apply le_concat | simple apply le_batch_concat
    | simple apply le_upd | simple apply le_bind
    | simple apply le_forL | simple apply le_forN | simple apply le_forR
    | match goal with |- le_res (match ?x with _ => _ end) (match ?x with _ => _ end) => destruct x end ].

Lemma le_to_vector_k (x : tensor) y : le_res (k_to_vector Debug x y) (k_to_vector m x y). Proof. unfold k_to_vector. lm. Qed.
Lemma le_tensor_to_vector (x : tensor) : le_res (tensor_to_vector Debug x) (tensor_to_vector m x).
Proof. unfold tensor_to_vector, call_f32. cbn [assoc f32_registry String.eqb Ascii.eqb Bool.eqb]. unfold k_to_vector. lm. Qed.
Lemma le_to_vec (x : tensor) : le_res (to_vec Debug x) (to_vec m x).
Proof. unfold to_vec. simple apply le_bind; [simple apply Mode.le_refl|]. intros. simple apply le_tensor_to_vector. Qed.
Lemma le_to_float (x : tensor) : le_res (to_float Debug x) (to_float m x).
Proof. unfold to_float, tensor_to_float, call_f32. cbn [assoc f32_registry String.eqb Ascii.eqb Bool.eqb]. unfold k_to_vector. lm. Qed.
Lemma le_call_u32 name (xs : list tensor) u y : le_res (call_u32 Debug srt name xs u y) (call_u32 m srt name xs u y).
Proof.
  unfold call_u32, u32_registry. cbn [assoc]. repeat match goal with |- context [String.eqb ?p ?q] => destruct (String.eqb p q) end; unfold k_arg, k_argsort; lm.
Qed.
Definition le_entries (a b : list (string * kfw K)) := Forall2 (fun e1 e2 => fst e1 = fst e2 /\ forall xs u f y, le_res (snd e1 xs u f y) (snd e2 xs u f y)) a b.
Lemma le_fw_registry : le_entries (fw_registry K Debug) (fw_registry K m).
Proof.
  unfold fw_registry. repeat (constructor; [split; [reflexivity|]; intros xs u f y; cbn [snd] | ]); [..|constructor].
  all: unfold fx, fxx, fxc, fxd, fxu, k_reset, k_reset_slice, k_reset_tensor, k_identity, k_assign, k_mul_assign, k_fw_x, k_fw_ab, k_fw_const, k_fw_scalar, k_powi_fw, k_sum, k_extremum, k_logsumexp, k_broadcast,
    k_matmul, k_transpose, k_triangular, k_slice_fw, k_pick_fw, k_concat, k_batch_sum, k_batch_slice_fw, k_batch_pick_fw, k_batch_concat, k_permute_fw, k_flip_fw.
  all: try solve [lm].
  all: unfold k_reset; lm; simple apply le_to_vec.
Qed.
Lemma le_call_fw name (xs : list tensor) u f y : le_res (call_fw Debug name xs u f y) (call_fw m name xs u f y).
Proof.
  unfold call_fw. generalize le_fw_registry. generalize (fw_registry K Debug) (fw_registry K m). intros a b H. induction H as [|[n1 k1] [n2 k2] a b [E H] _ IH]; cbn; [simple apply Mode.le_refl|].
  cbn in E. subst n2. destruct (String.eqb n1 name); [apply H|apply IH].
Qed.
Local Opaque call_fw call_u32 to_vec to_float fw_registry.
Lemma le_alloc al (t : tensor) : le_res (alloc Debug al t) (alloc m al t). Proof. unfold alloc. lm. Qed.
Lemma le_new_alloc d al s : le_res (new_alloc Debug d al s) (new_alloc m d al s). Proof. unfold new_alloc. simple apply le_alloc. Qed.
Ltac la := repeat first [ progress intros | simple apply le_new_alloc | simple apply le_alloc | simple apply le_call_fw | simple apply le_call_u32 | simple apply le_to_vec | simple apply le_to_float | simple apply Mode.le_refl
    | simple apply le_mul32 | simple apply le_add32 | simple apply le_norm32 | simple apply le_size | simple apply le_lower_volume | simple apply le_shape_new | simple apply le_resize_dim
    | simple apply le_loo | simple apply le_broadcast | simple apply le_matmul | simple apply le_transpose | simple apply le_slice | simple apply le_pick | simple apply le_concat | simple apply le_batch_concat
    | simple apply le_upd | simple apply le_bind
    | simple apply le_forL | simple apply le_forN | simple apply le_forR
    | match goal with |- le_res (match ?x with _ => _ end) (match ?x with _ => _ end) => destruct x end ].
Local Opaque alloc new_alloc.
Lemma le_fw_ab name sop d al (a b : tensor) : le_res (define_fw_ab Debug name sop d al a b) (define_fw_ab m name sop d al a b). Proof. unfold define_fw_ab. la. Qed.
Lemma le_fw_const name d al (x : tensor) k : le_res (define_fw_const Debug name d al x k) (define_fw_const m name d al x k). Proof. unfold define_fw_const. la. Qed.
Lemma le_fw_x name d al (x : tensor) : le_res (define_fw_x Debug name d al x) (define_fw_x m name d al x). Proof. unfold define_fw_x. la. Qed.
Lemma le_reduce name d al (x : tensor) dim : le_res (reduce_fw Debug name d al x dim) (reduce_fw m name d al x dim). Proof. unfold reduce_fw. la. Qed.
Lemma le_tri name d al (x : tensor) k : le_res (triangular_fw Debug name d al x k) (triangular_fw m name d al x k). Proof. unfold triangular_fw. la. Qed.
Lemma le_powi d al (x : tensor) k : le_res (powi_fw Debug d al x k) (powi_fw m d al x k). Proof. unfold powi_fw. la. Qed.
Lemma le_broadcast_fw d al (x : tensor) dim n : le_res (broadcast_fw Debug d al x dim n) (broadcast_fw m d al x dim n). Proof. unfold broadcast_fw. la. Qed.
Lemma le_matmul_fw d al (a b : tensor) : le_res (matmul_fw Debug d al a b) (matmul_fw m d al a b). Proof. unfold matmul_fw. la. Qed.
Lemma le_transpose_fw d al (x : tensor) : le_res (transpose_fw Debug d al x) (transpose_fw m d al x). Proof. unfold transpose_fw. la. Qed.
Lemma le_slice_fw d al (x : tensor) dim lo hi : le_res (slice_fw Debug d al x dim lo hi) (slice_fw m d al x dim lo hi). Proof. unfold slice_fw. la. Qed.
Lemma le_pick_fw d al (x : tensor) ids dim : le_res (pick_fw Debug d al x ids dim) (pick_fw m d al x ids dim). Proof. unfold pick_fw. la. Qed.
Lemma le_concat_fw d al (xs : list tensor) dim : le_res (concat_fw Debug d al xs dim) (concat_fw m d al xs dim). Proof. unfold concat_fw. la. Qed.
Lemma le_batch_sum_fw d al (x : tensor) : le_res (batch_sum_fw Debug d al x) (batch_sum_fw m d al x). Proof. unfold batch_sum_fw. la. Qed.
Lemma le_batch_slice_fw d al (x : tensor) lo hi : le_res (batch_slice_fw Debug d al x lo hi) (batch_slice_fw m d al x lo hi). Proof. unfold batch_slice_fw. la. Qed.
Lemma le_batch_pick_fw d al (x : tensor) ids : le_res (batch_pick_fw Debug d al x ids) (batch_pick_fw m d al x ids). Proof. unfold batch_pick_fw. la. Qed.
Lemma le_batch_concat_fw d al (xs : list tensor) : le_res (batch_concat_fw Debug d al xs) (batch_concat_fw m d al xs). Proof. unfold batch_concat_fw. la. Qed.
Local Opaque define_fw_ab define_fw_const define_fw_x reduce_fw triangular_fw powi_fw broadcast_fw matmul_fw transpose_fw slice_fw pick_fw concat_fw batch_sum_fw batch_slice_fw batch_pick_fw batch_concat_fw.
Lemma le_reset (x : tensor) k : le_res (reset Debug x k) (reset m x k). Proof. unfold reset, reset_tensor. la. Qed.
Lemma le_by_slice (x : tensor) vs : le_res (reset_tensor_by_slice Debug x vs) (reset_tensor_by_slice m x vs). Proof. unfold reset_tensor_by_slice. la. Qed.
Lemma le_by_tensor (x s : tensor) : le_res (reset_tensor_by_tensor Debug x s) (reset_tensor_by_tensor m x s). Proof. unfold reset_tensor_by_tensor. la. Qed.
Lemma le_copy d al (x : tensor) : le_res (copy_tensor Debug d al x) (copy_tensor m d al x).
Proof. unfold copy_tensor. simple apply le_bind; [simple apply le_new_alloc|intros; simple apply le_by_tensor]. Qed.
Lemma le_move d al (x : tensor) : le_res (move_to_device Debug d al x) (move_to_device m d al x).
Proof. unfold move_to_device. repeat (simple apply le_bind; [first [simple apply Mode.le_refl|simple apply le_size]|intros]). simple apply le_by_slice. Qed.
Lemma le_update_shape (x : tensor) s : le_res (update_shape Debug x s) (update_shape m x s). Proof. unfold update_shape. la. Qed.
Lemma le_add_assign d (x y : tensor) : le_res (add_assign Debug d x y) (add_assign m d x y). Proof. unfold add_assign. la. Qed.
Lemma le_sub_assign d (x y : tensor) : le_res (sub_assign Debug d x y) (sub_assign m d x y). Proof. unfold sub_assign. la. Qed.
Lemma le_t_add_assign (x y : tensor) : le_res (t_add_assign Debug x y) (t_add_assign m x y). Proof. unfold t_add_assign. simple apply le_bind; [simple apply Mode.le_refl|intros; simple apply le_add_assign]. Qed.
Lemma le_mul_assign (x : tensor) k : le_res (t_mul_assign Debug x k) (t_mul_assign m x k). Proof. unfold t_mul_assign, mul_assign_const. la. Qed.
Lemma le_constant d al s k : le_res (new_tensor_by_constant Debug d al s k) (new_tensor_by_constant m d al s k). Proof. unfold new_tensor_by_constant. simple apply le_bind; [simple apply le_new_alloc|intros; simple apply le_reset]. Qed.
Lemma le_new_slice d al s vs : le_res (new_tensor_by_slice Debug d al s vs) (new_tensor_by_slice m d al s vs). Proof. unfold new_tensor_by_slice. simple apply le_bind; [simple apply le_new_alloc|intros; simple apply le_by_slice]. Qed.
Lemma le_reshape al (x : tensor) s : le_res (t_reshape Debug al x s) (t_reshape m al x s).
Proof. unfold t_reshape. simple apply le_bind; [simple apply Mode.le_refl|intros]. simple apply le_bind; [simple apply le_copy|intros; simple apply le_update_shape]. Qed.
Lemma le_flatten al (x : tensor) : le_res (t_flatten Debug al x) (t_flatten m al x). Proof. unfold t_flatten. simple apply le_bind; [simple apply le_shape_new|intros; simple apply le_reshape]. Qed.
Ltac ldev := try unfold t_slice, t_batch_slice, t_logsumexp, t_sum, t_broadcast, t_pick, t_exp, t_neg, via1; simple apply le_bind; [simple apply Mode.le_refl|intros].
Lemma le_split als (x : tensor) dim n : le_res (t_split Debug als x dim n) (t_split m als x dim n).
Proof. unfold t_split. ldev. simple apply le_forN. intros. simple apply le_bind; [ldev; simple apply le_slice_fw|intros; simple apply Mode.le_refl]. Qed.
Lemma le_batch_split als (x : tensor) n : le_res (t_batch_split Debug als x n) (t_batch_split m als x n).
Proof. unfold t_batch_split. ldev. simple apply le_forN. intros. simple apply le_bind; [ldev; simple apply le_batch_slice_fw|intros; simple apply Mode.le_refl]. Qed.
Lemma le_t_concat al (xs : list tensor) dim : le_res (t_concat Debug al xs dim) (t_concat m al xs dim). Proof. unfold t_concat. ldev. ldev. simple apply le_concat_fw. Qed.
Lemma le_t_batch_concat al (xs : list tensor) : le_res (t_batch_concat Debug al xs) (t_batch_concat m al xs). Proof. unfold t_batch_concat. ldev. ldev. ldev. simple apply le_batch_concat_fw. Qed.
Lemma le_ab_op f1 f2 l1 l2 r1 r2 al (a b : tensor) : (forall d x y, le_res (f1 d al x y) (f2 d al x y)) -> (forall d x y, le_res (l1 d al x y) (l2 d al x y)) -> (forall d x y, le_res (r1 d al x y) (r2 d al x y)) ->
  le_res (define_ab_op f1 l1 r1 al a b) (define_ab_op f2 l2 r2 al a b).
Proof. intros H1 H2 H3. unfold define_ab_op. repeat match goal with |- le_res (if ?c then _ else _) _ => destruct c end; ldev; auto. Qed.
Lemma le_t_add al (a b : tensor) : le_res (t_add Debug al a b) (t_add m al a b). Proof. unfold t_add. apply le_ab_op; intros; apply le_fw_ab. Qed.
Lemma le_t_sub al (a b : tensor) : le_res (t_sub Debug al a b) (t_sub m al a b). Proof. unfold t_sub. apply le_ab_op; intros; apply le_fw_ab. Qed.
Lemma le_t_mul al (a b : tensor) : le_res (t_mul Debug al a b) (t_mul m al a b). Proof. unfold t_mul. apply le_ab_op; intros; apply le_fw_ab. Qed.
Lemma le_t_div al (a b : tensor) : le_res (t_div Debug al a b) (t_div m al a b). Proof. unfold t_div. apply le_ab_op; intros; apply le_fw_ab. Qed.
Lemma le_ln_softmax als (x : tensor) dim : le_res (t_ln_softmax Debug als x dim) (t_ln_softmax m als x dim).
Proof. unfold t_ln_softmax. simple apply le_bind; [ldev; apply le_reduce|intros]. simple apply le_bind; [ldev; apply le_broadcast_fw|intros]. simple apply le_t_sub. Qed.
Lemma le_softmax als (x : tensor) dim : le_res (t_softmax Debug als x dim) (t_softmax m als x dim).
Proof. unfold t_softmax. simple apply le_bind; [simple apply le_ln_softmax|intros]. ldev. apply le_fw_x. Qed.
Lemma le_sce als (x t : tensor) dim : le_res (t_softmax_cross_entropy Debug als x t dim) (t_softmax_cross_entropy m als x t dim).
Proof. unfold t_softmax_cross_entropy. simple apply le_bind; [simple apply le_ln_softmax|intros]. simple apply le_bind; [simple apply le_t_mul|intros]. simple apply le_bind; [ldev; apply le_reduce|intros]. ldev. apply le_fw_x. Qed.
Lemma le_sparse als (x : tensor) ids dim : le_res (t_sparse_softmax_cross_entropy Debug als x ids dim) (t_sparse_softmax_cross_entropy m als x ids dim).
Proof. unfold t_sparse_softmax_cross_entropy. simple apply le_bind; [simple apply le_ln_softmax|intros]. simple apply le_bind; [ldev; apply le_pick_fw|intros]. ldev. apply le_fw_x. Qed.

(** *** backward *)
Definition le_bentries (a b : list (string * kbw K)) := Forall2 (fun e1 e2 => fst e1 = fst e2 /\ forall als xs ys gys u f y, le_res (snd e1 als xs ys gys u f y) (snd e2 als xs ys gys u f y)) a b.
Lemma le_sub_i32 a b : le_res (sub_i32 Debug a b) (sub_i32 m a b).
Proof. unfold sub_i32. intros v H. destruct m; auto. revert H. cbv zeta. destruct (_ && _)%bool eqn:E; [|discriminate]. intros H; rewrite E || idtac; exact H. Qed.
Lemma le_bw_registry : le_bentries (bw_registry K Debug) (bw_registry K m).
Proof.
  unfold bw_registry. repeat (constructor; [split; [reflexivity|]; intros als xs ys gys u f y; cbn [snd] | ]); [..|constructor].
  all: unfold bx, bxc, k_bw_lin, k_bw_other, k_div_bw_b, k_powf_bw_a, k_powf_bw_b, k_powi_bw, k_bw_x, k_bw_const, k_extremum_bw, k_matmul_bw_a, k_matmul_bw_b, k_transpose_bw, k_triangular_bw, k_permute_bw, k_flip_bw,
    k_slice_bw, k_pick_bw, k_batch_pick_bw, k_batch_slice_bw, t_transpose, via1, t_triangular_u, t_triangular_l.
  all: try solve [lm].
  all: try solve [repeat first [simple apply le_sub_i32 | lm]].
  all: repeat (simple apply le_bind; [first [simple apply Mode.le_refl|simple apply le_transpose_fw|simple apply le_matmul_fw|apply le_tri|simple apply le_bind; [simple apply Mode.le_refl|intros; first [apply le_tri|simple apply le_transpose_fw]]]|intros]); simple apply le_t_add_assign.
Qed.
Lemma le_call_bw als name (xs ys gys : list tensor) u f y : le_res (call_bw Debug als name xs ys gys u f y) (call_bw m als name xs ys gys u f y).
Proof.
  unfold call_bw. generalize le_bw_registry. generalize (bw_registry K Debug) (bw_registry K m). intros a b H. induction H as [|[n1 k1] [n2 k2] a b [E H] _ IH]; cbn; [simple apply Mode.le_refl|].
  cbn in E. subst n2. destruct (String.eqb n1 name); [apply H|apply IH].
Qed.
Local Opaque call_bw bw_registry.
Ltac lb := repeat (simple apply le_bind; [first [simple apply Mode.le_refl|simple apply le_resize_dim|simple apply le_transpose|simple apply le_add32|simple apply le_slice|simple apply le_pick]|intros]); simple apply le_call_bw.
Lemma le_bw_a name sop sop' als d (a b y gy ga : tensor) : (forall s t, le_res (sop s t) (sop' s t)) -> le_res (define_bw_ab_a Debug name sop als d a b y gy ga) (define_bw_ab_a m name sop' als d a b y gy ga).
Proof. intros H. unfold define_bw_ab_a. repeat (simple apply le_bind; [first [simple apply Mode.le_refl|apply H]|intros]). simple apply le_call_bw. Qed.
Lemma le_bw_b name sop sop' als d (a b y gy ga : tensor) : (forall s t, le_res (sop s t) (sop' s t)) -> le_res (define_bw_ab_b Debug name sop als d a b y gy ga) (define_bw_ab_b m name sop' als d a b y gy ga).
Proof. intros H. unfold define_bw_ab_b. repeat (simple apply le_bind; [first [simple apply Mode.le_refl|apply H]|intros]). simple apply le_call_bw. Qed.
Lemma le_bw_x name d (x y gy gx : tensor) : le_res (define_bw_x Debug name d x y gy gx) (define_bw_x m name d x y gy gx). Proof. unfold define_bw_x. lb. Qed.
Lemma le_bw_const name d (x y gy : tensor) k gx : le_res (define_bw_const Debug name d x y gy k gx) (define_bw_const m name d x y gy k gx). Proof. unfold define_bw_const. lb. Qed.
Lemma le_powi_bw d (x y gy : tensor) k gx : le_res (powi_bw Debug d x y gy k gx) (powi_bw m d x y gy k gx). Proof. unfold powi_bw. lb. Qed.
Lemma le_extremum_bw name d (x y gy : tensor) dim gx : le_res (extremum_bw Debug name d x y gy dim gx) (extremum_bw m name d x y gy dim gx). Proof. unfold extremum_bw. lb. Qed.
Lemma le_transpose_bw als d (x y gy gx : tensor) : le_res (transpose_bw Debug als d x y gy gx) (transpose_bw m als d x y gy gx). Proof. unfold transpose_bw. lb. Qed.
Lemma le_tri_bw name als d (x y gy : tensor) k gx : le_res (triangular_bw Debug name als d x y gy k gx) (triangular_bw m name als d x y gy k gx). Proof. unfold triangular_bw. lb. Qed.
Lemma le_slice_bw d (gy : tensor) dim lo gx : le_res (slice_bw Debug d gy dim lo gx) (slice_bw m d gy dim lo gx). Proof. unfold slice_bw. lb. Qed.
Lemma le_pick_bw d (gy : tensor) ids dim gx : le_res (pick_bw Debug d gy ids dim gx) (pick_bw m d gy ids dim gx). Proof. unfold pick_bw. lb. Qed.
Lemma le_batch_slice_bw d (gy : tensor) lo gx : le_res (batch_slice_bw Debug d gy lo gx) (batch_slice_bw m d gy lo gx). Proof. unfold batch_slice_bw. lb. Qed.
Lemma le_batch_pick_bw d (gy : tensor) ids gx : le_res (batch_pick_bw Debug d gy ids gx) (batch_pick_bw m d gy ids gx). Proof. unfold batch_pick_bw. lb. Qed.
Lemma le_argmax d (x : tensor) dim : le_res (argmax Debug srt d x dim) (argmax m srt d x dim). Proof. unfold argmax. la. Qed.
Lemma le_argmin d (x : tensor) dim : le_res (argmin Debug srt d x dim) (argmin m srt d x dim). Proof. unfold argmin. la. Qed.
Lemma le_argsort d (x : tensor) dim : le_res (argsort Debug srt d x dim) (argsort m srt d x dim). Proof. unfold argsort. la. Qed.
End Rel.
