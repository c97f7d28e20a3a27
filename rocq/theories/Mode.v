(** * Mode: what succeeds with overflow checks gives the same result without *)
From Verif Require Export Kernels KSort.
Set Implicit Arguments.

(** [r2] agrees with [r1] whenever [r1] succeeds *)
Definition le_res {A} (r1 r2 : res A) : Prop := forall v, r1 = Ok v -> r2 = Ok v.

Lemma le_refl A (r : res A) : le_res r r. Proof. intros v H; exact H. Qed.
Lemma le_bind A B (r1 r2 : res A) (k1 k2 : A -> res B) :
  le_res r1 r2 -> (forall a, r1 = Ok a -> le_res (k1 a) (k2 a)) -> le_res (bind r1 k1) (bind r2 k2).
Proof.
  intros H1 H2 v Hv. destruct r1 as [a| |]; cbn in Hv; try discriminate.
  rewrite (H1 a eq_refl). cbn. apply (H2 a eq_refl), Hv.
Qed.
Lemma le_forL A S (l : list A) (f1 f2 : A -> S -> res S) : (forall a s, le_res (f1 a s) (f2 a s)) -> forall s, le_res (forL l f1 s) (forL l f2 s).
Proof.
  intros H; induction l as [|a l IH]; intros s; [apply le_refl|].
  cbn. apply le_bind; [apply H|]. intros; apply IH.
Qed.
Lemma le_forN S n (f1 f2 : nat -> S -> res S) : (forall a s, le_res (f1 a s) (f2 a s)) -> forall s, le_res (forN n f1 s) (forN n f2 s).
Proof. intros H s; apply le_forL, H. Qed.
Lemma le_forR S lo hi (f1 f2 : nat -> S -> res S) : (forall a s, le_res (f1 a s) (f2 a s)) -> forall s, le_res (forR lo hi f1 s) (forR lo hi f2 s).
Proof. intros H s; apply le_forL, H. Qed.
Lemma le_norm32 m x : le_res (norm32 Debug x) (norm32 m x).
Proof. intros v; unfold norm32; destruct (x <? two32)%N; [auto|discriminate]. Qed.
Lemma le_upd A (l : list A) i (f1 f2 : A -> res A) : (forall v, le_res (f1 v) (f2 v)) -> le_res (upd l i f1) (upd l i f2).
Proof. intros H. unfold upd. apply le_bind; [apply le_refl|]. intros; apply le_bind; [apply H|intros; apply le_refl]. Qed.

Ltac lemono :=
  repeat first
    [ progress intros
    | apply le_norm32
    | apply le_refl
    | apply le_upd
    | apply le_bind
    | apply le_forL | apply le_forN | apply le_forR
    | match goal with |- context [match ?x with _ => _ end] => destruct x end ].

Section Mode.
Variable m : build.
Lemma le_mul32 a b : le_res (mul32 Debug a b) (mul32 m a b). Proof. apply le_norm32. Qed.
Lemma le_add32 a b : le_res (add32 Debug a b) (add32 m a b). Proof. apply le_norm32. Qed.
Ltac lm := repeat first [ progress intros | apply le_mul32 | apply le_add32 | apply le_norm32 | apply le_refl | apply le_upd | apply le_bind
    | apply le_forL | apply le_forN | apply le_forR
    | match goal with |- le_res (match ?x with _ => _ end) (match ?x with _ => _ end) => destruct x end ].
Lemma le_shape_new ds b : le_res (shape_new Debug ds b) (shape_new m ds b).
Proof. unfold shape_new. lm. Qed.
Lemma le_update_dim s d k : le_res (update_dim Debug s d k) (update_dim m s d k).
Proof. unfold update_dim. lm. Qed.
Lemma le_resize_dim s d k : le_res (resize_dim Debug s d k) (resize_dim m s d k).
Proof. apply le_update_dim. Qed.
Lemma le_lower_volume s d : le_res (lower_volume Debug s d) (lower_volume m s d).
Proof. unfold lower_volume. lm. Qed.
Lemma le_size s : le_res (size Debug s) (size m s).
Proof. unfold size. lm. Qed.
Lemma le_loo a b d : le_res (has_same_loo_dims Debug a b d) (has_same_loo_dims m a b d).
Proof. unfold has_same_loo_dims. lm. Qed.
Lemma le_broadcast x d n : le_res (so_broadcast Debug x d n) (so_broadcast m x d n).
Proof. unfold so_broadcast. lm; try apply le_resize_dim. Qed.
Lemma le_matmul a b : le_res (so_matmul Debug a b) (so_matmul m a b).
Proof. unfold so_matmul. lm; try apply le_shape_new. Qed.
Lemma le_transpose a : le_res (so_transpose Debug a) (so_transpose m a).
Proof. unfold so_transpose. lm; try apply le_shape_new. Qed.
Lemma le_slice x d lo hi : le_res (so_slice Debug x d lo hi) (so_slice m x d lo hi).
Proof. unfold so_slice. lm; try apply le_resize_dim. Qed.
Lemma le_pick x ids d : le_res (so_pick Debug x ids d) (so_pick m x ids d).
Proof. unfold so_pick. lm; try apply le_resize_dim. Qed.
Lemma le_concat xs d : le_res (so_concat Debug xs d) (so_concat m xs d).
Proof. unfold so_concat. lm; try apply le_loo; try apply le_resize_dim. Qed.
Lemma le_batch_concat xs : le_res (so_batch_concat Debug xs) (so_batch_concat m xs).
Proof. unfold so_batch_concat. lm. Qed.
End Mode.
