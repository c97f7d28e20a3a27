(** * RelGraph: what a graph does in a build with overflow checks it does in a build without *)
From Verif Require Export Release Ops.
Set Implicit Arguments.
Unset Strict Implicit.

Section Engine.
Variable K : num.
Notation tensor := (tensor K).
Notation node := (nat * nat)%type.
Variable m : build.
Variable Oper : Type.
Variable i1 i2 : Oper -> Graph.operator K.
Notation graph := (graph K Oper).

(** [b] does what [a] does whenever [a] succeeds *)
Definition le_update (u v : update K) : Prop := fst u = fst v /\ forall t, le_res (snd u t) (snd v t).
Definition le_ups (r1 r2 : res (list (update K))) : Prop := forall us, r1 = Ok us -> exists vs, r2 = Ok vs /\ Forall2 le_update us vs.
Record le_operator (a b : Graph.operator K) : Prop := {
  lo_device : le_res (op_device a) (op_device b);
  lo_shapes : forall ss, le_res (op_shapes a ss) (op_shapes b ss);
  lo_forward : forall xs ys, le_res (op_forward a xs ys) (op_forward b xs ys);
  lo_backward : forall xs ys gys, le_ups (op_backward a xs ys gys) (op_backward b xs ys gys) }.
Hypothesis H : forall o, le_operator (i1 o) (i2 o).

Lemma le_mapM A B (f g : A -> res B) l : (forall x, le_res (f x) (g x)) -> le_res (mapM f l) (mapM g l).
Proof.
  intros L. induction l as [|x l IH]; [apply Mode.le_refl|]. cbn [mapM fold_right]. apply le_bind; [apply L|]. intros y _. apply le_bind; [exact IH|]. intros; apply Mode.le_refl.
Qed.
Lemma le_create (g : graph) op own xs : le_res (create i1 g op own xs) (create i2 g op own xs).
Proof.
  unfold create. apply le_bind; [apply Mode.le_refl|intros ss _]. apply le_bind; [apply lo_shapes, H|intros rs _].
  assert (D : forall s, le_res (d <- op_device (i1 op) ;; Ok (@new_tensor K d s)) (d <- op_device (i2 op) ;; Ok (@new_tensor K d s))).
  { intros s. apply le_bind; [apply lo_device, H|intros; apply Mode.le_refl]. }
  apply le_bind; [apply le_mapM, D|intros]. apply le_bind; [apply le_mapM, D|intros]. apply Mode.le_refl.
Qed.
Lemma le_device_at (g : graph) n : le_res (device_at i1 g n) (device_at i2 g n).
Proof. unfold device_at. apply le_bind; [apply Mode.le_refl|intros; apply lo_device, H]. Qed.
Lemma le_step_fw (g g' : graph) i : step_fw i1 g i = (g', Ok tt) -> step_fw i2 g i = (g', Ok tt).
Proof.
  unfold step_fw. destruct (nth_error (g_ops g) i) as [o|]; [|discriminate]. destruct (oi_fwd o); [auto|].
  destruct (bind (mapM _ _) (fun xs => op_forward (i1 _) _ _)) as [ys| |] eqn:E; try discriminate. intros Q.
  assert (L : le_res (xs <- mapM (value_of (mkGraph (lset (g_ops g) i (mkOpinfo (oi_op o) (oi_args o) (oi_vals o) (oi_grads o) (oi_own o) true (oi_depth o))) (g_log g ++ [i]))) (oi_args o) ;; op_forward (i1 (oi_op o)) xs (oi_vals o))
    (xs <- mapM (value_of (mkGraph (lset (g_ops g) i (mkOpinfo (oi_op o) (oi_args o) (oi_vals o) (oi_grads o) (oi_own o) true (oi_depth o))) (g_log g ++ [i]))) (oi_args o) ;; op_forward (i2 (oi_op o)) xs (oi_vals o))).
  { apply le_bind; [apply Mode.le_refl|intros; apply lo_forward, H]. }
  rewrite (L _ E). exact Q.
Qed.
Lemma le_run_fw l : forall g g' : graph, run_fw i1 g l = (g', Ok tt) -> run_fw i2 g l = (g', Ok tt).
Proof.
  induction l as [|i l IH]; intros g g' E; [exact E|]. cbn in *. destruct (step_fw i1 g i) as [g1 [[]| |]] eqn:E1; try discriminate. rewrite (le_step_fw E1). auto.
Qed.
Lemma le_forward pop (g g' : graph) root : forward i1 pop g root = (g', Ok tt) -> forward i2 pop g root = (g', Ok tt).
Proof. apply le_run_fw. Qed.
Lemma le_seed gal (g : graph) root : le_res (seed Debug gal g root) (seed m gal g root).
Proof.
  unfold seed. apply le_bind; [apply Mode.le_refl|intros o _]. apply le_bind; [|intros; apply Mode.le_refl]. apply le_mapM. intros vt. apply le_bind; [apply le_alloc|intros; apply le_reset].
Qed.
Lemma le_ensure gal n (g : graph) : le_res (ensure_grad Debug gal n g) (ensure_grad m gal n g).
Proof.
  unfold ensure_grad. apply le_bind; [apply Mode.le_refl|intros t _]. destruct (valid t); [apply Mode.le_refl|]. apply le_bind; [apply le_alloc|intros]. apply le_bind; [apply le_reset|intros; apply Mode.le_refl].
Qed.
Lemma le_apply i args u v (g : graph) : le_update u v -> le_res (apply_update i args u g) (apply_update i args v g).
Proof.
  intros (E & L). unfold apply_update. rewrite <- E. destruct (fst u); repeat (apply le_bind; [apply Mode.le_refl|intros]); (apply le_bind; [apply L|intros; apply Mode.le_refl]).
Qed.
Lemma le_updates i args us vs : Forall2 le_update us vs -> forall g : graph, le_res (forL us (apply_update i args) g) (forL vs (apply_update i args) g).
Proof.
  induction 1 as [|u v us vs L _ IH]; intros g; [apply Mode.le_refl|]. cbn. apply le_bind; [apply le_apply, L|intros; apply IH].
Qed.
Lemma le_step_bw gal (g : graph) i : le_res (step_bw Debug i1 gal g i) (step_bw m i2 gal g i).
Proof.
  unfold step_bw. apply le_bind; [apply Mode.le_refl|intros o _]. apply le_bind; [apply Mode.le_refl|intros xs _]. apply le_bind; [apply le_forL; intros; apply le_ensure|intros g1 _].
  intros g2 E. apply bind_Ok in E. destruct E as (us & EU & E). destruct (lo_backward (H (oi_op o)) EU) as (vs & EV & F2). rewrite EV. cbn [bind]. apply (le_updates F2), E.
Qed.
Lemma le_backward gal pop (g : graph) root : le_res (backward Debug i1 gal pop g root) (backward m i2 gal pop g root).
Proof. unfold backward. apply le_bind; [apply le_seed|intros g1 _]. apply le_forL. intros i g2. apply le_step_bw. Qed.
Lemma le_node_backward gal popf popb (g : graph) n : le_res (node_backward Debug i1 gal popf popb g n) (node_backward m i2 gal popf popb g n).
Proof.
  unfold node_backward, node_forward. destruct (forward i1 popf g (fst n)) as [g1 [[]| |]] eqn:E; try (intros v Q; discriminate Q). rewrite (le_forward E). apply le_backward.
Qed.
Lemma le_node_to_vec pop (g g' : graph) n v : node_to_vec Debug i1 pop g n = (g', Ok v) -> node_to_vec m i2 pop g n = (g', Ok v).
Proof.
  unfold node_to_vec, node_forward. destruct (forward i1 pop g (fst n)) as [g1 [[]| |]] eqn:E; try discriminate. rewrite (le_forward E). intros Q.
  assert (Q1 : g1 = g') by congruence. assert (Q2 : (t <- value_of g1 n ;; to_vec Debug t) = Ok v) by congruence. rewrite Q1 in * . f_equal.
  assert (L : le_res (t <- value_of g' n ;; to_vec Debug t) (t <- value_of g' n ;; to_vec m t)) by (apply le_bind; [apply Mode.le_refl|intros; apply le_to_vec]). apply L, Q2.
Qed.
End Engine.

Section Ops.
Variable K : num.
Notation tensor := (tensor K).
Notation node := (nat * nat)%type.
Variable m : build.
Implicit Types (fal bal : nat -> alloc_oracle K).

Lemma le_shape1 f1 f2 ss : (forall s, le_res (f1 s) (f2 s)) -> le_res (shape1 f1 ss) (shape1 f2 ss).
Proof. intros H. unfold shape1. apply le_bind; [apply Mode.le_refl|intros]. apply le_bind; [apply H|intros; apply Mode.le_refl]. Qed.
Lemma le_shape2 f1 f2 ss : (forall s t, le_res (f1 s t) (f2 s t)) -> le_res (shape2 f1 ss) (shape2 f2 ss).
Proof. intros H. unfold shape2. do 2 (apply le_bind; [apply Mode.le_refl|intros]). apply le_bind; [apply H|intros; apply Mode.le_refl]. Qed.
Lemma le_forward_shape (k : kind K) ss : le_res (forward_shape Debug k ss) (forward_shape m k ss).
Proof.
  destruct k; cbn [forward_shape]; try (apply Mode.le_refl).
  all: try (apply le_shape1; intros s; first [apply le_broadcast|apply le_resize_dim|apply le_pick|apply le_transpose|apply le_slice|apply Mode.le_refl]).
  all: try (apply le_shape2; intros s t; first [apply le_matmul|apply le_bind; [apply Mode.le_refl|intros; apply le_resize_dim]]).
  - unfold split_shapes. do 2 (apply le_bind; [apply Mode.le_refl|intros]). apply le_bind; [apply le_resize_dim|intros; apply Mode.le_refl].
  - apply le_bind; [apply le_batch_concat|intros; apply Mode.le_refl].
  - apply le_bind; [apply le_concat|intros; apply Mode.le_refl].
Qed.
Lemma le_into r1 r2 (ys : list tensor) : le_res r1 r2 -> le_res (into r1 ys) (into r2 ys).
Proof. intros H. unfold into. apply le_bind; [exact H|intros; apply Mode.le_refl]. Qed.
Lemma le_fw1 f1 f2 (xs ys : list tensor) : (forall x, le_res (f1 x) (f2 x)) -> le_res (fw1 f1 xs ys) (fw1 f2 xs ys).
Proof. intros H. unfold fw1. apply le_bind; [apply Mode.le_refl|intros; apply le_into, H]. Qed.
Lemma le_fw2 f1 f2 (xs ys : list tensor) : (forall x y, le_res (f1 x y) (f2 x y)) -> le_res (fw2 f1 xs ys) (fw2 f2 xs ys).
Proof. intros H. unfold fw2. do 2 (apply le_bind; [apply Mode.le_refl|intros]). apply le_into, H. Qed.
Lemma le_fw_split fal total sl1 sl2 n (xs ys : list tensor) : (forall al i x l u, le_res (sl1 al i x l u) (sl2 al i x l u)) -> le_res (fw_split fal total sl1 n xs ys) (fw_split fal total sl2 n xs ys).
Proof. intros H. unfold fw_split. apply le_bind; [apply Mode.le_refl|intros]. cbv zeta. apply le_forN. intros. apply le_bind; [apply H|intros; apply Mode.le_refl]. Qed.
Local Opaque call_fw call_bw call_u32 fw_registry bw_registry new_alloc alloc.
Ltac hd t := lazymatch t with ?f _ => hd f | _ => t end.
(** one of the lemmas, after unfolding the function in question *)
Ltac known :=
  first [simple apply le_fw_x|simple apply le_fw_const|simple apply le_reduce|simple apply le_tri|simple apply le_powi|simple apply le_broadcast_fw|simple apply le_transpose_fw|simple apply le_slice_fw|simple apply le_batch_sum_fw|simple apply le_batch_slice_fw
    |simple apply le_sparse|simple apply le_fw_ab|simple apply le_matmul_fw|simple apply le_sce|simple apply le_bw_x|simple apply le_bw_const|simple apply le_powi_bw|simple apply le_extremum_bw|simple apply le_transpose_bw|simple apply le_tri_bw|simple apply le_slice_bw|simple apply le_batch_slice_bw
    |simple apply le_bw_a; intros; first [simple apply le_matmul|simple apply Mode.le_refl]|simple apply le_bw_b; intros; first [simple apply le_matmul|simple apply Mode.le_refl]].
Ltac lk := first [known | match goal with |- le_res ?a _ => let h := hd a in unfold h; known end].
Lemma le_forward_op d fal (k : kind K) xs ys : le_res (forward_op Debug d fal k xs ys) (forward_op m d fal k xs ys).
Proof.
  destruct k; cbn [forward_op]; try (simple apply Mode.le_refl).
  all: try (simple apply le_fw1; intros x; lk).
  all: try (simple apply le_fw2; intros x y; lk).
  all: try (simple apply le_fw_split; intros; first [simple apply le_slice_fw|simple apply le_batch_slice_fw]).
  all: try (simple apply le_into; first [simple apply le_concat_fw|simple apply le_batch_concat_fw]).
  - simple apply le_bind; [simple apply Mode.le_refl|intros]. simple apply le_bind; [simple apply le_alloc|intros]. simple apply le_bind; [simple apply Mode.le_refl|intros]. simple apply le_bind; [simple apply le_by_tensor|intros; simple apply Mode.le_refl].
  - simple apply le_fw1. intros x. unfold t_pick, via1. simple apply le_bind; [simple apply Mode.le_refl|intros; simple apply le_pick_fw].
  - simple apply le_fw1. intros x. unfold t_batch_pick, via1. simple apply le_bind; [simple apply Mode.le_refl|intros; simple apply le_batch_pick_fw].
  - simple apply le_fw1. intros x. simple apply le_bind; [simple apply le_copy|intros; simple apply le_update_shape].
Qed.
Lemma le_ups_ok (us vs : list (update K)) : Forall2 (@le_update K) us vs -> le_ups (Ok us) (Ok vs).
Proof. intros H ws E. injection E as <-. eauto. Qed.
Lemma le_ups_refl r : @le_ups K r r.
Proof. intros us E. exists us. split; auto. clear. induction us; constructor; auto. split; auto. intros; simple apply Mode.le_refl. Qed.
Lemma le_ups_bind A (r1 r2 : res A) k1 k2 : le_res r1 r2 -> (forall a, le_ups (k1 a) (k2 a)) -> @le_ups K (bind r1 k1) (bind r2 k2).
Proof. intros H1 H2 us E. apply bind_Ok in E. destruct E as (a & E1 & E). rewrite (H1 _ E1). cbn [bind]. simple apply (H2 a _ E). Qed.
Lemma le_bwx f1 f2 (xs ys gys : list tensor) : (forall x y gy gx, le_res (f1 x y gy gx) (f2 x y gy gx)) -> le_ups (bw_x f1 xs ys gys) (bw_x f2 xs ys gys).
Proof. intros H. unfold bw_x. do 3 (simple apply le_ups_bind; [simple apply Mode.le_refl|intros]). simple apply le_ups_ok. constructor; [split; [reflexivity|intros t; apply H]|constructor]. Qed.
Lemma le_bwab f1 f2 h1 h2 (xs ys gys : list tensor) : (forall a b y gy gx, le_res (f1 a b y gy gx) (f2 a b y gy gx)) -> (forall a b y gy gx, le_res (h1 a b y gy gx) (h2 a b y gy gx)) -> le_ups (bw_ab f1 h1 xs ys gys) (bw_ab f2 h2 xs ys gys).
Proof. intros H1 H2. unfold bw_ab. do 4 (simple apply le_ups_bind; [simple apply Mode.le_refl|intros]). simple apply le_ups_ok. constructor; [split; [reflexivity|intros t; apply H1]|]. constructor; [split; [reflexivity|intros t; apply H2]|]. constructor. Qed.
Lemma le_bwscalar p1 p2 f1 f2 h1 h2 (xs ys gys : list tensor) : (forall x k y gy, le_res (p1 x k y gy) (p2 x k y gy)) -> (forall a b y gy gx, le_res (f1 a b y gy gx) (f2 a b y gy gx)) -> (forall a b y gy gx, le_res (h1 a b y gy gx) (h2 a b y gy gx)) -> le_ups (bw_scalar p1 f1 h1 xs ys gys) (bw_scalar p2 f2 h2 xs ys gys).
Proof. intros H0 H1 H2. unfold bw_scalar. do 4 (simple apply le_ups_bind; [simple apply Mode.le_refl|intros]). simple apply le_ups_bind; [apply H0|intros]. simple apply le_ups_ok. constructor; [split; [reflexivity|intros t; apply H1]|]. constructor; [split; [reflexivity|intros t; apply H2]|]. constructor. Qed.
Lemma le_bwgy f1 f2 (gys : list tensor) : (forall gy gx, le_res (f1 gy gx) (f2 gy gx)) -> le_ups (bw_gy f1 gys) (bw_gy f2 gys).
Proof. intros H. unfold bw_gy. simple apply le_ups_bind; [simple apply Mode.le_refl|intros]. simple apply le_ups_ok. constructor; [split; [reflexivity|intros t; apply H]|constructor]. Qed.
Lemma le_plus e1 e2 (gx : tensor) : le_res e1 e2 -> le_res (plus Debug e1 gx) (plus m e2 gx).
Proof. intros H. unfold plus. simple apply le_bind; [exact H|intros; simple apply le_t_add_assign]. Qed.
Lemma le_minus e1 e2 (gx : tensor) : le_res e1 e2 -> le_res (minus Debug e1 gx) (minus m e2 gx).
Proof. intros H. unfold minus. simple apply le_bind; [exact H|intros]. unfold t_sub_assign. simple apply le_bind; [simple apply Mode.le_refl|intros; simple apply le_sub_assign]. Qed.
Lemma le_t_sum al (x : tensor) d : le_res (t_sum Debug al x d) (t_sum m al x d).
Proof. unfold t_sum, via1. simple apply le_bind; [simple apply Mode.le_refl|intros; lk]. Qed.
Lemma le_t_broadcast al (x : tensor) d n : le_res (t_broadcast Debug al x d n) (t_broadcast m al x d n).
Proof. unfold t_broadcast, via1. simple apply le_bind; [simple apply Mode.le_refl|intros; simple apply le_broadcast_fw]. Qed.
Lemma le_t_exp al (x : tensor) : le_res (t_exp Debug al x) (t_exp m al x).
Proof. unfold t_exp, via1. simple apply le_bind; [simple apply Mode.le_refl|intros; lk]. Qed.
Lemma le_t_ln al (x : tensor) : le_res (t_ln Debug al x) (t_ln m al x).
Proof. unfold t_ln, via1. simple apply le_bind; [simple apply Mode.le_refl|intros; lk]. Qed.
Lemma le_t_neg al (x : tensor) : le_res (t_neg Debug al x) (t_neg m al x).
Proof. unfold t_neg, via1. simple apply le_bind; [simple apply Mode.le_refl|intros; lk]. Qed.
Lemma le_t_slice al (x : tensor) d l u : le_res (t_slice Debug al x d l u) (t_slice m al x d l u).
Proof. unfold t_slice, via1. simple apply le_bind; [simple apply Mode.le_refl|intros; simple apply le_slice_fw]. Qed.
Lemma le_t_batch_slice al (x : tensor) l u : le_res (t_batch_slice Debug al x l u) (t_batch_slice m al x l u).
Proof. unfold t_batch_slice, via1. simple apply le_bind; [simple apply Mode.le_refl|intros; simple apply le_batch_slice_fw]. Qed.
Lemma le_flat_sum a0 a1 (x : tensor) : le_res (flat_sum Debug a0 a1 x) (flat_sum m a0 a1 x).
Proof. unfold flat_sum. simple apply le_bind; [simple apply le_flatten|intros; simple apply le_t_sum]. Qed.
Lemma le_concat_ups bal sl1 sl2 span gy (H : forall al x l u, le_res (sl1 al x l u) (sl2 al x l u)) xs : forall i off,
  Forall2 (@le_update K) (concat_ups Debug bal sl1 span gy i off xs) (concat_ups m bal sl2 span gy i off xs).
Proof.
  induction xs as [|x xs IH]; intros i off; cbn [concat_ups]; constructor; [|simple apply IH]. split; [reflexivity|]. intros t. cbn [snd]. simple apply le_bind; [simple apply le_add32|intros]. simple apply le_plus; apply H.
Qed.
Lemma le_bwconcat bal sl1 sl2 span (xs gys : list tensor) : (forall al x l u, le_res (sl1 al x l u) (sl2 al x l u)) -> le_ups (bw_concat Debug bal sl1 span xs gys) (bw_concat m bal sl2 span xs gys).
Proof. intros H. unfold bw_concat. destruct xs as [|x xs]; [simple apply le_ups_refl|]. simple apply le_ups_bind; [simple apply Mode.le_refl|intros]. simple apply le_ups_ok; apply le_concat_ups; exact H. Qed.
Lemma le_ups_mapM A (f g : A -> res (update K)) l : (forall a u, f a = Ok u -> exists v, g a = Ok v /\ le_update u v) -> le_ups (mapM f l) (mapM g l).
Proof.
  intros H. induction l as [|a l IH]; [simple apply le_ups_refl|]. intros us E. cbn [mapM fold_right] in * . apply bind_Ok in E. destruct E as (u & E1 & E). apply bind_Ok in E. destruct E as (us' & E2 & E). injection E as <-.
  destruct (H _ _ E1) as (v & Ev & Lv). destruct (IH _ E2) as (vs & Evs & Lvs). unfold mapM in Evs. rewrite Ev. cbn [bind]. rewrite Evs. cbn [bind]. eauto.
Qed.
Lemma le_bwsplit d dim n (gys : list tensor) : le_ups (bw_split Debug d dim n gys) (bw_split m d dim n gys).
Proof. unfold bw_split. simple apply le_ups_mapM. intros a u E. apply bind_Ok in E. destruct E as (gy & E & Eu). rewrite E. cbn [bind]. injection Eu as <-. eexists. split; [reflexivity|]. split; [reflexivity|]. intros t. cbn [snd]. simple apply le_slice_bw. Qed.
Lemma le_bwbsplit d n (gys : list tensor) : le_ups (bw_batch_split Debug d n gys) (bw_batch_split m d n gys).
Proof. unfold bw_batch_split. simple apply le_ups_mapM. intros a u E. apply bind_Ok in E. destruct E as (gy & E & Eu). rewrite E. cbn [bind]. injection Eu as <-. eexists. split; [reflexivity|]. split; [reflexivity|]. intros t. cbn [snd]. simple apply le_batch_slice_bw. Qed.
Ltac lt := repeat (simple apply le_bind; [first [simple apply Mode.le_refl|simple apply le_t_mul|simple apply le_t_div|simple apply le_t_ln|simple apply le_t_exp|simple apply le_t_sub|simple apply le_t_broadcast|simple apply le_softmax|lk]|intros]);
  first [simple apply Mode.le_refl|simple apply le_t_mul|simple apply le_t_div|simple apply le_flat_sum|simple apply le_t_sum|simple apply le_t_broadcast].
Lemma le_backward_op d bal (k : kind K) xs ys gys : le_ups (backward_op Debug d bal k xs ys gys) (backward_op m d bal k xs ys gys).
Proof.
  destruct k; cbn [backward_op]; try (simple apply le_ups_refl).
  all: try (simple apply le_bwab; intros; lk).
  all: try (simple apply le_bwx; intros; lk).
  all: try (simple apply le_bwscalar; intros; first [simple apply le_plus; lt|simple apply le_minus; lt|lt]).
  all: try (simple apply le_bwgy; intros; first [simple apply le_plus; lt|lk]).
  all: try (simple apply le_bwsplit). all: try (simple apply le_bwbsplit).
  - simple apply le_ups_bind; [simple apply Mode.le_refl|intros]. simple apply le_ups_ok. constructor; [split; [reflexivity|intros; cbn [snd]; simple apply le_plus; simple apply Mode.le_refl]|constructor].
  - simple apply le_bwx. intros. simple apply le_plus. lt.
  - do 2 (simple apply le_ups_bind; [simple apply Mode.le_refl|intros]). simple apply le_bwx. intros. simple apply le_plus. lt.
  - do 2 (simple apply le_ups_bind; [simple apply Mode.le_refl|intros]). simple apply le_bwgy. intros. simple apply le_plus. lt.
  - simple apply le_ups_bind; [simple apply Mode.le_refl|intros]. simple apply le_ups_bind; [simple apply le_ln_softmax|intros]. simple apply le_ups_bind; [simple apply Mode.le_refl|intros]. simple apply le_ups_bind; [simple apply le_t_broadcast|intros]. simple apply le_ups_bind; [simple apply Mode.le_refl|intros].
    simple apply le_ups_ok. constructor; [split; [reflexivity|intros; cbn [snd]; simple apply le_plus; lt]|]. constructor; [split; [reflexivity|intros; cbn [snd]; simple apply le_minus; lt]|]. constructor.
  - do 2 (simple apply le_ups_bind; [simple apply Mode.le_refl|intros]). simple apply le_ups_ok. constructor; [split; [reflexivity|intros; cbn [snd]; simple apply le_plus; lt]|]. constructor; [|constructor]. split; [reflexivity|]. intros t. cbn [snd].
    simple apply le_bind; [simple apply Mode.le_refl|intros]. simple apply le_bind; [simple apply le_t_neg|intros]. simple apply le_pick_bw.
  - simple apply le_bwgy. intros. simple apply le_bind; [simple apply Mode.le_refl|intros; simple apply le_pick_bw].
  - simple apply le_bwconcat. intros. simple apply le_t_batch_slice.
  - simple apply le_bwgy. intros. simple apply le_bind; [simple apply Mode.le_refl|intros; simple apply le_batch_pick_bw].
  - simple apply le_bwconcat. intros. simple apply le_t_slice.
  - simple apply le_bwgy. intros. simple apply le_plus. simple apply le_bind; [simple apply le_copy|intros; simple apply le_update_shape].
Qed.
Theorem le_interp o : le_operator (@interp K Debug o) (interp m o).
Proof.
  split; intros; [apply Mode.le_refl|apply le_forward_shape|apply le_forward_op|apply le_backward_op].
Qed.
End Ops.
