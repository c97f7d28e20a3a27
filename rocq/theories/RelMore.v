(** * RelMore: builds with and without overflow checks, for everything above tensors *)
From Verif Require Export RelGraph CallRel NodeContrib Model.
Set Implicit Arguments.
Unset Strict Implicit.

Section More.
Variable K : num.
Notation tensor := (tensor K).
Notation node := (nat * nat)%type.
Notation graph := (graph K (oper K)).
Variable m : build.
Local Opaque call_fw call_bw call_u32 fw_registry bw_registry new_alloc alloc.

(** *** tensors *)
Lemma le_t_const_mul al k (x : tensor) : le_res (t_const_mul Debug al k x) (t_const_mul m al k x).
Proof. unfold t_const_mul, const_l, mul_const_fw. simple apply le_bind; [simple apply Mode.le_refl|intros; simple apply le_fw_const]. Qed.
Lemma le_t_div_const al (x : tensor) k : le_res (t_div_const Debug al x k) (t_div_const m al x k).
Proof. unfold t_div_const, const_r, div_const_r_fw. simple apply le_bind; [simple apply Mode.le_refl|intros; simple apply le_fw_const]. Qed.
Lemma le_t_add_const al (x : tensor) k : le_res (t_add_const Debug al x k) (t_add_const m al x k).
Proof. unfold t_add_const, const_r, add_const_fw. simple apply le_bind; [simple apply Mode.le_refl|intros; simple apply le_fw_const]. Qed.
Lemma le_t_sqrt al (x : tensor) : le_res (t_sqrt Debug al x) (t_sqrt m al x).
Proof. unfold t_sqrt, via1, sqrt_fw. simple apply le_bind; [simple apply Mode.le_refl|intros; simple apply le_fw_x]. Qed.
Lemma le_t_batch_sum al (x : tensor) : le_res (t_batch_sum Debug al x) (t_batch_sum m al x).
Proof. unfold t_batch_sum, via1. simple apply le_bind; [simple apply Mode.le_refl|intros; simple apply le_batch_sum_fw]. Qed.
Lemma le_t_sub_assign (x y : tensor) : le_res (t_sub_assign Debug x y) (t_sub_assign m x y).
Proof. unfold t_sub_assign. simple apply le_bind; [simple apply Mode.le_refl|intros; simple apply le_sub_assign]. Qed.

(** *** random tensors and initializers *)
Lemma le_k_random draws (y : tensor) : le_res (k_random Debug draws y) (k_random m draws y).
Proof. unfold k_random. apply le_bind; [apply Mode.le_refl|intros]. apply le_bind; [apply le_size|intros]. apply Mode.le_refl. Qed.
Lemma le_bernoulli d al (r : randomizer K) s p : le_res (random_bernoulli Debug d al r s p) (random_bernoulli m d al r s p).
Proof. unfold random_bernoulli. simple apply le_bind; [simple apply le_new_alloc|intros; simple apply le_k_random]. Qed.
Lemma le_normal d al (r : randomizer K) s p q : le_res (random_normal Debug d al r s p q) (random_normal m d al r s p q).
Proof. unfold random_normal. simple apply le_bind; [simple apply le_new_alloc|intros; simple apply le_k_random]. Qed.
Lemma le_uniform d al (r : randomizer K) s p q : le_res (random_uniform Debug d al r s p q) (random_uniform m d al r s p q).
Proof. unfold random_uniform. simple apply le_bind; [simple apply le_new_alloc|intros; simple apply le_k_random]. Qed.
Lemma le_ini_apply al (r : randomizer K) i (t : tensor) : le_res (ini_apply Debug al r i t) (ini_apply m al r i t).
Proof.
  unfold ini_apply. destruct i.
  - simple apply le_bind; [simple apply le_alloc|intros; simple apply le_reset].
  - simple apply le_bind; [simple apply Mode.le_refl|intros]. simple apply le_bind; [simple apply le_normal|intros; simple apply Mode.le_refl].
  - simple apply le_bind; [simple apply Mode.le_refl|intros]. simple apply le_bind; [simple apply le_uniform|intros; simple apply Mode.le_refl].
  - cbv zeta. simple apply le_bind; [simple apply Mode.le_refl|intros]. simple apply le_bind; [unfold xavier_bound; simple apply le_bind; [simple apply le_add32|intros; simple apply Mode.le_refl]|intros].
    simple apply le_bind; [simple apply Mode.le_refl|intros]. simple apply le_bind; [simple apply le_uniform|intros; simple apply Mode.le_refl].
Qed.
Lemma le_new_parameter d al1 al2 (r : randomizer K) s i : le_res (new_parameter Debug d al1 al2 r s i) (new_parameter m d al1 al2 r s i).
Proof.
  unfold new_parameter. cbv zeta. simple apply le_bind; [simple apply le_ini_apply|intros]. simple apply le_bind; [simple apply le_alloc|intros]. simple apply le_bind; [simple apply le_reset|intros]. simple apply Mode.le_refl.
Qed.

(** *** optimizers *)
Ltac lo := repeat (simple apply le_bind; [first [simple apply Mode.le_refl|simple apply le_add32|simple apply le_t_const_mul|simple apply le_mul_assign|simple apply le_t_add_assign|simple apply le_t_sub_assign|simple apply le_t_mul|simple apply le_t_div|simple apply le_t_div_const
  |simple apply le_t_add_const|simple apply le_t_sqrt|simple apply le_constant|simple apply le_flatten|simple apply le_t_sum|simple apply le_reset|simple apply le_move|simple apply le_tensor_to_vector]|intros]); first [simple apply Mode.le_refl|simple apply le_to_float].
Lemma le_each A B (f g : nat -> A -> res B) l : (forall i x, le_res (f i x) (g i x)) -> forall i, le_res (each f i l) (each g i l).
Proof. intros H. induction l as [|x l IH]; intros i; cbn [each]; [apply Mode.le_refl|]. apply le_bind; [apply H|intros]. apply le_bind; [apply IH|intros; apply Mode.le_refl]. Qed.
Lemma le_ensure_stat al name (p : param K) : le_res (ensure Debug al name p) (ensure m al name p).
Proof. unfold ensure. destruct (has_stat p name); [apply Mode.le_refl|]. unfold add_stat. lo. Qed.
Lemma le_configure als o (p : param K) : le_res (configure_parameter Debug als o p) (configure_parameter m als o p).
Proof. unfold configure_parameter. destruct (o_algo o); [apply Mode.le_refl|apply le_ensure_stat|]. apply le_bind; [apply le_ensure_stat|intros; apply le_ensure_stat]. Qed.
Lemma le_configure_parameters als o (ps : list (param K)) : le_res (configure_parameters Debug als o ps) (configure_parameters m als o ps).
Proof. unfold configure_parameters. apply le_each. intros; apply le_configure. Qed.
Lemma le_update_parameter als o s (p : param K) : le_res (update_parameter Debug als o s p) (update_parameter m als o s p).
Proof. unfold update_parameter. destruct (o_algo o); [unfold update_sgd|unfold update_momentum|unfold update_adam; cbv zeta]; lo. Qed.
Lemma le_sq_norm als (ps : list (param K)) : forall i acc, le_res (sq_norm Debug als i acc ps) (sq_norm m als i acc ps).
Proof. induction ps as [|p ps IH]; intros i acc; cbn [sq_norm]; [apply Mode.le_refl|]. apply le_bind; [unfold sq_norm_of; cbv zeta; lo|intros; apply IH]. Qed.
Lemma le_reset_gradient (p : param K) : le_res (reset_gradient Debug p) (reset_gradient m p).
Proof. unfold reset_gradient. lo. Qed.
Lemma le_update_parameters als o (ps : list (param K)) : le_res (update_parameters Debug als o ps) (update_parameters m als o ps).
Proof.
  unfold update_parameters. apply le_bind; [|intros ps1 _; apply le_bind; [|intros ps2 _; apply le_bind; [|intros ps3 _; apply le_bind; [apply le_add32|intros; apply Mode.le_refl]]]].
  - destruct (ngt _ _); [|apply Mode.le_refl]. apply le_each. intros. unfold decay. lo.
  - destruct (ngt _ _); [|apply Mode.le_refl]. apply le_bind; [apply le_sq_norm|intros]. destruct (ngt _ _); [|apply Mode.le_refl]. apply le_each. intros. unfold rescale. lo.
  - apply le_each. intros. apply le_bind; [apply le_update_parameter|intros; apply le_reset_gradient].
Qed.

(** *** models *)
Lemma le_visit f g : (forall i p, le_res (f i p) (g i p)) -> forall qs i (x : model K), le_res (visit f i qs x) (visit g i qs x).
Proof. intros H. induction qs as [|q qs IH]; intros i x; cbn [visit]; [apply Mode.le_refl|]. apply le_bind; [apply Mode.le_refl|intros]. apply le_bind; [apply H|intros; apply IH]. Qed.
Lemma le_param_move d als (p : param K) : le_res (param_move Debug d als p) (param_move m d als p).
Proof.
  unfold param_move. apply le_bind; [apply le_move|intros]. apply le_bind; [apply le_move|intros]. apply le_bind; [|intros; apply Mode.le_refl]. apply le_each. intros. lo.
Qed.
Lemma le_model_move d als (x : model K) : le_res (model_move Debug d als x) (model_move m d als x).
Proof.
  unfold model_move. cbv zeta. destruct x as [p|fs|l|n]; [|apply le_visit; intros; apply le_param_move| |apply Mode.le_refl].
  - apply le_bind; [apply le_param_move|intros; apply Mode.le_refl].
  - apply le_bind; [|intros; apply Mode.le_refl]. generalize 0 as i. induction l as [|y l IH]; intros i; [apply Mode.le_refl|]. apply le_bind; [apply le_visit; intros; apply le_param_move|intros]. apply le_bind; [apply IH|intros; apply Mode.le_refl].
Qed.
Lemma le_configure_model als o (x : model K) : le_res (configure_model Debug als o x) (configure_model m als o x).
Proof. unfold configure_model. apply le_bind; [apply Mode.le_refl|intros]. apply le_bind; [apply le_configure_parameters|intros; apply Mode.le_refl]. Qed.
Lemma le_update_model als o (x : model K) : le_res (update_model Debug als o x) (update_model m als o x).
Proof. unfold update_model. apply le_bind; [apply Mode.le_refl|intros]. apply le_bind; [apply le_update_parameters|intros; apply Mode.le_refl]. Qed.
Lemma le_tensor_serialize (t : tensor) : le_res (tensor_serialize Debug t) (tensor_serialize m t).
Proof. unfold tensor_serialize. lo. Qed.
Lemma le_param_serialize (p : param K) : le_res (param_serialize Debug p) (param_serialize m p).
Proof. unfold param_serialize. do 2 (apply le_bind; [apply le_tensor_serialize|intros]). apply le_bind; [|intros; apply Mode.le_refl]. apply le_each. intros. apply le_bind; [apply le_tensor_serialize|intros; apply Mode.le_refl]. Qed.
Lemma le_tensor_deserialize (x : tensor_data K) : le_res (tensor_deserialize Debug x) (tensor_deserialize m x).
Proof. unfold tensor_deserialize. apply le_bind; [unfold shape_deserialize; apply le_shape_new|intros; apply Mode.le_refl]. Qed.
Lemma le_param_deserialize (x : param_data K) : le_res (param_deserialize Debug x) (param_deserialize m x).
Proof. unfold param_deserialize. do 2 (apply le_bind; [apply le_tensor_deserialize|intros]). apply le_bind; [|intros; apply Mode.le_refl]. apply le_each. intros. apply le_bind; [apply le_tensor_deserialize|intros; apply Mode.le_refl]. Qed.

(** *** functions of the contrib crate on tensors *)
Lemma le_c_mean als (x : tensor) d : le_res (c_mean Debug als x d) (c_mean m als x d).
Proof. unfold c_mean. simple apply le_bind; [simple apply le_t_sum|intros; simple apply le_t_div_const]. Qed.
Lemma le_c_batch_mean als (x : tensor) : le_res (c_batch_mean Debug als x) (c_batch_mean m als x).
Proof. unfold c_batch_mean. simple apply le_bind; [simple apply le_t_batch_sum|intros; simple apply le_t_div_const]. Qed.
Lemma le_c_dropout als r (x : tensor) rate e : le_res (c_dropout Debug als r x rate e) (c_dropout m als r x rate e).
Proof.
  unfold c_dropout. destruct (negb e); [simple apply le_t_const_mul|]. destruct (nle _ _ _); [simple apply le_t_const_mul|]. cbv zeta. simple apply le_bind; [simple apply le_t_const_mul|intros]. simple apply le_bind; [simple apply Mode.le_refl|intros]. simple apply le_bind; [simple apply le_bernoulli|intros]. simple apply le_t_mul.
Qed.
Lemma le_c_dropout_dim als r (x : tensor) dim rate e : le_res (c_dropout_dim Debug als r x dim rate e) (c_dropout_dim m als r x dim rate e).
Proof.
  unfold c_dropout_dim. destruct (negb e); [simple apply le_t_const_mul|]. destruct (nle _ _ _); [simple apply le_t_const_mul|]. cbv zeta. simple apply le_bind; [simple apply le_resize_dim|intros]. simple apply le_bind; [simple apply Mode.le_refl|intros].
  simple apply le_bind; [simple apply le_bernoulli|intros]. simple apply le_bind; [simple apply le_t_const_mul|intros]. simple apply le_bind; [simple apply le_t_broadcast|intros]. simple apply le_t_mul.
Qed.
Lemma le_c_slice_sum als (xs : list tensor) : le_res (c_slice_sum Debug als xs) (c_slice_sum m als xs).
Proof.
  unfold c_slice_sum. do 3 (simple apply le_bind; [simple apply Mode.le_refl|intros]). simple apply le_bind; [simple apply le_constant|intros ret _]. generalize 1 as i. revert ret. generalize xs as l. induction l as [|x l IH]; intros ret i; cbn [c_sum_loop]; [simple apply Mode.le_refl|]. simple apply le_bind; [simple apply le_t_add|intros; apply IH].
Qed.
Lemma le_c_normalize f1 f2 als (x g b : tensor) eps : (forall al y, le_res (f1 al y) (f2 al y)) -> le_res (c_normalize Debug f1 als x g b eps) (c_normalize m f2 als x g b eps).
Proof.
  intros H. unfold c_normalize. repeat (simple apply le_bind; [first [apply H|simple apply le_t_sub|simple apply le_t_mul|simple apply le_t_add_const|simple apply le_t_sqrt|simple apply le_t_div]|intros]). simple apply le_t_add.
Qed.
Lemma le_c_batch_normalization als (x g b : tensor) eps e : le_res (c_batch_normalization Debug als x g b eps e) (c_batch_normalization m als x g b eps e).
Proof. unfold c_batch_normalization. destruct e; [|simple apply le_t_const_mul]. apply le_c_normalize. intros; apply le_c_batch_mean. Qed.
Lemma le_c_layer_normalization als (x g b : tensor) eps : le_res (c_layer_normalization Debug als x g b eps) (c_layer_normalization m als x g b eps).
Proof. unfold c_layer_normalization. apply le_c_normalize. intros. unfold c_flat_mean. simple apply le_bind; [simple apply le_flatten|intros; apply le_c_mean]. Qed.

(** *** functions on nodes *)
Lemma le_icreate (g : graph) o own xs : le_res (create (interp Debug) g o own xs) (create (interp m) g o own xs).
Proof. apply le_create. intros; apply le_interp. Qed.
Lemma le_idevice (g : graph) n : le_res (device_at (interp Debug) g n) (device_at (interp m) g n).
Proof. apply le_device_at. intros; apply le_interp. Qed.
Lemma le_n_create (g : graph) bs k x xs : le_res (n_create Debug g bs k x xs) (n_create m g bs k x xs).
Proof. unfold n_create. apply le_bind; [apply le_idevice|intros; apply le_icreate]. Qed.
Lemma le_pop1 (r1 r2 : res (graph * list node)) : le_res r1 r2 -> le_res (pop1 r1) (pop1 r2).
Proof. intros H. unfold pop1. apply le_bind; [exact H|intros; apply Mode.le_refl]. Qed.
Lemma le_n_op1 k (g : graph) bs x : le_res (n_op1 Debug k g bs x) (n_op1 m k g bs x).
Proof. unfold n_op1. apply le_pop1, le_n_create. Qed.
Lemma le_n_op2 k kl kr (g : graph) bs a b : le_res (n_op2 Debug k kl kr g bs a b) (n_op2 m k kl kr g bs a b).
Proof.
  unfold n_op2. apply le_bind; [apply Mode.le_refl|intros]. destruct (is_scalar _); [apply le_pop1, le_n_create|]. apply le_bind; [apply Mode.le_refl|intros]. destruct (is_scalar _); apply le_pop1, le_n_create.
Qed.
Lemma le_leaf (g : graph) bs k own : le_res (leaf Debug g bs k own) (leaf m g bs k own).
Proof. unfold leaf. apply le_pop1, le_icreate. Qed.
Lemma le_n_concat d (g : graph) bs xs : le_res (n_concat Debug d g bs xs) (n_concat m d g bs xs).
Proof. unfold n_concat. do 2 (apply le_bind; [apply Mode.le_refl|intros]). apply le_pop1, le_n_create. Qed.
Lemma le_n_batch_concat (g : graph) bs xs : le_res (n_batch_concat Debug g bs xs) (n_batch_concat m g bs xs).
Proof. unfold n_batch_concat. do 2 (apply le_bind; [apply Mode.le_refl|intros]). apply le_pop1, le_n_create. Qed.
Lemma le_n_flatten (g : graph) bs x : le_res (n_flatten Debug g bs x) (n_flatten m g bs x).
Proof. unfold n_flatten. apply le_bind; [apply Mode.le_refl|intros]. apply le_bind; [apply le_shape_new|intros; apply le_n_op1]. Qed.
Lemma le_n_ln_softmax d (g : graph) bss x : le_res (n_ln_softmax Debug d g bss x) (n_ln_softmax m d g bss x).
Proof. unfold n_ln_softmax. apply le_bind; [apply le_n_op1|intros [g1 l] _]. apply le_bind; [apply Mode.le_refl|intros]. apply le_bind; [apply le_n_op1|intros [g2 b] _]. apply le_n_op2. Qed.
Lemma le_n_softmax d (g : graph) bss x : le_res (n_softmax Debug d g bss x) (n_softmax m d g bss x).
Proof. unfold n_softmax. apply le_bind; [apply le_n_ln_softmax|intros [g1 l] _]. apply le_n_op1. Qed.
(** contrib *)
Lemma le_n_mean d (g : graph) bss x : le_res (n_mean Debug d g bss x) (n_mean m d g bss x).
Proof. unfold n_mean. apply le_bind; [apply le_n_op1|intros [g1 l] _]. apply le_bind; [apply Mode.le_refl|intros]. apply le_n_op1. Qed.
Lemma le_n_batch_mean (g : graph) bss x : le_res (n_batch_mean Debug g bss x) (n_batch_mean m g bss x).
Proof. unfold n_batch_mean. apply le_bind; [apply le_n_op1|intros [g1 l] _]. apply le_bind; [apply Mode.le_refl|intros]. apply le_n_op1. Qed.
Lemma le_n_dropout (g : graph) bss al r x rate e : le_res (n_dropout Debug g bss al r x rate e) (n_dropout m g bss al r x rate e).
Proof.
  unfold n_dropout. destruct (negb e); [apply le_n_op1|]. destruct (nle _ _ _); [apply le_n_op1|]. cbv zeta. apply le_bind; [apply le_n_op1|intros [g1 y] _]. apply le_bind; [apply le_idevice|intros]. apply le_bind; [apply Mode.le_refl|intros]. apply le_bind; [apply le_bernoulli|intros].
  apply le_bind; [apply le_leaf|intros [g2 z] _]. apply le_n_op2.
Qed.
Lemma le_n_dropout_dim (g : graph) bss al al' r x dim rate e : le_res (n_dropout_dim Debug g bss al al' r x dim rate e) (n_dropout_dim m g bss al al' r x dim rate e).
Proof.
  unfold n_dropout_dim. destruct (negb e); [apply le_n_op1|]. destruct (nle _ _ _); [apply le_n_op1|]. cbv zeta. apply le_bind; [apply Mode.le_refl|intros]. apply le_bind; [apply le_resize_dim|intros]. apply le_bind; [apply le_idevice|intros]. apply le_bind; [apply le_bernoulli|intros].
  apply le_bind; [apply le_n_op1|intros [g1 y] _]. apply le_bind; [apply le_t_broadcast|intros]. apply le_bind; [apply le_leaf|intros [g2 z] _]. apply le_n_op2.
Qed.
Lemma le_n_slice_sum (g : graph) bss al xs : le_res (n_slice_sum Debug g bss al xs) (n_slice_sum m g bss al xs).
Proof.
  unfold n_slice_sum. do 2 (apply le_bind; [apply Mode.le_refl|intros]). apply le_bind; [apply le_idevice|intros]. apply le_bind; [apply Mode.le_refl|intros]. apply le_bind; [apply le_constant|intros]. apply le_bind; [apply le_leaf|intros [g0 ret] _].
  generalize 1 as i. revert g0 ret. generalize xs as l. induction l as [|x l IH]; intros g0 ret i; cbn [n_sum_loop]; [apply Mode.le_refl|]. apply le_bind; [apply le_n_op2|intros [g' ret'] _; apply IH].
Qed.
Lemma le_n_normalize f1 f2 (g : graph) bsss x gain b eps : (forall g bss x, le_res (f1 g bss x) (f2 g bss x)) -> le_res (n_normalize Debug f1 g bsss x gain b eps) (n_normalize m f2 g bsss x gain b eps).
Proof.
  intros H. unfold n_normalize. repeat (apply le_bind; [first [apply H|apply le_n_op2|apply le_n_op1]|intros [? ?] _]). apply le_n_op2.
Qed.
Lemma le_n_batch_normalization (g : graph) bsss x gain b eps e : le_res (n_batch_normalization Debug g bsss x gain b eps e) (n_batch_normalization m g bsss x gain b eps e).
Proof. unfold n_batch_normalization. destruct e; [|apply le_n_op1]. apply le_n_normalize. intros; apply le_n_batch_mean. Qed.
Lemma le_n_layer_normalization (g : graph) bsss x gain b eps : le_res (n_layer_normalization Debug g bsss x gain b eps) (n_layer_normalization m g bsss x gain b eps).
Proof. unfold n_layer_normalization. apply le_n_normalize. intros. unfold n_flat_mean. apply le_bind; [apply le_n_flatten|intros [g1 f] _]. apply le_n_mean. Qed.
End More.
