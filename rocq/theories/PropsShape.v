(** * Property theorems C01-C08: shapes.  Only statements; proofs are `exact`. *)
From Verif Require Import ShapeFacts.
Local Open Scope N_scope.

(** ** C01 *)
Theorem C01_new_accepts : forall ds b, Forall u32 ds -> u32 b ->
  (exists s, shape_new Debug ds b = Ok s) <->
  (length ds <= 8)%nat /\ ~ In 0 ds /\ 1 <= b /\ prodN ds < two32.
Proof. exact C01_accept_l. Qed.
Print Assumptions C01_new_accepts.

Theorem C01_new_panics_otherwise : forall ds b, shape_new Debug ds b = Panic \/ exists s, shape_new Debug ds b = Ok s.
Proof.
  exact (fun ds b => match shape_new Debug ds b as r return (r <> UB -> r = Panic \/ exists s, r = Ok s) with
                     | Ok s => fun _ => or_intror (ex_intro _ s eq_refl) | Panic => fun _ => or_introl eq_refl
                     | UB => fun H => False_ind _ (H eq_refl) end (shape_new_noUB Debug ds b)).
Qed.
Print Assumptions C01_new_panics_otherwise.

Theorem C01_new_result : forall m ds b s, Forall u32 ds -> u32 b -> shape_new Debug ds b = Ok s ->
  shape_new m ds b = Ok s /\
  (forall i, index s i = nth i ds 1) /\ batch s = b /\ volume s = prodN ds /\
  (depth s <= length ds)%nat /\
  (forall i, (depth s <= i)%nat -> nth i ds 1 = 1) /\
  ((0 < depth s)%nat -> nth (depth s - 1) ds 1 <> 1).
Proof. exact C01_result_l. Qed.
Print Assumptions C01_new_result.

Theorem C01_equality : forall ds1 b1 s1 ds2 b2 s2, u32 b1 -> u32 b2 ->
  shape_new Debug ds1 b1 = Ok s1 -> shape_new Debug ds2 b2 = Ok s2 ->
  (shape_eqb s1 s2 = true <-> (forall i, nth i ds1 1 = nth i ds2 1) /\ b1 = b2).
Proof. exact C01_equality_l. Qed.
Print Assumptions C01_equality.

Example C01_witness : exists s1 s2, shape_new Debug [2; 1; 3] 4 = Ok s1 /\ shape_new Debug [2; 1; 3; 1; 1] 4 = Ok s2 /\
  shape_eqb s1 s2 = true /\ depth s1 = 3%nat /\ volume s1 = 6.
Proof. do 2 eexists. repeat split; reflexivity. Qed.

(** ** C02 *)
Theorem C02_resize_histories : forall ds b s ops s', u32 b -> Forall op_u32 ops ->
  shape_new Debug ds b = Ok s ->
  let start := (ds ++ repeat 1 (8 - length ds), b) in
  let final := fold_left track ops start in
  run_resizes Debug ops s = Ok s' <-> history_ok start ops /\ shape_new Debug (fst final) (snd final) = Ok s'.
Proof. exact C02_l. Qed.
Print Assumptions C02_resize_histories.

Theorem C02_resize_one_dim : forall s dim k s', wf s -> update_dim Debug s dim k = Ok s' ->
  wf s' /\ batch s' = batch s /\ index s' dim = k /\ (forall i, i <> dim -> index s' i = index s i).
Proof. exact C02_step_l. Qed.
Print Assumptions C02_resize_one_dim.

(** the invariant [wf] used below holds of exactly the shapes a program can reach *)
Theorem C02_reachable_iff_consistent : forall s, reachable s <-> wf s.
Proof. exact reachable_iff_wf_l. Qed.
Print Assumptions C02_reachable_iff_consistent.

Example C02_witness : exists s s', shape_new Debug [2; 3] 1 = Ok s /\
  run_resizes Debug [RDim 5 7; RDim 1 1; RBatch 9; RDim 5 1] s = Ok s' /\ dims s' = [2] /\ batch s' = 9 /\ volume s' = 2.
Proof. do 2 eexists. repeat split; reflexivity. Qed.

(** ** C03 *)
Theorem C03_lower_volume : forall m s d, wf s ->
  lower_volume m s d = Ok (prod_below (index s) d) /\
  (exists q, volume s = q * prod_below (index s) d) /\
  prod_below (index s) d * index s d = prod_below (index s) (S d) /\
  volume s = prod_below (index s) 8.
Proof. exact C03_l. Qed.
Print Assumptions C03_lower_volume.
Example C03_witness : exists s, shape_new Debug [2; 3; 5] 4 = Ok s /\ wf s /\
  lower_volume Debug s 2 = Ok 6 /\ lower_volume Debug s 100 = Ok 30.
Proof.
  eexists. split; [reflexivity|]. split; [|split; reflexivity].
  apply (obtained_wf (s := _)), (@ob_new Debug [2;3;5] 4); auto; repeat constructor.
Qed.

(** ** C04 *)
Theorem C04_has_same_dims : forall a b, wf a -> wf b ->
  exists r, has_same_dims a b = Ok r /\ (r = true <-> forall i, index a i = index b i).
Proof. exact has_same_dims_Ok. Qed.
Print Assumptions C04_has_same_dims.
Theorem C04_has_same_loo_dims : forall m a b dim, wf a -> wf b -> N.of_nat dim + 1 < two32 ->
  exists r, has_same_loo_dims m a b dim = Ok r /\ (r = true <-> forall i, i <> dim -> index a i = index b i).
Proof. exact has_same_loo_dims_Ok. Qed.
Print Assumptions C04_has_same_loo_dims.
Theorem C04_compatible_batch : forall a b, has_compatible_batch a b = true <-> (batch a = batch b \/ batch a = 1 \/ batch b = 1).
Proof. exact compat_iff. Qed.
Print Assumptions C04_compatible_batch.
Theorem C04_is_scalar : forall s, wf s -> is_scalar s = true <-> forall i, index s i = 1.
Proof. exact is_scalar_iff. Qed.
Print Assumptions C04_is_scalar.
Theorem C04_is_column_vector : forall s, wf s -> is_column_vector s = true <-> forall i, (1 <= i)%nat -> index s i = 1.
Proof. exact is_column_vector_iff. Qed.
Print Assumptions C04_is_column_vector.
Theorem C04_is_matrix : forall s, wf s -> is_matrix s = true <-> forall i, (2 <= i)%nat -> index s i = 1.
Proof. exact is_matrix_iff. Qed.
Print Assumptions C04_is_matrix.
Example C04_witness : exists a b, shape_new Debug [2; 3; 5] 1 = Ok a /\ shape_new Debug [2; 1; 5] 7 = Ok b /\
  has_same_loo_dims Debug a b 1 = Ok true /\ has_same_loo_dims Debug a b 2 = Ok false /\ has_same_dims a b = Ok false.
Proof. do 2 eexists. repeat split; reflexivity. Qed.

(** ** C05 *)
Theorem C05_elementwise : forall a b s, wf a -> wf b ->
  so_elementwise a b = Ok s <->
  (forall i, index a i = index b i) /\ compat (batch a) (batch b) /\ is_shape s (index a) (N.max (batch a) (batch b)).
Proof. exact so_elementwise_iff. Qed.
Print Assumptions C05_elementwise.
Theorem C05_scalar_op : forall x k s, wf x -> wf k ->
  so_scalar_op x k = Ok s <->
  (forall i, index k i = 1) /\ compat (batch x) (batch k) /\ is_shape s (index x) (N.max (batch x) (batch k)).
Proof. exact so_scalar_op_iff. Qed.
Print Assumptions C05_scalar_op.
Theorem C05_matmul : forall l r s, wf l -> wf r ->
  so_matmul Debug l r = Ok s <->
  (forall i, (2 <= i)%nat -> index l i = 1) /\ (forall i, (2 <= i)%nat -> index r i = 1) /\
  index l 1 = index r 0 /\ compat (batch l) (batch r) /\
  is_shape s (ext2 (index l 0) (index r 1)) (N.max (batch l) (batch r)).
Proof. exact so_matmul_iff. Qed.
Print Assumptions C05_matmul.
Theorem C05_transpose : forall x s, wf x ->
  so_transpose Debug x = Ok s <->
  (forall i, (2 <= i)%nat -> index x i = 1) /\ is_shape s (ext2 (index x 1) (index x 0)) (batch x).
Proof. exact so_transpose_iff. Qed.
Print Assumptions C05_transpose.
Example C05_witness : exists a b s, shape_new Debug [2; 3] 1 = Ok a /\ shape_new Debug [3; 5] 7 = Ok b /\
  so_matmul Debug a b = Ok s /\ dims s = [2; 5] /\ batch s = 7.
Proof. do 3 eexists. repeat split; reflexivity. Qed.

(** ** C06 *)
Theorem C06_broadcast : forall x dim n s, wf x ->
  so_broadcast Debug x dim n = Ok s <->
  (dim < 8)%nat /\ index x dim = 1 /\ 1 <= n /\ is_shape s (upd_ext x dim n) (batch x).
Proof. exact so_broadcast_iff. Qed.
Print Assumptions C06_broadcast.
Theorem C06_slice : forall x dim lo hi s, wf x ->
  so_slice Debug x dim lo hi = Ok s <->
  (dim < 8)%nat /\ lo < hi /\ hi <= index x dim /\ is_shape s (upd_ext x dim (hi - lo)) (batch x).
Proof. exact so_slice_iff. Qed.
Print Assumptions C06_slice.
Theorem C06_pick : forall x ids dim s, wf x -> N.of_nat (length ids) < two32 ->
  so_pick Debug x ids dim = Ok s <->
  (dim < 8)%nat /\ ids <> [] /\ compat (batch x) (N.of_nat (length ids)) /\
  Forall (fun id => id < index x dim) ids /\
  is_shape s (upd_ext x dim 1) (N.max (batch x) (N.of_nat (length ids))).
Proof. exact so_pick_iff. Qed.
Print Assumptions C06_pick.
Theorem C06_concat : forall xs dim s, Forall wf xs ->
  so_concat Debug xs dim = Ok s <->
  exists x0 xs', xs = x0 :: xs' /\ (dim < 8)%nat /\
    Forall (fun x => forall i, i <> dim -> index x i = index x0 i) xs /\
    common_batch (map batch xs) (batch s) /\
    is_shape s (upd_ext x0 dim (sum_ext xs dim)) (batch s).
Proof. exact so_concat_iff. Qed.
Print Assumptions C06_concat.
Theorem C06_batch_slice : forall x lo hi s, wf x ->
  so_batch_slice x lo hi = Ok s <-> lo < hi /\ hi <= batch x /\ is_shape s (index x) (hi - lo).
Proof. exact so_batch_slice_iff. Qed.
Print Assumptions C06_batch_slice.
Theorem C06_batch_pick : forall x ids s, wf x -> N.of_nat (length ids) < two32 ->
  so_batch_pick x ids = Ok s <->
  ids <> [] /\ Forall (fun id => id < batch x) ids /\ is_shape s (index x) (N.of_nat (length ids)).
Proof. exact so_batch_pick_iff. Qed.
Print Assumptions C06_batch_pick.
Theorem C06_batch_concat : forall xs s, Forall wf xs ->
  so_batch_concat Debug xs = Ok s <->
  exists x0 xs', xs = x0 :: xs' /\ Forall (fun x => forall i, index x i = index x0 i) xs /\
    is_shape s (index x0) (sumN (map batch xs)).
Proof. exact so_batch_concat_iff. Qed.
Print Assumptions C06_batch_concat.
Example C06_witness : exists a b c s, shape_new Debug [2; 3] 1 = Ok a /\ shape_new Debug [2; 5] 7 = Ok b /\ shape_new Debug [2] 7 = Ok c /\
  so_concat Debug [a; b; c] 1 = Ok s /\ dims s = [2; 9] /\ batch s = 7.
Proof. do 4 eexists. repeat split; reflexivity. Qed.

(** ** C07 *)
Theorem C07_roundtrip : forall m s, wf s -> shape_deserialize m (shape_serialize s) = Ok s.
Proof. exact serde_roundtrip. Qed.
Print Assumptions C07_roundtrip.
Theorem C07_deserialize_consistent : forall m d s, u32 (sd_batch d) -> shape_deserialize Debug d = Ok s ->
  wf s /\ shape_deserialize m (shape_serialize s) = Ok s /\ (forall i, index s i = nth i (sd_dims d) 1) /\ batch s = sd_batch d.
Proof. exact C07_deser_l. Qed.
Print Assumptions C07_deserialize_consistent.
Example C07_witness : exists s, shape_deserialize Debug (mkSerde [2; 1; 3; 1] 4) = Ok s /\ sd_dims (shape_serialize s) = [2; 1; 3].
Proof. eexists. split; reflexivity. Qed.

(** ** C08 *)
Theorem C08_counts_exact_debug : forall s, obtained Debug s ->
  volume s = prod_below (index s) 8 /\
  forall n, size Debug s = Ok n -> n = batch s * prod_below (index s) 8.
Proof. exact C08_debug_l. Qed.
Print Assumptions C08_counts_exact_debug.
Theorem C08_volume_release_refuted : exists s, obtained Release s /\ volume s <> prod_below (index s) 8.
Proof. exact C08_release_refuted_l. Qed.
Print Assumptions C08_volume_release_refuted.
Theorem C08_size_release_refuted :
  exists s n, obtained Release s /\ wf s /\ size Release s = Ok n /\ n <> batch s * prod_below (index s) 8.
Proof. exact C08_release_size_refuted_l. Qed.
Print Assumptions C08_size_release_refuted.
Example C08_witness : exists s, obtained Debug s /\ size Debug s = Ok 24.
Proof.
  eexists. split; [apply (@ob_new Debug [2; 3] 4); repeat constructor|reflexivity].
Qed.
