(** * ApiMat: matrix gradients and the composed functions *)
From Verif Require Export ApiMore.
Set Implicit Arguments.

Section ApiMat.
Variable K : num.
Notation F := (F K).
Notation tensor := (tensor K).
Variable m : build.

(** a shape with given extents exists as soon as the counts fit in u32 *)
Lemma prodN_prod_lt (e : nat -> nat) n : prodN (map (fun i => N.of_nat (e i)) (seq 0 n)) = N.of_nat (prod_lt e n).
Proof.
  induction n as [|n IH]; [reflexivity|]. rewrite seq_S, map_app. cbn [map Nat.add prod_lt].
  assert (A : forall l x, prodN (l ++ [x]) = (prodN l * x)%N).
  { clear. intros l x. unfold prodN. induction l as [|y l IH]; cbn [app fold_right]; [lia|]. rewrite IH. lia. }
  rewrite A, IH. lia.
Qed.
Lemma shape_exists (e : nat -> nat) b : (forall i, 1 <= e i) -> (forall i, 8 <= i -> e i = 1) -> 1 <= b ->
  (N.of_nat b < two32)%N -> (N.of_nat (prod_lt e 8) < two32)%N -> exists s, shape_is s e b.
Proof.
  intros H1 H8 Hb Hb2 Hp.
  destruct (@shape_new_Ok Debug (map (fun i => N.of_nat (e i)) (seq 0 8)) (N.of_nat b)) as (s & _ & W & Eb & Ei).
  - rewrite map_length, seq_length. lia.
  - apply Forall_forall. intros x Hx. apply in_map_iff in Hx. destruct Hx as (i & <- & _). specialize (H1 i). lia.
  - lia.
  - rewrite prodN_prod_lt. exact Hp.
  - exists s. split; [exact W|]. split; [|unfold bat; lia]. intros i. unfold ext. rewrite Ei.
    destruct (Nat.lt_ge_cases i 8) as [Hi|Hi].
    + rewrite nth_map_seq by exact Hi. cbn [Nat.add]. lia.
    + rewrite nth_overflow by (rewrite map_length, seq_length; lia). rewrite H8 by auto. reflexivity.
Qed.
Lemma shape_exists_fits (e : nat -> nat) b : (forall i, 1 <= e i) -> (forall i, 8 <= i -> e i = 1) -> 1 <= b ->
  (N.of_nat (b * prod_lt e 8) <= 2147483648)%N -> exists s, shape_is s e b /\ fits s.
Proof.
  intros H1 H8 Hb H. assert (1 <= prod_lt e 8) by (apply prod_lt_pos; auto).
  destruct (@shape_exists e b) as (s & Hs); auto; try (change two32 with 4294967296%N; nia).
  exists s. split; [exact Hs|]. apply (fits_tot (proj1 Hs)). unfold tot, vol, low. destruct Hs as (_ & E & ->).
  rewrite (@prod_lt_ext (ext s) e 8) by auto. exact H.
Qed.
Lemma transposed_exists x : wf x -> matrix x -> exists s, shape_is s (m2 (ext x 1) (ext x 0)) (bat x).
Proof.
  intros W M. apply shape_exists.
  - intros i. destruct i as [|[|i]]; simpl; try apply ext_pos; auto.
  - intros i Hi. destruct i as [|[|i]]; [lia|lia|reflexivity].
  - apply bat_pos; auto.
  - unfold bat. pose proof (wf_batch W). lia.
  - replace (prod_lt (m2 (ext x 1) (ext x 0)) 8) with (vol x) by (rewrite (matrix_vol M); simpl; lia).
    rewrite (vol_spec W). pose proof (wf_vol_bound W). lia.
Qed.
Lemma yields_inv r d s (f : (nat -> nat) -> nat -> F) : yields r d s f -> exists y : tensor, r = Ok y /\ is_tensor d s f y.
Proof. auto. Qed.
Lemma is_tensor_at d s f (y : tensor) c b : is_tensor d s f y -> inb s c -> b < bat s -> at_ y c b = f c b.
Proof. intros (_ & _ & H); auto. Qed.
Lemma is_tensor_ready d s f (y : tensor) : is_tensor d s f y -> ready d y. Proof. intros H; apply H. Qed.
Lemma is_tensor_shape d s f (y : tensor) : is_tensor d s f y -> t_shape y = s. Proof. intros H; apply H. Qed.
(** ** += of a computed tensor *)
Lemma add_assign_of d s f (t gx : tensor) : ready d gx -> is_tensor d s f t -> (forall i, ext s i = ext (t_shape gx) i) ->
  (bat (t_shape gx) = 1 \/ bat (t_shape gx) = bat s) ->
  writes (t_add_assign m gx t) gx (fun c q => acc_batches K (t_shape gx) (bat s) q (fun n v => nadd K v (f c n)) (at_ gx c q)).
Proof.
  intros Hg Ht HE HB. pose proof (is_tensor_shape Ht) as Es. pose proof (is_tensor_ready Ht) as Hr.
  pose proof (bat_pos (ready_wf Hg)); pose proof (bat_pos (ready_wf Hr)).
  eapply writes_ext.
  - apply add_assign_writes with (d := d); auto. split; rewrite Es; [exact HE|lia].
  - intros c q Hc Hq. cbv beta. rewrite Es in *. replace (Nat.max (bat s) (bat (t_shape gx))) with (bat s) by lia. apply acc_ext.
    intros n w Hn. f_equal. rewrite (is_tensor_at Ht).
    + f_equal. unfold bsel. destruct (Nat.eqb_spec (bat s) 1); lia.
    + intros i. rewrite HE. apply Hc.
    + unfold bsel. destruct (Nat.eqb_spec (bat s) 1); lia.
Qed.

Lemma transpose_bw_writes d als (x y gy gx : tensor) : (forall i, al_ok (als i)) ->
  ready d x -> ready d y -> ready d gy -> ready d gx -> matrix (t_shape x) ->
  shape_is (t_shape y) (m2 (ext (t_shape x) 1) (ext (t_shape x) 0)) (bat (t_shape x)) ->
  t_shape gx = t_shape x -> t_shape gy = t_shape y ->
  writes (transpose_bw m als d x y gy gx) gx (fun c b => nadd K (at_ gx c b) (at_ gy (c2 (c 1) (c 0)) b)).
Proof.
  intros HA Hx Hy Hgy Hgx HM Hs Ex Ey. unfold transpose_bw. rewrite !ready_check by auto. cbn [bind].
  rewrite !same_shape_Ok by (auto; apply (ready_wf Hx) || apply (ready_wf Hy)). cbn [bind].
  rewrite (transpose_shape m (ready_wf Hx) HM Hs). cbn [bind]. rewrite (assert_eqb (proj1 Hs)). cbn [bind].
  rewrite (call_bw_eq _ (eq_refl : assoc (bw_registry K m) "transpose_bw_impl" = _)). cbn [idx nth_error bind].
  unfold k_transpose_bw, t_transpose, via1. rewrite (ready_device_of Hgy). cbn [bind].
  destruct (m2_matrix Hs) as (My & E0 & E1).
  assert (Hs2 : shape_is (t_shape x) (m2 (ext (t_shape gy) 1) (ext (t_shape gy) 0)) (bat (t_shape gy))).
  { rewrite Ey. split; [apply (ready_wf Hx)|]. split; [|symmetry; apply (proj2 (proj2 Hs))].
    intros i. rewrite E0, E1. destruct i as [|[|i]]; [reflexivity|reflexivity|apply HM; lia]. }
  destruct (@transpose_yields K m d (als 0) gy (t_shape x)) as (t & Et & Ht); auto.
  { rewrite Ey. exact My. }
  rewrite Et. cbn [bind]. eapply writes_ext; [eapply add_assign_of; eauto; rewrite Ex; auto|].
  intros c q Hc Hq. cbv beta. rewrite Ex in *. apply acc_batches_id; auto.
Qed.

Lemma triangular_bw_writes (upper : bool) d als (x y gy gx : tensor) k : (forall i, al_ok (als i)) ->
  ready d x -> ready d y -> ready d gy -> ready d gx -> matrix (t_shape x) ->
  ext (t_shape x) 1 = ext (t_shape x) 0 -> (N.of_nat (ext (t_shape x) 0) + k <= two32)%N ->
  t_shape gx = t_shape x -> t_shape gy = t_shape y -> t_shape y = t_shape x ->
  writes ((if upper then triangular_u_bw m else triangular_l_bw m) als d x y gy k gx) gx
    (fun c b => nadd K (at_ gx c b) (if (if upper then N.of_nat (c 0%nat) + k <=? N.of_nat (c 1%nat) else N.of_nat (c 1%nat) + k <=? N.of_nat (c 0%nat))%N then at_ gy c b else n0)).
Proof.
  intros HA Hx Hy Hgy Hgx HM En Hk Ex Ey Eyx.
  assert (Es : t_shape gy = t_shape x) by congruence.
  assert (T : exists t, (if upper then t_triangular_u m (als 0) gy k else t_triangular_l m (als 0) gy k) = Ok t /\
     is_tensor d (t_shape gy) (fun c b => if (if upper then N.of_nat (c 0%nat) + k <=? N.of_nat (c 1%nat) else N.of_nat (c 1%nat) + k <=? N.of_nat (c 0%nat))%N then at_ gy c b else n0) t).
  { destruct (@triangular_yields K m upper d (als 0) gy k) as (t & Et & Ht); auto; try (rewrite Es; auto).
    exists t. unfold t_triangular_u, t_triangular_l. rewrite (ready_device_of Hgy). cbn [bind]. destruct upper; auto; rewrite Es in *; auto. }
  destruct T as (t & Et & Ht).
  assert (G : writes (t <- (if upper then t_triangular_u m (als 0) gy k else t_triangular_l m (als 0) gy k) ;; t_add_assign m gx t) gx
     (fun c b => nadd K (at_ gx c b) (if (if upper then N.of_nat (c 0%nat) + k <=? N.of_nat (c 1%nat) else N.of_nat (c 1%nat) + k <=? N.of_nat (c 0%nat))%N then at_ gy c b else n0))).
  { rewrite Et. cbn [bind]. eapply writes_ext; [eapply add_assign_of; [exact Hgx|exact Ht|intros; rewrite Es, Ex; auto|rewrite Es, Ex; auto]|].
    intros c q Hc Hq. cbv beta. rewrite Ex, Es in *. apply acc_batches_id; auto. }
  destruct upper; unfold triangular_u_bw, triangular_l_bw, triangular_bw; rewrite !ready_check by auto; cbn [bind];
   rewrite !same_shape_Ok by (auto; apply (ready_wf Hx) || apply (ready_wf Hy)); cbn [bind];
   [rewrite (call_bw_eq _ (eq_refl : assoc (bw_registry K m) "triangular_u_bw_impl" = _))|
    rewrite (call_bw_eq _ (eq_refl : assoc (bw_registry K m) "triangular_l_bw_impl" = _))]; cbn [idx nth_error bind]; exact G.
Qed.

(** ** matmul gradients *)
Section MatmulBw.
Variables (d : nat) (als : nat -> alloc_oracle K) (a b y gy : tensor).
Hypotheses (HA : forall i, al_ok (als i)) (Ha : ready d a) (Hb : ready d b) (Hy : ready d y) (Hgy : ready d gy)
  (Ma : matrix (t_shape a)) (Mb : matrix (t_shape b)) (E12 : ext (t_shape a) 1 = ext (t_shape b) 0)
  (HC : bat (t_shape a) = bat (t_shape b) \/ bat (t_shape a) = 1 \/ bat (t_shape b) = 1)
  (Hs : shape_is (t_shape y) (m2 (ext (t_shape a) 0) (ext (t_shape b) 1)) (Nat.max (bat (t_shape a)) (bat (t_shape b))))
  (Eg : t_shape gy = t_shape y).

Lemma mm_so : so_matmul m (t_shape a) (t_shape b) = Ok (t_shape y).
Proof. apply (matmul_shape m (ready_wf Ha) (ready_wf Hb)); auto. unfold compat, bat in *. lia. Qed.

(** [W]: the shape of the product before it is summed over the minibatch *)
Lemma matmul_bw_a_writes ga W : ready d ga -> t_shape ga = t_shape a -> shape_is W (ext (t_shape a)) (bat (t_shape y)) -> fits W ->
  writes (matmul_bw_a m als d a b y gy ga) ga (fun c q => acc_batches K (t_shape ga) (bat (t_shape y)) q (fun n v =>
     nadd K v (blocksum K (fun j => nmul K (at_ gy (c2 (c 0) j) n) (at_ b (c2 (c 1) j) (bsel (t_shape b) n))) (ext (t_shape b) 1))) (at_ ga c q)).
Proof.
  intros Hga Ea HW HF. unfold matmul_bw_a, define_bw_ab_a. rewrite !ready_check by auto. cbn [bind].
  rewrite !same_shape_Ok by (auto; apply (ready_wf Ha) || apply (ready_wf Hy)). cbn [bind].
  rewrite mm_so. cbn [bind]. rewrite (assert_eqb (ready_wf Hy)). cbn [bind].
  rewrite (call_bw_eq _ (eq_refl : assoc (bw_registry K m) "matmul_bw_a_impl" = _)). cbn [idx nth_error bind].
  unfold k_matmul_bw_a. rewrite (ready_device_of Hgy), (ready_device_of Hb). cbn [bind].
  destruct (m2_matrix Hs) as (My & E0 & E1). pose proof (bat_pos (ready_wf Ha)); pose proof (bat_pos (ready_wf Hb)).
  assert (By : bat (t_shape y) = Nat.max (bat (t_shape a)) (bat (t_shape b))) by apply Hs.
  assert (exists sb, shape_is sb (m2 (ext (t_shape b) 1) (ext (t_shape b) 0)) (bat (t_shape b))) as (sb & Hsb).
  { apply transposed_exists; auto. apply (ready_wf Hb). }
  destruct (m2_matrix Hsb) as (Msb & Eb0 & Eb1).
  destruct (@transpose_yields K m d (als 0) b sb) as (bt & Et & Ht); auto. rewrite Et. cbn [bind].
  pose proof (is_tensor_shape Ht) as Esb. pose proof (is_tensor_ready Ht) as Hbt.
  assert (Bsb : bat sb = bat (t_shape b)) by apply Hsb.
  destruct (@matmul_yields K m d (als 1) gy bt W) as (p & Ep & Hp); auto.
  { rewrite Eg; auto. } { rewrite Esb; auto. } { rewrite Eg, Esb. lia. } { rewrite Eg, Esb. lia. }
  { rewrite Eg, Esb, E0, Eb1. destruct HW as (W1 & W2 & W3). split; [exact W1|]. split; [|lia].
    intros i. rewrite W2, <- E12. destruct i as [|[|i]]; [reflexivity|reflexivity|apply Ma; lia]. }
  rewrite Ep. cbn [bind].
  assert (BW : bat W = bat (t_shape y)) by apply HW.
  eapply writes_ext; [eapply add_assign_of; [exact Hga|exact Hp|intros; rewrite Ea; apply HW|rewrite Ea; lia]|].
  intros c q Hc Hq. cbv beta. rewrite BW. apply acc_ext. intros n w Hn. f_equal.
  rewrite Eg, E1. apply blocksum_ext. intros j Hj. rewrite Esb. rewrite Ea in Hc.
  f_equal.
  - f_equal. unfold bsel. destruct (Nat.eqb_spec (bat (t_shape y)) 1); lia.
  - rewrite (is_tensor_at Ht).
    + unfold c2 at 2 3. f_equal. unfold bsel. rewrite Bsb. reflexivity.
    + apply matrix_inb; auto; [lia|]. specialize (Hc 1). lia.
    + unfold bsel. destruct (Nat.eqb_spec (bat sb) 1); lia.
Qed.
Lemma matmul_bw_b_writes gb W : ready d gb -> t_shape gb = t_shape b -> shape_is W (ext (t_shape b)) (bat (t_shape y)) -> fits W ->
  writes (matmul_bw_b m als d a b y gy gb) gb (fun c q => acc_batches K (t_shape gb) (bat (t_shape y)) q (fun n v =>
     nadd K v (blocksum K (fun i => nmul K (at_ a (c2 i (c 0)) (bsel (t_shape a) n)) (at_ gy (c2 i (c 1)) n)) (ext (t_shape a) 0))) (at_ gb c q)).
Proof.
  intros Hga Ea HW HF. unfold matmul_bw_b, define_bw_ab_b. rewrite !ready_check by auto. cbn [bind].
  rewrite !same_shape_Ok by (auto; apply (ready_wf Hb) || apply (ready_wf Hy)). cbn [bind].
  rewrite mm_so. cbn [bind]. rewrite (assert_eqb (ready_wf Hy)). cbn [bind].
  rewrite (call_bw_eq _ (eq_refl : assoc (bw_registry K m) "matmul_bw_b_impl" = _)). cbn [idx nth_error bind].
  unfold k_matmul_bw_b. rewrite (ready_device_of Ha). cbn [bind].
  destruct (m2_matrix Hs) as (My & E0 & E1). pose proof (bat_pos (ready_wf Ha)); pose proof (bat_pos (ready_wf Hb)).
  assert (By : bat (t_shape y) = Nat.max (bat (t_shape a)) (bat (t_shape b))) by apply Hs.
  assert (exists sb, shape_is sb (m2 (ext (t_shape a) 1) (ext (t_shape a) 0)) (bat (t_shape a))) as (sb & Hsb).
  { apply transposed_exists; auto. apply (ready_wf Ha). }
  destruct (m2_matrix Hsb) as (Msb & Eb0 & Eb1).
  destruct (@transpose_yields K m d (als 0) a sb) as (bt & Et & Ht); auto. rewrite Et. cbn [bind].
  pose proof (is_tensor_shape Ht) as Esb. pose proof (is_tensor_ready Ht) as Hbt.
  assert (Bsb : bat sb = bat (t_shape a)) by apply Hsb.
  destruct (@matmul_yields K m d (als 1) bt gy W) as (p & Ep & Hp); auto.
  { rewrite Esb; auto. } { rewrite Eg; auto. } { rewrite Eg, Esb. lia. } { rewrite Eg, Esb. lia. }
  { rewrite Eg, Esb, E1, Eb0. destruct HW as (W1 & W2 & W3). split; [exact W1|]. split; [|lia].
    intros i. rewrite W2, E12. destruct i as [|[|i]]; [reflexivity|reflexivity|apply Mb; lia]. }
  rewrite Ep. cbn [bind].
  assert (BW : bat W = bat (t_shape y)) by apply HW.
  eapply writes_ext; [eapply add_assign_of; [exact Hga|exact Hp|intros; rewrite Ea; apply HW|rewrite Ea; lia]|].
  intros c q Hc Hq. cbv beta. rewrite BW. apply acc_ext. intros n w Hn. f_equal.
  rewrite Esb, Eb1. apply blocksum_ext. intros j Hj. rewrite Eg. rewrite Ea in Hc.
  f_equal.
  - rewrite (is_tensor_at Ht).
    + unfold c2 at 2 3. f_equal. unfold bsel. rewrite Bsb. reflexivity.
    + apply matrix_inb; auto; [|lia]. specialize (Hc 0). lia.
    + unfold bsel. destruct (Nat.eqb_spec (bat sb) 1); lia.
  - f_equal. unfold bsel. destruct (Nat.eqb_spec (bat (t_shape y)) 1); lia.
Qed.
End MatmulBw.
End ApiMat.
