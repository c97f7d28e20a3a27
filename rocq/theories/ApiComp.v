(** * ApiComp: operator syntax on tensors, softmax and cross entropy, flatten *)
From Verif Require Export ApiMat.
Set Implicit Arguments.

Section ApiComp.
Variable K : num.
Notation F := (F K).
Notation tensor := (tensor K).
Variable m : build.

(** ** operator syntax *)
Lemma t_add_yields d al (a b : tensor) s : al_ok al -> ready d a -> ready d b -> bin_ok (t_shape a) (t_shape b) s -> fits s ->
  yields (t_add m al a b) d s (fun c n => if is_scalar (t_shape a) then nadd K (opnd b c n) (opnd a c n) else nadd K (opnd a c n) (opnd b c n)).
Proof.
  intros. eapply yields_ext; [eapply (@ab_op_yields K m _ _ _ (e_add K) (e_add_scalar K) (e_add_scalar K)); eauto; reflexivity|].
  intros c n Hc Hn. cbv beta. destruct (is_scalar (t_shape a)); [reflexivity|]. destruct (is_scalar (t_shape b)); reflexivity.
Qed.
Lemma t_sub_yields d al (a b : tensor) s : al_ok al -> ready d a -> ready d b -> bin_ok (t_shape a) (t_shape b) s -> fits s ->
  yields (t_sub m al a b) d s (fun c n => nsub K (opnd a c n) (opnd b c n)).
Proof.
  intros. eapply yields_ext; [eapply (@ab_op_yields K m _ _ _ (e_sub K) (e_sub_scalar_l K) (e_sub_scalar_r K)); eauto; reflexivity|].
  intros c n Hc Hn. cbv beta. destruct (is_scalar (t_shape a)); [reflexivity|]. destruct (is_scalar (t_shape b)); reflexivity.
Qed.
Lemma t_mul_yields d al (a b : tensor) s : al_ok al -> ready d a -> ready d b -> bin_ok (t_shape a) (t_shape b) s -> fits s ->
  yields (t_mul m al a b) d s (fun c n => if is_scalar (t_shape a) then nmul K (opnd b c n) (opnd a c n) else nmul K (opnd a c n) (opnd b c n)).
Proof.
  intros. eapply yields_ext; [eapply (@ab_op_yields K m _ _ _ (e_mul K) (e_mul_scalar K) (e_mul_scalar K)); eauto; reflexivity|].
  intros c n Hc Hn. cbv beta. destruct (is_scalar (t_shape a)); [reflexivity|]. destruct (is_scalar (t_shape b)); reflexivity.
Qed.
Lemma t_div_yields d al (a b : tensor) s : al_ok al -> ready d a -> ready d b -> bin_ok (t_shape a) (t_shape b) s -> fits s ->
  yields (t_div m al a b) d s (fun c n => ndiv K (opnd a c n) (opnd b c n)).
Proof.
  intros. eapply yields_ext; [eapply (@ab_op_yields K m _ _ _ (e_div K) (e_div_scalar_l K) (e_div_scalar_r K)); eauto; reflexivity|].
  intros c n Hc Hn. cbv beta. destruct (is_scalar (t_shape a)); [reflexivity|]. destruct (is_scalar (t_shape b)); reflexivity.
Qed.
Lemma t_pow_yields d al (a b : tensor) s : al_ok al -> ready d a -> ready d b ->
  (forall i, ext (t_shape a) i = ext (t_shape b) i) ->
  (bat (t_shape a) = bat (t_shape b) \/ bat (t_shape a) = 1 \/ bat (t_shape b) = 1) ->
  shape_is s (ext (t_shape a)) (Nat.max (bat (t_shape a)) (bat (t_shape b))) ->
  yields (t_pow m al a b) d s (fun c n => npowf K (at_ a c (bsel (t_shape a) n)) (at_ b c (bsel (t_shape b) n))).
Proof.
  intros HA Ha Hb E C Hs. unfold t_pow. rewrite (ready_device_of Ha). cbn [bind].
  eapply (@fw_ab_yields K m "powf_fw_impl" (e_powf K)); eauto. apply elementwise_of; auto; [apply (ready_wf Ha)|apply (ready_wf Hb)].
Qed.

(** bin_ok for two tensors of the same shape *)
Lemma bin_ok_same s : wf s -> bin_ok s s s.
Proof.
  intros W. split; [auto|]. split; [auto|]. rewrite Nat.max_id. split; [exact W|]. split; [|reflexivity]. destruct (is_scalar s); auto.
Qed.
Lemma opnd_same d (x : tensor) c n : ready d x -> inb (t_shape x) c -> n < bat (t_shape x) -> opnd x c n = at_ x c n.
Proof.
  intros HR Hc Hn. rewrite (opnd_in _ HR Hc). f_equal. unfold bsel. destruct (Nat.eqb_spec (bat (t_shape x)) 1); lia.
Qed.

(** ** softmax *)
(** the log-sum-exp of n numbers as the kernel computes it *)
Definition lse (f : nat -> F) (n : nat) : F := narrow K (red (lse_step K) (widen K (f 0)) (fun j => f (S j)) (n - 1)).
Lemma lse_ext f g n : 1 <= n -> (forall j, j < n -> f j = g j) -> lse f n = lse g n.
Proof. intros Hn H. unfold lse. rewrite (H 0) by lia. f_equal. apply red_ext. intros; apply H; lia. Qed.
Definition line (x : tensor) (e : nat) (c : nat -> nat) (b : nat) : nat -> F := fun j => at_ x (cset c e j) b.
Definition lsm (x : tensor) (e : nat) (c : nat -> nat) (b : nat) : F :=
  nsub K (at_ x c b) (lse (line x e c b) (ext (t_shape x) e)).

Lemma cset_cset c e j k i : cset (cset c e j) e k i = cset c e k i.
Proof. unfold cset. destruct (i =? e); reflexivity. Qed.
Lemma at_ext (x : tensor) c c' b : (forall i, c i = c' i) -> at_ x c b = at_ x c' b.
Proof. intros H. rewrite !at_buf. f_equal. apply pos_ext; auto. Qed.
Lemma line_cset (x : tensor) e c b k j : line x e (cset c e k) b j = line x e c b j.
Proof. unfold line. apply at_ext. apply cset_cset. Qed.

Lemma ln_softmax_yields d als (x : tensor) dim : (forall i, al_ok (als i)) -> ready d x -> N.to_nat dim < 8 ->
  yields (t_ln_softmax m als x dim) d (t_shape x) (lsm x (N.to_nat dim)).
Proof.
  intros HA HR Hd. set (e := N.to_nat dim) in *. unfold t_ln_softmax, t_logsumexp, t_broadcast. rewrite (ready_device_of HR). cbn [bind].
  destruct (@logsumexp_yields K m d (als 0) x dim) as (s & R & (l & El & Hl)); auto. rewrite El. cbn [bind].
  pose proof (is_tensor_ready Hl) as Rl. pose proof (is_tensor_shape Hl) as Es. rewrite (ready_device_of Rl). cbn [bind]. fold e in R.
  destruct (@broadcast_yields K m d (als 1) l dim (index (t_shape x) e) (t_shape x)) as (bt & Eb & Hb); auto.
  - fold e. rewrite Es. apply (rd_one R).
  - pose proof (wf_index_pos e (ready_wf HR)). lia.
  - fold e. rewrite Es. split; [apply (ready_wf HR)|]. split; [|symmetry; apply (rd_bat R)].
    intros i. unfold eset. destruct (Nat.eqb_spec i e) as [->|Hi]; [reflexivity|]. symmetry. apply (rd_ext R); auto.
  - apply (ready_fits HR).
  - replace (broadcast_fw m d (als 1) l dim (index (t_shape x) (N.to_nat dim))) with (Ok bt) by (symmetry; exact Eb). cbn [bind].
    pose proof (is_tensor_ready Hb) as Rb. pose proof (is_tensor_shape Hb) as Esb.
    eapply yields_ext.
    + eapply t_sub_yields; eauto; [|apply (ready_fits HR)]. rewrite Esb. apply bin_ok_same. apply (ready_wf HR).
    + intros c n Hc Hn. cbv beta. rewrite (opnd_same HR Hc Hn). rewrite (@opnd_same d bt) by (auto; rewrite Esb; auto).
      rewrite (is_tensor_at Hb Hc Hn). fold e.
      assert (Hc0 : inb s (cset c e 0)).
      { intros i. destruct (Nat.eq_dec i e) as [->|Hi]; [rewrite cset_eq, (rd_one R); lia|]. rewrite cset_neq by auto.
        rewrite (rd_ext R) by auto. apply Hc. }
      rewrite (is_tensor_at Hl Hc0) by (rewrite (rd_bat R); auto). unfold lsm. f_equal. fold e. cbv zeta.
      change (lse (line x e (cset c e 0) n) (ext (t_shape x) e) = lse (line x e c n) (ext (t_shape x) e)).
      apply lse_ext; [apply ext_pos, (ready_wf HR)|]. intros j Hj. apply (line_cset x e c n 0 j).
Qed.
Lemma t_exp_yields d al (x : tensor) : al_ok al -> ready d x -> yields (t_exp m al x) d (t_shape x) (fun c b => nexp K (at_ x c b)).
Proof.
  intros HA HR. unfold t_exp, via1. rewrite (ready_device_of HR). cbn [bind].
  apply (@fw_x_yields K m "exp_fw_impl" (e_exp K)); auto.
Qed.
Lemma t_neg_yields d al (x : tensor) : al_ok al -> ready d x -> yields (t_neg m al x) d (t_shape x) (fun c b => nneg K (at_ x c b)).
Proof.
  intros HA HR. unfold t_neg, via1. rewrite (ready_device_of HR). cbn [bind].
  apply (@fw_x_yields K m "neg_fw_impl" (e_neg K)); auto.
Qed.
Lemma softmax_yields d als (x : tensor) dim : (forall i, al_ok (als i)) -> ready d x -> N.to_nat dim < 8 ->
  yields (t_softmax m als x dim) d (t_shape x) (fun c b => nexp K (lsm x (N.to_nat dim) c b)).
Proof.
  intros HA HR Hd. unfold t_softmax. destruct (ln_softmax_yields als dim HA HR Hd) as (y & E & Hy). rewrite E. cbn [bind].
  pose proof (is_tensor_shape Hy) as Es.
  destruct (t_exp_yields (HA 3) (is_tensor_ready Hy)) as (z & Ez & Hz). exists z. split; [exact Ez|]. rewrite Es in Hz.
  eapply is_tensor_ext; [exact Hz|]. intros c b Hc Hb. cbv beta. rewrite (is_tensor_at Hy Hc Hb). reflexivity.
Qed.

(** softmax_cross_entropy for a target that fits; [s0] is the shape of t * ln_softmax x *)
Lemma softmax_cross_entropy_yields d als (x t : tensor) dim s0 : (forall i, al_ok (als i)) -> ready d x -> ready d t -> N.to_nat dim < 8 ->
  is_scalar (t_shape t) = false \/ (forall u v : F, nmul K u v = nmul K v u) ->
  bin_ok (t_shape t) (t_shape x) s0 -> fits s0 ->
  exists s, reduces s0 s (N.to_nat dim) /\
  yields (t_softmax_cross_entropy m als x t dim) d s (fun c b =>
    nneg K (red (nadd K) n0 (fun j => let c' := cset c (N.to_nat dim) j in
       nmul K (opnd t c' b) (if is_scalar (t_shape x) then lsm x (N.to_nat dim) czero (bsel (t_shape x) b) else lsm x (N.to_nat dim) c' (bsel (t_shape x) b)))
      (ext s0 (N.to_nat dim)))).
Proof.
  intros HA HR HT Hd HM HB HF. unfold t_softmax_cross_entropy.
  destruct (ln_softmax_yields als dim HA HR Hd) as (y & E & Hy). rewrite E. cbn [bind].
  pose proof (is_tensor_shape Hy) as Es. pose proof (is_tensor_ready Hy) as Ry.
  destruct (@t_mul_yields d (als 3) t y s0) as (z & Ez & Hz); auto. { rewrite Es; exact HB. }
  rewrite Ez. cbn [bind]. pose proof (is_tensor_shape Hz) as Esz. pose proof (is_tensor_ready Hz) as Rz.
  unfold t_sum. rewrite (ready_device_of Rz). cbn [bind].
  destruct (@sum_yields K m d (als 4) z dim) as (s & R & (w & Ew & Hw)); auto. rewrite Esz in R. exists s. split; [exact R|].
  rewrite Ew. cbn [bind]. pose proof (is_tensor_shape Hw) as Esw.
  destruct (t_neg_yields (HA 5) (is_tensor_ready Hw)) as (v & Ev & Hv). exists v. split; [exact Ev|]. rewrite Esw in Hv.
  eapply is_tensor_ext; [exact Hv|]. intros c b Hc Hb. cbv beta. rewrite (is_tensor_at Hw Hc Hb). cbv beta. f_equal.
  rewrite Esz. apply red_ext. intros j Hj. cbv zeta.
  assert (Hcj : inb s0 (cset c (N.to_nat dim) j)).
  { intros i. destruct (Nat.eq_dec i (N.to_nat dim)) as [->|Hi]; [rewrite cset_eq; exact Hj|]. rewrite cset_neq by auto.
    rewrite <- (rd_ext R) by auto. apply Hc. }
  assert (Hb0 : b < bat s0) by (rewrite <- (rd_bat R); exact Hb).
  rewrite (is_tensor_at Hz Hcj Hb0).
  assert (EQ : opnd y (cset c (N.to_nat dim) j) b = (if is_scalar (t_shape x) then lsm x (N.to_nat dim) czero (bsel (t_shape x) b) else lsm x (N.to_nat dim) (cset c (N.to_nat dim) j) (bsel (t_shape x) b))).
  { unfold opnd. rewrite Es.
    assert (Bx : bsel (t_shape x) b < bat (t_shape x)).
    { destruct HB as (_ & HB2 & HB3). destruct HB3 as (_ & _ & HB3). pose proof (bat_pos (ready_wf HR)); pose proof (bat_pos (ready_wf HT)).
      unfold bsel. destruct (Nat.eqb_spec (bat (t_shape x)) 1); lia. }
    destruct (is_scalar (t_shape x)) eqn:Ex.
    - apply (is_tensor_at Hy); auto. intros i. rewrite (scalar_ext (ready_wf HR) Ex). unfold czero. lia.
    - apply (is_tensor_at Hy); auto. intros i. specialize (Hcj i). destruct HB as (H1 & _ & (_ & H3 & _)). rewrite H3 in Hcj.
      destruct (is_scalar (t_shape t)) eqn:Et; [exact Hcj|]. rewrite <- H1; auto. }
  destruct (is_scalar (t_shape t)) eqn:Et.
  - destruct HM as [HM|HM]; [discriminate|]. rewrite HM. f_equal. exact EQ.
  - f_equal. exact EQ.
Qed.

Lemma t_pick_yields d al (x : tensor) ids dim s : al_ok al -> ready d x -> N.to_nat dim < 8 -> (N.of_nat (length ids) < two32)%N -> ids <> [] ->
  (length ids = 1 \/ bat (t_shape x) = 1 \/ length ids = bat (t_shape x)) ->
  Forall (fun id => N.to_nat id < ext (t_shape x) (N.to_nat dim)) ids ->
  shape_is s (eset (t_shape x) (N.to_nat dim) 1) (Nat.max (bat (t_shape x)) (length ids)) -> fits s ->
  yields (t_pick m al x ids dim) d s (fun c b => at_ x (cset c (N.to_nat dim) (pid ids b)) (bsel (t_shape x) b)).
Proof. intros. unfold t_pick. rewrite (ready_device_of (d:=d)) by auto. cbn [bind]. apply pick_yields; auto. Qed.
Lemma sparse_cross_entropy_yields d als (x : tensor) ids dim s : (forall i, al_ok (als i)) -> ready d x -> N.to_nat dim < 8 ->
  (N.of_nat (length ids) < two32)%N -> ids <> [] ->
  (length ids = 1 \/ bat (t_shape x) = 1 \/ length ids = bat (t_shape x)) ->
  Forall (fun id => N.to_nat id < ext (t_shape x) (N.to_nat dim)) ids ->
  shape_is s (eset (t_shape x) (N.to_nat dim) 1) (Nat.max (bat (t_shape x)) (length ids)) -> fits s ->
  yields (t_sparse_softmax_cross_entropy m als x ids dim) d s
    (fun c b => nneg K (lsm x (N.to_nat dim) (cset c (N.to_nat dim) (pid ids b)) (bsel (t_shape x) b))).
Proof.
  intros HA HR Hd HL H0 HC HI Hs HF. unfold t_sparse_softmax_cross_entropy.
  destruct (ln_softmax_yields als dim HA HR Hd) as (y & E & Hy). rewrite E. cbn [bind].
  pose proof (is_tensor_shape Hy) as Es. pose proof (is_tensor_ready Hy) as Ry.
  destruct (@t_pick_yields d (als 3) y ids dim s) as (p & Ep & Hp); auto; try (rewrite Es; auto).
  rewrite Ep. cbn [bind]. pose proof (is_tensor_shape Hp) as Esp.
  destruct (t_neg_yields (HA 4) (is_tensor_ready Hp)) as (v & Ev & Hv). exists v. split; [exact Ev|]. rewrite Esp in Hv.
  eapply is_tensor_ext; [exact Hv|]. intros c b Hc Hb. cbv beta. rewrite (is_tensor_at Hp Hc Hb). rewrite Es. f_equal.
  assert (1 <= length ids) by (destruct ids; [contradiction|simpl; lia]). pose proof (bat_pos (ready_wf HR)).
  assert (Bb : bat s = Nat.max (bat (t_shape x)) (length ids)) by apply Hs.
  apply (is_tensor_at Hy).
  - intros i. destruct (Nat.eq_dec i (N.to_nat dim)) as [->|Hi].
    + rewrite cset_eq. unfold pid. rewrite Forall_forall in HI. apply HI. apply nth_In.
      destruct (Nat.eqb_spec (length ids) 1); lia.
    + rewrite cset_neq by auto. specialize (Hc i). destruct Hs as (_ & Hs & _). rewrite Hs in Hc. unfold eset in Hc.
      destruct (Nat.eqb_spec i (N.to_nat dim)); [contradiction|exact Hc].
  - unfold bsel. destruct (Nat.eqb_spec (bat (t_shape x)) 1); lia.
Qed.

(** ** flatten *)
Lemma flatten_flat d al (x : tensor) : al_ok al -> ready d x ->
  exists s, shape_is s (fun i => if i =? 0 then vol (t_shape x) else 1) (bat (t_shape x)) /\
    yields_flat (t_flatten m al x) d s (fun p => nth0 (buf x) p).
Proof.
  intros HA HR. pose proof (ready_wf HR) as W. pose proof (wf_vol_bound W). pose proof (wf_batch W) as Hb.
  assert (V1 : (1 <= volume (t_shape x))%N) by (pose proof (vol_pos W); pose proof (vol_volume W); lia).
  destruct (@shape_new_Ok m [volume (t_shape x)] (batch (t_shape x))) as (s & E & Ws & Bs & Is).
  - simpl; lia.
  - constructor; [exact V1|constructor].
  - exact Hb.
  - unfold prodN. simpl. lia.
  - exists s. assert (Hs : shape_is s (fun i => if i =? 0 then vol (t_shape x) else 1) (bat (t_shape x))).
    { split; [exact Ws|]. split; [|unfold bat; congruence]. intros i. unfold ext. rewrite Is.
      destruct i as [|[|i]]; [simpl; apply vol_volume; auto|reflexivity|destruct i; reflexivity]. }
    split; [exact Hs|]. unfold t_flatten. rewrite E. cbn [bind].
    assert (T : tot s = tot (t_shape x)).
    { unfold tot. destruct Hs as (_ & Es & ->). f_equal. unfold vol at 1, low. simpl. rewrite !Es. simpl. lia. }
    apply reshape_flat; auto. apply (fits_tot Ws). rewrite T. apply (fits_tot W). apply (ready_fits HR).
Qed.
End ApiComp.
