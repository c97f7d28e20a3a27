(** * PropsSoftmax: C50 softmax and cross entropy over the reals, C51 their gradients *)
From Verif Require Export PropsReal LocalDiff.
Set Implicit Arguments.
Unset Strict Implicit.
Open Scope R_scope.

(** ** Specification, on one line of n numbers *)
Definition expsum (n : nat) (u : nat -> R) : R := rsum n (fun i => exp (u i)).
Definition softmax_of (n : nat) (u : nat -> R) (j : nat) : R := exp (u j) / expsum n u.
Definition ln_softmax_of (n : nat) (u : nat -> R) (j : nat) : R := u j - ln (expsum n u).
Definition cross_entropy_of (n : nat) (u t : nat -> R) : R := - rsum n (fun j => t j * ln_softmax_of n u j).
(** the elements of x along dimension e through coordinate c of minibatch element b *)
Definition along (x : rtensor) (e : nat) (c : nat -> nat) (b : nat) : nat -> R := fun j => at_ x (cset c e j) b.

Lemma expsum_pos n u : (1 <= n)%nat -> 0 < expsum n u.
Proof. intros H. apply rsum_pos; auto. intros; apply exp_pos. Qed.
Lemma softmax_exp n u j : (1 <= n)%nat -> exp (ln_softmax_of n u j) = softmax_of n u j.
Proof. intros H. unfold ln_softmax_of, softmax_of, Rminus, Rdiv. rewrite exp_plus, exp_Ropp, exp_ln; auto. apply expsum_pos; auto. Qed.
Lemma lsm_along (x : rtensor) e c b : (1 <= ext (t_shape x) e)%nat -> lsm x e c b = ln_softmax_of (ext (t_shape x) e) (along x e c b) (c e) .
Proof.
  intros H. unfold lsm, ln_softmax_of, along. cbn [nsub Rnum]. f_equal; [rewrite cset_same; reflexivity|]. rewrite lse_R by auto. reflexivity.
Qed.
Lemma along_set (x : rtensor) e c j b : along x e (cset c e j) b = along x e c b.
Proof. unfold along. apply functional_extensionality. intros i. rewrite cset_set. reflexivity. Qed.

Section C50.
Variable m : build.
Variables (d : nat) (x : rtensor) (dim : N).
Hypothesis HR : ready d x.
Hypothesis Hd : (N.to_nat dim < 8)%nat.
Notation e := (N.to_nat dim).
Notation n := (ext (t_shape x) (N.to_nat dim)).
Lemma line_pos : (1 <= n)%nat. Proof. pose proof (@ext_pos (t_shape x) e (ready_wf HR)). lia. Qed.

Theorem C50_logsumexp : forall al, al_ok al -> exists s, shape_is s (eset (t_shape x) e 1) (bat (t_shape x)) /\
  yields (K := Rnum) (t_logsumexp m al x dim) d s (fun c b => ln (expsum n (along x e c b))).
Proof.
  intros al HA. unfold t_logsumexp. rewrite (ready_device_of HR). cbn [bind]. destruct (@logsumexp_yields Rnum m d al x dim HA HR Hd) as (s & RD & Y).
  exists s. split; [apply reduces_shape_is; auto|]. eapply yields_ext; [exact Y|]. intros c b _ _. cbv beta zeta. exact (lse_R (along x e c b) line_pos).
Qed.
Theorem C50_ln_softmax : forall als, (forall i, al_ok (als i)) ->
  yields (K := Rnum) (t_ln_softmax m als x dim) d (t_shape x) (fun c b => ln_softmax_of n (along x e c b) (c e)).
Proof.
  intros als HA. eapply yields_ext; [apply ln_softmax_yields; auto|]. intros c b _ _. apply lsm_along. apply line_pos.
Qed.
Theorem C50_softmax : forall als, (forall i, al_ok (als i)) ->
  yields (K := Rnum) (t_softmax m als x dim) d (t_shape x) (fun c b => softmax_of n (along x e c b) (c e)).
Proof.
  intros als HA. eapply yields_ext; [apply softmax_yields; auto|]. intros c b _ _. cbv beta. rewrite lsm_along by apply line_pos. apply softmax_exp. apply line_pos.
Qed.
(** softmax is a distribution along the dimension, and ln_softmax its logarithm *)
Theorem C50_softmax_is_a_distribution : forall als y, (forall i, al_ok (als i)) -> t_softmax m als x dim = Ok y ->
  forall c b, inb (t_shape x) c -> (b < bat (t_shape x))%nat ->
  (forall j, (j < n)%nat -> 0 < along y e c b j) /\ rsum n (along y e c b) = 1.
Proof.
  intros als y HA E c b Hc Hb. destruct (C50_softmax HA) as (y' & E' & HY). assert (y' = y) by congruence. subst y'.
  assert (V : forall j, (j < n)%nat -> along y e c b j = softmax_of n (along x e c b) j).
  { intros j Hj. unfold along at 1. rewrite (is_tensor_at HY); auto; [|apply inb_cset; auto]. rewrite along_set. f_equal. unfold cset. rewrite Nat.eqb_refl. reflexivity. }
  pose proof (expsum_pos (along x e c b) line_pos) as P. split.
  - intros j Hj. rewrite V by auto. apply Rdiv_lt_0_compat; [apply exp_pos|exact P].
  - rewrite (rsum_ext V). unfold softmax_of, Rdiv. rewrite rsum_scal_r. fold (expsum n (along x e c b)). apply Rinv_r. lra.
Qed.
Theorem C50_ln_softmax_is_its_logarithm : forall als als' y z, (forall i, al_ok (als i)) -> (forall i, al_ok (als' i)) -> t_softmax m als x dim = Ok y -> t_ln_softmax m als' x dim = Ok z ->
  forall c b, inb (t_shape x) c -> (b < bat (t_shape x))%nat -> (at_ z c b : R) = ln (at_ y c b).
Proof.
  intros als als' y z HA HA' E1 E2 c b Hc Hb. destruct (C50_softmax HA) as (y' & Ey & HY). destruct (C50_ln_softmax HA') as (z' & Ez & HZ).
  assert (y' = y) by congruence. assert (z' = z) by congruence. subst. rewrite (is_tensor_at HY), (is_tensor_at HZ) by auto. rewrite <- softmax_exp by apply line_pos. rewrite ln_exp. reflexivity.
Qed.
(** the target may have the batch of x, or one of the two has batch 1 *)
Theorem C50_softmax_cross_entropy : forall als t s0, (forall i, al_ok (als i)) -> ready d t -> batchable (t_shape x) (t_shape t) s0 -> fits s0 ->
  exists s, shape_is s (eset s0 e 1) (bat s0) /\
  yields (K := Rnum) (t_softmax_cross_entropy m als x t dim) d s (fun c b =>
    cross_entropy_of n (along x e c (bsel (t_shape x) b)) (along t e c (bsel (t_shape t) b))).
Proof.
  intros als t s0 HA Ht (B1 & B2 & (B3 & B4 & B5)) HF.
  assert (HB : bin_ok (t_shape t) (t_shape x) s0).
  { split; [intros _ _ i; auto|]. split; [lia|]. split; auto. split; [|rewrite Nat.max_comm; auto]. intros i. rewrite B4. destruct (is_scalar (t_shape t)); auto. }
  destruct (@softmax_cross_entropy_yields Rnum m d als x t dim s0) as (s & RD & Y); auto; [right; apply Rnum_commutes|].
  apply reduces_shape_is in RD. exists s. split; [exact RD|]. destruct RD as (C1 & C2 & C3). eapply yields_ext; [exact Y|]. intros c b Hc Hb. cbv beta.
  assert (EE : ext s0 e = n) by auto. rewrite EE. unfold cross_entropy_of. cbn [nneg Rnum]. f_equal. rewrite rsum_red0. apply rsum_ext. intros j Hj. cbv zeta.
  assert (HI : inb (t_shape x) (cset c e j)).
  { intros i. specialize (Hc i). rewrite C2 in Hc. unfold eset in Hc. unfold cset. rewrite <- B4. destruct (Nat.eqb_spec i e); subst; [rewrite EE; auto|auto]. }
  assert (HI' : inb (t_shape t) (cset c e j)) by (intros i; rewrite <- B1; apply HI).
  rewrite (opnd_in _ Ht HI'). cbn [nmul Rnum]. f_equal.
  assert (EL : lsm x e (cset c e j) (bsel (t_shape x) b) = ln_softmax_of n (along x e c (bsel (t_shape x) b)) j).
  { rewrite lsm_along by apply line_pos. rewrite along_set. f_equal. unfold cset. rewrite Nat.eqb_refl. reflexivity. }
  destruct (is_scalar (t_shape x)) eqn:SX; [|exact EL]. rewrite <- EL. f_equal. apply functional_extensionality. intros i.
  specialize (HI i). rewrite (scalar_ext (ready_wf HR) SX) in HI. unfold czero. lia.
Qed.
Theorem C50_sparse_softmax_cross_entropy : forall als ids s, (forall i, al_ok (als i)) -> (N.of_nat (length ids) < two32)%N -> ids <> [] ->
  (length ids = 1 \/ bat (t_shape x) = 1 \/ length ids = bat (t_shape x))%nat -> Forall (fun id => (N.to_nat id < n)%nat) ids ->
  shape_is s (eset (t_shape x) e 1) (Nat.max (bat (t_shape x)) (length ids)) -> fits s ->
  yields (K := Rnum) (t_sparse_softmax_cross_entropy m als x ids dim) d s (fun c b =>
    - ln_softmax_of n (along x e c (bsel (t_shape x) b)) (N.to_nat (nth (if (length ids =? 1)%nat then 0 else b) ids 0%N))).
Proof.
  intros als ids s HA H1 H2 H3 H4 H5 HF. eapply yields_ext; [apply sparse_cross_entropy_yields; eauto|]. intros c b Hc Hb. cbv beta. cbn [nneg Rnum]. f_equal.
  rewrite lsm_along by apply line_pos. rewrite along_set. f_equal. unfold cset. rewrite Nat.eqb_refl. reflexivity.
Qed.
End C50.

(** ** C51: what the backward pass of the cross entropies adds, and what the derivative is *)
(** the derivative of f at u in direction v *)
Definition along_dir (f : (nat -> R) -> R) (u v : nat -> R) (l : R) : Prop := derivable_pt_lim (fun h => f (fun j => u j + h * v j)) 0 l.

Section Line.
Variable n : nat.
Hypothesis Hn : (1 <= n)%nat.
Lemma dir_lse u v : along_dir (fun u => ln (expsum n u)) u v (rsum n (fun j => softmax_of n u j * v j)).
Proof.
  unfold along_dir. assert (H := @deriv_lse n (fun j h => u j + h * v j) v Hn). cbv beta in H.
  eapply deriv_val; [eapply deriv_ext; [|apply H]|].
  - intros h. cbv beta. rewrite lse_R by auto. reflexivity.
  - intros j Hj. eapply deriv_val; [apply (@deriv_add (fun _ => u j) (fun h => h * v j)); [apply deriv_const|apply (@deriv_mul (fun h => h) (fun _ => v j)); [apply deriv_id|apply deriv_const]]|]. ring.
  - apply rsum_ext. intros j Hj. f_equal. rewrite lse_R by auto. rewrite (rsum_ext (g := fun j => exp (u j))) by (intros; f_equal; ring).
    rewrite <- softmax_exp by auto. f_equal. unfold ln_softmax_of, expsum. f_equal; ring.
Qed.
Lemma dir_ln_softmax u v i : along_dir (fun u => ln_softmax_of n u i) u v (v i - rsum n (fun j => softmax_of n u j * v j)).
Proof.
  unfold along_dir. apply (@deriv_sub (fun h => u i + h * v i) (fun h => ln (expsum n (fun j => u j + h * v j)))); [|apply dir_lse].
  eapply deriv_val; [apply (@deriv_add (fun _ => u i) (fun h => h * v i)); [apply deriv_const|apply (@deriv_mul (fun h => h) (fun _ => v i)); [apply deriv_id|apply deriv_const]]|]. ring.
Qed.
(** the derivative of the loss: softmax weighted by the sum of the targets, minus the targets *)
Theorem C51_loss_derivative : forall u t v, along_dir (fun u => cross_entropy_of n u t) u v (rsum n (fun j => (rsum n t * softmax_of n u j - t j) * v j)).
Proof.
  intros u t v. unfold along_dir, cross_entropy_of. set (S := rsum n (fun j => softmax_of n u j * v j)).
  eapply deriv_val; [apply (@deriv_opp (fun h => rsum n (fun j => t j * ln_softmax_of n (fun j => u j + h * v j) j))); apply (@deriv_rsum n (fun j h => t j * ln_softmax_of n (fun j => u j + h * v j) j) (fun j => t j * (v j - S)))|].
  - intros j Hj. eapply deriv_val; [apply (@deriv_mul (fun _ => t j) (fun h => ln_softmax_of n (fun j => u j + h * v j) j)); [apply deriv_const|apply (dir_ln_softmax u v j)]|]. fold S. ring.
  - rewrite (rsum_ext (n := n) (f := fun j => t j * (v j - S)) (g := fun j => t j * v j + t j * - S)) by (intros; ring).
    rewrite (rsum_ext (n := n) (f := fun j => (rsum n t * softmax_of n u j - t j) * v j) (g := fun j => rsum n t * (softmax_of n u j * v j) + - (t j * v j))) by (intros; ring).
    rewrite !rsum_plus, rsum_scal_r, rsum_scal, rsum_opp. fold S. ring.
Qed.
Lemma deriv_unique f x a b : derivable_pt_lim f x a -> derivable_pt_lim f x b -> a = b.
Proof. intros. eapply uniqueness_limite; eauto. Qed.
(** what the code adds to the gradient of the logits, g * (softmax - t), is the derivative of g * loss in
    every direction exactly when the targets sum to 1 (or nothing flows back) *)
Theorem C51_correct_iff_targets_sum_to_one : forall u t g,
  (forall v, along_dir (fun u => g * cross_entropy_of n u t) u v (rsum n (fun j => g * (softmax_of n u j - t j) * v j))) <-> g = 0 \/ rsum n t = 1.
Proof.
  intros u t g.
  assert (G : forall v, along_dir (fun u => g * cross_entropy_of n u t) u v (g * rsum n (fun j => (rsum n t * softmax_of n u j - t j) * v j))).
  { intros v. unfold along_dir. eapply deriv_val; [apply (@deriv_mul (fun _ => g) (fun h => cross_entropy_of n (fun j => u j + h * v j) t)); [apply deriv_const|apply (C51_loss_derivative u t v)]|]. ring. }
  split.
  - intros H. pose proof (deriv_unique (H (fun _ => 1)) (G (fun _ => 1))) as E. cbv beta in E. destruct (Req_dec g 0) as [|NZ]; [left; auto|right].
    assert (SS : rsum n (softmax_of n u) = 1). { unfold softmax_of, Rdiv. rewrite rsum_scal_r. fold (expsum n u). apply Rinv_r. pose proof (expsum_pos u Hn). lra. }
    rewrite (rsum_ext (n := n) (f := fun j => g * (softmax_of n u j - t j) * 1) (g := fun j => g * softmax_of n u j + - (g * t j))) in E by (intros; ring).
    rewrite (rsum_ext (n := n) (f := fun j => (rsum n t * softmax_of n u j - t j) * 1) (g := fun j => rsum n t * softmax_of n u j + - t j)) in E by (intros; ring).
    rewrite !rsum_plus, !rsum_opp, !rsum_scal, SS in E. apply (Rmult_eq_reg_l g); [|auto]. lra.
  - intros H v. pose proof (G v) as Hv. unfold along_dir in * . eapply deriv_val; [exact Hv|]. rewrite <- rsum_scal. apply rsum_ext. intros j Hj. destruct H as [->|E]; [ring|]. rewrite E. ring.
Qed.
(** the gradient of the target, - g * ln_softmax, is always right *)
Theorem C51_target_gradient : forall u t g v, along_dir (fun t => g * cross_entropy_of n u t) t v (rsum n (fun j => - (ln_softmax_of n u j * g) * v j)).
Proof.
  intros u t g v. unfold along_dir, cross_entropy_of.
  eapply deriv_val; [apply (@deriv_mul (fun _ => g) (fun h => - rsum n (fun j => (t j + h * v j) * ln_softmax_of n u j))); [apply deriv_const|]|].
  - apply (@deriv_opp (fun h => rsum n (fun j => (t j + h * v j) * ln_softmax_of n u j))). apply (@deriv_rsum n (fun j h => (t j + h * v j) * ln_softmax_of n u j) (fun j => v j * ln_softmax_of n u j)).
    intros j Hj. eapply deriv_val; [apply (@deriv_mul (fun h => t j + h * v j) (fun _ => ln_softmax_of n u j)); [apply (@deriv_add (fun _ => t j) (fun h => h * v j)); [apply deriv_const|apply (@deriv_mul (fun h => h) (fun _ => v j)); [apply deriv_id|apply deriv_const]]|apply deriv_const]|]. cbv beta. ring.
  - rewrite (rsum_ext (n := n) (f := fun j => - (ln_softmax_of n u j * g) * v j) (g := fun j => - g * (v j * ln_softmax_of n u j))) by (intros; ring). rewrite rsum_scal. ring.
Qed.
(** the sparse loss: its gradient g * (softmax - [j = id]) is always right *)
Theorem C51_sparse_gradient : forall u i g v, (i < n)%nat ->
  along_dir (fun u => g * - ln_softmax_of n u i) u v (rsum n (fun j => g * (softmax_of n u j - (if (i =? j)%nat then 1 else 0)) * v j)).
Proof.
  intros u i g v Hi. unfold along_dir. set (S := rsum n (fun j => softmax_of n u j * v j)).
  eapply deriv_val; [apply (@deriv_mul (fun _ => g) (fun h => - ln_softmax_of n (fun j => u j + h * v j) i)); [apply deriv_const|apply (@deriv_opp (fun h => ln_softmax_of n (fun j => u j + h * v j) i)); apply (dir_ln_softmax u v i)]|].
  fold S. rewrite (rsum_ext (n := n) (f := fun j => g * (softmax_of n u j - _) * v j) (g := fun j => g * (softmax_of n u j * v j) + - (if (i =? j)%nat then g * v j else 0))) by (intros j Hj; destruct (i =? j)%nat; ring).
  rewrite rsum_plus, rsum_opp, rsum_scal, (rsum_delta (fun j => g * v j)) by auto. fold S. ring.
Qed.
End Line.

(** *** the code: what the operators' backward functions add *)
Section Bw.
Variables (m : build) (d : nat) (bal : nat -> alloc_oracle Rnum) (x : rtensor) (dim : N).
Hypothesis HA : forall i, al_ok (bal i).
Hypothesis HR : ready d x.
Hypothesis Hd : (N.to_nat dim < 8)%nat.
Notation e := (N.to_nat dim).
Notation n := (ext (t_shape x) (N.to_nat dim)).
(** minibatch element b of the result reads element q of a tensor that is shared by the whole batch or not *)
Definition reads (s : shape) (b q : nat) : bool := (bsel s b =? q)%nat.

Lemma does_plus f s B (h : coord' -> nat -> R) gx : does (K := Rnum) d f s B (fun c b => Plus (K := Rnum) (h c b)) -> ready d gx -> t_shape gx = s ->
  writes (K := Rnum) (f gx) gx (fun c q => (at_ gx c q : R) + rsum B (fun b => if reads s b q then h c b else 0)).
Proof. intros H Hg Es. eapply writes_ext; [apply H; auto|]. intros c q Hc Hq. cbv beta. unfold apply_c. cbn [nadd Rnum]. apply acc_rsum. Qed.

Theorem C51_backward_adds : forall t y gy s0, ready d t -> ready d y -> ready d gy -> t_shape gy = t_shape y ->
  batchable (t_shape x) (t_shape t) s0 -> fits s0 -> shape_is (t_shape y) (eset s0 e 1) (bat s0) ->
  exists fx ft, backward_op m d bal (KSoftmaxCrossEntropy dim) [x; t] [y] [gy] = Ok [(Arg 0, fx); (Arg 1, ft)] /\
    (forall gx, ready d gx -> t_shape gx = t_shape x -> writes (K := Rnum) (fx gx) gx (fun c q => at_ gx c q +
       rsum (bat s0) (fun b => if reads (t_shape x) b q then at_ gy (cset c e 0) b * (softmax_of n (along x e c q) (c e) - at_ t c (bsel (t_shape t) b)) else 0))) /\
    (forall gt, ready d gt -> t_shape gt = t_shape t -> writes (K := Rnum) (ft gt) gt (fun c q => at_ gt c q +
       rsum (bat s0) (fun b => if reads (t_shape t) b q then - (ln_softmax_of n (along x e c (bsel (t_shape x) b)) (c e) * at_ gy (cset c e 0) b) else 0))).
Proof.
  intros t y gy s0 Ht Hy Hg Eg HB HF HS.
  destruct (@backward_sem Rnum m d bal HA Rnum_commutes (KSoftmaxCrossEntropy dim) [x; t] [y] [gy]) as (us & E & HU).
  - exists (t_shape x), (t_shape t), (t_shape y). split; [reflexivity|]. split; [reflexivity|]. split; [auto|]. split; [right; apply Rnum_commutes|]. exists s0. auto.
  - exact I.
  - exact I.
  - auto.
  - auto.
  - auto.
  - cbn [map]. rewrite Eg. reflexivity.
  - cbn [bwsem] in HU. Opaque lsm. inversion HU as [|[t0 fx] ? us1 ? (T1 & D1) HU1]; subst. inversion HU1 as [|[t1 ft] ? us2 ? (T2 & D2) HU2]; subst. inversion HU2; subst.
    cbn in T1, T2. cbn in D1, D2. Transparent lsm. subst t0 t1. exists fx, ft. split; [exact E|]. assert (BB : bat (t_shape y) = bat s0) by (destruct HS as (_ & _ & ->); auto). rewrite <- BB. split.
    + intros gx Hgx Es. eapply writes_ext; [apply (does_plus D1 Hgx Es)|]. intros c q Hc Hq. cbv beta. f_equal. apply rsum_ext. intros b Hb. unfold reads. destruct (Nat.eqb_spec (bsel (t_shape x) b) q) as [Q|]; [|reflexivity].
      rewrite Q, lsm_along, softmax_exp by (pose proof (@ext_pos (t_shape x) e (ready_wf HR)); lia). rewrite Rmult_comm. reflexivity.
    + intros gt Hgt Es. eapply writes_ext; [apply (@does_plus ft (t_shape t) (bat (t_shape y)) (fun c b => - (lsm x e c (bsel (t_shape x) b) * at_ gy (cset c e 0) b)) gt); auto|].
      * intros c q Hc Hq. cbv beta. f_equal. apply rsum_ext. intros b Hb. destruct (reads _ _ _); [|reflexivity]. rewrite lsm_along by (pose proof (@ext_pos (t_shape x) e (ready_wf HR)); lia). reflexivity.
Qed.

(** the sparse operator makes two updates of the gradient of the logits, one after the other *)
Theorem C51_sparse_backward_adds : forall ids y gy, ready d y -> ready d gy -> t_shape gy = t_shape y ->
  (N.of_nat (length ids) < two32)%N -> ids <> [] -> (length ids = 1 \/ bat (t_shape x) = 1 \/ length ids = bat (t_shape x))%nat -> Forall (fun id => (N.to_nat id < n)%nat) ids ->
  shape_is (t_shape y) (eset (t_shape x) e 1) (Nat.max (bat (t_shape x)) (length ids)) -> (N.of_nat (bat (t_shape y) * vol (t_shape x)) <= 2147483648)%N ->
  exists f1 f2, backward_op m d bal (KSparseSoftmaxCrossEntropy ids dim) [x] [y] [gy] = Ok [(Arg 0, f1); (Arg 0, f2)] /\
    forall gx, ready d gx -> t_shape gx = t_shape x -> writes (K := Rnum) (g <- f1 gx ;; f2 g) gx (fun c q => at_ gx c q +
       rsum (bat (t_shape y)) (fun b => if reads (t_shape x) b q then
          at_ gy (cset c e 0) b * (softmax_of n (along x e c q) (c e) - (if (N.to_nat (nth (if (length ids =? 1)%nat then 0 else b) ids 0%N) =? c e)%nat then 1 else 0)) else 0)).
Proof.
  intros ids y gy Hy Hg Eg H1 H2 H3 H4 H5 H6.
  destruct (@backward_sem Rnum m d bal HA Rnum_commutes (KSparseSoftmaxCrossEntropy ids dim) [x] [y] [gy]) as (us & E & HU).
  - exists (t_shape x), (t_shape y). ssplit; auto.
  - exact I.
  - intros x0 y0 Ex Ey. inversion Ex; inversion Ey; subst. exact H6.
  - auto.
  - auto.
  - auto.
  - cbn [map]. rewrite Eg. reflexivity.
  - cbn [bwsem] in HU. Opaque lsm. inversion HU as [|[t0 f1] ? us1 ? (T1 & D1) HU1]; subst. inversion HU1 as [|[t1 f2] ? us2 ? (T2 & D2) HU2]; subst. inversion HU2; subst.
    cbn in T1, T2. cbn in D1, D2. Transparent lsm. subst t0 t1. exists f1, f2. split; [exact E|]. intros gx Hgx Es.
    destruct (does_plus D1 Hgx Es) as (l1 & E1 & L1 & O1 & V1). rewrite E1. cbn [bind].
    assert (R1 : ready d (with_buf gx l1)) by (apply ready_with; auto).
    assert (D2' : does (K := Rnum) d f2 (t_shape x) (bat (t_shape y)) (fun c b => Plus (K := Rnum) (if (pid ids b =? c e)%nat then - at_ gy (cset c e 0) b else 0))).
    { intros g Hg' Eg'. eapply writes_ext; [apply D2; auto|]. intros c q _ _. cbv beta. apply acc_ext. intros b v Hb. unfold apply_c. destruct (pid ids b =? c e)%nat; [reflexivity|]. cbn [nadd Rnum]. change (F Rnum) with R in * . ring. }
    destruct (does_plus D2' R1) as (l2 & E2 & L2 & O2 & V2); [exact Es|]. exists l2. cbn [with_buf t_shape buf t_buf] in * . split; [rewrite E2; reflexivity|]. split; [congruence|].
    split; [intros p Hp; rewrite O2, O1; auto|]. intros c q Hc Hq. rewrite V2 by auto. unfold at_ at 1. cbn [t_shape t_buf buf]. fold (nth0 l1 (pos (t_shape gx) c q)). rewrite V1 by auto.
    rewrite Rplus_assoc. f_equal. rewrite <- rsum_plus. apply rsum_ext. intros b Hb. unfold reads. destruct (Nat.eqb_spec (bsel (t_shape x) b) q) as [Q|]; [|ring].
    rewrite Q, lsm_along, softmax_exp by (pose proof (@ext_pos (t_shape x) e (ready_wf HR)); lia). unfold pid. destruct (_ =? c e)%nat; ring.
Qed.
End Bw.

(** *** false in general *)
Theorem C51_unnormalised_target_refuted : exists (u t v : nat -> R), ~ along_dir (fun u => 1 * cross_entropy_of 2 u t) u v (rsum 2 (fun j => 1 * (softmax_of 2 u j - t j) * v j)) /\
  along_dir (fun u => cross_entropy_of 2 u t) u v 0.
Proof.
  exists (fun _ => 0), (fun j => if (j =? 0)%nat then 2 else 0), (fun _ => 1).
  assert (S : forall j, softmax_of 2 (fun _ => 0) j = / 2). { intros j. unfold softmax_of, expsum. cbn [rsum]. rewrite exp_0. field. }
  split.
  - intros H. assert (G := @C51_loss_derivative 2 ltac:(lia) (fun _ => 0) (fun j => if (j =? 0)%nat then 2 else 0) (fun _ => 1)). unfold along_dir in * .
    assert (G' := @deriv_mul (fun _ => 1) _ 0 0 _ (deriv_const 1 0) G). pose proof (uniqueness_limite _ _ _ _ H G') as E. cbn [rsum Nat.eqb] in E. rewrite !S in E. lra.
  - assert (G := @C51_loss_derivative 2 ltac:(lia) (fun _ => 0) (fun j => if (j =? 0)%nat then 2 else 0) (fun _ => 1)). unfold along_dir in * . eapply deriv_val; [exact G|]. cbn [rsum Nat.eqb]. rewrite !S. lra.
Qed.

(** a concrete case: logits [0; 0], target [1; 0] *)
Example C50_C51_apply : let x := tr 0 [2%N] 1 [0; 0] in let t := tr 0 [2%N] 1 [1; 0] in let y := tr 0 [] 1 [ln 2] in let gy := tr 0 [] 1 [3] in
  (exists p, t_softmax Debug (fun _ => alr) x 0 = Ok p /\ at_ p (c2 0 0) 0 = / 2) /\
  (exists l, t_softmax_cross_entropy Debug (fun _ => alr) x t 0 = Ok l /\ at_ l (c2 0 0) 0 = ln 2) /\
  exists fx ft gx, backward_op Debug 0 (fun _ => alr) (KSoftmaxCrossEntropy 0) [x; t] [y] [gy] = Ok [(Arg 0, fx); (Arg 1, ft)] /\
    fx (tr 0 [2%N] 1 [10; 20]) = Ok gx /\ at_ gx (c2 0 0) 0 = 10 + 3 * (/ 2 - 1).
Proof.
  intros x t y gy. assert (HA : forall i : nat, al_ok ((fun _ => alr) i)) by (intros; apply alr_ok).
  assert (RX : ready 0 x) by rdyr. assert (RT : ready 0 t) by rdyr. assert (RY : ready 0 y) by rdyr. assert (RG : ready 0 gy) by rdyr. assert (RZ : ready 0 (tr 0 [2%N] 1 [10; 20])) by rdyr.
  assert (I : forall s, s = sh [2%N] 1 -> inb s (c2 0 0)). { intros s -> i. destruct i as [|[|i]]; [cbv; lia|cbv; lia|]. cbn [c2]. apply (@ext_pos (sh [2%N] 1) (S (S i)) (ready_wf RX)). }
  assert (E2 : ext (t_shape x) 0 = 2%nat) by reflexivity.
  assert (B : batchable (t_shape x) (t_shape t) (sh [2%N] 1)).
  { split; [reflexivity|]. split; [left; reflexivity|]. destruct (ready_wf RX). split; [apply (ready_wf RX)|]. split; [reflexivity|reflexivity]. }
  assert (FS : fits (sh [2%N] 1)) by (apply (sh_fits [2%N] (b := 1%N)); reflexivity).
  assert (D0 : (N.to_nat 0 < 8)%nat) by (cbv; lia).
  assert (XS : expsum 2 (along x 0 (c2 0 0) 0) = 2). { unfold expsum, along. cbn [rsum]. change (at_ x (cset (c2 0 0) 0 0) 0) with 0. change (at_ x (cset (c2 0 0) 0 1) 0) with 0. rewrite exp_0. lra. }
  assert (SM : softmax_of 2 (along x 0 (c2 0 0) 0) 0 = / 2). { unfold softmax_of. rewrite XS. change (along x 0 (c2 0 0) 0 0) with 0. rewrite exp_0. lra. }
  split; [|split].
  - destruct (@C50_softmax Debug 0 x 0%N RX D0 (fun _ => alr) HA) as (p & E & HT). exists p. split; [exact E|]. rewrite (is_tensor_at HT); [|apply I; reflexivity|cbv; lia].
    change (N.to_nat 0) with 0%nat. rewrite E2. exact SM.
  - destruct (@C50_softmax_cross_entropy Debug 0 x 0%N RX D0 (fun _ => alr) t _ HA RT B FS) as (s & (W & S1 & S2) & (l & E & HT)). exists l. split; [exact E|].
    rewrite (is_tensor_at HT); [| |rewrite S2; cbv; lia].
    + change (N.to_nat 0) with 0%nat. rewrite E2. unfold cross_entropy_of, ln_softmax_of. cbn [rsum]. change (bsel (t_shape x) 0) with 0%nat. rewrite XS.
      change (along t 0 (c2 0 0) (bsel (t_shape t) 0) 0) with 1. change (along t 0 (c2 0 0) (bsel (t_shape t) 0) 1) with 0. change (along x 0 (c2 0 0) 0 0) with 0. match goal with |- ?a = ?b => change (@eq R a b) end. ring.
    + intros i. rewrite S1. unfold eset. pose proof (@ext_pos (sh [2%N] 1) i (ready_wf RX)) as P. destruct (Nat.eqb_spec i (N.to_nat 0)); [subst; cbv; lia|]. destruct i as [|[|i]]; cbn [c2]; lia.
  - destruct (@C51_backward_adds Debug 0 (fun _ => alr) x 0%N HA RX D0 t y gy (sh [2%N] 1) RT RY RG eq_refl B FS) as (fx & ft & E & H1 & H2).
    { split; [apply (ready_wf RY)|]. split; [|reflexivity]. intros i. unfold eset. destruct i as [|[|[|[|[|[|[|[|i]]]]]]]]; try reflexivity. }
    destruct (writes_yields RZ (H1 _ RZ eq_refl)) as (gx & Eg & Hg). exists fx, ft, gx. split; [exact E|]. split; [exact Eg|].
    rewrite (is_tensor_at Hg); [|apply I; reflexivity|cbv; lia]. change (bat (sh [2%N] 1)) with 1%nat. cbn [rsum]. change (reads (t_shape x) 0 0) with true. cbv iota. change (N.to_nat 0) with 0%nat. rewrite E2.
    change (c2 0 0 0) with 0%nat. rewrite SM. change (bsel (t_shape t) 0) with 0%nat. change (at_ t (c2 0 0) 0) with 1. change (at_ gy (cset (c2 0 0) 0 0) 0) with 3. change (at_ (tr 0 [2%N] 1 [10; 20]) (c2 0 0) 0) with 10. lra.
Qed.
