(** * AutoDiff: every operator's gradient rule is the adjoint of its derivative (for C38) *)
From Verif Require Export RSum PropsReal.
From Coq Require Import FunctionalExtensionality.
Set Implicit Arguments.
Unset Strict Implicit.
Open Scope R_scope.
Notation rtensor := (tensor Rnum).
Notation rkind := (kind Rnum).
Notation D f l := (derivable_pt_lim f 0 l).

Definition cval (w : contrib Rnum) : R := match w with Plus g => g | Minus g => - (g : R) | Nothing _ => 0 end.
Fixpoint lsum A (f : A -> R) (l : list A) : R := match l with [] => 0 | a :: l' => f a + lsum f l' end.
Lemma lsum_ext A (f g : A -> R) l : (forall a, In a l -> f a = g a) -> lsum f l = lsum g l.
Proof. induction l as [|a l IH]; intros H; cbn; [auto|]. rewrite H, IH by (cbn; auto; intros; apply H; cbn; auto). auto. Qed.
Lemma lsum_map A B (h : B -> A) (f : A -> R) l : lsum f (map h l) = lsum (fun b => f (h b)) l.
Proof. induction l as [|a l IH]; cbn; auto. rewrite IH. auto. Qed.
Lemma lsum_seq (f : nat -> R) n : lsum f (seq 0 n) = rsum n f.
Proof.
  assert (G : forall k, lsum f (seq k n) = rsum n (fun i => f (k + i)%nat)).
  { induction n as [|n IH]; intros k; [reflexivity|]. change (S n) with (1 + n)%nat at 2. rewrite rsum_app, rsum_1. cbn [seq lsum]. rewrite IH, Nat.add_0_r. f_equal. apply rsum_ext. intros. f_equal. lia. }
  apply (G 0%nat).
Qed.

(** ** Derivatives of sums *)
Lemma deriv_rsum n (f : nat -> R -> R) df x : (forall j, (j < n)%nat -> derivable_pt_lim (f j) x (df j)) -> derivable_pt_lim (fun t => rsum n (fun j => f j t)) x (rsum n df).
Proof. induction n as [|n IH]; intros H; cbn [rsum]; [apply deriv_const|]. apply (@deriv_add (fun t => rsum n (fun j => f j t)) (f n)); [apply IH; intros; apply H; lia|apply H; lia]. Qed.
Lemma deriv_cont f x l : derivable_pt_lim f x l -> continuity_pt f x.
Proof. intros H. apply derivable_continuous_pt. exists l. exact H. Qed.
(** a strict inequality at a point holds around it *)
Lemma lt_near f g x lf lg : derivable_pt_lim f x lf -> derivable_pt_lim g x lg -> f x < g x -> exists r, 0 < r /\ forall t, Rabs (t - x) < r -> f t < g t.
Proof.
  intros HF HG L. assert (HD : derivable_pt_lim (fun t => g t - f t) x (lg - lf)) by (apply deriv_sub; auto).
  apply deriv_cont in HD. unfold continuity_pt, continue_in, limit1_in, limit_in in HD. destruct (HD (g x - f x)) as (r & R0 & HR); [lra|].
  exists r. split; [exact R0|]. intros t Ht. destruct (Req_dec t x) as [->|NE]; [auto|]. specialize (HR t). cbn in HR. unfold R_dist, D_x, no_cond in HR.
  specialize (HR (conj (conj I (fun E => NE (eq_sym E))) Ht)). apply Rabs_def2 in HR. lra.
Qed.
Lemma lt_near_all n (f : nat -> R -> R) df g x lg : derivable_pt_lim g x lg -> forall k, (forall j, (j < n)%nat -> j <> k -> derivable_pt_lim (f j) x (df j) /\ f j x < g x) ->
  exists r, 0 < r /\ forall t, Rabs (t - x) < r -> forall j, (j < n)%nat -> j <> k -> f j t < g t.
Proof.
  intros HG k H. induction n as [|n IH]; [exists 1; split; [lra|]; intros; lia|]. destruct IH as (r1 & R1 & H1); [intros; apply H; auto|].
  destruct (Nat.eq_dec n k) as [->|NE].
  - exists r1. split; auto. intros t Ht j Hj Hk. apply H1; auto. lia.
  - destruct (H n) as (HF & L); auto. destruct (lt_near HF HG L) as (r2 & R2 & H2). exists (Rmin r1 r2). split; [apply Rmin_pos; auto|].
    intros t Ht j Hj Hk. assert (Rabs (t - x) < r1 /\ Rabs (t - x) < r2) as (B1 & B2). { pose proof (Rmin_l r1 r2). pose proof (Rmin_r r1 r2). lra. }
    destruct (Nat.eq_dec j n) as [->|]; auto. apply H1; auto. lia.
Qed.

(** ** Real logsumexp *)
Lemma lse_step_R (u v : R) : lse_step Rnum u v = ln (exp u + exp v).
Proof.
  assert (G : forall a b, a + ln (1 + exp (b - a)) = ln (exp a + exp b)).
  { intros a b. pose proof (exp_pos a). pose proof (exp_pos b). pose proof (exp_pos (b - a)). rewrite <- (ln_exp a) at 1. rewrite <- ln_mult by lra. f_equal. rewrite Rmult_plus_distr_l, Rmult_1_r, <- exp_plus. do 2 f_equal. lra. }
  unfold lse_step. cbn. destruct (Rltb_spec v u); [apply G|]. rewrite G. f_equal. ring.
Qed.
Lemma lse_R (f : nat -> R) n : (1 <= n)%nat -> lse Rnum f n = ln (rsum n (fun j => exp (f j))).
Proof.
  intros H. destruct n as [|n]; [lia|]. clear H. unfold lse. cbn [narrow widen Rnum]. replace (S n - 1)%nat with n by lia. induction n as [|n IH].
  - cbn. rewrite Rplus_0_l, ln_exp. auto.
  - cbn [red] in *. unfold red in *. rewrite seq_S, fold_left_app. cbn [fold_left Nat.add]. etransitivity; [apply lse_step_R|]. cbn [rsum]. f_equal. f_equal.
    change (F Rnum) with R in *. etransitivity; [apply f_equal; exact IH|]. rewrite exp_ln; [reflexivity|]. apply rsum_pos; [lia|]. intros; apply exp_pos.
Qed.
Lemma deriv_lse n (f : nat -> R -> R) df : (1 <= n)%nat -> (forall j, (j < n)%nat -> D (f j) (df j)) ->
  D (fun t => lse Rnum (fun j => f j t) n) (rsum n (fun j => exp (f j 0 - lse Rnum (fun j => f j 0) n) * df j)).
Proof.
  intros Hn H. set (S := fun t => rsum n (fun j => exp (f j t))). assert (SP : forall t, 0 < S t) by (intros; apply rsum_pos; auto; intros; apply exp_pos).
  apply (@deriv_ext (fun t => ln (S t))); [intros; symmetry; apply lse_R; auto|]. eapply deriv_val.
  - apply (@deriv_comp S ln 0 (rsum n (fun j => exp (f j 0) * df j))); [|apply derivable_pt_lim_ln; apply SP].
    apply (@deriv_rsum n (fun j t => exp (f j t)) (fun j => exp (f j 0) * df j)). intros j Hj. apply (@deriv_comp (f j) exp); [auto|apply derivable_pt_lim_exp].
  - rewrite <- rsum_scal. apply rsum_ext. intros j Hj. rewrite (lse_R (fun j => f j 0)) by auto. change (rsum n (fun j => exp (f j 0))) with (S 0). unfold Rminus. rewrite exp_plus, exp_Ropp, exp_ln by auto. ring.
Qed.

(** ** Elementwise operators *)
(** where the function of the operator has a derivative *)
Definition udom (k : rkind) (x : R) : Prop :=
  match k with
  | KDivConstL _ => x <> 0 | KDivConstR a => (a : R) <> 0
  | KPowConstL a => 0 < (a : R) | KPowConstR _ => 0 < x | KPowi n => x <> 0 \/ (1 <= n)%Z
  | KAbs | KELU _ | KPReLU _ => x <> 0
  | KSqrt | KLn => 0 < x | KTan => cos x <> 0
  | _ => True
  end.
Definition bdom (k : rkind) (a b : R) : Prop :=
  match k with
  | KDiv | KDivScalarR => b <> 0 | KPow | KPowScalarR => 0 < a
  | KDivScalarL => a <> 0 | KPowScalarL => 0 < b
  | _ => True
  end.
Lemma u_deriv (k : rkind) f h x : uop k = Some f -> ubw k = Some h -> udom k x ->
  exists l : R, derivable_pt_lim f x l /\ forall gy : R, @eq R (h x (f x) gy) (gy * l).
Proof.
  intros EF EH DM. destruct k; cbn [uop ubw udom] in * ; try discriminate; inversion EF; inversion EH; subst; clear EF EH; cbn [nadd nsub nmul ndiv nneg nabs nsqrt nexp nln ntanh nsin ncos ntan npowf npowi nlt nle nofZ n0 n1 nhalf Rnum];
    change (F Rnum) with R in * .
  - exists 1. split; [|intros; ring]. eapply deriv_val; [apply (@deriv_add (fun t => t) (fun _ => k)); [apply deriv_id|apply deriv_const]|ring].
  - exists (-1). split; [|intros; ring]. eapply deriv_val; [apply (@deriv_sub (fun _ => k) (fun t => t)); [apply deriv_const|apply deriv_id]|ring].
  - exists 1. split; [|intros; ring]. eapply deriv_val; [apply (@deriv_sub (fun t => t) (fun _ => k)); [apply deriv_id|apply deriv_const]|ring].
  - exists k. split; [|intros; ring]. eapply deriv_val; [apply (@deriv_mul (fun t => t) (fun _ => k)); [apply deriv_id|apply deriv_const]|ring].
  - exists (- (k / x / x)). split; [|intros; field; auto]. eapply deriv_val; [apply (@deriv_div (fun _ => k) (fun t => t)); auto; [apply deriv_const|apply deriv_id]|unfold Rsqr; field; auto].
  - exists (/ k). split; [|intros; field; auto]. eapply deriv_val; [apply (@deriv_div (fun t => t) (fun _ => k)); auto; [apply deriv_id|apply deriv_const]|unfold Rsqr; field; auto].
  - eexists. split; [apply deriv_abs; exact DM|reflexivity].
  - exists (ln k * Rpower k x). split; [|intros; ring]. eapply deriv_val; [apply (@deriv_Rpower (fun _ => k) (fun t => t) x 0 1); auto; [apply deriv_const|apply deriv_id]|ring].
  - eexists. split; [apply deriv_Rpower_const_r; exact DM|intros; ring].
  - eexists. split; [apply deriv_powerRZ; exact DM|intros; ring].
  - eexists. split; [apply deriv_sqrt; exact DM|]. intros gy. unfold Rdiv. ring.
  - exists (- sin x). split; [apply derivable_pt_lim_cos|intros; ring].
  - exists (cos x). split; [apply derivable_pt_lim_sin|intros; ring].
  - eexists. split; [apply deriv_tan; exact DM|intros; ring].
  - eexists. split; [apply derivable_pt_lim_exp|intros; ring].
  - eexists. split; [apply derivable_pt_lim_ln; exact DM|intros; reflexivity].
  - exists (sigm x * (1 - sigm x)). split; [apply deriv_sigm|intros; unfold sigm; ring].
  - eexists. split; [apply deriv_softplus|intros; unfold sigm; ring].
  - eexists. split; [apply deriv_tanh|intros; ring].
  - eexists. split; [apply deriv_prelu; exact DM|intros; ring].
  - eexists. split; [apply deriv_prelu; exact DM|intros; ring].
Qed.
(** two arguments along a path *)
Definition b_rule (f : R -> R -> R) (a b : R) (la lb : R) : Prop :=
  forall u v u' v', D u u' -> D v v' -> u 0 = a -> v 0 = b -> D (fun t => f (u t) (v t)) (la * u' + lb * v').
Lemma b_deriv (k : rkind) f ha hb a b : bop k = Some f -> bbw_a k = Some ha -> bbw_b k = Some hb -> bdom k a b ->
  exists la lb, b_rule f a b la lb /\ forall gy : R, cval (ha a b (f a b) gy) = gy * la /\ cval (hb a b (f a b) gy) = gy * lb.
Proof.
  intros EF EA EB DM. destruct k; cbn [bop bbw_a bbw_b bdom] in * ; try discriminate; inversion EF; inversion EA; inversion EB; subst; clear EF EA EB; cbn [cval nadd nsub nmul ndiv npowf nln n1 Rnum]; change (F Rnum) with R in * .
  - exists 1, 1. split; [|intros; split; ring]. intros u v u' v' U V EU EV. eapply deriv_val; [apply deriv_add; eauto|ring].
  - exists 1, (-1). split; [|intros; split; ring]. intros u v u' v' U V EU EV. eapply deriv_val; [apply deriv_sub; eauto|ring].
  - exists b, a. split; [|intros; split; ring]. intros u v u' v' U V EU EV. eapply deriv_val; [apply deriv_mul; eauto|]. rewrite EU, EV. ring.
  - exists (/ b), (- (a / b / b)). split; [|intros; split; field; auto]. intros u v u' v' U V EU EV. eapply deriv_val; [apply deriv_div; eauto; congruence|]. rewrite EU, EV. unfold Rsqr. field. auto.
  - exists (b * Rpower a (b - 1)), (ln a * Rpower a b). split; [|intros; split; ring]. intros u v u' v' U V EU EV. eapply deriv_val; [apply deriv_Rpower; eauto; rewrite EU; auto|]. rewrite EU, EV. ring.
Qed.
Lemma s_deriv (k : rkind) f hx sg hk a b : sop k = Some f -> sbw_x k = Some hx -> sbw_k k = Some (sg, hk) -> bdom k a b ->
  exists la lb, b_rule f a b la lb /\ forall gy : R, cval (hx a b (f a b) gy) = gy * la /\ (if sg : bool then 1 else -1) * (hk a b (f a b) gy : R) = gy * lb.
Proof.
  intros EF EA EB DM. destruct k; cbn [sop sbw_x sbw_k bdom] in * ; try discriminate; inversion EF; inversion EA; inversion EB; subst; clear EF EA EB; cbn [cval nadd nsub nmul ndiv npowf nln n1 Rnum]; change (F Rnum) with R in * .
  - exists 1, 1. split; [|intros; split; ring]. intros u v u' v' U V EU EV. eapply deriv_val; [apply deriv_add; eauto|ring].
  - exists (-1), 1. split; [|intros; split; ring]. intros u v u' v' U V EU EV. eapply deriv_val; [apply deriv_sub; eauto|ring].
  - exists 1, (-1). split; [|intros; split; ring]. intros u v u' v' U V EU EV. eapply deriv_val; [apply deriv_sub; eauto|ring].
  - exists b, a. split; [|intros; split; ring]. intros u v u' v' U V EU EV. eapply deriv_val; [apply deriv_mul; eauto|]. rewrite EU, EV. ring.
  - exists (- (b / a / a)), (/ a). split; [|intros; split; field; auto]. intros u v u' v' U V EU EV. eapply deriv_val; [apply deriv_div; eauto; congruence|]. rewrite EU, EV. unfold Rsqr. field. auto.
  - exists (/ b), (- (a / b / b)). split; [|intros; split; field; auto]. intros u v u' v' U V EU EV. eapply deriv_val; [apply deriv_div; eauto; congruence|]. rewrite EU, EV. unfold Rsqr. field. auto.
  - exists (ln b * Rpower b a), (a * Rpower b (a - 1)). split; [|intros; split; [ring|rewrite Rpower_minus1 by auto; field; lra]]. intros u v u' v' U V EU EV. eapply deriv_val; [apply deriv_Rpower; eauto; rewrite EV; auto|]. rewrite EU, EV. ring.
  - exists (b * Rpower a (b - 1)), (ln a * Rpower a b). split; [|intros; split; [rewrite Rpower_minus1 by auto; field; lra|ring]]. intros u v u' v' U V EU EV. eapply deriv_val; [apply deriv_Rpower; eauto; rewrite EU; auto|]. rewrite EU, EV. ring.
Qed.
