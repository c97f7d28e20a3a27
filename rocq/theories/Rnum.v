(** * Rnum: the real numbers as number type, and derivatives of the elementwise operators *)
From Coq Require Export Reals Lra.
From Verif Require Export BwSem.
Set Implicit Arguments.
Unset Strict Implicit.
Open Scope R_scope.

Definition Rltb (x y : R) : bool := if Rlt_dec x y then true else false.
Definition Rleb (x y : R) : bool := if Rle_dec x y then true else false.
Definition Reqb (x y : R) : bool := if Req_EM_T x y then true else false.
(** the operations of the kernels without rounding. [Rpower x y] is exp (y ln x), [powerRZ] the
    integer power; both are used for positive (respectively non-zero) bases only *)
Definition Rnum : num := {|
  F := R; n0 := 0; n1 := 1; nhalf := / 2; nc001 := / 100;
  nadd := Rplus; nsub := Rminus; nmul := Rmult; ndiv := Rdiv;
  nneg := Ropp; nabs := Rabs; nsqrt := sqrt; nexp := exp; nln := ln;
  ntanh := tanh; nsin := sin; ncos := cos; ntan := tan;
  npowf := Rpower; npowi := powerRZ;
  nlt := Rltb; nle := Rleb; neqb := Reqb;
  nofZ := IZR;
  W := R; widen := fun x => x; narrow := fun x => x;
  w1 := 1; wadd := Rplus; wsub := Rminus; wexp := exp; wln := ln; wlt := Rltb |}.
Lemma Rnum_commutes : commutes Rnum. Proof. intros u v. apply Rmult_comm. Qed.
Lemma Rltb_true x y : x < y -> Rltb x y = true. Proof. unfold Rltb. destruct (Rlt_dec x y); tauto. Qed.
Lemma Rltb_false x y : y <= x -> Rltb x y = false. Proof. unfold Rltb. destruct (Rlt_dec x y); [lra|tauto]. Qed.
Lemma Rleb_true x y : x <= y -> Rleb x y = true. Proof. unfold Rleb. destruct (Rle_dec x y); tauto. Qed.
Lemma Rleb_false x y : y < x -> Rleb x y = false. Proof. unfold Rleb. destruct (Rle_dec x y); [lra|tauto]. Qed.
Lemma Reqb_spec x y : reflect (x = y) (Reqb x y). Proof. unfold Reqb. destruct (Req_EM_T x y); constructor; auto. Qed.
Lemma Rltb_spec x y : reflect (x < y) (Rltb x y). Proof. unfold Rltb. destruct (Rlt_dec x y); constructor; auto. Qed.

(** ** Derivatives *)
Lemma deriv_ext f g x l : (forall t, f t = g t) -> derivable_pt_lim f x l -> derivable_pt_lim g x l.
Proof. intros E H eps He. destruct (H eps He) as (d & Hd). exists d. intros h H1 H2. rewrite <- !E. auto. Qed.
Lemma deriv_near f g x l r : 0 < r -> (forall t, Rabs (t - x) < r -> f t = g t) -> derivable_pt_lim f x l -> derivable_pt_lim g x l.
Proof.
  intros Hr E H eps He. destruct (H eps He) as (d & Hd). assert (Hm : 0 < Rmin d r) by (apply Rmin_pos; [apply cond_pos|auto]).
  exists (mkposreal _ Hm). cbn. intros h H1 H2. rewrite <- !E; [apply Hd; auto| |].
  - eapply Rlt_le_trans; [exact H2|apply Rmin_l].
  - rewrite Rminus_diag_eq, Rabs_R0; auto.
  - replace (x + h - x) with h by ring. eapply Rlt_le_trans; [exact H2|apply Rmin_r].
Qed.
Lemma deriv_val f x l l' : derivable_pt_lim f x l -> l = l' -> derivable_pt_lim f x l'. Proof. intros H <-; exact H. Qed.
Lemma deriv_const a x : derivable_pt_lim (fun _ => a) x 0. Proof. apply derivable_pt_lim_const. Qed.
Lemma deriv_id x : derivable_pt_lim (fun t => t) x 1. Proof. apply derivable_pt_lim_id. Qed.
Lemma deriv_add f g x a b : derivable_pt_lim f x a -> derivable_pt_lim g x b -> derivable_pt_lim (fun t => f t + g t) x (a + b).
Proof. apply derivable_pt_lim_plus. Qed.
Lemma deriv_sub f g x a b : derivable_pt_lim f x a -> derivable_pt_lim g x b -> derivable_pt_lim (fun t => f t - g t) x (a - b).
Proof. apply derivable_pt_lim_minus. Qed.
Lemma deriv_opp f x a : derivable_pt_lim f x a -> derivable_pt_lim (fun t => - f t) x (- a).
Proof. apply derivable_pt_lim_opp. Qed.
Lemma deriv_mul f g x a b : derivable_pt_lim f x a -> derivable_pt_lim g x b -> derivable_pt_lim (fun t => f t * g t) x (a * g x + f x * b).
Proof. apply derivable_pt_lim_mult. Qed.
Lemma deriv_div f g x a b : derivable_pt_lim f x a -> derivable_pt_lim g x b -> g x <> 0 -> derivable_pt_lim (fun t => f t / g t) x ((a * g x - b * f x) / Rsqr (g x)).
Proof. intros. apply derivable_pt_lim_div; auto. Qed.
Lemma deriv_comp f g x a b : derivable_pt_lim f x a -> derivable_pt_lim g (f x) b -> derivable_pt_lim (fun t => g (f t)) x (b * a).
Proof. intros. apply (derivable_pt_lim_comp f g); auto. Qed.
Lemma deriv_inv x : x <> 0 -> derivable_pt_lim (fun t => / t) x (- / (x * x)).
Proof.
  intros H. eapply deriv_val; [|].
  - eapply deriv_ext; [|apply (@deriv_div (fun _ => 1) (fun t => t) x 0 1); [apply deriv_const|apply deriv_id|exact H]]. intros t. unfold Rdiv. ring.
  - unfold Rsqr. field. auto.
Qed.

Lemma deriv_tan x : cos x <> 0 -> derivable_pt_lim tan x (1 + tan x * tan x).
Proof.
  intros H. eapply deriv_val; [apply (@deriv_div sin cos x (cos x) (- sin x)); auto; [apply derivable_pt_lim_sin|apply derivable_pt_lim_cos]|]. unfold tan, Rsqr. field. auto.
Qed.
Lemma cosh_pos x : 0 < cosh x. Proof. unfold cosh. pose proof (exp_pos x). pose proof (exp_pos (- x)). lra. Qed.
Lemma deriv_tanh x : derivable_pt_lim tanh x (1 - tanh x * tanh x).
Proof.
  pose proof (cosh_pos x) as H. eapply deriv_val; [apply (@deriv_div sinh cosh x (cosh x) (sinh x)); [apply derivable_pt_lim_sinh|apply derivable_pt_lim_cosh|lra]|]. unfold tanh, Rsqr. field. lra.
Qed.
(** the logistic function *)
Definition sigm (x : R) : R := / 2 + / 2 * tanh (/ 2 * x).
Lemma sigm_exp x : sigm x = exp x / (1 + exp x).
Proof.
  unfold sigm, tanh, sinh, cosh. set (u := exp (/ 2 * x)). assert (U : 0 < u) by apply exp_pos. assert (EX : exp x = u * u). { unfold u. rewrite <- exp_plus. f_equal. field. }
  rewrite exp_Ropp. fold u. rewrite EX. field. repeat split; try nra.
Qed.
Lemma deriv_sigm x : derivable_pt_lim sigm x (sigm x * (1 - sigm x)).
Proof.
  eapply deriv_val.
  - unfold sigm. apply deriv_add; [apply deriv_const|]. apply (@deriv_mul (fun _ => / 2) (fun t => tanh (/ 2 * t)) x 0); [apply deriv_const|].
    apply (@deriv_comp (fun t => / 2 * t) tanh x (/ 2)); [|apply deriv_tanh]. eapply deriv_val; [apply (@deriv_mul (fun _ => / 2) (fun t => t) x 0 1); [apply deriv_const|apply deriv_id]|ring].
  - unfold sigm. cbv beta. field.
Qed.
Lemma softplus_exp x : ln (1 + exp (- Rabs x)) + IZR (if Rltb 0 x then 1 else 0) * x = ln (1 + exp x).
Proof.
  pose proof (exp_pos x). destruct (Rltb_spec 0 x) as [H0|H0].
  - rewrite Rabs_right by lra. replace (1 + exp (- x)) with ((1 + exp x) / exp x). 2:{ rewrite exp_Ropp. field. lra. }
    unfold Rdiv. rewrite ln_mult; [|lra|apply Rinv_0_lt_compat; auto]. rewrite ln_Rinv by auto. rewrite ln_exp. ring.
  - rewrite Rabs_left1 by lra. rewrite Ropp_involutive. ring.
Qed.
Lemma deriv_softplus x : derivable_pt_lim (fun x => ln (1 + exp (- Rabs x)) + IZR (if Rltb 0 x then 1 else 0) * x) x (sigm x).
Proof.
  eapply deriv_ext; [intros t; symmetry; apply softplus_exp|]. pose proof (exp_pos x). eapply deriv_val.
  - apply (@deriv_comp (fun t => 1 + exp t) ln x); [apply deriv_add; [apply deriv_const|apply derivable_pt_lim_exp]|apply derivable_pt_lim_ln; lra].
  - rewrite sigm_exp. field. lra.
Qed.
Lemma deriv_sqrt x : 0 < x -> derivable_pt_lim sqrt x (/ 2 / sqrt x).
Proof. intros H. eapply deriv_val; [apply derivable_pt_lim_sqrt; auto|]. pose proof (sqrt_lt_R0 x H). field. lra. Qed.
Lemma deriv_abs x : x <> 0 -> derivable_pt_lim Rabs x (IZR ((if Rltb 0 x then 1 else 0) - (if Rltb x 0 then 1 else 0))%Z).
Proof.
  intros H. destruct (Rlt_or_le 0 x) as [P|P].
  - rewrite (Rltb_true P), Rltb_false by lra. eapply deriv_near with (r := x); [exact P| |apply deriv_id]. intros t Ht. apply Rabs_def2 in Ht. symmetry. apply Rabs_right. lra.
  - rewrite (Rltb_false P), Rltb_true by lra. cbn. eapply deriv_near with (r := - x); [lra| |eapply deriv_val; [apply deriv_opp, deriv_id|reflexivity]].
    intros t Ht. apply Rabs_def2 in Ht. symmetry. apply Rabs_left. lra.
Qed.
Lemma deriv_prelu k x : x <> 0 -> derivable_pt_lim (fun x => x * (IZR (if Rltb 0 x then 1 else 0) + IZR (if Rleb x 0 then 1 else 0) * k)) x (IZR (if Rltb 0 x then 1 else 0) + IZR (if Rleb x 0 then 1 else 0) * k).
Proof.
  intros H. destruct (Rlt_or_le 0 x) as [P|P].
  - rewrite (Rltb_true P), Rleb_false by lra. eapply deriv_near with (r := x); [exact P| |eapply deriv_val; [apply deriv_id|ring]]. intros t Ht. apply Rabs_def2 in Ht. rewrite Rltb_true, Rleb_false by lra. ring.
  - rewrite (Rltb_false P), Rleb_true by lra. eapply deriv_near with (r := - x); [lra| |eapply deriv_val; [apply (@deriv_mul (fun _ => k) (fun t => t) x 0 1); [apply deriv_const|apply deriv_id]|ring]].
    intros t Ht. apply Rabs_def2 in Ht. rewrite Rltb_false, Rleb_true by lra. ring.
Qed.
Lemma deriv_elu k x : x <> 0 -> derivable_pt_lim (fun x => if Rltb 0 x then x else k * (exp x - 1)) x (if Rltb 0 x then 1 else k * exp x).
Proof.
  intros H. destruct (Rlt_or_le 0 x) as [P|P].
  - rewrite (Rltb_true P). eapply deriv_near with (r := x); [exact P| |apply deriv_id]. intros t Ht. apply Rabs_def2 in Ht. rewrite Rltb_true by lra. reflexivity.
  - rewrite (Rltb_false P). eapply deriv_near with (r := - x); [lra| |].
    + intros t Ht. apply Rabs_def2 in Ht. rewrite Rltb_false by lra. reflexivity.
    + eapply deriv_val; [apply (@deriv_mul (fun _ => k) (fun t => exp t - 1) x 0); [apply deriv_const|apply deriv_sub; [apply derivable_pt_lim_exp|apply deriv_const]]|ring].
Qed.
Lemma deriv_powerRZ n x : x <> 0 \/ (1 <= n)%Z -> derivable_pt_lim (fun x => powerRZ x n) x (IZR n * powerRZ x (n - 1)).
Proof.
  intros H. destruct n as [|p|p].
  - cbn. eapply deriv_val; [apply deriv_const|ring].
  - eapply deriv_ext; [intros t; apply pow_powerRZ || (cbn; reflexivity)|]. eapply deriv_val; [apply (derivable_pt_lim_pow x (Pos.to_nat p))|].
    f_equal; [rewrite INR_IZR_INZ; f_equal; lia|]. rewrite pow_powerRZ. f_equal. lia.
  - assert (X : x <> 0) by (destruct H; [auto|lia]). cbn [powerRZ]. eapply deriv_val.
    + apply (@deriv_comp (fun t => t ^ Pos.to_nat p) Rinv x); [apply derivable_pt_lim_pow|apply deriv_inv; apply pow_nonzero; auto].
    + replace (Z.neg p - 1)%Z with (- Z.of_nat (S (Pos.to_nat p)))%Z by lia. rewrite powerRZ_neg'. rewrite <- pow_powerRZ.
      assert (EP : Pos.to_nat p = S (Init.Nat.pred (Pos.to_nat p))) by lia. set (q := Init.Nat.pred (Pos.to_nat p)) in * . rewrite EP.
      replace (IZR (Z.neg p)) with (- INR (S q)). 2:{ rewrite INR_IZR_INZ, <- opp_IZR. f_equal. lia. }
      cbn [pow]. pose proof (pow_nonzero x q X). generalize dependent (x ^ q). generalize (INR (S q)). intros u w Hw. field. auto.
Qed.
Lemma deriv_Rpower_const_r k x : 0 < x -> derivable_pt_lim (fun x => Rpower x k) x (k * Rpower x (k - 1)).
Proof. intros. apply derivable_pt_lim_power; auto. Qed.
Lemma Rpower_minus1 x k : 0 < x -> Rpower x (k - 1) = Rpower x k / x.
Proof. intros H. unfold Rpower. replace ((k - 1) * ln x) with (k * ln x + - ln x) by ring. rewrite exp_plus, exp_Ropp, exp_ln by auto. reflexivity. Qed.
Lemma deriv_Rpower a b x a' b' : derivable_pt_lim a x a' -> derivable_pt_lim b x b' -> 0 < a x ->
  derivable_pt_lim (fun t => Rpower (a t) (b t)) x (b x * Rpower (a x) (b x - 1) * a' + ln (a x) * Rpower (a x) (b x) * b').
Proof.
  intros A B H. eapply deriv_val.
  - unfold Rpower at 1. apply (@deriv_comp (fun t => b t * ln (a t)) exp x); [|apply derivable_pt_lim_exp]. apply (@deriv_mul b (fun t => ln (a t)) x b'); [exact B|].
    apply (@deriv_comp a ln x a'); [exact A|apply derivable_pt_lim_ln; auto].
  - change (exp (b x * ln (a x))) with (Rpower (a x) (b x)). rewrite Rpower_minus1 by auto. field. lra.
Qed.
