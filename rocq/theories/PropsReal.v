(** * PropsReal: properties of the functions over the real numbers *)
From Verif Require Export RSum PropsElem.
Set Implicit Arguments.
Unset Strict Implicit.
Open Scope R_scope.
Notation rtensor := (tensor Rnum).

(** ** C39: the gradients of the elementwise functions are derivatives *)
(** [fw] applies [f] to every element; where [f] is applied inside of [dom] its derivative
    is [f']; and, given an input with elements in [dom] and the output computed from it,
    [bw] adds (gradient of the output) * (derivative) to every element of the gradient *)
Definition derives (fw : nat -> alloc_oracle Rnum -> rtensor -> res rtensor)
    (bw : nat -> rtensor -> rtensor -> rtensor -> rtensor -> res rtensor) (f f' : R -> R) (dom : R -> Prop) : Prop :=
  (forall d al x, al_ok al -> ready d x -> yields (K := Rnum) (fw d al x) d (t_shape x) (fun c b => f (at_ x c b))) /\
  (forall v, dom v -> derivable_pt_lim f v (f' v)) /\
  (forall d al x y gy gx, al_ok al -> ready d x -> fw d al x = Ok y -> ready d gy -> ready d gx ->
     t_shape gy = t_shape x -> t_shape gx = t_shape x ->
     (forall c b, inb (t_shape x) c -> (b < bat (t_shape x))%nat -> dom (at_ x c b)) ->
     writes (bw d x y gy gx) gx (fun c b => at_ gx c b + at_ gy c b * f' (at_ x c b))).
Definition always (x : R) : Prop := True.

Section C39.
Variable m : build.
Lemma derives_of fw bw f f' (dom : R -> Prop) g (h : R -> R -> R -> R) : maps (K := Rnum) fw g -> adds (K := Rnum) bw h ->
  (forall v, g v = f v) -> (forall v, dom v -> derivable_pt_lim f v (f' v)) -> (forall v gy, dom v -> h v (f v) gy = gy * f' v) -> derives fw bw f f' dom.
Proof.
  intros HM HB HG HD HH. split; [|split; [exact HD|]].
  - intros d al x HA HR. eapply yields_ext; [apply HM; auto|]. intros c b _ _. apply HG.
  - intros d al x y gy gx HA Hx E Hg Hgx E1 E2 HDm. destruct (HM d al x HA Hx) as (y' & E' & HT). assert (y' = y) by congruence. subst y'.
    pose proof (is_tensor_ready HT) as Hy. pose proof (is_tensor_shape HT) as Es.
    eapply writes_ext; [apply HB; auto|]. intros c b Hc Hb. cbv beta. rewrite E2 in Hc, Hb. cbn [nadd Rnum]. f_equal.
    rewrite (is_tensor_at HT) by (try apply Hc; auto). rewrite HG. apply HH; auto.
Qed.
Lemma maps_of_const fw op k : maps_const (K := Rnum) fw op -> maps (K := Rnum) (fun d al x => fw d al x k) (fun x => op x k).
Proof. intros H d al x HA HR. apply (H d al x k HA HR). Qed.
Lemma adds_of_const bw op k : adds_const (K := Rnum) bw op -> adds (K := Rnum) (fun d x y gy gx => bw d x y gy k gx) (fun x y gy => op x y gy k).
Proof. intros H d x y gy gx. intros. apply H; auto. Qed.

Theorem C39_unary_functions :
  derives (sqrt_fw m) (sqrt_bw m) sqrt (fun x => / (2 * sqrt x)) (fun x => 0 < x) /\
  derives (abs_fw m) (abs_bw m) Rabs (fun x => if Rlt_dec x 0 then -1 else 1) (fun x => x <> 0) /\
  derives (sin_fw m) (sin_bw m) sin cos always /\
  derives (cos_fw m) (cos_bw m) cos (fun x => - sin x) always /\
  derives (tan_fw m) (tan_bw m) tan (fun x => / (cos x * cos x)) (fun x => cos x <> 0) /\
  derives (exp_fw m) (exp_bw m) exp exp always /\
  derives (ln_fw m) (ln_bw m) ln (fun x => / x) (fun x => 0 < x) /\
  derives (tanh_fw m) (tanh_bw m) tanh (fun x => 1 - tanh x * tanh x) always /\
  derives (sigmoid_fw m) (sigmoid_bw m) (fun x => 1 / (1 + exp (- x))) (fun x => exp (- x) / ((1 + exp (- x)) * (1 + exp (- x)))) always.
Proof.
  ssplit.
  - eapply derives_of; [apply maps_x; reflexivity|apply adds_x; reflexivity|reflexivity| |]; cbn beta.
    + intros v H. eapply deriv_val; [apply deriv_sqrt; exact H|]. pose proof (sqrt_lt_R0 v H). field. lra.
    + intros v gy H. pose proof (sqrt_lt_R0 v H). cbn. field. lra.
  - eapply derives_of; [apply maps_x; reflexivity|apply adds_x; reflexivity|reflexivity| |]; cbn beta.
    + intros v H. eapply deriv_val; [apply deriv_abs; exact H|]. unfold Rltb. destruct (Rlt_dec 0 v), (Rlt_dec v 0); cbn; lra.
    + intros v gy H. cbn. unfold Rltb. destruct (Rlt_dec 0 v), (Rlt_dec v 0); cbn; lra.
  - eapply derives_of; [apply maps_x; reflexivity|apply adds_x; reflexivity|reflexivity| |reflexivity]; cbn beta. intros v _. apply derivable_pt_lim_sin.
  - eapply derives_of; [apply maps_x; reflexivity|apply adds_x; reflexivity|reflexivity| |]; cbn beta; [intros v _; apply derivable_pt_lim_cos|intros; cbn; ring].
  - assert (Q : forall v, cos v <> 0 -> 1 + tan v * tan v = / (cos v * cos v)).
    { intros v H. unfold tan. pose proof (sin2_cos2 v) as S. unfold Rsqr in S. replace (1 + sin v / cos v * (sin v / cos v)) with ((sin v * sin v + cos v * cos v) / (cos v * cos v)) by (field; auto). rewrite S. field. auto. }
    eapply derives_of; [apply maps_x; reflexivity|apply adds_x; reflexivity|reflexivity| |]; cbn beta.
    + intros v H. eapply deriv_val; [apply deriv_tan; exact H|auto].
    + intros v gy H. cbn. rewrite Q; auto.
  - eapply derives_of; [apply maps_x; reflexivity|apply adds_x; reflexivity|reflexivity| |reflexivity]; cbn beta. intros v _. apply derivable_pt_lim_exp.
  - eapply derives_of; [apply maps_x; reflexivity|apply adds_x; reflexivity|reflexivity| |reflexivity]; cbn beta. intros v H. apply derivable_pt_lim_ln; auto.
  - eapply derives_of; [apply maps_x; reflexivity|apply adds_x; reflexivity|reflexivity| |reflexivity]; cbn beta. intros v _. apply deriv_tanh.
  - assert (Q : forall v, sigm v = 1 / (1 + exp (- v))). { intros v. rewrite sigm_exp, exp_Ropp. pose proof (exp_pos v). field. lra. }
    assert (Q' : forall v, sigm v * (1 - sigm v) = exp (- v) / ((1 + exp (- v)) * (1 + exp (- v)))). { intros v. rewrite Q. pose proof (exp_pos (- v)). field. lra. }
    eapply derives_of; [apply maps_x; reflexivity|apply adds_x; reflexivity|exact Q| |]; cbn beta.
    + intros v _. eapply deriv_ext; [exact Q|]. eapply deriv_val; [apply deriv_sigm|apply Q'].
    + intros v gy _. rewrite <- Q, <- Q'. cbn. ring.
Qed.
Theorem C39_constant_functions : forall k : R,
  derives (fun d al x => add_const_fw m d al x k) (fun d x y gy gx => add_const_bw m d x y gy k gx) (fun x => x + k) (fun _ => 1) always /\
  derives (fun d al x => sub_const_l_fw m d al x k) (fun d x y gy gx => sub_const_l_bw m d x y gy k gx) (fun x => k - x) (fun _ => -1) always /\
  derives (fun d al x => sub_const_r_fw m d al x k) (fun d x y gy gx => sub_const_r_bw m d x y gy k gx) (fun x => x - k) (fun _ => 1) always /\
  derives (fun d al x => mul_const_fw m d al x k) (fun d x y gy gx => mul_const_bw m d x y gy k gx) (fun x => x * k) (fun _ => k) always /\
  derives (fun d al x => div_const_l_fw m d al x k) (fun d x y gy gx => div_const_l_bw m d x y gy k gx) (fun x => k / x) (fun x => - k / (x * x)) (fun x => x <> 0) /\
  (k <> 0 -> derives (fun d al x => div_const_r_fw m d al x k) (fun d x y gy gx => div_const_r_bw m d x y gy k gx) (fun x => x / k) (fun _ => / k) always) /\
  derives (fun d al x => powf_const_l_fw m d al x k) (fun d x y gy gx => powf_const_l_bw m d x y gy k gx) (fun x => Rpower k x) (fun x => ln k * Rpower k x) always /\
  derives (fun d al x => powf_const_r_fw m d al x k) (fun d x y gy gx => powf_const_r_bw m d x y gy k gx) (fun x => Rpower x k) (fun x => k * Rpower x (k - 1)) (fun x => 0 < x) /\
  derives (fun d al x => prelu_fw m d al x k) (fun d x y gy gx => prelu_bw m d x y gy k gx) (fun x => if Rlt_dec 0 x then x else k * x) (fun x => if Rlt_dec 0 x then 1 else k) (fun x => x <> 0) /\
  derives (fun d al x => elu_fw m d al x k) (fun d x y gy gx => elu_bw m d x y gy k gx) (fun x => if Rlt_dec 0 x then x else k * (exp x - 1)) (fun x => if Rlt_dec 0 x then 1 else k * exp x) (fun x => x <> 0).
Proof.
  Ltac rc := unfold e_add_const_bw, e_sub_const_l_bw, e_sub_const_r_bw, e_mul_const_bw, e_div_const_l_bw, e_div_const_r_bw, e_powf_const_l_bw, e_powf_const_r_bw, e_prelu_bw, e_elu_bw, nofB, ngt; cbn; change (F Rnum) with R in *.
  Ltac go := eapply derives_of; [apply maps_of_const, maps_c; reflexivity|apply adds_of_const, adds_c; reflexivity| | |]; cbn beta; try (intros; reflexivity).
  intros k. ssplit.
  - go; intros; [eapply deriv_val; [apply deriv_add; [apply deriv_id|apply deriv_const]|ring]|rc; ring].
  - go; intros; [eapply deriv_val; [apply deriv_sub; [apply deriv_const|apply deriv_id]|ring]|rc; ring].
  - go; intros; [eapply deriv_val; [apply deriv_sub; [apply deriv_id|apply deriv_const]|ring]|rc; ring].
  - go; intros; [eapply deriv_val; [apply (@deriv_mul (fun x => x) (fun _ => k)); [apply deriv_id|apply deriv_const]|ring]|rc; ring].
  - go; intros; [eapply deriv_val; [apply deriv_div; [apply deriv_const|apply deriv_id|auto]|unfold Rsqr; field; auto]|rc; field; auto].
  - intros Hk. go; intros; eapply deriv_val; [apply deriv_div; [apply deriv_id|apply deriv_const|auto]|unfold Rsqr; field; auto].
  - go; intros.
    + unfold Rpower at 1. eapply deriv_val; [apply (@deriv_comp (fun x => x * ln k) exp); [eapply deriv_val; [apply (@deriv_mul (fun x => x) (fun _ => ln k)); [apply deriv_id|apply deriv_const]|reflexivity]|apply derivable_pt_lim_exp]|]. cbn beta. unfold Rpower. ring.
    + rc. ring.
  - go; intros; [apply deriv_Rpower_const_r; auto|rc; ring].
  - assert (Q : forall x, IZR (if Rltb 0 x then 1 else 0) + IZR (if Rleb x 0 then 1 else 0) * k = if Rlt_dec 0 x then 1 else k).
    { intros v. unfold Rltb, Rleb. destruct (Rlt_dec 0 v), (Rle_dec v 0); lra. }
    assert (Q' : forall x, x * (IZR (if Rltb 0 x then 1 else 0) + IZR (if Rleb x 0 then 1 else 0) * k) = if Rlt_dec 0 x then x else k * x).
    { intros v. rewrite Q. destruct (Rlt_dec 0 v); ring. }
    go; intros; [apply Q'|eapply deriv_ext; [exact Q'|]; eapply deriv_val; [apply deriv_prelu; auto|apply Q]|rc; rewrite <- Q; reflexivity].
  - assert (Q : forall A x (u v : A), (if Rltb 0 x then u else v) = if Rlt_dec 0 x then u else v) by (intros; unfold Rltb; destruct (Rlt_dec 0 x); auto).
    go; intros; [unfold e_elu, ngt; cbn; apply Q| |].
    + eapply deriv_ext; [intros; apply Q|]. eapply deriv_val; [apply deriv_elu; auto|apply Q].
    + rc. rewrite Q. destruct (Rlt_dec 0 v); ring.
Qed.
(** integer powers: outside of 0 for every exponent, everywhere for positive exponents *)
Theorem C39_integer_power : forall k, (-2147483648 < k <= 2147483647)%Z ->
  derives (fun d al x => powi_fw m d al x k) (fun d x y gy gx => powi_bw m d x y gy k gx)
    (fun x => powerRZ x k) (fun x => IZR k * powerRZ x (k - 1)) (fun x => x <> 0 \/ (1 <= k)%Z).
Proof.
  intros k Hk. split; [|split].
  - intros d al x HA HR. apply (@C17_powi Rnum m); auto. lia.
  - intros v H. apply deriv_powerRZ; auto.
  - intros d al x y gy gx HA Hx E Hg Hgx E1 E2 _.
    destruct (@C17_powi Rnum m d al x k) as (y' & E' & HT); auto; [lia|]. assert (y' = y) by congruence. subst y'.
    eapply writes_ext; [apply (@C19_powi_gradient Rnum m d x y gy gx k); auto; [apply (is_tensor_ready HT)|apply (is_tensor_shape HT)]|].
    intros c b _ _. cbn. ring.
Qed.

(** two operands. [q]: a minibatch element of the operand; it collects the contributions
    of every minibatch element [n] of the result in which it was used *)
Definition collects_real (r : res rtensor) (g y : rtensor) (term : coord' -> nat -> R) : Prop :=
  writes r g (fun c q => at_ g c q + rsum (bat (t_shape y)) (fun n => if (bsel (t_shape g) n =? q)%nat then term c n else 0)).
Definition derives2 (fw : nat -> alloc_oracle Rnum -> rtensor -> rtensor -> res rtensor)
    (bwa bwb : nat -> rtensor -> rtensor -> rtensor -> rtensor -> rtensor -> res rtensor)
    (f fa fb : R -> R -> R) (dom : R -> R -> Prop) : Prop :=
  zips (K := Rnum) fw f /\
  (forall u v, dom u v -> derivable_pt_lim (fun t => f t v) u (fa u v) /\ derivable_pt_lim (fun t => f u t) v (fb u v)) /\
  (forall d al a b s y gy g, al_ok al -> ready d a -> ready d b -> batchable (t_shape a) (t_shape b) s -> fw d al a b = Ok y ->
     ready d gy -> ready d g -> t_shape gy = t_shape y ->
     (forall c n, inb s c -> (n < bat s)%nat -> dom (at_ a c (bsel (t_shape a) n)) (at_ b c (bsel (t_shape b) n))) ->
     (t_shape g = t_shape a -> collects_real (bwa d a b y gy g) g y (fun c n => at_ gy c n * fa (at_ a c (bsel (t_shape a) n)) (at_ b c (bsel (t_shape b) n)))) /\
     (t_shape g = t_shape b -> collects_real (bwb d a b y gy g) g y (fun c n => at_ gy c n * fb (at_ a c (bsel (t_shape a) n)) (at_ b c (bsel (t_shape b) n))))).
Lemma derives2_of fw bwa bwb f fa fb (dom : R -> R -> Prop) ha hb : zips (K := Rnum) fw f -> zips_bw_a (K := Rnum) bwa ha -> zips_bw_b (K := Rnum) bwb hb ->
  (forall u v, dom u v -> derivable_pt_lim (fun t => f t v) u (fa u v) /\ derivable_pt_lim (fun t => f u t) v (fb u v)) ->
  (forall u v gy w, dom u v -> @eq R (ha u v (f u v) gy w) (w + gy * fa u v) /\ @eq R (hb u v (f u v) gy w) (w + gy * fb u v)) -> derives2 fw bwa bwb f fa fb dom.
Proof.
  intros HZ HA HB HD HH. split; [exact HZ|]. split; [exact HD|].
  intros d al a b s y gy g HAl Ha Hb Hs E Hgy Hg Eg HDm.
  destruct (HZ d al a b s HAl Ha Hb Hs) as (y' & E' & HT). assert (y' = y) by congruence. subst y'.
  pose proof (is_tensor_ready HT) as Hy. pose proof (is_tensor_shape HT) as Es.
  destruct Hs as (H1 & H2 & H3). pose proof H3 as (Ws & Ex & Eb).
  assert (HBY : batchable (t_shape a) (t_shape b) (t_shape y)) by (rewrite Es; split; [exact H1|split; [exact H2|exact H3]]).
  assert (Xa : forall c, inb (t_shape a) c -> inb s c) by (intros c Hc i; rewrite Ex; apply Hc).
  assert (Xb : forall c, inb (t_shape b) c -> inb s c) by (intros c Hc i; rewrite Ex, H1; apply Hc).
  split; intros EG.
  - eapply writes_ext; [apply (HA d a b y gy g Ha Hb Hy Hgy Hg HBY Eg EG)|]. intros c q Hc Hq. cbv beta. rewrite EG in Hc.
    erewrite acc_ext; [apply acc_rsum|]. intros n w Hn. cbv beta. rewrite Es in Hn. rewrite (is_tensor_at HT) by (auto; apply Xa; auto). apply HH. apply HDm; auto.
  - eapply writes_ext; [apply (HB d a b y gy g Ha Hb Hy Hgy Hg HBY Eg EG)|]. intros c q Hc Hq. cbv beta. rewrite EG in Hc.
    erewrite acc_ext; [apply acc_rsum|]. intros n w Hn. cbv beta. rewrite Es in Hn. rewrite (is_tensor_at HT) by (auto; apply Xb; auto). apply HH. apply HDm; auto.
Qed.
Theorem C39_binary_functions :
  derives2 (add_fw m) (add_bw_a m) (add_bw_b m) Rplus (fun a b => 1) (fun a b => 1) (fun a b => True) /\
  derives2 (sub_fw m) (sub_bw_a m) (sub_bw_b m) Rminus (fun a b => 1) (fun a b => -1) (fun a b => True) /\
  derives2 (mul_fw m) (mul_bw_a m) (mul_bw_b m) Rmult (fun a b => b) (fun a b => a) (fun a b => True) /\
  derives2 (div_fw m) (div_bw_a m) (div_bw_b m) Rdiv (fun a b => / b) (fun a b => - a / (b * b)) (fun a b => b <> 0) /\
  derives2 (powf_fw m) (powf_bw_a m) (powf_bw_b m) Rpower (fun a b => b * Rpower a (b - 1)) (fun a b => ln a * Rpower a b) (fun a b => 0 < a).
Proof.
  destruct (C18_binary_functions Rnum m) as (Z1 & Z2 & Z3 & Z4 & Z5).
  destruct (C19_binary_gradients Rnum m) as (A1 & B1 & A2 & B2 & A3 & B3 & A4 & B4 & A5 & B5).
  split; [|split; [|split; [|split]]].
  - eapply derives2_of; [exact Z1|exact A1|exact B1| |]; intros; (split; [|]); try (cbn; ring);
      (eapply deriv_val; [apply deriv_add; apply deriv_id || apply deriv_const|ring]).
  - eapply derives2_of; [exact Z2|exact A2|exact B2| |]; intros; (split; [|]); try (cbn; ring);
      (eapply deriv_val; [apply deriv_sub; apply deriv_id || apply deriv_const|ring]).
  - eapply derives2_of; [exact Z3|exact A3|exact B3| |]; intros; (split; [|]); try (cbn; ring).
    + eapply deriv_val; [apply (@deriv_mul (fun t => t) (fun _ => v)); apply deriv_id || apply deriv_const|ring].
    + eapply deriv_val; [apply (@deriv_mul (fun _ => u) (fun t => t)); apply deriv_id || apply deriv_const|ring].
  - eapply derives2_of; [exact Z4|exact A4|exact B4| |]; intros; (split; [|]); try (cbn; field; auto; fail).
    + eapply deriv_val; [apply (@deriv_div (fun t => t) (fun _ => v)); auto; apply deriv_id || apply deriv_const|unfold Rsqr; field; auto].
    + eapply deriv_val; [apply (@deriv_div (fun _ => u) (fun t => t)); auto; apply deriv_id || apply deriv_const|unfold Rsqr; field; auto].
  - eapply derives2_of; [exact Z5|exact A5|exact B5| |]; intros; (split; [|]); try (cbn; ring).
    + apply deriv_Rpower_const_r; auto.
    + eapply deriv_val; [apply (@deriv_Rpower (fun _ => u) (fun t => t) v 0 1); auto; apply deriv_id || apply deriv_const|ring].
Qed.
(** relu and lrelu (prelu with 0 and 0.01) and softplus as the operators use them *)
Theorem C39_softplus_operator : forall x : R,
  derivable_pt_lim (fun x => ln (1 + exp x)) x (/ (1 + exp (- x))) /\
  (forall f, uop (K := Rnum) (@KSoftplus Rnum) = Some f -> f x = ln (1 + exp x)) /\
  (forall h y gy, ubw (K := Rnum) (@KSoftplus Rnum) = Some h -> h x y gy = / (1 + exp (- x)) * gy).
Proof.
  intros x. assert (Q : sigm x = / (1 + exp (- x))). { rewrite sigm_exp, exp_Ropp. pose proof (exp_pos x). field. lra. } ssplit.
  - eapply deriv_ext; [intros t; apply softplus_exp|]. eapply deriv_val; [apply deriv_softplus|auto].
  - intros f E. inversion E. apply softplus_exp.
  - intros h y gy E. inversion E. rewrite <- Q. reflexivity.
Qed.
End C39.

(** ** Concrete tensors of real numbers, for the examples *)
Definition tr (d : nat) (ds : list N) (b : N) (l : list R) : rtensor := @mkTensor Rnum (Some d) (sh ds b) (Some l) None.
Definition alr : alloc_oracle Rnum := fun n => if ((1 <=? n) && (n <=? 2147483648))%N then Ok (repeat 99 (N.to_nat n + 3)) else Panic.
Lemma alr_ok : al_ok alr.
Proof.
  intros n. unfold alr. destruct ((1 <=? n) && (n <=? 2147483648))%N; [|reflexivity]. eexists. split; [reflexivity|]. rewrite repeat_length. lia.
Qed.
Lemma tr_ready d ds b l : (b < two32)%N -> succeeds (shape_new Debug ds b) = true ->
  (batch (sh ds b) * volume (sh ds b) <=? 2147483648)%N = true -> (tot (sh ds b) <=? length l)%nat = true -> ready d (tr d ds b l).
Proof.
  intros Hb HO HV HL. apply N.leb_le in HV. apply Nat.leb_le in HL. destruct (sh_wf _ Hb HO) as [W _].
  split; [reflexivity|]. split; [split; auto|]. split; [reflexivity|]. split; [split; auto; cbn [t_shape tr]; change two32 with 4294967296%N; lia|]. split; [reflexivity|exact HL].
Qed.
Ltac rdyr := apply tr_ready; reflexivity.
(** sqrt at (4, 9) with output gradient (1, 1): the gradient grows by 1/4 and 1/6 *)
Example C39_applies : exists y g, sqrt_fw Debug 0 alr (tr 0 [2%N] 1 [4; 9]) = Ok y /\
  sqrt_bw Debug 0 (tr 0 [2%N] 1 [4; 9]) y (tr 0 [2%N] 1 [1; 1]) (tr 0 [2%N] 1 [10; 20]) = Ok g /\
  at_ g (c2 0 0) 0 = 10 + 1 * / (2 * sqrt 4) /\ at_ g (c2 1 0) 0 = 20 + 1 * / (2 * sqrt 9).
Proof.
  assert (R1 : ready 0 (tr 0 [2%N] 1 [4; 9])) by rdyr. assert (R2 : ready 0 (tr 0 [2%N] 1 [1; 1])) by rdyr. assert (R3 : ready 0 (tr 0 [2%N] 1 [10; 20])) by rdyr.
  destruct (proj1 (C39_unary_functions Debug)) as (F1 & _ & F3). destruct (F1 0%nat alr _ alr_ok R1) as (y & E & HT). exists y.
  assert (P : forall c b, inb (t_shape (tr 0 [2%N] 1 [4; 9])) c -> (b < bat (t_shape (tr 0 [2%N] 1 [4%R; 9%R])))%nat -> 0 < at_ (tr 0 [2%N] 1 [4; 9]) c b).
  { intros c b Hc Hb. assert (b = 0%nat) by (cbv in Hb; lia). subst b. pose proof (Hc 0%nat) as H0. assert (Q : forall i, (1 <= i)%nat -> c i = 0%nat).
    { intros i Hi. specialize (Hc i). destruct i as [|[|[|[|[|[|[|[|i]]]]]]]]; try lia; try (cbv in Hc; lia); unfold ext in Hc; cbn in Hc; try (destruct i; cbn in Hc); lia. }
    rewrite at_buf. unfold pos. replace (lin_lt (ext (t_shape (tr 0 [2%N] 1 [4; 9]))) c 8) with (c 0%nat).
    2:{ cbn [lin_lt]. rewrite (Q 1%nat), (Q 2%nat), (Q 3%nat), (Q 4%nat), (Q 5%nat), (Q 6%nat), (Q 7%nat) by lia. cbn [prod_lt]. lia. }
    assert (H1 : (c 0 < 2)%nat) by exact H0. destruct (c 0%nat) as [|[|k]]; [cbn; lra|cbn; lra|lia]. }
  destruct (writes_yields R3 (F3 0%nat alr _ y _ _ alr_ok R1 E R2 R3 eq_refl eq_refl P)) as (g & Eg & Hg).
  exists g. split; [exact E|]. split; [exact Eg|].
    assert (I : forall k, (k < 2)%nat -> inb (sh [2%N] 1) (c2 k 0)).
    { intros k Hk i. pose proof (proj1 (sh_is [2%N] (b := 1%N) eq_refl eq_refl)) as W. destruct i as [|i]; [exact Hk|]. pose proof (ext_pos (S i) W). destruct i; cbn [c2]; lia. }
    split.
    + etransitivity; [apply (is_tensor_at Hg); [apply I; lia|cbv; lia]|reflexivity].
    + etransitivity; [apply (is_tensor_at Hg); [apply I; lia|cbv; lia]|reflexivity].
Qed.
