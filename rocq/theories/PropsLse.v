(** * PropsLse: C64, logsumexp on binary32 with infinities and NaN *)
From Coq Require Import ZArith Reals Lra.
From Flocq Require Import Core IEEE754.BinarySingleNaN Plus_error Relative.
From Verif Require Import PropsMove Float32 PropsNan Typed PVocab ApiComp RSum Rounding LseAcc.
Set Implicit Arguments. Unset Strict Implicit.
Close Scope R_scope. Close Scope Z_scope. Open Scope nat_scope.
Local Open Scope bool_scope.

Definition dinf (s : bool) : f64 := B754_infinity s.

Section C64.
Variable M : libm.
Variable m : build.
Notation K := (Fnum M).
Notation tensor := (tensor (Fnum M)).

(** ** Specification *)
(** [lse], in LseAcc: the sum over a line, from left to right, in doubles *)
Notation lse2 := (lse2 M).
Notation lse_list := (lse_list M).
Notation lse := (lse M).
Definition line_of (f : nat -> f32) (n : nat) : list f32 := map f (seq 0 n).
(** what exp and ln do with NaN *)
Definition keeps_nan : Prop := l_wexp M B754_nan = B754_nan /\ l_wln M B754_nan = B754_nan.
(** ... with minus infinity and one; otherwise exp is not negative, ln not negative from 1 on *)
Definition decent : Prop := keeps_nan /\ l_wexp M (dinf true) = B754_zero false /\ l_wln M (f64_of_Z 1) = B754_zero false /\
  (forall v, is_nan v = false -> is_nan (l_wexp M v) = false /\ Bsign (l_wexp M v) = false) /\
  (forall v, is_nan v = false -> Bltb v (f64_of_Z 1) = false -> is_nan (l_wln M v) = false /\ Bsign (l_wln M v) = false).

(** ** Lemmas *)
Lemma nan64 (x : f64) : is_nan x = true -> x = B754_nan. Proof. destruct x; try discriminate. reflexivity. Qed.
Lemma plus_nan_r (x : f64) : x +d B754_nan = B754_nan. Proof. destruct x as [?|[]| |]; reflexivity. Qed.
Lemma lse_red (f : nat -> f32) n : 1 <= n ->
  narrow K (red (fun t v => let a := widen K v in
     if wlt K a t then wadd K t (wln K (wadd K w1 (wexp K (wsub K a t))))
     else wadd K a (wln K (wadd K w1 (wexp K (wsub K t a))))) (widen K (f 0)) (fun j => f (S j)) (n - 1)) = lse (line_of f n).
Proof.
  intros Hn. unfold line_of. destruct n as [|n]; [lia|]. cbn [seq map lse]. replace (S n - 1) with n by lia. cbn [narrow widen Fnum]. f_equal.
  unfold red. rewrite <- seq_shift, map_map. generalize (seq 0 n) as l. intros l. generalize (f64_of_f32 (f 0)) as t.
  induction l as [|i l IH]; intros t; [reflexivity|]. cbn [fold_left map lse_list]. rewrite <- IH. reflexivity.
Qed.
Lemma lse2_nan_l v : keeps_nan -> lse2 B754_nan v = B754_nan.
Proof.
  intros [H1 H2]. unfold lse2. assert (Bltb v B754_nan = false) as -> by (destruct v as [?|[]| |[]]; reflexivity).
  change (B754_nan -d v) with (@B754_nan 53 1024). rewrite H1, plus_nan_r, H2, plus_nan_r. reflexivity.
Qed.
Lemma lse2_nan_r t : keeps_nan -> lse2 t B754_nan = B754_nan.
Proof. intros [H1 H2]. unfold lse2. change (Bltb B754_nan t) with false. reflexivity. Qed.
Lemma lse_list_nan l : keeps_nan -> lse_list B754_nan l = B754_nan.
Proof. intros H. induction l as [|v l IH]; [reflexivity|]. cbn [lse_list]. rewrite lse2_nan_l; auto. Qed.
Lemma lse2_same_inf s : keeps_nan -> lse2 (dinf s) (dinf s) = B754_nan.
Proof.
  intros [H1 H2]. unfold lse2. assert (Bltb (dinf s) (dinf s) = false) as -> by (destruct s; reflexivity).
  assert (dinf s -d dinf s = B754_nan) as -> by (destruct s; reflexivity). rewrite H1, plus_nan_r, H2, plus_nan_r. reflexivity.
Qed.
(** an accumulator of plus infinity, or NaN, stays one of both *)
Definition infish (t : f64) : Prop := t = dinf false \/ t = B754_nan.
Lemma inf_plus x : infish (dinf false +d x).
Proof. unfold infish. destruct x as [?|[]| |]; cbn; auto. Qed.
Lemma lse2_inf_l v : keeps_nan -> infish (lse2 (dinf false) v).
Proof.
  intros [H1 H2]. unfold lse2. destruct (Bltb v (dinf false)) eqn:E; [apply inf_plus|].
  assert (v = dinf false \/ v = B754_nan) as [-> | -> ] by (destruct v as [?|[]| |[]]; try discriminate; auto); [apply inf_plus|]. right. reflexivity.
Qed.
Lemma lse2_inf_r t : keeps_nan -> infish (lse2 t (dinf false)).
Proof.
  intros [H1 H2]. unfold lse2. assert (Bltb (dinf false) t = false) as -> by (destruct t as [?|[]| |[]]; reflexivity). apply inf_plus.
Qed.
Lemma lse_list_inf l t : keeps_nan -> infish t -> infish (lse_list t l) /\ (In (@B754_infinity 24 128 false) l -> lse_list t l = B754_nan).
Proof.
  intros HK. revert t. induction l as [|v l IH]; intros t Ht; cbn [lse_list]; [split; [exact Ht|intros []]|].
  assert (H : infish (lse2 t (f64_of_f32 v))). { destruct Ht as [-> | -> ]; [apply lse2_inf_l; auto|right; apply lse2_nan_l; auto]. }
  destruct (IH _ H) as (A & B). split; [exact A|]. intros [-> |Q]; [|auto].
  cbn [f64_of_f32]. replace (lse2 t (B754_infinity false)) with (@B754_nan 53 1024); [apply lse_list_nan; auto|].
  symmetry. destruct Ht as [-> | -> ]; [apply (lse2_same_inf false); auto|apply lse2_nan_l; auto].
Qed.

(** ** C64 *)
(** the line contains a NaN, starts with two minus infinities, or contains plus infinity twice *)
Definition broken_line (f : nat -> f32) (n : nat) : Prop :=
  (exists j, j < n /\ is_nan (f j) = true) \/ (2 <= n /\ f 0 = B754_infinity true /\ f 1 = B754_infinity true) \/
  (exists i j, i < j < n /\ f i = B754_infinity false /\ f j = B754_infinity false).
Lemma nan32 (x : f32) : is_nan x = true -> x = B754_nan. Proof. destruct x; try discriminate. reflexivity. Qed.
Lemma lse_list_app t l1 l2 : lse_list t (l1 ++ l2) = lse_list (lse_list t l1) l2.
Proof. revert t. induction l1 as [|v l1 IH]; intros t; [reflexivity|]. cbn [app lse_list]. apply IH. Qed.
Lemma broken_nan f n : keeps_nan -> broken_line f n -> lse (line_of f n) = B754_nan.
Proof.
  intros HK HB. assert (G : forall t l, lse_list t l = B754_nan -> f32_of_f64 (lse_list t l) = B754_nan) by (intros t l ->; reflexivity).
  destruct HB as [(j & Hj & Nj)|[(Hn & E0 & E1)|(i & j & Hij & Ei & Ej)]]; unfold line_of.
  - apply nan32 in Nj. destruct n as [|n]; [lia|]. cbn [seq map lse]. apply G. destruct j as [|j].
    + rewrite Nj. apply (lse_list_nan _ HK).
    + rewrite <- seq_shift, map_map. replace n with (j + S (n - S j)) by lia. rewrite seq_app, map_app, lse_list_app. cbn [seq map Nat.add lse_list]. rewrite Nj.
      change (f64_of_f32 B754_nan) with (@B754_nan 53 1024). rewrite lse2_nan_r by auto. apply lse_list_nan; auto.
  - destruct n as [|[|n]]; try lia. cbn [seq map lse]. apply G. rewrite E0. cbn [lse_list]. rewrite E1.
    change (f64_of_f32 (B754_infinity true)) with (dinf true). rewrite lse2_same_inf by auto. apply lse_list_nan; auto.
  - destruct n as [|n]; [lia|]. cbn [seq map lse]. apply G. rewrite <- seq_shift, map_map. destruct i as [|i].
    + rewrite Ei. apply (@lse_list_inf _ (dinf false) HK); [left; reflexivity|]. apply in_map_iff. exists (j - 1). split; [replace (S (j - 1)) with j by lia; exact Ej|]. apply in_seq. lia.
    + replace n with (i + S (n - S i)) by lia. rewrite seq_app, map_app, lse_list_app. cbn [seq map Nat.add lse_list]. rewrite Ei.
      change (f64_of_f32 (B754_infinity false)) with (dinf false). apply (@lse_list_inf _ _ HK); [apply lse2_inf_r; auto|].
      apply in_map_iff. exists (j - 1). split; [replace (S (j - 1)) with j by lia; exact Ej|]. apply in_seq. lia.
Qed.
(** logsumexp computes [lse] of each line ... *)
Theorem C64_logsumexp : reduces_by (K := K) (t_logsumexp m) (fun f n => lse (line_of f n)).
Proof.
  intros d al x dim HA HR Hd. destruct (@C20_logsumexp K m d al x dim HA HR Hd) as (s & W & y & E & Ry & Sy & Y). exists s. split; [exact W|].
  exists y. split; [exact E|]. split; [exact Ry|]. split; [exact Sy|]. intros c b Hc Hb. rewrite Y by auto. apply (@lse_red (fun j => at_ x (cset c (N.to_nat dim) j) b)).
  apply (ext_pos _ (ready_wf HR)).
Qed.
(** ... which is NaN for broken lines *)
Theorem C64_broken_lines : keeps_nan -> forall d (al : alloc_oracle K) x dim, al_ok al -> ready d x -> N.to_nat dim < 8 ->
  exists s y, without (t_shape x) (N.to_nat dim) s /\ t_logsumexp m al x dim = Ok y /\ ready d y /\ t_shape y = s /\
    forall c b, inb s c -> b < bat s -> broken_line (fun j => at_ x (cset c (N.to_nat dim) j) b) (ext (t_shape x) (N.to_nat dim)) -> at_ y c b = (B754_nan : f32).
Proof.
  intros HK d al x dim HA HR Hd. destruct (C64_logsumexp HA HR Hd) as (s & W & y & E & Ry & Sy & Y). exists s, y. ssplit; auto.
  intros c b Hc Hb HB. rewrite Y by auto. apply broken_nan; auto.
Qed.

(** *** Minus infinity *)
Definition plain (t : f64) : Prop := t <> dinf true /\ t <> B754_zero true.
Lemma one_plus (e : f64) : is_nan e = false -> Bsign e = false -> is_nan (f64_of_Z 1 +d e) = false /\ Bltb (f64_of_Z 1 +d e) (f64_of_Z 1) = false.
Proof.
  intros Ne Se. destruct one64 as (F1 & R1 & S1). destruct (is_finite e) eqn:Fe.
  - pose proof (Bplus_correct 53 1024 _ _ mode_NE (f64_of_Z 1) e F1 Fe) as H. destruct (Rlt_bool _ _).
    + destruct H as (H1 & H2 & _). split; [destruct (f64_of_Z 1 +d e); try discriminate; reflexivity|].
      rewrite (Bltb_correct _ _ _ _ H2 F1), H1, R1. apply Rlt_bool_false. 
      apply round_ge_generic; [apply FLT_exp_valid; reflexivity|apply valid_rnd_round_mode| |].
      * rewrite <- R1. apply generic_format_B2R.
      * assert (0 <= B2R e)%R; [|lra]. destruct e as [|?| |[]]; try discriminate; cbn; try lra. apply F2R_ge_0. discriminate.
    + destruct H as (H1 & H2). rewrite S1 in H1. destruct (f64_of_Z 1 +d e) as [|[]| |]; try discriminate. split; reflexivity.
  - destruct e as [|[]| |]; try discriminate. split; reflexivity.
Qed.
Lemma plus_plain (t w : f64) : plain t -> is_nan w = false -> Bsign w = false -> plain (t +d w).
Proof.
  intros (P1 & P2) Nw Sw. unfold plain, dinf. destruct (is_finite t) eqn:Ft.
  2:{ destruct t as [|[]| |]; try discriminate; [exfalso; apply P1; reflexivity| |]; destruct w as [|[]| |]; try discriminate; split; discriminate. }
  destruct (is_finite w) eqn:Fw.
  2:{ destruct w as [|[]| |]; try discriminate. destruct t as [|[]| |]; try discriminate; split; discriminate. }
  pose proof (Bplus_correct 53 1024 _ _ mode_NE t w Ft Fw) as H. destruct (Rlt_bool _ _).
  - destruct H as (H1 & H2 & H3). split; intros Q; rewrite Q in * ; [discriminate|]. cbn [B2R Bsign] in * . 
    destruct (Rcompare_spec (B2R t + B2R w) 0) as [L|L|L]; [|rewrite Sw in H3; rewrite andb_false_r in H3; discriminate|discriminate].
    symmetry in H1. revert H1. apply round_plus_neq_0; [apply FLT_exp_valid; reflexivity|apply monotone_exp_not_FTZ; [apply FLT_exp_valid; reflexivity|exact (fexp_monotone 53 1024)]|apply valid_rnd_round_mode|apply generic_format_B2R|apply generic_format_B2R|lra].
  - destruct H as (H1 & H2). rewrite H2, Sw in H1. destruct (t +d w) as [|[]| |]; try discriminate. split; discriminate.
Qed.
Lemma lse2_plain t v : decent -> plain t -> plain v -> plain (lse2 t v).
Proof.
  intros (HN & _ & _ & HE & HL) Pt Pv. 
  assert (G : forall a b : f64, plain a -> plain (a +d l_wln M (f64_of_Z 1 +d l_wexp M (b -d a)))).
  { intros a b Pa. destruct (is_nan (b -d a)) eqn:N.
    - rewrite (nan64 N). destruct HN as [H1 H2]. rewrite H1, plus_nan_r, H2, plus_nan_r. split; discriminate.
    - destruct (HE _ N) as (E1 & E2). destruct (one_plus E1 E2) as (O1 & O2). destruct (HL _ O1 O2). apply plus_plain; auto. }
  unfold lse2. destruct (Bltb v t); apply G; auto.
Qed.
Lemma plus_pzero (t : f64) : t <> B754_zero true -> t +d B754_zero false = t.
Proof. destruct t as [[]|?| |]; intros H; try reflexivity. exfalso. apply H. reflexivity. Qed.
Lemma one_zero : f64_of_Z 1 +d B754_zero false = f64_of_Z 1. Proof. reflexivity. Qed.
Lemma lse2_minf_r t : decent -> plain t -> lse2 t (dinf true) = t.
Proof.
  intros (HN & HE & HL & _) (P1 & P2). unfold lse2. destruct (is_nan t) eqn:N; [rewrite (nan64 N); apply lse2_nan_l; auto|].
  assert (Bltb (dinf true) t = true) as ->. { destruct t as [|[]| |[]]; try discriminate; try reflexivity. exfalso. apply P1. reflexivity. }
  assert (dinf true -d t = dinf true) as ->. { destruct t as [|[]| |[]]; try discriminate; try reflexivity. exfalso. apply P1. reflexivity. }
  rewrite HE, one_zero, HL. apply plus_pzero; auto.
Qed.
Lemma lse2_minf_l v : decent -> plain v -> lse2 (dinf true) v = v.
Proof.
  intros (HN & HE & HL & _) (P1 & P2). unfold lse2. destruct (is_nan v) eqn:N; [rewrite (nan64 N); reflexivity|].
  assert (Bltb v (dinf true) = false) as ->. { destruct v as [|[]| |[]]; try discriminate; try reflexivity. }
  assert (dinf true -d v = dinf true) as ->. { destruct v as [|[]| |[]]; try discriminate; try reflexivity. exfalso. apply P1. reflexivity. }
  rewrite HE, one_zero, HL. apply plus_pzero; auto.
Qed.
Definition is_minf (x : f32) : bool := match x with B754_infinity true => true | _ => false end.
Lemma widen_plain (x : f32) : is_minf x = false -> x <> B754_zero true -> plain (f64_of_f32 x).
Proof.
  intros H1 H2. unfold plain, dinf. destruct x as [[]|[]| |s q e He]; try discriminate; try (split; discriminate); [exfalso; auto|].
  destruct (@widen_finite (B754_finite s q e He) eq_refl) as (A & B & C). split; intros Q; rewrite Q in * ; [discriminate|].
  cbn [B2R] in B. symmetry in B. apply F2R_neq_0 in B; [destruct B|]. destruct s; discriminate.
Qed.
Lemma lse_list_minf t l : decent -> plain t -> Forall (fun x => x <> B754_zero true) l -> lse_list t l = lse_list t (filter (fun x => negb (is_minf x)) l).
Proof.
  intros HD Pt HZ. revert t Pt. induction HZ as [|x l Hx HZ IH]; intros t Pt; [reflexivity|]. cbn [lse_list filter].
  destruct (is_minf x) eqn:E; cbn [negb].
  - assert (x = B754_infinity true) as -> by (destruct x as [|[]| |]; try discriminate; reflexivity). change (f64_of_f32 (B754_infinity true)) with (dinf true).
    rewrite lse2_minf_r by auto. auto.
  - cbn [lse_list]. apply IH. apply lse2_plain; auto. apply widen_plain; auto.
Qed.
(** elements minus infinity do not count, unless the line starts with two of them *)
Lemma lse_minf f n : decent -> (forall j, j < n -> f j <> B754_zero true) -> 1 <= n -> (2 <= n -> f 0 <> B754_infinity true \/ f 1 <> B754_infinity true) ->
  lse (line_of f n) = match filter (fun x => negb (is_minf x)) (line_of f n) with [] => B754_infinity true | l => lse l end.
Proof.
  intros HD HZ Hn HF. unfold line_of. destruct n as [|n]; [lia|]. cbn [seq map filter lse].
  assert (ZL : forall k, k <= n -> Forall (fun x => x <> B754_zero true) (map f (seq (S n - k) k))).
  { intros k Hk. apply Forall_forall. intros x Hx. apply in_map_iff in Hx. destruct Hx as (j & <- & Hj). apply in_seq in Hj. apply HZ. lia. }
  destruct (is_minf (f 0)) eqn:E0; cbn [negb].
  - assert (f 0 = B754_infinity true) as E by (destruct (f 0) as [|[]| |]; try discriminate; reflexivity). rewrite E in * . destruct n as [|n]; [reflexivity|].
    cbn [seq map filter lse_list]. assert (is_minf (f 1) = false) as E1. { destruct (HF ltac:(lia)) as [Q|Q]; [destruct Q; auto|]. destruct (f 1) as [|[]| |]; auto; destruct Q; auto. }
    rewrite E1. cbn [negb lse]. change (f64_of_f32 (B754_infinity true)) with (dinf true). rewrite lse2_minf_l by (auto; apply widen_plain; auto; apply HZ; lia).
    f_equal. apply lse_list_minf; auto; [apply widen_plain; auto; apply HZ; lia|]. specialize (ZL n ltac:(lia)). replace (S (S n) - n) with 2 in ZL by lia. exact ZL.
  - cbn [lse]. f_equal. apply lse_list_minf; auto; [apply widen_plain; auto; apply HZ; lia|]. specialize (ZL n ltac:(lia)). replace (S n - n) with 1 in ZL by lia. exact ZL.
Qed.
(** ** C64, continued *)
(** minus infinity stands for probability zero: such elements change nothing, provided the line does not start with two of them *)
Theorem C64_minus_infinity_ignored : decent -> forall d (al : alloc_oracle K) x dim, al_ok al -> ready d x -> N.to_nat dim < 8 ->
  exists s y, without (t_shape x) (N.to_nat dim) s /\ t_logsumexp m al x dim = Ok y /\ ready d y /\ t_shape y = s /\
    forall c b, inb s c -> b < bat s -> let f := fun j => at_ x (cset c (N.to_nat dim) j) b in let n := ext (t_shape x) (N.to_nat dim) in
      (forall j, j < n -> f j <> (B754_zero true : f32)) -> (2 <= n -> f 0 <> (B754_infinity true : f32) \/ f 1 <> (B754_infinity true : f32)) ->
      at_ y c b = match filter (fun v => negb (is_minf v)) (line_of f n) with [] => (B754_infinity true : f32) | l => lse l end.
Proof.
  intros HD d al x dim HA HR Hd. destruct (C64_logsumexp HA HR Hd) as (s & W & y & E & Ry & Sy & Y). exists s, y. ssplit; auto.
  intros c b Hc Hb f n HZ HF. rewrite Y by auto. apply lse_minf; auto. apply (ext_pos _ (ready_wf HR)).
Qed.
(** log softmax of a broken line is NaN everywhere on it; softmax too *)
Theorem C64_ln_softmax_broken : keeps_nan -> forall d als (x : tensor) dim, (forall i, al_ok (als i)) -> ready d x -> N.to_nat dim < 8 ->
  exists y, t_ln_softmax m als x dim = Ok y /\ ready d y /\ t_shape y = t_shape x /\
    forall c b, inb (t_shape x) c -> b < bat (t_shape x) -> broken_line (fun j => at_ x (cset c (N.to_nat dim) j) b) (ext (t_shape x) (N.to_nat dim)) -> at_ y c b = (B754_nan : f32).
Proof.
  intros HK d als x dim HA HR Hd. destruct (@ln_softmax_yields K m d als x dim HA HR Hd) as (y & E & HY). exists y. ssplit; auto; [apply (is_tensor_ready HY)|apply (is_tensor_shape HY)|].
  intros c b Hc Hb HB. rewrite (is_tensor_at HY Hc Hb). unfold lsm. apply broken_nan in HB; auto.
  assert (Q : ApiComp.lse K (line (K := K) x (N.to_nat dim) c b) (ext (t_shape x) (N.to_nat dim)) = (B754_nan : f32)).
  { rewrite <- HB. apply (lse_red (fun j => at_ x (cset c (N.to_nat dim) j) b)). apply (ext_pos _ (ready_wf HR)). }
  rewrite Q. cbn [nsub Fnum]. generalize (at_ x c b : f32). intros v. destruct v as [?|[]| |]; reflexivity.
Qed.
(** [lse] against the exact value: with functions exp and ln accurate to [eps], a
    line of [n] numbers up to [A] in magnitude gets its logarithm of the sum of
    exponentials with the rounding error of f32 and little more *)
Definition lse_error (eps A : R) (n : nat) : R := (INR n * (2 * eps + 3 * u64r * (A + INR n + 1)) + u32r * (A + INR n) + eta32)%R.
Definition tame (eps A : R) (n : nat) (f : nat -> f32) : Prop :=
  (forall j, j < n -> finite (f j) = true /\ (Rabs (val (f j)) <= A)%R) /\ (2 * eps + 3 * u64r * (A + INR n + 1) <= / 6)%R /\ (A + INR n <= 2 ^ 80)%R.
Lemma exps_rsum (f : nat -> f32) n : exps (map val (line_of f n)) = rsum n (fun j => exp (val (f j))).
Proof.
  unfold line_of. rewrite map_map. induction n; [reflexivity|]. rewrite seq_S, map_app. cbn [rsum map Nat.add]. rewrite <- IHn. generalize (map (fun j => val (f j)) (seq 0 n)). intros l.
  induction l as [|a l IH]; [cbn; lra|]. change (exps ((a :: l) ++ [val (f n)])) with (exp a + exps (l ++ [val (f n)]))%R. change (exps (a :: l)) with (exp a + exps l)%R. rewrite IH. lra.
Qed.
Lemma tame_accuracy eps A n f : accurate M eps -> 1 <= n -> tame eps A n f ->
  finite (lse (line_of f n)) = true /\ (Rabs (val (lse (line_of f n)) - ln (rsum n (fun j => exp (val (f j))))) <= lse_error eps A n)%R.
Proof.
  intros HA Hn (T1 & T2 & T3). assert (L : length (line_of f n) = n) by (unfold line_of; rewrite map_length, seq_length; reflexivity).
  rewrite <- exps_rsum. unfold lse_error. pose proof (@lse_accuracy M eps (line_of f n) A HA) as Q. cbv zeta in Q. rewrite L in Q. apply Q; auto.
  - intros QE. rewrite QE in L. cbn in L. lia.
  - apply Forall_forall. intros v Hv. unfold line_of in Hv. apply in_map_iff in Hv. destruct Hv as (j & <- & Hj). apply in_seq in Hj. apply T1. lia.
Qed.
Lemma rsum_exp_bounds (f : nat -> f32) n A : (forall j, j < n -> (Rabs (val (f j)) <= A)%R) -> (INR n * exp (- A) <= rsum n (fun j => exp (val (f j))) <= INR n * exp A)%R.
Proof.
  induction n; intros H; [cbn; lra|]. cbn [rsum]. rewrite S_INR. destruct IHn as (I1 & I2); [intros; apply H; lia|]. pose proof (H n ltac:(lia)) as Q. apply Rabs_le_inv in Q.
  assert (EM : forall a b, (a <= b)%R -> (exp a <= exp b)%R) by (intros a b [G| -> ]; [left; apply exp_increasing; auto|lra]).
  pose proof (EM (- A)%R (val (f n)) ltac:(lra)). pose proof (EM (val (f n)) A ltac:(lra)). lra.
Qed.
Lemma ln_rsum_bound (f : nat -> f32) n A : 1 <= n -> (forall j, j < n -> (Rabs (val (f j)) <= A)%R) -> (Rabs (ln (rsum n (fun j => exp (val (f j))))) <= A + INR n)%R.
Proof.
  intros Hn H. destruct (rsum_exp_bounds H) as (I1 & I2). assert (N1 : (1 <= INR n)%R) by (apply (le_INR 1); auto). pose proof (exp_pos A). pose proof (exp_pos (- A)).
  assert (LM : forall a b, (0 < a)%R -> (a <= b)%R -> (ln a <= ln b)%R) by (intros a b ? [G| -> ]; [left; apply ln_increasing; auto|lra]).
  assert (0 < INR n * exp (- A))%R by (apply Rmult_lt_0_compat; lra).
  pose proof (LM _ _ ltac:(eassumption) I1) as L1. pose proof (LM (rsum n (fun j => exp (val (f j)))) _ ltac:(lra) I2) as L2. rewrite ln_mult, ln_exp in L1, L2 by lra.
  pose proof (@ln_le1 (INR n) ltac:(lra)). assert (0 <= ln (INR n))%R by (rewrite <- ln_1; apply LM; lra). apply Rabs_le. lra.
Qed.
Theorem C64_accuracy : forall eps, accurate M eps -> forall d (al : alloc_oracle K) x dim, al_ok al -> ready d x -> N.to_nat dim < 8 ->
  exists s y, without (t_shape x) (N.to_nat dim) s /\ t_logsumexp m al x dim = Ok y /\ ready d y /\ t_shape y = s /\
    forall c b A, inb s c -> b < bat s -> let f := fun j => at_ x (cset c (N.to_nat dim) j) b in let n := ext (t_shape x) (N.to_nat dim) in
      tame eps A n f -> finite (at_ y c b) = true /\ (Rabs (val (at_ y c b) - ln (rsum n (fun j => exp (val (f j))))) <= lse_error eps A n)%R.
Proof.
  intros eps HE d al x dim HA HR Hd. destruct (C64_logsumexp HA HR Hd) as (s & W & y & E & Ry & Sy & Y). exists s, y. ssplit; auto.
  intros c b A Hc Hb f n HT. rewrite Y by auto. apply tame_accuracy; auto. apply (ext_pos _ (ready_wf HR)).
Qed.
(** log softmax has one more rounding, of a number no larger than 2 A + n + 1 *)
Theorem C64_ln_softmax_accuracy : forall eps, accurate M eps -> forall d als (x : tensor) dim, (forall i, al_ok (als i)) -> ready d x -> N.to_nat dim < 8 ->
  exists y, t_ln_softmax m als x dim = Ok y /\ ready d y /\ t_shape y = t_shape x /\
    forall c b A, inb (t_shape x) c -> b < bat (t_shape x) -> let f := fun j => at_ x (cset c (N.to_nat dim) j) b in let n := ext (t_shape x) (N.to_nat dim) in
      tame eps A n f -> finite (at_ y c b) = true /\
      (Rabs (val (at_ y c b) - (val (at_ x c b) - ln (rsum n (fun j => exp (val (f j)))))) <= (1 + u32r) * lse_error eps A n + u32r * (2 * A + INR n) + eta32)%R.
Proof.
  intros eps HE d als x dim HA HR Hd. destruct (@ln_softmax_yields K m d als x dim HA HR Hd) as (y & E & HY). exists y. ssplit; auto; [apply (is_tensor_ready HY)|apply (is_tensor_shape HY)|].
  intros c b A Hc Hb f n HT. rewrite (is_tensor_at HY Hc Hb). unfold lsm.
  assert (Hn : 1 <= n) by apply (ext_pos _ (ready_wf HR)).
  destruct (tame_accuracy HE Hn HT) as (F1 & F2).
  assert (Q : ApiComp.lse K (line (K := K) x (N.to_nat dim) c b) (ext (t_shape x) (N.to_nat dim)) = lse (line_of f n)).
  { apply (lse_red f). exact Hn. }
  rewrite Q. cbn [nsub Fnum]. set (L := lse (line_of f n)) in * . destruct HT as (T1 & T2 & T3).
  destruct (T1 (c (N.to_nat dim))) as (X1 & X2); [apply Hc|]. unfold f in X1, X2. rewrite cset_same in X1, X2.
  set (v := at_ x c b : f32) in * . change (at_ x c b) with v. set (S0 := ln (rsum n (fun j => exp (val (f j))))) in * .
  assert (A0 : (0 <= A)%R) by (eapply Rle_trans; [apply Rabs_pos|exact X2]).
  assert (HS : (Rabs S0 <= A + INR n)%R). { apply ln_rsum_bound; auto. intros j Hj. apply T1; auto. }
  pose proof u32r_pos as U. pose proof eta32_pos as ET. assert (LE0 : (0 <= lse_error eps A n)%R) by (eapply Rle_trans; [apply Rabs_pos|exact F2]).
  assert (HZ : (Rabs (val v - val L) <= 2 * A + INR n + lse_error eps A n)%R).
  { replace (val v - val L)%R with (val v + (- S0 + - (val L - S0)))%R by ring. eapply Rle_trans; [apply Rabs_triang|]. 
    pose proof (Rabs_triang (- S0) (- (val L - S0))). rewrite !Rabs_Ropp in * . lra. }
  pose proof (pos_INR n) as PN.
  assert (LE : (lse_error eps A n <= 2 ^ 81)%R).
  { unfold lse_error. assert (INR n * (2 * eps + 3 * u64r * (A + INR n + 1)) <= INR n * / 6)%R by (apply Rmult_le_compat_l; lra).
    assert (u32r <= 1)%R by (unfold u32r; rewrite <- Rinv_1; apply Rinv_le_contravar; [lra|apply pow_R1_Rle; lra]).
    assert (eta32 <= 1)%R by (unfold eta32; rewrite <- Rinv_1; apply Rinv_le_contravar; [lra|apply pow_R1_Rle; lra]).
    assert (u32r * (A + INR n) <= 1 * (A + INR n))%R by (apply Rmult_le_compat_r; lra). change (2 ^ 81)%R with (2 * 2 ^ 80)%R.
    assert (1 <= 2 ^ 79)%R by (apply pow_R1_Rle; lra). change (2 ^ 80)%R with (2 * 2 ^ 79)%R in *. lra. }
  assert (FI : finite (v -f L) = true).
  { apply minus32. ssplit; auto. assert (B84 : (2 ^ 83 < bpow radix2 128)%R) by (rewrite pow_IZR; unfold bpow; apply IZR_lt; reflexivity).
    eapply Rle_lt_trans; [|exact B84]. unfold rnd. apply abs_round_le_generic; [apply FLT_exp_valid; reflexivity|apply valid_rnd_N| |].
    - rewrite pow_IZR. change (IZR (2 ^ Z.of_nat 83)) with (bpow radix2 83). apply generic_format_bpow. unfold FLT_exp. lia.
    - eapply Rle_trans; [exact HZ|]. change (2 ^ 83)%R with (2 * (2 * (2 * 2 ^ 80)))%R. change (2 ^ 81)%R with (2 * 2 ^ 80)%R in LE. lra. }
  split; [exact FI|]. rewrite (proj2 (minus32 v L) FI). pose proof (rnd_eps (val v - val L)) as RE.
  replace (rnd (val v - val L) - (val v - S0))%R with (rnd (val v - val L) - (val v - val L) + - (val L - S0))%R by ring.
  eapply Rle_trans; [apply Rabs_triang|]. rewrite Rabs_Ropp. assert (u32r * Rabs (val v - val L) <= u32r * (2 * A + INR n + lse_error eps A n))%R by (apply Rmult_le_compat_l; lra). lra.
Qed.

(** *** Lower bound *)
Definition le64 (a b : f64) : Prop := b = dinf false \/ (dfin a = true /\ dfin b = true /\ (dval a <= dval b)%R).
Definition topped (t : f64) : Prop := t = dinf false \/ dfin t = true.
Lemma le64_trans a b c : le64 a b -> le64 b c -> le64 a c.
Proof. unfold le64. intros [-> |(A1 & A2 & A3)] [-> |(B1 & B2 & B3)]; auto; [discriminate|]. right. ssplit; auto. lra. Qed.
Lemma sign_pos (w : f64) : dfin w = true -> Bsign w = false -> (0 <= dval w)%R.
Proof. destruct w as [|?| |[]]; intros F S; try discriminate; cbn; try lra. apply F2R_ge_0. discriminate. Qed.
Lemma plus_ge (t w : f64) : topped t -> is_nan w = false -> Bsign w = false -> topped (t +d w) /\ le64 t (t +d w).
Proof.
  intros Tt Nw Sw. unfold topped, le64, dinf in * . destruct Tt as [-> |Ft].
  { destruct w as [|[]| |]; try discriminate; cbn; auto. }
  destruct (dfin w) eqn:Fw.
  2:{ destruct w as [|[]| |]; try discriminate. destruct t as [|[]| |]; try discriminate; cbn; auto. }
  pose proof (Bplus_correct 53 1024 _ _ mode_NE t w Ft Fw) as H. destruct (Rlt_bool _ _).
  - destruct H as (H1 & H2 & H3). split; [auto|]. right. ssplit; auto. rewrite H1. apply round_ge_generic; [apply FLT_exp_valid; reflexivity|apply valid_rnd_round_mode|apply generic_format_B2R|].
    pose proof (sign_pos Fw Sw). lra.
  - destruct H as (H1 & H2). rewrite H2, Sw in H1. destruct (t +d w) as [|[]| |]; try discriminate. auto.
Qed.
Lemma minus_num (a b : f64) : dfin a = true -> dfin b = true -> is_nan (a -d b) = false.
Proof.
  intros Fa Fb. pose proof (Bminus_correct 53 1024 _ _ mode_NE a b Fa Fb) as H. destruct (Rlt_bool _ _).
  - destruct H as (_ & H & _). destruct (a -d b); try discriminate; reflexivity.
  - destruct H as (H & _). destruct (a -d b) as [|[]| |]; try reflexivity. discriminate.
Qed.
Lemma lse2_ge t v : decent -> topped t -> dfin v = true -> topped (lse2 t v) /\ le64 t (lse2 t v) /\ le64 v (lse2 t v).
Proof.
  intros (HN & HM & HL1 & HE & HL) Tt Fv.
  assert (G : forall a b : f64, dfin a = true -> dfin b = true -> let r := a +d l_wln M (f64_of_Z 1 +d l_wexp M (b -d a)) in topped r /\ le64 a r).
  { intros a b Fa Fb. cbv zeta. destruct (HE _ (minus_num Fb Fa)) as (E1 & E2). destruct (one_plus E1 E2) as (O1 & O2). destruct (HL _ O1 O2). apply plus_ge; auto. right; auto. }
  unfold lse2, LseAcc.lse2. destruct Tt as [-> |Ft].
  - assert (Bltb v (dinf false) = true) as -> by (destruct v as [|[]| |[]]; try discriminate; reflexivity).
    assert (v -d dinf false = dinf true) as -> by (destruct v as [|[]| |[]]; try discriminate; reflexivity). rewrite HM, one_zero, HL1. cbn. unfold topped, le64. auto.
  - rewrite (Bltb_correct _ _ _ _ Fv Ft). destruct (Rlt_bool_spec (dval v) (dval t)) as [H|H].
    + destruct (G t v Ft Fv) as (A & B). ssplit; auto. eapply le64_trans; [|exact B]. right. ssplit; auto. lra.
    + destruct (G v t Fv Ft) as (A & B). ssplit; auto. eapply le64_trans; [|exact B]. right. ssplit; auto.
Qed.
Lemma lse_list_ge l : decent -> forall t, topped t -> Forall (fun x => finite x = true) l ->
  topped (lse_list t l) /\ le64 t (lse_list t l) /\ Forall (fun x => le64 (f64_of_f32 x) (lse_list t l)) l.
Proof.
  intros HD. induction l as [|x l IH]; intros t Tt HF; cbn [LseAcc.lse_list].
  - ssplit; auto. destruct Tt as [-> |Ft]; [left; auto|right; ssplit; auto; lra].
  - inversion_clear HF as [|? ? Fx HF']. destruct (widen_finite Fx) as (W1 & _). destruct (lse2_ge HD Tt W1) as (A & B & C). destruct (IH _ A HF') as (I1 & I2 & I3).
    ssplit; auto; [eapply le64_trans; eauto|]. constructor; auto. eapply le64_trans; eauto.
Qed.
Lemma narrow_ge (x : f32) t : finite x = true -> le64 (f64_of_f32 x) t -> Bleb x (f32_of_f64 t) = true.
Proof.
  intros Fx [-> |(_ & Ft & H)]; [destruct x as [|[]| |[]]; try discriminate; reflexivity|]. destruct (widen_finite Fx) as (_ & W2 & _). rewrite W2 in H.
  assert (G : (finite (f32_of_f64 t) = true /\ (val x <= val (f32_of_f64 t))%R) \/ f32_of_f64 t = B754_infinity false).
  { destruct t as [s|s| |s q e He]; try discriminate; [left; auto|]. cbn [f32_of_f64].
    pose proof (binary_normalize_correct 24 128 eq_refl eq_refl mode_NE (cond_Zopp s (Zpos q)) e s) as Q. cbv zeta in Q. rewrite rnd_fexp in Q. cbn [B2R] in * .
    assert (L : (val x <= rnd (F2R (Defs.Float radix2 (cond_Zopp s (Z.pos q)) e)))%R) by (apply round_ge_generic; [apply FLT_exp_valid; reflexivity|apply valid_rnd_N|apply format32|exact H]).
    destruct (Rlt_bool_spec (Rabs (rnd (F2R (Defs.Float radix2 (cond_Zopp s (Z.pos q)) e)))) (bpow radix2 128)) as [B|B].
    - destruct Q as (Q1 & Q2 & _). left. split; [exact Q2|]. rewrite Q1. exact L.
    - right. revert Q. rewrite Rlt_bool_false.
      + intros Q. apply B2SF_inj. exact Q.
      + apply Rnot_lt_le. intros N. pose proof (abs_B2R_lt_emax 24 128 x) as X. apply Rabs_lt_inv in X.
        assert (rnd (F2R (Defs.Float radix2 (cond_Zopp s (Z.pos q)) e)) <= 0)%R.
        { replace 0%R with (rnd 0) by (apply round_0; apply valid_rnd_N). apply round_le; [apply FLT_exp_valid; reflexivity|apply valid_rnd_N|lra]. }
        rewrite Rabs_left1 in B by auto. lra. }
  destruct G as [(G1 & G2)| -> ]; [|destruct x as [|[]| |[]]; try discriminate; reflexivity].
  rewrite (Bleb_correct _ _ _ _ Fx G1). apply Rle_bool_true. exact G2.
Qed.
(** logsumexp of finite numbers is a number (or overflows to infinity), and at least as large as each of them *)
Theorem C64_upper_bound_of_line : decent -> forall d (al : alloc_oracle K) x dim, al_ok al -> ready d x -> N.to_nat dim < 8 ->
  exists s y, without (t_shape x) (N.to_nat dim) s /\ t_logsumexp m al x dim = Ok y /\ ready d y /\ t_shape y = s /\
    forall c b, inb s c -> b < bat s -> let f := fun j => at_ x (cset c (N.to_nat dim) j) b in let n := ext (t_shape x) (N.to_nat dim) in
      (forall j, j < n -> finite (f j) = true) -> forall j, j < n -> Bleb (f j : f32) (at_ y c b) = true.
Proof.
  intros HD d al x dim HA HR Hd. destruct (C64_logsumexp HA HR Hd) as (s & W & y & E & Ry & Sy & Y). exists s, y. ssplit; auto.
  intros c b Hc Hb f n HF j Hj. rewrite Y by auto. fold f n. unfold line_of. assert (Hn : 1 <= n) by apply (ext_pos _ (ready_wf HR)).
  replace (seq 0 n) with (0 :: seq 1 (n - 1)) by (destruct n as [|k]; [lia|]; cbn; rewrite Nat.sub_0_r; reflexivity). cbn [map LseAcc.lse].
  destruct (widen_finite (HF 0 Hn)) as (W1 & _). destruct (@lse_list_ge (map f (seq 1 (n - 1))) HD (f64_of_f32 (f 0))) as (I1 & I2 & I3); [right; exact W1| |].
  { apply Forall_forall. intros v Hv. apply in_map_iff in Hv. destruct Hv as (i & <- & Hi). apply in_seq in Hi. apply HF. lia. }
  apply narrow_ge; [apply HF; auto|]. destruct j as [|j]; [exact I2|]. rewrite Forall_forall in I3. apply I3. apply in_map. apply in_seq. lia.
Qed.
End C64.

(** ** A library whose exp and ln are rounded correctly *)
Definition to64 (x : R) : f64 := binary_normalize 53 1024 eq_refl eq_refl mode_NE
  (ZnearestE (scaled_mantissa radix2 (FLT_exp (-1074) 53) x)) (cexp radix2 (FLT_exp (-1074) 53) x) false.
Definition exp64 (x : f64) : f64 := match x with B754_nan => B754_nan | B754_infinity s => if s then B754_zero false else B754_infinity false | _ => to64 (exp (B2R x)) end.
Definition ln64 (x : f64) : f64 :=
  match x with B754_nan => B754_nan | B754_infinity s => if s then B754_nan else B754_infinity false | B754_zero _ => B754_infinity true
  | B754_finite s _ _ _ => if s then B754_nan else to64 (ln (B2R x)) end.
Definition libm_r : libm := mkLibm (fun x => x) (fun x => x) (fun x => x) (fun x => x) (fun x => x) (fun x => x) (fun x _ => x) (fun x _ => x) exp64 ln64.
Section LibmR.
Open Scope R_scope.
Lemma to64_F2R x : F2R (Defs.Float radix2 (ZnearestE (scaled_mantissa radix2 (FLT_exp (-1074) 53) x)) (cexp radix2 (FLT_exp (-1074) 53) x)) = rndd x.
Proof. reflexivity. Qed.
Lemma rndd_twice x : rndd (rndd x) = rndd x.
Proof. apply rndd_id. apply generic_format_round; [apply FLT_exp_valid; reflexivity|apply valid_rnd_N]. Qed.
Lemma to64_small x : Rabs x <= 2 ^ 90 -> dfin (to64 x) = true /\ dval (to64 x) = rndd x.
Proof.
  intros H. unfold to64. pose proof (binary_normalize_correct 53 1024 eq_refl eq_refl mode_NE (ZnearestE (scaled_mantissa radix2 (FLT_exp (-1074) 53) x)) (cexp radix2 (FLT_exp (-1074) 53) x) false) as Q.
  cbv zeta in Q. rewrite to64_F2R, rndd_fexp, rndd_twice in Q. rewrite Rlt_bool_true in Q; [destruct Q as (Q1 & Q2 & _); auto|].
  apply Rle_lt_trans with (2 ^ 90); [|rewrite pow_IZR; unfold bpow; apply IZR_lt; reflexivity]. unfold rndd. apply abs_round_le_generic; [apply FLT_exp_valid; reflexivity|apply valid_rnd_N| |exact H].
  rewrite pow_IZR. change (IZR (2 ^ Z.of_nat 90)) with (bpow radix2 90). apply generic_format_bpow. unfold FLT_exp. lia.
Qed.
Lemma to64_pos x : 0 <= x -> is_nan (to64 x) = false /\ Bsign (to64 x) = false.
Proof.
  intros H. unfold to64. pose proof (binary_normalize_correct 53 1024 eq_refl eq_refl mode_NE (ZnearestE (scaled_mantissa radix2 (FLT_exp (-1074) 53) x)) (cexp radix2 (FLT_exp (-1074) 53) x) false) as Q.
  cbv zeta in Q. rewrite to64_F2R, rndd_fexp, rndd_twice in Q. assert (P : 0 <= rndd x) by (rewrite <- rndd_0; apply rndd_le; auto).
  set (z := binary_normalize 53 1024 eq_refl eq_refl mode_NE _ _ false) in * . clearbody z. destruct (Rlt_bool _ _).
  - destruct Q as (_ & Q2 & Q3). split; [destruct z; try discriminate; reflexivity|]. rewrite Q3. destruct (Rcompare_spec (rndd x) 0); auto. lra.
  - rewrite Rlt_bool_false in Q by auto. destruct z as [|[]| |]; try discriminate. auto.
Qed.
Lemma rndd_err x : 0 <= x <= 1 -> Rabs (rndd x - x) <= / 2 ^ 52.
Proof.
  intros H. unfold rndd. pose proof (relative_error_N_FLT'_ex radix2 (-1074) 53 ltac:(reflexivity) (fun n => negb (Z.even n)) x) as (eps & et & H1 & H2 & _ & H3).
  rewrite H3. replace (x * (1 + eps) + et - x) with (x * eps + et) by ring. eapply Rle_trans; [apply Rabs_triang|]. rewrite Rabs_mult, (Rabs_pos_eq x) by lra.
  rewrite u_ro64 in H1. pose proof u64r_pos. assert (u64r / (1 + u64r) <= u64r). { apply Rmult_le_reg_r with (1 + u64r); [lra|]. unfold Rdiv. rewrite Rmult_assoc, Rinv_l by lra. nra. }
  assert (bpow radix2 (-1074) <= u64r). { unfold u64r. rewrite pow_IZR. change (/ IZR (2 ^ Z.of_nat 53)) with (bpow radix2 (-53)). apply bpow_le. lia. }
  replace (/ 2 ^ 52) with (2 * u64r) by (unfold u64r; change (2 ^ 53) with (2 * 2 ^ 52); field; apply pow_nonzero; lra). pose proof (Rabs_pos eps). nra.
Qed.
Lemma exp64_finite (x : f64) : dfin x = true -> exp64 x = to64 (exp (dval x)). Proof. destruct x; try discriminate; reflexivity. Qed.
Lemma ln64_pos (x : f64) : dfin x = true -> 0 < dval x -> ln64 x = to64 (ln (dval x)).
Proof. destruct x as [|?| |[] q e He]; try discriminate; intros _ H; cbn in H; try lra; [|reflexivity]. exfalso. apply (Rlt_not_le _ _ H). apply F2R_le_0. discriminate. Qed.
Lemma one_in (x : R) : 0 <= x <= 1 -> 0 <= rndd x <= 1.
Proof.
  intros H. assert (G1 : generic_format radix2 (FLT_exp (-1074) 53) 1) by (destruct one64 as (_ & <- & _); apply format64).
  split; [rewrite <- rndd_0|rewrite <- (rndd_id G1)]; apply rndd_le; lra.
Qed.
Lemma le_2_90 : 2 <= 2 ^ 90. Proof. change (2 ^ 90) with (2 * 2 ^ 89). assert (1 <= 2 ^ 89) by (apply pow_R1_Rle; lra). lra. Qed.
Theorem libm_r_accurate : accurate libm_r (/ 2 ^ 52).
Proof.
  pose proof le_2_90 as P90. split; intros x Fx Hx; cbn [l_wexp l_wln libm_r].
  - rewrite exp64_finite by auto. pose proof (exp_pos (dval x)). assert (exp (dval x) <= 1) by (rewrite <- exp_0; destruct Hx as [Hx| -> ]; [left; apply exp_increasing; auto|lra]).
    destruct (@to64_small (exp (dval x))) as (F & E); [rewrite Rabs_pos_eq by lra; lra|]. rewrite E. split; [exact F|]. split; [apply one_in; lra|apply rndd_err; lra].
  - rewrite ln64_pos by (auto; lra). assert (0 <= ln (dval x)). { rewrite <- ln_1. destruct (proj1 Hx) as [Q|Q]; [left; apply ln_increasing; lra|rewrite <- Q; lra]. }
    assert (ln (dval x) <= 1) by (pose proof (@ln_le1 (dval x) ltac:(lra)); lra).
    destruct (@to64_small (ln (dval x))) as (F & E); [rewrite Rabs_pos_eq by lra; lra|]. rewrite E. split; [exact F|]. split; [apply one_in; lra|apply rndd_err; lra].
Qed.
Theorem libm_r_decent : decent libm_r.
Proof.
  split; [split; reflexivity|]. split; [reflexivity|]. destruct one64 as (F1 & R1 & _). split; [|split]; cbn [l_wexp l_wln libm_r].
  - rewrite ln64_pos by (auto; rewrite R1; lra). rewrite R1, ln_1. destruct (@to64_small 0) as (F & E); [rewrite Rabs_R0; pose proof le_2_90; lra|].
    destruct (@to64_pos 0 (Rle_refl 0)) as (_ & S). rewrite rndd_0 in E. destruct (to64 0) as [s|?| |s q e He]; try discriminate; [cbn in S; subst; reflexivity|].
    exfalso. revert E. cbn [B2R]. apply F2R_neq_0. destruct s; discriminate.
  - intros v N. destruct (dfin v) eqn:F; [|destruct v as [|[]| |]; try discriminate; auto]. rewrite exp64_finite by auto. apply to64_pos. left. apply exp_pos.
  - intros v N L. destruct (dfin v) eqn:F; [|destruct v as [|[]| |]; try discriminate; auto]. rewrite (Bltb_correct _ _ _ _ F F1), R1 in L.
    destruct (Rlt_bool_spec (dval v) 1) as [Q|Q]; [discriminate|]. rewrite ln64_pos by (auto; lra). apply to64_pos. rewrite <- ln_1. destruct Q as [Q|Q]; [left; apply ln_increasing; lra|rewrite <- Q; lra].
Qed.
End LibmR.

(** ** Concrete cases *)
Notation KR := (Fnum libm_r).
Definition tr (l : list f32) : tensor KR := @mkTensor KR (Some 0) (sh [3]%N 1) (Some l) None.
Definition alr32 : alloc_oracle KR := fun n => if ((1 <=? n) && (n <=? 2147483648))%N then Ok (repeat qnan (N.to_nat n)) else Panic.
Lemma alr32_ok : al_ok alr32.
Proof. intros n. unfold alr32. destruct ((1 <=? n) && (n <=? 2147483648))%N; [|reflexivity]. eexists. split; [reflexivity|]. rewrite repeat_length. lia. Qed.
Lemma tr_ready a b c : ready 0 (tr [a; b; c]).
Proof.
  destruct (sh_wf [3]%N (b := 1) eq_refl eq_refl) as [W _]. split; [reflexivity|]. split; [split; [exact W|cbv; discriminate]|]. split; [reflexivity|].
  split; [split; [exact W|cbv; reflexivity]|]. split; [reflexivity|]. apply Nat.leb_le. reflexivity.
Qed.
(** the same numbers in another order: NaN in one, 5 in the other *)
Definition masked_front : tensor KR := tr [minf; minf; v32 5].
Definition masked_back : tensor KR := tr [v32 5; minf; minf].
Definition origin : nat -> nat := fun _ => 0.
Lemma at_tr a b c j : j < 3 -> at_ (tr [a; b; c]) (cset origin 0 j) 0 = nth j [a; b; c] (@B754_zero 24 128 false).
Proof. intros H. do 3 (destruct j as [|j]; [reflexivity|]). lia. Qed.
Lemma origin_inb s : wf s -> inb s origin. Proof. intros W i. pose proof (ext_pos i W). unfold origin. lia. Qed.
Lemma v5_plain : v32 5 <> B754_zero true /\ is_minf (v32 5) = false /\ is_nan (f32_of_f64 (f64_of_f32 (v32 5))) = false.
Proof. ssplit; try (vm_compute; reflexivity). intros H. apply (f_equal (@B2SF 24 128)) in H. vm_compute in H. discriminate. Qed.
(** the result depends on the order of the elements, beyond rounding *)
Theorem C64_order_of_elements_refuted : ~ forall M d (al : alloc_oracle (Fnum M)) (x x' : tensor (Fnum M)) y y', decent M -> al_ok al -> ready d x -> ready d x' -> t_shape x = t_shape x' ->
  Permutation (buf x) (buf x') -> t_logsumexp Release al x 0 = Ok y -> t_logsumexp Release al x' 0 = Ok y' -> at_ y origin 0 = at_ y' origin 0.
Proof.
  intros H. destruct v5_plain as (V1 & V2 & V3).
  destruct (@C64_broken_lines libm_r Release (proj1 libm_r_decent) 0 alr32 masked_front 0%N alr32_ok (tr_ready _ _ _) ltac:(cbv; lia)) as (s & y & W & E & Ry & Sy & Y).
  destruct (@C64_minus_infinity_ignored libm_r Release libm_r_decent 0 alr32 masked_back 0%N alr32_ok (tr_ready _ _ _) ltac:(cbv; lia)) as (s' & y' & W' & E' & Ry' & Sy' & Y').
  specialize (H libm_r 0 alr32 masked_front masked_back y y' libm_r_decent alr32_ok (tr_ready _ _ _) (tr_ready _ _ _) eq_refl).
  assert (EY : at_ y origin 0 = (B754_nan : f32)).
  { apply Y; [apply origin_inb; rewrite <- Sy; apply (ready_wf Ry)|rewrite <- Sy; apply (bat_pos (ready_wf Ry))|].
    right. left. cbn [N.to_nat]. change (ext (t_shape masked_front) 0) with 3. unfold masked_front. rewrite !at_tr by lia. split; [lia|]. split; reflexivity. }
  assert (EY' : at_ y' origin 0 = f32_of_f64 (f64_of_f32 (v32 5))).
  { rewrite Y'; [|apply origin_inb; rewrite <- Sy'; apply (ready_wf Ry')|rewrite <- Sy'; apply (bat_pos (ready_wf Ry'))| |].
    - cbn [N.to_nat]. change (ext (t_shape masked_back) 0) with 3. unfold line_of. cbn [map seq]. unfold masked_back. rewrite !at_tr by lia. cbn [nth].
      cbn [filter is_minf minf negb]. rewrite V2. reflexivity.
    - intros j Hj. cbn [N.to_nat]. change (j < 3) in Hj. unfold masked_back. rewrite at_tr by auto. do 3 (destruct j as [|j]; [cbn [nth]; try exact V1; discriminate|]). lia.
    - intros _. left. cbn [N.to_nat]. unfold masked_back. rewrite at_tr by lia. cbn [nth]. intros Q. rewrite Q in V2. discriminate. }
  rewrite EY, EY' in H. rewrite <- H in V3; [discriminate| |exact E|exact E'].
  apply (@perm_trans _ _ [v32 5; minf; minf]); [|apply Permutation_refl]. apply Permutation_sym. apply (Permutation_middle [minf; minf] [] (v32 5)).
Qed.
Example C64_applies : decent libm_r /\ accurate libm_r (/ 2 ^ 52) /\ al_ok alr32 /\ ready 0 masked_front /\ ready 0 masked_back /\
  broken_line (fun j => at_ masked_front (cset origin 0 j) 0) 3 /\ 
  (forall j, j < 3 -> at_ masked_back (cset origin 0 j) 0 <> (B754_zero true : f32)) /\ at_ masked_back (cset origin 0 0) 0 <> (B754_infinity true : f32) /\
  ready 0 (tr [v32 100; v32 (-3); v32 7]) /\
  tame (/ 2 ^ 52) 100 3 (fun j => at_ (tr [v32 100; v32 (-3); v32 7]) (cset origin 0 j) 0) /\ (lse_error (/ 2 ^ 52) 100 3 <= / 100000)%R.
Proof.
  destruct v5_plain as (V1 & V2 & V3). assert (E52 : (2 ^ 52 = 4503599627370496)%R) by (cbn; lra). assert (E53 : (2 ^ 53 = 9007199254740992)%R) by (cbn; lra).
  assert (E24 : (2 ^ 24 = 16777216)%R) by (cbn; lra). assert (I3 : INR 3 = 3%R) by (cbn; lra).
  split; [exact libm_r_decent|]. split; [exact libm_r_accurate|]. split; [exact alr32_ok|]. split; [apply tr_ready|]. split; [apply tr_ready|]. ssplit.
  - right. left. unfold masked_front. rewrite !at_tr by lia. split; [lia|]. split; reflexivity.
  - intros j Hj. unfold masked_back. rewrite at_tr by auto. do 3 (destruct j as [|j]; [cbn [nth]; try exact V1; discriminate|]). lia.
  - unfold masked_back. rewrite at_tr by lia. cbn [nth]. intros Q. rewrite Q in V2. discriminate.
  - apply tr_ready.
  - split; [|split].
    + intros j Hj. rewrite at_tr by auto. assert (G : forall z, (Z.abs z <= 100)%Z -> finite (v32 z) = true /\ (Rabs (val (v32 z)) <= 100)%R).
      { intros z Hz. destruct (@of_Z_int z) as (F & E); [lia|]. split; [exact F|]. unfold v32. rewrite E, <- abs_IZR. apply IZR_le. exact Hz. }
      do 3 (destruct j as [|j]; [cbn [nth]; apply G; lia|]). lia.
    + rewrite I3. unfold u64r. rewrite E52, E53. lra.
    + rewrite I3. change (2 ^ 80)%R with (2 ^ 28 * 2 ^ 52)%R || idtac. replace (2 ^ 80)%R with (2 ^ 28 * 2 ^ 52)%R by (rewrite <- pow_add; reflexivity). rewrite E52. assert (1 <= 2 ^ 28)%R by (apply pow_R1_Rle; lra). lra.
  - unfold lse_error. rewrite I3. unfold u64r, u32r, eta32. rewrite E52, E53, E24.
    assert (/ 2 ^ 150 <= / 4503599627370496)%R. { rewrite <- E52. apply Rinv_le_contravar; [apply pow_lt; lra|]. apply Rle_pow; [lra|lia]. }
    lra.
Qed.
