(** * Float32: IEEE 754 binary32 as an instance of [num]

    The kernels of /repo compute with f32 (f64 in logsumexp). Here [num] gets the
    IEEE operations of the Flocq library (round to nearest, ties to even; a single
    NaN). The functions of libm are not specified by IEEE: they are a parameter. *)
From Coq Require Import ZArith Reals Lra Psatz.
From Flocq Require Import Core IEEE754.BinarySingleNaN Plus_error Relative.
From Verif Require Import Num.
Set Implicit Arguments. Unset Strict Implicit.
Close Scope R_scope. Open Scope nat_scope.

Notation f32 := (binary_float 24 128).
Notation f64 := (binary_float 53 1024).
#[global] Instance prec24 : FLX.Prec_gt_0 24 := eq_refl.
#[global] Instance prec24_max : Prec_lt_emax 24 128 := eq_refl.
#[global] Instance prec53 : FLX.Prec_gt_0 53 := eq_refl.
#[global] Instance prec53_max : Prec_lt_emax 53 1024 := eq_refl.

(** exp, ln, ... of f32, exp and ln of f64 *)
Record libm := mkLibm {
  l_exp : f32 -> f32; l_ln : f32 -> f32; l_tanh : f32 -> f32; l_sin : f32 -> f32; l_cos : f32 -> f32; l_tan : f32 -> f32;
  l_powf : f32 -> f32 -> f32; l_powi : f32 -> Z -> f32; l_wexp : f64 -> f64; l_wln : f64 -> f64 }.

(** `as f32` of an integer *)
Definition f32_of_Z (z : Z) : f32 := binary_normalize 24 128 eq_refl eq_refl mode_NE z 0 false.
Definition f64_of_Z (z : Z) : f64 := binary_normalize 53 1024 eq_refl eq_refl mode_NE z 0 false.
(** `as f64`, `as f32` between floats *)
Definition f64_of_f32 (x : f32) : f64 :=
  match x with
  | B754_zero s => B754_zero s | B754_infinity s => B754_infinity s | B754_nan => B754_nan
  | B754_finite s q e _ => binary_normalize 53 1024 eq_refl eq_refl mode_NE (cond_Zopp s (Zpos q)) e s
  end.
Definition f32_of_f64 (x : f64) : f32 :=
  match x with
  | B754_zero s => B754_zero s | B754_infinity s => B754_infinity s | B754_nan => B754_nan
  | B754_finite s q e _ => binary_normalize 24 128 eq_refl eq_refl mode_NE (cond_Zopp s (Zpos q)) e s
  end.

Definition Fnum (M : libm) : num := {|
  F := f32; n0 := f32_of_Z 0; n1 := f32_of_Z 1;
  nhalf := binary_normalize 24 128 eq_refl eq_refl mode_NE 1 (-1) false;
  nc001 := binary_normalize 24 128 eq_refl eq_refl mode_NE 10737418 (-30) false;      (* 0x3c23d70a *)
  nadd := Bplus mode_NE; nsub := Bminus mode_NE; nmul := Bmult mode_NE; ndiv := Bdiv mode_NE;
  nneg := Bopp; nabs := Babs; nsqrt := Bsqrt mode_NE; nexp := l_exp M; nln := l_ln M;
  ntanh := l_tanh M; nsin := l_sin M; ncos := l_cos M; ntan := l_tan M;
  npowf := l_powf M; npowi := l_powi M;
  nlt := Bltb; nle := Bleb; neqb := Beqb;
  nofZ := f32_of_Z;
  W := f64; widen := f64_of_f32; narrow := f32_of_f64; w1 := f64_of_Z 1; wadd := Bplus mode_NE; wsub := Bminus mode_NE;
  wexp := l_wexp M; wln := l_wln M; wlt := Bltb |}.

(** ** Commutativity *)
Lemma mul_comm32 (x y : f32) : Bmult mode_NE x y = Bmult mode_NE y x.
Proof.
  apply B2SF_inj. destruct x as [sx|sx| |sx mx ex Hx], y as [sy|sy| |sy my ey Hy]; cbn; try (rewrite xorb_comm; reflexivity); auto.
  rewrite !B2SF_SF2B. rewrite (xorb_comm sx sy), (Pos.mul_comm mx my), (Z.add_comm ex ey). reflexivity.
Qed.
Lemma add_comm32 (x y : f32) : Bplus mode_NE x y = Bplus mode_NE y x.
Proof.
  destruct x as [sx|sx| |sx mx ex Hx], y as [sy|sy| |sy my ey Hy]; cbn; auto.
  - destruct sx, sy; reflexivity.
  - destruct sx, sy; reflexivity.
  - rewrite (Z.min_comm ex ey). unfold Fplus_naive. rewrite Z.add_comm. reflexivity.
Qed.

(** ** Order *)
(** f32 without NaN as numbers with two infinities *)
Definition rank (x : f32) : nat := match x with B754_infinity true => 0 | B754_infinity false => 2 | _ => 1 end.
Lemma ltb32 (x y : f32) : is_nan x = false -> is_nan y = false ->
  Bltb x y = true <-> rank x < rank y \/ (is_finite x = true /\ is_finite y = true /\ (B2R x < B2R y)%R).
Proof.
  intros Nx Ny. destruct (is_finite x) eqn:Fx, (is_finite y) eqn:Fy.
  - rewrite (Bltb_correct _ _ _ _ Fx Fy). assert (RX : rank x = 1) by (destruct x as [|[]| |]; try discriminate; reflexivity).
    assert (RY : rank y = 1) by (destruct y as [|[]| |]; try discriminate; reflexivity). rewrite RX, RY.
    destruct (Rlt_bool_spec (B2R x) (B2R y)) as [H|H]; split; auto; try discriminate. intros [Q|(_ & _ & Q)]; [lia|]. exfalso. lra.
  - destruct x as [?|[]| |[]], y as [?|[]| |[]]; try discriminate; cbn; split; intros; try discriminate; try (left; lia); try (destruct H as [H|(_ & H & _)]; [lia|discriminate]); auto.
  - destruct x as [?|[]| |[]], y as [?|[]| |[]]; try discriminate; cbn; split; intros; try discriminate; try (left; lia); try (destruct H as [H|(H & _ & _)]; [lia|discriminate]); auto.
  - destruct x as [?|[]| |[]], y as [?|[]| |[]]; try discriminate; cbn; split; intros; try discriminate; try (left; lia); try (destruct H as [H|(H & _ & _)]; [lia|discriminate]); auto.
Qed.
Lemma leb32 (x y : f32) : is_nan x = false -> is_nan y = false -> Bleb x y = negb (Bltb y x).
Proof.
  intros Nx Ny. unfold Bleb, Bltb, SpecFloat.SFleb, SpecFloat.SFltb.
  destruct (is_finite x) eqn:Fx, (is_finite y) eqn:Fy.
  - change (SpecFloat.SFcompare (B2SF x) (B2SF y)) with (Bcompare x y). change (SpecFloat.SFcompare (B2SF y) (B2SF x)) with (Bcompare y x).
    rewrite (Bcompare_correct _ _ _ _ Fx Fy), (Bcompare_correct _ _ _ _ Fy Fx), (Rcompare_sym (B2R y)). destruct (Rcompare (B2R x) (B2R y)); reflexivity.
  - destruct x as [?|[]| |[]], y as [?|[]| |[]]; try discriminate; reflexivity.
  - destruct x as [?|[]| |[]], y as [?|[]| |[]]; try discriminate; reflexivity.
  - destruct x as [?|[]| |[]], y as [?|[]| |[]]; try discriminate; reflexivity.
Qed.
Lemma rank_finite (x : f32) : is_nan x = false -> is_finite x = true <-> rank x = 1.
Proof. destruct x as [?|[]| |]; cbn; intuition congruence. Qed.
Lemma ltb_nan_l (x y : f32) : is_nan x = true -> Bltb x y = false.
Proof. destruct x; try discriminate. reflexivity. Qed.
Lemma ltb_nan_r (x y : f32) : is_nan y = true -> Bltb x y = false.
Proof. destruct y; try discriminate. destruct x as [?|[]| |[]]; reflexivity. Qed.
Lemma ltb_irrefl (x : f32) : Bltb x x = false.
Proof.
  destruct (is_nan x) eqn:N; [apply ltb_nan_l; auto|]. apply not_true_iff_false. rewrite ltb32 by auto. intros [H|(_ & _ & H)]; [lia|lra].
Qed.
(** negative transitivity, for numbers *)
Lemma leb_trans32 (x y z : f32) : is_nan x = false -> is_nan y = false -> is_nan z = false -> Bltb y x = false -> Bltb z y = false -> Bltb z x = false.
Proof.
  intros Nx Ny Nz H1 H2. apply not_true_iff_false. apply not_true_iff_false in H1, H2. intros H. rewrite ltb32 in * by auto.
  rewrite !rank_finite in * by auto. destruct (Nat.lt_trichotomy (rank z) (rank y)) as [C|[C|C]]; [tauto| |].
  - destruct (Nat.lt_trichotomy (rank y) (rank x)) as [D|[D|D]]; [tauto| |].
    + destruct H as [H|(F1 & F2 & H)]; [lia|]. assert (~ (B2R y < B2R x)%R) by (intros Q; apply H1; right; repeat split; auto; congruence).
      assert (~ (B2R z < B2R y)%R) by (intros Q; apply H2; right; repeat split; auto; congruence). lra.
    + destruct H as [H|(F1 & F2 & H)]; lia.
  - destruct (Nat.lt_trichotomy (rank y) (rank x)) as [D|[D|D]]; [tauto| |]; destruct H as [H|(F1 & F2 & H)]; lia.
Qed.
Lemma ltb_trans32 (x y z : f32) : is_nan x = false -> is_nan y = false -> is_nan z = false -> Bltb x y = true -> Bltb y z = true -> Bltb x z = true.
Proof.
  intros Nx Ny Nz H1 H2. rewrite ltb32 in * by auto. rewrite !rank_finite in * by auto.
  destruct H1 as [H1|(A1 & A2 & H1)], H2 as [H2|(B1 & B2 & H2)]; try (left; lia). right. repeat split; auto. lra.
Qed.
Lemma ltb_asym32 (x y : f32) : Bltb x y = true -> Bltb y x = false.
Proof.
  intros H. destruct (is_nan x) eqn:Nx; [rewrite ltb_nan_l in H by auto; discriminate|]. destruct (is_nan y) eqn:Ny; [rewrite ltb_nan_r in H by auto; discriminate|].
  apply not_true_iff_false. intros H'. pose proof (ltb_trans32 Nx Ny Nx H H') as Q. rewrite ltb_irrefl in Q. discriminate.
Qed.
