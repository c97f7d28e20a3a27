(** * BwSem: what the backward code of each operator adds to the gradients of its arguments *)
From Verif Require Export Typed.
From Verif Require Import PropsElem.
Set Implicit Arguments.
Unset Strict Implicit.

Section BwSem.
Variable K : num.
Notation F := (F K).
Notation tensor := (tensor K).
Notation kind := (kind K).
Notation coord' := (nat -> nat).
Notation nat32 x := (N.to_nat x).
Notation "x +. y" := (nadd K x y) (at level 50, left associativity).
Notation "x -. y" := (nsub K x y) (at level 50, left associativity).
Notation "x *. y" := (nmul K x y) (at level 40, left associativity).
Notation "x /. y" := (ndiv K x y) (at level 40, left associativity).
Notation "-. x" := (nneg K x) (at level 35, right associativity).

(** ** Specification *)
(** what happens to one element of a gradient *)
Inductive contrib := Plus (g : F) | Minus (g : F) | Nothing.
Definition apply_c (w : contrib) (v : F) : F := match w with Plus g => v +. g | Minus g => v -. g | Nothing => v end.
(** one update: the gradient it goes to, and for each of [p_bat] minibatch elements
    the change of the element with the given coordinate; a gradient with batch 1
    collects all the minibatch elements *)
Record part := mkPart { p_to : target; p_bat : nat; p_val : coord' -> nat -> contrib }.

(** gradient formulas of the elementwise operators; arguments x, y, gy *)
Definition ubw (k : kind) : option (F -> F -> F -> F) :=
  match k with
  | KAddConst k => Some (fun x y gy => gy)
  | KSubConstL k => Some (fun x y gy => -. gy)
  | KSubConstR k => Some (fun x y gy => gy)
  | KMulConst k => Some (fun x y gy => k *. gy)
  | KDivConstL k => Some (fun x y gy => -. gy *. y /. x)
  | KDivConstR k => Some (fun x y gy => gy /. k)
  | KPowConstL k => Some (fun x y gy => gy *. nln K k *. y)
  | KPowConstR k => Some (fun x y gy => gy *. k *. npowf K x (k -. n1))
  | KPowi k => Some (fun x y gy => gy *. nofZ K k *. npowi K x (k - 1))
  | KAbs => Some (fun x y gy => gy *. nofZ K ((if nlt K n0 x then 1 else 0) - (if nlt K x n0 then 1 else 0))%Z)
  | KSqrt => Some (fun x y gy => gy *. nhalf /. y)
  | KCos => Some (fun x y gy => -. gy *. nsin K x) | KSin => Some (fun x y gy => gy *. ncos K x)
  | KTan => Some (fun x y gy => gy *. (n1 +. y *. y)) | KExp => Some (fun x y gy => gy *. y)
  | KLn => Some (fun x y gy => gy /. x) | KTanh => Some (fun x y gy => gy *. (n1 -. y *. y))
  | KSigmoid => Some (fun x y gy => gy *. y *. (n1 -. y))
  | KSoftplus => Some (fun x y gy => (nhalf +. nhalf *. ntanh K (nhalf *. x)) *. gy)
  | KELU k | KPReLU k => Some (fun x y gy => gy *. (nofZ K (if nlt K n0 x then 1 else 0)%Z +. nofZ K (if nle K x n0 then 1 else 0)%Z *. k))
  | _ => None
  end.
(** a, b, y, gy *)
Definition bbw_a (k : kind) : option (F -> F -> F -> F -> contrib) :=
  match k with
  | KAdd | KSub => Some (fun a b y gy => Plus gy)
  | KMul => Some (fun a b y gy => Plus (b *. gy))
  | KDiv => Some (fun a b y gy => Plus (gy /. b))
  | KPow => Some (fun a b y gy => Plus (gy *. b *. npowf K a (b -. n1)))
  | _ => None
  end.
Definition bbw_b (k : kind) : option (F -> F -> F -> F -> contrib) :=
  match k with
  | KAdd => Some (fun a b y gy => Plus gy)
  | KSub => Some (fun a b y gy => Minus gy)
  | KMul => Some (fun a b y gy => Plus (a *. gy))
  | KDiv => Some (fun a b y gy => Minus (gy *. y /. b))
  | KPow => Some (fun a b y gy => Plus (gy *. nln K a *. y))
  | _ => None
  end.
(** x, k, y, gy *)
Definition sbw_x (k : kind) : option (F -> F -> F -> F -> contrib) :=
  match k with
  | KAddScalar | KSubScalarR => Some (fun x k y gy => Plus gy)
  | KSubScalarL => Some (fun x k y gy => Minus gy)
  | KMulScalar => Some (fun x k y gy => Plus (k *. gy))
  | KDivScalarL => Some (fun x k y gy => Minus (gy /. x *. y))
  | KDivScalarR => Some (fun x k y gy => Plus (gy /. k))
  | KPowScalarL => Some (fun x k y gy => Plus (gy *. y *. nln K k))
  | KPowScalarR => Some (fun x k y gy => Plus (gy *. y *. k /. x))
  | _ => None
  end.
(** the same for the scalar: sign, and the value to be summed over the elements *)
Definition sbw_k (k : kind) : option (bool * (F -> F -> F -> F -> F)) :=
  match k with
  | KAddScalar | KSubScalarL => Some (true, fun x k y gy => gy)
  | KSubScalarR => Some (false, fun x k y gy => gy)
  | KMulScalar => Some (true, fun x k y gy => x *. gy)
  | KDivScalarL => Some (true, fun x k y gy => gy /. x)
  | KDivScalarR => Some (false, fun x k y gy => gy /. k *. y)
  | KPowScalarL => Some (true, fun x k y gy => gy *. y *. x /. k)
  | KPowScalarR => Some (true, fun x k y gy => gy *. y *. nln K x)
  | _ => None
  end.
(** sum over the elements of one minibatch element, in storage order *)
Definition flat (s : shape) (f : coord' -> F) : F := red (nadd K) n0 (fun p => f (coord (ext s) 8 p)) (vol s).
Definition signed (s : bool) (g : F) : contrib := if s then Plus g else Minus g.

Fixpoint cat_parts (gy : tensor) (e i off : nat) (xs : list tensor) : list part :=
  match xs with
  | [] => []
  | x :: xs' => mkPart (Arg i) (bat (t_shape gy)) (fun c n => Plus (at_ gy (cset c e (c e + off)) n))
      :: cat_parts gy e (S i) (off + ext (t_shape x) e) xs'
  end.
Fixpoint bcat_parts (gy : tensor) (i off : nat) (xs : list tensor) : list part :=
  match xs with
  | [] => []
  | x :: xs' => mkPart (Arg i) (bat (t_shape x)) (fun c n => Plus (at_ gy c (off + n)))
      :: bcat_parts gy (S i) (off + bat (t_shape x)) xs'
  end.
Definition slice_val (gy : tensor) (e lo : nat) (c : coord') (n : nat) : contrib :=
  if (lo <=? c e) && (c e <? lo + ext (t_shape gy) e) then Plus (at_ gy (cset c e (c e - lo)) n) else Nothing.
Definition extremum_val (x y gy : tensor) (e : nat) (c : coord') (n : nat) : contrib :=
  match first_eq K (line x e c n) (at_ y (cset c e 0) n) (ext (t_shape x) e) 0 with
  | Some j => if j =? c e then Plus (at_ gy (cset c e 0) n) else Nothing
  | None => Nothing
  end.

Definition bwsem (k : kind) (xs ys gys : list tensor) : list part :=
  let x := arg xs 0 in let z := arg xs 1 in let y := arg ys 0 in let gy := arg gys 0 in
  let B := bat (t_shape y) in
  match k with
  | KInput _ | KInputOwner _ => []
  | KParameter _ => [mkPart Own B (fun c n => Plus (at_ gy c n))]
  | KBroadcast d _ => [mkPart (Arg 0) B (fun c n => Plus (red (nadd K) n0 (line gy (nat32 d) c n) (ext (t_shape gy) (nat32 d))))]
  | KSum d => [mkPart (Arg 0) B (fun c n => Plus (at_ gy (cset c (nat32 d) 0) n))]
  | KLogsumexp d => [mkPart (Arg 0) B (fun c n => Plus (nexp K (at_ x c n -. at_ y (cset c (nat32 d) 0) n) *. at_ gy (cset c (nat32 d) 0) n))]
  | KMax d | KMin d => [mkPart (Arg 0) B (extremum_val x y gy (nat32 d))]
  | KSoftmaxCrossEntropy d =>
      [mkPart (Arg 0) B (fun c n => Plus ((nexp K (lsm x (nat32 d) c (bsel (t_shape x) n)) -. at_ z c (bsel (t_shape z) n)) *. at_ gy (cset c (nat32 d) 0) n));
       mkPart (Arg 1) B (fun c n => Minus (lsm x (nat32 d) c (bsel (t_shape x) n) *. at_ gy (cset c (nat32 d) 0) n))]
  | KSparseSoftmaxCrossEntropy ids d =>
      [mkPart (Arg 0) B (fun c n => Plus (nexp K (lsm x (nat32 d) c (bsel (t_shape x) n)) *. at_ gy (cset c (nat32 d) 0) n));
       mkPart (Arg 0) B (fun c n => if pid ids n =? c (nat32 d) then Plus (-. at_ gy (cset c (nat32 d) 0) n) else Nothing)]
  | KMatmul =>
      [mkPart (Arg 0) B (fun c n => Plus (blocksum K (fun j => at_ gy (c2 (c 0) j) n *. at_ z (c2 (c 1) j) (bsel (t_shape z) n)) (ext (t_shape z) 1)));
       mkPart (Arg 1) B (fun c n => Plus (blocksum K (fun i => at_ x (c2 i (c 0)) (bsel (t_shape x) n) *. at_ gy (c2 i (c 1)) n) (ext (t_shape x) 0)))]
  | KTranspose => [mkPart (Arg 0) B (fun c n => Plus (at_ gy (c2 (c 1) (c 0)) n))]
  | KTriangularL k => [mkPart (Arg 0) B (fun c n => Plus (if (N.of_nat (c 1%nat) + k <=? N.of_nat (c 0%nat))%N then at_ gy c n else n0))]
  | KTriangularU k => [mkPart (Arg 0) B (fun c n => Plus (if (N.of_nat (c 0%nat) + k <=? N.of_nat (c 1%nat))%N then at_ gy c n else n0))]
  | KPick ids d => [mkPart (Arg 0) B (fun c n => if pid ids n =? c (nat32 d) then Plus (at_ gy (cset c (nat32 d) 0) n) else Nothing)]
  | KSlice d l _ => [mkPart (Arg 0) B (slice_val gy (nat32 d) (nat32 l))]
  | KSplit d n => map (fun i => mkPart (Arg 0) B (slice_val (arg gys i) (nat32 d) (i * (ext (t_shape x) (nat32 d) / nat32 n)))) (seq 0 (nat32 n))
  | KBatchConcat => bcat_parts gy 0 0 xs
  | KConcat d => cat_parts gy (nat32 d) 0 0 xs
  | KBatchSum => [mkPart (Arg 0) (bat (t_shape x)) (fun c n => Plus (at_ gy c 0))]
  | KReshape _ => [mkPart (Arg 0) (bat (t_shape x)) (fun c n => Plus (nth0 (buf gy) (pos (t_shape x) c n)))]
  | k =>
    match ubw k with Some h => [mkPart (Arg 0) B (fun c n => Plus (h (at_ x c n) (at_ y c n) (at_ gy c n)))] | None =>
    match bbw_a k, bbw_b k with Some ha, Some hb =>
      let v h := fun c n => h (at_ x c (bsel (t_shape x) n)) (at_ z c (bsel (t_shape z) n)) (at_ y c n) (at_ gy c n) in
      [mkPart (Arg 0) B (v ha); mkPart (Arg 1) B (v hb)] | _, _ =>
    match sbw_x k, sbw_k k with Some hx, Some (sg, hk) =>
      [mkPart (Arg 0) B (fun c n => hx (at_ x c (bsel (t_shape x) n)) (at_ z czero (bsel (t_shape z) n)) (at_ y c n) (at_ gy c n));
       mkPart (Arg 1) B (fun _ n => signed sg (flat (t_shape y) (fun c => hk (at_ x c (bsel (t_shape x) n)) (at_ z czero (bsel (t_shape z) n)) (at_ y c n) (at_ gy c n))))]
    | _, _ => [] end end end
  end.

(** the operators whose backward code works, and the sizes its intermediate results need *)
Definition has_bw (k : kind) (ss rs : list shape) : Prop :=
  match k with
  | KNeg | KBatchPick _ | KBatchSlice _ _ | KBatchSplit _ => False
  | KSum d | KLogsumexp d => forall x, ss = [x] -> nat32 d < depth x
  | KPowi n => (n <> -2147483648)%Z
  | KMatmul => forall a b y, ss = [a; b] -> rs = [y] -> (N.of_nat (bat y * vol a) <= 2147483648)%N /\ (N.of_nat (bat y * vol b) <= 2147483648)%N
  | KSparseSoftmaxCrossEntropy _ _ => forall x y, ss = [x] -> rs = [y] -> (N.of_nat (bat y * vol x) <= 2147483648)%N
  | _ => True
  end.
(** the shape of the gradient an update goes to *)
Definition target_shape (xs ys : list tensor) (t : target) : shape :=
  match t with Arg j => t_shape (arg xs j) | Own => t_shape (arg ys 0) end.

(** ** Proof that the code does this *)
Variable m : build.
Variable d : nat.
Variable bal : nat -> alloc_oracle K.
Hypothesis HA : forall i, al_ok (bal i).
Hypothesis HC : commutes K.

Definition does (f : tensor -> res tensor) (s : shape) (B : nat) (h : coord' -> nat -> contrib) : Prop :=
  forall gx, ready d gx -> t_shape gx = s -> writes (f gx) gx (fun c q => acc_batches K s B q (fun n v => apply_c (h c n) v) (at_ gx c q)).
Definition updates_are (us : list (update K)) (xs ys : list tensor) (ps : list part) : Prop :=
  Forall2 (fun u p => fst u = p_to p /\ does (snd u) (target_shape xs ys (p_to p)) (p_bat p) (p_val p)) us ps.

Lemma does_ext f s B h h' : does f s B h -> (forall c n, inb s c -> n < B -> h c n = h' c n) -> does f s B h'.
Proof.
  intros H E gx HR ES. eapply writes_ext; [apply H; auto|]. intros c b Hc Hb. cbv beta. apply acc_ext. intros n w Hn. rewrite E; auto. rewrite <- ES; auto.
Qed.
Lemma does1 f s h : wf s -> (forall gx, ready d gx -> t_shape gx = s -> writes (f gx) gx (fun c b => apply_c (h c b) (at_ gx c b))) -> does f s (bat s) h.
Proof.
  intros W H gx HR ES. eapply writes_ext; [apply H; auto|]. intros c b Hc Hb. cbv beta. rewrite ES in Hb. rewrite acc_batches_id; auto.
Qed.

(** += and -= of a computed tensor *)
Lemma plus_does e s s' f B : yields e d s f -> (forall i, ext s i = ext s' i) -> (bat s' = 1 \/ bat s' = bat s) -> B = bat s ->
  does (plus m e) s' B (fun c n => Plus (f c n)).
Proof.
  intros (t & E & HT) HE HB -> gx HR ES. unfold plus. rewrite E. cbn [bind]. subst s'. apply (add_assign_of m HR HT); auto.
Qed.
Lemma sub_assign_of s f (t gx : tensor) : ready d gx -> is_tensor d s f t -> (forall i, ext s i = ext (t_shape gx) i) ->
  (bat (t_shape gx) = 1 \/ bat (t_shape gx) = bat s) ->
  writes (t_sub_assign m gx t) gx (fun c q => acc_batches K (t_shape gx) (bat s) q (fun n v => nsub K v (f c n)) (at_ gx c q)).
Proof.
  intros Hg Ht HE HB. pose proof (is_tensor_shape Ht) as Es. pose proof (is_tensor_ready Ht) as Hr.
  eapply writes_ext; [eapply sub_assign_writes; [exact Hr|exact Hg|]|].
  - split; rewrite Es; auto. lia.
  - intros c q Hc Hq. cbv beta. rewrite Es. pose proof (bat_pos (ready_wf Hg)). pose proof (bat_pos (ready_wf Hr)) as P. rewrite Es in P.
    replace (Nat.max (bat s) (bat (t_shape gx))) with (bat s) by lia. apply acc_ext. intros n w Hn. f_equal.
    rewrite (is_tensor_at Ht); auto.
    + f_equal. unfold bsel. destruct (Nat.eqb_spec (bat s) 1); lia.
    + intros i. rewrite HE. apply Hc.
    + unfold bsel. destruct (Nat.eqb_spec (bat s) 1); lia.
Qed.
Lemma minus_does e s s' f B : yields e d s f -> (forall i, ext s i = ext s' i) -> (bat s' = 1 \/ bat s' = bat s) -> B = bat s ->
  does (minus m e) s' B (fun c n => Minus (f c n)).
Proof.
  intros (t & E & HT) HE HB -> gx HR ES. unfold minus. rewrite E. cbn [bind]. subst s'. apply (sub_assign_of HR HT); auto.
Qed.

(** operands of the arithmetic operators inside of backward code *)
Definition opd (s : shape) (t : tensor) (f : coord' -> nat -> F) : Prop :=
  ready d t /\ (is_scalar (t_shape t) = true \/ (forall i, ext (t_shape t) i = ext s i)) /\ (bat (t_shape t) = 1 \/ bat (t_shape t) = bat s) /\
  forall c n, inb s c -> n < bat s -> opnd t c n = f c n.
Lemma opd_full s f t : is_tensor d s f t -> opd s t f.
Proof.
  intros (HR & ES & HV). subst s. split; auto. split; auto. split; auto. intros c n Hc Hn. rewrite (opnd_same HR Hc Hn). auto.
Qed.
Lemma opd_over s (t : tensor) : ready d t -> (forall i, ext (t_shape t) i = ext s i) -> (bat (t_shape t) = 1 \/ bat (t_shape t) = bat s) ->
  opd s t (fun c n => at_ t c (bsel (t_shape t) n)).
Proof. intros HR HE HB. split; auto. split; auto. split; auto. intros c n Hc Hn. apply (opnd_in _ HR). intros i. rewrite HE. apply Hc. Qed.
Lemma opd_scalar s (t : tensor) : ready d t -> is_scalar (t_shape t) = true -> (bat (t_shape t) = 1 \/ bat (t_shape t) = bat s) ->
  opd s t (fun c n => at_ t czero (bsel (t_shape t) n)).
Proof. intros HR HE HB. split; auto. split; auto. split; auto. intros c n Hc Hn. apply opnd_scalar; auto. Qed.
Lemma opd_ext s t f g : opd s t f -> (forall c n, inb s c -> n < bat s -> f c n = g c n) -> opd s t g.
Proof. intros (H1 & H2 & H3 & H4) H. split; auto. split; auto. split; auto. intros. rewrite H4; auto. Qed.
Lemma bin_opd s a b fa fb : wf s -> opd s a fa -> opd s b fb -> (t_shape a = s \/ t_shape b = s) -> bin_ok (t_shape a) (t_shape b) s.
Proof.
  intros W (Ha & A1 & A2 & _) (Hb & B1 & B2 & _) HF. pose proof (bat_pos (ready_wf Ha)). pose proof (bat_pos (ready_wf Hb)).
  split; [intros S1 S2 i; destruct A1 as [A1|A1], B1 as [B1|B1]; congruence|]. split; [lia|]. split; auto. split; [|destruct HF as [E|E]; rewrite E in * ; lia].
  intros i. destruct (is_scalar (t_shape a)) eqn:SA.
  - destruct B1 as [B1|B1]; auto. destruct HF as [E|E]; [|rewrite E; auto]. rewrite (scalar_ext (ready_wf Hb) B1), <- E. apply (scalar_ext (ready_wf Ha) SA).
  - destruct A1 as [A1|A1]; [congruence|auto].
Qed.
Lemma mul_opd al s a b fa fb : al_ok al -> fits s -> opd s a fa -> opd s b fb -> bin_ok (t_shape a) (t_shape b) s ->
  yields (t_mul m al a b) d s (fun c n => fa c n *. fb c n).
Proof.
  intros Hal HF (Ha & _ & _ & VA) (Hb & _ & _ & VB) HB. eapply yields_ext; [apply t_mul_yields; eauto|].
  intros c n Hc Hn. cbv beta. rewrite VA, VB by auto. destruct (is_scalar (t_shape a)); auto.
Qed.
Lemma div_opd al s a b fa fb : al_ok al -> fits s -> opd s a fa -> opd s b fb -> bin_ok (t_shape a) (t_shape b) s ->
  yields (t_div m al a b) d s (fun c n => fa c n /. fb c n).
Proof.
  intros Hal HF (Ha & _ & _ & VA) (Hb & _ & _ & VB) HB. eapply yields_ext; [apply t_div_yields; eauto|].
  intros c n Hc Hn. cbv beta. rewrite VA, VB by auto. auto.
Qed.
Lemma sub_opd al s a b fa fb : al_ok al -> fits s -> opd s a fa -> opd s b fb -> bin_ok (t_shape a) (t_shape b) s ->
  yields (t_sub m al a b) d s (fun c n => fa c n -. fb c n).
Proof.
  intros Hal HF (Ha & _ & _ & VA) (Hb & _ & _ & VB) HB. eapply yields_ext; [apply t_sub_yields; eauto|].
  intros c n Hc Hn. cbv beta. rewrite VA, VB by auto. auto.
Qed.

Lemma flat_ext s f g : wf s -> (forall c, inb s c -> f c = g c) -> flat s f = flat s g.
Proof.
  intros W H. apply red_ext. intros p Hp. apply H. destruct (@coord_spec (ext s) 8 p (fun i => ext_pos i W) Hp) as (H1 & H2 & _).
  intros i. destruct (Nat.lt_ge_cases i 8) as [L|L]; [auto|]. rewrite H2 by auto. rewrite ext_ge8; auto.
Qed.
Lemma flat_sum_yields al0 al1 s t f : al_ok al0 -> al_ok al1 -> is_tensor d s f t ->
  exists s1, (forall i, ext s1 i = 1) /\ bat s1 = bat s /\ yields (flat_sum m al0 al1 t) d s1 (fun _ n => flat s (fun c => f c n)).
Proof.
  intros H0 H1 (HR & ES & HV). destruct (@flatten_flat K m d al0 t H0 HR) as (s2 & Hs2 & (u & Eu & HU)). destruct HU as (R1 & R2 & R3).
  destruct (@sum_yields K m d al1 u 0%N H1 R1 ltac:(cbn; lia)) as (s1 & Hr & HY).
  pose proof (reduces_shape_is Hr) as (W1 & X1 & B1). destruct Hs2 as (W2 & X2 & B2).
  assert (XU : forall i, ext (t_shape u) i = if i =? 0 then vol s else 1) by (intros; rewrite R2, X2, ES; auto).
  exists s1. split; [|split].
  - intros i. rewrite X1. unfold eset. change (N.to_nat 0) with 0. destruct (Nat.eqb_spec i 0); auto. rewrite XU. destruct (Nat.eqb_spec i 0); lia.
  - rewrite B1, R2, B2, ES. auto.
  - unfold flat_sum. rewrite Eu. cbn [bind]. unfold t_sum. rewrite (ready_device_of R1). cbn [bind]. eapply yields_ext; [exact HY|].
    intros c n Hc Hn. cbv beta. change (N.to_nat 0) with 0. rewrite XU. cbn [Nat.eqb]. apply red_ext. intros p Hp.
    rewrite at_buf. assert (Wt : wf s) by (rewrite <- ES; apply (ready_wf HR)).
    assert (EP : pos (t_shape u) (cset c 0 p) n = pos s (coord (ext s) 8 p) n).
    { destruct (@coord_spec (ext s) 8 p (fun i => ext_pos i Wt) Hp) as (_ & _ & L3). unfold pos. rewrite L3.
      assert (EV : vol (t_shape u) = vol s). { unfold vol at 1, low. cbn [prod_lt]. rewrite !XU. cbn. lia. } rewrite EV. f_equal.
      cbn [lin_lt]. unfold cset. cbn [Nat.eqb].
      assert (Z : forall i, i <> 0 -> c i = 0). { intros i Hi. specialize (Hc i). rewrite X1 in Hc. unfold eset in Hc. change (N.to_nat 0) with 0 in Hc. destruct (Nat.eqb_spec i 0); [lia|]. rewrite XU in Hc. destruct (Nat.eqb_spec i 0); lia. }
      rewrite !Z by lia. cbn. lia. }
    rewrite EP.
    assert (IC : inb s (coord (ext s) 8 p)).
    { destruct (@coord_spec (ext s) 8 p (fun i => ext_pos i Wt) Hp) as (L1 & L2 & _). intros i. destruct (Nat.lt_ge_cases i 8); [auto|]. rewrite L2 by auto. rewrite ext_ge8; auto. }
    assert (NB : n < bat s) by (rewrite B1, R2, B2, ES in Hn; exact Hn).
    rewrite R3.
    + rewrite <- HV by auto. rewrite at_buf, ES. reflexivity.
    + rewrite <- EP. assert (L : pos s (coord (ext s) 8 p) n < tot s) by (apply pos_lt; auto). rewrite EP.
      replace (tot s2) with (tot s); auto. unfold tot. rewrite B2, ES. f_equal. unfold vol at 2, low. cbn [prod_lt]. rewrite !X2, ES. cbn. lia.
Qed.

Lemma adds_does f h (x y gy : tensor) : adds f h -> ready d x -> ready d y -> ready d gy -> t_shape y = t_shape x -> t_shape gy = t_shape x ->
  does (f d x y gy) (t_shape x) (bat (t_shape y)) (fun c n => Plus (h (at_ x c n) (at_ y c n) (at_ gy c n))).
Proof.
  intros HF Hx Hy Hg E1 E2. rewrite E1. apply does1; [apply (ready_wf Hx)|]. intros gx HR ES. cbn [apply_c]. apply HF; auto.
Qed.
Lemma adds_const_does f h k (x y gy : tensor) : adds_const f h -> ready d x -> ready d y -> ready d gy -> t_shape y = t_shape x -> t_shape gy = t_shape x ->
  does (f d x y gy k) (t_shape x) (bat (t_shape y)) (fun c n => Plus (h (at_ x c n) (at_ y c n) (at_ gy c n) k)).
Proof.
  intros HF Hx Hy Hg E1 E2. rewrite E1. apply does1; [apply (ready_wf Hx)|]. intros gx HR ES. cbn [apply_c]. apply HF; auto.
Qed.
Definition ok_updates (r : res (list (update K))) xs ys ps : Prop := exists us, r = Ok us /\ updates_are us xs ys ps.
Lemma one_update t f xs ys B h s : does f s B h -> s = target_shape xs ys t -> ok_updates (Ok [(t, f)]) xs ys [mkPart t B h].
Proof. intros H ->. eexists. split; [reflexivity|]. repeat constructor. exact H. Qed.
Lemma two_updates t1 f1 t2 f2 xs ys B1 h1 B2 h2 : does f1 (target_shape xs ys t1) B1 h1 -> does f2 (target_shape xs ys t2) B2 h2 ->
  ok_updates (Ok [(t1, f1); (t2, f2)]) xs ys [mkPart t1 B1 h1; mkPart t2 B2 h2].
Proof. intros H1 H2. eexists. split; [reflexivity|]. repeat constructor; auto. Qed.

Lemma uop_backward k h x y gy : ubw k = Some h -> wt d k -> has_bw k [t_shape x] [t_shape y] -> ready d x -> ready d y -> ready d gy ->
  t_shape y = t_shape x -> t_shape gy = t_shape y ->
  ok_updates (backward_op m d bal k [x] [y] [gy]) [x] [y] [mkPart (Arg 0) (bat (t_shape y)) (fun c n => Plus (h (at_ x c n) (at_ y c n) (at_ gy c n)))].
Proof.
  intros E HW HB Hx Hy Hg E1 E2. rewrite E1 in E2.
  destruct (@C19_unary_gradients K m) as (U1 & U2 & U3 & U4 & U5 & U6 & U7 & U8 & U9).
  destruct (@C19_const_gradients K m) as (V1 & V2 & V3 & V4 & V5 & V6 & V7 & V8 & V9 & _).
  destruct k; cbn [ubw] in E; inversion E; subst; clear E; cbn [backward_op]; unfold bw_x; cbn [idx nth_error bind];
  (eapply one_update; [|reflexivity]); cbn [target_shape arg nth];
  try (refine (adds_does _ Hx Hy Hg E1 E2); eassumption);
  try (match goal with |- does (?f m d x y gy ?k) _ _ _ => first
    [exact (adds_const_does k V1 Hx Hy Hg E1 E2)|exact (adds_const_does k V2 Hx Hy Hg E1 E2)|exact (adds_const_does k V3 Hx Hy Hg E1 E2)
    |exact (adds_const_does k V4 Hx Hy Hg E1 E2)|exact (adds_const_does k V5 Hx Hy Hg E1 E2)|exact (adds_const_does k V6 Hx Hy Hg E1 E2)
    |exact (adds_const_does k V7 Hx Hy Hg E1 E2)|exact (adds_const_does k V8 Hx Hy Hg E1 E2)|exact (adds_const_does k V9 Hx Hy Hg E1 E2)] end).
  - (* powi *) rewrite E1. apply does1; [apply (ready_wf Hx)|]. intros gx HR ES. cbn [apply_c]. cbn [wt] in HW. cbn [has_bw] in HB.
    apply C19_powi_gradient; auto; try lia.
  - (* softplus *) assert (HS : yields (sigmoid_fw m d (bal 0) x) d (t_shape x) (fun c b => nhalf +. nhalf *. ntanh K (nhalf *. at_ x c b))).
    { apply (@maps_x K m "sigmoid_fw_impl"%string (e_sigmoid K) eq_refl d (bal 0) x); auto. }
    destruct HS as (sg & Es & HS). rewrite Es. cbn [bind].
    eapply plus_does with (s := t_shape x) (f := fun c n => _); [|auto|auto|rewrite E1; auto].
    apply mul_opd; auto; [apply (ready_fits Hx)|apply opd_full; auto| |].
    + refine (@opd_full (t_shape x) (fun c n => at_ gy c n) gy _). rewrite <- E2. split; auto.
    + rewrite (is_tensor_shape HS), E2. apply bin_ok_same. apply (ready_wf Hx).
Qed.

(** two tensors *)
Lemma bop_backward k ha hb a b y gy : bbw_a k = Some ha -> bbw_b k = Some hb -> ready d a -> ready d b -> ready d y -> ready d gy ->
  batchable (t_shape a) (t_shape b) (t_shape y) -> t_shape gy = t_shape y ->
  let v (h : F -> F -> F -> F -> contrib) := fun c n => h (at_ a c (bsel (t_shape a) n)) (at_ b c (bsel (t_shape b) n)) (at_ y c n) (at_ gy c n) in
  ok_updates (backward_op m d bal k [a; b] [y] [gy]) [a; b] [y] [mkPart (Arg 0) (bat (t_shape y)) (v ha); mkPart (Arg 1) (bat (t_shape y)) (v hb)].
Proof.
  intros EA EB Ha Hb Hy Hg HB E2 v.
  destruct (@C19_binary_gradients K m) as (U1 & U2 & U3 & U4 & U5 & U6 & U7 & U8 & U9 & U10).
  assert (G : forall fa fb ga gb, zips_bw_a fa ga -> zips_bw_b fb gb ->
     (forall a0 b0 y0 g0 w, ga a0 b0 y0 g0 w = apply_c (ha a0 b0 y0 g0) w) -> (forall a0 b0 y0 g0 w, gb a0 b0 y0 g0 w = apply_c (hb a0 b0 y0 g0) w) ->
     ok_updates (bw_ab (fa d) (fb d) [a; b] [y] [gy]) [a; b] [y] [mkPart (Arg 0) (bat (t_shape y)) (v ha); mkPart (Arg 1) (bat (t_shape y)) (v hb)]).
  { intros fa fb ga gb ZA ZB GA GB. unfold bw_ab. cbn [idx nth_error bind]. apply two_updates; cbn [target_shape arg nth]; intros gx HR ES.
    - eapply writes_ext; [refine (ZA d a b y gy gx Ha Hb Hy Hg HR HB E2 ES)|]. intros c q Hc Hq. cbv beta. rewrite ES. apply acc_ext. intros n w Hn. apply GA.
    - eapply writes_ext; [refine (ZB d a b y gy gx Ha Hb Hy Hg HR HB E2 ES)|]. intros c q Hc Hq. cbv beta. rewrite ES. apply acc_ext. intros n w Hn. apply GB. }
  destruct k; cbn [bbw_a] in EA; cbn [bbw_b] in EB; try discriminate EA; inversion EA; inversion EB; subst ha hb; clear EA EB; cbn [backward_op].
  - refine (G _ _ _ _ U1 U2 _ _); reflexivity.
  - refine (G _ _ _ _ U3 U4 _ _); reflexivity.
  - refine (G _ _ _ _ U5 U6 _ _); reflexivity.
  - refine (G _ _ _ _ U7 U8 _ _); reflexivity.
  - refine (G _ _ _ _ U9 U10 _ _); reflexivity.
Qed.

(** a tensor and a scalar *)
Lemma sop_backward k hx sg hk x z y gy : sbw_x k = Some hx -> sbw_k k = Some (sg, hk) -> ready d x -> ready d z -> ready d y -> ready d gy ->
  scalable (t_shape x) (t_shape z) (t_shape y) -> t_shape gy = t_shape y ->
  ok_updates (backward_op m d bal k [x; z] [y] [gy]) [x; z] [y]
     [mkPart (Arg 0) (bat (t_shape y)) (fun c n => hx (at_ x c (bsel (t_shape x) n)) (at_ z czero (bsel (t_shape z) n)) (at_ y c n) (at_ gy c n));
       mkPart (Arg 1) (bat (t_shape y)) (fun _ n => signed sg (flat (t_shape y) (fun c => hk (at_ x c (bsel (t_shape x) n)) (at_ z czero (bsel (t_shape z) n)) (at_ y c n) (at_ gy c n))))].
Proof.
  intros EX EK Hx Hz Hy Hg (B1 & B2 & (B3 & B4 & B5)) E2. set (s := t_shape y) in * .
  pose proof (bat_pos (ready_wf Hx)) as PX. pose proof (bat_pos (ready_wf Hz)) as PZ.
  assert (FS : fits s) by apply (ready_fits Hy).
  assert (SZ : is_scalar (t_shape z) = true). { apply (is_scalar_iff (ready_wf Hz)). intros i. specialize (B1 i). unfold ext in B1. lia. }
  set (vx := fun c n => at_ x c (bsel (t_shape x) n)). set (vz := fun (c : coord') n => at_ z czero (bsel (t_shape z) n)).
  set (vy := fun c n => at_ y c n). set (vg := fun c n => at_ gy c n).
  assert (OX : opd s x vx) by (apply opd_over; auto; lia).
  assert (OZ : opd s z vz) by (apply opd_scalar; auto; lia).
  assert (TY : is_tensor d s vy y) by (split; auto).
  assert (TG : is_tensor d s vg gy) by (split; auto).
  pose proof (opd_full TY) as OY. pose proof (opd_full TG) as OG.
  assert (SX : forall e f, yields e d s f -> does (plus m e) (t_shape x) (bat s) (fun c n => Plus (f c n)) /\ does (minus m e) (t_shape x) (bat s) (fun c n => Minus (f c n))).
  { intros e f HE. split; [eapply plus_does|eapply minus_does]; eauto; lia. }
  assert (SK : forall al0 al1 e f, al_ok al0 -> al_ok al1 -> yields e d s f ->
     does (plus m (t <- e ;; flat_sum m al0 al1 t)) (t_shape z) (bat s) (fun c n => Plus (flat s (fun c => f c n))) /\
     does (minus m (t <- e ;; flat_sum m al0 al1 t)) (t_shape z) (bat s) (fun c n => Minus (flat s (fun c => f c n)))).
  { intros al0 al1 e f A0 A1 (t & Et & HT). destruct (@flat_sum_yields al0 al1 s t f A0 A1 HT) as (s1 & X1 & X2 & HY).
    assert (HY' : yields (t <- e ;; flat_sum m al0 al1 t) d s1 (fun _ n => flat s (fun c => f c n))) by (rewrite Et; exact HY).
    split; [eapply plus_does with (f := fun _ n => _)|eapply minus_does with (f := fun _ n => _)]; eauto; try lia; intros; rewrite X1, B1; auto. }
  assert (MU : forall al a b fa fb, al_ok al -> opd s a fa -> opd s b fb -> (t_shape a = s \/ t_shape b = s) -> exists t, t_mul m al a b = Ok t /\ is_tensor d s (fun c n => fa c n *. fb c n) t).
  { intros. eapply mul_opd; eauto. eapply bin_opd; eauto. }
  assert (DI : forall al a b fa fb, al_ok al -> opd s a fa -> opd s b fb -> (t_shape a = s \/ t_shape b = s) -> exists t, t_div m al a b = Ok t /\ is_tensor d s (fun c n => fa c n /. fb c n) t).
  { intros. eapply div_opd; eauto. eapply bin_opd; eauto. }
  assert (OKY : forall (t : tensor) f, is_tensor d s f t -> yields (Ok t) d s f) by (intros t f H; exists t; auto).
  destruct k; cbn [sbw_x] in EX; cbn [sbw_k] in EK; try discriminate EX; inversion EX; inversion EK; subst hx sg hk; clear EX EK; cbn [backward_op]; unfold bw_scalar; cbn [idx nth_error bind].
  - (* add *) apply two_updates; cbn [target_shape arg nth]; [apply (SX (Ok gy) vg); auto|].
    destruct (SK (bal 0) (bal 1) (Ok gy) vg) as (S1 & _); auto.
  - (* sub l *) apply two_updates; cbn [target_shape arg nth]; [apply (SX (Ok gy) vg); auto|].
    destruct (SK (bal 0) (bal 1) (Ok gy) vg) as (S1 & _); auto.
  - (* sub r *) apply two_updates; cbn [target_shape arg nth]; [apply (SX (Ok gy) vg); auto|].
    destruct (SK (bal 0) (bal 1) (Ok gy) vg) as (_ & S1); auto.
  - (* mul *) apply two_updates; cbn [target_shape arg nth].
    + apply (SX _ _ (MU (bal 0) z gy vz vg (HA 0) OZ OG (or_intror E2))).
    + apply (SK (bal 2) (bal 3) _ _ (HA 2) (HA 3) (MU (bal 1) x gy vx vg (HA 1) OX OG (or_intror E2))).
  - (* div l *) destruct (DI (bal 0) gy x vg vx (HA 0) OG OX (or_introl E2)) as (a & Ea & TA). rewrite Ea. cbn [bind]. pose proof (opd_full TA) as OA.
    apply two_updates; cbn [target_shape arg nth].
    + apply (SX _ _ (MU (bal 1) a y _ vy (HA 1) OA OY (or_intror eq_refl))).
    + apply (SK (bal 2) (bal 3) (Ok a) _ (HA 2) (HA 3) (OKY _ _ TA)).
  - (* div r *) destruct (DI (bal 0) gy z vg vz (HA 0) OG OZ (or_introl E2)) as (a & Ea & TA). rewrite Ea. cbn [bind]. pose proof (opd_full TA) as OA.
    apply two_updates; cbn [target_shape arg nth].
    + apply (SX _ _ (OKY _ _ TA)).
    + apply (SK (bal 2) (bal 3) _ _ (HA 2) (HA 3) (MU (bal 1) a y _ vy (HA 1) OA OY (or_intror eq_refl))).
  - (* pow l *) destruct (MU (bal 0) gy y vg vy (HA 0) OG OY (or_introl E2)) as (a & Ea & TA). rewrite Ea. cbn [bind]. pose proof (opd_full TA) as OA.
    apply two_updates; cbn [target_shape arg nth].
    + assert (HL : yields (t_ln m (bal 1) z) d (t_shape z) (fun c b => nln K (at_ z c b))).
      { unfold t_ln, via1. rewrite (ready_device_of Hz). cbn [bind]. apply (@fw_x_yields K m "ln_fw_impl" (e_ln K)); auto. }
      destruct HL as (l & El & (L1 & L2 & L3)). rewrite El. cbn [bind].
      assert (OL : opd s l (fun c n => nln K (vz c n))).
      { split; auto. split; [rewrite L2; auto|]. split; [rewrite L2; lia|]. intros c n Hc Hn. rewrite opnd_scalar by (rewrite L2; auto). rewrite L2.
        unfold vz. apply L3; [intros i; rewrite B1; unfold czero; lia|]. unfold bsel. destruct (Nat.eqb_spec (bat (t_shape z)) 1); lia. }
      apply (SX _ _ (MU (bal 2) a l _ _ (HA 2) OA OL (or_introl (is_tensor_shape TA)))).
    + destruct (MU (bal 3) a x _ vx (HA 3) OA OX (or_introl (is_tensor_shape TA))) as (t & Et & TT). pose proof (opd_full TT) as OT.
      rewrite Et. cbn [bind]. apply (SK (bal 5) (bal 6) _ _ (HA 5) (HA 6) (DI (bal 4) t z _ vz (HA 4) OT OZ (or_introl (is_tensor_shape TT)))).
  - (* pow r *) destruct (MU (bal 0) gy y vg vy (HA 0) OG OY (or_introl E2)) as (a & Ea & TA). rewrite Ea. cbn [bind]. pose proof (opd_full TA) as OA.
    apply two_updates; cbn [target_shape arg nth].
    + destruct (MU (bal 1) a z _ vz (HA 1) OA OZ (or_introl (is_tensor_shape TA))) as (t & Et & TT). pose proof (opd_full TT) as OT.
      rewrite Et. cbn [bind]. apply (SX _ _ (DI (bal 2) t x _ vx (HA 2) OT OX (or_introl (is_tensor_shape TT)))).
    + assert (HL : yields (t_ln m (bal 3) x) d (t_shape x) (fun c b => nln K (at_ x c b))).
      { unfold t_ln, via1. rewrite (ready_device_of Hx). cbn [bind]. apply (@fw_x_yields K m "ln_fw_impl" (e_ln K)); auto. }
      destruct HL as (l & El & (L1 & L2 & L3)). rewrite El. cbn [bind].
      assert (OL : opd s l (fun c n => nln K (vx c n))).
      { eapply opd_ext; [apply opd_over; auto; rewrite L2; auto; lia|]. intros c n Hc Hn. cbv beta. rewrite L2. unfold vx. apply L3.
        - intros i. rewrite <- B4. apply Hc.
        - unfold bsel. destruct (Nat.eqb_spec (bat (t_shape x)) 1); lia. }
      apply (SK (bal 5) (bal 6) _ _ (HA 5) (HA 6) (MU (bal 4) a l _ _ (HA 4) OA OL (or_introl (is_tensor_shape TA)))).
Qed.

(** concatenations: the parts are slices of the gradient *)
Lemma concat_does gy dim s e : ready d gy -> e = nat32 dim -> e < 8 -> s = t_shape gy ->
  forall xs i off, Forall (ready d) xs -> Forall (fun x : tensor => forall j, j <> e -> ext (t_shape x) j = ext s j) xs ->
   Forall (fun x : tensor => bat (t_shape x) = 1 \/ bat (t_shape x) = bat s) xs -> nat32 off + exts xs e <= ext s e ->
   forall all, (forall j, arg xs j = arg all (i + j)) ->
   forall ys, updates_are (concat_ups m bal (fun al gy => t_slice m al gy dim) (fun s => index s e) gy i off xs) all ys (cat_parts gy e i (nat32 off) xs).
Proof.
  intros Hg -> He ->. induction xs as [|x xs IH]; intros i off HR HX HB HO all HAll ys; [constructor|].
  inversion HR; inversion HX; inversion HB; subst. assert (EX : exts (x :: xs) (nat32 dim) = ext (t_shape x) (nat32 dim) + exts xs (nat32 dim)) by reflexivity.
  rewrite EX in HO. cbn [concat_ups cat_parts]. constructor.
  - cbn [fst snd p_to p_bat p_val]. split; auto. cbn [target_shape]. assert (EA : arg all i = x) by (pose proof (HAll 0) as Q; rewrite Nat.add_0_r in Q; auto). rewrite EA. intros gx Hgx ES.
    assert (AD : add32 m off (index (t_shape gx) (nat32 dim)) = Ok (off + index (t_shape gx) (nat32 dim))%N).
    { unfold add32, norm32. rewrite (proj2 (N.ltb_lt _ _)); auto. pose proof (wf_index_lt (nat32 dim) (ready_wf Hg)). rewrite ES. unfold ext in HO. lia. }
    rewrite AD. cbn [bind]. pose proof (wf_index_pos (nat32 dim) (ready_wf H1)) as PP.
    destruct (@shape_exists (eset (t_shape gy) (nat32 dim) (ext (t_shape x) (nat32 dim))) (bat (t_shape gy))) as (s' & Hs').
    { intros j. unfold eset. destruct (Nat.eqb_spec j (nat32 dim)); apply ext_pos; [apply (ready_wf H1)|apply (ready_wf Hg)]. }
    { intros j Hj. unfold eset. destruct (Nat.eqb_spec j (nat32 dim)); [lia|]. apply ext_ge8; auto. apply (ready_wf Hg). }
    { apply bat_pos, (ready_wf Hg). }
    { pose proof (wf_batch (ready_wf Hg)). unfold bat. lia. }
    { pose proof (wf_vol_bound (ready_wf H1)) as V. rewrite <- (N2Nat.id (volume _)) in V. rewrite (vol_volume (ready_wf H1)) in V.
      replace (prod_lt _ 8) with (vol (t_shape x)); [exact V|]. apply prod_lt_ext. intros j _. unfold eset. destruct (Nat.eqb_spec j (nat32 dim)); subst; auto. }
    assert (YS : yields (t_slice m (bal i) gy dim off (off + index (t_shape gx) (nat32 dim))) d s' (fun c b => at_ gy (cset c (nat32 dim) (c (nat32 dim) + nat32 off)) b)).
    { unfold t_slice. rewrite (ready_device_of Hg). cbn [bind]. rewrite ES. apply slice_yields; auto.
      - lia.
      - unfold ext in * . lia.
      - rewrite N2Nat.inj_add. replace (nat32 off + nat32 (index (t_shape x) (nat32 dim)) - nat32 off) with (ext (t_shape x) (nat32 dim)) by (unfold ext; lia). exact Hs'. }
    destruct Hs' as (W' & X' & B').
    assert (EE : forall j, ext s' j = ext (t_shape x) j). { intros j. rewrite X'. unfold eset. destruct (Nat.eqb_spec j (nat32 dim)); subst; auto. symmetry; auto. }
    refine (@plus_does _ s' (t_shape x) _ (bat (t_shape gy)) YS EE _ _ gx Hgx ES); [rewrite B'; auto|auto].
  - rewrite <- (N2Nat.id off) at 1. replace (nat32 off + ext (t_shape x) (nat32 dim)) with (nat32 (off + index (t_shape x) (nat32 dim))) by (unfold ext; lia).
    rewrite N2Nat.id. apply IH; auto.
    + unfold ext in * . lia.
    + intros j. replace (S i + j) with (i + S j) by lia. rewrite <- HAll. reflexivity.
Qed.
Lemma bconcat_does gy s : ready d gy -> s = t_shape gy ->
  forall xs i off, Forall (ready d) xs -> Forall (fun x : tensor => forall j, ext (t_shape x) j = ext s j) xs -> nat32 off + bats xs <= bat s ->
   forall all, (forall j, arg xs j = arg all (i + j)) ->
   forall ys, updates_are (concat_ups m bal (t_batch_slice m) batch gy i off xs) all ys (bcat_parts gy i (nat32 off) xs).
Proof.
  intros Hg ->. induction xs as [|x xs IH]; intros i off HR HX HO all HAll ys; [constructor|].
  inversion HR; inversion HX; subst. assert (EX : bats (x :: xs) = bat (t_shape x) + bats xs) by reflexivity.
  rewrite EX in HO. cbn [concat_ups bcat_parts]. constructor.
  - cbn [fst snd p_to p_bat p_val]. split; auto. cbn [target_shape]. assert (EA : arg all i = x) by (pose proof (HAll 0) as Q; rewrite Nat.add_0_r in Q; auto). rewrite EA. intros gx Hgx ES.
    assert (AD : add32 m off (batch (t_shape gx)) = Ok (off + batch (t_shape gx))%N).
    { unfold add32, norm32. rewrite (proj2 (N.ltb_lt _ _)); auto. pose proof (wf_batch (ready_wf Hg)). rewrite ES. unfold bat in HO. lia. }
    rewrite AD. cbn [bind]. pose proof (wf_batch (ready_wf H1)) as PP.
    assert (Hs' : shape_is (t_shape x) (ext (t_shape gy)) (nat32 (off + batch (t_shape x)) - nat32 off)).
    { split; [apply (ready_wf H1)|]. split; auto. unfold bat. lia. }
    assert (YS : yields (t_batch_slice m (bal i) gy off (off + batch (t_shape gx))) d (t_shape x) (fun c b => at_ gy c (nat32 off + b))).
    { unfold t_batch_slice. rewrite (ready_device_of Hg). cbn [bind]. rewrite ES. apply batch_slice_yields; auto.
      - lia.
      - unfold bat in * . lia. }
    refine (@plus_does _ _ (t_shape x) _ (bat (t_shape x)) YS (fun _ => eq_refl) _ _ gx Hgx ES); auto.
  - rewrite <- (N2Nat.id off) at 1. replace (nat32 off + bat (t_shape x)) with (nat32 (off + batch (t_shape x))) by (unfold bat; lia).
    rewrite N2Nat.id. apply IH; auto.
    + unfold bat in * . lia.
    + intros j. replace (S i + j) with (i + S j) by lia. rewrite <- HAll. reflexivity.
Qed.

Lemma broadcast_back (gy : tensor) al dim n s f : al_ok al -> is_tensor d (t_shape gy) f gy -> nat32 dim < 8 -> ext (t_shape gy) (nat32 dim) = 1 -> (1 <= n)%N ->
  shape_is s (eset (t_shape gy) (nat32 dim) (nat32 n)) (bat (t_shape gy)) -> fits s ->
  yields (t_broadcast m al gy dim n) d s (fun c b => f (cset c (nat32 dim) 0) b).
Proof.
  intros Hal (HR & _ & HV) Hd H1 Hn Hs HF. unfold t_broadcast. rewrite (ready_device_of HR). cbn [bind].
  eapply yields_ext; [apply broadcast_yields; eauto|]. intros c b Hc Hb. cbv beta. destruct Hs as (_ & X & B). rewrite <- HV; auto.
  - intros i. specialize (Hc i). rewrite X in Hc. unfold eset in Hc. unfold cset. destruct (Nat.eqb_spec i (nat32 dim)); subst; auto. lia.
  - rewrite <- B; auto.
Qed.
Lemma self_is (t : tensor) : ready d t -> is_tensor d (t_shape t) (fun c b => at_ t c b) t.
Proof. intros; split; auto. Qed.
Lemma eset_back x y e : (forall i, ext y i = eset x e 1 i) -> forall i, ext x i = eset y e (ext x e) i.
Proof. intros H i. unfold eset in * . destruct (Nat.eqb_spec i e); subst; auto. rewrite H. destruct (Nat.eqb_spec i e); [contradiction|auto]. Qed.
Lemma dims_at_ok s dim : wf s -> nat32 dim < depth s -> dims_at s dim = Ok (index s (nat32 dim)) .
Proof.
  intros W H. unfold dims_at. apply idx_nth. unfold dims. pose proof (wf_depth_le W). pose proof (wf_len W) as L.
  rewrite (nth_error_nth' _ 1%N) by (rewrite firstn_length; lia). rewrite nth_firstn_lt by auto. f_equal. unfold index.
  destruct (Nat.ltb_spec (nat32 dim) (depth s)); [reflexivity|lia].
Qed.

Theorem backward_sem k xs ys gys : typed k (map (@t_shape K) xs) (map (@t_shape K) ys) -> wt d k ->
  has_bw k (map (@t_shape K) xs) (map (@t_shape K) ys) -> Forall (ready d) xs -> Forall (ready d) ys -> Forall (ready d) gys ->
  map (@t_shape K) gys = map (@t_shape K) ys ->
  ok_updates (backward_op m d bal k xs ys gys) xs ys (bwsem k xs ys gys).
Proof.
  intros HT HW HB RX RY RG EG.
  assert (ON1 : forall P, on1 P (map (@t_shape K) xs) (map (@t_shape K) ys) -> exists x y gy, xs = [x] /\ ys = [y] /\ gys = [gy] /\ ready d x /\ ready d y /\ ready d gy /\ t_shape gy = t_shape y /\ P (t_shape x) (t_shape y)).
  { intros P (x & s & E1 & E2 & HP). destruct xs as [|x' [|]]; try discriminate. destruct ys as [|y' [|]]; try discriminate. destruct gys as [|g' [|]]; try discriminate.
    inversion E1; inversion E2; inversion EG; subst. inversion RX; inversion RY; inversion RG; subst. exists x', y', g'. ssplit; auto. }
  assert (ON2 : forall P, on2 P (map (@t_shape K) xs) (map (@t_shape K) ys) -> exists a b y gy, xs = [a; b] /\ ys = [y] /\ gys = [gy] /\ ready d a /\ ready d b /\ ready d y /\ ready d gy /\ t_shape gy = t_shape y /\ P (t_shape a) (t_shape b) (t_shape y)).
  { intros P (a & b & s & E1 & E2 & HP). destruct xs as [|a' [|b' [|]]]; try discriminate. destruct ys as [|y' [|]]; try discriminate. destruct gys as [|g' [|]]; try discriminate.
    inversion E1; inversion E2; inversion EG; subst. inversion RX; inversion RY; inversion RG; subst. match goal with H : Forall (ready d) [b'] |- _ => inversion H; subst end. exists a', b', y', g'. ssplit; auto. }
  destruct k; cbn [typed] in HT;
  try (match goal with |- ok_updates (backward_op m d bal ?k _ _ _) _ _ _ => match eval cbn [ubw] in (ubw k) with Some ?h =>
     destruct (ON1 _ HT) as (x & y & gy & -> & -> & -> & Hx & Hy & Hg & Eg & ES); exact (@uop_backward k h x y gy eq_refl HW HB Hx Hy Hg ES Eg) end end);
  try (match goal with |- ok_updates (backward_op m d bal ?k _ _ _) _ _ _ => match eval cbn [bbw_a] in (bbw_a k) with Some ?h =>
     destruct (ON2 _ HT) as (x & z & y & gy & -> & -> & -> & Hx & Hz & Hy & Hg & Eg & ES); exact (@bop_backward k _ _ x z y gy eq_refl eq_refl Hx Hz Hy Hg ES Eg) end end);
  try (match goal with |- ok_updates (backward_op m d bal ?k _ _ _) _ _ _ => match eval cbn [sbw_x] in (sbw_x k) with Some ?h =>
     destruct (ON2 _ HT) as (x & z & y & gy & -> & -> & -> & Hx & Hz & Hy & Hg & Eg & ES); exact (@sop_backward k _ _ _ x z y gy eq_refl eq_refl Hx Hz Hy Hg ES Eg) end end);
  try (destruct HB; fail);
  cbn [has_bw] in HB.
  - (* input *) exists []. split; [reflexivity|constructor].
  - exists []. split; [reflexivity|constructor].
  - (* parameter *) destruct HT as (E & E'). destruct xs; [|discriminate]. destruct ys as [|y [|]]; try discriminate. destruct gys as [|gy [|]]; try discriminate.
    inversion E'; inversion EG. inversion RY; inversion RG; subst. cbn [backward_op idx nth_error bind].
    eapply one_update; [|reflexivity]. cbn [target_shape arg nth].
    refine (@plus_does _ (t_shape gy) _ (fun c n => at_ gy c n) _ _ _ _ _); [eexists; split; [reflexivity|split; auto]|congruence|right; congruence|congruence].
  - (* broadcast *) destruct (ON1 _ HT) as (x & y & gy & -> & -> & -> & Hx & Hy & Hg & Eg & (H1 & H2 & H3 & (W & X & B))). cbn [backward_op]. unfold bw_gy. cbn [idx nth_error bind].
    destruct (@sum_yields K m d (bal 0) gy dim (HA 0) Hg H1) as (s' & Hs' & HY). pose proof (reduces_shape_is Hs') as (W' & X' & B').
    eapply one_update; [|reflexivity]. cbn [target_shape arg nth].
    refine (@plus_does _ s' _ (fun c n => red (nadd K) n0 (line gy (nat32 dim) c n) (ext (t_shape gy) (nat32 dim))) _ _ _ _ _).
    + unfold t_sum. rewrite (ready_device_of Hg). cbn [bind]. exact HY.
    + intros i. rewrite X', Eg. unfold eset. destruct (Nat.eqb_spec i (nat32 dim)); [subst; auto|]. rewrite X. unfold eset. destruct (Nat.eqb_spec i (nat32 dim)); [contradiction|auto].
    + right. rewrite B', Eg. auto.
    + rewrite B', Eg. auto.
  - (* logsumexp *) destruct (ON1 _ HT) as (x & y & gy & -> & -> & -> & Hx & Hy & Hg & Eg & (H1 & (W & X & B))). cbn [backward_op idx nth_error bind].
    rewrite (dims_at_ok (ready_wf Hx) (HB _ eq_refl)). cbn [bind]. unfold bw_x. cbn [idx nth_error bind].
    assert (Y1 : ext (t_shape y) (nat32 dim) = 1) by (rewrite X; unfold eset; rewrite Nat.eqb_refl; auto).
    assert (PI : (1 <= index (t_shape x) (nat32 dim))%N) by (apply wf_index_pos, (ready_wf Hx)).
    assert (SX : shape_is (t_shape x) (eset (t_shape y) (nat32 dim) (nat32 (index (t_shape x) (nat32 dim)))) (bat (t_shape y))).
    { split; [apply (ready_wf Hx)|]. split; auto. intros i. apply eset_back; auto. }
    destruct (@broadcast_back y (bal 0) dim (index (t_shape x) (nat32 dim)) (t_shape x) _ (HA 0) (self_is Hy) H1 Y1 PI SX (ready_fits Hx)) as (yb & Eyb & Tyb).
    rewrite Eyb. cbn [bind].
    destruct (@sub_opd (bal 1) (t_shape x) x yb _ _ (HA 1) (ready_fits Hx) (opd_full (self_is Hx)) (opd_full Tyb)) as (sb & Es & Ts).
    { rewrite (is_tensor_shape Tyb). apply bin_ok_same, (ready_wf Hx). }
    rewrite Es. cbn [bind].
    destruct (@t_exp_yields K m d (bal 2) sb (HA 2) (is_tensor_ready Ts)) as (e & Ee & Te). rewrite (is_tensor_shape Ts) in Te. rewrite Ee. cbn [bind].
    rewrite <- Eg in SX, Y1. destruct (@broadcast_back gy (bal 3) dim (index (t_shape x) (nat32 dim)) (t_shape x) _ (HA 3) (self_is Hg) H1 Y1 PI SX (ready_fits Hx)) as (gb & Egb & Tgb).
    rewrite Egb. cbn [bind].
    pose proof (@mul_opd (bal 4) (t_shape x) e gb _ _ (HA 4) (ready_fits Hx) (opd_full Te) (opd_full Tgb)) as HM.
    eapply one_update; [|reflexivity]. cbn [target_shape arg nth].
    assert (HM' := HM ltac:(rewrite (is_tensor_shape Te), (is_tensor_shape Tgb); apply bin_ok_same, (ready_wf Hx))).
    refine (does_ext (plus_does HM' (fun _ => eq_refl) (or_intror eq_refl) B) _).
    intros c n Hc Hn. cbv beta. rewrite (is_tensor_at Ts); auto. rewrite B in Hn; auto.
  - (* max *) destruct (ON1 _ HT) as (x & y & gy & -> & -> & -> & Hx & Hy & Hg & Eg & (H1 & (W & X & B))). cbn [backward_op]. unfold bw_x. cbn [idx nth_error bind].
    eapply one_update; [|reflexivity]. cbn [target_shape arg nth]. rewrite B. apply does1; [apply (ready_wf Hx)|]. intros gx HR ES.
    eapply writes_ext; [eapply (@extremum_bw_writes K m "max_bw_impl"); eauto|].
    + constructor; auto; [apply (ready_wf Hx)| |]. { rewrite X. unfold eset. rewrite Nat.eqb_refl. auto. } { intros i Hi. rewrite X. unfold eset. destruct (Nat.eqb_spec i (nat32 dim)); [contradiction|auto]. }
    + intros c b Hc Hb. cbv beta zeta. unfold extremum_val, line. destruct (first_eq _ _ _ _) as [j|]; [destruct (j =? c (nat32 dim))|]; reflexivity.
  - (* min *) destruct (ON1 _ HT) as (x & y & gy & -> & -> & -> & Hx & Hy & Hg & Eg & (H1 & (W & X & B))). cbn [backward_op]. unfold bw_x. cbn [idx nth_error bind].
    eapply one_update; [|reflexivity]. cbn [target_shape arg nth]. rewrite B. apply does1; [apply (ready_wf Hx)|]. intros gx HR ES.
    eapply writes_ext; [eapply (@extremum_bw_writes K m "min_bw_impl"); eauto|].
    + constructor; auto; [apply (ready_wf Hx)| |]. { rewrite X. unfold eset. rewrite Nat.eqb_refl. auto. } { intros i Hi. rewrite X. unfold eset. destruct (Nat.eqb_spec i (nat32 dim)); [contradiction|auto]. }
    + intros c b Hc Hb. cbv beta zeta. unfold extremum_val, line. destruct (first_eq _ _ _ _) as [j|]; [destruct (j =? c (nat32 dim))|]; reflexivity.
  - (* sum *) destruct (ON1 _ HT) as (x & y & gy & -> & -> & -> & Hx & Hy & Hg & Eg & (H1 & (W & X & B))). cbn [backward_op idx nth_error bind].
    rewrite (dims_at_ok (ready_wf Hx) (HB _ eq_refl)). cbn [bind]. unfold bw_gy. cbn [idx nth_error bind].
    assert (Y1 : ext (t_shape gy) (nat32 dim) = 1) by (rewrite Eg, X; unfold eset; rewrite Nat.eqb_refl; auto).
    assert (PI : (1 <= index (t_shape x) (nat32 dim))%N) by (apply wf_index_pos, (ready_wf Hx)).
    assert (SX : shape_is (t_shape x) (eset (t_shape gy) (nat32 dim) (nat32 (index (t_shape x) (nat32 dim)))) (bat (t_shape gy))).
    { rewrite Eg. split; [apply (ready_wf Hx)|]. split; auto. intros i. apply eset_back; auto. }
    eapply one_update; [|reflexivity]. cbn [target_shape arg nth].
    eapply plus_does; [apply (@broadcast_back gy (bal 0) dim (index (t_shape x) (nat32 dim)) (t_shape x) (fun c b => at_ gy c b) (HA 0) (self_is Hg) H1 Y1 PI SX (ready_fits Hx))|auto|auto|auto].
  - (* cross entropy *) destruct (ON2 _ HT) as (x & z & y & gy & -> & -> & -> & Hx & Hz & Hy & Hg & Eg & (H1 & H2 & s0 & (B1 & B2 & (B3 & B4 & B5)) & FS & (W & X & B))).
    pose proof (bat_pos (ready_wf Hx)) as PX. pose proof (bat_pos (ready_wf Hz)) as PZ.
    cbn [backward_op idx nth_error bind].
    destruct (@ln_softmax_yields K m d bal x dim HA Hx H1) as (ls & El & Tl). rewrite El. cbn [bind].
    assert (Y1 : ext (t_shape gy) (nat32 dim) = 1) by (rewrite Eg, X; unfold eset; rewrite Nat.eqb_refl; auto).
    assert (PI : (1 <= index (t_shape x) (nat32 dim))%N) by (apply wf_index_pos, (ready_wf Hx)).
    assert (SX : shape_is s0 (eset (t_shape gy) (nat32 dim) (nat32 (index (t_shape x) (nat32 dim)))) (bat (t_shape gy))).
    { rewrite Eg. split; auto. split; auto. intros i. rewrite (eset_back X i), B4. reflexivity. }
    destruct (@broadcast_back gy (bal 3) dim (index (t_shape x) (nat32 dim)) s0 _ (HA 3) (self_is Hg) H1 Y1 PI SX FS) as (gb & Egb & Tgb).
    rewrite Egb. cbn [bind]. pose proof (opd_full Tgb) as OGB. pose proof (is_tensor_shape Tgb) as SGB.
    assert (OV : forall t f, is_tensor d (t_shape x) f t -> opd s0 t (fun c n => f c (bsel (t_shape x) n))).
    { intros t f (R1 & R2 & R3). eapply opd_ext; [apply opd_over; auto; rewrite R2; auto; lia|]. intros c n Hc Hn. cbv beta. rewrite R2. apply R3.
      - intros i. rewrite <- B4. apply Hc.
      - unfold bsel. destruct (Nat.eqb_spec (bat (t_shape x)) 1); lia. }
    assert (OZ : opd s0 z (fun c n => at_ z c (bsel (t_shape z) n))) by (apply opd_over; auto; [intros; rewrite B4; auto|lia]).
    assert (BO : bin_ok (t_shape x) (t_shape z) s0). { split; auto. split; auto. split; auto. split; auto. intros i. rewrite B4. destruct (is_scalar (t_shape x)); auto. }
    apply two_updates; cbn [target_shape arg nth].
    + destruct (@t_exp_yields K m d (bal 4) ls (HA 4) (is_tensor_ready Tl)) as (e & Ee & Te). rewrite (is_tensor_shape Tl) in Te. rewrite Ee. cbn [bind].
      destruct (@sub_opd (bal 5) s0 e z _ _ (HA 5) FS (OV _ _ Te) OZ) as (u & Eu & Tu); [rewrite (is_tensor_shape Te); auto|].
      rewrite Eu. cbn [bind]. pose proof (@mul_opd (bal 6) s0 u gb _ _ (HA 6) FS (opd_full Tu) OGB) as HM.
      assert (HM' := HM ltac:(rewrite (is_tensor_shape Tu), SGB; apply bin_ok_same; auto)).
      refine (does_ext (@plus_does _ s0 (t_shape x) _ (bat (t_shape y)) HM' B4 _ _) _); [lia|auto|].
      intros c n Hc Hn. cbv beta. rewrite (is_tensor_at Tl); auto. unfold bsel. destruct (Nat.eqb_spec (bat (t_shape x)) 1); lia.
    + pose proof (@mul_opd (bal 7) s0 ls gb _ _ (HA 7) FS (OV _ _ Tl) OGB) as HM.
      assert (HM' := HM ltac:(eapply bin_opd; eauto)).
      refine (@minus_does _ s0 (t_shape z) _ (bat (t_shape y)) HM' _ _ _); [intros i; rewrite B4; auto|lia|auto].
  - (* sparse cross entropy *) destruct (ON1 _ HT) as (x & y & gy & -> & -> & -> & Hx & Hy & Hg & Eg & (H1 & H2 & H3 & H4 & H5 & (W & X & B))). cbn [backward_op idx nth_error bind].
    assert (PI : (1 <= index (t_shape x) (nat32 dim))%N) by (apply wf_index_pos, (ready_wf Hx)).
    assert (P1 : 1 <= bat (t_shape y)) by (apply bat_pos, (ready_wf Hy)). pose proof (bat_pos (ready_wf Hx)) as PX.
    assert (PL : 1 <= length ids) by (destruct ids; [contradiction|cbn; lia]).
    destruct (@shape_exists_fits (ext (t_shape x)) (bat (t_shape y))) as (s0 & (W0 & X0 & B0) & FS).
    { intros; apply ext_pos, (ready_wf Hx). } { intros; apply ext_ge8; auto; apply (ready_wf Hx). } { auto. } { apply (HB _ _ eq_refl eq_refl). }
    assert (Y1 : ext (t_shape gy) (nat32 dim) = 1) by (rewrite Eg, X; unfold eset; rewrite Nat.eqb_refl; auto).
    assert (SX : shape_is s0 (eset (t_shape gy) (nat32 dim) (nat32 (index (t_shape x) (nat32 dim)))) (bat (t_shape gy))).
    { rewrite Eg. split; auto. split; auto. intros i. rewrite X0. rewrite (eset_back X i). auto. }
    apply two_updates; cbn [target_shape arg nth].
    + destruct (@softmax_yields K m d bal x dim HA Hx H1) as (sm & Esm & Tsm). rewrite Esm. cbn [bind].
      destruct (@broadcast_back gy (bal 4) dim (index (t_shape x) (nat32 dim)) s0 _ (HA 4) (self_is Hg) H1 Y1 PI SX FS) as (gb & Egb & Tgb).
      rewrite Egb. cbn [bind].
      assert (OS : opd s0 sm (fun c n => nexp K (lsm x (nat32 dim) c (bsel (t_shape x) n)))).
      { destruct Tsm as (R1 & R2 & R3). eapply opd_ext; [apply opd_over; auto; rewrite R2; auto; lia|]. intros c n Hc Hn. cbv beta. rewrite R2. apply R3.
        - intros i. rewrite <- X0. apply Hc.
        - unfold bsel. destruct (Nat.eqb_spec (bat (t_shape x)) 1); lia. }
      pose proof (@mul_opd (bal 5) s0 sm gb _ _ (HA 5) FS OS (opd_full Tgb)) as HM.
      assert (HM' := HM ltac:(eapply bin_opd; eauto using opd_full; right; apply (is_tensor_shape Tgb))).
      refine (@plus_does _ s0 (t_shape x) _ (bat (t_shape y)) HM' X0 _ _); [lia|auto].
    + intros gx HR ES. rewrite (ready_device_of Hg). cbn [bind]. destruct (@t_neg_yields K m d (bal 6) gy (HA 6) Hg) as (ng & En & Tn). rewrite En. cbn [bind].
      pose proof (is_tensor_shape Tn) as SN. rewrite <- ES.
      eapply writes_ext; [eapply pick_bw_writes; eauto; try (rewrite ES; auto); [apply (is_tensor_ready Tn)|rewrite SN, Eg; split; auto]|].
      intros c q Hc Hq. cbv beta. rewrite SN, Eg. apply acc_ext. intros n w Hn. destruct (Nat.eqb_spec (pid ids n) (c (nat32 dim))); cbn [apply_c]; auto.
      rewrite (is_tensor_at Tn); auto; [|rewrite Eg; auto]. rewrite Eg. intros i. specialize (Hc i). rewrite ES in Hc. rewrite X. unfold eset, cset. destruct (Nat.eqb_spec i (nat32 dim)); auto.
  - (* matmul *) destruct (ON2 _ HT) as (x & z & y & gy & -> & -> & -> & Hx & Hz & Hy & Hg & Eg & (H1 & H2 & H3 & H4 & H5)).
    destruct (HB _ _ _ eq_refl eq_refl) as (V1 & V2). assert (P1 : 1 <= bat (t_shape y)) by (apply bat_pos, (ready_wf Hy)).
    destruct (@shape_exists_fits (ext (t_shape x)) (bat (t_shape y))) as (sa & Sa & Fa).
    { intros; apply ext_pos, (ready_wf Hx). } { intros; apply ext_ge8; auto; apply (ready_wf Hx). } { auto. } { auto. }
    destruct (@shape_exists_fits (ext (t_shape z)) (bat (t_shape y))) as (sb & Sb & Fb).
    { intros; apply ext_pos, (ready_wf Hz). } { intros; apply ext_ge8; auto; apply (ready_wf Hz). } { auto. } { auto. }
    cbn [backward_op]. unfold bw_ab. cbn [idx nth_error bind]. apply two_updates; cbn [target_shape arg nth]; intros gx HR ES.
    + rewrite <- ES. eapply (@matmul_bw_a_writes K m d bal x z y gy); eauto.
    + rewrite <- ES. eapply (@matmul_bw_b_writes K m d (fun i => bal (10 + i)) x z y gy); eauto.
  - (* transpose *) destruct (ON1 _ HT) as (x & y & gy & -> & -> & -> & Hx & Hy & Hg & Eg & (H1 & H2)). cbn [backward_op]. unfold bw_x. cbn [idx nth_error bind].
    eapply one_update; [|reflexivity]. cbn [target_shape arg nth]. destruct H2 as (W & X & B). rewrite B. apply does1; [apply (ready_wf Hx)|]. intros gx HR ES. cbn [apply_c].
    apply transpose_bw_writes; auto. split; auto.
  - (* triangular l *) destruct (ON1 _ HT) as (x & y & gy & -> & -> & -> & Hx & Hy & Hg & Eg & (H1 & H2 & H3 & H4)). cbn [backward_op]. unfold bw_x. cbn [idx nth_error bind].
    eapply one_update; [|reflexivity]. cbn [target_shape arg nth]. rewrite H4. apply does1; [apply (ready_wf Hx)|]. intros gx HR ES. cbn [apply_c].
    apply (@triangular_bw_writes K m false d bal x y gy gx k); auto.
  - destruct (ON1 _ HT) as (x & y & gy & -> & -> & -> & Hx & Hy & Hg & Eg & (H1 & H2 & H3 & H4)). cbn [backward_op]. unfold bw_x. cbn [idx nth_error bind].
    eapply one_update; [|reflexivity]. cbn [target_shape arg nth]. rewrite H4. apply does1; [apply (ready_wf Hx)|]. intros gx HR ES. cbn [apply_c].
    apply (@triangular_bw_writes K m true d bal x y gy gx k); auto.
  - (* pick *) destruct (ON1 _ HT) as (x & y & gy & -> & -> & -> & Hx & Hy & Hg & Eg & (H1 & H2 & H3 & H4 & H5 & H6)). cbn [backward_op]. unfold bw_gy. cbn [idx nth_error bind].
    eapply one_update; [|reflexivity]. cbn [target_shape arg nth]. intros gx HR ES. rewrite (ready_device_of Hg). cbn [bind]. rewrite <- ES.
    eapply writes_ext; [eapply pick_bw_writes; eauto; rewrite ES; auto; rewrite Eg; auto|]. intros c q Hc Hq. cbv beta. rewrite Eg. apply acc_ext. intros n w Hn.
    destruct (pid ids n =? c (nat32 dim)); reflexivity.
  - (* slice *) destruct (ON1 _ HT) as (x & y & gy & -> & -> & -> & Hx & Hy & Hg & Eg & (H1 & H2 & H3 & (W & X & B))). cbn [backward_op]. unfold bw_gy. cbn [idx nth_error bind].
    eapply one_update; [|reflexivity]. cbn [target_shape arg nth]. rewrite B. apply does1; [apply (ready_wf Hx)|]. intros gx HR ES.
    eapply writes_ext; [apply slice_bw_writes; auto|].
    + intros i Hi. rewrite Eg, ES, X. unfold eset. destruct (Nat.eqb_spec i (nat32 dim)); [contradiction|auto].
    + rewrite Eg, ES. auto.
    + rewrite Eg, ES, X. unfold eset. rewrite Nat.eqb_refl. lia.
    + intros c b Hc Hb. cbv beta zeta. unfold slice_val. destruct (_ && _); reflexivity.
  - (* split *) destruct HT as (x0 & s & E & ER & H1 & H2 & H3 & H4). destruct xs as [|x [|]]; try discriminate. inversion E; subst x0. inversion RX as [|? ? Hx _]; subst.
    assert (LG : length gys = nat32 n) by (rewrite <- (map_length (@t_shape K)), EG, ER, repeat_length; auto).
    assert (GS : forall i, i < nat32 n -> ready d (arg gys i) /\ t_shape (arg gys i) = s).
    { intros i Hi. split.
      - rewrite Forall_forall in RG. apply RG. apply nth_In. lia.
      - assert (EN : nth i (map (@t_shape K) gys) (t_shape (no_tensor K)) = s) by (rewrite EG, ER; rewrite nth_indep with (d' := s) by (rewrite repeat_length; auto); apply nth_repeat).
        rewrite map_nth in EN. exact EN. }
    cbn [backward_op]. unfold bw_split. cbn [bwsem arg nth].
    assert (YB : bat (t_shape (arg ys 0)) = bat (t_shape x)).
    { assert (EN : nth 0 (map (@t_shape K) ys) (t_shape (no_tensor K)) = s) by (rewrite ER; rewrite nth_indep with (d' := s) by (rewrite repeat_length; lia); apply nth_repeat).
      rewrite map_nth in EN. unfold arg. rewrite EN. apply H4. }
    change (nth 0 ys (no_tensor K)) with (arg ys 0).
    assert (G : forall q i, i + q <= nat32 n -> exists us,
       mapM (fun i => gy <- idx gys i ;; Ok (Arg 0, fun gx : tensor => slice_bw m d gy dim (N.of_nat i * (index (t_shape gx) (nat32 dim) / n))%N gx)) (seq i q) = Ok us /\
       updates_are us [x] ys (map (fun i => mkPart (Arg 0) (bat (t_shape (arg ys 0))) (slice_val (arg gys i) (nat32 dim) (i * (ext (t_shape x) (nat32 dim) / nat32 n)))) (seq i q))).
    { induction q as [|q IH]; intros i Hi; [exists []; split; [reflexivity|constructor]|]. destruct (IH (S i)) as (us & Eu & HU); [lia|].
      destruct (GS i) as (Gr & Gsh); [lia|]. cbn [seq map].
      assert (EI : idx gys i = Ok (arg gys i)) by (apply idx_nth, nth_error_nth'; lia). eexists.
      split; [apply bind_Ok; eexists; split; [apply bind_Ok; eexists; split; [exact EI|reflexivity]|apply bind_Ok; eexists; split; [exact Eu|reflexivity]]|]. constructor; auto.
      cbn [fst snd p_to p_bat p_val target_shape arg nth]. split; auto. rewrite YB. apply does1; [apply (ready_wf Hx)|]. intros gx HR ES.
      destruct (slice_part H2 H3 (i := i) ltac:(lia) (ready_wf Hx) H4) as (L1 & L2 & L3 & L4). destruct H4 as (W & X & B). rewrite ES.
      eapply writes_ext; [apply slice_bw_writes; auto|].
      - intros j Hj. rewrite Gsh, ES, X. unfold eset. destruct (Nat.eqb_spec j (nat32 dim)); [contradiction|auto].
      - rewrite Gsh, ES. auto.
      - rewrite Gsh, ES. destruct L3 as (_ & X3 & _). rewrite X3. unfold eset. rewrite Nat.eqb_refl. lia.
      - intros c b Hc Hb. cbv beta zeta. unfold slice_val. change (nth i gys (no_tensor K)) with (arg gys i). rewrite L4. destruct (_ && _); reflexivity. }
    destruct (G (nat32 n) 0 (Nat.le_refl _)) as (us & Eu & HU). exists us. split; auto.
  - (* batch concat *) destruct HT as (x0 & ss0 & s & E & ER & H1 & H2). destruct xs as [|x xs]; try discriminate. inversion E; subst x0 ss0.
    destruct ys as [|y [|]]; try discriminate. destruct gys as [|gy [|]]; try discriminate. inversion ER; inversion EG; subst. inversion RG; subst.
    rewrite bats_list in H2. destruct H2 as (W & X & B). apply Forall_map1 in H1.
    cbn [backward_op]. unfold bw_concat. cbn [idx nth_error bind]. eexists. split; [reflexivity|]. cbn [bwsem arg nth].
    apply (@bconcat_does gy (t_shape gy)); auto.
    + eapply Forall_impl; [|exact H1]. cbv beta. intros a Ha j. rewrite Ha. replace (t_shape gy) with (t_shape y) by auto. auto.
    + replace (t_shape gy) with (t_shape y) by auto. rewrite B. cbn. lia.
  - (* batch sum *) destruct (ON1 _ HT) as (x & y & gy & -> & -> & -> & Hx & Hy & Hg & Eg & (W & X & B)). cbn [backward_op]. unfold bw_gy. cbn [idx nth_error bind].
    eapply one_update; [|reflexivity]. cbn [target_shape arg nth]. intros gx HR ES. unfold plus. cbn [bind].
    eapply writes_ext; [eapply add_assign_writes; [exact Hg|exact HR|]|].
    + split; [intros i; rewrite Eg, ES; auto|]. left. rewrite Eg. auto.
    + intros c q Hc Hq. cbv beta. rewrite Eg, ES, B. pose proof (bat_pos (ready_wf Hx)). replace (Nat.max 1 (bat (t_shape x))) with (bat (t_shape x)) by lia.
      apply acc_ext. intros n w Hn. cbn [apply_c]. f_equal. unfold bsel. rewrite B. reflexivity.
  - (* concat *) destruct HT as (x0 & ss0 & s & E & ER & H0 & H1 & H2 & H3). destruct xs as [|x xs]; try discriminate. inversion E; subst x0 ss0.
    destruct ys as [|y [|]]; try discriminate. destruct gys as [|gy [|]]; try discriminate. inversion ER; inversion EG; subst. inversion RG; subst.
    rewrite exts_list in H3. destruct H3 as (W & X & B). apply Forall_map1 in H1. destruct H2 as (C1 & _). assert (Eg : t_shape gy = t_shape y) by auto.
    cbn [backward_op]. unfold bw_concat. cbn [idx nth_error bind]. eexists. split; [reflexivity|]. cbn [bwsem arg nth].
    apply (@concat_does gy dim (t_shape gy)); auto.
    + eapply Forall_impl; [|exact H1]. cbv beta. intros a Ha j Hj. rewrite Ha by auto. rewrite Eg, X. unfold eset. destruct (Nat.eqb_spec j (nat32 dim)); [contradiction|auto].
    + rewrite map_map1 in C1. rewrite Forall_forall in * . intros a Ha. rewrite Eg. apply C1. apply in_map_iff. exists a; auto.
    + rewrite Eg, X. unfold eset. rewrite Nat.eqb_refl. cbn. lia.
  - (* reshape *) destruct (ON1 _ HT) as (x & y & gy & -> & -> & -> & Hx & Hy & Hg & Eg & (H1 & H2)). cbn [backward_op]. unfold bw_gy. cbn [idx nth_error bind].
    eapply one_update; [|reflexivity]. cbn [target_shape arg nth]. intros gx HR ES.
    destruct (@copy_flat K m d d (bal 0) gy (HA 0) Hg) as (t & Et & Tf). rewrite ES. rewrite Et. cbn [bind].
    assert (YF : yields_flat (update_shape m t (t_shape x)) d (t_shape x) (fun p => nth0 (buf gy) p)).
    { destruct Tf as (T1 & T2 & T3). apply update_shape_Ok; auto; [apply (ready_fits Hx)|rewrite T2, Eg, H1; auto|]. rewrite T2. split; auto. }
    assert (YY : yields (update_shape m t (t_shape x)) d (t_shape x) (fun c n => nth0 (buf gy) (pos (t_shape x) c n))).
    { eapply yields_of_flat; [exact YF|]. auto. }
    rewrite <- ES in YY |- * . refine (@plus_does _ _ _ _ _ YY (fun _ => eq_refl) _ _ gx HR eq_refl); auto.
Qed.
End BwSem.
