(** * Typed: what each operator of the crate accepts and what it computes

    [typed] and [sem] are a specification of the operators of Ops.v: which shapes
    go together, and the contents of each output as a function of coordinates. *)
From Verif Require Export OpsFacts PVocab.
Set Implicit Arguments.
Unset Strict Implicit.

Section Typed.
Variable K : num.
Notation F := (F K).
Notation tensor := (tensor K).
Notation kind := (kind K).
Notation coord := (nat -> nat).
Notation nat32 x := (N.to_nat x).

(** ** Elementwise operators *)
Definition uop (k : kind) : option (F -> F) :=
  match k with
  | KAddConst k => Some (fun x => nadd K x k)
  | KSubConstL k => Some (fun x => nsub K k x)
  | KSubConstR k => Some (fun x => nsub K x k)
  | KMulConst k => Some (fun x => nmul K x k)
  | KDivConstL k => Some (fun x => ndiv K k x)
  | KDivConstR k => Some (fun x => ndiv K x k)
  | KPowConstL k => Some (fun x => npowf K k x)
  | KPowConstR k => Some (fun x => npowf K x k)
  | KPowi k => Some (fun x => npowi K x k)
  | KNeg => Some (nneg K) | KAbs => Some (nabs K) | KSqrt => Some (nsqrt K)
  | KCos => Some (ncos K) | KSin => Some (nsin K) | KTan => Some (ntan K)
  | KExp => Some (nexp K) | KLn => Some (nln K) | KTanh => Some (ntanh K)
  | KSigmoid => Some (fun x => nadd K nhalf (nmul K nhalf (ntanh K (nmul K nhalf x))))
  | KSoftplus => Some (fun x => nadd K (nln K (nadd K n1 (nexp K (nneg K (nabs K x))))) (nmul K (nofZ K (if nlt K n0 x then 1 else 0)%Z) x))
  | KELU k | KPReLU k =>
      Some (fun x => nmul K x (nadd K (nofZ K (if nlt K n0 x then 1 else 0)%Z) (nmul K (nofZ K (if nle K x n0 then 1 else 0)%Z) k)))
  | _ => None
  end.
Definition bop (k : kind) : option (F -> F -> F) :=
  match k with
  | KAdd => Some (nadd K) | KSub => Some (nsub K) | KMul => Some (nmul K) | KDiv => Some (ndiv K) | KPow => Some (npowf K)
  | _ => None
  end.
(** first argument: the tensor; second: the scalar *)
Definition sop (k : kind) : option (F -> F -> F) :=
  match k with
  | KAddScalar => Some (fun x k => nadd K x k)
  | KSubScalarL => Some (fun x k => nsub K k x) | KSubScalarR => Some (fun x k => nsub K x k)
  | KMulScalar => Some (fun x k => nmul K x k)
  | KDivScalarL => Some (fun x k => ndiv K k x) | KDivScalarR => Some (fun x k => ndiv K x k)
  | KPowScalarL => Some (fun x k => npowf K k x) | KPowScalarR => Some (fun x k => npowf K x k)
  | _ => None
  end.

(** ** Shapes *)
Definition on1 (P : shape -> shape -> Prop) (ss rs : list shape) : Prop := exists x s, ss = [x] /\ rs = [s] /\ P x s.
Definition on2 (P : shape -> shape -> shape -> Prop) (ss rs : list shape) : Prop := exists a b s, ss = [a; b] /\ rs = [s] /\ P a b s.
Definition commutes : Prop := forall u v : F, nmul K u v = nmul K v u.
(** [ss] are accepted and give [rs] *)
Definition typed (k : kind) (ss rs : list shape) : Prop :=
  match k with
  | KInput v | KInputOwner v | KParameter v => ss = [] /\ rs = [t_shape v]
  | KAdd | KSub | KMul | KDiv | KPow => on2 batchable ss rs
  | KAddScalar | KSubScalarL | KSubScalarR | KMulScalar | KDivScalarL | KDivScalarR | KPowScalarL | KPowScalarR => on2 scalable ss rs
  | KTriangularL n | KTriangularU n => on1 (fun x s => matrix x /\ ext x 1 = ext x 0 /\ (N.of_nat (ext x 0) + n <= two32)%N /\ s = x) ss rs
  | KBroadcast d n => on1 (fun x s => nat32 d < 8 /\ ext x (nat32 d) = 1 /\ (1 <= n)%N /\ shape_is s (eset x (nat32 d) (nat32 n)) (bat x)) ss rs
  | KLogsumexp d | KMax d | KMin d | KSum d => on1 (fun x s => nat32 d < 8 /\ shape_is s (eset x (nat32 d) 1) (bat x)) ss rs
  | KSoftmaxCrossEntropy d => on2 (fun x t s => nat32 d < 8 /\ (is_scalar t = false \/ commutes) /\
      exists s0, batchable x t s0 /\ fits s0 /\ shape_is s (eset s0 (nat32 d) 1) (bat s0)) ss rs
  | KSparseSoftmaxCrossEntropy ids d | KPick ids d => on1 (fun x s => nat32 d < 8 /\ (N.of_nat (length ids) < two32)%N /\ ids <> [] /\
      (length ids = 1 \/ bat x = 1 \/ length ids = bat x) /\ Forall (fun id => nat32 id < ext x (nat32 d)) ids /\
      shape_is s (eset x (nat32 d) 1) (Nat.max (bat x) (length ids))) ss rs
  | KMatmul => on2 (fun a b s => matrix a /\ matrix b /\ ext a 1 = ext b 0 /\ (bat a = bat b \/ bat a = 1 \/ bat b = 1) /\
      shape_is s (m2 (ext a 0) (ext b 1)) (Nat.max (bat a) (bat b))) ss rs
  | KTranspose => on1 (fun x s => matrix x /\ shape_is s (m2 (ext x 1) (ext x 0)) (bat x)) ss rs
  | KSlice d l u => on1 (fun x s => nat32 d < 8 /\ (l < u)%N /\ nat32 u <= ext x (nat32 d) /\ shape_is s (eset x (nat32 d) (nat32 u - nat32 l)) (bat x)) ss rs
  | KSplit d n => exists x s, ss = [x] /\ rs = repeat s (nat32 n) /\ nat32 d < 8 /\ (1 <= n)%N /\ ext x (nat32 d) mod nat32 n = 0 /\
      shape_is s (eset x (nat32 d) (ext x (nat32 d) / nat32 n)) (bat x)
  | KBatchConcat => exists x0 ss0 s, ss = x0 :: ss0 /\ rs = [s] /\ Forall (fun x => forall i, ext x i = ext x0 i) ss /\
      shape_is s (ext x0) (list_sum (map bat ss))
  | KBatchPick ids => on1 (fun x s => (N.of_nat (length ids) < two32)%N /\ ids <> [] /\ Forall (fun id => nat32 id < bat x) ids /\
      shape_is s (ext x) (length ids)) ss rs
  | KBatchSlice l u => on1 (fun x s => (l < u)%N /\ nat32 u <= bat x /\ shape_is s (ext x) (nat32 u - nat32 l)) ss rs
  | KBatchSplit n => exists x s, ss = [x] /\ rs = repeat s (nat32 n) /\ (1 <= n)%N /\ bat x mod nat32 n = 0 /\ shape_is s (ext x) (bat x / nat32 n)
  | KBatchSum => on1 (fun x s => shape_is s (ext x) 1) ss rs
  | KConcat d => exists x0 ss0 s, ss = x0 :: ss0 /\ rs = [s] /\ nat32 d < 8 /\ Forall (fun x => forall i, i <> nat32 d -> ext x i = ext x0 i) ss /\
      common (map bat ss) (bat s) /\ shape_is s (eset x0 (nat32 d) (list_sum (map (fun x => ext x (nat32 d)) ss))) (bat s)
  | KReshape r => on1 (fun x s => s = r /\ tot r = tot x) ss rs
  | _ => on1 (fun x s => s = x) ss rs
  end.
(** the parameters of the operator: leaves hold tensors of device [d], numbers are in the range of their Rust types *)
Definition wt (d : nat) (k : kind) : Prop :=
  match k with
  | KInput v | KInputOwner v | KParameter v => ready d v
  | KPowi n => (-2147483648 <= n <= 2147483647)%Z
  | _ => True
  end.

(** ** Contents *)
Definition no_tensor : tensor := mkTensor None (mkShape [] 0 0 0) None None.
Definition arg (xs : list tensor) (i : nat) : tensor := nth i xs no_tensor.
Fixpoint cat_at (xs : list tensor) (e : nat) (c : coord) (b : nat) : F :=
  match xs with
  | [] => n0
  | x :: xs' => if c e <? ext (t_shape x) e then at_ x c (bsel (t_shape x) b) else cat_at xs' e (cset c e (c e - ext (t_shape x) e)) b
  end.
Fixpoint bcat_at (xs : list tensor) (c : coord) (b : nat) : F :=
  match xs with
  | [] => n0
  | x :: xs' => if b <? bat (t_shape x) then at_ x c b else bcat_at xs' c (b - bat (t_shape x))
  end.
(** the element of output [v] at coordinate [c] of batch [b] *)
Definition sem (k : kind) (xs : list tensor) (v : nat) (c : coord) (b : nat) : F :=
  let x := arg xs 0 in let y := arg xs 1 in
  match k with
  | KInput t | KInputOwner t | KParameter t => at_ t c b
  | KTriangularL n => if (N.of_nat (c 1%nat) + n <=? N.of_nat (c 0%nat))%N then at_ x c b else n0
  | KTriangularU n => if (N.of_nat (c 0%nat) + n <=? N.of_nat (c 1%nat))%N then at_ x c b else n0
  | KBroadcast d _ => at_ x (cset c (nat32 d) 0) b
  | KLogsumexp d => lse K (line x (nat32 d) c b) (ext (t_shape x) (nat32 d))
  | KMax d => let f := line x (nat32 d) c b in red (pick_better K (@ngt K)) (f 0) f (ext (t_shape x) (nat32 d))
  | KMin d => let f := line x (nat32 d) c b in red (pick_better K (nlt K)) (f 0) f (ext (t_shape x) (nat32 d))
  | KSum d => red (nadd K) n0 (line x (nat32 d) c b) (ext (t_shape x) (nat32 d))
  | KSoftmaxCrossEntropy d => nneg K (red (nadd K) n0 (fun j => let c' := cset c (nat32 d) j in
       nmul K (at_ y c' (bsel (t_shape y) b)) (lsm x (nat32 d) c' (bsel (t_shape x) b))) (ext (t_shape x) (nat32 d)))
  | KSparseSoftmaxCrossEntropy ids d => nneg K (lsm x (nat32 d) (cset c (nat32 d) (pid ids b)) (bsel (t_shape x) b))
  | KPick ids d => at_ x (cset c (nat32 d) (pid ids b)) (bsel (t_shape x) b)
  | KMatmul => blocksum K (fun j => nmul K (at_ x (c2 (c 0) j) (bsel (t_shape x) b)) (at_ y (c2 j (c 1)) (bsel (t_shape y) b))) (ext (t_shape x) 1)
  | KTranspose => at_ x (c2 (c 1) (c 0)) b
  | KSlice d l _ => at_ x (cset c (nat32 d) (c (nat32 d) + nat32 l)) b
  | KSplit d n => at_ x (cset c (nat32 d) (c (nat32 d) + v * (ext (t_shape x) (nat32 d) / nat32 n))) b
  | KBatchConcat => bcat_at xs c b
  | KBatchPick ids => at_ x c (nat32 (nth b ids 0%N))
  | KBatchSlice l _ => at_ x c (nat32 l + b)
  | KBatchSplit n => at_ x c (v * (bat (t_shape x) / nat32 n) + b)
  | KBatchSum => red (nadd K) n0 (fun q => at_ x c q) (bat (t_shape x))
  | KConcat d => cat_at xs (nat32 d) c b
  | KReshape r => nth0 (buf x) (pos r c b)
  | k =>
    match uop k with Some f => f (at_ x c b) | None =>
    match bop k with Some f => f (at_ x c (bsel (t_shape x) b)) (at_ y c (bsel (t_shape y) b)) | None =>
    match sop k with Some f => f (at_ x c (bsel (t_shape x) b)) (at_ y czero (bsel (t_shape y) b)) | None => n0
    end end end
  end.

(** ** Forward computes the specification *)
Variable m : build.
Variable d : nat.
Variable fal : nat -> alloc_oracle K.
Hypothesis HA : forall i, al_ok (fal i).

Notation blanks rs := (map (@new_tensor K d) rs).
Definition outputs (r : res (list tensor)) (rs : list shape) (f : nat -> coord -> nat -> F) : Prop :=
  exists ys, r = Ok ys /\ length ys = length rs /\
    forall v y s, nth_error ys v = Some y -> nth_error rs v = Some s -> is_tensor d s (f v) y.

Lemma replace_ready s (t : tensor) f : is_tensor d s f t -> exists y, replace (@new_tensor K d s) t = Ok y /\ is_tensor d s f y.
Proof.
  intros (HR & HS & HV). exists (mkTensor (Some d) s (t_buf t) None). split.
  - unfold replace, take_buf. cbn. rewrite (ready_dev HR), Nat.eqb_refl. cbn [assert bind]. rewrite HS.
    replace (shape_eqb s s) with true by (symmetry; apply shape_eqb_spec; reflexivity). reflexivity.
  - assert (E : mkTensor (Some d) s (t_buf t) None = t).
    { destruct HR as (E1 & _ & E3 & _). destruct t as [td ts tb th]; cbn in *. subst. reflexivity. }
    rewrite E. split; auto.
Qed.
Lemma into_outputs r s f : yields r d s f -> outputs (into r (blanks [s])) [s] (fun _ => f).
Proof.
  intros (t & E & HT). destruct (replace_ready HT) as (y & Ey & HY). exists [y]. cbn [map]. unfold into. rewrite E. cbn [bind idx nth_error].
  rewrite Ey. cbn [bind]. split; [reflexivity|]. split; [reflexivity|]. intros [|v] y' s' H1 H2; cbn in H1, H2; [|destruct v; discriminate].
  inversion H1; inversion H2; subst. exact HY.
Qed.
Lemma outputs_ext r rs f g : outputs r rs f -> (forall v s c b, nth_error rs v = Some s -> inb s c -> b < bat s -> f v c b = g v c b) -> outputs r rs g.
Proof.
  intros (ys & E & L & H) HG. exists ys. split; auto. split; auto. intros v y s H1 H2. destruct (H _ _ _ H1 H2) as (R & S & V).
  split; auto. split; auto. intros c b Hc Hb. rewrite <- (HG _ _ _ _ H2 Hc Hb). auto.
Qed.

Lemma uop_forward k f x : uop k = Some f -> wt d k -> ready d x -> outputs (forward_op m d fal k [x] (blanks [t_shape x])) [t_shape x] (fun _ c b => f (at_ x c b)).
Proof.
  intros E HW HR.
  destruct k; cbn [uop] in E; inversion E; subst; clear E; cbn [forward_op]; unfold fw1; cbn [idx nth_error bind]; apply into_outputs;
    try (apply maps_x; auto; reflexivity); try (refine (@maps_c K m _ _ _ d (fal 0) x _ _ _); auto; reflexivity).
  - apply powi_yields; auto.
  - apply (@maps_x K m "sigmoid_fw_impl"%string (e_sigmoid K) eq_refl d (fal 0) x); auto.
  - apply (@maps_x K m "softplus_fw_impl"%string (e_softplus K) eq_refl d (fal 0) x); auto.
Qed.
Lemma bop_forward k f a b s : bop k = Some f -> ready d a -> ready d b -> batchable (t_shape a) (t_shape b) s ->
  outputs (forward_op m d fal k [a; b] (blanks [s])) [s] (fun _ c n => f (at_ a c (bsel (t_shape a) n)) (at_ b c (bsel (t_shape b) n))).
Proof.
  intros E Ha Hb HB.
  destruct k; cbn [bop] in E; inversion E; subst; clear E; cbn [forward_op]; unfold fw2; cbn [idx nth_error bind]; apply into_outputs;
    apply zips_ab; auto; reflexivity.
Qed.
Lemma sop_forward k f x y s : sop k = Some f -> ready d x -> ready d y -> scalable (t_shape x) (t_shape y) s -> fits s ->
  outputs (forward_op m d fal k [x; y] (blanks [s])) [s] (fun _ c n => f (at_ x c (bsel (t_shape x) n)) (at_ y czero (bsel (t_shape y) n))).
Proof.
  intros E Ha Hb HB HF.
  destruct k; cbn [sop] in E; inversion E; subst; clear E; cbn [forward_op]; unfold fw2; cbn [idx nth_error bind]; apply into_outputs;
    refine (@zips_sc K m _ _ _ d (fal 0) x y s _ _ _ _ _); auto; reflexivity.
Qed.


Lemma cat_at_loc (xs : list tensor) e : forall c b, c e < exts xs e -> exists l1 x l2, xs = l1 ++ x :: l2 /\
  exts l1 e <= c e /\ c e - exts l1 e < ext (t_shape x) e /\ cat_at xs e c b = at_ x (cset c e (c e - exts l1 e)) (bsel (t_shape x) b).
Proof.
  induction xs as [|z xs IH]; intros c b H; [inversion H|].
  assert (EX : exts (z :: xs) e = ext (t_shape z) e + exts xs e) by reflexivity. cbn [cat_at].
  destruct (Nat.ltb_spec (c e) (ext (t_shape z) e)) as [L|L].
  - exists [], z, xs. cbn. rewrite Nat.sub_0_r. split; [auto|]. split; [lia|]. split; [auto|].
    apply at_ext. intros i. unfold cset. destruct (Nat.eqb_spec i e); subst; auto.
  - destruct (IH (cset c e (c e - ext (t_shape z) e)) b) as (l1 & x & l2 & E1 & E2 & E3 & E4).
    { unfold cset. rewrite Nat.eqb_refl. lia. }
    unfold cset in E2, E3. rewrite Nat.eqb_refl in E2, E3. exists (z :: l1), x, l2.
    assert (EX1 : exts (z :: l1) e = ext (t_shape z) e + exts l1 e) by reflexivity. rewrite EX1.
    split; [cbn; rewrite E1; auto|]. split; [lia|]. split; [lia|]. rewrite E4. apply at_ext. intros i. unfold cset. rewrite Nat.eqb_refl.
    destruct (Nat.eqb_spec i e); subst; auto. lia.
Qed.
Lemma bcat_at_loc (xs : list tensor) c : forall b, b < bats xs -> exists l1 x l2, xs = l1 ++ x :: l2 /\
  bats l1 <= b /\ b - bats l1 < bat (t_shape x) /\ bcat_at xs c b = at_ x c (b - bats l1).
Proof.
  induction xs as [|z xs IH]; intros b H; [inversion H|].
  assert (EX : bats (z :: xs) = bat (t_shape z) + bats xs) by reflexivity. cbn [bcat_at].
  destruct (Nat.ltb_spec b (bat (t_shape z))) as [L|L].
  - exists [], z, xs. cbn. rewrite Nat.sub_0_r. split; [auto|]. split; [lia|]. split; [auto|]. reflexivity.
  - destruct (IH (b - bat (t_shape z))) as (l1 & x & l2 & E1 & E2 & E3 & E4); [lia|].
    exists (z :: l1), x, l2. assert (EX1 : bats (z :: l1) = bat (t_shape z) + bats l1) by reflexivity. rewrite EX1.
    split; [cbn; rewrite E1; auto|]. split; [lia|]. split; [lia|]. rewrite E4. f_equal. lia.
Qed.
Lemma exts_list (xs : list tensor) e : list_sum (map (fun x => ext x e) (map (@t_shape K) xs)) = exts xs e.
Proof. induction xs as [|x xs IH]; [reflexivity|]. unfold list_sum, exts, bats in *; cbn [map fold_right]; rewrite IH; reflexivity. Qed.
Lemma bats_list (xs : list tensor) : list_sum (map bat (map (@t_shape K) xs)) = bats xs.
Proof. induction xs as [|x xs IH]; [reflexivity|]. unfold list_sum, exts, bats in *; cbn [map fold_right]; rewrite IH; reflexivity. Qed.
Lemma map_map1 (xs : list tensor) (f : shape -> nat) : map f (map (@t_shape K) xs) = map (fun x : tensor => f (t_shape x)) xs.
Proof. apply map_map. Qed.
Lemma Forall_map1 (xs : list tensor) (P : shape -> Prop) : Forall P (map (@t_shape K) xs) <-> Forall (fun x : tensor => P (t_shape x)) xs.
Proof. induction xs; cbn; split; intros H; inversion H; subst; constructor; auto; apply IHxs; auto. Qed.

(** parts of a split written one after the other *)
Lemma fw_split_outputs (total : shape -> N) sl n (x : tensor) s f : ready d x ->
  (forall i, i < nat32 n -> yields (sl fal i x (N.of_nat i * (total (t_shape x) / n))%N ((N.of_nat i + 1) * (total (t_shape x) / n))%N) d s (f i)) ->
  outputs (fw_split fal total sl n [x] (blanks (repeat s (nat32 n)))) (repeat s (nat32 n)) f.
Proof.
  intros HR H. unfold fw_split. cbn [idx nth_error bind].
  set (body := fun i ys => _). unfold forN.
  assert (G : forall k ys, k <= nat32 n -> length ys = nat32 n ->
     (forall v y, v < nat32 n - k -> nth_error ys v = Some y -> is_tensor d s (f v) y) ->
     (forall v y, nat32 n - k <= v -> nth_error ys v = Some y -> y = @new_tensor K d s) ->
     exists ys', forL (seq (nat32 n - k) k) body ys = Ok ys' /\ length ys' = nat32 n /\ forall v y, nth_error ys' v = Some y -> is_tensor d s (f v) y).
  { induction k as [|k IH]; intros ys Hk L H1 H2; cbn [seq forL].
    - exists ys. split; auto. split; auto. intros v y Hv. apply H1; auto. apply nth_error_Some_lt in Hv. lia.
    - set (i := nat32 n - S k) in *. destruct (H i) as (t & Et & HT); [lia|]. unfold body at 1. rewrite Et. cbn [bind].
      destruct (nth_error ys i) as [y|] eqn:Ey; [|apply nth_error_None in Ey; lia].
      rewrite (idx_nth Ey). cbn [bind]. pose proof (H2 i y (Nat.le_refl _) Ey) as ->. destruct (replace_ready HT) as (y' & Er & HY). rewrite Er. cbn [bind].
      replace (S i) with (nat32 n - k) by lia. apply IH; [lia|rewrite lset_length; auto| |].
      + intros v y Hv Hy. rewrite nth_error_lset in Hy by lia. destruct (Nat.eqb_spec v i); [inversion Hy; subst; auto|]. apply H1; auto. lia.
      + intros v y Hv Hy. rewrite nth_error_lset in Hy by lia. destruct (Nat.eqb_spec v i); [lia|]. apply (H2 v); auto. lia. }
  destruct (G (nat32 n) (blanks (repeat s (nat32 n)))) as (ys & E & L & HY); auto.
  - rewrite map_length, repeat_length. auto.
  - intros v y Hv. lia.
  - intros v y _ Hy. apply nth_error_In in Hy. apply in_map_iff in Hy. destruct Hy as (s' & <- & Hs). apply repeat_spec in Hs. subst. auto.
  - rewrite Nat.sub_diag in E. exists ys. split; [exact E|]. split; [rewrite repeat_length; auto|].
    intros v y s' Hv Hs. apply nth_error_In in Hs. apply repeat_spec in Hs. subst. apply (HY v y Hv).
Qed.

Lemma slice_part (x s : shape) e n i : (1 <= n)%N -> ext x e mod nat32 n = 0 -> i < nat32 n -> wf x -> shape_is s (eset x e (ext x e / nat32 n)) (bat x) ->
  let k := (index x e / n)%N in let l := (N.of_nat i * k)%N in let u := ((N.of_nat i + 1) * k)%N in
  (l < u)%N /\ nat32 u <= ext x e /\ shape_is s (eset x e (nat32 u - nat32 l)) (bat x) /\ nat32 l = i * (ext x e / nat32 n).
Proof.
  intros Hn HM Hi W HS k l u. assert (EK : nat32 k = ext x e / nat32 n) by (unfold k, ext; rewrite N2Nat.inj_div; auto).
  assert (EL : nat32 l = i * (ext x e / nat32 n)) by (unfold l; rewrite N2Nat.inj_mul, Nat2N.id, EK; auto).
  assert (EU : nat32 u = (i + 1) * (ext x e / nat32 n)) by (unfold u; rewrite N2Nat.inj_mul, N2Nat.inj_add, Nat2N.id, EK; auto).
  pose proof (wf_index_pos e W) as HP. assert (1 <= ext x e) by (unfold ext; lia).
  pose proof (Nat.div_mod (ext x e) (nat32 n) ltac:(lia)) as DM. rewrite HM, Nat.add_0_r in DM.
  assert (1 <= ext x e / nat32 n) by (destruct (ext x e / nat32 n); [rewrite Nat.mul_0_r in DM; lia|lia]).
  split; [|split; [|split; [|exact EL]]].
  - assert (nat32 l < nat32 u) by nia. lia.
  - rewrite EU. rewrite DM at 2. nia.
  - rewrite EU, EL. replace ((i + 1) * (ext x e / nat32 n) - i * (ext x e / nat32 n)) with (ext x e / nat32 n) by nia. exact HS.
Qed.
Lemma batch_part (x s : shape) n i : (1 <= n)%N -> bat x mod nat32 n = 0 -> i < nat32 n -> wf x -> shape_is s (ext x) (bat x / nat32 n) ->
  let k := (batch x / n)%N in let l := (N.of_nat i * k)%N in let u := ((N.of_nat i + 1) * k)%N in
  (l < u)%N /\ nat32 u <= bat x /\ shape_is s (ext x) (nat32 u - nat32 l) /\ nat32 l = i * (bat x / nat32 n).
Proof.
  intros Hn HM Hi W HS k l u. assert (EK : nat32 k = bat x / nat32 n) by (unfold k, bat; rewrite N2Nat.inj_div; auto).
  assert (EL : nat32 l = i * (bat x / nat32 n)) by (unfold l; rewrite N2Nat.inj_mul, Nat2N.id, EK; auto).
  assert (EU : nat32 u = (i + 1) * (bat x / nat32 n)) by (unfold u; rewrite N2Nat.inj_mul, N2Nat.inj_add, Nat2N.id, EK; auto).
  pose proof (wf_batch W) as HP. assert (1 <= bat x) by (unfold bat; lia).
  pose proof (Nat.div_mod (bat x) (nat32 n) ltac:(lia)) as DM. rewrite HM, Nat.add_0_r in DM.
  assert (1 <= bat x / nat32 n) by (destruct (bat x / nat32 n); [rewrite Nat.mul_0_r in DM; lia|lia]).
  split; [|split; [|split; [|exact EL]]].
  - assert (nat32 l < nat32 u) by nia. lia.
  - rewrite EU. rewrite DM at 2. nia.
  - rewrite EU, EL. replace ((i + 1) * (bat x / nat32 n) - i * (bat x / nat32 n)) with (bat x / nat32 n) by nia. exact HS.
Qed.

Lemma refer_outputs (v : tensor) : ready d v -> outputs (y <- idx (blanks [t_shape v]) 0 ;; y' <- refer y v ;; Ok (lset (blanks [t_shape v]) 0 y')) [t_shape v] (fun _ c b => at_ v c b).
Proof.
  intros HR. assert (HT : is_tensor d (t_shape v) (fun c b => at_ v c b) v) by (split; auto).
  destruct (replace_ready HT) as (y & Ey & HY). unfold refer. unfold replace in Ey. cbn [map idx nth_error bind]. rewrite Ey. cbn [bind lset].
  exists [y]. split; [reflexivity|]. split; [reflexivity|]. intros [|w] y' s' H1 H2; cbn in H1, H2; [|destruct w; discriminate].
  inversion H1; inversion H2; subst. exact HY.
Qed.

Theorem forward_sem k xs rs : typed k (map (@t_shape K) xs) rs -> wt d k -> Forall (ready d) xs -> Forall fits rs ->
  outputs (forward_op m d fal k xs (blanks rs)) rs (sem k xs).
Proof.
  intros HT HW HR HF.
  assert (ON1 : forall P, on1 P (map (@t_shape K) xs) rs -> exists x s, xs = [x] /\ rs = [s] /\ ready d x /\ fits s /\ P (t_shape x) s).
  { intros P (x & s & E1 & -> & HP). destruct xs as [|x' [|]]; try discriminate. inversion E1; subst. inversion HR; inversion HF; subst. exists x', s. auto. }
  assert (ON2 : forall P, on2 P (map (@t_shape K) xs) rs -> exists a b s, xs = [a; b] /\ rs = [s] /\ ready d a /\ ready d b /\ fits s /\ P (t_shape a) (t_shape b) s).
  { intros P (a & b & s & E1 & -> & HP). destruct xs as [|a' [|b' [|]]]; try discriminate. inversion E1; subst. inversion HR; inversion HF; subst. inversion H2; subst. exists a', b', s. auto 7. }
  destruct k; cbn [typed] in HT;
  (* elementwise *)
  try (match goal with |- outputs (forward_op m d fal ?k _ _) _ _ => match eval cbn [uop] in (uop k) with Some ?f =>
     destruct (ON1 _ HT) as (x & s & -> & -> & Hx & Hs & ->); exact (@uop_forward k f x eq_refl HW Hx) end end);
  try (match goal with |- outputs (forward_op m d fal ?k _ _) _ _ => match eval cbn [bop] in (bop k) with Some ?f =>
     destruct (ON2 _ HT) as (x & y & s & -> & -> & Hx & Hy & Hs & HB); exact (@bop_forward k f x y s eq_refl Hx Hy HB) end end);
  try (match goal with |- outputs (forward_op m d fal ?k _ _) _ _ => match eval cbn [sop] in (sop k) with Some ?f =>
     destruct (ON2 _ HT) as (x & y & s & -> & -> & Hx & Hy & Hs & HB); exact (@sop_forward k f x y s eq_refl Hx Hy HB Hs) end end).
  - (* input *) destruct HT as (E & ->). destruct xs; [|discriminate]. exact (refer_outputs HW).
  - (* input owner *) destruct HT as (E & ->). destruct xs; [|discriminate]. cbn [forward_op map idx nth_error bind].
    destruct (@copy_flat K m d d (fal 0) value (HA 0) HW) as (t & E' & HT). unfold copy_tensor, new_alloc in E'.
    apply bind_Ok in E'. destruct E' as (t1 & E1 & E2). rewrite E1. cbn [bind].
    assert (ED : device_of t1 = Ok d). { unfold alloc in E1. inv_ok. reflexivity. } rewrite ED. cbn [bind]. rewrite E2. cbn [bind lset].
    exists [t]. split; [reflexivity|]. split; [reflexivity|]. intros [|w] y' s' H1 H2; cbn in H1, H2; [|destruct w; discriminate].
    inversion H1; inversion H2; subst. destruct HT as (R1 & R2 & R3). split; auto. split; auto. intros c b Hc Hb. cbn [sem]. rewrite !at_buf, R2. apply R3. apply pos_lt; auto. apply (ready_wf HW).
  - (* parameter *) destruct HT as (E & ->). destruct xs; [|discriminate]. exact (refer_outputs HW).
  - (* broadcast *) destruct (ON1 _ HT) as (x & s & -> & -> & Hx & Hs & (H1 & H2 & H3 & H4)). cbn [forward_op]. unfold fw1. cbn [idx nth_error bind].
    refine (@into_outputs _ s (sem (KBroadcast dim size) [x] 0) _). apply broadcast_yields; auto.
  - (* logsumexp *) destruct (ON1 _ HT) as (x & s & -> & -> & Hx & Hs & (H1 & H2)). cbn [forward_op]. unfold fw1. cbn [idx nth_error bind].
    destruct (@logsumexp_yields K m d (fal 0) x dim (HA 0) Hx H1) as (s' & Hs' & HY). rewrite (shape_is_unique (reduces_shape_is Hs') H2) in HY.
    exact (into_outputs HY).
  - destruct (ON1 _ HT) as (x & s & -> & -> & Hx & Hs & (H1 & H2)). cbn [forward_op]. unfold fw1. cbn [idx nth_error bind].
    destruct (@extremum_yields K m (@ngt K) "max_fw_impl" d (fal 0) x dim eq_refl (HA 0) Hx H1) as (s' & Hs' & HY). rewrite (shape_is_unique (reduces_shape_is Hs') H2) in HY.
    exact (into_outputs HY).
  - destruct (ON1 _ HT) as (x & s & -> & -> & Hx & Hs & (H1 & H2)). cbn [forward_op]. unfold fw1. cbn [idx nth_error bind].
    destruct (@extremum_yields K m (nlt K) "min_fw_impl" d (fal 0) x dim eq_refl (HA 0) Hx H1) as (s' & Hs' & HY). rewrite (shape_is_unique (reduces_shape_is Hs') H2) in HY.
    exact (into_outputs HY).
  - destruct (ON1 _ HT) as (x & s & -> & -> & Hx & Hs & (H1 & H2)). cbn [forward_op]. unfold fw1. cbn [idx nth_error bind].
    destruct (@sum_yields K m d (fal 0) x dim (HA 0) Hx H1) as (s' & Hs' & HY). rewrite (shape_is_unique (reduces_shape_is Hs') H2) in HY.
    exact (into_outputs HY).
  - (* cross entropy *) destruct (ON2 _ HT) as (x & y & s & -> & -> & Hx & Hy & Hs & (H1 & H2 & s0 & H3 & H4 & H5)). cbn [forward_op]. unfold fw2. cbn [idx nth_error bind].
    assert (HB : bin_ok (t_shape y) (t_shape x) s0).
    { destruct H3 as (B1 & B2 & (B3 & B4 & B5)). split; [intros _ _ i; auto|]. split; [lia|]. split; auto. split; [|rewrite Nat.max_comm; auto].
      intros i. rewrite B4. destruct (is_scalar (t_shape y)); auto. }
    destruct (@softmax_cross_entropy_yields K m d fal x y dim s0 HA Hx Hy H1 H2 HB H4) as (s' & Hs' & HY).
    rewrite (shape_is_unique (reduces_shape_is Hs') H5) in HY.
    refine (@into_outputs _ s (sem (KSoftmaxCrossEntropy dim) [x; y] 0) _). eapply yields_ext; [exact HY|].
    intros c b Hc Hb. cbv beta. cbn [sem arg nth]. destruct H3 as (B1 & B2 & (B3 & B4 & B5)). destruct H5 as (C1 & C2 & C3).
    assert (EE : ext s0 (nat32 dim) = ext (t_shape x) (nat32 dim)) by auto. rewrite EE. f_equal. apply red_ext. intros j Hj.
    assert (HI : inb (t_shape x) (cset c (nat32 dim) j)).
    { intros i. specialize (Hc i). rewrite C2 in Hc. unfold eset in Hc. unfold cset. rewrite <- B4. destruct (Nat.eqb_spec i (nat32 dim)); subst; [rewrite EE; auto|auto]. }
    assert (HI' : inb (t_shape y) (cset c (nat32 dim) j)) by (intros i; rewrite <- B1; apply HI).
    rewrite (opnd_in _ Hy HI'). f_equal. f_equal. destruct (is_scalar (t_shape x)) eqn:SX; auto. unfold lsm.
    pose proof (scalar_ext (ready_wf Hx) SX) as SE.
    assert (EC : forall i, cset c (nat32 dim) j i = czero i). { intros i. specialize (HI i). rewrite SE in HI. unfold czero. lia. }
    f_equal; [apply at_ext; intros i; rewrite EC; auto|]. unfold line. apply lse_ext; [rewrite SE; lia|]. intros k Hk. apply at_ext. intros i. specialize (EC i). unfold cset in *.
    destruct (Nat.eqb i (nat32 dim)); auto.
  - (* sparse cross entropy *) destruct (ON1 _ HT) as (x & s & -> & -> & Hx & Hs & (H1 & H2 & H3 & H4 & H5 & H6)). cbn [forward_op]. unfold fw1. cbn [idx nth_error bind].
    refine (@into_outputs _ s (sem (KSparseSoftmaxCrossEntropy ids dim) [x] 0) _). apply sparse_cross_entropy_yields; auto.
  - (* matmul *) destruct (ON2 _ HT) as (x & y & s & -> & -> & Hx & Hy & Hs & (H1 & H2 & H3 & H4 & H5)). cbn [forward_op]. unfold fw2. cbn [idx nth_error bind].
    refine (@into_outputs _ s (sem KMatmul [x; y] 0) _). apply matmul_yields; auto.
  - destruct (ON1 _ HT) as (x & s & -> & -> & Hx & Hs & (H1 & H2)). cbn [forward_op]. unfold fw1. cbn [idx nth_error bind].
    refine (@into_outputs _ s (sem KTranspose [x] 0) _). apply transpose_yields; auto.
  - destruct (ON1 _ HT) as (x & s & -> & -> & Hx & Hs & (H1 & H2 & H3 & ->)). cbn [forward_op]. unfold fw1. cbn [idx nth_error bind].
    refine (@into_outputs _ _ (sem (KTriangularL k) [x] 0) _). apply (@triangular_yields K m false); auto.
  - destruct (ON1 _ HT) as (x & s & -> & -> & Hx & Hs & (H1 & H2 & H3 & ->)). cbn [forward_op]. unfold fw1. cbn [idx nth_error bind].
    refine (@into_outputs _ _ (sem (KTriangularU k) [x] 0) _). apply (@triangular_yields K m true); auto.
  - (* pick *) destruct (ON1 _ HT) as (x & s & -> & -> & Hx & Hs & (H1 & H2 & H3 & H4 & H5 & H6)). cbn [forward_op]. unfold fw1. cbn [idx nth_error bind].
    refine (@into_outputs _ s (sem (KPick ids dim) [x] 0) _). apply t_pick_yields; auto.
  - (* slice *) destruct (ON1 _ HT) as (x & s & -> & -> & Hx & Hs & (H1 & H2 & H3 & H4)). cbn [forward_op]. unfold fw1. cbn [idx nth_error bind].
    refine (@into_outputs _ s (sem (KSlice dim lower upper) [x] 0) _). apply slice_yields; auto.
  - (* split *) destruct HT as (x0 & s & E & -> & H1 & H2 & H3 & H4). destruct xs as [|x [|]]; try discriminate. inversion E; subst x0. inversion HR as [|? ? Hx _]; subst.
    cbn [forward_op]. apply fw_split_outputs; auto. intros i Hi. cbv beta.
    destruct (slice_part H2 H3 Hi (ready_wf Hx) H4) as (L1 & L2 & L3 & L4). eapply yields_ext; [eapply slice_yields; eauto|].
    intros c b Hc Hb. cbv beta. cbn [sem arg nth]. rewrite L4. reflexivity.
  - (* batch concat *) destruct HT as (x0 & ss0 & s & E & -> & H1 & H2). destruct xs as [|y xs]; try discriminate. inversion E; subst x0 ss0. inversion HF; subst.
    rewrite bats_list in H2. apply Forall_map1 in H1. cbn [forward_op].
    destruct (@batch_concat_yields K m d (fal 0) y xs s (HA 0) HR H1 H2 ltac:(auto)) as (t & E1 & R1 & S1 & V1).
    refine (@into_outputs _ s (sem KBatchConcat (y :: xs) 0) _). exists t. split; auto. split; auto. split; auto.
    intros c b Hc Hb. cbn [sem]. destruct H2 as (_ & X1 & X2). rewrite X2 in Hb. destruct (bcat_at_loc c Hb) as (l1 & x & l2 & Q1 & Q2 & Q3 & Q4).
    rewrite Q4. rewrite <- (V1 l1 x l2 c (b - bats l1) Q1); auto; [f_equal; lia|].
    intros i. specialize (Hc i). rewrite X1 in Hc. rewrite Forall_forall in H1. rewrite (H1 x); auto. rewrite Q1. apply in_or_app. right; left; auto.
  - (* batch pick *) destruct (ON1 _ HT) as (x & s & -> & -> & Hx & Hs & (H1 & H2 & H3 & H4)). cbn [forward_op]. unfold fw1. cbn [idx nth_error bind].
    refine (@into_outputs _ s (sem (KBatchPick ids) [x] 0) _). unfold t_batch_pick. rewrite (ready_device_of Hx). cbn [bind]. apply batch_pick_yields; auto.
  - (* batch slice *) destruct (ON1 _ HT) as (x & s & -> & -> & Hx & Hs & (H1 & H2 & H3)). cbn [forward_op]. unfold fw1. cbn [idx nth_error bind].
    refine (@into_outputs _ s (sem (KBatchSlice lower upper) [x] 0) _). apply batch_slice_yields; auto.
  - (* batch split *) destruct HT as (x0 & s & E & -> & H1 & H2 & H3). destruct xs as [|x [|]]; try discriminate. inversion E; subst x0. inversion HR as [|? ? Hx _]; subst.
    cbn [forward_op]. apply fw_split_outputs; auto. intros i Hi. cbv beta.
    destruct (batch_part H1 H2 Hi (ready_wf Hx) H3) as (L1 & L2 & L3 & L4). eapply yields_ext; [eapply batch_slice_yields; eauto|].
    intros c b Hc Hb. cbv beta. cbn [sem arg nth]. rewrite L4. reflexivity.
  - (* batch sum *) destruct (ON1 _ HT) as (x & s & -> & -> & Hx & Hs & H1). cbn [forward_op]. unfold fw1. cbn [idx nth_error bind].
    refine (@into_outputs _ s (sem KBatchSum [x] 0) _). apply batch_sum_yields; auto.
  - (* concat *) destruct HT as (x0 & ss0 & s & E & -> & H1 & H2 & H3 & H4). destruct xs as [|y xs]; try discriminate. inversion E; subst x0 ss0. inversion HF; subst.
    rewrite exts_list in H4. apply Forall_map1 in H2. rewrite map_map1 in H3. cbn [forward_op].
    destruct (@concat_yields K m d (fal 0) y xs dim s (HA 0) HR H1 H2 H3 H4 ltac:(auto)) as (t & E1 & R1 & S1 & V1).
    refine (@into_outputs _ s (sem (KConcat dim) (y :: xs) 0) _). exists t. split; auto. split; auto. split; auto.
    intros c b Hc Hb. cbn [sem]. destruct H4 as (_ & X1 & X2). pose proof (Hc (nat32 dim)) as He. rewrite X1 in He. unfold eset in He. rewrite Nat.eqb_refl in He.
    destruct (cat_at_loc b He) as (l1 & x & l2 & Q1 & Q2 & Q3 & Q4). rewrite Q4.
    rewrite <- (V1 l1 x l2 (cset c (nat32 dim) (c (nat32 dim) - exts l1 (nat32 dim))) b Q1); auto.
    + apply at_ext. intros i. unfold cset. rewrite Nat.eqb_refl. destruct (Nat.eqb_spec i (nat32 dim)); subst; auto. lia.
    + intros i. unfold cset. destruct (Nat.eqb_spec i (nat32 dim)) as [->|Ne]; auto. specialize (Hc i). rewrite X1 in Hc. unfold eset in Hc.
      destruct (Nat.eqb_spec i (nat32 dim)); [lia|]. rewrite Forall_forall in H2. rewrite (H2 x); auto. rewrite Q1. apply in_or_app. right; left; auto.
  - (* reshape *) destruct (ON1 _ HT) as (x & s0 & -> & -> & Hx & Hs & (-> & H1)). cbn [forward_op]. unfold fw1. cbn [idx nth_error bind].
    refine (@into_outputs _ s (sem (KReshape s) [x] 0) _).
    destruct (@reshape_flat K m d (fal 0) x s (HA 0) Hx Hs H1) as (t & E & (R1 & R2 & R3)). unfold t_reshape in E. rewrite (ready_device_of Hx) in E. cbn [bind] in E.
    exists t. split; [exact E|]. split; auto. split; auto. intros c b Hc Hb. cbn [sem arg nth]. rewrite at_buf, R2. apply R3. apply pos_lt; auto. apply Hs.
Qed.
End Typed.
