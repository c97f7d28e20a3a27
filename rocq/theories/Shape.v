(** * Shape: model of prima_undine/src/shape.rs *)
From Verif Require Export Base.
Set Implicit Arguments.
Local Open Scope N_scope.

(** cargo build mode: [Debug] = overflow-checks on (arithmetic overflow panics),
    [Release] = overflow wraps modulo 2^32. *)
Inductive build := Debug | Release.

Definition two32 : N := 4294967296.

Definition norm32 (m : build) (x : N) : res N :=
  if x <? two32 then Ok x else match m with Debug => Panic | Release => Ok (x mod two32) end.
(** u32 multiplication and addition *)
Definition mul32 m a b := norm32 m (a * b).
Definition add32 m a b := norm32 m (a + b).

(** shape.rs L8 *)
Definition MAX_DEPTH : nat := 8.

(** shape.rs L10-16.  [dims] is the fixed array of 8 u32. [depth] is a u32 in the
    code; it never exceeds 8, so it is a nat here. Dimension arguments (u32) are
    nats as well; the only place where such an argument could overflow is
    [has_same_loo_dims], where the overflow is explicit. *)
Record shape := mkShape { dims8 : list N; batch : N; depth : nat; volume : N }.

(** derived PartialEq (L10): field-wise equality *)
Definition list_eqb (l1 l2 : list N) : bool :=
  (length l1 =? length l2)%nat && forallb (fun p => fst p =? snd p) (combine l1 l2).
Definition shape_eqb (a b : shape) : bool :=
  list_eqb (dims8 a) (dims8 b) && (batch a =? batch b) && (depth a =? depth b)%nat && (volume a =? volume b).

(** array write with bounds check (dims_filled[i] = ..) *)
Definition aset {A} (l : list A) (i : nat) (v : A) : res (list A) :=
  if (i <? length l)%nat then Ok (lset l i v) else Panic.

(** shape.rs L19-39 *)
Definition shape_new (m : build) (ds : list N) (b : N) : res shape :=
  _ <- assert (length ds <=? MAX_DEPTH)%nat ;;
  _ <- assert (1 <=? b) ;;
  st <- forN (length ds) (fun i '(filled, vol, dep) =>
          di <- idx ds i ;;
          _ <- assert (negb (di =? 0)) ;;
          filled' <- aset filled i di ;;
          let dep' := if negb (di =? 1) then S i else dep in
          vol' <- mul32 m vol di ;;
          Ok (filled', vol', dep')) (repeat 1 MAX_DEPTH, 1, 0%nat) ;;
  let '(filled, vol, dep) := st in
  Ok (mkShape filled b dep vol).

(** shape.rs L45-47 *)
Definition dims (s : shape) : list N := firstn (depth s) (dims8 s).

(** shape.rs L57-63 *)
Definition lower_volume (m : build) (s : shape) (dim : nat) : res N :=
  forN (Nat.min dim (depth s)) (fun i ret => d <- idx (dims8 s) i ;; mul32 m ret d) 1.

(** shape.rs L65-67 *)
Definition size (m : build) (s : shape) : res N := mul32 m (batch s) (volume s).

(** shape.rs L69-87 *)
Definition has_batch (s : shape) : bool := negb (batch s =? 1).
Definition has_compatible_batch (a b : shape) : bool :=
  (batch a =? batch b) || (batch a =? 1) || (batch b =? 1).
Definition is_scalar (s : shape) : bool := (depth s =? 0)%nat.
Definition is_column_vector (s : shape) : bool := (depth s <=? 1)%nat.
Definition is_matrix (s : shape) : bool := (depth s <=? 2)%nat.

(** shape.rs L89-95. [ok && ..] short-circuits, so dims are only indexed while
    ok holds; indices below depth <= 8 are always in range. *)
Definition has_same_dims (a b : shape) : res bool :=
  ok <- forN (depth a) (fun i ok =>
          if ok : bool then x <- idx (dims8 a) i ;; y <- idx (dims8 b) i ;; Ok (x =? y) else Ok false) true ;;
  Ok (ok && (depth a =? depth b)%nat).

(** the while loops of L103-105 / L107-109 / L141-143: strip trailing ones.
    Structural recursion on n; dims[n-1] out of range panics. *)
Fixpoint strip (ds : list N) (n : nat) : res nat :=
  match n with
  | O => Ok O
  | S n' => d <- idx ds n' ;; if d =? 1 then strip ds n' else Ok n
  end.

(** shape.rs L97-115; [dim + 1] is a u32 addition *)
Definition has_same_loo_dims (m : build) (a b : shape) (dim : nat) : res bool :=
  d1 <- add32 m (N.of_nat dim) 1 ;;
  nl <- strip (dims8 a) (if N.of_nat (depth a) =? d1 then dim else depth a) ;;
  d2 <- add32 m (N.of_nat dim) 1 ;;
  nr <- strip (dims8 b) (if N.of_nat (depth b) =? d2 then dim else depth b) ;;
  forN nl (fun i p =>
     if p : bool then x <- idx (dims8 a) i ;; y <- idx (dims8 b) i ;; Ok ((x =? y) || (i =? dim)%nat) else Ok false)
    (nl =? nr)%nat.

(** shape.rs L129-144 (and L117-121: resize_dim is update_dim on a copy) *)
Definition update_dim (m : build) (s : shape) (dim : nat) (k : N) : res shape :=
  _ <- assert (dim <? MAX_DEPTH)%nat ;;
  _ <- assert (negb (k =? 0)) ;;
  s1 <- (if (depth s <=? dim)%nat then
           ds <- forR (depth s) (dim + 1) (fun i ds => aset ds i 1) (dims8 s) ;;
           Ok (mkShape ds (batch s) (dim + 1) (volume s))
         else Ok s) ;;
  dd <- idx (dims8 s1) dim ;;
  _ <- assert (negb (dd =? 0)) ;;   (* division by zero panics *)
  vol <- mul32 m (volume s1 / dd) k ;;
  ds <- aset (dims8 s1) dim k ;;
  dep <- strip ds (depth s1) ;;
  Ok (mkShape ds (batch s1) dep vol).
Definition resize_dim := update_dim.

(** shape.rs L146-149 (and L123-127) *)
Definition update_batch (s : shape) (b : N) : res shape :=
  _ <- assert (1 <=? b) ;; Ok (mkShape (dims8 s) b (depth s) (volume s)).
Definition resize_batch := update_batch.

(** shape.rs L152-161 *)
Definition index (s : shape) (i : nat) : N :=
  if (i <? depth s)%nat then nth i (dims8 s) 1 else 1.

(** shape.rs L169-195: the serialized form is the pair (dims(), batch()) *)
Record shape_serde := mkSerde { sd_dims : list N; sd_batch : N }.
Definition shape_serialize (s : shape) : shape_serde := mkSerde (dims s) (batch s).
Definition shape_deserialize (m : build) (d : shape_serde) : res shape := shape_new m (sd_dims d) (sd_batch d).

(** ** Specification vocabulary (independent of the code) *)
Definition prodN (l : list N) : N := fold_right N.mul 1 l.

(** [wf s]: the shape is consistent. *)
Record wf (s : shape) : Prop := mkWf {
  wf_len : length (dims8 s) = 8%nat;
  wf_pos : forall i, (i < 8)%nat -> 1 <= nth i (dims8 s) 1;
  wf_batch : 1 <= batch s < two32;
  wf_depth_le : (depth s <= 8)%nat;
  wf_depth_last : (0 < depth s)%nat -> nth (depth s - 1) (dims8 s) 1 <> 1;
  wf_depth_ones : forall i, (depth s <= i)%nat -> nth i (dims8 s) 1 = 1;
  wf_vol : volume s = prodN (dims8 s);
  wf_vol_bound : volume s < two32 }.

(** ** Basic lemmas *)
Lemma norm32_lt m x : x < two32 -> norm32 m x = Ok x.
Proof. intros H; unfold norm32. apply N.ltb_lt in H. rewrite H; auto. Qed.
Lemma norm32_Debug x y : norm32 Debug x = Ok y <-> x < two32 /\ y = x.
Proof.
  unfold norm32. destruct (N.ltb_spec x two32); split.
  - intros E; injection E; auto.
  - intros (_ & ->); auto.
  - discriminate.
  - intros (H1 & _); lia.
Qed.
Lemma norm32_bound m x y : norm32 m x = Ok y -> y < two32.
Proof.
  unfold norm32. destruct (N.ltb_spec x two32); [intros E; injection E; intros; subst; auto|].
  destruct m; [discriminate|]. intros E; injection E; intros; subst. apply N.mod_lt. discriminate.
Qed.

Lemma prodN_app l1 l2 : prodN (l1 ++ l2) = prodN l1 * prodN l2.
Proof. induction l1; simpl; [destruct (prodN l2); auto|]. rewrite IHl1. lia. Qed.
Lemma prodN_ones n : prodN (repeat 1 n) = 1.
Proof. induction n; simpl; auto. rewrite IHn; auto. Qed.
Lemma prodN_pos l : Forall (fun d => 1 <= d) l -> 1 <= prodN l.
Proof. induction 1; simpl; [lia|]. nia. Qed.
Lemma prodN_firstn_skipn n l : prodN l = prodN (firstn n l) * prodN (skipn n l).
Proof. rewrite <- prodN_app, firstn_skipn; auto. Qed.

Lemma firstn_snoc A (l : list A) n a : nth_error l n = Some a -> firstn (S n) l = firstn n l ++ [a].
Proof.
  revert l; induction n as [|n IH]; intros [|x l] H; simpl in *; try discriminate.
  - injection H as ->; auto.
  - rewrite IH; auto.
Qed.

Lemma prodN_lset l i k : (i < length l)%nat -> nth i l 1 <> 0 ->
  prodN (lset l i k) = prodN l / nth i l 1 * k.
Proof.
  revert i; induction l as [|a l IH]; intros i Hi Hn; simpl in *; [lia|].
  destruct i as [|i]; simpl in *.
  - rewrite (N.mul_comm a), N.div_mul by auto. lia.
  - rewrite IH by (auto; lia).
    assert (E : exists q, prodN l = q * nth i l 1).
    { clear - Hi. assert (Hi' : (i < length l)%nat) by lia. clear Hi.
      revert i Hi'; induction l as [|b l IH]; intros i Hi; simpl in *; [lia|].
      destruct i; simpl; [exists (prodN l); lia|].
      destruct (IH i ltac:(lia)) as (q & ->). exists (b * q); lia. }
    destruct E as (q & ->). replace (a * (q * nth i l 1)) with (a * q * nth i l 1) by ring.
    rewrite !N.div_mul by auto. ring.
Qed.

Lemma prodN_div_nth l i : (i < length l)%nat -> exists q, prodN l = q * nth i l 1.
Proof.
  revert i; induction l as [|b l IH]; intros i Hi; simpl in *; [lia|].
  destruct i; simpl; [exists (prodN l); lia|].
  destruct (IH i ltac:(lia)) as (q & ->). exists (b * q); lia.
Qed.

Lemma wf_Forall s : wf s -> Forall (fun d => 1 <= d) (dims8 s).
Proof.
  intros H. apply Forall_forall. intros x Hx.
  destruct (In_nth _ _ 1 Hx) as (i & Hi & <-). apply (wf_pos H). rewrite <- (wf_len H). auto.
Qed.

Lemma wf_index s i : wf s -> index s i = nth i (dims8 s) 1.
Proof.
  intros H; unfold index. destruct (Nat.ltb_spec i (depth s)); auto.
  symmetry; apply (wf_depth_ones H); auto.
Qed.

Lemma wf_index_pos s i : wf s -> 1 <= index s i.
Proof.
  intros H. rewrite wf_index by auto. destruct (Nat.lt_ge_cases i 8).
  - apply (wf_pos H); auto.
  - rewrite nth_overflow; [lia|]. rewrite (wf_len H); auto.
Qed.

Lemma index_ge8 s i : wf s -> (8 <= i)%nat -> index s i = 1.
Proof. intros H Hi. rewrite wf_index by auto. apply nth_overflow. rewrite (wf_len H); auto. Qed.

Lemma strip_spec ds n : (n <= length ds)%nat ->
  exists k, strip ds n = Ok k /\ (k <= n)%nat /\ ((0 < k)%nat -> nth (k-1) ds 1 <> 1) /\
     forall i, (k <= i < n)%nat -> nth i ds 1 = 1.
Proof.
  induction n as [|n IH]; intros Hn.
  - exists O; simpl; repeat split; auto; lia.
  - simpl. rewrite (idx_Ok _ _ 1) by lia. simpl.
    destruct (N.eqb_spec (nth n ds 1) 1) as [E|E].
    + destruct IH as (k & E1 & H1 & H2 & H3); [lia|]. exists k; repeat split; auto; try lia.
      intros i Hi. destruct (Nat.eq_dec i n); [subst; auto|apply H3; lia].
    + exists (S n); repeat split; auto; try lia. intros _. rewrite Nat.sub_succ, Nat.sub_0_r. auto.
Qed.

Lemma depth_unique (ds : list N) a b :
  ((0 < a)%nat -> nth (a-1) ds 1 <> 1) -> (forall i, (a <= i)%nat -> nth i ds 1 = 1) ->
  ((0 < b)%nat -> nth (b-1) ds 1 <> 1) -> (forall i, (b <= i)%nat -> nth i ds 1 = 1) -> a = b.
Proof.
  intros Ha1 Ha2 Hb1 Hb2.
  destruct (Nat.lt_trichotomy a b) as [H|[H|H]]; auto; exfalso.
  - apply Hb1; [lia|]. apply Ha2; lia.
  - apply Ha1; [lia|]. apply Hb2; lia.
Qed.

(** A consistent shape is determined by its extents and batch. *)
Lemma wf_ext s1 s2 : wf s1 -> wf s2 -> (forall i, index s1 i = index s2 i) -> batch s1 = batch s2 -> s1 = s2.
Proof.
  intros H1 H2 He Hb.
  assert (Ed : dims8 s1 = dims8 s2).
  { apply nth_ext_len with (d := 1); [rewrite (wf_len H1), (wf_len H2); auto|].
    intros i Hi. rewrite <- !wf_index by auto. apply He. }
  assert (Edep : depth s1 = depth s2).
  { apply (@depth_unique (dims8 s1)); try apply H1; try (rewrite Ed; apply H2). }
  pose proof (wf_vol H1); pose proof (wf_vol H2).
  destruct s1, s2; simpl in *; subst. reflexivity.
Qed.

(** ** shape_new *)
Definition fill (ds : list N) : list N := ds ++ repeat 1 (8 - length ds).

Lemma nth_fill ds i : nth i (fill ds) 1 = nth i ds 1.
Proof.
  unfold fill. destruct (Nat.lt_ge_cases i (length ds)).
  - apply app_nth1; auto.
  - rewrite app_nth2 by auto. rewrite (nth_overflow ds) by auto.
    destruct (Nat.lt_ge_cases (i - length ds) (8 - length ds)).
    + apply nth_repeat.
    + apply nth_overflow. rewrite repeat_length; auto.
Qed.

Lemma prodN_fill ds : prodN (fill ds) = prodN ds.
Proof. unfold fill. rewrite prodN_app, prodN_ones. lia. Qed.

Lemma fill_length ds : (length ds <= 8)%nat -> length (fill ds) = 8%nat.
Proof. intros; unfold fill. rewrite app_length, repeat_length. lia. Qed.

Definition loop_inv (ds : list N) (i : nat) (st : list N * N * nat) : Prop :=
  let '(f, v, dep) := st in
  f = fill (firstn i ds) /\ v = prodN (firstn i ds) /\ v < two32 /\ (dep <= i)%nat /\
  ((0 < dep)%nat -> nth (dep - 1) ds 1 <> 1) /\ (forall j, (dep <= j < i)%nat -> nth j ds 1 = 1).

Lemma fill_step ds i : (i < length ds)%nat -> (length ds <= 8)%nat ->
  lset (fill (firstn i ds)) i (nth i ds 1) = fill (firstn (S i) ds).
Proof.
  intros Hi Hl.
  assert (Hfl : length (firstn i ds) = i) by (rewrite firstn_length; lia).
  assert (HSfl : length (firstn (S i) ds) = S i) by (rewrite firstn_length; lia).
  apply nth_ext_len with (d := 1).
  - rewrite lset_length, !fill_length; lia.
  - intros j Hj. rewrite lset_length, fill_length in Hj by lia.
    rewrite nth_lset by (rewrite fill_length; lia). rewrite !nth_fill.
    destruct (Nat.eqb_spec j i) as [->|Hne].
    + rewrite nth_firstn_lt; auto.
    + destruct (Nat.lt_ge_cases j i).
      * rewrite !nth_firstn_lt by lia; auto.
      * rewrite !nth_overflow; auto; lia.
Qed.

Lemma Forall_firstn {A} (P : A -> Prop) n (l : list A) : Forall P l -> Forall P (firstn n l).
Proof. intros H; revert n; induction H; intros [|n]; simpl; auto. Qed.

Lemma Forall_skipn {A} (P : A -> Prop) n (l : list A) : Forall P l -> Forall P (skipn n l).
Proof. intros H; revert n; induction H; intros [|n]; simpl; auto. Qed.

Lemma prodN_firstn_le n ds : Forall (fun d => 1 <= d) ds -> prodN (firstn n ds) <= prodN ds.
Proof.
  intros H. rewrite (prodN_firstn_skipn n ds).
  pose proof (prodN_pos (Forall_skipn n H)). pose proof (prodN_pos (Forall_firstn n H)). nia.
Qed.

(** with the product in range, both builds succeed *)
Lemma shape_new_Ok m ds b :
  (length ds <= 8)%nat -> Forall (fun d => 1 <= d) ds -> 1 <= b < two32 -> prodN ds < two32 ->
  exists s, shape_new m ds b = Ok s /\ wf s /\ batch s = b /\ (forall i, index s i = nth i ds 1).
Proof.
  intros Hl Hp Hb Hv. unfold shape_new.
  replace (length ds <=? MAX_DEPTH)%nat with true by (symmetry; apply Nat.leb_le; exact Hl).
  replace (1 <=? b) with true by (symmetry; apply N.leb_le; lia). simpl assert. cbn [bind].
  match goal with |- context [forN (length ds) ?bd ?s0] =>
    destruct (@forN_inv _ (loop_inv ds) (length ds) bd s0) as (st & E & HI) end.
  - simpl. unfold fill. simpl. repeat split; auto; try reflexivity; intros; lia.
  - intros i [[f v] dep] Hi (Hf & Hvv & Hv32 & Hdep & Hlast & Hones).
    assert (Hd : 1 <= nth i ds 1) by (eapply Forall_forall; [exact Hp|apply nth_In; lia]).
    assert (Enth : nth_error ds i = Some (nth i ds 1)) by (apply nth_error_nth'; lia).
    rewrite (idx_Ok ds i 1) by lia. cbn [bind].
    assert (E0 : negb (nth i ds 1 =? 0) = true) by (apply negb_true_iff, N.eqb_neq; lia).
    rewrite E0. cbn [assert bind]. unfold aset.
    rewrite Hf, fill_length by (rewrite firstn_length; lia).
    replace (i <? 8)%nat with true by (symmetry; apply Nat.ltb_lt; lia). cbn [bind].
    assert (Ev : v * nth i ds 1 = prodN (firstn (S i) ds)).
    { rewrite (firstn_snoc _ _ Enth), prodN_app, Hvv. simpl. lia. }
    unfold mul32. rewrite norm32_lt by (rewrite Ev; pose proof (prodN_firstn_le (S i) Hp); lia). cbn [bind].
    eexists; split; [reflexivity|]. cbn [loop_inv].
    rewrite fill_step by lia. rewrite Ev.
    repeat split; auto.
    + pose proof (prodN_firstn_le (S i) Hp); lia.
    + destruct (N.eqb_spec (nth i ds 1) 1); cbn [negb]; lia.
    + destruct (N.eqb_spec (nth i ds 1) 1) as [E1|E1]; cbn [negb]; auto.
      intros _. rewrite Nat.sub_succ, Nat.sub_0_r; auto.
    + intros j. destruct (N.eqb_spec (nth i ds 1) 1) as [E1|E1]; cbn [negb]; [|lia].
      intros Hj. destruct (Nat.eq_dec j i); [subst; auto|apply Hones; lia].
  - rewrite E. cbn [bind]. destruct st as [[f v] dep].
    destruct HI as (Hf & Hvv & Hv32 & Hdep & Hlast & Hones).
    rewrite firstn_all in *. subst f v.
    eexists; split; [reflexivity|].
    match goal with |- wf ?s /\ _ => assert (W : wf s) end.
    { constructor; cbn [dims8 batch depth volume]; rewrite ?prodN_fill; auto.
      - apply fill_length; auto.
      - intros i Hi. rewrite nth_fill. destruct (Nat.lt_ge_cases i (length ds)).
        + eapply Forall_forall; [exact Hp|apply nth_In; lia].
        + rewrite nth_overflow by auto. lia.
      - lia.
      - rewrite nth_fill; auto.
      - intros i Hi. rewrite nth_fill. destruct (Nat.lt_ge_cases i (length ds)); [auto|].
        apply nth_overflow; auto. }
    split; [exact W|]. split; [reflexivity|].
    intros i. rewrite wf_index by exact W. cbn [dims8]. apply nth_fill.
Qed.

(** in the debug build nothing else succeeds *)
Lemma shape_new_Debug_inv ds b s :
  shape_new Debug ds b = Ok s ->
  (length ds <= 8)%nat /\ Forall (fun d => 1 <= d) ds /\ 1 <= b /\ prodN ds < two32.
Proof.
  intros H. unfold shape_new in H.
  apply assert_bind_Ok in H; destruct H as (H & H0).
  apply assert_bind_Ok in H0; destruct H0 as (H0 & H1).
  apply bind_Ok in H1; destruct H1 as (st & H1 & _).
  apply Nat.leb_le in H. apply N.leb_le in H0. unfold MAX_DEPTH in H.
  match type of H1 with forN _ ?bd ?s0 = _ =>
     assert (G : forall n st', (n <= length ds)%nat -> forN n bd s0 = Ok st' ->
        Forall (fun d => 1 <= d) (firstn n ds) /\ snd (fst st') = prodN (firstn n ds) /\ prodN (firstn n ds) < two32)
  end.
  { induction n as [|n IH]; intros st' Hn E.
    - injection E as <-; simpl; repeat split; auto; reflexivity.
    - rewrite forN_S in E. apply bind_Ok in E. destruct E as ([[f v] dep] & E1 & E2).
      destruct (IH _ ltac:(lia) E1) as (IH1 & IH2 & IH3). cbn [fst snd] in IH2. clear IH E1.
      apply bind_Ok in E2. destruct E2 as (di & Ei & E2). apply idx_inv in Ei.
      apply assert_bind_Ok in E2. destruct E2 as (E0 & E2). apply negb_true_iff, N.eqb_neq in E0.
      apply bind_Ok in E2. destruct E2 as (f' & _ & E2).
      apply bind_Ok in E2. destruct E2 as (v' & Em & E2). injection E2 as <-. cbn [fst snd].
      apply norm32_Debug in Em. destruct Em as (Em1 & ->). subst v.
      rewrite (firstn_snoc _ _ Ei), Forall_app, prodN_app. cbn [prodN fold_right]. rewrite N.mul_1_r.
      repeat split; auto. repeat constructor; lia. }
  destruct (G _ _ (Nat.le_refl _) H1) as (G1 & _ & G2). rewrite firstn_all in G1, G2. auto.
Qed.

(** rebuilding a consistent shape from its stored extents *)
Lemma shape_new_dims8 m s : wf s -> shape_new m (dims8 s) (batch s) = Ok s.
Proof.
  intros H. destruct (@shape_new_Ok m (dims8 s) (batch s)) as (s' & E & W & Eb & Ei).
  - rewrite (wf_len H); auto.
  - apply wf_Forall; auto.
  - apply H.
  - rewrite <- (wf_vol H). apply H.
  - rewrite E. f_equal. apply wf_ext; auto. intros i. rewrite Ei, wf_index; auto.
Qed.

Lemma nth_firstn_ones ds n i : (forall j, (n <= j)%nat -> nth j ds 1 = 1) -> nth i (firstn n ds) 1 = nth i ds 1.
Proof.
  intros H. destruct (Nat.lt_ge_cases i n); [apply nth_firstn_lt; auto|].
  rewrite (H i) by auto. apply nth_overflow. rewrite firstn_length. lia.
Qed.

(** ** Serialization *)
Lemma serde_roundtrip m s : wf s -> shape_deserialize m (shape_serialize s) = Ok s.
Proof.
  intros H. unfold shape_deserialize, shape_serialize; cbn [sd_dims sd_batch].
  assert (Hp : prodN (dims s) = volume s).
  { rewrite (wf_vol H). rewrite (prodN_firstn_skipn (depth s) (dims8 s)).
    assert (E : skipn (depth s) (dims8 s) = repeat 1 (8 - depth s)).
    { apply nth_ext_len with (d := 1).
      - rewrite skipn_length, repeat_length, (wf_len H); auto.
      - intros i _. rewrite nth_repeat. 
        rewrite <- (firstn_skipn (depth s) (dims8 s)) at 1.
        pose proof (wf_depth_ones H (i := depth s + i) ltac:(lia)) as Ho.
        rewrite <- (firstn_skipn (depth s) (dims8 s)) in Ho.
        rewrite app_nth2 in Ho by (rewrite firstn_length; lia).
        rewrite firstn_length in Ho.
        replace (depth s + i - Nat.min (depth s) (length (dims8 s)))%nat with i in Ho
          by (rewrite (wf_len H); pose proof (wf_depth_le H); lia).
        rewrite firstn_skipn. exact Ho. }
    rewrite E, prodN_ones. unfold dims. lia. }
  destruct (@shape_new_Ok m (dims s) (batch s)) as (s' & E & W & Eb & Ei).
  - unfold dims. rewrite firstn_length, (wf_len H). lia.
  - apply Forall_firstn, wf_Forall; auto.
  - apply H.
  - rewrite Hp; apply H.
  - rewrite E. f_equal. apply wf_ext; auto. intros i. rewrite Ei, wf_index by auto.
    apply nth_firstn_ones. apply H.
Qed.

(** ** resize *)
Lemma aset_ones ds lo n : (lo + n <= length ds)%nat -> (forall i, (lo <= i)%nat -> nth i ds 1 = 1) ->
  forL (seq lo n) (fun i ds => aset ds i 1) ds = Ok ds.
Proof.
  revert lo; induction n as [|n IH]; intros lo Hl Ho; simpl; auto.
  unfold aset. replace (lo <? length ds)%nat with true by (symmetry; apply Nat.ltb_lt; lia). cbn [bind].
  replace (lset ds lo 1) with ds.
  - apply IH; [lia|]. intros; apply Ho; lia.
  - apply nth_ext_len with (d := 1); [rewrite lset_length; auto|].
    intros i Hi. rewrite nth_lset by lia. destruct (Nat.eqb_spec i lo); subst; auto.
Qed.

Definition upd_ext (s : shape) (dim : nat) (k : N) (i : nat) : N := if (i =? dim)%nat then k else index s i.

Lemma update_dim_eq m s dim k : wf s -> (dim < 8)%nat -> 1 <= k ->
  exists dep,
   (dep <= 8)%nat /\ ((0 < dep)%nat -> nth (dep-1) (lset (dims8 s) dim k) 1 <> 1) /\
   (forall i, (dep <= i)%nat -> nth i (lset (dims8 s) dim k) 1 = 1) /\
   update_dim m s dim k =
     (vol <- mul32 m (volume s / index s dim) k ;; Ok (mkShape (lset (dims8 s) dim k) (batch s) dep vol)).
Proof.
  intros H Hd Hk.
  set (s1 := mkShape (dims8 s) (batch s) (Nat.max (depth s) (dim + 1)) (volume s)).
  assert (Hs1 : (if (depth s <=? dim)%nat then
           ds <- forR (depth s) (dim + 1) (fun i ds => aset ds i 1) (dims8 s) ;;
           Ok (mkShape ds (batch s) (dim + 1) (volume s))
         else Ok s) = Ok s1).
  { destruct (Nat.leb_spec (depth s) dim).
    - unfold forR. rewrite aset_ones.
      + cbn [bind]. unfold s1. rewrite Nat.max_r by lia. reflexivity.
      + rewrite (wf_len H); lia.
      + apply H.
    - unfold s1. rewrite Nat.max_l by lia. destruct s; reflexivity. }
  assert (Hlen : (dim < length (dims8 s))%nat) by (rewrite (wf_len H); auto).
  destruct (@strip_spec (lset (dims8 s) dim k) (depth s1)) as (dep & Es & Hle & Hl & Ho).
  { rewrite lset_length, (wf_len H). unfold s1; simpl. pose proof (wf_depth_le H); lia. }
  exists dep. split; [|split; [exact Hl|split]].
  - unfold s1 in Hle; simpl in Hle. pose proof (wf_depth_le H). lia.
  - intros i Hi. destruct (Nat.lt_ge_cases i (depth s1)) as [Hlt|Hge]; [apply Ho; lia|].
    unfold s1 in Hge; simpl in Hge. rewrite nth_lset_neq by lia. apply (wf_depth_ones H); lia.
  - unfold update_dim. replace (dim <? MAX_DEPTH)%nat with true by (symmetry; apply Nat.ltb_lt; exact Hd).
    replace (negb (k =? 0)) with true by (symmetry; apply negb_true_iff, N.eqb_neq; lia).
    cbn [assert bind]. rewrite Hs1. cbn [bind]. unfold s1 at 1; cbn [dims8].
    rewrite (idx_Ok _ _ 1) by auto. cbn [bind].
    pose proof (wf_pos H Hd) as Hp.
    replace (negb (nth dim (dims8 s) 1 =? 0)) with true by (symmetry; apply negb_true_iff, N.eqb_neq; lia).
    cbn [assert bind]. unfold s1 at 1; cbn [volume]. rewrite wf_index by auto.
    apply bind_ext; intros vol _. unfold aset. unfold s1 at 1 2; cbn [dims8].
    replace (dim <? length (dims8 s))%nat with true by (symmetry; apply Nat.ltb_lt; auto).
    cbn [bind]. rewrite Es. reflexivity.
Qed.

Lemma index_div_volume s i : wf s -> exists q, volume s = q * index s i.
Proof.
  intros H. destruct (Nat.lt_ge_cases i 8) as [Hi|Hi].
  - rewrite (wf_vol H), wf_index by auto. apply prodN_div_nth. rewrite (wf_len H); auto.
  - rewrite index_ge8 by auto. exists (volume s); lia.
Qed.

Lemma update_dim_Ok m s dim k : wf s -> (dim < 8)%nat -> 1 <= k -> volume s / index s dim * k < two32 ->
  exists s', update_dim m s dim k = Ok s' /\ wf s' /\ batch s' = batch s /\
    (forall i, index s' i = upd_ext s dim k i) /\ volume s' = volume s / index s dim * k.
Proof.
  intros H Hd Hk Hv. destruct (update_dim_eq m H Hd Hk) as (dep & Hle & Hl & Ho & E).
  unfold mul32 in E. rewrite norm32_lt in E by exact Hv. cbn [bind] in E.
  eexists; split; [exact E|].
  assert (Hlen : (dim < length (dims8 s))%nat) by (rewrite (wf_len H); auto).
  assert (Hn : forall i, nth i (lset (dims8 s) dim k) 1 = upd_ext s dim k i).
  { intros i. rewrite nth_lset by auto. unfold upd_ext. rewrite wf_index by auto. reflexivity. }
  match goal with |- wf ?s' /\ _ => assert (W : wf s') end.
  { constructor; cbn [dims8 batch depth volume]; auto.
    - rewrite lset_length; apply H.
    - intros i Hi. rewrite Hn. unfold upd_ext. destruct (i =? dim)%nat; [lia|].
      rewrite wf_index by auto. apply (wf_pos H); auto.
    - apply H.
    - rewrite prodN_lset; auto.
      + rewrite <- (wf_vol H), <- wf_index by auto. reflexivity.
      + pose proof (wf_pos H Hd); lia. }
  split; [exact W|]. split; [reflexivity|]. split; [|reflexivity].
  intros i. rewrite wf_index by exact W. cbn [dims8]. apply Hn.
Qed.

Lemma update_dim_Panic m s dim k : (8 <= dim)%nat \/ k = 0 -> update_dim m s dim k = Panic.
Proof.
  intros Hb. unfold update_dim. destruct (Nat.ltb_spec dim MAX_DEPTH) as [E|E]; [|reflexivity].
  unfold MAX_DEPTH in E. cbn [assert bind]. destruct Hb as [Hb|Hb]; [lia|]. subst; reflexivity.
Qed.

Lemma update_dim_Debug_inv s dim k s' : wf s -> update_dim Debug s dim k = Ok s' ->
  (dim < 8)%nat /\ 1 <= k /\ volume s / index s dim * k < two32.
Proof.
  intros H E.
  assert (Hd : (dim < 8)%nat).
  { destruct (Nat.lt_ge_cases dim 8); auto. rewrite update_dim_Panic in E by auto. discriminate. }
  assert (Hk : 1 <= k).
  { destruct (N.eq_dec k 0); [rewrite update_dim_Panic in E by auto; discriminate|lia]. }
  repeat split; auto.
  destruct (update_dim_eq Debug H Hd Hk) as (dep & _ & _ & _ & E').
  rewrite E' in E. inv_ok. apply norm32_Debug in H0. tauto.
Qed.

Lemma update_dim_Debug_wf s dim k s' : wf s -> update_dim Debug s dim k = Ok s' ->
  wf s' /\ batch s' = batch s /\ (forall i, index s' i = upd_ext s dim k i) /\ volume s' = volume s / index s dim * k.
Proof.
  intros H E. destruct (update_dim_Debug_inv _ _ H E) as (Hd & Hk & Hv).
  destruct (update_dim_Ok Debug H Hd Hk Hv) as (s'' & E2 & R). rewrite E in E2. injection E2 as ->. exact R.
Qed.

Lemma update_batch_wf s b s' : wf s -> b < two32 -> update_batch s b = Ok s' ->
  wf s' /\ batch s' = b /\ (forall i, index s' i = index s i) /\ volume s' = volume s.
Proof.
  intros H Hb E. unfold update_batch in E. inv_ok. apply N.leb_le in H0.
  split; [|repeat split].
  destruct H. constructor; simpl; auto.
Qed.

Lemma update_batch_Ok s b : 1 <= b -> update_batch s b = Ok (mkShape (dims8 s) b (depth s) (volume s)).
Proof. intros H. unfold update_batch. apply N.leb_le in H. rewrite H. reflexivity. Qed.

(** ** lower_volume *)
Lemma lower_volume_Ok m s d : wf s -> lower_volume m s d = Ok (prodN (firstn d (dims8 s))).
Proof.
  intros H. unfold lower_volume.
  assert (G : forall n, (n <= 8)%nat -> forN n (fun i ret => d <- idx (dims8 s) i ;; mul32 m ret d) 1 = Ok (prodN (firstn n (dims8 s)))).
  { induction n as [|n IH]; intros Hn; [reflexivity|].
    rewrite forN_S, IH by lia. cbn [bind].
    assert (Hl : (n < length (dims8 s))%nat) by (rewrite (wf_len H); lia).
    rewrite (idx_Ok _ _ 1) by auto. cbn [bind].
    assert (E : prodN (firstn n (dims8 s)) * nth n (dims8 s) 1 = prodN (firstn (S n) (dims8 s))).
    { rewrite (@firstn_snoc _ (dims8 s) n (nth n (dims8 s) 1)), prodN_app by (apply nth_error_nth'; auto). simpl; lia. }
    unfold mul32. rewrite E. apply norm32_lt.
    pose proof (prodN_firstn_le (S n) (wf_Forall H)). rewrite <- (wf_vol H) in H0.
    pose proof (wf_vol_bound H); lia. }
  rewrite G by (pose proof (wf_depth_le H); lia). f_equal.
  destruct (Nat.le_gt_cases d (depth s)) as [Hd|Hd]; [rewrite Nat.min_l; auto|].
  rewrite Nat.min_r by lia.
  (* extents between depth and d are 1 *)
  assert (Ek : forall k, (depth s <= k)%nat -> prodN (firstn k (dims8 s)) = prodN (firstn (depth s) (dims8 s))).
  { induction k as [|k IH]; intros Hk; [replace (depth s) with O by lia; auto|].
    destruct (Nat.eq_dec (depth s) (S k)) as [->|Hne]; auto.
    destruct (Nat.lt_ge_cases k 8) as [Hk8|Hk8].
    - rewrite (@firstn_snoc _ (dims8 s) k (nth k (dims8 s) 1)), prodN_app by (apply nth_error_nth'; rewrite (wf_len H); auto).
      rewrite (wf_depth_ones H) by lia. rewrite IH by lia. simpl; lia.
    - rewrite !firstn_all2 in * by (rewrite (wf_len H); lia). apply IH; lia. }
  symmetry; apply Ek; lia.
Qed.

(** ** predicates *)
Lemma has_same_dims_Ok a b : wf a -> wf b ->
  exists r, has_same_dims a b = Ok r /\ (r = true <-> forall i, index a i = index b i).
Proof.
  intros Ha Hb. unfold has_same_dims.
  match goal with |- context [forN ?n ?bd ?s0] =>
    destruct (@forN_inv bool (fun i ok => ok = true <-> forall j, (j < i)%nat -> nth j (dims8 a) 1 = nth j (dims8 b) 1) n bd s0)
      as (r & E & Hr) end.
  - split; [intros; lia|auto].
  - intros i ok Hi Hok. pose proof (wf_depth_le Ha).
    destruct ok.
    + rewrite !(idx_Ok _ _ 1) by (rewrite ?(wf_len Ha), ?(wf_len Hb); lia). cbn [bind].
      eexists; split; [reflexivity|]. rewrite N.eqb_eq. split.
      * intros E j Hj. destruct (Nat.eq_dec j i); [subst; auto|]. apply Hok; auto; lia.
      * intros G; apply G; lia.
    + eexists; split; [reflexivity|]. split; [discriminate|].
      intros G. apply Hok. intros; apply G; lia.
  - rewrite E. cbn [bind]. eexists; split; [reflexivity|].
    rewrite andb_true_iff, Hr, Nat.eqb_eq. split.
    + intros (G & Ed) i. rewrite !wf_index by auto.
      destruct (Nat.lt_ge_cases i (depth a)); [apply G; auto|].
      rewrite (wf_depth_ones Ha), (wf_depth_ones Hb); auto; lia.
    + intros G. assert (Gn : forall i, nth i (dims8 a) 1 = nth i (dims8 b) 1) by (intros i; specialize (G i); rewrite !wf_index in G by auto; auto).
      split; [intros; apply Gn|].
      apply (@depth_unique (dims8 a)); try apply Ha.
      * rewrite Gn; apply Hb.
      * intros i Hi; rewrite Gn; apply Hb; auto.
Qed.

Lemma loo_strip s dim m d1 : wf s -> N.of_nat dim + 1 < two32 -> add32 m (N.of_nat dim) 1 = Ok d1 ->
  exists k, strip (dims8 s) (if N.of_nat (depth s) =? d1 then dim else depth s) = Ok k /\ (k <= 8)%nat /\
    ((0 < k)%nat -> nth (k-1) (dims8 s) 1 <> 1 /\ (k - 1 <> dim \/ dim < depth s - 1)%nat) /\
    (forall i, (k <= i)%nat -> i <> dim -> nth i (dims8 s) 1 = 1).
Proof.
  intros H Hd E. unfold add32 in E. rewrite norm32_lt in E by auto. injection E as <-.
  pose proof (wf_depth_le H) as Hle.
  destruct (N.eqb_spec (N.of_nat (depth s)) (N.of_nat dim + 1)) as [E|E].
  - assert (Ed : depth s = S dim) by lia.
    destruct (@strip_spec (dims8 s) dim) as (k & Es & H1 & H2 & H3); [rewrite (wf_len H); lia|].
    exists k. repeat split; auto; try lia.
    intros i Hi Hne. destruct (Nat.lt_ge_cases i dim); [apply H3; lia|]. apply (wf_depth_ones H); lia.
  - destruct (@strip_spec (dims8 s) (depth s)) as (k & Es & H1 & H2 & H3); [rewrite (wf_len H); lia|].
    assert (Hk : k = depth s).
    { apply (@depth_unique (dims8 s)); auto; try apply H.
      intros i Hi. destruct (Nat.lt_ge_cases i (depth s)); [apply H3; lia|apply (wf_depth_ones H); auto]. }
    exists k. repeat split; auto; try lia. intros i Hi _. apply (wf_depth_ones H); lia.
Qed.

Lemma has_same_loo_dims_Ok m a b dim : wf a -> wf b -> N.of_nat dim + 1 < two32 ->
  exists r, has_same_loo_dims m a b dim = Ok r /\ (r = true <-> forall i, i <> dim -> index a i = index b i).
Proof.
  intros Ha Hb Hd. unfold has_same_loo_dims.
  assert (E1 : add32 m (N.of_nat dim) 1 = Ok (N.of_nat dim + 1)) by (apply norm32_lt; auto).
  rewrite E1. cbn [bind].
  destruct (loo_strip dim m Ha Hd E1) as (nl & El & Hl8 & Hl1 & Hl2). rewrite El. cbn [bind].
  destruct (loo_strip dim m Hb Hd E1) as (nr & Er & Hr8 & Hr1 & Hr2). rewrite Er. cbn [bind].
  match goal with |- context [forN ?n ?bd ?s0] =>
    destruct (@forN_inv bool (fun i p => p = true <-> (nl = nr /\ forall j, (j < i)%nat -> j <> dim -> nth j (dims8 a) 1 = nth j (dims8 b) 1)) n bd s0)
      as (r & E & Hr) end.
  - rewrite Nat.eqb_eq. split; [intros; split; auto; lia|tauto].
  - intros i ok Hi Hok. destruct ok.
    + rewrite !(idx_Ok _ _ 1) by (rewrite ?(wf_len Ha), ?(wf_len Hb); lia). cbn [bind].
      eexists; split; [reflexivity|]. rewrite orb_true_iff, N.eqb_eq, Nat.eqb_eq. split.
      * intros E; split; [apply Hok; auto|]. intros j Hj Hne.
        destruct (Nat.eq_dec j i); [subst; tauto|]. apply Hok; auto; lia.
      * intros (_ & G). destruct (Nat.eq_dec i dim); auto.
    + eexists; split; [reflexivity|]. split; [discriminate|].
      intros (G1 & G2). apply Hok. split; auto.
  - rewrite E. eexists; split; [reflexivity|]. rewrite Hr. clear E Hr r. split.
    + intros (En & G) i Hi. rewrite !wf_index by auto.
      destruct (Nat.lt_ge_cases i nl); [apply G; auto|].
      rewrite Hl2, Hr2; auto; lia.
    + intros G0. assert (G : forall i, i <> dim -> nth i (dims8 a) 1 = nth i (dims8 b) 1)
        by (intros i Hi; specialize (G0 i Hi); rewrite !wf_index in G0 by auto; auto).
      split; [|intros; apply G; auto].
      destruct (Nat.lt_trichotomy nl nr) as [Hlt|[Heq|Hgt]]; auto; exfalso.
      * destruct Hr1 as (Hr1a & Hr1b); [lia|]. destruct (Nat.eq_dec (nr - 1) dim) as [En|En].
        -- destruct Hr1b as [?|Hr1b]; [auto|]. pose proof (wf_depth_last Hb ltac:(lia)) as Hl.
           apply Hl. rewrite <- G by lia. apply Hl2; lia.
        -- apply Hr1a. rewrite <- G by auto. apply Hl2; auto; lia.
      * destruct Hl1 as (Hl1a & Hl1b); [lia|]. destruct (Nat.eq_dec (nl - 1) dim) as [En|En].
        -- destruct Hl1b as [?|Hl1b]; [auto|]. pose proof (wf_depth_last Ha ltac:(lia)) as Hl.
           apply Hl. rewrite G by lia. apply Hr2; lia.
        -- apply Hl1a. rewrite G by auto. apply Hr2; auto; lia.
Qed.

Lemma depth_le_iff s n : wf s -> (depth s <=? n)%nat = true <-> (forall i, (n <= i)%nat -> index s i = 1).
Proof.
  intros H. rewrite Nat.leb_le. split.
  - intros Hd i Hi. rewrite wf_index by auto. apply (wf_depth_ones H); lia.
  - intros G. destruct (Nat.le_gt_cases (depth s) n); auto. exfalso.
    apply (wf_depth_last H); [lia|]. rewrite <- wf_index by auto. apply G; lia.
Qed.

Lemma list_eqb_spec l1 l2 : list_eqb l1 l2 = true <-> l1 = l2.
Proof.
  unfold list_eqb. rewrite andb_true_iff, Nat.eqb_eq. revert l2.
  induction l1 as [|a l1 IH]; intros [|b l2]; simpl; split; try tauto; try (intros (? & ?); discriminate); try discriminate.
  - intros (E & H). apply andb_true_iff in H. destruct H as (H1 & H2). apply N.eqb_eq in H1. subst. f_equal.
    apply IH. split; auto.
  - intros E; injection E as -> ->. rewrite N.eqb_refl. split; auto. apply IH; auto.
Qed.

Lemma shape_eqb_spec a b : shape_eqb a b = true <-> a = b.
Proof.
  unfold shape_eqb. rewrite !andb_true_iff, list_eqb_spec, !N.eqb_eq, Nat.eqb_eq.
  destruct a, b; simpl. split; [intros (((-> & ->) & ->) & ->); auto|intros E; injection E as -> -> -> ->; auto].
Qed.
