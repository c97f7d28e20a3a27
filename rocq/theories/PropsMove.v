(** * PropsMove: C20 reductions, C21 argmax/argmin, C22 argsort, C23 broadcast, C24 slice,
    C25 pick, C26 concat/split, C27 matmul, C28 transpose/triangular, C29 batch operations *)
From Verif Require Import PVocab.
From Coq Require Import Permutation Sorted.
Set Implicit Arguments.

Section Defs.
Variable K : num.
Notation F := (F K).
Notation "x +. y" := (nadd K x y) (at level 50, left associativity).
Notation "x *. y" := (nmul K x y) (at level 40, left associativity).
Variable m : build.
Variable srt : (nat -> nat -> option comparison) -> list nat -> res (list nat).

(** ** Specification *)
(** [x] without dimension [e]: extent 1 there, everything else the same *)
Definition without (x : shape) (e : nat) (s : shape) : Prop := shape_is s (eset x e 1) (bat x).
(** a reduction along a dimension: the element at (c, b) is [g] of the elements
    x(c with coordinate dim := j, b), j = 0 .. extent-1 *)
Definition reduces_by (f : alloc_oracle K -> tensor K -> N -> res (tensor K)) (g : (nat -> F) -> nat -> F) : Prop :=
  forall d al x dim, al_ok al -> ready d x -> N.to_nat dim < 8 ->
  exists s, without (t_shape x) (N.to_nat dim) s /\
    yields (f al x dim) d s (fun c b => g (fun j => at_ x (cset c (N.to_nat dim) j) b) (ext (t_shape x) (N.to_nat dim))).
(** a function returning one index per line along a dimension, in the layout of the reduced tensor *)
Definition indexes_by (f : tensor K -> N -> res (list N)) (P : (nat -> F) -> nat -> nat -> Prop) : Prop :=
  forall d x dim, ready d x ->
  exists s l, without (t_shape x) (N.to_nat dim) s /\ f x dim = Ok l /\ length l = tot s /\
    forall c b, inb s c -> b < bat s ->
      P (fun j => at_ x (cset c (N.to_nat dim) j) b) (ext (t_shape x) (N.to_nat dim)) (N.to_nat (nth (pos s c b) l 0%N)).
(** [j] is the first index whose element is not beaten by any other *)
Definition first_best (better : F -> F -> bool) (f : nat -> F) (n j : nat) : Prop :=
  weak_order_on K better f n -> j < n /\ (forall i, i < n -> better (f i) (f j) = false) /\ (forall i, i < j -> better (f j) (f i) = true).

(** ** C20 *)
Theorem C20_sum : reduces_by (t_sum m) (fun f n => red (nadd K) n0 f n).
Proof.
  intros d al x dim HA HR Hd. unfold t_sum. rewrite (ready_device_of HR). cbn [bind].
  destruct (@sum_yields K m d al x dim HA HR Hd) as (s & R & Y). exists s. split; [apply reduces_shape_is; auto|exact Y].
Qed.
Theorem C20_max_min :
  reduces_by (t_max m) (fun f n => red (fun t v => if nlt K t v then v else t) (f 0) f n) /\
  reduces_by (t_min m) (fun f n => red (fun t v => if nlt K v t then v else t) (f 0) f n).
Proof.
  split; intros d al x dim HA HR Hd; unfold t_max, t_min; rewrite (ready_device_of HR); cbn [bind].
  - destruct (@extremum_yields K m (@ngt K) "max_fw_impl" d al x dim eq_refl HA HR Hd) as (s & R & Y). exists s. split; [apply reduces_shape_is; auto|exact Y].
  - destruct (@extremum_yields K m (nlt K) "min_fw_impl" d al x dim eq_refl HA HR Hd) as (s & R & Y). exists s. split; [apply reduces_shape_is; auto|exact Y].
Qed.
(** the scan of max/min returns an element of the line that no element beats *)
Theorem C20_extremum_meaning : forall (better : F -> F -> bool) f n, 1 <= n -> weak_order_on K better f n ->
  let v := red (fun t v => if better v t then v else t) (f 0) f n in
  (exists j, j < n /\ v = f j) /\ forall i, i < n -> better (f i) v = false.
Proof.
  intros better f n Hn (HI & HT & HW).
  assert (G : forall q, 1 <= q <= n -> let v := red (fun t v => if better v t then v else t) (f 0) f q in
     (exists j, j < n /\ v = f j) /\ forall i, i < q -> better (f i) v = false).
  { induction q as [|q IH]; intros Hq; [lia|]. cbv zeta. rewrite red_S. destruct (Nat.eq_dec q 0) as [->|].
    - unfold red. cbn [seq fold_left]. rewrite HI by lia. split; [exists 0; split; [lia|reflexivity]|]. intros i Hi. replace i with 0 by lia. apply HI; lia.
    - destruct IH as ((j & Hj & Ej) & Hmax); [lia|]. set (v := red _ _ _ _) in * . destruct (better (f q) v) eqn:E.
      + split; [exists q; split; [lia|reflexivity]|]. intros i Hi. destruct (Nat.eq_dec i q) as [->|]; [apply HI; lia|].
        destruct (better (f i) (f q)) eqn:E2; [|reflexivity]. rewrite <- (Hmax i) by lia. symmetry. rewrite Ej in * . apply HT with q; auto; lia.
      + split; [exists j; auto|]. intros i Hi. destruct (Nat.eq_dec i q) as [->|]; [exact E|apply Hmax; lia]. }
  apply G. lia.
Qed.
(** the accumulator of logsumexp is a double; C50 says what it is over the reals *)
Theorem C20_logsumexp : reduces_by (t_logsumexp m) (fun f n =>
  narrow K (red (fun t v => let a := widen K v in
     if wlt K a t then wadd K t (wln K (wadd K w1 (wexp K (wsub K a t))))
     else wadd K a (wln K (wadd K w1 (wexp K (wsub K t a))))) (widen K (f 0)) (fun j => f (S j)) (n - 1))).
Proof.
  intros d al x dim HA HR Hd. unfold t_logsumexp. rewrite (ready_device_of HR). cbn [bind].
  destruct (@logsumexp_yields K m d al x dim HA HR Hd) as (s & R & Y). exists s. split; [apply reduces_shape_is; auto|exact Y].
Qed.
Theorem C20_bad_dim_panics : forall d (al : alloc_oracle K) x dim, ready d x -> 8 <= N.to_nat dim ->
  t_sum m al x dim = Panic /\ t_max m al x dim = Panic /\ t_min m al x dim = Panic /\ t_logsumexp m al x dim = Panic.
Proof.
  intros d al x dim HR Hd.
  assert (E : resize_dim m (t_shape x) (N.to_nat dim) 1 = Panic).
  { unfold resize_dim, update_dim. rewrite assert_bind_false by (apply Nat.ltb_ge; unfold MAX_DEPTH; lia).
    reflexivity. }
  unfold t_sum, t_max, t_min, t_logsumexp. rewrite (ready_device_of HR). cbn [bind].
  ssplit; cbv [sum_fw max_fw min_fw logsumexp_fw reduce_fw]; rewrite (ready_check HR); cbn [bind]; rewrite E; reflexivity.
Qed.
(** backward of max and min: the gradient goes to the first element of the line
    that equals the result, nothing else changes *)
Theorem C20_extremum_bw : forall d (x y gy gx : tensor K) dim, N.to_nat dim < 8 ->
  ready d x -> ready d y -> ready d gy -> ready d gx ->
  without (t_shape x) (N.to_nat dim) (t_shape y) -> t_shape gx = t_shape x -> t_shape gy = t_shape y ->
  let result := fun c b => let e := N.to_nat dim in let f := fun j => at_ x (cset c e j) b in
    let v := at_ y (cset c e 0) b in
    if neqb K (f (c e)) v && forallb (fun j => negb (neqb K (f j) v)) (seq 0 (c e)) then at_ gx c b +. at_ gy (cset c e 0) b else at_ gx c b in
  writes (max_bw m d x y gy dim gx) gx result /\ writes (min_bw m d x y gy dim gx) gx result.
Proof.
  intros d x y gy gx dim Hd Hx Hy Hg Hgx HS E1 E2 result.
  pose proof (shape_is_eset_reduces (ready_wf Hx) HS) as R.
  assert (G : forall f v n k j, first_eq K f v n j = Some k <-> (j <= k < j + n /\ neqb K (f k) v = true /\ forall i, j <= i < k -> neqb K (f i) v = false)).
  { intros f v. induction n as [|n IH]; intros k j; cbn [first_eq].
    - split; [discriminate|]. intros (H & _). lia.
    - destruct (neqb K (f j) v) eqn:E.
      + split.
        * injection 1 as <-. split; [lia|]. split; [exact E|]. intros i Hi. lia.
        * intros (H1 & H2 & H3). f_equal. destruct (Nat.eq_dec j k); auto. rewrite (H3 j) in E by lia. discriminate.
      + rewrite IH. split; intros (H1 & H2 & H3).
        * split; [lia|]. split; [exact H2|]. intros i Hi. destruct (Nat.eq_dec i j) as [->|]; [exact E|apply H3; lia].
        * split; [|split; [exact H2|]]; [|intros i Hi; apply H3; lia]. destruct (Nat.eq_dec j k) as [->|]; [congruence|lia]. }
  assert (GG : forall c b, inb (t_shape gx) c -> (let e := N.to_nat dim in
     match first_eq K (fun j => at_ x (cset c e j) b) (at_ y (cset c e 0) b) (ext (t_shape x) e) 0 with
     | Some j => if j =? c e then nadd K (at_ gx c b) (at_ gy (cset c e 0) b) else at_ gx c b
     | None => at_ gx c b
     end) = result c b).
  { intros c b Hc. unfold result. cbv zeta. set (e := N.to_nat dim). set (f := fun j => at_ x (cset c e j) b). set (v := at_ y (cset c e 0) b).
    assert (Hce : c e < ext (t_shape x) e) by (rewrite <- E1; apply Hc).
    match goal with |- _ = if ?q then _ else _ => change q with (neqb K (f (c e)) v && forallb (fun j => negb (neqb K (f j) v)) (seq 0 (c e))) end.
    destruct (neqb K (f (c e)) v && forallb (fun j => negb (neqb K (f j) v)) (seq 0 (c e))) eqn:Q.
    - apply andb_true_iff in Q. destruct Q as [Q1 Q2]. rewrite forallb_forall in Q2.
      assert (first_eq K f v (ext (t_shape x) e) 0 = Some (c e)) as ->.
      { apply G. split; [lia|]. split; [exact Q1|]. intros i Hi. specialize (Q2 i). rewrite in_seq in Q2. destruct (neqb K (f i) v); auto. discriminate Q2. lia. }
      rewrite Nat.eqb_refl. reflexivity.
    - destruct (first_eq K f v (ext (t_shape x) e) 0) as [j|] eqn:Ej; [|reflexivity]. destruct (Nat.eqb_spec j (c e)) as [->|]; [|reflexivity].
      exfalso. apply G in Ej. destruct Ej as (_ & P1 & P2). rewrite P1 in Q. cbn [andb] in Q.
      apply not_true_iff_false in Q. apply Q. apply forallb_forall. intros i Hi. apply in_seq in Hi. rewrite P2 by lia. reflexivity. }
  split; (eapply writes_ext; [|intros c b Hc _; apply GG; exact Hc]).
  - apply (@extremum_bw_writes K m "max_bw_impl" d x y gy gx dim); auto.
  - apply (@extremum_bw_writes K m "min_bw_impl" d x y gy gx dim); auto.
Qed.

(** ** C21 *)
Theorem C21_argmax_argmin :
  indexes_by (t_argmax m srt) (first_best (fun a b => nlt K b a)) /\ indexes_by (t_argmin m srt) (first_best (nlt K)).
Proof.
  split; intros d x dim HR; unfold t_argmax, t_argmin; rewrite (ready_device_of HR); cbn [bind].
  - destruct (@argmax_spec K m srt d x dim HR) as (s & l & R & E & HL & HP). exists s, l. split; [apply reduces_shape_is; auto|]. split; [exact E|]. split; [exact HL|].
    intros c b Hc Hb HW. rewrite HP, Nat2N.id by auto. apply arg_scan_first; auto. apply (ext_pos _ (ready_wf HR)).
  - destruct (@argmin_spec K m srt d x dim HR) as (s & l & R & E & HL & HP). exists s, l. split; [apply reduces_shape_is; auto|]. split; [exact E|]. split; [exact HL|].
    intros c b Hc Hb HW. rewrite HP, Nat2N.id by auto. apply arg_scan_first; auto. apply (ext_pos _ (ready_wf HR)).
Qed.

(** ** C22 *)
Theorem C22_argsort : forall d (x : tensor K) dim, ready d x -> sort_contract srt ->
  let e := N.to_nat dim in let n := ext (t_shape x) e in
  (forall p q r, p < tot (t_shape x) -> q < tot (t_shape x) -> r < tot (t_shape x) ->
      total_on (fun p q => partial_cmp K (nth0 (buf x) p) (nth0 (buf x) q)) [p; q; r]) ->
  exists s l, without (t_shape x) e s /\ t_argsort m srt x dim = Ok l /\ length l = tot (t_shape x) /\
   forall c b, inb s c -> b < bat s ->
     Permutation (map (fun j => N.of_nat (pos (t_shape x) (cset c e j) b)) (seq 0 n))
                 (map (fun j => nth (pos (t_shape x) (cset c e j) b) l 0%N) (seq 0 n)) /\
     forall j k, j < k < n -> partial_cmp K (nth0 (buf x) (N.to_nat (nth (pos (t_shape x) (cset c e j) b) l 0%N)))
                                            (nth0 (buf x) (N.to_nat (nth (pos (t_shape x) (cset c e k) b) l 0%N))) <> Some Gt.
Proof.
  intros d x dim HR HC e n HT. unfold t_argsort. rewrite (ready_device_of HR). cbn [bind].
  destruct (@argsort_spec K m srt d x dim HR HC HT) as (s & l & R & H). exists s, l. split; [apply reduces_shape_is; auto|exact H].
Qed.

(** ** C23 *)
Theorem C23_broadcast : forall d (al : alloc_oracle K) x dim n s, al_ok al -> ready d x -> N.to_nat dim < 8 ->
  ext (t_shape x) (N.to_nat dim) = 1 -> (1 <= n)%N ->
  shape_is s (eset (t_shape x) (N.to_nat dim) (N.to_nat n)) (bat (t_shape x)) -> fits s ->
  yields (t_broadcast m al x dim n) d s (fun c b => at_ x (cset c (N.to_nat dim) 0) b).
Proof. intros. unfold t_broadcast. rewrite (ready_device_of (d:=d)) by auto. cbn [bind]. apply broadcast_yields; auto. Qed.

(** ** C24 *)
Theorem C24_slice : forall d (al : alloc_oracle K) x dim lo hi, al_ok al -> ready d x -> N.to_nat dim < 8 ->
  (lo < hi)%N -> N.to_nat hi <= ext (t_shape x) (N.to_nat dim) ->
  exists s, shape_is s (eset (t_shape x) (N.to_nat dim) (N.to_nat hi - N.to_nat lo)) (bat (t_shape x)) /\
  yields (t_slice m al x dim lo hi) d s (fun c b => at_ x (cset c (N.to_nat dim) (c (N.to_nat dim) + N.to_nat lo)) b).
Proof.
  intros d al x dim lo hi HA HR Hd H1 H2. destruct (@slice_shape_exists (t_shape x) (N.to_nat dim) lo hi (ready_wf HR) Hd H1) as (s & Hs).
  { unfold ext in H2. lia. }
  exists s. split; [exact Hs|]. unfold t_slice. rewrite (ready_device_of HR). cbn [bind]. apply slice_yields; auto.
Qed.
Theorem C24_slice_bw : forall d (gy gx : tensor K) dim lo, ready d gy -> ready d gx -> N.to_nat dim < 8 ->
  (forall i, i <> N.to_nat dim -> ext (t_shape gy) i = ext (t_shape gx) i) -> bat (t_shape gy) = bat (t_shape gx) ->
  N.to_nat lo + ext (t_shape gy) (N.to_nat dim) <= ext (t_shape gx) (N.to_nat dim) ->
  writes (slice_bw m d gy dim lo gx) gx (fun c b => let e := N.to_nat dim in
    if (N.to_nat lo <=? c e) && (c e <? N.to_nat lo + ext (t_shape gy) e)
    then at_ gx c b +. at_ gy (cset c e (c e - N.to_nat lo)) b else at_ gx c b).
Proof. intros. apply slice_bw_writes; auto. Qed.

(** ** C25 *)
(** the index picked for minibatch element b: the only one, or the b-th *)
Theorem C25_pick : forall d (al : alloc_oracle K) x ids dim s, al_ok al -> ready d x -> N.to_nat dim < 8 -> (N.of_nat (length ids) < two32)%N -> ids <> [] ->
  (length ids = 1 \/ bat (t_shape x) = 1 \/ length ids = bat (t_shape x)) ->
  Forall (fun id => N.to_nat id < ext (t_shape x) (N.to_nat dim)) ids ->
  shape_is s (eset (t_shape x) (N.to_nat dim) 1) (Nat.max (bat (t_shape x)) (length ids)) -> fits s ->
  yields (t_pick m al x ids dim) d s (fun c b => at_ x (cset c (N.to_nat dim)
    (N.to_nat (if length ids =? 1 then nth 0 ids 0%N else nth b ids 0%N))) (bsel (t_shape x) b)).
Proof.
  intros. eapply yields_ext; [apply t_pick_yields; eauto|]. intros c b _ _. cbv beta. unfold pid. destruct (length ids =? 1); reflexivity.
Qed.
Theorem C25_pick_bw : forall d (gy gx : tensor K) ids dim, ready d gy -> ready d gx -> N.to_nat dim < 8 -> (N.of_nat (length ids) < two32)%N -> ids <> [] ->
  (length ids = 1 \/ bat (t_shape gx) = 1 \/ length ids = bat (t_shape gx)) ->
  Forall (fun id => N.to_nat id < ext (t_shape gx) (N.to_nat dim)) ids ->
  shape_is (t_shape gy) (eset (t_shape gx) (N.to_nat dim) 1) (Nat.max (bat (t_shape gx)) (length ids)) ->
  writes (pick_bw m d gy ids dim gx) gx (fun c q => acc_batches K (t_shape gx) (bat (t_shape gy)) q
    (fun n v => if N.to_nat (if length ids =? 1 then nth 0 ids 0%N else nth n ids 0%N) =? c (N.to_nat dim)
                then v +. at_ gy (cset c (N.to_nat dim) 0) n else v) (at_ gx c q)).
Proof.
  intros. eapply writes_ext; [apply pick_bw_writes; eauto|]. intros c b _ _. cbv beta. apply acc_ext. intros n w _. unfold pid.
  destruct (length ids =? 1); reflexivity.
Qed.

(** ** C26 *)
Theorem C26_concat : forall d (al : alloc_oracle K) x0 xs0 dim s, let xs := x0 :: xs0 in let e := N.to_nat dim in
  al_ok al -> Forall (ready d) xs -> e < 8 ->
  Forall (fun x : tensor K => forall i, i <> e -> ext (t_shape x) i = ext (t_shape x0) i) xs ->
  common (map (fun x : tensor K => bat (t_shape x)) xs) (bat s) ->
  shape_is s (eset (t_shape x0) e (exts xs e)) (bat s) -> fits s ->
  exists y, t_concat m al xs dim = Ok y /\ ready d y /\ t_shape y = s /\
    forall l1 x l2 c b, xs = l1 ++ x :: l2 -> inb (t_shape x) c -> b < bat s ->
      at_ y (cset c e (c e + exts l1 e)) b = at_ x c (bsel (t_shape x) b).
Proof.
  intros d al x0 xs0 dim s xs e HA HR Hd HE HC Hs HF. unfold t_concat. cbn [xs idx nth_error bind].
  rewrite (ready_device_of (d:=d)) by (inversion HR; auto). cbn [bind]. apply concat_yields; auto.
Qed.
(** every coordinate of the result lies in one of the parts: the previous theorem
    determines all of the result *)
Theorem C26_concat_covers : forall (xs : list (tensor K)) e i, i < exts xs e ->
  exists l1 x l2, xs = l1 ++ x :: l2 /\ exts l1 e <= i < exts l1 e + ext (t_shape x) e.
Proof.
  induction xs as [|x xs IH]; intros e i Hi; [unfold exts in Hi; simpl in Hi; lia|].
  unfold exts in Hi. cbn [fold_right] in Hi. fold (exts xs e) in Hi. destruct (Nat.lt_ge_cases i (ext (t_shape x) e)) as [H|H].
  - exists [], x, xs. split; [reflexivity|]. unfold exts. simpl. lia.
  - destruct (IH e (i - ext (t_shape x) e)) as (l1 & y & l2 & -> & H2); [lia|]. exists (x :: l1), y, l2. split; [reflexivity|].
    unfold exts at 1 2. cbn [fold_right]. fold (exts l1 e). lia.
Qed.
Theorem C26_split : forall d (als : nat -> alloc_oracle K) x dim n, let e := N.to_nat dim in let k := ext (t_shape x) e / N.to_nat n in
  (forall i, al_ok (als i)) -> ready d x -> e < 8 -> (1 <= n)%N -> ext (t_shape x) e mod N.to_nat n = 0 ->
  exists s ys, shape_is s (eset (t_shape x) e k) (bat (t_shape x)) /\ t_split m als x dim n = Ok ys /\ length ys = N.to_nat n /\
    forall i d0, i < N.to_nat n -> is_tensor d s (fun c b => at_ x (cset c e (c e + i * k)) b) (nth i ys d0).
Proof.
  intros d als x dim n e k HA HR Hd Hn HM.
  assert (Hk : 1 <= k). { unfold k. pose proof (ext_pos e (ready_wf HR)). apply Nat.div_str_pos. split; [lia|]. apply Nat.mod_divides in HM; [|lia]. destruct HM as (q & Hq). rewrite Hq in * . destruct q; nia. }
  destruct (@slice_shape_exists (t_shape x) e 0 (N.of_nat k) (ready_wf HR) Hd) as (s & Hs); [lia| |].
  { unfold k, ext. enough (N.to_nat (index (t_shape x) e) / N.to_nat n <= N.to_nat (index (t_shape x) e)) by lia. apply Nat.div_le_upper_bound; [lia|]. destruct (N.to_nat n) eqn:Q; nia. }
  rewrite Nat2N.id, Nat.sub_0_r in Hs.
  destruct (@split_yields K m d als x dim n s HA HR Hd Hn HM Hs) as (ys & H). exists s, ys. split; [exact Hs|exact H].
Qed.
Theorem C26_concat_of_split : forall d (als : nat -> alloc_oracle K) al x dim n, (forall i, al_ok (als i)) -> al_ok al -> ready d x -> N.to_nat dim < 8 -> (1 <= n)%N ->
  ext (t_shape x) (N.to_nat dim) mod N.to_nat n = 0 ->
  exists ys, t_split m als x dim n = Ok ys /\ length ys = N.to_nat n /\
    yields (t_concat m al ys dim) d (t_shape x) (fun c b => at_ x c b).
Proof. intros. apply concat_split; auto. Qed.
Theorem C26_slice_of_concat : forall d (al al2 : alloc_oracle K) x0 xs0 dim s, let xs := x0 :: xs0 in let e := N.to_nat dim in
  al_ok al -> al_ok al2 -> Forall (ready d) xs -> e < 8 ->
  Forall (fun x : tensor K => forall i, i <> e -> ext (t_shape x) i = ext (t_shape x0) i) xs ->
  common (map (fun x : tensor K => bat (t_shape x)) xs) (bat s) ->
  shape_is s (eset (t_shape x0) e (exts xs e)) (bat s) -> fits s ->
  exists y, t_concat m al xs dim = Ok y /\
    forall l1 x l2 s', xs = l1 ++ x :: l2 -> shape_is s' (ext (t_shape x)) (bat s) ->
      yields (t_slice m al2 y dim (N.of_nat (exts l1 e)) (N.of_nat (exts l1 e + ext (t_shape x) e))) d s'
        (fun c b => at_ x c (bsel (t_shape x) b)).
Proof. intros. apply slice_concat; auto. Qed.
Theorem C26_indivisible_split_panics : forall d (als : nat -> alloc_oracle K) x dim n, ready d x ->
  (n = 0%N \/ ext (t_shape x) (N.to_nat dim) mod N.to_nat n <> 0) -> t_split m als x dim n = Panic.
Proof.
  intros d als x dim n HR H. unfold t_split, split_skip. destruct (N.eqb_spec n 0) as [->|Hn]; [reflexivity|].
  destruct H as [H|H]; [contradiction|]. cbn [negb]. rewrite assert_bind_true by reflexivity.
  rewrite assert_bind_false; [reflexivity|]. apply N.eqb_neq. intros Q. apply H. unfold ext. apply Nat.mod_divides; [lia|].
  exists (N.to_nat (index (t_shape x) (N.to_nat dim) / n)). rewrite <- N2Nat.inj_mul. f_equal. lia.
Qed.

(** ** C27 *)
Definition mat_ok (a b : tensor K) : Prop :=
  (forall i, 2 <= i -> ext (t_shape a) i = 1) /\ (forall i, 2 <= i -> ext (t_shape b) i = 1) /\ ext (t_shape a) 1 = ext (t_shape b) 0 /\
  (bat (t_shape a) = bat (t_shape b) \/ bat (t_shape a) = 1 \/ bat (t_shape b) = 1).
(** [prod a b k i n]: element (i, k) of the product of the matrices [a] and [b] of
    minibatch element [n], summed with [sum] *)
Definition mprod (sum : (nat -> F) -> nat -> F) (a b : tensor K) (c : nat -> nat) (n : nat) : F :=
  sum (fun j => at_ a (c2 (c 0) j) (bsel (t_shape a) n) *. at_ b (c2 j (c 1)) (bsel (t_shape b) n)) (ext (t_shape a) 1).
(** sums of blocks of 8 products, each block summed in order, blocks in order *)
Definition by_blocks (f : nat -> F) (n : nat) : F :=
  red (nadd K) n0 (fun jb => red (nadd K) n0 (fun t => f (jb * 8 + t)) (Nat.min 8 (n - jb * 8))) ((n + 7) / 8).
Theorem C27_matmul : forall d (al : alloc_oracle K) a b s, al_ok al -> ready d a -> ready d b -> mat_ok a b ->
  shape_is s (m2 (ext (t_shape a) 0) (ext (t_shape b) 1)) (Nat.max (bat (t_shape a)) (bat (t_shape b))) -> fits s ->
  yields (t_matmul m al a b) d s (mprod by_blocks a b) /\
  ((forall x y z, (x +. y) +. z = x +. (y +. z)) -> (forall x, x +. n0 = x) ->
   yields (t_matmul m al a b) d s (mprod (red (nadd K) n0) a b)).
Proof.
  intros d al a b s HA Ra Rb (Ma & Mb & E & HC) Hs HF. unfold t_matmul. rewrite (ready_device_of Ra). cbn [bind].
  assert (Y : yields (matmul_fw m d al a b) d s (mprod by_blocks a b)) by (apply matmul_yields; auto).
  split; [exact Y|]. intros Has H0. eapply yields_ext; [exact Y|]. intros c n _ _. apply blocksum_red; auto.
Qed.
(** backward: [gx] of each operand collects gy . b^T and a^T . gy over the minibatch *)
Theorem C27_matmul_bw : forall d (als : nat -> alloc_oracle K) a b y gy ga gb Wa Wb, (forall i, al_ok (als i)) ->
  ready d a -> ready d b -> ready d y -> ready d gy -> ready d ga -> ready d gb -> mat_ok a b ->
  shape_is (t_shape y) (m2 (ext (t_shape a) 0) (ext (t_shape b) 1)) (Nat.max (bat (t_shape a)) (bat (t_shape b))) ->
  t_shape gy = t_shape y -> t_shape ga = t_shape a -> t_shape gb = t_shape b ->
  shape_is Wa (ext (t_shape a)) (bat (t_shape y)) -> fits Wa -> shape_is Wb (ext (t_shape b)) (bat (t_shape y)) -> fits Wb ->
  writes (matmul_bw_a m als d a b y gy ga) ga (fun c q => acc_batches K (t_shape a) (bat (t_shape y)) q (fun n v =>
     v +. by_blocks (fun k => at_ gy (c2 (c 0) k) n *. at_ b (c2 (c 1) k) (bsel (t_shape b) n)) (ext (t_shape b) 1)) (at_ ga c q)) /\
  writes (matmul_bw_b m als d a b y gy gb) gb (fun c q => acc_batches K (t_shape b) (bat (t_shape y)) q (fun n v =>
     v +. by_blocks (fun i => at_ a (c2 i (c 0)) (bsel (t_shape a) n) *. at_ gy (c2 i (c 1)) n) (ext (t_shape a) 0)) (at_ gb c q)).
Proof.
  intros d als a b y gy ga gb Wa Wb HA Ra Rb Ry Rg Rga Rgb (Ma & Mb & E & HC) Hs Eg Ea Eb HWa HFa HWb HFb. split.
  - eapply writes_ext; [eapply matmul_bw_a_writes; eauto|]. intros c q _ _. cbv beta. rewrite Ea. reflexivity.
  - eapply writes_ext; [eapply matmul_bw_b_writes; eauto|]. intros c q _ _. cbv beta. rewrite Eb. reflexivity.
Qed.

(** ** C28 *)
Definition is_mat (x : tensor K) : Prop := forall i, 2 <= i -> ext (t_shape x) i = 1.
Theorem C28_transpose : forall d (al : alloc_oracle K) x, al_ok al -> ready d x -> is_mat x ->
  exists s, shape_is s (m2 (ext (t_shape x) 1) (ext (t_shape x) 0)) (bat (t_shape x)) /\
  yields (t_transpose m al x) d s (fun c b => at_ x (c2 (c 1) (c 0)) b).
Proof.
  intros d al x HA HR HM. destruct (@transposed_exists (t_shape x) (ready_wf HR) HM) as (s & Hs). exists s. split; [exact Hs|].
  unfold t_transpose, via1. rewrite (ready_device_of HR). cbn [bind]. apply transpose_yields; auto.
Qed.
Theorem C28_transpose_involution : forall d (al al2 : alloc_oracle K) x, al_ok al -> al_ok al2 -> ready d x -> is_mat x ->
  exists y, t_transpose m al x = Ok y /\ yields (t_transpose m al2 y) d (t_shape x) (fun c b => at_ x c b).
Proof. intros. apply transpose_transpose; auto. Qed.
(** triangular_l(k) keeps i >= j + k, triangular_u(k) keeps j >= i + k *)
Theorem C28_triangular : forall d (al : alloc_oracle K) x k, al_ok al -> ready d x -> is_mat x ->
  ext (t_shape x) 1 = ext (t_shape x) 0 -> (N.of_nat (ext (t_shape x) 0) + k <= two32)%N ->
  yields (t_triangular_l m al x k) d (t_shape x) (fun c b => if c 1 + N.to_nat k <=? c 0 then at_ x c b else n0) /\
  yields (t_triangular_u m al x k) d (t_shape x) (fun c b => if c 0 + N.to_nat k <=? c 1 then at_ x c b else n0).
Proof.
  intros d al x k HA HR HM E Hk.
  assert (A : forall u v : nat, ((N.of_nat u + k <=? N.of_nat v)%N = (u + N.to_nat k <=? v))).
  { intros u v. destruct (Nat.leb_spec (u + N.to_nat k) v); [apply N.leb_le|apply N.leb_gt]; lia. }
  split; unfold t_triangular_l, t_triangular_u; rewrite (ready_device_of HR); cbn [bind].
  - eapply yields_ext; [apply (@triangular_yields K m false); auto|]. intros c b _ _. cbv beta iota. rewrite A. reflexivity.
  - eapply yields_ext; [apply (@triangular_yields K m true); auto|]. intros c b _ _. cbv beta iota. rewrite A. reflexivity.
Qed.
Theorem C28_gradients : forall d (als : nat -> alloc_oracle K) x y gy gx, (forall i, al_ok (als i)) ->
  ready d x -> ready d y -> ready d gy -> ready d gx -> is_mat x -> t_shape gx = t_shape x -> t_shape gy = t_shape y ->
  (shape_is (t_shape y) (m2 (ext (t_shape x) 1) (ext (t_shape x) 0)) (bat (t_shape x)) ->
   writes (transpose_bw m als d x y gy gx) gx (fun c b => at_ gx c b +. at_ gy (c2 (c 1) (c 0)) b)) /\
  (forall k, t_shape y = t_shape x -> ext (t_shape x) 1 = ext (t_shape x) 0 -> (N.of_nat (ext (t_shape x) 0) + k <= two32)%N ->
   writes (triangular_l_bw m als d x y gy k gx) gx (fun c b => at_ gx c b +. (if c 1 + N.to_nat k <=? c 0 then at_ gy c b else n0)) /\
   writes (triangular_u_bw m als d x y gy k gx) gx (fun c b => at_ gx c b +. (if c 0 + N.to_nat k <=? c 1 then at_ gy c b else n0))).
Proof.
  intros d als x y gy gx HA Rx Ry Rg Rgx HM E1 E2. split.
  - intros Hs. apply transpose_bw_writes; auto.
  - intros k E3 E4 Hk.
    assert (A : forall u v : nat, ((N.of_nat u + k <=? N.of_nat v)%N = (u + N.to_nat k <=? v))).
    { intros u v. destruct (Nat.leb_spec (u + N.to_nat k) v); [apply N.leb_le|apply N.leb_gt]; lia. }
    split.
    + eapply writes_ext; [apply (@triangular_bw_writes K m false); eauto|]. intros c b _ _. cbv beta iota. rewrite A. reflexivity.
    + eapply writes_ext; [apply (@triangular_bw_writes K m true); eauto|]. intros c b _ _. cbv beta iota. rewrite A. reflexivity.
Qed.

(** ** C29 *)
Theorem C29_batch_slice : forall d (al : alloc_oracle K) x lo hi s, al_ok al -> ready d x -> (lo < hi)%N -> N.to_nat hi <= bat (t_shape x) ->
  shape_is s (ext (t_shape x)) (N.to_nat hi - N.to_nat lo) ->
  yields (t_batch_slice m al x lo hi) d s (fun c b => at_ x c (N.to_nat lo + b)).
Proof. intros. unfold t_batch_slice. rewrite (ready_device_of (d:=d)) by auto. cbn [bind]. apply batch_slice_yields; auto. Qed.
Theorem C29_batch_pick : forall d (al : alloc_oracle K) x ids s, al_ok al -> ready d x -> (N.of_nat (length ids) < two32)%N -> ids <> [] ->
  Forall (fun id => N.to_nat id < bat (t_shape x)) ids -> shape_is s (ext (t_shape x)) (length ids) -> fits s ->
  yields (t_batch_pick m al x ids) d s (fun c b => at_ x c (N.to_nat (nth b ids 0%N))).
Proof. intros. unfold t_batch_pick. rewrite (ready_device_of (d:=d)) by auto. cbn [bind]. apply batch_pick_yields; auto. Qed.
Theorem C29_batch_sum : forall d (al : alloc_oracle K) x s, al_ok al -> ready d x -> shape_is s (ext (t_shape x)) 1 ->
  yields (t_batch_sum m al x) d s (fun c _ => red (nadd K) n0 (fun b => at_ x c b) (bat (t_shape x))).
Proof. intros. unfold t_batch_sum, via1. rewrite (ready_device_of (d:=d)) by auto. cbn [bind]. apply batch_sum_yields; auto. Qed.
Theorem C29_batch_concat : forall d (al : alloc_oracle K) x0 xs0 s, let xs := x0 :: xs0 in
  al_ok al -> Forall (ready d) xs ->
  Forall (fun x : tensor K => forall i, ext (t_shape x) i = ext (t_shape x0) i) xs ->
  shape_is s (ext (t_shape x0)) (bats xs) -> fits s ->
  exists y, t_batch_concat m al xs = Ok y /\ ready d y /\ t_shape y = s /\
    forall l1 x l2 c b, xs = l1 ++ x :: l2 -> inb (t_shape x) c -> b < bat (t_shape x) ->
      at_ y c (b + bats l1) = at_ x c b.
Proof.
  intros d al x0 xs0 s xs HA HR HE Hs HF. unfold t_batch_concat. rewrite assert_bind_true by reflexivity. cbn [xs idx nth_error bind].
  rewrite (ready_device_of (d:=d)) by (inversion HR; auto). cbn [bind]. apply batch_concat_yields; auto.
Qed.
Theorem C29_batch_split : forall d (als : nat -> alloc_oracle K) x n s, let k := bat (t_shape x) / N.to_nat n in
  (forall i, al_ok (als i)) -> ready d x -> (1 <= n)%N -> bat (t_shape x) mod N.to_nat n = 0 ->
  shape_is s (ext (t_shape x)) k ->
  exists ys, t_batch_split m als x n = Ok ys /\ length ys = N.to_nat n /\
    forall i d0, i < N.to_nat n -> is_tensor d s (fun c b => at_ x c (i * k + b)) (nth i ys d0).
Proof. intros. apply batch_split_yields; auto. Qed.
Theorem C29_batch_concat_of_split : forall d (als : nat -> alloc_oracle K) al x n, (forall i, al_ok (als i)) -> al_ok al -> ready d x -> (1 <= n)%N ->
  bat (t_shape x) mod N.to_nat n = 0 ->
  exists ys, t_batch_split m als x n = Ok ys /\ length ys = N.to_nat n /\
    yields (t_batch_concat m al ys) d (t_shape x) (fun c b => at_ x c b).
Proof. intros. apply batch_concat_split; auto. Qed.
End Defs.

(** ** Concrete cases *)
(** the contract required of sort_unstable_by is met by insertion sort *)
Fixpoint insert (cmp : nat -> nat -> option comparison) (x : nat) (l : list nat) : list nat :=
  match l with [] => [x] | y :: r => match cmp x y with Some Gt => y :: insert cmp x r | _ => x :: l end end.
Definition isort (cmp : nat -> nat -> option comparison) (l : list nat) : res (list nat) := Ok (fold_right (insert cmp) [] l).
Lemma isort_contract : sort_contract isort.
Proof.
  intros cmp l (HN & HS & HT). eexists. split; [reflexivity|].
  assert (P : forall x r, Permutation (x :: r) (insert cmp x r)).
  { intros x. induction r as [|y r IH]; [reflexivity|]. cbn [insert]. destruct (cmp x y) as [[]|]; auto. rewrite perm_swap. constructor. exact IH. }
  assert (PL : forall r, Permutation r (fold_right (insert cmp) [] r)).
  { induction r as [|y r IH]; [reflexivity|]. cbn [fold_right]. rewrite <- P. constructor. exact IH. }
  split; [apply PL|].
  assert (S : forall r, incl r l -> StronglySorted (fun a b => cmp a b <> Some Gt) (fold_right (insert cmp) [] r)).
  { induction r as [|y r IH]; intros HI; [constructor|]. cbn [fold_right]. assert (Hy : In y l) by (apply HI; left; auto).
    assert (Hr : incl (fold_right (insert cmp) [] r) l).
    { intros z Hz. apply HI. right. eapply Permutation_in; [symmetry; apply PL|exact Hz]. }
    specialize (IH ltac:(intros z Hz; apply HI; right; auto)). revert IH Hr. generalize (fold_right (insert cmp) [] r) as q.
    induction q as [|z q IHq]; intros Hs Hq; cbn [insert]; [repeat constructor|]. inversion Hs as [|? ? Hs1 Hs2]; subst.
    assert (Hz : In z l) by (apply Hq; left; auto). destruct (cmp y z) as [[]|] eqn:E.
    - constructor; auto. constructor; [congruence|]. rewrite Forall_forall in *. intros w Hw. apply HT with z; auto; [apply Hq; right; auto|congruence].
    - constructor; auto. constructor; [congruence|]. rewrite Forall_forall in *. intros w Hw. apply HT with z; auto; [apply Hq; right; auto|congruence].
    - constructor; [apply IHq; auto; intros w Hw; apply Hq; right; auto|]. rewrite Forall_forall in *. intros w Hw.
      apply (Permutation_in _ (Permutation_sym (P y q))) in Hw. destruct Hw as [<-|Hw]; [|apply Hs2; auto].
      rewrite HS by auto. rewrite E. discriminate.
    - exfalso. apply (HN y z); auto. }
  specialize (S l (incl_refl l)). intros i j Hij. revert i j Hij. induction S as [|x r Hs IH HF]; intros i j Hij; [simpl in Hij; lia|].
  destruct i; destruct j; try lia.
  - cbn [nth]. rewrite Forall_forall in HF. apply HF, nth_In. simpl in Hij. lia.
  - cbn [nth]. apply IH. simpl in Hij. lia.
Qed.
(** 3 x 2, minibatch of 2, with ties *)
Definition t32 : tensor Znum := tz 0 [3; 2]%N 2 [3;1;2; 5;5;-1;  0;7;7; 4;2;2; 88]%Z.
Lemma t32_ready : ready 0 t32. Proof. rdy. Qed.
Example C20_witness : ready 0 t32 /\ al_ok alz /\
  t_sum Release alz t32 0 = Ok (tz 0 [1; 2]%N 2 [6; 9; 14; 8; 99; 99; 99]%Z) /\
  t_max Release alz t32 1 = Ok (tz 0 [3; 1]%N 2 [5; 5; 2; 4; 7; 7; 99; 99; 99]%Z) /\
  max_bw Release 0 t32 (tz 0 [3; 1]%N 2 [5; 5; 2; 4; 7; 7]%Z) (tz 0 [3; 1]%N 2 [1;2;3;4;5;6]%Z) 1 (tz 0 [3; 2]%N 2 (repeat 10 12)%Z) =
    Ok (tz 0 [3; 2]%N 2 [10;10;13; 11;12;10; 10;15;16; 14;10;10]%Z).
Proof. split; [exact t32_ready|]. split; [exact alz_ok|]. ssplit; reflexivity. Qed.
Example C21_witness : ready 0 t32 /\ (forall f n, weak_order_on Znum (nlt Znum) f n) /\
  t_argmax Release isort t32 0 = Ok [0; 0; 1; 0]%N /\ t_argmin Release isort t32 0 = Ok [1; 2; 0; 1]%N.
Proof.
  split; [exact t32_ready|]. split; [|split; reflexivity]. intros f n. cbn [nlt Znum]. split; [|split]; intros; lia.
Qed.
Example C22_witness : ready 0 t32 /\ sort_contract isort /\
  (forall p q r, total_on (fun p q => partial_cmp Znum (nth0 (buf t32) p) (nth0 (buf t32) q)) [p; q; r]) /\
  t_argsort Release isort t32 0 = Ok [1;2;0; 5;3;4; 6;7;8; 10;11;9]%N.
Proof.
  split; [exact t32_ready|]. split; [exact isort_contract|]. split; [|reflexivity]. intros p q r. unfold partial_cmp. cbn [nlt neqb Znum].
  split; [|split]; intros; repeat match goal with |- context [(?a <? ?b)%Z] => destruct (Z.ltb_spec a b) | |- context [(?a =? ?b)%Z] => destruct (Z.eqb_spec a b)
    | H : context [(?a <? ?b)%Z] |- _ => destruct (Z.ltb_spec a b) | H : context [(?a =? ?b)%Z] |- _ => destruct (Z.eqb_spec a b) end; cbn; try congruence; try lia.
Qed.
Example C23_witness : t_broadcast Release alz (tz 0 [2]%N 2 [1;2;3;4]%Z) 1 3 = Ok (tz 0 [2; 3]%N 2 [1;2;1;2;1;2; 3;4;3;4;3;4; 99;99;99]%Z) /\
  shape_is (sh [2; 3]%N 2) (eset (sh [2]%N 2) 1 3) (bat (sh [2]%N 2)) /\ fits (sh [2; 3]%N 2).
Proof.
  split; [reflexivity|]. split; [|apply sh_fits; reflexivity].
  pose proof (@sh_is [2;3]%N 2 eq_refl eq_refl) as Hx. pose proof (@sh_is [2]%N 2 eq_refl eq_refl) as Hy. split; [apply Hx|]. split; [|reflexivity].
  intros i. rewrite (proj1 (proj2 Hx)). unfold eset. destruct (Nat.eqb_spec i 1) as [->|]; [reflexivity|]. rewrite (proj1 (proj2 Hy)).
  destruct i as [|[|[|i]]]; try reflexivity. lia.
Qed.
Example C24_witness : t_slice Release alz t32 0 1 3 = Ok (tz 0 [2; 2]%N 2 [1;2; 5;-1; 7;7; 2;2; 99;99;99]%Z) /\
  slice_bw Release 0 (tz 0 [2; 2]%N 2 [1;2;3;4;5;6;7;8]%Z) 0 1 t32 = Ok (tz 0 [3; 2]%N 2 [3;2;4; 5;8;3; 0;12;13; 4;9;10; 88]%Z).
Proof. split; reflexivity. Qed.
Example C25_witness : t_pick Release alz t32 [2; 0]%N 0 = Ok (tz 0 [1; 2]%N 2 [2; -1; 0; 4; 99;99;99]%Z) /\
  pick_bw Release 0 (tz 0 [1; 2]%N 3 [1;2;3;4;5;6]%Z) [2; 2; 0]%N 0 (tz 0 [3; 2]%N 1 [0;0;0;0;0;0]%Z) = Ok (tz 0 [3;2]%N 1 [5;0;4; 6;0;6]%Z).
Proof. split; reflexivity. Qed.
Example C26_witness : t_concat Release alz [tz 0 [1;2]%N 2 [1;2;3;4]%Z; tz 0 [2;2]%N 1 [5;6;7;8]%Z] 0 =
    Ok (tz 0 [3;2]%N 2 [1;5;6; 2;7;8; 3;5;6; 4;7;8; 99;99;99]%Z) /\
  t_split Release (fun _ => alz) t32 1 2 = Ok [tz 0 [3]%N 2 [3;1;2; 0;7;7; 99;99;99]%Z; tz 0 [3]%N 2 [5;5;-1; 4;2;2; 99;99;99]%Z].
Proof. split; reflexivity. Qed.
Example C27_witness : mat_ok t32 (tz 0 [2; 1]%N 1 [1; 10]%Z) /\
  t_matmul Release alz t32 (tz 0 [2; 1]%N 1 [1; 10]%Z) = Ok (tz 0 [3; 1]%N 2 [53; 51; -8; 40; 27; 27; 99;99;99]%Z) /\
  t_matmul Release alz (tz 0 [1; 20]%N 1 (repeat 1 20)%Z) (tz 0 [20]%N 1 (map Z.of_nat (seq 0 20))) = Ok (tz 0 []%N 1 [190; 99;99;99]%Z).
Proof.
  split; [|split; reflexivity]. pose proof (@sh_is [3;2]%N 2 eq_refl eq_refl) as Hx. pose proof (@sh_is [2;1]%N 1 eq_refl eq_refl) as Hy.
  unfold mat_ok. cbn [t_shape t32 tz]. split; [|split; [|split; [reflexivity|right; right; reflexivity]]];
    intros i Hi; [rewrite (proj1 (proj2 Hx))|rewrite (proj1 (proj2 Hy))]; destruct i as [|[|i]]; try lia; destruct i; reflexivity.
Qed.
Example C28_witness : t_transpose Release alz t32 = Ok (tz 0 [2; 3]%N 2 [3;5; 1;5; 2;-1; 0;4; 7;2; 7;2; 99;99;99]%Z) /\
  t_triangular_l Release alz (tz 0 [3;3]%N 1 [1;2;3;4;5;6;7;8;9]%Z) 1 = Ok (tz 0 [3;3]%N 1 [0;2;3;0;0;6;0;0;0;99;99;99]%Z) /\
  t_triangular_u Release alz (tz 0 [3;3]%N 1 [1;2;3;4;5;6;7;8;9]%Z) 0 = Ok (tz 0 [3;3]%N 1 [1;0;0;4;5;0;7;8;9;99;99;99]%Z).
Proof. ssplit; reflexivity. Qed.
Example C29_witness : t_batch_slice Release alz t32 1 2 = Ok (tz 0 [3;2]%N 1 [0;7;7; 4;2;2; 99;99;99]%Z) /\
  t_batch_pick Release alz t32 [1;0;1]%N = Ok (tz 0 [3;2]%N 3 [0;7;7; 4;2;2; 3;1;2; 5;5;-1; 0;7;7; 4;2;2; 99;99;99]%Z) /\
  t_batch_sum Release alz t32 = Ok (tz 0 [3;2]%N 1 [3;8;9; 9;7;1; 99;99;99]%Z) /\
  t_batch_concat Release alz [tz 0 [2]%N 2 [1;2;3;4]%Z; tz 0 [2]%N 1 [5;6]%Z] = Ok (tz 0 [2]%N 3 [1;2;3;4;5;6; 99;99;99]%Z).
Proof. ssplit; reflexivity. Qed.
(** [+ triangular] for huge k the sum j + k wraps around in a release build: the
    mask keeps elements it should drop; a debug build panics *)
Theorem C28_triangular_huge_k_refuted : exists x k, ready 0 x /\
  t_triangular_l Release alz x k = Ok (tz 0 [2;2]%N 1 [0;0;3;4;99;99;99]%Z) /\ (N.to_nat k > 3) /\ t_triangular_l Debug alz x k = Panic.
Proof.
  exists (tz 0 [2;2]%N 1 [1;2;3;4]%Z), 4294967295%N. split; [rdy|]. split; [reflexivity|]. split; [lia|reflexivity].
Qed.
