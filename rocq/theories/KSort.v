(** * KSort: argsort *)
From Verif Require Export KRed.
From Coq Require Import Permutation Sorted.
Set Implicit Arguments.

Lemma nth_skipn A (l : list A) n i d : nth i (skipn n l) d = nth (n + i) l d.
Proof. revert l; induction n; intros l; auto. destruct l; simpl; auto. destruct i; auto. Qed.

Section Sort.
Variable K : num.
Variable m : build.
Notation F := (F K).
Notation nth0 l p := (nth p l (@n0 K)).

(** f32::partial_cmp: None when neither <, == nor > *)
Definition partial_cmp (a b : F) : option comparison :=
  if nlt K a b then Some Lt else if neqb K a b then Some Eq else if nlt K b a then Some Gt else None.

(** [sort_unstable_by] of the standard library is not modelled; it enters as
    [srt cmp slice]. Calling [unwrap] on an incomparable pair panics, which is
    part of what [srt] may do. *)
Variable srt : (nat -> nat -> option comparison) -> list nat -> res (list nat).

(** *** naive/argsort.rs L5-37. [(0..size).step_by(k)] is [steps_by size k];
    the reads of the comparator are made explicit before the slice is sorted. *)
Definition k_argsort (x : tensor K) (dim : nat) (y : list N) : res (list N) :=
  let s := t_shape x in
  sz <- size m s ;;
  let size := N.to_nat sz in
  skip <- lower_volume m s dim ;;
  let skip := N.to_nat skip in
  let len := N.to_nat (index s dim) in
  indices <- forL (steps_by size (skip * len)) (fun offset ind =>
     forN skip (fun j ind => forN len (fun i ind =>
        aset ind (offset + j * len + i) (offset + j + skip * i)) ind) ind) (repeat 0 size) ;;
  src <- ptr x ;;
  indices <- forL (steps_by size len) (fun offset ind =>
     _ <- assert (offset + len <=? length ind) ;;
     let slice := firstn len (skipn offset ind) in
     _ <- forL slice (fun p (_ : unit) => _ <- rd src p ;; Ok tt) tt ;;
     sorted <- srt (fun i j => partial_cmp (nth0 src i) (nth0 src j)) slice ;;
     Ok (firstn offset ind ++ sorted ++ skipn (offset + len) ind)) indices ;;
  forL (steps_by size (skip * len)) (fun offset y =>
     forN skip (fun j y => forN len (fun i y =>
        v <- idx indices (offset + j * len + i) ;;
        aset y (offset + j + skip * i) (N.of_nat v mod two32)%N) y) y) y.

(** the documented contract of slice::sort_unstable_by: when the comparator is a
    total preorder on the slice it returns a permutation in ascending order *)
Definition total_on (cmp : nat -> nat -> option comparison) (l : list nat) : Prop :=
  (forall i j, In i l -> In j l -> cmp i j <> None) /\
  (forall i j, In i l -> In j l -> cmp i j = option_map CompOpp (cmp j i)) /\
  (forall i j k, In i l -> In j l -> In k l -> cmp i j <> Some Gt -> cmp j k <> Some Gt -> cmp i k <> Some Gt).
Definition sort_contract : Prop := forall cmp l, total_on cmp l ->
  exists l', srt cmp l = Ok l' /\ Permutation l l' /\
    forall i j, i < j < length l' -> cmp (nth i l' 0) (nth j l' 0) <> Some Gt.

Lemma steps_by_mul n k : 1 <= k -> steps_by (n * k) k = map (fun i => i * k) (seq 0 n).
Proof.
  intros Hk. unfold steps_by. do 2 f_equal.
  replace (n * k + k - 1) with (n * k + (k - 1)) by lia. rewrite Nat.div_add_l by lia. rewrite Nat.div_small by lia. lia.
Qed.

(** loop over three nested ranges = one loop *)
Lemma forN_nest3 S A B C (f : nat -> nat -> nat -> S -> res S) s :
  forN A (fun a s => forN B (fun b s => forN C (fun c s => f a b c s) s) s) s
  = forN (A * B * C) (fun p s => f (p / C / B) ((p / C) mod B) (p mod C) s) s.
Proof.
  rewrite (forN_nest_rev A B (fun a b s => forN C (fun c s => f a b c s) s) s).
  rewrite (forN_nest_rev (A * B) C (fun ab c s => f (ab / B) (ab mod B) c s) s). reflexivity.
Qed.

Lemma k_argsort_spec x dim y0 sy lx : vt x lx -> reduces (t_shape x) sy dim -> sort_contract ->
  let sx := t_shape x in let n := ext sx dim in
  length y0 = tot sx ->
  (forall i, i < tot sy -> total_on (fun p q => partial_cmp (nth0 lx p) (nth0 lx q)) (map (lpos sx dim i) (seq 0 n))) ->
  exists l', k_argsort x dim y0 = Ok l' /\ length l' = tot sx /\
    forall i, i < tot sy ->
      Permutation (map (fun j => N.of_nat (lpos sx dim i j)) (seq 0 n)) (map (fun j => nth (lpos sx dim i j) l' 0%N) (seq 0 n)) /\
      forall j k, j < k < n -> partial_cmp (nth0 lx (N.to_nat (nth (lpos sx dim i j) l' 0%N))) (nth0 lx (N.to_nat (nth (lpos sx dim i k) l' 0%N))) <> Some Gt.
Proof.
  intros Hx HR HS sx n Hl HT. unfold k_argsort. change (reduces sx sy dim) in HR.
  rewrite (size_vt m Hx), (@lower_volume_low m (t_shape x) dim (vt_wf Hx)). cbn [bind]. rewrite !Nat2N.id.
  change (N.to_nat (index (t_shape x) dim)) with n. fold sx. set (s1 := low sx dim).
  pose proof (proj2 (proj2 Hx)) as HxL. fold sx in HxL. pose proof (red_n HR) as Hn. fold sx n in Hn.
  pose proof (red_s1 HR) as Hs1. fold sx s1 in Hs1.
  assert (Etot : tot sx = hic sx dim * (s1 * n)).
  { unfold s1, n. rewrite (tot_split dim (rd_wx HR)). fold sx. lia. }
  assert (Ety : tot sy = hic sx dim * s1).
  { rewrite (tot_split dim (rd_wy HR)), (red_low HR), (red_hic HR), (rd_one HR). fold sx s1. lia. }
  assert (Etn : tot sx = tot sy * n) by (rewrite Etot, Ety; lia).
  set (H := hic sx dim) in *.
  assert (Hdiv : forall p, p < tot sx -> p / n < tot sy /\ p mod n < n /\ p = n * (p / n) + p mod n).
  { intros p Hp. split; [apply Nat.div_lt_upper_bound; lia|]. split; [apply Nat.mod_upper_bound; lia|apply Nat.div_mod; lia]. }
  assert (Hlp : forall p, p < tot sx -> p / n / s1 * (s1 * n) + (p / n) mod s1 + s1 * (p mod n) = lpos sx dim (p / n) (p mod n)).
  { intros p Hp. rewrite lpos_alt. fold n s1. lia. }
  assert (Hdp : forall p, p < tot sx -> p / n / s1 * (s1 * n) + (p / n) mod s1 * n + p mod n = p).
  { intros p Hp. destruct (Hdiv p Hp) as (_ & _ & Ep). pose proof (Nat.div_mod (p / n) s1 ltac:(lia)). nia. }
  assert (Hsb : steps_by (tot sx) (s1 * n) = map (fun i => i * (s1 * n)) (seq 0 H)) by (rewrite Etot; apply steps_by_mul; nia).
  assert (Hsn : steps_by (tot sx) n = map (fun i => i * n) (seq 0 (tot sy))) by (rewrite Etn; apply steps_by_mul; lia).
  rewrite Hsb, Hsn, !forL_map.
  (* the index table *)
  destruct (@wr_loop nat 0 (tot sx) (fun p ind => aset ind (p / n / s1 * (s1 * n) + (p / n) mod s1 * n + p mod n) (p / n / s1 * (s1 * n) + (p / n) mod s1 + s1 * (p mod n)))
     (fun p => lpos sx dim (p / n) (p mod n)) (repeat 0 (tot sx))) as (ind & E1 & HL1 & HP1).
  { rewrite repeat_length; auto. }
  { intros p l' Hp Hl'. rewrite Hlp, Hdp, aset_Ok by (rewrite ?Hl', ?repeat_length; auto). auto. }
  rewrite (forN_nest3 H s1 n (fun a j i ind => aset ind (a * (s1 * n) + j * n + i) (a * (s1 * n) + j + s1 * i)) (repeat 0 (tot sx)) : forL (seq 0 H) _ _ = _).
  replace (H * s1 * n) with (tot sx) by lia. rewrite E1. cbn [bind]. rewrite (ptr_vt Hx). cbn [bind].
  rewrite repeat_length in HL1.
  (* sorting the slices *)
  set (cmp := fun i j => partial_cmp (nth0 lx i) (nth0 lx j)) in *.
  destruct (@forN_inv (list nat) (fun k l' => length l' = tot sx /\
      (forall i, i < tot sy -> Permutation (map (lpos sx dim i) (seq 0 n)) (map (fun j => nth (i * n + j) l' 0) (seq 0 n))) /\
      (forall i, i < k -> forall a b, a < b < n -> cmp (nth (i * n + a) l' 0) (nth (i * n + b) l' 0) <> Some Gt) /\
      (forall i j, k <= i < tot sy -> j < n -> nth (i * n + j) l' 0 = lpos sx dim i j))
      (tot sy) (fun a ind => _ <- assert (a * n + n <=? length ind) ;;
        let slice := firstn n (skipn (a * n) ind) in
        _ <- forL slice (fun p (_ : unit) => _ <- rd lx p ;; Ok tt) tt ;;
        sorted <- srt cmp slice ;;
        Ok (firstn (a * n) ind ++ sorted ++ skipn (a * n + n) ind)) ind) as (l2 & E2 & HL2 & HP2 & HS2 & _).
  { split; auto.
    assert (Q : forall i j, i < tot sy -> j < n -> nth (i * n + j) ind 0 = lpos sx dim i j).
    { intros i j Hi Hj. rewrite HP1. replace (_ <? _) with true by (symmetry; apply Nat.ltb_lt; nia).
      rewrite Nat.div_add_l by lia. rewrite (Nat.div_small j) by auto.
      rewrite (Nat.add_comm (i * n) j), Nat.mod_add by lia. rewrite Nat.mod_small by auto. rewrite Nat.add_0_r; auto. }
    split; [|split].
    - intros i Hi. replace (map (fun j => nth (i * n + j) ind 0) (seq 0 n)) with (map (lpos sx dim i) (seq 0 n)); auto.
      apply map_ext_in. intros j Hj. apply in_seq in Hj. symmetry; apply Q; lia.
    - intros i Hi; lia.
    - intros i j Hi Hj. apply Q; lia. }
  { intros k l1 Hk (HL & HP & HSo & HU).
    assert (Hkn : k * n + n <= tot sx) by nia.
    rewrite assert_bind_true by (apply Nat.leb_le; lia). cbv zeta.
    assert (Esl : firstn n (skipn (k * n) l1) = map (lpos sx dim k) (seq 0 n)).
    { apply nth_ext_len with (d := 0).
      - rewrite firstn_length, skipn_length, map_length, seq_length. lia.
      - intros i Hi. rewrite firstn_length in Hi. rewrite nth_firstn_lt by lia. rewrite nth_map_seq by lia.
        rewrite <- HU by lia. rewrite nth_skipn. auto. }
    rewrite Esl.
    rewrite (@forL_unit_Ok nat _ _ tt).
    2:{ intros p Hp. apply in_map_iff in Hp. destruct Hp as (j & <- & Hj). apply in_seq in Hj.
        pose proof (lpos_lt HR Hk (j := j)). fold sx n in H0. rewrite (rd_Ok lx _ n0) by (specialize (H0 ltac:(lia)); lia). auto. }
    cbn [bind]. destruct (HS cmp (map (lpos sx dim k) (seq 0 n)) (HT k Hk)) as (sl & Esr & Hperm & Hsort).
    rewrite Esr. cbn [bind]. eexists; split; [reflexivity|].
    assert (Hsl : length sl = n) by (rewrite <- (Permutation_length Hperm), map_length, seq_length; auto).
    assert (Hf : length (firstn (k * n) l1) = k * n) by (rewrite firstn_length; lia).
    assert (N1 : forall i j, i < k -> j < n -> nth (i * n + j) (firstn (k * n) l1 ++ sl ++ skipn (k * n + n) l1) 0 = nth (i * n + j) l1 0).
    { intros i j Hi Hj. assert (i * n + j < k * n) by nia. rewrite app_nth1 by lia. apply nth_firstn_lt; auto. }
    assert (N2 : forall j, j < n -> nth (k * n + j) (firstn (k * n) l1 ++ sl ++ skipn (k * n + n) l1) 0 = nth j sl 0).
    { intros j Hj. rewrite app_nth2 by lia. rewrite app_nth1 by lia. f_equal. lia. }
    assert (N3 : forall i j, k < i -> j < n -> nth (i * n + j) (firstn (k * n) l1 ++ sl ++ skipn (k * n + n) l1) 0 = nth (i * n + j) l1 0).
    { intros i j Hi Hj. assert (k * n + n <= i * n) by nia. rewrite app_nth2 by lia. rewrite app_nth2 by lia.
      rewrite nth_skipn. f_equal. lia. }
    ssplit.
    - rewrite !app_length, skipn_length. lia.
    - intros i Hi. destruct (Nat.lt_trichotomy i k) as [|[->|]].
      + rewrite (map_ext_in (fun j => nth (i * n + j) (firstn (k * n) l1 ++ sl ++ skipn (k * n + n) l1) 0) (fun j => nth (i * n + j) l1 0)); [apply HP; auto|]. intros j Hj. apply in_seq in Hj. apply N1; lia.
      + erewrite (map_ext_in (fun j => nth (k * n + j) _ 0)).
        2:{ intros j Hj. apply in_seq in Hj. apply N2. lia. }
        replace (map (fun j => nth j sl 0) (seq 0 n)) with sl; auto. rewrite <- Hsl. symmetry. apply map_nth_seq.
      + rewrite (map_ext_in (fun j => nth (i * n + j) (firstn (k * n) l1 ++ sl ++ skipn (k * n + n) l1) 0) (fun j => nth (i * n + j) l1 0)); [apply HP; auto|]. intros j Hj. apply in_seq in Hj. apply N3; lia.
    - intros i Hi a b Hab. destruct (Nat.eq_dec i k) as [->|].
      + rewrite !N2 by lia. apply Hsort. lia.
      + rewrite !N1 by lia. apply HSo; lia.
    - intros i j Hi Hj. rewrite N3 by lia. apply HU; lia. }
  rewrite !forL_map. match goal with |- context [forL (seq 0 (tot sy)) ?f ind] =>
    replace (forL (seq 0 (tot sy)) f ind) with (Ok l2) by (symmetry; exact E2) end. cbn [bind].
  (* write back *)
  assert (Hrange : forall i j, i < tot sy -> j < n -> nth (i * n + j) l2 0 < tot sx).
  { intros i j Hi Hj. assert (Hin : In (nth (i * n + j) l2 0) (map (lpos sx dim i) (seq 0 n))).
    { eapply Permutation_in; [apply Permutation_sym, HP2; auto|]. apply in_map_iff. exists j; split; auto. apply in_seq; lia. }
    apply in_map_iff in Hin. destruct Hin as (j' & <- & Hj'). apply in_seq in Hj'. apply (lpos_lt HR); fold sx; auto. fold n; lia. }
  destruct (@bij_loop N 0%N (tot sx) (fun p => lpos sx dim (p / n) (p mod n))
     (fun q => lline sx dim q * n + lidx sx dim q) (fun p _ => (N.of_nat (nth p l2 O) mod two32)%N)
     (fun p y => v <- idx l2 (p / n / s1 * (s1 * n) + (p / n) mod s1 * n + p mod n) ;;
        aset y (p / n / s1 * (s1 * n) + (p / n) mod s1 + s1 * (p mod n)) (N.of_nat v mod two32)%N) y0) as (l3 & E3 & HL3 & HP3).
  - lia.
  - intros p Hp. destruct (Hdiv p Hp) as (H1 & H2 & H3). split; [apply (lpos_lt HR); auto|].
    destruct (lpos_inv HR (p / n) H2) as (Q1 & Q2). fold sx in Q1, Q2. rewrite Q1, Q2. lia.
  - intros q Hq. destruct (lpos_surj HR Hq) as (H1 & H2 & H3). fold sx in H1, H2, H3. fold n in H2.
    split; [nia|]. rewrite Nat.div_add_l by lia. rewrite (Nat.div_small (lidx sx dim q)) by auto.
    rewrite (Nat.add_comm _ (lidx sx dim q)), Nat.mod_add by lia. rewrite Nat.mod_small by auto. rewrite Nat.add_0_r; auto.
  - intros p l' Hp Hl'. rewrite Hlp, Hdp by auto. rewrite (idx_Ok l2 p 0) by lia. cbn [bind]. rewrite aset_Ok; auto.
    destruct (Hdiv p Hp) as (H1 & H2 & H3). pose proof (lpos_lt HR H1 H2). fold sx in H0. lia.
  - exists l3. split; [|split; [lia|]].
    + rewrite ?forL_map. rewrite <- E3. replace (tot sx) with (H * s1 * n) by lia.
      exact (forN_nest3 H s1 n (fun a j i y => v <- idx l2 (a * (s1 * n) + j * n + i) ;; aset y (a * (s1 * n) + j + s1 * i) (N.of_nat v mod two32)%N) y0).
    + assert (Q : forall i j, i < tot sy -> j < n -> nth (lpos sx dim i j) l3 0%N = N.of_nat (nth (i * n + j) l2 0)).
      { intros i j Hi Hj. rewrite HP3. replace (_ <? _) with true by (symmetry; apply Nat.ltb_lt; apply (lpos_lt HR); auto).
        destruct (lpos_inv HR i Hj) as (Q1 & Q2). fold sx in Q1, Q2. rewrite Q1, Q2. apply N.mod_small.
        pose proof (Hrange i j Hi Hj). destruct Hx as ((Hw & Ho) & _). 
        assert (tot sx < N.to_nat two32). { unfold tot, sx. rewrite (vol_spec Hw). unfold bat. lia. } lia. }
      intros i Hi. split.
      * erewrite (map_ext_in (fun j => nth (lpos sx dim i j) l3 0%N)).
        2:{ intros j Hj. apply in_seq in Hj. apply Q; lia. }
        rewrite <- (map_map (lpos sx dim i) N.of_nat), <- (map_map (fun j => nth (i * n + j) l2 0) N.of_nat).
        apply Permutation_map. apply HP2; auto.
      * intros j k Hjk. rewrite !Q by lia. rewrite !Nat2N.id. apply (HS2 i Hi); auto.
Qed.
End Sort.
