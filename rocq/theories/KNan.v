(** * KNan: the scans of max/min/argmax/argmin and argsort when some elements are not comparable (NaN) *)
From Verif Require Export KSort ApiMore.
From Coq Require Import Permutation.
Set Implicit Arguments. Unset Strict Implicit.

(** a loop some step of which panics, whatever the state *)
Lemma forN_panics (A : Type) (P : nat -> A -> Prop) n (f : nat -> A -> res A) s k0 : k0 < n ->
  P 0 s -> (forall k s, k < n -> P k s -> f k s = Panic \/ exists s', f k s = Ok s' /\ P (S k) s') ->
  (forall s, P k0 s -> f k0 s = Panic) -> forN n f s = Panic.
Proof.
  intros Hk H0 HS HK. unfold forN.
  assert (G : forall q k s, k + q = n -> k <= k0 -> P k s -> forL (seq k q) f s = Panic).
  { induction q as [|q IH]; intros k s' Hq Hle HP; [lia|]. cbn [seq forL]. destruct (Nat.eq_dec k k0) as [->|].
    - rewrite (HK _ HP). reflexivity.
    - destruct (HS k s') as [-> | (s2 & -> & H2)]; auto; [lia|]. cbn [bind]. apply IH; auto; lia. }
  apply (G n 0 s); auto; lia.
Qed.

Section Nan.
Variable K : num.
Notation F := (F K).
Notation nth0 l p := (nth p l (@n0 K)).

Lemma arg_scan_value better (f : nat -> F) n : fst (arg_scan K better f n) = f (snd (arg_scan K better f n)).
Proof.
  unfold arg_scan. assert (G : forall l st, fst st = f (snd st) -> fst (fold_left (arg_step K better f) l st) = f (snd (fold_left (arg_step K better f) l st))).
  { induction l as [|i l IH]; intros st H; [exact H|]. cbn [fold_left]. apply IH. unfold arg_step. destruct (better (f i) (fst st)); auto. }
  apply G. reflexivity.
Qed.
Lemma arg_scan_S better (f : nat -> F) n : 1 <= n -> arg_scan K better f (S n) = arg_step K better f (arg_scan K better f n) n.
Proof.
  intros Hn. unfold arg_scan. replace (S n - 1) with (S (n - 1)) by lia. rewrite seq_S, fold_left_app. cbn [fold_left]. replace (1 + (n - 1)) with n by lia. reflexivity.
Qed.
(** max/min return the element argmax/argmin point at *)
Lemma red_arg_scan better (f : nat -> F) n : 1 <= n -> better (f 0) (f 0) = false ->
  red (fun t v => if better v t then v else t) (f 0) f n = f (snd (arg_scan K better f n)).
Proof.
  intros Hn H0. rewrite <- arg_scan_value. induction n as [|n IH]; [lia|]. rewrite red_S. destruct (Nat.eq_dec n 0) as [->|].
  - unfold red. cbn [seq fold_left]. rewrite H0. reflexivity.
  - rewrite IH by lia. rewrite arg_scan_S by lia. unfold arg_step. destruct (better (f n) _); reflexivity.
Qed.
(** elements outside of [N] never beat and are never beaten; [better] is a strict weak order on [N] *)
Lemma arg_scan_nan better (N : F -> bool) (f : nat -> F) n : 1 <= n ->
  (forall x y, N x = false -> better x y = false) -> (forall x y, N y = false -> better x y = false) ->
  (forall x, better x x = false) ->
  (forall x y z, better x y = true -> better y z = true -> better x z = true) ->
  (forall x y z, N x = true -> N y = true -> N z = true -> better x y = true -> better z y = false -> better x z = true) ->
  let j := snd (arg_scan K better f n) in
  j < n /\ (N (f 0) = false -> j = 0) /\
  (N (f 0) = true -> N (f j) = true /\ (forall i, i < n -> N (f i) = true -> better (f i) (f j) = false) /\
     forall i, i < j -> N (f i) = true -> better (f j) (f i) = true).
Proof.
  intros Hn HL HR HI HT HW. cbv zeta. induction n as [|n IH]; [lia|]. destruct (Nat.eq_dec n 0) as [->|].
  - unfold arg_scan. cbn [seq fold_left snd Nat.sub]. split; [lia|]. split; [reflexivity|]. intros H. split; [exact H|]. split.
    + intros i Hi _. replace i with 0 by lia. apply HI.
    + intros i Hi. lia.
  - destruct IH as (IH1 & IH2 & IH3); [lia|]. rewrite arg_scan_S by lia. unfold arg_step. rewrite arg_scan_value.
    set (j := snd (arg_scan K better f n)) in * . destruct (better (f n) (f j)) eqn:E; cbn [snd].
    + assert (N1 : N (f n) = true) by (destruct (N (f n)) eqn:Q; auto; rewrite HL in E by auto; discriminate).
      assert (N2 : N (f j) = true) by (destruct (N (f j)) eqn:Q; auto; rewrite HR in E by auto; discriminate).
      split; [lia|]. split.
      * intros H0. rewrite (IH2 H0) in N2. congruence.
      * intros H0. destruct (IH3 H0) as (A & B & C). split; [exact N1|]. split.
        -- intros i Hi Hi'. destruct (Nat.eq_dec i n) as [->|]; [apply HI|]. destruct (better (f i) (f n)) eqn:Q; auto.
           rewrite <- (B i) by (auto; lia). symmetry. eauto.
        -- intros i Hi Hi'. apply HW with (f j); auto.
    + split; [lia|]. split; [exact IH2|]. intros H0. destruct (IH3 H0) as (A & B & C). split; [exact A|]. split; [|exact C].
      intros i Hi Hi'. destruct (Nat.eq_dec i n) as [->|]; [exact E|apply B; auto; lia].
Qed.

Variable m : build.
Variable srt : (nat -> nat -> option comparison) -> list nat -> res (list nat).
(** argsort panics as soon as sorting one of the lines panics *)
Lemma k_argsort_panic (x : tensor K) dim y0 sy lx i0 : vt x lx -> reduces (t_shape x) sy dim ->
  let sx := t_shape x in let n := ext sx dim in let cmp := fun p q => partial_cmp K (nth0 lx p) (nth0 lx q) in
  i0 < tot sy -> srt cmp (map (lpos sx dim i0) (seq 0 n)) = Panic ->
  (forall i, i < tot sy -> srt cmp (map (lpos sx dim i) (seq 0 n)) = Panic \/ exists l, srt cmp (map (lpos sx dim i) (seq 0 n)) = Ok l /\ length l = n) ->
  k_argsort m srt x dim y0 = Panic.
Proof.
  intros Hx HR sx n cmp Hi0 HP HO. unfold k_argsort. change (reduces sx sy dim) in HR.
  rewrite (size_vt m Hx), (@lower_volume_low m (t_shape x) dim (vt_wf Hx)). cbn [bind]. rewrite !Nat2N.id.
  change (N.to_nat (index (t_shape x) dim)) with n. fold sx. set (s1 := low sx dim).
  pose proof (proj2 (proj2 Hx)) as HxL. fold sx in HxL. pose proof (red_n HR) as Hn. fold sx n in Hn.
  pose proof (red_s1 HR) as Hs1. fold sx s1 in Hs1.
  assert (Etot : tot sx = hic sx dim * (s1 * n)).
  { unfold s1, n. rewrite (tot_split dim (rd_wx HR)). fold sx. lia. }
  assert (Ety : tot sy = hic sx dim * s1).
  { rewrite (tot_split dim (rd_wy HR)), (red_low HR), (red_hic HR), (rd_one HR). fold sx s1. lia. }
  assert (Etn : tot sx = tot sy * n) by (rewrite Etot, Ety; lia).
  set (H := hic sx dim) in *.
  assert (Hdiv : forall p, p < tot sx -> p / n < tot sy /\ p mod n < n /\ p = n * (p / n) + p mod n).
  { intros p Hp. split; [apply Nat.div_lt_upper_bound; lia|]. split; [apply Nat.mod_upper_bound; lia|apply Nat.div_mod; lia]. }
  assert (Hlp : forall p, p < tot sx -> p / n / s1 * (s1 * n) + (p / n) mod s1 + s1 * (p mod n) = lpos sx dim (p / n) (p mod n)).
  { intros p Hp. rewrite lpos_alt. fold n s1. lia. }
  assert (Hdp : forall p, p < tot sx -> p / n / s1 * (s1 * n) + (p / n) mod s1 * n + p mod n = p).
  { intros p Hp. destruct (Hdiv p Hp) as (_ & _ & Ep). pose proof (Nat.div_mod (p / n) s1 ltac:(lia)). nia. }
  assert (Hsb : steps_by (tot sx) (s1 * n) = map (fun i => i * (s1 * n)) (seq 0 H)) by (rewrite Etot; apply steps_by_mul; nia).
  assert (Hsn : steps_by (tot sx) n = map (fun i => i * n) (seq 0 (tot sy))) by (rewrite Etn; apply steps_by_mul; lia).
  rewrite Hsb, Hsn, !forL_map.
  destruct (@wr_loop nat 0 (tot sx) (fun p ind => aset ind (p / n / s1 * (s1 * n) + (p / n) mod s1 * n + p mod n) (p / n / s1 * (s1 * n) + (p / n) mod s1 + s1 * (p mod n)))
     (fun p => lpos sx dim (p / n) (p mod n)) (repeat 0 (tot sx))) as (ind & E1 & HL1 & HP1).
  { rewrite repeat_length; auto. }
  { intros p l' Hp Hl'. rewrite Hlp, Hdp, aset_Ok by (rewrite ?Hl', ?repeat_length; auto). auto. }
  rewrite (forN_nest3 H s1 n (fun a j i ind => aset ind (a * (s1 * n) + j * n + i) (a * (s1 * n) + j + s1 * i)) (repeat 0 (tot sx)) : forL (seq 0 H) _ _ = _).
  replace (H * s1 * n) with (tot sx) by lia. rewrite E1. cbn [bind]. rewrite (ptr_vt Hx). cbn [bind].
  rewrite repeat_length in HL1. rewrite !forL_map.
  match goal with |- bind ?a ?k = Panic => assert (EE : a = Panic); [|rewrite EE; reflexivity] end.
  apply (@forN_panics (list nat) (fun k l' => length l' = tot sx /\ (forall i j, k <= i < tot sy -> j < n -> nth (i * n + j) l' 0 = lpos sx dim i j))
      (tot sy) _ ind i0 Hi0).
  { split; auto. intros i j Hi Hj. rewrite HP1. replace (_ <? _) with true by (symmetry; apply Nat.ltb_lt; nia).
      rewrite Nat.div_add_l by lia. rewrite (Nat.div_small j) by auto.
      rewrite (Nat.add_comm (i * n) j), Nat.mod_add by lia. rewrite Nat.mod_small by auto. rewrite Nat.add_0_r; auto. }
  all: assert (ST : forall k l1, k < tot sy -> length l1 = tot sx /\ (forall i j, k <= i < tot sy -> j < n -> nth (i * n + j) l1 0 = lpos sx dim i j) ->
     (_ <- assert (k * n + n <=? length l1) ;;
        let slice := firstn n (skipn (k * n) l1) in
        _ <- forL slice (fun p (_ : unit) => _ <- rd lx p ;; Ok tt) tt ;;
        sorted <- srt cmp slice ;;
        Ok (firstn (k * n) l1 ++ sorted ++ skipn (k * n + n) l1)) = (sorted <- srt cmp (map (lpos sx dim k) (seq 0 n)) ;; Ok (firstn (k * n) l1 ++ sorted ++ skipn (k * n + n) l1))).
  1,3: intros k l1 Hk (HL & HU).
  1,2: assert (Hkn : k * n + n <= tot sx) by nia.
  1,2: rewrite assert_bind_true by (apply Nat.leb_le; lia); cbv zeta.
  1,2: assert (Esl : firstn n (skipn (k * n) l1) = map (lpos sx dim k) (seq 0 n)).
  1,3: apply nth_ext_len with (d := 0); [rewrite firstn_length, skipn_length, map_length, seq_length; lia|];
       intros i Hi; rewrite firstn_length in Hi; rewrite nth_firstn_lt by lia; rewrite nth_map_seq by lia;
       rewrite <- HU by lia; rewrite nth_skipn; auto.
  1,2: rewrite Esl; rewrite (@forL_unit_Ok nat _ _ tt); [reflexivity|].
  1,2: intros p Hp; apply in_map_iff in Hp; destruct Hp as (j & <- & Hj); apply in_seq in Hj;
       pose proof (lpos_lt HR Hk (j := j)) as H0; fold sx n in H0; rewrite (rd_Ok lx _ n0) by (specialize (H0 ltac:(lia)); lia); auto.
  - intros k l1 Hk HI. pose proof (ST k l1 Hk HI) as E. cbv beta. 
    destruct (HO k Hk) as [E2 | (sl & E2 & Hsl)]; rewrite E2 in E; cbn [bind] in E.
    + left. exact E.
    + right. eexists. split; [exact E|]. destruct HI as (HL & HU). assert (Hkn : k * n + n <= tot sx) by nia.
      assert (Hf : length (firstn (k * n) l1) = k * n) by (rewrite firstn_length; lia). split.
      * rewrite !app_length, skipn_length. lia.
      * intros i j Hi Hj. assert (k * n + n <= i * n) by nia. rewrite app_nth2 by lia. rewrite app_nth2 by lia.
        rewrite nth_skipn. rewrite <- HU by lia. f_equal. lia.
  - intros l1 HI. pose proof (ST i0 l1 Hi0 HI) as E. rewrite HP in E. exact E.
Qed.
End Nan.
