(** * ApiMore: operator syntax, arg-functions, concatenation, splitting, matrix
    gradients and the composed functions *)
From Coq Require Import Permutation.
From Verif Require Export ApiBw.
Set Implicit Arguments.

Section ApiMore.
Variable K : num.
Notation F := (F K).
Notation tensor := (tensor K).
Variable m : build.

(** ** Operator syntax *)
(** the element of an operand used for (c, n): a scalar operand is repeated *)
Definition opnd (x : tensor) (c : nat -> nat) (n : nat) : F :=
  at_ x (if is_scalar (t_shape x) then czero else c) (bsel (t_shape x) n).
(** the operands of a binary operator fit together and give shape [s] *)
Definition bin_ok (a b : shape) (s : shape) : Prop :=
  (is_scalar a = false -> is_scalar b = false -> forall i, ext a i = ext b i) /\
  (bat a = bat b \/ bat a = 1 \/ bat b = 1) /\
  shape_is s (if is_scalar a then ext b else ext a) (Nat.max (bat a) (bat b)).

Lemma scalar_ext s : wf s -> is_scalar s = true -> forall i, ext s i = 1.
Proof. intros W H i. unfold ext. rewrite (proj1 (is_scalar_iff W) H i). reflexivity. Qed.
Lemma scalar_op_of x k s : wf x -> wf k -> is_scalar k = true -> (bat x = bat k \/ bat x = 1 \/ bat k = 1) ->
  shape_is s (ext x) (Nat.max (bat x) (bat k)) -> so_scalar_op x k = Ok s.
Proof.
  intros Wx Wk Hk Hc Hs. apply so_scalar_op_iff; auto. split; [apply is_scalar_iff; auto|].
  split; [unfold compat, bat in *; lia|]. eapply shape_is_N; [exact Hs|reflexivity|unfold bat; rewrite N2Nat.inj_max; reflexivity].
Qed.
Lemma elementwise_of a b s : wf a -> wf b -> (forall i, ext a i = ext b i) -> (bat a = bat b \/ bat a = 1 \/ bat b = 1) ->
  shape_is s (ext a) (Nat.max (bat a) (bat b)) -> so_elementwise a b = Ok s.
Proof.
  intros Wx Wk Hk Hc Hs. apply so_elementwise_iff; auto.
  split; [intros i; specialize (Hk i); unfold ext in Hk; lia|].
  split; [unfold compat, bat in *; lia|]. eapply shape_is_N; [exact Hs|reflexivity|unfold bat; rewrite N2Nat.inj_max; reflexivity].
Qed.
Lemma opnd_scalar (x : tensor) c n : is_scalar (t_shape x) = true -> opnd x c n = at_ x czero (bsel (t_shape x) n).
Proof. intros H. unfold opnd. rewrite H. reflexivity. Qed.
Lemma opnd_in d (x : tensor) c n : ready d x -> inb (t_shape x) c -> opnd x c n = at_ x c (bsel (t_shape x) n).
Proof.
  intros HR Hc. unfold opnd. destruct (is_scalar (t_shape x)) eqn:E; [|reflexivity]. rewrite !at_buf. f_equal.
  apply pos_ext; auto. intros i _. specialize (Hc i). rewrite (scalar_ext (ready_wf HR) E) in Hc. unfold czero. lia.
Qed.
Lemma ab_op_yields nf nl nr (op opl opr : F -> F -> F) d al (a b : tensor) s :
  assoc (fw_registry K m) nf = Some (fxx (k_fw_ab op)) ->
  assoc (fw_registry K m) nl = Some (fxx (k_fw_scalar opl)) ->
  assoc (fw_registry K m) nr = Some (fxx (k_fw_scalar opr)) ->
  al_ok al -> ready d a -> ready d b -> bin_ok (t_shape a) (t_shape b) s -> fits s ->
  yields (define_ab_op (define_fw_ab m nf so_elementwise) (define_fw_ab m nl so_scalar_op) (define_fw_ab m nr so_scalar_op) al a b) d s
    (fun c n => if is_scalar (t_shape a) then opl (opnd b c n) (opnd a c n)
                else if is_scalar (t_shape b) then opr (opnd a c n) (opnd b c n) else op (opnd a c n) (opnd b c n)).
Proof.
  intros HF HL HR HA Ha Hb (H1 & H2 & H3) HFt. unfold define_ab_op. rewrite (ready_device_of Ha). cbn [bind].
  pose proof (ready_wf Ha) as Wa. pose proof (ready_wf Hb) as Wb.
  destruct (is_scalar (t_shape a)) eqn:Ea; [|destruct (is_scalar (t_shape b)) eqn:Eb].
  - eapply yields_ext; [eapply fw_scalar_yields; eauto|].
    + apply scalar_op_of; auto; [lia|]. rewrite Nat.max_comm. exact H3.
    + intros c n Hc Hn. cbv beta. rewrite (opnd_scalar a) by auto. f_equal. rewrite (opnd_in _ Hb); auto.
      intros i. specialize (Hc i). rewrite (proj1 (proj2 H3)) in Hc. exact Hc.
  - eapply yields_ext; [eapply fw_scalar_yields; eauto|].
    + apply scalar_op_of; auto.
    + intros c n Hc Hn. cbv beta. rewrite (opnd_scalar b) by auto. f_equal. rewrite (opnd_in _ Ha); auto.
      intros i. specialize (Hc i). rewrite (proj1 (proj2 H3)) in Hc. exact Hc.
  - eapply yields_ext; [eapply fw_ab_yields; eauto|].
    + apply elementwise_of; auto.
    + intros c n Hc Hn. cbv beta. assert (Ca : inb (t_shape a) c).
      { intros i. specialize (Hc i). rewrite (proj1 (proj2 H3)) in Hc. exact Hc. }
      rewrite (opnd_in _ Ha), (opnd_in _ Hb); auto. intros i. rewrite <- H1; auto.
Qed.

(** ** argmax, argmin, argsort *)
Lemma reduces_exists x dim : wf x -> exists s, reduces x s dim.
Proof.
  intros W. destruct (Nat.lt_ge_cases dim 8) as [H|H].
  - destruct (@resize1_exists Debug x dim W H) as (s & _ & R). eauto.
  - exists x. constructor; auto. apply ext_ge8; auto.
Qed.
Variable srt : (nat -> nat -> option comparison) -> list nat -> res (list nat).
Lemma arg_size d (x : tensor) dim s : ready d x -> reduces (t_shape x) s dim ->
  N.to_nat (N.of_nat (tot (t_shape x)) / index (t_shape x) dim) = tot s.
Proof.
  intros HR R. pose proof (red_tot R) as T. pose proof (wf_index_pos dim (ready_wf HR)).
  assert (E : N.of_nat (tot (t_shape x)) = (N.of_nat (tot s) * index (t_shape x) dim)%N).
  { rewrite <- T, Nat2N.inj_mul. f_equal. unfold ext. lia. }
  rewrite E, N.div_mul by lia. lia.
Qed.
Lemma arg_scan_lt better (f : nat -> F) n : 1 <= n -> snd (arg_scan K better f n) < n.
Proof.
  intros Hn. unfold arg_scan.
  assert (G : forall k st, snd st < n -> (forall j, In j (seq k (n - k)) -> j < n) -> snd (fold_left (arg_step K better f) (seq k (n - k)) st) < n).
  { intros k. generalize (n - k) as q. intros q. revert k. induction q as [|q IH]; intros k st H1 H2; [exact H1|]. cbn [seq fold_left]. apply IH.
    - unfold arg_step. destruct (better _ _); [apply H2; left; reflexivity|exact H1].
    - intros j Hj. apply H2. right. exact Hj. }
  apply G; [simpl; lia|]. intros j Hj. apply in_seq in Hj. lia.
Qed.
Lemma arg_scan_ext better (f g : nat -> F) n : 1 <= n -> (forall j, j < n -> f j = g j) -> arg_scan K better f n = arg_scan K better g n.
Proof.
  intros Hn H. unfold arg_scan. rewrite (H 0) by lia. apply fold_left_ext_in. intros st j Hj. apply in_seq in Hj.
  unfold arg_step. rewrite H by lia. reflexivity.
Qed.
Lemma arg_spec better r d (x : tensor) dim : ready d x ->
  (r = (sz <- size m (t_shape x) ;; k_arg m better x (N.to_nat dim) (repeat 0%N (N.to_nat (sz / index (t_shape x) (N.to_nat dim)))))) ->
  exists s l, reduces (t_shape x) s (N.to_nat dim) /\ r = Ok l /\ length l = tot s /\
   forall c b, inb s c -> b < bat s -> nth (pos s c b) l 0%N =
     N.of_nat (snd (arg_scan K better (fun j => at_ x (cset c (N.to_nat dim) j) b) (ext (t_shape x) (N.to_nat dim)))).
Proof.
  intros HR ->. destruct (@reduces_exists (t_shape x) (N.to_nat dim) (ready_wf HR)) as (s & R). exists s.
  rewrite (fits_size m (ready_fits HR)). cbn [bind]. rewrite (arg_size HR R).
  rewrite (@k_arg_spec K m better x (N.to_nat dim) _ s _ (ready_vt HR) R (repeat_length _ _)).
  eexists. split; [exact R|]. split; [reflexivity|]. split; [rewrite map_length, seq_length; reflexivity|].
  intros c b Hc Hb. rewrite nth_map_seq by (apply pos_lt; auto; apply (rd_wy R)). cbn [Nat.add].
  pose proof (ext_pos (N.to_nat dim) (ready_wf HR)) as P.
  rewrite (@arg_scan_ext better (fun j => nth0 (buf x) (lpos (t_shape x) (N.to_nat dim) (pos s c b) j)) (fun j => at_ x (cset c (N.to_nat dim) j) b)); [|lia|].
  - apply N.mod_small. pose proof (arg_scan_lt better (fun j => at_ x (cset c (N.to_nat dim) j) b) P).
    pose proof (wf_index_lt (N.to_nat dim) (ready_wf HR)). unfold ext in *. lia.
  - intros j Hj. rewrite (lpos_pos R b Hc Hj). reflexivity.
Qed.
Lemma argmax_spec d (x : tensor) dim : ready d x -> exists s l, reduces (t_shape x) s (N.to_nat dim) /\ argmax m srt d x dim = Ok l /\ length l = tot s /\
   forall c b, inb s c -> b < bat s -> nth (pos s c b) l 0%N =
     N.of_nat (snd (arg_scan K (@ngt K) (fun j => at_ x (cset c (N.to_nat dim) j) b) (ext (t_shape x) (N.to_nat dim)))).
Proof. intros HR. eapply arg_spec; eauto. unfold argmax. rewrite (ready_check HR). reflexivity. Qed.
Lemma argmin_spec d (x : tensor) dim : ready d x -> exists s l, reduces (t_shape x) s (N.to_nat dim) /\ argmin m srt d x dim = Ok l /\ length l = tot s /\
   forall c b, inb s c -> b < bat s -> nth (pos s c b) l 0%N =
     N.of_nat (snd (arg_scan K (nlt K) (fun j => at_ x (cset c (N.to_nat dim) j) b) (ext (t_shape x) (N.to_nat dim)))).
Proof. intros HR. eapply arg_spec; eauto. unfold argmin. rewrite (ready_check HR). reflexivity. Qed.

(** what the scan computes when [better] is a strict weak order on the line *)
Definition weak_order_on (better : F -> F -> bool) (f : nat -> F) (n : nat) : Prop :=
  (forall i, i < n -> better (f i) (f i) = false) /\
  (forall i j k, i < n -> j < n -> k < n -> better (f i) (f j) = true -> better (f j) (f k) = true -> better (f i) (f k) = true) /\
  (forall i j k, i < n -> j < n -> k < n -> better (f i) (f j) = true -> better (f k) (f j) = false -> better (f i) (f k) = true).
Lemma arg_scan_first better f n : 1 <= n -> weak_order_on better f n ->
  let j := snd (arg_scan K better f n) in
  j < n /\ (forall i, i < n -> better (f i) (f j) = false) /\ (forall i, i < j -> better (f j) (f i) = true).
Proof.
  intros Hn (HI & HT & HW). cbv zeta. unfold arg_scan.
  assert (G : forall q k st, k + q = n -> 1 <= k -> fst st = f (snd st) -> snd st < k ->
     (forall i, i < k -> better (f i) (f (snd st)) = false) -> (forall i, i < snd st -> better (f (snd st)) (f i) = true) ->
     let j := snd (fold_left (arg_step K better f) (seq k q) st) in
     j < n /\ (forall i, i < n -> better (f i) (f j) = false) /\ (forall i, i < j -> better (f j) (f i) = true)).
  { induction q as [|q IH]; intros k st Hk H1 Hf Hs Ha Hb; cbv zeta.
    - cbn [seq fold_left]. replace k with n in * by lia. auto.
    - cbn [seq fold_left].
      replace (arg_step K better f st k) with (if better (f k) (f (snd st)) then (f k, k) else st)
        by (unfold arg_step; rewrite Hf; reflexivity).
      destruct (better (f k) (f (snd st))) eqn:E.
      + apply IH; cbn [fst snd]; auto; try lia.
        * intros i Hi. destruct (Nat.eq_dec i k) as [->|]; [apply HI; lia|].
          destruct (better (f i) (f k)) eqn:E2; [|reflexivity]. rewrite <- (Ha i) by lia. symmetry. apply HT with k; auto; lia.
        * intros i Hi. apply HW with (snd st); auto; try lia; apply Ha; lia.
      + apply IH; auto; try lia. intros i Hi. destruct (Nat.eq_dec i k) as [->|]; [exact E|apply Ha; lia]. }
  replace (seq 1 (n - 1)) with (seq 1 (n - 1)) by reflexivity.
  apply G; cbn [fst snd]; auto; try lia. intros i Hi. replace i with 0 by lia. apply HI; lia.
Qed.

Lemma argsort_spec d (x : tensor) dim : ready d x -> sort_contract srt ->
  let e := N.to_nat dim in let n := ext (t_shape x) e in
  (forall p q r, p < tot (t_shape x) -> q < tot (t_shape x) -> r < tot (t_shape x) ->
      total_on (fun p q => partial_cmp K (nth0 (buf x) p) (nth0 (buf x) q)) [p; q; r]) ->
  exists s l, reduces (t_shape x) s e /\ argsort m srt d x dim = Ok l /\ length l = tot (t_shape x) /\
   forall c b, inb s c -> b < bat s ->
     Permutation (map (fun j => N.of_nat (pos (t_shape x) (cset c e j) b)) (seq 0 n))
                 (map (fun j => nth (pos (t_shape x) (cset c e j) b) l 0%N) (seq 0 n)) /\
     forall j k, j < k < n -> partial_cmp K (nth0 (buf x) (N.to_nat (nth (pos (t_shape x) (cset c e j) b) l 0%N)))
                                            (nth0 (buf x) (N.to_nat (nth (pos (t_shape x) (cset c e k) b) l 0%N))) <> Some Gt.
Proof.
  intros HR HC e n HT. destruct (@reduces_exists (t_shape x) e (ready_wf HR)) as (s & R). exists s.
  unfold argsort. rewrite (ready_check HR). cbn [bind]. rewrite (fits_size m (ready_fits HR)). cbn [bind]. rewrite Nat2N.id.
  destruct (@k_argsort_spec K m srt x e (repeat 0%N (tot (t_shape x))) s _ (ready_vt HR) R HC (repeat_length _ _)) as (l & E & HL & HP).
  - intros i Hi. assert (L : forall j, In j (map (lpos (t_shape x) e i) (seq 0 (ext (t_shape x) e))) -> j < tot (t_shape x)).
    { intros j Hj. apply in_map_iff in Hj. destruct Hj as (q & <- & Hq). apply in_seq in Hq. apply (lpos_lt R); auto. lia. }
    split; [|split].
    + intros p q Hp Hq. apply (HT p q q); auto; simpl; auto.
    + intros p q Hp Hq. apply (HT p q q); auto; simpl; auto.
    + intros p q r Hp Hq Hr. apply (HT p q r); auto; simpl; auto.
  - exists l. split; [exact R|]. split; [exact E|]. split; [exact HL|]. intros c b Hc Hb.
    destruct (HP (pos s c b)) as [P1 P2]; [apply pos_lt; auto; apply (rd_wy R)|].
    assert (EL : forall j, In j (seq 0 n) -> lpos (t_shape x) e (pos s c b) j = pos (t_shape x) (cset c e j) b).
    { intros j Hj. apply in_seq in Hj. apply (lpos_pos R b Hc). fold n. lia. }
    split.
    + fold n in P1. rewrite (map_ext_in _ (fun j => N.of_nat (pos (t_shape x) (cset c e j) b))) in P1 by (intros; rewrite EL; auto).
      rewrite (map_ext_in (fun j => nth (lpos (t_shape x) e (pos s c b) j) l 0%N) (fun j => nth (pos (t_shape x) (cset c e j) b) l 0%N)) in P1 by (intros; rewrite EL; auto).
      exact P1.
    + intros j k Hjk. specialize (P2 j k Hjk). rewrite !EL in P2 by (apply in_seq; lia). exact P2.
Qed.

(** ** concat *)
Lemma check_all d (xs : list tensor) : Forall (ready d) xs -> forL xs (fun x (_ : unit) => check_dev d x) tt = Ok tt.
Proof. induction xs as [|x xs IH]; intros H; [reflexivity|]. inversion H; subst. cbn [forL]. rewrite (ready_check H2). cbn [bind]. auto. Qed.
(** the batches of the operands: all 1 or all those above 1 equal to [B] *)
Definition common (bs : list nat) (B : nat) : Prop := Forall (fun b => b = 1 \/ b = B) bs /\ (B = 1 \/ In B bs).
Lemma exts_sum (xs : list tensor) dim : sum_ext (map t_shape xs) dim = N.of_nat (exts xs dim).
Proof.
  induction xs as [|x xs IH]; [reflexivity|]. cbn [map exts fold_right]. fold (exts xs dim).
  unfold sum_ext in *. cbn [map]. unfold sumN in *. cbn [fold_right]. rewrite IH. unfold ext. lia.
Qed.
Lemma concat_yields d al (x0 : tensor) xs0 dim s : let xs := x0 :: xs0 in let e := N.to_nat dim in
  al_ok al -> Forall (ready d) xs -> e < 8 ->
  Forall (fun x : tensor => forall i, i <> e -> ext (t_shape x) i = ext (t_shape x0) i) xs ->
  common (map (fun x : tensor => bat (t_shape x)) xs) (bat s) ->
  shape_is s (eset (t_shape x0) e (exts xs e)) (bat s) -> fits s ->
  exists y, concat_fw m d al xs dim = Ok y /\ ready d y /\ t_shape y = s /\
    forall l1 x l2 c b, xs = l1 ++ x :: l2 -> inb (t_shape x) c -> b < bat s ->
      at_ y (cset c e (c e + exts l1 e)) b = at_ x c (bsel (t_shape x) b).
Proof.
  intros xs e HA HR Hd HE HC Hs HF. unfold concat_fw. rewrite assert_bind_true by reflexivity. rewrite (check_all HR). cbn [bind]. fold e.
  assert (W : Forall wf (map t_shape xs)).
  { apply Forall_forall. intros z Hz. apply in_map_iff in Hz. destruct Hz as (t & <- & Ht). rewrite Forall_forall in HR. apply (ready_wf (HR t Ht)). }
  assert (Es : so_concat m (map t_shape xs) e = Ok s).
  { apply le_concat. apply so_concat_iff; auto. exists (t_shape x0), (map t_shape xs0). split; [reflexivity|]. split; [exact Hd|]. split; [|split].
    - apply Forall_forall. intros z Hz i Hi. apply in_map_iff in Hz. destruct Hz as (t & <- & Ht). rewrite Forall_forall in HE. specialize (HE t Ht i Hi). unfold ext in HE. lia.
    - destruct HC as [C1 C2]. rewrite map_map. split.
      + apply Forall_forall. intros z Hz. apply in_map_iff in Hz. destruct Hz as (t & <- & Ht). rewrite Forall_forall in C1.
        specialize (C1 (bat (t_shape t)) (in_map (fun x : tensor => bat (t_shape x)) _ _ Ht)). unfold bat in C1. lia.
      + destruct C2 as [C2|C2]; [left; unfold bat in C2; lia|right]. apply in_map_iff in C2. destruct C2 as (t & C2 & Ht).
        apply in_map_iff. exists t. split; auto. unfold bat in C2. lia.
    - eapply shape_is_N; [exact Hs| |unfold bat; reflexivity]. intros i. apply eset_upd'. rewrite exts_sum. lia. }
  rewrite Es. cbn [bind]. destruct (@new_alloc_Ok K m d al s HA HF) as (l & El & Hl). rewrite El. cbn [bind].
  pose proof (@new_ready K d s l HF Hl) as Hy.
  rewrite (call_fw_eq _ (eq_refl : assoc (fw_registry K m) "concat_fw_impl" = _)). cbn [idx nth_error bind].
  destruct (@k_concat_spec K m xs e _ _ (ready_vt Hy)) as (l' & E' & HL & _ & HP); cbn [t_shape].
  - apply Forall_forall. intros x Hx. rewrite Forall_forall in HR, HE. constructor.
    + apply (ready_vt (HR x Hx)).
    + intros i Hi. rewrite (HE x Hx i Hi). destruct Hs as (_ & -> & _). unfold eset. destruct (Nat.eqb_spec i e); [contradiction|reflexivity].
    + destruct HC as [C1 _]. rewrite Forall_forall in C1. apply C1. apply (in_map (fun x : tensor => bat (t_shape x))); auto.
  - destruct Hs as (_ & -> & _). unfold eset. rewrite Nat.eqb_refl. reflexivity.
  - eexists. split; [exact E'|]. split; [apply ready_with; auto|]. split; [reflexivity|].
    intros l1 x l2 c b Ex Hc Hb. rewrite at_buf, buf_with. cbn [with_buf t_shape]. eapply HP; eauto.
Qed.
Lemma batch_concat_yields d al (x0 : tensor) xs0 s : let xs := x0 :: xs0 in
  al_ok al -> Forall (ready d) xs ->
  Forall (fun x : tensor => forall i, ext (t_shape x) i = ext (t_shape x0) i) xs ->
  shape_is s (ext (t_shape x0)) (bats xs) -> fits s ->
  exists y, batch_concat_fw m d al xs = Ok y /\ ready d y /\ t_shape y = s /\
    forall l1 x l2 c b, xs = l1 ++ x :: l2 -> inb (t_shape x) c -> b < bat (t_shape x) ->
      at_ y c (b + bats l1) = at_ x c b.
Proof.
  intros xs HA HR HE Hs HF. unfold batch_concat_fw. rewrite assert_bind_true by reflexivity. rewrite (check_all HR). cbn [bind].
  assert (W : Forall wf (map t_shape xs)).
  { apply Forall_forall. intros z Hz. apply in_map_iff in Hz. destruct Hz as (t & <- & Ht). rewrite Forall_forall in HR. apply (ready_wf (HR t Ht)). }
  assert (Eb : sumN (map batch (map t_shape xs)) = N.of_nat (bats xs)).
  { clear. induction xs as [|x xs IH]; [reflexivity|]. cbn [map bats fold_right]. fold (bats xs). unfold sumN in *. cbn [fold_right]. rewrite IH. unfold bat. lia. }
  assert (Es : so_batch_concat m (map t_shape xs) = Ok s).
  { apply le_batch_concat. apply so_batch_concat_iff; auto. exists (t_shape x0), (map t_shape xs0). split; [reflexivity|]. split.
    - apply Forall_forall. intros z Hz i. apply in_map_iff in Hz. destruct Hz as (t & <- & Ht). rewrite Forall_forall in HE. specialize (HE t Ht i). unfold ext in HE. lia.
    - eapply shape_is_N; [exact Hs|reflexivity|]. change (t_shape x0 :: map t_shape xs0) with (map t_shape xs). rewrite Eb. lia. }
  rewrite Es. cbn [bind]. destruct (@new_alloc_Ok K m d al s HA HF) as (l & El & Hl). rewrite El. cbn [bind].
  pose proof (@new_ready K d s l HF Hl) as Hy.
  rewrite (call_fw_eq _ (eq_refl : assoc (fw_registry K m) "batch_concat_fw_impl" = _)).
  destruct (@k_batch_concat_spec K m xs _ _ (ready_vt Hy)) as (l' & E' & HL & _ & HP); cbn [t_shape].
  - apply Forall_forall. intros x Hx. rewrite Forall_forall in HR, HE. constructor.
    + apply (ready_vt (HR x Hx)).
    + intros i. rewrite (HE x Hx i). destruct Hs as (_ & -> & _). reflexivity.
  - symmetry. apply Hs.
  - eexists. split; [exact E'|]. split; [apply ready_with; auto|]. split; [reflexivity|].
    intros l1 x l2 c b Ex Hc Hb. rewrite at_buf, buf_with. cbn [with_buf t_shape]. eapply HP; eauto.
Qed.

(** ** split *)
Lemma collect_Ok A (f : nat -> res A) n (acc : list A) (P : nat -> A -> Prop) : (forall i, i < n -> exists y, f i = Ok y /\ P i y) ->
  exists ys, forN n (fun i ret => y <- f i ;; Ok (ret ++ [y])) acc = Ok (acc ++ ys) /\ length ys = n /\
    forall i d0, i < n -> P i (nth i ys d0).
Proof.
  induction n as [|n IH]; intros H.
  - exists []. rewrite app_nil_r. split; [reflexivity|]. split; [reflexivity|]. intros; lia.
  - destruct IH as (ys & E & HL & HP); [intros; apply H; lia|]. destruct (H n) as (y & Ey & Py); [lia|].
    exists (ys ++ [y]). rewrite forN_S, E. cbn [bind]. rewrite Ey. cbn [bind]. rewrite app_assoc. split; [reflexivity|].
    split; [rewrite app_length; simpl; lia|]. intros i d0 Hi. destruct (Nat.eq_dec i n) as [->|].
    + rewrite app_nth2 by lia. rewrite HL, Nat.sub_diag. exact Py.
    + rewrite app_nth1 by lia. apply HP. lia.
Qed.
Lemma split_skip_Ok total n : (1 <= n)%N -> N.modulo total n = 0%N -> split_skip total n = Ok (total / n)%N.
Proof.
  intros Hn Hm. unfold split_skip. assert (n =? 0 = false)%N as -> by (apply N.eqb_neq; lia). cbn [negb assert bind].
  rewrite (proj2 (N.eqb_eq _ _)); [reflexivity|]. pose proof (N.div_mod total n). lia.
Qed.
Lemma split_yields d als (x : tensor) dim n s : let e := N.to_nat dim in let k := ext (t_shape x) e / N.to_nat n in
  (forall i, al_ok (als i)) -> ready d x -> e < 8 -> (1 <= n)%N -> ext (t_shape x) e mod N.to_nat n = 0 ->
  shape_is s (eset (t_shape x) e k) (bat (t_shape x)) ->
  exists ys, t_split m als x dim n = Ok ys /\ length ys = N.to_nat n /\
    forall i d0, i < N.to_nat n -> is_tensor d s (fun c b => at_ x (cset c e (c e + i * k)) b) (nth i ys d0).
Proof.
  intros e k HA HR Hd Hn Hm Hs. unfold t_split. fold e.
  assert (Em : (index (t_shape x) e mod n = 0)%N).
  { unfold ext in Hm. apply N2Nat.inj. rewrite N2Nat.inj_mod by lia. exact Hm. }
  rewrite (split_skip_Ok _ Hn Em). cbn [bind]. set (sk := (index (t_shape x) e / n)%N).
  assert (Ek : N.to_nat sk = k) by (unfold sk, k, ext; rewrite N2Nat.inj_div by lia; reflexivity).
  assert (Tk : ext (t_shape x) e = k * N.to_nat n).
  { unfold k. pose proof (Nat.div_mod (ext (t_shape x) e) (N.to_nat n)). lia. }
  assert (k1 : 1 <= k) by (pose proof (ext_pos e (ready_wf HR)); nia).
  destruct (@collect_Ok tensor (fun i => t_slice m (als i) x dim (N.of_nat i * sk) ((N.of_nat i + 1) * sk)) (N.to_nat n) []
     (fun i y => is_tensor d s (fun c b => at_ x (cset c e (c e + i * k)) b) y)) as (ys & E & HL & HP).
  - intros i Hi. unfold t_slice. rewrite (ready_device_of HR). cbn [bind].
    assert (E1 : N.to_nat (N.of_nat i * sk) = i * k) by (rewrite N2Nat.inj_mul, Nat2N.id, Ek; reflexivity).
    assert (E2 : N.to_nat ((N.of_nat i + 1) * sk) = (i + 1) * k) by (rewrite N2Nat.inj_mul, N2Nat.inj_add, Nat2N.id, Ek; reflexivity).
    destruct (@slice_yields K m d (als i) x dim (N.of_nat i * sk) ((N.of_nat i + 1) * sk) s) as (y & Ey & Hy); auto.
    + nia.
    + fold e. rewrite E2, Tk. nia.
    + fold e. rewrite E1, E2. replace ((i + 1) * k - i * k) with k by nia. exact Hs.
    + exists y. split; [exact Ey|]. fold e in Hy. rewrite E1 in Hy. exact Hy.
  - exists ys. split; [exact E|]. split; [exact HL|]. exact HP.
Qed.
Lemma batch_split_yields d als (x : tensor) n s : let k := bat (t_shape x) / N.to_nat n in
  (forall i, al_ok (als i)) -> ready d x -> (1 <= n)%N -> bat (t_shape x) mod N.to_nat n = 0 ->
  shape_is s (ext (t_shape x)) k ->
  exists ys, t_batch_split m als x n = Ok ys /\ length ys = N.to_nat n /\
    forall i d0, i < N.to_nat n -> is_tensor d s (fun c b => at_ x c (i * k + b)) (nth i ys d0).
Proof.
  intros k HA HR Hn Hm Hs. unfold t_batch_split.
  assert (Em : (batch (t_shape x) mod n = 0)%N).
  { unfold bat in Hm. apply N2Nat.inj. rewrite N2Nat.inj_mod by lia. exact Hm. }
  rewrite (split_skip_Ok _ Hn Em). cbn [bind]. set (sk := (batch (t_shape x) / n)%N).
  assert (Ek : N.to_nat sk = k) by (unfold sk, k, bat; rewrite N2Nat.inj_div by lia; reflexivity).
  assert (Tk : bat (t_shape x) = k * N.to_nat n).
  { unfold k. pose proof (Nat.div_mod (bat (t_shape x)) (N.to_nat n)). lia. }
  assert (k1 : 1 <= k) by (pose proof (bat_pos (ready_wf HR)); nia).
  destruct (@collect_Ok tensor (fun i => t_batch_slice m (als i) x (N.of_nat i * sk) ((N.of_nat i + 1) * sk)) (N.to_nat n) []
     (fun i y => is_tensor d s (fun c b => at_ x c (i * k + b)) y)) as (ys & E & HL & HP).
  - intros i Hi. unfold t_batch_slice. rewrite (ready_device_of HR). cbn [bind].
    assert (E1 : N.to_nat (N.of_nat i * sk) = i * k) by (rewrite N2Nat.inj_mul, Nat2N.id, Ek; reflexivity).
    assert (E2 : N.to_nat ((N.of_nat i + 1) * sk) = (i + 1) * k) by (rewrite N2Nat.inj_mul, N2Nat.inj_add, Nat2N.id, Ek; reflexivity).
    destruct (@batch_slice_yields K m d (als i) x (N.of_nat i * sk) ((N.of_nat i + 1) * sk) s) as (y & Ey & Hy); auto.
    + nia.
    + rewrite E2, Tk. nia.
    + rewrite E1, E2. replace ((i + 1) * k - i * k) with k by nia. exact Hs.
    + exists y. split; [exact Ey|]. rewrite E1 in Hy. exact Hy.
  - exists ys. split; [exact E|]. split; [exact HL|]. exact HP.
Qed.
End ApiMore.
