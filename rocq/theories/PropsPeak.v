(** * PropsPeak: how much memory the pool takes from the backend (C67)
    About new_handle and drop_handle of memory_pool.rs (MemPool.v), under every
    interleaving of the critical sections of any number of threads. *)
From Verif Require Import MemPool PropsPool.
Set Implicit Arguments.
Local Open Scope N_scope.

(** ** Specification *)
(** the size class of a request: the least power of two that is at least the request and at least 64 *)
Definition size_class (size : N) : nat := N.to_nat (N.log2_up (N.max size 64)).
(** buffers of 2^k elements the backend was ever asked for (none is given back before the pool is dropped) *)
Definition made (c : config) (k : nat) : nat := length (filter (fun e => snd e =? 2 ^ N.of_nat k) (created (ps c))).
(** handles of that class the callers hold, and calls of that class in progress *)
Definition in_progress (k : nat) (x : pending) : bool := match x with PNew _ s _ => (s =? k)%nat | PDrop _ s => (s =? k)%nat end.
Definition in_use (c : config) (k : nat) : nat :=
  (length (filter (fun e => (size_class (snd e) =? k)%nat) (owned c)) + length (filter (in_progress k) (pend c)))%nat.

(** ** Counting *)
Definition of_class (k : nat) : ptr * N -> bool := fun e => (size_class (snd e) =? k)%nat.
Definition paired (e : ptr * nat) (f : ptr * N) : Prop := fst e = fst f /\ snd e = size_class (snd f).
Definition counted (c : config) : Prop :=
  Forall2 paired (mem_shift (ps c)) (owned c) /\ forall k, (k < 32)%nat -> made c k = (length (nth k (pool (ps c)) []) + in_use c k)%nat.

Lemma class_size size s : class size s -> size_class size = s.
Proof.
  intros (H1 & H2 & H3). rewrite calculate_shifts_log2_up in H3 by (unfold two32; lia). injection H3 as H3. unfold size_class. rewrite H3. apply Nat2N.id.
Qed.
Lemma paired_drop m o p : Forall2 paired m o -> Forall2 paired (remove m p) (drop_owned o p).
Proof.
  induction 1 as [|[q t] [q' z] m o (H1 & H2) H IH]; cbn; auto. cbn [fst snd] in * . subst q'. unfold remove, drop_owned in IH. destruct (q =? p); cbn [negb]; auto. constructor; auto. split; auto.
Qed.
Lemma drop_count m o p s k : Forall2 paired m o -> NoDup (map fst m) -> In (p, s) m ->
  length (filter (of_class k) o) = (length (filter (of_class k) (drop_owned o p)) + if (s =? k)%nat then 1 else 0)%nat.
Proof.
  induction 1 as [|[q t] [q' z] m o (H1 & H2) H IH]; cbn [In map fst]; [tauto|]. cbn [fst snd] in * . subst q' t. intros ND [E|E].
  - injection E as -> <-. unfold drop_owned. cbn [filter fst]. rewrite N.eqb_refl. cbn [negb].
    inversion ND; subst. rewrite (@remove_notin N). 2:{ intros G. apply H2. clear - H G. induction H as [|a b m o (E & _) H IH]; cbn in *; [tauto|]. destruct G as [G|G]; [left; congruence|auto]. }
    unfold of_class at 1. cbn [snd]. destruct (size_class z =? k)%nat; cbn [length]; lia.
  - inversion ND; subst. assert (Ne : (q =? p) = false). { apply N.eqb_neq. intros ->. apply H2. apply (in_map fst) in E. exact E. }
    unfold drop_owned in * . cbn [filter fst]. rewrite Ne. cbn [negb]. cbn [filter]. specialize (IH H3 E). assert (OC : of_class k (q, z) = (size_class z =? k)%nat) by reflexivity. rewrite OC. destruct (size_class z =? k)%nat; cbn [length]; lia.
Qed.
Lemma poison_stays c e c' : step c e c' -> length (pool (ps c)) = 32%nat -> poisoned (ps c') = false -> poisoned (ps c) = false.
Proof.
  intros S HL H. inversion S; subst; cbn [ps] in *; auto.
  - match goal with E : n1 _ _ _ = Ok _, U : u32 _ |- _ => destruct (n1_inv _ _ HL U E) as (_ & _ & [(rest & _ & ->)|(_ & _ & ->)]) end; auto.
  - match goal with E : n2 _ _ _ = Ok _ |- _ => unfold n2 in E end. destruct (poisoned (ps c)); [discriminate|auto].
  - match goal with E : d1 _ _ = _ |- _ => unfold d1 in E end. destruct (poisoned (ps c)); [discriminate|auto].
  - match goal with E : d1 _ _ = _ |- _ => unfold d1 in E end. destruct (poisoned (ps c)) eqn:Q; auto.
    match goal with E : _ = (st, Panic) |- _ => injection E as <- end. congruence.
  - match goal with E : d2 _ _ _ = _ |- _ => unfold d2 in E; apply bind_Ok in E; destruct E as (stack & _ & E); injection E as <- end. auto.
Qed.
Lemma filter_len_app A (f : A -> bool) l1 a l2 : length (filter f (l1 ++ a :: l2)) = (length (filter f (l1 ++ l2)) + if f a then 1 else 0)%nat.
Proof. rewrite !filter_app, !app_length. cbn [filter]. destruct (f a); cbn [length]; lia. Qed.
Lemma nth_lset_len (P : list (list ptr)) s v k : (s < length P)%nat -> nth k (lset P s v) [] = if (k =? s)%nat then v else nth k P [].
Proof. intros H. rewrite nth_lset by auto. reflexivity. Qed.
Lemma pow_class s k : (2 ^ N.of_nat s =? 2 ^ N.of_nat k) = (s =? k)%nat.
Proof.
  destruct (Nat.eqb_spec s k) as [->|H]; [apply N.eqb_refl|]. apply N.eqb_neq. intros E. apply N.pow_inj_r in E; lia.
Qed.

Lemma counted_step c e c' : inv c -> counted c -> step c e c' -> poisoned (ps c') = false -> counted c'.
Proof.
  intros I (HP & HC) S NP. pose proof (poison_stays S (i_len I) NP) as NP0. pose proof (inv_parts I) as ND. pose proof (inv_ms_nodup I) as NDms.
  inversion S; subst; unfold counted, made, in_use in *; cbn [ps pend owned] in *; auto.
  - (* a new buffer is asked for *)
    match goal with E : n1 _ _ _ = Ok _, U : u32 _ |- _ => destruct (n1_inv _ _ (i_len I) U E) as (Hs & Hc & [(rest & Er & ->)|(Er & -> & ->)]) end; split; cbn [mem_shift ps]; auto; intros k Hk; cbn [ps pend owned pool created in_progress filter].
    + rewrite HC by auto. rewrite nth_lset_len by (rewrite (i_len I); auto). rewrite (Nat.eqb_sym k s). destruct (Nat.eqb_spec s k) as [->|Ne]; cbn [length]; [rewrite Er; cbn [length]; lia|lia].
    + cbn [snd]. rewrite pow_class. specialize (HC k Hk). destruct (Nat.eqb_spec s k) as [->|Ne]; cbn [length]; lia.
  - (* a new buffer is handed over *)
    match goal with E : n2 _ _ _ = Ok _ |- _ => unfold n2 in E; rewrite NP0 in E; injection E as <- end.
    assert (Hin : In (PNew p s size) (pend c)) by (match goal with E : pend c = _ |- _ => rewrite E end; apply in_or_app; right; left; auto).
    destruct (i_pend_cap I _ Hin) as (Hs & _ & Hc). apply class_size in Hc. split; cbn [mem_shift ps created pool pend owned].
    + unfold insert. constructor; [split; auto|]. unfold remove. rewrite remove_notin; auto. intros Q. apply NoDup_app_r in ND.
      apply (NoDup_app_disj _ _ p ND Q). apply in_or_app; left. apply (in_map pend_ptr) in Hin. exact Hin.
    + intros k Hk. rewrite HC by auto. match goal with E : pend c = _ |- _ => rewrite E end. rewrite filter_len_app. cbn [filter snd in_progress]. rewrite Hc. destruct (s =? k)%nat; cbn [length]; lia.
  - (* the mutex is poisoned *)
    match goal with E : n2 _ _ _ = Panic |- _ => unfold n2 in E; rewrite NP0 in E; discriminate E end.
  - (* a handle is given back *)
    match goal with E : d1 _ _ = _ |- _ => unfold d1 in E; rewrite NP0 in E; destruct (lookup (mem_shift (ps c)) p) as [s'|] eqn:El; [|discriminate E]; injection E as <- <- end.
    split; cbn [mem_shift ps created pool pend owned].
    + apply paired_drop; auto.
    + intros k Hk. rewrite HC by auto. apply lookup_In in El. pose proof (@drop_count _ _ p s' k HP NDms El) as Q. unfold of_class in Q. rewrite Q. cbn [filter in_progress]. destruct (s' =? k)%nat; cbn [length]; lia.
  - (* a handle that is not owned *)
    match goal with E : d1 _ _ = _ |- _ => unfold d1 in E; rewrite NP0 in E; destruct (lookup (mem_shift (ps c)) p) as [s'|] eqn:El; [discriminate E|]; injection E as <- end. discriminate NP.
  - (* a buffer goes back to its stack *)
    match goal with E : d2 _ _ _ = Ok _ |- _ => unfold d2 in E; apply bind_Ok in E; destruct E as (stack & Ei & E); injection E as <- end.
    assert (Hin : In (PDrop p s) (pend c)) by (match goal with E : pend c = _ |- _ => rewrite E end; apply in_or_app; right; left; auto).
    destruct (i_pend_cap I _ Hin) as (Hs & _). rewrite (idx_Ok _ _ []) in Ei by (rewrite (i_len I); auto). injection Ei as <-.
    split; cbn [mem_shift ps created pool pend owned]; auto. intros k Hk. rewrite HC by auto. match goal with E : pend c = _ |- _ => rewrite E end.
    rewrite filter_len_app. cbn [in_progress]. rewrite nth_lset_len by (rewrite (i_len I); auto). rewrite (Nat.eqb_sym k s). destruct (Nat.eqb_spec s k) as [->|Ne]; cbn [length]; lia.
Qed.

Lemma steps_snoc c es e c1 c2 : steps c es c1 -> step c1 e c2 -> steps c (es ++ [e]) c2.
Proof. induction 1; intros H1; cbn; [econstructor; [eauto|constructor]|econstructor; eauto]. Qed.
Lemma steps_app c es c1 es' c2 : steps c es c1 -> steps c1 es' c2 -> steps c (es ++ es') c2.
Proof. induction 1; intros H1; cbn; auto. econstructor; eauto. Qed.
Lemma steps_split c es c2 : steps c es c2 -> es = [] /\ c = c2 \/ exists es' e c1, es = es' ++ [e] /\ steps c es' c1 /\ step c1 e c2.
Proof.
  induction 1 as [c|c e c1 es c2 H H0 [(-> & ->)|(es' & e' & c3 & -> & A & B)]]; auto; right.
  - exists [], e, c. repeat split; auto. constructor.
  - exists (e :: es'), e', c3. repeat split; auto. econstructor; eauto.
Qed.
Lemma steps_poison c es c' : steps c es c' -> inv c -> poisoned (ps c') = false -> poisoned (ps c) = false.
Proof. induction 1 as [c|c e c1 es c2 H H0 IH]; intros I NP; auto. pose proof (IH (step_inv I H) NP). eapply poison_stays; eauto. apply I. Qed.
Lemma counted_steps c es c' : steps c es c' -> inv c -> counted c -> poisoned (ps c') = false -> counted c'.
Proof.
  induction 1 as [c|c e c1 es c2 H H0 IH]; intros I C NP; auto. pose proof (step_inv I H) as I1. apply (IH I1); auto. apply (counted_step I C H). apply (steps_poison H0 I1 NP).
Qed.
Lemma counted_init : counted config_init.
Proof. split; [constructor|]. intros k Hk. unfold made, in_use. cbn. do 32 (destruct k as [|k]; [reflexivity|]). lia. Qed.
Lemma made_step c e c' k : inv c -> step c e c' -> (made c k <= made c' k)%nat.
Proof.
  intros I S. inversion S; subst; unfold made; cbn [ps]; auto.
  - match goal with E : n1 _ _ _ = Ok _, U : u32 _ |- _ => destruct (n1_inv _ _ (i_len I) U E) as (_ & _ & [(rest & _ & ->)|(_ & _ & ->)]) end; cbn [created filter]; auto. destruct (snd _ =? _); cbn [length]; auto.
  - match goal with E : n2 _ _ _ = Ok _ |- _ => unfold n2 in E; destruct (poisoned (ps c)); [discriminate|injection E as <-] end. auto.
  - match goal with E : d1 _ _ = _ |- _ => unfold d1 in E; destruct (poisoned (ps c)); [|destruct (lookup _ _)]; injection E as <- end; auto; intros; subst; auto; discriminate.
  - match goal with E : d1 _ _ = _ |- _ => unfold d1 in E; destruct (poisoned (ps c)); [|destruct (lookup _ _)]; injection E as <- end; auto; discriminate.
  - match goal with E : d2 _ _ _ = _ |- _ => unfold d2 in E; apply bind_Ok in E; destruct E as (stack & _ & E); injection E as <- end. auto.
Qed.
Lemma made_steps c es c' k : steps c es c' -> inv c -> (made c k <= made c' k)%nat.
Proof. induction 1 as [c|c e c1 es c2 H H0 IH]; intros I; auto. pose proof (made_step k I H). specialize (IH (step_inv I H)). lia. Qed.

(** ** C67 *)
(** at every moment of a history, what is in use has been taken from the backend *)
Theorem C67_enough : forall es c es' c' k, reach es c -> steps c es' c' -> poisoned (ps c') = false -> (k < 32)%nat -> (in_use c k <= made c' k)%nat.
Proof.
  intros es c es' c' k R S NP Hk. pose proof (reach_inv R) as I. pose proof (steps_poison S I NP) as NP0.
  destruct (counted_steps R inv_init counted_init NP0) as (_ & C). specialize (C k Hk). pose proof (made_steps k S I). lia.
Qed.

Lemma peak_from n : forall c0 es c k, length es = n -> inv c0 -> counted c0 -> steps c0 es c -> poisoned (ps c) = false -> (k < 32)%nat ->
  made c k = made c0 k \/ exists es1 es2 c', es = es1 ++ es2 /\ steps c0 es1 c' /\ steps c' es2 c /\ made c k = in_use c' k.
Proof.
  induction n as [n IH] using lt_wf_ind. intros c0 es c k L I0 C0 R NP Hk. pose proof R as R0. apply steps_split in R. destruct R as [(-> & <-)|(es' & e & c1 & -> & R1 & S)]; [auto|].
  pose proof (steps_inv I0 R1) as I1. pose proof (poison_stays S (i_len I1) NP) as NP1. destruct (Nat.eq_dec (made c k) (made c1 k)) as [E|E].
  - destruct (IH (length es')) with (c0 := c0) (es := es') (c := c1) (k := k) as [Q|(a & b & c' & -> & Ra & Sb & Q)]; auto; [rewrite app_length in L; cbn in L; lia|left; congruence|right].
    exists a, (b ++ [e]), c'. rewrite app_assoc. repeat split; auto; [eapply steps_snoc; eauto|congruence].
  - right. exists (es' ++ [e]), [], c. rewrite app_nil_r. repeat split; auto; [constructor|].
    destruct (counted_steps R0 I0 C0 NP) as (_ & C). rewrite (C k Hk). enough (Z : nth k (pool (ps c)) [] = []) by (rewrite Z; reflexivity).
    inversion S; subst; unfold made in E; cbn [ps] in *; try (exfalso; apply E; reflexivity).
    + match goal with H : n1 _ _ _ = Ok _, U : u32 _ |- _ => destruct (n1_inv _ _ (i_len I1) U H) as (_ & _ & [(rest & _ & ->)|(Er & _ & ->)]) end; cbn [created pool] in *; [exfalso; apply E; reflexivity|].
      cbn [filter snd] in E. rewrite pow_class in E. destruct (Nat.eqb_spec s k) as [->|Ne]; auto. exfalso; apply E; reflexivity.
    + match goal with H : n2 _ _ _ = Ok _ |- _ => unfold n2 in H; rewrite NP1 in H; injection H as <- end. exfalso; apply E; reflexivity.
    + match goal with H : d1 _ _ = _ |- _ => unfold d1 in H; rewrite NP1 in H; destruct (lookup _ _); [|discriminate H]; injection H as <- _ end. exfalso; apply E; reflexivity.
    + match goal with H : d1 _ _ = _ |- _ => unfold d1 in H; rewrite NP1 in H; destruct (lookup _ _); [discriminate H|]; injection H as <- end. exfalso; apply E; reflexivity.
    + match goal with H : d2 _ _ _ = _ |- _ => unfold d2 in H; apply bind_Ok in H; destruct H as (stack & _ & H); injection H as <- end. exfalso; apply E; reflexivity.
Qed.
(** and at some moment exactly as much was in use: the pool takes no more than the peak, class by class *)
Theorem C67_peak : forall es c k, reach es c -> poisoned (ps c) = false -> (k < 32)%nat ->
  exists es1 es2 c', es = es1 ++ es2 /\ reach es1 c' /\ steps c' es2 c /\ made c k = in_use c' k.
Proof.
  intros es c k R NP Hk. destruct (peak_from eq_refl inv_init counted_init R NP Hk) as [Q|H]; [|exact H]. exists [], es, config_init. repeat split; auto. constructor.
Qed.
(** a phase that never uses more buffers of a class than the pool has takes none from the backend *)
Theorem C67_no_growth : forall es c es' c' k, reach es c -> steps c es' c' -> poisoned (ps c') = false -> (k < 32)%nat ->
  (forall es1 es2 d, es' = es1 ++ es2 -> steps c es1 d -> steps d es2 c' -> (in_use d k <= made c k)%nat) -> made c' k = made c k.
Proof.
  intros es c es' c' k R S NP Hk H. pose proof (reach_inv R) as I. pose proof (made_steps k S I) as Le. pose proof (steps_poison S I NP) as NP0.
  destruct (peak_from eq_refl I (counted_steps R inv_init counted_init NP0) S NP Hk) as [Q|(a & b & d & E & Ra & Sb & Q)]; auto. specialize (H _ _ _ E Ra Sb). lia.
Qed.
Lemma created_step c e c' p cap : inv c -> step c e c' -> In (p, cap) (created (ps c')) -> In (p, cap) (created (ps c)) \/ exists k, (6 <= k < 32)%nat /\ cap = 2 ^ N.of_nat k.
Proof.
  intros I S. inversion S; subst; cbn [ps]; auto.
  - match goal with H : n1 _ _ _ = Ok _, U : u32 _ |- _ => destruct (n1_inv _ _ (i_len I) U H) as (Hs & Hc & [(rest & _ & ->)|(_ & _ & ->)]) end; cbn [created]; auto.
    intros [Q|Q]; auto. injection Q as <- <-. right. exists s. split; auto. apply class_size in Hc. split; auto. unfold size_class in Hc. rewrite <- Hc.
    assert (6 <= N.log2_up (N.max size 64)) by (change 6 with (N.log2_up 64); apply N.log2_up_le_mono; lia). lia.
  - match goal with E : n2 _ _ _ = Ok _ |- _ => unfold n2 in E; destruct (poisoned (ps c)); [discriminate|injection E as <-] end. auto.
  - match goal with E : d1 _ _ = _ |- _ => unfold d1 in E; destruct (poisoned (ps c)); [|destruct (lookup _ _)]; injection E as <- end; auto; intros; subst; auto; discriminate.
  - match goal with E : d1 _ _ = _ |- _ => unfold d1 in E; destruct (poisoned (ps c)); [|destruct (lookup _ _)]; injection E as <- end; auto; discriminate.
  - match goal with E : d2 _ _ _ = _ |- _ => unfold d2 in E; apply bind_Ok in E; destruct E as (stack & _ & E); injection E as <- end. auto.
Qed.
Lemma created_steps c es c' p cap : steps c es c' -> inv c -> In (p, cap) (created (ps c')) -> In (p, cap) (created (ps c)) \/ exists k, (6 <= k < 32)%nat /\ cap = 2 ^ N.of_nat k.
Proof. induction 1 as [c|c e c1 es c2 S R IH]; intros I H; auto. destruct (IH (step_inv I S) H) as [Q|Q]; auto. eapply created_step; eauto. Qed.
(** every buffer belongs to one of the classes 2^6 .. 2^31, so these counts are all the memory there is *)
Theorem C67_classes : forall es c p cap, reach es c -> In (p, cap) (created (ps c)) -> exists k, (6 <= k < 32)%nat /\ cap = 2 ^ N.of_nat k.
Proof. intros es c p cap R H. destruct (@created_steps _ _ _ p cap R inv_init H) as [[]|Q]; auto. Qed.
(** the buffer given back last is the next one handed out in its class *)
Theorem C67_reuse : forall es c p size size' fresh, reach es c -> In (p, size) (owned c) -> poisoned (ps c) = false ->
  0 < size' <= 2 ^ 31 -> size_class size' = size_class size ->
  exists st', new_handle (fst (drop_handle (ps c) p)) size' fresh = Ok (st', p) /\ created st' = created (ps c).
Proof.
  intros es c p size size' fresh R Ho NP Hz Hk. pose proof (reach_inv R) as I. destruct (i_own_cap I _ _ Ho) as (s & Hm & Hc). destruct (i_ms_cap I _ _ Hm) as (Hs & _).
  assert (El : lookup (mem_shift (ps c)) p = Some s).
  { pose proof (inv_ms_nodup I) as ND. clear - Hm ND. induction (mem_shift (ps c)) as [|[q t] m IH]; [destruct Hm|]. cbn. inversion ND; subst. destruct Hm as [E|E].
    - injection E as -> ->. rewrite N.eqb_refl. auto.
    - destruct (N.eqb_spec q p) as [->|Ne]; auto. exfalso. apply (in_map fst) in E. auto. }
  unfold drop_handle, d1, d2. rewrite NP, El. cbn [pool]. rewrite (idx_Ok _ _ []) by (rewrite (i_len I); auto). cbn [bind fst].
  assert (Es : calculate_shifts (N.max size' 64) = Ok (N.of_nat s)).
  { apply class_size in Hc. rewrite Hc in Hk. rewrite calculate_shifts_log2_up by (unfold two32; lia). unfold size_class in Hk. f_equal. lia. }
  unfold new_handle, n1. replace (negb (size' =? 0)) with true by (symmetry; apply negb_true_iff, N.eqb_neq; lia). cbn [assert bind]. rewrite Es. cbn [bind]. rewrite Nat2N.id.
  replace (s <=? MAX_BITS - 1)%nat with true by (symmetry; apply Nat.leb_le; unfold MAX_BITS; lia). cbn [assert bind pool].
  rewrite (idx_Ok _ _ []) by (rewrite lset_length, (i_len I); auto). rewrite nth_lset_len by (rewrite (i_len I); auto). rewrite Nat.eqb_refl. cbn [bind mem_shift poisoned created]. unfold n2. cbn [poisoned]. cbn [bind]. eexists. split; reflexivity.
Qed.
Example C67_reuse_applies : exists es c, reach es c /\ In (9, 50) (owned c) /\ poisoned (ps c) = false /\ size_class 64 = size_class 50 /\ size_class 65 <> size_class 50.
Proof.
  destruct pool_recycle_ex as (es & c & R & Ho & Hc & Hp & Hq). exists es, c. rewrite Ho. ssplit; auto; [left; auto|vm_compute; discriminate].
Qed.
(** a buffer of 64 elements is requested, given back and requested again: one buffer was made, and one was in use *)
Example C67_peak_applies : exists es c, reach es c /\ poisoned (ps c) = false /\ made c 6 = 1%nat /\ in_use c 6 = 1%nat.
Proof.
  destruct pool_recycle_ex as (es & c & R & Ho & Hc & Hp & Hq). exists es, c. unfold made, in_use. rewrite Ho, Hc, Hp. ssplit; auto.
Qed.
Print Assumptions C67_reuse.
Print Assumptions C67_enough.
Print Assumptions C67_peak.
Print Assumptions C67_no_growth.
Print Assumptions C67_classes.
