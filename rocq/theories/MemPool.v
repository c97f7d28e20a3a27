(** * MemPool: model of prima_undine/src/memory_pool.rs *)
From Verif Require Export ShapeFacts.
From Coq Require Export Permutation Btauto.
Set Implicit Arguments.
Local Open Scope N_scope.

(** ** calculate_shifts, memory_pool.rs L11-30 *)
Definition smear (x : N) : N :=
  let b := N.lor x (N.shiftr x 16) in
  let b := N.lor b (N.shiftr b 8) in
  let b := N.lor b (N.shiftr b 4) in
  let b := N.lor b (N.shiftr b 2) in
  N.lor b (N.shiftr b 1).

Definition popcnt (b : N) : N :=
  let b := N.land b 1431655765 + N.land (N.shiftr b 1) 1431655765 in   (* 0x55555555 *)
  let b := N.land b 858993459 + N.land (N.shiftr b 2) 858993459 in     (* 0x33333333 *)
  let b := N.land b 252645135 + N.land (N.shiftr b 4) 252645135 in     (* 0x0f0f0f0f *)
  let b := N.land b 16711935 + N.land (N.shiftr b 8) 16711935 in       (* 0x00ff00ff *)
  N.land b 65535 + N.land (N.shiftr b 16) 65535.                       (* 0x0000ffff *)

(** L29: [b - (1u32 << (b - 1) == x) as u32]; b is between 1 and 32, so the
    shift amount is below 32 and the subtraction does not underflow. *)
Definition calculate_shifts (x : N) : res N :=
  _ <- assert (negb (x =? 0)) ;;
  let b := popcnt (smear x) in
  Ok (b - (if N.shiftl 1 (b - 1) =? x then 1 else 0)).

(** ** The pool *)
Definition MAX_BITS : nat := 32.   (* L9 *)
Definition ptr := N.

(** memory_pool.rs L32-39.  [pool]: for every shift a stack (head = top of the
    Vec).  [mem_shift]: HashMap from address to shift, as an association list.
    [poisoned]: the mem_shift mutex is poisoned (a thread panicked holding it).
    [created]: ghost, every buffer the backend ever created, with its number of
    elements (devices/naive.rs L68-71 allocates exactly that many). *)
Record pstate := mkP {
  pool : list (list ptr);
  mem_shift : list (ptr * nat);
  poisoned : bool;
  created : list (ptr * N) }.

(** L42-48 *)
Definition pool_init : pstate := mkP (repeat [] MAX_BITS) [] false [].

Fixpoint lookup (m : list (ptr * nat)) (p : ptr) : option nat :=
  match m with [] => None | (q, s) :: m' => if q =? p then Some s else lookup m' p end.
Definition remove (m : list (ptr * nat)) (p : ptr) : list (ptr * nat) :=
  filter (fun e => negb (fst e =? p)) m.
(** HashMap::insert replaces an existing entry *)
Definition insert (m : list (ptr * nat)) (p : ptr) (s : nat) : list (ptr * nat) := (p, s) :: remove m p.

(** *** new_handle, L50-67, split where the locks are released.
    [n1]: L51-61, holding the lock of [pool] (the guard of an [if let] lives until
    the end of the statement).  [fresh] is the address the backend would return. *)
Definition n1 (st : pstate) (size : N) (fresh : ptr) : res (pstate * ptr * nat) :=
  _ <- assert (negb (size =? 0)) ;;
  let size := N.max size 64 in
  sh <- calculate_shifts size ;;
  let shift := N.to_nat sh in
  _ <- assert (shift <=? MAX_BITS - 1)%nat ;;
  let mem_size := N.shiftl 1 (N.of_nat shift) in
  stack <- idx (pool st) shift ;;
  match stack with
  | h :: rest => Ok (mkP (lset (pool st) shift rest) (mem_shift st) (poisoned st) (created st), h, shift)
  | [] => Ok (mkP (pool st) (mem_shift st) (poisoned st) ((fresh, mem_size) :: created st), fresh, shift)
  end.

(** L62-65: lock mem_shift ([lock().unwrap()] panics if poisoned) and insert *)
Definition n2 (st : pstate) (p : ptr) (shift : nat) : res pstate :=
  if poisoned st then Panic
  else Ok (mkP (pool st) (insert (mem_shift st) p shift) (poisoned st) (created st)).

(** *** drop_handle, L69-77.
    [d1]: L70-75; the final unwrap panics while the guard is still alive, which
    poisons the mutex: hence the state is returned together with the outcome. *)
Definition d1 (st : pstate) (p : ptr) : pstate * res nat :=
  if poisoned st then (st, Panic)
  else match lookup (mem_shift st) p with
       | Some s => (mkP (pool st) (remove (mem_shift st) p) false (created st), Ok s)
       | None => (mkP (pool st) (mem_shift st) true (created st), Panic)
       end.

(** [d2]: L76; [pool[shift]] panics if out of range *)
Definition d2 (st : pstate) (p : ptr) (shift : nat) : res pstate :=
  stack <- idx (pool st) shift ;;
  Ok (mkP (lset (pool st) shift (p :: stack)) (mem_shift st) (poisoned st) (created st)).

(** *** Drop for MemoryPool, L80-88: the backend buffers released, in order *)
Definition drop_pool (st : pstate) : list ptr := concat (map (fun v => rev v) (pool st)).

(** the calls as a single thread sees them *)
Definition new_handle (st : pstate) (size : N) (fresh : ptr) : res (pstate * ptr) :=
  r <- n1 st size fresh ;; let '(st1, p, s) := r in st2 <- n2 st1 p s ;; Ok (st2, p).
Definition drop_handle (st : pstate) (p : ptr) : pstate * res unit :=
  let '(st1, r) := d1 st p in
  match r with
  | Ok s => match d2 st1 p s with Ok st2 => (st2, Ok tt) | Panic => (st1, Panic) | UB => (st1, UB) end
  | Panic => (st1, Panic)
  | UB => (st1, UB)
  end.

(** ** calculate_shifts is the ceiling of the base 2 logarithm *)
Definition covers (x b : N) (L : list N) : Prop := forall i, N.testbit b i = existsb (fun k => N.testbit x (i + k)) L.

Lemma covers_step x b L d : covers x b L -> covers x (N.lor b (N.shiftr b d)) (L ++ map (N.add d) L).
Proof.
  intros H i. rewrite N.lor_spec, N.shiftr_spec' , existsb_app, !H. f_equal.
  clear H. induction L as [|k L IH]; simpl; auto. rewrite IH, N.add_assoc. auto.
Qed.

Lemma smear_ones x : 0 < x < two32 -> smear x = N.ones (N.log2 x + 1).
Proof.
  intros Hx.
  assert (C0 : covers x x [0]) by (intros i; simpl; rewrite N.add_0_r, orb_false_r; auto).
  pose proof (covers_step 1 (covers_step 2 (covers_step 4 (covers_step 8 (covers_step 16 C0))))) as C.
  fold (smear x) in C.
  match type of C with covers _ ?b ?L => change b with (smear x) in C; set (LL := L) in C end.
  apply N.bits_inj. intros i. rewrite (C i).
  destruct (N.lt_ge_cases (N.log2 x) i) as [Hi|Hi].
  - rewrite N.ones_spec_high by lia.
    apply not_true_is_false. rewrite existsb_exists. intros (k & _ & Hk).
    rewrite N.bits_above_log2 in Hk by lia. discriminate.
  - rewrite N.ones_spec_low by lia. rewrite existsb_exists. exists (N.log2 x - i). split.
    + assert (G : forallb (fun k => existsb (N.eqb (N.of_nat k)) LL) (seq 0 32) = true) by (vm_compute; reflexivity).
      rewrite forallb_forall in G. specialize (G (N.to_nat (N.log2 x - i))).
      rewrite in_seq, N2Nat.id in G.
      assert (N.log2 x < 32) by (apply N.log2_lt_pow2; [lia|exact (proj2 Hx)]).
      specialize (G ltac:(lia)). apply existsb_exists in G. destruct G as (k & Hk & E).
      apply N.eqb_eq in E. rewrite E. exact Hk.
    + replace (i + (N.log2 x - i)) with (N.log2 x) by lia. apply N.bit_log2. lia.
Qed.

Lemma popcnt_ones n : n <= 32 -> popcnt (N.ones n) = n.
Proof.
  intros Hn.
  assert (H : forallb (fun k => popcnt (N.ones (N.of_nat k)) =? N.of_nat k) (seq 0 33) = true) by (vm_compute; reflexivity).
  rewrite forallb_forall in H. specialize (H (N.to_nat n)). rewrite in_seq in H.
  rewrite N2Nat.id in H. apply N.eqb_eq, H. lia.
Qed.

Lemma calculate_shifts_log2_up x : 0 < x < two32 -> calculate_shifts x = Ok (N.log2_up x).
Proof.
  intros Hx. unfold calculate_shifts.
  replace (negb (x =? 0)) with true by (symmetry; apply negb_true_iff, N.eqb_neq; lia). cbn [assert bind].
  assert (H32 : N.log2 x < 32) by (apply N.log2_lt_pow2; [lia|exact (proj2 Hx)]).
  rewrite smear_ones by auto. rewrite popcnt_ones by lia. f_equal.
  rewrite N.shiftl_1_l. replace (N.log2 x + 1 - 1) with (N.log2 x) by lia.
  pose proof (N.log2_spec x ltac:(lia)) as (H1 & H2).
  destruct (N.eqb_spec (2 ^ N.log2 x) x) as [E|E].
  - rewrite <- E at 2. rewrite N.log2_up_pow2 by lia. lia.
  - rewrite N.sub_0_r. symmetry. apply N.log2_up_unique; [lia|].
    replace (N.pred (N.log2 x + 1)) with (N.log2 x) by lia. rewrite N.add_1_r. lia.
Qed.

(** size class of a request *)
Lemma n1_shift size : 0 < size -> size <= 2147483648 ->
  exists sh, calculate_shifts (N.max size 64) = Ok sh /\ (N.to_nat sh <= 31)%nat /\
    let cap := 2 ^ sh in 64 <= cap /\ size <= cap /\ (64 < cap -> cap < 2 * size).
Proof.
  intros H0 H1. set (x := N.max size 64).
  assert (Hx : 64 <= x < two32) by (unfold x, two32; lia).
  exists (N.log2_up x). split; [apply calculate_shifts_log2_up; lia|].
  pose proof (N.log2_up_spec x ltac:(lia)) as (L1 & L2).
  assert (L6 : 6 <= N.log2_up x).
  { change 6 with (N.log2_up 64). apply N.log2_up_le_mono. lia. }
  assert (L31 : N.log2_up x <= 31).
  { change 31 with (N.log2_up 2147483648). apply N.log2_up_le_mono. unfold x; lia. }
  split; [lia|]. cbv zeta.
  assert (C64 : 2 ^ 6 <= 2 ^ N.log2_up x) by (apply N.pow_le_mono_r; lia). change (2 ^ 6) with 64 in C64.
  assert (Hsx : size <= x) by (unfold x; lia). split; [exact C64|]. split; [lia|].
  intros Hc.
  assert (E : 2 ^ N.log2_up x = 2 * 2 ^ N.pred (N.log2_up x)).
  { rewrite <- N.pow_succ_r'. f_equal. lia. }
  destruct (N.lt_ge_cases 64 size) as [Hs|Hs].
  - unfold x in *. rewrite N.max_l in * by lia. lia.
  - exfalso. unfold x in *. rewrite N.max_r in * by lia. revert Hc. vm_compute. discriminate.
Qed.

Lemma n1_too_big size : 2147483648 < size -> size < two32 ->
  calculate_shifts (N.max size 64) = Ok 32.
Proof.
  intros H0 H1. rewrite N.max_l by lia. rewrite calculate_shifts_log2_up by lia. f_equal.
  apply N.log2_up_unique; [lia|]. change (2 ^ N.pred 32) with 2147483648. change (2 ^ 32) with two32. lia.
Qed.

(** ** Interleaved executions *)

(** a call in progress: the local state between two critical sections *)
Inductive pending :=
| PNew (p : ptr) (shift : nat) (size : N)   (* new_handle between L61 and L62 *)
| PDrop (p : ptr) (shift : nat).            (* drop_handle between L75 and L76 *)

(** [owned]: handles returned to callers and not given to drop_handle, with the
    requested size.  [lost]: buffers lost because mem_shift was poisoned. *)
Record config := mkC { ps : pstate; pend : list pending; owned : list (ptr * N); lost : list ptr }.
Definition config_init := mkC pool_init [] [] [].

Definition drop_owned (o : list (ptr * N)) (p : ptr) := filter (fun e => negb (fst e =? p)) o.

(** what a step reports to the outside *)
Inductive event :=
| Tau
| Returned (p : ptr) (size : N)       (* new_handle returned *)
| Dropped (p : ptr)                   (* drop_handle returned *)
| PanicNew (size : N)
| PanicDrop (p : ptr).

(** one critical section of some thread; any number of threads may be between
    sections, in any order.  The backend returns an address that is not null and
    not one of the buffers it created before (none is released before the pool is
    dropped): the only assumption about it. *)
Inductive step : config -> event -> config -> Prop :=
| step_new_enter c size fresh st p s :
    u32 size -> fresh <> 0 -> ~ In fresh (map fst (created (ps c))) ->
    n1 (ps c) size fresh = Ok (st, p, s) ->
    step c Tau (mkC st (PNew p s size :: pend c) (owned c) (lost c))
| step_new_enter_panic c size fresh :
    u32 size -> n1 (ps c) size fresh = Panic ->
    step c (PanicNew size) c
| step_new_return c l1 l2 p s size st :
    pend c = l1 ++ PNew p s size :: l2 ->
    n2 (ps c) p s = Ok st ->
    step c (Returned p size) (mkC st (l1 ++ l2) ((p, size) :: owned c) (lost c))
| step_new_poisoned c l1 l2 p s size :
    pend c = l1 ++ PNew p s size :: l2 ->
    n2 (ps c) p s = Panic ->
    step c (PanicNew size) (mkC (ps c) (l1 ++ l2) (owned c) (p :: lost c))
| step_drop_enter c p s st :
    d1 (ps c) p = (st, Ok s) ->
    step c Tau (mkC st (PDrop p s :: pend c) (drop_owned (owned c) p) (lost c))
| step_drop_panic c p st :
    d1 (ps c) p = (st, Panic) ->
    step c (PanicDrop p) (mkC st (pend c) (owned c) (lost c))
| step_drop_return c l1 l2 p s st :
    pend c = l1 ++ PDrop p s :: l2 ->
    d2 (ps c) p s = Ok st ->
    step c (Dropped p) (mkC st (l1 ++ l2) (owned c) (lost c)).

Inductive steps : config -> list event -> config -> Prop :=
| steps_nil c : steps c [] c
| steps_cons c e c1 es c2 : step c e c1 -> steps c1 es c2 -> steps c (e :: es) c2.

Definition pend_ptr (x : pending) : ptr := match x with PNew p _ _ => p | PDrop p _ => p end.
Definition all_pool (st : pstate) : list ptr := concat (pool st).

(** ** The invariant *)
(** shift s is the size class of a request *)
Definition class (size : N) (s : nat) : Prop :=
  0 < size /\ size <= 2147483648 /\ calculate_shifts (N.max size 64) = Ok (N.of_nat s).

Definition cap_ok (st : pstate) (p : ptr) (s : nat) : Prop := In (p, 2 ^ N.of_nat s) (created st).

Record inv (c : config) : Prop := mkInv {
  i_len : length (pool (ps c)) = 32%nat;
  i_nodup : NoDup (map fst (created (ps c)));
  i_nonnull : ~ In 0 (map fst (created (ps c)));
  i_perm : Permutation (map fst (created (ps c)))
             (all_pool (ps c) ++ map fst (mem_shift (ps c)) ++ map pend_ptr (pend c) ++ lost c);
  i_owned : Permutation (map fst (mem_shift (ps c))) (map fst (owned c));
  i_pool_cap : forall s p, In p (nth s (pool (ps c)) []) -> cap_ok (ps c) p s;
  i_ms_cap : forall p s, In (p, s) (mem_shift (ps c)) -> (s < 32)%nat /\ cap_ok (ps c) p s;
  i_pend_cap : forall x, In x (pend c) -> match x with
      | PNew p s size => (s < 32)%nat /\ cap_ok (ps c) p s /\ class size s
      | PDrop p s => (s < 32)%nat /\ cap_ok (ps c) p s end;
  i_own_cap : forall p size, In (p, size) (owned c) -> exists s, In (p, s) (mem_shift (ps c)) /\ class size s;
  i_lost : poisoned (ps c) = false -> lost c = [] }.

Lemma concat_repeat_nil A n : concat (repeat (@nil A) n) = [].
Proof. induction n; simpl; auto. Qed.

Lemma inv_init : inv config_init.
Proof.
  constructor; simpl; auto; try tauto.
  - constructor.
  - intros s p H. do 32 (destruct s as [|s]; [destruct H|]). destruct s; destruct H.
Qed.

(** pushing and popping on one stack *)
Lemma concat_lset_push (P : list (list ptr)) s (p : ptr) : (s < length P)%nat ->
  Permutation (concat (lset P s (p :: nth s P []))) (p :: concat P).
Proof.
  revert s; induction P as [|v P IH]; intros s Hs; simpl in Hs; [lia|].
  destruct s as [|s]; simpl.
  - reflexivity.
  - rewrite IH by lia. symmetry. apply (Permutation_middle v (concat P) p).
Qed.

Lemma concat_lset_pop (P : list (list ptr)) s (p : ptr) rest : (s < length P)%nat -> nth s P [] = p :: rest ->
  Permutation (concat P) (p :: concat (lset P s rest)).
Proof.
  revert s; induction P as [|v P IH]; intros s Hs E; simpl in Hs; [lia|].
  destruct s as [|s]; simpl in *.
  - subst v. reflexivity.
  - rewrite (IH s) by (auto; lia). symmetry. apply (Permutation_middle v _ p).
Qed.

Lemma lookup_In m p s : lookup m p = Some s -> In (p, s) m.
Proof.
  induction m as [|[q t] m IH]; simpl; [discriminate|].
  destruct (N.eqb_spec q p); [intros E; injection E as ->; subst; auto|auto].
Qed.

Lemma lookup_None m p : lookup m p = None <-> ~ In p (map fst m).
Proof.
  induction m as [|[q t] m IH]; simpl; [tauto|].
  destruct (N.eqb_spec q p); [split; [discriminate|intros H; exfalso; auto]|]. rewrite IH. tauto.
Qed.

Lemma filter_all A (f : A -> bool) l : (forall a, In a l -> f a = true) -> filter f l = l.
Proof.
  induction l as [|a l IH]; intros H; simpl; auto. rewrite (H a) by (left; auto). f_equal. apply IH; intros; apply H; right; auto.
Qed.

Lemma remove_notin A (m : list (ptr * A)) p : ~ In p (map fst m) -> filter (fun e => negb (fst e =? p)) m = m.
Proof.
  intros H. apply filter_all. intros [q t] Hq. simpl. apply negb_true_iff, N.eqb_neq. intros ->.
  apply H. apply (in_map fst) in Hq. exact Hq.
Qed.

Lemma remove_perm A (m : list (ptr * A)) p : NoDup (map fst m) -> In p (map fst m) ->
  Permutation (map fst m) (p :: map fst (filter (fun e => negb (fst e =? p)) m)).
Proof.
  induction m as [|[q t] m IH]; simpl; intros Hn Hi; [tauto|].
  inversion Hn; subst. destruct (N.eqb_spec q p) as [->|Hne]; cbn [negb].
  - rewrite remove_notin by auto. reflexivity.
  - destruct Hi as [?|Hi]; [congruence|]. cbn [map fst]. rewrite (IH H2 Hi) at 1. apply perm_swap.
Qed.

Lemma remove_In A (m : list (ptr * A)) p q t : In (q, t) (filter (fun e => negb (fst e =? p)) m) <-> In (q, t) m /\ q <> p.
Proof. rewrite filter_In. simpl. rewrite negb_true_iff, N.eqb_neq. tauto. Qed.

Lemma NoDup_app_l A (l1 l2 : list A) : NoDup (l1 ++ l2) -> NoDup l1.
Proof.
  induction l1 as [|a l1 IH]; intros H; [constructor|]. simpl in H. inversion H; subst.
  constructor; auto. rewrite in_app_iff in H2. tauto.
Qed.
Lemma NoDup_app_r A (l1 l2 : list A) : NoDup (l1 ++ l2) -> NoDup l2.
Proof. induction l1 as [|a l1 IH]; intros H; auto. apply IH. inversion H; auto. Qed.
Lemma NoDup_app_disj A (l1 l2 : list A) a : NoDup (l1 ++ l2) -> In a l1 -> In a l2 -> False.
Proof.
  induction l1 as [|b l1 IH]; simpl; intros H H1 H2; [tauto|]. inversion H; subst.
  destruct H1 as [->|H1]; [apply H4; apply in_or_app; auto|auto].
Qed.

Lemma inv_parts c : inv c -> NoDup (all_pool (ps c) ++ map fst (mem_shift (ps c)) ++ map pend_ptr (pend c) ++ lost c).
Proof. intros H. eapply Permutation_NoDup; [apply (i_perm H)|apply (i_nodup H)]. Qed.

Lemma inv_ms_nodup c : inv c -> NoDup (map fst (mem_shift (ps c))).
Proof. intros H. pose proof (inv_parts H) as G. apply NoDup_app_r, NoDup_app_l in G. exact G. Qed.

Lemma n1_inv st size fresh st' p s : length (pool st) = 32%nat -> u32 size -> n1 st size fresh = Ok (st', p, s) ->
  (s < 32)%nat /\ class size s /\
  ((exists rest, nth s (pool st) [] = p :: rest /\ st' = mkP (lset (pool st) s rest) (mem_shift st) (poisoned st) (created st)) \/
   (nth s (pool st) [] = [] /\ p = fresh /\ st' = mkP (pool st) (mem_shift st) (poisoned st) ((fresh, 2 ^ N.of_nat s) :: created st))).
Proof.
  intros Hl Hu E. unfold n1 in E. apply assert_bind_Ok in E. destruct E as (E0 & E).
  apply negb_true_iff, N.eqb_neq in E0. apply bind_Ok in E. destruct E as (sh & Es & E).
  apply assert_bind_Ok in E. destruct E as (E31 & E). apply Nat.leb_le in E31. unfold MAX_BITS in E31.
  apply bind_Ok in E. destruct E as (stack & Ei & E).
  assert (Hle : size <= 2147483648).
  { destruct (N.le_gt_cases size 2147483648); auto. rewrite n1_too_big in Es by auto. injection Es as <-. vm_compute in E31. lia. }
  destruct (@n1_shift size ltac:(lia) Hle) as (sh' & Es' & Hs31 & Hc1 & Hc2 & _).
  rewrite Es in Es'. injection Es' as <-.
  rewrite (idx_Ok _ _ []) in Ei by (rewrite Hl; lia). injection Ei as <-.
  assert (Hret : s = N.to_nat sh) by (destruct (nth (N.to_nat sh) (pool st) []); injection E; auto). subst s.
  unfold class. rewrite N2Nat.id in *. ssplit; auto; try lia.
  destruct (nth (N.to_nat sh) (pool st) []) as [|h rest] eqn:En; injection E as <- <-.
  - right. ssplit; auto. rewrite <- (N.shiftl_1_l sh). reflexivity.
  - left. exists rest; auto.
Qed.

(** permutations of concatenated lists, by counting *)
Ltac permc p := apply (Permutation_count_occ N.eq_dec); intros z;
  repeat (rewrite ?map_app, ?count_occ_app; cbn [count_occ map pend_ptr fst app]);
  unfold ptr in *; repeat match goal with |- context [N.eq_dec ?a ?b] => destruct (N.eq_dec a b) end; lia.

Lemma step_inv c e c' : inv c -> step c e c' -> inv c'.
Proof.
  intros H Hs. pose proof (inv_parts H) as ND. pose proof (inv_ms_nodup H) as NDms.
  inversion Hs; subst; clear Hs; auto.
  - (* new enter *)
    destruct (n1_inv _ _ (i_len H) H0 H3) as (Hs32 & Hcap & [(rest & En & ->)|(En & -> & ->)]).
    + assert (Hcp : cap_ok (ps c) p s) by (apply (i_pool_cap H); rewrite En; left; auto).
      constructor; cbn [ps pend owned lost pool mem_shift poisoned created].
      * rewrite lset_length; apply H.
      * apply H.
      * apply H.
      * rewrite (i_perm H). unfold all_pool; cbn [pool].
        rewrite (@concat_lset_pop (pool (ps c)) s p rest); [|rewrite (i_len H); auto|auto].
        permc p.
      * apply H.
      * intros s' q Hq. rewrite nth_lset in Hq by (rewrite (i_len H); auto).
        destruct (Nat.eqb_spec s' s) as [->|Hne]; [|apply (i_pool_cap H); auto].
        apply (i_pool_cap H). rewrite En; right; auto.
      * apply H.
      * intros x [<-|Hx]; [auto|apply (i_pend_cap H x Hx)].
      * apply H.
      * apply H.
    + assert (Mono : forall q t, cap_ok (ps c) q t -> cap_ok (mkP (pool (ps c)) (mem_shift (ps c)) (poisoned (ps c)) ((fresh, 2 ^ N.of_nat s) :: created (ps c))) q t)
        by (intros q t Hq; right; auto).
      constructor; cbn [ps pend owned lost pool mem_shift poisoned created].
      * apply H.
      * cbn [map fst]. constructor; auto. apply H.
      * cbn [map fst]. intros [E|E]; [auto|]. apply (i_nonnull H E).
      * cbn [map fst pend_ptr app]. rewrite (i_perm H). unfold all_pool; cbn [pool].
        permc fresh.
      * apply H.
      * intros s' q Hq. apply Mono, (i_pool_cap H); auto.
      * intros q t Hq. destruct (i_ms_cap H _ _ Hq); auto.
      * intros x [<-|Hx].
        -- ssplit; auto. left. reflexivity.
        -- pose proof (i_pend_cap H x Hx) as G. destruct x; [destruct G as (? & ? & ?)|destruct G]; auto.
      * apply H.
      * apply H.
  - (* new return *)
    unfold n2 in H1. destruct (poisoned (ps c)) eqn:Ep; [discriminate|]. injection H1 as <-.
    assert (Hp : In p (map pend_ptr (pend c))) by (rewrite H0, map_app; apply in_or_app; right; left; auto).
    assert (Hn : ~ In p (map fst (mem_shift (ps c)))).
    { intros Hin. apply (NoDup_app_r _) in ND. apply (NoDup_app_disj _ _ p ND Hin). apply in_or_app; auto. }
    destruct (i_pend_cap H (PNew p s size)) as (G1 & G2 & G3); [rewrite H0; apply in_or_app; right; left; auto|].
    unfold insert, remove. rewrite remove_notin by auto.
    constructor; cbn [ps pend owned lost pool mem_shift poisoned created map fst].
    + apply H.
    + apply H.
    + apply H.
    + rewrite (i_perm H). rewrite H0. unfold all_pool; cbn [pool]. apply Permutation_app_head.
      permc p.
    + constructor. apply H.
    + apply H.
    + intros q t [E|Hq]; [injection E as <- <-; auto|apply (i_ms_cap H); auto].
    + intros x Hx. apply (i_pend_cap H). rewrite H0. apply in_app_or in Hx. apply in_or_app. simpl. tauto.
    + intros q z [E|Hq].
      * injection E as <- <-. exists s; split; [left; auto|auto].
      * destruct (i_own_cap H _ _ Hq) as (t & T1 & T2). exists t; split; [right; auto|auto].
    + intros _. apply (i_lost H); auto.
  - (* new poisoned *)
    unfold n2 in H1. destruct (poisoned (ps c)) eqn:Ep; [|discriminate].
    constructor; cbn [ps pend owned lost]; try apply H.
    + rewrite (i_perm H). rewrite H0. apply Permutation_app_head, Permutation_app_head.
      permc p.
    + intros x Hx. apply (i_pend_cap H). rewrite H0. apply in_app_or in Hx. apply in_or_app. simpl. tauto.
    + rewrite Ep; discriminate.
  - (* drop enter *)
    unfold d1 in H0. destruct (poisoned (ps c)) eqn:Ep; [discriminate|].
    destruct (lookup (mem_shift (ps c)) p) as [s'|] eqn:El; [|discriminate]. injection H0 as <- <-.
    apply lookup_In in El. destruct (i_ms_cap H _ _ El) as (G1 & G2).
    assert (Hin : In p (map fst (mem_shift (ps c)))) by (apply (in_map fst) in El; exact El).
    constructor; cbn [ps pend owned lost pool mem_shift poisoned created]; try apply H.
    + rewrite (i_perm H). unfold all_pool; cbn [pool]. apply Permutation_app_head.
      unfold remove. rewrite (remove_perm _ _ NDms Hin) at 1. permc p.
    + unfold remove, drop_owned.
      assert (NDo : NoDup (map fst (owned c))) by (eapply Permutation_NoDup; [apply (i_owned H)|auto]).
      assert (Hio : In p (map fst (owned c))) by (eapply Permutation_in; [apply (i_owned H)|auto]).
      pose proof (i_owned H) as P. rewrite (remove_perm _ _ NDms Hin), (remove_perm _ _ NDo Hio) in P.
      apply Permutation_cons_inv in P. exact P.
    + intros q t Hq. unfold remove in Hq. apply remove_In in Hq. apply (i_ms_cap H); tauto.
    + intros x [<-|Hx]; [auto|apply (i_pend_cap H x Hx)].
    + intros q z Hq. unfold drop_owned in Hq. apply remove_In in Hq. destruct Hq as (Hq & Hne).
      destruct (i_own_cap H _ _ Hq) as (t & T1 & T2). exists t; split; auto. unfold remove. apply remove_In. auto.
    + intros _. apply (i_lost H); auto.
  - (* drop panic *)
    unfold d1 in H0. destruct (poisoned (ps c)) eqn:Ep.
    + injection H0 as <-. destruct c; auto.
    + destruct (lookup (mem_shift (ps c)) p) as [s'|] eqn:El; [discriminate|]. injection H0 as <-.
      constructor; cbn [ps pend owned lost pool mem_shift poisoned created]; try apply H. discriminate.
  - (* drop return *)
    destruct (i_pend_cap H (PDrop p s)) as (G1 & G2); [rewrite H0; apply in_or_app; right; left; auto|].
    unfold d2 in H1. rewrite (idx_Ok _ _ []) in H1 by (rewrite (i_len H); auto). cbn [bind] in H1. injection H1 as <-.
    constructor; cbn [ps pend owned lost pool mem_shift poisoned created]; try apply H.
    + rewrite lset_length; apply H.
    + rewrite (i_perm H). rewrite H0. unfold all_pool; cbn [pool].
      rewrite concat_lset_push by (rewrite (i_len H); auto).
      permc p.
    + intros s' q Hq. rewrite nth_lset in Hq by (rewrite (i_len H); auto).
      destruct (Nat.eqb_spec s' s) as [->|Hne]; [|apply (i_pool_cap H); auto].
      destruct Hq as [<-|Hq]; [auto|apply (i_pool_cap H); auto].
    + intros x Hx. apply (i_pend_cap H). rewrite H0. apply in_app_or in Hx. apply in_or_app. simpl. tauto.
Qed.

Lemma steps_inv c es c' : inv c -> steps c es c' -> inv c'.
Proof. intros H Hs. induction Hs; auto. apply IHHs. eapply step_inv; eauto. Qed.

(** ** Consequences *)
Lemma class_cap size s : class size s ->
  64 <= 2 ^ N.of_nat s /\ size <= 2 ^ N.of_nat s /\ (64 < 2 ^ N.of_nat s -> 2 ^ N.of_nat s < 2 * size).
Proof.
  intros (H0 & H1 & E). destruct (n1_shift H0 H1) as (sh & E' & _ & C1 & C2 & C3). rewrite E in E'. injection E' as <-. auto.
Qed.

Lemma created_cap_unique c p a b : inv c -> In (p, a) (created (ps c)) -> In (p, b) (created (ps c)) -> a = b.
Proof.
  intros H. pose proof (i_nodup H) as ND. induction (created (ps c)) as [|[q z] l IH]; simpl; [tauto|].
  simpl in ND. inversion ND as [|? ? Hn Hd]; subst.
  intros [E1|E1] [E2|E2].
  - congruence.
  - injection E1 as -> ->. exfalso; apply Hn. apply (in_map fst) in E2; auto.
  - injection E2 as -> ->. exfalso; apply Hn. apply (in_map fst) in E1; auto.
  - auto.
Qed.

Definition reach (es : list event) (c : config) : Prop := steps config_init es c.
Lemma reach_inv es c : reach es c -> inv c.
Proof. apply steps_inv, inv_init. Qed.

(** capacity of a buffer *)
Definition capacity (c : config) (p : ptr) (cap : N) : Prop := In (p, cap) (created (ps c)).

Lemma owned_class es c p size : reach es c -> In (p, size) (owned c) ->
  exists s, capacity c p (2 ^ N.of_nat s) /\ class size s.
Proof.
  intros R Ho. pose proof (reach_inv R) as H. destruct (i_own_cap H _ _ Ho) as (s & Hm & Hc).
  exists s; split; auto. apply (i_ms_cap H) in Hm. apply Hm.
Qed.

Lemma C09_live_l es c p size : reach es c -> In (p, size) (owned c) ->
  exists k, capacity c p (2 ^ k) /\ 64 <= 2 ^ k /\ size <= 2 ^ k /\ (64 < 2 ^ k -> 2 ^ k < 2 * size).
Proof.
  intros R Ho. destruct (owned_class _ _ R Ho) as (s & Hc & Hk). exists (N.of_nat s). split; auto. apply class_cap; auto.
Qed.

Lemma C10_l es c p size cap : reach es c -> In (p, size) (owned c) -> capacity c p cap -> size <= cap.
Proof.
  intros R Ho Hc. destruct (C09_live_l _ _ R Ho) as (k & Hc' & _ & H & _).
  rewrite (created_cap_unique _ _ _ (reach_inv R) Hc Hc'). auto.
Qed.

Lemma n1_panic_iff st size fresh : length (pool st) = 32%nat -> u32 size ->
  (n1 st size fresh = Panic <-> size = 0 \/ 2147483648 < size).
Proof.
  intros Hl Hu. unfold n1. destruct (N.eqb_spec size 0) as [->|H0]; cbn [negb assert bind]; [tauto|].
  destruct (N.le_gt_cases size 2147483648) as [Hs|Hs].
  - split; [|intros [?|?]; lia]. destruct (@n1_shift size ltac:(lia) Hs) as (sh & E & H31 & _). rewrite E. cbn [bind].
    replace (N.to_nat sh <=? MAX_BITS - 1)%nat with true by (symmetry; apply Nat.leb_le; exact H31). cbn [assert bind].
    rewrite (idx_Ok _ _ []) by (rewrite Hl; lia). cbn [bind]. destruct (nth _ _ _); discriminate.
  - rewrite n1_too_big by auto. cbn [bind]. split; auto.
Qed.

Lemma n1_ok st size fresh : length (pool st) = 32%nat -> 0 < size <= 2147483648 -> exists r, n1 st size fresh = Ok r.
Proof.
  intros Hl Hs. unfold n1. destruct (N.eqb_spec size 0) as [->|H0]; cbn [negb assert bind]; [lia|].
  destruct (@n1_shift size ltac:(lia) ltac:(lia)) as (sh & E & H31 & _). rewrite E. cbn [bind].
  replace (N.to_nat sh <=? MAX_BITS - 1)%nat with true by (symmetry; apply Nat.leb_le; exact H31). cbn [assert bind].
  rewrite (idx_Ok _ _ []) by (rewrite Hl; lia). cbn [bind]. destruct (nth _ _ _); eauto.
Qed.

(** what a single caller sees, in any reachable state of the pool *)
Lemma C09_call_l es c size fresh : reach es c -> u32 size ->
  (size = 0 \/ 2147483648 < size -> new_handle (ps c) size fresh = Panic) /\
  (0 < size <= 2147483648 -> poisoned (ps c) = false ->
   exists st p, new_handle (ps c) size fresh = Ok (st, p)).
Proof.
  intros R Hu. pose proof (i_len (reach_inv R)) as Hl. split.
  - intros Hb. unfold new_handle. rewrite (proj2 (@n1_panic_iff (ps c) size fresh Hl Hu) Hb). reflexivity.
  - intros Hs Hp. unfold new_handle. destruct (@n1_ok (ps c) size fresh Hl Hs) as ([[st p] s] & E). rewrite E. cbn [bind].
    destruct (n1_inv _ _ Hl Hu E) as (_ & _ & [(rest & _ & ->)|(_ & _ & ->)]); unfold n2; cbn [poisoned]; rewrite Hp; cbn [bind]; eauto.
Qed.

(** C11: distinctness in every reachable state *)
Lemma C11_state_l es c : reach es c ->
  NoDup (all_pool (ps c)) /\ NoDup (map fst (owned c)) /\
  (forall p, In p (map fst (owned c)) -> ~ In p (all_pool (ps c))) /\
  ~ In 0 (map fst (owned c)).
Proof.
  intros R. pose proof (reach_inv R) as H. pose proof (inv_parts H) as ND. ssplit.
  - apply NoDup_app_l in ND; auto.
  - eapply Permutation_NoDup; [apply (i_owned H)|apply inv_ms_nodup; auto].
  - intros p Hp Hq. apply (NoDup_app_disj _ _ p ND Hq). apply in_or_app; left.
    eapply Permutation_in; [symmetry; apply (i_owned H)|auto].
  - intros Hz. apply (i_nonnull H). eapply Permutation_in; [symmetry; apply (i_perm H)|].
    apply in_or_app; right. apply in_or_app; left. eapply Permutation_in; [symmetry; apply (i_owned H)|auto].
Qed.

Lemma C11_return_l es c p size c' : reach es c -> step c (Returned p size) c' ->
  ~ In p (map fst (owned c)) /\ ~ In p (all_pool (ps c)) /\ ~ In p (all_pool (ps c')) /\
  In (p, size) (owned c') /\ p <> 0.
Proof.
  intros R S. assert (R' : inv c') by (eapply step_inv; [apply (reach_inv R)|eauto]).
  pose proof (reach_inv R) as H. pose proof (inv_parts H) as ND.
  inversion S; subst.
  match goal with E : n2 _ _ _ = Ok _ |- _ => unfold n2 in E; destruct (poisoned (ps c)) eqn:Ep; [discriminate E|]; injection E as <- end.
  match goal with E : pend c = _ |- _ => rename E into H2 end.
  assert (Hp : In p (map pend_ptr (pend c))) by (rewrite H2, map_app; apply in_or_app; right; left; auto).
  ssplit.
  - intros Ho. apply NoDup_app_r in ND. apply (NoDup_app_disj _ _ p ND).
    + eapply Permutation_in; [symmetry; apply (i_owned H)|auto].
    + apply in_or_app; auto.
  - intros Ho. apply (NoDup_app_disj _ _ p ND Ho). apply in_or_app; right. apply in_or_app; auto.
  - unfold all_pool; cbn [ps pool]. intros Ho. apply (NoDup_app_disj _ _ p ND Ho). apply in_or_app; right. apply in_or_app; auto.
  - left; auto.
  - intros ->. apply (i_nonnull H). eapply Permutation_in; [symmetry; apply (i_perm H)|].
    apply in_or_app; right. apply in_or_app; right. apply in_or_app; left. auto.
Qed.

(** C12 *)
Lemma C12_conserve_l es c : reach es c -> pend c = [] -> poisoned (ps c) = false ->
  Permutation (map fst (created (ps c))) (all_pool (ps c) ++ map fst (owned c)) /\ NoDup (map fst (created (ps c))).
Proof.
  intros R Hp Hq. pose proof (reach_inv R) as H. split; [|apply H].
  rewrite (i_perm H), Hp, (i_lost H Hq). simpl. rewrite !app_nil_r. apply Permutation_app_head, (i_owned H).
Qed.

Lemma concat_rev_perm (P : list (list ptr)) : Permutation (concat (map (fun v => rev v) P)) (concat P).
Proof. induction P as [|v P IH]; simpl; auto. apply Permutation_app; auto. symmetry; apply Permutation_rev. Qed.

Lemma C12_free_l es c : reach es c -> pend c = [] -> poisoned (ps c) = false -> owned c = [] ->
  Permutation (drop_pool (ps c)) (map fst (created (ps c))) /\ NoDup (drop_pool (ps c)).
Proof.
  intros R Hp Hq Ho. destruct (C12_conserve_l R Hp Hq) as (P & ND). rewrite Ho in P. simpl in P. rewrite app_nil_r in P.
  assert (G : Permutation (drop_pool (ps c)) (map fst (created (ps c)))) by (rewrite P; apply concat_rev_perm).
  split; auto. eapply Permutation_NoDup; [symmetry; exact G|auto].
Qed.

(** dropping the pool never frees a buffer twice, nor one that is still owned *)
Lemma C12_no_double_free_l es c : reach es c ->
  NoDup (drop_pool (ps c)) /\ (forall p, In p (drop_pool (ps c)) -> ~ In p (map fst (owned c))) /\
  incl (drop_pool (ps c)) (map fst (created (ps c))).
Proof.
  intros R. destruct (C11_state_l R) as (N1 & _ & N3 & _).
  pose proof (concat_rev_perm (pool (ps c))) as P. fold (drop_pool (ps c)) in P. ssplit.
  - eapply Permutation_NoDup; [symmetry; exact P|exact N1].
  - intros p Hp Ho. apply (N3 p Ho). eapply Permutation_in; [exact P|auto].
  - intros p Hp. eapply Permutation_in; [symmetry; apply (i_perm (reach_inv R))|]. apply in_or_app; left.
    eapply Permutation_in; [exact P|auto].
Qed.

(** no misuse, no panic: the mutex is only ever poisoned by dropping a handle that is not owned *)
Lemma poison_source_l c e c' : inv c -> step c e c' -> poisoned (ps c) = false -> poisoned (ps c') = true ->
  exists p, e = PanicDrop p /\ ~ In p (map fst (owned c)).
Proof.
  intros H S H0 H1. inversion S; subst; cbn [ps] in *; try congruence.
  - match goal with E : n1 _ _ _ = Ok _, U : u32 _ |- _ => destruct (n1_inv _ _ (i_len H) U E) as (_ & _ & [(rest & _ & ->)|(_ & _ & ->)]) end; cbn [poisoned] in *; congruence.
  - match goal with E : n2 _ _ _ = Ok _ |- _ => unfold n2 in E; rewrite H0 in E; injection E as <- end. cbn [poisoned] in *; congruence.
  - match goal with E : d1 _ _ = _ |- _ => unfold d1 in E; rewrite H0 in E; destruct (lookup _ _); [|discriminate E]; injection E as <- _ end. cbn [poisoned] in *; congruence.
  - match goal with E : d1 _ _ = _ |- _ => unfold d1 in E; rewrite H0 in E end.
    destruct (lookup (mem_shift (ps c)) p) eqn:El; [discriminate|]. exists p; split; auto.
    apply lookup_None in El. intros Ho. apply El. eapply Permutation_in; [symmetry; apply (i_owned H)|auto].
  - match goal with E : d2 _ _ _ = _ |- _ => unfold d2 in E; apply bind_Ok in E; destruct E as (stack & _ & E); injection E as <- end. cbn [poisoned] in *; congruence.
Qed.

(** C13 *)
Lemma C13_l es c p : reach es c -> ~ In p (map fst (owned c)) ->
  snd (drop_handle (ps c) p) = Panic /\ pool (fst (drop_handle (ps c) p)) = pool (ps c) /\
  mem_shift (fst (drop_handle (ps c) p)) = mem_shift (ps c) /\ created (fst (drop_handle (ps c) p)) = created (ps c).
Proof.
  intros R Hn. pose proof (reach_inv R) as H. unfold drop_handle, d1. destruct (poisoned (ps c)); [auto|].
  assert (El : lookup (mem_shift (ps c)) p = None).
  { apply lookup_None. intros Hm. apply Hn. eapply Permutation_in; [apply (i_owned H)|auto]. }
  rewrite El. auto.
Qed.

Lemma C13_owned_l es c p : reach es c -> In p (map fst (owned c)) -> poisoned (ps c) = false ->
  snd (drop_handle (ps c) p) = Ok tt /\ In p (all_pool (fst (drop_handle (ps c) p))) /\
  lookup (mem_shift (fst (drop_handle (ps c) p))) p = None.
Proof.
  intros R Ho Hp. pose proof (reach_inv R) as H. unfold drop_handle, d1. rewrite Hp.
  assert (Hm : In p (map fst (mem_shift (ps c)))) by (eapply Permutation_in; [symmetry; apply (i_owned H)|auto]).
  destruct (lookup (mem_shift (ps c)) p) as [s|] eqn:El; [|apply lookup_None in El; tauto].
  apply lookup_In in El. destruct (i_ms_cap H _ _ El) as (Hs & _).
  unfold d2. cbn [pool]. rewrite (idx_Ok _ _ []) by (rewrite (i_len H); auto). cbn [bind fst snd]. ssplit; auto.
  - unfold all_pool; cbn [pool]. eapply Permutation_in; [symmetry; apply concat_lset_push; rewrite (i_len H); auto|left; auto].
  - cbn [mem_shift]. apply lookup_None. unfold remove. intros Hin. apply in_map_iff in Hin. destruct Hin as ((q & t) & E & Hin).
    apply remove_In in Hin. simpl in E. tauto.
Qed.

(** finding: a double drop makes every later allocation panic (poisoned mutex) *)
Lemma C13_poison_l es c p size fresh : reach es c -> ~ In p (map fst (owned c)) -> u32 size ->
  new_handle (fst (drop_handle (ps c) p)) size fresh = Panic.
Proof.
  intros R Hn Hu. pose proof (reach_inv R) as H.
  assert (G : poisoned (fst (drop_handle (ps c) p)) = true /\ length (pool (fst (drop_handle (ps c) p))) = 32%nat).
  { unfold drop_handle, d1. destruct (poisoned (ps c)) eqn:Ep; [split; [auto|apply H]|].
    assert (El : lookup (mem_shift (ps c)) p = None).
    { apply lookup_None. intros Hm. apply Hn. eapply Permutation_in; [apply (i_owned H)|auto]. }
    rewrite El. split; [auto|apply H]. }
  destruct G as (Gp & Gl). revert Gp Gl. generalize (fst (drop_handle (ps c) p)). intros st Gp Gl.
  unfold new_handle. destruct (n1 st size fresh) as [[[st' q] s]| |] eqn:E; cbn [bind]; auto.
  - destruct (n1_inv _ _ Gl Hu E) as (_ & _ & [(rest & _ & ->)|(_ & _ & ->)]); unfold n2; cbn [poisoned]; rewrite Gp; reflexivity.
  - exfalso. destruct (N.eq_dec size 0) as [->|H0].
    { rewrite (proj2 (@n1_panic_iff st 0 fresh Gl Hu)) in E by auto. discriminate. }
    destruct (N.le_gt_cases size 2147483648) as [Hs|Hs].
    { destruct (@n1_ok st size fresh Gl ltac:(lia)) as (r & Er). rewrite E in Er. discriminate. }
    rewrite (proj2 (@n1_panic_iff st size fresh Gl Hu)) in E by auto. discriminate.
Qed.

(** an execution of the model: two threads interleaved *)
Definition stk (l : list (nat * ptr)) : list (list ptr) :=
  fold_right (fun '(s, p) P => lset P s (p :: nth s P [])) (repeat [] 32) l.

Lemma pool_run_ex : exists es c, reach es c /\ owned c = [(7, 100); (9, 65)] /\ all_pool (ps c) = [] /\ pend c = [PNew 11 6 3].
Proof.
  set (c1 := mkC (mkP (stk []) [] false [(9, 128)]) [PNew 9 7 65] [] []).
  set (c2 := mkC (mkP (stk []) [] false [(7, 128); (9, 128)]) [PNew 7 7 100; PNew 9 7 65] [] []).
  set (c3 := mkC (mkP (stk []) [(9, 7%nat)] false [(7, 128); (9, 128)]) [PNew 7 7 100] [(9, 65)] []).
  set (c4 := mkC (mkP (stk []) [(9, 7%nat)] false [(11, 64); (7, 128); (9, 128)]) [PNew 11 6 3; PNew 7 7 100] [(9, 65)] []).
  set (c5 := mkC (mkP (stk []) [(7, 7%nat); (9, 7%nat)] false [(11, 64); (7, 128); (9, 128)]) [PNew 11 6 3] [(7, 100); (9, 65)] []).
  exists [Tau; Tau; Returned 9 65; Tau; Returned 7 100], c5. split; [|auto].
  apply steps_cons with (c1 := c1).
  { apply (@step_new_enter config_init 65 9 (ps c1) 9 7); [reflexivity|discriminate|simpl; tauto|vm_compute; reflexivity]. }
  apply steps_cons with (c1 := c2).
  { apply (@step_new_enter c1 100 7 (ps c2) 7 7); [reflexivity|discriminate|simpl; intuition discriminate|vm_compute; reflexivity]. }
  apply steps_cons with (c1 := c3).
  { apply (@step_new_return c2 [PNew 7 7 100] [] 9 7 65 (ps c3)); reflexivity. }
  apply steps_cons with (c1 := c4).
  { apply (@step_new_enter c3 3 11 (ps c4) 11 6); [reflexivity|discriminate|simpl; intuition discriminate|vm_compute; reflexivity]. }
  apply steps_cons with (c1 := c5).
  { apply (@step_new_return c4 [PNew 11 6 3] [] 7 7 100 (ps c5)); reflexivity. }
  apply steps_nil.
Qed.

(** an execution that recycles a buffer *)
Lemma pool_recycle_ex : exists es c, reach es c /\ owned c = [(9, 50)] /\ created (ps c) = [(9, 64)] /\ pend c = [] /\ poisoned (ps c) = false.
Proof.
  set (c1 := mkC (mkP (stk []) [] false [(9, 64)]) [PNew 9 6 60] [] []).
  set (c2 := mkC (mkP (stk []) [(9, 6%nat)] false [(9, 64)]) [] [(9, 60)] []).
  set (c3 := mkC (mkP (stk []) [] false [(9, 64)]) [PDrop 9 6] [] []).
  set (c4 := mkC (mkP (stk [(6%nat, 9)]) [] false [(9, 64)]) [] [] []).
  set (c5 := mkC (mkP (stk []) [] false [(9, 64)]) [PNew 9 6 50] [] []).
  set (c6 := mkC (mkP (stk []) [(9, 6%nat)] false [(9, 64)]) [] [(9, 50)] []).
  exists [Tau; Returned 9 60; Tau; Dropped 9; Tau; Returned 9 50], c6. split; [|auto].
  apply steps_cons with (c1 := c1).
  { apply (@step_new_enter config_init 60 9 (ps c1) 9 6); [reflexivity|discriminate|simpl; tauto|vm_compute; reflexivity]. }
  apply steps_cons with (c1 := c2).
  { apply (@step_new_return c1 [] [] 9 6 60 (ps c2)); reflexivity. }
  apply steps_cons with (c1 := c3).
  { apply (@step_drop_enter c2 9 6 (ps c3)); reflexivity. }
  apply steps_cons with (c1 := c4).
  { apply (@step_drop_return c3 [] [] 9 6 (ps c4)); reflexivity. }
  apply steps_cons with (c1 := c5).
  { apply (@step_new_enter c4 50 10 (ps c5) 9 6); [reflexivity|discriminate|simpl; intuition discriminate|vm_compute; reflexivity]. }
  apply steps_cons with (c1 := c6).
  { apply (@step_new_return c5 [] [] 9 6 50 (ps c6)); reflexivity. }
  apply steps_nil.
Qed.
