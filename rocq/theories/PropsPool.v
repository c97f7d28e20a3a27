(** * Property theorems C09-C13: the memory pool.
    [reach es c]: c is the state after some interleaving of critical sections of
    any number of threads calling new_handle/drop_handle, with events es. *)
From Verif Require Import MemPool.
Local Open Scope N_scope.

(** ** C09 *)
Theorem C09_size_class : forall es c p size, reach es c -> In (p, size) (owned c) ->
  exists k, capacity c p (2 ^ k) /\ 64 <= 2 ^ k /\ size <= 2 ^ k /\ (64 < 2 ^ k -> 2 ^ k < 2 * size).
Proof. exact C09_live_l. Qed.
Print Assumptions C09_size_class.
Theorem C09_accepts : forall es c size fresh, reach es c -> u32 size ->
  (size = 0 \/ 2147483648 < size -> new_handle (ps c) size fresh = Panic) /\
  (0 < size <= 2147483648 -> poisoned (ps c) = false ->
   exists st p, new_handle (ps c) size fresh = Ok (st, p)).
Proof. exact C09_call_l. Qed.
Print Assumptions C09_accepts.
Theorem C09_shift_is_log2_up : forall x, 0 < x < two32 -> calculate_shifts x = Ok (N.log2_up x).
Proof. exact calculate_shifts_log2_up. Qed.
Print Assumptions C09_shift_is_log2_up.
Example C09_witness : exists es c, reach es c /\ owned c = [(7, 100); (9, 65)] /\ all_pool (ps c) = [] /\ pend c = [PNew 11 6 3].
Proof. exact pool_run_ex. Qed.

(** ** C10 *)
Theorem C10_recycled_big_enough : forall es c p size cap, reach es c -> In (p, size) (owned c) -> capacity c p cap -> size <= cap.
Proof. exact C10_l. Qed.
Print Assumptions C10_recycled_big_enough.
Example C10_witness : exists es c, reach es c /\ owned c = [(9, 50)] /\ created (ps c) = [(9, 64)] /\ pend c = [] /\ poisoned (ps c) = false.
Proof. exact pool_recycle_ex. Qed.

(** ** C11 *)
Theorem C11_one_owner : forall es c, reach es c ->
  NoDup (all_pool (ps c)) /\ NoDup (map fst (owned c)) /\
  (forall p, In p (map fst (owned c)) -> ~ In p (all_pool (ps c))) /\
  ~ In 0 (map fst (owned c)).
Proof. exact C11_state_l. Qed.
Print Assumptions C11_one_owner.
Theorem C11_returned_is_new_owner : forall es c p size c', reach es c -> step c (Returned p size) c' ->
  ~ In p (map fst (owned c)) /\ ~ In p (all_pool (ps c)) /\ ~ In p (all_pool (ps c')) /\
  In (p, size) (owned c') /\ p <> 0.
Proof. exact C11_return_l. Qed.
Print Assumptions C11_returned_is_new_owner.
Example C11_witness : exists es c, reach es c /\ owned c = [(7, 100); (9, 65)] /\ all_pool (ps c) = [] /\ pend c = [PNew 11 6 3].
Proof. exact pool_run_ex. Qed.

(** ** C12 *)
Theorem C12_conservation : forall es c, reach es c -> pend c = [] -> poisoned (ps c) = false ->
  Permutation (map fst (created (ps c))) (all_pool (ps c) ++ map fst (owned c)) /\ NoDup (map fst (created (ps c))).
Proof. exact C12_conserve_l. Qed.
Print Assumptions C12_conservation.
Theorem C12_free_exactly_once : forall es c, reach es c -> pend c = [] -> poisoned (ps c) = false -> owned c = [] ->
  Permutation (drop_pool (ps c)) (map fst (created (ps c))) /\ NoDup (drop_pool (ps c)).
Proof. exact C12_free_l. Qed.
Print Assumptions C12_free_exactly_once.
Theorem C12_never_frees_twice_or_owned : forall es c, reach es c ->
  NoDup (drop_pool (ps c)) /\ (forall p, In p (drop_pool (ps c)) -> ~ In p (map fst (owned c))) /\
  incl (drop_pool (ps c)) (map fst (created (ps c))).
Proof. exact C12_no_double_free_l. Qed.
Print Assumptions C12_never_frees_twice_or_owned.
(** the hypothesis "not poisoned" fails only after misuse *)
Theorem C12_poisoned_only_by_misuse : forall c e c', inv c -> step c e c' -> poisoned (ps c) = false -> poisoned (ps c') = true ->
  exists p, e = PanicDrop p /\ ~ In p (map fst (owned c)).
Proof. exact poison_source_l. Qed.
Print Assumptions C12_poisoned_only_by_misuse.
Example C12_witness : exists es c, reach es c /\ owned c = [(9, 50)] /\ created (ps c) = [(9, 64)] /\ pend c = [] /\ poisoned (ps c) = false.
Proof. exact pool_recycle_ex. Qed.

(** ** C13 *)
Theorem C13_double_drop_detected : forall es c p, reach es c -> ~ In p (map fst (owned c)) ->
  snd (drop_handle (ps c) p) = Panic /\ pool (fst (drop_handle (ps c) p)) = pool (ps c) /\
  mem_shift (fst (drop_handle (ps c) p)) = mem_shift (ps c) /\ created (fst (drop_handle (ps c) p)) = created (ps c).
Proof. exact C13_l. Qed.
Print Assumptions C13_double_drop_detected.
Theorem C13_owned_drop_returns : forall es c p, reach es c -> In p (map fst (owned c)) -> poisoned (ps c) = false ->
  snd (drop_handle (ps c) p) = Ok tt /\ In p (all_pool (fst (drop_handle (ps c) p))) /\
  lookup (mem_shift (fst (drop_handle (ps c) p))) p = None.
Proof. exact C13_owned_l. Qed.
Print Assumptions C13_owned_drop_returns.
(** finding: after a detected double drop no allocation succeeds any more *)
Theorem C13_pool_unusable_afterwards : forall es c p size fresh, reach es c -> ~ In p (map fst (owned c)) -> u32 size ->
  new_handle (fst (drop_handle (ps c) p)) size fresh = Panic.
Proof. exact C13_poison_l. Qed.
Print Assumptions C13_pool_unusable_afterwards.
Example C13_witness : exists es c, reach es c /\ ~ In 5 (map fst (owned c)) /\ In 9 (map fst (owned c)) /\ poisoned (ps c) = false.
Proof.
  destruct pool_recycle_ex as (es & c & R & Ho & Hc & Hp & Hq). exists es, c. rewrite Ho.
  ssplit; auto; simpl; [intuition discriminate|auto].
Qed.
