(** * LifeFacts: the invariant of the tensors' buffers *)
From Verif Require Export Lifecycle.
Set Implicit Arguments.
Unset Strict Implicit.
Import MemPool.

(** ** The pool as one caller sees it *)
Definition okpool (st : pstate) (own : list (ptr * N)) : Prop :=
  exists es c, reach es c /\ ps c = st /\ pend c = [] /\ poisoned st = false /\ Permutation (owned c) own.
Lemma okpool_init : okpool pool_init [].
Proof. exists [], config_init. repeat split; constructor. Qed.
Lemma okpool_perm st a b : okpool st a -> Permutation a b -> okpool st b.
Proof. intros (es & c & R & E & P & Q & O) H. exists es, c. repeat split; auto. rewrite O. auto. Qed.
Lemma steps_snoc c es c1 e c2 : steps c es c1 -> step c1 e c2 -> steps c (es ++ [e]) c2.
Proof. induction 1; intros S; cbn; econstructor; eauto. constructor. Qed.
Lemma known_In st p : known st p = true <-> In p (map fst (created st)).
Proof.
  unfold known. rewrite existsb_exists, in_map_iff. split; intros (x & A & B).
  - apply N.eqb_eq in B. eauto.
  - exists x. split; auto. apply N.eqb_eq. auto.
Qed.
Lemma okpool_new st own sz fresh st' p : okpool st own -> u32 sz -> fresh <> 0%N -> ~ In fresh (map fst (created st)) -> new_handle st sz fresh = Ok (st', p) ->
  okpool st' ((p, sz) :: own) /\ p <> 0%N /\ ~ In p (map fst own) /\
  ((known st p = true /\ created st' = created st) \/ (known st p = false /\ p = fresh /\ exists cap, created st' = (p, cap) :: created st)).
Proof.
  intros (es & c & R & E & P & Q & O) U F NF H. subst st. unfold new_handle in H. apply bind_Ok in H. destruct H as ([[st1 p1] s] & H1 & H2). apply bind_Ok in H2. destruct H2 as (st2 & H2 & H3). inversion H3; subst st2 p1; clear H3.
  pose proof (step_new_enter c U F NF H1) as S1. set (c1 := mkC st1 (PNew p s sz :: pend c) (owned c) (lost c)) in * .
  pose proof (@step_new_return c1 [] (pend c) p s sz st' eq_refl H2) as S2.
  pose proof (steps_snoc R S1) as R1. pose proof (C11_return_l R1 S2) as (A1 & A2 & _ & _ & A5). pose proof (steps_snoc R1 S2) as R2.
  assert (PS : poisoned st' = false). { unfold n2 in H2. destruct (poisoned st1) eqn:E1; [discriminate|]. inversion H2; subst. cbn. auto. }
  split; [|split; [auto|split]].
  - eexists _, _. split; [exact R2|]. cbn [ps pend owned app]. repeat split; auto.
  - intros I. apply A1. cbn [owned c1]. eapply Permutation_in; [|exact I]. apply Permutation_map. symmetry. auto.
  - assert (CR : created st' = created st1). { unfold n2 in H2. destruct (poisoned st1); [discriminate|]. inversion H2; subst. reflexivity. } rewrite CR.
    destruct (n1_inv _ _ (i_len (reach_inv R)) U H1) as (_ & _ & [(rest & E1 & ->)|(E1 & -> & ->)]); cbn [created].
    + left. split; auto. apply known_In. pose proof (i_pool_cap (reach_inv R) s p) as CO. rewrite E1 in CO. specialize (CO (or_introl eq_refl)). unfold cap_ok in CO. apply (in_map fst) in CO. exact CO.
    + right. split; [|split; eauto]. destruct (known (ps c) fresh) eqn:KN; auto. apply known_In in KN. contradiction.
Qed.
Lemma filter_perm A (f : A -> bool) (l l' : list A) : Permutation l l' -> Permutation (filter f l) (filter f l').
Proof. induction 1; cbn; auto. - destruct (f x); auto. - destruct (f x), (f y); auto. apply perm_swap. - etransitivity; eauto. Qed.
Lemma okpool_nodup st own : okpool st own -> NoDup (map fst own).
Proof. intros (es & c & R & E & P & Q & O). eapply Permutation_NoDup; [apply Permutation_map, O|]. apply (C11_state_l R). Qed.
Lemma okpool_drop st own p sz rest : okpool st own -> Permutation own ((p, sz) :: rest) -> exists st', drop_handle st p = (st', Ok tt) /\ okpool st' rest /\ created st' = created st /\ In p (all_pool st').
Proof.
  intros OK PM. pose proof (okpool_nodup (okpool_perm OK PM)) as ND. destruct OK as (es & c & R & E & P & Q & O). subst st.
  assert (I : In p (map fst (owned c))) by (eapply Permutation_in; [apply Permutation_map; symmetry; etransitivity; [exact O|exact PM]|left; auto]).
  pose proof (@C13_owned_l es c p R I Q) as (H & HIN & _). unfold drop_handle in H, HIN |- * . destruct (d1 (ps c) p) as [st1 r] eqn:E1. destruct r as [s| |]; try discriminate H.
  destruct (d2 st1 p s) as [st2| |] eqn:E2; try discriminate H. exists st2. split; auto.
  pose proof (@step_drop_enter c p s st1 E1) as S1. set (c1 := mkC st1 (PDrop p s :: pend c) (drop_owned (owned c) p) (lost c)) in * .
  pose proof (@step_drop_return c1 [] (pend c) p s st2 eq_refl E2) as S2. split; [|split].
  - eexists _, _. split; [exact (steps_snoc (steps_snoc R S1) S2)|]. cbn [ps pend owned app]. repeat split; auto.
    + unfold d1 in E1. rewrite Q in E1. destruct (lookup _ _); inversion E1; subst. unfold d2 in E2. apply bind_Ok in E2. destruct E2 as (x & _ & E2). inversion E2; subst. reflexivity.
    + unfold c1. cbn [owned]. unfold drop_owned. rewrite (filter_perm _ (Permutation_trans O PM)). cbn [filter fst]. rewrite N.eqb_refl. cbn [negb]. inversion ND; subst. rewrite remove_notin; auto.
  - unfold d1 in E1. rewrite Q in E1. destruct (lookup _ _); inversion E1; subst. unfold d2 in E2. apply bind_Ok in E2. destruct E2 as (x & _ & E2). inversion E2; subst. reflexivity.
  - exact HIN.
Qed.
Lemma okpool_cap st own p sz : okpool st own -> In (p, sz) own -> p <> 0%N /\ ~ In p (all_pool st) /\ exists cap, In (p, cap) (created st) /\ (sz <= cap)%N.
Proof.
  intros (es & c & R & E & P & Q & O) I. subst st. assert (I' : In (p, sz) (owned c)) by (eapply Permutation_in; [symmetry; exact O|auto]).
  destruct (C11_state_l R) as (_ & _ & A & B). pose proof (in_map fst _ _ I') as I2. cbn in I2. split; [intros ->; contradiction|]. split; [auto|].
  destruct (@C09_live_l es c p sz R I') as (k & C1 & _ & C3 & _). exists (2 ^ k)%N. auto.
Qed.
Lemma okpool_all st own : okpool st own -> Permutation (map fst (created st)) (all_pool st ++ map fst own).
Proof. intros (es & c & R & E & P & Q & O). subst st. destruct (C12_conserve_l R P Q) as (H & _). rewrite H. apply Permutation_app_head, Permutation_map, O. Qed.
Lemma okpool_poison st own : okpool st own -> poisoned st = false. Proof. intros (es & c & H). apply H. Qed.

Lemma perm_flat_lset A B (f : A -> list B) l i x : nth_error l i = Some x -> exists rest, Permutation (flat_map f l) (f x ++ rest) /\ forall y, Permutation (flat_map f (lset l i y)) (f y ++ rest).
Proof.
  revert i; induction l as [|a l IH]; intros [|i] H; cbn in H; try discriminate.
  - inversion H; subst. exists (flat_map f l). split; [reflexivity|]. intros y. reflexivity.
  - destruct (IH i H) as (rest & H1 & H2). exists (f a ++ rest). split; [|intros y]; cbn; [rewrite H1|rewrite H2]; rewrite !app_assoc; apply Permutation_app_tail, Permutation_app_comm.
Qed.

Section Inv.
Variable K : num.
Variable m : build.
Notation world := (world K).
Notation cell := (cell K).
Notation tensor := (tensor K).

Definition sizeof (s : shape) : N := match size m s with Ok n => n | _ => 0%N end.
Definition own_entry (d : nat) (oc : option cell) : list (ptr * N) :=
  match oc with
  | Some c => if N.eqb (c_hdl c) 0 then [] else match c_ref c with Some _ => [] | None => match c_dev c with Some e => if Nat.eqb e d then [(c_hdl c, sizeof (c_shape c))] else [] | None => [] end end
  | None => [] end.
Definition owners_of (ts : list (option cell)) (d : nat) := flat_map (own_entry d) ts.
Definition owners (w : world) (d : nat) := owners_of (w_ts w) d.
Record cell_ok (c : cell) : Prop := mkCok {
  ck_host : c_host c <> None -> c_hdl c = 0%N;
  ck_dev : c_hdl c <> 0%N -> c_dev c <> None;
  ck_size : c_hdl c <> 0%N -> exists n, size m (c_shape c) = Ok n;
  ck_ref : c_ref c <> None -> c_hdl c <> 0%N;
  ck_home : c_dev c = None -> c_host c <> None }.
Definition matches (b c : cell) : Prop := c_hdl b = c_hdl c /\ c_dev b = c_dev c /\ size m (c_shape b) = size m (c_shape c).
Record cells_ok (w : world) : Prop := mkCells {
  l_cell : forall i c, at' w i = Some c -> cell_ok c;
  l_ref : forall i c k, at' w i = Some c -> c_ref c = Some k -> exists b, at' w k = Some b /\ matches b c;
  l_root : forall i, live w i -> exists r, rooted w i r }.
Record linv (w : world) : Prop := mkLinv {
  l_pool : forall d, okpool (w_pool w d) (owners w d);
  l_mem : forall d p cap, In (p, cap) (created (w_pool w d)) -> N.of_nat (length (w_mem w p)) = cap;
  l_disj : forall d e p, In p (map fst (created (w_pool w d))) -> In p (map fst (created (w_pool w e))) -> d = e;
  l_cells : cells_ok w }.

Lemma at'_lt (w : world) i c : at' w i = Some c -> (i < length (w_ts w))%nat.
Proof. unfold at'. destruct (nth_error (w_ts w) i) eqn:E; [|discriminate]. intros _. apply nth_error_Some. congruence. Qed.
Lemma at'_nth (w : world) i c : at' w i = Some c -> nth_error (w_ts w) i = Some (Some c).
Proof. unfold at'. destruct (nth_error (w_ts w) i) as [[]|]; congruence. Qed.
Lemma at'_set P M (w : world) i oc j : (i < length (w_ts w))%nat -> at' (mkW P M (lset (w_ts w) i oc)) j = if Nat.eqb j i then oc else at' w j.
Proof. intros L. unfold at'. cbn [w_ts]. rewrite nth_error_lset by auto. destruct (Nat.eqb j i); auto. destruct oc; auto. Qed.
Lemma at'_app P M (w : world) c j : at' (mkW P M (w_ts w ++ [Some c])) j = if Nat.eqb j (length (w_ts w)) then Some c else at' w j.
Proof.
  unfold at'. cbn [w_ts]. destruct (Nat.eqb_spec j (length (w_ts w))) as [->|NE].
  - rewrite nth_error_app2, Nat.sub_diag by lia. reflexivity.
  - destruct (Nat.lt_ge_cases j (length (w_ts w))) as [L|L]; [rewrite nth_error_app1 by auto; auto|].
    rewrite nth_error_app2 by auto. destruct (j - length (w_ts w))%nat as [|q] eqn:E; [lia|]. cbn. destruct q; cbn; destruct (nth_error (w_ts w) j) eqn:E2; auto; apply nth_error_Some_lt in E2; lia.
Qed.
Lemma rooted_live (w : world) i r : rooted w i r -> live w i. Proof. destruct 1; eexists; eauto. Qed.
Lemma rooted_other (w w' : world) i : free w i -> (forall j, j <> i -> at' w' j = at' w j) -> forall j r, j <> i -> rooted w j r -> rooted w' j r /\ r <> i.
Proof.
  intros FR EQ j r NE RT. induction RT as [j c Hc Hr|j c k r Hc Hr RT IH].
  - split; auto. eapply rt_own; eauto. rewrite EQ; auto.
  - assert (k <> i) by (intros ->; exact (FR j c Hc Hr)). destruct IH as (A & B); auto. split; auto. eapply rt_ref; eauto. rewrite EQ; auto.
Qed.
(** changing the record of a tensor nobody refers to *)
Lemma cells_set (w w' : world) i c oc : cells_ok w -> at' w i = Some c -> free w i -> (forall j, at' w' j = if Nat.eqb j i then oc else at' w j) ->
  (forall c', oc = Some c' -> cell_ok c') ->
  (forall c' k, oc = Some c' -> c_ref c' = Some k -> k <> i /\ exists b, at' w k = Some b /\ matches b c') ->
  cells_ok w'.
Proof.
  intros [C1 C2 C3] Hc FR EQ K1 K2.
  assert (EO : forall j, j <> i -> at' w' j = at' w j) by (intros j NE; rewrite EQ; apply Nat.eqb_neq in NE; rewrite NE; auto).
  assert (EI : at' w' i = oc) by (rewrite EQ, Nat.eqb_refl; auto).
  constructor.
  - intros j cj Hj. rewrite EQ in Hj. destruct (Nat.eqb_spec j i) as [->|NE]; eauto.
  - intros j cj k Hj Hr. rewrite EQ in Hj. destruct (Nat.eqb_spec j i) as [->|NE].
    + destruct (K2 cj k Hj Hr) as (N1 & b & Hb & HM). exists b. rewrite EO by auto. auto.
    + destruct (C2 j cj k Hj Hr) as (b & Hb & HM). assert (k <> i) by (intros ->; exact (FR j cj Hj Hr)). exists b. rewrite EO by auto. auto.
  - intros j (cj & Hj). destruct (Nat.eq_dec j i) as [->|NE].
    + destruct (c_ref cj) as [k|] eqn:ER; [|exists i; eapply rt_own; eauto]. rewrite EI in Hj. destruct (K2 cj k Hj ER) as (N1 & b & Hb & _). destruct (C3 k) as (r & Hr); [eexists; eauto|].
      exists r. eapply rt_ref; eauto; [rewrite EI; eauto|]. eapply rooted_other; eauto.
    + rewrite EO in Hj by auto. destruct (C3 j) as (r & Hr); [eexists; eauto|]. exists r. eapply rooted_other; eauto.
Qed.
Lemma cells_app P M (w : world) c : cells_ok w -> cell_ok c -> c_ref c = None -> cells_ok (mkW P M (w_ts w ++ [Some c])).
Proof.
  intros [C1 C2 C3] CO CR.
  assert (NL : forall j c', at' w j = Some c' -> at' (mkW P M (w_ts w ++ [Some c])) j = Some c'). { intros j c' Hj. rewrite at'_app. destruct (Nat.eqb_spec j (length (w_ts w))) as [->|]; auto. apply at'_lt in Hj. lia. }
  constructor.
  - intros j cj Hj. rewrite at'_app in Hj. destruct (Nat.eqb_spec j (length (w_ts w))); [congruence|eauto].
  - intros j cj k Hj Hr. rewrite at'_app in Hj. destruct (Nat.eqb_spec j (length (w_ts w))); [congruence|]. destruct (C2 j cj k Hj Hr) as (b & Hb & HM). exists b. split; auto.
  - intros j (cj & Hj). rewrite at'_app in Hj. destruct (Nat.eqb_spec j (length (w_ts w))) as [->|NE].
    + inversion Hj; subst. exists (length (w_ts w)). eapply rt_own with (c := cj); auto. rewrite at'_app, Nat.eqb_refl. auto.
    + destruct (C3 j) as (r & Hr); [eexists; eauto|]. exists r. clear Hj NE. induction Hr as [j c0 Hc Hrr|j c0 k r Hc Hrr RT IH]; [eapply rt_own; eauto|eapply rt_ref; eauto].
Qed.

Lemma forL_keeps A S (P : S -> Prop) (l : list A) (body : A -> S -> res S) s s' : (forall a x x', P x -> body a x = Ok x' -> P x') -> P s -> forL l body s = Ok s' -> P s'.
Proof. intros H. revert s. induction l as [|a l IH]; intros s Ps E; cbn in E; [inversion E; subst; auto|]. apply bind_Ok in E. destruct E as (s1 & E1 & E). eauto. Qed.
Lemma by_slice_keeps (t t' : tensor) vs : reset_tensor_by_slice m t vs = Ok t' -> t' = with_buf t (buf t') /\ length (buf t') = length (buf t) /\ valid t = true.
Proof.
  intros E. unfold reset_tensor_by_slice in E. apply bind_Ok in E. destruct E as (sz & _ & E). apply assert_bind_Ok in E. destruct E as (_ & E).
  change (call_fw m "reset_tensor_by_slice_impl" [] [] vs t) with (k_reset_slice m vs t) in E. unfold k_reset_slice in E. apply bind_Ok in E. destruct E as (sz2 & _ & E). apply bind_Ok in E. destruct E as (py & EP & E). apply bind_Ok in E. destruct E as (py' & EL & E). inversion E; subst t'.
  unfold Kernels.ptr, unwrap in EP. unfold buf, valid. cbn [with_buf t_buf]. destruct (t_buf t) eqn:EB; inversion EP; subst. split; [reflexivity|]. split; [|reflexivity].
  unfold forN in EL. apply (@forL_keeps _ _ (fun l0 => length l0 = length py)) in EL; auto. intros a x x' Hx Ex. apply bind_Ok in Ex. destruct Ex as (v & _ & Ex). unfold wr in Ex. destruct (a <? length x)%nat; inversion Ex. rewrite lset_length. auto.
Qed.
Lemma size_u32 s n : size m s = Ok n -> u32 n.
Proof.
  unfold size, mul32, norm32, u32. destruct (N.ltb_spec (batch s * volume s) two32); [intros E; inversion E; subst; auto|]. destruct m; intros E; inversion E. apply N.mod_lt. discriminate.
Qed.
Lemma get_handle_ok (w : world) d sz be w1 p : linv w -> new_addr w be -> u32 sz -> get_handle w d sz be = Ok (w1, p) ->
  w_ts w1 = w_ts w /\ okpool (w_pool w1 d) ((p, sz) :: owners w d) /\ (forall e, e <> d -> w_pool w1 e = w_pool w e) /\
  (forall e q cap, In (q, cap) (created (w_pool w1 e)) -> N.of_nat (length (w_mem w1 q)) = cap) /\
  (forall d e q, In q (map fst (created (w_pool w1 d))) -> In q (map fst (created (w_pool w1 e))) -> d = e) /\
  p <> 0%N /\ (forall e, ~ In p (map fst (owners w e))) /\ (forall q, q <> p -> w_mem w1 q = w_mem w q) /\ (exists al, al sz = Ok (w_mem w1 p) /\ (sz <= N.of_nat (length (w_mem w1 p)))%N).
Proof.
  intros I (A1 & A2 & A3) U E. unfold get_handle in E. apply bind_Ok in E. destruct E as ([st q] & E1 & E). cbv beta iota in E. remember (if known (w_pool w d) q then w_mem w else mset (w_mem w) q (b_init be (snd (hd (0, 0)%N (created st))))) as M eqn:EM. inversion E; subst w1 q; clear E. cbn [w_ts w_pool w_mem].
  destruct (okpool_new (l_pool I d) U A1 (A2 d) E1) as (OK & NZ & NI & CR).
  assert (PD : fset (w_pool w) d st d = st) by (unfold fset; rewrite Nat.eqb_refl; auto). assert (PE : forall e, e <> d -> fset (w_pool w) d st e = w_pool w e) by (intros e NE; unfold fset; apply Nat.eqb_neq in NE; rewrite NE; auto).
  assert (CI : forall e q, In q (map fst (created (fset (w_pool w) d st e))) -> In q (map fst (created (w_pool w e))) \/ (e = d /\ q = p /\ known (w_pool w d) p = false /\ p = b_addr be)).
  { intros e q Hq. destruct (Nat.eq_dec e d) as [->|NE]; [|rewrite PE in Hq; auto]. rewrite PD in Hq. destruct CR as [(K1 & EC)|(K1 & K2 & cap & EC)]; rewrite EC in Hq; [auto|]. destruct Hq as [<-|Hq]; [right; cbn|]; auto. }
  assert (MQ : forall q, q <> p -> M q = w_mem w q). { intros q NE. rewrite EM. destruct (known _ _); auto. unfold mset. apply N.eqb_neq in NE. rewrite NE. auto. }
  assert (MM : forall e q cap, In (q, cap) (created (fset (w_pool w) d st e)) -> N.of_nat (length (M q)) = cap).
  { intros e q cap Hq. destruct CR as [(K1 & EC)|(K1 & K2 & cap' & EC)]; rewrite K1 in EM; subst M.
    - apply (@l_mem _ I e). destruct (Nat.eq_dec e d) as [->|NE]; [rewrite PD, EC in Hq; auto|rewrite PE in Hq; auto].
    - unfold mset. destruct (N.eqb_spec q p) as [->|NE].
      + rewrite A3. rewrite EC. cbn [hd snd]. destruct (Nat.eq_dec e d) as [->|NE]; [|exfalso; rewrite PE in Hq by auto; apply (in_map fst) in Hq; cbn in Hq; rewrite K2 in Hq; exact (A2 e Hq)].
        rewrite PD, EC in Hq. destruct Hq as [Hq|Hq]; [congruence|]. apply (in_map fst) in Hq. exfalso. cbn in Hq. rewrite K2 in Hq. exact (A2 d Hq).
      + apply (@l_mem _ I e). destruct (Nat.eq_dec e d) as [->|NE']; [rewrite PD, EC in Hq; destruct Hq as [Hq|Hq]; [congruence|auto]|rewrite PE in Hq; auto]. }
  ssplit; auto.
  - rewrite PD. auto.
  - intros e f q H1 H2. apply CI in H1. apply CI in H2. destruct H1 as [H1|(Q1 & Q2 & K1 & K2)], H2 as [H2|(Q3 & Q4 & K3 & K4)]; try congruence.
    + apply (l_disj I H1 H2).
    + exfalso. rewrite Q4, K4 in H1. exact (A2 e H1).
    + exfalso. rewrite Q2, K2 in H2. exact (A2 f H2).
  - intros e Hp. destruct (Nat.eq_dec e d) as [->|NE]; auto. apply in_map_iff in Hp. destruct Hp as ([q z] & <- & Hp). cbn [fst] in * . destruct (okpool_cap (l_pool I e) Hp) as (_ & _ & cap & Hcap & _). apply (in_map fst) in Hcap. cbn in Hcap.
    destruct (okpool_cap OK (or_introl eq_refl)) as (_ & _ & cap' & Hcap' & _). apply (in_map fst) in Hcap'. cbn in Hcap'. rewrite <- PD in Hcap'. apply CI in Hcap'. destruct Hcap' as [Hc'|(_ & _ & _ & K2)]; [exact (NE (l_disj I Hcap Hc'))|rewrite K2 in Hcap; exact (A2 e Hcap)].
  - exists (fun _ => Ok (M p)). split; auto. destruct (okpool_cap OK (or_introl eq_refl)) as (_ & _ & cap & Hcap & LE). rewrite (MM d p cap); [auto|rewrite PD; auto].
Qed.

Lemma own_null d (c : cell) : c_hdl c = 0%N -> own_entry d (Some c) = [].
Proof. intros E. cbn. rewrite E. reflexivity. Qed.
Lemma own_ref d (c : cell) k : c_ref c = Some k -> own_entry d (Some c) = [].
Proof. intros E. cbn. rewrite E. destruct (N.eqb _ _); auto. Qed.
Lemma linv_keep (w w' : world) : linv w -> (forall d, w_pool w' d = w_pool w d) -> (forall p, length (w_mem w' p) = length (w_mem w p)) -> (forall d, Permutation (owners w d) (owners w' d)) -> cells_ok w' -> linv w'.
Proof.
  intros I EP EM EO CO. constructor; auto.
  - intros d. rewrite EP. eapply okpool_perm; [apply (l_pool I)|auto].
  - intros d p cap H. rewrite EP in H. rewrite EM. apply (l_mem I H).
  - intros d e p H1 H2. rewrite !EP in * . apply (l_disj I H1 H2).
Qed.
Lemma owners_set (w : world) i oc : forall d c, nth_error (w_ts w) i = Some c -> own_entry d oc = own_entry d c -> Permutation (owners w d) (owners (set_cell w i oc) d).
Proof. intros d c H E. destruct (@perm_flat_lset _ _ (own_entry d) _ _ _ H) as (rest & H1 & H2). unfold owners, owners_of. cbn [set_cell w_ts]. rewrite H1, (H2 oc), E. reflexivity. Qed.
Lemma at'_set_cell (w : world) i oc j : (i < length (w_ts w))%nat -> at' (set_cell w i oc) j = if Nat.eqb j i then oc else at' w j.
Proof. apply at'_set. Qed.
Lemma drop_cell_ok (w : world) (c : cell) : (forall d, okpool (w_pool w d) (own_entry d (Some c) ++ owners w d)) ->
  (forall d p cap, In (p, cap) (created (w_pool w d)) -> N.of_nat (length (w_mem w p)) = cap) ->
  (forall d e p, In p (map fst (created (w_pool w d))) -> In p (map fst (created (w_pool w e))) -> d = e) -> cells_ok w -> cell_ok c ->
  exists w1, drop_cell w c = (w1, Ok tt) /\ linv w1 /\ w_ts w1 = w_ts w /\ w_mem w1 = w_mem w /\ (forall d, created (w_pool w1 d) = created (w_pool w d)) /\
    (c_hdl c <> 0%N -> c_ref c = None -> exists d, c_dev c = Some d /\ In (c_hdl c) (all_pool (w_pool w1 d))).
Proof.
  intros P M DJ CO CK. unfold drop_cell. destruct (N.eqb_spec (c_hdl c) 0) as [E|NE].
  { exists w. ssplit; auto; [|congruence]. constructor; auto. intros d. pose proof (P d) as Q. rewrite own_null in Q by auto. exact Q. }
  destruct (c_ref c) as [k|] eqn:ER.
  { exists w. ssplit; auto; [|discriminate]. constructor; auto. intros d. pose proof (P d) as Q. rewrite (own_ref d ER) in Q. exact Q. }
  destruct (c_dev c) as [d|] eqn:ED; [|exfalso; apply (ck_dev CK NE); auto].
  assert (EN : forall e, own_entry e (Some c) = if Nat.eqb d e then [(c_hdl c, sizeof (c_shape c))] else []). { intros e. cbn. rewrite ER, ED. apply N.eqb_neq in NE. rewrite NE. reflexivity. }
  pose proof (P d) as Q. rewrite EN, Nat.eqb_refl in Q. destruct (okpool_drop Q (Permutation_refl _)) as (st & E1 & E2 & E3 & E4). rewrite E1. eexists. split; [reflexivity|].
  assert (EC : forall e, created (fset (w_pool w) d st e) = created (w_pool w e)) by (intros e; unfold fset; destruct (Nat.eqb_spec e d) as [->|]; auto).
  split; [|cbn [w_ts w_mem w_pool]; ssplit; auto; intros; exists d; unfold fset; rewrite Nat.eqb_refl; auto].
  constructor; cbn [w_pool w_mem].
  - intros e. unfold fset. destruct (Nat.eqb_spec e d) as [->|NE2]; [exact E2|]. pose proof (P e) as Q'. rewrite EN in Q'. assert ((d =? e)%nat = false) as Z by (apply Nat.eqb_neq; auto). rewrite Z in Q'. exact Q'.
  - intros e p cap H. rewrite EC in H. eauto.
  - intros e f p H1 H2. rewrite EC in H1, H2. eauto.
  - destruct CO as [C1 C2 C3]. constructor; auto. intros i H. destruct (C3 i H) as (r & Hr). exists r. clear -Hr. induction Hr as [j c0 Hc Hrr|j c0 k r Hc Hrr RT IH]; [eapply rt_own; eauto|eapply rt_ref; eauto].
Qed.
Lemma free_less (w w' : world) i : free w i -> (forall j c, at' w' j = Some c -> exists c0, at' w j = Some c0 /\ c_ref c0 = c_ref c) -> free w' i.
Proof. intros FR H j c Hc E. destruct (H j c Hc) as (c0 & H0 & E0). apply (FR j c0 H0). congruence. Qed.
Lemma may_take_inv (a b : cell) : may_take a b = true -> c_dev a = c_dev b /\ c_hdl a = 0%N /\ c_shape a = c_shape b /\ c_host a = None.
Proof.
  unfold may_take. rewrite !andb_true_iff. intros (((A & B) & C) & D). apply N.eqb_eq in B. apply shape_eqb_spec in C. unfold no_host in D. destruct (c_host a); [discriminate|]. ssplit; auto.
  unfold same_dev in A. destruct (c_dev a), (c_dev b); try discriminate; auto. apply Nat.eqb_eq in A. congruence.
Qed.

Lemma exec_inv (w w' : world) o r : linv w -> permitted w o -> proper w o -> exec m w o = (w', r) -> linv w'.
Proof.
  intros I PE PR E. pose proof (l_cells I) as CO. destruct o as [d s|s vs|i be|i d be|i j|i j|i s|i js f junk|i]; cbn [permitted proper exec] in PE, PR, E.
  - inversion E; subst. apply (linv_keep I); auto.
    + intros e. unfold owners, owners_of. cbn [w_ts]. rewrite flat_map_app. cbn. rewrite app_nil_r. reflexivity.
    + apply cells_app; auto. constructor; cbn; try congruence.
  - inversion E; subst. apply (linv_keep I); auto.
    + intros e. unfold owners, owners_of. cbn [w_ts]. rewrite flat_map_app. cbn. rewrite app_nil_r. reflexivity.
    + apply cells_app; auto. constructor; cbn; try congruence.
  - destruct PE as ((c & Hc) & FR & NA). rewrite Hc in E. pose proof (l_cell CO Hc) as CK. destruct (N.eqb_spec (c_hdl c) 0) as [HZ|HZ]; cbn [negb] in E; [|inversion E; subst; auto].
    destruct (no_host c) eqn:EH; cbn [negb] in E; [|inversion E; subst; auto].
    destruct (bind (unwrap (c_dev c)) _) as [[w1 p]| |] eqn:EB; [|inversion E; subst; auto|inversion E; subst; auto].
    apply bind_Ok in EB. destruct EB as (d & Ed & EB). apply bind_Ok in EB. destruct EB as (sz & Es & EB). inversion E; subst w' r; clear E.
    assert (ED : c_dev c = Some d) by (destruct (c_dev c); inversion Ed; auto).
    destruct (get_handle_ok I NA (size_u32 Es) EB) as (G1 & G2 & G3 & G4 & G5 & G6 & G7 & G8 & G9).
    assert (RN : c_ref c = None) by (destruct (c_ref c) eqn:ER; auto; exfalso; apply (ck_ref CK); [congruence|auto]).
    pose proof (at'_nth Hc) as HN. set (c' := mkCell (c_dev c) (c_shape c) p (c_host c) (c_ref c)).
    constructor; cbn [set_cell w_pool w_mem]; auto.
    + intros e. destruct (perm_flat_lset (own_entry e) HN) as (rest & P1 & P2). assert (OW : Permutation (owners (set_cell w1 i (Some c')) e) (own_entry e (Some c') ++ owners w e)).
      { unfold owners, owners_of. cbn [set_cell w_ts]. rewrite G1, (P2 (Some c')), P1. rewrite (own_null e HZ). reflexivity. }
      eapply okpool_perm; [|symmetry; exact OW]. assert (EN : own_entry e (Some c') = if Nat.eqb d e then [(p, sz)] else []).
      { unfold own_entry, c'. cbn [c_hdl c_ref c_dev c_shape]. rewrite RN, ED. apply N.eqb_neq in G6. rewrite G6. unfold sizeof. rewrite Es. reflexivity. }
      rewrite EN. destruct (Nat.eqb_spec d e) as [<-|NE]; [exact G2|]. cbn [app]. rewrite G3 by auto. apply (l_pool I).
    + eapply (cells_set (i := i) (oc := Some c') CO Hc FR).
      * intros j. rewrite at'_set_cell by (rewrite G1; eapply at'_lt; eauto). destruct (Nat.eqb j i); auto. unfold at'. rewrite G1. auto.
      * intros c0 E0. inversion E0; subst c0. unfold c'. unfold no_host in EH. destruct (c_host c) eqn:EHo; [discriminate|]. constructor; cbn [c_host c_hdl c_dev c_shape c_ref]; try congruence. eauto.
      * intros c0 k E0. inversion E0; subst c0. cbn. congruence.
  - destruct PE as ((c & Hc) & FR & NA). rewrite Hc in E. pose proof (l_cell CO Hc) as CK. destruct (c_host c) as [vs|] eqn:EH; [|inversion E; subst; auto].
    assert (HZ : c_hdl c = 0%N) by (apply (ck_host CK); congruence).
    assert (RN : c_ref c = None) by (destruct (c_ref c) eqn:ER; auto; exfalso; apply (ck_ref CK); [congruence|auto]). pose proof (at'_nth Hc) as HN.
    set (c1 := mkCell (Some d) (c_shape c) (c_hdl c) (Some vs) (c_ref c)) in * . set (w1' := set_cell w i (Some c1)) in * .
    assert (I1 : linv w1').
    { apply (linv_keep I); auto.
      - intros e. eapply owners_set; eauto. rewrite !own_null by auto. reflexivity.
      - eapply (cells_set (oc := Some c1) CO Hc FR); [intros j; apply at'_set_cell; eapply at'_lt; eauto| |].
        + intros c0 E0. inversion E0; subst c0. unfold c1. constructor; cbn [c_host c_hdl c_dev c_shape c_ref]; try congruence.
        + intros c0 k E0. inversion E0; subst c0. cbn. congruence. }
    destruct (bind (size m (c_shape c)) _) as [[w1 p]| |] eqn:EB; [|inversion E; subst; exact I1|inversion E; subst; exact I1].
    apply bind_Ok in EB. destruct EB as (sz & Es & EB). destruct (get_handle_ok I NA (size_u32 Es) EB) as (G1 & G2 & G3 & G4 & G5 & G6 & G7 & G8 & G9).
    set (c' := mkCell (Some d) (c_shape c) p None (c_ref c)) in * . set (w2 := set_cell w1 i (Some c')) in * .
    assert (I2 : linv w2).
    { unfold w2. constructor; cbn [set_cell w_pool w_mem]; auto.
      - intros e. destruct (perm_flat_lset (own_entry e) HN) as (rest & P1 & P2). assert (OW : Permutation (owners (set_cell w1 i (Some c')) e) (own_entry e (Some c') ++ owners w e)).
        { unfold owners, owners_of. cbn [set_cell w_ts]. rewrite G1, (P2 (Some c')), P1. rewrite (own_null e HZ). reflexivity. }
        eapply okpool_perm; [|symmetry; exact OW]. assert (EN : own_entry e (Some c') = if Nat.eqb d e then [(p, sz)] else []).
        { unfold own_entry, c'. cbn [c_hdl c_ref c_dev c_shape]. rewrite RN. apply N.eqb_neq in G6. rewrite G6. unfold sizeof. rewrite Es. reflexivity. }
        rewrite EN. destruct (Nat.eqb_spec d e) as [<-|NE]; [exact G2|]. cbn [app]. rewrite G3 by auto. apply (l_pool I).
      - eapply (cells_set (i := i) (oc := Some c') CO Hc FR).
        + intros j. rewrite at'_set_cell by (rewrite G1; eapply at'_lt; eauto). destruct (Nat.eqb j i); auto. unfold at'. rewrite G1. auto.
        + intros c0 E0. inversion E0; subst c0. unfold c'. constructor; cbn [c_host c_hdl c_dev c_shape c_ref]; try congruence. eauto.
        + intros c0 k E0. inversion E0; subst c0. cbn. congruence. }
    destruct (reset_tensor_by_slice m (view_of w2 c') vs) as [t| |] eqn:ER; [|inversion E; subst; exact I2|inversion E; subst; exact I2]. inversion E; subst w' r; clear E.
    destruct (by_slice_keeps ER) as (_ & LB & _). unfold view_of in LB. cbn [c_hdl c'] in LB. pose proof G6 as G6'. apply N.eqb_neq in G6'. rewrite G6' in LB. unfold buf in LB at 2. cbn [t_buf] in LB.
    apply (linv_keep I2); auto.
    + intros q. cbn [w_mem]. unfold mset. destruct (N.eqb_spec q p) as [->|]; auto.
    + destruct (l_cells I2) as [C1 C2 C3]. constructor; auto. intros j H. destruct (C3 j H) as (r & Hr). exists r. clear -Hr. induction Hr as [j c0 Hc Hrr|j c0 k r Hc Hrr RT IH]; [eapply rt_own; eauto|eapply rt_ref; eauto].
  - destruct PE as ((a & Ha) & FR & (b & Hb) & NE). rewrite Ha, Hb in E. destruct (may_take a b) eqn:MT; inversion E; subst; auto. apply may_take_inv in MT. destruct MT as (M1 & M2 & M3 & M4). specialize (PR b Hb). pose proof (at'_nth Ha) as HN.
    apply (linv_keep I); auto.
    + intros e. eapply owners_set; eauto. rewrite (own_null e M2). erewrite own_ref; cbn; reflexivity.
    + eapply (cells_set CO Ha FR); [intros k; apply at'_set_cell; eapply at'_lt; eauto| |].
      * intros c0 E0. inversion E0; subst c0. pose proof (l_cell CO Hb) as CKb. constructor; cbn [c_host c_hdl c_dev c_shape c_ref]; try congruence; [rewrite M1; apply (ck_dev CKb)|rewrite M3; apply (ck_size CKb)|]. intros H. apply (ck_dev CKb) in PR. congruence.
      * intros c0 k E0 ER. inversion E0; subst c0. cbn in ER. inversion ER; subst k. split; auto. exists b. split; auto. split; [reflexivity|]. cbn. split; congruence.
  - destruct PE as ((a & Ha) & FRa & (b & Hb) & FRb & NE). rewrite Ha, Hb in E. specialize (PR b Hb). pose proof (l_cell CO Ha) as CKa. pose proof (l_cell CO Hb) as CKb. pose proof (at'_nth Ha) as HNa. pose proof (at'_nth Hb) as HNb.
    assert (COj : cells_ok (set_cell w j None)). { eapply (cells_set CO Hb FRb); [intros k; apply at'_set_cell; eapply at'_lt; eauto| |]; discriminate. }
    destruct (may_take a b) eqn:MT.
    + apply may_take_inv in MT. destruct MT as (M1 & M2 & M3 & M4). set (a' := mkCell (c_dev a) (c_shape a) (c_hdl b) (c_host a) (c_ref a)) in * . cbn in E. inversion E; subst w' r; clear E.
      assert (RN : c_ref a = None) by (destruct (c_ref a) eqn:ER; auto; exfalso; apply (ck_ref CKa); [congruence|auto]).
      assert (Lj : nth_error (w_ts (set_cell w i (Some a'))) j = Some (Some b)). { cbn [set_cell w_ts]. rewrite nth_error_lset by (eapply at'_lt; eauto). destruct (Nat.eqb_spec j i); [congruence|auto]. }
      apply (linv_keep I); auto.
      * intros e. destruct (perm_flat_lset (own_entry e) HNa) as (r1 & P1 & P2). destruct (perm_flat_lset (own_entry e) Lj) as (r2 & P3 & P4).
        unfold owners, owners_of in * . cbn [set_cell w_ts] in * . rewrite (P4 None). cbn [own_entry app]. rewrite P2 in P3. assert (EE : own_entry e (Some a') = own_entry e (Some b)) by (unfold own_entry, a'; cbn [c_hdl c_ref c_dev c_shape]; rewrite RN, PR, M1, M3; reflexivity). rewrite EE in P3. apply Permutation_app_inv_l in P3. rewrite P1, own_null by auto. exact P3.
      * assert (Ha' : at' (set_cell w j None) i = Some a). { rewrite at'_set_cell by (eapply at'_lt; eauto). destruct (Nat.eqb_spec i j); [congruence|auto]. }
        eapply (cells_set (oc := Some a') COj Ha').
        -- eapply free_less; [exact FRa|]. intros k c0 Hk. rewrite at'_set_cell in Hk by (eapply at'_lt; eauto). destruct (Nat.eqb k j); [discriminate|eauto].
        -- intros k. rewrite at'_set_cell by (cbn [set_cell w_ts]; rewrite lset_length; eapply at'_lt; eauto). rewrite !at'_set_cell by (eapply at'_lt; eauto). destruct (Nat.eqb_spec k j) as [->|]; auto. destruct (Nat.eqb_spec j i); [congruence|auto].
        -- intros c0 E0. inversion E0; subst c0. unfold a'. constructor; cbn [c_host c_hdl c_dev c_shape c_ref]; try congruence; [rewrite M1; apply (ck_dev CKb)|rewrite M3; apply (ck_size CKb)|]. intros H. rewrite M4. apply (ck_home CKa) in H. congruence.
        -- intros c0 k E0. inversion E0; subst c0. cbn. congruence.
    + destruct (drop_cell_ok (w := set_cell w j None) (c := b)) as (w1 & E1 & E2 & _); auto.
      * intros e. destruct (perm_flat_lset (own_entry e) HNb) as (rest & P1 & P2). unfold owners, owners_of. cbn [set_cell w_ts w_pool]. eapply okpool_perm; [apply (l_pool I)|]. unfold owners, owners_of. rewrite P1, (P2 None). reflexivity.
      * apply (l_mem I).
      * apply (l_disj I).
      * rewrite E1 in E. inversion E; subst. auto.
  - destruct PE as ((c & Hc) & FR). rewrite Hc in E. pose proof (l_cell CO Hc) as CK. destruct (bind (size m s) _) as [u| |] eqn:EB; inversion E; subst; auto.
    apply bind_Ok in EB. destruct EB as (n1 & E1 & EB). apply bind_Ok in EB. destruct EB as (n2 & E2 & EB). apply assert_Ok in EB. apply N.eqb_eq in EB. subst n2. pose proof (at'_nth Hc) as HN.
    apply (linv_keep I); auto.
    + intros e. eapply owners_set; eauto. unfold own_entry. cbn [c_hdl c_ref c_dev c_shape]. unfold sizeof. rewrite E1, E2. reflexivity.
    + eapply (cells_set CO Hc FR); [intros j; apply at'_set_cell; eapply at'_lt; eauto| |].
      * intros c0 E0. inversion E0; subst c0. destruct CK as [A1 A2 A3 A4 A5]. constructor; cbn [c_host c_hdl c_dev c_shape c_ref]; eauto.
      * intros c0 k E0 ER. inversion E0; subst c0. cbn in ER. destruct (l_ref CO Hc ER) as (b & Hb & M1 & M2 & M3). split; [intros ->; exact (FR _ _ Hc ER)|]. exists b. split; auto. split; [auto|]. cbn. split; congruence.
  - destruct PE as ((c & Hc) & FR & LV & NI). rewrite Hc in E. destruct (all_views w js) as [xs|]; [|inversion E; subst; auto].
    assert (PUT : forall l, linv (if (c_hdl c =? 0)%N then w else mkW (w_pool w) (mset (w_mem w) (c_hdl c) (if Nat.eqb (length l) (length (w_mem w (c_hdl c))) then l else w_mem w (c_hdl c))) (w_ts w))).
    { intros l. destruct (N.eqb (c_hdl c) 0); auto. apply (linv_keep I); auto.
      - intros q. cbn [w_mem]. unfold mset. destruct (N.eqb_spec q (c_hdl c)) as [->|]; auto. destruct (Nat.eqb_spec (length l) (length (w_mem w (c_hdl c)))); auto.
      - destruct CO as [C1 C2 C3]. constructor; auto. intros j H. destruct (C3 j H) as (r0 & Hr). exists r0. clear -Hr. induction Hr as [j c0 Hc Hrr|j c0 k r Hc Hrr RT IH]; [eapply rt_own; eauto|eapply rt_ref; eauto]. }
    destruct (f xs (view_of w c)); inversion E; subst; apply PUT.
  - destruct PE as ((c & Hc) & FR). rewrite Hc in E. pose proof (l_cell CO Hc) as CK. pose proof (at'_nth Hc) as HN.
    destruct (drop_cell_ok (w := set_cell w i None) (c := c)) as (w1 & E1 & E2 & _); auto.
    * intros e. destruct (perm_flat_lset (own_entry e) HN) as (rest & P1 & P2). unfold owners, owners_of. cbn [set_cell w_ts w_pool]. eapply okpool_perm; [apply (l_pool I)|]. unfold owners, owners_of. rewrite P1, (P2 None). reflexivity.
    * apply (l_mem I).
    * apply (l_disj I).
    * eapply (cells_set CO Hc FR); [intros k; apply at'_set_cell; eapply at'_lt; eauto| |]; discriminate.
    * rewrite E1 in E. inversion E; subst. auto.
Qed.
Lemma linv_init : linv (@world_init K).
Proof.
  constructor; cbn; try tauto.
  - intros d. exact okpool_init.
  - constructor; unfold at'; cbn; intros i; try (intros c; destruct i; discriminate); try (intros c k; destruct i; discriminate). intros (c & H). destruct i; discriminate.
Qed.
Lemma run_inv (P : world -> op K -> Prop) (w : world) : (forall w o, P w o -> proper w o) -> run m P w -> linv w.
Proof. intros H R. induction R as [|w o w' r R IH PE PR E]; [apply linv_init|]. eapply exec_inv; eauto. Qed.
End Inv.
