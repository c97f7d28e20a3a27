(** * PropsLife: buffers are owned once and returned once (C14); tensors do not interfere (C15) *)
From Verif Require Export LifeFacts.
Set Implicit Arguments.
Unset Strict Implicit.
Import MemPool.

Section Life.
Variable K : num.
Variable m : build.
Notation world := (world K).
Notation tensor := (tensor K).
(** worlds reachable by operations Rust permits, without the two improper ones *)
Notation reachable w := (run m (@proper K) w).

Lemma reach_linv (w : world) : reachable w -> linv m w.
Proof. apply run_inv. auto. Qed.
Lemma in_owners (w : world) d p n : In (p, n) (owners m w d) <-> exists i c, at' w i = Some c /\ c_hdl c = p /\ p <> 0%N /\ c_ref c = None /\ c_dev c = Some d /\ n = sizeof m (c_shape c).
Proof.
  unfold owners, owners_of. rewrite in_flat_map. split.
  - intros (oc & Hin & He). destruct (In_nth_error _ _ Hin) as (i & Hi). destruct oc as [c|]; [|destruct He]. cbn in He. destruct (N.eqb_spec (c_hdl c) 0); [destruct He|]. destruct (c_ref c) eqn:ER; [destruct He|]. destruct (c_dev c) as [e|] eqn:ED; [|destruct He]. destruct (Nat.eqb_spec e d); [|destruct He]. destruct He as [He|[]]. inversion He; subst.
    exists i, c. ssplit; auto. unfold at'. rewrite Hi. auto.
  - intros (i & c & Hc & E1 & NZ & ER & ED & En). exists (Some c). split; [eapply nth_error_In, at'_nth; eauto|]. cbn. rewrite E1. apply N.eqb_neq in NZ. rewrite NZ, ER, ED, Nat.eqb_refl. left. congruence.
Qed.
(** two tensors that own the same buffer are the same tensor *)
Lemma owner_unique (w : world) i j a b : linv m w -> at' w i = Some a -> at' w j = Some b -> c_ref a = None -> c_ref b = None -> c_hdl a = c_hdl b -> c_hdl a <> 0%N -> i = j.
Proof.
  intros I Ha Hb Ra Rb EH NZ. pose proof (l_cells I) as CO. destruct (c_dev a) as [d|] eqn:Da; [|exfalso; apply (ck_dev (l_cell CO Ha)); auto]. destruct (c_dev b) as [e|] eqn:Db; [|exfalso; apply (ck_dev (l_cell CO Hb)); [congruence|auto]].
  assert (Ia : In (c_hdl a, sizeof m (c_shape a)) (owners m w d)) by (apply in_owners; exists i, a; ssplit; auto).
  assert (Ib : In (c_hdl b, sizeof m (c_shape b)) (owners m w e)) by (apply in_owners; exists j, b; ssplit; auto; congruence).
  destruct (okpool_cap (l_pool I d) Ia) as (_ & _ & ca & Ca & _). destruct (okpool_cap (l_pool I e) Ib) as (_ & _ & cb & Cb & _). apply (in_map fst) in Ca, Cb. cbn in Ca, Cb. rewrite <- EH in Cb. pose proof (l_disj I Ca Cb). subst e. clear Ia Ib Ca Cb.
  destruct (Nat.eq_dec i j) as [|NE]; auto. exfalso. pose proof (okpool_nodup (l_pool I d)) as ND. pose proof (at'_nth Ha) as Na. pose proof (at'_nth Hb) as Nb.
  destruct (perm_flat_lset (own_entry m d) Na) as (r1 & P1 & P2). assert (Nb' : nth_error (lset (w_ts w) i None) j = Some (Some b)). { rewrite nth_error_lset by (eapply at'_lt; eauto). destruct (Nat.eqb_spec j i); [congruence|auto]. }
  destruct (perm_flat_lset (own_entry m d) Nb') as (r2 & P3 & _). assert (P3' : Permutation r1 (own_entry m d (Some b) ++ r2)) by (rewrite <- P3; symmetry; apply (P2 None)). clear P3. rename P3' into P3. unfold owners, owners_of in ND.
  assert (EA : own_entry m d (Some a) = [(c_hdl a, sizeof m (c_shape a))]) by (cbn; rewrite Ra, Da, Nat.eqb_refl; apply N.eqb_neq in NZ; rewrite NZ; auto).
  assert (EB : own_entry m d (Some b) = [(c_hdl b, sizeof m (c_shape b))]) by (cbn; rewrite Rb, Db, Nat.eqb_refl; rewrite EH in NZ; apply N.eqb_neq in NZ; rewrite NZ; auto).
  rewrite EA in P1. rewrite EB in P3. rewrite P3 in P1. apply (Permutation_map fst) in P1. apply (Permutation_NoDup P1) in ND. cbn in ND. inversion ND; subst. apply H1. left. auto.
Qed.
Lemma root_cell (w : world) i r : linv m w -> rooted w i r -> forall c, at' w i = Some c -> exists cr, at' w r = Some cr /\ c_ref cr = None /\ c_hdl cr = c_hdl c /\ c_dev cr = c_dev c /\ size m (c_shape cr) = size m (c_shape c).
Proof.
  intros I RT. induction RT as [i c0 Hc Hr|i c0 k r Hc Hr RT IH]; intros c Hc'.
  - exists c0. assert (c = c0) by congruence. subst. auto.
  - assert (c = c0) by congruence. subst c0. destruct (l_ref (l_cells I) Hc Hr) as (b & Hb & M1 & M2 & M3). destruct (IH b Hb) as (cr & A1 & A2 & A3 & A4 & A5). exists cr. ssplit; auto; congruence.
Qed.
Lemma rooted_fun (w : world) i r1 r2 : rooted w i r1 -> rooted w i r2 -> r1 = r2.
Proof. intros R1. revert r2. induction R1 as [i c Hc Hr|i c k r Hc Hr RT IH]; intros r2 R2; inversion R2; subst; auto; try congruence. apply IH. congruence. Qed.
(** the tensors whose buffer is that of [i] are those with the same root *)
Lemma same_buffer (w : world) i j a b : linv m w -> at' w i = Some a -> at' w j = Some b -> c_hdl a = c_hdl b -> c_hdl a <> 0%N -> exists r, rooted w i r /\ rooted w j r.
Proof.
  intros I Ha Hb EH NZ. destruct (l_root (l_cells I) (i := i)) as (r1 & R1); [eexists; eauto|]. destruct (l_root (l_cells I) (i := j)) as (r2 & R2); [eexists; eauto|].
  destruct (root_cell I R1 Ha) as (c1 & A1 & A2 & A3 & _). destruct (root_cell I R2 Hb) as (c2 & B1 & B2 & B3 & _). exists r1. split; auto.
  assert (r1 = r2) by (eapply owner_unique; eauto; congruence). subst. auto.
Qed.

(** ** C14 *)
(** no drop panics, and the buffer of a dropped owner goes back to the pool *)
Theorem C14_drop : forall (w : world) i, reachable w -> permitted w (Drop i) -> exists w', exec m w (Drop i) = (w', Ok tt) /\
  ~ live w' i /\ forall c, at' w i = Some c -> c_hdl c <> 0%N -> c_ref c = None -> exists d, c_dev c = Some d /\ ~ In (c_hdl c) (all_pool (w_pool w d)) /\ In (c_hdl c) (all_pool (w_pool w' d)).
Proof.
  intros w i R ((c & Hc) & FR). pose proof (reach_linv R) as I. pose proof (l_cells I) as CO. pose proof (at'_nth Hc) as HN. cbn [exec]. rewrite Hc.
  destruct (@drop_cell_ok K m (set_cell w i None) c) as (w1 & E1 & E2 & E3 & _ & _ & E4).
  - intros e. destruct (perm_flat_lset (own_entry m e) HN) as (rest & P1 & P2). unfold owners, owners_of. cbn [set_cell w_ts w_pool]. eapply okpool_perm; [apply (l_pool I)|]. unfold owners, owners_of. rewrite P1, (P2 None). reflexivity.
  - apply (l_mem I).
  - apply (l_disj I).
  - eapply (cells_set CO Hc FR); [intros k; apply at'_set_cell; eapply at'_lt; eauto| |]; discriminate.
  - apply (l_cell CO Hc).
  - exists w1. split; auto. split.
    + intros (c' & Hc'). unfold at' in Hc'. rewrite E3 in Hc'. cbn [set_cell w_ts] in Hc'. rewrite nth_error_lset, Nat.eqb_refl in Hc' by (eapply at'_lt; eauto). discriminate.
    + intros c' Hc' NZ RN. assert (c' = c) by congruence. subst c'. destruct (E4 NZ RN) as (d & Ed & Hin). exists d. split; auto. split; auto.
      refine (proj1 (proj2 (okpool_cap (l_pool I d) (sz := sizeof m (c_shape c)) _))). apply in_owners. exists i, c. ssplit; auto.
Qed.
(** the buffer of a tensor that owns one belongs to no other owner, is in no pool, is
    not null, and holds at least as many elements as the shape asks for *)
Theorem C14_exclusive : forall (w : world) i a, reachable w -> at' w i = Some a -> c_hdl a <> 0%N -> c_ref a = None ->
  (forall j b, at' w j = Some b -> c_ref b = None -> c_hdl b = c_hdl a -> j = i) /\
  (forall d, ~ In (c_hdl a) (all_pool (w_pool w d))) /\
  (exists n, size m (c_shape a) = Ok n /\ (N.to_nat n <= length (w_mem w (c_hdl a)))%nat).
Proof.
  intros w i a R Ha NZ RN. pose proof (reach_linv R) as I. pose proof (l_cells I) as CO. split; [|split].
  - intros j b Hb Rb EH. symmetry. eapply owner_unique; eauto; congruence.
  - destruct (c_dev a) as [e|] eqn:Da; [|exfalso; apply (ck_dev (l_cell CO Ha)); auto]. assert (Ia : In (c_hdl a, sizeof m (c_shape a)) (owners m w e)) by (apply in_owners; exists i, a; ssplit; auto).
    destruct (okpool_cap (l_pool I e) Ia) as (_ & NP & cap & Cap & _). apply (in_map fst) in Cap. cbn in Cap. intros d Hin. assert (Cd : In (c_hdl a) (map fst (created (w_pool w d)))) by (eapply Permutation_in; [symmetry; apply (okpool_all (l_pool I d))|apply in_or_app; auto]).
    pose proof (l_disj I Cap Cd). subst d. contradiction.
  - destruct (ck_size (l_cell CO Ha) NZ) as (n & En). exists n. split; auto. destruct (c_dev a) as [e|] eqn:Da; [|exfalso; apply (ck_dev (l_cell CO Ha)); auto]. assert (Ia : In (c_hdl a, sizeof m (c_shape a)) (owners m w e)) by (apply in_owners; exists i, a; ssplit; auto).
    destruct (okpool_cap (l_pool I e) Ia) as (_ & NP & cap & Cap & LE). pose proof (l_mem I Cap) as LM. unfold sizeof in LE. rewrite En in LE. lia.
Qed.
(** when no tensor is left, every buffer any device ever created is in its pool, once *)
Theorem C14_all_returned : forall (w : world) d, reachable w -> (forall i, ~ live w i) -> Permutation (all_pool (w_pool w d)) (map fst (created (w_pool w d))) /\ NoDup (all_pool (w_pool w d)).
Proof.
  intros w d R NL. pose proof (reach_linv R) as I. pose proof (okpool_all (l_pool I d)) as P. assert (EO : owners m w d = []).
  { destruct (owners m w d) as [|[p n] l] eqn:EO; auto. exfalso. assert (Hin : In (p, n) (owners m w d)) by (rewrite EO; left; auto). apply in_owners in Hin. destruct Hin as (i & c & Hc & _). apply (NL i). eexists; eauto. }
  rewrite EO in P. cbn in P. rewrite app_nil_r in P. split; [symmetry; auto|]. eapply Permutation_NoDup; [exact P|]. destruct (l_pool I d) as (es & c & Rc & E & Pd & Q & _). rewrite <- E. apply (C12_conserve_l Rc Pd). congruence.
Qed.
(** and every buffer of a device is at any time either in its pool or owned by a tensor *)
Theorem C14_nothing_lost : forall (w : world) d p, reachable w -> In p (map fst (created (w_pool w d))) ->
  In p (all_pool (w_pool w d)) \/ exists i c, at' w i = Some c /\ c_hdl c = p /\ c_ref c = None /\ c_dev c = Some d.
Proof.
  intros w d p R Hp. pose proof (reach_linv R) as I. pose proof (Permutation_in _ (okpool_all (l_pool I d)) Hp) as H. apply in_app_or in H. destruct H as [H|H]; auto. right.
  apply in_map_iff in H. destruct H as ([q n] & E & Hin). cbn in E. subst q. apply in_owners in Hin. destruct Hin as (i & c & A1 & A2 & _ & A4 & A5 & _). exists i, c. ssplit; auto.
Qed.

(** ** C15 *)
(** the tensor an operation changes (for replace, also the one it consumes) *)
Definition acts_on (o : op K) (j : nat) : Prop :=
  match o with New _ _ | NewHost _ _ => False | Alloc i _ | MoveToDevice i _ _ | Refer i _ | SetShape i _ | Update i _ _ _ | Drop i => j = i | Replace i k => j = i \/ j = k end.
(** whatever an operation does to a tensor, every tensor that does not share its buffer
    through references looks as before: same shape, device and elements *)
Theorem C15_others_unchanged : forall (w w' : world) o r j, reachable w -> permitted w o -> exec m w o = (w', r) -> live w j -> ~ acts_on o j ->
  (forall i root, acts_on o i -> rooted w i root -> ~ rooted w j root) -> view w' j = view w j.
Proof.
  intros w w' o r j R PE E (b & Hb) NA SEP. pose proof (reach_linv R) as I. pose proof (l_cells I) as CO.
  assert (VW : forall w2 : world, at' w2 j = at' w j -> (c_hdl b <> 0%N -> w_mem w2 (c_hdl b) = w_mem w (c_hdl b)) -> view w2 j = view w j).
  { intros w2 A B. unfold view. rewrite A, Hb. cbn [option_map]. f_equal. unfold view_of. f_equal. destruct (N.eqb_spec (c_hdl b) 0); auto. f_equal. auto. }
  assert (ATS : forall P M i oc, (i < length (w_ts w))%nat -> j <> i -> at' (mkW P M (lset (w_ts w) i oc)) j = at' w j) by (intros P M i oc L NE; rewrite at'_set by auto; apply Nat.eqb_neq in NE; rewrite NE; auto).
  assert (DROP : forall (w1 w2 : world) c r2, drop_cell w1 c = (w2, r2) -> w_ts w2 = w_ts w1 /\ w_mem w2 = w_mem w1).
  { intros w1 w2 c r2 ED. unfold drop_cell in ED. destruct (N.eqb _ _); [inversion ED; auto|]. destruct (c_ref c); [inversion ED; auto|]. destruct (c_dev c); [|inversion ED; auto]. destruct (drop_handle _ _). inversion ED; auto. }
  assert (HP : forall p, (forall e, ~ In p (map fst (owners m w e))) -> p <> c_hdl b \/ c_hdl b = 0%N).
  { intros p NI. destruct (N.eq_dec (c_hdl b) 0); auto. left. intros ->. destruct (l_root CO (i := j)) as (q & Rq); [eexists; eauto|]. destruct (root_cell I Rq Hb) as (cr & A1 & A2 & A3 & A4 & _).
    destruct (c_dev cr) as [e|] eqn:De; [|apply (ck_dev (l_cell CO A1)); [congruence|auto]]. apply (NI e). apply in_map_iff. exists (c_hdl b, sizeof m (c_shape cr)). split; auto. apply in_owners. exists q, cr. ssplit; auto. }
  destruct o as [d s|s vs|i be|i d be|i k|i k|i s|i js f junk|i]; cbn [permitted exec acts_on] in PE, E, NA, SEP.
  - inversion E; subst. apply VW; auto. rewrite at'_app. destruct (Nat.eqb_spec j (length (w_ts w))); auto. apply at'_lt in Hb. lia.
  - inversion E; subst. apply VW; auto. rewrite at'_app. destruct (Nat.eqb_spec j (length (w_ts w))); auto. apply at'_lt in Hb. lia.
  - destruct PE as ((c & Hc) & FR & NW). rewrite Hc in E. destruct (negb _); [inversion E; auto|]. destruct (negb _); [inversion E; auto|]. destruct (bind (unwrap (c_dev c)) _) as [[w1 p]| |] eqn:EB; [|inversion E; auto|inversion E; auto].
    apply bind_Ok in EB. destruct EB as (d & Ed & EB). apply bind_Ok in EB. destruct EB as (sz & Es & EB). inversion E; subst. destruct (get_handle_ok I NW (size_u32 Es) EB) as (G1 & G2 & G3 & G4 & G5 & G6 & G7 & G8 & G9).
    apply VW; [unfold set_cell; rewrite G1; apply ATS; auto; eapply at'_lt; eauto|]. intros NZ. cbn [set_cell w_mem]. apply G8. destruct (HP p G7); congruence.
  - destruct PE as ((c & Hc) & FR & NW). rewrite Hc in E. destruct (c_host c) as [vs|]; [|inversion E; auto]. destruct (bind (size m (c_shape c)) _) as [[w1 p]| |] eqn:EB; [|inversion E; subst; apply VW; auto; apply ATS; auto; eapply at'_lt; eauto|inversion E; subst; apply VW; auto; apply ATS; auto; eapply at'_lt; eauto].
    apply bind_Ok in EB. destruct EB as (sz & Es & EB). destruct (get_handle_ok I NW (size_u32 Es) EB) as (G1 & G2 & G3 & G4 & G5 & G6 & G7 & G8 & G9).
    assert (V1 : forall oc, view (set_cell w1 i oc) j = view w j). { intros oc. apply VW; [unfold set_cell; rewrite G1; apply ATS; auto; eapply at'_lt; eauto|]. intros NZ. cbn [set_cell w_mem]. apply G8. destruct (HP p G7); congruence. }
    destruct (reset_tensor_by_slice _ _ _) as [t| |]; inversion E; subst; auto. apply VW; [cbn [set_cell w_ts w_pool w_mem]; rewrite G1; apply ATS; auto; eapply at'_lt; eauto|]. intros NZ. cbn [set_cell w_mem]. unfold mset. destruct (N.eqb_spec (c_hdl b) p) as [EQ|]; [destruct (HP p G7); congruence|]. apply G8. auto.
  - destruct PE as ((a & Ha) & FR & (k0 & Hk) & NE). rewrite Ha, Hk in E. destruct (may_take a k0); inversion E; subst; auto. apply VW; auto. apply ATS; auto. eapply at'_lt; eauto.
  - destruct PE as ((a & Ha) & FRa & (k0 & Hk) & FRk & NE). rewrite Ha, Hk in E. destruct (may_take a k0).
    + destruct (DROP _ _ _ _ E) as (T1 & T2). apply VW; [|intros _; rewrite T2; auto]. unfold at'. rewrite T1. cbn [set_cell w_ts]. rewrite nth_error_lset by (rewrite lset_length; eapply at'_lt; eauto). destruct (Nat.eqb_spec j k); [tauto|]. rewrite nth_error_lset by (eapply at'_lt; eauto). destruct (Nat.eqb_spec j i); [tauto|auto].
    + destruct (drop_cell (set_cell w k None) k0) as [w1 r1] eqn:ED. inversion E; subst. destruct (DROP _ _ _ _ ED) as (T1 & T2). apply VW; [unfold at'; rewrite T1; apply ATS with (P := w_pool w) (M := w_mem w); [eapply at'_lt; eauto|tauto]|]. intros _. rewrite T2. auto.
  - destruct PE as ((c & Hc) & FR). rewrite Hc in E. destruct (bind (size m s) _); inversion E; subst; auto. apply VW; auto. apply ATS; auto. eapply at'_lt; eauto.
  - destruct PE as ((c & Hc) & FR & LV & NI). rewrite Hc in E. destruct (all_views w js) as [xs|]; [|inversion E; auto].
    assert (PUT : forall l, view (if (c_hdl c =? 0)%N then w else mkW (w_pool w) (mset (w_mem w) (c_hdl c) (if Nat.eqb (length l) (length (w_mem w (c_hdl c))) then l else w_mem w (c_hdl c))) (w_ts w)) j = view w j).
    { intros l. destruct (N.eqb_spec (c_hdl c) 0); auto. apply VW; auto. intros NZ. cbn [w_mem]. unfold mset. destruct (N.eqb_spec (c_hdl b) (c_hdl c)) as [EQ|]; auto. exfalso. destruct (same_buffer I Hc Hb) as (q & Q1 & Q2); auto. exact (SEP i q eq_refl Q1 Q2). }
    destruct (f xs (view_of w c)); inversion E; subst; apply PUT.
  - destruct PE as ((c & Hc) & FR). rewrite Hc in E. destruct (DROP _ _ _ _ E) as (T1 & T2). apply VW; [unfold at'; rewrite T1; apply ATS with (P := w_pool w) (M := w_mem w); [eapply at'_lt; eauto|tauto]|]. intros _. rewrite T2. auto.
Qed.
(** a function that only rewrites the elements of its target *)
Definition in_place (f : list tensor -> tensor -> res tensor) : Prop := forall xs t t', f xs t = Ok t' -> exists l, t' = with_buf t l /\ length l = length (buf t) /\ valid t = true.
(** what an operation does to the tensor it acts on is what the function on values of
    Api.v does to its view, for some buffer handed out by the allocator *)
Theorem C15_value_semantics : forall (w w' : world) o, reachable w -> permitted w o -> exec m w o = (w', Ok tt) ->
  match o with
  | New d s => view w' (length (w_ts w)) = Some (new_tensor K d s)
  | NewHost s vs => view w' (length (w_ts w)) = Some (@new_host_tensor K s vs)
  | Alloc i _ => exists v v' l n, view w i = Some v /\ alloc m (fun _ => Ok l) v = Ok v' /\ view w' i = Some v' /\ size m (t_shape v) = Ok n /\ (N.to_nat n <= length l)%nat
  | MoveToDevice i d _ => exists v v' l n, view w i = Some v /\ move_to_device m d (fun _ => Ok l) v = Ok v' /\ view w' i = Some v' /\ size m (t_shape v) = Ok n /\ (N.to_nat n <= length l)%nat
  | Refer i j => exists v u v', view w i = Some v /\ view w j = Some u /\ refer v u = Ok v' /\ view w' i = Some v'
  | Replace i j => exists v u v', view w i = Some v /\ view w j = Some u /\ replace v u = Ok v' /\ view w' i = Some v' /\ view w' j = None
  | SetShape i s => exists v v', view w i = Some v /\ update_shape m v s = Ok v' /\ view w' i = Some v'
  | Update i js f _ => in_place f -> (forall j r, In j js -> rooted w i r -> ~ rooted w j r) ->
      exists v xs v', view w i = Some v /\ all_views w js = Some xs /\ f xs v = Ok v' /\ view w' i = Some v'
  | Drop i => view w' i = None
  end.
Proof.
  intros w w' o R PE E. pose proof (reach_linv R) as I. pose proof (l_cells I) as CO.
  assert (DROP : forall (w1 w2 : world) c r2, drop_cell w1 c = (w2, r2) -> w_ts w2 = w_ts w1 /\ w_mem w2 = w_mem w1).
  { intros w1 w2 c r2 ED. unfold drop_cell in ED. destruct (N.eqb _ _); [inversion ED; auto|]. destruct (c_ref c); [inversion ED; auto|]. destruct (c_dev c); [|inversion ED; auto]. destruct (drop_handle _ _). inversion ED; auto. }
  assert (TB : forall a b, may_take a b = true -> take_buf (view_of w a) (view_of w b) = Ok (mkTensor (c_dev a) (c_shape a) (if (c_hdl b =? 0)%N then None else Some (w_mem w (c_hdl b))) (c_host a))).
  { intros a b MT. apply may_take_inv in MT. destruct MT as (M1 & M2 & M3 & M4). unfold take_buf, view_of, valid. cbn [t_dev t_shape t_buf t_host]. rewrite M2, M1, M3, M4. cbn [N.eqb negb]. replace (match c_dev b with Some a0 => match c_dev b with Some b0 => (a0 =? b0)%nat | None => false end | None => match c_dev b with Some _ => false | None => true end end) with true by (destruct (c_dev b); auto; symmetry; apply Nat.eqb_refl).
    assert (shape_eqb (c_shape b) (c_shape b) = true) as -> by (apply shape_eqb_spec; auto). reflexivity. }
  destruct o as [d s|s vs|i be|i d be|i k|i k|i s|i js f junk|i]; cbn [permitted exec] in PE, E.
  - inversion E; subst. unfold view. rewrite at'_app, Nat.eqb_refl. reflexivity.
  - inversion E; subst. unfold view. rewrite at'_app, Nat.eqb_refl. reflexivity.
  - destruct PE as ((c & Hc) & FR & NW). rewrite Hc in E. destruct (N.eqb_spec (c_hdl c) 0) as [HZ|]; cbn [negb] in E; [|inversion E]. destruct (no_host c) eqn:EH; cbn [negb] in E; [|inversion E]. destruct (bind (unwrap (c_dev c)) _) as [[w1 p]| |] eqn:EB; inversion E; subst.
    apply bind_Ok in EB. destruct EB as (d & Ed & EB). apply bind_Ok in EB. destruct EB as (sz & Es & EB). destruct (get_handle_ok I NW (size_u32 Es) EB) as (G1 & G2 & G3 & G4 & G5 & G6 & G7 & G8 & (_ & _ & GL)).
    eexists (view_of w c), _, (w_mem w1 p), sz. unfold view at 1. rewrite Hc. split; [reflexivity|]. unfold alloc, valid, device_of. cbn [view_of t_buf t_host t_dev t_shape]. rewrite HZ. cbn [N.eqb negb]. unfold no_host in EH. rewrite EH. unfold unwrap in Ed |- * . destruct (c_dev c) as [e|] eqn:De; inversion Ed; subst. cbn [assert bind]. rewrite Es. cbn [bind].
    split; [reflexivity|]. split; [|split; [reflexivity|lia]]. unfold view. rewrite at'_set_cell by (rewrite G1; eapply at'_lt; eauto). rewrite Nat.eqb_refl. cbn [option_map]. unfold view_of. cbn [c_dev c_shape c_hdl c_host set_cell w_mem]. apply N.eqb_neq in G6. rewrite G6. reflexivity.
  - destruct PE as ((c & Hc) & FR & NW). rewrite Hc in E. destruct (c_host c) as [vs|] eqn:EH; [|inversion E]. destruct (bind (size m (c_shape c)) _) as [[w1 p]| |] eqn:EB; [|inversion E|inversion E].
    apply bind_Ok in EB. destruct EB as (sz & Es & EB). destruct (get_handle_ok I NW (size_u32 Es) EB) as (G1 & G2 & G3 & G4 & G5 & G6 & G7 & G8 & (_ & _ & GL)). apply N.eqb_neq in G6.
    destruct (reset_tensor_by_slice _ _ _) as [t| |] eqn:ER; inversion E; subst. eexists (view_of w c), t, (w_mem w1 p), sz. unfold view at 1. rewrite Hc. split; [reflexivity|]. unfold view_of in ER. cbn [c_dev c_shape c_hdl c_host set_cell w_mem] in ER. rewrite G6 in ER.
    split; [unfold move_to_device; cbn [view_of t_host t_shape]; rewrite EH; cbn [assert bind unwrap]; rewrite Es; cbn [bind]; exact ER|]. split; [|split; [cbn; auto|lia]].
    unfold view, at'. cbn [set_cell w_ts]. rewrite nth_error_lset, Nat.eqb_refl by (rewrite G1; eapply at'_lt; eauto). cbn [option_map]. unfold view_of. cbn [c_dev c_shape c_hdl c_host set_cell w_mem]. rewrite G6. unfold mset. rewrite N.eqb_refl.
    destruct (by_slice_keeps ER) as (E1 & _ & _). rewrite E1. reflexivity.
  - destruct PE as ((a & Ha) & FR & (b & Hb) & NE). rewrite Ha, Hb in E. destruct (may_take a b) eqn:MT; inversion E; subst. eexists (view_of w a), (view_of w b), _. unfold view. rewrite Ha, Hb. split; [reflexivity|]. split; [reflexivity|]. split; [apply (TB _ _ MT)|]. rewrite at'_set_cell, Nat.eqb_refl by (eapply at'_lt; eauto). reflexivity.
  - destruct PE as ((a & Ha) & FRa & (b & Hb) & FRb & NE). rewrite Ha, Hb in E. destruct (may_take a b) eqn:MT; [|destruct (drop_cell _ _) as [? []]; inversion E].
    destruct (DROP _ _ _ _ E) as (T1 & T2). eexists (view_of w a), (view_of w b), _. assert (VI : forall q, view w' q = option_map (view_of w) (match nth_error (w_ts w') q with Some (Some c) => Some c | _ => None end)) by (intros q; unfold view, at', view_of; rewrite T2; reflexivity). rewrite !VI, T1. unfold view. rewrite Ha, Hb. split; [reflexivity|]. split; [reflexivity|]. split; [apply (TB _ _ MT)|]. cbn [set_cell w_ts w_mem].
    rewrite !nth_error_lset by (rewrite ?lset_length; eapply at'_lt; eauto). rewrite !Nat.eqb_refl. destruct (Nat.eqb_spec i k); [congruence|]. split; reflexivity.
  - destruct PE as ((c & Hc) & FR). rewrite Hc in E. destruct (bind (size m s) _) as [[]| |] eqn:EB; inversion E; subst. apply bind_Ok in EB. destruct EB as (n1 & E1 & EB). apply bind_Ok in EB. destruct EB as (n2 & E2 & EB).
    eexists (view_of w c), _. unfold view. rewrite Hc. split; [reflexivity|]. unfold update_shape. cbn [view_of t_shape]. rewrite E1, E2. cbn [bind]. rewrite EB. cbn [bind]. split; [reflexivity|]. rewrite at'_set_cell, Nat.eqb_refl by (eapply at'_lt; eauto). reflexivity.
  - destruct PE as ((c & Hc) & FR & LV & NI). intros IP SEP. rewrite Hc in E. destruct (all_views w js) as [xs|]; [|inversion E]. destruct (f xs (view_of w c)) as [t| |] eqn:EF; inversion E; subst; clear E. destruct (IP _ _ _ EF) as (l & -> & LL & VV).
    assert (NZ : c_hdl c <> 0%N) by (intros Z; unfold valid, view_of in VV; cbn in VV; rewrite Z in VV; discriminate).
    eexists (view_of w c), xs, _. unfold view at 1. rewrite Hc. split; [reflexivity|]. split; [reflexivity|]. split; [exact EF|].
    assert (NS : existsb (N.eqb (c_hdl c)) (hdls w js) = false).
    { apply not_true_is_false. rewrite existsb_exists. intros (p & Hp & EQ). apply N.eqb_eq in EQ. subst p. unfold hdls in Hp. apply in_flat_map in Hp. destruct Hp as (j & Hj & Hp). destruct (at' w j) as [b|] eqn:Hb; [|destruct Hp]. destruct Hp as [Hp|[]].
      destruct (same_buffer I Hc Hb) as (q & Q1 & Q2); auto. exact (SEP j q Hj Q1 Q2). }
    rewrite NS. unfold view_of in LL. unfold buf in LL. cbn [t_buf] in LL. pose proof NZ as NZ'. apply N.eqb_neq in NZ'. rewrite NZ' in LL |- * . unfold view, at'. cbn [w_ts]. fold (at' w i). rewrite Hc. cbn [option_map]. unfold view_of. cbn [w_mem]. rewrite NZ'. unfold mset. rewrite N.eqb_refl. unfold buf. cbn [with_buf t_buf]. rewrite LL, Nat.eqb_refl. reflexivity.
  - destruct PE as ((c & Hc) & FR). rewrite Hc in E. destruct (DROP _ _ _ _ E) as (T1 & T2). unfold view, at'. rewrite T1. cbn [set_cell w_ts]. rewrite nth_error_lset, Nat.eqb_refl by (eapply at'_lt; eauto). reflexivity.
Qed.
End Life.

(** ** Concrete histories *)
(** the operations of [os] one after the other, each with its result *)
Inductive runs m (K : num) (P : world K -> op K -> Prop) : world K -> list (op K * res unit) -> world K -> Prop :=
| rs_nil w : runs m P w [] w
| rs_cons w o r os w1 w2 : permitted w o -> P w o -> exec m w o = (w1, r) -> runs m P w1 os w2 -> runs m P w ((o, r) :: os) w2.
Lemma runs_run m (K : num) (P : world K -> op K -> Prop) w os w' : run m P w -> runs m P w os w' -> run m P w'.
Proof. intros R H. induction H; auto. apply IHruns. eapply r_step; eauto. Qed.
Definition any_op (K : num) (w : world K) (o : op K) : Prop := True.

Definition v2 : shape := Eval lazy in sh [2%N] 1%N.
(** a backend whose next buffer is at address [p], holding 99s *)
Definition bk (p : ptr) : backend Znum := @mkB Znum p (fun n => repeat 99%Z (N.to_nat n)).
Lemma bk_new (w : world Znum) p : p <> 0%N -> (forall d, ~ In p (map fst (created (w_pool w d)))) -> new_addr w (bk p).
Proof. intros NZ H. split; [exact NZ|split; [exact H|]]. intros n. cbn. rewrite repeat_length, N2Nat.id. auto. Qed.
(** t.reset(k) and y = x + k *)
Definition set_all (k : Z) : list (tensor Znum) -> tensor Znum -> res (tensor Znum) := fun _ t => if valid t then Ok (with_buf t (map (fun _ => k) (buf t))) else Panic.
Definition add_to (k : Z) : list (tensor Znum) -> tensor Znum -> res (tensor Znum) := fun xs t =>
  match xs with [x] => if valid t && Nat.eqb (length (buf x)) (length (buf t)) then Ok (with_buf t (map (fun a => (a + k)%Z) (buf x))) else Panic | _ => Panic end.

Ltac conc_free := let j := fresh in let c := fresh in let H := fresh in intros j c H; unfold at' in H;
  match type of H with context[w_ts ?w] => let l := eval lazy -[Znum] in (w_ts w) in change (w_ts w) with l in H end;
  repeat match type of H with context[nth_error (_ :: _) _] => destruct j as [|j]; [cbn in H; first [discriminate | injection H as <-; cbn; discriminate]|cbn [nth_error] in H] end; destruct j; discriminate.
Ltac conc_live := eexists; lazy -[Znum]; reflexivity.
Ltac conc_new := apply bk_new; [discriminate|]; let d := fresh in let H := fresh in intros d H; destruct d as [|d]; lazy -[Znum] in H; first [contradiction | destruct H as [H|[]]; discriminate | (destruct H as [H|[H|[]]]; discriminate)].
Ltac conc_perm := cbn [permitted]; repeat match goal with
  | |- _ /\ _ => split | |- True => exact Logic.I | |- live _ _ => conc_live | |- free _ _ => conc_free | |- new_addr _ _ => conc_new | |- _ <> _ => discriminate
  | |- Forall _ _ => repeat constructor; conc_live | |- ~ In _ _ => cbn; intuition discriminate end.
Ltac conc_step P := eapply rs_cons; [conc_perm|P|lazy -[Znum]; reflexivity|].

Ltac conc_runs P := repeat first [apply rs_nil | conc_step P].

(** C14 is false for [replace] with a tensor that is a reference: both tensors then think
    they own the buffer, the second drop panics and the device can make no more tensors *)
Definition replace_by_reference : list (op Znum * res unit) :=
  [(New 0 v2, Ok tt); (Alloc 0 (bk 8%N), Ok tt); (New 0 v2, Ok tt); (Refer 1 0, Ok tt); (New 0 v2, Ok tt); (Replace 2 1, Ok tt); (Drop 2, Ok tt)].
Theorem C14_replace_reference_refuted : forall m, exists (w w' : world Znum), runs m (@any_op Znum) (world_init Znum) replace_by_reference w /\
  permitted w (Drop 0) /\ exec m w (Drop 0) = (w', Panic) /\ forall n p r, new_handle (w_pool w' 0) n p <> Ok r.
Proof.
  intros m. destruct m; unfold replace_by_reference; eexists; eexists; (split; [conc_runs ltac:(exact Logic.I)|]); (split; [conc_perm|]); (split; [lazy -[Znum]; reflexivity|]);
  intros n p r H; unfold new_handle in H; apply bind_Ok in H; destruct H as ([[st q] k] & H1 & H2); cbn beta iota in H2; apply bind_Ok in H2; destruct H2 as (st2 & H2 & _); unfold n2 in H2;
  (assert (HP : poisoned st = true); [|rewrite HP in H2; discriminate]);
  unfold n1 in H1; apply bind_Ok in H1; destruct H1 as (_ & _ & H1); apply bind_Ok in H1; destruct H1 as (s0 & _ & H1); apply bind_Ok in H1; destruct H1 as (_ & _ & H1); apply bind_Ok in H1; destruct H1 as ([|h rest] & _ & H1); inversion H1; reflexivity.
Qed.
(** and false for [refer] to a tensor that has no buffer yet: the buffer the reference then
    gets by [alloc] is never returned *)
Definition refer_to_empty : list (op Znum * res unit) :=
  [(New 0 v2, Ok tt); (New 0 v2, Ok tt); (Refer 1 0, Ok tt); (Alloc 1 (bk 8%N), Ok tt); (Drop 1, Ok tt); (Drop 0, Ok tt)].
Theorem C14_refer_invalid_refuted : forall m, exists (w : world Znum), runs m (@any_op Znum) (world_init Znum) refer_to_empty w /\
  (forall i, ~ live w i) /\ In 8%N (map fst (created (w_pool w 0))) /\ ~ In 8%N (all_pool (w_pool w 0)).
Proof.
  intros m. destruct m; unfold refer_to_empty; eexists; (split; [conc_runs ltac:(exact Logic.I)|]); (split; [|split; [lazy -[Znum]; left; reflexivity|lazy -[Znum]; tauto]]);
  intros i (c & H); unfold at' in H; cbn [w_ts] in H; do 3 (destruct i as [|i]; [discriminate|]); discriminate.
Qed.
Lemma set_all_in_place k : in_place (set_all k).
Proof. intros xs t t' H. unfold set_all in H. destruct (valid t) eqn:E; inversion H; subst. eexists. split; [reflexivity|]. split; auto. apply map_length. Qed.
Lemma add_to_in_place k : in_place (add_to k).
Proof.
  intros xs t t' H. unfold add_to in H. destruct xs as [|x [|]]; try discriminate. destruct (valid t) eqn:E; [|discriminate]. cbn [andb] in H. destruct (Nat.eqb_spec (length (buf x)) (length (buf t))); inversion H; subst. eexists. split; [reflexivity|]. split; auto. rewrite map_length. auto.
Qed.
Ltac conc_prop := first [exact Logic.I | let c := fresh in let H := fresh in intros c H; lazy -[Znum] in H; injection H as <-; cbn; first [discriminate | reflexivity]].
(** a history that shares, copies and moves tensors: x.reset(3); t.refer(x); y = t + 1;
    z from a host tensor; u.replace(y) *)
Definition sharing : list (op Znum * res unit) :=
  [(New 0 v2, Ok tt); (Alloc 0 (bk 8%N), Ok tt); (Update 0 [] (set_all 3) [], Ok tt); (New 0 v2, Ok tt); (Refer 1 0, Ok tt); (New 0 v2, Ok tt); (Alloc 2 (bk 16%N), Ok tt);
   (Update 2 [1] (add_to 1) [], Ok tt); (@NewHost Znum v2 [7; 8]%Z, Ok tt); (MoveToDevice 3 0 (bk 24%N), Ok tt); (New 0 v2, Ok tt); (Replace 4 2, Ok tt)].
Example C14_C15_apply : forall m, exists w : world Znum, runs m (@proper Znum) (world_init Znum) sharing w /\ run m (@proper Znum) w /\
  map (fun i => option_map (fun v => firstn 2 (buf v)) (view w i)) [0; 1; 2; 3; 4] = [Some [3; 3]; Some [3; 3]; None; Some [7; 8]; Some [4; 4]]%Z /\
  rooted w 1 0 /\ rooted w 3 3 /\ rooted w 4 4 /\ permitted w (Drop 4) /\ permitted w (Update 1 [3] (add_to 1) []) /\ ~ permitted w (Drop 0).
Proof.
  intros m. assert (HR : exists w, runs m (@proper Znum) (world_init Znum) sharing w /\
    map (fun i => option_map (fun v => firstn 2 (buf v)) (view w i)) [0; 1; 2; 3; 4] = [Some [3; 3]; Some [3; 3]; None; Some [7; 8]; Some [4; 4]]%Z /\
    rooted w 1 0 /\ rooted w 3 3 /\ rooted w 4 4 /\ permitted w (Drop 4) /\ permitted w (Update 1 [3] (add_to 1) []) /\ ~ permitted w (Drop 0)).
  { destruct m; unfold sharing; eexists; (split; [conc_runs ltac:(conc_prop)|]); (split; [lazy -[Znum]; reflexivity|]).
    all: split; [eapply (@rt_ref Znum _ 1); [lazy -[Znum]; reflexivity|cbn [c_ref]; reflexivity|eapply (@rt_own Znum _ 0); lazy -[Znum]; reflexivity]|].
    all: split; [eapply (@rt_own Znum _ 3); lazy -[Znum]; reflexivity|].
    all: split; [eapply (@rt_own Znum _ 4); lazy -[Znum]; reflexivity|].
    all: split; [conc_perm|].
    all: split; [conc_perm|].
    all: intros (_ & FR); eapply (FR 1%nat); [lazy -[Znum]; reflexivity|reflexivity]. }
  destruct HR as (w & HR & REST). exists w. split; auto. split; auto. eapply runs_run; [apply r_init|exact HR].
Qed.
(** C15 is false between a tensor and its references: writing through the reference, which
    Rust permits, changes the elements of the borrowed tensor *)
Theorem C15_reference_refuted : forall m, exists (w w' : world Znum) o, run m (@proper Znum) w /\ permitted w o /\ exec m w o = (w', Ok tt) /\ ~ acts_on o 0 /\ view w' 0 <> view w 0.
Proof.
  intros m. assert (HR : exists (w w' : world Znum), runs m (@proper Znum) (world_init Znum) [(New 0 v2, Ok tt); (Alloc 0 (bk 8%N), Ok tt); (Update 0 [] (set_all 3) [], Ok tt); (New 0 v2, Ok tt); (Refer 1 0, Ok tt)] w /\
    permitted w (Update 1 [] (set_all 5) []) /\ exec m w (Update 1 [] (set_all 5) []) = (w', Ok tt) /\ view w' 0 <> view w 0).
  { destruct m; eexists; eexists; (split; [conc_runs ltac:(conc_prop)|]); (split; [conc_perm|]); (split; [lazy -[Znum]; reflexivity|]); lazy -[Znum]; discriminate. }
  destruct HR as (w & w' & H1 & H2 & H3 & H4). exists w, w', (Update 1 [] (set_all 5) []). split; [eapply runs_run; [apply r_init|exact H1]|]. split; auto. split; auto. split; [|exact H4]. cbn. discriminate.
Qed.
Print Assumptions C14_drop.
Print Assumptions C14_exclusive.
Print Assumptions C14_all_returned.
Print Assumptions C14_nothing_lost.
Print Assumptions C15_others_unchanged.
Print Assumptions C15_value_semantics.
