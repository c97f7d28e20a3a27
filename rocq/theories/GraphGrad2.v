(** * GraphGrad2: the backward pass succeeds, and what it leaves in the gradients (for C38) *)
From Verif Require Export GraphGrad GraphTie.
Set Implicit Arguments.
Unset Strict Implicit.
Open Scope R_scope.

Lemma finite_choice A (a0 : A) (P : nat -> A -> Prop) n : (forall v, (v < n)%nat -> exists a, P v a) -> exists f, forall v, (v < n)%nat -> P v (f v).
Proof.
  induction n as [|n IH]; intros H; [exists (fun _ => a0); intros; lia|]. destruct IH as (f & Hf); [intros; apply H; lia|]. destruct (H n) as (a & Ha); [lia|].
  exists (fun v => if Nat.eqb v n then a else f v). intros v Hv. destruct (Nat.eqb_spec v n) as [->|NE]; auto. apply Hf. lia.
Qed.
Lemma received_ext' (g : rgraph) us us' order n : (forall j, In j order -> In n (args_of g j) -> us j = us' j) -> received g us order n = received g us' order n.
Proof.
  intros H. induction order as [|j order IH]; auto. cbn. f_equal; [|apply IH; intros; apply H; cbn; auto]. destruct (in_dec (fun a b : nat * nat => ltac:(decide equality; apply Nat.eq_dec)) n (args_of g j)) as [HI|HI].
  - rewrite (H j); cbn; auto.
  - rewrite !sent_not_arg; auto.
Qed.
Lemma gets_not_arg args ps n : ~ In n args -> gets args ps n = [].
Proof.
  intros H. unfold gets. induction ps as [|p ps IH]; auto. cbn [flat_map]. rewrite IH, app_nil_r. destruct (p_to p) as [k|]; auto. destruct (nth_error args k) as [a|] eqn:E; auto.
  destruct (node_eqb_spec a n) as [->|]; auto. exfalso. apply H. eapply nth_error_In; eauto.
Qed.

Section Grad.
Variable m : build.
Notation itp := (interp (K := Rnum) m).
Variables (g g1 : rgraph) (d root : nat) (gal : grad_alloc Rnum) (order : list nat).
Hypothesis GW : gwf g.
Hypothesis SUP : forall i o, uses g root i -> nth_error (g_ops g) i = Some o -> supported d g o.
Hypothesis LR : (root < length (g_ops g))%nat.
(** the operators have their values *)
Hypothesis VALS : forall i o, uses g root i -> nth_error (g_ops g) i = Some o -> Forall (ready d) (oi_vals o).
(** every output of an operator other than the root is used *)
Hypothesis USED : forall i o v, uses g root i -> i <> root -> nth_error (g_ops g) i = Some o -> (v < length (oi_vals o))%nat -> exists j, uses g root j /\ In (i, v) (args_of g j).
Hypothesis ORD : forall i, In i order <-> uses g root i.
(** [g1] is [g] where the gradient of the root is one and the other gradients hold [left],
    what earlier backward passes left there (zero where there was none) *)
Variable left : nat * nat -> coord' -> nat -> R.
Hypothesis GC : grads_changed g g1.
Hypothesis OWN : forall i, own_of g1 i = own_of g i.
Hypothesis INIR : forall v t, grad_of g1 (root, v) = Ok t -> ready d t /\ t_shape t = node_shape g (root, v) /\ forall c q, inb (t_shape t) c -> (q < bat (t_shape t))%nat -> at_ t c q = 1.
Hypothesis ININ : forall i v t, uses g root i -> i <> root -> grad_of g1 (i, v) = Ok t ->
  exists t0, touch m gal (i, v) t = Ok t0 /\ ready d t0 /\ t_shape t0 = node_shape g (i, v) /\ forall c q, inb (t_shape t0) c -> (q < bat (t_shape t0))%nat -> at_ t0 c q = left (i, v) c q.

Notation node := (nat * nat)%type.
Definition xs_of (i : nat) : list rtensor := match nth_error (g_ops g) i with Some o => match mapM (value_of g) (oi_args o) with Ok xs => xs | _ => [] end | None => [] end.
Definition ys_of (i : nat) : list rtensor := match nth_error (g_ops g) i with Some o => oi_vals o | None => [] end.
Definition kind_of (i : nat) : option rkind := match nth_error (g_ops g) i with Some o => Some (o_kind (oi_op o)) | None => None end.
Definition gys_of (fin : node -> rtensor) (i : nat) : list rtensor := map (fun v => fin (i, v)) (seq 0 (length (ys_of i))).
Definition ps_of (fin : node -> rtensor) (i : nat) : list rpart := match kind_of i with Some k => bwsem k (xs_of i) (ys_of i) (gys_of fin i) | None => [] end.

Lemma node_shape_val i o v : nth_error (g_ops g) i = Some o -> (v < length (oi_vals o))%nat -> nth_error (map shp (oi_vals o)) v = Some (node_shape g (i, v)).
Proof.
  intros Ho Hv. unfold node_shape, value_of. cbn [fst snd]. rewrite (idx_nth Ho). cbn [bind]. destruct (nth_error (oi_vals o) v) as [t|] eqn:E; [|apply nth_error_None in E; lia]. rewrite (idx_nth E), nth_error_map, E. reflexivity.
Qed.
Lemma args_lt i o n : nth_error (g_ops g) i = Some o -> In n (oi_args o) -> (fst n < i)%nat. Proof. intros Ho Hn. apply (gwf_args GW Ho Hn). Qed.
Lemma args_of_lt i n : In n (args_of g i) -> (fst n < i)%nat.
Proof. unfold args_of. destruct (nth_error (g_ops g) i) as [o|] eqn:Ho; [apply args_lt; auto|intros []]. Qed.
Lemma xs_values i o : uses g root i -> nth_error (g_ops g) i = Some o -> mapM (value_of g) (oi_args o) = Ok (xs_of i) /\ Forall (ready d) (xs_of i) /\ map shp (xs_of i) = arg_shapes g o.
Proof.
  intros U Ho. unfold xs_of. rewrite Ho.
  assert (AX : forall n, In n (oi_args o) -> exists y, value_of g n = Ok y /\ ready d y /\ t_shape y = node_shape g n).
  { intros n Hn. destruct (gwf_args GW Ho Hn) as (L & p & Hp & L2 & _). pose proof (VALS (uses_arg U Ho Hn) Hp) as RV. destruct (nth_error (oi_vals p) (snd n)) as [y|] eqn:Ey; [|apply nth_error_None in Ey; lia].
    exists y. assert (E : value_of g n = Ok y) by (unfold value_of; rewrite (idx_nth Hp); cbn [bind]; apply idx_nth; auto). split; auto. split; [rewrite Forall_forall in RV; apply RV; eapply nth_error_In; eauto|]. unfold node_shape. rewrite E. auto. }
  assert (XS : exists xs, mapM (value_of g) (oi_args o) = Ok xs /\ Forall (ready d) xs /\ map shp xs = arg_shapes g o).
  { unfold arg_shapes. clear -AX. induction (oi_args o) as [|n l IHl]; [exists []; repeat split; constructor|]. destruct (AX n) as (y & E1 & E2 & E3); [left; auto|].
    destruct IHl as (xs & X1 & X2 & X3); [intros; apply AX; right; auto|]. exists (y :: xs). rewrite mapM_cons, E1, X1. cbn. repeat split; [constructor; auto|congruence]. }
  destruct XS as (xs & E & R). rewrite E. auto.
Qed.
Lemma arg_xs_shape i o k n : uses g root i -> nth_error (g_ops g) i = Some o -> nth_error (oi_args o) k = Some n -> t_shape (arg (xs_of i) k) = node_shape g n.
Proof.
  intros U Ho Hk. destruct (xs_values U Ho) as (_ & _ & E). assert (nth_error (map shp (xs_of i)) k = Some (node_shape g n)) as H by (rewrite E; unfold arg_shapes; rewrite nth_error_map, Hk; auto).
  rewrite nth_error_map in H. unfold arg. destruct (nth_error (xs_of i) k) eqn:E'; inversion H. rewrite (nth_error_nth _ _ _ E'). auto.
Qed.

(** everything about the operator [i]: the updates it asks for and the final gradients of its outputs *)
Record good (us : nat -> list rupdate) (fin : node -> rtensor) (i : nat) (o : ropinfo) : Prop := mkGood {
  go_fin : forall v, (v < length (oi_vals o))%nat -> ready d (fin (i, v)) /\ t_shape (fin (i, v)) = node_shape g (i, v) /\
    (forall t, grad_of g1 (i, v) = Ok t -> exists t0, start m gal (is_arg g order (i, v)) (i, v) t = Ok t0 /\ apply_all (received g us order (i, v)) t0 = Ok (fin (i, v))) /\
    (forall c q, inb (node_shape g (i, v)) c -> (q < bat (node_shape g (i, v)))%nat ->
       @eq R (at_ (fin (i, v)) c q) ((if Nat.eqb i root then 1 else left (i, v) c q) + lsum (fun j => lsum (fun p => adds_up (node_shape g (i, v)) p c q) (gets (args_of g j) (ps_of fin j) (i, v))) order));
  go_bw : op_backward (itp (oi_op o)) (xs_of i) (oi_vals o) (gys_of fin i) = Ok (us i);
  go_us : updates_are d (us i) (xs_of i) (oi_vals o) (ps_of fin i) }.

Lemma gys_ext fin fin' i : (forall v, fin (i, v) = fin' (i, v)) -> gys_of fin i = gys_of fin' i.
Proof. intros H. unfold gys_of. apply map_ext. auto. Qed.
Lemma ps_ext fin fin' i : (forall v, fin (i, v) = fin' (i, v)) -> ps_of fin i = ps_of fin' i.
Proof. intros H. unfold ps_of. rewrite (gys_ext H). auto. Qed.
Lemma good_ext us fin us' fin' i o : good us fin i o -> (forall j, (i <= j)%nat -> us j = us' j) -> (forall j v, (i <= j)%nat -> fin (j, v) = fin' (j, v)) -> good us' fin' i o.
Proof.
  intros [A B C] HU HF. constructor.
  - intros v Hv. rewrite <- (HF i v) by auto. destruct (A v Hv) as (A1 & A2 & A3 & A4). split; auto. split; auto. split.
    + intros t Ht. destruct (A3 t Ht) as (t0 & E1 & E2). exists t0. split; auto. rewrite <- E2. f_equal. apply received_ext'. intros j _ Hj. apply args_of_lt in Hj. cbn in Hj. symmetry. apply HU. lia.
    + intros c q Hc Hq. rewrite (A4 c q Hc Hq). f_equal. apply lsum_ext. intros j _. destruct (in_dec (fun a b : nat * nat => ltac:(decide equality; apply Nat.eq_dec)) (i, v) (args_of g j)) as [HI|HI].
      * rewrite (@ps_ext fin fin' j); auto. intros w. apply HF. apply args_of_lt in HI. cbn in HI. lia.
      * rewrite !gets_not_arg; auto.
  - rewrite <- (@gys_ext fin fin' i), <- HU by auto. exact B.
  - rewrite <- (@ps_ext fin fin' i), <- HU by auto. exact C.
Qed.

Lemma root_not_arg j v : uses g root j -> ~ In (root, v) (args_of g j).
Proof. intros U HI. apply args_of_lt in HI. cbn in HI. destruct (uses_lt GW U LR). lia. Qed.
Lemma is_arg_iff n : is_arg g order n = true <-> exists j, uses g root j /\ In n (args_of g j).
Proof.
  unfold is_arg. rewrite existsb_exists. split; intros (j & H1 & H2); exists j; [rewrite existsb_node in H2; rewrite <- ORD; auto|rewrite existsb_node; rewrite ORD; auto].
Qed.
Lemma fin_shapes us fin i o : good us fin i o -> nth_error (g_ops g) i = Some o -> map shp (gys_of fin i) = map shp (oi_vals o) /\ Forall (ready d) (gys_of fin i).
Proof.
  intros [A _ _] Ho. assert (EY : ys_of i = oi_vals o) by (unfold ys_of; rewrite Ho; auto). split.
  - unfold gys_of. rewrite EY, map_map. apply nth_ext_error. intros v. rewrite nth_error_map. destruct (Nat.lt_ge_cases v (length (oi_vals o))) as [L|L].
    + rewrite (nth_error_nth' (seq 0 (length (oi_vals o))) 0%nat) by (rewrite seq_length; auto). rewrite seq_nth by auto. cbn [option_map Nat.add]. rewrite (node_shape_val Ho L). f_equal. apply A; auto.
    + replace (nth_error (seq 0 (length (oi_vals o))) v) with (@None nat) by (symmetry; apply nth_error_None; rewrite seq_length; auto). symmetry. cbn. apply nth_error_None. rewrite map_length. auto.
  - unfold gys_of. rewrite EY. apply Forall_forall. intros t Ht. apply in_map_iff in Ht. destruct Ht as (v & <- & Hv). apply in_seq in Hv. apply A. lia.
Qed.

Lemma received_does us fin n : (forall j o, uses g root j -> In n (args_of g j) -> nth_error (g_ops g) j = Some o -> good us fin j o) ->
  Forall2 (fun f (p : rpart) => does d f (node_shape g n) (p_bat p) (p_val p)) (received g us order n) (flat_map (fun j => gets (args_of g j) (ps_of fin j) n) order).
Proof.
  intros H. assert (HO : forall j, In j order -> uses g root j) by (intros j; apply ORD). revert HO. generalize order as l. induction l as [|j l IH]; intros HO; [constructor|]. cbn. apply Forall2_app; [|apply IH; intros; apply HO; cbn; auto].
  destruct (in_dec (fun a b : nat * nat => ltac:(decide equality; apply Nat.eq_dec)) n (args_of g j)) as [HI|HI]; [|rewrite sent_not_arg, gets_not_arg by auto; constructor].
  assert (U : uses g root j) by (apply HO; cbn; auto). unfold args_of in * . destruct (nth_error (g_ops g) j) as [o|] eqn:Ho; [|destruct HI]. 
  eapply sent_gets; [apply (go_us (H j o U ltac:(rewrite Ho; auto) Ho))| |].
  - destruct (xs_values U Ho) as (E & _). apply (mapM_length E).
  - intros k Hk. apply (arg_xs_shape U Ho Hk).
Qed.

Lemma good_all : forall n, exists us fin, forall i o, (length (g_ops g) <= n + i)%nat -> uses g root i -> nth_error (g_ops g) i = Some o -> good us fin i o.
Proof.
  induction n as [|n (us & fin & IH)]; [exists (fun _ => []), (fun _ => @no_tensor Rnum); intros i o H U Ho; apply nth_error_Some_lt in Ho; lia|].
  destruct (le_lt_dec (length (g_ops g)) n) as [Ln|Ln]; [exists us, fin; intros; apply IH; auto; lia|].
  set (i := (length (g_ops g) - S n)%nat). destruct (in_dec Nat.eq_dec i order) as [Ui|Ui]; cycle 1.
  { exists us, fin. intros j o Hj U Ho. destruct (Nat.eq_dec j i) as [->|NE]; [exfalso; apply Ui; apply ORD; auto|]. apply IH; auto. unfold i in NE. lia. }
  apply ORD in Ui. destruct (nth_error (g_ops g) i) as [o|] eqn:Ho; [|apply nth_error_None in Ho; unfold i in Ho; lia].
  assert (EY : ys_of i = oi_vals o) by (unfold ys_of; rewrite Ho; auto).
  assert (LATER : forall v j p, uses g root j -> In (i, v) (args_of g j) -> nth_error (g_ops g) j = Some p -> good us fin j p).
  { intros v j p U HI Hp. apply IH; auto. apply args_of_lt in HI. cbn in HI. unfold i in HI. lia. }
  (* the gradients of the outputs *)
  assert (FIN : forall v, (v < length (oi_vals o))%nat -> exists t', ready d t' /\ t_shape t' = node_shape g (i, v) /\
    (forall t, grad_of g1 (i, v) = Ok t -> exists t0, start m gal (is_arg g order (i, v)) (i, v) t = Ok t0 /\ apply_all (received g us order (i, v)) t0 = Ok t') /\
    (forall c q, inb (node_shape g (i, v)) c -> (q < bat (node_shape g (i, v)))%nat ->
       @eq R (at_ t' c q) ((if Nat.eqb i root then 1 else left (i, v) c q) + lsum (fun j => lsum (fun p => adds_up (node_shape g (i, v)) p c q) (gets (args_of g j) (ps_of fin j) (i, v))) order))).
  { intros v Hv. assert (exists t, grad_of g1 (i, v) = Ok t) as (t & Ht).
    { destruct (grads_nth GC Ho) as (o1 & Ho1 & S). destruct S as (_&_&_&LG&_). rewrite <- (gwf_len GW Ho), LG in Hv. destruct (nth_error (oi_grads o1) v) as [t|] eqn:E; [|apply nth_error_None in E; lia]. exists t. eapply grad_of_Ok; eauto. }
    destruct (Nat.eqb_spec i root) as [ER|NE].
    - assert (NA : is_arg g order (i, v) = false). { destruct (is_arg g order (i, v)) eqn:E; auto. apply is_arg_iff in E. destruct E as (j & Uj & HI). exfalso. rewrite ER in HI. apply (root_not_arg Uj HI). }
      rewrite ER in Ht. destruct (INIR Ht) as (R1 & S1 & A1). exists t. split; auto. split; [rewrite ER; auto|]. split.
      + intros t' Ht'. exists t'. rewrite NA. cbn [start]. split; auto. rewrite (received_not_arg _ NA). cbn. rewrite ER in Ht'. congruence.
      + intros c q Hc Hq. rewrite ER in Hc, Hq. rewrite A1 by (rewrite S1; auto). rewrite lsum_0; [symmetry; apply Rplus_0_r|]. intros j Hj. rewrite gets_not_arg; [reflexivity|]. rewrite ER. apply root_not_arg. apply ORD; auto.
    - assert (YA : is_arg g order (i, v) = true) by (apply is_arg_iff; eapply USED; eauto).
      destruct (ININ Ui NE Ht) as (t0 & E0 & R0 & S0 & A0). destruct (@apply_parts d (node_shape g (i, v)) (received g us order (i, v)) (flat_map (fun j => gets (args_of g j) (ps_of fin j) (i, v)) order) t0) as (t' & E' & R' & S' & A'); auto.
      { apply received_does. intros j p Uj HI Hp. eapply LATER; eauto. }
      exists t'. split; auto. split; auto. split.
      + intros t2 Ht2. replace t2 with t by congruence. exists t0. rewrite YA. cbn [start]. auto.
      + intros c q Hc Hq. rewrite A', A0 by (rewrite ?S0; auto). rewrite lsum_flat_map. auto. }
  destruct (finite_choice (@no_tensor Rnum) FIN) as (fi & Hfi).
  pose (fin' := fun n : node => if Nat.eqb (fst n) i then fi (snd n) else fin n).
  assert (HX : forall j v, j <> i -> fin (j, v) = fin' (j, v)). { intros j v NE. unfold fin'. cbn. destruct (Nat.eqb_spec j i); [congruence|auto]. }
  assert (HX0 : forall v, fin' (i, v) = fi v). { intros v. unfold fin'. cbn. rewrite Nat.eqb_refl. auto. }
  assert (FIN' : forall v, (v < length (oi_vals o))%nat -> ready d (fin' (i, v)) /\ t_shape (fin' (i, v)) = node_shape g (i, v)).
  { intros v Hv. rewrite HX0. destruct (Hfi v Hv) as (A1 & A2 & _). auto. }
  assert (GS : map shp (gys_of fin' i) = map shp (oi_vals o) /\ Forall (ready d) (gys_of fin' i)).
  { split.
    - unfold gys_of. rewrite EY, map_map. apply nth_ext_error. intros v. rewrite nth_error_map. destruct (Nat.lt_ge_cases v (length (oi_vals o))) as [L|L].
      + rewrite (nth_error_nth' (seq 0 (length (oi_vals o))) 0%nat) by (rewrite seq_length; auto). rewrite seq_nth by auto. cbn [option_map Nat.add]. rewrite (node_shape_val Ho L). f_equal. apply (FIN' v L).
      + replace (nth_error (seq 0 (length (oi_vals o))) v) with (@None nat) by (symmetry; apply nth_error_None; rewrite seq_length; auto). symmetry. cbn. apply nth_error_None. rewrite map_length. auto.
    - unfold gys_of. rewrite EY. apply Forall_forall. intros t Ht. apply in_map_iff in Ht. destruct Ht as (v & <- & Hv). apply in_seq in Hv. apply (FIN' v). lia. }
  pose proof (SUP Ui Ho) as S. destruct (xs_values Ui Ho) as (X1 & X2 & X3).
  destruct (@backward_sem Rnum m d (o_bal (oi_op o)) (sup_bal S) Rnum_commutes (o_kind (oi_op o)) (xs_of i) (oi_vals o) (gys_of fin' i)) as (ui & EU & HU); auto.
  { rewrite X3. apply (sup_typed S). } { apply (sup_wt S). } { rewrite X3. apply (sup_bw S). } { apply (VALS Ui Ho). } { apply GS. } { apply GS. }
  exists (fun j => if Nat.eqb j i then ui else us j), fin'. intros j p Hj Uj Hp. destruct (Nat.eq_dec j i) as [->|NE].
  - replace p with o by congruence. constructor.
    + intros v Hv. destruct (Hfi v Hv) as (A1 & A2 & A3 & A4). rewrite HX0. split; auto. split; auto. split.
      * intros t Ht. destruct (A3 t Ht) as (t0 & E1 & E2). exists t0. split; auto. rewrite <- E2. f_equal. apply received_ext'. intros j' _ HI. apply args_of_lt in HI. cbn in HI. destruct (Nat.eqb_spec j' i); [lia|auto].
      * intros c q Hc Hq. rewrite (A4 c q Hc Hq). f_equal. apply lsum_ext. intros j' _. destruct (in_dec (fun a b : nat * nat => ltac:(decide equality; apply Nat.eq_dec)) (i, v) (args_of g j')) as [HI|HI].
        -- rewrite (@ps_ext fin fin' j'); auto. intros w. apply HX. apply args_of_lt in HI. cbn in HI. lia.
        -- rewrite !gets_not_arg; auto.
    + cbn [interp op_backward]. rewrite Nat.eqb_refl, (@backward_dev m _ _ _ (sup_dev S)). exact EU.
    + rewrite Nat.eqb_refl. unfold ps_of, kind_of. rewrite Ho, EY. exact HU.
  - apply good_ext with us fin; [apply IH; auto; unfold i in NE; lia| |].
    + intros j' Hj'. destruct (Nat.eqb_spec j' i); [unfold i in *; lia|auto].
    + intros j' v Hj'. apply HX. unfold i in *; lia.
Qed.

(** ** The updates of an operator *)
Lemma part_facts us fin i o p : uses g root i -> nth_error (g_ops g) i = Some o -> good us fin i o -> In p (ps_of fin i) -> p_fits (o_kind (oi_op o)) (arg_shapes g o) p.
Proof.
  intros U Ho G Hp. pose proof (SUP U Ho) as S. destruct (xs_values U Ho) as (X1 & X2 & X3). destruct (fin_shapes G Ho) as (F1 & _).
  unfold ps_of, kind_of, ys_of in Hp. rewrite Ho in Hp. rewrite <- X3. assert (HF : Forall (p_fits (o_kind (oi_op o)) (map shp (xs_of i))) (bwsem (o_kind (oi_op o)) (xs_of i) (oi_vals o) (gys_of fin i))).
  { apply parts_fit; auto; [rewrite X3; apply (sup_typed S)|rewrite X3; apply (sup_bw S)|]. apply Forall_map. eapply Forall_impl; [|exact X2]. intros t (_ & _ & _ & (OK & _)). apply OK. }
  rewrite Forall_forall in HF. auto.
Qed.
Lemma own_value i o v : uses g root i -> nth_error (g_ops g) i = Some o -> o_kind (oi_op o) = KParameter v -> oi_args o = [] /\ exists y, oi_vals o = [y] /\ t_shape y = t_shape v.
Proof.
  intros U Ho EK. pose proof (sup_typed (SUP U Ho)) as T. rewrite EK in T. cbn [typed] in T. destruct T as (T1 & T2). split; [unfold arg_shapes in T1; destruct (oi_args o); [auto|discriminate]|].
  destruct (oi_vals o) as [|y [|]]; inversion T2. eauto.
Qed.
Lemma own_nil us fin i o : uses g root i -> nth_error (g_ops g) i = Some o -> good us fin i o -> (forall v, o_kind (oi_op o) <> KParameter v) -> sent_own (us i) = [].
Proof.
  intros U Ho G NK. pose proof (sent_own_parts (go_us G)) as H. replace (own_parts (ps_of fin i)) with (@nil rpart) in H; [inversion H; auto|]. symmetry.
  assert (Q : forall p, In p (ps_of fin i) -> p_to p <> Own). { intros p Hp E. pose proof (part_facts U Ho G Hp) as F. unfold p_fits in F. rewrite E in F. destruct F as (v & F). apply (NK v F). }
  revert Q. generalize (ps_of fin i) as l. induction l as [|p l IH]; intros Q; auto. unfold own_parts in * . cbn [flat_map]. rewrite IH by (intros; apply Q; cbn; auto). destruct (p_to p) eqn:E; auto. exfalso. apply (Q p); cbn; auto.
Qed.
Lemma own_final us fin i o v : uses g root i -> nth_error (g_ops g) i = Some o -> good us fin i o -> o_kind (oi_op o) = KParameter v ->
  exists a a', oi_own o = Some a /\ t_shape a = node_shape g (i, 0%nat) /\ apply_all (sent_own (us i)) a = Ok a' /\ ready d a' /\ t_shape a' = t_shape a /\
    forall c q, inb (t_shape a) c -> (q < bat (t_shape a))%nat -> @eq R (at_ a' c q) (at_ a c q + at_ (fin (i, 0%nat)) c q).
Proof.
  intros U Ho G EK. destruct (sup_own (SUP U Ho) EK) as (a & E1 & E2 & E3). destruct (own_value U Ho EK) as (_ & y & EV & SY).
  assert (EP : ps_of fin i = [mkPart Own (bat (t_shape y)) (fun c n => Plus (at_ (fin (i, 0%nat)) c n))]).
  { unfold ps_of, kind_of, gys_of, ys_of. rewrite Ho, EK, EV. reflexivity. }
  pose proof (sent_own_parts (go_us G)) as H. rewrite EP, EV in H. change (t_shape (arg [y] 0)) with (t_shape y) in H. cbn [own_parts flat_map p_to app] in H.
  destruct (apply_parts (t0 := a) H E2 ltac:(congruence)) as (a' & A1 & A2 & A3 & A4). exists a, a'. split; auto. split.
  { pose proof (node_shape_val (v := 0%nat) Ho ltac:(rewrite EV; cbn; lia)) as Q. rewrite EV in Q. cbn in Q. inversion Q. congruence. }
  split; auto. split; auto. split; [congruence|]. intros c q Hc Hq. assert (SA : t_shape a = t_shape y) by congruence. rewrite SA in Hc, Hq. rewrite (A4 c q Hc Hq). cbn [lsum]. rewrite adds_up_own by auto. cbn [cval]. f_equal. apply Rplus_0_r.
Qed.

Lemma backward_plan us fin : (forall i o, uses g root i -> nth_error (g_ops g) i = Some o -> good us fin i o) -> NoDup order -> StronglySorted (fun a b => depth0 g1 b <= depth0 g1 a)%nat order ->
  exists g', forL order (fun i g => step_bw m itp gal g i) g1 = Ok g' /\
    (forall n t, grad_of g1 n = Ok t -> grad_of g' n = Ok (if in_dec Nat.eq_dec (fst n) order then fin n else t)) /\
    (forall i, ~ uses g root i -> own_of g' i = own_of g i) /\
    (forall i o, uses g root i -> nth_error (g_ops g) i = Some o -> (forall v, o_kind (oi_op o) <> KParameter v) -> own_of g' i = own_of g i) /\
    (forall i o v, uses g root i -> nth_error (g_ops g) i = Some o -> o_kind (oi_op o) = KParameter v ->
       exists a a', own_of g i = Some a /\ own_of g' i = Some a' /\ t_shape a = node_shape g (i, 0%nat) /\ ready d a' /\ t_shape a' = t_shape a /\
       forall c q, inb (t_shape a) c -> (q < bat (t_shape a))%nat -> @eq R (at_ a' c q) (at_ a c q + at_ (fin (i, 0%nat)) c q)).
Proof.
  intros G ND SS. assert (W1 : gwf g1) by (eapply grads_gwf; eauto).
  pose (fin1 := fun n : node => if in_dec Nat.eq_dec (fst n) order then fin n else match grad_of g1 n with Ok t => t | _ => @no_tensor Rnum end).
  assert (F1 : forall i v, uses g root i -> fin1 (i, v) = fin (i, v)). { intros i v U. unfold fin1. cbn [fst]. destruct (in_dec Nat.eq_dec i order) as [|NI]; auto. exfalso. apply NI, ORD, U. }
  assert (USE1 : forall i, In i order -> exists o o1, uses g root i /\ nth_error (g_ops g) i = Some o /\ nth_error (g_ops g1) i = Some o1 /\ same_but_grads o o1).
  { intros i Hi. apply ORD in Hi. destruct (uses_lt GW Hi LR) as (L & _). destruct (nth_error (g_ops g) i) as [o|] eqn:Ho; [|apply nth_error_None in Ho; lia]. destruct (grads_nth GC Ho) as (o1 & Ho1 & S). exists o, o1. auto. }
  assert (OO : forall i o, nth_error (g_ops g) i = Some o -> own_of g i = oi_own o) by (intros i o Ho; unfold own_of; rewrite Ho; auto).
  destruct (@run_bw_complete Rnum m _ itp (interp_lawful_bw (K := Rnum) (m := m)) gal us fin1 order g1 W1 ND) as (g' & E & O0 & O1 & O2 & O3).
  { intros i Hi. destruct (USE1 i Hi) as (_ & o1 & _ & _ & H & _). eapply nth_error_Some_lt; eauto. }
  { exact SS. }
  { split.
    - intros i Hi. destruct (USE1 i Hi) as (o & o1 & U & Ho & Ho1 & S). destruct S as (S1 & S2 & S3 & S4 & _). destruct (xs_values U Ho) as (X1 & X2 & X3). pose proof (G i o U Ho) as Gi.
      exists o1, (xs_of i), (gys_of fin i). split; auto. split; [rewrite <- S2, <- X1; apply mapM_ext; intros; apply grads_value; auto|].
      assert (LY : length (ys_of i) = length (oi_vals o)) by (unfold ys_of; rewrite Ho; auto).
      split; [unfold gys_of; rewrite map_length, seq_length, LY, <- S4; symmetry; apply (gwf_len GW Ho)|].
      split. { intros v t Hv. unfold gys_of in Hv. rewrite nth_error_map in Hv. destruct (nth_error (seq 0 (length (ys_of i))) v) as [w|] eqn:Ew; inversion Hv. rewrite F1 by auto. pose proof (nth_error_Some_lt Ew) as Lw. rewrite seq_length in Lw. apply (nth_error_nth _ _ 0%nat) in Ew. rewrite seq_nth in Ew by auto. cbn in Ew. congruence. }
      split; [rewrite <- S1, <- S3; apply (go_bw Gi)|].
      split. { intros u k Hu Eu. destruct (In_nth_error _ _ Hu) as (q & Hq). destruct (Forall2_nth (go_us Gi) Hq) as (p & Hp & Ep & _). pose proof (part_facts U Ho Gi (nth_error_In _ _ Hp)) as F. unfold p_fits in F. rewrite <- Ep, Eu in F.
        destruct F as (s & F & _). apply nth_error_Some_lt in F. unfold arg_shapes in F. rewrite map_length, S2 in F. exact F. }
      assert (KP : (exists v, o_kind (oi_op o) = KParameter v) \/ forall v, o_kind (oi_op o) <> KParameter v) by (destruct (o_kind (oi_op o)); try (right; congruence); left; eauto).
      rewrite OWN, (OO i o Ho). destruct KP as [(v & EK)|NK].
      + destruct (own_final U Ho Gi EK) as (a & a' & A1 & _ & A3 & _). rewrite A1. split; [discriminate|]. intros t Ht. inversion Ht; subst. eauto.
      + rewrite (own_nil U Ho Gi NK). split; auto. intros t _. exists t. reflexivity.
    - intros n t Hn. destruct (in_dec Nat.eq_dec (fst n) order) as [Hi|NI].
      + destruct (USE1 _ Hi) as (o & o1 & U & Ho & Ho1 & S). destruct n as [i v]. cbn [fst] in * . destruct (grad_of_inv Hn) as (p & Hp & Hv). cbn [fst snd] in * .
        assert (LV : (v < length (oi_vals o))%nat). { apply nth_error_Some_lt in Hv. replace p with o1 in Hv by congruence. destruct S as (_ & _ & _ & S4 & _). rewrite <- S4, (gwf_len GW Ho) in Hv. auto. }
        destruct (go_fin (G i o U Ho) LV) as (_ & _ & A3 & _). destruct (A3 t Hn) as (t0 & E1 & E2). exists t0. rewrite (is_arg_grads _ _ GC), (received_grads _ _ _ GC). rewrite F1 by auto. auto.
      + assert (NA : is_arg g order n = false). { destruct (is_arg g order n) eqn:EX; auto. exfalso. apply NI, ORD. apply is_arg_iff in EX. destruct EX as (j & Uj & HI). unfold args_of in HI. destruct (nth_error (g_ops g) j) as [p|] eqn:Hp; [|destruct HI]. eapply uses_arg; eauto. }
        exists t. rewrite (is_arg_grads _ _ GC), (received_grads _ _ _ GC), NA, (received_not_arg _ NA). split; [reflexivity|]. unfold fin1. destruct (in_dec Nat.eq_dec (fst n) order); [contradiction|]. rewrite Hn. reflexivity. }
  exists g'. split; auto. split; [intros n t Hn; rewrite (O0 n t Hn); unfold fin1; destruct (in_dec Nat.eq_dec (fst n) order); [auto|rewrite Hn; auto]|]. split; [intros i NU; rewrite O1, OWN; auto; rewrite ORD; auto|]. split.
  - intros i o U Ho NK. destruct (own_of g i) as [a|] eqn:Ea.
    + destruct (O3 i a) as (t' & T1 & T2); [apply ORD; auto|rewrite OWN; auto|]. rewrite (own_nil U Ho (G i o U Ho) NK) in T1. inversion T1. congruence.
    + apply O2; [apply ORD; auto|rewrite OWN; auto].
  - intros i o v U Ho EK. destruct (own_final U Ho (G i o U Ho) EK) as (a & a' & A1 & A2 & A3 & A4 & A5 & A6). destruct (O3 i a) as (t' & T1 & T2); [apply ORD; auto|rewrite OWN, (OO i o Ho); auto|].
    exists a, a'. rewrite (OO i o Ho), T2. split; auto. split; [congruence|]. auto.
Qed.
End Grad.
