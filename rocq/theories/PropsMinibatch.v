(** * PropsMinibatch: a minibatch is a way of running a network on several examples at once (C71) *)
From Verif Require Export Minibatch Program GraphTie PropsGraph.
Set Implicit Arguments.
Unset Strict Implicit.

Section Props.
Variable K : num.
Notation F := (F K).
Notation tensor := (tensor K).
Notation graph := (graph K (oper K)).
Notation opinfo := (opinfo K (oper K)).
Notation kind := (kind K).
Notation node := (nat * nat)%type.
Notation itp := (@interp K Debug).
Notation one := Minibatch.one.
Notation shp := (@t_shape K).
Notation nat32 x := (N.to_nat x).

(** ** Specification *)
(** below [root], [g1] has the operators of [g] on the same arguments, with the inputs (and the ids, and the shapes
    given to reshape) of example [b] alone *)
Definition run_on_example (b : nat) (g : graph) (root : nat) (g1 : graph) : Prop :=
  forall i o, uses g root i -> nth_error (g_ops g) i = Some o ->
    exists o1, nth_error (g_ops g1) i = Some o1 /\ oi_args o1 = oi_args o /\ for_example b (o_kind (oi_op o)) (o_kind (oi_op o1)).
(** what the functions on nodes do not check: no tensor has more than 2^31 elements, reshape keeps the number of
    elements and the minibatch, triangular matrices are square; for softmax_cross_entropy with a scalar, multiplication commutes *)
Definition checks_out (k : kind) (ss : list shape) : Prop :=
  match k with
  | KReshape r => forall x, ss = [x] -> tot r = tot x
  | KTriangularL n | KTriangularU n => forall x, ss = [x] -> matrix x /\ ext x 1 = ext x 0 /\ (N.of_nat (ext x 0) + n <= two32)%N
  | KSoftmaxCrossEntropy _ => forall x t, ss = [x; t] -> (is_scalar t = false \/ commutes K) /\ forall s, batchable x t s -> fits s
  | KBatchSplit n => (n < two32)%N
  | _ => True
  end.
Definition acceptable (k : kind) (ss rs : list shape) : Prop := Forall fits rs /\ keeps_minibatch k ss /\ checks_out k ss.
Definition arguments_have (g : graph) (o : opinfo) (ss : list shape) : Prop := Forall2 (fun n s => node_shape g n = Some s) (oi_args o) ss.
Definition all_acceptable (g : graph) (root : nat) : Prop :=
  forall i o ss, uses g root i -> nth_error (g_ops g) i = Some o -> arguments_have g o ss -> acceptable (o_kind (oi_op o)) ss (map shp (oi_vals o)).

(** ** Programs are clean *)
Lemma clean_n_create g bs k x args g' ns : clean itp g -> n_create Debug g bs k x args = Ok (g', ns) -> clean itp g'.
Proof. intros H E. unfold n_create in E. apply bind_Ok in E. destruct E as (d & _ & E). eapply c_create; eauto. Qed.
Lemma clean_pop g bs k x args g' (n : node) : clean itp g -> pop1 (n_create Debug g bs k x args) = Ok (g', n) -> clean itp g'.
Proof. intros H E. unfold pop1 in E. apply bind_Ok in E. destruct E as ([g1 ns] & E & E2). apply bind_Ok in E2. destruct E2 as (n1 & _ & E2). inversion E2; subst. eapply clean_n_create; eauto. Qed.
Lemma clean_leaf' g bs k own g' (n : node) : clean itp g -> leaf Debug g bs k own = Ok (g', n) -> clean itp g'.
Proof. intros H E. unfold leaf, pop1 in E. apply bind_Ok in E. destruct E as ([g1 ns] & E & E2). apply bind_Ok in E2. destruct E2 as (n1 & _ & E2). inversion E2; subst. eapply c_create; eauto. Qed.
Lemma program_clean d (g : graph) : program d g -> clean itp g.
Proof.
  induction 1 as [|g bs t g' n H IH HB HR E|g bs t g' n H IH HB HR E|g bs v t g' n H IH HB HR HR' ES E|k g bs x g' n H IH HB HK HS E|k kl kr g bs a b g' n H IH HB HI E|dim g bs x t g' n H IH HB E|g bs a b g' n H IH HB E
    |dim k g bs x g' ns H IH HB E|k g bs x g' ns H IH HB E|dim g bs xs g' n H IH HB E|g bs xs g' n H IH HB E|g pop n g' H IH HP HL E].
  - constructor.
  - exact (clean_leaf' IH E).
  - exact (clean_leaf' IH E).
  - exact (clean_leaf' IH E).
  - exact (clean_pop IH E).
  - unfold n_op2 in E. apply bind_Ok in E. destruct E as (va & _ & E). destruct (is_scalar _); [eapply clean_pop; eauto|]. apply bind_Ok in E. destruct E as (vb & _ & E). destruct (is_scalar _); eapply clean_pop; eauto.
  - exact (clean_pop IH E).
  - exact (clean_pop IH E).
  - exact (clean_n_create IH E).
  - exact (clean_n_create IH E).
  - unfold n_concat in E. apply bind_Ok in E. destruct E as (? & _ & E). apply bind_Ok in E. destruct E as (x0 & _ & E). exact (clean_pop IH E).
  - unfold n_batch_concat in E. apply bind_Ok in E. destruct E as (? & _ & E). apply bind_Ok in E. destruct E as (x0 & _ & E). exact (clean_pop IH E).
  - eapply c_forward; [exact IH|exact HP|exact HL|exact E].
Qed.

(** ** The operators of programs *)
Lemma shape_wf (g : graph) n s : ginv g -> node_shape g n = Some s -> wf s.
Proof.
  intros G H. unfold node_shape in H. destruct (nth_error (g_ops g) (fst n)) as [o|] eqn:Ho; [|discriminate]. rewrite nth_error_map in H. destruct (nth_error (oi_vals o) (snd n)) as [v|] eqn:Hv; [|discriminate]. cbn in H. injection H as <-.
  destruct (G _ _ Ho) as (_ & D1 & _). rewrite Forall_forall in D1. apply sane_wf. apply D1. eapply nth_error_In; eauto.
Qed.
(** what a program knows about an operator *)
Lemma program_op d (g : graph) i o : program d g -> nth_error (g_ops g) i = Some o -> exists ss, arguments_have g o ss /\ Forall wf ss /\
  (forall i, al_ok (o_fal (oi_op o) i)) /\ device_op (oi_op o) = Ok d /\ wt d (o_kind (oi_op o)) /\ Forall wf (map shp (oi_vals o)) /\
  (checks_out (o_kind (oi_op o)) ss -> typed (o_kind (oi_op o)) ss (map shp (oi_vals o))).
Proof.
  intros P Ho. pose proof (session_ginv (program_session P)) as G. destruct (G _ _ Ho) as ((S1 & S2 & S3 & ss & S4 & S5 & S6) & D1 & _). destruct (program_proper P Ho) as (P1 & P2 & P3 & P4 & _).
  exists ss. split; [exact S4|].
  assert (W : Forall wf ss) by (clear - S4 G; induction S4; constructor; auto; eapply shape_wf; eauto).
  assert (L : length (oi_args o) = length ss) by (clear - S4; induction S4; cbn; auto).
  assert (AR : arity_ok (o_kind (oi_op o)) ss) by (unfold arity_ok; rewrite <- L; exact P3).
  assert (O1 : forall x, arity (o_kind (oi_op o)) = Some 1%nat -> nth_error ss 0 = Some x -> ss = [x]) by (intros x EA Hx; rewrite EA in P3; destruct ss as [|y [|z l]]; cbn in * ; try lia; congruence).
  split; auto. split; [apply S2|]. split; auto. split; auto. split; [apply Forall_map; eapply Forall_impl; [|exact D1]; intros; apply sane_wf; auto|].
  intros HU. eapply creation_typed; [exact W|exact AR| |exact S5]. destruct (o_kind (oi_op o)) eqn:EK; cbn [unchecked supplied scalar_kind arity checks_out] in * ; auto.
Qed.

(** ** Sizes of minibatches *)
Lemma typed_batch b (k k1 : kind) ss rs : for_example b k k1 -> keeps_minibatch k ss -> typed k ss rs -> Forall wf ss ->
  exists B, Forall (fun s => bat s = B) rs /\ Forall (fun s => bat s = 1 \/ bat s = B) ss.
Proof.
  intros HK HM T W.
  assert (I1 : forall P, on1 P ss rs -> (forall x s, P x s -> bat s = bat x) -> exists B, Forall (fun s => bat s = B) rs /\ Forall (fun s => bat s = 1 \/ bat s = B) ss).
  { intros P (x & s & -> & -> & H) HP. exists (bat x). split; constructor; auto. }
  assert (I2 : forall P, on2 P ss rs -> (forall x y s, wf x -> wf y -> P x y s -> bat s = Nat.max (bat x) (bat y) /\ (bat x = bat y \/ bat x = 1 \/ bat y = 1)) -> exists B, Forall (fun s => bat s = B) rs /\ Forall (fun s => bat s = 1 \/ bat s = B) ss).
  { intros P (x & y & s & -> & -> & H) HP. inversion W as [|? ? W1 W2]; inversion W2 as [|? ? W3 _]; subst. destruct (HP _ _ _ W1 W3 H) as (E & D). pose proof (bat_pos W1). pose proof (bat_pos W3). exists (bat s). split; repeat apply Forall_cons; try apply Forall_nil; lia. }
  assert (IP : forall ids d, on1 (fun x s => nat32 d < 8 /\ (N.of_nat (length ids) < two32)%N /\ ids <> [] /\ (length ids = 1 \/ bat x = 1 \/ length ids = bat x) /\ Forall (fun id => nat32 id < ext x (nat32 d)) ids /\ shape_is s (eset x (nat32 d) 1) (Nat.max (bat x) (length ids))) ss rs ->
    exists B, Forall (fun s => bat s = B) rs /\ Forall (fun s => bat s = 1 \/ bat s = B) ss).
  { intros ids d (x & s & -> & -> & _ & _ & N & D & _ & (_ & _ & E)). inversion W as [|? ? W1 _]; subst. pose proof (bat_pos W1). destruct ids as [|u ids]; [congruence|]. cbn [length] in * . exists (bat s). split; repeat apply Forall_cons; try apply Forall_nil; lia. }
  destruct k; cbn [for_example] in HK; try (destruct HK; fail); cbn [typed] in T;
    try (refine (I1 _ T _); cbv beta; intros x s H; unfold shape_is in H; try (rewrite H; reflexivity); decompose [and] H; subst; auto; fail);
    try (refine (I2 _ T _); unfold batchable, scalable, shape_is; intros x y s _ _ H; decompose [and] H; auto; fail);
    try (destruct T as (-> & ->); exists (bat (t_shape value)); repeat constructor; auto; fail); try (eapply IP; eauto; fail).
  - refine (I2 _ T _). intros x y s Wx Wy (_ & _ & s0 & (_ & H2 & (_ & _ & H5)) & _ & (_ & _ & H8)). split; [lia|auto].
  - destruct T as (x & s & -> & -> & _ & _ & _ & (_ & _ & E)). exists (bat x). split; [apply Forall_forall; intros t Ht; apply repeat_spec in Ht; subst; auto|constructor; auto].
  - destruct T as (x0 & ss0 & s & -> & -> & _ & _ & (C & _) & _). exists (bat s). split; [repeat constructor|]. rewrite Forall_map in C. exact C.
  - destruct T as (x & s' & -> & -> & -> & _). exists (bat x). pose proof (HM x eq_refl). split; constructor; auto.
Qed.

Lemma fits_one s s1 : fits s -> one s s1 -> fits s1.
Proof.
  intros F O. pose proof (fits_wf F) as W. destruct O as (W1 & E & E1) eqn:EO. apply fits_tot; auto. apply fits_tot in F; auto. pose proof (one_vol O). unfold tot in * . pose proof (bat_pos W). rewrite E1, H. nia.
Qed.
Lemma checks_one b (k k1 : kind) ss ss1 rs : for_example b k k1 -> checks_out k ss -> keeps_minibatch k ss -> typed k ss rs -> Forall2 one ss ss1 -> Forall wf ss -> checks_out k1 ss1.
Proof.
  intros HK HC HM T O W.
  destruct k; cbn [for_example] in HK; try (destruct HK; fail); try (subst k1; exact I); try (subst k1); try (destruct HK as (q & -> & HQ)); cbn [checks_out keeps_minibatch] in * ; auto.
  - (* cross entropy *) intros x1 t1 ->. inversion O as [|x ? l ? X O']; subst. inversion O' as [|t ? l' ? Y O'']; subst. inversion O''; subst. inversion W as [|? ? W1 W2]; inversion W2 as [|? ? W3 _]; subst.
    destruct (HC x t eq_refl) as (C1 & C2). destruct X as (X1 & X2 & X3), Y as (Y1 & Y2 & Y3). split.
    + destruct C1 as [C1|C1]; auto. left. destruct (is_scalar t1) eqn:E; auto. rewrite <- C1. symmetry. apply is_scalar_iff; auto. intros i. pose proof (scalar_ext Y1 E i) as Q. rewrite Y2 in Q. unfold ext in Q. lia.
    + intros s (_ & _ & (S1 & S2 & S3)). cbn [typed] in T. destruct T as (x' & t' & r & E & _ & _ & _ & s0 & HB & F0 & _). injection E as <- <-. eapply fits_one; [exact F0|]. destruct HB as (_ & _ & (_ & B2 & _)). split; auto. split; [intros i; rewrite S2, X2, B2; auto|lia].
  - intros x1 ->. inversion O as [|x ? l ? X O']; subst. inversion O'; subst. destruct X as (X1 & X2 & X3). destruct (HC x eq_refl) as (C1 & C2 & C3). rewrite !X2. split; auto. intros i Hi. rewrite X2. auto.
  - intros x1 ->. inversion O as [|x ? l ? X O']; subst. inversion O'; subst. destruct X as (X1 & X2 & X3). destruct (HC x eq_refl) as (C1 & C2 & C3). rewrite !X2. split; auto. intros i Hi. rewrite X2. auto.
  - intros x1 ->. inversion O as [|x ? l ? X O']; subst. inversion O'; subst. pose proof (HC x eq_refl) as C. pose proof (HM x eq_refl) as M. inversion W as [|? ? W1 _]; subst. pose proof (bat_pos W1).
    pose proof (one_vol X). assert (VQ : vol q = vol s) by (apply one_vol; exact HQ). destruct X as (_ & _ & X3), HQ as (_ & _ & Q3). unfold tot in * . rewrite M in C. apply Nat.mul_cancel_l in C; [|lia]. rewrite X3, Q3. lia.
Qed.

Section Run.
Variables (d b B : nat) (g g1 : graph) (root : nat).
Hypothesis PG : program d g.
Hypothesis PG1 : program d g1.
Hypothesis RUN : run_on_example b g root g1.
Hypothesis ACC : all_acceptable g root.
Hypothesis Hb : b < B.
Hypothesis SZ : forall i o, uses g root i -> nth_error (g_ops g) i = Some o -> Forall (sized B) (map shp (oi_vals o)).

Lemma uses_arg i o n : uses g root i -> nth_error (g_ops g) i = Some o -> In n (oi_args o) -> uses g root (fst n).
Proof. intros U Ho Hn. eapply uses_trans; [exact U|]. eapply uses_step; eauto. constructor. Qed.
Lemma blanks_of d' (g' : graph) i o : program d' g' -> nth_error (g_ops g') i = Some o -> device_op (oi_op o) = Ok d' -> map blank (oi_vals o) = map (@new_tensor K d') (map shp (oi_vals o)).
Proof.
  intros P Ho HD. pose proof (history_placed (interp_lawful (K := K) (m := Debug)) (clean_history (program_clean P))) as PL. rewrite map_map. apply map_ext_in. intros t Ht. destruct (PL _ _ _ Ho Ht) as (A & C). cbn [interp op_device] in A. rewrite HD in A.
  unfold blank, new_tensor. destruct (t_dev t) as [e|]; [|congruence]. inversion A. auto.
Qed.
Lemma forward_dev (o : oper K) d' fal : device_op o = Ok d' -> forward_op Debug (o_dev o) fal (o_kind o) = forward_op Debug d' fal (o_kind o).
Proof. unfold device_op. destruct (o_kind o); try (intros E; injection E as ->; reflexivity); reflexivity. Qed.
Lemma example_one x x1 : example_of b x x1 -> one (shp x) (shp x1). Proof. intros X. apply X. Qed.

(** the forward function of one operator, given its arguments *)
Lemma eval_op_sem d' (g' : graph) i o xs : program d' g' -> nth_error (g_ops g') i = Some o -> mapM (eval_node itp g') (oi_args o) = Ok xs -> Forall (ready d') xs ->
  typed (o_kind (oi_op o)) (map shp xs) (map shp (oi_vals o)) -> Forall fits (map shp (oi_vals o)) ->
  exists ys, eval itp g' i = Ok ys /\ Forall (ready d') ys /\ map shp ys = map shp (oi_vals o) /\
    forall v y s, nth_error ys v = Some y -> nth_error (map shp (oi_vals o)) v = Some s -> is_tensor d' s (sem (o_kind (oi_op o)) xs v) y.
Proof.
  intros P Ho X R T F. destruct (program_op P Ho) as (ss & _ & _ & A & HD & HW & _). destruct (clean_inv (interp_lawful (K := K) (m := Debug)) (program_clean P)) as (GW & _).
  pose proof (eval_eq itp GW Ho) as EV. rewrite X in EV. cbn [bind interp op_forward] in EV. rewrite (blanks_of P Ho HD), (forward_dev _ HD) in EV.
  destruct (@forward_sem K Debug d' (o_fal (oi_op o)) A _ xs _ T HW R F) as (ys & E & LY & HY). exists ys. rewrite map_length in LY. split; [congruence|].
  split; [|split; [|exact HY]].
  - apply Forall_forall. intros y Hy. destruct (In_nth_error _ _ Hy) as (v & Hv). destruct (nth_error (map shp (oi_vals o)) v) as [s|] eqn:Es; [|apply nth_error_None in Es; rewrite map_length in Es; apply nth_error_Some_lt in Hv; lia]. apply (HY v y s Hv Es).
  - apply nth_ext_error. intros v. rewrite nth_error_map. destruct (nth_error ys v) as [y|] eqn:Hv.
    + destruct (nth_error (map shp (oi_vals o)) v) as [s|] eqn:Es; [|apply nth_error_None in Es; rewrite map_length in Es; apply nth_error_Some_lt in Hv; lia]. destruct (HY v y s Hv Es) as (_ & Q & _). cbn. congruence.
    + apply nth_error_None in Hv. symmetry. apply nth_error_None. rewrite map_length. lia.
Qed.

Lemma both_at : forall i o, uses g root i -> nth_error (g_ops g) i = Some o -> exists o1 ys ys1, nth_error (g_ops g1) i = Some o1 /\
  eval itp g i = Ok ys /\ eval itp g1 i = Ok ys1 /\ Forall (ready d) ys /\ Forall (ready d) ys1 /\ map shp ys = map shp (oi_vals o) /\ map shp ys1 = map shp (oi_vals o1) /\ Forall2 (example_of b) ys ys1.
Proof.
  destruct (clean_inv (interp_lawful (K := K) (m := Debug)) (program_clean PG)) as (GW & _).
  induction i as [i IH] using (well_founded_induction lt_wf). intros o U Ho. destruct (RUN U Ho) as (o1 & Ho1 & EA & HK).
  destruct (program_op PG Ho) as (ss & AS & Wss & _ & _ & _ & Wrs & TY). destruct (program_op PG1 Ho1) as (ss1 & AS1 & Wss1 & _ & _ & _ & Wrs1 & TY1). destruct (ACC U Ho AS) as (HF & HM & HC). specialize (TY HC).
  assert (XS : exists xs xs1, mapM (eval_node itp g) (oi_args o) = Ok xs /\ mapM (eval_node itp g1) (oi_args o) = Ok xs1 /\ Forall (ready d) xs /\ Forall (ready d) xs1 /\ map shp xs = ss /\ map shp xs1 = ss1 /\ Forall2 (example_of b) xs xs1 /\ Forall (sized B) ss).
  { unfold arguments_have in AS, AS1. rewrite EA in AS1.
    assert (AX : forall n s s1, In n (oi_args o) -> node_shape g n = Some s -> node_shape g1 n = Some s1 -> exists y y1, eval_node itp g n = Ok y /\ eval_node itp g1 n = Ok y1 /\ ready d y /\ ready d y1 /\ shp y = s /\ shp y1 = s1 /\ example_of b y y1 /\ sized B s).
    { intros n s s1 Hn Es Es1. destruct (gwf_args GW Ho Hn) as (L & p & Hp & _). destruct (IH (fst n) L p (uses_arg U Ho Hn) Hp) as (p1 & ys & ys1 & Hp1 & E & E1 & RY & RY1 & SY & SY1 & EX).
      unfold node_shape in Es, Es1. rewrite Hp in Es. rewrite Hp1 in Es1. assert (ZS : sized B s) by (pose proof (SZ (uses_arg U Ho Hn) Hp) as Z; rewrite Forall_forall in Z; apply Z; eapply nth_error_In; eauto).
      rewrite <- SY, nth_error_map in Es. rewrite <- SY1, nth_error_map in Es1. destruct (nth_error ys (snd n)) as [y|] eqn:Ey; [|discriminate]. destruct (nth_error ys1 (snd n)) as [y1|] eqn:Ey1; [|discriminate]. cbn in Es, Es1. injection Es as <-. injection Es1 as <-.
      exists y, y1. unfold eval_node. rewrite E, E1. cbn [bind]. rewrite (idx_nth Ey), (idx_nth Ey1). rewrite Forall_forall in RY, RY1.
      destruct (Forall2_at' EX Ey) as (z & Hz & XZ). assert (z = y1) by congruence. subst z. split; auto. split; auto. split; [apply RY; eapply nth_error_In; eauto|]. split; [apply RY1; eapply nth_error_In; eauto|]. auto. }
    clear - AX AS AS1. revert ss1 AS1 AX. induction AS as [|n s l ss H H' IHl]; intros ss1 AS1 AX; inversion AS1 as [|? s1 ? ss1' H1 H1']; subst; [exists [], []; repeat split; constructor|].
    destruct (AX n s s1) as (y & y1 & Y1 & Y2 & Y3 & Y4 & Y5 & Y6 & Y7 & Y8); [left; auto|auto|auto|]. destruct (IHl _ H1') as (xs & xs1 & Q1 & Q2 & Q3 & Q4 & Q5 & Q6 & Q7 & Q8); [intros; eapply AX; eauto; right; auto|].
    exists (y :: xs), (y1 :: xs1). rewrite !mapM_cons, Y1, Y2, Q1, Q2. cbn [bind map]. repeat split; try (constructor; auto); try congruence. }
  destruct XS as (xs & xs1 & X & X1 & R & R1 & S & S1 & EX & SS). subst ss ss1.
  assert (OO : Forall2 one (map shp xs) (map shp xs1)) by (clear - EX; induction EX; cbn; constructor; auto; apply example_one; auto).
  specialize (TY1 (checks_one HK HC HM TY OO Wss)).
  destruct (for_example_sem Hb HK HM TY TY1 EX) as (LR & SEM); auto; [rewrite Forall_map in Wss; auto|apply (SZ U Ho)|rewrite Forall_forall in Wrs; auto|].
  assert (HF1 : Forall fits (map shp (oi_vals o1))).
  { apply Forall_forall. intros s1 Hs1. destruct (In_nth_error _ _ Hs1) as (v & Hv). destruct (nth_error (map shp (oi_vals o)) v) as [s|] eqn:Es; [|apply nth_error_None in Es; apply nth_error_Some_lt in Hv; lia].
    destruct (SEM v s s1 Es Hv) as (O & _). eapply fits_one; [|exact O]. rewrite Forall_forall in HF. apply HF. eapply nth_error_In; eauto. }
  destruct (eval_op_sem PG Ho X R TY HF) as (ys & E & RY & SY & HY). rewrite <- EA in X1. destruct (eval_op_sem PG1 Ho1 X1 R1 TY1 HF1) as (ys1 & E1 & RY1 & SY1 & HY1).
  exists o1, ys, ys1. do 7 (split; [assumption|]).
  assert (LL : length ys1 = length ys) by (rewrite <- (map_length shp ys1), <- (map_length shp ys), SY, SY1; auto).
  assert (PW : forall v y y1, nth_error ys v = Some y -> nth_error ys1 v = Some y1 -> example_of b y y1).
  { intros v y y1 Hv Hv1. destruct (nth_error (map shp (oi_vals o)) v) as [s|] eqn:Es; [|apply nth_error_None in Es; apply nth_error_Some_lt in Hv; rewrite <- (map_length shp ys), SY in Hv; lia].
    destruct (nth_error (map shp (oi_vals o1)) v) as [s1|] eqn:Es1; [|apply nth_error_None in Es1; apply nth_error_Some_lt in Hv1; rewrite <- (map_length shp ys1), SY1 in Hv1; lia].
    destruct (SEM v s s1 Es Es1) as (O & SE). destruct (HY v y s Hv Es) as (_ & Q & V). destruct (HY1 v y1 s1 Hv1 Es1) as (_ & Q1 & V1). split; [rewrite Q, Q1; exact O|]. rewrite Q. intros c Hc.
    assert (Zs : sized B s). { specialize (SZ U Ho). rewrite Forall_forall in SZ. apply SZ. eapply nth_error_In; eauto. } assert (Ws : wf s) by (rewrite Forall_forall in Wrs; apply Wrs; eapply nth_error_In; eauto).
    rewrite V1; [|apply (one_inb c O); auto|destruct O as (_ & _ & ->); lia]. rewrite V; [apply SE; auto|auto|apply (bsel_in Hb); auto]. }
  clear - LL PW. revert ys1 LL PW. induction ys as [|y ys IHl]; intros [|y1 ys1] LL PW; try discriminate; constructor.
  - apply (PW 0); auto.
  - apply IHl; [cbn in LL; lia|]. intros v. apply (PW (S v)).
Qed.
End Run.

(** ** C71 *)
(** the whole network has the minibatch of the node that is evaluated *)
Lemma sized_below d b (g : graph) (n : node) s g1 : program d g -> run_on_example b g (fst n) g1 -> all_acceptable g (fst n) -> node_shape g n = Some s ->
  forall i o, uses g (fst n) i -> nth_error (g_ops g) i = Some o -> Forall (sized (bat s)) (map shp (oi_vals o)).
Proof.
  intros P RUN ACC HS. destruct (clean_inv (interp_lawful (K := K) (m := Debug)) (program_clean P)) as (GW & _).
  assert (UNI : forall i o v t, uses g (fst n) i -> nth_error (g_ops g) i = Some o -> nth_error (map shp (oi_vals o)) v = Some t -> sized (bat s) t ->
    Forall (sized (bat s)) (map shp (oi_vals o)) /\ forall a t', In a (oi_args o) -> node_shape g a = Some t' -> sized (bat s) t').
  { intros i o v t U Ho Ht Zt. destruct (program_op P Ho) as (ss & AS & W & _ & _ & _ & _ & TY). destruct (ACC i o ss U Ho AS) as (_ & HM & HC). destruct (RUN i o U Ho) as (o1 & _ & _ & HK).
    destruct (typed_batch HK HM (TY HC) W) as (B & HB & HA). rewrite Forall_forall in HB, HA. pose proof (HB t (nth_error_In _ _ Ht)) as EB. unfold sized in * . rewrite EB in Zt. split; [apply Forall_forall; intros r Hr; rewrite (HB r Hr); auto|].
    intros a t' Ha Ea. assert (It : In t' ss). { clear - AS Ha Ea. unfold arguments_have in AS. induction AS as [|x y l l' H H' IH]; [destruct Ha|]. destruct Ha as [->|Ha]; [left; congruence|right; auto]. } destruct (HA t' It) as [E|E]; rewrite E; auto. }
  assert (G : forall j i, uses g j i -> forall oj v t, uses g (fst n) j -> nth_error (g_ops g) j = Some oj -> nth_error (map shp (oi_vals oj)) v = Some t -> sized (bat s) t ->
     forall o, nth_error (g_ops g) i = Some o -> Forall (sized (bat s)) (map shp (oi_vals o))).
  { induction 1 as [i|i oi a j Hoi Ha Uj IH]; intros oj v t U Hoj Ht Zt o Ho.
    - assert (o = oj) by congruence. subst. eapply UNI; eauto.
    - assert (oi = oj) by congruence. subst oj. destruct (UNI _ _ _ _ U Hoi Ht Zt) as (_ & AA). destruct (gwf_args GW Hoi Ha) as (_ & p & Hp & Lp & _).
      destruct (nth_error (map shp (oi_vals p)) (snd a)) as [t'|] eqn:Et; [|apply nth_error_None in Et; rewrite map_length in Et; lia].
      assert (NS : node_shape g a = Some t') by (unfold node_shape; rewrite Hp; auto). eapply IH; [|exact Hp|exact Et|exact (AA _ _ Ha NS)|exact Ho]. eapply uses_trans; [exact U|]. eapply uses_step; eauto. constructor. }
  intros i o U Ho. unfold node_shape in HS. destruct (nth_error (g_ops g) (fst n)) as [on|] eqn:En; [|discriminate]. eapply (G _ _ U on (snd n) s); eauto; [constructor|right; reflexivity].
Qed.

Theorem C71_value : forall d b (g g1 : graph) n s, program d g -> program d g1 -> run_on_example b g (fst n) g1 -> all_acceptable g (fst n) -> node_shape g n = Some s -> b < bat s ->
  exists t t1, eval_node itp g n = Ok t /\ eval_node itp g1 n = Ok t1 /\ ready d t /\ ready d t1 /\ t_shape t = s /\ example_of b t t1.
Proof.
  intros d b g g1 n s P P1 RUN ACC HS Hb. pose proof (sized_below P RUN ACC HS) as SZ. pose proof HS as HS'. unfold node_shape in HS'. destruct (nth_error (g_ops g) (fst n)) as [o|] eqn:Ho; [|discriminate].
  destruct (both_at P P1 RUN ACC Hb SZ (uses_refl _ _) Ho) as (o1 & ys & ys1 & Ho1 & E & E1 & R & R1 & S & S1 & EX).
  rewrite <- S, nth_error_map in HS'. destruct (nth_error ys (snd n)) as [t|] eqn:Et; [|discriminate]. destruct (Forall2_at' EX Et) as (t1 & Et1 & X). exists t, t1. unfold eval_node. rewrite E, E1. cbn [bind]. rewrite (idx_nth Et), (idx_nth Et1).
  rewrite Forall_forall in R, R1. cbn in HS'. injection HS' as HS'. split; auto. split; auto. split; [apply R; eapply nth_error_In; eauto|]. split; [apply R1; eapply nth_error_In; eauto|]. auto.
Qed.
(** the vector of an example is its part of the vector of the minibatch *)
Theorem C71_to_vec : forall d b (g g1 : graph) n s pop pop1, program d g -> program d g1 -> run_on_example b g (fst n) g1 -> all_acceptable g (fst n) -> min_heap pop -> min_heap pop1 ->
  node_shape g n = Some s -> b < bat s ->
  exists l l1, snd (node_to_vec Debug itp pop g n) = Ok l /\ snd (node_to_vec Debug itp pop1 g1 n) = Ok l1 /\
    length l = bat s * vol s /\ l1 = firstn (vol s) (skipn (b * vol s) l).
Proof.
  intros d b g g1 n s pop pop1 P P1 RUN ACC HP HP1 HS Hb. destruct (C71_value P P1 RUN ACC HS Hb) as (t & t1 & E & E1 & R & R1 & S & X).
  assert (L : fst n < length (g_ops g)). { unfold node_shape in HS. destruct (nth_error (g_ops g) (fst n)) eqn:Q; [|discriminate]. apply (nth_error_Some_lt Q). }
  assert (L1 : fst n < length (g_ops g1)). { unfold eval_node in E1. apply bind_Ok in E1. destruct E1 as (ys & E1 & _). destruct (Nat.lt_ge_cases (fst n) (length (g_ops g1))) as [|Q]; auto. destruct (nth_error (g_ops g) (fst n)) as [o|] eqn:Ho; [|apply nth_error_None in Ho; lia]. destruct (RUN _ _ (uses_refl _ _) Ho) as (o1 & Ho1 & _). apply (nth_error_Some_lt Ho1). }
  pose proof (to_vec_Ok Debug R) as V. pose proof (to_vec_Ok Debug R1) as V1. rewrite S in V. destruct X as ((W1 & EE & B1) & XV). rewrite S in EE, XV. pose proof (ready_wf R) as W. rewrite S in W.
  assert (EV : vol (t_shape t1) = vol s) by (unfold vol, low; cbn [prod_lt]; rewrite !EE; auto). unfold tot in V1. rewrite B1, EV, Nat.mul_1_l in V1.
  exists (firstn (tot s) (buf t)), (firstn (vol s) (buf t1)). split; [apply (proj2 (C35_to_vec Debug (interp_lawful (K := K) (m := Debug)) _ (program_clean P) HP L)); eauto|]. split; [apply (proj2 (C35_to_vec Debug (interp_lawful (K := K) (m := Debug)) _ (program_clean P1) HP1 L1)); eauto|].
  pose proof (ready_len R) as LB. rewrite S in LB. pose proof (ready_len R1) as LB1. unfold tot in LB1. rewrite B1, EV in LB1. split; [rewrite firstn_length; unfold tot in * ; lia|].
  apply nth_ext with (d := n0) (d' := n0).
  - rewrite !firstn_length, skipn_length, firstn_length. unfold tot in * . nia.
  - intros p Hp. rewrite firstn_length in Hp. assert (Lp : p < vol s) by lia. rewrite !nth_firstn_lt by auto. rewrite nth_skipn, nth_firstn_lt by (unfold tot; nia).
    assert (HC : inb s (cpos s p)) by (apply (@cpos_inb s s eq_refl); auto). assert (E0 : forall k, pos s (cpos s p) k = k * vol s + p) by (intros k; unfold pos; rewrite (@cpos_lin s s eq_refl), Nat.mod_small by auto; auto).
    specialize (XV _ HC). unfold at_ in XV. rewrite S, E0 in XV. rewrite (@pos_ext (t_shape t1) s _ (cpos s p) 0), E0 in XV by auto. unfold buf. cbn in XV. rewrite XV. f_equal. unfold bsel. destruct (Nat.eqb_spec (bat s) 1); [replace b with 0 by lia|]; auto.
Qed.
Lemma skipn_twice A n : forall m (l : list A), skipn n (skipn m l) = skipn (n + m) l.
Proof. induction m as [|m IH]; intros l; [rewrite Nat.add_0_r; reflexivity|]. rewrite Nat.add_succ_r. destruct l; [destruct n; reflexivity|]. cbn [skipn]. auto. Qed.
(** running the minibatch is running its examples one by one *)
Theorem C71_one_by_one : forall d (g : graph) (gs : nat -> graph) n s pop pops, program d g -> all_acceptable g (fst n) -> min_heap pop -> node_shape g n = Some s ->
  (forall b, b < bat s -> program d (gs b) /\ run_on_example b g (fst n) (gs b) /\ min_heap (pops b)) ->
  exists ls, (forall b, b < bat s -> snd (node_to_vec Debug itp (pops b) (gs b) n) = Ok (ls b)) /\ snd (node_to_vec Debug itp pop g n) = Ok (concat (map ls (seq 0 (bat s)))).
Proof.
  intros d g gs n s pop pops P ACC HP HS H.
  assert (B0 : 0 < bat s). { pose proof (bat_pos (shape_wf (session_ginv (program_session P)) HS)). lia. }
  destruct (H 0 B0) as (P0 & R0 & H0). destruct (C71_to_vec P P0 R0 ACC HP H0 HS B0) as (l & _ & E & _ & L & _).
  exists (fun b => firstn (vol s) (skipn (b * vol s) l)). split.
  - intros b Hb. destruct (H b Hb) as (Pb & Rb & Hpb). destruct (C71_to_vec P Pb Rb ACC HP Hpb HS Hb) as (l' & l1 & E' & E1 & _ & ->). rewrite E in E'. injection E' as <-. exact E1.
  - rewrite E. f_equal. clear - L.
    assert (G : forall k i, (i + k) * vol s <= length l -> firstn (k * vol s) (skipn (i * vol s) l) = concat (map (fun b => firstn (vol s) (skipn (b * vol s) l)) (seq i k))).
    { induction k as [|k IH]; intros i Hk; [reflexivity|]. cbn [seq map concat]. rewrite <- (IH (S i)) by lia. replace (S k * vol s) with (vol s + k * vol s) by lia. replace (S i * vol s) with (vol s + i * vol s) by lia.
      rewrite <- (firstn_skipn (vol s) (skipn (i * vol s) l)) at 1. rewrite firstn_app. assert (LF : length (firstn (vol s) (skipn (i * vol s) l)) = vol s) by (rewrite firstn_length, skipn_length; nia).
      rewrite LF, firstn_all2 by lia. replace (vol s + k * vol s - vol s) with (k * vol s) by lia. rewrite skipn_twice. reflexivity. }
    specialize (G (bat s) 0). cbn [Nat.mul skipn] in G. rewrite <- G by lia. rewrite firstn_all2 by lia. reflexivity.
Qed.
End Props.

(** *** A concrete case: w = (2, 3) times a minibatch of two examples, of which one number each is picked *)
Definition net (x : tensor Znum) (ids : list N) : res (Zgraph * (nat * nat)) :=
  ' (g1, w) <- paramz empty bz (tz 0 [2%N] 1 [2;3]%Z) (tz 0 [2%N] 1 [0;0]%Z) ;;
  ' (g2, x) <- inputz g1 bz x ;;
  ' (g3, y) <- n_mul (K := Znum) Debug g2 bz w x ;;
  n_pick (K := Znum) Debug ids 0 g3 bz y.
Definition batch_g : Zgraph := Eval lazy -[alz Znum] in okg (net (tz 0 [2%N] 2 [5;7;11;13]%Z) [1;0]%N).
Definition example_g : Zgraph := Eval lazy -[alz Znum] in okg (net (tz 0 [2%N] 1 [11;13]%Z) [0]%N).
Lemma net_program x ids g n : net x ids = Ok (g, n) -> ready 0 x -> (N.of_nat (length ids) < two32)%N -> program 0 g.
Proof.
  intros E R L. unfold net in E. apply bind_Ok in E. destruct E as ([g1 w] & E1 & E). apply bind_Ok in E. destruct E as ([g2 x'] & E2 & E). apply bind_Ok in E. destruct E as ([g3 y] & E3 & E).
  refine (pr_op1 (k := KPick ids 0%N) _ bz_fair eq_refl L E). refine (pr_op2 _ bz_fair _ E3); [|right; right; left; reflexivity].
  refine (pr_input _ bz_fair R E2). refine (pr_parameter (pr_empty Znum 0) bz_fair _ _ _ E1); [rdy|rdy|reflexivity].
Qed.
Lemma batch_eq : net (tz 0 [2%N] 2 [5;7;11;13]%Z) [1;0]%N = Ok (batch_g, (3, 0)). Proof. reflexivity. Qed.
Lemma example_eq : net (tz 0 [2%N] 1 [11;13]%Z) [0]%N = Ok (example_g, (3, 0)). Proof. reflexivity. Qed.
Lemma batch_runs : run_on_example 1 batch_g 3 example_g.
Proof.
  intros i o U Ho. destruct i as [|[|[|[|i]]]]; cbn in Ho; [| | | |destruct i; discriminate]; injection Ho as <-; eexists; (split; [reflexivity|]; split; [reflexivity|]); cbn [for_example o_kind oi_op]; auto.
  - eexists. split; [reflexivity|]. split; [split; [exact (proj1 (@sh_is [2%N] 1%N eq_refl eq_refl))|split; [reflexivity|reflexivity]]|]. reflexivity.
  - eexists. split; [reflexivity|]. split; [split; [exact (proj1 (@sh_is [2%N] 1%N eq_refl eq_refl))|split; [reflexivity|reflexivity]]|]. intros c Hc. pose proof (Hc 0) as H0. cbn in H0.
    pose proof (Hc 1) as H1. pose proof (Hc 2) as H2. pose proof (Hc 3) as H3. pose proof (Hc 4) as H4. pose proof (Hc 5) as H5. pose proof (Hc 6) as H6. pose proof (Hc 7) as H7. cbn in H1, H2, H3, H4, H5, H6, H7.
    unfold at_, pos. cbn [lin_lt t_shape]. replace (c 1) with 0 by lia. replace (c 2) with 0 by lia. replace (c 3) with 0 by lia. replace (c 4) with 0 by lia. replace (c 5) with 0 by lia. replace (c 6) with 0 by lia. replace (c 7) with 0 by lia.
    destruct (c 0) as [|[|]]; [reflexivity|reflexivity|lia].
Qed.
Lemma batch_acceptable : all_acceptable batch_g 3.
Proof.
  intros i o ss U Ho AS. assert (F1 : fits (sh [2%N] 1)) by (apply sh_fits; reflexivity). assert (F2 : fits (sh [2%N] 2)) by (apply sh_fits; reflexivity). assert (F3 : fits (sh [] 2)) by (apply sh_fits; reflexivity).
  destruct i as [|[|[|[|i]]]]; cbn in Ho; [| | | |destruct i; discriminate]; injection Ho as <-; (split; [|split; exact I]); constructor; auto.
Qed.
Example C71_applies : exists l l1, snd (node_to_vec Debug itz fifo_min batch_g (3, 0)) = Ok l /\ snd (node_to_vec Debug itz lifo_min example_g (3, 0)) = Ok l1 /\ l = [21; 22]%Z /\ l1 = [22]%Z.
Proof.
  assert (P : program 0 batch_g) by (eapply net_program; [exact batch_eq|rdy|reflexivity]). assert (P1 : program 0 example_g) by (eapply net_program; [exact example_eq|rdy|reflexivity]).
  destruct (@C71_to_vec Znum 0 1 batch_g example_g (3, 0) (sh [] 2) fifo_min lifo_min P P1 batch_runs batch_acceptable) as (l & l1 & E & E1 & L & EL); try apply heaps_ok; [reflexivity|cbn; lia|].
  assert (V : snd (node_to_vec Debug itz fifo_min batch_g (3, 0)) = Ok [21; 22]%Z) by (vm_compute; reflexivity).
  assert (l = [21; 22]%Z) as -> by congruence. exists [21; 22]%Z, l1. repeat split; auto.
Qed.
