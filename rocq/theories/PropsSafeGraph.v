(** * PropsSafeGraph: C58, building, evaluating and differentiating a graph never leaves a buffer

    [UB] is the result of a kernel that reads or writes outside a buffer (Base.v: [rd], [wr]). *)
From Verif Require Export SafeGraph4 PropsGraph.
Set Implicit Arguments.
Unset Strict Implicit.

Section Safety.
Variable K : num.
Notation tensor := (tensor K).
Notation graph := (graph K (oper K)).
Notation node := (nat * nat)%type.
Notation itp := (@interp K Debug).

(** ** Specification *)
(** [sane t] (Safe.v): the shape is consistent, and a buffer has room for all elements; safe code holds no other
    tensors (PropsSafe.v, [held_sane]).
    [supplied k] (SafeGraph3.v): the tensor of a leaf is sane, the shape of a reshape consistent, id lists are
    shorter than 2^32 and the exponent of powi is an i32. *)
(** what a function on nodes ensures when it creates operator [op] on [xs]: the second argument of a scalar operator is
    a scalar; the gradient borrowed from a Parameter has the shape of its value *)
Record created_well (g : graph) (op : oper K) (own : option tensor) (xs : list node) : Prop := mkWell {
  w_supplied : supplied (o_kind op);
  w_alloc : forall i, al_ok (o_fal op i) /\ al_ok (o_bal op i);
  w_scalar : match o_kind op with
    | KAddScalar | KSubScalarL | KSubScalarR | KMulScalar | KDivScalarL | KDivScalarR | KPowScalarL | KPowScalarR =>
        forall n v, nth_error xs 1 = Some n -> value_of g n = Ok v -> is_scalar (t_shape v) = true
    | _ => True end;
  w_own : forall t, own = Some t -> sane t /\ exists v, o_kind op = KParameter v /\ t_shape t = t_shape v }.
(** no operator that [root] uses is a batch_pick *)
Definition no_batch_pick (g : graph) (root : nat) : Prop := forall i o ids, uses g root i -> nth_error (g_ops g) i = Some o -> o_kind (oi_op o) <> KBatchPick ids.
(** gradients after a backward pass that panicked: the same operators, values and shapes; the buffers, if there are
    any, are large enough *)
Definition disturbed (g g' : graph) : Prop := g_log g' = g_log g /\ Forall2 (fun o o' : opinfo K (oper K) =>
  oi_op o' = oi_op o /\ oi_args o' = oi_args o /\ oi_vals o' = oi_vals o /\ oi_fwd o' = oi_fwd o /\ oi_depth o' = oi_depth o /\
  Forall2 (fun t t' => sane t' /\ t_shape t' = t_shape t) (oi_grads o) (oi_grads o') /\
  match oi_own o, oi_own o' with Some t, Some t' => sane t' /\ t_shape t' = t_shape t | None, None => True | _, _ => False end) (g_ops g) (g_ops g').
(** the graphs a program can have: nodes created, evaluated (also when that panicked half-way), differentiated *)
Inductive session : graph -> Prop :=
| s_empty : session empty
| s_create g op own xs g' ns : session g -> created_well g op own xs -> create itp g op own xs = Ok (g', ns) -> session g'
| s_forward g pop n g' r : session g -> node_forward itp pop g n = (g', r) -> session g'
| s_backward gal popf popb g n g' : session g -> fair_grads gal -> max_heap popb -> no_batch_pick g (fst n) -> node_backward Debug itp gal popf popb g n = Ok g' -> session g'
| s_panicked g g' : session g -> disturbed g g' -> session g'.

Lemma well_fit g op own xs : created_well g op own xs -> fit g op own xs.
Proof.
  intros [W1 W2 W3 W4]. split; auto.
  - intros H n v Hn Hv. destruct (o_kind op); try discriminate H; eapply W3; eauto.
  - intros t Et. destruct (W4 _ Et) as (S & v & Ek & Es). split; auto. rewrite Ek. cbn. congruence.
Qed.
Lemma uses_alike (g g' : graph) i j : alike g g' -> uses g' i j -> uses g i j.
Proof.
  intros H. induction 1 as [|i o n j Ho Hn H' IH]; [constructor|]. destruct (Forall2_at H Ho) as (o0 & Ho0 & _ & E & _). eapply uses_step; [exact Ho0| |exact IH]. rewrite <- E. exact Hn.
Qed.
Lemma uses_then (g : graph) i j n o : uses g i j -> nth_error (g_ops g) j = Some o -> In n (oi_args o) -> uses g i (fst n).
Proof. induction 1; intros Ho Hn; [eapply uses_step; eauto; constructor|eapply uses_step; eauto]. Qed.
Lemma requests_sound (g : graph) root i : In i (requests g root) -> uses g root i.
Proof.
  unfold requests. assert (H : forall fuel q r acc, (forall j, In j q -> uses g root j) -> (forall j, In j acc -> uses g root j) -> forall j, In j (collect g fuel q r acc) -> uses g root j).
  { induction fuel as [|fuel IH]; intros q r acc Hq Ha j Hj; cbn [collect] in Hj; [auto|]. destruct q as [|k q]; [auto|]. destruct (fold_left visit (arg_ops g k) (q, r)) as [q' r'] eqn:E. eapply IH in Hj; auto.
    - assert (HV : forall l st, (forall a, In a (fst st) -> uses g root a) -> (forall a, In a l -> uses g root a) -> forall a, In a (fst (fold_left visit l st)) -> uses g root a).
      { induction l as [|b l IHl]; intros st Hs Hl a Hin; cbn in Hin; [auto|]. eapply IHl; [| |exact Hin]; [|intros; apply Hl; right; auto]. intros c Hc. unfold visit in Hc. destruct st as [s1 s2]. destruct (mem b s2); [auto|].
        cbn [fst] in Hc. apply in_app_or in Hc. destruct Hc as [Hc|[<-|[]]]; [auto|]. apply Hl. left; auto. }
      intros a Hin. specialize (HV (arg_ops g k) (q, r)). rewrite E in HV. apply HV; [intros b Hb; apply Hq; right; auto| |exact Hin]. intros b Hb. unfold arg_ops in Hb. destruct (nth_error (g_ops g) k) as [o|] eqn:Ho; [|destruct Hb].
      apply in_map_iff in Hb. destruct Hb as (n & <- & Hn). eapply uses_then; eauto. apply Hq. left; auto.
    - intros a Hin. apply in_app_or in Hin. destruct Hin as [Hin|[<-|[]]]; [auto|]. apply Hq. left; auto. }
  intros Hin. eapply H; [| |exact Hin]; [intros j [<-|[]]; constructor|intros j []].
Qed.
Lemma backward_session gal pop (g : graph) root : fair_grads gal -> max_heap pop -> ginv g -> no_batch_pick g root -> good (keeps_all g) (backward Debug itp gal pop g root).
Proof.
  intros HA HP G HB. unfold backward. eapply good_bind; [apply seed_good; auto|]. intros g1 _ (G1 & H1). apply (loop_keeps (g0 := g)); [exact G1|exact H1|]. intros i g' Hi G' H'. apply step_bw_good; auto.
  intros o ids Ho. destruct (Forall2_at H' Ho) as (o0 & Ho0 & L & _). rewrite L. eapply HB; [|exact Ho0]. eapply uses_alike; [exact H1|]. apply requests_sound. destruct (HP (depth0 g1) (requests g1 root)) as (PM & _). eapply Permutation_in; [apply Permutation_sym; exact PM|exact Hi].
Qed.
Lemma forward_session pop (g : graph) n g' r : ginv g -> node_forward itp pop g n = (g', r) -> ginv g' /\ alike g g' /\ r <> UB.
Proof.
  intros G E. unfold node_forward, forward in E. destruct (run_fw_safe (pop (depth0 g) (requests g (fst n))) G) as (H1 & H2). rewrite E in H1, H2. split; auto. split; auto.
  clear H1 H2. revert E. generalize (pop (depth0 g) (requests g (fst n))) as l. intros l. revert G g' r. revert g. induction l as [|i l IH]; intros g G g' r E; cbn [run_fw] in E; [inversion E; subst; apply alike_refl|].
  assert (ST : alike g (fst (step_fw itp g i))).
  { unfold step_fw. destruct (nth_error (g_ops g) i) as [o|] eqn:Ho; [|apply alike_refl]. destruct (oi_fwd o); [apply alike_refl|].
    match goal with |- alike g (fst (match ?X with Ok _ => _ | Panic => _ | UB => _ end)) => destruct X as [ys| |] eqn:EY end; cbn [fst].
    - unfold alike, set_op. cbn [g_ops]. rewrite (lset_lset (g_ops g)). eapply Forall2_lset; [apply like_refl|exact Ho|]. repeat split. cbn [oi_vals]. apply bind_Ok in EY. destruct EY as (xs & _ & EY). apply shapes_of_blank. exact (@interp_lawful K Debug (oi_op o) _ _ _ EY).
    - unfold alike. cbn [g_ops]. eapply Forall2_lset; [apply like_refl|exact Ho|]. repeat split.
    - unfold alike. cbn [g_ops]. eapply Forall2_lset; [apply like_refl|exact Ho|]. repeat split. }
  destruct (step_fw_safe i G) as (H1 & H2). destruct (step_fw itp g i) as [g1 [u| |]]; cbn [fst snd] in *; try (inversion E; subst; exact ST). eapply alike_trans; [exact ST|]. eapply IH; eauto.
Qed.
Lemma node_backward_good gal popf popb (g : graph) n : ginv g -> fair_grads gal -> max_heap popb -> no_batch_pick g (fst n) -> good (@ginv K) (node_backward Debug itp gal popf popb g n).
Proof.
  intros G HA HP HB. unfold node_backward. destruct (node_forward itp popf g n) as [g1 r] eqn:E. destruct (forward_session G E) as (G1 & A1 & NU). destruct r as [u| |]; [|exact I|congruence].
  eapply good_weaken; [apply backward_session; auto|intros z Hz; apply Hz]. intros i o ids Hi Ho. destruct (Forall2_at A1 Ho) as (o0 & Ho0 & L & _). rewrite L. eapply HB; [|exact Ho0]. eapply uses_alike; eauto.
Qed.
Lemma disturbed_ginv g g' : ginv g -> disturbed g g' -> ginv g'.
Proof.
  intros G (_ & H). assert (HS : forall l l' : list tensor, Forall2 (fun t t' => sane t' /\ t_shape t' = t_shape t) l l' -> map (@t_shape K) l' = map (@t_shape K) l /\ Forall (@sane K) l').
  { induction 1 as [|a b l l' (H1 & H2) H3 (IH1 & IH2)]; cbn; auto. split; [congruence|auto]. }
  eapply ginv_alike; [exact G| |].
  - unfold alike. eapply Forall2_imp; [|exact H]. cbv beta. intros o o' (E1 & E2 & E3 & _ & _ & E4 & _). repeat split; auto; [congruence|]. apply (HS _ _ E4).
  - intros i o' Ho'. destruct (Forall2_at H Ho') as (o & Ho & E1 & E2 & E3 & _ & _ & E4 & E5). destruct (G _ _ Ho) as (_ & D1 & D2 & D3). split; [rewrite E3; auto|]. split; [apply (HS _ _ E4)|].
    intros t Et. rewrite Et in E5. destruct (oi_own o) as [q|]; [|destruct E5]. destruct E5 as (S & Es). split; auto. rewrite E1. destruct (D3 _ eq_refl) as (_ & E). congruence.
Qed.
Lemma session_ginv g : session g -> ginv g.
Proof.
  induction 1 as [|g op own xs g' ns H IH W E|g pop n g' r H IH E|gal popf popb g n g' H IH HA HP HB E|g g' H IH D].
  - intros [|i] o Ho; discriminate.
  - eapply create_ginv; eauto. apply well_fit; auto.
  - apply (forward_session IH E).
  - pose proof (node_backward_good popf IH HA HP HB) as G. rewrite E in G. exact G.
  - eapply disturbed_ginv; eauto.
Qed.

(** ** C58 *)
Theorem C58_evaluation_stays_in_bounds : forall g pop n, session g -> snd (node_forward itp pop g n) <> UB /\ snd (node_to_vec Debug itp pop g n) <> UB.
Proof.
  intros g pop n H. pose proof (session_ginv H) as G. unfold node_to_vec. destruct (node_forward itp pop g n) as [g1 r] eqn:E. destruct (forward_session G E) as (G1 & _ & NU). split; [exact NU|].
  destruct r as [u| |]; cbn [snd]; [|discriminate|congruence]. pose proof (value_sane n G1) as V. destruct (value_of g1 n) as [v| |]; cbn [bind] in *; [|discriminate|destruct V]. destruct V as (V & _).
  pose proof (g_to_vec V) as T. destruct (to_vec Debug v); [discriminate|discriminate|destruct T].
Qed.
Theorem C58_backward_stays_in_bounds : forall g gal popf popb n, session g -> fair_grads gal -> max_heap popb -> no_batch_pick g (fst n) -> node_backward Debug itp gal popf popb g n <> UB.
Proof. intros g gal popf popb n H HA HP HB E. pose proof (node_backward_good popf (session_ginv H) HA HP HB) as G. rewrite E in G. exact G. Qed.
Theorem C58_creation_stays_in_bounds : forall (g : graph) op own xs, create itp g op own xs <> UB.
Proof. intros g op own xs E. pose proof (create_good g op own xs) as G. rewrite E in G. exact G. Qed.

(** every function on nodes creates its operators well: a program that only uses them has sessions *)
Definition fair_buffers (bs : buffers K) : Prop := forall i, al_ok (fst bs i) /\ al_ok (snd bs i).
Lemma pop1_inv (r : res (graph * list node)) g n : pop1 r = Ok (g, n) -> exists ns, r = Ok (g, ns).
Proof. intros E. unfold pop1 in E. apply bind_Ok in E. destruct E as ([g' ns] & -> & E). apply bind_Ok in E. destruct E as (q & _ & E). inversion E; subst. eauto. Qed.
Lemma n_create_session (g : graph) bs k x args g' ns : session g -> fair_buffers bs -> supplied k ->
  (scalar_kind k = true -> forall n v, nth_error args 1 = Some n -> value_of g n = Ok v -> is_scalar (t_shape v) = true) -> n_create Debug g bs k x args = Ok (g', ns) -> session g'.
Proof.
  intros H HB HS HC E. unfold n_create in E. apply bind_Ok in E. destruct E as (d & _ & E). eapply s_create; [exact H| |exact E]. split; cbn [o_kind o_fal o_bal]; auto; [|discriminate].
  destruct k; auto; apply HC; reflexivity.
Qed.
Theorem C58_functions_with_one_operand : forall (k : kind K) (g : graph) bs x g' n, session g -> fair_buffers bs -> supplied k -> scalar_kind k = false -> n_op1 Debug k g bs x = Ok (g', n) -> session g'.
Proof. intros k g bs x g' n H HB HS HK E. unfold n_op1 in E. apply pop1_inv in E. destruct E as (ns & E). eapply n_create_session; eauto. congruence. Qed.
Theorem C58_arithmetic : forall (k kl kr : kind K) (g : graph) bs a b g' n, session g -> fair_buffers bs -> In (k, kl, kr) [(KAdd, KAddScalar, KAddScalar); (KSub, KSubScalarL, KSubScalarR); (KMul, KMulScalar, KMulScalar); (KDiv, KDivScalarL, KDivScalarR); (KPow, KPowScalarL, KPowScalarR)] ->
  n_op2 Debug k kl kr g bs a b = Ok (g', n) -> session g'.
Proof.
  intros k kl kr g bs a b g' n H HB HK E. assert (HS : supplied k /\ supplied kl /\ supplied kr /\ scalar_kind k = false) by (cbn [In] in HK; repeat (destruct HK as [HK|HK]; [injection HK as <- <- <-; cbn; auto|]); destruct HK).
  destruct HS as (S1 & S2 & S3 & S4). unfold n_op2 in E. apply bind_Ok in E. destruct E as (va & Ea & E). destruct (is_scalar (t_shape va)) eqn:Sa.
  - apply pop1_inv in E. destruct E as (ns & E). eapply n_create_session; [exact H|exact HB|exact S2| |exact E]. intros _ q v Hq Hv. cbn in Hq. injection Hq as <-. congruence.
  - apply bind_Ok in E. destruct E as (vb & Eb & E). destruct (is_scalar (t_shape vb)) eqn:Sb; apply pop1_inv in E; destruct E as (ns & E).
    + eapply n_create_session; [exact H|exact HB|exact S3| |exact E]. intros _ q v Hq Hv. cbn in Hq. injection Hq as <-. congruence.
    + eapply n_create_session; [exact H|exact HB|exact S1| |exact E]. congruence.
Qed.
Theorem C58_functions_with_more_operands : forall (g : graph) bs g' , session g -> fair_buffers bs ->
  (forall d x t n, n_softmax_cross_entropy Debug d g bs x t = Ok (g', n) -> session g') /\ (forall a b n, n_matmul Debug g bs a b = Ok (g', n) -> session g') /\
  (forall d k x ns, n_split Debug d k g bs x = Ok (g', ns) -> session g') /\ (forall k x ns, n_batch_split Debug k g bs x = Ok (g', ns) -> session g') /\
  (forall d xs n, n_concat Debug d g bs xs = Ok (g', n) -> session g') /\ (forall xs n, n_batch_concat Debug g bs xs = Ok (g', n) -> session g').
Proof.
  intros g bs g' H HB. repeat split.
  - intros d x t n E. apply pop1_inv in E. destruct E as (ns & E). eapply n_create_session; [exact H|exact HB| | |exact E]; [exact I|discriminate].
  - intros a b n E. apply pop1_inv in E. destruct E as (ns & E). eapply n_create_session; [exact H|exact HB| | |exact E]; [exact I|discriminate].
  - intros d k x ns E. eapply n_create_session; [exact H|exact HB| | |exact E]; [exact I|discriminate].
  - intros k x ns E. eapply n_create_session; [exact H|exact HB| | |exact E]; [exact I|discriminate].
  - intros d xs n E. unfold n_concat in E. apply bind_Ok in E. destruct E as (? & _ & E). apply bind_Ok in E. destruct E as (x0 & _ & E). apply pop1_inv in E. destruct E as (ns & E). eapply n_create_session; [exact H|exact HB| | |exact E]; [exact I|discriminate].
  - intros xs n E. unfold n_batch_concat in E. apply bind_Ok in E. destruct E as (? & _ & E). apply bind_Ok in E. destruct E as (x0 & _ & E). apply pop1_inv in E. destruct E as (ns & E). eapply n_create_session; [exact H|exact HB| | |exact E]; [exact I|discriminate].
Qed.
Theorem C58_flatten : forall (g : graph) bs x g' n, session g -> fair_buffers bs -> n_flatten Debug g bs x = Ok (g', n) -> session g'.
Proof.
  intros g bs x g' n H HB E. unfold n_flatten in E. apply bind_Ok in E. destruct E as (v & Ev & E). apply bind_Ok in E. destruct E as (s & Es & E). pose proof (value_sane x (session_ginv H)) as V. rewrite Ev in V. destruct V as (V & _).
  apply shape_new_iff in Es; [|apply (wf_batch (sane_wf V))]. destruct Es as (_ & _ & W & _). eapply C58_functions_with_one_operand; [exact H|exact HB| | |exact E]; [exact W|reflexivity].
Qed.
Theorem C58_softmax : forall d (g : graph) bss x g' n, session g -> (forall i, fair_buffers (bss i)) ->
  (n_ln_softmax Debug d g bss x = Ok (g', n) -> session g') /\ (n_softmax Debug d g bss x = Ok (g', n) -> session g').
Proof.
  assert (L : forall d (g : graph) bss x g' n, session g -> (forall i, fair_buffers (bss i)) -> n_ln_softmax Debug d g bss x = Ok (g', n) -> session g').
  { intros d g bss x g' n H HB E. unfold n_ln_softmax in E. apply bind_Ok in E. destruct E as ([g1 l] & E1 & E). apply bind_Ok in E. destruct E as (v & _ & E). apply bind_Ok in E. destruct E as ([g2 b] & E2 & E).
    assert (H1 : session g1) by (eapply C58_functions_with_one_operand; [exact H|exact (HB 0)| | |exact E1]; [exact I|reflexivity]).
    assert (H2 : session g2) by (eapply C58_functions_with_one_operand; [exact H1|exact (HB 1)| | |exact E2]; [exact I|reflexivity]).
    eapply C58_arithmetic; [exact H2|exact (HB 2)| |exact E]. right; left; reflexivity. }
  intros d g bss x g' n H HB. split; [eauto|]. intros E. unfold n_softmax in E. apply bind_Ok in E. destruct E as ([g1 l] & E1 & E). eapply C58_functions_with_one_operand; [eapply L; eauto|exact (HB 3)| | |exact E]; [exact I|reflexivity].
Qed.
Theorem C58_leaves : forall (g : graph) bs g' n, session g -> fair_buffers bs ->
  (forall t, sane t -> n_input Debug g bs t = Ok (g', n) -> session g') /\ (forall t, sane t -> n_input_owner Debug g bs t = Ok (g', n) -> session g') /\
  (forall value gradient, sane value -> sane gradient -> t_shape gradient = t_shape value -> n_parameter Debug g bs value gradient = Ok (g', n) -> session g').
Proof.
  intros g bs g' n H HB. repeat split.
  - intros t S E. unfold n_input, leaf in E. apply pop1_inv in E. destruct E as (ns & E). eapply s_create; [exact H| |exact E]. split; cbn; auto. discriminate.
  - intros t S E. unfold n_input_owner, leaf in E. apply pop1_inv in E. destruct E as (ns & E). eapply s_create; [exact H| |exact E]. split; cbn; auto. discriminate.
  - intros v t S1 S2 ES E. unfold n_parameter, leaf in E. apply pop1_inv in E. destruct E as (ns & E). eapply s_create; [exact H| |exact E]. split; cbn; auto. intros q Eq. injection Eq as <-. eauto.
Qed.
End Safety.

(** ** Concrete programs *)
Lemma tz_sane d ds b l : ready d (tz d ds b l) -> sane (tz d ds b l). Proof. apply ready_sane. Qed.
Lemma bz_fair : fair_buffers bz. Proof. intros i. split; apply alz_ok. Qed.
Lemma gz_fair : fair_grads gz. Proof. intros i v. apply alz_ok. Qed.
(** a parameter p = [5], p * p, its logsumexp ... : a session in which every theorem above applies, and which computes *)
Definition squared : res (Zgraph * (nat * nat)) :=
  ' (g1, x) <- paramz empty bz (tz 0 [2%N] 1 [5;7]%Z) (tz 0 [2%N] 1 [0;0]%Z) ;;
  ' (g2, y) <- n_mul (K := Znum) Debug g1 bz x x ;;
  n_sum (K := Znum) Debug 0 g2 bz y.
Definition okg (r : res (Zgraph * (nat * nat))) : Zgraph := match r with Ok (g, _) => g | _ => empty end.
Definition sq_g : Zgraph := Eval lazy -[alz Znum] in okg squared.
Lemma sq_eq : squared = Ok (sq_g, (2, 0)). Proof. reflexivity. Qed.
Lemma sq_session : session sq_g.
Proof.
  pose proof sq_eq as E. unfold squared in E. apply bind_Ok in E. destruct E as ([g1 x] & E1 & E). apply bind_Ok in E. destruct E as ([g2 y] & E2 & E).
  assert (S1 : session g1). { refine (proj2 (proj2 (@C58_leaves Znum empty bz g1 x (s_empty Znum) bz_fair)) _ _ _ _ _ E1); [apply tz_sane; rdy..|reflexivity]. }
  assert (S2 : session g2). { eapply C58_arithmetic; [exact S1|exact bz_fair| |exact E2]. right; right; left; reflexivity. }
  eapply C58_functions_with_one_operand; [exact S2|exact bz_fair| | |exact E]; [exact I|reflexivity].
Qed.
Lemma sq_no_pick : no_batch_pick sq_g 2.
Proof. intros i o ids _ Ho. destruct i as [|[|[|i]]]; cbn in Ho; try (injection Ho as <-; discriminate). destruct i; discriminate. Qed.
Example C58_applies : node_backward Debug itz gz fifo_min fifo_max sq_g (2, 0) <> UB /\ exists g', node_backward Debug itz gz fifo_min fifo_max sq_g (2, 0) = Ok g' /\ param_grad g' 0 = Ok [10; 14]%Z.
Proof.
  split; [apply (@C58_backward_stays_in_bounds Znum sq_g gz fifo_min fifo_max (2, 0) sq_session gz_fair (proj1 (proj2 (proj2 heaps_ok))) sq_no_pick)|].
  assert (X : (g <- node_backward Debug itz gz fifo_min fifo_max sq_g (2, 0) ;; param_grad g 0) = Ok [10; 14]%Z) by (vm_compute; reflexivity).
  apply bind_Ok in X. destruct X as (g' & E & X). exists g'. split; [exact E|exact X].
Qed.

(** *** What the conditions leave out *)
(** Parameter::new checks that value and gradient have no minibatch, not that they have the same shape: the backward
    pass then writes behind the end of the gradient *)
Definition mp_g : Zgraph := Eval lazy -[alz Znum] in okg (paramz empty bz (tz 0 [2%N] 1 [5;7]%Z) (tz 0 [1%N] 1 [0]%Z)).
Theorem C58_parameter_refuted : exists value gradient g n, ready 0 value /\ ready 0 gradient /\ batch (t_shape value) = 1%N /\ batch (t_shape gradient) = 1%N /\
  n_parameter (K := Znum) Debug empty bz value gradient = Ok (g, n) /\ node_backward Debug itz gz fifo_min fifo_max g n = UB.
Proof.
  exists (tz 0 [2%N] 1 [5;7]%Z), (tz 0 [1%N] 1 [0]%Z), mp_g, (0, 0).
  split; [rdy|]. split; [rdy|]. split; [reflexivity|]. split; [reflexivity|]. split; [reflexivity|]. vm_compute. reflexivity.
Qed.
(** batch_pick: its gradient function takes the ids for positions *)
Definition eight : tensor Znum := tz 0 [1%N] 8 [1;2;3;4;5;6;7;8]%Z.
Definition picked : res (Zgraph * (nat * nat)) := ' (g1, x) <- inputz empty bz eight ;; n_batch_pick (K := Znum) Debug [7;7;7;7;7;7]%N g1 bz x.
Definition bp_g : Zgraph := Eval lazy -[alz Znum] in okg picked.
Lemma bp_eq : picked = Ok (bp_g, (1, 0)). Proof. reflexivity. Qed.
Lemma bp_session : session bp_g.
Proof.
  pose proof bp_eq as E. unfold picked in E. apply bind_Ok in E. destruct E as ([g1 x] & E1 & E).
  assert (S1 : session g1). { refine (proj1 (@C58_leaves Znum empty bz g1 x (s_empty Znum) bz_fair) _ _ E1). apply tz_sane. rdy. }
  eapply C58_functions_with_one_operand; [exact S1|exact bz_fair| | |exact E]; [|reflexivity]. cbn. reflexivity.
Qed.
Theorem C58_batch_pick_refuted : exists (g : Zgraph) n, session g /\ node_backward Debug itz gz fifo_min fifo_max g n = UB.
Proof. exists bp_g, (1, 0). split; [exact bp_session|]. vm_compute. reflexivity. Qed.
