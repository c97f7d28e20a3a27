(** * GraphGrad3: the chain rule over a graph (for C38) *)
From Verif Require Export GraphGrad2.
Set Implicit Arguments.
Unset Strict Implicit.
Open Scope R_scope.
Notation node := (nat * nat)%type.

(** ** Pairing the change an update makes with the change of the node it goes to *)
Definition hit (args : list node) (p : rpart) (n : node) : bool :=
  match p_to p with Arg k => match nth_error args k with Some a => node_eqb a n | None => false end | Own => false end.
Lemma lsum_gets args ps n (f : rpart -> R) : lsum f (gets args ps n) = lsum (fun p => if hit args p n then f p else 0) ps.
Proof.
  unfold gets. rewrite lsum_flat_map. apply lsum_ext. intros p _. unfold hit. destruct (p_to p) as [k|]; auto. destruct (nth_error args k) as [a|]; auto. destruct (node_eqb a n); cbn [lsum]; auto. ring.
Qed.
Lemma pair_part s (p : rpart) (dx : coord' -> nat -> R) : wf s -> (bat s = 1 \/ p_bat p <= bat s)%nat ->
  tsum s (fun c q => adds_up s p c q * dx c q) = rsum (p_bat p) (fun n => vsum s (fun c => cval (p_val p c n) * dx c (bsel s n))).
Proof.
  intros W HB. unfold tsum.
  assert (E : forall q, vsum s (fun c => adds_up s p c q * dx c q) = rsum (p_bat p) (fun n => if Nat.eqb (bsel s n) q then vsum s (fun c => cval (p_val p c n) * dx c (bsel s n)) else 0)).
  { intros q. rewrite (@vsum_ext s _ (fun c => rsum (p_bat p) (fun n => if Nat.eqb (bsel s n) q then cval (p_val p c n) * dx c (bsel s n) else 0))); auto.
    - rewrite vsum_rsum. apply rsum_ext. intros n _. destruct (Nat.eqb (bsel s n) q); auto. apply csum_0. auto.
    - intros c _. unfold adds_up. rewrite <- rsum_scal_r. apply rsum_ext. intros n _. destruct (Nat.eqb_spec (bsel s n) q) as [->|]; ring. }
  rewrite (rsum_ext (n := bat s) (g := fun q => rsum (p_bat p) (fun n => if Nat.eqb (bsel s n) q then vsum s (fun c => cval (p_val p c n) * dx c (bsel s n)) else 0))) by auto.
  rewrite rsum_swap. apply rsum_ext. intros n Hn. rewrite (@rsum_delta (bat s) (bsel s n) (fun _ => vsum s (fun c => cval (p_val p c n) * dx c (bsel s n)))); auto. unfold bsel. pose proof (bat_pos W). destruct (Nat.eqb_spec (bat s) 1); lia.
Qed.

Section Chain.
Variable m : build.
Notation itp := (interp (K := Rnum) m).
Variables (g g1 : rgraph) (d root : nat) (gal : grad_alloc Rnum) (order : list nat).
Hypothesis GW : gwf g.
Hypothesis PL : placed itp g.
Hypothesis SUP : forall i o, uses g root i -> nth_error (g_ops g) i = Some o -> supported d g o.
Hypothesis LR : (root < length (g_ops g))%nat.
Hypothesis EVAL : forall i o, uses g root i -> nth_error (g_ops g) i = Some o -> eval itp g i = Ok (oi_vals o).
Hypothesis VALS : forall i o, uses g root i -> nth_error (g_ops g) i = Some o -> Forall (ready d) (oi_vals o).
Hypothesis SMOOTH : forall i o, uses g root i -> nth_error (g_ops g) i = Some o -> smooth (o_kind (oi_op o)) (xs_of g i) (map shp (oi_vals o)).
Hypothesis ORD : forall i, In i order <-> uses g root i.
Hypothesis ND : NoDup order.
Variables (us : nat -> list rupdate) (fin : node -> rtensor) (left : node -> coord' -> nat -> R).
Hypothesis GOOD : forall i o, uses g root i -> nth_error (g_ops g) i = Some o -> good m g g1 d root gal order left us fin i o.
(** the parameters move along [W] with speed [dW] *)
Variables (W : R -> nat -> rtensor) (dW : nat -> coord' -> nat -> R).
Hypothesis W0 : forall i o v, uses g root i -> nth_error (g_ops g) i = Some o -> o_kind (oi_op o) = KParameter v -> W 0 i = v.
Hypothesis WR : forall t i o v, uses g root i -> nth_error (g_ops g) i = Some o -> o_kind (oi_op o) = KParameter v -> ready d (W t i) /\ t_shape (W t i) = t_shape v.
Hypothesis WD : forall i o v c b, uses g root i -> nth_error (g_ops g) i = Some o -> o_kind (oi_op o) = KParameter v -> inb (t_shape v) c -> (b < bat (t_shape v))%nat ->
  D (fun t => at_ (W t i) c b) (dW i c b).

Notation gt t := (with_params (W t) g).
Definition Y (t : R) (i : nat) : list rtensor := match eval itp (gt t) i with Ok ys => ys | _ => [] end.
Definition X (t : R) (i : nat) : list rtensor := match mapM (eval_node itp (gt t)) (args_of g i) with Ok xs => xs | _ => [] end.
Definition nout (i : nat) : nat := length (ys_of g i).
Definition knot (i k : nat) : node := nth k (args_of g i) (0, 0)%nat.

Lemma XY t i o : uses g root i -> nth_error (g_ops g) i = Some o ->
  map shp (X t i) = arg_shapes g o /\ Forall (ready d) (X t i) /\ eval itp (gt t) i = Ok (Y t i) /\ map shp (Y t i) = map shp (oi_vals o) /\
  (forall k n, nth_error (oi_args o) k = Some n -> arg (X t i) k = arg (Y t (fst n)) (snd n)) /\
  (forall v s c b, nth_error (map shp (oi_vals o)) v = Some s -> inb s c -> (b < bat s)%nat -> at_ (arg (Y t i) v) c b = sem (o_kind (oi_op (with_param (W t i) o))) (X t i) v c b).
Proof.
  intros U Ho. destruct (eval_at (w := W t) GW PL SUP (fun i o v U Ho EK => WR t U Ho EK) U Ho) as (xs & ys & E1 & E2 & E3 & E4 & E5 & E6 & E7).
  assert (EX : X t i = xs) by (unfold X, args_of; rewrite Ho, E1; auto). assert (EY : Y t i = ys) by (unfold Y; rewrite E4; auto). rewrite EX, EY. split; auto. split; auto. split; auto. split; auto. split; auto.
  intros k n Hk. apply mapM_Forall2 in E1. destruct (Forall2_nth E1 Hk) as (x & Hx & En). rewrite (arg_nth Hx). unfold eval_node in En. apply bind_Ok in En. destruct En as (zs & Ez & Ez2). apply idx_nth_inv in Ez2. unfold Y. rewrite Ez. symmetry. apply arg_nth. auto.
Qed.
(** at [t = 0] these are the values in the graph *)
Lemma eval_0 : forall i o, uses g root i -> nth_error (g_ops g) i = Some o -> eval itp (gt 0) i = Ok (oi_vals o).
Proof.
  induction i as [i IH] using (well_founded_induction lt_wf). intros o U Ho.
  assert (Hgo : nth_error (g_ops (gt 0)) i = Some o).
  { rewrite nth_with_params, Ho. cbn. f_equal. unfold with_param. destruct (o_kind (oi_op o)) eqn:EK; auto. rewrite (W0 U Ho EK). destruct o as [[kd dv fal bal] ? ? ? ? ? ?]. cbn in * . congruence. }
  rewrite (eval_eq itp (with_params_gwf (W 0) GW) Hgo), <- (EVAL U Ho), (eval_eq itp GW Ho). f_equal. apply mapM_ext. intros n Hn. destruct (gwf_args GW Ho Hn) as (L & p & Hp & _). unfold eval_node. rewrite (IH _ L p (uses_arg U Ho Hn) Hp), (EVAL (uses_arg U Ho Hn) Hp). auto.
Qed.
Lemma Y_0 i o : uses g root i -> nth_error (g_ops g) i = Some o -> Y 0 i = oi_vals o. Proof. intros U Ho. unfold Y. rewrite (eval_0 U Ho). auto. Qed.
Lemma X_0 i o : uses g root i -> nth_error (g_ops g) i = Some o -> X 0 i = xs_of g i.
Proof.
  intros U Ho. unfold X, xs_of, args_of. rewrite Ho. rewrite (@mapM_ext _ _ (eval_node itp (gt 0)) (value_of g)); auto. intros n Hn. destruct (gwf_args GW Ho Hn) as (L & p & Hp & _). unfold eval_node, value_of. rewrite (eval_0 (uses_arg U Ho Hn) Hp), (idx_nth Hp). auto.
Qed.
Lemma shapes_wf (l : list rtensor) : Forall (ready d) l -> Forall wf (map shp l).
Proof. intros H. apply Forall_map. eapply Forall_impl; [|exact H]. intros t (_ & _ & _ & (OK & _)). apply OK. Qed.

(** the derivative of the outputs of operator [i] and how it relates to what its backward step sends *)
Definition out_pair (dY : nat -> nat -> coord' -> nat -> R) (i : nat) : R := rsum (nout i) (fun v => tsum (node_shape g (i, v)) (fun c b => at_ (fin (i, v)) c b * dY i v c b)).
Definition in_pair (dY : nat -> nat -> coord' -> nat -> R) (i : nat) : R :=
  lsum (psum (map (node_shape g) (args_of g i)) (fun k => dY (fst (knot i k)) (snd (knot i k)))) (ps_of g fin i).
Definition rule (dY : nat -> nat -> coord' -> nat -> R) (i : nat) (o : ropinfo) : Prop :=
  (forall v s c b, nth_error (map shp (oi_vals o)) v = Some s -> inb s c -> (b < bat s)%nat -> D (fun t => at_ (arg (Y t i) v) c b) (dY i v c b)) /\
  ((exists w, o_kind (oi_op o) = KParameter w) -> dY i 0%nat = dW i) /\
  ((forall w, o_kind (oi_op o) <> KParameter w) -> out_pair dY i = in_pair dY i).
Lemma part_arg i o p k : uses g root i -> nth_error (g_ops g) i = Some o -> In p (ps_of g fin i) -> p_to p = Arg k ->
  exists n, nth_error (oi_args o) k = Some n /\ knot i k = n /\ (fst n < i)%nat /\ uses g root (fst n) /\ (snd n < nout (fst n))%nat /\ wf (node_shape g n) /\
    (bat (node_shape g n) = 1 \/ p_bat p <= bat (node_shape g n))%nat.
Proof.
  intros U Ho Hp Ek. pose proof (part_facts GW SUP LR VALS U Ho (GOOD U Ho) Hp) as F. unfold p_fits in F. rewrite Ek in F. destruct F as (s & F & HB). unfold arg_shapes in F. rewrite nth_error_map in F.
  destruct (nth_error (oi_args o) k) as [n|] eqn:Ea; [|discriminate]. inversion F; subst s. pose proof (nth_error_In _ _ Ea) as HI. exists n. destruct (gwf_args GW Ho HI) as (L & q & Hq & L2 & _). pose proof (uses_arg U Ho HI) as Un.
  split; auto. split; [unfold knot, args_of; rewrite Ho; apply (nth_error_nth _ _ _ Ea)|]. split; auto. split; auto. split; [unfold nout, ys_of; rewrite Hq; auto|]. split; auto.
  destruct n as [j v]. cbn [fst snd] in * . pose proof (node_shape_val LR Hq L2) as Q. pose proof (shapes_wf (VALS Un Hq)) as WF. rewrite Forall_forall in WF. apply WF. eapply nth_error_In; eauto.
Qed.
Lemma rule_ext dY dY' i o : uses g root i -> nth_error (g_ops g) i = Some o -> (forall j, (j <= i)%nat -> dY j = dY' j) -> rule dY i o -> rule dY' i o.
Proof.
  intros U Ho H (A & B & C). unfold rule. rewrite <- (H i) by auto. split; auto. split; auto. intros NK. specialize (C NK). unfold out_pair in * . rewrite <- (H i) by auto. rewrite C. unfold in_pair. apply lsum_ext.
  intros p Hp. unfold psum. apply rsum_ext. intros n _. unfold pbat. destruct (p_to p) as [k|] eqn:Ek; auto. apply csum_ext. intros c _. destruct (part_arg U Ho Hp Ek) as (a & _ & E & L & _). rewrite E, H; auto. lia.
Qed.
Lemma node_wf i o v : uses g root i -> nth_error (g_ops g) i = Some o -> (v < length (oi_vals o))%nat -> wf (node_shape g (i, v)).
Proof. intros U Ho Hv. pose proof (node_shape_val LR Ho Hv) as Q. pose proof (shapes_wf (VALS U Ho)) as WF. rewrite Forall_forall in WF. apply WF. eapply nth_error_In; eauto. Qed.

Lemma chain : forall N, exists dY, forall i o, (i < N)%nat -> uses g root i -> nth_error (g_ops g) i = Some o -> rule dY i o.
Proof.
  induction N as [|N (dY & IH)]; [exists (fun _ _ _ _ => 0); intros; lia|].
  destruct (in_dec Nat.eq_dec N order) as [U|NU]; cycle 1.
  { exists dY. intros i o Hi Ui Ho. destruct (Nat.eq_dec i N) as [->|NE]; [exfalso; apply NU, ORD; auto|]. apply IH; auto. lia. }
  apply ORD in U. destruct (nth_error (g_ops g) N) as [o|] eqn:Ho; cycle 1.
  { exists dY. intros i o Hi Ui Ho'. destruct (Nat.eq_dec i N) as [->|NE]; [congruence|]. apply IH; auto. lia. }
  (* a derivative for the outputs of N *)
  assert (NEW : exists dy : nat -> coord' -> nat -> R, rule (fun j => if Nat.eqb j N then dy else dY j) N o).
  { assert (EY : ys_of g N = oi_vals o) by (unfold ys_of; rewrite Ho; auto). assert (EA : args_of g N = oi_args o) by (unfold args_of; rewrite Ho; auto).
    assert (KP : (exists v, o_kind (oi_op o) = KParameter v) \/ forall v, o_kind (oi_op o) <> KParameter v) by (destruct (o_kind (oi_op o)); try (right; congruence); left; eauto).
    destruct KP as [(w & EK)|NK].
    - exists (fun _ => dW N). split; [|split]; cbv beta; rewrite ?Nat.eqb_refl; auto; [|intros NK; exfalso; apply (NK w EK)]. intros v s c b Hv Hc Hb.
      destruct (own_value SUP U Ho EK) as (_ & y & EV & SY). rewrite EV in Hv. destruct v as [|v]; [|destruct v; discriminate]. inversion Hv; subst s.
      eapply deriv_ext; [|eapply (WD U Ho EK); rewrite <- SY; eauto]. intros t. destruct (XY t U Ho) as (_ & _ & _ & _ & _ & Q). rewrite (Q 0%nat (t_shape y) c b); auto; [|rewrite EV; reflexivity]. unfold with_param. rewrite EK. reflexivity.
    - pose proof (SUP U Ho) as S. destruct (fin_shapes LR (GOOD U Ho) Ho) as (FS & FR). destruct (xs_values GW LR VALS U Ho) as (X1 & X2 & X3).
      destruct (@local_all (o_kind (oi_op o)) (arg_shapes g o) (map shp (oi_vals o)) (fun t => X t N) (fun k => dY (fst (knot N k)) (snd (knot N k))) (oi_vals o) (gys_of g fin N)) as (dy & DY & SUM); auto.
      { intros t. apply (XY t U Ho). }
      { rewrite <- X3. apply shapes_wf. exact X2. }
      { apply shapes_wf. apply (VALS U Ho). }
      { intros k s c b Hk Hc Hb. unfold arg_shapes in Hk. rewrite nth_error_map in Hk. destruct (nth_error (oi_args o) k) as [n|] eqn:En; inversion Hk; subst s. pose proof (nth_error_In _ _ En) as HI. destruct (gwf_args GW Ho HI) as (L & q & Hq & L2 & _).
        assert (EN : knot N k = n) by (unfold knot; rewrite EA; apply (nth_error_nth _ _ _ En)). rewrite EN. eapply deriv_ext; [|apply (proj1 (IH (fst n) q L (uses_arg U Ho HI) Hq) (snd n) (node_shape g n)); auto; destruct n as [n1 n2]; apply (node_shape_val LR Hq L2)].
        intros t. destruct (XY t U Ho) as (_ & _ & _ & _ & Q & _). rewrite (Q k n En). reflexivity. }
      { intros v s c b Hv Hc Hb. destruct (XY 0 U Ho) as (_ & _ & _ & _ & _ & Q). rewrite (Y_0 U Ho) in Q. rewrite (Q v s c b Hv Hc Hb). unfold with_param. destruct (o_kind (oi_op o)) eqn:EK; rewrite ?EK; auto. exfalso. apply (NK _ eq_refl). }
      { apply (sup_typed S). } { apply (sup_bw S). } { rewrite (X_0 U Ho). apply (SMOOTH U Ho). }
      exists dy. split; [|split]; cbv beta; rewrite ?Nat.eqb_refl.
      + intros v s c b Hv Hc Hb. eapply deriv_ext; [|apply (DY v s c b Hv Hc Hb)]. intros t. destruct (XY t U Ho) as (_ & _ & _ & _ & _ & Q). rewrite (Q v s c b Hv Hc Hb). unfold with_param. destruct (o_kind (oi_op o)) eqn:EK; rewrite ?EK; auto. exfalso. apply (NK _ eq_refl).
      + intros (w & EK). exfalso. apply (NK w EK).
      + intros _. unfold out_pair, nout. rewrite EY. cbv beta. rewrite Nat.eqb_refl. rewrite map_length in SUM. transitivity (lsum (psum (arg_shapes g o) (fun k => dY (fst (knot N k)) (snd (knot N k)))) (ps_of g fin N)).
        * unfold ps_of, kind_of. rewrite Ho, EY, <- (X_0 U Ho), <- SUM. apply rsum_ext. intros v Hv. assert (EN : nth v (map shp (oi_vals o)) d0 = node_shape g (N, v)) by (apply nth_error_nth; apply (node_shape_val LR Ho Hv)).
          rewrite EN. apply tsum_ext; [apply (node_wf U Ho Hv)|]. intros c b _ _. f_equal. unfold gys_of. f_equal. symmetry. apply arg_nth. rewrite nth_error_map, EY, (nth_error_nth' (seq 0 (length (oi_vals o))) 0%nat) by (rewrite seq_length; auto). rewrite seq_nth by auto. reflexivity.
        * unfold in_pair. rewrite EA. fold (arg_shapes g o). apply lsum_ext. intros p Hp. unfold psum. apply rsum_ext. intros n _. unfold pbat. destruct (p_to p) as [k|] eqn:Ek; auto. apply csum_ext. intros c _.
          destruct (part_arg U Ho Hp Ek) as (a & _ & E & L & _). rewrite E. destruct (Nat.eqb_spec (fst a) N); [lia|auto]. }
  destruct NEW as (dy & NEW). exists (fun j => if Nat.eqb j N then dy else dY j). intros i p Hi Ui Hp. destruct (Nat.eq_dec i N) as [->|NE]; [replace p with o by congruence; auto|].
  apply rule_ext with dY; auto; [|apply IH; auto; lia]. intros j Hj. destruct (Nat.eqb_spec j N); [lia|auto].
Qed.

(** ** Double counting *)
Section Count.
Variable dY : nat -> nat -> coord' -> nat -> R.
Hypothesis RULE : forall i o, uses g root i -> nth_error (g_ops g) i = Some o -> rule dY i o.
Notation pp j := (psum (map (node_shape g) (args_of g j)) (fun k => dY (fst (knot j k)) (snd (knot j k)))).

Lemma op_of i : uses g root i -> exists o, nth_error (g_ops g) i = Some o.
Proof. intros U. destruct (uses_lt GW U LR) as (L & _). destruct (nth_error (g_ops g) i) as [o|] eqn:Ho; [eauto|apply nth_error_None in Ho; lia]. Qed.
Lemma pair_hit j p i v : uses g root j -> In p (ps_of g fin j) -> hit (args_of g j) p (i, v) = true ->
  tsum (node_shape g (i, v)) (fun c q => adds_up (node_shape g (i, v)) p c q * dY i v c q) = pp j p.
Proof.
  intros U Hp Hh. destruct (op_of U) as (o & Ho). unfold hit in Hh. destruct (p_to p) as [k|] eqn:Ek; [|discriminate]. destruct (part_arg U Ho Hp Ek) as (n & En & Kn & _ & _ & _ & Wn & Bn).
  assert (EA : args_of g j = oi_args o) by (unfold args_of; rewrite Ho; auto). rewrite EA, En in Hh. destruct (node_eqb_spec n (i, v)) as [E|]; [|discriminate]. rewrite E in * .
  rewrite pair_part by auto. unfold psum, pbat. rewrite Ek, Kn, EA. assert (NS : nth k (map (node_shape g) (oi_args o)) d0 = node_shape g (i, v)) by (apply nth_error_nth; rewrite nth_error_map, En; auto). rewrite NS. cbn [fst snd]. reflexivity.
Qed.
Definition left_pair (i : nat) : R := rsum (nout i) (fun v => tsum (node_shape g (i, v)) (fun c b => left (i, v) c b * dY i v c b)).
Lemma out_inner i : uses g root i -> i <> root ->
  out_pair dY i = left_pair i + rsum (nout i) (fun v => lsum (fun j => lsum (fun p => if hit (args_of g j) p (i, v) then pp j p else 0) (ps_of g fin j)) order).
Proof.
  intros U NE. destruct (op_of U) as (o & Ho). unfold out_pair, left_pair. rewrite <- rsum_plus. apply rsum_ext. intros v Hv. assert (EV : nout i = length (oi_vals o)) by (unfold nout, ys_of; rewrite Ho; auto). rewrite EV in Hv.
  destruct (go_fin (GOOD U Ho) Hv) as (_ & _ & _ & A). apply Nat.eqb_neq in NE. rewrite NE in A. set (s := node_shape g (i, v)) in * .
  rewrite (tsum_ext (s := s) (g := fun c q => left (i, v) c q * dY i v c q + lsum (fun j => lsum (fun p => adds_up s p c q * dY i v c q) (gets (args_of g j) (ps_of g fin j) (i, v))) order)); [|apply (node_wf U Ho Hv)|].
  - rewrite tsum_plus. f_equal. rewrite (tsum_lsum s (fun j c q => lsum (fun p => adds_up s p c q * dY i v c q) (gets (args_of g j) (ps_of g fin j) (i, v)))). apply lsum_ext. intros j Hj.
    rewrite (tsum_lsum s (fun p c q => adds_up s p c q * dY i v c q)), lsum_gets. apply lsum_ext. intros p Hp. destruct (hit (args_of g j) p (i, v)) eqn:Hh; auto. apply pair_hit; auto. apply ORD; auto.
  - intros c q Hc Hq. rewrite (A c q Hc Hq). rewrite Rmult_plus_distr_r. f_equal. rewrite <- lsum_scal_r. apply lsum_ext. intros j _. symmetry. apply lsum_scal_r.
Qed.
Lemma one_hit j p : uses g root j -> In p (ps_of g fin j) ->
  lsum (fun i => if Nat.eqb i root then 0 else rsum (nout i) (fun v => if hit (args_of g j) p (i, v) then pp j p else 0)) order = pp j p.
Proof.
  intros U Hp. destruct (op_of U) as (o & Ho). assert (EA : args_of g j = oi_args o) by (unfold args_of; rewrite Ho; auto). destruct (p_to p) as [k|] eqn:Ek.
  - destruct (part_arg U Ho Hp Ek) as ((i0, v0) & En & Kn & L & Un & Ln & _). cbn [fst snd] in * . transitivity (lsum (fun i => if Nat.eqb i0 i then pp j p else 0) order); [|apply lsum_delta; auto; apply ORD; auto]. apply lsum_ext. intros i Hi.
    assert (HH : forall v, hit (args_of g j) p (i, v) = node_eqb (i0, v0) (i, v)) by (intros v; unfold hit; rewrite Ek, EA, En; auto).
    destruct (Nat.eqb_spec i0 i) as [<-|NE].
    + destruct (Nat.eqb_spec i0 root) as [ER|NR]; [exfalso; subst i0; destruct (uses_lt GW U LR); lia|]. rewrite (@rsum_one (nout i0) v0); auto.
      * rewrite HH. destruct (node_eqb_spec (i0, v0) (i0, v0)); [reflexivity|congruence].
      * intros v _ NV. rewrite HH. destruct (node_eqb_spec (i0, v0) (i0, v)); [congruence|auto].
    + destruct (Nat.eqb i root); auto. apply rsum_0. intros v _. rewrite HH. destruct (node_eqb_spec (i0, v0) (i, v)); [congruence|auto].
  - transitivity 0; [apply lsum_0; intros i _; destruct (Nat.eqb i root); auto; apply rsum_0; intros v _; unfold hit; rewrite Ek; auto|]. symmetry. unfold psum, pbat. rewrite Ek. apply rsum_0. auto.
Qed.
Lemma counting : lsum (fun i => if Nat.eqb i root then 0 else out_pair dY i) order = lsum (fun i => if Nat.eqb i root then 0 else left_pair i) order + lsum (fun j => in_pair dY j) order.
Proof.
  rewrite (lsum_ext (g := fun i => (if Nat.eqb i root then 0 else left_pair i) + lsum (fun j => lsum (fun p => if Nat.eqb i root then 0 else rsum (nout i) (fun v => if hit (args_of g j) p (i, v) then pp j p else 0)) (ps_of g fin j)) order)).
  - rewrite lsum_plus. f_equal. rewrite lsum_swap. apply lsum_ext. intros j Hj. rewrite lsum_swap. unfold in_pair. apply lsum_ext. intros p Hp. apply one_hit; auto. apply ORD; auto.
  - intros i Hi. destruct (Nat.eqb_spec i root) as [E|NE]; [rewrite (lsum_0 (l := order)); [ring|]; intros; apply lsum_0; auto|]. rewrite out_inner by (auto; apply ORD; auto). f_equal.
    rewrite <- lsum_rsum. apply lsum_ext. intros j _. rewrite <- lsum_rsum. auto.
Qed.
(** the derivative of the sum of the elements of the root's outputs *)
Lemma root_sum : rsum (nout root) (fun v => tsum (node_shape g (root, v)) (fun c b => dY root v c b)) + lsum (fun i => if Nat.eqb i root then 0 else left_pair i) order =
  lsum (fun i => match kind_of g i with Some (KParameter _) => tsum (node_shape g (i, 0%nat)) (fun c b => at_ (fin (i, 0%nat)) c b * dW i c b) | _ => 0 end) order.
Proof.
  assert (UR : uses g root root) by constructor. destruct (op_of UR) as (o & Ho). assert (EV : ys_of g root = oi_vals o) by (unfold ys_of; rewrite Ho; auto).
  assert (E1 : out_pair dY root = rsum (nout root) (fun v => tsum (node_shape g (root, v)) (fun c b => dY root v c b))).
  { unfold out_pair. apply rsum_ext. intros v Hv. assert (L0 : (v < length (oi_vals o))%nat) by (rewrite <- EV; exact Hv). apply tsum_ext; [apply (node_wf UR Ho L0)|]. intros c b Hc Hb.
    destruct (go_fin (GOOD UR Ho) L0) as (_ & _ & _ & A). rewrite (A c b Hc Hb), Nat.eqb_refl. rewrite (lsum_0 (l := order)); [ring|]. intros j Hj. rewrite gets_not_arg; [reflexivity|]. apply (root_not_arg GW LR). apply ORD; auto. }
  rewrite <- E1.
  assert (E2 : lsum (fun i => out_pair dY i) order = lsum (fun i => if Nat.eqb i root then 0 else out_pair dY i) order + out_pair dY root).
  { transitivity (lsum (fun i => if Nat.eqb i root then 0 else out_pair dY i) order + lsum (fun i => if Nat.eqb root i then out_pair dY root else 0) order); [|rewrite (@lsum_delta order root (out_pair dY root) ND) by (apply ORD; auto); auto]. rewrite <- lsum_plus. apply lsum_ext. intros i _. rewrite (Nat.eqb_sym root i). destruct (Nat.eqb_spec i root) as [->|]; ring. }
  rewrite counting in E2.
  assert (E3 : lsum (fun i => out_pair dY i) order = lsum (fun i => in_pair dY i) order + lsum (fun i => match kind_of g i with Some (KParameter _) => tsum (node_shape g (i, 0%nat)) (fun c b => at_ (fin (i, 0%nat)) c b * dW i c b) | _ => 0 end) order).
  { rewrite <- lsum_plus. apply lsum_ext. intros i Hi. apply ORD in Hi. destruct (op_of Hi) as (p & Hp). destruct (RULE Hi Hp) as (_ & R2 & R3). unfold kind_of. rewrite Hp.
    assert (KP : (exists v, o_kind (oi_op p) = KParameter v) \/ forall v, o_kind (oi_op p) <> KParameter v) by (destruct (o_kind (oi_op p)); try (right; congruence); left; eauto).
    destruct KP as [(w & EK)|NK].
    - rewrite EK. destruct (own_value SUP Hi Hp EK) as (_ & y & EVp & _). assert (EN : nout i = 1%nat) by (unfold nout, ys_of; rewrite Hp, EVp; auto).
      assert (EI : in_pair dY i = 0). { unfold in_pair, ps_of, kind_of. rewrite Hp, EK. cbn [bwsem lsum]. unfold psum, pbat. cbn [p_to]. rewrite rsum_0 by auto. ring. }
      rewrite EI. unfold out_pair. rewrite EN, rsum_1, R2 by eauto. ring.
    - rewrite (R3 NK). destruct (o_kind (oi_op p)) eqn:EK; try ring. exfalso. eapply NK; reflexivity. }
  lra.
Qed.
End Count.

(** the sum of the elements of the root's outputs and, for every other operator, its outputs weighted
    with what was left in their gradients *)
Theorem chain_rule :
  D (fun t => rsum (nout root) (fun v => tsum (node_shape g (root, v)) (fun c b => at_ (arg (Y t root) v) c b)) +
       lsum (fun i => if Nat.eqb i root then 0 else rsum (nout i) (fun v => tsum (node_shape g (i, v)) (fun c b => left (i, v) c b * at_ (arg (Y t i) v) c b))) order)
    (rsum (length (g_ops g)) (fun i => if in_dec Nat.eq_dec i order then match kind_of g i with Some (KParameter _) => tsum (node_shape g (i, 0%nat)) (fun c b => at_ (fin (i, 0%nat)) c b * dW i c b) | _ => 0 end else 0)).
Proof.
  destruct (chain (length (g_ops g))) as (dY & RULE0).
  assert (RULE : forall i o, uses g root i -> nth_error (g_ops g) i = Some o -> rule dY i o) by (intros i o U Ho; apply RULE0; auto; eapply nth_error_Some_lt; eauto).
  assert (UR : uses g root root) by constructor. destruct (op_of UR) as (o & Ho). assert (EV : ys_of g root = oi_vals o) by (unfold ys_of; rewrite Ho; auto).
  eapply deriv_val; [apply deriv_add; [apply (@deriv_rsum (nout root) (fun v t => tsum (node_shape g (root, v)) (fun c b => at_ (arg (Y t root) v) c b)) (fun v => tsum (node_shape g (root, v)) (fun c b => dY root v c b)))|
    apply (@deriv_lsum nat order (fun t i => if Nat.eqb i root then 0 else rsum (nout i) (fun v => tsum (node_shape g (i, v)) (fun c b => left (i, v) c b * at_ (arg (Y t i) v) c b))) (fun i => if Nat.eqb i root then 0 else left_pair dY i))]|].
  - intros v Hv. assert (L0 : (v < length (oi_vals o))%nat) by (rewrite <- EV; exact Hv).
    apply (@deriv_tsum (node_shape g (root, v)) (fun t c b => at_ (arg (Y t root) v) c b) (fun c b => dY root v c b)); [apply (node_wf UR Ho L0)|].
    intros c b Hc Hb. apply (proj1 (RULE root o UR Ho) v (node_shape g (root, v))); auto. apply (node_shape_val LR Ho L0).
  - intros i Hi. apply ORD in Hi. destruct (op_of Hi) as (p & Hp). destruct (Nat.eqb i root); [apply deriv_const|]. assert (EN : nout i = length (oi_vals p)) by (unfold nout, ys_of; rewrite Hp; auto).
    apply (@deriv_rsum (nout i) (fun v t => tsum (node_shape g (i, v)) (fun c b => left (i, v) c b * at_ (arg (Y t i) v) c b)) (fun v => tsum (node_shape g (i, v)) (fun c b => left (i, v) c b * dY i v c b))).
    intros v Hv. rewrite EN in Hv. apply (@deriv_tsum (node_shape g (i, v)) (fun t c b => left (i, v) c b * at_ (arg (Y t i) v) c b) (fun c b => left (i, v) c b * dY i v c b)); [apply (node_wf Hi Hp Hv)|].
    intros c b Hc Hb. apply deriv_scal. apply (proj1 (RULE i p Hi Hp) v (node_shape g (i, v))); auto. apply (node_shape_val LR Hp Hv).
  - rewrite (root_sum RULE). rewrite <- (@lsum_in order).
    + apply lsum_ext. intros i Hi. destruct (in_dec Nat.eq_dec i order); [auto|contradiction].
    + auto.
    + intros i Hi. apply ORD in Hi. apply (uses_lt GW Hi LR).
    + intros i _ NI. destruct (in_dec Nat.eq_dec i order); [contradiction|auto].
Qed.
End Chain.
