(** * PropsTrain: C59, training follows the gradient of the loss

    A training step as a program writes it: make a graph from the parameters, call [backward] on the loss, call
    [Optimizer::update_parameters]. Node::backward (C38) and the optimizers (C43-C46) are put together here. *)
From Verif Require Export PropsProgram.
From Verif Require Import PropsOptim.
Set Implicit Arguments.
Unset Strict Implicit.
Open Scope R_scope.
Notation opt := (Optim.opt Rnum).
Notation param := (Optim.param Rnum).

(** ** Specification *)
(** the nodes made of the parameters are the operators [ix] of the graph; such an operator holds a copy of the value and
    a reference to the gradient of the parameter (graph.rs L225-243) *)
Definition borrows (g : rgraph) (ix : list nat) (ps : list param) : Prop :=
  Forall2 (fun i p => exists o, nth_error (g_ops g) i = Some o /\ o_kind (oi_op o) = KParameter (p_value p) /\ oi_own o = Some (p_grad p)) ix ps.
(** the parameters when the graph, now [g'], is dropped *)
Definition returned (g' : rgraph) (ix : list nat) (ps : list param) : list param :=
  map (fun ip => mkParam (p_value (snd ip)) (match own_of g' (fst ip) with Some a => a | None => p_grad (snd ip) end) (p_stats (snd ip))) (combine ix ps).
(** [L] is the derivative of the loss [n] by the element [c] of the parameter at operator [i] *)
Definition slope (g : rgraph) (n : node) (i : nat) (p : param) (c : coord') (L : R) : Prop :=
  D (fun t => total Debug (with_value i (bump (p_value p) c 0 t) g) n) L.
(** a parameter as [good] in PropsOptim.v, with its gradient reset *)
Definition clear (d : nat) (s : shape) (names : list string) (p : param) : Prop := good d s names p /\ forall c, inb s c -> grad p c = 0.
(** [N] training steps: step [n] starts with the parameters [ps n], all of whose gradients are zero; the loss of a
    program that uses them is differentiated, which leaves the parameters [qs n]; these are updated. The programs may be
    different in each step, as may the settings of the optimizer *)
Record training (a : algo Rnum) (N d : nat) (ss : list shape) (os : nat -> opt) (ps qs : nat -> list param) (gs : nat -> rgraph) (ns : nat -> node) (ix : nat -> list nat) : Prop := mkTraining {
  t_algo : forall n, o_algo (os n) = a;
  t_plain : forall n, o_l2 (os n) = 0 /\ o_clip (os n) = 0;
  t_epoch : forall n, o_epoch (os n) = N.of_nat n;
  t_small : (N.of_nat N < two32)%N;
  t_start : Forall2 (fun s p => clear d s (needed a) p) ss (ps 0%nat);
  t_loss : forall n, (n < N)%nat -> program d (gs n) /\ loss_of (gs n) (ns n) /\ borrows (gs n) (ix n) (ps n);
  t_backward : forall n, (n < N)%nat -> exists gal popf popb g', min_heap popf /\ max_heap popb /\ fair_grads gal /\
    node_backward Debug (interp Debug) gal popf popb (gs n) (ns n) = Ok g' /\ qs n = returned g' (ix n) (ps n);
  t_update : forall n, (n < N)%nat -> exists als o', (forall i j k, al_ok (als i j k)) /\ update_parameters Debug als (os n) (qs n) = Ok (o', ps (S n)) }.

(** ** A parameter the loss does not use *)
Lemma unused_eval (g : rgraph) i w j : gwf g -> (j < length (g_ops g))%nat -> ~ uses g j i -> eval (interp Debug) (with_value i w g) j = eval (interp Debug) g j.
Proof.
  intros GW. induction j as [j IH] using (well_founded_induction lt_wf). intros L NU. destruct (nth_error (g_ops g) j) as [o|] eqn:Ho; [|apply nth_error_None in Ho; lia].
  assert (NE : j <> i) by (intros ->; apply NU; constructor).
  assert (Hw : nth_error (g_ops (with_value i w g)) j = Some o).
  { unfold with_value. rewrite nth_with_params, Ho. cbn [option_map]. apply Nat.eqb_neq in NE. rewrite NE. f_equal. unfold with_param, param_value, kind_of. rewrite Ho. destruct (o_kind (oi_op o)) eqn:EK; auto. destruct o as [[? ? ? ?] ? ? ? ? ? ?]. cbn in * . congruence. }
  assert (GW2 : gwf (with_value i w g)) by (apply with_params_gwf; auto).
  rewrite (eval_eq (interp Debug) GW2 Hw), (eval_eq (interp Debug) GW Ho).
  assert (EM : mapM (eval_node (interp Debug) (with_value i w g)) (oi_args o) = mapM (eval_node (interp Debug) g) (oi_args o)).
  { apply mapM_ext. intros n Hn. destruct (gwf_args GW Ho Hn) as (Ln & p & Hp & _). unfold eval_node. rewrite IH; auto.
    - eapply nth_error_Some_lt; eauto.
    - intros U. apply NU. eapply uses_step; eauto. }
  rewrite EM. reflexivity.
Qed.
Lemma unused_slope d (g : rgraph) n i p c : program d g -> (fst n < length (g_ops g))%nat -> ~ uses g (fst n) i -> slope g n i p c 0.
Proof.
  intros P L NU. destruct (clean_inv (interp_lawful (K := Rnum) (m := Debug)) (built_clean (program_built P))) as (GW & _). unfold slope.
  eapply deriv_ext; [|apply (deriv_const (total Debug g n))]. intros t. unfold total, eval_node. rewrite unused_eval; auto.
Qed.

Lemma uses_dec (g : rgraph) root i : gwf g -> (root < length (g_ops g))%nat -> uses g root i \/ ~ uses g root i.
Proof. intros GW L. destruct (requests_spec GW L) as (_ & H). destruct (in_dec Nat.eq_dec i (requests g root)) as [HI|HI]; [left|right]; rewrite <- H; auto. Qed.

Lemma Forall2_len A B (P : A -> B -> Prop) l l' : Forall2 P l l' -> length l = length l'. Proof. induction 1; cbn; auto. Qed.

(** ** One step *)
Lemma backward_returns d (g : rgraph) n gal popf popb ix ps ss names : program d g -> loss_of g n -> min_heap popf -> max_heap popb -> fair_grads gal -> borrows g ix ps ->
  Forall2 (fun s p => clear d s names p) ss ps ->
  exists g', node_backward Debug (interp Debug) gal popf popb g n = Ok g' /\ Forall2 (fun s q => good d s names q) ss (returned g' ix ps) /\ Forall2 same_but_grad ps (returned g' ix ps) /\
    forall j i s p q c, nth_error ix j = Some i -> nth_error ss j = Some s -> nth_error ps j = Some p -> nth_error (returned g' ix ps) j = Some q -> inb s c -> slope g n i p c (grad q c).
Proof.
  intros P L HF HX HA HB HC. destruct (C38_programs P L HF HX HA) as (g' & E & NU & US). exists g'. split; auto.
  destruct (clean_inv (interp_lawful (K := Rnum) (m := Debug)) (built_clean (program_built P))) as (GW & _). destruct L as [(L0 & oR & HoR & _) _ _ _]. pose proof (nth_error_Some_lt HoR) as LR.
  assert (ONE : forall i p s, (exists o, nth_error (g_ops g) i = Some o /\ o_kind (oi_op o) = KParameter (p_value p) /\ oi_own o = Some (p_grad p)) -> clear d s names p ->
    exists a', own_of g' i = Some a' /\ whole d s a' /\ forall c, inb s c -> slope g n i p c (at_ a' c 0)).
  { intros i p s (o & Ho & EK & EO) (G & Z). destruct G as (WV & WG & WS & WN). destruct WV as (Bs & RV & SV). destruct (uses_dec i GW LR) as [U|U].
    - destruct (US i o (p_value p) U Ho EK) as (a & a' & A1 & A2 & A3 & A4 & A5). exists a'. split; auto. split; [split; auto; split; auto; congruence|]. intros c Hc. rewrite SV in A5. specialize (A5 c 0%nat Hc ltac:(lia)).
      unfold own_of in A1. rewrite Ho, EO in A1. injection A1 as <-. specialize (Z c Hc). unfold grad in Z. unfold slope. eapply deriv_val; [exact A5|]. rewrite Z. change (F Rnum) with R. ring.
    - exists (p_grad p). split; [rewrite NU by auto; unfold own_of; rewrite Ho; auto|]. split; auto. intros c Hc. specialize (Z c Hc). unfold grad in Z. rewrite Z. eapply unused_slope; eauto. }
  assert (ALL : Forall2 (fun s q => good d s names q) ss (returned g' ix ps) /\ Forall2 same_but_grad ps (returned g' ix ps) /\
    forall j i s p q c, nth_error ix j = Some i -> nth_error ss j = Some s -> nth_error ps j = Some p -> nth_error (returned g' ix ps) j = Some q -> inb s c -> slope g n i p c (grad q c)).
  { clear - HB HC ONE. revert ss HC. induction HB as [|i p ix ps H HB IH]; intros ss HC; inversion HC as [|s ? ss' ? HC1 HC2]; subst; [repeat split; try constructor; intros [|j]; discriminate|].
    destruct (IH _ HC2) as (I1 & I2 & I3). destruct (ONE i p s H HC1) as (a' & Ea & Wa & Sa). destruct HC1 as ((V1 & V2 & V3 & V4) & _). unfold returned. cbn [combine map fst snd]. rewrite Ea. split; [|split].
    - constructor; auto. split; [exact V1|]. split; [exact Wa|]. split; auto.
    - constructor; auto. split; reflexivity.
    - intros [|j] i' s' p' q c E1 E2 E3 E4 Hc; cbn in E1, E2, E3, E4; [|eapply I3; eauto]. injection E1 as <-. injection E2 as <-. injection E3 as <-. injection E4 as <-. apply Sa. exact Hc. }
  exact ALL.
Qed.

(** backward, then an update by any optimizer: the contents [xs] of the parameters that the optimizer sees have the
    partial derivatives of the loss as gradients; what it makes of them is stated by [prepared] and [updated]
    (PropsOptim.v) *)
Theorem C59_step : forall d (g : rgraph) n gal popf popb ix ps ss names (als : nat -> nat -> nat -> alloc_oracle Rnum) (o : opt),
  program d g -> loss_of g n -> min_heap popf -> max_heap popb -> fair_grads gal -> borrows g ix ps -> Forall2 (fun s p => clear d s names p) ss ps ->
  (forall i j k, al_ok (als i j k)) -> (o_epoch o < two32 - 1)%N ->
  exists g' (xs : list (item Rnum)), node_backward Debug (interp Debug) gal popf popb g n = Ok g' /\
    (forall j i s p x, nth_error ix j = Some i -> nth_error ss j = Some s -> nth_error ps j = Some p -> nth_error xs j = Some x ->
       i_dev x = d /\ i_shape x = s /\ c_value (i_c x) = val p /\ forall c, inb s c -> slope g n i p c (c_grad (i_c x) c)) /\
    length xs = length ps /\
    forall ys, Forall2 (updated o) (prepared o xs) ys ->
      exists ps', update_parameters Debug als o (returned g' ix ps) = Ok (mkOpt (o_epoch o + 1) (o_scale o) (o_l2 o) (o_clip o) (o_algo o), ps') /\ are_params ys ps'.
Proof.
  intros d g n gal popf popb ix ps ss names als o P L HF HX HA HB HC HAL HE. destruct (backward_returns P L HF HX HA HB HC) as (g' & E & G & SG & SL).
  set (qs := returned g' ix ps) in * . exists g', (map (fun sq => mkI d (fst sq) (view (snd sq))) (combine ss qs)). split; auto.
  pose proof (Forall2_len G) as L1. pose proof (Forall2_len SG) as L2. split; [|split].
  - intros j i s p x Ei Es Ep Ex. rewrite nth_error_map in Ex. destruct (nth_error qs j) as [q|] eqn:Eq; [|apply nth_error_None in Eq; apply nth_error_Some_lt in Ep; lia].
    assert (EC : nth_error (combine ss qs) j = Some (s, q)). { clear - Es Eq. revert j Es Eq. generalize qs as l. induction ss as [|a ss IH]; intros l [|j] Es Eq; try discriminate; destruct l; try discriminate; cbn in *; [congruence|eauto]. }
    rewrite EC in Ex. cbn in Ex. injection Ex as <-. cbn. split; auto. split; auto. destruct (F2nth SG Ep Eq) as (V1 & _). split; [unfold val; rewrite V1; auto|]. intros c Hc. eapply SL; eauto.
  - rewrite map_length, combine_length. lia.
  - intros ys HY. refine (@C46_update_parameters Rnum Debug Rnum_commutes als o _ qs ys HAL HE _ HY). clear - G. induction G as [|s q ss l H G IH]; constructor; auto. cbn. eapply view_ok; eauto.
Qed.

(** ** Many steps *)
Lemma is_param_good d s names (x : contents Rnum) p : is_param d s x p -> Forall (fun n => c_stat x n <> None) names -> good d s names p.
Proof.
  intros (V & G & ST) HN. assert (EW : forall f t, elems (K := Rnum) d s f t -> whole d s t) by (intros f t (B & R & Q & _); split; auto). split; [eapply EW; eauto|]. split; [eapply EW; eauto|]. split.
  - intros n t Ht. specialize (ST n). rewrite Ht in ST. destruct (c_stat x n); [eapply EW; eauto|destruct ST].
  - eapply Forall_impl; [|exact HN]. cbv beta. intros n H. specialize (ST n). destruct (c_stat x n); [|congruence]. destruct (st_get n (p_stats p)); [discriminate|destruct ST].
Qed.
Lemma stepped_some a scale n q d s : good d s (needed a) q -> exists z, stepped a scale n (view q) = Some z /\ Forall (fun n => c_stat z n <> None) (needed a).
Proof.
  intros (_ & _ & _ & H). unfold stepped. destruct a; cbn [needed] in * ; cbn [view c_stat].
  - eexists. split; [reflexivity|constructor].
  - inversion H; subst. destruct (st_get _ _); [|congruence]. eexists. split; [reflexivity|]. constructor; [|constructor]. cbn. discriminate.
  - inversion H as [|? ? H1 H2]; subst. inversion H2; subst. destruct (st_get "Adam.m1" _); [|congruence]. destruct (st_get "Adam.m2" _); [|congruence]. eexists. split; [reflexivity|]. constructor; [|constructor; [|constructor]]; cbn; discriminate.
Qed.
Lemma update_clears (a : algo Rnum) als (o : opt) d ss (qs : list param) o' ps' : o_algo o = a -> o_l2 o = 0 -> o_clip o = 0 -> (o_epoch o < two32 - 1)%N -> (forall i j k, al_ok (als i j k)) -> Forall2 (fun s q => good d s (needed a) q) ss qs ->
  update_parameters Debug als o qs = Ok (o', ps') -> Forall2 (fun s p => clear d s (needed a) p) ss ps'.
Proof.
  intros EA P1 P2 HE HA G E.
  assert (YS : exists ys : list (item Rnum), Forall2 (updated o) (map (fun sq => mkI d (fst sq) (view (snd sq))) (combine ss qs)) ys /\ Forall2 (fun s (y : item Rnum) => i_dev y = d /\ i_shape y = s /\ (forall c, c_grad (i_c y) c = 0) /\ Forall (fun n => c_stat (i_c y) n <> None) (needed a)) ss ys).
  { clear - G EA. induction G as [|s q ss l H G (ys & I1 & I2)]; [exists []; split; constructor|]. destruct (stepped_some (o_scale o) (o_epoch o + 1) H) as (z & Ez & Hz). rewrite <- EA in Ez. exists (mkI d s (no_grad z) :: ys).
    split.
    - constructor; [split; [reflexivity|]; split; [reflexivity|]; exists z; auto|exact I1].
    - constructor; [cbn; auto|exact I2]. }
  destruct YS as (ys & Y1 & Y2). destruct (@C46_update_parameters Rnum Debug Rnum_commutes als o (map (fun sq => mkI d (fst sq) (view (snd sq))) (combine ss qs)) qs ys) as (ps2 & E2 & AP); auto.
  - clear - G. induction G as [|s q ss l H G IH]; constructor; auto. cbn. eapply view_ok; eauto.
  - unfold prepared. rewrite P1, P2. cbn [nlt Rnum n0]. rewrite Rltb_false by lra. exact Y1.
  - rewrite E2 in E. injection E as _ <-. clear - AP Y2. revert ps2 AP. induction Y2 as [|s y ss ys (D1 & D2 & D3 & D4) Y2 IH]; intros ps2 AP; inversion AP as [|? p ? ps' H1 H2]; subst; constructor; auto.
    split; [eapply is_param_good; eauto|]. destruct H1 as (_ & (B & _ & _ & V) & _). intros c Hc. unfold grad. rewrite V by (auto; lia). apply D3.
Qed.

Section Training.
Variables (a : algo Rnum) (N d : nat) (ss : list shape) (os : nat -> opt) (ps qs : nat -> list param) (gs : nat -> rgraph) (ns : nat -> node) (ix : nat -> list nat).
Hypothesis HT : training a N d ss os ps qs gs ns ix.

Lemma training_step n : (n < N)%nat -> Forall2 (fun s p => clear d s (needed a) p) ss (ps n) ->
  Forall2 (fun s q => good d s (needed a) q) ss (qs n) /\ Forall2 same_but_grad (ps n) (qs n) /\
  forall j i s p q c, nth_error (ix n) j = Some i -> nth_error ss j = Some s -> nth_error (ps n) j = Some p -> nth_error (qs n) j = Some q -> inb s c -> slope (gs n) (ns n) i p c (grad q c).
Proof.
  intros Hn HC. destruct (t_loss HT Hn) as (P & L & B). destruct (t_backward HT Hn) as (gal & popf & popb & g' & HF & HX & HA & E & EQ).
  destruct (backward_returns P L HF HX HA B HC) as (g2 & E2 & G & SG & SL). assert (QQ : g2 = g') by congruence. rewrite QQ in G, SG, SL. rewrite EQ. auto.
Qed.
Lemma training_clear n : (n <= N)%nat -> Forall2 (fun s p => clear d s (needed a) p) ss (ps n).
Proof.
  induction n as [|n IH]; intros Hn; [apply (t_start HT)|]. destruct (@training_step n ltac:(lia) (IH ltac:(lia))) as (G & _). destruct (@t_update _ _ _ _ _ _ _ _ _ _ HT n Hn) as (als & o' & HA & E). destruct (t_plain HT n) as (P1 & P2).
  eapply update_clears; [apply (t_algo HT n)|exact P1|exact P2| |exact HA|exact G|exact E]. rewrite (t_epoch HT n). pose proof (t_small HT). change two32 with 4294967296%N in * . lia.
Qed.
(** training is a run of the optimizer in the sense of C44 and C45, every step of which is given the partial
    derivatives of its loss, and after every step all gradients are zero again *)
Theorem C59_training : run Debug a N (map (pair d) ss) os ps qs /\
  (forall n, (n <= N)%nat -> Forall2 (fun s p => clear d s (needed a) p) ss (ps n)) /\
  forall n j i s p q c, (n < N)%nat -> nth_error (ix n) j = Some i -> nth_error ss j = Some s -> nth_error (ps n) j = Some p -> nth_error (qs n) j = Some q -> inb s c ->
    slope (gs n) (ns n) i p c (grad q c).
Proof.
  split; [|split].
  - constructor; try apply HT.
    + intros n Hn. destruct (@training_step n Hn (training_clear (n := n) ltac:(lia))) as (G & _). clear - G. induction G; cbn; constructor; auto.
    + intros n Hn. apply (@training_step n Hn (training_clear (n := n) ltac:(lia))).
  - apply training_clear.
  - intros n j i s p q c Hn. apply (@training_step n Hn (training_clear (n := n) ltac:(lia))).
Qed.
End Training.

(** the parameter [j] of the training through its steps; [L k c]: the derivative of the loss of step [k] *)
Record followed (N : nat) (ss : list shape) (ps : nat -> list param) (gs : nat -> rgraph) (ns : nat -> node) (ix : nat -> list nat) (j : nat) (s : shape) (P : nat -> param) (L : nat -> coord' -> R) : Prop := mkFollowed {
  f_shape : nth_error ss j = Some s;
  f_param : forall n, (n <= N)%nat -> nth_error (ps n) j = Some (P n);
  f_slope : forall n c, (n < N)%nat -> inb s c -> exists i, nth_error (ix n) j = Some i /\ slope (gs n) (ns n) i (P n) c (L n c) }.
Section Rules.
Variables (N d : nat) (ss : list shape) (os : nat -> opt) (ps qs : nat -> list param) (gs : nat -> rgraph) (ns : nat -> node) (ix : nat -> list nat) (j : nat) (s : shape) (P : nat -> param) (L : nat -> coord' -> R).
Hypothesis HFO : followed N ss ps gs ns ix j s P L.
Lemma the_gradient a n : training a N d ss os ps qs gs ns ix -> (n < N)%nat -> exists Q, nth_error (qs n) j = Some Q /\ forall c, inb s c -> grad Q c = L n c.
Proof.
  intros HT Hn. destruct (C59_training HT) as (HR & HC & HS). pose proof (run_grad HR Hn) as SG. pose proof (f_param HFO (n := n) ltac:(lia)) as HP.
  destruct (Forall2_at' SG HP) as (Q & HQ & _). exists Q. split; auto. intros c Hc. destruct (f_slope HFO Hn Hc) as (i & Hi & SL). pose proof (HS n j i s (P n) Q c Hn Hi (f_shape HFO) HP HQ Hc) as SL'. exact (uniqueness_limite _ _ _ _ SL' SL).
Qed.
Lemma the_parameters a : training a N d ss os ps qs gs ns ix -> exists Q, (forall n, (n < N)%nat -> nth_error (qs n) j = Some (Q n)) /\ forall n c, (n < N)%nat -> inb s c -> grad (Q n) c = L n c.
Proof.
  intros HT. exists (fun n => match nth_error (qs n) j with Some q => q | None => P 0 end). split; intros n.
  - intros Hn. destruct (the_gradient HT Hn) as (Q & -> & _). auto.
  - intros c Hn Hc. destruct (the_gradient HT Hn) as (Q & -> & H). auto.
Qed.
Lemma the_item : nth_error (map (pair d) ss) j = Some (d, s).
Proof. rewrite nth_error_map, (f_shape HFO). auto. Qed.

(** SGD: value - learning rate * derivative *)
Theorem C59_sgd : forall eta, training (SGD (K := Rnum) eta) N d ss os ps qs gs ns ix ->
  forall n c, (n < N)%nat -> inb s c -> val (P (S n)) c = val (P n) c - (o_scale (os n) * eta) * L n c.
Proof.
  intros eta HT n c Hn Hc. destruct (C59_training HT) as (HR & _ & _). destruct (the_parameters HT) as (Q & HQ & HL).
  destruct (@run_one Debug _ _ _ _ _ _ n j d s (P n) (Q n) (P (S n)) HR Hn the_item (f_param HFO (n := n) ltac:(lia)) (HQ n Hn) (f_param HFO (n := S n) ltac:(lia))) as (G & E1 & _ & z & Ez & (V & _ & _)).
  cbn [stepped] in Ez. injection Ez as <-. destruct G as ((Bs & _) & _). pose proof (elems_at V (c := c) (b := 0%nat) Hc ltac:(lia)) as EX. cbn in EX. unfold val. rewrite EX, <- (HL n c Hn Hc), <- E1. unfold sgd_rule, grad, val. cbn. ring.
Qed.
(** momentum: closed form in the derivatives *)
Theorem C59_momentum : forall eta mu, training (Momentum (K := Rnum) eta mu) N d ss os ps qs gs ns ix ->
  forall n c, (n <= N)%nat -> inb s c -> let vel n := stat "MomentumSGD.m" (P n) c in
  vel n = mu ^ n * vel 0%nat - rsum n (fun k => mu ^ (n - 1 - k) * ((o_scale (os k) * eta) * L k c)) /\ val (P n) c = val (P 0) c + rsum n (fun k => vel (S k)).
Proof.
  intros eta mu HT n c Hn Hc vel. destruct (C59_training HT) as (HR & _ & _). destruct (the_parameters HT) as (Q & HQ & HL).
  destruct (@C44_momentum Debug eta mu N _ os ps qs HR j d s P Q the_item (f_param HFO) HQ n c Hn Hc) as (E1 & E2). split; [|exact E2]. unfold vel. rewrite E1. f_equal. apply rsum_ext. intros k Hk. rewrite HL by (auto; lia). reflexivity.
Qed.
Theorem C59_adam : forall alpha b1 b2 eps, 0 < b1 -> 0 < b2 -> training (Adam (K := Rnum) alpha b1 b2 eps) N d ss os ps qs gs ns ix ->
  forall n c, (n <= N)%nat -> inb s c -> let m1 n := stat "Adam.m1" (P n) c in let m2 n := stat "Adam.m2" (P n) c in
  m1 n = b1 ^ n * m1 0%nat + rsum n (fun k => b1 ^ (n - 1 - k) * ((1 - b1) * L k c)) /\
  m2 n = b2 ^ n * m2 0%nat + rsum n (fun k => b2 ^ (n - 1 - k) * ((1 - b2) * (L k c * L k c))) /\
  val (P n) c = val (P 0) c - rsum n (fun k => (o_scale (os k) * alpha) * (m1 (S k) / (1 - b1 ^ S k)) / (sqrt (m2 (S k) / (1 - b2 ^ S k)) + eps)).
Proof.
  intros alpha b1 b2 eps H1 H2 HT n c Hn Hc m1 m2. destruct (C59_training HT) as (HR & _ & _). destruct (the_parameters HT) as (Q & HQ & HL).
  destruct (@C45_adam Debug alpha b1 b2 eps N _ os ps qs H1 H2 HR j d s P Q the_item (f_param HFO) HQ n c Hn Hc) as (E1 & E2 & E3). split; [|split; [|exact E3]].
  - unfold m1. rewrite E1. f_equal. apply rsum_ext. intros k Hk. rewrite HL by (auto; lia). reflexivity.
  - unfold m2. rewrite E2. f_equal. apply rsum_ext. intros k Hk. rewrite HL by (auto; lia). reflexivity.
Qed.
End Rules.

(** *** A concrete training: loss = w * w for one parameter w, SGD with learning rate eta. The value is multiplied
    with 1 - 2 eta in every step *)
Definition sq_build (v a : rtensor) : res (rgraph * node) :=
  ' (g1, w) <- n_parameter Debug (@empty Rnum (oper Rnum)) br v a ;; n_mul Debug g1 br w w.
Definition sq_of (w a : R) (r q : list R) : rgraph := Eval lazy -[alr Rnum IZR] in fst (okv (@empty Rnum (oper Rnum), (0%nat, 0%nat)) (sq_build (PropsReal.tr 0 [] 1 (w :: r)) (PropsReal.tr 0 [] 1 (a :: q)))).
Lemma sq_built w a r q : sq_build (PropsReal.tr 0 [] 1 (w :: r)) (PropsReal.tr 0 [] 1 (a :: q)) = Ok (sq_of w a r q, (1%nat, 0%nat)). Proof. reflexivity. Qed.
Lemma whole_form t : whole 0 sh1 t -> exists w r, t = PropsReal.tr 0 [] 1 (w :: r).
Proof.
  intros (_ & R & E). pose proof (ready_len R) as L. pose proof (ready_buf R) as B. destruct R as (E1 & _ & E3 & _). destruct t as [dv s bf h]. cbn in * . subst. destruct bf as [[|w r]|]; [| |discriminate].
  - exfalso. revert L. change (tot sh1) with 1%nat. cbn. lia.
  - exists w, r. reflexivity.
Qed.
Lemma sq_program w a r q : ready 0 (PropsReal.tr 0 [] 1 (w :: r)) -> ready 0 (PropsReal.tr 0 [] 1 (a :: q)) -> program 0 (sq_of w a r q).
Proof.
  intros R1 R2. pose proof (sq_built w a r q) as E. unfold sq_build in E. apply bind_Ok in E. destruct E as ([g1 x] & E1 & E).
  refine (pr_op2 _ br_fair _ E); [|right; right; left; reflexivity]. refine (pr_parameter (pr_empty Rnum 0) br_fair R1 R2 _ E1). reflexivity.
Qed.
Lemma sq_loss w a r q : ready 0 (PropsReal.tr 0 [] 1 (w :: r)) -> ready 0 (PropsReal.tr 0 [] 1 (a :: q)) -> loss_of (sq_of w a r q) (1%nat, 0%nat).
Proof.
  intros R1 R2. assert (F1 : fits sh1) by (apply (sh_fits [] (b := 1%N)); reflexivity). assert (U2 : forall i, uses (sq_of w a r q) 1 i -> (i < 2)%nat).
  { intros i U. destruct (clean_inv (interp_lawful (K := Rnum) (m := Debug)) (built_clean (program_built (sq_program R1 R2)))) as (W & _). apply (uses_lt W U). cbn. lia. }
  constructor; cbn [fst snd].
  - split; [reflexivity|]. eexists. split; reflexivity.
  - intros i o U Ho. pose proof (U2 i U). destruct i as [|[|i]]; [| |lia]; cbn in Ho; injection Ho as <-; (split; [constructor; [exact F1|constructor]|exact I]).
  - intros i o xs U Ho _. pose proof (U2 i U). intros s c b ER Hc Hb. destruct i as [|[|i]]; [| |lia]; cbn in Ho; injection Ho as <-; cbn; auto.
  - intros i o v U NE Ho Lv. pose proof (U2 i U). destruct i as [|[|i]]; [|congruence|lia]. cbn in Ho. injection Ho as <-. cbn in Lv. assert (v = 0%nat) by lia. subst v. exists 1%nat. split; [constructor|left; reflexivity].
Qed.
Lemma sq_slope w a r q p c : p_value p = PropsReal.tr 0 [] 1 (w :: r) -> inb sh1 c -> slope (sq_of w a r q) (1%nat, 0%nat) 0 p c (2 * w).
Proof.
  intros E Hc. assert (P0 : pos sh1 c 0 = 0%nat). { pose proof (pos_lt (proj1 sh1_is) Hc (b := 0%nat)) as L. change (bat sh1) with 1%nat in L. change (tot sh1) with 1%nat in L. lia. }
  unfold slope. rewrite E. eapply deriv_ext with (f := fun t => (w + t) * (w + t)); [|eapply deriv_val; [apply deriv_mul; (apply deriv_add; [apply deriv_const|apply deriv_id])|ring]].
  intros t. transitivity (total Debug (with_value 0 (bump (PropsReal.tr 0 [] 1 (w :: r)) (fun _ => 0%nat) 0 t) (sq_of w a r q)) (1%nat, 0%nat)).
  - lazy -[Rnum IZR F nmul Rplus Rmult]. cbn [nmul Rnum]. ring.
  - f_equal. f_equal. unfold bump. rewrite !at_buf. change (t_shape (PropsReal.tr 0 [] 1 (w :: r))) with sh1. rewrite P0. reflexivity.
Qed.
(** one step of the program *)
Definition sq_opt (eta : R) (n : nat) : opt := @mkOpt Rnum (N.of_nat n) 1 0 0 (SGD (K := Rnum) eta).
Definition sq_graph (p : param) : rgraph := fst (okv (@empty Rnum (oper Rnum), (0%nat, 0%nat)) (sq_build (p_value p) (p_grad p))).
Definition sq_after (p : param) : list param := returned (okv (@empty Rnum (oper Rnum)) (node_backward Debug (interp Debug) (fun _ _ => alr) fifo_min lifo_max (sq_graph p) (1%nat, 0%nat))) [0%nat] [p].
Definition sq_next (eta : R) (n : nat) (p : param) : param := hd p (snd (okv (sq_opt eta n, [p]) (update_parameters Debug (fun _ _ _ => alr) (sq_opt eta n) (sq_after p)))).
Fixpoint sq_run (eta w0 : R) (n : nat) : param := match n with O => @mkParam Rnum (PropsReal.tr 0 [] 1 [w0]) (PropsReal.tr 0 [] 1 [0]) [] | S n => sq_next eta n (sq_run eta w0 n) end.

Lemma sq_graph_loss p : clear 0 sh1 [] p -> program 0 (sq_graph p) /\ loss_of (sq_graph p) (1%nat, 0%nat) /\ borrows (sq_graph p) [0%nat] [p] /\ forall c, inb sh1 c -> slope (sq_graph p) (1%nat, 0%nat) 0 p c (2 * val p c).
Proof.
  intros ((WV & WG & _) & _). destruct (whole_form WV) as (w & r & E1). destruct (whole_form WG) as (a & q & E2). destruct WV as (_ & RV & _). destruct WG as (_ & RG & _). rewrite E1 in RV. rewrite E2 in RG.
  assert (EG : sq_graph p = sq_of w a r q) by (unfold sq_graph; rewrite E1, E2, sq_built; reflexivity). rewrite EG. split; [apply sq_program; auto|]. split; [apply sq_loss; auto|]. split.
  - constructor; [|constructor]. eexists. split; [reflexivity|]. rewrite E1, E2. split; reflexivity.
  - intros c Hc. assert (EV : val p c = w); [|rewrite EV; apply sq_slope; auto]. unfold val. rewrite E1, at_buf. change (t_shape (PropsReal.tr 0 [] 1 (w :: r))) with sh1.
    pose proof (pos_lt (proj1 sh1_is) Hc (b := 0%nat)) as L. change (bat sh1) with 1%nat in L. change (tot sh1) with 1%nat in L. replace (pos sh1 c 0) with 0%nat by lia. reflexivity.
Qed.
Lemma sq_step eta n p : (N.of_nat (S n) < two32)%N -> clear 0 sh1 [] p -> clear 0 sh1 [] (sq_next eta n p) /\
  (exists g', node_backward Debug (interp Debug) (fun _ _ => alr) fifo_min lifo_max (sq_graph p) (1%nat, 0%nat) = Ok g' /\ sq_after p = returned g' [0%nat] [p]) /\
  exists o', update_parameters Debug (fun _ _ _ => alr) (sq_opt eta n) (sq_after p) = Ok (o', [sq_next eta n p]).
Proof.
  intros Hn HC. destruct (sq_graph_loss HC) as (P & L & B & _).
  assert (HCs : Forall2 (fun s p => clear 0 s (@nil string) p) [sh1] [p]) by (constructor; auto).
  destruct (@backward_returns 0 (sq_graph p) (1%nat, 0%nat) (fun _ _ => alr) fifo_min lifo_max [0%nat] [p] [sh1] [] P L) as (g' & E & G & _ & _); auto; try apply heaps_ok; [intros i v; apply alr_ok|].
  assert (EA : sq_after p = returned g' [0%nat] [p]) by (unfold sq_after; rewrite E; reflexivity). rewrite <- EA in G.
  assert (HE : (o_epoch (sq_opt eta n) < two32 - 1)%N) by (cbn [o_epoch sq_opt]; change two32 with 4294967296%N in * ; lia).
  assert (UP : exists o' p', update_parameters Debug (fun _ _ _ => alr) (sq_opt eta n) (sq_after p) = Ok (o', [p'])).
  { clear EA. destruct (sq_after p) as [|q l]; inversion G as [|? ? ? ? G1 G2]; subst. inversion G2; subst.
    destruct (@C43_sgd Rnum Debug Rnum_commutes (fun _ _ _ => alr) (sq_opt eta n) eta [mkI 0 sh1 (view q)] [q]) as (ps' & E' & AP); auto; try (cbn; apply Rltb_false; lra); [intros; apply alr_ok|constructor; [eapply view_ok; eauto|constructor]|].
    rewrite E'. inversion AP as [|? p' ? ? _ AP2]; subst. inversion AP2; subst. eauto. }
  destruct UP as (o' & p' & EU). assert (EN : sq_next eta n p = p') by (unfold sq_next; rewrite EU; reflexivity).
  pose proof (@update_clears (SGD (K := Rnum) eta) (fun _ _ _ => alr) (sq_opt eta n) 0 [sh1] (sq_after p) o' [p'] eq_refl eq_refl eq_refl HE (fun _ _ _ => alr_ok) G EU) as CL.
  rewrite EN. split; [inversion CL; auto|]. split; eauto.
Qed.
Lemma sq_start w0 : clear 0 sh1 [] (@mkParam Rnum (PropsReal.tr 0 [] 1 [w0]) (PropsReal.tr 0 [] 1 [0]) []).
Proof.
  assert (R1 : forall v, ready 0 (PropsReal.tr 0 [] 1 [v])) by (intros v; rdyr). split; [split; [|split; [|split; [|constructor]]]|].
  - split; [reflexivity|]. split; [apply R1|reflexivity].
  - split; [reflexivity|]. split; [apply R1|reflexivity].
  - discriminate.
  - intros c Hc. unfold grad. cbn [p_grad]. rewrite at_buf. change (t_shape (PropsReal.tr 0 [] 1 [0])) with sh1. pose proof (pos_lt (proj1 sh1_is) Hc (b := 0%nat)) as L. change (bat sh1) with 1%nat in L. change (tot sh1) with 1%nat in L. replace (pos sh1 c 0) with 0%nat by lia. reflexivity.
Qed.
Lemma sq_training eta w0 N : (N.of_nat N < two32)%N ->
  training (SGD (K := Rnum) eta) N 0 [sh1] (sq_opt eta) (fun n => [sq_run eta w0 n]) (fun n => sq_after (sq_run eta w0 n)) (fun n => sq_graph (sq_run eta w0 n)) (fun _ => (1%nat, 0%nat)) (fun _ => [0%nat]).
Proof.
  intros HN. assert (CL : forall n, (n <= N)%nat -> clear 0 sh1 [] (sq_run eta w0 n)).
  { induction n as [|n IH]; intros Hn; [apply sq_start|]. cbn [sq_run]. apply sq_step; [change two32 with 4294967296%N in * ; lia|apply IH; lia]. }
  constructor; auto.
  - constructor; [apply (CL 0%nat); lia|constructor].
  - intros n Hn. destruct (sq_graph_loss (CL n ltac:(lia))) as (P & L & B & _). auto.
  - intros n Hn. destruct (@sq_step eta n (sq_run eta w0 n)) as (_ & (g' & E & EQ) & _); [change two32 with 4294967296%N in * ; lia|apply CL; lia|].
    exists (fun _ _ => alr), fifo_min, lifo_max, g'. split; [apply heaps_ok|]. split; [apply heaps_ok|]. split; [intros i v; apply alr_ok|]. auto.
  - intros n Hn. destruct (@sq_step eta n (sq_run eta w0 n)) as (_ & _ & o' & E); [change two32 with 4294967296%N in * ; lia|apply CL; lia|]. exists (fun _ _ _ => alr), o'. split; [intros; apply alr_ok|]. exact E.
Qed.
Example C59_applies : forall eta w0 n, (N.of_nat n < two32)%N -> val (sq_run eta w0 n) (fun _ => 0%nat) = (1 - 2 * eta) ^ n * w0.
Proof.
  intros eta w0 n Hn. assert (HC : inb sh1 (fun _ => 0%nat)) by (intros [|[|[|[|[|[|[|[|i]]]]]]]]; cbn; try lia; destruct i; cbn; lia).
  pose proof (sq_training eta w0 Hn) as HT. destruct (C59_training HT) as (_ & CL & _).
  assert (HFO : followed n [sh1] (fun k => [sq_run eta w0 k]) (fun k => sq_graph (sq_run eta w0 k)) (fun _ => (1%nat, 0%nat)) (fun _ => [0%nat]) 0 sh1 (sq_run eta w0) (fun k c => 2 * val (sq_run eta w0 k) c)).
  { constructor; auto. intros k c Hk Hc. exists 0%nat. split; auto. specialize (CL k ltac:(lia)). inversion CL; subst. apply sq_graph_loss; auto. }
  assert (G : forall k, (k <= n)%nat -> val (sq_run eta w0 k) (fun _ => 0%nat) = (1 - 2 * eta) ^ k * w0).
  { induction k as [|k IH]; intros Hk; [cbn; unfold val; cbn; ring|]. rewrite (C59_sgd HFO HT (n := k)) by (auto; lia). rewrite IH by lia. cbn [pow]. change (o_scale (sq_opt eta k)) with 1. ring. }
  apply G. lia.
Qed.
