(** * PropsAccum: C76, gradients accumulate over several graphs

    backward adds to the gradients of the parameters; they are reset by the optimizer only. A program may therefore
    run backward on several graphs, one after the other, before it calls [Optimizer::update_parameters]. *)
From Coq Require Import Reals Lra.
From Verif Require Export PropsTrain PropsMinibatchGrad.
From Verif Require Import PropsOptim PropsResume.
Set Implicit Arguments.
Unset Strict Implicit.
Open Scope R_scope.
Notation opt := (Optim.opt Rnum).
Notation param := (Optim.param Rnum).
Notation node := (nat * nat)%type.

(** ** Specification *)
(** [N] passes: pass [j] differentiates the loss [ns j] of the program [gs j], which has made nodes (at the operators
    [ix j]) of the parameters as the passes before have left them; [qs j] are the parameters before pass [j]. Values and
    statistics stay, gradients are what backward has made of them *)
Record accumulating (N d : nat) (gs : nat -> rgraph) (ns : nat -> node) (ix : nat -> list nat) (qs : nat -> list param)
    (gals : nat -> grad_alloc Rnum) (popfs popbs : nat -> Graph.heap) (gs' : nat -> rgraph) : Prop := mkAccumulating {
  ac_loss : forall j, (j < N)%nat -> program d (gs j) /\ loss_of (gs j) (ns j) /\ borrows (gs j) (ix j) (qs j);
  ac_fair : forall j, (j < N)%nat -> min_heap (popfs j) /\ max_heap (popbs j) /\ fair_grads (gals j);
  ac_backward : forall j, (j < N)%nat -> node_backward Debug (interp Debug) (gals j) (popfs j) (popbs j) (gs j) (ns j) = Ok (gs' j) /\
    qs (S j) = returned (gs' j) (ix j) (qs j) }.
(** the operator of graph [j] that was made of parameter [k] *)
Definition made_of (ix : nat -> list nat) (j k : nat) : nat := nth k (ix j) 0%nat.

(** ** One pass *)
Lemma borrows_at g ix ps k p : borrows g ix ps -> nth_error ps k = Some p ->
  nth_error ix k = Some (nth k ix 0%nat) /\ exists o, nth_error (g_ops g) (nth k ix 0%nat) = Some o /\ o_kind (oi_op o) = KParameter (p_value p) /\ oi_own o = Some (p_grad p).
Proof.
  intros B. revert k. induction B as [|i q ix ps H B IH]; intros [|k] E; try discriminate; cbn in E.
  - injection E as <-. split; [reflexivity|]. exact H.
  - apply (IH k) in E. exact E.
Qed.
Lemma returned_at g' ix ps k p : nth_error ps k = Some p -> (k < length ix)%nat ->
  nth_error (returned g' ix ps) k = Some (mkParam (p_value p) (match own_of g' (nth k ix 0%nat) with Some a => a | None => p_grad p end) (p_stats p)).
Proof.
  unfold returned. revert k ps. induction ix as [|i ix IH]; intros k ps E L; [cbn in L; lia|]. destruct ps as [|q ps]; [destruct k; discriminate|]. destruct k as [|k]; cbn in *.
  - injection E as <-. reflexivity.
  - apply IH; auto. lia.
Qed.
Lemma returned_length g' ix ps : length ix = length ps -> length (returned g' ix ps) = length ps.
Proof. intros E. unfold returned. rewrite map_length, combine_length. lia. Qed.
Lemma Forall2_of_nth A B (P : A -> B -> Prop) l l' : length l = length l' -> (forall k x y, nth_error l k = Some x -> nth_error l' k = Some y -> P x y) -> Forall2 P l l'.
Proof.
  revert l'. induction l as [|x l IH]; intros [|y l'] E H; try discriminate; constructor.
  - apply (H 0%nat); reflexivity.
  - apply IH; [cbn in E; lia|]. intros k a b E1 E2. apply (H (S k)); auto.
Qed.

Lemma backward_adds d (g : rgraph) n gal popf popb ix ps ss names g' : program d g -> loss_of g n -> min_heap popf -> max_heap popb -> fair_grads gal -> borrows g ix ps ->
  Forall2 (fun s p => good d s names p) ss ps -> node_backward Debug (interp Debug) gal popf popb g n = Ok g' ->
  Forall2 (fun s q => good d s names q) ss (returned g' ix ps) /\ Forall2 same_but_grad ps (returned g' ix ps) /\
  forall k s p q c, nth_error ss k = Some s -> nth_error ps k = Some p -> nth_error (returned g' ix ps) k = Some q -> inb s c ->
    slope g n (nth k ix 0%nat) p c (grad q c - grad p c) /\ (~ uses g (fst n) (nth k ix 0%nat) -> p_grad q = p_grad p) /\ own_of g' (nth k ix 0%nat) = Some (p_grad q).
Proof.
  intros P L HF HX HA HB HC EB. destruct (C38_programs P L HF HX HA) as (g2 & E & NU & US). assert (g2 = g') by congruence. subst g2.
  destruct (clean_inv (interp_lawful (K := Rnum) (m := Debug)) (built_clean (program_built P))) as (GW & _). destruct (l_one L) as (L0 & oR & HoR & _). pose proof (nth_error_Some_lt HoR) as LR.
  pose proof (Forall2_len HB) as LB. pose proof (Forall2_len HC) as LC.
  assert (ONE : forall k s p, nth_error ss k = Some s -> nth_error ps k = Some p ->
    exists a', own_of g' (nth k ix 0%nat) = Some a' /\ whole d s a' /\ (~ uses g (fst n) (nth k ix 0%nat) -> a' = p_grad p) /\ forall c, inb s c -> slope g n (nth k ix 0%nat) p c (at_ a' c 0 - grad p c)).
  { intros k s p Es Ep. destruct (borrows_at HB Ep) as (_ & o & Ho & EK & EO). destruct (F2nth HC Es Ep) as (WV & WG & WS & WN). destruct WV as (Bs & RV & SV). set (i := nth k ix 0%nat) in *. destruct (uses_dec i GW LR) as [U|U].
    - destruct (US i o (p_value p) U Ho EK) as (a & a' & A1 & A2 & A3 & A4 & A5). exists a'. split; auto. split; [split; auto; split; auto; congruence|]. split; [intros NUi; contradiction|]. intros c Hc. rewrite SV in A5. specialize (A5 c 0%nat Hc ltac:(lia)).
      unfold own_of in A1. rewrite Ho, EO in A1. injection A1 as <-. unfold slope. exact A5.
    - exists (p_grad p). split; [rewrite NU by auto; unfold own_of; rewrite Ho; auto|]. split; auto. split; auto. intros c Hc. unfold slope. eapply deriv_val; [eapply unused_slope; eauto|]. unfold grad. change (F Rnum) with R. ring. }
  assert (LR' : length (returned g' ix ps) = length ps) by (apply returned_length; auto).
  split; [|split].
  - apply Forall2_of_nth; [lia|]. intros k s q Es Eq. destruct (nth_error ps k) as [p|] eqn:Ep; [|apply nth_error_None in Ep; apply nth_error_Some_lt in Es; lia].
    destruct (ONE k s p Es Ep) as (a' & Ea & Wa & _). rewrite (returned_at g' (ps := ps) Ep) in Eq by (apply nth_error_Some_lt in Ep; lia). injection Eq as <-. rewrite Ea.
    destruct (F2nth HC Es Ep) as (V1 & V2 & V3 & V4). split; [exact V1|]. split; [exact Wa|]. split; auto.
  - apply Forall2_of_nth; [lia|]. intros k p q Ep Eq. rewrite (returned_at g' (ps := ps) Ep) in Eq by (apply nth_error_Some_lt in Ep; lia). injection Eq as <-. split; reflexivity.
  - intros k s p q c Es Ep Eq Hc. destruct (ONE k s p Es Ep) as (a' & Ea & _ & NA & Sa). rewrite (returned_at g' (ps := ps) Ep) in Eq by (apply nth_error_Some_lt in Ep; lia). injection Eq as <-. rewrite Ea. cbn [p_grad]. split; [|split]; auto. apply Sa. exact Hc.
Qed.

(** ** Many passes *)
Section Passes.
Variables (N d : nat) (gs : nat -> rgraph) (ns : nat -> node) (ix : nat -> list nat) (qs : nat -> list param).
Variables (gals : nat -> grad_alloc Rnum) (popfs popbs : nat -> Graph.heap) (gs' : nat -> rgraph).
Hypothesis AC : accumulating N d gs ns ix qs gals popfs popbs gs'.
Variables (ss : list shape) (names : list string).
Hypothesis G0 : Forall2 (fun s p => good d s names p) ss (qs 0%nat).

Lemma passes_good : forall j, (j <= N)%nat -> Forall2 (fun s q => good d s names q) ss (qs j) /\ Forall2 same_but_grad (qs 0%nat) (qs j).
Proof.
  induction j as [|j IH]; intros Hj.
  - split; auto. clear. induction (qs 0%nat); constructor; auto. split; reflexivity.
  - destruct IH as (I1 & I2); [lia|]. destruct (ac_loss AC (j := j)) as (P & L & B); [lia|]. destruct (ac_fair AC (j := j)) as (H1 & H2 & H3); [lia|]. destruct (ac_backward AC (j := j)) as (E & ->); [lia|].
    destruct (backward_adds P L H1 H2 H3 B I1 E) as (A1 & A2 & _). split; auto.
    apply Forall2_of_nth; [rewrite <- (Forall2_len A2); apply (Forall2_len I2)|]. intros k p q Ep Eq. destruct (nth_error (qs j) k) as [p'|] eqn:Ep'.
    + destruct (F2nth I2 Ep Ep') as (Q1 & Q2). destruct (F2nth A2 Ep' Eq) as (Q3 & Q4). split; congruence.
    + apply nth_error_None in Ep'. apply nth_error_Some_lt in Eq. rewrite <- (Forall2_len A2) in Eq. lia.
Qed.
Lemma pass_slope j k s p q q' c : (j < N)%nat -> nth_error ss k = Some s -> nth_error (qs 0%nat) k = Some p -> nth_error (qs j) k = Some q -> nth_error (qs (S j)) k = Some q' -> inb s c ->
  slope (gs j) (ns j) (made_of ix j k) p c (grad q' c - grad q c) /\ (~ uses (gs j) (fst (ns j)) (made_of ix j k) -> p_grad q' = p_grad q) /\ own_of (gs' j) (made_of ix j k) = Some (p_grad q').
Proof.
  intros Hj Es Ep Eq Eq' Hc. destruct (passes_good (j := j)) as (I1 & I2); [lia|]. destruct (ac_loss AC Hj) as (P & L & B). destruct (ac_fair AC Hj) as (H1 & H2 & H3). destruct (ac_backward AC Hj) as (E & EQ). rewrite EQ in Eq'.
  destruct (backward_adds P L H1 H2 H3 B I1 E) as (_ & _ & A). destruct (A k s q q' c Es Eq Eq' Hc) as (A1 & A2 & A3). destruct (F2nth I2 Ep Eq) as (Q1 & _). split; auto. unfold slope in *. rewrite <- Q1. exact A1.
Qed.
Lemma telescope (f : nat -> R) n : rsum n (fun j => f (S j) - f j) = f n - f 0%nat.
Proof. induction n as [|n IH]; cbn [rsum]; [|rewrite IH]; lra. Qed.
Lemma pass_some j k p : (j <= N)%nat -> nth_error (qs 0%nat) k = Some p -> exists q, nth_error (qs j) k = Some q.
Proof.
  intros Hj Ep. destruct (passes_good Hj) as (_ & I). destruct (nth_error (qs j) k) eqn:E; eauto. apply nth_error_None in E. apply nth_error_Some_lt in Ep. rewrite (Forall2_len I) in Ep. lia.
Qed.

(** after the passes, each parameter has its old value and statistics, and the gradient has grown by the partial
    derivatives of the sum of the losses *)
Theorem C76_gradients : Forall2 (fun s q => good d s names q) ss (qs N) /\ Forall2 same_but_grad (qs 0%nat) (qs N) /\
  forall k s p q c, nth_error ss k = Some s -> nth_error (qs 0%nat) k = Some p -> nth_error (qs N) k = Some q -> inb s c ->
    D (fun t => rsum N (fun j => total Debug (with_value (made_of ix j k) (bump (p_value p) c 0 t) (gs j)) (ns j))) (grad q c - grad p c).
Proof.
  destruct (passes_good (le_n N)) as (I1 & I2). split; auto. split; auto. intros k s p q c Es Ep Eq Hc.
  pose (f := fun j => match nth_error (qs j) k with Some q => grad q c | None => 0 end).
  replace (grad q c - grad p c) with (rsum N (fun j => f (S j) - f j)) by (rewrite telescope; unfold f; rewrite Eq, Ep; reflexivity).
  apply (@deriv_rsum N (fun j t => total Debug (with_value (made_of ix j k) (bump (p_value p) c 0 t) (gs j)) (ns j))). intros j Hj.
  destruct (@pass_some j k p) as (q1 & E1); [lia|auto|]. destruct (@pass_some (S j) k p) as (q2 & E2); [lia|auto|].
  unfold f. rewrite E1, E2. apply (pass_slope Hj Es Ep E1 E2 Hc).
Qed.
End Passes.

(** ** The examples of a minibatch, one after the other *)
Lemma run_back b (g g1 : rgraph) root i j : run_on_example b g root g1 -> uses g1 i j -> (exists o, nth_error (g_ops g) i = Some o) -> gwf g -> uses g root i -> uses g i j.
Proof.
  intros RUN H. induction H as [i|i o1 n j Ho1 Hn Uj IH]; intros (o & Ho) GW U; [constructor|]. destruct (RUN i o U Ho) as (o' & Ho' & EA & _). assert (o' = o1) by congruence. subst o'. rewrite EA in Hn.
  destruct (gwf_args GW Ho Hn) as (_ & p & Hp & _). eapply uses_step; [exact Ho|exact Hn|]. apply IH; [eauto|auto|]. eapply GraphDiff.uses_arg; eauto.
Qed.

Section MinibatchPasses.
Variables (d : nat) (g : rgraph) (gs : nat -> rgraph) (n : node) (s0 : shape) (ix : list nat) (ps : list param) (qs : nat -> list param) (ss : list shape) (names : list string).
Variables (gals : nat -> grad_alloc Rnum) (popfs popbs : nat -> Graph.heap) (gs' : nat -> rgraph).
Hypothesis PG : program d g.
Hypothesis LG : loss_of g n.
Hypothesis ACC : all_acceptable g (fst n).
Hypothesis HS : SafeGraph4.node_shape g n = Some s0.
Hypothesis BG : borrows g ix ps.
Hypothesis GP : Forall2 (fun s p => good d s names p) ss ps.
Hypothesis RUN : forall b, (b < bat s0)%nat -> run_on_example b g (fst n) (gs b).
Hypothesis AC : accumulating (bat s0) d gs (fun _ => n) (fun _ => ix) qs gals popfs popbs gs'.
Hypothesis Q0 : qs 0%nat = ps.

(** one backward on the minibatch leaves the parameters as backward on each of its examples, one after the other, does *)
Theorem C76_minibatch : forall gal popf popb, min_heap popf -> max_heap popb -> fair_grads gal ->
  exists g', node_backward Debug (interp Debug) gal popf popb g n = Ok g' /\ Forall2 (@same_param Rnum) (returned g' ix ps) (qs (bat s0)).
Proof.
  intros gal popf popb HF HX HA. assert (GQ : Forall2 (fun s p => good d s names p) ss (qs 0%nat)) by (rewrite Q0; exact GP).
  assert (EXS : forall b, (b < bat s0)%nat -> program d (gs b) /\ loss_of (gs b) n /\ run_on_example b g (fst n) (gs b)) by (intros b Hb; destruct (ac_loss AC Hb) as (P & L & _); auto).
  destruct (@C71_gradients d g gs n s0 PG LG ACC HS EXS gal popf popb gals popfs popbs HF HX HA (fun b Hb => ac_fair AC Hb)) as (g' & gs2 & E & EB & G).
  exists g'. split; auto. destruct (passes_good AC GQ (le_n _)) as (I1 & I2). rewrite Q0 in I2.
  destruct (backward_adds PG LG HF HX HA BG GP E) as (R1 & R2 & R3).
  destruct (clean_inv (interp_lawful (K := Rnum) (m := Debug)) (built_clean (program_built PG))) as (GW & _). destruct (l_one LG) as (_ & oR & HoR & _). pose proof (nth_error_Some_lt HoR) as LR.
  apply Forall2_of_nth; [rewrite <- (Forall2_len R2); apply (Forall2_len I2)|]. intros k r q Er Eq.
  assert (Ep : exists p, nth_error ps k = Some p). { destruct (nth_error ps k) eqn:Q; eauto. apply nth_error_None in Q. apply nth_error_Some_lt in Eq. rewrite <- (Forall2_len I2) in Eq. lia. } destruct Ep as (p & Ep).
  assert (Es : exists s, nth_error ss k = Some s). { destruct (nth_error ss k) eqn:Q; eauto. apply nth_error_None in Q. apply nth_error_Some_lt in Ep. rewrite <- (Forall2_len GP) in Ep. lia. } destruct Es as (s & Es).
  destruct (F2nth R2 Ep Er) as (V1 & V2). destruct (F2nth I2 Ep Eq) as (V3 & V4).
  destruct (F2nth I1 Es Eq) as (_ & (B1 & Rq & Sq) & _). destruct (F2nth R1 Es Er) as (_ & (_ & Rr & Sr) & _). destruct (F2nth GP Es Ep) as ((_ & _ & Sv) & _).
  assert (SS : forall t : rtensor, seen_same t t) by (intros t; split; auto).
  split; [rewrite V1, V3; apply SS|]. split; [|intros nm; rewrite V2, V4; destruct (st_get nm (p_stats p)); auto].
  split; [congruence|]. intros c b0 Hc Hb. rewrite Sr in Hc, Hb. assert (b0 = 0%nat) by lia. subst b0. change (grad q c = grad r c).
  destruct (borrows_at BG Ep) as (_ & o & Ho & EK & EO). set (i := nth k ix 0%nat) in *.
  assert (ALLQ : forall j, (j <= bat s0)%nat -> exists q', nth_error (qs j) k = Some q') by (intros j Hj; eapply (pass_some AC GQ Hj); rewrite Q0; eauto).
  destruct (R3 k s p r c Es Ep Er Hc) as (_ & RN & RO). fold i in RN, RO.
  destruct (uses_dec i GW LR) as [U|U].
  - assert (Bv : bat (t_shape (p_value p)) = 1%nat) by (rewrite Sv; exact B1). destruct (G i o (p_value p) U Ho EK Bv) as (a & a' & bf & af & A1 & A2 & AB & EQ).
    unfold own_of in A1. rewrite Ho, EO in A1. injection A1 as <-. rewrite RO in A2. injection A2 as <-. rewrite Sv in EQ. specialize (EQ c Hc).
    pose (f := fun j => match nth_error (qs j) k with Some q => grad q c | None => 0 end).
    assert (EF : rsum (bat s0) (fun b => at_ (af b) c 0 - at_ (bf b) c 0) = rsum (bat s0) (fun b => f (S b) - f b)).
    { apply rsum_ext. intros b Hb'. destruct (ALLQ b) as (q1 & E1); [lia|]. destruct (ALLQ (S b)) as (q2 & E2); [lia|]. unfold f. rewrite E1, E2. destruct (AB b Hb') as (O1 & O2). destruct (ac_loss AC Hb') as (_ & _ & BB). destruct (borrows_at BB E1) as (_ & o1 & Ho1 & _ & EO1). fold i in Ho1.
      unfold own_of at 1 in O1. rewrite Ho1, EO1 in O1. injection O1 as <-. assert (Ep0 : nth_error (qs 0%nat) k = Some p) by (rewrite Q0; auto). destruct (pass_slope AC GQ Hb' Es Ep0 E1 E2 Hc) as (_ & _ & O3). unfold made_of in O3. fold i in O3.
      destruct (ac_backward AC Hb') as (EE & _). pose proof (EB b Hb') as EE2. assert (gs2 b = gs' b) by congruence. rewrite H in O2. rewrite O3 in O2. injection O2 as <-. reflexivity. }
    pose proof EQ as EQ'. rewrite EF, telescope in EQ'. unfold f in EQ'. rewrite Eq, Q0, Ep in EQ'. unfold grad in *. change (F Rnum) with R in *. lra.
  - unfold grad. rewrite (RN U). assert (CONST : forall j, (j <= bat s0)%nat -> forall q', nth_error (qs j) k = Some q' -> p_grad q' = p_grad p).
    { induction j as [|j IH]; intros Hj q' E'; [rewrite Q0 in E'; congruence|]. destruct (ALLQ j) as (q1 & E1); [lia|]. assert (Hj' : (j < bat s0)%nat) by lia. assert (Ep0 : nth_error (qs 0%nat) k = Some p) by (rewrite Q0; auto).
      destruct (pass_slope AC GQ Hj' Es Ep0 E1 E' Hc) as (_ & N2 & _). rewrite N2; [apply IH; auto; lia|]. unfold made_of. fold i. intros U1. apply U. eapply run_back; [apply (RUN Hj')|exact U1|eauto|exact GW|constructor]. }
    rewrite (CONST (bat s0) (le_n _) q Eq). reflexivity.
Qed.

(** so the next update, whatever the optimizer and its settings, does the same with them *)
Lemma good_sound t s p : good d s t p -> PropsResume.sound p.
Proof. intros ((B & V) & (_ & W) & S & _). exists d, s. split; auto. cbv zeta. split; auto. split; auto. intros nm x Hx. apply (S nm x Hx). Qed.
Theorem C76_update : forall gal popf popb m m' als als' (o : opt) x, min_heap popf -> max_heap popb -> fair_grads gal -> (forall i j k, al_ok (als i j k)) -> (forall i j k, al_ok (als' i j k)) -> (o_epoch o < two32 - 1)%N ->
  exists g', node_backward Debug (interp Debug) gal popf popb g n = Ok g' /\
    ((exists rs rs', update_parameters m als (adjust x o) (returned g' ix ps) = Ok (adjust x (set_epoch (o_epoch o + 1) o), rs) /\
       update_parameters m' als' (adjust x o) (qs (bat s0)) = Ok (adjust x (set_epoch (o_epoch o + 1) o), rs') /\ Forall2 (@same_param Rnum) rs rs') \/
     (forall r, update_parameters m als (adjust x o) (returned g' ix ps) <> Ok r) /\ forall r, update_parameters m' als' (adjust x o) (qs (bat s0)) <> Ok r).
Proof.
  intros gal popf popb m m' als als' o x HF HX HA A1 A2 HE. destruct (C76_minibatch HF HX HA) as (g' & E & SP). exists g'. split; auto.
  assert (GQ : Forall2 (fun s p => good d s names p) ss (qs 0%nat)) by (rewrite Q0; exact GP). destruct (passes_good AC GQ (le_n _)) as (I1 & _). destruct (backward_adds PG LG HF HX HA BG GP E) as (R1 & _).
  assert (SO : forall ls l, Forall2 (fun s q => good d s names q) ls l -> Forall (@PropsResume.sound Rnum) l) by (clear; intros ls l H; induction H; constructor; auto; eapply good_sound; eauto).
  destruct (@C73_update Rnum Rnum_commutes m m' als als' o o x _ _ A1 A2 HE HE (conj eq_refl (fun _ => eq_refl)) (SO _ _ R1) (SO _ _ I1) SP) as [(rs & rs' & U1 & U2 & U3 & _)|H]; [left|right; exact H]. exists rs, rs'. auto.
Qed.
End MinibatchPasses.

(** *** A concrete case: w = (2, 3) with the gradient (10, 20), the examples (5, 7) and (11, 13) of PropsMinibatchGrad.v *)
Definition dot_from (a x : rtensor) : res (rgraph * node) :=
  ' (g1, w) <- n_parameter Debug (@empty Rnum (oper Rnum)) br (PropsReal.tr 0 [2%N] 1 [2; 3]) a ;;
  ' (g2, x) <- n_input Debug g1 br x ;;
  ' (g3, y) <- n_mul Debug g2 br w x ;;
  n_sum Debug 0 g3 br y.
Definition dot_at (a1 a2 : R) (r : list R) : rgraph := Eval lazy -[alr Rnum IZR] in fst (okv (@empty Rnum (oper Rnum), (0%nat, 0%nat)) (dot_from (PropsReal.tr 0 [2%N] 1 (a1 :: a2 :: r)) (PropsReal.tr 0 [2%N] 1 [11; 13]))).
Lemma dot_at_eq a1 a2 r : dot_from (PropsReal.tr 0 [2%N] 1 (a1 :: a2 :: r)) (PropsReal.tr 0 [2%N] 1 [11; 13]) = Ok (dot_at a1 a2 r, (3%nat, 0%nat)). Proof. reflexivity. Qed.
Lemma dot_from_program a x g n : dot_from a x = Ok (g, n) -> ready 0 a -> t_shape a = sh [2%N] 1 -> ready 0 x -> program 0 g.
Proof.
  intros E RA SA R. unfold dot_from in E. apply bind_Ok in E. destruct E as ([g1 w] & E1 & E). apply bind_Ok in E. destruct E as ([g2 x'] & E2 & E). apply bind_Ok in E. destruct E as ([g3 y] & E3 & E).
  refine (pr_op1 (k := KSum 0%N) _ br_fair eq_refl I E). refine (pr_op2 _ br_fair _ E3); [|right; right; left; reflexivity].
  refine (pr_input _ br_fair R E2). refine (pr_parameter (pr_empty Rnum 0) br_fair _ RA _ E1); [rdyr|exact SA].
Qed.
Lemma pair_form t : whole 0 (sh [2%N] 1) t -> exists a1 a2 r, t = PropsReal.tr 0 [2%N] 1 (a1 :: a2 :: r).
Proof.
  intros (_ & R & E). pose proof (ready_len R) as L. pose proof (ready_buf R) as B. destruct R as (E1 & _ & E3 & _). destruct t as [dv s bf h]. cbn in * . subst. destruct bf as [[|a1 [|a2 r]]|]; [| | |discriminate].
  - exfalso. revert L. change (tot (sh [2%N] 1)) with 2%nat. cbn. lia.
  - exfalso. revert L. change (tot (sh [2%N] 1)) with 2%nat. cbn. lia.
  - exists a1, a2, r. reflexivity.
Qed.
Lemma dot_at_loss a1 a2 r : program 0 (dot_at a1 a2 r) -> loss_of (dot_at a1 a2 r) (3%nat, 0%nat).
Proof.
  intros P. assert (F1 : fits (sh [2%N] 1)) by (apply sh_fits; reflexivity). assert (F3 : fits (sh [] 1)) by (apply sh_fits; reflexivity).
  assert (U4 : forall i, uses (dot_at a1 a2 r) 3 i -> (i < 4)%nat).
  { intros i U. destruct (clean_inv (interp_lawful (K := Rnum) (m := Debug)) (built_clean (program_built P))) as (W & _). apply (uses_lt W U). cbn. lia. }
  constructor; cbn [fst snd].
  - split; [reflexivity|]. eexists. split; reflexivity.
  - intros i o U Ho. pose proof (U4 i U). destruct i as [|[|[|[|i]]]]; try lia; cbn in Ho; injection Ho as <-; (split; [repeat (apply Forall_cons; [first [exact F1|exact F3]|]); apply Forall_nil|]); try exact I. intros x E; inversion E; subst x; cbn; lia.
  - intros i o xs U Ho _. pose proof (U4 i U). intros s c b ER Hc Hb. destruct i as [|[|[|[|i]]]]; try lia; cbn in Ho; injection Ho as <-; cbn; auto.
  - intros i o v U NE Ho Lv. pose proof (U4 i U). assert (U2 : uses (dot_at a1 a2 r) 3 2) by (eapply uses_step with (n := (2%nat, 0%nat)); [reflexivity|left; reflexivity|constructor]).
    destruct i as [|[|[|[|i]]]]; try lia; cbn in Ho; injection Ho as <-; cbn in Lv; assert (v = 0%nat) by lia; subst v.
    + exists 2%nat. split; [exact U2|left; reflexivity].
    + exists 2%nat. split; [exact U2|right; left; reflexivity].
    + exists 3%nat. split; [constructor|left; reflexivity].
Qed.
Lemma dot_at_runs a1 a2 r : run_on_example 1 dot_batch 3 (dot_at a1 a2 r).
Proof.
  intros i o U Ho. destruct (dot_runs (b := 1%nat) ltac:(lia) U Ho) as (o1 & Ho1 & EA & FE).
  destruct i as [|[|[|[|i]]]]; cbn in Ho; try (destruct i; discriminate); cbn in Ho1; injection Ho1 as <-; eexists; (split; [reflexivity|]); split; try exact EA; exact FE.
Qed.
Definition dot_par : param := @mkParam Rnum (PropsReal.tr 0 [2%N] 1 [2; 3]) (PropsReal.tr 0 [2%N] 1 [10; 20]) [].
Example C76_applies : exists gs qs gs' g', accumulating 2 0 gs (fun _ => (3%nat, 0%nat)) (fun _ => [0%nat]) qs (fun _ _ _ => alr) (fun _ => lifo_min) (fun _ => fifo_max) gs' /\ qs 0%nat = [dot_par] /\
  node_backward Debug (interp Debug) (fun _ _ => alr) lifo_min fifo_max dot_batch (3%nat, 0%nat) = Ok g' /\ Forall2 (@same_param Rnum) (returned g' [0%nat] [dot_par]) (qs 2%nat) /\
  forall q, In q (qs 2%nat) -> grad q (c2 1 0) = 20 + 7 + 13.
Proof.
  assert (P : program 0 dot_batch) by (eapply dot_program; [exact dot_batch_eq|rdyr]). assert (FA : fair_grads (fun _ _ : nat => alr)) by (intros i v; apply alr_ok).
  assert (GP : Forall2 (fun s p => PropsOptim.good 0%nat s [] p) [sh [2%N] 1] [dot_par]).
  { constructor; [|constructor]. split; [split; [reflexivity|split; [rdyr|reflexivity]]|]. split; [split; [reflexivity|split; [rdyr|reflexivity]]|]. split; [intros nm t H; discriminate|constructor]. }
  assert (B1 : borrows loss_g [0%nat] [dot_par]) by (constructor; [eexists; split; [reflexivity|]; split; reflexivity|constructor]).
  assert (LO : min_heap lifo_min /\ max_heap fifo_max) by (split; apply heaps_ok). destruct LO as (LO1 & LO2).
  destruct (@C38_programs (fun _ _ => alr) lifo_min fifo_max loss_g 0%nat (3%nat, 0%nat) loss_program loss_is_loss LO1 LO2 FA) as (g1 & E1 & _).
  destruct (backward_adds loss_program loss_is_loss LO1 LO2 FA B1 GP E1) as (G1 & S1 & _). pose (q1 := returned g1 [0%nat] [dot_par]). fold q1 in G1, S1.
  assert (X : exists qa, q1 = [qa] /\ PropsOptim.good 0%nat (sh [2%N] 1) [] qa /\ same_but_grad dot_par qa).
  { clearbody q1. clear - G1 S1. inversion G1 as [|s1 qa l1 l2 Ga Gr EA EB]; subst. inversion Gr; subst. inversion S1; subst. eauto. }
  destruct X as (qa & EQ1 & G1p & (SV & SS)). destruct G1p as (_ & W1 & _ & _). destruct (pair_form W1) as (a1 & a2 & r & EG).
  assert (RA : ready 0 (PropsReal.tr 0 [2%N] 1 (a1 :: a2 :: r))) by (rewrite <- EG; apply W1).
  assert (P2 : program 0 (dot_at a1 a2 r)) by (refine (dot_from_program (dot_at_eq a1 a2 r) RA _ _); [reflexivity|rdyr]). pose proof (dot_at_loss P2) as L2.
  assert (B2 : borrows (dot_at a1 a2 r) [0%nat] q1). { rewrite EQ1. constructor; [|constructor]. eexists. split; [reflexivity|]. split; [cbn; rewrite SV; reflexivity|cbn; rewrite EG; reflexivity]. }
  destruct (@C38_programs (fun _ _ => alr) lifo_min fifo_max (dot_at a1 a2 r) 0%nat (3%nat, 0%nat) P2 L2 LO1 LO2 FA) as (g2 & E2 & _).
  pose (gs := fun j => match j with 0%nat => loss_g | _ => dot_at a1 a2 r end). pose (gs' := fun j => match j with 0%nat => g1 | _ => g2 end).
  pose (qs := fun j => match j with 0%nat => [dot_par] | 1%nat => q1 | _ => returned g2 [0%nat] q1 end).
  assert (AC : accumulating 2 0 gs (fun _ => (3%nat, 0%nat)) (fun _ => [0%nat]) qs (fun _ _ _ => alr) (fun _ => lifo_min) (fun _ => fifo_max) gs').
  { constructor; intros [|[|j]] Hj; try lia; cbn [gs qs gs'].
    - split; [exact loss_program|]. split; [exact loss_is_loss|exact B1].
    - split; [exact P2|]. split; [exact L2|exact B2].
    - auto.
    - auto.
    - split; [exact E1|reflexivity].
    - split; [exact E2|reflexivity]. }
  assert (RUN : forall b, (b < bat (sh [] 2))%nat -> run_on_example b dot_batch 3 (gs b)).
  { intros [|[|b]] Hb; [apply (dot_runs (b := 0%nat)); lia|apply dot_at_runs|]. change (S (S b) < 2)%nat in Hb. lia. }
  destruct (@C76_minibatch 0 dot_batch gs (3%nat, 0%nat) (sh [] 2) [0%nat] [dot_par] qs [sh [2%N] 1] [] (fun _ _ _ => alr) (fun _ => lifo_min) (fun _ => fifo_max) gs' P dot_batch_loss dot_acceptable eq_refl) with (gal := fun _ _ : nat => alr) (popf := lifo_min) (popb := fifo_max) as (g' & E & SP); auto.
  { constructor; [eexists; split; [reflexivity|]; split; reflexivity|constructor]. }
  exists gs, qs, gs', g'. split; [exact AC|]. split; [reflexivity|]. split; [exact E|]. split; [exact SP|].
  intros q Hq. destruct (C76_gradients AC GP) as (_ & SG & HD). change (qs 0%nat) with [dot_par] in SG, HD.
  assert (EN : nth_error (qs 2%nat) 0 = Some q). { remember (qs 2%nat) as l eqn:EL. clear - SG Hq. inversion SG as [|pp qq ll lq SBq SGr EP EQq]; subst. inversion SGr; subst. destruct Hq as [<-|[]]. reflexivity. }
  assert (IC : inb (sh [2%N] 1) (c2 1 0)) by (intros [|[|dd]]; vm_compute; lia).
  specialize (HD 0%nat (sh [2%N] 1) dot_par q (c2 1 0) eq_refl eq_refl EN IC).
  assert (ED : D (fun t => rsum 2 (fun j => total Debug (with_value (made_of (fun _ => [0%nat]) j 0) (bump (p_value dot_par) (c2 1 0) 0 t) (gs j)) (3%nat, 0%nat))) (7 + 13)).
  { eapply deriv_ext with (f := fun t => (2 * 5 + (3 + t) * 7) + (2 * 11 + (3 + t) * 13)); [|eapply deriv_val; [repeat first [apply deriv_const|apply deriv_id|apply deriv_add|apply deriv_mul]|cbv beta; ring]].
    intros t. lazy -[Rnum IZR F nmul nadd Rplus Rmult]. cbn [nmul nadd Rnum]. ring. }
  assert (G0 : grad dot_par (c2 1 0) = 20) by (lazy -[Rnum IZR]; reflexivity).
  pose proof (uniqueness_limite _ _ _ _ HD ED) as U. rewrite G0 in U. change (F Rnum) with R in *. lra.
Qed.
