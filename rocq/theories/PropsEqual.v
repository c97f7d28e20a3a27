(** * PropsEqual: networks that compute the same function train in the same way (C74) *)
From Verif Require Export PropsTrain PropsResume.
Set Implicit Arguments.
Unset Strict Implicit.
Open Scope R_scope.

(** ** Specification *)
(** two functions of a change [t] agree for all small [t] *)
Definition agree_near (f f' : R -> R) : Prop := exists e, 0 < e /\ forall t, Rabs t < e -> f t = f' t.
(** operator [i] of the graph is a node made of a parameter with value [v] and, at the moment, gradient [a] *)
Definition param_at (g : rgraph) (i : nat) (v a : rtensor) : Prop := exists o, nth_error (g_ops g) i = Some o /\ o_kind (oi_op o) = KParameter v /\ oi_own o = Some a.

Lemma near_deriv f f' L L' : agree_near f f' -> D f L -> D f' L' -> L = L'.
Proof.
  intros (e & He & H) D1 D2. eapply uniqueness_limite; [exact D1|]. intros eps Heps. destruct (D2 eps Heps) as (del & Hd). assert (P : 0 < Rmin e del) by (apply Rmin_pos; [auto|apply cond_pos]).
  exists (mkposreal _ P). intros h Hh HL. cbn in HL. rewrite !H; [|rewrite Rabs_R0; auto|rewrite Rplus_0_l; eapply Rlt_le_trans; [exact HL|apply Rmin_l]]. apply Hd; auto. eapply Rlt_le_trans; [exact HL|apply Rmin_r].
Qed.

(** ** C74 *)
(** a backward pass adds the same to an element of a parameter of either network, if the losses agree as functions of that
    element near its value; the networks may be built of different operators, on different devices, and have any gradients before *)
Theorem C74_backward : forall gal gal' popf popb popf' popb' (g g' : rgraph) d d' n n' i i' v v' a a' c b,
  program d g -> loss_of g n -> min_heap popf -> max_heap popb -> fair_grads gal -> program d' g' -> loss_of g' n' -> min_heap popf' -> max_heap popb' -> fair_grads gal' ->
  param_at g i v a -> param_at g' i' v' a' -> inb (t_shape v) c -> (b < bat (t_shape v))%nat -> t_shape v' = t_shape v ->
  agree_near (fun t => total Debug (with_value i (bump v c b t) g) n) (fun t => total Debug (with_value i' (bump v' c b t) g') n') ->
  exists h h' r r', node_backward Debug (interp Debug) gal popf popb g n = Ok h /\ node_backward Debug (interp Debug) gal' popf' popb' g' n' = Ok h' /\ own_of h i = Some r /\ own_of h' i' = Some r' /\
    at_ r c b - at_ a c b = at_ r' c b - at_ a' c b.
Proof.
  assert (ONE : forall gal popf popb (g : rgraph) d n i v a c b, program d g -> loss_of g n -> min_heap popf -> max_heap popb -> fair_grads gal -> param_at g i v a -> inb (t_shape v) c -> (b < bat (t_shape v))%nat ->
    exists h r, node_backward Debug (interp Debug) gal popf popb g n = Ok h /\ own_of h i = Some r /\ D (fun t => total Debug (with_value i (bump v c b t) g) n) (at_ r c b - at_ a c b)).
  { intros gal popf popb g d n i v a c b P L HF HX HA (o & Ho & EK & EO) Hc Hb. destruct (C38_programs P L HF HX HA) as (h & E & NU & US). exists h.
    destruct (clean_inv (interp_lawful (K := Rnum) (m := Debug)) (built_clean (program_built P))) as (GW & _). pose proof L as L'. destruct L' as [(L0 & oR & HoR & _) _ _ _]. pose proof (nth_error_Some_lt HoR) as LR.
    assert (EA : own_of g i = Some a) by (unfold own_of; rewrite Ho; auto).
    destruct (uses_dec i GW LR) as [U|U].
    - destruct (US i o v U Ho EK) as (a0 & r & A1 & A2 & A3 & A4 & A5). exists r. split; auto. split; auto. assert (a0 = a) by congruence. subst a0. apply A5; auto.
    - exists a. split; auto. split; [rewrite NU; auto|]. unfold Rminus. change (F Rnum) with R. rewrite Rplus_opp_r. eapply deriv_ext; [|apply (deriv_const (total Debug g n))]. intros t. unfold total, eval_node. rewrite unused_eval; auto. }
  intros gal gal' popf popb popf' popb' g g' d d' n n' i i' v v' a a' c b P L HF HX HA P' L' HF' HX' HA' I I' Hc Hb ES AG.
  destruct (ONE gal popf popb g d n i v a c b P L HF HX HA I Hc Hb) as (h & r & E1 & E2 & E3). destruct (ONE gal' popf' popb' g' d' n' i' v' a' c b P' L' HF' HX' HA' I') as (h' & r' & E1' & E2' & E3'); [rewrite ES; auto|rewrite ES; auto|].
  exists h, h', r, r'. split; auto. split; auto. split; auto. split; auto. exact (near_deriv AG E3 E3').
Qed.

(** two trainings with any optimizer, of networks whose losses, in every step, agree as functions of each element of each parameter
    as long as the parameters are the same *)
Theorem C74_training : forall a N d d' ss os os' ps ps' qs qs' gs gs' ns ns' ix ix', training a N d ss os ps qs gs ns ix -> training a N d' ss os' ps' qs' gs' ns' ix' ->
  (forall n, o_scale (os' n) = o_scale (os n)) -> Forall2 (@same_param Rnum) (ps 0%nat) (ps' 0%nat) ->
  (forall n, (n < N)%nat -> Forall2 (@same_param Rnum) (ps n) (ps' n) -> forall j i i' s p p' c, nth_error (ix n) j = Some i -> nth_error (ix' n) j = Some i' -> nth_error ss j = Some s -> nth_error (ps n) j = Some p -> nth_error (ps' n) j = Some p' -> inb s c ->
     agree_near (fun t => total Debug (with_value i (bump (p_value p) c 0 t) (gs n)) (ns n)) (fun t => total Debug (with_value i' (bump (p_value p') c 0 t) (gs' n)) (ns' n))) ->
  forall n, (n <= N)%nat -> Forall2 (@same_param Rnum) (ps n) (ps' n).
Proof.
  intros a N d d' ss os os' ps ps' qs qs' gs gs' ns ns' ix ix' T T' SC H0 HL n Hn. destruct (C59_training T) as (RU & CL & SL). destruct (C59_training T') as (RU' & CL' & SL').
  pose proof (C73_runs RU) as S1. pose proof (C73_runs RU') as S2. set (sc := fun n => mkS (o_scale (os n)) (o_l2 (os n)) (o_clip (os n))) in S1.
  assert (ESC : (fun n => mkS (o_scale (os' n)) (o_l2 (os' n)) (o_clip (os' n))) = sc).
  { apply functional_extensionality. intros k. unfold sc. rewrite SC. destruct (t_plain T k) as (-> & ->). destruct (t_plain T' k) as (-> & ->). reflexivity. }
  rewrite ESC in S2. destruct (@C73_training Rnum Rnum_commutes Debug Debug N sc os os' ps ps' qs qs' S1 S2) with (n := n) as (X & _); auto.
  - split; [rewrite (t_algo T), (t_algo T'); auto|intros _; rewrite (t_epoch T), (t_epoch T'); auto].
  - clear n Hn. intros n Hn HS. pose proof (run_good RU Hn) as G. pose proof (run_good RU' Hn) as G'. pose proof (run_grad RU Hn) as SG. pose proof (run_grad RU' Hn) as SG'. specialize (HL n Hn HS). specialize (SL n). specialize (SL' n).
    pose proof (t_loss T Hn) as (_ & _ & B). pose proof (t_loss T' Hn) as (_ & _ & B').
    assert (LB : length (ix n) = length (ps n)) by (exact (Forall2_len B)). assert (LB' : length (ix' n) = length (ps' n)) by (exact (Forall2_len B')).
    pose proof (Forall2_len G) as LG. pose proof (Forall2_len G') as LG'. rewrite map_length in LG, LG'. pose proof (Forall2_len SG) as LS. pose proof (Forall2_len SG') as LS'.
    assert (NTH : forall j q q', nth_error (qs n) j = Some q -> nth_error (qs' n) j = Some q' -> seen_same (p_grad q) (p_grad q')).
    { intros j q q' Eq Eq'. pose proof (nth_error_Some_lt Eq) as Lj.
      destruct (nth_error (ix n) j) as [i|] eqn:Ei; [|apply nth_error_None in Ei; lia]. destruct (nth_error (ix' n) j) as [i'|] eqn:Ei'; [|apply nth_error_None in Ei'; lia].
      destruct (nth_error ss j) as [s|] eqn:Es; [|apply nth_error_None in Es; lia]. destruct (nth_error (ps n) j) as [p|] eqn:Ep; [|apply nth_error_None in Ep; lia]. destruct (nth_error (ps' n) j) as [p'|] eqn:Ep'; [|apply nth_error_None in Ep'; lia].
      assert (Em : nth_error (map (pair d) ss) j = Some (d, s)) by (rewrite nth_error_map, Es; auto). assert (Em' : nth_error (map (pair d') ss) j = Some (d', s)) by (rewrite nth_error_map, Es; auto).
      pose proof (F2nth G Em Eq) as Gq. pose proof (F2nth G' Em' Eq') as Gq'. cbn [fst snd] in Gq, Gq'. destruct Gq as (_ & (Bs & R1 & Sh1) & _). destruct Gq' as (_ & (_ & R2 & Sh2) & _).
      split; [congruence|]. rewrite Sh1. intros c b Hc Hb. replace b with 0%nat by lia. symmetry. apply (near_deriv (HL j i i' s p p' c Ei Ei' Es Ep Ep' Hc)).
      - apply (SL j i s p q c); auto.
      - apply (SL' j i' s p' q' c); auto. }
    assert (LQ : length (qs n) = length (qs' n)) by lia. clear - NTH LQ. revert NTH LQ. generalize (qs n) (qs' n). induction l as [|x l IH]; intros [|y l'] NTH LQ; try discriminate; constructor.
    + apply (NTH 0%nat); reflexivity.
    + apply IH; [|cbn in LQ; lia]. intros j q q' E E'. apply (NTH (S j)); assumption.
Qed.

(** *** A concrete case: loss = w * w, and loss = powi (w, 2) evaluated in other orders *)
Definition pw_build (v a : rtensor) : res (rgraph * node) :=
  ' (g1, w) <- n_parameter Debug (@empty Rnum (oper Rnum)) br v a ;; n_powi Debug 2%Z g1 br w.
Definition pw_of (w a : R) (r q : list R) : rgraph := Eval lazy -[alr Rnum IZR] in fst (okv (@empty Rnum (oper Rnum), (0%nat, 0%nat)) (pw_build (PropsReal.tr 0 [] 1 (w :: r)) (PropsReal.tr 0 [] 1 (a :: q)))).
Lemma pw_built w a r q : pw_build (PropsReal.tr 0 [] 1 (w :: r)) (PropsReal.tr 0 [] 1 (a :: q)) = Ok (pw_of w a r q, (1%nat, 0%nat)). Proof. reflexivity. Qed.
Lemma pw_program w a r q : ready 0 (PropsReal.tr 0 [] 1 (w :: r)) -> ready 0 (PropsReal.tr 0 [] 1 (a :: q)) -> program 0 (pw_of w a r q).
Proof.
  intros R1 R2. pose proof (pw_built w a r q) as E. unfold pw_build in E. apply bind_Ok in E. destruct E as ([g1 x] & E1 & E).
  refine (pr_op1 (k := KPowi 2%Z) _ br_fair eq_refl _ E); [|cbn; lia]. refine (pr_parameter (pr_empty Rnum 0) br_fair R1 R2 _ E1). reflexivity.
Qed.
Lemma pw_loss w a r q : ready 0 (PropsReal.tr 0 [] 1 (w :: r)) -> ready 0 (PropsReal.tr 0 [] 1 (a :: q)) -> loss_of (pw_of w a r q) (1%nat, 0%nat).
Proof.
  intros R1 R2. assert (F1 : fits sh1) by (apply (sh_fits [] (b := 1%N)); reflexivity). assert (U2 : forall i, uses (pw_of w a r q) 1 i -> (i < 2)%nat).
  { intros i U. destruct (clean_inv (interp_lawful (K := Rnum) (m := Debug)) (built_clean (program_built (pw_program R1 R2)))) as (W & _). apply (uses_lt W U). cbn. lia. }
  constructor; cbn [fst snd].
  - split; [reflexivity|]. eexists. split; reflexivity.
  - intros i o U Ho. pose proof (U2 i U). destruct i as [|[|i]]; [| |lia]; cbn in Ho; injection Ho as <-; (split; [constructor; [exact F1|constructor]|]); [exact I|cbn; lia].
  - intros i o xs U Ho _. pose proof (U2 i U). intros s c b ER Hc Hb. destruct i as [|[|i]]; [| |lia]; cbn in Ho; injection Ho as <-; cbn; auto. split; auto. right. lia.
  - intros i o v U NE Ho Lv. pose proof (U2 i U). destruct i as [|[|i]]; [|congruence|lia]. cbn in Ho. injection Ho as <-. cbn in Lv. assert (v = 0%nat) by lia. subst v. exists 1%nat. split; [constructor|left; reflexivity].
Qed.

(** the losses are the same function of the parameter *)
Lemma bump_first w r c t : inb sh1 c -> bump (PropsReal.tr 0 [] 1 (w :: r)) c 0 t = bump (PropsReal.tr 0 [] 1 (w :: r)) (fun _ => 0%nat) 0 t.
Proof.
  intros Hc. assert (P0 : pos sh1 c 0 = 0%nat). { pose proof (pos_lt (proj1 sh1_is) Hc (b := 0%nat)) as L. change (bat sh1) with 1%nat in L. change (tot sh1) with 1%nat in L. lia. }
  unfold bump. rewrite !at_buf. change (t_shape (PropsReal.tr 0 [] 1 (w :: r))) with sh1. rewrite P0. reflexivity.
Qed.
Lemma sq_total w a r q c t : inb sh1 c -> total Debug (with_value 0 (bump (PropsReal.tr 0 [] 1 (w :: r)) c 0 t) (sq_of w a r q)) (1%nat, 0%nat) = (w + t) * (w + t).
Proof. intros Hc. rewrite bump_first by auto. lazy -[Rnum IZR F nmul Rplus Rmult]. cbn [nmul Rnum]. ring. Qed.
Lemma pw_total w a r q c t : inb sh1 c -> total Debug (with_value 0 (bump (PropsReal.tr 0 [] 1 (w :: r)) c 0 t) (pw_of w a r q)) (1%nat, 0%nat) = (w + t) * (w + t).
Proof. intros Hc. rewrite bump_first by auto. lazy -[Rnum IZR F npowi Rplus Rmult]. cbn [npowi Rnum]. unfold powerRZ. change (Pos.to_nat 2) with 2%nat. cbn [pow]. ring. Qed.

(** one step of the second program *)
Notation param := (Optim.param Rnum).
Definition pw_graph (p : param) : rgraph := fst (okv (@empty Rnum (oper Rnum), (0%nat, 0%nat)) (pw_build (p_value p) (p_grad p))).
Definition pw_after (p : param) : list param := returned (okv (@empty Rnum (oper Rnum)) (node_backward Debug (interp Debug) (fun _ _ => alr) lifo_min fifo_max (pw_graph p) (1%nat, 0%nat))) [0%nat] [p].
Definition pw_next (eta : R) (n : nat) (p : param) : param := hd p (snd (okv (sq_opt eta n, [p]) (update_parameters Debug (fun _ _ _ => alr) (sq_opt eta n) (pw_after p)))).
Fixpoint pw_run (eta w0 : R) (n : nat) : param := match n with O => @mkParam Rnum (PropsReal.tr 0 [] 1 [w0]) (PropsReal.tr 0 [] 1 [0]) [] | S n => pw_next eta n (pw_run eta w0 n) end.
Lemma clear_form p : clear 0 sh1 [] p -> exists w r a q, p_value p = PropsReal.tr 0 [] 1 (w :: r) /\ p_grad p = PropsReal.tr 0 [] 1 (a :: q) /\ ready 0 (PropsReal.tr 0 [] 1 (w :: r)) /\ ready 0 (PropsReal.tr 0 [] 1 (a :: q)) /\ sq_graph p = sq_of w a r q /\ pw_graph p = pw_of w a r q.
Proof.
  intros ((WV & WG & _) & _). destruct (whole_form WV) as (w & r & E1). destruct (whole_form WG) as (a & q & E2). destruct WV as (_ & RV & _). destruct WG as (_ & RG & _). rewrite E1 in RV. rewrite E2 in RG.
  exists w, r, a, q. split; auto. split; auto. split; auto. split; auto. unfold sq_graph, pw_graph. rewrite E1, E2, sq_built, pw_built. split; reflexivity.
Qed.
Lemma pw_step eta n p : (N.of_nat (S n) < two32)%N -> clear 0 sh1 [] p -> clear 0 sh1 [] (pw_next eta n p) /\ program 0 (pw_graph p) /\ loss_of (pw_graph p) (1%nat, 0%nat) /\ borrows (pw_graph p) [0%nat] [p] /\
  (exists g', node_backward Debug (interp Debug) (fun _ _ => alr) lifo_min fifo_max (pw_graph p) (1%nat, 0%nat) = Ok g' /\ pw_after p = returned g' [0%nat] [p]) /\
  exists o', update_parameters Debug (fun _ _ _ => alr) (sq_opt eta n) (pw_after p) = Ok (o', [pw_next eta n p]).
Proof.
  intros Hn HC. destruct (clear_form HC) as (w & r & a & q & E1 & E2 & RV & RG & _ & EG).
  assert (P : program 0 (pw_graph p)) by (rewrite EG; apply pw_program; auto). assert (L : loss_of (pw_graph p) (1%nat, 0%nat)) by (rewrite EG; apply pw_loss; auto).
  assert (B : borrows (pw_graph p) [0%nat] [p]) by (constructor; [rewrite EG; eexists; split; [reflexivity|rewrite E1, E2; split; reflexivity]|constructor]).
  assert (HCs : Forall2 (fun s p => clear 0 s (@nil string) p) [sh1] [p]) by (constructor; auto).
  destruct (@backward_returns 0 (pw_graph p) (1%nat, 0%nat) (fun _ _ => alr) lifo_min fifo_max [0%nat] [p] [sh1] [] P L) as (g' & E & G & _ & _); auto; try apply heaps_ok; [intros i v; apply alr_ok|].
  assert (EA : pw_after p = returned g' [0%nat] [p]) by (unfold pw_after; rewrite E; reflexivity). rewrite <- EA in G.
  assert (HE : (o_epoch (sq_opt eta n) < two32 - 1)%N) by (cbn [o_epoch sq_opt]; change two32 with 4294967296%N in * ; lia).
  assert (UP : exists o' p', update_parameters Debug (fun _ _ _ => alr) (sq_opt eta n) (pw_after p) = Ok (o', [p'])).
  { clear EA. destruct (pw_after p) as [|q0 l]; inversion G as [|? ? ? ? G1 G2]; subst. inversion G2; subst.
    destruct (@C43_sgd Rnum Debug Rnum_commutes (fun _ _ _ => alr) (sq_opt eta n) eta [mkI 0 sh1 (view q0)] [q0]) as (ps' & E' & AP); auto; try (cbn; apply Rltb_false; lra); [intros; apply alr_ok|constructor; [eapply view_ok; eauto|constructor]|].
    rewrite E'. inversion AP as [|? p' ? ? _ AP2]; subst. inversion AP2; subst. eauto. }
  destruct UP as (o' & p' & EU). assert (EN : pw_next eta n p = p') by (unfold pw_next; rewrite EU; reflexivity).
  pose proof (@update_clears (SGD (K := Rnum) eta) (fun _ _ _ => alr) (sq_opt eta n) 0 [sh1] (pw_after p) o' [p'] eq_refl eq_refl eq_refl HE (fun _ _ _ => alr_ok) G EU) as CL.
  rewrite EN. split; [inversion CL; auto|]. split; auto. split; auto. split; auto. split; eauto.
Qed.
Lemma pw_training eta w0 N : (N.of_nat N < two32)%N ->
  training (SGD (K := Rnum) eta) N 0 [sh1] (sq_opt eta) (fun n => [pw_run eta w0 n]) (fun n => pw_after (pw_run eta w0 n)) (fun n => pw_graph (pw_run eta w0 n)) (fun _ => (1%nat, 0%nat)) (fun _ => [0%nat]) /\
  forall n, (n <= N)%nat -> clear 0 sh1 [] (pw_run eta w0 n).
Proof.
  intros HN. assert (CL : forall n, (n <= N)%nat -> clear 0 sh1 [] (pw_run eta w0 n)).
  { induction n as [|n IH]; intros Hn; [apply sq_start|]. cbn [pw_run]. apply pw_step; [change two32 with 4294967296%N in * ; lia|apply IH; lia]. }
  split; [|exact CL]. assert (ST : forall n, (n < N)%nat -> (N.of_nat (S n) < two32)%N) by (intros; change two32 with 4294967296%N in * ; lia). constructor; auto.
  - constructor; [apply (CL 0%nat); lia|constructor].
  - intros n Hn. destruct (@pw_step eta n (pw_run eta w0 n) (ST n Hn) (CL n ltac:(lia))) as (_ & P & L & B & _). auto.
  - intros n Hn. destruct (@pw_step eta n (pw_run eta w0 n) (ST n Hn) (CL n ltac:(lia))) as (_ & _ & _ & _ & (g' & E & EQ) & _).
    exists (fun _ _ => alr), lifo_min, fifo_max, g'. split; [apply heaps_ok|]. split; [apply heaps_ok|]. split; [intros i v; apply alr_ok|]. auto.
  - intros n Hn. destruct (@pw_step eta n (pw_run eta w0 n) (ST n Hn) (CL n ltac:(lia))) as (_ & _ & _ & _ & _ & o' & E). exists (fun _ _ _ => alr), o'. split; [intros; apply alr_ok|]. exact E.
Qed.
Example C74_applies : forall eta w0 n, (N.of_nat n < two32)%N -> same_param (sq_run eta w0 n) (pw_run eta w0 n) /\ val (pw_run eta w0 n) (fun _ => 0%nat) = (1 - 2 * eta) ^ n * w0.
Proof.
  intros eta w0 n Hn. pose proof (sq_training eta w0 Hn) as T. destruct (pw_training eta w0 Hn) as (T' & CL'). destruct (C59_training T) as (_ & CL & _).
  assert (SP : Forall2 (@same_param Rnum) [sq_run eta w0 n] [pw_run eta w0 n]).
  { apply (C74_training T T') with (n := n); auto.
    - constructor; [|constructor]. split; [split; auto|split; [split; auto|]]. intros k. cbn. auto.
    - intros k Hk HS j i i' s p p' c E1 E2 E3 E4 E5 Hc. destruct j as [|j]; [|destruct j; discriminate]. cbn in E1, E2, E3, E4, E5. injection E1 as <-. injection E2 as <-. injection E3 as <-. injection E4 as <-. injection E5 as <-.
      exists 1. split; [lra|]. intros t _. specialize (CL k ltac:(lia)). inversion CL as [|? ? ? ? C1 _]; subst. clear CL. specialize (CL' k ltac:(lia)). inversion HS as [|? ? ? ? ((ShV & V) & _) _]; subst.
      destruct (clear_form C1) as (w & r & a & q & F1 & F2 & _ & _ & F3 & _). destruct (clear_form CL') as (w' & r' & a' & q' & G1 & G2 & _ & _ & _ & G3). rewrite F3, G3, F1, G1, sq_total, pw_total by auto.
      assert (EW : w' = w); [|rewrite EW; reflexivity]. specialize (V (fun _ => 0%nat) 0%nat). rewrite F1, G1 in V. rewrite !at_buf in V. apply V; [|cbv; lia]. intros [|[|[|[|[|[|[|[|x]]]]]]]]; cbn; try lia; destruct x; cbn; lia. }
  assert (S1 : same_param (sq_run eta w0 n) (pw_run eta w0 n)) by (inversion SP; auto). split; auto.
  rewrite <- (C59_applies eta w0 Hn). destruct S1 as ((ShV & V) & _). unfold val. apply V.
  - specialize (CL n ltac:(lia)). inversion CL as [|? ? ? ? (((_ & _ & Sh) & _) & _) _]; subst. change (F Rnum) with R in * . rewrite Sh. intros [|[|[|[|[|[|[|[|x]]]]]]]]; cbn; try lia; destruct x; cbn; lia.
  - specialize (CL n ltac:(lia)). inversion CL as [|? ? ? ? (((_ & _ & Sh) & _) & _) _]; subst. change (F Rnum) with R in * . rewrite Sh. cbv. lia.
Qed.
