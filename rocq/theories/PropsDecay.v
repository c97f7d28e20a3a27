(** * PropsDecay: weight decay is the L2 penalty (C75) *)
From Verif Require Export PropsTrain PropsResume PropsEqual.
Set Implicit Arguments.
Unset Strict Implicit.
Open Scope R_scope.
Notation opt := (Optim.opt Rnum).
Notation param := (Optim.param Rnum).

(** ** Specification *)
(** the gradient of [q'] is that of [q] plus the gradient of l2/2 times the sum of the squares of the elements of the value *)
Definition penalized (l2 : R) (q q' : param) : Prop :=
  t_shape (p_grad q') = t_shape (p_grad q) /\ forall c, inb (t_shape (p_grad q)) c -> grad q' c = grad q c + l2 * val q c.
(** [N] training steps as in [training] (PropsTrain.v), for an optimizer with any settings, which may change: [sc n] in step [n] *)
Record training_with (a : algo Rnum) (N d : nat) (ss : list shape) (sc : nat -> settings Rnum) (os : nat -> opt) (ps qs : nat -> list param) (gs : nat -> rgraph) (ns : nat -> node) (ix : nat -> list nat) : Prop := mkTrainingWith {
  tw_algo : o_algo (os 0%nat) = a;
  tw_epoch : (o_epoch (os 0%nat) + N.of_nat N < two32)%N;
  tw_start : Forall2 (fun s p => clear d s (needed a) p) ss (ps 0%nat);
  tw_loss : forall n, (n < N)%nat -> program d (gs n) /\ loss_of (gs n) (ns n) /\ borrows (gs n) (ix n) (ps n);
  tw_backward : forall n, (n < N)%nat -> exists gal popf popb g', min_heap popf /\ max_heap popb /\ fair_grads gal /\
    node_backward Debug (interp Debug) gal popf popb (gs n) (ns n) = Ok g' /\ qs n = returned g' (ix n) (ps n);
  tw_update : forall n, (n < N)%nat -> exists als, (forall i j k, al_ok (als i j k)) /\
    update_parameters Debug als (adjust (sc n) (os n)) (qs n) = Ok (adjust (sc n) (os (S n)), ps (S n)) }.
(** the second loss is, for changes [t] of one element [w] near 0, the first plus l2/2 times the square of the element and
    something that does not depend on it *)
Definition penalty_near (l2 w : R) (f f' : R -> R) : Prop := exists e k, 0 < e /\ forall t, Rabs t < e -> f' t = f t + l2 / 2 * (w + t) ^ 2 + k.

(** ** One update *)
Lemma pen_eq (g v l : R) : g + l * v = g + v * l. Proof. ring. Qed.
Lemma pen_0 (g v : R) : g + v * 0 = g. Proof. ring. Qed.
Section Generic.
Variable K : num.
Hypothesis HC : commutes K.
Notation item := (item K).
Lemma like_sym (xs xs' : list item) : Forall2 (@like K) xs xs' -> Forall2 (@like K) xs' xs.
Proof. induction 1 as [|x x' xs xs' (S & E) H IH]; constructor; auto. split; congruence. Qed.
Lemma like_step m m' als als' (o o' : Optim.opt K) (xs xs' : list item) ps ps' r : (forall i j k, al_ok (als i j k)) -> (forall i j k, al_ok (als' i j k)) -> (o_epoch o < two32 - 1)%N -> (o_epoch o' < two32 - 1)%N ->
  o_algo o' = o_algo o -> o_scale o' = o_scale o -> (counts (o_algo o) -> o_epoch o' = o_epoch o) -> are_params xs ps -> are_params xs' ps' -> Forall2 (@like K) (prepared o xs) (prepared o' xs') ->
  update_parameters m als o ps = Ok r ->
  exists qs qs', r = (set_epoch (o_epoch o + 1) o, qs) /\ update_parameters m' als' o' ps' = Ok (set_epoch (o_epoch o' + 1) o', qs') /\ Forall2 (@same_param K) qs qs' /\ Forall (@sound K) qs /\ Forall (@sound K) qs'.
Proof.
  intros HA HA' HE HE' GA GS GE A1 A2 LP E. destruct (@update_finds K HC m als o xs ps r HA HE A1 E) as (ys & HY).
  assert (Y' : exists ys', Forall2 (updated o') (prepared o' xs') ys' /\ Forall2 (@like K) ys ys').
  { clear - GA GS GE HY LP. revert LP. generalize (prepared o' xs'). induction HY as [|a b l l' (U1 & U2 & z & U3 & U4) HY IH]; intros l0 LP; inversion LP; subst; [exists []; split; constructor|].
    match goal with X : like a _ |- _ => destruct X as (S & Ec) end. match goal with X : Forall2 _ l _ |- _ => destruct (IH _ X) as (ys' & IH1 & IH2) end. exists (mkI (i_dev y) (i_shape y) (no_grad z) :: ys'). split.
    - constructor; auto. split; [reflexivity|]. split; [reflexivity|]. exists z. split; [|reflexivity]. rewrite GA, GS, Ec, <- U3. apply stepped_epoch. intros C. rewrite GE; auto.
    - constructor; auto. split; cbn; congruence. }
  destruct Y' as (ys' & HY' & LY). destruct (@C46_update_parameters K m HC als o xs ps ys HA HE A1 HY) as (qs & E1 & P1). destruct (@C46_update_parameters K m' HC als' o' xs' ps' ys' HA' HE' A2 HY') as (qs' & E2 & P2).
  rewrite E1 in E. injection E as <-. exists qs, qs'. split; [reflexivity|]. split; [exact E2|]. split; [eapply params_same; eauto|]. split; eapply params_sound; eauto.
Qed.
End Generic.

Lemma penalized_items l2 qs qs' : Forall (@sound Rnum) qs -> Forall (@sound Rnum) qs' -> Forall2 (fun q q' => seen_same (p_value q) (p_value q') /\
    (forall n, match st_get n (p_stats q), st_get n (p_stats q') with Some t, Some t' => seen_same t t' | None, None => True | _, _ => False end) /\ penalized l2 q q') qs qs' ->
  exists xs xs', are_params xs qs /\ are_params xs' qs' /\ Forall2 (@like Rnum) (map (on (@decayed Rnum l2)) xs) xs'.
Proof.
  intros H1 H2 H. induction H as [|q q' qs qs' (V & S & PS & PG) H IH]; [exists [], []; repeat split; constructor|]. inversion H1 as [|? ? S1 S1']; subst. inversion H2 as [|? ? S2 S2']; subst. destruct IH as (xs & xs' & A1 & A2 & L); auto.
  destruct (look_ok S1) as (d & s & I1). destruct S2 as (d' & s' & B' & (R1 & Q1) & (R2 & Q2) & R3).
  assert (I2 : is_param d' s (@decayed Rnum l2 (look q)) q').
  { destruct I1 as (V1 & G1 & T1). split; [cbn; eapply seen_elems; eauto|]. split.
    - pose proof (elems_shape G1) as ES. destruct G1 as (B1 & _). split; auto. split; auto. split; [congruence|]. intros c b Hc Hb. rewrite B1 in Hb. replace b with 0%nat by lia. rewrite ES in PG. change (at_ (p_grad q') c 0) with (grad q' c). rewrite PG by auto. exact (pen_eq _ _ _).
    - intros n. specialize (T1 n). specialize (S n). cbn [decayed with_grad c_stat] in * . destruct (c_stat (look q) n), (st_get n (p_stats q)); try tauto; destruct (st_get n (p_stats q')) as [t'|] eqn:E'; try tauto. eapply seen_elems; eauto. apply (R3 n); auto. }
  exists (mkI d s (look q) :: xs), (mkI d' s (@decayed Rnum l2 (look q)) :: xs'). split; [constructor; auto|]. split; [constructor; auto|]. constructor; auto. split; reflexivity.
Qed.
Lemma Rlt_0 : nlt Rnum (@n0 Rnum) 0 = false. Proof. cbn. apply Rltb_false. lra. Qed.
Lemma map_on_id (xs : list (item Rnum)) : Forall2 (@like Rnum) (map (on (@decayed Rnum 0)) xs) xs.
Proof.
  induction xs as [|x xs IH]; constructor; auto. split; [reflexivity|]. destruct x as [d s [v g st]]. cbn. unfold decayed, with_grad. cbn. f_equal. apply functional_extensionality. intros c. exact (eq_sym (pen_0 (g c) (v c))).
Qed.
Lemma like_trans (xs ys zs : list (item Rnum)) : Forall2 (@like Rnum) xs ys -> Forall2 (@like Rnum) ys zs -> Forall2 (@like Rnum) xs zs.
Proof. intros H. revert zs. induction H as [|x y xs ys (S & E) H IH]; intros zs HZ; inversion HZ as [|? z ? ? (S2 & E2) ?]; subst; constructor; auto. split; congruence. Qed.
(** preparing with decay is preparing the penalized gradients without *)
Lemma prepared_decay (o o' : opt) xs xs' : 0 <= o_l2 o -> o_l2 o' = 0 -> o_clip o' = o_clip o -> Forall2 (@like Rnum) (map (on (@decayed Rnum (o_l2 o))) xs) xs' -> Forall2 (@like Rnum) (prepared o xs) (prepared o' xs').
Proof.
  intros H0 HZ EC L. assert (LP : Forall2 (@like Rnum) (prepared o' (map (on (@decayed Rnum (o_l2 o))) xs)) (prepared o' xs')) by (apply like_prepared; auto).
  destruct (Rle_lt_or_eq_dec _ _ H0) as [HP|HE].
  - assert (EP : prepared o xs = prepared o' (map (on (@decayed Rnum (o_l2 o))) xs)); [|rewrite EP; exact LP]. unfold prepared. rewrite HZ, Rlt_0, EC. cbn [nlt Rnum n0]. rewrite (Rltb_true HP). reflexivity.
  - assert (EP : prepared o xs = prepared o' xs). { unfold prepared. rewrite HZ, Rlt_0, EC, <- HE. rewrite Rlt_0. reflexivity. }
    rewrite EP. apply like_prepared. rewrite <- HE in L. eapply like_trans; [|exact L]. apply like_sym. apply map_on_id.
Qed.

(** ** C75 *)
(** an update with weight decay [s_l2 x] is, for every optimizer and with gradient clipping as well, the update without weight decay
    for the gradients of the penalized loss: both go through, with parameters that are the same, or neither does *)
Theorem C75_update : forall m m' als als' (o o' : opt) (x x' : settings Rnum) qs qs', (forall i j k, al_ok (als i j k)) -> (forall i j k, al_ok (als' i j k)) -> (o_epoch o < two32 - 1)%N -> (o_epoch o' < two32 - 1)%N ->
  as_good o o' -> 0 <= s_l2 x -> x' = mkS (s_scale x) 0 (s_clip x) -> Forall (@sound Rnum) qs -> Forall (@sound Rnum) qs' ->
  Forall2 (fun q q' => seen_same (p_value q) (p_value q') /\ (forall n, match st_get n (p_stats q), st_get n (p_stats q') with Some t, Some t' => seen_same t t' | None, None => True | _, _ => False end) /\ penalized (s_l2 x) q q') qs qs' ->
  (exists ps ps', update_parameters m als (adjust x o) qs = Ok (adjust x (set_epoch (o_epoch o + 1) o), ps) /\ update_parameters m' als' (adjust x' o') qs' = Ok (adjust x' (set_epoch (o_epoch o' + 1) o'), ps') /\
     Forall2 (@same_param Rnum) ps ps' /\ Forall (@sound Rnum) ps /\ Forall (@sound Rnum) ps') \/
  ((forall r, update_parameters m als (adjust x o) qs <> Ok r) /\ forall r, update_parameters m' als' (adjust x' o') qs' <> Ok r).
Proof.
  intros m m' als als' o o' x x' qs qs' HA HA' HE HE' (GA & GE) H0 EX H1 H2 H. destruct (penalized_items H1 H2 H) as (xs & xs' & A1 & A2 & L).
  assert (LP : Forall2 (@like Rnum) (prepared (adjust x o) xs) (prepared (adjust x' o') xs')) by (apply prepared_decay; auto; rewrite EX; reflexivity).
  assert (GS : o_scale (adjust x' o') = o_scale (adjust x o)) by (rewrite EX; reflexivity).
  assert (GE' : counts (o_algo o') -> o_epoch o = o_epoch o') by (intros C; symmetry; apply GE; rewrite <- GA; exact C).
  destruct (update_parameters m als (adjust x o) qs) as [r| |] eqn:E.
  - left. destruct (@like_step Rnum Rnum_commutes m m' als als' (adjust x o) (adjust x' o') xs xs' qs qs' r HA HA' HE HE' GA GS GE A1 A2 LP E) as (ps & ps' & -> & E2 & P). exists ps, ps'. auto.
  - right. split; [discriminate|]. intros r E'. destruct (@like_step Rnum Rnum_commutes m' m als' als (adjust x' o') (adjust x o) xs' xs qs' qs r HA' HA HE' HE (eq_sym GA) (eq_sym GS) GE' A2 A1 (like_sym LP) E') as (u & v & _ & E2 & _). congruence.
  - right. split; [discriminate|]. intros r E'. destruct (@like_step Rnum Rnum_commutes m' m als' als (adjust x' o') (adjust x o) xs' xs qs' qs r HA' HA HE' HE (eq_sym GA) (eq_sym GS) GE' A2 A1 (like_sym LP) E') as (u & v & _ & E2 & _). congruence.
Qed.
(** many updates: training with weight decay, and training without on the penalized gradients *)
Theorem C75_steps : forall m m' N (sc sc' : nat -> settings Rnum) os os' ps ps' qs qs', steps m N sc os ps qs -> steps m' N sc' os' ps' qs' -> as_good (os 0%nat) (os' 0%nat) -> Forall2 (@same_param Rnum) (ps 0%nat) (ps' 0%nat) ->
  (forall n, 0 <= s_l2 (sc n)) -> (forall n, sc' n = mkS (s_scale (sc n)) 0 (s_clip (sc n))) ->
  (forall n, (n < N)%nat -> Forall2 (@same_param Rnum) (ps n) (ps' n) -> Forall2 (penalized (s_l2 (sc n))) (qs n) (qs' n)) ->
  forall n, (n <= N)%nat -> Forall2 (@same_param Rnum) (ps n) (ps' n).
Proof.
  intros m m' N sc sc' os os' ps ps' qs qs' T T' HG H0 HL HS HP n. induction n as [|n IH]; intros Hn; auto. specialize (IH ltac:(lia)).
  destruct (steps_epoch Rnum_commutes T (n := n) ltac:(lia)) as (E1 & A1). destruct (steps_epoch Rnum_commutes T' (n := n) ltac:(lia)) as (E2 & A2). pose proof (st_epoch T) as B1. pose proof (st_epoch T') as B2. change two32 with 4294967296%N in B1, B2.
  destruct (st_step T Hn) as (als & HA & E). destruct (st_step T' Hn) as (als' & HA' & E').
  assert (G : as_good (os n) (os' n)) by (destruct HG as (G1 & G2); split; [congruence|rewrite A1; intros C; rewrite E1, E2, (G2 C); reflexivity]).
  assert (SQ : Forall2 (fun q q' => seen_same (p_value q) (p_value q') /\ (forall n, match st_get n (p_stats q), st_get n (p_stats q') with Some t, Some t' => seen_same t t' | None, None => True | _, _ => False end) /\ penalized (s_l2 (sc n)) q q') (qs n) (qs' n)).
  { specialize (HP n Hn IH). pose proof (st_grad T Hn) as O. pose proof (st_grad T' Hn) as O'. clear - IH HP O O'. revert O' HP IH. generalize (qs' n). generalize (ps' n). induction O as [|p q l l' (V & S) O IHO]; intros l1 l2 O' HP IH; inversion IH as [|? p' ? l1' (X1 & X2 & X3) ?]; subst; inversion O' as [|? q' ? l2' (V' & S') ?]; subst; inversion HP; subst; constructor; eauto.
    split; [rewrite V, V'; auto|]. split; auto. rewrite S, S'. auto. }
  destruct (@C75_update m m' als als' (os n) (os' n) (sc n) (sc' n) (qs n) (qs' n) HA HA') as [(u & v & R1 & R2 & P & _)|(R1 & _)]; auto; try (change two32 with 4294967296%N; lia); [apply (st_sound T Hn)|apply (st_sound T' Hn)| |].
  - assert (Q1 : u = ps (S n)) by congruence. assert (Q2 : v = ps' (S n)) by congruence. rewrite <- Q1, <- Q2. exact P.
  - exfalso. exact (R1 _ E).
Qed.

(** ** Networks *)
Lemma near_penalty l2 w f f' L L' : penalty_near l2 w f f' -> D f L -> D f' L' -> L' = L + l2 * w.
Proof.
  intros (e & k & He & H) D1 D2. apply (near_deriv (f := f') (f' := fun t => f t + l2 / 2 * (w + t) ^ 2 + k)); auto.
  - exists e. auto.
  - eapply deriv_val; [apply (derivable_pt_lim_plus (fun t => f t + l2 / 2 * (w + t) ^ 2) (fun _ => k))|].
    + apply (derivable_pt_lim_plus f (fun t => l2 / 2 * (w + t) ^ 2)); [exact D1|].
      apply (derivable_pt_lim_scal (fun t => (w + t) ^ 2)). apply (derivable_pt_lim_comp (fun t => w + t) (fun u => u ^ 2)); [apply (derivable_pt_lim_plus (fun _ => w) (fun t => t)); [apply derivable_pt_lim_const|apply derivable_pt_lim_id]|]. apply derivable_pt_lim_pow.
    + apply derivable_pt_lim_const.
    + cbn. field.
Qed.

(** an update leaves clear parameters, whatever the settings *)
Lemma prepared_keeps (o : opt) xs : Forall2 (fun x y : item Rnum => i_dev y = i_dev x /\ i_shape y = i_shape x /\ c_value (i_c y) = c_value (i_c x) /\ c_stat (i_c y) = c_stat (i_c x)) xs (prepared o xs).
Proof.
  assert (ID : forall xs : list (item Rnum), Forall2 (fun x y : item Rnum => i_dev y = i_dev x /\ i_shape y = i_shape x /\ c_value (i_c y) = c_value (i_c x) /\ c_stat (i_c y) = c_stat (i_c x)) xs xs) by (induction xs0; constructor; auto).
  assert (MP : forall f xs ys, Forall2 (fun x y : item Rnum => i_dev y = i_dev x /\ i_shape y = i_shape x /\ c_value (i_c y) = c_value (i_c x) /\ c_stat (i_c y) = c_stat (i_c x)) xs ys ->
     Forall2 (fun x y : item Rnum => i_dev y = i_dev x /\ i_shape y = i_shape x /\ c_value (i_c y) = c_value (i_c x) /\ c_stat (i_c y) = c_stat (i_c x)) xs (map (on (with_grad f)) ys)).
  { intros f l l' H. induction H as [|x y l l' H1 H IH]; constructor; auto. }
  unfold prepared. destruct (nlt Rnum n0 (o_l2 o)); destruct (_ && _); unfold decayed, rescaled; auto.
Qed.
Lemma update_goes (a : algo Rnum) als (o : opt) d ss (qs : list param) : o_algo o = a -> (o_epoch o < two32 - 1)%N -> (forall i j k, al_ok (als i j k)) -> Forall2 (fun s q => good d s (needed a) q) ss qs ->
  exists ps', update_parameters Debug als o qs = Ok (set_epoch (o_epoch o + 1) o, ps') /\ Forall2 (fun s p => clear d s (needed a) p) ss ps'.
Proof.
  intros EA HE HA G. set (xs := map (fun sq => mkI d (fst sq) (view (snd sq))) (combine ss qs)).
  assert (AX : are_params xs qs). { unfold xs. clear - G. induction G as [|s q ss l H G IH]; constructor; auto. cbn. eapply view_ok; eauto. }
  assert (YS : exists ys : list (item Rnum), Forall2 (updated o) (prepared o xs) ys /\ Forall2 (fun s (y : item Rnum) => i_dev y = d /\ i_shape y = s /\ (forall c, c_grad (i_c y) c = 0) /\ Forall (fun n => c_stat (i_c y) n <> None) (needed a)) ss ys).
  { pose proof (prepared_keeps o xs) as PK. revert PK. generalize (prepared o xs). unfold xs. clear - G EA. induction G as [|s q ss l H G IH]; intros zs PK; inversion PK as [|? y ? zs' (K1 & K2 & K3 & K4) PK']; subst zs; [exists []; split; constructor|].
    destruct (IH _ PK') as (ys & I1 & I2). cbn [fst snd i_dev i_shape i_c] in K1, K2, K3, K4.
    assert (SS : exists z, stepped (o_algo o) (o_scale o) (o_epoch o + 1) (i_c y) = Some z /\ Forall (fun n => c_stat z n <> None) (needed a)).
    { pose proof H as (_ & _ & _ & H'). rewrite EA. unfold stepped. rewrite K4. clear - H'. destruct a; cbn [needed] in * ; cbn [view c_stat].
      - eexists. split; [reflexivity|constructor].
      - inversion H'; subst. destruct (st_get _ _); [|congruence]. eexists. split; [reflexivity|]. constructor; [|constructor]. cbn. discriminate.
      - inversion H' as [|? ? H1 H2]; subst. inversion H2; subst. destruct (st_get "Adam.m1" _); [|congruence]. destruct (st_get "Adam.m2" _); [|congruence]. eexists. split; [reflexivity|]. constructor; [|constructor; [|constructor]]; cbn; discriminate. }
    destruct SS as (z & Ez & Hz). exists (mkI d s (no_grad z) :: ys). split.
    - constructor; [split; [cbn; congruence|]; split; [cbn; congruence|]; exists z; auto|exact I1].
    - constructor; [cbn; auto|exact I2]. }
  destruct YS as (ys & Y1 & Y2). destruct (@C46_update_parameters Rnum Debug Rnum_commutes als o xs qs ys) as (ps2 & E2 & AP); auto.
  exists ps2. split; [exact E2|]. clear - AP Y2. revert ps2 AP. induction Y2 as [|s y ss ys (D1 & D2 & D3 & D4) Y2 IH]; intros ps2 AP; inversion AP as [|? p ? ps' H1 H2]; subst; constructor; auto.
  split; [eapply is_param_good; eauto|]. destruct H1 as (_ & (B & _ & _ & V) & _). intros c Hc. unfold grad. rewrite V by (auto; lia). apply D3.
Qed.
Lemma update_clears_with (a : algo Rnum) als (o : opt) d ss (qs : list param) o' ps' : o_algo o = a -> (o_epoch o < two32 - 1)%N -> (forall i j k, al_ok (als i j k)) -> Forall2 (fun s q => good d s (needed a) q) ss qs ->
  update_parameters Debug als o qs = Ok (o', ps') -> Forall2 (fun s p => clear d s (needed a) p) ss ps'.
Proof. intros EA HE HA G E. destruct (update_goes EA HE HA G) as (ps2 & E2 & C). rewrite E2 in E. injection E as _ <-. exact C. Qed.
Lemma training_facts a N d ss sc os ps qs gs ns ix : training_with a N d ss sc os ps qs gs ns ix -> forall n, (n <= N)%nat ->
  o_epoch (os n) = (o_epoch (os 0%nat) + N.of_nat n)%N /\ o_algo (os n) = a /\ Forall2 (fun s p => clear d s (needed a) p) ss (ps n).
Proof.
  intros T n. induction n as [|n IH]; intros Hn; [split; [lia|split; [apply (tw_algo T)|apply (tw_start T)]]|]. destruct (IH ltac:(lia)) as (E1 & A1 & C1). clear IH. pose proof (tw_epoch T) as HE. change two32 with 4294967296%N in HE.
  destruct (tw_loss T (n := n) ltac:(lia)) as (P & L & B). destruct (tw_backward T (n := n) ltac:(lia)) as (gal & popf & popb & g' & HF & HX & HA & E & EQ). destruct (backward_returns P L HF HX HA B C1) as (g2 & E2 & G & _).
  assert (QQ : g2 = g') by congruence. rewrite QQ, <- EQ in G. destruct (tw_update T (n := n) ltac:(lia)) as (als & HL & EU).
  assert (HN : (o_epoch (adjust (sc n) (os n)) < two32 - 1)%N) by (cbn [adjust o_epoch]; change two32 with 4294967296%N; lia).
  pose proof (update_clears_with (o := adjust (sc n) (os n)) A1 HN HL G EU) as C2. split; [|split; auto].
  - assert (SS : Forall (@sound Rnum) (qs n)) by (clear - G; induction G; constructor; [eapply good_sound; eassumption|assumption]).
    assert (SR : Forall2 (@same_param Rnum) (qs n) (qs n)).
    { assert (X : forall t : tensor Rnum, seen_same t t) by (intros; split; auto). assert (X' : forall p : param, same_param p p) by (intros p; split; [auto|split; [auto|]]; intros k; destruct (st_get k (p_stats p)); auto). generalize (qs n). induction l; constructor; auto. }
    destruct (@one_step Rnum Rnum_commutes Debug Debug als als (os n) (os n) (sc n) (qs n) (qs n) (adjust (sc n) (os (S n)), ps (S n)) HL HL HN HN) as (u & v & E3 & _); auto; [split; auto|].
    injection E3 as E3 _ _. rewrite E3, E1. lia.
  - assert (SS : Forall (@sound Rnum) (qs n)) by (clear - G; induction G; constructor; [eapply good_sound; eassumption|assumption]).
    assert (SR : Forall2 (@same_param Rnum) (qs n) (qs n)).
    { assert (X : forall t : tensor Rnum, seen_same t t) by (intros; split; auto). assert (X' : forall p : param, same_param p p) by (intros p; split; [auto|split; [auto|]]; intros k; destruct (st_get k (p_stats p)); auto). generalize (qs n). induction l; constructor; auto. }
    destruct (@one_step Rnum Rnum_commutes Debug Debug als als (os n) (os n) (sc n) (qs n) (qs n) (adjust (sc n) (os (S n)), ps (S n)) HL HL HN HN) as (u & v & E3 & _); auto; [split; auto|].
    injection E3 as _ E3 _. rewrite E3. exact A1.
Qed.
(** a training is a series of steps of the optimizer, each with the derivatives of its loss for gradients *)
Lemma training_runs a N d ss sc os ps qs gs ns ix : training_with a N d ss sc os ps qs gs ns ix -> steps Debug N sc os ps qs /\
  forall n, (n < N)%nat -> Forall2 (fun s q => good d s (needed a) q) ss (qs n) /\ Forall2 same_but_grad (ps n) (qs n) /\
    forall j i s p q c, nth_error (ix n) j = Some i -> nth_error ss j = Some s -> nth_error (ps n) j = Some p -> nth_error (qs n) j = Some q -> inb s c -> slope (gs n) (ns n) i p c (grad q c).
Proof.
  intros T. assert (ST : forall n, (n < N)%nat -> Forall2 (fun s q => good d s (needed a) q) ss (qs n) /\ Forall2 same_but_grad (ps n) (qs n) /\
    forall j i s p q c, nth_error (ix n) j = Some i -> nth_error ss j = Some s -> nth_error (ps n) j = Some p -> nth_error (qs n) j = Some q -> inb s c -> slope (gs n) (ns n) i p c (grad q c)).
  { intros n Hn. destruct (training_facts T (n := n) ltac:(lia)) as (_ & _ & C1). destruct (tw_loss T Hn) as (P & L & B). destruct (tw_backward T Hn) as (gal & popf & popb & g' & HF & HX & HA & E & EQ).
    destruct (backward_returns P L HF HX HA B C1) as (g2 & E2 & G). assert (QQ : g2 = g') by congruence. rewrite QQ in G. rewrite EQ. exact G. }
  split; auto. constructor.
  - apply (tw_epoch T).
  - intros n Hn. apply (ST n Hn).
  - intros n Hn. destruct (ST n Hn) as (G & _). clear - G. induction G; constructor; [eapply good_sound; eassumption|assumption].
  - intros n Hn. apply (tw_update T Hn).
Qed.

(** training a network with weight decay, and training without weight decay a network (perhaps built of other operators, on another
    device) whose loss is, in each step and as long as the parameters are the same, the first plus half the strength of the decay times
    the sum of the squares of the parameters: the parameters stay the same, with any optimizer and any clipping *)
Theorem C75_training : forall a N d d' ss sc sc' os os' ps ps' qs qs' gs gs' ns ns' ix ix', training_with a N d ss sc os ps qs gs ns ix -> training_with a N d' ss sc' os' ps' qs' gs' ns' ix' ->
  (forall n, 0 <= s_l2 (sc n)) -> (forall n, sc' n = mkS (s_scale (sc n)) 0 (s_clip (sc n))) -> o_epoch (os' 0%nat) = o_epoch (os 0%nat) -> Forall2 (@same_param Rnum) (ps 0%nat) (ps' 0%nat) ->
  (forall n, (n < N)%nat -> Forall2 (@same_param Rnum) (ps n) (ps' n) -> forall j i i' s p p' c, nth_error (ix n) j = Some i -> nth_error (ix' n) j = Some i' -> nth_error ss j = Some s -> nth_error (ps n) j = Some p -> nth_error (ps' n) j = Some p' -> inb s c ->
     penalty_near (s_l2 (sc n)) (val p c) (fun t => total Debug (with_value i (bump (p_value p) c 0 t) (gs n)) (ns n)) (fun t => total Debug (with_value i' (bump (p_value p') c 0 t) (gs' n)) (ns' n))) ->
  forall n, (n <= N)%nat -> Forall2 (@same_param Rnum) (ps n) (ps' n).
Proof.
  intros a N d d' ss sc sc' os os' ps ps' qs qs' gs gs' ns ns' ix ix' T T' HL0 HSC EE H0 HL. destruct (training_runs T) as (S1 & F1). destruct (training_runs T') as (S2 & F2).
  apply (@C75_steps Debug Debug N sc sc' os os' ps ps' qs qs' S1 S2); auto.
  - split; [rewrite (tw_algo T), (tw_algo T'); auto|intros _; auto].
  - intros n Hn HS. specialize (HL n Hn HS). destruct (F1 n Hn) as (G & SG & SL). destruct (F2 n Hn) as (G' & SG' & SL').
    pose proof (tw_loss T Hn) as (_ & _ & B). pose proof (tw_loss T' Hn) as (_ & _ & B').
    assert (LB : length (ix n) = length (ps n)) by (exact (Forall2_len B)). assert (LB' : length (ix' n) = length (ps' n)) by (exact (Forall2_len B')).
    pose proof (Forall2_len G) as LG. pose proof (Forall2_len G') as LG'. pose proof (Forall2_len SG) as LS. pose proof (Forall2_len SG') as LS'.
    assert (NTH : forall j q q', nth_error (qs n) j = Some q -> nth_error (qs' n) j = Some q' -> penalized (s_l2 (sc n)) q q').
    { intros j q q' Eq Eq'. pose proof (nth_error_Some_lt Eq) as Lj.
      destruct (nth_error (ix n) j) as [i|] eqn:Ei; [|apply nth_error_None in Ei; lia]. destruct (nth_error (ix' n) j) as [i'|] eqn:Ei'; [|apply nth_error_None in Ei'; lia].
      destruct (nth_error ss j) as [s|] eqn:Es; [|apply nth_error_None in Es; lia]. destruct (nth_error (ps n) j) as [p|] eqn:Ep; [|apply nth_error_None in Ep; lia]. destruct (nth_error (ps' n) j) as [p'|] eqn:Ep'; [|apply nth_error_None in Ep'; lia].
      pose proof (F2nth G Es Eq) as Gq. pose proof (F2nth G' Es Eq') as Gq'. destruct Gq as (_ & (_ & _ & Sh1) & _). destruct Gq' as (_ & (_ & _ & Sh2) & _).
      destruct (F2nth SG Ep Eq) as (V1 & _). split; [congruence|]. rewrite Sh1. intros c Hc. unfold val. rewrite V1. apply (near_penalty (HL j i i' s p p' c Ei Ei' Es Ep Ep' Hc)).
      - apply (SL j i s p q c); auto.
      - apply (SL' j i' s p' q' c); auto. }
    assert (LQ : length (qs n) = length (qs' n)) by lia. clear - NTH LQ. revert NTH LQ. generalize (qs n) (qs' n). induction l as [|x l IH]; intros [|y l'] NTH LQ; try discriminate; constructor.
    + apply (NTH 0%nat); reflexivity.
    + apply IH; [|cbn in LQ; lia]. intros j q q' E E'. apply (NTH (S j)); assumption.
Qed.

(** ** Trainings exist *)
(** whatever the optimizer and its settings, if the program makes of clear parameters a loss, it can be trained for as long as the
    epoch is a u32 *)
Section Family.
Variables (a : algo Rnum) (d : nat) (ss : list shape) (G : list param -> rgraph) (root : node) (ix : list nat) (sc : nat -> settings Rnum) (p0 : list param).
Definition after (ps : list param) : list param := returned (okv (@empty Rnum (oper Rnum)) (node_backward Debug (interp Debug) (fun _ _ => alr) lifo_min fifo_max (G ps) root)) ix ps.
Definition opt_at (k : nat) : opt := @mkOpt Rnum (N.of_nat k) 1 0 0 a.
Fixpoint trained (k : nat) : list param := match k with O => p0 | S k => snd (okv (opt_at k, p0) (update_parameters Debug (fun _ _ _ => alr) (adjust (sc k) (opt_at k)) (after (trained k)))) end.
Hypothesis HP : forall ps, Forall2 (fun s p => clear d s (needed a) p) ss ps -> program d (G ps) /\ loss_of (G ps) root /\ borrows (G ps) ix ps.
Hypothesis H0 : Forall2 (fun s p => clear d s (needed a) p) ss p0.
Lemma trained_clear k : (N.of_nat k < two32)%N -> Forall2 (fun s p => clear d s (needed a) p) ss (trained k).
Proof.
  induction k as [|k IH]; intros Hk; auto. change two32 with 4294967296%N in * . specialize (IH ltac:(lia)). destruct (HP IH) as (P & L & B).
  destruct (backward_returns (gal := fun _ _ => alr) P L (proj1 (proj2 heaps_ok)) (proj1 (proj2 (proj2 heaps_ok))) (fun _ _ => alr_ok) B IH) as (g' & E & GO & _).
  cbn [trained]. unfold after. rewrite E. cbn [okv]. destruct (@update_goes a (fun _ _ _ => alr) (adjust (sc k) (opt_at k)) d ss (returned g' ix (trained k)) eq_refl) as (ps' & EU & C); auto.
  - cbn. change two32 with 4294967296%N. lia.
  - intros; apply alr_ok.
  - rewrite EU. exact C.
Qed.
Theorem C75_trainings_exist : forall N, (N.of_nat N < two32)%N -> training_with a N d ss sc opt_at trained (fun k => after (trained k)) (fun k => G (trained k)) (fun _ => root) (fun _ => ix).
Proof.
  intros N HN. change two32 with 4294967296%N in HN. assert (ST : forall k, (k < N)%nat -> (N.of_nat (S k) < 4294967296)%N) by (intros; lia). constructor; auto.
  - intros k Hk. apply HP. apply trained_clear. change two32 with 4294967296%N. specialize (ST k Hk). lia.
  - intros k Hk. assert (C : Forall2 (fun s p => clear d s (needed a) p) ss (trained k)) by (apply trained_clear; change two32 with 4294967296%N; specialize (ST k Hk); lia). destruct (HP C) as (P & L & B).
    destruct (backward_returns (gal := fun _ _ => alr) P L (proj1 (proj2 heaps_ok)) (proj1 (proj2 (proj2 heaps_ok))) (fun _ _ => alr_ok) B C) as (g' & E & _).
    exists (fun _ _ => alr), lifo_min, fifo_max, g'. split; [apply heaps_ok|]. split; [apply heaps_ok|]. split; [intros i v; apply alr_ok|]. split; [exact E|]. unfold after. rewrite E. reflexivity.
  - intros k Hk. assert (C : Forall2 (fun s p => clear d s (needed a) p) ss (trained k)) by (apply trained_clear; change two32 with 4294967296%N; specialize (ST k Hk); lia). destruct (HP C) as (P & L & B).
    destruct (backward_returns (gal := fun _ _ => alr) P L (proj1 (proj2 heaps_ok)) (proj1 (proj2 (proj2 heaps_ok))) (fun _ _ => alr_ok) B C) as (g' & E & GO & _). exists (fun _ _ _ => alr). split; [intros; apply alr_ok|].
    cbn [trained]. unfold after. rewrite E. cbn [okv]. destruct (@update_goes a (fun _ _ _ => alr) (adjust (sc k) (opt_at k)) d ss (returned g' ix (trained k)) eq_refl) as (ps' & EU & C'); auto.
    + cbn. change two32 with 4294967296%N. specialize (ST k Hk). lia.
    + intros; apply alr_ok.
    + rewrite EU. cbn [okv snd]. f_equal. f_equal. unfold adjust, set_epoch, opt_at. cbn [o_epoch o_scale o_l2 o_clip o_algo]. f_equal. lia.
Qed.
End Family.

(** *** A concrete case: loss = w^2 with weight decay l2, and loss = (1 + l2/2) w^2 without; any optimizer, any clipping *)
Definition rw_build (k : R) (v a : rtensor) : res (rgraph * node) :=
  ' (g1, w) <- n_parameter Debug (@empty Rnum (oper Rnum)) br v a ;; ' (g2, y) <- n_powi Debug 2%Z g1 br w ;; n_mul_const (K := Rnum) Debug k g2 br y.
Definition rw_of (k w a : R) (r q : list R) : rgraph := Eval lazy -[alr Rnum IZR] in fst (okv (@empty Rnum (oper Rnum), (0%nat, 0%nat)) (rw_build k (PropsReal.tr 0 [] 1 (w :: r)) (PropsReal.tr 0 [] 1 (a :: q)))).
Lemma rw_built k w a r q : rw_build k (PropsReal.tr 0 [] 1 (w :: r)) (PropsReal.tr 0 [] 1 (a :: q)) = Ok (rw_of k w a r q, (2%nat, 0%nat)). Proof. reflexivity. Qed.
Lemma rw_program k w a r q : ready 0 (PropsReal.tr 0 [] 1 (w :: r)) -> ready 0 (PropsReal.tr 0 [] 1 (a :: q)) -> program 0 (rw_of k w a r q).
Proof.
  intros R1 R2. pose proof (rw_built k w a r q) as E. unfold rw_build in E. apply bind_Ok in E. destruct E as ([g1 x] & E1 & E). apply bind_Ok in E. destruct E as ([g2 y] & E2 & E).
  refine (pr_op1 (k := KMulConst (K := Rnum) k) _ br_fair eq_refl _ E); [|cbn; lia]. refine (pr_op1 (k := KPowi 2%Z) _ br_fair eq_refl _ E2); [|cbn; lia]. refine (pr_parameter (pr_empty Rnum 0) br_fair R1 R2 _ E1). reflexivity.
Qed.
Lemma rw_loss k w a r q : ready 0 (PropsReal.tr 0 [] 1 (w :: r)) -> ready 0 (PropsReal.tr 0 [] 1 (a :: q)) -> loss_of (rw_of k w a r q) (2%nat, 0%nat).
Proof.
  intros R1 R2. assert (F1 : fits sh1) by (apply (sh_fits [] (b := 1%N)); reflexivity). assert (U2 : forall i, uses (rw_of k w a r q) 2 i -> (i < 3)%nat).
  { intros i U. destruct (clean_inv (interp_lawful (K := Rnum) (m := Debug)) (built_clean (program_built (rw_program k R1 R2)))) as (W & _). apply (uses_lt W U). cbn. lia. }
  constructor; cbn [fst snd].
  - split; [reflexivity|]. eexists. split; reflexivity.
  - intros i o U Ho. pose proof (U2 i U). destruct i as [|[|[|i]]]; [| | |lia]; cbn in Ho; injection Ho as <-; (split; [constructor; [exact F1|constructor]|]); [exact I|cbn; lia|exact I].
  - intros i o xs U Ho _. pose proof (U2 i U). intros s c b ER Hc Hb. destruct i as [|[|[|i]]]; [| | |lia]; cbn in Ho; injection Ho as <-; cbn; auto. split; auto. right. lia.
  - intros i o v U NE Ho Lv. pose proof (U2 i U). destruct i as [|[|[|i]]]; [| |congruence|lia]; cbn in Ho; injection Ho as <-; cbn in Lv; assert (v = 0%nat) by lia; subst v.
    + exists 1%nat. split; [|left; reflexivity]. eapply uses_step with (n := (1%nat, 0%nat)); [reflexivity|left; reflexivity|constructor].
    + exists 2%nat. split; [constructor|left; reflexivity].
Qed.
Lemma rw_total k w a r q c t : inb sh1 c -> total Debug (with_value 0 (bump (PropsReal.tr 0 [] 1 (w :: r)) c 0 t) (rw_of k w a r q)) (2%nat, 0%nat) = (w + t) * (w + t) * k.
Proof. intros Hc. rewrite bump_first by auto. lazy -[Rnum IZR F npowi nmul Rplus Rmult]. cbn [npowi nmul Rnum]. unfold powerRZ. change (Pos.to_nat 2) with 2%nat. cbn [pow]. ring. Qed.

Notation zt := (PropsReal.tr 0 [] 1 [0]).
Definition start (w0 : R) : list param := [@mkParam Rnum (PropsReal.tr 0 [] 1 [w0]) zt [("MomentumSGD.m"%string, zt); ("Adam.m1"%string, zt); ("Adam.m2"%string, zt)]].
Definition pw_network (ps : list param) : rgraph := match ps with p :: _ => pw_graph p | [] => @empty Rnum (oper Rnum) end.
Definition rw_network (k : R) (ps : list param) : rgraph := match ps with p :: _ => fst (okv (@empty Rnum (oper Rnum), (0%nat, 0%nat)) (rw_build k (p_value p) (p_grad p))) | [] => @empty Rnum (oper Rnum) end.
Lemma start_clear (a : algo Rnum) w0 : Forall2 (fun s p => clear 0 s (needed a) p) [sh1] (start w0).
Proof.
  assert (W : forall x, whole 0 sh1 (PropsReal.tr 0 [] 1 [x])) by (intros x; split; [reflexivity|]; split; [apply (sq_start x)|reflexivity]).
  constructor; [|constructor]. split.
  - split; [apply W|]. split; [apply W|]. split.
    + intros n t E. cbn [p_stats st_get] in E. destruct (String.eqb _ n); [injection E as <-; apply W|]. destruct (String.eqb _ n); [injection E as <-; apply W|]. destruct (String.eqb _ n); [injection E as <-; apply W|discriminate].
    + destruct a; cbn [needed]; repeat constructor; cbn; discriminate.
  - intros c Hc. unfold grad. cbn [p_grad]. rewrite at_buf. assert (P0 : pos sh1 c 0 = 0%nat). { pose proof (pos_lt (proj1 sh1_is) Hc (b := 0%nat)) as L. change (bat sh1) with 1%nat in L. change (tot sh1) with 1%nat in L. lia. }
    change (t_shape _) with sh1. rewrite P0. reflexivity.
Qed.
Lemma clear_forms names k p : clear 0 sh1 names p -> exists w r a q, p_value p = PropsReal.tr 0 [] 1 (w :: r) /\ p_grad p = PropsReal.tr 0 [] 1 (a :: q) /\ ready 0 (PropsReal.tr 0 [] 1 (w :: r)) /\ ready 0 (PropsReal.tr 0 [] 1 (a :: q)) /\
  pw_network [p] = pw_of w a r q /\ rw_network k [p] = rw_of k w a r q.
Proof.
  intros ((WV & WG & _) & _). destruct (whole_form WV) as (w & r & E1). destruct (whole_form WG) as (a & q & E2). destruct WV as (_ & RV & _). destruct WG as (_ & RG & _). rewrite E1 in RV. rewrite E2 in RG.
  exists w, r, a, q. split; auto. split; auto. split; auto. split; auto. unfold pw_network, pw_graph, rw_network. rewrite E1, E2, pw_built, rw_built. split; reflexivity.
Qed.
Example C75_applies : forall (a : algo Rnum) l2 clip w0 n, 0 <= l2 -> (N.of_nat n < two32)%N ->
  let with_decay := trained a pw_network (1%nat, 0%nat) [0%nat] (fun _ => @mkS Rnum 1 l2 clip) (start w0) in let with_penalty := trained a (rw_network (1 + l2 / 2)) (2%nat, 0%nat) [0%nat] (fun _ => @mkS Rnum 1 0 clip) (start w0) in
  Forall2 (@same_param Rnum) (with_decay n) (with_penalty n).
Proof.
  intros a l2 clip w0 N H2 HN wd wp. set (k := 1 + l2 / 2) in * .
  assert (T1 : training_with a N 0 [sh1] (fun _ => @mkS Rnum 1 l2 clip) (opt_at a) wd (fun n => after pw_network (1%nat, 0%nat) [0%nat] (wd n)) (fun n => pw_network (wd n)) (fun _ => (1%nat, 0%nat)) (fun _ => [0%nat])).
  { apply C75_trainings_exist; auto using start_clear. intros ps C. inversion C as [|? p ? ? C1 C2]; subst. inversion C2; subst. destruct (clear_forms k C1) as (w & r & g & q & E1 & E2 & RV & RG & E3 & _). rewrite E3.
    split; [apply pw_program; auto|]. split; [apply pw_loss; auto|]. constructor; [|constructor]. eexists. split; [reflexivity|]. rewrite E1, E2. split; reflexivity. }
  assert (T2 : training_with a N 0 [sh1] (fun _ => @mkS Rnum 1 0 clip) (opt_at a) wp (fun n => after (rw_network k) (2%nat, 0%nat) [0%nat] (wp n)) (fun n => rw_network k (wp n)) (fun _ => (2%nat, 0%nat)) (fun _ => [0%nat])).
  { apply C75_trainings_exist; auto using start_clear. intros ps C. inversion C as [|? p ? ? C1 C2]; subst. inversion C2; subst. destruct (clear_forms k C1) as (w & r & g & q & E1 & E2 & RV & RG & _ & E3). rewrite E3.
    split; [apply rw_program; auto|]. split; [apply rw_loss; auto|]. constructor; [|constructor]. eexists. split; [reflexivity|]. rewrite E1, E2. split; reflexivity. }
  apply (C75_training T1 T2) with (n := N); auto.
  - constructor; [|constructor]. assert (X : forall t : tensor Rnum, seen_same t t) by (intros; split; auto). split; [auto|split; [auto|]]. intros m. destruct (st_get m _); auto.
  - intros n Hn HS j i i' s p p' c E1 E2 E3 E4 E5 Hc. destruct j as [|j]; [|destruct j; discriminate]. cbn in E1, E2, E3. injection E1 as <-. injection E2 as <-. injection E3 as <-.
    destruct (training_facts T1 (n := n) ltac:(lia)) as (_ & _ & C1). destruct (training_facts T2 (n := n) ltac:(lia)) as (_ & _ & C2). 
    destruct (wd n) as [|x l]; inversion C1 as [|? ? ? ? D1 D2]; subst. inversion D2; subst. destruct (wp n) as [|y l']; inversion C2 as [|? ? ? ? D1' D2']; subst. inversion D2'; subst. cbn in E4, E5. injection E4 as <-. injection E5 as <-. inversion HS as [|? ? ? ? ((ShV & V) & _) _]; subst.
    destruct (clear_forms k D1) as (w & r & u & q & F1 & F2 & _ & _ & F3 & _). destruct (clear_forms k D1') as (w' & r' & u' & q' & G1 & G2 & _ & _ & _ & G3). unfold val. rewrite F3, G3, F1, G1.
    assert (P0 : pos sh1 c 0 = 0%nat). { pose proof (pos_lt (proj1 sh1_is) Hc (b := 0%nat)) as L. change (bat sh1) with 1%nat in L. change (tot sh1) with 1%nat in L. lia. }
    assert (EW : w' = w). { specialize (V c 0%nat). rewrite F1, G1 in V. rewrite !at_buf in V. change (t_shape (PropsReal.tr 0 [] 1 (w :: r))) with sh1 in V. change (t_shape (PropsReal.tr 0 [] 1 (w' :: r'))) with sh1 in V. rewrite P0 in V. apply V; auto. }
    exists 1, 0. split; [lra|]. intros t _. rewrite pw_total, rw_total by auto. rewrite at_buf. change (t_shape (PropsReal.tr 0 [] 1 (w :: r))) with sh1. rewrite P0. cbn. rewrite EW. unfold k. field.
Qed.
