(** * PropsResume: training goes on from a saved model (C73) *)
From Coq Require Import Reals Lra.
From Verif Require Export PropsModel PropsOptim.
Set Implicit Arguments.
Unset Strict Implicit.
Open Scope nat_scope.

Section Resume.
Variable K : num.
Hypothesis HC : commutes K.
Notation F := (F K).
Notation tensor := (tensor K).
Notation param := (param K).
Notation opt := (opt K).
Notation item := (item K).

(** ** Specification *)
(** what a program can see of a tensor: its shape and its elements (not its device, nor its buffer) *)
Definition seen_same (t t' : tensor) : Prop := t_shape t' = t_shape t /\ forall c b, inb (t_shape t) c -> b < bat (t_shape t) -> at_ t' c b = at_ t c b.
Definition same_param (p p' : param) : Prop :=
  seen_same (p_value p) (p_value p') /\ seen_same (p_grad p) (p_grad p') /\
  forall n, match st_get n (p_stats p), st_get n (p_stats p') with Some t, Some t' => seen_same t t' | None, None => True | _, _ => False end.
(** value, gradient and statistics are on one device, of one shape, not batched *)
Definition sound (p : param) : Prop := exists d s, bat s = 1 /\ let fine t := ready d t /\ t_shape t = s in
  fine (p_value p) /\ fine (p_grad p) /\ forall n t, st_get n (p_stats p) = Some t -> fine t.
(** the settings of an optimizer: learning rate scaling, weight decay, gradient clipping *)
Record settings := mkS { s_scale : F; s_l2 : F; s_clip : F }.
Definition adjust (x : settings) (o : opt) : opt := mkOpt (o_epoch o) (s_scale x) (s_l2 x) (s_clip x) (o_algo o).
(** optimizers.rs L24-26: [*optimizer.epoch() = e] *)
Definition set_epoch (e : N) (o : opt) : opt := mkOpt e (o_scale o) (o_l2 o) (o_clip o) (o_algo o).
(** whether the rule of the optimizer looks at the epoch *)
Definition counts (a : algo K) : Prop := match a with Adam _ _ _ _ => True | _ => False end.
(** two optimizers of the same kind and with the same constants; if epochs matter, also at the same epoch *)
Definition as_good (o o' : opt) : Prop := o_algo o' = o_algo o /\ (counts (o_algo o) -> o_epoch o' = o_epoch o).
(** [N] steps of training: [ps n] are the parameters after [n] updates, [qs n] when the next
    update is called (in between only gradients have changed), with settings [sc n] *)
Definition only_grad (p q : param) : Prop := p_value q = p_value p /\ p_stats q = p_stats p.
Record steps (m : build) (N : nat) (sc : nat -> settings) (os : nat -> opt) (ps qs : nat -> list param) : Prop := mkSteps {
  st_epoch : (o_epoch (os 0%nat) + N.of_nat N < two32)%N;
  st_grad : forall n, n < N -> Forall2 only_grad (ps n) (qs n);
  st_sound : forall n, n < N -> Forall sound (qs n);
  st_step : forall n, n < N -> exists als, (forall i j k, al_ok (als i j k)) /\ update_parameters m als (adjust (sc n) (os n)) (qs n) = Ok (adjust (sc n) (os (S n)), ps (S n)) }.

(** ** Contents *)
Definition look (p : param) : contents K :=
  mkC (fun c => at_ (p_value p) c 0) (fun c => at_ (p_grad p) c 0) (fun n => match st_get n (p_stats p) with Some t => Some (fun c => at_ t c 0) | None => None end).
Lemma fine_elems d s (t : tensor) : bat s = 1 -> ready d t -> t_shape t = s -> elems (K := K) d s (fun c => at_ t c 0) t.
Proof. intros B R S. split; auto. split; auto. split; auto. intros c b Hc Hb. replace b with 0 by lia. auto. Qed.
Lemma look_ok p : sound p -> exists d s, is_param d s (look p) p.
Proof.
  intros (d & s & B & (R1 & S1) & (R2 & S2) & H). exists d, s. split; [apply fine_elems; auto|]. split; [apply fine_elems; auto|]. intros n. cbn. destruct (st_get n (p_stats p)) as [t|] eqn:E; auto. destruct (H n t E). apply fine_elems; auto.
Qed.
Lemma param_sound d s (x : contents K) p : is_param d s x p -> sound p.
Proof.
  intros (V & G & H). exists d, s. split; [apply V|]. cbv zeta. split; [split; [apply (elems_ready V)|apply (elems_shape V)]|]. split; [split; [apply (elems_ready G)|apply (elems_shape G)]|]. intros n t E. specialize (H n). rewrite E in H. destruct (c_stat x n); [|tauto]. split; [apply (elems_ready H)|apply (elems_shape H)].
Qed.
Lemma seen_elems d s (f : coord' -> F) t d' t' : elems d s f t -> ready d' t' -> seen_same t t' -> elems d' s f t'.
Proof. intros (B & R & S & V) R' (S' & V'). split; auto. split; auto. split; [congruence|]. intros c b Hc Hb. rewrite V'; rewrite ?S; auto. Qed.
Lemma seen_sym t t' : seen_same t t' -> seen_same t' t.
Proof. intros (S & V). split; auto. intros c b Hc Hb. rewrite S in Hc, Hb. symmetry. auto. Qed.
Lemma same_sym p p' : same_param p p' -> same_param p' p.
Proof. intros (V & G & H). split; [apply seen_sym; auto|]. split; [apply seen_sym; auto|]. intros n. specialize (H n). destruct (st_get n (p_stats p)), (st_get n (p_stats p')); auto. apply seen_sym; auto. Qed.
Lemma same_is d s (x : contents K) p p' : is_param d s x p -> sound p' -> same_param p p' -> exists d', is_param d' s x p'.
Proof.
  intros (V & G & H) (d' & s' & B & (R1 & _) & (R2 & _) & R3) (V' & G' & H'). exists d'. split; [eapply seen_elems; eauto|]. split; [eapply seen_elems; eauto|].
  intros n. specialize (H n). specialize (H' n). destruct (c_stat x n), (st_get n (p_stats p)); try tauto; destruct (st_get n (p_stats p')) as [t'|] eqn:E; try tauto. eapply seen_elems; eauto. apply (R3 n); auto.
Qed.
Lemma is_same d d' s (x : contents K) p p' : is_param d s x p -> is_param d' s x p' -> same_param p p'.
Proof.
  assert (E : forall (f : coord' -> F) t t', elems d s f t -> elems d' s f t' -> seen_same t t').
  { intros f t t' (B & R & S & V) (_ & R' & S' & V'). split; [congruence|]. rewrite S. intros c b Hc Hb. rewrite V, V'; auto. }
  intros (V & G & H) (V' & G' & H'). split; [eauto|]. split; [eauto|]. intros n. specialize (H n). specialize (H' n). destruct (c_stat x n), (st_get n (p_stats p)), (st_get n (p_stats p')); try tauto. eauto.
Qed.

(** ** One update *)
Definition like (x x' : item) : Prop := i_shape x' = i_shape x /\ i_c x' = i_c x.
Lemma like_map h xs xs' : Forall2 like xs xs' -> Forall2 like (map (on h) xs) (map (on h) xs').
Proof. induction 1 as [|x x' xs xs' (S & E) H IH]; constructor; auto. split; cbn; congruence. Qed.
Lemma like_sum xs xs' : Forall2 like xs xs' -> sq_sum xs' = sq_sum xs.
Proof. unfold sq_sum. intros H. match goal with |- fold_left ?f xs' ?z = fold_left ?f xs ?z => generalize z; set (g := f) end. induction H as [|x x' xs xs' (S & E) H IH]; intros z; auto. cbn [fold_left]. replace (g z x') with (g z x); [apply IH|]. unfold g. rewrite S, E. reflexivity. Qed.
Lemma like_prepared (o : opt) xs xs' : Forall2 like xs xs' -> Forall2 like (prepared o xs) (prepared o xs').
Proof.
  intros H. unfold prepared. set (a := if nlt K n0 (o_l2 o) then map _ xs else xs). set (b := if nlt K n0 (o_l2 o) then map _ xs' else xs').
  assert (H1 : Forall2 like a b) by (unfold a, b; destruct (nlt K n0 (o_l2 o)); auto using like_map). rewrite (like_sum H1). destruct (_ && _); auto using like_map.
Qed.
Lemma each_each A B (f : nat -> A -> res B) l : forall i r, each f i l = Ok r -> forall x, In x l -> exists j y, f j x = Ok y.
Proof.
  induction l as [|x0 l IH]; intros i r E x HI; [destruct HI|]. destruct HI as [<-|HI]; cbn [each] in E; destruct (f i x0) as [y| |] eqn:E1; try discriminate; cbn [bind] in E; [eauto|].
  destruct (each f (S i) l) as [ys| |] eqn:E2; try discriminate. eauto.
Qed.
(** an update that goes through finds the statistics it needs *)
Lemma update_finds m als (o : opt) (xs : list item) ps r : (forall i j k, al_ok (als i j k)) -> (o_epoch o < two32 - 1)%N -> are_params xs ps -> update_parameters m als o ps = Ok r ->
  exists ys, Forall2 (updated o) (prepared o xs) ys.
Proof.
  intros HA HE HP E. unfold update_parameters in E. unfold prepared.
  assert (H1 : exists ps1, (if ngt (o_l2 o) n0 then each (fun i p => decay m (als 0 i 0) (o_l2 o) p) 0 ps else Ok ps) = Ok ps1 /\
     are_params (if nlt K n0 (o_l2 o) then map (on (decayed (o_l2 o))) xs else xs) ps1).
  { unfold ngt. destruct (nlt K n0 (o_l2 o)); [|eauto]. apply each_map; auto. intros i d s x p HX. apply decay_turns; auto. }
  destruct H1 as (ps1 & E1 & HP1). rewrite E1 in E. cbn [bind] in E. set (xs1 := if nlt K n0 (o_l2 o) then map (on (decayed (o_l2 o))) xs else xs) in * .
  assert (H2 : exists ps2, (if ngt (o_clip o) n0 then q <- sq_norm m (als 1) 0 n0 ps1 ;;
              (if ngt q (nmul K (o_clip o) (o_clip o)) then each (fun _ p => rescale m (ndiv K (o_clip o) (nsqrt K q)) p) 0 ps1 else Ok ps1) else Ok ps1) = Ok ps2 /\
     are_params (if nlt K n0 (o_clip o) && nlt K (nmul K (o_clip o) (o_clip o)) (sq_sum xs1) then map (on (rescaled (ndiv K (o_clip o) (nsqrt K (sq_sum xs1))))) xs1 else xs1) ps2).
  { unfold ngt. destruct (nlt K n0 (o_clip o)); cbn [andb]; [|eauto]. rewrite (@sq_norm_Ok K m HC (als 1) xs1) by auto. cbn [bind]. fold (sq_sum xs1).
    destruct (nlt K (nmul K (o_clip o) (o_clip o)) (sq_sum xs1)); [|eauto]. apply each_map; auto. intros i d s x p HX. apply rescale_turns; auto. }
  destruct H2 as (ps2 & E2 & HP2). rewrite E2 in E. cbn [bind] in E. set (xs2 := if nlt K n0 (o_clip o) && _ then _ else xs1) in * .
  destruct (each _ 0 ps2) as [ps3| |] eqn:E3; try discriminate. pose proof (each_each E3) as EE. clear - HC HA HE HP2 EE. clearbody xs2.
  induction HP2 as [|x p xl pl HX HP IH]; [exists []; constructor|]. destruct IH as (ys & IH); [intros q HI; apply EE; right; auto|].
  destruct (EE p (or_introl eq_refl)) as (j & y & Ej). pose proof (@update_turns K m HC (als 2 j) o (o_scale o) _ _ _ _ (HA 2 j) HE HX) as HU. destruct (stepped (o_algo o) (o_scale o) (o_epoch o + 1) (i_c x)) as [z|] eqn:ES; [|rewrite HU in Ej; discriminate].
  exists (mkI (i_dev x) (i_shape x) (no_grad z) :: ys). constructor; auto. split; [reflexivity|]. split; [reflexivity|]. exists z. auto.
Qed.
Lemma like_params ps ps' : Forall sound ps -> Forall sound ps' -> Forall2 same_param ps ps' -> exists xs xs', are_params xs ps /\ are_params xs' ps' /\ Forall2 like xs xs'.
Proof.
  intros H1 H2 H. induction H as [|p p' ps ps' HS H IH]; [exists [], []; repeat split; constructor|]. inversion H1; subst. inversion H2; subst. destruct IH as (xs & xs' & A1 & A2 & L); auto.
  match goal with X : sound p |- _ => destruct (look_ok X) as (d & s & I1) end. match goal with X : sound p' |- _ => destruct (same_is I1 X HS) as (d' & I2) end.
  exists (mkI d s (look p) :: xs), (mkI d' s (look p) :: xs'). split; [constructor; auto|]. split; [constructor; auto|]. constructor; auto. split; reflexivity.
Qed.
Lemma params_same xs xs' ps ps' : Forall2 like xs xs' -> are_params xs ps -> are_params xs' ps' -> Forall2 same_param ps ps'.
Proof.
  intros L. revert ps ps'. induction L as [|x x' xs xs' (S & E) L IH]; intros ps ps' H H'; inversion H; subst; inversion H'; subst; constructor; auto. eapply is_same; [eassumption|]. rewrite <- S, <- E. eassumption.
Qed.
Lemma params_sound xs ps : are_params xs ps -> Forall sound ps.
Proof. induction 1; constructor; auto. eapply param_sound; eauto. Qed.
Lemma stepped_epoch a scale n n' x : (counts a -> n = n') -> stepped a scale n x = stepped a scale n' x.
Proof. destruct a; cbn; auto. intros E. rewrite (E I). reflexivity. Qed.
Lemma one_step m m' als als' o o' x : forall ps ps' r, (forall i j k, al_ok (als i j k)) -> (forall i j k, al_ok (als' i j k)) -> (o_epoch o < two32 - 1)%N -> (o_epoch o' < two32 - 1)%N ->
  as_good o o' -> Forall sound ps -> Forall sound ps' -> Forall2 same_param ps ps' -> update_parameters m als (adjust x o) ps = Ok r ->
  exists qs qs', r = (adjust x (set_epoch (o_epoch o + 1) o), qs) /\ update_parameters m' als' (adjust x o') ps' = Ok (adjust x (set_epoch (o_epoch o' + 1) o'), qs') /\ Forall2 same_param qs qs' /\ Forall sound qs /\ Forall sound qs'.
Proof.
  intros ps ps' r HA HA' HE HE' (GA & GE) H1 H2 HS E. destruct (like_params H1 H2 HS) as (xs & xs' & A1 & A2 & L). destruct (@update_finds m als (adjust x o) xs ps r HA HE A1 E) as (ys & HY).
  assert (Y' : exists ys', Forall2 (updated (adjust x o')) (prepared (adjust x o') xs') ys' /\ Forall2 like ys ys').
  { assert (EP : prepared (adjust x o') xs' = prepared (adjust x o) xs') by reflexivity. rewrite EP. pose proof (like_prepared (adjust x o) L) as LP. clear - GA GE HY LP. revert LP. generalize (prepared (adjust x o) xs'). induction HY as [|a b l l' (U1 & U2 & z & U3 & U4) HY IH]; intros l0 LP; inversion LP; subst; [exists []; split; constructor|].
    match goal with X : like a _ |- _ => destruct X as (S & Ec) end. match goal with X : Forall2 like l _ |- _ => destruct (IH _ X) as (ys' & IH1 & IH2) end. exists (mkI (i_dev y) (i_shape y) (no_grad z) :: ys'). split.
    - constructor; auto. split; [reflexivity|]. split; [reflexivity|]. exists z. split; [|reflexivity]. cbn [adjust o_algo o_scale o_epoch] in U3 |- * . rewrite GA, Ec, <- U3. apply stepped_epoch. intros C. rewrite GE; auto.
    - constructor; auto. split; cbn; congruence. }
  destruct Y' as (ys' & HY' & LY). destruct (@C46_update_parameters K m HC als (adjust x o) xs ps ys HA HE A1 HY) as (qs & E1 & P1). destruct (@C46_update_parameters K m' HC als' (adjust x o') xs' ps' ys' HA' HE' A2 HY') as (qs' & E2 & P2).
  rewrite E1 in E. injection E as <-. exists qs, qs'. split; [reflexivity|]. split; [exact E2|]. split; [eapply params_same; eauto|]. split; eapply params_sound; eauto.
Qed.

(** ** C73 *)
(** an update sees only shapes and elements: on parameters that are the same it goes through on both sides or on
    neither, and leaves parameters that are the same; for SGD and momentum the epochs need not agree *)
Theorem C73_update : forall m m' als als' o o' x ps ps', (forall i j k, al_ok (als i j k)) -> (forall i j k, al_ok (als' i j k)) -> (o_epoch o < two32 - 1)%N -> (o_epoch o' < two32 - 1)%N ->
  as_good o o' -> Forall sound ps -> Forall sound ps' -> Forall2 same_param ps ps' ->
  (exists qs qs', update_parameters m als (adjust x o) ps = Ok (adjust x (set_epoch (o_epoch o + 1) o), qs) /\ update_parameters m' als' (adjust x o') ps' = Ok (adjust x (set_epoch (o_epoch o' + 1) o'), qs') /\
     Forall2 same_param qs qs' /\ Forall sound qs /\ Forall sound qs') \/
  ((forall r, update_parameters m als (adjust x o) ps <> Ok r) /\ forall r, update_parameters m' als' (adjust x o') ps' <> Ok r).
Proof.
  intros m m' als als' o o' x ps ps' HA HA' HE HE' HG H1 H2 HS.
  assert (G' : as_good o' o) by (destruct HG as (G1 & G2); split; auto; intros C; symmetry; apply G2; congruence).
  assert (HS' : Forall2 same_param ps' ps) by (clear - HS; induction HS; constructor; auto using same_sym).
  destruct (update_parameters m als (adjust x o) ps) as [r| |] eqn:E.
  - left. destruct (@one_step m m' als als' o o' x ps ps' r HA HA' HE HE' HG H1 H2 HS E) as (qs & qs' & -> & E2 & P). exists qs, qs'. auto.
  - right. split; [discriminate|]. intros r E'. destruct (@one_step m' m als' als o' o x ps' ps r HA' HA HE' HE G' H2 H1 HS' E') as (qs & qs' & _ & E2 & _). congruence.
  - right. split; [discriminate|]. intros r E'. destruct (@one_step m' m als' als o' o x ps' ps r HA' HA HE' HE G' H2 H1 HS' E') as (qs & qs' & _ & E2 & _). congruence.
Qed.
Lemma steps_epoch m N sc os ps qs : steps m N sc os ps qs -> forall n, n <= N -> o_epoch (os n) = (o_epoch (os 0%nat) + N.of_nat n)%N /\ o_algo (os n) = o_algo (os 0).
Proof.
  intros [HE HG HS HU]. assert (R : forall p, same_param p p).
  { assert (T : forall t, seen_same t t) by (intros; split; auto). intros p. split; auto. split; auto. intros k. destruct (st_get k (p_stats p)); auto. }
  induction n as [|n IH]; intros Hn; [split; [lia|reflexivity]|]. destruct IH as (IH1 & IH2); [lia|]. destruct (HU n ltac:(lia)) as (als & HA & E). change two32 with 4294967296%N in HE.
  assert (HEn : (o_epoch (os n) < two32 - 1)%N) by (change two32 with 4294967296%N; lia).
  destruct (@one_step m m als als (os n) (os n) (sc n) (qs n) (qs n) (adjust (sc n) (os (S n)), ps (S n)) HA HA HEn HEn) with (5 := E) as (u & v & E1 & _); auto; [split; auto|clear - R; induction (qs n); constructor; auto|].
  injection E1 as E1 E2 E3. rewrite E1, E2, IH1, IH2. split; [lia|reflexivity].
Qed.
(** two trainings from parameters that are the same, with the same settings and the same gradients, stay the same,
    whatever devices they run on and however memory is handed out *)
Theorem C73_training : forall m m' N sc os os' ps ps' qs qs', steps m N sc os ps qs -> steps m' N sc os' ps' qs' -> as_good (os 0) (os' 0) -> Forall2 same_param (ps 0) (ps' 0) ->
  (forall n, n < N -> Forall2 same_param (ps n) (ps' n) -> Forall2 (fun q q' => seen_same (p_grad q) (p_grad q')) (qs n) (qs' n)) ->
  forall n, n <= N -> Forall2 same_param (ps n) (ps' n) /\ as_good (os n) (os' n) /\ o_epoch (os n) = (o_epoch (os 0%nat) + N.of_nat n)%N.
Proof.
  intros m m' N sc os os' ps ps' qs qs' T T' HG H0 HS n Hn. destruct (steps_epoch T Hn) as (E1 & A1). destruct (steps_epoch T' Hn) as (E2 & A2).
  assert (G : forall k, k <= N -> as_good (os k) (os' k)).
  { intros k Hk. destruct (steps_epoch T Hk) as (B1 & B2). destruct (steps_epoch T' Hk) as (B3 & B4). destruct HG as (G1 & G2). split; [congruence|]. rewrite B2. intros C. rewrite B1, B3, (G2 C). reflexivity. }
  split; [|split; auto]. clear E1 A1 E2 A2. induction n as [|n IH]; auto. specialize (IH ltac:(lia)). destruct (st_step T Hn) as (als & HA & E). destruct (st_step T' Hn) as (als' & HA' & E').
  assert (SQ : Forall2 same_param (qs n) (qs' n)).
  { specialize (HS n Hn IH). pose proof (st_grad T Hn) as O. pose proof (st_grad T' Hn) as O'. clear - IH HS O O'. revert O' HS IH. generalize (qs' n). generalize (ps' n). induction O as [|p q l l' (V & S) O IHO]; intros l1 l2 O' HS IH; inversion IH; subst; inversion O'; subst; inversion HS; subst; constructor; eauto.
    match goal with X : only_grad _ y0 |- _ => destruct X as (V' & S') end. match goal with X : same_param p _ |- _ => destruct X as (X1 & X2 & X3) end. split; [rewrite V, V'; auto|]. split; auto. rewrite S, S'. auto. }
  destruct (steps_epoch T (n := n) ltac:(lia)) as (E1 & _). destruct (steps_epoch T' (n := n) ltac:(lia)) as (E2 & _). pose proof (st_epoch T) as B1. pose proof (st_epoch T') as B2. change two32 with 4294967296%N in B1, B2.
  destruct (@one_step m m' als als' (os n) (os' n) (sc n) (qs n) (qs' n) (adjust (sc n) (os (S n)), ps (S n)) HA HA') with (7 := E) as (u & v & R1 & R2 & P & _); auto; try (change two32 with 4294967296%N; lia); [apply G; lia|apply (st_sound T Hn)|apply (st_sound T' Hn)|].
  injection R1 as _ _ R1. rewrite R1. rewrite E' in R2. injection R2 as _ _ R2. rewrite R2. exact P.
Qed.

(** saved, loaded and moved: the same parameters *)
Lemma copy_same d t t' : copy_of d t t' -> seen_same t t'.
Proof. intros (R & S & V). split; auto. Qed.
Lemma restored_same d p p' : restored d p p' -> same_param p p'.
Proof. intros (V & G & H). split; [eapply copy_same; eauto|]. split; [eapply copy_same; eauto|]. intros n. specialize (H n). destruct (st_get n (p_stats p)); [destruct H as (t' & -> & C); eapply copy_same; eauto|rewrite H; auto]. Qed.
Lemma restored_sound d p p' : sound p -> restored d p p' -> sound p'.
Proof.
  intros (d0 & s & B & (R1 & S1) & (R2 & S2) & R3) (V & G & H). exists d, s. split; auto. cbv zeta. destruct V as (V1 & V2 & _). destruct G as (G1 & G2 & _). split; [split; congruence|]. split; [split; congruence|].
  intros n t' E. specialize (H n). destruct (st_get n (p_stats p)) as [t|] eqn:ES; [|congruence]. destruct H as (t1 & E1 & (C1 & C2 & _)). assert (t1 = t') by congruence. subst t1. split; auto. destruct (R3 n t ES). congruence.
Qed.
Lemma sound_live p : sound p -> NoDup (map fst (p_stats p)) -> live p.
Proof.
  intros (d & s & B & (R1 & S1) & (R2 & S2) & R3) ND. split; [eauto|]. split; [eauto|]. split; auto. intros n t HI. exists d. apply (R3 n t). apply st_get_in; auto.
Qed.
Lemma steps_from m N sc os ps qs k : steps m N sc os ps qs -> k <= N -> steps m (N - k) (fun n => sc (k + n)) (fun n => os (k + n)) (fun n => ps (k + n)) (fun n => qs (k + n)).
Proof.
  intros T Hk. constructor; cbv beta.
  - rewrite Nat.add_0_r. destruct (steps_epoch T Hk) as (E & _). pose proof (st_epoch T). rewrite E. lia.
  - intros n Hn. apply (st_grad T). lia.
  - intros n Hn. apply (st_sound T). lia.
  - intros n Hn. rewrite Nat.add_succ_r. apply (st_step T). lia.
Qed.
(** a training of [N] updates is interrupted after [k]: the parameters are saved, loaded, possibly by another program,
    and moved to any device. The training that starts there, with an optimizer as good as the first one (C73_optimizer),
    with the remaining settings and gradients that are the same as long as the parameters are, ends with the same parameters. *)
Theorem C73_resume : forall m m' N sc os ps qs k, steps m N sc os ps qs -> k <= N -> Forall sound (ps k) -> Forall (fun p => NoDup (map fst (p_stats p))) (ps k) ->
  (exists ps0, Forall2 (loaded m m') (ps k) ps0) /\
  forall ps0, Forall2 (loaded m m') (ps k) ps0 -> forall d als, (forall i j, al_ok (als i j)) -> exists ps1, each (fun i p => param_move m' d (als i) p) 0 ps0 = Ok ps1 /\ Forall sound ps1 /\
  forall os' ps' qs', steps m' (N - k) (fun n => sc (k + n)) os' ps' qs' -> ps' 0 = ps1 -> as_good (os k) (os' 0) ->
    (forall n, n < N - k -> Forall2 same_param (ps (k + n)) (ps' n) -> Forall2 (fun q q' => seen_same (p_grad q) (p_grad q')) (qs (k + n)) (qs' n)) ->
    forall n, n <= N - k -> Forall2 same_param (ps (k + n)) (ps' n).
Proof.
  intros m m' N sc os ps qs k T Hk HS ND. assert (HL : forall p, In p (ps k) -> live p) by (intros p HI; apply sound_live; [eapply Forall_forall in HS; eauto|eapply Forall_forall in ND; eauto; exact ND]).
  split.
  { revert HL. generalize (ps k). induction l as [|p l IH]; intros HL; [exists []; constructor|]. destruct (C49_parameter m m' (HL p (or_introl eq_refl))) as (y & E1 & G). assert (SD : same_data y y) by (repeat split; auto).
    destruct (G y SD) as (p0 & E2 & _). destruct IH as (ps0 & HP); [intros; apply HL; right; auto|]. exists (p0 :: ps0). constructor; auto. exists y, y. auto. }
  intros ps0 HP d als HA. destruct (@each_restored K m m' d als HA (ps k) ps0 0 HL HP) as (ps1 & E & R). exists ps1. split; auto. split; [clear - R HS; induction R; [constructor|]; inversion HS; subst; constructor; auto; eapply restored_sound; eauto|].
  intros os' ps' qs' T' E0 EA HG n Hn. pose proof (steps_from T Hk) as TF. destruct (@C73_training m m' (N - k) (fun n => sc (k + n)) (fun n => os (k + n)) os' (fun n => ps (k + n)) ps' (fun n => qs (k + n)) qs' TF T') with (n := n) as (P & _); auto.
  - rewrite Nat.add_0_r. exact EA.
  - rewrite Nat.add_0_r, E0. clear - R. induction R; constructor; auto. eapply restored_same; eauto.
Qed.
(** which optimizer to go on with: for SGD and momentum a new one with the same constants will do; for Adam the epoch has to be
    restored (it is not in what is saved) *)
Theorem C73_optimizer : forall o : opt, as_good o (set_epoch (o_epoch o) (opt_new (o_algo o))) /\ (~ counts (o_algo o) -> as_good o (opt_new (o_algo o))).
Proof. intros o. split; [split; [reflexivity|intros _; reflexivity]|]. intros H. split; [reflexivity|]. intros C. contradiction. Qed.
(** an update that goes through is a step *)
Theorem C73_goes_on : forall m N sc os ps qs als q o' p', steps m N sc os ps qs -> (o_epoch (os 0%nat) + N.of_nat (S N) < two32)%N -> (forall i j k, al_ok (als i j k)) ->
  Forall2 only_grad (ps N) q -> Forall sound q -> update_parameters m als (adjust (sc N) (os N)) q = Ok (adjust (sc N) o', p') ->
  steps m (S N) sc (fun n => if n =? S N then o' else os n) (fun n => if n =? S N then p' else ps n) (fun n => if n =? N then q else qs n).
Proof.
  intros m N sc os ps qs als q o' p' T HE HA HG HS HU. constructor; cbv beta.
  - destruct (Nat.eqb_spec 0 (S N)); [lia|]. exact HE.
  - intros n Hn. destruct (Nat.eqb_spec n (S N)); [lia|]. destruct (Nat.eqb_spec n N); [subst; auto|]. apply (st_grad T). lia.
  - intros n Hn. destruct (Nat.eqb_spec n N); [auto|]. apply (st_sound T). lia.
  - intros n Hn. destruct (Nat.eqb_spec n (S N)); [lia|]. destruct (Nat.eqb_spec n N); [subst; rewrite Nat.eqb_refl; eauto|]. destruct (Nat.eqb_spec (S n) (S N)); [lia|]. apply (st_step T). lia.
Qed.
End Resume.

(** ** Trainings over the reals *)
Section OverR.
Variable m m' : build.
Open Scope R_scope.
Lemma good_sound d s names p : good d s names p -> sound p.
Proof. intros ((B & R & S) & (_ & R2 & S2) & H & _). exists d, s. split; auto. split; [split; auto|]. split; [split; auto|]. intros n t E. destruct (H n t E) as (_ & R3 & S3). split; auto. Qed.
(** the runs of C44, C45 and C72 are such trainings *)
Theorem C73_runs : forall a N ds os ps qs, run m a N ds os ps qs -> steps m N (fun n => mkS (o_scale (os n)) (o_l2 (os n)) (o_clip (os n))) os ps qs.
Proof.
  intros a N ds os ps qs R. pose proof (run_small R) as HE. pose proof (run_epoch R) as EP. change two32 with 4294967296%N in HE.
  assert (HS : forall n, (n < N)%nat -> Forall (@sound Rnum) (qs n)). { intros n Hn. pose proof (run_good R Hn) as G. clear - G. induction G; constructor; [eapply good_sound; eassumption|assumption]. }
  constructor; auto.
  - rewrite EP. change two32 with 4294967296%N. lia.
  - intros n Hn. exact (run_grad R Hn).
  - intros n Hn. destruct (run_step R Hn) as (als & o' & HA & E). exists als. split; auto.
    assert (AJ : adjust (mkS (o_scale (os n)) (o_l2 (os n)) (o_clip (os n))) (os n) = os n) by (destruct (os n); reflexivity). rewrite AJ, E. f_equal. f_equal.
    assert (SR : Forall2 (@same_param Rnum) (qs n) (qs n)).
    { assert (T : forall t : tensor Rnum, seen_same t t) by (intros; split; auto). assert (T' : forall p : param Rnum, same_param p p) by (intros p; split; [auto|split; [auto|]]; intros k; destruct (st_get k (p_stats p)); auto). generalize (qs n). induction l; constructor; auto. }
    rewrite <- AJ in E. destruct (@one_step Rnum Rnum_commutes m m als als (os n) (os n) (mkS (o_scale (os n)) (o_l2 (os n)) (o_clip (os n))) (qs n) (qs n) (o', ps (S n)) HA HA) as (u & v & E1 & _); auto; try (rewrite EP; change two32 with 4294967296%N; lia); [split; auto|].
    injection E1 as E1 _. rewrite E1. unfold adjust, set_epoch. cbn. rewrite !EP, !(run_algo R). f_equal. lia.
Qed.
End OverR.

(** *** A concrete case *)
(** a training of one step with any optimizer; its start is saved, loaded, moved to device 7, and the step done there with another optimizer *)
Lemma pr0_sound : sound pr0. Proof. eapply good_sound. apply (@pr0_good (SGD (K := Rnum) 1%R)). Qed.
Lemma pr0_nodup : NoDup (map fst (p_stats pr0)).
Proof. cbn. repeat constructor; cbn; intuition discriminate. Qed.
Example C73_applies : forall m m' (a : algo Rnum), exists sc os ps qs ps0 ps1 os' ps' qs', @steps Rnum m 1 sc os ps qs /\ ps 0 = [pr0] /\ Forall2 (loaded m m') [pr0] ps0 /\ each (fun i p => param_move m' 7 (fun _ => alr) p) 0 ps0 = Ok ps1 /\
  @steps Rnum m' 1 sc os' ps' qs' /\ ps' 0 = ps1 /\ as_good (os 0) (os' 0) /\ Forall2 (fun q q' => seen_same (p_grad q) (p_grad q')) (qs 0) (qs' 0) /\ Forall2 (@same_param Rnum) (ps 1) (ps' 1).
Proof.
  intros m m' a. destruct (C44_C45_runs_exist m a) as (ps & qs & R & E0 & Q0). pose proof (C73_runs R) as T. set (sc := fun n => mkS _ _ _) in T. set (os := fun n : nat => @mkOpt Rnum (N.of_nat n) 1%R 0%R 0%R a) in * .
  destruct (@C73_resume Rnum Rnum_commutes m m' 1 sc os ps qs 0 T) as ((ps0 & HP) & HR); [lia|rewrite E0; constructor; [exact pr0_sound|constructor]|rewrite E0; constructor; [exact pr0_nodup|constructor]|].
  destruct (HR ps0 HP 7 (fun _ _ => alr)) as (ps1 & E1 & S1 & _); [intros; apply alr_ok|]. rewrite E0 in HP.
  assert (SM : Forall2 (@same_param Rnum) [pr0] ps1).
  { destruct (@each_restored Rnum m m' 7 (fun _ _ => alr) (fun _ _ => alr_ok) [pr0] ps0 0) as (ps1' & E1' & RS); auto.
    - intros p [<-|[]]. apply sound_live; [exact pr0_sound|exact pr0_nodup].
    - assert (EE : ps1' = ps1) by (rewrite E1 in E1'; injection E1' as ->; reflexivity). subst ps1'. clear - RS. induction RS; constructor; auto. eapply restored_same; eauto. }
  destruct (st_step T (n := 0)) as (als & HA & EU); [lia|]. rewrite Q0 in EU.
  destruct (@one_step Rnum Rnum_commutes m m' als (fun _ _ _ => alr) (os 0) (os 0) (sc 0) [pr0] ps1 (adjust (sc 0) (os 1), ps 1) HA (fun _ _ _ => alr_ok) eq_refl eq_refl) with (5 := EU) as (u & v & U1 & U2 & U3 & _); auto; [split; auto|constructor; [exact pr0_sound|constructor]|].
  exists sc, os, ps, qs, ps0, ps1, (fun n => if n =? 0 then os 0 else set_epoch (o_epoch (os 0) + 1) (os 0)), (fun n => if n =? 0 then ps1 else v), (fun _ => ps1). split; [exact T|]. split; [exact E0|]. split; [exact HP|]. split; [exact E1|]. split; [|split; [reflexivity|split; [split; auto|split]]].
  - constructor; [reflexivity| | |].
    + intros n Hn. assert (n = 0) by lia. subst. cbn [Nat.eqb]. clear. induction ps1; constructor; auto. split; reflexivity.
    + intros n Hn. exact S1.
    + intros n Hn. assert (n = 0) by lia. subst. cbn [Nat.eqb]. exists (fun _ _ _ => alr). split; [intros; apply alr_ok|]. exact U2.
  - rewrite Q0. clear - SM. induction SM as [|x y l l' H SM IH]; constructor; auto. apply H.
  - assert (EP : ps 1 = u) by (injection U1; auto). rewrite EP. exact U3.
Qed.

(** *** Adam with a new optimizer *)
(** value 0, gradient always 1, alpha = 1, beta1 = beta2 = 1/2, eps = 0: after one step the value is -1; going on gives -2,
    with a new optimizer -1 - (3/2) / sqrt (3/2) *)
Section Adam.
Open Scope R_scope.
Definition ga : tensor Rnum := tr 0 [2]%N 1 [1; 1].
Definition za : tensor Rnum := tr 0 [2]%N 1 [0; 0].
Definition pa : param Rnum := @mkParam Rnum za ga [("Adam.m1"%string, za); ("Adam.m2"%string, za)].
Definition aa : algo Rnum := Adam (K := Rnum) 1 (1/2) (1/2) 0.
Definition with_one (p : param Rnum) : param Rnum := @mkParam Rnum (p_value p) ga (p_stats p).
Lemma whole_tr u v : whole 0 (sh [2%N] 1) (tr 0 [2]%N 1 [u; v]). Proof. split; [reflexivity|]; split; [rdyr|reflexivity]. Qed.
Lemma inb0 : inb (sh [2]%N 1) (fun _ => 0%nat). Proof. intros i; destruct i as [|[|[|[|[|[|[|[|i]]]]]]]]; cbn; lia. Qed.
(** the first elements: value, gradient, statistics *)
Definition firsts (p : param Rnum) (v g u w : R) : Prop := exists x fu fw, is_param 0 (sh [2]%N 1) x p /\ c_stat x "Adam.m1" = Some fu /\ c_stat x "Adam.m2" = Some fw /\
  c_value x (fun _ => 0%nat) = v /\ c_grad x (fun _ => 0%nat) = g /\ fu (fun _ => 0%nat) = u /\ fw (fun _ => 0%nat) = w.
Lemma firsts_val p v g u w : firsts p v g u w -> at_ (p_value p) (fun _ => 0%nat) 0 = v.
Proof. intros (x & fu & fw & (V & _) & _ & _ & E & _). rewrite <- E. apply (elems_at V); [exact inb0|cbv; lia]. Qed.
Lemma ga_elems : elems (K := Rnum) 0 (sh [2]%N 1) (fun c => at_ ga c 0) ga. Proof. apply whole_elems. apply whole_tr. Qed.
Lemma firsts_one p v g u w : firsts p v g u w -> firsts (with_one p) v 1 u w /\ sound (with_one p).
Proof.
  intros (x & fu & fw & (V & G & S) & H1 & H2 & E1 & E2 & E3 & E4).
  assert (I : is_param 0 (sh [2]%N 1) (mkC (c_value x) (fun c => at_ ga c 0) (c_stat x)) (with_one p)) by (split; [exact V|]; split; [exact ga_elems|exact S]).
  split; [exists (mkC (c_value x) (fun c => at_ ga c 0) (c_stat x)), fu, fw; split; [exact I|]; repeat split; auto|eapply param_sound; exact I].
Qed.
Lemma half_pow (n : N) : Rpower (1/2) (IZR (Z.of_N n)) = (1/2) ^ N.to_nat n.
Proof. rewrite <- (Rpower_pow (N.to_nat n)) by lra. rewrite INR_IZR_INZ. rewrite N_nat_Z. reflexivity. Qed.
(** one step of Adam from first elements v, 1, u, w *)
Lemma adam_once m e p v u w : (e < two32 - 1)%N -> firsts p v 1 u w ->
  exists o' p', update_parameters m (fun _ _ _ => alr) (set_epoch e (opt_new aa)) [p] = Ok (set_epoch (e + 1) (opt_new aa), [p']) /\ o' = set_epoch (e + 1) (opt_new aa) /\
    let u' := u * (1/2) + 1/2 in let w' := w * (1/2) + 1/2 in let k := 1 - (1/2) ^ N.to_nat (e + 1) in firsts p' (v - (u' / k) / sqrt (w' / k)) 0 u' w'.
Proof.
  intros HE (x & fu & fw & I & H1 & H2 & E1 & E2 & E3 & E4). set (o := set_epoch e (opt_new aa)).
  assert (Z : exists z, stepped aa 1 (e + 1) x = Some z) by (cbn [stepped aa]; rewrite H1, H2; eauto). destruct Z as (z & Ez).
  destruct (@C46_update_parameters Rnum m Rnum_commutes (fun _ _ _ => alr) o [mkI 0 (sh [2]%N 1) x] [p] [mkI 0 (sh [2]%N 1) (no_grad z)]) as (ps' & E & AP); auto using alr_ok.
  - constructor; [exact I|constructor].
  - unfold prepared. cbn [o_l2 o_clip o set_epoch opt_new nlt Rnum n0]. rewrite Rltb_false by lra. constructor; [|constructor]. split; [reflexivity|]. split; [reflexivity|]. exists z. split; [exact Ez|reflexivity].
  - inversion AP as [|? p' ? l HI HN]; subst. inversion HN; subst. eexists. exists p'. split; [exact E|]. split; [reflexivity|]. cbv zeta. cbn [i_dev i_shape i_c] in HI.
    exists (no_grad z). cbn [stepped aa] in Ez. rewrite H1, H2 in Ez. injection Ez as <-. eexists _, _. split; [exact HI|]. cbn [no_grad c_stat c_value c_grad]. split; [reflexivity|]. split; [reflexivity|]. split; [|split; [reflexivity|]].
    + cbn [adam_rule fst snd]. cbn [nmul nadd nsub ndiv n1 nofZ npowf nsqrt Rnum F]. rewrite E2, half_pow.
      replace (fu (fun _ => 0%nat) * (1 / 2) + 1 * (1 - 1 / 2)) with (fu (fun _ => 0%nat) * (1 / 2) + 1 / 2) by lra. replace (fw (fun _ => 0%nat) * (1 / 2) + 1 * (1 - 1 / 2) * 1) with (fw (fun _ => 0%nat) * (1 / 2) + 1 / 2) by lra. rewrite Rplus_0_r, !Rmult_1_r. reflexivity.
    + cbn [adam_rule fst snd]. cbn [nmul nadd nsub ndiv n1 nofZ npowf nsqrt Rnum F]. rewrite E2. split; lra.
Qed.
(** the claim that a new optimizer does for Adam too is wrong *)
Theorem C73_adam_new_optimizer_refuted : forall m, exists o1 p1 r r', sound pa /\ update_parameters m (fun _ _ _ => alr) (opt_new aa) [pa] = Ok (o1, [p1]) /\ sound (with_one p1) /\ only_grad p1 (with_one p1) /\
  update_parameters m (fun _ _ _ => alr) o1 [with_one p1] = Ok (set_epoch 2 (opt_new aa), [r]) /\ update_parameters m (fun _ _ _ => alr) (opt_new aa) [with_one p1] = Ok (set_epoch 1 (opt_new aa), [r']) /\ ~ same_param r r'.
Proof.
  intros m. assert (E0 : set_epoch 0 (opt_new aa) = opt_new aa) by reflexivity.
  assert (I0 : is_param 0 (sh [2]%N 1) (view pa) pa).
  { apply (@view_ok 0 (sh [2]%N 1) []). split; [apply whole_tr|]. split; [apply whole_tr|]. split; [|constructor]. intros n t E. cbn [st_get pa p_stats] in E. destruct (String.eqb _ n); [injection E as <-; apply whole_tr|]. destruct (String.eqb _ n); [injection E as <-; apply whole_tr|discriminate]. }
  assert (F0 : firsts pa 0 1 0 0) by (exists (view pa); eexists _, _; split; [exact I0|]; repeat split).
  destruct (@adam_once m 0%N pa 0 0 0) as (o1 & p1 & U1 & -> & F1); auto; [reflexivity|]. cbv zeta in F1. apply firsts_one in F1. destruct F1 as (F1 & S1).
  destruct (@adam_once m 1%N _ _ _ _ eq_refl F1) as (_ & r & U2 & _ & F2). destruct (@adam_once m 0%N _ _ _ _ eq_refl F1) as (_ & r' & U3 & _ & F3). cbv zeta in F2, F3.
  exists (set_epoch 1 (opt_new aa)), p1, r, r'. split; [eapply param_sound; exact I0|]. split; [exact U1|]. split; [exact S1|]. split; [split; reflexivity|]. split; [exact U2|]. split; [exact U3|].
  intros ((_ & V) & _). pose proof (firsts_val F2) as V2. pose proof (firsts_val F3) as V3. destruct F2 as (x & _ & _ & ((_ & R2 & Sh & _) & _) & _).
  rewrite (V (fun _ => 0%nat) 0%nat) in V3; [|rewrite Sh; exact inb0|rewrite Sh; cbv; lia]. rewrite V2 in V3. clear - V3. change (N.to_nat (1 + 1)) with 2%nat in V3. change (N.to_nat (0 + 1)) with 1%nat in V3. cbn [pow] in V3.
  replace (((0 * (1 / 2) + 1 / 2) * (1 / 2) + 1 / 2) / (1 - 1 / 2 * (1 / 2 * 1))) with 1 in V3 by field.
  replace (((0 * (1 / 2) + 1 / 2) * (1 / 2) + 1 / 2) / (1 - 1 / 2 * 1)) with (3/2) in V3 by field. rewrite sqrt_1 in V3.
  assert (S0 : 0 < sqrt (3/2)) by (apply sqrt_lt_R0; lra). pose proof (sqrt_sqrt (3/2) ltac:(lra)) as SS.
  assert (X : 1 = 3 / 2 / sqrt (3/2)) by lra. assert (Y : 3/2 / sqrt (3/2) * sqrt (3/2) = 3/2) by (field; lra). rewrite <- X in Y. rewrite Rmult_1_l in Y. rewrite Y in SS. lra.
Qed.
End Adam.
