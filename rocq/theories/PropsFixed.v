(** * PropsFixed: C70 updates keep NaN, and leave alone what has no gradient (binary32) *)
From Coq Require Import ZArith Reals Lra.
From Flocq Require Import Core IEEE754.BinarySingleNaN.
From Verif Require Import PropsElem PropsMove Float32 RSum Rounding PropsNan PropsFloat PropsOptim PropsOptimF32.
Set Implicit Arguments. Unset Strict Implicit.
Close Scope R_scope. Close Scope Z_scope. Open Scope nat_scope.
Notation val := (@B2R 24 128).

Lemma F2len A B (P : A -> B -> Prop) l l' : Forall2 P l l' -> length l = length l'. Proof. induction 1; cbn; congruence. Qed.
Section C70.
Variable M : libm.
Variable m : build.
Notation K := (Fnum M).
Notation param := (param (Fnum M)).
Notation item := (item (Fnum M)).
Notation opt := (opt (Fnum M)).
(** ** Specification *)
(** elements of a parameter: value, gradient, statistics *)
Definition value_at (p : param) (c : coord') : f32 := at_ (p_value p) c 0.
Definition grad_at (p : param) (c : coord') : f32 := at_ (p_grad p) c 0.
Definition stat_at (n : string) (p : param) (c : coord') : f32 := match st_get n (p_stats p) with Some t => at_ t c 0 | None => f32_of_Z 0 end.
(** a parameter on device [d] with shape [s]: value, gradient and statistics of that shape, those of the optimizer [a] among them *)
Definition sound (a : algo K) (d : nat) (s : shape) (p : param) : Prop :=
  (forall t, t = p_value p \/ t = p_grad p \/ (exists n, st_get n (p_stats p) = Some t) -> ready d t /\ t_shape t = s) /\ bat s = 1 /\
  Forall (fun n => st_get n (p_stats p) <> None) (needed a).
(** a training run of [N] steps with the settings [os n]: [ps n] are the parameters before step [n], [qs n] the same with the gradients of that step *)
Definition training (N : nat) (ds : list (nat * shape)) (os : nat -> opt) (ps qs : nat -> list param) : Prop :=
  forall n, n < N -> (o_epoch (os n) < two32 - 1)%N /\
    Forall2 (fun p q => p_value q = p_value p /\ p_stats q = p_stats p) (ps n) (qs n) /\
    Forall2 (fun d q => sound (o_algo (os n)) (fst d) (snd d) q) ds (qs n) /\
    exists als o', (forall i j k, al_ok (als i j k)) /\ update_parameters m als (os n) (qs n) = Ok (o', ps (S n)).

(** ** One step *)
Definition look (p : param) : contents K := @mkC K (fun c => at_ (p_value p) c 0) (fun c => at_ (p_grad p) c 0)
  (fun n => match st_get n (p_stats p) with Some t => Some (fun c => at_ t c 0) | None => None end).
Definition describe (d : nat * shape) (p : param) : item := @mkI K (fst d) (snd d) (look p).
Lemma sound_is a d s p : sound a d s p -> is_param d s (look p) p.
Proof.
  intros (H & HB & _). assert (E : forall t, t = p_value p \/ t = p_grad p \/ (exists n, st_get n (p_stats p) = Some t) -> elems d s (fun c => at_ t c 0) t).
  { intros t Ht. destruct (H t Ht) as (R & S). split; [exact HB|]. split; [exact R|]. split; [exact S|]. intros c b _ Hb. replace b with 0 by lia. reflexivity. }
  split; [apply E; auto|]. split; [apply E; auto|]. intros n. cbn [look c_stat]. destruct (st_get n (p_stats p)) as [t|] eqn:En; auto. apply E. right. right. eauto.
Qed.
Lemma stepped_some a scale n (p : param) g : Forall (fun n => st_get n (p_stats p) <> None) (needed a) -> exists z, stepped a scale n (mkC (c_value (look p)) g (c_stat (look p))) = Some z.
Proof.
  intros H. destruct a as [e|e mu|al b1 b2 ep]; cbn [needed] in H; cbn [stepped c_stat look c_value c_grad].
  - eauto.
  - inversion H as [|? ? H1 _]; subst. destruct (st_get "MomentumSGD.m" (p_stats p)); [eauto|congruence].
  - inversion H as [|? ? H1 H']; subst. inversion H' as [|? ? H2 _]; subst. destruct (st_get "Adam.m1" (p_stats p)); [|congruence]. destruct (st_get "Adam.m2" (p_stats p)); [eauto|congruence].
Qed.
Lemma one_step als o ds (qs : list param) : (forall i j k, al_ok (als i j k)) -> (o_epoch o < two32 - 1)%N -> Forall2 (fun d q => sound (o_algo o) (fst d) (snd d) q) ds qs ->
  exists xs ys ps', are_params xs qs /\ update_parameters m als o qs = Ok (mkOpt (o_epoch o + 1) (o_scale o) (o_l2 o) (o_clip o) (o_algo o), ps') /\ are_params ys ps' /\
    (forall i d q, nth_error ds i = Some d -> nth_error qs i = Some q -> exists y p' z, nth_error ys i = Some y /\ nth_error ps' i = Some p' /\
       i_shape y = snd d /\ In (describe d q) xs /\
       stepped (o_algo o) (o_scale o) (o_epoch o + 1) (mkC (c_value (look q)) (clipped o xs (describe d q) : coord' -> F K) (c_stat (look q))) = Some z /\ i_c y = mkC (c_value z) (fun _ => f32_of_Z 0 : F K) (c_stat z)).
Proof.
  intros HA HE HS. set (xs := map (fun dq => describe (fst dq) (snd dq)) (combine ds qs)).
  assert (HP : are_params xs qs). { unfold xs. clear -HS. induction HS as [|d q ds qs H HS IH]; cbn [combine map]; constructor; auto. apply (sound_is H). }
  pose proof (@steps_clipped M m als o xs qs (conj HA (conj HE HP))) as ST. unfold steps_with in ST.
  assert (HY : exists ys, Forall2 (fun x y : item => i_dev y = i_dev x /\ i_shape y = i_shape x /\
      exists z, stepped (o_algo o) (o_scale o) (o_epoch o + 1) (mkC (c_value (i_c x)) (clipped o xs x : coord' -> F K) (c_stat (i_c x))) = Some z /\ i_c y = mkC (c_value z) (fun _ => f32_of_Z 0 : F K) (c_stat z)) xs ys).
  { generalize (clipped o xs). intros G. unfold xs. clear -HS. induction HS as [|d q ds qs H HS IH]; cbn [combine map]; [eexists; constructor|]. destruct IH as (ys & IH).
    destruct H as (_ & _ & HN). destruct (stepped_some (o_scale o) (o_epoch o + 1) (G (describe d q)) HN) as (z & Ez).
    exists (@mkI K (fst d) (snd d) (mkC (c_value z) (fun _ => f32_of_Z 0 : F K) (c_stat z)) :: ys). constructor; [|exact IH]. split; [reflexivity|]. split; [reflexivity|]. exists z. split; [exact Ez|reflexivity]. }
  destruct HY as (ys & HY). destruct (ST ys HY) as (ps' & E & HP'). exists xs, ys, ps'. split; [exact HP|]. split; [exact E|]. split; [exact HP'|].
  intros i d q Hd Hq. assert (Hx : nth_error xs i = Some (describe d q)).
  { unfold xs. clear -HS Hd Hq. revert i Hd Hq. induction HS as [|d' q' ds qs H HS IH]; intros [|i] Hd Hq; cbn in *; try discriminate; [inversion Hd; inversion Hq; reflexivity|]. apply IH; auto. }
  pose proof (F2len HY) as L1. pose proof (F2len HP') as L2. assert (Li : i < length xs) by (apply nth_error_Some; rewrite Hx; discriminate).
  destruct (nth_error ys i) as [y|] eqn:Ey; [|apply nth_error_None in Ey; lia]. destruct (nth_error ps' i) as [p'|] eqn:Ep; [|apply nth_error_None in Ep; lia].
  destruct (F2nth HY Hx Ey) as (_ & Sy & z & Ez & Cy). exists y, p', z. ssplit; auto. apply nth_error_In with i. exact Hx.
Qed.

(** what a step of a training run makes of the element [c] of parameter [i] *)
Lemma training_step N ds os ps qs n i d p c : training N ds os ps qs -> n < N -> nth_error ds i = Some d -> nth_error (ps n) i = Some p -> inb (snd d) c ->
  exists xs q p' z, nth_error (qs n) i = Some q /\ nth_error (ps (S n)) i = Some p' /\ p_value q = p_value p /\ p_stats q = p_stats p /\ are_params xs (qs n) /\ In (describe d q) xs /\
    stepped (o_algo (os n)) (o_scale (os n)) (o_epoch (os n) + 1) (mkC (c_value (look q)) (clipped (os n) xs (describe d q) : coord' -> F K) (c_stat (look q))) = Some z /\
    value_at p' c = c_value z c /\ (forall k, stat_at k p' c = match c_stat z k with Some f => f c | None => f32_of_Z 0 end).
Proof.
  intros HT Hn Hd Hp Hc. destruct (HT n Hn) as (HE & HQ & HS & als & o' & HA & HU). destruct (one_step HA HE HS) as (xs & ys & ps' & HX & E & HP' & HI). rewrite E in HU. inversion HU; subst ps'.
  assert (Li : i < length (qs n)). { rewrite <- (F2len HQ). apply nth_error_Some. rewrite Hp. discriminate. }
  destruct (nth_error (qs n) i) as [q|] eqn:Hq; [|apply nth_error_None in Hq; lia]. destruct (F2nth HQ Hp Hq) as (E1 & E2). destruct (HI i d q Hd Hq) as (y & p' & z & Hy & Hp' & Sy & HIn & Ez & Cy).
  exists xs, q, p', z. pose proof (F2nth HP' Hy Hp') as (PV & _ & PS). rewrite Sy, Cy in PV, PS. cbn [c_value c_stat] in PV, PS.
  assert (B0 : 0 < bat (snd d)) by (rewrite (proj1 PV); lia).
  ssplit; auto.
  - apply (elems_at PV Hc B0).
  - intros k. unfold stat_at. specialize (PS k). destruct (c_stat z k) as [f|], (st_get k (p_stats p')) as [t|]; try contradiction; auto. apply (elems_at PS Hc B0).
Qed.
Lemma later N ds os ps qs (P : param -> Prop) i : training N ds os ps qs ->
  (forall n p, n < N -> nth_error (ps n) i = Some p -> P p -> exists p', nth_error (ps (S n)) i = Some p' /\ P p') ->
  forall n k p p', n <= k -> k <= N -> nth_error (ps n) i = Some p -> nth_error (ps k) i = Some p' -> P p -> P p'.
Proof.
  intros HT HS n k p p' Hnk. revert p'. induction Hnk as [|k Hnk IH]; intros p' Hk Hp Hp' HP; [congruence|].
  assert (EX : exists pk, nth_error (ps k) i = Some pk /\ P pk).
  { clear p' Hp' IH. assert (Hk' : k <= N) by lia. clear Hk. induction Hnk as [|k Hnk IH]; [eauto|]. destruct IH as (pk & Ek & Pk); [lia|]. apply (HS k pk); auto. }
  destruct EX as (pk & Ek & Pk). destruct (HS k pk) as (p2 & E2 & P2); auto. congruence.
Qed.

(** ** C70: NaN stays *)
Lemma nan_sub_l (x y : f32) : is_nan x = true -> is_nan (x -f y) = true. Proof. destruct x; try discriminate. reflexivity. Qed.
Lemma nan_sub_r (x y : f32) : is_nan y = true -> is_nan (x -f y) = true. Proof. destruct y; try discriminate. destruct x; reflexivity. Qed.
Lemma nan_mul_l (x y : f32) : is_nan x = true -> is_nan (x *f y) = true. Proof. destruct x; try discriminate. reflexivity. Qed.
Lemma nan_mul_r (x y : f32) : is_nan y = true -> is_nan (x *f y) = true. Proof. destruct y; try discriminate. destruct x; reflexivity. Qed.
Lemma nan_div_l (x y : f32) : is_nan x = true -> is_nan (x /f y) = true. Proof. destruct x; try discriminate. reflexivity. Qed.
Lemma nan_div_r (x y : f32) : is_nan y = true -> is_nan (x /f y) = true. Proof. destruct y; try discriminate. destruct x; reflexivity. Qed.
Lemma nan_sqrt (x : f32) : is_nan x = true -> is_nan (nsqrt K x : f32) = true. Proof. destruct x; try discriminate. reflexivity. Qed.
(** an element that is NaN is NaN after every further step, with every optimizer and whatever gradients *)
Theorem C70_nan_stays : forall N ds os ps qs n k i d p p' c, training N ds os ps qs -> n <= k -> k <= N -> nth_error ds i = Some d -> inb (snd d) c ->
  nth_error (ps n) i = Some p -> nth_error (ps k) i = Some p' -> is_nan (value_at p c) = true -> is_nan (value_at p' c) = true.
Proof.
  intros N ds os ps qs n k i d p p' c HT Hnk Hk Hd Hc Hp Hp'. apply (@later N ds os ps qs (fun p => is_nan (value_at p c) = true) i HT) with (n := n) (k := k); auto.
  clear n k p p' Hnk Hk Hp Hp'. intros n p Hn Hp HN. destruct (training_step HT Hn Hd Hp Hc) as (xs & q & p' & z & Hq & Hp' & EV & ES & _ & _ & Ez & V & _). exists p'. split; [exact Hp'|]. rewrite V.
  assert (NV : is_nan (c_value (look q) c : f32) = true) by (cbn [look c_value]; rewrite EV; exact HN).
  unfold stepped in Ez. cbn [c_value c_grad c_stat] in Ez. destruct (o_algo (os n)) as [e|e mu|al b1 b2 ep].
  - injection Ez as <-. cbn [c_value]. unfold sgd_rule. apply nan_sub_l. exact NV.
  - destruct (c_stat (look q) "MomentumSGD.m"); [|discriminate]. injection Ez as <-. cbn [c_value]. unfold momentum_rule. cbn [fst]. apply nan_plus_l. exact NV.
  - destruct (c_stat (look q) "Adam.m1"); [|discriminate]. destruct (c_stat (look q) "Adam.m2"); [|discriminate]. injection Ez as <-. cbn [c_value]. unfold adam_rule. cbn [fst]. apply nan_sub_l. exact NV.
Qed.
(** a statistic that is NaN makes the value NaN in the next step of the same optimizer, and stays NaN *)
Theorem C70_nan_statistic : forall N ds os ps qs n i d p c k, training N ds os ps qs -> n < N -> nth_error ds i = Some d -> inb (snd d) c ->
  nth_error (ps n) i = Some p -> In k (needed (o_algo (os n))) -> is_nan (stat_at k p c) = true ->
  exists p', nth_error (ps (S n)) i = Some p' /\ is_nan (value_at p' c) = true /\ is_nan (stat_at k p' c) = true.
Proof.
  intros N ds os ps qs n i d p c k HT Hn Hd Hc Hp Hk HN. destruct (training_step HT Hn Hd Hp Hc) as (xs & q & p' & z & Hq & Hp' & EV & ES & _ & _ & Ez & V & T). exists p'. split; [exact Hp'|]. rewrite V, T.
  unfold stat_at in HN. rewrite <- ES in HN. unfold stepped in Ez. cbn [c_value c_grad c_stat look] in Ez. destruct (o_algo (os n)) as [e|e mu|al b1 b2 ep]; cbn [needed In] in Hk.
  - destruct Hk.
  - destruct Hk as [<-|[]]. destruct (st_get "MomentumSGD.m" (p_stats q)) as [t|]; [|discriminate]. injection Ez as <-. cbn [c_value c_stat]. unfold set_stat. rewrite String.eqb_refl. unfold momentum_rule. cbn [fst snd].
    assert (A : is_nan (nsub K (nmul K (at_ t c 0) mu) (nmul K (clipped (os n) xs (describe d q) c) (nmul K (o_scale (os n)) e)) : f32) = true) by (apply nan_sub_l, nan_mul_l; exact HN).
    split; [apply nan_plus_r; exact A|exact A].
  - destruct (st_get "Adam.m1" (p_stats q)) as [t1|] eqn:E1; [|discriminate]. destruct (st_get "Adam.m2" (p_stats q)) as [t2|] eqn:E2; [|discriminate]. injection Ez as <-. cbn [c_value c_stat]. unfold adam_rule. cbn [fst snd].
    destruct Hk as [<-|[<-|[]]]; unfold set_stat; cbn [String.eqb]; [rewrite E1 in HN|rewrite E2 in HN].
    + split; [|apply nan_plus_l, nan_mul_l; exact HN]. apply nan_sub_r, nan_div_l, nan_mul_l, nan_div_l, nan_plus_l, nan_mul_l. exact HN.
    + split; [|apply nan_plus_l, nan_mul_l; exact HN]. apply nan_sub_r, nan_div_r, nan_plus_l.
      apply nan_sqrt, nan_div_l, nan_plus_l, nan_mul_l. exact HN.
Qed.

(** ** C70: no gradient, no change *)
Definition is_zero (x : f32) : Prop := exists s, x = B754_zero s.
(** settings under which a zero gradient is harmless; Adam divides by 1 - beta^t and by sqrt(..) + eps *)
Definition harmless (o : opt) : Prop :=
  pos32 (o_l2 o) = false /\
  match o_algo o with
  | SGD e => finite (o_scale o *f e) = true
  | Momentum e mu => finite (o_scale o *f e) = true /\ finite mu = true
  | Adam al b1 b2 ep => finite (o_scale o *f al) = true /\ finite b1 = true /\ finite b2 = true /\ finite (f32_of_Z 1 -f b1) = true /\ finite (f32_of_Z 1 -f b2) = true /\ pos32 ep = true /\
      forall b, b = b1 \/ b = b2 -> let t := f32_of_Z 1 -f l_powf M b (f32_of_Z (Z.of_N (o_epoch o + 1))) in is_nan t = false /\ ~ is_zero t
  end.
Lemma zero_mul (x y : f32) : is_zero x -> finite y = true -> is_zero (x *f y).
Proof. intros (s & ->) F. destruct y; try discriminate; eexists; reflexivity. Qed.
Lemma zero_plus (x y : f32) : is_zero x -> is_zero y -> is_zero (x +f y).
Proof. intros (s & ->) (s' & ->). destruct s, s'; eexists; reflexivity. Qed.
Lemma zero_minus (x y : f32) : is_zero x -> is_zero y -> is_zero (x -f y).
Proof. intros (s & ->) (s' & ->). destruct s, s'; eexists; reflexivity. Qed.
Lemma zero_div (x y : f32) : is_zero x -> is_nan y = false -> ~ is_zero y -> is_zero (x /f y).
Proof. intros (s & ->) N Z. destruct y; try discriminate; try (eexists; reflexivity). exfalso. apply Z. eexists. reflexivity. Qed.
Lemma zero_sqrt (x : f32) : is_zero x -> is_zero (nsqrt K x). Proof. intros (s & ->). eexists. reflexivity. Qed.
Lemma zero_plus_pos (x y : f32) : is_zero x -> pos32 y = true -> is_nan (x +f y) = false /\ ~ is_zero (x +f y).
Proof. intros (s & ->) H. unfold pos32 in H. destruct y as [?|[]| |[]]; try discriminate; split; try reflexivity; intros (s' & Q); discriminate. Qed.
Lemma zero_finite (x : f32) : is_zero x -> finite x = true. Proof. intros (s & ->). reflexivity. Qed.
(** [r] is [v], up to the sign of a zero *)
Definition same_number (v r : f32) : Prop := finite r = true /\ val r = val v /\ (val v <> 0%R -> r = v).
Lemma minus_zero (v z : f32) : finite v = true -> is_zero z -> same_number v (v -f z).
Proof.
  intros F (s & ->). destruct v as [sv|?| |sv q e H]; try discriminate.
  - destruct sv, s; (split; [reflexivity|]; split; [reflexivity|]; intros Q; exfalso; apply Q; reflexivity).
  - split; [reflexivity|]. split; [reflexivity|]. intros _. reflexivity.
Qed.
Lemma plus_zero (v z : f32) : finite v = true -> is_zero z -> same_number v (v +f z).
Proof.
  intros F (s & ->). destruct v as [sv|?| |sv q e H]; try discriminate.
  - destruct sv, s; (split; [reflexivity|]; split; [reflexivity|]; intros Q; exfalso; apply Q; reflexivity).
  - split; [reflexivity|]. split; [reflexivity|]. intros _. reflexivity.
Qed.
Lemma clipped_zero o xs ps x c : are_params (K := K) xs ps -> In x xs -> is_zero (used o x c) -> is_zero (clipped o xs x c).
Proof.
  intros HP Hx HZ. unfold clipped. destruct (clips o xs) eqn:EC; [|exact HZ]. unfold clips in EC. apply andb_true_iff in EC. destruct EC as (EP & EL). apply zero_mul; auto.
  apply clip_scale; auto. apply (sqn_nn HP). intros y c' Hy Hc'. apply not_true_iff_false. intros HN. rewrite ltb_nan_r in EL; [discriminate|]. apply (sqn_nan HP). exists y, c'. auto.
Qed.
(** a run in which the gradients of an element are zero, its statistics too at the beginning, no weight decay: the element stays the same number *)
Theorem C70_zero_gradient_stays : forall N ds os ps qs n i d p p' c, training N ds os ps qs -> n <= N -> nth_error ds i = Some d -> inb (snd d) c ->
  nth_error (ps 0) i = Some p -> nth_error (ps n) i = Some p' -> finite (value_at p c) = true -> (forall k, is_zero (stat_at k p c)) ->
  (forall j, j < N -> harmless (os j) /\ forall q, nth_error (qs j) i = Some q -> is_zero (grad_at q c)) ->
  same_number (value_at p c) (value_at p' c) /\ forall k, is_zero (stat_at k p' c).
Proof.
  intros N ds os ps qs n i d p0 p' c HT Hn Hd Hc Hp Hp' HF HZ HG.
  apply (@later N ds os ps qs (fun p => same_number (value_at p0 c) (value_at p c) /\ forall k, is_zero (stat_at k p c)) i HT) with (n := 0) (k := n) (p := p0); auto; [|lia|split; [split; auto|auto]].
  clear n p' Hn Hp' Hp HZ. intros n p Hn Hp ((F1 & V1 & N1) & HZ). destruct (training_step HT Hn Hd Hp Hc) as (xs & q & p' & z & Hq & Hp' & EV & ES & HX & HI & Ez & V & T). exists p'. split; [exact Hp'|].
  destruct (HG n Hn) as ((HL & HH) & HGz). specialize (HGz q Hq).
  assert (GZ : is_zero (clipped (os n) xs (describe d q) c)). { apply (clipped_zero HX HI). unfold used. rewrite HL. exact HGz. }
  assert (VQ : c_value (look q) c = value_at p c) by (cbn [look c_value]; rewrite EV; reflexivity).
  assert (SQ : forall k f, c_stat (look q) k = Some f -> is_zero (f c)). { intros k f. cbn [look c_stat]. specialize (HZ k). unfold stat_at in HZ. rewrite <- ES in HZ. destruct (st_get k (p_stats q)); [|discriminate]. intros E. injection E as <-. exact HZ. }
  assert (SQ' : forall k, is_zero (match c_stat (look q) k with Some f => f c | None => f32_of_Z 0 end)). { intros k. destruct (c_stat (look q) k) as [f|] eqn:E; [apply (SQ k f E)|eexists; reflexivity]. }
  assert (KEEP : forall r, same_number (value_at p c) r -> same_number (value_at p0 c) r). { intros r (A & B & C). split; [exact A|]. split; [congruence|]. intros Q. rewrite C; [apply N1; exact Q|rewrite V1; exact Q]. }
  rewrite V. set (G := clipped (os n) xs (describe d q)) in * . clearbody G. set (lq := look q) in * . clearbody lq. unfold stepped in Ez. cbn [c_value c_grad c_stat] in Ez. destruct (o_algo (os n)) as [e|e mu|al b1 b2 ep].
  - injection Ez as <-. cbn [c_value c_stat] in * . split; [|intros k; rewrite T; apply SQ']. apply KEEP. unfold sgd_rule. rewrite VQ. apply minus_zero; [exact F1|]. apply zero_mul; [exact GZ|exact HH].
  - destruct (c_stat lq "MomentumSGD.m") as [f|] eqn:EM; [|discriminate]. injection Ez as <-. cbn [c_value c_stat] in * . destruct HH as (H1 & H2).
    assert (Z : is_zero (snd (momentum_rule (K := K) (o_scale (os n)) e mu (c_value lq c) (G c) (f c)))) by (unfold momentum_rule; cbn [snd]; apply zero_minus; apply zero_mul; auto; apply (SQ _ _ EM)).
    split.
    + apply KEEP. rewrite VQ. rewrite VQ in Z. unfold momentum_rule in * . cbn [fst snd] in * . apply plus_zero; [exact F1|exact Z].
    + intros k. rewrite T. unfold set_stat. destruct (String.eqb "MomentumSGD.m" k); [exact Z|apply SQ'].
  - destruct (c_stat lq "Adam.m1") as [f1|] eqn:E1; [|discriminate]. destruct (c_stat lq "Adam.m2") as [f2|] eqn:E2; [|discriminate]. injection Ez as <-. cbn [c_value c_stat] in * .
    destruct HH as (H1 & H2 & H3 & H4 & H5 & H6 & H7). pose proof (SQ _ _ E1) as Z1. pose proof (SQ _ _ E2) as Z2. rewrite VQ in * .
    assert (U : is_zero (nadd K (nmul K (f1 c) b1) (nmul K (G c) (nsub K n1 b1)))) by (apply zero_plus; apply zero_mul; auto).
    assert (W : is_zero (nadd K (nmul K (f2 c) b2) (nmul K (nmul K (G c) (nsub K n1 b2)) (G c)))) by (apply zero_plus; repeat apply zero_mul; auto using zero_finite).
    split.
    + apply KEEP. unfold adam_rule. cbn [fst snd]. apply minus_zero; [exact F1|]. apply zero_div.
      * apply zero_mul; [|exact H1]. apply zero_div; [exact U| |]; apply (H7 b1); auto.
      * apply zero_plus_pos; [|exact H6]. apply zero_sqrt, zero_div; [exact W| |]; apply (H7 b2); auto.
      * apply zero_plus_pos; [|exact H6]. apply zero_sqrt, zero_div; [exact W| |]; apply (H7 b2); auto.
    + intros k. rewrite T. unfold set_stat. destruct (String.eqb "Adam.m2" k); [exact W|]. destruct (String.eqb "Adam.m1" k); [exact U|apply SQ'].
Qed.
(** ... and Adam with eps = 0 turns such an element into NaN *)
Theorem C70_adam_without_eps : forall N ds os ps qs n i d p q c al b1 b2, training N ds os ps qs -> n < N -> nth_error ds i = Some d -> inb (snd d) c ->
  nth_error (ps n) i = Some p -> nth_error (qs n) i = Some q -> is_zero (stat_at "Adam.m1" p c) -> is_zero (stat_at "Adam.m2" p c) -> is_zero (grad_at q c) ->
  o_algo (os n) = Adam (al : F K) b1 b2 (f32_of_Z 0) -> harmless (mkOpt (o_epoch (os n)) (o_scale (os n)) (o_l2 (os n)) (o_clip (os n)) (Adam (al : F K) b1 b2 (f32_of_Z 1))) ->
  exists p', nth_error (ps (S n)) i = Some p' /\ is_nan (value_at p' c) = true.
Proof.
  intros N ds os ps qs n i d p q0 c al b1 b2 HT Hn Hd Hc Hp Hq0 HZ1 HZ2 HGz EA HH. destruct (training_step HT Hn Hd Hp Hc) as (xs & q & p' & z & Hq & Hp' & EV & ES & HX & HI & Ez & V & T). exists p'. split; [exact Hp'|].
  rewrite Hq0 in Hq. injection Hq as <-. destruct HH as (HL & H1 & H2 & H3 & H4 & H5 & _ & H7). cbn [o_l2 o_algo o_scale o_epoch] in HL, H1, H7.
  assert (GZ : is_zero (clipped (os n) xs (describe d q0) c)). { apply (clipped_zero HX HI). unfold used. rewrite HL. exact HGz. }
  rewrite V, EA in * . unfold stepped in Ez. cbn [c_value c_grad c_stat look] in Ez. unfold stat_at in HZ1, HZ2. rewrite <- ES in HZ1, HZ2.
  destruct (st_get "Adam.m1" (p_stats q0)) as [t1|]; [|discriminate]. destruct (st_get "Adam.m2" (p_stats q0)) as [t2|]; [|discriminate]. injection Ez as <-. cbn [c_value]. unfold adam_rule. cbn [fst snd].
  set (G := clipped (os n) xs (describe d q0)) in * . clearbody G.
  assert (U : is_zero (nadd K (nmul K (at_ t1 c 0) b1) (nmul K (G c) (nsub K n1 b1)))) by (apply zero_plus; apply zero_mul; auto).
  assert (W : is_zero (nadd K (nmul K (at_ t2 c 0) b2) (nmul K (nmul K (G c) (nsub K n1 b2)) (G c)))) by (apply zero_plus; repeat apply zero_mul; auto using zero_finite).
  apply nan_sub_r. assert (A : forall x y : f32, is_zero x -> is_zero y -> is_nan (x /f y) = true) by (intros x y (s1 & ->) (s2 & ->); reflexivity). apply A.
  - apply zero_mul; [|exact H1]. apply zero_div; [exact U| |]; apply (H7 b1); auto.
  - apply zero_plus; [|eexists; reflexivity]. apply zero_sqrt, zero_div; [exact W| |]; apply (H7 b2); auto.
Qed.
(** a run exists for every way to set gradients that are sound *)
Lemma one_training ds o p q : (o_epoch o < two32 - 1)%N -> Forall2 (fun d q => sound (o_algo o) (fst d) (snd d) q) ds q -> Forall2 (fun p q : param => p_value q = p_value p /\ p_stats q = p_stats p) p q ->
  (exists al : alloc_oracle K, al_ok al) -> exists ps qs, training 1 ds (fun _ => o) ps qs /\ ps 0 = p /\ qs 0 = q.
Proof.
  intros HE HS HQ (al & Hal). destruct (@one_step (fun _ _ _ => al) o ds q (fun _ _ _ => Hal) HE HS) as (xs & ys & ps' & _ & E & _).
  exists (fun n => match n with 0 => p | _ => ps' end), (fun _ => q). split; [|auto]. intros n Hn. replace n with 0 by lia. split; [exact HE|]. split; [exact HQ|]. split; [exact HS|].
  exists (fun _ _ _ => al). eexists. split; [intros; exact Hal|exact E].
Qed.
End C70.

(** ** Concrete cases *)
Definition pa (v g u w : list f32) : param K0 := @mkParam K0 (tf [2]%N 1 v) (tf [2]%N 1 g) [("MomentumSGD.m"%string, tf [2]%N 1 u); ("Adam.m1"%string, tf [2]%N 1 u); ("Adam.m2"%string, tf [2]%N 1 w)].
Definition half : f32 := @nhalf K0.
Definition oa (a : algo K0) : opt K0 := @mkOpt K0 0 (f32_of_Z 1) (f32_of_Z 0) (f32_of_Z 1) a.
Lemma pa_sound a v g u w : 2 <= length v -> 2 <= length g -> 2 <= length u -> 2 <= length w -> sound (M := libm0) a 0 (sh [2]%N 1) (pa v g u w).
Proof.
  intros H1 H2 H3 H4. assert (R : forall l, 2 <= length l -> ready 0 (tf [2]%N 1 l) /\ t_shape (tf [2]%N 1 l) = sh [2]%N 1) by (intros l Hl; split; [apply tf_ready; try reflexivity; apply Nat.leb_le; exact Hl|reflexivity]).
  split; [|split; [reflexivity|destruct a; repeat constructor; discriminate]]. intros t [->|[->|(n & E)]]; [apply R; auto|apply R; auto|]. cbn [pa p_stats st_get] in E.
  destruct (String.eqb _ n); [injection E as <-; apply R; auto|]. destruct (String.eqb _ n); [injection E as <-; apply R; auto|]. destruct (String.eqb _ n); [injection E as <-; apply R; auto|discriminate].
Qed.
Definition after (a : algo K0) (p : param K0) : list SpecFloat.spec_float :=
  match update_parameters Release (fun _ _ _ => alf) (oa a) [p] with Ok (_, [q]) => map (@B2SF 24 128) (firstn 2 (buf (p_value q))) | _ => [] end.
Example C70_applies : let adam ep := Adam (K := K0) (f32_of_Z 1) half half ep in let z := [f32_of_Z 0; f32_of_Z 0] in
  (forall a v g u w, 2 <= length v -> 2 <= length g -> 2 <= length u -> 2 <= length w ->
     exists ps qs, training (M := libm0) Release 1 [(0, sh [2]%N 1)] (fun _ => oa a) ps qs /\ ps 0 = [pa v z u w] /\ qs 0 = [pa v g u w]) /\
  harmless (oa (SGD (K := K0) half)) /\ harmless (oa (Momentum (K := K0) half half)) /\ harmless (oa (adam half)) /\
  after (adam half) (pa [v32 7; v32 8] [v32 0; v32 1] z z) = map (@B2SF 24 128) [v32 7; v32 8 -f v32 1 /f (v32 1 +f half)] /\
  after (adam half) (pa [qnan; v32 8] [v32 0; v32 0] z z) = map (@B2SF 24 128) [qnan; v32 8] /\
  after (adam (f32_of_Z 0)) (pa [v32 7; v32 8] [v32 0; v32 1] z z) = map (@B2SF 24 128) [qnan; v32 7] /\
  after (Momentum (K := K0) half half) (pa [v32 7; v32 8] [v32 0; v32 1] [v32 0; qnan] z) = map (@B2SF 24 128) [v32 7; qnan].
Proof.
  intros adam z. split.
  - intros a v g u w H1 H2 H3 H4. apply one_training; [reflexivity| | |exists alf; exact alf_ok].
    + constructor; [|constructor]. apply pa_sound; auto.
    + constructor; [|constructor]. split; reflexivity.
  - do 3 (split; [split; [reflexivity|]; cbn [o_algo oa adam]; ssplit; try (vm_compute; reflexivity)|]); [|ssplit; vm_compute; reflexivity].
    intros b [-> | -> ]; (split; [vm_compute; reflexivity|]; intros (s & Q); apply (f_equal (@B2SF 24 128)) in Q; vm_compute in Q; discriminate).
Qed.
