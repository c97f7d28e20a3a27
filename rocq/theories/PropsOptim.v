(** * PropsOptim: optimizers (C43-C47) *)
From Verif Require Export Optim PropsReal.
Set Implicit Arguments.
Unset Strict Implicit.
Open Scope nat_scope.

(** ** Vocabulary *)
Section Spec.
Variable K : num.
Notation F := (F K).
Notation param := (param K).
Notation "x +. y" := (nadd K x y) (at level 50, left associativity).
Notation "x -. y" := (nsub K x y) (at level 50, left associativity).
Notation "x *. y" := (nmul K x y) (at level 40, left associativity).
Notation "x /. y" := (ndiv K x y) (at level 40, left associativity).
(** the contents of a parameter of shape [s]: value, gradient, and named statistics *)
Record contents := mkC { c_value : coord' -> F; c_grad : coord' -> F; c_stat : string -> option (coord' -> F) }.
Definition is_param (d : nat) (s : shape) (x : contents) (p : param) : Prop :=
  elems d s (c_value x) (p_value p) /\ elems d s (c_grad x) (p_grad p) /\
  (forall n, match c_stat x n, st_get n (p_stats p) with Some f, Some t => elems d s f t | None, None => True | _, _ => False end).
(** several parameters, each on a device and with a shape *)
Record item := mkI { i_dev : nat; i_shape : shape; i_c : contents }.
Definition are_params (xs : list item) (ps : list param) : Prop := Forall2 (fun x p => is_param (i_dev x) (i_shape x) (i_c x) p) xs ps.
Definition on (f : contents -> contents) (x : item) : item := mkI (i_dev x) (i_shape x) (f (i_c x)).
Definition set_stat (n : string) (f : coord' -> F) (st : string -> option (coord' -> F)) : string -> option (coord' -> F) :=
  fun n' => if String.eqb n n' then Some f else st n'.

(** the update rules, for one element: value, gradient and statistics give the new
    value and statistics. [n]: number of the step, starting with 1 *)
Definition sgd_rule (scale eta v g : F) : F := v -. g *. (scale *. eta).
Definition momentum_rule (scale eta mu v g vel : F) : F * F := let vel' := vel *. mu -. g *. (scale *. eta) in (v +. vel', vel').
Definition adam_rule (scale alpha b1 b2 eps : F) (n : N) (v g u w : F) : F * F * F :=
  let u' := u *. b1 +. g *. (n1 -. b1) in
  let w' := w *. b2 +. (g *. (n1 -. b2)) *. g in
  let t := nofZ K (Z.of_N n) in
  (v -. u' /. (n1 -. npowf K b1 t) *. (scale *. alpha) /. (nsqrt K (w' /. (n1 -. npowf K b2 t)) +. eps), u', w').

(** contents after the update of one parameter by each optimizer; [None]: statistics are missing *)
Definition stepped (a : algo K) (scale : F) (n : N) (x : contents) : option contents :=
  let v := c_value x in let g := c_grad x in
  match a with
  | SGD eta => Some (mkC (fun c => sgd_rule scale eta (v c) (g c)) g (c_stat x))
  | Momentum eta mu =>
      match c_stat x "MomentumSGD.m" with
      | Some vel => let r c := momentum_rule scale eta mu (v c) (g c) (vel c) in
          Some (mkC (fun c => fst (r c)) g (set_stat "MomentumSGD.m" (fun c => snd (r c)) (c_stat x)))
      | None => None end
  | Adam al b1 b2 eps =>
      match c_stat x "Adam.m1", c_stat x "Adam.m2" with
      | Some u, Some w => let r c := adam_rule scale al b1 b2 eps n (v c) (g c) (u c) (w c) in
          Some (mkC (fun c => fst (fst (r c))) g (set_stat "Adam.m2" (fun c => snd (r c)) (set_stat "Adam.m1" (fun c => snd (fst (r c))) (c_stat x))))
      | _, _ => None end
  end.
Definition no_grad (x : contents) : contents := mkC (c_value x) (fun _ => n0) (c_stat x).
Definition with_grad (f : (coord' -> F) -> (coord' -> F) -> coord' -> F) (x : contents) : contents := mkC (c_value x) (f (c_value x) (c_grad x)) (c_stat x).
(** weight decay: + strength * value *)
Definition decayed (l2 : F) (x : contents) : contents := with_grad (fun v g c => g c +. v c *. l2) x.
Definition rescaled (k : F) (x : contents) : contents := with_grad (fun v g c => g c *. k) x.
(** the sum of the squares of the gradient elements of all the parameters *)
Definition sq_sum (xs : list item) : F :=
  fold_left (fun acc x => acc +. flat (K := K) (i_shape x) (fun c => c_grad (i_c x) c *. c_grad (i_c x) c)) xs n0.
(** what the optimizer makes of the gradients before the update: decay first, then clipping *)
Definition prepared (o : opt K) (xs : list item) : list item :=
  let xs1 := if nlt K n0 (o_l2 o) then map (on (decayed (o_l2 o))) xs else xs in
  let q := sq_sum xs1 in
  if nlt K n0 (o_clip o) && nlt K (o_clip o *. o_clip o) q then map (on (rescaled (o_clip o /. nsqrt K q))) xs1 else xs1.

Variable m : build.
Hypothesis HC : commutes K.

Lemma st_get_set n t l n' : st_get n' (st_set (K := K) n t l) = if String.eqb n n' then Some t else st_get n' l.
Proof.
  induction l as [|(n1, t1) l IH]; cbn.
  - destruct (String.eqb_spec n n'); auto.
  - destruct (String.eqb_spec n1 n) as [->|NE]; cbn.
    + destruct (String.eqb_spec n n'); auto.
    + rewrite IH. destruct (String.eqb_spec n1 n') as [->|]; auto. destruct (String.eqb_spec n n'); [congruence|auto].
Qed.
Lemma stats_set d s st l n f t : (forall n, match st n, st_get (K := K) n l with Some f, Some t => elems d s f t | None, None => True | _, _ => False end) ->
  elems d s f t -> forall n', match set_stat n f st n', st_get n' (st_set n t l) with Some f, Some t => elems d s f t | None, None => True | _, _ => False end.
Proof. intros H HT n'. rewrite st_get_set. unfold set_stat. destruct (String.eqb_spec n n'); auto. apply H. Qed.
Lemma stat_some d s st l n f : (forall n, match st n, st_get (K := K) n l with Some f, Some t => elems d s f t | None, None => True | _, _ => False end) ->
  st n = Some f -> exists t, st_get n l = Some t /\ elems d s f t.
Proof. intros H E. specialize (H n). rewrite E in H. destruct (st_get n l) as [t|]; [eauto|tauto]. Qed.
Lemma stat_none d s st l n : (forall n, match st n, st_get (K := K) n l with Some f, Some t => elems d s f t | None, None => True | _, _ => False end) ->
  st n = None -> st_get n l = None.
Proof. intros H E. specialize (H n). rewrite E in H. destruct (st_get n l) as [t|]; [tauto|auto]. Qed.

Ltac run H := let t := fresh "t" in let E := fresh "E" in let HT := fresh "HT" in destruct H as (t & E & HT); rewrite E; cbn [bind].
Definition turns (r : res param) (d : nat) (s : shape) (x : contents) : Prop := exists p, r = Ok p /\ is_param d s x p.

Lemma update_turns als o scale d s x p : (forall i, al_ok (als i)) -> (o_epoch o < two32 - 1)%N -> is_param d s x p ->
  match stepped (o_algo o) scale (o_epoch o + 1) x with
  | Some y => turns (update_parameter m als o scale p) d s y
  | None => update_parameter m als o scale p = Panic
  end.
Proof.
  intros HA HE (HV & HG & HS). unfold update_parameter, stepped. destruct (o_algo o) as [eta|eta mu|alpha b1 b2 eps].
  - unfold update_sgd. run (@const_mul_gives K m d s (als 0) (scale *. eta) _ _ (HA 0) HG). run (@sub_assign_gives K m d s _ _ _ _ HT HV).
    eexists. split; [reflexivity|]. split; [exact HT0|]. split; [exact HG|exact HS].
  - unfold update_momentum. run (@const_mul_gives K m d s (als 0) (scale *. eta) _ _ (HA 0) HG).
    destruct (c_stat x "MomentumSGD.m") as [vel|] eqn:ES.
    + destruct (stat_some HS ES) as (tm & Em & Hm). rewrite Em. cbn [unwrap bind].
      run (@mul_assign_gives K m d s _ _ mu Hm). run (@sub_assign_gives K m d s _ _ _ _ HT HT0). run (@add_assign_gives K m d s _ _ _ _ HT1 HV).
      eexists. split; [reflexivity|]. split; [exact HT2|]. split; [exact HG|]. cbn [p_stats c_stat]. apply stats_set; auto.
    + rewrite (stat_none HS ES). reflexivity.
  - unfold update_adam. change two32 with 4294967296%N in HE. assert (EE : add32 m (o_epoch o) 1 = Ok (o_epoch o + 1)%N). { apply norm32_lt. change two32 with 4294967296%N. lia. }
    rewrite EE. cbn [bind]. destruct (c_stat x "Adam.m1") as [u|] eqn:E1; [|rewrite (stat_none HS E1); reflexivity].
    destruct (stat_some HS E1) as (ta & Ea & Ha). rewrite Ea. cbn [unwrap bind].
    destruct (c_stat x "Adam.m2") as [w|] eqn:E2; [|rewrite (stat_none HS E2); reflexivity].
    destruct (stat_some HS E2) as (tb & Eb & Hb). rewrite Eb. cbn [unwrap bind].
    run (@mul_assign_gives K m d s _ _ b1 Ha). run (@const_mul_gives K m d s (als 0) (n1 -. b1) _ _ (HA 0) HG). run (@add_assign_gives K m d s _ _ _ _ HT0 HT).
    run (@mul_assign_gives K m d s _ _ b2 Hb). run (@const_mul_gives K m d s (als 1) (n1 -. b2) _ _ (HA 1) HG).
    run (@mul_gives K m d s HC (als 2) _ _ _ _ (HA 2) HT3 HG). run (@add_assign_gives K m d s _ _ _ _ HT4 HT2).
    set (e := nofZ K (Z.of_N (o_epoch o + 1))). run (@div_const_gives K m d s (als 3) (n1 -. npowf K b1 e) _ _ (HA 3) HT1).
    run (@div_const_gives K m d s (als 4) (n1 -. npowf K b2 e) _ _ (HA 4) HT5). run (@const_mul_gives K m d s (als 5) (scale *. alpha) _ _ (HA 5) HT6).
    run (@sqrt_gives K m d s (als 6) _ _ (HA 6) HT7). run (@add_const_gives K m d s (als 7) eps _ _ (HA 7) HT9).
    run (@div_gives K m d s (als 8) _ _ _ _ (HA 8) HT8 HT10). run (@sub_assign_gives K m d s _ _ _ _ HT11 HV).
    eexists. split; [reflexivity|]. split; [exact HT12|]. split; [exact HG|]. cbn [p_stats c_stat]. apply stats_set; [apply stats_set; auto|exact HT5].
Qed.
Lemma reset_turns d s x p : is_param d s x p -> turns (reset_gradient m p) d s (no_grad x).
Proof. intros (HV & HG & HS). unfold reset_gradient. run (@reset_gives K m d s _ _ n0 HG). eexists. split; [reflexivity|]. split; [exact HV|]. split; [exact HT|exact HS]. Qed.
Lemma decay_turns al l2 d s x p : al_ok al -> is_param d s x p -> turns (decay m al l2 p) d s (decayed l2 x).
Proof.
  intros HA (HV & HG & HS). unfold decay. run (@const_mul_gives K m d s al l2 _ _ HA HV). run (@add_assign_gives K m d s _ _ _ _ HT HG).
  eexists. split; [reflexivity|]. split; [exact HV|]. split; [exact HT0|exact HS].
Qed.
Lemma rescale_turns k d s x p : is_param d s x p -> turns (rescale m k p) d s (rescaled k x).
Proof.
  intros (HV & HG & HS). unfold rescale. run (@mul_assign_gives K m d s _ _ k HG). eexists. split; [reflexivity|]. split; [exact HV|]. split; [exact HT|exact HS].
Qed.
Lemma sq_norm_gives als d s x p : (forall i, al_ok (als i)) -> is_param d s x p -> sq_norm_of m als p = Ok (flat (K := K) s (fun c => c_grad x c *. c_grad x c)).
Proof.
  intros HA (HV & HG & HS). unfold sq_norm_of. run (@mul_gives K m d s HC (als 0) _ _ _ _ (HA 0) HG HG).
  pose proof (elems_ready HT) as HR. pose proof (elems_shape HT) as Es. pose proof (proj1 HT) as B1. pose proof (ready_wf HR) as W. rewrite Es in W.
  destruct (@flatten_flat K m d (als 1) t (HA 1) HR) as (s1 & Hs1 & (t1 & E1 & (R1 & S1 & V1))). rewrite E1. cbn [bind].
  unfold t_sum. rewrite (ready_device_of R1). cbn [bind]. destruct (@sum_yields K m d (als 2) t1 0%N (HA 2) R1) as (s2 & Rs2 & (t2 & E2 & HT2)); [cbn; lia|].
  rewrite E2. cbn [bind]. destruct Hs1 as (W1 & X1 & Bt1). rewrite Es in X1, Bt1.
  assert (S2 : shape_is s2 (fun _ => 1) 1).
  { apply reduces_shape_is in Rs2. destruct Rs2 as (W2 & X2 & Bt2). split; auto. split; [|rewrite Bt2, S1, Bt1; auto]. intros i. rewrite X2. unfold eset. rewrite S1. destruct (Nat.eqb_spec i (N.to_nat 0)); auto. rewrite X1. destruct (Nat.eqb_spec i 0); [cbn in *; lia|auto]. }
  destruct S2 as (W2 & X2 & B2). destruct HT2 as (R2 & Sh2 & V2).
  assert (TT : tot s2 = 1). { unfold tot, vol, low. cbn [prod_lt]. rewrite !X2, B2. reflexivity. }
  pose proof (to_vec_Ok m R2) as TV. unfold to_vec, tensor_to_vector in TV. unfold to_float, tensor_to_float. rewrite (ready_device_of R2) in TV |- * . cbn [bind] in TV |- * .
  assert (HF2 : fits s2) by (rewrite <- Sh2; apply (ready_fits R2)). rewrite Sh2 in TV |- * . rewrite (fits_size m HF2), TT in TV |- * . cbn [bind N.of_nat Pos.of_succ_nat N.eqb Pos.eqb assert] in TV |- * .
  change (repeat n0 (N.to_nat 1)) with [@n0 K] in TV. rewrite TV. cbn [bind].
  assert (L2 : 1 <= length (buf t2)). { destruct (ready_vt R2) as (_ & _ & L). rewrite Sh2, TT in L. exact L. }
  assert (IX : idx (firstn 1 (buf t2)) 0 = Ok (nth 0 (buf t2) n0)). { destruct (buf t2); [cbn in L2; lia|reflexivity]. } rewrite IX. f_equal.
  assert (I0 : inb s2 czero) by (intros i; rewrite X2; unfold czero; lia).
  specialize (V2 czero 0 I0 ltac:(lia)). rewrite at_buf, Sh2 in V2. replace (pos s2 czero 0) with 0 in V2 by reflexivity. rewrite V2. unfold flat.
  replace (ext (t_shape t1) (N.to_nat 0)) with (vol s). 2:{ rewrite S1, X1. reflexivity. }
  apply red_ext. intros j Hj. rewrite at_buf, S1.
  assert (P : pos s1 (cset czero (N.to_nat 0) j) 0 = j). { unfold pos. cbn [lin_lt]. unfold cset, czero. cbn [Nat.eqb N.to_nat]. cbn. lia. }
  rewrite P, V1. 2:{ unfold tot, vol at 1, low. cbn [prod_lt]. rewrite !X1, Bt1, B1. cbn [Nat.eqb]. lia. }
  etransitivity; [|apply (elems_at HT (c := coord (ext s) 8 j) (b := 0)); [apply inb_coord; auto|lia]]. rewrite at_buf, Es, pos_coord by auto. reflexivity.
Qed.

Lemma each_turns (f : nat -> param -> res param) (h : contents -> contents -> Prop) xs ps i :
  are_params xs ps -> (forall i d s x p, is_param d s x p -> forall y, h x y -> turns (f i p) d s y) ->
  forall ys, Forall2 (fun x y => i_dev y = i_dev x /\ i_shape y = i_shape x /\ h (i_c x) (i_c y)) xs ys ->
  exists ps', each f i ps = Ok ps' /\ are_params ys ps'.
Proof.
  intros HP HF. revert i. induction HP as [|x p xs ps HX HP IH]; intros i ys HY; inversion HY as [|x' y xs' ys' (E1 & E2 & E3) HY']; subst.
  - exists []. split; [reflexivity|constructor].
  - destruct (HF i _ _ _ _ HX _ E3) as (p' & E & HP'). destruct (IH (S i) _ HY') as (ps' & E' & HPS). exists (p' :: ps'). cbn [each]. rewrite E. cbn [bind]. rewrite E'. cbn [bind].
    split; [reflexivity|]. constructor; auto. rewrite E1, E2. exact HP'.
Qed.
Lemma map_rel (h : contents -> contents) xs : Forall2 (fun x y => i_dev y = i_dev x /\ i_shape y = i_shape x /\ i_c y = h (i_c x)) xs (map (on h) xs).
Proof. induction xs; constructor; auto. Qed.
Lemma each_map f h xs ps : are_params xs ps -> (forall i d s x p, is_param d s x p -> turns (f i p) d s (h x)) -> exists ps', each f 0 ps = Ok ps' /\ are_params (map (on h) xs) ps'.
Proof. intros HP HF. apply (@each_turns f (fun x y => y = h x) xs ps 0 HP); [|apply map_rel]. intros i d s x p HX y ->. auto. Qed.
Lemma sq_norm_Ok als xs ps : (forall i k, al_ok (als i k)) -> are_params xs ps -> forall i acc,
  sq_norm m als i acc ps = Ok (fold_left (fun acc x => acc +. flat (K := K) (i_shape x) (fun c => c_grad (i_c x) c *. c_grad (i_c x) c)) xs acc).
Proof.
  intros HA HP. induction HP as [|x p xs ps HX HP IH]; intros i acc; cbn [sq_norm fold_left]; auto.
  rewrite (@sq_norm_gives (als i) _ _ _ _ (HA i) HX). cbn [bind]. apply IH.
Qed.

(** ** C46 *)
(** [update_parameters] prepares the gradients (weight decay, then clipping by the global norm),
    updates every parameter once with the rule of the optimizer for step epoch + 1, zeroes
    every gradient and counts the step. Statistics have to be configured. *)
Definition updated (o : opt K) (x y : item) : Prop :=
  i_dev y = i_dev x /\ i_shape y = i_shape x /\
  exists z, stepped (o_algo o) (o_scale o) (o_epoch o + 1) (i_c x) = Some z /\ i_c y = no_grad z.
Theorem C46_update_parameters : forall als o xs ps ys, (forall i j k, al_ok (als i j k)) -> (o_epoch o < two32 - 1)%N ->
  are_params xs ps -> Forall2 (updated o) (prepared o xs) ys ->
  exists ps', update_parameters m als o ps = Ok (mkOpt (o_epoch o + 1) (o_scale o) (o_l2 o) (o_clip o) (o_algo o), ps') /\ are_params ys ps'.
Proof.
  intros als o xs ps ys HA HE HP HY. unfold update_parameters. unfold prepared in HY.
  assert (H1 : exists ps1, (if ngt (o_l2 o) n0 then each (fun i p => decay m (als 0 i 0) (o_l2 o) p) 0 ps else Ok ps) = Ok ps1 /\
     are_params (if nlt K n0 (o_l2 o) then map (on (decayed (o_l2 o))) xs else xs) ps1).
  { unfold ngt. destruct (nlt K n0 (o_l2 o)); [|eauto]. apply each_map; auto. intros i d s x p HX. apply decay_turns; auto. }
  destruct H1 as (ps1 & E1 & HP1). rewrite E1. cbn [bind]. set (xs1 := if nlt K n0 (o_l2 o) then map (on (decayed (o_l2 o))) xs else xs) in * .
  assert (H2 : exists ps2, (if ngt (o_clip o) n0 then q <- sq_norm m (als 1) 0 n0 ps1 ;;
              (if ngt q (o_clip o *. o_clip o) then each (fun _ p => rescale m (o_clip o /. nsqrt K q) p) 0 ps1 else Ok ps1) else Ok ps1) = Ok ps2 /\
     are_params (if nlt K n0 (o_clip o) && nlt K (o_clip o *. o_clip o) (sq_sum xs1) then map (on (rescaled (o_clip o /. nsqrt K (sq_sum xs1)))) xs1 else xs1) ps2).
  { unfold ngt. destruct (nlt K n0 (o_clip o)); cbn [andb]; [|eauto]. rewrite (sq_norm_Ok (xs := xs1)) by auto. cbn [bind]. fold (sq_sum xs1).
    destruct (nlt K (o_clip o *. o_clip o) (sq_sum xs1)); [|eauto]. apply each_map; auto. intros i d s x p HX. apply rescale_turns; auto. }
  destruct H2 as (ps2 & E2 & HP2). rewrite E2. cbn [bind]. set (xs2 := if nlt K n0 (o_clip o) && _ then _ else xs1) in * .
  destruct (@each_turns (fun i p => p1 <- update_parameter m (als 2 i) o (o_scale o) p ;; reset_gradient m p1)
     (fun x y => exists z, stepped (o_algo o) (o_scale o) (o_epoch o + 1) x = Some z /\ y = no_grad z) xs2 ps2 0 HP2) with (ys := ys) as (ps3 & E3 & HP3).
  - intros i d s x p HX y (z & Ez & ->). pose proof (@update_turns (als 2 i) o (o_scale o) d s x p (HA 2 i) HE HX) as HU. rewrite Ez in HU.
    destruct HU as (p1 & Ep & H1). rewrite Ep. cbn [bind]. apply reset_turns; auto.
  - exact HY.
  - rewrite E3. cbn [bind]. change two32 with 4294967296%N in HE. assert (EE : add32 m (o_epoch o) 1 = Ok (o_epoch o + 1)%N). { apply norm32_lt. change two32 with 4294967296%N. lia. }
    rewrite EE. cbn [bind]. eauto.
Qed.
(** ** C43 *)
Theorem C43_sgd : forall als o eta xs ps, o_algo o = SGD eta -> nlt K n0 (o_l2 o) = false -> nlt K n0 (o_clip o) = false ->
  (forall i j k, al_ok (als i j k)) -> (o_epoch o < two32 - 1)%N -> are_params xs ps ->
  exists ps', update_parameters m als o ps = Ok (mkOpt (o_epoch o + 1) (o_scale o) (o_l2 o) (o_clip o) (SGD eta), ps') /\
    are_params (map (on (fun x => mkC (fun c => c_value x c -. c_grad x c *. (o_scale o *. eta)) (fun _ => n0) (c_stat x))) xs) ps'.
Proof.
  intros als o eta xs ps EA E1 E2 HA HE HP. rewrite <- EA. apply (@C46_update_parameters als o xs); auto. unfold prepared. rewrite E1, E2. cbn [andb].
  clear HP. induction xs as [|x xs IH]; constructor; auto. split; [reflexivity|]. split; [reflexivity|]. unfold stepped. rewrite EA. eexists. split; [reflexivity|]. reflexivity.
Qed.
(** the same with weight decay: the gradient used is g + v * strength *)
Theorem C43_sgd_weight_decay : forall als o eta xs ps, o_algo o = SGD eta -> nlt K n0 (o_l2 o) = true -> nlt K n0 (o_clip o) = false ->
  (forall i j k, al_ok (als i j k)) -> (o_epoch o < two32 - 1)%N -> are_params xs ps ->
  exists ps', update_parameters m als o ps = Ok (mkOpt (o_epoch o + 1) (o_scale o) (o_l2 o) (o_clip o) (SGD eta), ps') /\
    are_params (map (on (fun x => mkC (fun c => c_value x c -. (c_grad x c +. c_value x c *. o_l2 o) *. (o_scale o *. eta)) (fun _ => n0) (c_stat x))) xs) ps'.
Proof.
  intros als o eta xs ps EA E1 E2 HA HE HP. rewrite <- EA. apply (@C46_update_parameters als o xs); auto. unfold prepared. rewrite E1, E2. cbn [andb].
  clear HP. induction xs as [|x xs IH]; constructor; auto. split; [reflexivity|]. split; [reflexivity|]. unfold stepped. rewrite EA. eexists. split; [reflexivity|]. reflexivity.
Qed.
(** ** C47 *)
Theorem C47_setters : forall (o : opt K) x,
  (forall o', set_learning_rate_scaling o x = Ok o' <-> nle K n0 x = true /\ o' = mkOpt (o_epoch o) x (o_l2 o) (o_clip o) (o_algo o)) /\
  (forall o', set_weight_decay o x = Ok o' <-> nle K n0 x = true /\ o' = mkOpt (o_epoch o) (o_scale o) x (o_clip o) (o_algo o)) /\
  (forall o', set_gradient_clipping o x = Ok o' <-> nle K n0 x = true /\ o' = mkOpt (o_epoch o) (o_scale o) (o_l2 o) x (o_algo o)) /\
  (nle K n0 x = false -> set_learning_rate_scaling o x = Panic /\ set_weight_decay o x = Panic /\ set_gradient_clipping o x = Panic).
Proof.
  intros o x. unfold set_learning_rate_scaling, set_weight_decay, set_gradient_clipping. destruct (nle K n0 x); cbn.
  - ssplit; try (intros o'; split; [intros E; inversion E; auto|intros (_ & ->); reflexivity]). discriminate.
  - ssplit; try (intros o'; split; [discriminate|intros (E & _); discriminate]). intros _. ssplit; reflexivity.
Qed.
(** configuring: existing statistics, value and gradient are untouched; missing ones become zero *)
Definition needed (a : algo K) : list string :=
  match a with SGD _ => [] | Momentum _ _ => ["MomentumSGD.m"%string] | Adam _ _ _ _ => ["Adam.m1"%string; "Adam.m2"%string] end.
Definition configured (a : algo K) (x : contents) : contents :=
  mkC (c_value x) (c_grad x) (fun n => match c_stat x n with Some f => Some f | None => if existsb (String.eqb n) (needed a) then Some (fun _ => n0) else None end).
Lemma ensure_turns al n d s x p : al_ok al -> is_param d s x p ->
  turns (ensure m al n p) d s (mkC (c_value x) (c_grad x) (fun n' => match c_stat x n' with Some f => Some f | None => if String.eqb n' n then Some (fun _ => n0) else None end)).
Proof.
  intros HA HX. destruct (HX) as (HV & HG & HS). unfold ensure, has_stat. pose proof (HS n) as Hn. destruct (st_get n (p_stats p)) as [t|] eqn:E.
  - exists p. split; [reflexivity|]. split; [exact HV|]. split; [exact HG|]. intros n'. cbn [c_stat]. specialize (HS n'). destruct (c_stat x n') as [f|] eqn:E'; auto.
    destruct (String.eqb_spec n' n) as [->|]; auto. rewrite E' in Hn. tauto.
  - unfold add_stat, has_stat. rewrite E. cbn [negb assert bind]. rewrite (ready_device_of (elems_ready HV)). cbn [bind]. rewrite (elems_shape HV).
    assert (HF : fits s) by (rewrite <- (elems_shape HV); apply (ready_fits (elems_ready HV))).
    destruct (@by_constant_flat K m d al s n0 HA HF) as (t & Et & (R & S & V)). rewrite Et. cbn [bind]. eexists. split; [reflexivity|].
    split; [exact HV|]. split; [exact HG|]. intros n'. cbn [c_stat p_stats]. rewrite st_get_set. destruct (String.eqb_spec n n') as [<-|NE].
    + destruct (c_stat x n); [tauto|]. rewrite String.eqb_refl. split; [apply HV|]. split; [exact R|]. split; [exact S|]. intros c b Hc Hb. rewrite at_buf, S. apply V. apply pos_lt; auto. apply HF.
    + specialize (HS n'). destruct (c_stat x n') as [f|]; auto. destruct (String.eqb_spec n' n); [congruence|auto].
Qed.
Lemma is_param_ext d s x y p : is_param d s x p -> c_value x = c_value y -> c_grad x = c_grad y -> (forall n, c_stat x n = c_stat y n) -> is_param d s y p.
Proof. intros (H1 & H2 & H3) E1 E2 E3. split; [rewrite <- E1; auto|]. split; [rewrite <- E2; auto|]. intros n. rewrite <- E3. apply H3. Qed.
Theorem C47_configure : forall als o d s x p, (forall i, al_ok (als i)) -> is_param d s x p ->
  exists p', configure_parameter m als o p = Ok p' /\ is_param d s (configured (o_algo o) x) p'.
Proof.
  intros als o d s x p HA HX. unfold configure_parameter. destruct (o_algo o) as [eta|eta mu|alpha b1 b2 eps].
  - exists p. split; auto. eapply is_param_ext; [exact HX|auto|auto|]. intros n. cbn. destruct (c_stat x n); auto.
  - destruct (@ensure_turns (als 0) "MomentumSGD.m" d s x p (HA 0) HX) as (p' & E & H). exists p'. split; [exact E|]. eapply is_param_ext; [exact H|auto|auto|].
    intros n. cbn [c_stat configured needed existsb]. destruct (c_stat x n); auto. destruct (String.eqb n "MomentumSGD.m"); auto.
  - destruct (@ensure_turns (als 0) "Adam.m1" d s x p (HA 0) HX) as (p1 & E & H). rewrite E. cbn [bind].
    destruct (@ensure_turns (als 1) "Adam.m2" d s _ p1 (HA 1) H) as (p2 & E2 & H2). exists p2. split; [exact E2|]. eapply is_param_ext; [exact H2|auto|auto|].
    intros n. cbn [c_stat configured needed existsb]. destruct (c_stat x n); auto. destruct (String.eqb n "Adam.m1"); auto. cbn [orb]. destruct (String.eqb n "Adam.m2"); auto.
Qed.
(** configuring a second time changes nothing *)
Theorem C47_configure_twice : forall a x, configured a (configured a x) = configured a x.
Proof.
  intros a x. unfold configured. cbn. f_equal. apply functional_extensionality. intros n. destruct (c_stat x n); auto. destruct (existsb (String.eqb n) (needed a)) eqn:E; rewrite ?E; auto.
Qed.
(** updating a parameter whose statistics are missing panics; after configuring it works *)
Theorem C47_unconfigured : forall als o scale d s x p, (forall i, al_ok (als i)) -> (o_epoch o < two32 - 1)%N -> is_param d s x p ->
  (exists p', update_parameter m als o scale p = Ok p') <-> Forall (fun n => c_stat x n <> None) (needed (o_algo o)).
Proof.
  intros als o scale d s x p HA HE HX. pose proof (@update_turns als o scale d s x p HA HE HX) as HU. unfold stepped in HU.
  destruct (o_algo o) as [eta|eta mu|alpha b1 b2 eps]; cbn [needed].
  - destruct HU as (p' & E & _). split; eauto.
  - destruct (c_stat x "MomentumSGD.m") eqn:E.
    + destruct HU as (p' & E' & _). split; eauto. intros _. constructor; auto. congruence.
    + rewrite HU. split; [intros (p' & E'); discriminate|]. intros H. inversion H; congruence.
  - destruct (c_stat x "Adam.m1") eqn:E1.
    + destruct (c_stat x "Adam.m2") eqn:E2.
      * destruct HU as (p' & E' & _). split; eauto. intros _. repeat constructor; congruence.
      * rewrite HU. split; [intros (p' & E'); discriminate|]. intros H. inversion H as [|? ? ? H']; subst. inversion H'; congruence.
    + rewrite HU. split; [intros (p' & E'); discriminate|]. intros H. inversion H; congruence.
Qed.
End Spec.

(** ** Histories of updates *)
Lemma F2nth A B (P : A -> B -> Prop) l l' i x y : Forall2 P l l' -> nth_error l i = Some x -> nth_error l' i = Some y -> P x y.
Proof. intros H E1 E2. destruct (Forall2_nth H E1) as (y' & E & HP). congruence. Qed.
Section History.
Variable m : build.
Notation param := (param Rnum).
Notation opt := (opt Rnum).
Open Scope R_scope.
(** element [c] of the value, the gradient, and a statistic of a parameter *)
Definition val (p : param) (c : coord') : R := at_ (p_value p) c 0.
Definition grad (p : param) (c : coord') : R := at_ (p_grad p) c 0.
Definition stat (n : string) (p : param) (c : coord') : R := match st_get n (p_stats p) with Some t => at_ t c 0 | None => 0 end.
(** value, gradient and statistics are allocated, of shape [s], not batched *)
Definition whole (d : nat) (s : shape) (t : rtensor) : Prop := bat s = 1%nat /\ ready d t /\ t_shape t = s.
Definition good (d : nat) (s : shape) (names : list string) (p : param) : Prop :=
  whole d s (p_value p) /\ whole d s (p_grad p) /\ (forall n t, st_get n (p_stats p) = Some t -> whole d s t) /\
  Forall (fun n => st_get n (p_stats p) <> None) names.
(** a training run: [ps n] are the parameters after [n] updates, [qs n] the same parameters when
    the next update is called: in between only the gradients have changed (for example by
    backward). Every update goes through; its settings may differ from step to step. *)
Definition same_but_grad (p q : param) : Prop := p_value q = p_value p /\ p_stats q = p_stats p.
Record run (a : algo Rnum) (N : nat) (ds : list (nat * shape)) (os : nat -> opt) (ps qs : nat -> list param) : Prop := mkRun {
  run_algo : forall n, o_algo (os n) = a;
  run_plain : forall n, o_l2 (os n) = 0 /\ o_clip (os n) = 0;
  run_good : forall n, (n < N)%nat -> Forall2 (fun i q => good (fst i) (snd i) (needed a) q) ds (qs n);
  run_grad : forall n, (n < N)%nat -> Forall2 same_but_grad (ps n) (qs n);
  run_epoch : forall n, o_epoch (os n) = N.of_nat n;
  run_small : (N.of_nat N < two32)%N;
  run_step : forall n, (n < N)%nat -> exists als o', (forall i j k, al_ok (als i j k)) /\ update_parameters m als (os n) (qs n) = Ok (o', ps (S n)) }.

Definition view (p : param) : contents Rnum :=
  @mkC Rnum (val p) (grad p) (fun n => match st_get n (p_stats p) with Some t => Some (fun c => at_ t c 0%nat) | None => None end).
Lemma whole_elems d s t : whole d s t -> elems (K := Rnum) d s (fun c => at_ t c 0) t.
Proof. intros (B & R & S). split; auto. split; auto. split; auto. intros c b Hc Hb. replace b with 0%nat by lia. auto. Qed.
Lemma view_ok d s names p : good d s names p -> is_param d s (view p) p.
Proof.
  intros (H1 & H2 & H3 & H4). split; [apply whole_elems; auto|]. split; [apply whole_elems; auto|]. intros n. cbn. destruct (st_get n (p_stats p)) as [t|] eqn:E; auto.
  apply whole_elems; eauto.
Qed.
(** one update of one parameter of the run *)
Lemma run_one a N ds os ps qs n i d s p q p' : run a N ds os ps qs -> (n < N)%nat -> nth_error ds i = Some (d, s) -> nth_error (ps n) i = Some p ->
  nth_error (qs n) i = Some q -> nth_error (ps (S n)) i = Some p' -> good d s (needed a) q /\ p_value q = p_value p /\ p_stats q = p_stats p /\
  exists z, stepped a (o_scale (os n)) (N.of_nat (S n)) (view q) = Some z /\ is_param d s (no_grad z) p'.
Proof.
  intros [HA HP HG HS HE HN HU] Hn Ei Ep Eq Ep'. pose proof (HG n Hn) as G. destruct (HP n) as (P1 & P2). destruct (HU n Hn) as (als & o' & HAL & EU).
  pose proof (F2nth G Ei Eq) as Gq. pose proof (F2nth (HS n Hn) Ep Eq) as (S1 & S2). cbn [fst snd] in Gq.
  split; auto. split; auto. split; auto.
  set (xs := map (fun '(i, q) => mkI (fst i) (snd i) (view q)) (combine ds (qs n))).
  assert (AP : are_params xs (qs n)).
  { unfold xs. clear - G. induction G as [|i1 q1 ds1 l1 H G IH]; [constructor|]. constructor; auto. cbn. eapply view_ok; eauto. }
  assert (STEP : forall q d s, good d s (needed a) q -> exists z, stepped a (o_scale (os n)) (N.of_nat (S n)) (view q) = Some z).
  { intros q0 d0 s0 (_ & _ & _ & H). unfold stepped. destruct a; cbn [needed] in H; cbn [view c_stat]; [eauto| |].
    - inversion H; subst. destruct (st_get _ _); [eauto|congruence].
    - inversion H as [|? ? H1 H2]; subst. inversion H2; subst. destruct (st_get "Adam.m1" _); [|congruence]. destruct (st_get "Adam.m2" _); [eauto|congruence]. }
  assert (YS : exists ys, Forall2 (updated (os n)) xs ys).
  { unfold xs. clear - G STEP HA HE. induction G as [|i1 q1 ds1 l1 H G (ys & IH)]; [exists []; constructor|]. destruct (STEP _ _ _ H) as (z & Ez). exists (mkI (fst i1) (snd i1) (no_grad z) :: ys).
    constructor; auto. split; [reflexivity|]. split; [reflexivity|]. exists z. rewrite HA, HE. cbn [i_c]. replace (N.of_nat n + 1)%N with (N.of_nat (S n)) by lia. auto. }
  destruct YS as (ys & YS).
  destruct (@C46_update_parameters Rnum m Rnum_commutes als (os n) xs (qs n) ys) as (ps' & E' & AP'); auto.
  - rewrite HE. change two32 with 4294967296%N in HN |- * . lia.
  - unfold prepared. rewrite P1, P2. cbn [nlt Rnum n0]. rewrite Rltb_false by lra. exact YS.
  - rewrite E' in EU. inversion EU; subst o' ps'.
    assert (Ex : nth_error xs i = Some (mkI d s (view q))).
    { unfold xs. rewrite nth_error_map. assert (EC : nth_error (combine ds (qs n)) i = Some ((d, s), q)); [|rewrite EC; reflexivity].
      clear - Ei Eq. revert i Ei Eq. generalize (qs n) as l. induction ds as [|x ds IH]; intros l [|i] Ei Eq; try discriminate; destruct l; try discriminate; cbn in *; [congruence|eauto]. }
    assert (Ey : exists y, nth_error ys i = Some y). { destruct (Forall2_nth' AP' Ep') as (y & Ey & _). eauto. }
    destruct Ey as (y & Ey). pose proof (F2nth YS Ex Ey) as (U1 & U2 & z & U3 & U4). pose proof (F2nth AP' Ey Ep') as IP.
    cbn beta in IP. rewrite U1, U2, U4 in IP. cbn in IP, U3. rewrite HA, HE in U3. replace (N.of_nat n + 1)%N with (N.of_nat (S n)) in U3 by lia. exists z. auto.
Qed.

(** ** C44 *)
Lemma pow_last x n : x ^ S n = x ^ n * x. Proof. cbn. ring. Qed.
Lemma weighted (b : R) (h : nat -> R) n : rsum (S n) (fun k => b ^ (n - k) * h k) = rsum n (fun k => b ^ (n - 1 - k) * h k) * b + h n.
Proof.
  cbn [rsum]. rewrite Nat.sub_diag. cbn [pow]. rewrite Rmult_1_l. f_equal. rewrite <- rsum_scal_r. apply rsum_ext. intros k Hk.
  replace (n - k)%nat with (S (n - 1 - k)) by lia. rewrite pow_last. ring.
Qed.
Section Momentum.
Variables (eta mu : R) (N : nat) (ds : list (nat * shape)) (os : nat -> opt) (ps qs : nat -> list param).
Hypothesis HR : run (Momentum (K := Rnum) eta mu) N ds os ps qs.
Variables (i d : nat) (s : shape) (P Q : nat -> param).
Hypothesis Hi : nth_error ds i = Some (d, s).
Hypothesis HP : forall n, (n <= N)%nat -> nth_error (ps n) i = Some (P n).
Hypothesis HQ : forall n, (n < N)%nat -> nth_error (qs n) i = Some (Q n).
Notation vel n c := (stat "MomentumSGD.m" (P n) c).
Lemma momentum_step n c : (n < N)%nat -> inb s c ->
  vel (S n) c = vel n c * mu - (o_scale (os n) * eta) * grad (Q n) c /\ val (P (S n)) c = val (P n) c + vel (S n) c.
Proof.
  intros Hn Hc. destruct (@run_one _ _ _ _ _ _ n i d s (P n) (Q n) (P (S n)) HR Hn Hi (HP (n:=n) ltac:(lia)) (HQ Hn) (HP (n:=S n) ltac:(lia))) as (G & E1 & E2 & z & Ez & (V & _ & S)).
  cbn [stepped] in Ez. cbn [view c_stat] in Ez. destruct G as (WV & _ & WS & HN). cbn [needed] in HN. inversion HN as [|? ? H0 _]; subst.
  destruct (st_get "MomentumSGD.m" (p_stats (Q n))) as [t|] eqn:ET; [|congruence]. pose proof (WS _ _ ET) as (Bs & _). inversion Ez as [Ez']; subst z; clear Ez.
  specialize (S "MomentumSGD.m"%string). cbn [no_grad c_stat] in S. unfold set_stat in S. cbn [String.eqb Ascii.eqb Bool.eqb] in S.
  unfold stat. destruct (st_get "MomentumSGD.m" (p_stats (P (Datatypes.S n)))) as [t'|]; [|tauto].
  pose proof (elems_at S (c := c) (b := 0%nat) Hc ltac:(lia)) as EV. pose proof (elems_at V (c := c) (b := 0%nat) Hc ltac:(lia)) as EX. cbn in EV, EX.
  rewrite <- E2, ET. unfold val, grad in *. rewrite EV. split; [ring|]. rewrite EX. rewrite E1. ring.
Qed.
(** the velocity is the momentum-weighted sum of the past scaled gradients (plus what is left of
    the initial velocity, zero after configuring), and the value is the initial value plus the
    sum of the velocities *)
Theorem C44_momentum : forall n c, (n <= N)%nat -> inb s c ->
  vel n c = mu ^ n * vel 0 c - rsum n (fun k => mu ^ (n - 1 - k) * ((o_scale (os k) * eta) * grad (Q k) c)) /\
  val (P n) c = val (P 0) c + rsum n (fun j => vel (S j) c).
Proof.
  intros n c Hn Hc. induction n as [|n IH].
  - cbn. split; ring.
  - destruct IH as (IH1 & IH2); [lia|]. destruct (@momentum_step n c) as (S1 & S2); [lia|auto|]. split.
    + rewrite S1, IH1. replace (S n - 1)%nat with n by lia. rewrite weighted, pow_last. ring.
    + rewrite S2, IH2. cbn [rsum]. ring.
Qed.
End Momentum.
(** ** C45 *)
Section AdamRun.
Variables (alpha b1 b2 eps : R) (N : nat) (ds : list (nat * shape)) (os : nat -> opt) (ps qs : nat -> list param).
Hypothesis Hb1 : 0 < b1.
Hypothesis Hb2 : 0 < b2.
Hypothesis HR : run (Adam (K := Rnum) alpha b1 b2 eps) N ds os ps qs.
Variables (i d : nat) (s : shape) (P Q : nat -> param).
Hypothesis Hi : nth_error ds i = Some (d, s).
Hypothesis HP : forall n, (n <= N)%nat -> nth_error (ps n) i = Some (P n).
Hypothesis HQ : forall n, (n < N)%nat -> nth_error (qs n) i = Some (Q n).
Notation m1 n c := (stat "Adam.m1" (P n) c).
Notation m2 n c := (stat "Adam.m2" (P n) c).
Lemma Rpower_nat b n : 0 < b -> Rpower b (IZR (Z.of_N (N.of_nat n))) = b ^ n.
Proof. intros H. rewrite nat_N_Z, <- INR_IZR_INZ. apply Rpower_pow; auto. Qed.
Lemma adam_step n c : (n < N)%nat -> inb s c ->
  m1 (S n) c = m1 n c * b1 + (1 - b1) * grad (Q n) c /\
  m2 (S n) c = m2 n c * b2 + (1 - b2) * (grad (Q n) c * grad (Q n) c) /\
  val (P (S n)) c = val (P n) c - (o_scale (os n) * alpha) * (m1 (S n) c / (1 - b1 ^ S n)) / (sqrt (m2 (S n) c / (1 - b2 ^ S n)) + eps).
Proof.
  intros Hn Hc. destruct (@run_one _ _ _ _ _ _ n i d s (P n) (Q n) (P (S n)) HR Hn Hi (HP (n:=n) ltac:(lia)) (HQ Hn) (HP (n:=S n) ltac:(lia))) as (G & E1 & E2 & z & Ez & (V & _ & S)).
  cbn [stepped] in Ez. cbn [view c_stat] in Ez. destruct G as (WV & _ & WS & HN). cbn [needed] in HN. inversion HN as [|? ? H0 HN']; subst. inversion HN' as [|? ? H1 _]; subst.
  destruct (st_get "Adam.m1" (p_stats (Q n))) as [t|] eqn:ET; [|congruence]. destruct (st_get "Adam.m2" (p_stats (Q n))) as [u|] eqn:EU; [|congruence].
  pose proof (WS _ _ ET) as (Bs & _). inversion Ez as [Ez']; subst z; clear Ez.
  pose proof (S "Adam.m1"%string) as S1. pose proof (S "Adam.m2"%string) as S2. cbn [no_grad c_stat] in S1, S2. unfold set_stat in S1, S2. cbn [String.eqb Ascii.eqb Bool.eqb] in S1, S2.
  unfold stat. destruct (st_get "Adam.m1" (p_stats (P (Datatypes.S n)))) as [t'|]; [|tauto]. destruct (st_get "Adam.m2" (p_stats (P (Datatypes.S n)))) as [u'|]; [|tauto].
  pose proof (elems_at S1 (c := c) (b := 0%nat) Hc ltac:(lia)) as EV1. pose proof (elems_at S2 (c := c) (b := 0%nat) Hc ltac:(lia)) as EV2.
  pose proof (elems_at V (c := c) (b := 0%nat) Hc ltac:(lia)) as EX. cbn [fst snd adam_rule c_value c_grad no_grad view] in EV1, EV2, EX. cbn [nmul nadd nsub ndiv n1 nofZ npowf nsqrt Rnum F] in EV1, EV2, EX.
  change (Z.pos (Pos.of_succ_nat n)) with (Z.of_N (N.of_nat (Datatypes.S n))) in EX. rewrite !Rpower_nat in EX by auto. rewrite <- E2, ET, EU. unfold val, grad in * . rewrite EX, EV1, EV2. rewrite E1. split; [ring|]. split; [ring|].
  set (k := 1 - b1 ^ Datatypes.S n). set (w := sqrt _). replace (sqrt ((at_ u c 0 * b2 + at_ (p_grad (Q n)) c 0 * (1 - b2) * at_ (p_grad (Q n)) c 0) / (1 - b2 ^ Datatypes.S n))) with w by reflexivity.
  unfold Rdiv. ring.
Qed.
(** the moments are the exponentially weighted sums of the past gradients and of their squares;
    each step divides them by 1 - beta^(number of the step) *)
Theorem C45_adam : forall n c, (n <= N)%nat -> inb s c ->
  m1 n c = b1 ^ n * m1 0 c + rsum n (fun k => b1 ^ (n - 1 - k) * ((1 - b1) * grad (Q k) c)) /\
  m2 n c = b2 ^ n * m2 0 c + rsum n (fun k => b2 ^ (n - 1 - k) * ((1 - b2) * (grad (Q k) c * grad (Q k) c))) /\
  val (P n) c = val (P 0) c - rsum n (fun k => (o_scale (os k) * alpha) * (m1 (S k) c / (1 - b1 ^ S k)) / (sqrt (m2 (S k) c / (1 - b2 ^ S k)) + eps)).
Proof.
  intros n c Hn Hc. induction n as [|n IH].
  - cbn [rsum pow]. ssplit; ring.
  - destruct IH as (IH1 & IH2 & IH3); [lia|]. destruct (@adam_step n c) as (S1 & S2 & S3); [lia|auto|]. ssplit.
    + rewrite S1, IH1. replace (S n - 1)%nat with n by lia. rewrite weighted, pow_last. ring.
    + rewrite S2, IH2. replace (S n - 1)%nat with n by lia. rewrite weighted, pow_last. ring.
    + rewrite S3, IH3. cbn [rsum]. ring.
Qed.
End AdamRun.
End History.

(** ** C46 over the real numbers: the norm after clipping *)
Section Clip.
Open Scope R_scope.
Notation item := (item Rnum).
(** the Euclidean norm of all the gradients together *)
Definition gnorm (xs : list item) : R :=
  sqrt (fold_right Rplus 0 (map (fun x : item => vsum (i_shape x) (fun c => (c_grad (i_c x) c : R) ^ 2)) xs)).
Lemma sq_sum_R xs : Forall (fun x : item => wf (i_shape x)) xs ->
  sq_sum (K := Rnum) xs = fold_right Rplus 0 (map (fun x : item => vsum (i_shape x) (fun c => (c_grad (i_c x) c : R) ^ 2)) xs).
Proof.
  intros HW. unfold sq_sum. assert (G : forall acc : R, fold_left (fun acc (x : item) => nadd Rnum acc (flat (K := Rnum) (i_shape x) (fun c => nmul Rnum (c_grad (i_c x) c) (c_grad (i_c x) c)))) xs acc =
    acc + fold_right Rplus 0 (map (fun x : item => vsum (i_shape x) (fun c => (c_grad (i_c x) c : R) ^ 2)) xs)).
  { induction HW as [|x xs Hx HW IH]; intros acc; cbn [fold_left map fold_right]; [cbn; ring|]. rewrite IH. cbn [nadd Rnum]. rewrite flat_vsum by auto.
    rewrite (@vsum_ext _ (fun c => (c_grad (i_c x) c : R) ^ 2) (fun c => nmul Rnum (c_grad (i_c x) c) (c_grad (i_c x) c))); [cbn; ring|auto|]. intros c _. cbn. ring. }
  rewrite G. cbn. ring.
Qed.
Lemma csum_nonneg e n : forall f, (forall c, 0 <= f c) -> 0 <= csum e n f.
Proof. induction n as [|n IH]; intros f H; cbn [csum]; [apply H|]. apply rsum_nonneg. intros j _. apply IH. intros c. apply H. Qed.
Lemma sq_nonneg (xs : list item) : 0 <= fold_right Rplus 0 (map (fun x : item => vsum (i_shape x) (fun c => (c_grad (i_c x) c : R) ^ 2)) xs).
Proof.
  induction xs as [|x xs IH]; cbn [map fold_right]; [lra|]. assert (0 <= vsum (i_shape x) (fun c => (c_grad (i_c x) c : R) ^ 2)); [|lra].
  apply csum_nonneg. intros c. apply pow2_ge_0.
Qed.
(** with a positive threshold every gradient is multiplied by the same factor, 1 if the norm is at most
    the threshold and threshold / norm otherwise, and the norm becomes min(threshold, norm) *)
Theorem C46_clipped_norm : forall (o : opt Rnum) xs, Forall (fun x : item => wf (i_shape x)) xs -> o_l2 o = 0 -> 0 < o_clip o ->
  let k := if Rlt_dec (o_clip o) (gnorm xs) then o_clip o / gnorm xs else 1 in
  gnorm (prepared o xs) = Rmin (o_clip o) (gnorm xs) /\
  Forall2 (fun x y : item => i_dev y = i_dev x /\ i_shape y = i_shape x /\ c_value (i_c y) = c_value (i_c x) /\ c_stat (i_c y) = c_stat (i_c x) /\
     forall c, @eq R (c_grad (i_c y) c) ((c_grad (i_c x) c : R) * k)) xs (prepared o xs).
Proof.
  intros o xs HW E0 HC k. unfold prepared. rewrite E0. cbn [nlt Rnum n0]. rewrite (Rltb_false (x := 0) (y := 0)) by lra. rewrite (Rltb_true HC). cbn [andb nmul nsqrt ndiv Rnum].
  set (q := sq_sum xs). assert (EQ : q = fold_right Rplus 0 (map (fun x : item => vsum (i_shape x) (fun c => (c_grad (i_c x) c : R) ^ 2)) xs)) by (apply sq_sum_R; auto).
  assert (GN : gnorm xs = sqrt q) by (unfold gnorm; rewrite EQ; reflexivity). pose proof (sq_nonneg xs) as Q0. rewrite <- EQ in Q0. clearbody q.
  change (F Rnum) with R in *. set (th := o_clip o) in * .
  assert (IFF : th * th < q <-> th < gnorm xs).
  { rewrite GN. split; intros H.
    - rewrite <- (sqrt_square th) by lra. apply sqrt_lt_1; nra.
    - pose proof (sqrt_sqrt q Q0). nra. }
  destruct (Rltb_spec (th * th) q) as [L|L].
  - assert (GL : th < gnorm xs) by tauto. unfold k. destruct (Rlt_dec th (gnorm xs)) as [_|]; [|tauto]. rewrite Rmin_left by lra. assert (GP : 0 < gnorm xs) by lra. split.
    + transitivity (sqrt ((th / sqrt q) ^ 2 * q)).
      * unfold gnorm. f_equal. set (r := th / sqrt q). clearbody r. rewrite EQ. clear. induction xs as [|x xs IH]; [cbn; ring|]. cbn [map fold_right].
        rewrite IH. rewrite Rmult_plus_distr_l. f_equal. unfold vsum. rewrite <- csum_scal. cbn [on rescaled with_grad i_shape i_c c_grad]. apply csum_ext. intros c _. cbn. ring.
      * rewrite <- GN. replace ((th / gnorm xs) ^ 2 * q) with (th * th); [apply sqrt_square; lra|].
        assert (QQ : q = gnorm xs * gnorm xs) by (rewrite GN; symmetry; apply sqrt_sqrt; auto). rewrite QQ at 1. field. lra.
    + rewrite GN. clear. induction xs as [|x xs IH]; [constructor|]; constructor; [ssplit; reflexivity|exact IH].
  - assert (GL : ~ th < gnorm xs) by tauto. unfold k. destruct (Rlt_dec th (gnorm xs)) as [|_]; [tauto|]. rewrite Rmin_right by lra. split; [reflexivity|].
    clear. induction xs as [|x xs IH]; [apply Forall2_nil|]. apply Forall2_cons; [|exact IH]. ssplit; auto. intros c. symmetry. apply Rmult_1_r.
Qed.
End Clip.

(** ** Concrete cases *)
(** two parameters with weight decay 2 and clipping at 10, over the integers: gradients become
    (1 + 2*1, 2 + 2*2) and 3 + 2*3; their squares sum up to 9 + 36 + 81 = 126 > 100; the factor is 10 / 11 = 0 *)
Definition pz1 : param Znum := @mkParam Znum (tz 0 [2]%N 1 [1; 2]%Z) (tz 0 [2]%N 1 [1; 2]%Z) [].
Definition pz2 : param Znum := @mkParam Znum (tz 0 []%N 1 [3]%Z) (tz 0 []%N 1 [3]%Z) [].
Definition cz (p : param Znum) : contents Znum := @mkC Znum (fun c => at_ (p_value p) c 0) (fun c => at_ (p_grad p) c 0) (fun _ => None).
Lemma tz_elems d ds (l : list Z) : succeeds (shape_new Debug ds 1) = true -> (batch (sh ds 1) * volume (sh ds 1) <=? 2147483648)%N = true -> (tot (sh ds 1) <=? length l) = true -> bat (sh ds 1) = 1 ->
  elems d (sh ds 1) (fun c => at_ (tz d ds 1 l) c 0) (tz d ds 1 l).
Proof.
  intros H1 H2 H3 HB. split; auto. split; [apply tz_ready; auto; reflexivity|]. split; [reflexivity|]. intros c b Hc Hb. replace b with 0 by lia. reflexivity.
Qed.
Lemma pz1_ok : is_param 0 (sh [2]%N 1) (cz pz1) pz1. Proof. split; [apply tz_elems; reflexivity|]. split; [apply tz_elems; reflexivity|]. intros n. cbn. auto. Qed.
Lemma pz2_ok : is_param 0 (sh []%N 1) (cz pz2) pz2. Proof. split; [apply tz_elems; reflexivity|]. split; [apply tz_elems; reflexivity|]. intros n. cbn. auto. Qed.
Definition xz : list (item Znum) := [@mkI Znum 0 (sh [2]%N 1) (cz pz1); @mkI Znum 0 (sh []%N 1) (cz pz2)].
Example C43_applies : forall m, let o := @mkOpt Znum 5 1%Z 0%Z 0%Z (SGD (K := Znum) 10%Z) in
  exists p1 p2, update_parameters m (fun _ _ _ => alz) o [pz1; pz2] = Ok (@mkOpt Znum 6 1%Z 0%Z 0%Z (SGD (K := Znum) 10%Z), [p1; p2]) /\
    at_ (p_value p1) (c2 1 0) 0 = (-18)%Z /\ at_ (p_grad p1) (c2 1 0) 0 = 0%Z /\ at_ (p_value p2) czero 0 = (-27)%Z.
Proof.
  intros m o. destruct (@C43_sgd Znum m (fun u v => Z.mul_comm u v) (fun _ _ _ => alz) o 10%Z xz [pz1; pz2]) as (ps' & E & AP); auto using alz_ok; try reflexivity.
  - constructor; [exact pz1_ok|]. constructor; [exact pz2_ok|constructor].
  - inversion AP as [|x1 p1 xs1 ps1 H1 AP1 EX1]; subst. inversion AP1 as [|x2 p2 xs2 ps2 H2 AP2]; subst. inversion AP2; subst. exists p1, p2. split; [exact E|].
    destruct H1 as (V1 & G1 & _). destruct H2 as (V2 & _). cbn [i_dev i_shape on i_c] in V1, G1, V2.
    assert (I1 : inb (sh [2]%N 1) (c2 1 0)). { intros i. pose proof (proj1 (sh_is [2%N] (b := 1%N) eq_refl eq_refl)) as W. destruct i as [|i]; [cbv; lia|]. pose proof (ext_pos (S i) W). destruct i; cbn [c2]; lia. }
    assert (I2 : inb (sh []%N 1) czero). { intros i. pose proof (proj1 (sh_is [] (b := 1%N) eq_refl eq_refl)) as W. pose proof (ext_pos i W). unfold czero. lia. }
    rewrite (elems_at V1 I1), (elems_at G1 I1), (elems_at V2 I2) by (cbv; lia). ssplit; reflexivity.
Qed.
Example C46_applies : forall m, let o := @mkOpt Znum 5 1%Z 2%Z 10%Z (SGD (K := Znum) 10%Z) in
  exists p1 p2, update_parameters m (fun _ _ _ => alz) o [pz1; pz2] = Ok (@mkOpt Znum 6 1%Z 2%Z 10%Z (SGD (K := Znum) 10%Z), [p1; p2]) /\
    at_ (p_value p1) (c2 1 0) 0 = 2%Z /\ at_ (p_value p2) czero 0 = 3%Z.
Proof.
  intros m o. destruct (@C46_update_parameters Znum m (fun u v => Z.mul_comm u v) (fun _ _ _ => alz) o xz [pz1; pz2]
    (map (on (fun x : contents Znum => no_grad (mkC (fun c => sgd_rule (K := Znum) 1%Z 10%Z (c_value x c) (c_grad x c)) (c_grad x) (c_stat x)))) (prepared o xz))) as (ps' & E & AP); auto using alz_ok; try reflexivity.
  - constructor; [exact pz1_ok|]. constructor; [exact pz2_ok|constructor].
  - unfold prepared. set (b := nlt Znum n0 (o_l2 o)). assert (EB : b = true) by reflexivity. rewrite EB. clear b EB. set (b := andb _ _). assert (EB : b = true) by reflexivity. rewrite EB. clear b EB.
    repeat (constructor; [split; [reflexivity|]; split; [reflexivity|]; eexists; split; [reflexivity|reflexivity]|]). constructor.
  - inversion AP as [|x1 p1 xs1 ps1 H1 AP1 EX1]; subst. inversion AP1 as [|x2 p2 xs2 ps2 H2 AP2]; subst. inversion AP2; subst. exists p1, p2. split; [exact E|].
    destruct H1 as (V1 & G1 & _). destruct H2 as (V2 & _). cbn [i_dev i_shape on i_c] in V1, G1, V2.
    assert (I1 : inb (sh [2]%N 1) (c2 1 0)). { intros i. pose proof (proj1 (sh_is [2%N] (b := 1%N) eq_refl eq_refl)) as W. destruct i as [|i]; [cbv; lia|]. pose proof (ext_pos (S i) W). destruct i; cbn [c2]; lia. }
    assert (I2 : inb (sh []%N 1) czero). { intros i. pose proof (proj1 (sh_is [] (b := 1%N) eq_refl eq_refl)) as W. pose proof (ext_pos i W). unfold czero. lia. }
    rewrite (elems_at V1 I1), (elems_at V2 I2) by (cbv; lia). ssplit; reflexivity.
Qed.
(** a configured parameter of reals goes through a run of one step of every optimizer *)
Section RunExists.
Open Scope R_scope.
Definition pr0 : param Rnum := @mkParam Rnum (tr 0 [2]%N 1 [1; 2]) (tr 0 [2]%N 1 [3; 4])
  [("MomentumSGD.m"%string, tr 0 [2]%N 1 [0; 0]); ("Adam.m1"%string, tr 0 [2]%N 1 [0; 0]); ("Adam.m2"%string, tr 0 [2]%N 1 [0; 0])].
Lemma pr0_good (a : algo Rnum) : good 0 (sh [2]%N 1) (needed a) pr0.
Proof.
  assert (W : forall u v, whole 0 (sh [2%N] 1) (tr 0 [2]%N 1 [u; v])) by (intros; split; [reflexivity|]; split; [rdyr|reflexivity]).
  split; [apply W|]. split; [apply W|]. split.
  - intros n t E. cbn [st_get pr0 p_stats] in E. destruct (String.eqb _ n); [inversion E; apply W|]. destruct (String.eqb _ n); [inversion E; apply W|]. destruct (String.eqb _ n); [inversion E; apply W|discriminate].
  - destruct a; cbn [needed]; repeat constructor; discriminate.
Qed.
Theorem C44_C45_runs_exist : forall m a, exists ps qs, run m a 1 [(0%nat, sh [2]%N 1)] (fun n => @mkOpt Rnum (N.of_nat n) 1 0 0 a) ps qs /\ ps 0%nat = [pr0] /\ qs 0%nat = [pr0].
Proof.
  intros m a. set (o := @mkOpt Rnum 0%N 1 0 0 a). pose proof (pr0_good a) as G. pose proof (view_ok G) as V.
  assert (Z : exists z, stepped a 1 1%N (view pr0) = Some z) by (destruct a; cbn; eauto). destruct Z as (z & Ez).
  destruct (@C46_update_parameters Rnum m Rnum_commutes (fun _ _ _ => alr) o [mkI 0 (sh [2]%N 1) (view pr0)] [pr0] [mkI 0 (sh [2]%N 1) (no_grad z)]) as (ps' & E & AP); auto using alr_ok; try reflexivity.
  - constructor; [exact V|constructor].
  - unfold prepared. cbn [o_l2 o_clip o nlt Rnum n0]. rewrite Rltb_false by lra. constructor; [|constructor]. split; [reflexivity|]. split; [reflexivity|]. exists z. split; [exact Ez|reflexivity].
  - exists (fun n => match n with O => [pr0] | S _ => ps' end), (fun n => [pr0]). split; [|split; reflexivity]. apply mkRun.
    + reflexivity.
    + intros n. split; reflexivity.
    + intros n _. constructor; [exact G|constructor].
    + intros n Hn. assert (n = 0%nat) by lia. subst. constructor; [split; reflexivity|constructor].
    + reflexivity.
    + reflexivity.
    + intros n Hn. assert (n = 0%nat) by lia. subst. exists (fun _ _ _ => alr). eexists. split; [intros; apply alr_ok|]. exact E.
Qed.
End RunExists.
