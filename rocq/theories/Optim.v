(** * Optim: parameters and optimizers
    (prima_undine/src/parameter.rs, optimizer.rs, optimizers.rs, optimizers/*.rs) *)
From Verif Require Export BwSem.
Set Implicit Arguments.
Unset Strict Implicit.

Section Optim.
Variable K : num.
Notation F := (F K).
Notation tensor := (tensor K).
Notation "x +. y" := (nadd K x y) (at level 50, left associativity).
Notation "x -. y" := (nsub K x y) (at level 50, left associativity).
Notation "x *. y" := (nmul K x y) (at level 40, left associativity).
Notation "x /. y" := (ndiv K x y) (at level 40, left associativity).

(** parameter.rs L10-14. The statistics are a map from names to tensors; the list has
    at most one entry per name. *)
Record param := mkParam { p_value : tensor; p_grad : tensor; p_stats : list (string * tensor) }.
Fixpoint st_get (name : string) (l : list (string * tensor)) : option tensor :=
  match l with [] => None | (n, t) :: l' => if String.eqb n name then Some t else st_get name l' end.
Fixpoint st_set (name : string) (t : tensor) (l : list (string * tensor)) : list (string * tensor) :=
  match l with [] => [(name, t)] | (n, t0) :: l' => if String.eqb n name then (n, t) :: l' else (n, t0) :: st_set name t l' end.

Variable m : build.
(** parameter.rs L17-25 *)
Definition param_new (value gradient : tensor) : res param :=
  _ <- assert (batch (t_shape value) =? 1)%N ;; _ <- assert (batch (t_shape gradient) =? 1)%N ;; Ok (mkParam value gradient []).
(** parameter.rs L39-41 *)
Definition reset_gradient (p : param) : res param := g <- reset m (p_grad p) n0 ;; Ok (mkParam (p_value p) g (p_stats p)).
(** parameter.rs L49-51 *)
Definition has_stat (p : param) (name : string) : bool := match st_get name (p_stats p) with Some _ => true | None => false end.
(** parameter.rs L43-47 *)
Definition add_stat (al : alloc_oracle K) (p : param) (name : string) (s : shape) : res param :=
  _ <- assert (negb (has_stat p name)) ;;
  d <- device_of (p_value p) ;;
  t <- new_tensor_by_constant m d al s n0 ;;
  Ok (mkParam (p_value p) (p_grad p) (st_set name t (p_stats p))).

(** optimizers.rs L2-21, with the attributes of sgd.rs L4, momentum_sgd.rs L4, adam.rs L5 *)
Inductive algo := SGD (eta : F) | Momentum (eta momentum : F) | Adam (alpha beta1 beta2 eps : F).
Record opt := mkOpt { o_epoch : N; o_scale : F; o_l2 : F; o_clip : F; o_algo : algo }.
Definition opt_new (a : algo) : opt := mkOpt 0 n1 n0 n0 a.
(** optimizers.rs L32-35, L41-44, L50-53 *)
Definition set_learning_rate_scaling (o : opt) (x : F) : res opt :=
  _ <- assert (nle K n0 x) ;; Ok (mkOpt (o_epoch o) x (o_l2 o) (o_clip o) (o_algo o)).
Definition set_weight_decay (o : opt) (x : F) : res opt :=
  _ <- assert (nle K n0 x) ;; Ok (mkOpt (o_epoch o) (o_scale o) x (o_clip o) (o_algo o)).
Definition set_gradient_clipping (o : opt) (x : F) : res opt :=
  _ <- assert (nle K n0 x) ;; Ok (mkOpt (o_epoch o) (o_scale o) (o_l2 o) x (o_algo o)).

(** add_stat unless present; adam.rs L8-13, momentum_sgd.rs L7-10 *)
Definition ensure (al : alloc_oracle K) (name : string) (p : param) : res param :=
  if has_stat p name then Ok p else add_stat al p name (t_shape (p_value p)).
(** sgd.rs L6, momentum_sgd.rs L6-10, adam.rs L7-14 *)
Definition configure_parameter (als : nat -> alloc_oracle K) (o : opt) (p : param) : res param :=
  match o_algo o with
  | SGD _ => Ok p
  | Momentum _ _ => ensure (als 0) "MomentumSGD.m" p
  | Adam _ _ _ _ => p1 <- ensure (als 0) "Adam.m1" p ;; ensure (als 1) "Adam.m2" p1
  end.
(** sgd.rs L7-10 *)
Definition update_sgd (als : nat -> alloc_oracle K) (scale eta : F) (p : param) : res param :=
  diff <- t_const_mul m (als 0) (scale *. eta) (p_grad p) ;;
  v <- t_sub_assign m (p_value p) diff ;;
  Ok (mkParam v (p_grad p) (p_stats p)).
(** momentum_sgd.rs L12-18 *)
Definition update_momentum (als : nat -> alloc_oracle K) (scale eta momentum : F) (p : param) : res param :=
  mdiff <- t_const_mul m (als 0) (scale *. eta) (p_grad p) ;;
  m0 <- unwrap (st_get "MomentumSGD.m" (p_stats p)) ;;
  m1 <- t_mul_assign m m0 momentum ;;
  m2 <- t_sub_assign m m1 mdiff ;;
  v <- t_add_assign m (p_value p) m2 ;;
  Ok (mkParam v (p_grad p) (st_set "MomentumSGD.m" m2 (p_stats p))).
(** adam.rs L16-28 *)
Definition update_adam (als : nat -> alloc_oracle K) (ep : N) (scale alpha beta1 beta2 eps : F) (p : param) : res param :=
  e1 <- add32 m ep 1 ;;
  let epoch := nofZ K (Z.of_N e1) in
  let g := p_grad p in
  a0 <- unwrap (st_get "Adam.m1" (p_stats p)) ;;
  b0 <- unwrap (st_get "Adam.m2" (p_stats p)) ;;
  a1 <- t_mul_assign m a0 beta1 ;;
  t1 <- t_const_mul m (als 0) (n1 -. beta1) g ;;
  a2 <- t_add_assign m a1 t1 ;;
  b1 <- t_mul_assign m b0 beta2 ;;
  t2 <- t_const_mul m (als 1) (n1 -. beta2) g ;;
  t3 <- t_mul m (als 2) t2 g ;;
  b2 <- t_add_assign m b1 t3 ;;
  mm1 <- t_div_const m (als 3) a2 (n1 -. npowf K beta1 epoch) ;;
  mm2 <- t_div_const m (als 4) b2 (n1 -. npowf K beta2 epoch) ;;
  u1 <- t_const_mul m (als 5) (scale *. alpha) mm1 ;;
  u2 <- t_sqrt m (als 6) mm2 ;;
  u3 <- t_add_const m (als 7) u2 eps ;;
  u4 <- t_div m (als 8) u1 u3 ;;
  v <- t_sub_assign m (p_value p) u4 ;;
  Ok (mkParam v g (st_set "Adam.m2" b2 (st_set "Adam.m1" a2 (p_stats p)))).
Definition update_parameter (als : nat -> alloc_oracle K) (o : opt) (scale : F) (p : param) : res param :=
  match o_algo o with
  | SGD eta => update_sgd als scale eta p
  | Momentum eta mu => update_momentum als scale eta mu p
  | Adam alpha b1 b2 eps => update_adam als (o_epoch o) scale alpha b1 b2 eps p
  end.

(** a loop over the parameters; [als i k]: allocator for the k-th temporary of parameter i *)
Fixpoint each A B (f : nat -> A -> res B) (i : nat) (l : list A) : res (list B) :=
  match l with [] => Ok [] | x :: l' => y <- f i x ;; ys <- each f (S i) l' ;; Ok (y :: ys) end.
(** optimizer.rs L17-21 *)
Definition configure_parameters (als : nat -> nat -> alloc_oracle K) (o : opt) (ps : list param) : res (list param) :=
  each (fun i p => configure_parameter (als i) o p) 0 ps.
(** optimizer.rs L26-27 *)
Definition decay (al : alloc_oracle K) (l2 : F) (p : param) : res param :=
  diff <- t_const_mul m al l2 (p_value p) ;;
  g <- t_add_assign m (p_grad p) diff ;;
  Ok (mkParam (p_value p) g (p_stats p)).
(** optimizer.rs L34-35 *)
Definition sq_norm_of (als : nat -> alloc_oracle K) (p : param) : res F :=
  let g := p_grad p in
  q <- t_mul m (als 0) g g ;; f <- t_flatten m (als 1) q ;; s <- t_sum m (als 2) f 0%N ;; to_float m s.
Fixpoint sq_norm (als : nat -> nat -> alloc_oracle K) (i : nat) (acc : F) (ps : list param) : res F :=
  match ps with [] => Ok acc | p :: ps' => v <- sq_norm_of (als i) p ;; sq_norm als (S i) (acc +. v) ps' end.
(** optimizer.rs L40 *)
Definition rescale (k : F) (p : param) : res param := g <- t_mul_assign m (p_grad p) k ;; Ok (mkParam (p_value p) g (p_stats p)).
(** optimizer.rs L22-49 *)
Definition update_parameters (als : nat -> nat -> nat -> alloc_oracle K) (o : opt) (ps : list param) : res (opt * list param) :=
  ps1 <- (if ngt (o_l2 o) n0 then each (fun i p => decay (als 0 i 0) (o_l2 o) p) 0 ps else Ok ps) ;;
  ps2 <- (if ngt (o_clip o) n0 then
            q <- sq_norm (als 1) 0 n0 ps1 ;;
            if ngt q (o_clip o *. o_clip o) then each (fun _ p => rescale (o_clip o /. nsqrt K q) p) 0 ps1 else Ok ps1
          else Ok ps1) ;;
  ps3 <- each (fun i p => p1 <- update_parameter (als 2 i) o (o_scale o) p ;; reset_gradient p1) 0 ps2 ;;
  e <- add32 m (o_epoch o) 1 ;;
  Ok (mkOpt e (o_scale o) (o_l2 o) (o_clip o) (o_algo o), ps3).

(** ** What the functions compute, element by element *)
(** a tensor of batch 1 and its elements *)
Definition elems (d : nat) (s : shape) (f : (nat -> nat) -> F) (t : tensor) : Prop := bat s = 1 /\ is_tensor d s (fun c _ => f c) t.
Definition gives (r : res tensor) d s f : Prop := exists t, r = Ok t /\ elems d s f t.
Lemma elems_ready d s f t : elems d s f t -> ready d t. Proof. intros (_ & H & _). exact H. Qed.
Lemma elems_shape d s f t : elems d s f t -> t_shape t = s. Proof. intros (_ & _ & H & _). exact H. Qed.
Lemma elems_ext d s f g t : elems d s f t -> (forall c, inb s c -> f c = g c) -> elems d s g t.
Proof. intros (B & R & S & V) H. split; auto. split; auto. split; auto. intros c b Hc Hb. rewrite V; auto. Qed.
Lemma gives_ext r d s f g : gives r d s f -> (forall c, inb s c -> f c = g c) -> gives r d s g.
Proof. intros (t & E & H) HG. exists t. split; auto. eapply elems_ext; eauto. Qed.
Lemma elems_at d s f t c b : elems d s f t -> inb s c -> b < bat s -> at_ t c b = f c.
Proof. intros (_ & _ & _ & V) Hc Hb. apply V; auto. Qed.
Lemma gives_of r d s f : bat s = 1 -> yields r d s (fun c _ => f c) -> gives r d s f.
Proof. intros B (t & E & H). exists t. split; auto. split; auto. Qed.
Section Facts.
Variable d : nat.
Variable s : shape.
Hypothesis HC : commutes K.

Lemma maps_gives r op x f : elems d s f x -> yields r d (t_shape x) (fun c b => op (at_ x c b)) -> gives r d s (fun c => op (f c)).
Proof.
  intros HX HY. pose proof (elems_shape HX) as ES. rewrite ES in HY. apply gives_of; [apply HX|]. eapply yields_ext; [exact HY|]. intros c b Hc Hb. cbv beta.
  f_equal. eapply elems_at; eauto.
Qed.
Lemma const_mul_gives al k x f : al_ok al -> elems d s f x -> gives (t_const_mul m al k x) d s (fun c => f c *. k).
Proof.
  intros HA HX. pose proof (elems_ready HX) as HR. eapply (@maps_gives _ (fun v => v *. k)); [exact HX|]. unfold t_const_mul, const_l. rewrite (ready_device_of HR). cbn [bind].
  apply (@maps_c K m _ _ (eq_refl : assoc (fw_registry K m) "mul_const_fw_impl" = Some (fxc (k_fw_const m (e_mul_const K))))); auto.
Qed.
Lemma div_const_gives al k x f : al_ok al -> elems d s f x -> gives (t_div_const m al x k) d s (fun c => f c /. k).
Proof.
  intros HA HX. pose proof (elems_ready HX) as HR. eapply (@maps_gives _ (fun v => v /. k)); [exact HX|]. unfold t_div_const, const_r. rewrite (ready_device_of HR). cbn [bind].
  apply (@maps_c K m _ _ (eq_refl : assoc (fw_registry K m) "div_const_r_fw_impl" = Some (fxc (k_fw_const m (e_div_const_r K))))); auto.
Qed.
Lemma add_const_gives al k x f : al_ok al -> elems d s f x -> gives (t_add_const m al x k) d s (fun c => f c +. k).
Proof.
  intros HA HX. pose proof (elems_ready HX) as HR. eapply (@maps_gives _ (fun v => v +. k)); [exact HX|]. unfold t_add_const, const_r. rewrite (ready_device_of HR). cbn [bind].
  apply (@maps_c K m _ _ (eq_refl : assoc (fw_registry K m) "add_const_fw_impl" = Some (fxc (k_fw_const m (e_add_const K))))); auto.
Qed.
Lemma sqrt_gives al x f : al_ok al -> elems d s f x -> gives (t_sqrt m al x) d s (fun c => nsqrt K (f c)).
Proof.
  intros HA HX. pose proof (elems_ready HX) as HR. eapply (@maps_gives _ (nsqrt K)); [exact HX|]. unfold t_sqrt, via1. rewrite (ready_device_of HR). cbn [bind].
  apply (@maps_x K m _ _ (eq_refl : assoc (fw_registry K m) "sqrt_fw_impl" = Some (fx (k_fw_x m (e_sqrt K))))); auto.
Qed.
Lemma bin_self x y f g : elems d s f x -> elems d s g y -> bin_ok (t_shape x) (t_shape y) s /\ fits s.
Proof.
  intros HX HY. pose proof (elems_ready HX) as HR. rewrite (elems_shape HX), (elems_shape HY). pose proof (ready_fits HR) as HF. rewrite (elems_shape HX) in HF.
  split; auto. apply bin_ok_same. apply HF.
Qed.
Lemma opnd_elems x f c n : elems d s f x -> inb s c -> n < bat s -> opnd x c n = f c.
Proof.
  intros HX Hc Hn. pose proof (elems_shape HX) as ES. rewrite (opnd_same (d:=d)); [eapply elems_at; eauto|apply (elems_ready HX)|rewrite ES; auto|rewrite ES; auto].
Qed.
Lemma mul_gives al x y f g : al_ok al -> elems d s f x -> elems d s g y -> gives (t_mul m al x y) d s (fun c => f c *. g c).
Proof.
  intros HA HX HY. destruct (bin_self HX HY) as (HB & HF). apply gives_of; [apply HX|].
  eapply yields_ext; [apply t_mul_yields; [exact HA|apply (elems_ready HX)|apply (elems_ready HY)|exact HB|exact HF]|].
  intros c n Hc Hn. cbv beta. rewrite !(opnd_elems HX Hc Hn), !(opnd_elems HY Hc Hn). destruct (is_scalar _); auto.
Qed.
Lemma div_gives al x y f g : al_ok al -> elems d s f x -> elems d s g y -> gives (t_div m al x y) d s (fun c => f c /. g c).
Proof.
  intros HA HX HY. destruct (bin_self HX HY) as (HB & HF). apply gives_of; [apply HX|].
  eapply yields_ext; [apply t_div_yields; [exact HA|apply (elems_ready HX)|apply (elems_ready HY)|exact HB|exact HF]|].
  intros c n Hc Hn. cbv beta. rewrite !(opnd_elems HX Hc Hn), !(opnd_elems HY Hc Hn). auto.
Qed.
Lemma writes_gives (r : res tensor) (y : tensor) h f g : elems d s f y -> writes r y h -> (forall c, inb s c -> h c 0 = g c) -> gives r d s g.
Proof.
  intros HY HW HG. pose proof (elems_shape HY) as ES. apply gives_of; [apply HY|]. rewrite <- ES. eapply writes_yields; [apply (elems_ready HY)|].
  eapply writes_ext; [exact HW|]. intros c b Hc Hb. rewrite ES in Hc, Hb. destruct HY as (B & _). replace b with 0 by lia. auto.
Qed.
Lemma assign_ok_self x y f g : elems d s f x -> elems d s g y -> assign_ok x y.
Proof. intros HX HY. split; rewrite (elems_shape HX), (elems_shape HY); auto. Qed.
Lemma acc_one (h : nat -> F -> F) v : bat s = 1 -> acc_batches K s (Nat.max (bat s) (bat s)) 0 h v = h 0 v.
Proof. intros B. apply acc_batches_id; lia. Qed.
Lemma add_assign_gives x y f g : elems d s f x -> elems d s g y -> gives (t_add_assign m y x) d s (fun c => g c +. f c).
Proof.
  intros HX HY. pose proof (proj1 HX) as B. eapply writes_gives; [exact HY|eapply add_assign_writes; [apply (elems_ready HX)|apply (elems_ready HY)|eapply assign_ok_self; eauto]|].
  intros c Hc. cbv beta. rewrite (elems_shape HX), (elems_shape HY), acc_one by auto. unfold bsel. rewrite B. cbn [Nat.eqb].
  rewrite (elems_at HX Hc), (elems_at HY Hc) by lia. auto.
Qed.
Lemma sub_assign_gives x y f g : elems d s f x -> elems d s g y -> gives (t_sub_assign m y x) d s (fun c => g c -. f c).
Proof.
  intros HX HY. pose proof (proj1 HX) as B. eapply writes_gives; [exact HY|eapply sub_assign_writes; [apply (elems_ready HX)|apply (elems_ready HY)|eapply assign_ok_self; eauto]|].
  intros c Hc. cbv beta. rewrite (elems_shape HX), (elems_shape HY), acc_one by auto. unfold bsel. rewrite B. cbn [Nat.eqb].
  rewrite (elems_at HX Hc), (elems_at HY Hc) by lia. auto.
Qed.
Lemma mul_assign_gives y g k : elems d s g y -> gives (t_mul_assign m y k) d s (fun c => g c *. k).
Proof.
  intros HY. pose proof (proj1 HY) as B. eapply writes_gives; [exact HY|eapply mul_assign_writes; apply (elems_ready HY)|]. intros c Hc. cbv beta. rewrite (elems_at HY Hc) by lia. auto.
Qed.
Lemma reset_gives y g k : elems d s g y -> gives (reset m y k) d s (fun _ => k).
Proof.
  intros HY. pose proof (elems_ready HY) as HR. eapply writes_gives; [exact HY|eapply writes_of_updates; [apply (ready_wf HR)|eapply reset_updates; eauto|]|].
  - intros c b _ _. instantiate (1 := fun _ _ => k). reflexivity.
  - reflexivity.
Qed.
End Facts.
End Optim.
