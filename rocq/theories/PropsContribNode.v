(** * PropsContribNode: C52 and C53 for graph nodes *)
From Verif Require Import NodeFacts Typed Create BwSem.
From Verif Require Export NodeContrib PropsContrib PropsOps.
Set Implicit Arguments.
Unset Strict Implicit.
Close Scope R_scope.
Open Scope nat_scope.

Section Nodes.
Variable K : num.
Notation F := (F K).
Notation tensor := (tensor K).
Notation "x +. y" := (nadd K x y) (at level 50, left associativity).
Notation "x -. y" := (nsub K x y) (at level 50, left associativity).
Notation "x *. y" := (nmul K x y) (at level 40, left associativity).
Notation "x /. y" := (ndiv K x y) (at level 40, left associativity).
Variable m : build.
Notation itp := (@interp K m).
Notation graph := (graph K (oper K)).
Notation node := (nat * nat)%type.
Notation buffers := (buffers K).

(** ** Specification: the node a function creates, read with [to_vec], holds [f] *)
Definition node_holds (pop : heap) (r : res (graph * node)) (s : shape) (f : (nat -> nat) -> nat -> F) : Prop :=
  exists l, reads m pop r l /\ length l = tot s /\ forall c b, inb s c -> b < bat s -> nth (pos s c b) l n0 = f c b.
(** a node of a graph holds [f]: its expression evaluates to a tensor with those contents *)
Definition stands (g : graph) (n : node) (d : nat) (s : shape) (f : (nat -> nat) -> nat -> F) : Prop :=
  exists t, eval_node itp g n = Ok t /\ is_tensor d s f t.

(** ** steps *)
Definition steps (g : graph) (r : res (graph * node)) (d : nat) (s : shape) (f : (nat -> nat) -> nat -> F) : Prop :=
  exists g' n, r = Ok (g', n) /\ clean itp g' /\ extends g g' /\ fst n < length (g_ops g') /\ stands g' n d s f.
Lemma stands_kept g g' n d s f : clean itp g -> extends g g' -> stands g n d s f -> stands g' n d s f.
Proof. intros HC X (t & E & H). exists t. split; auto. eapply kept; eauto. Qed.
Lemma kept_all g g' xs vs : clean itp g -> extends g g' -> Forall2 (fun x v => eval_node itp g x = Ok v) xs vs -> Forall2 (fun x v => eval_node itp g' x = Ok v) xs vs.
Proof. intros HC X H. induction H; constructor; auto. eapply kept; eauto. Qed.
Lemma stands_shape g n d s f : clean itp g -> stands g n d s f -> n_shape g n = Ok s.
Proof.
  intros HC (t & E & H). destruct (clean_inv (@interp_lawful K m) HC) as (W & _). destruct (eval_shape (@interp_lawful K m) W E) as (w & EW & SW & _).
  unfold n_shape. rewrite EW. cbn [bind]. rewrite SW, (is_tensor_shape H). reflexivity.
Qed.
Lemma stands_device g n d s f : clean itp g -> stands g n d s f -> device_at itp g n = Ok d.
Proof. intros HC (t & E & H). eapply eval_device; [apply interp_lawful|apply (clean_history HC)|exact E|apply H]. Qed.
Lemma to_vec_contents d s f (t : tensor) : is_tensor d s f t -> exists l, to_vec m t = Ok l /\ length l = tot s /\ forall c b, inb s c -> b < bat s -> nth (pos s c b) l n0 = f c b.
Proof.
  intros H. pose proof (is_tensor_ready H) as R. pose proof (is_tensor_shape H) as S. exists (firstn (tot (t_shape t)) (buf t)). split; [apply (to_vec_Ok m R)|].
  pose proof (ready_len R) as L. rewrite S in * . split; [rewrite firstn_length; lia|]. intros c b Hc Hb. pose proof (ready_wf R) as W. rewrite S in W.
  pose proof (@pos_lt s c b W Hc Hb) as P. rewrite nth_firstn_lt by auto. rewrite <- (is_tensor_at H Hc Hb). rewrite at_buf, S. reflexivity.
Qed.
Lemma steps_holds pop g r d s f : min_heap pop -> steps g r d s f -> node_holds pop r s f.
Proof.
  intros HP (g' & n & E & C & X & L & t & EV & H). destruct (to_vec_contents H) as (l & El & A). exists l. split; [|exact A]. exists g', n. split; [exact E|].
  apply (C35_to_vec m (@interp_lawful K m) l C HP L). exists t. auto.
Qed.
Lemma steps_bind g r d s f (k : graph -> node -> res (graph * node)) d' s' f' : clean itp g -> steps g r d s f ->
  (forall g' n, clean itp g' -> extends g g' -> stands g' n d s f -> steps g' (k g' n) d' s' f') ->
  steps g (' (g', n) <- r ;; k g' n) d' s' f'.
Proof.
  intros HC (g' & n & E & C & X & L & S) HK. rewrite E. cbn [bind]. destruct (HK g' n C X S) as (g2 & n2 & E2 & C2 & X2 & L2 & S2). exists g2, n2. split; [exact E2|]. split; [auto|]. split; [eapply extends_trans; eauto|]. auto.
Qed.
Lemma steps_ext g r d s f h : steps g r d s f -> (forall c b, inb s c -> b < bat s -> f c b = h c b) -> steps g r d s h.
Proof. intros (g' & n & E & C & X & L & t & EV & H) HE. exists g', n. split; [auto|]. split; [auto|]. split; [auto|]. split; [auto|]. exists t. split; auto. eapply is_tensor_ext; eauto. Qed.
Lemma step1 k tf g bs x d s f d' s' f' : is_leaf k = false -> is_split k = false -> (forall fal, method1 m fal k = Some (tf fal)) ->
  clean itp g -> (forall i, al_ok (fst bs i)) -> stands g x d s f -> (forall t, is_tensor d s f t -> yields (tf (fst bs) t) d' s' f') ->
  steps g (n_op1 m k g bs x) d' s' f'.
Proof.
  intros HL HS HM HC HA (v & EX & HV) HT. destruct (HT v HV) as (y & Ey & HY).
  destruct (@op1_step K m k tf g bs x v d y HL HS HM HC HA EX (is_tensor_ready HV) Ey) as (g' & n & E & EV & C & X & L). exists g', n. split; [auto|]. split; [auto|]. split; [auto|]. split; [auto|]. exists y. auto.
Qed.
Lemma op2_step k tf g bs a b va vb d y : (forall fal, method2 m fal k = Some (tf fal)) -> (forall fal, exists sc, method_sc m fal k = Some sc /\ forall a b, is_scalar (t_shape a) = true -> tf fal a b = sc a b) ->
  is_leaf k = false -> is_split k = false -> is_leaf (scalar_l k) = false -> is_split (scalar_l k) = false ->
  clean itp g -> (forall i, al_ok (fst bs i)) -> eval_node itp g a = Ok va -> ready d va -> eval_node itp g b = Ok vb -> ready d vb -> is_scalar (t_shape va) = is_scalar (t_shape vb) ->
  tf (fst bs) va vb = Ok y ->
  exists g' n, n_op2 m k (scalar_l k) (scalar_r k) g bs a b = Ok (g', n) /\ eval_node itp g' n = Ok y /\ clean itp g' /\ extends g g' /\ fst n < length (g_ops g').
Proof.
  intros HM HSC HL HS HL' HS' HC HA EA HRa EB HRb HSS EY. assert (HD : t_dev va = Some d) by apply HRa.
  destruct (clean_inv (@interp_lawful K m) HC) as (W & _). destruct (eval_shape (@interp_lawful K m) W EA) as (wa & EWa & SWa & _). destruct (eval_shape (@interp_lawful K m) W EB) as (wb & EWb & SWb & _).
  unfold n_op2. rewrite EWa, EWb. cbn [bind]. rewrite SWa, SWb. destruct (is_scalar (t_shape va)) eqn:Sa.
  - destruct (HSC (fst bs)) as (sc & EM & EQ). rewrite (EQ va vb Sa) in EY.
    assert (H1 : forall rs, forward_shape m (scalar_l k) (map (@t_shape K) [vb; va]) = Ok rs -> length rs = 1) by (intros rs; apply single_output; auto).
    apply (@scalar_mirror K m (fst bs) k sc d va vb y EM HRa HRb Sa (eq_sym HSS)) in EY. apply (one_node bs y HC (valued2 EB EA) EA HD HL' H1) in EY. destruct EY as (g' & n & E & EV).
    exists g', n. split; [exact E|]. split; [auto|]. exact (one_node_graph HC (valued2 EB EA) EA HD HL' H1 E).
  - rewrite <- HSS. cbn [bind].
    assert (H1 : forall rs, forward_shape m k (map (@t_shape K) [va; vb]) = Ok rs -> length rs = 1) by (intros rs; apply single_output; auto).
    apply (@method2_mirror K m (fst bs) k _ d va vb y HA (HM _) HRa HRb Sa (eq_sym HSS)) in EY. apply (one_node bs y HC (valued2 EA EB) EA HD HL H1) in EY. destruct EY as (g' & n & E & EV).
    exists g', n. split; [exact E|]. split; [auto|]. exact (one_node_graph HC (valued2 EA EB) EA HD HL H1 E).
Qed.
(** the four arithmetic operators *)
Definition n_arith (op : F -> F -> F) (nf : graph -> buffers -> node -> node -> res (graph * node)) : Prop :=
  forall g bs a b d sa fa sb fb s, clean itp g -> (forall i, al_ok (fst bs i)) -> stands g a d sa fa -> stands g b d sb fb -> is_scalar sa = is_scalar sb -> bin_ok sa sb s -> fits s ->
  steps g (nf g bs a b) d s (fun c n => op (vof sa fa c n) (vof sb fb c n)).
Lemma arith k op tf : operator tf op -> (forall fal, method2 m fal k = Some (tf (fal 0))) -> (forall fal, exists sc, method_sc m fal k = Some sc /\ forall a b, is_scalar (t_shape a) = true -> tf (fal 0) a b = sc a b) ->
  is_leaf k = false -> is_split k = false -> is_leaf (scalar_l k) = false -> is_split (scalar_l k) = false -> n_arith op (n_op2 m k (scalar_l k) (scalar_r k)).
Proof.
  intros HO HM HSC HL HS HL' HS' g bs a b d sa fa sb fb s HC HA (va & EA & TA) (vb & EB & TB) HSS HB HF.
  destruct (@op_contents K op tf d (fst bs 0) va vb s sa fa sb fb HO (HA 0) TA TB HB HF) as (y & Ey & TY).
  destruct (@op2_step k (fun fal => tf (fal 0)) g bs a b va vb d y) as (g' & n & E & EV & C & X & L); auto.
  - apply (is_tensor_ready TA). - apply (is_tensor_ready TB). - rewrite (is_tensor_shape TA), (is_tensor_shape TB); auto.
  - exists g', n. split; [auto|]. split; [auto|]. split; [auto|]. split; [auto|]. exists y. auto.
Qed.
Hypothesis HCm : commutative K.
Ltac ar k op := apply (@arith k _ _ op); try reflexivity; intros fal; eexists; split; [reflexivity|]; intros a b H; unfold t_add, t_sub, t_mul, t_div, define_ab_op; rewrite H; reflexivity.
Lemma s_add : n_arith (nadd K) (n_add m). Proof. ar (@KAdd K) (@op_add K m HCm). Qed.
Lemma s_sub : n_arith (nsub K) (n_sub m). Proof. ar (@KSub K) (@op_sub K m). Qed.
Lemma s_mul : n_arith (nmul K) (n_mul m). Proof. ar (@KMul K) (@op_mul K m HCm). Qed.
Lemma s_div : n_arith (ndiv K) (n_div m). Proof. ar (@KDiv K) (@op_div K m). Qed.
(** constants, square root *)
Lemma s_mul_const g bs x d s f k : clean itp g -> (forall i, al_ok (fst bs i)) -> stands g x d s f -> steps g (n_mul_const m k g bs x) d s (fun c n => f c n *. k).
Proof. intros HC HA HX. eapply (@step1 (KMulConst k) (fun al x => t_mul_const m (al 0) x k)); eauto. intros t HT. apply (@const_contents K (fun x k => x *. k) (fun al x k => t_mul_const m al x k)); auto. destruct (C17_methods K m) as (_&_&_&_&_&_&_&_&_&_&_&_&_&_&_&_&_&H&_). exact H. Qed.
Lemma s_add_const g bs x d s f k : clean itp g -> (forall i, al_ok (fst bs i)) -> stands g x d s f -> steps g (n_add_const m k g bs x) d s (fun c n => f c n +. k).
Proof. intros HC HA HX. eapply (@step1 (KAddConst k) (fun al x => t_add_const m (al 0) x k)); eauto. intros t HT. apply (const_contents k (@mc_add K m) (HA 0) HT). Qed.
Lemma s_div_const g bs x d s f k : clean itp g -> (forall i, al_ok (fst bs i)) -> stands g x d s f -> steps g (n_div_const m k g bs x) d s (fun c n => f c n /. k).
Proof. intros HC HA HX. eapply (@step1 (KDivConstR k) (fun al x => t_div_const m (al 0) x k)); eauto. intros t HT. apply (const_contents k (@mc_div K m) (HA 0) HT). Qed.
Lemma s_sqrt g bs x d s f : clean itp g -> (forall i, al_ok (fst bs i)) -> stands g x d s f -> steps g (n_sqrt m g bs x) d s (fun c n => nsqrt K (f c n)).
Proof. intros HC HA HX. eapply (@step1 KSqrt (fun al x => t_sqrt m (al 0) x)); eauto. intros t HT. apply (map_contents (@mx_sqrt K m) (HA 0) HT). Qed.
(** a tensor made into a node *)
Lemma s_owner g bs (t : tensor) d s f : clean itp g -> (forall i, al_ok (fst bs i)) -> is_tensor d s f t -> steps g (n_input_owner m g bs t) d s f.
Proof.
  intros HC HA HT. pose proof (is_tensor_ready HT) as R. pose proof (is_tensor_shape HT) as S. pose proof (clean_history HC) as HH.
  assert (DO : op_device (itp (mkOper (KInputOwner t) 0 (fst bs) (snd bs))) = Ok d) by (cbn; apply (ready_device_of R)).
  destruct (@create_eval K _ itp (@interp_lawful K m) g (mkOper (KInputOwner t) 0 (fst bs) (snd bs)) None [] [] d HH (Forall2_nil _) DO) as (A & B).
  destruct (B [t_shape t] eq_refl) as ([g' ns] & E). destruct (A _ E) as (rs & E1 & E2 & E3 & E4 & E5). cbn [fst snd] in * . cbn in E1. injection E1 as E1. subst rs. cbn in E4. subst ns.
  assert (C' : clean itp g') by (eapply c_create; eauto).
  exists g', (length (g_ops g), 0). unfold n_input_owner, leaf, pop1. rewrite E. cbn [bind map last unwrap]. split; [reflexivity|]. split; [exact C'|]. split; [exact E3|]. split.
  - apply create_inv in E. destruct E as (? & ? & ? & ? & ? & _ & _ & _ & _ & _ & _ & _ & _ & EG & _). cbn [fst]. rewrite EG. cbn [g_ops]. rewrite app_length. cbn. lia.
  - unfold stands, eval_node. cbn [fst snd]. rewrite E5. cbn [op_forward interp forward_op o_kind o_dev o_fal map idx nth_error bind].
    destruct (@copy_flat K m d d (fst bs 0) t (HA 0) R) as (y & Ey & TY). unfold copy_tensor, new_alloc in Ey. destruct (alloc m (fst bs 0) (new_tensor K d (t_shape t))) as [y1| |] eqn:EA; cbn [bind] in Ey; try discriminate.
    assert (D1 : device_of y1 = Ok d) by (unfold alloc in EA; inv_ok; reflexivity). cbn [bind]. rewrite D1. cbn [bind]. rewrite Ey. cbn [bind lset idx nth_error]. exists y. split; [reflexivity|].
    assert (Y : yields (Ok y) d s f). { eapply yields_of_flat; [exists y; split; [reflexivity|rewrite S in TY; exact TY]|]. intros c b Hc Hb. cbv beta. rewrite <- (is_tensor_at HT Hc Hb). rewrite at_buf, S. reflexivity. }
    destruct Y as (y' & Ey' & HY). injection Ey' as <-. exact HY.
Qed.
Lemma bufs_ok (bss : nat -> buffers) i : (forall i j, al_ok (fst (bss i) j)) -> forall j, al_ok (fst (bss i) j). Proof. auto. Qed.
Lemma s_sum g bs x d s f dim : clean itp g -> (forall i, al_ok (fst bs i)) -> stands g x d s f -> N.to_nat dim < 8 ->
  exists s', shape_is s' (eset s (N.to_nat dim) 1) (bat s) /\ steps g (n_sum m dim g bs x) d s' (fun c b => sum_of (fun j => f (cset c (N.to_nat dim) j) b) (ext s (N.to_nat dim))).
Proof.
  intros HC HA HX Hd. destruct HX as (v & EX & HV). pose proof (is_tensor_shape HV) as S. pose proof (is_tensor_ready HV) as R.
  destruct (@C20_sum K m d (fst bs 0) v dim (HA 0) R Hd) as (s' & W & Y). rewrite S in W. exists s'. split; [exact W|].
  eapply (@step1 (KSum dim) (fun al x => t_sum m (al 0) x dim)); eauto; [exists v; eauto|]. intros t HT. destruct (@C20_sum K m d (fst bs 0) t dim (HA 0) (is_tensor_ready HT) Hd) as (s2 & W2 & Y2). rewrite (is_tensor_shape HT) in W2.
  assert (s2 = s') by (eapply shape_is_unique; eauto). subst s2. eapply yields_ext; [exact Y2|]. intros c b Hc Hb. cbv beta. rewrite (is_tensor_shape HT). apply red_ext. intros j Hj.
  apply (is_tensor_at HT); [|destruct W as (_ & _ & <-); auto]. intros i. specialize (Hc i). destruct W as (_ & E & _). rewrite E in Hc. unfold eset, cset in * . destruct (Nat.eqb_spec i (N.to_nat dim)) as [Ei|]; [rewrite Ei; exact Hj|exact Hc].
Qed.
Lemma s_mean g bss x d s f dim : clean itp g -> (forall i j, al_ok (fst (bss i) j)) -> stands g x d s f -> N.to_nat dim < 8 ->
  exists s', shape_is s' (eset s (N.to_nat dim) 1) (bat s) /\ steps g (n_mean m dim g bss x) d s' (fun c b => mean_of (fun j => f (cset c (N.to_nat dim) j) b) (ext s (N.to_nat dim))).
Proof.
  intros HC HA HX Hd. destruct (s_sum HC (HA 0) HX Hd) as (s' & W & S). exists s'. split; [exact W|]. unfold n_mean. eapply steps_bind; [exact HC|exact S|]. intros g1 y C1 X1 SY. cbv beta.
  rewrite (stands_shape C1 (stands_kept HC X1 HX)). cbn [bind]. rewrite ext_index. eapply steps_ext; [apply (s_div_const _ C1 (HA 1) SY)|]. reflexivity.
Qed.
Lemma s_batch_mean g bss x d s f s1 : clean itp g -> (forall i j, al_ok (fst (bss i) j)) -> stands g x d s f -> shape_is s1 (ext s) 1 ->
  steps g (n_batch_mean m g bss x) d s1 (fun c _ => mean_of (fun k => f c k) (bat s)).
Proof.
  intros HC HA HX Hs. unfold n_batch_mean. eapply steps_bind with (s := s1) (f := fun c _ => sum_of (fun k => f c k) (bat s)); [exact HC| |].
  - eapply (@step1 KBatchSum (fun al x => t_batch_sum m (al 0) x)); eauto. intros t HT. pose proof (is_tensor_shape HT) as E. rewrite <- E in Hs. eapply yields_ext; [apply (@C29_batch_sum K m d (fst (bss 0) 0) t s1 (HA 0 0) (is_tensor_ready HT) Hs)|].
    intros c b Hc _. cbv beta. rewrite E. apply red_ext. intros k Hk. apply (is_tensor_at HT); auto. rewrite E in Hs. intros i. destruct Hs as (_ & Ex & _). rewrite <- Ex. apply Hc.
  - intros g1 y C1 X1 SY. cbv beta. rewrite (stands_shape C1 (stands_kept HC X1 HX)). cbn [bind]. rewrite bat_batch. eapply steps_ext; [apply (s_div_const _ C1 (HA 1) SY)|]. reflexivity.
Qed.
(** ** C52 on nodes *)
Theorem C52_node_mean : forall pop g bss x d v dim, min_heap pop -> clean itp g -> (forall i j, al_ok (fst (bss i) j)) -> eval_node itp g x = Ok v -> ready d v -> N.to_nat dim < 8 ->
  exists s, shape_is s (eset (t_shape v) (N.to_nat dim) 1) (bat (t_shape v)) /\
    node_holds pop (n_mean m dim g bss x) s (fun c b => mean_of (fun j => at_ v (cset c (N.to_nat dim) j) b) (ext (t_shape v) (N.to_nat dim))).
Proof.
  intros pop g bss x d v dim HP HC HA EX HR Hd. assert (S : stands g x d (t_shape v) (fun c b => at_ v c b)) by (exists v; split; auto; apply itself; auto).
  destruct (s_mean HC HA S Hd) as (s & W & H). exists s. split; [exact W|]. eapply steps_holds; eauto.
Qed.
Theorem C52_node_batch_mean : forall pop g bss x d v s, min_heap pop -> clean itp g -> (forall i j, al_ok (fst (bss i) j)) -> eval_node itp g x = Ok v -> ready d v -> shape_is s (ext (t_shape v)) 1 ->
  node_holds pop (n_batch_mean m g bss x) s (fun c _ => mean_of (fun k => at_ v c k) (bat (t_shape v))).
Proof.
  intros pop g bss x d v s HP HC HA EX HR Hs. assert (S : stands g x d (t_shape v) (fun c b => at_ v c b)) by (exists v; split; auto; apply itself; auto).
  eapply steps_holds; [exact HP|]. apply (s_batch_mean HC HA S Hs).
Qed.
(** normalization *)
Section Norm.
Variables (d : nat) (s sm : shape) (mean : graph -> (nat -> buffers) -> node -> res (graph * node)) (M : ((nat -> nat) -> nat -> F) -> (nat -> nat) -> nat -> F).
Hypothesis MS : forall g bss n f, clean itp g -> (forall i j, al_ok (fst (bss i) j)) -> stands g n d s f -> steps g (mean g bss n) d sm (M f).
Hypothesis MB : bin_ok s sm s.
Hypothesis SS : is_scalar s = is_scalar sm.
Hypothesis HF : fits s.
Hypothesis HFm : fits sm.
Lemma normalize_steps g bsss x gain b eps f sg fg sb fb : clean itp g -> (forall i k j, al_ok (fst (bsss i k) j)) ->
  stands g x d s f -> stands g gain d sg fg -> stands g b d sb fb -> bin_ok sg s s -> bin_ok s sb s -> is_scalar sg = is_scalar s -> is_scalar s = is_scalar sb ->
  let mu := vof sm (M f) in
  exists sq', (forall c n, inb s c -> n < bat s -> sq' c n = (f c n -. mu c n) *. (f c n -. mu c n)) /\
  steps g (n_normalize m mean g bsss x gain b eps) d s (fun c n => vof sg fg c n *. ((f c n -. mu c n) /. nsqrt K (vof sm (M sq') c n +. eps)) +. vof sb fb c n).
Proof.
  intros HC HA SX SG SB BG BB EG EB mu. pose proof (fits_wf HF) as W. pose proof (fits_wf HFm) as Wm.
  assert (TX : exists t, is_tensor d s f t) by (destruct SX as (t & _ & H); eauto). destruct TX as (tx & TX).
  set (sh := fun c n => vof s f c n -. mu c n). set (sq' := fun c n => vof s sh c n *. vof s sh c n). exists sq'.
  assert (V : forall h g n, stands g n d s h -> forall c k, inb s c -> k < bat s -> vof s h c k = h c k) by (intros h g0 n (t & _ & H) c k Hc Hk; eapply vof_same; eauto).
  match goal with |- ?A /\ ?B => cut (B /\ exists g' n, stands g' n d s sh) end.
  { intros (H1 & g' & n' & H2). split; [|exact H1]. intros c n Hc Hn. unfold sq'. rewrite (V sh _ _ H2 c n Hc Hn). unfold sh. rewrite (V f _ _ SX c n Hc Hn). reflexivity. }
  unfold n_normalize.
  destruct (MS HC (HA 0) SX) as (g1 & n1 & E1 & C1 & X1 & L1 & S1). rewrite E1. cbn [bind]. pose proof (stands_kept HC X1 SX) as SX1. pose proof (stands_kept HC X1 SG) as SG1. pose proof (stands_kept HC X1 SB) as SB1.
  destruct (s_sub C1 (HA 1 0) SX1 S1 SS MB HF) as (g2 & n2 & E2 & C2 & X2 & L2 & S2). rewrite E2. cbn [bind]. fold mu in S2. change (stands g2 n2 d s sh) in S2.
  destruct (s_mul C2 (HA 1 1) S2 S2 eq_refl (bin_ok_same W) HF) as (g3 & n3 & E3 & C3 & X3 & L3 & S3). rewrite E3. cbn [bind]. change (stands g3 n3 d s sq') in S3.
  destruct (MS C3 (HA 2) S3) as (g4 & n4 & E4 & C4 & X4 & L4 & S4). rewrite E4. cbn [bind].
  destruct (s_add_const eps C4 (HA 3 0) S4) as (g5 & n5 & E5 & C5 & X5 & L5 & S5). rewrite E5. cbn [bind].
  assert (X15 : extends g1 g5) by (eapply extends_trans; [exact X2|]; eapply extends_trans; [exact X3|]; eapply extends_trans; [exact X4|exact X5]).
  pose proof (stands_kept C1 X15 SX1) as SX5. pose proof (stands_kept C1 X15 S1) as S15.
  destruct (s_sub C5 (HA 3 1) SX5 S15 SS MB HF) as (g6 & n6 & E6 & C6 & X6 & L6 & S6). rewrite E6. cbn [bind].
  destruct (s_sqrt C6 (HA 3 2) (stands_kept C5 X6 S5)) as (g7 & n7 & E7 & C7 & X7 & L7 & S7). rewrite E7. cbn [bind].
  destruct (s_div C7 (HA 3 3) (stands_kept C6 X7 S6) S7 SS MB HF) as (g8 & n8 & E8 & C8 & X8 & L8 & S8). rewrite E8. cbn [bind].
  assert (X18 : extends g1 g8) by (eapply extends_trans; [exact X15|]; eapply extends_trans; [exact X6|]; eapply extends_trans; [exact X7|exact X8]).
  destruct (s_mul C8 (HA 3 4) (stands_kept C1 X18 SG1) S8 EG BG HF) as (g9 & n9 & E9 & C9 & X9 & L9 & S9). rewrite E9. cbn [bind].
  destruct (s_add C9 (HA 3 5) S9 (stands_kept C8 X9 (stands_kept C1 X18 SB1)) EB BB HF) as (g10 & n10 & E10 & C10 & X10 & L10 & S10).
  split; [|exists g2, n2; exact S2]. exists g10, n10. split; [exact E10|]. split; [exact C10|]. split.
  { eapply extends_trans; [exact X1|]. eapply extends_trans; [exact X18|]. eapply extends_trans; [exact X9|exact X10]. }
  split; [exact L10|]. destruct S10 as (t & Et & HT). exists t. split; [exact Et|]. eapply is_tensor_ext; [exact HT|]. intros c n Hc Hn. cbv beta.
  rewrite (V _ _ _ S9 c n Hc Hn). rewrite (V _ _ _ S8 c n Hc Hn). rewrite (V _ _ _ S6 c n Hc Hn). rewrite (V _ _ _ SX c n Hc Hn). reflexivity.
Qed.
End Norm.
Theorem C52_node_batch_normalization : forall pop g bsss x gain b eps d vx vg vb, min_heap pop -> clean itp g -> (forall i k j, al_ok (fst (bsss i k) j)) ->
  eval_node itp g x = Ok vx -> eval_node itp g gain = Ok vg -> eval_node itp g b = Ok vb -> ready d vx -> ready d vg -> ready d vb ->
  bin_ok (t_shape vg) (t_shape vx) (t_shape vx) -> bin_ok (t_shape vx) (t_shape vb) (t_shape vx) -> is_scalar (t_shape vg) = is_scalar (t_shape vx) -> is_scalar (t_shape vx) = is_scalar (t_shape vb) ->
  node_holds pop (n_batch_normalization m g bsss x gain b eps true) (t_shape vx) (fun c n =>
    let items := fun k => at_ vx c k in let B := bat (t_shape vx) in
    opnd vg c n *. ((at_ vx c n -. mean_of items B) /. nsqrt K (variance_of items B +. eps)) +. opnd vb c n).
Proof.
  intros pop g bsss x gain b eps d vx vg vb HP HC HA EX EG EB HX HG HB BG BB SG SB. set (s := t_shape vx) in * . pose proof (ready_fits HX) as HF. fold s in HF. pose proof (fits_wf HF) as W. destruct (batch1 W) as (s1 & S1).
  set (M := fun (f : (nat -> nat) -> nat -> F) (c : nat -> nat) (_ : nat) => mean_of (fun k => f c k) (bat s)).
  assert (MS : forall g bss n f, clean itp g -> (forall i j, al_ok (fst (bss i) j)) -> stands g n d s f -> steps g (n_batch_mean m g bss n) d s1 (M f)) by (intros; apply s_batch_mean; auto).
  assert (SSs : is_scalar s = is_scalar s1). { destruct S1 as (W1 & E1 & _). apply eq_true_iff_eq. rewrite (is_scalar_iff W), (is_scalar_iff W1). split; intros H i; specialize (H i); specialize (E1 i); unfold ext in E1; lia. }
  assert (ST : forall n v, eval_node itp g n = Ok v -> ready d v -> stands g n d (t_shape v) (fun c k => at_ v c k)) by (intros n v E R; exists v; split; auto; apply itself; auto).
  destruct (normalize_steps MS (bin_batch W S1) SSs HF (fits_batch1 HF S1) eps HC HA (ST _ _ EX HX) (ST _ _ EG HG) (ST _ _ EB HB) BG BB SG SB) as (sq' & EQ & Y).
  eapply steps_holds; [exact HP|]. unfold n_batch_normalization. eapply steps_ext; [exact Y|]. intros c n Hc Hn. cbv beta zeta.
  assert (SC : forall c, inb s c -> forall k, at_ vx (if is_scalar s1 then czero else c) k = at_ vx c k).
  { intros c0 H0 k. destruct (is_scalar s1) eqn:E1; auto. rewrite !at_buf. f_equal. apply pos_ext; auto. intros i _. specialize (H0 i). destruct S1 as (W1 & E2 & _). rewrite <- E2, (scalar_ext W1 E1) in H0. unfold czero. lia. }
  assert (MU : forall c n, inb s c -> vof s1 (M (fun c n => at_ vx c n)) c n = mean_of (fun k => at_ vx c k) (bat s)).
  { intros c0 n' H0. unfold vof, M. apply mean_ext. intros k _. apply SC; auto. }
  destruct (bin_range (ready_wf HG) W BG Hc Hn) as ((A1 & A2) & _). destruct (bin_range W (ready_wf HB) BB Hc Hn) as (_ & (B1 & B2)).
  rewrite (opnd_val (itself HG) A1 A2), (opnd_val (itself HB) B1 B2).
  rewrite MU by auto. f_equal. f_equal. f_equal. f_equal. f_equal. unfold vof at 1. unfold M at 1. unfold variance_of. apply mean_ext. intros k Hk.
  assert (IC : inb s (if is_scalar s1 then czero else c)) by (destruct (is_scalar s1); auto; apply zero_in; auto). rewrite EQ by auto. rewrite MU by auto. rewrite SC by auto.
  assert (ME : mean_of (fun k0 => at_ vx (if is_scalar s1 then czero else c) k0) (bat s) = mean_of (fun k0 => at_ vx c k0) (bat s)) by (apply mean_ext; intros; apply SC; auto). rewrite ME. reflexivity.
Qed.
Theorem C52_node_batch_normalization_disabled : forall pop g bsss x gain b eps d v, min_heap pop -> clean itp g -> (forall i k j, al_ok (fst (bsss i k) j)) -> eval_node itp g x = Ok v -> ready d v ->
  node_holds pop (n_batch_normalization m g bsss x gain b eps false) (t_shape v) (fun c n => at_ v c n *. n1).
Proof.
  intros pop g bsss x gain b eps d v HP HC HA EX HR. eapply steps_holds; [exact HP|]. unfold n_batch_normalization. assert (SX : stands g x d (t_shape v) (fun c k => at_ v c k)) by (exists v; split; auto; apply itself; auto). apply (s_mul_const n1 HC (HA 0 0) SX).
Qed.
(** the node version of layer_normalization is refused for every x with more than one element per item, although the tensor version works (C52_layer_normalization):
    the mean of the flattened items is a scalar node, and a scalar node cannot be combined with another (C34_mixed_scalar_refuted) *)
Theorem C52_node_layer_normalization_refuted : forall pop g bsss x gain b eps d vx vg vb, clean itp g -> (forall i k j, al_ok (fst (bsss i k) j)) ->
  eval_node itp g x = Ok vx -> eval_node itp g gain = Ok vg -> eval_node itp g b = Ok vb -> ready d vx -> ready d vg -> ready d vb ->
  bin_ok (t_shape vg) (t_shape vx) (t_shape vx) -> bin_ok (t_shape vx) (t_shape vb) (t_shape vx) -> is_scalar (t_shape vx) = false ->
  (exists l, holds m (c_layer_normalization m (fun i k => fst (bsss i k) 0) vx vg vb eps) l) /\
  forall l, ~ reads m pop (n_layer_normalization m g bsss x gain b eps) l.
Proof.
  intros pop g bsss x gain b eps d vx vg vb HC HA EX EG EB HX HG HB BG BB NS. split.
  - destruct (@C52_layer_normalization K m HCm d (fun i k => fst (bsss i k) 0) vx vg vb eps) as (t & Et & Ht); auto. exists (firstn (tot (t_shape t)) (buf t)), t. split; [exact Et|]. apply (to_vec_Ok m (is_tensor_ready Ht)).
  - intros l (g' & n & E & _). unfold n_layer_normalization, n_normalize in E. apply bind_Ok in E. destruct E as ([g1 mu] & E1 & E). apply bind_Ok in E. destruct E as ([g2 sh] & E2 & _).
    assert (SX : stands g x d (t_shape vx) (fun c k => at_ vx c k)) by (exists vx; split; auto; apply itself; auto).
    (* the mean of the flattened tensor *)
    unfold n_flat_mean in E1. apply bind_Ok in E1. destruct E1 as ([gf fl] & EF & E1).
    destruct (@flatten_flat K m d (fst (bsss 0 2) 0) vx (HA 0 2 0) HX) as (s0 & S0 & tf & Ef & TF).
    assert (FL : exists f0, steps g (n_flatten m g (bsss 0 2) x) d s0 f0).
    { destruct (clean_inv (@interp_lawful K m) HC) as (W & _). destruct (eval_shape (@interp_lawful K m) W EX) as (w & EW & SW & _). unfold n_flatten. rewrite EW. cbn [bind]. rewrite SW.
      unfold t_flatten in Ef. destruct (shape_new m [volume (t_shape vx)] (batch (t_shape vx))) as [s| |]; cbn [bind] in Ef |- * ; try discriminate.
      destruct (@op1_step K m (KReshape s) (fun al x => t_reshape m (al 0) x s) g (bsss 0 2) x vx d tf) as (g2' & n2' & E2' & V2 & C2 & X2 & L2); auto.
      exists (fun c k => at_ tf c k), g2', n2'. split; [exact E2'|]. split; [auto|]. split; [auto|]. split; [auto|]. exists tf. split; [auto|]. assert (EQ : t_shape tf = s0) by apply TF. rewrite <- EQ. apply itself. apply TF. }
    destruct FL as (f0 & gf' & fl' & EF' & CF & XF & LF & SF). rewrite EF in EF'. injection EF' as -> ->.
    destruct (@s_mean gf' (bsss 0) fl' d s0 f0 0%N CF (HA 0) SF) as (sm & Sm & g1' & mu' & E1' & C1 & X1 & L1 & S1); [cbn; lia|]. rewrite E1 in E1'. injection E1' as -> ->.
    destruct S1 as (vm & EM & TM). destruct (stands_kept CF X1 (stands_kept HC XF SX)) as (vx' & EX' & TX').
    assert (SCm : is_scalar sm = true). { destruct Sm as (Wm & Em & _). apply (is_scalar_iff Wm). intros i. specialize (Em i). destruct S0 as (_ & E0 & _). unfold eset in Em. change (N.to_nat 0) with 0 in Em. destruct (Nat.eqb_spec i 0); [unfold ext in Em; lia|]. rewrite E0 in Em. destruct (Nat.eqb_spec i 0); [lia|]. unfold ext in Em. lia. }
    revert E2. apply (@mixed_refused K m KSub g1' (bsss 1 0) x mu' vx' vm d C1 EX' (is_tensor_ready TX') EM (is_tensor_ready TM)); auto.
    rewrite (is_tensor_shape TX'), (is_tensor_shape TM), SCm, NS. discriminate.
Qed.
(** slice_sum of nodes: as for tensors, when all of them or none of them are scalars *)
Theorem C52_node_slice_sum : forall pop g bss al d x0 xs0 v0 vs0 s, let xs := x0 :: xs0 in let vs := v0 :: vs0 in min_heap pop -> clean itp g -> (forall i j, al_ok (fst (bss i) j)) -> al_ok al ->
  Forall2 (fun x v => eval_node itp g x = Ok v) xs vs -> Forall (ready d) vs ->
  Forall (fun v => (forall i, ext (t_shape v) i = ext s i) /\ (bat (t_shape v) = 1 \/ bat (t_shape v) = bat s)) vs -> (exists v, In v vs /\ bat (t_shape v) = bat s) -> fits s ->
  node_holds pop (n_slice_sum m g bss al xs) s (fun c n => fold_left (fun acc v => acc +. at_ v c (bsel (t_shape v) n)) vs n0).
Proof.
  intros pop g bss al d x0 xs0 v0 vs0 s xs vs HP HC HA HAl HV HR HS HE HF. pose proof (fits_wf HF) as W. eapply steps_holds; [exact HP|]. unfold n_slice_sum. cbn [length Nat.eqb negb assert bind idx nth_error xs].
  assert (R0 : ready d v0) by (inversion HR; auto). assert (EV0 : eval_node itp g x0 = Ok v0) by (inversion HV; auto).
  assert (ST0 : stands g x0 d (t_shape v0) (fun c k => at_ v0 c k)) by (exists v0; split; auto; apply itself; auto).
  rewrite (stands_device HC ST0). cbn [bind]. rewrite (stands_shape HC ST0). cbn [bind].
  destruct (@by_constant_flat K m d al (t_shape v0) n0 HAl (ready_fits R0)) as (t0 & E0 & T0). rewrite E0. cbn [bind].
  assert (T0' : is_tensor d (t_shape v0) (fun _ _ => n0) t0).
  { assert (Y : yields (Ok t0) d (t_shape v0) (fun _ _ => n0)) by (eapply yields_of_flat; [exists t0; split; [reflexivity|exact T0]|reflexivity]). destruct Y as (y & Ey & HY). injection Ey as <-. exact HY. }
  assert (S0 : (forall i, ext (t_shape v0) i = ext s i) /\ (bat (t_shape v0) = 1 \/ bat (t_shape v0) = bat s)) by (inversion HS; auto).
  eapply steps_bind; [exact HC|apply (s_owner HC (HA 0) T0')|]. intros g0 ret C0 X0 SR. cbv beta.
  assert (G : forall l lv i gi n sr f, clean itp gi -> Forall2 (fun x v => eval_node itp gi x = Ok v) l lv -> stands gi n d sr f -> wf sr -> fst n < length (g_ops gi) -> (forall i, ext sr i = ext s i) -> (bat sr = 1 \/ bat sr = bat s) -> Forall (ready d) lv ->
    Forall (fun x => (forall i, ext (t_shape x) i = ext s i) /\ (bat (t_shape x) = 1 \/ bat (t_shape x) = bat s)) lv ->
    (bat sr = bat s \/ exists x, In x lv /\ bat (t_shape x) = bat s) ->
    steps gi (n_sum_loop m bss i gi n l) d s (fun c k => fold_left (fun acc v => acc +. at_ v c (bsel (t_shape v) k)) lv (f c (bsel sr k)))).
  { induction l as [|x l IH]; intros lv i gi n sr f Ci Vi HT Wr Ln ER BR RL SL EL; inversion Vi as [|? v ? lv' EVx Vi']; subst; cbn [n_sum_loop fold_left].
    - assert (B : bat sr = bat s) by (destruct EL as [B|(x & [] & _)]; auto). assert (sr = s) by (eapply shape_is_unique with (e := ext s) (b := bat s); split; auto).
      subst sr. exists gi, n. split; [reflexivity|]. split; [auto|]. split; [apply extends_refl|]. split; [auto|]. destruct HT as (t & Et & HT). exists t. split; auto. eapply is_tensor_ext; [exact HT|]. intros c k Hc Hk. rewrite at_bsel_same; auto.
    - inversion RL as [|? ? Rx RL']; inversion SL as [|? ? (Ex & Bx) SL']; subst. pose proof (ready_wf Rx) as Wx.
      pose proof (bat_pos W) as PB.
      assert (S2 : exists s2, shape_is s2 (ext s) (Nat.max (bat sr) (bat (t_shape v)))).
      { destruct BR as [B1|B1], Bx as [B2|B2]; rewrite B1, B2; try (exists s; split; [exact W|split; [reflexivity|lia]]). destruct (batch1 W) as (s1 & H1). exists s1. exact H1. }
      destruct S2 as (s2 & S2). assert (F2 : fits s2).
      { destruct S2 as (W2 & E2 & B2). apply (fits_tot W2). apply (proj1 (fits_tot W)) in HF. unfold tot in * . rewrite B2, (@vol_ext s2 s (fun i _ => E2 i)). nia. }
      assert (BO : bin_ok sr (t_shape v) s2).
      { split; [intros; rewrite ER, Ex; auto|]. split; [lia|]. destruct S2 as (W2 & E2 & B2). split; [auto|]. split; [|auto]. intros j. rewrite E2. destruct (is_scalar sr); congruence. }
      assert (SSc : is_scalar sr = is_scalar (t_shape v)).
      { apply eq_true_iff_eq. rewrite (is_scalar_iff Wr), (is_scalar_iff Wx). split; intros H j; specialize (H j); specialize (ER j); specialize (Ex j); unfold ext in * ; lia. }
      assert (SV : stands gi x d (t_shape v) (fun c k => at_ v c k)) by (exists v; split; auto; apply itself; auto).
      destruct (s_add Ci (HA i) HT SV SSc BO F2) as (g' & n' & E' & C' & X' & L' & T'). rewrite E'. cbn [bind]. destruct S2 as (W2 & E2 & B2).
      assert (V' : Forall2 (fun x v => eval_node itp g' x = Ok v) l lv') by (eapply kept_all; [exact Ci| |exact Vi']; auto).
      assert (HH : steps g' (n_sum_loop m bss (S i) g' n' l) d s (fun c k => fold_left (fun acc v0 => acc +. at_ v0 c (bsel (t_shape v0) k)) lv' (nadd K (vof sr f c (bsel s2 k)) (vof (t_shape v) (fun c0 k0 => at_ v c0 k0) c (bsel s2 k))))).
      { apply (IH lv' (S i) g' n' s2 _ C' V' T'); auto; [rewrite B2; lia|]. rewrite B2. destruct EL as [B|(y & [<-|HI] & By)]; [left; rewrite B; lia|left; rewrite By; lia|right; eauto]. }
      destruct HH as (g2 & nn & En & Cn & Xn & Lnn & Tn). exists g2, nn. split; [exact En|]. split; [exact Cn|]. split; [eapply extends_trans; eauto|]. split; [exact Lnn|].
      destruct Tn as (t & Et & HTn). exists t. split; [exact Et|]. eapply is_tensor_ext; [exact HTn|]. intros c k Hc Hk. cbv beta. f_equal.
        assert (IR : inb sr c) by (intros j; rewrite ER; apply Hc). assert (IX : inb (t_shape v) c) by (intros j; rewrite Ex; apply Hc).
        assert (LR : bsel sr k < bat sr) by (unfold bsel; destruct (Nat.eqb_spec (bat sr) 1); lia). assert (LX : bsel (t_shape v) k < bat (t_shape v)) by (unfold bsel; destruct (Nat.eqb_spec (bat (t_shape v)) 1); lia).
        assert (B2' : bsel sr (bsel s2 k) = bsel sr k) by (unfold bsel; rewrite B2; destruct (Nat.eqb_spec (bat sr) 1); auto; destruct (Nat.eqb_spec (Nat.max (bat sr) (bat (t_shape v))) 1); auto; lia).
        assert (B3' : bsel (t_shape v) (bsel s2 k) = bsel (t_shape v) k) by (unfold bsel; rewrite B2; destruct (Nat.eqb_spec (bat (t_shape v)) 1); auto; destruct (Nat.eqb_spec (Nat.max (bat sr) (bat (t_shape v))) 1); auto; lia).
        f_equal.
        * unfold vof. rewrite B2'. destruct HT as (tt & _ & HT'). pose proof (vof_same HT' IR LR) as V. unfold vof in V. rewrite (at_bsel_same LR) in V. exact V.
        * unfold vof. rewrite B3'. pose proof (vof_same (itself Rx) IX LX) as V. unfold vof in V. rewrite (at_bsel_same LX) in V. exact V. }
  assert (LR : fst ret < length (g_ops g0)).
  { destruct SR as (t & Et & _). unfold eval_node in Et. apply bind_Ok in Et. destruct Et as (ys & Ey & _). destruct (Nat.lt_ge_cases (fst ret) (length (g_ops g0))); auto. exfalso. unfold eval in Ey. cbn [eval_op] in Ey. rewrite (proj2 (nth_error_None _ _)) in Ey by auto. discriminate. }
  assert (V0' : Forall2 (fun x v => eval_node itp g0 x = Ok v) xs vs) by (eapply kept_all; [exact HC| |exact HV]; auto).
  apply (G xs vs 1 g0 ret (t_shape v0) (fun _ _ => n0) C0 V0' SR (ready_wf R0) LR (proj1 S0) (proj2 S0) HR HS). right. exact HE.
Qed.
(** ** C53 on nodes *)
Theorem C53_node_dropout : forall pop g bss al (r : randomizer K) x d v rate bits, min_heap pop -> clean itp g -> (forall i j, al_ok (fst (bss i) j)) -> al_ok al -> eval_node itp g x = Ok v -> ready d v ->
  nle K n1 rate = false -> rnd_bernoulli r (n1 -. rate) = Ok bits ->
  node_holds pop (n_dropout m g bss al r x rate true) (t_shape v) (fun c n => (at_ v c n *. (n1 /. (n1 -. rate))) *. nofB (bits (pos (t_shape v) c n))).
Proof.
  intros pop g bss al r x d v rate bits HP HC HA HAl EX HR HT EB. eapply steps_holds; [exact HP|]. unfold n_dropout. cbn [negb]. rewrite HT. cbv zeta.
  assert (SX : stands g x d (t_shape v) (fun c k => at_ v c k)) by (exists v; split; auto; apply itself; auto).
  eapply steps_bind; [exact HC|apply (s_mul_const (n1 /. (n1 -. rate)) HC (HA 0) SX)|]. intros g1 y C1 X1 SY. cbv beta. pose proof (stands_kept HC X1 SX) as SX1. rewrite (stands_device C1 SX1). cbn [bind]. rewrite (stands_shape C1 SX1). cbn [bind].
  destruct (@C54_random_bernoulli K m d al r (t_shape v) _ bits HAl (ready_fits HR) EB) as (z & Ez & TZ). rewrite Ez. cbn [bind].
  eapply steps_bind; [exact C1|apply (s_owner C1 (HA 1) TZ)|]. intros g2 w C2 X2 SW. cbv beta. pose proof (stands_kept C1 X2 SY) as SY2.
  eapply steps_ext; [apply (s_mul C2 (HA 2) SY2 SW eq_refl (bin_ok_same (ready_wf HR)) (ready_fits HR))|]. intros c n Hc Hn. cbv beta. destruct SY as (ty & _ & TY). rewrite (vof_same TY Hc Hn), (vof_same TZ Hc Hn). reflexivity.
Qed.
Theorem C53_node_dropout_dim : forall pop g bss al al' (r : randomizer K) x d v dim rate bits, min_heap pop -> clean itp g -> (forall i j, al_ok (fst (bss i) j)) -> al_ok al -> al_ok al' -> eval_node itp g x = Ok v -> ready d v ->
  nle K n1 rate = false -> N.to_nat dim < 8 -> rnd_bernoulli r (n1 -. rate) = Ok bits ->
  exists sm, shape_is sm (eset (t_shape v) (N.to_nat dim) 1) (bat (t_shape v)) /\
  node_holds pop (n_dropout_dim m g bss al al' r x dim rate true) (t_shape v) (fun c n => (at_ v c n *. (n1 /. (n1 -. rate))) *. nofB (bits (pos sm (cset c (N.to_nat dim) 0) n))).
Proof.
  intros pop g bss al al' r x d v dim rate bits HP HC HA HAl HAl' EX HR HT HD EB. set (e := N.to_nat dim) in * . set (s := t_shape v) in * . pose proof (ready_wf HR) as W. fold s in W.
  destruct (@resize1_exists m s e W HD) as (sm & Es & Rs). pose proof (reduces_shape_is Rs) as Sm. exists sm. split; [exact Sm|]. eapply steps_holds; [exact HP|].
  assert (SX : stands g x d s (fun c k => at_ v c k)) by (exists v; split; auto; apply itself; auto).
  unfold n_dropout_dim. cbn [negb]. rewrite HT. cbv zeta. rewrite (stands_shape HC SX). cbn [bind]. fold e. rewrite Es. cbn [bind]. rewrite (stands_device HC SX). cbn [bind].
  assert (FM : fits sm).
  { destruct Sm as (W1 & E1 & B1). apply (fits_tot W1). pose proof (proj1 (fits_tot W) (ready_fits HR)) as L. unfold tot in * . rewrite B1. pose proof (bat_pos W).
    assert (vol sm <= vol s); [|nia]. unfold vol, low. clear -E1 W. generalize 8. intros k. induction k as [|k IH]; [cbn; lia|]. cbn [prod_lt]. rewrite E1. unfold eset. pose proof (@ext_pos s k W). destruct (k =? e); nia. }
  destruct (@C54_random_bernoulli K m d al r sm _ bits HAl FM EB) as (z & Ez & TZ). rewrite Ez. cbn [bind].
  eapply steps_bind; [exact HC|apply (s_mul_const (n1 /. (n1 -. rate)) HC (HA 0) SX)|]. intros g1 y C1 X1 SY. cbv beta.
  pose proof (is_tensor_shape TZ) as EZ. assert (RZ : ready d z) by apply TZ. destruct Sm as (W1 & E1 & B1).
  destruct (@C23_broadcast K m d al' z dim (index s e) s HAl' RZ HD) as (u & Eu & TU).
  - rewrite EZ, E1. unfold eset. fold e. rewrite Nat.eqb_refl. reflexivity.
  - pose proof (@ext_pos s e W) as P. unfold ext in P. lia.
  - rewrite EZ. split; [exact W|]. split; [|congruence]. intros i. unfold eset. fold e. destruct (Nat.eqb_spec i e) as [->|N]; [reflexivity|]. rewrite E1. unfold eset. destruct (Nat.eqb_spec i e); congruence.
  - apply (ready_fits HR).
  - fold e in TU. rewrite Eu. cbn [bind]. eapply steps_bind; [exact C1|apply (s_owner C1 (HA 1) TU)|]. intros g2 w C2 X2 SW. cbv beta. pose proof (stands_kept C1 X2 SY) as SY2.
    eapply steps_ext; [apply (s_mul C2 (HA 2) SY2 SW eq_refl (bin_ok_same W) (ready_fits HR))|]. intros c n Hc Hn. cbv beta. destruct SY as (ty & _ & TY). rewrite (vof_same TY Hc Hn), (vof_same TU Hc Hn). f_equal. f_equal.
    apply (is_tensor_at TZ); [|congruence]. intros i. rewrite E1. unfold eset, cset. destruct (Nat.eqb_spec i e); [lia|apply Hc].
Qed.
Theorem C53_node_all_or_nothing : forall pop g bss al al' (r : randomizer K) x dim d v rate, min_heap pop -> clean itp g -> (forall i j, al_ok (fst (bss i) j)) -> eval_node itp g x = Ok v -> ready d v ->
  (nle K n1 rate = true -> node_holds pop (n_dropout m g bss al r x rate true) (t_shape v) (fun c n => at_ v c n *. n0) /\ node_holds pop (n_dropout_dim m g bss al al' r x dim rate true) (t_shape v) (fun c n => at_ v c n *. n0)) /\
  node_holds pop (n_dropout m g bss al r x rate false) (t_shape v) (fun c n => at_ v c n *. n1) /\ node_holds pop (n_dropout_dim m g bss al al' r x dim rate false) (t_shape v) (fun c n => at_ v c n *. n1).
Proof.
  intros pop g bss al al' r x dim d v rate HP HC HA EX HR. assert (SX : stands g x d (t_shape v) (fun c k => at_ v c k)) by (exists v; split; auto; apply itself; auto). unfold n_dropout, n_dropout_dim. cbn [negb]. split.
  - intros HT. rewrite HT. split; eapply steps_holds; try exact HP; apply (s_mul_const n0 HC (HA 0) SX).
  - split; eapply steps_holds; try exact HP; apply (s_mul_const n1 HC (HA 0) SX).
Qed.
End Nodes.
(** on the graph of PropsOps with x = (-1, 3), w = (2) and z = (5, 7) *)
Definition bzz : nat -> nat -> buffers Znum := fun _ _ => bz.
Lemma two_two : bin_ok (sh [2%N] 1) (sh [2%N] 1) (sh [2%N] 1).
Proof. apply bin_ok_same. apply (sh_wf [2%N] (b := 1%N)); reflexivity. Qed.
Example C52_node_applies :
  (exists f, node_holds (K := Znum) Debug fifo_min (n_batch_normalization Debug ti_g bzz (0, 0) (2, 0) (0, 0) 1%Z true) (sh [2%N] 1) f) /\
  ((exists l, holds Debug (c_layer_normalization Debug (fun _ _ => alz) (tz 0 [2%N] 1 [-1;3]%Z) (tz 0 [2%N] 1 [5;7]%Z) (tz 0 [2%N] 1 [5;7]%Z) 1%Z) l) /\
   (forall l, ~ reads Debug fifo_min (n_layer_normalization Debug ti_g bzz (0, 0) (2, 0) (2, 0) 1%Z) l)) /\
  reads Debug fifo_min (n_slice_sum Debug ti_g (fun _ => bz) alz [(0, 0); (2, 0)]) [4; 10]%Z /\
  reads Debug fifo_min (n_dropout Debug ti_g (fun _ => bz) alz rz (0, 0) 0%Z true) [0; 3]%Z.
Proof.
  assert (R1 : ready 0 (tz 0 [2%N] 1 [-1;3]%Z)) by rdy. assert (R2 : ready 0 (tz 0 [2%N] 1 [5;7]%Z)) by rdy. split; [|split; [|split]].
  - eexists. exact (@C52_node_batch_normalization Znum Debug commutative_Z fifo_min ti_g bzz (0, 0) (2, 0) (0, 0) 1%Z 0 (tz 0 [2%N] 1 [-1;3]%Z) (tz 0 [2%N] 1 [5;7]%Z) (tz 0 [2%N] 1 [-1;3]%Z)
      (proj1 heaps_ok) ti_clean (fun _ _ => bz_ok) eq_refl eq_refl eq_refl R1 R2 R1 two_two two_two eq_refl eq_refl).
  - exact (@C52_node_layer_normalization_refuted Znum Debug commutative_Z fifo_min ti_g bzz (0, 0) (2, 0) (2, 0) 1%Z 0 (tz 0 [2%N] 1 [-1;3]%Z) (tz 0 [2%N] 1 [5;7]%Z) (tz 0 [2%N] 1 [5;7]%Z)
      ti_clean (fun _ _ => bz_ok) eq_refl eq_refl eq_refl R1 R2 R2 two_two two_two eq_refl).
  - do 2 eexists. split; reflexivity.
  - do 2 eexists. split; reflexivity.
Qed.
