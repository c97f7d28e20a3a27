(** * Fresh5: the contents of new buffers do not matter: graphs (lemmas)

    No code of the crate is modelled here. [erase g] is [g] with the memory its operators
    will be given replaced by buffers of zeros; every function on graphs commutes with it. *)
From Verif Require Export Fresh4 PropsSafeGraph.
Set Implicit Arguments.
Unset Strict Implicit.

Definition rmap A B (f : A -> B) (r : res A) : res B := match r with Ok a => Ok (f a) | Panic => Panic | UB => UB end.
Lemma both A (P Q : A -> Prop) r r' : good P r -> good Q r' -> le_res r r' -> le_res r' r -> r = r'.
Proof. intros G G' L L'. destruct r as [a| |]; [symmetry; apply (L a); auto| |destruct G]. destruct r' as [a| |]; [apply (L' a); auto|auto|destruct G']. Qed.
Lemma hom_bind A B A' B' (e1 : A -> A') (e : B -> B') r r' (k : A -> res B) k' : r' = rmap e1 r -> (forall a, r = Ok a -> k' (e1 a) = rmap e (k a)) -> bind r' k' = rmap e (bind r k).
Proof. intros -> H. destruct r as [a| |]; cbn; auto. Qed.
Lemma same_bind A B B' (e : B -> B') (r r' : res A) (k : A -> res B) k' : r' = r -> (forall a, r = Ok a -> k' a = rmap e (k a)) -> bind r' k' = rmap e (bind r k).
Proof. intros -> H. destruct r as [a| |]; cbn; auto. Qed.
Lemma good_Ok A (P : A -> Prop) r a : good P r -> r = Ok a -> P a. Proof. intros G ->. exact G. Qed.

Section Erase.
Variable K : num.
Notation F := (F K).
Notation tensor := (tensor K).
Notation oracle := (alloc_oracle K).
Notation graph := (graph K (oper K)).
Notation node := (nat * nat)%type.
Notation shapes l := (map (@t_shape K) l).
Notation itp := (@interp K Debug).
Notation sanes := (Forall (@sane K)).
Implicit Types (g : graph) (n : node) (o : opinfo K (oper K)).

Definition zal : oracle := fun n : N => if ((1 <=? n) && (n <=? 2147483648))%N then Ok (repeat n0 (N.to_nat n)) else Panic.
Lemma zal_exact : al_exact zal.
Proof. intros n. unfold zal. destruct ((1 <=? n) && (n <=? 2147483648))%N; auto. eexists. split; [reflexivity|]. apply repeat_length. Qed.
Definition zals : nat -> oracle := fun _ => zal.
Lemma zals_exact : exacts zals. Proof. intros i. apply zal_exact. Qed.
Definition zgal : grad_alloc K := fun _ _ => zal.
Definition erase_op (op : oper K) : oper K := mkOper (o_kind op) (o_dev op) zals zals.
Definition erase_i o : opinfo K (oper K) := mkOpinfo (erase_op (oi_op o)) (oi_args o) (oi_vals o) (oi_grads o) (oi_own o) (oi_fwd o) (oi_depth o).
Definition erase g : graph := mkGraph (map erase_i (g_ops g)) (g_log g).
Definition gexact g : Prop := forall i o, nth_error (g_ops g) i = Some o -> exacts (o_fal (oi_op o)) /\ exacts (o_bal (oi_op o)).

Lemma erase_nth g i : nth_error (g_ops (erase g)) i = option_map erase_i (nth_error (g_ops g) i).
Proof. unfold erase. cbn [g_ops]. apply nth_error_map. Qed.
Lemma erase_idx g i : idx (g_ops (erase g)) i = rmap erase_i (idx (g_ops g) i).
Proof. unfold idx. rewrite erase_nth. destruct (nth_error (g_ops g) i); reflexivity. Qed.
Lemma lset_map A B (f : A -> B) l i x : lset (map f l) i (f x) = map f (lset l i x).
Proof. revert i. induction l as [|a l IH]; intros [|i]; cbn; auto. rewrite IH. reflexivity. Qed.
Lemma erase_set g i o o' log : erase_i o' = o -> mkGraph (lset (g_ops (erase g)) i o) log = erase (mkGraph (lset (g_ops g) i o') log).
Proof. intros <-. unfold erase. cbn [g_ops g_log]. rewrite lset_map. reflexivity. Qed.
Lemma erase_value g n : value_of (erase g) n = value_of g n.
Proof. unfold value_of. rewrite erase_idx. destruct (idx (g_ops g) (fst n)); reflexivity. Qed.
Lemma erase_grad g n : grad_of (erase g) n = grad_of g n.
Proof. unfold grad_of. rewrite erase_idx. destruct (idx (g_ops g) (fst n)); reflexivity. Qed.
Lemma erase_device g n : device_at itp (erase g) n = device_at itp g n.
Proof. unfold device_at. rewrite erase_idx. destruct (idx (g_ops g) (fst n)); reflexivity. Qed.
Lemma erase_own g i : own_of (erase g) i = own_of g i.
Proof. unfold own_of. rewrite erase_nth. destruct (nth_error (g_ops g) i); reflexivity. Qed.
Lemma erase_depth g i : depth_of (erase g) i = depth_of g i.
Proof. unfold depth_of. rewrite erase_idx. destruct (idx (g_ops g) i); reflexivity. Qed.
Lemma erase_depth0 g i : depth0 (erase g) i = depth0 g i.
Proof. unfold depth0. rewrite erase_nth. destruct (nth_error (g_ops g) i); reflexivity. Qed.
Lemma erase_args g i : arg_ops (erase g) i = arg_ops g i.
Proof. unfold arg_ops. rewrite erase_nth. destruct (nth_error (g_ops g) i); reflexivity. Qed.
Lemma erase_collect g fuel : forall q r acc, collect (erase g) fuel q r acc = collect g fuel q r acc.
Proof. induction fuel as [|fuel IH]; intros q r acc; cbn [collect]; auto. destruct q as [|i q]; auto. rewrite erase_args. destruct (fold_left visit (arg_ops g i) (q, r)). apply IH. Qed.
Lemma erase_requests g i : requests (erase g) i = requests g i.
Proof. unfold requests. rewrite erase_collect. unfold erase. cbn [g_ops]. rewrite map_length. reflexivity. Qed.
Lemma mapM_ext A B (f f' : A -> res B) l : (forall a, In a l -> f a = f' a) -> mapM f l = mapM f' l.
Proof. intros H. induction l as [|a l IH]; auto. cbn [mapM fold_right]. unfold mapM in IH. rewrite (H a) by (cbn; auto). rewrite IH by (intros b Hb; apply H; right; auto). reflexivity. Qed.

(** *** creation *)
Lemma erase_create g op own xs : create itp (erase g) (erase_op op) own xs = rmap (fun p => (erase (fst p), snd p)) (create itp g op own xs).
Proof.
  unfold create. apply same_bind; [apply mapM_ext; intros n _; rewrite erase_value; reflexivity|intros ss _]. apply same_bind; [reflexivity|intros rs _]. apply same_bind; [reflexivity|intros vs _]. apply same_bind; [reflexivity|intros gs _].
  apply same_bind; [apply mapM_ext; intros n _; apply erase_depth|intros ds _]. cbn [rmap fst snd]. unfold erase. cbn [g_ops g_log]. rewrite map_app, map_length. reflexivity.
Qed.
Lemma create_exact g op own xs g' ns : gexact g -> exacts (o_fal op) -> exacts (o_bal op) -> create itp g op own xs = Ok (g', ns) -> gexact g'.
Proof.
  intros G H1 H2 E. unfold create in E. apply bind_Ok in E. destruct E as (ss & _ & E). apply bind_Ok in E. destruct E as (rs & _ & E). apply bind_Ok in E. destruct E as (vs & _ & E). apply bind_Ok in E. destruct E as (gs & _ & E). apply bind_Ok in E. destruct E as (ds & _ & E). injection E as <- _.
  intros i o Ho. cbn [g_ops] in Ho. destruct (Nat.lt_ge_cases i (length (g_ops g))) as [L|L]; [rewrite nth_error_app1 in Ho by auto; eapply G; eauto|]. rewrite nth_error_app2 in Ho by auto. destruct (i - length (g_ops g)) as [|j]; cbn in Ho; [injection Ho as <-; auto|destruct j; discriminate].
Qed.
Lemma alike_exact g g' : gexact g -> alike g g' -> gexact g'.
Proof. intros G H i o Ho. destruct (Forall2_at H Ho) as (o0 & Ho0 & E & _). rewrite E. eapply G; eauto. Qed.

(** *** forward *)
Lemma forward_eq d fal fal' (k : kind K) xs ys : supplied k -> exacts fal -> exacts fal' -> sanes xs -> sanes ys -> forward_op Debug d fal k xs ys = forward_op Debug d fal' k xs ys.
Proof. intros. eapply both; [apply forward_good; auto|apply forward_good; auto|apply u_forward_op; auto|apply u_forward_op; auto]. Qed.
Local Opaque forward_op backward_op alloc reset.
Lemma erase_step_fw g i : ginv g -> gexact g -> step_fw itp (erase g) i = (erase (fst (step_fw itp g i)), snd (step_fw itp g i)).
Proof.
  intros G X. unfold step_fw. rewrite erase_nth. destruct (nth_error (g_ops g) i) as [o|] eqn:Ho; [|reflexivity]. cbn [option_map]. change (oi_fwd (erase_i o)) with (oi_fwd o). destruct (oi_fwd o); [reflexivity|].
  cbn [erase_i oi_op oi_args oi_vals oi_grads oi_own oi_depth]. set (o1 := mkOpinfo (oi_op o) (oi_args o) (oi_vals o) (oi_grads o) (oi_own o) true (oi_depth o)).
  change (mkOpinfo (erase_op (oi_op o)) (oi_args o) (oi_vals o) (oi_grads o) (oi_own o) true (oi_depth o)) with (erase_i o1). rewrite (@erase_set g i _ o1 (g_log (erase g) ++ [i]) eq_refl). change (g_log (erase g)) with (g_log g). set (g1 := mkGraph (lset (g_ops g) i o1) (g_log g ++ [i])).
  destruct (G _ _ Ho) as (SO & DO). destruct (X _ _ Ho) as (X1 & X2). assert (G1 : ginv g1) by (eapply set_ginv; [exact G|exact Ho|repeat split|exact DO]).
  assert (E : (xs <- mapM (value_of (erase g1)) (oi_args o) ;; op_forward (itp (erase_op (oi_op o))) xs (oi_vals o)) = (xs <- mapM (value_of g1) (oi_args o) ;; op_forward (itp (oi_op o)) xs (oi_vals o))).
  { rewrite (mapM_ext (f' := value_of g1)) by (intros; apply erase_value). apply bind_ext. intros xs Ex. destruct (good_Ok (args_sane _ G1) Ex) as (Sx & _). cbn [interp op_forward erase_op o_dev o_fal o_kind]. destruct SO as (S1 & _). destruct DO as (D1 & _). apply forward_eq; auto. apply zals_exact. }
  rewrite E. destruct (xs <- mapM (value_of g1) (oi_args o) ;; op_forward (itp (oi_op o)) xs (oi_vals o)) as [ys| |]; cbn [fst snd]; auto. f_equal. unfold set_op. change (g_log (erase g1)) with (g_log g1). apply erase_set. reflexivity.
Qed.
Lemma step_fw_alike g i : alike g (fst (step_fw itp g i)).
Proof.
  unfold step_fw. destruct (nth_error (g_ops g) i) as [o|] eqn:Ho; [|apply alike_refl]. destruct (oi_fwd o); [apply alike_refl|].
  match goal with |- alike g (fst (match ?X with Ok _ => _ | Panic => _ | UB => _ end)) => destruct X as [ys| |] eqn:EY end; cbn [fst].
  - unfold alike, set_op. cbn [g_ops]. rewrite (lset_lset (g_ops g)). eapply Forall2_lset; [apply like_refl|exact Ho|]. repeat split. cbn [oi_vals]. apply bind_Ok in EY. destruct EY as (xs & _ & EY). apply shapes_of_blank. exact (@interp_lawful K Debug (oi_op o) _ _ _ EY).
  - unfold alike. cbn [g_ops]. eapply Forall2_lset; [apply like_refl|exact Ho|]. repeat split.
  - unfold alike. cbn [g_ops]. eapply Forall2_lset; [apply like_refl|exact Ho|]. repeat split.
Qed.
Lemma erase_run_fw l : forall g, ginv g -> gexact g -> run_fw itp (erase g) l = (erase (fst (run_fw itp g l)), snd (run_fw itp g l)).
Proof.
  induction l as [|i l IH]; intros g G X; [reflexivity|]. cbn [run_fw]. rewrite (erase_step_fw i G X). destruct (step_fw_safe i G) as (G1 & _). pose proof (alike_exact X (step_fw_alike g i)) as X1. destruct (step_fw itp g i) as [g1 [u| |]]; cbn [fst snd] in *; auto.
Qed.
Definition by_depth (pop : heap) : Prop := forall d d' l, (forall i, d i = d' i) -> pop d l = pop d' l.
Lemma erase_forward pop g n : by_depth pop -> ginv g -> gexact g -> node_forward itp pop (erase g) n = (erase (fst (node_forward itp pop g n)), snd (node_forward itp pop g n)).
Proof. intros HP G X. unfold node_forward, forward. rewrite erase_requests, (HP _ (depth0 g)) by apply erase_depth0. apply erase_run_fw; auto. Qed.

(** *** backward *)
Lemma fresh_eq al al' (x : tensor) k : al_exact al -> al_exact al' -> sane x -> (t <- alloc Debug al x ;; reset Debug t k) = (t <- alloc Debug al' x ;; reset Debug t k).
Proof. intros. eapply both; [apply g_fresh; auto|apply g_fresh; auto|apply u_fresh; auto|apply u_fresh; auto]. Qed.
Definition grads_exact (gal : grad_alloc K) : Prop := forall i v, al_exact (gal i v).
Lemma grads_fair gal : grads_exact gal -> fair_grads gal. Proof. intros H i v. apply exact_ok, H. Qed.
Lemma zgal_exact : grads_exact zgal. Proof. intros i v. apply zal_exact. Qed.
Lemma erase_seed gal g root : grads_exact gal -> ginv g -> seed Debug zgal (erase g) root = rmap erase (seed Debug gal g root).
Proof.
  intros HA G. unfold seed. rewrite erase_idx. unfold idx. destruct (nth_error (g_ops g) root) as [o|] eqn:Ho; [|reflexivity]. cbn [rmap bind erase_i oi_grads]. destruct (G _ _ Ho) as (_ & _ & D2 & _).
  apply same_bind.
  - apply mapM_ext. intros (v & t) Hin. cbn [fst snd]. apply fresh_eq; [apply zal_exact|apply HA|]. rewrite Forall_forall in D2. apply D2. eapply in_combine_r; eauto.
  - intros gs _. cbn [rmap]. f_equal. unfold set_op. apply erase_set. reflexivity.
Qed.
Lemma erase_set_grad g n t : set_grad (erase g) n t = erase (set_grad g n t).
Proof. unfold set_grad. rewrite erase_nth. destruct (nth_error (g_ops g) (fst n)) as [o|]; [|reflexivity]. cbn [option_map]. unfold set_op. apply erase_set. reflexivity. Qed.
Lemma erase_set_own g i t : set_own (erase g) i t = erase (set_own g i t).
Proof. unfold set_own. rewrite erase_nth. destruct (nth_error (g_ops g) i) as [o|]; [|reflexivity]. cbn [option_map]. unfold set_op. apply erase_set. reflexivity. Qed.
Lemma erase_ensure gal n g : grads_exact gal -> ginv g -> ensure_grad Debug zgal n (erase g) = rmap erase (ensure_grad Debug gal n g).
Proof.
  intros HA G. unfold ensure_grad. rewrite erase_grad. apply same_bind; [reflexivity|intros t Et]. destruct (good_Ok (grad_sane n G) Et) as (S & _). destruct (valid t); [reflexivity|].
  pose proof (fresh_eq n0 (zal_exact) (HA (fst n) (snd n)) S) as E. rewrite <- !bind_assoc. change (zgal (fst n) (snd n)) with zal. rewrite E. apply same_bind; [reflexivity|]. intros t2 _. cbn [rmap]. f_equal. apply erase_set_grad.
Qed.
Lemma hom_loop A B (R : A -> B -> Prop) (Inv : graph -> Prop) (f : A -> graph -> res graph) f' l l' : Forall2 R l l' ->
  (forall a b g, R a b -> In a l -> Inv g -> f' b (erase g) = rmap erase (f a g)) -> (forall a g, In a l -> Inv g -> good Inv (f a g)) -> forall g, Inv g -> forL l' f' (erase g) = rmap erase (forL l f g).
Proof.
  induction 1 as [|a b l l' HR _ IH]; intros H1 H2 g HI; [reflexivity|]. cbn [forL]. eapply hom_bind; [apply H1; cbn; auto|]. intros g1 E1. apply IH; [intros; apply H1; cbn; auto|intros; apply H2; cbn; auto|]. eapply good_Ok; [apply H2; cbn; eauto|exact E1].
Qed.
(** updates that agree on the gradients they are applied to *)
Definition same_upd (xs : list tensor) (os : option shape) (u v : update K) : Prop := fst u = fst v /\ forall gx, sane gx ->
  match fst u with Arg j => exists x, nth_error xs j = Some x /\ t_shape gx = t_shape x | Own => os = Some (t_shape gx) end -> snd u gx = snd v gx.
Lemma backward_same (k : kind K) d bal bal' xs ys gys : supplied k -> exacts bal -> exacts bal' -> sanes xs -> sanes ys -> sanes gys -> shapes gys = shapes ys -> forward_shape Debug k (shapes xs) = Ok (shapes ys) ->
  (scalar_kind k = true -> forall s, nth_error (shapes xs) 1 = Some s -> is_scalar s = true) -> (forall ids, k <> KBatchPick ids) ->
  match backward_op Debug d bal k xs ys gys, backward_op Debug d bal' k xs ys gys with Ok us, Ok vs => Forall2 (same_upd xs (own_shape k)) us vs | Panic, Panic => True | _, _ => False end.
Proof.
  intros HK HA HA' HX HY HG ES EF HS HB.
  assert (G : forall al, exacts al -> good (Forall (upd_ok xs (own_shape k))) (backward_op Debug d al k xs ys gys)) by (intros al Hal; apply backward_good; auto; intros i; apply exact_ok, Hal).
  pose proof (G _ HA) as G1. pose proof (G _ HA') as G2. pose proof (u_backward_op (d := d) HK HA HA' HX HY HG) as U. pose proof (u_backward_op (d := d) HK HA' HA HX HY HG) as U'. unfold u_ups in U, U'.
  destruct (backward_op Debug d bal k xs ys gys) as [us| |]; [| |destruct G1]; destruct (backward_op Debug d bal' k xs ys gys) as [vs| |]; try solve [destruct G2]; auto.
  - destruct (U us eq_refl) as (vs' & E1 & F1). injection E1 as <-. destruct (U' vs eq_refl) as (us' & E2 & F2). injection E2 as <-. cbn [good] in *. clear U U' G. revert G1 G2 F2. induction F1 as [|u v us vs L F1 IH]; intros G1 G2 F2; [constructor|].
    inversion F2; subst. inversion G1; subst. inversion G2; subst. constructor; [|apply IH; auto]. split; [apply L|]. intros gx Sg C. destruct L as (L1 & L2). match goal with H : u_update v u |- _ => destruct H as (M1 & M2) end.
    eapply both; [apply H1; auto|match goal with H : upd_ok _ _ v |- _ => apply H; auto end; rewrite <- L1; exact C|apply L2; auto|apply M2; auto].
  - destruct (U us eq_refl) as (vs' & E1 & _). discriminate.
  - destruct (U' vs eq_refl) as (vs' & E1 & _). discriminate.
Qed.
Lemma erase_update g0 g i o xs (u v : update K) : ginv g -> alike g0 g -> nth_error (g_ops g0) i = Some o -> Forall2 (fun n s => node_shape g0 n = Some s) (oi_args o) (shapes xs) ->
  same_upd xs (own_shape (o_kind (oi_op o))) u v -> apply_update i (oi_args o) v (erase g) = rmap erase (apply_update i (oi_args o) u g).
Proof.
  intros G H Ho HS (EU & HU). unfold apply_update. rewrite <- EU. destruct u as [[j|] f]; cbn [fst snd] in *.
  - apply same_bind; [reflexivity|intros n En]. rewrite erase_grad. apply same_bind; [reflexivity|intros t Et]. destruct (good_Ok (grad_sane n G) Et) as (S & E & _). apply idx_nth_inv in En.
    destruct (Forall2_at' HS En) as (s & Hs & Es). pose proof (alike_shape H Es) as Es'. rewrite Es' in E. injection E as E.
    rewrite (HU t S).
    + apply same_bind; [reflexivity|intros t' _]. cbn [rmap]. f_equal. apply erase_set_grad.
    + destruct (nth_error xs j) as [x|] eqn:Hx; [|apply nth_error_None in Hx; assert (NN : nth_error (shapes xs) j = None) by (apply nth_error_None; rewrite map_length; auto); congruence].
      exists x. split; auto. rewrite (map_nth_error _ _ _ Hx) in Hs. congruence.
  - rewrite erase_idx. destruct (Forall2_at' H Ho) as (o' & Ho' & L1 & L2 & L3 & L4). unfold idx. rewrite Ho'. cbn [rmap bind erase_i oi_own]. destruct (oi_own o') as [t|] eqn:EO; [|reflexivity]. cbn [unwrap bind].
    destruct (G _ _ Ho') as (S1 & D1 & D2 & D3). destruct (D3 _ EO) as (S & ES). rewrite L1 in ES. rewrite (HU t S ES). apply same_bind; [reflexivity|intros t' _]. cbn [rmap]. f_equal. apply erase_set_own.
Qed.
Lemma keeps_inv g g' g'' : keeps_all g g' -> keeps_all g' g'' -> keeps_all g g''.
Proof. intros (_ & A) (G & B). split; auto. eapply alike_trans; eauto. Qed.
Lemma erase_step_bw gal g i : grads_exact gal -> ginv g -> gexact g -> (forall o ids, nth_error (g_ops g) i = Some o -> o_kind (oi_op o) <> KBatchPick ids) -> step_bw Debug itp zgal (erase g) i = rmap erase (step_bw Debug itp gal g i).
Proof.
  intros HA G X HB. unfold step_bw. rewrite erase_idx. unfold idx. destruct (nth_error (g_ops g) i) as [o|] eqn:Ho; [|reflexivity]. cbn [rmap bind erase_i oi_op oi_args oi_vals oi_grads].
  apply same_bind; [apply mapM_ext; intros; apply erase_value|intros xs Ex]. destruct (good_Ok (args_sane _ G) Ex) as (Sx & Es). pose proof (grads_fair HA) as HF.
  eapply hom_bind.
  - apply (@hom_loop _ _ eq (keeps_all g)) with (f := ensure_grad Debug gal); [clear; induction (oi_args o); constructor; auto| | |split; [auto|apply alike_refl]].
    + intros a b g1 <- _ (G1 & _). apply erase_ensure; auto.
    + intros n g1 _ K1. eapply good_weaken; [apply ensure_good; [auto|apply K1]|]. intros g2 K2. eapply keeps_inv; eauto.
  - intros g1 E1. cbn [interp op_backward erase_op o_dev o_bal o_kind].
    assert (K1 : keeps_all g g1). { eapply good_Ok; [|exact E1]. apply (loop_keeps (g0 := g)); [exact G|apply alike_refl|]. intros n g' _ G' _. apply ensure_good; auto. }
    destruct (G _ _ Ho) as (SO & D1 & D2 & D3). destruct (static_args SO Es) as (F1 & F2). destruct SO as (A1 & A2 & A3 & _). destruct (X _ _ Ho) as (X1 & X2).
    assert (HBK : forall ids, o_kind (oi_op o) <> KBatchPick ids) by eauto.
    pose proof (@backward_same (o_kind (oi_op o)) (o_dev (oi_op o)) (o_bal (oi_op o)) zals xs (oi_vals o) (oi_grads o) A1 X2 zals_exact Sx D1 D2 A3 F1 F2 HBK) as BS.
    assert (GB : good (Forall (fun u : update K => upd_ok xs (own_shape (o_kind (oi_op o))) u /\ keeps (snd u))) (backward_op Debug (o_dev (oi_op o)) (o_bal (oi_op o)) (o_kind (oi_op o)) xs (oi_vals o) (oi_grads o))).
    { eapply good_and; [apply backward_good; auto; intros j; apply exact_ok, X2|]. intros us Eu Hu. rewrite Forall_forall in Hu |- * . intros u Hin. split; auto. eapply (@interp_lawful_bw K Debug (oi_op o)); [exact Eu|exact Hin]. }
    destruct (backward_op Debug (o_dev (oi_op o)) (o_bal (oi_op o)) (o_kind (oi_op o)) xs (oi_vals o) (oi_grads o)) as [us| |]; destruct (backward_op Debug (o_dev (oi_op o)) zals (o_kind (oi_op o)) xs (oi_vals o) (oi_grads o)) as [vs| |]; try (destruct BS; fail); [|reflexivity].
    cbn [bind]. cbn [good] in GB. rewrite Forall_forall in GB.
    apply (@hom_loop _ _ (same_upd xs (own_shape (o_kind (oi_op o)))) (keeps_all g)); auto.
    + intros u v g2 HR Hin (G2 & K2). eapply erase_update; eauto.
    + intros u g2 Hin K2. destruct (GB u Hin). eapply good_weaken; [eapply update_good; [apply K2|apply K2|exact Ho|exact Es| |]; auto|]. intros g3 K3. eapply keeps_inv; eauto.
Qed.
Lemma erase_backward gal pop g root : grads_exact gal -> max_heap pop -> by_depth pop -> ginv g -> gexact g -> no_batch_pick g root -> backward Debug itp zgal pop (erase g) root = rmap erase (backward Debug itp gal pop g root).
Proof.
  intros HA HP HD G X HB. pose proof (grads_fair HA) as HF. unfold backward. eapply hom_bind; [apply erase_seed; auto|]. intros g1 E1. destruct (good_Ok (seed_good root HF G) E1) as (G1 & H1). rewrite erase_requests, (HD _ (depth0 g1)) by apply erase_depth0.
  assert (HB' : forall g2 i o ids, alike g g2 -> In i (pop (depth0 g1) (requests g1 root)) -> nth_error (g_ops g2) i = Some o -> o_kind (oi_op o) <> KBatchPick ids).
  { intros g2 i o ids H2 Hi Ho. destruct (Forall2_at H2 Ho) as (o0 & Ho0 & L & _). rewrite L. eapply HB; [|exact Ho0]. eapply uses_alike; [exact H1|]. apply requests_sound. destruct (HP (depth0 g1) (requests g1 root)) as (PM & _). eapply Permutation_in; [apply Permutation_sym; exact PM|exact Hi]. }
  apply (@hom_loop _ _ eq (keeps_all g)) with (f := fun i g => step_bw Debug itp gal g i); [clear; induction (pop (depth0 g1) (requests g1 root)); constructor; auto| | |split; auto].
  - intros i j g2 <- Hi (G2 & H2). apply erase_step_bw; auto; [eapply alike_exact; eauto|]. intros o ids Ho. eapply HB'; eauto.
  - intros i g2 Hi (G2 & H2). eapply good_weaken; [apply step_bw_good; auto; intros o ids Ho; eapply HB'; eauto|]. intros g3 K3. eapply keeps_inv; [split; [exact G2|exact H2]|exact K3].
Qed.
Lemma erase_node_backward gal popf popb g n : grads_exact gal -> max_heap popb -> by_depth popf -> by_depth popb -> ginv g -> gexact g -> no_batch_pick g (fst n) ->
  node_backward Debug itp zgal popf popb (erase g) n = rmap erase (node_backward Debug itp gal popf popb g n).
Proof.
  intros HA HM H1 H2 G X HB. unfold node_backward. rewrite (erase_forward n H1 G X). destruct (node_forward itp popf g n) as [g1 r] eqn:E. destruct (forward_session G E) as (G1 & A1 & _). cbn [fst snd]. destruct r; [|reflexivity|reflexivity].
  apply erase_backward; auto; [eapply alike_exact; eauto|]. intros i o ids Hi Ho. destruct (Forall2_at A1 Ho) as (o0 & Ho0 & L & _). rewrite L. eapply HB; [|exact Ho0]. eapply uses_alike; eauto.
Qed.
Lemma erase_to_vec pop g n : by_depth pop -> ginv g -> gexact g -> node_to_vec Debug itp pop (erase g) n = (erase (fst (node_to_vec Debug itp pop g n)), snd (node_to_vec Debug itp pop g n)).
Proof.
  intros HP G X. unfold node_to_vec. rewrite (erase_forward n HP G X). destruct (node_forward itp pop g n) as [g1 r]. cbn [fst snd]. destruct r; cbn [fst snd]; auto. rewrite erase_value. reflexivity.
Qed.
End Erase.
