(** * ApiElem: the elementwise functions, transfers, and compound assignment *)
From Verif Require Export ApiFacts.
Set Implicit Arguments.

Section ApiElem.
Variable K : num.
Notation F := (F K).
Notation tensor := (tensor K).
Variable m : build.

(** ** registry: which kernel a name is bound to *)
Lemma call_fw_eq name k : assoc (fw_registry K m) name = Some k -> forall xs u f (y : tensor), call_fw m name xs u f y = k xs u f y.
Proof. intros H xs u f y. unfold call_fw. rewrite H. reflexivity. Qed.
Lemma call_bw_eq name k : assoc (bw_registry K m) name = Some k -> forall als xs ys gys u f (gx : tensor),
  call_bw m als name xs ys gys u f gx = k als xs ys gys u f gx.
Proof. intros H als xs ys gys u f gx. unfold call_bw. rewrite H. reflexivity. Qed.

(** ** Unary *)
Lemma fw_x_flat name op d al (x : tensor) : assoc (fw_registry K m) name = Some (fx (k_fw_x m op)) -> al_ok al -> ready d x ->
  yields_flat (define_fw_x m name d al x) d (t_shape x) (fun p => op (nth0 (buf x) p)).
Proof.
  intros HN HA HR. unfold define_fw_x. rewrite (ready_check HR). cbn [bind].
  apply fw_flat; [exact HA|apply (ready_fits HR)|]. intros y ly Hy Es. rewrite (call_fw_eq _ HN). cbn.
  destruct (k_fw_x_spec m op (ready_vt HR) Hy) as (l' & E & HO); [rewrite Es; reflexivity|].
  exists l'. rewrite <- Es. auto.
Qed.
Lemma fw_const_flat name op d al (x : tensor) k : assoc (fw_registry K m) name = Some (fxc (k_fw_const m op)) -> al_ok al -> ready d x ->
  yields_flat (define_fw_const m name d al x k) d (t_shape x) (fun p => op (nth0 (buf x) p) k).
Proof.
  intros HN HA HR. unfold define_fw_const. rewrite (ready_check HR). cbn [bind].
  apply fw_flat; [exact HA|apply (ready_fits HR)|]. intros y ly Hy Es. rewrite (call_fw_eq _ HN). cbn. rewrite k_fw_const_eq.
  destruct (k_fw_x_spec m (fun v => op v k) (ready_vt HR) Hy) as (l' & E & HO); [rewrite Es; reflexivity|].
  exists l'. rewrite <- Es. auto.
Qed.
Lemma as_u32_i32 k : (-2147483648 <= k <= 2147483647)%Z -> as_i32 (as_u32 k) = k.
Proof.
  intros H. unfold as_i32, as_u32.
  destruct (Z_lt_le_dec k 0).
  - replace (k mod 4294967296)%Z with (k + 4294967296)%Z.
    + destruct (Z.to_N (k + 4294967296) <? 2147483648)%N eqn:E; [apply N.ltb_lt in E; lia|]. lia.
    + apply Z.mod_unique_pos with (-1)%Z; lia.
  - rewrite Z.mod_small by lia. destruct (Z.to_N k <? 2147483648)%N eqn:E; [lia|apply N.ltb_ge in E; lia].
Qed.
Lemma powi_flat d al (x : tensor) k : (-2147483648 <= k <= 2147483647)%Z -> al_ok al -> ready d x ->
  yields_flat (powi_fw m d al x k) d (t_shape x) (fun p => npowi K (nth0 (buf x) p) k).
Proof.
  intros Hk HA HR. unfold powi_fw. rewrite (ready_check HR). cbn [bind].
  apply fw_flat; [exact HA|apply (ready_fits HR)|]. intros y ly Hy Es.
  rewrite (call_fw_eq _ (eq_refl : assoc (fw_registry K m) "powi_fw_impl" = _)). cbn [idx bind nth_error]. rewrite k_powi_fw_eq.
  destruct (k_fw_x_spec m (fun v => npowi K v (as_i32 (as_u32 k))) (ready_vt HR) Hy) as (l' & E & HO); [rewrite Es; reflexivity|].
  exists l'. rewrite <- Es. split; [exact E|]. rewrite as_u32_i32 in HO; auto.
Qed.

(** ** Binary *)
Lemma fw_ab_flat name op d al (a b : tensor) s : assoc (fw_registry K m) name = Some (fxx (k_fw_ab op)) -> al_ok al -> ready d a -> ready d b ->
  so_elementwise (t_shape a) (t_shape b) = Ok s ->
  yields_flat (define_fw_ab m name so_elementwise d al a b) d s
     (fun p => op (nth0 (buf a) (bpos (t_shape a) (vol s) p)) (nth0 (buf b) (bpos (t_shape b) (vol s) p))).
Proof.
  intros HN HA Ha Hb HS. unfold define_fw_ab. rewrite (ready_check Ha), (ready_check Hb). cbn [bind]. rewrite HS. cbn [bind].
  pose proof (elementwise_fits (ready_fits Ha) (ready_fits Hb) HS) as Hf.
  apply fw_flat; [exact HA|exact Hf|]. intros y ly Hy Es. rewrite (call_fw_eq _ HN). cbn.
  destruct (elementwise_shape (ready_wf Ha) (ready_wf Hb) HS) as (_ & _ & _ & Va & Vb & Ba & Bb & _ & _).
  destruct (k_fw_ab_spec op (ready_vt Ha) (ready_vt Hb) Hy) as (l' & E & HO).
  - rewrite Es. apply okb_of; auto. apply (ready_wf Ha).
  - rewrite Es. apply okb_of; auto. apply (ready_wf Hb).
  - exists l'. rewrite Es in HO. auto.
Qed.
Lemma scalar_vol s : wf s -> (forall i, index s i = 1%N) -> vol s = 1.
Proof.
  intros H E. rewrite <- (vol_volume H). rewrite (wf_vol H).
  assert (dims8 s = repeat 1%N 8) as ->; [|reflexivity].
  apply nth_ext_len with 1%N; [rewrite repeat_length; apply (wf_len H)|].
  intros i Hi. rewrite (wf_len H) in Hi. rewrite <- wf_index, E by auto. rewrite nth_repeat; reflexivity.
Qed.
Lemma scalar_op_shape x k s : wf x -> wf k -> so_scalar_op x k = Ok s ->
  wf s /\ (forall i, ext s i = ext x i) /\ vol s = vol x /\ vol k = 1 /\
  (bat x = 1 \/ bat x = bat s) /\ (bat k = 1 \/ bat k = bat s) /\ bat s = Nat.max (bat x) (bat k).
Proof.
  intros Hx Hk H. apply so_scalar_op_iff in H; auto. destruct H as (H1 & Hc & Hs).
  destruct (is_shape_ext' Hs) as (E1 & E2 & E3).
  assert (E: forall i, ext s i = ext x i) by (intros; rewrite E1; reflexivity).
  split; [exact E3|]. split; [exact E|]. split; [apply vol_ext; auto|]. split; [apply scalar_vol; auto|].
  unfold bat in *. destruct Hs as (_ & _ & Hb). rewrite Hb. pose proof (wf_batch Hx); pose proof (wf_batch Hk).
  unfold compat in Hc. destruct Hc as [Hc|[Hc|Hc]]; lia.
Qed.
Lemma fw_scalar_flat name op d al (x k : tensor) s : assoc (fw_registry K m) name = Some (fxx (k_fw_scalar op)) -> al_ok al -> ready d x -> ready d k ->
  so_scalar_op (t_shape x) (t_shape k) = Ok s -> fits s ->
  yields_flat (define_fw_ab m name so_scalar_op d al x k) d s
     (fun p => op (nth0 (buf x) (bpos (t_shape x) (vol s) p)) (nth0 (buf k) (bsel (t_shape k) (p / vol s)))).
Proof.
  intros HN HA Ha Hb HS Hf. unfold define_fw_ab. rewrite (ready_check Ha), (ready_check Hb). cbn [bind]. rewrite HS. cbn [bind].
  apply fw_flat; [exact HA|exact Hf|]. intros y ly Hy Es. rewrite (call_fw_eq _ HN). cbn.
  destruct (scalar_op_shape (ready_wf Ha) (ready_wf Hb) HS) as (_ & _ & Va & Vb & Ba & Bb & _).
  destruct (k_fw_scalar_spec op (ready_vt Ha) (ready_vt Hb) Hy) as (l' & E & HO).
  - rewrite Es. apply okb_of; auto. apply (ready_wf Ha).
  - rewrite Es. split; [apply (ready_wf Hb)|]. auto.
  - exists l'. rewrite Es in HO. auto.
Qed.

(** coordinate forms *)
Lemma fw_x_yields name op d al (x : tensor) : assoc (fw_registry K m) name = Some (fx (k_fw_x m op)) -> al_ok al -> ready d x ->
  yields (define_fw_x m name d al x) d (t_shape x) (fun c b => op (at_ x c b)).
Proof. intros HN HA HR. eapply yields_of_flat; [apply fw_x_flat; eauto|]. reflexivity. Qed.
Lemma fw_const_yields name op d al (x : tensor) k : assoc (fw_registry K m) name = Some (fxc (k_fw_const m op)) -> al_ok al -> ready d x ->
  yields (define_fw_const m name d al x k) d (t_shape x) (fun c b => op (at_ x c b) k).
Proof. intros HN HA HR. eapply yields_of_flat; [apply fw_const_flat; eauto|]. reflexivity. Qed.
Lemma powi_yields d al (x : tensor) k : (-2147483648 <= k <= 2147483647)%Z -> al_ok al -> ready d x ->
  yields (powi_fw m d al x k) d (t_shape x) (fun c b => npowi K (at_ x c b) k).
Proof. intros Hk HA HR. eapply yields_of_flat; [apply powi_flat; eauto|]. reflexivity. Qed.
Lemma fw_ab_yields name op d al (a b : tensor) s : assoc (fw_registry K m) name = Some (fxx (k_fw_ab op)) -> al_ok al -> ready d a -> ready d b ->
  so_elementwise (t_shape a) (t_shape b) = Ok s ->
  yields (define_fw_ab m name so_elementwise d al a b) d s (fun c n => op (at_ a c (bsel (t_shape a) n)) (at_ b c (bsel (t_shape b) n))).
Proof.
  intros HN HA Ha Hb HS. eapply yields_of_flat; [eapply fw_ab_flat; eauto|]. intros c n Hc Hn. cbn beta.
  destruct (elementwise_shape (ready_wf Ha) (ready_wf Hb) HS) as (W & Ea & Eb & _).
  rewrite !bpos_pos; auto.
Qed.
Lemma scalar_pos s c b : wf s -> (forall i, ext s i = 1) -> inb s c -> pos s c b = b.
Proof.
  intros W E Hc. unfold pos.
  assert (vol s = 1) as ->. { apply scalar_vol; auto. intros i. specialize (E i). unfold ext in E. lia. }
  assert (lin_lt (ext s) c 8 = 0).
  { assert (H: lin_lt (ext s) c 8 < prod_lt (ext s) 8) by (apply lin_lt_lt; intros; apply Hc).
    assert (prod_lt (ext s) 8 = 1). { cbn. rewrite !E. reflexivity. } lia. }
  lia.
Qed.
Lemma fw_scalar_yields name op d al (x k : tensor) s : assoc (fw_registry K m) name = Some (fxx (k_fw_scalar op)) -> al_ok al -> ready d x -> ready d k ->
  so_scalar_op (t_shape x) (t_shape k) = Ok s -> fits s ->
  yields (define_fw_ab m name so_scalar_op d al x k) d s (fun c n => op (at_ x c (bsel (t_shape x) n)) (at_ k czero (bsel (t_shape k) n))).
Proof.
  intros HN HA Ha Hb HS Hf. eapply yields_of_flat; [eapply fw_scalar_flat; eauto|]. intros c n Hc Hn. cbn beta.
  pose proof HS as HS'. apply so_scalar_op_iff in HS'; [|apply (ready_wf Ha)|apply (ready_wf Hb)]. destruct HS' as (H1 & _).
  destruct (scalar_op_shape (ready_wf Ha) (ready_wf Hb) HS) as (W & Ea & _).
  rewrite bpos_pos; auto. f_equal. rewrite at_buf.
  rewrite (scalar_pos (c:=czero)); [|apply (ready_wf Hb)|intros i; unfold ext; rewrite H1; reflexivity|].
  - unfold pos. assert (HL : lin_lt (ext s) c 8 < vol s) by (apply lin_lt_lt; intros; apply Hc).
    destruct (divmod_of n HL) as [-> _]. reflexivity.
  - intros i. unfold czero. pose proof (ext_pos i (ready_wf Hb)). lia.
Qed.

(** ** In-place updates *)
Lemma bw_checks_Ok d (x y gy gx : tensor) : ready d x -> ready d y -> ready d gy -> ready d gx ->
  t_shape y = t_shape x -> t_shape gy = t_shape x -> t_shape gx = t_shape x -> bw_x_checks d x y gy gx = Ok tt.
Proof.
  intros Hx Hy Hg Hgx E1 E2 E3. unfold bw_x_checks. rewrite !ready_check by auto. cbn [bind].
  rewrite !same_shape_Ok; auto; try congruence; [apply (ready_wf Hx)|rewrite E1; apply (ready_wf Hx)|apply (ready_wf Hx)].
Qed.
Lemma bw_x_updates name op d (x y gy gx : tensor) : assoc (bw_registry K m) name = Some (bx (k_bw_x m op)) ->
  ready d x -> ready d y -> ready d gy -> ready d gx ->
  t_shape y = t_shape x -> t_shape gy = t_shape x -> t_shape gx = t_shape x ->
  updates (define_bw_x m name d x y gy gx) gx (fun p => nadd K (nth0 (buf gx) p) (op (nth0 (buf x) p) (nth0 (buf y) p) (nth0 (buf gy) p))).
Proof.
  intros HN Hx Hy Hg Hgx E1 E2 E3. unfold define_bw_x. rewrite bw_checks_Ok by auto. cbn [bind].
  rewrite (call_bw_eq _ HN). cbn.
  destruct (k_bw_x_spec m op (ready_vt Hx) (ready_vt Hy) (ready_vt Hg) (ready_vt Hgx)) as (l' & E & HO); try congruence.
  exists l'. auto.
Qed.
Lemma bw_const_updates name op d (x y gy gx : tensor) k : assoc (bw_registry K m) name = Some (bxc (k_bw_const m op)) ->
  ready d x -> ready d y -> ready d gy -> ready d gx ->
  t_shape y = t_shape x -> t_shape gy = t_shape x -> t_shape gx = t_shape x ->
  updates (define_bw_const m name d x y gy k gx) gx (fun p => nadd K (nth0 (buf gx) p) (op (nth0 (buf x) p) (nth0 (buf y) p) (nth0 (buf gy) p) k)).
Proof.
  intros HN Hx Hy Hg Hgx E1 E2 E3. unfold define_bw_const. rewrite bw_checks_Ok by auto. cbn [bind].
  rewrite (call_bw_eq _ HN). cbn. rewrite k_bw_const_eq.
  destruct (k_bw_x_spec m (fun a b c => op a b c k) (ready_vt Hx) (ready_vt Hy) (ready_vt Hg) (ready_vt Hgx)) as (l' & E & HO); try congruence.
  exists l'. auto.
Qed.
Lemma powi_bw_updates d (x y gy gx : tensor) k : (-2147483648 < k <= 2147483647)%Z ->
  ready d x -> ready d y -> ready d gy -> ready d gx ->
  t_shape y = t_shape x -> t_shape gy = t_shape x -> t_shape gx = t_shape x ->
  updates (powi_bw m d x y gy k gx) gx (fun p => nadd K (nth0 (buf gx) p)
     (nmul K (nmul K (nth0 (buf gy) p) (nofZ K k)) (npowi K (nth0 (buf x) p) (k - 1)))).
Proof.
  intros Hk Hx Hy Hg Hgx E1 E2 E3. unfold powi_bw. rewrite bw_checks_Ok by auto. cbn [bind].
  rewrite (call_bw_eq _ (eq_refl : assoc (bw_registry K m) "powi_bw_impl" = _)). cbn [idx nth_error bind].
  destruct (k_powi_bw_spec m (as_u32 k) [] (n1':=(k-1)%Z) (ready_vt Hx) (ready_vt Hg) (ready_vt Hgx)) as (l' & E & HO); try congruence.
  - rewrite as_u32_i32 by lia. unfold sub_i32.
    destruct ((-2147483648 <=? k - 1) && (k - 1 <=? 2147483647))%Z eqn:E; [reflexivity|].
    apply andb_false_iff in E. destruct E as [E|E]; apply Z.leb_gt in E; lia.
  - rewrite as_u32_i32 in HO by lia. exists l'; auto.
Qed.

(** binary backward: the gradient of an operand of batch 1 collects all batches *)
Section BwAB.
Variables (d : nat) (a b y gy : tensor) (s : shape).
Hypotheses (Ha : ready d a) (Hb : ready d b) (Hy : ready d y) (Hg : ready d gy).
Hypotheses (HS : so_elementwise (t_shape a) (t_shape b) = Ok s) (Ey : t_shape y = s) (Eg : t_shape gy = s).

Lemma bw_ab_a_checks name (ga : tensor) als : ready d ga -> t_shape ga = t_shape a ->
  define_bw_ab_a m name so_elementwise als d a b y gy ga = call_bw m als name [a; b] [y] [gy] [] [] ga.
Proof.
  intros Hga E. unfold define_bw_ab_a. rewrite !ready_check by auto. cbn [bind].
  rewrite !same_shape_Ok; auto; try congruence; [|apply (ready_wf Hy)|apply (ready_wf Ha)]. cbn [bind]. rewrite HS. cbn [bind].
  rewrite Ey, assert_eqb; [reflexivity|]. rewrite <- Ey; apply (ready_wf Hy).
Qed.
Lemma bw_ab_b_checks name (gb : tensor) als : ready d gb -> t_shape gb = t_shape b ->
  define_bw_ab_b m name so_elementwise als d a b y gy gb = call_bw m als name [a; b] [y] [gy] [] [] gb.
Proof.
  intros Hga E. unfold define_bw_ab_b. rewrite !ready_check by auto. cbn [bind].
  rewrite !same_shape_Ok; auto; try congruence; [|apply (ready_wf Hy)|apply (ready_wf Hb)]. cbn [bind]. rewrite HS. cbn [bind].
  rewrite Ey, assert_eqb; [reflexivity|]. rewrite <- Ey; apply (ready_wf Hy).
Qed.
Lemma okb_a : okb (bat (t_shape gy)) (vol (t_shape gy)) (t_shape a).
Proof.
  rewrite Eg. destruct (elementwise_shape (ready_wf Ha) (ready_wf Hb) HS) as (_ & _ & _ & Va & Vb & Ba & Bb & _ & _).
  apply okb_of; auto. apply (ready_wf Ha).
Qed.
Lemma okb_b : okb (bat (t_shape gy)) (vol (t_shape gy)) (t_shape b).
Proof.
  rewrite Eg. destruct (elementwise_shape (ready_wf Ha) (ready_wf Hb) HS) as (_ & _ & _ & Va & Vb & Ba & Bb & _ & _).
  apply okb_of; auto. apply (ready_wf Hb).
Qed.
(** [gx] receives, for each batch n of the result, the value [h n q] at offset q *)
Definition collects (r : res tensor) (gx : tensor) (h : nat -> nat -> F -> F) : Prop :=
  updates r gx (fun p => acc_batches K (t_shape gx) (bat s) (p / vol s) (fun n v => h n (p mod vol s) v) (nth0 (buf gx) p)).

Lemma lin_collects_a name acc ga : assoc (bw_registry K m) name = Some (fun _ _ _ gys _ _ ga => gy <- idx gys 0 ;; k_bw_lin acc gy ga) ->
  ready d ga -> t_shape ga = t_shape a ->
  collects (define_bw_ab_a m name so_elementwise (no_als K) d a b y gy ga) ga (fun n q v => acc v (nth0 (buf gy) (n * vol s + q))).
Proof.
  intros HN Hga E. rewrite bw_ab_a_checks by auto. rewrite (call_bw_eq _ HN). cbn.
  destruct (k_bw_lin_spec acc (ready_vt Hg) (ready_vt Hga)) as (l' & E' & HO); [rewrite E; apply okb_a|].
  exists l'. split; auto. rewrite Eg in HO. exact HO.
Qed.
Lemma lin_collects_b name acc gb : assoc (bw_registry K m) name = Some (fun _ _ _ gys _ _ ga => gy <- idx gys 0 ;; k_bw_lin acc gy ga) ->
  ready d gb -> t_shape gb = t_shape b ->
  collects (define_bw_ab_b m name so_elementwise (no_als K) d a b y gy gb) gb (fun n q v => acc v (nth0 (buf gy) (n * vol s + q))).
Proof.
  intros HN Hga E. rewrite bw_ab_b_checks by auto. rewrite (call_bw_eq _ HN). cbn.
  destruct (k_bw_lin_spec acc (ready_vt Hg) (ready_vt Hga)) as (l' & E' & HO); [rewrite E; apply okb_b|].
  exists l'. split; auto. rewrite Eg in HO. exact HO.
Qed.
Lemma other_collects_a name op ga : assoc (bw_registry K m) name = Some (fun _ xs _ gys _ _ ga => b <- idx xs 1 ;; gy <- idx gys 0 ;; k_bw_other op b gy ga) ->
  ready d ga -> t_shape ga = t_shape a ->
  collects (define_bw_ab_a m name so_elementwise (no_als K) d a b y gy ga) ga
    (fun n q v => nadd K v (op (nth0 (buf b) (bsel (t_shape b) n * vol s + q)) (nth0 (buf gy) (n * vol s + q)))).
Proof.
  intros HN Hga E. rewrite bw_ab_a_checks by auto. rewrite (call_bw_eq _ HN). cbn.
  destruct (k_bw_other_spec op (ready_vt Hb) (ready_vt Hg) (ready_vt Hga)) as (l' & E' & HO); [rewrite E; apply okb_a|apply okb_b|].
  exists l'. split; auto. rewrite Eg in HO. exact HO.
Qed.
Lemma other_collects_b name op gb : assoc (bw_registry K m) name = Some (fun _ xs _ gys _ _ ga => a <- idx xs 0 ;; gy <- idx gys 0 ;; k_bw_other op a gy ga) ->
  ready d gb -> t_shape gb = t_shape b ->
  collects (define_bw_ab_b m name so_elementwise (no_als K) d a b y gy gb) gb
    (fun n q v => nadd K v (op (nth0 (buf a) (bsel (t_shape a) n * vol s + q)) (nth0 (buf gy) (n * vol s + q)))).
Proof.
  intros HN Hga E. rewrite bw_ab_b_checks by auto. rewrite (call_bw_eq _ HN). cbn.
  destruct (k_bw_other_spec op (ready_vt Ha) (ready_vt Hg) (ready_vt Hga)) as (l' & E' & HO); [rewrite E; apply okb_b|apply okb_a|].
  exists l'. split; auto. rewrite Eg in HO. exact HO.
Qed.
Lemma div_collects_b gb : ready d gb -> t_shape gb = t_shape b ->
  collects (div_bw_b m d a b y gy gb) gb
    (fun n q v => nsub K v (ndiv K (nmul K (nth0 (buf gy) (n * vol s + q)) (nth0 (buf y) (n * vol s + q)))
                                   (nth0 (buf b) (bsel (t_shape b) n * vol s + q)))).
Proof.
  intros Hga E. unfold div_bw_b. rewrite bw_ab_b_checks by auto.
  rewrite (call_bw_eq _ (eq_refl : assoc (bw_registry K m) "div_bw_b_impl" = _)). cbn [idx nth_error bind].
  destruct (k_div_bw_b_spec (ready_vt Hb) (ready_vt Hy) (ready_vt Hg) (ready_vt Hga)) as (l' & E' & HO); try congruence; [rewrite E; apply okb_b|].
  exists l'. split; auto. cbv zeta in HO. rewrite Eg, E in HO. rewrite E. exact HO.
Qed.
Lemma powf_collects_a ga : ready d ga -> t_shape ga = t_shape a ->
  collects (powf_bw_a m d a b y gy ga) ga
    (fun n q v => nadd K v (nmul K (nmul K (nth0 (buf gy) (n * vol s + q)) (nth0 (buf b) (bsel (t_shape b) n * vol s + q)))
        (npowf K (nth0 (buf a) (bsel (t_shape a) n * vol s + q)) (nsub K (nth0 (buf b) (bsel (t_shape b) n * vol s + q)) n1)))).
Proof.
  intros Hga E. unfold powf_bw_a. rewrite bw_ab_a_checks by auto.
  rewrite (call_bw_eq _ (eq_refl : assoc (bw_registry K m) "powf_bw_a_impl" = _)). cbn [idx nth_error bind].
  destruct (k_powf_bw_a_spec (ready_vt Ha) (ready_vt Hb) (ready_vt Hg) (ready_vt Hga)) as (l' & E' & HO); try congruence;
    [rewrite E; apply okb_a|apply okb_b|].
  exists l'. split; auto. cbv zeta in HO. rewrite Eg, E in HO. rewrite E. exact HO.
Qed.
Lemma powf_collects_b gb : ready d gb -> t_shape gb = t_shape b ->
  collects (powf_bw_b m d a b y gy gb) gb
    (fun n q v => nadd K v (nmul K (nmul K (nth0 (buf gy) (n * vol s + q)) (nln K (nth0 (buf a) (bsel (t_shape a) n * vol s + q))))
        (nth0 (buf y) (n * vol s + q)))).
Proof.
  intros Hga E. unfold powf_bw_b. rewrite bw_ab_b_checks by auto.
  rewrite (call_bw_eq _ (eq_refl : assoc (bw_registry K m) "powf_bw_b_impl" = _)). cbn [idx nth_error bind].
  destruct (k_powf_bw_b_spec (ready_vt Ha) (ready_vt Hy) (ready_vt Hg) (ready_vt Hga)) as (l' & E' & HO); try congruence;
    [rewrite E; apply okb_b|apply okb_a|].
  exists l'. split; auto. cbv zeta in HO. rewrite Eg, E in HO. rewrite E. exact HO.
Qed.
End BwAB.

(** ** Compound assignment *)
Definition assign_ok (x y : tensor) : Prop :=
  (forall i, ext (t_shape x) i = ext (t_shape y) i) /\ (bat (t_shape x) = 1 \/ bat (t_shape y) = 1 \/ bat (t_shape x) = bat (t_shape y)).
Lemma assign_updates name acc d (x y : tensor) (f : nat -> tensor -> tensor -> res tensor) :
  assoc (fw_registry K m) name = Some (fx (k_assign acc)) ->
  (forall x y, f d x y = (_ <- check_dev d x ;; _ <- check_dev d y ;; call_fw m name [x] [] [] y)) ->
  ready d x -> ready d y -> assign_ok x y ->
  let B := Nat.max (bat (t_shape x)) (bat (t_shape y)) in let V := vol (t_shape x) in
  updates (f d x y) y (fun p => acc_batches K (t_shape y) B (p / V) (fun n v => acc v (nth0 (buf x) (bsel (t_shape x) n * V + p mod V))) (nth0 (buf y) p)).
Proof.
  intros HN Hf Hx Hy [HE HB]. cbv zeta. rewrite Hf, !ready_check by auto. cbn [bind]. rewrite (call_fw_eq _ HN). cbn.
  pose proof (bat_pos (ready_wf Hx)); pose proof (bat_pos (ready_wf Hy)).
  destruct (k_assign_spec acc (ready_vt Hx) (ready_vt Hy) eq_refl) as (l' & E & HO).
  - split; [apply (ready_wf Hx)|]. split; [reflexivity|]. lia.
  - split; [apply (ready_wf Hy)|]. split; [apply vol_ext; auto|]. lia.
  - exists l'. auto.
Qed.
Lemma add_assign_updates d (x y : tensor) : ready d x -> ready d y -> assign_ok x y ->
  let B := Nat.max (bat (t_shape x)) (bat (t_shape y)) in let V := vol (t_shape x) in
  updates (t_add_assign m y x) y (fun p => acc_batches K (t_shape y) B (p / V) (fun n v => nadd K v (nth0 (buf x) (bsel (t_shape x) n * V + p mod V))) (nth0 (buf y) p)).
Proof.
  intros Hx Hy HA. unfold t_add_assign. rewrite (ready_device_of Hy). cbn [bind].
  apply (@assign_updates "add_assign_impl" (nadd K) d x y (@add_assign K m)); auto; reflexivity.
Qed.
Lemma sub_assign_updates d (x y : tensor) : ready d x -> ready d y -> assign_ok x y ->
  let B := Nat.max (bat (t_shape x)) (bat (t_shape y)) in let V := vol (t_shape x) in
  updates (t_sub_assign m y x) y (fun p => acc_batches K (t_shape y) B (p / V) (fun n v => nsub K v (nth0 (buf x) (bsel (t_shape x) n * V + p mod V))) (nth0 (buf y) p)).
Proof.
  intros Hx Hy HA. unfold t_sub_assign. rewrite (ready_device_of Hy). cbn [bind].
  apply (@assign_updates "sub_assign_impl" (nsub K) d x y (@sub_assign K m)); auto; reflexivity.
Qed.
Lemma mul_assign_updates d (y : tensor) k : ready d y -> updates (t_mul_assign m y k) y (fun p => nmul K (nth0 (buf y) p) k).
Proof.
  intros Hy. unfold t_mul_assign, mul_assign_const. rewrite (ready_device_of Hy). cbn [bind]. rewrite (ready_check Hy). cbn [bind].
  rewrite (call_fw_eq _ (eq_refl : assoc (fw_registry K m) "mul_assign_const_impl" = _)). cbn [idx nth_error bind].
  destruct (k_mul_assign_spec m k (ready_vt Hy)) as (l' & E & HO). exists l'. auto.
Qed.

(** ** Transfers *)
Lemma reset_updates d (y : tensor) k : ready d y -> updates (reset m y k) y (fun _ => k).
Proof.
  intros Hy. unfold reset, reset_tensor. rewrite (ready_device_of Hy). cbn [bind].
  rewrite (call_fw_eq _ (eq_refl : assoc (fw_registry K m) "reset_tensor_impl" = _)). cbn [idx nth_error bind].
  destruct (k_reset_spec m k (ready_vt Hy)) as (l' & E & HO). exists l'; auto.
Qed.
Lemma by_slice_updates d (y : tensor) vs : ready d y -> length vs = tot (t_shape y) ->
  updates (reset_tensor_by_slice m y vs) y (fun p => nth0 vs p).
Proof.
  intros Hy HL. unfold reset_tensor_by_slice. rewrite (fits_size m (ready_fits Hy)). cbn [bind].
  rewrite Nat2N.id, HL, Nat.eqb_refl. cbn [assert bind].
  rewrite (call_fw_eq _ (eq_refl : assoc (fw_registry K m) "reset_tensor_by_slice_impl" = _)).
  destruct (k_reset_slice_spec m vs (ready_vt Hy) HL) as (l' & E & HO). exists l'; auto.
Qed.
Lemma to_vector_Ok d (x : tensor) : ready d x -> tensor_to_vector m x = Ok (firstn (tot (t_shape x)) (buf x)).
Proof.
  intros Hx. unfold tensor_to_vector. rewrite (fits_size m (ready_fits Hx)). cbn [bind]. rewrite Nat2N.id.
  unfold call_f32. cbn [assoc f32_registry]. cbn.
  apply k_to_vector_spec; [apply (ready_vt Hx)|apply repeat_length].
Qed.
Lemma to_vec_Ok d (x : tensor) : ready d x -> to_vec m x = Ok (firstn (tot (t_shape x)) (buf x)).
Proof. intros Hx. unfold to_vec. rewrite (ready_device_of Hx). cbn [bind]. eapply to_vector_Ok; eauto. Qed.
Lemma by_tensor_updates d d' (y x : tensor) : ready d y -> ready d' x -> tot (t_shape y) = tot (t_shape x) ->
  updates (reset_tensor_by_tensor m y x) y (fun p => nth0 (buf x) p).
Proof.
  intros Hy Hx HT. unfold reset_tensor_by_tensor. rewrite (ready_valid Hy), (ready_valid Hx). cbn [assert bind].
  rewrite !fits_size by (eapply ready_fits; eauto). cbn [bind]. rewrite HT, N.eqb_refl. cbn [assert bind].
  rewrite (call_fw_eq _ (eq_refl : assoc (fw_registry K m) "reset_tensor_by_tensor_impl" = _)). cbn. unfold k_reset_tensor.
  rewrite (fits_size m (ready_fits Hy)). cbn [bind]. rewrite (to_vec_Ok Hx). cbn [bind]. rewrite (ptr_vt (ready_vt Hy)). cbn [bind].
  rewrite Nat2N.id.
  destruct (@wr_loop F n0 (tot (t_shape y)) (fun i py => v <- idx (firstn (tot (t_shape x)) (buf x)) i ;; wr py i v) (fun p => nth0 (buf x) p) (buf y)) as (l' & E & HO).
  - apply (ready_len Hy).
  - intros i l' Hi HL. rewrite (@idx_Ok _ _ _ n0).
    + cbn [bind]. rewrite nth_firstn_lt by lia. apply wr_Ok. rewrite HL. pose proof (ready_len Hy). lia.
    + rewrite firstn_length. pose proof (ready_len Hx). lia.
  - rewrite E. cbn [bind]. exists l'; auto.
Qed.
Lemma new_then_updates d al s (f : tensor -> res tensor) g : al_ok al -> fits s ->
  (forall t, ready d t -> t_shape t = s -> updates (f t) t g) -> yields_flat (t <- new_alloc m d al s ;; f t) d s g.
Proof.
  intros HA HF HU. destruct (@new_alloc_Ok K m d al s HA HF) as (l & El & Hl). rewrite El. cbn [bind].
  pose proof (@new_ready K d _ l HF Hl) as HR. specialize (HU _ HR eq_refl). apply (updates_flat HR HU).
Qed.
Lemma by_constant_flat d (al : alloc_oracle K) s k : al_ok al -> fits s -> yields_flat (new_tensor_by_constant m d al s k) d s (fun _ : nat => k).
Proof. intros HA HF. apply new_then_updates; auto. intros t HR _. eapply reset_updates; eauto. Qed.
Lemma by_slice_flat d (al : alloc_oracle K) s vs : al_ok al -> fits s -> length vs = tot s ->
  yields_flat (new_tensor_by_slice m d al s vs) d s (fun p => nth0 vs p).
Proof. intros HA HF HL. apply new_then_updates; auto. intros t HR E. eapply by_slice_updates; eauto. congruence. Qed.
Lemma copy_flat d d' al (x : tensor) : al_ok al -> ready d' x ->
  yields_flat (copy_tensor m d al x) d (t_shape x) (fun p => nth0 (buf x) p).
Proof.
  intros HA HX. apply new_then_updates; auto; [apply (ready_fits HX)|]. intros t HR E. eapply by_tensor_updates; eauto. congruence.
Qed.
Lemma move_flat d al (t : tensor) vs : al_ok al -> fits (t_shape t) -> t_host t = Some vs -> length vs = tot (t_shape t) ->
  yields_flat (move_to_device m d al t) d (t_shape t) (fun p => nth0 vs p).
Proof.
  intros HA HF HH HL. unfold move_to_device. rewrite HH. cbn [assert bind]. rewrite (fits_size m HF). cbn [bind].
  destruct (al_ok_fits HA HF) as (l & El & Hl). rewrite El. cbn [bind unwrap].
  pose proof (@new_ready K d _ l HF Hl) as HR.
  exact (updates_flat HR (by_slice_updates vs HR HL)).
Qed.
Lemma update_shape_Ok d (t : tensor) s f : ready d t -> fits s -> tot s = tot (t_shape t) -> is_flat d (t_shape t) f t ->
  yields_flat (update_shape m t s) d s f.
Proof.
  intros HR HF HT (_ & _ & Hf). unfold update_shape. rewrite (fits_size m HF), (fits_size m (ready_fits HR)). cbn [bind].
  rewrite HT, N.eqb_refl. cbn [assert bind]. eexists. split; [reflexivity|].
  destruct HR as (H1 & H2 & H3 & (H4 & H5 & H6)).
  split; [|split; [reflexivity|]].
  - split; [exact H1|]. split; [exact HF|]. split; [exact H3|]. split; [apply fits_ok, HF|]. split; [exact H5|]. cbn. rewrite HT. exact H6.
  - intros p Hp. apply Hf. lia.
Qed.
Lemma reshape_flat d al (x : tensor) s : al_ok al -> ready d x -> fits s -> tot s = tot (t_shape x) ->
  yields_flat (t_reshape m al x s) d s (fun p => nth0 (buf x) p).
Proof.
  intros HA HX HF HT. unfold t_reshape. rewrite (ready_device_of HX). cbn [bind].
  destruct (@copy_flat d d al x HA HX) as (y & -> & HY). cbn [bind]. destruct HY as (H1 & H2 & H3).
  apply update_shape_Ok; auto; [congruence|]. rewrite H2. split; auto.
Qed.

(** ** Operator syntax: a scalar operand on either side is broadcast *)
Lemma via_dev A d (x : tensor) (f : nat -> res A) : ready d x -> (dd <- device_of x ;; f dd) = f d.
Proof. intros H. rewrite (ready_device_of H). reflexivity. Qed.
End ApiElem.
Arguments call_fw_eq {K m} name {k}. Arguments call_bw_eq {K m} name {k}.
