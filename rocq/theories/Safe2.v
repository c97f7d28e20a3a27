(** * Safe2: no function reaches memory outside the buffers of its operands (lemmas, continued) *)
From Verif Require Export Safe.
Set Implicit Arguments.
Unset Strict Implicit.

Lemma g_step A B (P : B -> Prop) (G : res B) (r : res A) (k : A -> res B) : G = bind r k -> good anything r ->
  (forall a, r = Ok a -> G = k a -> good P G) -> good P G.
Proof. intros E HR H. destruct r as [a| |]; cbn in E; [eapply H; eauto|rewrite E; exact I|destruct HR]. Qed.
Ltac gstep H := eapply (g_step H); [solve [gp] | clear H; let a := fresh "a0" in let E := fresh "E0" in intros a E H; cbv beta in H].

Section Backward.
Variable K : num.
Notation F := (F K).
Notation tensor := (tensor K).
Implicit Types (d : nat) (al : alloc_oracle K) (x y a b gx gy : tensor).

Lemma chk_dev d x u : check_dev d x = Ok u -> t_dev x = Some d.
Proof. destruct (dev_cases d x) as [D|E]; auto. congruence. Qed.
Lemma same_eq a b u : same_shape a b = Ok u -> t_shape a = t_shape b.
Proof. unfold same_shape. intros E. apply assert_Ok in E. apply shape_eqb_spec; auto. Qed.
Lemma eqb_eq (s t : shape) u : assert (shape_eqb s t) = Ok u -> s = t.
Proof. intros E. apply assert_Ok in E. apply shape_eqb_spec; auto. Qed.
Lemma g_buf d x (G : Prop) : sane x -> t_dev x = Some d -> (t_buf x = None -> G) -> (ready d x -> G) -> G.
Proof. intros S D H1 H2. destruct (t_buf x) as [l|] eqn:B; [apply H2; eauto using sane_ready|auto]. Qed.
End Backward.
Ltac facts := repeat match goal with
  | H : check_dev _ _ = Ok _ |- _ => apply chk_dev in H
  | H : same_shape _ _ = Ok _ |- _ => apply same_eq in H
  | H : assert (shape_eqb _ _) = Ok _ |- _ => apply eqb_eq in H
  end.
Ltac nb x := match goal with S : sane x, D : t_dev x = Some ?d |- _ => apply (g_buf S D); [let B := fresh "B" in intros B|let R := fresh "R" in intros R] end.

Section BackwardFns.
Variable K : num.
Notation F := (F K).
Notation tensor := (tensor K).
Implicit Types (d : nat) (al : alloc_oracle K) (x y a b gx gy : tensor).

Lemma bw_x_inv d x y gy gx u : bw_x_checks d x y gy gx = Ok u ->
  t_dev x = Some d /\ t_dev y = Some d /\ t_dev gy = Some d /\ t_dev gx = Some d /\ t_shape y = t_shape x /\ t_shape gy = t_shape x /\ t_shape gx = t_shape x.
Proof.
  unfold bw_x_checks. intros E. do 6 (apply bind_Ok in E; destruct E as (? & ? & E)). facts. ssplit; auto; congruence.
Qed.
Lemma good_bw_x_checks d x y gy gx : good anything (bw_x_checks d x y gy gx). Proof. unfold bw_x_checks. gp. Qed.

Lemma g_bw_x name op d x y gy gx : assoc (bw_registry K Debug) name = Some (bx (k_bw_x Debug op)) ->
  sane x -> sane y -> sane gy -> sane gx -> good (@sane K) (define_bw_x Debug name d x y gy gx).
Proof.
  intros HN Sx Sy Sg Sgx. assert (H : define_bw_x Debug name d x y gy gx = define_bw_x Debug name d x y gy gx) by auto. unfold define_bw_x at 2 in H.
  eapply (g_step H); [apply good_bw_x_checks|]. clear H. intros u E H. cbv beta in H. apply bw_x_inv in E. destruct E as (D1 & D2 & D3 & D4 & E1 & E2 & E3).
  nb x; [rewrite H; unfold call_bw; rewrite HN; unfold bx, k_bw_x; nobuf B|]. nb y; [rewrite H; unfold call_bw; rewrite HN; unfold bx, k_bw_x; nobuf B|].
  nb gy; [rewrite H; unfold call_bw; rewrite HN; unfold bx, k_bw_x; nobuf B|]. nb gx; [rewrite H; unfold call_bw; rewrite HN; unfold bx, k_bw_x; nobuf B|].
  eapply good_updates; [eassumption|]. eapply bw_x_updates; eauto.
Qed.
Lemma g_bw_const name op d x y gy k gx : assoc (bw_registry K Debug) name = Some (bxc (k_bw_const Debug op)) ->
  sane x -> sane y -> sane gy -> sane gx -> good (@sane K) (define_bw_const Debug name d x y gy k gx).
Proof.
  intros HN Sx Sy Sg Sgx. assert (H : define_bw_const Debug name d x y gy k gx = define_bw_const Debug name d x y gy k gx) by auto. unfold define_bw_const at 2 in H.
  eapply (g_step H); [apply good_bw_x_checks|]. clear H. intros u E H. cbv beta in H. apply bw_x_inv in E. destruct E as (D1 & D2 & D3 & D4 & E1 & E2 & E3).
  nb x; [rewrite H; unfold call_bw; rewrite HN; unfold bxc, k_bw_const; nobuf B|]. nb y; [rewrite H; unfold call_bw; rewrite HN; unfold bxc, k_bw_const; nobuf B|].
  nb gy; [rewrite H; unfold call_bw; rewrite HN; unfold bxc, k_bw_const; nobuf B|]. nb gx; [rewrite H; unfold call_bw; rewrite HN; unfold bxc, k_bw_const; nobuf B|].
  eapply good_updates; [eassumption|]. eapply bw_const_updates; eauto.
Qed.
Lemma g_neg_bw d x y gy gx : good (@sane K) (neg_bw Debug d x y gy gx).
Proof. unfold neg_bw, define_bw_x. apply good_bind with (Q := anything); [apply good_bw_x_checks|]. intros. exact I. Qed.
Lemma good_upd A (l : list A) i f : i < length l -> (forall v, good anything (f v)) -> good (fun l' => length l' = length l) (upd l i f).
Proof.
  intros H Hf. unfold upd. apply good_bind with (Q := anything); [apply good_rd; auto|]. intros v _ _. apply good_bind with (Q := anything); [auto|]. intros w _ _. apply good_wr; auto.
Qed.
Lemma g_powi_bw d x y gy k gx : sane x -> sane y -> sane gy -> sane gx -> good (@sane K) (powi_bw Debug d x y gy k gx).
Proof.
  intros Sx Sy Sg Sgx. unfold powi_bw. apply good_bind with (Q := anything); [apply good_bw_x_checks|]. intros u E _. apply bw_x_inv in E. destruct E as (D1 & D2 & D3 & D4 & E1 & E2 & E3).
  unfold call_bw. cbn [assoc bw_registry String.eqb Ascii.eqb Bool.eqb]. unfold k_powi_bw.
  nb x; [nobuf B|]. nb gy; [nobuf B|]. nb gx; [nobuf B|]. cbn [idx nth_error bind].
  rewrite (fits_size Debug (ready_fits R0)). cbn [bind]. rewrite (ptr_vt (ready_vt R)), (ptr_vt (ready_vt R0)), (ptr_vt (ready_vt R1)). cbn [bind]. rewrite Nat2N.id.
  pose proof (ready_len R) as L. pose proof (ready_len R0) as L0. pose proof (ready_len R1) as L1. rewrite E2 in *. rewrite E3 in *.
  apply good_bind with (Q := fun l => length l = length (buf gx)).
  - apply good_forN; [|reflexivity]. intros i l Hi Hl. apply good_bind with (Q := anything); [apply good_rd; lia|]. intros vg _ _. apply good_bind with (Q := anything); [apply good_rd; lia|]. intros vx _ _.
    apply good_bind with (Q := anything); [unfold sub_i32; destruct (_ && _); exact I|]. intros n1 _ _. eapply good_weaken; [apply good_upd; [lia|intros; exact I]|]. intros; congruence.
  - intros l _ Hl. cbn. eapply ready_sane, ready_with; eauto.
Qed.

(** *** Two operands *)
Lemma bw_a_inv d name sop als a b y gy ga (G := define_bw_ab_a Debug name sop als d a b y gy ga) :
  (forall s t, good anything (sop s t)) ->
  (t_dev a = Some d -> t_dev b = Some d -> t_dev y = Some d -> t_dev gy = Some d -> t_dev ga = Some d ->
   t_shape ga = t_shape a -> t_shape gy = t_shape y -> sop (t_shape a) (t_shape b) = Ok (t_shape y) -> G = call_bw Debug als name [a; b] [y] [gy] [] [] ga -> good (@sane K) G) ->
  good (@sane K) G.
Proof.
  intros HS HG. assert (H : G = G) by auto. unfold G at 2, define_bw_ab_a in H. do 7 gstep H. eapply (g_step H); [apply HS|]. clear H. intros s Es H. cbv beta in H. gstep H. facts. subst s.
  apply HG; auto; congruence.
Qed.
Lemma bw_b_inv d name sop als a b y gy gb (G := define_bw_ab_b Debug name sop als d a b y gy gb) :
  (forall s t, good anything (sop s t)) ->
  (t_dev a = Some d -> t_dev b = Some d -> t_dev y = Some d -> t_dev gy = Some d -> t_dev gb = Some d ->
   t_shape gb = t_shape b -> t_shape gy = t_shape y -> sop (t_shape a) (t_shape b) = Ok (t_shape y) -> G = call_bw Debug als name [a; b] [y] [gy] [] [] gb -> good (@sane K) G) ->
  good (@sane K) G.
Proof.
  intros HS HG. assert (H : G = G) by auto. unfold G at 2, define_bw_ab_b in H. do 7 gstep H. eapply (g_step H); [apply HS|]. clear H. intros s Es H. cbv beta in H. gstep H. facts. subst s.
  apply HG; auto; congruence.
Qed.
Lemma okbs (a b s : shape) : wf a -> wf b -> so_elementwise a b = Ok s -> okb (bat s) (vol s) a /\ okb (bat s) (vol s) b.
Proof. intros Wa Wb HS. destruct (elementwise_shape Wa Wb HS) as (_ & _ & _ & Va & Vb & Ba & Bb & _ & _). split; apply okb_of; auto. Qed.
Ltac kfinish H := cbn [idx nth_error bind] in *; rewrite H; cbn; eapply ready_sane, ready_with; eauto; first [apply H|lia].

Lemma g_lin_a name acc d als a b y gy ga : assoc (bw_registry K Debug) name = Some (fun _ _ _ gys _ _ ga => gy <- idx gys 0 ;; k_bw_lin acc gy ga) ->
  sane a -> sane b -> sane y -> sane gy -> sane ga -> good (@sane K) (define_bw_ab_a Debug name so_elementwise als d a b y gy ga).
Proof.
  intros HN Sa Sb Sy Sg Sga. apply bw_a_inv; [apply good_elementwise|]. intros Da Db Dy Dg Dga E1 E2 HS HG. rewrite HG. unfold call_bw. rewrite HN.
  destruct (okbs (sane_wf Sa) (sane_wf Sb) HS) as (O1 & O2). rewrite <- E2 in O1, O2. rewrite <- E1 in O1.
  nb gy; [unfold k_bw_lin; nobuf B|]. nb ga; [unfold k_bw_lin; nobuf B|]. cbn [idx nth_error bind].
  destruct (k_bw_lin_spec acc (ready_vt R) (ready_vt R0) O1) as (l' & -> & HO). cbn. eapply ready_sane, ready_with; eauto. apply HO.
Qed.
Lemma g_lin_b name acc d als a b y gy gb : assoc (bw_registry K Debug) name = Some (fun _ _ _ gys _ _ ga => gy <- idx gys 0 ;; k_bw_lin acc gy ga) ->
  sane a -> sane b -> sane y -> sane gy -> sane gb -> good (@sane K) (define_bw_ab_b Debug name so_elementwise als d a b y gy gb).
Proof.
  intros HN Sa Sb Sy Sg Sga. apply bw_b_inv; [apply good_elementwise|]. intros Da Db Dy Dg Dga E1 E2 HS HG. rewrite HG. unfold call_bw. rewrite HN.
  destruct (okbs (sane_wf Sa) (sane_wf Sb) HS) as (O1 & O2). rewrite <- E2 in O1, O2. rewrite <- E1 in O2.
  nb gy; [unfold k_bw_lin; nobuf B|]. nb gb; [unfold k_bw_lin; nobuf B|]. cbn [idx nth_error bind].
  destruct (k_bw_lin_spec acc (ready_vt R) (ready_vt R0) O2) as (l' & -> & HO). cbn. eapply ready_sane, ready_with; eauto. apply HO.
Qed.
Lemma g_other_a name op d als a b y gy ga : assoc (bw_registry K Debug) name = Some (fun _ xs _ gys _ _ ga => b <- idx xs 1 ;; gy <- idx gys 0 ;; k_bw_other op b gy ga) ->
  sane a -> sane b -> sane y -> sane gy -> sane ga -> good (@sane K) (define_bw_ab_a Debug name so_elementwise als d a b y gy ga).
Proof.
  intros HN Sa Sb Sy Sg Sga. apply bw_a_inv; [apply good_elementwise|]. intros Da Db Dy Dg Dga E1 E2 HS HG. rewrite HG. unfold call_bw. rewrite HN.
  destruct (okbs (sane_wf Sa) (sane_wf Sb) HS) as (O1 & O2). rewrite <- E2 in O1, O2. rewrite <- E1 in O1.
  nb b; [unfold k_bw_other; nobuf B|]. nb gy; [unfold k_bw_other; nobuf B|]. nb ga; [unfold k_bw_other; nobuf B|]. cbn [idx nth_error bind].
  destruct (k_bw_other_spec op (ready_vt R) (ready_vt R0) (ready_vt R1) O1 O2) as (l' & -> & HO). cbn. eapply ready_sane, ready_with; eauto. apply HO.
Qed.
Lemma g_other_b name op d als a b y gy gb : assoc (bw_registry K Debug) name = Some (fun _ xs _ gys _ _ ga => a <- idx xs 0 ;; gy <- idx gys 0 ;; k_bw_other op a gy ga) ->
  sane a -> sane b -> sane y -> sane gy -> sane gb -> good (@sane K) (define_bw_ab_b Debug name so_elementwise als d a b y gy gb).
Proof.
  intros HN Sa Sb Sy Sg Sga. apply bw_b_inv; [apply good_elementwise|]. intros Da Db Dy Dg Dga E1 E2 HS HG. rewrite HG. unfold call_bw. rewrite HN.
  destruct (okbs (sane_wf Sa) (sane_wf Sb) HS) as (O1 & O2). rewrite <- E2 in O1, O2. rewrite <- E1 in O2.
  nb a; [unfold k_bw_other; nobuf B|]. nb gy; [unfold k_bw_other; nobuf B|]. nb gb; [unfold k_bw_other; nobuf B|]. cbn [idx nth_error bind].
  destruct (k_bw_other_spec op (ready_vt R) (ready_vt R0) (ready_vt R1) O2 O1) as (l' & -> & HO). cbn. eapply ready_sane, ready_with; eauto. apply HO.
Qed.
Lemma g_div_b d a b y gy gb : sane a -> sane b -> sane y -> sane gy -> sane gb -> good (@sane K) (div_bw_b Debug d a b y gy gb).
Proof.
  intros Sa Sb Sy Sg Sga. apply bw_b_inv; [apply good_elementwise|]. intros Da Db Dy Dg Dga E1 E2 HS HG. rewrite HG. unfold call_bw. cbn [assoc bw_registry String.eqb Ascii.eqb Bool.eqb].
  destruct (okbs (sane_wf Sa) (sane_wf Sb) HS) as (O1 & O2). rewrite <- E2 in O1, O2. rewrite <- E1 in O2.
  nb b; [unfold k_div_bw_b; nobuf B|]. nb y; [unfold k_div_bw_b; nobuf B|]. nb gy; [unfold k_div_bw_b; nobuf B|]. nb gb; [unfold k_div_bw_b; nobuf B|]. cbn [idx nth_error bind].
  destruct (k_div_bw_b_spec (ready_vt R) (ready_vt R0) (ready_vt R1) (ready_vt R2) O2) as (l' & -> & HO); auto. cbn. eapply ready_sane, ready_with; eauto. apply HO.
Qed.
Lemma g_powf_a d a b y gy ga : sane a -> sane b -> sane y -> sane gy -> sane ga -> good (@sane K) (powf_bw_a Debug d a b y gy ga).
Proof.
  intros Sa Sb Sy Sg Sga. apply bw_a_inv; [apply good_elementwise|]. intros Da Db Dy Dg Dga E1 E2 HS HG. rewrite HG. unfold call_bw. cbn [assoc bw_registry String.eqb Ascii.eqb Bool.eqb].
  destruct (okbs (sane_wf Sa) (sane_wf Sb) HS) as (O1 & O2). rewrite <- E2 in O1, O2. rewrite <- E1 in O1.
  nb a; [unfold k_powf_bw_a; nobuf B|]. nb b; [unfold k_powf_bw_a; nobuf B|]. nb gy; [unfold k_powf_bw_a; nobuf B|]. nb ga; [unfold k_powf_bw_a; nobuf B|]. cbn [idx nth_error bind].
  destruct (k_powf_bw_a_spec (ready_vt R) (ready_vt R0) (ready_vt R1) (ready_vt R2) O1 O2) as (l' & -> & HO); auto. cbn. eapply ready_sane, ready_with; eauto. apply HO.
Qed.
Lemma g_powf_b d a b y gy gb : sane a -> sane b -> sane y -> sane gy -> sane gb -> good (@sane K) (powf_bw_b Debug d a b y gy gb).
Proof.
  intros Sa Sb Sy Sg Sga. apply bw_b_inv; [apply good_elementwise|]. intros Da Db Dy Dg Dga E1 E2 HS HG. rewrite HG. unfold call_bw. cbn [assoc bw_registry String.eqb Ascii.eqb Bool.eqb].
  destruct (okbs (sane_wf Sa) (sane_wf Sb) HS) as (O1 & O2). rewrite <- E2 in O1, O2. rewrite <- E1 in O2.
  nb a; [unfold k_powf_bw_b; nobuf B|]. nb y; [unfold k_powf_bw_b; nobuf B|]. nb gy; [unfold k_powf_bw_b; nobuf B|]. nb gb; [unfold k_powf_bw_b; nobuf B|]. cbn [idx nth_error bind].
  destruct (k_powf_bw_b_spec (ready_vt R) (ready_vt R0) (ready_vt R1) (ready_vt R2) O2 O1) as (l' & -> & HO); auto. cbn. eapply ready_sane, ready_with; eauto. apply HO.
Qed.

(** *** max, min *)
Lemma g_extremum_bw name d x y gy dim gx :
  assoc (bw_registry K Debug) name = Some (fun _ xs ys gys u _ gx => x <- idx xs 0 ;; y <- idx ys 0 ;; gy <- idx gys 0 ;; d <- idx u 0 ;; k_extremum_bw Debug x y gy (N.to_nat d) gx) ->
  sane x -> sane y -> sane gy -> sane gx -> good (@sane K) (extremum_bw Debug name d x y gy dim gx).
Proof.
  intros HN Sx Sy Sg Sgx. assert (H : extremum_bw Debug name d x y gy dim gx = extremum_bw Debug name d x y gy dim gx) by auto. unfold extremum_bw at 2 in H.
  do 8 gstep H. facts. subst.
  nb x; [rewrite H; unfold call_bw; rewrite HN; unfold k_extremum_bw; nobuf B|]. nb y; [rewrite H; unfold call_bw; rewrite HN; unfold k_extremum_bw; nobuf B|].
  nb gy; [rewrite H; unfold call_bw; rewrite HN; unfold k_extremum_bw; nobuf B|]. nb gx; [rewrite H; unfold call_bw; rewrite HN; unfold k_extremum_bw; nobuf B|].
  eapply good_writes; [eassumption|].
  match goal with E : resize_dim _ _ _ _ = Ok _ |- _ => apply resize_dim_iff in E; [|apply (sane_wf Sx)]; destruct E as (Hd & _ & HI) end.
  eapply extremum_bw_writes; eauto; try congruence.
  apply shape_is_eset_reduces; [apply (sane_wf Sx)|]. eapply is_shape_nat; [exact HI|intros i; apply eset_upd'; lia|reflexivity].
Qed.

(** *** Compound assignment with matching shapes *)
Lemma g_assign x y : sane x -> sane y -> assign_ok x y -> good (@sane K) (t_add_assign Debug y x).
Proof.
  intros Sx Sy HO. unfold t_add_assign. apply good_bind with (Q := anything); [apply good_dev|]. intros d Ed _. assert (Dy : t_dev y = Some d) by (unfold device_of in Ed; destruct (t_dev y); inversion Ed; auto).
  destruct (dev_cases d x) as [Dx|P]; [|unfold add_assign; rewrite P; exact I].
  nb x; [unfold add_assign, call_fw; cbn [assoc fw_registry String.eqb Ascii.eqb Bool.eqb]; unfold fx, k_assign; nobuf B|].
  nb y; [unfold add_assign, call_fw; cbn [assoc fw_registry String.eqb Ascii.eqb Bool.eqb]; unfold fx, k_assign; nobuf B|].
  eapply good_updates; [exact R0|]. eapply (@assign_updates K Debug "add_assign_impl" (nadd K) d x y (add_assign Debug)); eauto; reflexivity.
Qed.

(** *** slices and picks *)
Lemma g_slice_bw d gy dim lo gx : sane gy -> sane gx -> good (@sane K) (slice_bw Debug d gy dim lo gx).
Proof.
  intros Sg Sx. assert (H : slice_bw Debug d gy dim lo gx = slice_bw Debug d gy dim lo gx) by auto. unfold slice_bw at 2 in H.
  do 2 gstep H. eapply (g_step H); [unfold add32; apply good_norm32|]. clear H. intros up Eu H. cbv beta in H. gstep H. rename E2 into E9. gstep H. facts. subst.
  unfold add32, norm32 in Eu. destruct (N.ltb_spec (lo + index (t_shape gy) (N.to_nat dim)) two32); inversion Eu; subst up. clear Eu.
  nb gy; [rewrite H; unfold call_bw; cbn [assoc bw_registry String.eqb Ascii.eqb Bool.eqb]; unfold k_slice_bw; nobuf B|]. nb gx; [rewrite H; unfold call_bw; cbn [assoc bw_registry String.eqb Ascii.eqb Bool.eqb]; unfold k_slice_bw; nobuf B|].
  match goal with E : so_slice _ _ _ _ _ = Ok _ |- _ => apply so_slice_iff in E; [|apply (sane_wf Sx)]; destruct E as (F1 & F2 & F3 & F4) end.
  destruct F4 as (_ & I1 & I2). eapply good_writes; [exact R0|]. eapply slice_bw_writes; eauto.
  - intros i Hi. unfold ext. rewrite I1. unfold upd_ext. apply Nat.eqb_neq in Hi. rewrite Hi. reflexivity.
  - unfold bat. congruence.
  - unfold ext. lia.
Qed.
Lemma g_pick_bw d gy ids dim gx : sane gy -> sane gx -> (N.of_nat (length ids) < two32)%N -> good (@sane K) (pick_bw Debug d gy ids dim gx).
Proof.
  intros Sg Sx HL. assert (H : pick_bw Debug d gy ids dim gx = pick_bw Debug d gy ids dim gx) by auto. unfold pick_bw at 2 in H.
  do 4 gstep H. facts. subst.
  nb gy; [rewrite H; unfold call_bw; cbn [assoc bw_registry String.eqb Ascii.eqb Bool.eqb]; unfold k_pick_bw; nobuf B|]. nb gx; [rewrite H; unfold call_bw; cbn [assoc bw_registry String.eqb Ascii.eqb Bool.eqb]; unfold k_pick_bw; nobuf B|].
  match goal with E : so_pick _ _ _ _ = Ok _ |- _ => apply so_pick_iff in E; [|apply (sane_wf Sx)|exact HL]; destruct E as (F1 & F2 & F3 & F4 & F5) end.
  eapply good_writes; [exact R0|]. eapply pick_bw_writes; eauto.
  - unfold compat in F3. unfold bat. lia.
  - eapply Forall_impl; [|exact F4]. cbn. intros id Hid. unfold ext. lia.
  - eapply is_shape_nat; [exact F5|intros i; apply eset_upd'; lia|unfold bat; rewrite N2Nat.inj_max, Nat2N.id; reflexivity].
Qed.
Lemma g_batch_slice_bw d gy lo gx : good (@sane K) (batch_slice_bw Debug d gy lo gx).
Proof. unfold batch_slice_bw, add32. gp. Qed.

(** *** Matrices: intermediate tensors are computed first *)
Lemma matmul_shape_of d al a b p : matmul_fw Debug d al a b = Ok p -> so_matmul Debug (t_shape a) (t_shape b) = Ok (t_shape p).
Proof.
  unfold matmul_fw. intros E. do 4 (apply bind_Ok in E; destruct E as (? & ? & E)). rewrite H1.
  unfold new_alloc, alloc in H2. do 5 (apply bind_Ok in H2; destruct H2 as (? & ? & H2)). inversion H2; subst.
  unfold call_fw in E. cbn [assoc fw_registry String.eqb Ascii.eqb Bool.eqb] in E. unfold fxx in E. cbn [idx nth_error bind] in E. unfold k_matmul in E.
  repeat (apply bind_Ok in E; destruct E as (? & ? & E)). repeat match type of E with (match ?v with _ => _ end) = _ => destruct v end. inversion E. reflexivity.
Qed.
Lemma transpose_shape_of d al a p : transpose_fw Debug d al a = Ok p -> so_transpose Debug (t_shape a) = Ok (t_shape p).
Proof.
  unfold transpose_fw. intros E. do 3 (apply bind_Ok in E; destruct E as (? & ? & E)). rewrite H0.
  unfold new_alloc, alloc in H1. do 5 (apply bind_Ok in H1; destruct H1 as (? & ? & H1)). inversion H1; subst.
  unfold call_fw in E. cbn [assoc fw_registry String.eqb Ascii.eqb Bool.eqb] in E. unfold fx in E. cbn [idx nth_error bind] in E. unfold k_transpose in E.
  repeat (apply bind_Ok in E; destruct E as (? & ? & E)). repeat match type of E with (match ?v with _ => _ end) = _ => destruct v end. inversion E. reflexivity.
Qed.
Lemma triangular_shape_of name d al a k p upper : assoc (fw_registry K Debug) name = Some (fxu (k_triangular Debug upper)) -> triangular_fw Debug name d al a k = Ok p -> t_shape a = t_shape p.
Proof.
  intros HN. unfold triangular_fw. intros E. do 3 (apply bind_Ok in E; destruct E as (? & ? & E)).
  unfold new_alloc, alloc in H1. do 5 (apply bind_Ok in H1; destruct H1 as (? & ? & H1)). inversion H1; subst.
  unfold call_fw in E. rewrite HN in E. unfold fxu in E. cbn [idx nth_error bind] in E. unfold k_triangular in E.
  repeat (apply bind_Ok in E; destruct E as (? & ? & E)). repeat match type of E with (match ?v with _ => _ end) = _ => destruct v end. inversion E. reflexivity.
Qed.
Lemma same_assign x y : t_shape x = t_shape y -> assign_ok x y.
Proof. intros E. split; rewrite E; auto. Qed.
Lemma dev_Ok x d : device_of x = Ok d -> t_dev x = Some d.
Proof. unfold device_of. destruct (t_dev x); cbn; intros E; inversion E; auto. Qed.

Lemma g_triangular_bw (upper : bool) name d als x y gy k gx : name = (if upper then "triangular_u_bw_impl" else "triangular_l_bw_impl")%string -> (forall i, al_ok (als i)) ->
  sane x -> sane y -> sane gy -> sane gx -> good (@sane K) (triangular_bw Debug name als d x y gy k gx).
Proof.
  intros -> HA Sx Sy Sg Sgx. unfold triangular_bw. do 7 (apply good_bind with (Q := anything); [solve [gp]|intros ? ? _]). facts.
  unfold call_bw. assert (E : forall (t : res tensor), good (fun t => sane t /\ t_shape gy = t_shape t) t -> good (@sane K) (t <- t ;; t_add_assign Debug gx t)).
  { intros t Ht. eapply good_bind; [exact Ht|]. intros t' _ (S & E). apply g_assign; auto. apply same_assign. congruence. }
  assert (U : forall nm up (al : alloc_oracle K), al_ok al -> assoc (fw_registry K Debug) nm = Some (fxu (k_triangular Debug up)) -> good (fun t => sane t /\ t_shape gy = t_shape t) (d <- device_of gy ;; triangular_fw Debug nm d al gy k)).
  { intros nm up al Hal HN. eapply good_bind with (Q := anything); [apply good_dev|]. intros d' _ _. pose proof (g_triangular d' k HN Hal Sg) as G. destruct (triangular_fw Debug nm d' al gy k) eqn:ET; auto. cbn in *. split; auto. eapply triangular_shape_of; [exact HN|exact ET]. }
  destruct upper; cbn [assoc bw_registry String.eqb Ascii.eqb Bool.eqb idx nth_error bind]; apply E; unfold t_triangular_u, t_triangular_l, triangular_u_fw, triangular_l_fw; eapply U; eauto; reflexivity.
Qed.
Lemma g_transpose_bw d als x y gy gx : (forall i, al_ok (als i)) -> sane x -> sane y -> sane gy -> sane gx -> good (@sane K) (transpose_bw Debug als d x y gy gx).
Proof.
  intros HA Sx Sy Sg Sgx. unfold transpose_bw. do 8 (apply good_bind with (Q := anything); [solve [gp]|intros ? ? _]). facts. subst.
  unfold call_bw. cbn [assoc bw_registry String.eqb Ascii.eqb Bool.eqb idx nth_error bind]. unfold k_transpose_bw, t_transpose, via1. rewrite bind_assoc. apply good_bind with (Q := anything); [apply good_dev|]. intros d' _ _.
  pose proof (g_transpose d' (HA 0) Sg) as G. destruct (transpose_fw Debug d' (als 0) gy) as [t| |] eqn:ET; auto. cbn in G |- *. apply g_assign; auto. apply transpose_shape_of in ET.
  match goal with E : so_transpose _ (t_shape x) = Ok _ |- _ => apply so_transpose_iff in E; [|apply (sane_wf Sx)]; destruct E as (M & _ & I1 & I2) end.
  apply so_transpose_iff in ET; [|apply (sane_wf Sg)]. destruct ET as (Mg & _ & J1 & J2).
  assert (EX : t_shape gx = t_shape x) by congruence. assert (EY : t_shape gy = t_shape y) by congruence. split.
  - intros i. unfold ext. f_equal. rewrite EX. rewrite J1, EY. destruct i as [|[|i]]; cbn; rewrite ?I1; cbn; auto. symmetry; apply M; lia.
  - right. right. unfold bat. f_equal. congruence.
Qed.
Lemma g_matmul_bw_a d als a b y gy ga : (forall i, al_ok (als i)) -> sane a -> sane b -> sane y -> sane gy -> sane ga -> good (@sane K) (matmul_bw_a Debug als d a b y gy ga).
Proof.
  intros HA Sa Sb Sy Sg Sga. apply bw_a_inv; [apply good_so_matmul|]. intros Da Db Dy Dg Dga E1 E2 HS HG. rewrite HG. unfold call_bw. cbn [assoc bw_registry String.eqb Ascii.eqb Bool.eqb idx nth_error bind].
  unfold k_matmul_bw_a, device_of. rewrite Dg, Db. cbn [unwrap bind]. apply so_matmul_iff in HS; try (apply sane_wf; auto). destruct HS as (M1 & M2 & M3 & M4 & _ & I1 & I2).
  pose proof (g_transpose d (HA 0) Sb) as G. destruct (transpose_fw Debug d (als 0) b) as [t| |] eqn:ET; auto. cbn in G |- *. apply transpose_shape_of, so_transpose_iff in ET; [|apply (sane_wf Sb)]. destruct ET as (_ & _ & J1 & J2).
  pose proof (g_matmul d (HA 1) Sg G) as G2. destruct (matmul_fw Debug d (als 1) gy t) as [p| |] eqn:EP; auto. cbn in G2 |- *. apply matmul_shape_of, so_matmul_iff in EP; try (apply sane_wf; auto). destruct EP as (_ & _ & _ & _ & _ & L1 & L2).
  apply g_assign; auto. split.
  - intros i. unfold ext. f_equal. rewrite L1, E1, E2. destruct i as [|[|i]]; cbn; rewrite ?I1, ?J1; cbn; auto. symmetry; apply M1; lia.
  - unfold bat. rewrite L2, E1, E2, I2, J2. unfold compat in M4. lia.
Qed.
Lemma g_matmul_bw_b d als a b y gy gb : (forall i, al_ok (als i)) -> sane a -> sane b -> sane y -> sane gy -> sane gb -> good (@sane K) (matmul_bw_b Debug als d a b y gy gb).
Proof.
  intros HA Sa Sb Sy Sg Sga. apply bw_b_inv; [apply good_so_matmul|]. intros Da Db Dy Dg Dga E1 E2 HS HG. rewrite HG. unfold call_bw. cbn [assoc bw_registry String.eqb Ascii.eqb Bool.eqb idx nth_error bind].
  unfold k_matmul_bw_b, device_of. rewrite Da. cbn [unwrap bind]. apply so_matmul_iff in HS; try (apply sane_wf; auto). destruct HS as (M1 & M2 & M3 & M4 & _ & I1 & I2).
  pose proof (g_transpose d (HA 0) Sa) as G. destruct (transpose_fw Debug d (als 0) a) as [t| |] eqn:ET; auto. cbn in G |- *. apply transpose_shape_of, so_transpose_iff in ET; [|apply (sane_wf Sa)]. destruct ET as (_ & _ & J1 & J2).
  pose proof (g_matmul d (HA 1) G Sg) as G2. destruct (matmul_fw Debug d (als 1) t gy) as [p| |] eqn:EP; auto. cbn in G2 |- *. apply matmul_shape_of, so_matmul_iff in EP; try (apply sane_wf; auto). destruct EP as (_ & _ & _ & _ & _ & L1 & L2).
  apply g_assign; auto. split.
  - intros i. unfold ext. f_equal. rewrite L1, E1, E2. destruct i as [|[|i]]; cbn; rewrite ?I1, ?J1; cbn; auto. symmetry; apply M2; lia.
  - unfold bat. rewrite L2, E1, E2, I2, J2. unfold compat in M4. lia.
Qed.
End BackwardFns.
