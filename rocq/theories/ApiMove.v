(** * ApiMove: reductions, data movement, matrices, concatenation at API level *)
From Verif Require Export ApiElem KSort.
Set Implicit Arguments.

(** [s] is the consistent shape with extents [e] and batch [b] *)
Definition shape_is (s : shape) (e : nat -> nat) (b : nat) : Prop := wf s /\ (forall i, ext s i = e i) /\ bat s = b.
(** extents of [x] with the one of dimension [d] replaced *)
Definition eset (x : shape) (d k : nat) : nat -> nat := fun i => if i =? d then k else ext x i.

Lemma shape_is_unique s1 s2 e b : shape_is s1 e b -> shape_is s2 e b -> s1 = s2.
Proof.
  intros (W1 & E1 & B1) (W2 & E2 & B2). apply wf_ext; auto.
  - intros i. pose proof (E1 i); pose proof (E2 i). unfold ext in *. lia.
  - unfold bat in *. lia.
Qed.
Lemma shape_is_N s e b e' b' : shape_is s e b -> (forall i, e i = N.to_nat (e' i)) -> b = N.to_nat b' -> is_shape s e' b'.
Proof.
  intros (W & E & B) H1 H2. split; [exact W|]. split.
  - intros i. pose proof (E i) as Ei. rewrite H1 in Ei. unfold ext in Ei. lia.
  - unfold bat in *. lia.
Qed.
Lemma is_shape_nat s e b e' b' : is_shape s e' b' -> (forall i, e i = N.to_nat (e' i)) -> b = N.to_nat b' -> shape_is s e b.
Proof.
  intros H H1 H2. destruct (is_shape_ext' H) as (E1 & E2 & E3). split; [exact E3|]. split; [intros; rewrite E1, H1; reflexivity|congruence].
Qed.
Lemma eset_upd x d k i : eset x d (N.to_nat k) i = N.to_nat (upd_ext x d k i).
Proof. unfold eset. rewrite upd_ext_ext. reflexivity. Qed.
Lemma eset_upd' x d k k' i : k = N.to_nat k' -> eset x d k i = N.to_nat (upd_ext x d k' i).
Proof. intros ->. apply eset_upd. Qed.

Lemma shape_is_eset_reduces x s d : wf x -> shape_is s (eset x d 1) (bat x) -> reduces x s d.
Proof.
  intros W (Ws & E & B). constructor; auto.
  - rewrite E. unfold eset. rewrite Nat.eqb_refl. reflexivity.
  - intros i Hi. rewrite E. unfold eset. destruct (Nat.eqb_spec i d); [contradiction|reflexivity].
Qed.
Lemma reduces_shape_is x s d : reduces x s d -> shape_is s (eset x d 1) (bat x).
Proof.
  intros R. split; [apply (rd_wy R)|]. split; [|apply (rd_bat R)]. intros i. unfold eset. destruct (Nat.eqb_spec i d) as [->|n].
  - apply (rd_one R). - apply (rd_ext R n).
Qed.
Lemma reduces_tot_le x s d : reduces x s d -> tot s <= tot x.
Proof. intros R. pose proof (red_tot R). pose proof (ext_pos d (rd_wx R)). nia. Qed.
Lemma reduces_fits x s d : fits x -> reduces x s d -> fits s.
Proof.
  intros HF R. apply (fits_tot (rd_wy R)). pose proof (reduces_tot_le R).
  pose proof (proj1 (fits_tot (rd_wx R)) HF). lia.
Qed.
Lemma sliced_tot_le x s d off : sliced x s d off -> tot s <= tot x.
Proof.
  intros H. rewrite (tot_split d (sl_wx H)), (tot_split d (sl_wy H)), (sl_low H), (sl_hic H).
  pose proof (sl_off H). apply Nat.mul_le_mono_r, Nat.mul_le_mono_l. lia.
Qed.
Lemma resize1_exists m x d : wf x -> d < 8 -> exists s, resize_dim m x d 1 = Ok s /\ reduces x s d.
Proof.
  intros W Hd. destruct (@resize_dim_shrink Debug x d 1 W Hd) as (s & E). { pose proof (wf_index_pos d W). lia. }
  exists s. split; [apply (le_resize_dim m x d 1 E)|].
  apply resize_dim_iff in E; auto. destruct E as (_ & _ & E).
  apply shape_is_eset_reduces; auto. eapply is_shape_nat; [exact E| |reflexivity]. intros; apply eset_upd' with (k':=1%N); reflexivity.
Qed.

Section ApiMove.
Variable K : num.
Notation F := (F K).
Notation tensor := (tensor K).
Variable m : build.

Lemma call_fw_at name k : assoc (fw_registry K m) name = Some k -> forall xs u f (y : tensor), call_fw m name xs u f y = k xs u f y.
Proof. apply call_fw_eq. Qed.

(** ** Reductions *)
Lemma reduce_flat name kern d al (x : tensor) dim f :
  assoc (fw_registry K m) name = Some (fxd kern) -> al_ok al -> ready d x -> N.to_nat dim < 8 ->
  (forall y ly, vt y ly -> reduces (t_shape x) (t_shape y) (N.to_nat dim) ->
     exists l', kern x (N.to_nat dim) y = Ok (with_buf y l') /\ over n0 ly l' (tot (t_shape y)) f) ->
  exists s, reduces (t_shape x) s (N.to_nat dim) /\ yields_flat (reduce_fw m name d al x dim) d s f.
Proof.
  intros HN HA HR Hd HK. destruct (@resize1_exists m (t_shape x) (N.to_nat dim) (ready_wf HR) Hd) as (s & Es & Rs).
  exists s. split; [exact Rs|]. unfold reduce_fw. rewrite (ready_check HR). cbn [bind]. rewrite Es. cbn [bind].
  apply fw_flat; [exact HA|eapply reduces_fits; eauto; apply (ready_fits HR)|].
  intros y ly Hy E. rewrite (call_fw_eq _ HN). cbn. rewrite <- E. apply HK; auto. rewrite E. exact Rs.
Qed.
(** coordinate form of a reduction *)
Lemma reduce_yields r d s (x : tensor) dim (g : (nat -> F) -> F) : reduces (t_shape x) s dim ->
  (forall f1 f2, (forall j, j < ext (t_shape x) dim -> f1 j = f2 j) -> g f1 = g f2) ->
  yields_flat r d s (fun i => g (fun j => nth0 (buf x) (lpos (t_shape x) dim i j))) ->
  yields r d s (fun c b => g (fun j => at_ x (cset c dim j) b)).
Proof.
  intros R HG HY. eapply yields_of_flat; [exact HY|]. intros c b Hc Hb. cbv beta. apply HG. intros j Hj.
  rewrite (lpos_pos R b Hc Hj). reflexivity.
Qed.

Lemma sum_yields d al (x : tensor) dim : al_ok al -> ready d x -> N.to_nat dim < 8 ->
  exists s, reduces (t_shape x) s (N.to_nat dim) /\
    yields (sum_fw m d al x dim) d s (fun c b => red (nadd K) n0 (fun j => at_ x (cset c (N.to_nat dim) j) b) (ext (t_shape x) (N.to_nat dim))).
Proof.
  intros HA HR Hd.
  edestruct (@reduce_flat "sum_fw_impl" (k_sum m) d al x dim (fun i => red (nadd K) n0 (fun j => nth0 (buf x) (lpos (t_shape x) (N.to_nat dim) i j)) (ext (t_shape x) (N.to_nat dim)))) as (s & Rs & HY); auto.
  - intros y ly Hy R. apply (k_sum_spec m (ready_vt HR) Hy R).
  - exists s; split; auto. apply (@reduce_yields _ d s x (N.to_nat dim) (fun f => red (nadd K) n0 f (ext (t_shape x) (N.to_nat dim)))); auto.
    intros; apply red_ext; auto.
Qed.
Lemma extremum_yields (better : F -> F -> bool) name d al (x : tensor) dim : assoc (fw_registry K m) name = Some (fxd (k_extremum m better)) ->
  al_ok al -> ready d x -> N.to_nat dim < 8 ->
  exists s, reduces (t_shape x) s (N.to_nat dim) /\
    yields (reduce_fw m name d al x dim) d s (fun c b => let f := fun j => at_ x (cset c (N.to_nat dim) j) b in
       red (pick_better K better) (f 0) f (ext (t_shape x) (N.to_nat dim))).
Proof.
  intros HN HA HR Hd.
  edestruct (@reduce_flat name (k_extremum m better) d al x dim (fun i => red (pick_better K better) (nth0 (buf x) (lpos (t_shape x) (N.to_nat dim) i 0)) (fun j => nth0 (buf x) (lpos (t_shape x) (N.to_nat dim) i j)) (ext (t_shape x) (N.to_nat dim)))) as (s & Rs & HY); auto.
  - intros y ly Hy R. apply (k_extremum_spec m better (ready_vt HR) Hy R).
  - exists s; split; auto. cbv zeta.
    apply (@reduce_yields _ d s x (N.to_nat dim) (fun f => red (pick_better K better) (f 0) f (ext (t_shape x) (N.to_nat dim)))); auto.
    intros f1 f2 H. pose proof (ext_pos (N.to_nat dim) (ready_wf HR)). rewrite (H 0) by lia. apply red_ext; auto.
Qed.
Lemma logsumexp_yields d al (x : tensor) dim : al_ok al -> ready d x -> N.to_nat dim < 8 ->
  exists s, reduces (t_shape x) s (N.to_nat dim) /\
    yields (logsumexp_fw m d al x dim) d s (fun c b => let f := fun j => at_ x (cset c (N.to_nat dim) j) b in
       narrow K (red (lse_step K) (widen K (f 0)) (fun j => f (S j)) (ext (t_shape x) (N.to_nat dim) - 1))).
Proof.
  intros HA HR Hd.
  edestruct (@reduce_flat "logsumexp_fw_impl" (k_logsumexp m) d al x dim (fun i => narrow K (red (lse_step K) (widen K (nth0 (buf x) (lpos (t_shape x) (N.to_nat dim) i 0))) (fun j => nth0 (buf x) (lpos (t_shape x) (N.to_nat dim) i (S j))) (ext (t_shape x) (N.to_nat dim) - 1)))) as (s & Rs & HY); auto.
  - intros y ly Hy R. apply (k_logsumexp_spec m (ready_vt HR) Hy R).
  - exists s; split; auto. cbv zeta.
    apply (@reduce_yields _ d s x (N.to_nat dim) (fun f => narrow K (red (lse_step K) (widen K (f 0)) (fun j => f (S j)) (ext (t_shape x) (N.to_nat dim) - 1)))); auto.
    intros f1 f2 H. pose proof (ext_pos (N.to_nat dim) (ready_wf HR)). rewrite (H 0) by lia. f_equal. apply red_ext. intros; apply H; lia.
Qed.

(** ** Broadcast *)
Lemma broadcast_yields d al (x : tensor) dim n s : al_ok al -> ready d x -> N.to_nat dim < 8 -> ext (t_shape x) (N.to_nat dim) = 1 -> (1 <= n)%N ->
  shape_is s (eset (t_shape x) (N.to_nat dim) (N.to_nat n)) (bat (t_shape x)) -> fits s ->
  yields (broadcast_fw m d al x dim n) d s (fun c b => at_ x (cset c (N.to_nat dim) 0) b).
Proof.
  intros HA HR Hd H1 Hn Hs HF. unfold broadcast_fw. rewrite (ready_check HR). cbn [bind].
  assert (Es : so_broadcast m (t_shape x) (N.to_nat dim) n = Ok s).
  { apply le_broadcast. apply so_broadcast_iff; [apply (ready_wf HR)|]. split; [exact Hd|]. split; [unfold ext in H1; lia|].
    split; [exact Hn|]. eapply shape_is_N; [exact Hs| |reflexivity]. intros; apply eset_upd. }
  rewrite Es. cbn [bind].
  assert (R : reduces s (t_shape x) (N.to_nat dim)).
  { destruct Hs as (W & E & B). constructor; auto. apply (ready_wf HR). intros i Hi. rewrite E. unfold eset. destruct (Nat.eqb_spec i (N.to_nat dim)); [contradiction|reflexivity]. }
  eapply yields_of_flat.
  - apply fw_flat; [exact HA|exact HF|]. intros y ly Hy E. rewrite (call_fw_eq _ (eq_refl : assoc (fw_registry K m) "broadcast_fw_impl" = _)). cbn [idx nth_error bind].
    destruct (k_broadcast_spec m n (ready_vt HR) Hy (dim := N.to_nat dim)) as (l' & E' & HO).
    + rewrite E. exact R.
    + rewrite E. destruct Hs as (_ & -> & _). unfold eset. rewrite Nat.eqb_refl. reflexivity.
    + exists l'. rewrite E in HO. split; [exact E'|exact HO].
  - intros c b Hc Hb. cbv beta. destruct (lline_pos R b Hc) as [-> _]. reflexivity.
Qed.

(** ** Slice *)
Lemma slice_sliced x s dim lo hi : wf x -> (lo < hi)%N -> (hi <= index x dim)%N -> shape_is s (eset x dim (N.to_nat hi - N.to_nat lo)) (bat x) ->
  sliced x s dim (N.to_nat lo).
Proof.
  intros W H1 H2 (Ws & E & B). constructor; auto.
  - intros i Hi. rewrite E. unfold eset. destruct (Nat.eqb_spec i dim); [contradiction|reflexivity].
  - rewrite E. unfold eset. rewrite Nat.eqb_refl. unfold ext. lia.
Qed.
Lemma slice_shape x s dim lo hi : wf x -> dim < 8 -> (lo < hi)%N -> (hi <= index x dim)%N -> shape_is s (eset x dim (N.to_nat hi - N.to_nat lo)) (bat x) ->
  so_slice m x dim lo hi = Ok s.
Proof.
  intros W Hd H1 H2 Hs. apply le_slice. apply so_slice_iff; auto. split; [exact Hd|]. split; [exact H1|]. split; [exact H2|].
  eapply shape_is_N; [exact Hs| |reflexivity]. intros; apply eset_upd'. lia.
Qed.
Lemma slice_shape_exists x dim lo hi : wf x -> dim < 8 -> (lo < hi)%N -> (hi <= index x dim)%N ->
  exists s, shape_is s (eset x dim (N.to_nat hi - N.to_nat lo)) (bat x).
Proof.
  intros W Hd H1 H2. destruct (@resize_dim_shrink Debug x dim (hi - lo) W Hd) as (s & E); [lia|]. exists s.
  apply resize_dim_iff in E; auto. destruct E as (_ & _ & E). eapply is_shape_nat; [exact E| |reflexivity]. intros; apply eset_upd'. lia.
Qed.
Lemma sliced_fits x s d off : fits x -> sliced x s d off -> fits s.
Proof.
  intros HF R. apply (fits_tot (sl_wy R)). pose proof (sliced_tot_le R). pose proof (proj1 (fits_tot (sl_wx R)) HF). lia.
Qed.
Lemma slice_yields d al (x : tensor) dim lo hi s : al_ok al -> ready d x -> N.to_nat dim < 8 -> (lo < hi)%N -> N.to_nat hi <= ext (t_shape x) (N.to_nat dim) ->
  shape_is s (eset (t_shape x) (N.to_nat dim) (N.to_nat hi - N.to_nat lo)) (bat (t_shape x)) ->
  yields (slice_fw m d al x dim lo hi) d s (fun c b => at_ x (cset c (N.to_nat dim) (c (N.to_nat dim) + N.to_nat lo)) b).
Proof.
  intros HA HR Hd H1 H2 Hs. assert (H2' : (hi <= index (t_shape x) (N.to_nat dim))%N) by (unfold ext in H2; lia).
  unfold slice_fw. rewrite (ready_check HR). cbn [bind]. rewrite (slice_shape (ready_wf HR) Hd H1 H2' Hs). cbn [bind].
  pose proof (slice_sliced (ready_wf HR) H1 H2' Hs) as S.
  eapply yields_of_flat.
  - apply fw_flat; [exact HA|eapply sliced_fits; eauto; apply (ready_fits HR)|]. intros y ly Hy E.
    rewrite (call_fw_eq _ (eq_refl : assoc (fw_registry K m) "slice_fw_impl" = _)). cbn [idx nth_error bind].
    destruct (k_slice_fw_spec m (ready_vt HR) Hy (eq_refl : [dim; lo] = _)) as (l' & E' & HO); [rewrite E; exact S|].
    exists l'. rewrite E in HO. split; [exact E'|exact HO].
  - intros c b Hc Hb. cbv beta. rewrite (slg_pos S b Hc). reflexivity.
Qed.

(** ** Pick *)
Lemma pick_picked x s dim ids : wf x -> ids <> [] -> compat (batch x) (N.of_nat (length ids)) ->
  Forall (fun id => id < index x dim)%N ids -> shape_is s (eset x dim 1) (Nat.max (bat x) (length ids)) -> picked x s dim ids.
Proof.
  intros W H0 Hc HF (Ws & E & B). pose proof (wf_batch W). assert (1 <= length ids) by (destruct ids; [contradiction|simpl; lia]).
  unfold compat, bat in *. constructor; auto; unfold bat.
  - rewrite E. unfold eset. rewrite Nat.eqb_refl. reflexivity.
  - intros i Hi. rewrite E. unfold eset. destruct (Nat.eqb_spec i dim); [contradiction|reflexivity].
  - destruct Hc as [?|[?|?]]; lia.
  - destruct Hc as [?|[?|?]]; lia.
  - eapply Forall_impl; [|exact HF]. intros a Ha. cbv beta in Ha. unfold ext. lia.
Qed.
Lemma pick_shape x s dim ids : wf x -> dim < 8 -> (N.of_nat (length ids) < two32)%N -> ids <> [] -> compat (batch x) (N.of_nat (length ids)) ->
  Forall (fun id => id < index x dim)%N ids -> shape_is s (eset x dim 1) (Nat.max (bat x) (length ids)) -> so_pick m x ids dim = Ok s.
Proof.
  intros W Hd HL H0 Hc HF Hs. apply le_pick. apply so_pick_iff; auto. split; [exact Hd|]. split; [exact H0|]. split; [exact Hc|]. split; [exact HF|].
  eapply shape_is_N; [exact Hs|intros; apply eset_upd'; reflexivity|unfold bat; rewrite N2Nat.inj_max, Nat2N.id; reflexivity].
Qed.
Lemma pick_yields d al (x : tensor) ids dim s : al_ok al -> ready d x -> N.to_nat dim < 8 -> (N.of_nat (length ids) < two32)%N -> ids <> [] ->
  (length ids = 1 \/ bat (t_shape x) = 1 \/ length ids = bat (t_shape x)) ->
  Forall (fun id => N.to_nat id < ext (t_shape x) (N.to_nat dim)) ids ->
  shape_is s (eset (t_shape x) (N.to_nat dim) 1) (Nat.max (bat (t_shape x)) (length ids)) -> fits s ->
  yields (pick_fw m d al x ids dim) d s (fun c b => at_ x (cset c (N.to_nat dim) (pid ids b)) (bsel (t_shape x) b)).
Proof.
  intros HA HR Hd HL H0 Hc HI Hs HF.
  assert (Hc' : compat (batch (t_shape x)) (N.of_nat (length ids))) by (unfold compat, bat in *; lia).
  assert (HI' : Forall (fun id => id < index (t_shape x) (N.to_nat dim))%N ids) by (eapply Forall_impl; [|exact HI]; intros a Ha; unfold ext in Ha; lia).
  unfold pick_fw. rewrite (ready_check HR). cbn [bind]. rewrite (pick_shape (ready_wf HR) Hd HL H0 Hc' HI' Hs). cbn [bind].
  pose proof (pick_picked (ready_wf HR) H0 Hc' HI' Hs) as P.
  eapply yields_of_flat.
  - apply fw_flat; [exact HA|exact HF|]. intros y ly Hy E.
    rewrite (call_fw_eq _ (eq_refl : assoc (fw_registry K m) "pick_fw_impl" = _)). cbn [idx nth_error bind].
    destruct (k_pick_fw_spec m dim (ids:=ids) (ready_vt HR) Hy) as (l' & E' & HO); [rewrite E; exact P|].
    exists l'. rewrite E in HO. split; [exact E'|exact HO].
  - intros c b Hc2 Hb. cbv beta. rewrite (pkg_pos P Hc2 Hb). reflexivity.
Qed.

(** ** Batch operations *)
Lemma batch_sum_yields d al (x : tensor) s : al_ok al -> ready d x -> shape_is s (ext (t_shape x)) 1 ->
  yields (batch_sum_fw m d al x) d s (fun c _ => red (nadd K) n0 (fun b => at_ x c b) (bat (t_shape x))).
Proof.
  intros HA HR Hs. unfold batch_sum_fw. rewrite (ready_check HR). cbn [bind].
  assert (Es : resize_batch (t_shape x) 1 = Ok s).
  { apply resize_batch_iff; [apply (ready_wf HR)|reflexivity|]. eapply shape_is_N; [exact Hs|reflexivity|reflexivity]. }
  rewrite Es. cbn [bind]. destruct Hs as (W & E & B).
  assert (HV : vol s = vol (t_shape x)) by (apply vol_ext; intros; apply E).
  assert (HF : fits s).
  { apply (fits_tot W). pose proof (proj1 (fits_tot (ready_wf HR)) (ready_fits HR)). pose proof (bat_pos (ready_wf HR)). unfold tot in *. rewrite B, HV. nia. }
  eapply yields_of_flat.
  - apply fw_flat; [exact HA|exact HF|]. intros y ly Hy Ey.
    rewrite (call_fw_eq _ (eq_refl : assoc (fw_registry K m) "batch_sum_fw_impl" = _)). cbn [fx idx nth_error bind].
    destruct (k_batch_sum_spec m (ready_vt HR) Hy) as (l' & E' & HO); [congruence|intros; rewrite Ey; apply E|].
    exists l'. rewrite Ey in HO. split; [exact E'|exact HO].
  - intros c b Hc Hb. cbv beta. assert (b = 0) by lia. subst b. apply red_ext. intros j Hj. rewrite at_buf. f_equal.
    unfold pos. rewrite <- HV. rewrite (@lin_lt_ext (ext s) (ext (t_shape x)) c c 8); auto. lia.
Qed.
Lemma batch_slice_yields d al (x : tensor) lo hi s : al_ok al -> ready d x -> (lo < hi)%N -> N.to_nat hi <= bat (t_shape x) ->
  shape_is s (ext (t_shape x)) (N.to_nat hi - N.to_nat lo) ->
  yields (batch_slice_fw m d al x lo hi) d s (fun c b => at_ x c (N.to_nat lo + b)).
Proof.
  intros HA HR H1 H2 Hs. unfold batch_slice_fw. rewrite (ready_check HR). cbn [bind].
  assert (Es : so_batch_slice (t_shape x) lo hi = Ok s).
  { apply so_batch_slice_iff; [apply (ready_wf HR)|]. split; [exact H1|]. split; [unfold bat in H2; lia|].
    eapply shape_is_N; [exact Hs|reflexivity|lia]. }
  rewrite Es. cbn [bind]. destruct Hs as (W & E & B).
  assert (S : bsliced (t_shape x) s (N.to_nat lo)) by (constructor; auto; [apply (ready_wf HR)|lia]).
  assert (HF : fits s).
  { apply (fits_tot W). pose proof (proj1 (fits_tot (ready_wf HR)) (ready_fits HR)). unfold tot in *. rewrite B, (bs_vol S). nia. }
  eapply yields_of_flat.
  - apply fw_flat; [exact HA|exact HF|]. intros y ly Hy Ey.
    rewrite (call_fw_eq _ (eq_refl : assoc (fw_registry K m) "batch_slice_fw_impl" = _)). cbn [idx nth_error bind].
    destruct (k_batch_slice_fw_spec lo [hi] (ready_vt HR) Hy) as (l' & E' & HO); [rewrite Ey; exact S|].
    exists l'. rewrite Ey in HO. split; [exact E'|exact HO].
  - intros c b Hc Hb. cbv beta. rewrite (bs_pos S). reflexivity.
Qed.
Lemma batch_pick_yields d al (x : tensor) ids s : al_ok al -> ready d x -> (N.of_nat (length ids) < two32)%N -> ids <> [] ->
  Forall (fun id => N.to_nat id < bat (t_shape x)) ids -> shape_is s (ext (t_shape x)) (length ids) -> fits s ->
  yields (batch_pick_fw m d al x ids) d s (fun c b => at_ x c (N.to_nat (nth b ids 0%N))).
Proof.
  intros HA HR HL H0 HI Hs HF. unfold batch_pick_fw. rewrite (ready_check HR). cbn [bind].
  assert (Es : so_batch_pick (t_shape x) ids = Ok s).
  { apply so_batch_pick_iff; [apply (ready_wf HR)|exact HL|]. split; [exact H0|].
    split; [eapply Forall_impl; [|exact HI]; intros a Ha; unfold bat in Ha; lia|].
    eapply shape_is_N; [exact Hs|reflexivity|lia]. }
  rewrite Es. cbn [bind]. destruct Hs as (W & E & B).
  assert (P : bpicked (t_shape x) s ids) by (constructor; auto; apply (ready_wf HR)).
  eapply yields_of_flat.
  - apply fw_flat; [exact HA|exact HF|]. intros y ly Hy Ey.
    rewrite (call_fw_eq _ (eq_refl : assoc (fw_registry K m) "batch_pick_fw_impl" = _)). cbn [idx nth_error bind].
    destruct (@k_batch_pick_fw_spec K x ids y _ _ (ready_vt HR) Hy) as (l' & E' & HO); [rewrite Ey; exact P|].
    exists l'. rewrite Ey in HO. split; [exact E'|exact HO].
  - intros c b Hc Hb. cbv beta. rewrite (bpkg_pos P Hc Hb). reflexivity.
Qed.

(** ** Matrices *)
Definition m2 (a b : nat) : nat -> nat := fun i => match i with 0 => a | 1 => b | _ => 1 end.
Lemma m2_ext2 a b i : m2 (N.to_nat a) (N.to_nat b) i = N.to_nat (ext2 a b i).
Proof. destruct i as [|[|i]]; reflexivity. Qed.
Lemma matrix_index s : wf s -> matrix s -> forall i, 2 <= i -> index s i = 1%N.
Proof. intros W M i Hi. specialize (M i Hi). unfold ext in M. lia. Qed.
Lemma m2_matrix s a b n : shape_is s (m2 a b) n -> matrix s /\ ext s 0 = a /\ ext s 1 = b.
Proof. intros (_ & E & _). split; [|split; apply E]. intros i Hi. rewrite E. destruct i as [|[|i]]; [lia|lia|reflexivity]. Qed.

Lemma transpose_shape x s : wf x -> matrix x -> shape_is s (m2 (ext x 1) (ext x 0)) (bat x) -> so_transpose m x = Ok s.
Proof.
  intros W M Hs. apply le_transpose. apply so_transpose_iff; auto. split; [apply matrix_index; auto|].
  eapply shape_is_N; [exact Hs| |reflexivity]. intros; apply m2_ext2.
Qed.
Lemma transpose_tot x s : matrix x -> shape_is s (m2 (ext x 1) (ext x 0)) (bat x) -> tot s = tot x.
Proof.
  intros M Hs. destruct (m2_matrix Hs) as (Ms & E0 & E1). unfold tot. rewrite (matrix_vol Ms), (matrix_vol M), E0, E1.
  destruct Hs as (_ & _ & ->). nia.
Qed.
Lemma transpose_yields d al (x : tensor) s : al_ok al -> ready d x -> matrix (t_shape x) ->
  shape_is s (m2 (ext (t_shape x) 1) (ext (t_shape x) 0)) (bat (t_shape x)) ->
  yields (transpose_fw m d al x) d s (fun c b => at_ x (c2 (c 1) (c 0)) b).
Proof.
  intros HA HR HM Hs. unfold transpose_fw. rewrite (ready_check HR). cbn [bind]. rewrite (transpose_shape (ready_wf HR) HM Hs). cbn [bind].
  destruct (m2_matrix Hs) as (Ms & E0 & E1).
  assert (HF : fits s).
  { apply (fits_tot (proj1 Hs)). rewrite (transpose_tot HM Hs). apply (fits_tot (ready_wf HR)), (ready_fits HR). }
  destruct (@new_alloc_Ok K m d al s HA HF) as (l & El & Hl). rewrite El. cbn [bind].
  pose proof (@new_ready K d s l HF Hl) as Hy.
  rewrite (call_fw_eq _ (eq_refl : assoc (fw_registry K m) "transpose_fw_impl" = _)). cbn [fx idx nth_error bind].
  destruct (k_transpose_spec (ready_vt HR) (ready_vt Hy)) as (l' & E' & HL & _ & HO); cbn [t_shape]; auto.
  { apply (proj2 (proj2 Hs)). }
  eexists. split; [exact E'|]. split; [apply ready_with; auto|]. split; [reflexivity|].
  intros c b Hc Hb. rewrite at_buf, buf_with. cbn [t_shape with_buf] in *.
  pose proof (Hc 0); pose proof (Hc 1).
  rewrite (@pos_ext s s c (c2 (c 0) (c 1)) b); auto; [|intros i _; apply (matrix_c2 Ms Hc)].
  rewrite HO; [reflexivity| | |]; [rewrite <- (proj2 (proj2 Hs)); exact Hb|lia|lia].
Qed.
Lemma matmul_shape a b s : wf a -> wf b -> matrix a -> matrix b -> ext a 1 = ext b 0 -> compat (batch a) (batch b) ->
  shape_is s (m2 (ext a 0) (ext b 1)) (Nat.max (bat a) (bat b)) -> so_matmul m a b = Ok s.
Proof.
  intros Wa Wb Ma Mb E Hc Hs. apply le_matmul. apply so_matmul_iff; auto. split; [apply matrix_index; auto|]. split; [apply matrix_index; auto|].
  split; [unfold ext in E; lia|]. split; [exact Hc|]. eapply shape_is_N; [exact Hs|intros; apply m2_ext2|unfold bat; rewrite N2Nat.inj_max; reflexivity].
Qed.
Lemma matmul_yields d al (a b : tensor) s : al_ok al -> ready d a -> ready d b -> matrix (t_shape a) -> matrix (t_shape b) ->
  ext (t_shape a) 1 = ext (t_shape b) 0 ->
  (bat (t_shape a) = bat (t_shape b) \/ bat (t_shape a) = 1 \/ bat (t_shape b) = 1) ->
  shape_is s (m2 (ext (t_shape a) 0) (ext (t_shape b) 1)) (Nat.max (bat (t_shape a)) (bat (t_shape b))) -> fits s ->
  yields (matmul_fw m d al a b) d s (fun c n => blocksum K (fun j =>
      nmul K (at_ a (c2 (c 0) j) (bsel (t_shape a) n)) (at_ b (c2 j (c 1)) (bsel (t_shape b) n))) (ext (t_shape a) 1)).
Proof.
  intros HA Ha Hb Ma Mb E Hc Hs HF.
  assert (Hc' : compat (batch (t_shape a)) (batch (t_shape b))) by (unfold compat, bat in *; lia).
  unfold matmul_fw. rewrite (ready_check Ha), (ready_check Hb). cbn [bind].
  rewrite (matmul_shape (ready_wf Ha) (ready_wf Hb) Ma Mb E Hc' Hs). cbn [bind].
  destruct (m2_matrix Hs) as (Ms & E0 & E1). pose proof (bat_pos (ready_wf Ha)); pose proof (bat_pos (ready_wf Hb)).
  assert (Bs : bat s = Nat.max (bat (t_shape a)) (bat (t_shape b))) by apply Hs.
  eapply yields_of_flat.
  - apply fw_flat; [exact HA|exact HF|]. intros y ly Hy Ey.
    rewrite (call_fw_eq _ (eq_refl : assoc (fw_registry K m) "matmul_fw_impl" = _)). cbn [fxx idx nth_error bind].
    destruct (k_matmul_spec (ready_vt Ha) (ready_vt Hb) Hy) as (l' & E' & HO); try rewrite Ey; auto; try lia.
    exists l'. rewrite Ey in HO. split; [exact E'|exact HO].
  - intros c n Hcc Hn. cbv beta zeta. apply blocksum_ext. intros j Hj.
    pose proof (Hcc 0) as C0. pose proof (Hcc 1) as C1.
    rewrite (@pos_ext s s c (c2 (c 0) (c 1)) n); auto; [|intros i _; apply (matrix_c2 Ms Hcc)].
    rewrite (matrix_pos _ _ _ Ms), E0, E1.
    set (d1 := ext (t_shape a) 0) in *. set (d3 := ext (t_shape b) 1) in *.
    assert (HL : c 0 + c 1 * d1 < d1 * d3) by nia.
    destruct (divmod_of n HL) as [-> ->].
    assert (Q : (c 0 + c 1 * d1) mod d1 = c 0 /\ (c 0 + c 1 * d1) / d1 = c 1).
    { assert (c 0 < d1) by lia. destruct (@divmod_of d1 (c 0) (c 1)); auto. replace (c 0 + c 1 * d1) with (c 1 * d1 + c 0) by lia. auto. }
    destruct Q as [-> ->]. rewrite !at_buf. rewrite (matrix_pos _ _ _ Ma), (matrix_pos _ _ _ Mb). fold d1 d3. rewrite <- E. reflexivity.
Qed.
Lemma triangular_flat (upper : bool) d al (x : tensor) k : al_ok al -> ready d x -> matrix (t_shape x) ->
  let n := ext (t_shape x) 0 in ext (t_shape x) 1 = n -> (N.of_nat n + k <= two32)%N ->
  yields_flat ((if upper then triangular_u_fw m else triangular_l_fw m) d al x k) d (t_shape x)
    (fun p => let i := p mod n in let j := (p / n) mod n in
      if (if upper then N.of_nat i + k <=? N.of_nat j else N.of_nat j + k <=? N.of_nat i)%N then nth0 (buf x) p else n0).
Proof.
  intros HA HR HM n En Hk.
  assert (HT : is_matrix (t_shape x) && (index (t_shape x) 0 =? index (t_shape x) 1)%N = true).
  { apply andb_true_iff. split; [apply is_matrix_iff; [apply (ready_wf HR)|apply matrix_index; auto; apply (ready_wf HR)]|].
    apply N.eqb_eq. unfold n, ext in En. lia. }
  destruct upper; unfold triangular_l_fw, triangular_u_fw, triangular_fw; rewrite (ready_check HR); cbn [bind]; rewrite HT; cbn [assert bind];
    (apply fw_flat; [exact HA|apply (ready_fits HR)|]); intros y ly Hy Ey.
  - rewrite (call_fw_eq _ (eq_refl : assoc (fw_registry K m) "triangular_u_fw_impl" = _)). cbn [fxu idx nth_error bind].
    destruct (@k_triangular_spec K m true x k y _ _ (ready_vt HR) Hy Ey HM En (fun _ => Hk) (fun _ => Hk)) as (l' & E' & HO).
    exists l'. rewrite Ey in HO. split; [exact E'|exact HO].
  - rewrite (call_fw_eq _ (eq_refl : assoc (fw_registry K m) "triangular_l_fw_impl" = _)). cbn [fxu idx nth_error bind].
    destruct (@k_triangular_spec K m false x k y _ _ (ready_vt HR) Hy Ey HM En (fun _ => Hk) (fun _ => Hk)) as (l' & E' & HO).
    exists l'. rewrite Ey in HO. split; [exact E'|exact HO].
Qed.
Lemma square_pos s c b : matrix s -> ext s 1 = ext s 0 -> inb s c -> pos s c b mod ext s 0 = c 0 /\ (pos s c b / ext s 0) mod ext s 0 = c 1.
Proof.
  intros M E Hc. pose proof (Hc 0); pose proof (Hc 1). rewrite E in *.
  rewrite (@pos_ext s s c (c2 (c 0) (c 1)) b); auto; [|intros i _; apply (matrix_c2 M Hc)].
  rewrite (matrix_pos _ _ _ M), E. set (n := ext s 0) in *.
  replace (b * (n * n) + (c 0 + c 1 * n)) with ((b * n + c 1) * n + c 0) by nia.
  destruct (@divmod_of n (c 0) (b * n + c 1)) as [-> ->]; auto. destruct (@divmod_of n (c 1) b) as [_ ->]; auto.
Qed.
Lemma triangular_yields (upper : bool) d al (x : tensor) k : al_ok al -> ready d x -> matrix (t_shape x) ->
  ext (t_shape x) 1 = ext (t_shape x) 0 -> (N.of_nat (ext (t_shape x) 0) + k <= two32)%N ->
  yields ((if upper then triangular_u_fw m else triangular_l_fw m) d al x k) d (t_shape x)
    (fun c b => if (if upper then N.of_nat (c 0%nat) + k <=? N.of_nat (c 1%nat) else N.of_nat (c 1%nat) + k <=? N.of_nat (c 0%nat))%N then at_ x c b else n0).
Proof.
  intros HA HR HM En Hk. eapply yields_of_flat; [apply triangular_flat; eauto|]. intros c b Hc Hb. cbv beta zeta.
  destruct (square_pos b HM En Hc) as [-> ->]. reflexivity.
Qed.
End ApiMove.
