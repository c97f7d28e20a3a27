(** * KMove2: pick, batch operations, transpose, triangular, flip, identity *)
From Verif Require Export KMove.
Set Implicit Arguments.

Ltac kstart :=
  repeat match goal with
  | H : vt ?t ?l |- context [ptr ?t] => rewrite (ptr_vt H); cbn [bind]
  | H : vt ?t ?l |- context [size ?m (t_shape ?t)] => rewrite (size_vt m H); cbn [bind]
  | H : vt ?t ?l |- context [lower_volume ?m (t_shape ?t) ?d] => rewrite (@lower_volume_low m (t_shape t) d (vt_wf H)); cbn [bind]
  | H : vt ?t ?l |- context [N.to_nat (volume (t_shape ?t))] => rewrite (vol_volume (vt_wf H))
  end; rewrite ?Nat2N.id; repeat change (N.to_nat (index ?s ?d)) with (ext s d);
  repeat change (N.to_nat (batch ?s)) with (bat s).
Ltac rdok := match goal with |- context [rd ?l ?i] => rewrite (rd_Ok l i n0) by lia; cbn [bind] end.

Lemma blk q r a B : q < B -> r < a -> q * a + r < B * a.
Proof. intros. assert ((q + 1) * a <= B * a) by (apply Nat.mul_le_mono_r; lia). lia. Qed.

Section Move2.
Variable K : num.
Variable m : build.
Notation F := (F K).
Notation nth0 l p := (nth p l (@n0 K)).

(** *** pick *)
Section Pick.
Variables (sx sy : shape) (d : nat) (ids : list N).
Hypothesis HP : picked sx sy d ids.
Notation w := (low sx d).
Lemma pick_vols : exists h, 1 <= h /\ vol sx = w * ext sx d * h /\ vol sy = w * h.
Proof.
  destruct (Nat.lt_ge_cases d 8).
  - exists (prod_from (ext sx) d 8). unfold vol, low. rewrite !(@prod_split _ d 8) by auto.
    rewrite (@prod_from_ext (ext sy) (ext sx)) by apply (pk_ext HP).
    change (prod_lt (ext sy) d) with (low sy d). rewrite (pk_low HP), (pk_one HP). split; [|split; [reflexivity|unfold low; lia]].
    pose proof (vol_pos (pk_wx HP)) as Hv. unfold vol, low in Hv. rewrite (@prod_split _ d 8) in Hv by auto.
    destruct (prod_from (ext sx) d 8); lia.
  - exists 1. assert (vol sy = w) by (rewrite <- (pk_low HP), low_ge8 by (auto; apply HP); auto).
    rewrite low_ge8, ext_ge8 by (auto; apply HP). rewrite low_ge8 in H0 by (auto; apply HP). lia.
Qed.
Lemma pick_skip_i b : b < bat sy -> b * (if 1 <? length ids then 1 else 0) = if length ids =? 1 then 0 else b.
Proof.
  intros Hb. pose proof (pk_len_pos HP). destruct (Nat.ltb_spec 1 (length ids)), (Nat.eqb_spec (length ids) 1); try lia.
Qed.
Lemma pick_skip_x b : b < bat sy -> b * (if has_batch sx then vol sx else 0) = bsel sx b * vol sx.
Proof.
  intros Hb. pose proof (has_batch_iff (pk_wx HP)) as H. unfold bsel. destruct (has_batch sx), (Nat.eqb_spec (bat sx) 1); try lia.
  all: try (exfalso; apply H; auto; fail). all: assert (false = true) by (apply H; auto); discriminate.
Qed.
Lemma pick_flat p h : vol sy = w * h -> p < tot sy ->
  p / (h * w) * (if has_batch sx then vol sx else 0) + w * pid ids (p / (h * w)) + w * ext sx d * (p mod (h * w) / w) + p mod (h * w) mod w
  = pkg sx sy d ids p.
Proof.
  intros E Hp. assert (Ev : h * w = vol sy) by lia. rewrite Ev. unfold pkg. rewrite pick_skip_x; auto.
  apply Nat.div_lt_upper_bound; [pose proof (vol_pos (pk_wy HP)); lia|]. unfold tot in Hp. lia.
Qed.
End Pick.

Lemma k_pick_fw_spec x dim ids y lx ly : vt x lx -> vt y ly ->
  picked (t_shape x) (t_shape y) (N.to_nat dim) ids ->
  exists l', k_pick_fw m x (dim :: ids) y = Ok (with_buf y l') /\
    over n0 ly l' (tot (t_shape y)) (fun p => nth0 lx (pkg (t_shape x) (t_shape y) (N.to_nat dim) ids p)).
Proof.
  intros Hx Hy HP. unfold k_pick_fw. cbn [idx nth_error bind tl]. kstart.
  set (d := N.to_nat dim) in *. rewrite (pk_low HP).
  pose proof (proj2 (proj2 Hx)) as HxL. pose proof (proj2 (proj2 Hy)) as HyL.
  set (sx := t_shape x) in *. set (sy := t_shape y) in *. set (w := low sx d) in *.
  assert (Hw : 1 <= w) by apply (low_pos d (pk_wx HP)).
  destruct (pick_vols HP) as (h & Hh & Evx & Evy). fold w in Evx, Evy.
  replace (vol sy / w) with h by (rewrite Evy, Nat.mul_comm, Nat.div_mul; lia).
  assert (Et : tot sy = bat sy * (h * w)) by (unfold tot; rewrite Evy; lia).
  rewrite (@forN_ext _ (bat sy) _ (fun b st => forN h (fun i st => forN w (fun j '(dest, py) =>
     v <- rd lx (b * (if has_batch sx then vol sx else 0) + w * pid ids b + w * ext sx d * i + j) ;;
     py' <- wr py dest v ;; Ok (dest + 1, py')) st) st)).
  2:{ intros b st Hb. rewrite (pick_skip_i HP Hb). rewrite (idx_Ok ids _ 0%N) by (apply (pid_idx HP); auto). reflexivity. }
  rewrite (forN_counter3v (bat sy) h w (fun b i j _ => rd lx (b * (if has_batch sx then vol sx else 0) + w * pid ids b + w * ext sx d * i + j))
      (fun _ _ _ dest v py => wr py dest v) 0 ly). rewrite <- Et.
  edestruct (@wr_loop F n0 (tot sy)) with (l := ly) (f := fun p => nth0 lx (pkg sx sy d ids p)) as (l' & E & HO); auto.
  2:{ rewrite E. cbn [bind snd]. eauto. }
  intros p l' Hp HL. cbv beta. pose proof (pkg_lt HP Hp) as Hlt.
  pose proof (@pick_flat _ _ _ _ HP p h Evy Hp) as Q; fold w in Q; rewrite Q; clear Q. rdok. rewrite wr_Ok by lia. auto.
Qed.

Lemma k_pick_bw_spec gy dim ids gx lgy lgx : vt gy lgy -> vt gx lgx ->
  picked (t_shape gx) (t_shape gy) (N.to_nat dim) ids ->
  exists l', k_pick_bw m gy (dim :: ids) gx = Ok (with_buf gx l') /\
    scatters K (pkg (t_shape gx) (t_shape gy) (N.to_nat dim) ids) lgy lgx l' (tot (t_shape gy)).
Proof.
  intros Hy Hx HP. unfold k_pick_bw. cbn [idx nth_error bind tl]. kstart.
  set (d := N.to_nat dim) in *. rewrite (pk_low HP).
  pose proof (proj2 (proj2 Hx)) as HxL. pose proof (proj2 (proj2 Hy)) as HyL.
  set (sx := t_shape gx) in *. set (sy := t_shape gy) in *. set (w := low sx d) in *.
  assert (Hw : 1 <= w) by apply (low_pos d (pk_wx HP)).
  destruct (pick_vols HP) as (h & Hh & Evx & Evy). fold w in Evx, Evy.
  replace (vol sy / w) with h by (rewrite Evy, Nat.mul_comm, Nat.div_mul; lia).
  assert (Et : tot sy = bat sy * (h * w)) by (unfold tot; rewrite Evy; lia).
  rewrite (@forN_ext _ (bat sy) _ (fun b st => forN h (fun i st => forN w (fun j '(src, pgx) =>
     v <- rd lgy src ;;
     pgx' <- upd pgx (b * (if has_batch sx then vol sx else 0) + w * pid ids b + w * ext sx d * i + j) (fun u => Ok (nadd K u v)) ;; Ok (src + 1, pgx')) st) st)).
  2:{ intros b st Hb. rewrite (pick_skip_i HP Hb). rewrite (idx_Ok ids _ 0%N) by (apply (pid_idx HP); auto). reflexivity. }
  rewrite (forN_counter3v (bat sy) h w (fun _ _ _ src => rd lgy src)
      (fun b i j _ v pgx => upd pgx (b * (if has_batch sx then vol sx else 0) + w * pid ids b + w * ext sx d * i + j) (fun u => Ok (nadd K u v))) 0 lgx). rewrite <- Et.
  edestruct (@scatterN F n0 (tot sy) (pkg sx sy d ids) (fun p v => nadd K v (nth0 lgy p))) with (l := lgx) as (l' & E & HL & HPp).
  3:{ rewrite E. cbn [bind snd]. eexists; split; [reflexivity|]. split; auto. }
  - intros p l' Hp HL. cbv beta. pose proof (@pick_flat _ _ _ _ HP p h Evy Hp) as Q; fold w in Q; rewrite Q; clear Q.
    pose proof (pkg_lt HP Hp). rdok. rewrite (upd_Ok n0) by lia. auto.
  - intros p Hp. pose proof (pkg_lt HP Hp). lia.
Qed.

(** *** batch_pick *)
Record bpicked (sx sy : shape) (ids : list N) : Prop := {
  bp_wx : wf sx; bp_wy : wf sy; bp_ext : forall i, ext sy i = ext sx i;
  bp_len : length ids = bat sy; bp_ids : Forall (fun id => N.to_nat id < bat sx) ids }.
Definition bpkg (sx : shape) (ids : list N) (p : nat) : nat := N.to_nat (nth (p / vol sx) ids 0%N) * vol sx + p mod vol sx.
Section BPick.
Variables (sx sy : shape) (ids : list N).
Hypothesis HP : bpicked sx sy ids.
Lemma bp_vol : vol sy = vol sx.
Proof. apply vol_ext. intros; apply (bp_ext HP). Qed.
Lemma bp_id b : b < bat sy -> N.to_nat (nth b ids 0%N) < bat sx.
Proof. intros Hb. pose proof (bp_ids HP) as H. rewrite Forall_forall in H. apply H, nth_In. rewrite (bp_len HP); auto. Qed.
Lemma bpkg_lt p : p < tot sy -> bpkg sx ids p < tot sx.
Proof.
  intros Hp. pose proof (vol_pos (bp_wx HP)). unfold bpkg, tot in *. rewrite bp_vol in Hp.
  assert (p / vol sx < bat sy) by (apply Nat.div_lt_upper_bound; lia). pose proof (bp_id H0).
  pose proof (Nat.mod_upper_bound p (vol sx) ltac:(lia)). nia.
Qed.
Lemma bpkg_pos c b : inb sy c -> b < bat sy -> bpkg sx ids (pos sy c b) = pos sx c (N.to_nat (nth b ids 0%N)).
Proof.
  intros Hc Hb. destruct (pos_batch b Hc) as (E1 & E2). rewrite bp_vol in E1, E2. unfold bpkg. rewrite E1, E2.
  rewrite (@pos_ext sy sx c c 0) by (auto; intros; apply (bp_ext HP)). unfold pos. lia.
Qed.
End BPick.

Lemma k_batch_pick_fw_spec x ids y lx ly : vt x lx -> vt y ly -> bpicked (t_shape x) (t_shape y) ids ->
  exists l', k_batch_pick_fw x ids y = Ok (with_buf y l') /\
    over n0 ly l' (tot (t_shape y)) (fun p => nth0 lx (bpkg (t_shape x) ids p)).
Proof.
  intros Hx Hy HP. unfold k_batch_pick_fw. kstart.
  pose proof (proj2 (proj2 Hx)) as HxL. pose proof (proj2 (proj2 Hy)) as HyL.
  set (sx := t_shape x) in *. set (sy := t_shape y) in *. set (V := vol sx) in *.
  assert (HV : 1 <= V) by apply (vol_pos (bp_wx HP)).
  rewrite (@forN_ext _ (bat sy) _ (fun b py => forN V (fun i py => v <- rd lx (V * N.to_nat (nth b ids 0%N) + i) ;; wr py (V * b + i) v) py)).
  2:{ intros b py Hb. rewrite (idx_Ok ids b 0%N) by (rewrite (bp_len HP); auto). reflexivity. }
  rewrite (forN_nest_rev (bat sy) V (fun b i py => v <- rd lx (V * N.to_nat (nth b ids 0%N) + i) ;; wr py (V * b + i) v) ly).
  assert (Et : bat sy * V = tot sy) by (unfold tot; rewrite (bp_vol HP); auto). rewrite Et.
  edestruct (@wr_loop F n0 (tot sy)) with (l := ly) (f := fun p => nth0 lx (bpkg sx ids p)) as (l' & E & HO); auto.
  2:{ rewrite E. cbn [bind snd]. eauto. }
  intros p l' Hp HL. cbv beta. pose proof (bpkg_lt HP Hp) as Hlt. unfold bpkg in *. fold V in Hlt |- *.
  rewrite (Nat.mul_comm V). rdok. rewrite <- Nat.div_mod by lia. rewrite wr_Ok by lia. auto.
Qed.

Lemma k_batch_pick_bw_spec gy ids gx lgy lgx : vt gy lgy -> vt gx lgx -> bpicked (t_shape gx) (t_shape gy) ids ->
  exists l', k_batch_pick_bw gy ids gx = Ok (with_buf gx l') /\
    scatters K (bpkg (t_shape gx) ids) lgy lgx l' (tot (t_shape gy)).
Proof.
  intros Hy Hx HP. unfold k_batch_pick_bw. kstart.
  pose proof (proj2 (proj2 Hx)) as HxL. pose proof (proj2 (proj2 Hy)) as HyL.
  set (sx := t_shape gx) in *. set (sy := t_shape gy) in *. set (V := vol sx) in *.
  assert (HV : 1 <= V) by apply (vol_pos (bp_wx HP)).
  rewrite (@forN_ext _ (bat sy) _ (fun b pgx => forN V (fun i pgx => v <- rd lgy (V * b + i) ;; upd pgx (V * N.to_nat (nth b ids 0%N) + i) (fun u => Ok (nadd K u v))) pgx)).
  2:{ intros b py Hb. rewrite (idx_Ok ids b 0%N) by (rewrite (bp_len HP); auto). reflexivity. }
  rewrite (forN_nest_rev (bat sy) V (fun b i pgx => v <- rd lgy (V * b + i) ;; upd pgx (V * N.to_nat (nth b ids 0%N) + i) (fun u => Ok (nadd K u v))) lgx).
  assert (Et : bat sy * V = tot sy) by (unfold tot; rewrite (bp_vol HP); auto). rewrite Et.
  edestruct (@scatterN F n0 (tot sy) (bpkg sx ids) (fun p v => nadd K v (nth0 lgy p))) with (l := lgx) as (l' & E & HL & HPp).
  3:{ rewrite E. cbn [bind snd]. eexists; split; [reflexivity|]. split; auto. }
  - intros p l' Hp HL. cbv beta. pose proof (bpkg_lt HP Hp) as Hlt. unfold bpkg in *. fold V in Hlt |- *.
    rewrite <- Nat.div_mod by lia. rdok. rewrite (Nat.mul_comm V). rewrite (upd_Ok n0) by lia. auto.
  - intros p Hp. pose proof (bpkg_lt HP Hp). lia.
Qed.

(** *** batch_slice *)
Record bsliced (sx sy : shape) (off : nat) : Prop := {
  bs_wx : wf sx; bs_wy : wf sy; bs_ext : forall i, ext sy i = ext sx i; bs_off : off + bat sy <= bat sx }.
Section BSlice.
Variables (sx sy : shape) (off : nat).
Hypothesis HS : bsliced sx sy off.
Lemma bs_vol : vol sy = vol sx.
Proof. apply vol_ext. intros; apply (bs_ext HS). Qed.
Lemma bs_lt p : p < tot sy -> vol sx * off + p < tot sx.
Proof. intros Hp. unfold tot in *. rewrite bs_vol in Hp. pose proof (bs_off HS). nia. Qed.
Lemma bs_pos c b : vol sx * off + pos sy c b = pos sx c (off + b).
Proof. rewrite (@pos_ext sy sx c c b) by (auto; intros; apply (bs_ext HS)). unfold pos. lia. Qed.
End BSlice.

Lemma k_batch_slice_fw_spec x off rest y lx ly : vt x lx -> vt y ly -> bsliced (t_shape x) (t_shape y) (N.to_nat off) ->
  exists l', k_batch_slice_fw x (off :: rest) y = Ok (with_buf y l') /\
    over n0 ly l' (tot (t_shape y)) (fun p => nth0 lx (vol (t_shape x) * N.to_nat off + p)).
Proof.
  intros Hx Hy HS. unfold k_batch_slice_fw. cbn [idx nth_error bind]. kstart.
  pose proof (proj2 (proj2 Hx)) as HxL. pose proof (proj2 (proj2 Hy)) as HyL.
  rewrite (Nat.mul_comm _ (bat _)). change (bat (t_shape y) * vol (t_shape y)) with (tot (t_shape y)). rewrite (bs_vol HS).
  edestruct (@wr_loop F n0 (tot (t_shape y))) with (l := ly) (f := fun p => nth0 lx (vol (t_shape x) * N.to_nat off + p)) as (l' & E & HO); auto.
  2:{ rewrite E. cbn [bind snd]. eauto. }
  intros p l' Hp HL. cbv beta. pose proof (bs_lt HS Hp) as Hlt. rdok. rewrite wr_Ok by lia. auto.
Qed.
Lemma k_batch_slice_bw_spec gy off rest gx lgy lgx : vt gy lgy -> vt gx lgx -> bsliced (t_shape gx) (t_shape gy) (N.to_nat off) ->
  exists l', k_batch_slice_bw gy (off :: rest) gx = Ok (with_buf gx l') /\
    scatters K (fun p => vol (t_shape gx) * N.to_nat off + p) lgy lgx l' (tot (t_shape gy)).
Proof.
  intros Hy Hx HS. unfold k_batch_slice_bw. cbn [idx nth_error bind]. kstart.
  pose proof (proj2 (proj2 Hx)) as HxL. pose proof (proj2 (proj2 Hy)) as HyL.
  rewrite (Nat.mul_comm _ (bat _)). change (bat (t_shape gy) * vol (t_shape gy)) with (tot (t_shape gy)). rewrite (bs_vol HS).
  edestruct (@scatterN F n0 (tot (t_shape gy)) (fun p => vol (t_shape gx) * N.to_nat off + p) (fun p v => nadd K v (nth0 lgy p))) with (l := lgx) as (l' & E & HL & HPp).
  3:{ rewrite E. cbn [bind snd]. eexists; split; [reflexivity|]. split; auto. }
  - intros p l' Hp HL. cbv beta. pose proof (bs_lt HS Hp) as Hlt. rdok. rewrite (upd_Ok n0) by lia. auto.
  - intros p Hp. pose proof (bs_lt HS Hp). lia.
Qed.

(** *** batch_sum *)
Lemma k_batch_sum_spec x y lx ly : vt x lx -> vt y ly -> bat (t_shape y) = 1 -> (forall i, ext (t_shape y) i = ext (t_shape x) i) ->
  exists l', k_batch_sum m x y = Ok (with_buf y l') /\
    over n0 ly l' (tot (t_shape y)) (fun p => red (nadd K) n0 (fun b => nth0 lx (p + b * vol (t_shape x))) (bat (t_shape x))).
Proof.
  intros Hx Hy Hb He. unfold k_batch_sum. kstart.
  pose proof (proj2 (proj2 Hx)) as HxL. pose proof (proj2 (proj2 Hy)) as HyL.
  assert (Ev : tot (t_shape y) = vol (t_shape x)) by (unfold tot; rewrite Hb, (@vol_ext (t_shape y) (t_shape x)) by auto; lia).
  edestruct (@wr_loop F n0 (tot (t_shape y))) with (l := ly) (f := fun p => red (nadd K) n0 (fun b => nth0 lx (p + b * vol (t_shape x))) (bat (t_shape x))) as (l' & E & HO); auto.
  2:{ rewrite E. cbn [bind snd]. eauto. }
  intros p l' Hp HL. cbv beta. rewrite line_fold.
  2:{ intros j Hj. unfold tot in HxL. rewrite Ev in *. nia. }
  cbn [bind snd]. rewrite wr_Ok by lia. rewrite Ev. auto.
Qed.

(** *** flip *)
Lemma flip_offset_line i n skip : 1 <= skip -> 1 <= n -> flip_offset i n skip = line i skip (skip * n).
Proof.
  intros H1 H2. unfold flip_offset, line. pose proof (Nat.div_mod i skip ltac:(lia)) as E.
  set (q := i / skip) in *. set (r := i mod skip) in *. clearbody q r. subst i.
  replace ((skip * q + r) * n) with (q * (skip * n) + r * n) by lia.
  rewrite Nat.mul_sub_distr_l. assert (r <= r * n) by nia. lia.
Qed.
Lemma k_flip_fw_spec x dim y lx ly sr : vt x lx -> vt y ly -> t_shape y = t_shape x -> reduces (t_shape x) sr dim ->
  exists l', k_flip_fw m x dim y = Ok (with_buf y l') /\
    over n0 ly l' (tot (t_shape y)) (fun q => let s := t_shape x in
       nth0 lx (lpos s dim (lline s dim q) (ext s dim - 1 - lidx s dim q))).
Proof.
  intros Hx Hy Es HR. unfold k_flip_fw. kstart.
  pose proof (proj2 (proj2 Hx)) as HxL. pose proof (proj2 (proj2 Hy)) as HyL. rewrite Es in *.
  set (s := t_shape x) in *. set (n := ext s dim). set (w := low s dim).
  assert (Hn : 1 <= n) by apply (red_n HR). assert (Hw : 1 <= w) by apply (red_s1 HR).
  pose proof (red_tot HR) as Et. fold n in Et. replace (tot s / n) with (tot sr) by (rewrite <- Et, Nat.div_mul; lia).
  rewrite (forN_nest_rev n (tot sr) (fun j i py => v <- rd lx (flip_offset i n w + (n - j - 1) * w) ;; wr py (flip_offset i n w + j * w) v) ly).
  replace (n * tot sr) with (tot s) by lia.
  assert (HT : 1 <= tot sr) by apply (tot_pos (rd_wy HR)).
  edestruct (@bij_loop F n0 (tot s) (fun p => lpos s dim (p mod tot sr) (p / tot sr))
     (fun q => lidx s dim q * tot sr + lline s dim q)
     (fun p _ => nth0 lx (lpos s dim (p mod tot sr) (n - p / tot sr - 1)))) with (l := ly) as (l' & E & HO); auto.
  4:{ rewrite E. cbn [bind]. eexists; split; [reflexivity|]. destruct HO as (HL & HP). split; auto.
      intros q. rewrite HP. destruct (Nat.ltb_spec q (tot s)) as [Hq|]; auto.
      destruct (lpos_surj HR Hq) as (H1 & H2 & H3). destruct (divmod_of (lidx s dim q) H1) as (-> & ->).
      f_equal. fold n. f_equal. lia. }
  - intros p Hp. assert (H1 : p mod tot sr < tot sr) by (apply Nat.mod_upper_bound; lia).
    assert (H2 : p / tot sr < n) by (apply Nat.div_lt_upper_bound; lia).
    split; [apply (lpos_lt HR); auto|]. destruct (lpos_inv HR (p mod tot sr) H2) as (-> & ->).
    rewrite (Nat.mul_comm _ (tot sr)). symmetry; apply Nat.div_mod. lia.
  - intros q Hq. destruct (lpos_surj HR Hq) as (H1 & H2 & H3). fold n in H2. destruct (divmod_of (lidx s dim q) H1) as (-> & ->).
    split; auto. rewrite <- Et. nia.
  - intros p l' Hp HL. assert (H1 : p mod tot sr < tot sr) by (apply Nat.mod_upper_bound; lia).
    assert (H2 : p / tot sr < n) by (apply Nat.div_lt_upper_bound; lia).
    cbv beta. rewrite flip_offset_line by auto.
    pose proof (lpos_lt HR H1 H2) as L1. assert (H3 : n - p / tot sr - 1 < n) by lia. pose proof (lpos_lt HR H1 H3) as L2.
    unfold lpos in *. fold n w in L1, L2 |- *. rdok. rewrite wr_Ok by lia. auto.
Qed.
Lemma k_flip_bw_spec gy dim gx lgy lgx sr : vt gy lgy -> vt gx lgx -> t_shape gy = t_shape gx -> reduces (t_shape gx) sr dim ->
  exists l', k_flip_bw m gy dim gx = Ok (with_buf gx l') /\
    over n0 lgx l' (tot (t_shape gx)) (fun q => let s := t_shape gx in
       nadd K (nth0 lgx q) (nth0 lgy (lpos s dim (lline s dim q) (ext s dim - 1 - lidx s dim q)))).
Proof.
  intros Hx Hy Es HR. unfold k_flip_bw. kstart.
  pose proof (proj2 (proj2 Hx)) as HxL. pose proof (proj2 (proj2 Hy)) as HyL. rewrite Es in *.
  set (s := t_shape gx) in *. set (n := ext s dim). set (w := low s dim).
  assert (Hn : 1 <= n) by apply (red_n HR). assert (Hw : 1 <= w) by apply (red_s1 HR).
  pose proof (red_tot HR) as Et. fold n in Et. replace (tot s / n) with (tot sr) by (rewrite <- Et, Nat.div_mul; lia).
  rewrite (forN_nest_rev n (tot sr) (fun j i pgx => v <- rd lgy (flip_offset i n w + (n - j - 1) * w) ;; upd pgx (flip_offset i n w + j * w) (fun u => Ok (nadd K u v))) lgx).
  replace (n * tot sr) with (tot s) by lia.
  assert (HT : 1 <= tot sr) by apply (tot_pos (rd_wy HR)).
  edestruct (@bij_loop F n0 (tot s) (fun p => lpos s dim (p mod tot sr) (p / tot sr))
     (fun q => lidx s dim q * tot sr + lline s dim q)
     (fun p u => nadd K u (nth0 lgy (lpos s dim (p mod tot sr) (n - p / tot sr - 1))))) with (l := lgx) as (l' & E & HO); auto.
  4:{ rewrite E. cbn [bind]. eexists; split; [reflexivity|]. destruct HO as (HL & HP). split; auto.
      intros q. rewrite HP. destruct (Nat.ltb_spec q (tot s)) as [Hq|]; auto.
      destruct (lpos_surj HR Hq) as (H1 & H2 & H3). destruct (divmod_of (lidx s dim q) H1) as (-> & ->).
      f_equal. fold n. do 2 f_equal. lia. }
  - intros p Hp. assert (H1 : p mod tot sr < tot sr) by (apply Nat.mod_upper_bound; lia).
    assert (H2 : p / tot sr < n) by (apply Nat.div_lt_upper_bound; lia).
    split; [apply (lpos_lt HR); auto|]. destruct (lpos_inv HR (p mod tot sr) H2) as (-> & ->).
    rewrite (Nat.mul_comm _ (tot sr)). symmetry; apply Nat.div_mod. lia.
  - intros q Hq. destruct (lpos_surj HR Hq) as (H1 & H2 & H3). fold n in H2. destruct (divmod_of (lidx s dim q) H1) as (-> & ->).
    split; auto. rewrite <- Et. nia.
  - intros p l' Hp HL. assert (H1 : p mod tot sr < tot sr) by (apply Nat.mod_upper_bound; lia).
    assert (H2 : p / tot sr < n) by (apply Nat.div_lt_upper_bound; lia).
    cbv beta. rewrite flip_offset_line by auto.
    pose proof (lpos_lt HR H1 H2) as L1. assert (H3 : n - p / tot sr - 1 < n) by lia. pose proof (lpos_lt HR H1 H3) as L2.
    unfold lpos in *. fold n w in L1, L2 |- *. rdok. rewrite (upd_Ok n0) by lia. auto.
Qed.

(** *** transpose *)
Lemma k_transpose_spec x y lx ly : vt x lx -> vt y ly -> matrix (t_shape x) -> matrix (t_shape y) ->
  ext (t_shape y) 0 = ext (t_shape x) 1 -> ext (t_shape y) 1 = ext (t_shape x) 0 -> bat (t_shape y) = bat (t_shape x) ->
  exists l', k_transpose x y = Ok (with_buf y l') /\ length l' = length ly /\
    (forall p, tot (t_shape y) <= p -> nth0 l' p = nth0 ly p) /\
    forall b i j, b < bat (t_shape x) -> i < ext (t_shape x) 0 -> j < ext (t_shape x) 1 ->
      nth0 l' (pos (t_shape y) (c2 j i) b) = nth0 lx (pos (t_shape x) (c2 i j) b).
Proof.
  intros Hx Hy Mx My E0 E1 Eb. unfold k_transpose. kstart.
  pose proof (proj2 (proj2 Hx)) as HxL. pose proof (proj2 (proj2 Hy)) as HyL.
  pose proof (vt_wf Hx) as Wx. pose proof (vt_wf Hy) as Wy.
  set (sx := t_shape x) in *. set (sy := t_shape y) in *. set (d1 := ext sx 0) in *. set (d2 := ext sx 1) in *. set (B := bat sy) in *.
  assert (H1 : 1 <= d1) by apply (ext_pos 0 Wx). assert (H2 : 1 <= d2) by apply (ext_pos 1 Wx).
  assert (Tx : tot sx = B * (d2 * d1)) by (unfold tot; rewrite matrix_vol by auto; fold d1 d2; rewrite <- Eb; lia).
  assert (Ty : tot sy = B * (d2 * d1)) by (unfold tot; rewrite matrix_vol, E0, E1 by auto; fold B; lia).
  (* flatten the loops *)
  assert (L1 : forall p k py, forN d1 (fun _ '(pp, k, py) => v <- rd lx k ;; py' <- wr py pp v ;; Ok (pp + d2, k + 1, py')) (p, k, py)
     = (py' <- forN d1 (fun i py => v <- rd lx (k + i) ;; wr py (p + i * d2) v) py ;; Ok (p + d1 * d2, k + d1, py'))).
  { intros p k py. pose proof (forN_stride2 d1 d2 1 (fun _ pp k py => v <- rd lx k ;; wr py pp v) p k py) as G.
    rewrite Nat.mul_1_r in G. etransitivity; [|etransitivity; [exact G|]].
    - apply forN_ext. intros i [[a b] c] _. rewrite bind_assoc. reflexivity.
    - apply f_equal2; [|reflexivity]. apply forN_ext. intros i s _. rewrite Nat.mul_1_r. reflexivity. }
  assert (L2 : forall p k py, forN d2 (fun _ '(p, k, py) => st <- forN d1 (fun _ '(pp, k, py) => v <- rd lx k ;; py' <- wr py pp v ;; Ok (pp + d2, k + 1, py')) (p, k, py) ;;
        let '(_, k, py) := st in Ok (p + 1, k, py)) (p, k, py)
     = (py' <- forN (d2 * d1) (fun q py => v <- rd lx (k + q) ;; wr py (p + q / d1 + q mod d1 * d2) v) py ;; Ok (p + d2, k + d2 * d1, py'))).
  { intros p k py. pose proof (forN_stride2 d2 1 d1 (fun _ p k py => forN d1 (fun i py => v <- rd lx (k + i) ;; wr py (p + i * d2) v) py) p k py) as G.
    rewrite Nat.mul_1_r in G. etransitivity; [|etransitivity; [exact G|]].
    - apply forN_ext. intros i [[a b] c] _. rewrite L1, bind_assoc. reflexivity.
    - rewrite (forN_nest_rev d2 d1 (fun j i py => v <- rd lx (k + j * d1 + i) ;; wr py (p + j * 1 + i * d2) v) py).
      apply f_equal2; [|reflexivity]. apply forN_ext. intros q s Hq. rewrite Nat.mul_1_r.
      replace (k + q / d1 * d1 + q mod d1) with (k + q); auto. rewrite <- Nat.add_assoc, (Nat.mul_comm _ d1), <- Nat.div_mod; lia. }
  pose proof (forN_stride2 B (d1 * d2) (d2 * d1) (fun _ sh k py => forN (d2 * d1) (fun q py => v <- rd lx (k + q) ;; wr py (sh + q / d1 + q mod d1 * d2) v) py) 0 0 ly) as G.
  match goal with |- context [forN B ?f (0, 0, ly)] => assert (Ef : forN B f (0, 0, ly) = forN B (fun i '(p, q, s) => s' <- (fun _ sh k py => forN (d2 * d1) (fun q py => v <- rd lx (k + q) ;; wr py (sh + q / d1 + q mod d1 * d2) v) py) i p q s ;; Ok (p + d1 * d2, q + d2 * d1, s')) (0, 0, ly)) end.
  { apply forN_ext. intros i [[a b] c] _. rewrite L2, bind_assoc. reflexivity. }
  rewrite Ef, G. clear Ef G.
  rewrite (forN_nest_rev B (d2 * d1) (fun b q py => v <- rd lx (0 + b * (d2 * d1) + q) ;; wr py (0 + b * (d1 * d2) + q / d1 + q mod d1 * d2) v) ly).
  rewrite <- Ty. set (a := d2 * d1) in *.
  assert (Ha : a <> 0) by (unfold a; nia).
  assert (Ea : d1 * d2 = a) by (unfold a; lia). assert (Ea' : d2 * d1 = a) by reflexivity.
  edestruct (@bij_loop F n0 (tot sy) (fun p => p / a * a + (p mod a / d1 + p mod a mod d1 * d2)) (fun p => p / a * a + (p mod a mod d2 * d1 + p mod a / d2))
     (fun p _ => nth0 lx p)) with (l := ly) as (l' & E & HO); auto.
  4:{ rewrite E. cbn [bind]. eexists; split; [reflexivity|]. destruct HO as (HL & HP). split; auto. split.
      - intros p Hp. rewrite HP. replace (p <? tot sy) with false by (symmetry; apply Nat.ltb_ge; auto). auto.
      - intros b i j Hb Hi Hj. rewrite HP.
        replace (_ <? _) with true.
        2:{ symmetry; apply Nat.ltb_lt. apply pos_lt; auto; [|unfold B in Eb; lia]. apply matrix_inb; auto; lia. }
        rewrite !matrix_pos by auto. rewrite E0, E1. fold d1 d2.
        replace (d2 * d1) with a by auto. replace (d1 * d2) with a by (unfold a; lia).
        assert (Hr : j + i * d2 < a) by (rewrite Nat.add_comm; apply Nat.lt_le_trans with (d1 * d2); [apply blk; auto|lia]).
        destruct (divmod_of b Hr) as (-> & ->). destruct (divmod_of i Hj) as (Q1 & Q2).
        replace (j + i * d2) with (i * d2 + j) by lia. rewrite Q1, Q2. f_equal. lia. }
  - intros p Hp. assert (Hm : p mod a < a) by (apply Nat.mod_upper_bound; auto).
    assert (Hq : p mod a / d1 < d2) by (apply Nat.div_lt_upper_bound; [lia|rewrite ?Ea, ?Ea'; auto]).
    assert (Hq' : p mod a mod d1 < d1) by (apply Nat.mod_upper_bound; lia).
    assert (Hr : p mod a / d1 + p mod a mod d1 * d2 < a) by (rewrite Nat.add_comm; apply Nat.lt_le_trans with (d1 * d2); [apply blk; auto|lia]).
    assert (Hb : p / a < B) by (apply Nat.div_lt_upper_bound; lia).
    split; [rewrite Ty; apply blk; auto|]. destruct (divmod_of (p / a) Hr) as (-> & ->).
    replace (p mod a / d1 + p mod a mod d1 * d2) with (p mod a mod d1 * d2 + p mod a / d1) by lia.
    destruct (divmod_of (p mod a mod d1) Hq) as (-> & ->).
    rewrite (Nat.mul_comm _ d1), <- Nat.div_mod by lia. rewrite (Nat.mul_comm _ a), <- Nat.div_mod; auto.
  - intros p Hp. assert (Hm : p mod a < a) by (apply Nat.mod_upper_bound; auto).
    assert (Hq : p mod a / d2 < d1) by (apply Nat.div_lt_upper_bound; [lia|rewrite ?Ea, ?Ea'; auto]).
    assert (Hq' : p mod a mod d2 < d2) by (apply Nat.mod_upper_bound; lia).
    assert (Hr : p mod a mod d2 * d1 + p mod a / d2 < a) by (apply Nat.lt_le_trans with (d2 * d1); [apply blk; auto|lia]).
    assert (Hb : p / a < B) by (apply Nat.div_lt_upper_bound; lia).
    split; [rewrite Ty; apply blk; auto|]. destruct (divmod_of (p / a) Hr) as (-> & ->).
    destruct (divmod_of (p mod a mod d2) Hq) as (-> & ->).
    rewrite (Nat.add_comm (p mod a mod d2)), (Nat.mul_comm _ d2), <- Nat.div_mod by lia. rewrite (Nat.mul_comm _ a), <- Nat.div_mod; auto.
  - intros p l' Hp HL. cbv beta. rewrite !Nat.add_0_l.
    replace (p / a * a + p mod a) with p by (rewrite (Nat.mul_comm _ a), <- Nat.div_mod; auto).
    replace (d1 * d2) with a by (unfold a; lia). rewrite <- Nat.add_assoc.
    assert (Hm : p mod a < a) by (apply Nat.mod_upper_bound; auto).
    assert (Hq : p mod a / d1 < d2) by (apply Nat.div_lt_upper_bound; [lia|rewrite ?Ea, ?Ea'; auto]).
    assert (Hq' : p mod a mod d1 < d1) by (apply Nat.mod_upper_bound; lia).
    assert (Hr : p mod a / d1 + p mod a mod d1 * d2 < a) by (rewrite Nat.add_comm; apply Nat.lt_le_trans with (d1 * d2); [apply blk; auto|lia]).
    assert (Hb : p / a < B) by (apply Nat.div_lt_upper_bound; lia).
    pose proof (blk Hb Hr). rdok. rewrite wr_Ok by lia. auto.
Qed.

(** *** triangular *)
Lemma k_triangular_spec upper x k y lx ly : vt x lx -> vt y ly -> t_shape y = t_shape x -> matrix (t_shape x) ->
  let n := ext (t_shape x) 0 in ext (t_shape x) 1 = n ->
  (m = Debug -> N.of_nat n + k <= two32)%N -> (m = Release -> N.of_nat n + k <= two32)%N ->
  exists l', k_triangular m upper x k y = Ok (with_buf y l') /\
    over n0 ly l' (tot (t_shape y)) (fun p => let i := p mod n in let j := (p / n) mod n in
      if (if upper then N.of_nat i + k <=? N.of_nat j else N.of_nat j + k <=? N.of_nat i)%N then nth0 lx p else n0).
Proof.
  intros Hx Hy Es Mx n E1 Hk1 Hk2. unfold k_triangular. kstart. fold n.
  pose proof (proj2 (proj2 Hx)) as HxL. pose proof (proj2 (proj2 Hy)) as HyL. rewrite Es in *.
  set (s := t_shape x) in *.
  assert (Hn : 1 <= n) by apply (ext_pos 0 (vt_wf Hx)).
  assert (Et : tot s = bat s * (n * n)) by (unfold tot; rewrite matrix_vol, E1 by auto; auto).
  assert (Hadd : forall i, i < n -> add32 m (N.of_nat i) k = Ok (N.of_nat i + k)%N).
  { intros i Hi. unfold add32. rewrite norm32_lt; auto. destruct m; [specialize (Hk1 eq_refl)|specialize (Hk2 eq_refl)]; lia. }
  assert (Hf : forall st, forN (bat s) (fun _ st => forN n (fun j st => forN n (fun i '(p, py) =>
           keep <- (if upper then s <- add32 m (N.of_nat i) k ;; Ok (s <=? N.of_nat j)%N
                    else s <- add32 m (N.of_nat j) k ;; Ok (s <=? N.of_nat i)%N) ;;
           v <- (if keep : bool then rd lx p else Ok n0) ;;
           py' <- wr py p v ;; Ok (p + 1, py')) st) st) st =
     forN (bat s) (fun _ st => forN n (fun j st => forN n (fun i '(p, py) =>
           v <- (if (if upper then N.of_nat i + k <=? N.of_nat j else N.of_nat j + k <=? N.of_nat i)%N then rd lx p else Ok n0) ;;
           py' <- wr py p v ;; Ok (p + 1, py')) st) st) st).
  { intros st. apply forN_ext; intros b st1 _. apply forN_ext; intros j st2 Hj. apply forN_ext; intros i [p py] Hi.
    destruct upper; rewrite Hadd by auto; reflexivity. }
  rewrite Hf.
  rewrite (forN_counter3v (bat s) n n (fun _ j i p => if (if upper then N.of_nat i + k <=? N.of_nat j else N.of_nat j + k <=? N.of_nat i)%N then rd lx p else Ok n0)
     (fun _ _ _ p v py => wr py p v) 0 ly). rewrite <- Et.
  edestruct (@wr_loop F n0 (tot s)) with (l := ly) (f := fun p => let i := p mod n in let j := (p / n) mod n in
      if (if upper then N.of_nat i + k <=? N.of_nat j else N.of_nat j + k <=? N.of_nat i)%N then nth0 lx p else n0) as (l' & E & HO); auto.
  2:{ rewrite E. cbn [bind snd]. eauto. }
  intros p l' Hp HL. cbv beta zeta.
  assert (Em : p mod (n * n) = (p / n) mod n * n + p mod n) by (rewrite Nat.mod_mul_r by lia; lia).
  assert (Hm : p mod n < n) by (apply Nat.mod_upper_bound; lia).
  rewrite Em. destruct (divmod_of ((p / n) mod n) Hm) as (-> & ->). rewrite Nat.add_0_l.
  destruct (if upper then _ else _); [rdok|cbn [bind]]; rewrite wr_Ok by lia; auto.
Qed.

(** *** identity *)
Lemma k_identity_spec (y : tensor K) ly : vt y ly -> matrix (t_shape y) -> ext (t_shape y) 1 = ext (t_shape y) 0 -> bat (t_shape y) = 1 ->
  let n := ext (t_shape y) 0 in
  exists l', k_identity m y = Ok (with_buf y l') /\
    over n0 ly l' (tot (t_shape y)) (fun p => if p mod n =? p / n then n1 else n0).
Proof.
  intros Hy My E1 Eb n. unfold k_identity.
  destruct (k_reset_spec m n0 Hy) as (l1 & -> & HL1 & HP1). cbn [bind].
  assert (Hy1 : vt (with_buf y l1) l1) by (eapply vt_with_buf; eauto).
  rewrite (ptr_vt Hy1). cbn [bind]. change (N.to_nat (index (t_shape (with_buf y l1)) 0)) with n.
  pose proof (proj2 (proj2 Hy)) as HyL. set (s := t_shape y) in *.
  assert (Hn : 1 <= n) by apply (ext_pos 0 (vt_wf Hy)).
  assert (Et : tot s = n * n) by (unfold tot; rewrite matrix_vol, E1, Eb by auto; fold n; lia).
  destruct (@scatterN F n0 n (fun i => i * (n + 1)) (fun _ _ => n1) (fun i py => wr py (i * (n + 1)) n1) l1) as (l' & E & HL & HP).
  - intros p l' Hp HL. rewrite wr_Ok; auto. nia.
  - intros p Hp. nia.
  - rewrite E. cbn [bind]. eexists; split; [reflexivity|]. split; [lia|]. intros p. rewrite HP.
    destruct (Nat.ltb_spec p (tot s)) as [Hp|Hp].
    + destruct (Nat.eqb_spec (p mod n) (p / n)) as [Ed|Ed].
      * assert (Hq : p / n < n) by (apply Nat.div_lt_upper_bound; lia).
        rewrite (@hits_unique _ _ _ _ _ (p / n)); auto using seq_NoDup.
        -- apply in_seq; lia.
        -- pose proof (Nat.div_mod p n ltac:(lia)). nia.
        -- intros a Ha Ea. apply in_seq in Ha. rewrite <- Ea.
           replace (a * (n + 1)) with (a * n + a) by lia. destruct (@divmod_of n a a) as (-> & _); lia.
      * rewrite hits_none.
        -- rewrite HP1. replace (p <? tot s) with true by (symmetry; apply Nat.ltb_lt; auto). auto.
        -- intros a Ha Ea. apply in_seq in Ha. apply Ed. rewrite <- Ea.
           replace (a * (n + 1)) with (a * n + a) by lia. destruct (@divmod_of n a a) as (-> & ->); lia.
    + rewrite hits_none; [rewrite HP1; replace (p <? tot s) with false by (symmetry; apply Nat.ltb_ge; auto); auto|].
      intros a Ha Ea. apply in_seq in Ha. nia.
Qed.
End Move2.
