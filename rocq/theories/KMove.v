(** * KMove: what the kernels that move data compute *)
From Verif Require Export KRed.
Set Implicit Arguments.

Lemma divmod_of a b q : b < a -> (q * a + b) / a = q /\ (q * a + b) mod a = b.
Proof.
  intros H. destruct (div_mod_add q H) as (E1 & E2). replace (q * a + b) with (b + a * q) by lia. auto.
Qed.

(** ** index arithmetic of slices *)
(** position in a tensor whose blocks are base * nx long of position p of a tensor
    whose blocks are base * ny long, shifted by off along the dimension *)
Definition sgat (base nx ny off p : nat) : nat := base * off + (base * nx) * (p / (base * ny)) + p mod (base * ny).

Lemma sgat_inj base nx ny off p q : 1 <= base -> 1 <= ny -> ny <= nx -> sgat base nx ny off p = sgat base nx ny off q -> p = q.
Proof.
  intros Hb Hy Hn E. unfold sgat in E.
  assert (Hs : base * ny <> 0) by nia.
  assert (Hle : base * ny <= base * nx) by nia.
  pose proof (Nat.div_mod p (base * ny) Hs). pose proof (Nat.div_mod q (base * ny) Hs).
  pose proof (Nat.mod_upper_bound p (base * ny) Hs). pose proof (Nat.mod_upper_bound q (base * ny) Hs).
  set (a := base * ny) in *. set (c := base * nx) in *.
  set (p1 := p / a) in *. set (q1 := q / a) in *. set (pm := p mod a) in *. set (qm := q mod a) in *.
  assert (p1 = q1). { destruct (Nat.lt_trichotomy p1 q1) as [|[|]]; auto; exfalso; nia. }
  subst p1. assert (pm = qm) by nia. lia.
Qed.

(** [sy] is the part of [sx] starting at [off] along [d] *)
Record sliced (sx sy : shape) (d off : nat) : Prop := {
  sl_wx : wf sx; sl_wy : wf sy; sl_bat : bat sy = bat sx;
  sl_ext : forall i, i <> d -> ext sy i = ext sx i;
  sl_off : off + ext sy d <= ext sx d }.
Section Sliced.
Variables (sx sy : shape) (d off : nat).
Hypothesis HS : sliced sx sy d off.
Lemma sl_low : low sy d = low sx d.
Proof. apply low_ext. intros; apply (sl_ext HS). lia. Qed.
Lemma sl_hic : hic sy d = hic sx d.
Proof. unfold hic. rewrite (sl_bat HS). f_equal. apply prod_from_ext. apply (sl_ext HS). Qed.
Definition slg (p : nat) : nat := sgat (low sx d) (ext sx d) (ext sy d) off p.
Lemma slg_lt p : p < tot sy -> slg p < tot sx.
Proof.
  intros Hp. rewrite (tot_split d (sl_wx HS)). rewrite (tot_split d (sl_wy HS)), sl_low, sl_hic in Hp.
  unfold slg, sgat. pose proof (low_pos d (sl_wx HS)). pose proof (ext_pos d (sl_wy HS)). pose proof (sl_off HS).
  set (w := low sx d) in *. set (ny := ext sy d) in *. set (nx := ext sx d) in *. set (h := hic sx d) in *.
  assert (Hs : w * ny <> 0) by nia.
  assert (p / (w * ny) < h) by (apply Nat.div_lt_upper_bound; auto).
  pose proof (Nat.mod_upper_bound p (w * ny) Hs).
  set (q := p / (w * ny)) in *. set (r := p mod (w * ny)) in *.
  assert (w * (off + ny) <= w * nx) by (apply Nat.mul_le_mono_l; auto).
  assert (w * nx * (q + 1) <= w * nx * h) by (apply Nat.mul_le_mono_l; lia). lia.
Qed.
Lemma inb_sl c : inb sy c -> inb sx (cset c d (c d + off)).
Proof.
  intros Hc. apply inb_cset with (s := sy); auto.
  - intros i Hi. symmetry; apply (sl_ext HS); auto.
  - pose proof (sl_off HS). specialize (Hc d). lia.
Qed.
Lemma slg_pos c b : inb sy c -> slg (pos sy c b) = pos sx (cset c d (c d + off)) b.
Proof.
  intros Hc. unfold slg, sgat. pose proof (inb_sl Hc) as Hc'.
  rewrite (pos_split b d (sl_wx HS) Hc'), cset_eq.
  rewrite (pos_split b d (sl_wy HS) Hc), sl_low.
  pose proof (lo_lt d (sl_wy HS) Hc) as Hlo. rewrite sl_low in Hlo.
  assert (Hd : c d < ext sy d) by apply Hc.
  rewrite (@lo_ext sx sy (cset c d (c d + off)) c d), (@hi_ext sx sy (cset c d (c d + off)) c b d); auto;
    try (intros i Hi; try (symmetry; apply (sl_ext HS); auto); rewrite cset_neq; auto; fail).
  set (w := low sx d) in *. set (ny := ext sy d) in *. set (nx := ext sx d) in *. set (h := hi sy c b d).
  replace (lo sy c d + w * (c d + ny * h)) with (h * (w * ny) + (lo sy c d + w * c d)) by lia.
  destruct (@divmod_of (w * ny) (lo sy c d + w * c d) h) as (-> & ->); [nia|]. lia.
Qed.
End Sliced.

(** ** index arithmetic of pick *)
Record picked (sx sy : shape) (d : nat) (ids : list N) : Prop := {
  pk_wx : wf sx; pk_wy : wf sy; pk_one : ext sy d = 1;
  pk_ext : forall i, i <> d -> ext sy i = ext sx i;
  pk_bat : bat sx = 1 \/ bat sx = bat sy;
  pk_len : length ids = 1 \/ length ids = bat sy;
  pk_ids : Forall (fun id => N.to_nat id < ext sx d) ids }.
(** the id used for batch b *)
Definition pid (ids : list N) (b : nat) : nat := N.to_nat (nth (if length ids =? 1 then 0 else b) ids 0%N).
Section Picked.
Variables (sx sy : shape) (d : nat) (ids : list N).
Hypothesis HP : picked sx sy d ids.
Lemma pk_low : low sy d = low sx d.
Proof. apply low_ext. intros; apply (pk_ext HP). lia. Qed.
Definition pkg (p : nat) : nat :=
  let b := p / vol sy in let r := p mod vol sy in
  bsel sx b * vol sx + low sx d * pid ids b + low sx d * ext sx d * (r / low sx d) + r mod low sx d.
Lemma pk_len_pos : 1 <= length ids.
Proof. pose proof (bat_pos (pk_wy HP)). destruct (pk_len HP); lia. Qed.
Lemma pid_idx b : b < bat sy -> (if length ids =? 1 then 0 else b) < length ids.
Proof. intros Hb. pose proof pk_len_pos. destruct (Nat.eqb_spec (length ids) 1); destruct (pk_len HP); lia. Qed.
Lemma pid_lt b : b < bat sy -> pid ids b < ext sx d.
Proof.
  intros Hb. pose proof (pk_ids HP) as H. rewrite Forall_forall in H. apply H. apply nth_In. apply pid_idx; auto.
Qed.
Lemma inb_pk c b : inb sy c -> b < bat sy -> inb sx (cset c d (pid ids b)).
Proof.
  intros Hc Hb. apply inb_cset with (s := sy); auto; [|apply pid_lt; auto].
  intros i Hi. symmetry; apply (pk_ext HP); auto.
Qed.
Lemma pk_bsel b : b < bat sy -> bsel sx b < bat sx.
Proof. intros Hb. pose proof (bat_pos (pk_wx HP)). unfold bsel. destruct (Nat.eqb_spec (bat sx) 1); destruct (pk_bat HP); lia. Qed.
Lemma pos_batch s c b : inb s c -> pos s c b / vol s = b /\ pos s c b mod vol s = pos s c 0.
Proof.
  intros Hc. unfold pos. pose proof (@lin_lt_lt (ext s) c 8 ltac:(auto)). change (prod_lt (ext s) 8) with (vol s) in *.
  destruct (@divmod_of (vol s) (lin_lt (ext s) c 8) b H) as (-> & ->). auto.
Qed.
Lemma pkg_pos c b : inb sy c -> b < bat sy -> pkg (pos sy c b) = pos sx (cset c d (pid ids b)) (bsel sx b).
Proof.
  intros Hc Hb. unfold pkg. destruct (pos_batch b Hc) as (-> & ->). cbv zeta.
  pose proof (inb_pk Hc Hb) as Hc'.
  assert (E : pos sx (cset c d (pid ids b)) (bsel sx b) = bsel sx b * vol sx + pos sx (cset c d (pid ids b)) 0) by (unfold pos; lia).
  rewrite E. rewrite (pos_split 0 d (pk_wx HP) Hc'), cset_eq.
  rewrite (pos_split 0 d (pk_wy HP) Hc), pk_low, (pk_one HP).
  pose proof (lo_lt d (pk_wy HP) Hc) as Hlo. rewrite pk_low in Hlo.
  assert (Hd : c d = 0) by (specialize (Hc d); rewrite (pk_one HP) in Hc; lia). rewrite Hd.
  rewrite (@lo_ext sx sy (cset c d (pid ids b)) c d), (@hi_ext sx sy (cset c d (pid ids b)) c 0 d); auto;
    try (intros i Hi; try (symmetry; apply (pk_ext HP); auto); rewrite cset_neq; auto; fail).
  rewrite Nat.add_0_l, Nat.mul_1_l. destruct (div_mod_add (hi sy c 0 d) Hlo) as (-> & ->). lia.
Qed.
Lemma pkg_lt p : p < tot sy -> pkg p < tot sx.
Proof.
  intros Hp. destruct (pos_surj (pk_wy HP) Hp) as (c & b & Hc & Hb & <-).
  rewrite pkg_pos by auto. apply pos_lt; [apply (pk_wx HP)|apply inb_pk; auto|apply pk_bsel; auto].
Qed.
End Picked.

Section Move.
Variable K : num.
Variable m : build.
Notation F := (F K).
Notation nth0 l p := (nth p l (@n0 K)).

Ltac kstart :=
  repeat match goal with
  | H : vt ?t ?l |- context [ptr ?t] => rewrite (ptr_vt H); cbn [bind]
  | H : vt ?t ?l |- context [size ?m (t_shape ?t)] => rewrite (size_vt m H); cbn [bind]
  | H : vt ?t ?l |- context [lower_volume ?m (t_shape ?t) ?d] => rewrite (@lower_volume_low m (t_shape t) d (vt_wf H)); cbn [bind]
  | H : vt ?t ?l |- context [N.to_nat (volume (t_shape ?t))] => rewrite (vol_volume (vt_wf H))
  end; rewrite ?Nat2N.id; repeat change (N.to_nat (index ?s ?d)) with (ext s d);
  repeat change (N.to_nat (batch ?s)) with (bat s).
Ltac rdok := match goal with |- context [rd ?l ?i] => rewrite (rd_Ok l i n0) by lia; cbn [bind] end.

(** the buffer after adding gy[p] into cell g p, for p = 0, 1, .. *)
Definition scatters (g : nat -> nat) (lgy lgx l' : list F) (N : nat) : Prop :=
  length l' = length lgx /\
  forall q, nth0 l' q = hits g (fun p v => nadd K v (nth0 lgy p)) (seq 0 N) q (nth0 lgx q).

(** *** slice *)
Lemma k_slice_fw_spec x u32 y lx ly dim off rest : vt x lx -> vt y ly -> u32 = dim :: off :: rest ->
  sliced (t_shape x) (t_shape y) (N.to_nat dim) (N.to_nat off) ->
  exists l', k_slice_fw m x u32 y = Ok (with_buf y l') /\
    over n0 ly l' (tot (t_shape y)) (fun p => nth0 lx (slg (t_shape x) (t_shape y) (N.to_nat dim) (N.to_nat off) p)).
Proof.
  intros Hx Hy -> HS. unfold k_slice_fw. cbn [idx nth_error bind]. kstart.
  rewrite (sl_low HS). set (d := N.to_nat dim) in *. set (o := N.to_nat off) in *.
  pose proof (proj2 (proj2 Hx)) as HxL. pose proof (proj2 (proj2 Hy)) as HyL.
  set (sx := t_shape x) in *. set (sy := t_shape y) in *. set (w := low sx d) in *.
  assert (Hw : 1 <= w) by apply (low_pos d (sl_wx HS)). assert (Hny : 1 <= ext sy d) by apply (ext_pos d (sl_wy HS)).
  assert (Et : tot sy = hic sx d * (w * ext sy d)).
  { rewrite (tot_split d (sl_wy HS)), (sl_low HS), (sl_hic HS). fold w. lia. }
  replace (tot sy / (w * ext sy d)) with (hic sx d) by (rewrite Et, Nat.div_mul; nia).
  rewrite (forN_counter2v (hic sx d) (w * ext sy d) (fun i j _ => rd lx (w * o + w * ext sx d * i + j)) (fun _ _ dest v py => wr py dest v) 0 ly).
  rewrite <- Et.
  edestruct (@wr_loop F n0 (tot sy)) with (l := ly) (f := fun p => nth0 lx (slg sx sy d o p)) as (l' & E & HO); auto.
  2:{ rewrite E. cbn [bind snd]. eauto. }
  intros p l' Hp HL. cbv beta. pose proof (slg_lt HS Hp) as Hlt. unfold slg, sgat in *. fold w in Hlt |- *.
  rdok. rewrite wr_Ok by lia. auto.
Qed.

Lemma hb_mul (hb : bool) v b B : (hb = true <-> B <> 1) -> b < B -> (if hb then v else 0) * b = v * b.
Proof. intros H Hb. destruct hb; auto. assert (B = 1). { destruct (Nat.eq_dec B 1); auto. apply H in n. discriminate. } assert (b = 0) by lia. subst b. lia. Qed.
Lemma has_batch_iff s : wf s -> has_batch s = true <-> bat s <> 1.
Proof.
  intros H. unfold has_batch, bat. pose proof (wf_batch H). rewrite negb_true_iff, N.eqb_neq. lia.
Qed.

Lemma k_slice_bw_spec gy u32 gx lgy lgx dim off rest : vt gy lgy -> vt gx lgx -> u32 = dim :: off :: rest ->
  sliced (t_shape gx) (t_shape gy) (N.to_nat dim) (N.to_nat off) ->
  exists l', k_slice_bw m gy u32 gx = Ok (with_buf gx l') /\
    scatters (slg (t_shape gx) (t_shape gy) (N.to_nat dim) (N.to_nat off)) lgy lgx l' (tot (t_shape gy)).
Proof.
  intros Hy Hx -> HS. unfold k_slice_bw. cbn [idx nth_error bind]. kstart.
  set (d := N.to_nat dim) in *. set (o := N.to_nat off) in *.
  pose proof (proj2 (proj2 Hx)) as HxL. pose proof (proj2 (proj2 Hy)) as HyL.
  set (sx := t_shape gx) in *. set (sy := t_shape gy) in *. set (w := low sx d) in *.
  assert (Hw : 1 <= w) by apply (low_pos d (sl_wx HS)). assert (Hny : 1 <= ext sy d) by apply (ext_pos d (sl_wy HS)).
  assert (Hnx : 1 <= ext sx d) by apply (ext_pos d (sl_wx HS)).
  assert (EB : N.to_nat (N.max (batch sx) (batch sy)) = bat sy).
  { rewrite N2Nat.inj_max. change (Nat.max (bat sx) (bat sy) = bat sy). rewrite (sl_bat HS). lia. }
  rewrite EB.
  (* volumes *)
  assert (Hvx : exists h, vol sx = w * ext sx d * h /\ vol sy = w * ext sy d * h).
  { destruct (Nat.lt_ge_cases d 8).
    - exists (prod_from (ext sx) d 8). unfold vol, low. rewrite !(@prod_split _ d 8) by auto. split; [reflexivity|].
      rewrite (@prod_from_ext (ext sy) (ext sx)) by apply (sl_ext HS).
      change (prod_lt (ext sy) d) with (low sy d). rewrite (sl_low HS). reflexivity.
    - exists 1. unfold w. rewrite <- (sl_low HS) at 2. rewrite !low_ge8 by (auto; apply HS). rewrite !ext_ge8 by (auto; apply HS). lia. }
  destruct Hvx as (h & Evx & Evy).
  replace (vol sx / (w * ext sx d)) with h by (rewrite Evx, Nat.mul_comm, Nat.div_mul; nia).
  assert (Et : tot sy = bat sy * (h * (w * ext sy d))) by (unfold tot; rewrite Evy; lia).
  rewrite (@forN_ext _ (bat sy) _ (fun b pgx => forN (h * (w * ext sy d)) (fun r pgx =>
     v <- rd lgy (b * (h * (w * ext sy d)) + r) ;;
     upd pgx (w * o + vol sx * b + w * ext sx d * (r / (w * ext sy d)) + r mod (w * ext sy d)) (fun u => Ok (nadd K u v))) pgx)).
  2:{ intros b pgx Hb.
      rewrite (@hb_mul (has_batch sx) (vol sx) b (bat sy)) by (auto; rewrite (sl_bat HS); apply has_batch_iff, (sl_wx HS)).
      rewrite (@hb_mul (has_batch sy) (vol sy) b (bat sy)) by (auto; apply has_batch_iff, (sl_wy HS)).
      rewrite (forN_counter2v h (w * ext sy d) (fun _ _ sp => rd lgy sp) (fun i j _ v pgx => upd pgx (w * o + vol sx * b + w * ext sx d * i + j) (fun u => Ok (nadd K u v))) (vol sy * b) pgx).
      rewrite bind_assoc. cbn [bind snd]. rewrite bind_Ok_r. apply forN_ext; intros r l _.
      replace (vol sy * b + r) with (b * (h * (w * ext sy d)) + r) by (rewrite Evy; lia). reflexivity. }
  rewrite (forN_nest_rev (bat sy) (h * (w * ext sy d)) (fun b r pgx => v <- rd lgy (b * (h * (w * ext sy d)) + r) ;;
     upd pgx (w * o + vol sx * b + w * ext sx d * (r / (w * ext sy d)) + r mod (w * ext sy d)) (fun u => Ok (nadd K u v))) lgx).
  rewrite <- Et.
  assert (Hh : 1 <= h). { pose proof (vol_pos (sl_wy HS)). nia. }
  assert (Hg : forall p, w * o + vol sx * (p / (h * (w * ext sy d))) + w * ext sx d * (p mod (h * (w * ext sy d)) / (w * ext sy d)) + p mod (h * (w * ext sy d)) mod (w * ext sy d) = slg sx sy d o p).
  { intros p. unfold slg, sgat. fold w. set (a := w * ext sy d). assert (a <> 0) by (unfold a; nia).
    rewrite (Nat.mul_comm h a). rewrite (Nat.mod_mul_r p a h) by nia.
    replace (p mod a + a * ((p / a) mod h)) with ((p / a) mod h * a + p mod a) by lia.
    destruct (@divmod_of a (p mod a) ((p / a) mod h)) as (-> & ->); [apply Nat.mod_upper_bound; auto|].
    rewrite <- Nat.div_div by nia. pose proof (Nat.div_mod (p / a) h ltac:(lia)). rewrite Evx. nia. }
  destruct (@scatterN F n0 (tot sy) (slg sx sy d o) (fun p v => nadd K v (nth0 lgy p)) (fun p pgx =>
     v <- rd lgy (p / (h * (w * ext sy d)) * (h * (w * ext sy d)) + p mod (h * (w * ext sy d))) ;;
     upd pgx (w * o + vol sx * (p / (h * (w * ext sy d))) + w * ext sx d * (p mod (h * (w * ext sy d)) / (w * ext sy d)) + p mod (h * (w * ext sy d)) mod (w * ext sy d)) (fun u => Ok (nadd K u v))) lgx)
    as (l' & E & HL & HPp).
  - intros p l' Hp HL. rewrite Hg.
    replace (p / (h * (w * ext sy d)) * (h * (w * ext sy d)) + p mod (h * (w * ext sy d))) with p.
    2:{ rewrite Nat.mul_comm. apply Nat.div_mod. nia. }
    rdok. pose proof (slg_lt HS Hp). rewrite (upd_Ok n0) by lia. auto.
  - intros p Hp. pose proof (slg_lt HS Hp). lia.
  - rewrite E. cbn [bind]. eexists; split; [reflexivity|]. split; auto.
Qed.
End Move.
