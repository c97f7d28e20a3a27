(** * KConcat: what concatenation computes *)
From Verif Require Export KMat.
Set Implicit Arguments.

(** the shape with another minibatch size *)
Definition rebatch (s : shape) (B : N) : shape := mkShape (dims8 s) B (depth s) (volume s).
Lemma wf_rebatch s B : wf s -> (1 <= B < two32)%N -> wf (rebatch s B).
Proof. intros [] HB. constructor; simpl; auto. Qed.
Lemma ext_rebatch s B i : ext (rebatch s B) i = ext s i.
Proof. reflexivity. Qed.
Lemma pos_rebatch s B c b : pos (rebatch s B) c b = pos s c b.
Proof. reflexivity. Qed.

Section Concat.
Variable K : num.
Variable m : build.
Notation F := (F K).
Notation tensor := (tensor K).
Notation nth0 l p := (nth p l (@n0 K)).

(** total extent of a list of tensors along a dimension *)
Definition exts (xs : list tensor) (d : nat) : nat := fold_right (fun x n => ext (t_shape x) d + n) 0 xs.
Lemma exts_app l1 l2 d : exts (l1 ++ l2) d = exts l1 d + exts l2 d.
Proof. unfold exts. induction l1; simpl; auto. rewrite IHl1. lia. Qed.

(** operand [x] fits into a concatenation of shape [sy] along [d] *)
Record catted (x : tensor) (sy : shape) (d : nat) : Prop := {
  ct_vt : vt x (match t_buf x with Some l => l | None => [] end);
  ct_ext : forall i, i <> d -> ext (t_shape x) i = ext sy i;
  ct_bat : bat (t_shape x) = 1 \/ bat (t_shape x) = bat sy }.

Lemma cat_sliced x sy d off : wf sy -> catted x sy d -> off + ext (t_shape x) d <= ext sy d ->
  sliced sy (rebatch (t_shape x) (batch sy)) d off.
Proof.
  intros Wy [V E Bx] Ho. constructor; auto.
  - apply wf_rebatch; [apply (vt_wf V)|apply (wf_batch Wy)].
Qed.

(** the loop for one operand *)
Lemma cat_one x lx sy d off (ly : list F) : wf sy -> catted x sy d -> vt x lx -> off + ext (t_shape x) d <= ext sy d -> tot sy <= length ly ->
  let base := low sy d in let skip := base * ext sy d in let repeat := vol sy / skip in
  let span := base * ext (t_shape x) d in
  let b_skip := if has_batch (t_shape x) then span * repeat else 0 in
  exists l' n, forN (bat sy) (fun b '(dest, py) =>
        st <- forN repeat (fun _ '(sp, dest, py) =>
           st <- forN span (fun j '(sp, py) => v <- rd lx sp ;; py' <- wr py (dest + j) v ;; Ok (sp + 1, py')) (sp, py) ;;
           let '(sp, py) := st in
           Ok (sp, dest + skip, py)) (b_skip * b, dest, py) ;;
        let '(_, dest, py) := st in Ok (dest, py)) (base * off, ly) = Ok (n, l') /\ length l' = length ly /\
    forall q, nth0 l' q = hits (slg sy (rebatch (t_shape x) (batch sy)) d off)
       (fun p (_ : F) => nth0 lx (bsel (t_shape x) (p / vol (t_shape x)) * vol (t_shape x) + p mod vol (t_shape x)))
       (seq 0 (bat sy * vol (t_shape x))) q (nth0 ly q).
Proof.
  intros Wy HC Hx Ho HyL base skip repeat span b_skip.
  pose proof (cat_sliced off Wy HC Ho) as HS. set (sx' := rebatch (t_shape x) (batch sy)) in *.
  pose proof (vt_wf Hx) as Wx. pose proof (proj2 (proj2 Hx)) as HxL.
  set (sx := t_shape x) in *. set (B := bat sy) in *.
  assert (Hb : 1 <= base) by apply (low_pos d Wy). assert (Hey : 1 <= ext sy d) by apply (ext_pos d Wy).
  assert (Hex : 1 <= ext sx d) by apply (ext_pos d Wx).
  assert (El : low sx d = base) by (apply low_ext; intros; apply (ct_ext HC); lia).
  set (P := prod_from (ext sy) d 8).
  assert (Vy : vol sy = P * skip).
  { pose proof (tot_split d Wy) as G. unfold tot, hic in G. pose proof (bat_pos Wy). unfold skip, base, P.
    apply (Nat.mul_cancel_l _ _ (bat sy)); [lia|]. rewrite G. lia. }
  assert (Vx : vol sx = P * span).
  { pose proof (tot_split d Wx) as G. unfold tot, hic in G. pose proof (bat_pos Wx). unfold span.
    rewrite (@prod_from_ext (ext sx) (ext sy)) in G by (intros; apply (ct_ext HC); auto). fold P in G. rewrite El in G.
    apply (Nat.mul_cancel_l _ _ (bat sx)); [lia|]. rewrite G. fold sx. lia. }
  assert (Er : repeat = P) by (unfold repeat; rewrite Vy, Nat.div_mul; auto; unfold skip; nia).
  assert (HP1 : 1 <= P). { pose proof (vol_pos Wy). rewrite Vy in H. destruct P; [simpl in H; lia|lia]. }
  (* flatten *)
  assert (L1 : forall sp dest py, forN span (fun j '(sp, py) => v <- rd lx sp ;; py' <- wr py (dest + j) v ;; Ok (sp + 1, py')) (sp, py)
     = (py' <- forN span (fun j py => v <- rd lx (sp + j) ;; wr py (dest + j) v) py ;; Ok (sp + span, py'))).
  { intros sp dest py. pose proof (forN_stride span 1 (fun j sp py => v <- rd lx sp ;; wr py (dest + j) v) sp py) as G.
    rewrite Nat.mul_1_r in G. etransitivity; [|etransitivity; [exact G|]].
    - apply forN_ext. intros i [a b] _. rewrite bind_assoc. reflexivity.
    - apply f_equal2; [|reflexivity]. apply forN_ext. intros i s _. rewrite Nat.mul_1_r. reflexivity. }
  assert (L2 : forall sp dest py, forN repeat (fun _ '(sp, dest, py) =>
           st <- forN span (fun j '(sp, py) => v <- rd lx sp ;; py' <- wr py (dest + j) v ;; Ok (sp + 1, py')) (sp, py) ;;
           let '(sp, py) := st in Ok (sp, dest + skip, py)) (sp, dest, py)
     = (py' <- forN (P * span) (fun q py => v <- rd lx (sp + q) ;; wr py (dest + q / span * skip + q mod span) v) py ;; Ok (sp + P * span, dest + P * skip, py'))).
  { intros sp dest py. rewrite Er.
    pose proof (forN_stride2 P span skip (fun _ sp dest py => forN span (fun j py => v <- rd lx (sp + j) ;; wr py (dest + j) v) py) sp dest py) as G.
    etransitivity; [|etransitivity; [exact G|]].
    - apply forN_ext. intros i [[a b] c] _. rewrite L1, bind_assoc. reflexivity.
    - cbv beta. rewrite (forN_nest_rev P span (fun r j py => v <- rd lx (sp + r * span + j) ;; wr py (dest + r * skip + j) v) py).
      apply f_equal2; [|reflexivity]. apply forN_ext. intros q s Hq.
      replace (sp + q / span * span + q mod span) with (sp + q); auto. rewrite <- Nat.add_assoc, (Nat.mul_comm _ span), <- Nat.div_mod; auto. unfold span; nia. }
  pose proof (forN_stride B (P * skip) (fun b dest py => forN (P * span) (fun q py => v <- rd lx (b_skip * b + q) ;; wr py (dest + q / span * skip + q mod span) v) py) (base * off) ly) as G.
  match goal with |- context [forN B ?f ?s0] => assert (Ef : forN B f s0 = forN B (fun i '(p, s) => s' <- (fun b dest py => forN (P * span) (fun q py => v <- rd lx (b_skip * b + q) ;; wr py (dest + q / span * skip + q mod span) v) py) i p s ;; Ok (p + P * skip, s')) (base * off, ly)) end.
  { apply forN_ext. intros i [a b] _. rewrite L2, bind_assoc. reflexivity. }
  rewrite Ef, G. clear Ef G. cbv beta.
  rewrite (forN_nest_rev B (P * span) (fun b q py => v <- rd lx (b_skip * b + q) ;; wr py (base * off + b * (P * skip) + q / span * skip + q mod span) v) ly).
  rewrite <- Vx.
  assert (Hsp : span <> 0) by (unfold span; nia). assert (HVx : vol sx <> 0) by (pose proof (vol_pos Wx); lia).
  assert (TS : tot sx' = B * vol sx) by reflexivity.
  destruct (@scatterN F n0 (B * vol sx) (slg sy sx' d off) (fun p _ => nth0 lx (bsel sx (p / vol sx) * vol sx + p mod vol sx))
     (fun p py => v <- rd lx (b_skip * (p / vol sx) + p mod vol sx) ;; wr py (base * off + p / vol sx * (P * skip) + p mod vol sx / span * skip + p mod vol sx mod span) v) ly) as (l' & E & HL & HP).
  - intros p l' Hp HL. cbv beta.
    assert (Hpb : p / vol sx < B) by (apply Nat.div_lt_upper_bound; auto; lia).
    assert (Hpm : p mod vol sx < vol sx) by (apply Nat.mod_upper_bound; auto).
    assert (Es : b_skip * (p / vol sx) = bsel sx (p / vol sx) * vol sx).
    { unfold b_skip. rewrite Er. replace (span * P) with (vol sx) by lia. pose proof (has_batch_iff Wx). unfold bsel.
      destruct (Nat.eqb_spec (bat sx) 1) as [E1|E1], (has_batch sx); lia. }
    rewrite Es.
    assert (Hbs : bsel sx (p / vol sx) < bat sx).
    { unfold bsel. destruct (ct_bat HC) as [E1|E1]; fold sx in E1; destruct (Nat.eqb_spec (bat sx) 1); try lia; fold B in E1; lia. }
    rewrite (@rd_Ok _ _ _ (@n0 K)) by (unfold tot in HxL; nia). cbn [bind].
    assert (Eg : base * off + p / vol sx * (P * skip) + p mod vol sx / span * skip + p mod vol sx mod span = slg sy sx' d off p).
    { unfold slg, sgat. change (ext sx' d) with (ext sx d). fold base span skip.
      assert (D : p / span = p / vol sx * P + p mod vol sx / span).
      { rewrite (Nat.div_mod p (vol sx)) at 1 by auto. rewrite Vx at 1. rewrite (Nat.mul_comm P), <- Nat.mul_assoc.
        rewrite (Nat.add_comm (span * _)), (Nat.mul_comm span), Nat.div_add by auto. lia. }
      assert (D' : p mod span = p mod vol sx mod span).
      { rewrite (Nat.div_mod p (vol sx)) at 1 by auto. rewrite Vx at 1. rewrite (Nat.mul_comm P), <- Nat.mul_assoc.
        rewrite (Nat.add_comm (span * _)), (Nat.mul_comm span), Nat.mod_add by auto. auto. }
      rewrite D, D'. lia. }
    rewrite Eg. assert (slg sy sx' d off p < tot sy) by (apply (slg_lt HS); rewrite TS; auto).
    rewrite wr_Ok by lia. auto.
  - intros p Hp. assert (slg sy sx' d off p < tot sy) by (apply (slg_lt HS); rewrite TS; auto). lia.
  - rewrite E. cbn [bind]. eexists; eexists; split; [reflexivity|]. auto.
Qed.

(** positions of operand x in the result *)
Lemma cat_hit x lx sy d off c b v : wf sy -> catted x sy d -> vt x lx -> off + ext (t_shape x) d <= ext sy d ->
  inb (t_shape x) c -> b < bat sy ->
  hits (slg sy (rebatch (t_shape x) (batch sy)) d off)
       (fun p (_ : F) => nth0 lx (bsel (t_shape x) (p / vol (t_shape x)) * vol (t_shape x) + p mod vol (t_shape x)))
       (seq 0 (bat sy * vol (t_shape x))) (pos sy (cset c d (c d + off)) b) v = nth0 lx (pos (t_shape x) c (bsel (t_shape x) b)).
Proof.
  intros Wy HC Hx Ho Hc Hb. pose proof (cat_sliced off Wy HC Ho) as HS. set (sx' := rebatch (t_shape x) (batch sy)) in *.
  assert (Hc' : inb sx' c) by auto.
  assert (Hp : pos (t_shape x) c b < bat sy * vol (t_shape x)) by (apply (pos_lt (s := sx') (sl_wy HS) Hc' Hb)).
  rewrite (@hits_unique _ _ _ _ _ (pos (t_shape x) c b)).
  - destruct (pos_batch b Hc) as (-> & ->). unfold pos. simpl. auto.
  - apply seq_NoDup.
  - apply in_seq. lia.
  - apply (slg_pos HS b Hc').
  - intros p Hin E. apply in_seq in Hin. rewrite <- (slg_pos HS b Hc') in E. unfold slg in E.
    apply sgat_inj in E; auto; [apply (low_pos d Wy)|apply (ext_pos d (sl_wy HS))|pose proof (sl_off HS); lia].
Qed.
(** other positions are left alone *)
Lemma cat_miss x sy d off (h : nat -> F -> F) q (v : F) : wf sy -> catted x sy d -> off + ext (t_shape x) d <= ext sy d ->
  (forall c b, inb sy c -> b < bat sy -> pos sy c b = q -> ~ (off <= c d < off + ext (t_shape x) d)) ->
  hits (slg sy (rebatch (t_shape x) (batch sy)) d off) h (seq 0 (bat sy * vol (t_shape x))) q v = v.
Proof.
  intros Wy HC Ho Hq. pose proof (cat_sliced off Wy HC Ho) as HS. set (sx' := rebatch (t_shape x) (batch sy)) in *.
  apply hits_none. intros p Hin E. apply in_seq in Hin.
  destruct (@pos_surj sx' p (sl_wy HS)) as (c & b & Hc & Hb & Ep); [change (tot sx') with (bat sy * vol (t_shape x)); lia|].
  subst p. rewrite (slg_pos HS b Hc) in E.
  apply (Hq _ b (inb_sl HS Hc) Hb E). rewrite cset_eq. specialize (Hc d). change (ext sx' d) with (ext (t_shape x) d) in Hc. lia.
Qed.

Lemma k_concat_spec xs dim y ly : vt y ly -> Forall (fun x => catted x (t_shape y) dim) xs ->
  exts xs dim = ext (t_shape y) dim ->
  exists l', k_concat m xs dim y = Ok (with_buf y l') /\ length l' = length ly /\
    (forall q, tot (t_shape y) <= q -> nth0 l' q = nth0 ly q) /\
    forall l1 x l2 c b, xs = l1 ++ x :: l2 -> inb (t_shape x) c -> b < bat (t_shape y) ->
      nth0 l' (pos (t_shape y) (cset c dim (c dim + exts l1 dim)) b) = at_ x c (bsel (t_shape x) b).
Proof.
  intros Hy HX HE. unfold k_concat. rewrite (lower_volume_low m dim (vt_wf Hy)). cbn [bind]. rewrite Nat2N.id.
  rewrite (vol_volume (vt_wf Hy)).
  change (N.to_nat (batch (t_shape y))) with (bat (t_shape y)). change (N.to_nat (index (t_shape y) dim)) with (ext (t_shape y) dim).
  pose proof (proj2 (proj2 Hy)) as HyL. pose proof (vt_wf Hy) as Wy.
  set (sy := t_shape y) in *. set (base := low sy dim).
  match goal with |- context [forL xs ?f (0, y)] => set (body := f) end.
  destruct (@forL_inv tensor (nat * tensor) (fun l1 st => exists l', st = (base * exts l1 dim, with_buf y l') /\ length l' = length ly /\
    (forall q, tot sy <= q -> nth0 l' q = nth0 ly q) /\
    forall l0 x l2 c b, l1 = l0 ++ x :: l2 -> inb (t_shape x) c -> b < bat sy ->
      nth0 l' (pos sy (cset c dim (c dim + exts l0 dim)) b) = at_ x c (bsel (t_shape x) b)) xs body (0, y)) as (st & E & l' & -> & HL & Ht & HP).
  - exists ly. simpl. rewrite Nat.mul_0_r. split.
    + f_equal. destruct y as [dv s bf hv]; destruct Hy as (_ & Hb & _); simpl in *. rewrite Hb. reflexivity.
    + split; [auto|]. split; [auto|]. intros l0 x l2 c b C. destruct l0; discriminate.
  - intros l1 x l2 st -> (l' & -> & HL & Ht & HP). unfold body.
    assert (HC : catted x sy dim) by (rewrite Forall_forall in HX; apply HX; apply in_elt).
    assert (HVp : forall x0, In x0 l1 -> catted x0 sy dim) by (intros x0 Hin; rewrite Forall_forall in HX; apply HX; apply in_or_app; auto).
    pose proof (ct_vt HC) as Hx. set (lx := match t_buf x with Some l => l | None => [] end) in *.
    assert (Hy' : vt (with_buf y l') l') by (eapply vt_with_buf; eauto).
    rewrite (ptr_vt Hx), (ptr_vt Hy'). cbn [bind].
    rewrite exts_app in HE. simpl in HE. fold (exts l2 dim) in HE.
    assert (Ho : exts l1 dim + ext (t_shape x) dim <= ext sy dim) by lia.
    change (N.to_nat (index (t_shape x) dim)) with (ext (t_shape x) dim).
    destruct (@cat_one x lx sy dim (exts l1 dim) l' Wy HC Hx Ho ltac:(lia)) as (l'' & n & E & HL2 & HP2).
    fold base in E. rewrite E. cbn [bind snd].
    eexists; split; [reflexivity|]. exists l''. split.
    { rewrite exts_app. simpl. f_equal. lia. }
    split; [lia|]. split.
    + intros q Hq. rewrite HP2. rewrite cat_miss; auto. intros c b Hc Hb Ec. pose proof (pos_lt Wy Hc Hb). fold sy in H. lia.
    + intros l0 x0 l3 c b EQ Hc Hb. destruct l3 as [|z l3'].
      * apply app_inj_tail in EQ. destruct EQ as (<- & <-). rewrite HP2. rewrite cat_hit by auto.
        symmetry. apply (at_vt c (bsel (t_shape x) b) Hx).
      * destruct (@exists_last _ (z :: l3') ltac:(discriminate)) as (l4 & w & Ew). rewrite Ew in EQ.
        assert (EQ' : l1 ++ [x] = (l0 ++ x0 :: l4) ++ [w]) by (rewrite EQ, <- app_assoc; reflexivity).
        apply app_inj_tail in EQ'. destruct EQ' as (-> & <-).
        rewrite HP2. rewrite cat_miss; [apply (HP l0 x0 l4); auto|auto|auto|auto|].
        intros c' b' Hc' Hb' Ep. rewrite exts_app in Ho |- *. simpl in Ho |- *. fold (exts l4 dim) in *.
        assert (Hin : inb sy (cset c dim (c dim + exts l0 dim))).
        { eapply inb_cset; [exact Hc| |specialize (Hc dim); lia].
          intros i Hi. symmetry. apply (ct_ext (HVp x0 (in_elt _ _ _))); auto. }
        apply pos_inj in Ep; auto. destruct Ep as (-> & Ec). rewrite Ec, cset_eq. specialize (Hc dim). lia.
  - rewrite E. cbn [bind snd]. exists l'. auto.
Qed.

(** *** concatenation along the minibatch *)
Record bcatted (x : tensor) (sy : shape) : Prop := {
  bct_vt : vt x (match t_buf x with Some l => l | None => [] end);
  bct_ext : forall i, ext (t_shape x) i = ext sy i }.
Definition bats (xs : list tensor) : nat := fold_right (fun x n => bat (t_shape x) + n) 0 xs.
Lemma bats_app l1 l2 : bats (l1 ++ l2) = bats l1 + bats l2.
Proof. unfold bats. induction l1; simpl; auto. rewrite IHl1. lia. Qed.

Lemma k_batch_concat_spec xs y ly : vt y ly -> Forall (fun x => bcatted x (t_shape y)) xs -> bats xs = bat (t_shape y) ->
  exists l', k_batch_concat m xs y = Ok (with_buf y l') /\ length l' = length ly /\
    (forall q, tot (t_shape y) <= q -> nth0 l' q = nth0 ly q) /\
    forall l1 x l2 c b, xs = l1 ++ x :: l2 -> inb (t_shape x) c -> b < bat (t_shape x) ->
      nth0 l' (pos (t_shape y) c (b + bats l1)) = at_ x c b.
Proof.
  intros Hy HX HE. unfold k_batch_concat. rewrite (ptr_vt Hy). cbn [bind].
  pose proof (proj2 (proj2 Hy)) as HyL. pose proof (vt_wf Hy) as Wy. set (sy := t_shape y) in *. set (V := vol sy).
  match goal with |- context [forL xs ?f (0, ly)] => set (body := f) end.
  destruct (@forL_inv tensor (nat * list F) (fun l1 st => exists l', st = (bats l1 * V, l') /\ length l' = length ly /\
    (forall q, bats l1 * V <= q -> nth0 l' q = nth0 ly q) /\
    forall l0 x l2 c b, l1 = l0 ++ x :: l2 -> inb (t_shape x) c -> b < bat (t_shape x) ->
      nth0 l' (pos sy c (b + bats l0)) = at_ x c b) xs body (0, ly)) as (st & E & l' & -> & HL & Ht & HP).
  - exists ly. simpl. split; [auto|]. split; [auto|]. split; [auto|]. intros l0 x l2 c b C. destruct l0; discriminate.
  - intros l1 x l2 st -> (l' & -> & HL & Ht & HP). unfold body.
    assert (HC : bcatted x sy) by (rewrite Forall_forall in HX; apply HX; apply in_elt).
    pose proof (bct_vt HC) as Hx. set (lx := match t_buf x with Some l => l | None => [] end) in *.
    rewrite (ptr_vt Hx), (size_vt m Hx). cbn [bind]. rewrite Nat2N.id.
    pose proof (proj2 (proj2 Hx)) as HxL.
    rewrite bats_app in HE. simpl in HE. fold (bats l2) in HE.
    assert (Vx : vol (t_shape x) = V) by (apply vol_ext; intros; apply (bct_ext HC)).
    assert (Tx : tot (t_shape x) = bat (t_shape x) * V) by (unfold tot; rewrite Vx; auto).
    assert (HV : V <> 0) by (pose proof (vol_pos Wy); fold V in H; lia).
    assert (HT : tot sy = bat sy * V) by reflexivity.
    destruct (@scatterN F n0 (tot (t_shape x)) (fun i => bats l1 * V + i) (fun i _ => nth0 lx i)
       (fun i py => v <- rd lx i ;; wr py (bats l1 * V + i) v) l') as (l'' & E & HL2 & HP2).
    + intros i l0 Hi HL0. rewrite (@rd_Ok _ _ _ (@n0 K)) by lia. cbn [bind]. rewrite wr_Ok; auto. nia.
    + intros i Hi. nia.
    + rewrite E. cbn [bind]. eexists; split; [reflexivity|]. exists l''. split.
      { rewrite bats_app. simpl. f_equal. rewrite Tx. lia. }
      split; [lia|]. split.
      * intros q Hq. rewrite bats_app in Hq. simpl in Hq. rewrite HP2, hits_none. { apply Ht. nia. }
        intros i Hi. apply in_seq in Hi. nia.
      * intros l0 x0 l3 c b EQ Hc Hb. destruct l3 as [|z l3'].
        -- apply app_inj_tail in EQ. destruct EQ as (<- & <-). rewrite HP2.
           assert (Ep : pos sy c (b + bats l1) = bats l1 * V + pos (t_shape x) c b).
           { unfold pos. fold V. rewrite Vx. rewrite (@lin_lt_ext (ext sy) (ext (t_shape x)) c c) by (intros; auto; symmetry; apply (bct_ext HC)). lia. }
           rewrite Ep. pose proof (pos_lt (vt_wf Hx) Hc Hb).
           rewrite (@hits_unique _ _ _ _ _ (pos (t_shape x) c b)); auto using seq_NoDup.
           ++ apply in_seq. lia.
           ++ intros a' _ Ea. lia.
        -- destruct (@exists_last _ (z :: l3') ltac:(discriminate)) as (l4 & w & Ew). rewrite Ew in EQ.
           assert (EQ' : l1 ++ [x] = (l0 ++ x0 :: l4) ++ [w]) by (rewrite EQ, <- app_assoc; reflexivity).
           apply app_inj_tail in EQ'. destruct EQ' as (-> & <-).
           rewrite HP2, hits_none; [apply (HP l0 x0 l4); auto|].
           intros i Hi Ei. rewrite bats_app in Ei. simpl in Ei. fold (bats l4) in Ei.
           assert (Hc' : inb sy c).
           { intros k. rewrite Forall_forall in HX. rewrite <- (bct_ext (HX x0 ltac:(rewrite <- app_assoc; apply in_elt))). apply Hc. }
           assert (HL' : lin_lt (ext sy) c 8 < V) by (apply lin_lt_lt; auto).
           unfold pos in Ei. fold V in Ei. nia.
  - rewrite E. cbn [bind snd]. exists l'. split; [auto|]. split; auto. split; auto.
    intros q Hq. apply Ht. rewrite HE. auto.
Qed.
End Concat.
