(** * ApiCat: concat and split are inverse *)
From Verif Require Export ApiComp.
Set Implicit Arguments.

Section ApiCat.
Variable K : num.
Notation F := (F K).
Notation tensor := (tensor K).
Variable m : build.

Lemma exts_const (ys : list tensor) e k : Forall (fun y : tensor => ext (t_shape y) e = k) ys -> exts ys e = length ys * k.
Proof. induction 1 as [|y ys Hy _ IH]; [reflexivity|]. cbn [exts fold_right length]. fold (exts ys e). rewrite IH, Hy. lia. Qed.
Lemma split_at A (d0 : A) (l : list A) i : i < length l -> l = firstn i l ++ nth i l d0 :: skipn (S i) l.
Proof.
  revert i. induction l as [|x l IH]; intros i Hi; [simpl in Hi; lia|]. destruct i; [reflexivity|]. simpl. f_equal. apply IH. simpl in Hi. lia.
Qed.
Lemma Forall_firstn A (P : A -> Prop) l i : Forall P l -> Forall P (firstn i l).
Proof. intros H. revert i. induction H; intros [|i]; simpl; constructor; auto. Qed.

Lemma concat_split d als al (x : tensor) dim n : (forall i, al_ok (als i)) -> al_ok al -> ready d x -> N.to_nat dim < 8 -> (1 <= n)%N ->
  ext (t_shape x) (N.to_nat dim) mod N.to_nat n = 0 ->
  exists ys, t_split m als x dim n = Ok ys /\ length ys = N.to_nat n /\
    yields (t_concat m al ys dim) d (t_shape x) (fun c b => at_ x c b).
Proof.
  intros HA Hal HR Hd Hn Hm. set (e := N.to_nat dim) in *. set (k := ext (t_shape x) e / N.to_nat n).
  pose proof (ready_wf HR) as W.
  assert (Tk : ext (t_shape x) e = N.to_nat n * k).
  { unfold k. pose proof (Nat.div_mod (ext (t_shape x) e) (N.to_nat n)). lia. }
  assert (k1 : 1 <= k) by (pose proof (ext_pos e W); nia).
  assert (exists s, shape_is s (eset (t_shape x) e k) (bat (t_shape x))) as (s & Hs).
  { assert (E1 : ext (t_shape x) e = N.to_nat (index (t_shape x) e)) by reflexivity.
    destruct (@slice_shape_exists (t_shape x) e 0 (N.of_nat k) W Hd) as (s & S1); [lia|nia|].
    exists s. replace k with (N.to_nat (N.of_nat k) - N.to_nat 0) by lia. exact S1. }
  destruct (@split_yields K m d als x dim n s) as (ys & E & HL & HP); auto.
  exists ys. split; [exact E|]. split; [exact HL|]. fold e k in HP.
  destruct ys as [|y0 ys0]; [simpl in HL; lia|]. set (ys := y0 :: ys0) in *.
  assert (HI : forall y, In y ys -> exists i, i < N.to_nat n /\ is_tensor d s (fun c b => at_ x (cset c e (c e + i * k)) b) y).
  { intros y Hy. destruct (In_nth ys y y0 Hy) as (i & Hi & Ei). exists i. split; [lia|]. rewrite <- Ei. apply HP. lia. }
  assert (HR' : Forall (ready d) ys).
  { apply Forall_forall. intros y Hy. destruct (HI y Hy) as (i & _ & T). apply (is_tensor_ready T). }
  assert (HSh : forall y, In y ys -> t_shape y = s).
  { intros y Hy. destruct (HI y Hy) as (i & _ & T). apply (is_tensor_shape T). }
  assert (Es0 : t_shape y0 = s) by (apply HSh; left; reflexivity).
  assert (EE : forall l, (forall y, In y l -> In y ys) -> exts l e = length l * k).
  { intros l Hl. apply exts_const. apply Forall_forall. intros y Hy. rewrite (HSh y (Hl y Hy)). destruct Hs as (_ & -> & _). unfold eset. rewrite Nat.eqb_refl. reflexivity. }
  unfold t_concat. cbn [idx nth_error bind ys]. rewrite (ready_device_of (d:=d)) by (inversion HR'; auto). cbn [bind].
  destruct (@concat_yields K m d al y0 ys0 dim (t_shape x)) as (z & Ez & Rz & Sz & Pz); auto.
  - apply Forall_forall. intros y Hy i Hi. rewrite Es0, (HSh y Hy). reflexivity.
  - fold ys. split.
    + apply Forall_forall. intros b Hb. apply in_map_iff in Hb. destruct Hb as (y & <- & Hy). right. rewrite (HSh y Hy). apply Hs.
    + right. apply in_map_iff. exists y0. split; [rewrite Es0; apply Hs|left; reflexivity].
  - fold ys e. rewrite (EE ys) by auto. split; [exact W|]. split; [|reflexivity]. intros i. unfold eset. destruct (Nat.eqb_spec i e) as [->|Hi].
    + rewrite HL. exact Tk.
    + rewrite Es0. destruct Hs as (_ & -> & _). unfold eset. destruct (Nat.eqb_spec i e); [contradiction|reflexivity].
  - apply (ready_fits HR).
  - exists z. split; [exact Ez|]. split; [exact Rz|]. split; [exact Sz|]. intros c b Hc Hb. fold ys e in Pz.
    set (i := c e / k). set (r := c e mod k).
    assert (Ec : c e = k * i + r) by (apply Nat.div_mod; lia).
    assert (Hr : r < k) by (apply Nat.mod_upper_bound; lia).
    assert (Hi : i < N.to_nat n). { specialize (Hc e). nia. }
    assert (Hc' : inb s (cset c e r)).
    { intros j. destruct Hs as (_ & -> & _). unfold eset, cset. destruct (Nat.eqb_spec j e); [exact Hr|apply Hc]. }
    pose proof (@split_at tensor y0 ys i ltac:(lia)) as Sp.
    assert (Hin : In (nth i ys y0) ys) by (apply nth_In; lia).
    specialize (Pz (firstn i ys) (nth i ys y0) (skipn (S i) ys) (cset c e r) b Sp).
    rewrite (HSh _ Hin) in Pz. specialize (Pz Hc' Hb). rewrite cset_eq in Pz.
    rewrite (EE (firstn i ys)) in Pz by (intros y Hy; rewrite Sp; apply in_or_app; left; exact Hy).
    rewrite firstn_length, Nat.min_l in Pz by lia.
    rewrite (@at_ext K z c (cset (cset c e r) e (r + i * k)) b).
    2:{ intros j. rewrite cset_cset. unfold cset. destruct (Nat.eqb_spec j e) as [->|]; [lia|reflexivity]. }
    rewrite Pz. assert (Bs : bat s = bat (t_shape x)) by apply Hs.
    assert (Bb : bsel s b = b) by (unfold bsel; destruct (Nat.eqb_spec (bat s) 1); lia).
    rewrite Bb. rewrite (is_tensor_at (HP i y0 Hi) Hc') by lia. rewrite cset_eq.
    apply at_ext. intros j. rewrite cset_cset. unfold cset. destruct (Nat.eqb_spec j e) as [->|]; [lia|reflexivity].
Qed.

(** cutting the j-th operand back out of a concatenation (its minibatch repeated
    if it had batch 1) *)
Lemma slice_concat d al al2 (x0 : tensor) xs0 dim s : let xs := x0 :: xs0 in let e := N.to_nat dim in
  al_ok al -> al_ok al2 -> Forall (ready d) xs -> e < 8 ->
  Forall (fun x : tensor => forall i, i <> e -> ext (t_shape x) i = ext (t_shape x0) i) xs ->
  common (map (fun x : tensor => bat (t_shape x)) xs) (bat s) ->
  shape_is s (eset (t_shape x0) e (exts xs e)) (bat s) -> fits s ->
  exists y, t_concat m al xs dim = Ok y /\
    forall l1 x l2 s', xs = l1 ++ x :: l2 -> shape_is s' (ext (t_shape x)) (bat s) ->
      yields (t_slice m al2 y dim (N.of_nat (exts l1 e)) (N.of_nat (exts l1 e + ext (t_shape x) e))) d s'
        (fun c b => at_ x c (bsel (t_shape x) b)).
Proof.
  intros xs e HA HA2 HR Hd HE HC Hs HF. unfold t_concat. cbn [xs idx nth_error bind]. rewrite (ready_device_of (d:=d)) by (inversion HR; auto). cbn [bind].
  destruct (@concat_yields K m d al x0 xs0 dim s HA HR Hd HE HC Hs HF) as (y & Ey & Ry & Sy & Py). exists y. split; [exact Ey|].
  intros l1 x l2 s' Ex Hs'. unfold t_slice. rewrite (ready_device_of Ry). cbn [bind]. fold e in Py.
  assert (Hx : In x xs) by (rewrite Ex; apply in_or_app; right; left; reflexivity).
  assert (Wx : wf (t_shape x)) by (rewrite Forall_forall in HR; apply (ready_wf (HR x Hx))).
  pose proof (ext_pos e Wx) as P1.
  assert (Te : ext s e = exts xs e) by (destruct Hs as (_ & -> & _); unfold eset; rewrite Nat.eqb_refl; reflexivity).
  assert (Sl : exts l1 e + ext (t_shape x) e <= exts xs e).
  { rewrite Ex, exts_app. cbn [exts fold_right]. lia. }
  assert (Off : forall i, i <> e -> ext s i = ext (t_shape x) i).
  { intros i Hi. destruct Hs as (_ & -> & _). unfold eset. destruct (Nat.eqb_spec i e); [contradiction|]. rewrite Forall_forall in HE. symmetry. apply HE; auto. }
  eapply yields_ext.
  - eapply slice_yields; eauto.
    + lia.
    + rewrite Nat2N.id. fold e. rewrite Sy. lia.
    + rewrite !Nat2N.id. fold e. rewrite Sy. replace (exts l1 e + ext (t_shape x) e - exts l1 e) with (ext (t_shape x) e) by lia.
      destruct Hs' as (W' & E' & B'). split; [exact W'|]. split; [|exact B']. intros i. rewrite E'. unfold eset.
      destruct (Nat.eqb_spec i e) as [->|Hi]; [reflexivity|]. symmetry; auto.
  - intros c b Hc Hb. cbv beta. fold e. rewrite Nat2N.id. assert (Hc' : inb (t_shape x) c) by (intros i; specialize (Hc i); rewrite (proj1 (proj2 Hs')) in Hc; exact Hc).
    apply (Py l1 x l2); auto. rewrite <- (proj2 (proj2 Hs')). exact Hb.
Qed.

(** ** the same for whole minibatches *)
Lemma bats_const (ys : list tensor) k : Forall (fun y : tensor => bat (t_shape y) = k) ys -> bats ys = length ys * k.
Proof. induction 1 as [|y ys Hy _ IH]; [reflexivity|]. cbn [bats fold_right length]. fold (bats ys). rewrite IH, Hy. lia. Qed.
Lemma batch_concat_split d als al (x : tensor) n : (forall i, al_ok (als i)) -> al_ok al -> ready d x -> (1 <= n)%N ->
  bat (t_shape x) mod N.to_nat n = 0 ->
  exists ys, t_batch_split m als x n = Ok ys /\ length ys = N.to_nat n /\
    yields (t_batch_concat m al ys) d (t_shape x) (fun c b => at_ x c b).
Proof.
  intros HA Hal HR Hn Hm. set (k := bat (t_shape x) / N.to_nat n). pose proof (ready_wf HR) as W.
  assert (Tk : bat (t_shape x) = N.to_nat n * k).
  { unfold k. pose proof (Nat.div_mod (bat (t_shape x)) (N.to_nat n)). lia. }
  assert (k1 : 1 <= k) by (pose proof (bat_pos W); nia).
  assert (exists s, shape_is s (ext (t_shape x)) k) as (s & Hs).
  { apply shape_exists; auto.
    - intros; apply ext_pos; auto.
    - intros; apply ext_ge8; auto.
    - pose proof (wf_batch W) as Wb. unfold bat in Tk. nia.
    - change (prod_lt (ext (t_shape x)) 8) with (vol (t_shape x)). rewrite (vol_spec W). pose proof (wf_vol_bound W). lia. }
  destruct (@batch_split_yields K m d als x n s) as (ys & E & HL & HP); auto.
  exists ys. split; [exact E|]. split; [exact HL|]. fold k in HP.
  destruct ys as [|y0 ys0]; [simpl in HL; lia|]. set (ys := y0 :: ys0) in *.
  assert (HI : forall y, In y ys -> exists i, i < N.to_nat n /\ is_tensor d s (fun c b => at_ x c (i * k + b)) y).
  { intros y Hy. destruct (In_nth ys y y0 Hy) as (i & Hi & Ei). exists i. split; [lia|]. rewrite <- Ei. apply HP. lia. }
  assert (HR' : Forall (ready d) ys).
  { apply Forall_forall. intros y Hy. destruct (HI y Hy) as (i & _ & T). apply (is_tensor_ready T). }
  assert (HSh : forall y, In y ys -> t_shape y = s).
  { intros y Hy. destruct (HI y Hy) as (i & _ & T). apply (is_tensor_shape T). }
  assert (Es0 : t_shape y0 = s) by (apply HSh; left; reflexivity).
  assert (EE : forall l, (forall y, In y l -> In y ys) -> bats l = length l * k).
  { intros l Hl. apply bats_const. apply Forall_forall. intros y Hy. rewrite (HSh y (Hl y Hy)). apply Hs. }
  unfold t_batch_concat. cbn [length Nat.eqb negb assert idx nth_error bind ys]. rewrite (ready_device_of (d:=d)) by (inversion HR'; auto). cbn [bind].
  destruct (@batch_concat_yields K m d al y0 ys0 (t_shape x)) as (z & Ez & Rz & Sz & Pz); auto.
  - apply Forall_forall. intros y Hy i. rewrite Es0, (HSh y Hy). reflexivity.
  - fold ys. rewrite (EE ys) by auto. split; [exact W|]. split; [|rewrite HL; exact Tk]. intros i. rewrite Es0. symmetry. apply Hs.
  - apply (ready_fits HR).
  - exists z. split; [exact Ez|]. split; [exact Rz|]. split; [exact Sz|]. intros c b Hc Hb. fold ys in Pz.
    set (i := b / k). set (r := b mod k).
    assert (Ec : b = k * i + r) by (apply Nat.div_mod; lia).
    assert (Hr : r < k) by (apply Nat.mod_upper_bound; lia).
    assert (Hi : i < N.to_nat n) by nia.
    assert (Hc' : inb s c) by (intros j; destruct Hs as (_ & -> & _); apply Hc).
    pose proof (@split_at tensor y0 ys i ltac:(lia)) as Sp.
    assert (Hin : In (nth i ys y0) ys) by (apply nth_In; lia).
    specialize (Pz (firstn i ys) (nth i ys y0) (skipn (S i) ys) c r Sp).
    rewrite (HSh _ Hin) in Pz. specialize (Pz Hc'). rewrite (proj2 (proj2 Hs)) in Pz. specialize (Pz Hr).
    rewrite (EE (firstn i ys)) in Pz by (intros y Hy; rewrite Sp; apply in_or_app; left; exact Hy).
    rewrite firstn_length, Nat.min_l in Pz by lia.
    replace b with (r + i * k) at 1 by lia. rewrite Pz. rewrite (is_tensor_at (HP i y0 Hi) Hc') by (rewrite (proj2 (proj2 Hs)); exact Hr).
    f_equal. lia.
Qed.
(** ** transposition is an involution *)
Lemma transpose_transpose d al al2 (x : tensor) : al_ok al -> al_ok al2 -> ready d x -> matrix (t_shape x) ->
  exists y, t_transpose m al x = Ok y /\ yields (t_transpose m al2 y) d (t_shape x) (fun c b => at_ x c b).
Proof.
  intros HA HA2 HR HM. destruct (@transposed_exists (t_shape x) (ready_wf HR) HM) as (s & Hs).
  unfold t_transpose, via1. rewrite (ready_device_of HR). cbn [bind].
  destruct (@transpose_yields K m d al x s) as (y & Ey & Hy); auto. exists y. split; [exact Ey|].
  pose proof (is_tensor_ready Hy) as Ry. pose proof (is_tensor_shape Hy) as Es. rewrite (ready_device_of Ry). cbn [bind].
  destruct (m2_matrix Hs) as (Ms & E0 & E1).
  eapply yields_ext.
  - apply transpose_yields with (s := t_shape x); auto; rewrite Es; [exact Ms|]. rewrite E0, E1. split; [apply (ready_wf HR)|].
    split; [|symmetry; apply Hs]. intros i. destruct i as [|[|i]]; [reflexivity|reflexivity|apply HM; lia].
  - intros c b Hc Hb. cbv beta. rewrite (is_tensor_at Hy).
    + apply at_ext. intros i. symmetry. apply (matrix_c2 HM Hc).
    + apply matrix_inb; auto; [rewrite E0|rewrite E1]; apply Hc.
    + rewrite (proj2 (proj2 Hs)). exact Hb.
Qed.
End ApiCat.
