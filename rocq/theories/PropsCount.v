(** * PropsCount: element counts in builds without overflow checks (C08)
    What [Shape::new], deserialisation and [resize_dim] of shape.rs store in a build without
    overflow checks, exactly: the product modulo 2^32. *)
From Verif Require Import Base Shape ShapeOps ShapeFacts PropsShape Mode.
Set Implicit Arguments.
Local Open Scope N_scope.

Lemma norm32_release x : norm32 Release x = Ok (x mod two32).
Proof. unfold norm32. destruct (N.ltb_spec x two32); auto. rewrite N.mod_small; auto. Qed.

Definition wrapping (ds : list N) (i : nat) (st : list N * N * nat) : Prop :=
  let '(f, v, dep) := st in
  f = fill (firstn i ds) /\ v = prodN (firstn i ds) mod two32 /\ (dep <= i)%nat /\
  (forall j, (dep <= j < i)%nat -> nth j ds 1 = 1).

Lemma new_release ds b : (length ds <= 8)%nat -> Forall (fun d => 1 <= d) ds -> 1 <= b ->
  exists s, shape_new Release ds b = Ok s /\ (forall i, index s i = nth i ds 1) /\ batch s = b /\ volume s = prodN ds mod two32.
Proof.
  intros Hl Hp Hb. unfold shape_new.
  replace (length ds <=? MAX_DEPTH)%nat with true by (symmetry; apply Nat.leb_le; exact Hl).
  replace (1 <=? b) with true by (symmetry; apply N.leb_le; lia). simpl assert. cbn [bind].
  match goal with |- context [forN (length ds) ?bd ?s0] =>
    destruct (@forN_inv _ (wrapping ds) (length ds) bd s0) as (st & E & HI) end.
  - simpl. unfold fill. simpl. repeat split; auto; try reflexivity; intros; lia.
  - intros i [[f v] dep] Hi (Hf & Hvv & Hdep & Hones).
    assert (Hd : 1 <= nth i ds 1) by (eapply Forall_forall; [exact Hp|apply nth_In; lia]).
    assert (Enth : nth_error ds i = Some (nth i ds 1)) by (apply nth_error_nth'; lia).
    rewrite (idx_Ok ds i 1) by lia. cbn [bind].
    assert (E0 : negb (nth i ds 1 =? 0) = true) by (apply negb_true_iff, N.eqb_neq; lia).
    rewrite E0. cbn [assert bind]. unfold aset.
    rewrite Hf, fill_length by (rewrite firstn_length; lia).
    replace (i <? 8)%nat with true by (symmetry; apply Nat.ltb_lt; lia). cbn [bind].
    unfold mul32. rewrite norm32_release. cbn [bind].
    eexists; split; [reflexivity|]. cbn [wrapping].
    rewrite fill_step by lia. split; [reflexivity|]. split.
    + rewrite Hvv, N.mul_mod_idemp_l by discriminate. rewrite (firstn_snoc _ _ Enth), prodN_app. cbn [prodN fold_right]. rewrite N.mul_1_r. reflexivity.
    + split.
      * destruct (N.eqb_spec (nth i ds 1) 1); cbn [negb]; lia.
      * intros j. destruct (N.eqb_spec (nth i ds 1) 1) as [E1|E1]; cbn [negb]; [|lia].
        intros Hj. destruct (Nat.eq_dec j i); [subst; auto|apply Hones; lia].
  - rewrite E. cbn [bind]. destruct st as [[f v] dep]. destruct HI as (Hf & Hvv & Hdep & Hones).
    rewrite firstn_all in * . subst f v. eexists; split; [reflexivity|]. cbn [batch volume]. split; [|auto].
    intros i. unfold index. cbn [depth dims8]. rewrite nth_fill. destruct (Nat.ltb_spec i dep) as [Hi|Hi]; auto.
    destruct (Nat.lt_ge_cases i (length ds)); [symmetry; apply Hones; lia|symmetry; apply nth_overflow; auto].
Qed.

Lemma prod_below_ext f g d : (forall i, f i = g i) -> prod_below f d = prod_below g d.
Proof. intros H. induction d; cbn; congruence. Qed.
Lemma prod_below_list ds d : (length ds <= d)%nat -> prod_below (fun i => nth i ds 1) d = prodN ds.
Proof.
  revert d. induction ds as [|x ds IH] using rev_ind; intros d H.
  - clear H. induction d as [|d IH]; auto. cbn [prod_below]. rewrite IH. destruct d; reflexivity.
  - rewrite app_length in H. cbn [length] in H. induction d as [|d IHd]; [lia|]. cbn [prod_below].
    destruct (Nat.eq_dec d (length ds)) as [->|Hd].
    + rewrite prodN_app, app_nth2, Nat.sub_diag by lia. cbn [nth prodN fold_right]. rewrite N.mul_1_r. f_equal.
      rewrite <- (IH (length ds)) by lia. clear. assert (G : forall e, (e <= length ds)%nat -> prod_below (fun i => nth i (ds ++ [x]) 1) e = prod_below (fun i => nth i ds 1) e); [|apply G; auto].
      induction e as [|e IHe]; intros He; auto. cbn [prod_below]. rewrite IHe by lia. rewrite app_nth1 by lia. reflexivity.
    + rewrite IHd by lia. rewrite (nth_overflow (ds ++ [x])) by (rewrite app_length; cbn; lia). apply N.mul_1_r.
Qed.

(** ** C08 *)
(** a shape made of extents: the stored count is the product modulo 2^32, the size likewise *)
Theorem C08_new_without_checks : forall ds b, (length ds <= 8)%nat -> Forall (fun d => 1 <= d) ds -> 1 <= b ->
  exists s, shape_new Release ds b = Ok s /\ (forall i, index s i = nth i ds 1) /\ batch s = b /\
    volume s = prod_below (index s) 8 mod 2 ^ 32 /\ size Release s = Ok ((b * prod_below (index s) 8) mod 2 ^ 32) /\
    (volume s = prod_below (index s) 8 <-> prod_below (index s) 8 < 2 ^ 32).
Proof.
  intros ds b Hl Hp Hb. destruct (new_release Hl Hp Hb) as (s & E & I & B & V). exists s.
  assert (P : prod_below (index s) 8 = prodN ds) by (rewrite (prod_below_ext _ _ 8 I); apply prod_below_list; auto).
  rewrite P. change (2 ^ 32) with two32. repeat (split; [auto; fail|]). split; [|split].
  - unfold size, mul32. rewrite norm32_release, B, V, N.mul_mod_idemp_r by discriminate. reflexivity.
  - intros H. rewrite <- H, V. apply N.mod_lt. discriminate.
  - intros H. rewrite V. apply N.mod_small; auto.
Qed.
(** resizing a consistent shape *)
Theorem C08_resize_without_checks : forall s dim k, wf s -> (dim < 8)%nat -> 1 <= k ->
  exists s', resize_dim Release s dim k = Ok s' /\ (forall i, index s' i = if (i =? dim)%nat then k else index s i) /\ batch s' = batch s /\
    volume s' = prod_below (index s') 8 mod 2 ^ 32 /\ (volume s' = prod_below (index s') 8 <-> prod_below (index s') 8 < 2 ^ 32).
Proof.
  intros s dim k H Hd Hk. destruct (update_dim_eq Release H Hd Hk) as (dep & Hle & Hl & Ho & E).
  unfold mul32 in E. rewrite norm32_release in E. cbn [bind] in E. eexists. split; [exact E|].
  assert (Hlen : (dim < length (dims8 s))%nat) by (rewrite (wf_len H); auto).
  assert (Hn : forall i, nth i (lset (dims8 s) dim k) 1 = if (i =? dim)%nat then k else index s i).
  { intros i. rewrite nth_lset by auto. rewrite wf_index by auto. reflexivity. }
  set (s' := mkShape _ _ _ _).
  assert (I : forall i, index s' i = nth i (lset (dims8 s) dim k) 1).
  { intros i. unfold index, s'; cbn [depth dims8]. destruct (Nat.ltb_spec i dep); auto. symmetry; auto. }
  assert (P : prod_below (index s') 8 = volume s / index s dim * k).
  { rewrite (prod_below_ext _ _ 8 I), prod_below_list by (rewrite lset_length, (wf_len H); auto). rewrite prodN_lset; auto.
    - rewrite <- (wf_vol H), <- wf_index by auto. reflexivity.
    - pose proof (wf_pos H Hd); lia. }
  split; [intros i; rewrite I; apply Hn|]. split; [reflexivity|]. rewrite P. cbn [volume s']. change (2 ^ 32) with two32. split; [reflexivity|]. split.
  - intros <-. apply N.mod_lt. discriminate.
  - intros G. apply N.mod_small; auto.
Qed.
(** whatever is obtained with overflow checks is obtained without them, the same *)
Section obtained_release.
  Fixpoint obtained_release s (H : obtained Debug s) {struct H} : obtained Release s.
  Proof.
    assert (L : forall l, Forall (obtained Debug) l -> Forall (obtained Release) l) by (fix F 2; intros l [|x l' Hx Hl]; constructor; auto).
    destruct H as [ds b s H1 H2 H|d s H1 H2 H|s dim k s' H1 H2 H|s b s' H1 H2 H|a b s H1 H2 H|a b s H1 H2 H|a d n s H1 H2 H|a b s H1 H2 H|a s H1 H|a d lo hi s H1 H|a ids d s H1 H|xs d s H1 H|a ids s H1 H|a lo hi s H1 H|xs s H1 H].
    - apply ob_new with ds b; auto. apply le_shape_new; auto.
    - apply ob_deser with d; auto. apply le_shape_new; auto.
    - apply ob_resize with s dim k; auto. apply le_resize_dim; auto.
    - apply ob_batch with s b; auto.
    - apply ob_scalar with a b; auto.
    - apply ob_elem with a b; auto.
    - apply ob_bcast with a d n; auto. apply le_broadcast; auto.
    - apply ob_matmul with a b; auto. apply le_matmul; auto.
    - apply ob_transpose with a; auto. apply le_transpose; auto.
    - apply ob_slice with a d lo hi; auto. apply le_slice; auto.
    - apply ob_pick with a ids d; auto. apply le_pick; auto.
    - apply ob_concat with xs d; auto. apply le_concat; auto.
    - apply ob_bpick with a ids; auto.
    - apply ob_bslice with a lo hi; auto.
    - apply ob_bconcat with xs; auto. apply le_batch_concat; auto.
  Qed.
End obtained_release.
Theorem C08_same_without_checks : forall s, obtained Debug s -> obtained Release s /\
  size Release s = Ok ((batch s * prod_below (index s) 8) mod 2 ^ 32).
Proof.
  intros s H. split; [apply obtained_release; auto|]. destruct (C08_counts_exact_debug s H) as (V & _). unfold size, mul32. rewrite norm32_release, V. reflexivity.
Qed.
Print Assumptions C08_new_without_checks.
Print Assumptions C08_resize_without_checks.
Print Assumptions C08_same_without_checks.
(** 65537 x 65537 elements in a batch of 3 are counted as 131073 and 393219 *)
Example C08_wraps : exists s, shape_new Release [65537; 65537] 3 = Ok s /\ volume s = 131073 /\ size Release s = Ok 393219 /\ prod_below (index s) 8 = 4295098369.
Proof. eexists. repeat split; reflexivity. Qed.
Example C08_resize_wraps : exists s s', shape_new Debug [65536; 3] 1 = Ok s /\ resize_dim Release s 1 65537 = Ok s' /\ volume s' = 65536 /\ prod_below (index s') 8 = 4295032832.
Proof. do 2 eexists. repeat split; reflexivity. Qed.
