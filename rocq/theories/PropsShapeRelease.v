(** * PropsShapeRelease: C05 and C06 in builds without overflow checks

    The operands are shapes as every build with overflow checks makes them ([wf]); the rules are run with wrapping arithmetic. *)
From Verif Require Import ShapeFacts ShapeOps PropsCount.
Set Implicit Arguments.
Unset Strict Implicit.
Local Open Scope N_scope.

(** the extents [e], the batch [b], and as volume the product of the extents modulo 2^32 *)
Definition counted (s : shape) (e : nat -> N) (b : N) : Prop :=
  (forall i, index s i = e i) /\ batch s = b /\ volume s = prod_below e 8 mod 2 ^ 32.
(** when the product fits, that is what a build with overflow checks gives *)
Lemma counted_ext s e1 e2 b : (forall i, e1 i = e2 i) -> counted s e1 b -> counted s e2 b.
Proof. intros H (I & B & V). split; [intros i; rewrite I; auto|]. split; auto. rewrite V. f_equal. apply prod_below_ext. auto. Qed.
Lemma norm_small m x : x < two32 -> norm32 m x = norm32 Debug x.
Proof. intros H. rewrite !norm32_lt by auto. reflexivity. Qed.

(** ** Rules that cannot overflow: the same in both builds *)
Lemma resize_smaller m x dim k : wf x -> k <= index x dim -> resize_dim m x dim k = resize_dim Debug x dim k.
Proof.
  intros W Hk. unfold resize_dim. destruct (Nat.lt_ge_cases dim 8) as [Hd|Hd]; [|rewrite !update_dim_Panic by auto; reflexivity].
  destruct (N.eq_dec k 0) as [->|K0]; [rewrite !update_dim_Panic by auto; reflexivity|]. assert (K1 : 1 <= k) by lia.
  destruct (update_dim_eq m W Hd K1) as (d1 & _ & L1 & O1 & ->). destruct (update_dim_eq Debug W Hd K1) as (d2 & _ & L2 & O2 & ->).
  rewrite (@depth_unique _ d1 d2 L1 O1 L2 O2). unfold mul32. rewrite (@norm_small m); auto.
  pose proof (wf_index_pos dim W) as P. destruct (index_div_volume dim W) as (q & Eq). rewrite Eq. rewrite N.div_mul by lia. pose proof (wf_vol_bound W). nia.
Qed.
Theorem C06_slice_any_build : forall m x dim lo hi, wf x -> so_slice m x dim lo hi = so_slice Debug x dim lo hi.
Proof.
  intros m x dim lo hi W. unfold so_slice. apply bind_ext. intros [] E1. apply assert_Ok, N.ltb_lt in E1. apply bind_ext. intros [] E2. apply assert_Ok, N.leb_le in E2. apply resize_smaller; auto. lia.
Qed.
Theorem C06_pick_any_build : forall m x ids dim, wf x -> so_pick m x ids dim = so_pick Debug x ids dim.
Proof.
  intros m x ids dim W. unfold so_pick. apply bind_ext. intros [] _. apply bind_ext. intros [] _. f_equal. apply resize_smaller; auto. apply wf_index_pos; auto.
Qed.

(** ** Rules that can *)
Lemma resize_counted x dim k : wf x ->
  ((exists s, resize_dim Release x dim k = Ok s) <-> (dim < 8)%nat /\ 1 <= k) /\ forall s, resize_dim Release x dim k = Ok s -> counted s (upd_ext x dim k) (batch x).
Proof.
  intros W. assert (NO : forall s, resize_dim Release x dim k = Ok s -> (dim < 8)%nat /\ 1 <= k).
  { intros s E. unfold resize_dim in E. destruct (Nat.lt_ge_cases dim 8) as [Hd|Hd]; [|rewrite update_dim_Panic in E by auto; discriminate]. split; auto.
    destruct (N.eq_dec k 0) as [->|]; [rewrite update_dim_Panic in E by auto; discriminate|lia]. }
  split.
  - split; [intros (s & E); eapply NO; eauto|]. intros (Hd & Hk). destruct (C08_resize_without_checks W Hd Hk) as (s & E & _). eauto.
  - intros s E. destruct (NO s E) as (Hd & Hk). destruct (C08_resize_without_checks W Hd Hk) as (s' & E' & I & B & V & _). assert (s' = s) by congruence. subst s'.
    split; [exact I|]. split; [exact B|]. rewrite V. f_equal. apply prod_below_ext. exact I.
Qed.
Lemma new2_counted a c b : 1 <= a -> 1 <= c -> 1 <= b -> exists s, shape_new Release [a; c] b = Ok s /\ counted s (ext2 a c) b.
Proof.
  intros Ha Hc Hb. destruct (@C08_new_without_checks [a; c] b) as (s & E & I & B & V & _); [cbn; lia|repeat constructor; auto|auto|].
  exists s. split; auto. split; [intros i; rewrite I; apply nth2|]. split; auto. rewrite V. f_equal. apply prod_below_ext. intros i. rewrite I. apply nth2.
Qed.
Theorem C05_matmul_without_checks : forall l r, wf l -> wf r ->
  ((exists s, so_matmul Release l r = Ok s) <->
    (forall i, (2 <= i)%nat -> index l i = 1) /\ (forall i, (2 <= i)%nat -> index r i = 1) /\ index l 1 = index r 0 /\ compat (batch l) (batch r)) /\
  forall s, so_matmul Release l r = Ok s -> counted s (ext2 (index l 0) (index r 1)) (N.max (batch l) (batch r)).
Proof.
  intros l r Wl Wr. assert (HB : 1 <= N.max (batch l) (batch r)) by (pose proof (wf_batch Wl); lia).
  destruct (new2_counted (wf_index_pos 0 Wl) (wf_index_pos 1 Wr) HB) as (s0 & E0 & C0).
  split.
  - split.
    + intros (s & E). unfold so_matmul in E. apply assert_bind_Ok in E. destruct E as (E & _). rewrite !andb_true_iff, N.eqb_eq, !is_matrix_iff, compat_iff in E by auto. tauto.
    + intros H. exists s0. unfold so_matmul. apply assert_bind_Ok. split; auto. rewrite !andb_true_iff, N.eqb_eq, !is_matrix_iff, compat_iff by auto. tauto.
  - intros s E. unfold so_matmul in E. apply assert_bind_Ok in E. destruct E as (_ & E). congruence.
Qed.
Theorem C05_transpose_any_build : forall m x, wf x -> so_transpose m x = so_transpose Debug x.
Proof.
  intros m x W. destruct (so_transpose Debug x) as [s| |] eqn:E.
  - apply so_transpose_iff in E; auto. destruct E as (H & HS). unfold so_transpose. apply assert_bind_Ok. split; [apply is_matrix_iff; auto|].
    apply (@is_shape_ext s _ _ (batch x) (nth2 (index x 1) (index x 0))) in HS. pose proof (wf_batch W). assert (ED : shape_new Debug [index x 1; index x 0] (batch x) = Ok s).
    { apply shape_new_iff; [lia|]. split; [cbn; lia|]. split; [repeat constructor; apply wf_index_pos; auto|exact HS]. }
    destruct (shape_new_Debug_inv _ _ ED) as (H1 & H2 & H3 & H4). destruct (@shape_new_Ok m [index x 1; index x 0] (batch x)) as (s' & E' & W' & B' & I'); auto.
    rewrite E'. f_equal. apply (@is_shape_unique s' s (fun i => nth i [index x 1; index x 0] 1) (batch x)); auto. split; auto.
  - unfold so_transpose in *. destruct (is_matrix x) eqn:M; [|reflexivity]. exfalso. cbn [assert bind] in E.
    pose proof (proj1 (is_matrix_iff W) M) as H. assert (V : volume x = index x 0 * index x 1).
    { destruct (C03_l Debug 8 W) as (_ & _ & _ & V). rewrite V. cbn [prod_below]. rewrite (H 2%nat), (H 3%nat), (H 4%nat), (H 5%nat), (H 6%nat), (H 7%nat) by lia. lia. }
    destruct (@shape_new_Ok Debug [index x 1; index x 0] (batch x)) as (s' & E' & _); [cbn; lia|repeat constructor; apply wf_index_pos; auto|apply (wf_batch W)|cbn [prodN fold_right]; pose proof (wf_vol_bound W); nia|congruence].
  - exfalso. unfold so_transpose in E. destruct (is_matrix x); [|discriminate]. cbn [assert bind] in E. exact (shape_new_noUB _ _ _ E).
Qed.
Theorem C06_broadcast_without_checks : forall x dim n, wf x ->
  ((exists s, so_broadcast Release x dim n = Ok s) <-> (dim < 8)%nat /\ index x dim = 1 /\ 1 <= n) /\
  forall s, so_broadcast Release x dim n = Ok s -> counted s (upd_ext x dim n) (batch x).
Proof.
  intros x dim n W. destruct (@resize_counted x dim n W) as (R1 & R2). unfold so_broadcast. split.
  - split.
    + intros (s & E). apply assert_bind_Ok in E. destruct E as (A & E). rewrite andb_true_iff, N.eqb_eq, negb_true_iff, N.eqb_neq in A. assert (D : (dim < 8)%nat /\ 1 <= n) by (apply R1; eauto). tauto.
    + intros (Hd & Hi & Hn). destruct (proj2 R1 (conj Hd Hn)) as (s & E). exists s. apply assert_bind_Ok. split; auto. rewrite andb_true_iff, N.eqb_eq, negb_true_iff, N.eqb_neq. split; auto; lia.
  - intros s E. apply assert_bind_Ok in E. apply R2, E.
Qed.

Lemma add_wraps a b : add32 Release a b = Ok ((a + b) mod two32).
Proof. unfold add32, norm32. destruct (N.ltb_spec (a + b) two32); auto. rewrite N.mod_small; auto. Qed.
Lemma loo_here a b dim : wf a -> wf b -> (dim < 8)%nat -> exists r, has_same_loo_dims Release a b dim = Ok r /\ (r = true <-> forall i, i <> dim -> index a i = index b i).
Proof. intros Wa Wb Hd. apply has_same_loo_dims_Ok; auto. unfold two32; lia. Qed.
(** the loop of concat: accepted operands, the batch, the sum modulo 2^32 *)
Lemma concat_loop dim : (dim < 8)%nat -> forall xs s0 sum, wf s0 -> Forall wf xs -> sum < two32 ->
  (forall s1 sum1, forL xs (concat_body Release dim) (s0, sum) = Ok (s1, sum1) ->
    wf s1 /\ (forall i, index s1 i = index s0 i) /\ Forall (fun x => forall i, i <> dim -> index x i = index s0 i) xs /\
    (forall pre, common_batch pre (batch s0) -> common_batch (pre ++ map batch xs) (batch s1)) /\ sum1 = (sum + sumN (map (fun x => index x dim) xs)) mod two32) /\
  (forall b pre, Forall (fun x => forall i, i <> dim -> index x i = index s0 i) xs -> common_batch pre (batch s0) -> common_batch (pre ++ map batch xs) b ->
    exists r, forL xs (concat_body Release dim) (s0, sum) = Ok r).
Proof.
  intros Hd. induction xs as [|x xs IH]; intros s0 sum W0 Wxs LS.
  - split; [|cbn; eauto]. intros s1 sum1 E. injection E as <- <-. split; auto. split; auto. split; auto. split; [intros pre H; cbn; rewrite app_nil_r; exact H|]. cbn. rewrite N.add_0_r, N.mod_small; auto.
  - inversion Wxs as [|? ? Wx Wxs']; subst. cbn [forL]. unfold concat_body at 1 3. destruct (loo_here W0 Wx Hd) as (r & Er & Hr). rewrite Er. cbn [bind].
    assert (LM : (sum + index x dim) mod two32 < two32) by (apply N.mod_lt; discriminate).
    split.
    + intros s1 sum1 E. apply bind_Ok in E. destruct E as ([s2 sum2] & Eb & E). apply assert_bind_Ok in Eb. destruct Eb as (Ea & Eb). apply andb_true_iff in Ea. destruct Ea as (-> & Ec). apply compat_iff in Ec.
      apply bind_Ok in Eb. destruct Eb as (s2x & Eu & Eb). rewrite add_wraps in Eb. cbn [bind] in Eb. injection Eb as -> <-. pose proof (proj1 Hr eq_refl) as Hloo.
      assert (G : wf s2 /\ (forall i, index s2 i = index s0 i) /\ (forall pre, common_batch pre (batch s0) -> common_batch (pre ++ [batch x]) (batch s2))).
      { unfold has_batch in Eu. destruct (N.eqb_spec (batch s0) 1) as [E1|E1]; cbn [negb] in Eu.
        - destruct (update_batch_wf W0 (proj2 (wf_batch Wx)) Eu) as (W2 & B2 & I2 & _). split; [auto|split; [auto|]]. intros pre (P1 & P2). rewrite B2. split.
          + rewrite Forall_app. split; [|auto]. rewrite Forall_forall in *. intros y Hy. destruct (P1 y Hy); [auto|left; congruence].
          + right; apply in_or_app; right; left; auto.
        - injection Eu as <-. split; [auto|split; [auto|]]. intros pre (P1 & P2). split.
          + rewrite Forall_app. split; [auto|]. constructor; [|auto]. destruct Ec as [?|[?|?]]; auto; congruence.
          + destruct P2; [auto|right; apply in_or_app; auto]. }
      destruct G as (W2 & I2 & C2). destruct (proj1 (IH s2 _ W2 Wxs' LM) s1 sum1 E) as (W1 & I1 & F1 & C1 & S1).
      split; [auto|]. split; [intros i; rewrite I1; auto|]. split; [|split].
      * constructor; [intros; symmetry; auto|]. rewrite Forall_forall in *. intros y Hy i Hi. rewrite (F1 y Hy i Hi); auto.
      * intros pre Hp. cbn [map]. replace (pre ++ batch x :: map batch xs) with ((pre ++ [batch x]) ++ map batch xs) by (rewrite <- app_assoc; auto). apply C1, C2, Hp.
      * cbn [map sumN fold_right]. fold (sumN (map (fun x => index x dim) xs)). rewrite S1, N.add_mod_idemp_l by discriminate. f_equal. lia.
    + intros b pre Hf Hp Hb. inversion Hf as [|? ? Hx Hf']; subst. assert (r = true) as -> by (apply Hr; intros; symmetry; auto).
      assert (Hc : compat (batch s0) (batch x)).
      { destruct Hb as (B1 & B2). destruct Hp as (P1 & P2). rewrite Forall_forall in B1. unfold compat. assert (Bx : batch x = 1 \/ batch x = b) by (apply B1, in_or_app; right; left; auto).
        destruct P2 as [P2|P2]; [auto|]. assert (B0 : batch s0 = 1 \/ batch s0 = b) by (apply B1, in_or_app; auto). destruct Bx, B0; auto. left; congruence. }
      rewrite (proj2 (compat_iff s0 x) Hc). cbn [andb assert bind].
      assert (G : exists s2, (if negb (has_batch s0) then update_batch s0 (batch x) else Ok s0) = Ok s2 /\ wf s2 /\ (forall i, index s2 i = index s0 i) /\ common_batch (pre ++ [batch x]) (batch s2)).
      { unfold has_batch. destruct Hp as (P1 & P2). destruct (N.eqb_spec (batch s0) 1) as [E1|E1]; cbn [negb].
        - pose proof (wf_batch Wx) as Hbx. rewrite update_batch_Ok by lia. eexists; split; [reflexivity|]. split; [apply wf_shape_mk; auto|]. split; [reflexivity|]. cbn [batch]. split.
          + rewrite Forall_app. split; [|auto]. rewrite Forall_forall in *. intros y Hy. destruct (P1 y Hy); [auto|left; congruence].
          + right; apply in_or_app; right; left; auto.
        - eexists; split; [reflexivity|]. split; [auto|]. split; [auto|]. split.
          + rewrite Forall_app. split; [auto|]. constructor; [|auto]. destruct Hc as [?|[?|?]]; auto; congruence.
          + destruct P2; [auto|right; apply in_or_app; auto]. }
      destruct G as (s2 & -> & W2 & I2 & C2). cbn [bind]. rewrite add_wraps. cbn [bind]. apply (proj2 (IH s2 _ W2 Wxs' LM) b (pre ++ [batch x])); auto.
      * rewrite Forall_forall in *. intros y Hy i Hi. rewrite (Hf' y Hy i Hi); auto.
      * rewrite <- app_assoc. exact Hb.
Qed.
(** concat adds the extents modulo 2^32, and refuses when that gives 0 *)
Theorem C06_concat_without_checks : forall xs dim, Forall wf xs ->
  ((exists s, so_concat Release xs dim = Ok s) <->
    exists x0 xs' b, xs = x0 :: xs' /\ (dim < 8)%nat /\ Forall (fun x => forall i, i <> dim -> index x i = index x0 i) xs /\ common_batch (map batch xs) b /\ sum_ext xs dim mod 2 ^ 32 <> 0) /\
  forall s x0 xs', so_concat Release xs dim = Ok s -> xs = x0 :: xs' ->
    common_batch (map batch xs) (batch s) /\ counted s (upd_ext x0 dim (sum_ext xs dim mod 2 ^ 32)) (batch s).
Proof.
  intros xs dim Hw. change (2 ^ 32) with two32.
  assert (FW : forall s x0 xs', so_concat Release xs dim = Ok s -> xs = x0 :: xs' -> (dim < 8)%nat /\ Forall (fun x => forall i, i <> dim -> index x i = index x0 i) xs /\
    common_batch (map batch xs) (batch s) /\ sum_ext xs dim mod two32 <> 0 /\ counted s (upd_ext x0 dim (sum_ext xs dim mod two32)) (batch s)).
  { intros s x0 xs' E ->. destruct (Nat.lt_ge_cases dim 8) as [Hd|Hd]; [|exfalso; apply (@concat_dim_ge8 Release (x0 :: xs') dim s); auto]. inversion Hw as [|? ? W0 Wxs]; subst.
    assert (LI : index x0 dim < two32). { destruct (index_div_volume dim W0) as (q & Eq). pose proof (wf_vol_bound W0) as VB. rewrite Eq in VB. destruct (N.eq_dec q 0) as [->|]; [|nia]. pose proof (prodN_pos (wf_Forall W0)) as PP. rewrite <- (wf_vol W0), Eq in PP. lia. }
    rewrite so_concat_eq in E. apply bind_Ok in E. destruct E as ([s1 sum1] & El & E). cbn [fst snd] in E. destruct (proj1 (@concat_loop dim Hd xs' x0 _ W0 Wxs LI) _ _ El) as (W1 & I1 & F1 & C1 & ->).
    destruct (@resize_counted s1 dim ((index x0 dim + sumN (map (fun x => index x dim) xs')) mod two32) W1) as (R1 & R2). pose proof (R2 s E) as CT.
    destruct (proj1 R1 (ex_intro _ s E)) as (_ & K1). destruct CT as (CI & CB & CV). split; auto. split; [constructor; auto|]. split; [|split].
    - rewrite CB. apply (C1 [batch x0]). split; [auto|right; left; auto].
    - unfold sum_ext. cbn [map sumN fold_right]. fold (sumN (map (fun x => index x dim) xs')). lia.
    - apply counted_ext with (e1 := upd_ext s1 dim ((index x0 dim + sumN (map (fun x => index x dim) xs')) mod two32)); [intros i; unfold upd_ext; rewrite I1; reflexivity|]. split; auto. }
  split.
  - split.
    + intros (s & E). destruct xs as [|x0 xs']; [discriminate|]. destruct (FW s x0 xs' E eq_refl) as (H1 & H2 & H3 & H4 & _). exists x0, xs', (batch s). auto.
    + intros (x0 & xs' & b & -> & Hd & Hf & Hc & HN). inversion Hw as [|? ? W0 Wxs]; subst. inversion Hf as [|? ? _ Hf']; subst.
      assert (LI : index x0 dim < two32). { destruct (index_div_volume dim W0) as (q & Eq). pose proof (wf_vol_bound W0) as VB. rewrite Eq in VB. destruct (N.eq_dec q 0) as [->|]; [|nia]. pose proof (prodN_pos (wf_Forall W0)) as PP. rewrite <- (wf_vol W0), Eq in PP. lia. }
      destruct (@concat_loop dim Hd xs' x0 _ W0 Wxs LI) as (L1 & L2). destruct (L2 b [batch x0] Hf') as ([s1 sum1] & El); auto; [split; [auto|right; left; auto]|].
      destruct (L1 _ _ El) as (W1 & _ & _ & _ & ->). destruct (@resize_counted s1 dim ((index x0 dim + sumN (map (fun x => index x dim) xs')) mod two32) W1) as (R1 & _).
      destruct (proj2 R1) as (s & E). { split; auto. unfold sum_ext in HN. cbn [map sumN fold_right] in HN. fold (sumN (map (fun x => index x dim) xs')) in HN. revert HN. generalize ((index x0 dim + sumN (map (fun x => index x dim) xs')) mod two32). lia. }
      exists s. rewrite so_concat_eq, El. exact E.
  - intros s x0 xs' E EX. destruct (FW s x0 xs' E EX) as (_ & _ & H3 & _ & H5). auto.
Qed.

Lemma batch_loop x0 : wf x0 -> forall xs sum, Forall wf xs -> sum < two32 -> forall r, forL xs (batch_concat_body Release x0) sum = Ok r <->
  Forall (fun x => forall i, index x i = index x0 i) xs /\ r = (sum + sumN (map batch xs)) mod two32.
Proof.
  intros W0. induction xs as [|x xs IH]; intros sum Hw LS r.
  - cbn. rewrite N.add_0_r, N.mod_small by auto. split; [intros E; injection E as <-; auto|intros (_ & ->); auto].
  - inversion Hw as [|? ? Wx Wxs]; subst. cbn [forL]. unfold batch_concat_body at 1. destruct (has_same_dims_Ok W0 Wx) as (sd & -> & Hsd). cbn [bind].
    assert (LM : (sum + batch x) mod two32 < two32) by (apply N.mod_lt; discriminate). cbn [map sumN fold_right]. fold (sumN (map batch xs)). split.
    + intros E. apply bind_Ok in E. destruct E as (sum' & E1 & E). apply assert_bind_Ok in E1. destruct E1 as (-> & E1). rewrite add_wraps in E1. injection E1 as <-. apply IH in E; auto. destruct E as (F & ->).
      split; [constructor; auto; intros i; symmetry; apply Hsd; auto|]. rewrite N.add_mod_idemp_l by discriminate. f_equal. lia.
    + intros (F & ->). inversion F as [|? ? Fx Fxs]; subst. assert (sd = true) as -> by (apply Hsd; intros; symmetry; auto). cbn [assert bind]. rewrite add_wraps. cbn [bind].
      apply IH; auto. split; auto. rewrite N.add_mod_idemp_l by discriminate. f_equal. lia.
Qed.
(** batch_concat adds the batches modulo 2^32, and refuses when that gives 0 *)
Theorem C06_batch_concat_without_checks : forall xs s, Forall wf xs ->
  so_batch_concat Release xs = Ok s <->
  exists x0 xs', xs = x0 :: xs' /\ Forall (fun x => forall i, index x i = index x0 i) xs /\ is_shape s (index x0) (sumN (map batch xs) mod 2 ^ 32).
Proof.
  intros xs s Hw. change (2 ^ 32) with two32. assert (LM : sumN (map batch xs) mod two32 < two32) by (apply N.mod_lt; discriminate). split.
  - intros E. destruct xs as [|x0 xs]; [discriminate|]. inversion Hw as [|? ? W0 Wxs]; subst. rewrite so_batch_concat_eq in E. apply bind_Ok in E. destruct E as (sum & El & E).
    apply batch_loop in El; auto; [|apply (wf_batch W0)]. destruct El as (F & ->). exists x0, xs. split; auto. split; [constructor; auto|]. apply resize_batch_iff in E; auto.
  - intros (x0 & xs' & -> & F & HS). inversion Hw as [|? ? W0 Wxs]; subst. inversion F as [|? ? _ F']; subst. rewrite so_batch_concat_eq.
    assert (El : forL xs' (batch_concat_body Release x0) (batch x0) = Ok (sumN (map batch (x0 :: xs')) mod two32)) by (apply batch_loop; auto; apply (wf_batch W0)).
    rewrite El. cbn [bind]. apply resize_batch_iff; auto.
Qed.
(** the wrong shapes exist: a product of 65537 x 65537 elements is taken for one of 131073, two tensors of 2^31 + 1 columns for one of two columns *)
Theorem C06_release_refuted : exists l r s x y, wf l /\ wf r /\ so_matmul Release l r = Ok s /\ index s 0 = 65537 /\ index s 1 = 65537 /\ volume s = 131073 /\ so_matmul Debug l r = Panic /\
  wf x /\ so_concat Release [x; x] 0 = Ok y /\ index x 0 = 2147483649 /\ index y 0 = 2 /\ so_concat Debug [x; x] 0 = Panic.
Proof.
  destruct (@shape_new_Ok Release [65537] 1) as (l & El & Wl & _); [cbn; lia|repeat constructor; lia|unfold two32; lia|reflexivity|].
  destruct (@shape_new_Ok Release [1; 65537] 1) as (r & Er & Wr & _); [cbn; lia|repeat constructor; lia|unfold two32; lia|reflexivity|].
  destruct (@shape_new_Ok Release [2147483649] 1) as (x & Ex & Wx & _); [cbn; lia|repeat constructor; lia|unfold two32; lia|reflexivity|].
  vm_compute in El, Er, Ex. injection El as <-. injection Er as <-. injection Ex as <-. do 5 eexists. split; [exact Wl|]. split; [exact Wr|]. split; [vm_compute; reflexivity|]. split; [reflexivity|]. split; [reflexivity|]. split; [reflexivity|]. split; [reflexivity|].
  split; [exact Wx|]. split; [vm_compute; reflexivity|]. split; [reflexivity|]. split; reflexivity.
Qed.
