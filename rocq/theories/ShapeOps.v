(** * ShapeOps: model of prima_undine/src/shape_ops.rs *)
From Verif Require Export Shape.
Set Implicit Arguments.
Local Open Scope N_scope.

(** shape_ops.rs L5-8. [&&] short-circuits; both operands are total. *)
Definition so_scalar_op (x k : shape) : res shape :=
  _ <- assert (is_scalar k && has_compatible_batch x k) ;;
  resize_batch x (N.max (batch x) (batch k)).

(** shape_ops.rs L10-13 *)
Definition so_elementwise (a b : shape) : res shape :=
  sd <- has_same_dims a b ;;
  _ <- assert (sd && has_compatible_batch a b) ;;
  resize_batch a (N.max (batch a) (batch b)).

(** shape_ops.rs L15-18 *)
Definition so_broadcast (m : build) (x : shape) (dim : nat) (size : N) : res shape :=
  _ <- assert ((index x dim =? 1) && negb (size =? 0)) ;;
  resize_dim m x dim size.

(** shape_ops.rs L20-23 *)
Definition so_matmul (m : build) (l r : shape) : res shape :=
  _ <- assert (is_matrix l && is_matrix r && (index l 1 =? index r 0) && has_compatible_batch l r) ;;
  shape_new m [index l 0; index r 1] (N.max (batch l) (batch r)).

(** shape_ops.rs L25-28 *)
Definition so_transpose (m : build) (x : shape) : res shape :=
  _ <- assert (is_matrix x) ;;
  shape_new m [index x 1; index x 0] (batch x).

(** shape_ops.rs L30-34 *)
Definition so_slice (m : build) (x : shape) (dim : nat) (lower upper : N) : res shape :=
  _ <- assert (lower <? upper) ;;
  _ <- assert (upper <=? index x dim) ;;
  resize_dim m x dim (upper - lower).

(** [ids.len() as u32] *)
Definition len32 {A} (l : list A) : N := N.of_nat (length l) mod two32.

(** shape_ops.rs L36-44 *)
Definition so_pick (m : build) (x : shape) (ids : list N) (dim : nat) : res shape :=
  let n := index x dim in
  let bi := len32 ids in
  _ <- assert (negb (bi =? 0) && ((batch x =? bi) || negb (has_batch x) || (bi =? 1))) ;;
  _ <- forN (N.to_nat bi) (fun i (_ : unit) => id <- idx ids i ;; assert (id <? n)) tt ;;
  y <- resize_dim m x dim 1 ;;
  resize_batch y (N.max (batch x) bi).

(** shape_ops.rs L46-59 *)
Definition so_concat (m : build) (xs : list shape) (dim : nat) : res shape :=
  _ <- assert (1 <=? length xs)%nat ;;
  s0 <- idx xs 0 ;;
  st <- forR 1 (length xs) (fun i '(s0, sum) =>
          s <- idx xs i ;;
          sl <- has_same_loo_dims m s0 s dim ;;
          _ <- assert (sl && has_compatible_batch s0 s) ;;
          s0' <- (if negb (has_batch s0) then update_batch s0 (batch s) else Ok s0) ;;
          sum' <- add32 m sum (index s dim) ;;
          Ok (s0', sum')) (s0, index s0 dim) ;;
  let '(s0, sum) := st in
  resize_dim m s0 dim sum.

(** shape_ops.rs L61-69 *)
Definition so_batch_pick (x : shape) (ids : list N) : res shape :=
  let n := batch x in
  let bi := len32 ids in
  _ <- assert (negb (bi =? 0)) ;;
  _ <- forL ids (fun id (_ : unit) => assert (id <? n)) tt ;;
  resize_batch x bi.

(** shape_ops.rs L71-74 *)
Definition so_batch_slice (x : shape) (lower upper : N) : res shape :=
  _ <- assert ((lower <? upper) && (upper <=? batch x)) ;;
  resize_batch x (upper - lower).

(** shape_ops.rs L76-86 *)
Definition so_batch_concat (m : build) (xs : list shape) : res shape :=
  _ <- assert (negb (length xs =? 0)%nat) ;;
  s0 <- idx xs 0 ;;
  sum <- forR 1 (length xs) (fun i sum =>
          s <- idx xs i ;;
          sd <- has_same_dims s0 s ;;
          _ <- assert sd ;;
          add32 m sum (batch s)) (batch s0) ;;
  resize_batch s0 sum.

(** ** Characterisations *)

(** two batch sizes that may be combined *)
Definition compat (a b : N) : Prop := a = b \/ a = 1 \/ b = 1.

Lemma compat_iff a b : has_compatible_batch a b = true <-> compat (batch a) (batch b).
Proof. unfold has_compatible_batch, compat. rewrite !orb_true_iff, !N.eqb_eq. tauto. Qed.

(** [s] is the consistent shape with extents [e] and batch [b] *)
Definition is_shape (s : shape) (e : nat -> N) (b : N) : Prop :=
  wf s /\ (forall i, index s i = e i) /\ batch s = b.

Lemma is_shape_unique s1 s2 e b : is_shape s1 e b -> is_shape s2 e b -> s1 = s2.
Proof.
  intros (H1 & H2 & H3) (G1 & G2 & G3). apply wf_ext; auto; [|congruence].
  intros i. rewrite H2, G2; auto.
Qed.

Lemma wf_shape_mk x b : wf x -> 1 <= b < two32 -> wf (mkShape (dims8 x) b (depth x) (volume x)).
Proof. intros [] Hb. constructor; simpl; auto. Qed.

Lemma resize_batch_iff x b s : wf x -> b < two32 ->
  resize_batch x b = Ok s <-> is_shape s (index x) b.
Proof.
  intros H Hb. unfold resize_batch. split.
  - intros E. destruct (update_batch_wf H Hb E) as (W & Eb & Ei & _). split; auto.
  - intros (W & Ei & Eb). pose proof (wf_batch W) as Hb1. rewrite Eb in Hb1.
    rewrite update_batch_Ok by lia. f_equal.
    apply wf_ext; auto.
    all: try (apply wf_shape_mk; auto; lia). intros i. rewrite Ei; reflexivity.
Qed.

Lemma resize_dim_iff x dim k s : wf x ->
  resize_dim Debug x dim k = Ok s <-> (dim < 8)%nat /\ 1 <= k /\ is_shape s (upd_ext x dim k) (batch x).
Proof.
  intros H. unfold resize_dim. split.
  - intros E. destruct (update_dim_Debug_inv _ _ H E) as (Hd & Hk & _).
    destruct (update_dim_Debug_wf _ _ H E) as (W & Eb & Ei & _). repeat split; auto; apply W.
  - intros (Hd & Hk & W & Ei & Eb).
    assert (Hv : volume s = volume x / index x dim * k).
    { rewrite (wf_vol W), (wf_vol H), wf_index by auto.
      rewrite <- prodN_lset; [|rewrite (wf_len H); auto|pose proof (wf_pos H Hd); lia].
      f_equal. apply nth_ext_len with (d := 1); [rewrite lset_length, (wf_len H), (wf_len W); auto|].
      intros i Hi. rewrite <- wf_index by auto. rewrite Ei. rewrite nth_lset by (rewrite (wf_len H); auto).
      unfold upd_ext. rewrite wf_index by auto. reflexivity. }
    destruct (update_dim_Ok Debug H Hd Hk) as (s' & E & W' & Eb' & Ei' & _).
    { rewrite <- Hv; apply W. }
    rewrite E. f_equal. apply wf_ext; auto; [|congruence]. intros i; rewrite Ei', Ei; auto.
Qed.

(** release build: same result whenever the exact volume fits *)
Lemma resize_dim_Ok_any m x dim k s : wf x -> (dim < 8)%nat -> 1 <= k ->
  is_shape s (upd_ext x dim k) (batch x) -> resize_dim m x dim k = Ok s.
Proof.
  intros H Hd Hk HS. assert (E : resize_dim Debug x dim k = Ok s) by (apply resize_dim_iff; auto).
  destruct (update_dim_Debug_inv _ _ H E) as (_ & _ & Hv).
  destruct (update_dim_Ok m H Hd Hk Hv) as (s' & E' & W' & Eb' & Ei' & _).
  unfold resize_dim. rewrite E'. f_equal. apply (@is_shape_unique s' s (upd_ext x dim k) (batch x)); auto.
  split; auto.
Qed.

Lemma shape_new_iff ds b s : b < two32 ->
  shape_new Debug ds b = Ok s <-> (length ds <= 8)%nat /\ Forall (fun d => 1 <= d) ds /\ is_shape s (fun i => nth i ds 1) b.
Proof.
  intros Hb. split.
  - intros E. destruct (shape_new_Debug_inv _ _ E) as (H1 & H2 & H3 & H4).
    destruct (@shape_new_Ok Debug ds b) as (s' & E' & W & Eb & Ei); auto.
    rewrite E in E'. injection E' as <-. repeat split; auto; apply W.
  - intros (Hl & Hp & W & Ei & Eb).
    destruct (@shape_new_Ok Debug ds b) as (s' & E' & W' & Eb' & Ei'); auto.
    + rewrite <- Eb. apply W.
    + rewrite <- prodN_fill. replace (fill ds) with (dims8 s); [rewrite <- (wf_vol W); apply W|].
      apply nth_ext_len with (d := 1); [rewrite fill_length, (wf_len W); auto|].
      intros i _. rewrite nth_fill, <- wf_index by auto. auto.
    + rewrite E'. f_equal. apply wf_ext; auto; [|congruence]. intros i; rewrite Ei', Ei; auto.
Qed.

Lemma is_scalar_iff s : wf s -> is_scalar s = true <-> forall i, index s i = 1.
Proof.
  intros H. unfold is_scalar. pose proof (@depth_le_iff s 0 H) as G.
  rewrite Nat.leb_le in G. rewrite Nat.eqb_eq. split.
  - intros E i. apply G; lia.
  - intros E. assert (depth s <= 0)%nat by (apply G; auto). lia.
Qed.

Lemma is_matrix_iff s : wf s -> is_matrix s = true <-> forall i, (2 <= i)%nat -> index s i = 1.
Proof. intros H. apply depth_le_iff; auto. Qed.

Lemma is_column_vector_iff s : wf s -> is_column_vector s = true <-> forall i, (1 <= i)%nat -> index s i = 1.
Proof. intros H. apply depth_le_iff; auto. Qed.

Lemma max_batch_lt a b : wf a -> wf b -> N.max (batch a) (batch b) < two32.
Proof. intros Ha Hb. pose proof (wf_batch Ha); pose proof (wf_batch Hb). lia. Qed.

Lemma so_scalar_op_iff x k s : wf x -> wf k ->
  so_scalar_op x k = Ok s <->
  (forall i, index k i = 1) /\ compat (batch x) (batch k) /\ is_shape s (index x) (N.max (batch x) (batch k)).
Proof.
  intros Hx Hk. unfold so_scalar_op. rewrite assert_bind_Ok, andb_true_iff, is_scalar_iff, compat_iff by auto.
  rewrite resize_batch_iff by (auto using max_batch_lt). tauto.
Qed.

Lemma so_elementwise_iff a b s : wf a -> wf b ->
  so_elementwise a b = Ok s <->
  (forall i, index a i = index b i) /\ compat (batch a) (batch b) /\ is_shape s (index a) (N.max (batch a) (batch b)).
Proof.
  intros Ha Hb. unfold so_elementwise.
  destruct (has_same_dims_Ok Ha Hb) as (r & -> & Hr). cbn [bind].
  rewrite assert_bind_Ok, andb_true_iff, Hr, compat_iff.
  rewrite resize_batch_iff by (auto using max_batch_lt). tauto.
Qed.

Lemma so_broadcast_iff x dim n s : wf x ->
  so_broadcast Debug x dim n = Ok s <->
  (dim < 8)%nat /\ index x dim = 1 /\ 1 <= n /\ is_shape s (upd_ext x dim n) (batch x).
Proof.
  intros Hx. unfold so_broadcast. rewrite assert_bind_Ok, andb_true_iff, N.eqb_eq, negb_true_iff, N.eqb_neq.
  rewrite resize_dim_iff by auto. split; [intros ((? & ?) & ? & ? & ?)|intros (? & ? & ? & ?)]; ssplit; auto; lia.
Qed.

Definition ext2 (a b : N) (i : nat) : N := match i with O => a | S O => b | _ => 1 end.

Lemma nth2 a b i : nth i [a; b] 1 = ext2 a b i.
Proof. destruct i as [|[|[|i]]]; reflexivity. Qed.

Lemma is_shape_ext s e1 e2 b : (forall i, e1 i = e2 i) -> is_shape s e1 b <-> is_shape s e2 b.
Proof.
  intros H. unfold is_shape. split; intros (W & E & B); repeat split; auto; try apply W; intros i; rewrite E, ?H; auto.
Qed.

Lemma so_matmul_iff l r s : wf l -> wf r ->
  so_matmul Debug l r = Ok s <->
  (forall i, (2 <= i)%nat -> index l i = 1) /\ (forall i, (2 <= i)%nat -> index r i = 1) /\
  index l 1 = index r 0 /\ compat (batch l) (batch r) /\
  is_shape s (ext2 (index l 0) (index r 1)) (N.max (batch l) (batch r)).
Proof.
  intros Hl Hr. unfold so_matmul.
  rewrite assert_bind_Ok, !andb_true_iff, N.eqb_eq, !is_matrix_iff, compat_iff by auto.
  rewrite shape_new_iff by (auto using max_batch_lt).
  rewrite (@is_shape_ext s _ _ _ (nth2 (index l 0) (index r 1))).
  pose proof (wf_index_pos 0 Hl); pose proof (wf_index_pos 1 Hr). split.
  - intros ((((? & ?) & ?) & ?) & ? & ? & ?); auto 6.
  - intros (? & ? & ? & ? & ?). ssplit; auto. simpl; lia.
Qed.

Lemma so_transpose_iff x s : wf x ->
  so_transpose Debug x = Ok s <->
  (forall i, (2 <= i)%nat -> index x i = 1) /\ is_shape s (ext2 (index x 1) (index x 0)) (batch x).
Proof.
  intros Hx. unfold so_transpose. rewrite assert_bind_Ok, is_matrix_iff by auto.
  rewrite shape_new_iff by (apply (wf_batch Hx)).
  rewrite (@is_shape_ext s _ _ _ (nth2 (index x 1) (index x 0))).
  pose proof (wf_index_pos 0 Hx); pose proof (wf_index_pos 1 Hx). split.
  - intros (? & ? & ? & ?); auto.
  - intros (? & ?). ssplit; auto. simpl; lia.
Qed.

(** transposing never overflows *)
Lemma so_transpose_total x : wf x -> (forall i, (2 <= i)%nat -> index x i = 1) -> exists s, so_transpose Debug x = Ok s.
Proof.
  intros Hx H2. unfold so_transpose. rewrite (proj2 (is_matrix_iff Hx) H2). cbn [assert bind].
  destruct (@shape_new_Ok Debug [index x 1; index x 0] (batch x)) as (s & E & _); eauto.
  - simpl; lia.
  - pose proof (wf_index_pos 0 Hx); pose proof (wf_index_pos 1 Hx); auto.
  - apply Hx.
  - pose proof (wf_vol_bound Hx) as Hv. rewrite (wf_vol Hx) in Hv.
    pose proof (prodN_firstn_le 2 (wf_Forall Hx)) as Hp.
    pose proof (wf_len Hx) as Hl. rewrite !wf_index by auto.
    destruct (dims8 x) as [|d0 [|d1 ds]]; simpl in *; try lia.
Qed.

Lemma so_slice_iff x dim lo hi s : wf x ->
  so_slice Debug x dim lo hi = Ok s <->
  (dim < 8)%nat /\ lo < hi /\ hi <= index x dim /\ is_shape s (upd_ext x dim (hi - lo)) (batch x).
Proof.
  intros Hx. unfold so_slice. rewrite !assert_bind_Ok, N.ltb_lt, N.leb_le, resize_dim_iff by auto.
  split; [intros (? & ? & ? & ? & ?)|intros (? & ? & ? & ?)]; ssplit; auto; lia.
Qed.

(** shrinking one extent never overflows *)
Lemma resize_dim_shrink m x dim k : wf x -> (dim < 8)%nat -> 1 <= k <= index x dim -> exists s, resize_dim m x dim k = Ok s.
Proof.
  intros Hx Hd Hk. destruct (@update_dim_Ok m x dim k Hx Hd) as (s & E & _); eauto; [lia|].
  destruct (index_div_volume dim Hx) as (q & Hq). pose proof (wf_vol_bound Hx).
  rewrite Hq, N.div_mul by lia. nia.
Qed.

Lemma forL_unit_Ok A (l : list A) (f : A -> unit -> res unit) u :
  (forall a, In a l -> f a tt = Ok tt) -> forL l f tt = Ok u.
Proof.
  destruct u. induction l as [|a l IH]; intros H; simpl; auto.
  rewrite H by (left; auto). simpl. apply IH; intros; apply H; right; auto.
Qed.

Lemma forL_unit_inv A (l : list A) (f : A -> unit -> res unit) u0 u :
  forL l f u0 = Ok u -> forall a, In a l -> f a tt = Ok tt.
Proof.
  revert u0; induction l as [|a l IH]; intros u0 E b Hb; simpl in *; [tauto|].
  apply bind_Ok in E. destruct E as ([] & E1 & E2). destruct Hb as [->|Hb]; [destruct u0; auto|eauto].
Qed.

Lemma ids_check ids n (u : unit) :
  forN (length ids) (fun i (_ : unit) => id <- idx ids i ;; assert (id <? n)) tt = Ok u <-> Forall (fun id => id < n) ids.
Proof.
  unfold forN. rewrite Forall_forall. split.
  - intros E id Hid. destruct (In_nth _ _ 0 Hid) as (i & Hi & <-).
    pose proof (@forL_unit_inv _ _ _ _ _ E i) as G. rewrite in_seq in G. specialize (G ltac:(lia)).
    rewrite (idx_Ok ids i 0) in G by auto. cbn [bind] in G. apply assert_Ok in G. apply N.ltb_lt; auto.
  - intros H. apply forL_unit_Ok. intros i Hi. apply in_seq in Hi.
    rewrite (idx_Ok ids i 0) by lia. cbn [bind]. apply assert_Ok, N.ltb_lt, H, nth_In; lia.
Qed.

Lemma so_pick_iff x ids dim s : wf x -> N.of_nat (length ids) < two32 ->
  so_pick Debug x ids dim = Ok s <->
  (dim < 8)%nat /\ ids <> [] /\ compat (batch x) (N.of_nat (length ids)) /\
  Forall (fun id => id < index x dim) ids /\
  is_shape s (upd_ext x dim 1) (N.max (batch x) (N.of_nat (length ids))).
Proof.
  intros Hx Hl. unfold so_pick, len32. rewrite N.mod_small by auto. rewrite Nat2N.id.
  rewrite assert_bind_Ok.
  assert (Hc : negb (N.of_nat (length ids) =? 0) && ((batch x =? N.of_nat (length ids)) || negb (has_batch x) || (N.of_nat (length ids) =? 1)) = true
     <-> ids <> [] /\ compat (batch x) (N.of_nat (length ids))).
  { unfold has_batch, compat. rewrite andb_true_iff, !orb_true_iff, negb_true_iff, N.eqb_neq, negb_involutive, !N.eqb_eq.
    assert (N.of_nat (length ids) <> 0 <-> ids <> []) by (destruct ids; simpl; split; [lia|congruence|discriminate|lia]).
    tauto. }
  rewrite Hc. clear Hc.
  pose proof (wf_batch Hx) as Hbx.
  split.
  - intros ((H1 & H2) & E). apply bind_Ok in E. destruct E as (u & E1 & E). apply ids_check in E1.
    apply bind_Ok in E. destruct E as (y & E2 & E). apply resize_dim_iff in E2; auto. destruct E2 as (Hd & _ & Wy & Ey & By).
    apply resize_batch_iff in E; auto; [|lia].
    repeat split; auto; try apply E. intros i. destruct E as (_ & E & _). rewrite E, Ey; auto.
  - intros (Hd & Hne & Hc & Hf & HS). split; [auto|].
    rewrite (proj2 (ids_check _ _ tt) Hf). cbn [bind].
    destruct (@resize_dim_shrink Debug x dim 1 Hx Hd) as (y & E); [pose proof (wf_index_pos dim Hx); lia|].
    rewrite E. cbn [bind]. apply resize_dim_iff in E; auto. destruct E as (_ & _ & Wy & Ey & By).
    apply resize_batch_iff; auto; [lia|]. destruct HS as (W & Ei & Eb). repeat split; auto; try apply W.
    intros i; rewrite Ei, Ey; auto.
Qed.

Lemma so_batch_slice_iff x lo hi s : wf x ->
  so_batch_slice x lo hi = Ok s <-> lo < hi /\ hi <= batch x /\ is_shape s (index x) (hi - lo).
Proof.
  intros Hx. pose proof (wf_batch Hx). unfold so_batch_slice. rewrite assert_bind_Ok, andb_true_iff, N.ltb_lt, N.leb_le.
  split.
  - intros ((H1 & H2) & E). apply resize_batch_iff in E; auto; lia.
  - intros (H1 & H2 & HS). split; auto. apply resize_batch_iff; auto; lia.
Qed.

Lemma so_batch_pick_iff x ids s : wf x -> N.of_nat (length ids) < two32 ->
  so_batch_pick x ids = Ok s <->
  ids <> [] /\ Forall (fun id => id < batch x) ids /\ is_shape s (index x) (N.of_nat (length ids)).
Proof.
  intros Hx Hl. unfold so_batch_pick, len32. rewrite N.mod_small by auto.
  rewrite assert_bind_Ok, negb_true_iff, N.eqb_neq.
  assert (N.of_nat (length ids) <> 0 <-> ids <> []) as -> by (destruct ids; simpl; split; [lia|congruence|discriminate|lia]).
  rewrite Forall_forall. split.
  - intros (H1 & E). apply bind_Ok in E. destruct E as (u & E1 & E). apply resize_batch_iff in E; auto.
    split; [auto|]. split; [|auto]. intros id Hid.
    pose proof (@forL_unit_inv _ _ _ _ _ E1 id Hid) as G. apply assert_Ok in G. apply N.ltb_lt; auto.
  - intros (H1 & H2 & HS). split; auto.
    rewrite (@forL_unit_Ok _ _ _ tt) by (intros a Ha; apply assert_Ok, N.ltb_lt, H2; auto). cbn [bind].
    apply resize_batch_iff; auto.
Qed.

(** sum of a list of numbers *)
Definition sumN (l : list N) : N := fold_right N.add 0 l.
Lemma sumN_app l1 l2 : sumN (l1 ++ l2) = sumN l1 + sumN l2.
Proof. induction l1; simpl; auto. rewrite IHl1; lia. Qed.

Lemma forR_1_cons S A (x0 : A) xs (body : A -> S -> res S) s :
  forR 1 (length (x0 :: xs)) (fun i s => a <- idx (x0 :: xs) i ;; body a s) s = forL xs body s.
Proof.
  unfold forR. cbn [length]. rewrite Nat.sub_succ, Nat.sub_0_r.
  rewrite <- seq_shift, forL_map.
  assert (E : forall n, (n <= length xs)%nat -> forall s,
     forL (seq (length xs - n) n) (fun i s => a <- idx (x0 :: xs) (Datatypes.S i) ;; body a s) s = forL (skipn (length xs - n) xs) body s).
  { induction n as [|n IH]; intros Hn s1.
    - rewrite Nat.sub_0_r, skipn_all. reflexivity.
    - cbn [seq forL].
      set (k := (length xs - Datatypes.S n)%nat). assert (Hk : (k < length xs)%nat) by (unfold k; lia).
      assert (Ek : exists a, nth_error xs k = Some a).
      { destruct (nth_error xs k) eqn:En; eauto. apply nth_error_None in En; lia. }
      destruct Ek as (a & Ea).
      assert (Es : skipn k xs = a :: skipn (Datatypes.S k) xs).
      { clear - Ea. clearbody k. revert xs Ea; induction k as [|k IHk]; intros [|y ys] E; simpl in *; try discriminate.
        - injection E as ->; auto.
        - apply IHk; auto. }
      rewrite Es. cbn [forL]. unfold idx at 1. cbn [nth_error]. rewrite Ea. cbn [bind].
      apply bind_ext. intros s2 _.
      replace (Datatypes.S k) with (length xs - n)%nat by (unfold k; lia). apply IH; lia. }
  specialize (E (length xs) (Nat.le_refl _) s). rewrite Nat.sub_diag in E. rewrite E. reflexivity.
Qed.

(** concat after its first argument, as a loop over the remaining shapes *)
Definition concat_body (m : build) (dim : nat) (s : shape) (st : shape * N) : res (shape * N) :=
  let '(s0, sum) := st in
  sl <- has_same_loo_dims m s0 s dim ;;
  _ <- assert (sl && has_compatible_batch s0 s) ;;
  s0' <- (if negb (has_batch s0) then update_batch s0 (batch s) else Ok s0) ;;
  sum' <- add32 m sum (index s dim) ;;
  Ok (s0', sum').

Lemma so_concat_eq m x0 xs dim :
  so_concat m (x0 :: xs) dim =
  (st <- forL xs (concat_body m dim) (x0, index x0 dim) ;; resize_dim m (fst st) dim (snd st)).
Proof.
  unfold so_concat. cbn [assert bind length Nat.leb]. cbn [idx nth_error bind].
  rewrite <- (@forR_1_cons _ _ x0 xs (concat_body m dim) (x0, index x0 dim)).
  unfold forR. rewrite (@forL_ext _ _ _ _ (fun i s => a <- idx (x0 :: xs) i ;; concat_body m dim a s)).
  - apply bind_ext. intros [s0 sum] _. reflexivity.
  - intros i [s0 sum] _. reflexivity.
Qed.

(** the common batch of a list of batches: all are 1 or equal to it *)
Definition common_batch (bs : list N) (b : N) : Prop :=
  Forall (fun x => x = 1 \/ x = b) bs /\ (b = 1 \/ In b bs).

Lemma common_batch_unique bs b1 b2 : common_batch bs b1 -> common_batch bs b2 -> b1 = b2.
Proof.
  intros (H1 & H2) (G1 & G2). rewrite Forall_forall in *.
  destruct H2 as [->|H2]; destruct G2 as [->|G2]; auto.
  - destruct (H1 _ G2); auto.
  - destruct (G1 _ H2); auto.
  - destruct (G1 _ H2) as [->|]; auto. destruct (H1 _ G2); auto.
Qed.

(** accepted operands of a concatenation along dim *)
Definition concat_ok (xs : list shape) (dim : nat) (b : N) : Prop :=
  exists x0 xs', xs = x0 :: xs' /\
   Forall (fun x => forall i, i <> dim -> index x i = index x0 i) xs /\
   common_batch (map batch xs) b.

Lemma loo_any m a b dim r : wf a -> wf b -> (dim < 8)%nat -> has_same_loo_dims m a b dim = Ok r ->
  (r = true <-> forall i, i <> dim -> index a i = index b i).
Proof.
  intros Ha Hb Hd E. destruct (@has_same_loo_dims_Ok m a b dim Ha Hb) as (r' & E' & H).
  - unfold two32; lia.
  - rewrite E in E'; injection E' as ->. exact H.
Qed.

Lemma concat_loop_fwd xs dim s0 sum s1 sum1 : (dim < 8)%nat -> wf s0 -> Forall wf xs ->
  forL xs (concat_body Debug dim) (s0, sum) = Ok (s1, sum1) ->
  wf s1 /\ (forall i, index s1 i = index s0 i) /\
  Forall (fun x => forall i, i <> dim -> index x i = index s0 i) xs /\
  (forall pre, common_batch pre (batch s0) -> common_batch (pre ++ map batch xs) (batch s1)) /\
  sum1 = sum + sumN (map (fun x => index x dim) xs).
Proof.
  intros Hd. revert s0 sum. induction xs as [|x xs IH]; intros s0 sum W0 Wxs E.
  - injection E as <- <-. ssplit; auto; simpl; try lia.
    intros pre H; rewrite app_nil_r; exact H.
  - cbn [forL] in E. apply bind_Ok in E. destruct E as ([s2 sum2] & Eb & E).
    inversion Wxs as [|? ? Wx Wxs']; subst.
    unfold concat_body in Eb. apply bind_Ok in Eb. destruct Eb as (sl & El & Eb).
    apply assert_bind_Ok in Eb. destruct Eb as (Ea & Eb). apply andb_true_iff in Ea. destruct Ea as (-> & Ec).
    apply bind_Ok in Eb. destruct Eb as (s2x & Eu & Eb). apply bind_Ok in Eb. destruct Eb as (sum2' & Es & Eb).
    injection Eb as -> ->. apply norm32_Debug in Es. destruct Es as (_ & ->).
    pose proof (proj1 (loo_any _ W0 Wx Hd El) eq_refl) as Hloo.
    apply compat_iff in Ec.
    assert (G : wf s2 /\ (forall i, index s2 i = index s0 i) /\
       (forall pre, common_batch pre (batch s0) -> common_batch (pre ++ [batch x]) (batch s2))).
    { unfold has_batch in Eu. destruct (N.eqb_spec (batch s0) 1) as [E1|E1]; cbn [negb] in Eu.
      - destruct (update_batch_wf W0 (proj2 (wf_batch Wx)) Eu) as (W2 & B2 & I2 & _).
        split; [auto|split; [auto|]]. intros pre (P1 & P2). rewrite B2. split.
        + rewrite Forall_app. split; [|auto]. rewrite Forall_forall in *. intros y Hy.
          destruct (P1 y Hy); [auto|left; congruence].
        + right; apply in_or_app; right; left; auto.
      - injection Eu as <-. split; [auto|split; [auto|]]. intros pre (P1 & P2). split.
        + rewrite Forall_app. split; [auto|]. constructor; [|auto]. destruct Ec as [?|[?|?]]; auto; congruence.
        + destruct P2; [auto|right; apply in_or_app; auto]. }
    destruct G as (W2 & I2 & C2).
    destruct (IH _ _ W2 Wxs' E) as (W1 & I1 & F1 & C1 & S1).
    split; [auto|]. split; [intros i; rewrite I1; auto|]. split; [|split].
    + constructor; [intros; symmetry; auto|]. rewrite Forall_forall in *. intros y Hy i Hi. rewrite (F1 y Hy i Hi); auto.
    + intros pre Hp. cbn [map]. replace (pre ++ batch x :: map batch xs) with ((pre ++ [batch x]) ++ map batch xs) by (rewrite <- app_assoc; auto).
      apply C1, C2, Hp.
    + cbn [map sumN fold_right]. fold (sumN (map (fun x => index x dim) xs)). lia.
Qed.

Lemma concat_loop_bwd xs dim s0 sum b pre : (dim < 8)%nat -> wf s0 -> Forall wf xs ->
  Forall (fun x => forall i, i <> dim -> index x i = index s0 i) xs ->
  common_batch pre (batch s0) -> common_batch (pre ++ map batch xs) b ->
  sum + sumN (map (fun x => index x dim) xs) < two32 ->
  exists s1 sum1, forL xs (concat_body Debug dim) (s0, sum) = Ok (s1, sum1).
Proof.
  intros Hd. revert s0 sum pre. induction xs as [|x xs IH]; intros s0 sum pre W0 Wxs Hf Hp Hb Hs.
  - simpl. eauto.
  - inversion Wxs as [|? ? Wx Wxs']; subst. inversion Hf as [|? ? Hx Hf']; subst.
    cbn [map sumN fold_right] in Hs. fold (sumN (map (fun x => index x dim) xs)) in Hs.
    cbn [forL]. unfold concat_body at 1.
    destruct (@has_same_loo_dims_Ok Debug s0 x dim W0 Wx) as (r & Er & Hr); [unfold two32; lia|].
    rewrite Er. cbn [bind].
    assert (r = true) as -> by (apply Hr; intros; symmetry; auto).
    assert (Hc : compat (batch s0) (batch x)).
    { destruct Hb as (B1 & B2). destruct Hp as (P1 & P2). rewrite Forall_forall in B1. unfold compat.
      assert (Bx : batch x = 1 \/ batch x = b) by (apply B1, in_or_app; right; left; auto).
      destruct P2 as [P2|P2]; [auto|].
      assert (B0 : batch s0 = 1 \/ batch s0 = b) by (apply B1, in_or_app; auto).
      destruct Bx, B0; auto. left; congruence. }
    rewrite (proj2 (compat_iff s0 x) Hc). cbn [andb assert bind].
    assert (G : exists s2, (if negb (has_batch s0) then update_batch s0 (batch x) else Ok s0) = Ok s2 /\ wf s2 /\
        (forall i, index s2 i = index s0 i) /\ common_batch (pre ++ [batch x]) (batch s2)).
    { unfold has_batch. destruct Hp as (P1 & P2). destruct (N.eqb_spec (batch s0) 1) as [E1|E1]; cbn [negb].
      - pose proof (wf_batch Wx) as Hbx. rewrite update_batch_Ok by lia. eexists; split; [reflexivity|].
        split; [apply wf_shape_mk; auto|]. split; [reflexivity|]. cbn [batch]. split.
        + rewrite Forall_app. split; [|auto]. rewrite Forall_forall in *. intros y Hy.
          destruct (P1 y Hy); [auto|left; congruence].
        + right; apply in_or_app; right; left; auto.
      - eexists; split; [reflexivity|]. split; [auto|]. split; [auto|]. split.
        + rewrite Forall_app. split; [auto|]. constructor; [|auto]. destruct Hc as [?|[?|?]]; auto; congruence.
        + destruct P2; [auto|right; apply in_or_app; auto]. }
    destruct G as (s2 & -> & W2 & I2 & C2). cbn [bind].
    unfold add32. rewrite norm32_lt by lia. cbn [bind].
    apply (IH s2 _ (pre ++ [batch x])); auto; try lia.
    + rewrite Forall_forall in *. intros y Hy i Hi. rewrite (Hf' y Hy i Hi); auto.
    + rewrite <- app_assoc. exact Hb.
Qed.

Definition sum_ext (xs : list shape) (dim : nat) : N := sumN (map (fun x => index x dim) xs).

Lemma concat_dim_ge8 m xs dim s : (8 <= dim)%nat -> so_concat m xs dim <> Ok s.
Proof.
  intros Hd E. destruct xs as [|x0 xs]; [discriminate|]. rewrite so_concat_eq in E.
  apply bind_Ok in E. destruct E as (st & _ & E). unfold resize_dim in E.
  rewrite update_dim_Panic in E by auto. discriminate.
Qed.

Lemma so_concat_iff xs dim s : Forall wf xs ->
  so_concat Debug xs dim = Ok s <->
  exists x0 xs', xs = x0 :: xs' /\ (dim < 8)%nat /\
    Forall (fun x => forall i, i <> dim -> index x i = index x0 i) xs /\
    common_batch (map batch xs) (batch s) /\
    is_shape s (upd_ext x0 dim (sum_ext xs dim)) (batch s).
Proof.
  intros Hw. split.
  - intros E. destruct (Nat.lt_ge_cases dim 8) as [Hd|Hd]; [|exfalso; apply (@concat_dim_ge8 Debug xs dim s); auto].
    destruct xs as [|x0 xs]; [discriminate|]. inversion Hw as [|? ? W0 Wxs]; subst.
    rewrite so_concat_eq in E. apply bind_Ok in E. destruct E as ([s1 sum1] & El & E). cbn [fst snd] in E.
    destruct (concat_loop_fwd _ Hd W0 Wxs El) as (W1 & I1 & F1 & C1 & ->).
    apply resize_dim_iff in E; auto. destruct E as (_ & Hk & Ws & Es & Bs).
    exists x0, xs. split; [auto|]. split; [auto|]. split; [constructor; auto|]. split.
    + rewrite Bs. apply (C1 [batch x0]). split; [auto|right; left; auto].
    + split; [auto|split; [|auto]]. intros i. rewrite Es. unfold upd_ext, sum_ext. cbn [map sumN fold_right].
      destruct (i =? dim)%nat; auto.
  - intros (x0 & xs' & -> & Hd & Hf & Hc & Ws & Es & _).
    inversion Hw as [|? ? W0 Wxs]; subst. inversion Hf as [|? ? _ Hf']; subst.
    assert (Hsum : index x0 dim + sumN (map (fun x => index x dim) xs') < two32).
    { pose proof (Es dim) as E. unfold upd_ext, sum_ext in E. rewrite Nat.eqb_refl in E. cbn [map sumN fold_right] in E.
      fold (sumN (map (fun x => index x dim) xs')) in E. rewrite <- E.
      destruct (index_div_volume dim Ws) as (q & Hq). pose proof (wf_vol_bound Ws) as Hv. rewrite Hq in Hv.
      pose proof (wf_vol Ws) as Hvol. pose proof (prodN_pos (wf_Forall Ws)) as Hpos. rewrite <- Hvol, Hq in Hpos.
      assert (q <> 0) by (intros ->; lia). nia. }
    destruct (@concat_loop_bwd xs' dim x0 (index x0 dim) (batch s) [batch x0] Hd W0 Wxs Hf') as (s1 & sum1 & El); auto.
    { split; [auto|right; left; auto]. }
    rewrite so_concat_eq, El. cbn [bind fst snd].
    destruct (concat_loop_fwd _ Hd W0 Wxs El) as (W1 & I1 & F1 & C1 & ->).
    apply resize_dim_iff; auto. split; [auto|]. split; [pose proof (wf_index_pos dim W0); lia|].
    split; [auto|]. split.
    + intros i. rewrite Es. unfold upd_ext, sum_ext. cbn [map sumN fold_right]. destruct (i =? dim)%nat; auto.
    + apply (@common_batch_unique (map batch (x0 :: xs'))); auto.
      apply (C1 [batch x0]). split; [auto|right; left; auto].
Qed.

Definition batch_concat_body (m : build) (s0 s : shape) (sum : N) : res N :=
  sd <- has_same_dims s0 s ;; _ <- assert sd ;; add32 m sum (batch s).

Lemma so_batch_concat_eq m x0 xs :
  so_batch_concat m (x0 :: xs) = (sum <- forL xs (batch_concat_body m x0) (batch x0) ;; resize_batch x0 sum).
Proof.
  unfold so_batch_concat. cbn [length Nat.eqb negb assert bind]. cbn [idx nth_error bind].
  rewrite <- (@forR_1_cons _ _ x0 xs (batch_concat_body m x0) (batch x0)). reflexivity.
Qed.

Lemma batch_concat_loop x0 xs sum r : wf x0 -> Forall wf xs -> sum < two32 ->
  forL xs (batch_concat_body Debug x0) sum = Ok r <->
  Forall (fun x => forall i, index x i = index x0 i) xs /\ r = sum + sumN (map batch xs) /\ r < two32.
Proof.
  intros W0. revert sum. induction xs as [|x xs IH]; intros sum Hw Hlt.
  - simpl. split; [intros E; injection E as <-; repeat split; auto; lia|intros (_ & -> & _); f_equal; lia].
  - inversion Hw as [|? ? Wx Wxs]; subst. cbn [forL]. unfold batch_concat_body at 1.
    destruct (has_same_dims_Ok W0 Wx) as (sd & -> & Hsd). cbn [bind].
    cbn [map sumN fold_right]. fold (sumN (map batch xs)). split.
    + intros E. apply bind_Ok in E. destruct E as (sum' & E1 & E). apply assert_bind_Ok in E1. destruct E1 as (-> & E1).
      apply norm32_Debug in E1. destruct E1 as (Hlt' & ->).
      apply IH in E; auto. destruct E as (F & -> & Hr). repeat split; auto; try lia.
      constructor; auto. intros i; symmetry; apply Hsd; auto.
    + intros (F & -> & Hr). inversion F as [|? ? Fx Fxs]; subst.
      assert (sd = true) as -> by (apply Hsd; intros; symmetry; auto). cbn [assert bind].
      unfold add32. rewrite norm32_lt by lia. cbn [bind]. apply IH; auto; try lia. repeat split; auto; lia.
Qed.

Lemma so_batch_concat_iff xs s : Forall wf xs ->
  so_batch_concat Debug xs = Ok s <->
  exists x0 xs', xs = x0 :: xs' /\ Forall (fun x => forall i, index x i = index x0 i) xs /\
    is_shape s (index x0) (sumN (map batch xs)).
Proof.
  intros Hw. split.
  - intros E. destruct xs as [|x0 xs]; [discriminate|]. inversion Hw as [|? ? W0 Wxs]; subst.
    rewrite so_batch_concat_eq in E. apply bind_Ok in E. destruct E as (sum & El & E).
    apply batch_concat_loop in El; auto; [|apply (wf_batch W0)]. destruct El as (F & -> & Hr).
    apply resize_batch_iff in E; auto. exists x0, xs. repeat split; auto; apply E.
  - intros (x0 & xs' & -> & F & HS). inversion Hw as [|? ? W0 Wxs]; subst. inversion F as [|? ? _ F']; subst.
    cbn [map sumN fold_right] in HS. fold (sumN (map batch xs')) in HS.
    assert (Hlt : batch x0 + sumN (map batch xs') < two32).
    { destruct HS as (W & _ & B). rewrite <- B. apply W. }
    rewrite so_batch_concat_eq.
    rewrite (proj2 (@batch_concat_loop x0 xs' (batch x0) (batch x0 + sumN (map batch xs')) W0 Wxs (proj2 (wf_batch W0)))).
    + cbn [bind]. apply resize_batch_iff; auto.
    + repeat split; auto.
Qed.
