(** * Fresh2: the contents of new buffers do not matter: the remaining tensor functions (lemmas) *)
From Verif Require Export Fresh CallFacts CallRel.
Set Implicit Arguments.
Unset Strict Implicit.

Lemma forL_reached A S (f : A -> S -> res S) l : forall s v a, forL l f s = Ok v -> In a l -> exists s1 s2, f a s1 = Ok s2.
Proof.
  induction l as [|b l IH]; intros s v a E Hin; [destruct Hin|]. cbn in E. apply bind_Ok in E. destruct E as (s1 & E1 & E2). destruct Hin as [->|Hin]; eauto.
Qed.
Lemma forN_reached S (f : nat -> S -> res S) n s v i : forN n f s = Ok v -> i < n -> exists s1 s2, f i s1 = Ok s2.
Proof. intros E Hi. eapply forL_reached; [exact E|]. apply in_seq. lia. Qed.

Section More.
Variable K : num.
Notation F := (F K).
Notation tensor := (tensor K).
Notation oracle := (alloc_oracle K).
Implicit Types (d : nat) (al : oracle) (x y a b : tensor).
(** *** triangular: succeeds only if no index overflows *)
Lemma tri_bound upper x k y v : wf (t_shape x) -> wf (t_shape y) -> k_triangular Debug upper x k y = Ok v -> (N.of_nat (ext (t_shape x) 0) + k <= two32)%N.
Proof.
  intros Wx Wy E. unfold k_triangular in E. cbv zeta in E. apply bind_Ok in E. destruct E as (px & _ & E). apply bind_Ok in E. destruct E as (py & _ & E). apply bind_Ok in E. destruct E as (st & E & _).
  pose proof (ext_pos 0 Wx) as H1. pose proof (wf_batch Wy) as H2. change (N.to_nat (index (t_shape x) 0)) with (ext (t_shape x) 0) in E. set (n := ext (t_shape x) 0) in *.
  destruct (@forN_reached _ _ _ _ _ 0 E) as (s1 & s2 & E1); [lia|]. destruct (@forN_reached _ _ _ _ _ (n - 1) E1) as (s3 & s4 & E2); [lia|]. destruct (@forN_reached _ _ _ _ _ (n - 1) E2) as ([p3 l3] & s6 & E3); [lia|].
  apply bind_Ok in E3. destruct E3 as (kp & E3 & _). destruct upper; apply bind_Ok in E3; destruct E3 as (w & E3 & _); unfold add32, norm32 in E3; destruct (N.ltb_spec (N.of_nat (n - 1) + k) two32); try discriminate; change two32 with 4294967296%N in *; lia.
Qed.
Lemma u_triangular (upper : bool) d al al' x k (f := fun al => if upper then triangular_u_fw Debug d al x k else triangular_l_fw Debug d al x k) : al_exact al -> al_exact al' -> sane x -> le_res (f al) (f al').
Proof.
  intros HA HA' Sx. pose proof (sane_wf Sx) as W. unfold f.
  assert (G : forall name, assoc (fw_registry K Debug) name = Some (fxu (k_triangular Debug upper)) -> name = (if upper then "triangular_u_fw_impl" else "triangular_l_fw_impl")%string ->
    le_res (triangular_fw Debug name d al x k) (triangular_fw Debug name d al' x k)).
  { intros name HN Hname. destruct (le_gt_dec 1 0); [lia|]. destruct (N.le_gt_cases (N.of_nat (ext (t_shape x) 0) + k) two32) as [HK|HK].
    - intros v E. pose proof (@u_one K d al al' x (_ <- assert (is_matrix (t_shape x) && (index (t_shape x) 0 =? index (t_shape x) 1)%N) ;; Ok (t_shape x)) name [x] [k] [] HA HA' Sx) as U. cbv zeta in U.
      unfold triangular_fw in *. destruct (is_matrix (t_shape x) && (index (t_shape x) 0 =? index (t_shape x) 1)%N) eqn:EM; cbn [assert bind] in *; [|apply bind_Ok in E; destruct E as (? & _ & E); discriminate].
      apply U; auto.
      + intros s E1. inversion E1; subst; auto.
      + intros B y. unfold call_fw. rewrite HN. unfold fxu, k_triangular. nv B.
      + intros s E1 R Fs. apply andb_true_iff in EM. destruct EM as (M1 & M2). pose proof (proj1 (is_matrix_iff W) M1) as M1x. clear M1. rename M1x into M1. apply N.eqb_eq in M2. destruct upper; subst name; (eapply pinned_flat; intros al1 H1; exists (t_shape x));
        [pose proof (@triangular_flat K Debug true d al1 x k H1 R (to_matrix M1)) as Y|pose proof (@triangular_flat K Debug false d al1 x k H1 R (to_matrix M1)) as Y]; cbv zeta in Y; specialize (Y ltac:(unfold ext; congruence) HK);
        unfold triangular_u_fw, triangular_l_fw, triangular_fw in Y; rewrite (proj2 (andb_true_iff _ _) (conj (proj2 (is_matrix_iff W) M1) (proj2 (N.eqb_eq _ _) M2))) in Y; cbn [assert bind] in Y; exact Y.
    - intros v E. exfalso. unfold triangular_fw in E. apply bind_Ok in E. destruct E as (q & E0 & E). apply bind_Ok in E. destruct E as (q' & _ & E). apply bind_Ok in E. destruct E as (y & EA & E).
      unfold call_fw in E. rewrite HN in E. unfold fxu in E. cbn [idx nth_error bind] in E. apply tri_bound in E; auto; [lia|]. destruct (alloc_exact HA W EA) as (-> & _). exact W. }
  destruct upper; apply G; reflexivity.
Qed.
(** *** creating and copying *)
Lemma u_new_then d al al' s (k : tensor -> res tensor) : al_exact al -> al_exact al' -> wf s ->
  (fits s -> forall y y', ready d y -> ready d y' -> t_shape y = s -> t_shape y' = s -> tight y -> tight y' -> le_res (k y) (k y')) ->
  le_res (y <- new_alloc Debug d al s ;; k y) (y <- new_alloc Debug d al' s ;; k y).
Proof.
  intros HA HA' W HK v E. apply bind_Ok in E. destruct E as (y & EA & E). pose proof (new_alloc_fits (exact_ok HA) W EA) as Fs.
  destruct (@new_alloc_Ok K Debug d al' s (exact_ok HA') Fs) as (l' & EA' & L'). rewrite EA'. cbn [bind]. destruct (@new_alloc_Ok K Debug d al s (exact_ok HA) Fs) as (l & EA1 & L). rewrite EA1 in EA. inversion EA; subst y.
  destruct (alloc_exact HA W EA1) as (S1 & T1). destruct (alloc_exact HA' W EA') as (S2 & T2). apply (HK Fs) with (y := mkTensor (Some d) s (Some l) None); auto using new_ready; unfold tight; congruence.
Qed.
(** a function that writes every element *)
Lemma fills_same d (k : tensor -> res tensor) f y y' : ready d y -> ready d y' -> t_shape y = t_shape y' -> tight y -> tight y' -> lenk (k y) y -> lenk (k y') y' ->
  updates (k y) y f -> updates (k y') y' f -> le_res (k y) (k y').
Proof.
  intros R R' ES T T' L L' U U' v E. destruct (updates_flat R U) as (z & Ez & Rz & Sz & Vz). destruct (updates_flat R' U') as (z' & Ez' & Rz' & Sz' & Vz'). rewrite E in Ez. inversion Ez; subst z. rewrite Ez'. f_equal.
  destruct (L v E) as (_ & _ & _ & L4). destruct (L' z' Ez') as (_ & _ & _ & L4'). symmetry. apply tensor_same with (d := d); auto; unfold tight in *; try congruence. intros p Hp. rewrite Vz, Vz' by congruence. reflexivity.
Qed.
Lemma len_by_slice y vs : lenk (reset_tensor_by_slice Debug y vs) y.
Proof. unfold reset_tensor_by_slice. apply lenk_any. intros. apply lenk_any. intros. apply call_fw_len. Qed.
Lemma len_by_tensor y x : lenk (reset_tensor_by_tensor Debug y x) y.
Proof. unfold reset_tensor_by_tensor. do 5 (apply lenk_any; intros). apply call_fw_len. Qed.
Lemma len_reset_t y k : lenk (reset Debug y k) y.
Proof. unfold reset. apply lenk_any. intros. apply call_fw_len. Qed.
Lemma u_by_slice d y y' vs : ready d y -> ready d y' -> t_shape y = t_shape y' -> tight y -> tight y' -> le_res (reset_tensor_by_slice Debug y vs) (reset_tensor_by_slice Debug y' vs).
Proof.
  intros R R' ES T T'. destruct (Nat.eqb_spec (tot (t_shape y)) (length vs)) as [E|E].
  - eapply fills_same with (k := fun y => reset_tensor_by_slice Debug y vs); eauto using len_by_slice; apply by_slice_updates with (d := d); auto; congruence.
  - intros v EV. unfold reset_tensor_by_slice in EV. rewrite (fits_size Debug (ready_fits R)) in EV. cbn [bind] in EV. rewrite Nat2N.id in EV. apply Nat.eqb_neq in E. rewrite E in EV. discriminate.
Qed.
Lemma u_constant d al al' s k : al_exact al -> al_exact al' -> wf s -> le_res (new_tensor_by_constant Debug d al s k) (new_tensor_by_constant Debug d al' s k).
Proof.
  intros HA HA' W. apply u_new_then; auto. intros Fs y y' R R' S1 S2 T1 T2. apply (@fills_same d (fun y => reset Debug y k) (fun _ => k)); auto using len_reset_t; try congruence; eapply reset_updates; eauto.
Qed.
Lemma u_new_slice d al al' s vs : al_exact al -> al_exact al' -> wf s -> le_res (new_tensor_by_slice Debug d al s vs) (new_tensor_by_slice Debug d al' s vs).
Proof. intros HA HA' W. apply u_new_then; auto. intros Fs y y' R R' S1 S2 T1 T2. apply u_by_slice with (d := d); auto. congruence. Qed.
Lemma u_copy d al al' x : al_exact al -> al_exact al' -> sane x -> le_res (copy_tensor Debug d al x) (copy_tensor Debug d al' x).
Proof.
  intros HA HA' Sx. apply u_new_then; auto using sane_wf. intros Fs y y' R R' S1 S2 T1 T2. destruct (t_buf x) as [l|] eqn:B.
  - destruct (sane_buf Sx B) as (d' & Rx). eapply fills_same with (k := fun y => reset_tensor_by_tensor Debug y x); eauto using len_by_tensor; [congruence| |]; eapply by_tensor_updates; eauto; congruence.
  - intros v E. unfold reset_tensor_by_tensor, valid in E. rewrite B in E. apply bind_Ok in E. destruct E as (? & _ & E). discriminate.
Qed.
Lemma u_move d al al' x : al_exact al -> al_exact al' -> sane x -> le_res (move_to_device Debug d al x) (move_to_device Debug d al' x).
Proof.
  intros HA HA' Sx v E. pose proof (@u_new_slice d al al' (t_shape x)) as U. unfold move_to_device in *. destruct (t_host x) as [vs|]; [|discriminate]. cbn [assert bind unwrap] in *.
  specialize (U vs HA HA' (sane_wf Sx)). unfold new_tensor_by_slice, new_alloc, alloc, new_tensor in U. cbn [valid t_buf t_host t_dev t_shape negb assert bind device_of unwrap] in U.
  destruct (size Debug (t_shape x)) as [n| |]; try discriminate. cbn [bind] in *. destruct (al n) as [l| |]; try discriminate. cbn [bind] in *. specialize (U v E). destruct (al' n) as [l'| |]; try discriminate. exact U.
Qed.
Lemma u_via A x (k k' : nat -> res A) : (forall d, le_res (k d) (k' d)) -> le_res (d <- device_of x ;; k d) (d <- device_of x ;; k' d).
Proof. intros H. apply le_bind; [apply Mode.le_refl|auto]. Qed.
Lemma u_reshape al al' x s : al_exact al -> al_exact al' -> sane x -> le_res (t_reshape Debug al x s) (t_reshape Debug al' x s).
Proof. intros HA HA' Sx. apply u_via. intros d. apply le_bind; [apply u_copy; auto|]. intros; apply Mode.le_refl. Qed.
Lemma u_flatten al al' x : al_exact al -> al_exact al' -> sane x -> le_res (t_flatten Debug al x) (t_flatten Debug al' x).
Proof. intros HA HA' Sx. apply le_bind; [apply Mode.le_refl|]. intros. apply u_reshape; auto. Qed.
(** *** joining *)
Lemma exts_pos_split (xs : list tensor) e p : p < exts xs e -> exists l1 x l2 q, xs = l1 ++ x :: l2 /\ q < ext (t_shape x) e /\ p = q + exts l1 e.
Proof.
  revert p. induction xs as [|x xs IH]; intros p Hp; [cbn in Hp; lia|]. cbn [exts fold_right] in Hp. fold (exts xs e) in Hp. destruct (Nat.lt_ge_cases p (ext (t_shape x) e)) as [H|H].
  - exists [], x, xs, p. cbn. auto with arith.
  - destruct (IH (p - ext (t_shape x) e)) as (l1 & x' & l2 & q & -> & Hq & E); [lia|]. exists (x :: l1), x', l2, q. repeat split; auto. cbn [exts fold_right]. fold (exts l1 e). lia.
Qed.
Lemma bats_pos_split (xs : list tensor) p : p < bats xs -> exists l1 x l2 q, xs = l1 ++ x :: l2 /\ q < bat (t_shape x) /\ p = q + bats l1.
Proof.
  revert p. induction xs as [|x xs IH]; intros p Hp; [cbn in Hp; lia|]. cbn [bats fold_right] in Hp. fold (bats xs) in Hp. destruct (Nat.lt_ge_cases p (bat (t_shape x))) as [H|H].
  - exists [], x, xs, p. cbn. auto with arith.
  - destruct (IH (p - bat (t_shape x))) as (l1 & x' & l2 & q & -> & Hq & E); [lia|]. exists (x :: l1), x', l2, q. repeat split; auto. cbn [bats fold_right]. fold (bats l1). lia.
Qed.
Lemma no_buf_concat (xs : list tensor) x dim y : In x xs -> t_buf x = None -> never (call_fw Debug "concat_fw_impl" xs [dim] [] y).
Proof.
  intros Hin B v E. unfold call_fw in E. cbn [assoc fw_registry String.eqb Ascii.eqb Bool.eqb idx nth_error bind] in E. unfold k_concat in E. cbv zeta in E. apply bind_Ok in E. destruct E as (w & _ & E). apply bind_Ok in E. destruct E as (st & E & _).
  destruct (forL_reached E Hin) as ([o z] & s2 & E2). unfold ptr at 1 in E2. rewrite B in E2. discriminate.
Qed.
Lemma no_buf_batch_concat (xs : list tensor) x y : In x xs -> t_buf x = None -> never (call_fw Debug "batch_concat_fw_impl" xs [] [] y).
Proof.
  intros Hin B v E. unfold call_fw in E. cbn [assoc fw_registry String.eqb Ascii.eqb Bool.eqb idx nth_error bind] in E. unfold k_batch_concat in E. cbv zeta in E. apply bind_Ok in E. destruct E as (w & _ & E). apply bind_Ok in E. destruct E as (st & E & _).
  destruct (forL_reached E Hin) as ([o z] & s2 & E2). unfold ptr at 1 in E2. rewrite B in E2. discriminate.
Qed.
Lemma bufs_cases (xs : list tensor) : (exists x, In x xs /\ t_buf x = None) \/ Forall (fun x => t_buf x <> None) xs.
Proof.
  induction xs as [|x xs [(z & H & B)|H]]; [right; constructor|left; exists z; split; [right|]; auto|]. destruct (t_buf x) eqn:B; [right; constructor; auto; congruence|left; exists x; split; [left|]; auto].
Qed.
Lemma all_ready d (xs : list tensor) : Forall (@sane K) xs -> Forall (fun x => t_dev x = Some d) xs -> Forall (fun x => t_buf x <> None) xs -> Forall (ready d) xs.
Proof.
  intros H1 H2 H3. rewrite Forall_forall in *. intros x Hx. destruct (t_buf x) as [l|] eqn:B; [|destruct (H3 x Hx B)]. eapply sane_ready; eauto.
Qed.
Lemma u_concat d al al' xs dim : al_exact al -> al_exact al' -> Forall (@sane K) xs -> le_res (concat_fw Debug d al xs dim) (concat_fw Debug d al' xs dim).
Proof.
  intros HA HA' SX v E. pose proof E as E'. unfold concat_fw in E'. apply bind_Ok in E'. destruct E' as (q & EL & E'). apply bind_Ok in E'. destruct E' as (q' & EC & E'). pose proof (Safe3.check_all EC) as HD. apply bind_Ok in E'. destruct E' as (s & ES & E'). pose proof ES as ES'.
  apply so_concat_iff in ES; [|apply Forall_map; eapply Forall_impl; [|exact SX]; apply sane_wf]. destruct ES as (sx0 & sxs & EM & Hd & HE & (HC1 & HC2) & Hs).
  destruct xs as [|x0 xs0]; [discriminate|]. cbn [map] in EM. inversion EM; subst sx0 sxs. pose proof Hs as (W & Hix & Hbt). apply bind_Ok in E'. destruct E' as (y & EA & E'). pose proof (new_alloc_fits (exact_ok HA) W EA) as Fs.
  destruct (bufs_cases (x0 :: xs0)) as [(x & Hin & B)|HB]; [destruct (no_buf_concat Hin B E')|]. pose proof (all_ready SX HD HB) as HR. set (e := N.to_nat dim) in *.
  assert (Y : forall al, al_ok al -> exists y, concat_fw Debug d al (x0 :: xs0) dim = Ok y /\ ready d y /\ t_shape y = s /\ forall l1 x l2 c (b : nat), x0 :: xs0 = l1 ++ x :: l2 -> inb (t_shape x) c -> b < bat s -> at_ y (cset c e (c e + exts l1 e)) b = at_ x c (bsel (t_shape x) b)).
  { intros al1 H1. apply concat_yields; auto.
    - rewrite Forall_forall in *. intros x Hx i Hi. unfold ext. f_equal. apply (HE (t_shape x)); auto. change (In (t_shape x) (map t_shape (x0 :: xs0))). apply in_map; auto.
    - split; [rewrite Forall_forall in *; intros bt Hbb; apply in_map_iff in Hbb; destruct Hbb as (x & <- & Hx); unfold bat; specialize (HC1 (batch (t_shape x))); destruct HC1 as [-> | -> ]; auto; apply in_map, in_map; auto|].
      destruct HC2 as [HC2|HC2]; [left; unfold bat; rewrite HC2; reflexivity|right]. rewrite map_map in HC2. apply in_map_iff in HC2. destruct HC2 as (x & HC2 & Hx). apply in_map_iff. exists x. split; auto. unfold bat. congruence.
    - eapply is_shape_nat; [exact Hs|intros i; apply eset_upd'; change (t_shape x0 :: map t_shape xs0) with (map t_shape (x0 :: xs0)); rewrite exts_sum, Nat2N.id; reflexivity|reflexivity]. }
  destruct (Y al (exact_ok HA)) as (y1 & E1 & R1 & S1 & V1). destruct (Y al' (exact_ok HA')) as (y2 & E2 & R2 & S2 & V2). rewrite E1 in E. inversion E; subst v. rewrite E2. f_equal.
  assert (T : forall al y, al_exact al -> concat_fw Debug d al (x0 :: xs0) dim = Ok y -> tight y).
  { intros al1 z H1 Ez. unfold concat_fw in Ez. fold e in Ez. rewrite EL, EC, ES' in Ez. cbn [bind] in Ez. apply (@fw_tight K d al1 s _ _ _ _ H1 W z Ez). }
  symmetry. apply tensor_same with (d := d); auto; [congruence|eauto|eauto|]. intros p Hp. rewrite S1 in Hp. destruct (@pos_surj s p W Hp) as (c & b & Hc & Hb & <-).
  assert (Exs : exts (x0 :: xs0) e = ext s e). { unfold ext at 1. rewrite Hix. unfold upd_ext. rewrite Nat.eqb_refl. change (t_shape x0 :: map t_shape xs0) with (map t_shape (x0 :: xs0)). rewrite exts_sum, Nat2N.id. reflexivity. }
  pose proof (Hc e) as Hce. rewrite <- Exs in Hce. destruct (exts_pos_split Hce) as (l1 & x & l2 & q0 & Ex & Hq & Ep).
  assert (Hin : inb (t_shape x) (cset c e q0)).
  { intros i. destruct (Nat.eq_dec i e) as [->|Hi]; [rewrite cset_eq; exact Hq|]. rewrite cset_neq by auto. specialize (Hc i). unfold ext in *. rewrite Hix in Hc. unfold upd_ext in Hc. apply Nat.eqb_neq in Hi. rewrite Hi in Hc. apply Nat.eqb_neq in Hi. rewrite Forall_forall in HE. rewrite (HE (t_shape x)); auto. change (In (t_shape x) (map t_shape (x0 :: xs0))). apply in_map. rewrite Ex. apply in_elt. }
  pose proof (V1 l1 x l2 (cset c e q0) b Ex Hin Hb) as A1. pose proof (V2 l1 x l2 (cset c e q0) b Ex Hin Hb) as A2. rewrite cset_eq, <- Ep in A1, A2. rewrite at_buf in A1, A2. rewrite S1 in A1. rewrite S2 in A2.
  assert (EP : pos s (cset (cset c e q0) e (c e)) b = pos s c b). { apply pos_ext; auto. intros i _. unfold cset. destruct (Nat.eqb_spec i e) as [->|]; reflexivity. }
  rewrite EP in A1, A2. congruence.
Qed.
Lemma u_batch_concat d al al' xs : al_exact al -> al_exact al' -> Forall (@sane K) xs -> le_res (batch_concat_fw Debug d al xs) (batch_concat_fw Debug d al' xs).
Proof.
  intros HA HA' SX v E. pose proof E as E'. unfold batch_concat_fw in E'. apply bind_Ok in E'. destruct E' as (q & EL & E'). apply bind_Ok in E'. destruct E' as (q' & EC & E'). pose proof (Safe3.check_all EC) as HD. apply bind_Ok in E'. destruct E' as (s & ES & E'). pose proof ES as ES'.
  apply so_batch_concat_iff in ES; [|apply Forall_map; eapply Forall_impl; [|exact SX]; apply sane_wf]. destruct ES as (sx0 & sxs & EM & HE & Hs).
  destruct xs as [|x0 xs0]; [discriminate|]. cbn [map] in EM. inversion EM; subst sx0 sxs. pose proof Hs as (W & Hix & Hbt). apply bind_Ok in E'. destruct E' as (y & EA & E'). pose proof (new_alloc_fits (exact_ok HA) W EA) as Fs.
  destruct (bufs_cases (x0 :: xs0)) as [(x & Hin & B)|HB]; [destruct (no_buf_batch_concat Hin B E')|]. pose proof (all_ready SX HD HB) as HR.
  assert (Eb : sumN (map batch (map t_shape (x0 :: xs0))) = N.of_nat (bats (x0 :: xs0))).
  { clear. induction (x0 :: xs0) as [|x xs IH]; [reflexivity|]. cbn [map bats fold_right]. fold (bats xs). unfold sumN in *. cbn [fold_right]. rewrite IH. unfold bat. lia. }
  assert (Exs : bats (x0 :: xs0) = bat s). { unfold bat at 1. rewrite Hbt. change (t_shape x0 :: map t_shape xs0) with (map t_shape (x0 :: xs0)). rewrite Eb, Nat2N.id. reflexivity. }
  assert (Y : forall al, al_ok al -> exists y, batch_concat_fw Debug d al (x0 :: xs0) = Ok y /\ ready d y /\ t_shape y = s /\ forall l1 x l2 c (b : nat), x0 :: xs0 = l1 ++ x :: l2 -> inb (t_shape x) c -> b < bat (t_shape x) -> at_ y c (b + bats l1) = at_ x c b).
  { intros al1 H1. apply batch_concat_yields; auto.
    - rewrite Forall_forall in *. intros x Hx i. unfold ext. f_equal. apply (HE (t_shape x)). change (In (t_shape x) (map t_shape (x0 :: xs0))). apply in_map; auto.
    - rewrite Exs. eapply is_shape_nat; [exact Hs|reflexivity|unfold bat; congruence]. }
  destruct (Y al (exact_ok HA)) as (y1 & E1 & R1 & S1 & V1). destruct (Y al' (exact_ok HA')) as (y2 & E2 & R2 & S2 & V2). rewrite E1 in E. inversion E; subst v. rewrite E2. f_equal.
  assert (T : forall al y, al_exact al -> batch_concat_fw Debug d al (x0 :: xs0) = Ok y -> tight y).
  { intros al1 z H1 Ez. unfold batch_concat_fw in Ez. rewrite EL, EC, ES' in Ez. cbn [bind] in Ez. apply (@fw_tight K d al1 s _ _ _ _ H1 W z Ez). }
  symmetry. apply tensor_same with (d := d); auto; [congruence|eauto|eauto|]. intros p Hp. rewrite S1 in Hp. destruct (@pos_surj s p W Hp) as (c & b & Hc & Hb & <-).
  rewrite <- Exs in Hb. destruct (bats_pos_split Hb) as (l1 & x & l2 & q0 & Ex & Hq & ->).
  assert (Hin : inb (t_shape x) c).
  { intros i. specialize (Hc i). unfold ext in *. rewrite Hix in Hc. rewrite Forall_forall in HE. rewrite (HE (t_shape x)); auto. change (In (t_shape x) (map t_shape (x0 :: xs0))). apply in_map. rewrite Ex. apply in_elt. }
  pose proof (V1 l1 x l2 c q0 Ex Hin Hq) as A1. pose proof (V2 l1 x l2 c q0 Ex Hin Hq) as A2. rewrite at_buf in A1, A2. rewrite S1 in A1. rewrite S2 in A2. congruence.
Qed.
End More.
