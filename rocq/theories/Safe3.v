(** * Safe3: no function reaches memory outside the buffers of its operands (lemmas, end) *)
From Coq Require Import Permutation.
From Verif Require Export Safe2.
Set Implicit Arguments.
Unset Strict Implicit.

Lemma good_forL_pre A S (J : list A -> S -> Prop) xs (f : A -> S -> res S) :
  (forall l1 a l2 s, xs = l1 ++ a :: l2 -> J l1 s -> good (J (l1 ++ [a])) (f a s)) -> forall s, J [] s -> good (J xs) (forL xs f s).
Proof.
  intros H. assert (G : forall l l1 s, xs = l1 ++ l -> J l1 s -> good (J (l1 ++ l)) (forL l f s)).
  { induction l as [|a l IH]; intros l1 s E Hs; [rewrite app_nil_r; exact Hs|]. cbn [forL]. apply good_bind with (Q := J (l1 ++ [a])); [eapply H; eauto|].
    intros s' _ Hs'. replace (l1 ++ a :: l) with ((l1 ++ [a]) ++ l) by (rewrite <- app_assoc; reflexivity). apply IH; auto. rewrite E, <- app_assoc. reflexivity. }
  intros s Hs. apply (G xs [] s); auto.
Qed.
Lemma good_unit_loop A (l : list A) (f : A -> unit -> res unit) : (forall a, good anything (f a tt)) -> good anything (forL l f tt).
Proof. intros H. apply good_forL; auto. intros a [] _ _. apply H. Qed.

Lemma in_firstn A (a : A) n l : In a (firstn n l) -> In a l.
Proof. intros H. rewrite <- (firstn_skipn n l). apply in_or_app; auto. Qed.
Lemma in_skipn A (a : A) n l : In a (skipn n l) -> In a l.
Proof. intros H. rewrite <- (firstn_skipn n l). apply in_or_app; auto. Qed.

Section More.
Variable K : num.
Notation F := (F K).
Notation tensor := (tensor K).
Implicit Types (d : nat) (al : alloc_oracle K) (x y a b gx gy : tensor).

Lemma sane_buf x l : sane x -> t_buf x = Some l -> exists d, ready d x.
Proof. intros S B. destruct (t_dev x) as [d|] eqn:D; [exists d; eauto using sane_ready|]. destruct S as (_ & H). destruct (H l B) as (_ & _ & _ & N). contradiction. Qed.
Lemma via_dev x (k : nat -> res tensor) : (forall d, good (@sane K) (k d)) -> good (@sane K) (bind (device_of x) k).
Proof. intros H. apply good_bind with (Q := anything); [apply good_dev|]. auto. Qed.

(** *** filling and copying *)
Lemma g_reset_tensor x k : sane x -> good (@sane K) (reset_tensor Debug x k).
Proof.
  intros S. destruct (t_buf x) as [l|] eqn:B.
  - destruct (sane_buf S B) as (d & R). eapply good_updates; [exact R|]. pose proof (reset_updates Debug k R) as U. unfold reset in U. rewrite (ready_device_of R) in U. exact U.
  - unfold reset_tensor, call_fw. cbn [assoc fw_registry String.eqb Ascii.eqb Bool.eqb]. unfold k_reset. nobuf B.
Qed.
Lemma g_by_slice x vs : sane x -> good (@sane K) (reset_tensor_by_slice Debug x vs).
Proof.
  intros S. destruct (t_buf x) as [l|] eqn:B.
  - destruct (sane_buf S B) as (d & R). destruct (Nat.eqb_spec (tot (t_shape x)) (length vs)) as [E|E].
    + eapply good_updates; [exact R|]. apply by_slice_updates with (d := d); auto.
    + unfold reset_tensor_by_slice. rewrite (fits_size Debug (ready_fits R)). cbn [bind]. rewrite Nat2N.id. apply Nat.eqb_neq in E. rewrite E. exact I.
  - unfold reset_tensor_by_slice, call_fw. cbn [assoc fw_registry String.eqb Ascii.eqb Bool.eqb]. unfold k_reset_slice. nobuf B.
Qed.
Lemma g_by_tensor x y : sane x -> sane y -> good (@sane K) (reset_tensor_by_tensor Debug x y).
Proof.
  intros Sx Sy. destruct (t_buf x) as [l|] eqn:B; [|unfold reset_tensor_by_tensor, valid; rewrite B; exact I]. destruct (t_buf y) as [l'|] eqn:B'; [|unfold reset_tensor_by_tensor, valid; rewrite B, B'; exact I].
  destruct (sane_buf Sx B) as (d & R). destruct (sane_buf Sy B') as (d' & R'). destruct (Nat.eqb_spec (tot (t_shape x)) (tot (t_shape y))) as [E|E].
  - eapply good_updates; [exact R|]. eapply by_tensor_updates; eauto.
  - unfold reset_tensor_by_tensor, valid. rewrite B, B', (fits_size Debug (ready_fits R)), (fits_size Debug (ready_fits R')). cbn [bind assert]. destruct (N.eqb_spec (N.of_nat (tot (t_shape x))) (N.of_nat (tot (t_shape y)))); [lia|exact I].
Qed.
Lemma g_new_alloc d al s : al_ok al -> wf s -> good (@sane K) (new_alloc Debug d al s).
Proof.
  intros HA W. destruct (new_alloc Debug d al s) as [y| |] eqn:E; [|exact I|pose proof (good_new_alloc Debug d s HA) as G; rewrite E in G; destruct G].
  pose proof (new_alloc_fits HA W E) as Fs. destruct (@new_alloc_Ok K Debug d al s HA Fs) as (l & E' & L). rewrite E' in E. inversion E; subst. cbn. eapply ready_sane, new_ready; auto.
Qed.
Lemma g_by_constant d al s k : al_ok al -> wf s -> good (@sane K) (new_tensor_by_constant Debug d al s k).
Proof. intros HA W. unfold new_tensor_by_constant. eapply good_bind; [apply g_new_alloc; auto|]. intros t _ St. apply g_reset; auto. Qed.
Lemma g_new_by_slice d al s vs : al_ok al -> wf s -> good (@sane K) (new_tensor_by_slice Debug d al s vs).
Proof. intros HA W. unfold new_tensor_by_slice. eapply good_bind; [apply g_new_alloc; auto|]. intros t _ St. apply g_by_slice; auto. Qed.
Lemma g_copy d al x : al_ok al -> sane x -> good (@sane K) (copy_tensor Debug d al x).
Proof. intros HA S. unfold copy_tensor. eapply good_bind; [apply g_new_alloc; auto using sane_wf|]. intros t _ St. apply g_by_tensor; auto. Qed.
Lemma g_move d al x : al_ok al -> sane x -> good (@sane K) (move_to_device Debug d al x).
Proof.
  intros HA S. pose proof (g_new_alloc d HA (sane_wf S)) as G. unfold move_to_device. destruct (t_host x) as [vs|] eqn:EH; [|exact I]. cbn [assert bind unwrap].
  unfold new_alloc, alloc, new_tensor in G. cbn [valid t_buf t_host t_dev t_shape negb assert bind device_of unwrap] in G. destruct (size Debug (t_shape x)) as [n| |]; auto. cbn [bind] in *. destruct (al n) as [l| |]; auto. cbn [bind good] in *. apply g_by_slice; auto.
Qed.
Lemma g_update_shape x s : sane x -> wf s -> good (@sane K) (update_shape Debug x s).
Proof.
  intros S W. unfold update_shape. destruct (size Debug s) as [p| |] eqn:E1; [|exact I|pose proof (good_size Debug s) as G; rewrite E1 in G; destruct G]. cbn [bind].
  destruct (size Debug (t_shape x)) as [q| |] eqn:E2; [|exact I|pose proof (good_size Debug (t_shape x)) as G; rewrite E2 in G; destruct G]. cbn [bind]. destruct (N.eqb_spec p q) as [E|]; [|exact I]. cbn [assert bind good].
  split; [exact W|]. cbn [t_buf t_shape t_host t_dev]. intros l B. destruct S as (_ & H). destruct (H l B) as (H1 & H2 & H3 & H4).
  unfold size, mul32, norm32 in E1, E2. destruct (N.ltb_spec (batch s * volume s) two32); [|discriminate]. destruct (N.ltb_spec (batch (t_shape x) * volume (t_shape x)) two32); [|discriminate]. inversion E1; inversion E2; subst.
  assert (ET : tot s = tot (t_shape x)). { unfold tot, bat. rewrite <- (vol_volume W), <- (vol_volume (proj1 H2)). lia. }
  ssplit; auto; [|lia]. destruct H2 as (W2 & L2). split; auto. lia.
Qed.
Lemma g_reshape al x s : al_ok al -> sane x -> wf s -> good (@sane K) (t_reshape Debug al x s).
Proof. intros HA S W. unfold t_reshape. apply via_dev. intros d. eapply good_bind; [apply g_copy; auto|]. intros t _ St. apply g_update_shape; auto. Qed.
Lemma g_flatten al x : al_ok al -> sane x -> good (@sane K) (t_flatten Debug al x).
Proof.
  intros HA S. unfold t_flatten. apply good_bind with (Q := wf).
  - destruct (shape_new Debug [volume (t_shape x)] (batch (t_shape x))) as [s| |] eqn:E; [|exact I|pose proof (good_new Debug [volume (t_shape x)] (batch (t_shape x))) as G; rewrite E in G; destruct G].
    apply shape_new_iff in E; [apply E|]. pose proof (wf_batch (sane_wf S)). lia.
  - intros s _ W. apply g_reshape; auto.
Qed.
Lemma g_to_vector x : sane x -> good anything (tensor_to_vector Debug x).
Proof.
  intros S. unfold tensor_to_vector. destruct (t_buf x) as [l|] eqn:B.
  - destruct (sane_buf S B) as (d & R). pose proof (to_vec_Ok Debug R) as E. unfold to_vec in E. rewrite (ready_device_of R) in E. cbn [bind] in E. unfold tensor_to_vector in E. rewrite E. exact I.
  - unfold call_f32. cbn [assoc f32_registry String.eqb Ascii.eqb Bool.eqb]. unfold k_to_vector. nobuf B.
Qed.
Lemma g_to_vec x : sane x -> good anything (to_vec Debug x).
Proof. intros S. unfold to_vec. apply good_bind with (Q := anything); [apply good_dev|]. intros. apply g_to_vector; auto. Qed.
Lemma g_to_float x : sane x -> good anything (to_float Debug x).
Proof.
  intros S. unfold to_float. apply good_bind with (Q := anything); [apply good_dev|]. intros d _ _. unfold tensor_to_float.
  destruct (size Debug (t_shape x)) as [n| |] eqn:En; [|exact I|pose proof (good_size Debug (t_shape x)) as G; rewrite En in G; destruct G]. cbn [bind]. destruct (N.eqb_spec n 1) as [->|]; [|exact I]. cbn [assert bind].
  pose proof (g_to_vector S) as G. unfold tensor_to_vector in G. rewrite En in G. cbn [bind] in G. change (repeat n0 (N.to_nat 1)) with [@n0 K] in G. apply good_bind with (Q := anything); [exact G|]. intros. apply good_idx.
Qed.
Lemma g_mul_assign x k : sane x -> good (@sane K) (t_mul_assign Debug x k).
Proof.
  intros S. unfold t_mul_assign. destruct (t_buf x) as [l|] eqn:B.
  - destruct (sane_buf S B) as (d & R). eapply good_updates; [exact R|]. apply mul_assign_updates with (d := d); auto.
  - apply via_dev. intros d. unfold mul_assign_const, call_fw. cbn [assoc fw_registry String.eqb Ascii.eqb Bool.eqb]. unfold k_mul_assign. nobuf B.
Qed.

(** *** positions *)
Section Arg.
Variable srt : (nat -> nat -> option comparison) -> list nat -> res (list nat).
(** the standard library's sort returns a permutation of the slice or panics, whatever the comparison function *)
Definition sort_sound : Prop := forall cmp l, good (Permutation l) (srt cmp l).
Lemma g_argmax d x dim : sane x -> good anything (argmax Debug srt d x dim).
Proof.
  intros S. destruct (dev_cases d x) as [D|P]; [|unfold argmax; rewrite P; exact I]. nb x.
  - unfold argmax, call_u32. cbn [assoc u32_registry String.eqb Ascii.eqb Bool.eqb]. unfold k_arg. nobuf B.
  - destruct (argmax_spec Debug srt dim R) as (s & l & _ & -> & _). exact I.
Qed.
Lemma g_argmin d x dim : sane x -> good anything (argmin Debug srt d x dim).
Proof.
  intros S. destruct (dev_cases d x) as [D|P]; [|unfold argmin; rewrite P; exact I]. nb x.
  - unfold argmin, call_u32. cbn [assoc u32_registry String.eqb Ascii.eqb Bool.eqb]. unfold k_arg. nobuf B.
  - destruct (argmin_spec Debug srt dim R) as (s & l & _ & -> & _). exact I.
Qed.
Lemma Forall_lset A (P : A -> Prop) l i v : Forall P l -> P v -> Forall P (lset l i v).
Proof.
  intros H Hv. revert i. induction H as [|a l Ha H IH]; intros [|i]; cbn; constructor; auto.
Qed.
Lemma good_aset_all A (P : A -> Prop) l i v : Forall P l -> P v -> good (Forall P) (aset l i v).
Proof. intros H Hv. unfold aset. destruct (_ <? _); [apply Forall_lset; auto|exact I]. Qed.
Lemma g_argsort d x dim : sort_sound -> sane x -> good anything (argsort Debug srt d x dim).
Proof.
  intros HS S. unfold argsort. destruct (dev_cases d x) as [D|P]; [|rewrite P; exact I]. apply good_bind with (Q := anything); [apply good_check|]. intros _ _ _. apply good_bind with (Q := anything); [apply good_size|]. intros sz0 _ _.
  unfold call_u32. cbn [assoc u32_registry String.eqb Ascii.eqb Bool.eqb]. cbn [idx nth_error bind]. set (e := N.to_nat dim). unfold k_argsort.
  pose proof (sane_wf S) as W. destruct (size Debug (t_shape x)) as [sz| |] eqn:Es; [|exact I|pose proof (good_size Debug (t_shape x)) as G; rewrite Es in G; destruct G]. cbn [bind].
  rewrite (@lower_volume_low Debug (t_shape x) e W). cbn [bind]. rewrite Nat2N.id. set (s1 := low (t_shape x) e). change (N.to_nat (index (t_shape x) e)) with (ext (t_shape x) e). set (n := ext (t_shape x) e).
  assert (ET : N.to_nat sz = tot (t_shape x)). { unfold size, mul32, norm32 in Es. destruct (_ <? _)%N; inversion Es. unfold tot, bat. rewrite <- (vol_volume W). lia. }
  rewrite ET. set (T := tot (t_shape x)). assert (H1 : 1 <= s1) by apply (low_pos e W). assert (Hn : 1 <= n) by apply (ext_pos e W).
  assert (EH : T = hic (t_shape x) e * (s1 * n)). { unfold T, s1, n. rewrite (tot_split e W). lia. }
  apply good_bind with (Q := Forall (fun p => p < T)).
  - apply good_forL; [|apply Forall_forall; intros p Hp; apply repeat_spec in Hp; subst p; pose proof (tot_pos W); fold T in H; lia].
    intros off ind Ho Hi. rewrite EH, steps_by_mul in Ho by nia. apply in_map_iff in Ho. destruct Ho as (i & <- & Ho). apply in_seq in Ho.
    apply good_forN; auto. intros j ind' Hj Hi'. apply good_forN; auto. intros q ind'' Hq Hi''. apply good_aset_all; auto. rewrite EH. assert (j + s1 * q < s1 * n) by nia. nia.
  - intros ind _ Hind. nb x; [nobuf B|]. rewrite (ptr_vt (ready_vt R)). cbn [bind]. apply good_bind with (Q := Forall (fun p => p < T)).
    + apply good_forL; auto. intros off ind' _ Hi. apply good_bind with (Q := anything); [apply good_assert|]. intros _ _ _. cbv zeta.
      assert (HF : Forall (fun p => p < T) (firstn n (skipn off ind'))). { apply Forall_forall. intros p Hp. rewrite Forall_forall in Hi. apply Hi. eapply in_skipn, in_firstn; exact Hp. }
      apply good_bind with (Q := anything).
      * apply good_forL; [|exact I]. intros p [] Hp _. rewrite Forall_forall in HF. specialize (HF p Hp). cbv beta in HF. pose proof (ready_len R) as L. fold T in L. apply good_bind with (Q := anything); [apply good_rd; lia|]. intros; exact I.
      * intros _ _ _. eapply good_bind; [apply HS|]. intros l' _ HP. cbv beta. cbn [good]. apply Forall_app. split; [apply Forall_forall; intros p Hp; rewrite Forall_forall in Hi; apply Hi; eapply in_firstn; exact Hp|].
        apply Forall_app. split; [eapply Permutation_Forall; eauto|apply Forall_forall; intros p Hp; rewrite Forall_forall in Hi; apply Hi; eapply in_skipn; exact Hp].
    + intros ind2 _ _. gd.
Qed.
End Arg.
End More.

Section Cat.
Variable K : num.
Notation F := (F K).
Notation tensor := (tensor K).
Implicit Types (d : nat) (al : alloc_oracle K) (x y a b gx gy : tensor).

Lemma check_all d (xs : list tensor) u : forL xs (fun x (_ : unit) => check_dev d x) tt = Ok u -> Forall (fun x => t_dev x = Some d) xs.
Proof.
  revert u. induction xs as [|x xs IH]; intros u E; constructor; cbn in E; apply bind_Ok in E; destruct E as ([] & E1 & E2); [eapply chk_dev; eauto|eauto].
Qed.
Lemma g_concat d al xs dim : al_ok al -> Forall (@sane K) xs -> good (@sane K) (concat_fw Debug d al xs dim).
Proof.
  intros HA HX. unfold concat_fw. apply good_bind with (Q := anything); [apply good_assert|]. intros _ _ _.
  apply good_bind with (Q := anything); [apply good_unit_loop; intros; apply good_check|]. intros u Eu _. apply check_all in Eu.
  apply good_bind with (Q := anything); [apply good_so_concat|]. intros s Es _. set (e := N.to_nat dim) in *.
  assert (HW : Forall wf (map t_shape xs)) by (apply Forall_map; eapply Forall_impl; [|exact HX]; intros; apply sane_wf; auto).
  apply so_concat_iff in Es; auto. destruct Es as (x0' & xs' & Ex & Hd & HE & (HB & _) & HI & Hsi & Hsb).
  destruct (new_alloc Debug d al s) as [y| |] eqn:EA; [|exact I|pose proof (good_new_alloc Debug d s HA) as G; rewrite EA in G; destruct G]. cbn [bind].
  pose proof (new_alloc_fits HA HI EA) as Fs. destruct (@new_alloc_Ok K Debug d al s HA Fs) as (ly & E' & L). rewrite E' in EA. inversion EA; subst y. clear EA.
  unfold call_fw. cbn [assoc fw_registry String.eqb Ascii.eqb Bool.eqb idx nth_error bind]. fold e. unfold k_concat. cbn [t_shape].
  rewrite (@lower_volume_low Debug s e HI). cbn [bind]. rewrite Nat2N.id. change (N.to_nat (index s e)) with (ext s e). change (N.to_nat (batch s)) with (bat s). rewrite (vol_volume HI).
  assert (HC : forall x, In x xs -> ready d x -> catted x s e).
  { intros x Hx R. rewrite Forall_forall in HE, HB. constructor.
    - apply (ready_vt R).
    - intros i Hi. unfold ext. f_equal. rewrite (HE (t_shape x)) by (try apply in_map; auto). rewrite Hsi. unfold upd_ext. apply Nat.eqb_neq in Hi. rewrite Hi. reflexivity.
    - destruct (HB (batch (t_shape x))) as [E|E]; [apply in_map, in_map; auto| |]; unfold bat; rewrite E; auto. }
  assert (HX2 : exts xs e = ext s e). { unfold ext at 1. rewrite Hsi. unfold upd_ext. rewrite Nat.eqb_refl. rewrite exts_sum, Nat2N.id. reflexivity. }
  apply good_bind with (Q := fun st : nat * tensor => sane (snd st)); [|intros st _ H; exact H].
  eapply good_weaken; [apply good_forL_pre with (J := fun l1 (st : nat * tensor) => fst st = low s e * exts l1 e /\ exists l', snd st = mkTensor (Some d) s (Some l') None /\ length l' = length ly)|].
  - intros l1 x l2 [off y'] Exs (Eo & l' & Ey & Ll). cbn [fst snd] in Eo, Ey. subst off y'. assert (Hx : In x xs) by (rewrite Exs; apply in_elt).
    rewrite Forall_forall in HX, Eu. pose proof (HX x Hx) as Sx. pose proof (Eu x Hx) as Dx. nb x; [nobuf B|]. rewrite (ptr_vt (ready_vt R)). cbn [bind ptr t_buf unwrap]. unfold ptr. cbn [t_buf unwrap bind].
    change (N.to_nat (index (t_shape x) e)) with (ext (t_shape x) e).
    destruct (@cat_one K x (buf x) s e (exts l1 e) l' HI (HC x Hx R) (ready_vt R)) as (l'' & k & E & Hl & _).
    + rewrite <- HX2, Exs, exts_app. cbn [exts fold_right]. lia.
    + lia.
    + cbv zeta in E. rewrite E. cbn [bind snd fst good]. split; [rewrite exts_app; cbn [exts fold_right]; lia|]. exists l''. split; [reflexivity|lia].
  - split; [cbn; lia|]. exists ly. auto.
  - intros [off y'] (_ & l' & Ey & Ll). cbn [snd] in *. subst y'. apply (@ready_sane K d). apply new_ready; auto. lia.
Qed.
Lemma g_batch_concat d al xs : al_ok al -> Forall (@sane K) xs -> good (@sane K) (batch_concat_fw Debug d al xs).
Proof.
  intros HA HX. unfold batch_concat_fw. apply good_bind with (Q := anything); [apply good_assert|]. intros _ _ _.
  apply good_bind with (Q := anything); [apply good_unit_loop; intros; apply good_check|]. intros u Eu _. apply check_all in Eu.
  apply good_bind with (Q := anything); [apply good_so_batch_concat|]. intros s Es _.
  assert (HW : Forall wf (map t_shape xs)) by (apply Forall_map; eapply Forall_impl; [|exact HX]; intros; apply sane_wf; auto).
  apply so_batch_concat_iff in Es; auto. destruct Es as (x0' & xs' & Ex & HE & HI & Hsi & Hsb).
  destruct (new_alloc Debug d al s) as [y| |] eqn:EA; [|exact I|pose proof (good_new_alloc Debug d s HA) as G; rewrite EA in G; destruct G]. cbn [bind].
  pose proof (new_alloc_fits HA HI EA) as Fs. destruct (@new_alloc_Ok K Debug d al s HA Fs) as (ly & E' & L). rewrite E' in EA. inversion EA; subst y. clear EA.
  unfold call_fw. cbn [assoc fw_registry String.eqb Ascii.eqb Bool.eqb idx nth_error bind]. unfold k_batch_concat, ptr at 1. cbn [t_buf unwrap bind].
  assert (HV : forall x, In x xs -> vol (t_shape x) = vol s).
  { intros x Hx. rewrite Forall_forall in HE. apply vol_ext. intros i _. unfold ext. rewrite Hsi, (HE (t_shape x)); auto. apply in_map; auto. }
  assert (HBs : bats xs = bat s).
  { unfold bat. rewrite Hsb. clear. induction xs as [|x xs IH]; [reflexivity|]. cbn [bats fold_right map]. fold (bats xs). unfold sumN. cbn [fold_right]. rewrite N2Nat.inj_add. rewrite IH. reflexivity. }
  apply good_bind with (Q := fun st : nat * list F => length (snd st) = length ly).
  - eapply good_weaken; [apply good_forL_pre with (J := fun l1 (st : nat * list F) => fst st = bats l1 * vol s /\ length (snd st) = length ly)|].
    + intros l1 x l2 [off py] Exs (Eo & Ll). cbn [fst snd] in Eo, Ll. assert (Hx : In x xs) by (rewrite Exs; apply in_elt).
      rewrite Forall_forall in HX, Eu. pose proof (HX x Hx) as Sx. pose proof (Eu x Hx) as Dx. nb x; [nobuf B|]. rewrite (ptr_vt (ready_vt R)). cbn [bind]. rewrite (fits_size Debug (ready_fits R)). cbn [bind]. rewrite Nat2N.id.
      assert (HT : off + tot (t_shape x) <= tot s). { subst off. unfold tot. rewrite (HV x Hx), <- HBs, Exs, bats_app. change (bats (x :: l2)) with (bat (t_shape x) + bats l2). nia. }
      apply good_bind with (Q := fun l => length l = length ly).
      * apply good_forN; [|exact Ll]. intros i l Hi Hl. pose proof (ready_len R). apply good_bind with (Q := anything); [apply good_rd; lia|]. intros v _ _. eapply good_weaken; [apply good_wr; lia|]. cbv beta; intros; congruence.
      * intros l _ Hl. cbn [good fst snd]. split; [|auto]. rewrite bats_app. change (bats [x]) with (bat (t_shape x) + 0). subst off. unfold tot. rewrite (HV x Hx). nia.
    + split; reflexivity.
    + intros [off py] (_ & H). exact H.
  - intros [off py] _ H. cbn [snd] in H |- *. cbn [good]. apply (@ready_sane K d). apply ready_with; auto. apply new_ready; auto.
Qed.

(** *** Functions made of others *)
Lemma g_split als x dim n : (forall i, al_ok (als i)) -> sane x -> good (Forall (@sane K)) (t_split Debug als x dim n).
Proof.
  intros HA S. unfold t_split. apply good_bind with (Q := anything); [unfold split_skip; gd|]. intros k _ _. apply good_forN; [|constructor]. intros i ret _ Hr.
  eapply good_bind; [apply via_dev; intros; apply g_slice; auto|]. intros y _ Sy. cbn. apply Forall_app; auto.
Qed.
Lemma g_batch_split als x n : (forall i, al_ok (als i)) -> sane x -> good (Forall (@sane K)) (t_batch_split Debug als x n).
Proof.
  intros HA S. unfold t_batch_split. apply good_bind with (Q := anything); [unfold split_skip; gd|]. intros k _ _. apply good_forN; [|constructor]. intros i ret _ Hr.
  eapply good_bind; [apply via_dev; intros; apply g_batch_slice; auto|]. intros y _ Sy. cbn. apply Forall_app; auto.
Qed.
Lemma g_t_concat al xs dim : al_ok al -> Forall (@sane K) xs -> good (@sane K) (t_concat Debug al xs dim).
Proof. intros HA H. unfold t_concat. apply good_bind with (Q := anything); [apply good_idx|]. intros x0 _ _. apply via_dev. intros. apply g_concat; auto. Qed.
Lemma g_t_batch_concat al xs : al_ok al -> Forall (@sane K) xs -> good (@sane K) (t_batch_concat Debug al xs).
Proof. intros HA H. unfold t_batch_concat. apply good_bind with (Q := anything); [apply good_assert|]. intros _ _ _. apply good_bind with (Q := anything); [apply good_idx|]. intros x0 _ _. apply via_dev. intros. apply g_batch_concat; auto. Qed.
Lemma g_ab_op fw sl sr al a b : (forall d, good (@sane K) (fw d al a b)) -> (forall d x y, sane x -> sane y -> good (@sane K) (sl d al x y)) -> (forall d x y, sane x -> sane y -> good (@sane K) (sr d al x y)) ->
  sane a -> sane b -> good (@sane K) (define_ab_op fw sl sr al a b).
Proof. intros H1 H2 H3 Sa Sb. unfold define_ab_op. repeat match goal with |- good _ (if ?c then _ else _) => destruct c end; apply via_dev; auto. Qed.
Lemma g_t_add al a b : al_ok al -> sane a -> sane b -> good (@sane K) (t_add Debug al a b).
Proof. intros. apply g_ab_op; auto; intros; [eapply g_fw_ab|eapply g_fw_scalar|eapply g_fw_scalar]; eauto; reflexivity. Qed.
Lemma g_t_sub al a b : al_ok al -> sane a -> sane b -> good (@sane K) (t_sub Debug al a b).
Proof. intros. apply g_ab_op; auto; intros; [eapply g_fw_ab|eapply g_fw_scalar|eapply g_fw_scalar]; eauto; reflexivity. Qed.
Lemma g_t_mul al a b : al_ok al -> sane a -> sane b -> good (@sane K) (t_mul Debug al a b).
Proof. intros. apply g_ab_op; auto; intros; [eapply g_fw_ab|eapply g_fw_scalar|eapply g_fw_scalar]; eauto; reflexivity. Qed.
Lemma g_t_div al a b : al_ok al -> sane a -> sane b -> good (@sane K) (t_div Debug al a b).
Proof. intros. apply g_ab_op; auto; intros; [eapply g_fw_ab|eapply g_fw_scalar|eapply g_fw_scalar]; eauto; reflexivity. Qed.
Lemma g_t_neg al x : al_ok al -> sane x -> good (@sane K) (t_neg Debug al x).
Proof. intros. apply via_dev. intros. eapply g_fw_x; eauto; reflexivity. Qed.
Lemma g_ln_softmax als x dim : (forall i, al_ok (als i)) -> sane x -> good (@sane K) (t_ln_softmax Debug als x dim).
Proof.
  intros HA S. unfold t_ln_softmax. eapply good_bind; [apply via_dev; intros; apply g_logsumexp; auto|]. intros l _ Sl. eapply good_bind; [apply via_dev; intros; apply g_broadcast; auto|]. intros b _ Sb. apply g_t_sub; auto.
Qed.
Lemma g_softmax als x dim : (forall i, al_ok (als i)) -> sane x -> good (@sane K) (t_softmax Debug als x dim).
Proof. intros HA S. unfold t_softmax. eapply good_bind; [apply g_ln_softmax; auto|]. intros y _ Sy. apply via_dev. intros. eapply g_fw_x; eauto; reflexivity. Qed.
Lemma g_sce als x t dim : (forall i, al_ok (als i)) -> sane x -> sane t -> good (@sane K) (t_softmax_cross_entropy Debug als x t dim).
Proof.
  intros HA S St. unfold t_softmax_cross_entropy. eapply good_bind; [apply g_ln_softmax; auto|]. intros y _ Sy. eapply good_bind; [apply g_t_mul; auto|]. intros z _ Sz.
  eapply good_bind; [apply via_dev; intros; apply g_sum; auto|]. intros s _ Ss. apply g_t_neg; auto.
Qed.
Lemma g_sparse_sce als x ids dim : (forall i, al_ok (als i)) -> sane x -> (N.of_nat (length ids) < two32)%N -> good (@sane K) (t_sparse_softmax_cross_entropy Debug als x ids dim).
Proof.
  intros HA S HL. unfold t_sparse_softmax_cross_entropy. eapply good_bind; [apply g_ln_softmax; auto|]. intros y _ Sy. eapply good_bind; [apply via_dev; intros; apply g_pick; auto|]. intros p _ Sp. apply g_t_neg; auto.
Qed.
End Cat.
