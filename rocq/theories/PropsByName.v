(** * PropsByName: C29, the backward kernels registered as "batch_pick_bw_impl" and
    "batch_slice_bw_impl", and C55, the kernel registered as "identity_impl": no
    function of the library calls them, a program can.

    Device::batch_slice_bw and Device::batch_pick_bw do not reach these kernels
    (they call "slice_bw_impl" and "pick_bw_impl", see C42), but a program that calls
    them by name (Device::call_bw_impl is public) gets the gradient of batch_slice
    and of batch_pick: every minibatch element of gy is added to the minibatch
    element of gx it was read from, once for every time it was read. *)
From Verif Require Import PVocab ApiBw PropsMove.
Set Implicit Arguments.

Section Defs.
Variable K : num.
Notation F := (F K).
Notation "x +. y" := (nadd K x y) (at level 50, left associativity).
Variable m : build.

(** the value [v] of an element of gx after the minibatch elements of gy that were
    read from minibatch element [q] have been added, in the order of the ids *)
Fixpoint plus_read (ids : list N) (gy : nat -> F) (n q : nat) (v : F) : F :=
  match ids with
  | [] => v
  | id :: ids => plus_read ids gy (S n) q (if N.to_nat id =? q then v +. gy n else v)
  end.
Lemma fold_left_map_seq A B C (f : A -> B -> A) (g : C -> B) l : forall a, fold_left f (map g l) a = fold_left (fun a x => f a (g x)) l a.
Proof. induction l as [|x l IH]; intros a; [reflexivity|]. apply IH. Qed.
Lemma plus_read_fold ids (gy : nat -> F) q : forall n0' v,
  plus_read ids gy n0' q v = fold_left (fun acc n => if N.to_nat (nth n ids 0%N) =? q then acc +. gy (n0' + n) else acc) (seq 0 (length ids)) v.
Proof.
  induction ids as [|id ids IH]; intros n v; [reflexivity|]. cbn [length seq fold_left nth]. rewrite Nat.add_0_r. cbn [plus_read]. rewrite IH.
  rewrite <- seq_shift. rewrite fold_left_map_seq. apply fold_left_ext_in. intros a k _. cbn [nth]. replace (n + S k) with (S n + k) by lia. reflexivity.
Qed.

Theorem C29_batch_pick_bw_kernel : forall d als (gy gx : tensor K) ids, ready d gy -> ready d gx ->
  (forall i, ext (t_shape gy) i = ext (t_shape gx) i) -> length ids = bat (t_shape gy) -> Forall (fun id => N.to_nat id < bat (t_shape gx)) ids ->
  writes (call_bw m als "batch_pick_bw_impl" [] [] [gy] ids [] gx) gx
    (fun c q => plus_read ids (at_ gy c) 0 q (at_ gx c q)).
Proof.
  intros d als gy gx ids Hg Hx HE HL HI. pose proof (ready_wf Hg) as Wg. pose proof (ready_wf Hx) as Wx.
  assert (P : bpicked (t_shape gx) (t_shape gy) ids) by (constructor; auto).
  rewrite (call_bw_eq _ (eq_refl : assoc (bw_registry K m) "batch_pick_bw_impl" = _)). cbn [idx nth_error bind].
  destruct (k_batch_pick_bw_spec (ready_vt Hg) (ready_vt Hx) P) as (l' & E' & HL' & HP).
  exists l'. split; [exact E'|]. split; [exact HL'|]. split.
  - intros p Hp. rewrite HP. apply hits_none. intros q Hq. apply in_seq in Hq. pose proof (@bpkg_lt _ _ _ P q ltac:(lia)). lia.
  - intros c q Hc Hq. rewrite HP, plus_read_fold. unfold tot. rewrite hits_blocks, HL. rewrite at_buf. apply fold_left_ext_in.
    intros v n Hn. apply in_seq in Hn. set (V := vol (t_shape gy)). assert (Hn' : n < bat (t_shape gy)) by lia.
    assert (EP : forall r, r < V -> exists c1, inb (t_shape gy) c1 /\ n * V + r = pos (t_shape gy) c1 n).
    { intros r Hr. destruct (@pos_surj (t_shape gy) (n * V + r) Wg) as (c1 & b1 & H1 & H2 & H3).
      - unfold tot. fold V. nia.
      - exists c1. split; [exact H1|]. rewrite <- H3. f_equal.
        pose proof (pos_split_b b1 H1) as [Q _]. rewrite H3 in Q. fold V in Q. destruct (@divmod_of V r n Hr) as [Q2 _]. congruence. }
    assert (C0 : inb (t_shape gy) c) by (intros i; rewrite HE; apply Hc).
    destruct (Nat.eqb_spec (N.to_nat (nth n ids 0%N)) q) as [Eq|Nq].
    + set (r0 := lin_lt (ext (t_shape gy)) c 8). assert (Hr0 : r0 < V) by (apply lin_lt_lt; intros; apply C0).
      rewrite (@hits_unique _ _ _ _ _ (n * V + r0)).
      * rewrite !at_buf. reflexivity.
      * apply FinFun.Injective_map_NoDup; [intros a1 a2 Hx'; lia|apply seq_NoDup].
      * apply in_map_iff. exists r0. split; auto. apply in_seq; lia.
      * change (n * V + r0) with (pos (t_shape gy) c n). rewrite (bpkg_pos P C0 Hn'). rewrite Eq. reflexivity.
      * intros a' Ha' Ea'. apply in_map_iff in Ha'. destruct Ha' as (r & <- & Hr). apply in_seq in Hr.
        destruct (EP r) as (c1 & H1 & H2); [lia|]. rewrite H2 in *. rewrite (bpkg_pos P H1 Hn') in Ea'.
        apply pos_inj in Ea'; auto; [|intros i; rewrite <- HE; apply H1]. destruct Ea' as (_ & Ec).
        change (n * V + r0) with (pos (t_shape gy) c n). apply pos_ext; auto.
    + apply hits_none. intros a' Ha' Ea'. apply in_map_iff in Ha'. destruct Ha' as (r & <- & Hr). apply in_seq in Hr.
      destruct (EP r) as (c1 & H1 & H2); [lia|]. rewrite H2 in *. rewrite (bpkg_pos P H1 Hn') in Ea'.
      apply pos_inj in Ea'; auto; [|intros i; rewrite <- HE; apply H1]. destruct Ea' as (Eb & _). contradiction.
Qed.

Theorem C29_batch_slice_bw_kernel : forall d als (gy gx : tensor K) lo, ready d gy -> ready d gx ->
  (forall i, ext (t_shape gy) i = ext (t_shape gx) i) -> N.to_nat lo + bat (t_shape gy) <= bat (t_shape gx) ->
  writes (call_bw m als "batch_slice_bw_impl" [] [] [gy] [lo] [] gx) gx
    (fun c q => if (N.to_nat lo <=? q) && (q <? N.to_nat lo + bat (t_shape gy)) then at_ gx c q +. at_ gy c (q - N.to_nat lo) else at_ gx c q).
Proof.
  intros d als gy gx lo Hg Hx HE HB. pose proof (ready_wf Hg) as Wg. pose proof (ready_wf Hx) as Wx.
  assert (S : bsliced (t_shape gx) (t_shape gy) (N.to_nat lo)) by (constructor; auto).
  rewrite (call_bw_eq _ (eq_refl : assoc (bw_registry K m) "batch_slice_bw_impl" = _)). cbn [idx nth_error bind].
  destruct (@k_batch_slice_bw_spec K gy lo [] gx _ _ (ready_vt Hg) (ready_vt Hx) S) as (l' & E' & HL & HP).
  exists l'. split; [exact E'|]. split; [exact HL|]. split.
  - intros p Hp. rewrite HP. apply hits_none. intros q Hq. apply in_seq in Hq. pose proof (@bs_lt _ _ _ S q ltac:(lia)). lia.
  - intros c q Hc Hq. rewrite HP. assert (C0 : inb (t_shape gy) c) by (intros i; rewrite HE; apply Hc).
    destruct ((N.to_nat lo <=? q) && (q <? N.to_nat lo + bat (t_shape gy))) eqn:EB.
    + apply andb_true_iff in EB. destruct EB as [E1 E2]. apply Nat.leb_le in E1. apply Nat.ltb_lt in E2.
      rewrite (@hits_unique _ _ _ _ _ (pos (t_shape gy) c (q - N.to_nat lo))).
      * rewrite !at_buf. reflexivity.
      * apply seq_NoDup.
      * apply in_seq. split; [lia|]. apply pos_lt; auto. lia.
      * rewrite (bs_pos S). f_equal. lia.
      * intros a' _ Ea'. assert (Q : vol (t_shape gx) * N.to_nat lo + a' = vol (t_shape gx) * N.to_nat lo + pos (t_shape gy) c (q - N.to_nat lo)).
        { rewrite Ea', (bs_pos S). f_equal. lia. } lia.
    + apply hits_none. intros a' Ha' Ea'. apply in_seq in Ha'. destruct (@pos_surj (t_shape gy) a' Wg) as (c1 & b1 & H1 & H2 & <-); [lia|].
      rewrite (bs_pos S) in Ea'. apply pos_inj in Ea'; auto; [|intros i; rewrite <- HE; apply H1]. destruct Ea' as (Eb & _).
      apply andb_false_iff in EB. destruct EB as [EB|EB]; [apply Nat.leb_gt in EB|apply Nat.ltb_ge in EB]; lia.
Qed.

(** the kernel registered as "identity_impl" makes a square matrix the identity matrix *)
Theorem C55_identity : forall d (y : tensor K) xs u f, ready d y -> (forall i, 2 <= i -> ext (t_shape y) i = 1) ->
  ext (t_shape y) 1 = ext (t_shape y) 0 -> bat (t_shape y) = 1 ->
  writes (call_fw m "identity_impl" xs u f y) y (fun c b => if c 0 =? c 1 then n1 else n0).
Proof.
  intros d y xs u f Hy My E1 Eb. pose proof (ready_wf Hy) as W.
  rewrite (call_fw_eq _ (eq_refl : assoc (fw_registry K m) "identity_impl" = _)).
  destruct (k_identity_spec m (ready_vt Hy) My E1 Eb) as (l' & E & HO).
  exists l'. split; [exact E|]. split; [apply HO|]. split.
  - intros p Hp. rewrite (proj2 HO). apply Nat.ltb_ge in Hp. rewrite Hp. reflexivity.
  - intros c b Hc Hb. rewrite (proj2 HO). pose proof (pos_lt W Hc Hb) as P. pose proof P as P'. apply Nat.ltb_lt in P'. rewrite P'.
    destruct (square_pos b My E1 Hc) as [Q1 Q2]. rewrite Q1.
    assert (Eb0 : b = 0) by lia. subst b. rewrite (@pos_ext (t_shape y) (t_shape y) c (c2 (c 0) (c 1)) 0) in *; auto;
      try (intros i _; apply (matrix_c2 My Hc)).
    rewrite (matrix_pos _ _ _ My), E1 in *. pose proof (Hc 0); pose proof (Hc 1) as H1. rewrite E1 in H1.
    set (n := ext (t_shape y) 0) in *. replace (0 * (n * n) + (c 0 + c 1 * n)) with (c 1 * n + c 0) by lia.
    destruct (@divmod_of n (c 0) (c 1)) as [-> _]; auto.
Qed.
End Defs.

(** an id picked twice gets both gradients, an id never picked keeps its value *)
Example C29_bw_kernels_witness :
  call_bw (K := Znum) Release (@no_als Znum) "batch_pick_bw_impl" [] [] [tz 0 [2]%N 3 [1;2; 3;4; 5;6]%Z] [2;0;2]%N [] (tz 0 [2]%N 3 [10;10; 20;20; 30;30; 99]%Z) =
    Ok (tz 0 [2]%N 3 [13;14; 20;20; 36;38; 99]%Z) /\
  call_bw (K := Znum) Release (@no_als Znum) "batch_slice_bw_impl" [] [] [tz 0 [2]%N 2 [1;2; 3;4]%Z] [1]%N [] (tz 0 [2]%N 3 [10;10; 20;20; 30;30; 99]%Z) =
    Ok (tz 0 [2]%N 3 [10;10; 21;22; 33;34; 99]%Z) /\
  call_fw (K := Znum) Release "identity_impl" [] [] [] (tz 0 [3;3]%N 1 [7;7;7;7;7;7;7;7;7;99]%Z) = Ok (tz 0 [3;3]%N 1 [1;0;0;0;1;0;0;0;1;99]%Z) /\
  ready 0 (tz 0 [2]%N 3 [10;10; 20;20; 30;30; 99]%Z) /\ ready 0 (tz 0 [2]%N 2 [1;2; 3;4]%Z).
Proof. repeat split; try reflexivity; rdy. Qed.
