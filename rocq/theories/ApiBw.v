(** * ApiBw: backward functions and compound assignment by coordinates *)
From Verif Require Export ApiMove.
Set Implicit Arguments.

Lemma seq_shift_map V a : seq a V = map (fun r => a + r) (seq 0 V).
Proof.
  replace a with (a + 0) at 1 by lia. generalize 0. induction V as [|V IH]; intros b; [reflexivity|].
  simpl. f_equal. rewrite <- IH. f_equal. lia.
Qed.
Lemma hits_blocks B0 (g : nat -> nat) (h : nat -> B0 -> B0) B V p v :
  hits g h (seq 0 (B * V)) p v = fold_left (fun acc n => hits g h (map (fun r => n * V + r) (seq 0 V)) p acc) (seq 0 B) v.
Proof.
  induction B as [|B IH]; [reflexivity|].
  replace (S B * V) with (B * V + V) by lia. rewrite seq_app, hits_app, IH, seq_S, fold_left_app. cbn [fold_left Nat.add].
  rewrite (seq_shift_map V (B * V)). reflexivity.
Qed.
Lemma fold_left_ext_in A B (f g : A -> B -> A) l a : (forall x y, In y l -> f x y = g x y) -> fold_left f l a = fold_left g l a.
Proof.
  revert a. induction l as [|y l IH]; intros a H; [reflexivity|]. simpl. rewrite H by (left; reflexivity). apply IH. intros; apply H; right; auto.
Qed.

Lemma wf_index_lt s i : wf s -> (index s i < two32)%N.
Proof.
  intros W. destruct (index_div_volume i W) as (q & Hq). pose proof (wf_vol_bound W) as Hv. pose proof (wf_index_pos i W).
  assert (1 <= volume s)%N. { rewrite (wf_vol W). apply prodN_pos. apply (wf_Forall W). }
  assert (q <> 0)%N by (intros ->; lia). nia.
Qed.

Section ApiBw.
Variable K : num.
Notation F := (F K).
Notation tensor := (tensor K).
Variable m : build.

(** in-place write by coordinates: same device, shape and buffer length; cells of
    the buffer beyond the elements keep their value *)
Definition writes (r : res tensor) (x : tensor) (f : (nat -> nat) -> nat -> F) : Prop :=
  exists l', r = Ok (with_buf x l') /\ length l' = length (buf x) /\
    (forall p, tot (t_shape x) <= p -> nth0 l' p = nth0 (buf x) p) /\
    forall c b, inb (t_shape x) c -> b < bat (t_shape x) -> nth0 l' (pos (t_shape x) c b) = f c b.

Lemma writes_yields d r (x : tensor) f : ready d x -> writes r x f -> yields r d (t_shape x) f.
Proof.
  intros HR (l' & E & HL & _ & HO). exists (with_buf x l'). split; [exact E|]. split; [apply ready_with; auto|]. split; [reflexivity|].
  intros c b Hc Hb. rewrite at_buf, buf_with. apply HO; auto.
Qed.
Lemma writes_of_updates r (x : tensor) f g : wf (t_shape x) -> updates r x f ->
  (forall c b, inb (t_shape x) c -> b < bat (t_shape x) -> f (pos (t_shape x) c b) = g c b) -> writes r x g.
Proof.
  intros W (l' & E & HL & HO) HG. exists l'. split; [exact E|]. split; [exact HL|]. split.
  - intros p Hp. rewrite HO. apply Nat.ltb_ge in Hp. rewrite Hp. reflexivity.
  - intros c b Hc Hb. rewrite HO. pose proof (pos_lt W Hc Hb) as P. apply Nat.ltb_lt in P. rewrite P. auto.
Qed.
Lemma writes_ext r (x : tensor) f g : writes r x f -> (forall c b, inb (t_shape x) c -> b < bat (t_shape x) -> f c b = g c b) -> writes r x g.
Proof. intros (l' & E & HL & HO & HP) HG. exists l'. split; [exact E|]. split; [exact HL|]. split; [exact HO|]. intros. rewrite HP; auto. Qed.

(** [acc_batches] in coordinates *)
Lemma acc_ext s B q (f g : nat -> F -> F) v : (forall n w, n < B -> f n w = g n w) -> acc_batches K s B q f v = acc_batches K s B q g v.
Proof. intros H. unfold acc_batches. apply fold_left_ext_in. intros x n Hn. apply in_seq in Hn. rewrite H by lia. reflexivity. Qed.
Lemma pos_split_b s c q : inb s c -> pos s c q / vol s = q /\ pos s c q mod vol s = lin_lt (ext s) c 8.
Proof.
  intros Hc. unfold pos. assert (HL : lin_lt (ext s) c 8 < vol s) by (apply lin_lt_lt; intros; apply Hc). exact (divmod_of q HL).
Qed.
Lemma pos_of_lin s s' c n : (forall i, ext s i = ext s' i) -> n * vol s' + lin_lt (ext s) c 8 = pos s' c n.
Proof. intros E. unfold pos. f_equal. apply lin_lt_ext; auto. Qed.

Lemma collects_writes (s : shape) r (gx : tensor) h g :
  wf (t_shape gx) -> (forall i, ext (t_shape gx) i = ext s i) -> collects s r gx h ->
  (forall c n v, inb (t_shape gx) c -> n < bat s -> h n (lin_lt (ext (t_shape gx)) c 8) v = g c n v) ->
  writes r gx (fun c q => acc_batches K (t_shape gx) (bat s) q (g c) (at_ gx c q)).
Proof.
  intros W E HC HG. eapply writes_of_updates; [exact W|exact HC|]. intros c q Hc Hq. cbv beta.
  assert (EV : vol s = vol (t_shape gx)) by (apply vol_ext; intros; symmetry; apply E).
  rewrite EV. destruct (pos_split_b q Hc) as [-> ->].
  rewrite at_buf. apply acc_ext. intros n w Hn. apply HG; auto.
Qed.

(** ** compound assignment *)
Lemma assign_writes r acc d (x y : tensor) : ready d x -> ready d y -> (forall i, ext (t_shape x) i = ext (t_shape y) i) ->
  (let B := Nat.max (bat (t_shape x)) (bat (t_shape y)) in let V := vol (t_shape x) in
   updates r y (fun p => acc_batches K (t_shape y) B (p / V) (fun n v => acc v (nth0 (buf x) (bsel (t_shape x) n * V + p mod V))) (nth0 (buf y) p))) ->
  writes r y (fun c q => acc_batches K (t_shape y) (Nat.max (bat (t_shape x)) (bat (t_shape y))) q
     (fun n v => acc v (at_ x c (bsel (t_shape x) n))) (at_ y c q)).
Proof.
  intros Hx Hy HE HU. cbv zeta in HU. eapply writes_of_updates; [apply (ready_wf Hy)|exact HU|]. intros c q Hc Hq. cbv beta.
  assert (EV : vol (t_shape x) = vol (t_shape y)) by (apply vol_ext; intros; apply HE).
  rewrite EV. destruct (pos_split_b q Hc) as [-> ->]. rewrite at_buf. apply acc_ext. intros n w Hn.
  rewrite at_buf. rewrite <- EV. rewrite (@pos_of_lin (t_shape y) (t_shape x)); auto.
Qed.
Lemma add_assign_writes d (x y : tensor) : ready d x -> ready d y -> assign_ok x y ->
  writes (t_add_assign m y x) y (fun c q => acc_batches K (t_shape y) (Nat.max (bat (t_shape x)) (bat (t_shape y))) q
     (fun n v => nadd K v (at_ x c (bsel (t_shape x) n))) (at_ y c q)).
Proof. intros Hx Hy HA. eapply assign_writes; eauto. apply HA. eapply add_assign_updates; eauto. Qed.
Lemma sub_assign_writes d (x y : tensor) : ready d x -> ready d y -> assign_ok x y ->
  writes (t_sub_assign m y x) y (fun c q => acc_batches K (t_shape y) (Nat.max (bat (t_shape x)) (bat (t_shape y))) q
     (fun n v => nsub K v (at_ x c (bsel (t_shape x) n))) (at_ y c q)).
Proof. intros Hx Hy HA. eapply assign_writes; eauto. apply HA. eapply sub_assign_updates; eauto. Qed.
Lemma mul_assign_writes d (y : tensor) k : ready d y -> writes (t_mul_assign m y k) y (fun c b => nmul K (at_ y c b) k).
Proof. intros Hy. eapply writes_of_updates; [apply (ready_wf Hy)|eapply mul_assign_updates; eauto|]. reflexivity. Qed.

(** ** slice_bw *)
Lemma slice_bw_writes d (gy gx : tensor) dim lo : ready d gy -> ready d gx -> N.to_nat dim < 8 ->
  (forall i, i <> N.to_nat dim -> ext (t_shape gy) i = ext (t_shape gx) i) -> bat (t_shape gy) = bat (t_shape gx) ->
  N.to_nat lo + ext (t_shape gy) (N.to_nat dim) <= ext (t_shape gx) (N.to_nat dim) ->
  writes (slice_bw m d gy dim lo gx) gx (fun c b => let e := N.to_nat dim in
    if (N.to_nat lo <=? c e) && (c e <? N.to_nat lo + ext (t_shape gy) e) then nadd K (at_ gx c b) (at_ gy (cset c e (c e - N.to_nat lo)) b) else at_ gx c b).
Proof.
  intros Hg Hx Hd HE HB HO. unfold slice_bw. rewrite (ready_check Hg), (ready_check Hx). cbn [bind].
  set (e := N.to_nat dim) in *. pose proof (ready_wf Hg) as Wg. pose proof (ready_wf Hx) as Wx.
  assert (Ha : add32 m lo (index (t_shape gy) e) = Ok (lo + index (t_shape gy) e)%N).
  { unfold add32, norm32. assert ((lo + index (t_shape gy) e < two32)%N) as L.
    { unfold ext in HO. pose proof (wf_index_lt e Wx). lia. }
    apply N.ltb_lt in L. rewrite L. reflexivity. }
  rewrite Ha. cbn [bind].
  assert (S : sliced (t_shape gx) (t_shape gy) e (N.to_nat lo)) by (constructor; auto).
  assert (Es : so_slice m (t_shape gx) e lo (lo + index (t_shape gy) e) = Ok (t_shape gy)).
  { apply slice_shape; auto. pose proof (wf_index_pos e Wg); lia. unfold ext in HO; lia.
    split; [exact Wg|]. split; [|exact HB]. intros i. unfold eset. destruct (Nat.eqb_spec i e) as [Ei|n]; [rewrite Ei in *|]; [unfold ext; lia|auto]. }
  rewrite Es. cbn [bind]. rewrite assert_eqb by auto. cbn [bind].
  rewrite (call_bw_eq _ (eq_refl : assoc (bw_registry K m) "slice_bw_impl" = _)). cbn [idx nth_error bind].
  destruct (k_slice_bw_spec m (ready_vt Hg) (ready_vt Hx) (eq_refl : [dim; lo] = _)) as (l' & E' & HL & HP); [exact S|].
  exists l'. split; [exact E'|]. split; [exact HL|]. split.
  - intros p Hp. rewrite HP. apply hits_none. intros q Hq. apply in_seq in Hq. pose proof (@slg_lt _ _ _ _ S q ltac:(lia)). fold e. lia.
  - intros c b Hc Hb. rewrite HP. cbv zeta. fold e.
    destruct ((N.to_nat lo <=? c e) && (c e <? N.to_nat lo + ext (t_shape gy) e)) eqn:EB.
    + apply andb_true_iff in EB. destruct EB as [E1 E2]. apply Nat.leb_le in E1. apply Nat.ltb_lt in E2.
      assert (Hc' : inb (t_shape gy) (cset c e (c e - N.to_nat lo))).
      { eapply inb_cset; [exact Hc|auto|lia]. }
      rewrite (@hits_unique _ _ _ _ _ (pos (t_shape gy) (cset c e (c e - N.to_nat lo)) b)).
      * rewrite !at_buf. reflexivity.
      * apply seq_NoDup.
      * apply in_seq. split; [lia|]. apply pos_lt; auto. lia.
      * rewrite (slg_pos S b Hc'). apply pos_ext; auto. intros i _. unfold cset. destruct (Nat.eqb_spec i e) as [Ei|n]; [rewrite Ei in *|]; auto.
        rewrite Nat.eqb_refl. lia.
      * intros a' Ha' Ea'. apply in_seq in Ha'. destruct (@pos_surj (t_shape gy) a' Wg) as (c1 & b1 & H1 & H2 & <-); [lia|].
        rewrite (slg_pos S b1 H1) in Ea'. apply pos_inj in Ea'; auto; [|apply (inb_sl S H1)]. destruct Ea' as (-> & Ec).
        apply pos_ext; auto. intros i _. specialize (Ec i). unfold cset in *. destruct (Nat.eqb_spec i e) as [Ei|n]; [rewrite Ei in *|]; lia.
    + apply hits_none. intros a' Ha' Ea'. apply in_seq in Ha'. destruct (@pos_surj (t_shape gy) a' Wg) as (c1 & b1 & H1 & H2 & <-); [lia|].
      fold e in Ea'. rewrite (slg_pos S b1 H1) in Ea'. apply pos_inj in Ea'; auto; [|apply (inb_sl S H1)]. destruct Ea' as (-> & Ec).
      specialize (Ec e). rewrite cset_eq in Ec. specialize (H1 e). apply andb_false_iff in EB. destruct EB as [EB|EB]; [apply Nat.leb_gt in EB|apply Nat.ltb_ge in EB]; lia.
Qed.

(** ** pick_bw: minibatch element n of gy goes to index pid ids n of its batch *)
Lemma pick_bw_writes d (gy gx : tensor) ids dim : ready d gy -> ready d gx -> N.to_nat dim < 8 -> (N.of_nat (length ids) < two32)%N -> ids <> [] ->
  (length ids = 1 \/ bat (t_shape gx) = 1 \/ length ids = bat (t_shape gx)) ->
  Forall (fun id => N.to_nat id < ext (t_shape gx) (N.to_nat dim)) ids ->
  shape_is (t_shape gy) (eset (t_shape gx) (N.to_nat dim) 1) (Nat.max (bat (t_shape gx)) (length ids)) ->
  writes (pick_bw m d gy ids dim gx) gx (fun c q => acc_batches K (t_shape gx) (bat (t_shape gy)) q
    (fun n v => if pid ids n =? c (N.to_nat dim) then nadd K v (at_ gy (cset c (N.to_nat dim) 0) n) else v) (at_ gx c q)).
Proof.
  intros Hg Hx Hd HL H0 Hc HI Hs.
  set (e := N.to_nat dim) in *. pose proof (ready_wf Hg) as Wg. pose proof (ready_wf Hx) as Wx.
  assert (Hc' : compat (batch (t_shape gx)) (N.of_nat (length ids))) by (unfold compat, bat in *; lia).
  assert (HI' : Forall (fun id => id < index (t_shape gx) e)%N ids) by (eapply Forall_impl; [|exact HI]; intros a Ha; cbv beta in Ha; unfold ext in Ha; lia).
  unfold pick_bw. rewrite (ready_check Hg), (ready_check Hx). cbn [bind]. fold e.
  rewrite (pick_shape m Wx Hd HL H0 Hc' HI' Hs). cbn [bind].
  pose proof (pick_picked Wx H0 Hc' HI' Hs) as P. rewrite assert_eqb by auto. cbn [bind].
  rewrite (call_bw_eq _ (eq_refl : assoc (bw_registry K m) "pick_bw_impl" = _)). cbn [idx nth_error bind].
  destruct (k_pick_bw_spec m dim (ids:=ids) (ready_vt Hg) (ready_vt Hx)) as (l' & E' & HL' & HP); [exact P|].
  exists l'. split; [exact E'|]. split; [exact HL'|]. split.
  - intros p Hp. rewrite HP. apply hits_none. intros q Hq. apply in_seq in Hq. pose proof (@pkg_lt _ _ _ _ P q ltac:(lia)). fold e. lia.
  - intros c q Hcc Hq. rewrite HP. fold e. unfold tot. rewrite hits_blocks. unfold acc_batches. apply fold_left_ext_in.
    intros v n Hn. apply in_seq in Hn. set (V := vol (t_shape gy)).
    assert (Hn' : n < bat (t_shape gy)) by lia.
    assert (EP : forall r, r < V -> exists c1, inb (t_shape gy) c1 /\ n * V + r = pos (t_shape gy) c1 n).
    { intros r Hr. destruct (@pos_surj (t_shape gy) (n * V + r) Wg) as (c1 & b1 & H1 & H2 & H3).
      - unfold tot. fold V. nia.
      - exists c1. split; [exact H1|]. rewrite <- H3. f_equal.
        pose proof (pos_split_b b1 H1) as [Q _]. rewrite H3 in Q. fold V in Q. destruct (@divmod_of V r n Hr) as [Q2 _]. congruence. }
    assert (C0 : inb (t_shape gy) (cset c e 0)).
    { eapply inb_cset; [exact Hcc|apply (pk_ext P)|]. rewrite (pk_one P). lia. }
    destruct (Nat.eqb_spec (bsel (t_shape gx) n) q) as [Eq|Nq]; [destruct (Nat.eqb_spec (pid ids n) (c e)) as [Ep|Np]|].
    + set (r0 := lin_lt (ext (t_shape gy)) (cset c e 0) 8).
      assert (Hr0 : r0 < V) by (apply lin_lt_lt; intros; apply C0).
      rewrite (@hits_unique _ _ _ _ _ (n * V + r0)).
      * rewrite !at_buf. reflexivity.
      * apply FinFun.Injective_map_NoDup; [intros a1 a2 Hx'; lia|apply seq_NoDup].
      * apply in_map_iff. exists r0. split; auto. apply in_seq; lia.
      * change (n * V + r0) with (pos (t_shape gy) (cset c e 0) n). rewrite (pkg_pos P C0 Hn'). rewrite Eq, Ep.
        apply pos_ext; auto. intros i _. unfold cset. destruct (Nat.eqb_spec i e) as [Ei|]; [rewrite Ei in *|]; auto.
      * intros a' Ha' Ea'. apply in_map_iff in Ha'. destruct Ha' as (r & <- & Hr). apply in_seq in Hr.
        destruct (EP r) as (c1 & H1 & H2); [lia|]. rewrite H2 in *. rewrite (pkg_pos P H1 Hn') in Ea'.
        apply pos_inj in Ea'; auto; [|apply (inb_pk P H1 Hn')]. destruct Ea' as (_ & Ec).
        change (n * V + r0) with (pos (t_shape gy) (cset c e 0) n). apply pos_ext; auto. intros i _. specialize (Ec i).
        unfold cset in *. destruct (Nat.eqb_spec i e) as [Ei|]; [rewrite Ei in *|]; auto. specialize (H1 e). rewrite (pk_one P) in H1. lia.
    + apply hits_none. intros a' Ha' Ea'. apply in_map_iff in Ha'. destruct Ha' as (r & <- & Hr). apply in_seq in Hr.
      destruct (EP r) as (c1 & H1 & H2); [lia|]. rewrite H2 in *. rewrite (pkg_pos P H1 Hn') in Ea'.
      apply pos_inj in Ea'; auto; [|apply (inb_pk P H1 Hn')]. destruct Ea' as (_ & Ec). specialize (Ec e). rewrite cset_eq in Ec. contradiction.
    + apply hits_none. intros a' Ha' Ea'. apply in_map_iff in Ha'. destruct Ha' as (r & <- & Hr). apply in_seq in Hr.
      destruct (EP r) as (c1 & H1 & H2); [lia|]. rewrite H2 in *. rewrite (pkg_pos P H1 Hn') in Ea'.
      apply pos_inj in Ea'; auto; [|apply (inb_pk P H1 Hn')]. destruct Ea' as (Eb & _). contradiction.
Qed.

(** ** max_bw / min_bw: the gradient goes to the first index whose value equals the result *)
Lemma extremum_bw_writes name d (x y gy gx : tensor) dim :
  assoc (bw_registry K m) name = Some (fun _ xs ys gys u _ gx => x <- idx xs 0 ;; y <- idx ys 0 ;; gy <- idx gys 0 ;; d <- idx u 0 ;; k_extremum_bw m x y gy (N.to_nat d) gx) ->
  ready d x -> ready d y -> ready d gy -> ready d gx -> N.to_nat dim < 8 ->
  t_shape gx = t_shape x -> t_shape gy = t_shape y -> reduces (t_shape x) (t_shape y) (N.to_nat dim) ->
  writes (extremum_bw m name d x y gy dim gx) gx (fun c b => let e := N.to_nat dim in
     match first_eq K (fun j => at_ x (cset c e j) b) (at_ y (cset c e 0) b) (ext (t_shape x) e) 0 with
     | Some j => if j =? c e then nadd K (at_ gx c b) (at_ gy (cset c e 0) b) else at_ gx c b
     | None => at_ gx c b
     end).
Proof.
  intros HN Hx Hy Hg Hgx Hd E1 E2 R. unfold extremum_bw. rewrite !ready_check by auto. cbn [bind].
  rewrite !same_shape_Ok; auto; [|apply (ready_wf Hy)|apply (ready_wf Hx)]. cbn [bind].
  assert (Es : resize_dim m (t_shape x) (N.to_nat dim) 1 = Ok (t_shape y)).
  { apply le_resize_dim. apply resize_dim_iff; [apply (ready_wf Hx)|]. split; [exact Hd|]. split; [lia|].
    eapply shape_is_N; [apply (reduces_shape_is R)| |reflexivity]. intros; apply eset_upd'; reflexivity. }
  rewrite Es. cbn [bind]. rewrite assert_eqb by apply (ready_wf Hy). cbn [bind].
  rewrite (call_bw_eq _ HN). cbn [idx nth_error bind].
  destruct (k_extremum_bw_spec m (ready_vt Hx) (ready_vt Hy) (ready_vt Hg) (ready_vt Hgx) R E2 E1) as (l' & E' & HO).
  eapply writes_of_updates; [apply (ready_wf Hgx)|exists l'; split; [exact E'|exact HO]|].
  intros c b Hc Hb. cbv zeta. rewrite E1 in Hc. rewrite E1. destruct (lline_pos R b Hc) as [-> ->].
  set (e := N.to_nat dim) in *. pose proof (inb_red' R Hc) as C0.
  assert (G : forall n j0, j0 + n <= ext (t_shape x) e ->
    first_eq K (fun j => nth0 (buf x) (lpos (t_shape x) e (pos (t_shape y) (cset c e 0) b) j)) (nth0 (buf y) (pos (t_shape y) (cset c e 0) b)) n j0 =
    first_eq K (fun j => at_ x (cset c e j) b) (at_ y (cset c e 0) b) n j0).
  { induction n as [|n IH]; intros j0 Hj; [reflexivity|]. cbn [first_eq]. rewrite (lpos_pos R b C0) by lia. rewrite IH by lia.
    rewrite !at_buf. replace (pos (t_shape x) (cset (cset c e 0) e j0) b) with (pos (t_shape x) (cset c e j0) b); [reflexivity|].
    apply pos_ext; auto. intros i _. unfold cset. destruct (i =? e); reflexivity. }
  rewrite G by lia. rewrite !at_buf, E1, E2. reflexivity.
Qed.
End ApiBw.
