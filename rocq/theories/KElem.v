(** * KElem: what the elementwise kernels compute *)
From Verif Require Export KLib.
Set Implicit Arguments.

Section Elem.
Variable K : num.
Variable m : build.
Implicit Types x y gx gy ga gb : tensor K.
Notation F := (F K).
Notation nth0 l p := (nth p l (@n0 K)).

Ltac kstart :=
  repeat match goal with
  | H : vt ?t ?l |- context [ptr ?t] => rewrite (ptr_vt H); cbn [bind]
  | H : vt ?t ?l |- context [size ?m (t_shape ?t)] => rewrite (size_vt m H); cbn [bind]
  end; rewrite ?Nat2N.id.
Ltac rdok := match goal with |- context [rd ?l ?i] => rewrite (rd_Ok l i n0) by lia; cbn [bind] end.

Lemma k_fw_x_spec (op : F -> F) x y lx ly : vt x lx -> vt y ly -> tot (t_shape x) = tot (t_shape y) ->
  exists l', k_fw_x m op x y = Ok (with_buf y l') /\ over n0 ly l' (tot (t_shape y)) (fun p => op (nth0 lx p)).
Proof.
  intros Hx Hy Et. unfold k_fw_x. kstart.
  pose proof (proj2 (proj2 Hx)). pose proof (proj2 (proj2 Hy)).
  edestruct (@wr_loop F n0 (tot (t_shape y))) with (l := ly) (f := fun p => op (nth0 lx p)) as (l' & E & HO); auto.
  2:{ rewrite E. simpl. eauto. }
  intros i l' Hi HL. simpl. rdok. rewrite wr_Ok by lia. auto.
Qed.

Lemma k_fw_const_eq op x k y : k_fw_const m op x k y = k_fw_x m (fun v => op v k) x y.
Proof. reflexivity. Qed.
Lemma k_powi_fw_eq x n u y : k_powi_fw m x (n :: u) y = k_fw_x m (fun v => npowi K v (as_i32 n)) x y.
Proof. reflexivity. Qed.

Lemma k_bw_x_spec (op : F -> F -> F -> F) x y gy gx lx ly lgy lgx :
  vt x lx -> vt y ly -> vt gy lgy -> vt gx lgx ->
  tot (t_shape x) = tot (t_shape gy) -> tot (t_shape y) = tot (t_shape gy) -> tot (t_shape gx) = tot (t_shape gy) ->
  exists l', k_bw_x m op x y gy gx = Ok (with_buf gx l') /\
    over n0 lgx l' (tot (t_shape gx)) (fun p => nadd K (nth0 lgx p) (op (nth0 lx p) (nth0 ly p) (nth0 lgy p))).
Proof.
  intros Hx Hy Hgy Hgx E1 E2 E3. unfold k_bw_x. kstart. rewrite <- E3.
  pose proof (proj2 (proj2 Hx)). pose proof (proj2 (proj2 Hy)). pose proof (proj2 (proj2 Hgy)). pose proof (proj2 (proj2 Hgx)).
  edestruct (@upd_loop F n0 (tot (t_shape gx))) with (l := lgx)
     (h := fun p v => nadd K v (op (nth0 lx p) (nth0 ly p) (nth0 lgy p))) as (l' & E & HO); auto.
  2:{ rewrite E. simpl. eauto. }
  intros i l' Hi HL. simpl. do 3 rdok. rewrite (upd_Ok n0) by lia. auto.
Qed.

Lemma k_bw_const_eq op x y gy k gx : k_bw_const m op x y gy k gx = k_bw_x m (fun vx vy vg => op vx vy vg k) x y gy gx.
Proof. reflexivity. Qed.

Lemma k_powi_bw_spec x gy n u gx lx lgy lgx n1' : 
  vt x lx -> vt gy lgy -> vt gx lgx ->
  tot (t_shape x) = tot (t_shape gy) -> tot (t_shape gx) = tot (t_shape gy) ->
  sub_i32 m (as_i32 n) 1 = Ok n1' ->
  exists l', k_powi_bw m x gy (n :: u) gx = Ok (with_buf gx l') /\
    over n0 lgx l' (tot (t_shape gx)) (fun p => nadd K (nth0 lgx p)
        (nmul K (nmul K (nth0 lgy p) (nofZ K (as_i32 n))) (npowi K (nth0 lx p) n1'))).
Proof.
  intros Hx Hgy Hgx E1 E3 Hn. unfold k_powi_bw. cbn [idx nth_error bind]. kstart. rewrite <- E3.
  pose proof (proj2 (proj2 Hx)). pose proof (proj2 (proj2 Hgy)). pose proof (proj2 (proj2 Hgx)).
  edestruct (@upd_loop F n0 (tot (t_shape gx))) with (l := lgx)
     (h := fun p v => nadd K v (nmul K (nmul K (nth0 lgy p) (nofZ K (as_i32 n))) (npowi K (nth0 lx p) n1'))) as (l' & E & HO); auto.
  2:{ rewrite E. simpl. eauto. }
  intros i l' Hi HL. simpl. do 2 rdok. rewrite Hn. cbn [bind]. rewrite (upd_Ok n0) by lia. auto.
Qed.

Lemma k_mul_assign_spec k y ly : vt y ly ->
  exists l', k_mul_assign m k y = Ok (with_buf y l') /\ over n0 ly l' (tot (t_shape y)) (fun p => nmul K (nth0 ly p) k).
Proof.
  intros Hy. unfold k_mul_assign. kstart. pose proof (proj2 (proj2 Hy)).
  edestruct (@upd_loop F n0 (tot (t_shape y))) with (l := ly) (h := fun (_ : nat) v => nmul K v k) as (l' & E & HO); auto.
  2:{ rewrite E. simpl. eauto. }
  intros i l' Hi HL. simpl. rewrite (upd_Ok n0) by lia. auto.
Qed.

Lemma k_reset_spec k y ly : vt y ly ->
  exists l', k_reset m k y = Ok (with_buf y l') /\ over n0 ly l' (tot (t_shape y)) (fun _ : nat => k).
Proof.
  intros Hy. unfold k_reset. kstart. pose proof (proj2 (proj2 Hy)).
  edestruct (@wr_loop F n0 (tot (t_shape y))) with (l := ly) (f := fun p : nat => k) as (l' & E & HO); auto.
  2:{ rewrite E. simpl. eauto. }
  intros i l' Hi HL. simpl. rewrite wr_Ok by lia. auto.
Qed.

Lemma k_reset_slice_spec vs y ly : vt y ly -> length vs = tot (t_shape y) ->
  exists l', k_reset_slice m vs y = Ok (with_buf y l') /\ over n0 ly l' (tot (t_shape y)) (fun p => nth0 vs p).
Proof.
  intros Hy Hl. unfold k_reset_slice. kstart. pose proof (proj2 (proj2 Hy)).
  edestruct (@wr_loop F n0 (tot (t_shape y))) with (l := ly) (f := fun p : nat => nth0 vs p) as (l' & E & HO); auto.
  2:{ rewrite E. simpl. eauto. }
  intros i l' Hi HL. simpl. rewrite (idx_Ok vs i n0) by lia. cbn [bind]. rewrite wr_Ok by lia. auto.
Qed.

Lemma aset_Ok A (l : list A) i v : i < length l -> aset l i v = Ok (lset l i v).
Proof. intros H; unfold aset. apply Nat.ltb_lt in H. rewrite H; auto. Qed.

Lemma k_to_vector_spec x lx l0 : vt x lx -> length l0 = tot (t_shape x) ->
  k_to_vector m x l0 = Ok (firstn (tot (t_shape x)) lx).
Proof.
  intros Hx Hl. unfold k_to_vector. kstart. pose proof (proj2 (proj2 Hx)).
  edestruct (@wr_loop F n0 (tot (t_shape x))) with (l := l0) (f := fun p : nat => nth0 lx p) as (l' & E & HO).
  3:{ rewrite E. f_equal. destruct HO as (HL & HP). apply nth_ext_len with (d := n0).
      - rewrite firstn_length. lia.
      - intros i Hi. rewrite HP. replace (i <? _) with true by (symmetry; apply Nat.ltb_lt; lia).
        rewrite nth_firstn_lt by lia. auto. }
  - lia.
  - intros i l' Hi HL. simpl. rdok. rewrite aset_Ok by lia. auto.
Qed.

(** *** binary kernels with minibatch broadcasting *)
Section AB.
Variables (B V : nat).
Definition okb (s : shape) : Prop := wf s /\ vol s = V /\ (bat s = 1 \/ bat s = B).
Lemma okb_bsel s b : okb s -> b < B -> bsel s b < bat s.
Proof. intros (Hw & _ & Hb) HB. unfold bsel. destruct (Nat.eqb_spec (bat s) 1); lia. Qed.
Lemma okb_read s b i (l : list F) : okb s -> b < B -> i < V -> tot s <= length l -> bsel s b * V + i < length l.
Proof.
  intros H Hb Hi Hl. pose proof (okb_bsel H Hb). destruct H as (Hw & HV & _). unfold tot in Hl. rewrite HV in Hl. nia.
Qed.
End AB.

Ltac kvol :=
  repeat match goal with
  | H : vt ?t ?l |- context [N.to_nat (volume (t_shape ?t))] => rewrite (vol_volume (vt_wf H))
  end; repeat change (N.to_nat (batch ?s)) with (bat s).

Ltac kread := match goal with |- context [rd ?l ?i] => rewrite (rd_Ok l i n0); [cbn [bind]|] end.

(** selecting the operand's element for flat position p of the result *)
Definition bpos (s : shape) (V p : nat) : nat := bsel s (p / V) * V + p mod V.

Lemma k_fw_ab_spec (op : F -> F -> F) a b y la lb ly : vt a la -> vt b lb -> vt y ly ->
  okb (bat (t_shape y)) (vol (t_shape y)) (t_shape a) -> okb (bat (t_shape y)) (vol (t_shape y)) (t_shape b) ->
  exists l', k_fw_ab op a b y = Ok (with_buf y l') /\
    over n0 ly l' (tot (t_shape y)) (fun p => op (nth0 la (bpos (t_shape a) (vol (t_shape y)) p))
                                                  (nth0 lb (bpos (t_shape b) (vol (t_shape y)) p))).
Proof.
  intros Ha Hb Hy Oa Ob. unfold k_fw_ab. kstart. kvol.
  set (B := bat (t_shape y)) in *. set (V := vol (t_shape y)) in *.
  pose proof (proj2 (proj2 Ha)). pose proof (proj2 (proj2 Hb)). pose proof (proj2 (proj2 Hy)) as HyL.
  assert (HV : 1 <= V) by apply (vol_pos (vt_wf Hy)).
  rewrite (@forN_stride3 (list F) B (shift (t_shape a) V) (shift (t_shape b) V) V
     (fun _ oa ob oy py => forN V (fun i py => va <- rd la (oa + i) ;; vb <- rd lb (ob + i) ;; wr py (oy + i) (op va vb)) py) 0 0 0 ly).
  rewrite (@forN_nest_rev (list F) B V (fun b0 i s => va <- rd la (0 + b0 * shift (t_shape a) V + i) ;;
             vb <- rd lb (0 + b0 * shift (t_shape b) V + i) ;; wr s (0 + b0 * V + i) (op va vb)) ly).
  change (B * V) with (tot (t_shape y)).
  edestruct (@wr_loop F n0 (tot (t_shape y))) with (l := ly)
     (f := fun p => op (nth0 la (bpos (t_shape a) V p)) (nth0 lb (bpos (t_shape b) V p))) as (l' & E & HO); auto.
  2:{ rewrite E. simpl. eauto. }
  intros p l' Hp HL. simpl.
  assert (Hq : p / V < B) by (apply Nat.div_lt_upper_bound; unfold tot in Hp; fold B V in Hp; lia).
  assert (Hr : p mod V < V) by (apply Nat.mod_upper_bound; lia).
  rewrite !shift_bsel by (apply Oa || apply Ob).
  kread; [|eapply okb_read; eauto]. kread; [|eapply okb_read; eauto].
  rewrite wr_Ok.
  - do 2 f_equal. rewrite (Nat.mul_comm (p / V) V). symmetry. rewrite (Nat.div_mod p V) at 1 by lia. auto.
  - rewrite (Nat.mul_comm (p / V) V), <- (Nat.div_mod p V) by lia. lia.
Qed.

Lemma k_fw_scalar_spec (op : F -> F -> F) x k y lx lk ly : vt x lx -> vt k lk -> vt y ly ->
  okb (bat (t_shape y)) (vol (t_shape y)) (t_shape x) -> okb (bat (t_shape y)) 1 (t_shape k) ->
  exists l', k_fw_scalar op x k y = Ok (with_buf y l') /\
    over n0 ly l' (tot (t_shape y)) (fun p => op (nth0 lx (bpos (t_shape x) (vol (t_shape y)) p))
                                                  (nth0 lk (bsel (t_shape k) (p / vol (t_shape y))))).
Proof.
  intros Ha Hb Hy Oa Ob. unfold k_fw_scalar. kstart. kvol.
  set (B := bat (t_shape y)) in *. set (V := vol (t_shape y)) in *.
  pose proof (proj2 (proj2 Ha)). pose proof (proj2 (proj2 Hb)) as HkL. pose proof (proj2 (proj2 Hy)) as HyL.
  assert (HV : 1 <= V) by apply (vol_pos (vt_wf Hy)).
  rewrite (@forN_stride3 (list F) B (shift (t_shape x) V) (shift (t_shape k) 1) V
     (fun _ oa ob oy py => forN V (fun i py => va <- rd lx (oa + i) ;; vb <- rd lk ob ;; wr py (oy + i) (op va vb)) py) 0 0 0 ly).
  rewrite (@forN_nest_rev (list F) B V (fun b0 i s => va <- rd lx (0 + b0 * shift (t_shape x) V + i) ;;
             vb <- rd lk (0 + b0 * shift (t_shape k) 1) ;; wr s (0 + b0 * V + i) (op va vb)) ly).
  change (B * V) with (tot (t_shape y)).
  edestruct (@wr_loop F n0 (tot (t_shape y))) with (l := ly)
     (f := fun p => op (nth0 lx (bpos (t_shape x) V p)) (nth0 lk (bsel (t_shape k) (p / V)))) as (l' & E & HO); auto.
  2:{ rewrite E. simpl. eauto. }
  intros p l' Hp HL. simpl.
  assert (Hq : p / V < B) by (apply Nat.div_lt_upper_bound; unfold tot in Hp; fold B V in Hp; lia).
  assert (Hr : p mod V < V) by (apply Nat.mod_upper_bound; lia).
  rewrite !shift_bsel by (apply Oa || apply Ob).
  kread; [|eapply okb_read; eauto]. kread.
  2:{ pose proof (@okb_read B 1 _ (p/V) 0 lk Ob Hq ltac:(lia) HkL). lia. }
  rewrite Nat.mul_1_r. rewrite wr_Ok.
  - do 2 f_equal. rewrite (Nat.mul_comm (p / V) V). symmetry. rewrite (Nat.div_mod p V) at 1 by lia. auto.
  - rewrite (Nat.mul_comm (p / V) V), <- (Nat.div_mod p V) by lia. lia.
Qed.

(** the batches of the result that are accumulated into batch q of an operand,
    in increasing order *)
Definition acc_batches (s : shape) (B q : nat) (f : nat -> F -> F) (v : F) : F :=
  fold_left (fun acc b => if bsel s b =? q then f b acc else acc) (seq 0 B) v.

(** generic form of the backward kernels: the loop adds into (bsel b, i) *)
Lemma bw_generic B V sg lg (h : nat -> nat -> F -> F) (body : nat -> nat -> list F -> res (list F)) :
  okb B V sg -> tot sg <= length lg -> 1 <= V ->
  (forall b i l', b < B -> i < V -> length l' = length lg -> bsel sg b * V + i < length lg ->
      body b i l' = Ok (lset l' (bsel sg b * V + i) (h b i (nth (bsel sg b * V + i) l' n0)))) ->
  exists l', forN B (fun b l => forN V (fun i l => body b i l) l) lg = Ok l' /\
    over n0 lg l' (tot sg) (fun p => acc_batches sg B (p / V) (fun b => h b (p mod V)) (nth0 lg p)).
Proof.
  intros Ho HL HV Hb. pose proof Ho as (Hw & HVs & Hbb).
  assert (Et : tot sg = bat sg * V) by (unfold tot; rewrite HVs; auto).
  destruct (@upd_loop2 F n0 B (bat sg) V body (bsel sg) h lg) as (l' & E & HL' & HP & HO).
  - rewrite <- Et; auto.
  - intros b Hbb'. eapply okb_bsel; eauto.
  - intros b i l' H1 H2 H3. apply Hb; auto. eapply okb_read; eauto.
  - exists l'; split; [exact E|]. split; auto. intros p. destruct (Nat.ltb_spec p (tot sg)).
    + assert (Hq : p / V < bat sg) by (apply Nat.div_lt_upper_bound; nia).
      assert (Hr : p mod V < V) by (apply Nat.mod_upper_bound; lia).
      specialize (HP _ _ Hq Hr). rewrite (Nat.mul_comm (p / V) V), <- (Nat.div_mod p V) in HP by lia. exact HP.
    + apply HO. lia.
Qed.

Lemma k_bw_lin_spec (acc : F -> F -> F) gy ga lgy lga : vt gy lgy -> vt ga lga ->
  okb (bat (t_shape gy)) (vol (t_shape gy)) (t_shape ga) ->
  exists l', k_bw_lin acc gy ga = Ok (with_buf ga l') /\
    over n0 lga l' (tot (t_shape ga)) (fun p => let V := vol (t_shape gy) in
       acc_batches (t_shape ga) (bat (t_shape gy)) (p / V) (fun b v => acc v (nth0 lgy (b * V + p mod V))) (nth0 lga p)).
Proof.
  intros Hgy Hga Oa. unfold k_bw_lin. kstart. kvol.
  set (B := bat (t_shape gy)) in *. set (V := vol (t_shape gy)) in *.
  pose proof (proj2 (proj2 Hga)). pose proof (proj2 (proj2 Hgy)) as HyL.
  assert (HV : 1 <= V) by apply (vol_pos (vt_wf Hgy)).
  rewrite (@forN_stride2 (list F) B V (shift (t_shape ga) V)
     (fun _ og oa pga => forN V (fun i pga => vg <- rd lgy (og + i) ;; upd pga (oa + i) (fun v => Ok (acc v vg))) pga) 0 0 lga).
  destruct (@bw_generic B V (t_shape ga) lga (fun b i v => acc v (nth0 lgy (b * V + i)))
     (fun b i l => vg <- rd lgy (0 + b * V + i) ;; upd l (0 + b * shift (t_shape ga) V + i) (fun v => Ok (acc v vg)))) as (l' & E & HO); auto.
  2:{ rewrite E. cbn [bind]. eauto. }
  intros b i l' Hb Hi HL Hlt. simpl. rewrite shift_bsel by apply Oa.
  kread; [|unfold tot in HyL; fold B V in HyL; nia]. rewrite (upd_Ok n0) by lia. auto.
Qed.

Lemma k_bw_other_spec (op : F -> F -> F) o gy ga lo lgy lga : vt o lo -> vt gy lgy -> vt ga lga ->
  okb (bat (t_shape gy)) (vol (t_shape gy)) (t_shape ga) -> okb (bat (t_shape gy)) (vol (t_shape gy)) (t_shape o) ->
  exists l', k_bw_other op o gy ga = Ok (with_buf ga l') /\
    over n0 lga l' (tot (t_shape ga)) (fun p => let V := vol (t_shape gy) in
       acc_batches (t_shape ga) (bat (t_shape gy)) (p / V)
         (fun b v => nadd K v (op (nth0 lo (bsel (t_shape o) b * V + p mod V)) (nth0 lgy (b * V + p mod V)))) (nth0 lga p)).
Proof.
  intros Ho Hgy Hga Oa Oo. unfold k_bw_other. kstart. kvol.
  set (B := bat (t_shape gy)) in *. set (V := vol (t_shape gy)) in *.
  pose proof (proj2 (proj2 Hga)). pose proof (proj2 (proj2 Hgy)) as HyL. pose proof (proj2 (proj2 Ho)) as HoL.
  assert (HV : 1 <= V) by apply (vol_pos (vt_wf Hgy)).
  rewrite (@forN_stride3 (list F) B (shift (t_shape o) V) V (shift (t_shape ga) V)
     (fun _ oo og oa pga => forN V (fun i pga => vo <- rd lo (oo + i) ;; vg <- rd lgy (og + i) ;; upd pga (oa + i) (fun v => Ok (nadd K v (op vo vg)))) pga) 0 0 0 lga).
  destruct (@bw_generic B V (t_shape ga) lga (fun b i v => nadd K v (op (nth0 lo (bsel (t_shape o) b * V + i)) (nth0 lgy (b * V + i))))
     (fun b i l => vo <- rd lo (0 + b * shift (t_shape o) V + i) ;; vg <- rd lgy (0 + b * V + i) ;;
                   upd l (0 + b * shift (t_shape ga) V + i) (fun v => Ok (nadd K v (op vo vg))))) as (l' & E & HO); auto.
  2:{ rewrite E. cbn [bind]. eauto. }
  intros b i l' Hb Hi HL Hlt. simpl. rewrite !shift_bsel by (apply Oa || apply Oo).
  kread; [|eapply okb_read; eauto].
  kread; [|unfold tot in HyL; fold B V in HyL; nia]. rewrite (upd_Ok n0) by lia. auto.
Qed.

Lemma k_div_bw_b_spec b y gy gb lb ly lgy lgb : vt b lb -> vt y ly -> vt gy lgy -> vt gb lgb ->
  okb (bat (t_shape gy)) (vol (t_shape gy)) (t_shape gb) -> t_shape b = t_shape gb -> t_shape y = t_shape gy ->
  exists l', k_div_bw_b b y gy gb = Ok (with_buf gb l') /\
    over n0 lgb l' (tot (t_shape gb)) (fun p => let V := vol (t_shape gy) in
       acc_batches (t_shape gb) (bat (t_shape gy)) (p / V)
         (fun b v => nsub K v (ndiv K (nmul K (nth0 lgy (b * V + p mod V)) (nth0 ly (b * V + p mod V)))
                                       (nth0 lb (bsel (t_shape gb) b * V + p mod V)))) (nth0 lgb p)).
Proof.
  intros Hb0 Hy Hgy Hgb Oa Eb Ey. unfold k_div_bw_b. kstart. kvol.
  set (B := bat (t_shape gy)) in *. set (V := vol (t_shape gy)) in *.
  pose proof (proj2 (proj2 Hgb)). pose proof (proj2 (proj2 Hgy)) as HgyL. pose proof (proj2 (proj2 Hb0)) as HbL. pose proof (proj2 (proj2 Hy)) as HyL.
  rewrite Eb in HbL. rewrite Ey in HyL.
  assert (HV : 1 <= V) by apply (vol_pos (vt_wf Hgy)).
  set (sh := shift (t_shape gb) V).
  rewrite (@forN_stride4 (list F) B sh V V sh
     (fun _ ob oy og ogb pgb => forN V (fun i pgb => vg <- rd lgy (og + i) ;; vy <- rd ly (oy + i) ;; vb <- rd lb (ob + i) ;;
        upd pgb (ogb + i) (fun v => Ok (nsub K v (ndiv K (nmul K vg vy) vb)))) pgb) 0 0 0 0 lgb).
  destruct (@bw_generic B V (t_shape gb) lgb (fun b i v => nsub K v (ndiv K (nmul K (nth0 lgy (b * V + i)) (nth0 ly (b * V + i)))
                                       (nth0 lb (bsel (t_shape gb) b * V + i))))
     (fun b i l => vg <- rd lgy (0 + b * V + i) ;; vy <- rd ly (0 + b * V + i) ;; vb <- rd lb (0 + b * sh + i) ;;
        upd l (0 + b * sh + i) (fun v => Ok (nsub K v (ndiv K (nmul K vg vy) vb))))) as (l' & E & HO); auto.
  2:{ rewrite E. cbn [bind]. eauto. }
  intros b' i l' Hb Hi HL Hlt. simpl. unfold sh. rewrite !shift_bsel by apply Oa.
  unfold tot in HgyL, HyL; fold B V in HgyL, HyL.
  kread; [|nia]. kread; [|nia].
  kread; [|eapply okb_read; eauto]. rewrite (upd_Ok n0) by lia. auto.
Qed.

Lemma k_powf_bw_a_spec a b gy ga la lb lgy lga : vt a la -> vt b lb -> vt gy lgy -> vt ga lga ->
  okb (bat (t_shape gy)) (vol (t_shape gy)) (t_shape ga) -> okb (bat (t_shape gy)) (vol (t_shape gy)) (t_shape b) ->
  t_shape a = t_shape ga ->
  exists l', k_powf_bw_a a b gy ga = Ok (with_buf ga l') /\
    over n0 lga l' (tot (t_shape ga)) (fun p => let V := vol (t_shape gy) in
       acc_batches (t_shape ga) (bat (t_shape gy)) (p / V)
         (fun k v => nadd K v (nmul K (nmul K (nth0 lgy (k * V + p mod V)) (nth0 lb (bsel (t_shape b) k * V + p mod V)))
             (npowf K (nth0 la (bsel (t_shape ga) k * V + p mod V)) (nsub K (nth0 lb (bsel (t_shape b) k * V + p mod V)) n1)))) (nth0 lga p)).
Proof.
  intros Ha Hb0 Hgy Hga Oa Ob Ea. unfold k_powf_bw_a. kstart. kvol.
  set (B := bat (t_shape gy)) in *. set (V := vol (t_shape gy)) in *.
  pose proof (proj2 (proj2 Hga)). pose proof (proj2 (proj2 Hgy)) as HgyL. pose proof (proj2 (proj2 Hb0)) as HbL. pose proof (proj2 (proj2 Ha)) as HaL.
  rewrite Ea in HaL. rewrite Ea.
  assert (HV : 1 <= V) by apply (vol_pos (vt_wf Hgy)).
  set (sh := shift (t_shape ga) V). set (shb := shift (t_shape b) V).
  rewrite (@forN_stride4 (list F) B sh shb V sh
     (fun _ oa ob og oga pga => forN V (fun i pga => vg <- rd lgy (og + i) ;; vb <- rd lb (ob + i) ;; va <- rd la (oa + i) ;;
        upd pga (oga + i) (fun v => Ok (nadd K v (nmul K (nmul K vg vb) (npowf K va (nsub K vb n1)))))) pga) 0 0 0 0 lga).
  destruct (@bw_generic B V (t_shape ga) lga (fun k i v => nadd K v (nmul K (nmul K (nth0 lgy (k * V + i)) (nth0 lb (bsel (t_shape b) k * V + i)))
             (npowf K (nth0 la (bsel (t_shape ga) k * V + i)) (nsub K (nth0 lb (bsel (t_shape b) k * V + i)) n1))))
     (fun k i l => vg <- rd lgy (0 + k * V + i) ;; vb <- rd lb (0 + k * shb + i) ;; va <- rd la (0 + k * sh + i) ;;
        upd l (0 + k * sh + i) (fun v => Ok (nadd K v (nmul K (nmul K vg vb) (npowf K va (nsub K vb n1))))))) as (l' & E & HO); auto.
  2:{ rewrite E. cbn [bind]. eauto. }
  intros k i l' Hb Hi HL Hlt. simpl. unfold sh, shb. rewrite !shift_bsel by (apply Oa || apply Ob).
  unfold tot in HgyL; fold B V in HgyL.
  kread; [|nia]. kread; [|eapply okb_read; eauto].
  kread; [|eapply okb_read; eauto]. rewrite (upd_Ok n0) by lia. auto.
Qed.

Lemma k_powf_bw_b_spec a y gy gb la ly lgy lgb : vt a la -> vt y ly -> vt gy lgy -> vt gb lgb ->
  okb (bat (t_shape gy)) (vol (t_shape gy)) (t_shape gb) -> okb (bat (t_shape gy)) (vol (t_shape gy)) (t_shape a) ->
  t_shape y = t_shape gy ->
  exists l', k_powf_bw_b a y gy gb = Ok (with_buf gb l') /\
    over n0 lgb l' (tot (t_shape gb)) (fun p => let V := vol (t_shape gy) in
       acc_batches (t_shape gb) (bat (t_shape gy)) (p / V)
         (fun k v => nadd K v (nmul K (nmul K (nth0 lgy (k * V + p mod V)) (nln K (nth0 la (bsel (t_shape a) k * V + p mod V))))
             (nth0 ly (k * V + p mod V)))) (nth0 lgb p)).
Proof.
  intros Ha Hy Hgy Hgb Ob Oa Ey. unfold k_powf_bw_b. kstart. kvol. rewrite Ey.
  set (B := bat (t_shape gy)) in *. set (V := vol (t_shape gy)) in *.
  pose proof (proj2 (proj2 Hgb)). pose proof (proj2 (proj2 Hgy)) as HgyL. pose proof (proj2 (proj2 Hy)) as HyL. pose proof (proj2 (proj2 Ha)) as HaL.
  rewrite Ey in HyL.
  assert (HV : 1 <= V) by apply (vol_pos (vt_wf Hgy)).
  set (sh := shift (t_shape a) V). set (shb := shift (t_shape gb) V).
  rewrite (@forN_stride4 (list F) B sh V V shb
     (fun _ oa oy og ogb pgb => forN V (fun i pgb => vg <- rd lgy (og + i) ;; va <- rd la (oa + i) ;; vy <- rd ly (oy + i) ;;
        upd pgb (ogb + i) (fun v => Ok (nadd K v (nmul K (nmul K vg (nln K va)) vy)))) pgb) 0 0 0 0 lgb).
  destruct (@bw_generic B V (t_shape gb) lgb (fun k i v => nadd K v (nmul K (nmul K (nth0 lgy (k * V + i)) (nln K (nth0 la (bsel (t_shape a) k * V + i))))
             (nth0 ly (k * V + i))))
     (fun k i l => vg <- rd lgy (0 + k * V + i) ;; va <- rd la (0 + k * sh + i) ;; vy <- rd ly (0 + k * V + i) ;;
        upd l (0 + k * shb + i) (fun v => Ok (nadd K v (nmul K (nmul K vg (nln K va)) vy))))) as (l' & E & HO); auto.
  2:{ rewrite E. cbn [bind]. eauto. }
  intros k i l' Hb Hi HL Hlt. simpl. unfold sh, shb. rewrite !shift_bsel by (apply Oa || apply Ob).
  unfold tot in HgyL, HyL; fold B V in HgyL, HyL.
  kread; [|nia]. kread; [|eapply okb_read; eauto].
  kread; [|nia]. rewrite (upd_Ok n0) by lia. auto.
Qed.

(** += and -= when the operand volumes agree and the batches are compatible *)
Lemma has_batch_shift s v : (if has_batch s then v else 0) = shift s v.
Proof. unfold has_batch, shift. destruct (batch s =? 1)%N; auto. Qed.
Lemma k_assign_spec (acc : F -> F -> F) x y lx ly B : vt x lx -> vt y ly ->
  B = Nat.max (bat (t_shape x)) (bat (t_shape y)) ->
  okb B (vol (t_shape x)) (t_shape x) -> okb B (vol (t_shape x)) (t_shape y) ->
  exists l', k_assign acc x y = Ok (with_buf y l') /\
    over n0 ly l' (tot (t_shape y)) (fun p => let V := vol (t_shape x) in
       acc_batches (t_shape y) B (p / V) (fun b v => acc v (nth0 lx (bsel (t_shape x) b * V + p mod V))) (nth0 ly p)).
Proof.
  intros Hx Hy EB Ox Oy. unfold k_assign. kstart. kvol. rewrite !has_batch_shift.
  rewrite N2Nat.inj_max. fold (bat (t_shape x)) (bat (t_shape y)). rewrite <- EB.
  set (V := vol (t_shape x)) in *.
  pose proof (proj2 (proj2 Hx)) as HxL. pose proof (proj2 (proj2 Hy)) as HyL.
  assert (HV : 1 <= V) by apply (vol_pos (vt_wf Hx)).
  rewrite (@forN_stride2 (list F) B (shift (t_shape x) V) (shift (t_shape y) V)
     (fun _ ox oy py => forN V (fun i py => vx <- rd lx (ox + i) ;; upd py (oy + i) (fun v => Ok (acc v vx))) py) 0 0 ly).
  destruct (@bw_generic B V (t_shape y) ly (fun b i v => acc v (nth0 lx (bsel (t_shape x) b * V + i)))
     (fun b i l => vx <- rd lx (0 + b * shift (t_shape x) V + i) ;; upd l (0 + b * shift (t_shape y) V + i) (fun v => Ok (acc v vx)))) as (l' & E & HO); auto.
  2:{ rewrite E. cbn [bind]. eauto. }
  intros b i l' Hb Hi HL Hlt. simpl. rewrite !shift_bsel by (apply Ox || apply Oy).
  kread; [|eapply okb_read; eauto]. rewrite (upd_Ok n0) by lia. auto.
Qed.

(** with a single batch slot per batch index, accumulation is one application *)
Lemma acc_batches_id s B q f v : bat s = B -> q < B -> acc_batches s B q f v = f q v.
Proof.
  intros Hs Hq. unfold acc_batches.
  assert (G : forall n v, n <= B -> fold_left (fun acc b => if bsel s b =? q then f b acc else acc) (seq 0 n) v = if q <? n then f q v else v).
  { clear v. induction n; intros v Hn; auto. rewrite seq_S, fold_left_app. simpl. rewrite IHn by lia.
    assert (Hb : bsel s n = n) by (unfold bsel; destruct (Nat.eqb_spec (bat s) 1); lia). rewrite Hb.
    destruct (Nat.eqb_spec n q).
    - subst n. replace (q <? q) with false by (symmetry; apply Nat.ltb_ge; lia).
      replace (q <? S q) with true by (symmetry; apply Nat.ltb_lt; lia). auto.
    - destruct (Nat.ltb_spec q n), (Nat.ltb_spec q (S n)); auto; lia. }
  rewrite G by lia. replace (q <? B) with true by (symmetry; apply Nat.ltb_lt; lia). auto.
Qed.
Lemma acc_batches_all s B f v : bat s = 1 -> acc_batches s B 0 f v = fold_left (fun acc b => f b acc) (seq 0 B) v.
Proof.
  intros Hs. unfold acc_batches. unfold bsel. rewrite Hs. simpl. auto.
Qed.
End Elem.
