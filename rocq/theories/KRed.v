(** * KRed: what the reductions, broadcast and the index searches compute *)
From Verif Require Export KLib2.
From Coq Require Import Permutation Sorted.
Set Implicit Arguments.

Section Red.
Variable K : num.
Variable m : build.
Notation F := (F K).
Notation nth0 l p := (nth p l (@n0 K)).

Ltac kstart :=
  repeat match goal with
  | H : vt ?t ?l |- context [ptr ?t] => rewrite (ptr_vt H); cbn [bind]
  | H : vt ?t ?l |- context [size ?m (t_shape ?t)] => rewrite (size_vt m H); cbn [bind]
  | H : vt ?t ?l |- context [lower_volume ?m (t_shape ?t) ?d] => rewrite (@lower_volume_low m (t_shape t) d (vt_wf H)); cbn [bind]
  end; rewrite ?Nat2N.id; repeat change (N.to_nat (index ?s ?d)) with (ext s d).
Ltac rdok := match goal with |- context [rd ?l ?i] => rewrite (rd_Ok l i n0) by lia; cbn [bind] end.

(** folding over a line, offset advancing *)
Lemma line_fold S (n : nat) (lx : list F) (o0 k : nat) (op : S -> F -> S) (z : S) :
  (forall j, j < n -> o0 + j * k < length lx) ->
  forN n (fun _ '(offset, tmp) => v <- rd lx offset ;; Ok (offset + k, op tmp v)) (o0, z)
  = Ok (o0 + n * k, red op z (fun j => nth0 lx (o0 + j * k)) n).
Proof.
  intros H. pose proof (@forN_det (nat * S) n
    (fun _ '(offset, tmp) => v <- rd lx offset ;; Ok (offset + k, op tmp v))
    (fun i => (o0 + i * k, red op z (fun j => nth0 lx (o0 + j * k)) i))) as G.
  cbv beta in G. rewrite Nat.mul_0_l, Nat.add_0_r in G. apply G.
  intros i Hi. rewrite (rd_Ok lx _ n0) by auto. cbn [bind]. rewrite red_S. do 2 f_equal. lia.
Qed.

Lemma k_sum_spec x dim y lx ly : vt x lx -> vt y ly -> reduces (t_shape x) (t_shape y) dim ->
  exists l', k_sum m x dim y = Ok (with_buf y l') /\
    over n0 ly l' (tot (t_shape y)) (fun i => red (nadd K) n0 (fun j => nth0 lx (lpos (t_shape x) dim i j)) (ext (t_shape x) dim)).
Proof.
  intros Hx Hy HR. unfold k_sum. kstart. rewrite (red_low HR).
  pose proof (proj2 (proj2 Hx)). pose proof (proj2 (proj2 Hy)).
  edestruct (@wr_loop F n0 (tot (t_shape y))) with (l := ly)
    (f := fun i => red (nadd K) n0 (fun j => nth0 lx (lpos (t_shape x) dim i j)) (ext (t_shape x) dim)) as (l' & E & HO); auto.
  2:{ rewrite E. simpl. eauto. }
  intros i l' Hi HL. cbv beta. rewrite line_fold.
  2:{ intros j Hj. pose proof (@lpos_lt _ _ _ HR i j Hi Hj). unfold lpos in *. lia. }
  cbn [bind snd]. rewrite wr_Ok by lia. auto.
Qed.

Definition pick_better (better : F -> F -> bool) (t v : F) : F := if better v t then v else t.

Lemma k_extremum_spec better x dim y lx ly : vt x lx -> vt y ly -> reduces (t_shape x) (t_shape y) dim ->
  exists l', k_extremum m better x dim y = Ok (with_buf y l') /\
    over n0 ly l' (tot (t_shape y)) (fun i =>
      red (pick_better better) (nth0 lx (lpos (t_shape x) dim i 0)) (fun j => nth0 lx (lpos (t_shape x) dim i j)) (ext (t_shape x) dim)).
Proof.
  intros Hx Hy HR. unfold k_extremum. kstart. rewrite (red_low HR).
  pose proof (proj2 (proj2 Hx)). pose proof (proj2 (proj2 Hy)). pose proof (red_n HR) as Hn.
  edestruct (@wr_loop F n0 (tot (t_shape y))) with (l := ly)
    (f := fun i => red (pick_better better) (nth0 lx (lpos (t_shape x) dim i 0)) (fun j => nth0 lx (lpos (t_shape x) dim i j)) (ext (t_shape x) dim)) as (l' & E & HO); auto.
  2:{ rewrite E. simpl. eauto. }
  intros i l' Hi HL. cbv beta.
  assert (HB : forall j, j < ext (t_shape x) dim -> line i (low (t_shape x) dim) (low (t_shape x) dim * ext (t_shape x) dim) + j * low (t_shape x) dim < length lx).
  { intros j Hj. pose proof (@lpos_lt _ _ _ HR i j Hi Hj). unfold lpos in *. lia. }
  pose proof (HB 0 ltac:(lia)) as HB0. rdok.
  rewrite (@forN_ext _ _ _ (fun _ '(offset, tmp) => v <- rd lx offset ;; Ok (offset + low (t_shape x) dim, pick_better better tmp v))).
  2:{ intros j [o t] _. unfold pick_better. destruct (rd lx o) eqn:Er; auto. cbn [bind]. destruct (better a t); rewrite ?Er; auto. }
  rewrite line_fold by auto. cbn [bind snd]. rewrite wr_Ok by lia.
  do 2 f_equal. unfold lpos. rewrite Nat.mul_0_l, Nat.add_0_r. auto.
Qed.

(** one step of the pairwise log-sum-exp, in f64 *)
Definition lse_step (t : W K) (v : F) : W K :=
  let arg := widen K v in
  if wlt K arg t then wadd K t (wln K (wadd K w1 (wexp K (wsub K arg t))))
  else wadd K arg (wln K (wadd K w1 (wexp K (wsub K t arg)))).

Lemma k_logsumexp_spec x dim y lx ly : vt x lx -> vt y ly -> reduces (t_shape x) (t_shape y) dim ->
  exists l', k_logsumexp m x dim y = Ok (with_buf y l') /\
    over n0 ly l' (tot (t_shape y)) (fun i =>
      narrow K (red lse_step (widen K (nth0 lx (lpos (t_shape x) dim i 0)))
                    (fun j => nth0 lx (lpos (t_shape x) dim i (S j))) (ext (t_shape x) dim - 1))).
Proof.
  intros Hx Hy HR. unfold k_logsumexp. kstart. rewrite (red_low HR).
  pose proof (proj2 (proj2 Hx)). pose proof (proj2 (proj2 Hy)). pose proof (red_n HR) as Hn.
  edestruct (@wr_loop F n0 (tot (t_shape y))) with (l := ly)
    (f := fun i => narrow K (red lse_step (widen K (nth0 lx (lpos (t_shape x) dim i 0)))
                    (fun j => nth0 lx (lpos (t_shape x) dim i (S j))) (ext (t_shape x) dim - 1))) as (l' & E & HO); auto.
  2:{ rewrite E. simpl. eauto. }
  intros i l' Hi HL. cbv beta.
  set (n := ext (t_shape x) dim) in *. set (s1 := low (t_shape x) dim) in *.
  assert (HB : forall j, j < n -> line i s1 (s1 * n) + j * s1 < length lx).
  { intros j Hj. pose proof (@lpos_lt _ _ _ HR i j Hi Hj). unfold lpos in *. fold n s1 in H1. lia. }
  pose proof (HB 0 ltac:(lia)) as HB0. rdok.
  rewrite forR_forN.
  rewrite (@forN_det2 (nat * W K) (n - 1) _ (fun k => (line i s1 (s1 * n) + k * s1,
     red lse_step (widen K (nth0 lx (line i s1 (s1 * n)))) (fun j => nth0 lx (lpos (t_shape x) dim i (S j))) k))
     (line i s1 (s1 * n), widen K (nth0 lx (line i s1 (s1 * n))))).
  2:{ rewrite Nat.mul_0_l, Nat.add_0_r. auto. }
  - cbn [bind snd]. rewrite wr_Ok by lia. unfold lpos at 2. rewrite Nat.mul_0_l, Nat.add_0_r. auto.
  - intros j Hj. pose proof (HB (S j) ltac:(lia)) as HBj. rewrite (rd_Ok lx _ n0) by lia. cbn [bind].
    rewrite red_S. unfold lpos at 3. fold n s1.
    replace (line i s1 (s1 * n) + j * s1 + s1) with (line i s1 (s1 * n) + S j * s1) by lia. reflexivity.
Qed.

(** *** argmax / argmin *)
(** leftmost index whose value no later value beats: scan keeping (best value, best index) *)
Definition arg_step (better : F -> F -> bool) (f : nat -> F) (st : F * nat) (j : nat) : F * nat :=
  if better (f j) (fst st) then (f j, j) else st.
Definition arg_scan (better : F -> F -> bool) (f : nat -> F) (n : nat) : F * nat :=
  fold_left (arg_step better f) (seq 1 (n - 1)) (f 0, 0).

Lemma k_arg_spec better x dim y0 sy lx : vt x lx -> reduces (t_shape x) sy dim ->
  length y0 = tot sy ->
  k_arg m better x dim y0 = Ok (map (fun i => (N.of_nat (snd (arg_scan better (fun j => nth0 lx (lpos (t_shape x) dim i j)) (ext (t_shape x) dim))) mod two32)%N) (seq 0 (tot sy))).
Proof.
  intros Hx HR Hl. unfold k_arg. kstart. pose proof (proj2 (proj2 Hx)). pose proof (red_n HR) as Hn.
  rewrite <- (red_tot HR), Nat.div_mul by lia.
  set (n := ext (t_shape x) dim) in *. set (s1 := low (t_shape x) dim) in *.
  edestruct (@wr_loop N 0%N (tot sy)) with (l := y0) (f := fun i =>
     (N.of_nat (snd (arg_scan better (fun j => nth0 lx (lpos (t_shape x) dim i j)) n)) mod two32)%N) as (l' & E & HO).
  3:{ rewrite E. f_equal. rewrite <- (over_firstn HO) by lia. destruct HO as (HL & _). rewrite <- Hl, <- HL, firstn_all. auto. }
  - lia.
  - intros i l' Hi HL. cbv beta.
    assert (HB : forall j, j < n -> line i s1 (s1 * n) + j * s1 < length lx).
    { intros j Hj. pose proof (@lpos_lt _ _ _ HR i j Hi Hj). unfold lpos in *. fold n s1 in H0. lia. }
    pose proof (HB 0 ltac:(lia)) as HB0. rdok. rewrite forR_forN.
    set (f := fun j => nth0 lx (lpos (t_shape x) dim i j)).
    replace (nth0 lx (line i s1 (s1 * n))) with (f 0) by (unfold f, lpos; rewrite Nat.mul_0_l, Nat.add_0_r; auto).
    rewrite (@forN_det2 (nat * F * nat) (n - 1) _
      (fun k => (line i s1 (s1 * n) + k * s1, fst (fold_left (arg_step better f) (seq 1 k) (f 0, 0)),
                 snd (fold_left (arg_step better f) (seq 1 k) (f 0, 0)))) (line i s1 (s1 * n), f 0, 0)).
    2:{ rewrite Nat.mul_0_l, Nat.add_0_r. auto. }
    + cbn [bind]. rewrite aset_Ok by lia. reflexivity.
    + intros j Hj. pose proof (HB (S j) ltac:(lia)) as HBj. rewrite (rd_Ok lx _ n0) by lia. cbn [bind].
      rewrite seq_S, fold_left_app. cbn [fold_left]. set (st := fold_left _ _ _). unfold arg_step. cbn [Nat.add].
      replace (line i s1 (s1 * n) + j * s1 + s1) with (line i s1 (s1 * n) + S j * s1) by lia.
      change (nth0 lx (line i s1 (s1 * n) + S j * s1)) with (f (S j)). 
      destruct (better (f (S j)) (fst st)); reflexivity.
Qed.

(** *** broadcast *)
Lemma k_broadcast_spec x dim n y lx ly : vt x lx -> vt y ly -> reduces (t_shape y) (t_shape x) dim ->
  N.to_nat n = ext (t_shape y) dim ->
  exists l', k_broadcast m x dim n y = Ok (with_buf y l') /\
    over n0 ly l' (tot (t_shape y)) (fun q => nth0 lx (lline (t_shape y) dim q)).
Proof.
  intros Hx Hy HR Hn. unfold k_broadcast. kstart. rewrite Hn.
  pose proof (proj2 (proj2 Hx)). pose proof (proj2 (proj2 Hy)) as HyL. pose proof (red_n HR) as Hn1.
  set (nn := ext (t_shape y) dim) in *. set (s1 := low (t_shape y) dim) in *.
  rewrite (@forN_ext _ _ _ (fun i dest => forN nn (fun j dest => v <- rd lx i ;; wr dest (line i s1 (s1 * nn) + j * s1) v) dest)).
  2:{ intros i dest Hi. rewrite (rd_Ok lx i n0) by lia. cbn [bind].
      rewrite (forN_stride nn s1 (fun _ o dest => wr dest o (nth0 lx i)) (line i s1 (s1 * nn)) dest).
      rewrite bind_assoc. cbn [bind snd]. rewrite bind_Ok_r. apply forN_ext. intros; auto. }
  rewrite (forN_nest_rev (tot (t_shape x)) nn (fun i j dest => v <- rd lx i ;; wr dest (line i s1 (s1 * nn) + j * s1) v) ly).
  unfold nn at 1. rewrite (red_tot HR).
  edestruct (@bij_loop F n0 (tot (t_shape y)) (fun p => lpos (t_shape y) dim (p / nn) (p mod nn))
     (fun q => lline (t_shape y) dim q * nn + lidx (t_shape y) dim q) (fun p _ => nth0 lx (p / nn))) with (l := ly) as (l' & E & HO); auto.
  4:{ rewrite E. cbn [bind]. eexists; split; eauto. destruct HO as (HL & HP). split; auto.
    intros q. rewrite HP. destruct (Nat.ltb_spec q (tot (t_shape y))) as [Hq|]; auto.
    destruct (lpos_surj HR Hq) as (H1 & H2 & H3). fold nn in H2.
    rewrite Nat.div_add_l by lia. rewrite (Nat.div_small (lidx _ _ _)) by auto. rewrite Nat.add_0_r. auto. }
  - intros p Hp. assert (Hi : p / nn < tot (t_shape x)).
    { apply Nat.div_lt_upper_bound; [lia|]. rewrite <- (red_tot HR) in Hp. fold nn in Hp. lia. }
    assert (Hj : p mod nn < nn) by (apply Nat.mod_upper_bound; lia).
    split; [apply (lpos_lt HR); auto|]. destruct (lpos_inv HR (p / nn) Hj) as (-> & ->).
    pose proof (Nat.div_mod p nn). lia.
  - intros q Hq. destruct (lpos_surj HR Hq) as (H1 & H2 & H3). fold nn in H2.
    assert (E1 : (lline (t_shape y) dim q * nn + lidx (t_shape y) dim q) / nn = lline (t_shape y) dim q).
    { rewrite Nat.div_add_l by lia. rewrite Nat.div_small; lia. }
    assert (E2 : (lline (t_shape y) dim q * nn + lidx (t_shape y) dim q) mod nn = lidx (t_shape y) dim q).
    { rewrite Nat.add_comm, Nat.mod_add by lia. apply Nat.mod_small; auto. }
    rewrite E1, E2. split; auto. rewrite <- (red_tot HR). fold nn. nia.
  - intros p l' Hp HL. cbv beta.
    assert (Hi : p / nn < tot (t_shape x)).
    { apply Nat.div_lt_upper_bound; [lia|]. rewrite <- (red_tot HR) in Hp. fold nn in Hp. lia. }
    assert (Hj : p mod nn < nn) by (apply Nat.mod_upper_bound; lia).
    rdok. pose proof (@lpos_lt _ _ _ HR _ _ Hi Hj) as Hlt. unfold lpos in *. fold nn s1 in Hlt |- *. rewrite wr_Ok by lia. auto.
Qed.

(** *** max/min backward: the gradient goes to the first element equal to the extremum *)
Fixpoint first_eq (f : nat -> F) (v : F) (n j : nat) : option nat :=
  match n with O => None | S n' => if neqb K (f j) v then Some j else first_eq f v n' (S j) end.

Lemma first_eq_range f v n j k : first_eq f v n j = Some k -> j <= k < j + n.
Proof.
  revert j; induction n; intros j; simpl; [discriminate|].
  destruct (neqb K (f j) v); [injection 1 as <-; lia|]. intros H; apply IHn in H. lia.
Qed.

Lemma find_first_spec lx v s1 n o0 j : (forall i, i < n -> o0 + (j + i) * s1 < length lx) ->
  find_first K lx v s1 n (o0 + j * s1) =
  Ok (option_map (fun k => o0 + k * s1) (first_eq (fun i => nth0 lx (o0 + i * s1)) v n j)).
Proof.
  revert j; induction n; intros j H; auto. cbn [find_first first_eq].
  pose proof (H 0 ltac:(lia)) as H0. rewrite Nat.add_0_r in H0. rewrite (rd_Ok lx _ n0) by auto. cbn [bind].
  destruct (neqb K _ v); auto. replace (o0 + j * s1 + s1) with (o0 + S j * s1) by lia.
  apply IHn. intros i Hi. replace (S j + i) with (j + S i) by lia. apply H; lia.
Qed.

Lemma k_extremum_bw_spec x y gy dim gx lx ly lgy lgx :
  vt x lx -> vt y ly -> vt gy lgy -> vt gx lgx -> reduces (t_shape x) (t_shape y) dim ->
  t_shape gy = t_shape y -> t_shape gx = t_shape x ->
  exists l', k_extremum_bw m x y gy dim gx = Ok (with_buf gx l') /\
    over n0 lgx l' (tot (t_shape gx)) (fun q =>
      let i := lline (t_shape x) dim q in
      match first_eq (fun j => nth0 lx (lpos (t_shape x) dim i j)) (nth0 ly i) (ext (t_shape x) dim) 0 with
      | Some j => if j =? lidx (t_shape x) dim q then nadd K (nth0 lgx q) (nth0 lgy i) else nth0 lgx q
      | None => nth0 lgx q
      end).
Proof.
  intros Hx Hy Hgy Hgx HR E1 E2. unfold k_extremum_bw. kstart. rewrite (red_low HR).
  pose proof (proj2 (proj2 Hx)). pose proof (proj2 (proj2 Hy)). pose proof (proj2 (proj2 Hgy)) as HgyL. pose proof (proj2 (proj2 Hgx)) as HgxL.
  pose proof (red_n HR) as Hn. rewrite E1 in HgyL. rewrite E2 in *.
  set (n := ext (t_shape x) dim) in *. set (s1 := low (t_shape x) dim) in *.
  set (fe := fun i => first_eq (fun j => nth0 lx (lpos (t_shape x) dim i j)) (nth0 ly i) n 0).
  destruct (@forN_inv (list F) (fun k l' => length l' = length lgx /\ forall q, nth0 l' q =
     if (q <? tot (t_shape x)) && (lline (t_shape x) dim q <? k) then
       match fe (lline (t_shape x) dim q) with
       | Some j => if j =? lidx (t_shape x) dim q then nadd K (nth0 lgx q) (nth0 lgy (lline (t_shape x) dim q)) else nth0 lgx q
       | None => nth0 lgx q end
     else nth0 lgx q) (tot (t_shape y)) (fun i pgx => v <- rd ly i ;;
        o <- find_first K lx v s1 n (line i s1 (s1 * n)) ;;
        match o with
        | None => Ok pgx
        | Some offset => vg <- rd lgy i ;; upd pgx offset (fun w => Ok (nadd K w vg))
        end) lgx) as (l' & E & HL & HP).
  - split; auto. intros q. rewrite andb_comm. reflexivity.
  - intros i l1 Hi (HL & HP).
    assert (HB : forall j, j < n -> line i s1 (s1 * n) + j * s1 < tot (t_shape x)).
    { intros j Hj. apply (@lpos_lt _ _ _ HR i j Hi Hj). }
    rdok. pose proof (@find_first_spec lx (nth0 ly i) s1 n (line i s1 (s1 * n)) 0) as G.
    rewrite Nat.mul_0_l, Nat.add_0_r in G. rewrite G; clear G. 2:{ intros j Hj. specialize (HB j Hj). simpl. lia. }
    cbn [bind]. change (first_eq _ _ n 0) with (fe i).
    assert (Hstep : forall q, q < tot (t_shape x) -> lline (t_shape x) dim q <> i ->
       (lline (t_shape x) dim q <? S i) = (lline (t_shape x) dim q <? i)).
    { intros q _ Hq. destruct (Nat.ltb_spec (lline (t_shape x) dim q) i), (Nat.ltb_spec (lline (t_shape x) dim q) (S i)); auto; lia. }
    destruct (fe i) as [j|] eqn:Ef; cbn [option_map].
    + pose proof (first_eq_range _ _ _ _ Ef) as Hj. rdok. pose proof (HB j ltac:(lia)) as HBj.
      rewrite (upd_Ok n0) by lia. eexists; split; [reflexivity|]. split; [rewrite lset_length; auto|].
      intros q. rewrite nth_lset by lia. destruct (Nat.eqb_spec q (line i s1 (s1 * n) + j * s1)) as [->|Hne].
      * change (line i s1 (s1 * n) + j * s1) with (lpos (t_shape x) dim i j) in *.
        destruct (lpos_inv HR i (j := j)) as (Q1 & Q2); [lia|]. rewrite Q1, Q2, Ef, Nat.eqb_refl.
        replace (_ <? tot _) with true by (symmetry; apply Nat.ltb_lt; auto).
        replace (i <? S i) with true by (symmetry; apply Nat.ltb_lt; lia). cbn [andb].
        rewrite HP, Q1, Ef. replace (i <? i) with false by (symmetry; apply Nat.ltb_ge; lia). rewrite andb_false_r. auto.
      * rewrite HP. destruct (Nat.ltb_spec q (tot (t_shape x))) as [Hq|]; auto. cbn [andb].
        destruct (Nat.eq_dec (lline (t_shape x) dim q) i) as [Ei|Ei]; [|rewrite Hstep; auto].
        rewrite Ei, Ef. destruct (Nat.eqb_spec j (lidx (t_shape x) dim q)) as [Ej|Ej].
        -- exfalso. apply Hne. destruct (lpos_surj HR Hq) as (_ & _ & Q3). rewrite Ei, <- Ej in Q3. symmetry; exact Q3.
        -- destruct (i <? i), (i <? S i); auto.
    + eexists; split; [reflexivity|]. split; auto. intros q. rewrite HP.
      destruct (Nat.ltb_spec q (tot (t_shape x))) as [Hq|]; auto. cbn [andb].
      destruct (Nat.eq_dec (lline (t_shape x) dim q) i) as [Ei|Ei]; [|rewrite Hstep; auto].
      rewrite Ei, Ef. destruct (i <? i), (i <? S i); auto.
  - rewrite E. cbn [bind]. eexists; split; eauto. split; auto. intros q. rewrite HP.
    destruct (Nat.ltb_spec q (tot (t_shape x))) as [Hq|]; auto. destruct (lpos_surj HR Hq) as (Q1 & _).
    replace (_ <? tot (t_shape y)) with true by (symmetry; apply Nat.ltb_lt; auto). cbn [andb]. reflexivity.
Qed.
End Red.
