(** * KMat: what the blocked matrix product computes *)
From Verif Require Export KMove2.
Set Implicit Arguments.

(** ** transformations of a region of a buffer *)
Section Tr.
Variable A : Type.
Variable d : A.
(** the elements of the region R are transformed by h, the rest is unchanged *)
Definition tr (R : nat -> bool) (h : nat -> A -> A) (l l' : list A) : Prop :=
  length l' = length l /\ forall q, nth q l' d = if R q then h q (nth q l d) else nth q l d.

Lemma tr_ext R R' h h' l l' : tr R h l l' -> (forall q, R q = R' q) -> (forall q v, R q = true -> h q v = h' q v) -> tr R' h' l l'.
Proof.
  intros (HL & HP) HR Hh. split; auto. intros q. rewrite HP, <- HR. destruct (R q) eqn:E; auto.
Qed.
Lemma tr_forL I (L : list I) (body : I -> list A -> res (list A)) (R : I -> nat -> bool) h l :
  NoDup L ->
  (forall a b q, In a L -> In b L -> R a q = true -> R b q = true -> a = b) ->
  (forall a l', In a L -> length l' = length l -> exists l'', body a l' = Ok l'' /\ tr (R a) h l' l'') ->
  exists l', forL L body l = Ok l' /\ tr (fun q => existsb (fun a => R a q) L) h l l'.
Proof.
  revert l. induction L as [|a L IH]; intros l ND Hd Hb; simpl.
  - eexists; split; [reflexivity|]. split; auto.
  - inversion ND as [|? ? Hn ND']; subst.
    destruct (Hb a l (or_introl eq_refl) eq_refl) as (l1 & -> & HL1 & HP1). simpl.
    destruct (IH l1 ND') as (l2 & -> & HL2 & HP2).
    + intros x y q Hx Hy; apply Hd; right; auto.
    + intros x l' Hx HL. apply Hb; [right; auto|lia].
    + eexists; split; [reflexivity|]. split; [lia|]. intros q. rewrite HP2, HP1.
      destruct (R a q) eqn:E; simpl; auto.
      replace (existsb (fun a0 => R a0 q) L) with false; auto.
      symmetry. apply Bool.not_true_is_false. intros C. apply existsb_exists in C. destruct C as (b & Hin & Eb).
      assert (a = b) by (apply (Hd a b q); auto; [left; auto|right; auto]). subst; auto.
Qed.
(** the same region transformed several times *)
Lemma tr_iter n (body : nat -> list A -> res (list A)) R (h : nat -> nat -> A -> A) l :
  (forall j l', j < n -> length l' = length l -> exists l'', body j l' = Ok l'' /\ tr R (h j) l' l'') ->
  exists l', forN n body l = Ok l' /\ tr R (fun q v => fold_left (fun v j => h j q v) (seq 0 n) v) l l'.
Proof.
  intros Hb. pose proof (@forN_inv (list A) (fun j l' => tr R (fun q v => fold_left (fun v j => h j q v) (seq 0 j) v) l l') n body l) as G.
  destruct G as (l' & E & HT).
  - split; auto. intros q; simpl. destruct (R q); auto.
  - intros j l' Hj (HL & HP). destruct (Hb j l' Hj HL) as (l'' & E & HL2 & HP2).
    exists l''; split; auto. split; [lia|]. intros q. rewrite HP2, HP. destruct (R q); auto.
    rewrite seq_S, fold_left_app. auto.
  - eauto.
Qed.
End Tr.

(** ** the blocked sum *)
Section MM.
Variable K : num.
Notation F := (F K).
Notation tensor := (tensor K).
Notation nth0 l p := (nth p l (@n0 K)).
(** sum of the terms f 0 .. f (n-1): blocks of 8, each summed from zero, the
    block sums added up in order *)
Definition blocksum (f : nat -> F) (n : nat) : F :=
  red (nadd K) n0 (fun jb => red (nadd K) n0 (fun t => f (jb * 8 + t)) (Nat.min 8 (n - jb * 8))) ((n + 7) / 8).

Lemma blocksum_ext f g n : (forall j, j < n -> f j = g j) -> blocksum f n = blocksum g n.
Proof. intros H. unfold blocksum. apply red_ext. intros jb Hj. apply red_ext. intros t Ht. apply H. lia. Qed.

Lemma red_assoc (f : nat -> F) z n :
  (forall a b c, nadd K (nadd K a b) c = nadd K a (nadd K b c)) -> (forall a, nadd K a n0 = a) ->
  nadd K z (red (nadd K) n0 f n) = red (nadd K) z f n.
Proof.
  intros Ha H0. induction n; [apply H0|]. rewrite !red_S, <- Ha, IHn. auto.
Qed.
Lemma red_add (f : nat -> F) z a n : red (nadd K) z f (a + n) = red (nadd K) (red (nadd K) z f a) (fun t => f (a + t)) n.
Proof.
  induction n. - rewrite Nat.add_0_r. reflexivity.
  - replace (a + S n) with (S (a + n)) by lia. rewrite !red_S, IHn. auto.
Qed.
(** with an associative addition the blocking makes no difference *)
Lemma blocksum_red f n :
  (forall a b c, nadd K (nadd K a b) c = nadd K a (nadd K b c)) -> (forall a, nadd K a n0 = a) ->
  blocksum f n = red (nadd K) n0 f n.
Proof.
  intros Ha H0. unfold blocksum.
  assert (G : forall q, q * 8 <= n + 7 -> 
     red (nadd K) n0 (fun jb => red (nadd K) n0 (fun t => f (jb * 8 + t)) (Nat.min 8 (n - jb * 8))) q = red (nadd K) n0 f (Nat.min n (q * 8))).
  { induction q; intros Hq. - rewrite Nat.min_0_r. reflexivity.
    - rewrite red_S, IHq by lia. rewrite red_assoc by auto. rewrite (Nat.min_r n (q * 8)) by lia. rewrite <- red_add. f_equal. lia. }
  rewrite G. - f_equal. pose proof (Nat.div_mod (n + 7) 8 ltac:(lia)). pose proof (Nat.mod_upper_bound (n + 7) 8 ltac:(lia)). lia.
  - pose proof (Nat.div_mod (n + 7) 8 ltac:(lia)). lia.
Qed.

Lemma fold_red (g : nat -> F) z n : fold_left (fun v j => nadd K v (g j)) (seq 0 n) z = red (nadd K) z g n.
Proof. reflexivity. Qed.

Lemma in_steps n k : 1 <= k -> forall i, In i (steps_by n k) <-> (exists q, i = q * k) /\ i < n.
Proof.
  intros Hk i. unfold steps_by. rewrite in_map_iff. split.
  - intros (q & <- & Hq). apply in_seq in Hq. split; [eauto|].
    assert (q + 1 <= (n + k - 1) / k) by lia. pose proof (Nat.mul_div_le (n + k - 1) k ltac:(lia)). nia.
  - intros ((q & ->) & Hi). exists q; split; auto. apply in_seq. split; [lia|]. simpl.
    apply Nat.div_le_lower_bound; [lia|]. nia.
Qed.
Lemma steps_NoDup n k : 1 <= k -> NoDup (steps_by n k).
Proof.
  intros Hk. unfold steps_by. apply FinFun.Injective_map_NoDup; [|apply seq_NoDup]. intros x y E. nia.
Qed.
Lemma steps_cover n : forall i, i < n -> exists k, In k (steps_by n 8) /\ k <= i /\ i < Nat.min (k + 8) n.
Proof.
  intros i Hi. exists (i / 8 * 8). pose proof (Nat.div_mod i 8 ltac:(lia)). pose proof (Nat.mod_upper_bound i 8 ltac:(lia)).
  split; [|lia]. apply in_steps; [lia|]. split; [eauto|]. lia.
Qed.
Lemma steps_uniq n k k' i : In k (steps_by n 8) -> In k' (steps_by n 8) -> k <= i < k + 8 -> k' <= i < k' + 8 -> k = k'.
Proof.
  intros H H' Hi Hi'. apply in_steps in H; [|lia]. apply in_steps in H'; [|lia].
  destruct H as ((q & ->) & _), H' as ((q' & ->) & _). nia.
Qed.

(** one matrix of the minibatch: [py] is zero on the result region *)
Lemma mm_block (la lb : list F) oa ob oy d1 d2 d3 (l : list F) : 1 <= d1 -> 1 <= d2 -> 1 <= d3 ->
  oa + d1 * d2 <= length la -> ob + d2 * d3 <= length lb -> oy + d1 * d3 <= length l ->
  exists l', forL (steps_by d3 8) (fun k py =>
        let ek := Nat.min (k + 8) d3 in
        forL (steps_by d1 8) (fun i py =>
           let ei := Nat.min (i + 8) d1 in
           forL (steps_by d2 8) (fun j py =>
              let ej := Nat.min (j + 8) d2 in
              forR k ek (fun kk py =>
                 let kk_d1 := kk * d1 in
                 let kk_d2 := kk * d2 in
                 forR i ei (fun ii py =>
                    tmp <- forR j ej (fun jj tmp =>
                             va <- rd la (oa + (ii + jj * d1)) ;; vb <- rd lb (ob + (jj + kk_d2)) ;;
                             Ok (nadd K tmp (nmul K va vb))) n0 ;;
                    upd py (oy + (ii + kk_d1)) (fun v => Ok (nadd K v tmp))) py) py) py) py) l = Ok l' /\
    tr n0 (fun q => (oy <=? q) && (q <? oy + d1 * d3))
      (fun q v => red (nadd K) v (fun jb => red (nadd K) n0 (fun t => let j := jb * 8 + t in
          nmul K (nth0 la (oa + ((q - oy) mod d1 + j * d1))) (nth0 lb (ob + (j + (q - oy) / d1 * d2)))) (Nat.min 8 (d2 - jb * 8))) ((d2 + 7) / 8)) l l'.
Proof.
  intros H1 H2 H3 HA HB HY.
  set (h := fun q v => red (nadd K) v _ _).
  assert (ID : forall ii kk, ii < d1 -> (oy + (ii + kk * d1) - oy) mod d1 = ii /\ (oy + (ii + kk * d1) - oy) / d1 = kk).
  { intros ii kk Hi. replace (oy + (ii + kk * d1) - oy) with (kk * d1 + ii) by lia. destruct (divmod_of kk Hi). auto. }
  assert (INJ : forall ii kk ii' kk', ii < d1 -> ii' < d1 -> oy + (ii + kk * d1) = oy + (ii' + kk' * d1) -> ii = ii' /\ kk = kk').
  { intros ii kk ii' kk' Hi Hi' E. destruct (ID ii kk Hi) as (A1 & A2), (ID ii' kk' Hi') as (A3 & A4). rewrite E in A1, A2. split; congruence. }
  edestruct (@tr_forL F n0 nat (steps_by d3 8)) with (l := l) (h := h)
    (R := fun k q => existsb (fun i => existsb (fun kk => existsb (fun ii => oy + (ii + kk * d1) =? q) (seq i (Nat.min (i + 8) d1 - i))) (seq k (Nat.min (k + 8) d3 - k))) (steps_by d1 8))
    as (l' & E & HT).
  4:{ rewrite E. eexists; split; [reflexivity|].
    eapply tr_ext; [exact HT| |auto]. intros q. apply Bool.eq_true_iff_eq.
    rewrite existsb_exists. rewrite Bool.andb_true_iff, Nat.leb_le, Nat.ltb_lt. split.
    + intros (k & Hk & Q). apply existsb_exists in Q. destruct Q as (i & Hi & Q). apply existsb_exists in Q. destruct Q as (kk & Hkk & Q).
      apply existsb_exists in Q. destruct Q as (ii & Hii & Q). apply Nat.eqb_eq in Q. apply in_seq in Hkk, Hii.
      subst q. split; [lia|]. assert (kk < d3) by lia. assert (ii < d1) by lia. nia.
    + intros (Q1 & Q2). set (r := q - oy). assert (Hr : r < d1 * d3) by (unfold r; lia).
      assert (Hm : r mod d1 < d1) by (apply Nat.mod_upper_bound; lia).
      assert (Hd : r / d1 < d3) by (apply Nat.div_lt_upper_bound; lia).
      destruct (@steps_cover d3 _ Hd) as (k & Hk & Hk1 & Hk2). destruct (@steps_cover d1 _ Hm) as (i & Hi & Hi1 & Hi2).
      exists k; split; auto. apply existsb_exists. exists i; split; auto. apply existsb_exists. exists (r / d1). split; [apply in_seq; lia|].
      apply existsb_exists. exists (r mod d1). split; [apply in_seq; lia|]. apply Nat.eqb_eq.
      pose proof (Nat.div_mod r d1 ltac:(lia)). unfold r in *. nia. }
  - apply steps_NoDup; lia.
  - intros k k' q Hk Hk' Q Q'.
    apply existsb_exists in Q. destruct Q as (i & Hi & Q). apply existsb_exists in Q. destruct Q as (kk & Hkk & Q).
    apply existsb_exists in Q. destruct Q as (ii & Hii & Q). apply Nat.eqb_eq in Q.
    apply existsb_exists in Q'. destruct Q' as (i' & Hi' & Q'). apply existsb_exists in Q'. destruct Q' as (kk' & Hkk' & Q').
    apply existsb_exists in Q'. destruct Q' as (ii' & Hii' & Q'). apply Nat.eqb_eq in Q'.
    apply in_seq in Hkk, Hii, Hkk', Hii'.
    destruct (INJ ii kk ii' kk') as (_ & ->); [lia|lia|congruence|].
    apply (@steps_uniq d3 k k' kk'); auto; lia.
  - intros k l1 Hk HL1. cbv beta zeta.
    apply (@tr_forL F n0 nat (steps_by d1 8)) with (R := fun i q => existsb (fun kk => existsb (fun ii => oy + (ii + kk * d1) =? q) (seq i (Nat.min (i + 8) d1 - i))) (seq k (Nat.min (k + 8) d3 - k))).
    + apply steps_NoDup; lia.
    + intros i i' q Hi Hi' Q Q'.
      apply existsb_exists in Q. destruct Q as (kk & Hkk & Q).
      apply existsb_exists in Q. destruct Q as (ii & Hii & Q). apply Nat.eqb_eq in Q.
      apply existsb_exists in Q'. destruct Q' as (kk' & Hkk' & Q').
      apply existsb_exists in Q'. destruct Q' as (ii' & Hii' & Q'). apply Nat.eqb_eq in Q'.
      apply in_seq in Hkk, Hii, Hkk', Hii'.
      destruct (INJ ii kk ii' kk') as (-> & _); [lia|lia|congruence|].
      apply (@steps_uniq d1 i i' ii'); auto; lia.
    + intros i l2 Hi HL2. cbv beta zeta. unfold steps_by at 1. rewrite forL_map.
      replace (d2 + 8 - 1) with (d2 + 7) by lia.
      edestruct (@tr_iter F n0 ((d2 + 7) / 8)) with (l := l2)
        (R := fun q => existsb (fun kk => existsb (fun ii => oy + (ii + kk * d1) =? q) (seq i (Nat.min (i + 8) d1 - i))) (seq k (Nat.min (k + 8) d3 - k)))
        (h := fun jb q v => nadd K v (red (nadd K) n0 (fun t => let j := jb * 8 + t in
          nmul K (nth0 la (oa + ((q - oy) mod d1 + j * d1))) (nth0 lb (ob + (j + (q - oy) / d1 * d2)))) (Nat.min 8 (d2 - jb * 8)))) as (l3 & E3 & HT3).
      2:{ unfold forN in E3. rewrite E3. eexists; split; [reflexivity|]. exact HT3. }
      intros jb l3 Hjb HL3. cbv beta.
      assert (Hj8 : jb * 8 < d2) by (assert (In (jb * 8) (steps_by d2 8)) as I by (unfold steps_by; apply in_map_iff; exists jb; split; auto; apply in_seq; replace (d2 + 8 - 1) with (d2 + 7) by lia; lia);
         apply in_steps in I; [apply I|lia]).
      apply (@tr_forL F n0 nat) with (R := fun kk q => existsb (fun ii => oy + (ii + kk * d1) =? q) (seq i (Nat.min (i + 8) d1 - i))).
      * apply seq_NoDup.
      * intros kk kk' q Hkk Hkk' Q Q'.
        apply existsb_exists in Q. destruct Q as (ii & Hii & Q). apply Nat.eqb_eq in Q.
        apply existsb_exists in Q'. destruct Q' as (ii' & Hii' & Q'). apply Nat.eqb_eq in Q'.
        apply in_seq in Hkk, Hii, Hkk', Hii'. destruct (INJ ii kk ii' kk') as (_ & ->); [lia|lia|congruence|auto].
      * intros kk l4 Hkk HL4. cbv beta zeta. apply in_seq in Hkk.
        apply (@tr_forL F n0 nat) with (R := fun ii q => oy + (ii + kk * d1) =? q).
        -- apply seq_NoDup.
        -- intros ii ii' q Hii Hii' Q Q'. apply Nat.eqb_eq in Q, Q'. lia.
        -- intros ii l5 Hii HL5. cbv beta. apply in_seq in Hii.
           assert (Hkk3 : kk < d3) by lia. assert (Hii1 : ii < d1) by lia.
           rewrite forR_forN.
           rewrite (@forN_det F _ _ (fun t => red (nadd K) n0 (fun t => nmul K (nth0 la (oa + (ii + (jb * 8 + t) * d1))) (nth0 lb (ob + (jb * 8 + t + kk * d2)))) t)).
           ++ cbn [bind]. rewrite (upd_Ok n0) by nia. eexists; split; [reflexivity|]. split; [apply lset_length|].
              intros q. destruct (Nat.eqb_spec (oy + (ii + kk * d1)) q) as [<-|Hq].
              ** rewrite nth_lset_eq by nia. destruct (ID ii kk Hii1) as (-> & ->).
                 replace (Nat.min (jb * 8 + 8) d2 - jb * 8) with (Nat.min 8 (d2 - jb * 8)) by lia. reflexivity.
              ** rewrite nth_lset_neq by auto. auto.
           ++ intros t Ht. cbv beta.
              assert (Hj : jb * 8 + t < d2) by lia. rewrite !(@rd_Ok _ _ _ (@n0 K)) by nia. cbn [bind]. rewrite red_S. auto.
Qed.

Lemma k_matmul_spec (a b y : tensor) la lb ly : vt a la -> vt b lb -> vt y ly ->
  matrix (t_shape a) -> matrix (t_shape b) -> matrix (t_shape y) ->
  let d1 := ext (t_shape a) 0 in let d2 := ext (t_shape a) 1 in let d3 := ext (t_shape b) 1 in
  ext (t_shape b) 0 = d2 -> ext (t_shape y) 0 = d1 -> ext (t_shape y) 1 = d3 ->
  (bat (t_shape a) = 1 \/ bat (t_shape a) = bat (t_shape y)) -> (bat (t_shape b) = 1 \/ bat (t_shape b) = bat (t_shape y)) ->
  exists l', k_matmul a b y = Ok (with_buf y l') /\
    over n0 ly l' (tot (t_shape y)) (fun p =>
      let n := p / (d1 * d3) in let q := p mod (d1 * d3) in
      blocksum (fun j => nmul K (nth0 la (bsel (t_shape a) n * (d1 * d2) + (q mod d1 + j * d1)))
                               (nth0 lb (bsel (t_shape b) n * (d2 * d3) + (j + q / d1 * d2)))) d2).
Proof.
  intros Ha Hb Hy Ma Mb My d1 d2 d3 E1 E2 E3 Ba Bb.
  unfold k_matmul. rewrite (ptr_vt Ha), (ptr_vt Hb), (ptr_vt Hy). cbn [bind].
  pose proof (proj2 (proj2 Ha)) as HaL. pose proof (proj2 (proj2 Hb)) as HbL. pose proof (proj2 (proj2 Hy)) as HyL.
  pose proof (vt_wf Ha) as Wa. pose proof (vt_wf Hb) as Wb. pose proof (vt_wf Hy) as Wy.
  set (sa := t_shape a) in *. set (sb := t_shape b) in *. set (sy := t_shape y) in *.
  change (N.to_nat (index sa 0)) with d1. change (N.to_nat (index sa 1)) with d2. change (N.to_nat (index sb 1)) with d3.
  change (N.to_nat (batch sy)) with (bat sy).
  assert (H1 : 1 <= d1) by apply (ext_pos 0 Wa). assert (H2 : 1 <= d2) by apply (ext_pos 1 Wa). assert (H3 : 1 <= d3) by apply (ext_pos 1 Wb).
  assert (Ta : tot sa = bat sa * (d1 * d2)) by (unfold tot; rewrite matrix_vol by auto; auto).
  assert (Tb : tot sb = bat sb * (d2 * d3)) by (unfold tot; rewrite matrix_vol, E1 by auto; auto).
  assert (Ty : tot sy = bat sy * (d1 * d3)) by (unfold tot; rewrite matrix_vol, E2, E3 by auto; auto).
  assert (Ia : (if has_batch sa then d1 * d2 else 0) = shift sa (d1 * d2)) by (unfold shift, has_batch; pose proof (wf_batch Wa); destruct (N.eqb_spec (batch sa) 1), (N.ltb_spec 1 (batch sa)); auto; lia).
  assert (Ib : (if has_batch sb then d2 * d3 else 0) = shift sb (d2 * d3)) by (unfold shift, has_batch; pose proof (wf_batch Wb); destruct (N.eqb_spec (batch sb) 1), (N.ltb_spec 1 (batch sb)); auto; lia).
  rewrite Ia, Ib.
  match goal with |- context [forN (bat sy) ?f (0, 0, 0, ly)] => set (body := f) end.
  set (one := fun (_ oa ob oy : nat) py => 
     py <- forN (d1 * d3) (fun n py => wr py (oy + n) n0) py ;;
     forL (steps_by d3 8) (fun k py =>
        let ek := Nat.min (k + 8) d3 in
        forL (steps_by d1 8) (fun i py =>
           let ei := Nat.min (i + 8) d1 in
           forL (steps_by d2 8) (fun j py =>
              let ej := Nat.min (j + 8) d2 in
              forR k ek (fun kk py =>
                 let kk_d1 := kk * d1 in
                 let kk_d2 := kk * d2 in
                 forR i ei (fun ii py =>
                    tmp <- forR j ej (fun jj tmp =>
                             va <- rd la (oa + (ii + jj * d1)) ;; vb <- rd lb (ob + (jj + kk_d2)) ;;
                             Ok (nadd K tmp (nmul K va vb))) n0 ;;
                    upd py (oy + (ii + kk_d1)) (fun v => Ok (nadd K v tmp))) py) py) py) py) py).
  assert (Ef : forN (bat sy) body (0, 0, 0, ly) = forN (bat sy) (fun i '(p, q, r, s) => s' <- one i p q r s ;; Ok (p + shift sa (d1 * d2), q + shift sb (d2 * d3), r + d1 * d3, s')) (0, 0, 0, ly)).
  { apply forN_ext. intros i [[[p q] r] s] _. unfold body, one. rewrite bind_assoc. reflexivity. }
  rewrite Ef, forN_stride3. clear Ef body.
  set (S := d1 * d3) in *. assert (HS : 1 <= S) by (unfold S; nia).
  set (elt := fun p => let n := p / S in let q := p mod S in
      blocksum (fun j => nmul K (nth0 la (bsel sa n * (d1 * d2) + (q mod d1 + j * d1)))
                               (nth0 lb (bsel sb n * (d2 * d3) + (j + q / d1 * d2)))) d2).
  edestruct (@tr_forL F n0 nat (seq 0 (bat sy))) with (l := ly) (h := fun q (_ : F) => elt q) (R := fun n q => q / S =? n) as (l' & E & HL & HP).
  4:{ unfold forN at 1. rewrite E. cbn [bind]. eexists; split; [reflexivity|]. split; auto. intros p. rewrite HP. fold S.
      replace (existsb _ _) with (p <? tot sy); auto.
      apply Bool.eq_true_iff_eq. rewrite Nat.ltb_lt, existsb_exists, Ty. split.
      - intros Hp. exists (p / S). split; [|apply Nat.eqb_refl]. apply in_seq. split; [lia|]. apply Nat.div_lt_upper_bound; lia.
      - intros (n & Hn & Q). apply Nat.eqb_eq in Q. apply in_seq in Hn. subst n.
        pose proof (Nat.div_mod p S ltac:(lia)). pose proof (Nat.mod_upper_bound p S ltac:(lia)). nia. }
  - apply seq_NoDup.
  - intros n n' q _ _ Q Q'. apply Nat.eqb_eq in Q, Q'. congruence.
  - intros n l' Hn HL. apply in_seq in Hn. cbv beta. rewrite !Nat.add_0_l. unfold one. clear one.
    rewrite !shift_bsel by auto.
    assert (Bn : bsel sa n < bat sa) by (unfold bsel; destruct (Nat.eqb_spec (bat sa) 1); lia).
    assert (Bn' : bsel sb n < bat sb) by (unfold bsel; destruct (Nat.eqb_spec (bat sb) 1); lia).
    assert (HnS : n * S + S <= length l') by (rewrite Ty in HyL; nia).
    destruct (@tr_forL F n0 nat (seq 0 S) (fun n1 py => wr py (n * S + n1) n0) (fun i q => n * S + i =? q) (fun _ _ => n0) l') as (l1 & Ez & HL1 & HP1).
    + apply seq_NoDup.
    + intros i j q _ _ Q Q'. apply Nat.eqb_eq in Q, Q'. lia.
    + intros i l1 Hi HL1. apply in_seq in Hi. rewrite wr_Ok by lia. eexists; split; [reflexivity|]. split; [apply lset_length|].
      intros q. destruct (Nat.eqb_spec (n * S + i) q) as [<-|]; [apply nth_lset_eq; lia|apply nth_lset_neq; auto].
    + unfold forN. rewrite Ez. cbn [bind].
      edestruct (@mm_block la lb (bsel sa n * (d1 * d2)) (bsel sb n * (d2 * d3)) (n * S) d1 d2 d3 l1) as (l2 & E2' & HL2 & HP2); auto.
      { rewrite Ta in HaL. nia. }
      { rewrite Tb in HbL. nia. }
      { fold S. lia. }
      exists l2; split; [exact E2'|]. split; [lia|]. intros q. rewrite HP2, HP1. fold S.
      assert (EQ : ((n * S <=? q) && (q <? n * S + S)) = (q / S =? n)).
      { apply Bool.eq_true_iff_eq. rewrite Bool.andb_true_iff, Nat.leb_le, Nat.ltb_lt, Nat.eqb_eq.
        pose proof (Nat.div_mod q S ltac:(lia)). pose proof (Nat.mod_upper_bound q S ltac:(lia)). split; [|nia].
        intros (Q1 & Q2). symmetry. apply (Nat.div_unique q S n (q - n * S)); lia. }
      rewrite EQ. assert (EX : existsb (fun a0 => n * S + a0 =? q) (seq 0 S) = (q / S =? n)).
      { rewrite <- EQ. apply Bool.eq_true_iff_eq. rewrite existsb_exists, Bool.andb_true_iff, Nat.leb_le, Nat.ltb_lt. split.
        - intros (i & Hi & Q). apply in_seq in Hi. apply Nat.eqb_eq in Q. lia.
        - intros Q. exists (q - n * S). rewrite in_seq, Nat.eqb_eq. lia. }
      rewrite EX. destruct (Nat.eqb_spec (q / S) n) as [Q|Q]; auto.
      unfold elt. cbv zeta. rewrite Q. unfold blocksum. apply red_ext. intros jb Hjb. apply red_ext. intros t Ht.
      replace (q mod S) with (q - n * S); auto. pose proof (Nat.div_mod q S ltac:(lia)). rewrite Q in H. lia.
Qed.
End MM.
