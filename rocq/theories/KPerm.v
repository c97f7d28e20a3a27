(** * KPerm: the permute_dims kernels *)
From Verif Require Export ApiBw.
From Coq Require Import Permutation.
Set Implicit Arguments.
Unset Strict Implicit.
Notation nat32 := N.to_nat (only parsing).

(** ** sums and products over a permuted range *)
Lemma fold_perm (op : nat -> nat -> nat) z l l' : (forall a b, op a b = op b a) -> (forall a b c, op a (op b c) = op (op a b) c) ->
  Permutation l l' -> fold_right op z l = fold_right op z l'.
Proof. intros HC HA P. induction P as [|x l l' P IH|x y l|l1 l2 l3 P1 IH1 P2 IH2]; cbn [fold_right].
  - reflexivity.
  - rewrite IH. reflexivity.
  - rewrite !HA, (HC y x). reflexivity.
  - congruence.
Qed.
Lemma inj_range_perm n (h : nat -> nat) : (forall i, i < n -> h i < n) -> (forall i j, i < n -> j < n -> h i = h j -> i = j) ->
  Permutation (map h (seq 0 n)) (seq 0 n).
Proof.
  intros H1 H2. apply NoDup_Permutation_bis.
  - assert (G : forall l, NoDup l -> (forall i, In i l -> i < n) -> NoDup (map h l)).
    { induction l as [|a l IH]; intros ND HI; cbn; constructor; inversion ND; subst.
      - intros Hin. apply in_map_iff in Hin. destruct Hin as (b & E & Hb). assert (b = a) by (apply H2; auto; apply HI; cbn; auto). subst. contradiction.
      - apply IH; auto. intros; apply HI; cbn; auto. }
    apply G; [apply seq_NoDup|]. intros i Hi. apply in_seq in Hi. lia.
  - rewrite map_length. auto.
  - intros x Hx. apply in_map_iff in Hx. destruct Hx as (i & <- & Hi). apply in_seq in Hi. apply in_seq. specialize (H1 i). lia.
Qed.
Fixpoint sumn (f : nat -> nat) (n : nat) : nat := match n with 0 => 0 | S n' => sumn f n' + f n' end.
Lemma sumn_fold f n : sumn f n = fold_right Nat.add 0 (map f (seq 0 n)).
Proof.
  induction n; [reflexivity|]. rewrite seq_S, map_app, fold_right_app. cbn [sumn map fold_right Nat.add]. rewrite IHn.
  generalize (map f (seq 0 n)). induction l; cbn; lia.
Qed.
Lemma prod_fold f n : prod_lt f n = fold_right Nat.mul 1 (map f (seq 0 n)).
Proof.
  induction n; [reflexivity|]. rewrite seq_S, map_app, fold_right_app. cbn [prod_lt map fold_right Nat.add]. rewrite IHn.
  generalize (map f (seq 0 n)). induction l; cbn; nia.
Qed.
Lemma sumn_perm n h f : (forall i, i < n -> h i < n) -> (forall i j, i < n -> j < n -> h i = h j -> i = j) -> sumn (fun i => f (h i)) n = sumn f n.
Proof.
  intros H1 H2. rewrite !sumn_fold. rewrite <- (map_map h f). apply fold_perm; try (intros; lia). apply Permutation_map. apply inj_range_perm; auto.
Qed.
Lemma prod_perm n h f : (forall i, i < n -> h i < n) -> (forall i j, i < n -> j < n -> h i = h j -> i = j) -> prod_lt (fun i => f (h i)) n = prod_lt f n.
Proof.
  intros H1 H2. rewrite !prod_fold. rewrite <- (map_map h f). apply fold_perm; try (intros; lia). apply Permutation_map. apply inj_range_perm; auto.
Qed.
Lemma sumn_ext f g n : (forall i, i < n -> f i = g i) -> sumn f n = sumn g n.
Proof. induction n; cbn; intros H; auto. rewrite IHn, H; auto. Qed.
Lemma lin_sumn e c n : lin_lt e c n = sumn (fun i => c i * prod_lt e i) n.
Proof. induction n; cbn; auto. Qed.
Lemma lin_pad e c k n : k <= n -> (forall i, k <= i -> c i = 0) -> lin_lt e c n = lin_lt e c k.
Proof. intros H HZ. induction H; auto. cbn. rewrite IHle, HZ by lia. lia. Qed.
Lemma prod_pad e k n : k <= n -> (forall i, k <= i -> e i = 1) -> prod_lt e n = prod_lt e k.
Proof. intros H HZ. induction H; auto. cbn. rewrite IHle, HZ by lia. lia. Qed.

(** ** the permutation *)
Definition is_perm (perm : list N) : Prop := Permutation (map N.to_nat perm) (seq 0 (length perm)).
(** the coordinate with [perm] applied: entry i is entry perm[i] of c *)
Definition permuted (perm : list N) (c : nat -> nat) : nat -> nat := fun i => match nth_error perm i with Some p => c (N.to_nat p) | None => c i end.

Section Perm.
Variable perm : list N.
Hypothesis HP : is_perm perm.
Notation n := (length perm).
Definition pi (i : nat) : nat := N.to_nat (nth i perm 0%N).
Lemma permuted_lt c i : i < n -> permuted perm c i = c (pi i).
Proof. intros H. unfold permuted, pi. rewrite (nth_error_nth' perm 0%N H). reflexivity. Qed.
Lemma permuted_ge c i : n <= i -> permuted perm c i = c i.
Proof. intros H. unfold permuted. rewrite (proj2 (nth_error_None perm i) H). reflexivity. Qed.
Lemma pi_map i : i < n -> nth i (map N.to_nat perm) 0 = pi i.
Proof. intros H. unfold pi. change 0 with (N.to_nat 0). rewrite map_nth. reflexivity. Qed.
Lemma pi_lt i : i < n -> pi i < n.
Proof.
  intros H. assert (I : In (pi i) (seq 0 n)). { eapply Permutation_in; [apply HP|]. unfold pi. apply in_map. apply nth_In; auto. }
  apply in_seq in I. lia.
Qed.
Lemma pi_inj i j : i < n -> j < n -> pi i = pi j -> i = j.
Proof.
  intros Hi Hj E. assert (ND : NoDup (map N.to_nat perm)). { eapply Permutation_NoDup; [apply Permutation_sym; apply HP|apply seq_NoDup]. }
  rewrite NoDup_nth with (d := 0) in ND. apply ND; try (rewrite map_length; auto). rewrite !pi_map; auto.
Qed.
Definition sg (a : nat) : nat := match find (fun i => pi i =? a) (seq 0 n) with Some i => i | None => a end.
Lemma sg_spec a : a < n -> sg a < n /\ pi (sg a) = a.
Proof.
  intros H. unfold sg. destruct (find _ _) as [i|] eqn:E.
  - apply find_some in E. destruct E as (I & E). apply in_seq in I. apply Nat.eqb_eq in E. split; [lia|auto].
  - exfalso. assert (I : In a (map N.to_nat perm)). { eapply Permutation_in; [apply Permutation_sym; apply HP|]. apply in_seq. lia. }
    destruct (In_nth _ _ 0 I) as (i & Hi & Ei). rewrite map_length in Hi. rewrite pi_map in Ei by auto.
    pose proof (find_none _ _ E i) as G. cbv beta in G. rewrite Ei, Nat.eqb_refl in G. assert (In i (seq 0 n)) by (apply in_seq; lia). intuition discriminate.
Qed.
Lemma sg_pi i : i < n -> sg (pi i) = i.
Proof. intros H. destruct (sg_spec (pi_lt H)) as (H1 & H2). apply pi_inj; auto. Qed.
Definition unpermuted (c : nat -> nat) : nat -> nat := fun i => if i <? n then c (sg i) else c i.
Lemma unpermuted_permuted c i : unpermuted (permuted perm c) i = c i.
Proof.
  unfold unpermuted. destruct (Nat.ltb_spec i n) as [H|H]; [|apply permuted_ge; auto]. destruct (sg_spec H) as (H1 & H2). rewrite permuted_lt by auto. congruence.
Qed.
Lemma permuted_unpermuted c i : permuted perm (unpermuted c) i = c i.
Proof.
  destruct (Nat.lt_ge_cases i n) as [H|H].
  - rewrite permuted_lt by auto. unfold unpermuted. rewrite (proj2 (Nat.ltb_lt _ _) (pi_lt H)), sg_pi; auto.
  - rewrite permuted_ge by auto. unfold unpermuted. rewrite (proj2 (Nat.ltb_ge _ _) H). auto.
Qed.

(** ** strides *)
Section Shapes.
Variables sx sy : shape.
Hypothesis Wx : wf sx.
Hypothesis Wy : wf sy.
Hypothesis HE : forall i, ext sy i = permuted perm (ext sx) i.
Hypothesis H1 : forall i, n <= i -> ext sx i = 1.
Hypothesis HB : bat sy = bat sx.

Lemma strides_ok : exists xs ys, perm_strides perm sx sy = Ok (xs, ys) /\ length xs = n /\ length ys = n /\
  (forall i, i < n -> nth (n - i - 1) xs 0 = prod_lt (ext sx) i) /\ (forall i, i < n -> nth (n - pi i - 1) ys 0 = prod_lt (ext sy) i).
Proof.
  unfold perm_strides.
  destruct (@forN_inv (list nat * list nat * nat * nat) (fun k '(xs, ys, xt, yt) => length xs = n /\ length ys = n /\ xt = prod_lt (ext sx) k /\ yt = prod_lt (ext sy) k /\
     (forall i, i < k -> nth (n - i - 1) xs 0 = prod_lt (ext sx) i) /\ (forall i, i < k -> nth (n - pi i - 1) ys 0 = prod_lt (ext sy) i))
     n (fun i '(xs, ys, xt, yt) => p <- idx perm i ;; xs' <- aset xs (n - i - 1) xt ;; _ <- assert (nat32 p <? n) ;; ys' <- aset ys (n - nat32 p - 1) yt ;;
        Ok (xs', ys', xt * nat32 (index sx i), yt * nat32 (index sy i))) (repeat 0 n, repeat 0 n, 1, 1)) as ((((xs & ys) & xt) & yt) & E & L1 & L2 & _ & _ & X & Y).
  - rewrite repeat_length. repeat split; auto; intros; lia.
  - intros i (((xs & ys) & xt) & yt) Hi (L1 & L2 & Ex & Ey & X & Y). pose proof (pi_lt Hi) as Hp.
    rewrite (idx_Ok perm i 0%N) by auto. cbn [bind]. unfold aset. rewrite (proj2 (Nat.ltb_lt (n - i - 1) (length xs))) by lia. cbn [bind]. change (nat32 (nth i perm 0%N)) with (pi i).
    rewrite (proj2 (Nat.ltb_lt (pi i) n)) by auto. cbn [assert bind]. rewrite (proj2 (Nat.ltb_lt (n - pi i - 1) (length ys))) by lia. cbn [bind]. eexists. split; [reflexivity|].
    cbv beta iota. rewrite !lset_length. ssplit; auto.
    + subst xt. reflexivity.
    + subst yt. reflexivity.
    + intros j Hj. rewrite nth_lset by lia. destruct (Nat.eqb_spec (n - j - 1) (n - i - 1)) as [Eq|Ne]; [replace j with i by lia; auto|apply X; lia].
    + intros j Hj. rewrite nth_lset by lia. destruct (Nat.eqb_spec (n - pi j - 1) (n - pi i - 1)) as [Eq|Ne].
      * assert (j = i) by (pose proof (@pi_lt j ltac:(lia)); apply pi_inj; lia). subst; auto.
      * apply Y. assert (j <> i) by (intros ->; auto). lia.
  - rewrite E. cbn [bind]. exists xs, ys. ssplit; auto.
Qed.

Lemma pindex_ok xs ys c : length xs = n -> length ys = n ->
  (forall i, i < n -> nth (n - i - 1) xs 0 = prod_lt (ext sx) i) -> (forall i, i < n -> nth (n - pi i - 1) ys 0 = prod_lt (ext sy) i) ->
  (forall i, i < n -> c i < ext sx i) -> perm_index xs ys n (lin_lt (ext sx) c n) = Ok (lin_lt (ext sy) (permuted perm c) n).
Proof.
  intros L1 L2 X Y Hc. unfold perm_index.
  assert (E := @forN_det (nat * nat) n (fun d '(tmp, j) => sx0 <- idx xs d ;; sy0 <- idx ys d ;; _ <- assert (negb (sx0 =? 0)) ;; Ok (tmp - tmp / sx0 * sx0, j + tmp / sx0 * sy0))
     (fun k => (lin_lt (ext sx) c (n - k), sumn (fun d => c (n - d - 1) * nth d ys 0) k))).
  cbv beta in E. cbn [sumn] in E. rewrite Nat.sub_0_r in E. rewrite E; clear E.
  - cbn [bind snd]. f_equal. rewrite lin_sumn. transitivity (sumn (fun i => c (n - (n - pi i - 1) - 1) * nth (n - pi i - 1) ys 0) n).
    + symmetry. apply (@sumn_perm n (fun i => n - pi i - 1) (fun d => c (n - d - 1) * nth d ys 0)).
      * intros i Hi. lia.
      * intros i j Hi Hj E. pose proof (pi_lt Hi). pose proof (pi_lt Hj). apply pi_inj; lia.
    + apply sumn_ext. intros i Hi. pose proof (pi_lt Hi). rewrite Y by auto. rewrite permuted_lt by auto. do 2 f_equal. lia.
  - intros k Hk. cbv beta iota. rewrite (idx_Ok xs k 0), (idx_Ok ys k 0) by lia. cbn [bind].
    assert (Ek : k = n - (n - k - 1) - 1) by lia. set (a := n - k - 1) in * . assert (Ha : a < n) by lia. replace (n - k) with (S a) by lia. replace (n - S k) with a by lia. cbn [lin_lt].
    replace (nth k xs 0) with (prod_lt (ext sx) a) by (rewrite Ek; symmetry; apply X; auto).
    assert (P : 1 <= prod_lt (ext sx) a) by (apply prod_lt_pos; intros; apply ext_pos; auto).
    destruct (Nat.eqb_spec (prod_lt (ext sx) a) 0) as [|_]; [lia|]. cbn [negb assert bind].
    pose proof (@lin_lt_lt (ext sx) c a ltac:(intros; apply Hc; lia)) as LL.
    rewrite Nat.div_add by lia. rewrite Nat.div_small by auto. do 2 f_equal; lia.
Qed.

(** positions to coordinates and back *)
Definition cpos (s : shape) (p : nat) : nat -> nat := coord (ext s) 8 (p mod vol s).
Lemma cpos_inb s p : wf s -> inb s (cpos s p).
Proof.
  intros W. pose proof (vol_pos W) as HV. assert (Hm : p mod vol s < vol s) by (apply Nat.mod_upper_bound; lia).
  destruct (@coord_spec (ext s) 8 (p mod vol s) (fun i => ext_pos i W) Hm) as (A & B & _). intros i. unfold cpos. destruct (Nat.lt_ge_cases i 8); auto. rewrite B, ext_ge8 by auto. lia.
Qed.
Lemma cpos_lin s p : wf s -> lin_lt (ext s) (cpos s p) 8 = p mod vol s.
Proof.
  intros W. pose proof (vol_pos W) as HV. assert (Hm : p mod vol s < vol s) by (apply Nat.mod_upper_bound; lia).
  apply (@coord_spec (ext s) 8 (p mod vol s) (fun i => ext_pos i W) Hm).
Qed.
Lemma pos_cpos s p : wf s -> pos s (cpos s p) (p / vol s) = p.
Proof. intros W. unfold pos. rewrite cpos_lin by auto. pose proof (vol_pos W). rewrite (Nat.div_mod p (vol s)) at 3 by lia. lia. Qed.
Lemma pos_parts s c b : wf s -> inb s c -> pos s c b / vol s = b /\ forall i, cpos s (pos s c b) i = c i.
Proof.
  intros W Hc. pose proof (pos_cpos (pos s c b) W) as E. destruct (@pos_inj s _ _ _ _ W (@cpos_inb s (pos s c b) W) Hc E) as (E1 & E2). auto.
Qed.

Lemma inb_permuted c : inb sx c -> inb sy (permuted perm c).
Proof.
  intros Hc i. rewrite HE. destruct (Nat.lt_ge_cases i n); [rewrite !permuted_lt by auto|rewrite !permuted_ge by auto]; apply Hc.
Qed.
Lemma inb_unpermuted c : inb sy c -> inb sx (unpermuted c).
Proof.
  intros Hc i. unfold unpermuted. destruct (Nat.ltb_spec i n) as [H|H].
  - destruct (sg_spec H) as (A & B). specialize (Hc (sg i)). rewrite HE, permuted_lt, B in Hc by auto. exact Hc.
  - specialize (Hc i). rewrite HE, permuted_ge in Hc by auto. exact Hc.
Qed.
Lemma ext_y_1 i : n <= i -> ext sy i = 1.
Proof. intros H. rewrite HE, permuted_ge by auto. auto. Qed.
Lemma vol_perm : vol sy = vol sx.
Proof.
  assert (E : prod_lt (ext sy) n = prod_lt (ext sx) n).
  { rewrite <- (@prod_perm n pi (ext sx)); [|apply pi_lt|apply pi_inj]. apply prod_lt_ext. intros i Hi. rewrite HE, permuted_lt; auto. }
  unfold vol, low. set (k := Nat.max 8 n).
  rewrite <- (@prod_pad (ext sy) 8 k), <- (@prod_pad (ext sx) 8 k) by (try (unfold k; lia); intros; apply ext_ge8; auto).
  rewrite (@prod_pad (ext sy) n k), (@prod_pad (ext sx) n k); auto; try (unfold k; lia). apply ext_y_1.
Qed.
Lemma tot_perm : tot sy = tot sx.
Proof. unfold tot. rewrite vol_perm, HB. auto. Qed.
Lemma lin_n s c : (forall i, n <= i -> ext s i = 1) -> wf s -> inb s c -> lin_lt (ext s) c n = lin_lt (ext s) c 8.
Proof.
  intros Hs W Hc. set (k := Nat.max 8 n).
  rewrite <- (@lin_pad (ext s) c 8 k), <- (@lin_pad (ext s) c n k); auto; try (unfold k; lia).
  - intros i Hi. specialize (Hc i). rewrite Hs in Hc; auto. lia.
  - intros i Hi. specialize (Hc i). rewrite (ext_ge8 W) in Hc; auto. lia.
Qed.
(** where position p of x goes to *)
Definition goes (p : nat) : nat := pos sy (permuted perm (cpos sx p)) (p / vol sx).
Definition from (q : nat) : nat := pos sx (unpermuted (cpos sy q)) (q / vol sy).
Lemma goes_pos c b : inb sx c -> goes (pos sx c b) = pos sy (permuted perm c) b.
Proof.
  intros Hc. destruct (pos_parts b Wx Hc) as (E1 & E2). unfold goes. rewrite E1. apply pos_ext; auto. intros i _. unfold permuted. destruct (nth_error perm i); auto.
Qed.
Lemma from_pos c b : inb sy c -> from (pos sy c b) = pos sx (unpermuted c) b.
Proof.
  intros Hc. destruct (pos_parts b Wy Hc) as (E1 & E2). unfold from. rewrite E1. apply pos_ext; auto. intros i _. unfold unpermuted. destruct (i <? n); auto.
Qed.
Lemma goes_lt p : p < tot sx -> goes p < tot sy /\ from (goes p) = p.
Proof.
  intros Hp. destruct (pos_surj Wx Hp) as (c & b & Hc & Hb & <-). rewrite goes_pos by auto. pose proof (inb_permuted Hc) as Hc'. split.
  - apply pos_lt; auto. rewrite HB; auto.
  - rewrite from_pos by auto. apply pos_ext; auto. intros; apply unpermuted_permuted.
Qed.
Lemma from_lt q : q < tot sy -> from q < tot sx /\ goes (from q) = q.
Proof.
  intros Hq. destruct (pos_surj Wy Hq) as (c & b & Hc & Hb & <-). rewrite from_pos by auto. pose proof (inb_unpermuted Hc) as Hc'. split.
  - apply pos_lt; auto. rewrite <- HB; auto.
  - rewrite goes_pos by auto. apply pos_ext; auto. intros; apply permuted_unpermuted.
Qed.
Lemma goes_index xs ys p : length xs = n -> length ys = n ->
  (forall i, i < n -> nth (n - i - 1) xs 0 = prod_lt (ext sx) i) -> (forall i, i < n -> nth (n - pi i - 1) ys 0 = prod_lt (ext sy) i) ->
  perm_index xs ys n (p mod vol sx) = Ok (goes p - p / vol sx * vol sx) /\ p / vol sx * vol sx <= goes p.
Proof.
  intros L1 L2 X Y. assert (I := @cpos_inb sx p Wx). rewrite <- (cpos_lin p Wx), <- (@lin_n sx) by auto. rewrite (@pindex_ok xs ys); auto. unfold goes, pos. rewrite vol_perm. split; [|lia].
  rewrite lin_n; [f_equal; lia|apply ext_y_1|auto|apply inb_permuted; auto].
Qed.
End Shapes.
End Perm.

(** ** the kernels *)
Section Kern.
Variable K : num.
Notation tensor := (tensor K).
Lemma stride2 S n k1 k2 (body : nat -> nat -> nat -> S -> res S) p0 q0 (s0 : S) :
  forN n (fun i '(p, q, s) => s' <- body i p q s ;; Ok (p + k1, q + k2, s')) (p0, q0, s0)
  = (s' <- forN n (fun i s => body i (p0 + i * k1) (q0 + i * k2) s) s0 ;; Ok (p0 + n * k1, q0 + n * k2, s')).
Proof.
  induction n as [|n IH].
  - unfold forN; simpl. rewrite !Nat.add_0_r. reflexivity.
  - rewrite !forN_S, IH, !bind_assoc. apply bind_ext; intros s1 _. simpl.
    apply bind_ext; intros s2 _. f_equal. f_equal. f_equal; lia.
Qed.
(** y is shaped like x with its dimensions permuted *)
Definition perm_shape (perm : list N) (sx sy : shape) : Prop :=
  is_perm perm /\ (forall i, ext sy i = permuted perm (ext sx) i) /\ (forall i, length perm <= i -> ext sx i = 1) /\ bat sy = bat sx.

Lemma k_permute_fw_writes (x y : tensor) perm d d' : ready d x -> ready d' y -> perm_shape perm (t_shape x) (t_shape y) ->
  writes (k_permute_fw x perm y) y (fun c b => at_ x (unpermuted perm c) b).
Proof.
  intros Hx Hy (HP & HE & H1 & HB). pose proof (ready_wf Hx) as Wx. pose proof (ready_wf Hy) as Wy.
  destruct (ready_vt Hx) as (_ & Bx & Lx). destruct (ready_vt Hy) as (_ & By & Ly).
  unfold k_permute_fw. destruct (strides_ok HP HB) as (xs & ys & E & L1 & L2 & X & Y). rewrite E. cbn [bind]. unfold ptr. rewrite Bx, By. cbn [unwrap bind].
  change (nat32 (volume (t_shape x))) with (N.to_nat (volume (t_shape x))). rewrite (vol_volume Wx). change (nat32 (batch (t_shape x))) with (bat (t_shape x)). set (V := vol (t_shape x)).
  assert (HV : 1 <= V) by apply (vol_pos Wx).
  rewrite (stride2 (bat (t_shape x)) V V (fun _ src dest py => forN V (fun i py => j <- perm_index xs ys (length perm) i ;; v <- rd (buf x) (src + i) ;; wr py (dest + j) v) py)).
  cbn [Nat.add]. rewrite (forN_nest_rev (bat (t_shape x)) V (fun b i py => j <- perm_index xs ys (length perm) i ;; v <- rd (buf x) (b * V + i) ;; wr py (b * V + j) v)).
  assert (ET := tot_perm HP Wx Wy HE H1 HB).
  edestruct (@bij_loop (F K) n0 (tot (t_shape x)) (goes perm (t_shape x) (t_shape y)) (from perm (t_shape x) (t_shape y)) (fun p _ => nth0 (buf x) p)) with (l := buf y) as (l' & El & HO).
  5:{ unfold tot in El at 1. fold V in El. rewrite El. cbn [bind]. exists l'. destruct HO as (HL & HO). split; [reflexivity|]. split; [exact HL|]. split.
      - intros p Hp. rewrite HO. destruct (Nat.ltb_spec p (tot (t_shape x))); [lia|auto].
      - intros c b Hc Hb. rewrite HO. pose proof (pos_lt Wy Hc Hb) as Q. destruct (Nat.ltb_spec (pos (t_shape y) c b) (tot (t_shape x))); [|lia].
        rewrite (@from_pos perm (t_shape x) (t_shape y) Wy HB c b Hc). rewrite at_buf. reflexivity. }
  - lia.
  - intros p Hp. rewrite <- ET. apply goes_lt; auto.
  - intros q Hq. rewrite <- ET in Hq. apply from_lt; auto.
  - intros p l' Hp HL. cbv beta. fold V. destruct (goes_index HP Wx Wy HE H1 HB p L1 L2 X Y) as (EI & LE). fold V in EI, LE. rewrite EI. cbn [bind].
    replace (p / V * V + p mod V) with p by (pose proof (Nat.div_mod p V); lia). rewrite (rd_Ok (buf x) p n0) by lia. cbn [bind].
    destruct (goes_lt HP Wx Wy HE HB Hp) as (GL & _). replace (p / V * V + (goes perm (t_shape x) (t_shape y) p - p / V * V)) with (goes perm (t_shape x) (t_shape y) p) by lia.
    rewrite wr_Ok by lia. reflexivity.
Qed.
Lemma k_permute_bw_writes (gy gx : tensor) perm d d' : ready d gy -> ready d' gx -> perm_shape perm (t_shape gx) (t_shape gy) ->
  writes (k_permute_bw gy perm gx) gx (fun c b => nadd K (at_ gx c b) (at_ gy (permuted perm c) b)).
Proof.
  intros Hy Hx (HP & HE & H1 & HB). pose proof (ready_wf Hx) as Wx. pose proof (ready_wf Hy) as Wy.
  destruct (ready_vt Hx) as (_ & Bx & Lx). destruct (ready_vt Hy) as (_ & By & Ly).
  unfold k_permute_bw. destruct (strides_ok HP HB) as (xs & ys & E & L1 & L2 & X & Y). rewrite E. cbn [bind]. unfold ptr. rewrite Bx, By. cbn [unwrap bind].
  change (nat32 (volume (t_shape gx))) with (N.to_nat (volume (t_shape gx))). rewrite (vol_volume Wx). change (nat32 (batch (t_shape gx))) with (bat (t_shape gx)). set (V := vol (t_shape gx)).
  assert (HV : 1 <= V) by apply (vol_pos Wx).
  rewrite (stride2 (bat (t_shape gx)) V V (fun _ src dest pgx => forN V (fun i pgx => j <- perm_index xs ys (length perm) i ;; v <- rd (buf gy) (src + j) ;; upd pgx (dest + i) (fun w => Ok (nadd K w v))) pgx)).
  cbn [Nat.add]. rewrite (forN_nest_rev (bat (t_shape gx)) V (fun b i pgx => j <- perm_index xs ys (length perm) i ;; v <- rd (buf gy) (b * V + j) ;; upd pgx (b * V + i) (fun w => Ok (nadd K w v)))).
  assert (ET := tot_perm HP Wx Wy HE H1 HB).
  edestruct (@upd_loop (F K) n0 (tot (t_shape gx))) with (l := buf gx) (h := fun p v => nadd K v (nth0 (buf gy) (goes perm (t_shape gx) (t_shape gy) p))) as (l' & El & HO).
  3:{ unfold tot in El at 1. fold V in El. rewrite El. cbn [bind]. exists l'. destruct HO as (HL & HO). split; [reflexivity|]. split; [exact HL|]. split.
      - intros p Hp. rewrite HO. destruct (Nat.ltb_spec p (tot (t_shape gx))); [lia|auto].
      - intros c b Hc Hb. rewrite HO. pose proof (pos_lt Wx Hc Hb) as Q. destruct (Nat.ltb_spec (pos (t_shape gx) c b) (tot (t_shape gx))); [|lia].
        rewrite (@goes_pos perm (t_shape gx) (t_shape gy) Wx HB c b Hc). rewrite !at_buf. reflexivity. }
  - lia.
  - intros p l' Hp HL. cbv beta. fold V. destruct (goes_index HP Wx Wy HE H1 HB p L1 L2 X Y) as (EI & LE). fold V in EI, LE. rewrite EI. cbn [bind].
    replace (p / V * V + p mod V) with p by (pose proof (Nat.div_mod p V); lia). destruct (goes_lt HP Wx Wy HE HB Hp) as (GL & _).
    replace (p / V * V + (goes perm (t_shape gx) (t_shape gy) p - p / V * V)) with (goes perm (t_shape gx) (t_shape gy) p) by lia. rewrite (rd_Ok (buf gy) _ n0) by lia. cbn [bind].
    rewrite (upd_Ok n0) by lia. reflexivity.
Qed.

(** flip *)
Lemma flip_reduces s dim : wf s -> exists sr, reduces s sr dim.
Proof.
  intros W. destruct (Nat.lt_ge_cases dim 8) as [H|H]; [destruct (resize1_exists Debug W H) as (sr & _ & R); eauto|].
  exists s. constructor; auto. apply ext_ge8; auto.
Qed.
Lemma flip_pos s sr dim c b : reduces s sr dim -> inb s c -> let q := pos s c b in
  lpos s dim (lline s dim q) (ext s dim - 1 - lidx s dim q) = pos s (cset c dim (ext s dim - 1 - c dim)) b.
Proof.
  intros R Hc q. pose proof (Hc dim) as Hd. assert (Hc0 := inb_red' R Hc).
  assert (E : q = lpos s dim (pos sr (cset c dim 0) b) (c dim)).
  { unfold q. rewrite (lpos_pos R b Hc0 Hd). apply pos_ext; auto. intros i _. unfold cset. destruct (Nat.eqb_spec i dim); subst; auto. }
  rewrite E. destruct (lpos_inv R (pos sr (cset c dim 0) b) Hd) as (-> & ->). rewrite (lpos_pos R b Hc0) by lia. apply pos_ext; auto. intros i _. unfold cset. destruct (Nat.eqb_spec i dim); auto.
Qed.
Lemma k_flip_fw_writes m (x y : tensor) dim d d' : ready d x -> ready d' y -> t_shape y = t_shape x ->
  writes (k_flip_fw m x dim y) y (fun c b => at_ x (cset c dim (ext (t_shape x) dim - 1 - c dim)) b).
Proof.
  intros Hx Hy Es. destruct (flip_reduces dim (ready_wf Hx)) as (sr & R). destruct (k_flip_fw_spec m (ready_vt Hx) (ready_vt Hy) Es R) as (l' & E & HL & HO).
  exists l'. split; [exact E|]. split; [exact HL|]. split.
  - intros p Hp. rewrite HO. destruct (Nat.ltb_spec p (tot (t_shape y))); [lia|auto].
  - intros c b Hc Hb. rewrite HO. pose proof (pos_lt (ready_wf Hy) Hc Hb). destruct (Nat.ltb_spec (pos (t_shape y) c b) (tot (t_shape y))); [|lia]. rewrite Es in * .
    rewrite at_buf. cbv zeta. f_equal. apply (flip_pos b R Hc).
Qed.
Lemma k_flip_bw_writes m (gy gx : tensor) dim d d' : ready d gy -> ready d' gx -> t_shape gy = t_shape gx ->
  writes (k_flip_bw m gy dim gx) gx (fun c b => nadd K (at_ gx c b) (at_ gy (cset c dim (ext (t_shape gx) dim - 1 - c dim)) b)).
Proof.
  intros Hy Hx Es. destruct (flip_reduces dim (ready_wf Hx)) as (sr & R). destruct (k_flip_bw_spec m (ready_vt Hy) (ready_vt Hx) Es R) as (l' & E & HL & HO).
  exists l'. split; [exact E|]. split; [exact HL|]. split.
  - intros p Hp. rewrite HO. destruct (Nat.ltb_spec p (tot (t_shape gx))); [lia|auto].
  - intros c b Hc Hb. rewrite HO. pose proof (pos_lt (ready_wf Hx) Hc Hb). destruct (Nat.ltb_spec (pos (t_shape gx) c b) (tot (t_shape gx))); [|lia].
    rewrite !at_buf. cbv zeta. rewrite Es. f_equal. f_equal. apply (flip_pos b R Hc).
Qed.
End Kern.
