(** * PropsContrib: C52 statistics, C53 dropout *)
From Verif Require Export Contrib PropsElem PropsMove PropsReal PropsInit.
Set Implicit Arguments.
Unset Strict Implicit.
Close Scope R_scope.
Open Scope nat_scope.

Section C52.
Variable K : num.
Notation F := (F K).
Notation tensor := (tensor K).
Notation "x +. y" := (nadd K x y) (at level 50, left associativity).
Notation "x -. y" := (nsub K x y) (at level 50, left associativity).
Notation "x *. y" := (nmul K x y) (at level 40, left associativity).
Notation "x /. y" := (ndiv K x y) (at level 40, left associativity).
Variable m : build.

(** ** Specification *)
(** the sum of f 0, ..., f (n-1) (added in that order, from 0), and the mean *)
Definition sum_of (f : nat -> F) (n : nat) : F := red (nadd K) n0 f n.
Definition mean_of (f : nat -> F) (n : nat) : F := sum_of f n /. nofZ K (Z.of_nat n).
Definition variance_of (f : nat -> F) (n : nat) : F := mean_of (fun k => (f k -. mean_of f n) *. (f k -. mean_of f n)) n.
(** addition and multiplication of two numbers do not depend on the order (true of floating point and of the reals) *)
Definition commutative : Prop := (forall u v, u +. v = v +. u) /\ (forall u v, u *. v = v *. u).
(** the coordinates of the p-th element of a minibatch item, in storage order *)
Definition nth_coord (s : shape) (p : nat) : nat -> nat := coord (ext s) 8 p.

(** ** tensors by their contents *)
Definition vof (s : shape) (f : (nat -> nat) -> nat -> F) (c : nat -> nat) (n : nat) : F := f (if is_scalar s then czero else c) (bsel s n).
Lemma yields_bind d s f (r : res tensor) (k : tensor -> res tensor) d' s' g : yields r d s f -> (forall t, is_tensor d s f t -> yields (k t) d' s' g) -> yields (bind r k) d' s' g.
Proof. intros (t & E & H) HK. rewrite E. cbn [bind]. apply HK; auto. Qed.
Lemma itself d (x : tensor) : ready d x -> is_tensor d (t_shape x) (fun c n => at_ x c n) x.
Proof. intros R. split; auto. Qed.
Lemma bsel_lt s n b : wf s -> n < b -> (bat s = 1 \/ bat s = b) -> bsel s n < bat s.
Proof. intros W H HB. unfold bsel. destruct (Nat.eqb_spec (bat s) 1); lia. Qed.
Lemma zero_in s : wf s -> inb s czero. Proof. intros W i. pose proof (@ext_pos s i W). unfold czero. lia. Qed.
Lemma bin_range a b s c n : wf a -> wf b -> bin_ok a b s -> inb s c -> n < bat s ->
  (inb a (if is_scalar a then czero else c) /\ bsel a n < bat a) /\ (inb b (if is_scalar b then czero else c) /\ bsel b n < bat b).
Proof.
  intros Wa Wb (H1 & H2 & _ & H3 & H4) Hc Hn. pose proof (bat_pos Wa). pose proof (bat_pos Wb). rewrite H4 in Hn.
  split; (split; [|apply bsel_lt with (b := Nat.max (bat a) (bat b)); auto; lia]).
  - destruct (is_scalar a) eqn:Ea; [apply zero_in; auto|]. intros i. rewrite <- H3. apply Hc.
  - destruct (is_scalar b) eqn:Eb; [apply zero_in; auto|]. intros i. destruct (is_scalar a) eqn:Ea; [rewrite <- H3; apply Hc|]. rewrite <- H1; auto. rewrite <- H3. apply Hc.
Qed.
Lemma opnd_val d s f (t : tensor) c n : is_tensor d s f t -> inb s (if is_scalar s then czero else c) -> bsel s n < bat s -> opnd t c n = vof s f c n.
Proof. intros (R & E & V) H1 H2. unfold opnd, vof. rewrite E. apply V; auto. Qed.
Lemma at_bsel_same s n : n < bat s -> bsel s n = n. Proof. unfold bsel. destruct (Nat.eqb_spec (bat s) 1); lia. Qed.
Lemma vof_same d s f (t : tensor) c n : is_tensor d s f t -> inb s c -> n < bat s -> vof s f c n = f c n.
Proof.
  intros HT Hc Hn. pose proof (is_tensor_shape HT) as E. assert (R : ready d t) by apply HT. pose proof (ready_wf R) as W. rewrite E in W.
  rewrite <- (opnd_val HT).
  - rewrite (opnd_in n R) by (rewrite E; auto). rewrite E, at_bsel_same by auto. apply (is_tensor_at HT); auto.
  - destruct (is_scalar s); auto. apply zero_in; auto.
  - rewrite at_bsel_same; auto.
Qed.
Lemma op_contents (op : F -> F -> F) f d al (a b : tensor) s sa fa sb fb : operator f op -> al_ok al -> is_tensor d sa fa a -> is_tensor d sb fb b -> bin_ok sa sb s -> fits s ->
  yields (f al a b) d s (fun c n => op (vof sa fa c n) (vof sb fb c n)).
Proof.
  intros HO HA Ha Hb HB HF. pose proof (is_tensor_shape Ha) as Ea. pose proof (is_tensor_shape Hb) as Eb. eapply yields_ext.
  - apply HO with (s := s); auto; [apply Ha|apply Hb|rewrite Ea, Eb; auto].
  - intros c n Hc Hn. cbv beta. assert (Ra : ready d a) by apply Ha. assert (Rb : ready d b) by apply Hb. pose proof (ready_wf Ra) as Wa. pose proof (ready_wf Rb) as Wb. rewrite Ea in Wa. rewrite Eb in Wb.
    destruct (bin_range Wa Wb HB Hc Hn) as ((A1 & A2) & (B1 & B2)). rewrite (opnd_val Ha A1 A2), (opnd_val Hb B1 B2). reflexivity.
Qed.
Lemma const_contents (op : F -> F -> F) f d al (x : tensor) s h k : method_maps_const f op -> al_ok al -> is_tensor d s h x -> yields (f al x k) d s (fun c n => op (h c n) k).
Proof.
  intros HM HA HX. pose proof (is_tensor_shape HX) as E. assert (R : ready d x) by apply HX. pose proof (HM d al x k HA R) as Y. rewrite E in Y. eapply yields_ext; [exact Y|].
  intros c n Hc Hn. cbv beta. rewrite (is_tensor_at HX); auto.
Qed.
Lemma map_contents (op : F -> F) f d al (x : tensor) s h : method_maps f op -> al_ok al -> is_tensor d s h x -> yields (f al x) d s (fun c n => op (h c n)).
Proof.
  intros HM HA HX. pose proof (is_tensor_shape HX) as E. assert (R : ready d x) by apply HX. pose proof (HM d al x HA R) as Y. rewrite E in Y. eapply yields_ext; [exact Y|].
  intros c n Hc Hn. cbv beta. rewrite (is_tensor_at HX); auto.
Qed.
Hypothesis HC : commutative.
Lemma op_add : operator (t_add m) (nadd K). Proof. apply (proj1 (C18_operator_syntax K m)). apply HC. Qed.
Lemma op_sub : operator (t_sub m) (nsub K). Proof. apply (proj1 (proj2 (C18_operator_syntax K m))). Qed.
Lemma op_mul : operator (t_mul m) (nmul K). Proof. apply (proj1 (proj2 (proj2 (C18_operator_syntax K m)))). apply HC. Qed.
Lemma op_div : operator (t_div m) (ndiv K). Proof. apply (proj1 (proj2 (proj2 (proj2 (C18_operator_syntax K m))))). Qed.
Lemma mc_add : method_maps_const (t_add_const m) (fun x k => x +. k). Proof. apply C17_methods. Qed.
Lemma mc_div : method_maps_const (t_div_const m) (fun x k => x /. k). Proof. apply C17_methods. Qed.
Lemma mc_mul : method_maps_const (fun al x k => t_const_mul m al k x) (fun x k => x *. k). Proof. apply C17_methods. Qed.
Lemma mx_sqrt : method_maps (t_sqrt m) (nsqrt K). Proof. apply C17_methods. Qed.

Lemma mean_ext f g n : (forall k, k < n -> f k = g k) -> mean_of f n = mean_of g n.
Proof. intros H. unfold mean_of, sum_of. f_equal. apply red_ext. auto. Qed.
Lemma ext_index s i : nofZ K (Z.of_N (index s i)) = nofZ K (Z.of_nat (ext s i)).
Proof. f_equal. unfold ext. rewrite N_nat_Z. reflexivity. Qed.
Lemma bat_batch s : nofZ K (Z.of_N (batch s)) = nofZ K (Z.of_nat (bat s)).
Proof. f_equal. unfold bat. rewrite N_nat_Z. reflexivity. Qed.

(** ** C52 *)
Theorem C52_mean : forall d als x dim, (forall i, al_ok (als i)) -> ready d x -> N.to_nat dim < 8 ->
  exists s, shape_is s (eset (t_shape x) (N.to_nat dim) 1) (bat (t_shape x)) /\
    yields (c_mean m als x dim) d s (fun c b => mean_of (fun j => at_ x (cset c (N.to_nat dim) j) b) (ext (t_shape x) (N.to_nat dim))).
Proof.
  intros d als x dim HA HR Hd. destruct (@C20_sum K m d (als 0) x dim (HA 0) HR Hd) as (s & W & Y). exists s. split; [exact W|]. unfold c_mean. eapply yields_bind; [exact Y|].
  intros t HT. rewrite ext_index. eapply yields_ext; [apply (const_contents _ mc_div (HA 1) HT)|]. reflexivity.
Qed.
Theorem C52_batch_mean : forall d als x s, (forall i, al_ok (als i)) -> ready d x -> shape_is s (ext (t_shape x)) 1 ->
  yields (c_batch_mean m als x) d s (fun c _ => mean_of (fun b => at_ x c b) (bat (t_shape x))).
Proof.
  intros d als x s HA HR Hs. pose proof (@C29_batch_sum K m d (als 0) x s (HA 0) HR Hs) as Y. unfold c_batch_mean. eapply yields_bind; [exact Y|].
  intros t HT. rewrite bat_batch. eapply yields_ext; [apply (const_contents _ mc_div (HA 1) HT)|]. reflexivity.
Qed.
(** the shape of a batch mean exists *)
Lemma batch1 s : wf s -> exists s1, shape_is s1 (ext s) 1.
Proof.
  intros W. destruct (@resize_batch_iff s 1 (mkShape (dims8 s) 1 (depth s) (volume s)) W eq_refl) as (H & _). specialize (H eq_refl). eexists. eapply is_shape_nat; [exact H|reflexivity|reflexivity].
Qed.
Lemma bin_batch s s1 : wf s -> shape_is s1 (ext s) 1 -> bin_ok s s1 s.
Proof.
  intros W (W1 & E & B). split; [intros; symmetry; apply E|]. split; [rewrite B; auto|]. pose proof (bat_pos W). split; [auto|]. split; [|lia]. intros i. destruct (is_scalar s); [rewrite E|]; auto.
Qed.
Lemma fits_batch1 s s1 : fits s -> shape_is s1 (ext s) 1 -> fits s1.
Proof.
  intros HF (W1 & E & B). pose proof (fits_wf HF) as W. apply (fits_tot W1). apply (proj1 (fits_tot W)) in HF. unfold tot in * . rewrite B, (@vol_ext s1 s (fun i _ => E i)). pose proof (bat_pos W). nia.
Qed.

(** normalization with any mean that gives a tensor broadcast against x *)
Section Norm.
Variables (d : nat) (s sm : shape) (mean : (nat -> alloc_oracle K) -> tensor -> res tensor) (M : ((nat -> nat) -> nat -> F) -> (nat -> nat) -> nat -> F).
Hypothesis MS : forall als f t, (forall i, al_ok (als i)) -> is_tensor d s f t -> yields (mean als t) d sm (M f).
Hypothesis MB : bin_ok s sm s.
Hypothesis HF : fits s.
Hypothesis HFm : fits sm.
Variables (x g b : tensor) (eps : F).
Hypothesis HX : ready d x.
Hypothesis EX : t_shape x = s.
Hypothesis HG : ready d g.
Hypothesis HB : ready d b.
Hypothesis BG : bin_ok (t_shape g) s s.
Hypothesis BB : bin_ok s (t_shape b) s.
Lemma normalize_yields als : (forall i k, al_ok (als i k)) ->
  let mu := vof sm (M (fun c n => at_ x c n)) in
  let sq := fun c n => (at_ x c n -. mu c n) *. (at_ x c n -. mu c n) in
  let var := vof sm (M sq) in
  exists sq', (forall c n, inb s c -> n < bat s -> sq' c n = sq c n) /\
  yields (c_normalize m mean als x g b eps) d s (fun c n => opnd g c n *. ((at_ x c n -. mu c n) /. nsqrt K (vof sm (M sq') c n +. eps)) +. opnd b c n).
Proof.
  intros HA mu sq var. pose proof (fits_wf HF) as W. pose proof (fits_wf HFm) as Wm. set (f := fun c n => at_ x c n) in * . assert (TX : is_tensor d s f x) by (split; auto; split; auto).
  destruct (MS (HA 0) TX) as (tm & Em & TM).
  destruct (op_contents op_sub (HA 1 0) TX TM MB HF) as (ts & Es & TS).
  destruct (op_contents op_mul (HA 1 1) TS TS (bin_ok_same W) HF) as (tq & Eq & TQ).
  match type of TQ with is_tensor _ _ ?h _ => exists h; set (sq' := h) in * end.
  assert (ES : forall c n, inb s c -> n < bat s -> vof s (fun c n => vof s f c n -. vof sm (M f) c n) c n = f c n -. vof sm (M f) c n).
  { intros c n Hc Hn. rewrite (vof_same TS Hc Hn). rewrite (vof_same TX Hc Hn). reflexivity. }
  split. { intros c n Hc Hn. unfold sq'. rewrite ES by auto. reflexivity. }
  destruct (MS (HA 2) TQ) as (tv0 & Ev0 & TV0).
  destruct (const_contents eps mc_add (HA 3 0) TV0) as (tv & Ev & TV).
  destruct (op_contents op_sub (HA 3 1) TX TM MB HF) as (tn & En & TN).
  destruct (map_contents mx_sqrt (HA 3 2) TV) as (td & Ed & TD).
  destruct (op_contents op_div (HA 3 3) TN TD MB HF) as (th & Eh & TH).
  destruct (op_contents op_mul (HA 3 4) (itself HG) TH BG HF) as (tg & Eg & TG).
  pose proof (op_contents op_add (HA 3 5) TG (itself HB) BB HF) as Y.
  unfold c_normalize. rewrite Em. cbn [bind]. rewrite Es. cbn [bind]. rewrite Eq. cbn [bind]. rewrite Ev0. cbn [bind]. rewrite Ev. cbn [bind]. rewrite En. cbn [bind]. rewrite Ed. cbn [bind]. rewrite Eh. cbn [bind]. rewrite Eg. cbn [bind].
  eapply yields_ext; [exact Y|]. intros c n Hc Hn. cbv beta. rewrite (vof_same TG Hc Hn). rewrite (vof_same TH Hc Hn). rewrite (vof_same TN Hc Hn). rewrite (vof_same TX Hc Hn). reflexivity.
Qed.
End Norm.
Theorem C52_batch_normalization : forall d als x g b eps, (forall i k, al_ok (als i k)) -> ready d x -> ready d g -> ready d b ->
  bin_ok (t_shape g) (t_shape x) (t_shape x) -> bin_ok (t_shape x) (t_shape b) (t_shape x) ->
  yields (c_batch_normalization m als x g b eps true) d (t_shape x) (fun c n =>
    let items := fun k => at_ x c k in let B := bat (t_shape x) in
    opnd g c n *. ((at_ x c n -. mean_of items B) /. nsqrt K (variance_of items B +. eps)) +. opnd b c n).
Proof.
  intros d als x g b eps HA HX HG HB BG BB. set (s := t_shape x) in * . pose proof (ready_fits HX) as HF. fold s in HF. pose proof (fits_wf HF) as W. destruct (batch1 W) as (s1 & S1).
  set (M := fun (f : (nat -> nat) -> nat -> F) (c : nat -> nat) (_ : nat) => mean_of (fun k => f c k) (bat s)).
  assert (MS : forall als f t, (forall i, al_ok (als i)) -> is_tensor d s f t -> yields (c_batch_mean m als t) d s1 (M f)).
  { intros als' f t HA' HT. pose proof (is_tensor_shape HT) as E. assert (R : ready d t) by apply HT. rewrite <- E in S1. eapply yields_ext; [apply (C52_batch_mean HA' R S1)|]. rewrite E in S1.
    intros c n Hc Hn. cbv beta. unfold M. rewrite E. apply mean_ext. intros k Hk. apply (is_tensor_at HT); auto. intros i. specialize (Hc i). destruct S1 as (_ & E1 & _). rewrite E1 in Hc. auto. }
  destruct (@normalize_yields d s s1 _ M MS (bin_batch W S1) HF (fits_batch1 HF S1) x g b eps HX eq_refl HG HB BG BB als HA) as (sq' & EQ & Y). cbv zeta in EQ, Y.
  unfold c_batch_normalization. eapply yields_ext; [exact Y|]. intros c n Hc Hn. cbv beta zeta.
  assert (SC : forall c, inb s c -> forall k, at_ x (if is_scalar s1 then czero else c) k = at_ x c k).
  { intros c0 H0 k. destruct (is_scalar s1) eqn:E1; auto. rewrite !at_buf. f_equal. apply pos_ext; auto. intros i _. specialize (H0 i). destruct S1 as (W1 & E2 & _). rewrite <- E2, (scalar_ext W1 E1) in H0. unfold czero. lia. }
  assert (MU : forall c n, inb s c -> vof s1 (M (fun c n => at_ x c n)) c n = mean_of (fun k => at_ x c k) (bat s)).
  { intros c0 n' H0. unfold vof, M. apply mean_ext. intros k _. apply SC; auto. }
  rewrite MU by auto. f_equal. f_equal. f_equal. f_equal. f_equal. unfold vof at 1. unfold M at 1. unfold variance_of. apply mean_ext. intros k Hk.
  assert (IC : inb s (if is_scalar s1 then czero else c)) by (destruct (is_scalar s1); auto; apply zero_in; auto). rewrite EQ by auto. rewrite MU by auto. rewrite SC by auto.
  assert (ME : mean_of (fun k0 => at_ x (if is_scalar s1 then czero else c) k0) (bat s) = mean_of (fun k0 => at_ x c k0) (bat s)) by (apply mean_ext; intros; apply SC; auto). rewrite ME. reflexivity.
Qed.
Theorem C52_batch_normalization_disabled : forall d als x g b eps, (forall i k, al_ok (als i k)) -> ready d x ->
  yields (c_batch_normalization m als x g b eps false) d (t_shape x) (fun c n => at_ x c n *. n1).
Proof. intros d als x g b eps HA HX. unfold c_batch_normalization. apply (const_contents n1 mc_mul (HA 0 0) (itself HX)). Qed.

(** layer normalization *)
Lemma nth_coord_in s p : wf s -> p < vol s -> inb s (nth_coord s p) /\ forall n, pos s (nth_coord s p) n = n * vol s + p.
Proof.
  intros W Hp. destruct (@coord_spec (ext s) 8 p (fun i => ext_pos i W) Hp) as (H1 & H2 & H3). unfold nth_coord. split.
  - intros i. destruct (Nat.lt_ge_cases i 8); [auto|]. rewrite H2 by auto. rewrite (ext_ge8 W) by auto. lia.
  - intros n. unfold pos. rewrite H3. reflexivity.
Qed.
Lemma vol_one_dim s0 n : (forall i, ext s0 i = if i =? 0 then n else 1) -> vol s0 = n.
Proof. intros E. unfold vol, low. cbn [prod_lt]. rewrite !E. cbn [Nat.eqb]. lia. Qed.
Lemma pos_flat s0 n c b : (forall i, ext s0 i = if i =? 0 then n else 1) -> (forall i, i <> 0 -> c i = 0) -> pos s0 c b = b * n + c 0.
Proof.
  intros E Hc. unfold pos. rewrite (vol_one_dim E). f_equal. cbn [lin_lt]. rewrite (Hc 1), (Hc 2), (Hc 3), (Hc 4), (Hc 5), (Hc 6), (Hc 7) by lia. cbn [prod_lt]. lia.
Qed.
Lemma flat_mean_yields d als f (t : tensor) s sm : (forall i, al_ok (als i)) -> is_tensor d s f t -> shape_is sm (fun _ => 1) (bat s) ->
  yields (c_flat_mean m als t) d sm (fun _ n => mean_of (fun p => f (nth_coord s p) n) (vol s)).
Proof.
  intros HA HT Hsm. pose proof (is_tensor_shape HT) as E. assert (R : ready d t) by apply HT. pose proof (ready_wf R) as W. rewrite E in W.
  destruct (@flatten_flat K m d (als 2) t (HA 2) R) as (s0 & S0 & tf & Ef & TF). rewrite E in S0. unfold c_flat_mean. rewrite Ef. cbn [bind].
  assert (RF : ready d tf) by apply TF. assert (EF : t_shape tf = s0) by apply TF.
  destruct (@C52_mean d als tf 0%N HA RF) as (s2 & S2 & Y); [cbn; lia|]. rewrite EF in S2. change (N.to_nat 0) with 0 in * .
  assert (s2 = sm). { eapply shape_is_unique; [|exact Hsm]. destruct S2 as (A & B & C). destruct S0 as (A0 & B0 & C0). split; [exact A|]. split; [|congruence]. intros i. rewrite B. unfold eset. destruct (Nat.eqb_spec i 0); auto. rewrite B0. destruct (Nat.eqb_spec i 0); lia. }
  subst s2. eapply yields_ext; [exact Y|]. intros c n Hc Hn. cbv beta. rewrite EF. destruct S0 as (W0 & E0 & B0).
  assert (V0 : ext s0 0 = vol s) by (rewrite E0; reflexivity). rewrite V0. apply mean_ext. intros p Hp.
  destruct (nth_coord_in W Hp) as (IC & PC). destruct Hsm as (Wm & Em & Bm). rewrite Bm in Hn.
  rewrite <- (is_tensor_at HT IC Hn). rewrite !at_buf, EF, E, PC. destruct TF as (_ & _ & VF).
  rewrite (pos_flat _ E0). 2:{ intros i Hi. unfold cset. destruct (Nat.eqb_spec i 0); [lia|]. specialize (Hc i). rewrite Em in Hc. lia. }
  unfold cset. rewrite Nat.eqb_refl. apply VF. unfold tot. rewrite B0, (vol_one_dim E0). nia.
Qed.
Theorem C52_layer_normalization : forall d als x g b eps, (forall i k, al_ok (als i k)) -> ready d x -> ready d g -> ready d b ->
  bin_ok (t_shape g) (t_shape x) (t_shape x) -> bin_ok (t_shape x) (t_shape b) (t_shape x) ->
  yields (c_layer_normalization m als x g b eps) d (t_shape x) (fun c n =>
    let items := fun p => at_ x (nth_coord (t_shape x) p) n in let V := vol (t_shape x) in
    opnd g c n *. ((at_ x c n -. mean_of items V) /. nsqrt K (variance_of items V +. eps)) +. opnd b c n).
Proof.
  intros d als x g b eps HA HX HG HB BG BB. set (s := t_shape x) in * . pose proof (ready_fits HX) as HF. fold s in HF. pose proof (fits_wf HF) as W.
  assert (SM : exists sm, shape_is sm (fun _ => 1) (bat s)).
  { destruct (@resize_batch_iff (sh [] 1) (batch s) (mkShape (dims8 (sh [] 1)) (batch s) (depth (sh [] 1)) (volume (sh [] 1))) (proj1 (@sh_wf [] 1%N eq_refl eq_refl)) (proj2 (wf_batch W))) as (H & _).
    eexists. eapply is_shape_nat; [apply H| |reflexivity]; [|intros [|i]; [reflexivity|]; cbn; destruct i as [|[|[|[|[|[|[|i]]]]]]]; try reflexivity; destruct i; reflexivity]. unfold resize_batch, update_batch. rewrite (proj2 (N.leb_le 1 (batch s)) (proj1 (wf_batch W))). reflexivity. }
  destruct SM as (sm & S1). set (M := fun (f : (nat -> nat) -> nat -> F) (_ : nat -> nat) (n : nat) => mean_of (fun p => f (nth_coord s p) n) (vol s)).
  assert (MS : forall als f t, (forall i, al_ok (als i)) -> is_tensor d s f t -> yields (c_flat_mean m als t) d sm (M f)) by (intros als' f t HA' HT; apply (flat_mean_yields HA' HT S1)).
  assert (SC : is_scalar sm = true). { apply (is_scalar_iff (proj1 S1)). intros i. destruct S1 as (_ & E1 & _). specialize (E1 i). unfold ext in E1. lia. }
  assert (MB : bin_ok s sm s).
  { destruct S1 as (W1 & E1 & B1). split; [congruence|]. split; [auto|]. split; [auto|]. split; [|rewrite B1; lia]. intros i. destruct (is_scalar s) eqn:E; auto. rewrite E1. apply (scalar_ext W E). }
  assert (HFm : fits sm).
  { destruct S1 as (W1 & E1 & B1). apply (fits_tot W1). apply (proj1 (fits_tot W)) in HF. unfold tot in * . rewrite B1, (@vol_one_dim sm 1) by (intros i; rewrite E1; destruct (i =? 0); auto). pose proof (vol_pos W). nia. }
  destruct (@normalize_yields d s sm _ M MS MB HF HFm x g b eps HX eq_refl HG HB BG BB als HA) as (sq' & EQ & Y). cbv zeta in EQ, Y.
  unfold c_layer_normalization. eapply yields_ext; [exact Y|]. intros c n Hc Hn. cbv beta zeta.
  assert (BS : bsel sm n = n) by (apply at_bsel_same; destruct S1 as (_ & _ & ->); auto).
  unfold vof, M. rewrite BS. f_equal. f_equal. f_equal. f_equal. f_equal. unfold variance_of. apply mean_ext. intros p Hp. rewrite EQ by (auto; apply (nth_coord_in W Hp)). unfold vof, M. rewrite BS. reflexivity.
Qed.
(** the sum of several tensors of the same dimensions, with batches of 1 broadcast *)
Theorem C52_slice_sum : forall d als x0 xs0 s, let xs := x0 :: xs0 in (forall i, al_ok (als i)) -> Forall (ready d) xs ->
  Forall (fun x => (forall i, ext (t_shape x) i = ext s i) /\ (bat (t_shape x) = 1 \/ bat (t_shape x) = bat s)) xs -> (exists x, In x xs /\ bat (t_shape x) = bat s) -> fits s ->
  yields (c_slice_sum m als xs) d s (fun c n => fold_left (fun acc x => acc +. at_ x c (bsel (t_shape x) n)) xs n0).
Proof.
  intros d als x0 xs0 s xs HA HR HS HE HF. pose proof (fits_wf HF) as W. unfold c_slice_sum. cbn [length Nat.eqb negb assert bind idx nth_error xs].
  assert (R0 : ready d x0) by (inversion HR; auto). rewrite (ready_device_of R0). cbn [bind]. destruct (@by_constant_flat K m d (als 0) (t_shape x0) n0 (HA 0) (ready_fits R0)) as (t0 & E0 & T0). rewrite E0. cbn [bind].
  assert (T0' : is_tensor d (t_shape x0) (fun _ _ => n0) t0).
  { assert (Y : yields (Ok t0) d (t_shape x0) (fun _ _ => n0)) by (eapply yields_of_flat; [exists t0; split; [reflexivity|exact T0]|reflexivity]). destruct Y as (y & Ey & HY). injection Ey as <-. exact HY. }
  assert (S0 : (forall i, ext (t_shape x0) i = ext s i) /\ (bat (t_shape x0) = 1 \/ bat (t_shape x0) = bat s)) by (inversion HS; auto).
  assert (G : forall l i t sr f, is_tensor d sr f t -> (forall i, ext sr i = ext s i) -> (bat sr = 1 \/ bat sr = bat s) -> Forall (ready d) l ->
    Forall (fun x => (forall i, ext (t_shape x) i = ext s i) /\ (bat (t_shape x) = 1 \/ bat (t_shape x) = bat s)) l ->
    (bat sr = bat s \/ exists x, In x l /\ bat (t_shape x) = bat s) ->
    yields (c_sum_loop m als i t l) d s (fun c n => fold_left (fun acc x => acc +. at_ x c (bsel (t_shape x) n)) l (f c (bsel sr n)))).
  { induction l as [|x l IH]; intros i t sr f HT ER BR RL SL EL; cbn [c_sum_loop fold_left].
    - assert (B : bat sr = bat s) by (destruct EL as [B|(x & [] & _)]; auto). assert (sr = s).
      { eapply shape_is_unique with (e := ext s) (b := bat s); split; auto. pose proof (is_tensor_shape HT) as E. rewrite <- E. apply (ready_wf (proj1 HT)). }
      subst sr. exists t. split; [reflexivity|]. eapply is_tensor_ext; [exact HT|]. intros c n Hc Hn. rewrite at_bsel_same; auto.
    - inversion RL as [|? ? Rx RL']; inversion SL as [|? ? (Ex & Bx) SL']; subst. pose proof (ready_wf Rx) as Wx. assert (Wr : wf sr) by (pose proof (is_tensor_shape HT) as E; rewrite <- E; apply (ready_wf (proj1 HT))).
      pose proof (bat_pos W) as PB.
      assert (S2 : exists s2, shape_is s2 (ext s) (Nat.max (bat sr) (bat (t_shape x)))).
      { destruct BR as [B1|B1], Bx as [B2|B2]; rewrite B1, B2; try (exists s; split; [exact W|split; [reflexivity|lia]]). destruct (batch1 W) as (s1 & H1). exists s1. exact H1. }
      destruct S2 as (s2 & S2). assert (F2 : fits s2).
      { destruct S2 as (W2 & E2 & B2). apply (fits_tot W2). apply (proj1 (fits_tot W)) in HF. unfold tot in * . rewrite B2, (@vol_ext s2 s (fun i _ => E2 i)). nia. }
      assert (BO : bin_ok sr (t_shape x) s2).
      { split; [intros; rewrite ER, Ex; auto|]. split; [lia|]. destruct S2 as (W2 & E2 & B2). split; [auto|]. split; [|auto]. intros j. rewrite E2. destruct (is_scalar sr); congruence. }
      destruct (op_contents op_add (HA i) HT (itself Rx) BO F2) as (t' & E' & T'). rewrite E'. cbn [bind]. destruct S2 as (W2 & E2 & B2).
      eapply yields_ext; [apply (IH (S i) t' s2 _ T'); auto; [rewrite B2; lia|]|].
      + rewrite B2. destruct EL as [B|(y & [<-|HI] & By)]; [left; rewrite B; lia|left; rewrite By; lia|right; eauto].
      + intros c n Hc Hn. cbv beta. f_equal.
        assert (IR : inb sr c) by (intros j; rewrite ER; apply Hc). assert (IX : inb (t_shape x) c) by (intros j; rewrite Ex; apply Hc).
        assert (LR : bsel sr n < bat sr) by (unfold bsel; destruct (Nat.eqb_spec (bat sr) 1); lia). assert (LX : bsel (t_shape x) n < bat (t_shape x)) by (unfold bsel; destruct (Nat.eqb_spec (bat (t_shape x)) 1); lia).
        assert (B2' : bsel sr (bsel s2 n) = bsel sr n) by (unfold bsel; rewrite B2; destruct (Nat.eqb_spec (bat sr) 1); auto; destruct (Nat.eqb_spec (Nat.max (bat sr) (bat (t_shape x))) 1); auto; lia).
        assert (B3' : bsel (t_shape x) (bsel s2 n) = bsel (t_shape x) n) by (unfold bsel; rewrite B2; destruct (Nat.eqb_spec (bat (t_shape x)) 1); auto; destruct (Nat.eqb_spec (Nat.max (bat sr) (bat (t_shape x))) 1); auto; lia).
        f_equal.
        * unfold vof. rewrite B2'. pose proof (vof_same HT IR LR) as V. unfold vof in V. rewrite (at_bsel_same LR) in V. exact V.
        * unfold vof. rewrite B3'. pose proof (vof_same (itself Rx) IX LX) as V. unfold vof in V. rewrite (at_bsel_same LX) in V. exact V. }
  apply (G xs 1 t0 (t_shape x0) (fun _ _ => n0) T0' (proj1 S0) (proj2 S0) HR HS). right. exact HE.
Qed.
Theorem C52_slice_sum_empty : forall als : nat -> alloc_oracle K, c_slice_sum m als [] = Panic.
Proof. reflexivity. Qed.

(** ** C53 *)
(** the mask is drawn with probability 1 - rate; with an invalid probability the call panics *)
Theorem C53_dropout : forall d als (r : randomizer K) x rate, (forall i, al_ok (als i)) -> ready d x -> nle K n1 rate = false ->
  (forall bits, rnd_bernoulli r (n1 -. rate) = Ok bits ->
    yields (c_dropout m als r x rate true) d (t_shape x) (fun c n => (at_ x c n *. (n1 /. (n1 -. rate))) *. nofB (bits (pos (t_shape x) c n)))) /\
  (rnd_bernoulli r (n1 -. rate) = Panic -> c_dropout m als r x rate true = Panic).
Proof.
  intros d als r x rate HA HX HR. unfold c_dropout. cbn [negb]. rewrite HR. destruct (const_contents (n1 /. (n1 -. rate)) mc_mul (HA 0) (itself HX)) as (y & Ey & TY). cbv zeta. cbv beta in Ey. rewrite Ey. cbn [bind]. rewrite (ready_device_of HX). cbn [bind]. split.
  - intros bits EB. destruct (@C54_random_bernoulli K m d (als 1) r (t_shape x) _ bits (HA 1) (ready_fits HX) EB) as (z & Ez & TZ). rewrite Ez. cbn [bind].
    eapply yields_ext; [apply (op_contents op_mul (HA 2) TY TZ (bin_ok_same (ready_wf HX)) (ready_fits HX))|]. intros c n Hc Hn. cbv beta. rewrite (vof_same TY Hc Hn), (vof_same TZ Hc Hn). reflexivity.
  - intros EB. unfold random_bernoulli. rewrite EB. cbn [bits bind]. rewrite (@random_Panic K m d (als 1) (t_shape x) (HA 1) (ready_fits HX)). reflexivity.
Qed.
Theorem C53_dropout_dim : forall d als (r : randomizer K) x dim rate, (forall i, al_ok (als i)) -> ready d x -> nle K n1 rate = false -> N.to_nat dim < 8 ->
  forall bits, rnd_bernoulli r (n1 -. rate) = Ok bits ->
  exists sm, shape_is sm (eset (t_shape x) (N.to_nat dim) 1) (bat (t_shape x)) /\
  yields (c_dropout_dim m als r x dim rate true) d (t_shape x) (fun c n => (at_ x c n *. (n1 /. (n1 -. rate))) *. nofB (bits (pos sm (cset c (N.to_nat dim) 0) n))).
Proof.
  intros d als r x dim rate HA HX HR HD bits EB. set (e := N.to_nat dim) in * . set (s := t_shape x) in * . pose proof (ready_wf HX) as W. fold s in W.
  destruct (@resize1_exists m s e W HD) as (sm & Es & Rs). pose proof (reduces_shape_is Rs) as Sm. exists sm. split; [exact Sm|].
  unfold c_dropout_dim. cbn [negb]. rewrite HR. cbv zeta. fold s e. rewrite Es. cbn [bind]. rewrite (ready_device_of HX). cbn [bind].
  assert (FM : fits sm).
  { destruct Sm as (W1 & E1 & B1). apply (fits_tot W1). pose proof (proj1 (fits_tot W) (ready_fits HX)) as L. unfold tot in * . rewrite B1. pose proof (bat_pos W).
    assert (vol sm <= vol s); [|nia]. unfold vol, low. clear -E1 W. generalize 8. intros k. induction k as [|k IH]; [cbn; lia|]. cbn [prod_lt]. rewrite E1. unfold eset. pose proof (@ext_pos s k W). destruct (k =? e); nia. }
  destruct (@C54_random_bernoulli K m d (als 0) r sm _ bits (HA 0) FM EB) as (z & Ez & TZ). rewrite Ez. cbn [bind].
  destruct (const_contents (n1 /. (n1 -. rate)) mc_mul (HA 1) (itself HX)) as (y & Ey & TY). cbv beta in Ey. rewrite Ey. cbn [bind].
  pose proof (is_tensor_shape TZ) as EZ. assert (RZ : ready d z) by apply TZ. destruct Sm as (W1 & E1 & B1).
  destruct (@C23_broadcast K m d (als 2) z dim (index s e) s (HA 2) RZ HD) as (u & Eu & TU).
  - rewrite EZ, E1. unfold eset. fold e. rewrite Nat.eqb_refl. reflexivity.
  - pose proof (@ext_pos s e W) as P. unfold ext in P. lia.
  - rewrite EZ. split; [exact W|]. split; [|congruence]. intros i. unfold eset. fold e. destruct (Nat.eqb_spec i e) as [->|N]; [reflexivity|]. rewrite E1. unfold eset. destruct (Nat.eqb_spec i e); congruence.
  - apply (ready_fits HX).
  - fold e in TU. rewrite Eu. cbn [bind]. eapply yields_ext; [apply (op_contents op_mul (HA 3) TY TU (bin_ok_same W) (ready_fits HX))|]. intros c n Hc Hn. cbv beta. rewrite (vof_same TY Hc Hn), (vof_same TU Hc Hn). f_equal.
    apply (is_tensor_at TZ); [|congruence]. intros i. rewrite E1. unfold eset, cset. destruct (Nat.eqb_spec i e); [lia|apply Hc].
Qed.
(** rate >= 1, and disabled *)
Theorem C53_all_or_nothing : forall d als (r : randomizer K) x dim rate, (forall i, al_ok (als i)) -> ready d x ->
  (nle K n1 rate = true -> yields (c_dropout m als r x rate true) d (t_shape x) (fun c n => at_ x c n *. n0) /\ yields (c_dropout_dim m als r x dim rate true) d (t_shape x) (fun c n => at_ x c n *. n0)) /\
  yields (c_dropout m als r x rate false) d (t_shape x) (fun c n => at_ x c n *. n1) /\ yields (c_dropout_dim m als r x dim rate false) d (t_shape x) (fun c n => at_ x c n *. n1).
Proof.
  intros d als r x dim rate HA HX. unfold c_dropout, c_dropout_dim. cbn [negb]. split.
  - intros HR. rewrite HR. split; apply (const_contents n0 mc_mul (HA 0) (itself HX)).
  - split; apply (const_contents n1 mc_mul (HA 0) (itself HX)).
Qed.
End C52.

(** ** over the reals *)
Section Real.
Open Scope R_scope.
Notation rmean := (@mean_of Rnum).
Notation rvar := (@variance_of Rnum).
Ltac onR := match goal with |- ?a = ?b => change (@eq R a b) end.
Lemma commutative_R : commutative Rnum.
Proof. split; intros u v; cbn [nadd nmul Rnum]; [apply Rplus_comm|apply Rmult_comm]. Qed.
Lemma rmean_sum f n : rmean f n = rsum n f / INR n.
Proof. unfold mean_of, sum_of. rewrite rsum_red0. cbn [ndiv nofZ Rnum]. rewrite <- INR_IZR_INZ. reflexivity. Qed.
Lemma rmean_scal f n (k : R) : rmean (fun i => (f i * k)%R) n = (rmean f n * k)%R.
Proof. rewrite !rmean_sum. rewrite rsum_scal_r. unfold Rdiv. onR. ring. Qed.
Lemma rmean_centred f n : (1 <= n)%nat -> rmean (fun i => (f i - rmean f n)%R) n = 0.
Proof.
  intros H. assert (P : INR n <> 0) by (apply not_0_INR; lia). rewrite (rmean_sum (fun i => f i - rmean f n)). unfold Rminus. rewrite rsum_plus. set (mu := rmean f n).
  assert (S : forall k a, rsum k (fun _ => a) = INR k * a). { clear. intros k a. induction k; [cbn; ring|]. rewrite S_INR. cbn [rsum]. rewrite IHk. ring. }
  rewrite S. unfold mu, Rnum; fold Rnum. rewrite rmean_sum. onR. field. auto.
Qed.
Lemma rvar_nonneg f n : 0 <= rvar f n.
Proof.
  unfold variance_of. rewrite rmean_sum. destruct n as [|n]; [cbn [rsum]; unfold Rdiv; rewrite Rmult_0_l; lra|]. apply Rmult_le_pos.
  - apply rsum_nonneg. intros i _. cbn [nmul Rnum nsub]. apply Rle_0_sqr.
  - left. apply Rinv_0_lt_compat. apply lt_0_INR. lia.
Qed.
(** what normalization does to n numbers f: mean 0, and variance v / (v + eps) *)
Definition normalized (f : nat -> R) (n : nat) (eps : R) (g : nat -> R) : Prop :=
  rmean g n = 0 /\ rvar g n = rvar f n / (rvar f n + eps).
Lemma normalized_ok f n eps : (1 <= n)%nat -> 0 < rvar f n + eps -> normalized f n eps (fun k => (f k - rmean f n) / sqrt (rvar f n + eps)).
Proof.
  intros H P. assert (M : rmean (fun k => (f k - rmean f n) / sqrt (rvar f n + eps)) n = 0).
  { unfold Rdiv at 1. rewrite (rmean_scal (fun k => f k - rmean f n)). rewrite rmean_centred by auto. onR. ring. }
  split; [exact M|]. unfold variance_of at 1. rewrite M. set (q := sqrt (rvar f n + eps)) in * . assert (Q : q * q = rvar f n + eps) by (apply sqrt_sqrt; lra). assert (q <> 0) by (apply Rgt_not_eq; apply sqrt_lt_R0; auto).
  etransitivity; [apply (@mean_ext Rnum _ (fun k => (((f k - rmean f n) * (f k - rmean f n)) * (/ (q * q)))%R)); intros k Hk; cbn [nmul nsub Rnum]; onR; field; auto|].
  rewrite (rmean_scal (fun k => (f k - rmean f n) * (f k - rmean f n))). rewrite Q. reflexivity.
Qed.
(** batch normalization with gain 1 and bias 0: at every coordinate the minibatch has mean 0 and variance v / (v + eps) *)
Theorem C52_batch_normalization_real : forall m d als (x g b : rtensor) (eps : R), (forall i k, al_ok (als i k)) -> ready d x -> ready d g -> ready d b ->
  bin_ok (t_shape g) (t_shape x) (t_shape x) -> bin_ok (t_shape x) (t_shape b) (t_shape x) ->
  (forall c n, inb (t_shape x) c -> (n < bat (t_shape x))%nat -> opnd g c n = 1 /\ opnd b c n = 0) ->
  exists y, c_batch_normalization m als x g b eps true = Ok y /\ ready d y /\ t_shape y = t_shape x /\
    forall c, inb (t_shape x) c -> 0 < rvar (fun k => at_ x c k) (bat (t_shape x)) + eps ->
      normalized (fun k => at_ x c k) (bat (t_shape x)) eps (fun k => at_ y c k).
Proof.
  intros m d als x g b eps HA HX HG HB BG BB GB. destruct (@C52_batch_normalization Rnum m commutative_R d als x g b eps HA HX HG HB BG BB) as (y & E & RY & S & V).
  exists y. split; [exact E|]. split; [exact RY|]. split; [exact S|]. intros c Hc P. pose proof (bat_pos (ready_wf HX)) as PB.
  assert (EQ : forall k, (k < bat (t_shape x))%nat -> at_ y c k = (at_ x c k - rmean (fun k => at_ x c k) (bat (t_shape x))) / sqrt (rvar (fun k => at_ x c k) (bat (t_shape x)) + eps)).
  { intros k Hk. rewrite V by auto. destruct (GB c k Hc Hk) as (-> & ->). cbn [nadd nmul nsub ndiv nsqrt Rnum]. match goal with |- ?a = ?b => change (@eq R a b) end. ring. }
  destruct (normalized_ok PB P) as (N1 & N2). split.
  - rewrite <- N1. apply mean_ext. exact EQ.
  - rewrite <- N2. unfold variance_of. pose proof (@mean_ext Rnum _ _ _ EQ) as M0. apply mean_ext. intros k Hk. cbv beta. rewrite (EQ k Hk). f_equal; f_equal; exact M0.
Qed.
(** layer normalization with gain 1 and bias 0: so do the elements of every minibatch item *)
Theorem C52_layer_normalization_real : forall m d als (x g b : rtensor) (eps : R), (forall i k, al_ok (als i k)) -> ready d x -> ready d g -> ready d b ->
  bin_ok (t_shape g) (t_shape x) (t_shape x) -> bin_ok (t_shape x) (t_shape b) (t_shape x) ->
  (forall c n, inb (t_shape x) c -> (n < bat (t_shape x))%nat -> opnd g c n = 1 /\ opnd b c n = 0) ->
  exists y, c_layer_normalization m als x g b eps = Ok y /\ ready d y /\ t_shape y = t_shape x /\
    forall n, (n < bat (t_shape x))%nat -> let items t := fun p => at_ t (nth_coord (t_shape x) p) n in
      0 < rvar (items x) (vol (t_shape x)) + eps -> normalized (items x) (vol (t_shape x)) eps (items y).
Proof.
  intros m d als x g b eps HA HX HG HB BG BB GB. destruct (@C52_layer_normalization Rnum m commutative_R d als x g b eps HA HX HG HB BG BB) as (y & E & RY & S & V).
  exists y. split; [exact E|]. split; [exact RY|]. split; [exact S|]. intros n Hn items P. pose proof (vol_pos (ready_wf HX)) as PB.
  assert (EQ : forall p, (p < vol (t_shape x))%nat -> items y p = (items x p - rmean (items x) (vol (t_shape x))) / sqrt (rvar (items x) (vol (t_shape x)) + eps)).
  { intros p Hp. destruct (nth_coord_in (ready_wf HX) Hp) as (Hc & _). unfold items at 1. rewrite V by auto. destruct (GB _ n Hc Hn) as (-> & ->). cbn [nadd nmul nsub ndiv nsqrt Rnum]. match goal with |- ?a = ?b => change (@eq R a b) end. fold (items x). unfold items. ring. }
  destruct (normalized_ok PB P) as (N1 & N2). split.
  - rewrite <- N1. apply mean_ext. exact EQ.
  - rewrite <- N2. unfold variance_of. pose proof (@mean_ext Rnum _ _ _ EQ) as M0. apply mean_ext. intros k Hk. cbv beta. rewrite (EQ k Hk). f_equal; f_equal; exact M0.
Qed.
(** dropout: enabled with a rate below 1, an element is either dropped (0) or divided by 1 - rate; disabled, nothing changes; with a rate of 1 or more everything is 0 *)
Theorem C53_dropout_real : forall m d als (r : randomizer Rnum) (x : rtensor) (rate : R), (forall i, al_ok (als i)) -> ready d x ->
  (forall bits, rate < 1 -> rnd_bernoulli r (1 - rate) = Ok bits -> exists y, c_dropout m als r x rate true = Ok y /\ ready d y /\ t_shape y = t_shape x /\
     forall c n, inb (t_shape x) c -> (n < bat (t_shape x))%nat -> at_ y c n = if bits (pos (t_shape x) c n) then at_ x c n / (1 - rate) else 0) /\
  (1 <= rate -> yields (c_dropout m als r x rate true) d (t_shape x) (fun _ _ => 0)) /\
  yields (c_dropout m als r x rate false) d (t_shape x) (fun c n => at_ x c n).
Proof.
  intros m d als r x rate HA HX. destruct (@C53_all_or_nothing Rnum m d als r x 0%N rate HA HX) as (A1 & A2 & _). split; [|split].
  - intros bits HR EB. assert (LE : nle Rnum n1 rate = false). { cbn [nle n1 Rnum]. unfold Rleb. destruct (Rle_dec 1 rate); [lra|reflexivity]. }
    destruct (@C53_dropout Rnum m commutative_R d als r x rate HA HX LE) as (H & _). destruct (H bits EB) as (y & E & RY & S & V). exists y. split; [exact E|]. split; [exact RY|]. split; [exact S|].
    intros c n Hc Hn. rewrite V by auto. cbn [nmul n1 nsub ndiv Rnum]. unfold nofB. match goal with |- ?a = ?b => change (@eq R a b) end. destruct (bits _); cbn [n1 n0 Rnum]; [unfold Rdiv; rewrite (Rmult_1_l (/ (1 - rate))); rewrite Rmult_1_r; reflexivity|apply Rmult_0_r].
  - intros HR. assert (LE : nle Rnum n1 rate = true). { cbn [nle n1 Rnum]. unfold Rleb. destruct (Rle_dec 1 rate); [reflexivity|lra]. }
    eapply yields_ext; [apply (A1 LE)|]. intros c n _ _. cbn [nmul n0 Rnum]. match goal with |- ?a = ?b => change (@eq R a b) end. ring.
  - eapply yields_ext; [apply A2|]. intros c n _ _. cbn [nmul n1 Rnum]. match goal with |- ?a = ?b => change (@eq R a b) end. ring.
Qed.
End Real.
(** a minibatch of two items x = (1, 4) | (5, 10), gain (2, 3), bias (10, 20): the theorems apply and the functions give *)
Definition xz : tensor Znum := tz 0 [2%N] 2 [1;4;5;10]%Z.
Definition gz' : tensor Znum := tz 0 [2%N] 1 [2;3]%Z.
Definition bz' : tensor Znum := tz 0 [2%N] 1 [10;20]%Z.
Lemma commutative_Z : commutative Znum. Proof. split; intros u v; [apply Z.add_comm|apply Z.mul_comm]. Qed.
Example C52_applies : ready 0 xz /\ ready 0 gz' /\ ready 0 bz' /\ bin_ok (t_shape gz') (t_shape xz) (t_shape xz) /\ bin_ok (t_shape xz) (t_shape bz') (t_shape xz) /\
  (y <- c_batch_normalization Debug (fun _ _ => alz) xz gz' bz' 0%Z true ;; to_vec (K := Znum) Debug y) = Ok [8; 17; 12; 23]%Z /\
  (y <- c_layer_normalization Debug (fun _ _ => alz) xz gz' bz' 0%Z ;; to_vec (K := Znum) Debug y) = Ok [8; 26; 8; 23]%Z /\
  (y <- c_mean Debug (fun _ => alz) xz 0%N ;; to_vec (K := Znum) Debug y) = Ok [2; 7]%Z /\
  (y <- c_batch_mean Debug (fun _ => alz) xz ;; to_vec (K := Znum) Debug y) = Ok [3; 7]%Z /\
  (y <- c_slice_sum Debug (fun _ => alz) [gz'; xz; bz'] ;; to_vec (K := Znum) Debug y) = Ok [13; 27; 17; 33]%Z.
Proof.
  split; [rdy|]. split; [rdy|]. split; [rdy|]. split; [|split].
  - split; [intros _ _ i; reflexivity|]. split; [auto|]. split; [apply (sh_wf [2%N] (b := 2%N)); reflexivity|]. split; reflexivity.
  - split; [intros _ _ i; reflexivity|]. split; [auto|]. split; [apply (sh_wf [2%N] (b := 2%N)); reflexivity|]. split; reflexivity.
  - ssplit; reflexivity.
Qed.
(** dropout of x with rate 0: 1 - rate = 1 and the mask of [rz] keeps the odd elements *)
Example C53_applies : nle Znum n1 0%Z = false /\ (exists bits, rnd_bernoulli rz 1%Z = Ok bits) /\
  (y <- c_dropout Debug (fun _ => alz) rz xz 0%Z true ;; to_vec (K := Znum) Debug y) = Ok [0; 4; 0; 10]%Z /\
  (y <- c_dropout_dim Debug (fun _ => alz) rz xz 0%N 0%Z true ;; to_vec (K := Znum) Debug y) = Ok [0; 0; 5; 10]%Z.
Proof. split; [reflexivity|]. split; [eexists; reflexivity|]. split; reflexivity. Qed.
