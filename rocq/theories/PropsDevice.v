(** * PropsDevice: C55 permute_dims and flip kernels, C56 the function registry *)
From Verif Require Export PVocab KPerm Registry.
From Coq Require Import Permutation.
Set Implicit Arguments.
Unset Strict Implicit.

(** ** C55 *)
Section C55.
Variable K : num.
Notation tensor := (tensor K).
Variable m : build.

(** [perm] is a permutation of 0 .. n-1 ([is_perm]); entry i of the permuted coordinate is entry perm[i] of c
    ([permuted]); y is shaped like x with its dimensions permuted ([perm_shape]) *)
Theorem C55_permute_forward : forall d d' (x y : tensor) perm f, ready d x -> ready d' y -> perm_shape perm (t_shape x) (t_shape y) ->
  exists y', call_fw m "permute_dims_fw_impl" [x] perm f y = Ok y' /\ ready d' y' /\ t_shape y' = t_shape y /\
    (forall c b, inb (t_shape x) c -> b < bat (t_shape x) -> at_ y' (permuted perm c) b = at_ x c b) /\
    (forall c', inb (t_shape y) c' -> exists c, inb (t_shape x) c /\ forall i, c' i = permuted perm c i).
Proof.
  intros d d' x y perm f Hx Hy HP. pose proof (k_permute_fw_writes Hx Hy HP) as HW. destruct HP as (H1 & H2 & H3 & H4).
  destruct (writes_yields Hy HW) as (y' & E & HT). exists y'. ssplit.
  - rewrite (@call_fw_at K m _ (fun xs u _ y => x <- idx xs 0 ;; k_permute_fw x u y)) by reflexivity. exact E.
  - exact (is_tensor_ready HT).
  - exact (is_tensor_shape HT).
  - intros c b Hc Hb. rewrite (is_tensor_at HT); [|apply (inb_permuted H2 Hc)|rewrite H4; auto].
    rewrite !at_buf. f_equal. apply pos_ext; auto. intros i _. apply unpermuted_permuted; auto.
  - intros c' Hc'. exists (unpermuted perm c'). split; [apply (inb_unpermuted H1 H2 Hc')|]. intros i. symmetry. apply permuted_unpermuted; auto.
Qed.
(** the backward kernel adds to every element the gradient of the place it was moved to *)
Theorem C55_permute_backward : forall d d' (gy gx : tensor) perm als xs ys f, ready d gy -> ready d' gx -> perm_shape perm (t_shape gx) (t_shape gy) ->
  writes (call_bw m als "permute_dims_bw_impl" xs ys [gy] perm f gx) gx (fun c b => nadd K (at_ gx c b) (at_ gy (permuted perm c) b)).
Proof.
  intros d d' gy gx perm als xs ys f Hy Hx HP. rewrite (@call_bw_eq K m _ (fun _ _ _ gys u _ gx => gy <- idx gys 0 ;; k_permute_bw gy u gx)) by reflexivity. exact (k_permute_bw_writes Hy Hx HP).
Qed.
Theorem C55_flip_forward : forall d d' (x y : tensor) dim u f, ready d x -> ready d' y -> t_shape y = t_shape x ->
  writes (call_fw m "flip_fw_impl" [x] (dim :: u) f y) y (fun c b => at_ x (cset c (N.to_nat dim) (ext (t_shape x) (N.to_nat dim) - 1 - c (N.to_nat dim))) b).
Proof.
  intros d d' x y dim u f Hx Hy Es. rewrite (@call_fw_at K m _ (fxd (k_flip_fw m))) by reflexivity. exact (k_flip_fw_writes m (N.to_nat dim) Hx Hy Es).
Qed.
Theorem C55_flip_backward : forall d d' (gy gx : tensor) dim u als xs ys f, ready d gy -> ready d' gx -> t_shape gy = t_shape gx ->
  writes (call_bw m als "flip_bw_impl" xs ys [gy] (dim :: u) f gx) gx
    (fun c b => nadd K (at_ gx c b) (at_ gy (cset c (N.to_nat dim) (ext (t_shape gx) (N.to_nat dim) - 1 - c (N.to_nat dim))) b)).
Proof.
  intros d d' gy gx dim u als xs ys f Hy Hx Es. rewrite (@call_bw_eq K m _ (fun _ _ _ gys u _ gx => gy <- idx gys 0 ;; d <- idx u 0 ;; k_flip_bw m gy (N.to_nat d) gx)) by reflexivity.
  exact (k_flip_bw_writes m (N.to_nat dim) Hy Hx Es).
Qed.
(** undoing: the inverse permutation, and flipping again, give back x *)
Theorem C55_permute_inverse : forall d (x y z x' : tensor) perm inv f f', is_perm inv -> length inv = length perm -> (forall c i, permuted inv (permuted perm c) i = c i) ->
  ready d x -> ready d y -> ready d z -> perm_shape perm (t_shape x) (t_shape y) -> perm_shape inv (t_shape y) (t_shape z) ->
  forall y', call_fw m "permute_dims_fw_impl" [x] perm f y = Ok y' -> call_fw m "permute_dims_fw_impl" [y'] inv f' z = Ok x' ->
  forall c b, inb (t_shape x) c -> b < bat (t_shape x) -> at_ x' c b = at_ x c b.
Proof.
  intros d x y z x' perm inv f f' HI HL Hinv Hx Hy Hz HP HQ y' E1 E2 c b Hc Hb.
  destruct (C55_permute_forward f Hx Hy HP) as (y1 & F1 & R1 & S1 & V1 & _). assert (y1 = y') by congruence. subst y1.
  rewrite <- S1 in HQ. destruct (C55_permute_forward f' R1 Hz HQ) as (x1 & F2 & R2 & S2 & V2 & _). assert (x1 = x') by congruence. subst x1.
  destruct HP as (P1 & P2 & P3 & P4). destruct HQ as (Q1 & Q2 & Q3 & Q4).
  rewrite <- (V1 c b Hc Hb). rewrite <- (V2 (permuted perm c) b); [|rewrite S1; apply (inb_permuted P2 Hc)|rewrite S1, P4; auto].
  rewrite !at_buf. f_equal. apply pos_ext; auto.
Qed.
Theorem C55_flip_twice : forall d (x y z y' x' : tensor) dim f f', ready d x -> ready d y -> ready d z -> t_shape y = t_shape x -> t_shape z = t_shape x ->
  call_fw m "flip_fw_impl" [x] [dim] f y = Ok y' -> call_fw m "flip_fw_impl" [y'] [dim] f' z = Ok x' ->
  forall c b, inb (t_shape x) c -> b < bat (t_shape x) -> at_ x' c b = at_ x c b.
Proof.
  intros d x y z y' x' dim f f' Hx Hy Hz E1 E2 F1 F2 c b Hc Hb.
  destruct (writes_yields Hy (C55_flip_forward dim [] f Hx Hy E1)) as (y1 & G1 & T1). assert (y1 = y') by congruence. subst y1.
  assert (ES : t_shape z = t_shape y') by (rewrite (is_tensor_shape T1); congruence).
  destruct (writes_yields Hz (C55_flip_forward dim [] f' (is_tensor_ready T1) Hz ES)) as (x1 & G2 & T2). assert (x1 = x') by congruence. subst x1.
  rewrite (is_tensor_at T2) by (rewrite E2; auto). rewrite (is_tensor_shape T1), E1. pose proof (Hc (N.to_nat dim)) as L.
  rewrite (is_tensor_at T1); [|rewrite E1; apply inb_cset with (s := t_shape x); auto; lia|rewrite E1; auto].
  rewrite !at_buf. f_equal. apply pos_ext; auto. intros i _. unfold cset. rewrite Nat.eqb_refl. destruct (Nat.eqb_spec i (N.to_nat dim)); [subst; lia|auto].
Qed.
End C55.
(** a 2x3 matrix, permutation [1, 0] *)
Example C55_applies : perm_shape [1; 0]%N (sh [2; 3]%N 1) (sh [3; 2]%N 1) /\ ready 0 (tz 0 [2; 3]%N 1 [1; 2; 3; 4; 5; 6]%Z) /\
  call_fw Debug "permute_dims_fw_impl" [tz 0 [2; 3]%N 1 [1; 2; 3; 4; 5; 6]%Z] [1; 0]%N [] (tz 0 [3; 2]%N 1 [0; 0; 0; 0; 0; 0]%Z) = Ok (tz 0 [3; 2]%N 1 [1; 3; 5; 2; 4; 6]%Z).
Proof.
  split; [|split; [rdy|reflexivity]]. split.
  - unfold is_perm. cbn. apply perm_swap.
  - split; [|split].
    + intros [|[|i]]; try reflexivity. unfold permuted. replace (nth_error [1%N; 0%N] (S (S i))) with (@None N) by (destruct i; reflexivity).
      destruct i as [|[|[|[|[|[|i]]]]]]; reflexivity.
    + intros i Hi. cbn in Hi. destruct i as [|[|[|[|[|[|[|[|i]]]]]]]]; try lia; reflexivity.
    + reflexivity.
Qed.

(** ** C56 *)
(** Specification: the registrations of one table, and the latest one of a name in it *)
Inductive table := Fw | FwU32 | FwF32 | Bw.
Section C56.
Variable K : num.
Definition table_of (r : registration K) : table := match r with RegFw _ _ => Fw | RegU32 _ _ => FwU32 | RegF32 _ _ => FwF32 | RegBw _ _ => Bw end.
Definition name_of (r : registration K) : string := match r with RegFw n _ | RegU32 n _ | RegF32 n _ | RegBw n _ => n end.
(** r is the most recent registration of name [s] in table [t] *)
Definition latest (h : list (registration K)) (t : table) (s : string) (r : registration K) : Prop :=
  table_of r = t /\ name_of r = s /\ exists before after, h = before ++ r :: after /\ forall q, In q after -> table_of q = t -> name_of q <> s.
Definition never (h : list (registration K)) (t : table) (s : string) : Prop := forall q, In q h -> table_of q = t -> name_of q <> s.

Lemma assoc_put V (s n : string) (v : V) l : assoc (put n v l) s = if String.eqb n s then Some v else assoc l s.
Proof.
  induction l as [|[k w] l IH]; cbn [put assoc]; [reflexivity|]. destruct (String.eqb_spec k n) as [->|Ne]; cbn [assoc].
  - destruct (String.eqb n s); auto.
  - rewrite IH. destruct (String.eqb_spec k s) as [->|]; [|reflexivity]. destruct (String.eqb_spec n s) as [->|]; [congruence|reflexivity].
Qed.
(** what is in a table after a history *)
Definition looked (d : tables K) (r : registration K) : Prop := match r with
  | RegFw n k => assoc (fw_impl d) n = Some k | RegU32 n k => assoc (fw_u32_impl d) n = Some k
  | RegF32 n k => assoc (fw_f32_impl d) n = Some k | RegBw n k => assoc (bw_impl d) n = Some k end.
Lemma registered_app d h1 h2 : registered d (h1 ++ h2) = registered (registered (K := K) d h1) h2.
Proof. unfold registered. apply fold_left_app. Qed.
Lemma looked_reg d r : looked (register d r) r.
Proof. destruct r; cbn; rewrite assoc_put, String.eqb_refl; reflexivity. Qed.
Lemma looked_keep d r q : looked d r -> (table_of q = table_of r -> name_of q <> name_of r) -> looked (register d q) r.
Proof.
  intros H N. destruct r as [n k|n k|n k|n k], q as [n' k'|n' k'|n' k'|n' k']; cbn in * ; auto; rewrite assoc_put; (destruct (String.eqb_spec n' n); [exfalso; apply N; auto|auto]).
Qed.
Lemma looked_keeps h d r : looked d r -> (forall q, In q h -> table_of q = table_of r -> name_of q <> name_of r) -> looked (registered d h) r.
Proof. revert d. induction h as [|q h IH]; intros d H N; [exact H|]. apply IH; [apply looked_keep; auto; apply N; cbn; auto|]. intros; apply N; cbn; auto. Qed.
Lemma latest_looked h t s r : latest h t s r -> looked (registered (no_tables K) h) r.
Proof. intros (T & N & b & a & -> & H). rewrite registered_app. cbn [registered fold_left]. apply looked_keeps; [apply looked_reg|]. subst. auto. Qed.
Definition entry (d : tables K) (t : table) (s : string) : bool := match t with
  | Fw => match assoc (fw_impl d) s with Some _ => true | None => false end | FwU32 => match assoc (fw_u32_impl d) s with Some _ => true | None => false end
  | FwF32 => match assoc (fw_f32_impl d) s with Some _ => true | None => false end | Bw => match assoc (bw_impl d) s with Some _ => true | None => false end end.
Lemma never_entry h d t s : never h t s -> entry (registered d h) t s = entry d t s.
Proof.
  revert d. induction h as [|q h IH]; intros d H; [reflexivity|]. cbn [registered fold_left]. change (fold_left (register (K := K)) h (register d q)) with (registered (register d q) h). rewrite IH by (intros r Hr; apply H; cbn; auto).
  pose proof (H q (or_introl eq_refl)) as N. destruct q as [n k|n k|n k|n k], t; cbn in * ; auto; rewrite assoc_put; (destruct (String.eqb_spec n s); [exfalso; apply N; auto|auto]).
Qed.

(** a call runs the implementation registered last under that name in that table ... *)
Theorem C56_call_runs_latest : forall h s,
  (forall k, latest h Fw s (RegFw s k) -> forall xs u f y, dev_call_fw (registered (no_tables K) h) s xs u f y = k xs u f y) /\
  (forall k, latest h FwU32 s (RegU32 s k) -> forall xs u y, dev_call_u32 (registered (no_tables K) h) s xs u y = k xs u y) /\
  (forall k, latest h FwF32 s (RegF32 s k) -> forall xs y, dev_call_f32 (registered (no_tables K) h) s xs y = k xs y) /\
  (forall k, latest h Bw s (RegBw s k) -> forall als xs ys gys u f gx, dev_call_bw (registered (no_tables K) h) als s xs ys gys u f gx = k als xs ys gys u f gx).
Proof.
  intros h s. ssplit; intros k L; apply latest_looked in L; cbn in L; intros; [unfold dev_call_fw|unfold dev_call_u32|unfold dev_call_f32|unfold dev_call_bw]; rewrite L; reflexivity.
Qed.
(** ... and panics if there is none, whatever was registered in the other tables *)
Theorem C56_unregistered_panics : forall h s,
  (never h Fw s -> forall xs u f y, dev_call_fw (registered (no_tables K) h) s xs u f y = Panic) /\
  (never h FwU32 s -> forall xs u y, dev_call_u32 (registered (no_tables K) h) s xs u y = Panic) /\
  (never h FwF32 s -> forall xs y, dev_call_f32 (registered (no_tables K) h) s xs y = Panic) /\
  (never h Bw s -> forall als xs ys gys u f gx, dev_call_bw (registered (no_tables K) h) als s xs ys gys u f gx = Panic).
Proof.
  intros h s. ssplit; intros N; pose proof (never_entry (no_tables K) N) as E; cbn in E; intros; [unfold dev_call_fw|unfold dev_call_u32|unfold dev_call_f32|unfold dev_call_bw];
    (match goal with |- match ?a with _ => _ end = _ => destruct a; [discriminate|reflexivity] end).
Qed.
(** every name is in one of the two cases *)
Theorem C56_latest_or_never : forall h t s, never h t s \/ exists r, latest h t s r.
Proof.
  intros h t s. induction h as [|q h IH] using rev_ind; [left; intros q []|].
  assert (D : (table_of q = t /\ name_of q = s) \/ (table_of q = t -> name_of q <> s)).
  { destruct (String.string_dec (name_of q) s); [|right; auto]. assert (TD : {table_of q = t} + {table_of q <> t}) by decide equality. destruct TD; [left; auto|right; contradiction]. }
  destruct D as [(T & N)|D].
  - right. exists q. split; [auto|]. split; [auto|]. exists h, []. split; auto.
  - destruct IH as [IH|(r & T & N & b & a & -> & HA)].
    + left. intros r Hr. apply in_app_or in Hr. destruct Hr as [Hr|[<-|[]]]; auto.
    + right. exists r. split; [auto|]. split; [auto|]. exists b, (a ++ [q]). split; [rewrite <- app_assoc; reflexivity|]. intros r' Hr'. apply in_app_or in Hr'. destruct Hr' as [Hr'|[<-|[]]]; auto.
Qed.
(** registering a name changes calls of no other name and no other table *)
Theorem C56_others_unaffected : forall h r s,
  ((table_of r = Fw -> name_of r <> s) -> forall xs u f y, dev_call_fw (registered (no_tables K) (h ++ [r])) s xs u f y = dev_call_fw (registered (no_tables K) h) s xs u f y) /\
  ((table_of r = FwU32 -> name_of r <> s) -> forall xs u y, dev_call_u32 (registered (no_tables K) (h ++ [r])) s xs u y = dev_call_u32 (registered (no_tables K) h) s xs u y) /\
  ((table_of r = FwF32 -> name_of r <> s) -> forall xs y, dev_call_f32 (registered (no_tables K) (h ++ [r])) s xs y = dev_call_f32 (registered (no_tables K) h) s xs y) /\
  ((table_of r = Bw -> name_of r <> s) -> forall als xs ys gys u f gx, dev_call_bw (registered (no_tables K) (h ++ [r])) als s xs ys gys u f gx = dev_call_bw (registered (no_tables K) h) als s xs ys gys u f gx).
Proof.
  intros h r s. rewrite registered_app. cbn [registered fold_left]. generalize (registered (no_tables K) h). intros d.
  ssplit; intros N; intros; unfold dev_call_fw, dev_call_u32, dev_call_f32, dev_call_bw; destruct r as [n k|n k|n k|n k]; cbn in * ; auto;
    rewrite assoc_put; (destruct (String.eqb_spec n s); [exfalso; apply N; auto|auto]).
Qed.
End C56.
Arguments latest {K} h t s r. Arguments never {K} h t s.

(** the Naive device: no implementation is shadowed by a later registration of the same name, so the tables
    used everywhere else in this model ([call_fw], ...) are those of the device *)
Fixpoint distinct (l : list string) : bool := match l with [] => true | s :: l' => negb (existsb (String.eqb s) l') && distinct l' end.
Lemma put_fresh V (n : string) (v : V) l : existsb (String.eqb n) (map fst l) = false -> put n v l = l ++ [(n, v)].
Proof.
  induction l as [|[k w] l IH]; cbn; intros H; [reflexivity|]. apply Bool.orb_false_elim in H. destruct H as (H1 & H2). rewrite String.eqb_sym, H1. f_equal. auto.
Qed.
Lemma distinct_app l1 n l2 : distinct (l1 ++ n :: l2) = true -> existsb (String.eqb n) l1 = false.
Proof.
  induction l1 as [|a l IH]; cbn; intros H; [reflexivity|]. apply andb_prop in H. destruct H as (H1 & H2). apply Bool.orb_false_iff. split; [|auto].
  rewrite existsb_app in H1. cbn in H1. apply Bool.negb_true_iff in H1. apply Bool.orb_false_elim in H1. destruct H1 as (_ & H1). apply Bool.orb_false_elim in H1. rewrite String.eqb_sym. tauto.
Qed.
Lemma puts_distinct V (l acc : list (string * V)) : distinct (map fst (acc ++ l)) = true -> fold_left (fun t e => put (fst e) (snd e) t) l acc = acc ++ l.
Proof.
  revert acc. induction l as [|[n v] l IH]; intros acc H; cbn [fold_left]; [rewrite app_nil_r; auto|]. cbn [fst snd]. rewrite put_fresh.
  - rewrite IH; rewrite <- app_assoc; [reflexivity|exact H].
  - rewrite map_app in H. cbn in H. apply (@distinct_app (map fst acc) n (map fst l)). exact H.
Qed.
Lemma reg_fw K (l : list (string * kfw K)) d : registered d (map (fun e => RegFw (fst e) (snd e)) l) = mkTables (fold_left (fun t e => put (fst e) (snd e) t) l (fw_impl d)) (fw_u32_impl d) (fw_f32_impl d) (bw_impl d).
Proof. revert d. induction l as [|e l IH]; intros d; [destruct d; reflexivity|]. cbn [map registered fold_left]. exact (IH (register d (RegFw (fst e) (snd e)))). Qed.
Lemma reg_u32 K (l : list (string * kfwu32 K)) d : registered d (map (fun e => RegU32 (fst e) (snd e)) l) = mkTables (fw_impl d) (fold_left (fun t e => put (fst e) (snd e) t) l (fw_u32_impl d)) (fw_f32_impl d) (bw_impl d).
Proof. revert d. induction l as [|e l IH]; intros d; [destruct d; reflexivity|]. cbn [map registered fold_left]. exact (IH (register d (RegU32 (fst e) (snd e)))). Qed.
Lemma reg_f32 K (l : list (string * kfwf32 K)) d : registered d (map (fun e => RegF32 (fst e) (snd e)) l) = mkTables (fw_impl d) (fw_u32_impl d) (fold_left (fun t e => put (fst e) (snd e) t) l (fw_f32_impl d)) (bw_impl d).
Proof. revert d. induction l as [|e l IH]; intros d; [destruct d; reflexivity|]. cbn [map registered fold_left]. exact (IH (register d (RegF32 (fst e) (snd e)))). Qed.
Lemma reg_bw K (l : list (string * kbw K)) d : registered d (map (fun e => RegBw (fst e) (snd e)) l) = mkTables (fw_impl d) (fw_u32_impl d) (fw_f32_impl d) (fold_left (fun t e => put (fst e) (snd e) t) l (bw_impl d)).
Proof. revert d. induction l as [|e l IH]; intros d; [destruct d; reflexivity|]. cbn [map registered fold_left]. exact (IH (register d (RegBw (fst e) (snd e)))). Qed.

Theorem C56_naive_device : forall K m srt, let d := registered (no_tables K) (naive_registrations K m srt) in
  (forall s xs u f y, dev_call_fw d s xs u f y = call_fw m s xs u f y) /\ (forall s xs u y, dev_call_u32 d s xs u y = call_u32 m srt s xs u y) /\
  (forall s xs y, dev_call_f32 d s xs y = call_f32 m s xs y) /\ (forall s als xs ys gys u f gx, dev_call_bw d als s xs ys gys u f gx = call_bw m als s xs ys gys u f gx).
Proof.
  intros K m srt d.
  assert (E : d = mkTables (fw_registry K m) (u32_registry K m srt) (f32_registry K m) (bw_registry K m)).
  { unfold d, naive_registrations. rewrite !registered_app, reg_fw, reg_u32, reg_f32, reg_bw. cbn [fw_impl fw_u32_impl fw_f32_impl bw_impl no_tables].
    rewrite !puts_distinct by (vm_compute; reflexivity). reflexivity. }
  rewrite E. ssplit; reflexivity.
Qed.
(** a concrete history: a user overrides "sin_fw_impl" on the Naive device and adds a name *)
Example C56_applies : forall K m srt (k1 k2 : kfw K), let h := naive_registrations K m srt ++ [RegFw "sin_fw_impl" k1; RegFw "my_fw_impl" k2] in
  latest h Fw "sin_fw_impl" (RegFw "sin_fw_impl" k1) /\ never h Bw "neg_bw_impl".
Proof.
  intros K m srt k1 k2 h. split.
  - split; [reflexivity|]. split; [reflexivity|]. exists (naive_registrations K m srt), [RegFw "my_fw_impl" k2]. split; [reflexivity|]. intros q [<-|[]] _. discriminate.
  - intros q Hq T. assert (B : existsb (String.eqb "neg_bw_impl") (map fst (bw_registry K m)) = false) by (vm_compute; reflexivity).
    unfold h, naive_registrations in Hq. rewrite !in_app_iff in Hq. rewrite !in_map_iff in Hq.
    repeat match goal with H : _ \/ _ |- _ => destruct H end; try (match goal with H : exists _, _ |- _ => destruct H as (e & <- & He) end); try discriminate T.
    + intros N. cbn in N. assert (X : existsb (String.eqb "neg_bw_impl") (map fst (bw_registry K m)) = true). { apply existsb_exists. exists (fst e). split; [apply in_map; exact He|]. rewrite N. apply String.eqb_refl. } congruence.
    + match goal with H : In _ _ |- _ => destruct H as [<-|[<-|[]]] end; discriminate T.
Qed.
