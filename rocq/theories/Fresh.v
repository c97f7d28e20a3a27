(** * Fresh: what a freshly allocated buffer contained does not matter (lemmas)

    No code of the crate is modelled here. Two runs of a function with allocators
    that hand out buffers of the requested size with different contents have the
    same outcome. The buffer of a tensor is taken to be exactly its elements:
    PropsSafe shows that nothing beyond them is ever accessed. *)
From Verif Require Export Safe3 OpsFacts.
Set Implicit Arguments.
Unset Strict Implicit.

(** ** Kernels do not change the length of the output buffer *)
Definition oks A (P : A -> Prop) (r : res A) : Prop := forall v, r = Ok v -> P v.
Section Oks.
Variables A B : Type.
Lemma oks_bind (Q : A -> Prop) (P : B -> Prop) (r : res A) (k : A -> res B) : oks Q r -> (forall a, Q a -> oks P (k a)) -> oks P (bind r k).
Proof. intros H1 H2 v E. apply bind_Ok in E. destruct E as (a & E1 & E2). exact (H2 a (H1 a E1) v E2). Qed.
Lemma oks_any (P : B -> Prop) (r : res A) (k : A -> res B) : (forall a, oks P (k a)) -> oks P (bind r k).
Proof. intros H2 v E. apply bind_Ok in E. destruct E as (a & E1 & E2). exact (H2 a v E2). Qed.
Lemma oks_Ok (P : A -> Prop) v : P v -> oks P (Ok v). Proof. intros H w E. inversion E; subst; auto. Qed.
Lemma oks_Panic (P : A -> Prop) : oks P Panic. Proof. intros w E. discriminate. Qed.
Lemma oks_forL (P : A -> Prop) (f : B -> A -> res A) l : (forall b a, P a -> oks P (f b a)) -> forall s, P s -> oks P (forL l f s).
Proof. intros H. induction l as [|b l IH]; intros s Hs v E; cbn in E; [inversion E; subst; auto|]. apply bind_Ok in E. destruct E as (a & E1 & E2). eapply IH; [|exact E2]. eapply H; eauto. Qed.
End Oks.
Lemma oks_forN A (P : A -> Prop) n f : (forall i a, P a -> oks P (f i a)) -> forall s, P s -> oks P (forN n f s).
Proof. intros H s Hs. unfold forN. apply oks_forL; auto. Qed.
Lemma oks_forR A (P : A -> Prop) n k f : (forall i a, P a -> oks P (f i a)) -> forall s, P s -> oks P (forR n k f s).
Proof. intros H s Hs. unfold forR. apply oks_forL; auto. Qed.
Lemma oks_wr A (l : list A) i v n : length l = n -> oks (fun l' => length l' = n) (wr l i v).
Proof. intros H l' E. unfold wr in E. destruct (_ <? _); inversion E. rewrite lset_length. auto. Qed.
Lemma oks_upd A (l : list A) i f n : length l = n -> oks (fun l' => length l' = n) (upd l i f).
Proof. intros H. unfold upd. apply oks_any. intros v. apply oks_any. intros w. apply oks_wr; auto. Qed.

Ltac ok_step n := match goal with
  | |- forall _, _ => intros ?
  | |- oks _ (let _ := _ in _) => cbv zeta
  | |- oks _ ((fun _ => _) _) => cbv beta
  | |- oks _ Panic => apply oks_Panic
  | |- oks _ (Ok _) => apply oks_Ok; cbn [fst snd buf with_buf t_buf] in *; try solve [auto]
  | |- oks _ (bind (wr _ _ _) _) => apply oks_bind with (Q := fun l' => length l' = n); [apply oks_wr; solve [auto]|intros ? ?]
  | |- oks _ (bind (upd _ _ _) _) => apply oks_bind with (Q := fun l' => length l' = n); [apply oks_upd; solve [auto]|intros ? ?]
  | |- oks _ (bind (@forN (list _) _ _ _) _) => apply oks_bind with (Q := fun l' => length l' = n); [|intros ? ?]
  | |- oks _ (bind (@forL _ (list _) _ _ _) _) => apply oks_bind with (Q := fun l' => length l' = n); [|intros ? ?]
  | |- oks _ (bind (@forN (_ * list _) _ _ _) _) => apply oks_bind with (Q := fun st => length (snd st) = n); [|intros ? ?]
  | |- oks _ (bind (@forL _ (_ * list _) _ _ _) _) => apply oks_bind with (Q := fun st => length (snd st) = n); [|intros ? ?]
  | |- oks _ (bind _ _) => apply oks_any; intros ?
  | |- oks _ (wr _ _ _) => apply oks_wr; solve [auto]
  | |- oks _ (upd _ _ _) => apply oks_upd; solve [auto]
  | |- oks _ (forN _ _ _) => apply oks_forN; [intros ? ? ?|solve [auto]]
  | |- oks _ (forR _ _ _ _) => apply oks_forR; [intros ? ? ?|solve [auto]]
  | |- oks _ (forL _ _ _) => apply oks_forL; [intros ? ? ?|solve [auto]]
  | |- oks _ (match ?x with _ => _ end) => destruct x; cbn [fst snd] in *
  end.
Section Len.
Variable K : num.
Notation F := (F K).
Notation tensor := (tensor K).
Variable m : build.
(** [k] returns what it got, with a buffer of the same length *)
Definition lenk (r : res tensor) (y : tensor) : Prop := oks (fun y' => t_dev y' = t_dev y /\ t_shape y' = t_shape y /\ t_host y' = t_host y /\ length (buf y') = length (buf y)) r.
Lemma lenk_bind S (Q : S -> Prop) (r : res S) k (y : tensor) : oks Q r -> (forall s, Q s -> lenk (k s) y) -> lenk (bind r k) y.
Proof. apply oks_bind. Qed.
Lemma lenk_any S (r : res S) k (y : tensor) : (forall s, lenk (k s) y) -> lenk (bind r k) y.
Proof. apply oks_any. Qed.
Lemma lenk_Panic y : lenk Panic y. Proof. apply oks_Panic. Qed.
Lemma lenk_with (y : tensor) (py l : list F) : t_buf y = Some py -> length l = length py -> lenk (Ok (with_buf y l)) y.
Proof. intros B H. apply oks_Ok. unfold buf. cbn. rewrite B. eauto 8. Qed.
Lemma lenk_ptr y (k : list F -> res tensor) : (forall py, t_buf y = Some py -> lenk (k py) y) -> lenk (bind (ptr y) k) y.
Proof. intros H v E. unfold ptr in E. destruct (t_buf y) as [py|] eqn:B; [|discriminate]. exact (H py eq_refl v E). Qed.
End Len.
Ltac lk := repeat match goal with
  | |- lenk (bind (ptr ?y) _) ?y => apply lenk_ptr; let py := fresh "py" in let B := fresh "B" in intros py B
  | |- lenk (let _ := _ in _) _ => cbv zeta
  | |- lenk (bind (forN _ _ _) _) _ => fail 1
  | |- lenk (bind (forL _ _ _) _) _ => fail 1
  | |- lenk (bind _ _) _ => apply lenk_any; intros ?
  | |- lenk Panic _ => apply lenk_Panic
  | |- lenk (match ?x with _ => _ end) _ => destruct x
  end;
  match goal with B : t_buf ?y = Some ?py |- lenk _ ?y => 
    let n := fresh "n" in let EL := fresh "EL" in remember (length py) as n eqn:EL; symmetry in EL;
    match goal with
    | |- lenk (bind (@forN (list _) _ _ _) _) _ => apply lenk_bind with (Q := fun l' => length l' = n)
    | |- lenk (bind (@forL _ (list _) _ _ _) _) _ => apply lenk_bind with (Q := fun l' => length l' = n)
    | |- lenk _ _ => apply lenk_bind with (Q := fun st => length (snd st) = n)
    end; 
    [repeat ok_step n
    |let s := fresh in let H := fresh in intros s H; repeat match goal with |- lenk (match ?x with _ => _ end) _ => destruct x end; cbn [snd] in *; apply lenk_with with (py := py); [exact B|congruence]] end.
Section Len2.
Variable K : num.
Notation F := (F K).
Notation tensor := (tensor K).
Variable m : build.
Implicit Types x y a b : tensor.
Lemma len_fw_x op x y : lenk (k_fw_x m op x y) y.
Proof. unfold k_fw_x. lk. Qed.

Lemma len_fw_const op x k y : lenk (k_fw_const m op x k y) y. Proof. unfold k_fw_const. lk. Qed.
Lemma len_powi x u y : lenk (k_powi_fw m x u y) y. Proof. unfold k_powi_fw. lk. Qed.
Lemma len_reset k y : lenk (k_reset m k y) y. Proof. unfold k_reset. lk. Qed.
Lemma len_reset_slice k y : lenk (k_reset_slice m k y) y. Proof. unfold k_reset_slice. lk. Qed.
Lemma len_mul_assign k y : lenk (k_mul_assign m k y) y. Proof. unfold k_mul_assign. lk. Qed.
Lemma len_reset_tensor x y : lenk (k_reset_tensor m x y) y. Proof. unfold k_reset_tensor. lk. Qed.
Lemma len_sum x d y : lenk (k_sum m x d y) y. Proof. unfold k_sum. lk. Qed.
Lemma len_extremum f x d y : lenk (k_extremum m f x d y) y. Proof. unfold k_extremum. lk. Qed.
Lemma len_lse x d y : lenk (k_logsumexp m x d y) y. Proof. unfold k_logsumexp. lk. Qed.
Lemma len_broadcast x d n y : lenk (k_broadcast m x d n y) y. Proof. unfold k_broadcast. lk. Qed.
Lemma len_slice x u y : lenk (k_slice_fw m x u y) y. Proof. unfold k_slice_fw. lk. Qed.
Lemma len_pick x u y : lenk (k_pick_fw m x u y) y. Proof. unfold k_pick_fw. lk. Qed.
Lemma len_batch_concat xs y : lenk (k_batch_concat m xs y) y. Proof. unfold k_batch_concat. lk. Qed.
Lemma len_batch_pick x u y : lenk (k_batch_pick_fw x u y) y. Proof. unfold k_batch_pick_fw. lk. Qed.
Lemma len_batch_slice x u y : lenk (k_batch_slice_fw x u y) y. Proof. unfold k_batch_slice_fw. lk. Qed.
Lemma len_batch_sum x y : lenk (k_batch_sum m x y) y. Proof. unfold k_batch_sum. lk. Qed.
Lemma len_flip x d y : lenk (k_flip_fw m x d y) y. Proof. unfold k_flip_fw. lk. Qed.
Lemma len_triangular up x k y : lenk (k_triangular m up x k y) y. Proof. unfold k_triangular. lk. Qed.
Lemma len_ab op a b y : lenk (k_fw_ab op a b y) y. Proof. unfold k_fw_ab. lk. Qed.
Lemma len_scalar op a b y : lenk (k_fw_scalar op a b y) y. Proof. unfold k_fw_scalar. lk. Qed.
Lemma len_transpose x y : lenk (k_transpose x y) y. Proof. unfold k_transpose. lk. Qed.
Lemma len_assign f x y : lenk (k_assign f x y) y. Proof. unfold k_assign. lk. Qed.
Lemma len_matmul a b y : lenk (k_matmul a b y) y. Proof. unfold k_matmul. lk. Qed.
Lemma len_permute x u y : lenk (k_permute_fw x u y) y. Proof. unfold k_permute_fw. lk. Qed.
Lemma lenk_trans r k y : lenk r y -> (forall z, lenk (k z) z) -> lenk (bind r k) y.
Proof.
  intros H1 H2 v E. apply bind_Ok in E. destruct E as (z & E1 & E2). destruct (H1 z E1) as (A1 & A2 & A3 & A4). destruct (H2 z v E2) as (B1 & B2 & B3 & B4). repeat split; congruence || auto.
Qed.
Lemma len_identity y : lenk (k_identity m y) y.
Proof. unfold k_identity. apply lenk_trans; [apply len_reset|]. intros z. lk. Qed.
Lemma len_concat xs d y : lenk (k_concat m xs d y) y.
Proof.
  unfold k_concat. cbv zeta. apply lenk_any. intros base.
  set (P := fun y' : tensor => t_dev y' = t_dev y /\ t_shape y' = t_shape y /\ t_host y' = t_host y /\ length (buf y') = length (buf y)).
  apply lenk_bind with (Q := fun st => P (snd st)); [|intros st H; apply oks_Ok, H].
  apply oks_forL; [|unfold P; cbn; auto]. intros x [off z] (P1 & P2 & P3 & P4). cbn [snd] in P1, P2, P3, P4. apply oks_any. intros src.
  intros v E. unfold ptr in E. destruct (t_buf z) as [py|] eqn:B; [|discriminate]. cbn [unwrap bind] in E. apply bind_Ok in E. destruct E as (st & E1 & E). inversion E; subst v. unfold P. cbn [snd with_buf t_dev t_shape t_host]. repeat split; auto.
  unfold buf at 1. cbn [t_buf with_buf]. rewrite <- P4. unfold buf at 1. rewrite B. remember (length py) as n eqn:EL. symmetry in EL.
  assert (O : forall r : res (nat * list F), oks (fun s => length (snd s) = n) r -> r = Ok st -> length (snd st) = n) by (intros r Hr; apply Hr). eapply O; [|exact E1]. repeat ok_step n.
Qed.
(** the whole table *)
Lemma registry_len : Forall (fun e : string * kfw K => forall xs u f y, lenk (snd e xs u f y) y) (fw_registry K m).
Proof.
  unfold fw_registry. repeat apply Forall_cons; try apply Forall_nil; cbn [snd]; intros; unfold fx, fxx, fxc, fxd, fxu; repeat match goal with |- lenk (bind _ _) _ => apply lenk_any; intros ? end;
  first [apply len_reset|apply len_reset_slice|apply len_reset_tensor|apply len_identity|apply len_assign|apply len_mul_assign|apply len_fw_x|apply len_ab|apply len_fw_const|apply len_scalar|apply len_powi
   |apply len_sum|apply len_extremum|apply len_lse|apply len_broadcast|apply len_matmul|apply len_transpose|apply len_permute|apply len_flip|apply len_triangular|apply len_slice|apply len_pick|apply len_concat|apply len_batch_concat|apply len_batch_pick|apply len_batch_slice|apply len_batch_sum].
Qed.
Lemma call_fw_len name xs u f y : lenk (call_fw m name xs u f y) y.
Proof.
  unfold call_fw. destruct (assoc (fw_registry K m) name) as [k|] eqn:E; [|apply lenk_Panic]. destruct (assoc_In E) as (s & H). pose proof (proj1 (Forall_forall _ _) registry_len _ H) as L. apply L.
Qed.
End Len2.

(** ** The outcome does not depend on the contents of the new buffer *)
(** an allocator that hands out buffers of exactly the requested size, with any contents *)
Definition al_exact (K : num) (al : alloc_oracle K) : Prop := forall n,
  if ((1 <=? n) && (n <=? 2147483648))%N then exists l, al n = Ok l /\ length l = N.to_nat n else al n = Panic.
Section Fresh.
Variable K : num.
Notation F := (F K).
Notation tensor := (tensor K).
Notation oracle := (alloc_oracle K).
Implicit Types (d : nat) (al : oracle) (x y a b : tensor).
Lemma exact_ok al : al_exact al -> al_ok al.
Proof. intros H n. specialize (H n). destruct (_ && _); [|exact H]. destruct H as (l & E & L). exists l. split; [exact E|lia]. Qed.
Hint Resolve exact_ok : core.
Lemma alloc_exact d al s y : al_exact al -> wf s -> new_alloc Debug d al s = Ok y -> t_shape y = s /\ length (buf y) = tot s.
Proof.
  intros HA W E. pose proof (new_alloc_fits (exact_ok HA) W E) as Fs. unfold new_alloc, alloc, new_tensor in E. cbn in E. apply bind_Ok in E. destruct E as (n & En & E). apply bind_Ok in E. destruct E as (l & El & E). inversion E; subst y. cbn. split; [reflexivity|].
  rewrite (fits_size Debug Fs) in En. inversion En; subst n. specialize (HA (N.of_nat (tot s))). rewrite El in HA. destruct (_ && _); [|discriminate]. destruct HA as (l' & E' & L). inversion E'; subst l'. rewrite L, Nat2N.id. reflexivity.
Qed.
(** what an allocating function returns is as large as the shape says *)
Definition tight (y : tensor) : Prop := length (buf y) = tot (t_shape y).
Lemma fw_tight d al s name xs u f : al_exact al -> wf s -> oks (fun y => t_shape y = s /\ tight y) (y <- new_alloc Debug d al s ;; call_fw Debug name xs u f y).
Proof.
  intros HA W v E. apply bind_Ok in E. destruct E as (y & E1 & E2). destruct (alloc_exact HA W E1) as (H1 & H2). destruct (call_fw_len E2) as (_ & L2 & _ & L4). unfold tight. rewrite L2, L4, H1. auto.
Qed.
(** the elements of the result are determined *)
Definition pinned (W : oracle -> res tensor) : Prop :=
  exists d, (exists f, forall al, al_ok al -> exists s, yields (W al) d s f) \/ (exists f, forall al, al_ok al -> exists s, yields_flat (W al) d s f).
Lemma pinned_yields d f W : (forall al, al_ok al -> exists s, yields (W al) d s f) -> pinned W. Proof. intros H. exists d. left. exists f. exact H. Qed.
Lemma pinned_flat d f W : (forall al, al_ok al -> exists s, yields_flat (W al) d s f) -> pinned W. Proof. intros H. exists d. right. exists f. exact H. Qed.
Lemma tensor_same d y y' : ready d y -> ready d y' -> t_shape y = t_shape y' -> tight y -> tight y' -> (forall p, p < tot (t_shape y) -> nth0 (buf y) p = nth0 (buf y') p) -> y = y'.
Proof.
  intros R R' ES T T' H. assert (B : buf y = buf y').
  { apply nth_ext with (d := n0) (d' := n0); [unfold tight in *; congruence|]. intros p Hp. apply H. unfold tight in T. lia. }
  pose proof (ready_buf R) as B1. pose proof (ready_buf R') as B2. destruct R as (D & _ & HH & _), R' as (D' & _ & HH' & _). destruct y as [yd ys yb yh], y' as [yd' ys' yb' yh']. cbn in *. congruence.
Qed.
Lemma pinned_same W al al' s : pinned W -> al_ok al -> al_ok al' -> oks (fun y => t_shape y = s /\ tight y) (W al) -> oks (fun y => t_shape y = s /\ tight y) (W al') -> le_res (W al) (W al').
Proof.
  intros (d & P) HA HA' T T' v E. destruct (T v E) as (S1 & T1). destruct P as [(f & P)|(f & P)].
  - destruct (P al HA) as (s1 & y1 & E1 & R1 & Q1 & V1). destruct (P al' HA') as (s2 & y2 & E2 & R2 & Q2 & V2). rewrite E2. f_equal. rewrite E1 in E. inversion E; subst v. destruct (T' y2 E2) as (S2 & T2).
    symmetry. apply tensor_same with (d := d); auto; [congruence|]. intros p Hp. assert (Q3 : t_shape y2 = s1) by congruence. replace s2 with s1 in V2 by congruence. rewrite Q1 in Hp. destruct (@pos_surj s1 p) as (c & b & Hc & Hb & <-); [rewrite <- Q1; apply (ready_wf R1)|exact Hp|].
    specialize (V1 c b Hc Hb). specialize (V2 c b Hc Hb). rewrite at_buf in V1, V2. rewrite Q1 in V1. rewrite Q3 in V2. congruence.
  - destruct (P al HA) as (s1 & y1 & E1 & R1 & Q1 & V1). destruct (P al' HA') as (s2 & y2 & E2 & R2 & Q2 & V2). rewrite E2. f_equal. rewrite E1 in E. inversion E; subst v. destruct (T' y2 E2) as (S2 & T2).
    symmetry. apply tensor_same with (d := d); auto; [congruence|]. intros p Hp. rewrite V1, V2 by congruence. reflexivity.
Qed.
Definition never A (r : res A) : Prop := oks (fun _ => False) r.
Lemma le_never A (r r' : res A) : never r -> le_res r r'. Proof. intros H v E. destruct (H v E). Qed.
Lemma check_cases d x A (k : unit -> res A) : t_dev x = Some d \/ never (bind (check_dev d x) k).
Proof. destruct (dev_cases d x) as [D|P]; [auto|right]. rewrite P. apply oks_Panic. Qed.
End Fresh.
#[export] Hint Resolve exact_ok : core.
(** the call cannot succeed: an operand has no buffer *)
Ltac nv B := cbn [idx nth_error unwrap bind]; unfold ptr; rewrite ?B; cbn [unwrap bind]; 
  repeat match goal with
  | |- never (bind Panic _) => apply oks_Panic
  | |- never Panic => apply oks_Panic
  | |- never (let _ := _ in _) => cbv zeta
  | |- never (bind _ _) => apply oks_any; intros ?; change (@oks ?A (fun _ => False)) with (@never A)
  | |- never (match ?x with _ => _ end) => destruct x
  end.
Section Forward.
Variable K : num.
Notation F := (F K).
Notation tensor := (tensor K).
Notation oracle := (alloc_oracle K).
Implicit Types (d : nat) (al : oracle) (x y a b : tensor).
(** the common forms of the forward functions *)
Lemma u_one d al al' x (r : res shape) name xs u f (W := fun al => _ <- check_dev d x ;; s <- r ;; y <- new_alloc Debug d al s ;; call_fw Debug name xs u f y) :
  al_exact al -> al_exact al' -> sane x -> (forall s, r = Ok s -> wf s) -> (t_buf x = None -> forall y, never (call_fw Debug name xs u f y)) ->
  (forall s, r = Ok s -> ready d x -> fits s -> pinned W) -> le_res (W al) (W al').
Proof.
  intros HA HA' HX HW HN HP v E. pose proof E as E'. unfold W in E'. apply bind_Ok in E'. destruct E' as (q & E0 & E'). apply bind_Ok in E'. destruct E' as (s & E1 & E'). pose proof (chk_dev E0) as D.
  destruct (t_buf x) as [l|] eqn:B.
  - assert (P : pinned W). { apply HP with s; auto; [eauto using sane_ready|]. apply bind_Ok in E'. destruct E' as (y & E2 & _). exact (new_alloc_fits (exact_ok HA) (HW s E1) E2). }
    revert v E E'. assert (L : le_res (W al) (W al')); [|intros v E _; exact (L v E)].
    apply pinned_same with (s := s); auto; unfold W; rewrite E0, E1; cbn [bind]; apply fw_tight; auto.
  - apply bind_Ok in E'. destruct E' as (y & E2 & E'). destruct (HN eq_refl y v E').
Qed.
Lemma u_two d al al' a b (r : res shape) name xs u f (W := fun al => _ <- check_dev d a ;; _ <- check_dev d b ;; s <- r ;; y <- new_alloc Debug d al s ;; call_fw Debug name xs u f y) :
  al_exact al -> al_exact al' -> sane a -> sane b -> (forall s, r = Ok s -> wf s) -> (t_buf a = None \/ t_buf b = None -> forall y, never (call_fw Debug name xs u f y)) ->
  (forall s, r = Ok s -> ready d a -> ready d b -> fits s -> pinned W) -> le_res (W al) (W al').
Proof.
  intros HA HA' Sa Sb HW HN HP v E. pose proof E as E'. unfold W in E'. apply bind_Ok in E'. destruct E' as (q & E0 & E'). apply bind_Ok in E'. destruct E' as (q' & E0' & E'). apply bind_Ok in E'. destruct E' as (s & E1 & E'). pose proof (chk_dev E0) as D. pose proof (chk_dev E0') as D'.
  destruct (t_buf a) as [la|] eqn:Ba; [destruct (t_buf b) as [lb|] eqn:Bb|].
  - assert (P : pinned W). { apply HP with s; auto; eauto using sane_ready. apply bind_Ok in E'. destruct E' as (y & E2 & _). exact (new_alloc_fits (exact_ok HA) (HW s E1) E2). }
    revert v E E'. assert (L : le_res (W al) (W al')); [|intros v E _; exact (L v E)].
    apply pinned_same with (s := s); auto; unfold W; rewrite E0, E0', E1; cbn [bind]; apply fw_tight; auto.
  - apply bind_Ok in E'. destruct E' as (y & E2 & E'). destruct (HN (or_intror eq_refl) y v E').
  - apply bind_Ok in E'. destruct E' as (y & E2 & E'). destruct (HN (or_introl eq_refl) y v E').
Qed.
Lemma u_shape d al al' x name xs u f (W := fun al => _ <- check_dev d x ;; y <- new_alloc Debug d al (t_shape x) ;; call_fw Debug name xs u f y) :
  al_exact al -> al_exact al' -> sane x -> (t_buf x = None -> forall y, never (call_fw Debug name xs u f y)) -> (ready d x -> pinned W) -> le_res (W al) (W al').
Proof.
  intros HA HA' HX HN HP. pose proof (@u_one d al al' x (Ok (t_shape x)) name xs u f HA HA' HX) as U. cbn [bind] in U. apply U; auto. intros s E. inversion E. apply sane_wf; auto.
Qed.
Lemma u_fw_x name op d al al' x : assoc (fw_registry K Debug) name = Some (fx (k_fw_x Debug op)) -> al_exact al -> al_exact al' -> sane x -> le_res (define_fw_x Debug name d al x) (define_fw_x Debug name d al' x).
Proof.
  intros HN HA HA' HX. apply u_shape; auto.
  - intros B y. unfold call_fw. rewrite HN. unfold fx, k_fw_x. nv B.
  - intros R. apply pinned_flat with (d := d) (f := fun p => op (nth0 (buf x) p)). intros al1 H1. exists (t_shape x). eapply fw_x_flat; eauto.
Qed.
Lemma u_fw_const name op d al al' x k : assoc (fw_registry K Debug) name = Some (fxc (k_fw_const Debug op)) -> al_exact al -> al_exact al' -> sane x -> le_res (define_fw_const Debug name d al x k) (define_fw_const Debug name d al' x k).
Proof.
  intros HN HA HA' HX. apply u_shape; auto.
  - intros B y. unfold call_fw. rewrite HN. unfold fxc, k_fw_const. nv B.
  - intros R. eapply pinned_flat. intros al1 H1. eexists. eapply fw_const_flat; eauto.
Qed.
Lemma u_powi d al al' x k : (-2147483648 <= k <= 2147483647)%Z -> al_exact al -> al_exact al' -> sane x -> le_res (powi_fw Debug d al x k) (powi_fw Debug d al' x k).
Proof.
  intros HK HA HA' HX. apply u_shape; auto.
  - intros B y. unfold call_fw. cbn [assoc fw_registry String.eqb Ascii.eqb Bool.eqb]. unfold k_powi_fw. nv B.
  - intros R. eapply pinned_flat. intros al1 H1. eexists. apply (@powi_flat K Debug d al1 x k); auto.
Qed.
Lemma u_fw_ab name op d al al' a b : assoc (fw_registry K Debug) name = Some (fxx (k_fw_ab op)) -> al_exact al -> al_exact al' -> sane a -> sane b -> le_res (define_fw_ab Debug name so_elementwise d al a b) (define_fw_ab Debug name so_elementwise d al' a b).
Proof.
  intros HN HA HA' Sa Sb. apply u_two; auto.
  - intros s E. apply (elementwise_shape (sane_wf Sa) (sane_wf Sb) E).
  - intros B y. unfold call_fw. rewrite HN. unfold fxx, k_fw_ab. destruct B as [B|B]; nv B.
  - intros s E Ra Rb Fs. eapply pinned_flat. intros al1 H1. eexists. eapply fw_ab_flat; eauto.
Qed.
Lemma u_fw_scalar name op d al al' a b : assoc (fw_registry K Debug) name = Some (fxx (k_fw_scalar op)) -> al_exact al -> al_exact al' -> sane a -> sane b -> le_res (define_fw_ab Debug name so_scalar_op d al a b) (define_fw_ab Debug name so_scalar_op d al' a b).
Proof.
  intros HN HA HA' Sa Sb. apply u_two; auto.
  - intros s E. apply so_scalar_op_iff in E; auto using sane_wf. apply E.
  - intros B y. unfold call_fw. rewrite HN. unfold fxx, k_fw_scalar. destruct B as [B|B]; nv B.
  - intros s E Ra Rb Fs. eapply pinned_flat. intros al1 H1. eexists. eapply fw_scalar_flat; eauto.
Qed.
Lemma u_sum d al al' x dim : al_exact al -> al_exact al' -> sane x -> le_res (sum_fw Debug d al x dim) (sum_fw Debug d al' x dim).
Proof.
  intros HA HA' Sx. apply u_one; auto; [intros s; apply reduce_wf; auto using sane_wf| |].
  - intros B y. unfold call_fw. cbn [assoc fw_registry String.eqb Ascii.eqb Bool.eqb]. unfold fxd, k_sum. nv B.
  - intros s E Rx Fs. eapply pinned_yields. intros al1 H1. destruct (@sum_yields K Debug d al1 x dim H1 Rx) as (s' & _ & Y); [eapply resize1_dim; eauto using sane_wf|]. exists s'. exact Y.
Qed.
Lemma u_extremum better name d al al' x dim : assoc (fw_registry K Debug) name = Some (fxd (k_extremum Debug better)) -> al_exact al -> al_exact al' -> sane x -> le_res (reduce_fw Debug name d al x dim) (reduce_fw Debug name d al' x dim).
Proof.
  intros HN HA HA' Sx. apply u_one; auto; [intros s; apply reduce_wf; auto using sane_wf| |].
  - intros B y. unfold call_fw. rewrite HN. unfold fxd, k_extremum. nv B.
  - intros s E Rx Fs. eapply pinned_yields. intros al1 H1. destruct (@extremum_yields K Debug better name d al1 x dim HN H1 Rx) as (s' & _ & Y); [eapply resize1_dim; eauto using sane_wf|]. exists s'. exact Y.
Qed.
Lemma u_logsumexp d al al' x dim : al_exact al -> al_exact al' -> sane x -> le_res (logsumexp_fw Debug d al x dim) (logsumexp_fw Debug d al' x dim).
Proof.
  intros HA HA' Sx. apply u_one; auto; [intros s; apply reduce_wf; auto using sane_wf| |].
  - intros B y. unfold call_fw. cbn [assoc fw_registry String.eqb Ascii.eqb Bool.eqb]. unfold fxd, k_logsumexp. nv B.
  - intros s E Rx Fs. eapply pinned_yields. intros al1 H1. destruct (@logsumexp_yields K Debug d al1 x dim H1 Rx) as (s' & _ & Y); [eapply resize1_dim; eauto using sane_wf|]. exists s'. exact Y.
Qed.
Lemma u_broadcast d al al' x dim n : al_exact al -> al_exact al' -> sane x -> le_res (broadcast_fw Debug d al x dim n) (broadcast_fw Debug d al' x dim n).
Proof.
  intros HA HA' Sx. apply u_one; auto; [intros s E; apply so_broadcast_iff in E; auto using sane_wf; apply E| |].
  - intros B y. unfold call_fw. cbn [assoc fw_registry String.eqb Ascii.eqb Bool.eqb]. unfold k_broadcast. nv B.
  - intros s E Rx Fs. apply so_broadcast_iff in E; auto using sane_wf. destruct E as (E1 & E2 & E3 & E4). eapply pinned_yields. intros al1 H1. exists s. eapply broadcast_yields; eauto; [unfold ext; rewrite E2; reflexivity|].
    eapply is_shape_nat; [exact E4|apply eset_upd|reflexivity].
Qed.
Lemma u_slice d al al' x dim lo hi : al_exact al -> al_exact al' -> sane x -> le_res (slice_fw Debug d al x dim lo hi) (slice_fw Debug d al' x dim lo hi).
Proof.
  intros HA HA' Sx. apply u_one; auto; [intros s E; apply so_slice_iff in E; auto using sane_wf; apply E| |].
  - intros B y. unfold call_fw. cbn [assoc fw_registry String.eqb Ascii.eqb Bool.eqb]. unfold k_slice_fw. nv B.
  - intros s E Rx Fs. apply so_slice_iff in E; auto using sane_wf. destruct E as (E1 & E2 & E3 & E4). eapply pinned_yields. intros al1 H1. exists s. eapply slice_yields; eauto; [unfold ext; lia|].
    eapply is_shape_nat; [exact E4|intros i; apply eset_upd'; lia|reflexivity].
Qed.
Lemma u_pick d al al' x ids dim : (N.of_nat (length ids) < two32)%N -> al_exact al -> al_exact al' -> sane x -> le_res (pick_fw Debug d al x ids dim) (pick_fw Debug d al' x ids dim).
Proof.
  intros HL HA HA' Sx. apply u_one; auto; [intros s E; apply so_pick_iff in E; auto using sane_wf; apply E| |].
  - intros B y. unfold call_fw. cbn [assoc fw_registry String.eqb Ascii.eqb Bool.eqb]. unfold k_pick_fw. nv B.
  - intros s E Rx Fs. apply so_pick_iff in E; auto using sane_wf. destruct E as (E1 & E2 & E3 & E4 & E5). eapply pinned_yields. intros al1 H1. exists s. eapply pick_yields; eauto.
    + unfold compat in E3. unfold bat. lia.
    + eapply Forall_impl; [|exact E4]. cbn. intros id Hid. unfold ext. lia.
    + eapply is_shape_nat; [exact E5|intros i; apply eset_upd'; lia|unfold bat; rewrite N2Nat.inj_max, Nat2N.id; reflexivity].
Qed.
Lemma u_batch_sum d al al' x : al_exact al -> al_exact al' -> sane x -> le_res (batch_sum_fw Debug d al x) (batch_sum_fw Debug d al' x).
Proof.
  intros HA HA' Sx. pose proof (sane_wf Sx) as W. apply u_one; auto; [intros s E; apply resize_batch_iff in E; auto; [apply E|reflexivity]| |].
  - intros B y. unfold call_fw. cbn [assoc fw_registry String.eqb Ascii.eqb Bool.eqb]. unfold fx, k_batch_sum. nv B.
  - intros s E Rx Fs. apply resize_batch_iff in E; auto; [|reflexivity]. eapply pinned_yields. intros al1 H1. exists s. eapply batch_sum_yields; eauto.
    eapply is_shape_nat; [exact E|reflexivity|reflexivity].
Qed.
Lemma u_batch_slice d al al' x lo hi : al_exact al -> al_exact al' -> sane x -> le_res (batch_slice_fw Debug d al x lo hi) (batch_slice_fw Debug d al' x lo hi).
Proof.
  intros HA HA' Sx. pose proof (sane_wf Sx) as W. apply u_one; auto; [intros s E; apply so_batch_slice_iff in E; auto; apply E| |].
  - intros B y. unfold call_fw. cbn [assoc fw_registry String.eqb Ascii.eqb Bool.eqb]. unfold k_batch_slice_fw. nv B.
  - intros s E Rx Fs. apply so_batch_slice_iff in E; auto. destruct E as (E1 & E2 & E3). eapply pinned_yields. intros al1 H1. exists s. eapply batch_slice_yields; eauto; [unfold bat; lia|].
    eapply is_shape_nat; [exact E3|reflexivity|lia].
Qed.
Lemma u_batch_pick d al al' x ids : (N.of_nat (length ids) < two32)%N -> al_exact al -> al_exact al' -> sane x -> le_res (batch_pick_fw Debug d al x ids) (batch_pick_fw Debug d al' x ids).
Proof.
  intros HL HA HA' Sx. pose proof (sane_wf Sx) as W. apply u_one; auto; [intros s E; apply so_batch_pick_iff in E; auto; apply E| |].
  - intros B y. unfold call_fw. cbn [assoc fw_registry String.eqb Ascii.eqb Bool.eqb]. unfold k_batch_pick_fw. nv B.
  - intros s E Rx Fs. apply so_batch_pick_iff in E; auto. destruct E as (E1 & E2 & E3). eapply pinned_yields. intros al1 H1. exists s. eapply batch_pick_yields; eauto.
    + eapply Forall_impl; [|exact E2]. cbn. intros id Hid. unfold bat. lia.
    + eapply is_shape_nat; [exact E3|reflexivity|lia].
Qed.
Lemma u_transpose d al al' x : al_exact al -> al_exact al' -> sane x -> le_res (transpose_fw Debug d al x) (transpose_fw Debug d al' x).
Proof.
  intros HA HA' Sx. pose proof (sane_wf Sx) as W. apply u_one; auto; [intros s E; apply so_transpose_iff in E; auto; apply E| |].
  - intros B y. unfold call_fw. cbn [assoc fw_registry String.eqb Ascii.eqb Bool.eqb]. unfold fx, k_transpose. nv B.
  - intros s E Rx Fs. apply so_transpose_iff in E; auto. destruct E as (E1 & E2). eapply pinned_yields. intros al1 H1. exists s. eapply transpose_yields; eauto using to_matrix.
    eapply is_shape_nat; [exact E2|intros i; unfold ext; apply m2_ext2|reflexivity].
Qed.
Lemma u_matmul d al al' a b : al_exact al -> al_exact al' -> sane a -> sane b -> le_res (matmul_fw Debug d al a b) (matmul_fw Debug d al' a b).
Proof.
  intros HA HA' Sa Sb. pose proof (sane_wf Sa) as Wa. pose proof (sane_wf Sb) as Wb. apply u_two; auto; [intros s E; apply so_matmul_iff in E; auto; apply E| |].
  - intros B y. unfold call_fw. cbn [assoc fw_registry String.eqb Ascii.eqb Bool.eqb]. unfold fxx, k_matmul. destruct B as [B|B]; nv B.
  - intros s E Ra Rb Fs. apply so_matmul_iff in E; auto. destruct E as (E1 & E2 & E3 & E4 & E5). eapply pinned_yields. intros al1 H1. exists s. eapply matmul_yields; eauto using to_matrix, compat_bats.
    + unfold ext. congruence.
    + eapply is_shape_nat; [exact E5|intros i; unfold ext; apply m2_ext2|unfold bat; rewrite N2Nat.inj_max; reflexivity].
Qed.
End Forward.
