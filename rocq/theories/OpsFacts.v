(** * OpsFacts: the operators of the crate satisfy the laws the engine needs *)
From Verif Require Export GraphBw Ops.
Set Implicit Arguments.
Unset Strict Implicit.

Section OpsFacts.
Variable K : num.
Notation F := (F K).
Notation tensor := (tensor K).
Variable m : build.

(** whatever [r] returns has the device and shape of [y], and a buffer *)
Definition fills (r : res tensor) (y : tensor) : Prop := forall y', r = Ok y' -> blank y' = blank y /\ valid y' = true.
Lemma fills_bind A (r : res A) (k : A -> res tensor) y : (forall a, fills (k a) y) -> fills (bind r k) y.
Proof. intros H y' E. apply bind_Ok in E. destruct E as (a & _ & E). exact (H a y' E). Qed.
Lemma fills_with (y : tensor) l : fills (Ok (with_buf y l)) y.
Proof. intros y' E. inversion E; subst. split; reflexivity. Qed.
Lemma fills_Panic y : fills Panic y. Proof. intros y' E; discriminate. Qed.
Lemma fills_keeps f : (forall t, fills (f t) t) -> @keeps K f.
Proof. intros H t t' E. destruct (H t t' E). auto. Qed.
Ltac fl := repeat first [ progress intros | apply fills_with | apply fills_Panic | apply fills_bind
   | match goal with |- fills (match ?x with _ => _ end) _ => destruct x end ].

Lemma assign_fills f x y : fills (@k_assign K f x y) y.
Proof. unfold k_assign. fl. Qed.
Lemma t_add_assign_fills (y x : tensor) : fills (t_add_assign m y x) y.
Proof. unfold t_add_assign, add_assign, call_fw. cbn. unfold fx. fl. Qed.
Lemma t_sub_assign_fills (y x : tensor) : fills (t_sub_assign m y x) y.
Proof. unfold t_sub_assign, sub_assign, call_fw. cbn. unfold fx. fl. Qed.
Lemma plus_fills e y : fills (@plus K m e y) y.
Proof. unfold plus. apply fills_bind. intros; apply t_add_assign_fills. Qed.
Lemma minus_fills e y : fills (@minus K m e y) y.
Proof. unfold minus. apply fills_bind. intros; apply t_sub_assign_fills. Qed.

Lemma bw_registry_fills : Forall (fun e : string * kbw K => forall als xs ys gys u f gx, fills (snd e als xs ys gys u f gx) gx) (bw_registry K m).
Proof.
  unfold bw_registry. repeat apply Forall_cons; try apply Forall_nil; cbn [snd]; intros; unfold bx, bxc; fl;
  try (unfold k_matmul_bw_a, k_matmul_bw_b, k_transpose_bw, k_triangular_bw; fl; apply t_add_assign_fills);
  match goal with |- fills (?f _ _ _) _ => unfold f | |- fills (?f _ _ _ _) _ => unfold f | |- fills (?f _ _ _ _ _) _ => unfold f
    | |- fills (?f _ _ _ _ _ _) _ => unfold f | |- fills (?f _ _ _ _ _ _ _) _ => unfold f | |- fills (?f _ _ _ _ _ _ _ _) _ => unfold f end; fl.
Qed.
Lemma assoc_In A (l : list (string * A)) s v : assoc l s = Some v -> exists s', In (s', v) l.
Proof.
  induction l as [|[s' w] l IH]; simpl; [discriminate|]. destruct (String.eqb s' s); intros E; [inversion E; subst; eauto|].
  destruct (IH E) as (t & H). eauto.
Qed.
Lemma call_bw_fills als name xs ys gys u f gx : fills (@call_bw K m als name xs ys gys u f gx) gx.
Proof.
  unfold call_bw. destruct (assoc (bw_registry K m) name) as [k|] eqn:E; [|apply fills_Panic].
  destruct (assoc_In E) as (s & H). pose proof (proj1 (Forall_forall _ _) bw_registry_fills _ H) as L. apply L.
Qed.

Ltac fb := repeat first [ progress intros | apply fills_with | apply fills_Panic | apply fills_bind | apply call_bw_fills | apply plus_fills | apply minus_fills
   | match goal with |- fills (match ?x with _ => _ end) _ => destruct x end ].

Lemma concat_ups_keeps bal sl span gy xs : forall i off u, In u (concat_ups (K := K) m bal sl span gy i off xs) -> keeps (snd u).
Proof.
  induction xs as [|x xs IH]; simpl; intros i off u H; [destruct H|]. destruct H as [<-|H]; [|eapply IH; eauto].
  cbn [snd]. apply fills_keeps. intros t. fb.
Qed.
Lemma mapM_keeps A (f : A -> res (update K)) l us u : (forall a u, f a = Ok u -> keeps (snd u)) -> mapM f l = Ok us -> In u us -> keeps (snd u).
Proof.
  intros H. revert us. induction l as [|a l IH]; intros us E Hu; [inversion E; subst; destruct Hu|].
  rewrite mapM_cons in E. inv_ok. destruct Hu as [<-|Hu]; eauto.
Qed.

Lemma interp_lawful_bw (o : oper K) : lawful_bw (interp m o).
Proof.
  intros xs ys gys us u E Hu. destruct o as [k dev fal bal]. change (backward_op m dev bal k xs ys gys = Ok us) in E.
  assert (G : forall us0, (forall u, In u us0 -> forall t, fills (snd u t) t) -> us = us0 -> keeps (snd u)).
  { intros us0 H ->. apply fills_keeps. auto. }
  destruct k; cbn [backward_op] in E; unfold bw_x, bw_ab, bw_scalar, bw_gy, bw_concat in E; inv_ok;
  try (match goal with H : match ?x with _ => _ end = Ok _ |- _ => destruct x end); inv_ok;
  try (eapply concat_ups_keeps; eassumption);
  try (unfold bw_split, bw_batch_split in *; eapply mapM_keeps; [|eassumption|eassumption]; cbv beta; intros a0 u0 E0; inv_ok; cbn [snd]; apply fills_keeps; intros t);
  try (repeat (destruct Hu as [<-|Hu]; [cbn [snd]; apply fills_keeps; intros t|]); try (destruct Hu)).
  all: try (fb; fail).
  all: match goal with |- fills (?f _ _ _ _ _) _ => unfold f | |- fills (?f _ _ _ _ _ _) _ => unfold f | |- fills (?f _ _ _ _ _ _ _) _ => unfold f | |- fills (?f _ _ _ _ _ _ _ _) _ => unfold f | |- fills (?f _ _ _ _ _ _ _ _ _) _ => unfold f | |- _ => idtac end.
  all: unfold define_bw_ab_a, define_bw_ab_b, define_bw_x, define_bw_const, extremum_bw, triangular_bw; fb.
  all: unfold pick_bw, batch_pick_bw; fb.
  all: try (match goal with H : In ?u (concat_ups _ _ _ _ _ _ _ _) |- _ => eapply concat_ups_keeps; exact H end).
  all: match goal with H : _ = _ |- keeps (snd ?u) => try subst u end; cbn [snd]; apply fills_keeps; fb.
Qed.

Lemma replace_blank (y t y' : tensor) : replace y t = Ok y' -> blank y' = blank y.
Proof. unfold replace, take_buf. intros E. inv_ok. reflexivity. Qed.
Lemma map_blank_lset (ys : list tensor) i y y' : idx ys i = Ok y -> blank y' = blank y -> map (@blank K) (lset ys i y') = map (@blank K) ys.
Proof.
  intros E B. apply idx_nth_inv in E. revert i E. induction ys as [|z ys IH]; intros [|i] E; simpl in *; try discriminate.
  - inversion E; subst. rewrite B. auto.
  - f_equal. auto.
Qed.
Lemma into_lawful r ys ys' : @into K r ys = Ok ys' -> map (@blank K) ys' = map (@blank K) ys.
Proof. unfold into. intros E. inv_ok. eapply map_blank_lset; eauto. eapply replace_blank; eauto. Qed.
Lemma fw_split_lawful fal tot sl n xs ys ys' : @fw_split K fal tot sl n xs ys = Ok ys' -> map (@blank K) ys' = map (@blank K) ys.
Proof.
  unfold fw_split. intros E. inv_ok.
  match goal with H : forN ?n ?f _ = _ |- _ => revert H; generalize n as k; intros k H end.
  assert (G : forall l ys ys', forL l (fun (i : nat) (ys0 : list tensor) =>
        t <- sl fal i x (N.of_nat i * (tot (t_shape x) / n))%N ((N.of_nat i + 1) * (tot (t_shape x) / n))%N;;
        y <- idx ys0 i;; y' <- replace y t;; Ok (lset ys0 i y')) ys = Ok ys' -> map (@blank K) ys' = map (@blank K) ys).
  { induction l as [|i l IH]; intros zs zs' E; simpl in E; inv_ok; auto. rewrite (IH _ _ ltac:(eassumption)). eapply map_blank_lset; eauto. eapply replace_blank; eauto. }
  unfold forN in H0. eapply G; eauto.
Qed.
Lemma interp_lawful (o : oper K) : lawful (interp m o).
Proof.
  intros xs ys ys' E. cbn in E. destruct o as [k dev fal bal]; cbn in E.
  destruct k; cbn in E; unfold fw1, fw2 in E; inv_ok; try (eapply into_lawful; eauto; fail); try (eapply fw_split_lawful; eauto; fail).
  - eapply map_blank_lset; eauto. eapply replace_blank; eauto.
  - eapply map_blank_lset; eauto.
    match goal with HA : alloc _ _ _ = Ok ?a, HR : reset_tensor_by_tensor _ ?a _ = Ok _ |- _ => rename HA into E1; rename HR into E2 end.
    transitivity (blank x0).
    + unfold reset_tensor_by_tensor, call_fw in E2. cbn in E2. unfold fx, k_reset_tensor in E2. inv_ok. reflexivity.
    + unfold alloc in E1. inv_ok. reflexivity.
  - eapply map_blank_lset; eauto. eapply replace_blank; eauto.
Qed.
End OpsFacts.
