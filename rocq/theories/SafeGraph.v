(** * SafeGraph: memory safety of graphs, their forward and backward passes (lemmas) *)
From Verif Require Export Safe3 CallFacts OpsFacts Create.
Set Implicit Arguments.
Unset Strict Implicit.

Section Shapes.
Variable K : num.
Notation F := (F K).
Notation tensor := (tensor K).
Notation nat32 x := (N.to_nat x).
Implicit Types (d : nat) (al : alloc_oracle K) (x y a b t : tensor).

(** ** The shape of what a function returns *)
Ltac fl := repeat first [ progress intros | apply fills_with | apply fills_Panic | apply fills_bind
   | match goal with |- fills (match ?x with _ => _ end) _ => destruct x end ].
Definition odd_name (n : string) : bool := String.eqb n "identity_impl" || String.eqb n "concat_fw_impl".
Lemma fw_registry_fills m : Forall (fun e : string * kfw K => odd_name (fst e) = false -> forall xs u f y, fills (snd e xs u f y) y) (fw_registry K m).
Proof.
  unfold fw_registry. repeat apply Forall_cons; try apply Forall_nil; cbn [fst snd]; intros EN; try discriminate EN; clear EN; intros; unfold fx, fxx, fxc, fxd, fxu; fl;
  try match goal with |- fills (?f _ _) _ => unfold f | |- fills (?f _ _ _) _ => unfold f | |- fills (?f _ _ _ _) _ => unfold f | |- fills (?f _ _ _ _ _) _ => unfold f
    | |- fills (?f _ _ _ _ _ _) _ => unfold f | |- fills (?f _ _ _ _ _ _ _) _ => unfold f | |- fills (?f _ _ _ _ _ _ _ _) _ => unfold f end; fl.
Qed.
Lemma call_fw_fills m name xs u f y : odd_name name = false -> fills (@call_fw K m name xs u f y) y.
Proof.
  intros HN. unfold call_fw. destruct (assoc (fw_registry K m) name) as [k|] eqn:E; [|apply fills_Panic].
  assert (H : In (name, k) (fw_registry K m)).
  { revert E. generalize (fw_registry K m). induction l as [|[s' w] l IH]; simpl; [discriminate|]. destruct (String.eqb_spec s' name); intros E; [inversion E; subst; auto|]. right; auto. }
  pose proof (proj1 (Forall_forall _ _) (fw_registry_fills m) _ H) as L. apply L. exact HN.
Qed.
(** the shape of [t] is the one computed by [r] *)
Lemma new_alloc_shape m d al s y : new_alloc m d al s = Ok y -> t_shape y = s.
Proof. unfold new_alloc, alloc, new_tensor. cbn. intros E. inv_ok. reflexivity. Qed.
Lemma call_shape m name xs u f d al s y t : odd_name name = false -> new_alloc m d al s = Ok y -> @call_fw K m name xs u f y = Ok t -> t_shape t = s.
Proof.
  intros HN E1 E2. rewrite <- (new_alloc_shape E1). destruct (call_fw_fills HN E2) as (HB & _). unfold blank in HB. inversion HB. auto.
Qed.
Lemma sh_ab m name sop d al a b t : odd_name name = false -> define_fw_ab m name sop d al a b = Ok t -> sop (t_shape a) (t_shape b) = Ok (t_shape t).
Proof.
  intros HN E. unfold define_fw_ab in E. apply bind_Ok in E. destruct E as (? & _ & E). apply bind_Ok in E. destruct E as (? & _ & E). apply bind_Ok in E. destruct E as (s & Es & E).
  apply bind_Ok in E. destruct E as (y & Ey & E). rewrite (call_shape HN Ey E). exact Es.
Qed.
Lemma sh_x m name d al x t : odd_name name = false -> define_fw_x m name d al x = Ok t -> t_shape t = t_shape x.
Proof. intros HN E. unfold define_fw_x in E. apply bind_Ok in E. destruct E as (? & _ & E). apply bind_Ok in E. destruct E as (y & Ey & E). apply (call_shape HN Ey E). Qed.
Lemma sh_reduce m name d al x dim t : odd_name name = false -> reduce_fw m name d al x dim = Ok t -> resize_dim m (t_shape x) (nat32 dim) 1 = Ok (t_shape t).
Proof.
  intros HN E. unfold reduce_fw in E. apply bind_Ok in E. destruct E as (? & _ & E). apply bind_Ok in E. destruct E as (s & Es & E).
  apply bind_Ok in E. destruct E as (y & Ey & E). rewrite (call_shape HN Ey E). exact Es.
Qed.
Lemma sh_broadcast m d al x dim n t : broadcast_fw m d al x dim n = Ok t -> so_broadcast m (t_shape x) (nat32 dim) n = Ok (t_shape t).
Proof.
  intros E. unfold broadcast_fw in E. apply bind_Ok in E. destruct E as (? & _ & E). apply bind_Ok in E. destruct E as (s & Es & E).
  apply bind_Ok in E. destruct E as (y & Ey & E). rewrite (@call_shape m "broadcast_fw_impl" _ _ _ _ _ _ _ _ eq_refl Ey E). exact Es.
Qed.
Lemma sh_slice m d al x dim lo hi t : slice_fw m d al x dim lo hi = Ok t -> so_slice m (t_shape x) (nat32 dim) lo hi = Ok (t_shape t).
Proof.
  intros E. unfold slice_fw in E. apply bind_Ok in E. destruct E as (? & _ & E). apply bind_Ok in E. destruct E as (s & Es & E).
  apply bind_Ok in E. destruct E as (y & Ey & E). rewrite (@call_shape m "slice_fw_impl" _ _ _ _ _ _ _ _ eq_refl Ey E). exact Es.
Qed.
Lemma sh_batch_slice m d al x lo hi t : batch_slice_fw m d al x lo hi = Ok t -> so_batch_slice (t_shape x) lo hi = Ok (t_shape t).
Proof.
  intros E. unfold batch_slice_fw in E. apply bind_Ok in E. destruct E as (? & _ & E). apply bind_Ok in E. destruct E as (s & Es & E).
  apply bind_Ok in E. destruct E as (y & Ey & E). rewrite (@call_shape m "batch_slice_fw_impl" _ _ _ _ _ _ _ _ eq_refl Ey E). exact Es.
Qed.
Lemma sh_via1 (f : nat -> alloc_oracle K -> tensor -> res tensor) al x t : via1 f al x = Ok t -> exists d, f d al x = Ok t.
Proof. intros E. unfold via1 in E. apply bind_Ok in E. destruct E as (d & _ & E). eauto. Qed.
Lemma sh_update_shape m x s t : update_shape m x s = Ok t -> t_shape t = s.
Proof. intros E. unfold update_shape in E. inv_ok. reflexivity. Qed.

(** the same extents, the larger minibatch *)
Definition joins (a b s : shape) : Prop := (forall i, ext s i = ext a i) /\ (bat a = bat b \/ bat a = 1 \/ bat b = 1) /\ bat s = Nat.max (bat a) (bat b) /\ wf s.
Lemma joins_elementwise (a b s : shape) : wf a -> wf b -> so_elementwise a b = Ok s -> (forall i, ext b i = ext a i) /\ joins a b s.
Proof.
  intros Wa Wb E. destruct (batchable_of Wa Wb E) as (H1 & H2 & H3). split; [auto|]. destruct H3 as (W & H3 & H4). split; auto.
Qed.
Lemma joins_scalar (a b s : shape) : wf a -> wf b -> (forall i, ext b i = ext a i) -> so_scalar_op a b = Ok s -> joins a b s.
Proof.
  intros Wa Wb HE E. apply so_scalar_op_iff in E; auto. destruct E as (_ & H2 & H3). destruct H3 as (W & H3 & H4). split; [intros i; unfold ext; rewrite H3; auto|].
  split; [unfold compat, bat in *; lia|]. split; auto. unfold bat. rewrite H4, N2Nat.inj_max. auto.
Qed.
Lemma joins_sym (a b s : shape) : (forall i, ext b i = ext a i) -> joins a b s -> joins b a s.
Proof. intros HE (H1 & H2 & H3 & H4). split; [intros i; rewrite H1, HE; auto|]. split; [destruct H2 as [E|[E|E]]; auto|]. split; auto. rewrite Nat.max_comm. auto. Qed.
(** + - * / of two tensors with the same extents *)
Lemma sh_op nf nl nr al a b t :
  odd_name nf = false -> odd_name nl = false -> odd_name nr = false -> sane a -> sane b -> (forall i, ext (t_shape b) i = ext (t_shape a) i) ->
  define_ab_op (define_fw_ab Debug nf so_elementwise) (define_fw_ab Debug nl so_scalar_op) (define_fw_ab Debug nr so_scalar_op) al a b = Ok t -> joins (t_shape a) (t_shape b) (t_shape t).
Proof.
  intros Hf Hl Hr Sa Sb HE E. unfold define_ab_op in E. pose proof (sane_wf Sa) as Wa. pose proof (sane_wf Sb) as Wb.
  destruct (is_scalar (t_shape a)).
  - apply bind_Ok in E. destruct E as (d & _ & E). apply (sh_ab Hl) in E. apply joins_sym; [auto|]. apply joins_scalar; auto.
  - destruct (is_scalar (t_shape b)); apply bind_Ok in E; destruct E as (d & _ & E).
    + apply (sh_ab Hr) in E. apply joins_scalar; auto.
    + apply (sh_ab Hf) in E. apply joins_elementwise in E; auto. apply E.
Qed.
Lemma sh_t_mul al a b t : sane a -> sane b -> (forall i, ext (t_shape b) i = ext (t_shape a) i) -> t_mul Debug al a b = Ok t -> joins (t_shape a) (t_shape b) (t_shape t).
Proof. apply sh_op; reflexivity. Qed.
Lemma sh_t_sub al a b t : sane a -> sane b -> (forall i, ext (t_shape b) i = ext (t_shape a) i) -> t_sub Debug al a b = Ok t -> joins (t_shape a) (t_shape b) (t_shape t).
Proof. apply sh_op; reflexivity. Qed.
Lemma sh_t_div al a b t : sane a -> sane b -> (forall i, ext (t_shape b) i = ext (t_shape a) i) -> t_div Debug al a b = Ok t -> joins (t_shape a) (t_shape b) (t_shape t).
Proof. apply sh_op; reflexivity. Qed.
Lemma sh_t_exp m al x t : t_exp m al x = Ok t -> t_shape t = t_shape x.
Proof. intros E. apply sh_via1 in E. destruct E as (d & E). eapply (@sh_x m "exp_fw_impl"); eauto. Qed.
Lemma sh_t_ln m al x t : t_ln m al x = Ok t -> t_shape t = t_shape x.
Proof. intros E. apply sh_via1 in E. destruct E as (d & E). eapply (@sh_x m "ln_fw_impl"); eauto. Qed.
Lemma sh_t_sum al x dim t : sane x -> t_sum Debug al x dim = Ok t -> nat32 dim < 8 /\ shape_is (t_shape t) (eset (t_shape x) (nat32 dim) 1) (bat (t_shape x)).
Proof.
  intros S E. unfold t_sum in E. apply bind_Ok in E. destruct E as (d & _ & E). apply (@sh_reduce Debug "sum_fw_impl" _ _ _ _ _ eq_refl) in E. apply resize_dim_iff in E; [|apply (sane_wf S)].
  destruct E as (H1 & H2 & H3). split; auto. eapply is_upd; eauto.
Qed.
Lemma sh_t_broadcast al x dim n t : sane x -> t_broadcast Debug al x dim n = Ok t ->
  nat32 dim < 8 /\ ext (t_shape x) (nat32 dim) = 1 /\ shape_is (t_shape t) (eset (t_shape x) (nat32 dim) (nat32 n)) (bat (t_shape x)).
Proof.
  intros S E. unfold t_broadcast in E. apply bind_Ok in E. destruct E as (d & _ & E). apply sh_broadcast in E. apply so_broadcast_iff in E; [|apply (sane_wf S)].
  destruct E as (H1 & H2 & H3 & H4). split; auto. split; [unfold ext; rewrite H2; auto|]. eapply is_upd; eauto.
Qed.
Lemma sh_flatten al x t : sane x -> t_flatten Debug al x = Ok t -> exists n, shape_is (t_shape t) (fun i => if i =? 0 then n else 1) (bat (t_shape x)).
Proof.
  intros S E. unfold t_flatten in E. apply bind_Ok in E. destruct E as (s & Es & E). unfold t_reshape in E. apply bind_Ok in E. destruct E as (d & _ & E). apply bind_Ok in E. destruct E as (u & _ & E).
  rewrite (sh_update_shape E). apply shape_new_iff in Es; [|apply (wf_batch (sane_wf S))]. destruct Es as (_ & _ & H). exists (nat32 (volume (t_shape x))).
  eapply is_shape_nat; [exact H| |reflexivity]. intros [|[|i]]; reflexivity.
Qed.
Lemma sh_flat_sum al0 al1 x t : al_ok al0 -> sane x -> flat_sum Debug al0 al1 x = Ok t -> shape_is (t_shape t) (fun _ => 1) (bat (t_shape x)).
Proof.
  intros HA S E. unfold flat_sum in E. apply bind_Ok in E. destruct E as (f & Ef & E). destruct (sh_flatten S Ef) as (n & W & H1 & H2).
  assert (Sf : sane f). { pose proof (@g_flatten K al0 x HA S) as G. rewrite Ef in G. exact G. }
  destruct (sh_t_sum Sf E) as (_ & W' & H3 & H4). split; auto. split; [|lia]. intros i. rewrite H3. unfold eset. change (nat32 0%N) with 0. destruct (Nat.eqb_spec i 0); auto. rewrite H1. destruct (Nat.eqb_spec i 0); congruence.
Qed.
End Shapes.
