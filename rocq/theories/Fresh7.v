(** * Fresh7: the contents of new buffers do not matter: contrib, parameters, optimizers, models (lemmas)

    No code of the crate is modelled here. *)
From Verif Require Export PropsSafe Fresh6 ModelFacts NodeContrib.
Set Implicit Arguments.
Unset Strict Implicit.

(** [r'] is [r]; and what [r] returns, if anything, satisfies [P] *)
Definition steady A (P : A -> Prop) (r r' : res A) : Prop := r' = r /\ oks P r.
Lemma steady_bind A B (Q : A -> Prop) (P : B -> Prop) (r r' : res A) (k k' : A -> res B) : steady Q r r' -> (forall a, Q a -> steady P (k a) (k' a)) -> steady P (bind r k) (bind r' k').
Proof.
  intros (-> & HQ) H. split.
  - destruct r as [a| |]; cbn [bind]; auto. apply H, HQ. reflexivity.
  - eapply oks_bind; [exact HQ|]. intros a Ha. apply H, Ha.
Qed.
Lemma steady_look A B (P : B -> Prop) (r : res A) (k k' : A -> res B) : (forall a, r = Ok a -> steady P (k a) (k' a)) -> steady P (bind r k) (bind r k').
Proof. intros H. destruct r as [a| |]; cbn [bind]; [apply H; auto|split; [auto|discriminate]..]. Qed.
Lemma steady_Ok A (P : A -> Prop) a : P a -> steady P (Ok a) (Ok a). Proof. intros H. split; auto. apply oks_Ok, H. Qed.
Lemma steady_refl A (P : A -> Prop) r : oks P r -> steady P r r. Proof. split; auto. Qed.
Lemma steady_weaken A (P Q : A -> Prop) r r' : (forall a, P a -> Q a) -> steady P r r' -> steady Q r r'.
Proof. intros H (E & O). split; auto. intros v Ev. auto. Qed.
Lemma steady_any A (r : res A) : steady anything r r. Proof. split; auto. intros v _. exact I. Qed.

Section Steady.
Variable K : num.
Notation F := (F K).
Notation tensor := (tensor K).
Notation oracle := (alloc_oracle K).
Notation graph := (graph K (oper K)).
Notation node := (nat * nat)%type.
Notation param := (param K).
Notation calm := (@calm K).
Implicit Types (x y g b : tensor).

(** ** one call *)
Definition memory_of (c : call K) : nat -> oracle :=
  match c with
  | CAlloc al _ | CConst _ al _ _ | CSlice _ al _ _ | CMove _ al _ | CUnary _ _ al _ | CWithConst _ _ al _ _ | CBinary _ _ al _ _ | CWithU32 _ _ al _ _ | CPowi _ al _ _ | CBroadcast _ al _ _ _
  | CSub _ al _ _ _ _ | CPick _ al _ _ _ | CBatchSub _ al _ _ _ | CBatchPick _ al _ _ | CConcat al _ _ | CBatchConcat al _ | COperator _ al _ _ | CReshape al _ _ | CFlatten al _ => fun _ => al
  | CSplit als _ _ _ | CBatchSplit als _ _ | CLnSoftmax als _ _ | CSoftmax als _ _ | CCrossEntropy als _ _ _ | CSparse als _ _ _
  | CBinaryBw _ als _ _ _ _ _ _ | CWithU32Bw _ als _ _ _ _ _ _ | CTransposeBw als _ _ _ _ _ => als
  | _ => zals K
  end.
Lemma back_again als (c : call K) : reallocated (memory_of c) (reallocated als c) = c. Proof. destruct c; reflexivity. Qed.
Lemma memory_exact (c : call K) : exact_memory c -> exacts (memory_of c).
Proof. destruct c; cbn; intros H j; try exact (H j); try exact H; apply zal_exact. Qed.
Lemma realloc_exact als (c : call K) : exacts als -> exact_memory (reallocated als c).
Proof. intros H. destruct c; cbn; auto; intros; apply H. Qed.
Lemma realloc_operands als (c : call K) : operands (reallocated als c) = operands c. Proof. destruct c; reflexivity. Qed.
Lemma realloc_fair als (c : call K) : exacts als -> fair c -> fair (reallocated als c).
Proof. intros H. assert (A : forall i, al_ok (als i)) by (intros; apply exact_ok, H). destruct c; cbn; intuition auto. Qed.
Lemma realloc_careful als (c : call K) : careful c -> careful (reallocated als c). Proof. destruct c; auto. Qed.
Lemma realloc_alloc als (c : call K) : ~ is_alloc c -> ~ is_alloc (reallocated als c). Proof. destruct c; auto. Qed.
Lemma careful_checked (c : call K) : careful c -> checked c. Proof. destruct c; auto. Qed.
Lemma calls_eq srt : sorts srt -> forall als c, ~ is_alloc c -> fair c -> careful c -> exact_memory c -> exacts als -> Forall (@sane K) (operands c) ->
  perform srt Debug (reallocated als c) = perform srt Debug c /\ good (Forall (@sane K)) (perform srt Debug c).
Proof.
  intros HS als c HN HF HC HM HA HO.
  assert (G : good (Forall (@sane K)) (perform srt Debug c)) by (apply perform_good; auto using careful_checked).
  assert (G' : good (Forall (@sane K)) (perform srt Debug (reallocated als c))) by (apply perform_good; auto using realloc_fair, careful_checked, realloc_careful; rewrite realloc_operands; auto).
  split; [|exact G]. eapply both; [exact G'|exact G| |apply u_perform; auto].
  pose proof (@u_perform K srt (memory_of c) (reallocated als c)) as U. rewrite back_again in U. apply U; auto using realloc_alloc, realloc_fair, realloc_exact, memory_exact. rewrite realloc_operands; auto.
Qed.
Definition nosort : (nat -> nat -> option comparison) -> list nat -> res (list nat) := fun _ _ => Panic.
Lemma nosort_sorts : sorts nosort. Proof. intros cmp l. exact I. Qed.
Notation sanest := (steady (@sane K)).
Lemma one_call (c : call K) (al al' : oracle) r r' : al_exact al -> al_exact al' -> ~ is_alloc c -> fair c -> careful c -> exact_memory c -> Forall (@sane K) (operands c) ->
  perform nosort Debug c = one r -> perform nosort Debug (reallocated (fun _ => al') c) = one r' -> sanest r r'.
Proof.
  intros HA HA' HN HF HC HM HO E E'. destruct (calls_eq nosort_sorts (als := fun _ => al')  HN HF HC HM (fun _ => HA') HO) as (EQ & G). rewrite E, E' in EQ. rewrite E in G.
  destruct r as [t| |]; destruct r' as [t'| |]; cbn in *; try discriminate; split; try congruence; try discriminate. intros v Ev. injection Ev as <-. inversion G; auto.
Qed.
Local Opaque call_fw call_bw call_u32 fw_registry bw_registry new_alloc alloc.
Ltac call c := eapply (@one_call c); eauto; cbn; auto using exact_ok.
Section Two.
Variables al al' : oracle.
Hypothesis HA : al_exact al.
Hypothesis HA' : al_exact al'.
Lemma st_sum x dim : sane x -> sanest (t_sum Debug al x dim) (t_sum Debug al' x dim). Proof. intros S. call (CWithU32 0 None al x dim). Qed.
Lemma st_batch_sum x : sane x -> sanest (t_batch_sum Debug al x) (t_batch_sum Debug al' x). Proof. intros S. call (CUnary 12 None al x). Qed.
Lemma st_sqrt x : sane x -> sanest (t_sqrt Debug al x) (t_sqrt Debug al' x). Proof. intros S. call (CUnary 1 None al x). Qed.
Lemma st_div_const x k : sane x -> sanest (t_div_const Debug al x k) (t_div_const Debug al' x k). Proof. intros S. call (CWithConst 5 None al x k). Qed.
Lemma st_add_const x k : sane x -> sanest (t_add_const Debug al x k) (t_add_const Debug al' x k). Proof. intros S. call (CWithConst 0 None al x k). Qed.
Lemma st_const_mul x k : sane x -> sanest (t_const_mul Debug al k x) (t_const_mul Debug al' k x). Proof. intros S. call (CWithConst 3 None al x k). Qed.
Lemma st_add x y : sane x -> sane y -> sanest (t_add Debug al x y) (t_add Debug al' x y). Proof. intros S S'. call (COperator 0 al x y). Qed.
Lemma st_sub x y : sane x -> sane y -> sanest (t_sub Debug al x y) (t_sub Debug al' x y). Proof. intros S S'. call (COperator 1 al x y). Qed.
Lemma st_mul x y : sane x -> sane y -> sanest (t_mul Debug al x y) (t_mul Debug al' x y). Proof. intros S S'. call (COperator 2 al x y). Qed.
Lemma st_div x y : sane x -> sane y -> sanest (t_div Debug al x y) (t_div Debug al' x y). Proof. intros S S'. call (COperator 3 al x y). Qed.
Lemma st_flatten x : sane x -> sanest (t_flatten Debug al x) (t_flatten Debug al' x). Proof. intros S. call (CFlatten al x). Qed.
Lemma st_broadcast x dim n : sane x -> sanest (t_broadcast Debug al x dim n) (t_broadcast Debug al' x dim n). Proof. intros S. call (CBroadcast None al x dim n). Qed.
Lemma st_constant d s k : wf s -> sanest (new_tensor_by_constant Debug d al s k) (new_tensor_by_constant Debug d al' s k). Proof. intros S. call (CConst d al s k). Qed.
Lemma st_move d x : sane x -> sanest (move_to_device Debug d al x) (move_to_device Debug d al' x). Proof. intros S. call (CMove d al x). Qed.
Lemma st_random d s dr : wf s -> sanest (y <- new_alloc Debug d al s ;; k_random Debug dr y) (y <- new_alloc Debug d al' s ;; k_random Debug dr y).
Proof. intros W. split; [apply random_eq; auto|apply random_sane; auto]. Qed.
End Two.
(** ** contrib on tensors *)
Section Many.
Variables als als' : nat -> oracle.
Hypothesis HA : exacts als.
Hypothesis HA' : exacts als'.
Lemma st_mean x dim : sane x -> sanest (c_mean Debug als x dim) (c_mean Debug als' x dim).
Proof. intros S. eapply steady_bind; [apply st_sum; auto|]. intros y Sy. apply st_div_const; auto. Qed.
Lemma st_batch_mean x : sane x -> sanest (c_batch_mean Debug als x) (c_batch_mean Debug als' x).
Proof. intros S. eapply steady_bind; [apply st_batch_sum; auto|]. intros y Sy. apply st_div_const; auto. Qed.
Lemma st_flat_mean x : sane x -> sanest (c_flat_mean Debug als x) (c_flat_mean Debug als' x).
Proof. intros S. eapply steady_bind; [apply st_flatten; auto|]. intros y Sy. apply st_mean; auto. Qed.
Lemma st_dropout r x rate e : sane x -> sanest (c_dropout Debug als r x rate e) (c_dropout Debug als' r x rate e).
Proof.
  intros S. unfold c_dropout. destruct (negb e); [apply st_const_mul; auto|]. destruct (nle K n1 rate); [apply st_const_mul; auto|]. cbv zeta.
  eapply steady_bind; [apply st_const_mul; auto|]. intros y Sy. apply steady_look. intros d _. eapply steady_bind; [apply st_random; auto; apply sane_wf; auto|]. intros b Sb. apply st_mul; auto.
Qed.
Lemma st_dropout_dim r x dim rate e : sane x -> sanest (c_dropout_dim Debug als r x dim rate e) (c_dropout_dim Debug als' r x dim rate e).
Proof.
  intros S. unfold c_dropout_dim. destruct (negb e); [apply st_const_mul; auto|]. destruct (nle K n1 rate); [apply st_const_mul; auto|]. cbv zeta.
  apply steady_look. intros s Es. apply steady_look. intros d _. assert (W : wf s). { eapply reduce_wf; [apply sane_wf; exact S|exact Es]. }
  eapply steady_bind; [apply st_random; auto|]. intros b Sb. eapply steady_bind; [apply st_const_mul; auto|]. intros y Sy. eapply steady_bind; [apply st_broadcast; auto|]. intros z Sz. apply st_mul; auto.
Qed.
Lemma st_sum_loop xs : Forall (@sane K) xs -> forall i y, sane y -> sanest (c_sum_loop Debug als i y xs) (c_sum_loop Debug als' i y xs).
Proof. induction 1 as [|x xs S _ IH]; intros i y Sy; cbn [c_sum_loop]; [apply steady_Ok; auto|]. eapply steady_bind; [apply st_add; auto|]. auto. Qed.
Lemma st_slice_sum xs : Forall (@sane K) xs -> sanest (c_slice_sum Debug als xs) (c_slice_sum Debug als' xs).
Proof.
  intros S. apply steady_look. intros _ _. apply steady_look. intros x0 E0. apply steady_look. intros d _. assert (S0 : sane x0) by (rewrite Forall_forall in S; apply S; unfold idx in E0; destruct (nth_error xs 0) eqn:E; [injection E0 as <-; eapply nth_error_In; eauto|discriminate]).
  eapply steady_bind; [apply st_constant; auto; apply sane_wf; auto|]. intros y Sy. apply st_sum_loop; auto.
Qed.
End Many.
Section Norm.
Variables als als' : nat -> nat -> oracle.
Hypothesis HA : forall i, exacts (als i).
Hypothesis HA' : forall i, exacts (als' i).
Lemma st_normalize (mean : (nat -> oracle) -> tensor -> res tensor) x g b eps : (forall a a' x, exacts a -> exacts a' -> sane x -> sanest (mean a x) (mean a' x)) -> sane x -> sane g -> sane b ->
  sanest (c_normalize Debug mean als x g b eps) (c_normalize Debug mean als' x g b eps).
Proof.
  intros HM Sx Sg Sb. unfold c_normalize. eapply steady_bind; [apply HM; auto|]. intros mu S1. eapply steady_bind; [apply st_sub; auto; first [apply HA|apply HA']|]. intros sh S2. eapply steady_bind; [apply st_mul; auto; first [apply HA|apply HA']|]. intros sq S3.
  eapply steady_bind; [apply HM; auto|]. intros v0 S4. eapply steady_bind; [apply st_add_const; auto; first [apply HA|apply HA']|]. intros v S5. eapply steady_bind; [apply st_sub; auto; first [apply HA|apply HA']|]. intros nu S6.
  eapply steady_bind; [apply st_sqrt; auto; first [apply HA|apply HA']|]. intros de S7. eapply steady_bind; [apply st_div; auto; first [apply HA|apply HA']|]. intros xh S8. eapply steady_bind; [apply st_mul; auto; first [apply HA|apply HA']|]. intros gx S9. apply st_add; auto; first [apply HA|apply HA'].
Qed.
Lemma st_batch_norm x g b eps e : sane x -> sane g -> sane b -> sanest (c_batch_normalization Debug als x g b eps e) (c_batch_normalization Debug als' x g b eps e).
Proof. intros. unfold c_batch_normalization. destruct e; [apply st_normalize; auto using st_batch_mean|apply st_const_mul; auto; first [apply HA|apply HA']]. Qed.
Lemma st_layer_norm x g b eps : sane x -> sane g -> sane b -> sanest (c_layer_normalization Debug als x g b eps) (c_layer_normalization Debug als' x g b eps).
Proof. intros. apply st_normalize; auto using st_flat_mean. Qed.
End Norm.

(** ** parameters and optimizers *)
Definition psane (p : param) : Prop := sane (p_value p) /\ sane (p_grad p) /\ Forall (fun e => sane (snd e)) (p_stats p).
Lemma get_sane st name t : Forall (fun e : string * tensor => sane (snd e)) st -> st_get name st = Some t -> sane t.
Proof. induction 1 as [|[n u] st S _ IH]; cbn; [discriminate|]. destruct (String.eqb n name); auto. intros E. injection E as <-. exact S. Qed.
Lemma set_sane st name t : Forall (fun e : string * tensor => sane (snd e)) st -> sane t -> Forall (fun e : string * tensor => sane (snd e)) (st_set name t st).
Proof. intros H S. induction H as [|[n u] st Su H IH]; cbn; [constructor; auto|]. destruct (String.eqb n name); constructor; auto. Qed.
(** an operation in place keeps the buffer's length *)
Lemma lenk_sane (r : res tensor) y : lenk r y -> (t_buf y = None -> oks (fun _ => False) r) -> sane y -> oks (@sane K) r.
Proof.
  intros L N (W & H) v E. destruct (L v E) as (E1 & E2 & E3 & E4). split; [rewrite E2; exact W|]. intros l Hl. destruct (t_buf y) as [l0|] eqn:B; [|destruct (N eq_refl v E)].
  destruct (H l0 eq_refl) as (H1 & H2 & H3 & H4). rewrite E1, E2, E3. split; auto. split; auto. split; auto. unfold buf in E4. rewrite Hl, B in E4. congruence.
Qed.
Lemma assign_sane f x y : sane y -> oks (@sane K) (k_assign f x y).
Proof.
  intros S. apply (@lenk_sane _ y); auto using len_assign. intros B v E. unfold k_assign in E. cbv zeta in E. apply bind_Ok in E. destruct E as (px & _ & E). apply bind_Ok in E. destruct E as (py & E & _). unfold ptr in E. rewrite B in E. discriminate.
Qed.
Local Transparent call_fw fw_registry.
Lemma sane_sub_assign x y : sane y -> oks (@sane K) (t_sub_assign Debug y x).
Proof. intros S. unfold t_sub_assign, sub_assign. do 3 (apply oks_any; intros ?). change (call_fw Debug "sub_assign_impl" [x] [] [] y) with (k_assign (nsub K) x y). apply assign_sane, S. Qed.
Lemma sane_add_assign x y : sane y -> oks (@sane K) (t_add_assign Debug y x).
Proof. intros S. unfold t_add_assign, add_assign. do 3 (apply oks_any; intros ?). change (call_fw Debug "add_assign_impl" [x] [] [] y) with (k_assign (nadd K) x y). apply assign_sane, S. Qed.
Local Opaque call_fw fw_registry.
Lemma good_oks A (P : A -> Prop) r : good P r -> oks P r. Proof. intros G v E. rewrite E in G. exact G. Qed.
Lemma one_sane (r : res tensor) : good (Forall (@sane K)) (one r) -> oks (@sane K) r.
Proof. intros G v ->. inversion G; auto. Qed.
Lemma sane_mul_assign y k : sane y -> oks (@sane K) (t_mul_assign Debug y k).
Proof. intros S. apply one_sane. apply (@perform_good K nosort (CMulAssign y k)); cbn; auto. apply nosort_sorts. Qed.
Lemma sane_reset y k : sane y -> oks (@sane K) (reset Debug y k).
Proof. intros S. apply one_sane. apply (@perform_good K nosort (CReset y k)); cbn; auto. apply nosort_sorts. Qed.
Notation pst := (steady psane).
Section Par.
Variables als als' : nat -> oracle.
Hypothesis HA : exacts als.
Hypothesis HA' : exacts als'.
Local Hint Resolve st_const_mul st_mul st_div_const st_sqrt st_add_const st_div sane_sub_assign sane_add_assign sane_mul_assign steady_refl : st.
Lemma st_add_stat i p name s : psane p -> wf s -> pst (add_stat Debug (als i) p name s) (add_stat Debug (als' i) p name s).
Proof. intros (S1 & S2 & S3) W. do 2 (apply steady_look; intros ? _). eapply steady_bind; [apply st_constant; auto|]. intros t St. apply steady_Ok. split; auto. split; auto. apply set_sane; auto. Qed.
Lemma st_ensure i p name : psane p -> pst (ensure Debug (als i) name p) (ensure Debug (als' i) name p).
Proof. intros S. unfold ensure. destruct (has_stat p name); [apply steady_Ok, S|]. apply st_add_stat; auto. apply sane_wf, S. Qed.
Lemma st_configure o p : psane p -> pst (configure_parameter Debug als o p) (configure_parameter Debug als' o p).
Proof. intros S. unfold configure_parameter. destruct (o_algo o); [apply steady_Ok, S|apply st_ensure, S|eapply steady_bind; [apply st_ensure, S|intros p1 S1; apply st_ensure, S1]]. Qed.
Lemma unwrap_sane name st t : Forall (fun e : string * tensor => sane (snd e)) st -> unwrap (st_get name st) = Ok t -> sane t.
Proof. intros H E. destruct (st_get name st) as [u|] eqn:EG; [|discriminate]. injection E as <-. eapply get_sane; eauto. Qed.
Lemma st_update_parameter o scale p : psane p -> pst (update_parameter Debug als o scale p) (update_parameter Debug als' o scale p).
Proof.
  intros (S1 & S2 & S3). unfold update_parameter. destruct (o_algo o).
  - unfold update_sgd. eapply steady_bind; [eauto with st|]. intros t St. eapply steady_bind; [eauto with st|]. intros v Sv. apply steady_Ok. split; auto.
  - unfold update_momentum. eapply steady_bind; [eauto with st|]. intros t St. apply steady_look. intros m0 E0. pose proof (unwrap_sane S3 E0) as Sm. eapply steady_bind; [eauto with st|]. intros m1 Sm1. eapply steady_bind; [eauto with st|]. intros m2 Sm2. eapply steady_bind; [eauto with st|]. intros v Sv.
    apply steady_Ok. split; auto. split; auto. apply set_sane; auto.
  - unfold update_adam. cbv zeta. apply steady_look. intros e1 _. apply steady_look. intros a0 Ea. apply steady_look. intros b0 Eb. pose proof (unwrap_sane S3 Ea) as Sa. pose proof (unwrap_sane S3 Eb) as Sb.
    do 14 (eapply steady_bind; [eauto with st|intros ? ?]). apply steady_Ok. split; auto. split; auto. apply set_sane; auto. apply set_sane; auto.
Qed.
Lemma st_sq_norm_of p : psane p -> steady anything (sq_norm_of Debug als p) (sq_norm_of Debug als' p).
Proof. intros (_ & S & _). unfold sq_norm_of. cbv zeta. eapply steady_bind; [eauto with st|]. intros q Sq. eapply steady_bind; [apply st_flatten; auto|]. intros f Sf. eapply steady_bind; [apply st_sum; auto|]. intros t _. apply steady_any. Qed.
End Par.
Lemma st_each A B (P : A -> Prop) (Q : B -> Prop) (f f' : nat -> A -> res B) l : (forall i a, P a -> steady Q (f i a) (f' i a)) -> Forall P l -> forall i, steady (Forall Q) (each f i l) (each f' i l).
Proof. intros H. induction 1 as [|a l HP _ IH]; intros i; cbn [each]; [apply steady_Ok; auto|]. eapply steady_bind; [apply H; auto|]. intros b Qb. eapply steady_bind; [apply IH|]. intros bs Qbs. apply steady_Ok. auto. Qed.
Lemma st_configure_parameters als als' o ps : (forall i, exacts (als i)) -> (forall i, exacts (als' i)) -> Forall psane ps -> steady (Forall psane) (configure_parameters Debug als o ps) (configure_parameters Debug als' o ps).
Proof. intros HA HA' S. eapply st_each; [|exact S]. intros i p Sp. apply st_configure; auto. Qed.
Lemma st_decay al al' l2 p : al_exact al -> al_exact al' -> psane p -> pst (decay Debug al l2 p) (decay Debug al' l2 p).
Proof. intros HA HA' (S1 & S2 & S3). eapply steady_bind; [apply st_const_mul; auto|]. intros t St. eapply steady_bind; [apply steady_refl, sane_add_assign; auto|]. intros g Sg. apply steady_Ok. split; auto. Qed.
Lemma st_sq_norm als als' ps : (forall i, exacts (als i)) -> (forall i, exacts (als' i)) -> Forall psane ps -> forall i acc, steady anything (sq_norm Debug als i acc ps) (sq_norm Debug als' i acc ps).
Proof. intros HA HA'. induction 1 as [|p ps S _ IH]; intros i acc; cbn [sq_norm]; [apply steady_any|]. eapply steady_bind; [apply st_sq_norm_of; auto|]. auto. Qed.
Lemma st_rescale k p : psane p -> oks psane (rescale Debug k p).
Proof. intros (S1 & S2 & S3). eapply oks_bind; [apply sane_mul_assign; auto|]. intros g Sg. apply oks_Ok. split; auto. Qed.
Lemma st_reset_gradient p : psane p -> oks psane (reset_gradient Debug p).
Proof. intros (S1 & S2 & S3). eapply oks_bind; [apply sane_reset; auto|]. intros g Sg. apply oks_Ok. split; auto. Qed.
Lemma st_update_parameters als als' o ps : (forall i j, exacts (als i j)) -> (forall i j, exacts (als' i j)) -> Forall psane ps ->
  steady (fun r => Forall psane (snd r)) (update_parameters Debug als o ps) (update_parameters Debug als' o ps).
Proof.
  intros HA HA' S. unfold update_parameters. eapply steady_bind with (Q := Forall psane).
  - destruct (ngt (o_l2 o) n0); [|apply steady_Ok, S]. eapply st_each; [|exact S]. intros i p Sp. apply st_decay; auto; first [apply HA|apply HA'].
  - intros ps1 S1. eapply steady_bind with (Q := Forall psane).
    + destruct (ngt (o_clip o) n0); [|apply steady_Ok, S1]. eapply steady_bind; [apply st_sq_norm; auto|]. intros q _. destruct (ngt q _); [|apply steady_Ok, S1]. eapply st_each; [|exact S1]. intros i p Sp. apply steady_refl, st_rescale, Sp.
    + intros ps2 S2. eapply steady_bind with (Q := Forall psane).
      * eapply st_each; [|exact S2]. intros i p Sp. eapply steady_bind; [apply st_update_parameter; auto|]. intros p1 Sp1. apply steady_refl, st_reset_gradient, Sp1.
      * intros ps3 S3. apply steady_look. intros e _. apply steady_Ok. exact S3.
Qed.
(** *** new parameters *)
Lemma st_initialize (al al' : oracle) r i (t : tensor) : al_exact al -> al_exact al' -> sane t -> steady anything (ini_apply Debug al r i t) (ini_apply Debug al' r i t).
Proof.
  intros HA HA' S. destruct i; cbn [ini_apply].
  - split; [|intros v _; exact I]. symmetry. apply fresh_eq; auto.
  - apply steady_look. intros d _. eapply steady_bind; [apply st_random; auto; apply sane_wf, S|]. intros; apply steady_any.
  - apply steady_look. intros d _. eapply steady_bind; [apply st_random; auto; apply sane_wf, S|]. intros; apply steady_any.
  - cbv zeta. do 3 (apply steady_look; intros ? _). eapply steady_bind; [apply st_random; auto; apply sane_wf, S|]. intros; apply steady_any.
Qed.
Lemma new_sane d s : wf s -> sane (new_tensor K d s). Proof. intros W. split; [exact W|discriminate]. Qed.
Lemma st_new_parameter d (al1 al2 al1' al2' : oracle) r s i : al_exact al1 -> al_exact al2 -> al_exact al1' -> al_exact al2' -> wf s -> steady anything (new_parameter Debug d al1 al2 r s i) (new_parameter Debug d al1' al2' r s i).
Proof.
  intros H1 H2 H1' H2' W. unfold new_parameter. cbv zeta. eapply steady_bind; [apply st_initialize; auto using new_sane|]. intros v _. rewrite <- !bind_assoc. eapply steady_bind with (Q := anything).
  - split; [symmetry; apply fresh_eq; auto using new_sane|intros u _; exact I].
  - intros g _. apply steady_any.
Qed.
(** *** models *)
Lemma st_param_move d als als' p : exacts als -> exacts als' -> psane p -> pst (param_move Debug d als p) (param_move Debug d als' p).
Proof.
  intros HA HA' (S1 & S2 & S3). eapply steady_bind; [apply st_move; auto|]. intros v Sv. eapply steady_bind; [apply st_move; auto|]. intros g Sg. eapply steady_bind.
  - eapply st_each; [|exact S3]. intros i [n t] St. cbn [fst snd] in *. eapply steady_bind; [apply st_move; auto|]. intros t' St'. apply (@steady_Ok _ (fun e : string * tensor => sane (snd e))). exact St'.
  - intros st Sst. apply steady_Ok. split; auto.
Qed.
Definition msane (x : model K) : Prop := Forall psane (parameters x).
Lemma st_visit (f f' : nat -> param -> res param) (x : model K) i : (forall i p, psane p -> pst (f i p) (f' i p)) -> msane x -> steady anything (Model.visit f i (parameters_mut x) x) (Model.visit f' i (parameters_mut x) x).
Proof.
  intros H S. rewrite !(visit_each _ i (sorted_nodup (mut_sorted x)) (load_params x)). eapply steady_bind; [eapply st_each; [exact H|exact S]|]. intros; apply steady_any.
Qed.
Lemma st_configure_model als als' o (x : model K) : (forall i, exacts (als i)) -> (forall i, exacts (als' i)) -> msane x -> steady anything (configure_model Debug als o x) (configure_model Debug als' o x).
Proof. intros HA HA' S. unfold configure_model. rewrite (loads_eq (load_params x)). cbn [bind]. eapply steady_bind; [apply st_configure_parameters; auto|]. intros; apply steady_any. Qed.
Lemma st_update_model als als' o (x : model K) : (forall i j, exacts (als i j)) -> (forall i j, exacts (als' i j)) -> msane x -> steady anything (update_model Debug als o x) (update_model Debug als' o x).
Proof. intros HA HA' S. unfold update_model. rewrite (loads_eq (load_params x)). cbn [bind]. eapply steady_bind; [apply st_update_parameters; auto|]. intros; apply steady_any. Qed.
Lemma st_model_move d als als' (x : model K) : (forall i, exacts (als i)) -> (forall i, exacts (als' i)) -> msane x -> steady anything (model_move Debug d als x) (model_move Debug d als' x).
Proof.
  intros HA HA' S. assert (HP : forall i p, psane p -> pst (param_move Debug d (als i) p) (param_move Debug d (als' i) p)) by (intros; apply st_param_move; auto).
  unfold model_move. destruct x as [p|fs|l|q].
  - eapply steady_bind; [apply HP; inversion S; auto|]. intros; apply steady_any.
  - apply st_visit; auto.
  - eapply steady_bind with (Q := anything); [|intros; apply steady_any]. assert (SL : Forall msane l).
    { unfold msane in *. cbn [parameters] in S. induction l as [|y l IH]; constructor; apply Forall_app in S; destruct S; auto. }
    clear S. generalize 0. induction SL as [|y l Sy _ IH]; intros i; [apply steady_any|]. eapply steady_bind; [apply st_visit; auto|]. intros y' _. eapply steady_bind; [apply IH|]. intros; apply steady_any.
  - apply steady_any.
Qed.

(** ** contrib on nodes *)
Implicit Types (gr : graph) (n : node).
Lemma follows_shape gr n Y (k k' : shape -> res (graph * Y)) : calm gr -> (forall s, wf s -> follows (k s) (k' s)) -> follows (bind (n_shape gr n) k) (bind (n_shape (erase gr) n) k').
Proof.
  intros C H. apply follows_look; [unfold n_shape; rewrite erase_value; reflexivity|]. intros s E. apply H. unfold n_shape in E. apply bind_Ok in E. destruct E as (v & Ev & E). injection E as <-. pose proof (value_sane n (proj1 C)) as V. rewrite Ev in V. apply sane_wf, V.
Qed.
Lemma follows_steady A Y (P : A -> Prop) (r r' : res A) (k k' : A -> res (graph * Y)) : steady P r' r -> (forall a, P a -> follows (k a) (k' a)) -> follows (bind r k) (bind r' k').
Proof. intros (-> & O) H. apply follows_look; auto. Qed.
Ltac f1 := first [apply follows_op1; auto; try exact I; reflexivity|apply follows_op2; auto; cbn; tauto].
Ltac f2 := unfold arithmetic; cbn; auto 10.
Lemma follows_mean dim gr bss n : calm gr -> (forall j, exact_bufs (bss j)) -> follows (n_mean Debug dim gr bss n) (n_mean Debug dim (erase gr) (@zmany K) n).
Proof. intros C B. apply follows_bind; [apply follows_op1; auto; try exact I; reflexivity|]. intros g1 y C1. apply follows_shape; auto. intros s _. apply follows_op1; auto; try exact I; reflexivity. Qed.
Lemma follows_batch_mean gr bss n : calm gr -> (forall j, exact_bufs (bss j)) -> follows (n_batch_mean Debug gr bss n) (n_batch_mean Debug (erase gr) (@zmany K) n).
Proof. intros C B. apply follows_bind; [apply follows_op1; auto; try exact I; reflexivity|]. intros g1 y C1. apply follows_shape; auto. intros s _. apply follows_op1; auto; try exact I; reflexivity. Qed.
Lemma follows_flat_mean gr bss n : calm gr -> (forall j, exact_bufs (bss j)) -> follows (n_flat_mean Debug gr bss n) (n_flat_mean Debug (erase gr) (@zmany K) n).
Proof. intros C B. apply follows_bind; [apply follows_flatten; auto|]. intros g1 y C1. apply follows_mean; auto. Qed.
Lemma follows_owner gr bs t : calm gr -> exact_bufs bs -> sane t -> follows (n_input_owner Debug gr bs t) (n_input_owner Debug (erase gr) (zbufs K) t).
Proof. intros C B S. apply follows_leaf; auto. discriminate. Qed.
Lemma follows_dropout gr bss al r n rate e : calm gr -> (forall j, exact_bufs (bss j)) -> al_exact al -> follows (n_dropout Debug gr bss al r n rate e) (n_dropout Debug (erase gr) (@zmany K) (zal K) r n rate e).
Proof.
  intros C B HA. unfold n_dropout. destruct (negb e); [apply follows_op1; auto; try exact I; reflexivity|]. destruct (nle K n1 rate); [apply follows_op1; auto; try exact I; reflexivity|]. cbv zeta.
  apply follows_bind; [apply follows_op1; auto; try exact I; reflexivity|]. intros g1 y C1. apply follows_look; [apply erase_device|]. intros d _. apply follows_shape; auto. intros s W. eapply follows_steady; [apply st_random; auto using zal_exact|]. intros t St.
  apply follows_bind; [apply follows_owner; auto|]. intros g2 z C2. apply follows_op2; auto. f2.
Qed.
Lemma follows_dropout_dim gr bss al al' r n dim rate e : calm gr -> (forall j, exact_bufs (bss j)) -> al_exact al -> al_exact al' -> follows (n_dropout_dim Debug gr bss al al' r n dim rate e) (n_dropout_dim Debug (erase gr) (@zmany K) (zal K) (zal K) r n dim rate e).
Proof.
  intros C B HA HA'. unfold n_dropout_dim. destruct (negb e); [apply follows_op1; auto; try exact I; reflexivity|]. destruct (nle K n1 rate); [apply follows_op1; auto; try exact I; reflexivity|]. cbv zeta.
  apply follows_shape; auto. intros s W. apply follows_look; [reflexivity|]. intros sm Es. assert (Wm : wf sm) by (eapply reduce_wf; eauto). apply follows_look; [apply erase_device|]. intros d _. eapply follows_steady; [apply st_random; auto using zal_exact|]. intros t St.
  apply follows_bind; [apply follows_op1; auto; try exact I; reflexivity|]. intros g1 y C1. eapply follows_steady; [apply st_broadcast; auto using zal_exact|]. intros t' St'.
  apply follows_bind; [apply follows_owner; auto|]. intros g2 z C2. apply follows_op2; auto. f2.
Qed.
Lemma follows_sum_loop bss ns : (forall j, exact_bufs (bss j)) -> forall i gr n, calm gr -> follows (n_sum_loop Debug bss i gr n ns) (n_sum_loop Debug (@zmany K) i (erase gr) n ns).
Proof. intros B. induction ns as [|q ns IH]; intros i gr n C; cbn [n_sum_loop]; [apply follows_Ok, C|]. apply follows_bind; [apply follows_op2; auto; f2|]. auto. Qed.
Lemma follows_slice_sum gr bss al ns : calm gr -> (forall j, exact_bufs (bss j)) -> al_exact al -> follows (n_slice_sum Debug gr bss al ns) (n_slice_sum Debug (erase gr) (@zmany K) (zal K) ns).
Proof.
  intros C B HA. do 2 (apply follows_look; [reflexivity|intros ? _]). apply follows_look; [apply erase_device|]. intros d _. apply follows_shape; auto. intros s W. eapply follows_steady; [apply st_constant; auto using zal_exact|]. intros t St.
  apply follows_bind; [apply follows_owner; auto|]. intros g2 z C2. apply follows_sum_loop; auto.
Qed.
Lemma follows_normalize (mean : graph -> (nat -> buffers K) -> node -> res (graph * node)) gr bsss (a b c : node) eps : (forall gr bss n, calm gr -> (forall j, exact_bufs (bss j)) -> follows (mean gr bss n) (mean (erase gr) (@zmany K) n)) ->
  calm gr -> (forall i j, exact_bufs (bsss i j)) -> follows (n_normalize Debug mean gr bsss a b c eps) (n_normalize Debug mean (erase gr) (fun _ => @zmany K) a b c eps).
Proof.
  intros HM C B. apply follows_bind; [apply HM; auto|]. intros g1 mu C1. apply follows_bind; [apply follows_op2; auto; f2|]. intros g2 sh C2. apply follows_bind; [apply follows_op2; auto; f2|]. intros g3 sq C3. apply follows_bind; [apply HM; auto|]. intros g4 v0 C4.
  apply follows_bind; [apply follows_op1; auto; try exact I; reflexivity|]. intros g5 v C5. apply follows_bind; [apply follows_op2; auto; f2|]. intros g6 nu C6. apply follows_bind; [apply follows_op1; auto; try exact I; reflexivity|]. intros g7 de C7.
  apply follows_bind; [apply follows_op2; auto; f2|]. intros g8 xh C8. apply follows_bind; [apply follows_op2; auto; f2|]. intros g9 gx C9. apply follows_op2; auto; f2.
Qed.
Lemma follows_batch_norm gr bsss (a b c : node) eps e : calm gr -> (forall i j, exact_bufs (bsss i j)) -> follows (n_batch_normalization Debug gr bsss a b c eps e) (n_batch_normalization Debug (erase gr) (fun _ => @zmany K) a b c eps e).
Proof. intros C B. unfold n_batch_normalization. destruct e; [apply follows_normalize; auto; intros; apply follows_batch_mean; auto|apply follows_op1; auto; try exact I; reflexivity]. Qed.
Lemma follows_layer_norm gr bsss (a b c : node) eps : calm gr -> (forall i j, exact_bufs (bsss i j)) -> follows (n_layer_normalization Debug gr bsss a b c eps) (n_layer_normalization Debug (erase gr) (fun _ => @zmany K) a b c eps).
Proof. intros C B. apply follows_normalize; auto. intros. apply follows_flat_mean; auto. Qed.
End Steady.
