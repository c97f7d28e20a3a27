(** * PropsReleaseGrad: gradients and training in builds without overflow checks (C65) *)
From Verif Require Import RelMore.
From Verif Require Export PropsTrain.
From Verif Require Import PropsOptim.
Set Implicit Arguments.
Unset Strict Implicit.
Open Scope R_scope.
Notation opt := (Optim.opt Rnum).
Notation param := (Optim.param Rnum).

Section ReleaseGrad.
Variable m : build.

(** [n.backward()] for the loss of a program (made of functions that did not panic with overflow checks) succeeds in
    either build, and adds the partial derivatives of the loss to the gradients of the parameters *)
Theorem C65_gradients : forall gal popf popb (g : rgraph) d n, program d g -> loss_of g n -> min_heap popf -> max_heap popb -> fair_grads gal ->
  exists g', node_backward m (interp m) gal popf popb g n = Ok g' /\
    (forall i, ~ uses g (fst n) i -> own_of g' i = own_of g i) /\
    forall i o v, uses g (fst n) i -> nth_error (g_ops g) i = Some o -> o_kind (oi_op o) = KParameter v ->
    exists a a', own_of g i = Some a /\ own_of g' i = Some a' /\ ready d a' /\ t_shape a' = t_shape v /\
      forall c b, inb (t_shape v) c -> (b < bat (t_shape v))%nat -> D (fun t => total Debug (with_value i (bump v c b t) g) n) (at_ a' c b - at_ a c b).
Proof.
  intros gal popf popb g d n P L HF HX HA. destruct (C38_programs P L HF HX HA) as (g' & E & H). exists g'. split; [|exact H]. eapply le_node_backward; [|exact E]. intros o. apply le_interp.
Qed.

(** training (PropsTrain.v) with the calls of [backward] and [update_parameters] made in a build of mode [m] *)
Record training_in (a : algo Rnum) (N d : nat) (ss : list shape) (os : nat -> opt) (ps qs : nat -> list param) (gs : nat -> rgraph) (ns : nat -> node) (ix : nat -> list nat) : Prop := mkTrainingIn {
  ti_algo : forall n, o_algo (os n) = a;
  ti_plain : forall n, o_l2 (os n) = 0 /\ o_clip (os n) = 0;
  ti_epoch : forall n, o_epoch (os n) = N.of_nat n;
  ti_small : (N.of_nat N < two32)%N;
  ti_start : Forall2 (fun s p => clear d s (needed a) p) ss (ps 0%nat);
  ti_loss : forall n, (n < N)%nat -> program d (gs n) /\ loss_of (gs n) (ns n) /\ borrows (gs n) (ix n) (ps n);
  ti_backward : forall n, (n < N)%nat -> exists gal popf popb g', min_heap popf /\ max_heap popb /\ fair_grads gal /\
    node_backward m (interp m) gal popf popb (gs n) (ns n) = Ok g' /\ qs n = returned g' (ix n) (ps n);
  ti_update : forall n, (n < N)%nat -> exists als o', (forall i j k, al_ok (als i j k)) /\ update_parameters m als (os n) (qs n) = Ok (o', ps (S n)) }.

Lemma update_succeeds (a : algo Rnum) als (o : opt) d ss (qs : list param) : o_algo o = a -> o_l2 o = 0 -> o_clip o = 0 -> (o_epoch o < two32 - 1)%N -> (forall i j k, al_ok (als i j k)) -> Forall2 (fun s q => good d s (needed a) q) ss qs ->
  exists r, update_parameters Debug als o qs = Ok r.
Proof.
  intros EA P1 P2 HE HA G.
  assert (YS : exists ys : list (item Rnum), Forall2 (updated o) (map (fun sq => mkI d (fst sq) (view (snd sq))) (combine ss qs)) ys).
  { clear - G EA. induction G as [|s q ss l H G (ys & I1)]; [exists []; constructor|]. destruct (stepped_some (o_scale o) (o_epoch o + 1) H) as (z & Ez & Hz). rewrite <- EA in Ez. exists (mkI d s (no_grad z) :: ys).
    constructor; [split; [reflexivity|]; split; [reflexivity|]; exists z; auto|exact I1]. }
  destruct YS as (ys & Y1). destruct (@C46_update_parameters Rnum Debug Rnum_commutes als o (map (fun sq => mkI d (fst sq) (view (snd sq))) (combine ss qs)) qs ys) as (ps2 & E2 & AP); eauto.
  - clear - G. induction G as [|s q ss l H G IH]; constructor; auto. cbn. eapply view_ok; eauto.
  - unfold prepared. rewrite P1, P2. cbn [nlt Rnum n0]. rewrite Rltb_false by lra. exact Y1.
Qed.
(** it is the training of PropsTrain.v, so everything C59 says holds of it *)
Theorem C65_training : forall a N d ss os ps qs gs ns ix, training_in a N d ss os ps qs gs ns ix -> training a N d ss os ps qs gs ns ix.
Proof.
  intros a N d ss os ps qs gs ns ix [T1 T2 T3 T4 T5 T6 T7 T8].
  assert (ST : forall n, (n < N)%nat -> Forall2 (fun s p => clear d s (needed a) p) ss (ps n) ->
    (exists gal popf popb g', min_heap popf /\ max_heap popb /\ fair_grads gal /\ node_backward Debug (interp Debug) gal popf popb (gs n) (ns n) = Ok g' /\ qs n = returned g' (ix n) (ps n)) /\
    (exists als o', (forall i j k, al_ok (als i j k)) /\ update_parameters Debug als (os n) (qs n) = Ok (o', ps (S n))) /\ Forall2 (fun s p => clear d s (needed a) p) ss (ps (S n))).
  { intros n Hn HC. destruct (T6 n Hn) as (P & L & B). destruct (T7 n Hn) as (gal & popf & popb & g' & HF & HX & HA & E & EQ). destruct (backward_returns P L HF HX HA B HC) as (g2 & E2 & G & _ & _).
    assert (E3 : node_backward m (interp m) gal popf popb (gs n) (ns n) = Ok g2). { eapply le_node_backward; [|exact E2]. intros o. apply le_interp. }
    assert (QQ : g2 = g') by congruence. rewrite QQ in G, E2. rewrite <- EQ in G. destruct (T8 n Hn) as (als & o' & HAL & EU). destruct (T2 n) as (P1 & P2).
    assert (HE : (o_epoch (os n) < two32 - 1)%N) by (rewrite T3; change two32 with 4294967296%N in *; lia).
    destruct (@update_succeeds a als (os n) d ss (qs n) (T1 n) P1 P2 HE HAL G) as (r & ER). pose proof (@le_update_parameters Rnum m als (os n) (qs n) _ ER) as ER'. assert (r = (o', ps (S n))) by congruence. subst r.
    split; [exists gal, popf, popb, g'; auto|]. split; [exists als, o'; auto|]. eapply update_clears; [apply (T1 n)|exact P1|exact P2|exact HE|exact HAL|exact G|exact ER]. }
  assert (CL : forall n, (n <= N)%nat -> Forall2 (fun s p => clear d s (needed a) p) ss (ps n)).
  { induction n as [|n IH]; intros Hn; [exact T5|]. apply ST; [lia|apply IH; lia]. }
  constructor; auto; intros n Hn; apply ST; auto; apply CL; lia.
Qed.
(** and conversely *)
Lemma training_is_in a N d ss os ps qs gs ns ix : training a N d ss os ps qs gs ns ix -> training_in a N d ss os ps qs gs ns ix.
Proof.
  intros [T1 T2 T3 T4 T5 T6 T7 T8]. constructor; auto; intros n Hn.
  - destruct (T7 n Hn) as (gal & popf & popb & g' & HF & HX & HA & E & EQ). exists gal, popf, popb, g'. split; auto. split; auto. split; auto. split; auto. eapply le_node_backward; [|exact E]. intros o. apply le_interp.
  - destruct (T8 n Hn) as (als & o' & HAL & E). exists als, o'. split; auto. apply (@le_update_parameters Rnum m), E.
Qed.
End ReleaseGrad.
(** *** the training of C59_applies, in a release build *)
Example C65_training_applies : forall eta w0 N, (N.of_nat N < two32)%N ->
  training_in Release (SGD (K := Rnum) eta) N 0 [sh1] (sq_opt eta) (fun n => [sq_run eta w0 n]) (fun n => sq_after (sq_run eta w0 n)) (fun n => sq_graph (sq_run eta w0 n)) (fun _ => (1%nat, 0%nat)) (fun _ => [0%nat]).
Proof. intros. apply training_is_in, sq_training. assumption. Qed.
Print Assumptions C65_gradients.
Print Assumptions C65_training.
