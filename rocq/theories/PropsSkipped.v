(** * PropsSkipped: C49 for the parameters in skipped fields

    The derived [Model::move_to_device] visits what [parameters_mut] lists (derive/src/lib.rs L61-71, model.rs L6-10), while serde's derives
    save and load every field. A parameter in a field with #[parameter(skip)] is therefore loaded and never moved. *)
From Verif Require Import PropsModel ModelFacts.
Set Implicit Arguments.
Unset Strict Implicit.

Section Skipped.
Variable K : num.
Notation model := (model K).
Notation param := (param K).
Variable m m' : build.
(** the parameter [p] is inside [x] at [q], but not for the model: some field on the way is skipped *)
Definition left_out (x : model) (q : place) (p : param) : Prop := load x q = Some p /\ ~ holds x q p.
Lemma alike_left_out q : forall (x x' : model) p, alike x x' -> left_out x q p -> load x' q = Some p.
Proof.
  induction q as [|i q IH]; intros x x' p A (L & NH).
  - exfalso. apply NH. destruct x; cbn in L; try discriminate. injection L as ->. constructor.
  - rewrite load_cons in L |- * . inversion A as [? ?|?|l l' EL HA|fs fs' EL HF HS HN]; subst; clear A.
    + destruct i; discriminate.
    + destruct i; discriminate.
    + destruct (nth_error (kids (MVec l)) i) as [[b y]|] eqn:E; [|discriminate]. apply kid_vec in E. destruct E as (E & ->).
      destruct (nth_error l' i) as [y'|] eqn:E'; [|apply nth_error_None in E'; assert (i < length l) by (apply nth_error_Some; congruence); lia].
      assert (EK : nth_error (kids (K := K) (MVec l')) i = Some (true, y')) by (apply kid_vec; auto). rewrite EK.
      eapply IH; [eapply HA; eauto|]. split; auto. intros H. apply NH. econstructor; eauto.
    + destruct (nth_error (kids (MStruct fs)) i) as [[b y]|] eqn:E; [|discriminate]. apply kid_struct in E. destruct E as (f & E & Eb).
      destruct (nth_error fs' i) as [[f' y']|] eqn:E'; [|apply nth_error_None in E'; assert (i < length fs) by (apply nth_error_Some; congruence); lia].
      assert (EK : nth_error (kids (K := K) (MStruct fs')) i = Some (negb (attrs_skip (f_attrs f')), y')) by (apply kid_struct; eauto). rewrite EK.
      destruct (attrs_skip (f_attrs f)) eqn:S.
      * apply skip_iff in S. rewrite <- (HS _ _ _ _ _ E E' S). exact L.
      * apply noskip_iff in S. eapply IH; [eapply HN; eauto|]. split; auto. intros H. apply NH. econstructor; eauto.
Qed.
Lemma acts_left_out r (x x' : model) q p : left_out x q p -> acts r x (Ok x') -> load x' q = Some p.
Proof. intros LO A. destruct r; cbn [acts] in A; try discriminate. destruct A as (x1 & E1 & _ & _ & A). injection E1 as <-. eapply alike_left_out; eauto. Qed.
(** it is left as it is when the model is moved, configured or updated *)
Theorem C49_skipped_stay : forall (x x' : model) q p, left_out x q p ->
  (forall d als, model_move m d als x = Ok x' -> load x' q = Some p) /\ (forall als o, configure_model m als o x = Ok x' -> load x' q = Some p) /\
  (forall als o o', update_model m als o x = Ok (o', x') -> load x' q = Some p).
Proof.
  intros x x' q p LO. split; [|split].
  - intros d als E. pose proof (C48_move_to_device m d als x) as A. rewrite E in A. eapply acts_left_out; eauto.
  - intros als o E. pose proof (C48_configure_model m als o x) as A. rewrite E in A. eapply acts_left_out; eauto.
  - intros als o o' E. destruct (C48_update_model m als o x) as (A & _). rewrite E in A. eapply acts_left_out; eauto.
Qed.
(** so when the model has been loaded, the parameter is still one that panics when it is used or saved, unless it is moved by hand *)
Theorem C49_skipped_not_moved : forall d als (x x' : model) q y p, left_out x q p -> param_deserialize m' y = Ok p -> model_move m' d als x = Ok x' ->
  load x' q = Some p /\ param_serialize m p = Panic /\ to_vec m (p_value p) = Panic /\ device_of (p_value p) = Panic /\
  forall d' als', (forall i, al_ok (als' i)) -> (forall p0 s, live p0 -> param_serialize m p0 = Ok s -> same_data s y -> exists p1, param_move m' d' als' p = Ok p1 /\ restored d' p0 p1).
Proof.
  intros d als x x' q y p LO EY E. split; [|].
  { pose proof (C48_move_to_device m' d als x) as A. rewrite E in A. destruct (each _ 0 (parameters x)); cbn [acts] in A; try discriminate. destruct A as (x1 & E1 & _ & _ & A). injection E1 as <-. eapply alike_left_out; eauto. }
  pose proof EY as EY0. unfold param_deserialize in EY. apply bind_Ok in EY. destruct EY as (v & Ev & EY). apply bind_Ok in EY. destruct EY as (g & _ & EY). apply bind_Ok in EY. destruct EY as (st & _ & EY). injection EY as <-.
  destruct (C49_host_tensor m Ev) as (H1 & H2 & H3). cbn [p_value]. split; [unfold param_serialize; cbn [p_value]; rewrite H1; reflexivity|]. split; auto. split; auto.
  intros d' als' HA p0 s L ES SD. destruct (C49_parameter m m' L) as (s' & ES' & G). assert (s' = s) by congruence. subst s'. destruct (G y SD) as (p2 & E2 & M). rewrite E2 in EY0. injection EY0 as <-. exact (M d' als' HA).
Qed.
End Skipped.

(** the claim that loading and moving restores every parameter that was saved is therefore false for skipped ones: [net] of PropsModel.v *)
Definition got A (d : A) (r : res A) : A := match r with Ok a => a | _ => d end.
Definition pz_data (v : Z) : param_data Znum := got (mkPData (mkTData (mkSerde [] 0) []) (mkTData (mkSerde [] 0) []) []) (param_serialize Debug (pz v)).
Definition pz_host (v : Z) : param Znum := got (pz v) (param_deserialize Debug (pz_data v)).
(** [net] as it is loaded *)
Definition net0 : model Znum := MStruct
  [(fld "w" [Some (Path (word "doc"))], MParam (pz_host 1)); (fld "frozen" [skip_attr], MParam (pz_host 2));
   (fld "layers" [Some (List (word "serde") [NMeta (Path (word "skip"))])], MVec [MParam (pz_host 3); MStruct [(fld "k" [Some (Path (word "doc")); skip_attr], MOther 5); (fld "b" [], MParam (pz_host 4))]])].
Theorem C49_skipped_refuted : left_out net [1] (pz 2) /\ live (pz 2) /\ param_serialize Debug (pz 2) = Ok (pz_data 2) /\ param_deserialize Debug (pz_data 2) = Ok (pz_host 2) /\
  exists x', model_move Debug 1 (fun _ _ => alz) net0 = Ok x' /\ load x' [1] = Some (pz_host 2) /\ param_serialize Debug (pz_host 2) = Panic /\ exists p, load x' [0] = Some p /\ param_serialize Debug p = Ok (pz_data 1).
Proof.
  split; [split; [reflexivity|intros H; apply holds_iff in H; destruct H as (H & _); cbn in H; repeat (destruct H as [H|H]; try discriminate); contradiction]|].
  split; [split; [exists 1; rdy|]; split; [exists 1; rdy|]; split; [|repeat constructor; intros []]; intros n t [E|[]]; injection E as <- <-; exists 1; rdy|].
  split; [reflexivity|]. split; [reflexivity|]. eexists. split; [lazy -[alz Znum]; reflexivity|]. split; [reflexivity|]. split; [reflexivity|]. eexists. split; reflexivity.
Qed.
