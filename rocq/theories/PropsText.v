(** * PropsText: printed shapes (C78) *)
From Coq Require Import Strings.String Ascii Decimal DecimalString DecimalN.
From Verif Require Import Text ShapeFacts PropsShape PropsShapeHistory Mode.
Set Implicit Arguments.
Unset Strict Implicit.
Local Open Scope string_scope.

Definition digit (c : ascii) : bool := existsb (Ascii.eqb c) ["0"; "1"; "2"; "3"; "4"; "5"; "6"; "7"; "8"; "9"]%char.
Fixpoint digits (s : string) : Prop := match s with EmptyString => True | String c s' => digit c = true /\ digits s' end.
Definition stops (s : string) : Prop := match s with EmptyString => True | String c _ => digit c = false end.
Lemma digits_split a a' b b' : digits a -> digits a' -> stops b -> stops b' -> a ++ b = a' ++ b' -> a = a' /\ b = b'.
Proof.
  revert a'. induction a as [|c a IH]; intros [|c' a'] Ha Ha' Hb Hb' E; cbn in * ; auto.
  - subst b. cbn in Hb. destruct Ha' as (D & _). congruence.
  - subst b'. cbn in Hb'. destruct Ha as (D & _). congruence.
  - injection E as -> E. destruct (IH a') as (-> & ->); tauto.
Qed.
Lemma empty_digits d : digits (NilEmpty.string_of_uint d).
Proof. induction d; cbn; auto. Qed.
Lemma decimal_digits n : digits (decimal n).
Proof. unfold decimal, NilZero.string_of_uint. destruct (N.to_uint n); try apply empty_digits. cbn. auto. Qed.
Lemma to_uint_nonnil n : N.to_uint n <> Nil.
Proof. destruct n; [discriminate|]. apply DecimalPos.Unsigned.to_uint_nonnil. Qed.
Lemma decimal_inj a b : decimal a = decimal b -> a = b.
Proof.
  unfold decimal. intros E. apply (f_equal NilZero.uint_of_string) in E. rewrite !NilZero.usu in E by apply to_uint_nonnil. injection E as E. apply DecimalN.Unsigned.to_uint_inj. exact E.
Qed.
Lemma decimal_nonempty n : exists c s, decimal n = String c s /\ digit c = true.
Proof.
  pose proof (decimal_digits n) as D. unfold decimal in * . destruct (NilZero.string_of_uint (N.to_uint n)) as [|c s] eqn:E; [|exists c, s; split; auto; apply D].
  exfalso. unfold NilZero.string_of_uint in E. pose proof (@to_uint_nonnil n) as NN. clear D. destruct (N.to_uint n); cbn in E; congruence.
Qed.
Lemma app_cancel p a b : p ++ a = p ++ b -> a = b.
Proof. induction p; cbn; auto. intros E. injection E as E. auto. Qed.
Lemma app_assoc_s a b c : (a ++ b) ++ c = a ++ (b ++ c).
Proof. induction a; cbn; congruence. Qed.
Lemma more_stops l b : stops (more l ++ "]" ++ b).
Proof. destruct l; reflexivity. Qed.
Lemma more_inj l : forall l' b b', more l ++ "]" ++ b = more l' ++ "]" ++ b' -> l = l' /\ b = b'.
Proof.
  induction l as [|x l IH]; intros [|x' l'] b b' E; cbn [more] in E.
  - cbn in E. injection E as E. auto.
  - cbn in E. discriminate.
  - cbn in E. discriminate.
  - rewrite !app_assoc_s in E. cbn in E. injection E as E.
    apply digits_split in E; try apply decimal_digits; try (apply (@more_stops _ b)); try (apply (@more_stops _ b')). destruct E as (E1 & E2). apply decimal_inj in E1. subst. apply IH in E2. destruct E2 as (-> & ->). auto.
Qed.
Lemma list_text_inj l l' b b' : list_text l ++ b = list_text l' ++ b' -> l = l' /\ b = b'.
Proof.
  unfold list_text. intros E. rewrite !app_assoc_s in E. cbn [append] in E. injection E as E. destruct l as [|x l], l' as [|x' l'].
  - cbn in E. injection E as E. auto.
  - exfalso. rewrite !app_assoc_s in E. destruct (decimal_nonempty x') as (c & s & Ec & D). rewrite Ec in E. cbn in E. injection E as <- _. discriminate.
  - exfalso. rewrite !app_assoc_s in E. destruct (decimal_nonempty x) as (c & s & Ec & D). rewrite Ec in E. cbn in E. injection E as -> _. discriminate.
  - rewrite !app_assoc_s in E. apply digits_split in E; try apply decimal_digits; try (apply (@more_stops _ b)); try (apply (@more_stops _ b')). destruct E as (E1 & E2). apply decimal_inj in E1. subst. apply more_inj in E2. destruct E2 as (-> & ->). auto.
Qed.
Lemma shape_text_inj s s' : shape_text s = shape_text s' <-> dims s = dims s' /\ batch s = batch s'.
Proof.
  unfold shape_text. split; [|intros (-> & ->); reflexivity]. intros E. apply app_cancel in E. apply list_text_inj in E. destruct E as (-> & E). split; auto.
  apply app_cancel in E. apply digits_split in E; try apply decimal_digits; try reflexivity. destruct E as (E & _). apply decimal_inj; auto.
Qed.
Local Open Scope N_scope.
(** consistent shapes print the same exactly when they are equal *)
Theorem C78_text_identifies : forall s s', wf s -> wf s' -> (shape_text s = shape_text s' <-> shape_eqb s s' = true).
Proof.
  intros s s' W W'. rewrite shape_text_inj, shape_eqb_spec. split; [|intros ->; auto]. intros (E1 & E2). pose proof (@C07_roundtrip Debug s W) as R. pose proof (@C07_roundtrip Debug s' W') as R'. unfold shape_serialize in R, R'. rewrite E1, E2 in R. congruence.
Qed.
(** so do shapes made by Shape::new in either build *)
Theorem C78_new_text_identifies : forall m ds b s ds' b' s', u32 b -> u32 b' -> shape_new m ds b = Ok s -> shape_new m ds' b' = Ok s' ->
  (shape_text s = shape_text s' <-> (forall i, nth i ds 1 = nth i ds' 1) /\ b = b').
Proof.
  intros [] ds b s ds' b' s' Hb Hb' E E'.
  - apply shape_new_iff in E; auto. apply shape_new_iff in E'; auto. destruct E as (_ & _ & W & I & B), E' as (_ & _ & W' & I' & B'). rewrite C78_text_identifies, shape_eqb_spec by auto. split.
    + intros ->. split; [|congruence]. intros i. rewrite <- I, <- I'. reflexivity.
    + intros (HI & ->). apply wf_ext; auto; [|congruence]. intros i. rewrite I, I'. auto.
  - rewrite <- (C01_equality_without_checks E E'), shape_eqb_spec, shape_text_inj. split; [|intros ->; auto]. intros (E1 & E2).
    destruct (@C07_deserialize_without_checks (mkSerde ds b) s E) as (R & _). destruct (@C07_deserialize_without_checks (mkSerde ds' b') s' E') as (R' & _). unfold shape_serialize in R, R'. rewrite E1, E2 in R. congruence.
Qed.
(** what is printed: the extents up to the last that is not 1, and the batch *)
Theorem C78_text : forall m ds b s, u32 b -> shape_new m ds b = Ok s -> exists n, (n <= length ds)%nat /\ (forall i, (n <= i)%nat -> nth i ds 1 = 1) /\ ((0 < n)%nat -> nth (n - 1) ds 1 <> 1) /\
  shape_text s = ("Shape { " ++ list_text (firstn n ds) ++ ", " ++ decimal b ++ " }")%string.
Proof.
  intros m ds b s Hb E0. assert (E : shape_new Release ds b = Ok s) by (destruct m; auto; apply (@le_shape_new Release ds b s); auto).
  destruct (proj2 (C01_new_without_checks ds b) s E) as (I & B & _ & D1 & D2 & D3). exists (depth s). repeat (split; [auto; fail|]).
  unfold shape_text. rewrite B. replace (dims s) with (firstn (depth s) ds); auto. destruct (new_formed E) as (_ & _ & _ & D & _). unfold dims. rewrite D.
  unfold fill. rewrite firstn_app. replace (depth s - length ds)%nat with 0%nat by lia. cbn [firstn]. rewrite app_nil_r. reflexivity.
Qed.
(** but in a build without overflow checks a shape left with a wrong volume prints like one it is not equal to *)
Theorem C78_release_refuted : exists s0 s s', shape_new Release [65537] 1 = Ok s0 /\ run_resizes Release [RDim 1 65537; RDim 0 1] s0 = Ok s /\ shape_new Release [1; 65537] 1 = Ok s' /\
  shape_text s = "Shape { [1, 65537], 1 }"%string /\ shape_text s' = shape_text s /\ shape_eqb s s' = false.
Proof.
  do 3 eexists. split; [vm_compute; reflexivity|]. split; [vm_compute; reflexivity|]. split; [vm_compute; reflexivity|]. repeat split.
Qed.
Example C78_applies : exists s, shape_new Debug [2; 1; 3; 1] 4 = Ok s /\ wf s /\ shape_text s = "Shape { [2, 1, 3], 4 }"%string.
Proof.
  eexists. split; [reflexivity|]. split; [|reflexivity]. assert (E : shape_new Debug [2; 1; 3; 1] 4 = Ok (mkShape [2; 1; 3; 1; 1; 1; 1; 1] 4 3 6)) by reflexivity. apply shape_new_iff in E; [|reflexivity]. apply E.
Qed.
