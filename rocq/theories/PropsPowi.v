(** * PropsPowi: C19, the gradient of powi with the exponent i32::MIN

    powi.rs computes n - 1 in i32: with overflow checks this panics, without
    them the exponent becomes 2^31 - 1. *)
From Verif Require Import PVocab PropsElem.
Set Implicit Arguments.

Section Defs.
Variable K : num.
Notation F := (F K).
Notation "x +. y" := (nadd K x y) (at level 50, left associativity).
Notation "x *. y" := (nmul K x y) (at level 40, left associativity).
Theorem C19_powi_of_min_refuted : forall d (x y gy gx : tensor K), let k := (-2147483648)%Z in
  ready d x -> ready d y -> ready d gy -> ready d gx -> t_shape y = t_shape x -> t_shape gy = t_shape x -> t_shape gx = t_shape x ->
  powi_bw Debug d x y gy k gx = Panic /\
  writes (powi_bw Release d x y gy k gx) gx (fun c b => at_ gx c b +. at_ gy c b *. nofZ K k *. npowi K (at_ x c b) 2147483647).
Proof.
  intros d x y gy gx k Hx Hy Hg Hgx E1 E2 E3. split.
  - unfold powi_bw. rewrite bw_checks_Ok by auto. cbn [bind]. rewrite (call_bw_eq _ (eq_refl : assoc (bw_registry K Debug) "powi_bw_impl" = _)). cbn [idx nth_error bind].
    unfold k_powi_bw. cbn [idx nth_error bind].
    destruct (ready_vt Hx) as (O1 & B1 & L1). destruct (ready_vt Hg) as (O2 & B2 & L2). destruct (ready_vt Hgx) as (O3 & B3 & L3).
    rewrite (size_tot Debug O2). cbn [bind]. unfold ptr. rewrite B1, B2, B3. cbn [unwrap bind]. rewrite Nat2N.id.
    assert (T : 1 <= tot (t_shape gy)) by (apply tot_pos, (ready_wf Hg)). unfold forN. destruct (tot (t_shape gy)) as [|n] eqn:En; [lia|]. cbn [seq forL].
    assert (L1' : 1 <= length (buf x)) by (rewrite E2 in En; lia).
    rewrite (rd_Ok (buf gy) 0 n0) by lia. cbn [bind]. rewrite (rd_Ok (buf x) 0 n0) by lia. cbn [bind]. reflexivity.
  - eapply writes_of_updates; [apply (ready_wf Hgx)| |].
    + unfold powi_bw. rewrite bw_checks_Ok by auto. cbn [bind]. rewrite (call_bw_eq _ (eq_refl : assoc (bw_registry K Release) "powi_bw_impl" = _)). cbn [idx nth_error bind].
      destruct (k_powi_bw_spec Release (as_u32 k) [] (n1':=2147483647%Z) (ready_vt Hx) (ready_vt Hg) (ready_vt Hgx)) as (l' & E & HO); try congruence; [reflexivity|].
      rewrite as_u32_i32 in HO by (unfold k; lia). exists l'. split; [exact E|exact HO].
    + intros c b Hc Hb. cbv beta. rewrite !at_buf, E2, E3. reflexivity.
Qed.
End Defs.
Example C19_powi_of_min_applies : let t := tz 0 [2]%N 1 [1; 2]%Z in ready 0 t /\ powi_bw Debug 0 t t t (-2147483648) t = Panic.
Proof. split; [rdy|reflexivity]. Qed.
