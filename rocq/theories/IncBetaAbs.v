(** * incomplete_beta on both branches: absolute accuracy *)
From Verif Require Import Base FltLemmas ConvLemmas ModelBasic ModelInt ModelElem ModelSpecial ModelApi Spec SpecGamma SpecInc.
From Coq Require Import Lra Psatz.
From Coquelicot Require Import Coquelicot.
From Verif Require Import BasicProofs RangeProofs PF FPErr CFBound ExpAcc LogApi PowReal TanhAcc CFAcc MiscProofs SinAcc ErfAcc IntProofs GammaInt GammaAcc BetaAcc IncGamReal IncGamAcc IncBetaCF IncBetaReal IncBetaAcc IncBetaApi BetaEuler.
From Verif Require Import Base ModelBasic ModelInt ModelElem ModelSpecial ModelApi.
Open Scope R_scope.

Section Abs.
Context {f : fmt}.
Local Notation u := (uf f).
Let u0 : 0 < uf f := uf_pos f.
Let u1 : uf f <= / 16777216 := uf_le f.
Lemma refl_cond A B Z Z' : / 2 <= A <= 10 -> / 2 <= B <= 10 -> / 8 <= Z <= 7 / 8 -> Rabs (Z' - (1 - Z)) <= u * (1 - Z) -> (A + 1) * (1 - 42 / 10 * u) <= Z * (A + B + 2) ->
  Z' * (B + A + 2) <= (B + 1) * (1 + ee).
Proof.
  intros HA HB HZ HZ' H. apply Rabs_le_inv in HZ'. assert (Z' <= (1 - Z) * (1 + u)) by lra.
  assert (M : Z' * (B + A + 2) <= (1 - Z) * (1 + u) * (B + A + 2)) by (apply Rmult_le_compat_r; lra).
  assert (N : (1 - Z) * (A + B + 2) <= (B + 1) + 42 / 10 * u * (A + 1)) by lra.
  assert (N2 : (1 - Z) * (A + B + 2) * (1 + u) <= ((B + 1) + 42 / 10 * u * (A + 1)) * (1 + u)) by (apply Rmult_le_compat_r; lra).
  assert (UA : 42 / 10 * u * (A + 1) <= 42 / 10 * u * 11) by (apply Rmult_le_compat_l; lra).
  assert (UB : u * (B + 1) <= / 16777216 * (B + 1)) by (apply Rmult_le_compat_r; lra).
  assert (UU : u * (42 / 10 * u * (A + 1)) <= / 16777216 * (42 / 10 * / 16777216 * 11)).
  { assert (0 <= u * (A + 1)) by (apply Rmult_le_pos; lra). assert (u * (A + 1) <= / 16777216 * 11) by (apply Rmult_le_compat; lra).
    apply Rle_trans with (/ 16777216 * (42 / 10 * (u * (A + 1)))). replace (u * (42 / 10 * u * (A + 1))) with (u * (42 / 10 * (u * (A + 1)))) by ring. apply Rmult_le_compat_r; lra. lra. }
  unfold ee. lra.
Qed.
Lemma check_abs v (a b z : flt f) : finite a = true -> finite b = true -> finite z = true -> / 2 <= B2R a <= 10 -> / 2 <= B2R b <= 10 -> / 8 <= B2R z <= 7 / 8 ->
  exists w, incomplete_beta_check v a b z = Ok w /\ finite w = true /\ abs_err (B2R w) (beta_I (B2R a) (B2R b) (B2R z)) (84500 * u + bpow radix2 (-43)).
Proof.
  intros Fa Fb Fz Ha Hb Hz. assert (B43 : 0 < bpow radix2 (-43) <= / 1000000). { split. apply bpow_gt_0. cbn. lra. }
  destruct (check_split v a b z Fa Fb Fz Ha Hb ltac:(lra)) as [(Hzt & E)|(Hn & E)]; rewrite E; clear E.
  - destruct (begin_acc v a b z Fa Fb Fz Ha Hb Hz Hzt) as (w & Ew & Fw & Rw & P0). exists w. split; auto. split; auto.
    unfold rel_err in Rw. unfold abs_err. rewrite (Rabs_pos_eq (beta_I _ _ _)) in Rw by lra. assert (Q := beta_I_rng (B2R a) (B2R b) (B2R z) ltac:(lra) ltac:(lra) ltac:(lra)).
    eapply Rle_trans. exact Rw. apply Rle_trans with ((84000 * u + bpow radix2 (-43)) * 1). apply Rmult_le_compat_l; lra. lra.
  - destruct (one_minus z Fz Hz) as (Fz' & Hz' & Ez'). set (z' := ofZ f 1 -. z) in * .
    assert (C := refl_cond (B2R a) (B2R b) (B2R z) (B2R z') Ha Hb Hz Ez' Hn).
    destruct (begin_acc v b a z' Fb Fa Fz' Hb Ha Hz' C) as (r & Er & Fr & Rr & P0). rewrite Er. cbn [bind].
    unfold rel_err in Rr. rewrite (Rabs_pos_eq (beta_I _ _ _)) in Rr by lra. assert (Q := beta_I_rng (B2R b) (B2R a) (B2R z') ltac:(lra) ltac:(lra) ltac:(lra)).
    assert (L := beta_I_lip (B2R b) (B2R a) (1 - B2R z) (B2R z') Hb Ha ltac:(lra) ltac:(lra)).
    assert (S := beta_I_refl (B2R a) (B2R b) (B2R z) ltac:(lra) ltac:(lra) ltac:(lra)).
    set (I := beta_I (B2R b) (B2R a) (B2R z')) in * . set (J := beta_I (B2R b) (B2R a) (1 - B2R z)) in * . set (K := beta_I (B2R a) (B2R b) (B2R z)) in * .
    assert (T : (84000 * u + bpow radix2 (-43)) * I <= (84000 * u + bpow radix2 (-43)) * 1) by (apply Rmult_le_compat_l; lra).
    assert (Q2 := beta_I_rng (B2R b) (B2R a) (1 - B2R z) ltac:(lra) ltac:(lra) ltac:(lra)). fold J in Q2.
    assert (V : u * (1 - B2R z) <= u * (7 / 8)) by (apply Rmult_le_compat_l; lra).
    apply Rabs_le_inv in Rr. apply Rabs_le_inv in L. apply Rabs_le_inv in Ez'. assert (L' : Rabs (B2R z' - (1 - B2R z)) <= u * (7 / 8)) by (apply Rabs_le; lra).
    destruct (ofZ_small f 1 ltac:(lia)) as (V1 & F1 & _). destruct (op_sub (ofZ f 1) r F1 Fr) as (F & W). rewrite V1. apply Rabs_le; lra. rewrite V1 in W.
    assert (G := @grnd f (1 - B2R r)). exists (ofZ f 1 -. r). split; auto. split; auto. unfold abs_err. rewrite W.
    assert (GB : Rabs (1 - B2R r) <= 101 / 100) by (apply Rabs_le; lra).
    assert (GU : u * Rabs (1 - B2R r) <= u * (101 / 100)) by (apply Rmult_le_compat_l; lra). apply Rabs_le_inv in G. apply Rabs_le. lra.
Qed.
End Abs.
Lemma api_ib_abs : forall v f (a b z : flt f), finite a = true -> finite b = true -> finite z = true -> / 2 <= B2R a <= 10 -> / 2 <= B2R b <= 10 -> / 8 <= B2R z <= 7 / 8 ->
  exists w, rmap (AFlt _) (gcem_incomplete_beta v (AFlt f a) (AFlt f b) (AFlt f z)) = Ok (AFlt f w) /\ finite w = true /\
    abs_err (B2R w) (beta_I (B2R a) (B2R b) (B2R z)) (84500 * bpow radix2 (- prec f) + bpow radix2 (-43)).
Proof.
  intros v f a b z Fa Fb Fz Ha Hb Hz. destruct (check_abs v a b z Fa Fb Fz Ha Hb Hz) as (w & E & F & R). exists w. split; auto.
  destruct f; unfold gcem_incomplete_beta, lift3; cbn [cr_fmt to_fmt]; cbn; rewrite !conv_id, E; reflexivity.
Qed.
(** the specification: the regularised integral is a distribution function *)
Lemma beta_I_mono : forall a b z z', 0 < a -> 0 < b -> 0 < z -> z <= z' -> z' < 1 -> beta_I a b z <= beta_I a b z'.
Proof.
  intros a b z z' Ha Hb Z ZZ Z'. rewrite !beta_I_IL by lra. rewrite (IL_step a b z z') by lra. assert (P := BI_pos a b ltac:(lra) ltac:(lra)).
  apply Rmult_le_compat_r. left. apply Rinv_0_lt_compat; lra. assert (Q := bk_int_pos a b z z' Z ZZ Z'). lra.
Qed.
(** almost monotone in z *)
Lemma api_ib_mono : forall v f (a b z z' w w' : flt f), finite a = true -> finite b = true -> finite z = true -> finite z' = true -> / 2 <= B2R a <= 10 -> / 2 <= B2R b <= 10 -> / 8 <= B2R z -> B2R z <= B2R z' -> B2R z' <= 7 / 8 ->
  rmap (AFlt _) (gcem_incomplete_beta v (AFlt f a) (AFlt f b) (AFlt f z)) = Ok (AFlt f w) -> rmap (AFlt _) (gcem_incomplete_beta v (AFlt f a) (AFlt f b) (AFlt f z')) = Ok (AFlt f w') ->
  B2R w <= B2R w' + 2 * (84500 * bpow radix2 (- prec f) + bpow radix2 (-43)).
Proof.
  intros v f a b z z' w w' Fa Fb Fz Fz' Ha Hb Z ZZ Z' E E'.
  destruct (api_ib_abs v f a b z Fa Fb Fz Ha Hb ltac:(lra)) as (x & Ex & _ & Rx). destruct (api_ib_abs v f a b z' Fa Fb Fz' Ha Hb ltac:(lra)) as (x' & Ex' & _ & Rx').
  rewrite E in Ex. rewrite E' in Ex'. apply (f_equal (fun r => match r with Ok (AFlt _ y) => B2R y | _ => 0 end)) in Ex. apply (f_equal (fun r => match r with Ok (AFlt _ y) => B2R y | _ => 0 end)) in Ex'. cbn in Ex, Ex'. rewrite <- Ex in Rx. rewrite <- Ex' in Rx'.
  assert (M := beta_I_mono (B2R a) (B2R b) (B2R z) (B2R z') ltac:(lra) ltac:(lra) ltac:(lra) ZZ ltac:(lra)). unfold abs_err in * . apply Rabs_le_inv in Rx. apply Rabs_le_inv in Rx'. lra.
Qed.
