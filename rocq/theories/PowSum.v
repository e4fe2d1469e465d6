(** * pow of a sum of exponents and of a negated exponent *)
From Verif Require Import Base ModelBasic ModelInt ModelElem ModelSpecial ModelApi FltLemmas Spec SpecGamma IntProofs BasicProofs ConvLemmas MiscProofs ExpAcc.
From Coq Require Import Lra Psatz.
From Coquelicot Require Import Coquelicot.
From Verif Require Import Base ModelBasic FPErr LogApi TanhAcc PowReal InvTrig TrigApi SinAcc SinhAcc InvHyp SqrtSimp InvSqrtAcc GammaApi BetaApi TrigWide RoundTrip RoundTrip2 RoundTrip3 ExpDist Identities ExpSum.
From Verif Require Import Base ModelBasic ModelInt ModelElem ModelSpecial ModelApi TotalProofs.
From Interval Require Import Tactic.
Open Scope R_scope.

(** the accuracy of pow with the exponent of the result bounded by L *)
Lemma powL v f (x y : flt f) L : finite x = true -> finite y = true -> / 2 <= B2R x -> Rabs (B2R y * ln (B2R x)) <= L -> L <= 50 ->
  exists w : flt f, gcem_pow v (AFlt f x) (AFlt f y) = Ok (AFlt f w) /\ finite w = true /\
    rel_err (B2R w) (Rpower (B2R x) (B2R y)) ((108 + 7 * L) * uf f + 182 * bpow radix2 (-61)).
Proof.
  intros Fx Fy X Y L5. destruct (powf v f x y Fx Fy X) as (w & Ew & Fw & Rw).
  { apply Rle_trans with (exp 53). apply exp_le. lra. apply Rle_trans with (bpow radix2 80). cbn. interval. apply bpow_le. destruct f; cbn; lia. }
  exists w. split. exact Ew. split. exact Fw. unfold rel_err in * . apply Rle_trans with (1 := Rw). apply Rmult_le_compat_r. apply Rabs_pos. destruct (uf_small f) as (U0 & U1).
  assert (q0 := bpow_gt_0 radix2 (-61)). replace (bpow radix2 (-54)) with (128 * bpow radix2 (-61)) by (cbn; lra). set (q := bpow radix2 (-61)) in * . set (l := Rabs (B2R y * ln (B2R x))) in * .
  assert (l1 : (108 + 7 * l) * uf f <= (108 + 7 * L) * uf f) by (apply Rmult_le_compat_r; lra). assert (l2 : (l + 4) * q <= 54 * q) by (apply Rmult_le_compat_r; lra). lra.
Qed.
Lemma pow_sum : forall v f (x a b c : flt f), finite x = true -> finite a = true -> finite b = true -> finite c = true -> B2R c = B2R a + B2R b -> / 2 <= B2R x -> Rabs (B2R a * ln (B2R x)) + Rabs (B2R b * ln (B2R x)) <= 50 ->
  exists p q r : flt f, gcem_pow v (AFlt f x) (AFlt f a) = Ok (AFlt f p) /\ gcem_pow v (AFlt f x) (AFlt f b) = Ok (AFlt f q) /\ gcem_pow v (AFlt f x) (AFlt f c) = Ok (AFlt f r) /\ finite p = true /\ finite q = true /\ finite r = true /\
  rel_err (B2R p * B2R q) (B2R r) ((325 + 15 * (Rabs (B2R a * ln (B2R x)) + Rabs (B2R b * ln (B2R x)))) * bpow radix2 (- prec f) + bpow radix2 (-51)).
Proof.
  intros v f x a b c Fx Fa Fb Fc C X L. destruct (uf_small f) as (U0 & U1). set (la := Rabs (B2R a * ln (B2R x))) in * . set (lb := Rabs (B2R b * ln (B2R x))) in * .
  assert (Pa : 0 <= la) by apply Rabs_pos. assert (Pb : 0 <= lb) by apply Rabs_pos.
  destruct (powL v f x a la Fx Fa X (Rle_refl _) ltac:(lra)) as (p & Ep & Fp & Rp). destruct (powL v f x b lb Fx Fb X (Rle_refl _) ltac:(lra)) as (q & Eq & Fq & Rq).
  assert (Lc : Rabs (B2R c * ln (B2R x)) <= la + lb). { rewrite C, Rmult_plus_distr_r. apply Rabs_triang. }
  destruct (powL v f x c (la + lb) Fx Fc X Lc L) as (r & Er & Fr & Rr). exists p, q, r. do 6 (split; [assumption|]). rewrite C, Rpower_plus in Rr. change (bpow radix2 (- prec f)) with (uf f).
  assert (q0 := bpow_gt_0 radix2 (-61)). assert (q1 : bpow radix2 (-61) <= / 1000000000000) by (cbn; lra). replace (bpow radix2 (-51)) with (1024 * bpow radix2 (-61)) by (cbn; lra). set (h := bpow radix2 (-61)) in * .
  assert (T : forall t, 0 <= t <= 50 -> 0 <= t * uf f <= 50 * / 16777216). { intros t Ht. split. apply Rmult_le_pos; lra. apply Rmult_le_compat; lra. } assert (Ta := T la ltac:(lra)). assert (Tb := T lb ltac:(lra)).
  replace ((108 + 7 * la) * uf f) with (108 * uf f + 7 * (la * uf f)) in Rp by ring. replace ((108 + 7 * lb) * uf f) with (108 * uf f + 7 * (lb * uf f)) in Rq by ring. replace ((108 + 7 * (la + lb)) * uf f) with (108 * uf f + 7 * (la * uf f) + 7 * (lb * uf f)) in Rr by ring. replace ((325 + 15 * (la + lb)) * uf f) with (325 * uf f + 15 * (la * uf f) + 15 * (lb * uf f)) by ring.
  assert (H := prod_rel _ _ _ _ _ (108 * uf f + 7 * (la * uf f) + 182 * h) (108 * uf f + 7 * (lb * uf f) + 182 * h) (108 * uf f + 7 * (la * uf f) + 7 * (lb * uf f) + 182 * h) ltac:(lra) ltac:(lra) ltac:(lra) Rp Rq Rr).
  unfold rel_err in * . apply Rle_trans with (1 := H). apply Rmult_le_compat_r. apply Rabs_pos. lra.
Qed.
Lemma pow_neg : forall v f (x a : flt f), finite x = true -> finite a = true -> / 2 <= B2R x -> Rabs (B2R a * ln (B2R x)) <= 50 ->
  exists p q : flt f, gcem_pow v (AFlt f x) (AFlt f a) = Ok (AFlt f p) /\ gcem_pow v (AFlt f x) (AFlt f (-. a)) = Ok (AFlt f q) /\ finite p = true /\ finite q = true /\
  abs_err (B2R p * B2R q) 1 ((217 + 15 * Rabs (B2R a * ln (B2R x))) * bpow radix2 (- prec f) + bpow radix2 (-52)).
Proof.
  intros v f x a Fx Fa X L. destruct (uf_small f) as (U0 & U1). destruct (neg_val a) as (Vn & Fn). rewrite Fa in Fn. set (la := Rabs (B2R a * ln (B2R x))) in * . assert (Pa : 0 <= la) by apply Rabs_pos.
  destruct (powL v f x a la Fx Fa X (Rle_refl _) L) as (p & Ep & Fp & Rp). destruct (powL v f x (-. a) la Fx Fn X) as (q & Eq & Fq & Rq). { rewrite Vn, Ropp_mult_distr_l_reverse, Rabs_Ropp. apply Rle_refl. } exact L.
  exists p, q. do 4 (split; [assumption|]). rewrite Vn, Rpower_Ropp in Rq. change (bpow radix2 (- prec f)) with (uf f).
  assert (q0 := bpow_gt_0 radix2 (-61)). assert (q1 : bpow radix2 (-61) <= / 1000000000000) by (cbn; lra). replace (bpow radix2 (-52)) with (512 * bpow radix2 (-61)) by (cbn; lra). set (h := bpow radix2 (-61)) in * .
  assert (Ta : 0 <= la * uf f <= 50 * / 16777216). { split. apply Rmult_le_pos; lra. apply Rmult_le_compat; lra. }
  replace ((108 + 7 * la) * uf f) with (108 * uf f + 7 * (la * uf f)) in Rp, Rq by ring. replace ((217 + 15 * la) * uf f) with (217 * uf f + 15 * (la * uf f)) by ring.
  set (d := 108 * uf f + 7 * (la * uf f) + 182 * h) in * . assert (D : 0 <= d <= / 1000) by (unfold d; lra).
  assert (H := prod_one _ _ (Rpower (B2R x) (B2R a)) d d (exp_pos _) D D Rp Rq). unfold abs_err in * . apply Rle_trans with (1 := H). assert (d * d <= d * (/ 10000)) by (apply Rmult_le_compat_l; unfold d; lra). unfold d in *; lra.
Qed.
