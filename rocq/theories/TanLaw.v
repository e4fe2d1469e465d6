(** * tan as the quotient of sin and cos *)
From Verif Require Import Base ModelBasic ModelInt ModelElem ModelSpecial ModelApi FltLemmas Spec IntProofs BasicProofs ConvLemmas MiscProofs RangeProofs ExpAcc.
From Coq Require Import Lra Psatz.
From Verif Require Import Base ModelBasic FPErr TrigApi SinAcc LogExpLaws TrigWide TrigLarge RoundTrip2.
From Verif Require Import Base ModelBasic ModelInt ModelElem ModelSpecial ModelApi TotalProofs.
From Interval Require Import Tactic.
Open Scope R_scope.

Lemma tan_law_real t c s T C S dt dc ds M : C <> 0 -> T * C = S -> Rabs S <= 1 -> Rabs T <= M -> 0 <= dt <= / 1000 -> Rabs (t - T) <= dt * Rabs T -> Rabs (c - C) <= dc -> Rabs (s - S) <= ds * Rabs S -> 0 <= ds ->
  Rabs (t * c - s) <= dt + 1001 / 1000 * M * dc + ds.
Proof.
  intros C0 E S1 TM D Ht Hc Hs D2. assert (t1 : Rabs t <= 1001 / 1000 * M). { replace t with ((t - T) + T) by ring. eapply Rle_trans. apply Rabs_triang. assert (P := Rabs_pos T). nra. }
  replace (t * c - s) with ((t - T) * C + t * (c - C) - (s - S)) by (rewrite <- E; ring).
  assert (A1 : Rabs ((t - T) * C) <= dt). { rewrite Rabs_mult. apply Rle_trans with (dt * Rabs T * Rabs C). apply Rmult_le_compat_r; auto. apply Rabs_pos. rewrite Rmult_assoc, <- Rabs_mult, E. nra. }
  assert (A2 : Rabs (t * (c - C)) <= 1001 / 1000 * M * dc). { rewrite Rabs_mult. apply Rmult_le_compat; auto; apply Rabs_pos. }
  assert (A3 : Rabs (s - S) <= ds) by nra. apply Rabs_le_inv in A1. apply Rabs_le_inv in A2. apply Rabs_le_inv in A3. apply Rabs_le. lra.
Qed.
Lemma tan_cos_sin : forall f (x : flt f), finite x = true -> bpow radix2 (3 - emax f) <= Rabs (B2R x) <= 1 ->
  exists t c s : flt f, gcem_tan (AFlt f x) = Ok t /\ gcem_cos (AFlt f x) = Ok c /\ gcem_sin (AFlt f x) = Ok s /\ finite t = true /\ finite c = true /\ finite s = true /\
  abs_err (B2R t * B2R c) (B2R s) (32 * bpow radix2 (- prec f) + bpow radix2 (-76)).
Proof.
  intros f x Fx X. destruct (uf_sm f) as (U0 & U1). assert (XE : bpow radix2 (2 - emax f) <= bpow radix2 (3 - emax f)) by (apply bpow_le; lia).
  assert (ET : exists w : flt f, gcem_tan (AFlt f x) = Ok w /\ finite w = true /\ rel_err (B2R w) (tan (B2R x)) (4 * uf f + bpow radix2 (-80))) by (apply (api_tan f x Fx); lra).
  assert (EC : exists w : flt f, gcem_cos (AFlt f x) = Ok w /\ finite w = true /\ abs_err (B2R w) (cos (B2R x)) (11 * uf f + bpow radix2 (-79))) by (apply (api_cos f x Fx); lra).
  assert (ES : exists w : flt f, gcem_sin (AFlt f x) = Ok w /\ finite w = true /\ rel_err (B2R w) (sin (B2R x)) (10 * uf f + bpow radix2 (-79))) by (apply (api_sin f x Fx); lra).
  destruct ET as (t & Et & Ft & Rt). destruct EC as (c & Ec & Fc & Rc). destruct ES as (s & Es & Fs & Rs). exists t, c, s. do 6 (split; [assumption|]). change (bpow radix2 (- prec f)) with (uf f). unfold rel_err, abs_err in * .
  assert (XI := Rabs_le_inv _ _ (proj2 X)). set (y := B2R x) in * . clearbody y. assert (C0 : 54 / 100 <= cos y) by interval. assert (TM : Rabs (tan y) <= 156 / 100) by (apply Rabs_le; split; interval).
  assert (E : tan y * cos y = sin y) by (unfold tan; field; lra). assert (S1 : Rabs (sin y) <= 1) by (apply Rabs_le, SIN_bound).
  assert (b := bpow_gt_0 radix2 (-80)). assert (b1 : bpow radix2 (-80) <= / 1000000) by (cbn; lra). replace (bpow radix2 (-79)) with (2 * bpow radix2 (-80)) in * by (cbn; lra). replace (bpow radix2 (-76)) with (16 * bpow radix2 (-80)) by (cbn; lra). set (q := bpow radix2 (-80)) in * .
  assert (H := tan_law_real (B2R t) (B2R c) (B2R s) (tan y) (cos y) (sin y) (4 * uf f + q) (11 * uf f + 2 * q) (10 * uf f + 2 * q) (156 / 100) ltac:(lra) E S1 TM ltac:(lra) Rt Rc Rs ltac:(lra)). lra.
Qed.
Lemma tan_cos_sin_wide : forall f (x : flt f), finite x = true -> bpow radix2 (3 - emax f) <= Rabs (B2R x) <= 3 / 2 ->
  exists t c s : flt f, gcem_tan (AFlt f x) = Ok t /\ gcem_cos (AFlt f x) = Ok c /\ gcem_sin (AFlt f x) = Ok s /\ finite t = true /\ finite c = true /\ finite s = true /\
  abs_err (B2R t * B2R c) (B2R s) (203 * bpow radix2 (- prec f) + bpow radix2 (-74)).
Proof.
  intros f x Fx X. destruct (uf_sm f) as (U0 & U1). assert (XE : bpow radix2 (2 - emax f) <= bpow radix2 (3 - emax f)) by (apply bpow_le; lia).
  assert (ET : exists w : flt f, gcem_tan (AFlt f x) = Ok w /\ finite w = true /\ rel_err (B2R w) (tan (B2R x)) (36 * uf f + bpow radix2 (-80))) by (apply (api_tan2 f x Fx); lra).
  assert (EC : exists w : flt f, gcem_cos (AFlt f x) = Ok w /\ finite w = true /\ abs_err (B2R w) (cos (B2R x)) (11 * uf f + bpow radix2 (-79))) by (apply (api_cos f x Fx); lra).
  assert (ES : exists w : flt f, gcem_sin (AFlt f x) = Ok w /\ finite w = true /\ rel_err (B2R w) (sin (B2R x)) (10 * uf f + bpow radix2 (-79))) by (apply (api_sin f x Fx); lra).
  destruct ET as (t & Et & Ft & Rt). destruct EC as (c & Ec & Fc & Rc). destruct ES as (s & Es & Fs & Rs). exists t, c, s. do 6 (split; [assumption|]). change (bpow radix2 (- prec f)) with (uf f). unfold rel_err, abs_err in * .
  assert (XI := Rabs_le_inv _ _ (proj2 X)). set (y := B2R x) in * . clearbody y. assert (C0 : 7 / 100 <= cos y) by interval. assert (TM : Rabs (tan y) <= 142 / 10) by (apply Rabs_le; split; interval).
  assert (E : tan y * cos y = sin y) by (unfold tan; field; lra). assert (S1 : Rabs (sin y) <= 1) by (apply Rabs_le, SIN_bound).
  assert (b := bpow_gt_0 radix2 (-80)). assert (b1 : bpow radix2 (-80) <= / 1000000) by (cbn; lra). replace (bpow radix2 (-79)) with (2 * bpow radix2 (-80)) in * by (cbn; lra). replace (bpow radix2 (-74)) with (64 * bpow radix2 (-80)) by (cbn; lra). set (q := bpow radix2 (-80)) in * .
  assert (H := tan_law_real (B2R t) (B2R c) (B2R s) (tan y) (cos y) (sin y) (36 * uf f + q) (11 * uf f + 2 * q) (10 * uf f + 2 * q) (142 / 10) ltac:(lra) E S1 TM ltac:(lra) Rt Rc Rs ltac:(lra)). lra.
Qed.
