(** * Identities between asin and acos, sqrt and pow, exp and itself *)
From Verif Require Import Base ModelBasic ModelInt ModelElem ModelSpecial ModelApi FltLemmas Spec SpecGamma IntProofs BasicProofs ConvLemmas MiscProofs ExpAcc.
From Coq Require Import Lra Psatz.
From Coquelicot Require Import Coquelicot.
From Verif Require Import Base ModelBasic FPErr LogApi TanhAcc PowReal InvTrig TrigApi SinAcc SinhAcc InvHyp SqrtSimp InvSqrtAcc GammaApi BetaApi TrigWide RoundTrip RoundTrip2 RoundTrip3 ExpDist.
From Verif Require Import Base ModelBasic ModelInt ModelElem ModelSpecial ModelApi TotalProofs.
From Interval Require Import Tactic.
Open Scope R_scope.

(** ** asin + acos *)
Lemma asin_plus_acos : forall v f (x : flt f), finite x = true -> bpow radix2 (3 - emax f) <= Rabs (B2R x) < 1 ->
  exists s c : flt f, gcem_asin v (AFlt f x) = Ok s /\ gcem_acos v (AFlt f x) = Ok c /\ finite s = true /\ finite c = true /\
  abs_err (B2R s + B2R c) (PI / 2) ((40 + 16 / 10 / sqrt (1 - B2R x * B2R x)) * bpow radix2 (- prec f) + bpow radix2 (-52)).
Proof.
  intros v f x Fx X.
  assert (ES : exists s : flt f, gcem_asin v (AFlt f x) = Ok s /\ finite s = true /\ rel_err (B2R s) (asin (B2R x)) ((12 + 6 / 10 / sqrt (1 - B2R x * B2R x)) * bpow radix2 (- prec f) + bpow radix2 (-54))) by exact (api_asin v f x Fx X).
  assert (EC : exists c : flt f, gcem_acos v (AFlt f x) = Ok c /\ finite c = true /\ Rabs (B2R c - acos (B2R x)) <= (21 + 6 / 10 / sqrt (1 - B2R x * B2R x)) * bpow radix2 (- prec f) + bpow radix2 (-53)) by exact (api_acos_abs v f x Fx (proj2 X)).
  destruct ES as (s & Es & Fs & Rs). destruct EC as (c & Ec & Fc & Rc). exists s, c. split. exact Es. split. exact Ec. split. exact Fs. split. exact Fc.
  assert (X1 : -1 < B2R x < 1) by (destruct X as (_ & X); apply Rabs_lt_inv in X; lra). rewrite acos_asin in Rc by lra. unfold abs_err, rel_err in * . change (bpow radix2 (- prec f)) with (uf f) in * . destruct (uf_small f) as (U0 & U1).
  assert (b := bpow_gt_0 radix2 (-54)). replace (bpow radix2 (-53)) with (2 * bpow radix2 (-54)) in * by (cbn; lra). replace (bpow radix2 (-52)) with (4 * bpow radix2 (-54)) in * by (cbn; lra). set (q := bpow radix2 (-54)) in * .
  assert (R0 : 0 < sqrt (1 - B2R x * B2R x)) by (apply sqrt_lt_R0; nra). unfold Rdiv in * . assert (I0 := Rinv_0_lt_compat _ R0). set (i := / sqrt (1 - B2R x * B2R x)) in * .
  assert (A : Rabs (asin (B2R x)) <= 15708 / 10000). { assert (B := asin_bound (B2R x)). assert (PI / 2 <= 15708 / 10000) by interval. apply Rabs_le. lra. }
  assert (iu : 0 <= i * uf f) by (apply Rmult_le_pos; lra). assert ((12 + 6 * / 10 * i) * uf f = 12 * uf f + 6 / 10 * (i * uf f)) by field. assert (Rs2 : Rabs (B2R s - asin (B2R x)) <= ((12 + 6 * / 10 * i) * uf f + q) * (15708 / 10000)). { apply Rle_trans with (1 := Rs). apply Rmult_le_compat_l; lra. }
  apply Rabs_le_inv in Rs2. apply Rabs_le_inv in Rc. apply Rabs_le. lra.
Qed.
(** ** exp x * exp (- x) *)
Lemma prod_one a b A d e : 0 < A -> 0 <= d <= / 1000 -> 0 <= e <= / 1000 -> rel_err a A d -> rel_err b (/ A) e -> abs_err (a * b) 1 (d + e + d * e).
Proof.
  intros PA D E Ra Rb. unfold rel_err, abs_err in * . assert (PI := Rinv_0_lt_compat _ PA). rewrite (Rabs_pos_eq A) in Ra by lra. rewrite (Rabs_pos_eq (/ A)) in Rb by lra.
  set (p := (a - A) / A). set (r := (b - / A) * A). assert (Hp : Rabs p <= d). { unfold p, Rdiv. rewrite Rabs_mult, (Rabs_pos_eq (/ A)) by lra. apply Rmult_le_reg_r with A. lra. rewrite Rmult_assoc, Rinv_l by lra. lra. }
  assert (Hr : Rabs r <= e). { unfold r. rewrite Rabs_mult, (Rabs_pos_eq A) by lra. apply Rmult_le_reg_r with (/ A). lra. rewrite Rmult_assoc, Rinv_r by lra. lra. }
  replace (a * b - 1) with (p + r + p * r) by (unfold p, r; field; lra). eapply Rle_trans. apply Rabs_triang. eapply Rle_trans. apply Rplus_le_compat_r, Rabs_triang. rewrite Rabs_mult. assert (Rabs p * Rabs r <= d * e) by (apply Rmult_le_compat; auto; apply Rabs_pos). lra.
Qed.
Lemma exp_recip_small : forall v f (x : flt f), finite x = true -> Rabs (B2R x) < 2 ->
  exists a b : flt f, gcem_exp v (AFlt f x) = Ok a /\ gcem_exp v (AFlt f (-. x)) = Ok b /\ finite a = true /\ finite b = true /\
  abs_err (B2R a * B2R b) 1 (213 * bpow radix2 (- prec f) + bpow radix2 (-53)).
Proof.
  intros v f x Fx X. destruct (neg_val x) as (Vn & Fn). rewrite Fx in Fn. destruct (uf_small f) as (U0 & U1).
  assert (EA : exists a : flt f, gcem_exp v (AFlt f x) = Ok a /\ finite a = true /\ rel_err (B2R a) (exp (B2R x)) (106 * uf f + bpow radix2 (-55))) by exact (api_exp_small v f x Fx X).
  assert (EB : exists a : flt f, gcem_exp v (AFlt f (-. x)) = Ok a /\ finite a = true /\ rel_err (B2R a) (exp (B2R (-. x))) (106 * uf f + bpow radix2 (-55))) by (apply (api_exp_small v f (-. x) Fn); rewrite Vn, Rabs_Ropp; exact X).
  destruct EA as (a & Ea & Fa & Ra). destruct EB as (b & Eb & Fb & Rb). rewrite Vn, exp_Ropp in Rb. exists a, b. split. exact Ea. split. exact Eb. split. exact Fa. split. exact Fb. change (bpow radix2 (- prec f)) with (uf f).
  assert (q0 := bpow_gt_0 radix2 (-55)). assert (q1 : bpow radix2 (-55) <= / 1000000000) by (cbn; lra). replace (bpow radix2 (-53)) with (4 * bpow radix2 (-55)) by (cbn; lra). set (q := bpow radix2 (-55)) in * .
  assert (H := prod_one _ _ _ (106 * uf f + q) (106 * uf f + q) (exp_pos (B2R x)) ltac:(lra) ltac:(lra) Ra Rb). unfold abs_err in * . apply Rle_trans with (1 := H). assert ((106 * uf f + q) * (106 * uf f + q) <= (106 * uf f + q) * / 1000) by (apply Rmult_le_compat_l; lra). lra.
Qed.
Lemma exp_recip_far : forall v f (x : flt f), finite x = true -> 2 <= B2R x <= 10000 -> exp (B2R x + 2) <= bpow radix2 (emax f - 9) ->
  exists a b : flt f, gcem_exp v (AFlt f x) = Ok a /\ gcem_exp v (AFlt f (-. x)) = Ok b /\ finite a = true /\ finite b = true /\
  abs_err (B2R a * B2R b) 1 (119 * bpow radix2 (- prec f) + bpow radix2 (-52) + (B2R x + 3) * bpow radix2 (-59)).
Proof.
  intros v f x Fx X Xm. destruct (neg_val x) as (Vn & Fn). rewrite Fx in Fn. destruct (uf_small f) as (U0 & U1).
  assert (EA : exists a : flt f, gcem_exp v (AFlt f x) = Ok a /\ finite a = true /\ rel_err (B2R a) (exp (B2R x)) (10 * uf f + bpow radix2 (-54) + (B2R x + 3) * bpow radix2 (-61))) by exact (api_exp_pos v f x Fx (proj1 X) Xm).
  assert (EB : exists a : flt f, gcem_exp v (AFlt f (-. x)) = Ok a /\ finite a = true /\ rel_err (B2R a) (exp (B2R (-. x))) (108 * uf f + bpow radix2 (-54) + (3 - B2R (-. x)) * bpow radix2 (-61))). { apply (api_exp_neg v f (-. x) Fn); rewrite Vn. lra. replace (2 - - B2R x) with (B2R x + 2) by ring. exact Xm. }
  destruct EA as (a & Ea & Fa & Ra). destruct EB as (b & Eb & Fb & Rb). rewrite Vn, exp_Ropp in Rb. replace (3 - - B2R x) with (B2R x + 3) in Rb by ring. exists a, b. split. exact Ea. split. exact Eb. split. exact Fa. split. exact Fb. change (bpow radix2 (- prec f)) with (uf f).
  assert (q0 := bpow_gt_0 radix2 (-61)). assert (q1 : bpow radix2 (-61) <= / 1000000000000) by (cbn; lra). replace (bpow radix2 (-54)) with (128 * bpow radix2 (-61)) in * by (cbn; lra). replace (bpow radix2 (-52)) with (512 * bpow radix2 (-61)) by (cbn; lra). replace (bpow radix2 (-59)) with (4 * bpow radix2 (-61)) by (cbn; lra). set (q := bpow radix2 (-61)) in * .
  replace ((B2R x + 3) * (4 * q)) with (4 * ((B2R x + 3) * q)) by ring. assert (t0 : 0 <= (B2R x + 3) * q) by (apply Rmult_le_pos; lra). assert (t1 : (B2R x + 3) * q <= 10003 * / 1000000000000) by (apply Rmult_le_compat; lra). set (t := (B2R x + 3) * q) in * .
  assert (H := prod_one _ _ _ (10 * uf f + 128 * q + t) (108 * uf f + 128 * q + t) (exp_pos (B2R x)) ltac:(lra) ltac:(lra) Ra Rb). unfold abs_err in * . apply Rle_trans with (1 := H). assert ((10 * uf f + 128 * q + t) * (108 * uf f + 128 * q + t) <= / 1000 * (108 * uf f + 128 * q + t)) by (apply Rmult_le_compat_r; lra). lra.
Qed.
(** ** pow (x, 1/2) *)
Lemma powf v f (x y : flt f) : finite x = true -> finite y = true -> / 2 <= B2R x -> exp (Rabs (B2R y * ln (B2R x)) + 3) <= bpow radix2 (emax f - 9) ->
  exists w : flt f, gcem_pow v (AFlt f x) (AFlt f y) = Ok (AFlt f w) /\ finite w = true /\
    rel_err (B2R w) (Rpower (B2R x) (B2R y)) ((108 + 7 * Rabs (B2R y * ln (B2R x))) * uf f + bpow radix2 (-54) + (Rabs (B2R y * ln (B2R x)) + 4) * bpow radix2 (-61)).
Proof. intros Fx Fy X E. destruct f; destruct (api_pow_real v _ _ x y Fx Fy X E) as (w & Ew & Fw & Rw & _); exists w; split; auto. Qed.
Lemma pow_half_sqrt : forall v f (x : flt f), finite x = true -> / 2 <= B2R x <= 100 ->
  exists p s : flt f, gcem_pow v (AFlt f x) (AFlt f (half f)) = Ok (AFlt f p) /\ gcem_sqrt (AFlt f x) = Ok s /\ finite p = true /\ finite s = true /\
  rel_err (B2R p) (B2R s) (127 * bpow radix2 (- prec f) + bpow radix2 (-53)).
Proof.
  intros v f x Fx X. destruct (half_spec f) as (V & F). destruct (uf_small f) as (U0 & U1).
  assert (L : Rabs (/ 2 * ln (B2R x)) <= 2303 / 1000). { assert (ln (/ 2) <= ln (B2R x)) by (apply ln_le; lra). assert (ln (B2R x) <= ln 100) by (apply ln_le; lra). assert (-1 <= ln (/ 2)) by interval. assert (ln 100 <= 4606 / 1000) by interval. apply Rabs_le. lra. }
  destruct (powf v f x (half f) Fx F (proj1 X)) as (p & Ep & Fp & Rp). { rewrite V. apply Rle_trans with (exp 6). apply exp_le. lra. apply Rle_trans with (bpow radix2 10). cbn. interval. apply bpow_le. destruct f; cbn; lia. }
  assert (ES : exists s : flt f, gcem_sqrt (AFlt f x) = Ok s /\ finite s = true /\ rel_err (B2R s) (sqrt (B2R x)) (17 / 10 * uf f)). { apply (api_sqrt_small f x Fx). apply Rle_trans with (bpow radix2 (-1)). apply bpow_le. destruct f; cbn; lia. cbn; lra. apply Rle_trans with (bpow radix2 (-1)). apply bpow_le. lia. cbn; lra. lra. }
  destruct ES as (s & Es & Fs & Rs). exists p, s. split. exact Ep. split. exact Es. split. exact Fp. split. exact Fs. rewrite V in Rp. rewrite Rpower_sqrt in Rp by lra. change (bpow radix2 (- prec f)) with (uf f).
  assert (S0 : 0 < sqrt (B2R x)) by (apply sqrt_lt_R0; lra). unfold rel_err in * . rewrite (Rabs_pos_eq (sqrt _)) in Rp, Rs by lra. set (S := sqrt (B2R x)) in * . set (l := Rabs (/ 2 * ln (B2R x))) in * .
  assert (q0 := bpow_gt_0 radix2 (-61)). replace (bpow radix2 (-54)) with (128 * bpow radix2 (-61)) in * by (cbn; lra). replace (bpow radix2 (-53)) with (256 * bpow radix2 (-61)) by (cbn; lra). set (q := bpow radix2 (-61)) in * .
  assert (l1 : (108 + 7 * l) * uf f <= (1242 / 10) * uf f) by (apply Rmult_le_compat_r; lra). assert (l2 : (l + 4) * q <= 7 * q) by (apply Rmult_le_compat_r; lra).
  assert (Rp2 : Rabs (B2R p - S) <= (1242 / 10 * uf f + 135 * q) * S). { apply Rle_trans with (1 := Rp). apply Rmult_le_compat_r; lra. }
  assert (us : 0 <= uf f * S) by (apply Rmult_le_pos; lra). assert (qs : 0 <= q * S) by (apply Rmult_le_pos; lra). assert (us2 : uf f * S <= / 16777216 * S) by (apply Rmult_le_compat_r; lra).
  apply Rabs_le_inv in Rs. assert (s1 : 999 / 1000 * S <= B2R s) by lra. rewrite (Rabs_pos_eq (B2R s)) by lra. apply Rle_trans with ((127 * uf f + 256 * q) * (999 / 1000 * S)); [|apply Rmult_le_compat_l; lra]. apply Rabs_le_inv in Rp2. apply Rabs_le. lra.
Qed.
