(** * exp of a sum, and tanh as the quotient of sinh and cosh *)
From Verif Require Import Base ModelBasic ModelInt ModelElem ModelSpecial ModelApi FltLemmas Spec SpecGamma IntProofs BasicProofs ConvLemmas MiscProofs ExpAcc.
From Coq Require Import Lra Psatz.
From Coquelicot Require Import Coquelicot.
From Verif Require Import Base ModelBasic FPErr LogApi TanhAcc PowReal InvTrig TrigApi SinAcc SinhAcc InvHyp SqrtSimp InvSqrtAcc GammaApi BetaApi TrigWide RoundTrip RoundTrip2 RoundTrip3 ExpDist Identities.
From Verif Require Import Base ModelBasic ModelInt ModelElem ModelSpecial ModelApi TotalProofs.
From Interval Require Import Tactic.
Open Scope R_scope.

Lemma prod_rel a b c A B d e g : 0 <= d <= / 1000 -> 0 <= e <= / 1000 -> 0 <= g <= / 1000 -> rel_err a A d -> rel_err b B e -> rel_err c (A * B) g -> rel_err (a * b) c ((d + e + g) * (10025 / 10000)).
Proof.
  intros D E G Ra Rb Rc. unfold rel_err in * .
  assert (H : Rabs (a * b - A * B) <= (d + e + d * e) * Rabs (A * B)).
  { replace (a * b - A * B) with ((a - A) * B + A * (b - B) + (a - A) * (b - B)) by ring. eapply Rle_trans. apply Rabs_triang. eapply Rle_trans. apply Rplus_le_compat_r, Rabs_triang. rewrite !Rabs_mult.
    assert (P := Rabs_pos A). assert (Q := Rabs_pos B). assert (P1 := Rabs_pos (a - A)). assert (Q1 := Rabs_pos (b - B)).
    assert (Rabs (a - A) * Rabs B <= d * Rabs A * Rabs B) by (apply Rmult_le_compat_r; lra). assert (Rabs A * Rabs (b - B) <= Rabs A * (e * Rabs B)) by (apply Rmult_le_compat_l; lra). assert (Rabs (a - A) * Rabs (b - B) <= d * Rabs A * (e * Rabs B)) by (apply Rmult_le_compat; lra). lra. }
  assert (de : d * e <= d * / 1000) by (apply Rmult_le_compat_l; lra). assert (N := Rabs_pos (A * B)). set (n := Rabs (A * B)) in * .
  assert (T : Rabs (a * b - c) <= (d + e + g) * (1001 / 1000) * n). { replace (a * b - c) with ((a * b - A * B) - (c - A * B)) by ring. eapply Rle_trans. apply Rabs_triang. rewrite Rabs_Ropp. apply Rle_trans with ((d + e + d * e) * n + g * n). lra. rewrite <- Rmult_plus_distr_r. apply Rmult_le_compat_r; lra. }
  assert (C : 999 / 1000 * n <= Rabs c). { assert (K : n <= Rabs c + Rabs (c - A * B)). { unfold n. replace (A * B) with (c - (c - A * B)) at 1 by ring. eapply Rle_trans. apply Rabs_triang. rewrite Rabs_Ropp. lra. } assert (g * n <= / 1000 * n) by (apply Rmult_le_compat_r; lra). lra. }
  apply Rle_trans with (1 := T). apply Rle_trans with ((d + e + g) * (10025 / 10000) * (999 / 1000 * n)); [|apply Rmult_le_compat_l; lra]. assert (0 <= (d + e + g) * n) by (apply Rmult_le_pos; lra). lra.
Qed.
Lemma exp_sum_small : forall v f (x y z : flt f), finite x = true -> finite y = true -> finite z = true -> B2R z = B2R x + B2R y -> Rabs (B2R x) < 2 -> Rabs (B2R y) < 2 -> Rabs (B2R z) < 2 ->
  exists a b c : flt f, gcem_exp v (AFlt f x) = Ok a /\ gcem_exp v (AFlt f y) = Ok b /\ gcem_exp v (AFlt f z) = Ok c /\ finite a = true /\ finite b = true /\ finite c = true /\
  rel_err (B2R a * B2R b) (B2R c) (319 * bpow radix2 (- prec f) + bpow radix2 (-53)).
Proof.
  intros v f x y z Fx Fy Fz Z X Y Z2. destruct (uf_small f) as (U0 & U1).
  assert (K : forall t : flt f, finite t = true -> Rabs (B2R t) < 2 -> exists a : flt f, gcem_exp v (AFlt f t) = Ok a /\ finite a = true /\ rel_err (B2R a) (exp (B2R t)) (106 * uf f + bpow radix2 (-55))) by (intros t Ft Ht; exact (api_exp_small v f t Ft Ht)).
  destruct (K x Fx X) as (a & Ea & Fa & Ra). destruct (K y Fy Y) as (b & Eb & Fb & Rb). destruct (K z Fz Z2) as (c & Ec & Fc & Rc). exists a, b, c. do 6 (split; [assumption|]). rewrite Z, exp_plus in Rc. change (bpow radix2 (- prec f)) with (uf f).
  assert (q0 := bpow_gt_0 radix2 (-55)). assert (q1 : bpow radix2 (-55) <= / 1000000000) by (cbn; lra). replace (bpow radix2 (-53)) with (4 * bpow radix2 (-55)) by (cbn; lra). set (q := bpow radix2 (-55)) in * .
  assert (H := prod_rel _ _ _ _ _ (106 * uf f + q) (106 * uf f + q) (106 * uf f + q) ltac:(lra) ltac:(lra) ltac:(lra) Ra Rb Rc). unfold rel_err in * . apply Rle_trans with (1 := H). apply Rmult_le_compat_r. apply Rabs_pos. lra.
Qed.
Lemma exp_sum_far : forall v f (x y z : flt f), finite x = true -> finite y = true -> finite z = true -> B2R z = B2R x + B2R y -> 2 <= B2R x -> 2 <= B2R y -> B2R z <= 10000 -> exp (B2R z + 2) <= bpow radix2 (emax f - 9) ->
  exists a b c : flt f, gcem_exp v (AFlt f x) = Ok a /\ gcem_exp v (AFlt f y) = Ok b /\ gcem_exp v (AFlt f z) = Ok c /\ finite a = true /\ finite b = true /\ finite c = true /\
  rel_err (B2R a * B2R b) (B2R c) (31 * bpow radix2 (- prec f) + bpow radix2 (-52) + (B2R z + 5) * bpow radix2 (-59)).
Proof.
  intros v f x y z Fx Fy Fz Z X Y Z2 E. destruct (uf_small f) as (U0 & U1).
  assert (K : forall t : flt f, finite t = true -> 2 <= B2R t -> B2R t <= B2R z -> exists a : flt f, gcem_exp v (AFlt f t) = Ok a /\ finite a = true /\ rel_err (B2R a) (exp (B2R t)) (10 * uf f + bpow radix2 (-54) + (B2R t + 3) * bpow radix2 (-61))).
  { intros t Ft Ht Hz. apply (api_exp_pos v f t Ft Ht). apply Rle_trans with (2 := E). apply exp_le. lra. }
  destruct (K x Fx X ltac:(lra)) as (a & Ea & Fa & Ra). destruct (K y Fy Y ltac:(lra)) as (b & Eb & Fb & Rb). destruct (K z Fz ltac:(lra) ltac:(lra)) as (c & Ec & Fc & Rc). exists a, b, c. do 6 (split; [assumption|]). rewrite Z in Z2, Rc |- * . rewrite exp_plus in Rc. change (bpow radix2 (- prec f)) with (uf f).
  assert (q0 := bpow_gt_0 radix2 (-61)). assert (q1 : bpow radix2 (-61) <= / 1000000000000) by (cbn; lra). replace (bpow radix2 (-54)) with (128 * bpow radix2 (-61)) in * by (cbn; lra). replace (bpow radix2 (-52)) with (512 * bpow radix2 (-61)) by (cbn; lra). replace (bpow radix2 (-59)) with (4 * bpow radix2 (-61)) by (cbn; lra). set (q := bpow radix2 (-61)) in * .
  assert (T : forall t, 0 <= t <= 10000 -> 0 <= t * q <= 10000 * / 1000000000000). { intros t Ht. split. apply Rmult_le_pos; lra. apply Rmult_le_compat; lra. }
  assert (T1 := T (B2R x) ltac:(lra)). assert (T2 := T (B2R y) ltac:(lra)). rewrite !Rmult_plus_distr_r in * .
  assert (H := prod_rel _ _ _ _ _ (10 * uf f + 128 * q + (B2R x * q + 3 * q)) (10 * uf f + 128 * q + (B2R y * q + 3 * q)) (10 * uf f + 128 * q + (B2R x * q + B2R y * q + 3 * q)) ltac:(lra) ltac:(lra) ltac:(lra) Ra Rb Rc). unfold rel_err in * . apply Rle_trans with (1 := H). apply Rmult_le_compat_r. apply Rabs_pos. lra.
Qed.
Lemma tanh_cosh_sinh : forall v f (x : flt f), finite x = true -> 2 <= Rabs (B2R x) <= 25 ->
  exists t c s : flt f, gcem_tanh v (AFlt f x) = Ok t /\ gcem_cosh v (AFlt f x) = Ok c /\ gcem_sinh v (AFlt f x) = Ok s /\ finite t = true /\ finite c = true /\ finite s = true /\
  rel_err (B2R t * B2R c) (B2R s) (46 * bpow radix2 (- prec f) + bpow radix2 (-51)).
Proof.
  intros v f x Fx X. destruct (uf_small f) as (U0 & U1).
  assert (E : exp (Rabs (B2R x) + 2) <= bpow radix2 (emax f - 9)). { apply Rle_trans with (exp 27). apply exp_le. lra. apply Rle_trans with (bpow radix2 40). cbn. interval. apply bpow_le. destruct f; cbn; lia. }
  assert (ET : exists w : flt f, gcem_tanh v (AFlt f x) = Ok w /\ finite w = true /\ rel_err (B2R w) (tanh (B2R x)) (16 * uf f + bpow radix2 (-54))). { apply (api_tanh25 v f x Fx). split; [|lra]. apply Rle_trans with (bpow radix2 0). apply bpow_le. destruct f; cbn; lia. cbn; lra. }
  assert (EC : exists w : flt f, gcem_cosh v (AFlt f x) = Ok w /\ finite w = true /\ rel_err (B2R w) (cosh (B2R x)) ((if Rlt_dec (Rabs (B2R x)) 2 then 108 else 14) * uf f + bpow radix2 (-53) + (Rabs (B2R x) + 3) * bpow radix2 (-60))) by exact (api_cosh v f x Fx E).
  assert (ES : exists w : flt f, gcem_sinh v (AFlt f x) = Ok w /\ finite w = true /\ rel_err (B2R w) (sinh (B2R x)) (15 * uf f + bpow radix2 (-53) + (Rabs (B2R x) + 3) * bpow radix2 (-60))) by exact (api_sinh_far v f x Fx (proj1 X) E).
  destruct ET as (t & Et & Ft & Rt). destruct EC as (c & Ec & Fc & Rc). destruct ES as (s & Es & Fs & Rs). destruct (Rlt_dec (Rabs (B2R x)) 2) as [L|_]; [lra|]. exists t, c, s. do 6 (split; [assumption|]). change (bpow radix2 (- prec f)) with (uf f).
  assert (Q : tanh (B2R x) * cosh (B2R x) = sinh (B2R x)). { unfold tanh. field. unfold cosh. assert (P := exp_pos (B2R x)). assert (P2 := exp_pos (- B2R x)). lra. } rewrite <- Q in Rs.
  assert (q0 := bpow_gt_0 radix2 (-60)). assert (q1 : bpow radix2 (-60) <= / 100000000000) by (cbn; lra). replace (bpow radix2 (-54)) with (64 * bpow radix2 (-60)) in * by (cbn; lra). replace (bpow radix2 (-53)) with (128 * bpow radix2 (-60)) in * by (cbn; lra). replace (bpow radix2 (-51)) with (512 * bpow radix2 (-60)) by (cbn; lra). set (q := bpow radix2 (-60)) in * .
  assert (0 <= Rabs (B2R x) * q <= 25 * q) by (split; [apply Rmult_le_pos|apply Rmult_le_compat_r]; lra). rewrite Rmult_plus_distr_r in * .
  assert (H1 := prod_rel _ _ _ _ _ (16 * uf f + 64 * q) (14 * uf f + 128 * q + (Rabs (B2R x) * q + 3 * q)) (15 * uf f + 128 * q + (Rabs (B2R x) * q + 3 * q)) ltac:(lra) ltac:(lra) ltac:(lra) Rt Rc Rs). unfold rel_err in * . apply Rle_trans with (1 := H1). apply Rmult_le_compat_r. apply Rabs_pos. lra.
Qed.
