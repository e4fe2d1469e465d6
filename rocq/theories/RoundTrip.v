(** * Round trips and functional equations *)
From Verif Require Import Base ModelBasic ModelInt ModelElem ModelSpecial ModelApi FltLemmas Spec SpecErf SpecGamma IntProofs BasicProofs ConvLemmas MiscProofs ExpAcc.
From Coq Require Import Lra Psatz.
From Coquelicot Require Import Coquelicot.
From Verif Require Import Base ModelBasic FPErr LogApi LogMore TanhAcc PowReal InvTrig TrigApi SinAcc ErfReal ErfApi ErfInvReal ErfInvAcc GammaInt GammaReal GammaApi TrigWide.
From Interval Require Import Tactic.
Open Scope R_scope.

Lemma exp_near1 d : Rabs d <= / 1000 -> Rabs (exp d - 1) <= 1002 / 1000 * Rabs d.
Proof.
  intros D. assert (D' := Rabs_le_inv _ _ D). assert (L := exp_ineq1_le d). assert (U : exp d <= / (1 - d)). { rewrite <- (Ropp_involutive d) at 1. rewrite exp_Ropp. apply Rinv_le_contravar. lra. assert (K := exp_ineq1_le (- d)). lra. }
  assert (E : / (1 - d) = 1 + d + d * (d / (1 - d))) by (field; lra). assert (Q : Rabs (d / (1 - d)) <= 2 / 1000). { unfold Rdiv. rewrite Rabs_mult, (Rabs_pos_eq (/ (1 - d))). apply Rle_trans with (/ 1000 * (1002 / 1000)). apply Rmult_le_compat; auto. apply Rabs_pos. left; apply Rinv_0_lt_compat; lra. rewrite <- (Rinv_involutive (1002 / 1000)) by lra. apply Rinv_le_contravar; lra. lra. left; apply Rinv_0_lt_compat; lra. }
  assert (QQ : Rabs (d * (d / (1 - d))) <= Rabs d * (2 / 1000)) by (rewrite Rabs_mult; apply Rmult_le_compat_l; [apply Rabs_pos|auto]). apply Rabs_le_inv in QQ. apply Rabs_le. destruct (Rle_or_lt 0 d); [rewrite Rabs_pos_eq in * by auto|rewrite (Rabs_left d) in * by auto]; lra.
Qed.
(** Composition of relative errors *)
Lemma rel_comp a b c e1 e2 : rel_err a b e1 -> rel_err b c e2 -> 0 <= e1 -> rel_err a c (e1 + e2 + e1 * e2).
Proof.
  unfold rel_err. intros H1 H2 E. replace (a - c) with ((a - b) + (b - c)) by ring. eapply Rle_trans. apply Rabs_triang. assert (Rabs b <= (1 + e2) * Rabs c). { replace b with ((b - c) + c) by ring. eapply Rle_trans. apply Rabs_triang. lra. }
  assert (e1 * Rabs b <= e1 * ((1 + e2) * Rabs c)) by (apply Rmult_le_compat_l; auto). lra.
Qed.
Lemma rel_exp w l e : Rabs (w - l) <= e -> e <= / 1000 -> rel_err (exp w) (exp l) (1002 / 1000 * e).
Proof.
  intros H E. unfold rel_err. replace (exp w - exp l) with ((exp (w - l) - 1) * exp l). 2: { rewrite Rmult_minus_distr_r, <- exp_plus. replace (w - l + l) with w by ring. ring. }
  rewrite Rabs_mult. apply Rmult_le_compat_r. apply Rabs_pos. eapply Rle_trans. apply exp_near1. lra. lra.
Qed.
Lemma ln_emax f x : 0 < x -> x <= bpow radix2 (emax f) -> ln x * uf f <= / 100000.
Proof.
  intros X L. assert (u0 := uf_pos f). assert (ln x <= IZR (emax f)). { apply Rle_trans with (ln (bpow radix2 (emax f))). destruct L as [L| ->]; [left; apply ln_increasing; auto|lra]. rewrite bpow_exp, ln_exp. assert (0 < IZR (emax f)) by (apply IZR_lt; destruct f; reflexivity). assert (ln (IZR radix2) < 7 / 10) by (change (IZR radix2) with 2; interval). assert (0 < ln (IZR radix2)) by (change (IZR radix2) with 2; interval). nra. }
  apply Rle_trans with (IZR (emax f) * uf f). apply Rmult_le_compat_r; lra. destruct f; unfold uf; cbn [emax prec]; [change (bpow radix2 (- (24))) with (/ 16777216)|change (bpow radix2 (- (53))) with (/ 9007199254740992)|change (bpow radix2 (- (64))) with (/ 18446744073709551616)]; lra.
Qed.
(** ** exp(log x) *)
Lemma log_f v f (x : flt f) : finite x = true -> / 2 <= B2R x -> exists w : flt f, gcem_log v (AFlt f x) = Ok w /\ finite w = true /\ rel_err (B2R w) (ln (B2R x)) (56 / 10 * uf f).
Proof. exact (api_log v f x). Qed.
Definition ex_c f (w : R) : R := if Rlt_dec w 2 then 106 * uf f + bpow radix2 (-55) else 10 * uf f + bpow radix2 (-54) + (w + 3) * bpow radix2 (-61).
Lemma exp_any v f (x : flt f) : finite x = true -> -2 < B2R x -> exp (B2R x + 2) <= bpow radix2 (emax f - 9) ->
  exists w : flt f, gcem_exp v (AFlt f x) = Ok w /\ finite w = true /\ rel_err (B2R w) (exp (B2R x)) (ex_c f (B2R x)).
Proof.
  intros Fx X B. unfold ex_c. destruct Rlt_dec as [L|L].
  - apply api_exp_small; auto. apply Rabs_lt. lra.
  - apply api_exp_pos; auto. lra.
Qed.
Lemma exp_log v f (x : flt f) : finite x = true -> / 2 <= B2R x <= bpow radix2 (emax f - 13) ->
  exists l e : flt f, gcem_log v (AFlt f x) = Ok l /\ gcem_exp v (AFlt f l) = Ok e /\ finite e = true /\
  rel_err (B2R e) (B2R x) (((if Rle_dec 8 (B2R x) then 11 else 107) + 58 / 10 * Rabs (ln (B2R x))) * bpow radix2 (- prec f) + bpow radix2 (-53) + Rabs (ln (B2R x)) * bpow radix2 (-60)).
Proof.
  intros Fx (X1 & X2). destruct (log_f v f x Fx X1) as (l & E & Fl & R). change (bpow radix2 (- prec f)) with (uf f) in * . assert (u0 := uf_small f). set (L := ln (B2R x)) in * .
  assert (X3 : B2R x <= bpow radix2 (emax f)) by (eapply Rle_trans; [exact X2|apply bpow_le; destruct f; discriminate]). assert (LU := ln_emax f (B2R x) ltac:(lra) X3). fold L in LU.
  assert (L0 : - (7 / 10) <= L). { apply Rle_trans with (ln (/ 2)). interval. unfold L. destruct X1 as [X1| <-]; [left; apply ln_increasing; lra|lra]. }
  assert (LA : Rabs L * uf f <= / 100000). { destruct (Rle_or_lt 0 L). rewrite Rabs_pos_eq; auto. rewrite Rabs_left by auto. apply Rle_trans with (7 / 10 * / 16777216). apply Rmult_le_compat; lra. lra. }
  unfold rel_err in R. assert (R' := Rabs_le_inv _ _ R). assert (eL : exp L = B2R x) by (unfold L; apply exp_ln; lra).
  assert (P0 : 0 <= Rabs L) by apply Rabs_pos. assert (wd : 56 / 10 * uf f * Rabs L <= / 10000) by lra.
  destruct (exp_any v f l Fl) as (e & Ee & Fe & Re). lra. { replace (B2R l + 2) with ((B2R l - L) + (2 + L)) by ring. rewrite exp_plus, exp_plus, eL. assert (exp (B2R l - L) <= 2). { apply Rle_trans with (exp (/ 2)). apply exp_le. lra. interval. } assert (exp 2 <= 8) by interval. assert (0 < exp 2) by apply exp_pos. assert (0 < exp (B2R l - L)) by apply exp_pos.
    replace (emax f - 9)%Z with (4 + (emax f - 13))%Z by ring. rewrite bpow_plus. change (bpow radix2 4) with 16. apply Rle_trans with (2 * (8 * B2R x)). apply Rmult_le_compat; try lra. apply Rmult_le_pos; lra. apply Rmult_le_compat; lra. lra. }
  exists l, e. split; auto. split; auto. split; auto.
  assert (C := rel_comp _ _ _ _ _ Re (rel_exp (B2R l) L (56 / 10 * uf f * Rabs L) R ltac:(lra))). rewrite eL in C.
  assert (b61 := bpow_gt_0 radix2 (-61)). assert (b61' : bpow radix2 (-61) <= / 1000000) by (cbn; lra). assert (B54 : bpow radix2 (-54) = 128 * bpow radix2 (-61)) by (change 128 with (bpow radix2 7); rewrite <- bpow_plus; reflexivity). assert (B55 : bpow radix2 (-55) = 64 * bpow radix2 (-61)) by (change 64 with (bpow radix2 6); rewrite <- bpow_plus; reflexivity). assert (B53 : bpow radix2 (-53) = 256 * bpow radix2 (-61)) by (change 256 with (bpow radix2 8); rewrite <- bpow_plus; reflexivity). assert (B60 : bpow radix2 (-60) = 2 * bpow radix2 (-61)) by (change 2 with (bpow radix2 1); rewrite <- bpow_plus; reflexivity).
  rewrite B53, B60. set (a := 56 / 10 * uf f * Rabs L) in * .
  assert (N : 0 <= ex_c f (B2R l) /\ ex_c f (B2R l) <= (if Rle_dec 8 (B2R x) then 10 else 106) * uf f + 132 * bpow radix2 (-61) + Rabs L * bpow radix2 (-61)).
  { assert (0 <= Rabs L * bpow radix2 (-61)) by (apply Rmult_le_pos; lra). assert (La := RRle_abs L). unfold ex_c. rewrite B54, B55. destruct Rlt_dec as [S|S].
    - destruct Rle_dec as [S8|S8]; [|lra]. exfalso. assert (207 / 100 <= L). { apply Rle_trans with (ln 8). interval. unfold L. destruct S8 as [S8| <-]; [left; apply ln_increasing; lra|lra]. } lra.
    - assert (B2R l + 3 <= Rabs L + 4) by lra. assert (0 <= (B2R l + 3) * bpow radix2 (-61)) by (apply Rmult_le_pos; lra). assert ((B2R l + 3) * bpow radix2 (-61) <= (Rabs L + 4) * bpow radix2 (-61)) by (apply Rmult_le_compat_r; lra). destruct Rle_dec; lra. }
  destruct N as (N0 & N1). specialize (C N0). eapply rel_mono; [|exact C]. set (c := ex_c f (B2R l)) in * . assert (a0 : 0 <= a) by (unfold a; apply Rmult_le_pos; lra).
  assert (c * (1002 / 1000 * a) <= c * / 1000) by (apply Rmult_le_compat_l; lra). assert (aE : a = 56 / 10 * (uf f * Rabs L)) by (unfold a; ring). assert (0 <= Rabs L * bpow radix2 (-61)) by (apply Rmult_le_pos; lra). assert (0 <= uf f * Rabs L) by (apply Rmult_le_pos; lra). destruct Rle_dec; lra.
Qed.
(** ** log(exp x) *)
Lemma log_exp v f (x : flt f) : finite x = true -> - / 2 <= B2R x -> exp (B2R x + 2) <= bpow radix2 (emax f - 9) ->
  exists e l : flt f, gcem_exp v (AFlt f x) = Ok e /\ gcem_log v (AFlt f e) = Ok l /\ finite l = true /\
  abs_err (B2R l) (B2R x) (((if Rle_dec 2 (B2R x) then 11 else 108) + 58 / 10 * Rabs (B2R x)) * bpow radix2 (- prec f) + bpow radix2 (-53) + Rabs (B2R x) * bpow radix2 (-60)).
Proof.
  intros Fx X B. destruct (exp_any v f x Fx ltac:(lra) B) as (e & E & Fe & R). change (bpow radix2 (- prec f)) with (uf f) in * . assert (u0 := uf_small f).
  assert (XU : B2R x * uf f <= / 100000). { rewrite <- (ln_exp (B2R x)). apply ln_emax. apply exp_pos. apply Rle_trans with (exp (B2R x + 2)). apply exp_le. lra. eapply Rle_trans. exact B. apply bpow_le. lia. }
  assert (b61 := bpow_gt_0 radix2 (-61)). assert (b61' : bpow radix2 (-61) <= / 1000000000) by (cbn; lra). assert (B54 : bpow radix2 (-54) = 128 * bpow radix2 (-61)) by (change 128 with (bpow radix2 7); rewrite <- bpow_plus; reflexivity). assert (B55 : bpow radix2 (-55) = 64 * bpow radix2 (-61)) by (change 64 with (bpow radix2 6); rewrite <- bpow_plus; reflexivity). assert (B53 : bpow radix2 (-53) = 256 * bpow radix2 (-61)) by (change 256 with (bpow radix2 8); rewrite <- bpow_plus; reflexivity). assert (B60 : bpow radix2 (-60) = 2 * bpow radix2 (-61)) by (change 2 with (bpow radix2 1); rewrite <- bpow_plus; reflexivity).
  assert (XA : 0 <= Rabs (B2R x)) by apply Rabs_pos. assert (x61 : 0 <= Rabs (B2R x) * bpow radix2 (-61)) by (apply Rmult_le_pos; lra). assert (La := RRle_abs (B2R x)).
  assert (X12 : B2R x <= 12000). { assert (K : exp (B2R x + 2) <= bpow radix2 (emax F80)) by (eapply Rle_trans; [exact B|apply bpow_le; destruct f; cbn; lia]). apply Rnot_lt_le. intros C. apply (Rle_not_lt _ _ K). rewrite bpow_exp. apply exp_increasing. assert (ln (IZR radix2) < 7 / 10) by (change (IZR radix2) with 2; interval). change (IZR (emax F80)) with 16384. lra. }
  assert (XA12 : Rabs (B2R x) <= 12000) by (apply Rabs_le; lra). assert (x62 : Rabs (B2R x) * bpow radix2 (-61) <= 12000 * / 1000000000) by (apply Rmult_le_compat; lra).
  assert (N : 0 <= ex_c f (B2R x) /\ ex_c f (B2R x) <= (if Rle_dec 2 (B2R x) then 10 else 106) * uf f + 131 * bpow radix2 (-61) + Rabs (B2R x) * bpow radix2 (-61)).
  { unfold ex_c. rewrite B54, B55. destruct Rlt_dec as [S|S]; destruct Rle_dec as [T|T]; try lra. assert (0 <= (B2R x + 3) * bpow radix2 (-61)) by (apply Rmult_le_pos; lra). assert ((B2R x + 3) * bpow radix2 (-61) <= (Rabs (B2R x) + 3) * bpow radix2 (-61)) by (apply Rmult_le_compat_r; lra). lra. }
  destruct N as (N0 & N1). set (c := ex_c f (B2R x)) in * . assert (N2 : c <= / 10000) by (destruct (Rle_dec 2 (B2R x)); lra).
  assert (e0 := exp_pos (B2R x)). unfold rel_err in R. rewrite (Rabs_pos_eq (exp _)) in R by lra. apply Rabs_le_inv in R.
  assert (EL : exp (B2R x) * (1 - c) <= B2R e) by lra. assert (EU : B2R e <= exp (B2R x) * (1 + c)) by lra.
  assert (E2 : / 2 <= B2R e). { apply Rle_trans with (6 / 10 * (9999 / 10000)). lra. eapply Rle_trans; [|exact EL]. apply Rmult_le_compat; try lra. apply Rle_trans with (exp (- / 2)). interval. apply exp_le. lra. }
  destruct (log_f v f e Fe E2) as (l & El & Fl & Rl). exists e, l. split; auto. split; auto. split; auto.
  assert (D : Rabs (ln (B2R e) - B2R x) <= 1001 / 1000 * c).
  { replace (ln (B2R e)) with (B2R x + ln (B2R e / exp (B2R x))). 2: { unfold Rdiv. rewrite ln_mult, ln_Rinv, ln_exp by (try apply Rinv_0_lt_compat; lra). ring. }
    replace (B2R x + ln (B2R e / exp (B2R x)) - B2R x) with (ln (B2R e / exp (B2R x))) by ring. set (q := B2R e / exp (B2R x)).
    assert (Q : 1 - c <= q <= 1 + c). { unfold q. split; [apply Rmult_le_reg_r with (exp (B2R x)); [lra|]; replace (B2R e / exp (B2R x) * exp (B2R x)) with (B2R e) by (field; lra); lra|apply Rmult_le_reg_r with (exp (B2R x)); [lra|]; replace (B2R e / exp (B2R x) * exp (B2R x)) with (B2R e) by (field; lra); lra]. }
    assert (U : ln q <= q - 1). { assert (K := exp_ineq1_le (ln q)). rewrite exp_ln in K by lra. lra. } assert (V : - ln q <= / q - 1). { rewrite <- ln_Rinv by lra. assert (K := exp_ineq1_le (ln (/ q))). rewrite exp_ln in K by (apply Rinv_0_lt_compat; lra). lra. }
    assert (W : / q <= 1 + 1001 / 1000 * c). { apply Rle_trans with (/ (1 - c)). apply Rinv_le_contravar; lra. apply Rmult_le_reg_r with (1 - c). lra. rewrite Rinv_l by lra. assert (c * c <= / 10000 * c) by (apply Rmult_le_compat_r; lra). lra. }
    apply Rabs_le. lra. }
  unfold abs_err. unfold rel_err in Rl. assert (LL : Rabs (ln (B2R e)) <= Rabs (B2R x) + 1001 / 1000 * c). { replace (ln (B2R e)) with ((ln (B2R e) - B2R x) + B2R x) by ring. eapply Rle_trans. apply Rabs_triang. lra. }
  replace (B2R l - B2R x) with ((B2R l - ln (B2R e)) + (ln (B2R e) - B2R x)) by ring. eapply Rle_trans. apply Rabs_triang. assert (56 / 10 * uf f * Rabs (ln (B2R e)) <= 56 / 10 * uf f * (Rabs (B2R x) + 1001 / 1000 * c)) by (apply Rmult_le_compat_l; lra).
  assert (uf f * c <= uf f * / 10000) by (apply Rmult_le_compat_l; lra). assert (0 <= uf f * Rabs (B2R x)) by (apply Rmult_le_pos; lra). rewrite B53, B60. destruct (Rle_dec 2 (B2R x)); lra.
Qed.
(** ** sin(asin x) *)
Lemma ycos y : 0 <= y <= PI / 2 -> y * cos y <= sin y.
Proof.
  intros Y. assert (P := PI_RGT_0). destruct (MVT_gen (fun t => sin t - t * cos t) 0 y (fun t => t * sin t)) as (c & C & E).
  - intros t _. auto_derive. auto. ring.
  - intros t _. apply derivable_continuous_pt. exists (t * sin t). apply is_derive_Reals. auto_derive. auto. ring.
  - rewrite Rmin_left, Rmax_right in C by lra. rewrite sin_0 in E. assert (0 <= c * sin c). { apply Rmult_le_pos. lra. apply sin_ge_0; lra. } assert (0 <= c * sin c * (y - 0)) by (apply Rmult_le_pos; lra). lra.
Qed.
Lemma ysin y : 0 <= y <= PI / 2 -> y <= 1571 / 1000 * sin y.
Proof.
  intros Y. assert (P : 314159 / 100000 < PI < 31416 / 10000) by (split; interval). destruct (Rle_or_lt y 1) as [L|L].
  - assert (K := ycos y Y). assert (54 / 100 <= cos y) by interval. destruct (Rle_or_lt y (6 / 10)) as [M|M].
    + assert (82 / 100 <= cos y) by interval. assert (y * (82 / 100) <= y * cos y) by (apply Rmult_le_compat_l; lra). lra.
    + assert (564 / 1000 <= sin y) by interval. destruct (Rle_or_lt y (88 / 100)). lra. assert (77 / 100 <= sin y) by interval. lra.
  - destruct (Rle_or_lt y (13 / 10)). assert (84 / 100 <= sin y) by interval. lra. destruct (Rle_or_lt y (15 / 10)) as [M|M]. assert (96 / 100 <= sin y) by interval. lra.
    replace y with (PI / 2 - (PI / 2 - y)) by ring. set (d := PI / 2 - y). replace (sin (PI / 2 - d)) with (cos d) by (rewrite sin_shift; reflexivity). assert (D : 0 <= d <= 71 / 1000) by (unfold d; lra).
    assert (1 - d * d / 2 <= cos d). { replace d with (2 * (d / 2)) at 3 by field. rewrite cos_2a_sin. assert (S : 0 <= sin (d / 2) <= d / 2). { split. apply sin_ge_0; lra. destruct (proj1 D) as [D0| <-]. left. apply sin_lt_x. lra. replace (0 / 2) with 0 by field. rewrite sin_0. lra. } assert (sin (d / 2) * sin (d / 2) <= d / 2 * (d / 2)) by (apply Rmult_le_compat; lra). lra. } assert (d * d <= 71 / 1000 * d) by (apply Rmult_le_compat_r; lra). lra.
Qed.
Lemma sin_diff w y : Rabs (sin w - sin y) <= Rabs (w - y) * (Rabs (cos y) + Rabs (w - y) / 2).
Proof.
  rewrite form4. replace (2 * cos ((w + y) / 2) * sin ((w - y) / 2)) with (2 * (sin ((w - y) / 2) * cos ((w + y) / 2))) by ring. rewrite Rabs_mult, (Rabs_pos_eq 2), Rabs_mult by lra.
  assert (S : Rabs (sin ((w - y) / 2)) <= Rabs (w - y) / 2). { assert (K := sin_lip ((w - y) / 2) 0). rewrite sin_0, !Rminus_0_r in K. eapply Rle_trans. exact K. unfold Rdiv. rewrite Rabs_mult, (Rabs_pos_eq (/ 2)); lra. }
  assert (C : Rabs (cos ((w + y) / 2)) <= Rabs (cos y) + Rabs (w - y) / 2). { replace (cos ((w + y) / 2)) with ((cos ((w + y) / 2) - cos y) + cos y) by ring. eapply Rle_trans. apply Rabs_triang. assert (K := cos_lip ((w + y) / 2) y). replace ((w + y) / 2 - y) with ((w - y) * / 2) in K by field. rewrite Rabs_mult, (Rabs_pos_eq (/ 2)) in K by lra. lra. }
  apply Rle_trans with (2 * (Rabs (w - y) / 2 * (Rabs (cos y) + Rabs (w - y) / 2))). apply Rmult_le_compat_l. lra. apply Rmult_le_compat; auto using Rabs_pos. lra.
Qed.
Lemma sin_asin v f (x : flt f) : finite x = true -> bpow radix2 (4 - emax f) <= Rabs (B2R x) < 1 ->
  exists a s : flt f, gcem_asin v (AFlt f x) = Ok a /\ gcem_sin (AFlt f a) = Ok s /\ finite s = true /\ rel_err (B2R s) (B2R x) (24 * bpow radix2 (- prec f) + bpow radix2 (-53)).
Proof.
  intros Fx (X0 & X1). change (bpow radix2 (- prec f)) with (uf f). assert (u0 := uf_small f). assert (b34 : bpow radix2 (4 - emax f) = 2 * bpow radix2 (3 - emax f)) by (replace (4 - emax f)%Z with (3 - emax f + 1)%Z by ring; rewrite bpow_plus_1; reflexivity). assert (b3 := bpow_gt_0 radix2 (3 - emax f)).
  assert (A : exists a : flt f, gcem_asin v (AFlt f x) = Ok a /\ finite a = true /\ rel_err (B2R a) (asin (B2R x)) ((12 + 6 / 10 / sqrt (1 - B2R x * B2R x)) * uf f + bpow radix2 (-54))) by (apply (api_asin v f x Fx); lra).
  destruct A as (a & Ea & Fa & Ra). assert (X1' := Rabs_lt_inv _ _ X1). set (X := B2R x) in * . set (y := asin X) in * .
  assert (P : 314159 / 100000 < PI < 31416 / 10000) by (split; interval). assert (Yb : - (PI / 2) <= y <= PI / 2) by (apply asin_bound). assert (Sy : sin y = X) by (apply sin_asin; lra). assert (Cy : cos y = sqrt (1 - X * X)) by (unfold y; rewrite cos_asin by lra; reflexivity).
  assert (D : 199 / 100 * uf f <= 1 - X * X).
  { destruct (Rle_or_lt 0 X) as [L|L].
    - assert (K := below_one x Fx ltac:(fold X; lra)). fold X in K. assert (X * X <= X * (1 - uf f)) by (apply Rmult_le_compat_l; lra). assert (X * (1 - uf f) <= (1 - uf f) * (1 - uf f)) by (apply Rmult_le_compat_r; lra). assert (uf f * uf f <= / 16777216 * uf f) by (apply Rmult_le_compat_r; lra). lra.
    - assert (K := below_one (-. x)). rewrite fneg_finite, fneg_B2R in K. specialize (K Fx). fold X in K. specialize (K ltac:(lra)). assert ((- X) * (- X) <= (- X) * (1 - uf f)) by (apply Rmult_le_compat_l; lra). assert ((- X) * (1 - uf f) <= (1 - uf f) * (1 - uf f)) by (apply Rmult_le_compat_r; lra). assert (uf f * uf f <= / 16777216 * uf f) by (apply Rmult_le_compat_r; lra). lra. }
  set (s := sqrt (1 - X * X)) in * . assert (s0 : 0 < s) by (apply sqrt_lt_R0; lra). assert (ss : s * s = 1 - X * X) by (apply sqrt_sqrt; lra). assert (s1 : s <= 1). { assert (0 <= X * X) by apply Rle_0_sqr. unfold s. apply Rle_trans with (sqrt 1). apply sqrt_le_1_alt. lra. rewrite sqrt_1. lra. }
  assert (AY : Rabs y * s <= Rabs X /\ Rabs y <= 1571 / 1000 * Rabs X).
  { rewrite <- Sy, <- Cy. destruct (Rle_or_lt 0 y) as [L|L].
    - rewrite (Rabs_pos_eq y), (Rabs_pos_eq (sin y)) by (try apply sin_ge_0; lra). split. apply ycos; lra. apply ysin; lra.
    - rewrite (Rabs_left y) by lra. rewrite <- (Ropp_involutive y), cos_neg, sin_neg, Rabs_Ropp, (Rabs_pos_eq (sin (- y))) by (apply sin_ge_0; lra). rewrite Ropp_involutive. split. apply ycos; lra. apply ysin; lra. }
  destruct AY as (A1 & A2). set (c := 12 * uf f + bpow radix2 (-54)). set (k := 6 / 10 * uf f / s). assert (b54 : 0 < bpow radix2 (-54) <= / 10000000000) by (split; [apply bpow_gt_0|cbn; lra]).
  assert (c0 : 0 < c <= / 1000000) by (unfold c; lra). assert (k0 : 0 < k) by (apply Rdiv_lt_0_compat; lra). assert (ks : k * s = 6 / 10 * uf f) by (unfold k; field; lra).
  assert (kk : k * k <= 182 / 1000 * uf f). { apply Rmult_le_reg_r with (s * s). apply Rmult_lt_0_compat; auto. replace (k * k * (s * s)) with (k * s * (k * s)) by ring. rewrite ks, ss. apply Rle_trans with (182 / 1000 * uf f * (199 / 100 * uf f)). 2: apply Rmult_le_compat_l; lra. assert (0 <= uf f * uf f) by apply Rle_0_sqr. lra. }
  assert (Ra' : Rabs (B2R a - y) <= (c + k) * Rabs y). { unfold rel_err in Ra. eapply Rle_trans. exact Ra. right. unfold c, k. field. lra. }
  assert (k1 : k <= / 1000). { apply Rnot_lt_le. intros K. assert (/ 1000 * / 1000 < k * k) by (apply Rmult_le_0_lt_compat; lra). lra. }
  assert (Y0 := Rabs_pos y). assert (X00 := Rabs_pos X). assert (y2 : Rabs y <= 1571 / 1000) by lra.
  assert (S1 := sin_diff (B2R a) y). rewrite Cy, (Rabs_pos_eq s), Sy in S1 by lra.
  assert (S2 : Rabs (sin (B2R a) - X) <= (1341 / 100 * uf f + 1001 / 1000 * bpow radix2 (-54)) * Rabs X).
  { eapply Rle_trans. exact S1. apply Rle_trans with ((c + k) * Rabs y * (s + (c + k) * Rabs y / 2)). { assert (0 <= Rabs (B2R a - y)) by apply Rabs_pos. apply Rmult_le_compat; lra. }
    replace ((c + k) * Rabs y * (s + (c + k) * Rabs y / 2)) with (c * (Rabs y * s) + k * s * Rabs y + (c + k) * (c + k) * (Rabs y * Rabs y) / 2) by field. rewrite ks.
    assert (c * (Rabs y * s) <= c * Rabs X) by (apply Rmult_le_compat_l; lra). assert (6 / 10 * uf f * Rabs y <= 6 / 10 * uf f * (1571 / 1000 * Rabs X)) by (apply Rmult_le_compat_l; lra).
    assert (Q : (c + k) * (c + k) <= 364 / 1000 * uf f + 2 / 1000000 * c). { assert (c * c <= / 1000000 * c) by (apply Rmult_le_compat_r; lra). assert (0 <= (c - k) * (c - k)) by apply Rle_0_sqr. lra. }
    assert (QY : Rabs y * Rabs y <= 1571 / 1000 * (1571 / 1000 * Rabs X)) by (apply Rmult_le_compat; lra). assert (0 <= (c + k) * (c + k)) by apply Rle_0_sqr. assert ((c + k) * (c + k) * (Rabs y * Rabs y) <= (364 / 1000 * uf f + 2 / 1000000 * c) * (1571 / 1000 * (1571 / 1000 * Rabs X))) by (apply Rmult_le_compat; try lra; apply Rle_0_sqr).
    unfold c in * . assert (0 <= uf f * Rabs X) by (apply Rmult_le_pos; lra). assert (0 <= bpow radix2 (-54) * Rabs X) by (apply Rmult_le_pos; lra). lra. }
  assert (aw : Rabs (B2R a) <= 2). { replace (B2R a) with ((B2R a - y) + y) by ring. eapply Rle_trans. apply Rabs_triang. assert ((c + k) * Rabs y <= 2 / 1000 * (1571 / 1000)) by (apply Rmult_le_compat; lra). lra. }
  assert (al : bpow radix2 (3 - emax f) <= Rabs (B2R a)).
  { assert (Rabs X <= Rabs y). { rewrite <- Sy. assert (K := sin_lip y 0). rewrite sin_0, !Rminus_0_r in K. exact K. } assert (T := Rabs_triang (B2R a - y) (- B2R a)). replace (B2R a - y + - B2R a) with (- y) in T by ring. rewrite !Rabs_Ropp in T. assert ((c + k) * Rabs y <= 2 / 1000 * Rabs y) by (apply Rmult_le_compat_r; lra). lra. }
  assert (SN : exists w : flt f, gcem_sin (AFlt f a) = Ok w /\ finite w = true /\ rel_err (B2R w) (sin (B2R a)) (10 * uf f + bpow radix2 (-79))) by (apply api_sin; auto). destruct SN as (w & Ew & Fw & Rw). exists a, w. split; auto. split; auto. split; auto.
  assert (B79 : bpow radix2 (-79) <= / 1000000 * bpow radix2 (-54)) by (replace (-79)%Z with (-25 + -54)%Z by ring; rewrite bpow_plus; apply Rmult_le_compat_r; [lra|change (bpow radix2 (-25)) with (/ 33554432); lra]). assert (b79 := bpow_gt_0 radix2 (-79)).
  assert (B53 : bpow radix2 (-53) = 2 * bpow radix2 (-54)) by (replace (-53)%Z with (-54 + 1)%Z by ring; rewrite bpow_plus_1; reflexivity).
  eapply rel_mono; [|eapply rel_comp; [exact Rw|exact S2|lra]]. rewrite B53. set (q := bpow radix2 (-54)) in * . assert ((10 * uf f + bpow radix2 (-79)) * (1341 / 100 * uf f + 1001 / 1000 * q) <= (10 * uf f + bpow radix2 (-79)) * (/ 1000)) by (apply Rmult_le_compat_l; lra). lra.
Qed.

(** ** erf(erf_inv p) *)
Lemma erf_of_inv v f (p : flt f) : finite p = true -> 2 * bpow radix2 (2 - emax f) <= Rabs (B2R p) <= 94 / 100 ->
  exists w e : flt f, gcem_erf_inv v (AFlt f p) = Ok w /\ gcem_erf v (AFlt f w) = Ok e /\ finite e = true /\
    rel_err (B2R e) (B2R p) (if Rle_dec (Rabs (B2R p)) (52 / 100) then 47 * bpow radix2 (- prec f) + bpow radix2 (-52) else
      if Rle_dec (Rabs (B2R p)) (84 / 100) then 328 * bpow radix2 (- prec f) + bpow radix2 (-52) else 1319 * bpow radix2 (- prec f) + bpow radix2 (-51)).
Proof.
  intros Fp HP. change (bpow radix2 (- prec f)) with (uf f). assert (u0 := uf_small f).
  assert (B54 : bpow radix2 (-54) = / 4 * bpow radix2 (-52) /\ bpow radix2 (-53) = / 2 * bpow radix2 (-52) /\ bpow radix2 (-51) = 2 * bpow radix2 (-52) /\ 0 < bpow radix2 (-52) <= / 1000000000).
  { replace (-54)%Z with (-2 + -52)%Z by ring. replace (-53)%Z with (-1 + -52)%Z by ring. replace (-51)%Z with (1 + -52)%Z by ring. rewrite !bpow_plus. change (bpow radix2 (-2)) with (/ 4). change (bpow radix2 (-1)) with (/ 2). change (bpow radix2 1) with 2. repeat split; try reflexivity. apply bpow_gt_0. cbn; lra. }
  destruct B54 as (_ & _ & -> & b0). set (q := bpow radix2 (-52)) in * .
  assert (A : exists w : flt f, gcem_erf_inv v (AFlt f p) = Ok w /\ finite w = true /\ rel_err (erf_real (B2R w)) (B2R p) (if Rle_dec (Rabs (B2R p)) (52 / 100) then 28 * uf f + / 2 * q else if Rle_dec (Rabs (B2R p)) (84 / 100) then 188 * uf f + / 2 * q else 751 * uf f + q)).
  { destruct (api_erf_inv v f p Fp HP) as (w & E & F & Rr & _). exists w. split; [exact E|]. split; [exact F|]. replace (/ 2 * q) with (bpow radix2 (-53)). exact Rr. unfold q. replace (-53)%Z with (-1 + -52)%Z by ring. rewrite bpow_plus. reflexivity. }
  destruct A as (w & Ew & Fw & Rw).
  assert (R4 : Rabs (erf_real (B2R w) - B2R p) <= / 10000 * Rabs (B2R p)). { unfold rel_err in Rw. eapply Rle_trans. exact Rw. apply Rmult_le_compat_r. apply Rabs_pos. destruct (Rle_dec _ _). lra. destruct (Rle_dec _ _); lra. }
  destruct (small_x (B2R p) (B2R w) HP R4) as (W & W1 & W2).
  assert (SN : exists e : flt f, gcem_erf v (AFlt f w) = Ok e /\ finite e = true /\ rel_err (B2R e) (erf_real (B2R w)) (if Rle_dec (Rabs (B2R w)) (/ 2) then 18 * uf f + / 4 * q else if Rle_dec (Rabs (B2R w)) 1 then 139 * uf f + / 4 * q else if Rle_dec (Rabs (B2R w)) (3 / 2) then 566 * uf f + / 2 * q else 45700 * uf f + / 2 * q)).
  { destruct (api_erf v f w Fw) as (e & E & F & Rr). lra. exists e. split; [exact E|]. split; [exact F|]. replace (/ 2 * q) with (bpow radix2 (-53)). replace (/ 4 * q) with (bpow radix2 (-54)). exact Rr. unfold q. replace (-54)%Z with (-2 + -52)%Z by ring. rewrite bpow_plus. reflexivity. unfold q. replace (-53)%Z with (-1 + -52)%Z by ring. rewrite bpow_plus. reflexivity. }
  destruct SN as (e & Ee & Fe & Re). exists w, e. split; [exact Ew|]. split; [exact Ee|]. split; [exact Fe|].
  set (b1 := if Rle_dec (Rabs (B2R p)) (52 / 100) then 28 * uf f + / 2 * q else if Rle_dec (Rabs (B2R p)) (84 / 100) then 188 * uf f + / 2 * q else 751 * uf f + q) in * .
  assert (Re' : rel_err (B2R e) (erf_real (B2R w)) (if Rle_dec (Rabs (B2R p)) (52 / 100) then 18 * uf f + / 4 * q else if Rle_dec (Rabs (B2R p)) (84 / 100) then 139 * uf f + / 4 * q else 566 * uf f + / 2 * q)).
  { eapply rel_mono; [|exact Re]. destruct (Rle_dec (Rabs (B2R p)) (52 / 100)) as [L|L]. specialize (W1 L). destruct (Rle_dec (Rabs (B2R w)) (/ 2)); [lra|contradiction].
    destruct (Rle_dec (Rabs (B2R p)) (84 / 100)) as [L'|L']. specialize (W2 L'). destruct (Rle_dec (Rabs (B2R w)) (/ 2)); [lra|]. destruct (Rle_dec (Rabs (B2R w)) 1); [lra|contradiction].
    destruct (Rle_dec (Rabs (B2R w)) (/ 2)); [lra|]. destruct (Rle_dec (Rabs (B2R w)) 1); [lra|]. destruct (Rle_dec (Rabs (B2R w)) (3 / 2)) as [|N]; [lra|exfalso; apply N; lra]. }
  eapply rel_mono; [|eapply rel_comp; [exact Re'|exact Rw|]]. unfold b1.
  - assert (K : forall a b c d : R, 0 <= a <= 1000 -> 0 <= b <= 1 -> 0 <= c <= 1000 -> 0 <= d <= 1 -> (a * uf f + b * q) * (c * uf f + d * q) <= / 10 * uf f * (a / 100) + / 10 * q * b).
    { intros a b c d A0 B0 C0 D0. assert (c * uf f + d * q <= / 10000). { assert (c * uf f <= 1000 * / 16777216) by (apply Rmult_le_compat; lra). assert (d * q <= 1 * / 1000000000) by (apply Rmult_le_compat; lra). lra. }
      assert (0 <= a * uf f) by (apply Rmult_le_pos; lra). assert (0 <= b * q) by (apply Rmult_le_pos; lra). assert ((a * uf f + b * q) * (c * uf f + d * q) <= (a * uf f + b * q) * / 10000) by (apply Rmult_le_compat_l; lra). lra. }
    assert (K1 := K 18 (/ 4) 28 (/ 2)). assert (K2 := K 139 (/ 4) 188 (/ 2)). assert (K3 := K 566 (/ 2) 751 1). destruct (Rle_dec _ _). lra. destruct (Rle_dec _ _); lra.
  - destruct (Rle_dec _ _). lra. destruct (Rle_dec _ _); lra.
Qed.

(** ** The functional equation of tgamma *)
Definition glim (f : fmt) : R := match f with F32 => 32 | F64 => 170 | F80 => 1754 end.
Lemma tgamma_rec v n f (x y : flt f) : finite x = true -> finite y = true -> B2R y = B2R x + 1 -> / 2 <= B2R x -> B2R y <= match f with F32 => 32 | F64 => 170 | F80 => 1754 end ->
  exists g h : flt f, gcem_tgamma v (S n) (AFlt f x) = Ok g /\ gcem_tgamma v (S n) (AFlt f y) = Ok h /\ finite g = true /\ finite h = true /\
    rel_err (B2R h) (B2R x * B2R g) ((31 * B2R y * ln (B2R y + 5) + 331) * bpow radix2 (- prec f) + (5 * B2R y + 11) * bpow radix2 (-54)).
Proof.
  intros Fx Fy E X Y. fold (glim f) in Y. change (bpow radix2 (- prec f)) with (uf f). assert (u0 := uf_small f). set (q := bpow radix2 (-54)). assert (q0 : 0 < q <= / 1000000000) by (split; [apply bpow_gt_0|unfold q; cbn; lra]).
  assert (A : exists g : flt f, gcem_tgamma v (S n) (AFlt f x) = Ok g /\ finite g = true /\ rel_err (B2R g) (Gamma (B2R x)) ((15 * B2R x * ln (B2R x + 5) + 165) * uf f + (2 * B2R x + 5) * q)) by (apply (api_tgamma v n f x Fx); fold (glim f); lra).
  assert (B : exists h : flt f, gcem_tgamma v (S n) (AFlt f y) = Ok h /\ finite h = true /\ rel_err (B2R h) (Gamma (B2R y)) ((15 * B2R y * ln (B2R y + 5) + 165) * uf f + (2 * B2R y + 5) * q)) by (apply (api_tgamma v n f y Fy); fold (glim f); lra).
  destruct A as (g & Eg & Fg & Rg). destruct B as (h & Eh & Fh & Rh). exists g, h. split; [exact Eg|]. split; [exact Eh|]. split; [exact Fg|]. split; [exact Fh|].
  rewrite E in Rh at 1. rewrite Gamma_S in Rh by lra. set (X' := B2R x) in * . set (Y' := B2R y) in * .
  assert (LY : 0 <= ln (Y' + 5)) by (rewrite <- ln_1; apply LogAcc.ln_le_le; lra). assert (LX : 0 <= ln (X' + 5)) by (rewrite <- ln_1; apply LogAcc.ln_le_le; lra).
  assert (LL : ln (X' + 5) <= ln (Y' + 5)) by (apply LogAcc.ln_le_le; lra). assert (XL : X' * ln (X' + 5) <= Y' * ln (Y' + 5)) by (apply Rmult_le_compat; lra). assert (XL0 : 0 <= X' * ln (X' + 5)) by (apply Rmult_le_pos; lra).
  assert (ex : (15 * X' * ln (X' + 5) + 165) * uf f + (2 * X' + 5) * q <= / 1000).
  { assert (P1 : X' * ln (X' + 5) * uf f <= 6 / 1000000 * 3 /\ X' <= 2000).
    { assert (G : X' * ln (X' + 5) <= glim f * ln (glim f + 5)). { apply Rmult_le_compat; try lra. apply LogAcc.ln_le_le; lra. } split. 2: destruct f; unfold glim in *; lra.
      apply Rle_trans with (glim f * ln (glim f + 5) * uf f). apply Rmult_le_compat_r; lra. destruct f; unfold glim, uf; cbn [prec]. change (bpow radix2 (- (24))) with (/ 16777216). interval. 
      apply Rle_trans with (170 * ln (170 + 5) * / 1125899906842624). apply Rmult_le_compat_l. interval. cbn; lra. interval. apply Rle_trans with (1754 * ln (1754 + 5) * / 1125899906842624). apply Rmult_le_compat_l. interval. cbn; lra. interval. }
    destruct P1 as (P1 & P2). assert (X' * q <= 2000 * / 1000000000) by (apply Rmult_le_compat; lra). lra. }
  set (e1 := (15 * X' * ln (X' + 5) + 165) * uf f + (2 * X' + 5) * q) in * . set (e2 := (15 * Y' * ln (Y' + 5) + 165) * uf f + (2 * Y' + 5) * q) in * .
  assert (e12 : e1 <= e2). { unfold e1, e2. assert (15 * X' * ln (X' + 5) * uf f <= 15 * Y' * ln (Y' + 5) * uf f) by (apply Rmult_le_compat_r; lra). assert (X' * q <= Y' * q) by (apply Rmult_le_compat_r; lra). lra. }
  assert (e10 : 0 <= e1). { unfold e1. apply Rplus_le_le_0_compat; apply Rmult_le_pos; lra. }
  unfold rel_err in * . set (G := Gamma X') in * . set (M := Rabs (X' * G)) in * . assert (M0 : 0 <= M) by apply Rabs_pos.
  assert (XG : Rabs (X' * B2R g - X' * G) <= e1 * M). { rewrite <- Rmult_minus_distr_l. unfold M. rewrite !Rabs_mult. assert (Rabs X' * Rabs (B2R g - G) <= Rabs X' * (e1 * Rabs G)) by (apply Rmult_le_compat_l; [apply Rabs_pos|exact Rg]). lra. }
  assert (MG : (1 - / 1000) * M <= Rabs (X' * B2R g)). { assert (T := Rabs_triang (X' * B2R g) (- (X' * B2R g - X' * G))). replace (X' * B2R g + - (X' * B2R g - X' * G)) with (X' * G) in T by ring. rewrite (Rabs_Ropp (X' * B2R g - X' * G)) in T. fold M in T. assert (e1 * M <= / 1000 * M) by (apply Rmult_le_compat_r; lra). lra. }
  replace (B2R h - X' * B2R g) with ((B2R h - X' * G) + - (X' * B2R g - X' * G)) by ring. eapply Rle_trans. apply Rabs_triang. rewrite (Rabs_Ropp (X' * B2R g - X' * G)).
  apply Rle_trans with (2002 / 1000 * e2 * 1.002 * Rabs (X' * B2R g)).
  - assert (e1 * M <= e2 * M) by (apply Rmult_le_compat_r; lra). apply Rle_trans with (2 * e2 * M). lra. assert (M <= 1.002 * Rabs (X' * B2R g)) by lra. assert (2 * e2 * M <= 2 * e2 * (1.002 * Rabs (X' * B2R g))) by (apply Rmult_le_compat_l; lra). assert (0 <= e2 * Rabs (X' * B2R g)) by (apply Rmult_le_pos; [lra|apply Rabs_pos]). lra.
  - apply Rmult_le_compat_r. apply Rabs_pos. unfold e2. assert (0 <= Y' * ln (Y' + 5) * uf f) by (apply Rmult_le_pos; lra). assert (0 <= Y' * q) by (apply Rmult_le_pos; lra). lra.
Qed.

(** ** Integral and floating-point exponents agree *)
Lemma pow_agree v f (x y : flt f) t n : in_range t n -> (0 <= n)%Z -> n <> imax t -> finite x = true -> finite y = true -> B2R y = IZR n -> IZR n <= bpow radix2 (prec f - 10) ->
  / 2 <= B2R x -> exp (Rabs (IZR n * ln (B2R x)) + 3) <= bpow radix2 (emax f - 9) ->
  exists a b : flt f, gcem_pow v (AFlt f x) (AInt t n) = Ok (AFlt f a) /\ gcem_pow v (AFlt f x) (AFlt f y) = Ok (AFlt f b) /\ finite a = true /\ finite b = true /\
    rel_err (B2R b) (B2R a) ((109 + 8 * Rabs (IZR n * ln (B2R x)) + 3 * IZR n) * bpow radix2 (- prec f) + bpow radix2 (-53) + Rabs (IZR n * ln (B2R x)) * bpow radix2 (-60)).
Proof.
  intros R N0 N1 Fx Fy Y NB X B. change (bpow radix2 (- prec f)) with (uf f). assert (u0 := uf_small f). set (L := Rabs (IZR n * ln (B2R x))) in * . assert (L0 : 0 <= L) by apply Rabs_pos. assert (n0 : 0 <= IZR n) by (apply IZR_le; auto).
  assert (NU : IZR n * uf f <= / 1024). { apply Rle_trans with (bpow radix2 (prec f - 10) * uf f). apply Rmult_le_compat_r; lra. unfold uf. rewrite <- bpow_plus. replace (prec f - 10 + - prec f)%Z with (-10)%Z by ring. right. reflexivity. }
  assert (PE : B2R x ^ Z.to_nat n = exp (IZR n * ln (B2R x))). { rewrite <- Rpower_pow by lra. unfold Rpower. rewrite INR_IZR_INZ, Z2Nat.id by auto. reflexivity. }
  assert (LL := Rle_abs (IZR n * ln (B2R x))). assert (LN := Rle_abs (- (IZR n * ln (B2R x)))). rewrite Rabs_Ropp in LN. fold L in LL, LN.
  assert (PB : bpow radix2 (3 - emax f) <= Rabs (B2R x ^ Z.to_nat n) <= bpow radix2 (emax f - 1)).
  { rewrite PE, Rabs_pos_eq by (left; apply exp_pos). split.
    - apply Rle_trans with (exp (- (L + 3))). 2: apply exp_le; lra. rewrite exp_Ropp. replace (3 - emax f)%Z with (- (emax f - 3))%Z by ring. rewrite bpow_opp. apply Rinv_le_contravar. apply exp_pos. eapply Rle_trans. exact B. apply bpow_le. lia.
    - apply Rle_trans with (exp (L + 3)). apply exp_le; lra. eapply Rle_trans. exact B. apply bpow_le. lia. }
  destruct (api_pow_near v f x t n R N0 N1 Fx) as (a & Ea & Fa & Ra); auto. { fold (uf f). lra. } fold (uf f) in Ra.
  assert (PB2 : exists b : flt f, gcem_pow v (AFlt f x) (AFlt f y) = Ok (AFlt f b) /\ finite b = true /\ rel_err (B2R b) (Rpower (B2R x) (B2R y)) ((108 + 7 * Rabs (B2R y * ln (B2R x))) * uf f + bpow radix2 (-54) + (Rabs (B2R y * ln (B2R x)) + 4) * bpow radix2 (-61))).
  { assert (Q := fun B' => api_pow_real v f f x y Fx Fy X B'). rewrite Y in Q |- * . fold L in Q |- * . destruct f; destruct (Q B) as (b & Eb & Fb & Rb & _); exists b; auto. }
  destruct PB2 as (b & Eb & Fb & Rb). exists a, b. split; auto. split; auto. split; auto. split; auto. rewrite Y in Rb. fold L in Rb. unfold Rpower in Rb. rewrite PE in Ra. set (P := exp (IZR n * ln (B2R x))) in * .
  assert (q53 : bpow radix2 (-53) = 2 * bpow radix2 (-54)) by (replace (-53)%Z with (-54 + 1)%Z by ring; rewrite bpow_plus_1; reflexivity). assert (q61 : bpow radix2 (-60) = 2 * bpow radix2 (-61)) by (replace (-60)%Z with (-61 + 1)%Z by ring; rewrite bpow_plus_1; reflexivity). assert (q54 : bpow radix2 (-54) = 128 * bpow radix2 (-61)) by (replace (-54)%Z with (7 + -61)%Z by ring; rewrite bpow_plus; reflexivity). rewrite q53, q61, q54. rewrite q54 in Rb. set (q := bpow radix2 (-61)) in * . assert (q0 : 0 < q) by apply bpow_gt_0.
  set (e1 := (108 + 7 * L) * uf f + 128 * q + (L + 4) * q) in * . assert (P0 : 0 < P) by apply exp_pos.
  unfold rel_err in * . rewrite (Rabs_pos_eq P) in Ra, Rb by lra. assert (PA : (1 - / 512) * P <= Rabs (B2R a)). { assert (T := Rabs_triang (B2R a) (- (B2R a - P))). replace (B2R a + - (B2R a - P)) with P in T by ring. rewrite (Rabs_Ropp (B2R a - P)), (Rabs_pos_eq P) in T by lra. assert (2 * IZR n * uf f * P <= / 512 * P) by (apply Rmult_le_compat_r; lra). lra. }
  replace (B2R b - B2R a) with ((B2R b - P) + - (B2R a - P)) by ring. eapply Rle_trans. apply Rabs_triang. rewrite (Rabs_Ropp (B2R a - P)).
  assert (0 <= IZR n * uf f) by (apply Rmult_le_pos; lra). assert (0 <= L * uf f) by (apply Rmult_le_pos; lra). assert (0 <= L * q) by (apply Rmult_le_pos; lra). assert (e10 : 0 <= e1) by (unfold e1; lra).
  apply Rle_trans with ((e1 + 2 * IZR n * uf f) * P). lra. apply Rle_trans with ((e1 + 2 * IZR n * uf f) * (1.002 * Rabs (B2R a))). apply Rmult_le_compat_l; lra. rewrite <- Rmult_assoc. apply Rmult_le_compat_r. apply Rabs_pos. unfold e1. lra.
Qed.
