(** * Accuracy of incomplete_gamma on its continued-fraction branches *)
From Verif Require Import Base FltLemmas ConvLemmas ModelBasic ModelInt ModelElem ModelSpecial ModelApi Spec SpecGamma SpecInc.
From Coq Require Import Lra Psatz.
From Coquelicot Require Import Coquelicot.
From Interval Require Import Tactic.
From Verif Require Import BasicProofs RangeProofs PF FPErr CFBound ExpAcc LogApi PowReal TanhAcc CFAcc MiscProofs SinAcc ErfAcc GammaInt Lanczos GammaReal GammaCoef GammaAcc BetaAcc IncGamReal IncGamAcc IncGamUp IncGamUpAcc.
From Verif Require Import Base ModelBasic ModelInt ModelElem ModelSpecial ModelApi.
Open Scope R_scope.

Section Api.
Context {f : fmt}.
Notation u := (uf f).
Let u0 := uf_pos f.
Let u1 : uf f <= / 16777216 := uf_le f.
(** The tests before the continued fractions *)
Lemma check_pos v (a z : flt f) : finite a = true -> finite z = true -> / 2 <= B2R a -> / 2 <= B2R z ->
  incomplete_gamma_check v a z = if (a <. ofZ f 10) && (z -. a <. ofZ f 10) then incomplete_gamma_cf_1 v a z
  else if (a <. ofZ f 10) || (z /. a >. ofZ f 3) then incomplete_gamma_cf_2 v a z
  else incomplete_gamma_quad v a z.
Proof.
  intros Fa Fz A Z. unfold incomplete_gamma_check, any_nan. rewrite !finite_not_nan by auto. cbn [orb]. destruct (fmin_spec f) as (Vm & Fm). destruct (ofZ_small f 0 ltac:(lia)) as (V0 & F0 & _). assert (G := @gfm f).
  rewrite (flt_false a), (flt_false z), (flt_false a); auto; try (rewrite Vm; lra). rewrite V0; lra.
Qed.
Lemma gmin_low : bpow radix2 (2 - emax f) <= exp (-46) / 10.
Proof. apply Rle_trans with (bpow radix2 (-80)). apply bpow_le. destruct f; discriminate. cbn. interval. Qed.
Lemma cf1_acc v (a z : flt f) : finite a = true -> finite z = true -> / 2 <= B2R a < 10 -> / 2 <= B2R z <= B2R a + / 2 ->
  exists w, incomplete_gamma_check v a z = Ok w /\ finite w = true /\ rel_err (B2R w) (gamma_P (B2R a) (B2R z)) (1600 * u + bpow radix2 (-49)).
Proof.
  intros Fa Fz Ha Hz. set (A := B2R a) in * . set (Z := B2R z) in * . rewrite check_pos; auto; try (fold A; lra); try (fold Z; lra).
  destruct (ofZ_small f 10 ltac:(lia)) as (V10 & F10 & _). rewrite flt_true; auto. 2: rewrite V10; fold A; lra. cbn [andb].
  destruct (gsub z a Z A 0 0 Fz Fa (gself z) (gself a)) as (Fd & Ed). { apply Rabs_le; lra. } lra. assert (uZA : u * Rabs (Z - A) <= / 16777216 * 10) by (apply Rmult_le_compat; try lra; [apply Rabs_pos|apply Rabs_le; lra]). apply Rabs_le_inv in Ed.
  rewrite flt_true; auto. 2: rewrite V10; lra. 
  set (L := ln Z). assert (HL : - ln 2 <= L <= ln (105 / 10)). { split. rewrite <- ln_Rinv by lra. apply ln_le; lra. apply ln_le; lra. }
  assert (L2 : ln 2 <= 6932 / 10000) by interval. assert (L10 : ln (105 / 10) <= 2352 / 1000) by interval. assert (GS := lnGamma_size A ltac:(lra)).
  assert (L15 : 0 <= ln (A + 5) <= 271 / 100). { split. rewrite <- ln_1. apply ln_le; lra. apply Rle_trans with (ln 15). apply ln_le; lra. interval. } assert (AL15 : A * ln (A + 5) <= 10 * (271 / 100)) by (apply Rmult_le_compat; lra).
  assert (AL : -7 <= A * L <= 2352 / 100). { destruct (Rle_or_lt 0 L) as [C|C]. split. assert (0 <= A * L) by (apply Rmult_le_pos; lra). lra. apply Rle_trans with (10 * (2352 / 1000)); [|lra]. apply Rmult_le_compat; lra. assert (A * - L <= 10 * (6932 / 10000)) by (apply Rmult_le_compat; lra). assert (0 <= A * - L) by (apply Rmult_le_pos; lra). lra. }
  destruct (pre_ok v a z 24 24 46 Fa Fz) as (l & lg & e & El & Eg & Ee & Fe & Re); try (fold A; lra); try (fold Z; lra).
  { fold A Z L. split; [|lra]. unfold Rabs. destruct Rcase_abs; lra. } { fold A Z L. split; [|lra]. apply Rabs_le. lra. } { fold A Z L. apply Rabs_le. lra. } { apply exp_fit_le with 82. lra. unfold exp_fit. apply Rle_trans with (bpow radix2 119). cbn. interval. apply bpow_le. destruct f; discriminate. }
  unfold incomplete_gamma_cf_1. rewrite El. cbn [bind]. rewrite Eg. cbn [bind]. rewrite Ee. cbn [bind].
  destruct (cf1_ok a z Fa Fz ltac:(fold A; lra) ltac:(fold A Z; lra)) as (Fc & Rc). fold A Z in Re, Rc. rewrite pre_val in Re by lra. set (cf := incomplete_gamma_cf_1_recur a z 1) in * .
  assert (G6 := gt_six a z ltac:(fold A; lra) ltac:(fold A Z; lra) 54 1 ltac:(lia)). fold A Z in G6. assert (GA : gt A 54 1 Z <= 10). { change 54%nat with (S 53). rewrite IncGamReal.gt_S. replace 1%Z with (2 * 0 + 1)%Z at 2 by reflexivity. rewrite gc_odd. assert (P := gt_pos A Z ltac:(lra) ltac:(lra) 53 (1 + 1) ltac:(lia)). unfold gB. assert (0 <= (A + 0) * Z / gt A 53 (1 + 1) Z). { apply Rmult_le_pos. apply Rmult_le_pos; lra. left; apply Rinv_0_lt_compat; auto. } unfold Rdiv in * . lra. }
  destruct (low_trunc A Z ltac:(lra) ltac:(lra)) as (P0 & PT). unfold gw in PT. set (G := gt A 54 1 Z) in * . set (E := Rpower Z A * exp (- Z) / Gamma A) in * . replace (Rpower Z A * exp (- Z) / G / Gamma A) with (E / G) in PT. 2:{ assert (H := Gamma_pos A ltac:(lra)). unfold E. field. split; lra. }
  assert (E0 : exp (-46) <= E <= exp 25). { unfold E. rewrite <- pre_val by lra. fold L. split; apply Raux.exp_le; lra. } assert (e46 := exp_pos (-46)). assert (e25 : exp 25 <= 100000000000) by interval.
  unfold rel_err in Re. rewrite (Rabs_pos_eq E) in Re by lra. assert (b54 : bpow radix2 (-54) = / 18014398509481984) by reflexivity. assert (b49 : bpow radix2 (-49) = / 562949953421312) by reflexivity. assert (b90 : bpow radix2 (-90) = / 1237940039285380274899124224) by reflexivity.
  rewrite b54 in Re. rewrite b90 in PT. rewrite b49. 
  destruct (fac_of (B2R e) E _ ltac:(lra) Re) as (p & Vp & Hp). destruct (fac_of (B2R cf) G _ ltac:(lra) Rc) as (q & Vq & Hq). assert (Hp' := Hp). apply Rabs_le_inv in Hp'. assert (Hq' := Hq). apply Rabs_le_inv in Hq'.
  assert (I := fac_inv q _ Hq ltac:(lra)). assert (I2 : Rabs (/ q - 1) <= 811 * u). { eapply Rle_trans. exact I. apply (Rmult_le_reg_r (1 - 810 * u)). lra. unfold Rdiv. rewrite Rmult_assoc, Rinv_l by lra. assert (u * u <= / 16777216 * u) by (apply Rmult_le_compat_r; lra). lra. }
  assert (PQ := fac p (/ q) _ _ Hp I2 ltac:(lra)).
  assert (PQ2 : Rabs (p * / q - 1) <= 1589 * u + 17 * / 18014398509481984). { eapply Rle_trans. exact PQ. assert (u * u <= / 16777216 * u) by (apply Rmult_le_compat_r; lra). lra. } assert (PQ3 := PQ2). apply Rabs_le_inv in PQ3.
  assert (EG : exp (-46) / 10 <= E / G <= 600000000000). { split. apply Rmult_le_compat; try lra. apply Rinv_le_contravar; lra. apply Rle_trans with (100000000000 * 6); [|lra]. apply Rmult_le_compat; try lra. left; apply Rinv_0_lt_compat; lra. rewrite <- (Rinv_inv 6). apply Rinv_le_contravar; lra. }
  assert (Q0 : B2R e / B2R cf = E / G * (p * / q)) by (rewrite Vp, Vq; field; split; lra).
  assert (EG0 : 0 < E / G) by lra.
  assert (Q1 : E / G * (99 / 100) <= B2R e / B2R cf <= E / G * 2). { rewrite Q0. split; apply Rmult_le_compat_l; lra. }
  destruct (op_div e cf Fe) as (Fw & Vw). rewrite Vq. assert (0 < G * q) by (apply Rmult_lt_0_compat; lra). lra. { rewrite Rabs_pos_eq by lra. change (bpow radix2 64) with 18446744073709551616. lra. }
  eexists. split. reflexivity. split. exact Fw.
  assert (ML : bpow radix2 (2 - emax f) <= B2R e / B2R cf). { apply Rle_trans with (bpow radix2 (-90)). apply bpow_le. destruct f; discriminate. rewrite b90. assert (/ 100000000000000000000000 <= exp (-46) / 10) by interval. lra. }
  destruct (rnd_fac f (B2R e / B2R cf) ltac:(lra) ML) as (r & Vr & Hr). rewrite <- Vw, Q0 in Vr.
  assert (PR := fac (p * / q) r _ _ PQ2 Hr ltac:(lra)). assert (PR2 : Rabs (p * / q * r - 1) <= 15905 / 10 * u + 18 * / 18014398509481984). { eapply Rle_trans. exact PR. assert (u * u <= / 16777216 * u) by (apply Rmult_le_compat_r; lra). lra. }
  destruct (fac_of (E / G) (gamma_P A Z) _ P0 PT) as (s & Vs & Hs). assert (SR := fac s (p * / q * r) _ _ Hs PR2 ltac:(lra)).
  unfold rel_err. rewrite (Rabs_pos_eq (gamma_P A Z)) by lra. apply (of_fac _ _ (s * (p * / q * r))). lra. rewrite Vr, Vs. ring. eapply Rle_trans. exact SR. lra.
Qed.

(** ** Upper continued fraction *)
Lemma lnGamma_below x : / 2 <= x <= 10 -> (x - / 2) * ln (x + 543 / 128) - (x + 543 / 128) + 908 / 1000 <= ln (Gamma x).
Proof.
  intros X. assert (T := Lg_trunc x ltac:(lra)). apply Rabs_le_inv in T. unfold Lg in T. assert (L := lanc_low x ltac:(lra)). assert (LL : ln (99 / 100) <= ln (lanc (x - 1))) by (apply ln_le; lra). assert (- 101 / 10000 <= ln (99 / 100)) by interval. assert (9189 / 10000 <= ln (2 * PI) / 2) by interval. lra.
Qed.
Lemma ln_dec c z0 z : 0 < z0 <= z -> 0 <= c <= z0 -> c * ln z - z <= c * ln z0 - z0.
Proof.
  intros Z C. assert (D : ln z - ln z0 <= z / z0 - 1). { unfold Rminus at 1. rewrite <- ln_Rinv, <- ln_mult by (try apply Rinv_0_lt_compat; lra). fold (z / z0). assert (P : 0 < z / z0) by (apply Rdiv_lt_0_compat; lra). assert (Q := exp_ineq1_le (ln (z / z0))). rewrite exp_ln in Q by auto. lra. }
  assert (c * (ln z - ln z0) <= c * (z / z0 - 1)) by (apply Rmult_le_compat_l; lra). assert (c * (z / z0 - 1) <= z0 * (z / z0 - 1)). { apply Rmult_le_compat_r. assert (1 <= z / z0). { apply (Rmult_le_reg_r z0). lra. unfold Rdiv. rewrite Rmult_assoc, Rinv_l by lra. lra. } lra. lra. } replace (z0 * (z / z0 - 1)) with (z - z0) in H0 by (field; lra). lra.
Qed.
Lemma W_small a z : / 2 <= a <= 10 -> a + 99 / 10 <= z -> let W := a * ln z - z - ln (Gamma a) in W <= - 18 / 10 /\ W + ln z <= 12 / 10 /\ (49 <= z -> W <= - 219 / 10) /\ - z - 29 <= W.
Proof.
  intros A Z W. assert (G := lnGamma_below a A). assert (GS := lnGamma_size a ltac:(lra)). assert (LZ : 0 <= ln z) by (rewrite <- ln_1; apply ln_le; lra). assert (AL : 0 <= a * ln z) by (apply Rmult_le_pos; lra).
  assert (L15 : 0 <= ln (a + 5) <= 271 / 100). { split. rewrite <- ln_1. apply ln_le; lra. apply Rle_trans with (ln 15). apply ln_le; lra. interval. } assert (AL15 : a * ln (a + 5) <= 10 * (271 / 100)) by (apply Rmult_le_compat; lra).
  split; [|split; [|split]].
  - assert (D := ln_dec a (a + 99 / 10) z ltac:(lra) ltac:(lra)). assert (a * ln (a + 99 / 10) - (a + 99 / 10) - ((a - / 2) * ln (a + 543 / 128) - (a + 543 / 128) + 908 / 1000) <= -18 / 10) by interval with (i_bisect a, i_taylor a). unfold W. lra.
  - assert (D := ln_dec (a + 1) (a + 99 / 10) z ltac:(lra) ltac:(lra)). assert ((a + 1) * ln (a + 99 / 10) - (a + 99 / 10) - ((a - / 2) * ln (a + 543 / 128) - (a + 543 / 128) + 908 / 1000) <= 12 / 10) by interval with (i_bisect a, i_taylor a). unfold W. lra.
  - intros H. assert (D := ln_dec a 49 z ltac:(lra) ltac:(lra)). assert (a * ln 49 - 49 - ((a - / 2) * ln (a + 543 / 128) - (a + 543 / 128) + 908 / 1000) <= - 219 / 10) by interval with (i_bisect a, i_taylor a). unfold W. lra.
  - unfold W. lra.
Qed.
Lemma nofit z : bpow radix2 (emax f - 9) < exp (z + 33) -> 49 <= z /\ (f <> F32 -> 600 <= z).
Proof.
  intros H. assert (T : forall k c, (0 < k <= emax f - 9)%Z -> exp (c + 33) <= bpow radix2 k -> c <= z). { intros k c Hk Hc. destruct (Rle_or_lt c z); auto. assert (exp (z + 33) < exp (c + 33)) by (apply exp_increasing; lra). assert (bpow radix2 k <= bpow radix2 (emax f - 9)) by (apply bpow_le; lia). lra. }
  split. apply (T 119%Z). destruct f; cbn; lia. cbn. interval. intros N. apply (T 1015%Z). destruct f; [congruence| |]; cbn; lia. rewrite bpow_exp. change (IZR radix2) with 2. apply Raux.exp_le. interval.
Qed.
Lemma cf2_acc v (a z : flt f) : finite a = true -> finite z = true -> / 2 <= B2R a < 10 -> B2R a + 10 <= B2R z <= 100000 ->
  exists w, incomplete_gamma_check v a z = Ok w /\ finite w = true /\ Rabs (B2R w - gamma_P (B2R a) (B2R z)) <= 26 * u + bpow radix2 (-55).
Proof.
  intros Fa Fz Ha Hz. set (A := B2R a) in * . set (Z := B2R z) in * . rewrite check_pos; auto; try (fold A; lra); try (fold Z; lra).
  destruct (ofZ_small f 10 ltac:(lia)) as (V10 & F10 & _). destruct (op_sub z a Fz Fa) as (Fd & Vd). { fold A Z. apply Rabs_le. change (bpow radix2 64) with 18446744073709551616. lra. } fold A Z in Vd.
  assert (D10 : 10 <= B2R (z -. a)). { rewrite Vd. rewrite <- V10. rewrite <- (rnd_id f (B2R (ofZ f 10))) by apply fmt_format. apply rnd_le. rewrite V10. lra. }
  rewrite (flt_false (z -. a)); auto. 2: rewrite V10; lra. rewrite (flt_true a); auto. 2: rewrite V10; fold A; lra. cbn [andb orb].
  set (L := ln Z). assert (HL : 0 <= L <= ln 100000). { split. rewrite <- ln_1. apply ln_le; lra. apply ln_le; lra. } assert (L10 : ln 100000 <= 116 / 10) by interval.
  assert (GS := lnGamma_size A ltac:(lra)). assert (L15 : 0 <= ln (A + 5) <= 271 / 100). { split. rewrite <- ln_1. apply ln_le; lra. apply Rle_trans with (ln 15). apply ln_le; lra. interval. } assert (AL15 : A * ln (A + 5) <= 10 * (271 / 100)) by (apply Rmult_le_compat; lra).
  assert (AL : 0 <= A * L <= 116). { split. apply Rmult_le_pos; lra. apply Rle_trans with (10 * (116 / 10)); [|lra]. apply Rmult_le_compat; lra. }
  destruct (W_small A Z ltac:(lra) ltac:(lra)) as (W1 & W2 & W3 & W4). fold L in W1, W2, W3, W4. set (W := A * L - Z - ln (Gamma A)) in * .
  assert (H1 : A * Rabs L <= 116 <= 120) by (rewrite Rabs_pos_eq; lra). assert (H2 : Rabs (A * L - Z) <= Z + 30). { apply Rabs_le. unfold W in W1. lra. } assert (H3 : Rabs W <= Z + 30) by (apply Rabs_le; lra).
  assert (Hz' : A + 99 / 10 <= Z <= 100000) by lra. destruct (cf2_ok a z Fa Fz ltac:(fold A; lra) Hz') as (Fc & Rc). fold A Z in Rc. set (cf := incomplete_gamma_cf_2_recur a z 1) in * .
  assert (G9 := ht_nine A Z ltac:(lra) ltac:(lra) 99 1 ltac:(lia)). destruct (up_trunc A Z ltac:(lra) ltac:(lra)) as (P0 & PT). unfold hw in PT. set (G := ht A 99 1 Z) in * . set (P := gamma_P A Z) in * . assert (GG := Gamma_pos A ltac:(lra)).
  replace (Rpower Z A * exp (- Z) / G / Gamma A) with (exp W / G) in PT. 2:{ unfold W, L. rewrite pre_val by lra. field. split; lra. }
  set (E := exp W) in * . assert (E0 : 0 < E) by apply exp_pos. assert (E1 : E <= 166 / 1000). { apply Rle_trans with (exp (-18 / 10)). apply Raux.exp_le; lra. interval. }
  assert (EZ : E * Z <= 333 / 100). { replace Z with (exp L) by (unfold L; apply exp_ln; lra). unfold E. rewrite <- exp_plus. apply Rle_trans with (exp (12 / 10)). apply Raux.exp_le; lra. interval. }
  assert (IG : 0 < / G <= 10 / 99). { split. apply Rinv_0_lt_compat; lra. rewrite <- (Rinv_inv (10 / 99)). apply Rinv_le_contravar. apply Rinv_0_lt_compat; lra. replace (/ (10 / 99)) with (99 / 10) by field. lra. }
  assert (b76 : bpow radix2 (-76) = / 75557863725914323419136) by reflexivity. assert (b55 : bpow radix2 (-55) = / 36028797018963968) by reflexivity. assert (b54 : bpow radix2 (-54) = / 18014398509481984) by reflexivity. rewrite b76 in PT. rewrite b55. apply Rabs_le_inv in PT.
  destruct (ofZ_small f 1 ltac:(lia)) as (V1 & F1 & _).
  assert (c0 : 0 < B2R cf /\ 9 <= B2R cf). { apply Rabs_le_inv in Rc. assert (42 / 10 * u * G <= 42 / 10 * / 16777216 * G) by (apply Rmult_le_compat_r; lra). lra. }
  assert (Fin : forall (e : flt f) Q, finite e = true -> 0 <= B2R e -> B2R e <= 1 -> Rabs (B2R e / B2R cf - Q) <= 242 / 10 * u + 3 / 10 * / 18014398509481984 -> Rabs (Q - (1 - P)) <= / 1000000 * u + 2 * / 75557863725914323419136 -> let w := ofZ f 1 -. e /. cf in finite w = true /\ Rabs (B2R w - P) <= 26 * u + / 36028797018963968).
  { intros e Q Fe Pe Ne HQ HP w. assert (Y0 : 0 <= B2R e / B2R cf <= / 9). { split. apply Rmult_le_pos. lra. left. apply Rinv_0_lt_compat. lra. replace (/ 9) with (1 * / 9) by ring. apply Rmult_le_compat; try lra. left. apply Rinv_0_lt_compat. lra. apply Rinv_le_contravar; lra. }
    destruct (op_div e cf Fe) as (Fy & Vy). lra. { rewrite Rabs_pos_eq by lra. change (bpow radix2 64) with 18446744073709551616. lra. } assert (Ey := @grnd f (B2R e / B2R cf)). rewrite <- Vy in Ey. rewrite (Rabs_pos_eq (B2R e / B2R cf)) in Ey by lra. assert (uY : u * (B2R e / B2R cf) <= u * / 9) by (apply Rmult_le_compat_l; lra).
    set (Y := B2R e / B2R cf) in * . set (y := e /. cf) in * . destruct (op_sub (ofZ f 1) y F1 Fy) as (Fw & Vw). { rewrite V1. apply Rabs_le. change (bpow radix2 64) with 18446744073709551616. apply Rabs_le_inv in Ey. lra. } split. exact Fw. assert (Ew := @grnd f (1 - B2R y)). rewrite V1 in Vw. rewrite <- Vw in Ew. fold w in Ew.
    assert (YY : Rabs (1 - B2R y) <= 1 + / 1000000). { apply Rabs_le_inv in Ey. apply Rabs_le. lra. } assert (uYY : u * Rabs (1 - B2R y) <= u * (1 + / 1000000)) by (apply Rmult_le_compat_l; lra).
    apply Rabs_le_inv in Ew. apply Rabs_le_inv in Ey. apply Rabs_le_inv in HQ. apply Rabs_le_inv in HP. apply Rabs_le. lra. }
  assert (QT : Rabs (E / G - (1 - P)) <= / 75557863725914323419136) by (apply Rabs_le; lra).
  unfold incomplete_gamma_cf_2. destruct (Rle_or_lt (exp (Z + 33)) (bpow radix2 (emax f - 9))) as [FT|NF].
  - assert (FT' : exp_fit f (Z + 30 + 3)) by (unfold exp_fit; replace (Z + 30 + 3) with (Z + 33) by ring; exact FT). destruct (exp_fit_u f _ FT') as (UZ & _).
    destruct (pre_ok v a z 116 (Z + 30) (Z + 30) Fa Fz) as (l & lg & e & El & Eg & Ee & Fe & Re); try (fold A; lra); try (fold Z; lra). exact H1. { split. exact H2. lra. } exact H3. exact FT'.
    rewrite El. cbn [bind]. rewrite Eg. cbn [bind]. rewrite Ee. cbn [bind]. eexists. split. reflexivity. fold cf. 
    unfold rel_err in Re. fold A Z L W E in Re. rewrite (Rabs_pos_eq E) in Re by lra. rewrite b54 in Re. set (dp := (108 + 1003 / 1000 * (67 / 10 * 116 + (Z + 30) + (Z + 30) + 434)) * u + (16 + (Z + 30) / 100) * / 18014398509481984) in * .
    assert (DP : 0 <= dp <= / 1000). { unfold dp. split. assert (0 <= Z * u) by (apply Rmult_le_pos; lra). lra. lra. }
    assert (DPE : dp * E <= 1388 * u * E + 202 / 100 * u * (E * Z) + 17 * / 18014398509481984 * E + / 18014398509481984 * (E * Z) / 100). { unfold dp. assert (0 <= u * E) by (apply Rmult_le_pos; lra). assert (0 <= u * (E * Z)) by (apply Rmult_le_pos; [lra|apply Rmult_le_pos; lra]). lra. }
    assert (uE : u * E <= u * (166 / 1000)) by (apply Rmult_le_compat_l; lra). assert (uEZ : u * (E * Z) <= u * (333 / 100)) by (apply Rmult_le_compat_l; lra). assert (DPE2 : dp * E <= 2372 / 10 * u + 29 / 10 * / 18014398509481984) by lra. apply Rabs_le_inv in Re.
    apply (Fin e (E / G)). exact Fe. assert (dp * E <= / 1000 * E) by (apply Rmult_le_compat_r; lra). lra. lra.
    + apply Rabs_le_inv in Rc. assert (RG : 42 / 10 * u * G = 42 / 10 * (u * G)) by ring.
      replace (B2R e / B2R cf - E / G) with (((B2R e - E) - E * ((B2R cf - G) * / G)) * / B2R cf) by (field; lra). rewrite Rabs_mult, (Rabs_pos_eq (/ B2R cf)) by (left; apply Rinv_0_lt_compat; lra).
      assert (C1 : Rabs ((B2R cf - G) * / G) <= 42 / 10 * u). { rewrite Rabs_mult, (Rabs_pos_eq (/ G)) by lra. apply (Rmult_le_reg_r G). lra. rewrite Rmult_assoc, Rinv_l by lra. rewrite Rmult_1_r. apply Rabs_le. lra. }
      assert (C2 : Rabs (E * ((B2R cf - G) * / G)) <= 166 / 1000 * (42 / 10 * u)). { rewrite Rabs_mult, (Rabs_pos_eq E) by lra. apply Rmult_le_compat; try lra. apply Rabs_pos. } apply Rabs_le_inv in C2.
      assert (C3 : Rabs (B2R e - E - E * ((B2R cf - G) * / G)) <= 238 * u + 29 / 10 * / 18014398509481984) by (apply Rabs_le; lra).
      assert (IC : / B2R cf <= 1001 / 1000 * (10 / 99)). { rewrite <- (Rinv_inv (1001 / 1000 * (10 / 99))). apply Rinv_le_contravar. apply Rinv_0_lt_compat; lra. replace (/ (1001 / 1000 * (10 / 99))) with (99000 / 10010) by field. assert (u * G <= / 16777216 * G) by (apply Rmult_le_compat_r; lra). lra. }
      apply Rle_trans with ((238 * u + 29 / 10 * / 18014398509481984) * (1001 / 1000 * (10 / 99))). apply Rmult_le_compat; try lra. apply Rabs_pos. left; apply Rinv_0_lt_compat; lra. lra.
    + eapply Rle_trans. exact QT. lra.
  - destruct (nofit Z NF) as (Z49 & Z600). specialize (W3 Z49). 
    assert (E9 : E <= / 100 * u).
    { assert (H : f = F32 \/ f <> F32) by (destruct f; [left|right|right]; congruence). destruct H as [H|H].
      - rewrite H. apply Rle_trans with (exp (- 219 / 10)). apply Raux.exp_le. lra. change (uf F32) with (/ 16777216). interval.
      - specialize (Z600 H). assert (D := ln_dec A 600 Z ltac:(lra) ltac:(lra)). fold L in D. assert (A * ln 600 <= 10 * (64 / 10)). { apply Rmult_le_compat; try lra. rewrite <- ln_1. apply ln_le; lra. interval. } apply Rle_trans with (exp (-400)). apply Raux.exp_le. unfold W. lra. apply Rle_trans with (/ 100 * bpow radix2 (-64)). change (bpow radix2 (-64)) with (/ 18446744073709551616). interval. apply Rmult_le_compat_l. lra. unfold uf. apply bpow_le. destruct f; discriminate. }
    destruct (pre_arg v a z 116 (Z + 30) (Z + 30) Fa Fz) as (l & lg & El & Eg & Ft & Et); try (fold A; lra); try (fold Z; lra). exact H1. { split. exact H2. lra. } { split. exact H3. lra. } fold A Z L W in Et.
    rewrite El. cbn [bind]. rewrite Eg. cbn [bind]. set (t := a *. l -. z -. lg) in * . rewrite b54 in Et.
    assert (DT : Rabs (B2R t - W) <= / 50). { eapply Rle_trans. exact Et. assert (u * Z <= / 16777216 * 100000) by (apply Rmult_le_compat; lra). lra. } apply Rabs_le_inv in DT.
    destruct (exp_check_range v t Ft) as (e & Ee & (Ne & Se) & _ & Re). { apply Rle_trans with 200000. apply Rabs_le. lra. apply IZR_le. lia. } destruct (Re ltac:(lra)) as (Fe & Be). rewrite Ee. cbn [bind]. eexists. split. reflexivity. fold cf.
    assert (e0 : 0 <= B2R e). { destruct e as [s|s| |s m ex He]; cbn in Se |- *; try lra. subst s. cbn. apply F2R_ge_0. cbn. lia. }
    assert (eT : exp (B2R t) <= 103 / 100 * E). { apply Rle_trans with (exp (/ 50) * E). unfold E. rewrite <- exp_plus. apply Raux.exp_le. lra. apply Rmult_le_compat_r. lra. interval. }
    assert (bm : bpow radix2 (emin f + 5) <= / 100 * u). { apply Rle_trans with (/ 128 * u). change (/ 128) with (bpow radix2 (-7)). unfold uf. rewrite <- bpow_plus. apply bpow_le. destruct f; discriminate. apply Rmult_le_compat_r; lra. }
    assert (e1 : B2R e <= / 10 * u) by lra.
    apply (Fin e (E / G)). exact Fe. exact e0. lra.
    + assert (0 <= E / G <= / 100 * u). { split. apply Rmult_le_pos; lra. apply Rle_trans with (/ 100 * u * 1); [|lra]. apply Rmult_le_compat; lra. } assert (0 <= B2R e / B2R cf <= / 10 * u). { split. apply Rmult_le_pos. lra. left; apply Rinv_0_lt_compat; lra. apply Rle_trans with (/ 10 * u * 1); [|lra]. apply Rmult_le_compat; try lra. left; apply Rinv_0_lt_compat; lra. rewrite <- Rinv_1. apply Rinv_le_contravar; lra. } apply Rabs_le. lra.
    + eapply Rle_trans. exact QT. lra.
Qed.
End Api.
Lemma api_ig_low : forall v f (a z : flt f), finite a = true -> finite z = true -> / 2 <= B2R a < 10 -> / 2 <= B2R z <= B2R a + / 2 ->
  exists w, gcem_incomplete_gamma v (AFlt f a) (AFlt f z) = Ok w /\ finite w = true /\ rel_err (B2R w) (gamma_P (B2R a) (B2R z)) (1600 * bpow radix2 (- prec f) + bpow radix2 (-49)).
Proof.
  intros v f a z Fa Fz A Z. destruct (cf1_acc v a z Fa Fz A Z) as (w & E & F & R).
  assert (Q : forall g : fmt, fmt_max g g = g) by (destruct g; reflexivity). unfold gcem_incomplete_gamma, lift2. cbn [cr_fmt to_fmt]. rewrite Q, !conv_id. exists w. split. exact E. split. exact F. exact R.
Qed.
Lemma api_ig_up : forall v f (a z : flt f), finite a = true -> finite z = true -> / 2 <= B2R a < 10 -> B2R a + 10 <= B2R z <= 100000 ->
  exists w, gcem_incomplete_gamma v (AFlt f a) (AFlt f z) = Ok w /\ finite w = true /\ abs_err (B2R w) (gamma_P (B2R a) (B2R z)) (26 * bpow radix2 (- prec f) + bpow radix2 (-55)).
Proof.
  intros v f a z Fa Fz A Z. destruct (cf2_acc v a z Fa Fz A Z) as (w & E & F & R).
  assert (Q : forall g : fmt, fmt_max g g = g) by (destruct g; reflexivity). unfold gcem_incomplete_gamma, lift2. cbn [cr_fmt to_fmt]. rewrite Q, !conv_id. exists w. split. exact E. split. exact F. exact R.
Qed.
