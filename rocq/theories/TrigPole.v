(** * The expansion of tan at pi/2, in the angle measure *)
From Verif Require Import Base ModelBasic ModelInt ModelElem ModelApi FltLemmas Spec IntProofs BasicProofs ConvLemmas CxxProofs TotalProofs ExpAcc MiscProofs SymLemmas.
From Coq Require Import Lra Psatz.
From Coquelicot Require Import Coquelicot.
From Verif Require Import PF FPErr CFReal CFBound CFTrunc TanAcc SinAcc TrigReal TrigAng TrigWide.
From Interval Require Import Tactic.
Open Scope R_scope.

(** [w] is within [k] units of [v], and [v] is at most [M]. *)
Definition nr {f} (k M : R) (w : flt f) (v : R) : Prop := finite w = true /\ Rabs (B2R w - v) <= k * uf f /\ Rabs v <= M.
Section N.
Context {f : fmt}.
Implicit Types a b w : flt f.
Let u0 := uf_small f.
Lemma b100 : 0 < bpow radix2 (-100) <= / 1000000000. Proof. split. apply bpow_gt_0. cbn. lra. Qed.
Lemma nr_rnd k M v z w : 0 <= k <= 2 -> 0 <= M <= 4 -> Rabs (z - v) <= k * uf f -> Rabs v <= M -> (Rabs z <= 18446744073709551616 -> finite w = true /\ B2R w = rnd f z) -> nr (k + M + / 2000000) M w v.
Proof.
  intros K HM E V W. assert (ku : k * uf f <= 2 * / 16777216) by (apply Rmult_le_compat; lra).
  assert (Az : Rabs z <= M + k * uf f) by (replace z with ((z - v) + v) by ring; eapply Rle_trans; [apply Rabs_triang|lra]).
  destruct W as (F & Vw). lra. split; auto. split; auto. rewrite Vw. assert (R := rnd_small f z). assert (b := b100).
  replace (rnd f z - v) with ((rnd f z - z) + (z - v)) by ring. eapply Rle_trans. apply Rabs_triang.
  assert (uf f * Rabs z <= uf f * (M + 2 * / 16777216)) by (apply Rmult_le_compat_l; lra). assert (uf f * bpow radix2 (-100) <= uf f * / 1000000000) by (apply Rmult_le_compat_l; lra). lra.
Qed.
Lemma nr_le k k' M M' w v : nr k M w v -> k <= k' -> M <= M' -> nr k' M' w v.
Proof. intros (F & E & V) K L. split; auto. split. assert (k * uf f <= k' * uf f) by (apply Rmult_le_compat_r; lra). lra. lra. Qed.
Lemma nmul k1 M1 k2 M2 k M a b A B : nr k1 M1 a A -> nr k2 M2 b B -> 0 <= k1 <= / 2 -> 0 <= k2 <= / 2 -> 0 <= M1 <= 2 -> 0 <= M2 <= 2 ->
  k1 * M2 + k2 * M1 + M1 * M2 + / 1000000 <= k -> k1 * M2 + k2 * M1 <= 1 -> M1 * M2 <= M -> M1 * M2 <= 4 -> nr k M (a *. b) (A * B).
Proof.
  intros (Fa & Ea & Va) (Fb & Eb & Vb) K1 K2 H1 H2 L1 L2 L3 L4. assert (m0 : 0 <= M1 * M2) by (apply Rmult_le_pos; lra). assert (m1 : 0 <= k1 * M2 + k2 * M1) by (apply Rplus_le_le_0_compat; apply Rmult_le_pos; lra).
  assert (E : Rabs (B2R a * B2R b - A * B) <= (k1 * M2 + k2 * M1 + / 4000000) * uf f).
  { replace (B2R a * B2R b - A * B) with ((B2R a - A) * B + A * (B2R b - B) + (B2R a - A) * (B2R b - B)) by ring. eapply Rle_trans. apply Rabs_triang. eapply Rle_trans. apply Rplus_le_compat_r. apply Rabs_triang. rewrite !Rabs_mult.
    assert (Rabs (B2R a - A) * Rabs B <= k1 * uf f * M2) by (apply Rmult_le_compat; auto using Rabs_pos). assert (Rabs A * Rabs (B2R b - B) <= M1 * (k2 * uf f)) by (apply Rmult_le_compat; auto using Rabs_pos).
    assert (k1 * uf f <= / 2 * / 16777216) by (apply Rmult_le_compat; lra). assert (k2 * uf f <= / 2 * uf f) by (apply Rmult_le_compat_r; lra).
    assert (Rabs (B2R a - A) * Rabs (B2R b - B) <= / 2 * / 16777216 * (/ 2 * uf f)) by (apply Rmult_le_compat; auto using Rabs_pos; lra). lra. }
  eapply nr_le. apply (nr_rnd (k1 * M2 + k2 * M1 + / 4000000) (M1 * M2) (A * B) (B2R a * B2R b)). lra. lra. exact E. rewrite Rabs_mult. apply Rmult_le_compat; auto using Rabs_pos. intros; apply op_mul; auto. lra. lra.
Qed.
Lemma nadd k1 M1 k2 M2 k M a b A B : nr k1 M1 a A -> nr k2 M2 b B -> 0 <= k1 <= / 2 -> 0 <= k2 <= / 2 -> 0 <= M1 <= 2 -> 0 <= M2 <= 2 ->
  k1 + k2 + M1 + M2 + / 1000000 <= k -> M1 + M2 <= M -> nr k M (a +. b) (A + B).
Proof.
  intros (Fa & Ea & Va) (Fb & Eb & Vb) K1 K2 H1 H2 L1 L2. eapply nr_le. apply (nr_rnd (k1 + k2) (M1 + M2) (A + B) (B2R a + B2R b)). lra. lra.
  replace (B2R a + B2R b - (A + B)) with ((B2R a - A) + (B2R b - B)) by ring. eapply Rle_trans. apply Rabs_triang. lra. eapply Rle_trans. apply Rabs_triang. lra. intros; apply op_add; auto. lra. lra.
Qed.
Lemma ndiv k1 M1 c k M a A : nr k1 M1 a A -> (2 <= c <= 10000)%Z -> 0 <= k1 <= / 2 -> 0 <= M1 <= 2 ->
  k1 + M1 + / 1000000 * IZR c <= k * IZR c -> M1 <= M * IZR c -> nr k M (a /. ofZ f c) (A / IZR c).
Proof.
  intros (Fa & Ea & Va) C K1 H1 L1 L2. destruct (ofZ_small f c ltac:(lia)) as (Vc & Fc & _). assert (C2 : 2 <= IZR c) by (apply IZR_le; lia). assert (i : 0 < / IZR c <= / 2) by (split; [apply Rinv_0_lt_compat; lra|apply Rinv_le; lra]).
  assert (ic : IZR c * / IZR c = 1) by (field; lra).
  eapply nr_le. apply (nr_rnd (k1 * / IZR c) (M1 * / IZR c) (A / IZR c) (B2R a / B2R (ofZ f c))).
  - split. apply Rmult_le_pos; lra. assert (k1 * / IZR c <= / 2 * / 2) by (apply Rmult_le_compat; lra). lra.
  - split. apply Rmult_le_pos; lra. assert (M1 * / IZR c <= 2 * / 2) by (apply Rmult_le_compat; lra). lra.
  - rewrite Vc. replace (B2R a / IZR c - A / IZR c) with ((B2R a - A) * / IZR c) by (field; lra). rewrite Rabs_mult, (Rabs_pos_eq (/ _)) by lra. replace (k1 * / IZR c * uf f) with (k1 * uf f * / IZR c) by ring. apply Rmult_le_compat_r; lra.
  - unfold Rdiv. rewrite Rabs_mult, (Rabs_pos_eq (/ _)) by lra. apply Rmult_le_compat_r; lra.
  - intros. apply op_div; auto. rewrite Vc. lra.
  - apply Rmult_le_reg_r with (IZR c). lra. rewrite !Rmult_plus_distr_r, !Rmult_assoc, Rinv_l, !Rmult_1_r by lra. lra.
  - apply Rmult_le_reg_r with (IZR c). lra. rewrite !Rmult_assoc, Rinv_l, !Rmult_1_r by lra. lra.
Qed.
Lemma nexact a M : finite a = true -> Rabs (B2R a) <= M -> nr 0 M a (B2R a).
Proof. intros F H. split; auto. split; auto. rewrite Rminus_diag_eq, Rabs_R0 by auto. lra. Qed.

Lemma series_sum (z : flt f) : finite z = true -> Rabs (B2R z) <= 3 / 100 -> exists z3 z5 z7,
  pow_integral I32 z 3 = Ok z3 /\ pow_integral I32 z 5 = Ok z5 /\ pow_integral I32 z 7 = Ok z7 /\
  nr (3 / 100) (11 / 1000) (z /. ofZ f 3 +. (z3 /. ofZ f 45 +. (ofZ f 2 *. z5 /. ofZ f 945 +. z7 /. ofZ f 4725))) (sser (B2R z)).
Proof.
  intros Fz Hz. exists (z *. z *. z), (ofZ f 1 *. z *. ((z *. z) *. (z *. z))), (ofZ f 1 *. z *. (z *. z) *. ((z *. z) *. (z *. z))). split; [reflexivity|]. split; [reflexivity|]. split; [reflexivity|].
  set (r := B2R z) in * . assert (Nz : nr 0 (3 / 100) z r) by (apply nexact; auto).
  destruct (ofZ_small f 1 ltac:(lia)) as (V1 & F1 & _). destruct (ofZ_small f 2 ltac:(lia)) as (V2 & F2 & _).
  assert (N1 : nr 0 1 (ofZ f 1) 1). { rewrite <- V1 at 2. apply nexact; auto. rewrite V1, Rabs_R1. lra. }
  assert (N2 : nr 0 2 (ofZ f 2) 2). { rewrite <- V2 at 2. apply nexact; auto. rewrite V2, Rabs_pos_eq; lra. }
  assert (Z2 : nr (/ 1000) (9 / 10000) (z *. z) (r * r)) by (eapply nmul; [exact Nz|exact Nz|..]; lra).
  assert (Z3 : nr (/ 10000) (27 / 1000000) (z *. z *. z) (r * r * r)) by (eapply nmul; [exact Z2|exact Nz|..]; lra).
  assert (Z4 : nr (/ 100000) (/ 1000000) (z *. z *. (z *. z)) (r * r * (r * r))) by (eapply nmul; [exact Z2|exact Z2|..]; lra).
  assert (Z1 : nr (31 / 1000) (3 / 100) (ofZ f 1 *. z) (1 * r)) by (eapply nmul; [exact N1|exact Nz|..]; lra).
  assert (Z5 : nr (/ 100000) (/ 10000000) (ofZ f 1 *. z *. (z *. z *. (z *. z))) (1 * r * (r * r * (r * r)))) by (eapply nmul; [exact Z1|exact Z4|..]; lra).
  assert (Z3' : nr (/ 10000) (27 / 1000000) (ofZ f 1 *. z *. (z *. z)) (1 * r * (r * r))) by (eapply nmul; [exact Z1|exact Z2|..]; lra).
  assert (Z7 : nr (/ 100000) (/ 10000000) (ofZ f 1 *. z *. (z *. z) *. (z *. z *. (z *. z))) (1 * r * (r * r) * (r * r * (r * r)))) by (eapply nmul; [exact Z3'|exact Z4|..]; lra).
  assert (D1 : nr (11 / 1000) (/ 100) (z /. ofZ f 3) (r / IZR 3)) by (eapply ndiv; [exact Nz|lia|..]; lra).
  assert (D3 : nr (/ 100000) (/ 1000000) (z *. z *. z /. ofZ f 45) (r * r * r / IZR 45)) by (eapply ndiv; [exact Z3|lia|..]; lra).
  assert (Y5 : nr (3 / 100000) (2 / 10000000) (ofZ f 2 *. (ofZ f 1 *. z *. (z *. z *. (z *. z)))) (2 * (1 * r * (r * r * (r * r))))) by (eapply nmul; [exact N2|exact Z5|..]; lra).
  assert (D5 : nr (/ 100000) (/ 10000000) (ofZ f 2 *. (ofZ f 1 *. z *. (z *. z *. (z *. z))) /. ofZ f 945) (2 * (1 * r * (r * r * (r * r))) / IZR 945)) by (eapply ndiv; [exact Y5|lia|..]; lra).
  assert (D7 : nr (/ 100000) (/ 10000000) (ofZ f 1 *. z *. (z *. z) *. (z *. z *. (z *. z)) /. ofZ f 4725) (1 * r * (r * r) * (r * r * (r * r)) / IZR 4725)) by (eapply ndiv; [exact Z7|lia|..]; lra).
  replace (sser r) with (r / IZR 3 + (r * r * r / IZR 45 + (2 * (1 * r * (r * r * (r * r))) / IZR 945 + 1 * r * (r * r) * (r * r * (r * r)) / IZR 4725))) by (unfold sser; field).
  eapply nadd. exact D1. eapply (nadd _ _ _ _ (/ 1000) (/ 100000)). exact D3. eapply (nadd _ _ _ _ (/ 10000) (/ 1000000)). exact D5. exact D7. all: lra.
Qed.
End N.
Lemma diff_far {f} (x y : flt f) : finite x = true -> finite y = true -> / 4 <= Rabs (B2R x) <= 1000000000000000000 -> / 4 <= Rabs (B2R y) <= 1000000000000000000 -> let s := x -. y in
  finite s = true /\ B2R s = rnd f (B2R x - B2R y) /\ (B2R s = 0 \/ uf f / 2 <= Rabs (B2R s)).
Proof.
  intros Fx Fy X Y. cbv zeta. destruct (op_sub x y Fx Fy) as (Fs & Vs). { unfold Rminus. eapply Rle_trans. apply Rabs_triang. rewrite Rabs_Ropp. lra. } split; auto. split; auto. rewrite Vs.
  destruct (grid y (proj1 Y)) as (m & Em). destruct (grid x (proj1 X)) as (k & Ek). assert (u0 := uf_small f).
  rewrite Ek, Em. replace (IZR k * (uf f / 2) - IZR m * (uf f / 2)) with (IZR (k - m) * (uf f / 2)) by (rewrite minus_IZR; ring).
  destruct (Z.eq_dec (k - m) 0) as [->|N]. left. rewrite Rmult_0_l. apply rnd_id. apply generic_format_0.
  right. rewrite rnd_abs. apply rnd_ge_fmt. { replace (uf f / 2) with (bpow radix2 (- prec f - 1)) by (unfold uf, Zminus; rewrite bpow_plus; reflexivity). apply fmt_bpow. unfold emin. destruct f; discriminate. }
  rewrite Rabs_mult, (Rabs_pos_eq (uf f / 2)) by lra. assert (1 <= Rabs (IZR (k - m))) by (rewrite <- abs_IZR; apply IZR_le; lia). nra.
Qed.
Lemma lit16 f : finite (dlit f 16331240000000000 0) = true /\ 16000000000000000 <= B2R (dlit f 16331240000000000 0) <= 17000000000000000.
Proof.
  destruct f; (split; [vm_compute; reflexivity|]).
  - rewrite (B2R_sf _ (SpecFloat.S754_finite false 15209652 30)) by (vm_compute; reflexivity). unfold SF2R, F2R; cbn [Fnum Fexp cond_Zopp]; change (bpow radix2 30) with 1073741824; lra.
  - rewrite (B2R_sf _ (SpecFloat.S754_finite false 8165620000000000 1)) by (vm_compute; reflexivity). unfold SF2R, F2R; cbn [Fnum Fexp cond_Zopp]; change (bpow radix2 1) with 2; lra.
  - rewrite (B2R_sf _ (SpecFloat.S754_finite false 16723189760000000000 (-10))) by (vm_compute; reflexivity). unfold SF2R, F2R; cbn [Fnum Fexp cond_Zopp]; change (bpow radix2 (-10)) with (/ 1024); lra.
Qed.
Lemma pole_acc {f} (x : flt f) : finite x = true -> 1549 / 1000 <= B2R x <= 16000002 / 10000000 ->
  exists w, tan_series_exp x = Ok w /\ finite w = true /\ Rabs (B2R w) <= 3 / uf f + 20000000000000000 /\ ang (B2R w) (B2R x) <= 3 * uf f + bpow radix2 (-53).
Proof.
  intros Fx X. assert (u0 := uf_small f). destruct (half_pi_val f) as (Fh & _). assert (Hh := hpi_near f). unfold hpi in Hh. assert (Hh' := Hh). apply Rabs_le_inv in Hh'. assert (P : 157079 / 100000 < PI / 2 < 15708 / 10000) by (split; interval).
  assert (iu : 16777216 <= / uf f). { rewrite <- (Rinv_inv 16777216) by lra. apply Rinv_le; lra. }
  destruct (diff_far x (conv f GCEM_HALF_PI) Fx Fh) as (Fz & Vz & Far). rewrite Rabs_pos_eq; lra. rewrite Rabs_pos_eq; lra.
  unfold tan_series_exp. set (z := x -. conv f GCEM_HALF_PI) in * . set (h := B2R (conv f GCEM_HALF_PI)) in * . set (r := B2R x) in * .
  assert (b53 : bpow radix2 (-53) = / 9007199254740992) by reflexivity.
  destruct (ModelBasic.abs z <. fmin f) eqn:C.
  - apply (near_true z _ Fz Vz) in C. assert (fs := fm_small f). destruct (lit16 f) as (Fl & Vl). eexists. split; [reflexivity|]. split; auto. set (w := B2R (dlit f 16331240000000000 0)) in * .
    split. rewrite Rabs_pos_eq by lra. unfold Rdiv. lra.
    assert (A := ang_x w r (PI / 2)). assert (B : ang w (PI / 2) <= / 16000000000000000). { apply ang_le. lra. rewrite cos_PI2, sin_PI2. replace (w * 0 - 1) with (- (1)) by ring. rewrite Rabs_Ropp, Rabs_R1, Rabs_pos_eq by lra. lra. }
    apply Rabs_lt_inv in C. assert (Rabs (r - PI / 2) <= 2 * uf f) by (apply Rabs_le; lra). rewrite b53. lra.
  - destruct (fmin_spec f) as (Vm & Fm). apply flt_false_inv in C; auto. 2: rewrite abs_finite; auto. rewrite abs_B2R, Vm in C. assert (fm0 := bpow_gt_0 radix2 (2 - emax f)).
    destruct Far as [Z|Far]. rewrite Z, Rabs_R0 in C; lra.
    assert (Ez := rnd_small f (r - h)). rewrite <- Vz in Ez. assert (b1 := b100). assert (Rh : Rabs (r - h) <= 293 / 10000) by (apply Rabs_le; lra).
    assert (uf f * Rabs (r - h) <= uf f * (293 / 10000)) by (apply Rmult_le_compat_l; lra). assert (uf f * bpow radix2 (-100) <= uf f * / 1000000000) by (apply Rmult_le_compat_l; lra).
    assert (Hz : Rabs (B2R z) <= 3 / 100). { replace (B2R z) with ((B2R z - (r - h)) + (r - h)) by ring. eapply Rle_trans. apply Rabs_triang. lra. }
    destruct (series_sum z Fz Hz) as (z3 & z5 & z7 & E3 & E5 & E7 & Fs & Es & Ms). unfold tan_series_exp_long. rewrite E3. cbn [bind]. rewrite E5. cbn [bind]. rewrite E7. cbn [bind].
    set (s := z /. ofZ f 3 +. _) in * . set (t := B2R z) in * . set (S := sser t) in * . eexists. split; [reflexivity|].
    assert (t0 : t <> 0) by (intros K; rewrite K, Rabs_R0 in Far; lra). assert (at0 : 0 < Rabs t) by lra.
    destruct (ofZ_small f (-1) ltac:(lia)) as (Vm1 & Fm1 & _). assert (it : 33 <= / Rabs t <= 2 * / uf f). { split. apply Rle_trans with (/ (3 / 100)). lra. apply Rinv_le; lra. replace (2 * / uf f) with (/ (uf f / 2)) by (field; lra). apply Rinv_le; lra. }
    assert (AQ : Rabs (-1 / t) = / Rabs t) by (unfold Rdiv; rewrite Rabs_mult, Rabs_inv, Rabs_left by lra; lra).
    assert (p10 : bpow radix2 (prec f + 10) = 1024 * / uf f) by apply pb10.
    destruct (fdiv_spec (ofZ f (-1)) z Fm1 t0) as (Va & Fa). { apply fin_big. rewrite Vm1. fold t. rewrite AQ, p10. lra. } rewrite Vm1 in Va. fold t in Va.
    destruct (rnd_u f (-1 / t)) as (e1 & He1 & Ve1). { apply norm_le. rewrite AQ. lra. } rewrite Ve1 in Va. clear Ve1. assert (H1 := He1). apply Rabs_le_inv in H1.
    set (a := B2R (ofZ f (-1) /. z)) in * . assert (Ea : Rabs (a + B2R s - (- / t + S)) <= 1002 / 1000 * uf f * / Rabs t).
    { rewrite Va. replace (-1 / t * (1 + e1) + B2R s - (- / t + S)) with (-1 / t * e1 + (B2R s - S)) by (field; auto). eapply Rle_trans. apply Rabs_triang. rewrite Rabs_mult, AQ.
      assert (/ Rabs t * Rabs e1 <= / Rabs t * uf f) by (apply Rmult_le_compat_l; lra). assert (3 / 100 * uf f <= / 1000 * uf f * / Rabs t). { rewrite Rmult_comm, (Rmult_comm (/ 1000)), Rmult_assoc. apply Rmult_le_compat_l; lra. } lra. }
    assert (W0 : 999 / 1000 * / Rabs t <= Rabs (- / t + S) <= 1001 / 1000 * / Rabs t).
    { assert (K : Rabs (- / t) = / Rabs t) by (rewrite Rabs_Ropp, Rabs_inv; auto). assert (I1 := Rabs_triang_inv (- / t) (- S)). assert (I2 := Rabs_triang (- / t) S). rewrite (Rabs_Ropp S) in I1. replace (- / t - - S) with (- / t + S) in I1 by ring. rewrite K in I1, I2. lra. }
    set (w0 := - / t + S) in * . assert (w00 : w0 <> 0) by (intros K; rewrite K, Rabs_R0 in W0; lra).
    set (rho := (a + B2R s) / w0 - 1). assert (Hr : Rabs rho <= 1005 / 1000 * uf f).
    { replace rho with ((a + B2R s - w0) / w0) by (unfold rho; field; auto). unfold Rdiv. rewrite Rabs_mult, Rabs_inv. apply Rmult_le_reg_r with (Rabs w0). lra. rewrite Rmult_assoc, Rinv_l, Rmult_1_r by lra. eapply Rle_trans. exact Ea.
      apply Rle_trans with (1005 / 1000 * uf f * (999 / 1000 * / Rabs t)). assert (0 < uf f * / Rabs t) by (apply Rmult_lt_0_compat; lra). lra. apply Rmult_le_compat_l; lra. }
    assert (Es2 : a + B2R s = w0 * (1 + rho)) by (unfold rho; field; auto). assert (Hr2 := Hr). apply Rabs_le_inv in Hr2.
    assert (Ab : 32 <= Rabs (a + B2R s) <= 21 / 10 * / uf f). { rewrite Es2, Rabs_mult, (Rabs_pos_eq (1 + rho)) by lra. split. apply Rle_trans with (999 / 1000 * 33 * (999 / 1000)). lra. apply Rmult_le_compat; lra. apply Rle_trans with (1001 / 1000 * (2 * / uf f) * (1001 / 1000)). apply Rmult_le_compat; lra. lra. }
    destruct (fadd_spec (ofZ f (-1) /. z) s Fa Fs) as (Vw & Fw). { apply fin_big. fold a. rewrite p10. lra. } fold a in Vw. split; auto.
    destruct (rnd_u f (a + B2R s)) as (e2 & He2 & Ve2). { apply norm_le. lra. } rewrite Ve2 in Vw. rewrite Vw. assert (H2 := He2). apply Rabs_le_inv in H2.
    split. { rewrite Rabs_mult, (Rabs_pos_eq (1 + e2)) by lra. apply Rle_trans with (21 / 10 * / uf f * (1001 / 1000)). apply Rmult_le_compat; try lra. unfold Rdiv. lra. }
    set (p := (1 + rho) * (1 + e2) - 1). assert (Hp : Rabs p <= 201 / 100 * uf f). { replace p with (rho + e2 + rho * e2) by (unfold p; ring). assert (Rabs (rho * e2) <= / 1000000 * uf f). { rewrite Rabs_mult. apply Rmult_le_compat; auto using Rabs_pos. lra. } apply Rabs_le_inv in H3. apply Rabs_le. lra. }
    assert (A := ang_series t p ((a + B2R s) * (1 + e2)) t0 Hz ltac:(lra)). fold S w0 in A. specialize (A ltac:(rewrite Es2; unfold p; ring)).
    assert (B := ang_x ((a + B2R s) * (1 + e2)) r (PI / 2 + t)). assert (Rabs (r - (PI / 2 + t)) <= 104 / 100 * uf f). { replace (r - (PI / 2 + t)) with ((h - PI / 2) - (t - (r - h))) by ring. unfold Rminus at 1. eapply Rle_trans. apply Rabs_triang. rewrite Rabs_Ropp. lra. }
    assert (b64 : bpow radix2 (-64) <= bpow radix2 (-53)) by (apply bpow_le; lia). lra.
Qed.
