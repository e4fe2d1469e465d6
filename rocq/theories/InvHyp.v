(** * Accuracy of asinh, acosh and atanh *)
From Verif Require Import Base ModelBasic ModelInt ModelElem ModelApi FltLemmas Spec IntProofs BasicProofs ConvLemmas ExpAcc MiscProofs CxxProofs.
From Coq Require Import Lra.
From Coquelicot Require Import Coquelicot.
From Verif Require Import FPErr CFBound CFTrunc CFAcc TanAcc SinAcc TanhAcc SqrtAcc SqrtSimp LogAcc LogApi TrigApi SinhAcc LogBad InvTrig.
From Interval Require Import Tactic.
Open Scope R_scope.

(** ** Logarithm of a perturbed argument *)
Lemma log_pert v {f} (t : flt f) m e E : finite t = true -> B2R t = m * (1 + e) -> Rabs e <= E -> E <= / 1000 -> 53 / 100 <= m ->
  exists w, log_check v t = Ok w /\ finite w = true /\ Rabs (B2R w - ln m) <= 56 / 10 * uf f * Rabs (ln m) + 1003 / 1000 * E.
Proof.
  intros F V He HE M. assert (u0 := uf_pos f). assert (u1 := uf_le f). change (bpow radix2 (-24)) with (/ 16777216) in u1. assert (He' := He). apply Rabs_le_inv in He'.
  destruct (log_check_ge v t F) as (w & Ew & Fw & R). rewrite V. nra. exists w. split; auto. split; auto. unfold rel_err in R. rewrite V, ln_mult in R by lra.
  assert (L := ln1p e ltac:(lra)). set (l := ln m) in * . set (d := ln (1 + e)) in * . assert (L' : Rabs d <= 1002 / 1000 * E) by lra. replace (B2R w - l) with ((B2R w - (l + d)) + d) by ring. apply Rle_trans with (1 := Rabs_triang _ _).
  assert (T := Rabs_triang l d). assert (P := Rabs_pos l). assert (56 / 10 * uf f * Rabs (l + d) <= 56 / 10 * uf f * (Rabs l + 1002 / 1000 * E)) by (apply Rmult_le_compat_l; lra). assert (E0 : 0 <= E) by (assert (Q := Rabs_pos e); lra). assert (uf f * E <= / 16777216 * E) by (apply Rmult_le_compat_r; auto). lra.
Qed.
Lemma fin_top f z : Rabs z <= bpow radix2 (emax f - 1) -> Rabs (rnd f z) <= bpow radix2 (emax f - 1) /\ Rabs (rnd f z) < bpow radix2 (emax f).
Proof.
  intros H. assert (L : Rabs (rnd f z) <= bpow radix2 (emax f - 1)). { rewrite rnd_abs. rewrite <- (rnd_id f (bpow radix2 (emax f - 1))). apply rnd_le; auto. apply generic_format_bpow. unfold fexpf, SpecFloat.fexp, SpecFloat.emin. destruct f; cbn; lia. }
  split; auto. apply Rle_lt_trans with (1 := L). apply bpow_lt. lia.
Qed.
Lemma tinyb (f : fmt) : bpow radix2 (-100) <= / 1000000 /\ 0 < bpow radix2 (-100). Proof. split; [cbn; lra|apply bpow_gt_0]. Qed.
Lemma half_top f : exists B, 2 <= B /\ bpow radix2 (emax f / 2 - 1) = B /\ 2 * (B * B) = bpow radix2 (emax f - 1) /\ 1000 * B <= bpow radix2 (emax f - 1).
Proof.
  exists (bpow radix2 (emax f / 2 - 1)). assert (B1 : 1000 <= bpow radix2 (emax f / 2 - 1)). { apply Rle_trans with (bpow radix2 10). cbn; lra. apply bpow_le. destruct f; cbn; lia. }
  assert (E : 2 * (bpow radix2 (emax f / 2 - 1) * bpow radix2 (emax f / 2 - 1)) = bpow radix2 (emax f - 1)). { rewrite <- bpow_plus. change 2 with (bpow radix2 1). rewrite <- bpow_plus. f_equal. destruct f; reflexivity. }
  split. lra. split; auto. split; auto. rewrite <- E. nra.
Qed.

(** ** asinh *)
Section Asinh.
Variables (v : cxx) (f : fmt) (x : flt f).
Hypothesis (Fx : finite x = true) (X0 : 0 <= B2R x) (X1 : B2R x <= bpow radix2 (emax f / 2 - 1)).
Let u0 := uf_pos f.
Let u1 : uf f <= / 16777216 := uf_le f.
Let X := B2R x.
Lemma sq_one : finite (x *. x +. ofZ f 1) = true /\ 1 <= B2R (x *. x +. ofZ f 1) /\ Rabs (B2R (x *. x +. ofZ f 1) - (X * X + 1)) <= 201 / 100 * uf f * (X * X + 1).
Proof.
  destruct (half_top f) as (B & B2 & EB & BB & _). rewrite EB in X1. assert (U0 := u0). assert (U1 := u1). destruct (tinyb f) as (t1 & t0). destruct (ofZ_small f 1 ltac:(lia)) as (V1 & F1 & _). change (IZR 1) with 1 in V1.
  assert (XX : 0 <= X * X <= B * B) by (unfold X; split; [nra|apply Rmult_le_compat; lra]). destruct (fmul_spec x x Fx Fx) as (Vq & Fq). { apply fin_top. fold X. rewrite Rabs_pos_eq by lra. lra. }
  fold X in Vq. assert (Q := rnd_small f (X * X)). rewrite <- Vq in Q. rewrite (Rabs_pos_eq (X * X)) in Q by lra. assert (Q0 : 0 <= B2R (x *. x)) by (rewrite Vq; rewrite <- (rnd_0 f); apply rnd_le; lra). set (q := x *. x) in * . assert (Q' := Q). apply Rabs_le_inv in Q'.
  assert (uf f * (X * X) <= / 16777216 * (X * X)) by (apply Rmult_le_compat_r; lra). assert (uf f * bpow radix2 (-100) <= / 16777216 * / 1000000) by (apply Rmult_le_compat; lra).
  destruct (fadd_spec q (ofZ f 1) Fq F1) as (Vz & Fz). { apply fin_top. rewrite V1, Rabs_pos_eq by lra. assert (4 <= B * B) by nra. lra. }
  split; auto. rewrite V1 in Vz. assert (Zs := rnd_small f (B2R q + 1)). rewrite <- Vz in Zs. rewrite (Rabs_pos_eq (B2R q + 1)) in Zs by lra. set (z := q +. ofZ f 1) in * . split.
  - rewrite Vz. apply rnd_ge_fmt. change 1 with (bpow radix2 0). apply generic_format_bpow. unfold fexpf, SpecFloat.fexp, SpecFloat.emin. destruct f; cbn; lia. lra.
  - replace (B2R z - (X * X + 1)) with ((B2R z - (B2R q + 1)) + (B2R q - X * X)) by ring. apply Rle_trans with (1 := Rabs_triang _ _). assert (uf f * (B2R q + 1) <= uf f * (1001 / 1000 * (X * X + 1))) by (apply Rmult_le_compat_l; lra). assert (uf f * bpow radix2 (-100) <= uf f * / 1000000) by (apply Rmult_le_compat_l; lra). assert (0 <= uf f * (X * X)) by (apply Rmult_le_pos; lra). lra.
Qed.
Let Rr := sqrt (X * X + 1).
Let m := X + Rr.
Lemma R_rng : 1 <= Rr /\ X <= Rr /\ Rr <= X + 1 /\ Rr * Rr = X * X + 1.
Proof.
  assert (E : Rr * Rr = X * X + 1) by (unfold Rr; rewrite sqrt_sqrt; unfold X; nra). assert (P : 0 <= Rr) by apply sqrt_pos. unfold X in * . nra.
Qed.
Lemma as_ln : 0 <= ln m /\ ln (X * X + 1) <= 2 * ln m.
Proof.
  destruct R_rng as (A & B & C & D). split. apply ln_ge0. unfold m, X in * . lra. replace (2 * ln m) with (ln (m * m)) by (rewrite ln_mult by (unfold m, X in *; lra); lra). apply ln_le_le. unfold X; nra. rewrite <- D. unfold m, X in * . nra.
Qed.
Lemma asinh_pos : bpow radix2 (2 - emax f) <= X -> exists w, asinh_compute v x = Ok w /\ finite w = true /\ Rabs (B2R w - ln m) <= (66 / 10 + 59 / 10 * ln m) * uf f.
Proof.
  intros L. assert (U0 := u0). assert (U1 := u1). destruct sq_one as (Fz & Z1 & Ez). destruct R_rng as (R1 & R2 & R3 & RR). destruct as_ln as (L0 & L2). assert (b0 := bpow_gt_0 radix2 (2 - emax f)). assert (b1 := fm_one f). destruct (tinyb f) as (t1 & t0).
  unfold asinh_compute. rewrite finite_not_nan by auto. rewrite (flt_false (ModelBasic.abs x) (fmin f)). 2: rewrite abs_finite; auto. 2: apply fmin_spec. 2: rewrite abs_B2R, (proj1 (fmin_spec f)), Rabs_pos_eq; auto.
  set (z := x *. x +. ofZ f 1) in * . assert (B170 : bpow radix2 (-170) <= 1) by (change 1 with (bpow radix2 0); apply bpow_le; lia).
  destruct (sqrt_check_acc f z Fz ltac:(lra) ltac:(lra)) as (s & Es & Fs & Rs). rewrite Es. cbn [bind].
  assert (K : exists k, 0 <= k <= 4 + ln (B2R z) / 10 /\ rel_err (B2R s) (sqrt (B2R z)) (k * uf f)). { eexists. split; [|exact Rs]. assert (0 <= ln (B2R z)) by (apply ln_ge0; auto). destruct Rle_dec; lra. }
  clear Rs. destruct K as (k & K & Rs). unfold rel_err in Rs. rewrite (Rabs_pos_eq (sqrt _)) in Rs by apply sqrt_pos. assert (LZ := ln_emax f z Z1).
  set (w2 := X * X + 1) in * . assert (W1 : 1 <= w2) by (unfold w2, X; nra). set (eta := B2R z / w2 - 1). assert (Hz : B2R z = w2 * (1 + eta)) by (unfold eta; field; lra). assert (Heta : Rabs eta <= 201 / 100 * uf f).
  { apply Rmult_le_reg_r with w2. lra. rewrite <- (Rabs_pos_eq w2) at 1 by lra. rewrite <- Rabs_mult. replace (eta * w2) with (B2R z - w2) by (unfold eta; field; lra). exact Ez. }
  assert (Heta' := Heta). apply Rabs_le_inv in Heta'. destruct (sqrt_pert eta (201 / 100 * uf f) Heta ltac:(lra)) as (SP & _). rewrite Hz, sqrt_mult in Rs by lra. fold Rr in Rs. set (g := sqrt (1 + eta)) in * . apply Rabs_le_inv in SP.
  assert (LK : ln (B2R z) <= 2 * ln m + / 100). { rewrite Hz, ln_mult by lra. assert (A := ln1p eta ltac:(lra)). apply Rabs_le_inv in A. unfold w2 in * . lra. }
  assert (KU : 0 <= k * uf f <= 1300 * uf f) by (split; [apply Rmult_le_pos; lra|apply Rmult_le_compat_r; lra]).
  assert (SS : Rabs (B2R s - Rr) <= (11 / 10 + 1001 / 1000 * k) * uf f * Rr). { replace (B2R s - Rr) with ((B2R s - Rr * g) + Rr * (g - 1)) by ring. apply Rle_trans with (1 := Rabs_triang _ _). rewrite Rabs_mult, (Rabs_pos_eq Rr) by lra. assert (Rabs (g - 1) <= 54 / 100 * (201 / 100 * uf f)) by (apply Rabs_le; lra).
    assert (Rr * Rabs (g - 1) <= Rr * (54 / 100 * (201 / 100 * uf f))) by (apply Rmult_le_compat_l; lra). assert (k * uf f * (Rr * g) <= k * uf f * (Rr * (1001 / 1000))). { apply Rmult_le_compat_l. lra. apply Rmult_le_compat_l; lra. } assert (0 <= uf f * Rr) by (apply Rmult_le_pos; lra). lra. }
  assert (SB := SS). apply Rabs_le_inv in SB. assert (C0 : (11 / 10 + 1001 / 1000 * k) * uf f <= / 1000) by lra. assert ((11 / 10 + 1001 / 1000 * k) * uf f * Rr <= / 1000 * Rr) by (apply Rmult_le_compat_r; lra).
  destruct (half_top f) as (B & B2 & EB & _ & B3). assert (XB : X <= B) by (rewrite <- EB; exact X1).
  assert (X0' : 0 <= X) by exact X0. destruct (fadd_spec x s Fx Fs) as (Vt & Ft). { apply fin_top. fold X. rewrite Rabs_pos_eq; lra. }
  fold X in Vt. destruct (rnd_u f (X + B2R s)) as (b & Hb & Vb). rewrite Rabs_pos_eq; lra. rewrite Vb in Vt. apply Rabs_le_inv in Hb.
  set (c := (11 / 10 + 1001 / 1000 * k) * uf f) in * . set (sg := (B2R s - Rr) / m). assert (M1 : 1 <= m) by (unfold m; lra). assert (Hsg : Rabs sg <= c). { unfold sg, Rdiv. rewrite Rabs_mult, (Rabs_pos_eq (/ m)) by (left; apply Rinv_0_lt_compat; lra). apply Rmult_le_reg_r with m. lra. rewrite Rmult_assoc, Rinv_l by lra. assert (0 <= c) by (unfold c; lra). assert (c * Rr <= c * m) by (apply Rmult_le_compat_l; unfold m; lra). lra. }
  assert (Hsg' := Hsg). apply Rabs_le_inv in Hsg'. assert (VT : B2R (x +. s) = m * (1 + (sg + b + sg * b))). { rewrite Vt. unfold sg. unfold m at 1. unfold m. field. unfold m in M1; lra. }
  assert (AB : Rabs (sg * b) <= / 1000 * uf f). { rewrite Rabs_mult. apply Rmult_le_compat; try apply Rabs_pos. lra. apply Rabs_le; lra. } apply Rabs_le_inv in AB.
  destruct (log_pert v (x +. s) m (sg + b + sg * b) (c + 1001 / 1000 * uf f) Ft VT) as (w & Ew & Fw & Rw). apply Rabs_le; lra. unfold c; lra. lra.
  exists w. split; auto. split; auto. apply Rle_trans with (1 := Rw). rewrite (Rabs_pos_eq (ln m)) by auto. unfold c. assert (k * uf f <= (4 + (2 * ln m + / 100) / 10) * uf f) by (apply Rmult_le_compat_r; lra). assert (0 <= uf f * ln m) by (apply Rmult_le_pos; lra). lra.
Qed.
Lemma api_asinh : exists w, gcem_asinh v (AFlt f x) = Ok w /\ finite w = true /\ Rabs (B2R w - arcsinh (B2R x)) <= (7 + 6 * arcsinh (B2R x)) * bpow radix2 (- prec f).
Proof.
  assert (E : arcsinh (B2R x) = ln m) by (unfold arcsinh, m, Rr, X; do 3 f_equal; ring). rewrite E. change (bpow radix2 (- prec f)) with (uf f). destruct as_ln as (L0 & _). assert (U0 := u0). unfold gcem_asinh, lift1. cbn [ret_fmt ret_val].
  assert (UL : 0 <= ln m * uf f) by (apply Rmult_le_pos; lra). destruct (Rle_or_lt (bpow radix2 (2 - emax f)) X) as [L|L].
  - destruct (asinh_pos L) as (w & Ew & Fw & Rw). exists w. split; auto. split; auto. lra.
  - exists (ofZ f 0). destruct (ofZ_small f 0 ltac:(lia)) as (V0 & F0 & _). split; [|split; auto]. unfold asinh_compute. rewrite finite_not_nan by auto. rewrite flt_true; auto. rewrite abs_finite; auto. apply fmin_spec. rewrite abs_B2R, (proj1 (fmin_spec f)), Rabs_pos_eq; auto.
    rewrite V0, Rminus_0_l, Rabs_Ropp, (Rabs_pos_eq (ln m)) by auto. assert (FM := SinhAcc.fm_uf f). assert (ln m <= 3 * X). { destruct R_rng as (R1 & R2 & R3 & RR). assert (X0' : 0 <= X) by exact X0. apply Rle_trans with (m - 1). 2: unfold m; nra. assert (Q := exp_ineq1_le (ln m)). rewrite exp_ln in Q; [lra|unfold m; lra]. }
    lra.
Qed.
Lemma api_asinh_rel : 1 <= B2R x -> exists w, gcem_asinh v (AFlt f x) = Ok w /\ finite w = true /\ rel_err (B2R w) (arcsinh (B2R x)) (14 * bpow radix2 (- prec f)).
Proof.
  intros L. destruct api_asinh as (w & Ew & Fw & Rw). exists w. split; auto. split; auto. unfold rel_err. change (bpow radix2 (- prec f)) with (uf f) in * . assert (E : arcsinh (B2R x) = ln m) by (unfold arcsinh, m, Rr, X; do 3 f_equal; ring). rewrite E in * . assert (U0 := u0).
  assert (88 / 100 <= ln m). { apply Rle_trans with (ln (1 + sqrt 2)). interval. apply ln_le_le. interval. unfold m, Rr, X. apply Rplus_le_compat; auto. apply sqrt_le_1_alt. nra. }
  rewrite (Rabs_pos_eq (ln m)) by lra. apply Rle_trans with (1 := Rw). assert (uf f * (88 / 100) <= uf f * ln m) by (apply Rmult_le_compat_l; lra). lra.
Qed.
End Asinh.

(** ** acosh *)
Lemma above_one {f} (x : flt f) : 1 < B2R x -> 1 + 2 * uf f <= B2R x.
Proof.
  intros L. assert (G1 : generic_format radix2 (fexpf f) 1). { change 1 with (bpow radix2 0). apply generic_format_bpow. unfold fexpf, SpecFloat.fexp, SpecFloat.emin. destruct f; cbn; lia. }
  assert (V : Valid_exp (fexpf f)) by (rewrite fexpf_FLT || idtac; try apply _; unfold fexpf; apply fexp_correct; destruct f; reflexivity).
  assert (S := succ_le_lt radix2 (fexpf f) 1 (B2R x) G1 (fmt_format x) L). rewrite succ_eq_pos in S by lra. change 1 with (bpow radix2 0) in S at 2. rewrite ulp_bpow in S. unfold uf. replace (2 * bpow radix2 (- prec f)) with (bpow radix2 (fexpf f (0 + 1))); auto. change 2 with (bpow radix2 1). rewrite <- bpow_plus. f_equal. destruct f; reflexivity.
Qed.
Section Acosh.
Variables (v : cxx) (f : fmt) (x : flt f).
Hypothesis (Fx : finite x = true) (X0 : 1 < B2R x) (X1 : B2R x <= bpow radix2 (emax f / 2 - 1)).
Let u0 := uf_pos f.
Let u1 : uf f <= / 16777216 := uf_le f.
Let X := B2R x.
Let D := X * X - 1.
Lemma ac_D : 4 * uf f <= D.
Proof. assert (L := above_one x X0). assert (U0 := u0). unfold D, X. nra. Qed.
Lemma sq_mone : finite (x *. x -. ofZ f 1) = true /\ Rabs (B2R (x *. x -. ofZ f 1) - D) <= uf f * (101 / 100 + 201 / 100 * D).
Proof.
  destruct (half_top f) as (B & B2 & EB & BB & _). rewrite EB in X1. assert (U0 := u0). assert (U1 := u1). destruct (tinyb f) as (t1 & t0). destruct (ofZ_small f 1 ltac:(lia)) as (V1 & F1 & _). change (IZR 1) with 1 in V1. assert (DD := ac_D).
  assert (XX : 0 <= X * X <= B * B) by (unfold X; split; [nra|apply Rmult_le_compat; lra]). destruct (fmul_spec x x Fx Fx) as (Vq & Fq). { apply fin_top. fold X. rewrite Rabs_pos_eq by lra. lra. }
  fold X in Vq. assert (Q := rnd_small f (X * X)). rewrite <- Vq in Q. rewrite (Rabs_pos_eq (X * X)) in Q by lra. set (q := x *. x) in * . assert (Q' := Q). apply Rabs_le_inv in Q'.
  replace (X * X) with (D + 1) in * by (unfold D; ring). set (d := D) in * . assert (uf f * (d + 1) <= / 16777216 * (d + 1)) by (apply Rmult_le_compat_r; lra). assert (uf f * bpow radix2 (-100) <= / 16777216 * / 1000000) by (apply Rmult_le_compat; lra).
  assert (Q1 : Rabs (B2R q - 1) <= d + uf f * (d + 1) + uf f * bpow radix2 (-100)) by (apply Rabs_le; lra). 
  destruct (fsub_spec q (ofZ f 1) Fq F1) as (Vz & Fz). { apply fin_top. rewrite V1. assert (4 <= B * B) by nra. lra. }
  split; auto. rewrite V1 in Vz. assert (Zs := rnd_small f (B2R q - 1)). rewrite <- Vz in Zs. set (z := q -. ofZ f 1) in * . 
  replace (B2R z - d) with ((B2R z - (B2R q - 1)) + (B2R q - (d + 1))) by ring. apply Rle_trans with (1 := Rabs_triang _ _). assert (uf f * Rabs (B2R q - 1) <= uf f * (1001 / 1000 * d + / 1000)) by (apply Rmult_le_compat_l; lra). assert (uf f * bpow radix2 (-100) <= uf f * / 1000000) by (apply Rmult_le_compat_l; lra). assert (0 <= uf f * d) by (apply Rmult_le_pos; lra). lra.
Qed.
Let Rr := sqrt D.
Let m := X + Rr.
Lemma aR_rng : 2 * uf f <= Rr /\ Rr <= X /\ Rr * Rr = D /\ uf f / Rr <= / 4000.
Proof.
  assert (DD := ac_D). assert (U0 := u0). assert (U1 := u1). assert (E : Rr * Rr = D) by (unfold Rr; rewrite sqrt_sqrt; lra). assert (P : 0 < Rr) by (apply sqrt_lt_R0; lra). assert (X1' : 1 < X) by exact X0. 
  assert (R2 : 4000 * uf f <= Rr). { apply Rsqr_incr_0_var; [|lra]. unfold Rsqr. rewrite E. apply Rle_trans with (2 := DD). nra. }
  split. lra. split. apply Rsqr_incr_0_var; [|lra]. unfold Rsqr. rewrite E. unfold D. lra. split; auto. apply Rmult_le_reg_r with Rr. auto. unfold Rdiv. rewrite Rmult_assoc, Rinv_l by lra. lra.
Qed.
Lemma ac_ln : 0 <= ln m /\ ln D <= 2 * ln m.
Proof.
  destruct aR_rng as (A & B & C & _). assert (DD := ac_D). assert (U0 := u0). assert (X1' : 1 < X) by exact X0. split. apply ln_ge0. unfold m. lra. replace (2 * ln m) with (ln (m * m)) by (rewrite ln_mult by (unfold m; lra); lra). apply ln_le_le. lra. rewrite <- C. unfold m. nra.
Qed.
Lemma acosh_pos : exists w, acosh_compute v x = Ok w /\ finite w = true /\ Rabs (B2R w - ln m) <= (6 / 10 / Rr + 4 + 6 * ln m) * uf f.
Proof.
  assert (U0 := u0). assert (U1 := u1). destruct sq_mone as (Fz & Ez). destruct aR_rng as (R1 & R2 & RR & UR). destruct ac_ln as (L0 & L2). assert (DD := ac_D). assert (b0 := bpow_gt_0 radix2 (2 - emax f)). assert (b1 := fm_one f). destruct (tinyb f) as (t1 & t0). assert (X1' : 1 < X) by exact X0. assert (FM := SinhAcc.fm_uf f).
  destruct (ofZ_small f 1 ltac:(lia)) as (V1 & F1 & _). change (IZR 1) with 1 in V1. destruct (half_top f) as (B & B2 & EB & BB & B3). assert (XB : X <= B) by (rewrite <- EB; exact X1).
  unfold acosh_compute. rewrite finite_not_nan by auto. rewrite (flt_false x (ofZ f 1)) by (auto; rewrite V1; lra).
  assert (G : (ModelBasic.abs (x -. ofZ f 1) <. fmin f) = false). { destruct (fsub_spec x (ofZ f 1) Fx F1) as (Vs & Fs). { apply fin_top. rewrite V1. fold X. rewrite Rabs_pos_eq; lra. } apply flt_false. rewrite abs_finite; auto. apply fmin_spec. rewrite abs_B2R, (proj1 (fmin_spec f)), Vs, V1. fold X. rewrite rnd_abs. apply rnd_ge_fmt. apply generic_format_bpow. unfold fexpf, SpecFloat.fexp, SpecFloat.emin. destruct f; cbn; lia. assert (Q := above_one x X0). fold X in Q. rewrite Rabs_pos_eq; lra. }
  rewrite G. set (z := x *. x -. ofZ f 1) in * .
  set (eta := B2R z / D - 1). assert (Hz : B2R z = D * (1 + eta)) by (unfold eta; field; lra). set (a := uf f * (201 / 100 + 101 / 100 / D)). assert (uf f / D <= / 4). { apply Rmult_le_reg_r with D. lra. unfold Rdiv. rewrite Rmult_assoc, Rinv_l by lra. lra. }
  assert (UD : 0 < uf f / D) by (apply Rdiv_lt_0_compat; lra). assert (Ea : a = 201 / 100 * uf f + 101 / 100 * (uf f / D)) by (unfold a; field; lra). assert (Heta : Rabs eta <= a).
  { apply Rmult_le_reg_r with D. lra. rewrite <- (Rabs_pos_eq D) at 1 by lra. rewrite <- Rabs_mult. replace (eta * D) with (B2R z - D) by (unfold eta; field; lra). replace (a * D) with (uf f * (101 / 100 + 201 / 100 * D)) by (unfold a; field; lra). exact Ez. }
  assert (A27 : a <= 27 / 100) by lra. assert (Heta' := Heta). apply Rabs_le_inv in Heta'. assert (ZL : 73 / 100 * D <= B2R z) by (rewrite Hz; nra).
  assert (B170 : bpow radix2 (-170) <= uf f) by (unfold uf; apply bpow_le; destruct f; cbn; lia).
  destruct (sqrt_check_acc f z Fz ltac:(lra) ltac:(lra)) as (s & Es & Fs & Rs). rewrite Es. cbn [bind]. destruct (sqrt_pert eta a Heta A27) as (SP & _). apply Rabs_le_inv in SP. 
  assert (K : exists k, 0 <= k <= 4 + (2 * ln m + 3 / 10) / 10 /\ k <= 1300 /\ rel_err (B2R s) (sqrt (B2R z)) (k * uf f)).
  { eexists. split; [|split; [|exact Rs]]; destruct Rle_dec; try lra. assert (0 <= ln (B2R z)) by (apply ln_ge0; lra). assert (ln (B2R z) <= 2 * ln m + 3 / 10). { rewrite Hz, ln_mult by lra. assert (ln (1 + eta) <= eta). { assert (Q := exp_ineq1_le (ln (1 + eta))). rewrite exp_ln in Q by lra. lra. } lra. } lra. assert (LZ := ln_emax f z ltac:(lra)). lra. }
  clear Rs. destruct K as (k & K & K2 & Rs). unfold rel_err in Rs. rewrite (Rabs_pos_eq (sqrt _)) in Rs by apply sqrt_pos.
  rewrite Hz, sqrt_mult in Rs by lra. fold Rr in Rs. set (g := sqrt (1 + eta)) in * .
  assert (KU : 0 <= k * uf f <= 1300 * uf f) by (split; [apply Rmult_le_pos; lra|apply Rmult_le_compat_r; lra]).
  set (c := (54 / 100 * a + 115 / 100 * (k * uf f)) * Rr). assert (SS : Rabs (B2R s - Rr) <= c). { replace (B2R s - Rr) with ((B2R s - Rr * g) + Rr * (g - 1)) by ring. apply Rle_trans with (1 := Rabs_triang _ _). rewrite Rabs_mult, (Rabs_pos_eq Rr) by lra. assert (Rabs (g - 1) <= 54 / 100 * a) by (apply Rabs_le; lra).
    assert (Rr * Rabs (g - 1) <= Rr * (54 / 100 * a)) by (apply Rmult_le_compat_l; lra). assert (k * uf f * (Rr * g) <= k * uf f * (Rr * (115 / 100))). { apply Rmult_le_compat_l. lra. apply Rmult_le_compat_l; lra. } unfold c. lra. }
  assert (SB := SS). apply Rabs_le_inv in SB. assert (CR : a * Rr <= 201 / 100 * (uf f * Rr) + 101 / 100 * (uf f / Rr)). { rewrite Ea. right. rewrite <- RR. field. lra. }
  assert (CB : c <= 54 / 100 * (201 / 100 * (uf f * Rr) + 101 / 100 * (uf f / Rr)) + 115 / 100 * (k * uf f * Rr)) by (unfold c; lra).
  assert (u1R : uf f * Rr <= / 16777216 * Rr) by (apply Rmult_le_compat_r; lra). assert (kR : k * uf f * Rr <= 1300 * uf f * Rr) by (apply Rmult_le_compat_r; lra).
  assert (MR : 2 * Rr <= m /\ 1 < m) by (unfold m; lra). assert (c0 : 0 <= c) by (assert (Q := Rabs_pos (B2R s - Rr)); lra). assert (SN : B2R s <= 2 * X) by lra. assert (SM : - X / 2 <= B2R s) by lra.
  destruct (fadd_spec x s Fx Fs) as (Vt & Ft). { apply fin_top. fold X. rewrite Rabs_pos_eq; lra. }
  fold X in Vt. destruct (rnd_u f (X + B2R s)) as (b & Hb & Vb). rewrite Rabs_pos_eq; lra. rewrite Vb in Vt. apply Rabs_le_inv in Hb.
  set (sg := (B2R s - Rr) / m). set (E := 543 / 1000 * uf f + 5455 / 10000 * (uf f / Rr) + 575 / 1000 * (k * uf f)).
  assert (R1m : 0 < uf f / Rr) by (apply Rdiv_lt_0_compat; lra). assert (Hsg : Rabs sg <= E). { unfold sg, Rdiv. rewrite Rabs_mult, (Rabs_pos_eq (/ m)) by (left; apply Rinv_0_lt_compat; lra). apply Rmult_le_reg_r with m. lra. rewrite Rmult_assoc, Rinv_l by lra.
    assert (543 / 1000 * uf f * (2 * Rr) <= 543 / 1000 * uf f * m) by (apply Rmult_le_compat_l; lra). assert (575 / 1000 * (k * uf f) * (2 * Rr) <= 575 / 1000 * (k * uf f) * m) by (apply Rmult_le_compat_l; lra). assert (5455 / 10000 * (uf f / Rr) * 1 <= 5455 / 10000 * (uf f / Rr) * m) by (apply Rmult_le_compat_l; lra). unfold E. lra. }
  assert (EB' : E <= 1 / 2000) by (unfold E; lra).
  assert (Hsg' := Hsg). apply Rabs_le_inv in Hsg'. assert (VT : B2R (x +. s) = m * (1 + (sg + b + sg * b))). { rewrite Vt. unfold sg. unfold m. field. unfold m in MR; lra. }
  assert (AB : Rabs (sg * b) <= / 1000 * uf f). { rewrite Rabs_mult. apply Rmult_le_compat; try apply Rabs_pos. lra. apply Rabs_le; lra. } apply Rabs_le_inv in AB.
  destruct (log_pert v (x +. s) m (sg + b + sg * b) (E + 1001 / 1000 * uf f) Ft VT) as (w & Ew & Fw & Rw). apply Rabs_le; lra. lra. lra.
  exists w. split; auto. split; auto. apply Rle_trans with (1 := Rw). rewrite (Rabs_pos_eq (ln m)) by auto. replace ((6 / 10 / Rr + 4 + 6 * ln m) * uf f) with (6 / 10 * (uf f / Rr) + 4 * uf f + 6 * (ln m * uf f)) by (field; lra). unfold E. assert (k * uf f <= (4 + (2 * ln m + 3 / 10) / 10) * uf f) by (apply Rmult_le_compat_r; lra). assert (0 <= uf f * ln m) by (apply Rmult_le_pos; lra). lra.
Qed.
Lemma api_acosh y : 0 <= y -> cosh y = B2R x -> exists w, gcem_acosh v (AFlt f x) = Ok w /\ finite w = true /\ Rabs (B2R w - y) <= (6 / 10 / sqrt (B2R x * B2R x - 1) + 4 + 6 * y) * bpow radix2 (- prec f).
Proof.
  intros Y H. assert (E : y = ln m). { assert (C : cosh y * cosh y - sinh y * sinh y = 1). { unfold cosh, sinh. assert (Q : exp y * exp (- y) = 1) by (rewrite <- exp_plus, Rplus_opp_r; apply exp_0). lra. } assert (S : 0 <= sinh y). { unfold sinh. assert (Q := exp_le (- y) y ltac:(lra)). lra. } assert (S2 : Rr = sinh y). { unfold Rr, D, X. rewrite <- H. replace (cosh y * cosh y - 1) with (sinh y * sinh y) by lra. apply sqrt_square; auto. } unfold m, X. rewrite <- H, S2. replace (cosh y + sinh y) with (exp y) by (unfold cosh, sinh; lra). rewrite ln_exp. reflexivity. }
  rewrite E. exact acosh_pos.
Qed.
Lemma api_acosh_rel y : 2 <= B2R x -> 0 <= y -> cosh y = B2R x -> exists w, gcem_acosh v (AFlt f x) = Ok w /\ finite w = true /\ rel_err (B2R w) y (10 * bpow radix2 (- prec f)).
Proof.
  intros X2 Y H. destruct (api_acosh y Y H) as (w & Ew & Fw & Rw). exists w. split; auto. split; auto. unfold rel_err. change (bpow radix2 (- prec f)) with (uf f) in * . assert (U0 := u0).
  assert (S : 17 / 10 <= sqrt (B2R x * B2R x - 1)). { apply Rle_trans with (sqrt 3). interval. apply sqrt_le_1_alt. nra. } assert (I : / sqrt (B2R x * B2R x - 1) <= / (17 / 10)) by (apply Rinv_le; lra).
  assert (Y1 : 13 / 10 <= y). { destruct (Rle_or_lt (13 / 10) y) as [|N]; auto. exfalso. assert (exp y <= exp (13 / 10)) by (apply exp_le; lra). assert (exp (- y) <= exp 0) by (apply exp_le; lra). rewrite exp_0 in * . assert (C : cosh y < 2). { assert (cosh y <= cosh (13 / 10)). { destruct Y as [Y|<-]. left. unfold cosh. assert (M := mvt). clear M. assert (E1 : exp y * exp (- y) = 1) by (rewrite <- exp_plus, Rplus_opp_r; apply exp_0). assert (E2 : exp (13 / 10) * exp (- (13 / 10)) = 1) by (rewrite <- exp_plus, Rplus_opp_r; apply exp_0). assert (1 < exp y) by (rewrite <- exp_0; apply exp_increasing; lra). assert (exp y < exp (13 / 10)) by (apply exp_increasing; lra). assert (0 < exp (- (13 / 10))) by apply exp_pos. assert (0 < exp (- y)) by apply exp_pos. assert (exp (- y) - exp (- (13 / 10)) = (exp (13 / 10) - exp y) * (exp (- y) * exp (- (13 / 10)))) by (rewrite Rmult_minus_distr_r; replace (exp (13 / 10) * (exp (- y) * exp (- (13 / 10)))) with (exp (- y) * (exp (13 / 10) * exp (- (13 / 10)))) by ring; replace (exp y * (exp (- y) * exp (- (13 / 10)))) with (exp y * exp (- y) * exp (- (13 / 10))) by ring; rewrite E1, E2; ring). assert (exp (- y) * exp (- (13 / 10)) < 1). { assert (exp (- y) < 1) by (rewrite <- exp_0; apply exp_increasing; lra). assert (exp (- (13 / 10)) < 1) by (rewrite <- exp_0; apply exp_increasing; lra). nra. } nra. unfold cosh. interval. } apply Rle_lt_trans with (1 := H2). unfold cosh. interval. } lra. }
  rewrite (Rabs_pos_eq y) by lra. apply Rle_trans with (1 := Rw). unfold Rdiv at 1. assert (uf f * (13 / 10) <= uf f * y) by (apply Rmult_le_compat_l; lra). assert (6 * / 10 * / sqrt (B2R x * B2R x - 1) * uf f <= 6 * / 10 * / (17 / 10) * uf f) by (apply Rmult_le_compat_r; lra). lra.
Qed.
End Acosh.

(** ** atanh *)
Lemma tanh_inv y X : -1 < X < 1 -> tanh y = X -> 2 * y = ln ((1 + X) / (1 - X)).
Proof.
  intros HX <-. rewrite <- (ln_exp (2 * y)). f_equal. unfold tanh, sinh, cosh. assert (E : exp y * exp (- y) = 1) by (rewrite <- exp_plus, Rplus_opp_r; apply exp_0). assert (P := exp_pos y). assert (N := exp_pos (- y)). replace (2 * y) with (y + y) by ring. rewrite exp_plus. field_simplify. 2: split; lra.
  rewrite exp_Ropp. field. lra.
Qed.
Section Atanh.
Variables (v : cxx) (f : fmt) (x : flt f).
Hypothesis (Fx : finite x = true) (X0 : -1 < B2R x) (X1 : B2R x < 1).
Let u0 := uf_pos f.
Let u1 : uf f <= / 16777216 := uf_le f.
Let X := B2R x.
Let r := (1 + X) / (1 - X).
Lemma abs_lt1 : Rabs X <= 1 - uf f.
Proof. destruct (Rle_or_lt 0 X) as [P|P]. rewrite Rabs_pos_eq by auto. apply below_one; auto. rewrite Rabs_left by auto. unfold X. rewrite <- fneg_B2R. apply below_one. rewrite fneg_finite; auto. rewrite fneg_B2R; lra. Qed.
Lemma ratio : finite ((ofZ f 1 +. x) /. (ofZ f 1 -. x)) = true /\ exists e, Rabs e <= 301 / 100 * uf f /\ B2R ((ofZ f 1 +. x) /. (ofZ f 1 -. x)) = r * (1 + e).
Proof.
  assert (U0 := u0). assert (U1 := u1). assert (A := abs_lt1). apply Rabs_le_inv in A. destruct (ofZ_small f 1 ltac:(lia)) as (V1 & F1 & _). change (IZR 1) with 1 in V1. assert (FM := SinhAcc.fm_uf f). assert (b0 := bpow_gt_0 radix2 (2 - emax f)).
  destruct (op_add (ofZ f 1) x F1 Fx) as (Fp & Vp). { rewrite V1. fold X. apply Rabs_le; lra. } destruct (op_sub (ofZ f 1) x F1 Fx) as (Fd & Vd). { rewrite V1. fold X. apply Rabs_le; lra. }
  rewrite V1 in Vp, Vd. fold X in Vp, Vd. destruct (rnd_u f (1 + X)) as (e1 & H1 & E1). rewrite Rabs_pos_eq; lra. destruct (rnd_u f (1 - X)) as (e2 & H2 & E2). rewrite Rabs_pos_eq; lra. rewrite E1 in Vp. rewrite E2 in Vd. apply Rabs_le_inv in H1. apply Rabs_le_inv in H2.
  set (p := ofZ f 1 +. x) in * . set (d := ofZ f 1 -. x) in * . assert (P0 : / 2 * uf f <= B2R p <= 4) by (rewrite Vp; split; nra). assert (D0 : / 2 * uf f <= B2R d <= 4) by (rewrite Vd; split; nra).
  set (q := (1 + e1) / (1 + e2) - 1). assert (Q : Rabs q <= 2001 / 1000 * uf f). { unfold q. replace ((1 + e1) / (1 + e2) - 1) with ((e1 - e2) / (1 + e2)) by (field; lra). unfold Rdiv. rewrite Rabs_mult, Rabs_inv, (Rabs_pos_eq (1 + e2)) by lra. apply Rmult_le_reg_r with (1 + e2). lra. rewrite Rmult_assoc, Rinv_l by lra. assert (Rabs (e1 - e2) <= 2 * uf f) by (apply Rabs_le; lra). nra. }
  assert (QE : B2R p / B2R d = r * (1 + q)). { rewrite Vp, Vd. unfold r, q. field. repeat split; lra. }
  assert (QL : / 8 * uf f <= B2R p / B2R d <= 8 / uf f). { split. apply Rmult_le_reg_r with (B2R d). lra. replace (B2R p / B2R d * B2R d) with (B2R p) by (field; lra). nra. apply Rmult_le_reg_r with (B2R d). lra. replace (B2R p / B2R d * B2R d) with (B2R p) by (field; lra). apply Rle_trans with 4. lra. replace 4 with (8 / uf f * (/ 2 * uf f)) by (field; lra). apply Rmult_le_compat_l. left. apply Rdiv_lt_0_compat; lra. lra. }
  assert (QT : 8 / uf f <= bpow radix2 (emax f - 1)). { unfold uf, Rdiv. rewrite <- bpow_opp. change 8 with (bpow radix2 3). rewrite <- bpow_plus. apply bpow_le. destruct f; cbn; lia. }
  destruct (fdiv_spec p d Fp ltac:(lra)) as (Vq & Fq). { apply fin_top. rewrite Rabs_pos_eq; lra. } split; auto. destruct (rnd_u f (B2R p / B2R d)) as (e3 & H3 & E3). rewrite Rabs_pos_eq; lra. rewrite QE in E3, Vq. exists (q + e3 + q * e3). rewrite Vq, E3. split; [|ring]. apply Rabs_le_inv in H3. assert (Rabs (q * e3) <= / 1000 * uf f). { rewrite Rabs_mult. apply Rmult_le_compat; try apply Rabs_pos. lra. apply Rabs_le; lra. } apply Rabs_le_inv in Q. apply Rabs_le_inv in H. apply Rabs_le; lra.
Qed.
Lemma atanh_guards : is_nan x = false /\ (ofZ f 1 <. ModelBasic.abs x) = false /\ (ofZ f 1 -. ModelBasic.abs x <. fmin f) = false /\ (ModelBasic.abs x <. fmin f) = Rlt_bool (Rabs X) (bpow radix2 (2 - emax f)).
Proof.
  assert (U0 := u0). assert (U1 := u1). assert (A := abs_lt1). assert (A0 := Rabs_pos X). destruct (ofZ_small f 1 ltac:(lia)) as (V1 & F1 & _). change (IZR 1) with 1 in V1. assert (FM := SinhAcc.fm_uf f). assert (b0 := bpow_gt_0 radix2 (2 - emax f)). assert (Fa : finite (ModelBasic.abs x) = true) by (rewrite abs_finite; auto). assert (Va : B2R (ModelBasic.abs x) = Rabs X) by apply abs_B2R. destruct (fmin_spec f) as (Vm & Fm).
  split. apply finite_not_nan; auto. split. apply flt_false; auto. rewrite Va, V1. lra. destruct (op_sub (ofZ f 1) (ModelBasic.abs x) F1 Fa) as (Fd & Vd). { rewrite V1, Va. apply Rabs_le; lra. } split. apply flt_false; auto. rewrite Vd, V1, Va, Vm. apply rnd_ge_fmt. apply generic_format_bpow. unfold fexpf, SpecFloat.fexp, SpecFloat.emin. destruct f; cbn; lia. lra.
  destruct (Rlt_bool_spec (Rabs X) (bpow radix2 (2 - emax f))). apply flt_true; auto. rewrite Va, Vm; auto. apply flt_false; auto. rewrite Va, Vm; auto.
Qed.
(** From the logarithm of the ratio to the result. *)
Lemma atanh_finish l y c C : 2 * y = ln r -> finite l = true -> 0 <= c <= 50 -> 0 <= C <= 10 -> log_check v ((ofZ f 1 +. x) /. (ofZ f 1 -. x)) = Ok l -> Rabs (B2R l - ln r) <= (C + c * Rabs (ln r)) * uf f ->
  exists w, atanh_compute v x = Ok w /\ finite w = true /\ Rabs (B2R w - y) <= (C / 2 + / 10 + (c + 11 / 10) * Rabs y) * uf f.
Proof.
  intros HY Fl Hc HC El Rl. unfold atanh_compute. rewrite El. cbn [bind]. eexists. split; [reflexivity|]. destruct (half_any l Fl) as (Fw & Rw). split; auto. rewrite <- HY in Rl. assert (U0 := u0). assert (U1 := u1). rewrite Rabs_mult, (Rabs_pos_eq 2) in Rl by lra. assert (Y0 := Rabs_pos y). assert (FM := SinhAcc.fm_uf f). assert (b0 := bpow_gt_0 radix2 (2 - emax f)).
  assert (LH : Rabs (B2R l / 2 - y) <= (C / 2 + c * Rabs y) * uf f). { replace (B2R l / 2 - y) with ((B2R l - 2 * y) * / 2) by field. rewrite Rabs_mult, (Rabs_pos_eq (/ 2)) by lra. lra. }
  assert (CC : (C / 2 + c * Rabs y) * uf f <= (5 + 50 * Rabs y) * / 16777216). { apply Rmult_le_compat; try lra. assert (0 <= c * Rabs y) by (apply Rmult_le_pos; lra). lra. assert (c * Rabs y <= 50 * Rabs y) by (apply Rmult_le_compat_r; lra). lra. }
  assert (LB : Rabs (B2R l / 2) <= 11 / 10 * Rabs y + / 100). { replace (B2R l / 2) with (y + (B2R l / 2 - y)) by ring. apply Rle_trans with (1 := Rabs_triang _ _). lra. }
  assert (M : Rmax (Rabs (B2R l / 2)) (bpow radix2 (2 - emax f)) <= 11 / 10 * Rabs y + / 10). { apply Rmax_lub; lra. }
  set (w := l /. ofZ f 2) in * . replace (B2R w - y) with ((B2R w - B2R l / 2) + (B2R l / 2 - y)) by ring. apply Rle_trans with (1 := Rabs_triang _ _). assert (uf f * Rmax (Rabs (B2R l / 2)) (bpow radix2 (2 - emax f)) <= uf f * (11 / 10 * Rabs y + / 10)) by (apply Rmult_le_compat_l; lra). lra.
Qed.
Lemma api_atanh y : - (3 / 10) <= B2R x -> tanh y = B2R x -> exists w, gcem_atanh v (AFlt f x) = Ok w /\ finite w = true /\ Rabs (B2R w - y) <= (2 + 7 * Rabs y) * bpow radix2 (- prec f).
Proof.
  intros X3 HT. assert (U0 := u0). assert (U1 := u1). assert (HY := tanh_inv y X ltac:(unfold X; lra) HT). change (bpow radix2 (- prec f)) with (uf f). fold r in HY. destruct atanh_guards as (G1 & G2 & G3 & G4). unfold gcem_atanh, lift1. cbn [ret_fmt ret_val]. unfold atanh_check. rewrite G1, G2, G3, G4. assert (Y0 := Rabs_pos y). assert (UY : 0 <= Rabs y * uf f) by (apply Rmult_le_pos; lra).
  assert (RL : 53 / 100 <= r). { unfold r. apply Rmult_le_reg_r with (1 - X). unfold X; lra. replace ((1 + X) / (1 - X) * (1 - X)) with (1 + X) by (field; unfold X; lra). unfold X; lra. }
  destruct (Rlt_bool_spec (Rabs X) (bpow radix2 (2 - emax f))) as [L|L].
  - exists (ofZ f 0). destruct (ofZ_small f 0 ltac:(lia)) as (V0 & F0 & _). split; auto. split; auto. rewrite V0, Rminus_0_l, Rabs_Ropp. assert (FM := SinhAcc.fm_uf f).
    assert (Q : Rabs (2 * y) <= 4 * Rabs X). { rewrite HY. assert (XS : Rabs X <= / 1000) by lra. apply Rabs_le_inv in XS. replace r with (1 + 2 * X / (1 - X)) by (unfold r; field; lra). set (e := 2 * X / (1 - X)). assert (EE : Rabs e <= 3 * Rabs X). { unfold e, Rdiv. rewrite !Rabs_mult, Rabs_inv, (Rabs_pos_eq (1 - X)), (Rabs_pos_eq 2) by lra. apply Rmult_le_reg_r with (1 - X). lra. rewrite Rmult_assoc, Rinv_l by lra. assert (P := Rabs_pos X). nra. } assert (Q := ln1p e ltac:(lra)). assert (P := Rabs_pos X). lra. }
    rewrite Rabs_mult, (Rabs_pos_eq 2) in Q by lra. lra.
  - destruct ratio as (Fq & e & He & Vq). destruct (log_pert v _ r e (301 / 100 * uf f) Fq Vq He ltac:(lra) RL) as (l & El & Fl & Rl). destruct (atanh_finish l y (56 / 10) (302 / 100) HY Fl ltac:(lra) ltac:(lra) El) as (w & Ew & Fw & Rw). lra. exists w. split; auto. split; auto. lra.
Qed.
(** Negative arguments whose ratio stays away from the powers of ten. *)
Lemma api_atanh_neg y k : B2R x <= - (35 / 100) -> tanh y = B2R x -> (1 <= k)%nat -> 1 + / 50000 <= (1 + B2R x) / (1 - B2R x) * 10 ^ k <= 10 - / 5000 -> exists w, gcem_atanh v (AFlt f x) = Ok w /\ finite w = true /\ Rabs (B2R w - y) <= (2 + 24 * Rabs y) * bpow radix2 (- prec f).
Proof.
  intros X3 HT K KR. assert (U0 := u0). assert (U1 := u1). assert (HY := tanh_inv y X ltac:(unfold X; lra) HT). change (bpow radix2 (- prec f)) with (uf f). fold X in KR. fold r in HY, KR. destruct atanh_guards as (G1 & G2 & G3 & G4). unfold gcem_atanh, lift1. cbn [ret_fmt ret_val]. unfold atanh_check. rewrite G1, G2, G3, G4. assert (Y0 := Rabs_pos y). assert (UY : 0 <= Rabs y * uf f) by (apply Rmult_le_pos; lra). assert (X0' : -1 < X) by exact X0. assert (X3' : X <= - (35 / 100)) by exact X3. assert (FM := SinhAcc.fm_uf f).
  rewrite Rlt_bool_false by (rewrite Rabs_left; lra). assert (R0 : 0 < r) by (unfold r; apply Rdiv_lt_0_compat; lra).
  assert (RL : r <= 49 / 100). { unfold r. apply Rmult_le_reg_r with (1 - X). lra. replace ((1 + X) / (1 - X) * (1 - X)) with (1 + X) by (field; lra). lra. }
  destruct ratio as (Fq & e & He & Vq). assert (He' := He). apply Rabs_le_inv in He'. set (q := (ofZ f 1 +. x) /. (ofZ f 1 -. x)) in * .
  assert (A := abs_lt1). apply Rabs_le_inv in A. assert (RU : / 2 * uf f <= r). { unfold r. apply Rmult_le_reg_r with (1 - X). lra. replace ((1 + X) / (1 - X) * (1 - X)) with (1 + X) by (field; lra). nra. }
  assert (QL : B2R q < / 2) by (rewrite Vq; nra). assert (QB : bpow radix2 (2 - emax f) <= B2R q) by (rewrite Vq; nra). assert (QK : 1 + / 100000 <= B2R q * 10 ^ k <= 10 - / 10000). { rewrite Vq. replace (r * (1 + e) * 10 ^ k) with (r * 10 ^ k * (1 + e)) by ring. set (z := r * 10 ^ k) in * . split; nra. }
  destruct (log_small_gen v q k Fq (conj QB QL) K QK) as (l & El & Fl & Rl). assert (Rl' : rel_err (B2R l) (ln (B2R q)) (22 * uf f)) by (eapply rel_mono; [|exact Rl]; destruct Nat.eq_dec; lra). clear Rl. unfold rel_err in Rl'. rewrite Vq, ln_mult in Rl' by lra. assert (LE := ln1p e ltac:(lra)). set (d := ln (1 + e)) in * .
  destruct (atanh_finish l y 22 (304 / 100) HY Fl ltac:(lra) ltac:(lra) El) as (w & Ew & Fw & Rw).
  { replace (B2R l - ln r) with ((B2R l - (ln r + d)) + d) by ring. apply Rle_trans with (1 := Rabs_triang _ _). assert (T := Rabs_triang (ln r) d). assert (22 * uf f * Rabs (ln r + d) <= 22 * uf f * (Rabs (ln r) + / 100000)) by (apply Rmult_le_compat_l; lra). lra. }
  exists w. split; auto. split; auto. lra.
Qed.
End Atanh.

(** ** acosh next to 1 *)
Lemma cosh_ln X : 1 <= X -> 0 <= ln (X + sqrt (X * X - 1)) /\ cosh (ln (X + sqrt (X * X - 1))) = X.
Proof.
  intros H. assert (S := sqrt_pos (X * X - 1)). assert (E : sqrt (X * X - 1) * sqrt (X * X - 1) = X * X - 1) by (apply sqrt_sqrt; nra). set (s := sqrt _) in * . split. apply ln_ge0; lra. unfold cosh. rewrite exp_Ropp, exp_ln by lra. apply Rmult_eq_reg_r with (2 * (X + s)); [|lra]. field_simplify; [|lra]. nra.
Qed.
Definition ach_k (f : fmt) : Z := match f with F32 => 3 | F64 => 1 | F80 => 3 end.
Definition ach_arg (f : fmt) : flt f := ofZ f (2 ^ (prec f - 1) + ach_k f) /. ofZ f (2 ^ (prec f - 1)).
Lemma ach_arg_val f : finite (ach_arg f) = true /\ B2R (ach_arg f) = 1 + 2 * IZR (ach_k f) * uf f.
Proof.
  destruct f; [destruct (sf_val (ach_arg F32) false 8388611%positive (-23)%Z) as (F & B); [vm_compute; reflexivity|]|destruct (sf_val (ach_arg F64) false 4503599627370497%positive (-52)%Z) as (F & B); [vm_compute; reflexivity|]|destruct (sf_val (ach_arg F80) false 9223372036854775811%positive (-63)%Z) as (F & B); [vm_compute; reflexivity|]];
  (split; [exact F|rewrite B; unfold F2R, uf; cbn; lra]).
Qed.
Definition ach_res (f : fmt) : positive * Z := match f with F32 => (14528512%positive, -34) | F64 => (6369051697741822%positive, -78) | F80 => (15975348985976061950%positive, -94) end%Z.
Lemma api_acosh_bad v f : exists x : flt f, finite x = true /\ 1 < B2R x <= 1001 / 1000 /\
  exists w, gcem_acosh v (AFlt f x) = Ok w /\ finite w = true /\ exists y, 0 < y /\ cosh y = B2R x /\ bpow radix2 (- (prec f / 2) - 2) * y <= Rabs (B2R w - y).
Proof.
  destruct (ach_arg_val f) as (F & V). exists (ach_arg f). split; auto. split. { rewrite V. destruct f; unfold uf; cbn; lra. }
  assert (E : gcem_acosh v (AFlt f (ach_arg f)) = gcem_acosh Cxx14 (AFlt f (ach_arg f))) by (destruct v; [apply api_11_14_unary|reflexivity]). rewrite E.
  assert (exists w, gcem_acosh Cxx14 (AFlt f (ach_arg f)) = Ok w /\ finite w = true /\ B2R w = F2R (Float radix2 (Zpos (fst (ach_res f))) (snd (ach_res f)))) as (w & E1 & Fw & Vw) by (destruct f; apply (@res_val _ _ false); vm_compute; reflexivity).
  exists w. split; auto. split; auto. rewrite V. assert (u0 := uf_pos f). set (X := 1 + 2 * IZR (ach_k f) * uf f). assert (X1 : 1 < X). { unfold X. destruct f; cbn [ach_k]; lra. }
  exists (ln (X + sqrt (X * X - 1))). destruct (cosh_ln X ltac:(lra)) as (_ & C). split. { rewrite <- ln_1. apply ln_increasing. lra. assert (S := sqrt_pos (X * X - 1)). lra. } split; auto. rewrite Vw. unfold X. clear. destruct f; cbn [ach_k ach_res fst snd]; unfold F2R, uf; cbn -[sqrt ln]; interval with (i_prec 250).
Qed.
(** ** Tiny arguments of asinh and atanh *)
Section Tiny.
Variables (v : cxx) (f : fmt) (x : flt f).
Hypothesis (Fx : finite x = true) (X0 : Rabs (B2R x) <= bpow radix2 (- prec f - 2)).
Let u0 := uf_pos f.
Let u1 : uf f <= / 16777216 := uf_le f.
Lemma tin_x : tin x.
Proof. split; auto. apply Rle_trans with (1 := X0). unfold uf, Zminus. rewrite bpow_plus. cbn; lra. Qed.
Lemma is1_eq {f'} (a : flt f') : is1 a -> a = ofZ f' 1.
Proof. intros (F & V). destruct (ofZ_small f' 1 ltac:(lia)) as (V1 & F1 & S1). apply flt_inj; auto. lra. rewrite S1. apply pos_sign; auto; lra. Qed.
Lemma api_asinh_tiny : exists w, gcem_asinh v (AFlt f x) = Ok w /\ finite w = true /\ B2R w = 0.
Proof.
  assert (U0 := u0). assert (U1 := u1). destruct tin_x as (_ & T). unfold gcem_asinh, lift1. cbn [ret_fmt ret_val]. unfold asinh_compute. rewrite finite_not_nan by auto. destruct (_ <. fmin f). exists (ofZ f 0). destruct (ofZ_small f 0 ltac:(lia)) as (V0 & F0 & _). auto.
  destruct (ofZ_small f 1 ltac:(lia)) as (V1 & F1 & _). change (IZR 1) with 1 in V1.
  assert (Z : x *. x +. ofZ f 1 = ofZ f 1). { apply is1_eq. assert (X2 : Rabs (B2R x * B2R x) <= / 2 * (uf f / 4)). { rewrite Rabs_mult. apply Rmult_le_compat; try apply Rabs_pos; lra. } destruct (op_mul x x Fx Fx) as (Fq & Vq). lra. 
    assert (Tq : Rabs (B2R (x *. x)) <= uf f / 4). { rewrite Vq. assert (R := rnd_small f (B2R x * B2R x)). destruct (tinyb f) as (t1 & t0). replace (rnd f (B2R x * B2R x)) with (B2R x * B2R x + (rnd f (B2R x * B2R x) - B2R x * B2R x)) by ring. apply Rle_trans with (1 := Rabs_triang _ _). assert (uf f * Rabs (B2R x * B2R x) <= uf f * (/ 2 * (uf f / 4))) by (apply Rmult_le_compat_l; lra). assert (uf f * bpow radix2 (-100) <= uf f * / 1000000) by (apply Rmult_le_compat_l; lra). nra. }
    destruct (op_add (x *. x) (ofZ f 1) Fq F1) as (Fa & Va). rewrite V1. apply Rabs_le_inv in Tq. apply Rabs_le; lra. apply (is1_near _ (B2R (x *. x))); auto. rewrite Va, V1. f_equal. ring. }
  rewrite Z. assert (S : sqrt_check (ofZ f 1) = Ok (ofZ f 1)) by (clear; destruct f; apply ok_sf; vm_compute; reflexivity). rewrite S. cbn [bind].
  destruct (op_add x (ofZ f 1) Fx F1) as (Fa & Va). rewrite V1. apply Rabs_le_inv in T. apply Rabs_le; lra. assert (I : is1 (x +. ofZ f 1)). { apply (is1_near _ (B2R x)); auto. rewrite Va, V1. f_equal. ring. } apply log_check_one; apply I.
Qed.
Lemma api_atanh_tiny : exists w, gcem_atanh v (AFlt f x) = Ok w /\ finite w = true /\ B2R w = 0.
Proof.
  assert (U0 := u0). assert (U1 := u1). assert (T := tin_x). assert (T' := proj2 T). unfold gcem_atanh, lift1. cbn [ret_fmt ret_val]. apply Rabs_le_inv in T'. destruct (atanh_guards f x Fx ltac:(lra) ltac:(lra)) as (G1 & G2 & G3 & _). unfold atanh_check. rewrite G1, G2, G3. destruct (ModelBasic.abs x <. fmin f). exists (ofZ f 0). destruct (ofZ_small f 0 ltac:(lia)) as (V0 & F0 & _). auto.
  unfold atanh_compute. rewrite (is1_eq _ (is1_add _ _ (is1_one f) T)), (is1_eq _ (is1_sub _ _ (is1_one f) T)). assert (Q : ofZ f 1 /. ofZ f 1 = ofZ f 1) by (clear; destruct f; apply B2SF_inj; vm_compute; reflexivity). rewrite Q. destruct (is1_one f) as (F1 & V1). destruct (log_check_one v (ofZ f 1) F1 V1) as (l & El & Fl & Vl). rewrite El. cbn [bind]. eexists. split; [reflexivity|].
  destruct (ofZ_small f 2 ltac:(lia)) as (V2 & F2 & _). change (IZR 2) with 2 in V2. destruct (op_div l (ofZ f 2) Fl) as (Fw & Vw). lra. rewrite Vl, V2. unfold Rdiv. rewrite Rmult_0_l, Rabs_R0. lra. split; auto. rewrite Vw, Vl. unfold Rdiv. rewrite Rmult_0_l. apply rnd_0.
Qed.
End Tiny.
