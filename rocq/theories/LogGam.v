(** * log of tgamma against lgamma *)
From Verif Require Import Base ModelBasic ModelInt ModelElem ModelSpecial ModelApi FltLemmas Spec SpecGamma IntProofs BasicProofs ConvLemmas ExpAcc.
From Coq Require Import Lra Psatz.
From Coquelicot Require Import Coquelicot.
From Verif Require Import Base ModelBasic FPErr LogApi LogMore GammaInt GammaAcc TgammaAcc GammaApi BetaAcc LogExpLaws.
From Verif Require Import Base ModelBasic ModelInt ModelElem ModelSpecial ModelApi TotalProofs.
From Interval Require Import Tactic.
Open Scope R_scope.

Lemma Gamma_two : Gamma 2 = 1.
Proof. replace 2 with (1 + 1) by ring. rewrite Gamma_S by lra. rewrite Gamma_one. ring. Qed.
Lemma xln_small f X : 2 <= X <= match f with F32 => 32 | F64 => 170 | F80 => 1754 end ->
  0 <= X * ln (X + 5) /\ (15 * X * ln (X + 5) + 165) * uf f <= / 4000 /\ X <= 1754.
Proof.
  intros H. assert (L0 : 0 <= ln (X + 5)) by (rewrite <- ln_1; apply ln_le; lra).
  assert (K : forall M B, X <= M -> ln (M + 5) <= B -> X * ln (X + 5) <= M * B). { intros M B HM HB. apply Rmult_le_compat; try lra. apply Rle_trans with (2 := HB). apply ln_le; lra. }
  split. apply Rmult_le_pos; lra. rewrite !Rmult_assoc. destruct f.
  - assert (G := K 32 (37 / 10) ltac:(lra) ltac:(interval)). unfold uf; cbn. split; lra.
  - assert (G := K 170 (52 / 10) ltac:(lra) ltac:(interval)). unfold uf; cbn. split; lra.
  - assert (G := K 1754 (75 / 10) ltac:(lra) ltac:(interval)). unfold uf; cbn. split; lra.
Qed.
Lemma log_of_tgamma : forall v n f (x : flt f), finite x = true -> 2 <= B2R x <= match f with F32 => 32 | F64 => 170 | F80 => 1754 end ->
  exists g l w : flt f, gcem_tgamma v (S n) (AFlt f x) = Ok g /\ gcem_log v (AFlt f g) = Ok l /\ gcem_lgamma v (AFlt f x) = Ok w /\ finite l = true /\ finite w = true /\
  abs_err (B2R l) (B2R w) ((35 * B2R x * ln (B2R x + 5) + 226) * bpow radix2 (- prec f) + (4 * B2R x + 9) * bpow radix2 (-54)).
Proof.
  intros v n f x Fx X. destruct (xln_small f (B2R x) X) as (L0 & L1 & Xm). destruct (uf_sm f) as (U0 & U1).
  assert (EG : exists g : flt f, gcem_tgamma v (S n) (AFlt f x) = Ok g /\ finite g = true /\ rel_err (B2R g) (Gamma (B2R x)) ((15 * B2R x * ln (B2R x + 5) + 165) * bpow radix2 (- prec f) + (2 * B2R x + 5) * bpow radix2 (-54))) by (apply (api_tgamma v n f x Fx); lra).
  assert (EW : exists w : flt f, gcem_lgamma v (AFlt f x) = Ok w /\ finite w = true /\ abs_err (B2R w) (ln (Gamma (B2R x))) ((14 * B2R x * ln (B2R x + 5) + 54) * bpow radix2 (- prec f) + (B2R x + 3) * bpow radix2 (-54))).
  { apply (api_lgamma v f x Fx). split. lra. apply Rle_trans with (bpow radix2 11). cbn; lra. apply bpow_le. lia. }
  destruct EG as (g & Eg & Fg & Rg). destruct EW as (w & Ew & Fw & Rw). change (bpow radix2 (- prec f)) with (uf f) in * .
  assert (q0 := bpow_gt_0 radix2 (-54)). assert (q1 : bpow radix2 (-54) <= / 10000000000000) by (cbn; lra). set (q := bpow radix2 (-54)) in * .
  assert (xq : (2 * B2R x + 5) * q <= 3513 * / 10000000000000) by (apply Rmult_le_compat; lra). assert (xq0 : 0 <= (2 * B2R x + 5) * q) by (apply Rmult_le_pos; lra).
  assert (GL : 0 <= ln (Gamma (B2R x))). { rewrite <- ln_1, <- Gamma_two. apply lnGamma_mono; lra. } assert (GU := proj2 (lnGamma_size (B2R x) ltac:(lra))). assert (Gp := Gamma_pos (B2R x) ltac:(lra)).
  assert (G1 : 1 <= Gamma (B2R x)). { rewrite <- (exp_ln (Gamma (B2R x))) by auto. rewrite <- exp_0. apply exp_le. exact GL. }
  set (G := Gamma (B2R x)) in * . rewrite !Rmult_assoc in * . set (L := B2R x * ln (B2R x + 5)) in * . set (d := (15 * L + 165) * uf f + (2 * B2R x + 5) * q) in * .
  assert (D0 : 0 <= d <= / 1000). { unfold d. assert (0 <= (15 * L + 165) * uf f) by (apply Rmult_le_pos; lra). lra. }
  unfold rel_err in Rg. rewrite (Rabs_pos_eq G) in Rg by lra. set (e := (B2R g - G) / G). assert (Ee : Rabs e <= d). { unfold e, Rdiv. rewrite Rabs_mult, Rabs_inv, (Rabs_pos_eq G) by lra. apply Rmult_le_reg_r with G. lra. rewrite Rmult_assoc, Rinv_l by lra. lra. }
  assert (Ge : B2R g = G * (1 + e)) by (unfold e; field; lra). assert (Ei := Rabs_le_inv _ _ Ee).
  assert (Gh : / 2 <= B2R g) by (rewrite Ge; nra). assert (LN : ln (B2R g) = ln G + ln (1 + e)) by (rewrite Ge; apply ln_mult; lra). assert (LE := ln1p_up e ltac:(lra)). assert (LE2 : Rabs (ln (1 + e)) <= 1002 / 1000 * d) by lra.
  assert (EL : exists l : flt f, gcem_log v (AFlt f g) = Ok l /\ finite l = true /\ rel_err (B2R l) (ln (B2R g)) (56 / 10 * uf f)) by exact (api_log v f g Fg Gh).
  destruct EL as (l & El & Fl & Rl). exists g, l, w. split. exact Eg. split. exact El. split. exact Ew. split. exact Fl. split. exact Fw. unfold rel_err, abs_err in * . rewrite LN in Rl.
  apply Rabs_le_inv in LE2. assert (A : Rabs (ln G + ln (1 + e)) <= L + 1 + / 100) by (apply Rabs_le; lra). assert (Rl2 : Rabs (B2R l - (ln G + ln (1 + e))) <= 56 / 10 * uf f * (L + 1 + / 100)). { apply Rle_trans with (1 := Rl). apply Rmult_le_compat_l; lra. }
  assert (Lu : 0 <= L * uf f) by (apply Rmult_le_pos; lra). assert (Xq : 0 <= B2R x * q) by (apply Rmult_le_pos; lra). assert (Xq2 : 2 * q <= B2R x * q) by (apply Rmult_le_compat_r; lra).
  assert (Dd : d = 15 * (L * uf f) + 165 * uf f + 2 * (B2R x * q) + 5 * q) by (unfold d; ring). replace ((14 * L + 54) * uf f + (B2R x + 3) * q) with (14 * (L * uf f) + 54 * uf f + (B2R x * q) + 3 * q) in Rw by ring. replace ((35 * L + 226) * uf f + (4 * B2R x + 9) * q) with (35 * (L * uf f) + 226 * uf f + 4 * (B2R x * q) + 9 * q) by ring.
  replace (56 / 10 * uf f * (L + 1 + / 100)) with (56 / 10 * (L * uf f) + 5656 / 1000 * uf f) in Rl2 by field. apply Rabs_le_inv in Rl2. apply Rabs_le_inv in Rw. apply Rabs_le. lra.
Qed.
