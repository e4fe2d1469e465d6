(** * Accuracy of tgamma and of factorial on floating-point arguments *)
From Verif Require Import Base ModelBasic ModelElem ModelSpecial FltLemmas ConvLemmas BasicProofs.
From Coq Require Import Lra Psatz.
From Coquelicot Require Import Coquelicot.
From Interval Require Import Tactic.
From Verif Require Import Spec SpecGamma PolyPos Lanczos GammaInt GammaReal.
From Verif Require Import RangeProofs PF FPErr CFBound ExpAcc MiscProofs SinAcc TanhAcc LogAcc LogApi Log1pAcc InvTrig PowReal ErfAcc GammaCoef GammaRnd GammaAcc.
Open Scope R_scope.

(** The largest argument whose gamma value is clear of overflow. *)
Definition gmax (f : fmt) : R := match f with F32 => 32 | F64 => 170 | F80 => 1754 end.
Lemma gmax_rng f : 32 <= gmax f <= 1754. Proof. destruct f; cbn; lra. Qed.

Lemma lnGamma_unit s : 0 <= s <= 1 -> -1 <= ln (Gamma (1 + s)) <= 1.
Proof.
  intros S. destruct (lnGamma_incr 1 s ltac:(lra) ltac:(lra)) as (L & U). rewrite Gamma_one, ln_1 in * . assert (ln (1 + s) <= ln 2) by (apply ln_le; lra). assert (ln 2 <= 1) by interval.
  assert (s * ln (1 + s) <= s * 1) by (apply Rmult_le_compat_l; lra). lra.
Qed.
Lemma lnGamma_top f : ln (Gamma (gmax f)) <= IZR (emax f - 9) * ln 2 - 21 / 10.
Proof.
  assert (G := gmax_rng f). assert (T := Lg_trunc (gmax f) ltac:(lra)). apply Rabs_le_inv in T. cbn [pow] in T.
  assert (L : Lg (gmax f) + / 1000 <= IZR (emax f - 9) * ln 2 - 21 / 10). 2: lra.
  unfold Lg, lanc, lanc_cs, lanc_c0, E25. cbn [lsum]. clear. destruct f; cbn [gmax emax Z.sub Z.add Z.opp Z.pos_sub Pos.pred_double Pos.add Pos.succ]; interval with (i_prec 80).
Qed.
Section Tg.
Context (v : cxx) {f : fmt}.
Variable x : flt f.
Hypothesis Fx : finite x = true.
Notation X := (B2R x).
Notation u := (uf f).
Hypothesis HX : / 18014398509481984 <= X <= 36028797018963968.
Let u0 : 0 < u := uf_pos f.
Let u1 : u <= / 16777216 := uf_le f.
Lemma tg_one n : X = 1 -> tgamma_check v (S n) x = Ok (ofZ f 1).
Proof.
  intros E. cbn [tgamma_check]. rewrite finite_not_nan by auto. destruct (sub_one x Fx HX) as (F & V). rewrite E in V. replace (1 - 1) with 0 in V by ring. rewrite rnd_0 in V. destruct (fmin_spec f) as (Vm & Fm). 
  rewrite (flt_true (ModelBasic.abs (x -. ofZ f 1)) (fmin f)); auto. rewrite abs_finite; auto. rewrite abs_B2R, V, Rabs_R0, Vm. apply bpow_gt_0.
Qed.
Lemma tg_else n : X <> 1 -> tgamma_check v (S n) x = let* l := lgamma_check v x in exp_check v l.
Proof.
  intros N. cbn [tgamma_check]. rewrite finite_not_nan by auto. destruct (sub_one x Fx HX) as (F & V). destruct (fmin_spec f) as (Vm & Fm).
  assert (G : bpow radix2 (- prec f) <= Rabs (X - 1)). { destruct (Rle_or_lt (/ 2) X) as [L|L]. apply gap_one; auto. rewrite Rabs_left by lra. apply Rle_trans with (bpow radix2 (-1)). apply bpow_le. destruct f; discriminate. change (bpow radix2 (-1)) with (/ 2). lra. }
  rewrite (flt_false (ModelBasic.abs (x -. ofZ f 1)) (fmin f)); auto.
  - rewrite (flt_false (ModelBasic.abs x) (fmin f)); auto. rewrite flt_false; auto.
    + destruct (ofZ_small f 0 ltac:(lia)) as (V0 & _). rewrite V0. lra.
    + rewrite abs_finite; auto.
    + rewrite abs_B2R, Rabs_pos_eq, Vm by lra. apply Rle_trans with (bpow radix2 (-54)). apply bpow_le. destruct f; discriminate. change (bpow radix2 (-54)) with (/ 18014398509481984). lra.
  - rewrite abs_finite; auto.
  - rewrite abs_B2R, V, Vm, rnd_abs. apply rnd_ge_fmt. rewrite <- Vm. apply fmt_format. eapply Rle_trans; [|exact G]. apply bpow_le. destruct f; discriminate.
Qed.
(** exp with the four ranges merged *)
Lemma exp_merge (t : flt f) : finite t = true -> exp_fit f (Rabs (B2R t) + 2) -> exists w, exp_check v t = Ok w /\ finite w = true /\
  rel_err (B2R w) (exp (B2R t)) (108 * u + (Rabs (B2R t) + 131) * / 2305843009213693952).
Proof.
  intros Ft B. destruct (exp_all v t Ft B) as (w & E & Fw & _ & R1 & R2 & R3). exists w. split; auto. split; auto. assert (A := Rabs_pos (B2R t)).
  change (bpow radix2 (-54)) with (/ 18014398509481984) in * . change (bpow radix2 (-55)) with (/ 36028797018963968) in * . change (bpow radix2 (-61)) with (/ 2305843009213693952) in * .
  destruct (Rlt_or_le (Rabs (B2R t)) 2) as [L|L]. eapply rel_mono; [|apply R1; auto]. lra.
  destruct (Rle_or_lt 2 (B2R t)) as [L2|L2]. eapply rel_mono; [|apply R2; auto]. lra.
  eapply rel_mono; [|apply R3]. lra. destruct (Rcase_abs (B2R t)) as [N|N]. rewrite Rabs_left in L by auto. lra. rewrite Rabs_right in L by auto. lra.
Qed.
Lemma tgamma_large n : / 2 <= X <= gmax f -> exists w : flt f, tgamma_check v (S n) x = Ok w /\ finite w = true /\
  rel_err (B2R w) (Gamma X) ((15 * X * ln (X + 5) + 165) * u + (2 * X + 5) * / 18014398509481984).
Proof.
  intros (XL & XM). assert (GR := gmax_rng f). set (L := ln (X + 5)). assert (L0 : 17 / 10 <= L) by (apply Rle_trans with (ln (11 / 2)); [interval|apply ln_le; lra]).
  assert (LT : L <= ln (gmax f + 5)) by (apply ln_le; lra). assert (XP : 0 <= X * L) by (apply Rmult_le_pos; lra). assert (UXL : 0 <= u * (X * L)) by (apply Rmult_le_pos; lra).
  destruct (Req_dec X 1) as [E|N].
  { rewrite (tg_one n E). exists (ofZ f 1). destruct (one_val (f := f)) as (V1 & F1). split; auto. split; auto. unfold rel_err. rewrite V1, E, Gamma_one. rewrite Rminus_eq_0, Rabs_R0, Rabs_R1. rewrite E in * . lra. }
  rewrite (tg_else n N). destruct (lgamma_large v x Fx HX XL) as (t & Et & Ft & Ht). rewrite Et. cbn [bind]. fold L in Ht.
  (* the size of the logarithm *)
  assert (GB : -1 <= ln (Gamma X) <= IZR (emax f - 9) * ln 2 - 21 / 10 /\ ln (Gamma X) <= X * L + 1).
  { assert (T := lnGamma_top f). assert (20 <= IZR (emax f - 9) * ln 2 - 21 / 10). { clear. destruct f; cbn [emax Z.sub Z.add Z.opp Z.pos_sub Pos.pred_double Pos.add Pos.succ]; interval. }
    destruct (Rle_or_lt X 2) as [A|A].
    - destruct (Rle_or_lt 1 X) as [B|B].
      + assert (G := lnGamma_unit (X - 1) ltac:(lra)). replace (1 + (X - 1)) with X in G by ring. lra.
      + assert (G := lnGamma_unit X ltac:(lra)). rewrite (Rplus_comm 1) in G. rewrite lnGamma_S in G by lra. assert (ln (/ 2) <= ln X) by (apply ln_le; lra). assert (ln X <= 0) by (rewrite <- ln_1; apply ln_le; lra). assert (- (7 / 10) <= ln (/ 2)) by interval.
        assert (/ 2 * (17 / 10) <= X * L) by (apply Rmult_le_compat; lra). lra.
    - assert (M := lnGamma_mono X (gmax f) ltac:(lra) XM). assert (M2 := lnGamma_mono 2 X ltac:(lra) ltac:(lra)). replace 2 with (1 + 1) in M2 at 1 by ring. rewrite lnGamma_S, Gamma_one, ln_1 in M2 by lra.
      destruct (lnGamma_incr 1 (X - 1) ltac:(lra) ltac:(lra)) as (_ & U). rewrite Gamma_one, ln_1 in U. replace (1 + (X - 1)) with X in U by ring.
      assert (ln X <= L) by (apply ln_le; lra). assert (0 <= ln X) by (rewrite <- ln_1; apply ln_le; lra). assert ((X - 1) * ln X <= X * L) by (apply Rmult_le_compat; lra). lra. }
  destruct GB as ((GB0 & GB1) & GB2).
  assert (EB : (14 * X * L + 54) * u + (X + 3) * / 18014398509481984 <= / 5000).
  { assert (X * L <= gmax f * ln (gmax f + 5)) by (apply Rmult_le_compat; lra). assert (A : (14 * X * L + 54) * u <= (14 * (gmax f * ln (gmax f + 5)) + 54) * u) by (apply Rmult_le_compat_r; lra).
    assert (B : (14 * (gmax f * ln (gmax f + 5)) + 54) * u <= / 6000). { clear. destruct f; unfold uf; cbn [gmax]; [change (bpow radix2 (- prec F32)) with (/ 16777216)|change (bpow radix2 (- prec F64)) with (/ 9007199254740992)|change (bpow radix2 (- prec F80)) with U80]; interval. }
    assert (X <= 1754) by lra. lra. }
  assert (TB : Rabs (B2R t) <= X * L + 11 / 10 /\ (Rabs (B2R t) + 2 <= IZR (emax f - 9) * ln 2)).
  { assert (H' := Ht). apply Rabs_le_inv in H'. assert (20 <= IZR (emax f - 9) * ln 2 - 21 / 10). { clear. destruct f; cbn [emax Z.sub Z.add Z.opp Z.pos_sub Pos.pred_double Pos.add Pos.succ]; interval. } split. apply Rabs_le; lra. unfold Rabs. destruct Rcase_abs; lra. }
  destruct TB as (TB1 & TB2).
  destruct (exp_merge t Ft) as (w & Ew & Fw & Rw). { unfold exp_fit. rewrite bpow_exp. apply Raux.exp_le. exact TB2. }
  exists w. split; auto. split; auto. rewrite <- (exp_ln (Gamma X)) by (apply Gamma_pos; lra).
  assert (LM : L <= 76 / 10). { apply Rle_trans with (1 := LT). apply Rle_trans with (ln 1759). apply ln_le; lra. interval. } assert (XL76 : X * L <= X * (76 / 10)) by (apply Rmult_le_compat_l; lra).
  eapply rel_mono; [|apply (exp_pert _ _ _ _ _ Rw Ht)].
  - lra.
  - assert (0 <= Rabs (B2R t)) by apply Rabs_pos. lra.
  - lra.
Qed.
Lemma tgamma_small n : 4096 * u <= X < / 2 -> exists w : flt f, tgamma_check v (S n) x = Ok w /\ finite w = true /\
  rel_err (B2R w) (Gamma X) ((170 + 9 * ln (/ X) + 3 / X) * u + / 140737488355328).
Proof.
  intros XL. assert (UG := uf_ge f). assert (N : X <> 1) by lra. rewrite (tg_else n N). destruct (lgamma_small v x Fx HX ltac:(lra)) as (t & Et & Ft & Ht). rewrite Et. cbn [bind].
  assert (IX : 0 < / X) by (apply Rinv_0_lt_compat; lra). assert (IX2 : u * / X <= / 4096). { replace (/ 4096) with (/ 4096 * (X * / X)) by (field; lra). rewrite <- Rmult_assoc. apply Rmult_le_compat_r; lra. }
  assert (LX : 69 / 100 <= ln (/ X) <= 38). { split. apply Rle_trans with (ln 2). interval. apply ln_le. lra. replace 2 with (/ / 2) by lra. apply Rinv_le_contravar; lra.
    apply Rle_trans with (ln 18014398509481984). apply ln_le. lra. replace 18014398509481984 with (/ / 18014398509481984) by lra. apply Rinv_le_contravar; lra. interval. }
  assert (GB : -1 <= ln (Gamma X) <= 39). { assert (G := lnGamma_unit X ltac:(lra)). rewrite (Rplus_comm 1) in G. rewrite lnGamma_S in G by lra. rewrite ln_Rinv in LX by lra. lra. }
  assert (UL : u * ln (/ X) <= / 16777216 * ln (/ X)) by (apply Rmult_le_compat_r; lra). assert (UL0 : 0 <= u * ln (/ X)) by (apply Rmult_le_pos; lra).
  assert (EB : (60 + 8 * ln (/ X) + 2 / X) * u + / 281474976710656 <= / 1900). { unfold Rdiv. lra. }
  assert (TB : Rabs (B2R t) <= 40) by (apply Rabs_le_inv in Ht; apply Rabs_le; lra).
  destruct (exp_merge t Ft) as (w & Ew & Fw & Rw). { unfold exp_fit. rewrite bpow_exp. apply Raux.exp_le. assert (80 <= IZR (emax f - 9) * ln 2). { clear. destruct f; cbn [emax Z.sub Z.add Z.opp Z.pos_sub Pos.pred_double Pos.add Pos.succ]; interval. } change (IZR radix2) with 2. lra. }
  exists w. split; auto. split; auto. rewrite <- (exp_ln (Gamma X)) by (apply Gamma_pos; lra). assert (0 <= Rabs (B2R t)) by apply Rabs_pos.
  eapply rel_mono; [|apply (exp_pert _ _ _ _ _ Rw Ht)]; try lra. assert (0 <= u * / X) by (apply Rmult_le_pos; lra). unfold Rdiv. lra.
Qed.
End Tg.
