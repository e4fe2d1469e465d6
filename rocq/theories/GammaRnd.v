(** * Rounding errors of lgamma *)
From Verif Require Import Base ModelBasic ModelElem ModelSpecial FltLemmas ConvLemmas BasicProofs.
From Coq Require Import Lra Psatz.
From Coquelicot Require Import Coquelicot.
From Interval Require Import Tactic.
From Verif Require Import Spec SpecGamma PolyPos Lanczos GammaReal.
From Verif Require Import RangeProofs PF FPErr CFBound ExpAcc MiscProofs SinAcc LogAcc LogApi Log1pAcc ErfAcc GammaCoef.
Open Scope R_scope.

(** Distributing a small factor over the terms of an error bound. *)
Lemma tiny_mul u a : 0 < u <= / 16777216 -> 0 <= a -> 0 <= u * a /\ u * (u * a) <= / 16777216 * (u * a).
Proof. intros U A. assert (0 <= u * a) by (apply Rmult_le_pos; lra). split; auto. apply Rmult_le_compat_r; lra. Qed.

Lemma ls2pi : finite GCEM_LOG_SQRT_2PI = true /\ Rabs (B2R GCEM_LOG_SQRT_2PI - ln (2 * PI) / 2) <= U80 * (ln (2 * PI) / 2).
Proof.
  destruct (sf_val GCEM_LOG_SQRT_2PI false 16951423941496644917%positive (-64)%Z) as (A & B); [vm_compute; reflexivity|]. split; auto. rewrite B. unfold F2R. cbn [Fnum Fexp cond_Zopp]. change (bpow radix2 (-64)) with U80. interval with (i_prec 140).
Qed.

Lemma lit_c f : finite (llit f 52421875 7) = true /\ B2R (llit f 52421875 7) = 671 / 128.
Proof.
  destruct f; [destruct (sf_val (llit F32 52421875 7) false 10993664%positive (-21)%Z) as (A & B) | destruct (sf_val (llit F64 52421875 7) false 5902178417901568%positive (-50)%Z) as (A & B) | destruct (sf_val (llit F80 52421875 7) false 12087661399862411264%positive (-61)%Z) as (A & B)]; try (vm_compute; reflexivity); split; auto; rewrite B; unfold F2R; cbn [Fnum Fexp cond_Zopp].
  - change (bpow radix2 (-21)) with (/ 2097152). field.
  - change (bpow radix2 (-50)) with (/ 1125899906842624). field.
  - change (bpow radix2 (-61)) with (/ 2305843009213693952). field.
Qed.

Section Begin.
Context (v : cxx) {f : fmt}.
Variable w : flt f.
Hypothesis Fw : finite w = true.
Notation z := (B2R w).
Hypothesis Hz : / 36028797018963968 <= z + 1 <= 72057594037927936.
Notation u := (uf f).
Notation y := (z + 671 / 128).
Notation H := (Rabs (z + / 2)).
Notation tau := (/ 1267650600228229401496703205376).
Let u0 : 0 < u := uf_pos f.
Let u1 : u <= / 16777216 := uf_le f.
Let uu : 0 < u <= / 16777216 := conj u0 u1.

Lemma ly_rng : 144 / 100 <= ln y <= 40.
Proof.
  split. apply Rle_trans with (ln (424 / 100)). interval. apply ln_le; lra.
  apply Rle_trans with (ln (72057594037927945)). apply ln_le; lra. interval.
Qed.
Lemma rnd_tau a : Rabs (rnd f a - a) <= u * Rabs a + u * tau.
Proof. apply rnd_small. Qed.

Lemma term1_acc : exists t : flt f, lgamma_term_1 v w = Ok t /\ finite t = true /\
  Rabs (B2R t - ((z + / 2) * ln y - y)) <= u * (863 / 100 * (H * ln y) + 102 / 100 * H + 201 / 100 * y).
Proof.
  destruct (lit_c f) as (Fc & Vc). set (c := llit f 52421875 7) in * . assert (LY := ly_rng). set (ly := ln y) in * .
  assert (Y0 : 424 / 100 <= y <= 72057594037927945) by lra.
  destruct (op_add w c Fw Fc) as (Fy & Vy). { rewrite Vc. apply Rabs_le. lra. } rewrite Vc in Vy.
  destruct (rnd_fac f y) as (a & Va & Ha). lra. apply Rle_trans with 1; [|lra]. change 1 with (bpow radix2 0). apply bpow_le. destruct f; discriminate. rewrite Va in Vy.
  assert (Ha' := Ha). apply Rabs_le_inv in Ha'.
  assert (HA0 : B2R (w +. c) - y = y * (a - 1)) by (rewrite Vy; ring).
  assert (HA : Rabs (B2R (w +. c) - y) <= u * y). { rewrite HA0, Rabs_mult, (Rabs_pos_eq y) by lra. rewrite Rmult_comm. apply Rmult_le_compat_r; lra. }
  destruct (log_check_ge v (w +. c) Fy) as (l & El & Fl & Hl). { apply Rabs_le_inv in HA. assert (u * y <= / 2 * y) by (apply Rmult_le_compat_r; lra). lra. }
  unfold lgamma_term_1. fold c. rewrite El. cbn [bind].
  assert (LA : ln (B2R (w +. c)) = ly + ln a). { rewrite Vy. unfold ly. rewrite ln_mult; lra. }
  assert (LA1 : Rabs (ln a) <= 1002 / 1000 * u). { replace a with (1 + (a - 1)) by ring. eapply Rle_trans. apply ln1p; lra. lra. }
  unfold rel_err in Hl. rewrite LA in Hl.
  assert (HL : Rabs (B2R l - ly) <= u * (56 / 10 * ly + 101 / 100)).
  { replace (B2R l - ly) with ((B2R l - (ly + ln a)) + ln a) by ring. eapply Rle_trans. apply Rabs_triang.
    assert (Rabs (ly + ln a) <= ly + 1002 / 1000 * u). { eapply Rle_trans. apply Rabs_triang. rewrite (Rabs_pos_eq ly) by lra. lra. }
    assert (56 / 10 * u * Rabs (ly + ln a) <= 56 / 10 * u * (ly + 1002 / 1000 * u)) by (apply Rmult_le_compat_l; lra).
    assert (u * u <= / 16777216 * u) by (apply Rmult_le_compat_r; lra). lra. }
  clear Hl LA LA1.
  assert (UL : u * (56 / 10 * ly + 101 / 100) <= / 16777216 * (56 / 10 * ly + 101 / 100)) by (apply Rmult_le_compat_r; lra).
  assert (LB : Rabs (B2R l) <= 10001 / 10000 * ly). { replace (B2R l) with (ly + (B2R l - ly)) by ring. eapply Rle_trans. apply Rabs_triang. rewrite (Rabs_pos_eq ly) by lra. lra. }
  destruct (half_spec f) as (Vh & Fh).
  assert (H0 : 0 <= H) by apply Rabs_pos. assert (HB : H <= 72057594037927936) by (apply Rabs_le; lra).
  destruct (op_add w (half f) Fw Fh) as (Fk & Vk). { rewrite Vh. lra. } rewrite Vh in Vk. assert (D1 := rnd_tau (z + / 2)). rewrite <- Vk in D1.
  set (hh := w +. half f) in * . set (h := z + / 2) in * .
  set (P := Rabs h * ly). assert (P0 : 0 <= P) by (apply Rmult_le_pos; lra).
  assert (TH := tiny_mul u (Rabs h) uu H0). assert (TP := tiny_mul u P uu P0). assert (TT := tiny_mul u tau uu ltac:(lra)). assert (TY := tiny_mul u y uu ltac:(lra)).
  assert (PB : P <= 72057594037927936 * 40) by (apply Rmult_le_compat; lra).
  assert (E1 : Rabs (B2R hh * B2R l - h * ly) <= u * (661 / 100 * P + 101 / 100 * Rabs h + 41 * tau)).
  { replace (B2R hh * B2R l - h * ly) with (h * (B2R l - ly) + (B2R hh - h) * B2R l) by ring. eapply Rle_trans. apply Rabs_triang. rewrite !Rabs_mult.
    assert (A1 : Rabs h * Rabs (B2R l - ly) <= Rabs h * (u * (56 / 10 * ly + 101 / 100))) by (apply Rmult_le_compat_l; lra).
    assert (A2 : Rabs (B2R hh - h) * Rabs (B2R l) <= (u * Rabs h + u * tau) * (10001 / 10000 * ly)) by (apply Rmult_le_compat; try apply Rabs_pos; lra).
    assert (A3 : u * tau * ly <= u * tau * 40) by (apply Rmult_le_compat_l; lra).
    replace (Rabs h * (u * (56 / 10 * ly + 101 / 100))) with (56 / 10 * (u * P) + 101 / 100 * (u * Rabs h)) in A1 by (unfold P; ring).
    replace ((u * Rabs h + u * tau) * (10001 / 10000 * ly)) with (10001 / 10000 * (u * P) + 10001 / 10000 * (u * tau * ly)) in A2 by (unfold P; ring). lra. }
  assert (Q1 : Rabs (h * ly) = P) by (unfold P; rewrite Rabs_mult, (Rabs_pos_eq ly) by lra; reflexivity).
  assert (UE : u * (661 / 100 * P + 101 / 100 * Rabs h + 41 * tau) <= / 16777216 * (661 / 100 * P + 101 / 100 * Rabs h + 41 * tau)) by (apply Rmult_le_compat_r; lra).
  assert (Q2 : Rabs (B2R hh * B2R l) <= 10001 / 10000 * P + / 10000 * Rabs h + tau).
  { replace (B2R hh * B2R l) with (h * ly + (B2R hh * B2R l - h * ly)) by ring. eapply Rle_trans. apply Rabs_triang. lra. }
  destruct (op_mul hh l Fk Fl) as (Fm & Vm). lra.
  assert (D2 := rnd_tau (B2R hh * B2R l)). rewrite <- Vm in D2. set (m := hh *. l) in * .
  assert (Q3 : u * Rabs (B2R hh * B2R l) <= u * (10001 / 10000 * P + / 10000 * Rabs h + tau)) by (apply Rmult_le_compat_l; lra).
  assert (E2 : Rabs (B2R m - B2R (w +. c) - (h * ly - y)) <= u * (762 / 100 * P + 1011 / 1000 * Rabs h + 45 * tau + y)).
  { replace (B2R m - B2R (w +. c) - (h * ly - y)) with ((B2R m - B2R hh * B2R l) + ((B2R hh * B2R l - h * ly) - (B2R (w +. c) - y))) by ring.
    eapply Rle_trans. apply Rabs_triang. eapply Rle_trans. apply Rplus_le_compat_l. apply Rabs_triang. rewrite Rabs_Ropp. lra. }
  assert (Q4 : Rabs (h * ly - y) <= P + y). { replace (h * ly - y) with (h * ly + - y) by ring. eapply Rle_trans. apply Rabs_triang. rewrite Rabs_Ropp, (Rabs_pos_eq y) by lra. lra. }
  assert (UF : u * (762 / 100 * P + 1011 / 1000 * Rabs h + 45 * tau + y) <= / 16777216 * (762 / 100 * P + 1011 / 1000 * Rabs h + 45 * tau + y)) by (apply Rmult_le_compat_r; lra).
  assert (Q5 : Rabs (B2R m - B2R (w +. c)) <= 10001 / 10000 * P + / 10000 * Rabs h + tau + 10001 / 10000 * y).
  { replace (B2R m - B2R (w +. c)) with ((h * ly - y) + (B2R m - B2R (w +. c) - (h * ly - y))) by ring. eapply Rle_trans. apply Rabs_triang. lra. }
  destruct (op_sub m (w +. c) Fm Fy) as (Ft & Vt). lra.
  exists (m -. (w +. c)). split; auto. split; auto. rewrite Vt. assert (D3 := rnd_tau (B2R m - B2R (w +. c))).
  assert (Q6 : u * Rabs (B2R m - B2R (w +. c)) <= u * (10001 / 10000 * P + / 10000 * Rabs h + tau + 10001 / 10000 * y)) by (apply Rmult_le_compat_l; lra).
  replace (rnd f (B2R m - B2R (w +. c)) - (h * ly - y)) with ((rnd f (B2R m - B2R (w +. c)) - (B2R m - B2R (w +. c))) + (B2R m - B2R (w +. c) - (h * ly - y))) by ring.
  eapply Rle_trans. apply Rabs_triang. assert (u * tau <= u * (/ 100000 * y)) by (apply Rmult_le_compat_l; lra). lra.
Qed.

Notation S := (lanc z).
Notation kap := (ln (2 * PI) / 2).
Lemma kap_rng : 918 / 1000 <= kap <= 919 / 1000.
Proof. split; interval. Qed.
Lemma S_rng : 99 / 100 <= S <= 1 + 58 / (z + 1).
Proof.
  assert (A := lanc_low (z + 1) ltac:(lra)). assert (B := lanc_up (z + 1) ltac:(lra)). replace (z + 1 - 1) with z in * by ring. lra.
Qed.
Lemma lS_rng : - (2 / 100) <= ln S <= 45.
Proof.
  assert (A := S_rng). split. apply Rle_trans with (ln (99 / 100)). interval. apply ln_le; lra.
  assert (/ (z + 1) <= 36028797018963968). { replace 36028797018963968 with (/ / 36028797018963968) by (field; lra). apply Rinv_le_contravar; lra. }
  apply Rle_trans with (ln (1 + 58 * 36028797018963968)). apply ln_le; unfold Rdiv in A; lra. interval.
Qed.
Lemma term2_acc : exists t : flt f, lgamma_term_2 v w = Ok t /\ finite t = true /\
  Rabs (B2R t - (kap + ln S)) <= u * (661 / 100 * Rabs (ln S) + 3) + 129 * U80.
Proof.
  assert (KR := kap_rng). assert (SR := S_rng). assert (LS := lS_rng). assert (UG := uf_ge f).
  destruct (conv_exact F80 w) as (Vx & Fx & _). { destruct f; unfold wider; cbn; lia. } auto.
  destruct (coef_acc (conv F80 w) Fx ltac:(rewrite Vx; lra)) as (Fc & Ec). rewrite Vx in Ec. set (c80 := lgamma_coef_term (conv F80 w)) in * .
  destruct (fac_of (B2R c80) S (128 * U80) ltac:(lra) Ec) as (a & Va & Ha). assert (Ha' := Ha). apply Rabs_le_inv in Ha'.
  assert (SB : S <= 2100000000000000000).
  { assert (/ (z + 1) <= 36028797018963968). { replace 36028797018963968 with (/ / 36028797018963968) by (field; lra). apply Rinv_le_contravar; lra. } unfold Rdiv in SR. lra. }
  assert (AB : 98 / 100 <= S * a <= 2200000000000000000). { split. apply Rle_trans with (99 / 100 * (999 / 1000)). lra. apply Rmult_le_compat; lra. apply Rle_trans with (2100000000000000000 * (1001 / 1000)). apply Rmult_le_compat; lra. lra. }
  destruct (conv_spec f c80 Fc) as (Vs & Fs & _). { rewrite Va. apply big_fin. apply Rabs_le. lra. }
  destruct (rnd_fac f (S * a)) as (b & Vb & Hb). lra. { apply Rle_trans with (bpow radix2 (-1)). apply bpow_le. destruct f; discriminate. change (bpow radix2 (-1)) with (/ 2). lra. }
  rewrite Va, Vb in Vs. assert (Hb' := Hb). apply Rabs_le_inv in Hb'.
  assert (G := fac a b (128 * U80) u Ha Hb ltac:(lra)).
  assert (G1 : Rabs (a * b - 1) <= 1001 / 1000 * u + 128 * U80) by (eapply Rle_trans; [exact G|]; lra). clear G.
  assert (UE : U80 <= / 16777216 * / 1000000) by lra.
  assert (G2 : Rabs (a * b - 1) <= / 1000000) by (eapply Rle_trans; [exact G1|]; lra). assert (G3 := G2). apply Rabs_le_inv in G3.
  assert (SB2 : / 2 <= B2R (conv f c80)). { rewrite Vs. replace (S * a * b) with (S * (a * b)) by ring. apply Rle_trans with (99 / 100 * (999 / 1000)). lra. apply Rmult_le_compat; lra. }
  destruct (log_check_ge v (conv f c80) Fs SB2) as (l & El & Fl & Hl).
  assert (LA : ln (B2R (conv f c80)) = ln S + ln (a * b)). { rewrite Vs. replace (S * a * b) with (S * (a * b)) by ring. rewrite ln_mult; lra. }
  assert (LA1 : Rabs (ln (a * b)) <= 1002 / 1000 * (1001 / 1000 * u + 128 * U80)). { replace (a * b) with (1 + (a * b - 1)) by ring. eapply Rle_trans. apply ln1p; lra. lra. }
  unfold rel_err in Hl. rewrite LA in Hl. set (lS := ln S) in * . assert (AS := Rabs_pos lS). assert (ASB : Rabs lS <= 45) by (apply Rabs_le; lra).
  assert (HL : Rabs (B2R l - lS) <= u * (56 / 10 * Rabs lS + 101 / 100) + 1285 / 10 * U80).
  { replace (B2R l - lS) with ((B2R l - (lS + ln (a * b))) + ln (a * b)) by ring. eapply Rle_trans. apply Rabs_triang.
    assert (Rabs (lS + ln (a * b)) <= Rabs lS + / 1000000). { eapply Rle_trans. apply Rabs_triang. lra. }
    assert (56 / 10 * u * Rabs (lS + ln (a * b)) <= 56 / 10 * u * (Rabs lS + / 1000000)) by (apply Rmult_le_compat_l; lra). lra. }
  destruct ls2pi as (FL & EL). destruct (conv_ln f GCEM_LOG_SQRT_2PI kap FL EL ltac:(lra)) as (FK & EK).
  set (K := conv f GCEM_LOG_SQRT_2PI) in * . assert (UK : u * kap <= u * (919 / 1000)) by (apply Rmult_le_compat_l; lra).
  assert (E : Rabs (B2R K + B2R l - (kap + lS)) <= u * (56 / 10 * Rabs lS + 194 / 100) + 1285 / 10 * U80).
  { replace (B2R K + B2R l - (kap + lS)) with ((B2R K - kap) + (B2R l - lS)) by ring. eapply Rle_trans. apply Rabs_triang. lra. }
  assert (TL := tiny_mul u (Rabs lS) uu AS).
  assert (UF : u * (56 / 10 * Rabs lS + 194 / 100) <= / 16777216 * (56 / 10 * Rabs lS + 194 / 100)) by (apply Rmult_le_compat_r; lra).
  assert (Q : Rabs (B2R K + B2R l) <= 10001 / 10000 * Rabs lS + 92 / 100). { replace (B2R K + B2R l) with (kap + lS + (B2R K + B2R l - (kap + lS))) by ring. eapply Rle_trans. apply Rabs_triang. assert (Rabs (kap + lS) <= kap + Rabs lS). { eapply Rle_trans. apply Rabs_triang. rewrite (Rabs_pos_eq kap) by lra. lra. } lra. }
  destruct (op_add K l FK Fl) as (Ft & Vt). lra. exists (K +. l). unfold lgamma_term_2. fold c80. rewrite El. split; auto. split; auto. rewrite Vt.
  assert (D := rnd_tau (B2R K + B2R l)). assert (u * Rabs (B2R K + B2R l) <= u * (10001 / 10000 * Rabs lS + 92 / 100)) by (apply Rmult_le_compat_l; lra).
  replace (rnd f (B2R K + B2R l) - (kap + lS)) with ((rnd f (B2R K + B2R l) - (B2R K + B2R l)) + (B2R K + B2R l - (kap + lS))) by ring. eapply Rle_trans. apply Rabs_triang. lra.
Qed.
(** ** The whole of lgamma_begin: the error against Lg(z + 1) *)
Lemma begin_acc : exists t : flt f, lgamma_begin v w = Ok t /\ finite t = true /\
  Rabs (B2R t - Lg (z + 1)) <= u * (964 / 100 * (H * ln y) + 103 / 100 * H + 302 / 100 * y + 762 / 100 * Rabs (ln S) + 4) + 130 * U80.
Proof.
  destruct term1_acc as (a & Ea & Fa & Ha). destruct term2_acc as (b & Eb & Fb & Hb). unfold lgamma_begin. rewrite Ea, Eb. cbn [bind].
  assert (LY := ly_rng). assert (KR := kap_rng). assert (LS := lS_rng). assert (UG := uf_ge f).
  assert (EL : Lg (z + 1) = ((z + / 2) * ln y - y) + (kap + ln S)). { unfold Lg. replace (z + 1 - 1) with z by ring. replace (z + 1 - / 2) with (z + / 2) by lra. replace (z + 1 + 543 / 128) with (z + 671 / 128) by lra. ring. }
  rewrite EL. set (lS := ln S) in * . set (ly := ln y) in * . set (h := z + / 2) in * .
  assert (AS := Rabs_pos lS). assert (ASB : Rabs lS <= 45) by (apply Rabs_le; lra). assert (H0 := Rabs_pos h). assert (HB : Rabs h <= 72057594037927936) by (apply Rabs_le; unfold h; lra).
  assert (Y0 : 424 / 100 <= y <= 72057594037927945) by lra. assert (QP : Rabs (h * ly) = Rabs h * ly) by (rewrite Rabs_mult, (Rabs_pos_eq ly) by lra; reflexivity).
  set (P := Rabs h * ly) in * . assert (P0 : 0 <= P) by (apply Rmult_le_pos; lra). assert (PB : P <= 72057594037927936 * 40) by (apply Rmult_le_compat; lra).
  assert (E : Rabs (B2R a + B2R b - ((h * ly - y) + (kap + lS))) <= u * (863 / 100 * P + 102 / 100 * Rabs h + 201 / 100 * y + 661 / 100 * Rabs lS + 3) + 129 * U80).
  { replace (B2R a + B2R b - ((h * ly - y) + (kap + lS))) with ((B2R a - (h * ly - y)) + (B2R b - (kap + lS))) by ring. eapply Rle_trans. apply Rabs_triang. lra. }
  assert (N : Rabs ((h * ly - y) + (kap + lS)) <= P + y + 919 / 1000 + Rabs lS).
  { eapply Rle_trans. apply Rabs_triang. assert (Rabs (h * ly - y) <= P + y). { replace (h * ly - y) with (h * ly + - y) by ring. eapply Rle_trans. apply Rabs_triang. rewrite Rabs_Ropp, (Rabs_pos_eq y) by lra. lra. }
    assert (Rabs (kap + lS) <= kap + Rabs lS). { eapply Rle_trans. apply Rabs_triang. rewrite (Rabs_pos_eq kap) by lra. lra. } lra. }
  assert (UF : u * (863 / 100 * P + 102 / 100 * Rabs h + 201 / 100 * y + 661 / 100 * Rabs lS + 3) <= / 16777216 * (863 / 100 * P + 102 / 100 * Rabs h + 201 / 100 * y + 661 / 100 * Rabs lS + 3)) by (apply Rmult_le_compat_r; lra).
  assert (Q : Rabs (B2R a + B2R b) <= 10001 / 10000 * P + / 10000 * Rabs h + 10001 / 10000 * y + 10001 / 10000 * Rabs lS + 92 / 100).
  { replace (B2R a + B2R b) with (((h * ly - y) + (kap + lS)) + (B2R a + B2R b - ((h * ly - y) + (kap + lS)))) by ring. eapply Rle_trans. apply Rabs_triang. lra. }
  destruct (op_add a b Fa Fb) as (Ft & Vt). lra. exists (a +. b). split; auto. split; auto. rewrite Vt.
  assert (D := rnd_tau (B2R a + B2R b)). 
  assert (UQ : u * Rabs (B2R a + B2R b) <= u * (10001 / 10000 * P + / 10000 * Rabs h + 10001 / 10000 * y + 10001 / 10000 * Rabs lS + 92 / 100)) by (apply Rmult_le_compat_l; lra).
  assert (TL := tiny_mul u (Rabs lS) uu AS). assert (TH := tiny_mul u (Rabs h) uu H0). assert (TP := tiny_mul u P uu P0). assert (TY := tiny_mul u y uu ltac:(lra)).
  replace (rnd f (B2R a + B2R b) - ((h * ly - y) + (kap + lS))) with ((rnd f (B2R a + B2R b) - (B2R a + B2R b)) + (B2R a + B2R b - ((h * ly - y) + (kap + lS)))) by ring.
  eapply Rle_trans. apply Rabs_triang. lra.
Qed.
End Begin.
