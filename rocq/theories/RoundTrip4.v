(** * The inverse hyperbolic functions applied to the hyperbolic functions *)
From Verif Require Import Base ModelBasic ModelInt ModelElem ModelSpecial ModelApi FltLemmas Spec SpecGamma IntProofs BasicProofs ConvLemmas MiscProofs ExpAcc.
From Coq Require Import Lra Psatz.
From Coquelicot Require Import Coquelicot.
From Verif Require Import Base ModelBasic FPErr LogApi TanhAcc PowReal InvTrig TrigApi SinAcc SinhAcc InvHyp SqrtSimp InvSqrtAcc GammaApi BetaApi TrigWide RoundTrip RoundTrip2 RoundTrip3.
From Verif Require Import Base ModelBasic ModelInt ModelElem ModelSpecial ModelApi TotalProofs.
From Interval Require Import Tactic.
Open Scope R_scope.

(** ** Real facts *)
Lemma arcsinh_near s x d : 0 <= d <= / 1000 -> Rabs (s - sinh x) <= d * cosh x -> Rabs (arcsinh s - x) <= 1002 / 1000 * d.
Proof.
  intros D L. rewrite <- (arcsinh_sinh x) at 1. assert (C1 := cosh_ge1 x). assert (H := hyp_id x).
  destruct (MVT_gen arcsinh (sinh x) s (fun t => / sqrt (t ^ 2 + 1))) as (c & C & E).
  - intros t _. apply is_derive_Reals, derivable_pt_lim_arcsinh.
  - intros t _. apply derivable_continuous_pt. exists (/ sqrt (t ^ 2 + 1)). apply derivable_pt_lim_arcsinh.
  - rewrite E, Rabs_mult. assert (Lc : Rabs (c - sinh x) <= d * cosh x). { apply Rabs_le_inv in L. apply Rabs_le. unfold Rmin, Rmax in C. destruct Rle_dec; lra. }
    assert (SC := sinh_le_cosh x).
    assert (Q : (1 - d) * cosh x <= sqrt (c ^ 2 + 1)).
    { apply Rsqr_incr_0_var; [|apply sqrt_pos]. rewrite Rsqr_sqrt by nra. unfold Rsqr. set (h := c - sinh x) in * . replace c with (sinh x + h) by (unfold h; ring). apply Rabs_le_inv in Lc. apply Rabs_le_inv in SC. assert (- (d * cosh x * cosh x) <= sinh x * h) by nra. assert ((d * cosh x) * (d * cosh x) <= d * cosh x * cosh x) by nra. set (K := cosh x) in * . set (S := sinh x) in * .
      replace ((1 - d) * K * ((1 - d) * K)) with (K * K - 2 * (d * K * K) + (d * K) * (d * K)) by ring. destruct (Rle_or_lt 0 (S * h)) as [P|P]; [nra|]. 
      assert (h2 : (S * h) * (S * h) <= (K * K - 1) * (h * h)) by nra.
      assert (G : Rabs S * Rabs h <= K * Rabs h) by (apply Rmult_le_compat_r; [apply Rabs_pos|apply Rabs_le; lra]). rewrite <- Rabs_mult, Rabs_left in G by lra.
      assert (Hh : h * h = Rabs h * Rabs h) by (rewrite <- Rabs_mult, Rabs_pos_eq; nra). assert (Hu : Rabs h <= d * K) by (apply Rabs_le; lra). assert (Hp := Rabs_pos h). set (a := Rabs h) in * .
      replace ((S + h) ^ 2 + 1) with (S * S + 1 + 2 * (S * h) + h * h) by ring. rewrite Hh. assert ((K - d * K) * (K - d * K) <= (K - a) * (K - a)) by (apply Rmult_le_compat; nra). nra. }
    assert (Q0 : 0 < (1 - d) * cosh x) by (apply Rmult_lt_0_compat; lra). rewrite Rabs_pos_eq by (left; apply Rinv_0_lt_compat; lra). apply Rle_trans with (/ ((1 - d) * cosh x) * (d * cosh x)).
    apply Rmult_le_compat; auto. left; apply Rinv_0_lt_compat; lra. apply Rabs_pos. apply Rinv_le; lra.
    replace (/ ((1 - d) * cosh x) * (d * cosh x)) with (d / (1 - d)) by (field; lra). apply Rmult_le_reg_r with (1 - d). lra. replace (d / (1 - d) * (1 - d)) with d by (field; lra). nra.
Qed.
Lemma sinh_cosh_95 t : 19 / 10 <= t -> 95 / 100 * cosh t <= sinh t.
Proof.
  intros T. assert (A : 39 * exp (- t) <= exp t). { assert (B : exp (38 / 10) <= exp (t + t)) by (apply exp_le; lra). assert (39 <= exp (38 / 10)) by interval. rewrite exp_plus in B. assert (P := exp_pos (- t)). assert (I : exp t * exp (- t) = 1) by (rewrite <- exp_plus, Rplus_opp_r; apply exp_0). nra. } unfold sinh, cosh. lra.
Qed.
Lemma cosh_back X y x d : 2 <= x -> 0 <= y -> cosh y = X -> 0 <= d <= / 1000 -> Rabs (X - cosh x) <= d * cosh x -> Rabs (y - x) <= 106 / 100 * d.
Proof.
  intros Hx Hy E D L. assert (C1 := cosh_ge1 x). assert (C2 : 376 / 100 <= cosh x). { unfold cosh. assert (exp 2 <= exp x) by (apply exp_le; lra). assert (P := exp_pos (- x)). assert (I : exp x * exp (- x) = 1) by (rewrite <- exp_plus, Rplus_opp_r; apply exp_0). assert (7389 / 1000 <= exp 2) by interval. set (a := exp x) in * . set (b := exp (- x)) in * . nra. }
  assert (Y19 : 19 / 10 <= y). { destruct (Rle_or_lt (19 / 10) y); auto. exfalso. assert (exp y <= exp (19 / 10)) by (apply exp_le; lra). assert (exp (- y) <= 1) by (rewrite <- exp_0; apply exp_le; lra). assert (I : exp y * exp (- y) = 1) by (rewrite <- exp_plus, Rplus_opp_r; apply exp_0). assert (1 <= exp y) by (rewrite <- exp_0; apply exp_le; lra). assert (exp (19 / 10) <= 67 / 10) by interval. unfold cosh in E. assert (P := exp_pos (- y)). set (a := exp y) in * . set (b := exp (- y)) in * . apply Rabs_le_inv in L. assert ((a - 1) * (a - 67 / 10) <= 0) by nra. assert (d * cosh x <= / 1000 * cosh x) by (apply Rmult_le_compat_r; lra). assert (a + b <= 69 / 10) by nra. lra. }
  assert (Sx := sinh_cosh_95 x ltac:(lra)). assert (Sy := sinh_cosh_95 y Y19). rewrite E in Sy.
  destruct (MVT_gen cosh x y sinh) as (c & C & M).
  - intros t _. apply is_derive_Reals, derivable_pt_lim_cosh.
  - intros t _. apply derivable_continuous_pt, derivable_pt_cosh.
  - rewrite E in M. assert (dx : d * cosh x <= / 1000 * cosh x) by (apply Rmult_le_compat_r; lra). assert (LL := L). apply Rabs_le_inv in LL.
    assert (Sc : 949 / 1000 * cosh x <= sinh c).
    { assert (Mo : forall p q, p <= q -> sinh p <= sinh q). { intros p q pq. unfold sinh. assert (exp p <= exp q) by (apply exp_le; lra). assert (exp (- q) <= exp (- p)) by (apply exp_le; lra). lra. }
      unfold Rmin, Rmax in C. destruct (Rle_dec x y). assert (G := Mo x c ltac:(lra)). lra. assert (G := Mo y c ltac:(lra)). lra. }
    rewrite M, Rabs_mult, (Rabs_pos_eq (sinh c)) in L by lra. assert (G : 949 / 1000 * cosh x * Rabs (y - x) <= d * cosh x). { apply Rle_trans with (2 := L). apply Rmult_le_compat_r. apply Rabs_pos. exact Sc. }
    apply Rmult_le_reg_l with (cosh x). lra. nra.
Qed.
Definition hat (T : R) := ln ((1 + T) / (1 - T)) / 2.
Lemma hat_tanh x : hat (tanh x) = x.
Proof.
  unfold hat, tanh, sinh, cosh. assert (P := exp_pos x). assert (Q := exp_pos (- x)). replace ((1 + (exp x - exp (- x)) / 2 / ((exp x + exp (- x)) / 2)) / (1 - (exp x - exp (- x)) / 2 / ((exp x + exp (- x)) / 2))) with (exp x / exp (- x)) by (field; lra).
  unfold Rdiv at 2. rewrite <- exp_Ropp, Ropp_involutive, <- exp_plus, ln_exp. lra.
Qed.
Lemma hat_near a b : -1/2 <= a <= 9642 / 10000 -> -1/2 <= b <= 9642 / 10000 -> Rabs (hat a - hat b) <= 1425 / 100 * Rabs (a - b).
Proof.
  intros A B. destruct (MVT_gen hat b a (fun t => / (1 - t * t))) as (c & C & E).
  - intros t Ht. assert (I : -1/2 <= t <= 9642 / 10000) by (unfold Rmin, Rmax in Ht; destruct Rle_dec; lra). unfold hat. assert (0 < (1 + t) / (1 - t)) by (apply Rdiv_lt_0_compat; lra). auto_derive. split. lra. split. assumption. auto. field. nra.
  - intros t Ht. assert (I : -1/2 <= t <= 9642 / 10000) by (unfold Rmin, Rmax in Ht; destruct Rle_dec; lra). apply continuity_pt_filterlim. apply (ex_derive_continuous hat). unfold hat. assert (0 < (1 + t) / (1 - t)) by (apply Rdiv_lt_0_compat; lra). auto_derive. split. lra. split. assumption. auto.
  - assert (I : -1/2 <= c <= 9642 / 10000) by (unfold Rmin, Rmax in C; destruct Rle_dec; lra). rewrite E, Rabs_mult. apply Rmult_le_compat_r. apply Rabs_pos. assert (/ (1425 / 100) <= 1 - c * c) by nra. rewrite Rabs_pos_eq by (left; apply Rinv_0_lt_compat; lra). rewrite <- (Rinv_inv (1425 / 100)). apply Rinv_le; lra.
Qed.

(** ** asinh (sinh x) *)
Lemma asinh_of_sinh_mid : forall v f (x : flt f), finite x = true -> / 100 <= B2R x < 2 ->
  exists s a : flt f, gcem_sinh v (AFlt f x) = Ok s /\ gcem_asinh v (AFlt f s) = Ok a /\ finite a = true /\
  abs_err (B2R a) (B2R x) (129 * bpow radix2 (- prec f) + bpow radix2 (-54)).
Proof.
  intros v f x Fx X. destruct (uf_small f) as (U0 & U1).
  assert (ES : exists s : flt f, gcem_sinh v (AFlt f x) = Ok s /\ finite s = true /\ Rabs (B2R s - sinh (B2R x)) <= (109 * bpow radix2 (- prec f) + bpow radix2 (-55)) * cosh (B2R x)) by (apply (api_sinh_mid v f x Fx); rewrite Rabs_pos_eq; lra).
  destruct ES as (s & Es & Fs & Rs). exists s. change (bpow radix2 (- prec f)) with (uf f) in * . assert (b := bpow_gt_0 radix2 (-55)). assert (b1 : bpow radix2 (-55) <= / 1000000000) by (cbn; lra). replace (bpow radix2 (-54)) with (2 * bpow radix2 (-55)) by (cbn; lra). set (q := bpow radix2 (-55)) in * .
  assert (N := arcsinh_near (B2R s) (B2R x) (109 * uf f + q) ltac:(lra) Rs).
  assert (Cx : cosh (B2R x) <= 42 / 10). { unfold cosh. assert (exp (B2R x) <= exp 2) by (apply exp_le; lra). assert (exp (- B2R x) <= exp 0) by (apply exp_le; lra). rewrite exp_0 in * . assert (exp 2 <= 74 / 10) by interval. lra. }
  assert (Sx : / 100 <= sinh (B2R x) <= 42 / 10). { split. 2:{ assert (G := sinh_le_cosh (B2R x)). apply Rabs_le_inv in G. lra. } unfold sinh. assert (exp (/ 100) <= exp (B2R x)) by (apply exp_le; lra). assert (exp (- B2R x) <= exp (- / 100)) by (apply exp_le; lra). assert (1 / 50 <= exp (/ 100) - exp (- / 100)) by interval. lra. }
  assert (dC : (109 * uf f + q) * cosh (B2R x) <= (109 * uf f + q) * (42 / 10)) by (apply Rmult_le_compat_l; lra). assert (Rs' := Rs). apply Rabs_le_inv in Rs'.
  assert (EA : exists a : flt f, gcem_asinh v (AFlt f s) = Ok a /\ finite a = true /\ Rabs (B2R a - arcsinh (B2R s)) <= (7 + 6 * arcsinh (B2R s)) * bpow radix2 (- prec f)).
  { apply (api_asinh v f s Fs). lra. apply Rle_trans with (bpow radix2 10). cbn; lra. apply bpow_le. destruct f; cbn; lia. }
  destruct EA as (a & Ea & Fa & Ra). exists a. split. exact Es. split. exact Ea. split. exact Fa. change (bpow radix2 (- prec f)) with (uf f) in Ra. unfold abs_err.
  set (y := arcsinh (B2R s)) in * . assert (N' := N). apply Rabs_le_inv in N'. assert ((7 + 6 * y) * uf f <= (7 + 6 * (2 + / 1000)) * uf f) by (apply Rmult_le_compat_r; lra). apply Rabs_le_inv in Ra. apply Rabs_le. lra.
Qed.
Lemma asinh_of_sinh_far : forall v f (x : flt f), finite x = true -> 2 <= B2R x <= 40 ->
  exists s a : flt f, gcem_sinh v (AFlt f x) = Ok s /\ gcem_asinh v (AFlt f s) = Ok a /\ finite a = true /\
  abs_err (B2R a) (B2R x) ((23 + 6 * B2R x) * bpow radix2 (- prec f) + bpow radix2 (-52)).
Proof.
  intros v f x Fx X. destruct (uf_small f) as (U0 & U1). assert (Ax : Rabs (B2R x) = B2R x) by (apply Rabs_pos_eq; lra).
  assert (ES : exists s : flt f, gcem_sinh v (AFlt f x) = Ok s /\ finite s = true /\ rel_err (B2R s) (sinh (B2R x)) (15 * bpow radix2 (- prec f) + bpow radix2 (-53) + (Rabs (B2R x) + 3) * bpow radix2 (-60))).
  { apply (api_sinh_far v f x Fx); rewrite Ax. lra. apply Rle_trans with (exp 42). apply exp_le; lra. apply Rle_trans with (bpow radix2 61). cbn. interval. apply bpow_le. destruct f; cbn; lia. }
  destruct ES as (s & Es & Fs & Rs). exists s. rewrite Ax in Rs. change (bpow radix2 (- prec f)) with (uf f) in * . assert (b := bpow_gt_0 radix2 (-60)). assert (b1 : bpow radix2 (-60) <= / 1000000000) by (cbn; lra). replace (bpow radix2 (-52)) with (256 * bpow radix2 (-60)) by (cbn; lra). replace (bpow radix2 (-53)) with (128 * bpow radix2 (-60)) in Rs by (cbn; lra). set (q := bpow radix2 (-60)) in * .
  assert (xq : (B2R x + 3) * q <= 43 * q) by (apply Rmult_le_compat_r; lra). assert (xq0 : 0 <= (B2R x + 3) * q) by (apply Rmult_le_pos; lra).
  assert (SC := sinh_le_cosh (B2R x)). assert (S95 := sinh_cosh_95 (B2R x) ltac:(lra)). assert (C1 := cosh_ge1 (B2R x)). unfold rel_err in Rs.
  assert (Rs2 : Rabs (B2R s - sinh (B2R x)) <= (15 * uf f + 171 * q) * cosh (B2R x)). { apply Rle_trans with (1 := Rs). apply Rmult_le_compat; try lra. apply Rabs_pos. }
  assert (N := arcsinh_near (B2R s) (B2R x) (15 * uf f + 171 * q) ltac:(lra) Rs2).
  assert (Cx : cosh (B2R x) <= exp 40). { unfold cosh. assert (exp (B2R x) <= exp 40) by (apply exp_le; lra). assert (exp (- B2R x) <= exp 40) by (apply exp_le; lra). lra. }
  assert (dC : (15 * uf f + 171 * q) * cosh (B2R x) <= / 10 * cosh (B2R x)) by (apply Rmult_le_compat_r; lra). assert (Rs' := Rs2). apply Rabs_le_inv in Rs'. apply Rabs_le_inv in SC.
  assert (EA : exists a : flt f, gcem_asinh v (AFlt f s) = Ok a /\ finite a = true /\ Rabs (B2R a - arcsinh (B2R s)) <= (7 + 6 * arcsinh (B2R s)) * bpow radix2 (- prec f)).
  { apply (api_asinh v f s Fs). lra. apply Rle_trans with (bpow radix2 59). apply Rle_trans with (2 * exp 40). lra. cbn. interval. apply bpow_le. destruct f; cbn; lia. }
  destruct EA as (a & Ea & Fa & Ra). exists a. split. exact Es. split. exact Ea. split. exact Fa. change (bpow radix2 (- prec f)) with (uf f) in Ra. unfold abs_err.
  set (y := arcsinh (B2R s)) in * . assert (N' := N). apply Rabs_le_inv in N'. assert ((7 + 6 * y) * uf f <= (7 + 6 * (B2R x + / 1000)) * uf f) by (apply Rmult_le_compat_r; lra). apply Rabs_le_inv in Ra. apply Rabs_le. lra.
Qed.
(** ** acosh (cosh x) *)
Lemma acosh_of_cosh : forall v f (x : flt f), finite x = true -> 2 <= B2R x <= 40 ->
  exists c a : flt f, gcem_cosh v (AFlt f x) = Ok c /\ gcem_acosh v (AFlt f c) = Ok a /\ finite a = true /\
  abs_err (B2R a) (B2R x) ((16 + 10 * B2R x) * bpow radix2 (- prec f) + bpow radix2 (-52)).
Proof.
  intros v f x Fx X. destruct (uf_small f) as (U0 & U1). assert (Ax : Rabs (B2R x) = B2R x) by (apply Rabs_pos_eq; lra).
  assert (ES : exists s : flt f, gcem_cosh v (AFlt f x) = Ok s /\ finite s = true /\ rel_err (B2R s) (cosh (B2R x)) ((if Rlt_dec (Rabs (B2R x)) 2 then 108 else 14) * bpow radix2 (- prec f) + bpow radix2 (-53) + (Rabs (B2R x) + 3) * bpow radix2 (-60))).
  { apply (api_cosh v f x Fx); rewrite Ax. apply Rle_trans with (exp 42). apply exp_le; lra. apply Rle_trans with (bpow radix2 61). cbn. interval. apply bpow_le. destruct f; cbn; lia. }
  destruct ES as (s & Es & Fs & Rs). exists s. rewrite Ax in Rs. destruct Rlt_dec as [K|K] in Rs; [lra|]. change (bpow radix2 (- prec f)) with (uf f) in * . assert (b := bpow_gt_0 radix2 (-60)). assert (b1 : bpow radix2 (-60) <= / 1000000000) by (cbn; lra). replace (bpow radix2 (-52)) with (256 * bpow radix2 (-60)) by (cbn; lra). replace (bpow radix2 (-53)) with (128 * bpow radix2 (-60)) in Rs by (cbn; lra). set (q := bpow radix2 (-60)) in * .
  assert (xq : (B2R x + 3) * q <= 43 * q) by (apply Rmult_le_compat_r; lra). assert (xq0 : 0 <= (B2R x + 3) * q) by (apply Rmult_le_pos; lra).
  assert (C1 := cosh_ge1 (B2R x)). unfold rel_err in Rs. rewrite (Rabs_pos_eq (cosh _)) in Rs by lra.
  assert (Rs2 : Rabs (B2R s - cosh (B2R x)) <= (14 * uf f + 171 * q) * cosh (B2R x)). { apply Rle_trans with (1 := Rs). apply Rmult_le_compat_r; lra. }
  assert (Cx : 3 <= cosh (B2R x) <= exp 40). { unfold cosh. assert (exp (B2R x) <= exp 40) by (apply exp_le; lra). assert (exp (- B2R x) <= exp 40) by (apply exp_le; lra). assert (exp 2 <= exp (B2R x)) by (apply exp_le; lra). assert (7 <= exp 2) by interval. assert (P := exp_pos (- B2R x)). lra. }
  assert (dC : (14 * uf f + 171 * q) * cosh (B2R x) <= / 10 * cosh (B2R x)) by (apply Rmult_le_compat_r; lra). assert (Rs' := Rs2). apply Rabs_le_inv in Rs'.
  destruct (cosh_surj (B2R s) ltac:(lra)) as (y & Y0 & Hy & _).
  assert (N := cosh_back (B2R s) y (B2R x) (14 * uf f + 171 * q) ltac:(lra) Y0 Hy ltac:(lra) Rs2).
  assert (XM : B2R s <= bpow radix2 (emax f / 2 - 1)). { apply Rle_trans with (bpow radix2 59). apply Rle_trans with (2 * exp 40). lra. cbn. interval. apply bpow_le. destruct f; cbn; lia. }
  assert (EA : exists a : flt f, gcem_acosh v (AFlt f s) = Ok a /\ finite a = true /\ rel_err (B2R a) y (10 * bpow radix2 (- prec f))) by exact (api_acosh_rel v f s Fs ltac:(lra) XM y ltac:(lra) Y0 Hy).
  destruct EA as (a & Ea & Fa & Ra). exists a. split. exact Es. split. exact Ea. split. exact Fa. change (bpow radix2 (- prec f)) with (uf f) in Ra. unfold abs_err. unfold rel_err in Ra. rewrite (Rabs_pos_eq y) in Ra by lra.
  assert (N' := N). apply Rabs_le_inv in N'. assert (10 * uf f * y <= 10 * uf f * (B2R x + / 1000)) by (apply Rmult_le_compat_l; lra). apply Rabs_le_inv in Ra. apply Rabs_le. lra.
Qed.
(** ** atanh (tanh x) *)
Lemma atanh_of_tanh : forall v f (x : flt f), finite x = true -> / 100 <= B2R x <= 2 ->
  exists t a : flt f, gcem_tanh v (AFlt f x) = Ok t /\ gcem_atanh v (AFlt f t) = Ok a /\ finite a = true /\
  abs_err (B2R a) (B2R x) (217 * bpow radix2 (- prec f) + bpow radix2 (-62)).
Proof.
  intros v f x Fx X. destruct (uf_small f) as (U0 & U1). assert (Ax : Rabs (B2R x) = B2R x) by (apply Rabs_pos_eq; lra).
  assert (ET : exists t : flt f, gcem_tanh v (AFlt f x) = Ok t /\ finite t = true /\ rel_err (B2R t) (tanh (B2R x)) (14 * bpow radix2 (- prec f) + bpow radix2 (-66))).
  { apply (api_tanh20 v f x Fx). rewrite Ax. split; [|lra]. apply Rle_trans with (bpow radix2 (-10)). apply bpow_le. destruct f; cbn; lia. cbn; lra. }
  destruct ET as (t & Et & Ft & Rt). exists t. change (bpow radix2 (- prec f)) with (uf f) in * . assert (b := bpow_gt_0 radix2 (-66)). assert (b1 : bpow radix2 (-66) <= / 1000000000) by (cbn; lra). replace (bpow radix2 (-62)) with (16 * bpow radix2 (-66)) by (cbn; lra). set (q := bpow radix2 (-66)) in * .
  assert (T : 0 <= tanh (B2R x) <= 96405 / 100000).
  { assert (P := exp_pos (B2R x)). assert (Q := exp_pos (- B2R x)). assert (M1 : exp (- B2R x) <= exp (B2R x)) by (apply exp_le; lra). assert (M2 : exp (B2R x + B2R x) <= exp 4) by (apply exp_le; lra). assert (M3 : exp 4 <= 545982 / 10000) by interval. rewrite exp_plus in M2. assert (I : exp (B2R x) * exp (- B2R x) = 1) by (rewrite <- exp_plus, Rplus_opp_r; apply exp_0).
    unfold tanh, sinh, cosh. set (p := exp (B2R x)) in * . set (r := exp (- B2R x)) in * . replace ((p - r) / 2 / ((p + r) / 2)) with ((p - r) / (p + r)) by (field; lra). split. apply Rmult_le_pos. lra. left. apply Rinv_0_lt_compat. lra.
    apply Rmult_le_reg_r with (p + r). lra. replace ((p - r) / (p + r) * (p + r)) with (p - r) by (field; lra). assert (p <= 545982 / 10000 * r) by nra. lra. }
  unfold rel_err in Rt. rewrite (Rabs_pos_eq (tanh _)) in Rt by lra. assert (Rt2 : Rabs (B2R t - tanh (B2R x)) <= (14 * uf f + q) * (9641 / 10000)). { apply Rle_trans with (1 := Rt). apply Rmult_le_compat_l; lra. } assert (Rt3 := Rt2). apply Rabs_le_inv in Rt3.
  assert (N := hat_near (B2R t) (tanh (B2R x)) ltac:(lra) ltac:(lra)). rewrite hat_tanh in N. assert (Hy := atanh_pt (B2R t) ltac:(lra)). fold (hat (B2R t)) in Hy. set (y := hat (B2R t)) in * .
  assert (EA : exists a : flt f, gcem_atanh v (AFlt f t) = Ok a /\ finite a = true /\ Rabs (B2R a - y) <= (2 + 7 * Rabs y) * bpow radix2 (- prec f)) by exact (api_atanh v f t Ft ltac:(lra) ltac:(lra) y ltac:(lra) Hy).
  destruct EA as (a & Ea & Fa & Ra). exists a. split. exact Et. split. exact Ea. split. exact Fa. change (bpow radix2 (- prec f)) with (uf f) in Ra. unfold abs_err.
  assert (N2 : Rabs (y - B2R x) <= 1425 / 100 * ((14 * uf f + q) * (9641 / 10000))) by lra. apply Rabs_le_inv in N2. assert (Ay : Rabs y <= 2 + / 1000) by (apply Rabs_le; lra).
  assert ((2 + 7 * Rabs y) * uf f <= (2 + 7 * (2 + / 1000)) * uf f) by (apply Rmult_le_compat_r; lra). apply Rabs_le_inv in Ra. apply Rabs_le. lra.
Qed.
