(** * Round trips of the hyperbolic functions and their inverses *)
From Verif Require Import Base ModelBasic ModelInt ModelElem ModelSpecial ModelApi FltLemmas Spec SpecGamma IntProofs BasicProofs ConvLemmas MiscProofs ExpAcc.
From Coq Require Import Lra Psatz.
From Coquelicot Require Import Coquelicot.
From Verif Require Import Base ModelBasic FPErr LogApi TanhAcc PowReal InvTrig TrigApi SinAcc SinhAcc InvHyp SqrtSimp InvSqrtAcc GammaApi BetaApi TrigWide RoundTrip RoundTrip2.
From Verif Require Import Base ModelBasic ModelInt ModelElem ModelSpecial ModelApi TotalProofs.
From Interval Require Import Tactic.
Open Scope R_scope.

(** ** Real facts *)
Lemma exp_near d : Rabs d <= / 1000 -> Rabs (exp d - 1) <= 1002 / 1000 * Rabs d.
Proof.
  intros D. destruct (MVT_gen exp 0 d exp) as (c & (C1 & C2) & E).
  - intros y _. apply is_derive_exp.
  - intros y _. apply derivable_continuous_pt, derivable_pt_exp.
  - rewrite exp_0, Rminus_0_r in E. rewrite E, Rabs_mult. apply Rmult_le_compat_r. apply Rabs_pos. rewrite Rabs_pos_eq by (left; apply exp_pos). apply Rabs_le_inv in D.
    apply Rle_trans with (exp (/ 1000)). apply exp_le. apply Rle_trans with (1 := C2). apply Rmax_lub; lra. interval with (i_prec 60).
Qed.
Lemma cosh_near w y : Rabs (w - y) <= / 1000 -> Rabs (cosh w - cosh y) <= 1002 / 1000 * Rabs (w - y) * cosh y.
Proof.
  intros D. assert (A := exp_near (w - y) D). assert (D' : Rabs (- (w - y)) <= / 1000) by (rewrite Rabs_Ropp; exact D). assert (B := exp_near _ D'). rewrite Rabs_Ropp in B.
  unfold cosh. replace (exp w) with (exp y * exp (w - y)) by (rewrite <- exp_plus; f_equal; ring). replace (exp (- w)) with (exp (- y) * exp (- (w - y))) by (rewrite <- exp_plus; f_equal; ring).
  assert (P := exp_pos y). assert (Q := exp_pos (- y)). set (e := 1002 / 1000 * Rabs (w - y)) in * . apply Rabs_le_inv in A. apply Rabs_le_inv in B. apply Rabs_le. split; nra.
Qed.
Lemma sinh_near w y : Rabs (w - y) <= / 1000 -> Rabs (sinh w - sinh y) <= 1002 / 1000 * Rabs (w - y) * cosh y.
Proof.
  intros D. assert (A := exp_near (w - y) D). assert (D' : Rabs (- (w - y)) <= / 1000) by (rewrite Rabs_Ropp; exact D). assert (B := exp_near _ D'). rewrite Rabs_Ropp in B.
  unfold sinh, cosh. replace (exp w) with (exp y * exp (w - y)) by (rewrite <- exp_plus; f_equal; ring). replace (exp (- w)) with (exp (- y) * exp (- (w - y))) by (rewrite <- exp_plus; f_equal; ring).
  assert (P := exp_pos y). assert (Q := exp_pos (- y)). set (e := 1002 / 1000 * Rabs (w - y)) in * . apply Rabs_le_inv in A. apply Rabs_le_inv in B. apply Rabs_le. split; nra.
Qed.
Lemma cosh_surj X : 1 <= X -> exists y, 0 <= y /\ cosh y = X /\ y <= ln (2 * X).
Proof.
  intros L. set (s := sqrt (X * X - 1)). assert (S0 : 0 <= s) by apply sqrt_pos. assert (S2 : s * s = X * X - 1) by (apply sqrt_sqrt; nra). assert (M : 1 <= X + s) by lra. exists (ln (X + s)).
  split. rewrite <- ln_1. apply ln_le; lra. split.
  - unfold cosh. rewrite exp_Ropp, exp_ln by lra. replace (/ (X + s)) with (X - s). lra. apply Rmult_eq_reg_l with (X + s); [|lra]. rewrite Rinv_r by lra. nra.
  - apply ln_le. lra. assert (s <= X) by (apply Rsqr_incr_0; unfold Rsqr; nra). lra.
Qed.
Lemma uf_small f : 0 < uf f <= / 16777216.
Proof. split. apply uf_pos. destruct f; unfold uf; cbn; lra. Qed.

(** ** cosh (acosh x) *)
Lemma cosh_of_acosh : forall v f (x : flt f), finite x = true -> 2 <= B2R x <= 1000 ->
  exists a c : flt f, gcem_acosh v (AFlt f x) = Ok a /\ gcem_cosh v (AFlt f a) = Ok c /\ finite c = true /\
  rel_err (B2R c) (B2R x) (185 * bpow radix2 (- prec f) + bpow radix2 (-52)).
Proof.
  intros v f x Fx X. destruct (cosh_surj (B2R x) ltac:(lra)) as (y & Y0 & Hy & Y1). assert (Y2 : y <= 761 / 100). { apply Rle_trans with (1 := Y1). apply Rle_trans with (ln 2000). apply ln_le; lra. interval. }
  assert (XM : B2R x <= bpow radix2 (emax f / 2 - 1)). { apply Rle_trans with (bpow radix2 10). cbn; lra. apply bpow_le. destruct f; cbn; lia. }
  assert (EA : exists a : flt f, gcem_acosh v (AFlt f x) = Ok a /\ finite a = true /\ rel_err (B2R a) y (10 * bpow radix2 (- prec f))) by exact (api_acosh_rel v f x Fx ltac:(lra) XM y ltac:(lra) Y0 Hy). destruct EA as (a & Ea & Fa & Ra). exists a.
  change (bpow radix2 (- prec f)) with (uf f) in * . destruct (uf_small f) as (U0 & U1). unfold rel_err in Ra. rewrite (Rabs_pos_eq y) in Ra by lra.
  assert (D : Rabs (B2R a - y) <= 761 / 10 * uf f) by (apply Rle_trans with (1 := Ra); nra). assert (D1 : Rabs (B2R a - y) <= / 1000) by lra.
  assert (Aa : Rabs (B2R a) <= 8). { apply Rabs_le_inv in D1. apply Rabs_le. lra. }
  assert (EC : exists c : flt f, gcem_cosh v (AFlt f a) = Ok c /\ finite c = true /\ rel_err (B2R c) (cosh (B2R a)) ((if Rlt_dec (Rabs (B2R a)) 2 then 108 else 14) * bpow radix2 (- prec f) + bpow radix2 (-53) + (Rabs (B2R a) + 3) * bpow radix2 (-60))). { apply (api_cosh v f a Fa). apply Rle_trans with (exp 10). apply exp_le; lra. apply Rle_trans with (bpow radix2 15). cbn. interval. apply bpow_le. destruct f; cbn; lia. }
  destruct EC as (c & Ec & Fc & Rc). exists c. split. exact Ea. split. exact Ec. split. exact Fc. change (bpow radix2 (- prec f)) with (uf f) in Rc. assert (N := cosh_near _ _ D1). rewrite Hy in N.
  assert (C1 := cosh_ge1 (B2R a)). unfold rel_err in * . rewrite (Rabs_pos_eq (cosh _)) in Rc by lra. rewrite (Rabs_pos_eq (B2R x)) by lra.
  assert (K : (if Rlt_dec (Rabs (B2R a)) 2 then 108 else 14) * uf f <= 108 * uf f) by (destruct Rlt_dec; lra).
  assert (b60 : (Rabs (B2R a) + 3) * bpow radix2 (-60) <= 11 * bpow radix2 (-60)) by (apply Rmult_le_compat_r; [apply bpow_ge_0|lra]).
  assert (b1 : 11 * bpow radix2 (-60) <= / 8 * bpow radix2 (-53)) by (cbn; lra). assert (b2 : bpow radix2 (-52) = 2 * bpow radix2 (-53)) by (cbn; lra). assert (b3 := bpow_gt_0 radix2 (-53)).
  set (e := bpow radix2 (-53)) in * .
  set (q := (if Rlt_dec (Rabs (B2R a)) 2 then 108 else 14) * uf f + e + (Rabs (B2R a) + 3) * bpow radix2 (-60)) in * . assert (Q : q <= 108 * uf f + 9 / 8 * e) by (unfold q; lra).
  set (W := cosh (B2R a)) in * . set (XX := B2R x) in * .
  assert (N2 : Rabs (W - XX) <= 763 / 10 * uf f * XX). { apply Rle_trans with (1 := N). apply Rmult_le_compat_r; lra. }
  assert (W1 : W <= 1001 / 1000 * XX). { apply Rabs_le_inv in N2. assert (763 / 10 * uf f * XX <= / 1000 * XX) by (apply Rmult_le_compat_r; lra). lra. }
  replace (B2R c - XX) with ((B2R c - W) + (W - XX)) by ring. eapply Rle_trans. apply Rabs_triang.
  assert (R2 : Rabs (B2R c - W) <= (108 * uf f + 9 / 8 * e) * (1001 / 1000 * XX)). { apply Rle_trans with (1 := Rc). apply Rle_trans with ((108 * uf f + 9 / 8 * e) * W). apply Rmult_le_compat_r; lra. apply Rmult_le_compat_l; lra. }
  assert (0 <= uf f * XX) by (apply Rmult_le_pos; lra). assert (0 <= e * XX) by (apply Rmult_le_pos; lra). rewrite b2. lra.
Qed.
(** ** sinh (asinh x) *)
Lemma sinh_arcsinh X : sinh (arcsinh X) = X.
Proof. apply sinh_arcsinh. Qed.
Lemma cosh_sinh_le y : 1 <= sinh y -> cosh y <= 142 / 100 * sinh y.
Proof. intros S. assert (H := hyp_id y). assert (C := cosh_ge1 y). apply Rsqr_incr_0; unfold Rsqr; nra. Qed.
Lemma arcsinh_ub X : 1 <= X <= 1000 -> 0 <= arcsinh X <= 761 / 100.
Proof.
  intros H. unfold arcsinh. assert (S : sqrt (X ^ 2 + 1) <= sqrt 1000001) by (apply sqrt_le_1_alt; nra). assert (S' : sqrt 1000001 <= 10001 / 10) by interval. assert (S0 := sqrt_pos (X ^ 2 + 1)). split. rewrite <- ln_1. apply ln_le; lra.
  apply Rle_trans with (ln 2001). apply ln_le; lra. interval.
Qed.
Lemma sinh_of_asinh : forall v f (x : flt f), finite x = true -> 1 <= B2R x <= 1000 ->
  exists a s : flt f, gcem_asinh v (AFlt f x) = Ok a /\ gcem_sinh v (AFlt f a) = Ok s /\ finite s = true /\
  rel_err (B2R s) (B2R x) (231 * bpow radix2 (- prec f) + bpow radix2 (-52)).
Proof.
  intros v f x Fx X. assert (Y := arcsinh_ub _ X). set (y := arcsinh (B2R x)) in * . assert (Hy : sinh y = B2R x) by apply sinh_arcsinh.
  assert (XM : B2R x <= bpow radix2 (emax f / 2 - 1)). { apply Rle_trans with (bpow radix2 10). cbn; lra. apply bpow_le. destruct f; cbn; lia. }
  assert (EA : exists a : flt f, gcem_asinh v (AFlt f x) = Ok a /\ finite a = true /\ Rabs (B2R a - y) <= (7 + 6 * y) * bpow radix2 (- prec f)) by exact (api_asinh v f x Fx ltac:(lra) XM). destruct EA as (a & Ea & Fa & Ra). exists a.
  change (bpow radix2 (- prec f)) with (uf f) in * . destruct (uf_small f) as (U0 & U1).
  assert (D : Rabs (B2R a - y) <= 53 * uf f) by (apply Rle_trans with (1 := Ra); apply Rmult_le_compat_r; lra). assert (D1 : Rabs (B2R a - y) <= / 1000) by lra.
  assert (Aa : Rabs (B2R a) <= 8). { apply Rabs_le_inv in D1. apply Rabs_le. lra. }
  assert (b2 : bpow radix2 (-52) = 2 * bpow radix2 (-53)) by (cbn; lra). assert (b3 := bpow_gt_0 radix2 (-53)).
  assert (N := sinh_near _ _ D1). rewrite Hy in N. assert (N' := cosh_near _ _ D1). assert (CS := cosh_sinh_le y ltac:(lra)). rewrite Hy in CS. assert (C1 := cosh_ge1 y).
  assert (CW : cosh (B2R a) <= 1421 / 1000 * B2R x). { apply Rabs_le_inv in N'. assert (1002 / 1000 * Rabs (B2R a - y) * cosh y <= / 10000 * cosh y) by (apply Rmult_le_compat_r; lra). lra. }
  assert (SC := sinh_le_cosh (B2R a)). set (e := bpow radix2 (-53)) in * . set (XX := B2R x) in * .
  assert (N2 : Rabs (sinh (B2R a) - XX) <= 755 / 10 * uf f * XX). { apply Rle_trans with (1 := N). apply Rle_trans with (5311 / 100 * uf f * (142 / 100 * XX)). apply Rmult_le_compat; try lra. apply Rmult_le_pos; [lra|apply Rabs_pos]. assert (0 <= uf f * XX) by (apply Rmult_le_pos; lra). lra. }
  assert (S1 : Rabs (sinh (B2R a)) <= 1001 / 1000 * XX). { apply Rabs_le_inv in N2. assert (755 / 10 * uf f * XX <= / 1000 * XX) by (apply Rmult_le_compat_r; lra). apply Rabs_le. lra. }
  assert (P1 : 0 <= uf f * XX) by (apply Rmult_le_pos; lra). assert (P2 : 0 <= e * XX) by (apply Rmult_le_pos; lra).
  assert (G : exists s : flt f, gcem_sinh v (AFlt f a) = Ok s /\ finite s = true /\ Rabs (B2R s - sinh (B2R a)) <= (1549 / 10 * uf f + 2 * e) * XX).
  { destruct (Rlt_or_le (Rabs (B2R a)) 2) as [L|L].
    - destruct (api_sinh_mid v f a Fa L) as (s & Es & Fs & Rs). exists s. split. exact Es. split. exact Fs. apply Rle_trans with (1 := Rs). change (bpow radix2 (- prec f)) with (uf f).
      replace (bpow radix2 (-55)) with (/ 4 * e) by (unfold e; cbn; lra). apply Rle_trans with ((109 * uf f + / 4 * e) * (1421 / 1000 * XX)). apply Rmult_le_compat_l; lra. lra.
    - assert (ES : exists s : flt f, gcem_sinh v (AFlt f a) = Ok s /\ finite s = true /\ rel_err (B2R s) (sinh (B2R a)) (15 * bpow radix2 (- prec f) + bpow radix2 (-53) + (Rabs (B2R a) + 3) * bpow radix2 (-60))). { apply (api_sinh_far v f a Fa L). apply Rle_trans with (exp 10). apply exp_le; lra. apply Rle_trans with (bpow radix2 15). cbn. interval. apply bpow_le. destruct f; cbn; lia. }
      destruct ES as (s & Es & Fs & Rs). exists s. split. exact Es. split. exact Fs. unfold rel_err in Rs. apply Rle_trans with (1 := Rs). change (bpow radix2 (- prec f)) with (uf f). fold e.
      assert (b60 : (Rabs (B2R a) + 3) * bpow radix2 (-60) <= 11 * bpow radix2 (-60)) by (apply Rmult_le_compat_r; [apply bpow_ge_0|lra]). assert (b1 : 11 * bpow radix2 (-60) <= / 8 * e) by (unfold e; cbn; lra).
      apply Rle_trans with ((15 * uf f + 9 / 8 * e) * (1001 / 1000 * XX)). apply Rmult_le_compat; try lra. assert (0 <= (Rabs (B2R a) + 3) * bpow radix2 (-60)) by (apply Rmult_le_pos; [assert (Q := Rabs_pos (B2R a)); lra|apply bpow_ge_0]). lra. apply Rabs_pos. lra. }
  destruct G as (s & Es & Fs & Rs). exists s. split. exact Ea. split. exact Es. split. exact Fs. unfold rel_err. rewrite (Rabs_pos_eq XX) by lra.
  replace (B2R s - XX) with ((B2R s - sinh (B2R a)) + (sinh (B2R a) - XX)) by ring. eapply Rle_trans. apply Rabs_triang. rewrite b2. lra.
Qed.

(** ** tanh (atanh x) *)
Lemma tanh_lip a b : Rabs (tanh a - tanh b) <= Rabs (a - b).
Proof.
  assert (Dt : forall t, is_derive tanh t (1 - tanh t * tanh t)).
  { intros t. assert (C := cosh_ge1 t). unfold tanh. assert (H := hyp_id t). evar_last. apply (is_derive_div sinh cosh). apply is_derive_Reals, derivable_pt_lim_sinh. apply is_derive_Reals, derivable_pt_lim_cosh. lra. change ((cosh t * cosh t - sinh t * sinh t) / cosh t ^ 2 = 1 - sinh t / cosh t * (sinh t / cosh t)). field. lra. }
  destruct (MVT_gen tanh b a (fun t => 1 - tanh t * tanh t)) as (c & _ & E).
  - intros y _. apply Dt.
  - intros y _. apply continuity_pt_filterlim. apply (ex_derive_continuous tanh). eexists. apply Dt.
  - rewrite E, Rabs_mult. rewrite <- (Rmult_1_l (Rabs (a - b))) at 2. apply Rmult_le_compat_r. apply Rabs_pos.
    assert (T : Rabs (tanh c) <= 1). { assert (C := cosh_ge1 c). assert (S := sinh_le_cosh c). unfold tanh, Rdiv. rewrite Rabs_mult, Rabs_inv, (Rabs_pos_eq (cosh c)) by lra. apply Rmult_le_reg_r with (cosh c). lra. rewrite Rmult_assoc, Rinv_l by lra. lra. } apply Rabs_le_inv in T. apply Rabs_le. nra.
Qed.
Lemma tanh_at0 : tanh 0 = 0.
Proof. unfold tanh. rewrite sinh_0. unfold Rdiv. ring. Qed.
Lemma atanh_pt X : -1 < X < 1 -> tanh (ln ((1 + X) / (1 - X)) / 2) = X.
Proof.
  intros H. set (r := (1 + X) / (1 - X)). assert (R0 : 0 < r) by (unfold r; apply Rdiv_lt_0_compat; lra). set (y := ln r / 2). assert (E : exp y * exp y = r) by (rewrite <- exp_plus; unfold y; replace (ln r / 2 + ln r / 2) with (ln r) by lra; apply exp_ln; auto).
  assert (P := exp_pos y). unfold tanh, sinh, cosh. rewrite exp_Ropp. set (t := exp y) in * . replace ((t - / t) / 2 / ((t + / t) / 2)) with ((t * t - 1) / (t * t + 1)). rewrite E. unfold r. field. lra. field. nra.
Qed.
Lemma atanh_pt_ub X : - (3 / 10) <= X <= 99 / 100 -> Rabs (ln ((1 + X) / (1 - X)) / 2) <= 265 / 100.
Proof.
  intros H. assert (A : 53 / 100 <= (1 + X) / (1 - X)). { apply Rmult_le_reg_r with (1 - X). lra. replace ((1 + X) / (1 - X) * (1 - X)) with (1 + X) by (field; lra). lra. }
  assert (B : (1 + X) / (1 - X) <= 199). { apply Rmult_le_reg_r with (1 - X). lra. replace ((1 + X) / (1 - X) * (1 - X)) with (1 + X) by (field; lra). lra. }
  set (r := (1 + X) / (1 - X)) in * . assert (ln (53 / 100) <= ln r) by (apply ln_le; lra). assert (ln r <= ln 199) by (apply ln_le; lra). assert (- 1 <= ln (53 / 100)) by interval. assert (ln 199 <= 53 / 10) by interval. apply Rabs_le. lra.
Qed.
Lemma tanh_of_atanh : forall v f (x : flt f), finite x = true -> - (3 / 10) <= B2R x <= 99 / 100 -> / 100 <= Rabs (B2R x) ->
  exists a t : flt f, gcem_atanh v (AFlt f x) = Ok a /\ gcem_tanh v (AFlt f a) = Ok t /\ finite t = true /\
  abs_err (B2R t) (B2R x) (35 * bpow radix2 (- prec f) + bpow radix2 (-66)).
Proof.
  intros v f x Fx X X1. assert (Yu := atanh_pt_ub _ X). assert (Ht := atanh_pt (B2R x) ltac:(lra)). set (y := ln ((1 + B2R x) / (1 - B2R x)) / 2) in * .
  assert (EA : exists a : flt f, gcem_atanh v (AFlt f x) = Ok a /\ finite a = true /\ Rabs (B2R a - y) <= (2 + 7 * Rabs y) * bpow radix2 (- prec f)) by exact (api_atanh v f x Fx ltac:(lra) ltac:(lra) y ltac:(lra) Ht).
  destruct EA as (a & Ea & Fa & Ra). exists a. change (bpow radix2 (- prec f)) with (uf f) in * . destruct (uf_small f) as (U0 & U1).
  assert (D : Rabs (B2R a - y) <= 206 / 10 * uf f) by (apply Rle_trans with (1 := Ra); apply Rmult_le_compat_r; lra).
  assert (Yl : / 100 <= Rabs y). { apply Rle_trans with (1 := X1). rewrite <- Ht. assert (L := tanh_lip y 0). rewrite tanh_at0, !Rminus_0_r in L. exact L. }
  assert (Al : / 1000 <= Rabs (B2R a) <= 3). { assert (T1 := Rabs_triang_inv y (y - B2R a)). assert (T2 := Rabs_triang_inv (B2R a) (B2R a - y)). replace (y - (y - B2R a)) with (B2R a) in T1 by ring. replace (B2R a - (B2R a - y)) with y in T2 by ring. rewrite (Rabs_minus_sym y) in T1. lra. }
  assert (EC : exists t : flt f, gcem_tanh v (AFlt f a) = Ok t /\ finite t = true /\ rel_err (B2R t) (tanh (B2R a)) (14 * bpow radix2 (- prec f) + bpow radix2 (-66))).
  { apply (api_tanh20 v f a Fa). split; [|lra]. apply Rle_trans with (bpow radix2 (-10)). apply bpow_le. destruct f; cbn; lia. cbn; lra. }
  destruct EC as (t & Et & Ft & Rt). exists t. split. exact Ea. split. exact Et. split. exact Ft. change (bpow radix2 (- prec f)) with (uf f) in Rt. unfold rel_err, abs_err in * .
  assert (L := tanh_lip (B2R a) y). rewrite Ht in L. assert (T1 : Rabs (tanh (B2R a)) <= 1). { apply Rle_trans with (Rabs (tanh (B2R a) - B2R x) + Rabs (B2R x)). eapply Rle_trans; [|apply Rabs_triang]. right. f_equal. ring. assert (Rabs (B2R x) <= 99 / 100) by (apply Rabs_le; lra). lra. }
  assert (b := bpow_gt_0 radix2 (-66)). set (e := bpow radix2 (-66)) in * .
  replace (B2R t - B2R x) with ((B2R t - tanh (B2R a)) + (tanh (B2R a) - B2R x)) by ring. eapply Rle_trans. apply Rabs_triang.
  assert ((14 * uf f + e) * Rabs (tanh (B2R a)) <= (14 * uf f + e) * 1) by (apply Rmult_le_compat_l; lra). lra.
Qed.
