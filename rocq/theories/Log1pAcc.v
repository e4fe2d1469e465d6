(** * Accuracy of log1p and expm1 *)
From Verif Require Import Base ModelBasic ModelInt ModelElem ModelApi FltLemmas Spec IntProofs BasicProofs ConvLemmas SymLemmas ScaleProofs TotalProofs ExpAcc MiscProofs.
From Coq Require Import Lra Psatz.
From Flocq Require Import Sterbenz.
From Coquelicot Require Import Coquelicot.
From Verif Require Import FPErr CFBound CFTrunc CFAcc TanAcc SinAcc TanhAcc SqrtAcc SqrtSimp AtanAcc LogAcc LogApi.
From Interval Require Import Tactic.
Open Scope R_scope.

(** ** The threshold 1e-4 *)
Lemma lit_1e4 f : finite (dlit f 1 4) = true /\ Rabs (B2R (dlit f 1 4) - / 10000) <= / 10000 * / 10000000.
Proof.
  destruct f; [destruct (sf_val (dlit F32 1 4) false 13743895%positive (-37)%Z) as (F & B); [vm_compute; reflexivity|]|destruct (sf_val (dlit F64 1 4) false 7378697629483821%positive (-66)%Z) as (F & B); [vm_compute; reflexivity|]|destruct (sf_val (dlit F80 1 4) false 15111572745182865408%positive (-77)%Z) as (F & B); [vm_compute; reflexivity|]];
  (split; [exact F|rewrite B; unfold F2R; cbn; apply Rabs_le; lra]).
Qed.
(** ** Five-term polynomials *)
Section Poly.
Context {f : fmt}.
Variable X : R.
Hypothesis X0 : bpow radix2 (2 - emax f) <= X.
Hypothesis X1 : X <= / 9000.
Let u0 := uf_pos f.
Let u1 : uf f <= / 16777216 := uf_le f.
Let x0 := bpow_gt_0 radix2 (2 - emax f).
Let uX : 0 <= uf f * X <= / 16777216 * X.
Proof. split; [apply Rmult_le_pos; lra|apply Rmult_le_compat_r; lra]. Qed.
Definition near (y : flt f) (r : R) (c : R) : Prop := finite y = true /\ Rabs (B2R y - r) <= c * uf f * X.
Lemma rnd_X z : Rabs z <= X -> Rabs (rnd f z - z) <= uf f * X.
Proof. intros H. eapply Rle_trans. apply rnd_fm. apply Rmult_le_compat_l. lra. apply Rmax_lub; auto. Qed.
Lemma near_div (x : flt f) n : finite x = true -> Rabs (B2R x) <= X -> (1 <= n <= 1000)%Z -> near (x /. ofZ f n) (B2R x / IZR n) 1.
Proof.
  intros Fx Hx Hn. destruct (ofZ_small f n ltac:(lia)) as (V & F & _). assert (N1 : 1 <= IZR n) by (apply (IZR_le 1); lia).
  assert (B : Rabs (B2R x / IZR n) <= X). { unfold Rdiv. rewrite Rabs_mult, (Rabs_pos_eq (/ _)) by (left; apply Rinv_0_lt_compat; lra). apply Rle_trans with (Rabs (B2R x) * 1). apply Rmult_le_compat_l. apply Rabs_pos. rewrite <- Rinv_1. apply Rinv_le; lra. lra. }
  destruct (op_div x (ofZ f n) Fx) as (Fd & Vd); rewrite ?V; try lra. split; auto. rewrite Vd, V, Rmult_1_l. apply rnd_X; auto.
Qed.
Lemma near_sq (x : flt f) n : finite x = true -> Rabs (B2R x) <= X -> (5 <= n <= 1000)%Z -> near (x *. x /. ofZ f n) (B2R x * B2R x / IZR n) (13 / 10) /\ Rabs (B2R x * B2R x / IZR n) <= X / 1000.
Proof.
  intros Fx Hx Hn. destruct (ofZ_small f n ltac:(lia)) as (V & F & _). assert (N1 : 5 <= IZR n) by (apply (IZR_le 5); lia).
  assert (I5 : 0 < / IZR n <= / 5) by (split; [apply Rinv_0_lt_compat; lra|apply Rinv_le; lra]).
  assert (B : Rabs (B2R x * B2R x) <= X / 9000). { rewrite Rabs_mult. apply Rmult_le_compat; try apply Rabs_pos; lra. }
  destruct (op_mul x x Fx Fx) as (Fm & Vm). lra. assert (E1 := rnd_X (B2R x * B2R x) ltac:(lra)). rewrite <- Vm in E1. set (m := x *. x) in * . set (s := B2R x * B2R x) in * .
  assert (Bm : Rabs (B2R m) <= X / 5000). { assert (T := Rabs_triang (B2R m - s) s). replace (B2R m - s + s) with (B2R m) in T by ring. lra. }
  assert (Bd : Rabs (B2R m / IZR n) <= X). { unfold Rdiv. rewrite Rabs_mult, (Rabs_pos_eq (/ _)) by lra. apply Rle_trans with (X * 1). apply Rmult_le_compat; try apply Rabs_pos; lra. lra. }
  destruct (op_div m (ofZ f n) Fm) as (Fd & Vd); rewrite ?V; try lra.
  assert (E2 := rnd_X _ Bd). rewrite V in Vd. rewrite <- Vd in E2. split.
  - split; auto. replace (B2R (m /. ofZ f n) - s / IZR n) with ((B2R (m /. ofZ f n) - B2R m / IZR n) + (B2R m - s) * / IZR n) by (unfold Rdiv; ring). eapply Rle_trans. apply Rabs_triang. rewrite Rabs_mult, (Rabs_pos_eq (/ _)) by lra.
    assert (Rabs (B2R m - s) * / IZR n <= (uf f * X) * / 5) by (apply Rmult_le_compat; try apply Rabs_pos; lra). lra.
  - unfold Rdiv. rewrite Rabs_mult, (Rabs_pos_eq (/ IZR n)) by lra. apply Rle_trans with (X / 9000 * / 5). apply Rmult_le_compat; try apply Rabs_pos; lra. lra.
Qed.
Lemma near_add (a b : flt f) ra rb ca cb : near a ra ca -> near b rb cb -> 0 <= ca <= 10 -> 0 <= cb <= 10 -> Rabs ra <= X / 2 -> Rabs rb <= X / 1000 -> near (a +. b) (ra + rb) (ca + cb + 1) /\ Rabs (ra + rb) <= X * (501 / 1000).
Proof.
  intros (Fa & Ea) (Fb & Eb) Ca Cb Ra Rb. assert (T1 := Rabs_triang ra rb). assert (T2 := Rabs_triang (B2R a - ra) (B2R b - rb)). replace (B2R a - ra + (B2R b - rb)) with ((B2R a + B2R b) - (ra + rb)) in T2 by ring.
  assert (T3 := Rabs_triang ((B2R a + B2R b) - (ra + rb)) (ra + rb)). replace (B2R a + B2R b - (ra + rb) + (ra + rb)) with (B2R a + B2R b) in T3 by ring.
  assert (ca * uf f * X <= 10 * uf f * X) by (rewrite !Rmult_assoc; apply Rmult_le_compat_r; lra). assert (cb * uf f * X <= 10 * uf f * X) by (rewrite !Rmult_assoc; apply Rmult_le_compat_r; lra).
  destruct (op_add a b Fa Fb) as (F & V). lra. split; [|lra]. split; auto. assert (E := rnd_X (B2R a + B2R b) ltac:(lra)). rewrite <- V in E.
  assert (T4 := Rabs_triang (B2R (a +. b) - (B2R a + B2R b)) ((B2R a + B2R b) - (ra + rb))). replace (B2R (a +. b) - (B2R a + B2R b) + (B2R a + B2R b - (ra + rb))) with (B2R (a +. b) - (ra + rb)) in T4 by ring. lra.
Qed.
Lemma near_mul (x y : flt f) r c : finite x = true -> Rabs (B2R x) <= X -> near y r c -> 0 <= c <= 10 -> Rabs r <= X * (501 / 1000) -> near (x *. y) (B2R x * r) (1 + c / 9000) /\ Rabs (B2R x * r) <= X / 1000.
Proof.
  intros Fx Hx (Fy & Ey) Hc Hr. assert (R1 : Rabs (B2R x * r) <= X / 9000). { rewrite Rabs_mult. replace (X / 9000) with (/ 9000 * X) by field. apply Rmult_le_compat; try apply Rabs_pos; lra. }
  assert (cu : 0 <= c * uf f * X <= 10 * uf f * X) by (split; [rewrite Rmult_assoc; apply Rmult_le_pos; lra|rewrite !Rmult_assoc; apply Rmult_le_compat_r; lra]).
  assert (D : Rabs (B2R x * B2R y - B2R x * r) <= c / 9000 * uf f * X). { rewrite <- Rmult_minus_distr_l, Rabs_mult. replace (c / 9000 * uf f * X) with (/ 9000 * (c * uf f * X)) by field. apply Rmult_le_compat; try apply Rabs_pos; lra. }
  assert (T := Rabs_triang (B2R x * B2R y - B2R x * r) (B2R x * r)). replace (B2R x * B2R y - B2R x * r + B2R x * r) with (B2R x * B2R y) in T by ring.
  assert (c / 9000 * uf f * X <= uf f * X) by (replace (c / 9000 * uf f * X) with (/ 9000 * (c * uf f * X)) by field; lra).
  destruct (op_mul x y Fx Fy) as (F & V). lra. split; [|lra]. split; auto. assert (E := rnd_X (B2R x * B2R y) ltac:(lra)). rewrite <- V in E.
  assert (T4 := Rabs_triang (B2R (x *. y) - (B2R x * B2R y)) (B2R x * B2R y - B2R x * r)). replace (B2R (x *. y) - B2R x * B2R y + (B2R x * B2R y - B2R x * r)) with (B2R (x *. y) - B2R x * r) in T4 by ring. lra.
Qed.
(** [x + x (a2 + x (a3 + x (a4 + a5)))] *)
Lemma poly_acc (x a2 a3 a4 a5 : flt f) r2 r3 r4 r5 : finite x = true -> Rabs (B2R x) <= X -> near a2 r2 1 -> near a3 r3 1 -> near a4 r4 1 -> near a5 r5 (13 / 10) ->
  Rabs r2 <= X / 2 -> Rabs r3 <= X / 2 -> Rabs r4 <= X / 2 -> Rabs r5 <= X / 1000 ->
  near (x +. x *. (a2 +. x *. (a3 +. x *. (a4 +. a5)))) (B2R x + B2R x * (r2 + B2R x * (r3 + B2R x * (r4 + r5)))) (201 / 100).
Proof.
  intros Fx Hx N2 N3 N4 N5 R2 R3 R4 R5.
  destruct (near_add a4 a5 r4 r5 _ _ N4 N5) as (A4 & B4); try lra.
  destruct (near_mul x _ _ _ Fx Hx A4) as (M4 & C4); try lra.
  destruct (near_add a3 _ r3 _ _ _ N3 M4) as (A3 & B3); try lra.
  destruct (near_mul x _ _ _ Fx Hx A3) as (M3 & C3); try lra.
  destruct (near_add a2 _ r2 _ _ _ N2 M3) as (A2 & B2); try lra.
  destruct (near_mul x _ _ _ Fx Hx A2) as ((Fm & M2) & C2); try lra.
  set (t := x *. (a2 +. x *. (a3 +. x *. (a4 +. a5)))) in * . set (r := r2 + B2R x * (r3 + B2R x * (r4 + r5))) in * .
  assert (T1 := Rabs_triang (B2R t - B2R x * r) (B2R x * r)). replace (B2R t - B2R x * r + B2R x * r) with (B2R t) in T1 by ring.
  assert (T2 := Rabs_triang (B2R x) (B2R t)). destruct (op_add x t Fx Fm) as (F & V). lra. split; auto.
  assert (E := rnd_fm f (B2R x + B2R t)). rewrite <- V in E. assert (E2 : uf f * Rmax (Rabs (B2R x + B2R t)) (bpow radix2 (2 - emax f)) <= uf f * (X * (1002 / 1000))) by (apply Rmult_le_compat_l; [lra|apply Rmax_lub; lra]).
  assert (T4 := Rabs_triang (B2R (x +. t) - (B2R x + B2R t)) (B2R t - B2R x * r)). replace (B2R (x +. t) - (B2R x + B2R t) + (B2R t - B2R x * r)) with (B2R (x +. t) - (B2R x + B2R x * r)) in T4 by ring. lra.
Qed.
End Poly.

(** ** Truncation *)
Lemma log1p_trunc x : Rabs x <= 1001 / 10000000 -> Rabs (x + x * (- x / 2 + x * (x / 3 + x * (- x / 4 + x * x / 5))) - ln (1 + x)) <= / 90000000000000000000 * Rabs x.
Proof.
  intros H. apply (mvt0 (fun x => x + x * (- x / 2 + x * (x / 3 + x * (- x / 4 + x * x / 5))) - ln (1 + x)) (fun x => x ^ 5 / (1 + x))).
  - intros c Hc. assert (C : Rabs c <= 1001 / 10000000) by lra. apply Rabs_le_inv in C. split.
    + auto_derive. lra. field. lra.
    + unfold Rdiv. rewrite Rabs_mult, (Rabs_pos_eq (/ _)) by (left; apply Rinv_0_lt_compat; lra). rewrite <- RPow_abs. apply Rle_trans with ((1001 / 10000000) ^ 5 * (101 / 100)). apply Rmult_le_compat. apply pow_le, Rabs_pos. left; apply Rinv_0_lt_compat; lra. apply pow_incr. split. apply Rabs_pos. apply Rabs_le; lra.
      replace (101 / 100) with (/ (100 / 101)) by field. apply Rinv_le; lra. lra.
  - rewrite Rplus_0_r, ln_1. lra.
Qed.
Lemma expm1_trunc x : Rabs x <= 1001 / 10000000 -> Rabs (x + x * (x / 2 + x * (x / 6 + x * (x / 24 + x * x / 120))) - (exp x - 1)) <= / 90000000000000000000 * Rabs x.
Proof.
  intros H. apply (mvt0 (fun x => x + x * (x / 2 + x * (x / 6 + x * (x / 24 + x * x / 120))) - (exp x - 1)) (fun x => 1 + x + x ^ 2 / 2 + x ^ 3 / 6 + x ^ 4 / 24 - exp x)).
  - intros c Hc. assert (C : Rabs c <= 1001 / 10000000) by lra. apply Rabs_le_inv in C. split.
    + auto_derive. auto. field.
    + interval with (i_taylor c, i_prec 120, i_degree 8).
  - rewrite exp_0. lra.
Qed.
(** ** log1p *)
Lemma small_cases {f} (x : flt f) : finite x = true ->
  (flt_ (dlit f 1 4) (ModelBasic.abs x) = true /\ 99999 / 1000000000 <= Rabs (B2R x)) \/ (flt_ (dlit f 1 4) (ModelBasic.abs x) = false /\ Rabs (B2R x) <= 1001 / 10000000).
Proof.
  intros Fx. destruct (lit_1e4 f) as (Fl & Vl). apply Rabs_le_inv in Vl. rewrite flt_spec by (auto; rewrite abs_finite; auto). rewrite abs_B2R. destruct (Rlt_bool_spec (B2R (dlit f 1 4)) (Rabs (B2R x))) as [C|C]; [left|right]; split; auto; lra.
Qed.
Lemma Xrng {f} (x : flt f) : Rabs (B2R x) <= 1001 / 10000000 -> bpow radix2 (2 - emax f) <= Rmax (Rabs (B2R x)) (bpow radix2 (2 - emax f)) <= 1001 / 10000000 /\ Rabs (B2R x) <= Rmax (Rabs (B2R x)) (bpow radix2 (2 - emax f)).
Proof.
  intros H. split; [split|]. apply Rmax_r. apply Rmax_lub. exact H. apply Rle_trans with (bpow radix2 (-20)). apply bpow_le. destruct f; discriminate. cbn; lra. apply Rmax_l.
Qed.
Lemma neg_half (r X : R) n : Rabs r <= X -> 2 <= n -> Rabs (r / n) <= X / 2.
Proof. intros H N. unfold Rdiv. rewrite Rabs_mult, (Rabs_pos_eq (/ n)) by (left; apply Rinv_0_lt_compat; lra). apply Rmult_le_compat. apply Rabs_pos. left; apply Rinv_0_lt_compat; lra. exact H. apply Rinv_le; lra. Qed.
Lemma uf_ge f : / 18446744073709551616 <= uf f.
Proof. destruct f; unfold uf; cbn; lra. Qed.
Lemma log1p_compute_acc {f} (x : flt f) : finite x = true -> Rabs (B2R x) <= 1001 / 10000000 ->
  finite (log1p_compute x) = true /\ Rabs (B2R (log1p_compute x) - ln (1 + B2R x)) <= 222 / 100 * uf f * Rmax (Rabs (B2R x)) (bpow radix2 (2 - emax f)).
Proof.
  intros Fx H. destruct (Xrng x H) as ((XA & XB) & XC). set (X := Rmax _ _) in * . assert (x0 := bpow_gt_0 radix2 (2 - emax f)). assert (X9 : X <= / 9000) by lra.
  assert (Fn : finite (-. x) = true) by (rewrite fneg_finite; auto). assert (Hn : Rabs (B2R (-. x)) <= X) by (rewrite fneg_B2R, Rabs_Ropp; auto).
  assert (N2 := near_div X XA X9 (-. x) 2 Fn Hn ltac:(lia)). assert (N3 := near_div X XA X9 x 3 Fx XC ltac:(lia)). assert (N4 := near_div X XA X9 (-. x) 4 Fn Hn ltac:(lia)). destruct (near_sq X XA X9 x 5 Fx XC ltac:(lia)) as (N5 & R5).
  destruct (poly_acc X XA X9 x _ _ _ _ _ _ _ _ Fx XC N2 N3 N4 N5) as (F & E); auto. 1-3: apply neg_half; auto; lra.
  split; auto. fold (log1p_compute x) in E. rewrite !fneg_B2R in E. assert (T := log1p_trunc (B2R x) H). set (P := B2R x + _) in * .
  assert (Q := Rabs_triang (B2R (log1p_compute x) - P) (P - ln (1 + B2R x))). replace (B2R (log1p_compute x) - P + (P - ln (1 + B2R x))) with (B2R (log1p_compute x) - ln (1 + B2R x)) in Q by ring.
  assert (U := uf_ge f). assert (/ 18446744073709551616 * X <= uf f * X) by (apply Rmult_le_compat_r; lra). unfold log1p_compute in Q, E |- * . lra.
Qed.
Lemma add_one_fin {f} (x : flt f) : finite x = true -> - 1 <= B2R x -> finite (ofZ f 1 +. x) = true /\ B2R (ofZ f 1 +. x) = rnd f (1 + B2R x).
Proof.
  intros Fx H. destruct (ofZ_small f 1 ltac:(lia)) as (V1 & F1 & _). destruct (Rle_or_lt (B2R x) (bpow radix2 (prec f + 1))) as [L|L].
  - destruct (fadd_spec (ofZ f 1) x F1 Fx) as (V & F). { rewrite V1. rewrite rnd_abs. apply Rle_lt_trans with (rnd f (bpow radix2 (prec f + 2))). apply rnd_le. rewrite Rabs_pos_eq by lra. replace (prec f + 2)%Z with (1 + (prec f + 1))%Z by lia. rewrite bpow_plus. change (bpow radix2 1) with 2. assert (1 <= bpow radix2 (prec f + 1)) by (apply (bpow_le radix2 0); destruct f; cbn; lia). lra.
      rewrite rnd_id. apply bpow_lt. destruct f; cbn; lia. apply fmt_bpow. destruct f; cbn; lia. }
    rewrite V1 in V. auto.
  - assert (x0 : 0 < B2R x). { apply Rlt_trans with (2 := L). apply bpow_gt_0. }
    destruct (fadd_spec (ofZ f 1) x F1 Fx) as (V & F). { rewrite V1. rewrite rnd_abs, Rabs_pos_eq by lra. apply Rle_lt_trans with (2 := B2R_lt_emax x). apply Rle_trans with (B2R x); [|apply Rle_abs].
      unfold rnd. apply round_N_le_midp; auto with typeclass_instances. apply fmt_format. rewrite succ_eq_pos by lra.
      assert (U : 4 <= ulp radix2 (fexpf f) (B2R x)). { rewrite ulp_neq_0 by lra. change 4 with (bpow radix2 2). apply bpow_le. unfold cexp. assert (M : (prec f + 2 <= mag radix2 (B2R x))%Z). { apply mag_ge_bpow. replace (prec f + 2 - 1)%Z with (prec f + 1)%Z by lia. rewrite Rabs_pos_eq; lra. } rewrite fexpf_FLT. unfold FLT_exp. lia. }
      lra. }
    rewrite V1 in V. auto.
Qed.
Lemma log1p_large v {f} (x : flt f) : finite x = true -> - / 2 <= B2R x ->
  exists w, log_check v (ofZ f 1 +. x) = Ok w /\ finite w = true /\ Rabs (B2R w - ln (1 + B2R x)) <= 11 / 10 * uf f + 57 / 10 * uf f * Rabs (ln (1 + B2R x)).
Proof.
  intros Fx H. destruct (add_one_fin x Fx ltac:(lra)) as (F & V). assert (u0 := uf_pos f). assert (u1 := uf_le f). change (bpow radix2 (-24)) with (/ 16777216) in u1.
  assert (HV : / 2 <= B2R (ofZ f 1 +. x)). { rewrite V. apply rnd_ge_fmt. change (/ 2) with (bpow radix2 (-1)). apply fmt_bpow; destruct f; cbn; lia. lra. }
  destruct (log_check_ge v _ F HV) as (w & E & Fw & W). exists w. split; auto. split; auto. unfold rel_err in W.
  destruct (rnd_u f (1 + B2R x)) as (e & He & Ee). { rewrite Rabs_pos_eq by lra. apply Rle_trans with (bpow radix2 (-1)). apply bpow_le. destruct f; discriminate. change (bpow radix2 (-1)) with (/ 2). lra. }
  rewrite Ee in V. assert (LE := ln1p e ltac:(lra)). assert (He' := He). apply Rabs_le_inv in He'. rewrite V, ln_mult in W by lra. set (a := ln (1 + B2R x)) in * . set (b := ln (1 + e)) in * .
  assert (T1 := Rabs_triang a b). assert (T2 := Rabs_triang (B2R w - (a + b)) b). replace (B2R w - (a + b) + b) with (B2R w - a) in T2 by ring.
  assert (uf f * Rabs (a + b) <= uf f * (Rabs a + 2 * / 16777216)) by (apply Rmult_le_compat_l; lra). assert (0 <= uf f * Rabs a) by (apply Rmult_le_pos; [lra|apply Rabs_pos]). lra.
Qed.
Lemma api_log1p_abs v f (x : flt f) : finite x = true -> - / 2 <= B2R x ->
  exists w, gcem_log1p v (AFlt f x) = Ok w /\ finite w = true /\ Rabs (B2R w - ln (1 + B2R x)) <= 11 / 10 * bpow radix2 (- prec f) + 57 / 10 * bpow radix2 (- prec f) * Rabs (ln (1 + B2R x)).
Proof.
  intros Fx H. change (bpow radix2 (- prec f)) with (uf f). unfold gcem_log1p, lift1. cbn [ret_fmt ret_val]. unfold log1p_check. rewrite finite_not_nan by auto. assert (u0 := uf_pos f).
  destruct (small_cases x Fx) as [(-> & C)|(-> & C)].
  - apply log1p_large; auto.
  - destruct (log1p_compute_acc x Fx C) as (F & E). destruct (Xrng x C) as (XA & _). eexists. split; [reflexivity|]. split; auto. eapply Rle_trans. exact E.
    assert (uf f * Rmax (Rabs (B2R x)) (bpow radix2 (2 - emax f)) <= uf f * (1001 / 10000000)) by (apply Rmult_le_compat_l; lra). assert (0 <= uf f * Rabs (ln (1 + B2R x))) by (apply Rmult_le_pos; [lra|apply Rabs_pos]). lra.
Qed.
Lemma ln1p_low x : Rabs x <= 1001 / 10000000 -> 999 / 1000 * Rabs x <= Rabs (ln (1 + x)).
Proof.
  intros H. assert (G : Rabs (ln (1 + x) - x) <= / 1000 * Rabs x). { apply (mvt0 (fun x => ln (1 + x) - x) (fun x => / (1 + x) - 1)).
    - intros c Hc. assert (C : Rabs c <= 1001 / 10000000) by lra. apply Rabs_le_inv in C. split. auto_derive. lra. field. lra. interval.
    - rewrite Rplus_0_r, ln_1. lra. }
  assert (T := Rabs_triang_inv x (x - ln (1 + x))). rewrite (Rabs_minus_sym x) in T. replace (x - (x - ln (1 + x))) with (ln (1 + x)) in T by ring. lra.
Qed.
Lemma api_log1p_small v f (x : flt f) : finite x = true -> bpow radix2 (2 - emax f) <= Rabs (B2R x) <= 9999 / 100000000 ->
  exists w, gcem_log1p v (AFlt f x) = Ok w /\ finite w = true /\ rel_err (B2R w) (ln (1 + B2R x)) (23 / 10 * bpow radix2 (- prec f)).
Proof.
  intros Fx (H0 & H). change (bpow radix2 (- prec f)) with (uf f). unfold gcem_log1p, lift1. cbn [ret_fmt ret_val]. unfold log1p_check. rewrite finite_not_nan by auto. assert (u0 := uf_pos f).
  destruct (small_cases x Fx) as [(_ & C)|(-> & C)]. lra. destruct (log1p_compute_acc x Fx C) as (F & E). rewrite Rmax_left in E by auto. eexists. split; [reflexivity|]. split; auto. unfold rel_err. eapply Rle_trans. exact E.
  assert (L := ln1p_low _ C). assert (uf f * (999 / 1000 * Rabs (B2R x)) <= uf f * Rabs (ln (1 + B2R x))) by (apply Rmult_le_compat_l; lra). assert (0 <= uf f * Rabs (B2R x)) by (apply Rmult_le_pos; [lra|apply Rabs_pos]). lra.
Qed.
(** The loss of accuracy just above the threshold *)
Definition l1p_arg (f : fmt) : flt f := ofZ f (2 ^ (prec f - 13) + 1) /. ofZ f (2 ^ prec f).
Lemma l1p_arg_val f : finite (l1p_arg f) = true /\ B2R (l1p_arg f) = / 8192 + uf f.
Proof.
  destruct f; [destruct (sf_val (l1p_arg F32) false 8392704%positive (-36)%Z) as (F & B); [vm_compute; reflexivity|]|destruct (sf_val (l1p_arg F64) false 4503599627374592%positive (-65)%Z) as (F & B); [vm_compute; reflexivity|]|destruct (sf_val (l1p_arg F80) false 9223372036854779904%positive (-76)%Z) as (F & B); [vm_compute; reflexivity|]];
  (split; [exact F|rewrite B; unfold F2R, uf; cbn; lra]).
Qed.
Lemma l1p_sum f : finite (ofZ f 1 +. l1p_arg f) = true /\ B2R (ofZ f 1 +. l1p_arg f) = 8193 / 8192.
Proof.
  destruct f; [destruct (sf_val (ofZ F32 1 +. l1p_arg F32) false 8389632%positive (-23)%Z) as (F & B); [vm_compute; reflexivity|]|destruct (sf_val (ofZ F64 1 +. l1p_arg F64) false 4504149383184384%positive (-52)%Z) as (F & B); [vm_compute; reflexivity|]|destruct (sf_val (ofZ F80 1 +. l1p_arg F80) false 9224497936761618432%positive (-63)%Z) as (F & B); [vm_compute; reflexivity|]];
  (split; [exact F|rewrite B; unfold F2R; cbn; lra]).
Qed.
Lemma api_log1p_bad v f : exists x : flt f, finite x = true /\ / 10000 <= B2R x <= / 8000 /\
  exists w, gcem_log1p v (AFlt f x) = Ok w /\ finite w = true /\ 8000 * bpow radix2 (- prec f) * Rabs (ln (1 + B2R x)) <= Rabs (B2R w - ln (1 + B2R x)).
Proof.
  exists (l1p_arg f). destruct (l1p_arg_val f) as (Fx & Vx). destruct (l1p_sum f) as (Fs & Vs). assert (u0 := uf_pos f). assert (u1 := uf_le f). change (bpow radix2 (-24)) with (/ 16777216) in u1. change (bpow radix2 (- prec f)) with (uf f).
  split; auto. split. lra. unfold gcem_log1p, lift1. cbn [ret_fmt ret_val]. unfold log1p_check. rewrite finite_not_nan by auto.
  destruct (small_cases (l1p_arg f) Fx) as [(-> & C)|(_ & C)]. 2: { rewrite Vx, Rabs_pos_eq in C; lra. }
  destruct (log_check_ge v _ Fs) as (w & E & Fw & W). { rewrite Vs. lra. } exists w. split; auto. split; auto. unfold rel_err in W. rewrite Vs in W. rewrite Vx. set (a := ln (8193 / 8192)) in * .
  assert (a0 : 0 <= a <= / 8192). { split. unfold a. interval. unfold a. assert (Q := exp_ineq1_le (/ 8192)). apply ln_le_le in Q; [|lra]. rewrite ln_exp in Q. replace (8193 / 8192) with (1 + / 8192) by field. exact Q. }
  rewrite (Rabs_pos_eq a) in W by lra. set (t := uf f * (8192 / 8193)). assert (EL : ln (1 + (/ 8192 + uf f)) = a + ln (1 + t)). { unfold a. rewrite <- ln_mult by (unfold t; lra). f_equal. unfold t. field. }
  rewrite EL. assert (T0 : 0 < t) by (unfold t; lra). assert (T1 : t <= uf f) by (unfold t; lra).
  assert (Lt : t * (999 / 1000) <= ln (1 + t) <= t). { split. assert (Q := exp_ineq1_le (- ln (1 + t))). rewrite exp_Ropp, exp_ln in Q by lra. assert (/ (1 + t) <= 1 - t * (999 / 1000)). { apply Rmult_le_reg_r with (1 + t). lra. rewrite Rinv_l by lra. assert (t * t <= t * / 16777216) by (apply Rmult_le_compat_l; lra). lra. } lra.
    assert (Q := exp_ineq1_le t). apply ln_le_le in Q; [|lra]. rewrite ln_exp in Q. exact Q. }
  rewrite (Rabs_pos_eq (a + _)) by lra. apply Rabs_le_inv in W. assert (uf f * a <= uf f * / 8192) by (apply Rmult_le_compat_l; lra).
  rewrite Rabs_minus_sym. apply Rle_trans with ((a + ln (1 + t)) - B2R w); [|apply Rle_abs]. assert (8000 * uf f * (a + ln (1 + t)) <= 8000 * uf f * (/ 8192 + / 16777216)) by (apply Rmult_le_compat_l; lra). assert (TE : t = uf f * (8192 / 8193)) by reflexivity. lra.
Qed.
