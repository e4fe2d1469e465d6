(** * Accuracy of sinh and cosh *)
From Verif Require Import Base ModelBasic ModelInt ModelElem ModelApi FltLemmas Spec IntProofs BasicProofs ConvLemmas ExpAcc MiscProofs CxxProofs.
From Coq Require Import Lra.
From Coquelicot Require Import Coquelicot.
From Verif Require Import FPErr CFBound CFTrunc CFAcc TanAcc SinAcc TanhAcc SqrtAcc LogAcc LogApi PowReal.
From Interval Require Import Tactic.
Open Scope R_scope.

Section Two.
Context {f : fmt}.
Variables (a b : flt f) (A B c1 c2 : R).
Hypothesis (Fa : finite a = true) (Fb : finite b = true).
Hypothesis (Ra : rel_err (B2R a) A c1) (Rb : rel_err (B2R b) B c2).
Hypothesis (A0 : 0 < A) (B0 : 0 < B) (C1 : 0 <= c1 <= / 1000) (C2 : 0 <= c2 <= / 1000).
Hypothesis (AB : A + B <= bpow radix2 (emax f - 8)).
Let D := c1 * A + c2 * B.
Let u0 := uf_pos f.
Let D0 : 0 <= D <= / 1000 * (A + B).
Proof. unfold D. assert (0 <= c1 * A <= / 1000 * A) by (split; [apply Rmult_le_pos; lra|apply Rmult_le_compat_r; lra]). assert (0 <= c2 * B <= / 1000 * B) by (split; [apply Rmult_le_pos; lra|apply Rmult_le_compat_r; lra]). lra. Qed.
Lemma two_ranges : Rabs (B2R a - A) <= c1 * A /\ Rabs (B2R b - B) <= c2 * B.
Proof. unfold rel_err in Ra, Rb. rewrite (Rabs_pos_eq A) in Ra by lra. rewrite (Rabs_pos_eq B) in Rb by lra. auto. Qed.
Lemma two_fin z : Rabs z <= 2 * (A + B) -> Rabs (rnd f z) < bpow radix2 (emax f).
Proof.
  intros H. apply rnd_lt_emax_bpow with (emax f - 6)%Z. split. unfold emin; destruct f; cbn; lia. lia. apply Rle_trans with (1 := H). apply Rle_trans with (4 * bpow radix2 (emax f - 8)). lra.
  change 4 with (bpow radix2 2). rewrite <- bpow_plus. apply bpow_le. lia.
Qed.
Lemma two_add : finite (a +. b) = true /\ Rabs (B2R (a +. b) - (A + B)) <= D + uf f * Rmax (A + B + D) (bpow radix2 (2 - emax f)).
Proof.
  destruct two_ranges as (EA & EB). assert (T := Rabs_triang (B2R a - A) (B2R b - B)). replace (B2R a - A + (B2R b - B)) with (B2R a + B2R b - (A + B)) in T by ring. fold D in T.
  assert (T2 : Rabs (B2R a + B2R b) <= A + B + D). { replace (B2R a + B2R b) with ((B2R a + B2R b - (A + B)) + (A + B)) by ring. eapply Rle_trans. apply Rabs_triang. rewrite (Rabs_pos_eq (A + B)) by lra. unfold D in * . lra. }
  destruct (fadd_spec a b Fa Fb) as (V & F). apply two_fin. lra. split; auto. rewrite V. assert (Q := rnd_fm f (B2R a + B2R b)). assert (M : Rmax (Rabs (B2R a + B2R b)) (bpow radix2 (2 - emax f)) <= Rmax (A + B + D) (bpow radix2 (2 - emax f))) by (apply Rmax_le_compat; lra). apply (Rmult_le_compat_l (uf f)) in M; [|lra].
  assert (T3 := Rabs_triang (rnd f (B2R a + B2R b) - (B2R a + B2R b)) (B2R a + B2R b - (A + B))). replace (rnd f (B2R a + B2R b) - (B2R a + B2R b) + (B2R a + B2R b - (A + B))) with (rnd f (B2R a + B2R b) - (A + B)) in T3 by ring. unfold D in * . lra.
Qed.
Lemma two_sub : finite (a -. b) = true /\ Rabs (B2R (a -. b) - (A - B)) <= D + uf f * Rmax (Rabs (A - B) + D) (bpow radix2 (2 - emax f)).
Proof.
  destruct two_ranges as (EA & EB). assert (T := Rabs_triang (B2R a - A) (B - B2R b)). replace (B2R a - A + (B - B2R b)) with (B2R a - B2R b - (A - B)) in T by ring. rewrite (Rabs_minus_sym B) in T.
  assert (T2 : Rabs (B2R a - B2R b) <= Rabs (A - B) + D). { replace (B2R a - B2R b) with ((B2R a - B2R b - (A - B)) + (A - B)) by ring. eapply Rle_trans. apply Rabs_triang. unfold D in * . lra. }
  assert (T0 : Rabs (A - B) <= A + B) by (apply Rabs_le; lra).
  destruct (fsub_spec a b Fa Fb) as (V & F). apply two_fin. lra. split; auto. rewrite V. assert (Q := rnd_fm f (B2R a - B2R b)). assert (M : Rmax (Rabs (B2R a - B2R b)) (bpow radix2 (2 - emax f)) <= Rmax (Rabs (A - B) + D) (bpow radix2 (2 - emax f))) by (apply Rmax_le_compat; lra). apply (Rmult_le_compat_l (uf f)) in M; [|lra].
  assert (T3 := Rabs_triang (rnd f (B2R a - B2R b) - (B2R a - B2R b)) (B2R a - B2R b - (A - B))). replace (rnd f (B2R a - B2R b) - (B2R a - B2R b) + (B2R a - B2R b - (A - B))) with (rnd f (B2R a - B2R b) - (A - B)) in T3 by ring. unfold D in * . lra.
Qed.
End Two.
Lemma half_any {f} (s : flt f) : finite s = true -> finite (s /. ofZ f 2) = true /\ Rabs (B2R (s /. ofZ f 2) - B2R s / 2) <= uf f * Rmax (Rabs (B2R s / 2)) (bpow radix2 (2 - emax f)).
Proof.
  intros Fs. destruct (ofZ_small f 2 ltac:(lia)) as (V2 & F2 & _). change (IZR 2) with 2 in V2. destruct (fdiv_spec s (ofZ f 2) Fs) as (V & F). lra.
  { rewrite V2. apply Rle_lt_trans with (2 := B2R_lt_emax s). rewrite <- (rnd_B2R s) at 2. rewrite !rnd_abs. apply rnd_le. unfold Rdiv. rewrite Rabs_mult, (Rabs_pos_eq (/ 2)) by lra. assert (Q := Rabs_pos (B2R s)). lra. }
  split; auto. rewrite V, V2. apply rnd_fm.
Qed.

(** The relative error of [exp] at the two arguments. *)
Definition ek (f : fmt) (x : R) : R := if Rle_dec (Rabs x) (/ 2) then 8 * uf f + bpow radix2 (-55) else if Rlt_dec (Rabs x) 2 then 106 * uf f + bpow radix2 (-55)
  else (if Rle_dec 0 x then 10 else 108) * uf f + bpow radix2 (-54) + (Rabs x + 3) * bpow radix2 (-61).
Lemma ek_rng f x : exp_fit f (Rabs x + 2) -> 0 <= ek f x <= / 1000.
Proof.
  intros B. apply exp_fit_u in B. destruct B as (_ & B). assert (u := uf_le f). change (bpow radix2 (-24)) with (/ 16777216) in u. assert (u0' := uf_pos f). assert (P := Rabs_pos x). assert (P55 : 0 < bpow radix2 (-55) <= / 1000000) by (cbn; lra). assert (P54 : 0 < bpow radix2 (-54) <= / 1000000) by (cbn; lra).
  assert (P61 : 0 <= (Rabs x + 3) * bpow radix2 (-61) <= / 1000000). { split. apply Rmult_le_pos; [lra|apply bpow_ge_0]. apply Rle_trans with (20003 * bpow radix2 (-61)). apply Rmult_le_compat_r. apply bpow_ge_0. lra. cbn; lra. }
  unfold ek. destruct (Rle_dec _ _). lra. destruct (Rlt_dec _ _). lra. destruct (Rle_dec _ _); lra.
Qed.
Lemma exp_ek v {f} (x : flt f) : finite x = true -> exp_fit f (Rabs (B2R x) + 2) -> exists w, exp_check v x = Ok w /\ finite w = true /\ rel_err (B2R w) (exp (B2R x)) (ek f (B2R x)).
Proof.
  intros Fx B. destruct (exp_all v x Fx B) as (w & E & F & W1 & W2 & W3 & W4). exists w. split; auto. split; auto. unfold ek. destruct (Rle_dec _ _); auto. destruct (Rlt_dec _ _); auto. apply Rnot_lt_le in n0.
  destruct (Rle_dec 0 (B2R x)) as [H|H]. rewrite Rabs_pos_eq in n0 by lra. auto. rewrite Rabs_left in n0 by lra. apply W4. lra.
Qed.
(** The error bound for both, in terms of cosh. *)
Definition ck (f : fmt) (x : R) : R := if Rle_dec (Rabs x) (/ 2) then 8 * uf f + bpow radix2 (-55) else if Rlt_dec (Rabs x) 2 then 106 * uf f + bpow radix2 (-55)
  else 12 * uf f + 102 / 100 * (bpow radix2 (-54) + (Rabs x + 3) * bpow radix2 (-61)).
Lemma exp4 : exp (-4) <= 184 / 10000. Proof. interval. Qed.
Lemma ek_sum f x : ek f x * exp x + ek f (- x) * exp (- x) <= ck f x * (exp x + exp (- x)).
Proof.
  assert (A0 := exp_pos x). assert (B0 := exp_pos (- x)). unfold ek, ck. rewrite Rabs_Ropp. destruct (Rle_dec _ _). lra. destruct (Rlt_dec _ _). lra. apply Rnot_lt_le in n0. set (e := bpow radix2 (-54) + (Rabs x + 3) * bpow radix2 (-61)).
  assert (e0 : 0 <= e). { unfold e. assert (0 <= bpow radix2 (-54)) by apply bpow_ge_0. assert (0 <= bpow radix2 (-61)) by apply bpow_ge_0. assert (0 <= (Rabs x + 3) * bpow radix2 (-61)) by (apply Rmult_le_pos; lra). lra. }
  assert (u0 := uf_pos f). assert (H4 := exp4). destruct (Rle_dec 0 x) as [H|H].
  - rewrite Rabs_pos_eq in n0 by lra. assert (Q : exp (- x) <= 184 / 10000 * exp x). { replace (- x) with (- 2 * x + x) by ring. rewrite exp_plus. apply Rmult_le_compat_r. lra. apply Rle_trans with (2 := H4). apply exp_le. lra. }
    destruct (Rle_dec 0 (- x)). lra. rewrite !Rplus_assoc. fold e. assert (0 <= uf f * (184 / 10000 * exp x - exp (- x))) by (apply Rmult_le_pos; lra). assert (0 <= e * (184 / 10000 * exp x - exp (- x))) by (apply Rmult_le_pos; lra). assert (0 <= uf f * exp x) by (apply Rmult_le_pos; lra). assert (0 <= e * exp x) by (apply Rmult_le_pos; lra). assert (0 <= uf f * exp (- x)) by (apply Rmult_le_pos; lra). assert (0 <= e * exp (- x)) by (apply Rmult_le_pos; lra). nra.
  - rewrite Rabs_left in n0 by lra. assert (Q : exp x <= 184 / 10000 * exp (- x)). { replace x with (2 * x + - x) at 1 by ring. rewrite exp_plus. apply Rmult_le_compat_r. lra. apply Rle_trans with (2 := H4). apply exp_le. lra. }
    destruct (Rle_dec 0 (- x)); [|lra]. rewrite !Rplus_assoc. fold e. assert (0 <= uf f * (184 / 10000 * exp (- x) - exp x)) by (apply Rmult_le_pos; lra). assert (0 <= e * (184 / 10000 * exp (- x) - exp x)) by (apply Rmult_le_pos; lra). assert (0 <= uf f * exp x) by (apply Rmult_le_pos; lra). assert (0 <= e * exp x) by (apply Rmult_le_pos; lra). assert (0 <= uf f * exp (- x)) by (apply Rmult_le_pos; lra). assert (0 <= e * exp (- x)) by (apply Rmult_le_pos; lra). nra.
Qed.
Lemma fit_sum f x : exp_fit f (Rabs x + 2) -> exp x + exp (- x) <= bpow radix2 (emax f - 8).
Proof.
  unfold exp_fit. intros H. assert (exp x <= exp (Rabs x + 2)) by (apply exp_le; assert (T := RRle_abs x); lra). assert (exp (- x) <= exp (Rabs x + 2)) by (apply exp_le; assert (T := RRle_abs (- x)); rewrite Rabs_Ropp in T; lra).
  replace (emax f - 8)%Z with (1 + (emax f - 9))%Z by lia. rewrite bpow_plus. change (bpow radix2 1) with 2. lra.
Qed.
Lemma cosh_ge1 x : 2 <= exp x + exp (- x).
Proof. assert (A0 := exp_pos x). assert (H : exp x * exp (- x) = 1) by (rewrite <- exp_plus; replace (x + - x) with 0 by ring; apply exp_0). assert (0 <= (exp x - exp (- x)) * (exp x - exp (- x))) by apply Rle_0_sqr. assert (0 < exp (- x)) by apply exp_pos. nra. Qed.
Lemma fm_uf f : bpow radix2 (2 - emax f) <= / 1000 * uf f.
Proof. unfold uf. apply Rle_trans with (bpow radix2 (-10 + - prec f)). apply bpow_le. destruct f; cbn; lia. rewrite bpow_plus. apply Rmult_le_compat_r. apply bpow_ge_0. cbn; lra. Qed.
Lemma tiny_cosh f x : Rabs x <= bpow radix2 (2 - emax f) -> Rabs (1 - cosh x) <= uf f * cosh x /\ Rabs (sinh x) <= uf f * cosh x.
Proof.
  intros H. assert (FM := fm_uf f). assert (u := uf_le f). change (bpow radix2 (-24)) with (/ 16777216) in u. assert (u0' := uf_pos f). assert (u0 := uf_pos f). assert (M : bpow radix2 (2 - emax f) <= / 100 * uf f) by lra. assert (X : Rabs x <= / 1000) by lra.
  assert (E1 := exp_near x X). assert (E2 := exp_near (- x) ltac:(rewrite Rabs_Ropp; auto)). rewrite Rabs_Ropp in E2. assert (C := cosh_ge1 x). unfold cosh, sinh. assert (uf f * 1 <= uf f * ((exp x + exp (- x)) / 2)) by (apply Rmult_le_compat_l; lra).
  apply Rabs_le_inv in E1. apply Rabs_le_inv in E2. split; apply Rabs_le; lra.
Qed.

Lemma neg_fin {f} (x : flt f) : finite (-. x) = finite x. Proof. apply is_finite_Bopp. Qed.
Lemma neg_val {f} (x : flt f) : B2R (-. x) = - B2R x. Proof. apply B2R_Bopp. Qed.
Lemma rel_scale a b c k : 0 < k -> rel_err a b c -> rel_err (a / k) (b / k) c.
Proof. intros K H. unfold rel_err in * . replace (a / k - b / k) with ((a - b) / k) by (field; lra). unfold Rdiv. rewrite !Rabs_mult, (Rabs_pos_eq (/ k)) by (left; apply Rinv_0_lt_compat; lra). rewrite <- Rmult_assoc. apply Rmult_le_compat_r. left; apply Rinv_0_lt_compat; lra. exact H. Qed.
Lemma ck_rng f x : exp_fit f (Rabs x + 2) -> 0 <= ck f x <= / 1000.
Proof.
  intros B. apply exp_fit_u in B. destruct B as (_ & B). assert (u := uf_le f). change (bpow radix2 (-24)) with (/ 16777216) in u. assert (u0 := uf_pos f). assert (P := Rabs_pos x). assert (P55 : 0 < bpow radix2 (-55) <= / 1000000) by (cbn; lra). assert (P54 : 0 < bpow radix2 (-54) <= / 1000000) by (cbn; lra).
  assert (P61 : 0 <= (Rabs x + 3) * bpow radix2 (-61) <= / 1000000). { split. apply Rmult_le_pos; [lra|apply bpow_ge_0]. apply Rle_trans with (20003 * bpow radix2 (-61)). apply Rmult_le_compat_r. apply bpow_ge_0. lra. cbn; lra. }
  unfold ck. destruct (Rle_dec _ _). lra. destruct (Rlt_dec _ _). lra. lra.
Qed.
Lemma cosh_acc v {f} (x : flt f) : finite x = true -> exp_fit f (Rabs (B2R x) + 2) -> exists w, cosh_compute v x = Ok w /\ finite w = true /\ rel_err (B2R w) (cosh (B2R x)) (ck f (B2R x) + 1001 / 1000 * uf f).
Proof.
  intros Fx Ft. assert (u0 := uf_pos f). assert (u1 := uf_le f). change (bpow radix2 (-24)) with (/ 16777216) in u1. assert (K := ck_rng f _ Ft). unfold cosh_compute. rewrite (finite_not_nan x Fx). assert (C := cosh_ge1 (B2R x)). assert (FM := fm_uf f).
  destruct (fmin_spec f) as (Vm & Fm). assert (Va := abs_B2R x). assert (Fa : finite (ModelBasic.abs x) = true) by (rewrite abs_finite; auto). destruct (fmin f >. ModelBasic.abs x) eqn:G.
  - apply flt_true_inv in G; auto. rewrite Va, Vm in G. destruct (ofZ_small f 1 ltac:(lia)) as (V1 & F1 & _). exists (ofZ f 1). split; auto. split; auto. rewrite V1. destruct (tiny_cosh f (B2R x)) as (T & _). lra. unfold rel_err. change (IZR 1) with 1. rewrite (Rabs_pos_eq (cosh _)) by (unfold cosh; lra). eapply Rle_trans. apply T. apply Rmult_le_compat_r. unfold cosh; lra. lra.
  - destruct (exp_ek v x Fx Ft) as (a & Ea & Fa' & Ra). destruct (exp_ek v (-. x)) as (b & Eb & Fb & Rb). rewrite neg_fin; auto. rewrite neg_val, Rabs_Ropp; auto. rewrite neg_val in Rb. rewrite Ea, Eb. cbn [bind].
    assert (E1 := ek_rng f _ Ft). assert (E2 := ek_rng f (- B2R x)). rewrite Rabs_Ropp in E2. specialize (E2 Ft).
    destruct (two_add a b _ _ _ _ Fa' Fb Ra Rb (exp_pos _) (exp_pos _) E1 E2 (fit_sum _ _ Ft)) as (Fs & S). assert (Q := ek_sum f (B2R x)). set (D := ek f (B2R x) * exp (B2R x) + ek f (- B2R x) * exp (- B2R x)) in * .
    set (A := exp (B2R x) + exp (- B2R x)) in * . assert (D0 : 0 <= D). { unfold D. assert (0 < exp (B2R x)) by apply exp_pos. assert (0 < exp (- B2R x)) by apply exp_pos. apply Rplus_le_le_0_compat; apply Rmult_le_pos; lra. } rewrite Rmax_left in S by lra.
    assert (DA : D <= / 1000 * A) by (apply Rle_trans with (1 := Q); apply Rmult_le_compat_r; lra).
    assert (S' : rel_err (B2R (a +. b)) A (ck f (B2R x) + 1001 / 1000 * uf f)). { unfold rel_err. rewrite (Rabs_pos_eq A) by lra. apply Rle_trans with (1 := S). assert (uf f * D <= uf f * (/ 1000 * A)) by (apply Rmult_le_compat_l; lra). lra. }
    assert (SA : 1 <= Rabs (B2R (a +. b))). { unfold rel_err in S'. rewrite (Rabs_pos_eq A) in S' by lra. assert (0 <= (2 / 1000 - (ck f (B2R x) + 1001 / 1000 * uf f)) * A) by (apply Rmult_le_pos; lra). apply Rabs_le_inv in S'. rewrite Rabs_pos_eq; lra. }
    destruct (half_exact (a +. b) Fs) as (Fh & Vh). { replace (3 - emax f)%Z with (1 + (2 - emax f))%Z by lia. rewrite bpow_plus. change (bpow radix2 1) with 2. lra. }
    exists ((a +. b) /. ofZ f 2). split; auto. split; auto. rewrite Vh. apply (rel_scale _ A). lra. exact S'.
Qed.
(** sinh: the error is small compared with cosh, not with sinh. *)
Lemma sinh_acc v {f} (x : flt f) : finite x = true -> exp_fit f (Rabs (B2R x) + 2) -> exists w, sinh_check v x = Ok w /\ finite w = true /\ Rabs (B2R w - sinh (B2R x)) <= (ck f (B2R x) + 1 / 100 * uf f) * cosh (B2R x) + 2 * uf f * Rabs (sinh (B2R x)).
Proof.
  intros Fx Ft. assert (u0 := uf_pos f). assert (u1 := uf_le f). change (bpow radix2 (-24)) with (/ 16777216) in u1. assert (K := ck_rng f _ Ft). unfold sinh_check. rewrite (finite_not_nan x Fx). assert (C := cosh_ge1 (B2R x)). assert (FM := fm_uf f).
  destruct (fmin_spec f) as (Vm & Fm). assert (Va := abs_B2R x). assert (Fa : finite (ModelBasic.abs x) = true) by (rewrite abs_finite; auto). destruct (fmin f >. ModelBasic.abs x) eqn:G.
  - apply flt_true_inv in G; auto. rewrite Va, Vm in G. destruct (ofZ_small f 0 ltac:(lia)) as (V1 & F1 & _). exists (ofZ f 0). split; auto. split; auto. rewrite V1. destruct (tiny_cosh f (B2R x)) as (_ & T). lra. change (IZR 0) with 0. rewrite Rminus_0_l, Rabs_Ropp. eapply Rle_trans. apply T.
    assert (0 <= (ck f (B2R x) + 1 / 100 * uf f - uf f) * cosh (B2R x)). { apply Rmult_le_pos. unfold ck. destruct (Rle_dec _ _) as [|N]. assert (0 <= bpow radix2 (-55)) by apply bpow_ge_0. lra. lra. unfold cosh; lra. } assert (0 <= 2 * uf f * Rabs (sinh (B2R x))) by (apply Rmult_le_pos; [lra|apply Rabs_pos]). lra.
  - destruct (exp_ek v x Fx Ft) as (a & Ea & Fa' & Ra). destruct (exp_ek v (-. x)) as (b & Eb & Fb & Rb). rewrite neg_fin; auto. rewrite neg_val, Rabs_Ropp; auto. rewrite neg_val in Rb. rewrite Ea, Eb. cbn [bind].
    assert (E1 := ek_rng f _ Ft). assert (E2 := ek_rng f (- B2R x)). rewrite Rabs_Ropp in E2. specialize (E2 Ft).
    destruct (two_sub a b _ _ _ _ Fa' Fb Ra Rb (exp_pos _) (exp_pos _) E1 E2 (fit_sum _ _ Ft)) as (Fs & S). assert (Q := ek_sum f (B2R x)). set (D := ek f (B2R x) * exp (B2R x) + ek f (- B2R x) * exp (- B2R x)) in * .
    assert (D0 : 0 <= D). { unfold D. assert (0 < exp (B2R x)) by apply exp_pos. assert (0 < exp (- B2R x)) by apply exp_pos. apply Rplus_le_le_0_compat; apply Rmult_le_pos; lra. }
    unfold cosh, sinh. set (A := exp (B2R x) + exp (- B2R x)) in * . set (M := exp (B2R x) - exp (- B2R x)) in * .
    assert (DA : D <= / 1000 * A) by (apply Rle_trans with (1 := Q); apply Rmult_le_compat_r; lra).
    assert (AM : Rabs (M / 2) = Rabs M / 2) by (unfold Rdiv; rewrite Rabs_mult, (Rabs_pos_eq (/ 2)); lra). assert (M0 := Rabs_pos M). rewrite AM.
    destruct (half_any _ Fs) as (Fh & Vh). exists ((a -. b) /. ofZ f 2). split; auto. split; auto. set (s := B2R (a -. b)) in * . assert (AS : Rabs (s / 2) = Rabs s / 2) by (unfold Rdiv; rewrite Rabs_mult, (Rabs_pos_eq (/ 2)); lra). rewrite AS in Vh.
    assert (fm0 := bpow_gt_0 radix2 (2 - emax f)).
    assert (S1 : Rabs (s - M) <= D + uf f * (Rabs M + D + / 1000 * uf f)). { apply Rle_trans with (1 := S). apply Rplus_le_compat_l, Rmult_le_compat_l. lra. apply Rmax_lub; lra. }
    assert (S2 : Rabs s <= Rabs M + 2 / 1000 * A + / 1000 * uf f). { replace s with (s - M + M) by ring. eapply Rle_trans. apply Rabs_triang. assert (uf f * (Rabs M + D + / 1000 * uf f) <= / 2000 * A). { assert (MA : Rabs M <= A). { unfold M, A. assert (0 < exp (B2R x)) by apply exp_pos. assert (0 < exp (- B2R x)) by apply exp_pos. apply Rabs_le. lra. } apply Rle_trans with (uf f * (3 * A)). apply Rmult_le_compat_l; lra. rewrite <- Rmult_assoc. apply Rmult_le_compat_r; lra. } lra. }
    assert (S3 : Rabs (B2R ((a -. b) /. ofZ f 2) - s / 2) <= uf f * (Rabs M / 2 + 2 / 1000 * A)). { apply Rle_trans with (1 := Vh). apply Rmult_le_compat_l. lra. apply Rmax_lub; lra. }
    assert (T := Rabs_triang (B2R ((a -. b) /. ofZ f 2) - s / 2) (s / 2 - M / 2)). replace (B2R ((a -. b) /. ofZ f 2) - s / 2 + (s / 2 - M / 2)) with (B2R ((a -. b) /. ofZ f 2) - M / 2) in T by ring.
    replace (s / 2 - M / 2) with ((s - M) * / 2) in T by field. rewrite Rabs_mult, (Rabs_pos_eq (/ 2)) in T by lra.
    assert (uf f * D <= uf f * (/ 1000 * A)) by (apply Rmult_le_compat_l; lra). assert (uf f * uf f <= uf f * A) by (apply Rmult_le_compat_l; lra). assert (0 <= uf f * A) by (apply Rmult_le_pos; lra). lra.
Qed.

(** For tiny arguments every operation of exp returns exactly 1. *)
Definition is1 {f} (x : flt f) : Prop := finite x = true /\ B2R x = 1.
Definition tin {f} (x : flt f) : Prop := finite x = true /\ Rabs (B2R x) <= uf f / 4.
Lemma is1_near {f} (w : flt f) t : finite w = true -> B2R w = rnd f (1 + t) -> Rabs t <= uf f / 4 -> is1 w.
Proof.
  intros F V T. split; auto. assert (u0 := uf_pos f). assert (u1 := uf_le f). change (bpow radix2 (-24)) with (/ 16777216) in u1. destruct (Req_dec (B2R w) 1) as [E|N]; auto. exfalso.
  assert (G : generic_format radix2 (fexpf f) 1) by (apply (fmt_IZR f 1); destruct f; cbn; lia).
  assert (H := proj2 (round_N_pt radix2 (fexpf f) (fun z => negb (Z.even z)) (1 + t)) 1 G). change (Rabs (rnd f (1 + t) - (1 + t)) <= Rabs (1 - (1 + t))) in H. replace (1 - (1 + t)) with (- t) in H by ring. rewrite Rabs_Ropp, <- V in H.
  assert (T3 := Rabs_triang (B2R w - (1 + t)) t). replace (B2R w - (1 + t) + t) with (B2R w - 1) in T3 by ring. assert (L : Rabs (B2R w - 1) <= / 2) by lra. apply Rabs_le_inv in L. assert (Q := gap_one w F ltac:(lra) N). fold (uf f) in Q. lra.
Qed.
Lemma tin_div {f} (x y : flt f) : tin x -> finite y = true -> 1 <= B2R y -> tin (x /. y).
Proof.
  intros (Fx & X) Fy Y. assert (u0 := uf_pos f). assert (u1 := uf_le f). change (bpow radix2 (-24)) with (/ 16777216) in u1. assert (B : Rabs (B2R x / B2R y) <= uf f / 4). { unfold Rdiv at 1. rewrite Rabs_mult. rewrite (Rabs_pos_eq (/ _)) by (left; apply Rinv_0_lt_compat; lra). apply Rle_trans with (Rabs (B2R x) * 1); [|lra]. apply Rmult_le_compat_l. apply Rabs_pos. rewrite <- Rinv_1. apply Rinv_le; lra. }
  assert (R : Rabs (rnd f (B2R x / B2R y)) <= uf f / 4). { rewrite rnd_abs. rewrite <- (rnd_id f (uf f / 4)). apply rnd_le; auto. replace (uf f / 4) with (bpow radix2 (- prec f + -2)) by (rewrite bpow_plus; unfold uf; cbn; lra). apply generic_format_bpow. unfold fexpf, SpecFloat.fexp, SpecFloat.emin. destruct f; cbn; lia. }
  destruct (fdiv_spec x y Fx) as (V & F). lra. apply Rle_lt_trans with (1 := R). apply Rle_lt_trans with (bpow radix2 0). cbn; lra. apply bpow_lt. destruct f; reflexivity. split; auto. rewrite V. auto.
Qed.
Lemma is1_add {f} (a y : flt f) : is1 a -> tin y -> is1 (a +. y).
Proof.
  intros (Fa & A) (Fy & Y). assert (u0 := uf_pos f). assert (u1 := uf_le f). change (bpow radix2 (-24)) with (/ 16777216) in u1. destruct (op_add a y Fa Fy) as (F & V). rewrite A. apply Rabs_le_inv in Y. apply Rabs_le. cbn; lra. apply (is1_near _ (B2R y)); auto. rewrite V, A. auto.
Qed.
Lemma is1_sub {f} (a y : flt f) : is1 a -> tin y -> is1 (a -. y).
Proof.
  intros (Fa & A) (Fy & Y). assert (u0 := uf_pos f). assert (u1 := uf_le f). change (bpow radix2 (-24)) with (/ 16777216) in u1. destruct (op_sub a y Fa Fy) as (F & V). rewrite A. apply Rabs_le_inv in Y. apply Rabs_le. cbn; lra. apply (is1_near _ (- B2R y)); auto. rewrite V, A. auto. rewrite Rabs_Ropp. auto.
Qed.
Lemma is1_one f : is1 (ofZ f 1). Proof. destruct (ofZ_small f 1 ltac:(lia)) as (V & F & _). split; auto. Qed.
Lemma exp_rec_one {f} (x : flt f) n : tin x -> forall d, (2 <= d)%Z -> (d + Z.of_nat n <= 100)%Z -> is1 (up_rec n d (exp_cf_step x) (ofZ f 1)).
Proof.
  intros X. induction n as [|n IH]; intros d D1 D2; cbn [up_rec]. apply is1_one. assert (H := IH (d + 1)%Z ltac:(lia) ltac:(lia)). set (r := up_rec n _ _ _) in * . unfold exp_cf_step.
  destruct (ofZ_small f (d - 1) ltac:(lia)) as (Va & Fa & _). destruct (ofZ_small f d ltac:(lia)) as (Vb & Fb & _). assert (1 <= IZR (d - 1)) by (apply (IZR_le 1); lia). assert (1 <= IZR d) by (apply (IZR_le 1); lia).
  apply is1_sub. apply is1_add. apply is1_one. apply tin_div; auto; lra. destruct H as (Fr & Vr). apply tin_div; auto; [|lra]. apply tin_div; auto; lra.
Qed.
Lemma exp_tiny v {f} (x : flt f) : tin x -> exists w, exp_check v x = Ok w /\ is1 w.
Proof.
  intros X. assert (X' := X). destruct X' as (Fx & Xb). assert (u0 := uf_pos f). assert (u1 := uf_le f). change (bpow radix2 (-24)) with (/ 16777216) in u1.
  assert (C : is1 (exp_cf v x)). { assert (V : exp_cf v x = exp_cf Cxx11 x) by (destruct v; first [symmetry; apply exp_cf_11_14|exact eq_refl]). rewrite V. unfold exp_cf, exp_cf_recur, rec_up, GCEM_EXP_MAX_ITER_SMALL. 
    assert (H : is1 (ofZ f 1 -. x /. up_rec (Z.to_nat (25 - 2)) 2 (exp_cf_step x) (ofZ f 1))). { assert (Q := exp_rec_one x (Z.to_nat (25 - 2)) X 2 ltac:(lia) ltac:(lia)). apply is1_sub. apply is1_one. destruct Q. apply tin_div; auto. lra. }
    destruct H as (F & E). set (q := _ -. _) in * . destruct (ofZ_small f 1 ltac:(lia)) as (V1 & F1 & _). destruct (op_div (ofZ f 1) q) as (Fd & Vd); auto. lra. rewrite V1, E. apply Rabs_le. cbn; lra. split; auto. rewrite Vd, V1, E. rewrite rnd_id. change (IZR 1) with 1. lra. replace (1 / 1) with 1 by lra. apply (fmt_IZR f 1); destruct f; cbn; lia. }
  unfold exp_check. rewrite (finite_not_nan x Fx). assert (NI : is_neginf x = false) by (destruct x; try discriminate Fx; reflexivity). assert (PI : is_posinf x = false) by (destruct x; try discriminate Fx; reflexivity). rewrite NI, PI.
  destruct (_ >. _). eexists; split; auto. apply is1_one. destruct (ofZ_small f 2 ltac:(lia)) as (V2 & F2 & _).
  assert (G : (ModelBasic.abs x <. ofZ f 2) = true). { apply flt_true. rewrite abs_finite; auto. auto. rewrite abs_B2R, V2. change (IZR 2) with 2. lra. } rewrite G. eexists; split; auto.
Qed.
Lemma sinh_tiny v {f} (x : flt f) : tin x -> exists w, sinh_check v x = Ok w /\ finite w = true /\ B2R w = 0.
Proof.
  intros X. destruct (exp_tiny v x X) as (a & Ea & Fa & Va). destruct (exp_tiny v (-. x)) as (b & Eb & Fb & Vb). destruct X. split. rewrite neg_fin; auto. rewrite neg_val, Rabs_Ropp; auto.
  unfold sinh_check. rewrite (finite_not_nan x (proj1 X)). destruct (_ >. _). destruct (ofZ_small f 0 ltac:(lia)) as (V & F & _). exists (ofZ f 0). auto. rewrite Ea, Eb. cbn [bind]. eexists; split; eauto.
  destruct (op_sub a b Fa Fb) as (Fs & Vs). rewrite Va, Vb. rewrite Rminus_diag_eq, Rabs_R0 by auto. cbn; lra. destruct (ofZ_small f 2 ltac:(lia)) as (V2 & F2 & _). destruct (op_div (a -. b) (ofZ f 2) Fs) as (Fd & Vd). lra.
  rewrite Vs, Va, Vb. rewrite Rminus_diag_eq by auto. rewrite rnd_0. unfold Rdiv. rewrite Rmult_0_l, Rabs_R0. cbn; lra. split; auto. rewrite Vd, Vs, Va, Vb. rewrite Rminus_diag_eq by auto. rewrite rnd_0. unfold Rdiv. rewrite Rmult_0_l. apply rnd_0.
Qed.

(** ** The functions of the library *)
Lemma sinh_le_cosh x : Rabs (sinh x) <= cosh x.
Proof. unfold sinh, cosh. assert (0 < exp x) by apply exp_pos. assert (0 < exp (- x)) by apply exp_pos. apply Rabs_le. lra. Qed.
Lemma cosh_le_sinh x : 2 <= Rabs x -> cosh x <= 1038 / 1000 * Rabs (sinh x).
Proof.
  intros H. assert (G : forall y, 2 <= y -> (exp y + exp (- y)) / 2 <= 1038 / 1000 * ((exp y - exp (- y)) / 2)).
  { intros y Y. assert (Q : exp (- y) <= 184 / 10000 * exp y). { replace (- y) with (- 2 * y + y) by ring. rewrite exp_plus. apply Rmult_le_compat_r. left; apply exp_pos. apply Rle_trans with (2 := exp4). apply exp_le. lra. } assert (0 < exp y) by apply exp_pos. lra. }
  unfold cosh, sinh. destruct (Rle_or_lt 0 x) as [P|P].
  - rewrite Rabs_pos_eq in H by lra. assert (T := G x H). assert (0 < exp x) by apply exp_pos. assert (0 < exp (- x)) by apply exp_pos. rewrite Rabs_pos_eq; lra.
  - rewrite Rabs_left in H by lra. assert (T := G (- x) H). rewrite Ropp_involutive in T. assert (0 < exp x) by apply exp_pos. assert (0 < exp (- x)) by apply exp_pos. rewrite <- Rabs_Ropp, Rabs_pos_eq; lra.
Qed.
Section Api.
Variables (v : cxx) (f : fmt) (x : flt f).
Hypothesis (Fx : finite x = true).
Lemma api_cosh_small : Rabs (B2R x) <= / 2 -> exists w, gcem_cosh v (AFlt f x) = Ok w /\ finite w = true /\ rel_err (B2R w) (cosh (B2R x)) (10 * bpow radix2 (- prec f) + bpow radix2 (-55)).
Proof.
  intros H. destruct (cosh_acc v x Fx) as (w & E & F & R). { unfold exp_fit. apply Rle_trans with (exp 3). apply exp_le. lra. apply Rle_trans with (bpow radix2 5). cbn. interval. apply bpow_le. destruct f; cbn; lia. }
  exists w. split; auto. split; auto. eapply rel_mono; [|exact R]. unfold ck. destruct (Rle_dec _ _); [|lra]. assert (u0 := uf_pos f). fold (uf f). lra.
Qed.
Lemma api_cosh : exp (Rabs (B2R x) + 2) <= bpow radix2 (emax f - 9) -> exists w, gcem_cosh v (AFlt f x) = Ok w /\ finite w = true /\
  rel_err (B2R w) (cosh (B2R x)) ((if Rlt_dec (Rabs (B2R x)) 2 then 108 else 14) * bpow radix2 (- prec f) + bpow radix2 (-53) + (Rabs (B2R x) + 3) * bpow radix2 (-60)).
Proof.
  intros H. destruct (cosh_acc v x Fx H) as (w & E & F & R). exists w. split; auto. split; auto. eapply rel_mono; [|exact R]. assert (u0 := uf_pos f). fold (uf f). assert (P := Rabs_pos (B2R x)).
  assert (b60 : bpow radix2 (-60) = 2 * bpow radix2 (-61)) by (cbn; lra). assert (b0 := bpow_gt_0 radix2 (-61)). assert (b53 : bpow radix2 (-53) = 2 * bpow radix2 (-54)) by (cbn; lra). assert (b54 : bpow radix2 (-54) = 2 * bpow radix2 (-55)) by (cbn; lra). assert (b1 := bpow_gt_0 radix2 (-55)).
  assert (0 <= (Rabs (B2R x) + 3) * bpow radix2 (-61)) by (apply Rmult_le_pos; lra). rewrite b60. unfold ck. destruct (Rlt_dec _ 2); destruct (Rle_dec _ (/ 2)); lra.
Qed.
Lemma api_sinh_small : Rabs (B2R x) <= / 2 -> exists w, gcem_sinh v (AFlt f x) = Ok w /\ finite w = true /\ Rabs (B2R w - sinh (B2R x)) <= (11 * bpow radix2 (- prec f) + bpow radix2 (-55)) * cosh (B2R x).
Proof.
  intros H. destruct (sinh_acc v x Fx) as (w & E & F & R). { unfold exp_fit. apply Rle_trans with (exp 3). apply exp_le. lra. apply Rle_trans with (bpow radix2 5). cbn. interval. apply bpow_le. destruct f; cbn; lia. }
  exists w. split; auto. split; auto. eapply Rle_trans. exact R. unfold ck. destruct (Rle_dec _ _); [|lra]. assert (u0 := uf_pos f). fold (uf f). assert (S := sinh_le_cosh (B2R x)). assert (S0 := Rabs_pos (sinh (B2R x))). assert (uf f * Rabs (sinh (B2R x)) <= uf f * cosh (B2R x)) by (apply Rmult_le_compat_l; lra). assert (0 <= uf f * cosh (B2R x)) by (apply Rmult_le_pos; lra). lra.
Qed.
Lemma api_sinh_mid : Rabs (B2R x) < 2 -> exists w, gcem_sinh v (AFlt f x) = Ok w /\ finite w = true /\ Rabs (B2R w - sinh (B2R x)) <= (109 * bpow radix2 (- prec f) + bpow radix2 (-55)) * cosh (B2R x).
Proof.
  intros H. destruct (sinh_acc v x Fx) as (w & E & F & R). { unfold exp_fit. apply Rle_trans with (exp 4). apply exp_le. lra. apply Rle_trans with (bpow radix2 6). cbn. interval. apply bpow_le. destruct f; cbn; lia. }
  exists w. split; auto. split; auto. eapply Rle_trans. exact R. assert (u0 := uf_pos f). fold (uf f). assert (S := sinh_le_cosh (B2R x)). assert (S0 := Rabs_pos (sinh (B2R x))). assert (uf f * Rabs (sinh (B2R x)) <= uf f * cosh (B2R x)) by (apply Rmult_le_compat_l; lra). assert (0 <= uf f * cosh (B2R x)) by (apply Rmult_le_pos; lra). 
  assert (0 <= bpow radix2 (-55) * cosh (B2R x)) by (apply Rmult_le_pos; [apply bpow_ge_0|lra]). unfold ck. destruct (Rle_dec _ _); [lra|]. destruct (Rlt_dec _ _); lra.
Qed.
Lemma api_sinh_far : 2 <= Rabs (B2R x) -> exp (Rabs (B2R x) + 2) <= bpow radix2 (emax f - 9) -> exists w, gcem_sinh v (AFlt f x) = Ok w /\ finite w = true /\
  rel_err (B2R w) (sinh (B2R x)) (15 * bpow radix2 (- prec f) + bpow radix2 (-53) + (Rabs (B2R x) + 3) * bpow radix2 (-60)).
Proof.
  intros L H. destruct (sinh_acc v x Fx H) as (w & E & F & R). exists w. split; auto. split; auto. unfold rel_err. eapply Rle_trans. exact R. assert (C := cosh_le_sinh _ L). assert (S0 := Rabs_pos (sinh (B2R x))). set (S := Rabs (sinh (B2R x))) in * . assert (u0 := uf_pos f). fold (uf f). assert (P := Rabs_pos (B2R x)).
  assert (b60 : bpow radix2 (-60) = 2 * bpow radix2 (-61)) by (cbn; lra). assert (b0 := bpow_gt_0 radix2 (-61)). assert (b53 : bpow radix2 (-53) = 2 * bpow radix2 (-54)) by (cbn; lra). assert (b1 := bpow_gt_0 radix2 (-54)).
  assert (P61 : 0 <= (Rabs (B2R x) + 3) * bpow radix2 (-61)) by (apply Rmult_le_pos; lra). rewrite b60, b53. unfold ck. destruct (Rle_dec _ _); [lra|]. destruct (Rlt_dec _ _); [lra|]. set (e := bpow radix2 (-54) + (Rabs (B2R x) + 3) * bpow radix2 (-61)) in * . assert (e0 : 0 <= e) by (unfold e; lra).
  replace (2 * bpow radix2 (-54)) with (2 * e - (Rabs (B2R x) + 3) * (2 * bpow radix2 (-61))) by (unfold e; ring).
  assert ((12 * uf f + 102 / 100 * e + 1 / 100 * uf f) * cosh (B2R x) <= (12 * uf f + 102 / 100 * e + 1 / 100 * uf f) * (1038 / 1000 * S)) by (apply Rmult_le_compat_l; lra). assert (0 <= uf f * S) by (apply Rmult_le_pos; lra). assert (0 <= e * S) by (apply Rmult_le_pos; lra). lra.
Qed.
Lemma api_sinh_tiny : Rabs (B2R x) <= bpow radix2 (- prec f - 2) -> exists w, gcem_sinh v (AFlt f x) = Ok w /\ finite w = true /\ B2R w = 0.
Proof. intros H. apply (sinh_tiny v x). split; auto. apply Rle_trans with (1 := H). unfold Zminus. rewrite bpow_plus. fold (uf f). cbn. lra. Qed.
End Api.
