(** * Accuracy of incomplete_beta *)
From Verif Require Import Base FltLemmas ConvLemmas ModelBasic ModelInt ModelElem ModelSpecial ModelApi Spec SpecGamma SpecInc.
From Coq Require Import Lra Psatz.
From Coquelicot Require Import Coquelicot.
From Interval Require Import Tactic.
From Verif Require Import BasicProofs RangeProofs PF FPErr CFBound ExpAcc LogApi PowReal TanhAcc CFAcc MiscProofs SinAcc ErfAcc IntProofs GammaInt GammaAcc BetaAcc IncGamReal IncGamAcc IncBetaCF IncBetaReal IncBetaAcc.
From Verif Require Import Base ModelBasic ModelInt ModelElem ModelSpecial ModelApi.
Open Scope R_scope.

Section Api.
Context {f : fmt}.
Notation u := (uf f).
Let u0 := uf_pos f.
Let u1 : uf f <= / 16777216 := uf_le f.
Lemma log_eighth v (x : flt f) : finite x = true -> / 8 <= B2R x <= 7 / 8 -> exists l, log_check v x = Ok l /\ finite l = true /\ Rabs (B2R l - ln (B2R x)) <= 459 / 10 * u /\ - 208 / 100 <= ln (B2R x) <= 0.
Proof.
  intros Fx X. assert (L : - 208 / 100 <= ln (B2R x) <= 0). { split. apply Rle_trans with (ln (/ 8)). interval. apply ln_le; lra. rewrite <- ln_1. apply ln_le; lra. }
  assert (W : exists l, log_check v x = Ok l /\ finite l = true /\ rel_err (B2R l) (ln (B2R x)) (22 * u)).
  { destruct (Rlt_or_le (B2R x) (/ 2)) as [H|H].
    - destruct (log_small_gen v x 1 Fx) as (l & E & F & R). split; auto. apply Rle_trans with (bpow radix2 (-3)). apply bpow_le; destruct f; discriminate. cbn; lra. lia. cbn [pow]. lra. exists l. split; auto.
    - destruct (log_check_ge v x Fx H) as (l & E & F & R). exists l. split; auto. split; auto. eapply rel_mono; [|exact R]. lra. }
  destruct W as (l & E & F & R). exists l. split; auto. split; auto. split; auto. unfold rel_err in R. eapply Rle_trans. exact R. rewrite Rabs_left1 by lra. apply Rle_trans with (22 * u * (208 / 100)). apply Rmult_le_compat_l; lra. lra.
Qed.
Lemma one_minus (z : flt f) : finite z = true -> / 8 <= B2R z <= 7 / 8 -> finite (ofZ f 1 -. z) = true /\ / 8 <= B2R (ofZ f 1 -. z) <= 7 / 8 /\ Rabs (B2R (ofZ f 1 -. z) - (1 - B2R z)) <= u * (1 - B2R z).
Proof.
  intros Fz Z. destruct (ofZ_small f 1 ltac:(lia)) as (V1 & F1 & _). destruct (op_sub (ofZ f 1) z F1 Fz) as (F & V). rewrite V1. apply Rabs_le; lra. rewrite V1 in V. split. exact F. rewrite V. split.
  - assert (E8 : rnd f (/ 8) = / 8). { apply rnd_id. replace (/ 8) with (F2R (Float radix2 1 (-3))) by (unfold F2R; cbn; lra). apply fmt_F2R. destruct f; reflexivity. destruct f; cbn; discriminate. }
    assert (E7 : rnd f (7 / 8) = 7 / 8). { apply rnd_id. replace (7 / 8) with (F2R (Float radix2 7 (-3))) by (unfold F2R; cbn; lra). apply fmt_F2R. destruct f; reflexivity. destruct f; cbn; discriminate. }
    split. rewrite <- E8. apply rnd_le. lra. rewrite <- E7. apply rnd_le. lra.
  - destruct (rnd_fac f (1 - B2R z)) as (p & Vp & Hp). lra. apply Rle_trans with (bpow radix2 (-3)). apply bpow_le; destruct f; discriminate. cbn; lra. apply (of_fac _ _ p). lra. exact Vp. exact Hp.
Qed.
(** The factor in front of the continued fraction *)
Lemma bpre v (a b z : flt f) : finite a = true -> finite b = true -> finite z = true -> / 2 <= B2R a <= 10 -> / 2 <= B2R b <= 10 -> / 8 <= B2R z <= 7 / 8 ->
  let W := B2R a * ln (B2R z) + B2R b * ln (1 - B2R z) - ln (Beta (B2R a) (B2R b)) in
  -32 <= W <= 32 /\ exists l l1 lb e, log_check v z = Ok l /\ log_check v (ofZ f 1 -. z) = Ok l1 /\ lbeta v a b = Ok lb /\ exp_check v (a *. l +. b *. l1 -. lb) = Ok e /\ finite e = true /\
    rel_err (B2R e) (exp W) (3640 * u + 54 * bpow radix2 (-54)).
Proof.
  intros Fa Fb Fz Ha Hb Hz W. set (A := B2R a) in * . set (B := B2R b) in * . set (Z := B2R z) in * .
  destruct (log_eighth v z Fz Hz) as (l & El & Fl & Rl & Ll). fold Z in Rl, Ll. destruct (one_minus z Fz Hz) as (Fy & By & Ry). fold Z in Ry. set (y := ofZ f 1 -. z) in * .
  destruct (log_eighth v y Fy By) as (l1 & El1 & Fl1 & Rl1 & Ll1).
  destruct (lbeta_acc v a b Fa Fb ltac:(fold A; lra) ltac:(fold B; lra) ltac:(fold A B; lra)) as (lb & Elb & Flb & Rlb). fold A B in Rlb. rewrite <- (ln_Beta A B) in Rlb by lra.
  assert (LB := lnB_rng A B ltac:(lra) ltac:(lra)). rewrite <- (ln_Beta A B) in LB by lra. assert (L20 : 0 <= ln (A + B) <= 2996 / 1000). { split. rewrite <- ln_1. apply ln_le; lra. apply Rle_trans with (ln 20). apply ln_le; lra. interval. }
  assert (LB2 : -31 <= ln (Beta A B) <= 4). { assert ((A + B) / 2 * ln (A + B) <= 10 * (2996 / 1000)) by (apply Rmult_le_compat; lra). lra. }
  assert (L25 : 0 <= ln (A + B + 5) <= 3219 / 1000). { split. rewrite <- ln_1. apply ln_le; lra. apply Rle_trans with (ln 25). apply ln_le; lra. interval. }
  assert (sL : (A + B) * ln (A + B + 5) <= 20 * (3219 / 1000)) by (apply Rmult_le_compat; lra).
  assert (b54 : bpow radix2 (-54) = / 18014398509481984) by reflexivity. assert (b61 : bpow radix2 (-61) = / 2305843009213693952) by reflexivity. assert (b55 : bpow radix2 (-55) = / 36028797018963968) by reflexivity.
  assert (Rlb2 : Rabs (B2R lb - ln (Beta A B)) <= 2359 * u + 50 * / 18014398509481984). { eapply Rle_trans. exact Rlb. apply Rplus_le_compat. apply Rmult_le_compat_r; lra. rewrite ?b54. apply Rmult_le_compat_r; lra. }
  set (L := ln Z) in * . set (L1 := ln (1 - Z)) in * .
  assert (LL : L + L1 <= 0 /\ -28 <= A * L + B * L1 <= 0 /\ -208 / 100 <= L1 <= 0).
  { assert (HL1 : -208 / 100 <= L1 <= 0). { split. apply Rle_trans with (ln (/ 8)). interval. apply ln_le; lra. unfold L1. rewrite <- ln_1. apply ln_le; lra. }
    split. lra. split; [|exact HL1]. assert (0 <= A * - L <= 10 * (208 / 100)) by (split; [apply Rmult_le_pos; lra|apply Rmult_le_compat; lra]). assert (0 <= B * - L1 <= 10 * (208 / 100)) by (split; [apply Rmult_le_pos; lra|apply Rmult_le_compat; lra]). split; [|lra].
    destruct (Rle_or_lt Z (/ 2)). assert (- 70 / 100 <= L1). { apply Rle_trans with (ln (/ 2)). interval. apply ln_le; lra. } assert (B * - L1 <= 10 * (70 / 100)) by (apply Rmult_le_compat; lra). lra.
    assert (- 70 / 100 <= L). { apply Rle_trans with (ln (/ 2)). interval. apply ln_le; lra. } assert (A * - L <= 10 * (70 / 100)) by (apply Rmult_le_compat; lra). lra. }
  destruct LL as (_ & AB & HL1). assert (HW : -32 <= W <= 32) by (unfold W; fold L; fold L1; lra). split. exact HW.
  assert (Rl2 : Rabs (B2R l1 - L1) <= 47 * u).
  { destruct (fac_of (B2R y) (1 - Z) u ltac:(lra) Ry) as (p & Vp & Hp). assert (p0 : 9 / 10 <= p) by (apply Rabs_le_inv in Hp; lra). assert (LP : Rabs (ln p) <= 101 / 100 * u).
    { apply Rabs_le_inv in Hp. assert (Q := exp_ineq1_le (ln p)). rewrite exp_ln in Q by lra. assert (Q2 := exp_ineq1_le (- ln p)). rewrite exp_Ropp, exp_ln in Q2 by lra. assert (/ p - 1 <= 101 / 100 * u). { apply (Rmult_le_reg_r p). lra. rewrite Rmult_minus_distr_r, Rinv_l by lra. assert (u * u <= / 16777216 * u) by (apply Rmult_le_compat_r; lra). assert (u * (1 - u) <= u * p) by (apply Rmult_le_compat_l; lra). lra. } apply Rabs_le; lra. }
    replace (B2R l1 - L1) with ((B2R l1 - ln (B2R y)) + ln p). 2:{ rewrite Vp, ln_mult by lra. unfold L1. ring. } eapply Rle_trans. apply Rabs_triang. lra. }
  assert (HA : forall t, Rabs (A * t) <= 10 * Rabs t). { intros t. rewrite Rabs_mult, (Rabs_pos_eq A) by lra. apply Rmult_le_compat_r. apply Rabs_pos. lra. }
  (* a * log z *)
  destruct (gmul l a L _ Fl Fa Rl) as (_ & E1). lra. { apply Rabs_le; lra. } { fold A. rewrite Rabs_pos_eq; lra. } destruct (gmul l1 b L1 _ Fl1 Fb Rl2) as (_ & E2). lra. { apply Rabs_le; lra. } { fold B. rewrite Rabs_pos_eq; lra. }
  assert (c1 : B2R (l *. a) = B2R (a *. l) /\ finite (a *. l) = true). { assert (M : Rabs (B2R l * A) <= 100). { rewrite Rabs_mult, (Rabs_pos_eq A) by lra. apply Rle_trans with (10 * 10); [|lra]. apply Rmult_le_compat; try lra. apply Rabs_pos. apply Rabs_le_inv in Rl. apply Rabs_le; lra. } destruct (op_mul l a Fl Fa) as (_ & Q1). fold A; lra. destruct (op_mul a l Fa Fl) as (Q3 & Q2). fold A. rewrite Rmult_comm; lra. rewrite Q1, Q2. split; auto. f_equal. ring. }
  assert (c2 : B2R (l1 *. b) = B2R (b *. l1) /\ finite (b *. l1) = true). { assert (M : Rabs (B2R l1 * B) <= 100). { rewrite Rabs_mult, (Rabs_pos_eq B) by lra. apply Rle_trans with (10 * 10); [|lra]. apply Rmult_le_compat; try lra. apply Rabs_pos. apply Rabs_le_inv in Rl2. apply Rabs_le; lra. } destruct (op_mul l1 b Fl1 Fb) as (_ & Q1). fold B; lra. destruct (op_mul b l1 Fb Fl1) as (Q3 & Q2). fold B. rewrite Rmult_comm; lra. rewrite Q1, Q2. split; auto. f_equal. ring. }
  destruct c1 as (c1 & f1). destruct c2 as (c2 & f2). rewrite c1 in E1. rewrite c2 in E2. fold A in E1. fold B in E2. rewrite (Rabs_pos_eq A) in E1 by lra. rewrite (Rabs_pos_eq B) in E2 by lra.
  assert (AL : Rabs (L * A) <= 208 / 10). { rewrite Rmult_comm. eapply Rle_trans. apply HA. rewrite Rabs_left1 by lra. lra. } assert (BL : Rabs (L1 * B) <= 208 / 10). { rewrite Rabs_mult, (Rabs_pos_eq B), Rabs_left1 by lra. apply Rle_trans with (208 / 100 * 10); [|lra]. apply Rmult_le_compat; lra. }
  assert (uA : u * A <= u * 10) by (apply Rmult_le_compat_l; lra). assert (uB : u * B <= u * 10) by (apply Rmult_le_compat_l; lra). assert (uAL : u * Rabs (L * A) <= u * (208 / 10)) by (apply Rmult_le_compat_l; lra). assert (uBL : u * Rabs (L1 * B) <= u * (208 / 10)) by (apply Rmult_le_compat_l; lra).
  assert (E1' : Rabs (B2R (a *. l) - L * A) <= 480 * u) by lra. assert (E2' : Rabs (B2R (b *. l1) - L1 * B) <= 491 * u) by lra.
  destruct (gadd _ _ _ _ _ _ f1 f2 E1' E2') as (f3 & E3). { apply Rabs_le. lra. } lra. assert (S1 : Rabs (L * A + L1 * B) <= 28) by (apply Rabs_le; lra). assert (uS1 : u * Rabs (L * A + L1 * B) <= u * 28) by (apply Rmult_le_compat_l; lra).
  assert (E3' : Rabs (B2R (a *. l +. b *. l1) - (L * A + L1 * B)) <= 1000 * u) by lra.
  destruct (gsub _ _ _ _ _ _ f3 Flb E3' Rlb2) as (f4 & E4). { apply Rabs_le. apply Rabs_le_inv in S1. lra. } lra. assert (WE : L * A + L1 * B - ln (Beta A B) = W) by (unfold W; fold L L1; ring). rewrite WE in E4. assert (uW : u * Rabs W <= u * 32) by (apply Rmult_le_compat_l; [lra|apply Rabs_le; lra]).
  set (t := a *. l +. b *. l1 -. lb) in * . assert (E5 : Rabs (B2R t - W) <= 3392 * u + 51 * / 18014398509481984) by lra.
  assert (HF : exp_fit f 40). { unfold exp_fit. apply Rle_trans with (bpow radix2 119). cbn. interval. apply bpow_le. destruct f; discriminate. }
  assert (Bt : Rabs (B2R t) <= 33). { replace (B2R t) with (W + (B2R t - W)) by ring. eapply Rle_trans. apply Rabs_triang. assert (Rabs W <= 32) by (apply Rabs_le; lra). lra. }
  destruct (exp_all v t f4) as (e & Ee & Fe & R1 & R2 & R3 & R4). { apply exp_fit_le with 40. lra. exact HF. }
  exists l, l1, lb, e. split; auto. split; auto. split; auto. split; auto. split; auto. rewrite b54, b61, ?b55 in * . assert (T0 := Rabs_pos (B2R t)).
  assert (C : rel_err (B2R e) (exp (B2R t)) (108 * u + 15 / 10 * / 18014398509481984)).
  { destruct (Rlt_or_le (Rabs (B2R t)) 2) as [C|C]. eapply rel_mono; [|exact (R2 C)]. lra. destruct (Rle_or_lt 0 (B2R t)) as [D|D]. rewrite Rabs_pos_eq in C by lra. eapply rel_mono; [|exact (R3 C)]. lra. rewrite Rabs_left in C by lra. eapply rel_mono; [|exact (R4 ltac:(lra))]. lra. }
  eapply rel_mono; [|apply (exp_pert _ _ W _ _ C E5)]. lra. lra. lra.
Qed.
Lemma begin_acc v (a b z : flt f) : finite a = true -> finite b = true -> finite z = true -> / 2 <= B2R a <= 10 -> / 2 <= B2R b <= 10 -> / 8 <= B2R z <= 7 / 8 -> B2R z * (B2R a + B2R b + 2) <= (B2R a + 1) * (1 + ee) ->
  exists w, incomplete_beta_begin v a b z = Ok w /\ finite w = true /\ rel_err (B2R w) (beta_I (B2R a) (B2R b) (B2R z)) (84000 * u + bpow radix2 (-43)) /\ 0 < beta_I (B2R a) (B2R b) (B2R z).
Proof.
  intros Fa Fb Fz Ha Hb Hz Hzt. destruct (bpre v a b z Fa Fb Fz Ha Hb Hz) as (HW & l & l1 & lb & e & El & El1 & Elb & Ee & Fe & Re).
  destruct (cf_ok a b z Fa Fb Fz Ha Hb Hz Hzt) as (w & Ew & Fw & Rw). assert (FB := F1_bnd a b z Ha Hb Hz Hzt 206).
  destruct (beta_trunc (B2R a) (B2R b) (B2R z) Ha Hb ltac:(lra) Hzt) as (P0 & PT).
  unfold incomplete_beta_begin. rewrite El. cbn [bind]. rewrite El1. cbn [bind]. rewrite Elb. cbn [bind]. rewrite Ee. cbn [bind]. rewrite Ew. cbn [bind].
  set (A := B2R a) in * . set (B := B2R b) in * . set (Z := B2R z) in * . set (W := A * ln Z + B * ln (1 - Z) - ln (Beta A B)) in * . set (F := FF (cf A B Z) 206) in * . set (I := beta_I A B Z) in * .
  assert (BP := Beta_pos A B ltac:(lra) ltac:(lra)). assert (TE : bw A B 206 Z / (Gamma A * Gamma B / Gamma (A + B)) = exp W / A * F).
  { unfold bw, bt, F. rewrite (FF_tt (cf A B Z) (cf_tpos A B Z Ha Hb ltac:(lra) Hzt)). assert (T := cf_tpos A B Z Ha Hb ltac:(lra) Hzt 206 0). set (TT := tt (cf A B Z) 206 0) in * . fold (Beta A B). replace W with (A * ln Z + B * ln (1 - Z) + - ln (Beta A B)) by (unfold W; ring). rewrite !exp_plus, exp_Ropp, exp_ln by auto. unfold Rpower. field. repeat split; lra. }
  rewrite TE in PT. clear TE. assert (E0 : exp (-32) <= exp W <= exp 32) by (split; apply Raux.exp_le; lra). assert (e1 : / 100000000000000 <= exp (-32)) by interval. assert (e2 : exp 32 <= 100000000000000) by interval.
  set (E := exp W) in * . unfold rel_err in Re. rewrite (Rabs_pos_eq E) in Re by lra. assert (b54 : bpow radix2 (-54) = / 18014398509481984) by reflexivity. assert (b44 : bpow radix2 (-44) = / 17592186044416) by reflexivity. assert (b43 : bpow radix2 (-43) = / 8796093022208) by reflexivity. assert (b47 : bpow radix2 (-47) = / 140737488355328) by reflexivity.
  rewrite b54 in Re. rewrite b47 in PT. rewrite b44 in Rw. rewrite b43. assert (uu : u * u <= / 16777216 * u) by (apply Rmult_le_compat_r; lra).
  destruct (fac_of (B2R e) E _ ltac:(lra) Re) as (p & Vp & Hp). destruct (fac_of (B2R w) F _ ltac:(lra) Rw) as (q & Vq & Hq). destruct (fac_of (E / A * F) I _ P0 PT) as (s & Vs & Hs). assert (Hp' := Hp). apply Rabs_le_inv in Hp'. assert (Hq' := Hq). apply Rabs_le_inv in Hq'. assert (Hs' := Hs). apply Rabs_le_inv in Hs'.
  assert (ML : forall x, / 1000000000000000000 <= x -> bpow radix2 (2 - emax f) <= x). { intros x Hx. apply Rle_trans with (bpow radix2 (-70)). apply bpow_le. destruct f; discriminate. cbn. lra. }
  assert (EA : / 1000000000000000 <= E / A <= 200000000000000). { split. apply Rle_trans with (/ 100000000000000 * / 10); [lra|]. apply Rmult_le_compat; try lra. apply Rinv_le_contravar; lra. apply Rle_trans with (100000000000000 * 2); [|lra]. apply Rmult_le_compat; try lra. left; apply Rinv_0_lt_compat; lra. rewrite <- (Rinv_inv 2). apply Rinv_le_contravar; lra. }
  assert (V1 : B2R e / A = E / A * p) by (rewrite Vp; field; lra). assert (M1 : E / A * (99 / 100) <= B2R e / A <= E / A * 2) by (rewrite V1; split; apply Rmult_le_compat_l; lra).
  destruct (op_div e a Fe) as (F1 & R1). fold A; lra. fold A. rewrite Rabs_pos_eq; lra. fold A in R1. destruct (rnd_fac f (B2R e / A) ltac:(lra) (ML (B2R e / A) ltac:(lra))) as (r & Vr & Hr). rewrite <- R1, V1 in Vr. assert (Hr' := Hr). apply Rabs_le_inv in Hr'.
  assert (PR := fac p r _ _ Hp Hr ltac:(lra)). assert (PR2 : Rabs (p * r - 1) <= 3642 * u + 55 * / 18014398509481984) by (eapply Rle_trans; [exact PR|lra]). assert (PQ := fac (p * r) q _ _ PR2 Hq ltac:(lra)).
  assert (PQ2 : Rabs (p * r * q - 1) <= 83100 * u + / 17592186044416 + 56 * / 18014398509481984) by (eapply Rle_trans; [exact PQ|lra]). assert (PQ3 := PQ2). apply Rabs_le_inv in PQ3.
  assert (EF : E / A <= E / A * F <= E / A * 12). { split. apply Rle_trans with (E / A * 1); [lra|]. apply Rmult_le_compat_l; lra. apply Rmult_le_compat_l; lra. }
  assert (V2 : B2R (e /. a) * B2R w = E / A * F * (p * r * q)) by (rewrite Vr, Vq; ring). assert (M2 : E / A * F * (99 / 100) <= B2R (e /. a) * B2R w <= E / A * F * 2) by (rewrite V2; split; apply Rmult_le_compat_l; lra).
  destruct (op_mul (e /. a) w F1 Fw) as (F2 & R2). rewrite Rabs_pos_eq; lra. destruct (rnd_fac f (B2R (e /. a) * B2R w) ltac:(lra) (ML (B2R (e /. a) * B2R w) ltac:(lra))) as (t & Vt & Ht). rewrite <- R2, V2 in Vt.
  eexists. split. reflexivity. split. exact F2. split; [|exact P0]. unfold rel_err. rewrite (Rabs_pos_eq I) by lra. assert (QT := fac (p * r * q) t _ _ PQ2 Ht ltac:(lra)). assert (QT2 : Rabs (p * r * q * t - 1) <= 83102 * u + / 17592186044416 + 57 * / 18014398509481984) by (eapply Rle_trans; [exact QT|lra]).
  assert (SS := fac s (p * r * q * t) _ _ Hs QT2 ltac:(lra)). apply (of_fac _ _ (s * (p * r * q * t))). exact P0. rewrite Vt, Vs. ring. eapply Rle_trans. exact SS. lra.
Qed.
(** The test that selects the direct branch *)
Lemma split_quot (a b : flt f) : finite a = true -> finite b = true -> / 2 <= B2R a <= 10 -> / 2 <= B2R b <= 10 ->
  let q := (a +. ofZ f 1) /. (a +. b +. ofZ f 2) in finite q = true /\ Rabs (B2R q - (B2R a + 1) / (B2R a + B2R b + 2)) <= 41 / 10 * u * ((B2R a + 1) / (B2R a + B2R b + 2)).
Proof.
  intros Fa Fb Ha Hb. cbv zeta. assert (Ra := rel_self a Fa). assert (Rb := rel_self b Fb). assert (R1 := @rel_Z f 1 ltac:(lia)). assert (R2 := @rel_Z f 2 ltac:(lia)).
  assert (P1 : rel _ _ _) by (eapply (radd _ _ _ _ _ _ 0 Ra R1); lra). assert (P2 : rel _ _ _) by (eapply (radd _ _ _ _ _ _ 0 Ra Rb); lra). assert (P3 : rel _ _ _) by (eapply (radd _ _ _ _ _ _ (0 + 1 + / 1000) P2 R2); lra).
  set (A := B2R a) in * . set (B := B2R b) in * . assert (I : / 22 <= / (A + B + 2) <= / 3) by (split; apply Rinv_le_contravar; lra). assert (M : 3 / 2 * / 22 <= (A + 1) * / (A + B + 2) <= 11 * / 3) by (split; apply Rmult_le_compat; lra). fold ((A + 1) / (A + B + 2)) in M.
  assert (P4 := rdiv _ _ _ _ _ _ P1 P3 ltac:(lra) ltac:(lra) ltac:(lra)). spec P4. { rewrite Rabs_pos_eq; lra. } destruct P4 as (F & E). split. exact F. rewrite (Rabs_pos_eq ((A + 1) / (A + B + 2))) in E by lra. eapply Rle_trans. exact E. apply Rmult_le_compat_r. lra. apply Rmult_le_compat_r; lra.
Qed.
Lemma check_split v (a b z : flt f) : finite a = true -> finite b = true -> finite z = true -> / 2 <= B2R a <= 10 -> / 2 <= B2R b <= 10 -> / 8 <= B2R z ->
  (B2R z * (B2R a + B2R b + 2) <= (B2R a + 1) * (1 + ee) /\ incomplete_beta_check v a b z = incomplete_beta_begin v a b z) \/
  ((B2R a + 1) * (1 - 42 / 10 * u) <= B2R z * (B2R a + B2R b + 2) /\ incomplete_beta_check v a b z = bind (incomplete_beta_begin v b a (ofZ f 1 -. z)) (fun r => Ok (ofZ f 1 -. r))).
Proof.
  intros Fa Fb Fz Ha Hb Hz. unfold incomplete_beta_check, any_nan3. rewrite !finite_not_nan by auto. cbn [orb]. destruct (fmin_spec f) as (Vm & Fm). assert (G := @gfm f). rewrite (flt_false z); auto. 2: rewrite Vm; lra.
  destruct (split_quot a b Fa Fb Ha Hb) as (Fq & Eq). set (q := (a +. ofZ f 1) /. (a +. b +. ofZ f 2)) in * . apply Rabs_le_inv in Eq. set (A := B2R a) in * . set (B := B2R b) in * . set (Q := (A + 1) / (A + B + 2)) in * . assert (QE : Q * (A + B + 2) = A + 1) by (unfold Q; field; lra).
  assert (uA : 0 < u * (A + 1)) by (apply Rmult_lt_0_compat; lra). assert (uA2 : u * (A + 1) <= / 16777216 * (A + 1)) by (apply Rmult_le_compat_r; lra).
  destruct (z <. q) eqn:C.
  - left. split; auto. apply flt_true_inv in C; auto. assert (B2R z * (A + B + 2) <= (Q + 41 / 10 * u * Q) * (A + B + 2)) by (apply Rmult_le_compat_r; lra). unfold ee. replace ((Q + 41 / 10 * u * Q) * (A + B + 2)) with ((Q * (A + B + 2)) * (1 + 41 / 10 * u)) in H by ring. rewrite QE in H. lra.
  - right. split; auto. apply flt_false_inv in C; auto. assert ((Q - 41 / 10 * u * Q) * (A + B + 2) <= B2R z * (A + B + 2)) by (apply Rmult_le_compat_r; lra). replace ((Q - 41 / 10 * u * Q) * (A + B + 2)) with ((Q * (A + B + 2)) * (1 - 41 / 10 * u)) in H by ring. rewrite QE in H. lra.
Qed.
Lemma direct_acc v (a b z : flt f) : finite a = true -> finite b = true -> finite z = true -> / 2 <= B2R a <= 10 -> / 2 <= B2R b <= 10 -> / 8 <= B2R z <= 7 / 8 -> B2R z * (B2R a + B2R b + 2) <= (B2R a + 1) * (1 - 5 * u) ->
  exists w, incomplete_beta_check v a b z = Ok w /\ finite w = true /\ rel_err (B2R w) (beta_I (B2R a) (B2R b) (B2R z)) (84000 * u + bpow radix2 (-43)).
Proof.
  intros Fa Fb Fz Ha Hb Hz H. destruct (check_split v a b z Fa Fb Fz Ha Hb ltac:(lra)) as [(Hzt & E)|(Hn & _)].
  - rewrite E. destruct (begin_acc v a b z Fa Fb Fz Ha Hb Hz Hzt) as (w & Ew & Fw & Rw & _). exists w. auto.
  - assert (0 < u * (B2R a + 1)) by (apply Rmult_lt_0_compat; lra). lra.
Qed.
End Api.
Lemma api_ib_direct : forall v f (a b z : flt f), finite a = true -> finite b = true -> finite z = true -> / 2 <= B2R a <= 10 -> / 2 <= B2R b <= 10 -> / 8 <= B2R z <= 7 / 8 ->
  B2R z * (B2R a + B2R b + 2) <= (B2R a + 1) * (1 - 5 * bpow radix2 (- prec f)) ->
  exists w, rmap (AFlt _) (gcem_incomplete_beta v (AFlt f a) (AFlt f b) (AFlt f z)) = Ok (AFlt f w) /\ finite w = true /\
    rel_err (B2R w) (beta_I (B2R a) (B2R b) (B2R z)) (84000 * bpow radix2 (- prec f) + bpow radix2 (-43)).
Proof.
  intros v f a b z Fa Fb Fz Ha Hb Hz H. destruct (direct_acc v a b z Fa Fb Fz Ha Hb Hz H) as (w & E & F & R). exists w. split; auto.
  destruct f; unfold gcem_incomplete_beta, lift3; cbn [cr_fmt to_fmt]; cbn; rewrite !conv_id, E; reflexivity.
Qed.
