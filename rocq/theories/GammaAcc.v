(** * Accuracy of lgamma: rounding of the argument, truncation and rounding together *)
From Verif Require Import Base ModelBasic ModelElem ModelSpecial FltLemmas ConvLemmas BasicProofs.
From Coq Require Import Lra Psatz.
From Flocq Require Import Sterbenz.
From Coquelicot Require Import Coquelicot.
From Interval Require Import Tactic.
From Verif Require Import Spec SpecGamma PolyPos Lanczos GammaInt GammaReal.
From Verif Require Import RangeProofs PF FPErr CFBound ExpAcc MiscProofs SinAcc LogAcc LogApi Log1pAcc InvTrig ErfAcc GammaCoef GammaRnd.
Open Scope R_scope.

(** ** Variation of ln Γ over any distance *)
Lemma lnGamma_incr_n b s n : 0 < b -> 0 <= s <= 1 -> 
  (s + INR n) * (ln b - / b) <= ln (Gamma (b + (s + INR n))) - ln (Gamma b) <= (s + INR n) * ln (b + (s + INR n)).
Proof.
  intros B S. induction n as [|n IH].
  - change (INR 0) with 0. rewrite Rplus_0_r. assert (U := lnGamma_up b s B S). assert (L := lnGamma_low b s B S). unfold Rdiv in L.
    assert (ln b <= ln (b + s)) by (apply ln_le; lra). assert (s * ln b <= s * ln (b + s)) by (apply Rmult_le_compat_l; lra). lra.
  - rewrite S_INR. assert (N := pos_INR n). set (r := s + INR n) in * . replace (s + (INR n + 1)) with (r + 1) by (unfold r; ring). replace (b + (r + 1)) with (b + r + 1) by ring.
    assert (R0 : 0 <= r) by (unfold r; lra). rewrite lnGamma_S by lra.
    assert (L1 : ln b <= ln (b + r)) by (apply ln_le; lra). assert (L2 : ln (b + r) <= ln (b + r + 1)) by (apply ln_le; lra). assert (0 < / b) by (apply Rinv_0_lt_compat; lra).
    assert (r * ln (b + r) <= r * ln (b + r + 1)) by (apply Rmult_le_compat_l; lra). lra.
Qed.
Lemma lnGamma_incr b s : 0 < b -> 0 <= s -> s * (ln b - / b) <= ln (Gamma (b + s)) - ln (Gamma b) <= s * ln (b + s).
Proof.
  intros B S. destruct (nfloor_ex s S) as (n & Hn). assert (H := lnGamma_incr_n b (s - INR n) n B ltac:(lra)). replace (s - INR n + INR n) with s in H by ring. exact H.
Qed.
Lemma lnGamma_mono b c : 199 / 100 <= b -> b <= c -> ln (Gamma b) <= ln (Gamma c).
Proof.
  intros B C. destruct (lnGamma_incr b (c - b) ltac:(lra) ltac:(lra)) as (L & _). replace (b + (c - b)) with c in L by ring.
  assert (ln (199 / 100) <= ln b) by (apply ln_le; lra). assert (/ b <= / (199 / 100)) by (apply Rinv_le_contravar; lra). assert (/ (199 / 100) <= ln (199 / 100)) by interval.
  assert (0 <= (c - b) * (ln b - / b)) by (apply Rmult_le_pos; lra). lra.
Qed.
Lemma lnGamma_near_large a b d : 199 / 100 <= a -> 199 / 100 <= b -> Rabs (a - b) <= d -> Rabs (ln (Gamma a) - ln (Gamma b)) <= d * ln (b + d).
Proof.
  intros A B D. assert (D0 : 0 <= d) by (eapply Rle_trans; [apply Rabs_pos|exact D]). assert (D' := D). apply Rabs_le_inv in D'.
  destruct (Rle_or_lt a b) as [L|L].
  - destruct (lnGamma_incr a (b - a) ltac:(lra) ltac:(lra)) as (_ & U). replace (a + (b - a)) with b in U by ring. assert (M := lnGamma_mono a b A L).
    rewrite Rabs_left1 by lra. assert (0 < ln b) by (rewrite <- ln_1; apply ln_increasing; lra). assert (ln b <= ln (b + d)) by (apply ln_le; lra).
    assert ((b - a) * ln b <= d * ln (b + d)) by (apply Rmult_le_compat; lra). lra.
  - destruct (lnGamma_incr b (a - b) ltac:(lra) ltac:(lra)) as (_ & U). replace (b + (a - b)) with a in U by ring. assert (M := lnGamma_mono b a B ltac:(lra)).
    rewrite Rabs_pos_eq by lra. assert (0 < ln a) by (rewrite <- ln_1; apply ln_increasing; lra). assert (ln a <= ln (b + d)) by (apply ln_le; lra).
    assert ((a - b) * ln a <= d * ln (b + d)) by (apply Rmult_le_compat; lra). lra.
Qed.
Lemma lnGamma_near_small a b d m : 0 < m -> m <= a <= 1 -> m <= b <= 1 -> Rabs (a - b) <= d -> Rabs (ln (Gamma a) - ln (Gamma b)) <= d * (2 / m).
Proof.
  intros M A B D.
  assert (G : forall p q, m <= p -> p <= q -> q <= 1 -> q - p <= d -> Rabs (ln (Gamma q) - ln (Gamma p)) <= d * (2 / m)).
  { intros p q P Q R E. destruct (lnGamma_incr p (q - p) ltac:(lra) ltac:(lra)) as (L & U). replace (p + (q - p)) with q in * by ring.
    assert (Q1 : ln q <= 0) by (rewrite <- ln_1; apply ln_le; lra). assert (IP : 0 < / p) by (apply Rinv_0_lt_compat; lra). assert (IM : / p <= / m) by (apply Rinv_le_contravar; lra).
    assert (LP : - / p <= ln p). { assert (T := ln_tan (/ p) 1 IP Rlt_0_1). rewrite ln_1 in T. rewrite ln_Rinv in T by lra. lra. }
    assert ((q - p) * (- (2 / m)) <= (q - p) * (ln p - / p)) by (apply Rmult_le_compat_l; unfold Rdiv; lra).
    assert (0 <= (q - p) * - ln q) by (apply Rmult_le_pos; lra). assert ((q - p) * (2 / m) <= d * (2 / m)) by (apply Rmult_le_compat_r; unfold Rdiv; lra).
    apply Rabs_le. assert (0 <= (q - p) * (2 / m)) by (apply Rmult_le_pos; unfold Rdiv; lra). lra. }
  assert (D' := D). apply Rabs_le_inv in D'. destruct (Rle_or_lt a b). rewrite Rabs_minus_sym. apply G; lra. apply G; lra.
Qed.

(** ** The branches of lgamma *)
Section Check.
Context (v : cxx) {f : fmt}.
Variable x : flt f.
Hypothesis Fx : finite x = true.
Notation X := (B2R x).
Notation u := (uf f).
Hypothesis HX : / 18014398509481984 <= X <= 36028797018963968.
Let u0 : 0 < u := uf_pos f.
Let u1 : u <= / 16777216 := uf_le f.
Lemma one_val : B2R (ofZ f 1) = 1 /\ finite (ofZ f 1) = true.
Proof. destruct (ofZ_small f 1 ltac:(lia)) as (V1 & F1 & _). auto. Qed.
Lemma sub_one : finite (x -. ofZ f 1) = true /\ B2R (x -. ofZ f 1) = rnd f (X - 1).
Proof. destruct one_val as (V & F). destruct (op_sub x (ofZ f 1) Fx F) as (A & B). rewrite V. apply Rabs_le. lra. rewrite V in B. auto. Qed.
Lemma check_one : X = 1 -> lgamma_check v x = Ok (ofZ f 0).
Proof.
  intros E. unfold lgamma_check. rewrite finite_not_nan by auto. destruct sub_one as (F & V). rewrite E in V. replace (1 - 1) with 0 in V by ring. rewrite rnd_0 in V. destruct (fmin_spec f) as (Vm & Fm). 
  rewrite (flt_true (ModelBasic.abs (x -. ofZ f 1)) (fmin f)); auto. rewrite abs_finite; auto. rewrite abs_B2R, V, Rabs_R0, Vm. apply bpow_gt_0.
Qed.
Lemma check_else : X <> 1 -> lgamma_check v x = lgamma_begin v (x -. ofZ f 1).
Proof.
  intros N. unfold lgamma_check. rewrite finite_not_nan by auto. destruct sub_one as (F & V). destruct (fmin_spec f) as (Vm & Fm).
  assert (G : bpow radix2 (- prec f) <= Rabs (X - 1)). { destruct (Rle_or_lt (/ 2) X) as [L|L]. apply gap_one; auto. rewrite Rabs_left by lra. apply Rle_trans with (bpow radix2 (-1)). apply bpow_le. destruct f; discriminate. change (bpow radix2 (-1)) with (/ 2). lra. }
  rewrite (flt_false (ModelBasic.abs (x -. ofZ f 1)) (fmin f)); auto.
  - rewrite (flt_false x (fmin f)); auto. rewrite Vm. apply Rle_trans with (bpow radix2 (-54)). apply bpow_le. destruct f; discriminate. change (bpow radix2 (-54)) with (/ 18014398509481984). lra.
  - rewrite abs_finite; auto.
  - rewrite abs_B2R, V, Vm, rnd_abs. apply rnd_ge_fmt. rewrite <- Vm. apply fmt_format. eapply Rle_trans; [|exact G]. apply bpow_le. destruct f; discriminate.
Qed.
(** x - 1 is exact for 1/2 <= x <= 2 *)
Lemma sub_exact : / 2 <= X <= 2 -> B2R (x -. ofZ f 1) = X - 1.
Proof.
  intros E. destruct sub_one as (F & V). rewrite V. apply rnd_id. destruct one_val as (V1 & _). rewrite <- V1.
  apply sterbenz. apply FLT_exp_valid. apply prec_pos. apply FLT_exp_monotone. apply fmt_format. apply fmt_format. rewrite V1. lra.
Qed.

Lemma lgamma_large : / 2 <= X -> exists t : flt f, lgamma_check v x = Ok t /\ finite t = true /\
  Rabs (B2R t - ln (Gamma X)) <= (14 * X * ln (X + 5) + 54) * u + (X + 3) * / 18014398509481984.
Proof.
  intros XL. set (L := ln (X + 5)). assert (L0 : 17 / 10 <= L) by (apply Rle_trans with (ln (11 / 2)); [interval|apply ln_le; lra]).
  assert (LB : L <= 40) by (apply Rle_trans with (ln 36028797018963980); [apply ln_le; lra|interval]).
  assert (XP : 0 <= X * L) by (apply Rmult_le_pos; lra). assert (T0 := tiny_mul u (X * L) (conj u0 u1) XP). assert (TX := tiny_mul u X (conj u0 u1) ltac:(lra)).
  assert (XL2 : X <= 10 / 17 * (X * L)). { assert (X * (17 / 10) <= X * L) by (apply Rmult_le_compat_l; lra). lra. }
  destruct (Req_dec X 1) as [E|N].
  { rewrite (check_one E). exists (ofZ f 0). destruct (ofZ_small f 0 ltac:(lia)) as (V0 & F0 & _). split; auto. split; auto. rewrite V0, E, Gamma_one, ln_1, Rminus_0_r, Rabs_R0. rewrite E in T0. lra. }
  rewrite (check_else N). destruct sub_one as (Fw & Vw). set (w := x -. ofZ f 1) in * .
  assert (D : Rabs (B2R w + 1 - X) <= u * X /\ (X <= 2 -> B2R w = X - 1)).
  { split; [|intros; unfold w; apply sub_exact; lra]. destruct (Rle_or_lt X 2) as [A|A].
    - unfold w. rewrite sub_exact by lra. replace (X - 1 + 1 - X) with 0 by ring. rewrite Rabs_R0. lra.
    - rewrite Vw. destruct (rnd_u f (X - 1)) as (e & He & Ve). { rewrite Rabs_pos_eq by lra. apply Rle_trans with (bpow radix2 0). apply bpow_le. destruct f; discriminate. cbn. lra. }
      rewrite Ve. replace ((X - 1) * (1 + e) + 1 - X) with ((X - 1) * e) by ring. rewrite Rabs_mult, (Rabs_pos_eq (X - 1)) by lra.
      assert ((X - 1) * Rabs e <= (X - 1) * u) by (apply Rmult_le_compat_l; lra). lra. }
  destruct D as (D & D2). assert (D' := D). apply Rabs_le_inv in D'. assert (UX : u * X <= / 16777216 * X) by (apply Rmult_le_compat_r; lra).
  set (Xt := B2R w + 1) in * . assert (XT : / 2 <= Xt). { destruct (Rle_or_lt X 2) as [A|A]. unfold Xt. rewrite D2 by auto. lra. lra. }
  destruct (begin_acc v w Fw) as (t & Et & Ft & Ht). { fold Xt. lra. }
  exists t. split; auto. split; auto. fold Xt in Ht.
  replace (B2R w + / 2) with (Xt - / 2) in Ht by (unfold Xt; lra). replace (B2R w + 671 / 128) with (Xt + 543 / 128) in Ht by (unfold Xt; lra).
  assert (LG : forall s, 0 < s <= (X + 5) * (1 + u) -> ln s <= L + u).
  { intros s (S0 & S1). apply Rle_trans with (ln ((X + 5) * exp u)). apply ln_le. lra. assert (1 + u <= exp u) by (apply exp_ineq1_le). assert ((X + 5) * (1 + u) <= (X + 5) * exp u) by (apply Rmult_le_compat_l; lra). lra.
    rewrite ln_mult by (try apply exp_pos; lra). rewrite ln_exp. fold L. lra. }
  (* the variation between the two arguments *)
  assert (GD : Rabs (ln (Gamma Xt) - ln (Gamma X)) <= 1001 / 1000 * (u * (X * L))).
  { destruct (Rle_or_lt X 2) as [A|A].
    - replace Xt with X by (unfold Xt; rewrite D2 by auto; ring). rewrite Rminus_eq_0, Rabs_R0. lra.
    - eapply Rle_trans. apply (lnGamma_near_large Xt X (u * X)); lra.
      assert (ln (X + u * X) <= L + u) by (apply LG; lra). assert (u * X * ln (X + u * X) <= u * X * (L + u)) by (apply Rmult_le_compat_l; lra). assert (u * X <= u * (X * L)) by (apply Rmult_le_compat_l; lra). lra. }
  assert (TR := Lg_trunc Xt XT). 
  (* the rounding bound in terms of X *)
  assert (LY : ln (Xt + 543 / 128) <= L + u).
  { apply LG. lra. }
  assert (LY0 : 0 <= ln (Xt + 543 / 128)) by (rewrite <- ln_1; apply ln_le; lra).
  assert (HH : Rabs (Xt - / 2) <= X + u * X) by (apply Rabs_le; lra).
  assert (HP : Rabs (Xt - / 2) * ln (Xt + 543 / 128) <= (X + u * X) * (L + u)) by (apply Rmult_le_compat; auto; apply Rabs_pos).
  assert (LS : Rabs (ln (lanc (B2R w))) <= 478 / 100).
  { assert (A1 := lanc_low Xt ltac:(lra)). assert (A2 := lanc_up Xt ltac:(lra)). replace (Xt - 1) with (B2R w) in * by (unfold Xt; ring).
    assert (/ Xt <= / / 2) by (apply Rinv_le_contravar; lra). assert (lanc (B2R w) <= 117) by (unfold Rdiv in A2; lra).
    apply Rabs_le. split. apply Rle_trans with (ln (99 / 100)). interval. apply ln_le; lra. apply Rle_trans with (ln 117). apply ln_le; lra. interval. }
  set (P := Rabs (Xt - / 2) * ln (Xt + 543 / 128)) in * .
  assert (P1 : P <= 1001 / 1000 * (X * L) + / 1000 * X). { assert (u * X * L <= / 16777216 * X * L) by (apply Rmult_le_compat_r; lra). assert (X * u <= X * / 16777216) by (apply Rmult_le_compat_l; lra). assert (u * X * u <= / 16777216 * X * u) by (apply Rmult_le_compat_r; lra). assert (X * u * / 16777216 <= X * / 16777216) by lra. lra. }
  assert (B : 964 / 100 * P + 103 / 100 * Rabs (Xt - / 2) + 302 / 100 * (Xt + 543 / 128) + 762 / 100 * Rabs (ln (lanc (B2R w))) + 4 <= 122 / 10 * (X * L) + 535 / 10) by lra.
  assert (UB := Rmult_le_compat_l u _ _ ltac:(lra) B).
  replace (B2R t - ln (Gamma X)) with ((B2R t - Lg Xt) + (- (ln (Gamma Xt) - Lg Xt) + (ln (Gamma Xt) - ln (Gamma X)))) by ring.
  eapply Rle_trans. apply Rabs_triang. eapply Rle_trans. apply Rplus_le_compat_l. apply Rabs_triang. rewrite Rabs_Ropp. cbn [pow] in TR. lra.
Qed.
Lemma lgamma_small : 4 * u <= X < / 2 -> exists t : flt f, lgamma_check v x = Ok t /\ finite t = true /\
  Rabs (B2R t - ln (Gamma X)) <= (60 + 8 * ln (/ X) + 2 / X) * u + / 281474976710656.
Proof.
  intros XL. assert (N : X <> 1) by lra. rewrite (check_else N). destruct sub_one as (Fw & Vw). set (w := x -. ofZ f 1) in * .
  assert (D : Rabs (B2R w + 1 - X) <= u / 2). { rewrite Vw. replace (rnd f (X - 1) + 1 - X) with (rnd f (X - 1) - (X - 1)) by ring. apply rnd_half_u. rewrite Rabs_left by lra. lra. }
  set (Xt := B2R w + 1) in * . assert (D' := D). apply Rabs_le_inv in D'.
  destruct (begin_acc v w Fw) as (t & Et & Ft & Ht). { fold Xt. lra. }
  exists t. split; auto. split; auto. fold Xt in Ht.
  replace (B2R w + / 2) with (Xt - / 2) in Ht by (unfold Xt; lra). replace (B2R w + 671 / 128) with (Xt + 543 / 128) in Ht by (unfold Xt; lra).
  assert (GD : Rabs (ln (Gamma Xt) - ln (Gamma X)) <= 115 / 100 * (u * / X)).
  { eapply Rle_trans. apply (lnGamma_near_small Xt X (u / 2) (7 / 8 * X)); lra. replace (u / 2 * (2 / (7 / 8 * X))) with (8 / 7 * (u * / X)) by (field; lra). assert (0 < u * / X) by (apply Rmult_lt_0_compat; auto; apply Rinv_0_lt_compat; lra). lra. }
  assert (TR := Lg_trunc0 Xt ltac:(lra)). cbn [pow] in TR. assert (IX : 0 < / X) by (apply Rinv_0_lt_compat; lra).
  assert (LY : 0 <= ln (Xt + 543 / 128) <= 16 / 10). { split. rewrite <- ln_1; apply ln_le; lra. apply Rle_trans with (ln (485 / 100)). apply ln_le; lra. interval. }
  assert (HH : 0 <= Rabs (Xt - / 2) <= / 2) by (split; [apply Rabs_pos|apply Rabs_le; lra]).
  assert (HP : Rabs (Xt - / 2) * ln (Xt + 543 / 128) <= / 2 * (16 / 10)) by (apply Rmult_le_compat; lra).
  assert (LX : 69 / 100 <= ln (/ X)). { apply Rle_trans with (ln 2). interval. apply ln_le. lra. replace 2 with (/ / 2) by lra. apply Rinv_le_contravar; lra. }
  assert (LS : Rabs (ln (lanc (B2R w))) <= 422 / 100 + ln (/ X)).
  { assert (A1 := lanc_low Xt ltac:(lra)). assert (A2 := lanc_up Xt ltac:(lra)). replace (Xt - 1) with (B2R w) in * by (unfold Xt; ring).
    assert (/ Xt <= / (7 / 8 * X)) by (apply Rinv_le_contravar; lra). replace (/ (7 / 8 * X)) with (8 / 7 * / X) in * by (field; lra).
    assert (1 <= / 2 * / X). { replace 1 with (X * / X) by (field; lra). apply Rmult_le_compat_r; lra. }
    assert (lanc (B2R w) <= 67 * / X) by (unfold Rdiv in A2; lra).
    assert (- (2 / 100) <= ln (99 / 100)) by interval. assert (ln (99 / 100) <= ln (lanc (B2R w))) by (apply ln_le; lra).
    apply Rabs_le. split. lra. apply Rle_trans with (ln (67 * / X)). apply ln_le; lra. rewrite ln_mult by lra. assert (ln 67 <= 422 / 100) by interval. lra. }
  set (P := Rabs (Xt - / 2) * ln (Xt + 543 / 128)) in * .
  assert (B : 964 / 100 * P + 103 / 100 * Rabs (Xt - / 2) + 302 / 100 * (Xt + 543 / 128) + 762 / 100 * Rabs (ln (lanc (B2R w))) + 4 <= 60 + 762 / 100 * ln (/ X)) by lra.
  assert (UB := Rmult_le_compat_l u _ _ ltac:(lra) B). assert (0 <= u * ln (/ X)) by (apply Rmult_le_pos; lra). assert (0 <= u * / X) by (apply Rmult_le_pos; lra).
  replace (B2R t - ln (Gamma X)) with ((B2R t - Lg Xt) + (- (ln (Gamma Xt) - Lg Xt) + (ln (Gamma Xt) - ln (Gamma X)))) by ring.
  eapply Rle_trans. apply Rabs_triang. eapply Rle_trans. apply Rplus_le_compat_l. apply Rabs_triang. rewrite Rabs_Ropp. unfold Rdiv at 1. lra.
Qed.
End Check.
