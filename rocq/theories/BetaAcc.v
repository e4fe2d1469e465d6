(** * Accuracy of lbeta, beta and log_binomial_coef *)
From Verif Require Import Base ModelBasic ModelInt ModelElem ModelSpecial ModelApi FltLemmas ConvLemmas BasicProofs.
From Coq Require Import Lra Psatz.
From Coquelicot Require Import Coquelicot.
From Interval Require Import Tactic.
From Verif Require Import Spec SpecGamma Lanczos GammaInt GammaReal.
From Verif Require Import RangeProofs PF FPErr CFBound ExpAcc MiscProofs SinAcc TanhAcc SqrtAcc LogAcc LogApi Log1pAcc InvTrig PowReal ErfAcc GammaRnd GammaAcc TgammaAcc GammaApi.
Open Scope R_scope.
Notation eps := (/ 18014398509481984).

Lemma lnGamma_near_mid a b d : 99 / 100 <= a -> 99 / 100 <= b -> Rabs (a - b) <= d -> Rabs (ln (Gamma a) - ln (Gamma b)) <= d * (ln (b + d + 1) + 103 / 100).
Proof.
  intros A B D. assert (D' := D). apply Rabs_le_inv in D'.
  assert (G : forall p q, 99 / 100 <= p -> p <= q -> q <= b + d -> q - p <= d -> Rabs (ln (Gamma q) - ln (Gamma p)) <= d * (ln (b + d + 1) + 103 / 100)).
  { intros p q P Q R E. destruct (lnGamma_incr p (q - p) ltac:(lra) ltac:(lra)) as (L & U). replace (p + (q - p)) with q in * by ring.
    assert (L1 : ln q <= ln (b + d + 1)) by (apply ln_le; lra). assert (L2 : ln 1 <= ln (b + d + 1)) by (apply ln_le; lra). rewrite ln_1 in L2.
    assert (L3 : ln (99 / 100) <= ln p) by (apply ln_le; lra). assert (L4 : - (103 / 100) <= ln (99 / 100) - / (99 / 100)) by interval. assert (L5 : / p <= / (99 / 100)) by (apply Rinv_le_contravar; lra).
    assert ((q - p) * ln q <= (q - p) * ln (b + d + 1)) by (apply Rmult_le_compat_l; lra). assert ((q - p) * - (103 / 100) <= (q - p) * (ln p - / p)) by (apply Rmult_le_compat_l; lra).
    assert ((q - p) * (ln (b + d + 1) + 103 / 100) <= d * (ln (b + d + 1) + 103 / 100)) by (apply Rmult_le_compat_r; lra).
    assert (0 <= (q - p) * ln (b + d + 1)) by (apply Rmult_le_pos; lra). apply Rabs_le. lra. }
  destruct (Rle_or_lt a b). rewrite Rabs_minus_sym. apply G; lra. apply G; lra.
Qed.
Lemma lnGamma_size x : / 2 <= x -> -1 <= ln (Gamma x) <= x * ln (x + 5) + 1.
Proof.
  intros H. assert (L0 : 17 / 10 <= ln (x + 5)) by (apply Rle_trans with (ln (11 / 2)); [interval|apply ln_le; lra]). set (L := ln (x + 5)) in * .
  assert (XP : 0 <= x * L) by (apply Rmult_le_pos; lra).
  destruct (Rle_or_lt x 2) as [A|A].
  - destruct (Rle_or_lt 1 x) as [B|B].
    + assert (G := lnGamma_unit (x - 1) ltac:(lra)). replace (1 + (x - 1)) with x in G by ring. lra.
    + assert (G := lnGamma_unit x ltac:(lra)). rewrite (Rplus_comm 1) in G. rewrite lnGamma_S in G by lra. assert (ln (/ 2) <= ln x) by (apply ln_le; lra). assert (ln x <= 0) by (rewrite <- ln_1; apply ln_le; lra). assert (- (7 / 10) <= ln (/ 2)) by interval.
      assert (/ 2 * (17 / 10) <= x * L) by (apply Rmult_le_compat; lra). lra.
  - assert (M2 := lnGamma_mono 2 x ltac:(lra) ltac:(lra)). replace 2 with (1 + 1) in M2 at 1 by ring. rewrite lnGamma_S, Gamma_one, ln_1 in M2 by lra.
    destruct (lnGamma_incr 1 (x - 1) ltac:(lra) ltac:(lra)) as (_ & U). rewrite Gamma_one, ln_1 in U. replace (1 + (x - 1)) with x in U by ring.
    assert (ln x <= L) by (apply ln_le; lra). assert (0 <= ln x) by (rewrite <- ln_1; apply ln_le; lra). assert ((x - 1) * ln x <= x * L) by (apply Rmult_le_compat; lra). lra.
Qed.
(** lgamma with the logarithm replaced by a common upper bound *)
Lemma lgamma_bd v {f} (x : flt f) L : finite x = true -> / 2 <= B2R x <= 36028797018963968 -> ln (B2R x + 5) <= L ->
  exists t : flt f, lgamma_check v x = Ok t /\ finite t = true /\
    Rabs (B2R t - ln (Gamma (B2R x))) <= (14 * (B2R x * L) + 54) * uf f + (B2R x + 3) * eps /\ Rabs (ln (Gamma (B2R x))) <= B2R x * L + 1.
Proof.
  intros Fx X HL. destruct (lgamma_large v x Fx ltac:(lra) ltac:(lra)) as (t & E & F & R). exists t. split; auto. split; auto. assert (u0 := uf_pos f).
  assert (A : B2R x * ln (B2R x + 5) <= B2R x * L) by (apply Rmult_le_compat_l; lra). split.
  - assert (u0' := Rmult_le_compat_l (uf f) _ _ ltac:(lra) A). lra.
  - assert (S := lnGamma_size (B2R x) ltac:(lra)). assert (0 <= ln (B2R x + 5)) by (rewrite <- ln_1; apply ln_le; lra). assert (0 <= B2R x * L) by (apply Rmult_le_pos; lra). apply Rabs_le. lra.
Qed.

Section LB.
Context (v : cxx) {f : fmt}.
Variables a b : flt f.
Hypothesis Fa : finite a = true.
Hypothesis Fb : finite b = true.
Notation A := (B2R a).
Notation B := (B2R b).
Hypothesis HA : / 2 <= A.
Hypothesis HB : / 2 <= B.
Hypothesis HS : A + B <= 18014398509481984.
Notation u := (uf f).
Let u0 : 0 < u := uf_pos f.
Let u1 : u <= / 16777216 := uf_le f.
Let uu : 0 < u <= / 16777216 := conj u0 u1.
Notation s := (A + B).
Notation L := (ln (A + B + 5)).
Lemma lbeta_acc : exists t : flt f, lbeta v a b = Ok t /\ finite t = true /\
  Rabs (B2R t - (ln (Gamma A) + ln (Gamma B) - ln (Gamma s))) <= (34 * (s * L) + 170) * u + (2 * s + 10) * eps.
Proof.
  assert (L0 : 179 / 100 <= L) by (apply Rle_trans with (ln 6); [interval|apply ln_le; lra]). assert (LT : L <= 40) by (apply Rle_trans with (ln 18014398509482000); [apply ln_le; lra|interval]).
  destruct (op_add a b Fa Fb) as (Fs & Vs). { apply Rabs_le. lra. }
  assert (DS : Rabs (B2R (a +. b) - s) <= u * s). { rewrite Vs. destruct (rnd_u f s) as (e & He & Ve). { rewrite Rabs_pos_eq by lra. apply Rle_trans with (bpow radix2 0). apply bpow_le. destruct f; discriminate. cbn. lra. } rewrite Ve. replace (s * (1 + e) - s) with (e * s) by ring. rewrite Rabs_mult, (Rabs_pos_eq s) by lra. apply Rmult_le_compat_r; lra. }
  set (c := a +. b) in * . assert (DS' := DS). apply Rabs_le_inv in DS'. assert (US : u * s <= / 16777216 * s) by (apply Rmult_le_compat_r; lra).
  assert (LG : forall q, 0 < q <= (s + 5) * (1 + u) -> ln q <= L + u).
  { intros q (S0 & S1). apply Rle_trans with (ln ((s + 5) * exp u)). apply ln_le. lra. assert (1 + u <= exp u) by (apply exp_ineq1_le). assert ((s + 5) * (1 + u) <= (s + 5) * exp u) by (apply Rmult_le_compat_l; lra). lra.
    rewrite ln_mult by (try apply exp_pos; lra). rewrite ln_exp. lra. }
  destruct (lgamma_bd v a L Fa ltac:(lra) ltac:(apply ln_le; lra)) as (la & Ea & Fla & Ra & Na).
  destruct (lgamma_bd v b L Fb ltac:(lra) ltac:(apply ln_le; lra)) as (lb & Eb & Flb & Rb & Nb).
  destruct (lgamma_bd v c (L + u) Fs ltac:(lra) ltac:(apply LG; lra)) as (lc & Ec & Flc & Rc & Nc).
  unfold lbeta. fold c. rewrite Ea, Eb, Ec. cbn [bind].
  (* bounds in s L *)
  set (P := s * L). assert (P0 : 0 <= P) by (apply Rmult_le_pos; lra). assert (P1 : s * (179 / 100) <= P) by (apply Rmult_le_compat_l; lra).
  assert (PB : P <= 18014398509481984 * 40) by (apply Rmult_le_compat; lra). assert (PAB : A * L + B * L = P) by (unfold P; ring).
  assert (UPS := Rmult_le_compat_l u _ _ ltac:(lra) P1). assert (UP : u * P <= / 16777216 * P) by (apply Rmult_le_compat_r; lra). assert (TP := tiny_mul u P uu P0). assert (TS := tiny_mul u s uu ltac:(lra)).
  assert (PC : B2R c * (L + u) <= 1001 / 1000 * P).
  { apply Rle_trans with ((s + u * s) * (L + u)). apply Rmult_le_compat_r; lra. assert (u * s * L <= / 16777216 * s * L) by (apply Rmult_le_compat_r; lra). assert (s * u <= s * / 16777216) by (apply Rmult_le_compat_l; lra). assert (u * s * u <= u * s * 1) by (apply Rmult_le_compat_l; lra). unfold P in * . lra. }
  assert (UPC := Rmult_le_compat_l u _ _ ltac:(lra) PC).
  assert (GD : Rabs (ln (Gamma (B2R c)) - ln (Gamma s)) <= 16 / 10 * (u * P)).
  { eapply Rle_trans. apply (lnGamma_near_mid (B2R c) s (u * s)); lra. assert (ln (s + u * s + 1) <= L + u) by (apply LG; lra).
    assert (u * s * (ln (s + u * s + 1) + 103 / 100) <= u * s * (L + u + 103 / 100)) by (apply Rmult_le_compat_l; lra). assert (u * s * u <= u * s * / 16777216) by (apply Rmult_le_compat_l; lra).
    assert (u * (s * (179 / 100)) <= u * P) by (apply Rmult_le_compat_l; lra). replace (u * s * (L + u + 103 / 100)) with (u * P + u * s * u + 103 / 100 * (u * s)) in * by (unfold P; ring). lra. }
  set (gA := ln (Gamma A)) in * . set (gB := ln (Gamma B)) in * . set (gS := ln (Gamma s)) in * . set (gC := ln (Gamma (B2R c))) in * .
  assert (E1 : Rabs (B2R la + B2R lb - (gA + gB)) <= (14 * P + 108) * u + (s + 6) * eps).
  { replace (B2R la + B2R lb - (gA + gB)) with ((B2R la - gA) + (B2R lb - gB)) by ring. eapply Rle_trans. apply Rabs_triang. assert (u * (A * L) + u * (B * L) = u * P) by (rewrite <- PAB; ring). lra. }
  assert (N1 : Rabs (gA + gB) <= P + 2) by (eapply Rle_trans; [apply Rabs_triang|lra]).
  assert (M1 : Rabs (B2R la + B2R lb) <= 1001 / 1000 * P + 21 / 10). { replace (B2R la + B2R lb) with ((gA + gB) + (B2R la + B2R lb - (gA + gB))) by ring. eapply Rle_trans. apply Rabs_triang. lra. }
  destruct (op_add la lb Fla Flb) as (Fd & Vd). lra.
  assert (D1 := rnd_tau (f := f) (B2R la + B2R lb)). rewrite <- Vd in D1. set (d := la +. lb) in * . assert (UM1 := Rmult_le_compat_l u _ _ ltac:(lra) M1).
  assert (E2 : Rabs (B2R d - B2R lc - (gA + gB - gS)) <= (308 / 10 * P + 165) * u + (2 * s + 95 / 10) * eps).
  { replace (B2R d - B2R lc - (gA + gB - gS)) with ((B2R d - (B2R la + B2R lb)) + ((B2R la + B2R lb - (gA + gB)) - ((B2R lc - gC) + (gC - gS)))) by ring.
    eapply Rle_trans. apply Rabs_triang. eapply Rle_trans. apply Rplus_le_compat_l. eapply Rle_trans. apply Rabs_triang. apply Rplus_le_compat_l. rewrite Rabs_Ropp. apply Rabs_triang. lra. }
  assert (N2 : Rabs (gA + gB - gS) <= 201 / 100 * P + 4).
  { replace (gA + gB - gS) with ((gA + gB) + ((gC - gS) - gC)) by ring. eapply Rle_trans. apply Rabs_triang. eapply Rle_trans. apply Rplus_le_compat_l. apply Rabs_triang. rewrite Rabs_Ropp. lra. }
  assert (M2 : Rabs (B2R d - B2R lc) <= 202 / 100 * P + 41 / 10). { replace (B2R d - B2R lc) with ((gA + gB - gS) + (B2R d - B2R lc - (gA + gB - gS))) by ring. eapply Rle_trans. apply Rabs_triang. lra. }
  destruct (op_sub d lc Fd Flc) as (Ft & Vt). lra. exists (d -. lc). split; auto. split; auto. rewrite Vt. assert (D2 := rnd_tau (f := f) (B2R d - B2R lc)). assert (UM2 := Rmult_le_compat_l u _ _ ltac:(lra) M2).
  replace (rnd f (B2R d - B2R lc) - (gA + gB - gS)) with ((rnd f (B2R d - B2R lc) - (B2R d - B2R lc)) + (B2R d - B2R lc - (gA + gB - gS))) by ring.
  eapply Rle_trans. apply Rabs_triang. lra.
Qed.
End LB.

Lemma ln_Beta a b : 0 < a -> 0 < b -> ln (Beta a b) = ln (Gamma a) + ln (Gamma b) - ln (Gamma (a + b)).
Proof.
  intros A B. assert (P := Gamma_pos a A). assert (Q := Gamma_pos b B). assert (R := Gamma_pos (a + b) ltac:(lra)). unfold Beta. rewrite ln_div by (auto; apply Rmult_lt_0_compat; auto). rewrite ln_mult by auto. reflexivity.
Qed.
Lemma Beta_pos a b : 0 < a -> 0 < b -> 0 < Beta a b.
Proof. intros A B. assert (P := Gamma_pos a A). assert (Q := Gamma_pos b B). assert (R := Gamma_pos (a + b) ltac:(lra)). unfold Beta. apply Rdiv_lt_0_compat; auto. apply Rmult_lt_0_compat; auto. Qed.
Lemma lnB_rng a b : / 2 <= a -> / 2 <= b -> - 1 - (a + b) / 2 * ln (a + b) <= ln (Gamma a) + ln (Gamma b) - ln (Gamma (a + b)) <= 4.
Proof.
  assert (W : forall p q, / 2 <= p -> p <= q -> - 1 - (p + q) / 2 * ln (p + q) <= ln (Gamma p) + ln (Gamma q) - ln (Gamma (p + q)) <= 4).
  { intros p q P Q. destruct (lnGamma_incr q p ltac:(lra) ltac:(lra)) as (L & U). rewrite (Rplus_comm q p) in * . destruct (lnGamma_size p P) as (S & _).
    assert (LS : 0 <= ln (p + q)) by (rewrite <- ln_1; apply ln_le; lra). assert (p * ln (p + q) <= (p + q) / 2 * ln (p + q)) by (apply Rmult_le_compat_r; lra). split. lra.
    assert (LQ : ln p <= ln q) by (apply ln_le; lra). assert (p * ln p <= p * ln q) by (apply Rmult_le_compat_l; lra). assert (PQ : p * / q <= 1). { replace 1 with (q * / q) by (field; lra). apply Rmult_le_compat_r; [left; apply Rinv_0_lt_compat; lra|lra]. }
    destruct (Rle_or_lt 1 p) as [G|G].
    - destruct (lnGamma_incr 1 (p - 1) ltac:(lra) ltac:(lra)) as (_ & V). rewrite Gamma_one, ln_1 in V. replace (1 + (p - 1)) with p in V by ring. assert (0 <= ln p) by (rewrite <- ln_1; apply ln_le; lra). lra.
    - assert (V := lnGamma_unit p ltac:(lra)). rewrite (Rplus_comm 1), lnGamma_S in V by lra. assert (ln (/ 2) <= ln p) by (apply ln_le; lra). assert (- (7 / 10) <= ln (/ 2)) by interval.
      assert (p * - ln p <= 1 * (7 / 10)) by (apply Rmult_le_compat; try lra; assert (ln p <= 0) by (rewrite <- ln_1; apply ln_le; lra); lra). lra. }
  intros A B. destruct (Rle_or_lt a b). apply W; auto. rewrite (Rplus_comm a b), (Rplus_comm (ln (Gamma a))). apply W; lra.
Qed.
Lemma beta_acc v {f} (a b : flt f) : finite a = true -> finite b = true -> / 2 <= B2R a -> / 2 <= B2R b -> B2R a + B2R b <= gmax f ->
  exists t : flt f, beta v a b = Ok t /\ finite t = true /\
  rel_err (B2R t) (Beta (B2R a) (B2R b)) ((35 * ((B2R a + B2R b) * ln (B2R a + B2R b + 5)) + 280) * uf f + (3 * (B2R a + B2R b) + 15) * eps).
Proof.
  intros Fa Fb HA HB HS. assert (u0 := uf_pos f). assert (u1 := uf_le f). change (bpow radix2 (-24)) with (/ 16777216) in u1. assert (GR := gmax_rng f).
  destruct (lbeta_acc v a b Fa Fb HA HB ltac:(lra)) as (t & Et & Ft & Rt). assert (RNG := lnB_rng _ _ HA HB).
  set (s := B2R a + B2R b) in * . assert (S1 : 1 <= s) by (unfold s; lra). set (L := ln (s + 5)) in * . assert (L0 : 179 / 100 <= L) by (apply Rle_trans with (ln 6); [interval|apply ln_le; lra]). assert (LT : L <= ln (gmax f + 5)) by (apply ln_le; lra).
  assert (LS : 0 <= ln s) by (rewrite <- ln_1; apply ln_le; unfold s; lra). assert (LM : L <= 76 / 10). { apply Rle_trans with (1 := LT). apply Rle_trans with (ln 1759). apply ln_le; lra. interval. }
  assert (P0 : 0 <= s * L) by (apply Rmult_le_pos; lra). assert (PM : s * L <= s * (76 / 10)) by (apply Rmult_le_compat_l; lra).
  assert (UP : 0 <= uf f * (s * L)) by (apply Rmult_le_pos; lra).
  assert (EB : (34 * (s * L) + 170) * uf f + (2 * s + 10) * eps <= / 3000).
  { assert (s * L <= gmax f * ln (gmax f + 5)) by (apply Rmult_le_compat; lra). assert (A : (34 * (s * L) + 170) * uf f <= (34 * (gmax f * ln (gmax f + 5)) + 170) * uf f) by (apply Rmult_le_compat_r; lra).
    assert (B : (34 * (gmax f * ln (gmax f + 5)) + 170) * uf f <= / 4000). { clear. destruct f; unfold uf; cbn [gmax]; [change (bpow radix2 (- prec F32)) with (/ 16777216)|change (bpow radix2 (- prec F64)) with (/ 9007199254740992)|change (bpow radix2 (- prec F80)) with GammaCoef.U80]; interval. }
    lra. }
  assert (SL : s / 2 * ln s <= gmax f / 2 * ln (gmax f)) by (apply Rmult_le_compat; try lra; apply ln_le; lra).
  assert (SL2 : ln s <= L) by (apply ln_le; lra). assert (SL3 : s / 2 * ln s <= s / 2 * L) by (apply Rmult_le_compat_l; lra). assert (SL0 : 0 <= s / 2 * ln s) by (apply Rmult_le_pos; lra).
  assert (TB : Rabs (B2R t) <= s / 2 * ln s + 41 / 10) by (apply Rabs_le_inv in Rt; apply Rabs_le; lra).
  destruct (exp_merge v t Ft) as (w & Ew & Fw & Rw). { unfold exp_fit. rewrite bpow_exp. apply Raux.exp_le. change (IZR radix2) with 2. assert (gmax f / 2 * ln (gmax f) + 7 <= IZR (emax f - 9) * ln 2). { clear. destruct f; cbn [gmax emax Z.sub Z.add Z.opp Z.pos_sub Pos.pred_double Pos.add Pos.succ]; interval. } lra. }
  exists w. unfold beta. rewrite Et. split; auto. split; auto. rewrite <- (exp_ln (Beta _ _)) by (apply Beta_pos; lra). rewrite ln_Beta by lra. fold s. assert (0 <= Rabs (B2R t)) by apply Rabs_pos.
  eapply rel_mono; [|apply (exp_pert _ _ _ _ _ Rw Rt)]; lra.
Qed.

(** ** log_binomial_coef of integer-valued arguments *)
Section LBC.
Context (v : cxx) {f : fmt}.
Variables (n k : flt f) (N K : Z).
Hypothesis Vn : has_val n (IZR N).
Hypothesis Vk : has_val k (IZR K).
Hypothesis HK : (0 <= K <= N)%Z.
Hypothesis HN : (N < 2 ^ prec f)%Z.
Hypothesis HN2 : IZR N <= 18014398509481984.
Notation u := (uf f).
Let u0 : 0 < u := uf_pos f.
Let u1 : u <= / 16777216 := uf_le f.
Let uu : 0 < u <= / 16777216 := conj u0 u1.
Notation L := (ln (IZR N + 6)).
Lemma add1 (x : flt f) Z0 : has_val x (IZR Z0) -> (0 <= Z0 <= N)%Z -> has_val (x +. ofZ f 1) (IZR Z0 + 1).
Proof.
  intros (F & V) H. destruct (one_val (f := f)) as (V1 & F1). assert (0 <= IZR Z0 <= IZR N) by (split; apply IZR_le; lia).
  destruct (op_add x (ofZ f 1) F F1) as (Fy & Vy). { rewrite V, V1. apply Rabs_le. lra. } split; auto. rewrite Vy, V, V1. rewrite <- plus_IZR. apply rnd_id. apply fmt_IZR. lia.
Qed.
Lemma subk : has_val (n -. k) (IZR (N - K)).
Proof.
  destruct Vn as (Fn & En). destruct Vk as (Fk & Ek). assert (0 <= IZR K <= IZR N) by (split; apply IZR_le; lia).
  destruct (op_sub n k Fn Fk) as (Fy & Vy). { rewrite En, Ek. apply Rabs_le. lra. } split; auto. rewrite Vy, En, Ek. rewrite <- minus_IZR. apply rnd_id. apply fmt_IZR. lia.
Qed.
Lemma lbc_acc : exists t : flt f, log_binomial_coef_compute v n k = Ok t /\ finite t = true /\
  Rabs (B2R t - (ln (Gamma (IZR N + 1)) - (ln (Gamma (IZR K + 1)) + ln (Gamma (IZR (N - K) + 1))))) <= (32 * ((IZR N + 2) * L) + 170) * u + (2 * IZR N + 12) * eps.
Proof.
  assert (KR : 0 <= IZR K <= IZR N) by (split; apply IZR_le; lia). assert (DR : IZR (N - K) = IZR N - IZR K) by apply minus_IZR.
  destruct (add1 n N Vn ltac:(lia)) as (F1 & V1). destruct (add1 k K Vk ltac:(lia)) as (F2 & V2). destruct (add1 (n -. k) (N - K) subk ltac:(lia)) as (F3 & V3).
  assert (L0 : 179 / 100 <= L) by (apply Rle_trans with (ln 6); [interval|apply ln_le; lra]). assert (LT : L <= 40) by (apply Rle_trans with (ln 18014398509482000); [apply ln_le; lra|interval]).
  destruct (lgamma_bd v (n +. ofZ f 1) L F1 ltac:(rewrite V1; lra) ltac:(rewrite V1; apply ln_le; lra)) as (a & Ea & Fa & Ra & Na).
  destruct (lgamma_bd v (k +. ofZ f 1) L F2 ltac:(rewrite V2; lra) ltac:(rewrite V2; apply ln_le; lra)) as (b & Eb & Fb & Rb & Nb).
  destruct (lgamma_bd v (n -. k +. ofZ f 1) L F3 ltac:(rewrite V3; lra) ltac:(rewrite V3; apply ln_le; lra)) as (c & Ec & Fc & Rc & Nc).
  rewrite V1 in * . rewrite V2 in * . rewrite V3 in * . unfold log_binomial_coef_compute. rewrite Ea, Eb, Ec. cbn [bind]. clear Ea Eb Ec.
  set (gn := ln (Gamma (IZR N + 1))) in * . set (gk := ln (Gamma (IZR K + 1))) in * . set (gd := ln (Gamma (IZR (N - K) + 1))) in * . rewrite DR in * .
  set (P := (IZR N + 2) * L). assert (P0 : 0 <= P) by (apply Rmult_le_pos; lra). assert (PB : P <= 18014398509481990 * 40) by (apply Rmult_le_compat; lra). assert (UP : u * P <= / 16777216 * P) by (apply Rmult_le_compat_r; lra). assert (TP := tiny_mul u P uu P0).
  assert (PK : (IZR K + 1) * L + (IZR N - IZR K + 1) * L = P) by (unfold P; ring). assert (PN : (IZR N + 1) * L = P - L) by (unfold P; ring). assert (UPK : u * ((IZR K + 1) * L) + u * ((IZR N - IZR K + 1) * L) = u * P) by (rewrite <- PK; ring).
  assert (UL := Rmult_lt_0_compat u L u0 ltac:(lra)). rewrite PN in * . assert (P2 : (IZR N + 2) * (179 / 100) <= P) by (apply Rmult_le_compat_l; lra).
  assert (E1 : Rabs (B2R b + B2R c - (gk + gd)) <= (14 * P + 108) * u + (IZR N + 8) * eps). { replace (B2R b + B2R c - (gk + gd)) with ((B2R b - gk) + (B2R c - gd)) by ring. eapply Rle_trans. apply Rabs_triang. lra. }
  assert (N1 : Rabs (gk + gd) <= P + 2) by (eapply Rle_trans; [apply Rabs_triang|lra]).
  assert (M1 : Rabs (B2R b + B2R c) <= 1001 / 1000 * P + 21 / 10). { replace (B2R b + B2R c) with ((gk + gd) + (B2R b + B2R c - (gk + gd))) by ring. eapply Rle_trans. apply Rabs_triang. lra. }
  destruct (op_add b c Fb Fc) as (Fd & Vd). lra.
  assert (D1 := rnd_tau (f := f) (B2R b + B2R c)). rewrite <- Vd in D1. set (d := b +. c) in * . assert (UM1 := Rmult_le_compat_l u _ _ ltac:(lra) M1).
  assert (E2 : Rabs (B2R a - B2R d - (gn - (gk + gd))) <= (291 / 10 * P + 165) * u + (2 * IZR N + 12) * eps).
  { replace (B2R a - B2R d - (gn - (gk + gd))) with ((B2R a - gn) - ((B2R d - (B2R b + B2R c)) + (B2R b + B2R c - (gk + gd)))) by ring.
    eapply Rle_trans. apply Rabs_triang. rewrite Rabs_Ropp. eapply Rle_trans. apply Rplus_le_compat_l. apply Rabs_triang. lra. }
  assert (N2 : Rabs (gn - (gk + gd)) <= 2 * P + 3). { eapply Rle_trans. apply Rabs_triang. rewrite Rabs_Ropp. lra. }
  assert (M2 : Rabs (B2R a - B2R d) <= 202 / 100 * P + 31 / 10). { replace (B2R a - B2R d) with ((gn - (gk + gd)) + (B2R a - B2R d - (gn - (gk + gd)))) by ring. eapply Rle_trans. apply Rabs_triang. lra. }
  destruct (op_sub a d Fa Fd) as (Ft & Vt). lra. exists (a -. d). split; auto. split; auto. rewrite Vt. assert (D2 := rnd_tau (f := f) (B2R a - B2R d)). assert (UM2 := Rmult_le_compat_l u _ _ ltac:(lra) M2).
  replace (rnd f (B2R a - B2R d) - (gn - (gk + gd))) with ((rnd f (B2R a - B2R d) - (B2R a - B2R d)) + (B2R a - B2R d - (gn - (gk + gd)))) by ring.
  eapply Rle_trans. apply Rabs_triang. lra.
Qed.
End LBC.
Lemma ln_choose N K c : (0 <= K <= N)%Z -> is_choose N K c -> ln (Gamma (IZR N + 1)) - (ln (Gamma (IZR K + 1)) + ln (Gamma (IZR (N - K) + 1))) = ln (IZR c).
Proof.
  intros H C. unfold is_choose in C. replace (K <=? N)%Z with true in C by (symmetry; apply Z.leb_le; lia).
  assert (P1 := Gamma_pos (IZR N + 1) ltac:(assert (0 <= IZR N) by (apply IZR_le; lia); lra)). assert (P2 := Gamma_pos (IZR K + 1) ltac:(assert (0 <= IZR K) by (apply IZR_le; lia); lra)). assert (P3 := Gamma_pos (IZR (N - K) + 1) ltac:(assert (0 <= IZR (N - K)) by (apply IZR_le; lia); lra)).
  assert (E : IZR c * (Gamma (IZR K + 1) * Gamma (IZR (N - K) + 1)) = Gamma (IZR N + 1)) by (rewrite !Gamma_zfact by lia; rewrite <- !mult_IZR; f_equal; exact C).
  assert (P4 := Rmult_lt_0_compat _ _ P2 P3). assert (CP : 0 < IZR c). { destruct (Rle_or_lt (IZR c) 0); auto. assert (IZR c * (Gamma (IZR K + 1) * Gamma (IZR (N - K) + 1)) <= 0 * (Gamma (IZR K + 1) * Gamma (IZR (N - K) + 1))) by (apply Rmult_le_compat_r; lra). lra. }
  rewrite <- E, !ln_mult by auto. ring.
Qed.
