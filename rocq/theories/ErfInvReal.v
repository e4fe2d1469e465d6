(** * The inverse error function over the reals: starting value and mean value bounds *)
From Coq Require Import Reals Lra Lia.
From Coquelicot Require Import Coquelicot.
From Interval Require Import Tactic.
From Verif Require Import Base Spec SpecErf ErfReal ErfApi.
Open Scope R_scope.

Definition A2 : R := 2 / sqrt PI.
Lemma A2_rng : 11283 / 10000 <= A2 <= 11284 / 10000.
Proof. unfold A2. split; interval. Qed.
Lemma erf_derive x : is_derive erf_real x (A2 * gau x).
Proof. apply (is_derive_scal gint x A2 (gau x)). apply gint_derive. Qed.
Lemma erf_0 : erf_real 0 = 0.
Proof. unfold erf_real. rewrite RInt_point. unfold zero. cbn. ring. Qed.
Lemma erf_mvt x y : exists c, Rmin x y <= c <= Rmax x y /\ erf_real y - erf_real x = A2 * gau c * (y - x).
Proof.
  destruct (MVT_gen erf_real x y (fun c => A2 * gau c)) as (c & C & E).
  - intros t _. apply erf_derive.
  - intros t _. apply continuity_pt_filterlim. apply (ex_derive_continuous erf_real). exists (A2 * gau t). apply erf_derive.
  - exists c. auto.
Qed.
Lemma gau_dec x y : 0 <= x <= y -> gau y <= gau x.
Proof. intros H. unfold gau. apply Raux.exp_le. assert (x * x <= y * y) by (apply Rmult_le_compat; lra). lra. Qed.
Lemma erf_le x : 0 <= x -> erf_real x <= A2 * x /\ A2 * gau x * x <= erf_real x.
Proof.
  intros X. destruct (erf_mvt 0 x) as (c & C & E). rewrite erf_0, Rmin_left, Rmax_right in * by lra. assert (A := A2_rng). assert (G := gau_pos c). assert (G1 := gau_le1 c). assert (Gx := gau_dec c x ltac:(lra)). assert (gx := gau_pos x).
  replace (erf_real x) with (A2 * gau c * x) by lra. split.
  - apply Rmult_le_compat_r; auto. rewrite <- (Rmult_1_r A2) at 2. apply Rmult_le_compat_l; lra.
  - apply Rmult_le_compat_r; auto. apply Rmult_le_compat_l; lra.
Qed.
Lemma erf_abs x : Rabs (erf_real x) = erf_real (Rabs x).
Proof.
  assert (P : forall y, 0 <= y -> 0 <= erf_real y). { intros y Y. rewrite <- erf_0. apply erf_mono; auto. }
  destruct (Rle_or_lt 0 x). rewrite !Rabs_pos_eq; auto. rewrite (Rabs_left x), erf_odd by auto. assert (Q := P (- x) ltac:(lra)). rewrite erf_odd in Q. rewrite Rabs_left1; lra.
Qed.
Lemma erf_lt_inv x y : erf_real x < erf_real y -> x < y.
Proof. intros H. destruct (Rlt_or_le x y); auto. assert (M := erf_mono y x H0). lra. Qed.

(** ** Values *)
Lemma erf_05 : 5204 / 10000 <= erf_real (/ 2).
Proof. unfold erf_real. assert (I : 4612 / 10000 <= RInt (fun t => exp (- (t * t))) 0 (/ 2)) by integral with (i_fuel 50). assert (A := A2_rng). fold A2. assert (A2 * (4612 / 10000) <= A2 * RInt (fun t => exp (- (t * t))) 0 (/ 2)) by (apply Rmult_le_compat_l; lra). assert (B : 1128375 / 1000000 <= A2) by (unfold A2; interval). lra. Qed.

(** ** The starting value *)
Definition P8 (t : R) : R := 150140941000 / 100000000000 + t * (24664072700 / 100000000000 + t * (- 4177681640 / 1000000000000 + t * (- 125372503 / 100000000000 + t * (21858087 / 100000000000 + t * (- 439150654 / 100000000000000 + t * (- 35233877 / 10000000000000 + t * (343273939 / 1000000000000000 + t * (281022636 / 10000000000000000)))))))).
Definition P8' (t : R) : R := 24664072700 / 100000000000 + t * (2 * (- 4177681640 / 1000000000000) + t * (3 * (- 125372503 / 100000000000) + t * (4 * (21858087 / 100000000000) + t * (5 * (- 439150654 / 100000000000000) + t * (6 * (- 35233877 / 10000000000000) + t * (7 * (343273939 / 1000000000000000) + t * (8 * (281022636 / 10000000000000000)))))))).
Definition ii (p : R) : R := p * P8 (- ln (1 - p * p) - 5 / 2).
Definition ii' (p : R) : R := P8 (- ln (1 - p * p) - 5 / 2) + p * P8' (- ln (1 - p * p) - 5 / 2) * (2 * p / (1 - p * p)).
Lemma P8_derive t : is_derive P8 t (P8' t).
Proof. unfold P8, P8'. auto_derive; auto. ring. Qed.
Lemma ii_derive p : -1 < p < 1 -> is_derive ii p (ii' p).
Proof.
  intros H. assert (Q : 0 < 1 - p * p) by nra. unfold ii, ii'. 
  evar_last. apply @is_derive_mult. apply is_derive_id. apply (is_derive_comp P8 (fun p => - ln (1 - p * p) - 5 / 2) p). apply P8_derive. instantiate (1 := 2 * p / (1 - p * p)). auto_derive. auto. field. lra. intros; apply Rmult_comm.
  unfold mult, plus, scal, one; cbn. unfold mult; cbn. ring.
Qed.
Lemma ii_der_bnd p : 0 <= p <= 95 / 100 -> Rabs (A2 * gau (ii p) * ii' p - 1) <= / 100000.
Proof. intros H. unfold A2, gau, ii, ii', P8, P8'. interval with (i_bisect p, i_taylor p, i_prec 60, i_depth 12). Qed.
Lemma erf_1 : 8405 / 10000 <= erf_real 1.
Proof. unfold erf_real. assert (I : 7460 / 10000 <= RInt (fun t => exp (- (t * t))) 0 1) by integral with (i_fuel 50). assert (A := A2_rng). fold A2. assert (A2 * (7460 / 10000) <= A2 * RInt (fun t => exp (- (t * t))) 0 1) by (apply Rmult_le_compat_l; lra). lra. Qed.
Lemma erf_135 : 9402 / 10000 <= erf_real (135 / 100).
Proof. unfold erf_real. assert (I : 836 / 1000 <= RInt (fun t => exp (- (t * t))) 0 (135 / 100)) by integral with (i_fuel 50). assert (A := A2_rng). fold A2. assert (A2 * (836 / 1000) <= A2 * RInt (fun t => exp (- (t * t))) 0 (135 / 100)) by (apply Rmult_le_compat_l; lra). lra. Qed.

Lemma ii_pos p : 0 <= p <= 95 / 100 -> Rabs (erf_real (ii p) - p) <= / 100000 * p.
Proof.
  intros H. destruct (MVT_gen (fun p => erf_real (ii p) - p) 0 p (fun c => ii' c * (A2 * gau (ii c)) - 1)) as (c & C & E).
  - intros t T. rewrite Rmin_left, Rmax_right in T by lra. evar_last. apply @is_derive_minus. apply (is_derive_comp erf_real ii). apply erf_derive. apply ii_derive; lra. apply @is_derive_id. unfold minus, plus, opp, scal, one; cbn. unfold mult; cbn. ring.
  - intros t T. rewrite Rmin_left, Rmax_right in T by lra. apply continuity_pt_filterlim. apply (ex_derive_continuous (fun p => erf_real (ii p) - p)). exists (ii' t * (A2 * gau (ii t)) - 1).
    evar_last. apply @is_derive_minus. apply (is_derive_comp erf_real ii). apply erf_derive. apply ii_derive; lra. apply @is_derive_id. unfold minus, plus, opp, scal, one; cbn. unfold mult; cbn. ring.
  - rewrite Rmin_left, Rmax_right in C by lra. assert (I0 : ii 0 = 0) by (unfold ii; ring). rewrite I0, erf_0 in E. replace (erf_real (ii p) - p) with ((ii' c * (A2 * gau (ii c)) - 1) * (p - 0)) by lra.
    rewrite Rminus_0_r, Rabs_mult, (Rabs_pos_eq p) by lra. apply Rmult_le_compat_r. lra. replace (ii' c * (A2 * gau (ii c)) - 1) with (A2 * gau (ii c) * ii' c - 1) by ring. apply ii_der_bnd. lra.
Qed.
Lemma ii_odd p : ii (- p) = - ii p.
Proof. unfold ii. replace (- p * - p) with (p * p) by ring. ring. Qed.
Lemma ii_init p : Rabs p <= 95 / 100 -> Rabs (erf_real (ii p) - p) <= / 100000 * Rabs p.
Proof.
  intros H. destruct (Rle_or_lt 0 p) as [P|P]. rewrite Rabs_pos_eq in * by auto. rewrite (Rabs_pos_eq p) in * by auto. apply ii_pos; lra.
  rewrite (Rabs_left p) in * by auto. assert (Q := ii_pos (- p) ltac:(lra)). rewrite ii_odd, erf_odd in Q. replace (- erf_real (ii p) - - p) with (- (erf_real (ii p) - p)) in Q by ring. rewrite Rabs_Ropp in Q. exact Q.
Qed.
Lemma erf_lip x y : Rabs (erf_real x - erf_real y) <= A2 * Rabs (x - y).
Proof.
  destruct (erf_mvt y x) as (c & C & ->). assert (A := A2_rng). assert (G := gau_pos c). assert (G1 := gau_le1 c). rewrite Rabs_mult. apply Rmult_le_compat_r. apply Rabs_pos. rewrite Rabs_pos_eq. rewrite <- (Rmult_1_r A2) at 2. apply Rmult_le_compat_l; lra. apply Rmult_le_pos; lra.
Qed.

(** ** One step *)
Lemma exp_near1 t : Rabs t <= 541 / 100000 -> 9946 / 10000 <= exp t <= 10055 / 10000.
Proof. intros H. apply Rabs_le_inv in H. split; interval. Qed.
Lemma step_real x x' y d h E p dl dx u : E = erf_real x - p -> Rabs p <= 94 / 100 -> Rabs E <= / 10000 * Rabs p -> Rabs x <= 135 / 100 ->
  Rabs (y - x) <= / 1000 -> Rabs (d - gau y) <= / 100000 * gau y -> Rabs (h - 1) <= 13 / 10000 -> Rabs (x' - x) <= 12 / 10000 * Rabs p -> Rabs (x' - x) <= / 1000 ->
  0 <= u -> Rabs dx <= u * (Rabs x + 51 / 100 * Rabs p) -> x' = x - (E + dl) / (d * h) + dx ->
  Rabs (erf_real x' - p) <= 137 / 1000 * Rabs E + 1137 / 1000 * Rabs dl + 16 / 10 * u * Rabs p.
Proof.
  intros HE P He X Y D H C C2 u0 DX EX. assert (A := A2_rng). destruct (erf_mvt x x') as (c & Hc & M). assert (G0 := gau_pos c). assert (G1 := gau_le1 c). assert (gy := gau_pos y). assert (p0 := Rabs_pos p).
  assert (CX : Rabs (c - x) <= Rabs (x' - x)). { unfold Rmin, Rmax in Hc. destruct (Rle_dec x x'). rewrite !Rabs_pos_eq; lra. rewrite (Rabs_left1 (c - x)), (Rabs_left1 (x' - x)); lra. }
  set (g := A2 * gau c) in * . assert (g0 : 0 < g) by (apply Rmult_lt_0_compat; lra). assert (g1 : g <= 11284 / 10000). { unfold g. assert (A2 * gau c <= A2 * 1) by (apply Rmult_le_compat_l; lra). lra. }
  (* the slope *)
  set (e := (d - gau y) / gau y). assert (Ed : d = gau y * (1 + e)) by (unfold e; field; lra).
  assert (He' : Rabs e <= / 100000). { unfold e. rewrite Rabs_div by lra. rewrite (Rabs_pos_eq (gau y)) by lra. apply (Rmult_le_reg_r (gau y)); auto. unfold Rdiv. rewrite Rmult_assoc, Rinv_l by lra. lra. }
  set (t := exp (y * y - c * c)). assert (Et : gau c = gau y * t). { unfold gau, t. rewrite <- exp_plus. f_equal. ring. }
  assert (T : 9946 / 10000 <= t <= 10055 / 10000).
  { apply exp_near1. replace (y * y - c * c) with ((y - c) * (y + c)) by ring. rewrite Rabs_mult. assert (Rabs (y - c) <= 2 / 1000). { replace (y - c) with ((y - x) - (c - x)) by ring. eapply Rle_trans. apply Rabs_triang. rewrite Rabs_Ropp. lra. }
    assert (Rabs (y + c) <= 2702 / 1000). { replace (y + c) with ((y - x) + (c - x) + 2 * x) by ring. eapply Rle_trans. apply Rabs_triang. rewrite (Rabs_mult 2 x), (Rabs_pos_eq 2) by lra. eapply Rle_trans. apply Rplus_le_compat_r. apply Rabs_triang. lra. }
    apply Rle_trans with (2 / 1000 * (2702 / 1000)). apply Rmult_le_compat; auto; apply Rabs_pos. lra. }
  apply Rabs_le_inv in H. apply Rabs_le_inv in He'. set (r := A2 * t / ((1 + e) * h)).
  assert (Rr : 112 / 100 <= r <= 11369 / 10000). { unfold r. set (a := A2) in * . clearbody a t e. assert (H2 : 9987 / 10000 <= h <= 10013 / 10000) by lra. clear -A H2 He' T. split; interval. }
  assert (RE : erf_real x' - p = E * (1 - r) - r * dl + g * dx).
  { replace (erf_real x' - p) with (E + (erf_real x' - erf_real x)) by lra. rewrite M, EX. unfold r, g. rewrite Ed, Et. field. repeat split; lra. }
  rewrite RE. assert (B1 : Rabs (E * (1 - r)) <= 137 / 1000 * Rabs E). { rewrite Rabs_mult, Rmult_comm. apply Rmult_le_compat_r. apply Rabs_pos. rewrite Rabs_left; lra. }
  assert (B2 : Rabs (r * dl) <= 1137 / 1000 * Rabs dl). { rewrite Rabs_mult. apply Rmult_le_compat_r. apply Rabs_pos. rewrite Rabs_pos_eq; lra. }
  assert (B3 : Rabs (g * dx) <= 16 / 10 * u * Rabs p).
  { rewrite Rabs_mult, (Rabs_pos_eq g) by lra. apply Rle_trans with (g * (u * (Rabs x + 51 / 100 * Rabs p))). apply Rmult_le_compat_l; lra.
    assert (GX : g * Rabs x <= 101 / 100 * Rabs p).
    { assert (L : g * Rabs c <= erf_real (Rabs c)). { unfold g. replace (gau c) with (gau (Rabs c)). apply erf_le. apply Rabs_pos. unfold gau. f_equal. f_equal. unfold Rabs. destruct Rcase_abs; ring. }
      assert (XC : Rabs x <= Rabs c + Rabs (c - x)). { replace x with (c - (c - x)) at 1 by ring. eapply Rle_trans. apply Rabs_triang. rewrite Rabs_Ropp. lra. }
      rewrite <- erf_abs in L. assert (LC := erf_lip c x). assert (EXp : Rabs (erf_real x) <= 10001 / 10000 * Rabs p). { replace (erf_real x) with (E + p) by lra. eapply Rle_trans. apply Rabs_triang. lra. }
      assert (Rabs (erf_real c) <= Rabs (erf_real x) + Rabs (erf_real c - erf_real x)). { replace (erf_real c) with (erf_real x + (erf_real c - erf_real x)) at 1 by ring. apply Rabs_triang. }
      assert (A2 * Rabs (c - x) <= 11284 / 10000 * (12 / 10000 * Rabs p)) by (apply Rmult_le_compat; try lra; apply Rabs_pos). assert (g * Rabs x <= g * (Rabs c + Rabs (c - x))) by (apply Rmult_le_compat_l; lra). assert (g * Rabs (c - x) <= 11284 / 10000 * (12 / 10000 * Rabs p)) by (apply Rmult_le_compat; try lra; apply Rabs_pos). lra. }
    assert (g * (51 / 100 * Rabs p) <= 11284 / 10000 * (51 / 100 * Rabs p)) by (apply Rmult_le_compat_r; lra).
    replace (g * (u * (Rabs x + 51 / 100 * Rabs p))) with (u * (g * Rabs x + g * (51 / 100 * Rabs p))) by ring. replace (16 / 10 * u * Rabs p) with (u * (16 / 10 * Rabs p)) by ring. apply Rmult_le_compat_l; lra. }
  eapply Rle_trans. apply Rabs_triang. eapply Rle_trans. apply Rplus_le_compat_r. apply (Rabs_triang (E * (1 - r)) (- (r * dl))). rewrite Rabs_Ropp. lra.
Qed.
