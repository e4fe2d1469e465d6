(** * erf as an incomplete gamma function, Gamma(1/2) *)
From Verif Require Import Base FltLemmas ConvLemmas ModelBasic ModelInt ModelElem ModelSpecial ModelApi Spec SpecErf SpecGamma.
From Coq Require Import Lra Psatz.
From Coquelicot Require Import Coquelicot.
From Interval Require Import Tactic.
From Verif Require Import BasicProofs RangeProofs FPErr ExpAcc ErfReal ErfApi GammaInt GammaApi SpecInc IncBeta IncBad IncGamApi LogExpLaws ExpDist.
From Verif Require Import Base ModelBasic ModelInt ModelElem ModelSpecial ModelApi.
Open Scope R_scope.

(** ** The substitution t = s^2 *)
Lemma gih_anti t : 0 < t -> is_derive (fun u => 2 * gint (sqrt u)) t (gi (/ 2) t).
Proof.
  intros T. assert (S := sqrt_lt_R0 t T). evar_last.
  - apply (is_derive_scal (fun u => gint (sqrt u))). apply (is_derive_comp gint sqrt). apply gint_derive. apply is_derive_Reals. apply derivable_pt_lim_sqrt. exact T.
  - change (2 * (/ (2 * sqrt t) * gau (sqrt t)) = gi (/ 2) t). unfold gau, gi. rewrite sqrt_sqrt by lra. replace (/ 2 - 1) with (- / 2) by field. rewrite Rpower_Ropp, Rpower_sqrt by auto. field. lra.
Qed.
Lemma gih a b : 0 < a -> 0 < b -> RInt (gi (/ 2)) a b = 2 * gint (sqrt b) - 2 * gint (sqrt a).
Proof.
  intros A B. apply is_RInt_unique. apply (is_RInt_derive (fun t => 2 * gint (sqrt t)) (gi (/ 2))).
  - intros t Ht. apply gih_anti. unfold Rmin in Ht; destruct Rle_dec; lra.
  - intros t Ht. apply gi_cont. unfold Rmin in Ht; destruct Rle_dec; lra.
Qed.
Lemma gint_lim0 u : (forall n, 0 < u n) -> is_lim_seq u 0 -> is_lim_seq (fun n => 2 * gint (sqrt (u n))) 0.
Proof.
  intros P L. replace (Finite 0) with (Finite ((fun t => 2 * gint t) 0)) by (cbv beta; f_equal; rewrite gint_0; ring).
  apply (is_lim_seq_continuous (fun t => 2 * gint t) (fun n => sqrt (u n))).
  - apply continuity_pt_filterlim. apply (ex_derive_continuous (fun t => 2 * gint t)). exists (2 * gau 0). apply (is_derive_scal gint). apply gint_derive.
  - rewrite <- sqrt_0. apply (is_lim_seq_continuous sqrt u 0); auto. apply continuity_pt_sqrt. lra.
Qed.
Lemma Gamma_half_val : Gamma (/ 2) = sqrt PI.
Proof.
  assert (L := Gamma_lim (/ 2) ltac:(lra)).
  assert (L2 : is_lim_seq (gseq (/ 2)) (sqrt PI)).
  { apply (is_lim_seq_ext (fun n => (sqrt PI - 2 * gtail (sqrt (gb n))) - 2 * gint (sqrt (ga n)))).
    - intros n. assert (P := pos_INR n). unfold gseq. rewrite gih. unfold gtail. field. unfold ga. apply Rinv_0_lt_compat; lra. unfold gb; lra.
    - replace (Finite (sqrt PI)) with (Finite (sqrt PI - 0 - 0)) by (f_equal; ring). apply is_lim_seq_minus'. apply is_lim_seq_minus'. apply is_lim_seq_const.
      + apply (is_lim_seq_le_le (fun _ => 0) _ (fun n => 4 * exp (- (gb n) / 2))).
        * intros n. assert (P := pos_INR n). destruct (gtail_bnd (sqrt (gb n)) (sqrt_pos _)) as (A & B). split. lra. apply Rle_trans with (4 * gau (sqrt (gb n))). lra. apply Rmult_le_compat_l. lra. unfold gau. rewrite sqrt_sqrt by (unfold gb; lra). apply exp_le. unfold gb; lra.
        * apply is_lim_seq_const.
        * replace (Finite 0) with (Rbar_mult 4 0) by (cbn; f_equal; ring). apply is_lim_seq_scal_l. apply exp_b_lim.
      + apply gint_lim0. intros n. assert (P := pos_INR n). unfold ga. apply Rinv_0_lt_compat; lra. apply ga_lim. }
  apply is_lim_seq_unique in L. apply is_lim_seq_unique in L2. rewrite L in L2. injection L2. auto.
Qed.
Lemma P_half z : 0 < z -> gamma_P (/ 2) z = erf_real (sqrt z).
Proof.
  intros Z. unfold gamma_P. rewrite Gamma_half_val.
  assert (L : is_lim_seq (fun n => RInt (gi (/ 2)) (z / (INR n + 1)) z) (2 * gint (sqrt z) - 0)).
  { apply (is_lim_seq_ext (fun n => 2 * gint (sqrt z) - 2 * gint (sqrt (z / (INR n + 1))))).
    - intros n. symmetry. apply gih; auto. assert (P := pos_INR n). apply Rdiv_lt_0_compat; lra.
    - apply is_lim_seq_minus'. apply is_lim_seq_const. apply gint_lim0. intros n. assert (P := pos_INR n). apply Rdiv_lt_0_compat; lra. apply seq0. }
  apply is_lim_seq_unique in L. unfold gi in L. rewrite L. cbn [real]. unfold erf_real. change (RInt (fun t => exp (- (t * t))) 0 (sqrt z)) with (gint (sqrt z)). field. apply Rgt_not_eq. apply sqrt_lt_R0. apply PI_RGT_0.
Qed.
Lemma erf_lip a b m : 0 <= m <= a -> m <= b -> Rabs (erf_real a - erf_real b) <= 113 / 100 * gau m * Rabs (a - b).
Proof.
  intros A B. assert (SP : 177 / 100 <= sqrt PI) by interval. unfold erf_real. change (RInt (fun t => exp (- (t * t))) 0 a) with (gint a). change (RInt (fun t => exp (- (t * t))) 0 b) with (gint b).
  destruct (MVT_gen gint b a gau) as (c & C & E).
  - intros t _. apply gint_derive.
  - intros t _. apply continuity_pt_filterlim. apply (ex_derive_continuous gint). eexists. apply gint_derive.
  - replace (2 / sqrt PI * gint a - 2 / sqrt PI * gint b) with (2 / sqrt PI * (gint a - gint b)) by ring. rewrite E, !Rabs_mult. rewrite (Rabs_pos_eq (gau c)) by (left; apply gau_pos).
    assert (K : gau c <= gau m). { unfold gau. apply exp_le. unfold Rmin, Rmax in C. destruct Rle_dec; nra. }
    assert (K2 : Rabs (2 / sqrt PI) <= 113 / 100). { rewrite Rabs_pos_eq. apply Rmult_le_reg_r with (sqrt PI). lra. replace (2 / sqrt PI * sqrt PI) with 2 by (field; lra). lra. apply Rmult_le_pos. lra. left. apply Rinv_0_lt_compat. lra. }
    rewrite <- Rmult_assoc. apply Rmult_le_compat_r. apply Rabs_pos. apply Rmult_le_compat; auto. apply Rabs_pos. left; apply gau_pos.
Qed.
Lemma erf_le1 x : 0 <= x -> 0 <= erf_real x <= 1.
Proof.
  intros H. assert (SP : 177 / 100 <= sqrt PI) by interval. destruct (gtail_bnd x H) as (A & _). assert (B := gint_nonneg x H). unfold gtail in A. unfold erf_real. change (RInt (fun t => exp (- (t * t))) 0 x) with (gint x).
  assert (I : 0 < / sqrt PI) by (apply Rinv_0_lt_compat; lra). split. unfold Rdiv. nra. apply Rmult_le_reg_r with (sqrt PI). lra. replace (2 / sqrt PI * gint x * sqrt PI) with (2 * gint x) by (field; lra). lra.
Qed.
(** ** The square of the argument *)
Lemma square_val f (x : flt f) : finite x = true -> 7 / 10 <= B2R x <= 300 ->
  finite (x *. x) = true /\ Rabs (B2R (x *. x) - B2R x * B2R x) <= uf f * (B2R x * B2R x) /\ Rabs (sqrt (B2R (x *. x)) - B2R x) <= uf f * B2R x.
Proof.
  intros Fx X. destruct (uf_sm f) as (U0 & U1). destruct (FltLemmas.rnd_rel f (B2R x * B2R x)) as (d & Hd & Ed). { rewrite Rabs_pos_eq by nra. apply Rle_trans with (bpow radix2 (-2)). apply bpow_le. destruct f; cbn; lia. cbn; nra. }
  change (bpow radix2 (- prec f)) with (uf f) in Hd. assert (D1 := Rabs_le_inv _ _ Hd). assert (T : 49 / 100 <= B2R x * B2R x <= 90000) by nra. set (T2 := B2R x * B2R x) in * .
  assert (dT : Rabs (d * T2) <= uf f * T2). { rewrite Rabs_mult, (Rabs_pos_eq T2) by lra. apply Rmult_le_compat_r; lra. } assert (dT2 := Rabs_le_inv _ _ dT). assert (uT : uf f * T2 <= / 16777216 * T2) by (apply Rmult_le_compat_r; lra).
  destruct (fmul_spec x x Fx Fx) as (V & F). { fold T2. rewrite Ed. apply Rlt_le_trans with (bpow radix2 20). apply Rabs_lt. cbn. lra. apply bpow_le. destruct f; cbn; lia. }
  fold T2 in V. rewrite Ed in V. assert (W : B2R (x *. x) - T2 = d * T2) by (rewrite V; ring). split. exact F. split. rewrite W. exact dT.
  set (z := B2R (x *. x)) in * . assert (Z0 : 0 < z) by lra. assert (S0 := sqrt_lt_R0 z Z0). assert (SS : sqrt z * sqrt z = z) by (apply sqrt_sqrt; lra).
  replace (sqrt z - B2R x) with (d * T2 / (sqrt z + B2R x)). 2:{ rewrite <- W. unfold T2. rewrite <- SS at 1. field. lra. }
  unfold Rdiv. rewrite Rabs_mult, Rabs_inv, (Rabs_pos_eq (sqrt z + B2R x)) by lra. apply Rmult_le_reg_r with (sqrt z + B2R x). lra. rewrite Rmult_assoc, Rinv_l, Rmult_1_r by lra. apply Rle_trans with (1 := dT). unfold T2. assert (0 <= uf f * B2R x * sqrt z) by (apply Rmult_le_pos; [apply Rmult_le_pos|]; lra). lra.
Qed.
(** ** The library functions *)
Lemma ig_erf_low : forall v f (x : flt f), finite x = true -> 71 / 100 <= B2R x <= 99 / 100 ->
  exists w e : flt f, rmap (AFlt _) (gcem_incomplete_gamma v (AFlt f (half f)) (AFlt f (x *. x))) = Ok (AFlt f w) /\ gcem_erf v (AFlt f x) = Ok e /\ finite w = true /\ finite e = true /\
  abs_err (B2R w) (B2R e) (1741 * bpow radix2 (- prec f) + bpow radix2 (-48)).
Proof.
  intros v f x Fx X. destruct (uf_sm f) as (U0 & U1). destruct (half_spec f) as (Vh & Fh). destruct (square_val f x Fx ltac:(lra)) as (Fz & Dz & Ds). change (bpow radix2 (- prec f)) with (uf f).
  assert (T : 504 / 1000 <= B2R x * B2R x <= 981 / 1000) by nra. assert (uT : uf f * (B2R x * B2R x) <= / 16777216 * (B2R x * B2R x)) by (apply Rmult_le_compat_r; lra). assert (Dz2 := Rabs_le_inv _ _ Dz). set (z := x *. x) in * .
  destruct (igl v f (half f) z Fh Fz ltac:(rewrite Vh; lra) ltac:(rewrite Vh; lra)) as (w & Ew & Fw & Rw). rewrite Vh, P_half in Rw by lra.
  assert (EE : exists e : flt f, gcem_erf v (AFlt f x) = Ok e /\ finite e = true /\ rel_err (B2R e) (erf_real (B2R x)) (139 * uf f + bpow radix2 (-54))).
  { destruct (api_erf v f x Fx) as (e & Ee & Fe & Re). { rewrite Rabs_pos_eq by lra. split; [|lra]. apply Rle_trans with (bpow radix2 (-1)). apply bpow_le. destruct f; cbn; lia. cbn; lra. } rewrite (Rabs_pos_eq (B2R x)) in Re by lra. destruct (Rle_dec (B2R x) (/ 2)) in Re; [lra|]. destruct (Rle_dec (B2R x) 1) in Re; [|lra]. exists e. split. exact Ee. split. exact Fe. exact Re. }
  destruct EE as (e & Ee & Fe & Re). exists w, e. split. exact Ew. split. exact Ee. split. exact Fw. split. exact Fe. unfold abs_err, rel_err in * .
  assert (S0 := sqrt_pos (B2R z)). assert (L := erf_lip (sqrt (B2R z)) (B2R x) 0 ltac:(lra) ltac:(lra)). assert (g1 := gau_le1 0). assert (g0 := gau_pos 0). assert (E1 := erf_le1 _ S0). assert (E2 := erf_le1 (B2R x) ltac:(lra)).
  assert (L2 : Rabs (erf_real (sqrt (B2R z)) - erf_real (B2R x)) <= 2 * uf f). { apply Rle_trans with (1 := L). apply Rle_trans with (113 / 100 * 1 * (uf f * 1)); [|lra]. apply Rmult_le_compat; try lra. apply Rabs_pos. apply Rle_trans with (1 := Ds). apply Rmult_le_compat_l; lra. }
  rewrite (Rabs_pos_eq (erf_real _)) in Rw by lra. rewrite (Rabs_pos_eq (erf_real _)) in Re by lra. assert (b := bpow_gt_0 radix2 (-54)). replace (bpow radix2 (-49)) with (32 * bpow radix2 (-54)) in * by (cbn; lra). replace (bpow radix2 (-48)) with (64 * bpow radix2 (-54)) by (cbn; lra). set (q := bpow radix2 (-54)) in * .
  assert ((1600 * uf f + 32 * q) * erf_real (sqrt (B2R z)) <= (1600 * uf f + 32 * q) * 1) by (apply Rmult_le_compat_l; lra). assert ((139 * uf f + q) * erf_real (B2R x) <= (139 * uf f + q) * 1) by (apply Rmult_le_compat_l; lra).
  apply Rabs_le_inv in Rw. apply Rabs_le_inv in Re. apply Rabs_le_inv in L2. apply Rabs_le. lra.
Qed.
Lemma ig_erf_up : forall v f (x : flt f), finite x = true -> 325 / 100 <= B2R x <= 300 ->
  exists w e : flt f, rmap (AFlt _) (gcem_incomplete_gamma v (AFlt f (half f)) (AFlt f (x *. x))) = Ok (AFlt f w) /\ gcem_erf v (AFlt f x) = Ok e /\ finite w = true /\ finite e = true /\
  abs_err (B2R w) (B2R e) (29 * bpow radix2 (- prec f) + bpow radix2 (-54)).
Proof.
  intros v f x Fx X. destruct (uf_sm f) as (U0 & U1). destruct (half_spec f) as (Vh & Fh). destruct (square_val f x Fx ltac:(lra)) as (Fz & Dz & Ds). change (bpow radix2 (- prec f)) with (uf f).
  assert (T : 1056 / 100 <= B2R x * B2R x <= 90000) by nra. assert (uT : uf f * (B2R x * B2R x) <= / 16777216 * (B2R x * B2R x)) by (apply Rmult_le_compat_r; lra). assert (Dz2 := Rabs_le_inv _ _ Dz). set (z := x *. x) in * .
  destruct (igu v f (half f) z Fh Fz ltac:(rewrite Vh; lra) ltac:(rewrite Vh; lra)) as (w & Ew & Fw & Rw). rewrite Vh, P_half in Rw by lra.
  assert (EE : exists e : flt f, gcem_erf v (AFlt f x) = Ok e /\ finite e = true /\ abs_err (B2R e) (erf_real (B2R x)) (2 * uf f + bpow radix2 (-60))) by (apply (api_erf_large v f x Fx); rewrite Rabs_pos_eq; lra).
  destruct EE as (e & Ee & Fe & Re). exists w, e. split. exact Ew. split. exact Ee. split. exact Fw. split. exact Fe. unfold abs_err in * .
  assert (ux : uf f * B2R x <= / 16777216 * B2R x) by (apply Rmult_le_compat_r; lra). assert (Ds2 := Rabs_le_inv _ _ Ds). assert (L := erf_lip (sqrt (B2R z)) (B2R x) 3 ltac:(lra) ltac:(lra)). assert (g1 : gau 3 <= / 1000) by (unfold gau; interval). assert (g0 := gau_pos 3).
  assert (L2 : Rabs (erf_real (sqrt (B2R z)) - erf_real (B2R x)) <= 4 / 10 * uf f). { apply Rle_trans with (1 := L). apply Rle_trans with (113 / 100 * / 1000 * (uf f * 300)); [|lra]. apply Rmult_le_compat; try lra. apply Rabs_pos. apply Rle_trans with (1 := Ds). apply Rmult_le_compat_l; lra. }
  assert (b := bpow_gt_0 radix2 (-60)). replace (bpow radix2 (-55)) with (32 * bpow radix2 (-60)) in * by (cbn; lra). replace (bpow radix2 (-54)) with (64 * bpow radix2 (-60)) by (cbn; lra). set (q := bpow radix2 (-60)) in * .
  apply Rabs_le_inv in Rw. apply Rabs_le_inv in Re. apply Rabs_le_inv in L2. apply Rabs_le. lra.
Qed.
Lemma tgamma_half : forall v n f, exists w : flt f, gcem_tgamma v (S n) (AFlt f (half f)) = Ok w /\ finite w = true /\ rel_err (B2R w) (sqrt PI) (178 * bpow radix2 (- prec f) + bpow radix2 (-51)).
Proof.
  intros v n f. destruct (uf_sm f) as (U0 & U1). destruct (half_spec f) as (Vh & Fh).
  assert (EW : exists w : flt f, gcem_tgamma v (S n) (AFlt f (half f)) = Ok w /\ finite w = true /\ rel_err (B2R w) (Gamma (B2R (half f))) ((15 * B2R (half f) * ln (B2R (half f) + 5) + 165) * bpow radix2 (- prec f) + (2 * B2R (half f) + 5) * bpow radix2 (-54))) by (apply (api_tgamma v n f (half f) Fh); rewrite Vh; destruct f; lra).
  destruct EW as (w & Ew & Fw & Rw). exists w. split. exact Ew. split. exact Fw. rewrite Vh, Gamma_half_val in Rw. unfold rel_err in * . apply Rle_trans with (1 := Rw). apply Rmult_le_compat_r. apply Rabs_pos. change (bpow radix2 (- prec f)) with (uf f).
  assert (ln (/ 2 + 5) <= 171 / 100) by interval. assert ((15 * / 2 * ln (/ 2 + 5) + 165) * uf f <= 178 * uf f) by (apply Rmult_le_compat_r; lra). assert (b := bpow_gt_0 radix2 (-54)). replace (bpow radix2 (-51)) with (8 * bpow radix2 (-54)) by (cbn; lra). lra.
Qed.
