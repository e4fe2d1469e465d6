(** * Constants, small powers, integral arguments, witnesses *)
From Coq Require Import Lra Psatz.
From Interval Require Import Tactic.
From Verif Require Import Base ModelBasic ModelInt ModelElem ModelSpecial ModelApi FltLemmas ConvLemmas Spec IntProofs BasicProofs SymLemmas ScaleProofs TotalProofs ExpTotal EdgeProofs DomainProofs LimitProofs SymProofs RangeProofs.
Open Scope R_scope.

(** ** The constants pi and pi/2 *)
Lemma B2R_sf {f} (x : flt f) s : B2SF x = s -> B2R x = SF2R radix2 s.
Proof. intros <-. destruct x; reflexivity. Qed.
Lemma pi_val f : finite (conv f GCEM_PI) = true /\ abs_err (B2R (conv f GCEM_PI)) PI (bpow radix2 (1 - prec f)).
Proof.
  unfold abs_err. destruct f; (split; [vm_compute; reflexivity|]).
  - rewrite (B2R_sf (conv F32 GCEM_PI) (SpecFloat.S754_finite false 13176795 (-22))) by (vm_compute; reflexivity).
    unfold SF2R, F2R. cbn. interval with (i_prec 120).
  - rewrite (B2R_sf (conv F64 GCEM_PI) (SpecFloat.S754_finite false 7074237752028440 (-51))) by (vm_compute; reflexivity).
    unfold SF2R, F2R. cbn. interval with (i_prec 120).
  - rewrite (B2R_sf (conv F80 GCEM_PI) (SpecFloat.S754_finite false 14488038916154245685 (-62))) by (vm_compute; reflexivity).
    unfold SF2R, F2R. cbn. interval with (i_prec 120).
Qed.
Lemma half_pi_val f : finite (conv f GCEM_HALF_PI) = true /\ abs_err (B2R (conv f GCEM_HALF_PI)) (PI / 2) (bpow radix2 (- prec f)).
Proof.
  unfold abs_err. destruct f; (split; [vm_compute; reflexivity|]).
  - rewrite (B2R_sf (conv F32 GCEM_HALF_PI) (SpecFloat.S754_finite false 13176795 (-23))) by (vm_compute; reflexivity).
    unfold SF2R, F2R. cbn. interval with (i_prec 120).
  - rewrite (B2R_sf (conv F64 GCEM_HALF_PI) (SpecFloat.S754_finite false 7074237752028440 (-52))) by (vm_compute; reflexivity).
    unfold SF2R, F2R. cbn. interval with (i_prec 120).
  - rewrite (B2R_sf (conv F80 GCEM_HALF_PI) (SpecFloat.S754_finite false 14488038916154245685 (-63))) by (vm_compute; reflexivity).
    unfold SF2R, F2R. cbn. interval with (i_prec 120).
Qed.

(** ** pow(x, n) for small and for extreme n *)
Lemma api_pow_small v f (x : flt f) t :
  gcem_pow v (AFlt f x) (AInt t 0) = Ok (AFlt f (ofZ f 1)) /\ gcem_pow v (AFlt f x) (AInt t 1) = Ok (AFlt f x) /\
  gcem_pow v (AFlt f x) (AInt t 2) = Ok (AFlt f (x *. x)) /\ gcem_pow v (AFlt f x) (AInt t 3) = Ok (AFlt f (x *. x *. x)).
Proof. repeat match goal with |- _ /\ _ => split end; reflexivity. Qed.
Lemma api_pow_extreme v f (x : flt f) t :
  gcem_pow v (AFlt f x) (AInt t (imax t)) = Ok (AFlt f (B754_infinity false)) /\
  (isigned t = true -> gcem_pow v (AFlt f x) (AInt t (imin t)) = Ok (AFlt f (B754_zero false))).
Proof.
  split; [|intros H]; unfold gcem_pow, pow_integral, pow_cases_flt.
  - destruct t; reflexivity.
  - rewrite <- ofZ_0. destruct t; try discriminate; reflexivity.
Qed.

(** ** log of an integral argument *)
Lemma log_int_nonneg v t z : (0 <= z)%Z -> gcem_log v (AInt t z) = gcem_log v (AFlt F64 (ofZ F64 z)).
Proof.
  intros H. unfold gcem_log. destruct (Z.eqb_spec z 0) as [->|N0].
  - symmetry. change (log_check v (ofZ F64 0) = Ok (ninf_ F64)). destruct v; conc.
  - destruct (Z.ltb_spec 1 z) as [L|L]; auto. replace z with 1%Z by lia. symmetry. change (log_check v (ofZ F64 1) = Ok (ofZ F64 0)). destruct v; conc.
Qed.
Lemma ofZ_neg t z : in_range t z -> (z < 0)%Z -> below (ofZ F64 z) 0.
Proof.
  intros R H. destruct (ofZ_ity F64 t z R) as (n & F & V).
  assert (G := ofZ_gen F64 z). destruct G as (G1 & G2 & _).
  { apply rnd_lt_emax with (bpow radix2 64). apply fmt_bpow; vm_compute; discriminate. apply bpow_lt; reflexivity.
    rewrite <- abs_IZR, bpow_IZR by lia. apply IZR_le. apply (ity_bound t); auto. }
  assert (N : B2R (ofZ F64 z) < 0).
  { rewrite G1. apply Rle_lt_trans with (-1); [|lra]. apply rnd_le_fmt. change (-1) with (IZR (-1)). apply fmt_IZR; vm_compute; discriminate.
    apply IZR_le. lia. }
  destruct (ofZ F64 z); try discriminate; exact N.
Qed.
Lemma log_int_neg v t z : in_range t z -> (z < 0)%Z ->
  gcem_log v (AInt t z) = Ok (B754_zero false) /\ gcem_log v (AFlt F64 (ofZ F64 z)) = Ok (nan_ F64).
Proof.
  intros R H. split.
  - unfold gcem_log. rewrite (proj2 (Z.eqb_neq z 0)), (proj2 (Z.ltb_ge 1 z)) by lia. rewrite ofZ_0. reflexivity.
  - change (log_check v (ofZ F64 z) = Ok (nan_ F64)). apply log_dom. apply (ofZ_neg t z); auto.
Qed.

(** ** asinh, tanh, atan: counterexamples *)
Lemma asinh_not_odd v f : exists x, finite x = true /\ gcem_asinh v (AFlt f (-. x)) = Ok (ninf_ f) /\
  exists w, gcem_asinh v (AFlt f x) = Ok w /\ finite w = true.
Proof.
  exists (ofZ f (2 ^ 40)). split; [destruct f; vm_compute; reflexivity|]. split; [destruct v, f; conc|].
  destruct (asinh_ok v (ofZ f (2 ^ 40))) as (w & E). exists w. split; auto.
  assert (G : sf_of (asinh_compute v (ofZ f (2 ^ 40))) = Some (B2SF w)) by (rewrite E; reflexivity).
  assert (K : match sf_of (asinh_compute v (ofZ f (2 ^ 40))) with Some s => is_finite_SF s | None => false end = true) by (destruct v, f; vm_compute; reflexivity).
  rewrite G, is_finite_SF_B2SF in K. auto.
Qed.

Lemma tanh_above_one v f : exists w, gcem_tanh v (AFlt f (ofZ f 100)) = Ok w /\ finite w = true /\ 1 < B2R w.
Proof.
  destruct (tanh_ok v (ofZ f 100)) as (w & E). exists w. split; auto.
  assert (G : sf_of (tanh_check v (ofZ f 100)) = Some (B2SF w)) by (rewrite E; reflexivity).
  assert (K : match sf_of (tanh_check v (ofZ f 100)) with Some s => is_finite_SF s && SpecFloat.SFltb (B2SF (ofZ f 1)) s | None => false end = true) by (destruct v, f; vm_compute; reflexivity).
  rewrite G, is_finite_SF_B2SF in K. apply andb_prop in K. destruct K as (K1 & K2). split; auto.
  assert (L : (ofZ f 1 <. w) = true).
  { exact K2. }
  apply flt_true_inv in L; auto; [|apply one_val]. rewrite (proj2 (one_val f)) in L. auto.
Qed.
Lemma atan_11_14_differ : exists x : flt F64, finite x = true /\ exists w w', 
  gcem_atan Cxx11 (AFlt F64 x) = Ok w /\ gcem_atan Cxx14 (AFlt F64 x) = Ok w' /\ B2R w <> B2R w'.
Proof.
  exists (dec F64 3046648 6). split; [vm_compute; reflexivity|].
  destruct (atan_ok Cxx11 (dec F64 3046648 6)) as (w & E). destruct (atan_ok Cxx14 (dec F64 3046648 6)) as (w' & E').
  exists w, w'. repeat match goal with |- _ /\ _ => split end; auto.
  assert (G : sf_of (atan_check Cxx11 (dec F64 3046648 6)) = Some (B2SF w)) by (rewrite E; reflexivity).
  assert (G' : sf_of (atan_check Cxx14 (dec F64 3046648 6)) = Some (B2SF w')) by (rewrite E'; reflexivity).
  vm_compute in G, G'. injection G as G. injection G' as G'.
  intros C. assert (C' : @B2R (prec F64) (emax F64) w = @B2R (prec F64) (emax F64) w') by exact C.
  assert (V := B2R_sf (f:=F64) w _ (eq_sym G)). assert (V' := B2R_sf (f:=F64) w' _ (eq_sym G')).
  unfold SF2R, F2R in V, V'. cbn [cond_Zopp Fnum Fexp] in V, V'.
  assert (P : 0 < bpow radix2 (-52)) by apply bpow_gt_0.
  assert (E50 : bpow radix2 (-50) = 4 * bpow radix2 (-52)) by (cbn; lra).
  lra.
Qed.

(** ** Totality of the public functions *)
Lemma api_total_unary v a :
  ok (gcem_floor a) /\ ok (gcem_ceil a) /\ ok (gcem_trunc a) /\ ok (gcem_round a) /\ ok (gcem_sqrt a) /\ ok (gcem_inv_sqrt a) /\
  ok (gcem_log v a) /\ ok (gcem_log1p v a) /\ ok (gcem_log2 v a) /\ ok (gcem_log10 v a) /\
  ok (gcem_tan a) /\ ok (gcem_sin a) /\ ok (gcem_cos a) /\ ok (gcem_atan v a) /\ ok (gcem_asin v a) /\ ok (gcem_acos v a) /\
  ok (gcem_tanh v a) /\ ok (gcem_asinh v a) /\ ok (gcem_acosh v a) /\ ok (gcem_atanh v a) /\ ok (gcem_lgamma v a).
Proof.
  assert (L : ok (gcem_log v a)).
  { destruct a; cbn [gcem_log]; [|apply log_ok]. destruct (_ =? _)%Z; [|destruct (_ <? _)%Z]; try apply ok_Ok. apply log_ok. }
  refine (conj (floor_total (ret_val a)) (conj (ceil_total (ret_val a)) (conj (trunc_total (ret_val a)) (conj (round_total (ret_val a)) (conj _ (conj _ (conj L (conj _ (conj _ (conj _ _)))))))))).
  - apply sqrt_ok.
  - apply inv_sqrt_ok.
  - apply log1p_ok.
  - destruct L as (l & L). unfold gcem_log2. rewrite L. apply ok_Ok.
  - destruct L as (l & L). unfold gcem_log10. rewrite L. apply ok_Ok.
  - exact (conj (tan_ok (ret_val a)) (conj (sin_ok (ret_val a)) (conj (cos_ok (ret_val a)) (conj (atan_ok v (ret_val a)) (conj (asin_ok v (ret_val a)) (conj (acos_ok v (ret_val a))
      (conj (tanh_ok v (ret_val a)) (conj (asinh_ok v (ret_val a)) (conj (acosh_ok v (ret_val a)) (conj (atanh_ok v (ret_val a)) (lgamma_ok v (ret_val a)))))))))))).
Qed.
Lemma api_total_binary v a b :
  ok (gcem_fmod a b) /\ ok (gcem_hypot a b) /\ ok (gcem_atan2 v a b) /\ ok (gcem_log_binomial_coef v a b) /\
  (match a, b with AInt _ _, AInt _ _ => False | _, _ => True end -> ok (gcem_lbeta v a b)).
Proof.
  repeat match goal with |- _ /\ _ => split end; [apply fmod_ok|apply hypot_ok|apply atan2_ok|apply lbc_ok|].
  intros H. unfold gcem_lbeta. destruct (lgamma_arg_ok v a) as (la & ->). destruct (lgamma_arg_ok v b) as (lb & ->). cbn [bind].
  assert (A : ok (arg_add a b)) by (destruct a, b; try contradiction; apply ok_Ok). destruct A as (s & ->). cbn [bind].
  destruct (lgamma_arg_ok v s) as (ls & ->). apply ok_Ok.
Qed.
Lemma lbeta_int_overflow v : gcem_lbeta v (AInt I32 2147483647) (AInt I32 1) = Ub UbOverflow.
Proof.
  unfold gcem_lbeta. destruct (lgamma_arg_ok v (AInt I32 2147483647)) as (la & ->). destruct (lgamma_arg_ok v (AInt I32 1)) as (lb & ->). reflexivity.
Qed.

(** ** Domain errors of the incomplete functions *)
Lemma api_domain_incomplete v f (a z : flt f) :
  (below a 0 -> rmap (AFlt _) (gcem_incomplete_gamma v (AFlt f a) (AFlt f z)) = Ok (AFlt f (nan_ f))) /\
  (above z 1 -> rmap (AFlt _) (gcem_incomplete_gamma_inv v (AFlt f a) (AFlt f z)) = Ok (AFlt f (nan_ f))).
Proof.
  assert (E : fmt_max f f = f) by (destruct f; reflexivity).
  unfold gcem_incomplete_gamma, gcem_incomplete_gamma_inv, lift2. cbn [cr_fmt to_fmt]. rewrite E, !conv_id.
  split; intros H; [rewrite ig_dom by auto|rewrite igi_dom by auto]; reflexivity.
Qed.

(** ** Recursion depth *)
Lemma scaling_depth {f} (x : flt f) : finite x = true -> bpow radix2 (2 - emax f) <= B2R x -> f <> F80 ->
  ok (mantissa (Z.to_nat 340) x) /\ ok (find_exponent (Z.to_nat 340) x 0) /\ ok (sqrt_simplify (Z.to_nat 65) x (ofZ f 1)).
Proof.
  intros Fx Hx Nf. repeat match goal with |- _ /\ _ => split end.
  - destruct (mantissa_depth x Fx Hx) as (m & E & _). exists m. eapply mantissa_mono; [|exact E].
    apply Nat.leb_le. destruct f; try contradiction; vm_compute; reflexivity.
  - destruct (find_exponent_depth x Fx Hx) as (m & E & _). exists m. eapply find_exponent_mono; [|exact E].
    apply Nat.leb_le. destruct f; try contradiction; vm_compute; reflexivity.
  - destruct (sqrt_simplify_depth x (ofZ f 1) Fx) as (w & E). exists w. eapply sqrt_simplify_mono; [|exact E].
    apply Nat.leb_le. destruct f; try contradiction; vm_compute; reflexivity.
Qed.

(** ** Integral arguments *)
Lemma api_integral v n t z p : let a := AInt t z in let d := AFlt F64 (ofZ F64 z) in
  gcem_floor a = gcem_floor d /\ gcem_ceil a = gcem_ceil d /\ gcem_trunc a = gcem_trunc d /\ gcem_round a = gcem_round d /\
  gcem_sqrt a = gcem_sqrt d /\ gcem_inv_sqrt a = gcem_inv_sqrt d /\ gcem_exp v a = gcem_exp v d /\ gcem_expm1 v a = gcem_expm1 v d /\
  gcem_log1p v a = gcem_log1p v d /\ gcem_tan a = gcem_tan d /\ gcem_sin a = gcem_sin d /\ gcem_cos a = gcem_cos d /\
  gcem_atan v a = gcem_atan v d /\ gcem_asin v a = gcem_asin v d /\ gcem_acos v a = gcem_acos v d /\
  gcem_sinh v a = gcem_sinh v d /\ gcem_cosh v a = gcem_cosh v d /\ gcem_tanh v a = gcem_tanh v d /\
  gcem_asinh v a = gcem_asinh v d /\ gcem_acosh v a = gcem_acosh v d /\ gcem_atanh v a = gcem_atanh v d /\
  gcem_lgamma v a = gcem_lgamma v d /\ gcem_tgamma v n a = gcem_tgamma v n d /\ gcem_lmgamma v n a p = gcem_lmgamma v n d p /\
  gcem_erf v a = gcem_erf v d /\ gcem_erf_inv v a = gcem_erf_inv v d /\
  ((0 <= z)%Z -> gcem_log2 v a = gcem_log2 v d /\ gcem_log10 v a = gcem_log10 v d).
Proof.
  cbv zeta. repeat match goal with |- _ /\ _ => split end; try reflexivity.
  intros H. unfold gcem_log2, gcem_log10. rewrite (log_int_nonneg v t z H). split; reflexivity.
Qed.
Lemma api_integral2 v s t x y : let a := AInt s x in let b := AInt t y in let c := AFlt F64 (ofZ F64 x) in let d := AFlt F64 (ofZ F64 y) in
  gcem_fmod a b = gcem_fmod c d /\ gcem_hypot a b = gcem_hypot c d /\ gcem_atan2 v a b = gcem_atan2 v c d /\
  gcem_log_binomial_coef v a b = gcem_log_binomial_coef v c d /\ gcem_incomplete_gamma v a b = gcem_incomplete_gamma v c d.
Proof.
  cbv zeta. unfold gcem_fmod, gcem_hypot, gcem_atan2, gcem_log_binomial_coef, gcem_incomplete_gamma, lift2. cbn [cr_fmt fmt_max to_fmt].
  rewrite !conv_id. repeat match goal with |- _ /\ _ => split end; reflexivity.
Qed.

(** ** API forms *)
Lemma api_odd v f (x : flt f) :
  odd_res (gcem_tan (AFlt f x)) (gcem_tan (AFlt f (-. x))) /\ odd_res (gcem_sin (AFlt f x)) (gcem_sin (AFlt f (-. x))) /\
  odd_res (gcem_atan v (AFlt f x)) (gcem_atan v (AFlt f (-. x))) /\ odd_res (gcem_asin v (AFlt f x)) (gcem_asin v (AFlt f (-. x))) /\
  odd_res (gcem_tanh v (AFlt f x)) (gcem_tanh v (AFlt f (-. x))) /\ odd_res (gcem_erf v (AFlt f x)) (gcem_erf v (AFlt f (-. x))) /\
  odd_res (gcem_sinh v (AFlt f x)) (gcem_sinh v (AFlt f (-. x))).
Proof.
  repeat match goal with |- _ /\ _ => split end;
  [exact (tan_odd x)|exact (sin_odd x)|exact (atan_odd v x)|exact (asin_odd v x)|exact (tanh_odd v x)|exact (erf_odd v x)|exact (sinh_odd v x)].
Qed.
Lemma api_even v f (x : flt f) : gcem_cos (AFlt f (-. x)) = gcem_cos (AFlt f x) /\
  (forall w, gcem_cosh v (AFlt f x) = Ok w -> gcem_cosh v (AFlt f (-. x)) = Ok w).
Proof. split; [exact (cos_even x)|exact (cosh_even v x)]. Qed.
Lemma api_hypot_overflow f (x y : flt f) : finite x = true -> finite y = true ->
  bpow radix2 (2 - emax f) <= Rabs (B2R x) -> bpow radix2 (emax f / 2) * Rabs (B2R x) <= Rabs (B2R y) ->
  rmap (AFlt _) (gcem_hypot (AFlt f x) (AFlt f y)) = Ok (AFlt f (B754_infinity false)).
Proof. intros A B C D. apply (api_hypot_lopsided f x y A B C D). Qed.
Lemma atan2_same v f (y x : flt f) : rmap (AFlt _) (gcem_atan2 v (AFlt f y) (AFlt f x)) = rmap (AFlt f) (atan2_compute v y x).
Proof.
  assert (E : fmt_max f f = f) by (destruct f; reflexivity).
  unfold gcem_atan2, lift2. cbn [cr_fmt to_fmt]. rewrite E, !conv_id. reflexivity.
Qed.
Lemma api_atan2_origin v f sy sx : rmap (AFlt _) (gcem_atan2 v (AFlt f (B754_zero sy)) (AFlt f (B754_zero sx))) =
  Ok (AFlt f (let m := if sx then conv f GCEM_PI else ofZ f 0 in if sy then -. m else m)).
Proof. rewrite atan2_same, atan2_origin. reflexivity. Qed.
Lemma api_atan2_axis v f (y x : flt f) : tiny x -> ~ tiny y ->
  (above y 0 -> rmap (AFlt _) (gcem_atan2 v (AFlt f y) (AFlt f x)) = Ok (AFlt f (conv f GCEM_HALF_PI))) /\
  (below y 0 -> rmap (AFlt _) (gcem_atan2 v (AFlt f y) (AFlt f x)) = Ok (AFlt f (-. conv f GCEM_HALF_PI))).
Proof. intros H1 H2. rewrite atan2_same. destruct (atan2_axis v f y x H1 H2) as (A & B). split; intros H; [rewrite A|rewrite B]; auto. Qed.
Lemma api_atan2_quadrants v f (y x : flt f) : is_nan y = false -> ~ tiny x ->
  (above x 0 -> rmap (AFlt _) (gcem_atan2 v (AFlt f y) (AFlt f x)) = rmap (AFlt _) (gcem_atan v (AFlt f (y /. x)))) /\
  (below x 0 -> below y 0 -> rmap (AFlt _) (gcem_atan2 v (AFlt f y) (AFlt f x)) = rmap (fun a : flt f => AFlt f (a -. conv f GCEM_PI)) (gcem_atan v (AFlt f (y /. x)))) /\
  (below x 0 -> ~ below y 0 -> rmap (AFlt _) (gcem_atan2 v (AFlt f y) (AFlt f x)) = rmap (fun a : flt f => AFlt f (a +. conv f GCEM_PI)) (gcem_atan v (AFlt f (y /. x)))).
Proof.
  intros H1 H2. rewrite atan2_same. destruct (atan2_quadrants v f y x H1 H2) as (A & B & C).
  change (gcem_atan v (AFlt f (y /. x))) with (atan_check v (y /. x)).
  repeat match goal with |- _ /\ _ => split end; intros; [rewrite A by auto|rewrite B by auto|rewrite C by auto]; destruct (atan_check v (y /. x)); reflexivity.
Qed.
Lemma api_atan2_negzero v f (x : flt f) : below x 0 -> ~ tiny x ->
  rmap (AFlt _) (gcem_atan2 v (AFlt f (B754_zero true)) (AFlt f x)) = Ok (AFlt f (conv f GCEM_PI)).
Proof. intros A B. rewrite atan2_same, atan2_negzero; auto. Qed.
Lemma sf_ok {f} (r : res (flt f)) : (if sf_of r then true else false) = true -> ok r.
Proof. destruct r; try discriminate. intros _. apply ok_Ok. Qed.
