(** * incomplete_gamma with a = 1 against exp *)
From Verif Require Import Base FltLemmas ConvLemmas ModelBasic ModelInt ModelElem ModelSpecial ModelApi Spec SpecGamma.
From Coq Require Import Lra Psatz.
From Coquelicot Require Import Coquelicot.
From Interval Require Import Tactic.
From Verif Require Import BasicProofs RangeProofs FPErr ExpAcc GammaInt GammaApi SpecInc IncBeta IncBad IncGamApi LogExpLaws.
From Verif Require Import Base ModelBasic ModelInt ModelElem ModelSpecial ModelApi.
Open Scope R_scope.

Lemma gi1 a b : 0 < a -> 0 < b -> RInt (gi 1) a b = exp (- a) - exp (- b).
Proof.
  intros A B. apply is_RInt_unique. replace (exp (- a) - exp (- b)) with (- exp (- b) - - exp (- a)) by ring.
  apply (is_RInt_derive (fun t => - exp (- t)) (gi 1)).
  - intros t Ht. assert (P : 0 < t) by (unfold Rmin in Ht; destruct Rle_dec; lra). unfold gi. replace (Rpower t (1 - 1)) with 1. 2:{ replace (1 - 1) with 0 by ring. rewrite Rpower_O; auto. }
    auto_derive. auto. ring.
  - intros t Ht. apply gi_cont. unfold Rmin in Ht; destruct Rle_dec; lra.
Qed.
Lemma P1 z : 0 < z -> gamma_P 1 z = 1 - exp (- z).
Proof.
  intros Z. unfold gamma_P. rewrite Gamma_one.
  assert (L : is_lim_seq (fun n => RInt (gi 1) (z / (INR n + 1)) z) (1 - exp (- z))).
  { apply (is_lim_seq_ext (fun n => exp (- (z / (INR n + 1))) - exp (- z))).
    - intros n. symmetry. apply gi1; auto. assert (P := pos_INR n). apply Rdiv_lt_0_compat; lra.
    - apply is_lim_seq_minus'. 2: apply is_lim_seq_const.
      replace (Finite 1) with (Finite ((fun t => exp (- t)) 0)) by (cbv beta; f_equal; rewrite Ropp_0, exp_0; ring).
      apply (is_lim_seq_continuous (fun t => exp (- t))). 2: apply seq0.
      apply continuity_pt_filterlim. apply (ex_derive_continuous (fun t => exp (- t))). auto_derive. auto. }
  apply is_lim_seq_unique in L. unfold gi in L. rewrite L. cbn [real]. field.
Qed.
Lemma igl v f (a z : flt f) : finite a = true -> finite z = true -> / 2 <= B2R a < 10 -> / 2 <= B2R z <= B2R a + / 2 ->
  exists w : flt f, rmap (AFlt _) (gcem_incomplete_gamma v (AFlt f a) (AFlt f z)) = Ok (AFlt f w) /\ finite w = true /\ rel_err (B2R w) (gamma_P (B2R a) (B2R z)) (1600 * uf f + bpow radix2 (-49)).
Proof. intros Fa Fz A Z. destruct f; destruct (api_ig_low v _ a z Fa Fz A Z) as (w & E & F & R); exists w; (split; [rewrite E; reflexivity|]); split; auto. Qed.
Lemma igu v f (a z : flt f) : finite a = true -> finite z = true -> / 2 <= B2R a < 10 -> B2R a + 10 <= B2R z <= 100000 ->
  exists w : flt f, rmap (AFlt _) (gcem_incomplete_gamma v (AFlt f a) (AFlt f z)) = Ok (AFlt f w) /\ finite w = true /\ abs_err (B2R w) (gamma_P (B2R a) (B2R z)) (26 * uf f + bpow radix2 (-55)).
Proof. intros Fa Fz A Z. destruct f; destruct (api_ig_up v _ a z Fa Fz A Z) as (w & E & F & R); exists w; (split; [rewrite E; reflexivity|]); split; auto. Qed.
Lemma neg_val {f} (z : flt f) : B2R (-. z) = - B2R z /\ finite (-. z) = finite z.
Proof. split. apply B2R_Bopp. apply is_finite_Bopp. Qed.
Lemma expdist_low : forall v f (z : flt f), finite z = true -> / 2 <= B2R z <= 3 / 2 ->
  exists w e : flt f, rmap (AFlt _) (gcem_incomplete_gamma v (AFlt f (ofZ f 1)) (AFlt f z)) = Ok (AFlt f w) /\ gcem_exp v (AFlt f (-. z)) = Ok e /\ finite w = true /\ finite e = true /\
  abs_err (B2R w + B2R e) 1 (1320 * bpow radix2 (- prec f) + bpow radix2 (-49)).
Proof.
  intros v f z Fz Z. destruct (ofZ_small f 1 ltac:(lia)) as (V & F & _). change (IZR 1) with 1 in V. destruct (neg_val z) as (Vn & Fn). rewrite Fz in Fn. destruct (uf_sm f) as (U0 & _). change (bpow radix2 (- prec f)) with (uf f).
  destruct (igl v f (ofZ f 1) z F Fz ltac:(rewrite V; lra) ltac:(rewrite V; lra)) as (w & Ew & Fw & Rw). rewrite V, P1 in Rw by lra.
  assert (EE : exists e : flt f, gcem_exp v (AFlt f (-. z)) = Ok e /\ finite e = true /\ rel_err (B2R e) (exp (B2R (-. z))) (106 * uf f + bpow radix2 (-55))) by (apply (api_exp_small v f (-. z) Fn); rewrite Vn, Rabs_Ropp, Rabs_pos_eq; lra).
  destruct EE as (e & Ee & Fe & Re). rewrite Vn in Re. exists w, e. split. exact Ew. split. exact Ee. split. exact Fw. split. exact Fe. unfold abs_err, rel_err in * .
  assert (X0 : exp (- B2R z) <= 61 / 100). { apply Rle_trans with (exp (- / 2)). apply exp_le; lra. interval. } assert (X1 : 22 / 100 <= exp (- B2R z)). { apply Rle_trans with (exp (- (3 / 2))). interval. apply exp_le; lra. } set (E := exp (- B2R z)) in * . rewrite (Rabs_pos_eq (1 - E)) in Rw by lra. rewrite (Rabs_pos_eq E) in Re by lra.
  assert (b := bpow_gt_0 radix2 (-55)). replace (bpow radix2 (-49)) with (64 * bpow radix2 (-55)) in * by (cbn; lra). set (q := bpow radix2 (-55)) in * .
  assert ((1600 * uf f + 64 * q) * (1 - E) <= (1600 * uf f + 64 * q) * (78 / 100)) by (apply Rmult_le_compat_l; lra). assert ((106 * uf f + q) * E <= (106 * uf f + q) * (61 / 100)) by (apply Rmult_le_compat_l; lra). apply Rabs_le_inv in Rw. apply Rabs_le_inv in Re. apply Rabs_le. lra.
Qed.
Lemma expdist_up : forall v f (z : flt f), finite z = true -> 11 <= B2R z <= 60 ->
  exists w e : flt f, rmap (AFlt _) (gcem_incomplete_gamma v (AFlt f (ofZ f 1)) (AFlt f z)) = Ok (AFlt f w) /\ gcem_exp v (AFlt f (-. z)) = Ok e /\ finite w = true /\ finite e = true /\
  abs_err (B2R w + B2R e) 1 (27 * bpow radix2 (- prec f) + bpow radix2 (-54)).
Proof.
  intros v f z Fz Z. destruct (ofZ_small f 1 ltac:(lia)) as (V & F & _). change (IZR 1) with 1 in V. destruct (neg_val z) as (Vn & Fn). rewrite Fz in Fn. destruct (uf_sm f) as (U0 & _). change (bpow radix2 (- prec f)) with (uf f).
  destruct (igu v f (ofZ f 1) z F Fz ltac:(rewrite V; lra) ltac:(rewrite V; lra)) as (w & Ew & Fw & Rw). rewrite V, P1 in Rw by lra.
  assert (EE : exists e : flt f, gcem_exp v (AFlt f (-. z)) = Ok e /\ finite e = true /\ rel_err (B2R e) (exp (B2R (-. z))) (108 * uf f + bpow radix2 (-54) + (3 - B2R (-. z)) * bpow radix2 (-61))).
  { apply (api_exp_neg v f (-. z) Fn); rewrite Vn. lra. apply Rle_trans with (exp 62). apply exp_le; lra. apply Rle_trans with (bpow radix2 90). cbn. interval. apply bpow_le. destruct f; cbn; lia. }
  destruct EE as (e & Ee & Fe & Re). rewrite Vn in Re. exists w, e. split. exact Ew. split. exact Ee. split. exact Fw. split. exact Fe. unfold abs_err, rel_err in * .
  assert (X0 : exp (- B2R z) <= / 1000). { apply Rle_trans with (exp (- 11)). apply exp_le; lra. interval. } assert (X1 := exp_pos (- B2R z)). set (E := exp (- B2R z)) in * . rewrite (Rabs_pos_eq E) in Re by lra.
  assert (b := bpow_gt_0 radix2 (-61)). replace (bpow radix2 (-54)) with (128 * bpow radix2 (-61)) in * by (cbn; lra). replace (bpow radix2 (-55)) with (64 * bpow radix2 (-61)) in * by (cbn; lra). set (q := bpow radix2 (-61)) in * .
  assert (zq : (3 - - B2R z) * q <= 63 * q) by (apply Rmult_le_compat_r; lra). assert (zq0 : 0 <= (3 - - B2R z) * q) by (apply Rmult_le_pos; lra).
  assert ((108 * uf f + 128 * q + (3 - - B2R z) * q) * E <= (108 * uf f + 200 * q) * / 1000) by (apply Rmult_le_compat; lra). apply Rabs_le_inv in Rw. apply Rabs_le_inv in Re. apply Rabs_le. lra.
Qed.
