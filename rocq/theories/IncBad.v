(** * Incomplete gamma and beta functions: values outside their range, flat
    stretches, inverses without a value *)
From Verif Require Import Base FltLemmas ConvLemmas ModelBasic ModelInt ModelElem ModelSpecial ModelApi Spec SpecGamma.
From Coq Require Import Lra Psatz.
From Coquelicot Require Import Coquelicot.
From Interval Require Import Tactic.
From Verif Require Import RangeProofs ExpAcc LogBad GammaInt GammaApi CxxProofs SpecInc IncBeta.
From Verif Require Import Base ModelBasic ModelInt ModelElem ModelSpecial ModelApi.
Open Scope R_scope.

(** ** P(10,30) *)
Definition S9 (t : R) : R := 362880 + t * (362880 + t * (181440 + t * (60480 + t * (15120 + t * (3024 + t * (504 + t * (72 + t * (9 + t)))))))).
Lemma gi10 a b : 0 < a -> 0 < b -> RInt (gi 10) a b = exp (- a) * S9 a - exp (- b) * S9 b.
Proof.
  intros A B. apply is_RInt_unique. replace (exp (- a) * S9 a - exp (- b) * S9 b) with (- (exp (- b) * S9 b) - - (exp (- a) * S9 a)) by ring.
  apply (is_RInt_derive (fun t => - (exp (- t) * S9 t)) (gi 10)).
  - intros t Ht. assert (P : 0 < t) by (unfold Rmin in Ht; destruct Rle_dec; lra). unfold gi, S9. replace (Rpower t (10 - 1)) with (t ^ 9). 2:{ rewrite <- Rpower_pow by auto. f_equal. cbn. ring. }
    auto_derive. auto. ring.
  - intros t Ht. apply gi_cont. unfold Rmin in Ht; destruct Rle_dec; lra.
Qed.
Lemma seq0 z : is_lim_seq (fun n => z / (INR n + 1)) 0.
Proof. replace (Finite 0) with (Rbar_mult z 0) by (cbn; f_equal; ring). apply (is_lim_seq_scal_l ga z 0). apply ga_lim. Qed.
Lemma P10 z : 0 < z -> gamma_P 10 z = 1 - exp (- z) * S9 z / 362880.
Proof.
  intros Z. unfold gamma_P. replace (Gamma 10) with 362880. 2:{ replace 10 with (IZR 9 + 1) by (cbn; ring). rewrite Gamma_zfact by lia. reflexivity. }
  assert (L : is_lim_seq (fun n => RInt (gi 10) (z / (INR n + 1)) z) (362880 - exp (- z) * S9 z)).
  { apply (is_lim_seq_ext (fun n => exp (- (z / (INR n + 1))) * S9 (z / (INR n + 1)) - exp (- z) * S9 z)).
    - intros n. symmetry. apply gi10; auto. assert (P := pos_INR n). apply Rdiv_lt_0_compat; lra.
    - apply is_lim_seq_minus'. 2: apply is_lim_seq_const.
      replace (Finite 362880) with (Finite ((fun t => exp (- t) * S9 t) 0)) by (cbv beta; f_equal; unfold S9; rewrite Ropp_0, exp_0; ring).
      apply (is_lim_seq_continuous (fun t => exp (- t) * S9 t)). 2: apply seq0.
      apply continuity_pt_filterlim. apply (ex_derive_continuous (fun t => exp (- t) * S9 t)). unfold S9. auto_derive. auto. }
  apply is_lim_seq_unique in L. unfold gi in L. rewrite L. cbn [real]. field.
Qed.
Lemma P10_30 : 1 - / 100000 <= gamma_P 10 30 < 1.
Proof.
  rewrite P10 by lra. unfold S9. split. interval. assert (0 < exp (- (30))) by apply exp_pos. lra.
Qed.

(** ** P(2,x) takes the value 10^-5 near 0.0045 *)
Lemma gi2 a b : 0 < a -> 0 < b -> RInt (gi 2) a b = exp (- a) * (1 + a) - exp (- b) * (1 + b).
Proof.
  intros A B. apply is_RInt_unique. replace (exp (- a) * (1 + a) - exp (- b) * (1 + b)) with (- (exp (- b) * (1 + b)) - - (exp (- a) * (1 + a))) by ring.
  apply (is_RInt_derive (fun t => - (exp (- t) * (1 + t))) (gi 2)).
  - intros t Ht. assert (P : 0 < t) by (unfold Rmin in Ht; destruct Rle_dec; lra). unfold gi. replace (Rpower t (2 - 1)) with t. 2:{ replace (2 - 1) with 1 by ring. rewrite Rpower_1; auto. }
    auto_derive. auto. ring.
  - intros t Ht. apply gi_cont. unfold Rmin in Ht; destruct Rle_dec; lra.
Qed.
Lemma P2 z : 0 < z -> gamma_P 2 z = 1 - exp (- z) * (1 + z).
Proof.
  intros Z. unfold gamma_P. replace (Gamma 2) with 1. 2:{ replace 2 with (IZR 1 + 1) by (cbn; ring). rewrite Gamma_zfact by lia. reflexivity. }
  assert (L : is_lim_seq (fun n => RInt (gi 2) (z / (INR n + 1)) z) (1 - exp (- z) * (1 + z))).
  { apply (is_lim_seq_ext (fun n => exp (- (z / (INR n + 1))) * (1 + z / (INR n + 1)) - exp (- z) * (1 + z))).
    - intros n. symmetry. apply gi2; auto. assert (P := pos_INR n). apply Rdiv_lt_0_compat; lra.
    - apply is_lim_seq_minus'. 2: apply is_lim_seq_const.
      replace (Finite 1) with (Finite ((fun t => exp (- t) * (1 + t)) 0)) by (cbv beta; f_equal; rewrite Ropp_0, exp_0; ring).
      apply (is_lim_seq_continuous (fun t => exp (- t) * (1 + t))). 2: apply seq0.
      apply continuity_pt_filterlim. apply (ex_derive_continuous (fun t => exp (- t) * (1 + t))). auto_derive. auto. }
  apply is_lim_seq_unique in L. unfold gi in L. rewrite L. cbn [real]. field.
Qed.
Lemma P2_root p : Rabs (p - / 100000) <= / 10000000 -> exists x, 4 / 1000 < x < 5 / 1000 /\ gamma_P 2 x = p.
Proof.
  intros H. apply Rabs_le_inv in H. destruct (IVT_Rbar_incr (fun z => 1 - exp (- z) * (1 + z)) (4 / 1000) (5 / 1000) (1 - exp (- (4 / 1000)) * (1 + 4 / 1000)) (1 - exp (- (5 / 1000)) * (1 + 5 / 1000)) p) as (x & X1 & X2 & X3).
  - apply (is_lim_continuity (fun z => 1 - exp (- z) * (1 + z))). apply continuity_pt_filterlim. apply (ex_derive_continuous (fun z => 1 - exp (- z) * (1 + z))). auto_derive. auto.
  - apply (is_lim_continuity (fun z => 1 - exp (- z) * (1 + z))). apply continuity_pt_filterlim. apply (ex_derive_continuous (fun z => 1 - exp (- z) * (1 + z))). auto_derive. auto.
  - intros x _ _. apply continuity_pt_filterlim. apply (ex_derive_continuous (fun z => 1 - exp (- z) * (1 + z))). auto_derive. auto.
  - cbn. lra.
  - cbn. split. apply Rlt_le_trans with (99 / 10000000). interval. lra. apply Rle_lt_trans with (101 / 10000000). lra. interval.
  - cbn in X1, X2. exists x. split. lra. rewrite P2 by lra. exact X3.
Qed.

(** ** Values *)
Definition d64 (m k : Z) : arg := AFlt F64 (dlit F64 m k).
Lemma to14_g v a b : gcem_incomplete_gamma v a b = gcem_incomplete_gamma Cxx14 a b.
Proof. destruct v; [apply (api_11_14_multi a b a)|reflexivity]. Qed.
Lemma to14_gi v a b : gcem_incomplete_gamma_inv v a b = gcem_incomplete_gamma_inv Cxx14 a b.
Proof. destruct v; [apply (api_11_14_multi a b a)|reflexivity]. Qed.
Lemma to14_b v a b c : gcem_incomplete_beta v a b c = gcem_incomplete_beta Cxx14 a b c.
Proof. destruct v; [apply (api_11_14_multi a b c)|reflexivity]. Qed.
Lemma to14_bi v a b c : gcem_incomplete_beta_inv v a b c = gcem_incomplete_beta_inv Cxx14 a b c.
Proof. destruct v; [apply (api_11_14_multi a b c)|reflexivity]. Qed.

Lemma ig_10_30 v : exists w : flt F64, gcem_incomplete_gamma v (AFlt F64 (ofZ F64 10)) (AFlt F64 (ofZ F64 30)) = Ok w /\ finite w = true /\ B2R w <= 1 - / 8000.
Proof.
  rewrite to14_g. destruct (@res_val F64 (gcem_incomplete_gamma Cxx14 (AFlt F64 (ofZ F64 10)) (AFlt F64 (ofZ F64 30))) false 9006035504072868 (-53)) as (w & E & F & V). vm_compute. reflexivity.
  exists w. split. exact E. split. exact F. rewrite V. unfold F2R. cbn. lra.
Qed.
Lemma ig_1000 v : (exists w : flt F64, gcem_incomplete_gamma v (AFlt F64 (ofZ F64 1000)) (AFlt F64 (ofZ F64 1300)) = Ok w /\ finite w = true /\ 1 < B2R w) /\
  (exists w : flt F64, gcem_incomplete_gamma v (AFlt F64 (ofZ F64 1000)) (AFlt F64 (ofZ F64 4000)) = Ok w /\ finite w = true /\ B2R w = 1).
Proof.
  split; rewrite to14_g.
  - destruct (@res_val F64 (gcem_incomplete_gamma Cxx14 (AFlt F64 (ofZ F64 1000)) (AFlt F64 (ofZ F64 1300))) false 4503599627370750 (-52)) as (w & E & F & V). vm_compute. reflexivity.
    exists w. split. exact E. split. exact F. rewrite V. unfold F2R. cbn. lra.
  - destruct (@res_val F64 (gcem_incomplete_gamma Cxx14 (AFlt F64 (ofZ F64 1000)) (AFlt F64 (ofZ F64 4000))) false 4503599627370496 (-52)) as (w & E & F & V). vm_compute. reflexivity.
    exists w. split. exact E. split. exact F. rewrite V. unfold F2R. cbn. lra.
Qed.
Lemma ub_sf {f} (r : res (flt f)) u : match r with Ub u' => Some u' | _ => None end = Some u -> r = Ub u.
Proof. destruct r; intros H; try discriminate. congruence. Qed.
Lemma igi_bad v : gcem_incomplete_gamma_inv v (AFlt F64 (ofZ F64 2)) (AFlt F64 (dec F64 1 5)) = Ok B754_nan /\
  exists x, 0 < x < 1 /\ gamma_P 2 x = B2R (dec F64 1 5).
Proof.
  split. rewrite to14_gi. apply (@ok_sf F64). vm_compute. reflexivity.
  destruct (P2_root (B2R (dec F64 1 5))) as (x & X & P). 2:{ exists x. split. lra. exact P. }
  destruct (sf_val (dec F64 1 5) false 5902958103587057 (-69)) as (_ & V). vm_compute; reflexivity. rewrite V. unfold F2R. cbn. apply Rabs_le. lra.
Qed.
Lemma igi_ub v : gcem_incomplete_gamma_inv v (AFlt F32 (dec F32 5 1)) (AFlt F32 (dec F32 99999 5)) = Ub UbCast.
Proof. rewrite to14_gi. apply (@ub_sf F32). vm_compute. reflexivity. Qed.
Lemma ibi_bad v : gcem_incomplete_beta_inv v (AFlt F64 (ofZ F64 2)) (AFlt F64 (ofZ F64 2)) (AFlt F64 (dec F64 999999999999 12)) = Ok B754_nan /\
  exists x, 0 < x < 1 /\ beta_I 2 2 x = B2R (dec F64 999999999999 12).
Proof.
  split. rewrite to14_bi. apply (@ok_sf F64). vm_compute. reflexivity.
  apply beta_I22_root. destruct (sf_val (dec F64 999999999999 12) false 9007199254731985 (-53)) as (_ & V). vm_compute; reflexivity. rewrite V. unfold F2R. cbn. lra.
Qed.
Lemma ib_neg v f : exists w, rmap (AFlt _) (gcem_incomplete_beta v (AFlt f (dec f (-15) 1)) (AFlt f (ofZ f 2)) (AFlt f (dec f 5 1))) = Ok (AFlt f w) /\ has_val w 1.
Proof.
  rewrite to14_b. assert (forall r : res (flt f), (exists w, r = Ok w /\ has_val w 1) -> exists w, rmap (AFlt f) r = Ok (AFlt f w) /\ has_val w 1). { intros r (w & -> & H). exists w. auto. }
  destruct f; apply H.
  - destruct (@res_val F32 (gcem_incomplete_beta Cxx14 (AFlt F32 (dec F32 (-15) 1)) (AFlt F32 (ofZ F32 2)) (AFlt F32 (dec F32 5 1))) false 8388608 (-23)) as (w & E & F & V). vm_compute; reflexivity. exists w. split. exact E. split. exact F. rewrite V. unfold F2R; cbn; lra.
  - destruct (@res_val F64 (gcem_incomplete_beta Cxx14 (AFlt F64 (dec F64 (-15) 1)) (AFlt F64 (ofZ F64 2)) (AFlt F64 (dec F64 5 1))) false 4503599627370496 (-52)) as (w & E & F & V). vm_compute; reflexivity. exists w. split. exact E. split. exact F. rewrite V. unfold F2R; cbn; lra.
  - destruct (@res_val F80 (gcem_incomplete_beta Cxx14 (AFlt F80 (dec F80 (-15) 1)) (AFlt F80 (ofZ F80 2)) (AFlt F80 (dec F80 5 1))) false 9223372036854775808 (-63)) as (w & E & F & V). vm_compute; reflexivity. exists w. split. exact E. split. exact F. rewrite V. unfold F2R; cbn; lra.
Qed.
Lemma ig_decreases v : exists w w' : flt F64,
  gcem_incomplete_gamma v (AFlt F64 (ofZ F64 1000)) (AFlt F64 (ofZ F64 1300)) = Ok w /\
  gcem_incomplete_gamma v (AFlt F64 (ofZ F64 1000)) (AFlt F64 (ofZ F64 4000)) = Ok w' /\
  finite w = true /\ finite w' = true /\ B2R w' < B2R w.
Proof. destruct (ig_1000 v) as ((w & E & F & V) & w' & E' & F' & V'). exists w, w'. split. exact E. split. exact E'. split. exact F. split. exact F'. lra. Qed.
Lemma ig_inaccurate v : exists w : flt F64, gcem_incomplete_gamma v (AFlt F64 (ofZ F64 10)) (AFlt F64 (ofZ F64 30)) = Ok w /\ finite w = true /\
  B2R w <= 1 - / 8000 /\ 1 - / 100000 <= gamma_P 10 30.
Proof. destruct (ig_10_30 v) as (w & E & F & V). exists w. split. exact E. split. exact F. split. exact V. apply P10_30. Qed.
Lemma ig_above_one v : exists w : flt F32, gcem_incomplete_gamma v (AFlt F32 (ofZ F32 1)) (AFlt F32 (dec F32 109 1)) = Ok w /\ finite w = true /\ 1 + / 10000 < B2R w.
Proof.
  rewrite to14_g. destruct (@res_val F32 (gcem_incomplete_gamma Cxx14 (AFlt F32 (ofZ F32 1)) (AFlt F32 (dec F32 109 1))) false 8389821 (-23)) as (w & E & F & V). vm_compute. reflexivity.
  exists w. split. exact E. split. exact F. rewrite V. unfold F2R. cbn. lra.
Qed.
