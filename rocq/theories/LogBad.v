(** * Arguments next to a power of ten at which log and log10 are off by one decade *)
From Verif Require Import Base ModelBasic ModelInt ModelElem ModelApi FltLemmas Spec IntProofs BasicProofs ConvLemmas ExpAcc MiscProofs CxxProofs.
From Coq Require Import Lra.
From Verif Require Import LogApi.
From Interval Require Import Tactic.
Open Scope R_scope.

Lemma res_val {f} (r : res (flt f)) b m e : sf_of r = Some (SpecFloat.S754_finite b m e) -> exists w, r = Ok w /\ finite w = true /\ B2R w = F2R (Float radix2 (cond_Zopp b (Zpos m)) e).
Proof. destruct r as [w| |]; cbn; intros H; try discriminate. exists w. split; auto. apply sf_val. congruence. Qed.
Lemma sf_eq {f} (x : flt f) b m e : B2SF x = SpecFloat.S754_finite b m e -> finite x = true /\ B2R x = F2R (Float radix2 (cond_Zopp b (Zpos m)) e).
Proof. apply sf_val. Qed.
Definition bad_m (f : fmt) : positive * Z := match f with F32 => (10737418%positive, -30) | F64 => (4951760157141521%positive, -92) | F80 => (14757395258967641293%positive, -67) end%Z.
Lemma bad_val f : finite (bad_arg f) = true /\ B2R (bad_arg f) = F2R (Float radix2 (Zpos (fst (bad_m f))) (snd (bad_m f))).
Proof. destruct f; apply (sf_val _ false); vm_compute; reflexivity. Qed.
Definition bad_log (f : fmt) : positive * Z := match f with F32 => (9657742%positive, -22) | F64 => (7129320939672830%positive, -48) | F80 => (10618799479599967255%positive, -61) end%Z.
Lemma bad_log_val v f : exists w, gcem_log v (AFlt f (bad_arg f)) = Ok w /\ finite w = true /\ B2R w = F2R (Float radix2 (Zneg (fst (bad_log f))) (snd (bad_log f))).
Proof.
  assert (E : gcem_log v (AFlt f (bad_arg f)) = gcem_log Cxx14 (AFlt f (bad_arg f))). { destruct v; [apply api_11_14_unary|reflexivity]. }
  rewrite E. destruct f; apply (@res_val _ _ true); vm_compute; reflexivity.
Qed.
Definition bad_log10 (f : fmt) : Z := match f with F32 => -1 | F64 => -11 | F80 => -2 end%Z.
Lemma bad_log10_val v f : exists w, gcem_log10 v (AFlt f (bad_arg f)) = Ok w /\ finite w = true /\ B2R w = IZR (bad_log10 f).
Proof.
  assert (E : gcem_log10 v (AFlt f (bad_arg f)) = gcem_log10 Cxx14 (AFlt f (bad_arg f))). { destruct v; [apply api_11_14_unary|reflexivity]. }
  rewrite E. 
  assert (exists w, gcem_log10 Cxx14 (AFlt f (bad_arg f)) = Ok w /\ finite w = true /\ B2R w = match f with F32 => F2R (Float radix2 (-8388608) (-23)) | F64 => F2R (Float radix2 (-6192449487634432) (-49)) | F80 => F2R (Float radix2 (-9223372036854775808) (-62)) end) as (w & E1 & F & V).
  { destruct f; apply (@res_val _ _ true); vm_compute; reflexivity. }
  exists w. split; auto. split; auto. rewrite V. destruct f; unfold F2R; cbn; lra.
Qed.
Lemma bad_rng f : bpow radix2 (2 - emax f) <= B2R (bad_arg f) < / 2.
Proof.
  destruct (bad_val f) as (_ & ->). split. apply Rle_trans with (bpow radix2 (-100)). apply bpow_le. destruct f; discriminate.
  all: destruct f; unfold F2R; cbn; lra.
Qed.
Lemma log_bad v f : exists w, gcem_log v (AFlt f (bad_arg f)) = Ok w /\ finite w = true /\ 2 <= Rabs (B2R w - ln (B2R (bad_arg f))).
Proof.
  destruct (bad_log_val v f) as (w & E & F & V). exists w. split; auto. split; auto. rewrite V. destruct (bad_val f) as (_ & ->).
  destruct f; cbn [bad_m bad_log fst snd]; unfold F2R; cbn; interval.
Qed.
Lemma log10_bad v f : exists w, gcem_log10 v (AFlt f (bad_arg f)) = Ok w /\ finite w = true /\ 999 / 1000 <= Rabs (B2R w - ln (B2R (bad_arg f)) / ln 10).
Proof.
  destruct (bad_log10_val v f) as (w & E & F & V). exists w. split; auto. split; auto. rewrite V. destruct (bad_val f) as (_ & ->).
  destruct f; cbn [bad_m bad_log10 fst snd]; unfold F2R; cbn; interval.
Qed.
Lemma api_log_bad v f : exists x : flt f, finite x = true /\ bpow radix2 (2 - emax f) <= B2R x < / 2 /\
  exists w, gcem_log v (AFlt f x) = Ok w /\ finite w = true /\ 2 <= Rabs (B2R w - ln (B2R x)).
Proof. exists (bad_arg f). split. apply bad_val. split. apply bad_rng. apply log_bad. Qed.
Lemma api_log10_bad v f : exists x : flt f, finite x = true /\ bpow radix2 (2 - emax f) <= B2R x < / 2 /\
  exists w, gcem_log10 v (AFlt f x) = Ok w /\ finite w = true /\ 999 / 1000 <= Rabs (B2R w - ln (B2R x) / ln 10).
Proof. exists (bad_arg f). split. apply bad_val. split. apply bad_rng. apply log10_bad. Qed.
