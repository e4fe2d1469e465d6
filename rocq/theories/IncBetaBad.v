(** * incomplete_beta at the arguments at which log is off by a decade *)
From Verif Require Import Base FltLemmas ConvLemmas ModelBasic ModelInt ModelElem ModelSpecial ModelApi Spec SpecGamma.
From Coq Require Import Lra Psatz.
From Coquelicot Require Import Coquelicot.
From Interval Require Import Tactic.
From Verif Require Import RangeProofs ExpAcc CxxProofs LogApi LogMore LogBad GammaInt GammaApi SpecInc IncBeta IncBad.
From Verif Require Import Base ModelBasic ModelInt ModelElem ModelSpecial ModelApi.
Open Scope R_scope.

Lemma ib_ten_val v f : exists w, rmap (AFlt _) (gcem_incomplete_beta v (AFlt f (ofZ f 2)) (AFlt f (ofZ f 2)) (AFlt f (bad_arg f))) = Ok (AFlt f w) /\ finite w = true /\
  B2R w = match f with F32 => F2R (Float radix2 15998744 (-29)) | F64 => F2R (Float radix2 6380294379763342 (-124)) | F80 => F2R (Float radix2 10578100921628005283 (-75)) end.
Proof.
  rewrite to14_b. assert (H : forall (r : res (flt f)) x, (exists w, r = Ok w /\ finite w = true /\ B2R w = x) -> exists w, rmap (AFlt f) r = Ok (AFlt f w) /\ finite w = true /\ B2R w = x). { intros r x (w & -> & F & V). exists w. auto. }
  destruct f; apply H.
  - apply (@res_val F32 _ false). vm_compute. reflexivity.
  - apply (@res_val F64 _ false). vm_compute. reflexivity.
  - apply (@res_val F80 _ false). vm_compute. reflexivity.
Qed.
Lemma ib_ten v f : exists z : flt f, finite z = true /\ 0 < B2R z < / 2 /\
  exists w, rmap (AFlt _) (gcem_incomplete_beta v (AFlt f (ofZ f 2)) (AFlt f (ofZ f 2)) (AFlt f z)) = Ok (AFlt f w) /\ finite w = true /\
    98 / 100 * beta_I 2 2 (B2R z) <= Rabs (B2R w - beta_I 2 2 (B2R z)).
Proof.
  exists (bad_arg f). destruct (bad_val f) as (F & V). destruct (bad_rng f) as (P & Q). assert (B0 := bpow_gt_0 radix2 (2 - emax f)). split. exact F. split. lra. destruct (ib_ten_val v f) as (w & E & Fw & Vw). exists w. split. exact E. split. exact Fw.
  rewrite Vw, beta_I22, V by lra. destruct f; cbn [bad_m fst snd]; unfold F2R; cbn; interval.
Qed.
