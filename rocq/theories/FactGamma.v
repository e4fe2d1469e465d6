(** * tgamma at integers as a factorial *)
From Verif Require Import Base ModelBasic ModelInt ModelElem ModelSpecial ModelApi FltLemmas Spec SpecGamma IntProofs BasicProofs ConvLemmas MiscProofs ExpAcc.
From Coq Require Import Lra Psatz.
From Coquelicot Require Import Coquelicot.
From Verif Require Import Base ModelBasic FPErr LogApi LogMore GammaApi BetaApi LogChoose.
From Verif Require Import Base ModelBasic ModelInt ModelElem ModelSpecial ModelApi TotalProofs.
Open Scope R_scope.

Lemma fact_le20 t x : in_range t (zfact x) -> (x <= 20)%Z.
Proof.
  intros R. destruct (Z.le_gt_cases x 20) as [|G]; auto. exfalso. assert (M : (nfact 21 <= zfact x)%Z) by (unfold zfact; apply nfact_mono; lia).
  assert (E : nfact 21 = 51090942171709440000%Z) by (vm_compute; reflexivity). rewrite E in M. destruct t; cbv [in_range imin imax] in R; cbn in R; lia.
Qed.
Lemma tgamma_factorial : forall v k n t x, (0 <= x)%Z -> in_range t x -> in_range t (x + 1) -> in_range t (zfact x) -> (0 < k)%nat ->
  gcem_factorial v k (AInt t x) = Ok (AInt t (zfact x)) /\
  exists w : flt F64, gcem_tgamma v (S n) (AInt t (x + 1)) = Ok w /\ finite w = true /\ rel_err (B2R w) (IZR (zfact x)) ((15 * (IZR x + 1) * ln (IZR x + 6) + 165 + (IZR x + 4)) * bpow radix2 (-53)).
Proof.
  intros v k n t x X0 R R1 Rf K. split. apply IntProofs.api_factorial; auto. assert (X20 := fact_le20 t x Rf).
  destruct (ofZ_small F64 (x + 1) ltac:(lia)) as (V & F & _). assert (XR : 0 <= IZR x <= 20) by (split; apply IZR_le; lia). rewrite plus_IZR in V.
  assert (E : exists w : flt F64, gcem_tgamma v (S n) (AFlt F64 (ofZ F64 (x + 1))) = Ok w /\ finite w = true /\ rel_err (B2R w) (Gamma (B2R (ofZ F64 (x + 1)))) ((15 * B2R (ofZ F64 (x + 1)) * ln (B2R (ofZ F64 (x + 1)) + 5) + 165) * bpow radix2 (-53) + (2 * B2R (ofZ F64 (x + 1)) + 5) * bpow radix2 (-54))) by (apply (api_tgamma v n F64 (ofZ F64 (x + 1)) F); rewrite V; lra).
  destruct E as (w & Ew & Fw & Rw). exists w. split. exact Ew. split. exact Fw. rewrite V, Gamma_zfact in Rw by auto. replace (IZR x + 1 + 5) with (IZR x + 6) in Rw by ring. unfold rel_err in * . apply Rle_trans with (1 := Rw). apply Rmult_le_compat_r. apply Rabs_pos.
  replace (bpow radix2 (-53)) with (2 * bpow radix2 (-54)) by (cbn; lra). assert (q := bpow_gt_0 radix2 (-54)). nra.
Qed.
