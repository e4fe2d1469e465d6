(** * incomplete_beta and incomplete_beta_inv with a = b = 1 undo each other *)
From Verif Require Import Base ModelBasic ModelInt ModelElem ModelSpecial ModelApi FltLemmas Spec SpecGamma SpecInc IntProofs BasicProofs ConvLemmas MiscProofs ExpAcc.
From Coq Require Import Lra Psatz.
From Verif Require Import Base ModelBasic FPErr IncBeta IncBetaAbs BetaInvUnif LogExpLaws.
From Verif Require Import Base ModelBasic ModelInt ModelElem ModelSpecial ModelApi TotalProofs.
Open Scope R_scope.

Lemma ib_unif v f (z : flt f) : finite z = true -> / 8 <= B2R z <= 7 / 8 ->
  exists w : flt f, rmap (AFlt _) (gcem_incomplete_beta v (AFlt f (ofZ f 1)) (AFlt f (ofZ f 1)) (AFlt f z)) = Ok (AFlt f w) /\ finite w = true /\ abs_err (B2R w) (B2R z) (84500 * uf f + bpow radix2 (-43)).
Proof.
  intros Fz Z. destruct (ofZ_small f 1 ltac:(lia)) as (V & F & _). change (IZR 1) with 1 in V. destruct (api_ib_abs v f (ofZ f 1) (ofZ f 1) z F F Fz ltac:(rewrite V; lra) ltac:(rewrite V; lra) Z) as (w & E & Fw & R).
  exists w. split. exact E. split. exact Fw. rewrite V, IncBeta.beta_Ia1, Rpower_1 in R by lra. exact R.
Qed.
Lemma small_tol f : 84508 * uf f + bpow radix2 (-43) <= 51 / 10000.
Proof. destruct (uf_sm f). assert (bpow radix2 (-43) <= / 1000000000) by (cbn; lra). lra. Qed.
Lemma ib_of_inv : forall v f (p : flt f), finite p = true -> 15 / 100 <= B2R p <= 85 / 100 ->
  exists w q : flt f, rmap (AFlt _) (gcem_incomplete_beta_inv v (AFlt f (ofZ f 1)) (AFlt f (ofZ f 1)) (AFlt f p)) = Ok (AFlt f w) /\
  rmap (AFlt _) (gcem_incomplete_beta v (AFlt f (ofZ f 1)) (AFlt f (ofZ f 1)) (AFlt f w)) = Ok (AFlt f q) /\ finite q = true /\
  abs_err (B2R q) (B2R p) (169008 * bpow radix2 (- prec f) + bpow radix2 (-42)).
Proof.
  intros v f p Fp P. destruct (api_ibi_unif2 v f p Fp P) as (w & E & Fw & _ & _ & R). change (bpow radix2 (- prec f)) with (uf f) in * . assert (T := small_tol f). unfold abs_err in R. assert (R2 := Rabs_le_inv _ _ R).
  destruct (ib_unif v f w Fw ltac:(lra)) as (q & Eq & Fq & Rq). exists w, q. split. exact E. split. exact Eq. split. exact Fq. unfold abs_err in * . replace (bpow radix2 (-42)) with (2 * bpow radix2 (-43)) by (cbn; lra).
  replace (B2R q - B2R p) with ((B2R q - B2R w) + (B2R w - B2R p)) by ring. eapply Rle_trans. apply Rabs_triang. lra.
Qed.
Lemma inv_of_ib : forall v f (z : flt f), finite z = true -> 16 / 100 <= B2R z <= 84 / 100 ->
  exists q w : flt f, rmap (AFlt _) (gcem_incomplete_beta v (AFlt f (ofZ f 1)) (AFlt f (ofZ f 1)) (AFlt f z)) = Ok (AFlt f q) /\
  rmap (AFlt _) (gcem_incomplete_beta_inv v (AFlt f (ofZ f 1)) (AFlt f (ofZ f 1)) (AFlt f q)) = Ok (AFlt f w) /\ finite w = true /\
  abs_err (B2R w) (B2R z) (169008 * bpow radix2 (- prec f) + bpow radix2 (-42)).
Proof.
  intros v f z Fz Z. destruct (ib_unif v f z Fz ltac:(lra)) as (q & Eq & Fq & Rq). assert (T := small_tol f). destruct (uf_sm f) as (U & _). unfold abs_err in Rq. assert (R2 := Rabs_le_inv _ _ Rq).
  destruct (api_ibi_unif2 v f q Fq ltac:(lra)) as (w & E & Fw & _ & _ & R). change (bpow radix2 (- prec f)) with (uf f) in * . exists q, w. split. exact Eq. split. exact E. split. exact Fw. unfold abs_err in * . replace (bpow radix2 (-42)) with (2 * bpow radix2 (-43)) by (cbn; lra).
  replace (B2R w - B2R z) with ((B2R w - B2R q) + (B2R q - B2R z)) by ring. eapply Rle_trans. apply Rabs_triang. lra.
Qed.
