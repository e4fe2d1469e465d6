(** * log_binomial_coef as the logarithm of binomial_coef *)
From Verif Require Import Base ModelBasic ModelInt ModelElem ModelSpecial ModelApi FltLemmas Spec SpecGamma IntProofs BasicProofs ConvLemmas MiscProofs ExpAcc.
From Coq Require Import Lra Psatz.
From Coquelicot Require Import Coquelicot.
From Verif Require Import Base ModelBasic FPErr LogApi LogMore BetaApi.
From Verif Require Import Base ModelBasic ModelInt ModelElem ModelSpecial ModelApi TotalProofs.
Open Scope R_scope.

Lemma zfact_gt0 x : (0 < zfact x)%Z.
Proof. unfold zfact. assert (H := nfact_pos (Z.to_nat x)). lia. Qed.
Lemma choose_ge1 n k c : (0 <= k <= n)%Z -> is_choose n k c -> (1 <= c)%Z.
Proof.
  intros H. unfold is_choose. destruct (Z.leb_spec k n); [|lia]. intros E. assert (A := zfact_gt0 k). assert (B := zfact_gt0 (n - k)). assert (C := zfact_gt0 n). nia.
Qed.
Lemma log_choose : forall v fuel s t N K c, in_range s N -> in_range t K -> in_range (common s t) N -> in_range (common s t) K -> (0 <= K <= N)%Z -> (N < 2 ^ 53)%Z -> (N < Z.of_nat fuel)%Z -> is_choose N K c -> in_range (common s t) c ->
  gcem_binomial_coef fuel (AInt s N) (AInt t K) = Ok (AInt (common s t) c) /\
  exists w l : flt F64, gcem_log_binomial_coef v (AInt s N) (AInt t K) = Ok w /\ gcem_log v (AInt (common s t) c) = Ok l /\ finite w = true /\ finite l = true /\
    abs_err (B2R w) (B2R l) ((34 * ((IZR N + 2) * ln (IZR N + 6) + 6) + 58 / 10 * ln (IZR c)) * bpow radix2 (-53)).
Proof.
  intros v fuel s t N K c Rs Rt R1 R2 H N53 Fu C Rc. split. apply api_binomial; auto; lia. assert (c1 := choose_ge1 N K c H C).
  assert (EW : exists w : flt F64, gcem_log_binomial_coef v (AInt s N) (AInt t K) = Ok w /\ finite w = true /\ abs_err (B2R w) (ln (IZR c)) (34 * ((IZR N + 2) * ln (IZR N + 6) + 6) * bpow radix2 (-53))) by exact (api_lbc_int v s t N K c Rs Rt H N53 C).
  assert (EL : exists w : flt F64, gcem_log v (AInt (common s t) c) = Ok w /\ finite w = true /\ rel_err (B2R w) (ln (IZR c)) (58 / 10 * bpow radix2 (-53))) by exact (api_log_int v (common s t) c Rc c1).
  destruct EW as (w & Ew & Fw & Rw). destruct EL as (l & El & Fl & Rl). exists w, l. do 4 (split; [assumption|]). unfold abs_err, rel_err in * .
  assert (L0 : 0 <= ln (IZR c)). { rewrite <- ln_1. apply ln_le. lra. apply IZR_le in c1. exact c1. } rewrite (Rabs_pos_eq (ln _)) in Rl by exact L0.
  apply Rabs_le_inv in Rw. apply Rabs_le_inv in Rl. apply Rabs_le. rewrite Rmult_plus_distr_r. split; lra.
Qed.
