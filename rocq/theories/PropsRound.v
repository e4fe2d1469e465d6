(** * Round trips and functional equations (C119 to C123). *)
From Verif Require Import Base ModelBasic ModelInt ModelElem ModelSpecial ModelApi Spec SpecErf SpecGamma FltLemmas BasicProofs RoundTrip.
From Coq Require Import Lra.
Open Scope R_scope.

(** C119 *)
Theorem C119_exp_of_log : forall v f (x : flt f), finite x = true -> / 2 <= B2R x <= bpow radix2 (emax f - 13) ->
  exists l e : flt f, gcem_log v (AFlt f x) = Ok l /\ gcem_exp v (AFlt f l) = Ok e /\ finite e = true /\
  rel_err (B2R e) (B2R x) (((if Rle_dec 8 (B2R x) then 11 else 107) + 58 / 10 * Rabs (ln (B2R x))) * bpow radix2 (- prec f) + bpow radix2 (-53) + Rabs (ln (B2R x)) * bpow radix2 (-60)).
Proof. exact exp_log. Qed.
Print Assumptions C119_exp_of_log.
Theorem C119_log_of_exp : forall v f (x : flt f), finite x = true -> - / 2 <= B2R x -> exp (B2R x + 2) <= bpow radix2 (emax f - 9) ->
  exists e l : flt f, gcem_exp v (AFlt f x) = Ok e /\ gcem_log v (AFlt f e) = Ok l /\ finite l = true /\
  abs_err (B2R l) (B2R x) (((if Rle_dec 2 (B2R x) then 11 else 108) + 58 / 10 * Rabs (B2R x)) * bpow radix2 (- prec f) + bpow radix2 (-53) + Rabs (B2R x) * bpow radix2 (-60)).
Proof. exact log_exp. Qed.
Print Assumptions C119_log_of_exp.
Example C119_ex : exists l e : flt F64, gcem_log Cxx14 (AFlt F64 (ofZ F64 1000)) = Ok l /\ gcem_exp Cxx14 (AFlt F64 l) = Ok e /\ finite e = true /\ rel_err (B2R e) 1000 ((13 + 6 * Rabs (ln 1000)) * bpow radix2 (-53)).
Proof.
  destruct (ofZ_small F64 1000 ltac:(lia)) as (V & F & _). destruct (C119_exp_of_log Cxx14 F64 (ofZ F64 1000) F) as (l & e & El & Ee & Fe & R); rewrite V in * .
  - split. lra. apply Rle_trans with (bpow radix2 10). change (bpow radix2 10) with 1024. lra. apply bpow_le. discriminate.
  - exists l, e. split. exact El. split. exact Ee. split. exact Fe. eapply TanhAcc.rel_mono; [|exact R]. destruct (Rle_dec 8 1000) as [_|N]; [|exfalso; apply N; lra]. change (- prec F64)%Z with (-53)%Z. assert (A := Rabs_pos (ln 1000)).
    assert (B : bpow radix2 (-60) <= / 10 * bpow radix2 (-53)) by (replace (-60)%Z with (-7 + -53)%Z by ring; rewrite bpow_plus; apply Rmult_le_compat_r; [apply bpow_ge_0|change (bpow radix2 (-7)) with (/ 128); lra]).
    assert (B0 := bpow_gt_0 radix2 (-53)). assert (Rabs (ln 1000) * bpow radix2 (-60) <= Rabs (ln 1000) * (/ 10 * bpow radix2 (-53))) by (apply Rmult_le_compat_l; auto). assert (0 <= Rabs (ln 1000) * bpow radix2 (-53)) by (apply Rmult_le_pos; lra). lra.
Qed.

(** C120 *)
Theorem C120_sin_of_asin : forall v f (x : flt f), finite x = true -> bpow radix2 (4 - emax f) <= Rabs (B2R x) < 1 ->
  exists a s : flt f, gcem_asin v (AFlt f x) = Ok a /\ gcem_sin (AFlt f a) = Ok s /\ finite s = true /\
  rel_err (B2R s) (B2R x) (24 * bpow radix2 (- prec f) + bpow radix2 (-53)).
Proof. exact RoundTrip.sin_asin. Qed.
Print Assumptions C120_sin_of_asin.
Example C120_ex : exists a s : flt F32, gcem_asin Cxx11 (AFlt F32 (half F32)) = Ok a /\ gcem_sin (AFlt F32 a) = Ok s /\ finite s = true /\ rel_err (B2R s) (/ 2) (25 * bpow radix2 (-24)).
Proof.
  destruct (half_spec F32) as (V & F). destruct (C120_sin_of_asin Cxx11 F32 (half F32) F) as (a & s & Ea & Es & Fs & R); rewrite V in * .
  - rewrite Rabs_pos_eq by lra. split; [|lra]. change (/ 2) with (bpow radix2 (-1)). apply bpow_le. discriminate.
  - exists a, s. split. exact Ea. split. exact Es. split. exact Fs. eapply TanhAcc.rel_mono; [|exact R]. change (- prec F32)%Z with (-24)%Z. assert (bpow radix2 (-53) <= bpow radix2 (-24)) by (apply bpow_le; discriminate). lra.
Qed.

(** C121 *)
Theorem C121_erf_of_erf_inv : forall v f (p : flt f), finite p = true -> 2 * bpow radix2 (2 - emax f) <= Rabs (B2R p) <= 94 / 100 ->
  exists w e : flt f, gcem_erf_inv v (AFlt f p) = Ok w /\ gcem_erf v (AFlt f w) = Ok e /\ finite e = true /\
    rel_err (B2R e) (B2R p)
      (if Rle_dec (Rabs (B2R p)) (52 / 100) then 47 * bpow radix2 (- prec f) + bpow radix2 (-52) else
       if Rle_dec (Rabs (B2R p)) (84 / 100) then 328 * bpow radix2 (- prec f) + bpow radix2 (-52) else 1319 * bpow radix2 (- prec f) + bpow radix2 (-51)).
Proof. exact erf_of_inv. Qed.
Print Assumptions C121_erf_of_erf_inv.
Example C121_ex : exists w e : flt F32, gcem_erf_inv Cxx14 (AFlt F32 (half F32)) = Ok w /\ gcem_erf Cxx14 (AFlt F32 w) = Ok e /\ finite e = true /\ rel_err (B2R e) (/ 2) (48 * bpow radix2 (-24)).
Proof.
  destruct (half_spec F32) as (V & F). destruct (C121_erf_of_erf_inv Cxx14 F32 (half F32) F) as (a & s & Ea & Es & Fs & R); rewrite V in * .
  - rewrite Rabs_pos_eq by lra. split; [|lra]. change (2 * bpow radix2 (2 - emax F32)) with (bpow radix2 1 * bpow radix2 (2 - emax F32)). rewrite <- bpow_plus. change (/ 2) with (bpow radix2 (-1)). apply bpow_le. discriminate.
  - exists a, s. split. exact Ea. split. exact Es. split. exact Fs. eapply TanhAcc.rel_mono; [|exact R]. rewrite Rabs_pos_eq by lra. destruct (Rle_dec (/ 2) (52 / 100)) as [_|N]; [|exfalso; apply N; lra]. change (- prec F32)%Z with (-24)%Z. assert (bpow radix2 (-52) <= bpow radix2 (-24)) by (apply bpow_le; discriminate). lra.
Qed.

(** C122 *)
Theorem C122_tgamma_recurrence : forall v n f (x y : flt f), finite x = true -> finite y = true -> B2R y = B2R x + 1 -> / 2 <= B2R x ->
  B2R y <= match f with F32 => 32 | F64 => 170 | F80 => 1754 end ->
  exists g h : flt f, gcem_tgamma v (S n) (AFlt f x) = Ok g /\ gcem_tgamma v (S n) (AFlt f y) = Ok h /\ finite g = true /\ finite h = true /\
    rel_err (B2R h) (B2R x * B2R g) ((31 * B2R y * ln (B2R y + 5) + 331) * bpow radix2 (- prec f) + (5 * B2R y + 11) * bpow radix2 (-54)).
Proof. exact tgamma_rec. Qed.
Print Assumptions C122_tgamma_recurrence.
Example C122_ex : exists g h : flt F64, gcem_tgamma Cxx14 1 (AFlt F64 (ofZ F64 100)) = Ok g /\ gcem_tgamma Cxx14 1 (AFlt F64 (ofZ F64 101)) = Ok h /\ finite g = true /\ finite h = true /\
  rel_err (B2R h) (100 * B2R g) ((31 * 101 * ln (101 + 5) + 331) * bpow radix2 (-53) + (5 * 101 + 11) * bpow radix2 (-54)).
Proof.
  destruct (ofZ_small F64 100 ltac:(lia)) as (V & F & _). destruct (ofZ_small F64 101 ltac:(lia)) as (V' & F' & _).
  destruct (C122_tgamma_recurrence Cxx14 0 F64 (ofZ F64 100) (ofZ F64 101) F F') as (g & h & Eg & Eh & Fg & Fh & R); rewrite ?V, ?V'; try lra. rewrite V, V' in R. exists g, h. auto 10.
Qed.

(** C123 *)
Theorem C123_pow_agree : forall v f (x y : flt f) t n, in_range t n -> (0 <= n)%Z -> n <> imax t -> finite x = true -> finite y = true -> B2R y = IZR n -> IZR n <= bpow radix2 (prec f - 10) ->
  / 2 <= B2R x -> exp (Rabs (IZR n * ln (B2R x)) + 3) <= bpow radix2 (emax f - 9) ->
  exists a b : flt f, gcem_pow v (AFlt f x) (AInt t n) = Ok (AFlt f a) /\ gcem_pow v (AFlt f x) (AFlt f y) = Ok (AFlt f b) /\ finite a = true /\ finite b = true /\
    rel_err (B2R b) (B2R a) ((109 + 8 * Rabs (IZR n * ln (B2R x)) + 3 * IZR n) * bpow radix2 (- prec f) + bpow radix2 (-53) + Rabs (IZR n * ln (B2R x)) * bpow radix2 (-60)).
Proof. exact pow_agree. Qed.
Print Assumptions C123_pow_agree.
Example C123_ex : exists a b : flt F64, gcem_pow Cxx11 (AFlt F64 (ofZ F64 1)) (AInt I32 1000) = Ok (AFlt F64 a) /\ gcem_pow Cxx11 (AFlt F64 (ofZ F64 1)) (AFlt F64 (ofZ F64 1000)) = Ok (AFlt F64 b) /\ finite a = true /\ finite b = true.
Proof.
  destruct (ofZ_small F64 1 ltac:(lia)) as (V & F & _). destruct (ofZ_small F64 1000 ltac:(lia)) as (V' & F' & _).
  destruct (C123_pow_agree Cxx11 F64 (ofZ F64 1) (ofZ F64 1000) I32 1000) as (a & b & E1 & E2 & F1 & F2 & _); try lia; auto; rewrite ?V in * .
  - split; discriminate.
  - discriminate.
  - apply Rle_trans with (bpow radix2 10). change (bpow radix2 10) with 1024. lra. apply bpow_le. discriminate.
  - lra.
  - rewrite ln_1, Rmult_0_r, Rabs_R0. replace (0 + 3) with (1 + 1 + 1) by ring. rewrite !exp_plus. assert (E3 := exp_le_3). assert (P := exp_pos 1). apply Rle_trans with (3 * 3 * 3). repeat apply Rmult_le_compat; try lra. apply Rmult_le_pos; lra. apply Rle_trans with (bpow radix2 10). change (bpow radix2 10) with 1024. lra. apply bpow_le. discriminate.
  - exists a, b. auto.
Qed.
