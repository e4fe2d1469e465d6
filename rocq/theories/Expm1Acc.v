(** * Accuracy of expm1 *)
From Verif Require Import Base ModelBasic ModelInt ModelElem ModelApi FltLemmas Spec IntProofs BasicProofs ConvLemmas SymLemmas ScaleProofs TotalProofs ExpAcc MiscProofs.
From Coq Require Import Lra Psatz.
From Flocq Require Import Sterbenz.
From Coquelicot Require Import Coquelicot.
From Verif Require Import FPErr CFBound CFTrunc CFAcc TanAcc SinAcc TanhAcc SqrtAcc SqrtSimp AtanAcc LogAcc LogApi Log1pAcc.
From Interval Require Import Tactic.
Open Scope R_scope.

Lemma expm1_compute_acc {f} (x : flt f) : finite x = true -> Rabs (B2R x) <= 1001 / 10000000 ->
  finite (expm1_compute x) = true /\ Rabs (B2R (expm1_compute x) - (exp (B2R x) - 1)) <= 222 / 100 * uf f * Rmax (Rabs (B2R x)) (bpow radix2 (2 - emax f)).
Proof.
  intros Fx H. destruct (Xrng x H) as ((XA & XB) & XC). set (X := Rmax _ _) in * . assert (x0 := bpow_gt_0 radix2 (2 - emax f)). assert (X9 : X <= / 9000) by lra.
  assert (N2 := near_div X XA X9 x 2 Fx XC ltac:(lia)). assert (N3 := near_div X XA X9 x 6 Fx XC ltac:(lia)). assert (N4 := near_div X XA X9 x 24 Fx XC ltac:(lia)). destruct (near_sq X XA X9 x 120 Fx XC ltac:(lia)) as (N5 & R5).
  destruct (poly_acc X XA X9 x _ _ _ _ _ _ _ _ Fx XC N2 N3 N4 N5) as (F & E); auto. 1-3: apply neg_half; auto; lra.
  split; auto. fold (expm1_compute x) in E. assert (T := expm1_trunc (B2R x) H). set (P := B2R x + _) in * .
  assert (Q := Rabs_triang (B2R (expm1_compute x) - P) (P - (exp (B2R x) - 1))). replace (B2R (expm1_compute x) - P + (P - (exp (B2R x) - 1))) with (B2R (expm1_compute x) - (exp (B2R x) - 1)) in Q by ring.
  assert (U := uf_ge f). assert (/ 18446744073709551616 * X <= uf f * X) by (apply Rmult_le_compat_r; lra). unfold expm1_compute in Q, E |- * . lra.
Qed.
Lemma exp_low x : Rabs x <= 1001 / 10000000 -> 999 / 1000 * Rabs x <= Rabs (exp x - 1).
Proof.
  intros H. assert (G : Rabs (exp x - 1 - x) <= / 1000 * Rabs x). { apply (mvt0 (fun x => exp x - 1 - x) (fun x => exp x - 1)).
    - intros c Hc. assert (C : Rabs c <= 1001 / 10000000) by lra. apply Rabs_le_inv in C. split. auto_derive. auto. ring. interval.
    - rewrite exp_0. lra. }
  assert (T := Rabs_triang_inv x (x - (exp x - 1))). rewrite (Rabs_minus_sym x) in T. replace (x - (x - (exp x - 1))) with (exp x - 1) in T by ring. lra.
Qed.
Lemma api_expm1_small v f (x : flt f) : finite x = true -> bpow radix2 (2 - emax f) <= Rabs (B2R x) <= 9999 / 100000000 ->
  exists w, gcem_expm1 v (AFlt f x) = Ok w /\ finite w = true /\ rel_err (B2R w) (exp (B2R x) - 1) (23 / 10 * bpow radix2 (- prec f)).
Proof.
  intros Fx (H0 & H). change (bpow radix2 (- prec f)) with (uf f). unfold gcem_expm1, lift1. cbn [ret_fmt ret_val]. unfold expm1_check. rewrite finite_not_nan by auto. assert (u0 := uf_pos f).
  destruct (small_cases x Fx) as [(_ & C)|(-> & C)]. lra. destruct (expm1_compute_acc x Fx C) as (F & E). rewrite Rmax_left in E by auto. eexists. split; [reflexivity|]. split; auto. unfold rel_err. eapply Rle_trans. exact E.
  assert (L := exp_low _ C). assert (uf f * (999 / 1000 * Rabs (B2R x)) <= uf f * Rabs (exp (B2R x) - 1)) by (apply Rmult_le_compat_l; lra). assert (0 <= uf f * Rabs (B2R x)) by (apply Rmult_le_pos; [lra|apply Rabs_pos]). lra.
Qed.
(** ** exp(x) - 1 *)
Lemma sub_one {f} (e : flt f) : finite e = true -> 0 <= B2R e -> finite (e -. ofZ f 1) = true /\ B2R (e -. ofZ f 1) = rnd f (B2R e - 1).
Proof.
  intros Fe H. destruct (ofZ_small f 1 ltac:(lia)) as (V1 & F1 & _). destruct (fsub_spec e (ofZ f 1) Fe F1) as (V & F); [|rewrite V1 in V; auto].
  rewrite V1. destruct (Rle_or_lt 1 (B2R e)). apply Rle_lt_trans with (2 := B2R_lt_emax e). rewrite <- (rnd_B2R e) at 2. rewrite !rnd_abs. apply rnd_le. apply Rle_trans with (B2R e); [apply Rabs_le; lra|apply Rle_abs].
  apply wide_fin. apply Rle_trans with 1. apply Rabs_le; lra. cbn; lra.
Qed.
Lemma sub_one_exact {f} (e : flt f) : finite e = true -> / 2 <= B2R e <= 2 -> finite (e -. ofZ f 1) = true /\ B2R (e -. ofZ f 1) = B2R e - 1.
Proof.
  intros Fe H. destruct (ofZ_small f 1 ltac:(lia)) as (V1 & F1 & _). destruct (fsub_exact e (ofZ f 1) Fe F1) as (Va & Fa); [| |rewrite V1 in Va; auto].
  { rewrite V1. apply sterbenz. apply FLT_exp_valid. apply prec_pos. apply FLT_exp_monotone. apply fmt_format. apply (fmt_IZR f 1). destruct f; cbn; lia. lra. } { rewrite V1. apply Rle_lt_trans with (bpow radix2 0). cbn. apply Rabs_le. lra. apply bpow_lt. destruct f; reflexivity. }
Qed.
Lemma expm1_from_exp {f} (e : flt f) E c : finite e = true -> 0 < E -> 0 <= c <= / 1000 -> rel_err (B2R e) E c ->
  finite (e -. ofZ f 1) = true /\ Rabs (B2R (e -. ofZ f 1) - (E - 1)) <= c * E + uf f * (Rabs (E - 1) + c * E + / 1000).
Proof.
  intros Fe E0 Hc R. unfold rel_err in R. rewrite (Rabs_pos_eq E) in R by lra. assert (cE : 0 <= c * E <= / 1000 * E) by (split; [apply Rmult_le_pos; lra|apply Rmult_le_compat_r; lra]). assert (R' := R). apply Rabs_le_inv in R'.
  destruct (sub_one e Fe ltac:(lra)) as (F & V). split; auto. rewrite V. assert (u0 := uf_pos f).
  assert (T := Rabs_triang (rnd f (B2R e - 1) - (B2R e - 1)) (B2R e - E)). replace (rnd f (B2R e - 1) - (B2R e - 1) + (B2R e - E)) with (rnd f (B2R e - 1) - (E - 1)) in T by ring.
  assert (Q := rnd_fm f (B2R e - 1)). assert (T2 := Rabs_triang (E - 1) (B2R e - E)). replace (E - 1 + (B2R e - E)) with (B2R e - 1) in T2 by ring. assert (E1 := Rabs_pos (E - 1)).
  assert (M : Rmax (Rabs (B2R e - 1)) (bpow radix2 (2 - emax f)) <= Rabs (E - 1) + c * E + / 1000). { apply Rmax_lub. lra. apply Rle_trans with (bpow radix2 (-10)). apply bpow_le. destruct f; discriminate. cbn. lra. }
  apply (Rmult_le_compat_l (uf f)) in M; lra.
Qed.
Lemma api_expm1_mid v f (x : flt f) : finite x = true -> Rabs (B2R x) <= / 2 ->
  exists w, gcem_expm1 v (AFlt f x) = Ok w /\ finite w = true /\ Rabs (B2R w - (exp (B2R x) - 1)) <= (8 * bpow radix2 (- prec f) + bpow radix2 (-55)) * exp (B2R x).
Proof.
  intros Fx H. unfold gcem_expm1, lift1. cbn [ret_fmt ret_val]. unfold expm1_check. rewrite finite_not_nan by auto. assert (u0 := uf_pos f). assert (u1 := uf_le f). change (bpow radix2 (-24)) with (/ 16777216) in u1.
  assert (H' := H). apply Rabs_le_inv in H'. assert (EB : 60 / 100 <= exp (B2R x) <= 17 / 10) by (split; interval).
  destruct (small_cases x Fx) as [(-> & C)|(-> & C)].
  - destruct (exp_check_acc v x 8 Fx ltac:(lra)) as (e & E & Fe & R). destruct Rle_dec; [reflexivity|contradiction]. rewrite E. cbn [bind]. unfold rel_err in R. rewrite (Rabs_pos_eq (exp _)) in R by lra.
    change (bpow radix2 (- prec f)) with (uf f) in * . assert (B : 8 * uf f + bpow radix2 (-55) <= / 1000) by (change (bpow radix2 (-55)) with (/ 36028797018963968); lra). assert (b0 := bpow_gt_0 radix2 (-55)).
    assert ((8 * uf f + bpow radix2 (-55)) * exp (B2R x) <= / 1000 * exp (B2R x)) by (apply Rmult_le_compat_r; lra). assert (R' := R). apply Rabs_le_inv in R'.
    destruct (sub_one_exact e Fe ltac:(lra)) as (F & V). eexists. split; [reflexivity|]. split; auto. rewrite V. replace (B2R e - 1 - (exp (B2R x) - 1)) with (B2R e - exp (B2R x)) by ring. exact R.
  - destruct (expm1_compute_acc x Fx C) as (F & E). destruct (Xrng x C) as (XA & _). eexists. split; [reflexivity|]. split; auto. eapply Rle_trans. exact E. change (bpow radix2 (- prec f)) with (uf f). assert (b0 := bpow_gt_0 radix2 (-55)).
    assert (uf f * Rmax (Rabs (B2R x)) (bpow radix2 (2 - emax f)) <= uf f * (1001 / 10000000)) by (apply Rmult_le_compat_l; lra). apply Rle_trans with (8 * uf f * (60 / 100)). lra. apply Rmult_le_compat; lra.
Qed.
Lemma expm1_branch v {f} (x : flt f) : finite x = true -> / 2 <= Rabs (B2R x) -> expm1_check v x = bind (exp_check v x) (fun e => Ok (e -. ofZ f 1)).
Proof. intros Fx H. unfold expm1_check. rewrite finite_not_nan by auto. destruct (small_cases x Fx) as [(-> & C)|(_ & C)]. reflexivity. lra. Qed.
Lemma api_expm1_pos v f (x : flt f) : finite x = true -> 2 <= B2R x -> exp (B2R x + 2) <= bpow radix2 (emax f - 9) ->
  exists w, gcem_expm1 v (AFlt f x) = Ok w /\ finite w = true /\
    rel_err (B2R w) (exp (B2R x) - 1) (13 * bpow radix2 (- prec f) + bpow radix2 (-53) + (B2R x + 3) * bpow radix2 (-60)).
Proof.
  intros Fx X B. destruct (api_exp_pos v f x Fx X B) as (e & Ee & Fe & R). unfold gcem_expm1, lift1. cbn [ret_fmt ret_val]. rewrite expm1_branch; auto. 2: { rewrite Rabs_pos_eq; lra. }
  unfold gcem_exp, lift1 in Ee. cbn [ret_fmt ret_val] in Ee. rewrite Ee. cbn [bind]. change (bpow radix2 (- prec f)) with (uf f) in * . set (E := exp (B2R x)) in * .
  assert (E7 : 7 <= E). { apply Rle_trans with (exp 2). interval. apply exp_le. lra. }
  assert (u0 := uf_pos f). assert (u1 := uf_le f). change (bpow radix2 (-24)) with (/ 16777216) in u1. assert (XB : B2R x <= 20000). { assert (b := B). rewrite bpow_exp in b. apply (ln_le_le _ _ (exp_pos _)) in b. rewrite !ln_exp in b. change (IZR radix2) with 2 in b. assert (l2 := ln2_rng). assert (Z : (emax f - 9 <= 16384)%Z) by (destruct f; cbn; lia). apply IZR_le in Z. assert (0 <= IZR (emax f - 9)) by (apply (IZR_le 0); destruct f; cbn; lia). assert (IZR (emax f - 9) * ln 2 <= 16384 * 1) by (apply Rmult_le_compat; lra). lra. }
  assert (b1 : bpow radix2 (-54) = / 18014398509481984) by reflexivity. assert (b2 : bpow radix2 (-53) = / 9007199254740992) by reflexivity. assert (b3 : bpow radix2 (-61) = / 2305843009213693952) by reflexivity. assert (b4 : bpow radix2 (-60) = / 1152921504606846976) by reflexivity. rewrite b1, b3 in R. rewrite b2, b4.
  set (c := 10 * uf f + / 18014398509481984 + (B2R x + 3) * / 2305843009213693952) in * . assert (C : 0 <= c <= / 1000) by (unfold c; lra).
  destruct (expm1_from_exp e E c Fe ltac:(lra) C R) as (F & G). eexists. split; [reflexivity|]. split; auto. unfold rel_err. cbn [ret_fmt] in G. eapply Rle_trans. exact G. rewrite (Rabs_pos_eq (E - 1)) by lra.
  assert (cE : c * E <= c * (7 / 6 * (E - 1))) by (apply Rmult_le_compat_l; lra). assert (cE2 : c * (7 / 6 * (E - 1)) <= / 1000 * (7 / 6 * (E - 1))) by (apply Rmult_le_compat_r; lra).
  assert (uE : uf f * (E - 1 + c * E + / 1000) <= uf f * ((E - 1) * (11 / 10))) by (apply Rmult_le_compat_l; lra).
  apply Rle_trans with ((7 / 6 * c + 11 / 10 * uf f) * (E - 1)). lra. apply Rmult_le_compat_r. lra. unfold c. lra.
Qed.
(** Arguments below -1/2: the result is exp(x) - 1 with a small absolute error. *)
Lemma api_expm1_neg v f (x : flt f) : finite x = true -> B2R x <= -2 -> exp (2 - B2R x) <= bpow radix2 (emax f - 9) ->
  exists w, gcem_expm1 v (AFlt f x) = Ok w /\ finite w = true /\
    rel_err (B2R w) (exp (B2R x) - 1) (19 * bpow radix2 (- prec f) + bpow radix2 (-56) + (3 - B2R x) * bpow radix2 (-63)).
Proof.
  intros Fx X B. destruct (api_exp_neg v f x Fx X B) as (e & Ee & Fe & R). unfold gcem_expm1, lift1. cbn [ret_fmt ret_val]. rewrite expm1_branch; auto. 2: { rewrite Rabs_left; lra. }
  unfold gcem_exp, lift1 in Ee. cbn [ret_fmt ret_val] in Ee. rewrite Ee. cbn [bind]. change (bpow radix2 (- prec f)) with (uf f) in * . set (E := exp (B2R x)) in * .
  assert (E7 : 0 < E <= 136 / 1000). { split. apply exp_pos. apply Rle_trans with (exp (-2)). apply exp_le. lra. interval. }
  assert (u0 := uf_pos f). assert (u1 := uf_le f). change (bpow radix2 (-24)) with (/ 16777216) in u1. assert (XB : - 20000 <= B2R x). { assert (b := B). rewrite bpow_exp in b. apply (ln_le_le _ _ (exp_pos _)) in b. rewrite !ln_exp in b. change (IZR radix2) with 2 in b. assert (l2 := ln2_rng). assert (Z : (emax f - 9 <= 16384)%Z) by (destruct f; cbn; lia). apply IZR_le in Z. assert (0 <= IZR (emax f - 9)) by (apply (IZR_le 0); destruct f; cbn; lia). assert (IZR (emax f - 9) * ln 2 <= 16384 * 1) by (apply Rmult_le_compat; lra). lra. }
  assert (b1 : bpow radix2 (-54) = / 18014398509481984) by reflexivity. assert (b2 : bpow radix2 (-56) = / 72057594037927936) by reflexivity. assert (b3 : bpow radix2 (-61) = / 2305843009213693952) by reflexivity. assert (b4 : bpow radix2 (-63) = / 9223372036854775808) by reflexivity. rewrite b1, b3 in R. rewrite b2, b4.
  set (c := 108 * uf f + / 18014398509481984 + (3 - B2R x) * / 2305843009213693952) in * . assert (C : 0 <= c <= / 1000) by (unfold c; lra).
  destruct (expm1_from_exp e E c Fe ltac:(lra) C R) as (F & G). eexists. split; [reflexivity|]. split; auto. unfold rel_err. cbn [ret_fmt] in G. eapply Rle_trans. exact G. rewrite (Rabs_left (E - 1)) by lra. replace (- (E - 1)) with (1 - E) by ring.
  assert (cE : c * E <= c * (16 / 100 * (1 - E))) by (apply Rmult_le_compat_l; lra). assert (cE2 : c * (16 / 100 * (1 - E)) <= / 1000 * (16 / 100 * (1 - E))) by (apply Rmult_le_compat_r; lra).
  assert (uE : uf f * (1 - E + c * E + / 1000) <= uf f * ((1 - E) * (11 / 10))) by (apply Rmult_le_compat_l; lra).
  apply Rle_trans with ((16 / 100 * c + 11 / 10 * uf f) * (1 - E)). lra. apply Rmult_le_compat_r. lra. unfold c. lra.
Qed.
(** ** The loss of accuracy just above the threshold *)
Definition em1_m (f : fmt) : positive * Z := match f with F32 => (8392184%positive, 1024%Z) | F64 => (4503599627371512%positive, 549789369685%Z) | F80 => (9223372036854779879%positive, 1125968629115648%Z) end.
Definition em1_arg (f : fmt) : flt f := ofZ f (Zpos (fst (em1_m f))) /. ofZ f (2 ^ prec f) /. ofZ f 4096.
Lemma em1_arg_val f : finite (em1_arg f) = true /\ B2R (em1_arg f) = IZR (Zpos (fst (em1_m f))) * uf f / 4096.
Proof.
  destruct f; [destruct (sf_val (em1_arg F32) false 8392184%positive (-36)%Z) as (F & B); [vm_compute; reflexivity|]|destruct (sf_val (em1_arg F64) false 4503599627371512%positive (-65)%Z) as (F & B); [vm_compute; reflexivity|]|destruct (sf_val (em1_arg F80) false 9223372036854779879%positive (-76)%Z) as (F & B); [vm_compute; reflexivity|]];
  (split; [exact F|rewrite B; unfold F2R, uf; cbn; lra]).
Qed.
Lemma em1_frac f : (IZR (snd (em1_m f)) + 49 / 100) * (2 * uf f) <= exp (B2R (em1_arg f)) - 1 <= (IZR (snd (em1_m f)) + 51 / 100) * (2 * uf f).
Proof. rewrite (proj2 (em1_arg_val f)). destruct f; cbn [em1_m fst snd]; unfold uf; cbn; split; interval with (i_prec 120). Qed.
Lemma mult_2u {f} (x : flt f) : finite x = true -> 1 <= B2R x -> exists k, B2R x = IZR k * (2 * uf f).
Proof.
  intros Fx L. assert (G := fmt_format x). pose proof (prec_pos f). assert (E2 : 2 * uf f = bpow radix2 (1 - prec f)). { unfold Z.sub. rewrite bpow_plus. reflexivity. } rewrite E2.
  assert (C : (1 - prec f <= cexp radix2 (fexpf f) (B2R x))%Z).
  { unfold cexp. assert (M : (1 <= mag radix2 (B2R x))%Z). { apply mag_ge_bpow. change (bpow radix2 (1 - 1)) with 1. rewrite Rabs_pos_eq; lra. } rewrite fexpf_FLT. unfold FLT_exp. lia. }
  exists (Ztrunc (scaled_mantissa radix2 (fexpf f) (B2R x)) * 2 ^ (cexp radix2 (fexpf f) (B2R x) - (1 - prec f)))%Z.
  rewrite G at 1. unfold F2R. cbn [Fnum Fexp]. rewrite mult_IZR, <- bpow_IZR by lia. rewrite Rmult_assoc, <- bpow_plus. do 2 f_equal. lia.
Qed.
Lemma api_expm1_bad v f : exists x : flt f, finite x = true /\ / 10000 <= B2R x <= / 8000 /\
  exists w, gcem_expm1 v (AFlt f x) = Ok w /\ finite w = true /\ 8000 * bpow radix2 (- prec f) * Rabs (exp (B2R x) - 1) <= Rabs (B2R w - (exp (B2R x) - 1)).
Proof.
  exists (em1_arg f). destruct (em1_arg_val f) as (Fx & Vx). assert (u0 := uf_pos f). assert (u1 := uf_le f). change (bpow radix2 (-24)) with (/ 16777216) in u1. change (bpow radix2 (- prec f)) with (uf f).
  assert (XB : / 8192 <= B2R (em1_arg f) <= 12214 / 100000000) by (rewrite Vx; destruct f; cbn [em1_m fst snd]; unfold uf; cbn; lra). assert (FR := em1_frac f). set (n := snd (em1_m f)) in * . set (x := em1_arg f) in * .
  split; auto. split. lra. unfold gcem_expm1, lift1. cbn [ret_fmt ret_val]. unfold expm1_check. rewrite finite_not_nan by auto.
  destruct (small_cases x Fx) as [(-> & C)|(_ & C)]. 2: { rewrite Rabs_pos_eq in C; lra. }
  destruct (exp_check_acc v x 8 Fx) as (e & E & Fe & R). rewrite Rabs_pos_eq; lra. destruct Rle_dec as [?|N]; [reflexivity|rewrite Rabs_pos_eq in N; lra]. rewrite E. cbn [bind].
  assert (EB : 12207 / 100000000 <= exp (B2R x) - 1 <= 12215 / 100000000) by (split; interval). set (r := exp (B2R x)) in * . unfold rel_err in R. rewrite (Rabs_pos_eq r) in R by lra. change (bpow radix2 (- prec f)) with (uf f) in R. change (bpow radix2 (-55)) with (/ 36028797018963968) in R.
  assert (R2 : (8 * uf f + / 36028797018963968) * r <= 9 * / 16777216 * r) by (apply Rmult_le_compat_r; lra). apply Rabs_le_inv in R. 
  destruct (sub_one_exact e Fe ltac:(lra)) as (F & V). eexists. split; [reflexivity|]. split; auto. rewrite V. destruct (mult_2u e Fe ltac:(lra)) as (k & K). destruct (mult_2u (ofZ f 1)) as (k1 & K1). apply ofZ_small; lia. rewrite (proj1 (ofZ_small f 1 ltac:(lia))). lra. rewrite (proj1 (ofZ_small f 1 ltac:(lia))) in K1.
  replace (B2R e - 1) with (IZR (k - k1) * (2 * uf f)) by (rewrite minus_IZR; lra). rewrite (Rabs_pos_eq (r - 1)) by lra.
  apply Rle_trans with (98 / 100 * uf f). { replace (8000 * uf f * (r - 1)) with (uf f * (8000 * (r - 1))) by ring. rewrite (Rmult_comm (98 / 100)). apply Rmult_le_compat_l; lra. }
  destruct (Z.le_gt_cases (k - k1) n) as [L|L].
  - apply IZR_le in L. assert (IZR (k - k1) * (2 * uf f) <= IZR n * (2 * uf f)) by (apply Rmult_le_compat_r; lra). rewrite Rabs_minus_sym. eapply Rle_trans; [|apply Rle_abs]. lra.
  - assert (L2 : (n + 1 <= k - k1)%Z) by lia. apply IZR_le in L2. rewrite plus_IZR in L2. assert ((IZR n + 1) * (2 * uf f) <= IZR (k - k1) * (2 * uf f)) by (apply Rmult_le_compat_r; lra). eapply Rle_trans; [|apply Rle_abs]. lra.
Qed.
