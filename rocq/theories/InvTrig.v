(** * Accuracy of asin, acos and atan2 *)
From Verif Require Import Base ModelBasic ModelInt ModelElem ModelApi FltLemmas Spec IntProofs BasicProofs ConvLemmas ExpAcc MiscProofs CxxProofs.
From Coq Require Import Lra.
From Coquelicot Require Import Coquelicot.
From Verif Require Import FPErr CFBound CFTrunc CFAcc TanAcc SinAcc TanhAcc SqrtAcc SqrtSimp LogAcc TrigApi SinhAcc LogBad.
From Interval Require Import Tactic.
Open Scope R_scope.

Lemma rnd_half_u f z : Rabs z < 1 -> Rabs (rnd f z - z) <= uf f / 2.
Proof.
  intros H. assert (u0 := uf_pos f). destruct (Req_dec z 0) as [->|N]. rewrite rnd_0, Rminus_0_r, Rabs_R0. lra.
  assert (E := error_le_half_ulp radix2 (fexpf f) (fun z => negb (Z.even z)) z). change (Rabs (rnd f z - z) <= / 2 * ulp radix2 (fexpf f) z) in E. apply Rle_trans with (1 := E).
  assert (U : ulp radix2 (fexpf f) z <= bpow radix2 (- prec f)). { rewrite ulp_neq_0 by auto. apply bpow_le. unfold cexp. assert (M : (mag radix2 z <= 0)%Z) by (apply mag_le_bpow; auto). unfold fexpf, SpecFloat.fexp, SpecFloat.emin. destruct f; cbn; lia. } unfold uf. lra.
Qed.
(** Square root of a perturbed value. *)
Lemma sqrt_pert eta a : Rabs eta <= a -> a <= 27 / 100 -> Rabs (sqrt (1 + eta) - 1) <= 54 / 100 * a /\ Rabs (/ sqrt (1 + eta) - 1) <= 6325 / 10000 * a.
Proof.
  intros H A. assert (a0 : 0 <= a) by (assert (P := Rabs_pos eta); lra). apply Rabs_le_inv in H.
  assert (L : 1 - 54 / 100 * a <= sqrt (1 + eta)). { apply Rsqr_incr_0_var; [|apply sqrt_pos]. rewrite Rsqr_sqrt by lra. unfold Rsqr. nra. }
  assert (U : sqrt (1 + eta) <= 1 + 54 / 100 * a). { apply Rsqr_incr_0_var; [|lra]. rewrite Rsqr_sqrt by lra. unfold Rsqr. nra. }
  split. apply Rabs_le. lra. assert (S0 : 85 / 100 <= sqrt (1 + eta)) by lra. set (s := sqrt (1 + eta)) in * . replace (/ s - 1) with ((1 - s) / s) by (field; lra). unfold Rdiv. rewrite Rabs_mult. rewrite (Rabs_pos_eq (/ s)) by (left; apply Rinv_0_lt_compat; lra).
  assert (Q : Rabs (1 - s) <= 54 / 100 * a) by (apply Rabs_le; lra). assert (I : / s <= / (1 - 54 / 100 * a)) by (apply Rinv_le; lra). assert (I2 : / (1 - 54 / 100 * a) <= / (8542 / 10000)) by (apply Rinv_le; lra).
  apply Rle_trans with (54 / 100 * a * / (8542 / 10000)); [|lra]. apply Rmult_le_compat. apply Rabs_pos. left; apply Rinv_0_lt_compat; lra. auto. lra.
Qed.
Lemma atan_pert t e E : 0 < t -> Rabs e <= E -> E <= / 5 -> Rabs (atan (t * (1 + e)) - atan t) <= (E + 29 / 10 * (E * E)) * (t / (1 + t * t)).
Proof.
  intros T H HE. assert (E0 : 0 <= E) by (assert (P := Rabs_pos e); lra). assert (H' := H). apply Rabs_le_inv in H'.
  apply Rle_trans with (/ (1 + (1 - E) * t * ((1 - E) * t)) * Rabs (t * (1 + e) - t)).
  - apply (mvt atan (fun z => / (1 + z * z))). intros z Hz. assert (Z : (1 - E) * t <= z). { apply Rle_trans with (2 := proj1 Hz). apply Rmin_glb; nra. }
    assert (0 <= (1 - E) * t) by (apply Rmult_le_pos; lra). split. auto_derive; auto. unfold Rsqr. field. nra. rewrite Rabs_pos_eq by (left; apply Rinv_0_lt_compat; nra). apply Rinv_le. nra. nra.
  - replace (t * (1 + e) - t) with (t * e) by ring. rewrite Rabs_mult, (Rabs_pos_eq t) by lra. 
    assert (D : (1 - E) * (1 - E) * (1 + t * t) <= 1 + (1 - E) * t * ((1 - E) * t)) by nra. assert (D0 : 0 < (1 - E) * (1 - E)) by nra. assert (T0 : 0 < 1 + t * t) by nra.
    apply Rle_trans with (/ ((1 - E) * (1 - E) * (1 + t * t)) * (t * E)). apply Rmult_le_compat. left; apply Rinv_0_lt_compat; nra. apply Rmult_le_pos; [lra|apply Rabs_pos]. apply Rinv_le; auto. apply Rmult_lt_0_compat; auto. apply Rmult_le_compat_l; lra.
    replace (/ ((1 - E) * (1 - E) * (1 + t * t)) * (t * E)) with (E * / ((1 - E) * (1 - E)) * (t / (1 + t * t))) by (field; lra). apply Rmult_le_compat_r. left; apply Rdiv_lt_0_compat; lra.
    assert (I : / ((1 - E) * (1 - E)) <= 1 + 29 / 10 * E). { apply Rmult_le_reg_l with ((1 - E) * (1 - E)). auto. rewrite Rinv_r by lra. assert (0 <= E * (1 - 5 * E)) by (apply Rmult_le_pos; lra). nra. } 
    apply Rle_trans with (E * (1 + 29 / 10 * E)). apply Rmult_le_compat_l; lra. lra.
Qed.

Lemma below_one {f} (x : flt f) : finite x = true -> B2R x < 1 -> B2R x <= 1 - uf f.
Proof.
  intros F L. assert (u0 := uf_pos f). assert (u1 := uf_le f). change (bpow radix2 (-24)) with (/ 16777216) in u1. destruct (Rlt_or_le (B2R x) (/ 2)). lra. assert (G := gap_one x F H ltac:(lra)). fold (uf f) in G. rewrite Rabs_left in G; lra.
Qed.
Section Circ.
Context {f : fmt}.
Variable (x : flt f).
Hypothesis (Fx : finite x = true) (X0 : 0 <= B2R x) (X1 : B2R x < 1).
Let D := 1 - B2R x * B2R x.
Let u0 := uf_pos f.
Let u1 : uf f <= / 16777216 := uf_le f.
Lemma circ_D : 199 / 100 * uf f <= D <= 1.
Proof. assert (L := below_one x Fx X1). unfold D. assert (B2R x * B2R x <= (1 - uf f) * (1 - uf f)) by (apply Rmult_le_compat; lra). assert (0 <= B2R x * B2R x) by nra. assert (uf f * uf f <= uf f * / 16777216) by (apply Rmult_le_compat_l; lra). lra. Qed.
Lemma circ_d : finite (ofZ f 1 -. x *. x) = true /\ Rabs (B2R (ofZ f 1 -. x *. x) - D) <= uf f * (/ 2 + D + uf f).
Proof.
  destruct circ_D as (D0 & D1). destruct (ofZ_small f 1 ltac:(lia)) as (V1 & F1 & _). change (IZR 1) with 1 in V1. assert (XX : Rabs (B2R x * B2R x) < 1). { rewrite Rabs_pos_eq by nra. unfold D in D0. lra. }
  destruct (op_mul x x Fx Fx) as (Fq & Vq). cbn; lra. assert (Q := rnd_half_u f _ XX). set (q := x *. x) in * . rewrite <- Vq in Q. assert (Qb := Q). apply Rabs_le_inv in Qb.
  destruct (op_sub (ofZ f 1) q F1 Fq) as (Fd & Vd). { rewrite V1. rewrite Rabs_pos_eq in XX by nra. apply Rabs_le. cbn; nra. } split; auto. rewrite V1 in Vd. rewrite Vd. assert (R := rnd_small f (1 - B2R q)). set (z := B2R x * B2R x) in * .
  assert (b : 0 < bpow radix2 (-100) <= / 1000000) by (split; [apply bpow_gt_0|cbn; lra]). assert (AB : Rabs (1 - B2R q) <= D + uf f / 2). { apply Rabs_le. unfold D. fold z. unfold D in D0. fold z in D0. lra. }
  (* the small constant of rnd_small is absorbed by the slack between u/2 and u *)
  assert (BU : bpow radix2 (-100) <= uf f / 2). { unfold uf. apply Rle_trans with (bpow radix2 (-1 - prec f)). apply bpow_le. destruct f; cbn; lia. unfold Zminus. rewrite bpow_plus. cbn. lra. }
  assert (uf f * Rabs (1 - B2R q) <= uf f * (D + uf f / 2)) by (apply Rmult_le_compat_l; lra). assert (uf f * bpow radix2 (-100) <= uf f * (uf f / 2)) by (apply Rmult_le_compat_l; lra).
  assert (T := Rabs_triang (rnd f (1 - B2R q) - (1 - B2R q)) (z - B2R q)). replace (rnd f (1 - B2R q) - (1 - B2R q) + (z - B2R q)) with (rnd f (1 - B2R q) - D) in T by (unfold D, z; ring). rewrite (Rabs_minus_sym z) in T. lra.
Qed.
Lemma circ_sqrt : exists s, sqrt_check (ofZ f 1 -. x *. x) = Ok s /\ finite s = true /\ 0 < B2R s /\
  Rabs (B2R s / sqrt D - 1) <= (225 / 100 + 271 / 1000 / D) * uf f /\ Rabs (sqrt D / B2R s - 1) <= (235 / 100 + 32 / 100 / D) * uf f.
Proof.
  destruct circ_D as (D0 & D1). destruct circ_d as (Fd & Vd). set (d := ofZ f 1 -. x *. x) in * . assert (DP : 0 < D) by lra.
  set (eta := (B2R d - D) / D). set (z := uf f / D). assert (Z0 : 0 <= z <= 5026 / 10000). { unfold z. split. left; apply Rdiv_lt_0_compat; lra. apply Rmult_le_reg_r with D. auto. unfold Rdiv. rewrite Rmult_assoc, Rinv_l by lra. lra. }
  set (a := uf f + 5000001 / 10000000 * z). assert (A : Rabs eta <= a). { unfold eta, Rdiv. rewrite Rabs_mult, (Rabs_pos_eq (/ D)) by (left; apply Rinv_0_lt_compat; lra). apply Rmult_le_reg_r with D. auto. rewrite Rmult_assoc, Rinv_l, Rmult_1_r by lra. apply Rle_trans with (1 := Vd). unfold a, z. replace ((uf f + 5000001 / 10000000 * (uf f / D)) * D) with (uf f * (D + 5000001 / 10000000)) by (field; lra). apply Rmult_le_compat_l; lra. }
  assert (A27 : a <= 27 / 100) by (unfold a; lra). assert (a0 : 0 <= a) by (unfold a; lra). destruct (sqrt_pert eta a A A27) as (P1 & P2). assert (A' := A). apply Rabs_le_inv in A'.
  assert (dE : B2R d = D * (1 + eta)) by (unfold eta; field; lra). assert (dP : 73 / 100 * D <= B2R d) by (rewrite dE; nra).
  destruct (sqrt_check_acc f d Fd) as (s & Es & Fs & Rs). { apply Rle_trans with (uf f); [|lra]. unfold uf. apply bpow_le. destruct f; cbn; lia. } { apply Rle_trans with (uf f); [|lra]. unfold uf. apply bpow_le. destruct f; cbn; lia. }
  destruct (Rle_dec (B2R d) 100) as [?|N]. 2: { exfalso. apply N. rewrite dE. nra. }
  assert (SD : sqrt (B2R d) = sqrt D * sqrt (1 + eta)) by (rewrite dE; apply sqrt_mult; lra). assert (RD : 0 < sqrt D) by (apply sqrt_lt_R0; auto). set (k := sqrt (1 + eta)) in * .
  assert (K : 85 / 100 <= k <= 115 / 100) by (apply Rabs_le_inv in P1; lra). unfold rel_err in Rs. rewrite SD in Rs. rewrite (Rabs_pos_eq (sqrt D * k)) in Rs by nra.
  change (FPErr.uf f) with (uf f) in Rs. set (e := B2R s / (sqrt D * k) - 1). assert (E : Rabs e <= 17 / 10 * uf f). { unfold e. replace (B2R s / (sqrt D * k) - 1) with ((B2R s - sqrt D * k) / (sqrt D * k)) by (field; lra). unfold Rdiv. rewrite Rabs_mult, (Rabs_pos_eq (/ _)) by (left; apply Rinv_0_lt_compat; nra). apply Rmult_le_reg_r with (sqrt D * k). nra. rewrite Rmult_assoc, Rinv_l, Rmult_1_r by nra. exact Rs. }
  assert (sE : B2R s = sqrt D * k * (1 + e)) by (unfold e; field; lra). assert (E' := E). apply Rabs_le_inv in E'. exists s. split; auto. split; auto. split. { rewrite sE. apply Rmult_lt_0_compat. nra. lra. }
  replace (271 / 1000 / D) with (271 / 1000 * / D) by reflexivity. assert (zE : / D * uf f = z) by (unfold z, Rdiv; ring). assert (b1 : uf f * z <= / 16777216 * z) by (apply Rmult_le_compat_r; lra). assert (b2 : uf f * uf f <= uf f * / 16777216) by (apply Rmult_le_compat_l; lra).
  split.
  - replace (B2R s / sqrt D - 1) with ((k - 1) + k * e) by (rewrite sE; field; lra). eapply Rle_trans. apply Rabs_triang. rewrite Rabs_mult, (Rabs_pos_eq k) by lra. assert (KE : k * Rabs e <= (1 + 54 / 100 * a) * (17 / 10 * uf f)). { apply Rmult_le_compat; auto. lra. apply Rabs_pos. apply Rabs_le_inv in P1. lra. }
    apply Rle_trans with (54 / 100 * a + (1 + 54 / 100 * a) * (17 / 10 * uf f)). lra. replace ((225 / 100 + 271 / 1000 * / D) * uf f) with (225 / 100 * uf f + 271 / 1000 * z) by (rewrite <- zE; ring). unfold a. lra.
  - replace (sqrt D / B2R s - 1) with ((/ k - 1) - / k * (e / (1 + e))) by (rewrite sE; field; lra). unfold Rminus at 1. eapply Rle_trans. apply Rabs_triang. rewrite Rabs_Ropp, Rabs_mult.
    assert (E2 : Rabs (e / (1 + e)) <= 1701 / 1000 * uf f). { unfold Rdiv. rewrite Rabs_mult. rewrite (Rabs_pos_eq (/ _)) by (left; apply Rinv_0_lt_compat; lra). apply Rle_trans with (17 / 10 * uf f * / (99999 / 100000)). apply Rmult_le_compat; auto. apply Rabs_pos. left; apply Rinv_0_lt_compat; lra. apply Rinv_le; lra. lra. }
    assert (K2 : Rabs (/ k) <= 1 + 6325 / 10000 * a). { apply Rabs_le_inv in P2. rewrite Rabs_pos_eq; lra. }
    assert (KE : Rabs (/ k) * Rabs (e / (1 + e)) <= (1 + 6325 / 10000 * a) * (1701 / 1000 * uf f)). { apply Rmult_le_compat; auto; apply Rabs_pos. }
    replace (32 / 100 / D) with (32 / 100 * / D) by reflexivity. replace ((235 / 100 + 32 / 100 * / D) * uf f) with (235 / 100 * uf f + 32 / 100 * z) by (rewrite <- zE; ring). apply Rle_trans with (6325 / 10000 * a + (1 + 6325 / 10000 * a) * (1701 / 1000 * uf f)). lra. unfold a. lra.
Qed.
End Circ.

(** atan of a perturbed quotient. *)
Lemma atan_quot v {f} (t : flt f) T D P : finite t = true -> bpow radix2 (2 - emax f) <= B2R t -> 0 < T -> 199 / 100 * uf f <= D -> Rabs (B2R t / T - 1) <= (34 / 10 + 33 / 100 / D) * uf f -> T / (1 + T * T) = P ->
  exists w, atan_check v t = Ok w /\ finite w = true /\ Rabs (B2R w - atan T) <= (8 * uf f + bpow radix2 (-54)) * atan T + (351 / 100 + 51 / 100 / D) * uf f * P.
Proof.
  intros Ft T0 TP D0 H PE. assert (u0 := uf_pos f). assert (u1 := uf_le f). change (bpow radix2 (-24)) with (/ 16777216) in u1. set (z := uf f / D). assert (Z0 : 0 <= z <= 5026 / 10000). { unfold z. split. left; apply Rdiv_lt_0_compat; lra. apply Rmult_le_reg_r with D. lra. unfold Rdiv. rewrite Rmult_assoc, Rinv_l by lra. lra. }
  set (E := 34 / 10 * uf f + 33 / 100 * z). replace ((34 / 10 + 33 / 100 / D) * uf f) with E in H by (unfold E, z; field; lra). assert (E5 : E <= / 5) by (unfold E; lra).
  set (e := B2R t / T - 1) in * . assert (tE : B2R t = T * (1 + e)) by (unfold e; field; lra).
  assert (Q := atan_pert T e E TP H E5). rewrite <- tE, PE in Q. assert (P0 : 0 <= P) by (rewrite <- PE; left; apply Rdiv_lt_0_compat; nra).
  assert (EE : E + 29 / 10 * (E * E) <= 35 / 10 * uf f + 5 / 10 * z). { assert (b1 : uf f * z <= / 16777216 * z) by (apply Rmult_le_compat_r; lra). assert (b2 : uf f * uf f <= uf f * / 16777216) by (apply Rmult_le_compat_l; lra). assert (b3 : z * z <= z * (5026 / 10000)) by (apply Rmult_le_compat_l; lra). unfold E. nra. }
  assert (G : Rabs (atan (B2R t) - atan T) <= (35 / 10 * uf f + 5 / 10 * z) * P). { apply Rle_trans with (1 := Q). apply Rmult_le_compat_r; auto. }
  destruct (atan_check_acc v t Ft) as (w & Ew & Fw & Rw & _). { assert (b := bpow_gt_0 radix2 (2 - emax f)). rewrite Rabs_pos_eq; lra. } exists w. split; auto. split; auto. unfold rel_err in Rw.
  assert (AT : 0 < atan T) by (rewrite <- atan_0; apply atan_increasing; auto).
  assert (C : 8 * uf f + bpow radix2 (if Rlt_dec (Rabs (B2R t)) 2 then -57 else -54) <= 8 * uf f + bpow radix2 (-54)) by (apply Rplus_le_compat_l, bpow_le; destruct Rlt_dec; lia). change (bpow radix2 (- prec f)) with (uf f) in Rw. set (c := 8 * uf f + bpow radix2 (if Rlt_dec (Rabs (B2R t)) 2 then -57 else -54)) in * . assert (c0 : 0 <= c) by (unfold c; assert (b := bpow_ge_0 radix2 (if Rlt_dec (Rabs (B2R t)) 2 then -57 else -54)); lra).
  set (c2 := 8 * uf f + bpow radix2 (-54)) in * . assert (c3 : c2 <= / 1000000) by (unfold c2; cbn; lra).
  assert (AB : Rabs (atan (B2R t)) <= atan T + (35 / 10 * uf f + 5 / 10 * z) * P). { replace (atan (B2R t)) with (atan T + (atan (B2R t) - atan T)) by ring. eapply Rle_trans. apply Rabs_triang. rewrite (Rabs_pos_eq (atan T)) by lra. lra. }
  assert (W : Rabs (B2R w - atan (B2R t)) <= c2 * (atan T + (35 / 10 * uf f + 5 / 10 * z) * P)). { apply Rle_trans with (1 := Rw). apply Rmult_le_compat; auto. apply Rabs_pos. }
  assert (T3 := Rabs_triang (B2R w - atan (B2R t)) (atan (B2R t) - atan T)). replace (B2R w - atan (B2R t) + (atan (B2R t) - atan T)) with (B2R w - atan T) in T3 by ring.
  replace ((351 / 100 + 51 / 100 / D) * uf f * P) with (351 / 100 * (uf f * P) + 51 / 100 * (z * P)) by (unfold z; field; lra). assert (0 <= uf f * P) by (apply Rmult_le_pos; lra). assert (0 <= z * P) by (apply Rmult_le_pos; lra). set (m := (35 / 10 * uf f + 5 / 10 * z) * P) in * . assert (m0 : m = 35 / 10 * (uf f * P) + 5 / 10 * (z * P)) by (unfold m; ring). assert (c2 * m <= / 1000000 * m) by (apply Rmult_le_compat_r; lra). lra.
Qed.
Lemma quot_comb a b u0 z : 0 < u0 <= / 16777216 -> 0 <= z <= 5026 / 10000 -> Rabs (a - 1) <= 235 / 100 * u0 + 32 / 100 * z -> Rabs b <= u0 -> Rabs (a * (1 + b) - 1) <= 34 / 10 * u0 + 33 / 100 * z.
Proof.
  intros U Z A B. replace (a * (1 + b) - 1) with ((a - 1) + b + (a - 1) * b) by ring. eapply Rle_trans. apply Rabs_triang. assert (T := Rabs_triang (a - 1) b). rewrite Rabs_mult. assert (Rabs (a - 1) * Rabs b <= (235 / 100 * u0 + 32 / 100 * z) * u0) by (apply Rmult_le_compat; auto; apply Rabs_pos). assert (u0 * z <= / 16777216 * z) by (apply Rmult_le_compat_r; lra). assert (u0 * u0 <= u0 * / 16777216) by (apply Rmult_le_compat_l; lra). lra.
Qed.
Section Circ2.
Context {f : fmt}.
Variables (v : cxx) (x : flt f).
Hypothesis (Fx : finite x = true) (X0 : bpow radix2 (2 - emax f) <= B2R x) (X1 : B2R x < 1).
Let D := 1 - B2R x * B2R x.
Let u0 := uf_pos f.
Let u1 : uf f <= / 16777216 := uf_le f.
Let xp : 0 < B2R x. Proof. assert (b := bpow_gt_0 radix2 (2 - emax f)). lra. Qed.
Let fm2 : bpow radix2 (3 - emax f) = 2 * bpow radix2 (2 - emax f). Proof. replace (3 - emax f)%Z with (1 + (2 - emax f))%Z by lia. rewrite bpow_plus. reflexivity. Qed.
Let DD : 199 / 100 * uf f <= D <= 1. Proof. apply circ_D; auto. lra. Qed.
Let z := uf f / D.
Let Z0 : 0 <= z <= 5026 / 10000.
Proof. unfold z. assert (d := DD). split. left; apply Rdiv_lt_0_compat; lra. apply Rmult_le_reg_r with D. lra. unfold Rdiv. rewrite Rmult_assoc, Rinv_l by lra. lra. Qed.
Lemma circ_not1 : (fmin f >. ModelBasic.abs (x -. ofZ f 1)) = false /\ (fmin f >. ModelBasic.abs x) = false /\ (x >. ofZ f 1) = false /\ (x >. ofZ f 0) = true /\ (ModelBasic.abs x >. ofZ f 1) = false /\ (x <. ofZ f 0) = false.
Proof.
  destruct (ofZ_small f 1 ltac:(lia)) as (V1 & F1 & _). destruct (ofZ_small f 0 ltac:(lia)) as (V0 & F0 & _). change (IZR 1) with 1 in V1. change (IZR 0) with 0 in V0. destruct (fmin_spec f) as (Vm & Fm). assert (b := bpow_gt_0 radix2 (2 - emax f)). assert (X := xp). assert (L := below_one x Fx X1). assert (U := u1). assert (U0 := u0).
  split; [|split; [|split; [|split; [|split]]]].
  - destruct (op_sub x (ofZ f 1) Fx F1) as (Fs & Vs). rewrite V1. apply Rabs_le. cbn; lra. apply flt_false. rewrite abs_finite; auto. auto. rewrite Vm, abs_B2R, Vs, V1. rewrite rnd_abs. rewrite Rabs_left by lra. apply Rle_trans with (uf f). unfold uf. apply bpow_le. destruct f; cbn; lia. apply rnd_ge_fmt. apply generic_format_bpow. unfold fexpf, SpecFloat.fexp, SpecFloat.emin. destruct f; cbn; lia. lra.
  - apply flt_false. rewrite abs_finite; auto. auto. rewrite Vm, abs_B2R, Rabs_pos_eq; lra.
  - apply flt_false; auto. rewrite V1. lra.
  - apply flt_true; auto; rewrite V0; auto.
  - apply flt_false; auto. rewrite abs_finite; auto. rewrite V1, abs_B2R, Rabs_pos_eq; lra.
  - apply flt_false; auto. rewrite V0. lra.
Qed.
Lemma PXD T : (T = B2R x / sqrt D \/ T = sqrt D / B2R x) -> T / (1 + T * T) = B2R x * sqrt D.
Proof.
  assert (d := DD). assert (X := xp). assert (S : 0 < sqrt D) by (apply sqrt_lt_R0; lra). assert (S2 : sqrt D * sqrt D = 1 - B2R x * B2R x) by (rewrite sqrt_sqrt; auto; lra). set (s := sqrt D) in * .
  assert (R : s * s + B2R x * B2R x = 1) by lra. intros [E|E]; rewrite E.
  - replace (B2R x / s / (1 + B2R x / s * (B2R x / s))) with (B2R x * s / (s * s + B2R x * B2R x)) by (field; split; [nra|lra]). rewrite R. field.
  - replace (s / B2R x / (1 + s / B2R x * (s / B2R x))) with (B2R x * s / (s * s + B2R x * B2R x)) by (field; split; [nra|lra]). rewrite R. field.
Qed.
Lemma asin_pos : bpow radix2 (3 - emax f) <= B2R x -> exists w, asin_check v x = Ok w /\ finite w = true /\ Rabs (B2R w - asin (B2R x)) <= (8 * uf f + bpow radix2 (-54)) * asin (B2R x) + (351 / 100 + 51 / 100 / D) * uf f * (B2R x * sqrt D).
Proof.
  intros X2. destruct circ_not1 as (T1 & T2 & T3 & T4 & T5 & T6). unfold asin_check. rewrite (finite_not_nan x Fx), T6. unfold asin_compute. rewrite T3, T1, T2. assert (X := xp). destruct (circ_sqrt x Fx ltac:(lra) X1) as (s & Es & Fs & S0 & _ & R2). fold D in R2. rewrite Es. cbn [bind].
  assert (d := DD). assert (SP : 0 < sqrt D) by (apply sqrt_lt_R0; lra). assert (zz := Z0). assert (U0 := u0). assert (U1 := u1).
  replace ((235 / 100 + 32 / 100 / D) * uf f) with (235 / 100 * uf f + 32 / 100 * z) in R2 by (unfold z; field; lra).
  assert (S1 : sqrt D <= 1) by (rewrite <- sqrt_1; apply sqrt_le_1_alt; lra). assert (R2' := R2). apply Rabs_le_inv in R2'. assert (SB : B2R s <= 12 / 10). { apply Rmult_le_reg_r with (/ B2R s). apply Rinv_0_lt_compat; auto. rewrite Rinv_r by lra. assert (I : 83 / 100 <= sqrt D * / B2R s) by (unfold Rdiv in R2'; lra). assert (sqrt D * / B2R s <= 1 * / B2R s) by (apply Rmult_le_compat_r; [left; apply Rinv_0_lt_compat; auto|lra]). lra. }
  assert (TE : B2R x / sqrt D > 0) by (apply Rdiv_lt_0_compat; lra).
  assert (QL : bpow radix2 (2 - emax f) <= B2R x / B2R s). { assert (b := bpow_gt_0 radix2 (2 - emax f)). rewrite fm2 in X2. apply Rmult_le_reg_r with (B2R s). auto. unfold Rdiv. rewrite Rmult_assoc, Rinv_l by lra. nra. }
  assert (QU : B2R x / B2R s <= bpow radix2 64). { unfold Rdiv in R2' at 2. apply Rle_trans with (12 / 10 * (B2R x / sqrt D)). replace (B2R x / B2R s) with (sqrt D / B2R s * (B2R x / sqrt D)) by (field; lra). apply Rmult_le_compat_r; unfold Rdiv in *; lra.
    apply Rle_trans with (12 / 10 * bpow radix2 40); [|cbn; lra]. apply Rmult_le_compat_l. lra. apply Rmult_le_reg_r with (sqrt D). auto. unfold Rdiv. rewrite Rmult_assoc, Rinv_l by lra. assert (bpow radix2 (-40) <= sqrt D). { rewrite <- (sqrt_square (bpow radix2 (-40))) by apply bpow_ge_0. apply sqrt_le_1_alt. rewrite <- bpow_plus. apply Rle_trans with (uf f); [|lra]. unfold uf. apply bpow_le. destruct f; cbn; lia. } assert (bpow radix2 40 * bpow radix2 (-40) = 1) by (rewrite <- bpow_plus; reflexivity). assert (bpow radix2 40 * bpow radix2 (-40) <= bpow radix2 40 * sqrt D) by (apply Rmult_le_compat_l; [apply bpow_ge_0|auto]). lra. }
  destruct (op_div x s Fx ltac:(lra)) as (Ft & Vt). { rewrite Rabs_pos_eq; auto. left. apply Rdiv_lt_0_compat; lra. }
  destruct (rnd_u f (B2R x / B2R s)) as (b & B & Vb). { rewrite Rabs_pos_eq; auto. left. apply Rdiv_lt_0_compat; lra. }
  rewrite (asin_atan (B2R x)) by lra. replace (1 - Rsqr (B2R x)) with D by (unfold D, Rsqr; ring).
  apply atan_quot; auto.
  - rewrite Vt. apply rnd_ge_fmt; auto. apply generic_format_bpow. unfold fexpf, SpecFloat.fexp, SpecFloat.emin. destruct f; cbn; lia.
  - lra.
  - replace ((34 / 10 + 33 / 100 / D) * uf f) with (34 / 10 * uf f + 33 / 100 * z) by (unfold z; field; lra). rewrite Vt, Vb. replace (B2R x / B2R s * (1 + b) / (B2R x / sqrt D)) with (sqrt D / B2R s * (1 + b)) by (field; lra). apply quot_comb; auto; lra.
  - apply PXD. auto.
Qed.
Lemma acos_pos : exists w, acos_check v x = Ok w /\ finite w = true /\ Rabs (B2R w - acos (B2R x)) <= (8 * uf f + bpow radix2 (-54)) * acos (B2R x) + (351 / 100 + 51 / 100 / D) * uf f * (B2R x * sqrt D).
Proof.
  destruct circ_not1 as (T1 & T2 & T3 & T4 & T5 & T6). unfold acos_check. rewrite (finite_not_nan x Fx), T4. unfold acos_compute. rewrite T5, T1, T2. assert (X := xp). destruct (circ_sqrt x Fx ltac:(lra) X1) as (s & Es & Fs & S0 & R2 & _). fold D in R2. rewrite Es. cbn [bind].
  assert (d := DD). assert (SP : 0 < sqrt D) by (apply sqrt_lt_R0; lra). assert (zz := Z0). assert (U0 := u0). assert (U1 := u1).
  replace ((225 / 100 + 271 / 1000 / D) * uf f) with (225 / 100 * uf f + 271 / 1000 * z) in R2 by (unfold z; field; lra).
  assert (S1 : sqrt D <= 1) by (rewrite <- sqrt_1; apply sqrt_le_1_alt; lra). assert (R2' := R2). apply Rabs_le_inv in R2'. assert (SB : 85 / 100 * sqrt D <= B2R s <= 12 / 10 * sqrt D). { split; apply Rmult_le_reg_r with (/ sqrt D); try (apply Rinv_0_lt_compat; auto); rewrite Rmult_assoc, Rinv_r by lra; unfold Rdiv in R2'; lra. }
  assert (TE : sqrt D / B2R x > 0) by (apply Rdiv_lt_0_compat; lra).
  assert (SL : bpow radix2 (-40) <= sqrt D). { rewrite <- (sqrt_square (bpow radix2 (-40))) by apply bpow_ge_0. apply sqrt_le_1_alt. rewrite <- bpow_plus. apply Rle_trans with (uf f); [|lra]. unfold uf. apply bpow_le. destruct f; cbn; lia. }
  assert (QL : bpow radix2 (2 - emax f) <= B2R s / B2R x). { apply Rle_trans with (bpow radix2 (-41)). apply bpow_le. destruct f; cbn; lia. change (bpow radix2 (-41)) with (bpow radix2 (-1 + -40)). rewrite bpow_plus. change (bpow radix2 (-1)) with (/ 2). apply Rle_trans with (B2R s). lra. apply Rmult_le_reg_r with (B2R x). auto. unfold Rdiv. rewrite Rmult_assoc, Rinv_l by lra. nra. }
  assert (QP : 0 < B2R s / B2R x) by (apply Rdiv_lt_0_compat; lra).
  destruct (fdiv_spec s x Fs ltac:(lra)) as (Vt & Ft). { apply Rle_lt_trans with (bpow radix2 (emax f - 1)). rewrite rnd_abs, Rabs_pos_eq by lra. rewrite <- (rnd_id f (bpow radix2 (emax f - 1))). apply rnd_le.
    apply Rmult_le_reg_r with (B2R x). auto. unfold Rdiv. rewrite Rmult_assoc, Rinv_l by lra. assert (bpow radix2 (emax f - 1) * bpow radix2 (2 - emax f) = 2) by (rewrite <- bpow_plus; replace (emax f - 1 + (2 - emax f))%Z with 1%Z by ring; reflexivity). assert (bpow radix2 (emax f - 1) * bpow radix2 (2 - emax f) <= bpow radix2 (emax f - 1) * B2R x) by (apply Rmult_le_compat_l; [apply bpow_ge_0|auto]). lra.
    apply generic_format_bpow. unfold fexpf, SpecFloat.fexp, SpecFloat.emin. destruct f; cbn; lia. apply bpow_lt. lia. }
  destruct (rnd_u f (B2R s / B2R x)) as (b & B & Vb). { rewrite Rabs_pos_eq; lra. }
  rewrite (acos_atan (B2R x)) by lra. replace (1 - Rsqr (B2R x)) with D by (unfold D, Rsqr; ring).
  apply atan_quot; auto.
  - rewrite Vt. apply rnd_ge_fmt; auto. apply generic_format_bpow. unfold fexpf, SpecFloat.fexp, SpecFloat.emin. destruct f; cbn; lia.
  - lra.
  - replace ((34 / 10 + 33 / 100 / D) * uf f) with (34 / 10 * uf f + 33 / 100 * z) by (unfold z; field; lra). rewrite Vt, Vb. replace (B2R s / B2R x * (1 + b) / (sqrt D / B2R x)) with (B2R s / sqrt D * (1 + b)) by (field; lra). apply quot_comb; auto; lra.
  - apply PXD. auto.
Qed.
End Circ2.

Lemma circ_le x : 0 < x < 1 -> x <= asin x /\ sqrt (1 - x * x) <= acos x.
Proof.
  intros X. split.
  - assert (A : 0 < asin x). { rewrite asin_atan by lra. rewrite <- atan_0. apply atan_increasing. apply Rdiv_lt_0_compat. lra. apply sqrt_lt_R0. unfold Rsqr. nra. } assert (S := sin_lt_x _ A). rewrite sin_asin in S by lra. lra.
  - assert (A : 0 < acos x). { rewrite acos_atan by lra. rewrite <- atan_0. apply atan_increasing. apply Rdiv_lt_0_compat. apply sqrt_lt_R0. unfold Rsqr. nra. lra. } assert (S := sin_lt_x _ A). rewrite sin_acos in S by lra. unfold Rsqr in S. lra.
Qed.
Section Api.
Variables (v : cxx) (f : fmt) (x : flt f).
Hypothesis (Fx : finite x = true).
Let u0 := uf_pos f.
Let u1 : uf f <= / 16777216 := uf_le f.
Lemma asin_scale X : 0 < X -> 0 < 1 - X * X <= 1 -> (351 / 100 + 51 / 100 / (1 - X * X)) * uf f * (X * sqrt (1 - X * X)) <= (4 + 6 / 10 / sqrt (1 - X * X)) * uf f * X.
Proof.
  intros X0 D. assert (S : 0 < sqrt (1 - X * X)) by (apply sqrt_lt_R0; lra). assert (S1 : sqrt (1 - X * X) <= sqrt 1) by (apply sqrt_le_1_alt; lra). rewrite sqrt_1 in S1. assert (E : 1 - X * X = sqrt (1 - X * X) * sqrt (1 - X * X)) by (rewrite sqrt_sqrt; lra). set (s := sqrt (1 - X * X)) in * . rewrite E.
  replace ((351 / 100 + 51 / 100 / (s * s)) * uf f * (X * s)) with ((351 / 100 * s + 51 / 100 / s) * (uf f * X)) by (field; lra). rewrite (Rmult_assoc _ (uf f) X). assert (U := u0). apply Rmult_le_compat_r. nra. assert (0 < / s) by (apply Rinv_0_lt_compat; auto). unfold Rdiv. lra.
Qed.
Lemma api_asin : bpow radix2 (3 - emax f) <= Rabs (B2R x) < 1 -> exists w, gcem_asin v (AFlt f x) = Ok w /\ finite w = true /\
  rel_err (B2R w) (asin (B2R x)) ((12 + 6 / 10 / sqrt (1 - B2R x * B2R x)) * bpow radix2 (- prec f) + bpow radix2 (-54)).
Proof.
  intros (X0 & X1). change (bpow radix2 (- prec f)) with (uf f).
  assert (b32 : bpow radix2 (2 - emax f) <= bpow radix2 (3 - emax f)) by (apply bpow_le; lia). assert (bp := bpow_gt_0 radix2 (2 - emax f)).
  assert (G : forall y : flt f, finite y = true -> bpow radix2 (3 - emax f) <= B2R y < 1 -> exists w, asin_check v y = Ok w /\ finite w = true /\ rel_err (B2R w) (asin (B2R y)) ((12 + 6 / 10 / sqrt (1 - B2R y * B2R y)) * uf f + bpow radix2 (-54))).
  { intros y Fy (Y0 & Y1). destruct (asin_pos v y Fy ltac:(lra) Y1 Y0) as (w & E & F & R). exists w. split; auto. split; auto. destruct (circ_le (B2R y) ltac:(lra)) as (L & _). assert (D := circ_D y Fy ltac:(lra) Y1). assert (U := u0). 
    unfold rel_err. rewrite (Rabs_pos_eq (asin _)) by lra. apply Rle_trans with (1 := R). assert (S := asin_scale (B2R y) ltac:(lra) ltac:(lra)). set (k := 6 / 10 / sqrt (1 - B2R y * B2R y)) in * .
    assert (K : 0 <= k). { unfold k. assert (0 < sqrt (1 - B2R y * B2R y)) by (apply sqrt_lt_R0; lra). left; apply Rdiv_lt_0_compat; lra. }
    assert ((4 + k) * uf f * B2R y <= (4 + k) * uf f * asin (B2R y)) by (apply Rmult_le_compat_l; [apply Rmult_le_pos; lra|auto]). lra. }
  unfold gcem_asin, lift1. cbn [ret_fmt ret_val]. destruct (Rle_or_lt 0 (B2R x)) as [P|P].
  - rewrite Rabs_pos_eq in X0, X1 by auto. apply G; auto.
  - rewrite Rabs_left in X0, X1 by auto. destruct (G (-. x)) as (w & E & F & R). rewrite fneg_finite; auto. rewrite fneg_B2R; lra.
    destruct (circ_not1 (-. x)) as (_ & _ & _ & _ & _ & T). rewrite fneg_finite; auto. rewrite fneg_B2R; lra. rewrite fneg_B2R; lra. unfold asin_check in E. rewrite (finite_not_nan (-. x)), T in E by (rewrite fneg_finite; auto).
    destruct (ofZ_small f 0 ltac:(lia)) as (V0 & F0 & _). unfold asin_check. rewrite (finite_not_nan x Fx), (flt_true x (ofZ f 0)) by (auto; rewrite V0; lra). rewrite E. cbn [bind]. exists (-. w). split; auto. split. rewrite fneg_finite; auto. revert R. unfold rel_err. rewrite !fneg_B2R, asin_opp, Rabs_Ropp. replace (- B2R x * - B2R x) with (B2R x * B2R x) by ring. intros R. replace (- B2R w - asin (B2R x)) with (- (B2R w - - asin (B2R x))) by ring. rewrite Rabs_Ropp. exact R.
Qed.
Lemma api_acos : bpow radix2 (2 - emax f) <= B2R x < 1 -> exists w, gcem_acos v (AFlt f x) = Ok w /\ finite w = true /\
  rel_err (B2R w) (acos (B2R x)) ((12 + 6 / 10 / (1 - B2R x * B2R x)) * bpow radix2 (- prec f) + bpow radix2 (-54)).
Proof.
  intros (Y0 & Y1). change (bpow radix2 (- prec f)) with (uf f). assert (bp := bpow_gt_0 radix2 (2 - emax f)). destruct (acos_pos v x Fx Y0 Y1) as (w & E & F & R). exists w. split; auto. split; auto. destruct (circ_le (B2R x) ltac:(lra)) as (_ & L). assert (D := circ_D x Fx ltac:(lra) Y1). assert (U := u0). 
  assert (S0 : 0 < sqrt (1 - B2R x * B2R x)) by (apply sqrt_lt_R0; lra). unfold rel_err. rewrite (Rabs_pos_eq (acos _)) by lra. apply Rle_trans with (1 := R). set (s := sqrt (1 - B2R x * B2R x)) in * . assert (I : 0 < / (1 - B2R x * B2R x)) by (apply Rinv_0_lt_compat; lra).
  assert (M : B2R x * s <= acos (B2R x)) by nra. assert ((351 / 100 + 51 / 100 / (1 - B2R x * B2R x)) * uf f * (B2R x * s) <= (4 + 6 / 10 / (1 - B2R x * B2R x)) * uf f * acos (B2R x)). { apply Rmult_le_compat. apply Rmult_le_pos; unfold Rdiv; lra. apply Rmult_le_pos; lra. apply Rmult_le_compat_r; unfold Rdiv; lra. auto. } lra.
Qed.
End Api.
Lemma acos_compute_abs v {f} (y : flt f) : finite y = true -> 0 <= B2R y < 1 -> exists r, acos_compute v y = Ok r /\ finite r = true /\
  Rabs (B2R r - acos (B2R y)) <= (144 / 10 + 6 / 10 / sqrt (1 - B2R y * B2R y)) * uf f + 8 / 10 * bpow radix2 (-53).
Proof.
  intros Fy (Y0 & Y1). assert (u0 := uf_pos f). assert (u1 := uf_le f). change (bpow radix2 (-24)) with (/ 16777216) in u1. assert (PI4 : 3 < PI < 3142 / 1000) by (split; interval). assert (D := circ_D y Fy Y0 Y1). assert (b54 : bpow radix2 (-53) = 2 * bpow radix2 (-54)) by (cbn; lra). assert (b0 := bpow_gt_0 radix2 (-54)).
  assert (S0 : 0 < sqrt (1 - B2R y * B2R y)) by (apply sqrt_lt_R0; lra). assert (fm := bpow_gt_0 radix2 (2 - emax f)).
  destruct (Rlt_or_le (B2R y) (bpow radix2 (2 - emax f))) as [L|L].
  - destruct (ofZ_small f 1 ltac:(lia)) as (V1 & F1 & _). change (IZR 1) with 1 in V1. destruct (fmin_spec f) as (Vm & Fm). assert (FU : bpow radix2 (2 - emax f) <= / 100 * uf f) by (assert (Q := SinhAcc.fm_uf f); lra).
    unfold acos_compute. rewrite (flt_false (ofZ f 1) (ModelBasic.abs y)). 2: auto. 2: rewrite abs_finite; auto. 2: rewrite V1, abs_B2R, Rabs_pos_eq; lra.
    assert (T : (fmin f >. ModelBasic.abs (y -. ofZ f 1)) = false). { destruct (op_sub y (ofZ f 1) Fy F1) as (Fs & Vs). rewrite V1. apply Rabs_le. cbn; lra. apply flt_false. rewrite abs_finite; auto. auto. rewrite Vm, abs_B2R, Vs, V1. rewrite rnd_abs. rewrite Rabs_left by lra. apply Rle_trans with (uf f). lra. apply rnd_ge_fmt. apply generic_format_bpow. unfold fexpf, SpecFloat.fexp, SpecFloat.emin. destruct f; cbn; lia. lra. }
    rewrite T. rewrite (flt_true (ModelBasic.abs y) (fmin f)). 2: rewrite abs_finite; auto. 2: auto. 2: rewrite Vm, abs_B2R, Rabs_pos_eq; lra. destruct (half_pi_val f) as (Fh & Eh). exists (conv f GCEM_HALF_PI). split; auto. split; auto. unfold abs_err in Eh. fold (uf f) in Eh.
    assert (A : Rabs (PI / 2 - acos (B2R y)) <= / 2 * uf f). { rewrite acos_asin by lra. replace (PI / 2 - (PI / 2 - asin (B2R y))) with (asin (B2R y)) by ring. rewrite asin_atan by lra. replace (1 - (B2R y)²) with (1 - B2R y * B2R y) by reflexivity.
      assert (S9 : 9 / 10 <= sqrt (1 - B2R y * B2R y)). { apply Rle_trans with (sqrt (81 / 100)). rewrite <- (sqrt_square (9 / 10)) by lra. apply sqrt_le_1_alt. lra. apply sqrt_le_1_alt. nra. }
      assert (Q := mvt0 atan (fun z => / (1 + z * z)) (B2R y / sqrt (1 - B2R y * B2R y)) 1). eapply Rle_trans. apply Q. intros c _. split. auto_derive; auto. unfold Rsqr. field. nra. rewrite Rabs_pos_eq by (left; apply Rinv_0_lt_compat; nra). apply Rle_trans with (/ 1); [apply Rinv_le; nra|lra]. apply atan_0.
      rewrite Rmult_1_l. rewrite Rabs_pos_eq by (apply Rle_div_r; lra). apply Rmult_le_reg_r with (sqrt (1 - B2R y * B2R y)). auto. unfold Rdiv. rewrite Rmult_assoc, Rinv_l by lra. nra. }
    assert (T3 := Rabs_triang (B2R (conv f GCEM_HALF_PI) - PI / 2) (PI / 2 - acos (B2R y))). replace (B2R (conv f GCEM_HALF_PI) - PI / 2 + (PI / 2 - acos (B2R y))) with (B2R (conv f GCEM_HALF_PI) - acos (B2R y)) in T3 by ring.
    assert (0 <= 6 / 10 / sqrt (1 - B2R y * B2R y)) by (left; apply Rdiv_lt_0_compat; lra). assert (0 <= 6 / 10 / sqrt (1 - B2R y * B2R y) * uf f) by (apply Rmult_le_pos; lra). lra.
  - destruct (acos_pos v y Fy L Y1) as (r & E & F & R). destruct (circ_not1 y Fy L Y1) as (_ & _ & _ & T & _). unfold acos_check in E. rewrite (finite_not_nan y Fy), T in E. exists r. split; auto. split; auto. apply Rle_trans with (1 := R).
    assert (A : acos (B2R y) <= 1571 / 1000). { rewrite acos_asin by lra. assert (Q := circ_le (B2R y) ltac:(lra)). lra. }
    assert (S1 : sqrt (1 - B2R y * B2R y) * sqrt (1 - B2R y * B2R y) = 1 - B2R y * B2R y) by (apply sqrt_sqrt; lra). set (s := sqrt (1 - B2R y * B2R y)) in * . assert (P : B2R y * s <= / 2). { assert (0 <= (B2R y - s) * (B2R y - s)) by apply Rle_0_sqr. nra. }
    replace ((351 / 100 + 51 / 100 / (1 - B2R y * B2R y)) * uf f * (B2R y * s)) with (351 / 100 * uf f * (B2R y * s) + 51 / 100 * B2R y / s * uf f) by (rewrite <- S1; field; lra).
    assert (I : 0 < / s) by (apply Rinv_0_lt_compat; lra). assert (351 / 100 * uf f * (B2R y * s) <= 351 / 100 * uf f * (/ 2)) by (apply Rmult_le_compat_l; lra). assert (51 / 100 * B2R y / s * uf f <= 6 / 10 / s * uf f) by (apply Rmult_le_compat_r; [lra|]; unfold Rdiv; apply Rmult_le_compat_r; lra).
    assert ((8 * uf f + bpow radix2 (-54)) * acos (B2R y) <= (8 * uf f + bpow radix2 (-54)) * (1571 / 1000)) by (apply Rmult_le_compat_l; lra). lra.
Qed.
Lemma api_acos_abs v f (x : flt f) : finite x = true -> Rabs (B2R x) < 1 -> exists w, gcem_acos v (AFlt f x) = Ok w /\ finite w = true /\
  Rabs (B2R w - acos (B2R x)) <= (21 + 6 / 10 / sqrt (1 - B2R x * B2R x)) * bpow radix2 (- prec f) + bpow radix2 (-53).
Proof.
  intros Fx X. change (bpow radix2 (- prec f)) with (uf f). assert (u0 := uf_pos f). assert (u1 := uf_le f). change (bpow radix2 (-24)) with (/ 16777216) in u1. assert (b0 := bpow_gt_0 radix2 (-53)). unfold gcem_acos, lift1. cbn [ret_fmt ret_val]. unfold acos_check. rewrite (finite_not_nan x Fx).
  destruct (ofZ_small f 0 ltac:(lia)) as (V0 & F0 & _). change (IZR 0) with 0 in V0. destruct (ofZ f 0 <. x) eqn:C; [apply flt_true_inv in C; auto|apply flt_false_inv in C; auto]; rewrite V0 in C.
  - rewrite Rabs_pos_eq in X by lra. destruct (acos_compute_abs v x Fx ltac:(lra)) as (r & E & F & R). exists r. split; auto. split; auto. lra.
  - rewrite Rabs_left1 in X by lra. destruct (acos_compute_abs v (-. x)) as (r & E & F & R). rewrite fneg_finite; auto. rewrite fneg_B2R; lra. rewrite E. cbn [bind]. rewrite fneg_B2R in R. replace (- B2R x * - B2R x) with (B2R x * B2R x) in R by ring. set (c := (144 / 10 + 6 / 10 / sqrt (1 - B2R x * B2R x)) * uf f) in * .
    destruct (pi_val f) as (Fp & Ep). unfold abs_err in Ep. replace (bpow radix2 (1 - prec f)) with (2 * uf f) in Ep by (unfold Zminus; rewrite bpow_plus; reflexivity). assert (PI4 : 3 < PI < 3142 / 1000) by (split; interval).
    assert (D : 1 - B2R x * B2R x >= 199 / 100 * uf f). { assert (Q := circ_D (-. x)). rewrite fneg_finite, fneg_B2R in Q. specialize (Q Fx ltac:(lra) ltac:(lra)). lra. }
    rewrite acos_opp in R by lra. assert (A : 0 <= acos (B2R x) <= PI) by (apply acos_bound). 
    assert (C9 : c <= 2 / 1000). { unfold c. assert (S0 : 0 < sqrt (1 - B2R x * B2R x)) by (apply sqrt_lt_R0; lra). assert (SU : uf f / sqrt (1 - B2R x * B2R x) <= / 2000). { apply Rmult_le_reg_r with (sqrt (1 - B2R x * B2R x)). auto. unfold Rdiv. rewrite Rmult_assoc, Rinv_l by lra. rewrite Rmult_1_r. assert (S2 : sqrt (uf f * uf f * 4000000) <= sqrt (1 - B2R x * B2R x)). { apply sqrt_le_1_alt. assert (uf f * uf f <= uf f * / 16777216) by (apply Rmult_le_compat_l; lra). lra. } replace (uf f * uf f * 4000000) with ((uf f * 2000) * (uf f * 2000)) in S2 by ring. rewrite sqrt_square in S2 by lra. lra. } unfold Rdiv in * . lra. }
    apply Rabs_le_inv in R. apply Rabs_le_inv in Ep. assert (b53 : bpow radix2 (-53) <= / 1000) by (cbn; lra). set (P := B2R (conv f GCEM_PI)) in * . 
    destruct (op_sub (conv f GCEM_PI) r Fp F) as (Fs & Vs). { fold P. change (bpow radix2 64) with 18446744073709551616. apply Rabs_le. lra. } exists (conv f GCEM_PI -. r). split; auto. split; auto. rewrite Vs. fold P. assert (RR := rnd_small f (P - B2R r)). assert (Z : Rabs (P - B2R r) <= 32 / 10) by (apply Rabs_le; lra). assert (b100 : bpow radix2 (-100) <= / 1000) by (cbn; lra).
    assert (uf f * Rabs (P - B2R r) <= uf f * (32 / 10)) by (apply Rmult_le_compat_l; lra). assert (uf f * bpow radix2 (-100) <= uf f * / 1000) by (apply Rmult_le_compat_l; lra). apply Rabs_le_inv in RR. replace ((21 + 6 / 10 / sqrt (1 - B2R x * B2R x)) * uf f) with (c + 66 / 10 * uf f) by (unfold c; lra). apply Rabs_le. lra.
Qed.
(** ** acos next to 1 *)
Definition ac_k (f : fmt) : Z := match f with F32 => 2896 | F64 => 67108864 | F80 => 3037000501 end.
Definition ac_arg (f : fmt) : flt f := ofZ f (2 ^ prec f - ac_k f) /. ofZ f (2 ^ prec f).
Lemma ac_arg_val f : finite (ac_arg f) = true /\ B2R (ac_arg f) = 1 - IZR (ac_k f) * uf f.
Proof.
  destruct f; [destruct (sf_val (ac_arg F32) false 16774320%positive (-24)%Z) as (F & B); [vm_compute; reflexivity|]|destruct (sf_val (ac_arg F64) false 9007199187632128%positive (-53)%Z) as (F & B); [vm_compute; reflexivity|]|destruct (sf_val (ac_arg F80) false 18446744070672551115%positive (-64)%Z) as (F & B); [vm_compute; reflexivity|]];
  (split; [exact F|rewrite B; unfold F2R, uf; cbn; lra]).
Qed.
Definition ac_res (f : fmt) : positive * Z := match f with F32 => (9975833%positive, -29) | F64 => (4503599638555306%positive, -65) | F80 => (10968499652092931511%positive, -79) end%Z.
Lemma api_acos_bad v f : exists x : flt f, finite x = true /\ 999 / 1000 <= B2R x < 1 /\
  exists w, gcem_acos v (AFlt f x) = Ok w /\ finite w = true /\ bpow radix2 (- (prec f / 2) - 4) * acos (B2R x) <= Rabs (B2R w - acos (B2R x)).
Proof.
  exists (ac_arg f). destruct (ac_arg_val f) as (F & V). split; auto. split. rewrite V. destruct f; unfold uf; cbn; lra.
  assert (W : exists w, gcem_acos v (AFlt f (ac_arg f)) = Ok w /\ finite w = true /\ B2R w = F2R (Float radix2 (cond_Zopp false (Zpos (fst (ac_res f)))) (snd (ac_res f)))).
  { destruct v; destruct f; apply res_val; vm_compute; reflexivity. }
  destruct W as (w & E & Fw & Vw). exists w. split; auto. split; auto. rewrite Vw, V. rewrite acos_atan. 2: destruct f; unfold uf; cbn; lra.
  destruct f; unfold uf, F2R, Rsqr; cbn -[sqrt atan]; match goal with |- _ <= Rabs ?t => first [apply Rle_trans with t; [interval with (i_prec 150)|apply Rle_abs]|apply Rle_trans with (- t); [interval with (i_prec 150)|rewrite <- Rabs_Ropp; apply Rle_abs]] end.
Qed.
