(** * Accuracy of incomplete_gamma_inv for integral shape: starting value, Halley step, iteration *)
From Verif Require Import Base FltLemmas ConvLemmas ModelBasic ModelInt ModelElem ModelSpecial ModelApi Spec SpecGamma SpecInc.
From Coq Require Import Lra Psatz.
From Coquelicot Require Import Coquelicot.
From Interval Require Import Tactic.
From Verif Require Import BasicProofs RangeProofs PF FPErr CFBound ExpAcc LogApi PowReal TanhAcc CFAcc MiscProofs SinAcc ErfAcc IntProofs GammaAcc BetaAcc GammaInt IncGamReal IncGamAcc IncGamApi SqrtSimp ErfInvAcc IncInvReal.
From Verif Require Import Base ModelBasic ModelInt ModelElem ModelSpecial ModelApi.
Open Scope R_scope.

Section A.
Context (v : cxx) {f : fmt}.
Notation u := (uf f).
Let u0 : 0 < u := uf_pos f.
Let u1 : u <= / 16777216 := uf_le f.
Definition nr (x : flt f) (X e : R) : Prop := finite x = true /\ Rabs (B2R x - X) <= e.
Lemma nr_mono x X e e' : nr x X e -> e <= e' -> nr x X e'.
Proof. intros (F & E) L. split; auto. lra. Qed.
Lemma nr_exact x : finite x = true -> nr x (B2R x) 0.
Proof. intros F. split; auto. rewrite Rminus_diag_eq by reflexivity. rewrite Rabs_R0. lra. Qed.
Lemma nr_Z z : (Z.abs z <= 16777216)%Z -> nr (ofZ f z) (IZR z) 0.
Proof. intros H. exact (gZ z H). Qed.
(** one rounding of a number of size at most M *)
Lemma nr_rnd Y X e M : Rabs (Y - X) <= e -> Rabs X <= M -> e <= 1 -> Rabs (rnd f Y - X) <= e + (M + 2) * u.
Proof.
  intros E HM He. assert (G := @grnd f Y). assert (S : Rabs Y <= M + 1). { replace Y with ((Y - X) + X) by ring. eapply Rle_trans. apply Rabs_triang. lra. }
  assert (u * Rabs Y <= u * (M + 1)) by (apply Rmult_le_compat_l; lra). replace (rnd f Y - X) with ((rnd f Y - Y) + (Y - X)) by ring. eapply Rle_trans. apply Rabs_triang. lra.
Qed.
Lemma big_abs Y X e M : Rabs (Y - X) <= e -> Rabs X <= M -> e <= 1 -> M <= 1000 -> Rabs Y <= 18446744073709551616.
Proof. intros. replace Y with ((Y - X) + X) by ring. eapply Rle_trans. apply Rabs_triang. lra. Qed.
Lemma nr_add x y X Y ex ey M : nr x X ex -> nr y Y ey -> Rabs (X + Y) <= M -> M <= 1000 -> ex + ey <= 1 -> nr (x +. y) (X + Y) (ex + ey + (M + 2) * u).
Proof.
  intros (Fx & Ex) (Fy & Ey) HM H1 H2. assert (D : Rabs ((B2R x + B2R y) - (X + Y)) <= ex + ey). { replace ((B2R x + B2R y) - (X + Y)) with ((B2R x - X) + (B2R y - Y)) by ring. apply abs_tri; auto. }
  destruct (op_add x y Fx Fy) as (F & V). eapply big_abs; eauto. split. exact F. rewrite V. apply nr_rnd; auto.
Qed.
Lemma nr_sub x y X Y ex ey M : nr x X ex -> nr y Y ey -> Rabs (X - Y) <= M -> M <= 1000 -> ex + ey <= 1 -> nr (x -. y) (X - Y) (ex + ey + (M + 2) * u).
Proof.
  intros (Fx & Ex) (Fy & Ey) HM H1 H2. assert (D : Rabs ((B2R x - B2R y) - (X - Y)) <= ex + ey). { replace ((B2R x - B2R y) - (X - Y)) with ((B2R x - X) + - (B2R y - Y)) by ring. apply abs_tri; auto. rewrite Rabs_Ropp. auto. }
  destruct (op_sub x y Fx Fy) as (F & V). eapply big_abs; eauto. split. exact F. rewrite V. apply nr_rnd; auto.
Qed.
Lemma nr_mul x y X Y ex ey MX MY : nr x X ex -> nr y Y ey -> Rabs X <= MX -> Rabs Y <= MY -> MX * MY <= 1000 -> ey <= 1 -> ex * (MY + 1) + ey * MX <= 1 ->
  nr (x *. y) (X * Y) (ex * (MY + ey) + ey * MX + (MX * MY + 2) * u).
Proof.
  intros (Fx & Ex) (Fy & Ey) HX HY H1 H0 H2. assert (e0 : 0 <= ex) by (eapply Rle_trans; [apply Rabs_pos|exact Ex]). assert (BY : Rabs (B2R y) <= MY + ey). { replace (B2R y) with (Y + (B2R y - Y)) by ring. apply abs_tri; auto. }
  assert (D : Rabs (B2R x * B2R y - X * Y) <= ex * (MY + ey) + ey * MX). { replace (B2R x * B2R y - X * Y) with ((B2R x - X) * B2R y + (B2R y - Y) * X) by ring. apply abs_tri; apply abs_mul; auto. }
  assert (ex * (MY + ey) <= ex * (MY + 1)) by (apply Rmult_le_compat_l; lra). assert (XY : Rabs (X * Y) <= MX * MY) by (apply abs_mul; auto).
  destruct (op_mul x y Fx Fy) as (F & V). eapply big_abs; eauto. lra. split. exact F. rewrite V. apply nr_rnd; auto. lra.
Qed.
Lemma nr_div x y X Y ex ey m M : nr x X ex -> nr y Y ey -> 0 < m -> m <= Rabs (B2R y) -> Y <> 0 -> Rabs (X / Y) <= M -> M <= 1000 -> (ex + M * ey) / m <= 1 ->
  nr (x /. y) (X / Y) ((ex + M * ey) / m + (M + 2) * u).
Proof.
  intros (Fx & Ex) (Fy & Ey) Hm HY NY HM H1 H2. assert (NB : B2R y <> 0). { intros E. rewrite E, Rabs_R0 in HY. lra. }
  assert (D : Rabs (B2R x / B2R y - X / Y) <= (ex + M * ey) / m). { replace (B2R x / B2R y - X / Y) with (((B2R x - X) + - (X / Y * (B2R y - Y))) * / B2R y) by (field; auto). apply abs_mul. apply abs_tri; auto. rewrite Rabs_Ropp. apply abs_mul; auto. rewrite Rabs_inv. apply Rinv_le_contravar; auto. }
  destruct (op_div x y Fx NB) as (F & V). eapply big_abs; eauto. split. exact F. rewrite V. apply nr_rnd; auto.
Qed.

(** ** The density *)
Lemma fit5 : exp_fit f 5.
Proof. clear. unfold exp_fit. apply Rle_trans with (bpow radix2 100). change (bpow radix2 100) with (IZR (2 ^ 100)). interval. apply bpow_le. destruct f; discriminate. Qed.
Lemma gd_exp m z : 0 < z -> gd (S m) z = exp (- z + (IZR (Z.of_nat m) + 1) * ln z - ln (Gamma (IZR (Z.of_nat m) + 2))).
Proof.
  intros Hz. assert (E : IZR (Z.of_nat m) + 2 = INR (S m) + 1) by (rewrite S_INR, INR_IZR_INZ; ring). rewrite E, Gamma_fact. replace (IZR (Z.of_nat m) + 1) with (INR (S m)) by (rewrite S_INR, INR_IZR_INZ; ring). unfold gd. rewrite tm_val. unfold Rminus. rewrite !exp_plus, (exp_Ropp (ln (INR _))), exp_ln by apply INR_fact_lt_0. replace (exp (INR (S m) * ln z)) with (z ^ S m). unfold Rdiv. ring. rewrite <- Rpower_pow by auto. reflexivity.
Qed.
Definition shape (a : flt f) (m : nat) : Prop := finite a = true /\ B2R a = IZR (Z.of_nat m) + 2 /\ (m <= 7)%nat.
Lemma shape_rng a m : shape a m -> 2 <= B2R a <= 9 /\ 0 <= IZR (Z.of_nat m) <= 7.
Proof. intros (F & -> & M). assert (0 <= IZR (Z.of_nat m) <= 7) by (split; apply IZR_le; lia). lra. Qed.
Lemma gder a m lg (x : flt f) : shape a m -> lgamma_check v a = Ok lg -> finite x = true -> lo m <= B2R x <= hi m ->
  exists d, incomplete_gamma_inv_deriv_1 v x a lg = Ok d /\ finite d = true /\ Rabs (B2R d - gd (S m) (B2R x)) <= / 1000 * gd (S m) (B2R x).
Proof.
  intros SH EL Fx HX. destruct (shape_rng a m SH) as (RA & RM). destruct SH as (Fa & VA & M). destruct (lo_hi m M) as (L1 & _ & L3). set (X := B2R x) in * . set (A := B2R a) in * .
  destruct (log_check_ge v x Fx ltac:(fold X; lra)) as (l & El & Fl & Rl). unfold rel_err in Rl. fold X in Rl. set (L := ln X) in * . assert (HL : - 66 / 100 <= L <= 226 / 100). { split. apply Rle_trans with (ln (52 / 100)). interval. apply ln_le; lra. apply Rle_trans with (ln (95 / 10)). apply ln_le; lra. interval. }
  destruct (lgamma_large v a Fa) as (lg' & Eg & Fg & Rg). { fold A. change (bpow radix2 55) with 36028797018963968. lra. } { fold A; lra. } fold A in Rg. rewrite EL in Eg. injection Eg as <-.
  assert (L15 : 0 <= ln (A + 5) <= 265 / 100). { split. rewrite <- ln_1. apply ln_le; lra. apply Rle_trans with (ln 14). apply ln_le; lra. interval. } assert (L14 : 14 * A * ln (A + 5) <= 334). { apply Rle_trans with (14 * 9 * (265 / 100)); [|lra]. apply Rmult_le_compat; lra. }
  assert (L13 : 0 <= 14 * A * ln (A + 5)) by (apply Rmult_le_pos; lra).
  assert (Rg2 : Rabs (B2R lg - ln (Gamma A)) <= 25 / 1000000). { eapply Rle_trans. exact Rg. assert ((14 * A * ln (A + 5) + 54) * u <= 388 * / 16777216) by (apply Rmult_le_compat; lra). lra. }
  assert (Rl2 : Rabs (B2R l - L) <= / 1000000). { eapply Rle_trans. exact Rl. assert (Rabs L <= 226 / 100) by (apply Rabs_le; lra). apply Rle_trans with (56 / 10 * / 16777216 * (226 / 100)); [|lra]. apply Rmult_le_compat; try lra. apply Rabs_pos. }
  assert (G := gd_rng m X M HX). rewrite gd_exp in * by lra. rewrite <- VA in * . fold A L in G |- * . replace (IZR (Z.of_nat m) + 1) with (A - 1) in * by lra. set (W := - X + (A - 1) * L - ln (Gamma A)) in * .
  assert (GG : 95 / 1000 <= ig_G m). { clear - M. eight m M; unfold ig_G; lra. }
  assert (HW : -24 / 10 <= W <= -9 / 10). { split. destruct (Rle_or_lt (-24 / 10) W); auto. assert (exp W < exp (-24 / 10)) by (apply exp_increasing; auto). assert (exp (-24 / 10) <= 91 / 1000) by interval. lra. destruct (Rle_or_lt W (-9 / 10)); auto. assert (exp (-9 / 10) < exp W) by (apply exp_increasing; auto). assert (406 / 1000 <= exp (-9 / 10)) by interval. lra. }
  assert (N1 := nr_sub a (ofZ f 1) A 1 0 0 8 (nr_exact a Fa) (nr_Z 1 ltac:(lia)) ltac:(apply Rabs_le; lra) ltac:(lra) ltac:(lra)).
  assert (N2 := nr_mul _ l (A - 1) L _ _ 8 (226 / 100) N1 (conj Fl Rl2) ltac:(apply Rabs_le; lra) ltac:(apply Rabs_le; lra) ltac:(lra) ltac:(lra) ltac:(lra)).
  assert (NX : nr (-. x) (- X) 0). { split. rewrite fneg_finite; auto. rewrite fneg_B2R. fold X. rewrite Rminus_diag_eq by reflexivity. rewrite Rabs_R0. lra. }
  assert (AL : Rabs ((A - 1) * L) <= 20). { eapply Rle_trans. apply (abs_mul _ _ 8 (226 / 100)); apply Rabs_le; lra. lra. } apply Rabs_le_inv in AL.
  assert (N3 := nr_add _ _ (- X) ((A - 1) * L) _ _ 40 NX N2 ltac:(apply Rabs_le; lra) ltac:(lra) ltac:(lra)).
  assert (N4 := nr_sub _ lg (- X + (A - 1) * L) (ln (Gamma A)) _ _ 3 N3 (conj Fg Rg2) ltac:(fold W; apply Rabs_le; lra) ltac:(lra) ltac:(lra)). fold W in N4.
  unfold incomplete_gamma_inv_deriv_1. rewrite El. cbn [bind]. set (t := -. x +. (a -. ofZ f 1) *. l -. lg) in * . destruct N4 as (Ft & Et0). assert (Et : Rabs (B2R t - W) <= 6 / 100000). { eapply Rle_trans. exact Et0. lra. } clear Et0. assert (Et' := Et). apply Rabs_le_inv in Et'.
  destruct (exp_all v t Ft) as (d & Ed & Fd & R1 & R2 & R3 & R4). { eapply exp_fit_le; [|apply fit5]. assert (Rabs (B2R t) <= 3) by (apply Rabs_le; lra). lra. }
  exists d. split. exact Ed. split. exact Fd.
  assert (b55 : bpow radix2 (-55) <= / 1000000000) by (cbn; lra). assert (b54 : bpow radix2 (-54) <= / 1000000000) by (cbn; lra). assert (b61 : bpow radix2 (-61) <= / 1000000000) by (cbn; lra). assert (b610 := bpow_gt_0 radix2 (-61)).
  assert (C : rel_err (B2R d) (exp (B2R t)) (/ 10000)). { destruct (Rlt_or_le (Rabs (B2R t)) 2) as [C|C]. eapply rel_mono; [|exact (R2 C)]. lra. rewrite Rabs_left in C by lra. eapply rel_mono; [|exact (R4 ltac:(lra))]. assert ((Rabs (B2R t) + 3) * bpow radix2 (-61) <= 6 * / 1000000000). { apply Rmult_le_compat; try lra. assert (Z := Rabs_pos (B2R t)). lra. rewrite Rabs_left; lra. } lra. }
  assert (PP := exp_pert _ _ W _ _ C Et ltac:(lra) ltac:(lra)). unfold rel_err in PP. rewrite (Rabs_pos_eq (exp W)) in PP by (left; apply exp_pos). eapply Rle_trans. exact PP. apply Rmult_le_compat_r. left; apply exp_pos. lra.
Qed.

(** ** One Halley step *)
Definition ghal (x a p d ev : flt f) : flt f := halley ((ev -. p) /. d) ((d *. ((a -. ofZ f 1) /. x -. ofZ f 1)) /. d).
Lemma rnd_sm Y M : Rabs Y <= M -> Rabs (rnd f Y - Y) <= u * (M + / 1000000000).
Proof. intros H. assert (G := @grnd f Y). assert (u * Rabs Y <= u * M) by (apply Rmult_le_compat_l; lra). lra. Qed.
Lemma sm_le Y M : Rabs Y <= M -> M <= 1000 -> Rabs (rnd f Y) <= M + (M + 1) * / 16777216.
Proof.
  intros H H0. assert (G := rnd_sm Y M H). assert (m0 := Rabs_pos Y). assert (u * (M + / 1000000000) <= / 16777216 * (M + 1)) by (apply Rmult_le_compat; lra). replace (rnd f Y) with ((rnd f Y - Y) + Y) by ring. eapply Rle_trans. apply Rabs_triang. lra.
Qed.
Lemma div_le s D k m : Rabs s <= k -> 0 < m -> m <= D -> Rabs (s / D) <= k / m.
Proof. intros H M L. unfold Rdiv. apply abs_mul; auto. rewrite Rabs_pos_eq by (left; apply Rinv_0_lt_compat; lra). apply Rinv_le_contravar; lra. Qed.

Lemma gstep (x a p d ev : flt f) m y c : shape a m -> finite x = true -> finite p = true -> finite d = true -> finite ev = true -> 16 / 100 <= B2R p <= / 2 ->
  lo m + 8 / 100 <= B2R x <= hi m - 8 / 100 -> Rabs (Q (S (S m)) (B2R x) - B2R p) <= 6 / 1000 -> Rabs (B2R d - gd (S m) y) <= / 1000 * gd (S m) y -> Rabs (y - B2R x) <= 8 / 100 -> 0 <= c <= 2 / 10000 -> Rabs (B2R ev - Q (S (S m)) (B2R x)) <= c * Rabs (Q (S (S m)) (B2R x)) ->
  let x' := x -. ghal x a p d ev in finite x' = true /\ Rabs (B2R x' - B2R x) <= 8 / 100 /\ Rabs (Q (S (S m)) (B2R x') - B2R p) <= 26 / 100 * Rabs (Q (S (S m)) (B2R x) - B2R p) + 64 / 100 * c + 4 * u.
Proof.
  intros SH Fx Fp Fd Fe HP HX HE HD HY HC HV. cbv zeta. destruct (shape_rng a m SH) as (RA & RM). destruct SH as (Fa & VA & M). destruct (lo_hi m M) as (L1 & L2 & L3). set (X := B2R x) in * . set (P := B2R p) in * . set (D := B2R d) in * . set (qx := Q (S (S m)) X) in * . set (E := qx - P) in * .
  assert (GG : 95 / 1000 <= ig_G m). { clear - M. eight m M; unfold ig_G; lra. }
  assert (HY' := HY). apply Rabs_le_inv in HY'. assert (GY := gd_rng m y M ltac:(lra)). set (gy := gd (S m) y) in * .
  assert (DR : 949 / 10000 <= D <= 401 / 1000) by (apply Rabs_le_inv in HD; lra).
  assert (QX : 154 / 1000 <= qx <= 506 / 1000) by (apply Rabs_le_inv in HE; unfold E in HE; lra). rewrite (Rabs_pos_eq qx) in HV by lra.
  assert (cq : c * qx <= c * (506 / 1000)) by (apply Rmult_le_compat_l; lra).
  set (d4 := B2R ev - qx) in * . assert (D4 : Rabs d4 <= c * (506 / 1000)) by lra.
  assert (S0 : Rabs (B2R ev - P) <= 62 / 10000). { replace (B2R ev - P) with (E + d4) by (unfold E, d4; ring). eapply Rle_trans. apply Rabs_triang. lra. }
  destruct (op_sub ev p Fe Fp) as (Fs & Vs). { fold P. lra. } fold P in Vs. assert (E3 := rnd_sm _ _ S0). assert (S1 := sm_le _ _ S0 ltac:(lra)). rewrite <- Vs in E3, S1. set (s := ev -. p) in * . set (d3 := B2R s - (B2R ev - P)) in * .
  assert (S2 : Rabs (B2R s) <= 63 / 10000) by lra.
  (* r1 *)
  assert (SD := div_le _ D _ _ S2 (ltac:(lra) : 0 < 949 / 10000) ltac:(lra)). assert (SD2 : Rabs (B2R s / D) <= 664 / 10000) by lra.
  destruct (op_div s d Fs) as (Fr & Vr). { fold D. lra. } { fold D. lra. } fold D in Vr. assert (E2 := rnd_sm _ _ SD2). assert (R1 := sm_le _ _ SD2 ltac:(lra)). rewrite <- Vr in E2, R1. set (r1 := s /. d) in * . set (d2 := B2R r1 - B2R s / D) in * .
  (* r2 *)
  destruct (ofZ_small f 1 ltac:(lia)) as (V1 & F1 & _).
  assert (N1 := nr_sub a (ofZ f 1) (B2R a) 1 0 0 8 (nr_exact a Fa) (nr_Z 1 ltac:(lia)) ltac:(apply Rabs_le; lra) ltac:(lra) ltac:(lra)).
  assert (KA := kap m X M ltac:(lra)). replace (IZR (Z.of_nat m) + 1) with (B2R a - 1) in KA by lra. assert (KA' := KA). apply Rabs_le_inv in KA'.
  assert (N2 := nr_div _ x (B2R a - 1) X _ 0 (52 / 100) 2 N1 (nr_exact x Fx) ltac:(lra) ltac:(fold X; rewrite Rabs_pos_eq; lra) ltac:(lra) ltac:(apply Rabs_le; lra) ltac:(lra) ltac:(lra)).
  assert (N3 := nr_sub _ (ofZ f 1) _ 1 _ 0 1 N2 (nr_Z 1 ltac:(lia)) ltac:(lra) ltac:(lra) ltac:(lra)). set (z1 := (a -. ofZ f 1) /. x -. ofZ f 1) in * . destruct N3 as (Fz & Ez). assert (Z1 : Rabs (B2R z1) <= 9301 / 10000). { replace (B2R z1) with ((B2R z1 - ((B2R a - 1) / X - 1)) + ((B2R a - 1) / X - 1)) by ring. eapply Rle_trans. apply Rabs_triang. lra. }
  assert (DZ : Rabs (D * B2R z1) <= D * (9301 / 10000)) by (apply abs_mul; auto; rewrite Rabs_pos_eq; lra).
  destruct (op_mul d z1 Fd Fz) as (Fz2 & Vz2). { fold D. lra. } fold D in Vz2. assert (Z2 := sm_le _ _ DZ ltac:(lra)). rewrite <- Vz2 in Z2. set (z2 := d *. z1) in * . assert (Z2' : Rabs (B2R z2) <= D * (9302 / 10000)) by lra.
  assert (Z3 : Rabs (B2R z2 / D) <= 9302 / 10000). { unfold Rdiv. rewrite Rabs_mult, (Rabs_pos_eq (/ D)) by (left; apply Rinv_0_lt_compat; lra). apply Rmult_le_reg_r with D. lra. rewrite Rmult_assoc, Rinv_l by lra. lra. }
  destruct (op_div z2 d Fz2) as (Fr2 & Vr2). { fold D. lra. } { fold D. lra. } fold D in Vr2. assert (R2 := sm_le _ _ Z3 ltac:(lra)). rewrite <- Vr2 in R2. set (r2 := z2 /. d) in * .
  (* the denominator *)
  destruct (half_spec f) as (Vh & Fh).
  assert (K0 : Rabs (/ 2 * B2R r1) <= / 2 * (665 / 10000)) by (apply abs_mul; [rewrite Rabs_pos_eq; lra|lra]).
  destruct (op_mul (half f) r1 Fh Fr) as (Fk & Vk). { rewrite Vh. lra. } rewrite Vh in Vk. assert (K1 := sm_le _ _ K0 ltac:(lra)). rewrite <- Vk in K1. set (k1 := half f *. r1) in * .
  assert (K2 : Rabs (B2R k1 * B2R r2) <= 334 / 10000 * (931 / 1000)) by (apply abs_mul; lra).
  destruct (op_mul k1 r2 Fk Fr2) as (Fk2 & Vk2). lra. assert (K3 := sm_le _ _ K2 ltac:(lra)). rewrite <- Vk2 in K3. set (k2 := k1 *. r2) in * . assert (K3' := K3). apply Rabs_le_inv in K3'.
  assert (H0 : Rabs (1 - B2R k2) <= 2) by (apply Rabs_le; lra).
  destruct (op_sub (ofZ f 1) k2 F1 Fk2) as (Fh0 & Vh0). { rewrite V1. lra. } rewrite V1 in Vh0. assert (Eh := rnd_sm _ _ H0). rewrite <- Vh0 in Eh. set (h := ofZ f 1 -. k2) in * . apply Rabs_le_inv in Eh.
  assert (HH : 968 / 1000 <= B2R h <= 1032 / 1000) by lra.
  destruct (@lit8 f) as (F8 & V8). destruct (@lit12 f) as (F12 & V12). apply Rabs_le_inv in V8. apply Rabs_le_inv in V12.
  assert (HL : ghal x a p d ev = r1 /. h).
  { unfold ghal, halley. fold s r1 z1 z2 r2 k1 k2 h. unfold min. rewrite (flt_false (dlit f 12 1) h); auto. 2: lra. unfold max. rewrite (flt_false h (dlit f 8 1)); auto. lra. }
  rewrite HL.
  (* the step *)
  set (H := B2R h) in * . assert (RH : Rabs (B2R r1 / H) <= 688 / 10000) by (eapply Rle_trans; [apply (div_le _ H _ _ R1 (ltac:(lra) : 0 < 968 / 1000)); lra|lra]).
  destruct (op_div r1 h Fr) as (Fdi & Vdi). { fold H. lra. } { fold H. lra. } fold H in Vdi. assert (E1 := rnd_sm _ _ RH). assert (DI := sm_le _ _ RH ltac:(lra)). rewrite <- Vdi in E1, DI. set (di := r1 /. h) in * . set (d1 := B2R di - B2R r1 / H) in * .
  assert (DI' := DI). apply Rabs_le_inv in DI'. assert (XD : Rabs (X - B2R di) <= 96 / 10) by (apply Rabs_le; lra).
  destruct (op_sub x di Fx Fdi) as (Fn & Vn). { fold X. lra. } fold X in Vn. assert (En := rnd_sm _ _ XD). rewrite <- Vn in En. set (x' := x -. di) in * . set (dx := B2R x' - (X - B2R di)) in * .
  assert (XX : Rabs (B2R x' - X) <= 7 / 100). { replace (B2R x' - X) with (- B2R di + dx) by (unfold dx; ring). eapply Rle_trans. apply Rabs_triang. rewrite Rabs_Ropp. lra. }
  split. exact Fn. split. lra.
  (* the new error *)
  set (X' := B2R x') in * . destruct (Q_mvt (S m) X X') as (xi & XI & QE). assert (XX' := XX). apply Rabs_le_inv in XX'. assert (XI' : X - 7 / 100 <= xi <= X + 7 / 100). { revert XI. unfold Rmin, Rmax. destruct (Rle_dec X X'); lra. }
  assert (GX := gd_rng m xi M ltac:(lra)). assert (GN := gd_near m xi y M ltac:(lra) ltac:(lra)). fold gy in GN. set (gx := gd (S m) xi) in * .
  assert (GN2 : Rabs (gx - gy) <= 21 / 100 * gy). { eapply Rle_trans. exact GN. assert (Rabs (xi - y) <= 15 / 100) by (apply Rabs_le; lra). apply Rmult_le_compat_r. lra. lra. }
  apply Rabs_le_inv in GN2. apply Rabs_le_inv in HD.
  assert (DH : 967 / 1000 * gy <= D * H <= 1034 / 1000 * gy).
  { assert (A1 : 968 / 1000 * D <= H * D) by (apply Rmult_le_compat_r; lra). assert (A2' : H * D <= 1032 / 1000 * D) by (apply Rmult_le_compat_r; lra). lra. }
  set (rho := gx / (D * H)). assert (RO : Rabs (1 - rho) <= 26 / 100).
  { assert (DH0 : 0 < D * H) by lra. assert (RE : rho * (D * H) = gx) by (unfold rho; field; split; lra). apply Rabs_le. assert (rho <= 126 / 100). { apply Rmult_le_reg_r with (D * H); lra. } assert (74 / 100 <= rho). { apply Rmult_le_reg_r with (D * H); lra. } lra. }
  assert (RO' := RO). apply Rabs_le_inv in RO'.
  set (dl := d4 + (d3 + (D * d2 + D * H * d1))).
  assert (DL : Rabs dl <= c * (506 / 1000) + 7 / 100 * u).
  { assert (Q2 : Rabs (D * d2) <= 401 / 1000 * (u * (664 / 10000 + / 1000000000))) by (apply abs_mul; auto; rewrite Rabs_pos_eq; lra). assert (Q1 : Rabs (D * H * d1) <= 401 / 1000 * (1032 / 1000) * (u * (688 / 10000 + / 1000000000))) by (apply abs_mul; auto; apply abs_mul; rewrite Rabs_pos_eq; lra).
    unfold dl. eapply Rle_trans. apply abs_tri. exact D4. apply abs_tri. exact E3. apply abs_tri. exact Q2. exact Q1. lra. }
  assert (XE : X' - X = - (E + dl) / (D * H) + dx).
  { unfold dx, dl. replace (B2R di) with (B2R r1 / H + d1) by (unfold d1; ring). replace (B2R r1) with (B2R s / D + d2) by (unfold d2; ring). replace (B2R s) with ((E + d4) + d3) by (unfold d3, d4, E; ring). field. split; lra. }
  replace (Q (S (S m)) X' - P) with ((1 - rho) * E + (- rho * dl + gx * dx)).
  2: { fold qx in QE. replace (Q (S (S m)) X' - P) with (E + gx * (X' - X)) by (rewrite <- QE; unfold E; ring). rewrite XE. unfold rho. field. split; lra. }
  assert (T1 := abs_mul _ _ _ _ RO (Rle_refl (Rabs E))). assert (T2 : Rabs (- rho * dl) <= 126 / 100 * (c * (506 / 1000) + 7 / 100 * u)) by (apply abs_mul; auto; apply Rabs_le; lra).
  assert (T3 : Rabs (gx * dx) <= 4 / 10 * (u * (96 / 10 + / 1000000000))) by (apply abs_mul; auto; rewrite Rabs_pos_eq; lra).
  eapply Rle_trans. apply abs_tri. exact T1. apply abs_tri. exact T2. exact T3. lra.
Qed.

(** ** The iteration *)
Lemma shape_P a m z : shape a m -> 0 < z -> gamma_P (B2R a) z = Q (S (S m)) z.
Proof. intros (_ & -> & _) Z0. rewrite <- (P_closed (S m)) by auto. f_equal. rewrite S_INR, INR_IZR_INZ. ring. Qed.
Lemma inside m X P : (m <= 7)%nat -> 16 / 100 <= P <= / 2 -> 0 <= X -> Rabs (Q (S (S m)) X - P) <= 6 / 1000 -> lo m + 8 / 100 <= X <= hi m - 8 / 100.
Proof.
  intros M HP X0 HE. apply Rabs_le_inv in HE. assert (A := Q_lo m M). assert (B := Q_hi m M). destruct (lo_hi m M) as (L1 & L2 & L3). split; left; apply (Q_lt_inv (S m)); lra.
Qed.
Lemma ig_noise (a x : flt f) m : shape a m -> finite x = true -> lo m + 8 / 100 <= B2R x <= hi m - 8 / 100 -> exists ev, incomplete_gamma_check v a x = Ok ev /\ finite ev = true /\ Rabs (B2R ev - Q (S (S m)) (B2R x)) <= (1600 * u + bpow radix2 (-49)) * Rabs (Q (S (S m)) (B2R x)).
Proof.
  intros SH Fx HX. assert (RA := shape_rng a m SH). destruct SH as (Fa & VA & M) eqn:SE. destruct (lo_hi m M) as (L1 & L2 & L3). assert (HB : hi m = B2R a + / 2) by (unfold hi; lra).
  destruct (cf1_acc v a x) as (w & Ew & Fw & Rw); auto; try lra. exists w. split; auto. split; auto. unfold rel_err in Rw. rewrite (shape_P a m) in Rw by (try lra; repeat split; auto). exact Rw.
Qed.
Lemma grecur (a p lg : flt f) m : shape a m -> lgamma_check v a = Ok lg -> finite p = true -> 16 / 100 <= B2R p <= / 2 -> forall k n (x d : flt f) y iter B, (iter = GCEM_INCML_GAMMA_INV_MAX_ITER + 1 - Z.of_nat k)%Z -> (k < n)%nat ->
  finite x = true -> finite d = true -> 0 <= B2R x -> Rabs (Q (S (S m)) (B2R x) - B2R p) <= B -> 0 <= B <= 6 / 1000 -> Rabs (B2R d - gd (S m) y) <= / 1000 * gd (S m) y -> Rabs (y - B2R x) <= 8 / 100 ->
  exists w, incomplete_gamma_inv_recur v n x a p d lg iter = Ok w /\ finite w = true /\ lo m <= B2R w <= hi m /\ Rabs (Q (S (S m)) (B2R w) - B2R p) <= (26 / 100) ^ S k * B + 100 / 74 * (1 - (26 / 100) ^ S k) * (64 / 100 * (1600 * u + bpow radix2 (-49)) + 4 * u).
Proof.
  intros SH EL Fp HP. set (P := B2R p) in * . set (c := 1600 * u + bpow radix2 (-49)). assert (HC : 0 <= c <= 2 / 10000). { unfold c. assert (bpow radix2 (-49) <= / 100000000) by (cbn; lra). assert (b0 := bpow_gt_0 radix2 (-49)). lra. }
  assert (M : (m <= 7)%nat) by apply SH. destruct (lo_hi m M) as (L1 & L2 & L3). set (nu := 64 / 100 * c + 4 * u). assert (nu0 : 0 <= nu) by (unfold nu; lra).
  induction k as [|k IH]; intros n x d y iter B HI HN Fx Fd X0 HE HB HD HY; (destruct n as [|n]; [lia|]); cbn [incomplete_gamma_inv_recur].
  - assert (HX := inside m (B2R x) P M HP X0 ltac:(lra)). destruct (ig_noise a x m SH Fx HX) as (ev & Ee & Fe & Re). fold c in Re. rewrite Ee. cbn [bind]. replace (iter <=? GCEM_INCML_GAMMA_INV_MAX_ITER)%Z with false by (symmetry; apply Z.leb_gt; lia).
    destruct (gstep x a p d ev m y c SH Fx Fp Fd Fe HP HX ltac:(fold P; lra) HD HY HC Re) as (Fn & Xn & En). unfold ghal in Fn, Xn, En. eexists. split. reflexivity. split. exact Fn. apply Rabs_le_inv in Xn. split. lra. eapply Rle_trans. exact En. fold P. rewrite pow_1. unfold nu in * . lra.
  - assert (HX := inside m (B2R x) P M HP X0 ltac:(lra)). destruct (ig_noise a x m SH Fx HX) as (ev & Ee & Fe & Re). fold c in Re. rewrite Ee. cbn [bind]. replace (iter <=? GCEM_INCML_GAMMA_INV_MAX_ITER)%Z with true by (symmetry; apply Z.leb_le; lia).
    destruct (gstep x a p d ev m y c SH Fx Fp Fd Fe HP HX ltac:(fold P; lra) HD HY HC Re) as (Fn & Xn & En). unfold ghal in Fn, Xn, En. fold P in En.
    destruct (gder a m lg x SH EL Fx ltac:(lra)) as (d' & Ed & Fd' & Rd). rewrite Ed. cbn [bind]. assert (Xn' := Xn). apply Rabs_le_inv in Xn'.
    destruct (IH n _ d' (B2R x) (iter + 1)%Z (26 / 100 * B + nu) ltac:(lia) ltac:(lia) Fn Fd' ltac:(lra)) as (w & Ew & Fw & Bw & Rw).
    + eapply Rle_trans. exact En. unfold nu. lra.
    + unfold nu in * . split; lra.
    + exact Rd.
    + rewrite Rabs_minus_sym. exact Xn.
    + exists w. split. exact Ew. split. exact Fw. split. exact Bw. eapply Rle_trans. exact Rw. fold nu.
      change ((26 / 100) ^ S (S k)) with (26 / 100 * (26 / 100) ^ S k). set (t := (26 / 100) ^ S k). right. field.
Qed.

(** ** The starting value *)
Lemma lit4 : finite (dlit f 1 4) = true /\ B2R (dlit f 1 4) <= / 100.
Proof. clear. split. destruct f; vm_compute; reflexivity. destruct f; [destruct (sf_val (dlit F32 1 4) false 13743895 (-37)) as (A & B) | destruct (sf_val (dlit F64 1 4) false 7378697629483821 (-66)) as (A & B) | destruct (sf_val (dlit F80 1 4) false 15111572745182865408 (-77)) as (A & B)]; try (vm_compute; reflexivity); rewrite B; unfold F2R; cbn; lra. Qed.
Lemma lits6 : forallb (fun n => lit_ok f n 6) (2515517 :: 802853 :: 10328 :: 1432788 :: 189269 :: 1308 :: nil)%Z = true.
Proof. clear. destruct f; vm_compute; reflexivity. Qed.
Lemma nr_lit n : In n (2515517 :: 802853 :: 10328 :: 1432788 :: 189269 :: 1308 :: nil)%Z -> nr (llit f n 6) (IZR n / 1000000) (4 / 10000000).
Proof.
  intros I. assert (L := lits6). rewrite forallb_forall in L. destruct (lit_err f n 6 ltac:(lia) (L n I)) as (F & B). change (IZR (10 ^ 6)) with 1000000 in B. split. exact F. eapply Rle_trans. exact B.
  assert (R : 0 <= IZR n / 1000000 <= 3). { clear - I. cbn in I. repeat (destruct I as [<-|I]; [lra|]). contradiction. } rewrite Rabs_pos_eq by lra. apply Rle_trans with (2 * / 16777216 * 3); [|lra]. apply Rmult_le_compat; lra.
Qed.
Ltac wk N k := let N' := fresh in assert (N' := nr_mono _ _ _ k N ltac:(lra)); clear N; rename N' into N.
Ltac wk2 N k := let N' := fresh in assert (N' := Rle_trans _ _ k N ltac:(lra)); clear N; rename N' into N.
Lemma ibegin (t : flt f) : finite t = true -> 117 / 100 <= B2R t <= 192 / 100 -> nr (incomplete_gamma_inv_int_begin t) (vt (B2R t)) (7 / 1000000).
Proof.
  intros Ft HT. assert (N := nr_exact t Ft). unfold incomplete_gamma_inv_int_begin, vt. set (T := B2R t) in * . clearbody T.
  assert (C0 := nr_lit 2515517 ltac:(cbn; auto)). assert (C1 := nr_lit 802853 ltac:(cbn; auto)). assert (C2 := nr_lit 10328 ltac:(cbn; auto)). assert (D1 := nr_lit 1432788 ltac:(cbn; auto 10)). assert (D2 := nr_lit 189269 ltac:(cbn; auto 10)). assert (D3 := nr_lit 1308 ltac:(cbn; auto 10)).
  assert (TA : Rabs T <= 2) by (apply Rabs_le; lra).
  assert (A1 := nr_mul _ _ _ _ _ _ 1 2 C1 N ltac:(apply Rabs_le; lra) TA ltac:(lra) ltac:(lra) ltac:(lra)).
  assert (A2 := nr_add _ _ _ _ _ _ 6 C0 A1 ltac:(interval) ltac:(lra) ltac:(lra)).
  assert (A3 := nr_mul _ _ _ _ _ _ 1 2 C2 N ltac:(apply Rabs_le; lra) TA ltac:(lra) ltac:(lra) ltac:(lra)).
  assert (A4 := nr_mul _ _ _ _ _ _ 1 2 A3 N ltac:(interval) TA ltac:(lra) ltac:(lra) ltac:(lra)).
  assert (A5 := nr_add _ _ _ _ _ _ 6 A2 A4 ltac:(interval) ltac:(lra) ltac:(lra)). wk A5 (5 / 1000000).
  assert (B1 := nr_mul _ _ _ _ _ _ 2 2 D1 N ltac:(apply Rabs_le; lra) TA ltac:(lra) ltac:(lra) ltac:(lra)).
  assert (B2 := nr_add _ _ _ _ _ _ 6 (nr_Z 1 ltac:(lia)) B1 ltac:(interval) ltac:(lra) ltac:(lra)).
  assert (B3 := nr_mul _ _ _ _ _ _ 1 2 D2 N ltac:(apply Rabs_le; lra) TA ltac:(lra) ltac:(lra) ltac:(lra)).
  assert (B4 := nr_mul _ _ _ _ _ _ 1 2 B3 N ltac:(interval) TA ltac:(lra) ltac:(lra) ltac:(lra)).
  assert (B5 := nr_add _ _ _ _ _ _ 6 B2 B4 ltac:(interval) ltac:(lra) ltac:(lra)).
  assert (B6 := nr_mul _ _ _ _ _ _ 1 2 D3 N ltac:(apply Rabs_le; lra) TA ltac:(lra) ltac:(lra) ltac:(lra)).
  assert (B7 := nr_mul _ _ _ _ _ _ 1 2 B6 N ltac:(interval) TA ltac:(lra) ltac:(lra) ltac:(lra)).
  assert (B8 := nr_mul _ _ _ _ _ _ 1 2 B7 N ltac:(interval) TA ltac:(lra) ltac:(lra) ltac:(lra)).
  assert (B9 := nr_add _ _ _ _ _ _ 6 B5 B8 ltac:(interval) ltac:(lra) ltac:(lra)). wk B9 (10 / 1000000).
  clear A1 A2 A3 A4 B1 B2 B3 B4 B5 B6 B7 B8.
  set (den := 1 + 1432788 / 1000000 * T + 189269 / 1000000 * T * T + 1308 / 1000000 * T * T * T) in * . assert (DN : 29 / 10 <= den) by (unfold den; interval).
  assert (DV : Rabs ((2515517 / 1000000 + 802853 / 1000000 * T + 10328 / 1000000 * T * T) / den) <= 13 / 10) by (unfold den; interval with (i_bisect T)).
  assert (K := nr_div _ _ _ _ _ _ (28 / 10) (13 / 10) A5 B9 ltac:(lra)). destruct K as (FK & K); try lra.
  { destruct B9 as (_ & B9). apply Rabs_le_inv in B9. rewrite Rabs_pos_eq; lra. }
  assert (R := nr_sub _ _ _ _ _ _ 2 N (conj FK K) ltac:(unfold den; interval) ltac:(lra) ltac:(lra)). eapply nr_mono. exact R. lra.
Qed.
Lemma itval (p : flt f) : finite p = true -> 16 / 100 <= B2R p <= / 2 -> exists t, incml_inv_t_val v p = Ok t /\ finite t = true /\ 117 / 100 <= B2R t <= 192 / 100 /\ Rabs (exp (- (B2R t * B2R t) / 2) - B2R p) <= 5 / 100000.
Proof.
  intros Fp HP. destruct (half_spec f) as (Vh & Fh). unfold incml_inv_t_val. rewrite (flt_false (half f) p); auto. 2: rewrite Vh; lra. set (P := B2R p) in * .
  assert (LP : -184 / 100 <= ln P <= -69 / 100) by (split; interval).
  assert (HL : exists l, log_check v p = Ok l /\ finite l = true /\ rel_err (B2R l) (ln P) (22 * u)).
  { destruct (Req_dec P (/ 2)) as [EQ|NE]. destruct (log_check_ge v p Fp ltac:(fold P; lra)) as (l & El & Fl & Rl). exists l. split; auto. split; auto. eapply rel_mono; [|exact Rl]. lra.
    destruct (log_small_gen v p 1 Fp) as (l & El & Fl & Rl); try lia. fold P. split; [|lra]. apply Rle_trans with (bpow radix2 (-3)). apply bpow_le. clear. destruct f; discriminate. change (bpow radix2 (-3)) with (/ 8). lra. fold P. rewrite pow_1. lra. exists l. auto. }
  destruct HL as (l & El & Fl & Rl). rewrite El. cbn [bind]. unfold rel_err in Rl. rewrite (Rabs_left (ln P)) in Rl by lra.
  assert (NL : nr l (ln P) (3 / 1000000)). { split; auto. eapply Rle_trans. exact Rl. apply Rle_trans with (22 * / 16777216 * (184 / 100)); [|lra]. apply Rmult_le_compat; lra. }
  assert (N2 : nr (-. ofZ f 2) (-2) 0). { destruct (nr_Z 2 ltac:(lia)) as (F2 & V2). split. rewrite fneg_finite; auto. rewrite fneg_B2R. replace (- B2R (ofZ f 2) - -2) with (- (B2R (ofZ f 2) - 2)) by ring. rewrite Rabs_Ropp. exact V2. }
  destruct (nr_mul _ _ _ _ _ _ 2 2 N2 NL ltac:(apply Rabs_le; lra) ltac:(apply Rabs_le; lra) ltac:(lra) ltac:(lra) ltac:(lra)) as (Fs & Es). set (s := -. ofZ f 2 *. l) in * . assert (Es2 : Rabs (B2R s - -2 * ln P) <= 7 / 1000000) by lra. clear Es. assert (Es3 := Es2). apply Rabs_le_inv in Es3.
  assert (b170 : bpow radix2 (-170) <= 1) by (apply (bpow_le radix2 (-170) 0); lia).
  destruct (@sqrt_check_acc f s Fs) as (t & Et & Ft & Rt). { apply Rle_trans with (bpow radix2 0). apply bpow_le. clear. destruct f; discriminate. change (bpow radix2 0) with 1. lra. } lra.
  exists t. split. exact Et. split. exact Ft. destruct (Rle_dec (B2R s) 100) as [_|]; [|lra]. unfold rel_err in Rt. set (S0 := B2R s) in * . assert (SS : sqrt S0 * sqrt S0 = S0) by (apply sqrt_sqrt; lra). assert (S0R : 1379 / 1000 <= S0 <= 3681 / 1000) by lra. assert (SR : 1174 / 1000 <= sqrt S0 <= 1919 / 1000) by (split; interval). rewrite (Rabs_pos_eq (sqrt S0)) in Rt by lra.
  assert (Rt2 : Rabs (B2R t - sqrt S0) <= 2 / 10000000). { eapply Rle_trans. exact Rt. apply Rle_trans with (17 / 10 * / 16777216 * (1919 / 1000)); [|lra]. apply Rmult_le_compat; lra. } assert (Rt3 := Rt2). apply Rabs_le_inv in Rt3. split. lra.
  assert (TT : Rabs (B2R t * B2R t - S0) <= / 1000000). { rewrite <- SS. replace (B2R t * B2R t - sqrt S0 * sqrt S0) with ((B2R t - sqrt S0) * (B2R t + sqrt S0)) by ring. eapply Rle_trans. apply (abs_mul _ _ _ 4 Rt2). apply Rabs_le; lra. lra. } apply Rabs_le_inv in TT.
  assert (DD : Rabs (- (B2R t * B2R t) / 2 - ln P) <= 5 / 1000000) by (apply Rabs_le; lra).
  assert (PP := exp_pert (exp (- (B2R t * B2R t) / 2)) _ (ln P) 0 _ ltac:(unfold rel_err; rewrite Rminus_diag_eq by reflexivity; rewrite Rabs_R0, Rmult_0_l; apply Rle_refl) DD ltac:(lra) ltac:(lra)). unfold rel_err in PP. rewrite exp_ln, (Rabs_pos_eq P) in PP by lra. eapply Rle_trans. exact PP. apply Rle_trans with (10 / 100000 * / 2); [|lra]. apply Rmult_le_compat; lra.
Qed.
Lemma istart (a p : flt f) m : shape a m -> finite p = true -> 16 / 100 <= B2R p <= / 2 -> exists z, incomplete_gamma_inv_initial_val v a p = Ok z /\ finite z = true /\ 0 <= B2R z /\ Rabs (Q (S (S m)) (B2R z) - B2R p) <= 6 / 1000.
Proof.
  intros SH Fp HP. destruct (shape_rng a m SH) as (RA & RM). destruct SH as (Fa & VA & M). destruct (lo_hi m M) as (L1 & L2 & L3). destruct (ofZ_small f 1 ltac:(lia)) as (V1 & F1 & _). destruct (half_spec f) as (Vh & Fh).
  unfold incomplete_gamma_inv_initial_val. rewrite (flt_true (ofZ f 1) a); auto. 2: rewrite V1; lra. destruct (itval p Fp HP) as (t & Et & Ft & HT & ET). rewrite Et. cbn [bind]. rewrite (flt_false (half f) p); auto. 2: rewrite Vh; lra.
  unfold incomplete_gamma_inv_initial_val_1. assert (NV := ibegin t Ft HT). assert (WO := wh_ok m (B2R t) M HT).
  assert (b170 : bpow radix2 (-170) <= 1) by (apply (bpow_le radix2 (-170) 0); lia).
  destruct (@sqrt_check_acc f a Fa) as (s & Es & Fs & Rs). { apply Rle_trans with (bpow radix2 0). apply bpow_le. clear. destruct f; discriminate. change (bpow radix2 0) with 1. lra. } lra.
  rewrite Es. cbn [bind]. destruct (Rle_dec (B2R a) 100) as [_|]; [|lra]. unfold rel_err in Rs.
  unfold wh in WO. cbv zeta in WO. rewrite <- VA in WO. assert (NA := nr_exact a Fa). set (A := B2R a) in * . set (T := B2R t) in * .
  assert (VT : -2 / 100 <= vt T <= 101 / 100). { clearbody T. clear - HT. unfold vt. split; interval with (i_bisect T, i_taylor T). }
  assert (SR : 1414 / 1000 <= sqrt A <= 3) by (split; [interval|apply Rle_trans with (sqrt (3 * 3)); [apply sqrt_le_1_alt; lra|rewrite sqrt_square; lra]]). set (SA := sqrt A) in * . rewrite (Rabs_pos_eq SA) in Rs by lra.
  assert (NS : nr s SA (4 / 10000000)). { split; auto. eapply Rle_trans. exact Rs. apply Rle_trans with (17 / 10 * / 16777216 * 3); [|lra]. apply Rmult_le_compat; lra. }
  set (V := vt T) in * . clearbody V SA. set (ib := incomplete_gamma_inv_int_begin t) in * . clearbody ib.
  assert (N1 := nr_mul _ _ _ _ _ _ 1 (11 / 10) (nr_Z 1 ltac:(lia)) NV ltac:(apply Rabs_le; lra) ltac:(apply Rabs_le; lra) ltac:(lra) ltac:(lra) ltac:(lra)). rewrite Rmult_1_l in N1. set (va := ofZ f 1 *. ib) in * .
  assert (N2 := nr_mul _ _ _ _ _ _ 3 3 (nr_Z 3 ltac:(lia)) NS ltac:(apply Rabs_le; lra) ltac:(apply Rabs_le; lra) ltac:(lra) ltac:(lra) ltac:(lra)). wk N2 (2 / 1000000).
  assert (QV : Rabs (V / (3 * SA)) <= 3 / 10). { eapply Rle_trans. apply (div_le V (3 * SA) (101 / 100) (42 / 10)). apply Rabs_le; lra. lra. lra. lra. }
  assert (N3 := nr_div _ _ _ _ _ _ 4 (3 / 10) N1 N2 ltac:(lra)). destruct N3 as (F3 & N3); try lra.
  { destruct N2 as (_ & N2). apply Rabs_le_inv in N2. rewrite Rabs_pos_eq; lra. }
  wk2 N3 (25 / 10000000).
  assert (N4 := nr_mul _ _ _ _ _ _ 9 9 (nr_Z 9 ltac:(lia)) NA ltac:(apply Rabs_le; lra) ltac:(apply Rabs_le; lra) ltac:(lra) ltac:(lra) ltac:(lra)). wk N4 (6 / 1000000).
  assert (QA : Rabs (1 / (9 * A)) <= 6 / 100). { eapply Rle_trans. apply (div_le 1 (9 * A) 1 18). rewrite Rabs_R1; lra. lra. lra. lra. }
  assert (N5 := nr_div _ _ _ _ _ _ 17 (6 / 100) (nr_Z 1 ltac:(lia)) N4 ltac:(lra)). destruct N5 as (F5 & N5); try lra.
  { destruct N4 as (_ & N4). apply Rabs_le_inv in N4. rewrite Rabs_pos_eq; lra. }
  wk2 N5 (2 / 10000000).
  apply Rabs_le_inv in QV. apply Rabs_le_inv in QA. assert (QV0 : V / (3 * SA) <= 25 / 100). { apply Rmult_le_reg_r with (3 * SA). lra. unfold Rdiv. rewrite Rmult_assoc, Rinv_l by lra. lra. }
  assert (N6 := nr_sub _ _ _ _ _ _ 2 (nr_Z 1 ltac:(lia)) (conj F5 N5) ltac:(apply Rabs_le; lra) ltac:(lra) ltac:(lra)).
  assert (N7 := nr_sub _ _ _ _ _ _ 2 N6 (conj F3 N3) ltac:(apply Rabs_le; lra) ltac:(lra) ltac:(lra)). wk N7 (4 / 1000000).
  set (y := ofZ f 1 -. ofZ f 1 /. (ofZ f 9 *. a) -. va /. (ofZ f 3 *. s)) in * . set (Y := 1 - 1 / (9 * A) - V / (3 * SA)) in * . assert (QA0 : 0 < 1 / (9 * A)) by (apply Rdiv_lt_0_compat; lra). assert (YR : 69 / 100 <= Y <= 13 / 10) by (unfold Y; lra). clearbody Y.
  assert (N8 := nr_mul _ _ _ _ _ _ (13 / 10) (13 / 10) N7 N7 ltac:(apply Rabs_le; lra) ltac:(apply Rabs_le; lra) ltac:(lra) ltac:(lra) ltac:(lra)). wk N8 (12 / 1000000).
  assert (Y2 : 47 / 100 <= Y * Y <= 17 / 10) by (split; interval). assert (Y3 : 32 / 100 <= Y * Y * Y <= 22 / 10) by (split; interval).
  assert (N9 := nr_mul _ _ _ _ _ _ (17 / 10) (13 / 10) N8 N7 ltac:(apply Rabs_le; lra) ltac:(apply Rabs_le; lra) ltac:(lra) ltac:(lra) ltac:(lra)). wk N9 (25 / 1000000).
  change (pow_integral I32 y 3) with (Ok (y *. y *. y)). cbn [bind].
  assert (N10 := nr_mul _ _ _ _ _ _ 9 (22 / 10) NA N9 ltac:(apply Rabs_le; lra) ltac:(apply Rabs_le; lra) ltac:(lra) ltac:(lra) ltac:(lra)). destruct N10 as (Fz & N10). wk2 N10 (3 / 10000). set (z := a *. (y *. y *. y)) in * .
  assert (W0 : 2 * (32 / 100) <= A * (Y * Y * Y)) by (apply Rmult_le_compat; lra). set (W := A * (Y * Y * Y)) in * . assert (N10' := N10). apply Rabs_le_inv in N10'.
  destruct lit4 as (F4 & V4). replace (max (dlit f 1 4) z) with z. 2: { unfold max. rewrite ?(flt_true (dlit f 1 4) z), ?(flt_false z (dlit f 1 4)); auto; lra. }
  exists z. split. reflexivity. split. exact Fz. split. lra.
  apply Rabs_le_inv in WO. apply Rabs_le_inv in ET. assert (QW : Rabs (Q (S (S m)) W - B2R p) <= 46 / 10000) by (apply Rabs_le; lra). assert (IN := inside m W (B2R p) M HP ltac:(lra) ltac:(lra)).
  destruct (Q_mvt (S m) W (B2R z)) as (xi & XI & QE). assert (XI' : W - 3 / 10000 <= xi <= W + 3 / 10000). { revert XI. unfold Rmin, Rmax. destruct (Rle_dec W (B2R z)); lra. }
  assert (G := gd_rng m xi M ltac:(lra)). assert (GG : 0 <= ig_G m). { clear - M. eight m M; unfold ig_G; lra. }
  assert (K : Rabs (gd (S m) xi * (B2R z - W)) <= 4 / 10 * (3 / 10000)) by (apply abs_mul; auto; rewrite Rabs_pos_eq; lra). rewrite <- QE in K. apply Rabs_le_inv in K. apply Rabs_le_inv in QW. apply Rabs_le. lra.
Qed.
End A.
