(** * Accuracy of lmgamma *)
From Verif Require Import Base ModelBasic ModelInt ModelElem ModelSpecial ModelApi FltLemmas ConvLemmas BasicProofs.
From Coq Require Import Lra Psatz.
From Flocq Require Import Sterbenz.
From Coquelicot Require Import Coquelicot.
From Interval Require Import Tactic.
From Verif Require Import Spec SpecGamma Lanczos GammaInt GammaReal.
From Verif Require Import RangeProofs PF FPErr CFBound ExpAcc MiscProofs SinAcc TanhAcc SqrtAcc LogAcc LogApi Log1pAcc InvTrig PowReal ErfAcc GammaRnd GammaAcc TgammaAcc GammaApi BetaAcc.
Open Scope R_scope.

Lemma lpi : finite GCEM_LOG_PI = true /\ Rabs (B2R GCEM_LOG_PI - ln PI) <= / 18446744073709551616 * ln PI.
Proof.
  destruct (sf_val GCEM_LOG_PI false 10558269618895317087%positive (-63)%Z) as (A & B); [vm_compute; reflexivity|]. split; auto. rewrite B. unfold F2R. cbn [Fnum Fexp cond_Zopp]. change (bpow radix2 (-63)) with (/ 9223372036854775808). interval with (i_prec 140).
Qed.
Lemma sub_half {f} (x : flt f) : finite x = true -> / 2 <= B2R x <= 4194304 -> finite (x -. half f) = true /\ B2R (x -. half f) = B2R x - / 2.
Proof.
  intros F X. destruct (half_spec f) as (Vh & Fh). destruct (op_sub x (half f) F Fh) as (Fs & Vs). { rewrite Vh. apply Rabs_le. lra. } split; auto. rewrite Vs, Vh. apply rnd_id.
  destruct (Rle_or_lt (B2R x) 1) as [L|L].
  - rewrite <- Vh. apply sterbenz; try apply fmt_format; auto with typeclass_instances. rewrite Vh. lra.
  - assert (G := fmt_format x). set (e := cexp radix2 (fexpf f) (B2R x)). assert (E : B2R x = F2R (Float radix2 (Ztrunc (scaled_mantissa radix2 (fexpf f) (B2R x))) e)) by exact G.
    assert (HE : (e <= -1)%Z). { unfold e, cexp. assert (M : (mag radix2 (B2R x) <= 23)%Z). { apply mag_le_bpow. lra. rewrite Rabs_pos_eq by lra. change (bpow radix2 23) with 8388608. lra. } rewrite fexpf_FLT. unfold FLT_exp, emin. set (z := mag_val radix2 (B2R x) (mag radix2 (B2R x))) in * . clearbody z. destruct f; cbn [prec emax]; lia. }
    set (m := Ztrunc (scaled_mantissa radix2 (fexpf f) (B2R x))) in * .
    assert (E2 : B2R x - / 2 = F2R (Float radix2 (m - 2 ^ (-1 - e)) e)). { rewrite E. unfold F2R. cbn [Fnum Fexp]. rewrite minus_IZR, Rmult_minus_distr_r. f_equal. change 2%Z with (radix_val radix2). rewrite IZR_Zpower by lia. rewrite <- bpow_plus. replace (-1 - e + e)%Z with (-1)%Z by ring. reflexivity. }
    rewrite E2. apply generic_format_F2R. intros _. rewrite <- E2. unfold e, cexp. apply fexpf_mono. apply mag_le; lra.
Qed.

Section LM.
Context (v : cxx) {f : fmt}.
Variables (a0 : R) (p : nat).
Hypothesis HA0 : / 2 <= a0 <= 4194304.
Hypothesis HP : (1 <= p <= 4096)%nat.
Notation u := (uf f).
Let u0 : 0 < u := uf_pos f.
Let u1 : u <= / 16777216 := uf_le f.
Let uu : 0 < u <= / 16777216 := conj u0 u1.
Notation L := (ln (a0 + 5)).
Notation M := (a0 * ln (a0 + 5)).
Notation T := (17 / 10 * M + 1).
Notation C := ((17 * M + 54 + INR p * (35 / 10 * M + 21 / 10)) * u + (a0 + 3) * eps).
Let L0 : 17 / 10 <= L.
Proof. apply Rle_trans with (ln (11 / 2)). interval. apply ln_le; lra. Qed.
Let M0 : 17 / 10 * a0 <= M.
Proof. rewrite Rmult_comm. apply Rmult_le_compat_l; lra. Qed.
Let Pr : 1 <= INR p <= 4096.
Proof. destruct HP as (A & B). apply le_INR in A. apply le_INR in B. rewrite (INR_IZR_INZ 4096) in B. cbn in A, B. lra. Qed.
Lemma lpi_rng : 114 / 100 <= ln PI <= 1145 / 1000. Proof. split; interval. Qed.
Lemma C_small : 0 <= C <= / 1000 * T.
Proof.
  assert (MB : M <= 4194304 * 16). { apply Rmult_le_compat; try lra. apply Rle_trans with (ln 4194310). apply ln_le; lra. interval. }
  assert (P1 : INR p * (35 / 10 * M + 21 / 10) <= 4096 * (35 / 10 * M + 21 / 10)) by (apply Rmult_le_compat_r; lra). assert (P2 : 0 <= INR p * (35 / 10 * M + 21 / 10)) by (apply Rmult_le_pos; lra).
  assert (P3 : (17 * M + 54 + INR p * (35 / 10 * M + 21 / 10)) * u <= (17 * M + 54 + 4096 * (35 / 10 * M + 21 / 10)) * / 16777216) by (apply Rmult_le_compat; lra).
  assert (P4 : 0 <= (17 * M + 54 + INR p * (35 / 10 * M + 21 / 10)) * u) by (apply Rmult_le_pos; lra). lra.
Qed.
Lemma level_size a q : / 2 <= a <= a0 -> INR q / 2 + / 2 <= a -> Rabs (INR q / 2 * ln PI + ln (Gamma a)) <= T /\ 0 <= INR q / 2 * ln PI <= 68 / 100 * M.
Proof.
  intros A Q. assert (R := lpi_rng). assert (Q0 := pos_INR q). assert (S := lnGamma_size a ltac:(lra)). assert (LA : ln (a + 5) <= L) by (apply ln_le; lra). assert (0 <= ln (a + 5)) by (rewrite <- ln_1; apply ln_le; lra).
  assert (a * ln (a + 5) <= M) by (apply Rmult_le_compat; lra). assert (Q1 : INR q / 2 * ln PI <= a0 * (1145 / 1000)) by (apply Rmult_le_compat; lra). assert (0 <= INR q / 2 * ln PI) by (apply Rmult_le_pos; lra).
  split; [apply Rabs_le|]; lra.
Qed.
Lemma lnmv_size q : forall a, / 2 <= a <= a0 -> INR q / 2 <= a -> Rabs (ln_mvgamma q a) <= INR q * T.
Proof.
  induction q as [|q IH]; intros a A Q. cbn [ln_mvgamma]. rewrite Rabs_R0. change (INR 0) with 0. lra.
  rewrite S_INR in * . cbn [ln_mvgamma]. destruct (level_size a q A ltac:(lra)) as (B & _). assert (Q0 := pos_INR q).
  eapply Rle_trans. apply Rabs_triang. destruct (Rle_or_lt (/ 2) (a - / 2)) as [H|H].
  - assert (I := IH (a - / 2) ltac:(lra) ltac:(lra)). lra.
  - destruct q as [|q]. cbn [ln_mvgamma]. rewrite Rabs_R0. change (INR 0) with 0 in * . lra. rewrite S_INR in * . assert (Z := pos_INR q). lra.
Qed.
Lemma lmgamma_acc q : (q <= p)%nat -> forall (a : flt f) n, finite a = true -> INR q / 2 <= B2R a <= a0 -> (1 <= q <= n)%nat ->
  exists t : flt f, lmgamma_recur v n a (Z.of_nat q) = Ok t /\ finite t = true /\ Rabs (B2R t - ln_mvgamma q (B2R a)) <= INR q * C.
Proof.
  assert (R := lpi_rng). assert (CS := C_small).
  induction q as [|q IH]; intros QP a n Fa HA Hn. lia. destruct n as [|n]; [lia|]. cbn [lmgamma_recur]. rewrite finite_not_nan by auto. rewrite S_INR in * . assert (Q0 := pos_INR q).
  assert (A2 : / 2 <= B2R a) by lra.
  destruct (lgamma_bd v a L Fa ltac:(lra) ltac:(apply ln_le; lra)) as (l & El & Fl & Rl & _). assert (AM : B2R a * L <= M) by (apply Rmult_le_compat_r; lra). assert (UAM := Rmult_le_compat_l u _ _ ltac:(lra) AM).
  assert (UM0 : 0 <= u * M) by (apply Rmult_le_pos; lra). assert (UPM0 : 0 <= u * (INR p * (35 / 10 * M + 21 / 10))) by (apply Rmult_le_pos; [lra|apply Rmult_le_pos; lra]).
  assert (AE : (B2R a + 3) * eps <= (a0 + 3) * eps) by (apply Rmult_le_compat_r; lra).
  destruct q as [|q].
  - change (Z.of_nat 1) with 1%Z. rewrite Z.eqb_refl, El. exists l. split; auto. split; auto. cbn [ln_mvgamma]. change (INR 0) with 0. replace (0 / 2 * ln PI + ln (Gamma (B2R a)) + 0) with (ln (Gamma (B2R a))) by field. lra.
  - replace (Z.of_nat (S (S q)) =? 1)%Z with false by (symmetry; apply Z.eqb_neq; lia). replace (Z.of_nat (S (S q)) <? 1)%Z with false by (symmetry; apply Z.ltb_ge; lia). rewrite El. cbn [bind].
    destruct (sub_half a Fa ltac:(lra)) as (Fs & Vs).
    destruct (IH ltac:(lia) (a -. half f) n Fs ltac:(rewrite Vs; lra) ltac:(lia)) as (r & Er & Fr & Rr). replace (Z.of_nat (S (S q)) - 1)%Z with (Z.of_nat (S q)) by lia. rewrite Er. cbn [bind].
    rewrite Vs in Rr. assert (NS := lnmv_size (S q) (B2R a - / 2)). specialize (NS ltac:(rewrite S_INR in HA; assert (Z := pos_INR q); lra) ltac:(lra)).
    change (ln_mvgamma (S (S q)) (B2R a)) with (INR (S q) / 2 * ln PI + ln (Gamma (B2R a)) + ln_mvgamma (S q) (B2R a - / 2)). 
    destruct (level_size (B2R a) (S q) ltac:(lra) ltac:(lra)) as (LS & LQ). set (Q := INR (S q)) in * . set (g := ln (Gamma (B2R a))) in * . set (mv := ln_mvgamma (S q) (B2R a - / 2)) in * . set (lam := Q / 2 * ln PI) in * .
    assert (QP2 : Q + 1 <= INR p). { unfold Q. rewrite <- S_INR. apply le_INR. lia. } assert (Q1 : 1 <= Q) by (unfold Q; rewrite S_INR; assert (Z := pos_INR q); lra).
    (* the constant term *)
    destruct (ofZ_small f (Z.of_nat (S (S q))) ltac:(lia)) as (Vp & Fp & _). destruct (one_val (f := f)) as (V1 & F1). assert (PQ : IZR (Z.of_nat (S (S q))) = Q + 1) by (rewrite <- INR_IZR_INZ, S_INR; reflexivity). rewrite PQ in Vp.
    destruct (op_sub (ofZ f (Z.of_nat (S (S q)))) (ofZ f 1) Fp F1) as (Fm & Vm). { rewrite Vp, V1. apply Rabs_le. lra. }
    assert (VQ : B2R (ofZ f (Z.of_nat (S (S q))) -. ofZ f 1) = Q). { rewrite Vm, Vp, V1. replace (Q + 1 - 1) with Q by ring. apply rnd_id. unfold Q. rewrite INR_IZR_INZ. apply fmt_IZR. destruct f; cbn [prec]; lia. } clear Vm.
    set (pm := ofZ f (Z.of_nat (S (S q))) -. ofZ f 1) in * .
    destruct lpi as (FL & EL). destruct (conv_ln f GCEM_LOG_PI (ln PI) FL EL ltac:(lra)) as (FK & EK). set (K := conv f GCEM_LOG_PI) in * . assert (EK' := EK). apply Rabs_le_inv in EK'. assert (UL : u * ln PI <= / 16777216 * ln PI) by (apply Rmult_le_compat_r; lra).
    assert (KQ : B2R K * Q <= 12 / 10 * 4096) by (apply Rmult_le_compat; lra). assert (KQ0 : 1 * 1 <= B2R K * Q) by (apply Rmult_le_compat; lra).
    destruct (op_mul K pm FK Fm) as (Fy & Vy). { rewrite VQ. apply Rabs_le. lra. } rewrite VQ in Vy.
    destruct (rnd_u f (B2R K * Q)) as (e1 & He1 & Ve1). { rewrite Rabs_pos_eq by lra. apply Rle_trans with (bpow radix2 0). apply bpow_le. destruct f; discriminate. change (bpow radix2 0) with 1. clear - KQ0. lra. } rewrite Ve1 in Vy.
    set (y := K *. pm) in * . assert (Y1 : Rabs (B2R y - ln PI * Q) <= 21 / 10 * u * (ln PI * Q)).
    { rewrite Vy. replace (B2R K * Q * (1 + e1) - ln PI * Q) with (((B2R K - ln PI) + B2R K * e1) * Q) by ring. rewrite Rabs_mult, (Rabs_pos_eq Q) by lra. rewrite <- Rmult_assoc. apply Rmult_le_compat_r. lra. eapply Rle_trans. apply Rabs_triang. rewrite Rabs_mult, (Rabs_pos_eq (B2R K)) by lra. assert (B2R K * Rabs e1 <= B2R K * u) by (apply Rmult_le_compat_l; lra). assert (B2R K * u <= 1001 / 1000 * ln PI * u) by (apply Rmult_le_compat_r; lra). lra. }
    assert (LQ2 : ln PI * Q = 2 * lam) by (unfold lam; field). rewrite LQ2 in Y1. assert (Y1' := Y1). apply Rabs_le_inv in Y1'. assert (ULam : u * lam <= / 16777216 * lam) by (apply Rmult_le_compat_r; lra). assert (ULM := Rmult_le_compat_l u _ _ ltac:(lra) (proj2 LQ)).
    assert (lamQ : 57 / 100 <= lam). { replace (57 / 100) with (/ 2 * (114 / 100)) by field. apply Rmult_le_compat; lra. } assert (lamB : lam <= 4096 / 2 * (1145 / 1000)) by (apply Rmult_le_compat; lra).
    destruct (ofZ_small f 2 ltac:(lia)) as (V2 & F2 & _). destruct (op_div y (ofZ f 2) Fy) as (Fh & Vh). { rewrite V2. lra. } { rewrite V2. apply Rabs_le. lra. } rewrite V2 in Vh.
    assert (D0 := rnd_tau (f := f) (B2R y / 2)). rewrite <- Vh in D0. set (h := y /. ofZ f 2) in * . rewrite (Rabs_pos_eq (B2R y / 2)) in D0 by lra. assert (UY : u * (B2R y / 2) <= u * (1001 / 1000 * lam)) by (apply Rmult_le_compat_l; lra).
    assert (H1 : Rabs (B2R h - lam) <= 32 / 10 * (u * lam)). { replace (B2R h - lam) with ((B2R h - B2R y / 2) + (B2R y - 2 * lam) * / 2) by field. eapply Rle_trans. apply Rabs_triang. rewrite (Rabs_mult _ (/ 2)), (Rabs_pos_eq (/ 2)) by lra. assert (u * (57 / 100) <= u * lam) by (apply Rmult_le_compat_l; lra). lra. }
    (* adding lgamma *)
    assert (MB : M <= 4194304 * 16). { apply Rmult_le_compat; try lra. apply Rle_trans with (ln 4194310). apply ln_le; lra. interval. } assert (UMB : u * M <= / 16777216 * M) by (apply Rmult_le_compat_r; lra).
    assert (S1 : Rabs (B2R h + B2R l - (lam + g)) <= (14 * M + 54 + 22 / 10 * M) * u + (a0 + 3) * eps). { replace (B2R h + B2R l - (lam + g)) with ((B2R h - lam) + (B2R l - g)) by ring. eapply Rle_trans. apply Rabs_triang. lra. }
    assert (S2 : Rabs (B2R h + B2R l) <= 1001 / 1000 * T). { replace (B2R h + B2R l) with ((lam + g) + (B2R h + B2R l - (lam + g))) by ring. eapply Rle_trans. apply Rabs_triang. lra. }
    destruct (op_add h l Fh Fl) as (Fz & Vz). lra. assert (D1 := rnd_tau (f := f) (B2R h + B2R l)). rewrite <- Vz in D1. set (z := h +. l) in * . assert (US2 := Rmult_le_compat_l u _ _ ltac:(lra) S2).
    (* adding the rest *)
    assert (QT0 : 0 <= Q * T) by (apply Rmult_le_pos; lra). assert (QT : Q * T <= 4096 * T) by (apply Rmult_le_compat_r; lra). assert (QC : Q * C <= Q * (/ 1000 * T)) by (apply Rmult_le_compat_l; lra).
    assert (Z1 : Rabs (B2R z + B2R r - (lam + g + mv)) <= Q * C + (14 * M + 54 + 22 / 10 * M + 1002 / 1000 * T) * u + (a0 + 3) * eps).
    { replace (B2R z + B2R r - (lam + g + mv)) with ((B2R z - (B2R h + B2R l)) + ((B2R h + B2R l - (lam + g)) + (B2R r - mv))) by ring. eapply Rle_trans. apply Rabs_triang. eapply Rle_trans. apply Rplus_le_compat_l. apply Rabs_triang. lra. }
    assert (UT : u * T <= / 16777216 * T) by (apply Rmult_le_compat_r; lra).
    assert (Z2 : Rabs (B2R z + B2R r) <= 1002 / 1000 * ((Q + 1) * T)).
    { replace (B2R z + B2R r) with ((lam + g) + (mv + (B2R z + B2R r - (lam + g + mv)))) by ring. eapply Rle_trans. apply Rabs_triang. eapply Rle_trans. apply Rplus_le_compat_l. apply Rabs_triang. lra. }
    destruct (op_add z r Fz Fr) as (Ft & Vt). lra. assert (D2 := rnd_tau (f := f) (B2R z + B2R r)). rewrite <- Vt in D2. exists (z +. r). split; auto. split; auto. assert (UZ2 := Rmult_le_compat_l u _ _ ltac:(lra) Z2).
    replace (B2R (z +. r) - (lam + g + mv)) with ((B2R (z +. r) - (B2R z + B2R r)) + (B2R z + B2R r - (lam + g + mv))) by ring. eapply Rle_trans. apply Rabs_triang.
    assert (QPT : (Q + 1) * T <= INR p * T) by (apply Rmult_le_compat_r; lra). assert (UQPT := Rmult_le_compat_l u _ _ ltac:(lra) QPT). assert (PU : u * T <= u * (INR p * T)) by (apply Rmult_le_compat_l; [lra|rewrite <- (Rmult_1_l T) at 1; apply Rmult_le_compat_r; lra]).
    assert (UPM : 0 <= u * (INR p * M)) by (apply Rmult_le_pos; [lra|apply Rmult_le_pos; lra]). assert (UPP : u <= u * INR p) by (rewrite <- (Rmult_1_r u) at 1; apply Rmult_le_compat_l; lra). lra.
Qed.
End LM.
