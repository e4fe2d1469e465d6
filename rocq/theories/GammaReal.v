(** * The approximation of ln Γ in exact arithmetic: truncation error *)
From Coq Require Import ZArith Reals Lra List Bool Psatz.
From Coquelicot Require Import Coquelicot.
From Interval Require Import Tactic.
From Verif Require Import SpecGamma PolyPos Lanczos GammaInt.
Import ListNotations.
Open Scope R_scope.

Definition Dg (x : R) : R := ln (Gamma x) - Lg x.
Lemma Dg_step x : 0 < x -> Dg (x + 1) = Dg x - dl x.
Proof. intros H. unfold Dg. rewrite lnGamma_S, <- Lg_step by auto. ring. Qed.

(** ** Growth of L *)
Definition D0 : poly := Eval vm_compute in pshift (-1) DD.
Lemma D0_ev x : pev D0 x = pev DD (x - 1).
Proof. replace D0 with (pshift (-1) DD) by (vm_compute; reflexivity). rewrite pev_shift. f_equal. Qed.
Lemma D0_nonneg : pnonneg D0 = true. Proof. vm_compute. reflexivity. Qed.
Lemma D0_pos x : 0 < x -> 0 < pev D0 x.
Proof. intros H. rewrite D0_ev. apply DD0_pos; auto. Qed.
Definition Lh (x : R) : R := (x - / 2) * ln (x + 543 / 128) - (x + 543 / 128) + (ln (pev N0 x) - ln (pev D0 x)).
Lemma Lg_Lh x : 0 < x -> Lg x = Lh x + (ln (2 * PI) / 2 - ln (IZR E25)).
Proof.
  intros H. unfold Lg, Lh. rewrite N0_ev, D0_ev, lanc_rat by lra. assert (P := DD0_pos x H). assert (Q := N0_pos x ltac:(lra)). rewrite N0_ev in Q.
  assert (0 < IZR E25) by (apply IZR_lt; reflexivity). rewrite !ln_div by (auto; apply Rdiv_lt_0_compat; auto). ring.
Qed.
Definition Lh1 (x : R) : R := ln (x + 543 / 128) - 607 / 128 / (x + 543 / 128) + (pev (pder N0) x / pev N0 x - pev (pder D0) x / pev D0 x).
Lemma Lh_derive x : 0 < x -> is_derive Lh x (Lh1 x).
Proof.
  intros H. evar_last. unfold Lh. apply (is_derive_plus (fun x => (x - / 2) * ln (x + 543 / 128) - (x + 543 / 128)) (fun x => ln (pev N0 x) - ln (pev D0 x))).
  - auto_derive. 2: reflexivity. repeat split; lra.
  - apply (is_derive_minus (fun x => ln (pev N0 x)) (fun x => ln (pev D0 x))). apply ln_pev_derive, N0_pos; lra. apply ln_pev_derive, D0_pos; auto.
  - unfold Lh1. generalize (pev (pder N0) x / pev N0 x) (pev (pder D0) x / pev D0 x). intros q1 q2. unfold minus, plus, opp; cbn. field. lra.
Qed.
Lemma Lh_near y s : 1 <= y -> 0 <= s <= 1 -> Rabs (Lh (y + s) - Lh y - s * ln y) <= 40 * (1 / y).
Proof.
  intros Hy Hs. destruct (MVT_gen Lh y (y + s) Lh1) as (c & Hc & E).
  - intros t Ht. rewrite Rmin_left, Rmax_right in Ht by lra. apply Lh_derive. lra.
  - intros t Ht. rewrite Rmin_left, Rmax_right in Ht by lra. apply continuity_pt_filterlim. apply (ex_derive_continuous Lh). eexists. apply Lh_derive. lra.
  - rewrite Rmin_left, Rmax_right in Hc by lra. rewrite E. unfold Lh1.
    destruct (quot_le N0 c 14 N0_nonneg ltac:(lra) ltac:(cbn; lia) (N0_pos c ltac:(lra))) as (Q1 & Q2).
    destruct (quot_le D0 c 14 D0_nonneg ltac:(lra) ltac:(cbn; lia) (D0_pos c ltac:(lra))) as (Q3 & Q4).
    replace (INR 14) with 14 in * by (cbn; lra).
    assert (I0 : 1 / c <= 1 / y). { unfold Rdiv. rewrite !Rmult_1_l. apply Rinv_le_contravar; lra. } assert (I1 : 0 < 1 / c) by (apply Rdiv_lt_0_compat; lra).
    destruct (inv_le_x (543 / 128) c ltac:(lra) ltac:(lra)) as (I2 & I3).
    destruct (ln_inc_le y (c + 543 / 128) ltac:(lra)) as (L1 & L2).
    assert (L3 : (c + 543 / 128 - y) / y <= 6 * (1 / y)). { replace ((c + 543 / 128 - y) / y) with ((c + 543 / 128 - y) * (1 / y)) by (field; lra). apply Rmult_le_compat_r; lra. }
    replace (607 / 128 / (c + 543 / 128)) with (607 / 128 * (1 / (c + 543 / 128))) by (field; lra).
    set (A := ln (c + 543 / 128) - 607 / 128 * (1 / (c + 543 / 128)) + (pev (pder N0) c / pev N0 c - pev (pder D0) c / pev D0 c)).
    replace (A * (y + s - y) - s * ln y) with (s * (A - ln y)) by ring. rewrite Rabs_mult, (Rabs_pos_eq s) by lra.
    assert (Rabs (A - ln y) <= 40 * (1 / y)) by (apply Rabs_le; unfold A; lra).
    assert (s * Rabs (A - ln y) <= 1 * Rabs (A - ln y)) by (apply Rmult_le_compat_r; [apply Rabs_pos|lra]). lra.
Qed.
Lemma Dg_near y s : 1 <= y -> 0 <= s <= 1 -> Rabs (Dg (y + s) - Dg y) <= 41 * (1 / y).
Proof.
  intros Hy Hs. unfold Dg. rewrite !Lg_Lh by lra. assert (A := Lh_near y s Hy Hs). assert (U := lnGamma_up y s ltac:(lra) Hs). assert (V := lnGamma_low y s ltac:(lra) Hs).
  assert (s / y <= 1 / y) by (apply Rmult_le_compat_r; [left; apply Rinv_0_lt_compat|]; lra). apply Rabs_le_between in A. apply Rabs_le. lra.
Qed.

(** ** Sums of δ *)
Fixpoint dsum (x : R) (n : nat) : R := match n with O => 0 | S m => dsum x m + dl (x + INR m) end.
Lemma Dg_sum x n : 0 < x -> Dg (x + INR n) = Dg x - dsum x n.
Proof.
  intros H. induction n as [|n IH]. cbn. rewrite Rplus_0_r. ring.
  rewrite S_INR. replace (x + (INR n + 1)) with (x + INR n + 1) by ring. assert (P := pos_INR n). rewrite Dg_step, IH by lra. cbn. ring.
Qed.
Lemma Bd_dec x y : 0 <= x <= y -> 0 <= Bd y <= Bd x.
Proof.
  intros H. split.
  - unfold Bd, KB, bB. assert (0 < (y + 130) ^ 2) by (apply pow_lt; lra). assert (0 < (y + 1) ^ 8) by (apply pow_lt; lra).
    apply Rplus_le_le_0_compat; apply Rmult_le_pos; try (left; apply Rinv_0_lt_compat; auto); lra.
  - assert (A := dl_diff x y H). assert (B := Rabs_pos (dl x - dl y)). lra.
Qed.
(** D(x+n) - D(1+n) → 0 *)
Lemma Dg_int m n : (1 <= n)%nat -> Rabs (Dg (INR (n + m)) - Dg (INR n)) <= INR m * (1 / INR n).
Proof.
  intros Hn. assert (N1 : 1 <= INR n) by (change 1 with (INR 1); apply le_INR; auto). induction m as [|m IH].
  - rewrite Nat.add_0_r. replace (Dg (INR n) - Dg (INR n)) with 0 by ring. rewrite Rabs_R0. cbn. lra.
  - rewrite Nat.add_succ_r, !S_INR. assert (M := pos_INR m). rewrite plus_INR in *. rewrite Dg_step by lra.
    replace (Dg (INR n + INR m) - dl (INR n + INR m) - Dg (INR n)) with ((Dg (INR n + INR m) - Dg (INR n)) + - dl (INR n + INR m)) by ring.
    eapply Rle_trans. apply Rabs_triang. rewrite Rabs_Ropp. assert (B := dl_bound (INR n + INR m) ltac:(lra)). assert (C := proj2 (Bd_dec (INR n) (INR n + INR m) ltac:(lra))). assert (E := Bd_lim (INR n) N1).
    assert (F := Rle_abs (Bd (INR n))). lra.
Qed.
Lemma Dg_limit x : 0 < x -> exists C, forall n, (1 <= n)%nat -> Rabs (Dg (x + INR n) - Dg (1 + INR n)) <= C * (1 / INR n).
Proof.
  intros H. destruct (archimed x) as (A1 & A2). set (k := Z.to_nat (up x - 1)).
  assert (U : (1 <= up x)%Z). { apply le_IZR. apply IZR_le. assert (0 < up x)%Z. { apply lt_IZR. lra. } lia. }
  assert (K : INR k = IZR (up x) - 1). { unfold k. rewrite INR_IZR_INZ, Z2Nat.id by lia. rewrite minus_IZR. reflexivity. }
  exists (42 + INR k). intros n Hn. assert (N1 : 1 <= INR n) by (change 1 with (INR 1); apply le_INR; auto). assert (PK := pos_INR k).
  assert (J : 0 < 1 / INR n) by (apply Rdiv_lt_0_compat; lra).
  set (s := x - INR k). assert (S0 : 0 <= s <= 1) by (unfold s; lra).
  replace (x + INR n) with (INR (n + k) + s) by (rewrite plus_INR; unfold s; ring). replace (1 + INR n) with (INR (n + 1)) by (rewrite plus_INR; cbn; ring).
  assert (Y1 : 1 <= INR (n + k)) by (rewrite plus_INR; lra).
  assert (B1 := Dg_near (INR (n + k)) s Y1 S0). assert (B2 := Dg_int k n Hn). assert (B3 := Dg_int 1 n Hn).
  assert (B4 : 1 / INR (n + k) <= 1 / INR n). { unfold Rdiv. rewrite !Rmult_1_l. apply Rinv_le_contravar. lra. rewrite plus_INR. lra. }
  replace (INR 1) with 1 in B3 by reflexivity.
  replace (Dg (INR (n + k) + s) - Dg (INR (n + 1))) with ((Dg (INR (n + k) + s) - Dg (INR (n + k))) + ((Dg (INR (n + k)) - Dg (INR n)) - (Dg (INR (n + 1)) - Dg (INR n)))) by ring.
  apply Rabs_le_between in B1. apply Rabs_le_between in B2. apply Rabs_le_between in B3. apply Rabs_le. lra.
Qed.
Lemma Dg_bound x T : 0 < x -> (forall n, Rabs (dsum x n - dsum 1 n) <= T) -> Rabs (Dg x - Dg 1) <= T.
Proof.
  intros H HT. destruct (Dg_limit x H) as (C & HC). apply le_epsilon. intros eps He.
  set (n := S (Z.to_nat (up (Rabs C / eps)))). assert (N : Rabs C / eps <= INR n).
  { unfold n. rewrite S_INR. destruct (archimed (Rabs C / eps)) as (A1 & A2). assert (0 <= Rabs C / eps) by (apply Rmult_le_pos; [apply Rabs_pos|left; apply Rinv_0_lt_compat; auto]).
    assert (0 <= up (Rabs C / eps))%Z by (apply le_IZR; lra). rewrite INR_IZR_INZ, Z2Nat.id by auto. lra. }
  assert (N1 : 1 <= INR n) by (change 1 with (INR 1); apply le_INR; unfold n; lia).
  assert (B := HC n ltac:(unfold n; lia)). rewrite !Dg_sum in B by lra. assert (T1 := HT n).
  assert (E : C * (1 / INR n) <= eps). { apply (Rmult_le_reg_r (INR n)). lra. replace (C * (1 / INR n) * INR n) with C by (field; lra).
    apply (Rmult_le_compat_r eps) in N; [|lra]. replace (Rabs C / eps * eps) with (Rabs C) in N by (field; lra). assert (Q := Rle_abs C). lra. }
  apply Rabs_le_between in B. apply Rabs_le_between in T1. apply Rabs_le. lra.
Qed.
Lemma dsum_small x n : 0 < x <= 1 -> Rabs (dsum x n - dsum 1 n) <= Bd x.
Proof.
  intros H. assert (G : Rabs (dsum x n - dsum 1 n) <= Bd x - Bd (x + INR n)).
  { induction n as [|n IH]. cbn. rewrite Rplus_0_r, !Rminus_eq_0, Rabs_R0. lra.
    cbn [dsum]. assert (P := pos_INR n). assert (A := dl_diff (x + INR n) (1 + INR n) ltac:(lra)). rewrite S_INR.
    assert (B := proj2 (Bd_dec (1 + INR n) (x + (INR n + 1)) ltac:(lra))).
    apply Rabs_le_between in A. apply Rabs_le_between in IH. apply Rabs_le. lra. }
  assert (P := pos_INR n). assert (B := proj1 (Bd_dec x (x + INR n) ltac:(lra))). lra.
Qed.
Lemma dsum_large x n : 1 <= x -> Rabs (dsum x n - dsum 1 n) <= KB * (2 / 261 - 1 / (x + 130)) + bB / 64.
Proof.
  intros H. set (h := fun m => KB * (2 / 261 - 1 / (261 / 2 + INR m) - (1 / (x + 130) - 1 / (x + 130 + INR m))) + bB / 64 * (1 - 1 / (INR m + 1))).
  assert (K0 : 0 < KB) by (unfold KB; lra). assert (b0 : 0 < bB) by (unfold bB; lra).
  assert (G : Rabs (dsum x n - dsum 1 n) <= h n).
  { induction n as [|n IH]. cbn. unfold h. cbn. rewrite !Rplus_0_r, !Rplus_0_l, Rminus_eq_0, Rabs_R0. replace (1 / (261 / 2)) with (2 / 261) by field. rewrite !Rminus_eq_0. replace (1 - 1 / 1) with 0 by field. lra.
    cbn [dsum]. assert (P := pos_INR n). assert (A := dl_diff (1 + INR n) (x + INR n) ltac:(lra)).
    assert (S1 : Bd (1 + INR n) - Bd (x + INR n) <= h (S n) - h n).
    { unfold h, Bd. rewrite S_INR. set (m := INR n) in *.
      assert (Q1 : 1 / (1 + m + 130) ^ 2 <= 1 / (261 / 2 + m) - 1 / (261 / 2 + (m + 1))).
      { replace (1 / (261 / 2 + m) - 1 / (261 / 2 + (m + 1))) with (1 / ((1 + m + 130) ^ 2 - / 4)) by (cbn [pow]; field; nra).
        unfold Rdiv. rewrite !Rmult_1_l. apply Rinv_le_contravar. cbn [pow]; nra. lra. }
      assert (Q2 : 1 / (x + 130 + m) - 1 / (x + 130 + (m + 1)) <= 1 / (x + m + 130) ^ 2).
      { replace (1 / (x + 130 + m) - 1 / (x + 130 + (m + 1))) with (1 / ((x + m + 130) ^ 2 + (x + m + 130))) by (cbn [pow]; field; nra).
        unfold Rdiv. rewrite !Rmult_1_l. apply Rinv_le_contravar. cbn [pow]; nra. lra. }
      assert (Q3 : 1 / (1 + m + 1) ^ 8 <= / 64 * (1 / (m + 1) - 1 / (m + 1 + 1))).
      { replace (/ 64 * (1 / (m + 1) - 1 / (m + 1 + 1))) with (1 / (64 * ((m + 1) * (m + 2)))) by (field; nra).
        unfold Rdiv. rewrite !Rmult_1_l. apply Rinv_le_contravar. nra. replace ((1 + m + 1) ^ 8) with ((m + 2) ^ 6 * ((m + 2) * (m + 2))) by ring.
        assert (64 <= (m + 2) ^ 6). { replace 64 with (2 ^ 6) by ring. apply pow_incr. lra. }
        apply Rmult_le_compat; nra. }
      assert (Q4 : 0 < 1 / (x + m + 1) ^ 8) by (apply Rdiv_lt_0_compat; [lra|apply pow_lt; lra]).
      replace (KB / (1 + m + 130) ^ 2) with (KB * (1 / (1 + m + 130) ^ 2)) by (field; lra). replace (KB / (x + m + 130) ^ 2) with (KB * (1 / (x + m + 130) ^ 2)) by (field; lra).
      replace (bB / (1 + m + 1) ^ 8) with (bB * (1 / (1 + m + 1) ^ 8)) by (field; lra). replace (bB / (x + m + 1) ^ 8) with (bB * (1 / (x + m + 1) ^ 8)) by (field; lra).
      apply (Rmult_le_compat_l KB) in Q1; [|lra]. apply (Rmult_le_compat_l KB) in Q2; [|lra]. apply (Rmult_le_compat_l bB) in Q3; [|lra]. apply (Rmult_lt_compat_l bB) in Q4; [|lra].
      lra. }
    apply Rabs_le_between in A. apply Rabs_le_between in IH. apply Rabs_le. lra. }
  eapply Rle_trans. apply G. unfold h. assert (P := pos_INR n).
  assert (Q1 : 1 / (x + 130 + INR n) <= 1 / (261 / 2 + INR n)). { unfold Rdiv. rewrite !Rmult_1_l. apply Rinv_le_contravar; lra. }
  assert (Q2 : 0 < 1 / (INR n + 1)) by (apply Rdiv_lt_0_compat; lra).
  apply (Rmult_le_compat_l KB) in Q1; [|lra]. apply (Rmult_lt_compat_l (bB / 64)) in Q2; [|lra]. lra.
Qed.
Lemma Lg_one : Rabs (Lg 1) <= / 10 ^ 19.
Proof.
  unfold Lg, lanc. replace (1 - 1) with 0 by ring. unfold lanc_cs, lanc_c0, E25. cbn [lsum Z.add Pos.add Pos.succ]. interval with (i_prec 120).
Qed.
Lemma Dg_one : Rabs (Dg 1) <= / 10 ^ 19.
Proof. unfold Dg. rewrite Gamma_one, ln_1, Rminus_0_l, Rabs_Ropp. apply Lg_one. Qed.
(** truncation error of the approximation *)
Lemma Lg_small x : 0 < x <= 1 -> Rabs (ln (Gamma x) - Lg x) <= Bd x + / 10 ^ 19.
Proof.
  intros H. assert (A := Dg_bound x (Bd x) ltac:(lra) (fun n => dsum_small x n H)). assert (B := Dg_one). change (ln (Gamma x) - Lg x) with (Dg x).
  apply Rabs_le_between in A. apply Rabs_le_between in B. apply Rabs_le. lra.
Qed.
Lemma Lg_large x : 1 <= x -> Rabs (ln (Gamma x) - Lg x) <= KB * (2 / 261 - 1 / (x + 130)) + bB / 64 + / 10 ^ 19.
Proof.
  intros H. assert (A := Dg_bound x _ ltac:(lra) (fun n => dsum_large x n H)). assert (B := Dg_one). change (ln (Gamma x) - Lg x) with (Dg x).
  apply Rabs_le_between in A. apply Rabs_le_between in B. apply Rabs_le. lra.
Qed.
(** summary: below 22.. units of 2^-53 near zero, half a unit per unit of x elsewhere *)
Lemma Lg_trunc0 x : 0 < x -> Rabs (ln (Gamma x) - Lg x) <= 24 / 10 ^ 16 + 54 / 10 ^ 18 * x.
Proof.
  intros H. destruct (Rle_or_lt x 1) as [L|L].
  - assert (A := Lg_small x ltac:(lra)). assert (B := proj2 (Bd_dec 0 x ltac:(lra))). assert (Bd 0 <= 231 / 10 ^ 17) by (unfold Bd, KB, bB; interval). lra.
  - assert (A := Lg_large x ltac:(lra)). assert (0 < 1 / (x + 130)) by (apply Rdiv_lt_0_compat; lra).
    assert (2 / 261 - 1 / (x + 130) <= / 16000 * x). { apply (Rmult_le_reg_r (x + 130)). lra. replace ((2 / 261 - 1 / (x + 130)) * (x + 130)) with (2 / 261 * (x + 130) - 1) by (field; lra). nra. }
    unfold KB, bB in *. cbn [pow] in *. lra.
Qed.
Lemma Lg_trunc x : / 2 <= x -> Rabs (ln (Gamma x) - Lg x) <= 12 / 10 ^ 17 + 54 / 10 ^ 18 * x.
Proof.
  intros H. destruct (Rle_or_lt x 1) as [L|L].
  - assert (A := Lg_small x ltac:(lra)). assert (B := proj2 (Bd_dec (/ 2) x ltac:(lra))). assert (Bd (/ 2) <= 143 / 10 ^ 18) by (unfold Bd, KB, bB; interval). cbn [pow] in *. lra.
  - assert (A := Lg_large x ltac:(lra)). assert (0 < 1 / (x + 130)) by (apply Rdiv_lt_0_compat; lra).
    assert (2 / 261 - 1 / (x + 130) <= / 17060 * x). { apply (Rmult_le_reg_r (x + 130)). lra. replace ((2 / 261 - 1 / (x + 130)) * (x + 130)) with (2 / 261 * (x + 130) - 1) by (field; lra). nra. }
    unfold KB, bB in *. cbn [pow] in *. lra.
Qed.
