(** * Relations between the rounding functions, and further identities *)
From Verif Require Import Base ModelBasic ModelInt ModelElem ModelSpecial ModelApi FltLemmas Spec SpecGamma IntProofs BasicProofs ConvLemmas MiscProofs ExpAcc.
From Coq Require Import Lra Psatz.
From Coquelicot Require Import Coquelicot.
From Verif Require Import Base ModelBasic FPErr LogApi TanhAcc PowReal InvTrig TrigApi SinAcc SinhAcc InvHyp SqrtSimp InvSqrtAcc GammaApi BetaApi TrigWide RoundTrip.
From Verif Require Import Base ModelBasic ModelInt ModelElem ModelSpecial ModelApi TotalProofs.
From Interval Require Import Tactic.
Open Scope R_scope.

(** ** floor, ceil, trunc, round *)
Lemma fl_mono x y n m : x <= y -> is_floor x n -> is_floor y m -> (n <= m)%Z.
Proof. unfold is_floor. intros L (A & B) (C & D). apply Zlt_succ_le. apply lt_IZR. rewrite succ_IZR. lra. Qed.
Lemma ce_mono x y n m : x <= y -> is_ceil x n -> is_ceil y m -> (n <= m)%Z.
Proof. unfold is_ceil. intros L (A & B) (C & D). apply Zlt_succ_le. apply lt_IZR. rewrite succ_IZR. lra. Qed.
Lemma tr_cases x n : is_trunc x n -> (0 <= x -> is_floor x n) /\ (x <= 0 -> is_ceil x n).
Proof.
  intros (A & B & C). apply Rabs_lt_inv in A. split; intros S.
  - assert (N : 0 <= IZR n). { destruct (Rle_or_lt 0 (IZR n)) as [|L]; auto. exfalso. destruct S as [S|S]. assert (x * IZR n < 0) by nra. lra. rewrite <- S, Rabs_R0, Rabs_left in B by auto. lra. }
    rewrite !Rabs_pos_eq in B by auto. unfold is_floor. lra.
  - assert (N : IZR n <= 0). { destruct (Rle_or_lt (IZR n) 0) as [|L]; auto. exfalso. destruct S as [S|S]. assert (x * IZR n < 0) by nra. lra. rewrite S, Rabs_R0, Rabs_pos_eq in B by lra. lra. }
    rewrite !Rabs_left1 in B by auto. unfold is_ceil. lra.
Qed.
Lemma tr_mono x y n m : x <= y -> is_trunc x n -> is_trunc y m -> (n <= m)%Z.
Proof.
  intros L A B. destruct (tr_cases x n A) as (A1 & A2). destruct (tr_cases y m B) as (B1 & B2). destruct (Rle_or_lt 0 x) as [X|X]. eapply fl_mono; [exact L| |]; [apply A1|apply B1]; lra. destruct (Rle_or_lt y 0) as [Y|Y]. eapply ce_mono; [exact L| |]; [apply A2|apply B2]; lra.
  specialize (A2 ltac:(lra)). specialize (B1 ltac:(lra)). unfold is_ceil in A2. unfold is_floor in B1. apply Z.le_trans with 0%Z; apply Zlt_succ_le; apply lt_IZR; rewrite succ_IZR; lra.
Qed.
Lemma rd_mono x y n m : x <= y -> is_round x n -> is_round y m -> (n <= m)%Z.
Proof.
  intros L (A & A') (B & B'). destruct (Z_le_gt_dec n m) as [|G]; auto. exfalso. assert (G' : IZR m + 1 <= IZR n) by (rewrite <- plus_IZR; apply IZR_le; lia). assert (A2 := Rabs_le_inv _ _ A). assert (B2 := Rabs_le_inv _ _ B).
  assert (EX : x = IZR n - 1 / 2) by lra. assert (EY : y = IZR m + 1 / 2) by lra. assert (NM : IZR n = IZR m + 1) by lra. specialize (A' ltac:(rewrite EX; replace (IZR n - 1 / 2 - IZR n) with (- (1 / 2)) by ring; rewrite Rabs_Ropp, Rabs_pos_eq; lra)). specialize (B' ltac:(rewrite EY; replace (IZR m + 1 / 2 - IZR m) with (1 / 2) by ring; rewrite Rabs_pos_eq; lra)).
  destruct (Z_le_gt_dec 0 m) as [M|M]. assert (0 <= IZR m) by (apply IZR_le; auto). rewrite EY, !Rabs_pos_eq in B' by lra. lra. assert (IZR m <= -1) by (apply IZR_le; lia). rewrite EX, NM, (Rabs_left1 (_ + 1)), Rabs_left1 in A' by lra. lra.
Qed.
Lemma neg_zn {f} (x : flt f) : zero_or_normal x -> zero_or_normal (-. x).
Proof. intros (F & V). split. change (finite (-. x) = true). rewrite fneg_finite. exact F. rewrite fneg_B2R. destruct V as [->|V]; [left; lra|right; rewrite Rabs_Ropp; exact V]. Qed.
Definition val2 {f} (r : res (flt f)) (n : Z) : Prop := exists w, r = Ok w /\ has_val w (IZR n).
Lemma round_order : forall f (x : flt f), zero_or_normal x -> exists fl ce tr rd,
  val2 (gcem_floor (AFlt f x)) fl /\ val2 (gcem_ceil (AFlt f x)) ce /\ val2 (gcem_trunc (AFlt f x)) tr /\ val2 (gcem_round (AFlt f x)) rd /\
  (ce - 1 <= fl <= ce)%Z /\ (fl <= rd <= ce)%Z /\ tr = (if Rle_dec 0 (B2R x) then fl else ce) /\ val2 (gcem_floor (AFlt f (-. x))) (- ce) /\ val2 (gcem_ceil (AFlt f (-. x))) (- fl) /\ val2 (gcem_trunc (AFlt f (-. x))) (- tr) /\ val2 (gcem_round (AFlt f (-. x))) (- rd).
Proof.
  intros f x H. destruct (BasicProofs.floor_ok x H) as (w1 & fl & E1 & V1 & F1). destruct (BasicProofs.ceil_ok x H) as (w2 & ce & E2 & V2 & F2). destruct (BasicProofs.trunc_ok x H) as (w3 & tr & E3 & V3 & F3). destruct (BasicProofs.round_ok x H) as (w4 & rd & E4 & V4 & F4).
  assert (HN := neg_zn x H). destruct (BasicProofs.floor_ok _ HN) as (w1' & fl' & E1' & V1' & F1'). destruct (BasicProofs.ceil_ok _ HN) as (w2' & ce' & E2' & V2' & F2'). destruct (BasicProofs.trunc_ok _ HN) as (w3' & tr' & E3' & V3' & F3'). destruct (BasicProofs.round_ok _ HN) as (w4' & rd' & E4' & V4' & F4'). rewrite fneg_B2R in * .
  set (X := B2R x) in * . exists fl, ce, tr, rd.
  assert (U : forall n m : Z, IZR n - 1 < IZR m < IZR n + 1 -> n = m). { intros n m (A & B). apply Z.le_antisymm; apply Zlt_succ_le; apply lt_IZR; rewrite succ_IZR; lra. }
  assert (Q1 : fl' = (- ce)%Z) by (apply U; rewrite opp_IZR; unfold is_floor, is_ceil in *; lra). assert (Q2 : ce' = (- fl)%Z) by (apply U; rewrite opp_IZR; unfold is_floor, is_ceil in *; lra).
  destruct (tr_cases _ _ F3) as (T1 & T2). destruct (tr_cases _ _ F3') as (T3 & T4).
  assert (TT : tr = (if Rle_dec 0 X then fl else ce)). { destruct (Rle_dec 0 X) as [S|S]. specialize (T1 S). apply U. unfold is_floor in *; lra. specialize (T2 ltac:(lra)). apply U. unfold is_ceil in *; lra. }
  assert (Q3 : tr' = (- tr)%Z). { rewrite TT. destruct (Rle_dec 0 X) as [S|S]. specialize (T4 ltac:(lra)). apply U. rewrite opp_IZR. unfold is_floor, is_ceil in *; lra. specialize (T3 ltac:(lra)). apply U. rewrite opp_IZR. unfold is_floor, is_ceil in *; lra. }
  assert (NR : is_round (- X) (- rd)). { destruct F4 as (A & B). split. rewrite opp_IZR. replace (- X - - IZR rd) with (- (X - IZR rd)) by ring. rewrite Rabs_Ropp. exact A. rewrite opp_IZR, !Rabs_Ropp. intros K. apply B. replace (- X - - IZR rd) with (- (X - IZR rd)) in K by ring. rewrite Rabs_Ropp in K. exact K. }
  assert (Q4 : rd' = (- rd)%Z). { apply Z.le_antisymm; eapply rd_mono; try (exact F4' || exact NR); lra. }
  subst fl' ce' tr' rd'. repeat match goal with |- _ /\ _ => split end; try (eexists; split; [eassumption|eassumption]); auto.
  - apply Zlt_succ_le. apply lt_IZR. rewrite succ_IZR, minus_IZR. unfold is_floor, is_ceil in *; lra.
  - apply Zlt_succ_le. apply lt_IZR. rewrite succ_IZR. unfold is_floor, is_ceil in *; lra.
  - destruct F4 as (A & _). apply Rabs_le_inv in A. apply Zlt_succ_le. apply lt_IZR. rewrite succ_IZR. unfold is_floor, is_ceil in *; lra.
  - destruct F4 as (A & _). apply Rabs_le_inv in A. apply Zlt_succ_le. apply lt_IZR. rewrite succ_IZR. unfold is_floor, is_ceil in *; lra.
Qed.
Lemma round_monotone : forall f (x y : flt f), zero_or_normal x -> zero_or_normal y -> B2R x <= B2R y -> exists n m,
  (val2 (gcem_floor (AFlt f x)) (n 0%Z) /\ val2 (gcem_floor (AFlt f y)) (m 0%Z)) /\ (val2 (gcem_ceil (AFlt f x)) (n 1%Z) /\ val2 (gcem_ceil (AFlt f y)) (m 1%Z)) /\
  (val2 (gcem_trunc (AFlt f x)) (n 2%Z) /\ val2 (gcem_trunc (AFlt f y)) (m 2%Z)) /\ (val2 (gcem_round (AFlt f x)) (n 3%Z) /\ val2 (gcem_round (AFlt f y)) (m 3%Z)) /\
  forall k, (0 <= k <= 3)%Z -> (n k <= m k)%Z.
Proof.
  intros f x y H H' L. destruct (BasicProofs.floor_ok x H) as (w1 & fl & E1 & V1 & F1). destruct (BasicProofs.ceil_ok x H) as (w2 & ce & E2 & V2 & F2). destruct (BasicProofs.trunc_ok x H) as (w3 & tr & E3 & V3 & F3). destruct (BasicProofs.round_ok x H) as (w4 & rd & E4 & V4 & F4).
  destruct (BasicProofs.floor_ok _ H') as (w1' & fl' & E1' & V1' & F1'). destruct (BasicProofs.ceil_ok _ H') as (w2' & ce' & E2' & V2' & F2'). destruct (BasicProofs.trunc_ok _ H') as (w3' & tr' & E3' & V3' & F3'). destruct (BasicProofs.round_ok _ H') as (w4' & rd' & E4' & V4' & F4').
  exists (fun k => if (k =? 0)%Z then fl else if (k =? 1)%Z then ce else if (k =? 2)%Z then tr else rd), (fun k => if (k =? 0)%Z then fl' else if (k =? 1)%Z then ce' else if (k =? 2)%Z then tr' else rd'). cbn [Z.eqb Pos.eqb].
  repeat match goal with |- _ /\ _ => split end; try (eexists; split; [eassumption|eassumption]).
  intros k K. destruct (Z.eqb_spec k 0). exact (fl_mono _ _ _ _ L F1 F1'). destruct (Z.eqb_spec k 1). exact (ce_mono _ _ _ _ L F2 F2'). destruct (Z.eqb_spec k 2). exact (tr_mono _ _ _ _ L F3 F3'). exact (rd_mono _ _ _ _ L F4 F4').
Qed.
Lemma mono_of {f} (r1 r2 : res (flt f)) n m : val2 r1 n -> val2 r2 m -> (n <= m)%Z -> exists w z, r1 = Ok w /\ r2 = Ok z /\ finite w = true /\ finite z = true /\ B2R w <= B2R z.
Proof. intros (w & -> & F & V) (z & -> & F' & V') L. exists w, z. repeat split; auto. rewrite V, V'. apply IZR_le. exact L. Qed.
Lemma round_monotone4 : forall f (x y : flt f), zero_or_normal x -> zero_or_normal y -> B2R x <= B2R y ->
  (exists w z, gcem_floor (AFlt f x) = Ok w /\ gcem_floor (AFlt f y) = Ok z /\ finite w = true /\ finite z = true /\ B2R w <= B2R z) /\
  (exists w z, gcem_ceil (AFlt f x) = Ok w /\ gcem_ceil (AFlt f y) = Ok z /\ finite w = true /\ finite z = true /\ B2R w <= B2R z) /\
  (exists w z, gcem_trunc (AFlt f x) = Ok w /\ gcem_trunc (AFlt f y) = Ok z /\ finite w = true /\ finite z = true /\ B2R w <= B2R z) /\
  (exists w z, gcem_round (AFlt f x) = Ok w /\ gcem_round (AFlt f y) = Ok z /\ finite w = true /\ finite z = true /\ B2R w <= B2R z).
Proof.
  intros f x y H H' L. destruct (round_monotone f x y H H' L) as (n & m & (A1 & A2) & (B1 & B2) & (C1 & C2) & (D1 & D2) & K).
  split; [|split; [|split]]; eapply mono_of; eauto; apply K; lia.
Qed.

(** ** sqrt *)
Lemma sqrt_square_back : forall f (x : flt f), finite x = true -> bpow radix2 (2 - emax f) <= B2R x -> bpow radix2 (-170) <= B2R x -> B2R x <= 100 ->
  exists w : flt f, gcem_sqrt (AFlt f x) = Ok w /\ finite w = true /\ rel_err (B2R w * B2R w) (B2R x) (35 / 10 * bpow radix2 (- prec f)).
Proof.
  intros f x Fx X1 X2 X3. assert (H : exists w : flt f, gcem_sqrt (AFlt f x) = Ok w /\ finite w = true /\ rel_err (B2R w) (sqrt (B2R x)) (17 / 10 * uf f)) by exact (api_sqrt_small f x Fx X1 X2 X3).
  destruct H as (w & E & F & R). exists w. split. exact E. split. exact F. change (bpow radix2 (- prec f)) with (uf f). assert (u := uf_small f). assert (x0 := bpow_gt_0 radix2 (2 - emax f)). assert (S0 : 0 < sqrt (B2R x)) by (apply sqrt_lt_R0; lra). assert (SS : sqrt (B2R x) * sqrt (B2R x) = B2R x) by (apply sqrt_sqrt; lra). set (s := sqrt (B2R x)) in * .
  unfold rel_err in * . rewrite (Rabs_pos_eq s) in R by lra. rewrite <- SS, (Rabs_pos_eq (s * s)) by (apply Rmult_le_pos; lra). replace (B2R w * B2R w - s * s) with ((B2R w - s) * (2 * s + (B2R w - s))) by ring. set (d := B2R w - s) in * .
  assert (us : 17 / 10 * uf f * s <= / 1000000 * s) by (apply Rmult_le_compat_r; lra). rewrite Rabs_mult. apply Rle_trans with (17 / 10 * uf f * s * ((2 + / 1000000) * s)).
  - apply Rmult_le_compat; auto using Rabs_pos. eapply Rle_trans. apply Rabs_triang. rewrite (Rabs_pos_eq (2 * s)) by lra. lra.
  - replace (17 / 10 * uf f * s * ((2 + / 1000000) * s)) with (17 / 10 * (2 + / 1000000) * uf f * (s * s)) by ring. apply Rmult_le_compat_r. apply Rmult_le_pos; lra. lra.
Qed.
Lemma sqrt_inv_sqrt : forall f (x : flt f), finite x = true -> bpow radix2 (-58) <= B2R x <= 100 ->
  exists w i : flt f, gcem_sqrt (AFlt f x) = Ok w /\ gcem_inv_sqrt (AFlt f x) = Ok i /\ finite w = true /\ finite i = true /\ abs_err (B2R w * B2R i) 1 (4 * bpow radix2 (- prec f)).
Proof.
  intros f x Fx (X1 & X2). change (bpow radix2 (- prec f)) with (uf f). assert (u := uf_small f). assert (b58 := bpow_gt_0 radix2 (-58)).
  assert (H : exists w : flt f, gcem_sqrt (AFlt f x) = Ok w /\ finite w = true /\ rel_err (B2R w) (sqrt (B2R x)) (17 / 10 * uf f)). { apply (api_sqrt_small f x Fx). eapply Rle_trans; [|exact X1]. apply bpow_le. destruct f; discriminate. eapply Rle_trans; [|exact X1]. apply bpow_le. lia. exact X2. }
  assert (G : exists w : flt f, gcem_inv_sqrt (AFlt f x) = Ok w /\ finite w = true /\ rel_err (B2R w) (/ sqrt (B2R x)) (22 / 10 * uf f)). { apply (api_inv_sqrt_acc f x Fx). split. exact X1. eapply Rle_trans. exact X2. apply Rle_trans with (bpow radix2 7). change (bpow radix2 7) with 128. lra. apply bpow_le. lia. }
  destruct H as (w & E & F & R). destruct G as (i & E' & F' & R'). exists w, i. repeat (split; [assumption|]).
  assert (S0 : 0 < sqrt (B2R x)) by (apply sqrt_lt_R0; lra). set (s := sqrt (B2R x)) in * . unfold rel_err in * . rewrite (Rabs_pos_eq s) in R by lra. assert (is0 : 0 < / s) by (apply Rinv_0_lt_compat; auto). rewrite (Rabs_pos_eq (/ s)) in R' by lra.
  assert (A : Rabs (B2R w * / s - 1) <= 17 / 10 * uf f). { replace (B2R w * / s - 1) with ((B2R w - s) * / s) by (field; lra). rewrite Rabs_mult, (Rabs_pos_eq (/ s)) by lra. apply Rle_trans with (17 / 10 * uf f * s * / s). apply Rmult_le_compat_r; lra. right. field. lra. }
  assert (B : Rabs (B2R i * s - 1) <= 22 / 10 * uf f). { replace (B2R i * s - 1) with ((B2R i - / s) * s) by (field; lra). rewrite Rabs_mult, (Rabs_pos_eq s) by lra. apply Rle_trans with (22 / 10 * uf f * / s * s). apply Rmult_le_compat_r; lra. right. field. lra. }
  unfold abs_err. set (p := B2R w * / s - 1) in * . set (q := B2R i * s - 1) in * . replace (B2R w * B2R i - 1) with (p + q + p * q) by (unfold p, q; field; lra).
  assert (PQ : Rabs (p * q) <= 17 / 10 * uf f * (22 / 10 * uf f)) by (rewrite Rabs_mult; apply Rmult_le_compat; auto using Rabs_pos). assert (UU : uf f * uf f <= / 16777216 * uf f) by (apply Rmult_le_compat_r; lra).
  eapply Rle_trans. apply Rabs_triang. assert (T := Rabs_triang p q). lra.
Qed.

(** ** tan and atan *)
Lemma tan_lip w y : Rabs w <= 787 / 1000 -> Rabs y <= 787 / 1000 -> Rabs (tan w - tan y) <= 202 / 100 * Rabs (w - y).
Proof.
  intros W Y. apply Rabs_le_inv in W. apply Rabs_le_inv in Y. assert (CW : 7055 / 10000 <= cos w) by interval. assert (CY : 7055 / 10000 <= cos y) by interval.
  replace (tan w - tan y) with (sin (w - y) * / (cos w * cos y)). 2: { rewrite sin_minus. unfold tan. field. lra. }
  assert (CC : 7055 / 10000 * (7055 / 10000) <= cos w * cos y) by (apply Rmult_le_compat; lra). assert (IC : / (cos w * cos y) <= 202 / 100). { apply Rle_trans with (/ (7055 / 10000 * (7055 / 10000))). apply Rinv_le_contravar; lra. lra. }
  assert (S := sin_lip (w - y) 0). rewrite sin_0, !Rminus_0_r in S. rewrite Rabs_mult, Rmult_comm. apply Rmult_le_compat; auto using Rabs_pos. rewrite Rabs_pos_eq; auto. left. apply Rinv_0_lt_compat. lra.
Qed.
Lemma atan_low X : 0 <= X <= 1 -> / 2 * X <= atan X <= X.
Proof.
  intros H. destruct (MVT_gen atan 0 X (fun t => / (1 + t * t))) as (c & C & E).
  - intros t _. auto_derive. auto. field. nra.
  - intros t _. apply derivable_continuous_pt. apply derivable_pt_atan.
  - rewrite Rmin_left, Rmax_right in C by lra. rewrite atan_0, !Rminus_0_r in E. split.
    + rewrite E. apply Rmult_le_compat_r. lra. apply Rinv_le_contravar. nra. nra.
    + rewrite E. rewrite <- (Rmult_1_l X) at 2. apply Rmult_le_compat_r. lra. rewrite <- Rinv_1 at 2. apply Rinv_le_contravar; nra.
Qed.
Lemma atan_abs X : Rabs X <= 1 -> / 2 * Rabs X <= Rabs (atan X) <= Rabs X /\ Rabs (atan X) <= 786 / 1000.
Proof.
  intros H. assert (K : Rabs (atan X) = atan (Rabs X)). { unfold Rabs at 2. destruct (Rcase_abs X) as [N|N]. rewrite atan_opp, Rabs_left; auto. rewrite <- atan_0. apply atan_increasing. auto. rewrite Rabs_pos_eq; auto. rewrite <- atan_0. destruct (Rge_le _ _ N) as [N'| <-]; [left; apply atan_increasing; auto|lra]. }
  rewrite K. assert (P := Rabs_pos X). split. apply atan_low. lra. apply Rle_trans with (atan 1). destruct H as [H|H]; [left; apply atan_increasing; auto|rewrite H; lra]. interval.
Qed.
Lemma tan_of_atan : forall v f (x : flt f), finite x = true -> bpow radix2 (4 - emax f) <= Rabs (B2R x) <= 1 ->
  exists a t : flt f, gcem_atan v (AFlt f x) = Ok a /\ gcem_tan (AFlt f a) = Ok t /\ finite t = true /\ rel_err (B2R t) (B2R x) (21 * bpow radix2 (- prec f) + bpow radix2 (-55)).
Proof.
  intros v f x Fx (X0 & X1). change (bpow radix2 (- prec f)) with (uf f). assert (u := uf_small f). assert (b24 : bpow radix2 (4 - emax f) = 4 * bpow radix2 (2 - emax f)) by (replace (4 - emax f)%Z with (2 + (2 - emax f))%Z by ring; rewrite bpow_plus; reflexivity). assert (b2 := bpow_gt_0 radix2 (2 - emax f)).
  assert (H : exists a : flt f, gcem_atan v (AFlt f x) = Ok a /\ finite a = true /\ rel_err (B2R a) (atan (B2R x)) (8 * uf f + bpow radix2 (-57))) by (apply (api_atan2 v f x Fx); lra). destruct H as (a & E & F & R).
  set (X := B2R x) in * . destruct (atan_abs X X1) as ((L1 & L2) & L3). assert (TY : tan (atan X) = X) by apply tan_atan. set (y := atan X) in * . unfold rel_err in R. assert (b57 : 0 < bpow radix2 (-57) <= / 10000000000) by (split; [apply bpow_gt_0|cbn; lra]). assert (b55 : bpow radix2 (-55) = 4 * bpow radix2 (-57)) by (cbn; lra). assert (b80 : bpow radix2 (-80) <= / 1000000 * bpow radix2 (-57)) by (cbn; lra). assert (b800 := bpow_gt_0 radix2 (-80)).
  set (c := 8 * uf f + bpow radix2 (-57)) in * . assert (c0 : 0 < c <= / 1000000) by (unfold c; lra).
  assert (cy : c * Rabs y <= / 1000000 * Rabs y) by (apply Rmult_le_compat_r; [apply Rabs_pos|lra]).
  assert (AW : Rabs (B2R a) <= 787 / 1000). { replace (B2R a) with ((B2R a - y) + y) by ring. eapply Rle_trans. apply Rabs_triang. lra. }
  assert (AL : bpow radix2 (2 - emax f) <= Rabs (B2R a)). { assert (T := Rabs_triang (y - B2R a) (B2R a)). replace (y - B2R a + B2R a) with y in T by ring. rewrite Rabs_minus_sym in T. lra. }
  assert (H : exists t : flt f, gcem_tan (AFlt f a) = Ok t /\ finite t = true /\ rel_err (B2R t) (tan (B2R a)) (4 * uf f + bpow radix2 (-80))) by (apply (api_tan f a F); lra). destruct H as (t & E' & F' & R').
  exists a, t. split. exact E. split. exact E'. split. exact F'. assert (TL := tan_lip (B2R a) y AW ltac:(lra)). rewrite TY in TL.
  assert (cx : c * Rabs y <= c * Rabs X) by (apply Rmult_le_compat_l; lra). unfold rel_err in * .
  assert (TA : Rabs (tan (B2R a)) <= 10001 / 10000 * Rabs X). { replace (tan (B2R a)) with ((tan (B2R a) - X) + X) by ring. eapply Rle_trans. apply Rabs_triang. assert (c * Rabs X <= / 1000000 * Rabs X) by (apply Rmult_le_compat_r; [apply Rabs_pos|lra]). lra. }
  assert (E4 : (4 * uf f + bpow radix2 (-80)) * Rabs (tan (B2R a)) <= (4 * uf f + bpow radix2 (-80)) * (10001 / 10000 * Rabs X)) by (apply Rmult_le_compat_l; lra).
  replace (B2R t - X) with ((B2R t - tan (B2R a)) + (tan (B2R a) - X)) by ring. eapply Rle_trans. apply Rabs_triang. apply Rle_trans with ((202 / 100 * c + 10001 / 10000 * (4 * uf f + bpow radix2 (-80))) * Rabs X). lra. apply Rmult_le_compat_r. apply Rabs_pos. unfold c. lra.
Qed.
Lemma atan_lip a b : Rabs (atan a - atan b) <= Rabs (a - b).
Proof.
  destruct (MVT_gen atan b a (fun t => / (1 + t * t))) as (c & C & E).
  - intros t _. auto_derive. auto. field. nra.
  - intros t _. apply derivable_continuous_pt. apply derivable_pt_atan.
  - rewrite E, Rabs_mult. rewrite <- (Rmult_1_l (Rabs (a - b))) at 2. apply Rmult_le_compat_r. apply Rabs_pos. rewrite Rabs_pos_eq by (left; apply Rinv_0_lt_compat; nra). rewrite <- Rinv_1 at 2. apply Rinv_le_contravar; nra.
Qed.
Lemma atan_of_tan : forall v f (x : flt f), finite x = true -> bpow radix2 (4 - emax f) <= Rabs (B2R x) <= 1 ->
  exists t a : flt f, gcem_tan (AFlt f x) = Ok t /\ gcem_atan v (AFlt f t) = Ok a /\ finite a = true /\ rel_err (B2R a) (B2R x) (16 * bpow radix2 (- prec f) + bpow radix2 (-56)).
Proof.
  intros v f x Fx (X0 & X1). change (bpow radix2 (- prec f)) with (uf f). assert (u := uf_small f). assert (b24 : bpow radix2 (4 - emax f) = 4 * bpow radix2 (2 - emax f)) by (replace (4 - emax f)%Z with (2 + (2 - emax f))%Z by ring; rewrite bpow_plus; reflexivity). assert (b2 := bpow_gt_0 radix2 (2 - emax f)).
  assert (H : exists t : flt f, gcem_tan (AFlt f x) = Ok t /\ finite t = true /\ rel_err (B2R t) (tan (B2R x)) (4 * uf f + bpow radix2 (-80))) by (apply (api_tan f x Fx); lra). destruct H as (t & E' & F' & R').
  set (X := B2R x) in * . assert (PI4 : 1 < PI / 2) by interval. assert (X1' := Rabs_le_inv _ _ X1). assert (AT : atan (tan X) = X) by (apply atan_tan; lra).
  assert (A0 : forall z, Rabs (atan z) <= Rabs z) by (intros z; assert (L := atan_lip z 0); rewrite atan_0, !Rminus_0_r in L; exact L).
  assert (TB1 : Rabs X <= Rabs (tan X)) by (rewrite <- AT at 1; apply A0).
  assert (CX : 54 / 100 <= cos X <= 1) by (split; [|apply COS_bound]; interval).
  assert (TB2 : Rabs (tan X) <= 1852 / 1000 * Rabs X). { unfold tan, Rdiv. rewrite Rabs_mult, Rabs_inv, (Rabs_pos_eq (cos X)) by lra. assert (SX : Rabs (sin X) <= Rabs X). { destruct (MVT_gen sin 0 X cos) as (c & C & E). intros; auto_derive; auto; ring. intros; apply derivable_continuous_pt; apply derivable_pt_sin. rewrite sin_0, !Rminus_0_r in E. rewrite E, Rabs_mult. rewrite <- (Rmult_1_l (Rabs X)) at 2. apply Rmult_le_compat_r. apply Rabs_pos. apply Rabs_le. destruct (COS_bound c); lra. }
    assert (IC : / cos X <= 1852 / 1000) by (apply Rle_trans with (/ (54 / 100)); [apply Rinv_le_contravar; lra|lra]). assert (0 < / cos X) by (apply Rinv_0_lt_compat; lra). rewrite Rmult_comm. apply Rmult_le_compat; try lra. apply Rabs_pos. }
  assert (TB3 : Rabs (tan X) <= 16 / 10) by (unfold tan; interval).
  assert (P := Rabs_pos X). unfold rel_err in R'. assert (b57 : 0 < bpow radix2 (-57) <= / 10000000000) by (split; [apply bpow_gt_0|cbn; lra]). assert (b55 : bpow radix2 (-56) = 2 * bpow radix2 (-57)) by (cbn; lra). assert (b80 : bpow radix2 (-80) <= / 1000000 * bpow radix2 (-57)) by (cbn; lra). assert (b800 := bpow_gt_0 radix2 (-80)).
  set (c := 4 * uf f + bpow radix2 (-80)) in * . assert (c0 : 0 < c <= / 1000000) by (unfold c; lra).
  assert (cy : c * Rabs (tan X) <= / 1000000 * Rabs (tan X)) by (apply Rmult_le_compat_r; [apply Rabs_pos|lra]).
  assert (AW : Rabs (B2R t) < 2). { replace (B2R t) with ((B2R t - tan X) + tan X) by ring. eapply Rle_lt_trans. apply Rabs_triang. lra. }
  assert (AL : bpow radix2 (2 - emax f) <= Rabs (B2R t)). { assert (T := Rabs_triang (tan X - B2R t) (B2R t)). replace (tan X - B2R t + B2R t) with (tan X) in T by ring. rewrite Rabs_minus_sym in T. lra. }
  assert (H : exists a : flt f, gcem_atan v (AFlt f t) = Ok a /\ finite a = true /\ rel_err (B2R a) (atan (B2R t)) (8 * uf f + bpow radix2 (-57))) by (apply (api_atan2 v f t F'); lra). destruct H as (a & E & F & R).
  exists t, a. split. exact E'. split. exact E. split. exact F. unfold rel_err in * .
  assert (L := atan_lip (B2R t) (tan X)). rewrite AT in L. assert (cx : c * Rabs (tan X) <= c * (1852 / 1000 * Rabs X)) by (apply Rmult_le_compat_l; lra).
  assert (c * Rabs X <= / 1000000 * Rabs X) by (apply Rmult_le_compat_r; [apply Rabs_pos|lra]).
  assert (TA : Rabs (atan (B2R t)) <= 10001 / 10000 * Rabs X). { replace (atan (B2R t)) with ((atan (B2R t) - X) + X) by ring. eapply Rle_trans. apply Rabs_triang. lra. }
  assert (E4 : (8 * uf f + bpow radix2 (-57)) * Rabs (atan (B2R t)) <= (8 * uf f + bpow radix2 (-57)) * (10001 / 10000 * Rabs X)) by (apply Rmult_le_compat_l; lra).
  replace (B2R a - X) with ((B2R a - atan (B2R t)) + (atan (B2R t) - X)) by ring. eapply Rle_trans. apply Rabs_triang. apply Rle_trans with ((1852 / 1000 * c + 10001 / 10000 * (8 * uf f + bpow radix2 (-57))) * Rabs X). lra. apply Rmult_le_compat_r. apply Rabs_pos. unfold c. lra.
Qed.
Lemma hyp_id c : cosh c * cosh c - sinh c * sinh c = 1.
Proof. unfold cosh, sinh. assert (Q : exp c * exp (- c) = 1) by (rewrite <- exp_plus, Rplus_opp_r; apply exp_0). lra. Qed.
Lemma hyper_arith X C S c s e1 e2 : C * C - S * S = 1 -> 1 <= C -> Rabs S <= C -> Rabs (c - C) <= e1 * C -> Rabs (s - S) <= e2 * C -> 0 <= e1 <= / 10000 -> 0 <= e2 <= / 10000 -> X = 201 / 100 * (e1 + e2) -> Rabs (c * c - s * s - 1) <= X * (C * C).
Proof.
  intros H C1 SC HC HS E1 E2 ->. replace (c * c - s * s - 1) with ((c - C) * (c - C + 2 * C) - (s - S) * (s - S + 2 * S)) by lra.
  assert (P1 : Rabs ((c - C) * (c - C + 2 * C)) <= e1 * C * (201 / 100 * C)). { rewrite Rabs_mult. apply Rmult_le_compat; try apply Rabs_pos; auto. eapply Rle_trans. apply Rabs_triang. rewrite (Rabs_pos_eq (2 * C)) by lra. nra. }
  assert (P2 : Rabs ((s - S) * (s - S + 2 * S)) <= e2 * C * (201 / 100 * C)). { rewrite Rabs_mult. apply Rmult_le_compat; try apply Rabs_pos; auto. eapply Rle_trans. apply Rabs_triang. rewrite (Rabs_mult 2 S), (Rabs_pos_eq 2) by lra. nra. }
  unfold Rminus at 1. eapply Rle_trans. apply Rabs_triang. rewrite Rabs_Ropp. lra.
Qed.
Lemma cosh_ge1 c : 1 <= cosh c.
Proof. assert (H := hyp_id c). assert (0 < cosh c) by (unfold cosh; assert (A := exp_pos c); assert (B := exp_pos (- c)); lra). nra. Qed.
Lemma hyperbola_small : forall v f (x : flt f), finite x = true -> Rabs (B2R x) <= / 2 ->
  exists c s : flt f, gcem_cosh v (AFlt f x) = Ok c /\ gcem_sinh v (AFlt f x) = Ok s /\ finite c = true /\ finite s = true /\ Rabs (B2R c * B2R c - B2R s * B2R s - 1) <= 54 * bpow radix2 (- prec f) + bpow radix2 (-52).
Proof.
  intros v f x Fx H. assert (u := uf_small f). assert (b : 0 < bpow radix2 (-55) <= / 1000000) by (split; [apply bpow_gt_0|cbn; lra]). assert (b2 : bpow radix2 (-52) = 8 * bpow radix2 (-55)) by (cbn; lra).
  assert (HC : exists w : flt f, gcem_cosh v (AFlt f x) = Ok w /\ finite w = true /\ rel_err (B2R w) (cosh (B2R x)) (10 * bpow radix2 (- prec f) + bpow radix2 (-55))) by exact (api_cosh_small v f x Fx H).
  assert (HS : exists w : flt f, gcem_sinh v (AFlt f x) = Ok w /\ finite w = true /\ Rabs (B2R w - sinh (B2R x)) <= (11 * bpow radix2 (- prec f) + bpow radix2 (-55)) * cosh (B2R x)) by exact (api_sinh_small v f x Fx H).
  destruct HC as (c & Ec & Fc & Rc). destruct HS as (s & Es & Fs & Rs). exists c, s. repeat (split; [assumption|]). assert (C1 := cosh_ge1 (B2R x)). unfold rel_err in Rc. rewrite (Rabs_pos_eq (cosh _)) in Rc by lra. fold (uf f) in * .
  eapply Rle_trans. eapply (hyper_arith _ _ _ _ _ _ _ (hyp_id (B2R x)) C1 (sinh_le_cosh _) Rc Rs); [lra|lra|reflexivity].
  assert (CC : cosh (B2R x) <= 1128 / 1000). { apply Rabs_le_inv in H. unfold cosh. set (X := B2R x) in * . interval with (i_bisect X, i_taylor X). } assert (C2 : cosh (B2R x) * cosh (B2R x) <= 1273 / 1000) by nra.
  apply Rle_trans with (201 / 100 * (10 * uf f + bpow radix2 (-55) + (11 * uf f + bpow radix2 (-55))) * (1273 / 1000)). apply Rmult_le_compat_l; lra. lra.
Qed.
Lemma hyperbola_mid : forall v f (x : flt f), finite x = true -> Rabs (B2R x) < 2 ->
  exists c s : flt f, gcem_cosh v (AFlt f x) = Ok c /\ gcem_sinh v (AFlt f x) = Ok s /\ finite c = true /\ finite s = true /\ Rabs (B2R c * B2R c - B2R s * B2R s - 1) <= (437 * bpow radix2 (- prec f) + bpow radix2 (-51)) * (cosh (B2R x) * cosh (B2R x)).
Proof.
  intros v f x Fx H. assert (u := uf_small f). assert (b : 0 < bpow radix2 (-55) <= / 1000000) by (split; [apply bpow_gt_0|cbn; lra]). assert (b2 : bpow radix2 (-51) = 16 * bpow radix2 (-55)) by (cbn; lra). assert (b3 : bpow radix2 (-53) = 4 * bpow radix2 (-55)) by (cbn; lra). assert (b4 : bpow radix2 (-60) = / 32 * bpow radix2 (-55)) by (cbn; lra).
  assert (HC : exists w : flt f, gcem_cosh v (AFlt f x) = Ok w /\ finite w = true /\ rel_err (B2R w) (cosh (B2R x)) (108 * bpow radix2 (- prec f) + bpow radix2 (-53) + 5 * bpow radix2 (-60))).
  { destruct (api_cosh v f x Fx) as (w & E & F & R). { apply Rle_trans with (exp 4). apply exp_le. lra. apply Rle_trans with (bpow radix2 6). cbn. interval. apply bpow_le. destruct f; cbn; lia. } exists w. split; [exact E|]. split; [exact F|]. eapply rel_mono; [|exact R]. assert ((Rabs (B2R x) + 3) * bpow radix2 (-60) <= 5 * bpow radix2 (-60)) by (apply Rmult_le_compat_r; [apply bpow_ge_0|lra]). destruct (Rlt_dec _ _); lra. }
  assert (HS : exists w : flt f, gcem_sinh v (AFlt f x) = Ok w /\ finite w = true /\ Rabs (B2R w - sinh (B2R x)) <= (109 * bpow radix2 (- prec f) + bpow radix2 (-55)) * cosh (B2R x)) by exact (api_sinh_mid v f x Fx H).
  destruct HC as (c & Ec & Fc & Rc). destruct HS as (s & Es & Fs & Rs). exists c, s. repeat (split; [assumption|]). assert (C1 := cosh_ge1 (B2R x)). unfold rel_err in Rc. rewrite (Rabs_pos_eq (cosh _)) in Rc by lra. fold (uf f) in * .
  eapply Rle_trans. eapply (hyper_arith _ _ _ _ _ _ _ (hyp_id (B2R x)) C1 (sinh_le_cosh _) Rc Rs); [lra|lra|reflexivity].
  apply Rmult_le_compat_r. nra. lra.
Qed.
Lemma round_order_flat : forall f (x : flt f), zero_or_normal x -> exists (fl ce tr rd : Z) wf wc wt wr nf nc nt nr,
  gcem_floor (AFlt f x) = Ok wf /\ has_val wf (IZR fl) /\ gcem_ceil (AFlt f x) = Ok wc /\ has_val wc (IZR ce) /\
  gcem_trunc (AFlt f x) = Ok wt /\ has_val wt (IZR tr) /\ gcem_round (AFlt f x) = Ok wr /\ has_val wr (IZR rd) /\
  (ce - 1 <= fl <= ce)%Z /\ (fl <= rd <= ce)%Z /\ (0 <= B2R x -> tr = fl) /\ (B2R x < 0 -> tr = ce) /\
  gcem_floor (AFlt f (-. x)) = Ok nf /\ has_val nf (IZR (- ce)) /\ gcem_ceil (AFlt f (-. x)) = Ok nc /\ has_val nc (IZR (- fl)) /\
  gcem_trunc (AFlt f (-. x)) = Ok nt /\ has_val nt (IZR (- tr)) /\ gcem_round (AFlt f (-. x)) = Ok nr /\ has_val nr (IZR (- rd)).
Proof.
  intros f x H. destruct (round_order f x H) as (fl & ce & tr & rd & (wf & A1 & A2) & (wc & B1 & B2) & (wt & C1 & C2) & (wr & D1 & D2) & I1 & I2 & T & (nf & E1 & E2) & (nc & F1 & F2) & (nt & G1 & G2) & (nr & H1 & H2)).
  exists fl, ce, tr, rd, wf, wc, wt, wr, nf, nc, nt, nr. repeat (split; [assumption|]). split. intros P. rewrite T. destruct (Rle_dec 0 (B2R x)); auto. lra. split. intros P. rewrite T. destruct (Rle_dec 0 (B2R x)); auto. lra. repeat (split; [assumption|]). assumption.
Qed.
