(** * Accuracy of floating-point powers with an integral exponent *)
From Verif Require Import Base ModelBasic ModelInt ModelElem ModelApi FltLemmas Spec IntProofs BasicProofs ConvLemmas TotalProofs.
From Coq Require Import Lra Psatz.
Open Scope R_scope.

(** [near k w r]: the float w equals r up to at most k roundings. *)
Definition uu (f : fmt) : R := bpow radix2 (- prec f).
Lemma uu_pos f : 0 < uu f. Proof. apply bpow_gt_0. Qed.
Lemma uu_small f : uu f <= / 1024.
Proof. change (/ 1024) with (bpow radix2 (-10)). apply bpow_le. destruct f; discriminate. Qed.
Definition near {f} (k : nat) (w : flt f) (r : R) : Prop :=
  finite w = true /\ exists t, B2R w = r * t /\ (1 - uu f) ^ k <= t <= (1 + uu f) ^ k.
Lemma near_exact {f} (w : flt f) : finite w = true -> near 0 w (B2R w).
Proof. intros F. split; auto. exists 1. split. ring. cbn. lra. Qed.
Lemma pow_1 x k : 0 <= x <= 1 -> x ^ k <= 1.
Proof. intros H. induction k; cbn. lra. assert (0 <= x ^ k) by (apply pow_le; lra). nra. Qed.
Lemma near_le {f} (w : flt f) r k m : (k <= m)%nat -> near k w r -> near m w r.
Proof.
  intros H (F & t & E & T). split; auto. exists t. split; auto. pose proof (uu_pos f). pose proof (uu_small f).
  assert (P1 : 0 <= (1 - uu f) ^ k) by (apply pow_le; lra).
  replace m with (k + (m - k))%nat by lia. rewrite !pow_add. split.
  - apply Rle_trans with ((1 - uu f) ^ k); [|lra]. assert ((1 - uu f) ^ (m - k) <= 1) by (apply pow_1; lra). nra.
  - apply Rle_trans with ((1 + uu f) ^ k); [lra|]. assert (1 <= (1 + uu f) ^ (m - k)) by (apply pow_R1_Rle; lra).
    assert (0 <= (1 + uu f) ^ k) by (apply pow_le; lra). nra.
Qed.
Lemma bern u k : 0 <= u <= 1 -> 1 - INR k * u <= (1 - u) ^ k.
Proof.
  intros H. induction k. cbn. lra. rewrite S_INR. cbn [pow]. assert (0 <= INR k) by apply pos_INR.
  assert (0 <= (1 - u) ^ k <= 1) by (split; [apply pow_le; lra|apply pow_1; lra]). nra.
Qed.
Lemma bern_up u k : 0 <= u -> INR k * u <= / 2 -> (1 + u) ^ k <= 1 + 2 * (INR k * u).
Proof.
  intros H. induction k. cbn. lra. rewrite S_INR. intros L. cbn [pow]. assert (0 <= INR k) by apply pos_INR.
  assert (INR k * u <= / 2) by nra. specialize (IHk H1). nra.
Qed.
Lemma near_err {f} (w : flt f) r k : INR k * uu f <= / 2 -> near k w r -> Rabs (B2R w - r) <= 2 * INR k * uu f * Rabs r.
Proof.
  intros H (F & t & E & T). rewrite E. replace (r * t - r) with ((t - 1) * r) by ring. rewrite Rabs_mult. apply Rmult_le_compat_r. apply Rabs_pos.
  pose proof (uu_pos f). pose proof (uu_small f). pose proof (bern (uu f) k ltac:(lra)). pose proof (bern_up (uu f) k ltac:(lra) H).
  assert (0 <= INR k) by apply pos_INR. assert (0 <= INR k * uu f) by nra. apply Rabs_le. lra.
Qed.
Lemma near_fac f k t : INR k * uu f <= / 4 -> (1 - uu f) ^ k <= t <= (1 + uu f) ^ k -> / 2 <= t <= 3 / 2.
Proof.
  intros H T. pose proof (uu_pos f). pose proof (uu_small f). pose proof (bern (uu f) k ltac:(lra)). pose proof (bern_up (uu f) k ltac:(lra) ltac:(lra)). lra.
Qed.
Lemma round_fin f z : Rabs z <= 3 / 2 * bpow radix2 (emax f - 1) -> Rabs (rnd f z) < bpow radix2 (emax f).
Proof.
  intros H. destruct (Rle_or_lt (bpow radix2 (2 - emax f)) (Rabs z)) as [L|L].
  - destruct (rnd_rel f z L) as (e & He & ->). fold (uu f) in He. pose proof (uu_small f). rewrite Rabs_mult.
    replace (bpow radix2 (emax f)) with (2 * bpow radix2 (emax f - 1)).
    + assert (P := bpow_gt_0 radix2 (emax f - 1)). assert (Rabs (1 + e) <= 1 + / 1024).
      { eapply Rle_trans; [apply Rabs_triang|]. rewrite Rabs_R1. lra. }
      apply Rle_lt_trans with (3 / 2 * bpow radix2 (emax f - 1) * (1 + / 1024)). apply Rmult_le_compat; auto using Rabs_pos. lra.
    + change 2 with (IZR radix2) at 1. rewrite <- bpow_plus_1. f_equal. lia.
  - apply rnd_lt_emax_bpow with (2 - emax f)%Z. unfold emin; destruct f; split; reflexivity || discriminate. lra.
Qed.
Lemma near_step {f} (k : nat) (w : flt f) z r t : (1 - uu f) ^ k <= t <= (1 + uu f) ^ k -> z = r * t ->
  INR (S k) * uu f <= / 4 -> bpow radix2 (3 - emax f) <= Rabs r <= bpow radix2 (emax f - 1) ->
  (Rabs (rnd f z) < bpow radix2 (emax f) -> B2R w = rnd f z /\ finite w = true) -> near (S k) w r.
Proof.
  intros T Z L B W. pose proof (uu_pos f) as U. pose proof (uu_small f) as U2. rewrite S_INR in L.
  destruct (near_fac f k t ltac:(lra) T) as (T1 & T2).
  assert (Bz : bpow radix2 (2 - emax f) <= Rabs z <= 3 / 2 * bpow radix2 (emax f - 1)).
  { rewrite Z, Rabs_mult, (Rabs_pos_eq t) by lra. replace (bpow radix2 (2 - emax f)) with (/ 2 * bpow radix2 (3 - emax f)).
    - assert (P := bpow_gt_0 radix2 (3 - emax f)). assert (P2 := bpow_gt_0 radix2 (emax f - 1)). split; [|]; nra.
    - replace (3 - emax f)%Z with ((2 - emax f) + 1)%Z by ring. rewrite bpow_plus_1. simpl IZR. field. }
  destruct (W (round_fin f z (proj2 Bz))) as (V & F). split; auto.
  destruct (rnd_rel f z (proj1 Bz)) as (e & He & E). fold (uu f) in He. exists (t * (1 + e)). split. rewrite V, E, Z. ring.
  apply Rabs_le_inv in He. cbn [pow].
  assert (0 <= (1 - uu f) ^ k) by (apply pow_le; lra). assert (0 <= (1 + uu f) ^ k) by (apply pow_le; lra).
  split; rewrite Rmult_comm; apply Rmult_le_compat; lra.
Qed.
Lemma near_mul {f} (x y : flt f) r s k m : near k x r -> near m y s -> INR (S (k + m)) * uu f <= / 4 ->
  bpow radix2 (3 - emax f) <= Rabs (r * s) <= bpow radix2 (emax f - 1) -> near (S (k + m)) (x *. y) (r * s).
Proof.
  intros (Fx & t & Ex & Tx) (Fy & q & Ey & Tq) L B. pose proof (uu_pos f) as U. pose proof (uu_small f) as U2.
  apply near_step with (z := B2R x * B2R y) (t := t * q); auto.
  - rewrite !pow_add. assert (0 <= (1 - uu f) ^ k) by (apply pow_le; lra). assert (0 <= (1 - uu f) ^ m) by (apply pow_le; lra).
    split; apply Rmult_le_compat; lra.
  - rewrite Ex, Ey. ring.
  - intros H. apply fmul_spec; auto.
Qed.
Lemma Rinv_pow_le u k : 0 <= u < 1 -> (1 - u) ^ k <= / (1 + u) ^ k.
Proof.
  intros H. apply Rmult_le_reg_r with ((1 + u) ^ k). apply pow_lt; lra. rewrite Rinv_l by (apply pow_nonzero; lra).
  rewrite <- Rpow_mult_distr. apply pow_1. split; nra.
Qed.
(** Quotients: 1/(1-u)^k is at most (1+u)^(2k) for the small u here. *)
Lemma near_div {f} (x y : flt f) r s k m : near k x r -> near m y s -> s <> 0 -> INR (S (k + 2 * m)) * uu f <= / 4 ->
  bpow radix2 (3 - emax f) <= Rabs (r / s) <= bpow radix2 (emax f - 1) -> near (S (k + 2 * m)) (x /. y) (r / s).
Proof.
  intros (Fx & t & Ex & Tx) (Fy & q & Ey & Tq) Ns L B. pose proof (uu_pos f) as U. pose proof (uu_small f) as U2.
  assert (Q0 : 0 < (1 - uu f) ^ m) by (apply pow_lt; lra). assert (Nq : 0 < q) by lra.
  assert (Q1 : 0 < (1 + uu f) ^ m) by (apply pow_lt; lra).
  assert (Ny : B2R y <> 0) by (rewrite Ey; apply Rmult_integral_contrapositive_currified; lra).
  apply near_step with (z := B2R x / B2R y) (t := t * / q); auto.
  - rewrite !pow_add, !pow_mult. assert (0 <= (1 - uu f) ^ k) by (apply pow_le; lra).
    split; apply Rmult_le_compat; try lra.
    + apply pow_le. apply pow_le. lra.
    + rewrite <- pow_mult. apply Rle_trans with ((1 - uu f) ^ m).
      * replace (2 * m)%nat with (m + m)%nat by lia. rewrite pow_add. assert ((1 - uu f) ^ m <= 1) by (apply pow_1; lra). nra.
      * eapply Rle_trans; [apply Rinv_pow_le; lra|]. apply Rinv_le; lra.
    + left. apply Rinv_0_lt_compat; auto.
    + apply Rle_trans with (/ (1 - uu f) ^ m). apply Rinv_le; lra.
      rewrite <- pow_inv. apply pow_incr. split. left. apply Rinv_0_lt_compat; lra.
      apply Rmult_le_reg_r with (1 - uu f). lra. rewrite Rinv_l by lra. cbn. nra.
  - rewrite Ex, Ey. field. split; lra.
  - intros H. apply fdiv_spec; auto.
Qed.

(** All powers up to the last are between 1 and the last one. *)
Lemma pow_between b n m (l h : R) : (m <= n)%nat -> l <= 1 <= h -> l <= Rabs (b ^ n) <= h -> l <= Rabs (b ^ m) <= h.
Proof.
  intros H L. rewrite <- !RPow_abs. assert (P := Rabs_pos b). set (a := Rabs b) in * . destruct (Rle_or_lt 1 a) as [G|G].
  - intros B. assert (1 <= a ^ m) by (apply pow_R1_Rle; auto). assert (a ^ m <= a ^ n) by (apply Rle_pow; auto). lra.
  - intros B. assert (a ^ m <= 1) by (apply pow_1; lra). assert (a ^ n <= a ^ m).
    { replace n with (m + (n - m))%nat by lia. rewrite pow_add. assert (0 <= a ^ m) by (apply pow_le; auto). assert (a ^ (n - m) <= 1) by (apply pow_1; lra). nra. }
    lra.
Qed.
Lemma one_between f : bpow radix2 (3 - emax f) <= 1 <= bpow radix2 (emax f - 1).
Proof. change 1 with (bpow radix2 0). split; apply bpow_le; destruct f; discriminate. Qed.

Section Rec.
Context {f : fmt} (b : R) (N : nat).
Hypothesis (HN : INR N * uu f <= / 4) (HB : bpow radix2 (3 - emax f) <= Rabs (b ^ N) <= bpow radix2 (emax f - 1)).
Lemma near_powmul (x y : flt f) k m i j : (k <= i - 1)%nat -> (1 <= i)%nat -> (m <= j)%nat -> (i + j <= N)%nat ->
  near k x (b ^ i) -> near m y (b ^ j) -> near (i + j) (y *. x) (b ^ (i + j)).
Proof.
  intros Hk Hi Hm Hij Hx Hy. apply near_le with (S (j + (i - 1))); [lia|]. rewrite pow_add, Rmult_comm. apply near_mul.
  - apply near_le with m; auto.
  - apply near_le with k; auto.
  - replace (S (j + (i - 1))) with (i + j)%nat by lia. apply Rle_trans with (2 := HN). apply Rmult_le_compat_r. left; apply uu_pos. apply le_INR. lia.
  - rewrite <- pow_add. apply pow_between with N; auto; [lia|apply one_between].
Qed.
Lemma near_powsq (x : flt f) i : (1 <= i)%nat -> (i + i <= N)%nat -> near (i - 1) x (b ^ i) -> near (i + i - 1) (x *. x) (b ^ (i + i)).
Proof.
  intros Hi Hij Hx. apply near_le with (S ((i - 1) + (i - 1))); [lia|]. rewrite pow_add. apply near_mul; auto.
  - apply Rle_trans with (2 := HN). apply Rmult_le_compat_r. left; apply uu_pos. apply le_INR. lia.
  - rewrite <- pow_add. apply pow_between with N; auto. apply one_between.
Qed.
Lemma pow_recur_near n : forall (x y : flt f) e i j, (0 <= e < 2 ^ Z.of_nat n)%Z -> (1 <= i)%nat -> (Z.of_nat i * e + Z.of_nat j = Z.of_nat N)%Z ->
  near (i - 1) x (b ^ i) -> near j y (b ^ j) -> exists w, pow_recur_flt (S n) x y e = Ok w /\ near N w (b ^ N).
Proof.
  induction n; intros x y e i j He Hi Hs Hx Hy.
  - cbn in He. replace e with 0%Z in * by lia. exists y. split. reflexivity. replace N with j by lia. auto.
  - change (pow_recur_flt (S (S n)) x y e) with
      (if (1 <? e)%Z then (if is_odd e then pow_recur_flt (S n) (x *. x) (y *. x) (e / 2)
         else pow_recur_flt (S n) (x *. x) y (e / 2)) else Ok (if (e =? 1)%Z then y *. x else y)).
    rewrite Nat2Z.inj_succ, Z.pow_succ_r in He by lia.
    destruct (Z.ltb_spec 1 e) as [L|L].
    + assert (Q : (i + i <= N)%nat) by nia.
      assert (D := Z.div_mod e 2 ltac:(lia)). assert (M := Z.mod_pos_bound e 2 ltac:(lia)).
      assert (Od := Zmod_odd e). rewrite <- is_odd_Zodd in Od.
      destruct (is_odd e) eqn:O; rewrite Od in D; clear Od M; set (q := (e / 2)%Z) in * ; clearbody q.
      * apply IHn with (i + i)%nat (i + j)%nat.
        -- lia.
        -- lia.
        -- rewrite !Nat2Z.inj_add. rewrite D in Hs. lia.
        -- apply near_powsq; auto.
        -- apply near_powmul with (i - 1)%nat j; auto. nia.
      * apply IHn with (i + i)%nat j; auto.
        -- lia.
        -- lia.
        -- rewrite Nat2Z.inj_add. rewrite D in Hs. lia.
        -- apply near_powsq; auto.
    + destruct (Z.eqb_spec e 1) as [->|Ne].
      * exists (y *. x). split; auto. replace N with (i + j)%nat by lia. apply near_powmul with (i - 1)%nat j; auto; lia.
      * exists y. split; auto. replace N with j; auto. nia.
Qed.
End Rec.

(** pow(x,n), n >= 0 *)
Lemma pow_cases_near {f} t (x : flt f) e : in_range t e -> (0 <= e)%Z -> e <> imax t -> finite x = true ->
  IZR e * uu f <= / 4 -> bpow radix2 (3 - emax f) <= Rabs (B2R x ^ Z.to_nat e) <= bpow radix2 (emax f - 1) ->
  exists w, pow_cases_flt t x e (pow_recur_flt pow_fuel x (ofZ f 1) e) = Ok w /\ near (Z.to_nat e) w (B2R x ^ Z.to_nat e).
Proof.
  intros R He Hm Fx HN HB. set (N := Z.to_nat e) in * .
  assert (EN : INR N = IZR e). { rewrite INR_IZR_INZ. f_equal. lia. } rewrite <- EN in HN.
  assert (N1 : near 0 x (B2R x ^ 1)) by (replace (B2R x ^ 1) with (B2R x) by ring; apply near_exact; auto).
  assert (T1 : near 0 (ofZ f 1) (B2R x ^ 0)).
  { destruct (ofZ_small f 1 ltac:(lia)) as (V & F & _). assert (T := near_exact _ F). rewrite V in T. exact T. }
  unfold pow_cases_flt.
  destruct (Z.eqb_spec e 3) as [->|E3].
  { eexists. split. reflexivity. change N with (1 + 2)%nat.
    assert (S2 := near_powsq (B2R x) N HN HB x 1 ltac:(lia) ltac:(lia) N1). cbn [Nat.add] in S2.
    apply (near_powmul (B2R x) N HN HB x (x *. x) 0 1 1 2); auto; lia. }
  destruct (Z.eqb_spec e 2) as [->|E2].
  { eexists. split. reflexivity. apply near_le with 1%nat. lia. apply (near_powsq (B2R x) N HN HB x 1 ltac:(lia) ltac:(lia) N1). }
  destruct (Z.eqb_spec e 1) as [->|E1].
  { exists x. split. reflexivity. apply near_le with 0%nat. lia. exact N1. }
  destruct (Z.eqb_spec e 0) as [->|E0].
  { exists (ofZ f 1). split. reflexivity. exact T1. }
  destruct (Z.eqb_spec e (imin t)) as [Em|_].
  { exfalso. destruct t; cbn in Em; lia. }
  destruct (Z.eqb_spec e (imax t)) as [Em|_]; [contradiction|].
  apply (pow_recur_near (B2R x) N HN HB 65 x (ofZ f 1) e 1 0); auto; try lia.
  split; auto. destruct R as (_ & R). apply Z.le_lt_trans with (1 := R). destruct t; reflexivity.
Qed.
Lemma pow_integral_near {f} t (x : flt f) e : in_range t e -> (0 <= e)%Z -> e <> imax t -> finite x = true ->
  IZR e * uu f <= / 4 -> bpow radix2 (3 - emax f) <= Rabs (B2R x ^ Z.to_nat e) <= bpow radix2 (emax f - 1) ->
  exists w, pow_integral t x e = Ok w /\ near (Z.to_nat e) w (B2R x ^ Z.to_nat e).
Proof.
  intros R He Hm Fx HN HB. unfold pow_integral.
  replace (e <? 0)%Z with false by (symmetry; apply Z.ltb_ge; lia). rewrite andb_false_r. apply pow_cases_near; auto.
Qed.
(** ... and n < 0: one division of 1 by the positive power. *)
Lemma pow_integral_near_neg {f} t (x : flt f) e : in_range t e -> isigned t = true -> (e < 0)%Z -> e <> imin t -> (- e)%Z <> imax (promote t) -> finite x = true ->
  (2 * IZR (- e) + 1) * uu f <= / 4 -> bpow radix2 (3 - emax f) <= Rabs (B2R x ^ Z.to_nat (- e)) <= bpow radix2 (emax f - 3) ->
  exists w, pow_integral t x e = Ok w /\ near (S (2 * Z.to_nat (- e))) w (/ B2R x ^ Z.to_nat (- e)).
Proof.
  intros R S He Hi Hm Fx HN HB. set (e' := (- e)%Z) in * .
  assert (Re : in_range (promote t) e').
  { unfold e'. destruct t; try discriminate; cbv [in_range imin imax isigned ibits promote] in * ; simpl Z.sub in * ; simpl Z.pow in * ; lia. }
  assert (U := uu_pos f). assert (E0 : 1 <= IZR e') by (apply IZR_le; lia).
  assert (B3 : bpow radix2 (emax f - 3) <= bpow radix2 (emax f - 1)) by (apply bpow_le; lia).
  destruct (pow_cases_near (promote t) x e' Re ltac:(lia) Hm Fx ltac:(nra) ltac:(lra)) as (p & Ep & Np).
  set (N := Z.to_nat e') in * . assert (P := bpow_gt_0 radix2 (3 - emax f)).
  assert (Nz : B2R x ^ N <> 0). { intros Z. rewrite Z, Rabs_R0 in HB. lra. }
  exists (ofZ f 1 /. p). split.
  - unfold pow_integral. unfold pow_cases_flt at 1.
    destruct (Z.eqb_spec e 3); [lia|]. destruct (Z.eqb_spec e 2); [lia|]. destruct (Z.eqb_spec e 1); [lia|]. destruct (Z.eqb_spec e 0); [lia|].
    destruct (Z.eqb_spec e (imin t)); [contradiction|]. destruct (Z.eqb_spec e (imax t)) as [Q|_]. { exfalso. destruct t; cbn in Q; lia. }
    rewrite S. replace (e <? 0)%Z with true by (symmetry; apply Z.ltb_lt; lia). cbn [andb].
    unfold ineg. rewrite iarith_ok by exact Re. cbn [bind]. fold e'. rewrite Ep. reflexivity.
  - destruct (ofZ_small f 1 ltac:(lia)) as (V1 & F1 & _). assert (T1 := near_exact _ F1). rewrite V1 in T1.
    replace (/ B2R x ^ N) with (IZR 1 / B2R x ^ N) by (unfold Rdiv; ring). apply (near_div _ _ _ _ 0 N); auto.
    + replace (INR (Datatypes.S (0 + 2 * N))) with (2 * IZR e' + 1); auto. rewrite S_INR. cbn [Nat.add]. rewrite mult_INR, (INR_IZR_INZ N). replace (Z.of_nat N) with e' by lia. simpl (INR 2). ring.
    + unfold Rdiv. rewrite Rmult_1_l, Rabs_inv. split.
      * rewrite <- (Rinv_inv (bpow radix2 (3 - emax f))). apply Rinv_le. lra. rewrite <- bpow_opp. replace (- (3 - emax f))%Z with (emax f - 3)%Z by ring. lra.
      * eapply Rle_trans. apply Rinv_le; [|exact (proj1 HB)]. auto. rewrite <- bpow_opp. apply bpow_le. lia.
Qed.
