(** * Accuracy of the exponential *)
From Verif Require Import Base ModelBasic ModelInt ModelElem ModelApi FltLemmas Spec IntProofs BasicProofs ConvLemmas CxxProofs TotalProofs ExpTotal FPErr PowAcc ExpReal.
From Coq Require Import Lra Psatz.
From Interval Require Import Tactic.
Open Scope R_scope.

Lemma rel_chain c a e r t : 0 < r -> 0 <= c -> Rabs (a - t) <= c * t -> Rabs (t - r) <= e * r -> e <= / 1000000 -> Rabs (a - r) <= (c * (1 + / 1000000) + e) * r.
Proof.
  intros R0 C0 H1 H2 E1. replace (a - r) with ((a - t) + (t - r)) by ring. eapply Rle_trans. apply Rabs_triang.
  apply Rabs_le_inv in H2. assert (t <= (1 + / 1000000) * r) by nra. assert (Rabs (t - r) <= e * r) by (apply Rabs_le; auto). nra.
Qed.
(** exp_cf on (-2,2): finite, positive, accurate. *)
Definition exp_const (x : R) : R := if Rle_dec (Rabs x) (/ 2) then 7 else 105.
Lemma exp_cf_acc v {f} (x : flt f) : finite x = true -> Rabs (B2R x) < 2 ->
  finite (exp_cf v x) = true /\ rel_err (B2R (exp_cf v x)) (exp (B2R x)) ((exp_const (B2R x) + / 2) * bpow radix2 (- prec f) + bpow radix2 (-55)).
Proof.
  intros Fx Hx. assert (V : exp_cf v x = exp_cf Cxx11 x) by (destruct v; first [symmetry; apply exp_cf_11_14|exact eq_refl]).
  rewrite V. apply Rabs_lt_inv in Hx. unfold rel_err. rewrite (Rabs_pos_eq (exp _)) by (left; apply exp_pos).
  set (U := bpow radix2 (- prec f)). assert (U0 : 0 < U) by apply bpow_gt_0.
  assert (G : forall k, (-128 <= k < 128)%Z -> IZR k * bpow radix2 (-6) <= B2R x <= IZR (k + 1) * bpow radix2 (-6) ->
    finite (exp_cf Cxx11 x) = true /\ Rabs (B2R (exp_cf Cxx11 x) - exp (B2R x)) <= ((IZR (exp_c k) + / 2) * U + bpow radix2 (-55)) * exp (B2R x)).
  { intros k Hk Hc. destruct (exp_cf_round x k Hk Fx Hc) as (F & P & R). split; auto. fold U in R.
    assert (T := rexp_cf_err (B2R x) ltac:(lra)). assert (C0 : 0 <= IZR (exp_c k) <= 105) by (unfold exp_c; destruct (_ && _); lra).
    assert (C1 : 0 <= IZR (exp_c k) * U) by (apply Rmult_le_pos; lra).
    eapply Rle_trans. apply (rel_chain _ _ _ _ _ (exp_pos _) C1 R T). lra.
    apply Rmult_le_compat_r. left; apply exp_pos. cbn [bpow Z.pow_pos Pos.iter Z.mul radix_val radix2 Pos.mul]. nra. }
  unfold exp_const. destruct Rle_dec as [S|S].
  - apply Rabs_le_inv in S. destruct (Rlt_or_le (B2R x) (/ 2)) as [L|L].
    + destruct (cover 6 (B2R x) (-32) 32) as (k & Hk & Hc). lia. cbn; lra. cbn; lra.
      destruct (G k ltac:(lia) Hc) as (F & B). split; auto. replace (exp_c k) with 7%Z in B. exact B.
      unfold exp_c. replace ((-32 <=? k) && (k <? 32))%Z with true; auto. symmetry. apply andb_true_intro. split; [apply Z.leb_le|apply Z.ltb_lt]; lia.
    + destruct (G 31%Z ltac:(lia)) as (F & B). { cbn. lra. } auto.
  - destruct (cover 6 (B2R x) (-128) 128) as (k & Hk & Hc). lia. cbn; lra. cbn; lra.
    destruct (G k Hk Hc) as (F & B). split; auto. eapply Rle_trans. exact B. apply Rmult_le_compat_r. left; apply exp_pos.
    apply Rplus_le_compat_r. apply Rmult_le_compat_r. lra. apply Rplus_le_compat_r. unfold exp_c. destruct (_ && _); lra.
Qed.

(** ** Powers of e *)
Lemma sf_val {f} (x : flt f) b m e : B2SF x = SpecFloat.S754_finite b m e ->
  finite x = true /\ B2R x = F2R (Float radix2 (cond_Zopp b (Zpos m)) e).
Proof. intros H. destruct x; try discriminate. cbn in H. injection H as -> -> ->. split; reflexivity. Qed.
Lemma GCEM_E_val : finite GCEM_E = true /\ B2R GCEM_E = 12535862302449814171 * / 4611686018427387904.
Proof.
  assert (S : B2SF GCEM_E = SpecFloat.S754_finite false 12535862302449814171 (-62)) by (vm_compute; reflexivity).
  destruct (sf_val GCEM_E _ _ _ S) as (F & V). split; [exact F|]. rewrite V. unfold F2R. cbn. reflexivity.
Qed.
Lemma GCEM_E_near : near 1 GCEM_E (exp 1).
Proof.
  destruct GCEM_E_val as (F & V). split; auto. exists (B2R GCEM_E / exp 1). split. field. apply Rgt_not_eq, exp_pos.
  rewrite V. unfold uu. change (bpow radix2 (- prec F80)) with (/ 18446744073709551616). cbn [pow]. rewrite !Rmult_1_r. split; interval with (i_prec 120).
Qed.
Lemma exp_INR n : exp 1 ^ n = exp (INR n).
Proof. induction n. cbn. rewrite exp_0; auto. rewrite S_INR, exp_plus, <- IHn. cbn [pow]. ring. Qed.
(** A power of a near value is near the power. *)
Lemma near_pow_fac f t n k : (1 - uu f) ^ k <= t <= (1 + uu f) ^ k -> (1 - uu f) ^ (n * k) <= t ^ n <= (1 + uu f) ^ (n * k).
Proof.
  intros T. assert (U := uu_pos f). assert (U2 := uu_small f). rewrite Nat.mul_comm, !pow_mult. split; apply pow_incr; split; try apply T.
  apply pow_le; lra. eapply Rle_trans; [|apply T]. apply pow_le; lra.
Qed.
Lemma near_trans {f} (w : flt f) r t k m : near k w (r * t) -> (1 - uu f) ^ m <= t <= (1 + uu f) ^ m -> near (k + m) w r.
Proof.
  intros (F & q & E & Q) T. split; auto. exists (t * q). split. rewrite E; ring.
  assert (U := uu_pos f). assert (U2 := uu_small f). rewrite (Nat.add_comm k), !pow_add.
  assert (0 <= (1 - uu f) ^ k) by (apply pow_le; lra). assert (0 <= (1 - uu f) ^ m) by (apply pow_le; lra). split; apply Rmult_le_compat; lra.
Qed.
Lemma near_inv_fac f t k : (1 - uu f) ^ k <= t <= (1 + uu f) ^ k -> (1 - uu f) ^ (2 * k) <= / t <= (1 + uu f) ^ (2 * k).
Proof.
  intros T. assert (U := uu_pos f). assert (U2 := uu_small f).
  assert (Q0 : 0 < (1 - uu f) ^ k) by (apply pow_lt; lra). assert (0 < t) by lra.
  assert (Q1 : 0 < (1 + uu f) ^ k) by (apply pow_lt; lra). split.
  - apply Rle_trans with ((1 - uu f) ^ k).
    + replace (2 * k)%nat with (k + k)%nat by lia. rewrite pow_add. assert ((1 - uu f) ^ k <= 1) by (apply PowAcc.pow_1; lra). nra.
    + eapply Rle_trans; [apply Rinv_pow_le; lra|]. apply Rinv_le; lra.
  - apply Rle_trans with (/ (1 - uu f) ^ k). apply Rinv_le; lra.
    rewrite pow_mult, <- pow_inv. apply pow_incr. split. left. apply Rinv_0_lt_compat; lra.
    apply Rmult_le_reg_r with (1 - uu f). lra. rewrite Rinv_l by lra. cbn. nra.
Qed.
Lemma in_I64 n : (Z.abs n <= 11350)%Z -> in_range I64 n.
Proof. intros H. split; cbn; lia. Qed.
Lemma e_pow_big f t n : (Z.of_nat n <= 11350)%Z -> (1 - uu f) ^ 1 <= t <= (1 + uu f) ^ 1 -> prec f = 64%Z -> / 2 <= t ^ n <= 2.
Proof.
  intros Hn T P. assert (Q := near_pow_fac f t n 1 T). rewrite Nat.mul_1_r in Q.
  assert (B : INR n * uu f <= / 4).
  { unfold uu. rewrite P. apply Rle_trans with (11350 * bpow radix2 (-64)). apply Rmult_le_compat_r. apply bpow_ge_0. rewrite INR_IZR_INZ. apply IZR_le; lia. cbn; lra. }
  pose proof (near_fac f n (t ^ n) B Q). lra.
Qed.
Lemma exp_bound_nat n : (Z.of_nat n <= 11350)%Z -> 1 <= exp (INR n) <= bpow radix2 (emax F80 - 4).
Proof.
  intros H. rewrite <- exp_0. assert (0 <= INR n <= 11350). { split. apply pos_INR. rewrite INR_IZR_INZ. apply IZR_le; lia. }
  split. apply exp_le; lra. apply Rle_trans with (exp 11350). apply exp_le; lra.
  rewrite bpow_exp. apply exp_le. change (emax F80 - 4)%Z with 16380%Z. change (IZR radix2) with 2. interval with (i_prec 60).
Qed.
(** E^n in long double, for any |n| <= 11350. *)
Lemma e_pow n : (Z.abs n <= 11350)%Z -> exists p, pow_integral I64 GCEM_E n = Ok p /\ near (4 * Z.to_nat (Z.abs n) + 1) p (exp (IZR n)).
Proof.
  intros Hn. destruct GCEM_E_near as (Fe & t & Et & Tt).
  assert (U : IZR (Z.abs n) * uu F80 <= / 16).
  { unfold uu. change (- prec F80)%Z with (-64)%Z. apply Rle_trans with (11350 * bpow radix2 (-64)). apply Rmult_le_compat_r. apply bpow_ge_0. apply IZR_le; lia. cbn; lra. }
  assert (U1 : uu F80 <= / 1024) by apply uu_small.
  remember (Z.to_nat (Z.abs n)) as N eqn:DN. assert (HN : (Z.of_nat N <= 11350)%Z) by lia.
  assert (B := e_pow_big F80 t N HN Tt eq_refl). assert (B2 := exp_bound_nat N HN).
  assert (EN : B2R GCEM_E ^ N = exp (INR N) * t ^ N). { rewrite Et, Rpow_mult_distr, exp_INR. reflexivity. }
  assert (R : bpow radix2 (3 - emax F80) <= Rabs (B2R GCEM_E ^ N) <= bpow radix2 (emax F80 - 3)).
  { rewrite EN, Rabs_pos_eq by (apply Rmult_le_pos; lra). split.
    - apply Rle_trans with (1 * / 2); [|apply Rmult_le_compat; lra]. rewrite Rmult_1_l. change (/ 2) with (bpow radix2 (-1)). apply bpow_le. discriminate.
    - apply Rle_trans with (bpow radix2 (emax F80 - 4) * 2). apply Rmult_le_compat; lra. rewrite Rmult_comm. change 2 with (bpow radix2 1). rewrite <- bpow_plus. apply bpow_le. discriminate. }
  assert (T1 := near_pow_fac F80 t N 1 Tt). rewrite Nat.mul_1_r in T1.
  destruct (Z_lt_le_dec n 0) as [L|L].
  - replace (Z.abs n) with (- n)%Z in * by lia. rewrite DN in R.
    assert (R1 : in_range I64 n) by (apply in_I64; lia). assert (R2 : n <> imin I64) by (change (imin I64) with (- 2 ^ 63)%Z; lia).
    assert (R3 : (- n)%Z <> imax (promote I64)) by (change (imax (promote I64)) with (2 ^ 63 - 1)%Z; lia).
    assert (R4 : (2 * IZR (- n) + 1) * uu F80 <= / 4) by lra.
    destruct (pow_integral_near_neg I64 GCEM_E n R1 eq_refl L R2 R3 Fe R4 R) as (p & Ep & Np).
    exists p. split. exact Ep. rewrite <- DN in Np. rewrite EN, Rinv_mult in Np.
      apply near_le with (S (2 * N) + 2 * N)%nat. lia. apply near_trans with (/ t ^ N). 2: apply near_inv_fac; auto.
      replace (exp (IZR n)) with (/ exp (INR N)); auto. rewrite <- exp_Ropp. f_equal. rewrite INR_IZR_INZ, <- opp_IZR. f_equal. lia.
  - replace (Z.abs n) with n in * by lia. rewrite DN in R.
    assert (R1 : in_range I64 n) by (apply in_I64; lia).
    assert (R3 : n <> imax I64) by (change (imax I64) with (2 ^ 63 - 1)%Z; lia).
    assert (R4 : IZR n * uu F80 <= / 4) by lra.
    assert (R5 : bpow radix2 (3 - emax F80) <= Rabs (B2R GCEM_E ^ Z.to_nat n) <= bpow radix2 (emax F80 - 1)).
    { split. apply R. eapply Rle_trans. apply R. apply bpow_le. lia. }
    destruct (pow_integral_near I64 GCEM_E n R1 L R3 Fe R4 R5) as (p & Ep & Np).
    exists p. split. exact Ep. rewrite <- DN in Np. rewrite EN in Np. apply near_le with (N + N)%nat. lia. apply near_trans with (t ^ N); auto.
      replace (exp (IZR n)) with (exp (INR N)); auto. f_equal. rewrite INR_IZR_INZ. f_equal. lia.
Qed.

(** ** exp through argument splitting *)
Lemma four_rel a b c d A B C : Rabs a <= A -> Rabs b <= B -> Rabs c <= C -> Rabs d <= B ->
  0 <= A <= / 100000 -> 0 <= B <= / 10000000 -> 0 <= C <= / 100000 ->
  Rabs ((1 + a) * (1 + b) * (1 + c) * (1 + d) - 1) <= (A + 2 * B + C) * (1 + / 10000).
Proof.
  intros Ha Hb Hc Hd HA HB HC. apply Rabs_le_inv in Ha. apply Rabs_le_inv in Hb. apply Rabs_le_inv in Hc. apply Rabs_le_inv in Hd.
  assert (Q : forall u v P Q, - P <= u <= P -> - Q <= v <= Q -> 0 <= P <= / 10000 -> 0 <= Q <= / 100000 ->
     - (P + Q + P * Q) <= (1 + u) * (1 + v) - 1 <= P + Q + P * Q) by (intros; split; nra).
  assert (H1 := Q a b A B Ha Hb ltac:(lra) ltac:(lra)). set (ab := (1 + a) * (1 + b) - 1) in * .
  assert (P1 : 0 <= A * B <= B * / 100000) by (split; nra).
  assert (H2 := Q ab c (A + B + A * B) C H1 Hc ltac:(split; nra) ltac:(lra)). set (abc := (1 + ab) * (1 + c) - 1) in * .
  set (S2 := A + B + A * B + C + (A + B + A * B) * C) in * .
  assert (P2 : 0 <= S2 <= (A + B + C) * (1 + / 50000)). { unfold S2. split; nra. }
  assert (H3 := Q abc d S2 B H2 Hd ltac:(lra) ltac:(lra)).
  replace ((1 + a) * (1 + b) * (1 + c) * (1 + d) - 1) with ((1 + abc) * (1 + d) - 1) by (unfold abc, ab; ring).
  apply Rabs_le. assert (0 <= S2 * B <= S2 * / 10000000) by (split; nra). lra.
Qed.
Lemma exp_split_acc v {f} (x : flt f) c : finite x = true -> 2 <= Rabs (B2R x) -> exp (Rabs (B2R x) + 2) <= bpow radix2 (emax f - 9) ->
  c = (if Rlt_dec 0 (B2R x) then 10 else 108) ->
  exists w, exp_split v x = Ok w /\ finite w = true /\
    rel_err (B2R w) (exp (B2R x)) (c * bpow radix2 (- prec f) + bpow radix2 (-54) + (Rabs (B2R x) + 3) * bpow radix2 (-61)).
Proof.
  intros Fx X2 XM Dc.
  assert (XL : Rabs (B2R x) <= 11348 + / 2).
  { apply Rnot_lt_le. intros L. apply (Rlt_not_le (exp (Rabs (B2R x) + 2)) (bpow radix2 (emax f - 9))); auto.
    apply Rle_lt_trans with (bpow radix2 16375). apply bpow_le. destruct f; discriminate.
    rewrite bpow_exp. apply exp_increasing. change (IZR radix2) with 2. apply Rle_lt_trans with (11350 + / 2); [|lra]. interval with (i_prec 60). }
  destruct (whole_frac x Fx) as (n & r & En & Er & Fr & Vr & Rn & Hp & Hneg). { split; [lra|]. apply Rle_trans with (1 := XL). apply Rle_trans with 11349; [lra|]. apply IZR_le. discriminate. }
  assert (Nb : Rabs (IZR n) <= Rabs (B2R x) + 2).
  { replace (IZR n) with (B2R x - B2R r) by (rewrite Vr; ring). eapply Rle_trans. apply Rabs_triang. rewrite Rabs_Ropp. apply Rplus_le_compat_l.
    destruct (Rle_or_lt (B2R x) 0) as [L|L]. destruct L as [L| L]. apply Rabs_le. specialize (Hneg L). lra. rewrite L, Rabs_R0 in X2. lra.
    apply Rabs_le. specialize (Hp L). lra. }
  assert (Nz : (Z.abs n <= 11350)%Z). { assert (Z.abs n < 11351)%Z; [|lia]. apply lt_IZR. rewrite abs_IZR. lra. }
  assert (Hr : Rabs (B2R r) < 2 /\ exp_const (B2R r) + 2 + / 2 + / 4 <= c).
  { destruct (Rle_or_lt (B2R x) 0) as [L|L]. destruct L as [L| L].
    - specialize (Hneg L). split. apply Rabs_lt. lra. rewrite Dc. destruct Rlt_dec; [lra|]. unfold exp_const. destruct Rle_dec; lra.
    - rewrite L, Rabs_R0 in X2. lra.
    - specialize (Hp L). split. apply Rabs_lt. lra. rewrite Dc. destruct Rlt_dec; [|lra]. unfold exp_const. destruct Rle_dec as [|N]; [lra|]. exfalso. apply N. apply Rabs_le. lra. }
  destruct Hr as (Hr & Hc).
  destruct (exp_cf_acc v r Fr Hr) as (Fc & Ec). unfold rel_err in Ec. rewrite (Rabs_pos_eq (exp _)) in Ec by (left; apply exp_pos).
  destruct (e_pow n Nz) as (p & Ep & (Fp & t & Et & Tt)).
  set (U := bpow radix2 (- prec f)) in * . assert (U0 : 0 < U) by apply bpow_gt_0.
  assert (U1 : U <= / 10000000). { unfold U. apply Rle_trans with (bpow radix2 (-24)). apply bpow_le. destruct f; discriminate. cbn. lra. }
  (* relative errors *)
  set (k := (4 * Z.to_nat (Z.abs n) + 1)%nat) in * .
  assert (Kn : INR k = 4 * Rabs (IZR n) + 1).
  { unfold k. rewrite INR_IZR_INZ, Nat2Z.inj_add, Nat2Z.inj_mul, Z2Nat.id, plus_IZR, mult_IZR, <- abs_IZR by lia. reflexivity. }
  assert (U80 : uu F80 = / 18446744073709551616) by reflexivity.
  assert (Ta : Rabs (t - 1) <= (Rabs (B2R x) + 9 / 4) * bpow radix2 (-61)).
  { assert (T0 := bern (uu F80) k ltac:(pose proof (uu_pos F80); pose proof (uu_small F80); lra)).
    assert (T1 := bern_up (uu F80) k ltac:(pose proof (uu_pos F80); lra) ltac:(rewrite Kn, U80; lra)).
    rewrite Kn, U80 in T0, T1. rewrite U80 in Tt. change (bpow radix2 (-61)) with (/ 2305843009213693952). assert (0 <= Rabs (IZR n)) by apply Rabs_pos. apply Rabs_le. lra. }
  set (A := (Rabs (B2R x) + 9 / 4) * bpow radix2 (-61)) in * .
  assert (A0 : 0 <= A <= / 100000). { unfold A. change (bpow radix2 (-61)) with (/ 2305843009213693952). lra. }
  assert (EX : exp (B2R x) = exp (IZR n) * exp (B2R r)). { rewrite <- exp_plus. f_equal. rewrite Vr. ring. }
  assert (Bn : bpow radix2 (9 - emax f) <= exp (IZR n) <= bpow radix2 (emax f - 9)).
  { apply Rabs_le_inv in Nb. split.
    - replace (9 - emax f)%Z with (- (emax f - 9))%Z by ring. rewrite bpow_opp. eapply Rle_trans. apply Rinv_le; [apply exp_pos|exact XM].
      rewrite <- exp_Ropp. apply exp_le. lra.
    - eapply Rle_trans; [|exact XM]. apply exp_le. lra. }
  assert (Bx : bpow radix2 (9 - emax f) <= exp (B2R x) <= bpow radix2 (emax f - 9)).
  { pose proof (Rabs_pos (B2R x)). pose proof (Rle_abs (B2R x)). pose proof (Rle_abs (- B2R x)). rewrite Rabs_Ropp in H1. split.
    - replace (9 - emax f)%Z with (- (emax f - 9))%Z by ring. rewrite bpow_opp. eapply Rle_trans. apply Rinv_le; [apply exp_pos|exact XM].
      rewrite <- exp_Ropp. apply exp_le. lra.
    - eapply Rle_trans; [|exact XM]. apply exp_le. lra. }
  assert (B8 : bpow radix2 (9 - emax f) = 128 * bpow radix2 (2 - emax f)).
  { change 128 with (bpow radix2 7). rewrite <- bpow_plus. f_equal. ring. }
  assert (B9 : bpow radix2 (emax f - 1) = 256 * bpow radix2 (emax f - 9)).
  { change 256 with (bpow radix2 8). rewrite <- bpow_plus. f_equal. ring. }
  assert (P9 := bpow_gt_0 radix2 (emax f - 9)). assert (P8 := bpow_gt_0 radix2 (2 - emax f)).
  assert (T2 : / 2 <= t <= 2) by (apply Rabs_le_inv in Ta; lra).
  assert (Pv : bpow radix2 (2 - emax f) <= Rabs (B2R p) <= 3 / 2 * bpow radix2 (emax f - 1)).
  { rewrite Et, Rabs_pos_eq by (apply Rmult_le_pos; lra). split; nra. }
  destruct (conv_spec f p Fp (round_fin f _ (proj2 Pv))) as (Vc & Fcv & _).
  destruct (rnd_rel f _ (proj1 Pv)) as (b & Hb & Eb). rewrite Eb in Vc. fold U in Hb.
  set (C := (exp_const (B2R r) + / 2) * U + bpow radix2 (-55)) in * .
  assert (C0 : 0 <= C <= / 100000).
  { unfold C. change (bpow radix2 (-55)) with (/ 36028797018963968). assert (0 <= exp_const (B2R r) <= 105) by (unfold exp_const; destruct Rle_dec; lra). split. apply Rplus_le_le_0_compat. apply Rmult_le_pos; lra. lra.
    apply Rle_trans with ((105 + / 2) * U + / 36028797018963968). nra.
    assert (U <= / 16777216). { unfold U. change (/ 16777216) with (bpow radix2 (-24)). apply bpow_le. destruct f; discriminate. } lra. }
  set (X := B2R (exp_cf v r)) in * . set (cc := X / exp (B2R r) - 1).
  assert (Xc : X = exp (B2R r) * (1 + cc)). { unfold cc. field. apply Rgt_not_eq, exp_pos. }
  assert (Hcc : Rabs cc <= C).
  { apply Rmult_le_reg_r with (exp (B2R r)). apply exp_pos. rewrite <- (Rabs_pos_eq (exp (B2R r))) at 1 by (left; apply exp_pos). rewrite <- Rabs_mult.
    replace (cc * exp (B2R r)) with (X - exp (B2R r)); auto. rewrite Xc. ring. }
  set (z := B2R (conv f p) * X).
  assert (Ez : z = exp (B2R x) * ((1 + (t - 1)) * (1 + b) * (1 + cc))). { unfold z. rewrite Vc, Et, Xc, EX. ring. }
  assert (Zf : / 2 <= (1 + (t - 1)) * (1 + b) * (1 + cc) <= 3 / 2).
  { assert (F4 := four_rel (t - 1) b cc 0 A U C Ta Hb Hcc ltac:(rewrite Rabs_R0; lra) A0 ltac:(lra) C0). rewrite Rplus_0_r, Rmult_1_r in F4. apply Rabs_le_inv in F4. lra. }
  assert (Zb : bpow radix2 (2 - emax f) <= Rabs z <= 3 / 2 * bpow radix2 (emax f - 1)).
  { rewrite Ez, Rabs_mult, (Rabs_pos_eq (exp _)) by (left; apply exp_pos). rewrite (Rabs_pos_eq (_ * _)) by lra. split.
    - apply Rle_trans with (bpow radix2 (9 - emax f) * / 2); [lra|]. apply Rmult_le_compat; lra.
    - apply Rle_trans with (bpow radix2 (emax f - 9) * (3 / 2)); [|lra]. apply Rmult_le_compat; lra. }
  destruct (fmul_spec (conv f p) (exp_cf v r) Fcv Fc (round_fin f _ (proj2 Zb))) as (Vw & Fw).
  destruct (rnd_rel f z (proj1 Zb)) as (d & Hd & Ed). fold U in Hd.
  exists (conv f p *. exp_cf v r). split. { unfold exp_split. rewrite En. cbn [bind]. rewrite Ep. cbn [bind]. rewrite Er. reflexivity. }
  split; auto. unfold rel_err. rewrite Vw. fold z. fold X in Vw. change (rnd f (B2R (conv f p) * B2R (exp_cf v r))) with (rnd f z). rewrite Ed, Ez, (Rabs_pos_eq (exp _)) by (left; apply exp_pos).
  replace (exp (B2R x) * ((1 + (t - 1)) * (1 + b) * (1 + cc)) * (1 + d) - exp (B2R x)) with (((1 + (t - 1)) * (1 + b) * (1 + cc) * (1 + d) - 1) * exp (B2R x)) by ring.
  rewrite Rabs_mult, (Rabs_pos_eq (exp _)) by (left; apply exp_pos). apply Rmult_le_compat_r. left; apply exp_pos.
  eapply Rle_trans. apply (four_rel _ _ _ _ A U C Ta Hb Hcc Hd A0 ltac:(lra) C0).
  unfold A, C. change (bpow radix2 (-61)) with (/ 2305843009213693952). change (bpow radix2 (-55)) with (/ 36028797018963968). change (bpow radix2 (-54)) with (/ 18014398509481984).
  assert (0 <= exp_const (B2R r) <= 105) by (unfold exp_const; destruct Rle_dec; lra).
  assert ((exp_const (B2R r) + 2 + / 2 + / 4) * U <= c * U) by (apply Rmult_le_compat_r; lra).
  assert (exp_const (B2R r) * U <= 105 * U) by (apply Rmult_le_compat_r; lra). lra.
Qed.

(** ** exp *)
Lemma exp_check_acc v {f} (x : flt f) c : finite x = true -> Rabs (B2R x) < 2 ->
  c = (if Rle_dec (Rabs (B2R x)) (/ 2) then 8 else 106) ->
  exists w, exp_check v x = Ok w /\ finite w = true /\ rel_err (B2R w) (exp (B2R x)) (c * bpow radix2 (- prec f) + bpow radix2 (-55)).
Proof.
  intros Fx X2 Dc. set (U := bpow radix2 (- prec f)). assert (U0 : 0 < U) by apply bpow_gt_0.
  unfold exp_check. rewrite finite_not_nan, finite_not_neginf by auto.
  destruct (abs x <. fmin f) eqn:T.
  - exists (ofZ f 1). split; auto. destruct (ofZ_small f 1 ltac:(lia)) as (V & F & _). split; auto. unfold rel_err. rewrite V.
    apply flt_true_inv in T; [|rewrite abs_finite; auto|apply fmin_spec]. rewrite abs_B2R, (proj1 (fmin_spec f)) in T.
    assert (S : Rabs (B2R x) <= bpow radix2 (-60)). { apply Rlt_le. eapply Rlt_le_trans. exact T. apply bpow_le. destruct f; discriminate. }
    apply Rabs_le_inv in S. rewrite (Rabs_pos_eq (exp _)) by (left; apply exp_pos). change (bpow radix2 (-60)) with (/ 1152921504606846976) in S.
    apply Rle_trans with (bpow radix2 (-55) * exp (B2R x)). change (bpow radix2 (-55)) with (/ 36028797018963968).
    assert (E1 : / 2 <= exp (B2R x)) by interval with (i_prec 60). assert (E2 : Rabs (1 - exp (B2R x)) <= / 72057594037927936) by interval with (i_prec 100). lra.
    apply Rmult_le_compat_r. left; apply exp_pos. assert (0 <= c) by (rewrite Dc; destruct Rle_dec; lra). assert (0 <= c * U) by (apply Rmult_le_pos; lra). lra.
  - rewrite finite_not_posinf by auto.
    replace (abs x <. ofZ f 2) with true.
    + destruct (exp_cf_acc v x Fx X2) as (F & E). exists (exp_cf v x). split; auto. split; auto. unfold rel_err in E |- * . eapply Rle_trans. exact E.
      apply Rmult_le_compat_r. apply Rabs_pos. apply Rplus_le_compat_r. fold U. apply Rmult_le_compat_r. lra. rewrite Dc. unfold exp_const. destruct Rle_dec; lra.
    + symmetry. rewrite flt_spec; [|rewrite abs_finite; auto|apply two_val]. rewrite abs_B2R, (proj2 (two_val f)). apply Rlt_bool_true. auto.
Qed.
Lemma exp_check_split v {f} (x : flt f) : finite x = true -> 2 <= Rabs (B2R x) -> exp_check v x = exp_split v x.
Proof.
  intros Fx X. unfold exp_check. rewrite finite_not_nan, finite_not_neginf by auto.
  replace (abs x <. fmin f) with false. rewrite finite_not_posinf by auto. replace (abs x <. ofZ f 2) with false; auto.
  - symmetry. rewrite flt_spec; [|rewrite abs_finite; auto|apply two_val]. rewrite abs_B2R, (proj2 (two_val f)). apply Rlt_bool_false. auto.
  - symmetry. rewrite flt_spec; [|rewrite abs_finite; auto|apply fmin_spec]. rewrite abs_B2R, (proj1 (fmin_spec f)). apply Rlt_bool_false.
    apply Rle_trans with 2; auto. change 2 with (bpow radix2 1). apply bpow_le. destruct f; discriminate.
Qed.

(** ** exp is never negative and never NaN *)
Definition nonneg {f} (w : flt f) : Prop := BinarySingleNaN.is_nan w = false /\ Bsign w = false.
Lemma pos_sign {f} (w : flt f) : finite w = true -> 0 < B2R w -> Bsign w = false.
Proof.
  intros F H. destruct w as [s|s| |s m e B]; try discriminate. cbn in H; lra. destruct s; auto. exfalso.
  apply (Rlt_not_le _ _ H). cbn. apply F2R_le_0. cbn. lia.
Qed.
Lemma fmul_cases {f} (x y : flt f) : finite x = true -> finite y = true ->
  (finite (x *. y) = true /\ B2R (x *. y) = rnd f (B2R x * B2R y) /\ Bsign (x *. y) = xorb (Bsign x) (Bsign y)) \/
  (x *. y = B754_infinity (xorb (Bsign x) (Bsign y)) /\ bpow radix2 (emax f) <= Rabs (rnd f (B2R x * B2R y))).
Proof.
  intros Fx Fy. pose proof (Bmult_correct (prec f) (emax f) _ _ mode_NE x y) as C. simpl in C. fold (rnd f (B2R x * B2R y)) in C.
  change (round radix2 (SpecFloat.fexp (prec f) (emax f)) ZnearestE (B2R x * B2R y)) with (rnd f (B2R x * B2R y)) in C.
  destruct (Rlt_bool_spec (Rabs (rnd f (B2R x * B2R y))) (bpow radix2 (emax f))) as [L|L].
  - left. destruct C as (V & F & S). rewrite Fx, Fy in F. repeat split; auto. apply S. apply not_true_is_false. intros N. destruct (Bmult mode_NE x y); discriminate.
  - right. split; auto. destruct (x *. y) eqn:Q; unfold fmul in Q; rewrite Q in C; cbn in C; try discriminate. injection C as ->. auto.
Qed.
(** [low k w r]: w is +infinity or at least r up to k roundings. *)
Definition low {f} (k : nat) (w : flt f) (r : R) : Prop :=
  w = B754_infinity false \/ (finite w = true /\ r * (1 - uu f) ^ k <= B2R w).
Lemma low_fac f k : INR k * uu f <= / 2 -> / 2 <= (1 - uu f) ^ k.
Proof. intros H. pose proof (uu_pos f). pose proof (uu_small f). pose proof (bern (uu f) k ltac:(lra)). lra. Qed.
Lemma low_le {f} (w : flt f) r k m : (k <= m)%nat -> 0 <= r -> low k w r -> low m w r.
Proof.
  intros H R [->|(F & L)]; [left; auto|]. right. split; auto. eapply Rle_trans; [|exact L]. apply Rmult_le_compat_l; auto.
  pose proof (uu_pos f). pose proof (uu_small f). replace m with (k + (m - k))%nat by lia. rewrite pow_add.
  assert ((1 - uu f) ^ (m - k) <= 1) by (apply PowAcc.pow_1; lra). assert (0 <= (1 - uu f) ^ k) by (apply pow_le; lra). nra.
Qed.
Lemma inf_mul_pos {f} (y : flt f) : finite y = true -> 0 < B2R y -> (B754_infinity false : flt f) *. y = B754_infinity false /\ y *. (B754_infinity false : flt f) = B754_infinity false.
Proof.
  intros F H. assert (S := pos_sign y F H). destruct y as [s|s| |s m e B]; try discriminate. cbn in H; lra. cbn in S. subst s. split; reflexivity.
Qed.
Lemma low_mul {f} (x y : flt f) r s k m : 1 <= r -> 1 <= s -> INR (S (k + m)) * uu f <= / 2 -> low k x r -> low m y s -> low (S (k + m)) (x *. y) (r * s).
Proof.
  intros R S1 H Hx Hy. pose proof (uu_pos f) as U. pose proof (uu_small f) as U2.
  assert (Hle : forall j, (j <= S (k + m))%nat -> / 2 <= (1 - uu f) ^ j).
  { intros j Hj. apply low_fac. apply Rle_trans with (2 := H). apply Rmult_le_compat_r. lra. apply le_INR; auto. }
  assert (Pos : forall j (z : flt f) q, (j <= Datatypes.S (k + m))%nat -> 1 <= q -> q * (1 - uu f) ^ j <= B2R z -> 0 < B2R z).
  { intros j z q Hj Hq Hz. specialize (Hle j Hj). nra. }
  destruct Hx as [->|(Fx & Lx)], Hy as [->|(Fy & Ly)].
  - left. reflexivity.
  - left. apply inf_mul_pos; auto. apply (Pos m y s); auto. lia.
  - left. apply (inf_mul_pos x); auto. apply (Pos k x r); auto. lia.
  - assert (Px := Pos k x r ltac:(lia) R Lx). assert (Py := Pos m y s ltac:(lia) S1 Ly).
    destruct (fmul_cases x y Fx Fy) as [(F & V & _)|(I & _)].
    + right. split; auto. rewrite V. set (z := B2R x * B2R y).
      assert (Z1 : r * s * (1 - uu f) ^ (k + m) <= z).
      { unfold z. rewrite pow_add. replace (r * s * ((1 - uu f) ^ k * (1 - uu f) ^ m)) with (r * (1 - uu f) ^ k * (s * (1 - uu f) ^ m)) by ring.
        pose proof (Hle k ltac:(lia)). pose proof (Hle m ltac:(lia)). apply Rmult_le_compat; auto; apply Rmult_le_pos; lra. }
      assert (Z2 : / 2 <= z). { eapply Rle_trans; [|exact Z1]. pose proof (Hle (k + m)%nat ltac:(lia)). assert (1 <= r * s) by nra. nra. }
      destruct (rnd_rel f z) as (e & He & ->).
      { rewrite Rabs_pos_eq by lra. apply Rle_trans with (2 := Z2). change (/ 2) with (bpow radix2 (-1)). apply bpow_le. destruct f; discriminate. }
      apply Rabs_le_inv in He. fold (uu f) in He. cbn [pow].
      replace (r * s * ((1 - uu f) * (1 - uu f) ^ (k + m))) with (r * s * (1 - uu f) ^ (k + m) * (1 - uu f)) by ring.
      apply Rmult_le_compat; try lra. apply Rmult_le_pos. nra. apply pow_le; lra.
    + left. rewrite I. rewrite (pos_sign x), (pos_sign y); auto.
Qed.
Section Low.
Context {f : fmt} (b : R) (N : nat) (Hb : 1 <= b) (HN : INR N * uu f <= / 2).
Lemma low_powmul (x y : flt f) i j : (1 <= i)%nat -> (i + j <= N)%nat ->
  low (i - 1) x (b ^ i) -> low j y (b ^ j) -> low (i + j) (y *. x) (b ^ (i + j)).
Proof.
  intros Hi Hij Hx Hy. replace (i + j)%nat with (S (j + (i - 1))) at 1 by lia. rewrite pow_add, Rmult_comm.
  apply low_mul; auto using pow_R1_Rle. apply Rle_trans with (2 := HN). apply Rmult_le_compat_r. left; apply uu_pos. apply le_INR. lia.
Qed.
Lemma low_powsq (x : flt f) i : (1 <= i)%nat -> (i + i <= N)%nat -> low (i - 1) x (b ^ i) -> low (i + i - 1) (x *. x) (b ^ (i + i)).
Proof.
  intros Hi Hij Hx. replace (i + i - 1)%nat with (S ((i - 1) + (i - 1))) by lia. rewrite pow_add.
  apply low_mul; auto using pow_R1_Rle. apply Rle_trans with (2 := HN). apply Rmult_le_compat_r. left; apply uu_pos. apply le_INR. lia.
Qed.
Lemma pow_recur_low n : forall (x y : flt f) e i j, (0 <= e < 2 ^ Z.of_nat n)%Z -> (1 <= i)%nat -> (Z.of_nat i * e + Z.of_nat j = Z.of_nat N)%Z ->
  low (i - 1) x (b ^ i) -> low j y (b ^ j) -> exists w, pow_recur_flt (S n) x y e = Ok w /\ low N w (b ^ N).
Proof.
  induction n; intros x y e i j He Hi Hs Hx Hy.
  - cbn in He. replace e with 0%Z in * by lia. exists y. split. reflexivity. replace N with j by lia. auto.
  - change (pow_recur_flt (S (S n)) x y e) with
      (if (1 <? e)%Z then (if is_odd e then pow_recur_flt (S n) (x *. x) (y *. x) (e / 2)
         else pow_recur_flt (S n) (x *. x) y (e / 2)) else Ok (if (e =? 1)%Z then y *. x else y)).
    rewrite Nat2Z.inj_succ, Z.pow_succ_r in He by lia.
    destruct (Z.ltb_spec 1 e) as [L|L].
    + assert (Q : (i + i <= N)%nat) by nia.
      assert (D := Z.div_mod e 2 ltac:(lia)). assert (M := Z.mod_pos_bound e 2 ltac:(lia)).
      assert (Od := Zmod_odd e). rewrite <- is_odd_Zodd in Od.
      destruct (is_odd e) eqn:O; rewrite Od in D; clear Od M; set (q := (e / 2)%Z) in * ; clearbody q.
      * apply IHn with (i + i)%nat (i + j)%nat.
        -- lia.
        -- lia.
        -- rewrite !Nat2Z.inj_add. rewrite D in Hs. lia.
        -- apply low_powsq; auto.
        -- apply low_powmul; auto. nia.
      * apply IHn with (i + i)%nat j; auto.
        -- lia.
        -- lia.
        -- rewrite Nat2Z.inj_add. rewrite D in Hs. lia.
        -- apply low_powsq; auto.
    + destruct (Z.eqb_spec e 1) as [->|Ne].
      * exists (y *. x). split; auto. replace N with (i + j)%nat by lia. apply low_powmul; auto; lia.
      * exists y. split; auto. replace N with j; auto. nia.
Qed.
End Low.
Lemma pow_cases_low {f} t (x : flt f) e : in_range t e -> (0 <= e)%Z -> finite x = true -> 1 <= B2R x -> IZR e * uu f <= / 2 ->
  exists w, pow_cases_flt t x e (pow_recur_flt pow_fuel x (ofZ f 1) e) = Ok w /\ low (Z.to_nat e) w (B2R x ^ Z.to_nat e).
Proof.
  intros R He Fx X1 HN. remember (Z.to_nat e) as N eqn:DN.
  assert (EN : INR N = IZR e). { rewrite INR_IZR_INZ. f_equal. lia. } rewrite <- EN in HN.
  assert (N1 : low 0 x (B2R x ^ 1)) by (right; split; auto; cbn; lra).
  assert (T1 : low 0 (ofZ f 1) (B2R x ^ 0)).
  { destruct (ofZ_small f 1 ltac:(lia)) as (V & F & _). right. split; auto. rewrite V. cbn. lra. }
  unfold pow_cases_flt.
  destruct (Z.eqb_spec e 3) as [E3|E3].
  { exists (x *. x *. x). split. reflexivity. replace N with (1 + 2)%nat by lia.
    assert (S2 := low_powsq (B2R x) N X1 HN x 1 ltac:(lia) ltac:(lia) N1). cbn [Nat.add Nat.sub] in S2.
    apply (low_powmul (B2R x) N X1 HN x (x *. x) 1 2); auto; try lia. apply low_le with 1%nat; auto. apply pow_le; lra. }
  destruct (Z.eqb_spec e 2) as [E2|E2].
  { exists (x *. x). split. reflexivity. replace N with 2%nat by lia. apply low_le with 1%nat. lia. apply pow_le; lra.
    apply (low_powsq (B2R x) N X1 HN x 1 ltac:(lia) ltac:(lia) N1). }
  destruct (Z.eqb_spec e 1) as [E1|E1].
  { exists x. split. reflexivity. replace N with 1%nat by lia. apply low_le with 0%nat; auto. apply pow_le; lra. }
  destruct (Z.eqb_spec e 0) as [E0|E0].
  { exists (ofZ f 1). split. reflexivity. replace N with 0%nat by lia. exact T1. }
  destruct (Z.eqb_spec e (imin t)) as [Em|_].
  { exfalso. destruct t; cbn in Em; lia. }
  destruct (Z.eqb_spec e (imax t)) as [Em|_]. { exists (infty f). split. reflexivity. left. reflexivity. }
  apply (pow_recur_low (B2R x) N X1 HN 65 x (ofZ f 1) e 1 0); auto; try lia.
  split; auto. destruct R as (_ & R). apply Z.le_lt_trans with (1 := R). destruct t; reflexivity.
Qed.
Lemma fdiv_cases {f} (x y : flt f) : finite x = true -> finite y = true -> B2R y <> 0 ->
  (finite (x /. y) = true /\ B2R (x /. y) = rnd f (B2R x / B2R y) /\ Bsign (x /. y) = xorb (Bsign x) (Bsign y)) \/
  (x /. y = B754_infinity (xorb (Bsign x) (Bsign y)) /\ bpow radix2 (emax f) <= Rabs (rnd f (B2R x / B2R y))).
Proof.
  intros Fx Fy Y0. pose proof (Bdiv_correct (prec f) (emax f) _ _ mode_NE x y Y0) as C. simpl in C.
  change (round radix2 (SpecFloat.fexp (prec f) (emax f)) ZnearestE (B2R x / B2R y)) with (rnd f (B2R x / B2R y)) in C.
  destruct (Rlt_bool_spec (Rabs (rnd f (B2R x / B2R y))) (bpow radix2 (emax f))) as [L|L].
  - left. destruct C as (V & F & S). rewrite Fx in F. repeat split; auto. apply S. apply not_true_is_false. intros N. destruct (Bdiv mode_NE x y); discriminate.
  - right. split; auto. destruct (x /. y) eqn:Q; unfold fdiv in Q; rewrite Q in C; cbn in C; try discriminate. injection C as ->. auto.
Qed.
Lemma conv_cases {f} g (x : flt f) : finite x = true -> 0 <= B2R x -> Bsign x = false ->
  (finite (conv g x) = true /\ B2R (conv g x) = rnd g (B2R x) /\ Bsign (conv g x) = false) \/
  (conv g x = B754_infinity false /\ bpow radix2 (emax g) <= rnd g (B2R x)).
Proof.
  intros Fx X0 Sx. assert (G := rnd_ge_0 g _ X0). destruct (Rlt_or_le (Rabs (rnd g (B2R x))) (bpow radix2 (emax g))) as [L|L].
  - left. destruct (conv_spec g x Fx L) as (V & F & S). rewrite Sx in S. auto.
  - right. rewrite Rabs_pos_eq in L by auto. split; auto. destruct x as [s|s| |s m e B]; try discriminate.
    { exfalso. cbn [B2R] in L. rewrite rnd_0 in L. pose proof (bpow_gt_0 radix2 (emax g)). lra. }
    cbn [Bsign] in Sx. subst s. cbn [conv].
    pose proof (binary_normalize_correct (prec g) (emax g) _ _ mode_NE (cond_Zopp false (Zpos m)) e false) as C.
    cbv zeta in C. change (round_mode mode_NE) with ZnearestE in C.
    change (round radix2 (fexpf g) ZnearestE (F2R (Float radix2 (cond_Zopp false (Zpos m)) e))) with
      (rnd g (F2R (Float radix2 (cond_Zopp false (Zpos m)) e))) in C.
    change (F2R (Float radix2 (cond_Zopp false (Zpos m)) e)) with (B2R (B754_finite false m e B : flt f)) in C.
    rewrite Rlt_bool_false in C by (rewrite Rabs_pos_eq; auto).
    rewrite Rlt_bool_false in C by auto.
    destruct (binary_normalize _ _ _ _ _ _ _ _) eqn:Q; cbn in C; try discriminate. injection C as ->. reflexivity.
Qed.
Lemma mul_nonneg {f} (x y : flt f) : nonneg x -> finite y = true -> 0 < B2R y -> nonneg (x *. y).
Proof.
  intros (Nx & Sx) Fy Y. assert (Sy := pos_sign y Fy Y). destruct (finite x) eqn:Fx.
  - destruct (fmul_cases x y Fx Fy) as [(F & _ & S)|(I & _)].
    + split. destruct (x *. y); try discriminate; reflexivity. rewrite S, Sx, Sy. reflexivity.
    + rewrite I, Sx, Sy. split; reflexivity.
  - destruct x as [s|s| |s m e B]; try discriminate. cbn in Sx. subst s. rewrite (proj1 (inf_mul_pos y Fy Y)). split; reflexivity.
Qed.

(** e^n in long double for n >= 0 is infinite or at least exp(n)/4. *)
Lemma e_pow_low n : (0 <= n)%Z -> in_range I64 n -> exists p, pow_cases_flt I64 GCEM_E n (pow_recur_flt pow_fuel GCEM_E (ofZ F80 1) n) = Ok p /\
  (p = B754_infinity false \/ (finite p = true /\ exp (IZR n) / 4 <= B2R p)).
Proof.
  intros Hn R. destruct GCEM_E_near as (Fe & t & Et & Tt).
  assert (E1 : 1 <= B2R GCEM_E). { rewrite (proj2 GCEM_E_val). lra. }
  assert (NU : IZR n * uu F80 <= / 2).
  { unfold uu. change (- prec F80)%Z with (-64)%Z. apply Rle_trans with (IZR (2 ^ 63) * bpow radix2 (-64)). apply Rmult_le_compat_r. apply bpow_ge_0. apply IZR_le. destruct R as (_ & R). change (imax I64) with (2 ^ 63 - 1)%Z in R. lia.
    change (bpow radix2 (-64)) with (/ 18446744073709551616). change (2 ^ 63)%Z with 9223372036854775808%Z. lra. }
  destruct (pow_cases_low I64 GCEM_E n R Hn Fe E1 NU) as (p & Ep & [I|(F & L)]); exists p; split; auto. right. split; auto.
  eapply Rle_trans; [|exact L]. clear L Ep.
  assert (EN : INR (Z.to_nat n) = IZR n). { rewrite INR_IZR_INZ. f_equal. lia. } rewrite <- EN in * . set (N := Z.to_nat n) in * .
  assert (Q := low_fac F80 N NU). rewrite Et, Rpow_mult_distr, exp_INR. cbn [pow] in Tt. rewrite !Rmult_1_r in Tt.
  assert (Q2 : (1 - uu F80) ^ N <= t ^ N). { apply pow_incr. pose proof (uu_small F80). lra. }
  pose proof (exp_pos (INR N)). set (E := exp (INR N)) in * .
  apply Rle_trans with (E * / 2 * / 2). lra. apply Rmult_le_compat; try lra. apply Rmult_le_compat; lra.
Qed.
Lemma rnd_up f x : 0 <= x -> rnd f x <= (1 + / 1024) * x + bpow radix2 (emin f).
Proof.
  intros X. destruct (rnd_err f x) as (e & d & He & Hd & _ & ->). fold (uu f) in He. pose proof (uu_small f). apply Rabs_le_inv in He. apply Rabs_le_inv in Hd.
  assert (bpow radix2 (emin f - 1) <= bpow radix2 (emin f)) by (apply bpow_le; lia). nra.
Qed.
(** e^n converted to the format f, for every exponent find_whole can give. *)
Lemma e_pow_conv f n : in_range I64 n -> exists p, pow_integral I64 GCEM_E n = Ok p /\ nonneg (conv f p) /\
  ((0 <= n)%Z -> 4 * bpow radix2 (emax f) <= exp (IZR n) -> conv f p = B754_infinity false) /\
  ((n < 0)%Z -> finite (conv f p) = true /\ 0 <= B2R (conv f p) <= (1 + / 100) * 4 * exp (IZR n) + 3 * bpow radix2 (emin f)).
Proof.
  intros R. assert (B0 := bpow_gt_0 radix2 (emin f)).
  destruct (Z_lt_le_dec n 0) as [L|L].
  - assert (X0 := exp_pos (IZR n)).
    destruct (Z.eq_dec n (imin I64)) as [->|Nm].
    { exists (ofZ F80 0). split. reflexivity. assert (Z : ofZ F80 0 = B754_zero false) by (apply B2SF_inj; vm_compute; reflexivity). rewrite Z. cbn [conv].
      split. split; reflexivity. split. lia. intros _. split. reflexivity. cbn [B2R]. lra. }
    assert (R' : in_range I64 (- n)). { destruct R as (R1 & R2). change (imin I64) with (- 2 ^ 63)%Z in * . split; change (imin I64) with (- 2 ^ 63)%Z; change (imax I64) with (2 ^ 63 - 1)%Z; lia. }
    destruct (e_pow_low (- n) ltac:(lia) R') as (q & Eq & Hq).
    assert (E : pow_integral I64 GCEM_E n = Ok (ofZ F80 1 /. q)).
    { unfold pow_integral. unfold pow_cases_flt at 1.
      destruct (Z.eqb_spec n 3); [lia|]. destruct (Z.eqb_spec n 2); [lia|]. destruct (Z.eqb_spec n 1); [lia|]. destruct (Z.eqb_spec n 0); [lia|].
      destruct (Z.eqb_spec n (imin I64)); [contradiction|]. destruct (Z.eqb_spec n (imax I64)) as [->|_]; [discriminate L|].
      change (isigned I64) with true. replace (n <? 0)%Z with true by (symmetry; apply Z.ltb_lt; lia). cbn [andb].
      unfold ineg. rewrite iarith_ok by exact R'. cbn [bind]. change (promote I64) with I64. rewrite Eq. reflexivity. }
    exists (ofZ F80 1 /. q). split. exact E. destruct (ofZ_small F80 1 ltac:(lia)) as (V1 & F1 & S1).
    assert (P : finite (ofZ F80 1 /. q) = true /\ Bsign (ofZ F80 1 /. q) = false /\ 0 <= B2R (ofZ F80 1 /. q) <= (1 + / 1024) * 4 * exp (IZR n) + bpow radix2 (emin F80)).
    { destruct Hq as [->|(Fq & Lq)].
      - assert (Z : ofZ F80 1 /. B754_infinity false = B754_zero false) by (apply B2SF_inj; vm_compute; reflexivity). rewrite Z. cbn [B2R]. split; [reflexivity|]. split; [reflexivity|]. pose proof (bpow_gt_0 radix2 (emin F80)). lra.
      - assert (XN := exp_pos (IZR (- n))). assert (Q0 : 0 < B2R q) by lra. assert (EE : exp (IZR n) = / exp (IZR (- n))) by (rewrite <- exp_Ropp; f_equal; rewrite opp_IZR; ring).
        assert (X1 : 1 <= exp (IZR (- n))). { rewrite <- exp_0. apply exp_le. apply IZR_le. lia. }
        assert (I4 : / B2R q <= 4 * exp (IZR n)).
        { rewrite EE. replace (4 * / exp (IZR (- n))) with (/ (exp (IZR (- n)) / 4)) by (field; lra). apply Rinv_le; lra. }
        assert (I0 : 0 < / B2R q) by (apply Rinv_0_lt_compat; auto).
        assert (I5 : rnd F80 (1 / B2R q) <= (1 + / 1024) * 4 * exp (IZR n) + bpow radix2 (emin F80)).
        { eapply Rle_trans. apply rnd_up. unfold Rdiv. lra. apply Rplus_le_compat_r. unfold Rdiv. rewrite Rmult_1_l, Rmult_assoc. apply Rmult_le_compat_l; lra. }
        assert (I6 : 0 <= rnd F80 (1 / B2R q)) by (apply rnd_ge_0; unfold Rdiv; lra).
        destruct (fdiv_cases (ofZ F80 1) q F1 Fq ltac:(lra)) as [(F & V & S)|(I & O)].
        + rewrite V1 in V. rewrite (pos_sign q Fq Q0), (pos_sign _ F1 ltac:(rewrite V1; lra)) in S. rewrite V. auto.
        + exfalso. rewrite V1, Rabs_pos_eq in O by auto. assert (exp (IZR n) <= 1). { rewrite <- exp_0. apply exp_le. apply IZR_le; lia. }
          assert (bpow radix2 (emin F80) <= 1). { change 1 with (bpow radix2 0). apply bpow_le. discriminate. }
          assert (bpow radix2 10 <= bpow radix2 (emax F80)) by (apply bpow_le; discriminate). change (bpow radix2 10) with 1024 in * . lra. }
    set (p := ofZ F80 1 /. q) in * . clearbody p. destruct P as (Fp & Sp & Pp).
    assert (U : rnd f (B2R p) <= (1 + / 100) * 4 * exp (IZR n) + 3 * bpow radix2 (emin f)).
    { eapply Rle_trans. apply rnd_up. lra. assert (bpow radix2 (emin F80) <= bpow radix2 (emin f)) by (apply bpow_le; destruct f; discriminate). lra. }
    destruct (conv_cases f p Fp ltac:(lra) Sp) as [(F & V & S)|(I & O)].
    + split. split; auto. destruct (conv f p); try discriminate; reflexivity. split. lia. intros _. split; auto. rewrite V. split; auto. apply rnd_ge_0; lra.
    + exfalso. assert (exp (IZR n) <= 1). { rewrite <- exp_0. apply exp_le. apply IZR_le; lia. }
      assert (bpow radix2 (emin f) <= 1). { change 1 with (bpow radix2 0). apply bpow_le. destruct f; discriminate. }
      assert (bpow radix2 10 <= bpow radix2 (emax f)) by (apply bpow_le; destruct f; discriminate). change (bpow radix2 10) with 1024 in * . lra.
  - destruct (e_pow_low n L R) as (p & Ep & Hp). exists p.
    assert (E : pow_integral I64 GCEM_E n = Ok p).
    { unfold pow_integral. replace (n <? 0)%Z with false by (symmetry; apply Z.ltb_ge; auto). rewrite andb_false_r. exact Ep. }
    split. exact E. destruct Hp as [->|(Fp & Lp)]. { cbn [conv]. split. split; reflexivity. split; auto. lia. }
    assert (X0 := exp_pos (IZR n)). assert (P0 : 0 < B2R p) by lra.
    destruct (conv_cases f p Fp ltac:(lra) (pos_sign p Fp P0)) as [(F & V & S)|(I & O)].
    + split. split; auto. destruct (conv f p); try discriminate; reflexivity. split; [|lia]. intros _ B. exfalso.
      assert (G : bpow radix2 (emax f) <= B2R (conv f p)).
      { rewrite V. apply rnd_ge_fmt; [|lra]. apply generic_format_bpow. unfold fexpf, SpecFloat.fexp, SpecFloat.emin. destruct f; cbn; lia. }
      pose proof (B2R_lt_emax (conv f p)) as Q. rewrite Rabs_pos_eq in Q. lra. apply Rle_trans with (2 := G). apply bpow_ge_0.
    + rewrite I. split. split; reflexivity. split; auto. lia.
Qed.
Lemma exp_cf_pos v {f} (r : flt f) : finite r = true -> Rabs (B2R r) < 2 -> finite (exp_cf v r) = true /\ 0 < B2R (exp_cf v r) <= (1 + / 100) * exp (B2R r).
Proof.
  intros Fr Hr. destruct (exp_cf_acc v r Fr Hr) as (F & E). split; auto. unfold rel_err in E. pose proof (exp_pos (B2R r)) as X. rewrite (Rabs_pos_eq (exp _)) in E by lra.
  assert (C : (exp_const (B2R r) + / 2) * bpow radix2 (- prec f) + bpow radix2 (-55) <= / 100).
  { assert (0 <= exp_const (B2R r) <= 105) by (unfold exp_const; destruct Rle_dec; lra).
    assert (0 < bpow radix2 (- prec f) <= / 16777216). { split. apply bpow_gt_0. change (/ 16777216) with (bpow radix2 (-24)). apply bpow_le. destruct f; discriminate. }
    change (bpow radix2 (-55)) with (/ 36028797018963968). nra. }
  apply Rabs_le_inv in E. nra.
Qed.
Lemma exp_check_range v {f} (x : flt f) : finite x = true -> Rabs (B2R x) <= IZR (2 ^ 63 - 1) ->
  exists w, exp_check v x = Ok w /\ nonneg w /\
    (bpow radix2 (emax f + 4) <= exp (B2R x) -> w = B754_infinity false) /\
    (B2R x < 0 -> finite w = true /\ B2R w <= 5 * exp (B2R x) + bpow radix2 (emin f + 5)).
Proof.
  intros Fx X. assert (B5 : bpow radix2 (emin f + 5) = 32 * bpow radix2 (emin f)) by (rewrite bpow_plus; cbn; ring). assert (B0 := bpow_gt_0 radix2 (emin f)).
  destruct (Rlt_or_le (Rabs (B2R x)) 2) as [L|L].
  - destruct (exp_check_acc v x _ Fx L eq_refl) as (w & Ew & Fw & Rw). exists w. split. exact Ew.
    unfold rel_err in Rw. assert (X0 := exp_pos (B2R x)). rewrite (Rabs_pos_eq (exp _)) in Rw by lra.
    assert (C : (if Rle_dec (Rabs (B2R x)) (/ 2) then 8 else 106) * bpow radix2 (- prec f) + bpow radix2 (-55) <= / 100).
    { assert (0 < bpow radix2 (- prec f) <= / 16777216). { split. apply bpow_gt_0. change (/ 16777216) with (bpow radix2 (-24)). apply bpow_le. destruct f; discriminate. }
      change (bpow radix2 (-55)) with (/ 36028797018963968). destruct Rle_dec; nra. }
    assert (W : 0 < B2R w <= (1 + / 100) * exp (B2R x)) by (apply Rabs_le_inv in Rw; nra).
    split. split. destruct w; try discriminate; reflexivity. apply pos_sign; tauto.
    split. 2: intros _; split; auto; lra.
    intros O. exfalso. assert (exp (B2R x) < 8). { apply Rlt_trans with (exp 2). apply exp_increasing. apply Rle_lt_trans with (2 := L). apply Rle_abs. interval. }
    assert (bpow radix2 10 <= bpow radix2 (emax f + 4)) by (apply bpow_le; destruct f; discriminate). change (bpow radix2 10) with 1024 in * . lra.
  - rewrite (exp_check_split v x Fx L). unfold exp_split.
    destruct (whole_frac x Fx) as (n & r & En & Er & Fr & Vr & Rn & Hp & Hneg). { split; auto. lra. }
    assert (Hr : Rabs (B2R r) < 2). { destruct (Rtotal_order (B2R x) 0) as [Q|[Q|Q]]. apply Rabs_lt. specialize (Hneg Q). lra. rewrite Q, Rabs_R0 in L. lra. apply Rabs_lt. specialize (Hp Q). lra. }
    destruct (exp_cf_pos v r Fr Hr) as (Fc & Cp).
    destruct (e_pow_conv f n Rn) as (p & Ep & Np & Op & Lp).
    exists (conv f p *. exp_cf v r). split. { rewrite En. cbn [bind]. rewrite Ep. cbn [bind]. rewrite Er. reflexivity. }
    split. apply mul_nonneg; auto; tauto.
    assert (EX : exp (B2R x) = exp (IZR n) * exp (B2R r)). { rewrite <- exp_plus. f_equal. rewrite Vr. ring. }
    assert (Xr := exp_pos (B2R r)). assert (Xn := exp_pos (IZR n)).
    assert (E8 : exp (B2R r) < 8). { apply Rlt_trans with (exp 2). apply exp_increasing. apply Rle_lt_trans with (2 := Hr). apply Rle_abs. interval. }
    split.
    + intros O. assert (Xp : 0 < B2R x).
      { apply Rnot_le_lt. intros Q. assert (exp (B2R x) <= 1) by (rewrite <- exp_0; apply exp_le; auto). assert (bpow radix2 10 <= bpow radix2 (emax f + 4)) by (apply bpow_le; destruct f; discriminate). change (bpow radix2 10) with 1024 in * . lra. }
      specialize (Hp Xp). rewrite Rabs_pos_eq in L by lra.
      assert (E2 : exp (B2R r) <= 2). { apply Rle_trans with (exp (/ 2)). apply exp_le; lra. interval. }
      rewrite Op. apply (inf_mul_pos (exp_cf v r) Fc). tauto.
      { apply le_IZR. left. lra. }
      rewrite bpow_plus in O. change (bpow radix2 4) with 16 in O. pose proof (bpow_gt_0 radix2 (emax f)). nra.
    + intros Q. specialize (Hneg Q). rewrite Rabs_left in L by auto.
      assert (Ln : (n < 0)%Z). { apply lt_IZR. lra. }
      destruct (Lp Ln) as (Fv & V0 & V1).
      assert (Z1 : B2R (conv f p) * B2R (exp_cf v r) <= (1 + / 20) * 4 * exp (B2R x) + 25 * bpow radix2 (emin f)).
      { rewrite EX. apply Rle_trans with (((1 + / 100) * 4 * exp (IZR n) + 3 * bpow radix2 (emin f)) * ((1 + / 100) * exp (B2R r))).
        apply Rmult_le_compat; lra. assert (0 < exp (IZR n) * exp (B2R r)) by nra. nra. }
      assert (Z0 : 0 <= B2R (conv f p) * B2R (exp_cf v r)) by (apply Rmult_le_pos; lra).
      assert (Z2 : rnd f (B2R (conv f p) * B2R (exp_cf v r)) <= 5 * exp (B2R x) + 32 * bpow radix2 (emin f)).
      { eapply Rle_trans. apply rnd_up; auto. assert (0 < exp (B2R x)) by apply exp_pos. lra. }
      destruct (fmul_cases (conv f p) (exp_cf v r) Fv Fc) as [(F & V & _)|(I & O)].
      * split; auto. rewrite V, B5. auto.
      * exfalso. rewrite Rabs_pos_eq in O by (apply rnd_ge_0; auto). assert (exp (B2R x) <= 1). { rewrite <- exp_0. apply exp_le. lra. }
        assert (bpow radix2 (emin f) <= 1). { change 1 with (bpow radix2 0). apply bpow_le. destruct f; discriminate. }
        assert (bpow radix2 10 <= bpow radix2 (emax f)) by (apply bpow_le; destruct f; discriminate). change (bpow radix2 10) with 1024 in * . lra.
Qed.

(** ** Public functions *)
Lemma api_pow_near v f (x : flt f) t n : in_range t n -> (0 <= n)%Z -> n <> imax t -> finite x = true ->
  IZR n * bpow radix2 (- prec f) <= / 4 -> bpow radix2 (3 - emax f) <= Rabs (B2R x ^ Z.to_nat n) <= bpow radix2 (emax f - 1) ->
  exists w, gcem_pow v (AFlt f x) (AInt t n) = Ok (AFlt f w) /\ finite w = true /\ rel_err (B2R w) (B2R x ^ Z.to_nat n) (2 * IZR n * bpow radix2 (- prec f)).
Proof.
  intros R Hn Hm Fx HN HB. destruct (pow_integral_near t x n R Hn Hm Fx HN HB) as (w & E & N). exists w.
  split. unfold gcem_pow. rewrite E. reflexivity. split. apply N.
  assert (EN : INR (Z.to_nat n) = IZR n). { rewrite INR_IZR_INZ. f_equal. lia. }
  unfold rel_err. rewrite <- EN in * . apply near_err; auto. unfold uu. lra.
Qed.
Lemma api_pow_near_neg v f (x : flt f) t n : in_range t n -> isigned t = true -> (n < 0)%Z -> n <> imin t -> (- n)%Z <> imax (promote t) -> finite x = true ->
  (2 * IZR (- n) + 1) * bpow radix2 (- prec f) <= / 4 -> bpow radix2 (3 - emax f) <= Rabs (B2R x ^ Z.to_nat (- n)) <= bpow radix2 (emax f - 3) ->
  exists w, gcem_pow v (AFlt f x) (AInt t n) = Ok (AFlt f w) /\ finite w = true /\
    rel_err (B2R w) (/ B2R x ^ Z.to_nat (- n)) ((4 * IZR (- n) + 2) * bpow radix2 (- prec f)).
Proof.
  intros R S Hn Hi Hm Fx HN HB. destruct (pow_integral_near_neg t x n R S Hn Hi Hm Fx HN HB) as (w & E & N). exists w.
  split. unfold gcem_pow. rewrite E. reflexivity. split. apply N.
  assert (EN : INR (Datatypes.S (2 * Z.to_nat (- n))) = 2 * IZR (- n) + 1).
  { rewrite S_INR, mult_INR, (INR_IZR_INZ (Z.to_nat _)), Z2Nat.id by lia. simpl (INR 2). ring. }
  unfold rel_err. replace (4 * IZR (- n) + 2) with (2 * INR (Datatypes.S (2 * Z.to_nat (- n)))) by (rewrite EN; ring).
  apply near_err; auto. rewrite EN. unfold uu. lra.
Qed.
Lemma api_exp_tiny v f (x : flt f) : finite x = true -> Rabs (B2R x) <= / 2 ->
  exists w, gcem_exp v (AFlt f x) = Ok w /\ finite w = true /\ rel_err (B2R w) (exp (B2R x)) (8 * bpow radix2 (- prec f) + bpow radix2 (-55)).
Proof.
  intros Fx X. unfold gcem_exp, lift1. cbn [ret_fmt ret_val]. apply exp_check_acc; auto. lra. destruct Rle_dec; [reflexivity|contradiction].
Qed.
Lemma api_exp_small v f (x : flt f) : finite x = true -> Rabs (B2R x) < 2 ->
  exists w, gcem_exp v (AFlt f x) = Ok w /\ finite w = true /\ rel_err (B2R w) (exp (B2R x)) (106 * bpow radix2 (- prec f) + bpow radix2 (-55)).
Proof.
  intros Fx X. destruct (exp_check_acc v x _ Fx X eq_refl) as (w & E & F & R). exists w. split. exact E. split; auto.
  unfold rel_err in * . eapply Rle_trans. apply R. apply Rmult_le_compat_r. apply Rabs_pos. apply Rplus_le_compat_r. apply Rmult_le_compat_r. apply bpow_ge_0. destruct Rle_dec; lra.
Qed.
Lemma api_exp_pos v f (x : flt f) : finite x = true -> 2 <= B2R x -> exp (B2R x + 2) <= bpow radix2 (emax f - 9) ->
  exists w, gcem_exp v (AFlt f x) = Ok w /\ finite w = true /\
    rel_err (B2R w) (exp (B2R x)) (10 * bpow radix2 (- prec f) + bpow radix2 (-54) + (B2R x + 3) * bpow radix2 (-61)).
Proof.
  intros Fx X B. assert (A : Rabs (B2R x) = B2R x) by (apply Rabs_pos_eq; lra).
  unfold gcem_exp, lift1. cbn [ret_fmt ret_val]. rewrite exp_check_split by (auto; lra).
  replace (B2R x + 3) with (Rabs (B2R x) + 3) by (rewrite A; ring). apply exp_split_acc; auto. lra. rewrite A; auto. destruct Rlt_dec; [reflexivity|lra].
Qed.
Lemma api_exp_neg v f (x : flt f) : finite x = true -> B2R x <= -2 -> exp (2 - B2R x) <= bpow radix2 (emax f - 9) ->
  exists w, gcem_exp v (AFlt f x) = Ok w /\ finite w = true /\
    rel_err (B2R w) (exp (B2R x)) (108 * bpow radix2 (- prec f) + bpow radix2 (-54) + (3 - B2R x) * bpow radix2 (-61)).
Proof.
  intros Fx X B. assert (A : Rabs (B2R x) = - B2R x) by (apply Rabs_left; lra).
  unfold gcem_exp, lift1. cbn [ret_fmt ret_val]. rewrite exp_check_split by (auto; lra).
  replace (3 - B2R x) with (Rabs (B2R x) + 3) by (rewrite A; ring). apply exp_split_acc; auto. lra. rewrite A. replace (- B2R x + 2) with (2 - B2R x) by ring. auto. destruct Rlt_dec; [lra|reflexivity].
Qed.
Lemma api_exp_range v f (x : flt f) : finite x = true -> Rabs (B2R x) <= IZR (2 ^ 63 - 1) ->
  exists w, gcem_exp v (AFlt f x) = Ok w /\ BinarySingleNaN.is_nan w = false /\ Bsign w = false /\
    (bpow radix2 (emax f + 4) <= exp (B2R x) -> w = B754_infinity false) /\
    (B2R x < 0 -> finite w = true /\ B2R w <= 5 * exp (B2R x) + bpow radix2 (emin f + 5)).
Proof.
  intros Fx X. destruct (exp_check_range v x Fx X) as (w & E & (N & S) & H). exists w. split. exact E. split; auto.
Qed.
