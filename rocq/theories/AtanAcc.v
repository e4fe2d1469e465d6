(** * Accuracy of atan over the whole range *)
From Verif Require Import Base ModelBasic ModelInt ModelElem ModelApi FltLemmas Spec IntProofs BasicProofs ConvLemmas CxxProofs TotalProofs FPErr PowAcc ExpAcc MiscProofs.
From Coq Require Import Lra Psatz.
From Coquelicot Require Import Coquelicot.
From Verif Require Import CFAcc SinAcc TanhAcc.
From Interval Require Import Tactic.
Open Scope R_scope.

(** ** The series of atan (1/x), truncated *)
Definition pw (k : nat) (y : R) : R := y ^ S k / INR (S k).
Definition tr (i : nat) (y : R) : R := pw (4 * i + 2) y - pw (4 * i + 4) y.
Fixpoint sr (n i : nat) (y : R) : R := match n with O => tr i y | S n' => tr i y + sr n' (S i) y end.
Lemma pw_derive k y : is_derive (pw k) y (y ^ k).
Proof. unfold pw. auto_derive; auto. cbn [pred]. rewrite Rmult_1_l, Rmult_1_r || idtac. field. change (INR (S k) <> 0). apply not_0_INR. discriminate. Qed.
Lemma tr_derive i y : is_derive (tr i) y (y ^ (4 * i + 2) - y ^ (4 * i + 4)).
Proof. unfold tr. apply (is_derive_minus (V:=R_NormedModule)); apply pw_derive. Qed.
Lemma sr_derive n : forall i y, is_derive (sr n i) y (y ^ (4 * i + 2) * (1 - y ^ (4 * n + 4)) / (1 + y * y)).
Proof.
  induction n as [|n IH]; intros i y; cbn [sr].
  - evar_last. apply tr_derive. change (4 * 0 + 4)%nat with 4%nat. rewrite (pow_add y (4 * i) 4), (pow_add y (4 * i) 2). generalize (y ^ (4 * i)). intros a. cbn [pow]. field. nra.
  - evar_last. apply (is_derive_plus (V:=R_NormedModule) (tr i) (sr n (S i))). apply tr_derive. apply IH. unfold plus. cbn -[pow Nat.mul Nat.add].
    replace (4 * S i + 2)%nat with (4 * i + 6)%nat by lia. replace (4 * S n + 4)%nat with ((4 * n + 4) + 4)%nat by lia. rewrite (pow_add y (4 * i) 4), (pow_add y (4 * i) 2), (pow_add y (4 * i) 6), (pow_add y (4 * n + 4) 4).
    generalize (y ^ (4 * i)) (y ^ (4 * n + 4)). intros a b. cbn [pow]. field. nra.
Qed.
Lemma pw_0 k : pw k 0 = 0.
Proof. unfold pw. cbn [pow]. unfold Rdiv. ring. Qed.
Lemma sr_0 n : forall i, sr n i 0 = 0.
Proof. induction n as [|n IH]; intros i; cbn [sr]; unfold tr; rewrite ?pw_0, ?IH; ring. Qed.
Lemma grow (g g' : R -> R) y : 0 <= y -> (forall c, 0 <= c <= y -> is_derive g c (g' c) /\ 0 <= g' c) -> g 0 = 0 -> 0 <= g y.
Proof.
  intros Y H G0. destruct (MVT_gen g 0 y g') as (c & Hc & E).
  - intros x Hx. rewrite Rmin_left, Rmax_right in Hx by lra. apply H. lra.
  - intros x Hx. rewrite Rmin_left, Rmax_right in Hx by lra. apply continuity_pt_filterlim. apply (ex_derive_continuous g). exists (g' x). apply H; auto.
  - rewrite Rmin_left, Rmax_right in Hc by lra. destruct (H c Hc) as (_ & P). rewrite G0 in E. nra.
Qed.
Lemma atan_series n y : 0 <= y -> atan y <= y - sr n 0 y <= atan y + pw (4 * n + 6) y.
Proof.
  intros Y. split.
  - cut (0 <= y - sr n 0 y - atan y). lra.
    apply (grow (fun y => y - sr n 0 y - atan y) (fun c => c ^ (4 * n + 6) / (1 + c * c))); auto.
    + intros c Hc. split.
      * evar_last. apply (is_derive_minus (V:=R_NormedModule) (fun y => y - sr n 0 y) atan). apply (is_derive_minus (V:=R_NormedModule) (fun y => y) (sr n 0)). apply is_derive_id. apply sr_derive. apply is_derive_atan.
        unfold minus, plus, opp, one. cbn -[pow Nat.mul Nat.add]. replace (4 * n + 6)%nat with ((4 * n + 4) + 2)%nat by lia. rewrite (pow_add c (4 * n + 4) 2). generalize (c ^ (4 * n + 4)). intros a. change (4 * 0 + 2)%nat with 2%nat. cbn [pow]. unfold Rsqr. field. nra.
      * apply Rdiv_le_0_compat. apply pow_le; lra. nra.
    + rewrite sr_0, atan_0. ring.
  - cut (0 <= pw (4 * n + 6) y - (y - sr n 0 y - atan y)). lra.
    apply (grow (fun y => pw (4 * n + 6) y - (y - sr n 0 y - atan y)) (fun c => c ^ (4 * n + 6) - c ^ (4 * n + 6) / (1 + c * c))); auto.
    + intros c Hc. split.
      * evar_last. apply (is_derive_minus (V:=R_NormedModule) (pw (4 * n + 6)) (fun y => y - sr n 0 y - atan y)). apply pw_derive. apply (is_derive_minus (V:=R_NormedModule) (fun y => y - sr n 0 y) atan). apply (is_derive_minus (V:=R_NormedModule) (fun y => y) (sr n 0)). apply is_derive_id. apply sr_derive. apply is_derive_atan.
        unfold minus, plus, opp, one. cbn -[pow Nat.mul Nat.add]. replace (4 * n + 6)%nat with ((4 * n + 4) + 2)%nat by lia. rewrite (pow_add c (4 * n + 4) 2). generalize (c ^ (4 * n + 4)). intros a. change (4 * 0 + 2)%nat with 2%nat. cbn [pow]. unfold Rsqr. field. nra.
      * assert (P : 0 <= c ^ (4 * n + 6)) by (apply pow_le; lra). cut (c ^ (4 * n + 6) / (1 + c * c) <= c ^ (4 * n + 6)). lra. apply Rmult_le_reg_r with (1 + c * c). nra. unfold Rdiv. rewrite Rmult_assoc, Rinv_l, Rmult_1_r by nra. nra.
    + rewrite pw_0, sr_0, atan_0. ring.
Qed.

(** ** Rounding of the terms *)
Lemma yN_bound (y : R) k : 0 < y <= 2 / 5 -> 0 < y ^ k /\ y ^ (k + 2) <= 4 / 25 * y ^ k /\ y ^ (k + 4) <= 16 / 625 * y ^ k.
Proof.
  intros H. assert (P : 0 < y ^ k) by (apply pow_lt; lra). rewrite !pow_add, !(Rmult_comm (y ^ k)). assert (Q : 0 < y * y <= 4 / 25) by nra. split; auto. split; (apply Rmult_le_compat_r; [lra|]). replace (y ^ 2) with (y * y) by ring. lra. replace (y ^ 4) with ((y * y) * (y * y)) by ring. nra.
Qed.
Lemma inr_ge3 i : 3 <= INR (4 * i + 3).
Proof. rewrite plus_INR, mult_INR. assert (0 <= INR i) by apply pos_INR. cbn [INR]. lra. Qed.
Lemma tr_bound i y : 0 < y <= 2 / 5 -> 0 <= tr i y <= / 3 * y ^ (4 * i + 3).
Proof.
  intros H. unfold tr, pw. replace (S (4 * i + 2)) with (4 * i + 3)%nat by lia. replace (S (4 * i + 4)) with (4 * i + 3 + 2)%nat by lia.
  destruct (yN_bound y (4 * i + 3) H) as (P & Q & _). assert (G := inr_ge3 i). rewrite (plus_INR (4 * i + 3) 2). cbn [INR]. set (N := INR (4 * i + 3)) in * . set (Y := y ^ (4 * i + 3)) in * . set (Z := y ^ (4 * i + 3 + 2)) in * .
  assert (0 < Z) by (unfold Z; apply pow_lt; lra). assert (I3 : / N <= / 3) by (apply Rinv_le; lra). assert (IN : 0 < / (N + (1 + 1)) <= / N) by (split; [apply Rinv_0_lt_compat|apply Rinv_le]; lra).
  unfold Rdiv. assert (0 <= Z * / (N + (1 + 1)) <= Y * / N) by (split; [apply Rmult_le_pos|apply Rmult_le_compat]; lra). assert (Y * / N <= / 3 * Y) by (rewrite (Rmult_comm (/ 3)); apply Rmult_le_compat_l; lra). lra.
Qed.
Lemma sr_bound n : forall i y, 0 < y <= 2 / 5 -> 0 <= sr n i y <= 2 / 5 * y ^ (4 * i + 3).
Proof.
  induction n as [|n IH]; intros i y H; cbn [sr]; assert (B := tr_bound i y H); destruct (yN_bound y (4 * i + 3) H) as (P & _ & Q). lra.
  specialize (IH (S i) y H). replace (4 * S i + 3)%nat with (4 * i + 3 + 4)%nat in IH by lia. lra.
Qed.
Section Series.
Variables (f : fmt) (x : flt f).
Let X := B2R x.
Let y := / X.
Hypothesis (Fx : finite x = true) (Xlo : 5 / 2 <= X).
Lemma y_rng : 0 < y <= 2 / 5.
Proof. unfold y. split. apply Rinv_0_lt_compat; lra. replace (2 / 5) with (/ (5 / 2)) by field. apply Rinv_le; lra. Qed.
Lemma ofZ_near z : (Z.abs z <= 16777216)%Z -> near 0 (ofZ f z) (IZR z).
Proof. intros H. destruct (ofZ_small f z H) as (V & F & _). rewrite <- V. apply near_exact; auto. Qed.
Lemma INRu k : (k <= 1000)%nat -> INR k * uu f <= / 4.
Proof. intros H. assert (L : INR k <= 1000). { apply le_INR in H. rewrite (INR_IZR_INZ 1000) in H. exact H. } assert (u0 := uu_pos f). assert (u1 := uf_le f). change (bpow radix2 (-24)) with (/ 16777216) in u1. change (uf f) with (uu f) in u1. assert (0 <= INR k) by apply pos_INR. nra. Qed.
Lemma rng_ok r : / 85070591730234615865843651857942052864 * 2 <= Rabs r <= 85070591730234615865843651857942052864 -> bpow radix2 (3 - emax f) <= Rabs r <= bpow radix2 (emax f - 1).
Proof.
  intros (A & B). change 85070591730234615865843651857942052864 with (bpow radix2 126) in * . split.
  - eapply Rle_trans; [|exact A]. replace (/ bpow radix2 126 * 2) with (bpow radix2 (-125)). apply bpow_le. destruct f; discriminate. rewrite <- bpow_opp, Rmult_comm, b2. reflexivity.
  - eapply Rle_trans; [exact B|]. apply bpow_le. destruct f; discriminate.
Qed.
Lemma rng_big r : 1 <= r <= 85070591730234615865843651857942052864 -> bpow radix2 (3 - emax f) <= Rabs r <= bpow radix2 (emax f - 1).
Proof. intros H. apply rng_ok. rewrite Rabs_pos_eq; lra. Qed.
Lemma rng_inv r : 1 <= r <= 42535295865117307932921825928971026432 -> bpow radix2 (3 - emax f) <= Rabs (1 / r) <= bpow radix2 (emax f - 1).
Proof. intros H. apply rng_ok. assert (I : 0 < / r <= 1) by (split; [apply Rinv_0_lt_compat; lra|rewrite <- Rinv_1; apply Rinv_le; lra]). assert (/ 42535295865117307932921825928971026432 <= / r) by (apply Rinv_le; lra). unfold Rdiv. rewrite Rmult_1_l, Rabs_pos_eq; lra. Qed.
Lemma X_pow k : 1 <= X ^ k.
Proof. apply pow_R1_Rle. lra. Qed.
Definition B119 : R := 664613997892457936451903530140172288.
Lemma xx_near : X ^ 2 <= B119 -> near 1 (x *. x) (X ^ 2).
Proof.
  intros H. replace (X ^ 2) with (X * X) in * by ring. apply (near_mul x x X X 0 0); try (apply near_exact; auto). apply INRu. lia. apply rng_big. unfold B119 in H. split. nra. lra.
Qed.
(** One term of the series. *)
Lemma term_acc i (q : flt f) : (i <= 8)%nat -> near (4 * i + 3) q (X ^ (4 * i + 3)) -> X ^ (4 * i + 5) <= B119 -> X ^ (4 * i + 3) <= bpow radix2 80 ->
  let t := atan_series_order_calc (x *. x) q (Z.of_nat i + 2) in finite t = true /\ Rabs (B2R t - tr i y) <= 8 * uf f * y ^ (4 * i + 3).
Proof.
  intros Hi Hq HX HX80. cbv zeta. unfold atan_series_order_calc. replace ((Z.of_nat i + 2 - 1) * 4 - 1)%Z with (4 * Z.of_nat i + 3)%Z by ring. replace ((Z.of_nat i + 2 - 1) * 4 + 1)%Z with (4 * Z.of_nat i + 5)%Z by ring.
  assert (N1 : IZR (4 * Z.of_nat i + 3) = INR (4 * i + 3)) by (rewrite INR_IZR_INZ; f_equal; lia). assert (N2 : IZR (4 * Z.of_nat i + 5) = INR (4 * i + 3) + 2) by (rewrite INR_IZR_INZ, <- plus_IZR; f_equal; lia).
  assert (M1 := ofZ_near (4 * Z.of_nat i + 3) ltac:(lia)). assert (M2 := ofZ_near (4 * Z.of_nat i + 5) ltac:(lia)). assert (M0 := ofZ_near 1 ltac:(lia)). rewrite N1 in M1. rewrite N2 in M2.
  replace (4 * i + 5)%nat with (4 * i + 3 + 2)%nat in HX by lia. assert (mg : forall a b : R, 1 <= a -> 1 <= b -> b <= a * b /\ a <= a * b) by (intros a b A B; split; nra).
  assert (Hxx : X ^ 2 <= B119). { apply Rle_trans with (2 := HX). rewrite (pow_add X (4 * i + 3) 2). apply mg; apply X_pow. }
  assert (Mx := xx_near Hxx). assert (G3 := inr_ge3 i). assert (G35 : INR (4 * i + 3) <= 35). { apply le_INR in Hi. rewrite plus_INR, mult_INR. rewrite (INR_IZR_INZ 8) in Hi. cbn in Hi |- * . lra. }
  assert (PN := X_pow (4 * i + 3)). assert (PN2 := X_pow (4 * i + 3 + 2)). assert (PM : X ^ (4 * i + 3) <= X ^ (4 * i + 3 + 2)). { rewrite (pow_add X (4 * i + 3) 2). apply mg; apply X_pow. }
  assert (U := uf_pos f). assert (u1 := uf_le f). change (bpow radix2 (-24)) with (/ 16777216) in u1.
  remember (4 * i + 3)%nat as N eqn:EN. set (c := INR N) in * . set (XN := X ^ N) in * . assert (XN2 : X ^ (N + 2) = XN * X ^ 2) by apply pow_add. set (XM := X ^ (N + 2)) in * .
  unfold B119 in HX. assert (PB : forall d Z, 1 <= d <= 37 -> 1 <= Z <= 664613997892457936451903530140172288 -> 1 <= d * Z <= 37 * 664613997892457936451903530140172288). { intros d Z Hd HZ. split. replace 1 with (1 * 1) by ring. all: apply Rmult_le_compat; lra. }
  assert (P1 := PB c XN ltac:(lra) ltac:(lra)). assert (P2 := PB (c + 2) XN ltac:(lra) ltac:(lra)). assert (P3 := PB (c + 2) XM ltac:(lra) ltac:(lra)).
  (* first quotient *)
  assert (A1 : near (S (0 + N)) (ofZ f (4 * Z.of_nat i + 3) *. q) (c * XN)). { apply near_mul; auto. apply INRu; lia. apply rng_big. lra. }
  assert (A2 : near (S (0 + 2 * S (0 + N))) (ofZ f 1 /. (ofZ f (4 * Z.of_nat i + 3) *. q)) (1 / (c * XN))). { apply near_div; auto. lra. apply INRu; lia. apply rng_inv. lra. }
  (* second quotient *)
  assert (B1 : near (S (0 + N)) (ofZ f (4 * Z.of_nat i + 5) *. q) ((c + 2) * XN)). { apply near_mul; auto. apply INRu; lia. apply rng_big. lra. }
  assert (B2 : near (S (S (0 + N) + 1)) (ofZ f (4 * Z.of_nat i + 5) *. q *. (x *. x)) ((c + 2) * XN * X ^ 2)). { apply near_mul; auto. apply INRu; lia. apply rng_big. rewrite Rmult_assoc, <- XN2. lra. }
  assert (B3 : near (S (0 + 2 * S (S (0 + N) + 1))) (ofZ f 1 /. (ofZ f (4 * Z.of_nat i + 5) *. q *. (x *. x))) (1 / ((c + 2) * XN * X ^ 2))). { rewrite Rmult_assoc, <- XN2 in B2 |- * . apply near_div; auto. lra. apply INRu; lia. apply rng_inv. lra. }
  assert (Y := y_rng). destruct (yN_bound y N Y) as (Q0 & Q2 & _).
  assert (EY : / XN = y ^ N) by (unfold XN, y; symmetry; apply pow_inv). assert (EZ : / XM = y ^ (N + 2)) by (unfold XM, y; symmetry; apply pow_inv).
  assert (TR : tr i y = 1 / (c * XN) - 1 / ((c + 2) * XN * X ^ 2)). { unfold tr, pw. replace (S (4 * i + 2)) with N by lia. replace (S (4 * i + 4)) with (N + 2)%nat by lia. fold c. rewrite <- EY, <- EZ, (plus_INR N 2). fold c. cbn [INR]. replace (1 + 1) with 2 by ring. rewrite (Rmult_assoc (c + 2)), <- XN2. field. lra. }
  assert (FA := proj1 A2). assert (A3 := fun h => near_err _ _ _ h A2). specialize (A3 ltac:(apply Rle_trans with (/ 4); [apply INRu; lia|lra])). clear A2.
  assert (FB := proj1 B3). assert (B5 := fun h => near_err _ _ _ h B3). specialize (B5 ltac:(apply Rle_trans with (/ 4); [apply INRu; lia|lra])). clear B3.
  rewrite (Rmult_assoc (c + 2)), <- XN2 in B5. rewrite (Rmult_assoc (c + 2)), <- XN2 in TR.
  set (a := ofZ f 1 /. (ofZ f (4 * Z.of_nat i + 3) *. q)) in * . set (b := ofZ f 1 /. (ofZ f (4 * Z.of_nat i + 5) *. q *. (x *. x))) in * .
  change (uu f) with (uf f) in A3, B5.
  assert (K1 : INR (S (0 + 2 * S (0 + N))) = 2 * c + 3). { rewrite INR_IZR_INZ. replace (Z.of_nat (S (0 + 2 * S (0 + N)))) with (2 * Z.of_nat N + 3)%Z by lia. rewrite plus_IZR, mult_IZR, <- INR_IZR_INZ. reflexivity. }
  assert (K2 : INR (S (0 + 2 * S (S (0 + N) + 1))) = 2 * c + 7). { rewrite INR_IZR_INZ. replace (Z.of_nat (S (0 + 2 * S (S (0 + N) + 1)))) with (2 * Z.of_nat N + 7)%Z by lia. rewrite plus_IZR, mult_IZR, <- INR_IZR_INZ. reflexivity. }
  rewrite K1 in A3. rewrite K2 in B5.
  assert (E1 : 1 / (c * XN) = / c * y ^ N) by (rewrite <- EY; field; lra). assert (E2 : 1 / ((c + 2) * XM) = / (c + 2) * y ^ (N + 2)) by (rewrite <- EZ; field; lra). rewrite E1 in A3. rewrite E2 in B5. rewrite E1, E2 in TR.
  set (YN := y ^ N) in * . set (YM := y ^ (N + 2)) in * . assert (YM0 : 0 < YM) by (unfold YM; apply pow_lt; lra).
  assert (I1 : 0 < / c <= / 3) by (split; [apply Rinv_0_lt_compat|apply Rinv_le]; lra). assert (I2 : 0 < / (c + 2) <= / 5) by (split; [apply Rinv_0_lt_compat|apply Rinv_le]; lra).
  assert (IC : c * / c = 1) by (field; lra). assert (IC2 : (c + 2) * / (c + 2) = 1) by (field; lra).
  rewrite (Rabs_pos_eq (/ c * YN)) in A3 by (apply Rmult_le_pos; lra). rewrite (Rabs_pos_eq (/ (c + 2) * YM)) in B5 by (apply Rmult_le_pos; lra).
  assert (A4 : Rabs (B2R a - / c * YN) <= 6 * (uf f * YN)). { eapply Rle_trans. exact A3. replace (2 * (2 * c + 3) * uf f * (/ c * YN)) with ((4 * (c * / c) + 6 * / c) * (uf f * YN)) by ring. apply Rmult_le_compat_r. apply Rmult_le_pos; lra. lra. }
  assert (B6 : Rabs (B2R b - / (c + 2) * YM) <= 26 / 5 * (uf f * YM)). { eapply Rle_trans. exact B5. replace (2 * (2 * c + 7) * uf f * (/ (c + 2) * YM)) with ((4 * ((c + 2) * / (c + 2)) + 6 * / (c + 2)) * (uf f * YM)) by ring. apply Rmult_le_compat_r. apply Rmult_le_pos; lra. lra. }
  assert (UY : 0 < uf f * YN) by (apply Rmult_lt_0_compat; lra). assert (UM : 0 < uf f * YM <= 4 / 25 * (uf f * YN)). { split. apply Rmult_lt_0_compat; lra. replace (4 / 25 * (uf f * YN)) with (uf f * (4 / 25 * YN)) by ring. apply Rmult_le_compat_l; lra. }
  assert (UYs : uf f * YN <= / 16777216 * YN) by (apply Rmult_le_compat_r; lra).
  assert (CY : / c * YN <= / 3 * YN) by (apply Rmult_le_compat_r; lra). assert (CM : / (c + 2) * YM <= / 5 * YM) by (apply Rmult_le_compat_r; lra). assert (CY0 : 0 < / c * YN) by (apply Rmult_lt_0_compat; lra). assert (CM0 : 0 < / (c + 2) * YM) by (apply Rmult_lt_0_compat; lra).
  assert (A4' := A4). assert (B6' := B6). apply Rabs_le_inv in A4', B6'.
  assert (YN1 : YN <= 1). { rewrite <- EY. rewrite <- Rinv_1. apply Rinv_le; lra. }
  assert (D : Rabs (B2R a - B2R b) <= 36 / 100 * YN) by (apply Rabs_le; lra).
  destruct (op_sub a b FA FB) as (Fs & Vs). lra. split; auto. rewrite Vs, TR. assert (R := rnd_small f (B2R a - B2R b)).
  assert (Ytiny : uf f * bpow radix2 (-100) <= / 1000 * (uf f * YN)). { replace (/ 1000 * (uf f * YN)) with (uf f * (/ 1000 * YN)) by ring. apply Rmult_le_compat_l. lra.
    apply Rle_trans with (/ 1000 * bpow radix2 (-80)). cbn; lra. apply Rmult_le_compat_l. lra. rewrite <- EY. change (-80)%Z with (- (80))%Z. rewrite bpow_opp. apply Rinv_le; lra. }
  assert (RD : uf f * Rabs (B2R a - B2R b) <= 36 / 100 * (uf f * YN)). { replace (36 / 100 * (uf f * YN)) with (uf f * (36 / 100 * YN)) by ring. apply Rmult_le_compat_l; lra. }
  replace (rnd f (B2R a - B2R b) - (/ c * YN - / (c + 2) * YM)) with ((rnd f (B2R a - B2R b) - (B2R a - B2R b)) + ((B2R a - / c * YN) - (B2R b - / (c + 2) * YM))) by ring.
  eapply Rle_trans. apply Rabs_triang. assert (TT : Rabs (B2R a - / c * YN - (B2R b - / (c + 2) * YM)) <= 6 * (uf f * YN) + 26 / 5 * (uf f * YM)) by (eapply Rle_trans; [apply Rabs_triang|rewrite Rabs_Ropp; lra]).
  lra.
Qed.

(** Adding a term to the tail behind it. *)
Lemma add_acc n i (t s : flt f) : (i <= 8)%nat -> finite t = true -> Rabs (B2R t - tr i y) <= 8 * uf f * y ^ (4 * i + 3) -> X ^ (4 * i + 3) <= bpow radix2 80 ->
  finite s = true -> Rabs (B2R s - sr n (S i) y) <= 9 * uf f * y ^ (4 * S i + 3) ->
  finite (t +. s) = true /\ finite (s +. t) = true /\ Rabs (B2R (t +. s) - sr (S n) i y) <= 9 * uf f * y ^ (4 * i + 3) /\ Rabs (B2R (s +. t) - sr (S n) i y) <= 9 * uf f * y ^ (4 * i + 3).
Proof.
  intros Hi Ft Ht HX Fs Hs. cbn [sr]. assert (Y := y_rng). assert (T := tr_bound i y Y). assert (S := sr_bound n (Datatypes.S i) y Y). replace (4 * Datatypes.S i + 3)%nat with (4 * i + 3 + 4)%nat in * by lia.
  destruct (yN_bound y (4 * i + 3) Y) as (Q0 & _ & Q4). assert (U := uf_pos f). assert (u1 := uf_le f). change (bpow radix2 (-24)) with (/ 16777216) in u1.
  assert (EY : / X ^ (4 * i + 3) = y ^ (4 * i + 3)) by (unfold y; symmetry; apply pow_inv). assert (PX := X_pow (4 * i + 3)).
  assert (YN1 : y ^ (4 * i + 3) <= 1). { rewrite <- EY. rewrite <- Rinv_1. apply Rinv_le; lra. }
  assert (Ytiny : uf f * bpow radix2 (-100) <= / 1000 * (uf f * y ^ (4 * i + 3))). { replace (/ 1000 * (uf f * y ^ (4 * i + 3))) with (uf f * (/ 1000 * y ^ (4 * i + 3))) by ring. apply Rmult_le_compat_l. lra.
    apply Rle_trans with (/ 1000 * bpow radix2 (-80)). cbn; lra. apply Rmult_le_compat_l. lra. rewrite <- EY. change (-80)%Z with (- (80))%Z. rewrite bpow_opp. apply Rinv_le; lra. }
  set (YN := y ^ (4 * i + 3)) in * . set (YM := y ^ (4 * i + 3 + 4)) in * . set (a := tr i y) in * . set (b := sr n (Datatypes.S i) y) in * .
  assert (UY : 0 < uf f * YN <= / 16777216 * YN) by (split; [apply Rmult_lt_0_compat|apply Rmult_le_compat_r]; lra). assert (UM : uf f * YM <= 16 / 625 * (uf f * YN)) by (replace (16 / 625 * (uf f * YN)) with (uf f * (16 / 625 * YN)) by ring; apply Rmult_le_compat_l; lra).
  assert (Ht' := Ht). assert (Hs' := Hs). apply Rabs_le_inv in Ht', Hs'. assert (D : Rabs (B2R t + B2R s) <= 36 / 100 * YN) by (apply Rabs_le; lra).
  destruct (op_add t s Ft Fs) as (F1 & V1). lra. destruct (op_add s t Fs Ft) as (F2 & V2). rewrite Rplus_comm; lra. rewrite (Rplus_comm (B2R s)) in V2. rewrite V1, V2.
  assert (R := rnd_small f (B2R t + B2R s)). assert (RD : uf f * Rabs (B2R t + B2R s) <= 36 / 100 * (uf f * YN)). { replace (36 / 100 * (uf f * YN)) with (uf f * (36 / 100 * YN)) by ring. apply Rmult_le_compat_l; lra. }
  assert (G : Rabs (rnd f (B2R t + B2R s) - (a + b)) <= 9 * uf f * YN). { replace (rnd f (B2R t + B2R s) - (a + b)) with ((rnd f (B2R t + B2R s) - (B2R t + B2R s)) + ((B2R t - a) + (B2R s - b))) by ring.
    eapply Rle_trans. apply Rabs_triang. assert (Rabs (B2R t - a + (B2R s - b)) <= 8 * uf f * YN + 9 * uf f * YM) by (eapply Rle_trans; [apply Rabs_triang|]; lra). lra. }
  auto.
Qed.
Lemma powX_le i j c : (i <= j)%nat -> X ^ j <= c -> X ^ i <= c.
Proof. intros H L. eapply Rle_trans; [|exact L]. apply Rle_pow; auto. lra. Qed.
(** The C++11 recursion. *)
Lemma tail_11 n : forall i (q : flt f), (i + n <= 8)%nat -> near (4 * i + 3) q (X ^ (4 * i + 3)) -> X ^ (4 * (i + n) + 5) <= B119 -> X ^ (4 * (i + n) + 3) <= bpow radix2 80 ->
  let s := atan_series_tail_11 n (x *. x) q (Z.of_nat i + 2) in finite s = true /\ Rabs (B2R s - sr n i y) <= 9 * uf f * y ^ (4 * i + 3).
Proof.
  assert (Y := y_rng). assert (U := uf_pos f).
  induction n as [|n IH]; intros i q Hi Hq H1 H2; cbn [atan_series_tail_11].
  - rewrite Nat.add_0_r in * . destruct (term_acc i q ltac:(lia) Hq H1 H2) as (F & E). split; auto. cbn [sr]. eapply Rle_trans. exact E. apply Rmult_le_compat_r. apply pow_le; lra. lra.
  - destruct (term_acc i q ltac:(lia) Hq ltac:(eapply powX_le; [|exact H1]; lia) ltac:(eapply powX_le; [|exact H2]; lia)) as (F & E).
    assert (Hxx := xx_near ltac:(eapply powX_le; [|exact H1]; lia)).
    assert (Hq2 : near (4 * S i + 3) (q *. (x *. x) *. (x *. x)) (X ^ (4 * S i + 3))).
    { replace (X ^ (4 * S i + 3)) with (X ^ (4 * i + 3) * X ^ 2 * X ^ 2) by (rewrite <- !pow_add; f_equal; lia). replace (4 * S i + 3)%nat with (S (S (4 * i + 3 + 1) + 1)) by lia.
      assert (B : forall k, (k <= 4 * (i + S n) + 5)%nat -> 1 <= X ^ k <= 85070591730234615865843651857942052864). { intros k Hk. split. apply X_pow. assert (Z := powX_le _ _ _ Hk H1). unfold B119 in Z. lra. }
      apply near_mul; auto. apply near_mul; auto. apply INRu; lia. rewrite <- pow_add. apply rng_big. apply B. lia. apply INRu; lia. rewrite <- !pow_add. apply rng_big. apply B. lia. }
    destruct (IH (S i) _ ltac:(lia) Hq2) as (F2 & E2). replace (S i + n)%nat with (i + S n)%nat by lia. auto. replace (S i + n)%nat with (i + S n)%nat by lia. auto.
    replace (Z.of_nat (S i) + 2)%Z with (Z.of_nat i + 2 + 1)%Z in F2, E2 by lia.
    destruct (add_acc n i _ _ ltac:(lia) F E ltac:(eapply powX_le; [|exact H2]; lia) F2 E2) as (G1 & _ & G2 & _). auto.
Qed.
(** The C++14 loop. *)
Lemma powX_near i : (i <= 8)%nat -> X ^ (4 * i + 5) <= B119 -> exists w, pow_integral U32 x (4 * (Z.of_nat i + 2) - 5) = Ok w /\ near (4 * i + 3) w (X ^ (4 * i + 3)).
Proof.
  intros Hi H. destruct (pow_integral_near U32 x (4 * (Z.of_nat i + 2) - 5)) as (w & E & N); auto; try (unfold in_range, imin, imax; cbn [isigned ibits]; lia); try lia; try (unfold imax; cbn [isigned ibits]; lia).
  { rewrite <- (Z2Nat.id (4 * (Z.of_nat i + 2) - 5)), <- INR_IZR_INZ by lia. apply INRu. lia. }
  { replace (Z.to_nat (4 * (Z.of_nat i + 2) - 5)) with (4 * i + 3)%nat by lia. apply rng_big. fold X. split. apply X_pow. apply Rle_trans with B119. eapply powX_le; [|exact H]. lia. unfold B119; lra. }
  exists w. split; auto. replace (Z.to_nat (4 * (Z.of_nat i + 2) - 5)) with (4 * i + 3)%nat in N by lia. exact N.
Qed.
Definition body14 (depth : Z) (acc : res (flt f)) : res (flt f) :=
  let* r := acc in let* q := pow_integral U32 x (4 * depth - 5) in Ok (r +. atan_series_order_calc (x *. x) q depth).
Lemma loop_14 i : forall n (r : flt f), (i + n <= 8)%nat -> X ^ (4 * (i + n) + 5) <= B119 -> X ^ (4 * (i + n) + 3) <= bpow radix2 80 ->
  finite r = true -> Rabs (B2R r - sr n i y) <= 9 * uf f * y ^ (4 * i + 3) ->
  exists s, down_loop i (Z.of_nat i + 1) body14 (Ok r) = Ok s /\ finite s = true /\ Rabs (B2R s - sr (i + n) 0 y) <= 9 * uf f * y ^ 3.
Proof.
  induction i as [|i IH]; intros n r Hi H1 H2 Fr Er.
  - exists r. split; [reflexivity|]. auto.
  - cbn [down_loop]. destruct (powX_near i ltac:(lia) ltac:(eapply powX_le; [|exact H1]; lia)) as (q & Eq & Nq).
    replace (Z.of_nat (S i) + 1)%Z with (Z.of_nat i + 2)%Z by lia. unfold body14 at 2. rewrite Eq.
    destruct (term_acc i q ltac:(lia) Nq ltac:(eapply powX_le; [|exact H1]; lia) ltac:(eapply powX_le; [|exact H2]; lia)) as (F & E).
    destruct (add_acc n i _ _ ltac:(lia) F E ltac:(eapply powX_le; [|exact H2]; lia) Fr Er) as (_ & G1 & _ & G2).
    replace (Z.of_nat i + 2 - 1)%Z with (Z.of_nat i + 1)%Z by lia. replace (S i + n)%nat with (i + S n)%nat in * by lia. apply IH; auto.
Qed.
(** The final long double sum and conversion. *)
Definition fin_ok (s : flt f) (w : flt f) : Prop := w = conv f (conv F80 s +. (GCEM_HALF_PI -. conv F80 (ofZ f 1 /. x))) \/ w = conv f ((GCEM_HALF_PI -. conv F80 (ofZ f 1 /. x)) +. conv F80 s).
Lemma series_sum v n : (n <= 8)%nat -> X ^ (4 * n + 5) <= B119 -> X ^ (4 * n + 3) <= bpow radix2 80 ->
  exists s w, finite s = true /\ Rabs (B2R s - sr n 0 y) <= 9 * uf f * y ^ 3 /\ atan_series_order v x (Z.of_nat n + 2) = Ok w /\ fin_ok s w.
Proof.
  intros Hn H1 H2. assert (U := uf_pos f). assert (Y := y_rng). destruct v; cbn [atan_series_order].
  - unfold atan_series_order_11. destruct (pow_integral_near I32 x 3) as (x3 & E3 & N3); auto; try (unfold in_range, imin, imax; cbn [isigned ibits]; lia); try lia; try (unfold imax; cbn [isigned ibits]; lia).
    { replace 3 with (INR 3) by (cbn; ring). apply INRu. lia. } { apply rng_big. fold X. split. apply X_pow. apply Rle_trans with B119. eapply powX_le; [|exact H1]. change (Z.to_nat 3) with 3%nat. lia. unfold B119; lra. }
    rewrite E3. change (Z.to_nat 3) with 3%nat in N3. destruct (tail_11 n 0 x3 ltac:(lia) N3 H1 H2) as (F & E). change (Z.of_nat 0 + 2)%Z with 2%Z in F, E. replace (Z.to_nat (Z.of_nat n + 2 - 2)) with n by lia.
    eexists. eexists. split. exact F. split. exact E. split. reflexivity. right. reflexivity.
  - unfold atan_series_order_14. destruct (powX_near n Hn H1) as (p & Ep & Np). rewrite Ep. destruct (term_acc n p Hn Np H1 H2) as (F & E).
    assert (E' : Rabs (B2R (atan_series_order_calc (x *. x) p (Z.of_nat n + 2)) - sr 0 n y) <= 9 * uf f * y ^ (4 * n + 3)). { cbn [sr]. eapply Rle_trans. exact E. apply Rmult_le_compat_r. apply pow_le; lra. lra. }
    destruct (loop_14 n 0 _ ltac:(lia) ltac:(rewrite Nat.add_0_r; auto) ltac:(rewrite Nat.add_0_r; auto) F E') as (s & Es & Fs & Ss). rewrite Nat.add_0_r in Ss.
    unfold for_down. replace (Z.to_nat (Z.of_nat n + 2 - 1 - 2 + 1)) with n by lia. replace (Z.of_nat n + 2 - 1)%Z with (Z.of_nat n + 1)%Z by lia. exists s. eexists. split. exact Fs. split. exact Ss. split. 2: { left. reflexivity. } cbn [bind]. change (down_loop n (Z.of_nat n + 1) _ (Ok (atan_series_order_calc (x *. x) p (Z.of_nat n + 2)))) with (down_loop n (Z.of_nat n + 1) body14 (Ok (atan_series_order_calc (x *. x) p (Z.of_nat n + 2)))). rewrite Es. reflexivity.
Qed.

Definition hp80 : R := B2R GCEM_HALF_PI.
Lemma hp80_near : finite GCEM_HALF_PI = true /\ Rabs (hp80 - PI / 2) <= bpow radix2 (-64).
Proof. destruct (half_pi_val F80) as (F & E). rewrite conv_id in F, E. split; auto. Qed.
Lemma wider80 g : wider g F80.
Proof. destruct g; unfold wider; cbn; lia. Qed.
Lemma u80_le : bpow radix2 (-64) <= uf f.
Proof. unfold uf. apply bpow_le. destruct f; discriminate. Qed.
Lemma recip : finite (ofZ f 1 /. x) = true /\ Rabs (B2R (ofZ f 1 /. x) - y) <= 41 / 100 * uf f /\ 0 <= B2R (ofZ f 1 /. x) /\ B2R (ofZ f 1 /. x) = rnd f y.
Proof.
  assert (Y := y_rng). assert (U := uf_pos f). assert (u1 := uf_le f). change (bpow radix2 (-24)) with (/ 16777216) in u1. destruct (ofZ_small f 1 ltac:(lia)) as (V1 & F1 & _).
  destruct (op_div (ofZ f 1) x F1) as (F & V). fold X; lra. { rewrite V1. fold X. replace (1 / X) with y by (unfold y, Rdiv; ring). rewrite Rabs_pos_eq; lra. }
  rewrite V1 in V. fold X in V. replace (1 / X) with y in V by (unfold y, Rdiv; ring). split; auto. rewrite V. split; [|split; auto]. 2: apply rnd_ge_0; lra.
  eapply Rle_trans. apply rnd_small. rewrite Rabs_pos_eq by lra. assert (bpow radix2 (-100) <= / 1000) by (cbn; lra). assert (0 < bpow radix2 (-100)) by apply bpow_gt_0. nra.
Qed.
Lemma final_acc (s w : flt f) n : fin_ok s w -> finite s = true -> Rabs (B2R s - sr n 0 y) <= 6 / 10 * uf f ->
  finite w = true /\ Rabs (B2R w - (PI / 2 - (y - sr n 0 y))) <= 75 / 10 * uf f.
Proof.
  intros Hw Fs Hs. assert (Y := y_rng). assert (U := uf_pos f). assert (u1 := uf_le f). change (bpow radix2 (-24)) with (/ 16777216) in u1. destruct recip as (Fg & Eg & G0 & _).
  assert (S := sr_bound n 0 y Y). change (4 * 0 + 3)%nat with 3%nat in S. assert (y3 : 0 <= y ^ 3 <= 8 / 125). { split. apply pow_le; lra. replace (8 / 125) with ((2 / 5) ^ 3) by field. apply pow_incr. lra. }
  destruct hp80_near as (FH & EH). assert (U8 := u80_le). assert (P : 314 / 100 < PI < 3142 / 1000) by (split; interval).
  destruct (conv_exact F80 _ (wider80 f) Fg) as (Vg & Fg8 & _). destruct (conv_exact F80 _ (wider80 f) Fs) as (Vs & Fs8 & _).
  set (g := conv F80 (ofZ f 1 /. x)) in * . set (s8 := conv F80 s) in * . apply Rabs_le_inv in Hs, Eg, EH. fold hp80 in * .
  assert (b0 := bpow_gt_0 radix2 (-64)). assert (b1 : bpow radix2 (-100) <= / 1000000) by (cbn; lra).
  destruct (op_sub GCEM_HALF_PI g FH Fg8) as (Fh & Vh). { fold hp80. rewrite Vg. apply Rabs_le. lra. } fold hp80 in Vh. rewrite Vg in Vh.
  assert (Rh := rnd_small F80 (hp80 - B2R (ofZ f 1 /. x))). rewrite <- Vh in Rh. change (uf F80) with (bpow radix2 (-64)) in Rh.
  assert (A1 : Rabs (hp80 - B2R (ofZ f 1 /. x)) <= 16 / 10) by (apply Rabs_le; lra).
  assert (b2' : bpow radix2 (-64) * bpow radix2 (-100) <= bpow radix2 (-64) * / 1000000) by (apply Rmult_le_compat_l; lra).
  assert (b3 : bpow radix2 (-64) * Rabs (hp80 - B2R (ofZ f 1 /. x)) <= bpow radix2 (-64) * (16 / 10)) by (apply Rmult_le_compat_l; lra).
  set (h := GCEM_HALF_PI -. g) in * . apply Rabs_le_inv in Rh.
  assert (A2 : Rabs (B2R h + B2R s8) <= 17 / 10) by (rewrite Vs; apply Rabs_le; lra).
  destruct (op_add h s8 Fh Fs8) as (F1 & V1). lra. destruct (op_add s8 h Fs8 Fh) as (F2 & V2). rewrite Rplus_comm; lra. rewrite (Rplus_comm (B2R s8)) in V2.
  assert (Rr := rnd_small F80 (B2R h + B2R s8)). change (uf F80) with (bpow radix2 (-64)) in Rr. assert (b4 : bpow radix2 (-64) * Rabs (B2R h + B2R s8) <= bpow radix2 (-64) * (17 / 10)) by (apply Rmult_le_compat_l; lra).
  assert (A4 := A2). apply Rabs_le_inv in Rr, A4. set (r := rnd F80 (B2R h + B2R s8)) in * .
  assert (A3 : Rabs r <= 18 / 10) by (apply Rabs_le; lra).
  assert (CV : forall z : flt F80, finite z = true -> B2R z = r -> finite (conv f z) = true /\ B2R (conv f z) = rnd f r). { intros z Fz Vz. destruct (conv_spec f z Fz) as (V & F & _). rewrite Vz. apply big_fin. lra. rewrite V, Vz. auto. }
  assert (W : finite w = true /\ B2R w = rnd f r) by (destruct Hw as [->| ->]; apply CV; auto). destruct W as (Fw & Vw). split; auto. rewrite Vw.
  assert (Rf := rnd_small f r). assert (uf f * Rabs r <= uf f * (18 / 10)) by (apply Rmult_le_compat_l; lra). assert (uf f * bpow radix2 (-100) <= uf f * / 1000000) by (apply Rmult_le_compat_l; lra).
  apply Rabs_le_inv in Rf. rewrite Vs in * . apply Rabs_le. lra.
Qed.

(** Arguments above 2^23: the correction terms are negligible, whatever overflows. *)
Definition small_pos (E : Z) (t : flt f) : Prop := finite t = true /\ 0 <= B2R t <= bpow radix2 (- E).
Lemma inv_low k (d : flt f) r E : low k d r -> INR k * uu f <= / 2 -> (0 <= E <= 100)%Z -> 2 * bpow radix2 E <= r -> small_pos E (ofZ f 1 /. d).
Proof.
  intros L Hk HE Hr. assert (L2 := low_fac f k Hk). destruct (ofZ_small f 1 ltac:(lia)) as (V1 & F1 & _). assert (E0 := bpow_gt_0 radix2 E). destruct L as [->|(Fd & L)].
  - destruct (ofZ f 1) as [s|s| |s m e B] eqn:Q; try discriminate; split; cbn; auto; split; try lra; apply bpow_ge_0.
  - assert (D : bpow radix2 E <= B2R d). { eapply Rle_trans; [|exact L]. nra. } assert (E1 : 1 <= bpow radix2 E) by (change 1 with (bpow radix2 0); apply bpow_le; lia).
    assert (I : 0 < / B2R d <= bpow radix2 (- E)) by (split; [apply Rinv_0_lt_compat; lra|rewrite bpow_opp; apply Rinv_le; lra]).
    assert (E2 : bpow radix2 (- E) <= 1) by (change 1 with (bpow radix2 0); apply bpow_le; lia).
    destruct (op_div (ofZ f 1) d F1) as (F & V). lra. { rewrite V1. unfold Rdiv. rewrite Rmult_1_l, Rabs_pos_eq; lra. } rewrite V1 in V. split; auto. rewrite V. unfold Rdiv. rewrite Rmult_1_l.
    split. apply rnd_ge_0; lra. apply rnd_le_fmt; [|lra]. apply fmt_bpow. destruct f; unfold emin; cbn; lia. Qed.

Lemma low_exact (z : flt f) : finite z = true -> low 0 z (B2R z).
Proof. intros F. right. split; auto. cbn [pow]. lra. Qed.
Lemma low_ofZ z : (Z.abs z <= 16777216)%Z -> low 0 (ofZ f z) (IZR z).
Proof. intros H. destruct (ofZ_small f z H) as (V & F & _). rewrite <- V. apply low_exact; auto. Qed.
Lemma INRu2 k : (k <= 1000)%nat -> INR k * uu f <= / 2.
Proof. intros H. assert (Q := INRu k H). lra. Qed.
Lemma pow3_low t : in_range t 3 -> exists p, pow_integral t x 3 = Ok p /\ low 3 p (X ^ 3).
Proof.
  intros H. destruct (pow_cases_low t x 3 H ltac:(lia) Fx ltac:(fold X; lra)) as (p & E & L). replace 3 with (INR 3) by (cbn; ring). apply INRu2. lia.
  exists p. split; [|exact L]. unfold pow_integral. change (3 <? 0)%Z with false. rewrite andb_false_r. exact E.
Qed.
Lemma big_calc E (p : flt f) : low 3 p (X ^ 3) -> (0 <= E <= 100)%Z -> 2 * bpow radix2 E <= 3 * X ^ 3 ->
  let s := atan_series_order_calc (x *. x) p 2 in finite s = true /\ Rabs (B2R s) <= bpow radix2 (- E).
Proof.
  intros Lp HE HX. cbv zeta. unfold atan_series_order_calc. change ((2 - 1) * 4 - 1)%Z with 3%Z. change ((2 - 1) * 4 + 1)%Z with 5%Z.
  assert (P3 := X_pow 3). assert (P2 := X_pow 2). assert (L3 := low_ofZ 3 ltac:(lia)). assert (L5 := low_ofZ 5 ltac:(lia)). assert (Lx := low_exact x Fx). fold X in Lx.
  assert (A := low_mul (ofZ f 3) p 3 (X ^ 3) 0 3 ltac:(lra) P3 (INRu2 (S (0 + 3)) ltac:(lia)) L3 Lp). assert (B := low_mul (ofZ f 5) p 5 (X ^ 3) 0 3 ltac:(lra) P3 (INRu2 (S (0 + 3)) ltac:(lia)) L5 Lp).
  assert (XX := low_mul x x X X 0 0 ltac:(lra) ltac:(lra) (INRu2 (S (0 + 0)) ltac:(lia)) Lx Lx). replace (X * X) with (X ^ 2) in XX by ring.
  assert (C := low_mul (ofZ f 5 *. p) (x *. x) (5 * X ^ 3) (X ^ 2) (S (0 + 3)) (S (0 + 0)) ltac:(lra) P2 (INRu2 (S (S (0 + 3) + S (0 + 0))) ltac:(lia)) B XX).
  destruct (inv_low _ _ _ E A (INRu2 (S (0 + 3)) ltac:(lia)) HE HX) as (Fa & Ra).
  destruct (inv_low _ _ _ E C (INRu2 (S (S (0 + 3) + S (0 + 0))) ltac:(lia)) HE) as (Fb & Rb). { eapply Rle_trans. exact HX. revert P2 P3. generalize (X ^ 2) (X ^ 3). intros a b Ha Hb. assert (5 * b * 1 <= 5 * b * a) by (apply Rmult_le_compat_l; lra). lra. }
  set (a := ofZ f 1 /. (ofZ f 3 *. p)) in * . set (b := ofZ f 1 /. (ofZ f 5 *. p *. (x *. x))) in * .
  assert (E2 : bpow radix2 (- E) <= 1) by (change 1 with (bpow radix2 0); apply bpow_le; lia).
  assert (D : Rabs (B2R a - B2R b) <= bpow radix2 (- E)) by (apply Rabs_le; lra). destruct (op_sub a b Fa Fb) as (F & V). lra. split; auto. rewrite V, rnd_abs. apply rnd_le_fmt; auto. apply fmt_bpow. destruct f; unfold emin; cbn; lia.
Qed.
Lemma big_sum v E : (0 <= E <= 100)%Z -> 2 * bpow radix2 E <= 3 * X ^ 3 ->
  exists s w, finite s = true /\ Rabs (B2R s) <= bpow radix2 (- E) /\ atan_series_order v x 2 = Ok w /\ fin_ok s w.
Proof.
  intros HE HX. destruct v; cbn [atan_series_order].
  - unfold atan_series_order_11. destruct (pow3_low I32) as (p & Ep & Lp). unfold in_range, imin, imax; cbn [isigned ibits]; lia. rewrite Ep.
    destruct (big_calc E p Lp HE HX) as (F & R). eexists. eexists. split. exact F. split. exact R. split. reflexivity. right. reflexivity.
  - unfold atan_series_order_14. change (4 * 2 - 5)%Z with 3%Z. destruct (pow3_low U32) as (p & Ep & Lp). unfold in_range, imin, imax; cbn [isigned ibits]; lia. rewrite Ep.
    destruct (big_calc E p Lp HE HX) as (F & R). eexists. eexists. split. exact F. split. exact R. split. reflexivity. left. reflexivity.
Qed.
(** The result never exceeds the long double pi/2, converted. *)
Definition eps66 : flt F80 := ofZ F80 1 /. ofZ F80 73786976294838206464.
Lemma hp_round : rnd F80 (hp80 + bpow radix2 (-66)) = hp80.
Proof.
  destruct (sf_val eps66 false 9223372036854775808 (-129)) as (F & V). vm_compute; reflexivity. assert (V' : B2R eps66 = bpow radix2 (-66)). { rewrite V. unfold F2R. cbn [Fnum Fexp cond_Zopp]. change (IZR 9223372036854775808) with (bpow radix2 63). rewrite <- bpow_plus. reflexivity. }
  destruct hp80_near as (FH & EH). assert (Q : GCEM_HALF_PI +. eps66 = GCEM_HALF_PI). { apply B2SF_inj. vm_compute. reflexivity. }
  assert (P : 314 / 100 < PI < 3142 / 1000) by (split; interval). apply Rabs_le_inv in EH. assert (bpow radix2 (-64) <= 1) by (cbn; lra). assert (0 < bpow radix2 (-66) <= 1) by (split; [apply bpow_gt_0|cbn; lra]).
  destruct (op_add GCEM_HALF_PI eps66 FH F) as (_ & VV). { rewrite V'. fold hp80. apply Rabs_le. lra. } rewrite Q, V' in VV. fold hp80 in VV. auto.
Qed.
Lemma final_le (s w : flt f) : fin_ok s w -> finite s = true -> Rabs (B2R s) <= 1 ->
  (B2R s <= / 2 * B2R (ofZ f 1 /. x) /\ bpow radix2 (-60) <= B2R (ofZ f 1 /. x)) \/ B2R s <= bpow radix2 (-100) -> B2R w <= rnd f hp80.
Proof.
  intros Hw Fs S1 Hs. assert (Y := y_rng). destruct recip as (Fg & Eg & G0 & _). assert (u1 := uf_le f). change (bpow radix2 (-24)) with (/ 16777216) in u1.
  destruct hp80_near as (FH & EH). assert (P : 314 / 100 < PI < 3142 / 1000) by (split; interval).
  destruct (conv_exact F80 _ (wider80 f) Fg) as (Vg & Fg8 & _). destruct (conv_exact F80 _ (wider80 f) Fs) as (Vs & Fs8 & _).
  set (g := conv F80 (ofZ f 1 /. x)) in * . set (s8 := conv F80 s) in * . apply Rabs_le_inv in EH, Eg, S1.
  assert (b0 := bpow_gt_0 radix2 (-64)). assert (b1 : bpow radix2 (-64) <= / 1000000) by (cbn; lra).
  destruct (op_sub GCEM_HALF_PI g FH Fg8) as (Fh & Vh). { fold hp80. rewrite Vg. apply Rabs_le. lra. } fold hp80 in Vh. rewrite Vg in Vh. set (h := GCEM_HALF_PI -. g) in * . set (g0 := B2R (ofZ f 1 /. x)) in * .
  assert (FM : generic_format radix2 (fexpf F80) hp80) by apply fmt_format.
  assert (H1 : B2R h <= hp80) by (rewrite Vh; apply rnd_le_fmt; auto; lra). assert (H0 : 0 <= B2R h) by (rewrite Vh; apply rnd_ge_0; lra).
  destruct (op_add h s8 Fh Fs8) as (F1 & V1). rewrite Vs; apply Rabs_le; lra. destruct (op_add s8 h Fs8 Fh) as (F2 & V2). rewrite Vs; apply Rabs_le; lra. rewrite (Rplus_comm (B2R s8)) in V2.
  set (r := rnd F80 (B2R h + B2R s8)) in * .
  assert (R : r <= hp80).
  { unfold r. destruct Hs as [(Hs & Hg)|Hs].
    - apply rnd_le_fmt; auto. rewrite Vs. assert (Rh := rnd_small F80 (hp80 - g0)). rewrite <- Vh in Rh. change (uf F80) with (bpow radix2 (-64)) in Rh. rewrite (Rabs_pos_eq (hp80 - g0)) in Rh by lra.
      assert (bpow radix2 (-60) = 16 * bpow radix2 (-64)) by (change 16 with (bpow radix2 4); rewrite <- bpow_plus; reflexivity). assert (bpow radix2 (-100) <= 1) by (cbn; lra).
      assert (bpow radix2 (-64) * (hp80 - g0) <= bpow radix2 (-64) * 2) by (apply Rmult_le_compat_l; lra). assert (bpow radix2 (-64) * bpow radix2 (-100) <= bpow radix2 (-64) * 1) by (apply Rmult_le_compat_l; lra).
      apply Rabs_le_inv in Rh. lra.
    - rewrite <- hp_round. apply rnd_le. rewrite Vs. assert (bpow radix2 (-100) <= bpow radix2 (-66)) by (apply bpow_le; lia). lra. }
  assert (R0 : -1 <= r). { assert (-1 = rnd F80 (-1)). symmetry. apply rnd_id. apply (fmt_IZR F80 (-1)). cbn; lia. rewrite H. apply rnd_le. rewrite Vs. lra. }
  assert (CV : forall z : flt F80, finite z = true -> B2R z = r -> B2R (conv f z) <= rnd f hp80). { intros z Fz Vz. destruct (conv_spec f z Fz) as (V & F & _). rewrite Vz. apply big_fin. apply Rabs_le. lra. rewrite V, Vz. apply rnd_le; auto. }
  destruct Hw as [->| ->]; apply CV; auto.
Qed.
End Series.

(** ** All arguments above 5/2 *)
Definition at_acc {f} (x w : flt f) : Prop := finite w = true /\ Rabs (B2R w - atan (B2R x)) <= 75 / 10 * uf f + bpow radix2 (-56) /\ B2R w <= rnd f hp80.
Lemma atan_rec X : 0 < X -> PI / 2 - atan (/ X) = atan X.
Proof. intros H. rewrite atan_inv by auto. ring. Qed.
Lemma series_total {f} n (x w s : flt f) : finite x = true -> 5 / 2 <= B2R x -> fin_ok f x s w -> finite s = true -> Rabs (B2R s - sr n 0 (/ B2R x)) <= 6 / 10 * uf f -> pw (4 * n + 6) (/ B2R x) <= bpow radix2 (-56) -> B2R w <= rnd f hp80 -> at_acc x w.
Proof.
  intros Fx X0 Hw Fs Hs Hp Hle. destruct (final_acc f x Fx X0 s w n Hw Fs Hs) as (Fw & Ew). split; auto. split; auto.
  assert (Y := y_rng f x X0). assert (A := atan_series n (/ B2R x) ltac:(lra)). assert (R := atan_rec (B2R x) ltac:(lra)). apply Rabs_le_inv in Ew. apply Rabs_le. lra.
Qed.
Lemma pw_mono k a b : 0 <= a <= b -> pw k a <= pw k b.
Proof. intros H. unfold pw. apply Rmult_le_compat_r. left. apply Rinv_0_lt_compat, lt_0_INR. lia. apply pow_incr; auto. Qed.
Lemma range_acc v {f} n lo hi (x : flt f) : finite x = true -> (n <= 8)%nat -> 5 / 2 <= lo <= B2R x -> B2R x <= hi <= 16777216 -> hi ^ (4 * n + 5) <= B119 -> hi ^ (4 * n + 3) <= bpow radix2 80 -> pw (4 * n + 6) (/ lo) <= bpow radix2 (-56) ->
  exists w, atan_series_order v x (Z.of_nat n + 2) = Ok w /\ at_acc x w.
Proof.
  intros Fx Hn (L0 & L1) (H0 & H1) P1 P2 P3. assert (X0 : 5 / 2 <= B2R x) by lra. assert (Y := y_rng f x X0). assert (U := uf_pos f). assert (u1 := uf_le f). change (bpow radix2 (-24)) with (/ 16777216) in u1.
  assert (G : forall k c, hi ^ k <= c -> B2R x ^ k <= c). { intros k c H. eapply Rle_trans; [|exact H]. apply pow_incr. lra. }
  destruct (series_sum f x Fx X0 v n Hn (G _ _ P1) (G _ _ P2)) as (s & w & Fs & Es & Ew & Hw). exists w. split; auto.
  assert (y3 : 0 <= (/ B2R x) ^ 3 <= 4 / 25 * / B2R x). { split. apply pow_le; lra. replace ((/ B2R x) ^ 3) with (/ B2R x * / B2R x * / B2R x) by ring. apply Rmult_le_compat_r. lra. nra. }
  assert (S := sr_bound n 0 _ Y). change (4 * 0 + 3)%nat with 3%nat in S. set (y := / B2R x) in * .
  assert (E2 : 9 * uf f * y ^ 3 <= 6 / 10 * uf f). { apply Rle_trans with (9 * uf f * (8 / 125)). apply Rmult_le_compat_l; lra. lra. }
  assert (E3 : 9 * uf f * y ^ 3 <= / 1000 * y). { apply Rle_trans with (9 * / 16777216 * y ^ 3). apply Rmult_le_compat_r; lra. lra. }
  assert (Y24 : bpow radix2 (-24) <= y). { unfold y. change (bpow radix2 (-24)) with (/ 16777216). apply Rinv_le; lra. }
  eapply (series_total n x w s); auto. { eapply Rle_trans. exact Es. exact E2. } { eapply Rle_trans; [|exact P3]. apply pw_mono. split. unfold y in Y; lra. apply Rinv_le; lra. }
  assert (Es' := Es). apply Rabs_le_inv in Es'. destruct (recip f x X0) as (_ & _ & _ & Vg). fold y in Vg.
  apply (final_le f x X0 s w Hw Fs). apply Rabs_le; lra. left. rewrite Vg. split.
  - assert (R := rnd_small f y). rewrite (Rabs_pos_eq y) in R by lra. apply Rabs_le_inv in R. assert (uf f * y <= / 16777216 * y) by (apply Rmult_le_compat_r; lra). assert (uf f * bpow radix2 (-100) <= / 1000 * y). { apply Rle_trans with (/ 16777216 * bpow radix2 (-24)). apply Rmult_le_compat; try lra. apply bpow_ge_0. apply bpow_le; lia. lra. } lra.
  - apply Rle_trans with (bpow radix2 (-24)). apply bpow_le; lia. apply rnd_ge_fmt; auto. apply fmt_bpow. destruct f; discriminate.
Qed.
Lemma huge_acc v {f} (x : flt f) : finite x = true -> 8388608 <= B2R x -> exists w, atan_series_order v x 2 = Ok w /\ at_acc x w.
Proof.
  intros Fx X1. assert (X0 : 5 / 2 <= B2R x) by lra. assert (Y := y_rng f x X0). assert (U := uf_pos f). assert (u1 := uf_le f). change (bpow radix2 (-24)) with (/ 16777216) in u1.
  assert (Yb : / B2R x <= bpow radix2 (-23)). { change (bpow radix2 (-23)) with (/ 8388608). apply Rinv_le; lra. }
  assert (S := sr_bound 0 0 _ Y). change (4 * 0 + 3)%nat with 3%nat in S. assert (y3 : 0 <= (/ B2R x) ^ 3 <= bpow radix2 (-69)). { split. apply pow_le; lra. replace (bpow radix2 (-69)) with (bpow radix2 (-23) ^ 3). apply pow_incr; lra. cbn [pow]. rewrite Rmult_1_r, <- !bpow_plus. reflexivity. }
  assert (U8 := u80_le f x Fx X0). assert (b69 : 32 * bpow radix2 (-69) = bpow radix2 (-64)) by (change 32 with (bpow radix2 5); rewrite <- bpow_plus; reflexivity). assert (b69p := bpow_gt_0 radix2 (-69)).
  assert (PW : pw (4 * 0 + 6) (/ B2R x) <= bpow radix2 (-56)). { change (4 * 0 + 6)%nat with 6%nat. eapply Rle_trans. apply pw_mono. split. 2: exact Yb. lra. unfold pw. replace (bpow radix2 (-23) ^ 7) with (bpow radix2 (-161)) by (cbn [pow]; rewrite Rmult_1_r, <- !bpow_plus; reflexivity). cbn; lra. }
  assert (X3 : forall e, bpow radix2 e <= B2R x -> 2 * bpow radix2 (3 * e) <= 3 * B2R x ^ 3). { intros e He. replace (bpow radix2 (3 * e)) with (bpow radix2 e ^ 3). assert (Q : bpow radix2 e ^ 3 <= B2R x ^ 3) by (apply pow_incr; split; auto; apply bpow_ge_0). assert (0 <= bpow radix2 e ^ 3) by (apply pow_le, bpow_ge_0). lra. cbn [pow]. rewrite Rmult_1_r, <- !bpow_plus. f_equal. lia. }
  destruct (recip f x X0) as (_ & _ & _ & Vg).
  destruct (Rle_or_lt (bpow radix2 59) (B2R x)) as [L|L].
  - destruct (big_sum f x Fx X0 v 100 ltac:(lia)) as (s & w & Fs & Es & Ew & Hw). { eapply Rle_trans; [|apply (X3 59%Z L)]. apply Rmult_le_compat_l. lra. apply bpow_le; lia. }
    exists w. split; auto. assert (Es2 : Rabs (B2R s) <= bpow radix2 (-100)) by exact Es. clear Es; rename Es2 into Es. assert (b100 : bpow radix2 (-100) <= bpow radix2 (-69)) by (apply bpow_le; lia). assert (b1 : bpow radix2 (-69) <= / 1000) by (cbn; lra). apply Rabs_le_inv in Es. apply (series_total 0 x w s); auto. apply Rabs_le; lra. apply (final_le f x X0 s w Hw Fs). apply Rabs_le; lra. right. apply Es.
  - destruct (big_sum f x Fx X0 v 69 ltac:(lia)) as (s & w & Fs & Es & Ew & Hw). { apply (X3 23%Z). cbn; lra. } assert (Es2 : Rabs (B2R s) <= bpow radix2 (-69)) by exact Es. clear Es; rename Es2 into Es.
    exists w. split; auto. assert (b1 : bpow radix2 (-69) <= / 1000) by (cbn; lra). apply Rabs_le_inv in Es. apply (series_total 0 x w s); auto. apply Rabs_le; lra. apply (final_le f x X0 s w Hw Fs). apply Rabs_le; lra. left. rewrite Vg.
    assert (bpow radix2 (-59) <= rnd f (/ B2R x)). { apply rnd_ge_fmt. apply fmt_bpow. destruct f; discriminate. change (-59)%Z with (- (59))%Z. rewrite bpow_opp. apply Rinv_le; lra. }
    assert (bpow radix2 (-59) = 1024 * bpow radix2 (-69)) by (change 1024 with (bpow radix2 10); rewrite <- bpow_plus; reflexivity). assert (bpow radix2 (-60) <= bpow radix2 (-59)) by (apply bpow_le; lia). lra.
Qed.
Ltac num := cbn; lra.
Lemma series_main_acc v {f} (x : flt f) : finite x = true -> 5 / 2 <= B2R x -> exists w, atan_series_main v x = Ok w /\ at_acc x w.
Proof.
  intros Fx X0. unfold atan_series_main.
  assert (Z1 : forall z, (Z.abs z <= 16777216)%Z -> (x <. ofZ f z) = Rlt_bool (B2R x) (IZR z)). { intros z Hz. destruct (ofZ_small f z Hz) as (A & B & _). rewrite flt_spec by auto. rewrite A. reflexivity. }
  rewrite !Z1 by lia. 
  destruct (Rlt_bool_spec (B2R x) 3) as [C|C]. apply (range_acc v 8 (5 / 2) 3); auto; try lia; try lra. unfold B119; num. num. unfold pw; num.
  destruct (Rlt_bool_spec (B2R x) 4) as [C2|C2]. apply (range_acc v 7 3 4); auto; try lia; try lra. unfold B119; num. num. unfold pw; num.
  destruct (Rlt_bool_spec (B2R x) 5) as [C3|C3]. apply (range_acc v 6 4 5); auto; try lia; try lra. unfold B119; num. num. unfold pw; num.
  destruct (Rlt_bool_spec (B2R x) 7) as [C4|C4]. apply (range_acc v 5 5 7); auto; try lia; try lra. unfold B119; num. num. unfold pw; num.
  destruct (Rlt_bool_spec (B2R x) 11) as [C5|C5]. apply (range_acc v 4 7 11); auto; try lia; try lra. unfold B119; num. num. unfold pw; num.
  destruct (Rlt_bool_spec (B2R x) 25) as [C6|C6]. apply (range_acc v 3 11 25); auto; try lia; try lra. unfold B119; num. num. unfold pw; num.
  destruct (Rlt_bool_spec (B2R x) 100) as [C7|C7]. apply (range_acc v 2 25 100); auto; try lia; try lra. unfold B119; num. num. unfold pw; num.
  destruct (Rlt_bool_spec (B2R x) 1000) as [C8|C8]. apply (range_acc v 1 100 1000); auto; try lia; try lra. unfold B119; num. num. unfold pw; num.
  destruct (Rle_or_lt (B2R x) 8388608) as [C9|C9]. apply (range_acc v 0 1000 8388608); auto; try lia; try lra. unfold B119; num. num. unfold pw; num.
  apply huge_acc; auto. lra.
Qed.
