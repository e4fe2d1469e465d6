(** * Rounding errors in the upper continued fraction of incomplete_gamma.hpp *)
From Verif Require Import Base FltLemmas ConvLemmas ModelBasic ModelInt ModelElem ModelSpecial ModelApi Spec SpecGamma SpecInc.
From Coq Require Import Lra Psatz.
From Coquelicot Require Import Coquelicot.
From Interval Require Import Tactic.
From Verif Require Import BasicProofs RangeProofs PF FPErr CFBound ExpAcc LogApi PowReal TanhAcc CFAcc MiscProofs SinAcc ErfAcc IntProofs GammaInt GammaAcc BetaAcc IncGamReal IncGamAcc IncGamUp.
From Verif Require Import Base ModelBasic ModelInt ModelElem ModelSpecial ModelApi.
Open Scope R_scope.

Section U.
Context {f : fmt}.
Notation u := (uf f).
Let u0 := uf_pos f.
Let u1 : uf f <= / 16777216 := uf_le f.
Lemma grnd2 z : Rabs (rnd f z - z) <= u * Rabs z + u * / 1000000000000.
Proof.
  assert (G : bpow radix2 (2 - emax f) <= / 1000000000000). { apply Rle_trans with (bpow radix2 (-50)). apply bpow_le. destruct f; discriminate. cbn; lra. }
  eapply Rle_trans. apply rnd_fm. rewrite <- Rmult_plus_distr_l. apply Rmult_le_compat_l. lra. assert (0 <= Rabs z) by apply Rabs_pos. apply Rmax_lub; lra.
Qed.
Section Up.
Context (a z : flt f) (Fa : finite a = true) (Fz : finite z = true).
Notation A := (B2R a).
Notation Zr := (B2R z).
Context (Ha : / 2 <= A <= 10) (Hz : A + 99 / 10 <= Zr <= 100000).
Lemma b2_ok d : (1 <= d <= 100)%Z -> let b := ofZ f (1 + (d - 1) * 2) -. a +. z in finite b = true /\ Rabs (B2R b - hB A d Zr) <= 21 / 10 * u * hB A d Zr.
Proof.
  intros Hd. cbv zeta. destruct (@gZ f (1 + (d - 1) * 2) ltac:(lia)) as (F1 & E1). assert (D : 1 <= IZR d <= 100) by (split; apply IZR_le; lia).
  replace (IZR (1 + (d - 1) * 2)) with (2 * IZR d - 1) in E1 by (rewrite plus_IZR, mult_IZR, minus_IZR; ring).
  destruct (gsub (ofZ f (1 + (d - 1) * 2)) a (2 * IZR d - 1) A 0 0 F1 Fa E1 (gself a)) as (F2 & E2). { apply Rabs_le; lra. } lra.
  unfold hB. set (q := 2 * IZR d - 1 - A) in * . assert (Q : Rabs q <= q + Zr). { unfold q. apply Rabs_le. lra. } assert (uQ : u * Rabs q <= u * (q + Zr)) by (apply Rmult_le_compat_l; lra).
  assert (uB : u * (q + Zr) <= / 16777216 * 100400) by (apply Rmult_le_compat; unfold q; lra). assert (uB1 : u * 1 <= u * (q + Zr)) by (apply Rmult_le_compat_l; unfold q; lra).
  destruct (gadd _ z q Zr _ 0 F2 Fz E2 (gself z)) as (F3 & E3). { apply Rabs_le; unfold q; lra. } lra. split. exact F3. rewrite (Rabs_pos_eq (q + Zr)) in E3 by (unfold q; lra). eapply Rle_trans. exact E3. lra.
Qed.
Lemma c2_ok d : (1 <= d <= 100)%Z -> let c := ofZ f d *. (a -. ofZ f d) in finite c = true /\ Rabs (B2R c - hc A d) <= 21 / 10 * u * Rabs (hc A d) + u * / 10000000.
Proof.
  intros Hd. cbv zeta. destruct (ofZ_small f d ltac:(lia)) as (V1 & F1 & _). assert (D : 1 <= IZR d <= 100) by (split; apply IZR_le; lia). unfold hc. set (x := IZR d) in * .
  destruct (op_sub a (ofZ f d) Fa F1) as (F2 & V2). { rewrite V1. apply Rabs_le. lra. } assert (E2 := grnd2 (A - x)). rewrite <- V1, <- V2 in E2. rewrite V1 in E2. set (w := a -. ofZ f d) in * .
  assert (M : Rabs (A - x) <= 100) by (apply Rabs_le; lra). assert (M0 := Rabs_pos (A - x)). assert (uM : u * Rabs (A - x) <= / 16777216 * 100) by (apply Rmult_le_compat; lra).
  assert (DW : Rabs (x * B2R w - x * (A - x)) <= x * (u * Rabs (A - x)) + u * / 10000000000). { rewrite <- Rmult_minus_distr_l, Rabs_mult, (Rabs_pos_eq x) by lra. apply Rle_trans with (x * (u * Rabs (A - x) + u * / 1000000000000)). apply Rmult_le_compat_l; lra. assert (u * x <= u * 100) by (apply Rmult_le_compat_l; lra). lra. }
  assert (EX : Rabs (x * (A - x)) = x * Rabs (A - x)) by (rewrite Rabs_mult, (Rabs_pos_eq x); lra). assert (xM : x * Rabs (A - x) <= 100 * 100) by (apply Rmult_le_compat; lra).
  set (C := x * (A - x)) in * . assert (uC : 0 <= u * Rabs C <= / 16777216 * 10000) by (rewrite EX; split; [apply Rmult_le_pos; [lra|apply Rmult_le_pos; lra]|apply Rmult_le_compat; try lra; apply Rmult_le_pos; lra]). replace (x * (u * Rabs (A - x))) with (u * Rabs C) in DW by (rewrite EX; ring).
  assert (S : Rabs (x * B2R w) <= Rabs C + (u * Rabs C + u * / 10000000000)). { replace (x * B2R w) with (C + (x * B2R w - C)) by ring. eapply Rle_trans. apply Rabs_triang. lra. }
  destruct (op_mul (ofZ f d) w F1 F2) as (F3 & V3). { rewrite V1. fold x. lra. } split. exact F3. rewrite V1 in V3. fold x in V3. assert (E3 := @grnd f (B2R (ofZ f d) * B2R w)). rewrite V1 in E3. fold x in E3. rewrite <- V3 in E3. 
  assert (US : u * Rabs (x * B2R w) <= u * Rabs C + / 16777216 * (u * Rabs C + u * / 10000000000)). { apply Rle_trans with (u * (Rabs C + (u * Rabs C + u * / 10000000000))). apply Rmult_le_compat_l; lra. rewrite Rmult_plus_distr_l. apply Rplus_le_compat_l. apply Rmult_le_compat_r; lra. }
  set (c := ofZ f d *. w) in * . replace (B2R c - C) with ((B2R c - x * B2R w) + (x * B2R w - C)) by ring. eapply Rle_trans. apply Rabs_triang. lra.
Qed.
Definition kz2 (d : Z) : Z := (if d <=? 4 then 1100 else d * d * 1000000 / ((10 * d + 99) * (10 * d + 89)) + 1)%Z.
Lemma kz2_ok n d : (1 <= d <= 100)%Z -> let X := ht A n (d + 1) Zr in let T := hB A d Zr + hc A d / X in Rabs (hc A d) / X <= IZR (kz2 d) / 10000 * T.
Proof.
  intros Hd. cbv zeta. assert (Hz' : A + 99 / 10 <= Zr) by lra. assert (D : 1 <= IZR d) by (apply IZR_le; lia).
  destruct (ht_low A Zr Ha Hz' (S n) d ltac:(lia)) as (L1 & L2). assert (L3 := ht_nine A Zr Ha Hz' (S n) d ltac:(lia)). assert (X3 := ht_nine A Zr Ha Hz' n (d + 1) ltac:(lia)). rewrite ht_S in L1, L2, L3. set (X := ht A n (d + 1) Zr) in * . set (T := hB A d Zr + hc A d / X) in * . rewrite plus_IZR in X3.
  unfold hc, kz2. set (x := IZR d) in * . assert (XT0 : 0 < X * T) by (apply Rmult_lt_0_compat; lra).
  assert (K : forall k, 0 <= k -> Rabs (x * (A - x)) <= k * (X * T) -> Rabs (x * (A - x)) / X <= k * T). { intros k Hk HH. apply (Rmult_le_reg_r X). lra. unfold Rdiv. rewrite Rmult_assoc, Rinv_l by lra. rewrite Rmult_1_r. lra. }
  destruct (Z.leb_spec d 4) as [C|C].
  - apply IZR_le in C. fold x in C. apply K. lra. destruct (Rle_or_lt x A) as [E|E].
    + specialize (L1 E). rewrite Rabs_pos_eq by (apply Rmult_le_pos; lra). assert ((x + 99 / 10) * (2 * x + 89 / 10) <= X * T) by (apply Rmult_le_compat; lra). assert (x * (A - x) <= x * (10 - x)) by (apply Rmult_le_compat_l; lra). assert (0 <= (x - 28 / 10) * (x - 28 / 10)) by apply Rle_0_sqr. lra.
    + rewrite Rabs_left by nra. assert ((x + 99 / 10) * (x + 89 / 10) <= X * T) by (apply Rmult_le_compat; lra). assert (x * (x - A) <= x * x) by (apply Rmult_le_compat_l; lra). assert (x * x <= x * 4) by (apply Rmult_le_compat_l; lra). lra.
  - assert (D5 : 5 <= x) by (apply IZR_le; lia). assert (M : (x + 99 / 10) * (x + 89 / 10) <= X * T) by (apply Rmult_le_compat; lra).
    assert (Q := kdiv (d * d * 1000000) ((10 * d + 99) * (10 * d + 89)) ltac:(nia)). rewrite !(mult_IZR (10 * d + 99)), !(plus_IZR (10 * d)), !(mult_IZR 10), !(mult_IZR (d * d)), (mult_IZR d d) in Q. fold x in Q.
    apply Rle_trans with (x * x / ((x + 99 / 10) * (x + 89 / 10)) * T).
    2:{ apply Rmult_le_compat_r. lra. replace (x * x / ((x + 99 / 10) * (x + 89 / 10))) with (x * x * 1000000 / ((10 * x + 99) * (10 * x + 89)) / 10000) by (field; lra). apply Rmult_le_compat_r; lra. }
    apply K. apply Rmult_le_pos. nra. left. apply Rinv_0_lt_compat. nra.
    apply Rle_trans with (x * x). apply Rabs_le. split. assert (x * (x - A) <= x * x) by (apply Rmult_le_compat_l; lra). lra. apply Rmult_le_compat_l; lra.
    unfold Rdiv. rewrite Rmult_assoc. rewrite <- (Rmult_1_r (x * x)) at 1. apply Rmult_le_compat_l. nra. apply (Rmult_le_reg_l ((x + 99 / 10) * (x + 89 / 10))). nra. rewrite <- Rmult_assoc, Rinv_r by nra. lra.
Qed.
Fixpoint ge2 (n : nat) (d : Z) : Z :=
  match n with
  | O => 210
  | S m => (1001 * (kz2 d * (310 + ge2 m (d + 1)) + 210 * (10000 + kz2 d) + 1010000) / 10000000 + 1)%Z
  end.
Fixpoint ge2_ok (n : nat) (d : Z) : bool :=
  match n with
  | O => true
  | S m => ((0 <=? kz2 d) && (kz2 d <=? 1000000) && (0 <=? ge2 m (d + 1)) && (ge2 m (d + 1) <=? 160000))%Z && ge2_ok m (d + 1)
  end.
Lemma ge2_check : ge2_ok 99 1 = true /\ (ge2 99 1 <= 420)%Z.
Proof. vm_compute. split. reflexivity. discriminate. Qed.
Definition fcf2 n d := up_rec n d (incomplete_gamma_cf_2_step a z) (ofZ f (1 + (d + Z.of_nat n - 1) * 2) -. a +. z).
Lemma fcf2_ok n : forall d, (1 <= d)%Z -> (d + Z.of_nat n <= 100)%Z -> ge2_ok n d = true ->
  finite (fcf2 n d) = true /\ Rabs (B2R (fcf2 n d) - ht A n d Zr) <= IZR (ge2 n d) / 100 * u * ht A n d Zr.
Proof.
  assert (Hz' : A + 99 / 10 <= Zr) by lra. induction n as [|n IH]; intros d Hd Hn OK.
  - unfold fcf2. cbn [up_rec ge2]. rewrite ht_0. replace (d + Z.of_nat 0 - 1)%Z with (d - 1)%Z by lia. replace (210 / 100) with (21 / 10) by lra. apply b2_ok. lia.
  - cbn [ge2_ok] in OK. rewrite !andb_true_iff, !Z.leb_le in OK. destruct OK as ((((K0 & K1) & G0) & G1) & OK). rewrite Nat2Z.inj_succ in Hn. destruct (IH (d + 1)%Z ltac:(lia) ltac:(lia) OK) as (Fr & Er).
    replace (fcf2 (S n) d) with (incomplete_gamma_cf_2_step a z d (fcf2 n (d + 1))). 2:{ unfold fcf2. cbn [up_rec]. replace (d + 1 + Z.of_nat n)%Z with (d + Z.of_nat (S n))%Z by lia. reflexivity. }
    set (r := fcf2 n (d + 1)) in * . assert (HX := ht_nine A Zr Ha Hz' n (d + 1) ltac:(lia)). assert (HT := ht_nine A Zr Ha Hz' (S n) d ltac:(lia)). rewrite ht_S in HT |- * . assert (D1 : 1 <= IZR d <= 100) by (split; apply IZR_le; lia). rewrite plus_IZR in HX. 
    assert (HK := kz2_ok n d ltac:(lia)). cbv zeta in HK. set (X := ht A n (d + 1) Zr) in * . destruct (b2_ok d ltac:(lia)) as (Fb & Eb). destruct (c2_ok d ltac:(lia)) as (Fc & Ec).
    unfold incomplete_gamma_cf_2_step. set (b := ofZ f (1 + (d - 1) * 2) -. a +. z) in * . set (c := ofZ f d *. (a -. ofZ f d)) in * . set (B := hB A d Zr) in * . set (C := hc A d) in * . set (T := B + C / X) in * .
    assert (HB : / 2 <= B <= 101000) by (unfold B, hB; lra).
    assert (HC : Rabs C <= 1000000). { unfold C, hc. rewrite Rabs_mult, (Rabs_pos_eq (IZR d)) by lra. apply Rle_trans with (100 * 100); [|lra]. apply Rmult_le_compat; try lra. apply Rabs_pos. apply Rabs_le; lra. }
    apply IZR_le in K0, K1, G0, G1. set (kr := IZR (kz2 d)) in * . set (gr := IZR (ge2 n (d + 1))) in * .
    assert (Rho : 0 <= gr / 100 * u <= / 10000). { split. apply Rmult_le_pos; lra. apply Rle_trans with (1600 * / 16777216); [|lra]. apply Rmult_le_compat; lra. }
    destruct (cfstep b c r B C X (21 / 10) (21 / 10) (gr / 100 * u) (kr / 10000) Fb Fc Fr) as (Fw & Ew). lra. exact Eb. lra. exact HC. exact Ec. lra. lra. exact Er. exact Rho. unfold T in HT; lra. exact HK. lra.
    split. exact Fw. eapply Rle_trans. exact Ew. apply Rmult_le_compat_r. fold T; lra.
    assert (BT : B / T <= 1 + kr / 10000). { apply (Rmult_le_reg_r T). lra. unfold Rdiv at 1. rewrite Rmult_assoc, Rinv_l by lra. rewrite Rmult_1_r. assert (Rabs (C / X) <= kr / 10000 * T). { unfold Rdiv at 1. rewrite Rabs_mult, (Rabs_pos_eq (/ X)) by (left; apply Rinv_0_lt_compat; lra). exact HK. } apply Rabs_le_inv in H. unfold T in * . lra. }
    assert (GE : 1001 / 1000 * (kr / 10000 * (31 / 10 + gr / 100) + 21 / 10 * (1 + kr / 10000) + 101 / 100) <= IZR (ge2 (S n) d) / 100).
    { cbn [ge2]. assert (Q := kdiv (1001 * (kz2 d * (310 + ge2 n (d + 1)) + 210 * (10000 + kz2 d) + 1010000)) 10000000 ltac:(lia)). rewrite mult_IZR, !plus_IZR, !mult_IZR, !plus_IZR in Q. fold kr gr in Q. rewrite plus_IZR. lra. }
    assert (BT2 : 21 / 10 * (B / T) <= 21 / 10 * (1 + kr / 10000)) by (apply Rmult_le_compat_l; lra).
    fold T. replace (1001 / 1000 * (kr / 10000 * ((21 / 10 + 1) * u + gr / 100 * u) + 21 / 10 * u * (B / T) + 101 / 100 * u)) with (1001 / 1000 * (kr / 10000 * (31 / 10 + gr / 100) + 21 / 10 * (B / T) + 101 / 100) * u) by (generalize (B / T); intros; field).
    apply Rmult_le_compat_r. lra. lra.
Qed.
Lemma cf2_ok : let w := incomplete_gamma_cf_2_recur a z 1 in finite w = true /\ Rabs (B2R w - ht A 99 1 Zr) <= 42 / 10 * u * ht A 99 1 Zr.
Proof.
  cbv zeta. assert (Hz' : A + 99 / 10 <= Zr) by lra. destruct ge2_check as (C1 & C2). apply IZR_le in C2. destruct (fcf2_ok 99 1 ltac:(lia) ltac:(lia) C1) as (F & E). assert (P := ht_nine A Zr Ha Hz' 99 1 ltac:(lia)). assert (Q : fcf2 99 1 = incomplete_gamma_cf_2_recur a z 1) by (unfold incomplete_gamma_cf_2_recur, rec_up, fcf2; change (Z.to_nat (100 - 1)) with 99%nat; change (1 + Z.of_nat 99 - 1)%Z with 99%Z; reflexivity). rewrite Q in * . split. exact F.
  eapply Rle_trans. exact E. apply Rmult_le_compat_r. lra. apply Rmult_le_compat_r; lra.
Qed.
End Up.
End U.
