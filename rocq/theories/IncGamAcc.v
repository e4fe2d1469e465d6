(** * Rounding errors in the continued fractions of incomplete_gamma.hpp *)
From Verif Require Import Base FltLemmas ConvLemmas ModelBasic ModelInt ModelElem ModelSpecial ModelApi Spec SpecGamma SpecInc.
From Coq Require Import Lra Psatz.
From Coquelicot Require Import Coquelicot.
From Interval Require Import Tactic.
From Verif Require Import BasicProofs RangeProofs PF FPErr CFBound ExpAcc LogApi PowReal TanhAcc CFAcc MiscProofs SinAcc ErfAcc IntProofs GammaAcc BetaAcc GammaInt IncGamReal.
From Verif Require Import Base ModelBasic ModelInt ModelElem ModelSpecial ModelApi.
Open Scope R_scope.

Section A.
Context {f : fmt}.
Notation u := (uf f).
Notation fm := (bpow radix2 (2 - emax f)).
Let u0 := uf_pos f.
Let u1 : uf f <= / 16777216 := uf_le f.
Lemma gfm : 0 < fm <= / 1000000000.
Proof. split. apply bpow_gt_0. apply Rle_trans with (bpow radix2 (-30)). apply bpow_le. destruct f; discriminate. cbn; lra. Qed.
Lemma grnd z : Rabs (rnd f z - z) <= u * Rabs z + u * / 1000000000.
Proof. eapply Rle_trans. apply rnd_fm. destruct gfm. rewrite <- Rmult_plus_distr_l. apply Rmult_le_compat_l. lra. assert (0 <= Rabs z) by apply Rabs_pos. apply Rmax_lub; lra. Qed.

(** One step [b + c / r] of a continued fraction *)
Lemma cfstep (b cf r : flt f) B C X be ep rho kap : finite b = true -> finite cf = true -> finite r = true ->
  0 < B <= 1000000 -> Rabs (B2R b - B) <= be * u * B -> 0 <= be <= 10 -> Rabs C <= 1000000 -> Rabs (B2R cf - C) <= ep * u * Rabs C + u * / 10000000 -> 0 <= ep <= 10 ->
  / 6 <= X -> Rabs (B2R r - X) <= rho * X -> 0 <= rho <= / 10000 -> / 6 <= B + C / X -> Rabs C / X <= kap * (B + C / X) -> 0 <= kap <= 100 ->
  let w := b +. cf /. r in finite w = true /\ Rabs (B2R w - (B + C / X)) <= 1001 / 1000 * (kap * ((ep + 1) * u + rho) + be * u * (B / (B + C / X)) + 101 / 100 * u) * (B + C / X).
Proof.
  intros Fb Fc Fr HB Eb Hbe HC Ec Hep HX Er Hrho HT HK Hkap. cbv zeta. set (T := B + C / X) in * . set (q := Rabs C / X) in * .
  assert (iX : 0 < / X <= 6) by (split; [apply Rinv_0_lt_compat; lra|rewrite <- (Rinv_inv 6); apply Rinv_le_contravar; lra]).
  assert (q0 : 0 <= q) by (apply Rmult_le_pos; [apply Rabs_pos|lra]). assert (qX : Rabs C = q * X) by (unfold q; field; lra).
  assert (q6 : q <= 6000000). { unfold q, Rdiv. apply Rle_trans with (1000000 * 6); [|lra]. apply Rmult_le_compat; try lra. apply Rabs_pos. }
  apply Rabs_le_inv in Er. assert (rX : rho * X <= / 10000 * X) by (apply Rmult_le_compat_r; lra). assert (R0 : 9999 / 10000 * X <= B2R r) by lra.
  assert (epu : 0 <= ep * u <= 10 * u) by (split; [apply Rmult_le_pos; lra|apply Rmult_le_compat_r; lra]).
  set (y := B2R cf / B2R r). 
  (* y against C / X *)
  assert (Ey : Rabs (y - C / X) <= 10003 / 10000 * q * (ep * u + rho) + u * / 1000000).
  { unfold y. replace (B2R cf / B2R r - C / X) with (((B2R cf - C) - C / X * (B2R r - X)) * / B2R r) by (field; lra). rewrite Rabs_mult, (Rabs_pos_eq (/ B2R r)) by (left; apply Rinv_0_lt_compat; lra).
    assert (N : Rabs (B2R cf - C - C / X * (B2R r - X)) <= (q * (ep * u + rho)) * X + u * / 10000000).
    { unfold Rminus at 1. eapply Rle_trans. apply Rabs_triang. rewrite Rabs_Ropp, Rabs_mult. replace (Rabs (C / X)) with q by (unfold q, Rdiv; rewrite Rabs_mult, (Rabs_pos_eq (/ X)) by lra; reflexivity).
      assert (q * Rabs (B2R r - X) <= q * (rho * X)) by (apply Rmult_le_compat_l; [auto|apply Rabs_le; lra]). rewrite qX in Ec. lra. }
    assert (I : 0 < / B2R r <= 10001 / 9999 * / X). { split. apply Rinv_0_lt_compat; lra. apply (Rmult_le_reg_r (B2R r)). lra. rewrite Rinv_l by lra. apply Rle_trans with (10001 / 9999 * / X * (9999 / 10000 * X)). replace (10001 / 9999 * / X * (9999 / 10000 * X)) with (10001 / 10000) by (field; lra). lra. apply Rmult_le_compat_l; [apply Rmult_le_pos; lra|lra]. }
    assert (q1 : 0 <= q * (ep * u + rho)) by (apply Rmult_le_pos; lra).
    apply Rle_trans with (((q * (ep * u + rho)) * X + u * / 10000000) * (10001 / 9999 * / X)). apply Rmult_le_compat; try lra. apply Rabs_pos.
    replace ((q * (ep * u + rho) * X + u * / 10000000) * (10001 / 9999 * / X)) with (10001 / 9999 * (q * (ep * u + rho)) + u * / 10000000 * (10001 / 9999) * / X) by (field; lra).
    assert (u * / 10000000 * (10001 / 9999) * / X <= u * / 10000000 * (10001 / 9999) * 6) by (apply Rmult_le_compat_l; lra). lra. }
  assert (CX : Rabs (C / X) = q) by (unfold q, Rdiv; rewrite Rabs_mult, (Rabs_pos_eq (/ X)) by lra; reflexivity).
  assert (qq2 : q * (ep * u + rho) <= q * (/ 5000)). { apply Rmult_le_compat_l. exact q0. lra. }
  assert (Y0 : Rabs y <= 10005 / 10000 * q + / 1000000). { replace y with ((y - C / X) + C / X) by ring. eapply Rle_trans. apply Rabs_triang. rewrite CX. lra. }
  destruct (op_div cf r Fc) as (Fq & Vq). { lra. } { fold y. lra. } fold y in Vq. assert (Eq := grnd y). rewrite <- Vq in Eq. set (qf := cf /. r) in * .
  assert (uY : u * Rabs y <= u * (10005 / 10000 * q + / 1000000)) by (apply Rmult_le_compat_l; lra).
  assert (EQ : Rabs (B2R qf - C / X) <= 10006 / 10000 * q * (ep * u + u + rho) + u * (3 / 1000000)). { replace (B2R qf - C / X) with ((B2R qf - y) + (y - C / X)) by ring. eapply Rle_trans. apply Rabs_triang. assert (0 <= q * (ep * u)) by (apply Rmult_le_pos; lra). assert (0 <= q * rho) by (apply Rmult_le_pos; lra). assert (0 <= q * u) by (apply Rmult_le_pos; lra). lra. }
  (* the sum *)
  assert (beu : 0 <= be * u <= 10 * u) by (split; [apply Rmult_le_pos; lra|apply Rmult_le_compat_r; lra]). assert (bB : be * u * B <= 10 * u * B) by (apply Rmult_le_compat_r; lra). assert (bB0 : 0 <= be * u * B) by (apply Rmult_le_pos; lra).
  set (K := kap * ((ep + 1) * u + rho)). assert (P0 : 0 <= ep * u + u + rho) by lra. assert (Kq : q * (ep * u + u + rho) <= K * T). { unfold K. replace (kap * ((ep + 1) * u + rho) * T) with (kap * T * (ep * u + u + rho)) by ring. apply Rmult_le_compat_r; auto. }
  assert (K0 : 0 <= K) by (apply Rmult_le_pos; lra). assert (KT0 : 0 <= K * T) by (apply Rmult_le_pos; lra). assert (uT : u <= 6 * (u * T)) by (assert (u * / 6 <= u * T) by (apply Rmult_le_compat_l; lra); lra).
  assert (CT : Rabs (C / X) <= kap * T) by (rewrite CX; exact HK).
  assert (TB : T <= 10000000) by (unfold T; apply Rle_trans with (B + Rabs (C / X)); [apply Rplus_le_compat_l, Rle_abs|rewrite CX; lra]).
  set (s := B2R b + B2R qf). assert (ES : Rabs (s - T) <= be * u * B + 10006 / 10000 * (K * T) + 18 / 1000000 * (u * T)).
  { unfold s, T. replace (B2R b + B2R qf - (B + C / X)) with ((B2R b - B) + (B2R qf - C / X)) by ring. eapply Rle_trans. apply Rabs_triang. fold T. lra. }
  assert (KS : K <= 100 * (11 * u + / 10000)). { unfold K. apply Rmult_le_compat; try lra. }
  assert (KT1 : K * T <= / 90 * T) by (apply Rmult_le_compat_r; lra). assert (uT1 : u * T <= / 16777216 * T) by (apply Rmult_le_compat_r; lra). assert (uT0 : 0 < u * T) by (apply Rmult_lt_0_compat; lra).
  assert (BT : B <= 101 * T). { assert (Q := CT). apply Rabs_le_inv in Q. assert (kap * T <= 100 * T) by (apply Rmult_le_compat_r; lra). assert (B = T - C / X) by (unfold T; ring). lra. } assert (uBT : u * B <= u * (101 * T)) by (apply Rmult_le_compat_l; lra).
  assert (S1 : Rabs s <= 102 / 100 * T). { replace s with ((s - T) + T) by ring. eapply Rle_trans. apply Rabs_triang. rewrite (Rabs_pos_eq T) by lra. lra. }
  destruct (op_add b qf Fb Fq) as (Fw & Vw). { fold s. lra. } fold s in Vw. assert (Ew := grnd s). rewrite <- Vw in Ew. split. exact Fw.
  assert (S2 : Rabs s <= T + (be * u * B + 10006 / 10000 * (K * T) + 18 / 1000000 * (u * T))). { replace s with ((s - T) + T) by ring. eapply Rle_trans. apply Rabs_triang. rewrite (Rabs_pos_eq T) by lra. lra. }
  assert (uS : u * Rabs s <= u * T + (/ 16777216 * (be * u * B + 10006 / 10000 * (K * T) + 18 / 1000000 * (u * T)))). { eapply Rle_trans. apply Rmult_le_compat_l. lra. exact S2. rewrite Rmult_plus_distr_l. apply Rplus_le_compat_l. apply Rmult_le_compat_r; lra. }
  replace (1001 / 1000 * (K + be * u * (B / T) + 101 / 100 * u) * T) with (1001 / 1000 * (K * T + be * u * B + 101 / 100 * (u * T))) by (field; lra).
  replace (B2R (b +. qf) - T) with ((B2R (b +. qf) - s) + (s - T)) by ring. eapply Rle_trans. apply Rabs_triang. lra.
Qed.

(** Absolute error of one rounding, carried along *)
Lemma gadd (x y : flt f) X Y ex ey : finite x = true -> finite y = true -> Rabs (B2R x - X) <= ex -> Rabs (B2R y - Y) <= ey -> Rabs (X + Y) <= 1000000 -> ex + ey <= 1000 ->
  finite (x +. y) = true /\ Rabs (B2R (x +. y) - (X + Y)) <= (ex + ey) * (1 + / 16777216) + u * Rabs (X + Y) + u * / 1000000000.
Proof.
  intros Fx Fy Ex Ey HS He. assert (D : Rabs (B2R x + B2R y - (X + Y)) <= ex + ey). { replace (B2R x + B2R y - (X + Y)) with ((B2R x - X) + (B2R y - Y)) by ring. eapply Rle_trans. apply Rabs_triang. lra. }
  assert (S : Rabs (B2R x + B2R y) <= Rabs (X + Y) + (ex + ey)). { replace (B2R x + B2R y) with ((X + Y) + (B2R x + B2R y - (X + Y))) by ring. eapply Rle_trans. apply Rabs_triang. lra. }
  destruct (op_add x y Fx Fy) as (F & V). lra. split. exact F. assert (E := grnd (B2R x + B2R y)). rewrite <- V in E.
  assert (u * Rabs (B2R x + B2R y) <= u * Rabs (X + Y) + / 16777216 * (ex + ey)). { eapply Rle_trans. apply Rmult_le_compat_l. lra. exact S. rewrite Rmult_plus_distr_l. apply Rplus_le_compat_l. apply Rmult_le_compat_r; [|lra]. assert (0 <= Rabs (B2R x - X)) by apply Rabs_pos. assert (0 <= Rabs (B2R y - Y)) by apply Rabs_pos. lra. }
  replace (B2R (x +. y) - (X + Y)) with ((B2R (x +. y) - (B2R x + B2R y)) + (B2R x + B2R y - (X + Y))) by ring. eapply Rle_trans. apply Rabs_triang. lra.
Qed.
Lemma gsub (x y : flt f) X Y ex ey : finite x = true -> finite y = true -> Rabs (B2R x - X) <= ex -> Rabs (B2R y - Y) <= ey -> Rabs (X - Y) <= 1000000 -> ex + ey <= 1000 ->
  finite (x -. y) = true /\ Rabs (B2R (x -. y) - (X - Y)) <= (ex + ey) * (1 + / 16777216) + u * Rabs (X - Y) + u * / 1000000000.
Proof.
  intros Fx Fy Ex Ey HS He. assert (D : Rabs (B2R x - B2R y - (X - Y)) <= ex + ey). { replace (B2R x - B2R y - (X - Y)) with ((B2R x - X) + - (B2R y - Y)) by ring. eapply Rle_trans. apply Rabs_triang. rewrite Rabs_Ropp. lra. }
  assert (S : Rabs (B2R x - B2R y) <= Rabs (X - Y) + (ex + ey)). { replace (B2R x - B2R y) with ((X - Y) + (B2R x - B2R y - (X - Y))) by ring. eapply Rle_trans. apply Rabs_triang. lra. }
  destruct (op_sub x y Fx Fy) as (F & V). lra. split. exact F. assert (E := grnd (B2R x - B2R y)). rewrite <- V in E.
  assert (u * Rabs (B2R x - B2R y) <= u * Rabs (X - Y) + / 16777216 * (ex + ey)). { eapply Rle_trans. apply Rmult_le_compat_l. lra. exact S. rewrite Rmult_plus_distr_l. apply Rplus_le_compat_l. apply Rmult_le_compat_r; [|lra]. assert (0 <= Rabs (B2R x - X)) by apply Rabs_pos. assert (0 <= Rabs (B2R y - Y)) by apply Rabs_pos. lra. }
  replace (B2R (x -. y) - (X - Y)) with ((B2R (x -. y) - (B2R x - B2R y)) + (B2R x - B2R y - (X - Y))) by ring. eapply Rle_trans. apply Rabs_triang. lra.
Qed.
Lemma gmul (x z : flt f) X ex : finite x = true -> finite z = true -> Rabs (B2R x - X) <= ex -> ex <= 1000 -> Rabs X <= 1000000 -> Rabs (B2R z) <= 1000 ->
  finite (x *. z) = true /\ Rabs (B2R (x *. z) - X * B2R z) <= ex * Rabs (B2R z) * (1 + / 16777216) + u * Rabs (X * B2R z) + u * / 1000000000.
Proof.
  intros Fx Fz Ex He HX HZ. set (Z := B2R z) in * . assert (z0 := Rabs_pos Z). assert (e0 : 0 <= ex) by (eapply Rle_trans; [apply Rabs_pos|exact Ex]).
  assert (D : Rabs (B2R x * Z - X * Z) <= ex * Rabs Z). { replace (B2R x * Z - X * Z) with ((B2R x - X) * Z) by ring. rewrite Rabs_mult. apply Rmult_le_compat_r; auto. }
  assert (M : ex * Rabs Z <= 1000000). { apply Rle_trans with (1000 * 1000); [|lra]. apply Rmult_le_compat; lra. } assert (M2 : Rabs (X * Z) <= 1000000000). { rewrite Rabs_mult. apply Rle_trans with (1000000 * 1000); [|lra]. apply Rmult_le_compat; try lra. apply Rabs_pos. }
  assert (S : Rabs (B2R x * Z) <= Rabs (X * Z) + ex * Rabs Z). { replace (B2R x * Z) with (X * Z + (B2R x * Z - X * Z)) by ring. eapply Rle_trans. apply Rabs_triang. lra. }
  destruct (op_mul x z Fx Fz) as (F & V). fold Z. lra. fold Z in V. split. exact F. assert (E := grnd (B2R x * Z)). rewrite <- V in E.
  assert (u * Rabs (B2R x * Z) <= u * Rabs (X * Z) + / 16777216 * (ex * Rabs Z)). { eapply Rle_trans. apply Rmult_le_compat_l. lra. exact S. rewrite Rmult_plus_distr_l. apply Rplus_le_compat_l. apply Rmult_le_compat_r; [|lra]. apply Rmult_le_pos; auto. }
  replace (B2R (x *. z) - X * Z) with ((B2R (x *. z) - B2R x * Z) + (B2R x * Z - X * Z)) by ring. eapply Rle_trans. apply Rabs_triang. lra.
Qed.
Lemma gZ z : (Z.abs z <= 16777216)%Z -> finite (ofZ f z) = true /\ Rabs (B2R (ofZ f z) - IZR z) <= 0.
Proof. intros H. destruct (ofZ_small f z H) as (V & F & _). split. exact F. rewrite V, Rminus_diag_eq, Rabs_R0 by reflexivity. lra. Qed.
Lemma gself (x : flt f) : Rabs (B2R x - B2R x) <= 0.
Proof. rewrite Rminus_diag_eq, Rabs_R0 by reflexivity. lra. Qed.
Lemma ghalf k : (0 <= k <= 1000)%Z -> finite (ofZ f (2 * k) /. ofZ f 2) = true /\ B2R (ofZ f (2 * k) /. ofZ f 2) = IZR k.
Proof.
  intros H. destruct (ofZ_small f (2 * k) ltac:(lia)) as (V & F & _). destruct (ofZ_small f 2 ltac:(lia)) as (V2 & F2 & _).
  assert (Q : B2R (ofZ f (2 * k)) / B2R (ofZ f 2) = IZR k) by (rewrite V, V2, mult_IZR; field). assert (0 <= IZR k <= 1000) by (split; apply IZR_le; lia).
  destruct (op_div (ofZ f (2 * k)) (ofZ f 2) F) as (Fd & Vd). rewrite V2. lra. rewrite Q. rewrite Rabs_pos_eq; lra. split. exact Fd. rewrite Vd, Q. apply rnd_id. apply fmt_IZR. destruct f; cbn; lia.
Qed.

(** ** Lower continued fraction *)
Section Low.
Context (a z : flt f) (Fa : finite a = true) (Fz : finite z = true).
Notation A := (B2R a).
Notation Zr := (B2R z).
Context (Ha : / 2 <= A <= 10) (Hz : / 2 <= Zr <= A + / 2).
Definition bed (d : Z) : R := if (d =? 1)%Z then 41 / 10 else 27 / 10.
Lemma b_ok d : (1 <= d <= 55)%Z -> finite (a +. ofZ f d -. ofZ f 1) = true /\ Rabs (B2R (a +. ofZ f d -. ofZ f 1) - gB A d) <= bed d * u * gB A d.
Proof.
  intros Hd. destruct (gZ d ltac:(lia)) as (F1 & E1). destruct (gZ 1 ltac:(lia)) as (F2 & E2). assert (D : 1 <= IZR d <= 55) by (split; apply IZR_le; lia).
  destruct (gadd a (ofZ f d) A (IZR d) 0 0 Fa F1 (gself a) E1) as (F3 & E3). { rewrite Rabs_pos_eq; lra. } lra. rewrite (Rabs_pos_eq (A + IZR d)) in E3 by lra.
  assert (uAd : u * (A + IZR d) <= / 16777216 * 65) by (apply Rmult_le_compat; lra).
  destruct (gsub _ (ofZ f 1) (A + IZR d) 1 _ 0 F3 F2 E3 E2) as (F4 & E4). { rewrite Rabs_pos_eq; lra. } lra. split. exact F4. rewrite (Rabs_pos_eq (A + IZR d - 1)) in E4 by lra.
  unfold gB. eapply Rle_trans. exact E4. set (x := A + IZR d) in * . unfold bed. destruct (Z.eqb_spec d 1) as [->|N].
  - replace (IZR 1) with 1 in * by reflexivity. assert (x <= 3 * (x - 1)) by (unfold x; lra). assert (u * x <= u * (3 * (x - 1))) by (apply Rmult_le_compat_l; lra). assert (u * 1 <= u * (2 * (x - 1))) by (apply Rmult_le_compat_l; unfold x; lra). lra.
  - assert (2 <= IZR d) by (apply IZR_le; lia). assert (x <= 5 / 3 * (x - 1)) by (unfold x; lra). assert (u * x <= u * (5 / 3 * (x - 1))) by (apply Rmult_le_compat_l; lra). assert (u * 1 <= u * (2 * (x - 1))) by (apply Rmult_le_compat_l; unfold x; lra). lra.
Qed.
Lemma c_ok d : (1 <= d <= 55)%Z -> finite (incomplete_gamma_cf_1_coef a z d) = true /\ Rabs (B2R (incomplete_gamma_cf_1_coef a z d) - gc A d * Zr) <= 31 / 10 * u * Rabs (gc A d * Zr) + u * / 10000000.
Proof.
  intros Hd. unfold incomplete_gamma_cf_1_coef. rewrite is_odd_Zodd. destruct (par d) as (k & [E|E]).
  - replace (Z.odd d) with false by (subst d; symmetry; rewrite Z.odd_mul; reflexivity). subst d. destruct (ghalf k ltac:(lia)) as (F1 & V1). assert (K : 0 <= IZR k <= 28) by (split; apply IZR_le; lia).
    destruct (gmul _ z (IZR k) 0 F1 Fz) as (F2 & E2). { rewrite V1, Rminus_diag_eq, Rabs_R0 by reflexivity. lra. } lra. { rewrite Rabs_pos_eq; lra. } { rewrite Rabs_pos_eq; lra. }
    split. exact F2. rewrite gc_even. eapply Rle_trans. exact E2. assert (0 <= u * Rabs (IZR k * Zr)) by (apply Rmult_le_pos; [lra|apply Rabs_pos]). lra.
  - replace (Z.odd d) with true by (subst d; symmetry; rewrite Z.odd_add, Z.odd_mul; reflexivity). subst d. replace (2 * k + 1 + 1)%Z with (2 * (k + 1))%Z by ring. destruct (ghalf (k + 1) ltac:(lia)) as (F1 & V1). assert (K : 0 <= IZR k <= 28) by (split; apply IZR_le; lia). rewrite plus_IZR in V1.
    destruct (gZ 1 ltac:(lia)) as (F2 & E2). destruct (gsub a (ofZ f 1) A 1 0 0 Fa F2 (gself a) E2) as (F3 & E3). { apply Rabs_le; lra. } lra.
    assert (M : Rabs (A - 1) <= A) by (apply Rabs_le; lra). assert (uM : u * Rabs (A - 1) <= u * A) by (apply Rmult_le_compat_l; lra). assert (uA : u * A <= / 16777216 * 10) by (apply Rmult_le_compat; lra).
    destruct (gadd _ _ (A - 1) (IZR k + 1) _ 0 F3 F1 E3) as (F4 & E4). { rewrite V1, Rminus_diag_eq, Rabs_R0 by reflexivity. lra. } { rewrite Rabs_pos_eq; lra. } lra.
    set (m := a -. ofZ f 1 +. ofZ f (2 * (k + 1)) /. ofZ f 2) in * . replace (A - 1 + (IZR k + 1)) with (A + IZR k) in E4 by ring. rewrite (Rabs_pos_eq (A + IZR k)) in E4 by lra.
    set (c := A + IZR k) in * . assert (uAc : u * A <= u * c) by (apply Rmult_le_compat_l; unfold c; lra). assert (uc1 : u * 1 <= u * (2 * c)) by (apply Rmult_le_compat_l; unfold c; lra).
    assert (E5 : Rabs (B2R (-. m) - - c) <= 201 / 100 * (u * c)). { rewrite fneg_B2R. replace (- B2R m - - c) with (- (B2R m - c)) by ring. rewrite Rabs_Ropp. eapply Rle_trans. exact E4. lra. }
    assert (uc : u * c <= / 16777216 * 38) by (apply Rmult_le_compat; unfold c; lra).
    destruct (gmul (-. m) z (- c) _ ltac:(rewrite fneg_finite; exact F4) Fz E5) as (F6 & E6). lra. { rewrite Rabs_Ropp, Rabs_pos_eq; unfold c; lra. } { rewrite Rabs_pos_eq; lra. }
    split. exact F6. rewrite gc_odd. fold c. eapply Rle_trans. exact E6. replace (Rabs (- c * Zr)) with (c * Zr). 2:{ rewrite Rabs_mult, Rabs_Ropp, !Rabs_pos_eq; unfold c; lra. } rewrite (Rabs_pos_eq Zr) by lra. assert (0 <= u * c * Zr) by (apply Rmult_le_pos; [apply Rmult_le_pos; unfold c; lra|lra]). lra.
Qed.

(** Ratio of the quotient to the value *)
Definition kz (d : Z) : Z :=
  (if d =? 1 then 210000 else if Z.odd d then (10 + d / 2) * 210000 / (d / 2 * (63 + 8 * (d / 2))) + 1 else 210000 / (57 + 8 * (d / 2)) + 1)%Z.
Lemma kdiv n m : (0 < m)%Z -> IZR n / IZR m <= IZR (n / m + 1).
Proof.
  intros Hm. assert (M : 0 < IZR m) by (apply IZR_lt; auto). apply (Rmult_le_reg_r (IZR m)). auto. unfold Rdiv. rewrite Rmult_assoc, Rinv_l by lra. rewrite Rmult_1_r, <- mult_IZR. apply IZR_le.
  assert (E := Z.div_mod n m ltac:(lia)). assert (B := Z.mod_pos_bound n m Hm). nia.
Qed.
Lemma kz_ok n d : (1 <= d <= 55)%Z -> let T := gB A d + gc A d * Zr / gt A n (d + 1) Zr in Rabs (gc A d * Zr) / gt A n (d + 1) Zr <= IZR (kz d) / 10000 * T.
Proof.
  intros Hd. cbv zeta. assert (Hz' : 0 < Zr <= A + / 2) by lra. set (s := A + / 2) in * . assert (Hs : 1 <= s <= 21 / 2) by (unfold s; lra). assert (EA : A = s - / 2) by (unfold s; lra).
  destruct (par d) as (k & [E|E]); subst d.
  - destruct (gt_low A Zr Ha Hz' n k ltac:(lia)) as (_ & L & _). specialize (L ltac:(lia)). set (X := gt A n (2 * k + 1) Zr) in * . rewrite gc_even. assert (K : 1 <= IZR k) by (apply IZR_le; lia). unfold gB. rewrite mult_IZR.
    assert (KZ : 21 / (57 + 8 * IZR k) <= IZR (kz (2 * k)) / 10000). { unfold kz. replace (2 * k =? 1)%Z with false by (symmetry; apply Z.eqb_neq; lia). replace (Z.odd (2 * k)) with false by (symmetry; rewrite Z.odd_mul; reflexivity). replace (2 * k / 2)%Z with k by (rewrite Z.mul_comm, Z.div_mul; lia). assert (Q := kdiv 210000 (57 + 8 * k) ltac:(lia)). rewrite (plus_IZR 57), (mult_IZR 8) in Q. unfold Rdiv in Q. lra. }
    set (x := IZR k) in * . rewrite Rabs_pos_eq by (apply Rmult_le_pos; lra). set (q := x * Zr / X). assert (q0 : 0 <= q <= s / 2). { split. apply Rmult_le_pos. apply Rmult_le_pos; lra. left; apply Rinv_0_lt_compat; lra. apply (Rmult_le_reg_r X). lra. unfold q, Rdiv. rewrite (Rmult_assoc (x * Zr)), Rinv_l by lra. rewrite Rmult_1_r. apply Rle_trans with (x * s). apply Rmult_le_compat_l; lra. apply Rle_trans with (s * / 2 * (2 * x)). lra. apply Rmult_le_compat_l; lra. }
    rewrite EA. apply Rle_trans with (21 / (57 + 8 * x) * (s - / 2 + 2 * x - 1 + q)). 2: apply Rmult_le_compat_r; lra. apply (Rmult_le_reg_r (57 + 8 * x)). lra. replace (21 / (57 + 8 * x) * (s - / 2 + 2 * x - 1 + q) * (57 + 8 * x)) with (21 * (s - / 2 + 2 * x - 1 + q)) by (field; lra). nra.
  - destruct (gt_low A Zr Ha Hz' n (k + 1) ltac:(lia)) as (_ & _ & L). specialize (L ltac:(lia)). replace (2 * (k + 1))%Z with (2 * k + 1 + 1)%Z in L by ring. set (X := gt A n (2 * k + 1 + 1) Zr) in * . rewrite gc_odd. assert (K : 0 <= IZR k) by (apply IZR_le; lia). unfold gB. rewrite plus_IZR in * . rewrite mult_IZR.
    rewrite EA in L. rewrite EA. set (x := IZR k) in * . replace (Rabs (- (s - / 2 + x) * Zr)) with ((s - / 2 + x) * Zr). 2:{ rewrite Rabs_mult, Rabs_Ropp, !Rabs_pos_eq; lra. } set (q := (s - / 2 + x) * Zr / X). replace (- (s - / 2 + x) * Zr / X) with (- q) by (unfold q, Rdiv; ring).
    assert (Q : q * (s + 2 * x + / 2) <= (s - / 2 + x) * s). { assert (q * X = (s - / 2 + x) * Zr) by (unfold q; field; lra). assert (0 <= q). { unfold q. apply Rmult_le_pos. apply Rmult_le_pos; lra. left; apply Rinv_0_lt_compat; lra. } apply Rle_trans with (q * X). apply Rmult_le_compat_l; lra. rewrite H. apply Rmult_le_compat_l; lra. }
    destruct (Z.eq_dec k 0) as [->|N].
    + change (kz (2 * 0 + 1)) with 210000%Z. unfold x in * . rewrite Rplus_0_r, Rmult_0_r in * . nra.
    + assert (KZ : (10 + x) * 21 / (x * (63 + 8 * x)) <= IZR (kz (2 * k + 1)) / 10000). { unfold kz. replace (2 * k + 1 =? 1)%Z with false by (symmetry; apply Z.eqb_neq; lia). replace (Z.odd (2 * k + 1)) with true by (symmetry; rewrite Z.odd_add, Z.odd_mul; reflexivity). replace ((2 * k + 1) / 2)%Z with k. 2:{ rewrite Z.add_comm, Z.mul_comm, Z.div_add by lia. reflexivity. } assert (Q1 := kdiv ((10 + k) * 210000) (k * (63 + 8 * k)) ltac:(nia)). rewrite (mult_IZR k), (plus_IZR 63), (mult_IZR 8), (mult_IZR (10 + k)), (plus_IZR 10) in Q1. fold x in Q1. unfold Rdiv in * . lra. }
      assert (1 <= x) by (apply IZR_le; lia). set (g := s + 2 * x + / 2) in * . 
      (* q (1+kap) <= kap (s + 2x - 1/2) *)
      assert (KQ : (s - / 2 + x) * s / (x * (3 * s + 4 * x)) <= (10 + x) * 21 / (x * (63 + 8 * x))).
      { apply (Rmult_le_reg_r (x * (3 * s + 4 * x) * (63 + 8 * x))). apply Rmult_lt_0_compat; nra. replace ((s - / 2 + x) * s / (x * (3 * s + 4 * x)) * (x * (3 * s + 4 * x) * (63 + 8 * x))) with ((s - / 2 + x) * (s * (63 + 8 * x))) by (field; split; nra). replace ((10 + x) * 21 / (x * (63 + 8 * x)) * (x * (3 * s + 4 * x) * (63 + 8 * x))) with ((10 + x) * (21 * (3 * s + 4 * x))) by (field; split; nra). apply Rmult_le_compat; nra. }
      assert (T0 : q * (x * (3 * s + 4 * x)) <= (s - / 2 + x) * s * (s - / 2 + (2 * x + 1) - 1 - q)).
      { assert (x * (3 * s + 4 * x) <= g * (s + 2 * x - / 2) - (s - / 2 + x) * s) by (unfold g; nra).
        assert (0 <= q). { unfold q. apply Rmult_le_pos. apply Rmult_le_pos; lra. left; apply Rinv_0_lt_compat; lra. }
        assert (q * (x * (3 * s + 4 * x)) <= q * (g * (s + 2 * x - / 2) - (s - / 2 + x) * s)) by (apply Rmult_le_compat_l; auto).
        assert (q * g * (s + 2 * x - / 2) <= (s - / 2 + x) * s * (s + 2 * x - / 2)) by (apply Rmult_le_compat_r; lra). lra. }
      assert (TT : 0 <= s - / 2 + (2 * x + 1) - 1 - q). { assert (P := gt_pos A Zr Ha Hz' (S n) (2 * k + 1) ltac:(lia)). rewrite IncGamReal.gt_S, gc_odd in P. unfold gB in P. rewrite plus_IZR, mult_IZR in P. fold x X in P. rewrite EA in P. replace (- (s - / 2 + x) * Zr / X) with (- q) in P by (unfold q, Rdiv; ring). lra. }
      apply Rle_trans with ((s - / 2 + x) * s / (x * (3 * s + 4 * x)) * (s - / 2 + (2 * x + 1) - 1 - q)). 2: unfold Rminus at 2; apply Rmult_le_compat_r; lra.
      apply (Rmult_le_reg_r (x * (3 * s + 4 * x))). nra. replace ((s - / 2 + x) * s / (x * (3 * s + 4 * x)) * (s - / 2 + (2 * x + 1) - 1 - q) * (x * (3 * s + 4 * x))) with ((s - / 2 + x) * s * (s - / 2 + (2 * x + 1) - 1 - q)) by (field; split; nra). exact T0.
Qed.

(** Accumulated error, in hundredths of the unit roundoff *)
Definition be100 (d : Z) : Z := if (d =? 1)%Z then 410 else 270.
Fixpoint ge (n : nat) (d : Z) : Z :=
  match n with
  | O => be100 d
  | S m => (1001 * (kz d * (410 + ge m (d + 1)) + be100 d * (10000 + kz d) + 1010000) / 10000000 + 1)%Z
  end.
Fixpoint ge_ok (n : nat) (d : Z) : bool :=
  match n with
  | O => true
  | S m => ((0 <=? kz d) && (kz d <=? 1000000) && (0 <=? ge m (d + 1)) && (ge m (d + 1) <=? 160000))%Z && ge_ok m (d + 1)
  end.
Lemma ge_check : ge_ok 54 1 = true /\ (ge 54 1 <= 81000)%Z.
Proof. vm_compute. split. reflexivity. discriminate. Qed.
Lemma be100_ok d : IZR (be100 d) / 100 = bed d.
Proof. unfold be100, bed. destruct (d =? 1)%Z; lra. Qed.
Lemma gt_six n d : (1 <= d)%Z -> / 6 <= gt A n d Zr.
Proof.
  intros Hd. assert (Hz' : 0 < Zr <= A + / 2) by lra. destruct (par d) as (k & [E|E]); subst d.
  - destruct (gt_low A Zr Ha Hz' n k ltac:(lia)) as (_ & _ & L). specialize (L ltac:(lia)). assert (1 <= IZR k) by (apply IZR_le; lia). lra.
  - destruct (Z.eq_dec k 0) as [->|N]. destruct (gt_low A Zr Ha Hz' n 0 ltac:(lia)) as (L & _). change (2 * 0 + 1)%Z with 1%Z. assert (/ 6 <= A / (2 * (A + 1))). { apply (Rmult_le_reg_r (2 * (A + 1))). lra. unfold Rdiv. rewrite Rmult_assoc, Rinv_l by lra. lra. } lra.
    destruct (gt_low A Zr Ha Hz' n k ltac:(lia)) as (_ & L & _). specialize (L ltac:(lia)). assert (1 <= IZR k) by (apply IZR_le; lia). lra.
Qed.
Definition fcf1 n d := up_rec n d (incomplete_gamma_cf_1_step a z) (a +. ofZ f (d + Z.of_nat n) -. ofZ f 1).
Lemma fcf1_ok n : forall d, (1 <= d)%Z -> (d + Z.of_nat n <= 55)%Z -> ge_ok n d = true ->
  finite (fcf1 n d) = true /\ Rabs (B2R (fcf1 n d) - gt A n d Zr) <= IZR (ge n d) / 100 * u * gt A n d Zr.
Proof.
  induction n as [|n IH]; intros d Hd Hn OK.
  - unfold fcf1. cbn [up_rec ge]. rewrite gt_0, Z.add_0_r, be100_ok. apply b_ok. lia.
  - cbn [ge_ok] in OK. rewrite !andb_true_iff, !Z.leb_le in OK. destruct OK as ((((K0 & K1) & G0) & G1) & OK). rewrite Nat2Z.inj_succ in Hn. destruct (IH (d + 1)%Z ltac:(lia) ltac:(lia) OK) as (Fr & Er).
    replace (fcf1 (S n) d) with (incomplete_gamma_cf_1_step a z d (fcf1 n (d + 1))). 2:{ unfold fcf1. cbn [up_rec]. replace (d + 1 + Z.of_nat n)%Z with (d + Z.of_nat (S n))%Z by lia. reflexivity. }
    set (r := fcf1 n (d + 1)) in * . set (X := gt A n (d + 1) Zr) in * . assert (HX := gt_six n (d + 1) ltac:(lia)). fold X in HX. assert (HT := gt_six (S n) d ltac:(lia)). rewrite IncGamReal.gt_S in HT |- * . fold X in HT |- * .
    assert (HK := kz_ok n d ltac:(lia)). cbv zeta in HK. fold X in HK. destruct (b_ok d ltac:(lia)) as (Fb & Eb). destruct (c_ok d ltac:(lia)) as (Fc & Ec).
    unfold incomplete_gamma_cf_1_step. set (b := a +. ofZ f d -. ofZ f 1) in * . set (c := incomplete_gamma_cf_1_coef a z d) in * . set (B := gB A d) in * . set (C := gc A d * Zr) in * . set (T := B + C / X) in * .
    assert (D1 : 1 <= IZR d <= 55) by (split; apply IZR_le; lia). assert (HB : / 2 <= B <= 64) by (unfold B, gB; lra).
    assert (HC : Rabs C <= 1000000). { unfold C. rewrite Rabs_mult, (Rabs_pos_eq Zr) by lra. apply Rle_trans with (100 * 11); [|lra]. apply Rmult_le_compat; try lra. apply Rabs_pos. destruct (par d) as (k & [E|E]); rewrite E; [rewrite gc_even|rewrite gc_odd]; (assert (0 <= IZR k <= 55) by (split; apply IZR_le; lia)); apply Rabs_le; lra. }
    apply IZR_le in K0, K1, G0, G1. set (kr := IZR (kz d)) in * . set (gr := IZR (ge n (d + 1))) in * .
    assert (Rho : 0 <= gr / 100 * u <= / 10000). { split. apply Rmult_le_pos; lra. apply Rle_trans with (1600 * / 16777216); [|lra]. apply Rmult_le_compat; lra. }
    destruct (cfstep b c r B C X (bed d) (31 / 10) (gr / 100 * u) (kr / 10000) Fb Fc Fr) as (Fw & Ew). lra. exact Eb. { unfold bed; destruct (d =? 1)%Z; lra. } exact HC. exact Ec. lra. exact HX. exact Er. exact Rho. exact HT. exact HK. lra.
    split. exact Fw. eapply Rle_trans. exact Ew. apply Rmult_le_compat_r. lra.
    assert (BT : B / T <= 1 + kr / 10000). { apply (Rmult_le_reg_r T). lra. unfold Rdiv at 1. rewrite Rmult_assoc, Rinv_l by lra. rewrite Rmult_1_r. assert (Rabs (C / X) <= kr / 10000 * T). { unfold Rdiv at 1. rewrite Rabs_mult, (Rabs_pos_eq (/ X)) by (left; apply Rinv_0_lt_compat; lra). exact HK. } apply Rabs_le_inv in H. unfold T in * . lra. }
    assert (GE : 1001 / 1000 * (kr / 10000 * (41 / 10 + gr / 100) + bed d * (1 + kr / 10000) + 101 / 100) <= IZR (ge (S n) d) / 100).
    { cbn [ge]. assert (Q := kdiv (1001 * (kz d * (410 + ge n (d + 1)) + be100 d * (10000 + kz d) + 1010000)) 10000000 ltac:(lia)). rewrite mult_IZR, !plus_IZR, !mult_IZR, !plus_IZR in Q. fold kr gr in Q. rewrite plus_IZR. rewrite <- be100_ok. lra. }
    assert (b0 : 0 <= bed d) by (unfold bed; destruct (d =? 1)%Z; lra). assert (BT2 : bed d * (B / T) <= bed d * (1 + kr / 10000)) by (apply Rmult_le_compat_l; auto).
    fold T. replace (1001 / 1000 * (kr / 10000 * ((31 / 10 + 1) * u + gr / 100 * u) + bed d * u * (B / T) + 101 / 100 * u)) with (1001 / 1000 * (kr / 10000 * (41 / 10 + gr / 100) + bed d * (B / T) + 101 / 100) * u) by (generalize (B / T); intros; field).
    apply Rmult_le_compat_r. lra. lra.
Qed.
Lemma cf1_ok : let w := incomplete_gamma_cf_1_recur a z 1 in finite w = true /\ Rabs (B2R w - gt A 54 1 Zr) <= 810 * u * gt A 54 1 Zr.
Proof.
  cbv zeta. destruct ge_check as (C1 & C2). apply IZR_le in C2. destruct (fcf1_ok 54 1 ltac:(lia) ltac:(lia) C1) as (F & E). assert (P := gt_six 54 1 ltac:(lia)). assert (Q : fcf1 54 1 = incomplete_gamma_cf_1_recur a z 1) by (unfold incomplete_gamma_cf_1_recur, rec_up, fcf1, GCEM_INCML_GAMMA_MAX_ITER; change (Z.to_nat (55 - 1)) with 54%nat; change (1 + Z.of_nat 54)%Z with 55%Z; reflexivity). rewrite Q in * . split. exact F.
  eapply Rle_trans. exact E. apply Rmult_le_compat_r. lra. apply Rmult_le_compat_r; lra.
Qed.
End Low.

(** The factor in front of the continued fractions: exp (a ln z - z - ln Gamma a) *)
Lemma pre_arg v (a z : flt f) M1 M2 M3 : finite a = true -> finite z = true -> / 2 <= B2R a <= 10 -> / 2 <= B2R z ->
  let A := B2R a in let Z := B2R z in let L := ln Z in let W := A * L - Z - ln (Gamma A) in
  A * Rabs L <= M1 <= 120 -> Rabs (A * L - Z) <= M2 <= 200000 -> Rabs W <= M3 <= 200000 ->
  exists l lg, log_check v z = Ok l /\ lgamma_check v a = Ok lg /\ finite (a *. l -. z -. lg) = true /\
    Rabs (B2R (a *. l -. z -. lg) - W) <= (67 / 10 * M1 + M2 + M3 + 434) * u + 14 * bpow radix2 (-54).
Proof.
  intros Fa Fz Ha Hz A Z L W H1 H2 H3. fold A in Ha. fold Z in Hz. destruct (log_check_ge v z Fz ltac:(fold Z; lra)) as (l & El & Fl & Rl). unfold rel_err in Rl. fold Z L in Rl. destruct (lgamma_large v a Fa) as (lg & Eg & Fg & Rg). { fold A. change (bpow radix2 55) with 36028797018963968. lra. } { fold A; lra. } fold A in Rg.
  exists l, lg. assert (L15 : ln (A + 5) <= 271 / 100). { apply Rle_trans with (ln 15). apply ln_le; lra. interval. } assert (L14 : 14 * A * ln (A + 5) <= 3794 / 10). { apply Rle_trans with (14 * 10 * (271 / 100)); [|lra]. apply Rmult_le_compat; try lra. rewrite <- ln_1. apply ln_le; lra. }
  assert (Rg2 : Rabs (B2R lg - ln (Gamma A)) <= 4334 / 10 * u + 13 * bpow radix2 (-54)). { change (bpow radix2 (-54)) with (/ 18014398509481984). eapply Rle_trans. exact Rg. apply Rplus_le_compat. apply Rmult_le_compat_r; lra. apply Rmult_le_compat_r; lra. }
  assert (b54 : bpow radix2 (-54) = / 18014398509481984) by reflexivity. assert (L0 := Rabs_pos L). assert (uL : 0 <= u * Rabs L). { apply Rmult_le_pos; lra. } assert (AL : 0 <= A * Rabs L) by (apply Rmult_le_pos; lra).
  assert (LM : Rabs L <= 240). { assert (/ 2 * Rabs L <= A * Rabs L) by (apply Rmult_le_compat_r; lra). lra. } assert (uL2 : u * Rabs L <= / 16777216 * 240) by (apply Rmult_le_compat; lra).
  assert (M10 : 0 <= M1) by lra. assert (M20 : 0 <= M2) by (eapply Rle_trans; [apply Rabs_pos|apply H2]). assert (M30 : 0 <= M3) by (eapply Rle_trans; [apply Rabs_pos|apply H3]).
  assert (uM1 : 0 <= u * M1 <= / 16777216 * 120) by (split; [apply Rmult_le_pos; lra|apply Rmult_le_compat; lra]). assert (uM2 : 0 <= u * M2 <= / 16777216 * 200000) by (split; [apply Rmult_le_pos; lra|apply Rmult_le_compat; lra]). assert (uM3 : 0 <= u * M3 <= / 16777216 * 200000) by (split; [apply Rmult_le_pos; lra|apply Rmult_le_compat; lra]).
  assert (uM4 : u * M2 <= u * 200000) by (apply Rmult_le_compat_l; lra). assert (uM5 : u * M1 <= u * 120) by (apply Rmult_le_compat_l; lra).
  assert (uAL : u * (A * Rabs L) <= u * M1) by (apply Rmult_le_compat_l; lra).
  destruct (gmul l a L (56 / 10 * u * Rabs L) Fl Fa Rl) as (F1 & E1). lra. lra. { fold A. rewrite Rabs_pos_eq; lra. } fold A in E1. rewrite (Rabs_pos_eq A), Rabs_mult, (Rabs_pos_eq A) in E1 by lra.
  assert (LA : Rabs (B2R l * A) <= 8000). { rewrite Rabs_mult, (Rabs_pos_eq A) by lra. apply Rle_trans with (800 * 10); [|lra]. apply Rmult_le_compat; try lra. apply Rabs_pos. replace (B2R l) with (L + (B2R l - L)) by ring. eapply Rle_trans. apply Rabs_triang. lra. } destruct (op_mul l a Fl Fa) as (_ & V1). fold A. lra. destruct (op_mul a l Fa Fl) as (F1' & V1'). fold A. rewrite Rmult_comm. lra. rewrite (Rmult_comm (B2R a)), <- V1 in V1'. rewrite <- V1' in E1. clear F1. rename F1' into F1.
  assert (E1' : Rabs (B2R (a *. l) - A * L) <= 661 / 100 * (u * M1) + u * / 1000000000). { rewrite (Rmult_comm A L). lra. }
  destruct (gsub _ z (A * L) Z _ 0 F1 Fz E1' (gself z)) as (F2 & E2). lra. lra. assert (uq2 : u * Rabs (A * L - Z) <= u * M2) by (apply Rmult_le_compat_l; lra).
  assert (E2' : Rabs (B2R (a *. l -. z) - (A * L - Z)) <= 662 / 100 * (u * M1) + u * M2 + u * / 100000000) by lra.
  destruct (gsub _ lg (A * L - Z) (ln (Gamma A)) _ _ F2 Fg E2' Rg2) as (F3 & E3). fold W. lra. lra. fold W in E3. assert (uq3 : u * Rabs W <= u * M3) by (apply Rmult_le_compat_l; lra).
  split. exact El. split. exact Eg. split. exact F3. lra.
Qed.
Lemma pre_ok v (a z : flt f) M1 M2 M3 : finite a = true -> finite z = true -> / 2 <= B2R a <= 10 -> / 2 <= B2R z ->
  let A := B2R a in let Z := B2R z in let L := ln Z in let W := A * L - Z - ln (Gamma A) in
  A * Rabs L <= M1 <= 120 -> Rabs (A * L - Z) <= M2 <= M3 + 60 -> Rabs W <= M3 -> exp_fit f (M3 + 3) ->
  exists l lg e, log_check v z = Ok l /\ lgamma_check v a = Ok lg /\ exp_check v (a *. l -. z -. lg) = Ok e /\ finite e = true /\
    rel_err (B2R e) (exp W) ((108 + 1003 / 1000 * (67 / 10 * M1 + M2 + M3 + 434)) * u + (16 + M3 / 100) * bpow radix2 (-54)).
Proof.
  intros Fa Fz Ha Hz A Z L W H1 H2 H3 HF. destruct (exp_fit_u f _ HF) as (UM & M20). destruct (pre_arg v a z M1 M2 M3 Fa Fz Ha Hz H1) as (l & lg & El & Eg & F3 & E3'). fold A Z L. lra. fold A Z L W. lra. fold A Z L W in E3'. exists l, lg. set (t := a *. l -. z -. lg) in * .
  assert (b54 : bpow radix2 (-54) = / 18014398509481984) by reflexivity. assert (b61 : bpow radix2 (-61) = / 2305843009213693952) by reflexivity. assert (b55 : bpow radix2 (-55) = / 36028797018963968) by reflexivity. rewrite b54 in * .
  assert (M10 : 0 <= M1). { eapply Rle_trans; [|apply H1]. apply Rmult_le_pos. fold A in Ha; lra. apply Rabs_pos. } assert (M30 : 0 <= M3) by (eapply Rle_trans; [apply Rabs_pos|apply H3]). assert (M2' : 0 <= M2) by (eapply Rle_trans; [apply Rabs_pos|apply H2]).
  assert (uM1 : u * M1 <= / 16777216 * 120) by (apply Rmult_le_compat; lra). assert (uM2 : u * M2 <= u * (M3 + 60)) by (apply Rmult_le_compat_l; lra).
  assert (DD : (67 / 10 * M1 + M2 + M3 + 434) * u <= / 2000) by lra. 
  assert (Bt : Rabs (B2R t) <= M3 + / 1000). { replace (B2R t) with (W + (B2R t - W)) by ring. eapply Rle_trans. apply Rabs_triang. lra. }
  destruct (exp_all v t F3) as (e & Ee & Fe & R1 & R2 & R3 & R4). { apply exp_fit_le with (M3 + 3). lra. exact HF. }
  exists e. split; auto. split; auto. split; auto. split; auto. rewrite b54, b61, ?b55 in * . assert (T0 := Rabs_pos (B2R t)).
  assert (C : rel_err (B2R e) (exp (B2R t)) (108 * u + (12 / 10 + M3 / 128) * / 18014398509481984)).
  { destruct (Rlt_or_le (Rabs (B2R t)) 2) as [C|C]. eapply rel_mono; [|exact (R2 C)]. lra. destruct (Rle_or_lt 0 (B2R t)) as [D|D]. rewrite Rabs_pos_eq in C by lra. eapply rel_mono; [|exact (R3 C)]. lra. rewrite Rabs_left in C by lra. eapply rel_mono; [|exact (R4 ltac:(lra))]. lra. }
  eapply rel_mono; [|apply (exp_pert _ _ W _ _ C E3')]. lra. lra. lra.
Qed.
Lemma pre_val a z : 0 < a -> exp (a * ln z - z - ln (Gamma a)) = Rpower z a * exp (- z) / Gamma a.
Proof. intros Ha. unfold Rpower. replace (a * ln z - z - ln (Gamma a)) with (a * ln z + - z + - ln (Gamma a)) by ring. rewrite !exp_plus, (exp_Ropp (ln (Gamma a))), exp_ln by (apply Gamma_pos; auto). reflexivity. Qed.
End A.
