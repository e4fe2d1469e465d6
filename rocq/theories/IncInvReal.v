(** * Incomplete gamma function of integral shape: closed form, bounds for the inverse *)
From Verif Require Import Base SpecGamma SpecInc.
From Coq Require Import Lra Psatz.
From Coquelicot Require Import Coquelicot.
From Interval Require Import Tactic.
From Verif Require Import GammaReal GammaInt IncGamReal.
Open Scope R_scope.

(** z^k / k! *)
Fixpoint tm (k : nat) (z : R) : R := match k with O => 1 | S m => tm m z * z / IZR (Z.of_nat (S m)) end.
Fixpoint Es (n : nat) (z : R) : R := match n with O => 0 | S m => Es m z + tm m z end.
Definition Q (n : nat) (z : R) : R := 1 - exp (- z) * Es n z.
Lemma zs_pos m : 0 < IZR (Z.of_nat (S m)).
Proof. apply IZR_lt. lia. Qed.
Lemma mulz_derive (F : R -> R) z d c : c <> 0 -> is_derive F z d -> is_derive (fun z => F z * z / c) z ((d * z + F z) / c).
Proof. intros C D. assert (E : ex_derive F z) by (eexists; exact D). auto_derive. exact E. replace (Derive (fun x : R => F x) z) with d by (symmetry; apply is_derive_unique; exact D). field. auto. Qed.
Lemma expm_derive (F : R -> R) z d : is_derive F z d -> is_derive (fun z => exp (- z) * F z) z (exp (- z) * (d - F z)).
Proof. intros D. assert (E : ex_derive F z) by (eexists; exact D). auto_derive. exact E. replace (Derive (fun x : R => F x) z) with d by (symmetry; apply is_derive_unique; exact D). ring. Qed.
Lemma tm_derive m : forall z, is_derive (tm (S m)) z (tm m z).
Proof.
  induction m as [|m IH]; intros z; assert (P := zs_pos).
  - cbn [tm]. change (IZR (Z.of_nat 1)) with 1. auto_derive. auto. field.
  - apply (is_derive_ext (fun z => tm (S m) z * z / IZR (Z.of_nat (S (S m))))). reflexivity.
    assert (P1 := P m). assert (P2 := P (S m)). replace (tm (S m) z) with ((tm m z * z + tm (S m) z) / IZR (Z.of_nat (S (S m)))). apply mulz_derive. lra. apply IH.
    cbn [tm]. rewrite (Nat2Z.inj_succ (S m)), succ_IZR in * . field. split; lra.
Qed.
Lemma Es_derive m z : is_derive (Es (S m)) z (Es m z).
Proof.
  induction m as [|m IH]. cbn [Es tm]. auto_derive; auto.
  apply (is_derive_ext (fun z => Es (S m) z + tm (S m) z)). reflexivity. apply (is_derive_plus (Es (S m)) (tm (S m)) z (Es m z) (tm m z)). exact IH. apply tm_derive.
Qed.
Definition gd (m : nat) (z : R) : R := exp (- z) * tm m z.
Lemma Q_derive m z : is_derive (Q (S m)) z (gd m z).
Proof.
  replace (gd m z) with (0 - exp (- z) * (Es m z - Es (S m) z)). 2: unfold gd; cbn [Es]; ring. apply (is_derive_minus (fun _ => 1) (fun z => exp (- z) * Es (S m) z)). apply (is_derive_const 1 z). apply expm_derive. apply Es_derive.
Qed.
Lemma tm_val m z : tm m z = z ^ m / INR (fact m).
Proof.
  induction m as [|m IH]. cbn. field. cbn [tm]. rewrite IH. rewrite fact_simpl, mult_INR, (INR_IZR_INZ (S m)). change (z ^ S m) with (z * z ^ m). assert (P := zs_pos m). assert (Q := INR_fact_neq_0 m). field. split; auto. lra.
Qed.
Lemma tm_pos m z : 0 <= z -> 0 <= tm m z.
Proof. intros Hz. rewrite tm_val. apply Rmult_le_pos. apply pow_le; auto. left. apply Rinv_0_lt_compat. apply INR_fact_lt_0. Qed.
Lemma gd_pos m z : 0 <= z -> 0 <= gd m z.
Proof. intros. apply Rmult_le_pos. left; apply exp_pos. apply tm_pos; auto. Qed.
Lemma Q_mvt m x y : exists c, Rmin x y <= c <= Rmax x y /\ Q (S m) y - Q (S m) x = gd m c * (y - x).
Proof.
  destruct (MVT_gen (Q (S m)) x y (gd m)) as (c & C & E). intros r _. apply Q_derive. intros r _. apply continuity_pt_filterlim. apply (ex_derive_continuous (Q (S m))). eexists. apply Q_derive. exists c. auto.
Qed.
Lemma Q_mono m x y : 0 <= x <= y -> Q (S m) x <= Q (S m) y.
Proof.
  intros H. destruct (Q_mvt m x y) as (c & C & E). rewrite Rmin_left, Rmax_right in C by lra. assert (G := gd_pos m c ltac:(lra)). assert (0 <= gd m c * (y - x)) by (apply Rmult_le_pos; lra). lra.
Qed.
Lemma Q_lt_inv m x y : 0 <= y -> Q (S m) x < Q (S m) y -> 0 <= x -> x < y.
Proof. intros Y H X. destruct (Rlt_or_le x y); auto. assert (M := Q_mono m y x ltac:(lra)). lra. Qed.
Lemma Q_0 m : Q (S m) 0 = 0.
Proof.
  unfold Q. rewrite Ropp_0, exp_0. assert (E : Es (S m) 0 = 1). { induction m as [|m IH]. cbn. ring. change (Es (S (S m)) 0) with (Es (S m) 0 + tm (S m) 0). rewrite IH. cbn [tm]. unfold Rdiv. ring. } rewrite E. ring.
Qed.
Lemma P_closed m z : 0 < z -> gamma_P (INR m + 1) z = Q (S m) z.
Proof.
  intros Hz. assert (F := INR_fact_lt_0 m). assert (M := pos_INR m).
  destruct (low_int (INR m + 1) z (fun t => INR (fact m) * Q (S m) t) (fun _ => 0) 0 ltac:(lra) Hz ltac:(lra)) as (L & HL & HB).
  - intros t Ht. split; [|split].
    + replace (gi (INR m + 1) t * (1 + 0)) with (INR (fact m) * gd m t). apply (is_derive_scal (Q (S m)) t (INR (fact m)) (gd m t)). apply Q_derive.
      unfold gi, gd. replace (INR m + 1 - 1) with (INR m) by ring. rewrite Rpower_pow by lra. rewrite tm_val. field. lra.
    + rewrite Rabs_R0. lra.
    + apply Rmult_le_pos. lra. rewrite <- (Q_0 m). apply Q_mono. lra.
  - replace 0 with (INR (fact m) * Q (S m) 0) by (rewrite Q_0; ring). apply (is_lim_seq_continuous (fun t => INR (fact m) * Q (S m) t)).
    + apply continuity_pt_filterlim. apply (ex_derive_continuous (fun t => INR (fact m) * Q (S m) t)). eexists. apply (is_derive_scal (Q (S m)) 0 (INR (fact m)) (gd m 0)). apply Q_derive.
    + apply (is_lim_seq_ext (fun n => z * / (INR n + 1))). intros n. reflexivity. replace 0 with (z * 0) by ring. apply (is_lim_seq_scal_l _ z 0). apply is_lim_seq_inv with (l := p_infty) . apply (is_lim_seq_plus _ _ p_infty 1 p_infty). apply is_lim_seq_INR. apply is_lim_seq_const. reflexivity. discriminate.
  - unfold gamma_P. change (fun t => Rpower t (INR m + 1 - 1) * exp (- t)) with (gi (INR m + 1)). rewrite (is_lim_seq_unique _ _ HL). cbn [real]. rewrite Gamma_fact. rewrite Rmult_0_l in HB. assert (Z := Rabs_pos (INR (fact m) * Q (S m) z - L)). assert (E : Rabs (INR (fact m) * Q (S m) z - L) = 0) by lra. destruct (Req_dec (INR (fact m) * Q (S m) z - L) 0) as [E0|E0]; [|apply Rabs_no_R0 in E0; contradiction]. replace L with (INR (fact m) * Q (S m) z) by lra. field. lra.
Qed.
Definition gd' (m : nat) (z : R) : R := exp (- z) * (tm m z - tm (S m) z).
Lemma gd_derive m z : is_derive (gd (S m)) z (gd' m z).
Proof.
  apply (expm_derive (tm (S m))). apply tm_derive.
Qed.

(** ** The region of the iteration, shape m + 2 *)
Definition lo (m : nat) : R := match m with 0%nat => 52 / 100 | 1%nat => 12 / 10 | 2%nat => 19 / 10 | 3%nat => 265 / 100 | 4%nat => 34 / 10 | 5%nat => 42 / 10 | 6%nat => 5 | _ => 585 / 100 end.
Definition ig_G (m : nat) : R := match m with 0%nat => 205 / 1000 | 1%nat => 18 / 100 | 2%nat => 16 / 100 | 3%nat => 14 / 100 | 4%nat => 12 / 100 | 5%nat => 11 / 100 | 6%nat => 10 / 100 | _ => 95 / 1000 end.
Definition hi (m : nat) : R := IZR (Z.of_nat m) + 5 / 2.
Ltac eight m H := destruct m as [|[|[|[|[|[|[|[|?]]]]]]]]; [ | | | | | | | |exfalso; lia].
Lemma Q_lo m : (m <= 7)%nat -> Q (S (S m)) (lo m + 8 / 100) <= 15 / 100.
Proof. intros H. eight m H; unfold Q, lo; cbn [Es tm Z.of_nat Pos.of_succ_nat Pos.succ]; interval. Qed.
Lemma Q_hi m : (m <= 7)%nat -> 51 / 100 <= Q (S (S m)) (hi m - 8 / 100).
Proof. intros H. eight m H; unfold Q, hi; cbn [Es tm Z.of_nat Pos.of_succ_nat Pos.succ]; interval. Qed.
Lemma lo_hi m : (m <= 7)%nat -> 52 / 100 <= lo m /\ lo m + 1 <= hi m /\ hi m <= 95 / 10.
Proof. intros H. eight m H; unfold lo, hi; cbn [Z.of_nat Pos.of_succ_nat Pos.succ]; lra. Qed.
Lemma gd_rng m z : (m <= 7)%nat -> lo m <= z <= hi m -> ig_G m <= gd (S m) z <= 4 / 10.
Proof. intros H Hz. eight m H; unfold lo, hi, ig_G in * ; cbn [Z.of_nat Pos.of_succ_nat Pos.succ] in Hz; unfold gd; cbn [Es tm Z.of_nat Pos.of_succ_nat Pos.succ]; split; interval with (i_bisect z, i_taylor z). Qed.
Lemma gd'_rng m z : (m <= 7)%nat -> lo m <= z <= hi m -> Rabs (gd' m z) <= 14 / 10 * ig_G m.
Proof. intros H Hz. eight m H; unfold lo, hi, ig_G in * ; cbn [Z.of_nat Pos.of_succ_nat Pos.succ] in Hz; unfold gd'; cbn [Es tm Z.of_nat Pos.of_succ_nat Pos.succ]; interval with (i_bisect z, i_taylor z). Qed.
Lemma kap m z : (m <= 7)%nat -> lo m <= z <= hi m -> Rabs ((IZR (Z.of_nat m) + 1) / z - 1) <= 93 / 100.
Proof. intros H Hz. eight m H; unfold lo, hi in * ; cbn [Z.of_nat Pos.of_succ_nat Pos.succ] in * ; interval with (i_bisect z, i_taylor z). Qed.
Lemma gd_near m x y : (m <= 7)%nat -> lo m <= x <= hi m -> lo m <= y <= hi m -> Rabs (gd (S m) x - gd (S m) y) <= 14 / 10 * Rabs (x - y) * gd (S m) y.
Proof.
  intros H X Y. destruct (MVT_gen (gd (S m)) y x (gd' m)) as (c & C & E). intros r _. apply gd_derive. intros r _. apply continuity_pt_filterlim. apply (ex_derive_continuous (gd (S m))). eexists. apply gd_derive.
  assert (C' : lo m <= c <= hi m). { assert (A1 := Rmin_l y x). assert (lo m <= Rmin y x) by (apply Rmin_glb; lra). assert (Rmax y x <= hi m) by (apply Rmax_lub; lra). lra. }
  rewrite E, Rabs_mult. assert (B := gd'_rng m c H C'). assert (B2 := gd_rng m y H Y). replace (14 / 10 * Rabs (x - y) * gd (S m) y) with (14 / 10 * gd (S m) y * Rabs (x - y)) by ring. apply Rmult_le_compat_r. apply Rabs_pos. lra.
Qed.
(** the starting value: Wilson and Hilferty's approximation *)
Definition vt (t : R) := t - (2515517 / 1000000 + 802853 / 1000000 * t + 10328 / 1000000 * t * t) / (1 + 1432788 / 1000000 * t + 189269 / 1000000 * t * t + 1308 / 1000000 * t * t * t).
Definition wh (m : nat) (t : R) : R := let a := IZR (Z.of_nat m) + 2 in let y := 1 - 1 / (9 * a) - vt t / (3 * sqrt a) in a * (y * y * y).
Lemma wh_ok m t : (m <= 7)%nat -> 117 / 100 <= t <= 192 / 100 -> Rabs (Q (S (S m)) (wh m t) - exp (- (t * t) / 2)) <= 45 / 10000.
Proof.
  intros H T. eight m H; unfold Q, wh, vt; cbn [Es tm Z.of_nat Pos.of_succ_nat Pos.succ]; interval with (i_bisect t, i_taylor t, i_degree 6).
Qed.
