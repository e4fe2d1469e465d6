(** * The continued fraction of tan up to and beyond its pole *)
From Coq Require Import Reals Lra Lia ZArith Psatz.
From Coquelicot Require Import Coquelicot.
From Interval Require Import Tactic.
From Verif Require Import Base FltLemmas CFReal.
Open Scope R_scope.

(** x^(k+1) j_k(x), j_k the spherical Bessel functions *)
Fixpoint SBp (k : nat) (x : R) : R * R :=
  match k with O => (sin x, sin x - x * cos x) | S j => let (a, b) := SBp j x in (b, INR (2 * j + 3) * b - x * x * a) end.
Definition SB (k : nat) (x : R) : R := fst (SBp k x).
Lemma SBp_S k x : snd (SBp k x) = SB (S k) x.
Proof. unfold SB. cbn [SBp]. destruct (SBp k x). reflexivity. Qed.
Lemma SB0 x : SB 0 x = sin x. Proof. reflexivity. Qed.
Lemma SB1 x : SB 1 x = sin x - x * cos x. Proof. reflexivity. Qed.
Lemma SB_S k x : SB (S (S k)) x = INR (2 * k + 3) * SB (S k) x - x * x * SB k x.
Proof. rewrite <- (SBp_S k), <- (SBp_S (S k)). unfold SB. cbn [SBp]. destruct (SBp k x). reflexivity. Qed.
Lemma SB_D k x : is_derive (SB (S k)) x (x * SB k x).
Proof.
  assert (H : is_derive (SB (S k)) x (x * SB k x) /\ is_derive (SB (S (S k))) x (x * SB (S k) x)). 2: apply H.
  induction k as [|k (I1 & I2)].
  - assert (D1 : is_derive (SB 1) x (x * SB 0 x)). { apply (is_derive_ext (fun x => sin x - x * cos x)). intros; reflexivity. auto_derive. auto. change (SB 0 x) with (sin x). ring. }
    split; auto. apply (is_derive_ext (fun x => INR (2 * 0 + 3) * SB 1 x - x * x * SB 0 x)). intros; symmetry; apply SB_S.
    evar_last. apply (is_derive_minus (fun x => INR (2 * 0 + 3) * SB 1 x) (fun x => x * x * SB 0 x)). apply is_derive_scal. exact D1.
    apply (is_derive_mult (fun x => x * x) (SB 0)). auto_derive. auto. reflexivity. apply (is_derive_ext sin). intros; reflexivity. apply is_derive_sin. intros; apply Rmult_comm.
    unfold minus, plus, opp, mult; cbn. change (SB 0 x) with (sin x). change (SB 1 x) with (sin x - x * cos x). ring.
  - split; auto. apply (is_derive_ext (fun x => INR (2 * S k + 3) * SB (S (S k)) x - x * x * SB (S k) x)). intros; symmetry; apply SB_S.
    evar_last. apply (is_derive_minus (fun x => INR (2 * S k + 3) * SB (S (S k)) x) (fun x => x * x * SB (S k) x)). apply is_derive_scal. exact I2.
    apply (is_derive_mult (fun x => x * x) (SB (S k))). auto_derive. auto. reflexivity. exact I1. intros; apply Rmult_comm.
    unfold minus, plus, opp, mult. cbn [Hierarchy.AbelianGroup.opp]. cbn -[SB INR Nat.mul]. rewrite (SB_S k). replace (INR (2 * S k + 3)) with (INR (2 * k + 3) + 2). 2:{ replace (2 * S k + 3)%nat with (2 * k + 3 + 2)%nat by lia. rewrite (plus_INR (2 * k + 3) 2). reflexivity. } ring.
Qed.
Lemma SB_at0 k : SB k 0 = 0.
Proof.
  assert (H : SB k 0 = 0 /\ SB (S k) 0 = 0). 2: apply H. induction k as [|k (A & B)]. change (SB 0 0) with (sin 0). change (SB 1 0) with (sin 0 - 0 * cos 0). rewrite sin_0. split; ring. split; auto. rewrite SB_S, A, B. ring.
Qed.
(** positive derivative, zero at zero *)
Lemma pos_from0 (g g' : R -> R) x : 0 < x -> g 0 = 0 -> (forall t, is_derive g t (g' t)) -> (forall t, 0 < t < x -> 0 < g' t) -> 0 < g x.
Proof.
  intros X G0 D P. destruct (MVT_cor2 g g' 0 x X) as (c & E & C). intros t _. apply is_derive_Reals. apply D.
  rewrite G0, !Rminus_0_r in E. rewrite E. apply Rmult_lt_0_compat; auto.
Qed.
Lemma SB1_pos x : 0 < x <= 63 / 20 -> 0 < SB 1 x.
Proof.
  intros X. destruct (Rle_lt_dec x 3) as [L|L].
  - apply (pos_from0 (SB 1) (fun t => t * SB 0 t) x). lra. apply SB_at0. apply SB_D. intros t T. change (SB 0 t) with (sin t). apply Rmult_lt_0_compat. lra. assert (3 < PI) by interval. apply sin_gt_0; lra.
  - rewrite SB1. assert (cos x <= - 9 / 10) by interval. assert (-1 / 10 <= sin x) by interval. nra.
Qed.
Lemma SB_pos k x : 0 < x <= 63 / 20 -> 0 < SB (S k) x.
Proof.
  revert x. induction k as [|k IH]; intros x X. apply SB1_pos; auto.
  apply (pos_from0 (SB (S (S k))) (fun t => t * SB (S k) t) x). lra. apply SB_at0. apply SB_D. intros t T. apply Rmult_lt_0_compat. lra. apply IH. lra.
Qed.
Lemma SB_dec k x : 0 < x <= 63 / 20 -> SB (S (S (S k))) x < x * x / 2 * SB (S (S k)) x.
Proof.
  intros X. set (g := fun t => t * t / 2 * SB (S (S k)) t - SB (S (S (S k))) t). assert (0 < g x). 2: unfold g in *; lra.
  apply (pos_from0 g (fun t => t * t / 2 * (t * SB (S k) t)) x). lra. unfold g. rewrite !SB_at0. ring.
  - intros t. unfold g. evar_last. apply (is_derive_minus (fun t => t * t / 2 * SB (S (S k)) t) (SB (S (S (S k))))). 2: apply SB_D.
    apply (is_derive_mult (fun t => t * t / 2) (SB (S (S k)))). auto_derive. auto. reflexivity. apply SB_D. intros; apply Rmult_comm.
    unfold minus, plus, opp, mult. cbn -[SB]. field.
  - intros t T. assert (P := SB_pos k t ltac:(lra)). repeat apply Rmult_lt_0_compat; lra.
Qed.
(** the tails of the continued fraction *)
Definition DD (k : nat) (x : R) : R := x * x * SB k x / SB (S k) x.   (* tail number k + 2 *)
Lemma DD_rec k x : 0 < x <= 63 / 20 -> DD k x = INR (2 * k + 3) - x * x / DD (S k) x.
Proof.
  intros X. assert (P := SB_pos k x X). assert (Q := SB_pos (S k) x X). unfold DD.
  replace (x * x / (x * x * SB (S k) x / SB (S (S k)) x)) with (SB (S (S k)) x / SB (S k) x) by (field; lra). rewrite (SB_S k). field. lra.
Qed.
Lemma DD_ge2 k x : 0 < x <= 63 / 20 -> 2 <= DD (S (S k)) x.
Proof.
  intros X. assert (P := SB_dec k x X). assert (Q := SB_pos (S (S k)) x X). unfold DD. apply (Rmult_le_reg_r (SB (S (S (S k))) x)). auto. unfold Rdiv. rewrite Rmult_assoc, Rinv_l by lra. lra.
Qed.
Lemma xx_le x : 0 < x <= 63 / 20 -> 0 < x * x <= 9923 / 1000.
Proof. intros X. nra. Qed.
Lemma quot_le a b c : 0 <= a -> 0 < c <= b -> a / b <= a / c.
Proof. intros A B. apply Rmult_le_compat_l. auto. apply Rinv_le_contravar; lra. Qed.
Lemma DD_low k x : 0 < x <= 63 / 20 -> 45 / 10 <= DD (S (S k)) x.
Proof.
  intros X. assert (H := xx_le x X). assert (P := pos_INR k).
  assert (A := DD_ge2 (S (S k)) x X). assert (B : 4 <= DD (S (S (S k))) x).
  { rewrite DD_rec by auto. assert (Q := quot_le (x * x) (DD (S (S (S (S k)))) x) 2 ltac:(lra) ltac:(lra)). rewrite plus_INR, mult_INR, !S_INR. cbn [INR]. lra. }
  rewrite DD_rec by auto. assert (Q := quot_le (x * x) (DD (S (S (S k))) x) 4 ltac:(lra) ltac:(lra)). rewrite plus_INR, mult_INR, !S_INR. cbn [INR]. lra.
Qed.
Local Notation tt := (ct (-1) ones).
Lemma tt_S n d x : tt (S n) d x = IZR (2 * d - 1) - x * x / tt n (d + 1) x.
Proof. rewrite ct_S. unfold ones. unfold Rdiv. ring. Qed.
Lemma tt_0 d x : tt 0 d x = IZR (2 * d - 1).
Proof. unfold ct. cbn [up_rec]. replace (d + Z.of_nat 0)%Z with d by (cbn; ring). reflexivity. Qed.
Lemma tt_low n : forall d x, (4 <= d)%Z -> 0 < x <= 63 / 20 -> IZR (2 * d - 1) - 221 / 100 <= tt n d x /\ 45 / 10 <= tt n d x.
Proof.
  induction n as [|n IH]; intros d x D X; assert (D7 : 7 <= IZR (2 * d - 1)) by (apply IZR_le; lia).
  - rewrite tt_0. lra.
  - rewrite tt_S. assert (H := xx_le x X). destruct (IH (d + 1)%Z x ltac:(lia) X) as (_ & L). assert (Q := quot_le (x * x) (tt n (d + 1) x) (45 / 10) ltac:(lra) ltac:(lra)). lra.
Qed.
Lemma DD_low2 k x : 0 < x <= 63 / 20 -> INR (2 * k + 7) - 221 / 100 <= DD (S (S k)) x.
Proof.
  intros X. assert (H := xx_le x X). rewrite DD_rec by auto. assert (L := DD_low (S k) x X). assert (Q := quot_le (x * x) (DD (S (S (S k))) x) (45 / 10) ltac:(lra) ltac:(lra)).
  replace (2 * S (S k) + 3)%nat with (2 * k + 7)%nat by lia. lra.
Qed.
(** one level *)
Lemma lev c xx a b q A B : 0 <= xx -> 0 < A -> 0 < B -> A <= a -> B <= b -> xx <= q * (A * B) -> Rabs ((c - xx / a) - (c - xx / b)) <= q * Rabs (a - b).
Proof.
  intros X A0 B0 HA HB Q. replace ((c - xx / a) - (c - xx / b)) with (xx / (a * b) * (a - b)) by (field; lra). rewrite Rabs_mult. apply Rmult_le_compat_r. apply Rabs_pos.
  assert (AB : 0 < a * b) by (apply Rmult_lt_0_compat; lra). assert (M : A * B <= a * b) by (apply Rmult_le_compat; lra). assert (M0 : 0 < A * B) by (apply Rmult_lt_0_compat; lra).
  rewrite Rabs_pos_eq. 2:{ apply Rmult_le_pos; auto. left. apply Rinv_0_lt_compat; auto. }
  apply (Rmult_le_reg_r (a * b)); auto. unfold Rdiv. rewrite Rmult_assoc, Rinv_l by lra.
  assert (0 <= q). { apply Rnot_lt_le. intros N. assert (q * (A * B) < 0) by (apply Rmult_neg_pos || nra; lra). lra. }
  assert (q * (A * B) <= q * (a * b)) by (apply Rmult_le_compat_l; auto). lra.
Qed.
Lemma INR_odd k : INR (2 * k + 3) = IZR (2 * Z.of_nat (k + 2) - 1).
Proof. rewrite INR_IZR_INZ. f_equal. lia. Qed.
Lemma trunc_hi n : forall k x, (7 <= k)%nat -> 0 < x <= 63 / 20 -> Rabs (tt n (Z.of_nat (k + 2)) x - DD k x) <= 3 * (/ 28) ^ n.
Proof.
  induction n as [|n IH]; intros k x K X; assert (H := xx_le x X); destruct k as [|[|k]]; try lia; rewrite DD_rec by auto.
  - rewrite tt_0, <- INR_odd. assert (L := DD_low (S k) x X). assert (Q := quot_le (x * x) (DD (S (S (S k))) x) (45 / 10) ltac:(lra) ltac:(lra)).
    replace (INR (2 * S (S k) + 3) - (INR (2 * S (S k) + 3) - x * x / DD (S (S (S k))) x)) with (x * x / DD (S (S (S k))) x) by ring. rewrite Rabs_pos_eq. cbn [pow]. lra. apply Rmult_le_pos. lra. left. apply Rinv_0_lt_compat. lra.
  - rewrite tt_S, <- INR_odd. replace (Z.of_nat (S (S k) + 2) + 1)%Z with (Z.of_nat (S (S (S k)) + 2)) by lia. specialize (IH (S (S (S k))) x ltac:(lia) X).
    destruct (tt_low n (Z.of_nat (S (S (S k)) + 2)) x ltac:(lia) X) as (L1 & _). assert (L2 := DD_low2 (S k) x X).
    assert (Ik : 5 <= INR k). { replace 5 with (INR 5) by (cbn; lra). apply le_INR. lia. }
    assert (E1 : IZR (2 * Z.of_nat (S (S (S k)) + 2) - 1) = INR (2 * S k + 7)) by (rewrite INR_IZR_INZ; f_equal; lia). rewrite E1 in L1.
    assert (E2 : 19 <= INR (2 * S k + 7)). { rewrite INR_IZR_INZ. apply IZR_le. lia. }
    eapply Rle_trans. apply (lev _ (x * x) _ _ (/ 28) (167 / 10) (167 / 10)); try lra. cbn [pow]. assert (A := Rabs_pos (tt n (Z.of_nat (S (S (S k)) + 2)) x - DD (S (S (S k))) x)). lra.
Qed.
Lemma trunc_lo n k x m : 0 < x <= 63 / 20 -> Rabs (tt n (Z.of_nat (S (S k) + 2)) x - DD (S (S k)) x) <= m -> Rabs (tt (S n) (Z.of_nat (S k + 2)) x - DD (S k) x) <= m.
Proof.
  intros X M. assert (H := xx_le x X). rewrite DD_rec by auto. rewrite tt_S, <- INR_odd. replace (Z.of_nat (S k + 2) + 1)%Z with (Z.of_nat (S (S k) + 2)) by lia.
  destruct (tt_low n (Z.of_nat (S (S k) + 2)) x ltac:(lia) X) as (_ & L1). assert (L2 := DD_low k x X).
  eapply Rle_trans. apply (lev _ (x * x) _ _ 1 (45 / 10) (45 / 10)); lra. lra.
Qed.
Lemma trunc2 x : 0 < x <= 63 / 20 -> Rabs (tt 43 2 x - DD 0 x) <= 4 * (/ 28) ^ 36.
Proof.
  intros X. assert (H := xx_le x X). assert (T := trunc_hi 36 7 x ltac:(lia) X).
  change 7%nat with (S (S 5)) in T. apply trunc_lo in T; auto. change (S 5) with (S (S 4)) in T. apply trunc_lo in T; auto. change (S 4) with (S (S 3)) in T. apply trunc_lo in T; auto.
  change (S 3) with (S (S 2)) in T. apply trunc_lo in T; auto. change (S 2) with (S (S 1)) in T. apply trunc_lo in T; auto. change (S 1) with (S (S 0)) in T. apply trunc_lo in T; auto.
  change (tt 43 2 x) with (tt (S 42) 2 x). rewrite tt_S. rewrite DD_rec by auto. replace (INR (2 * 0 + 3)) with (IZR (2 * 2 - 1)) by (cbn; lra).
  change (2 + 1)%Z with (Z.of_nat (1 + 2)).
  assert (A : 278 / 100 <= tt 42 (Z.of_nat (1 + 2)) x). { change 42%nat with (S 41). rewrite tt_S. destruct (tt_low 41 (Z.of_nat (1 + 2) + 1)%Z x ltac:(lia) X) as (_ & L1). change (IZR (2 * Z.of_nat (1 + 2) - 1)) with 5. assert (Q := quot_le (x * x) (tt 41 (Z.of_nat (1 + 2) + 1) x) (45 / 10) ltac:(lra) ltac:(lra)). lra. }
  assert (B : 278 / 100 <= DD 1 x). { rewrite DD_rec by auto. assert (L := DD_low 0 x X). replace (INR (2 * 1 + 3)) with 5 by (cbn; lra). assert (Q := quot_le (x * x) (DD 2 x) (45 / 10) ltac:(lra) ltac:(lra)). lra. }
  eapply Rle_trans. apply (lev _ (x * x) _ _ (13 / 10) (278 / 100) (278 / 100)); try lra. assert (0 <= Rabs (tt 42 (Z.of_nat (1 + 2)) x - DD 1 x)) by apply Rabs_pos. change (6 + 36)%nat with 42%nat in T. lra.
Qed.
