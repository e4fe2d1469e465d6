(** * The beta integral over (0,1) equals Gamma(a) Gamma(b) / Gamma(a+b); reflection of the
      regularised incomplete beta function *)
From Coq Require Import Reals Lra Lia ZArith Psatz.
From Coquelicot Require Import Coquelicot.
From Interval Require Import Tactic.
From Verif Require Import Spec SpecGamma SpecInc GammaInt GammaApi IncBeta IncGamReal.
Open Scope R_scope.

Lemma exp_le x y : x <= y -> exp x <= exp y.
Proof. intros [H|H]. left. apply exp_increasing; auto. subst. lra. Qed.
Definition bk (a b t : R) : R := Rpower t (a - 1) * Rpower (1 - t) (b - 1).
Lemma bk_pos a b t : 0 < bk a b t.
Proof. apply Rmult_lt_0_compat; apply rpow_pos. Qed.
Lemma bk_ex a b p q : 0 < p < 1 -> 0 < q < 1 -> ex_RInt (bk a b) p q.
Proof. intros P Q. apply (ex_RInt_continuous (bk a b)). intros t T. apply kern_cont. unfold Rmin, Rmax in T. destruct Rle_dec in T; lra. Qed.
Lemma bk_int_pos a b p q : 0 < p -> p <= q -> q < 1 -> 0 <= RInt (bk a b) p q.
Proof. intros. apply RInt_ge_0. auto. apply bk_ex; lra. intros. left. apply bk_pos. Qed.
Lemma bk_chasles a b p q r : 0 < p < 1 -> 0 < q < 1 -> 0 < r < 1 -> RInt (bk a b) p r = RInt (bk a b) p q + RInt (bk a b) q r.
Proof. intros. symmetry. apply (RInt_Chasles (bk a b) p q r); apply bk_ex; auto. Qed.
Lemma bk_mono a b p q p' q' : 0 < p' <= p -> p <= q -> q <= q' < 1 -> RInt (bk a b) p q <= RInt (bk a b) p' q'.
Proof.
  intros P Q Q'. rewrite (bk_chasles a b p' p q') by lra. rewrite (bk_chasles a b p q q') by lra.
  assert (A := bk_int_pos a b p' p ltac:(lra) ltac:(lra) ltac:(lra)). assert (B := bk_int_pos a b q q' ltac:(lra) ltac:(lra) ltac:(lra)). lra.
Qed.
Lemma bk_sym a b p q : 0 < p < 1 -> 0 < q < 1 -> RInt (bk a b) p q = RInt (bk b a) (1 - q) (1 - p).
Proof.
  intros P Q. assert (E := RInt_comp_lin (bk b a) (-1) 1 p q).
  assert (X : ex_RInt (bk b a) (-1 * p + 1) (-1 * q + 1)) by (apply bk_ex; lra).
  specialize (E X). replace (-1 * p + 1) with (1 - p) in E by ring. replace (-1 * q + 1) with (1 - q) in E by ring.
  rewrite <- (opp_RInt_swap (bk b a) (1 - p) (1 - q)). 2: apply bk_ex; lra. rewrite <- E.
  rewrite <- (RInt_opp (fun y => scal (-1) (bk b a (-1 * y + 1)))).
  - apply RInt_ext. intros t _. unfold opp, scal, bk; cbn. unfold mult; cbn. replace (1 - (-1 * t + 1)) with t by ring. replace (-1 * t + 1) with (1 - t) by ring. ring.
  - apply (ex_RInt_comp_lin (bk b a) (-1) 1). exact X.
Qed.
(** ** Bounds *)
Lemma bk_head a b p : 0 < a -> 0 < b -> 0 < p <= / 2 -> RInt (bk a b) p (/ 2) <= 2 / a.
Proof.
  intros Ha Hb Hp.
  assert (I : is_RInt (fun t => 2 * Rpower t (a - 1)) p (/ 2) (2 / a * Rpower (/ 2) a - 2 / a * Rpower p a)).
  { apply (is_RInt_derive (fun t => 2 / a * Rpower t a) (fun t => 2 * Rpower t (a - 1))).
    - intros t Ht. rewrite Rmin_left, Rmax_right in Ht by lra. evar_last. apply (is_derive_scal (fun t => Rpower t a)). apply rpow_derive. lra. field. lra.
    - intros t Ht. rewrite Rmin_left, Rmax_right in Ht by lra. apply (ex_derive_continuous (fun t => 2 * Rpower t (a - 1))). unfold Rpower. auto_derive. lra. }
  apply Rle_trans with (RInt (fun t => 2 * Rpower t (a - 1)) p (/ 2)).
  - apply RInt_le. lra. apply bk_ex; lra. eexists; apply I.
    intros t Ht. unfold bk. assert (P := rpow_pos t (a - 1)). rewrite Rmult_comm. apply Rmult_le_compat_r. lra.
    replace 2 with (exp (ln 2)) by (apply exp_ln; lra). unfold Rpower. apply exp_le.
    assert (L1 : ln (1 - t) <= 0). { rewrite <- ln_1. apply ln_le; lra. }
    assert (L2 : - ln 2 <= ln (1 - t)). { rewrite <- ln_Rinv by lra. apply ln_le; lra. }
    assert (b * ln (1 - t) <= 0). { assert (0 <= b * - ln (1 - t)) by (apply Rmult_le_pos; lra). lra. } lra.
  - rewrite (is_RInt_unique _ _ _ _ I). assert (P := rpow_pos p a).
    assert (Rpower (/ 2) a <= 1). { unfold Rpower. rewrite <- exp_0. apply exp_le. rewrite ln_Rinv by lra. assert (0 < ln 2) by (rewrite <- ln_1; apply ln_increasing; lra). assert (0 <= a * ln 2) by (apply Rmult_le_pos; lra). lra. }
    assert (0 < 2 / a) by (apply Rdiv_lt_0_compat; lra). assert (0 <= 2 / a * Rpower p a) by (apply Rmult_le_pos; lra).
    assert (2 / a * Rpower (/ 2) a <= 2 / a * 1) by (apply Rmult_le_compat_l; lra). lra.
Qed.
Lemma bk_bound a b p q : 0 < a -> 0 < b -> 0 < p -> p <= q -> q < 1 -> RInt (bk a b) p q <= 2 / a + 2 / b.
Proof.
  intros Ha Hb Hp Hpq Hq. set (p' := Rmin p (/ 2)). set (q' := Rmax q (/ 2)).
  assert (A : 0 < p' <= / 2 /\ p' <= p). { unfold p', Rmin. destruct Rle_dec; lra. } assert (B : / 2 <= q' < 1 /\ q <= q'). { unfold q', Rmax. destruct Rle_dec; lra. }
  eapply Rle_trans. apply (bk_mono a b p q p' q'); lra. rewrite (bk_chasles a b p' (/ 2) q') by lra.
  assert (H1 := bk_head a b p' Ha Hb ltac:(lra)). assert (H2 := bk_head b a (1 - q') Hb Ha ltac:(lra)).
  rewrite (bk_sym a b (/ 2) q') by lra. replace (1 - / 2) with (/ 2) by lra. lra.
Qed.
(** ** The integral over (0,1) *)
Definition ep (n : nat) : R := / (INR n + 2).
Lemma ep_pos n : 0 < ep n <= / 2.
Proof. assert (P := pos_INR n). unfold ep. split. apply Rinv_0_lt_compat; lra. apply Rinv_le_contravar; lra. Qed.
Lemma ep_S n : ep (S n) <= ep n.
Proof. assert (P := pos_INR n). unfold ep. rewrite S_INR. apply Rinv_le_contravar; lra. Qed.
Lemma ep_lim : is_lim_seq ep 0.
Proof.
  apply (is_lim_seq_ext (fun n => ga (S n))). { intros n. unfold ga, ep. rewrite S_INR. f_equal. ring. }
  apply (is_lim_seq_incr_1 ga). apply ga_lim.
Qed.
Definition bseq (a b : R) (n : nat) : R := RInt (bk a b) (ep n) (1 - ep n).
Definition BI (a b : R) : R := real (Lim_seq (bseq a b)).
Lemma bseq_incr a b n : bseq a b n <= bseq a b (S n).
Proof. assert (P := ep_pos n). assert (P1 := ep_pos (S n)). assert (Q := ep_S n). apply bk_mono; lra. Qed.
Lemma BI_lim a b : 0 < a -> 0 < b -> is_lim_seq (bseq a b) (BI a b).
Proof.
  intros Ha Hb. destruct (ex_finite_lim_seq_incr (bseq a b) (2 / a + 2 / b) (bseq_incr a b)) as (l & H).
  { intros n. assert (P := ep_pos n). apply bk_bound; lra. }
  assert (E := is_lim_seq_unique _ _ H). unfold BI. rewrite E. exact H.
Qed.
Lemma BI_ge a b n : 0 < a -> 0 < b -> bseq a b n <= BI a b.
Proof. intros. apply (is_lim_seq_incr_compare (bseq a b)). apply BI_lim; auto. apply bseq_incr. Qed.
Lemma BI_pos a b : 0 < a -> 0 < b -> 0 < BI a b.
Proof.
  intros Ha Hb. apply Rlt_le_trans with (bseq a b 1). 2: apply BI_ge; auto. assert (E : ep 1 = / 3) by (unfold ep; cbn; f_equal; ring).
  unfold bseq. rewrite E. apply (RInt_gt_0 (bk a b)). lra. intros; apply bk_pos. intros t Ht. apply kern_cont. lra.
Qed.
Lemma BI_ext a b c d l : 0 < a -> 0 < b -> is_lim_seq (fun n => c * bseq a b n + d n) (Finite l) -> is_lim_seq d 0 -> c * BI a b = l.
Proof.
  intros Ha Hb H D. assert (M : is_lim_seq (fun n => c * bseq a b n + d n) (c * BI a b + 0)).
  { apply is_lim_seq_plus'. apply (is_lim_seq_scal_l _ c (BI a b)). apply BI_lim; auto. exact D. }
  apply is_lim_seq_unique in H. apply is_lim_seq_unique in M. rewrite H in M. injection M. lra.
Qed.
Lemma rpow_ep_lim a : 0 < a -> is_lim_seq (fun n => Rpower (ep n) a) 0.
Proof.
  intros Ha. apply (is_lim_seq_ext (fun n => Rpower (1 / (INR (S n) + 1)) a)).
  { intros n. unfold ep. rewrite S_INR. f_equal. unfold Rdiv. rewrite Rmult_1_l. f_equal. ring. }
  apply (is_lim_seq_incr_1 (fun n => Rpower (1 / (INR n + 1)) a)). apply rpow_lim0; lra.
Qed.
Lemma rpow_le1 t a : 0 < t <= 1 -> 0 <= a -> Rpower t a <= 1.
Proof.
  intros T A. unfold Rpower. rewrite <- exp_0. apply exp_le. assert (ln t <= 0). { rewrite <- ln_1. apply ln_le; lra. }
  assert (0 <= a * - ln t) by (apply Rmult_le_pos; lra). lra.
Qed.
Lemma edge_lim a b : 0 < a -> 0 < b -> is_lim_seq (fun n => Rpower (ep n) a * Rpower (1 - ep n) b) 0.
Proof.
  intros Ha Hb. apply (is_lim_seq_le_le (fun _ => 0) _ (fun n => Rpower (ep n) a)). 2: apply is_lim_seq_const. 2: apply rpow_ep_lim; auto.
  intros n. assert (P := ep_pos n). assert (Q := rpow_pos (ep n) a). assert (Q1 := rpow_pos (1 - ep n) b). split. apply Rmult_le_pos; lra.
  assert (X := rpow_le1 (1 - ep n) b ltac:(lra) ltac:(lra)). rewrite <- (Rmult_1_r (Rpower (ep n) a)) at 2. apply Rmult_le_compat_l; lra.
Qed.
Lemma bseq_parts a b n : 0 < a -> 0 < b ->
  a * bseq a b n - (a + b) * bseq (a + 1) b n = Rpower (1 - ep n) a * Rpower (ep n) b - Rpower (ep n) a * Rpower (1 - ep n) b.
Proof.
  intros Ha Hb. assert (P := ep_pos n). set (p := ep n) in *. unfold bseq. fold p.
  assert (I : is_RInt (fun t => a * bk a b t - (a + b) * bk (a + 1) b t) p (1 - p) (Rpower (1 - p) a * Rpower (1 - (1 - p)) b - Rpower p a * Rpower (1 - p) b)).
  { apply (is_RInt_derive (fun t => Rpower t a * Rpower (1 - t) b) (fun t => a * bk a b t - (a + b) * bk (a + 1) b t)).
    - intros t Ht. rewrite Rmin_left, Rmax_right in Ht by lra. unfold bk. replace (a + 1 - 1) with a by ring.
      assert (E1 : Rpower t a = t * Rpower t (a - 1)). { rewrite <- (Rpower_1 t) at 2 by lra. rewrite <- Rpower_plus. f_equal. ring. }
      assert (E2 : Rpower (1 - t) b = (1 - t) * Rpower (1 - t) (b - 1)). { rewrite <- (Rpower_1 (1 - t)) at 2 by lra. rewrite <- Rpower_plus. f_equal. ring. }
      evar_last. apply (is_derive_mult (fun t => Rpower t a) (fun t => Rpower (1 - t) b)). apply rpow_derive. lra.
      apply (is_derive_comp (fun t => Rpower t b) (fun t => 1 - t)). apply rpow_derive. lra. auto_derive. auto. reflexivity. intros; apply Rmult_comm.
      unfold plus, mult, scal; cbn. unfold mult; cbn. rewrite E1, E2. ring.
    - intros t Ht. rewrite Rmin_left, Rmax_right in Ht by lra.
      apply (continuous_minus (fun t => a * bk a b t) (fun t => (a + b) * bk (a + 1) b t)). apply (continuous_scal_r a (bk a b)). apply kern_cont. lra.
      apply (continuous_scal_r (a + b) (bk (a + 1) b)). apply kern_cont. lra. }
  assert (J1 := RInt_correct _ _ _ (bk_ex a b p (1 - p) ltac:(lra) ltac:(lra))). assert (J2 := RInt_correct _ _ _ (bk_ex (a + 1) b p (1 - p) ltac:(lra) ltac:(lra))).
  assert (J : is_RInt (fun t => a * bk a b t - (a + b) * bk (a + 1) b t) p (1 - p) (a * RInt (bk a b) p (1 - p) - (a + b) * RInt (bk (a + 1) b) p (1 - p))).
  { exact (is_RInt_minus _ _ _ _ _ _ (is_RInt_scal _ _ _ a _ J1) (is_RInt_scal _ _ _ (a + b) _ J2)). }
  assert (U := is_RInt_unique _ _ _ _ I). rewrite (is_RInt_unique _ _ _ _ J) in U. replace (1 - (1 - p)) with p in U by ring. exact U.
Qed.
Lemma BI_S a b : 0 < a -> 0 < b -> (a + b) * BI (a + 1) b = a * BI a b.
Proof.
  intros Ha Hb.
  assert (M : is_lim_seq (fun n => a * bseq a b n - (a + b) * bseq (a + 1) b n) (a * BI a b - (a + b) * BI (a + 1) b)).
  { apply is_lim_seq_minus'. apply (is_lim_seq_scal_l _ a (BI a b)). apply BI_lim; auto. apply (is_lim_seq_scal_l _ (a + b) (BI (a + 1) b)). apply BI_lim; lra. }
  assert (L : is_lim_seq (fun n => Rpower (1 - ep n) a * Rpower (ep n) b - Rpower (ep n) a * Rpower (1 - ep n) b) (0 - 0)).
  { apply is_lim_seq_minus'. 2: apply edge_lim; auto. apply (is_lim_seq_ext (fun n => Rpower (ep n) b * Rpower (1 - ep n) a)). intros; apply Rmult_comm. apply edge_lim; auto. }
  apply (is_lim_seq_ext _ (fun n => a * bseq a b n - (a + b) * bseq (a + 1) b n)) in L. 2: intros n; symmetry; apply bseq_parts; auto.
  apply is_lim_seq_unique in L. apply is_lim_seq_unique in M. rewrite L in M. injection M. lra.
Qed.
Lemma BI_1 b : 0 < b -> b * BI 1 b = 1.
Proof.
  intros Hb. assert (L : is_lim_seq (fun n => b * bseq 1 b n) (1 - 0)).
  { apply (is_lim_seq_ext (fun n => Rpower (1 - ep n) b - Rpower (ep n) b)).
    - intros n. assert (P := ep_pos n). set (p := ep n) in *. unfold bseq. fold p.
      assert (I : is_RInt (bk 1 b) p (1 - p) (- / b * Rpower (1 - (1 - p)) b - - / b * Rpower (1 - p) b)).
      { apply (is_RInt_derive (fun t => - / b * Rpower (1 - t) b) (bk 1 b)).
        - intros t Ht. rewrite Rmin_left, Rmax_right in Ht by lra. evar_last. apply (is_derive_scal (fun t => Rpower (1 - t) b)).
          apply (is_derive_comp (fun t => Rpower t b) (fun t => 1 - t)). apply rpow_derive. lra. auto_derive. auto. reflexivity.
          unfold bk. replace (1 - 1) with 0 by ring. rewrite Rpower_O by lra. unfold scal; cbn. unfold mult; cbn. field. lra.
        - intros t Ht. rewrite Rmin_left, Rmax_right in Ht by lra. apply kern_cont. lra. }
      rewrite (is_RInt_unique _ _ _ _ I). replace (1 - (1 - p)) with p by ring. field. lra.
    - apply is_lim_seq_minus'. 2: apply rpow_ep_lim; auto. replace (Finite 1) with (Finite ((fun t => Rpower (1 - t) b) 0)). 2:{ cbv beta. rewrite Rminus_0_r. f_equal. unfold Rpower. rewrite ln_1, Rmult_0_r, exp_0. reflexivity. }
      apply (is_lim_seq_continuous (fun t => Rpower (1 - t) b)). 2: apply ep_lim. apply continuity_pt_filterlim. apply (ex_derive_continuous (fun t => Rpower (1 - t) b)). unfold Rpower. auto_derive. lra. }
  assert (M : is_lim_seq (fun n => b * bseq 1 b n) (b * BI 1 b)). { apply (is_lim_seq_scal_l _ b (BI 1 b)). apply BI_lim; lra. }
  apply is_lim_seq_unique in L. apply is_lim_seq_unique in M. rewrite L in M. injection M. lra.
Qed.
Lemma BI_dec a a' b : 0 < a -> a <= a' -> 0 < b -> BI a' b <= BI a b.
Proof.
  intros Ha Haa Hb. apply (is_lim_seq_le (bseq a' b) (bseq a b) (BI a' b) (BI a b)). 2,3: apply BI_lim; lra.
  intros n. assert (P := ep_pos n). unfold bseq. apply RInt_le. lra. 1,2: apply bk_ex; lra. intros t Ht. unfold bk. apply Rmult_le_compat_r. left. apply rpow_pos.
  unfold Rpower. apply exp_le. assert (ln t <= 0). { rewrite <- ln_1. apply ln_le; lra. } assert (0 <= (a' - a) * - ln t) by (apply Rmult_le_pos; lra). lra.
Qed.
Lemma BI_sym a b : 0 < a -> 0 < b -> BI a b = BI b a.
Proof.
  intros. unfold BI. f_equal. apply Lim_seq_ext. intros n. assert (P := ep_pos n). unfold bseq. rewrite bk_sym by lra. f_equal. ring.
Qed.
(** ** Euler's identity *)
Section Euler.
Variable b : R.
Hypothesis Hb : 0 < b.
Definition Rr (a : R) : R := BI a b * Gamma (a + b) / (Gamma a * Gamma b).
Lemma Rr_S a : 0 < a -> Rr (a + 1) = Rr a.
Proof.
  intros Ha. unfold Rr. assert (E := BI_S a b Ha Hb). rewrite Gamma_S by auto. replace (a + 1 + b) with (a + b + 1) by ring. rewrite Gamma_S by lra.
  assert (G1 := Gamma_pos a Ha). assert (G2 := Gamma_pos b Hb). replace (BI (a + 1) b * ((a + b) * Gamma (a + b))) with ((a + b) * BI (a + 1) b * Gamma (a + b)) by ring. rewrite E. field. lra.
Qed.
Lemma Rr_n a n : 0 < a -> Rr (a + INR n) = Rr a.
Proof.
  intros Ha. induction n as [|n IH]. rewrite Rplus_0_r. reflexivity.
  rewrite S_INR. rewrite <- IH. replace (a + (INR n + 1)) with (a + INR n + 1) by ring. apply Rr_S. assert (P := pos_INR n). lra.
Qed.
Lemma Rr_1 : Rr 1 = 1.
Proof.
  unfold Rr. rewrite Gamma_one. replace (1 + b) with (b + 1) by ring. rewrite Gamma_S by auto. assert (G := Gamma_pos b Hb). assert (E := BI_1 b Hb).
  replace (BI 1 b * (b * Gamma b)) with (b * BI 1 b * Gamma b) by ring. rewrite E. field. lra.
Qed.
Lemma Rr_pos a : 0 < a -> 0 < Rr a.
Proof.
  intros Ha. unfold Rr. assert (G1 := Gamma_pos a Ha). assert (G2 := Gamma_pos b Hb). assert (G3 := Gamma_pos (a + b) ltac:(lra)). assert (P := BI_pos a b Ha Hb).
  apply Rdiv_lt_0_compat; apply Rmult_lt_0_compat; auto.
Qed.
Lemma ln_Rr a : 0 < a -> ln (Rr a) = ln (BI a b) + ln (Gamma (a + b)) - ln (Gamma a) - ln (Gamma b).
Proof.
  intros Ha. unfold Rr. assert (G1 := Gamma_pos a Ha). assert (G2 := Gamma_pos b Hb). assert (G3 := Gamma_pos (a + b) ltac:(lra)). assert (P := BI_pos a b Ha Hb).
  rewrite ln_div by (apply Rmult_lt_0_compat; auto). rewrite !ln_mult by auto. ring.
Qed.
Lemma ln_quot x : 0 < x -> 0 <= ln (x + b) - ln x <= b / x.
Proof.
  intros Hx. rewrite <- ln_div by lra. replace ((x + b) / x) with (1 + b / x) by (field; lra). assert (0 < b / x) by (apply Rdiv_lt_0_compat; lra). split.
  - rewrite <- ln_1. apply ln_le; lra.
  - replace (b / x) with (ln (exp (b / x))) at 2 by apply ln_exp. apply ln_le. lra. assert (E := exp_ineq1_le (b / x)). lra.
Qed.
Lemma Rr_near x s : 0 < x -> 0 <= s <= 1 -> Rr x = 1 -> Rabs (ln (Rr (x + s))) <= (b + 1) / x.
Proof.
  intros Hx Hs H1. assert (L0 : ln (Rr x) = 0) by (rewrite H1; apply ln_1). rewrite ln_Rr in L0 by auto. rewrite ln_Rr by lra.
  assert (U1 := lnGamma_up x s Hx Hs). assert (D1 := lnGamma_low x s Hx Hs). assert (U2 := lnGamma_up (x + b) s ltac:(lra) Hs). assert (D2 := lnGamma_low (x + b) s ltac:(lra) Hs).
  replace (x + b + s) with (x + s + b) in U2, D2 by ring. assert (Q := ln_quot x Hx).
  assert (B1 : ln (BI (x + s) b) <= ln (BI x b)). { apply ln_le. apply BI_pos; lra. apply BI_dec; lra. }
  assert (B2 : ln (BI x b) + ln x - ln (x + b) <= ln (BI (x + s) b)).
  { apply Rle_trans with (ln (BI (x + 1) b)). 2:{ apply ln_le. apply BI_pos; lra. apply BI_dec; lra. }
    assert (E := f_equal ln (BI_S x b Hx Hb)). rewrite !ln_mult in E; try apply BI_pos; try lra. }
  assert (S1 : s / x <= 1 / x). { apply Rmult_le_compat_r. left. apply Rinv_0_lt_compat; auto. lra. }
  assert (S2 : s / (x + b) <= 1 / x). { apply Rle_trans with (1 / (x + b)). apply Rmult_le_compat_r. left. apply Rinv_0_lt_compat; lra. lra. unfold Rdiv. rewrite !Rmult_1_l. apply Rinv_le_contravar; lra. }
  set (l := ln (x + b) - ln x) in *. assert (s * l <= 1 * l) by (apply Rmult_le_compat_r; lra). assert (0 <= s * l) by (apply Rmult_le_pos; lra).
  assert (E : s * ln (x + b) - s * ln x = s * l) by (unfold l; ring). assert (E2 : (b + 1) / x = b / x + 1 / x) by (field; lra).
  apply Rabs_le. unfold l in *. lra.
Qed.
Lemma Rr_all a : 0 < a -> Rr a = 1.
Proof.
  intros Ha. assert (M := archimed a). set (m := (up a - 1)%Z). assert (Hm : (0 <= m)%Z). { unfold m. assert (0 < IZR (up a)) by lra. apply (lt_IZR 0) in H. lia. }
  assert (Em : IZR m = INR (Z.to_nat m)). { rewrite INR_IZR_INZ, Z2Nat.id; auto. }
  set (s := a - IZR m). assert (Hs : 0 <= s <= 1). { unfold s, m. rewrite minus_IZR. lra. }
  assert (K : forall n, Rabs (ln (Rr a)) <= (b + 1) * / (INR n + 1)).
  { intros n. assert (P := pos_INR n). assert (Pm := pos_INR (Z.to_nat m)).
    assert (N := Rr_near (1 + INR (Z.to_nat m + n)) s). rewrite plus_INR in N. specialize (N ltac:(lra) Hs). rewrite <- plus_INR in N. rewrite Rr_n in N by lra. specialize (N Rr_1).
    replace (1 + INR (Z.to_nat m + n) + s) with (a + INR (S n)) in N. 2:{ unfold s. rewrite plus_INR, S_INR, <- Em. ring. }
    rewrite Rr_n in N by auto. eapply Rle_trans. exact N. apply Rmult_le_compat_l. lra. apply Rinv_le_contravar. lra. rewrite plus_INR. lra. }
  assert (Z0 : Rabs (ln (Rr a)) <= 0).
  { assert (L : is_lim_seq (fun n => (b + 1) * / (INR n + 1)) 0). { replace (Finite 0) with (Rbar_mult (b + 1) 0) by (cbn; f_equal; ring). apply (is_lim_seq_scal_l ga (b + 1) 0). apply ga_lim. }
    exact (is_lim_seq_le _ _ (Finite (Rabs (ln (Rr a)))) (Finite 0) K (is_lim_seq_const _) L). }
  assert (Z1 : ln (Rr a) = 0). { assert (P := Rabs_pos (ln (Rr a))). destruct (Req_dec (ln (Rr a)) 0) as [e|n]; auto. apply Rabs_pos_lt in n. lra. }
  rewrite <- (exp_ln (Rr a)) by (apply Rr_pos; auto). rewrite Z1. apply exp_0.
Qed.
End Euler.
Lemma BI_Gamma a b : 0 < a -> 0 < b -> BI a b = Gamma a * Gamma b / Gamma (a + b).
Proof.
  intros Ha Hb. assert (E := Rr_all b Hb a Ha). unfold Rr in E. assert (G1 := Gamma_pos a Ha). assert (G2 := Gamma_pos b Hb). assert (G3 := Gamma_pos (a + b) ltac:(lra)).
  apply (Rmult_eq_reg_r (Gamma (a + b) / (Gamma a * Gamma b))). 2:{ apply Rgt_not_eq. apply Rdiv_lt_0_compat; auto. apply Rmult_lt_0_compat; auto. }
  transitivity 1. rewrite <- E. field. lra. field. lra.
Qed.
(** ** The two halves of the integral *)
Definition IL (a b z : R) : R := real (Lim_seq (fun n => RInt (bk a b) (z / (INR n + 1)) z)).
Lemma beta_I_IL a b z : 0 < a -> 0 < b -> beta_I a b z = IL a b z / BI a b.
Proof. intros Ha Hb. unfold beta_I, IL. rewrite (BI_Gamma a b Ha Hb). reflexivity. Qed.
Lemma frac_le z n : 0 < z -> 0 < z / (INR n + 1) <= z.
Proof.
  intros Z. assert (P := pos_INR n). split. apply Rdiv_lt_0_compat; lra. rewrite <- (Rmult_1_r z) at 2. apply Rmult_le_compat_l. lra. rewrite <- Rinv_1 at 2. apply Rinv_le_contravar; lra.
Qed.
Lemma IL_lim a b z : 0 < a -> 0 < b -> 0 < z < 1 -> is_lim_seq (fun n => RInt (bk a b) (z / (INR n + 1)) z) (IL a b z).
Proof.
  intros Ha Hb Z. destruct (ex_finite_lim_seq_incr (fun n => RInt (bk a b) (z / (INR n + 1)) z) (2 / a + 2 / b)) as (l & H).
  - intros n. assert (F1 := frac_le z n ltac:(lra)). assert (F2 := frac_le z (S n) ltac:(lra)). apply bk_mono; try lra. split. lra.
    rewrite S_INR. apply Rmult_le_compat_l. lra. assert (P := pos_INR n). apply Rinv_le_contravar; lra.
  - intros n. assert (F1 := frac_le z n ltac:(lra)). apply bk_bound; lra.
  - assert (E := is_lim_seq_unique _ _ H). unfold IL. rewrite E. exact H.
Qed.
Lemma IL_sum a b z : 0 < a -> 0 < b -> 0 < z < 1 -> IL a b z + IL b a (1 - z) = BI a b.
Proof.
  intros Ha Hb Z. set (K := fun n => RInt (bk a b) (z / (INR n + 1)) (1 - (1 - z) / (INR n + 1))).
  assert (LK : is_lim_seq K (IL a b z + IL b a (1 - z))).
  { apply (is_lim_seq_ext (fun n => RInt (bk a b) (z / (INR n + 1)) z + RInt (bk b a) ((1 - z) / (INR n + 1)) (1 - z))).
    - intros n. assert (F1 := frac_le z n ltac:(lra)). assert (F2 := frac_le (1 - z) n ltac:(lra)). unfold K. rewrite (bk_chasles a b (z / (INR n + 1)) z (1 - (1 - z) / (INR n + 1))) by lra. f_equal.
      rewrite (bk_sym a b z) by lra. f_equal. ring.
    - apply is_lim_seq_plus'; apply IL_lim; lra. }
  apply Rle_antisym.
  - apply (is_lim_seq_le K (fun _ => BI a b) (Finite (IL a b z + IL b a (1 - z))) (Finite (BI a b))); auto. 2: apply is_lim_seq_const.
    intros n. assert (F1 := frac_le z n ltac:(lra)). assert (F2 := frac_le (1 - z) n ltac:(lra)).
    set (e := Rmin (z / (INR n + 1)) ((1 - z) / (INR n + 1))). assert (He : 0 < e /\ e <= z / (INR n + 1) /\ e <= (1 - z) / (INR n + 1)). { unfold e, Rmin. destruct Rle_dec; lra. }
    destruct (nfloor_ex (/ e)) as (m & M). left. apply Rinv_0_lt_compat. lra.
    assert (Em : ep m <= e). { rewrite <- (Rinv_inv e). unfold ep. apply Rinv_le_contravar. apply Rinv_0_lt_compat. lra. lra. }
    assert (P := ep_pos m). apply Rle_trans with (bseq a b m). 2: apply BI_ge; auto. unfold K, bseq. apply bk_mono; try lra.
  - apply (is_lim_seq_le (bseq a b) (fun _ => IL a b z + IL b a (1 - z)) (Finite (BI a b)) (Finite (IL a b z + IL b a (1 - z)))). 2: apply BI_lim; auto. 2: apply is_lim_seq_const.
    intros n. assert (P := ep_pos n).
    destruct (nfloor_ex (/ ep n)) as (m & M). left. apply Rinv_0_lt_compat. lra. assert (Pm := pos_INR m).
    assert (Em : / (INR m + 1) <= ep n). { rewrite <- (Rinv_inv (ep n)). apply Rinv_le_contravar. apply Rinv_0_lt_compat. lra. lra. }
    assert (I0 : 0 < / (INR m + 1)) by (apply Rinv_0_lt_compat; lra).
    assert (z * / (INR m + 1) <= 1 * / (INR m + 1)) by (apply Rmult_le_compat_r; lra). assert ((1 - z) * / (INR m + 1) <= 1 * / (INR m + 1)) by (apply Rmult_le_compat_r; lra).
    assert (F1 := frac_le z m ltac:(lra)). assert (F2 := frac_le (1 - z) m ltac:(lra)).
    apply Rle_trans with (K m).
    + unfold K, bseq. apply bk_mono; unfold Rdiv in *; lra.
    + apply (is_lim_seq_incr_compare K). exact LK. intros k. unfold K. assert (G1 := frac_le z k ltac:(lra)). assert (G2 := frac_le (1 - z) k ltac:(lra)).
      assert (Pk := pos_INR k). assert (J : / (INR (S k) + 1) <= / (INR k + 1)) by (rewrite S_INR; apply Rinv_le_contravar; lra). assert (G3 := frac_le z (S k) ltac:(lra)). assert (G4 := frac_le (1 - z) (S k) ltac:(lra)).
      assert (z * / (INR (S k) + 1) <= z * / (INR k + 1)) by (apply Rmult_le_compat_l; lra). assert ((1 - z) * / (INR (S k) + 1) <= (1 - z) * / (INR k + 1)) by (apply Rmult_le_compat_l; lra).
      apply bk_mono; unfold Rdiv in *; lra.
Qed.
Lemma IL_step a b z z' : 0 < a -> 0 < b -> 0 < z < 1 -> 0 < z' < 1 -> IL a b z' = IL a b z + RInt (bk a b) z z'.
Proof.
  intros Ha Hb Z Z'. assert (S1 := IL_sum a b z' Ha Hb Z'). assert (S2 := IL_sum a b z Ha Hb Z).
  (* compare the truncated integrals *)
  assert (L : forall p q, 0 < p -> p <= q -> q < 1 -> IL a b q = IL a b p + RInt (bk a b) p q).
  { clear - Ha Hb. intros p q P Q Q1.
    assert (A : is_lim_seq (fun n => RInt (bk a b) (p / (INR n + 1)) p + RInt (bk a b) p q) (IL a b p + RInt (bk a b) p q)). { apply is_lim_seq_plus'. apply IL_lim; lra. apply is_lim_seq_const. }
    assert (B := IL_lim a b q Ha Hb ltac:(lra)).
    apply Rle_antisym.
    - refine (is_lim_seq_le (fun n => RInt (bk a b) (q / (INR n + 1)) q) (fun _ => IL a b p + RInt (bk a b) p q) (Finite _) (Finite _) _ B (is_lim_seq_const _)).
      intros n. assert (F1 := frac_le q n ltac:(lra)). set (e := Rmin (q / (INR n + 1)) p). assert (He : 0 < e /\ e <= p /\ e <= q / (INR n + 1)). { unfold e, Rmin. destruct Rle_dec; lra. }
      destruct (nfloor_ex (p / e)) as (m & M). left. apply Rdiv_lt_0_compat; lra. assert (F2 := frac_le p m P). assert (Pm := pos_INR m).
      assert (Em : p / (INR m + 1) <= e). { apply (Rmult_le_reg_r ((INR m + 1) / e)). apply Rdiv_lt_0_compat; lra. replace (p / (INR m + 1) * ((INR m + 1) / e)) with (p / e) by (field; lra). replace (e * ((INR m + 1) / e)) with (INR m + 1) by (field; lra). lra. }
      apply Rle_trans with (RInt (bk a b) (p / (INR m + 1)) p + RInt (bk a b) p q).
      + rewrite <- bk_chasles by lra. apply bk_mono; lra.
      + apply Rplus_le_compat_r. apply (is_lim_seq_incr_compare (fun n => RInt (bk a b) (p / (INR n + 1)) p) (IL a b p)). apply IL_lim; lra.
        intros k. assert (G1 := frac_le p k P). assert (G2 := frac_le p (S k) P). apply bk_mono; try lra. split. lra. rewrite S_INR. apply Rmult_le_compat_l. lra. assert (Pk := pos_INR k). apply Rinv_le_contravar; lra.
    - refine (is_lim_seq_le _ (fun _ => IL a b q) (Finite _) (Finite _) _ A (is_lim_seq_const _)).
      intros n. assert (F1 := frac_le p n P). rewrite <- bk_chasles by lra. set (e := p / (INR n + 1)) in *.
      destruct (nfloor_ex (q / e)) as (m & M). left. apply Rdiv_lt_0_compat; lra. assert (F2 := frac_le q m ltac:(lra)). assert (Pm := pos_INR m).
      assert (Em : q / (INR m + 1) <= e). { apply (Rmult_le_reg_r ((INR m + 1) / e)). apply Rdiv_lt_0_compat; lra. replace (q / (INR m + 1) * ((INR m + 1) / e)) with (q / e) by (field; lra). replace (e * ((INR m + 1) / e)) with (INR m + 1) by (field; lra). lra. }
      apply Rle_trans with (RInt (bk a b) (q / (INR m + 1)) q). apply bk_mono; lra.
      apply (is_lim_seq_incr_compare (fun n => RInt (bk a b) (q / (INR n + 1)) q) (IL a b q)). exact B.
      intros k. assert (G1 := frac_le q k ltac:(lra)). assert (G2 := frac_le q (S k) ltac:(lra)). apply bk_mono; try lra. split. lra. rewrite S_INR. apply Rmult_le_compat_l. lra. assert (Pk := pos_INR k). apply Rinv_le_contravar; lra. }
  destruct (Rle_lt_dec z z').
  - apply L; lra.
  - rewrite (L z' z) by lra. rewrite <- (opp_RInt_swap (bk a b) z' z). unfold opp; cbn. ring. apply bk_ex; lra.
Qed.
Theorem beta_I_refl a b z : 0 < a -> 0 < b -> 0 < z < 1 -> beta_I a b z + beta_I b a (1 - z) = 1.
Proof.
  intros Ha Hb Z. rewrite !beta_I_IL by auto. rewrite (BI_sym b a) by auto. assert (S := IL_sum a b z Ha Hb Z). assert (P := BI_pos a b Ha Hb).
  unfold Rdiv. rewrite <- Rmult_plus_distr_r, S. apply Rinv_r. lra.
Qed.
Lemma IL_pos a b z : 0 < a -> 0 < b -> 0 < z < 1 -> 0 < IL a b z.
Proof.
  intros Ha Hb Z. apply Rlt_le_trans with (RInt (bk a b) (z / (INR 1 + 1)) z).
  - assert (E : z / (INR 1 + 1) = z / 2) by (cbn; field). rewrite E. apply (RInt_gt_0 (bk a b)). lra. intros; apply bk_pos. intros t Ht. apply kern_cont. lra.
  - apply (is_lim_seq_incr_compare (fun n => RInt (bk a b) (z / (INR n + 1)) z) (IL a b z)). apply IL_lim; lra.
    intros k. assert (G1 := frac_le z k ltac:(lra)). assert (G2 := frac_le z (S k) ltac:(lra)). apply bk_mono; try lra. split. lra. rewrite S_INR. apply Rmult_le_compat_l. lra. assert (Pk := pos_INR k). apply Rinv_le_contravar; lra.
Qed.
Lemma beta_I_rng a b z : 0 < a -> 0 < b -> 0 < z < 1 -> 0 < beta_I a b z < 1.
Proof.
  intros Ha Hb Z. assert (E := beta_I_refl a b z Ha Hb Z).
  assert (P : 0 < beta_I a b z). { rewrite beta_I_IL by auto. apply Rdiv_lt_0_compat. apply IL_pos; auto. apply BI_pos; auto. }
  assert (Q : 0 < beta_I b a (1 - z)). { rewrite beta_I_IL by auto. apply Rdiv_lt_0_compat. apply IL_pos; lra. apply BI_pos; auto. } lra.
Qed.
(** density: at most 400 on [1/9, 8/9] for a, b ∈ [1/2, 10] *)
Lemma pow_near t s a : / 2 <= a <= 10 -> / 9 <= t <= 8 / 9 -> Rabs (s - t) <= / 100 -> Rpower t (a - 1) <= 14 / 5 * Rpower s (a - 1).
Proof.
  intros Ha T S. apply Rabs_le_between in S. assert (E : Rpower t (a - 1) = Rpower s (a - 1) * exp ((a - 1) * (ln t - ln s))). { unfold Rpower. rewrite <- exp_plus. f_equal. ring. }
  rewrite E, Rmult_comm. apply Rmult_le_compat_r. left. apply rpow_pos. 
  assert (L : Rabs (ln t - ln s) <= / 10).
  { assert (U : ln t - ln s <= / 10). { rewrite <- ln_div by lra. replace (/ 10) with (ln (exp (/ 10))) by apply ln_exp. apply ln_le. apply Rdiv_lt_0_compat; lra. apply Rle_trans with (1 + 1 / 10). 2: interval. apply (Rmult_le_reg_r s). lra. replace (t / s * s) with t by (field; lra). lra. }
    assert (D : ln s - ln t <= / 10). { rewrite <- ln_div by lra. replace (/ 10) with (ln (exp (/ 10))) by apply ln_exp. apply ln_le. apply Rdiv_lt_0_compat; lra. apply Rle_trans with (1 + 1 / 10). 2: interval. apply (Rmult_le_reg_r t). lra. replace (s / t * t) with s by (field; lra). lra. }
    apply Rabs_le. lra. }
  apply Rle_trans with (exp (9 * / 10)). 2: interval. apply exp_le. eapply Rle_trans. apply Rle_abs. rewrite Rabs_mult. apply Rmult_le_compat; try apply Rabs_pos; auto. apply Rabs_le. lra.
Qed.
Lemma bk_dens a b t : / 2 <= a <= 10 -> / 2 <= b <= 10 -> / 9 <= t <= 8 / 9 -> bk a b t <= 400 * BI a b.
Proof.
  intros Ha Hb T. set (p := t - / 100). set (q := t + / 100).
  assert (H : 5 / 14 * (5 / 14) * bk a b t * (q - p) <= RInt (bk a b) p q).
  { replace (5 / 14 * (5 / 14) * bk a b t * (q - p)) with (RInt (fun _ => 5 / 14 * (5 / 14) * bk a b t) p q). 2:{ rewrite RInt_const. apply Rmult_comm. }
    apply RInt_le. unfold p, q; lra. apply ex_RInt_const. apply bk_ex; unfold p, q; lra.
    intros s Hs. unfold bk. assert (A1 := pow_near t s a Ha T ltac:(apply Rabs_le; unfold p, q in *; lra)). assert (A2 := pow_near (1 - t) (1 - s) b Hb ltac:(lra) ltac:(apply Rabs_le; unfold p, q in *; lra)).
    assert (P1 := rpow_pos t (a - 1)). assert (P2 := rpow_pos (1 - t) (b - 1)).
    assert (M := Rmult_le_compat (Rpower t (a - 1)) _ (Rpower (1 - t) (b - 1)) _ ltac:(lra) ltac:(lra) A1 A2). lra. }
  assert (U : RInt (bk a b) p q <= BI a b).
  { assert (E := ep_pos 98). assert (Ee : ep 98 = / 100) by (unfold ep; rewrite INR_IZR_INZ; cbn [Z.of_nat Pos.of_succ_nat Pos.succ]; f_equal; lra).
    apply Rle_trans with (bseq a b 98). 2: apply BI_ge; lra. unfold bseq. apply bk_mono; unfold p, q; lra. }
  assert (P := bk_pos a b t). replace (q - p) with (/ 50) in H by (unfold p, q; lra). lra.
Qed.
Lemma beta_I_lip a b z z' : / 2 <= a <= 10 -> / 2 <= b <= 10 -> / 9 <= z <= 8 / 9 -> / 9 <= z' <= 8 / 9 -> Rabs (beta_I a b z' - beta_I a b z) <= 400 * Rabs (z' - z).
Proof.
  intros Ha Hb.
  assert (K : forall z z', / 9 <= z -> z <= z' -> z' <= 8 / 9 -> 0 <= beta_I a b z' - beta_I a b z <= 400 * (z' - z)).
  { intros x y X XY Y. rewrite !beta_I_IL by lra. rewrite (IL_step a b x y) by lra. assert (P := BI_pos a b ltac:(lra) ltac:(lra)).
    replace ((IL a b x + RInt (bk a b) x y) / BI a b - IL a b x / BI a b) with (RInt (bk a b) x y / BI a b) by (field; lra).
    assert (Q := bk_int_pos a b x y ltac:(lra) XY ltac:(lra)).
    assert (U : RInt (bk a b) x y <= 400 * BI a b * (y - x)).
    { replace (400 * BI a b * (y - x)) with (RInt (fun _ => 400 * BI a b) x y). 2:{ rewrite RInt_const. apply Rmult_comm. }
      apply RInt_le. auto. apply bk_ex; lra. apply ex_RInt_const. intros t Ht. apply bk_dens; lra. }
    split. apply Rmult_le_pos. lra. left. apply Rinv_0_lt_compat; lra. apply (Rmult_le_reg_r (BI a b)). auto. unfold Rdiv. rewrite Rmult_assoc, Rinv_l by lra. lra. }
  intros Z Z'. destruct (Rle_lt_dec z z').
  - assert (A := K z z' ltac:(lra) r ltac:(lra)). rewrite !Rabs_pos_eq; lra.
  - assert (A := K z' z ltac:(lra) ltac:(lra) ltac:(lra)). rewrite !Rabs_left1; lra.
Qed.
