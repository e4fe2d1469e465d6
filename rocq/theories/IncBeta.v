(** * Closed forms of the regularised incomplete beta function *)
From Coq Require Import Reals Lra Lia ZArith.
From Coquelicot Require Import Coquelicot.
From Interval Require Import Tactic.
From Verif Require Import Spec SpecGamma SpecInc GammaInt GammaApi.
Open Scope R_scope.

Lemma seq0' z : is_lim_seq (fun n => z / (INR n + 1)) 0.
Proof. replace (Finite 0) with (Rbar_mult z 0) by (cbn; f_equal; ring). apply (is_lim_seq_scal_l ga z 0). apply ga_lim. Qed.
(** The integral from the antiderivative *)
Lemma beta_lim (g G : R -> R) (z l : R) : 0 < z < 1 -> (forall t, 0 < t < 1 -> is_derive G t (g t)) -> (forall t, 0 < t < 1 -> continuous g t) -> is_lim_seq (fun n => G (z / (INR n + 1))) l ->
  real (Lim_seq (fun n => RInt g (z / (INR n + 1)) z)) = G z - l.
Proof.
  intros Z D C L. assert (L2 : is_lim_seq (fun n => RInt g (z / (INR n + 1)) z) (G z - l)).
  { apply (is_lim_seq_ext (fun n => G z - G (z / (INR n + 1)))).
    - intros n. symmetry. apply is_RInt_unique. assert (P := pos_INR n). assert (Q : 0 < z / (INR n + 1)) by (apply Rdiv_lt_0_compat; lra).
      assert (Q2 : z / (INR n + 1) <= z). { apply (Rmult_le_reg_r (INR n + 1)). lra. unfold Rdiv. rewrite Rmult_assoc, Rinv_l by lra. nra. }
      apply (is_RInt_derive G g); intros t Ht; rewrite Rmin_left, Rmax_right in Ht by lra; [apply D|apply C]; lra.
    - apply is_lim_seq_minus'. apply is_lim_seq_const. exact L. }
  apply is_lim_seq_unique in L2. rewrite L2. reflexivity.
Qed.
Lemma kern_cont a b t : 0 < t < 1 -> continuous (fun t => Rpower t (a - 1) * Rpower (1 - t) (b - 1)) t.
Proof. intros T. apply (ex_derive_continuous (fun t => Rpower t (a - 1) * Rpower (1 - t) (b - 1))). unfold Rpower. auto_derive. lra. Qed.
(** I_z(2,2) = z^2 (3 - 2z) *)
Lemma beta_I22 z : 0 < z < 1 -> beta_I 2 2 z = z * z * (3 - 2 * z).
Proof.
  intros Z. unfold beta_I. rewrite (beta_lim _ (fun t => t * t / 2 - t * t * t / 3) z 0); auto.
  - replace (Gamma 2) with 1. 2:{ replace 2 with (IZR 1 + 1) by (cbn; ring). rewrite Gamma_zfact by lia. reflexivity. }
    replace (Gamma (2 + 2)) with 6. 2:{ replace (2 + 2) with (IZR 3 + 1) by (cbn; ring). rewrite Gamma_zfact by lia. reflexivity. } field.
  - intros t T. replace (2 - 1) with 1 by ring. rewrite !Rpower_1 by lra. auto_derive. auto. field.
  - intros t T. apply kern_cont; auto.
  - replace (Finite 0) with (Finite ((fun t => t * t / 2 - t * t * t / 3) 0)) by (cbv beta; f_equal; field).
    apply (is_lim_seq_continuous (fun t => t * t / 2 - t * t * t / 3)). 2: apply seq0'. apply continuity_pt_filterlim. apply (ex_derive_continuous (fun t => t * t / 2 - t * t * t / 3)). auto_derive. auto.
Qed.
Lemma beta_I22_root p : 9 / 10 <= p < 1 -> exists x, 0 < x < 1 /\ beta_I 2 2 x = p.
Proof.
  intros H. assert (C : forall x, continuity_pt (fun z => z * z * (3 - 2 * z)) x). { intros x. apply continuity_pt_filterlim. apply (ex_derive_continuous (fun z => z * z * (3 - 2 * z))). auto_derive. auto. }
  destruct (IVT_Rbar_incr (fun z => z * z * (3 - 2 * z)) (1 / 2) 1 (/ 2) 1 p) as (x & X1 & X2 & X3).
  - replace (Finite (/ 2)) with (Finite ((fun z => z * z * (3 - 2 * z)) (1 / 2))) by (f_equal; field). apply (is_lim_continuity (fun z => z * z * (3 - 2 * z))). apply C.
  - replace (Finite 1) with (Finite ((fun z => z * z * (3 - 2 * z)) 1)) at 2 by (f_equal; ring). apply (is_lim_continuity (fun z => z * z * (3 - 2 * z))). apply C.
  - intros x _ _. apply C.
  - cbn. lra.
  - cbn. lra.
  - cbn in X1, X2. exists x. split. lra. rewrite beta_I22 by lra. exact X3.
Qed.
(** I_z(a,1) = z^a *)
Lemma beta_Ia1 a z : 0 < a -> 0 < z < 1 -> beta_I a 1 z = Rpower z a.
Proof.
  intros A Z. unfold beta_I. rewrite (beta_lim _ (fun t => Rpower t a / a) z 0); auto.
  - rewrite Gamma_one, Gamma_S by auto. assert (P := Gamma_pos a A). field. lra.
  - intros t T. replace (Rpower t (a - 1) * Rpower (1 - t) (1 - 1)) with (Rpower t a / a * (a / t)). unfold Rpower. auto_derive. lra. field. lra.
    replace (1 - 1) with 0 by ring. rewrite Rpower_O by lra. replace (Rpower t a) with (Rpower t (a - 1) * t). field. lra. rewrite <- (Rpower_1 t) at 2 by lra. rewrite <- Rpower_plus. f_equal. ring.
  - intros t T. apply kern_cont; auto.
  - unfold Rdiv. replace (Finite 0) with (Rbar_mult 0 (/ a)) by (cbn; f_equal; ring). apply is_lim_seq_scal_r. unfold Rpower.
    apply (is_lim_comp_seq exp (fun n => a * ln (z / (INR n + 1))) m_infty 0). apply is_lim_exp_m. exists 0%nat. intros n _ Q. discriminate.
    replace m_infty with (Rbar_mult a m_infty). 2:{ apply is_Rbar_mult_unique. apply is_Rbar_mult_sym, is_Rbar_mult_m_infty_pos. exact A. } apply is_lim_seq_scal_l.
    apply (is_lim_seq_ext (fun n => ln z - ln (INR n + 1))). { intros n. assert (P := pos_INR n). unfold Rdiv. rewrite ln_mult, ln_Rinv; try lra. apply Rinv_0_lt_compat; lra. }
    apply (is_lim_seq_minus _ _ (ln z) p_infty). apply is_lim_seq_const. 2: reflexivity.
    apply (is_lim_comp_seq ln (fun n => INR n + 1) p_infty p_infty). apply is_lim_ln_p. exists 0%nat. intros n _ Q. discriminate.
    apply (is_lim_seq_plus _ _ p_infty 1). apply is_lim_seq_INR. apply is_lim_seq_const. reflexivity.
Qed.
