(** * The Lanczos-type approximation of the log-gamma function, in exact
    arithmetic: bounds for the defect δ(x) = L(x+1) - L(x) - ln x *)
From Coq Require Import ZArith Reals Lra List Bool Psatz.
From Coquelicot Require Import Coquelicot.
From Bignums Require BigZ.
From Verif Require Import PolyPos PolyBig.
Import ListNotations.
Open Scope R_scope.

(** the coefficients, times 10^25 *)
Definition lanc_c0 : Z := 9999999999999970918200000.
Definition lanc_cs : list Z :=
  [(571562356658629235170000000); (-595979603554754912480000000); (141360979747417471740000000); (-4919138160976201997800000); (339946499848118886990); (465236289270485756650); (-983744753048795646770); (1580887032249124888400); (-2102644417241048831900); (2174396181152126432000); (-1643181065367638902200); (844182239838527432930); (-261908384015814086700); (36899182659531622704)]%Z.
Definition E25 : Z := 10000000000000000000000000.
Fixpoint lsum (cs : list Z) (k : Z) (z : R) : R :=
  match cs with [] => 0 | c :: cs' => IZR c / IZR E25 / (z + IZR k) + lsum cs' (k + 1) z end.
Definition lanc (z : R) : R := IZR lanc_c0 / IZR E25 + lsum lanc_cs 1 z.
(** L(x) ≈ ln Γ(x) *)
Definition Lg (x : R) : R :=
  (x - / 2) * ln (x + 543 / 128) - (x + 543 / 128) + ln (2 * PI) / 2 + ln (lanc (x - 1)).

(** ** The sum as a quotient of polynomials *)
Fixpoint lrat (cs : list Z) (k : Z) (n d : poly) : poly * poly :=
  match cs with
  | [] => (n, d)
  | c :: cs' => lrat cs' (k + 1) (padd (pmul n [k; 1%Z]) (pscale c d)) (pmul d [k; 1%Z])
  end.
Lemma lrat_ev cs k n d z : pev d z <> 0 -> (forall j, (k <= j < k + Z.of_nat (length cs))%Z -> z + IZR j <> 0) ->
  let '(n', d') := lrat cs k n d in pev d' z <> 0 /\ pev n' z / pev d' z = pev n z / pev d z + IZR E25 * lsum cs k z.
Proof.
  revert k n d. induction cs as [|c cs IH]; intros k n d Hd Hk.
  - cbn. split; auto. lra.
  - cbn [lrat]. assert (K : z + IZR k <> 0). { apply Hk. cbn. lia. }
    assert (D : pev (pmul d [k; 1%Z]) z <> 0). { rewrite pev_mul. cbn. apply Rmult_integral_contrapositive_currified; auto. intros E. apply K. lra. }
    assert (J : forall j, (k + 1 <= j < k + 1 + Z.of_nat (length cs))%Z -> z + IZR j <> 0) by (intros j Hj; apply Hk; cbn; lia).
    specialize (IH (k + 1)%Z (padd (pmul n [k; 1%Z]) (pscale c d)) (pmul d [k; 1%Z]) D J).
    destruct (lrat cs _ _ _) as (n', d'). destruct IH as (I1 & I2). split; auto. rewrite I2.
    rewrite pev_add, pev_scale, !pev_mul. cbn [lsum]. replace (pev [k; 1%Z] z) with (z + IZR k) by (cbn; ring).
    field. repeat split; auto. apply IZR_neq. discriminate.
Qed.
Definition NN : poly := Eval vm_compute in fst (lrat lanc_cs 1 [lanc_c0] [1%Z]).
Definition DD : poly := Eval vm_compute in snd (lrat lanc_cs 1 [lanc_c0] [1%Z]).
Definition N0 : poly := Eval vm_compute in pshift (-1) NN.
Lemma NN_def : lrat lanc_cs 1 [lanc_c0] [1%Z] = (NN, DD).
Proof. vm_compute. reflexivity. Qed.
Lemma N0_ev x : pev N0 x = pev NN (x - 1).
Proof. replace N0 with (pshift (-1) NN) by (vm_compute; reflexivity). rewrite pev_shift. f_equal. Qed.
Lemma lanc_rat z : -1 < z -> lanc z = pev NN z / pev DD z / IZR E25.
Proof.
  intros Hz. assert (H := lrat_ev lanc_cs 1 [lanc_c0] [1%Z] z). rewrite NN_def in H. destruct H as (_ & H).
  - cbn. lra.
  - intros j Hj. assert (1 <= IZR j) by (apply IZR_le; lia). lra.
  - rewrite H. unfold lanc. replace (pev [lanc_c0] z) with (IZR lanc_c0) by (cbn; ring). replace (pev [1%Z] z) with 1 by (cbn; ring). field. apply IZR_neq. discriminate.
Qed.
Lemma NN_nonneg : pnonneg NN = true. Proof. vm_compute. reflexivity. Qed.
Lemma N0_nonneg : pnonneg N0 = true. Proof. vm_compute. reflexivity. Qed.
Lemma pos_ev c p x : (0 < c)%Z -> pnonneg p = true -> 0 <= x -> 0 < pev (c :: p) x.
Proof. intros Hc Hp Hx. cbn. apply IZR_lt in Hc. assert (P := pnonneg_ev p x Hp Hx). assert (0 <= x * pev p x) by (apply Rmult_le_pos; auto). lra. Qed.
Lemma NN_pos x : 0 <= x -> 0 < pev NN x.
Proof. intros. unfold NN. apply pos_ev; auto. reflexivity. Qed.
Lemma N0_pos x : 0 <= x -> 0 < pev N0 x.
Proof. intros. unfold N0. apply pos_ev; auto. reflexivity. Qed.
Lemma DD_pos x : 0 <= x -> 0 < pev DD x.
Proof. intros. unfold DD. apply pos_ev; auto. reflexivity. Qed.
Lemma DD_step x : pev DD x * x = pev DD (x - 1) * (x + 14).
Proof. unfold DD. cbn [pev]. ring. Qed.
Lemma DD0_pos x : 0 < x -> 0 < pev DD (x - 1).
Proof.
  intros H. assert (P := DD_pos x ltac:(lra)). assert (E := DD_step x). assert (0 < pev DD x * x) by (apply Rmult_lt_0_compat; auto).
  destruct (Rle_or_lt (pev DD (x - 1)) 0); auto. assert (pev DD (x - 1) * (x + 14) <= 0) by nra. lra.
Qed.
Lemma lanc_pos x : 0 < x -> 0 < lanc (x - 1).
Proof.
  intros H. rewrite lanc_rat by lra. assert (P := DD0_pos x H). assert (Q := N0_pos x ltac:(lra)). rewrite N0_ev in Q.
  apply Rdiv_lt_0_compat. apply Rdiv_lt_0_compat; auto. apply IZR_lt. reflexivity.
Qed.

(** ** The defect *)
Definition dl (x : R) : R :=
  (x + / 2) * ln (x + 671 / 128) - (x - / 2) * ln (x + 543 / 128) - 1 + (ln (pev NN x) - ln (pev N0 x)) - ln (x + 14).
Lemma Lg_step x : 0 < x -> Lg (x + 1) - Lg x - ln x = dl x.
Proof.
  intros H. unfold Lg, dl. replace (x + 1 - 1) with x by ring. rewrite N0_ev.
  assert (P0 := DD0_pos x H). assert (P1 := DD_pos x ltac:(lra)). assert (Q1 := NN_pos x ltac:(lra)). assert (Q0 := N0_pos x ltac:(lra)). rewrite N0_ev in Q0.
  assert (E0 : 0 < IZR E25) by (apply IZR_lt; reflexivity).
  rewrite !lanc_rat by lra. rewrite !ln_div by (try apply Rdiv_lt_0_compat; auto).
  assert (E := f_equal ln (DD_step x)). rewrite !ln_mult in E by lra.
  replace (x + 1 + 543 / 128) with (x + 671 / 128) by lra. lra.
Qed.

Definition dl1 (x : R) : R :=
  ln (x + 671 / 128) - ln (x + 543 / 128) - 607 / 128 / (x + 671 / 128) + 607 / 128 / (x + 543 / 128)
  + (pev (pder NN) x / pev NN x - pev (pder N0) x / pev N0 x) - 1 / (x + 14).
Definition quot2 (p : poly) (x : R) : R := (pev (pder (pder p)) x * pev p x - pev (pder p) x * pev (pder p) x) / (pev p x * pev p x).
Definition dl2 (x : R) : R :=
  1 / (x + 671 / 128) - 1 / (x + 543 / 128) + 607 / 128 / ((x + 671 / 128) * (x + 671 / 128)) - 607 / 128 / ((x + 543 / 128) * (x + 543 / 128))
  + (quot2 NN x - quot2 N0 x) + 1 / ((x + 14) * (x + 14)).
Lemma ln_pev_derive p x : 0 < pev p x -> is_derive (fun x => ln (pev p x)) x (pev (pder p) x / pev p x).
Proof.
  intros H. evar_last. apply (is_derive_comp ln (pev p)). apply is_derive_Reals. apply derivable_pt_lim_ln. exact H. apply pev_derive.
  unfold scal; cbn. unfold mult; cbn. unfold Rdiv. reflexivity.
Qed.
Lemma quot_derive p x : 0 < pev p x -> is_derive (fun x => pev (pder p) x / pev p x) x (quot2 p x).
Proof.
  intros H. evar_last. apply (is_derive_div (pev (pder p)) (pev p)). apply pev_derive. apply pev_derive. lra.
  unfold quot2. unfold minus, plus, opp, scal, mult; cbn. unfold mult; cbn. field. lra.
Qed.
Lemma dl_derive x : 0 <= x -> is_derive dl x (dl1 x).
Proof.
  intros H. evar_last. unfold dl. apply (is_derive_minus (fun x => (x + / 2) * ln (x + 671 / 128) - (x - / 2) * ln (x + 543 / 128) - 1 + (ln (pev NN x) - ln (pev N0 x))) (fun x => ln (x + 14))).
  - apply (is_derive_plus (fun x => (x + / 2) * ln (x + 671 / 128) - (x - / 2) * ln (x + 543 / 128) - 1) (fun x => ln (pev NN x) - ln (pev N0 x))).
    + auto_derive. 2: reflexivity. repeat split; lra.
    + apply (is_derive_minus (fun x => ln (pev NN x)) (fun x => ln (pev N0 x))). apply ln_pev_derive, NN_pos; auto. apply ln_pev_derive, N0_pos; auto.
  - auto_derive. 2: reflexivity. lra.
  - unfold dl1. generalize (pev (pder NN) x / pev NN x) (pev (pder N0) x / pev N0 x). intros q1 q2. unfold minus, plus, opp; cbn. field. lra.
Qed.
Lemma dl1_derive x : 0 <= x -> is_derive dl1 x (dl2 x).
Proof.
  intros H. evar_last. unfold dl1. apply (is_derive_minus (fun x => ln (x + 671 / 128) - ln (x + 543 / 128) - 607 / 128 / (x + 671 / 128) + 607 / 128 / (x + 543 / 128)
  + (pev (pder NN) x / pev NN x - pev (pder N0) x / pev N0 x)) (fun x => 1 / (x + 14))).
  - apply (is_derive_plus (fun x => ln (x + 671 / 128) - ln (x + 543 / 128) - 607 / 128 / (x + 671 / 128) + 607 / 128 / (x + 543 / 128)) (fun x => pev (pder NN) x / pev NN x - pev (pder N0) x / pev N0 x)).
    + auto_derive. 2: reflexivity. repeat split; lra.
    + apply (is_derive_minus (fun x => pev (pder NN) x / pev NN x) (fun x => pev (pder N0) x / pev N0 x)). apply quot_derive, NN_pos; auto. apply quot_derive, N0_pos; auto.
  - auto_derive. 2: reflexivity. lra.
  - unfold dl2. generalize (quot2 NN x) (quot2 N0 x). intros q1 q2. unfold minus, plus, opp; cbn. field. lra.
Qed.

(** ** The bounding function *)
Definition KB : R := 92 / 10 ^ 14.
Definition bB : R := 225 / 10 ^ 17.
Definition Bd (x : R) : R := KB / (x + 130) ^ 2 + bB / (x + 1) ^ 8.
Definition Bd1 (x : R) : R := - (2 * KB / (x + 130) ^ 3) - 8 * bB / (x + 1) ^ 9.
Definition Bd2 (x : R) : R := 6 * KB / (x + 130) ^ 4 + 72 * bB / (x + 1) ^ 10.
Lemma Bd_derive x : 0 <= x -> is_derive Bd x (Bd1 x).
Proof.
  intros H. unfold Bd, Bd1. auto_derive.
  - repeat split; try lra; apply Rgt_not_eq; apply Rmult_lt_0_compat; try lra; repeat apply Rmult_lt_0_compat; lra.
  - cbn. field. lra.
Qed.
Lemma Bd1_derive x : 0 <= x -> is_derive Bd1 x (Bd2 x).
Proof.
  intros H. unfold Bd1, Bd2. auto_derive.
  - repeat split; try lra; apply Rgt_not_eq; repeat apply Rmult_lt_0_compat; lra.
  - cbn. field. lra.
Qed.

(** ** |δ''| ≤ Bd'' on [0, ∞) *)
Definition pA : poly := [543%Z; 128%Z].
Definition pB : poly := [671%Z; 128%Z].
Definition pQ : poly := [14%Z; 1%Z].
Definition psq (p : poly) : poly := pmul p p.
Definition pWr (p : poly) : poly := psub (pmul (pder (pder p)) p) (psq (pder p)).
(** numerator of δ'' over A² B² Q² N1² N0² *)
Definition pnum : poly :=
  let A2 := psq pA in let B2 := psq pB in let Q2 := psq pQ in let M1 := psq NN in let M0 := psq N0 in
  let M := pmul M1 M0 in let AB := pmul A2 B2 in
  padd (psub (pmul (padd (pscale 128 pB) [77696%Z]) (pmul A2 (pmul Q2 M))) (pmul (padd (pscale 128 pA) [77696%Z]) (pmul B2 (pmul Q2 M))))
   (padd (psub (pmul (pWr NN) (pmul AB (pmul Q2 M0))) (pmul (pWr N0) (pmul AB (pmul Q2 M1)))) (pmul AB M)).
Definition pden : poly := pmul (pmul (psq pA) (psq pB)) (pmul (psq pQ) (pmul (psq NN) (psq N0))).
Lemma pden_pos x : 0 <= x -> 0 < pev pden x.
Proof.
  intros H. unfold pden, psq. rewrite !pev_mul. assert (0 < pev pA x) by (cbn; lra). assert (0 < pev pB x) by (cbn; lra). assert (0 < pev pQ x) by (cbn; lra).
  assert (P1 := NN_pos x H). assert (P0 := N0_pos x H). repeat apply Rmult_lt_0_compat; auto.
Qed.
Lemma dl2_rat x : 0 <= x -> dl2 x = pev pnum x / pev pden x.
Proof.
  intros H. unfold dl2, quot2, pnum, pden, pWr, psq. cbv zeta.
  repeat rewrite ?pev_add, ?pev_sub, ?pev_mul, ?pev_scale.
  assert (P1 := NN_pos x H). assert (P0 := N0_pos x H).
  replace (pev [77696%Z] x) with 77696 by (cbn; ring).
  assert (EA : pev pA x = 128 * (x + 543 / 128)) by (cbn; lra). assert (EB : pev pB x = 128 * (x + 671 / 128)) by (cbn; lra). assert (EQ : pev pQ x = x + 14) by (cbn; lra).
  rewrite EA, EB, EQ. assert (A0 : 0 < x + 543 / 128) by lra. assert (B0 : 0 < x + 671 / 128) by lra. assert (Q0 : 0 < x + 14) by lra.
  clear EA EB EQ.
  revert P1 P0 A0 B0 Q0.
  generalize (pev NN x) (pev N0 x) (pev (pder NN) x) (pev (pder N0) x) (pev (pder (pder NN)) x) (pev (pder (pder N0)) x) (x + 543 / 128) (x + 671 / 128) (x + 14).
  intros n1 n0 n1' n0' n1'' n0'' a b q P1 P0 A0 B0 Q0. field. repeat split; lra.
Qed.
Definition p130 : poly := let q := [130%Z; 1%Z] in psq (psq q).
Definition p10 : poly := let q := [1%Z; 1%Z] in pmul (psq (psq (psq q))) (psq q).
(** 10^17 times the numerator of Bd'' over (x+130)^4 (x+1)^10 *)
Definition pBn : poly := padd (pscale 552000 p10) (pscale 16200 p130).
Definition pP (s : Z) : poly := padd (pmul pBn pden) (pscale (s * 100000000000000000) (pmul pnum (pmul p130 p10))).
Lemma p130_ev x : pev p130 x = (x + 130) ^ 4.
Proof. unfold p130, psq. rewrite !pev_mul. cbn. ring. Qed.
Lemma p10_ev x : pev p10 x = (x + 1) ^ 10.
Proof. unfold p10, psq. rewrite !pev_mul. replace (pev [1%Z; 1%Z] x) with (x + 1) by (cbn; ring). ring. Qed.
Lemma pP_ev s x : 0 <= x -> pev (pP s) x = (Bd2 x + IZR s * dl2 x) * (100000000000000000 * (pev pden x * ((x + 130) ^ 4 * (x + 1) ^ 10))).
Proof.
  intros H. rewrite dl2_rat by auto. assert (D := pden_pos x H). unfold pP, pBn, Bd2, KB, bB.
  repeat rewrite ?pev_add, ?pev_mul, ?pev_scale. rewrite p130_ev, p10_ev, mult_IZR.
  assert (A : 0 < (x + 130) ^ 4) by (apply pow_lt; lra). assert (B : 0 < (x + 1) ^ 10) by (apply pow_lt; lra).
  revert D A B. generalize (pev pden x) (pev pnum x) ((x + 130) ^ 4) ((x + 1) ^ 10) (IZR s). intros d n a b t D A B.
  cbn [pow]. field. lra.
Qed.
(** the same polynomial on machine words *)
Definition bnum_den : bpoly * bpoly :=
  let sq p := bmul p p in
  let A := ofP pA in let B := ofP pB in let N1 := ofP NN in let N0p := N0 in let n0 := ofP N0 in
  let A2 := sq A in let B2 := sq B in let Q2 := sq (ofP pQ) in let M1 := sq N1 in let M0 := sq n0 in
  let M := bmul M1 M0 in let AB := bmul A2 B2 in let QM := bmul Q2 M in
  let wr p n := bsub (bmul (ofP (pder (pder p))) n) (sq (ofP (pder p))) in
  (badd (bsub (bmul (badd (bscale b128 B) (ofP [77696%Z])) (bmul A2 QM)) (bmul (badd (bscale b128 A) (ofP [77696%Z])) (bmul B2 QM)))
    (badd (bsub (bmul (wr NN N1) (bmul AB (bmul Q2 M0))) (bmul (wr N0p n0) (bmul AB (bmul Q2 M1)))) (bmul AB M)),
   bmul AB QM).
Lemma bnum_ok : toP (fst bnum_den) = pnum.
Proof. unfold bnum_den, pnum, pWr, psq. cbv zeta. cbn [fst]. repeat rewrite ?toP_add, ?toP_sub, ?toP_mul, ?toP_scale, ?toP_of. reflexivity. Qed.
Lemma bden_ok : toP (snd bnum_den) = pden.
Proof. unfold bnum_den, pden, psq. cbv zeta. cbn [snd]. repeat rewrite ?toP_mul, ?toP_of. reflexivity. Qed.
Definition bP (s : BigZ.BigZ.t) : bpoly :=
  let nd := bnum_den in
  badd (bmul (ofP pBn) (snd nd)) (bscale (bmulZ s bE17) (bmul (fst nd) (ofP (pmul p130 p10)))).
Lemma bP_ok s : toP (bP s) = pP (BigZ.BigZ.to_Z s).
Proof. unfold bP, pP. cbv zeta. rewrite toP_add, toP_scale, !toP_mul, !toP_of, bnum_ok, bden_ok, bmulZ_ok. reflexivity. Qed.
Lemma bP_pos (s : BigZ.BigZ.t) x : bon_all b0 bpts (brdil b2 (bP s)) = true -> 0 <= x -> 0 <= pev (pP (BigZ.BigZ.to_Z s)) x.
Proof.
  intros T H. rewrite bon_all_ok, bP_ok in T. apply (on_all_ok (BigZ.BigZ.to_Z b2) (BigZ.BigZ.to_Z b0) (map BigZ.BigZ.to_Z bpts)); auto. reflexivity. change (BigZ.BigZ.to_Z b0) with 0%Z. unfold Rdiv. lra.
Qed.
Lemma pP_pos s x : (s = 1 \/ s = -1)%Z -> 0 <= x -> 0 <= pev (pP s) x.
Proof.
  intros [-> | ->] H.
  - assert (T : bon_all b0 bpts (brdil b2 (bP b1)) = true) by (vm_compute; reflexivity). exact (bP_pos b1 x T H).
  - assert (T : bon_all b0 bpts (brdil b2 (bP bm1)) = true) by (vm_compute; reflexivity). exact (bP_pos bm1 x T H).
Qed.
Lemma dl2_le s x : (s = 1 \/ s = -1)%Z -> 0 <= x -> 0 <= Bd2 x + IZR s * dl2 x.
Proof.
  intros Hs H. assert (P := pP_pos s x Hs H). rewrite pP_ev in P by auto. assert (D := pden_pos x H).
  assert (A : 0 < (x + 130) ^ 4) by (apply pow_lt; lra). assert (B : 0 < (x + 1) ^ 10) by (apply pow_lt; lra).
  set (w := 100000000000000000 * (pev pden x * ((x + 130) ^ 4 * (x + 1) ^ 10))) in *.
  assert (0 < w). { unfold w. apply Rmult_lt_0_compat. lra. apply Rmult_lt_0_compat. auto. apply Rmult_lt_0_compat; auto. }
  apply (Rmult_le_reg_r w); auto. lra.
Qed.

(** ** Behaviour at infinity *)
Lemma ln_inc_le a b : 0 < a <= b -> 0 <= ln b - ln a <= (b - a) / a.
Proof.
  intros (Ha & Hb). split. { destruct (Req_dec a b) as [->|]. lra. assert (ln a < ln b) by (apply ln_increasing; lra). lra. }
  rewrite <- ln_div by lra. replace (b / a) with (1 + (b - a) / a) by (field; lra).
  assert (0 <= (b - a) / a) by (apply Rmult_le_pos; [lra|left; apply Rinv_0_lt_compat; auto]).
  rewrite <- (ln_exp ((b - a) / a)) at 2. apply ln_le. lra. apply exp_ineq1_le.
Qed.
Lemma ln_inc_ge a b : 0 < a <= b -> (b - a) / b <= ln b - ln a.
Proof.
  intros (Ha & Hb). assert (H := exp_ineq1_le (- (ln b - ln a))). rewrite exp_Ropp in H. unfold Rminus in H at 2. rewrite exp_plus, exp_Ropp, !exp_ln in H by lra.
  replace (/ (b * / a)) with (1 - (b - a) / b) in H by (field; lra). lra.
Qed.
Lemma inv_le_x a x : 0 < x -> 0 <= a -> 0 <= 1 / (x + a) <= 1 / x.
Proof. intros. split. apply Rmult_le_pos. lra. left. apply Rinv_0_lt_compat. lra. unfold Rdiv. rewrite !Rmult_1_l. apply Rinv_le_contravar; lra. Qed.
Lemma quot_le p x n : pnonneg p = true -> 0 < x -> (length p <= S n)%nat -> 0 < pev p x -> 0 <= pev (pder p) x / pev p x <= INR n * (1 / x).
Proof.
  intros Hp Hx Hn P. destruct (pder_le p x n Hp ltac:(lra) Hn) as (A & B). split.
  - apply Rmult_le_pos. apply (Rmult_le_reg_l x); lra. left. apply Rinv_0_lt_compat. auto.
  - apply (Rmult_le_reg_r (pev p x * x)). apply Rmult_lt_0_compat; auto. replace (pev (pder p) x / pev p x * (pev p x * x)) with (x * pev (pder p) x) by (field; lra).
    replace (INR n * (1 / x) * (pev p x * x)) with (INR n * pev p x) by (field; lra). auto.
Qed.
Lemma dl1_lim x : 1 <= x -> Rabs (dl1 x) <= 40 * (1 / x).
Proof.
  intros H. unfold dl1. destruct (quot_le NN x 14 NN_nonneg ltac:(lra) ltac:(cbn; lia) (NN_pos x ltac:(lra))) as (Q1 & Q2).
  destruct (quot_le N0 x 14 N0_nonneg ltac:(lra) ltac:(cbn; lia) (N0_pos x ltac:(lra))) as (Q3 & Q4).
  replace (INR 14) with 14 in * by (cbn; lra).
  destruct (ln_inc_le (x + 543 / 128) (x + 671 / 128) ltac:(lra)) as (L1 & L2).
  replace ((x + 671 / 128 - (x + 543 / 128)) / (x + 543 / 128)) with (1 / (x + 543 / 128)) in L2 by (field; lra).
  destruct (inv_le_x (543 / 128) x ltac:(lra) ltac:(lra)) as (I1 & I2). destruct (inv_le_x (671 / 128) x ltac:(lra) ltac:(lra)) as (I3 & I4). destruct (inv_le_x 14 x ltac:(lra) ltac:(lra)) as (I5 & I6).
  replace (607 / 128 / (x + 671 / 128)) with (607 / 128 * (1 / (x + 671 / 128))) by (field; lra). replace (607 / 128 / (x + 543 / 128)) with (607 / 128 * (1 / (x + 543 / 128))) by (field; lra).
  apply Rabs_le. lra.
Qed.
Lemma dl_lim x : 2 <= x -> Rabs (dl x) <= 60 * (1 / x).
Proof.
  intros H. unfold dl.
  assert (M : 0 <= ln (pev NN x) - ln (pev N0 x) <= 28 * (1 / x)).
  { rewrite N0_ev. destruct (MVT_gen (fun t => ln (pev NN t)) (x - 1) x (fun t => pev (pder NN) t / pev NN t)) as (c & Hc & E).
    - intros t Ht. rewrite Rmin_left, Rmax_right in Ht by lra. apply ln_pev_derive, NN_pos. lra.
    - intros t Ht. rewrite Rmin_left, Rmax_right in Ht by lra. apply continuity_pt_filterlim. apply (ex_derive_continuous (fun t => ln (pev NN t))). eexists. apply ln_pev_derive, NN_pos. lra.
    - rewrite Rmin_left, Rmax_right in Hc by lra. rewrite E. destruct (quot_le NN c 14 NN_nonneg ltac:(lra) ltac:(cbn; lia) (NN_pos c ltac:(lra))) as (Q1 & Q2).
      replace (INR 14) with 14 in * by (cbn; lra). assert (1 / c <= 2 * (1 / x)). { apply (Rmult_le_reg_r (c * x)). apply Rmult_lt_0_compat; lra. replace (1 / c * (c * x)) with x by (field; lra). replace (2 * (1 / x) * (c * x)) with (2 * c) by (field; lra). lra. }
      lra. }
  destruct (ln_inc_le (x + 543 / 128) (x + 671 / 128) ltac:(lra)) as (L1 & L2). assert (L3 := ln_inc_ge (x + 543 / 128) (x + 671 / 128) ltac:(lra)).
  replace (x + 671 / 128 - (x + 543 / 128)) with 1 in * by lra.
  destruct (ln_inc_le (x + 671 / 128) (x + 14) ltac:(lra)) as (L4 & L5).
  replace ((x + 14 - (x + 671 / 128)) / (x + 671 / 128)) with ((14 - 671 / 128) * (1 / (x + 671 / 128))) in L5 by (field; lra).
  destruct (inv_le_x (543 / 128) x ltac:(lra) ltac:(lra)) as (I1 & I2). destruct (inv_le_x (671 / 128) x ltac:(lra) ltac:(lra)) as (I3 & I4).
  set (w := ln (x + 671 / 128) - ln (x + 543 / 128)) in *.
  replace ((x + / 2) * ln (x + 671 / 128) - (x - / 2) * ln (x + 543 / 128) - 1 + (ln (pev NN x) - ln (pev N0 x)) - ln (x + 14))
    with ((x - / 2) * w - 1 + (ln (pev NN x) - ln (pev N0 x)) - (ln (x + 14) - ln (x + 671 / 128))) by (unfold w; field).
  assert (U : (x - / 2) * w <= 1). { apply Rle_trans with ((x - / 2) * (1 / (x + 543 / 128))). apply Rmult_le_compat_l; lra. apply (Rmult_le_reg_r (x + 543 / 128)). lra. replace ((x - / 2) * (1 / (x + 543 / 128)) * (x + 543 / 128)) with (x - / 2) by (field; lra). lra. }
  assert (V : 1 - 6 * (1 / (x + 671 / 128)) <= (x - / 2) * w). { apply Rle_trans with ((x - / 2) * (1 / (x + 671 / 128))). 2: apply Rmult_le_compat_l; lra.
    apply (Rmult_le_reg_r (x + 671 / 128)). lra. replace ((x - / 2) * (1 / (x + 671 / 128)) * (x + 671 / 128)) with (x - / 2) by (field; lra). replace ((1 - 6 * (1 / (x + 671 / 128))) * (x + 671 / 128)) with (x + 671 / 128 - 6) by (field; lra). lra. }
  apply Rabs_le. lra.
Qed.
Lemma pow_inv_x a x n : 1 <= x -> 0 <= a -> 0 <= / (x + a) ^ S n <= 1 / x.
Proof.
  intros H Ha. assert (1 <= (x + a) ^ n) by (apply pow_R1_Rle; lra). split.
  - left. apply Rinv_0_lt_compat. apply pow_lt. lra.
  - unfold Rdiv. rewrite Rmult_1_l. apply Rinv_le_contravar. lra. cbn [pow]. nra.
Qed.
Lemma Bd_lim x : 1 <= x -> Rabs (Bd x) <= 1 * (1 / x).
Proof.
  intros H. unfold Bd, KB, bB, Rdiv at 1 3. destruct (pow_inv_x 130 x 1 H ltac:(lra)). destruct (pow_inv_x 1 x 7 H ltac:(lra)). apply Rabs_le. lra.
Qed.
Lemma Bd1_lim x : 1 <= x -> Rabs (Bd1 x) <= 1 * (1 / x).
Proof.
  intros H. unfold Bd1, KB, bB, Rdiv at 1 3. destruct (pow_inv_x 130 x 2 H ltac:(lra)). destruct (pow_inv_x 1 x 8 H ltac:(lra)). apply Rabs_le. lra.
Qed.

(** a convex function tending to zero with its derivative is nonnegative and decreasing *)
Section Convex.
Variables (f f1 f2 : R -> R) (C : R).
Hypothesis D1 : forall x, 0 <= x -> is_derive f x (f1 x).
Hypothesis D2 : forall x, 0 <= x -> is_derive f1 x (f2 x).
Hypothesis P2 : forall x, 0 <= x -> 0 <= f2 x.
Hypothesis L0 : forall x, 2 <= x -> Rabs (f x) <= C * (1 / x).
Hypothesis L1 : forall x, 2 <= x -> Rabs (f1 x) <= C * (1 / x).
Lemma mvt_at (g g1 : R -> R) (x y : R) : (forall x, 0 <= x -> is_derive g x (g1 x)) -> 0 <= x <= y -> exists c, x <= c <= y /\ g y - g x = g1 c * (y - x).
Proof.
  intros D H. destruct (MVT_gen g x y g1) as (c & Hc & E).
  - intros t Ht. rewrite Rmin_left, Rmax_right in Ht by lra. apply D. lra.
  - intros t Ht. rewrite Rmin_left, Rmax_right in Ht by lra. apply continuity_pt_filterlim. apply (ex_derive_continuous g). eexists. apply D. lra.
  - rewrite Rmin_left, Rmax_right in Hc by lra. exists c. auto.
Qed.
Lemma small_at eps x : 0 < eps -> exists y, 2 <= y /\ x <= y /\ C * (1 / y) <= eps.
Proof.
  intros He. set (y := Rmax (Rmax 2 x) (Rabs C / eps)). exists y.
  assert (A : 2 <= y) by (unfold y; apply Rle_trans with (Rmax 2 x); [apply Rmax_l|apply Rmax_l]).
  assert (B : x <= y) by (unfold y; apply Rle_trans with (Rmax 2 x); [apply Rmax_r|apply Rmax_l]).
  assert (D : Rabs C / eps <= y) by (unfold y; apply Rmax_r). split; auto. split; auto.
  apply (Rmult_le_reg_r y). lra. replace (C * (1 / y) * y) with C by (field; lra).
  apply (Rmult_le_compat_r eps) in D; [|lra]. replace (Rabs C / eps * eps) with (Rabs C) in D by (field; lra). assert (Q := Rle_abs C). lra.
Qed.
Lemma cx_der x : 0 <= x -> f1 x <= 0.
Proof.
  intros H. destruct (Rle_or_lt (f1 x) 0) as [|N]; auto. exfalso. destruct (small_at (f1 x / 2) x ltac:(lra)) as (y & Y2 & Yx & E).
  destruct (mvt_at f1 f2 x y D2 ltac:(lra)) as (c & Hc & M). assert (0 <= f2 c * (y - x)) by (apply Rmult_le_pos; [apply P2|]; lra).
  assert (A := L1 y Y2). apply Rabs_le_between in A. lra.
Qed.
Lemma cx_dec x y : 0 <= x <= y -> f y <= f x.
Proof. intros H. destruct (mvt_at f f1 x y D1 H) as (c & Hc & M). assert (Q := cx_der c ltac:(lra)). assert (0 <= - f1 c * (y - x)) by (apply Rmult_le_pos; lra). lra. Qed.
Lemma cx_pos x : 0 <= x -> 0 <= f x.
Proof.
  intros H. destruct (Rle_or_lt 0 (f x)) as [|N]; auto. exfalso. destruct (small_at (- f x / 2) x ltac:(lra)) as (y & Y2 & Yx & E).
  assert (Q := cx_dec x y ltac:(lra)). assert (A := L0 y Y2). apply Rabs_le_between in A. lra.
Qed.
End Convex.

Lemma dl_cx s : (s = 1 \/ s = -1)%Z -> (forall x y, 0 <= x <= y -> Bd y + IZR s * dl y <= Bd x + IZR s * dl x) /\ forall x, 0 <= x -> 0 <= Bd x + IZR s * dl x.
Proof.
  intros Hs.
  assert (D1 : forall x, 0 <= x -> is_derive (fun x => Bd x + IZR s * dl x) x (Bd1 x + IZR s * dl1 x)).
  { intros x H. apply (is_derive_plus Bd (fun x => IZR s * dl x)). apply Bd_derive; auto. apply (is_derive_scal dl). apply dl_derive; auto. }
  assert (D2 : forall x, 0 <= x -> is_derive (fun x => Bd1 x + IZR s * dl1 x) x (Bd2 x + IZR s * dl2 x)).
  { intros x H. apply (is_derive_plus Bd1 (fun x => IZR s * dl1 x)). apply Bd1_derive; auto. apply (is_derive_scal dl1). apply dl1_derive; auto. }
  assert (S1 : Rabs (IZR s) = 1). { destruct Hs as [-> | ->]. apply Rabs_R1. unfold Rabs. destruct Rcase_abs; lra. }
  assert (L0 : forall x, 2 <= x -> Rabs (Bd x + IZR s * dl x) <= 61 * (1 / x)).
  { intros x H. eapply Rle_trans. apply Rabs_triang. rewrite Rabs_mult, S1. assert (A := Bd_lim x ltac:(lra)). assert (B := dl_lim x H). lra. }
  assert (L1 : forall x, 2 <= x -> Rabs (Bd1 x + IZR s * dl1 x) <= 61 * (1 / x)).
  { intros x H. eapply Rle_trans. apply Rabs_triang. rewrite Rabs_mult, S1. assert (A := Bd1_lim x ltac:(lra)). assert (B := dl1_lim x ltac:(lra)).
    assert (0 < 1 / x) by (apply Rdiv_lt_0_compat; lra). lra. }
  split.
  - intros x y H. apply (cx_dec _ _ _ 61 D1 D2 (fun x => dl2_le s x Hs) L1); auto.
  - intros x H. apply (cx_pos _ _ _ 61 D1 D2 (fun x => dl2_le s x Hs) L0 L1); auto.
Qed.
Lemma dl_bound x : 0 <= x -> Rabs (dl x) <= Bd x.
Proof. intros H. assert (A := proj2 (dl_cx 1 ltac:(auto)) x H). assert (B := proj2 (dl_cx (-1) ltac:(auto)) x H). apply Rabs_le. lra. Qed.
Lemma dl_diff x y : 0 <= x <= y -> Rabs (dl x - dl y) <= Bd x - Bd y.
Proof. intros H. assert (A := proj1 (dl_cx 1 ltac:(auto)) x y H). assert (B := proj1 (dl_cx (-1) ltac:(auto)) x y H). apply Rabs_le. lra. Qed.
