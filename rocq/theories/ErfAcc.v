(** * Accuracy of erf *)
From Verif Require Import Base FltLemmas ConvLemmas ModelBasic ModelElem ModelSpecial BasicProofs CxxProofs Spec.
From Coq Require Import Lra Psatz.
From Coquelicot Require Import Coquelicot.
From Verif Require Import RangeProofs MiscProofs ExpAcc PowReal FPErr CFBound CFAcc SinAcc SqrtSimp TanhAcc ErfReal ErfBound ErfSmall SpecErf.
From Interval Require Import Tactic.
Open Scope R_scope.

Lemma sqrt_pi_val f : finite (conv f GCEM_SQRT_PI) = true /\ Rabs (B2R (conv f GCEM_SQRT_PI) - sqrt PI) <= uf f.
Proof.
  unfold uf. destruct f; (split; [vm_compute; reflexivity|]).
  - rewrite (B2R_sf (conv F32 GCEM_SQRT_PI) (SpecFloat.S754_finite false 14868421 (-23))) by (vm_compute; reflexivity).
    unfold SF2R, F2R. cbn. interval with (i_prec 120).
  - rewrite (B2R_sf (conv F64 GCEM_SQRT_PI) (SpecFloat.S754_finite false 7982422502469483 (-52))) by (vm_compute; reflexivity).
    unfold SF2R, F2R. cbn. interval with (i_prec 120).
  - rewrite (B2R_sf (conv F80 GCEM_SQRT_PI) (SpecFloat.S754_finite false 16348001285057500477 (-63))) by (vm_compute; reflexivity).
    unfold SF2R, F2R. cbn. interval with (i_prec 120).
Qed.
Lemma lit21 f : finite (dlit f 21 1) = true /\ Rabs (B2R (dlit f 21 1) - 21 / 10) <= / 1000000.
Proof.
  destruct f; (split; [vm_compute; reflexivity|]).
  - rewrite (B2R_sf (dlit F32 21 1) (SpecFloat.S754_finite false 8808038 (-22))) by (vm_compute; reflexivity). unfold SF2R, F2R. cbn. interval.
  - rewrite (B2R_sf (dlit F64 21 1) (SpecFloat.S754_finite false 4728779608739021 (-51))) by (vm_compute; reflexivity). unfold SF2R, F2R. cbn. interval.
  - rewrite (B2R_sf (dlit F80 21 1) (SpecFloat.S754_finite false 9684540638697515008 (-62))) by (vm_compute; reflexivity). unfold SF2R, F2R. cbn. interval.
Qed.
Lemma sqrt_pi_rng : 177 / 100 < sqrt PI < 178 / 100.
Proof. split; interval. Qed.
(** Relative factors *)
Lemma prod_rng a b c d x y : 0 <= a -> 0 <= c -> a <= x <= b -> c <= y <= d -> a * c <= x * y <= b * d.
Proof. intros. split; apply Rmult_le_compat; lra. Qed.
Lemma fac a b p q : Rabs (a - 1) <= p -> Rabs (b - 1) <= q -> p <= / 100 -> Rabs (a * b - 1) <= p + q * (1 + p).
Proof.
  intros H1 H2 Hp. replace (a * b - 1) with ((a - 1) + (b - 1) * a) by ring. eapply Rle_trans. apply Rabs_triang. rewrite Rabs_mult.
  assert (Rabs a <= 1 + p). { replace a with (1 + (a - 1)) by ring. eapply Rle_trans. apply Rabs_triang. rewrite Rabs_R1. lra. }
  apply Rplus_le_compat; auto. apply Rmult_le_compat; auto using Rabs_pos.
Qed.
Lemma fac_inv a p : Rabs (a - 1) <= p -> p <= / 2 -> Rabs (/ a - 1) <= p / (1 - p).
Proof.
  intros H Hp. assert (A := H). apply Rabs_le_inv in A. assert (A0 : 0 < a) by lra. replace (/ a - 1) with (- (a - 1) * / a) by (field; lra). rewrite Rabs_mult, Rabs_Ropp.
  rewrite (Rabs_pos_eq (/ a)) by (left; apply Rinv_0_lt_compat; auto). assert (N := Rabs_pos (a - 1)).
  unfold Rdiv. apply Rmult_le_compat; auto. left; apply Rinv_0_lt_compat; auto. apply Rinv_le_contravar; lra.
Qed.
Lemma fac_of w z c : 0 < z -> Rabs (w - z) <= c * z -> exists a, w = z * a /\ Rabs (a - 1) <= c.
Proof.
  intros Z H. exists (w / z). split. field; lra. replace (w / z - 1) with ((w - z) * / z) by (field; lra). assert (I : 0 < / z) by (apply Rinv_0_lt_compat; auto).
  rewrite Rabs_mult, (Rabs_pos_eq (/ z)) by lra. replace c with (c * z * / z) by (field; lra). apply Rmult_le_compat_r; lra.
Qed.
Lemma of_fac w z a c : 0 < z -> w = z * a -> Rabs (a - 1) <= c -> Rabs (w - z) <= c * z.
Proof. intros Z -> H. replace (z * a - z) with ((a - 1) * z) by ring. rewrite Rabs_mult, (Rabs_pos_eq z) by lra. apply Rmult_le_compat_r; lra. Qed.
Lemma rnd_fac f z : 0 < z -> bpow radix2 (2 - emax f) <= z -> exists a, rnd f z = z * a /\ Rabs (a - 1) <= uf f.
Proof. intros Z H. destruct (rnd_u f z) as (e & He & V). rewrite Rabs_pos_eq; lra. exists (1 + e). split; auto. replace (1 + e - 1) with e by ring. auto. Qed.

Section Comp.
Variable f : fmt.
Notation u := (uf f).
Let u0 : 0 < u := uf_pos f.
Let u1 : u <= / 16777216.
Proof. change (/ 16777216) with (bpow radix2 (-24)). apply uf_le. Qed.
Let fm := bpow radix2 (2 - emax f).
Let fm20 : fm <= / 100000000.
Proof. apply Rle_trans with (bpow radix2 (-30)). apply bpow_le. destruct f; discriminate. cbn; lra. Qed.
Let fm0 : 0 < fm := bpow_gt_0 radix2 (2 - emax f).
Notation sp := (conv f GCEM_SQRT_PI).
(** e / √π *)
Lemma over_sp (e : flt f) g A : finite e = true -> bpow radix2 (-90) <= g <= 2 -> Rabs (B2R e - g) <= A * g -> 0 <= A <= / 1000 ->
  finite (e /. sp) = true /\ exists a, B2R (e /. sp) = g / sqrt PI * a /\ Rabs (a - 1) <= A + 17 / 10 * u.
Proof.
  intros Fe G He HA. assert (G0 := bpow_gt_0 radix2 (-90)). assert (GF : fm <= / 1000 * bpow radix2 (-90)). { apply Rle_trans with (bpow radix2 (-100)). apply bpow_le. destruct f; discriminate. cbn; lra. } destruct (sqrt_pi_val f) as (Fs & Vs). assert (SP := sqrt_pi_rng). destruct (fac_of _ g A ltac:(lra) He) as (a & Ea & Ha).
  assert (Vs' : Rabs (B2R sp - sqrt PI) <= 6 / 10 * u * sqrt PI). { eapply Rle_trans. exact Vs. nra. }
  destruct (fac_of _ (sqrt PI) _ ltac:(lra) Vs') as (b & Eb & Hb). assert (Hbi := fac_inv b _ Hb ltac:(lra)).
  assert (A1 := Ha). apply Rabs_le_inv in A1. assert (B1 := Hb). apply Rabs_le_inv in B1.
  assert (Hbi' : Rabs (/ b - 1) <= 601 / 1000 * u).
  { eapply Rle_trans. exact Hbi. apply Rmult_le_reg_r with (1 - 6 / 10 * u). lra. replace (6 / 10 * u / (1 - 6 / 10 * u) * (1 - 6 / 10 * u)) with (6 / 10 * u) by (field; lra). nra. }
  assert (Q := fac _ _ _ _ Ha Hbi' ltac:(lra)). set (q := a * / b) in * . assert (Ex : B2R e / B2R sp = g / sqrt PI * q). { rewrite Ea, Eb. unfold q. field. lra. }
  assert (Q2 : Rabs (q - 1) <= A + 605 / 1000 * u) by nra. assert (Q1 := Q2). apply Rabs_le_inv in Q1.
  assert (IP : / 2 < / sqrt PI < 1). { split. apply Rinv_lt_contravar; lra. rewrite <- Rinv_1. apply Rinv_lt_contravar; lra. }
  assert (GP : bpow radix2 (-90) * / 2 <= g / sqrt PI <= 2). { unfold Rdiv. split. apply Rmult_le_compat; lra. replace 2 with (2 * 1) by ring. apply Rmult_le_compat; lra. }
  assert (GQ := prod_rng (bpow radix2 (-90) * / 2) 2 (99 / 100) (101 / 100) (g / sqrt PI) q ltac:(lra) ltac:(lra) GP ltac:(lra)). assert (sb : B2R sp <> 0) by (apply Rabs_le_inv in Vs; lra).
  destruct (op_div e sp Fe sb) as (F & V). rewrite Ex. rewrite Rabs_pos_eq; lra.
  split; auto. rewrite V, Ex. destruct (rnd_fac f (g / sqrt PI * q)) as (c & Ec & Hc). lra. fold fm. lra.
  exists (q * c). split. rewrite Ec. ring. eapply Rle_trans. apply (fac _ _ _ _ Q2 Hc). lra. assert (u * (A + 605 / 1000 * u) <= u * / 100) by (apply Rmult_le_compat_l; lra). lra.
Qed.
Lemma small_comp (x e r : flt f) g t A B : finite x = true -> finite e = true -> finite r = true ->
  fm <= B2R x <= 3 -> Rabs (B2R e - g) <= A * g -> 0 <= A <= / 1000 -> Rabs (B2R r - t) <= B * t -> 0 <= B <= / 300 ->
  / 1000 <= g <= 1 -> 0 < t -> g / t <= 2 -> fm <= 112 / 100 * (B2R x * g) -> fm <= 11 / 10 * (B2R x * (g / t)) ->
  let z := ofZ f 2 *. x *. (e /. sp) /. r in let Z := 2 * B2R x * (g / t) / sqrt PI in
  finite z = true /\ 0 < Z /\ Rabs (B2R z - Z) <= 1005 / 1000 * (A + B + 4 * u) * Z.
Proof.
  intros Fx Fe Fr Hx He HA Hr HB Hg Ht Hgt H1 H2. cbv zeta. assert (b90 : bpow radix2 (-90) <= / 1000) by (cbn; lra). destruct (over_sp e g A Fe ltac:(lra) He HA) as (F1 & a & E1 & Ha).
  assert (SP := sqrt_pi_rng). assert (IP : 1 / 178 * 100 < / sqrt PI < 1 / 177 * 100). { split. replace (1 / 178 * 100) with (/ (178 / 100)) by lra. apply Rinv_lt_contravar; lra. replace (1 / 177 * 100) with (/ (177 / 100)) by lra. apply Rinv_lt_contravar; lra. }
  destruct (ofZ_small f 2 ltac:(lia)) as (V2 & F2 & _). assert (x0 : 0 < B2R x). { assert (0 < fm) by apply bpow_gt_0. lra. }
  assert (D2 : finite (ofZ f 2 *. x) = true /\ B2R (ofZ f 2 *. x) = 2 * B2R x).
  { destruct (op_mul (ofZ f 2) x F2 Fx) as (F & V). rewrite V2, Rabs_pos_eq; lra. split; auto. rewrite V, V2. apply double_val. rewrite Rabs_pos_eq by lra. apply Rle_lt_trans with 6. lra.
    apply Rlt_le_trans with (bpow radix2 3). cbn; lra. apply bpow_le. destruct f; discriminate. }
  destruct D2 as (FD & VD). assert (A1 := Ha). apply Rabs_le_inv in A1. set (ip := / sqrt PI) in * .
  assert (xg : 0 < B2R x * g) by (apply Rmult_lt_0_compat; lra).
  set (z2 := 2 * B2R x * (g / sqrt PI * a)).
  assert (Z2 : z2 = 2 * (B2R x * g) * ip * a) by (unfold z2, ip, Rdiv; ring).
  assert (L2 : 1123 / 1000 * (B2R x * g) <= 2 * (B2R x * g) * ip) by nra. assert (P2 : 0 < 2 * (B2R x * g) * ip) by nra.
  assert (z2b : fm <= z2 <= 6). { rewrite Z2. assert (XG := prod_rng (B2R x) 3 g 1 (B2R x) g ltac:(lra) ltac:(lra) ltac:(lra) ltac:(lra)). assert (Y := prod_rng (1123 / 1000 * (B2R x * g)) (2 * 3 * (100 / 177)) (998 / 1000) (1002 / 1000) (2 * (B2R x * g) * ip) a ltac:(lra) ltac:(lra)).
    destruct Y; [split; auto; apply Rmult_le_compat; lra|lra|lra]. }
  destruct (op_mul (ofZ f 2 *. x) (e /. sp) FD F1) as (F3 & V3). { rewrite VD, E1. fold z2. rewrite Rabs_pos_eq; lra. }
  rewrite VD, E1 in V3. fold z2 in V3. destruct (rnd_fac f z2) as (b & Eb & Hb). lra. fold fm; lra. rewrite Eb in V3.
  assert (QB := fac _ _ _ _ Ha Hb ltac:(lra)).
  assert (uA : 0 <= u * (A + 17 / 10 * u) <= u * (2 / 1000)) by (split; [apply Rmult_le_pos; lra|apply Rmult_le_compat_l; lra]).
  destruct (fac_of _ t B Ht Hr) as (c & Ec & Hc). assert (C1 := Hc). apply Rabs_le_inv in C1. assert (Hci := fac_inv c _ Hc ltac:(lra)).
  assert (QC := fac _ _ _ _ QB Hci ltac:(lra)). set (k := a * b * / c) in * .
  assert (Bi : B / (1 - B) <= 10034 / 10000 * B). { apply Rmult_le_reg_r with (1 - B). lra. replace (B / (1 - B) * (1 - B)) with B by (field; lra). assert (B * B <= B * / 300) by (apply Rmult_le_compat_l; lra). lra. }
  assert (Bi0 : 0 <= B / (1 - B)) by (apply Rmult_le_pos; [lra|left; apply Rinv_0_lt_compat; lra]).
  assert (K : Rabs (k - 1) <= 1003 / 1000 * A + 10045 / 10000 * B + 271 / 100 * u).
  { eapply Rle_trans. exact QC. set (p := A + 17 / 10 * u + u * (1 + (A + 17 / 10 * u))) in * . assert (p <= A + 2702 / 1000 * u) by (unfold p; lra). assert (0 <= p) by (unfold p; lra).
    assert (B / (1 - B) * (1 + p) <= 10034 / 10000 * B * (1 + p)) by (apply Rmult_le_compat_r; lra). assert (p <= 1001 / 1000000). lra.
    assert (10034 / 10000 * B * (1 + p) <= 10034 / 10000 * B * (1 + 1001 / 1000000)) by (apply Rmult_le_compat_l; lra). lra. }
  assert (K1 := K). apply Rabs_le_inv in K1.
  set (Z := 2 * B2R x * (g / t) / sqrt PI). assert (gt0 : 0 < g / t) by (apply Rdiv_lt_0_compat; lra).
  assert (ZE : Z = 2 * (B2R x * (g / t)) * ip) by (unfold Z, ip, Rdiv; ring). assert (xgt : 0 < B2R x * (g / t)) by (apply Rmult_lt_0_compat; lra).
  assert (ZL : 1122 / 1000 * (B2R x * (g / t)) <= Z). { rewrite ZE. assert (B2R x * (g / t) * (561 / 1000) <= B2R x * (g / t) * ip) by (apply Rmult_le_compat_l; lra). lra. }
  assert (Z0 : 0 < Z) by lra.
  assert (E4 : z2 * b / B2R r = Z * k). { rewrite Z2, Ec, ZE. unfold k, ip. field. repeat split; lra. }
  assert (ZH : Z <= 12). { rewrite ZE. assert (B2R x * (g / t) <= 3 * 2) by (apply Rmult_le_compat; lra). assert (B2R x * (g / t) * ip <= 6 * 1) by (apply Rmult_le_compat; lra). lra. }
  assert (Zk : fm <= Z * k <= 20). { split. apply Rle_trans with (1122 / 1000 * (B2R x * (g / t)) * (99 / 100)). lra. apply Rmult_le_compat; lra. apply Rle_trans with (12 * (102 / 100)). apply Rmult_le_compat; lra. lra. }
  assert (r0 : B2R r <> 0) by (rewrite Ec; apply Rmult_integral_contrapositive; split; lra).
  destruct (op_div (ofZ f 2 *. x *. (e /. sp)) r F3 r0) as (F4 & V4). rewrite V3, E4, Rabs_pos_eq; lra.
  rewrite V3, E4 in V4. destruct (rnd_fac f (Z * k)) as (d & Ed & Hd). lra. fold fm; lra. rewrite Ed in V4.
  split; auto. split; auto. apply of_fac with (k * d); auto. rewrite V4. ring. eapply Rle_trans. apply (fac _ _ _ _ K Hd). lra. assert (u * (1003 / 1000 * A + 10045 / 10000 * B + 271 / 100 * u) <= u * / 100) by (apply Rmult_le_compat_l; lra). lra.
Qed.
End Comp.

Lemma erf_phi x : 0 < x -> erf_real x = 2 * x * phi x / sqrt PI.
Proof. intros H. unfold erf_real, phi, gint. assert (S := sqrt_pi_rng). change (fun t => exp (- (t * t))) with gau. field. lra. Qed.
Definition erf_b (f : fmt) (x : R) : R :=
  if Rle_dec x (/ 2) then 18 * uf f + bpow radix2 (-54) else if Rle_dec x 1 then 139 * uf f + bpow radix2 (-54)
  else if Rle_dec x (3 / 2) then 566 * uf f + bpow radix2 (-53) else 45700 * uf f + bpow radix2 (-53).
Definition erf_A (f : fmt) (x : R) : R :=
  if Rle_dec x (/ 2) then 8 * uf f + bpow radix2 (-55) else if Rle_dec x 1 then 106 * uf f + bpow radix2 (-55)
  else 108 * uf f + bpow radix2 (-54) + bpow radix2 (-57).
Lemma small_recur v {f} (xx : flt f) : erf_cf_small_recur v xx 1 = esf xx 59 1.
Proof.
  replace (erf_cf_small_recur v xx 1) with (erf_cf_small_recur Cxx14 xx 1) by (destruct v; [symmetry; apply erf_small_11_14|reflexivity] || (destruct v; [reflexivity|symmetry; apply erf_small_11_14])).
  unfold erf_cf_small_recur. unfold GCEM_ERF_MAX_ITER. rewrite for_down_rec_up by lia. reflexivity.
Qed.
(** A float square keeps below the squares of the interval ends. *)
Lemma rnd_sq_le f x (m : Z) e : (Z.abs m < 16777216)%Z -> (emin f <= e)%Z -> 0 <= x -> x * x <= IZR m * bpow radix2 e -> rnd f (x * x) <= IZR m * bpow radix2 e.
Proof.
  intros Hm He X H. replace (IZR m * bpow radix2 e) with (rnd f (IZR m * bpow radix2 e)). apply rnd_le; auto.
  apply round_generic. typeclasses eauto. change (IZR m * bpow radix2 e) with (F2R (Float radix2 m e)). 
  apply generic_format_FLT. exists (Float radix2 m e); auto. cbn [Fnum]. apply Z.lt_le_trans with (2 ^ 24)%Z. cbn. lia. apply (Zpower_le radix2 24 (prec f)). destruct f; discriminate.
Qed.

Lemma sq_facts {f} (x : flt f) : finite x = true -> 0 < B2R x <= 210001 / 100000 -> let y := x *. x in let s := sqrt (B2R y) in
  finite y = true /\ B2R y = s * s /\ 0 <= s <= erf_top /\ sq_near (uf f) (B2R x) s /\
  B2R (-. x *. x) = - B2R y /\ finite (-. x *. x) = true /\
  (B2R x <= / 4 -> s <= / 4) /\ (B2R x <= / 2 -> s <= / 2) /\ (B2R x <= 1 -> s <= 1) /\ (B2R x <= 3 / 2 -> s <= 3 / 2).
Proof.
  intros Fx X. assert (u0 := uf_pos f). assert (u1 : uf f <= / 16777216) by (change (/ 16777216) with (bpow radix2 (-24)); apply uf_le). cbv zeta.
  set (a := B2R x) in * . assert (X2 : 0 < a * a <= 44101 / 10000) by (split; nra).
  destruct (op_mul x x Fx Fx) as (F & V). { fold a. rewrite Rabs_pos_eq; lra. } fold a in V.
  destruct (op_mul (-. x) x) as (F' & V'). rewrite fneg_finite; auto. auto. { rewrite fneg_B2R. fold a. replace (- a * a) with (- (a * a)) by ring. rewrite Rabs_Ropp, Rabs_pos_eq; lra. }
  rewrite fneg_B2R in V'. fold a in V'. replace (- a * a) with (- (a * a)) in V' by ring. rewrite rnd_opp, <- V in V'.
  assert (Y0 : 0 <= B2R (x *. x)). { rewrite V. replace 0 with (rnd f 0) by (apply round_0; typeclasses eauto). apply rnd_le. lra. }
  set (y := B2R (x *. x)) in * . assert (S0 := sqrt_pos y). assert (SS : sqrt y * sqrt y = y) by (apply sqrt_sqrt; auto). set (s := sqrt y) in * .
  assert (YF : Rabs (y - a * a) <= uf f * Rmax (Rabs (a * a)) (bpow radix2 (2 - emax f))) by (rewrite V; apply rnd_fm). rewrite (Rabs_pos_eq (a * a)) in YF by lra.
  assert (fm80 : bpow radix2 (2 - emax f) <= bpow radix2 (-80)) by (apply bpow_le; destruct f; discriminate).
  assert (YB : Rabs (y - a * a) <= uf f * 5). { eapply Rle_trans. exact YF. apply Rmult_le_compat_l. lra. apply Rmax_lub. lra. eapply Rle_trans. exact fm80. cbn; lra. }
  assert (YB2 := YB). apply Rabs_le_inv in YB2.
  split; auto. split; auto. split. { split; auto. unfold erf_top. destruct (Rle_or_lt s (21003 / 10000)); auto. nra. }
  split; [|split; [exact V'|split; [exact F'|]]].
  - destruct (Rle_or_lt a (bpow radix2 (-40))) as [L|L].
    + right. split; auto. assert (A2 : a * a <= bpow radix2 (-80)). { replace (bpow radix2 (-80)) with (bpow radix2 (-40) * bpow radix2 (-40)) by (rewrite <- bpow_plus; reflexivity). apply Rmult_le_compat; lra. }
      assert (y <= bpow radix2 (-80) + bpow radix2 (-80)). { apply Rabs_le_inv in YF. assert (Rmax (a * a) (bpow radix2 (2 - emax f)) <= bpow radix2 (-80)) by (apply Rmax_lub; lra). assert (0 < bpow radix2 (-80)) by apply bpow_gt_0.
        assert (uf f * Rmax (a * a) (bpow radix2 (2 - emax f)) <= 1 * bpow radix2 (-80)). apply Rmult_le_compat; try lra. apply Rle_trans with (a * a). lra. apply Rmax_l. lra. }
      destruct (Rle_or_lt s (bpow radix2 (-39))); auto. exfalso.
      assert (bpow radix2 (-39) * bpow radix2 (-39) < s * s). { assert (0 < bpow radix2 (-39)) by apply bpow_gt_0. apply Rmult_le_0_lt_compat; lra. }
      rewrite <- bpow_plus in H1. change (-39 + -39)%Z with (-80 + 2)%Z in H1. rewrite bpow_plus in H1. change (bpow radix2 2) with 4 in H1. assert (0 < bpow radix2 (-80)) by apply bpow_gt_0. lra.
    + left. assert (A2 : bpow radix2 (-80) <= a * a). { replace (bpow radix2 (-80)) with (bpow radix2 (-40) * bpow radix2 (-40)) by (rewrite <- bpow_plus; reflexivity). assert (0 < bpow radix2 (-40)) by apply bpow_gt_0. apply Rmult_le_compat; lra. }
      rewrite Rmax_left in YF by lra. apply Rabs_le_inv in YF. assert (y0 : 0 < y) by nra. assert (s0 : 0 < s) by (apply sqrt_lt_R0; auto). split; auto.
      replace (s - a) with ((y - a * a) * / (s + a)) by (rewrite <- SS; field; lra). rewrite Rabs_mult. assert (I : 0 < / (s + a)) by (apply Rinv_0_lt_compat; lra). rewrite (Rabs_pos_eq (/ (s + a))) by lra.
      apply Rmult_le_reg_r with (s + a). lra. rewrite Rmult_assoc, Rinv_l, Rmult_1_r by lra. apply Rabs_le. nra.
  - assert (Sle : forall b, 0 <= b -> y <= b * b -> s <= b). { intros b B H. destruct (Rle_or_lt s b); auto. nra. }
    assert (E1 : (emin f <= -4)%Z) by (destruct f; discriminate).
    repeat split; intros L; (apply Sle; [lra|]); rewrite V.
    + replace (/ 4 * / 4) with (IZR 1 * bpow radix2 (-4)) by (cbn; lra). apply rnd_sq_le; try lia; try lra. replace (IZR 1 * bpow radix2 (-4)) with (/ 4 * / 4) by (cbn; lra). apply Rmult_le_compat; lra.
    + replace (/ 2 * / 2) with (IZR 1 * bpow radix2 (-2)) by (cbn; lra). apply rnd_sq_le; try lia; try lra. replace (IZR 1 * bpow radix2 (-2)) with (/ 2 * / 2) by (cbn; lra). apply Rmult_le_compat; lra.
    + replace (1 * 1) with (IZR 1 * bpow radix2 0) by (cbn; lra). apply rnd_sq_le; try lia; try lra. replace (IZR 1 * bpow radix2 0) with (1 * 1) by (cbn; lra). apply Rmult_le_compat; lra.
    + replace (3 / 2 * (3 / 2)) with (IZR 9 * bpow radix2 (-2)) by (cbn; lra). apply rnd_sq_le; try lia; try lra. replace (IZR 9 * bpow radix2 (-2)) with (3 / 2 * (3 / 2)) by (cbn; lra). apply Rmult_le_compat; lra.
Qed.
Lemma sq_mono a b : 0 <= a <= b -> a * a <= b * b.
Proof. intros H. apply Rmult_le_compat; lra. Qed.
Lemma exp_fit_10 f : exp_fit f 10.
Proof. unfold exp_fit. apply Rle_trans with (bpow radix2 20). cbn. interval. apply bpow_le. destruct f; discriminate. Qed.
Lemma exp_fit_le f a b : a <= b -> exp_fit f b -> exp_fit f a.
Proof. unfold exp_fit. intros H B. eapply Rle_trans; [|exact B]. apply Raux.exp_le. exact H. Qed.
Lemma erf_small_acc v {f} (x : flt f) : finite x = true -> bpow radix2 (2 - emax f) <= B2R x <= 210001 / 100000 ->
  exists w, erf_cf_small_main v x = Ok w /\ finite w = true /\ 0 < erf_real (B2R x) /\ Rabs (B2R w - erf_real (B2R x)) <= erf_b f (B2R x) * erf_real (B2R x).
Proof.
  intros Fx X. assert (fm0 := bpow_gt_0 radix2 (2 - emax f)). assert (u0 := uf_pos f). assert (u1 : uf f <= / 16777216) by (change (/ 16777216) with (bpow radix2 (-24)); apply uf_le).
  assert (fm30 : bpow radix2 (2 - emax f) <= / 100000000). { apply Rle_trans with (bpow radix2 (-30)). apply bpow_le. destruct f; discriminate. cbn; lra. }
  destruct (sq_facts x Fx ltac:(lra)) as (Fy & Vy & Hs & Near & Vn & Fn & S4 & S2 & S1 & S15). unfold erf_cf_small_main. rewrite small_recur.
  set (a := B2R x) in * . set (s := sqrt (B2R (x *. x))) in * .
  assert (TT : erf_top * erf_top <= 442 / 100) by (unfold erf_top; lra). assert (YB : 0 <= B2R (x *. x) <= 442 / 100) by (rewrite Vy; assert (Q := sq_mono s erf_top ltac:(lra)); split; [apply Rle_0_sqr|lra]).
  destruct (exp_all v (-. x *. x) Fn) as (e & Ee & Fe & (R1 & R2 & _ & R4)). { rewrite Vn, Rabs_Ropp, Rabs_pos_eq by lra. apply exp_fit_le with 10. lra. apply exp_fit_10. }
  rewrite Vn, Rabs_Ropp, (Rabs_pos_eq (B2R (x *. x))) in R1, R2, R4 by lra. rewrite Ee. cbn [bind].
  assert (GE : exp (- B2R (x *. x)) = gau s) by (unfold gau; rewrite Vy; reflexivity). rewrite GE in R1, R2, R4. unfold rel_err in R1, R2, R4.
  assert (G0 := gau_pos s). assert (G1 := gau_le1 s). rewrite (Rabs_pos_eq (gau s)) in R1, R2, R4 by lra.
  assert (b55 : bpow radix2 (-54) = 2 * bpow radix2 (-55)) by (cbn; lra). assert (b55p := bpow_gt_0 radix2 (-55)). assert (b57p := bpow_gt_0 radix2 (-57)). assert (b57 : bpow radix2 (-57) = 16 * bpow radix2 (-61)) by (cbn; lra).
  assert (b55m : bpow radix2 (-55) <= / 1000000000) by (cbn; lra).
  assert (EA : Rabs (B2R e - gau s) <= erf_A f a * gau s).
  { unfold erf_A. destruct Rle_dec as [L|L]. { apply R1. specialize (S2 L). rewrite Vy. assert (Q := sq_mono s (/ 2) ltac:(lra)). lra. } destruct Rle_dec as [L1|L1]. { apply R2. specialize (S1 L1). rewrite Vy. assert (Q := sq_mono s 1 ltac:(lra)). lra. }
    destruct (Rlt_or_le (B2R (x *. x)) 2) as [Y|Y]. eapply Rle_trans. apply R2; auto. apply Rmult_le_compat_r; lra.
    eapply Rle_trans. apply R4; lra. apply Rmult_le_compat_r. lra. assert ((B2R (x *. x) + 3) * bpow radix2 (-61) <= 16 * bpow radix2 (-61)). apply Rmult_le_compat_r. apply bpow_ge_0. lra. lra. }
  assert (A0 : 0 <= erf_A f a <= / 10000). { unfold erf_A. destruct Rle_dec. lra. destruct Rle_dec; [lra|]. assert (bpow radix2 (-57) <= / 1000000000) by (cbn; lra). lra. }
  destruct (runs_flt (x *. x) s Hs Fy Vy) as (Fr & Er). assert (Cb := erf_cb_le s).
  assert (T0 := proj1 (proj2 (runs_real s Hs))). assert (RN := rho_near s a (uf f) ltac:(unfold erf_top; lra) Hs ltac:(lra) Near). assert (P := phi_pos a ltac:(lra)). assert (PG := phi_ge a ltac:(lra)).
  assert (GT := gau_top). assert (GS := gau_dec s erf_top ltac:(lra)). assert (GA := gau_dec a erf_top ltac:(unfold erf_top; lra)).
  assert (b74 : bpow radix2 (-74) <= / 500000 * bpow radix2 (-55)) by (cbn; lra). assert (b74p := bpow_gt_0 radix2 (-74)).
  destruct (fac_of _ (phi a) _ ltac:(lra) RN) as (k & Ek & Hk). assert (K1 := Hk). apply Rabs_le_inv in K1.
  assert (RL : 999 / 1000 * phi a <= rho s <= 1001 / 1000). { rewrite Ek. split. rewrite Rmult_comm. apply Rmult_le_compat_l; lra. apply Rle_trans with (1 * (1001 / 1000)). apply Rmult_le_compat; lra. lra. }
  destruct (small_comp f x e (esf (x *. x) 59 1) (gau s) (et 59 1 s) (erf_A f a) (erf_cb s * uf f) Fx Fe Fr) as (Fz & Z0 & Rz); auto.
  - fold a. lra.
  - lra.
  - assert (erf_cb s * uf f <= 45300 * / 16777216) by (apply Rmult_le_compat; lra). split. apply Rmult_le_pos; lra. lra.
  - lra.
  - fold (rho s). lra.
  - fold a. destruct (Rle_or_lt a (/ 4)) as [L|L].
    + specialize (S4 L). assert (Q := gau_ge s). assert (93 / 100 <= gau s) by (assert (Q2 := sq_mono s (/ 4) ltac:(lra)); lra). apply Rle_trans with (112 / 100 * (a * (93 / 100))). lra. apply Rmult_le_compat_l. lra. apply Rmult_le_compat_l; lra.
    + apply Rle_trans with (112 / 100 * (/ 4 * / 100)). lra. apply Rmult_le_compat_l. lra. apply Rmult_le_compat; lra.
  - fold a. fold (rho s). destruct (Rle_or_lt a (/ 4)) as [L|L].
    + assert (93 / 100 <= rho s) by (assert (Q2 := sq_mono a (/ 4) ltac:(lra)); lra). apply Rle_trans with (11 / 10 * (a * (93 / 100))). lra. apply Rmult_le_compat_l. lra. apply Rmult_le_compat_l; lra.
    + apply Rle_trans with (11 / 10 * (/ 4 * / 200)). lra. apply Rmult_le_compat_l. lra. apply Rmult_le_compat; lra.
  - fold a in Fz, Z0, Rz. fold (rho s) in Z0, Rz. set (z := ofZ f 2 *. x *. (e /. conv f GCEM_SQRT_PI) /. esf (x *. x) 59 1) in * .
    exists z. split; auto. split; auto. rewrite erf_phi by lra. assert (SP := sqrt_pi_rng). set (E := 2 * a * phi a / sqrt PI).
    assert (E0 : 0 < E). { unfold E. apply Rdiv_lt_0_compat; [|lra]. apply Rmult_lt_0_compat; lra. } split; auto.
    destruct (fac_of _ _ _ Z0 Rz) as (m & Em & Hm). assert (ZE : 2 * a * rho s / sqrt PI = E * k). { rewrite Ek. unfold E. field. lra. }
    apply of_fac with (k * m); auto. rewrite Em, ZE. ring.
    eapply Rle_trans. apply (fac _ _ _ _ Hk Hm). lra.
    assert (CB : erf_cb s <= (if Rle_dec a (/ 2) then 4 else if Rle_dec a 1 then 27 else if Rle_dec a (3 / 2) then 450 else 45300)).
    { unfold erf_cb. destruct (Rle_dec a (/ 2)) as [L|L]. specialize (S2 L). destruct (Rle_dec s (/ 2)); lra.
      destruct (Rle_dec a 1) as [L1|L1]. specialize (S1 L1). destruct (Rle_dec s (/ 2)); [lra|]. destruct (Rle_dec s 1); lra.
      destruct (Rle_dec a (3 / 2)) as [L2|L2]. specialize (S15 L2). destruct (Rle_dec s (/ 2)); [lra|]. destruct (Rle_dec s 1); [lra|]. destruct (Rle_dec s (3 / 2)); lra.
      destruct (Rle_dec s (/ 2)); [lra|]. destruct (Rle_dec s 1); [lra|]. destruct (Rle_dec s (3 / 2)); lra. }
    assert (CBu : erf_cb s * uf f <= (if Rle_dec a (/ 2) then 4 else if Rle_dec a 1 then 27 else if Rle_dec a (3 / 2) then 450 else 45300) * uf f) by (apply Rmult_le_compat_r; lra).
    set (M := 1005 / 1000 * (erf_A f a + erf_cb s * uf f + 4 * uf f)). assert (M0 : 0 <= M). { assert (0 <= erf_cb s * uf f) by (apply Rmult_le_pos; lra). unfold M. lra. }
    assert (MS : M * (1001 / 1000 * uf f + bpow radix2 (-74)) <= M * (1 / 10000000)) by (apply Rmult_le_compat_l; lra).
    apply Rle_trans with (1001 / 1000 * uf f + bpow radix2 (-74) + M * (1 + 1 / 10000000)). lra. clear MS. unfold M. clear M M0.
    unfold erf_A, erf_b. destruct (Rle_dec a (/ 2)). lra. destruct (Rle_dec a 1). lra. destruct (Rle_dec a (3 / 2)).
    assert (bpow radix2 (-53) = 2 * bpow radix2 (-54)) by (cbn; lra). assert (bpow radix2 (-54) = 8 * bpow radix2 (-57)) by (cbn; lra). lra.
    assert (bpow radix2 (-53) = 2 * bpow radix2 (-54)) by (cbn; lra). assert (bpow radix2 (-54) = 8 * bpow radix2 (-57)) by (cbn; lra). lra.
Qed.
