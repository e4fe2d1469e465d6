(** * Evaluation is total: no undefined behaviour, bounded recursion *)
From Coq Require Import Lra Psatz.
From Verif Require Import Base ModelBasic ModelInt ModelElem ModelSpecial ModelApi FltLemmas ConvLemmas Spec IntProofs BasicProofs ScaleProofs.
Open Scope R_scope.

Notation ok r := (exists w, r = Ok w).
Lemma bind_ok {A B} (r : res A) (k : A -> res B) : ok r -> (forall a, r = Ok a -> ok (k a)) -> ok (bind r k).
Proof. intros [a ->] H. cbn. auto. Qed.
Lemma ok_Ok {A} (a : A) : ok (Ok a).
Proof. eauto. Qed.

(** ** Depth of the scaling recursions *)
(** Number of decimal digits of the exponent range. *)
Definition scale_depth (f : fmt) : nat := Z.to_nat (match f with F32 => 39 | F64 => 309 | F80 => 4950 end).
Lemma cst_depth f : bpow radix2 (emax f) <= cst ^ scale_depth f.
Proof.
  assert (H : forall e n, (0 <= e)%Z -> (2 ^ e * 100 ^ Z.of_nat n <= 999 ^ Z.of_nat n)%Z -> bpow radix2 e <= cst ^ n).
  { intros e n He H. rewrite bpow_IZR by auto. unfold cst, Rdiv. rewrite Rpow_mult_distr, pow_inv.
    assert (P : 0 < 100 ^ n) by (apply pow_lt; lra).
    apply Rmult_le_reg_r with (100 ^ n); [lra|]. rewrite Rmult_assoc, Rinv_l, Rmult_1_r by lra.
    apply IZR_le in H. rewrite mult_IZR, <- !pow_IZR in H. exact H. }
  destruct f; [apply H; [cbn; lia|apply Z.leb_le; vm_compute; reflexivity]
              |apply H; [cbn; lia|apply Z.leb_le; vm_compute; reflexivity]|].
  change (scale_depth F80) with (99 * 50)%nat. rewrite pow_mult.
  apply Rle_trans with (bpow radix2 328 ^ 50).
  - rewrite !bpow_IZR, pow_IZR by (cbn; lia). apply IZR_le. apply Z.leb_le. vm_compute. reflexivity.
  - apply pow_incr. split; [apply bpow_ge_0|]. apply H; [lia|apply Z.leb_le; vm_compute; reflexivity].
Qed.
Lemma scale_depth_le f : (scale_depth f + 3 <= scale_fuel)%nat.
Proof. apply Nat.leb_le. destruct f; vm_compute; reflexivity. Qed.

Lemma mantissa_mono {f} n : forall m (x : flt f) w, (n <= m)%nat -> mantissa n x = Ok w -> mantissa m x = Ok w.
Proof.
  induction n as [|n IH]; intros m x w Hm E; [discriminate|].
  destruct m as [|m]; [lia|]. rewrite mantissa_S in * .
  destruct (_ <. _); [|destruct (_ <. _)]; auto; apply IH; auto; lia.
Qed.
Lemma find_exponent_mono {f} n : forall m (x : flt f) e w, (n <= m)%nat -> find_exponent n x e = Ok w -> find_exponent m x e = Ok w.
Proof.
  induction n as [|n IH]; intros m x e w Hm E; [discriminate|].
  destruct m as [|m]; [lia|]. rewrite find_exponent_S in * .
  repeat match goal with |- context[if ?c then _ else _] => destruct c end; auto;
  match goal with H : bind ?a _ = _ |- _ => destruct a; try discriminate; cbn [bind] in * end; apply IH; auto; lia.
Qed.

(** Both recursions end within [scale_depth] plus two calls. *)
Lemma mantissa_depth {f} (x : flt f) : finite x = true -> bpow radix2 (2 - emax f) <= B2R x ->
  exists m, mantissa (S (scale_depth f)) x = Ok m /\ finite m = true /\ 1 <= B2R m <= 10.
Proof.
  intros Fx Hx. assert (D := cst_depth f).
  destruct (Rle_dec 1 (B2R x)) as [L|L].
  - destruct (scale_down (scale_depth f) x Fx L) as (k & m & _ & Hm & _ & Fm & B & _).
    { pose proof (B2R_lt_emax x). pose proof (Rle_abs (B2R x)). assert (0 < cst ^ scale_depth f) by (apply pow_lt; unfold cst; lra). lra. }
    exists m. auto.
  - apply mantissa_up; auto. lra.
    assert (P := bpow_gt_0 radix2 (2 - emax f)).
    apply Rle_trans with (bpow radix2 (2 - emax f) * bpow radix2 (emax f)).
    + rewrite <- bpow_plus. change 1 with (bpow radix2 0). apply bpow_le. lia.
    + apply Rmult_le_compat; auto; try lra. apply bpow_ge_0.
Qed.
Lemma find_exponent_depth {f} (x : flt f) : finite x = true -> bpow radix2 (2 - emax f) <= B2R x ->
  exists e, find_exponent (S (S (scale_depth f))) x 0 = Ok e /\ (Z.abs e <= 4 * Z.of_nat (scale_depth f) + 1)%Z.
Proof.
  intros Fx Hx. assert (D := cst_depth f).
  assert (Hd : (Z.of_nat (scale_depth f) <= 5000)%Z) by (destruct f; vm_compute; discriminate).
  destruct (Rle_dec 1 (B2R x)) as [L|L].
  - destruct (scale_down (scale_depth f) x Fx L) as (k & m & Hk & _ & He & _).
    { pose proof (B2R_lt_emax x). pose proof (Rle_abs (B2R x)). assert (0 < cst ^ scale_depth f) by (apply pow_lt; unfold cst; lra). lra. }
    destruct (He 0%Z) as [E|E]; [lia| |lia].
    exists (0 + Z.of_nat k)%Z. split; [|lia]. eapply find_exponent_mono; [|exact E]. lia.
  - destruct (find_exponent_up (scale_depth f) x 0) as (e & E & B); auto; try lra; try lia.
    + assert (P := bpow_gt_0 radix2 (2 - emax f)).
      apply Rle_trans with (bpow radix2 (2 - emax f) * bpow radix2 (emax f)).
      * rewrite <- bpow_plus. change 1 with (bpow radix2 0). apply bpow_le. lia.
      * apply Rmult_le_compat; auto; try lra. apply bpow_ge_0.
    + exists e. split; auto. lia.
Qed.

(** ** log and its callers *)
Lemma log_mantissa_ok v {f} (m : flt f) : finite m = true -> 1 <= B2R m <= 10 -> ok (log_mantissa v m).
Proof.
  intros Fm B. unfold log_mantissa. rewrite fcast_ok; auto. cbn. eexists; reflexivity.
  rewrite Ztrunc_floor by lra. assert (L := Zfloor_lb (B2R m)). assert (U := Zfloor_ub (B2R m)).
  assert (0 <= Zfloor (B2R m) <= 10)%Z; [|split; cbn; lia].
  split; [apply Zfloor_lub; lra|apply le_IZR; lra].
Qed.
Lemma log_ok v {f} (x : flt f) : ok (log_check v x).
Proof.
  unfold log_check.
  destruct (is_nan x) eqn:N; [apply ok_Ok|]. destruct (x <. ofZ f 0) eqn:L; [apply ok_Ok|].
  destruct (fmin f >. x) eqn:M; [apply ok_Ok|]. destruct (fmin f >. abs (x -. ofZ f 1)); [apply ok_Ok|].
  destruct (x ==. infty f) eqn:I; [apply ok_Ok|]. destruct (_ || _); [|apply ok_Ok].
  assert (Fx : finite x = true).
  { fold (is_posinf x) in I. rewrite is_posinf_spec in I. rewrite is_nan_spec in N.
    destruct x as [|[]| |]; auto; destruct f; discriminate. }
  destruct (fmin_spec f) as [Vm Fm]. apply flt_false_inv in M; auto. rewrite Vm in M.
  destruct (mantissa_depth x Fx M) as (m & Hm & Fmm & Bm).
  destruct (find_exponent_depth x Fx M) as (e & He & _).
  pose proof (scale_depth_le f) as SD.
  unfold log_breakup.
  rewrite (mantissa_mono (S (scale_depth f)) scale_fuel x m ltac:(lia) Hm). cbn [bind].
  destruct (log_mantissa_ok v m Fmm Bm) as [l ->]. cbn [bind].
  rewrite (find_exponent_mono (S (S (scale_depth f))) scale_fuel x 0 e ltac:(lia) He). cbn [bind]. apply ok_Ok.
Qed.

(** ** sqrt and its callers *)
Lemma sqrt_recur_ok {f} n : forall (x xn : flt f) c, (GCEM_SQRT_MAX_ITER - c < Z.of_nat n)%Z -> (0 < n)%nat -> ok (sqrt_recur n x xn c).
Proof.
  induction n as [|n IH]; intros x xn c Hc Hn; [lia|]. cbn [sqrt_recur].
  destruct (_ <. _); [apply ok_Ok|]. destruct (c <? GCEM_SQRT_MAX_ITER)%Z eqn:E; [|apply ok_Ok].
  apply Z.ltb_lt in E. apply IH; lia.
Qed.
Lemma inv_sqrt_recur_ok {f} n : forall (x xn : flt f) c, (GCEM_INV_SQRT_MAX_ITER - c < Z.of_nat n)%Z -> (0 < n)%nat -> ok (inv_sqrt_recur n x xn c).
Proof.
  induction n as [|n IH]; intros x xn c Hc Hn; [lia|]. cbn [inv_sqrt_recur].
  destruct (_ <. _); [apply ok_Ok|]. destruct (c <? GCEM_INV_SQRT_MAX_ITER)%Z eqn:E; [|apply ok_Ok].
  apply Z.ltb_lt in E. apply IH; lia.
Qed.
Lemma sqrt_simplify_S {f} n (x m_val : flt f) : sqrt_simplify (S n) x m_val =
  if x >. dlit f 100000000 0 then sqrt_simplify n (x /. dlit f 100000000 0) (dlit f 10000 0 *. m_val)
  else if x >. dlit f 1000000 0 then sqrt_simplify n (x /. dlit f 1000000 0) (dlit f 1000 0 *. m_val)
  else if x >. dlit f 10000 0 then sqrt_simplify n (x /. dlit f 10000 0) (dlit f 100 0 *. m_val)
  else if x >. ofZ f 100 then sqrt_simplify n (x /. ofZ f 100) (ofZ f 10 *. m_val)
  else if x >. ofZ f 4 then sqrt_simplify n (x /. ofZ f 4) (ofZ f 2 *. m_val)
  else let* r := sqrt_recur sqrt_iter_fuel x (x /. ofZ f 2) 0 in Ok (m_val *. r).
Proof. reflexivity. Qed.
(** Dividing by at least four while above four. *)
Lemma sqrt_simplify_small {f} n : forall (x m : flt f), finite x = true -> B2R x <= 4 * 2 ^ n -> ok (sqrt_simplify (S n) x m).
Proof.
  assert (T4 : has_val (ofZ f 4) 4) by (split; [apply ofZ_fin; lia|apply ofZ_B2R; lia]).
  assert (T100 : has_val (ofZ f 100) 100) by (split; [apply ofZ_fin; lia|apply ofZ_B2R; lia]).
  destruct (lit_ints f) as (_ & T4' & T6 & T8 & _).
  assert (U := prec24 f). assert (U0 := bpow_gt_0 radix2 (- prec f)).
  induction n as [|n IH]; intros x m Fx Hx.
  - rewrite sqrt_simplify_S, !flt_false; auto; try apply T4; try apply T100; try apply T4'; try apply T6; try apply T8;
    rewrite ?(proj2 T4), ?(proj2 T100), ?(proj2 T4'), ?(proj2 T6), ?(proj2 T8); try (cbn in Hx; lra).
    apply bind_ok; [|intros; apply ok_Ok]. apply sqrt_recur_ok; [reflexivity|vm_compute; lia].
  - assert (G : forall (t mm : flt f) r, has_val t r -> 4 <= r -> (t <. x) = true -> ok (sqrt_simplify (S n) (x /. t) mm)).
    { intros t mm r Ht Hr Hlt. apply flt_true_inv in Hlt; auto; [|apply Ht]. rewrite (proj2 Ht) in Hlt.
      destruct (div_ten x t r Fx Ht) as (Fq & _ & Qb); try lra. apply IH; auto.
      eapply Rle_trans; [apply Qb|]. cbn [pow] in Hx. 
      assert (B2R x / r <= B2R x / 4).
      { unfold Rdiv. apply Rmult_le_compat_l; [lra|]. apply Rinv_le; lra. }
      nra. }
    rewrite sqrt_simplify_S.
    destruct (dlit f 100000000 0 <. x) eqn:E1; [eapply G; eauto; lra|].
    destruct (dlit f 1000000 0 <. x) eqn:E2; [eapply G; eauto; lra|].
    destruct (dlit f 10000 0 <. x) eqn:E3; [eapply G; eauto; lra|].
    destruct (ofZ f 100 <. x) eqn:E4; [eapply G; eauto; lra|].
    destruct (ofZ f 4 <. x) eqn:E5; [eapply G; eauto; lra|].
    apply bind_ok; [|intros; apply ok_Ok]. apply sqrt_recur_ok; [reflexivity|vm_compute; lia].
Qed.
(** Dividing by 10^8 while above it. *)
Definition sqrt_depth (f : fmt) : nat := Z.to_nat (match f with F32 => 5 | F64 => 39 | F80 => 620 end).
Lemma sqrt_simplify_big {f} n : forall (x m : flt f), finite x = true -> B2R x <= 100000000 * 99900000 ^ n ->
  ok (sqrt_simplify (n + 26) x m).
Proof.
  destruct (lit_ints f) as (_ & _ & _ & T8 & _).
  assert (U := prec24 f). assert (U0 := bpow_gt_0 radix2 (- prec f)).
  assert (S0 : forall k (x m : flt f), (25 <= k)%nat -> finite x = true -> B2R x <= 100000000 -> ok (sqrt_simplify (S k) x m)).
  { intros k x m Hk Fx Hx. apply sqrt_simplify_small; auto.
    apply Rle_trans with (4 * 2 ^ 25); [lra|]. apply Rmult_le_compat_l; [lra|]. apply Rle_pow; [lra|lia]. }
  induction n as [|n IH]; intros x m Fx Hx.
  - apply S0; auto. cbn in Hx. lra.
  - destruct (Rle_dec (B2R x) 100000000) as [L|L].
    { cbn [Nat.add]. apply S0; auto. lia. }
    cbn [Nat.add]. rewrite sqrt_simplify_S. rewrite flt_true; auto; [|apply T8|rewrite (proj2 T8); lra].
    destruct (div_ten x (dlit f 100000000 0) 100000000 Fx T8) as (Fq & _ & Qb); try lra.
    apply IH; auto. eapply Rle_trans; [apply Qb|]. cbn [pow] in Hx.
    assert (0 < 99900000 ^ n) by (apply pow_lt; lra). nra.
Qed.
Lemma sqrt_depth_ok f : bpow radix2 (emax f) <= 99900000 ^ sqrt_depth f.
Proof.
  assert (H : forall e n, (0 <= e)%Z -> (2 ^ e <= 99900000 ^ Z.of_nat n)%Z -> bpow radix2 e <= 99900000 ^ n).
  { intros e n He H. rewrite bpow_IZR by auto. apply IZR_le in H. rewrite <- pow_IZR in H. exact H. }
  destruct f; [apply H; [cbn; lia|apply Z.leb_le; vm_compute; reflexivity]
              |apply H; [cbn; lia|apply Z.leb_le; vm_compute; reflexivity]|].
  change (sqrt_depth F80) with (31 * 20)%nat. rewrite pow_mult.
  apply Rle_trans with (bpow radix2 820 ^ 20).
  - rewrite !bpow_IZR, pow_IZR by (cbn; lia). apply IZR_le. apply Z.leb_le. vm_compute. reflexivity.
  - apply pow_incr. split; [apply bpow_ge_0|]. apply H; [lia|apply Z.leb_le; vm_compute; reflexivity].
Qed.
Lemma sqrt_simplify_mono {f} n : forall m (x mv : flt f) w, (n <= m)%nat -> sqrt_simplify n x mv = Ok w -> sqrt_simplify m x mv = Ok w.
Proof.
  induction n as [|n IH]; intros m x mv w Hm E; [discriminate|].
  destruct m as [|m]; [lia|]. rewrite sqrt_simplify_S in * .
  repeat match goal with |- context[if ?c then _ else _] => destruct c end; auto; apply IH; auto; lia.
Qed.
Lemma sqrt_simplify_depth {f} (x m : flt f) : finite x = true -> ok (sqrt_simplify (sqrt_depth f + 26) x m).
Proof.
  intros Fx. apply sqrt_simplify_big; auto.
  pose proof (sqrt_depth_ok f). pose proof (B2R_lt_emax x). pose proof (Rle_abs (B2R x)).
  assert (0 < 99900000 ^ sqrt_depth f) by (apply pow_lt; lra). nra.
Qed.
Lemma sqrt_depth_fuel f : (sqrt_depth f + 26 <= sqrt_fuel)%nat.
Proof. apply Nat.leb_le. destruct f; vm_compute; reflexivity. Qed.
Lemma sqrt_ok {f} (x : flt f) : ok (sqrt_check x).
Proof.
  unfold sqrt_check.
  destruct (is_nan x) eqn:N; [apply ok_Ok|]. destruct (x <. ofZ f 0) eqn:L; [apply ok_Ok|].
  destruct (is_posinf x) eqn:I; [apply ok_Ok|].
  destruct (abs x <. _); [apply ok_Ok|]. destruct (abs _ <. _); [apply ok_Ok|].
  assert (Fx : finite x = true).
  { rewrite is_posinf_spec in I. rewrite is_nan_spec in N.
    destruct x as [|[]| |]; auto; destruct f; discriminate. }
  destruct (sqrt_simplify_depth x (ofZ f 1) Fx) as [w E]. exists w.
  eapply sqrt_simplify_mono; [apply sqrt_depth_fuel|exact E].
Qed.
Lemma inv_sqrt_ok {f} (x : flt f) : ok (inv_sqrt_check x).
Proof.
  unfold inv_sqrt_check. repeat match goal with |- context[if ?c then _ else _] => destruct c end; try apply ok_Ok.
  apply inv_sqrt_recur_ok; [reflexivity|vm_compute; lia].
Qed.

(** ** powers with integral exponent *)
Lemma pow_recur_flt_ok {f} n : forall (b v : flt f) e, (0 <= e < 2 ^ Z.of_nat n)%Z -> ok (pow_recur_flt (S n) b v e).
Proof.
  induction n as [|n IH]; intros b v e He.
  - cbn in He. cbn [pow_recur_flt]. replace (1 <? e)%Z with false; [apply ok_Ok|]. symmetry. apply Z.ltb_ge. lia.
  - cbn [pow_recur_flt]. destruct (1 <? e)%Z eqn:E; [|apply ok_Ok].
    assert (0 <= e / 2 < 2 ^ Z.of_nat n)%Z.
    { rewrite Nat2Z.inj_succ, Z.pow_succ_r in He by lia. split; [apply Z.div_pos; lia|apply Z.div_lt_upper_bound; lia]. }
    destruct (is_odd e); apply IH; auto.
Qed.
Lemma pow_recur_fuel {f} t (b v : flt f) e : in_range t e -> (0 <= e)%Z -> ok (pow_recur_flt pow_fuel b v e).
Proof.
  intros H He. apply (pow_recur_flt_ok 65). split; auto.
  apply Z.lt_trans with (2 ^ Z.of_nat 64)%Z; [|reflexivity]. eapply in_range_bits; eauto.
Qed.
Lemma pow_cases_ok {f} t (b : flt f) e k : ok k -> ok (pow_cases_flt t b e k).
Proof. intros. unfold pow_cases_flt. repeat match goal with |- context[if ?c then _ else _] => destruct c end; auto; apply ok_Ok. Qed.
Lemma pow_integral_ok {f} t (b : flt f) e : in_range t e -> ok (pow_integral t b e).
Proof.
  intros He. unfold pow_integral.
  destruct (Z.eq_dec e (imin t)) as [E|E].
  { unfold pow_cases_flt. rewrite (proj2 (Z.eqb_eq e (imin t))) by auto.
    repeat match goal with |- context[if ?c then _ else _] => destruct c end; apply ok_Ok. }
  apply pow_cases_ok.
  destruct (isigned t && (e <? 0)%Z) eqn:S.
  - apply andb_true_iff in S. destruct S as [S N]. apply Z.ltb_lt in N.
    assert (R : in_range (promote t) (- e)).
    { destruct t; try discriminate; cbv [in_range imin imax isigned ibits promote] in * ; simpl Z.sub in * ; simpl Z.pow in * ; lia. }
    unfold ineg. rewrite iarith_ok by auto. cbn [bind].
    apply bind_ok; [|intros; apply ok_Ok]. apply pow_cases_ok. eapply pow_recur_fuel; eauto. lia.
  - eapply pow_recur_fuel; eauto.
    apply andb_false_iff in S. destruct S as [S|S].
    + destruct t; try discriminate; cbv [in_range imin imax isigned ibits promote] in * ; simpl Z.sub in * ; simpl Z.pow in * ; lia.
    + apply Z.ltb_ge in S. auto.
Qed.

(** ** The remaining elementary functions *)
Lemma floor_ok' {f} (x : flt f) : ok (floor_check x). Proof. apply floor_total. Qed.
Lemma trunc_ok' {f} (x : flt f) : ok (trunc_check x). Proof. apply trunc_total. Qed.
#[local] Hint Resolve floor_ok' trunc_ok' sqrt_ok log_ok ok_Ok : okdb.
Ltac okt := repeat match goal with
  | |- exists w, Ok _ = Ok w => apply ok_Ok
  | |- exists w, (if ?c then _ else _) = Ok w => destruct c
  | |- exists w, bind _ _ = Ok w => apply bind_ok; [|intros ? _]
  end; eauto with okdb.
Lemma fmod_ok {f} (x y : flt f) : ok (fmod_check x y). Proof. unfold fmod_check. okt. Qed.
Lemma hypot_ok {f} (x y : flt f) : ok (hypot_vals_check x y). Proof. unfold hypot_vals_check, hypot_compute. okt. Qed.
Lemma log1p_ok v {f} (x : flt f) : ok (log1p_check v x). Proof. unfold log1p_check. okt. Qed.
Lemma log2_ok v {f} (x : flt f) : ok (log2_check v x). Proof. unfold log2_check. okt. Qed.
Lemma log10_ok v {f} (x : flt f) : ok (log10_check v x). Proof. unfold log10_check. okt. Qed.
Lemma tan_cf_ok {f} (x : flt f) : ok (tan_cf_main x).
Proof.
  unfold tan_cf_main, tan_series_exp, tan_series_exp_long. okt; apply pow_integral_ok; split; cbn; lia.
Qed.
Lemma tan_begin_ok {f} (x : flt f) : ok (tan_begin 3 x 0).
Proof.
  cbn [tan_begin]. change (1 <? 0)%Z with false. change (1 <? 0 + 1)%Z with false. change (1 <? 0 + 1 + 1)%Z with true.
  cbv iota. pose proof (@tan_cf_ok f). okt.
Qed.
#[local] Hint Resolve tan_begin_ok : okdb.
Lemma tan_ok {f} (x : flt f) : ok (tan_check x). Proof. unfold tan_check. okt. Qed.
#[local] Hint Resolve tan_ok : okdb.
Lemma sin_ok {f} (x : flt f) : ok (sin_check x). Proof. unfold sin_check. okt. Qed.
Lemma cos_ok {f} (x : flt f) : ok (cos_check x). Proof. unfold cos_check. okt. Qed.
Lemma down_loop_ok {A} (b : Z -> res A -> res A) n : forall d r,
  (forall k r, (d - Z.of_nat n < k <= d)%Z -> ok r -> ok (b k r)) -> ok r -> ok (down_loop n d b r).
Proof.
  induction n as [|n IH]; intros d r H Hr; [exact Hr|]. cbn [down_loop]. apply IH.
  - intros. apply H; auto. lia.
  - apply H; auto. lia.
Qed.
Lemma atan_order_ok v {f} (x : flt f) m : (2 <= m <= 10)%Z -> ok (atan_series_order v x m).
Proof.
  intros Hm. unfold atan_series_order, atan_series_order_11, atan_series_order_14.
  assert (P : forall d, (2 <= d <= 10)%Z -> ok (pow_integral U32 x (4 * d - 5))).
  { intros d Hd. apply pow_integral_ok. unfold in_range; cbn [imin imax isigned ibits]; simpl Z.pow; lia. }
  destruct v.
  - apply bind_ok; [|intros; apply ok_Ok]. apply pow_integral_ok. split; cbn; lia.
  - apply bind_ok; [apply P; lia|intros p _]. apply bind_ok; [|intros; apply ok_Ok].
    unfold for_down.
    apply down_loop_ok; [|apply ok_Ok]. intros k r Hk Hr.
    apply bind_ok; auto. intros a _. apply bind_ok; [apply P; lia|]. intros; apply ok_Ok.
Qed.
Lemma atan_begin_ok v {f} (x : flt f) : ok (atan_begin v x).
Proof. unfold atan_begin, atan_series_main. okt; apply atan_order_ok; lia. Qed.
#[local] Hint Resolve atan_begin_ok : okdb.
Lemma atan_ok v {f} (x : flt f) : ok (atan_check v x). Proof. unfold atan_check. okt. Qed.
#[local] Hint Resolve atan_ok : okdb.
Lemma atan2_ok v {f} (y x : flt f) : ok (atan2_compute v y x). Proof. unfold atan2_compute. okt. Qed.
Lemma asin_compute_ok v {f} (x : flt f) : ok (asin_compute v x). Proof. unfold asin_compute. okt. Qed.
Lemma acos_compute_ok v {f} (x : flt f) : ok (acos_compute v x). Proof. unfold acos_compute. okt. Qed.
#[local] Hint Resolve asin_compute_ok acos_compute_ok : okdb.
Lemma asin_ok v {f} (x : flt f) : ok (asin_check v x). Proof. unfold asin_check. okt. Qed.
Lemma acos_ok v {f} (x : flt f) : ok (acos_check v x). Proof. unfold acos_check. okt. Qed.
Lemma tanh_ok v {f} (x : flt f) : ok (tanh_check v x). Proof. unfold tanh_check. okt. Qed.
Lemma asinh_ok v {f} (x : flt f) : ok (asinh_compute v x). Proof. unfold asinh_compute. okt. Qed.
Lemma acosh_ok v {f} (x : flt f) : ok (acosh_compute v x). Proof. unfold acosh_compute. okt. Qed.
Lemma atanh_ok v {f} (x : flt f) : ok (atanh_check v x). Proof. unfold atanh_check, atanh_compute. okt. Qed.
Lemma lgamma_ok v {f} (x : flt f) : ok (lgamma_check v x).
Proof. unfold lgamma_check, lgamma_begin, lgamma_term_1, lgamma_term_2. okt. Qed.
#[local] Hint Resolve lgamma_ok : okdb.
Lemma lbeta_flt_ok v {f} (a b : flt f) : ok (lbeta v a b). Proof. unfold lbeta. okt. Qed.
Lemma lbc_ok v {f} (a b : flt f) : ok (log_binomial_coef_compute v a b). Proof. unfold log_binomial_coef_compute. okt. Qed.
Lemma erf_inv_initial_ok v {f} (x : flt f) : ok (erf_inv_initial_val v x).
Proof. unfold erf_inv_initial_val, erf_inv_initial_val_int. okt. Qed.
Lemma lmgamma_ok v {f} : forall (n : nat) (a : flt f) p, (p < Z.of_nat n)%Z -> (0 < n)%nat -> ok (lmgamma_recur v n a p).
Proof.
  induction n as [|n IH]; intros a p H H0; [lia|]. cbn [lmgamma_recur].
  destruct (is_nan a); [apply ok_Ok|]. destruct (p =? 1)%Z eqn:E1; [apply lgamma_ok|].
  destruct (p <? 1)%Z eqn:E2; [apply ok_Ok|]. apply Z.eqb_neq in E1. apply Z.ltb_ge in E2.
  apply bind_ok; [apply lgamma_ok|intros]. apply bind_ok; [|intros; apply ok_Ok]. apply IH; lia.
Qed.
