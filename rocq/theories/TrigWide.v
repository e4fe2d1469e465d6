(** * The continued fraction of tan between 1.4 and pi, in the angle measure *)
From Verif Require Import Base ModelBasic ModelInt ModelElem ModelApi FltLemmas Spec IntProofs BasicProofs ConvLemmas CxxProofs TotalProofs ExpAcc MiscProofs SymLemmas.
From Coq Require Import Lra Psatz PrimFloat.
From Coquelicot Require Import Coquelicot.
From Verif Require Import PF FPErr CFReal CFBound CFTrunc TanAcc SinAcc TrigReal TrigAng.
From Interval Require Import Tactic.
Open Scope R_scope.

Notation tc := (ct (-1) ones).
Lemma uf_small f : 0 < uf f <= / 16777216.
Proof. split. apply uf_pos. exact (uf_le f). Qed.
(** ** Grid points *)
Lemma grid {f} (y : flt f) : / 4 <= Rabs (B2R y) -> exists m, B2R y = IZR m * (uf f / 2).
Proof.
  intros Y. assert (G := fmt_format y). unfold generic_format in G. set (e := cexp radix2 (fexpf f) (B2R y)) in * . set (m := Ztrunc (scaled_mantissa radix2 (fexpf f) (B2R y))) in * .
  assert (E : (- prec f - 1 <= e)%Z).
  { unfold e, cexp. assert (M : (-1 <= mag radix2 (B2R y))%Z). { apply mag_ge_bpow. cbn. lra. } rewrite fexpf_FLT. unfold FLT_exp. lia. }
  exists (m * 2 ^ (e + prec f + 1))%Z. rewrite G at 1. unfold F2R. cbn [Fnum Fexp]. rewrite mult_IZR, Rmult_assoc. f_equal. rewrite (IZR_Zpower radix2) by lia.
  replace (uf f / 2) with (bpow radix2 (- prec f - 1)) by (unfold uf, Zminus; rewrite bpow_plus; reflexivity). rewrite <- bpow_plus. f_equal. lia.
Qed.
Lemma sub_far {f} d (y : flt f) : (Z.abs d <= 1000)%Z -> finite y = true -> / 4 <= Rabs (B2R y) <= 1000 -> let s := ofZ f d -. y in
  finite s = true /\ (B2R s = 0 \/ uf f / 2 <= Rabs (B2R s)).
Proof.
  intros D Fy Y. cbv zeta. destruct (ofZ_small f d ltac:(lia)) as (Vd & Fd & _). assert (Hd : Rabs (IZR d) <= 1000) by (rewrite <- abs_IZR; apply IZR_le; auto).
  destruct (op_sub (ofZ f d) y Fd Fy) as (Fs & Vs). { rewrite Vd. unfold Rminus. eapply Rle_trans. apply Rabs_triang. rewrite Rabs_Ropp. lra. } split; auto. rewrite Vs, Vd.
  destruct (grid y (proj1 Y)) as (m & Em). assert (u0 := uf_small f).
  assert (Ed : exists k, IZR d = IZR k * (uf f / 2)).
  { exists (d * 2 ^ (prec f + 1))%Z. rewrite mult_IZR, (IZR_Zpower radix2) by (destruct f; discriminate). rewrite Rmult_assoc. replace (uf f / 2) with (bpow radix2 (- prec f - 1)) by (unfold uf, Zminus; rewrite bpow_plus; reflexivity). rewrite <- bpow_plus. replace (prec f + 1 + (- prec f - 1))%Z with 0%Z by ring. cbn. ring. }
  destruct Ed as (k & Ek). rewrite Ek, Em. replace (IZR k * (uf f / 2) - IZR m * (uf f / 2)) with (IZR (k - m) * (uf f / 2)) by (rewrite minus_IZR; ring).
  destruct (Z.eq_dec (k - m) 0) as [->|N]. left. rewrite Rmult_0_l. apply rnd_id. apply generic_format_0.
  right. rewrite rnd_abs. apply rnd_ge_fmt. { replace (uf f / 2) with (bpow radix2 (- prec f - 1)) by (unfold uf, Zminus; rewrite bpow_plus; reflexivity). apply fmt_bpow. unfold emin. destruct f; discriminate. }
  rewrite Rabs_mult, (Rabs_pos_eq (uf f / 2)) by lra. assert (1 <= Rabs (IZR (k - m))) by (rewrite <- abs_IZR; apply IZR_le; lia). nra.
Qed.
(** ** Checked bounds of the second and third denominators *)
Definition wchk (k : Z) : bool :=
  if (dgood 6 k && dgood 6 (k + 1))%bool then
    match amul (aex (dlo 6 k) (dhi 6 (k + 1))) (aex (dlo 6 k) (dhi 6 (k + 1))) with
    | Some X => match cloop true false X 42 3, cloop true false X 43 2 with
                | Some a, Some b => (ltF (er (ca b)) 16 && ltF (hi (ca b)) 3 && ltF (ng 1) (lo (ca b)) && ltF 1 (lo (ca a)) && ltF (hi (ca a)) 5 && ltF (er (ca a)) 64)%bool
                | _, _ => false end
    | None => false end
  else false.
Lemma wchk_ok : allZ 114 88 wchk = true. Proof. vm_compute. reflexivity. Qed.
Lemma fcf_S {f} (xx : flt f) n d : fcf true false xx (S n) d = fcf_step true false xx d (fcf true false xx n (d + 1)).
Proof. unfold fcf. cbn [up_rec]. do 2 f_equal. f_equal. lia. Qed.
Lemma wide_bounds {f} (x : flt f) : finite x = true -> 88 / 64 <= B2R x < 202 / 64 ->
  let xx := x *. x in let r3 := fcf true false xx 42 3 in let r2 := fcf true false xx 43 2 in
  finite r3 = true /\ 1 - 64 * uf f <= B2R r3 <= 5 + 64 * uf f /\ finite r2 = true /\ Rabs (B2R r2 - tc 43 2 (B2R x)) <= 16 * uf f /\ -1 <= tc 43 2 (B2R x) <= 3 /\ r2 = ofZ f 3 -. xx /. r3.
Proof.
  intros Fx X. cbv zeta. assert (P6 : bpow radix2 (- (6)) = / 64) by reflexivity.
  destruct (cover 6 (B2R x) 88 202 ltac:(lia)) as (k & Hk & Ik). rewrite P6; lra. rewrite P6; lra.
  assert (W := allZ_spec _ _ _ wchk_ok k ltac:(lia)). unfold wchk in W. destruct (dgood 6 k) eqn:D1; [|discriminate]. destruct (dgood 6 (k + 1)) eqn:D2; [|discriminate]. cbn [andb] in W.
  destruct (dlo_ok 6 k ltac:(lia) D1) as (R1 & L1). destruct (dhi_ok 6 (k + 1) ltac:(lia) D2) as (R2 & L2).
  destruct (amul _ _) as [X0|] eqn:HX; [|discriminate]. destruct (cloop true false X0 42 3) as [a|] eqn:Ha; [|discriminate]. destruct (cloop true false X0 43 2) as [b|] eqn:Hb; [|discriminate].
  apply andb_prop in W as (W & W6). apply andb_prop in W as (W & W5). apply andb_prop in W as (W & W4). apply andb_prop in W as (W & W3). apply andb_prop in W as (W1 & W2).
  apply ltF_ok in W1 as (_ & _ & W1). apply ltF_ok in W2 as (_ & _ & W2). apply ltF_ok in W3 as (_ & _ & W3). apply ltF_ok in W4 as (_ & _ & W4). apply ltF_ok in W5 as (_ & _ & W5). apply ltF_ok in W6 as (_ & _ & W6).
  rewrite (proj2 (ng_real _ (proj1 rv1))), (proj2 rv1) in W3. rewrite (proj2 rv1) in W4.
  assert (v16 : rv 16%float = 16) by (change 16%float with (ofZd 16); apply vint; reflexivity). assert (v3 : rv 3%float = 3) by (change 3%float with (ofZd 3); apply vint; reflexivity). assert (v5 : rv 5%float = 5) by (change 5%float with (ofZd 5); apply vint; reflexivity). assert (v64 : rv 64%float = 64) by (change 64%float with (ofZd 64); apply vint; reflexivity).
  rewrite v16 in W1. rewrite v3 in W2. rewrite v5 in W5. rewrite v64 in W6.
  assert (AX : approx (x *. x) (B2R x * B2R x) X0). { assert (A0 := aexact x _ _ Fx R1 R2 ltac:(lra)). eapply amul_ok; [exact A0|exact A0|exact HX]. }
  destruct (cloop_ok true false X0 (x *. x) (B2R x) 42 AX 3 a ltac:(lia) ltac:(lia) Ha) as (_ & (Fa & _ & Ba & Ea) & _).
  destruct (cloop_ok true false X0 (x *. x) (B2R x) 43 AX 2 b ltac:(lia) ltac:(lia) Hb) as (_ & (Fb & _ & Bb & Eb) & _).
  assert (u0 := uf_small f). assert (rv (er (ca a)) * uf f <= 64 * uf f) by (apply Rmult_le_compat_r; lra). assert (rv (er (ca b)) * uf f <= 16 * uf f) by (apply Rmult_le_compat_r; lra).
  change (ct (sgn_of true) (ar false) 43 2 (B2R x)) with (tc 43 2 (B2R x)) in * .
  split; auto. split. apply Rabs_le_inv in Ea. lra. split; auto. split. lra. split. lra. rewrite fcf_S. reflexivity.
Qed.
Lemma mul3 a b c u : 0 <= u <= / 16777216 -> Rabs a <= u -> Rabs b <= u -> Rabs c <= u -> Rabs ((1 + a) * (1 + b) * (1 + c) - 1) <= 301 / 100 * u.
Proof.
  intros U A B C. replace ((1 + a) * (1 + b) * (1 + c) - 1) with (a + b + c + (a * b + a * c + b * c + a * b * c)) by ring.
  assert (M : forall p q, Rabs p <= u -> Rabs q <= u -> Rabs (p * q) <= / 16777216 * u). { intros p q P Q. rewrite Rabs_mult. apply Rmult_le_compat; auto using Rabs_pos. lra. }
  assert (M1 := M a b A B). assert (M2 := M a c A C). assert (M3 := M b c B C). assert (M4 := M (a * b) c ltac:(lra) C). apply Rabs_le_inv in A, B, C, M1, M2, M3, M4. apply Rabs_le. lra.
Qed.
Lemma fin_big f z : Rabs z <= bpow radix2 (prec f + 10) -> Rabs (rnd f z) < bpow radix2 (emax f).
Proof. intros H. apply rnd_lt_emax_bpow with (prec f + 10)%Z; auto. unfold emin; destruct f; split; try discriminate; reflexivity. Qed.
Lemma pb10 f : bpow radix2 (prec f + 10) = 1024 / uf f.
Proof. unfold uf. rewrite bpow_plus, bpow_opp. assert (P := bpow_gt_0 radix2 (prec f)). cbn [bpow]. change (IZR (Z.pow_pos radix2 10)) with 1024. field. lra. Qed.
Lemma norm_le f z : / 1000000 <= z -> bpow radix2 (2 - emax f) <= z.
Proof. intros H. apply Rle_trans with (bpow radix2 (-60)). apply bpow_le. destruct f; discriminate. apply Rle_trans with (/ 1000000); auto. cbn. lra. Qed.
Lemma norm_u f z : uf f / 1000000 <= z -> bpow radix2 (2 - emax f) <= z.
Proof. intros H. eapply Rle_trans. apply fm_small. assert (u0 := uf_small f). lra. Qed.
Lemma zero_of {f} (y : flt f) : finite y = true -> B2R y = 0 -> exists s, y = B754_zero s.
Proof.
  intros F H. destruct y; try discriminate. eexists; reflexivity. exfalso. cbn in H. apply eq_0_F2R in H. destruct s; discriminate.
Qed.
Lemma fin_of {f} (y : flt f) : 0 < B2R y -> exists m e h, y = B754_finite false m e h.
Proof. intros H. destruct y; cbn in H; try lra. destruct s. exfalso. assert (F2R (Float radix2 (cond_Zopp true (Z.pos m)) e) < 0) by (apply F2R_lt_0; reflexivity). lra. eauto. Qed.
Lemma cf_wide {f} (x : flt f) : finite x = true -> 1399 / 1000 <= B2R x <= 1551 / 1000 \/ 1599 / 1000 <= B2R x <= 315 / 100 ->
  let w := x /. fcf true false (x *. x) 44 1 in finite w = true /\ Rabs (B2R w) <= 1001 /\ ang (B2R w) (B2R x) <= 14 * uf f + bpow radix2 (-100).
Proof.
  intros Fx X. cbv zeta. destruct (wide_bounds x Fx ltac:(lra)) as (F3 & B3 & F2 & E2 & T2 & R2). cbv zeta in * . rewrite fcf_S. unfold fcf_step. change (2 * 1 - 1)%Z with 1%Z. change (1 + 1)%Z with 2%Z.
  set (xx := x *. x) in * . set (r3 := fcf true false xx 42 3) in * . set (r2 := fcf true false xx 43 2) in * . set (r := B2R x) in * .
  assert (u0 := uf_small f). assert (TR := trunc2 r ltac:(lra)). assert (DF := den_far r ltac:(lra)). set (D := DD 0 r) in * . set (t := tc 43 2 r) in * .
  assert (TE : 4 * (/ 28) ^ 36 <= bpow radix2 (-101)) by (cbn; lra). assert (TT := TR). assert (EE := E2). apply Rabs_le_inv in TT. apply Rabs_le_inv in EE. set (tau := bpow radix2 (-101)) in * .
  assert (tau0 : 0 < tau <= / 1000000) by (unfold tau; cbn; lra). replace (bpow radix2 (-100)) with (2 * tau) by (unfold tau; replace (-100)%Z with (-101 + 1)%Z by ring; rewrite bpow_plus_1; reflexivity).
  assert (rr : 195 / 100 <= r * r <= 993 / 100). { assert (1399 / 1000 <= r <= 315 / 100) by lra. split; interval. }
  destruct (op_mul x x Fx Fx) as (Fxx & Vxx). { fold r. rewrite Rabs_pos_eq; lra. } fold xx r in Fxx, Vxx. destruct (rnd_u f (r * r)) as (e0 & He0 & V0). { apply norm_le. rewrite Rabs_pos_eq; lra. } rewrite V0 in Vxx. clear V0.
  assert (H0 := He0). apply Rabs_le_inv in H0. assert (xx0 : 19 / 10 <= B2R xx <= 994 / 100). { rewrite Vxx. split. apply Rle_trans with (195 / 100 * (1 - / 16777216)). lra. apply Rmult_le_compat; lra. apply Rle_trans with (993 / 100 * (1 + / 16777216)). apply Rmult_le_compat; lra. lra. }
  assert (far : B2R r2 = 0 \/ uf f / 2 <= Rabs (B2R r2)).
  { destruct (op_div xx r3 Fxx) as (Fq & Vq). lra. { rewrite Rabs_pos_eq. apply Rle_trans with 20. apply Rmult_le_reg_r with (B2R r3). lra. unfold Rdiv. rewrite Rmult_assoc, Rinv_l, Rmult_1_r by lra. lra. lra. apply Rlt_le, Rdiv_lt_0_compat; lra. }
    assert (Q : 36 / 100 <= B2R xx / B2R r3 <= 11). { split; apply Rmult_le_reg_r with (B2R r3); try lra; replace (B2R xx / B2R r3 * B2R r3) with (B2R xx) by (field; lra); lra. }
    assert (En := rnd_small f (B2R xx / B2R r3)). rewrite <- Vq in En. rewrite (Rabs_pos_eq (_ / _)) in En by lra. set (q3 := B2R xx / B2R r3) in * . assert (b1 : bpow radix2 (-100) <= 1) by (cbn; lra). assert (b0 := bpow_gt_0 radix2 (-100)).
    assert (uf f * q3 <= / 16777216 * 11) by (apply Rmult_le_compat; lra). assert (uf f * bpow radix2 (-100) <= / 16777216 * 1) by (apply Rmult_le_compat; lra). apply Rabs_le_inv in En.
    destruct (sub_far 3 (xx /. r3) ltac:(lia) Fq) as (_ & K). { rewrite Rabs_pos_eq; lra. } rewrite <- R2 in K. exact K. }
  assert (V1 := proj1 (ofZ_small f 1 ltac:(lia))). assert (F1 := proj1 (proj2 (ofZ_small f 1 ltac:(lia)))).
  destruct far as [Z|far].
  - destruct (zero_of r2 F2 Z) as (s & Es). destruct (fin_of xx ltac:(lra)) as (m & e & h & Exx). destruct (fin_of x ltac:(fold r; lra)) as (m' & e' & h' & Ex).
    assert (W : exists s', x /. (ofZ f 1 -. xx /. r2) = B754_zero s'). { rewrite Es, Exx, Ex. destruct f; eexists; reflexivity. }
    destruct W as (s' & ->). split. reflexivity. change (B2R (B754_zero s')) with 0. split. rewrite Rabs_R0; lra. rewrite Z in EE. assert (A : Rabs (- D) <= 16 * uf f + tau) by (apply Rabs_le; lra).
    assert (L := ang_level r (- D) 0 ltac:(lra) ltac:(lra)). fold D in L. assert (ang 0 r <= 51 / 100 * Rabs (- D)). { apply L. ring. lra. } lra.
  - assert (r20 : B2R r2 <> 0) by (intros K; rewrite K, Rabs_R0 in far; lra). set (d2 := B2R r2) in * .
    assert (d2b : Rabs d2 <= 301 / 100) by (apply Rabs_le; lra).
    assert (Q1 : Rabs (B2R xx / d2) <= 20 / uf f). { unfold Rdiv. rewrite Rabs_mult, (Rabs_pos_eq (B2R xx)), Rabs_inv by lra. apply Rle_trans with (994 / 100 * / (uf f / 2)). apply Rmult_le_compat; try lra. left. apply Rinv_0_lt_compat. lra. apply Rinv_le; lra. unfold Rdiv at 2. rewrite Rinv_mult by lra. rewrite Rinv_inv by lra. assert (0 < / uf f) by (apply Rinv_0_lt_compat; lra). lra. }
    assert (iu : 16777216 <= / uf f). { rewrite <- (Rinv_inv 16777216) by lra. apply Rinv_le; lra. }
    destruct (fdiv_spec xx r2 Fxx r20) as (Vq & Fq). { apply fin_big. rewrite pb10. fold d2. unfold Rdiv at 2. unfold Rdiv in Q1 at 2. lra. } fold d2 in Vq.
    destruct (rnd_u f (B2R xx / d2)) as (e1 & He1 & Ve1). { apply norm_le. unfold Rdiv. rewrite Rabs_mult, (Rabs_pos_eq (B2R xx)), Rabs_inv by lra. apply Rle_trans with (19 / 10 * / (301 / 100)). lra. apply Rmult_le_compat; try lra. apply Rinv_le; auto. lra. } rewrite Ve1 in Vq. clear Ve1.
    assert (H1 := He1). apply Rabs_le_inv in H1. set (D' := d2 / ((1 + e0) * (1 + e1))). assert (D'0 : D' <> 0). { unfold D', Rdiv. apply Rmult_integral_contrapositive_currified; auto. apply Rinv_neq_0_compat. apply Rmult_integral_contrapositive_currified; lra. }
    assert (Vq' : B2R (xx /. r2) = r * r / D') by (rewrite Vq, Vxx; unfold D'; field; repeat split; lra).
    assert (P2 : d2 = D' * ((1 + e0) * (1 + e1))) by (unfold D'; field; lra).
    assert (ee : Rabs ((1 + e0) * (1 + e1) - 1) <= 201 / 100 * uf f). { replace ((1 + e0) * (1 + e1) - 1) with (e0 + e1 + e0 * e1) by ring. assert (Rabs (e0 * e1) <= / 16777216 * uf f). { rewrite Rabs_mult. apply Rmult_le_compat; auto using Rabs_pos. lra. } apply Rabs_le_inv in H. apply Rabs_le. lra. }
    set (g := (1 + e0) * (1 + e1) - 1) in * . replace ((1 + e0) * (1 + e1)) with (1 + g) in P2 by (unfold g; ring). assert (gg := ee). apply Rabs_le_inv in gg.
    assert (AD : Rabs d2 = Rabs D' * (1 + g)) by (rewrite P2, Rabs_mult, (Rabs_pos_eq (1 + g)); lra). assert (AD0 := Rabs_pos D').
    assert (ADb : 49 / 100 * uf f <= Rabs D' <= 302 / 100). { assert (Rabs D' * (1 + g) <= Rabs D' * (1001 / 1000)) by (apply Rmult_le_compat_l; lra). assert (Rabs D' * (999 / 1000) <= Rabs D' * (1 + g)) by (apply Rmult_le_compat_l; lra). lra. }
    assert (Dd : Rabs (D' - d2) <= 61 / 10 * uf f). { rewrite P2. replace (D' - D' * (1 + g)) with (- (D' * g)) by ring. rewrite Rabs_Ropp, Rabs_mult. apply Rle_trans with (302 / 100 * (201 / 100 * uf f)). apply Rmult_le_compat; auto using Rabs_pos; lra. lra. }
    set (dl := D' - D). assert (Hdl : Rabs dl <= 222 / 10 * uf f + tau). { unfold dl. apply Rabs_le_inv in Dd. apply Rabs_le. lra. }
    set (m := D' - r * r). assert (Em : m = D + dl - r * r) by (unfold m, dl; ring).
    assert (mb : 199 / 10000 <= Rabs m <= 1301 / 100). { assert (I1 := Rabs_triang_inv (D - r * r) (- dl)). assert (I2 := Rabs_triang (D - r * r) dl). rewrite Rabs_Ropp in I1. replace (D - r * r - - dl) with m in I1 by (rewrite Em; ring). replace (D - r * r + dl) with m in I2 by (rewrite Em; ring). lra. }
    assert (m0 : m <> 0) by (intros K; rewrite K, Rabs_R0 in mb; lra).
    assert (Q2 : 1 - B2R (xx /. r2) = m / D') by (rewrite Vq'; unfold m; field; auto).
    assert (Q3 : 6 / 1000 <= Rabs (m / D') <= 30 / uf f).
    { assert (AM : Rabs (m / D') = Rabs m * / Rabs D') by (unfold Rdiv; rewrite Rabs_mult, Rabs_inv; reflexivity). rewrite AM. split. apply Rle_trans with (199 / 10000 * / (302 / 100)). lra. apply Rmult_le_compat; try lra. apply Rinv_le; lra.
      apply Rle_trans with (1301 / 100 * / (49 / 100 * uf f)). apply Rmult_le_compat; try lra. left. apply Rinv_0_lt_compat. lra. apply Rinv_le; lra. rewrite Rinv_mult by lra. replace (30 / uf f) with (30 * / uf f) by reflexivity. lra. }
    destruct (fsub_spec (ofZ f 1) (xx /. r2) F1 Fq) as (Vr1 & Fr1). { rewrite V1, Q2. apply fin_big. rewrite pb10. replace (30 / uf f) with (30 * / uf f) in Q3 by reflexivity. replace (1024 / uf f) with (1024 * / uf f) by reflexivity. lra. } rewrite V1, Q2 in Vr1.
    destruct (rnd_u f (m / D')) as (e2 & He2 & Ve2). { apply norm_le. lra. } rewrite Ve2 in Vr1. clear Ve2. assert (H2 := He2). apply Rabs_le_inv in H2.
    assert (r10 : B2R (ofZ f 1 -. xx /. r2) <> 0). { rewrite Vr1. unfold Rdiv. repeat apply Rmult_integral_contrapositive_currified; auto. apply Rinv_neq_0_compat; auto. lra. }
    assert (Q4 : r / B2R (ofZ f 1 -. xx /. r2) = r * D' / m * / (1 + e2)) by (rewrite Vr1; field; repeat split; auto; lra).
    assert (i2 : 99 / 100 <= / (1 + e2) <= 101 / 100). { split. apply Rmult_le_reg_r with (1 + e2). lra. rewrite Rinv_l by lra. lra. apply Rmult_le_reg_r with (1 + e2). lra. rewrite Rinv_l by lra. lra. }
    assert (Q5 : uf f / 1000000 <= Rabs (r * D' / m * / (1 + e2)) <= 1000).
    { assert (AM : Rabs (r * D' / m * / (1 + e2)) = r * Rabs D' * / Rabs m * / (1 + e2)) by (unfold Rdiv; rewrite !Rabs_mult, (Rabs_inv m), (Rabs_pos_eq r), (Rabs_pos_eq (/ (1 + e2))) by lra; reflexivity). rewrite AM. split.
      - apply Rle_trans with (1 * (49 / 100 * uf f) * / (1301 / 100) * (99 / 100)). lra. repeat apply Rmult_le_compat; try lra. apply Rinv_le; lra.
      - assert (pa : 0 <= r * Rabs D' <= 316 / 100 * (302 / 100)) by (split; [apply Rmult_le_pos; lra|apply Rmult_le_compat; lra]).
        assert (pb : 0 <= / Rabs m <= / (199 / 10000)) by (split; [left; apply Rinv_0_lt_compat; lra|apply Rinv_le; lra]).
        assert (pc : 0 <= r * Rabs D' * / Rabs m <= 316 / 100 * (302 / 100) * / (199 / 10000)) by (split; [apply Rmult_le_pos; lra|apply Rmult_le_compat; lra]).
        apply Rle_trans with (316 / 100 * (302 / 100) * / (199 / 10000) * (101 / 100)). apply Rmult_le_compat; lra. lra. }
    destruct (op_div x (ofZ f 1 -. xx /. r2) Fx r10) as (Fw & Vw). { fold r. rewrite Q4. lra. } split; auto. fold r in Vw. rewrite Q4 in Vw.
    destruct (rnd_u f (r * D' / m * / (1 + e2))) as (e3 & He3 & Ve3). { apply norm_u. lra. } rewrite Ve3 in Vw. rewrite Vw. assert (H3 := He3). apply Rabs_le_inv in H3.
    split. { rewrite Rabs_mult, (Rabs_pos_eq (1 + e3)) by lra. apply Rle_trans with (1000 * (1 + / 16777216)). apply Rmult_le_compat; try lra. lra. }
    set (p := / (1 + e2) * (1 + e3) - 1). assert (Hp : Rabs p <= 201 / 100 * uf f). { replace p with ((e3 - e2) * / (1 + e2)) by (unfold p; field; lra). rewrite Rabs_mult. assert (Rabs (e3 - e2) <= 2 * uf f) by (apply Rabs_le; lra). rewrite (Rabs_pos_eq (/ _)) by lra.
      assert (i3 : / (1 + e2) <= 1001 / 1000). { apply Rmult_le_reg_r with (1 + e2). lra. rewrite Rinv_l by lra. lra. } apply Rle_trans with (2 * uf f * (1001 / 1000)). apply Rmult_le_compat; auto using Rabs_pos; lra. lra. }
    assert (AR := ang_rel (r * D' / m) (r * D' / m * / (1 + e2) * (1 + e3)) r p ltac:(lra) ltac:(unfold p; ring)).
    assert (AL := ang_level r dl (r * D' / m) ltac:(lra) ltac:(lra)). fold D in AL. rewrite <- Em in AL. assert (AL' : ang (r * D' / m) r <= 51 / 100 * Rabs dl). { apply AL; auto. replace (D + dl) with D' by (unfold dl; ring). field. auto. } lra.
Qed.
