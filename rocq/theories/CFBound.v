(** * Checked bounds for the continued fractions of atan, atanh, tan and tanh:
    rounding errors and truncation residual over an interval. *)
From Verif Require Import Base FltLemmas ConvLemmas PF FPErr CFReal.
From Coq Require Import Lra Psatz PrimFloat.
Open Scope R_scope.

Definition sgn_of (neg : bool) : R := if neg then -1 else 1.
Definition az (quad : bool) (k : Z) : Z := if quad then (k * k)%Z else 1%Z.
Definition ar (quad : bool) : Z -> R := if quad then sq else ones.
Lemma ar_az quad k : ar quad k = IZR (az quad k).
Proof. destruct quad; cbn; unfold sq, ones; rewrite ?mult_IZR; reflexivity. Qed.
Lemma az_pos quad k : (1 <= k)%Z -> (1 <= az quad k)%Z.
Proof. intros. unfold az. destruct quad; nia. Qed.
Lemma some_inj {A} (a b : A) : Some a = Some b -> a = b.
Proof. congruence. Qed.

(** The floating-point continued fraction. *)
Definition fcf_step {f} (neg quad : bool) (xx : flt f) (d : Z) (r : flt f) : flt f :=
  let q := if quad then ofZ f (d * d) *. xx /. r else xx /. r in
  if neg then ofZ f (2 * d - 1) -. q else ofZ f (2 * d - 1) +. q.
Definition fcf {f} (neg quad : bool) (xx : flt f) (n : nat) (d : Z) : flt f :=
  up_rec n d (fcf_step neg quad xx) (ofZ f (2 * (d + Z.of_nat n) - 1)).

(** Bounds of a tail and of its residual. *)
Record cst := CS { ca : aval; cp : pf }.
Section B.
Variables (neg quad : bool) (X : aval).
Definition cq (d : Z) (A : aval) : option aval := if quad then obind (amul (aint (d * d)) X) (fun m => adiv m A) else adiv X A.
Definition cstp (d : Z) (t : cst) : option cst :=
  let A := ca t in
  let ll := md (lo A) (lo A) in
  if (pos (lo A) && pos ll)%bool then
    obind (cq d A) (fun q => obind (if neg then asub (aint (2 * d - 1)) q else aadd (aint (2 * d - 1)) q) (fun t' =>
    Some (CS t' (mu (du (mu (ofZu (az quad d)) (hi X)) ll) (cp t)))))
  else None.
Definition cbase (N : Z) : cst := CS (aint (2 * N - 1)) (mu (ofZu (az quad N)) (hi X)).
Definition cloop (n : nat) (d : Z) : option cst := up_rec n d (fun k o => obind o (cstp k)) (Some (cbase (d + Z.of_nat n))).
End B.

Lemma abs_sgn neg : Rabs (sgn_of neg) = 1.
Proof. unfold sgn_of. destruct neg; [rewrite Rabs_left by lra|rewrite Rabs_pos_eq by lra]; lra. Qed.
Lemma cres_abs quad neg d x : (1 <= d)%Z -> Rabs (ar quad d * (sgn_of neg * (x * x))) = IZR (az quad d) * (x * x).
Proof.
  intros H. assert (1 <= IZR (az quad d)) by (apply IZR_le; apply az_pos; auto).
  rewrite ar_az, !Rabs_mult, <- (Rabs_mult x), (Rabs_pos_eq (IZR _)), (Rabs_pos_eq (x * x)), abs_sgn by nra. ring.
Qed.
Lemma ub_sq quad d x X : (1 <= d)%Z -> ub (hi X) (x * x) -> ub (mu (ofZu (az quad d)) (hi X)) (IZR (az quad d) * (x * x)).
Proof.
  intros H U. assert (1 <= IZR (az quad d)) by (apply IZR_le; apply az_pos; auto). apply ub_mul; auto. lra. nra. apply ofZu_ok.
Qed.
Lemma ub_res a b c d x t r : 0 <= x -> 0 < t -> 0 <= r -> ub a x -> pos b = true -> rv b <= t -> ub c r -> d = mu (du a b) c -> ub d (x / t * r).
Proof.
  intros X0 T0 R0 A B L C ->. apply ub_mul; auto. apply Rmult_le_pos; auto. left; apply Rinv_0_lt_compat; auto. apply ub_div; auto.
Qed.
Lemma cloop_ok {f} neg quad X (xx : flt f) x n : approx xx (x * x) X -> forall d B, (1 <= d)%Z -> (d + Z.of_nat n <= 1000)%Z -> cloop neg quad X n d = Some B ->
  let s := sgn_of neg in let a := ar quad in
  good s a n d x /\ approx (fcf neg quad xx n d) (ct s a n d x) (ca B) /\ ub (cp B) (Rabs (cres s a n d x)).
Proof.
  intros HX. assert (HU := approx_ub _ _ _ HX). induction n; intros d B Hd Hn Hb; cbv zeta.
  - unfold cloop in Hb. cbn [up_rec] in Hb. apply some_inj in Hb. subst B. unfold cbase. cbn [good ca cp cres]. change (Z.of_nat 0) with 0%Z in * .
    split; auto. split. unfold fcf, ct. cbn [up_rec]. apply aint_ok. lia. rewrite Z.add_0_r, cres_abs by auto. apply ub_sq; auto.
  - unfold cloop in Hb. cbn [up_rec] in Hb. apply obind_some in Hb as (T & HT & Hb).
    assert (HT' : cloop neg quad X n (d + 1) = Some T). { unfold cloop. replace (d + 1 + Z.of_nat n)%Z with (d + Z.of_nat (S n))%Z by lia. exact HT. }
    destruct (IHn (d + 1)%Z T ltac:(lia) ltac:(lia) HT') as (G & AT & RT). clear IHn HT HT'.
    unfold cstp in Hb. destruct (pos (lo (ca T))) eqn:P1; [|discriminate]. destruct (pos (md _ _)) eqn:P2; [|discriminate]. cbn [andb] in Hb.
    apply obind_some in Hb as (q & Q & Hb). apply obind_some in Hb as (t' & Ht & Hb). apply some_inj in Hb. subst B. cbn [ca cp good cres].
    rewrite ct_S. set (t := ct (sgn_of neg) (ar quad) n (d + 1) x) in * .
    assert (E : fcf neg quad xx (S n) d = fcf_step neg quad xx d (fcf neg quad xx n (d + 1))).
    { unfold fcf. cbn [up_rec]. do 2 f_equal. f_equal. lia. }
    destruct (pos_ok _ P1) as (R1 & L1). destruct (pos_ok _ P2) as (R2 & L2).
    assert (Lt : rv (lo (ca T)) <= t) by apply AT. assert (T0 : 0 < t) by lra.
    split. { split; auto. lra. } split.
    + rewrite E. unfold fcf_step. set (r := fcf neg quad xx n (d + 1)) in * .
      assert (QQ : approx (if quad then ofZ f (d * d) *. xx /. r else xx /. r) (IZR (az quad d) * (x * x) / t) q).
      { unfold cq in Q. unfold az. destruct quad.
        - apply obind_some in Q as (m & Hm & Q). eapply adiv_ok; [|exact AT|exact Q]. eapply amul_ok; [apply aint_ok; nia|exact HX|exact Hm].
        - rewrite Rmult_1_l. eapply adiv_ok; [exact HX|exact AT|exact Q]. }
      replace (ar quad d * (sgn_of neg * (x * x)) / t) with (sgn_of neg * (IZR (az quad d) * (x * x) / t)) by (rewrite ar_az; field; lra).
      unfold sgn_of. destruct neg.
      * replace (IZR (2 * d - 1) + -1 * (IZR (az quad d) * (x * x) / t)) with (IZR (2 * d - 1) - IZR (az quad d) * (x * x) / t) by ring.
        eapply asub_ok; [apply aint_ok; lia|exact QQ|exact Ht].
      * rewrite Rmult_1_l. eapply aadd_ok; [apply aint_ok; lia|exact QQ|exact Ht].
    + rewrite Rabs_mult. unfold Rdiv at 1. rewrite Rabs_mult, cres_abs by auto.
      assert (TT : 0 < t * t) by nra. rewrite (Rabs_pos_eq (/ (t * t))) by (left; apply Rinv_0_lt_compat; auto).
      assert (1 <= IZR (az quad d)) by (apply IZR_le; apply az_pos; auto).
      eapply (ub_res _ _ _ _ (IZR (az quad d) * (x * x)) (t * t) _); [nra|exact TT|apply Rabs_pos|exact (ub_sq quad d x X Hd HU)|exact P2| |exact RT|reflexivity].
      apply lb_elim; auto. apply lb_mul; auto; apply nonneg_intro; auto; lra.
Qed.

(** A piece: relative rounding error of x / t_1 in units of 2^-prec, and the
    truncation residual. *)
Definition cpiece (neg quad : bool) (n : nat) (e k : Z) : option (pf * pf) :=
  if (dgood e k && dgood e (k + 1))%bool then
    let A := aex (dlo e k) (dhi e (k + 1)) in
    obind (amul A A) (fun X => obind (cloop neg quad X n 1) (fun t =>
    let T := ca t in let l' := sd (lo T) (mu (er T) U) in let ll := md (lo T) (lo T) in
    if (pos (lo T) && pos l' && pos ll && ltF (hi T) BIG && ltF (du (dhi e (k + 1)) l') BIG)%bool then
      let c := du (er T) l' in let m := if (k =? 0)%Z then mx 1 (hi T) else 1%float in
      Some (au c (mu m (au 1 (mu c U))), du (cp t) ll)
    else None))
  else None.
(** Values of the piece. *)
Definition inpiece (e k : Z) (x : R) : Prop := IZR k * bpow radix2 (- e) <= x <= IZR (k + 1) * bpow radix2 (- e).
Lemma real_float f z : Rabs (rnd f z) < bpow radix2 (emax f) -> exists w : flt f, B2R w = rnd f z /\ finite w = true.
Proof.
  intros H. assert (G : generic_format radix2 (fexpf f) (rnd f z)) by (apply generic_format_round; typeclasses eauto).
  set (r := rnd f z) in * . set (m := Ztrunc (scaled_mantissa radix2 (fexpf f) r)). set (e := cexp radix2 (fexpf f) r).
  assert (V : F2R (Float radix2 m e) = r) by (symmetry; exact G).
  pose proof (binary_normalize_correct (prec f) (emax f) _ _ mode_NE m e false) as C. cbv zeta in C. rewrite V in C.
  assert (Rd : round radix2 (SpecFloat.fexp (prec f) (emax f)) (round_mode mode_NE) r = r). { apply round_generic; auto. typeclasses eauto. }
  rewrite Rd, Rlt_bool_true in C by auto. eexists. split; apply C.
Qed.
Lemma sq_float f l h x X : isr l = true -> isr h = true -> rv l <= x <= rv h -> amul (aex l h) (aex l h) = Some X -> exists xx : flt f, approx xx (x * x) X.
Proof.
  intros Rl Rh B Q. unfold amul, aex in Q. cbn [lo hi er] in Q. destruct (nonneg l) eqn:N; [|discriminate]. cbn [andb] in Q. destruct (nonneg_ok _ N) as (_ & L0).
  assert (X0 : 0 <= x) by lra. assert (Hh : ub h x) by (apply ub_intro; auto; lra).
  assert (Z0 : ub 0%float 0) by (apply ub_intro; [reflexivity|rewrite rv0; lra]).
  assert (E : forall w : flt f, (Rabs (rnd f (x * x)) < bpow radix2 (emax f) -> B2R w = rnd f (x * x) /\ finite w = true) -> approx w (x * x) X).
  { intros w W. refine (close_ok w (x * x) (x * x) _ _ _ (x * 0 + x * 0 + 0 * uf f * 0) X Q W _ _ _ _ _).
    - apply lb_mx0. nra. apply lb_mul; auto; lra.
    - apply ub_mul; auto.
    - lra.
    - assert (u0 := uf_pos f). assert (Uu : ub U (uf f)). { destruct U_val as (RU & VU). apply ub_intro; auto. rewrite VU. apply uf_le. }
      apply ub_add. apply ub_add; apply ub_mul; auto; lra. apply ub_mul; auto; try lra. apply ub_mul; auto; lra.
    - rewrite Rminus_diag_eq, Rabs_R0 by auto. lra. }
  destruct (Rlt_or_le (Rabs (rnd f (x * x))) (bpow radix2 (emax f))) as [L|L].
  - destruct (real_float f (x * x) L) as (w & V & F). exists w. apply E. auto.
  - exists (ofZ f 0). apply E. intros L2. lra.
Qed.
Lemma cpiece_inv neg quad n e k c r : cpiece neg quad n e k = Some (c, r) -> (0 <= e)%Z -> exists X t,
  let l := dlo e k in let h := dhi e (k + 1) in let T := ca t in
  (forall x, inpiece e k x -> rv l <= x <= rv h) /\ isr l = true /\ isr h = true /\ amul (aex l h) (aex l h) = Some X /\ cloop neg quad X n 1 = Some t /\
  pos (lo T) = true /\ pos (sd (lo T) (mu (er T) U)) = true /\ pos (md (lo T) (lo T)) = true /\ ltF (hi T) BIG = true /\ ltF (du h (sd (lo T) (mu (er T) U))) BIG = true /\
  c = (let c := du (er T) (sd (lo T) (mu (er T) U)) in let m := if (k =? 0)%Z then mx 1 (hi T) else 1%float in au c (mu m (au 1 (mu c U)))) /\ r = du (cp t) (md (lo T) (lo T)).
Proof.
  intros H He. unfold cpiece in H. destruct (dgood e k) eqn:D1; [|discriminate]. destruct (dgood e (k + 1)) eqn:D2; [|discriminate]. cbn [andb] in H.
  apply obind_some in H as (X & HX & H). apply obind_some in H as (t & Ht & H). cbv zeta in H.
  destruct (pos (lo (ca t))) eqn:P1; [|discriminate]. destruct (pos (sd _ _)) eqn:P2; [|discriminate]. destruct (pos (md _ _)) eqn:P3; [|discriminate]. destruct (ltF _ _) eqn:P4; [|discriminate]. destruct (ltF (du _ _) _) eqn:P5; [|discriminate]. cbn [andb] in H.
  apply some_inj in H. destruct (dlo_ok e k He D1) as (R1 & L1). destruct (dhi_ok e (k + 1) He D2) as (R2 & L2).
  exists X, t. cbv zeta. split. { intros x (I1 & I2). split; lra. } repeat (split; auto); congruence.
Qed.
(** Truncation residual of the real continued fraction. *)
Lemma cpiece_real neg quad n e k c r x : cpiece neg quad n e k = Some (c, r) -> (0 <= e)%Z -> (Z.of_nat n < 900)%Z -> inpiece e k x ->
  let s := sgn_of neg in let a := ar quad in
  good0 s a n x /\ 0 < ct s a n 1 x /\ ub r (Rabs (w_res s a n x)).
Proof.
  intros H He Hn Hx. destruct (cpiece_inv _ _ _ _ _ _ _ H He) as (X & t & I & R1 & R2 & HX & Ht & P1 & P2 & P3 & P4 & P5 & _ & ->). cbv zeta.
  destruct (sq_float F80 _ _ x X R1 R2 (I x Hx) HX) as (xx & A).
  destruct (cloop_ok neg quad X xx x n A 1 t ltac:(lia) ltac:(lia) Ht) as (G & AT & RT).
  destruct (pos_ok _ P1) as (_ & L1). destruct (pos_ok _ P3) as (R3 & L3).
  set (T := ct (sgn_of neg) (ar quad) n 1 x) in * . assert (LT : rv (lo (ca t)) <= T) by apply AT. assert (T0 : 0 < T) by lra.
  split. split; auto. fold T. lra. split; auto. unfold w_res. fold T.
  unfold Rdiv. rewrite Rabs_mult, (Rabs_pos_eq (/ (T * T))) by (left; apply Rinv_0_lt_compat; nra).
  apply ub_div; auto. apply Rabs_pos. apply lb_elim; auto. apply lb_mul; auto; apply nonneg_intro; try lra; apply AT.
Qed.
Lemma rv1 : isr 1%float = true /\ rv 1%float = 1.
Proof. split. reflexivity. change 1%float with (ofZd 1). apply ofZ_val. reflexivity. Qed.
Lemma rnd_fm f z : Rabs (rnd f z - z) <= uf f * Rmax (Rabs z) (bpow radix2 (2 - emax f)).
Proof.
  destruct (rnd_err f z) as (e & d & He & Hd & M & ->). replace (z * (1 + e) + d - z) with (z * e + d) by ring. fold (uf f) in He. assert (u0 := uf_pos f).
  assert (M1 := Rmax_l (Rabs z) (bpow radix2 (2 - emax f))). assert (M2 := Rmax_r (Rabs z) (bpow radix2 (2 - emax f))).
  apply Rmult_integral in M as [->| ->].
  - rewrite Rmult_0_r, Rplus_0_l. eapply Rle_trans. exact Hd. replace (emin f - 1)%Z with (- prec f + (2 - emax f))%Z by (unfold emin; ring). rewrite bpow_plus. apply Rmult_le_compat_l; auto. lra.
  - rewrite Rplus_0_r, Rabs_mult, Rmult_comm. apply Rmult_le_compat; auto using Rabs_pos.
Qed.
(** Rounding error of x / t_1. *)
Lemma cpiece_round {f} neg quad n e k c r (x : flt f) : cpiece neg quad n e k = Some (c, r) -> (0 <= e <= 20)%Z -> (0 <= k)%Z -> (Z.of_nat n < 900)%Z ->
  finite x = true -> inpiece e k (B2R x) -> bpow radix2 (2 - emax f) <= B2R x ->
  let t := ct (sgn_of neg) (ar quad) n 1 (B2R x) in
  exists C, ub c C /\ finite (x /. fcf neg quad (x *. x) n 1) = true /\ 0 <= C /\ 0 < t /\
    Rabs (B2R (x /. fcf neg quad (x *. x) n 1) - B2R x / t) <= C * uf f * (B2R x / t).
Proof.
  intros H (He & He2) Hk Hn Fx Hx X3. cbv zeta. destruct (cpiece_inv _ _ _ _ _ _ _ H He) as (X & t & I & R1 & R2 & HX & Ht & P1 & P2 & P3 & P4 & P5 & Hc & _).
  assert (AX : approx (x *. x) (B2R x * B2R x) X). { assert (A0 := aexact x _ _ Fx R1 R2 (I _ Hx)). eapply amul_ok; [exact A0|exact A0|exact HX]. }
  destruct (cloop_ok neg quad X (x *. x) (B2R x) n AX 1 t ltac:(lia) ltac:(lia) Ht) as (G & AT & RT). clear G RT.
  set (T := ct (sgn_of neg) (ar quad) n 1 (B2R x)) in * . set (w := fcf neg quad (x *. x) n 1) in * . set (E := er (ca t)) in * . set (L := lo (ca t)) in * .
  assert (u0 := uf_pos f). destruct U_val as (RU & VU). assert (Uu : ub U (uf f)) by (apply ub_intro; auto; rewrite VU; apply uf_le).
  destruct (approx_er _ _ _ AT) as (UE & E0). fold E in UE, E0. destruct (pos_ok _ P1) as (RL & L0). destruct (pos_ok _ P2) as (Rl & l0). set (l' := sd L (mu E U)) in * .
  assert (LT : rv L <= T) by apply AT. assert (T0 : 0 < T) by lra. assert (Fw : finite w = true) by apply AT.
  assert (Er : Rabs (B2R w - T) <= rv E * uf f) by apply AT.
  assert (El : rv l' <= B2R w). { apply Rle_trans with (rv L - rv E * uf f). apply lb_elim; auto. apply lb_sub. apply lb_intro; auto; lra. apply ub_mul; auto; lra. apply Rabs_le_inv in Er. lra. }
  set (c0 := rv E / rv l') in * . assert (c00 : 0 <= c0) by (unfold c0; apply Rmult_le_pos; auto; left; apply Rinv_0_lt_compat; auto).
  assert (Uc : ub (du E l') c0). { apply ub_div; auto. lra. }
  assert (x0 := bpow_gt_0 radix2 (2 - emax f)). set (fm := bpow radix2 (2 - emax f)) in * . set (z := B2R x / T). assert (z0 : 0 < z) by (apply Rdiv_lt_0_compat; lra).
  set (z' := B2R x / B2R w). assert (z'0 : 0 < z') by (apply Rdiv_lt_0_compat; lra).
  assert (Zz : Rabs (z' - z) <= c0 * uf f * z).
  { replace (z' - z) with (z * ((T - B2R w) / B2R w)) by (unfold z, z'; field; lra). rewrite Rabs_mult, (Rabs_pos_eq z), Rmult_comm by lra. apply Rmult_le_compat_r. lra.
    unfold Rdiv at 1. rewrite Rabs_mult, (Rabs_pos_eq (/ _)) by (left; apply Rinv_0_lt_compat; lra). rewrite <- Rabs_Ropp. replace (- (T - B2R w)) with (B2R w - T) by ring.
    unfold c0, Rdiv. rewrite Rmult_assoc, (Rmult_comm (/ _)), <- Rmult_assoc. apply Rmult_le_compat; auto using Rabs_pos. left; apply Rinv_0_lt_compat; lra. apply Rinv_le; auto. }
  assert (Rh : isr (hi (ca t)) = true /\ T <= rv (hi (ca t))) by (split; apply AT).
  set (m := if (k =? 0)%Z then mx 1 (hi (ca t)) else 1%float) in * .
  assert (Um1 : forall y, y <= 1 -> ub 1%float y) by (intros; apply ub_intro; [reflexivity|rewrite (proj2 rv1); auto]).
  assert (exists M, ub m M /\ 1 <= M /\ Rmax z' fm <= M * (z * (1 + c0 * uf f))) as (M & UM & M1 & HM).
  { assert (Z1 : z' <= z * (1 + c0 * uf f)) by (apply Rabs_le_inv in Zz; lra). assert (cu : 0 <= c0 * uf f) by (apply Rmult_le_pos; lra).
    assert (XT : B2R x = T * z) by (unfold z; field; lra). unfold m. destruct (Z.eqb_spec k 0) as [K|K].
    - destruct Rh as (Rh & Th). destruct rv1 as (r1 & v1). destruct (mx_ok 1%float (hi (ca t)) r1 Rh) as (Rm & Vm). exists (rv (mx 1 (hi (ca t)))). split. apply ub_intro; auto; lra.
      rewrite Vm, v1. assert (M1 := Rmax_l 1 (rv (hi (ca t)))). assert (M2 := Rmax_r 1 (rv (hi (ca t)))). split; auto. set (M := Rmax 1 _) in * .
      assert (Z3 : z <= z * (1 + c0 * uf f)) by nra. apply Rmax_lub. assert (z * (1 + c0 * uf f) <= M * (z * (1 + c0 * uf f))) by nra. lra.
      apply Rle_trans with (T * z). lra. apply Rmult_le_compat; lra.
    - exists 1. split. auto with real. split. lra. rewrite Rmult_1_l. apply Rmax_lub; auto. apply Rle_trans with z; [|nra].
      destruct (ltF_ok _ _ P4) as (_ & _ & LB). destruct BIG_val as (_ & VB). rewrite VB in LB.
      assert (X20 : bpow radix2 (-20) <= B2R x). { apply Rle_trans with (IZR k * bpow radix2 (- e)). 2: apply Hx. apply Rle_trans with (1 * bpow radix2 (- e)). rewrite Rmult_1_l. apply bpow_le; lia. apply Rmult_le_compat_r. apply bpow_ge_0. apply IZR_le. lia. }
      apply Rle_trans with (bpow radix2 (-20) / bpow radix2 64).
      + unfold Rdiv. rewrite <- bpow_opp, <- bpow_plus. apply bpow_le. destruct f; discriminate.
      + unfold z, Rdiv. apply Rmult_le_compat; auto. apply bpow_ge_0. left; apply Rinv_0_lt_compat, bpow_gt_0. apply Rinv_le; auto. lra. }
  exists (c0 + M * (1 + c0 * uf f)). split. { rewrite Hc. cbv zeta. fold E L l' m. apply ub_add; auto. apply ub_mul; auto. lra. assert (0 <= c0 * uf f) by (apply Rmult_le_pos; lra). lra. apply ub_add; auto. auto with real. apply ub_mul; auto. lra. }
  assert (Rn : Rabs (rnd f z' - z') <= uf f * (M * (z * (1 + c0 * uf f)))). { eapply Rle_trans. apply rnd_fm. rewrite (Rabs_pos_eq z') by lra. fold fm. apply Rmult_le_compat_l; lra. }
  assert (Fin : Rabs (rnd f (B2R x / B2R w)) < bpow radix2 (emax f)).
  { destruct (ltF_ok _ _ P5) as (Rq & _ & Lq). destruct BIG_val as (_ & VB). rewrite VB in Lq. apply rnd_lt_emax_bpow with 64%Z. split. unfold emin; destruct f; discriminate. destruct f; reflexivity.
    fold z'. rewrite Rabs_pos_eq by lra. apply Rlt_le. eapply Rle_lt_trans; [|exact Lq]. apply ub_elim; auto. fold E L l'. apply ub_div; auto. lra. apply ub_intro; auto. apply I; auto. }
  assert (W0 : B2R w <> 0) by lra. destruct (fdiv_spec x w Fx W0 Fin) as (V & F).
  split. exact F. split. { assert (0 <= c0 * uf f) by (apply Rmult_le_pos; lra). nra. } split; auto. rewrite V.
  fold z z'. replace (rnd f z' - z) with ((rnd f z' - z') + (z' - z)) by ring.
  eapply Rle_trans. apply Rabs_triang. fold z.
  replace ((c0 + M * (1 + c0 * uf f)) * uf f * z) with (uf f * (M * (z * (1 + c0 * uf f))) + c0 * uf f * z) by ring. apply Rplus_le_compat; auto.
Qed.
