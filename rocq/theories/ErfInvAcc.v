(** * Accuracy of erf_inv: starting value, one Halley step, the iteration *)
From Verif Require Import Base FltLemmas ConvLemmas ModelBasic ModelInt ModelElem ModelSpecial ModelApi Spec SpecErf.
From Coq Require Import Lra Psatz.
From Coquelicot Require Import Coquelicot.
From Verif Require CxxProofs.
From Interval Require Import Tactic.
From Verif Require Import BasicProofs RangeProofs PF FPErr CFBound ExpAcc CFAcc MiscProofs SinAcc LogAcc LogApi LogMore SqrtSimp ErfReal ErfAcc ErfApi ErfInvReal.
From Verif Require Import Base ModelBasic ModelInt ModelElem ModelSpecial ModelApi.
Open Scope R_scope.

(** ** Long double literals *)
Definition lit_ok (f : fmt) (num k : Z) : bool :=
  match B2SF (llit f num k) with
  | SpecFloat.S754_finite s m e => ((e <=? 0) && (Z.abs (cond_Zopp s (Zpos m) * 10 ^ k - num * 2 ^ (- e)) * 2 ^ (prec f - 1) <=? Z.abs num * 2 ^ (- e)))%Z
  | _ => false
  end.
Lemma lit_err f num k : (0 <= k)%Z -> lit_ok f num k = true -> finite (llit f num k) = true /\ Rabs (B2R (llit f num k) - IZR num / IZR (10 ^ k)) <= 2 * uf f * Rabs (IZR num / IZR (10 ^ k)).
Proof.
  intros K H. unfold lit_ok in H. destruct (B2SF (llit f num k)) as [| | |s m e] eqn:E; try discriminate. apply andb_prop in H. destruct H as (He & H). apply Z.leb_le in He. apply Z.leb_le in H.
  destruct (sf_val _ _ _ _ E) as (F & V). split; auto. rewrite V. unfold F2R. cbn [Fnum Fexp]. set (M := cond_Zopp s (Zpos m)) in * .
  assert (K0 : 0 < IZR (10 ^ k)) by (apply IZR_lt; apply Z.pow_pos_nonneg; lia). assert (E0 : 0 < IZR (2 ^ (- e))) by (apply IZR_lt; apply Z.pow_pos_nonneg; lia). assert (P0 : 0 < IZR (2 ^ (prec f - 1))) by (apply IZR_lt; apply Z.pow_pos_nonneg; destruct f; cbn; lia).
  assert (EB : bpow radix2 e = / IZR (2 ^ (- e))). { rewrite (IZR_Zpower radix2) by lia. rewrite <- bpow_opp. f_equal. ring. }
  assert (UB : 2 * uf f = / IZR (2 ^ (prec f - 1))). { unfold uf. change 2 with (bpow radix2 1). rewrite <- bpow_plus. rewrite (IZR_Zpower radix2) by (destruct f; cbn; lia). rewrite <- bpow_opp. f_equal. ring. }
  apply IZR_le in H. rewrite !mult_IZR, !abs_IZR, minus_IZR, !mult_IZR in H. rewrite EB, UB. unfold Rdiv. rewrite Rabs_mult, (Rabs_pos_eq (/ IZR (10 ^ k))) by (left; apply Rinv_0_lt_compat; auto).
  replace (IZR M * / IZR (2 ^ (- e)) - IZR num * / IZR (10 ^ k)) with ((IZR M * IZR (10 ^ k) - IZR num * IZR (2 ^ (- e))) * (/ IZR (2 ^ (- e)) * / IZR (10 ^ k))) by (field; split; lra).
  rewrite Rabs_mult. rewrite (Rabs_pos_eq (_ * _)). 2: left; apply Rmult_lt_0_compat; apply Rinv_0_lt_compat; auto.
  set (a := Rabs (IZR M * IZR (10 ^ k) - IZR num * IZR (2 ^ (- e)))) in * . set (b := Rabs (IZR num)) in * .
  replace (a * (/ IZR (2 ^ (- e)) * / IZR (10 ^ k))) with (a * IZR (2 ^ (prec f - 1)) * (/ IZR (2 ^ (prec f - 1)) * (/ IZR (2 ^ (- e)) * / IZR (10 ^ k)))) by (field; lra).
  replace (/ IZR (2 ^ (prec f - 1)) * (b * / IZR (10 ^ k))) with (b * IZR (2 ^ (- e)) * (/ IZR (2 ^ (prec f - 1)) * (/ IZR (2 ^ (- e)) * / IZR (10 ^ k)))) by (field; lra).
  apply Rmult_le_compat_r; auto. left. apply Rmult_lt_0_compat. apply Rinv_0_lt_compat; auto. apply Rmult_lt_0_compat; apply Rinv_0_lt_compat; auto.
Qed.

Section A.
Context (v : cxx) {f : fmt}.
Notation u := (uf f).
Notation fm := (bpow radix2 (2 - emax f)).
Let u0 : 0 < u := uf_pos f.
Let u1 : u <= / 16777216 := uf_le f.
Lemma rnd_um z : Rabs (rnd f z - z) <= u * Rabs z + u * fm.
Proof. eapply Rle_trans. apply rnd_fm. rewrite <- Rmult_plus_distr_l. apply Rmult_le_compat_l. lra. assert (0 <= Rabs z) by apply Rabs_pos. assert (b := bpow_ge_0 radix2 (2 - emax f)). apply Rmax_lub; lra. Qed.
Lemma fm_tiny : 0 < fm <= / 1000000000.
Proof. split. apply bpow_gt_0. apply Rle_trans with (bpow radix2 (-126)). apply bpow_le. destruct f; discriminate. cbn. lra. Qed.

(** ** Horner scheme *)
Definition hq (q : flt f) (Q M D : R) : Prop := finite q = true /\ Rabs (B2R q - Q) <= D * u /\ Rabs Q <= M.
Lemma hq_mono q Q M D M' D' : hq q Q M D -> M <= M' -> D <= D' -> hq q Q M' D'.
Proof. intros (F & E & B) HM HD. split; auto. split. eapply Rle_trans. exact E. apply Rmult_le_compat_r; lra. lra. Qed.
Lemma hstep (a q c : flt f) Q M D C B : finite a = true -> Rabs (B2R a) <= 251 / 100 -> hq q Q M D -> finite c = true -> Rabs (B2R c - C) <= 2 * u * Rabs C -> Rabs C <= B -> B <= 3 -> 0 <= D <= 100 -> 0 <= M <= 1 ->
  hq (c +. a *. q) (C + B2R a * Q) (B + 26 / 10 * M) (31 / 10 * B + 26 / 10 * D + 53 / 10 * M + / 1000).
Proof.
  intros Fa A (Fq & Eq & Bq) Fc Ec Bc B3 HD HM. destruct fm_tiny as (m0 & m1). set (t := B2R a) in * . assert (Du : D * u <= 100 * u) by (apply Rmult_le_compat_r; lra). assert (Du0 : 0 <= D * u) by (apply Rmult_le_pos; lra).
  assert (c0 := Rabs_pos C). assert (t0 := Rabs_pos t). assert (uB : u * Rabs C <= u * B) by (apply Rmult_le_compat_l; lra). assert (uM : 0 <= u * M) by (apply Rmult_le_pos; lra). assert (uC0 : 0 <= u * Rabs C) by (apply Rmult_le_pos; lra).
  assert (uB1 : u * B <= / 16777216 * 3) by (apply Rmult_le_compat; lra). assert (UM1 : u * M <= / 16777216 * M) by (apply Rmult_le_compat_r; lra).
  assert (Vq : Rabs (B2R q) <= M + D * u). { replace (B2R q) with (Q + (B2R q - Q)) by ring. eapply Rle_trans. apply Rabs_triang. lra. }
  assert (Vt : Rabs (t * B2R q) <= 251 / 100 * (M + D * u)) by (rewrite Rabs_mult; apply Rmult_le_compat; auto; apply Rabs_pos).
  destruct (op_mul a q Fa Fq) as (F1 & V1). { fold t. lra. } fold t in V1. assert (E1 := rnd_um (t * B2R q)). rewrite <- V1 in E1. set (w := a *. q) in * .
  assert (TQ : Rabs (t * B2R q - t * Q) <= 251 / 100 * (D * u)). { replace (t * B2R q - t * Q) with (t * (B2R q - Q)) by ring. rewrite Rabs_mult. apply Rmult_le_compat; auto; apply Rabs_pos. }
  assert (uV : u * Rabs (t * B2R q) <= u * (251 / 100 * (M + D * u))) by (apply Rmult_le_compat_l; lra). assert (uDu : u * (D * u) <= / 16777216 * (100 * u)) by (apply Rmult_le_compat; lra). assert (uDu1 : u * (D * u) <= / 16777216 * (D * u)) by (apply Rmult_le_compat_r; lra). assert (uDu0 : 0 <= u * (D * u)) by (apply Rmult_le_pos; lra). assert (ufm : u * fm <= u * / 1000000000) by (apply Rmult_le_compat_l; lra). assert (ufm0 : 0 <= u * fm) by (apply Rmult_le_pos; lra).
  assert (Vc : Rabs (B2R c) <= B + 2 * u * B). { replace (B2R c) with (C + (B2R c - C)) by ring. eapply Rle_trans. apply Rabs_triang. lra. }
  assert (Vw : Rabs (B2R w) <= 252 / 100 * (M + D * u) + u). { replace (B2R w) with ((B2R w - t * B2R q) + t * B2R q) by ring. eapply Rle_trans. apply Rabs_triang. lra. }
  assert (Vs : Rabs (B2R c + B2R w) <= B + 2 * u * B + (252 / 100 * (M + D * u) + u)). { eapply Rle_trans. apply Rabs_triang. lra. }
  destruct (op_add c w Fc F1) as (F2 & V2). { lra. } assert (E2 := rnd_um (B2R c + B2R w)). rewrite <- V2 in E2.
  assert (uVs : u * Rabs (B2R c + B2R w) <= u * (B + 2 * u * B + (252 / 100 * (M + D * u) + u))) by (apply Rmult_le_compat_l; lra).
  assert (uuB : u * (u * B) <= u * (/ 16777216 * 3)) by (apply Rmult_le_compat_l; lra). assert (uu : u * u <= u * / 16777216) by (apply Rmult_le_compat_l; lra).
  split. exact F2. split.
  - replace (B2R (c +. w) - (C + t * Q)) with ((B2R (c +. w) - (B2R c + B2R w)) + ((B2R c - C) + ((B2R w - t * B2R q) + (t * B2R q - t * Q)))) by ring.
    eapply Rle_trans. apply Rabs_triang. eapply Rle_trans. apply Rplus_le_compat_l. apply Rabs_triang. eapply Rle_trans. apply Rplus_le_compat_l. apply Rplus_le_compat_l. apply Rabs_triang. lra.
  - eapply Rle_trans. apply Rabs_triang. rewrite Rabs_mult. assert (Rabs t * Rabs Q <= 251 / 100 * M) by (apply Rmult_le_compat; auto; apply Rabs_pos). lra.
Qed.
Lemma lits : forallb (fun nk => lit_ok f (fst nk) (snd nk)) ((281022636, 16) :: (343273939, 15) :: (-35233877, 13) :: (-439150654, 14) :: (21858087, 11) :: (-125372503, 11) :: (-4177681640, 12) :: (24664072700, 11) :: (150140941000, 11) :: nil)%Z = true.
Proof. clear. destruct f; vm_compute; reflexivity. Qed.
Lemma case1_acc (a : flt f) : finite a = true -> Rabs (B2R a) <= 251 / 100 -> finite (erf_inv_initial_val_case_1 a) = true /\ Rabs (B2R (erf_inv_initial_val_case_1 a) - P8 (B2R a)) <= 13 * u.
Proof.
  intros Fa A. assert (L := lits). cbn [forallb fst snd] in L. do 9 (let X := fresh "L" in apply andb_prop in L; destruct L as (X & L)).
  destruct (lit_err f (281022636) 16 ltac:(lia) L0) as (F0 & B0). change (IZR (10 ^ 16)) with 10000000000000000 in B0.
  destruct (lit_err f (343273939) 15 ltac:(lia) L1) as (F1 & B1). change (IZR (10 ^ 15)) with 1000000000000000 in B1.
  destruct (lit_err f (-35233877) 13 ltac:(lia) L2) as (F2 & B2). change (IZR (10 ^ 13)) with 10000000000000 in B2.
  destruct (lit_err f (-439150654) 14 ltac:(lia) L3) as (F3 & B3). change (IZR (10 ^ 14)) with 100000000000000 in B3.
  destruct (lit_err f (21858087) 11 ltac:(lia) L4) as (F4 & B4). change (IZR (10 ^ 11)) with 100000000000 in B4.
  destruct (lit_err f (-125372503) 11 ltac:(lia) L5) as (F5 & B5). change (IZR (10 ^ 11)) with 100000000000 in B5.
  destruct (lit_err f (-4177681640) 12 ltac:(lia) L6) as (F6 & B6). change (IZR (10 ^ 12)) with 1000000000000 in B6.
  destruct (lit_err f (24664072700) 11 ltac:(lia) L7) as (F7 & B7). change (IZR (10 ^ 11)) with 100000000000 in B7.
  destruct (lit_err f (150140941000) 11 ltac:(lia) L8) as (F8 & B8). change (IZR (10 ^ 11)) with 100000000000 in B8.
  assert (H0 : hq (llit f 281022636 16) (281022636 / 10000000000000000) (/ 1000000) (/ 1000)).
  { split; auto. assert (Q : Rabs (281022636 / 10000000000000000) <= / 1000000) by (apply Rabs_le; lra). split; auto. eapply Rle_trans. exact B0. assert (u * Rabs (281022636 / 10000000000000000) <= u * / 1000000) by (apply Rmult_le_compat_l; lra). lra. }
  assert (H1 := hq_mono _ _ _ _ (1 / 250000) (37 / 10000) (hstep a _ _ _ _ _ _ (1 / 1000000) Fa A H0 F1 B1 ltac:(apply Rabs_le; lra) ltac:(lra) ltac:(lra) ltac:(lra)) ltac:(lra) ltac:(lra)). clear H0.
  assert (H2 := hq_mono _ _ _ _ (3 / 200000) (107 / 10000) (hstep a _ _ _ _ _ _ (1 / 250000) Fa A H1 F2 B2 ltac:(apply Rabs_le; lra) ltac:(lra) ltac:(lra) ltac:(lra)) ltac:(lra) ltac:(lra)). clear H1.
  assert (H3 := hq_mono _ _ _ _ (11 / 250000) (29 / 1000) (hstep a _ _ _ _ _ _ (1 / 200000) Fa A H2 F3 B3 ltac:(apply Rabs_le; lra) ltac:(lra) ltac:(lra) ltac:(lra)) ltac:(lra) ltac:(lra)). clear H2.
  assert (H4 := hq_mono _ _ _ _ (167 / 500000) (387 / 5000) (hstep a _ _ _ _ _ _ (219 / 1000000) Fa A H3 F4 B4 ltac:(apply Rabs_le; lra) ltac:(lra) ltac:(lra) ltac:(lra)) ltac:(lra) ltac:(lra)). clear H3.
  assert (H5 := hq_mono _ _ _ _ (2123 / 1000000) (2079 / 10000) (hstep a _ _ _ _ _ _ (627 / 500000) Fa A H4 F5 B5 ltac:(apply Rabs_le; lra) ltac:(lra) ltac:(lra) ltac:(lra)) ltac:(lra) ltac:(lra)). clear H4.
  assert (H6 := hq_mono _ _ _ _ (4849 / 500000) (2829 / 5000) (hstep a _ _ _ _ _ _ (2089 / 500000) Fa A H5 F6 B6 ltac:(apply Rabs_le; lra) ltac:(lra) ltac:(lra) ltac:(lra)) ltac:(lra) ltac:(lra)). clear H5.
  assert (H7 := hq_mono _ _ _ _ (16991 / 62500) (22881 / 10000) (hstep a _ _ _ _ _ _ (246641 / 1000000) Fa A H6 F7 B7 ltac:(apply Rabs_le; lra) ltac:(lra) ltac:(lra) ltac:(lra)) ltac:(lra) ltac:(lra)). clear H6.
  assert (H8 := hq_mono _ _ _ _ (552059 / 250000) (120453 / 10000) (hstep a _ _ _ _ _ _ (150141 / 100000) Fa A H7 F8 B8 ltac:(apply Rabs_le; lra) ltac:(lra) ltac:(lra) ltac:(lra)) ltac:(lra) ltac:(lra)). clear H7.
  destruct H8 as (F & E & _). split. exact F. assert (u * (120453 / 10000) <= u * 13) by (apply Rmult_le_compat_l; lra). eapply Rle_trans. exact E. lra.
Qed.

(** ** The starting value *)
Lemma P8_lip s t : Rabs s <= 26 / 10 -> Rabs t <= 26 / 10 -> Rabs (P8 s - P8 t) <= 3 / 10 * Rabs (s - t).
Proof.
  intros S T. destruct (MVT_gen P8 t s P8') as (c & C & ->).
  - intros r _. apply P8_derive.
  - intros r _. apply continuity_pt_filterlim. apply (ex_derive_continuous P8). exists (P8' r). apply P8_derive.
  - apply Rabs_le_inv in S. apply Rabs_le_inv in T. assert (-26 / 10 <= c <= 26 / 10) by (unfold Rmin, Rmax in C; destruct Rle_dec; lra). rewrite Rabs_mult. apply Rmult_le_compat_r. apply Rabs_pos. unfold P8'. apply Rabs_le. split; interval with (i_bisect c).
Qed.
Lemma P8_up t : Rabs t <= 26 / 10 -> Rabs (P8 t) <= 23 / 10.
Proof. intros T. apply Rabs_le_inv in T. unfold P8. apply Rabs_le. split; interval with (i_bisect t). Qed.
Lemma init_acc (p : flt f) : finite p = true -> 2 * fm <= Rabs (B2R p) <= 94 / 100 ->
  exists w, erf_inv_initial_val v p = Ok w /\ finite w = true /\ Rabs (erf_real (B2R w) - B2R p) <= / 10000 * Rabs (B2R p).
Proof.
  intros Fp HP. set (P := B2R p) in * . destruct fm_tiny as (m0 & m1). destruct (ofZ_small f 1 ltac:(lia)) as (V1 & F1 & _).
  assert (HP' : -94 / 100 <= P <= 94 / 100) by (destruct HP as (_ & HQ); apply Rabs_le_inv in HQ; lra). assert (ufm : u * fm <= u * / 1000000000) by (apply Rmult_le_compat_l; lra). assert (ufm0 : 0 <= u * fm) by (apply Rmult_le_pos; lra).
  destruct (op_sub (ofZ f 1) p F1 Fp) as (Fa & Va). { rewrite V1. fold P. apply Rabs_le. lra. } destruct (op_add (ofZ f 1) p F1 Fp) as (Fb & Vb). { rewrite V1. fold P. apply Rabs_le. lra. }
  rewrite V1 in Va, Vb. fold P in Va, Vb. assert (Ea := rnd_um (1 - P)). assert (Eb := rnd_um (1 + P)). rewrite <- Va in Ea. rewrite <- Vb in Eb. set (a := ofZ f 1 -. p) in * . set (b := ofZ f 1 +. p) in * .
  rewrite (Rabs_pos_eq (1 - P)) in Ea by lra. rewrite (Rabs_pos_eq (1 + P)) in Eb by lra.
  assert (uP1 : u * (1 - P) <= u * (194 / 100)) by (apply Rmult_le_compat_l; lra). assert (uP2 : u * (1 + P) <= u * (194 / 100)) by (apply Rmult_le_compat_l; lra).
  assert (Ea' : Rabs (B2R a - (1 - P)) <= 195 / 100 * u) by lra. assert (Eb' : Rabs (B2R b - (1 + P)) <= 195 / 100 * u) by lra. 
  assert (Va2 : Rabs (B2R a) <= 2). { apply Rabs_le_inv in Ea'. apply Rabs_le. lra. } assert (Vb2 : Rabs (B2R b) <= 2). { apply Rabs_le_inv in Eb'. apply Rabs_le. lra. }
  assert (Vab : Rabs (B2R a * B2R b) <= 4). { rewrite Rabs_mult. replace 4 with (2 * 2) by ring. apply Rmult_le_compat; auto; apply Rabs_pos. }
  destruct (op_mul a b Fa Fb) as (Fm & Vm). lra. assert (Em := rnd_um (B2R a * B2R b)). rewrite <- Vm in Em. set (m := a *. b) in * .
  assert (EM : Rabs (B2R m - (1 - P * P)) <= 12 * u).
  { replace (B2R m - (1 - P * P)) with ((B2R m - B2R a * B2R b) + (B2R a * (B2R b - (1 + P)) + (B2R a - (1 - P)) * (1 + P))) by ring.
    eapply Rle_trans. apply Rabs_triang. eapply Rle_trans. apply Rplus_le_compat_l. apply Rabs_triang. rewrite !Rabs_mult. rewrite (Rabs_pos_eq (1 + P)) by lra.
    assert (Rabs (B2R a) * Rabs (B2R b - (1 + P)) <= 2 * (195 / 100 * u)) by (apply Rmult_le_compat; auto; apply Rabs_pos). assert (Rabs (B2R a - (1 - P)) * (1 + P) <= 195 / 100 * u * (194 / 100)) by (apply Rmult_le_compat; try lra; apply Rabs_pos).
    assert (u * Rabs (B2R a * B2R b) <= u * 4) by (apply Rmult_le_compat_l; lra). lra. }
  assert (PP : 0 <= P * P <= 8836 / 10000) by nra. assert (EM2 := EM). apply Rabs_le_inv in EM2. assert (MR : 1163 / 10000 <= B2R m <= 1 + 12 * u) by lra.
  (* the logarithm *)
  assert (LM : Rabs (ln (B2R m)) <= 216 / 100). { apply Rabs_le. split. apply Rle_trans with (ln (1163 / 10000)). interval. apply ln_le; lra. apply Rle_trans with (ln 2). apply ln_le; lra. interval. }
  assert (LG : exists l, log_check v m = Ok l /\ finite l = true /\ Rabs (B2R l - ln (B2R m)) <= 48 * u).
  { assert (U1 : u * Rabs (ln (B2R m)) <= u * (216 / 100)) by (apply Rmult_le_compat_l; lra).
    destruct (Rle_or_lt (/ 2) (B2R m)) as [L|L]. destruct (log_check_ge v m Fm L) as (l & El & Fl & Rl). exists l. split; auto. split; auto. unfold rel_err in Rl. assert (0 <= u * Rabs (ln (B2R m))) by (apply Rmult_le_pos; [lra|apply Rabs_pos]). lra.
    destruct (api_log_small v f m 1 Fm) as (l & El & Fl & Rl & _). lra. lra. lia. cbn. lra. exists l. split. exact El. split; auto. unfold rel_err in Rl. change (bpow radix2 (- prec f)) with (uf f) in Rl. cut (22 * uf f * Rabs (ln (B2R m)) <= 48 * uf f). intros QQ. exact (Rle_trans _ _ _ Rl QQ). lra. }
  destruct LG as (l & El & Fl & Rl). unfold erf_inv_initial_val. fold a b m. rewrite El. cbn [bind]. unfold erf_inv_initial_val_int.
  assert (LD : Rabs (ln (B2R m) - ln (1 - P * P)) <= 104 * u).
  { assert (G : forall x y, 116 / 1000 <= x -> 116 / 1000 <= y -> x <= y -> y - x <= 12 * u -> ln y - ln x <= 104 * u).
    { intros x y X Y XY D. replace y with (x * (1 + (y - x) / x)) at 1 by (field; lra). assert (0 <= (y - x) / x) by (apply Rmult_le_pos; [lra|left; apply Rinv_0_lt_compat; lra]). rewrite ln_mult by lra.
      assert (ln (1 + (y - x) / x) <= (y - x) / x). { rewrite <- (ln_exp ((y - x) / x)) at 2. apply ln_le. lra. apply exp_ineq1_le. }
      assert ((y - x) / x <= 12 * u * (1000 / 116)). { unfold Rdiv at 1. apply Rmult_le_compat; try lra. left. apply Rinv_0_lt_compat; lra. apply Rle_trans with (/ (116 / 1000)). apply Rinv_le_contravar; lra. lra. } lra. }
    destruct (Rle_or_lt (B2R m) (1 - P * P)). rewrite Rabs_left1. 2: assert (ln (B2R m) <= ln (1 - P * P)) by (apply ln_le; lra); lra. replace (- (ln (B2R m) - ln (1 - P * P))) with (ln (1 - P * P) - ln (B2R m)) by ring. apply G; lra.
    rewrite Rabs_pos_eq. 2: assert (ln (1 - P * P) <= ln (B2R m)) by (apply ln_le; lra); lra. apply G; lra. }
  destruct (ofZ_small f 5 ltac:(lia)) as (V5 & F5 & _). destruct (lit25 f) as (F25 & V25). assert (Rl' := Rl). apply Rabs_le_inv in Rl'. assert (LM' := LM). apply Rabs_le_inv in LM'.
  assert (NR : B2R (-. l) = - B2R l) by apply fneg_B2R. assert (NF : finite (-. l) = true) by (rewrite fneg_finite; auto).
  rewrite (flt_true (-. l) (ofZ f 5)); auto. 2: rewrite NR, V5; lra.
  destruct (op_sub (-. l) (dlit f 25 1) NF F25) as (Ft & Vt). { rewrite NR, V25. apply Rabs_le. lra. } assert (Et := rnd_um (B2R (-. l) - B2R (dlit f 25 1))). rewrite <- Vt in Et. set (t := -. l -. dlit f 25 1) in * . rewrite NR, V25 in Et.
  set (T := - ln (1 - P * P) - 5 / 2). assert (l0 : 0 <= - ln (1 - P * P) <= 216 / 100). { split. assert (ln (1 - P * P) <= ln 1) by (apply ln_le; lra). rewrite ln_1 in H. lra. assert (ln (1163 / 10000) <= ln (1 - P * P)) by (apply ln_le; lra). assert (-216 / 100 <= ln (1163 / 10000)) by interval. lra. }
  assert (ET : Rabs (B2R t - T) <= 160 * u).
  { replace (B2R t - T) with ((B2R t - (- B2R l - 5 / 2)) - ((B2R l - ln (B2R m)) + (ln (B2R m) - ln (1 - P * P)))) by (unfold T; ring). eapply Rle_trans. apply Rabs_triang. rewrite Rabs_Ropp. eapply Rle_trans. apply Rplus_le_compat_l. apply Rabs_triang.
    assert (Rabs (- B2R l - 5 / 2) <= 6) by (apply Rabs_le; lra). assert (u * Rabs (- B2R l - 5 / 2) <= u * 6) by (apply Rmult_le_compat_l; lra). lra. }
  assert (TR : -25 / 10 <= T <= 0) by (unfold T; lra). assert (ET' := ET). apply Rabs_le_inv in ET'.
  destruct (case1_acc t Ft) as (Fq & Eq). { apply Rabs_le. lra. } set (q := erf_inv_initial_val_case_1 t) in * .
  assert (EQ : Rabs (B2R q - P8 T) <= 61 * u). { replace (B2R q - P8 T) with ((B2R q - P8 (B2R t)) + (P8 (B2R t) - P8 T)) by ring. eapply Rle_trans. apply Rabs_triang. assert (L := P8_lip (B2R t) T ltac:(apply Rabs_le; lra) ltac:(apply Rabs_le; lra)). lra. }
  assert (Q23 := P8_up T ltac:(apply Rabs_le; lra)). assert (VQ : Rabs (B2R q) <= 24 / 10). { replace (B2R q) with (P8 T + (B2R q - P8 T)) by ring. eapply Rle_trans. apply Rabs_triang. lra. }
  cbn [bind]. destruct (op_mul p q Fp Fq) as (Fi & Vi). { fold P. rewrite Rabs_mult. assert (Rabs P * Rabs (B2R q) <= 1 * (24 / 10)) by (apply Rmult_le_compat; try lra; apply Rabs_pos). lra. } fold P in Vi. assert (Ei := rnd_um (P * B2R q)). rewrite <- Vi in Ei.
  exists (p *. q). split. reflexivity. split. exact Fi.
  assert (EI : Rabs (B2R (p *. q) - ii P) <= 64 * u * Rabs P).
  { unfold ii. fold T. replace (B2R (p *. q) - P * P8 T) with ((B2R (p *. q) - P * B2R q) + P * (B2R q - P8 T)) by ring. eapply Rle_trans. apply Rabs_triang. rewrite (Rabs_mult P (B2R q - P8 T)). rewrite (Rabs_mult P (B2R q)) in Ei.
    assert (P0 := Rabs_pos P). assert (Rabs P * Rabs (B2R q - P8 T) <= Rabs P * (61 * u)) by (apply Rmult_le_compat_l; auto). assert (Rabs P * Rabs (B2R q) <= Rabs P * (24 / 10)) by (apply Rmult_le_compat_l; auto). assert (u * (Rabs P * Rabs (B2R q)) <= u * (Rabs P * (24 / 10))) by (apply Rmult_le_compat_l; lra). assert (u * fm <= u * (/ 2 * Rabs P)) by (apply Rmult_le_compat_l; lra). lra. }
  assert (I0 := ii_init P ltac:(lra)). assert (IL := erf_lip (B2R (p *. q)) (ii P)). assert (A := A2_rng). assert (P0 := Rabs_pos P). assert (uP : u * Rabs P <= / 16777216 * Rabs P) by (apply Rmult_le_compat_r; lra).
  assert (A2 * Rabs (B2R (p *. q) - ii P) <= 11284 / 10000 * (64 * u * Rabs P)) by (apply Rmult_le_compat; try lra; apply Rabs_pos).
  replace (erf_real (B2R (p *. q)) - P) with ((erf_real (B2R (p *. q)) - erf_real (ii P)) + (erf_real (ii P) - P)) by ring. eapply Rle_trans. apply Rabs_triang. lra.
Qed.

(** ** Where the iterates live *)
Lemma small_x P x : 2 * fm <= Rabs P <= 94 / 100 -> Rabs (erf_real x - P) <= / 10000 * Rabs P -> fm <= Rabs x <= 135 / 100 /\ (Rabs P <= 52 / 100 -> Rabs x <= / 2) /\ (Rabs P <= 84 / 100 -> Rabs x <= 1).
Proof.
  intros HP H. destruct fm_tiny as (m0 & m1). assert (A := A2_rng).
  assert (B : 9999 / 10000 * Rabs P <= erf_real (Rabs x) <= 10001 / 10000 * Rabs P).
  { rewrite <- erf_abs. assert (T1 := Rabs_triang (erf_real x - P) P). replace (erf_real x - P + P) with (erf_real x) in T1 by ring. assert (T2 := Rabs_triang (P - erf_real x) (erf_real x)). replace (P - erf_real x + erf_real x) with P in T2 by ring. rewrite Rabs_minus_sym in T2. lra. }
  assert (K : forall y c, c <= erf_real y -> 10001 / 10000 * Rabs P < c -> Rabs x <= y). { intros y c C D. left. apply erf_lt_inv. lra. }
  split; [split|split].
  - destruct (erf_le (Rabs x) (Rabs_pos x)) as (U & _). destruct (Rle_or_lt fm (Rabs x)); auto. assert (A2 * Rabs x <= A2 * fm) by (apply Rmult_le_compat_l; lra). assert (A2 * fm <= 11284 / 10000 * fm) by (apply Rmult_le_compat_r; lra). lra.
  - apply (K _ _ erf_135). lra.
  - intros. apply (K _ _ erf_05). lra.
  - intros. apply (K _ _ erf_1). lra.
Qed.
(** ** The derivative *)
Lemma deriv_acc (x : flt f) : finite x = true -> Rabs (B2R x) <= 135 / 100 -> exists d, erf_inv_deriv_1 v x = Ok d /\ finite d = true /\ Rabs (B2R d - gau (B2R x)) <= / 100000 * gau (B2R x).
Proof.
  intros Fx X. set (x_ := B2R x) in * . destruct fm_tiny as (m0 & m1). assert (NF : finite (-. x) = true) by (rewrite fneg_finite; auto). assert (NV : B2R (-. x) = - x_) by apply fneg_B2R.
  assert (XX : 0 <= x_ * x_ <= 18225 / 10000). { apply Rabs_le_inv in X. nra. }
  destruct (op_mul (-. x) x NF Fx) as (Fs & Vs). { rewrite NV. fold x_. apply Rabs_le. lra. } rewrite NV in Vs. fold x_ in Vs. assert (Es := rnd_um (- x_ * x_)). rewrite <- Vs in Es. set (s := -. x *. x) in * .
  assert (ufm : u * fm <= u * / 1000000000) by (apply Rmult_le_compat_l; lra). replace (- x_ * x_) with (- (x_ * x_)) in Es by ring. rewrite Rabs_Ropp, (Rabs_pos_eq (x_ * x_)) in Es by lra. assert (u * (x_ * x_) <= u * (18225 / 10000)) by (apply Rmult_le_compat_l; lra).
  assert (Es' : Rabs (B2R s - - (x_ * x_)) <= 183 / 100 * u) by lra. assert (Es2 := Es'). apply Rabs_le_inv in Es2.
  unfold erf_inv_deriv_1. fold s. destruct (exp_check_acc v s _ Fs ltac:(apply Rabs_def1; lra) eq_refl) as (d & Ed & Fd & Rd). exists d. split; auto. split; auto.
  unfold rel_err in Rd. change (bpow radix2 (- prec f)) with (uf f) in Rd. set (k := if Rle_dec (Rabs (B2R s)) (/ 2) then 8 else 106) in * . assert (Kk : 8 <= k <= 106) by (unfold k; destruct Rle_dec; lra).
  assert (b55 : bpow radix2 (-55) <= / 1000000000) by (cbn; lra). assert (b550 := bpow_gt_0 radix2 (-55)).
  assert (ku : k * u <= 106 * u) by (apply Rmult_le_compat_r; lra). assert (ku0 : 0 <= k * u) by (apply Rmult_le_pos; lra). set (g := gau x_). assert (g0 : 0 < g) by apply gau_pos. rewrite (Rabs_pos_eq (exp _)) in Rd by (left; apply exp_pos).
  assert (Eg : exp (B2R s) = g * exp (B2R s + x_ * x_)). { unfold g, gau. rewrite <- exp_plus. f_equal. ring. }
  assert (T : Rabs (exp (B2R s + x_ * x_) - 1) <= 2 * u). { set (q := B2R s + x_ * x_) in * . assert (Q : - (183 / 100 * u) <= q <= 183 / 100 * u) by (unfold q; lra). assert (L1 := exp_ineq1_le q). assert (L2 := exp_ineq1_le (- q)). assert (M : exp q * exp (- q) = 1) by (rewrite <- exp_plus; replace (q + - q) with 0 by ring; apply exp_0). assert (ep := exp_pos q). apply Rabs_le. split. lra.
    assert (exp q * (1 - q) <= 1). { rewrite <- M. apply Rmult_le_compat_l; lra. } assert (exp q <= 1 + 2 * u). { destruct (Rle_or_lt (exp q) (1 + 2 * u)); auto. exfalso. assert ((1 + 2 * u) * (1 - 183 / 100 * u) <= exp q * (1 - q)) by (apply Rmult_le_compat; lra). assert (u * u <= / 16777216 * u) by (apply Rmult_le_compat_r; lra). lra. } lra. }
  set (t := exp (B2R s + x_ * x_)) in * . rewrite Eg in Rd. apply Rabs_le_inv in T. assert (G1 : g * t <= g * (1 + 2 * u)) by (apply Rmult_le_compat_l; lra). assert (G2 : g * (1 - 2 * u) <= g * t) by (apply Rmult_le_compat_l; lra).
  assert (gu : g * u <= g * / 16777216) by (apply Rmult_le_compat_l; lra). assert (gt0 : 0 <= g * t) by (apply Rmult_le_pos; lra).
  assert ((k * u + bpow radix2 (-55)) * (g * t) <= (106 * / 16777216 + / 1000000000) * (g * (1 + 2 * u))). { apply Rmult_le_compat; lra. }
  apply Rabs_le_inv in Rd. apply Rabs_le. lra.
Qed.
(** ** One Halley step *)
Definition hal (x p d ev : flt f) : flt f := halley ((ev -. p) /. d) ((d *. (-. ofZ f 2 *. x)) /. d).
Lemma lit8 : finite (dlit f 8 1) = true /\ Rabs (B2R (dlit f 8 1) - 8 / 10) <= / 1000000.
Proof. clear. destruct f; [destruct (sf_val (dlit F32 8 1) false 13421773 (-24)) as (A & B) | destruct (sf_val (dlit F64 8 1) false 7205759403792794 (-53)) as (A & B) | destruct (sf_val (dlit F80 8 1) false 14757395258967642112 (-64)) as (A & B)]; try (vm_compute; reflexivity); (split; [exact A|]); rewrite B; unfold F2R; cbn; apply Rabs_le; lra. Qed.
Lemma lit12 : finite (dlit f 12 1) = true /\ Rabs (B2R (dlit f 12 1) - 12 / 10) <= / 1000000.
Proof. clear. destruct f; [destruct (sf_val (dlit F32 12 1) false 10066330 (-23)) as (A & B) | destruct (sf_val (dlit F64 12 1) false 5404319552844595 (-52)) as (A & B) | destruct (sf_val (dlit F80 12 1) false 11068046444225730560 (-63)) as (A & B)]; try (vm_compute; reflexivity); (split; [exact A|]); rewrite B; unfold F2R; cbn; apply Rabs_le; lra. Qed.

Lemma abs_tri a b ca cb : Rabs a <= ca -> Rabs b <= cb -> Rabs (a + b) <= ca + cb.
Proof. intros. eapply Rle_trans. apply Rabs_triang. lra. Qed.
Lemma abs_mul a b ca cb : Rabs a <= ca -> Rabs b <= cb -> Rabs (a * b) <= ca * cb.
Proof. intros. rewrite Rabs_mult. apply Rmult_le_compat; auto; apply Rabs_pos. Qed.
Lemma inv_step (x p d ev : flt f) y c : finite x = true -> finite p = true -> finite d = true -> finite ev = true -> 2 * fm <= Rabs (B2R p) <= 94 / 100 ->
  Rabs (erf_real (B2R x) - B2R p) <= / 10000 * Rabs (B2R p) -> Rabs (B2R d - gau y) <= / 100000 * gau y -> Rabs (y - B2R x) <= / 1000 -> 0 <= c <= 6 / 100000 -> Rabs (B2R ev - erf_real (B2R x)) <= c * Rabs (erf_real (B2R x)) ->
  let x' := x -. hal x p d ev in finite x' = true /\ Rabs (B2R x' - B2R x) <= / 1000 /\ Rabs (erf_real (B2R x') - B2R p) <= 137 / 1000 * Rabs (erf_real (B2R x) - B2R p) + (1138 / 1000 * c + 34 / 10 * u) * Rabs (B2R p).
Proof.
  intros Fx Fp Fd Fe HP HE HD HY HC HV. cbv zeta. set (X := B2R x) in * . set (P := B2R p) in * . set (D := B2R d) in * . set (E := erf_real X - P) in * . destruct fm_tiny as (m0 & m1). assert (A := A2_rng).
  destruct (small_x P X HP HE) as ((XL & XU) & _). assert (p0 : 0 < Rabs P) by lra. set (q := Rabs P) in * .
  assert (ufm : u * fm <= u * (/ 2 * q)) by (apply Rmult_le_compat_l; lra). assert (ufm0 : 0 <= u * fm) by (apply Rmult_le_pos; lra). assert (uq : u * q <= / 16777216 * q) by (apply Rmult_le_compat_r; lra). assert (uq0 : 0 < u * q) by (apply Rmult_lt_0_compat; lra). assert (cq : c * q <= 6 / 100000 * q) by (apply Rmult_le_compat_r; lra). assert (cq0 : 0 <= c * q) by (apply Rmult_le_pos; lra).
  assert (uq2 : u * q <= u * (94 / 100)) by (apply Rmult_le_compat_l; lra).
  (* the derivative *)
  assert (YU : Rabs y <= 1351 / 1000). { replace y with ((y - X) + X) by ring. eapply Rle_trans. apply Rabs_triang. lra. }
  assert (GY : 1611 / 10000 <= gau y <= 1). { split. 2: apply gau_le1. unfold gau. apply Rle_trans with (exp (- (1351 / 1000 * (1351 / 1000)))). interval. apply Raux.exp_le. apply Rabs_le_inv in YU. nra. }
  assert (DR : 161 / 1000 <= D <= 1001 / 1000). { apply Rabs_le_inv in HD. lra. }
  (* |x| against |p| *)
  assert (ER : Rabs (erf_real X) <= 10001 / 10000 * q). { replace (erf_real X) with (E + P) by (unfold E; ring). eapply Rle_trans. apply Rabs_triang. fold q. lra. }
  assert (XQ : Rabs X <= 56 / 10 * q).
  { destruct (erf_le (Rabs X) (Rabs_pos X)) as (_ & L). rewrite <- erf_abs in L. assert (G : 1611 / 10000 <= gau (Rabs X)). { unfold gau. apply Rle_trans with (exp (- (135 / 100 * (135 / 100)))). interval. apply Raux.exp_le. assert (x0 := Rabs_pos X). nra. }
    assert (11283 / 10000 * (1611 / 10000) <= A2 * gau (Rabs X)) by (apply Rmult_le_compat; lra). assert (11283 / 10000 * (1611 / 10000) * Rabs X <= A2 * gau (Rabs X) * Rabs X) by (apply Rmult_le_compat_r; [apply Rabs_pos|auto]). lra. }
  (* s = erf(x) - p *)
  set (d4 := B2R ev - erf_real X) in * . assert (D4 : Rabs d4 <= c * (10001 / 10000 * q)) by (eapply Rle_trans; [exact HV|apply Rmult_le_compat_l; lra]).
  assert (S0 : Rabs (B2R ev - P) <= 161 / 1000000 * q). { replace (B2R ev - P) with (E + d4) by (unfold E, d4; ring). eapply Rle_trans. apply Rabs_triang. lra. }
  destruct (op_sub ev p Fe Fp) as (Fs & Vs). { fold P. lra. } fold P in Vs. assert (E3 := rnd_um (B2R ev - P)). rewrite <- Vs in E3. set (s := ev -. p) in * . set (d3 := B2R s - (B2R ev - P)) in * .
  assert (uS0 : u * Rabs (B2R ev - P) <= u * (161 / 1000000 * q)) by (apply Rmult_le_compat_l; lra).
  assert (D3 : Rabs d3 <= 501 / 1000 * (u * q)) by lra. assert (S1 : Rabs (B2R s) <= 1611 / 10000000 * q). { replace (B2R s) with ((B2R ev - P) + d3) by (unfold d3; ring). eapply Rle_trans. apply Rabs_triang. lra. }
  (* r1 *)
  assert (SD : Rabs (B2R s / D) <= 10007 / 10000000 * q). { unfold Rdiv. rewrite Rabs_mult, (Rabs_pos_eq (/ D)) by (left; apply Rinv_0_lt_compat; lra). assert (/ D <= / (161 / 1000)) by (apply Rinv_le_contravar; lra). assert (0 < / D) by (apply Rinv_0_lt_compat; lra). assert (Rabs (B2R s) * / D <= 1611 / 10000000 * q * (/ (161 / 1000))) by (apply Rmult_le_compat; try lra; apply Rabs_pos). lra. }
  destruct (op_div s d Fs) as (Fr & Vr). { fold D. lra. } { fold D. lra. } fold D in Vr. assert (E2 := rnd_um (B2R s / D)). rewrite <- Vr in E2. set (r1 := s /. d) in * . set (d2 := B2R r1 - B2R s / D) in * .
  assert (uSD : u * Rabs (B2R s / D) <= u * (10007 / 10000000 * q)) by (apply Rmult_le_compat_l; lra). assert (D2 : Rabs d2 <= 502 / 1000 * (u * q)) by lra.
  assert (R1 : Rabs (B2R r1) <= 10008 / 10000000 * q). { replace (B2R r1) with (B2R s / D + d2) by (unfold d2; ring). eapply Rle_trans. apply Rabs_triang. lra. }
  (* r2 *)
  destruct (ofZ_small f 2 ltac:(lia)) as (V2 & F2 & _). assert (F2n : finite (-. ofZ f 2) = true) by (rewrite fneg_finite; auto). assert (V2n : B2R (-. ofZ f 2) = -2) by (rewrite fneg_B2R, V2; ring).
  assert (Z0 : Rabs (-2 * X) <= 27 / 10) by (eapply Rle_trans; [apply (abs_mul _ _ 2 (135 / 100)); [apply Rabs_le; lra|auto]|lra]).
  destruct (op_mul (-. ofZ f 2) x F2n Fx) as (Fz & Vz). { rewrite V2n. fold X. lra. } rewrite V2n in Vz. fold X in Vz. assert (Ez := rnd_um (-2 * X)). rewrite <- Vz in Ez. set (z1 := -. ofZ f 2 *. x) in * .
  assert (uZ0 : u * Rabs (-2 * X) <= u * (27 / 10)) by (apply Rmult_le_compat_l; lra). assert (Z1 : Rabs (B2R z1) <= 2701 / 1000). { replace (B2R z1) with ((B2R z1 - (-2 * X)) + -2 * X) by ring. eapply Rle_trans. apply Rabs_triang. lra. }
  assert (DZ : Rabs (D * B2R z1) <= 2701 / 1000 * D) by (rewrite Rabs_mult, (Rabs_pos_eq D) by lra; rewrite Rmult_comm; apply Rmult_le_compat_r; lra).
  destruct (op_mul d z1 Fd Fz) as (Fz2 & Vz2). { fold D. lra. } fold D in Vz2. assert (Ez2 := rnd_um (D * B2R z1)). rewrite <- Vz2 in Ez2. set (z2 := d *. z1) in * .
  assert (uDZ : u * Rabs (D * B2R z1) <= u * (2701 / 1000 * D)) by (apply Rmult_le_compat_l; lra). assert (uDD : u * D <= / 16777216 * D) by (apply Rmult_le_compat_r; lra).
  assert (Z2 : Rabs (B2R z2) <= 2702 / 1000 * D). { replace (B2R z2) with ((B2R z2 - D * B2R z1) + D * B2R z1) by ring. eapply Rle_trans. apply Rabs_triang. lra. }
  assert (Z3 : Rabs (B2R z2 / D) <= 2702 / 1000). { unfold Rdiv. rewrite Rabs_mult, (Rabs_pos_eq (/ D)) by (left; apply Rinv_0_lt_compat; lra). apply Rmult_le_reg_r with D. lra. rewrite Rmult_assoc, Rinv_l by lra. lra. }
  destruct (op_div z2 d Fz2) as (Fr2 & Vr2). { fold D. lra. } { fold D. lra. } fold D in Vr2. assert (Er2 := rnd_um (B2R z2 / D)). rewrite <- Vr2 in Er2. set (r2 := z2 /. d) in * .
  assert (uZ3 : u * Rabs (B2R z2 / D) <= u * (2702 / 1000)) by (apply Rmult_le_compat_l; lra). assert (R2 : Rabs (B2R r2) <= 2703 / 1000). { replace (B2R r2) with ((B2R r2 - B2R z2 / D) + B2R z2 / D) by ring. eapply Rle_trans. apply Rabs_triang. lra. }
  (* the denominator *)
  destruct (half_spec f) as (Vh & Fh). destruct (ofZ_small f 1 ltac:(lia)) as (V1 & F1 & _).
  assert (K0 : Rabs (/ 2 * B2R r1) <= 471 / 1000000). { eapply Rle_trans. apply (abs_mul _ _ (/ 2) (10008 / 10000000 * q)); [rewrite Rabs_pos_eq; lra|auto]. lra. }
  destruct (op_mul (half f) r1 Fh Fr) as (Fk & Vk). { rewrite Vh. lra. } rewrite Vh in Vk. assert (Ek := rnd_um (/ 2 * B2R r1)). rewrite <- Vk in Ek. set (k1 := half f *. r1) in * .
  assert (uK0 : u * Rabs (/ 2 * B2R r1) <= u * (471 / 1000000)) by (apply Rmult_le_compat_l; lra). assert (K1 : Rabs (B2R k1) <= 472 / 1000000). { replace (B2R k1) with ((B2R k1 - / 2 * B2R r1) + / 2 * B2R r1) by ring. eapply Rle_trans. apply Rabs_triang. lra. }
  assert (K2 : Rabs (B2R k1 * B2R r2) <= 1276 / 1000000). { eapply Rle_trans. apply (abs_mul _ _ _ _ K1 R2). lra. }
  destruct (op_mul k1 r2 Fk Fr2) as (Fk2 & Vk2). lra. assert (Ek2 := rnd_um (B2R k1 * B2R r2)). rewrite <- Vk2 in Ek2. set (k2 := k1 *. r2) in * .
  assert (uK2 : u * Rabs (B2R k1 * B2R r2) <= u * (1276 / 1000000)) by (apply Rmult_le_compat_l; lra). assert (K3 : Rabs (B2R k2) <= 1277 / 1000000). { replace (B2R k2) with ((B2R k2 - B2R k1 * B2R r2) + B2R k1 * B2R r2) by ring. eapply Rle_trans. apply Rabs_triang. lra. }
  apply Rabs_le_inv in K3. destruct (op_sub (ofZ f 1) k2 F1 Fk2) as (Fh0 & Vh0). { rewrite V1. apply Rabs_le. lra. } rewrite V1 in Vh0. assert (Eh := rnd_um (1 - B2R k2)). rewrite <- Vh0 in Eh. set (h := ofZ f 1 -. k2) in * . rewrite (Rabs_pos_eq (1 - B2R k2)) in Eh by lra.
  assert (uk2 : u * (1 - B2R k2) <= u * 2) by (apply Rmult_le_compat_l; lra). assert (HH : Rabs (B2R h - 1) <= 13 / 10000). { apply Rabs_le_inv in Eh. apply Rabs_le. lra. } assert (HH' := HH). apply Rabs_le_inv in HH'.
  destruct lit8 as (F8 & V8). destruct lit12 as (F12 & V12). apply Rabs_le_inv in V8. apply Rabs_le_inv in V12.
  assert (HL : hal x p d ev = r1 /. h).
  { unfold hal, halley. fold s r1 z1 z2 r2 k1 k2 h. unfold min. rewrite (flt_false (dlit f 12 1) h); auto. 2: lra. unfold max. rewrite (flt_false h (dlit f 8 1)); auto. lra. }
  rewrite HL. 
  (* the step *)
  set (H := B2R h) in * . assert (RH : Rabs (B2R r1 / H) <= 1003 / 1000000 * q). { unfold Rdiv. rewrite Rabs_mult, (Rabs_pos_eq (/ H)) by (left; apply Rinv_0_lt_compat; lra). assert (/ H <= / (9987 / 10000)) by (apply Rinv_le_contravar; lra). assert (0 < / H) by (apply Rinv_0_lt_compat; lra). assert (Rabs (B2R r1) * / H <= 10008 / 10000000 * q * (/ (9987 / 10000))) by (apply Rmult_le_compat; try lra; apply Rabs_pos). lra. }
  destruct (op_div r1 h Fr) as (Fdi & Vdi). { fold H. lra. } { fold H. lra. } fold H in Vdi. assert (E1 := rnd_um (B2R r1 / H)). rewrite <- Vdi in E1. set (di := r1 /. h) in * . set (d1 := B2R di - B2R r1 / H) in * .
  assert (uRH : u * Rabs (B2R r1 / H) <= u * (1003 / 1000000 * q)) by (apply Rmult_le_compat_l; lra). assert (D1 : Rabs d1 <= 502 / 1000 * (u * q)) by lra.
  assert (DI : Rabs (B2R di) <= 1004 / 1000000 * q). { replace (B2R di) with (B2R r1 / H + d1) by (unfold d1; ring). eapply Rle_trans. apply Rabs_triang. lra. }
  assert (XD : Rabs (X - B2R di) <= Rabs X + 1004 / 1000000 * q). { unfold Rminus. eapply Rle_trans. apply Rabs_triang. rewrite Rabs_Ropp. lra. }
  destruct (op_sub x di Fx Fdi) as (Fn & Vn). { fold X. lra. } fold X in Vn. assert (En := rnd_um (X - B2R di)). rewrite <- Vn in En. set (x' := x -. di) in * . set (dx := B2R x' - (X - B2R di)) in * .
  assert (uXD : u * Rabs (X - B2R di) <= u * (Rabs X + 1004 / 1000000 * q)) by (apply Rmult_le_compat_l; lra). assert (DX : Rabs dx <= u * (Rabs X + 51 / 100 * q)) by lra.
  assert (uX : u * Rabs X <= u * (56 / 10 * q)) by (apply Rmult_le_compat_l; lra).
  assert (XX : Rabs (B2R x' - X) <= 1006 / 1000000 * q). { replace (B2R x' - X) with (- B2R di + dx) by (unfold dx; ring). eapply Rle_trans. apply Rabs_triang. rewrite Rabs_Ropp. lra. }
  split. exact Fn. split. lra.
  set (dl := d4 + (d3 + (D * d2 + D * H * d1))).
  assert (DL : Rabs dl <= c * (10001 / 10000 * q) + 152 / 100 * (u * q)).
  { assert (Q2 : Rabs (D * d2) <= 1001 / 1000 * (502 / 1000 * (u * q))) by (apply abs_mul; auto; rewrite Rabs_pos_eq; lra). assert (Q1 : Rabs (D * H * d1) <= 1001 / 1000 * (10013 / 10000) * (502 / 1000 * (u * q))) by (apply abs_mul; auto; apply abs_mul; rewrite Rabs_pos_eq; lra).
    unfold dl. eapply Rle_trans. apply abs_tri. exact D4. apply abs_tri. exact D3. apply abs_tri. exact Q2. exact Q1. lra. }
  assert (ST := step_real X (B2R x') y D H E P dl dx u eq_refl ltac:(fold q; lra) HE XU HY HD HH ltac:(fold q; lra) ltac:(lra) ltac:(lra) DX).
  fold q in ST. eapply Rle_trans. apply ST.
  - unfold dx, dl. replace (B2R di) with (B2R r1 / H + d1) by (unfold d1; ring). replace (B2R r1) with (B2R s / D + d2) by (unfold d2; ring). replace (B2R s) with ((E + d4) + d3) by (unfold d3, d4, E; ring). field. split; lra.
  - lra.
Qed.

(** ** The iteration *)
Lemma erf_noise (x : flt f) P : finite x = true -> 2 * fm <= Rabs P <= 94 / 100 -> Rabs (erf_real (B2R x) - P) <= / 10000 * Rabs P ->
  exists ev, erf_check v x = Ok ev /\ finite ev = true /\ Rabs (B2R ev - erf_real (B2R x)) <= erf_b f (if Rle_dec (Rabs P) (52 / 100) then / 2 else if Rle_dec (Rabs P) (84 / 100) then 1 else 3 / 2) * Rabs (erf_real (B2R x)).
Proof.
  intros Fx HP HE. destruct (small_x P (B2R x) HP HE) as ((XL & XU) & B1 & B2). destruct (erf_check_acc v x Fx ltac:(lra)) as (ev & Ee & Fe & Re & _). exists ev. split; auto. split; auto. eapply Rle_trans. exact Re. apply Rmult_le_compat_r. apply Rabs_pos.
  assert (b54 := bpow_gt_0 radix2 (-54)). assert (b53 : bpow radix2 (-53) = 2 * bpow radix2 (-54)) by (cbn; lra). unfold erf_b.
  destruct (Rle_dec (Rabs P) (52 / 100)) as [L|L]. specialize (B1 L). destruct (Rle_dec (Rabs (B2R x)) (/ 2)); [|lra]. destruct (Rle_dec (/ 2) (/ 2)); lra.
  destruct (Rle_dec (Rabs P) (84 / 100)) as [L2|L2]. specialize (B2 L2). destruct (Rle_dec 1 (/ 2)); [lra|]. destruct (Rle_dec 1 1); [|lra]. destruct (Rle_dec (Rabs (B2R x)) (/ 2)); [lra|]. destruct (Rle_dec (Rabs (B2R x)) 1); lra.
  destruct (Rle_dec (3 / 2) (/ 2)); [lra|]. destruct (Rle_dec (3 / 2) 1); [lra|]. destruct (Rle_dec (3 / 2) (3 / 2)); [|lra]. destruct (Rle_dec (Rabs (B2R x)) (/ 2)); [lra|]. destruct (Rle_dec (Rabs (B2R x)) 1); [lra|]. destruct (Rle_dec (Rabs (B2R x)) (3 / 2)); lra.
Qed.
Definition icb (P : R) : R := erf_b f (if Rle_dec (Rabs P) (52 / 100) then / 2 else if Rle_dec (Rabs P) (84 / 100) then 1 else 3 / 2).
Lemma icb_rng P : 0 <= icb P <= 6 / 100000.
Proof.
  assert (b54 : bpow radix2 (-54) <= / 10000000000) by (cbn; lra). assert (b540 := bpow_gt_0 radix2 (-54)). assert (b53 : bpow radix2 (-53) = 2 * bpow radix2 (-54)) by (cbn; lra). unfold icb, erf_b.
  destruct (Rle_dec (Rabs P) (52 / 100)). destruct (Rle_dec (/ 2) (/ 2)); lra. destruct (Rle_dec (Rabs P) (84 / 100)). destruct (Rle_dec 1 (/ 2)); [lra|]. destruct (Rle_dec 1 1); lra. destruct (Rle_dec (3 / 2) (/ 2)); [lra|]. destruct (Rle_dec (3 / 2) 1); [lra|]. destruct (Rle_dec (3 / 2) (3 / 2)); lra.
Qed.
Lemma recur_acc (p : flt f) : finite p = true -> 2 * fm <= Rabs (B2R p) <= 94 / 100 -> forall k n (x d : flt f) y iter B, (iter = GCEM_ERF_INV_MAX_ITER - Z.of_nat k)%Z -> (k < n)%nat ->
  finite x = true -> finite d = true -> Rabs (erf_real (B2R x) - B2R p) <= B * Rabs (B2R p) -> 0 <= B <= / 10000 -> Rabs (B2R d - gau y) <= / 100000 * gau y -> Rabs (y - B2R x) <= / 1000 ->
  exists w, erf_inv_recur v n x p d iter = Ok w /\ finite w = true /\ Rabs (erf_real (B2R w) - B2R p) <= ((137 / 1000) ^ S k * B + 1000 / 863 * (1 - (137 / 1000) ^ S k) * (1138 / 1000 * icb (B2R p) + 34 / 10 * u)) * Rabs (B2R p).
Proof.
  intros Fp HP. set (P := B2R p) in * . assert (IC := icb_rng P). set (nu := 1138 / 1000 * icb P + 34 / 10 * u). assert (nu0 : 0 <= nu) by (unfold nu; lra). assert (q0 := Rabs_pos P).
  induction k as [|k IH]; intros n x d y iter B HI HN Fx Fd HE HB HD HY; (destruct n as [|n]; [lia|]); cbn [erf_inv_recur].
  - assert (HE' : Rabs (erf_real (B2R x) - P) <= / 10000 * Rabs P) by (eapply Rle_trans; [exact HE|apply Rmult_le_compat_r; lra]).
    destruct (erf_noise x P Fx HP HE') as (ev & Ee & Fe & Re). fold (icb P) in Re. rewrite Ee. cbn [bind]. replace (iter <? GCEM_ERF_INV_MAX_ITER)%Z with false by (symmetry; apply Z.ltb_ge; lia).
    destruct (inv_step x p d ev y (icb P) Fx Fp Fd Fe HP HE' HD HY IC Re) as (Fn & _ & En). unfold hal in Fn, En. eexists. split. reflexivity. split. exact Fn. eapply Rle_trans. exact En. fold nu P. rewrite pow_1.
    lra.
  - assert (HE' : Rabs (erf_real (B2R x) - P) <= / 10000 * Rabs P) by (eapply Rle_trans; [exact HE|apply Rmult_le_compat_r; lra]).
    destruct (erf_noise x P Fx HP HE') as (ev & Ee & Fe & Re). fold (icb P) in Re. rewrite Ee. cbn [bind]. replace (iter <? GCEM_ERF_INV_MAX_ITER)%Z with true by (symmetry; apply Z.ltb_lt; lia).
    destruct (inv_step x p d ev y (icb P) Fx Fp Fd Fe HP HE' HD HY IC Re) as (Fn & Xn & En). unfold hal in Fn, Xn, En. fold nu P in En.
    destruct (small_x P (B2R x) HP HE') as ((_ & XU) & _). destruct (deriv_acc x Fx XU) as (d' & Ed & Fd' & Rd). rewrite Ed. cbn [bind].
    destruct (IH n _ d' (B2R x) (iter + 1)%Z (137 / 1000 * B + nu) ltac:(lia) ltac:(lia) Fn Fd') as (w & Ew & Fw & Rw).
    + eapply Rle_trans. exact En. lra.
    + unfold nu in * . split; lra.
    + exact Rd.
    + rewrite Rabs_minus_sym. exact Xn.
    + exists w. split. exact Ew. split. exact Fw. eapply Rle_trans. exact Rw. fold nu. apply Rmult_le_compat_r; auto.
      change ((137 / 1000) ^ S (S k)) with (137 / 1000 * (137 / 1000) ^ S k). set (t := (137 / 1000) ^ S k). right. field.
Qed.

Definition invb (P : R) : R := if Rle_dec (Rabs P) (52 / 100) then 28 * u + bpow radix2 (-53) else if Rle_dec (Rabs P) (84 / 100) then 188 * u + bpow radix2 (-53) else 751 * u + bpow radix2 (-52).
Lemma lam60 : 0 <= (137 / 1000) ^ 60 * / 10000 <= bpow radix2 (-100).
Proof. split. apply Rmult_le_pos. apply pow_le. lra. lra. change (bpow radix2 (-100)) with (/ IZR (2 ^ 100)). interval. Qed.
Lemma invb_ok P : (137 / 1000) ^ 60 * / 10000 + 1000 / 863 * (1 - (137 / 1000) ^ 60) * (1138 / 1000 * icb P + 34 / 10 * u) <= invb P.
Proof.
  assert (L := lam60). set (t := (137 / 1000) ^ 60) in * . assert (IC := icb_rng P). assert (0 <= t * (1138 / 1000 * icb P + 34 / 10 * u)) by (apply Rmult_le_pos; lra).
  apply Rle_trans with (bpow radix2 (-100) + 1000 / 863 * (1138 / 1000 * icb P + 34 / 10 * u)). lra.
  assert (b100 : bpow radix2 (-100) <= / 100 * bpow radix2 (-54)). { replace (-100)%Z with (-46 + -54)%Z by reflexivity. rewrite bpow_plus. apply Rmult_le_compat_r. apply bpow_ge_0. cbn; lra. }
  assert (b540 := bpow_gt_0 radix2 (-54)). assert (b53 : bpow radix2 (-53) = 2 * bpow radix2 (-54)) by (cbn; lra). assert (b52 : bpow radix2 (-52) = 4 * bpow radix2 (-54)) by (cbn; lra). unfold invb, icb, erf_b.
  destruct (Rle_dec (Rabs P) (52 / 100)). destruct (Rle_dec (/ 2) (/ 2)); lra. destruct (Rle_dec (Rabs P) (84 / 100)). destruct (Rle_dec 1 (/ 2)); [lra|]. destruct (Rle_dec 1 1); lra. destruct (Rle_dec (3 / 2) (/ 2)); [lra|]. destruct (Rle_dec (3 / 2) 1); [lra|]. destruct (Rle_dec (3 / 2) (3 / 2)); lra.
Qed.
Lemma invb_small P : 0 <= invb P <= / 10000.
Proof.
  assert (b54 : bpow radix2 (-54) <= / 10000000000) by (cbn; lra). assert (b540 := bpow_gt_0 radix2 (-54)). assert (b53 : bpow radix2 (-53) = 2 * bpow radix2 (-54)) by (cbn; lra). assert (b52 : bpow radix2 (-52) = 4 * bpow radix2 (-54)) by (cbn; lra). unfold invb.
  destruct (Rle_dec (Rabs P) (52 / 100)). lra. destruct (Rle_dec (Rabs P) (84 / 100)); lra.
Qed.
Lemma begin_acc (p : flt f) : finite p = true -> 2 * fm <= Rabs (B2R p) <= 94 / 100 -> exists w, erf_inv_begin v p = Ok w /\ finite w = true /\ Rabs (erf_real (B2R w) - B2R p) <= invb (B2R p) * Rabs (B2R p).
Proof.
  intros Fp HP. destruct fm_tiny as (m0 & m1). destruct (ofZ_small f 1 ltac:(lia)) as (V1 & F1 & _). assert (HP' := proj2 HP). apply Rabs_le_inv in HP'. destruct (fmin_spec f) as (Vm & Fm).
  unfold erf_inv_begin. rewrite finite_not_nan by auto. rewrite (flt_false (ofZ f 1) (ModelBasic.abs p)); auto. 2: rewrite abs_finite; auto. 2: rewrite V1, abs_B2R; lra.
  assert (S : forall q : flt f, finite q = true -> 5 / 100 <= B2R q -> (ModelBasic.abs q <. fmin f) = false).
  { intros q Fq Hq. apply flt_false; auto. rewrite abs_finite; auto. rewrite Vm, abs_B2R, Rabs_pos_eq by lra. lra. }
  destruct (op_sub (ofZ f 1) p F1 Fp) as (Fa & Va). { rewrite V1. apply Rabs_le. lra. } destruct (op_add (ofZ f 1) p F1 Fp) as (Fb & Vb). { rewrite V1. apply Rabs_le. lra. } rewrite V1 in Va, Vb.
  assert (Ea := rnd_um (1 - B2R p)). assert (Eb := rnd_um (1 + B2R p)). rewrite <- Va in Ea. rewrite <- Vb in Eb. rewrite (Rabs_pos_eq (1 - B2R p)) in Ea by lra. rewrite (Rabs_pos_eq (1 + B2R p)) in Eb by lra. apply Rabs_le_inv in Ea. apply Rabs_le_inv in Eb.
  assert (u * fm <= u * 1) by (apply Rmult_le_compat_l; lra). assert (u * (1 - B2R p) <= u * 2) by (apply Rmult_le_compat_l; lra). assert (u * (1 + B2R p) <= u * 2) by (apply Rmult_le_compat_l; lra).
  rewrite (S (ofZ f 1 -. p)); auto. 2: lra. rewrite (S (ofZ f 1 +. p)); auto. 2: lra.
  destruct (init_acc p Fp HP) as (i & Ei & Fi & Ri). rewrite Ei. cbn [bind]. unfold erf_inv_recur_begin. destruct (small_x (B2R p) (B2R i) HP Ri) as ((_ & XU) & _). destruct (deriv_acc i Fi XU) as (d & Ed & Fd & Rd). rewrite Ed. cbn [bind].
  destruct (recur_acc p Fp HP 59 (Z.to_nat (GCEM_ERF_INV_MAX_ITER + 1)) i d (B2R i) 1 (/ 10000) eq_refl ltac:(vm_compute; lia) Fi Fd Ri ltac:(lra) Rd) as (w & Ew & Fw & Rw). { rewrite Rminus_diag_eq by reflexivity. rewrite Rabs_R0. lra. }
  exists w. split. exact Ew. split. exact Fw. eapply Rle_trans. exact Rw. apply Rmult_le_compat_r. apply Rabs_pos. apply invb_ok.
Qed.
Lemma fwd P x t m b : 2 * fm <= Rabs P <= 94 / 100 -> erf_real t = P -> Rabs x <= m -> Rabs t <= m -> Rabs (erf_real x - P) <= b * Rabs P -> Rabs (x - t) <= b * exp (m * m) * Rabs t.
Proof.
  intros HP HT Hx Ht HE. destruct (erf_mvt t x) as (c & HC & EC). assert (A := A2_rng). assert (CM : Rabs c <= m). { apply Rabs_le_inv in Hx. apply Rabs_le_inv in Ht. apply Rabs_le. destruct HC as (C1 & C2). assert (- m <= Rmin t x) by (apply Rmin_glb; lra). assert (Rmax t x <= m) by (apply Rmax_lub; lra). lra. }
  assert (G : exp (- (m * m)) <= gau c). { unfold gau. apply Raux.exp_le. apply Rabs_le_inv in CM. nra. } assert (g0 := exp_pos (- (m * m))).
  rewrite HT in EC. rewrite EC in HE. rewrite Rabs_mult, (Rabs_pos_eq (A2 * gau c)) in HE by (apply Rmult_le_pos; lra).
  assert (PT : Rabs P <= A2 * Rabs t). { rewrite <- HT, erf_abs. apply (erf_le (Rabs t)). apply Rabs_pos. } assert (b0 : 0 <= b). { apply Rmult_le_reg_r with (Rabs P). destruct fm_tiny; lra. rewrite Rmult_0_l. eapply Rle_trans; [|exact HE]. apply Rmult_le_pos; [apply Rmult_le_pos; lra|apply Rabs_pos]. }
  apply Rmult_le_reg_l with (A2 * exp (- (m * m))). apply Rmult_lt_0_compat; lra.
  apply Rle_trans with (A2 * gau c * Rabs (x - t)). apply Rmult_le_compat_r. apply Rabs_pos. apply Rmult_le_compat_l; lra.
  eapply Rle_trans. exact HE. replace (A2 * exp (- (m * m)) * (b * exp (m * m) * Rabs t)) with (b * (A2 * Rabs t) * (exp (- (m * m)) * exp (m * m))) by ring. rewrite <- exp_plus, Rplus_opp_l, exp_0, Rmult_1_r. apply Rmult_le_compat_l; auto.
Qed.
Lemma begin_fwd (p : flt f) : finite p = true -> 2 * fm <= Rabs (B2R p) <= 94 / 100 -> exists w, erf_inv_begin v p = Ok w /\ finite w = true /\ Rabs (erf_real (B2R w) - B2R p) <= invb (B2R p) * Rabs (B2R p) /\
  forall t, erf_real t = B2R p -> Rabs (B2R w - t) <= (if Rle_dec (Rabs (B2R p)) (52 / 100) then 36 * u + bpow radix2 (-52) else if Rle_dec (Rabs (B2R p)) (84 / 100) then 512 * u + bpow radix2 (-51) else 4650 * u + bpow radix2 (-49)) * Rabs t.
Proof.
  intros Fp HP. destruct (begin_acc p Fp HP) as (w & Ew & Fw & Rw). exists w. split. exact Ew. split. exact Fw. split. exact Rw. intros t HT. set (P := B2R p) in * .
  assert (IB := invb_small P). assert (Rw' : Rabs (erf_real (B2R w) - P) <= / 10000 * Rabs P) by (eapply Rle_trans; [exact Rw|apply Rmult_le_compat_r; [apply Rabs_pos|lra]]).
  assert (Rt : Rabs (erf_real t - P) <= / 10000 * Rabs P). { rewrite HT, Rminus_diag_eq, Rabs_R0 by reflexivity. apply Rmult_le_pos. lra. apply Rabs_pos. }
  destruct (small_x P (B2R w) HP Rw') as ((_ & W0) & W1 & W2). destruct (small_x P t HP Rt) as ((_ & T0) & T1 & T2).
  assert (b540 := bpow_gt_0 radix2 (-54)). assert (b53 : bpow radix2 (-53) = 2 * bpow radix2 (-54)) by (cbn; lra). assert (b52 : bpow radix2 (-52) = 4 * bpow radix2 (-54)) by (cbn; lra). assert (b51 : bpow radix2 (-51) = 8 * bpow radix2 (-54)) by (cbn; lra). assert (b49 : bpow radix2 (-49) = 32 * bpow radix2 (-54)) by (cbn; lra).
  assert (Gen : forall m K, Rabs (B2R w) <= m -> Rabs t <= m -> exp (m * m) <= K -> Rabs (B2R w - t) <= invb P * K * Rabs t).
  { intros m K Hw Ht HK. eapply Rle_trans. apply (fwd P (B2R w) t m (invb P) HP HT Hw Ht Rw). apply Rmult_le_compat_r. apply Rabs_pos. apply Rmult_le_compat_l; lra. }
  unfold invb in Gen. destruct (Rle_dec (Rabs P) (52 / 100)) as [L|L]; [|destruct (Rle_dec (Rabs P) (84 / 100)) as [L2|L2]].
  - eapply Rle_trans. apply (Gen (/ 2) (12841 / 10000)); auto. interval. apply Rmult_le_compat_r. apply Rabs_pos. lra.
  - eapply Rle_trans. apply (Gen 1 (27183 / 10000)); auto. interval. apply Rmult_le_compat_r. apply Rabs_pos. lra.
  - eapply Rle_trans. apply (Gen (135 / 100) (619 / 100)); auto. interval. apply Rmult_le_compat_r. apply Rabs_pos. lra.
Qed.
End A.
Lemma api_erf_inv v f (p : flt f) : finite p = true -> 2 * bpow radix2 (2 - emax f) <= Rabs (B2R p) <= 94 / 100 -> exists w, gcem_erf_inv v (AFlt f p) = Ok w /\ finite w = true /\
  rel_err (erf_real (B2R w)) (B2R p) (if Rle_dec (Rabs (B2R p)) (52 / 100) then 28 * bpow radix2 (- prec f) + bpow radix2 (-53) else
    if Rle_dec (Rabs (B2R p)) (84 / 100) then 188 * bpow radix2 (- prec f) + bpow radix2 (-53) else 751 * bpow radix2 (- prec f) + bpow radix2 (-52)) /\
  forall t, erf_real t = B2R p -> rel_err (B2R w) t (if Rle_dec (Rabs (B2R p)) (52 / 100) then 36 * bpow radix2 (- prec f) + bpow radix2 (-52) else
    if Rle_dec (Rabs (B2R p)) (84 / 100) then 512 * bpow radix2 (- prec f) + bpow radix2 (-51) else 4650 * bpow radix2 (- prec f) + bpow radix2 (-49)).
Proof. intros Fp HP. destruct (begin_fwd v p Fp HP) as (w & Ew & Fw & R1 & R2). exists w. split; [exact Ew|]. split; [exact Fw|]. split; [exact R1|exact R2]. Qed.
Lemma erf_inv_zero v f s : gcem_erf_inv v (AFlt f (B754_zero s)) = Ok (B754_zero s).
Proof.
  assert (E : gcem_erf_inv v (AFlt f (B754_zero s)) = gcem_erf_inv Cxx14 (AFlt f (B754_zero s))) by (destruct v; [apply CxxProofs.api_11_14_unary|reflexivity]).
  rewrite E. destruct f, s; apply ok_sf; vm_compute; reflexivity.
Qed.
