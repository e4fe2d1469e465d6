(** * The continued fraction of the exponential: truncation and rounding errors *)
From Verif Require Import Base ModelBasic ModelInt ModelElem FltLemmas Spec BasicProofs ConvLemmas CxxProofs PF FPErr.
From Coq Require Import Lra Psatz.
From Coquelicot Require Import Coquelicot.
From Interval Require Import Tactic.
Open Scope R_scope.

(** ** The continued fraction over the reals *)
Definition rexp_step (x : R) (d : Z) (r : R) : R := 1 + x / IZR (d - 1) - x / IZR d / r.
Definition rexp_cf (x : R) : R := 1 / (1 - x / up_rec 23 2 (rexp_step x) 1).

(** S_d = 1 + x/d S_{d+1}, started from 24/(24-x) at d = 25. *)
Definition eS (x : R) (n : nat) (d : Z) : R := up_rec n d (fun k r => 1 + x / IZR k * r) (24 / (24 - x)).
Definition eD (x : R) (n : nat) (d : Z) : R :=
  snd (up_rec n d (fun k r => (1 + x / IZR k * fst r, (fst r + x * snd r) / IZR k)) (24 / (24 - x), 24 / (24 - x) ^ 2)).
Lemma eD_fst x n : forall d, fst (up_rec n d (fun k r => (1 + x / IZR k * fst r, (fst r + x * snd r) / IZR k)) (24 / (24 - x), 24 / (24 - x) ^ 2)) = eS x n d.
Proof. induction n; intros d. reflexivity. cbn [up_rec eS fst]. rewrite IHn. reflexivity. Qed.
Lemma eS_S x n d : eS x (S n) d = 1 + x / IZR d * eS x n (d + 1).
Proof. reflexivity. Qed.
Lemma eD_S x n d : eD x (S n) d = (eS x n (d + 1) + x * eD x n (d + 1)) / IZR d.
Proof. unfold eD. cbn [up_rec snd]. rewrite eD_fst. reflexivity. Qed.
Lemma eS_derive x n : x < 24 -> forall d, (0 < d)%Z -> is_derive (fun x => eS x n d) x (eD x n d).
Proof.
  intros Hx. induction n; intros d Hd.
  - unfold eS, eD. cbn [up_rec snd]. auto_derive. lra. field. lra.
  - assert (P : IZR d <> 0) by (apply not_0_IZR; lia).
    apply is_derive_ext with (fun x => 1 + x / IZR d * eS x n (d + 1)). reflexivity.
    rewrite eD_S. specialize (IHn (d + 1)%Z ltac:(lia)).
    evar_last. apply (is_derive_plus (fun _ => 1) (fun x => x / IZR d * eS x n (d + 1))). apply is_derive_const.
    apply (is_derive_mult (fun x => x / IZR d) (fun x => eS x n (d + 1))). auto_derive; auto. exact IHn.
    intros; apply Rmult_comm. unfold plus, mult, zero; cbn. field. auto.
Qed.
(** x S' = x S - (d-1)(S-1) + error term *)
Fixpoint rfact (n : nat) : R := match n with O => 1 | S m => IZR (Z.of_nat n) * rfact m end.
Lemma rfact_neq0 n : rfact n <> 0.
Proof. induction n; cbn [rfact]. lra. apply Rmult_integral_contrapositive_currified; auto. apply not_0_IZR. lia. Qed.
Lemma eS_ode x n : x < 24 -> forall d, (0 < d)%Z -> (d + Z.of_nat n = 25)%Z ->
  x * eD x n d = x * eS x n d - IZR (d - 1) * (eS x n d - 1) + x ^ (S n) * (rfact (Z.to_nat (d - 1)) / rfact 23) / (24 - x) ^ 2.
Proof.
  intros Hx. induction n; intros d Hd Hn.
  - replace d with 25%Z by lia. replace (25 - 1)%Z with 24%Z by reflexivity. change (Z.to_nat 24) with 24%nat.
    replace (rfact 24) with (24 * rfact 23) by reflexivity.
    unfold eD, eS. cbn [up_rec snd]. generalize (rfact_neq0 23). generalize (rfact 23). intros F NF. field. split; auto; lra.
  - rewrite eD_S, eS_S. assert (P : IZR d <> 0) by (apply not_0_IZR; lia). assert (F0 := rfact_neq0 23).
    specialize (IHn (d + 1)%Z ltac:(lia) ltac:(lia)).
    replace (d + 1 - 1)%Z with d in IHn by ring.
    assert (F : rfact (Z.to_nat d) = IZR d * rfact (Z.to_nat (d - 1))).
    { replace (Z.to_nat d) with (S (Z.to_nat (d - 1))) by lia. cbn [rfact]. f_equal. f_equal. lia. }
    rewrite F in IHn. set (s := eS x n (d + 1)) in * . set (s' := eD x n (d + 1)) in * . set (fd := rfact (Z.to_nat (d - 1))) in * .
    revert F0 IHn. generalize (rfact 23). intros F23 F0 IHn.
    replace (x * ((s + x * s') / IZR d)) with (x / IZR d * (s + x * s')) by (field; auto).
    rewrite IHn. rewrite minus_IZR. change (x ^ S (S n)) with (x * x ^ S n). field. repeat split; auto; lra.
Qed.
Lemma eS1_ode x : x < 24 -> x <> 0 -> eD x 24 1 = eS x 24 1 + x ^ 24 / rfact 23 / (24 - x) ^ 2.
Proof.
  intros H N. assert (E := eS_ode x 24 H 1 ltac:(lia) ltac:(lia)). apply Rmult_eq_reg_l with x; auto. rewrite E. clear E.
  change (Z.to_nat (1 - 1)) with 0%nat. cbn [rfact]. change (x ^ 25) with (x * x ^ 24). change (1 - 1)%Z with 0%Z.
  fold (rfact 23). generalize (rfact_neq0 23). generalize (rfact 23). generalize (eS x 24 1). generalize (x ^ 24). intros u s F NF. field. split; auto; lra.
Qed.
Lemma fact23 : rfact 23 = 25852016738884976640000.
Proof. unfold rfact. rewrite <- !mult_IZR. f_equal. Qed.
(** The continued fraction has relative truncation error at most 2^-55 on [-2,2]. *)
Lemma ode_exp (S D : R -> R) x : (forall t, t < 24 -> is_derive S t (D t)) ->
  (forall t, t < 24 -> D t = S t + t ^ 24 / 25852016738884976640000 / (24 - t) ^ 2) ->
  S 0 = 1 -> Rabs x <= 2 -> Rabs (S x * exp (- x) - 1) <= 24 / 1000000000000000000.
Proof.
  intros DS O S0 H.
  set (g := fun t => S t * exp (- t)).
  set (g' := fun t => (D t - S t) * exp (- t)).
  assert (Dg : forall t, t < 24 -> is_derive g t (g' t)).
  { intros t Ht. unfold g, g'. evar_last. apply (is_derive_mult S (fun t => exp (- t))). apply DS; auto.
    auto_derive; auto. intros; apply Rmult_comm. unfold plus, mult; cbn. ring. }
  apply Rabs_le_inv in H.
  destruct (MVT_gen g 0 x g') as (c & Hc & E).
  - intros t Ht. apply Dg. unfold Rmax in Ht. destruct Rle_dec in Ht; lra.
  - intros t Ht. apply continuity_pt_filterlim. apply (ex_derive_continuous g). exists (g' t). apply Dg. unfold Rmax in Ht. destruct Rle_dec in Ht; lra.
  - assert (Hc' : -2 <= c <= 2) by (unfold Rmin, Rmax in Hc; destruct Rle_dec in Hc; lra).
    assert (G0 : g 0 = 1). { unfold g. rewrite Ropp_0, exp_0, S0. ring. }
    change (Rabs (g x - 1) <= 24 / 1000000000000000000). rewrite G0, Rminus_0_r in E. rewrite E, Rabs_mult.
    assert (B : Rabs (g' c) <= 1000 / 100000000000000000000).
    { unfold g'. rewrite O by lra. replace (S c + c ^ 24 / 25852016738884976640000 / (24 - c) ^ 2 - S c) with (c ^ 24 / 25852016738884976640000 / (24 - c) ^ 2) by ring.
      interval with (i_prec 60). }
    apply Rle_trans with (1000 / 100000000000000000000 * 2). apply Rmult_le_compat; auto using Rabs_pos. apply Rabs_le; lra. lra.
Qed.
Lemma eS1_ode0 x : x < 24 -> eD x 24 1 = eS x 24 1 + x ^ 24 / 25852016738884976640000 / (24 - x) ^ 2.
Proof.
  intros H. destruct (Req_dec x 0) as [->|N].
  - rewrite eD_S, (eS_S 0 23 1), !(eS_S 0 22). generalize (eS 0 22 (1 + 1 + 1)) (eD 0 23 (1 + 1)). intros u v. rewrite pow_i by lia.
    unfold Rdiv; rewrite !Rinv_1; ring.
  - rewrite eS1_ode, fact23 by auto. reflexivity.
Qed.
Lemma eS_exp x : Rabs x <= 2 -> Rabs (eS x 24 1 * exp (- x) - 1) <= 24 / 1000000000000000000.
Proof.
  intros H. apply (ode_exp (fun x => eS x 24 1) (fun x => eD x 24 1)); auto.
  - intros t Ht. apply eS_derive; auto. lia.
  - intros t Ht. apply eS1_ode0; auto.
  - rewrite eS_S. unfold Rdiv. ring.
Qed.
(** Positivity of the partial sums, and the continued fraction as their quotient. *)
Lemma eS_pos x n : -2 <= x <= 2 -> forall d, (2 <= d)%Z -> (d + Z.of_nat n = 25)%Z ->
  0 < eS x n d /\ (x < 0 -> eS x n d < 1).
Proof.
  intros Hx. induction n; intros d Hd Hn.
  - unfold eS. cbn [up_rec]. assert (0 < / (24 - x)) by (apply Rinv_0_lt_compat; lra). split. unfold Rdiv. nra.
    intros G. apply Rmult_lt_reg_r with (24 - x). lra. unfold Rdiv. rewrite Rmult_assoc, Rinv_l by lra. lra.
  - destruct (IHn (d + 1)%Z ltac:(lia) ltac:(lia)) as (P & L). rewrite eS_S.
    assert (D2 : 2 <= IZR d) by (apply IZR_le; auto).
    assert (I : 0 < / IZR d) by (apply Rinv_0_lt_compat; lra). assert (I2 : / IZR d <= / 2) by (apply Rinv_le; lra).
    destruct (Rle_or_lt 0 x) as [G|G].
    + split; [|lra]. unfold Rdiv. assert (0 <= x * / IZR d) by nra. nra.
    + specialize (L G). split; [|intros _].
      * unfold Rdiv. assert (-1 <= x * / IZR d) by nra. nra.
      * unfold Rdiv. assert (x * / IZR d < 0) by nra. nra.
Qed.
Lemma rexp_cf_S x n : -2 <= x <= 2 -> forall d, (2 <= d)%Z -> (d + Z.of_nat n = 25)%Z ->
  up_rec n d (rexp_step x) 1 = (1 + x / IZR (d - 1) * eS x n d) / eS x n d.
Proof.
  intros Hx. induction n; intros d Hd Hn.
  - replace d with 25%Z by lia. unfold eS. cbn [up_rec]. replace (25 - 1)%Z with 24%Z by reflexivity. field. lra.
  - cbn [up_rec]. rewrite IHn by lia. replace (d + 1 - 1)%Z with d by ring.
    destruct (eS_pos x n Hx (d + 1) ltac:(lia) ltac:(lia)) as (P & _). destruct (eS_pos x (S n) Hx d Hd Hn) as (P' & _).
    rewrite eS_S in P' |- * . set (s := eS x n (d + 1)) in * .
    assert (IZR d <> 0) by (apply not_0_IZR; lia). assert (IZR (d - 1) <> 0) by (apply not_0_IZR; lia). unfold rexp_step.
    assert (P2 : IZR d + x * s <> 0).
    { intros Q. apply (Rgt_not_eq _ _ P'). replace (1 + x / IZR d * s) with ((IZR d + x * s) / IZR d) by (field; auto). rewrite Q. unfold Rdiv. ring. }
    field. repeat split; auto; try lra; try (rewrite Rplus_comm; auto).
Qed.
Lemma rexp_cf_eS x : -2 <= x <= 2 -> rexp_cf x = eS x 24 1.
Proof.
  intros H. unfold rexp_cf. rewrite rexp_cf_S by (auto; lia). destruct (eS_pos x 23 H 2 ltac:(lia) ltac:(lia)) as (P & _).
  change (eS x 24 1) with (1 + x / 1 * eS x 23 2). set (s := eS x 23 2) in * . change (IZR (2 - 1)) with 1.
  assert (T : 0 < 1 + x / 1 * s).
  { assert (E := eS_exp x ltac:(apply Rabs_le; lra)). change (eS x 24 1) with (1 + x / 1 * s) in E. apply Rabs_le_inv in E. generalize (exp_pos (- x)). nra. }
  field. split; lra.
Qed.
Lemma rexp_cf_err x : -2 <= x <= 2 -> Rabs (rexp_cf x - exp x) <= 24 / 1000000000000000000 * exp x.
Proof.
  intros H. rewrite rexp_cf_eS by auto. assert (E := eS_exp x ltac:(apply Rabs_le; lra)). assert (P := exp_pos x).
  replace (eS x 24 1 - exp x) with ((eS x 24 1 * exp (- x) - 1) * exp x).
  - rewrite Rabs_mult, (Rabs_pos_eq (exp x)) by lra. apply Rmult_le_compat_r; lra.
  - rewrite exp_Ropp. field. lra.
Qed.

(** ** Rounding errors *)
Definition aexp_step (X : aval) (d : Z) (A : aval) : option aval :=
  do a <- adiv X (aint (d - 1)); do b <- aadd (aint 1) a; do c <- adiv X (aint d); do e <- adiv c A; asub b e.
Definition aexp_cf (X : aval) : option aval :=
  do r <- up_rec 23 2 (fun k o => obind o (aexp_step X k)) (Some (aint 1));
  do q <- adiv X r; do s <- asub (aint 1) q; adiv (aint 1) s.
Lemma aexp_step_ok {f} (x : flt f) X k w r A C : (2 <= k < 100)%Z -> approx x (B2R x) X -> approx w r A ->
  aexp_step X k A = Some C -> approx (exp_cf_step x k w) (rexp_step (B2R x) k r) C.
Proof.
  intros Hk HX HA E. unfold aexp_step in E.
  apply obind_some in E as (a & Ea & E). apply obind_some in E as (b & Eb & E). apply obind_some in E as (c & Ec & E). apply obind_some in E as (e & Ee & E).
  eapply asub_ok; [| |exact E].
  - eapply aadd_ok; [apply (aint_ok f 1); lia| |exact Eb]. eapply adiv_ok; [exact HX|apply aint_ok; lia|exact Ea].
  - eapply adiv_ok; [|exact HA|exact Ee]. eapply adiv_ok; [exact HX|apply aint_ok; lia|exact Ec].
Qed.
Lemma aexp_cf_ok {f} (x : flt f) X C : approx x (B2R x) X -> aexp_cf X = Some C -> approx (exp_cf Cxx11 x) (rexp_cf (B2R x)) C.
Proof.
  intros HX E. unfold aexp_cf in E.
  apply obind_some in E as (r & Er & E). apply obind_some in E as (q & Eq & E). apply obind_some in E as (s & Es & E).
  unfold exp_cf, rexp_cf. eapply adiv_ok; [apply (aint_ok f 1); lia| |exact E]. eapply asub_ok; [apply (aint_ok f 1); lia| |exact Es].
  eapply adiv_ok; [exact HX| |exact Eq].
  change (exp_cf_recur Cxx11 x 2) with (up_rec 23 2 (exp_cf_step x) (ofZ f 1)).
  eapply up_rec_approx; [|apply (aint_ok f 1); lia|exact Er]. intros k w r' A C' Hk. apply aexp_step_ok; auto. lia.
Qed.
(** Relative rounding error, in units of 2^-p, checked on pieces of width 1/64. *)
Definition exp_c (k : Z) : Z := if ((-32 <=? k) && (k <? 32))%Z then 7%Z else 105%Z.
Definition exp_piece (k : Z) : bool :=
  (dgood 6 k && dgood 6 (k + 1) &&
  match aexp_cf (aex (dlo 6 k) (dhi 6 (k + 1))) with
  | Some A => nonneg (lo A) && ltF (er A) (md (ofZd (exp_c k)) (lo A))
  | None => false
  end)%bool.
Lemma exp_pieces_ok : allZ 256 (-128) exp_piece = true.
Proof. vm_cast_no_check (eq_refl true). Qed.
Lemma exp_cf_round {f} (x : flt f) k : (-128 <= k < 128)%Z -> finite x = true -> IZR k * bpow radix2 (-6) <= B2R x <= IZR (k + 1) * bpow radix2 (-6) ->
  finite (exp_cf Cxx11 x) = true /\ 0 < rexp_cf (B2R x) /\
  Rabs (B2R (exp_cf Cxx11 x) - rexp_cf (B2R x)) <= IZR (exp_c k) * bpow radix2 (- prec f) * rexp_cf (B2R x).
Proof.
  intros Hk Fx Hx. assert (C := allZ_spec _ _ _ exp_pieces_ok k ltac:(lia)). unfold exp_piece in C.
  apply andb_prop in C as (C & C3). apply andb_prop in C as (C1 & C2).
  destruct (dlo_ok 6 k ltac:(lia) C1) as (R1 & L1). destruct (dhi_ok 6 (k + 1) ltac:(lia) C2) as (R2 & L2). change (- (6))%Z with (-6)%Z in * .
  destruct (aexp_cf _) as [A|] eqn:EA; [|discriminate]. apply andb_prop in C3 as (C4 & C5).
  destruct (nonneg_ok _ C4) as (R3 & N3). destruct (ltF_ok _ _ C5) as (R4 & R5 & L5).
  assert (HX : approx x (B2R x) (aex (dlo 6 k) (dhi 6 (k + 1)))) by (apply aexact; auto; lra).
  assert (HA := aexp_cf_ok x _ A HX EA). assert (E0 := proj2 (approx_er _ _ _ HA)). destruct HA as (F & _ & (L & _) & Er). split; auto.
  assert (CC : (Z.abs (exp_c k) < 9007199254740992 /\ 0 <= exp_c k)%Z) by (unfold exp_c; destruct (_ && _); lia).
  destruct (ofZ_val (exp_c k) (proj1 CC)) as ((R6 & V6) & _).
  assert (Le : rv (md (ofZd (exp_c k)) (lo A)) <= IZR (exp_c k) * rv (lo A)).
  { apply lb_elim; auto. apply lb_mul; auto; try lra. apply nonneg_intro; auto. rewrite V6. apply IZR_le; lia. }
  assert (C0 : 0 <= IZR (exp_c k)) by (apply IZR_le; lia). assert (u0 := uf_pos f). unfold uf in * .
  assert (N0 : 0 < rexp_cf (B2R x)) by nra. split; auto. eapply Rle_trans. exact Er.
  rewrite Rmult_assoc, (Rmult_comm (bpow _ _)), <- Rmult_assoc. apply Rmult_le_compat_r. lra.
  apply Rle_trans with (IZR (exp_c k) * rv (lo A)). lra. apply Rmult_le_compat_l; auto.
Qed.
