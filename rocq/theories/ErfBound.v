(** * Checked bounds for the continued fraction of erf for small arguments:
    rounding errors and truncation residual over an interval. *)
From Verif Require Import Base FltLemmas ConvLemmas.
From Coq Require Import Lra Psatz PrimFloat.
From Coquelicot Require Import Coquelicot.
From Verif Require Import RangeProofs PF FPErr CFBound ErfReal.
Open Scope R_scope.

(** The floating-point continued fraction. *)
Definition esf_step {f} (xx : flt f) (k : Z) (r : flt f) : flt f :=
  ofZ f (2 * k - 1) -. ofZ f 2 *. xx +. ofZ f (4 * k) *. xx /. r.
Definition esf {f} (xx : flt f) (n : nat) (d : Z) : flt f :=
  up_rec n d (esf_step xx) (ofZ f (2 * (d + Z.of_nat n) - 1) -. ofZ f 2 *. xx).

(** ** Enclosures alone *)
Definition inA (r : R) (A : aval) : Prop := (isr (lo A) = true /\ isr (hi A) = true) /\ rv (lo A) <= r <= rv (hi A).
Lemma close_in l h e A r : close l h e = Some A -> lb l r -> ub h r -> inA r A.
Proof.
  unfold close. destruct (isr l) eqn:Rl; [|discriminate]. destruct (isr h) eqn:Rh; [|discriminate]. destruct (ltF _ _); [|discriminate]. destruct (isr (au _ _)); [|discriminate].
  cbn [andb]. intros Q Hl Hh. injection Q as <-. split; cbn [lo hi]; auto. split. apply lb_elim; auto. apply ub_elim; auto.
Qed.
Lemma inA_lb r A : inA r A -> lb (lo A) r.
Proof. intros ((H & _) & B). apply lb_intro; auto. lra. Qed.
Lemma inA_ub r A : inA r A -> ub (hi A) r.
Proof. intros ((_ & H) & B). apply ub_intro; auto. lra. Qed.
Lemma aadd_in r s A B C : inA r A -> inA s B -> aadd A B = Some C -> inA (r + s) C.
Proof. intros HA HB Q. eapply close_in. exact Q. apply lb_add; apply inA_lb; auto. apply ub_add; apply inA_ub; auto. Qed.
Lemma asub_in r s A B C : inA r A -> inA s B -> asub A B = Some C -> inA (r - s) C.
Proof. intros HA HB Q. eapply close_in. exact Q. apply lb_sub; [apply inA_lb|apply inA_ub]; auto. apply ub_sub; [apply inA_ub|apply inA_lb]; auto. Qed.
Lemma amul_in r s A B C : inA r A -> inA s B -> amul A B = Some C -> inA (r * s) C.
Proof.
  intros HA HB. unfold amul. destruct (nonneg (lo A)) eqn:NA; [|discriminate]. destruct (nonneg (lo B)) eqn:NB; [|discriminate]. cbn [andb]. intros Q.
  destruct (nonneg_ok _ NA) as (_ & LA). destruct (nonneg_ok _ NB) as (_ & LB). assert (Pr : rv (lo A) <= r) by apply HA. assert (Ps : rv (lo B) <= s) by apply HB.
  eapply close_in. exact Q. apply lb_mx0. nra. apply lb_mul; auto. apply ub_mul; try lra; apply inA_ub; auto.
Qed.
Lemma adiv_in r s A B C : inA r A -> inA s B -> adiv A B = Some C -> inA (r / s) C.
Proof.
  intros ((R1 & R2) & B1) ((R3 & R4) & B2). unfold adiv. destruct (pos (lo B)) eqn:PB; [|discriminate]. destruct (pos (sd (lo B) _)); [|discriminate]. cbn [andb]. intros Q.
  eapply close_in. exact Q. apply qlo_ok; auto; lra. apply qhi_ok; auto; lra.
Qed.
Lemma aint_in z : (Z.abs z <= 16777216)%Z -> inA (IZR z) (aint z).
Proof.
  intros H. destruct (ofZ_val z ltac:(lia)) as ((R1 & V1) & (R2 & V2)). split. split; auto. unfold aint. cbn [lo hi]. rewrite V1, V2. lra.
Qed.

(** ** One tail and its residual *)
Section B.
Variables (X Y2 : aval).
Definition eq4 (d : Z) (A : aval) : option aval := obind (amul (aint (4 * d)) X) (fun m => adiv m A).
Definition estp (d : Z) (t : cst) : option cst :=
  let A := ca t in
  let ll := md (lo A) (lo A) in
  if (pos (lo A) && pos ll)%bool then
    obind (eq4 d A) (fun q => obind (asub (aint (2 * d - 1)) Y2) (fun c => obind (aadd c q) (fun t' =>
    Some (CS t' (mu (du (mu (ofZu (4 * d)) (hi X)) ll) (cp t))))))
  else None.
Definition ebase (N : Z) : option cst := obind (asub (aint (2 * N - 1)) Y2) (fun c => Some (CS c (mu (ofZu (4 * N)) (hi X)))).
Definition eloop (n : nat) (d : Z) : option cst := up_rec n d (fun k o => obind o (estp k)) (ebase (d + Z.of_nat n)).

Lemma ub_4 d x : (1 <= d)%Z -> ub (hi X) (x * x) -> ub (mu (ofZu (4 * d)) (hi X)) (IZR (4 * d) * (x * x)).
Proof. intros H U. assert (4 <= IZR (4 * d)) by (apply IZR_le; lia). apply ub_mul; auto. lra. nra. apply ofZu_ok. Qed.
Lemma eloop_real x n : inA (x * x) X -> inA (2 * (x * x)) Y2 -> forall d B, (1 <= d)%Z -> (d + Z.of_nat n <= 1000)%Z -> eloop n d = Some B ->
  egood n d x /\ inA (et n d x) (ca B) /\ 0 <= eres n d x /\ ub (cp B) (eres n d x).
Proof.
  intros HX HY. assert (HU := inA_ub _ _ HX). induction n; intros d B Hd Hn Hb.
  - unfold eloop in Hb. cbn [up_rec] in Hb. unfold ebase in Hb. apply obind_some in Hb as (c & Hc & Hb). apply some_inj in Hb. subst B. cbn [egood ca cp eres]. change (Z.of_nat 0) with 0%Z in * .
    split; auto. split. unfold et. cbn [up_rec]. eapply asub_in; [apply aint_in; lia|exact HY|exact Hc]. split. assert (0 <= IZR (4 * d)) by (apply IZR_le; lia). nra. rewrite Z.add_0_r. apply ub_4; auto.
  - unfold eloop in Hb. cbn [up_rec] in Hb. apply obind_some in Hb as (T & HT & Hb).
    assert (HT' : eloop n (d + 1) = Some T). { unfold eloop. replace (d + 1 + Z.of_nat n)%Z with (d + Z.of_nat (S n))%Z by lia. exact HT. }
    destruct (IHn (d + 1)%Z T ltac:(lia) ltac:(lia) HT') as (G & AT & R0 & RT). clear IHn HT HT'.
    unfold estp in Hb. destruct (pos (lo (ca T))) eqn:P1; [|discriminate]. destruct (pos (md _ _)) eqn:P2; [|discriminate]. cbn [andb] in Hb.
    apply obind_some in Hb as (q & Q & Hb). apply obind_some in Hb as (c & Hc & Hb). apply obind_some in Hb as (t' & Ht & Hb). apply some_inj in Hb. subst B. cbn [ca cp egood eres].
    rewrite et_S. set (t := et n (d + 1) x) in * .
    destruct (pos_ok _ P1) as (R1 & L1). destruct (pos_ok _ P2) as (R2 & L2).
    assert (Lt : rv (lo (ca T)) <= t) by apply AT. assert (T0 : 0 < t) by lra.
    split. { split; auto. lra. }
    assert (D4 : 4 <= IZR (4 * d)) by (apply IZR_le; lia).
    split; [|split].
    + eapply aadd_in; [| |exact Ht]. eapply asub_in; [apply aint_in; lia|exact HY|exact Hc].
      unfold eq4 in Q. apply obind_some in Q as (m & Hm & Q). eapply adiv_in; [|exact AT|exact Q]. eapply amul_in; [apply aint_in; lia|exact HX|exact Hm].
    + apply Rmult_le_pos; auto. apply Rmult_le_pos. nra. left. apply Rinv_0_lt_compat. nra.
    + eapply (ub_res _ _ _ _ (IZR (4 * d) * (x * x)) (t * t) _); [nra|nra|exact R0|apply ub_4; auto|exact P2| |exact RT|reflexivity].
      apply lb_elim; auto. apply lb_mul; auto; apply nonneg_intro; auto; lra.
Qed.
Lemma eloop_flt {f} (xx : flt f) y n : approx xx y X -> approx (ofZ f 2 *. xx) (2 * y) Y2 -> forall d B, (1 <= d)%Z -> (d + Z.of_nat n <= 1000)%Z -> eloop n d = Some B ->
  approx (esf xx n d) (up_rec n d (estep y) (IZR (2 * (d + Z.of_nat n) - 1) - 2 * y)) (ca B).
Proof.
  intros HX HY. induction n; intros d B Hd Hn Hb.
  - unfold eloop in Hb. cbn [up_rec] in Hb. unfold ebase in Hb. apply obind_some in Hb as (c & Hc & Hb). apply some_inj in Hb. subst B. unfold esf. cbn [up_rec ca]. change (Z.of_nat 0) with 0%Z in * .
    eapply asub_ok; [apply aint_ok; lia|exact HY|exact Hc].
  - unfold eloop in Hb. cbn [up_rec] in Hb. apply obind_some in Hb as (T & HT & Hb).
    assert (HT' : eloop n (d + 1) = Some T). { unfold eloop. replace (d + 1 + Z.of_nat n)%Z with (d + Z.of_nat (S n))%Z by lia. exact HT. }
    specialize (IHn (d + 1)%Z T ltac:(lia) ltac:(lia) HT'). clear HT HT'. unfold esf in * . cbn [up_rec].
    replace (d + 1 + Z.of_nat n)%Z with (d + Z.of_nat (S n))%Z in IHn by lia.
    unfold estp in Hb. destruct (pos (lo (ca T))) eqn:P1; [|discriminate]. destruct (pos (md _ _)) eqn:P2; [|discriminate]. cbn [andb] in Hb.
    apply obind_some in Hb as (q & Q & Hb). apply obind_some in Hb as (c & Hc & Hb). apply obind_some in Hb as (t' & Ht & Hb). apply some_inj in Hb. subst B. cbn [ca].
    unfold estep at 1, esf_step at 1. eapply aadd_ok; [| |exact Ht]. eapply asub_ok; [apply aint_ok; lia|exact HY|exact Hc].
    unfold eq4 in Q. apply obind_some in Q as (m & Hm & Q). eapply adiv_ok; [|exact IHn|exact Q]. eapply amul_ok; [apply aint_ok; lia|exact HX|exact Hm].
Qed.
End B.

(** ** A piece of arguments [k 2^-e, (k+1) 2^-e] *)
Definition epiece (n : nat) (e k : Z) : option (pf * pf) :=
  if (dgood e k && dgood e (k + 1) && nonneg (dlo e k) && nonneg (dhi e (k + 1)))%bool then
    let l := dlo e k in let h := dhi e (k + 1) in
    let l2 := mx 0 (md l l) in let h2 := mu h h in let l4 := mx 0 (md 2 l2) in let h4 := mu 2 h2 in
    if (nonneg l2 && isr h2 && isr l4 && isr h4 && ltF h4 BIG)%bool then
      obind (eloop (AV l2 h2 0) (AV l4 h4 0) n 1) (fun t =>
      let T := ca t in let ll := md (lo T) (lo T) in
      if (pos (lo T) && pos ll)%bool then Some (du (er T) (lo T), du (cp t) ll) else None)
    else None
  else None.
Lemma two_pf : isr 2%float = true /\ rv 2%float = 2.
Proof. split. reflexivity. change 2%float with (ofZd 2). apply ofZ_val. reflexivity. Qed.
Lemma epiece_inv n e k c r : epiece n e k = Some (c, r) -> (0 <= e)%Z -> exists X Y2 t,
  let T := ca t in
  (forall x, inpiece e k x -> inA (x * x) X /\ inA (2 * (x * x)) Y2) /\ rv (er X) = 0 /\ rv (er Y2) = 0 /\ isr (er X) = true /\ isr (er Y2) = true /\ rv (hi Y2) < bpow radix2 64 /\
  eloop X Y2 n 1 = Some t /\ pos (lo T) = true /\ pos (md (lo T) (lo T)) = true /\ c = du (er T) (lo T) /\ r = du (cp t) (md (lo T) (lo T)).
Proof.
  intros H He. unfold epiece in H. destruct (dgood e k) eqn:D1; [|discriminate]. destruct (dgood e (k + 1)) eqn:D2; [|discriminate].
  destruct (nonneg (dlo e k)) eqn:N1; [|discriminate]. destruct (nonneg (dhi e (k + 1))) eqn:N2; [|discriminate]. cbn [andb] in H. cbv zeta in H.
  set (l := dlo e k) in * . set (h := dhi e (k + 1)) in * . set (l2 := mx 0 (md l l)) in * . set (h2 := mu h h) in * .
  destruct (nonneg l2) eqn:I0; [|discriminate]. destruct (nonneg_ok _ I0) as (I1 & L20). destruct (isr h2) eqn:I2; [|discriminate]. destruct (isr (mx 0 (md 2 l2))) eqn:I3; [|discriminate]. destruct (isr (mu 2 h2)) eqn:I4; [|discriminate].
  destruct (ltF (mu 2 h2) BIG) eqn:I5; [|discriminate]. cbn [andb] in H.
  apply obind_some in H as (t & Ht & H). destruct (pos (lo (ca t))) eqn:P1; [|discriminate]. destruct (pos (md _ _)) eqn:P2; [|discriminate]. cbn [andb] in H. apply some_inj in H.
  exists (AV l2 h2 0%float), (AV (mx 0 (md 2 l2)) (mu 2 h2) 0%float), t. cbv zeta.
  destruct (dlo_ok e k He D1) as (R1 & L1). destruct (dhi_ok e (k + 1) He D2) as (R2 & L2). fold l in R1, L1. fold h in R2, L2.
  destruct (nonneg_ok _ N1) as (_ & l0). destruct (nonneg_ok _ N2) as (_ & h0). destruct (ltF_ok _ _ I5) as (_ & _ & I5'). rewrite (proj2 BIG_val) in I5'.
  split; [|cbn [er hi]; rewrite rv0; repeat (split; auto); congruence].
  intros x (X1 & X2). assert (Q : inA (x * x) (AV l2 h2 0%float)).
  { split; cbn [lo hi]; auto. split.
    - apply lb_elim; auto. unfold l2. apply lb_mx0. nra. apply lb_mul; auto; lra.
    - apply ub_elim; auto. unfold h2. apply ub_mul; try lra; apply ub_intro; auto; lra. }
  split; auto. destruct Q as ((_ & _) & Q1 & Q2). cbn [lo hi] in Q1, Q2. destruct two_pf as (T2 & V2).
  split; cbn [lo hi]; auto. split.
  - apply lb_elim; auto. apply lb_mx0. nra. apply lb_mul; auto; lra.
  - apply ub_elim; auto. apply ub_mul; [lra|nra|apply ub_intro; auto; lra|apply ub_intro; auto].
Qed.
Lemma epiece_real n e k c r x : epiece n e k = Some (c, r) -> (0 <= e)%Z -> (Z.of_nat n < 900)%Z -> inpiece e k x ->
  egood n 1 x /\ 0 < et n 1 x /\ 0 <= eres n 1 x /\ ub r (eres n 1 x / (et n 1 x * et n 1 x)).
Proof.
  intros H He Hn Hx. destruct (epiece_inv _ _ _ _ _ H He) as (X & Y2 & t & I & _ & _ & _ & _ & _ & Ht & P1 & P2 & _ & ->). destruct (I x Hx) as (IX & IY).
  destruct (eloop_real X Y2 x n IX IY 1 t ltac:(lia) ltac:(lia) Ht) as (G & AT & R0 & RT). destruct (pos_ok _ P1) as (R1 & L1). destruct (pos_ok _ P2) as (R2 & L2).
  set (T := et n 1 x) in * . assert (LT : rv (lo (ca t)) <= T) by apply AT. split; auto. split. lra. split; auto.
  apply ub_div; auto. apply lb_elim; auto. apply lb_mul; auto; apply nonneg_intro; try lra; apply AT.
Qed.
Lemma epiece_flt {f} n e k c r (xx : flt f) x : epiece n e k = Some (c, r) -> (0 <= e)%Z -> (Z.of_nat n < 900)%Z -> inpiece e k x -> finite xx = true -> B2R xx = x * x ->
  exists C, ub c C /\ finite (esf xx n 1) = true /\ Rabs (B2R (esf xx n 1) - et n 1 x) <= C * uf f * et n 1 x.
Proof.
  intros H He Hn Hx Fx Vx. destruct (epiece_inv _ _ _ _ _ H He) as (X & Y2 & t & I & EX & EY & RX & RY & BY & Ht & P1 & P2 & -> & _). destruct (I x Hx) as (IX & IY).
  assert (A1 : approx xx (x * x) X). { split; auto. split. destruct IX as ((? & ?) & _); auto. split. apply IX. rewrite Vx, EX, Rminus_diag_eq, Rabs_R0 by auto. lra. }
  assert (A2 : approx (ofZ f 2 *. xx) (2 * (x * x)) Y2).
  { destruct (ofZ_small f 2 ltac:(lia)) as (V2 & F2 & _).
    assert (Bd : Rabs (2 * (x * x)) < bpow radix2 (emax f)).
    { destruct IY as (_ & _ & IY). rewrite Rabs_pos_eq by nra. apply Rle_lt_trans with (1 := IY). apply Rlt_le_trans with (1 := BY). apply bpow_le. destruct f; discriminate. }
    assert (Ex : rnd f (2 * (x * x)) = 2 * (x * x)). { rewrite <- Vx. apply double_val. rewrite Vx. exact Bd. }
    assert (M := fmul_spec (ofZ f 2) xx F2 Fx). rewrite V2, Vx, Ex in M. destruct M as (V & F).
    - exact Bd.
    - split; auto. split. destruct IY as ((? & ?) & _); auto. split. apply IY. rewrite V, EY, Rminus_diag_eq, Rabs_R0 by auto. lra. }
  assert (L := eloop_flt X Y2 xx (x * x) n A1 A2 1 t ltac:(lia) ltac:(lia) Ht). change (up_rec n 1 (estep (x * x)) (IZR (2 * (1 + Z.of_nat n) - 1) - 2 * (x * x))) with (et n 1 x) in L.
  destruct (pos_ok _ P1) as (R1 & L1). destruct L as (F & (_ & _ & Re) & (B1 & B2) & B3). set (T := et n 1 x) in * .
  assert (E0 : 0 <= rv (er (ca t))). { assert (0 <= rv (er (ca t)) * uf f) by (eapply Rle_trans; [apply Rabs_pos|exact B3]). assert (u0 := uf_pos f). nra. }
  exists (rv (er (ca t)) / T). split; [|split; auto].
  - apply ub_div; auto. apply ub_intro; auto. lra.
  - replace (rv (er (ca t)) / T * uf f * T) with (rv (er (ca t)) * uf f) by (field; lra). exact B3.
Qed.

(** ** Consecutive pieces *)
Definition ele2 (p : option (pf * pf)) (C R : pf) : bool := match p with Some (c, r) => (ltF c C && ltF r R)%bool | None => false end.
Definition eall (n : nat) (e k0 : Z) (cnt : nat) (C R : pf) : bool := allZ cnt k0 (fun k => ele2 (epiece n e k) C R).
Section All.
Variables (n : nat) (e k0 : Z) (cnt : nat) (C R : pf).
Hypothesis (He : (0 <= e)%Z) (Hn : (Z.of_nat n < 900)%Z) (Hc : eall n e k0 cnt C R = true).
Let h := bpow radix2 (- e).
Lemma eall_real x : IZR k0 * h <= x < IZR (k0 + Z.of_nat cnt) * h ->
  egood n 1 x /\ 0 < et n 1 x /\ Rabs (eres n 1 x / (et n 1 x * et n 1 x)) <= rv R.
Proof.
  intros (H1 & H2). destruct (cover e x k0 (k0 + Z.of_nat cnt) He H1 H2) as (k & Hk2 & I). assert (P := allZ_spec _ _ _ Hc k Hk2). cbv beta in P. unfold ele2 in P.
  destruct (epiece n e k) as [(c, r)|] eqn:Q; [|discriminate]. apply andb_prop in P as (P1 & P2).
  destruct (epiece_real n e k c r x Q He Hn I) as (G & T0 & R0 & U). split; auto. split; auto. destruct (ltF_ok _ _ P2) as (Rr & _ & L). apply (ub_elim r) in U; auto.
  rewrite Rabs_pos_eq. lra. apply Rmult_le_pos; auto. left. apply Rinv_0_lt_compat. nra.
Qed.
Lemma eall_flt {f} (xx : flt f) x : IZR k0 * h <= x < IZR (k0 + Z.of_nat cnt) * h -> finite xx = true -> B2R xx = x * x ->
  finite (esf xx n 1) = true /\ Rabs (B2R (esf xx n 1) - et n 1 x) <= rv C * uf f * et n 1 x.
Proof.
  intros (H1 & H2) Fx Vx. destruct (cover e x k0 (k0 + Z.of_nat cnt) He H1 H2) as (k & Hk2 & I). assert (P := allZ_spec _ _ _ Hc k Hk2). cbv beta in P. unfold ele2 in P.
  destruct (epiece n e k) as [(c, r)|] eqn:Q; [|discriminate]. apply andb_prop in P as (P1 & P2).
  destruct (epiece_real n e k c r x Q He Hn I) as (_ & T0 & _). destruct (epiece_flt n e k c r xx x Q He Hn I Fx Vx) as (D & U & F & B). split; auto.
  destruct (ltF_ok _ _ P1) as (Rc & _ & L). apply (ub_elim c) in U; auto. assert (u0 := uf_pos f). eapply Rle_trans. exact B. apply Rmult_le_compat_r. lra. apply Rmult_le_compat_r; lra.
Qed.
End All.
