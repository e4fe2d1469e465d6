(** * From the residuals of CFBound to truncation errors of atan, atanh, tan, tanh *)
From Verif Require Import Base FltLemmas.
From Coq Require Import Lra Psatz PrimFloat.
From Coquelicot Require Import Coquelicot.
From Verif Require Import PF FPErr CFReal CFBound.
From Interval Require Import Tactic.
Open Scope R_scope.

Lemma mvt (g g' : R -> R) a b M : (forall x, Rmin a b <= x <= Rmax a b -> is_derive g x (g' x) /\ Rabs (g' x) <= M) -> Rabs (g b - g a) <= M * Rabs (b - a).
Proof.
  intros H. destruct (MVT_gen g a b g') as (c & Hc & ->).
  - intros x Hx. apply H. lra.
  - intros x Hx. apply continuity_pt_filterlim. apply (ex_derive_continuous g). exists (g' x). apply H; auto.
  - rewrite Rabs_mult. apply Rmult_le_compat_r. apply Rabs_pos. apply H; auto.
Qed.
Lemma mvt0 (g g' : R -> R) x M : (forall c, Rabs c <= Rabs x -> is_derive g c (g' c) /\ Rabs (g' c) <= M) -> g 0 = 0 -> Rabs (g x) <= M * Rabs x.
Proof.
  intros H G0. replace (g x) with (g x - g 0) by (rewrite G0; ring). replace x with (x - 0) at 2 by ring. apply (mvt g g' 0 x M).
  intros c Hc. apply H. unfold Rmin, Rmax in Hc. destruct Rle_dec in Hc. rewrite !Rabs_pos_eq; lra. rewrite !Rabs_left1; lra.
Qed.

(** ** Checks over consecutive pieces *)
Definition le2 (p : option (pf * pf)) (C R : pf) : bool := match p with Some (c, r) => (ltF c C && ltF r R)%bool | None => false end.
Definition call (neg quad : bool) (n : nat) (e k0 : Z) (cnt : nat) (C R : pf) : bool := allZ cnt k0 (fun k => le2 (cpiece neg quad n e k) C R).
Section Call.
Variables (neg quad : bool) (n : nat) (e k0 : Z) (cnt : nat) (C R : pf).
Hypothesis (He : (0 <= e <= 20)%Z) (Hk : (0 <= k0)%Z) (Hn : (Z.of_nat n < 900)%Z) (Hc : call neg quad n e k0 cnt C R = true).
Let h := bpow radix2 (- e).
Lemma call_piece x : IZR k0 * h <= x < IZR (k0 + Z.of_nat cnt) * h -> exists k c r, (0 <= k)%Z /\ inpiece e k x /\ cpiece neg quad n e k = Some (c, r) /\ ltF c C = true /\ ltF r R = true.
Proof.
  intros (H1 & H2). destruct (cover e x k0 (k0 + Z.of_nat cnt) ltac:(lia) H1 H2) as (k & Hk2 & I). assert (P := allZ_spec _ _ _ Hc k Hk2). cbv beta in P. unfold le2 in P.
  destruct (cpiece neg quad n e k) as [(c, r)|] eqn:Q; [|discriminate]. apply andb_prop in P as (P1 & P2). exists k, c, r. repeat (split; auto). lia.
Qed.
Lemma call_real x : IZR k0 * h <= x < IZR (k0 + Z.of_nat cnt) * h -> let s := sgn_of neg in let a := ar quad in
  good0 s a n x /\ 0 < ct s a n 1 x /\ Rabs (w_res s a n x) <= rv R.
Proof.
  intros Hx. destruct (call_piece x Hx) as (k & c & r & Hk2 & I & P & L1 & L2). destruct (cpiece_real _ _ _ _ _ _ _ x P ltac:(lia) Hn I) as (G & T0 & W). cbv zeta.
  split; auto. split; auto. destruct (ltF_ok _ _ L2) as (Rr & _ & L). apply (ub_elim r) in W; auto. lra.
Qed.
Lemma call_round {f} (x : flt f) : finite x = true -> IZR k0 * h <= B2R x < IZR (k0 + Z.of_nat cnt) * h -> bpow radix2 (2 - emax f) <= B2R x ->
  let w := w_of (sgn_of neg) (ar quad) n (B2R x) in let z := x /. fcf neg quad (x *. x) n 1 in
  finite z = true /\ 0 < w /\ Rabs (B2R z - w) <= rv C * uf f * w.
Proof.
  intros Fx Hx X0. destruct (call_piece _ Hx) as (k & c & r & Hk2 & I & P & L1 & L2). cbv zeta.
  destruct (cpiece_round neg quad n e k c r x P He Hk2 Hn Fx I X0) as (D & UD & F & D0 & T0 & B). split; auto.
  assert (x0 := bpow_gt_0 radix2 (2 - emax f)). unfold w_of. set (t := ct (sgn_of neg) (ar quad) n 1 (B2R x)) in * .
  assert (W : 0 < B2R x / t) by (apply Rdiv_lt_0_compat; lra). split; auto. eapply Rle_trans. exact B.
  destruct (ltF_ok _ _ L1) as (Rc & _ & L). apply (ub_elim c) in UD; auto. assert (u0 := uf_pos f). apply Rmult_le_compat_r. lra. apply Rmult_le_compat_r; lra.
Qed.
End Call.

(** ** Accumulated residuals *)
Section Sum.
Variables (rf : Z -> option pf) (tau : pf).
Fixpoint tsum (n : nat) (k : Z) (acc : pf) : bool :=
  match n with
  | O => true
  | S m => match rf k with
           | Some r => let acc' := au acc r in (isr r && isr acc' && ltF acc' (md tau (ofZd (Z.max k 1))) && tsum m (k + 1) acc')%bool
           | None => false
           end
  end.
Variables (g g' : R -> R) (h : R).
Hypothesis Ht : nonneg tau = true.
Hypothesis Hh : 0 < h.
Hypothesis Hg : forall k r x, (0 <= k)%Z -> rf k = Some r -> isr r = true -> IZR k * h <= x <= IZR (k + 1) * h -> is_derive g x (g' x) /\ Rabs (g' x) <= rv r.
Lemma tsum_ok n : forall k acc, (0 <= k)%Z -> (Z.of_nat n + k < 1000000)%Z -> isr acc = true -> (k = 0%Z -> rv acc = 0) -> tsum n k acc = true -> Rabs (g (IZR k * h)) <= rv acc * h ->
  forall x, IZR k * h <= x < IZR (k + Z.of_nat n) * h -> Rabs (g x) <= rv tau * x.
Proof.
  destruct (nonneg_ok _ Ht) as (Rt & T0).
  induction n; intros k acc Hk Hb Ra Hz T G x Hx. { replace (k + Z.of_nat 0)%Z with k in Hx by lia. lra. }
  cbn [tsum] in T. destruct (rf k) as [r|] eqn:R; [|discriminate]. cbv zeta in T. apply andb_prop in T as (T & T2). apply andb_prop in T as (T & T1). apply andb_prop in T as (Rr & Ra').
  assert (K0 : 0 <= IZR k) by (apply IZR_le; auto).
  assert (Sum : rv acc + rv r <= rv (au acc r)) by (apply ub_elim; auto; apply ub_add; apply ub_intro; auto; lra).
  destruct (ltF_ok _ _ T1) as (_ & Rm & L).
  destruct (ofZ_val (Z.max k 1) ltac:(lia)) as ((Rz & Vz) & _).
  assert (K1 : 1 <= IZR (Z.max k 1)) by (apply IZR_le; lia).
  assert (L2 : rv acc + rv r <= rv tau * IZR (Z.max k 1)).
  { assert (rv (md tau (ofZd (Z.max k 1))) <= rv tau * IZR (Z.max k 1)). { apply lb_elim; auto. apply lb_mul; auto; try lra. apply nonneg_intro; auto. lra. } lra. }
  assert (Loc : forall x, IZR k * h <= x <= IZR (k + 1) * h -> Rabs (g x) <= rv acc * h + rv r * (x - IZR k * h) /\ 0 <= rv r).
  { intros z Hz2. assert (M := mvt g g' (IZR k * h) z (rv r)). rewrite (Rabs_pos_eq (z - _)) in M by lra. split.
    - replace (g z) with (g (IZR k * h) + (g z - g (IZR k * h))) by ring. eapply Rle_trans. apply Rabs_triang. apply Rplus_le_compat; auto. apply M.
      intros c Hc. apply (Hg k); auto. unfold Rmin, Rmax in Hc. destruct Rle_dec in Hc; lra.
    - apply Rle_trans with (Rabs (g' z)). apply Rabs_pos. apply (Hg k); auto. }
  rewrite plus_IZR in Loc.
  destruct (Rle_or_lt x (IZR (k + 1) * h)) as [Lx|Lx]; rewrite plus_IZR in Lx.
  - destruct (Loc x ltac:(lra)) as (Lo & R0). eapply Rle_trans. exact Lo.
    destruct (Z.eq_dec k 0) as [->|Nk].
    + rewrite (Hz eq_refl) in * . change (IZR (Z.max 0 1)) with 1 in L2. assert (rv r <= rv tau) by lra. assert (0 <= x) by lra. nra.
    + replace (Z.max k 1) with k in * by lia. assert (A0 : 0 <= rv acc). { assert (0 <= rv acc * h) by (eapply Rle_trans; [apply Rabs_pos|exact G]). nra. }
      apply Rle_trans with ((rv acc + rv r) * h). nra. apply Rle_trans with (rv tau * IZR k * h). apply Rmult_le_compat_r; lra. rewrite Rmult_assoc. apply Rmult_le_compat_l; lra.
  - apply (IHn (k + 1)%Z (au acc r)); auto.
    + lia.
    + lia.
    + lia.
    + destruct (Loc (IZR (k + 1) * h)) as (Lo & R0). rewrite plus_IZR. lra. eapply Rle_trans. exact Lo. rewrite plus_IZR.
      apply Rle_trans with ((rv acc + rv r) * h). right; ring. apply Rmult_le_compat_r; lra.
    + split. rewrite plus_IZR. lra. replace (k + 1 + Z.of_nat n)%Z with (k + Z.of_nat (S n))%Z by lia. apply Hx.
Qed.
End Sum.

(** ** atan *)
Definition atan_rf (n : nat) (e k : Z) : option pf :=
  obind (cpiece false true n e k) (fun p => let l := dlo e k in let b := ad 1 (md l l) in
    if (dgood e k && nonneg l && pos b)%bool then Some (du (snd p) b) else None).
Lemma atan_trunc n e tau cnt x : (0 <= e <= 20)%Z -> (Z.of_nat n < 900)%Z -> (Z.of_nat cnt < 1000000)%Z -> nonneg tau = true ->
  tsum (atan_rf n e) tau cnt 0 0%float = true -> 0 <= x < IZR (Z.of_nat cnt) * bpow radix2 (- e) ->
  Rabs (w_of 1 (ar true) n x - atan x) <= rv tau * x.
Proof.
  intros He Hn Hcnt Ht T Hx. set (h := bpow radix2 (- e)). assert (Hh : 0 < h) by apply bpow_gt_0.
  apply (tsum_ok (atan_rf n e) tau (fun x => w_of 1 (ar true) n x - atan x) (fun x => w_D 1 (ar true) n x - / (1 + x * x)) h Ht Hh) with (n := cnt) (k := 0%Z) (acc := 0%float); auto.
  - intros k r c Hk R Rr Hc. unfold atan_rf in R. apply obind_some in R as ((q, qr) & Q & R). cbn [snd] in R. cbv zeta in R.
    destruct (dgood e k) eqn:D; [|discriminate]. destruct (nonneg (dlo e k)) eqn:N; [|discriminate]. destruct (pos _) eqn:P; [|discriminate]. cbn [andb] in R. apply some_inj in R. subst r.
    assert (Ip : inpiece e k c) by exact Hc.
    destruct (cpiece_real _ _ _ _ _ _ _ c Q ltac:(lia) Hn Ip) as (G & T0 & W). cbn [sgn_of] in * .
    assert (D1 := w_derive 1 (ar true) n c G). destruct (w_atan 1 n c G) as (s & Hs & O). change sq with (ar true) in O.
    split.
    + evar_last. apply (is_derive_minus (w_of 1 (ar true) n) atan). exact D1. apply is_derive_atan. reflexivity.
    + assert (D2 : w_D 1 (ar true) n c - / (1 + c * c) = s * w_res 1 (ar true) n c / (1 + c * c)).
      { rewrite Rmult_1_l in O. apply Rmult_eq_reg_r with (1 + c * c); [|nra]. transitivity ((1 + c * c) * w_D 1 (ar true) n c - 1). field; nra. rewrite O. field. nra. }
      rewrite D2. unfold Rdiv. rewrite !Rabs_mult. replace (Rabs s) with 1 by (destruct Hs as [->| ->]; [rewrite Rabs_pos_eq by lra|rewrite Rabs_left by lra]; lra).
      rewrite Rmult_1_l, (Rabs_pos_eq (/ _)) by (left; apply Rinv_0_lt_compat; nra).
      destruct (dlo_ok e k ltac:(lia) D) as (R1 & L1). destruct (nonneg_ok _ N) as (_ & N0). destruct rv1 as (r1 & v1). destruct (pos_ok _ P) as (Rp & _).
      apply ub_elim; auto. apply ub_div; auto. apply Rabs_pos. apply lb_elim; auto. apply lb_add. apply lb_intro; auto; lra. destruct Hc as (Hc1 & _). fold h in L1. apply lb_mul; auto; lra.
  - lia.
  - lia.
  - rewrite rv0, Rmult_0_l. unfold w_of. rewrite atan_0. unfold Rdiv. rewrite Rmult_0_l, Rminus_0_r, Rabs_R0. lra.
  - rewrite Rmult_0_l. replace (0 + Z.of_nat cnt)%Z with (Z.of_nat cnt) by ring. auto.
Qed.

(** ** atanh, tan, tanh: a single bound on the residual suffices *)
Lemma ct_abs s a n : forall d x, ct s a n d (Rabs x) = ct s a n d x.
Proof. intros d x. unfold ct. rewrite <- Rabs_mult, Rabs_pos_eq by nra. reflexivity. Qed.
Lemma good_abs s a n : forall d x, good s a n d (Rabs x) -> good s a n d x.
Proof. induction n; intros d x. auto. cbn [good]. rewrite ct_abs. intros (A & B). split; auto. Qed.
Lemma cres_abs2 s a n : forall d x, cres s a n d (Rabs x) = cres s a n d x.
Proof. induction n; intros d x; cbn [cres]; rewrite ?ct_abs, ?IHn, <- Rabs_mult, Rabs_pos_eq by nra; reflexivity. Qed.
Lemma call_abs neg quad n e cnt C R : (0 <= e <= 20)%Z -> (Z.of_nat n < 900)%Z -> call neg quad n e 0 cnt C R = true -> forall x, Rabs x < IZR (Z.of_nat cnt) * bpow radix2 (- e) ->
  let s := sgn_of neg in let a := ar quad in good0 s a n x /\ 0 < ct s a n 1 x /\ Rabs (w_res s a n x) <= rv R.
Proof.
  intros He Hn T x Hx. assert (X0 := Rabs_pos x). destruct (call_real neg quad n e 0 cnt C R He ltac:(lia) Hn T (Rabs x)) as (G & P & W). { rewrite Rmult_0_l. split; auto. }
  cbv zeta. unfold good0, w_res in * . rewrite ct_abs in * . rewrite cres_abs2 in W. split. split. apply good_abs, G. apply G. auto.
Qed.
Definition atanh_ (x : R) : R := / 2 * ln ((1 + x) / (1 - x)).
Lemma atanh_derive x : Rabs x < 1 -> is_derive atanh_ x (/ (1 - x * x)).
Proof.
  intros H. apply Rabs_lt_inv in H. unfold atanh_. auto_derive. repeat split; try lra. apply Rdiv_lt_0_compat; lra. field. repeat split; lra || nra.
Qed.
Lemma one_res s r : s = 1 \/ s = -1 -> Rabs (s * r) = Rabs r.
Proof. intros [->| ->]; rewrite Rabs_mult; [rewrite (Rabs_pos_eq 1) by lra|rewrite (Rabs_left (-1)) by lra]; ring. Qed.
Lemma atanh_trunc n e rho cnt C x : (0 <= e <= 20)%Z -> (Z.of_nat n < 900)%Z -> call true true n e 0 cnt C rho = true ->
  Rabs x < IZR (Z.of_nat cnt) * bpow radix2 (- e) -> Rabs x <= / 2 ->
  Rabs (w_of (-1) (ar true) n x - atanh_ x) <= 2 * rv rho * Rabs x /\ 0 < ct (-1) (ar true) n 1 x.
Proof.
  intros He Hn T Hx X2. split. 2: apply (call_abs true true n e cnt C rho He Hn T x Hx).
  apply (mvt0 (fun x => w_of (-1) (ar true) n x - atanh_ x) (fun x => w_D (-1) (ar true) n x - / (1 - x * x))).
  - intros c Hc. assert (Hc2 : Rabs c <= / 2) by lra. destruct (call_abs true true n e cnt C rho He Hn T c ltac:(lra)) as (G & P & W). cbn [sgn_of] in * .
    assert (D := w_derive (-1) (ar true) n c G). destruct (w_atan (-1) n c G) as (s & Hs & O). change sq with (ar true) in O.
    assert (C2 : c * c <= / 4). { replace (c * c) with (Rabs c * Rabs c) by (rewrite <- Rabs_mult, Rabs_pos_eq; nra). assert (0 <= Rabs c) by apply Rabs_pos. nra. }
    split.
    + evar_last. apply (is_derive_minus (w_of (-1) (ar true) n) atanh_). exact D. apply atanh_derive. lra. reflexivity.
    + assert (D2 : w_D (-1) (ar true) n c - / (1 - c * c) = s * w_res (-1) (ar true) n c / (1 - c * c)).
      { apply Rmult_eq_reg_r with (1 - c * c); [|nra]. transitivity ((1 + -1 * (c * c)) * w_D (-1) (ar true) n c - 1). field; nra. rewrite O. field. nra. }
      rewrite D2. unfold Rdiv. rewrite Rabs_mult, one_res by auto. rewrite Rmult_comm. apply Rmult_le_compat; auto using Rabs_pos.
      rewrite Rabs_pos_eq. replace 2 with (/ / 2) by field. apply Rinv_le; lra. left; apply Rinv_0_lt_compat; lra.
  - unfold w_of, atanh_. unfold Rdiv. replace ((1 + 0) * / (1 - 0)) with 1 by field. rewrite ln_1. ring.
Qed.
Lemma tan_trunc n e rho cnt C x : (0 <= e <= 20)%Z -> (Z.of_nat n < 900)%Z -> call true false n e 0 cnt C rho = true ->
  Rabs x < IZR (Z.of_nat cnt) * bpow radix2 (- e) ->
  Rabs (atan (w_of (-1) (ar false) n x) - x) <= rv rho * Rabs x /\ 0 < ct (-1) (ar false) n 1 x.
Proof.
  intros He Hn T Hx. split. 2: apply (call_abs true false n e cnt C rho He Hn T x Hx).
  apply (mvt0 (fun x => atan (w_of (-1) (ar false) n x) - x) (fun x => w_D (-1) (ar false) n x / (1 + w_of (-1) (ar false) n x * w_of (-1) (ar false) n x) - 1)).
  - intros c Hc. destruct (call_abs true false n e cnt C rho He Hn T c ltac:(lra)) as (G & P & W). cbn [sgn_of] in * .
    assert (D := w_derive (-1) (ar false) n c G). destruct (w_tanh (-1) n c G) as (s & Hs & O). change ones with (ar false) in O.
    set (w := w_of (-1) (ar false) n c) in * . split.
    + evar_last. apply (is_derive_minus (fun x => atan (w_of (-1) (ar false) n x)) (fun x => x)).
      apply (is_derive_comp atan (w_of (-1) (ar false) n)). apply is_derive_atan. exact D. apply is_derive_id. reflexivity.
    + assert (D2 : w_D (-1) (ar false) n c / (1 + w * w) - 1 = s * w_res (-1) (ar false) n c / (1 + w * w)). { rewrite O. field. nra. }
      rewrite D2. unfold Rdiv. rewrite Rabs_mult, one_res by auto. rewrite <- (Rmult_1_r (rv rho)). apply Rmult_le_compat; auto using Rabs_pos.
      rewrite Rabs_pos_eq. rewrite <- Rinv_1. apply Rinv_le; nra. left; apply Rinv_0_lt_compat; nra.
  - unfold w_of, Rdiv. rewrite Rmult_0_l, atan_0. ring.
Qed.
Lemma tanh_trunc n e rho cnt C x : (0 <= e <= 20)%Z -> (Z.of_nat n < 900)%Z -> call false false n e 0 cnt C rho = true ->
  0 <= x < IZR (Z.of_nat cnt) * bpow radix2 (- e) ->
  let w := w_of 1 (ar false) n x in Rabs ((1 - w) / (1 + w) - exp (-2 * x)) <= 2 * rv rho * x /\ 0 < ct 1 (ar false) n 1 x /\ 0 <= w.
Proof.
  intros He Hn T (X0 & Hx). cbv zeta.
  assert (All : forall c, 0 <= c <= x -> good0 1 (ar false) n c /\ 0 < ct 1 (ar false) n 1 c /\ Rabs (w_res 1 (ar false) n c) <= rv rho /\ 0 <= w_of 1 (ar false) n c).
  { intros c Hc. destruct (call_abs false false n e cnt C rho He Hn T c) as (G & P & W). rewrite Rabs_pos_eq; lra. cbn [sgn_of] in * . repeat split; auto; try apply G.
    unfold w_of. apply Rmult_le_pos. lra. left; apply Rinv_0_lt_compat; auto. }
  destruct (All x ltac:(lra)) as (_ & P & _ & W0). split; [|auto].
  set (w := w_of 1 (ar false) n). set (z := fun x => (1 - w x) / (1 + w x) * exp (2 * x)).
  set (z' := fun x => (1 - w x) / (1 + w x) * (2 * exp (2 * x)) - 2 * w_D 1 (ar false) n x / ((1 + w x) * (1 + w x)) * exp (2 * x)).
  assert (M : Rabs (z x - z 0) <= 2 * rv rho * exp (2 * x) * Rabs (x - 0)).
  { apply (mvt z z'). intros c Hc. rewrite Rmin_left, Rmax_right in Hc by lra. destruct (All c Hc) as (G & _ & W & Wc).
    assert (D := w_derive 1 (ar false) n c G). destruct (w_tanh 1 n c G) as (s & Hs & O). change ones with (ar false) in O.
    assert (ED : ex_derive w c) by (eexists; exact D). assert (DD : Derive w c = w_D 1 (ar false) n c) by (apply is_derive_unique; auto). fold w in Wc, O. split.
    - unfold z, z'. auto_derive. repeat split; auto. lra.
      match goal with |- context [Derive ?g c] => change (Derive g c) with (Derive w c) end. rewrite DD. field. lra.
    - unfold z'. rewrite O. replace ((1 - w c) / (1 + w c) * (2 * exp (2 * c)) - 2 * (1 - 1 * (w c * w c) + s * w_res 1 (ar false) n c) / ((1 + w c) * (1 + w c)) * exp (2 * c))
        with (s * w_res 1 (ar false) n c * (- 2 / ((1 + w c) * (1 + w c)) * exp (2 * c))) by (field; lra).
      rewrite Rabs_mult, one_res by auto. replace (2 * rv rho * exp (2 * x)) with (rv rho * (2 * exp (2 * x))) by ring. apply Rmult_le_compat; auto using Rabs_pos.
      assert (Ec := exp_pos (2 * c)). rewrite Rabs_mult, (Rabs_pos_eq (exp _)) by lra.
      assert (E2 : exp (2 * c) <= exp (2 * x)). { destruct (Req_dec c x) as [->|]. lra. left. apply exp_increasing. lra. }
      apply Rmult_le_compat; auto using Rabs_pos. lra. unfold Rdiv. rewrite Rabs_mult, Rabs_left, Rabs_pos_eq by (try lra; left; apply Rinv_0_lt_compat; nra).
      assert (/ ((1 + w c) * (1 + w c)) <= / 1) by (apply Rinv_le; nra). rewrite Rinv_1 in H. lra. }
  assert (Z0 : z 0 = 1). { unfold z, w, w_of. unfold Rdiv. rewrite Rmult_0_l, Rmult_0_r, exp_0, Rminus_0_r, Rplus_0_r. field. }
  rewrite Z0, Rminus_0_r, (Rabs_pos_eq x) in M by lra. fold w. assert (Ex := exp_pos (2 * x)).
  replace ((1 - w x) / (1 + w x) - exp (-2 * x)) with ((z x - 1) * / exp (2 * x)).
  - rewrite Rabs_mult, (Rabs_pos_eq (/ _)) by (left; apply Rinv_0_lt_compat; auto). apply Rmult_le_reg_r with (exp (2 * x)); auto.
    rewrite Rmult_assoc, Rinv_l, Rmult_1_r by lra. eapply Rle_trans. exact M. right. ring.
  - unfold z. replace (-2 * x) with (- (2 * x)) by ring. rewrite exp_Ropp. fold w in W0. field. split; lra.
Qed.
