(** * beta against tgamma *)
From Verif Require Import Base ModelBasic ModelInt ModelElem ModelSpecial ModelApi FltLemmas Spec SpecGamma IntProofs BasicProofs ConvLemmas MiscProofs ExpAcc.
From Coq Require Import Lra Psatz.
From Coquelicot Require Import Coquelicot.
From Verif Require Import Base ModelBasic FPErr LogAcc GammaInt GammaApi BetaAcc BetaApi RoundTrip LogExpLaws.
From Verif Require Import Base ModelBasic ModelInt ModelElem ModelSpecial ModelApi TotalProofs.
From Interval Require Import Tactic.
Open Scope R_scope.

Lemma rel_factor w W e : W <> 0 -> rel_err w W e -> exists d, w = W * (1 + d) /\ Rabs d <= e.
Proof.
  intros N E. exists ((w - W) / W). split. field; auto. unfold rel_err in E. unfold Rdiv. rewrite Rabs_mult, Rabs_inv. assert (P := Rabs_pos_lt _ N). apply Rmult_le_reg_r with (Rabs W); auto. rewrite Rmult_assoc, Rinv_l by lra. lra.
Qed.
Lemma four_factors dw dc da db ew ec ea eb : Rabs dw <= ew -> Rabs dc <= ec -> Rabs da <= ea -> Rabs db <= eb -> ew + ec + ea + eb <= / 1000 ->
  Rabs ((1 + dw) * (1 + dc) - (1 + da) * (1 + db)) <= 1004 / 1000 * (ew + ec + ea + eb) * Rabs ((1 + da) * (1 + db)).
Proof.
  intros A B C D E. assert (A0 := Rabs_pos dw). assert (B0 := Rabs_pos dc). assert (C0 := Rabs_pos da). assert (D0 := Rabs_pos db).
  set (s := ew + ec + ea + eb) in * . assert (A1 := Rabs_le_inv _ _ A). assert (B1 := Rabs_le_inv _ _ B). assert (C1 := Rabs_le_inv _ _ C). assert (D1 := Rabs_le_inv _ _ D).
  assert (P1 : Rabs (dw * dc) <= / 1000 * ec). { rewrite Rabs_mult. apply Rmult_le_compat; auto; unfold s in E; lra. } assert (P2 : Rabs (da * db) <= / 1000 * eb). { rewrite Rabs_mult. apply Rmult_le_compat; auto; unfold s in E; lra. }
  apply Rabs_le_inv in P1. apply Rabs_le_inv in P2.
  assert (L : 998 / 1000 <= Rabs ((1 + da) * (1 + db))). { eapply Rle_trans; [|apply RRle_abs]. unfold s in E. lra. }
  apply Rle_trans with (1004 / 1000 * s * (998 / 1000)). 2: apply Rmult_le_compat_l; [unfold s; lra|exact L]. apply Rabs_le. unfold s in * . lra.
Qed.
Lemma beta_tgamma : forall v n f (a b c : flt f), finite a = true -> finite b = true -> finite c = true -> / 2 <= B2R a -> / 2 <= B2R b -> B2R c = B2R a + B2R b -> B2R c <= match f with F32 => 32 | F64 => 170 | F80 => 1754 end ->
  exists w ga gb gc : flt f, rmap (AFlt _) (gcem_beta v (AFlt f a) (AFlt f b)) = Ok (AFlt f w) /\ gcem_tgamma v (S n) (AFlt f a) = Ok ga /\ gcem_tgamma v (S n) (AFlt f b) = Ok gb /\ gcem_tgamma v (S n) (AFlt f c) = Ok gc /\
  finite w = true /\ finite ga = true /\ finite gb = true /\ finite gc = true /\
  rel_err (B2R w * B2R gc) (B2R ga * B2R gb) ((66 * (B2R c * ln (B2R c + 5)) + 780) * bpow radix2 (- prec f) + (8 * B2R c + 35) * bpow radix2 (-54)).
Proof.
  intros v n f a b c Fa Fb Fc A B E C. assert (C' := C). fold (glim f) in C. change (bpow radix2 (- prec f)) with (uf f). destruct (uf_sm f) as (u0 & u1). set (q := bpow radix2 (-54)). assert (q0 : 0 < q <= / 1000000000) by (split; [apply bpow_gt_0|unfold q; cbn; lra]).
  assert (GA : exists g : flt f, gcem_tgamma v (S n) (AFlt f a) = Ok g /\ finite g = true /\ rel_err (B2R g) (Gamma (B2R a)) ((15 * B2R a * ln (B2R a + 5) + 165) * uf f + (2 * B2R a + 5) * q)) by (apply (api_tgamma v n f a Fa); fold (glim f); lra).
  assert (GB : exists g : flt f, gcem_tgamma v (S n) (AFlt f b) = Ok g /\ finite g = true /\ rel_err (B2R g) (Gamma (B2R b)) ((15 * B2R b * ln (B2R b + 5) + 165) * uf f + (2 * B2R b + 5) * q)) by (apply (api_tgamma v n f b Fb); fold (glim f); lra).
  assert (GC : exists g : flt f, gcem_tgamma v (S n) (AFlt f c) = Ok g /\ finite g = true /\ rel_err (B2R g) (Gamma (B2R c)) ((15 * B2R c * ln (B2R c + 5) + 165) * uf f + (2 * B2R c + 5) * q)) by (apply (api_tgamma v n f c Fc); fold (glim f); lra).
  assert (BB : exists w : flt f, rmap (AFlt _) (gcem_beta v (AFlt f a) (AFlt f b)) = Ok (AFlt f w) /\ finite w = true /\ rel_err (B2R w) (Beta (B2R a) (B2R b)) ((35 * ((B2R a + B2R b) * ln (B2R a + B2R b + 5)) + 280) * uf f + (3 * (B2R a + B2R b) + 15) * q)).
  { apply (api_beta v f a b Fa Fb A B). rewrite <- E. exact C'. }
  destruct GA as (ga & Ea & Fga & Ra). destruct GB as (gb & Eb & Fgb & Rb). destruct GC as (gc & Ec & Fgc & Rc). destruct BB as (w & Ew & Fw & Rw). exists w, ga, gb, gc. do 8 (split; [assumption|]).
  rewrite <- E in Rw. unfold Beta in Rw. rewrite <- E in Rw. set (x := B2R a) in * . set (y := B2R b) in * . set (s := B2R c) in * .
  assert (Ga := Gamma_pos x ltac:(lra)). assert (Gb := Gamma_pos y ltac:(lra)). assert (Gc := Gamma_pos s ltac:(lra)).
  assert (Gw : 0 < Gamma x * Gamma y / Gamma s) by (apply Rdiv_lt_0_compat; [apply Rmult_lt_0_compat|]; auto).
  destruct (rel_factor _ _ _ (Rgt_not_eq _ _ Ga) Ra) as (da & Va & Da). destruct (rel_factor _ _ _ (Rgt_not_eq _ _ Gb) Rb) as (db & Vb & Db). destruct (rel_factor _ _ _ (Rgt_not_eq _ _ Gc) Rc) as (dc & Vc & Dc). destruct (rel_factor _ _ _ (Rgt_not_eq _ _ Gw) Rw) as (dw & Vw & Dw).
  assert (Ls : 0 <= ln (s + 5)) by (rewrite <- ln_1; apply ln_le; lra). assert (Lx : ln (x + 5) <= ln (s + 5)) by (apply ln_le; lra). assert (Ly : ln (y + 5) <= ln (s + 5)) by (apply ln_le; lra).
  set (K := s * ln (s + 5)) in * . assert (K0 : 0 <= K) by (apply Rmult_le_pos; lra). assert (KK : x * ln (x + 5) + y * ln (y + 5) <= K). { unfold K. assert (x * ln (x + 5) <= x * ln (s + 5)) by (apply Rmult_le_compat_l; lra). assert (y * ln (y + 5) <= y * ln (s + 5)) by (apply Rmult_le_compat_l; lra). replace (s * ln (s + 5)) with (x * ln (s + 5) + y * ln (s + 5)) by (rewrite <- Rmult_plus_distr_r, <- E; reflexivity). lra. }
  assert (P1 : K * uf f <= 7 / 1000000 /\ s <= 2000).
  { assert (G : K <= glim f * ln (glim f + 5)). { apply Rmult_le_compat; try lra. apply ln_le; lra. } split. 2: destruct f; unfold glim in *; lra.
    apply Rle_trans with (glim f * ln (glim f + 5) * uf f). apply Rmult_le_compat_r; lra. destruct f; unfold glim, uf; cbn [prec]. change (bpow radix2 (- (24))) with (/ 16777216). interval.
    apply Rle_trans with (170 * ln (170 + 5) * / 1125899906842624). apply Rmult_le_compat_l. interval. cbn; lra. interval. apply Rle_trans with (1754 * ln (1754 + 5) * / 1125899906842624). apply Rmult_le_compat_l. interval. cbn; lra. interval. }
  destruct P1 as (P1 & P2). assert (sq : s * q <= 2000 * / 1000000000) by (apply Rmult_le_compat; lra). assert (KU : (x * ln (x + 5) + y * ln (y + 5)) * uf f <= K * uf f) by (apply Rmult_le_compat_r; lra). assert (0 <= K * uf f) by (apply Rmult_le_pos; lra). assert (0 <= s * q) by (apply Rmult_le_pos; lra).
  assert (xyq : x * q + y * q = s * q) by (rewrite E; ring).
  set (ew := (35 * K + 280) * uf f + (3 * s + 15) * q) in * . set (ec := (15 * s * ln (s + 5) + 165) * uf f + (2 * s + 5) * q) in * . set (ea := (15 * x * ln (x + 5) + 165) * uf f + (2 * x + 5) * q) in * . set (eb := (15 * y * ln (y + 5) + 165) * uf f + (2 * y + 5) * q) in * .
  assert (ecK : ec = (15 * K + 165) * uf f + (2 * s + 5) * q) by (unfold ec, K; ring).
  assert (SUM : ew + ec + ea + eb <= (65 * K + 775) * uf f + (7 * s + 30) * q). { rewrite ecK. unfold ew, ea, eb. lra. }
  assert (F := four_factors dw dc da db ew ec ea eb Dw Dc Da Db ltac:(lra)). unfold rel_err. rewrite Vw, Vc, Va, Vb.
  replace (Gamma x * Gamma y / Gamma s * (1 + dw) * (Gamma s * (1 + dc)) - Gamma x * (1 + da) * (Gamma y * (1 + db))) with (Gamma x * Gamma y * ((1 + dw) * (1 + dc) - (1 + da) * (1 + db))) by (field; lra).
  replace (Gamma x * (1 + da) * (Gamma y * (1 + db))) with (Gamma x * Gamma y * ((1 + da) * (1 + db))) by ring. rewrite !(Rabs_mult (Gamma x * Gamma y)). assert (G0 := Rabs_pos (Gamma x * Gamma y)). set (GG := Rabs (Gamma x * Gamma y)) in * . set (T := Rabs ((1 + da) * (1 + db))) in * . assert (T0 : 0 <= T) by apply Rabs_pos.
  apply Rle_trans with (GG * (1004 / 1000 * (ew + ec + ea + eb) * T)). apply Rmult_le_compat_l; auto. rewrite <- Rmult_assoc, (Rmult_comm GG), Rmult_assoc. apply Rmult_le_compat_r. apply Rmult_le_pos; auto. lra.
Qed.
