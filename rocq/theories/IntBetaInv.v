(** * incomplete_beta_inv of three integral arguments *)
From Verif Require Import Base ModelBasic ModelInt ModelElem ModelSpecial ModelApi ModelMore FltLemmas IntProofs.
Open Scope Z_scope.

Lemma tval_ub v t p : t = I32 \/ t = I64 -> p = 0 \/ p = 1 -> ibinv_tval_int v t p = Ub UbCast.
Proof. intros [->| ->] [->| ->]; destruct v; vm_compute; reflexivity. Qed.
Lemma s_int t a b : t = I32 \/ t = I64 -> in_range t a -> in_range t b -> 1 <= a -> 1 <= b -> ibinv_s_int t a b = Ok 0 \/ ibinv_s_int t a b = Ub UbOverflow.
Proof.
  intros T Ra Rb A B. unfold ibinv_s_int, iadd, iarith. replace (isigned t) with true by (destruct T; subst; reflexivity).
  destruct (in_rangeb t (a + b)) eqn:E; [|right; reflexivity]. left. cbn [bind]. apply andb_prop in E. destruct E as (E1 & E2). apply Z.leb_le in E1, E2.
  assert (Q : Z.quot a (a + b) = 0) by (apply Z.quot_small; lia).
  assert (R0 : in_range t 0) by (unfold in_range, imin, imax; destruct T; subst; cbn; lia). 
  assert (RB : in_rangeb t 0 = true) by (destruct T; subst; reflexivity).
  assert (S : isigned t = true) by (destruct T; subst; reflexivity).
  assert (I : forall c d, d <> 0 -> Z.quot c d = 0 -> idiv t c d = Ok 0). { intros c d D H. unfold idiv. destruct (Z.eqb_spec d 0); [contradiction|]. rewrite H. unfold iarith. rewrite S, RB. reflexivity. }
  rewrite I by (auto; lia). cbn [bind]. assert (P : 0 ^ a = 0) by (apply Z.pow_0_l; lia).
  assert (W : wide t = true) by (destruct T; subst; reflexivity). assert (CM : common t t = t) by (destruct T; subst; reflexivity).
  rewrite pow_int_ok; rewrite ?CM, ?P; auto; try lia. cbn [bind]. apply I. lia. apply Z.quot_0_l. lia.
Qed.
Lemma ibinv_int_ub : forall v t r1 r2 r3 a b p, t = I32 \/ t = I64 -> in_range t a -> in_range t b -> 1 <= a -> 1 <= b -> p = 0 \/ p = 1 ->
  exists w, gcem_incomplete_beta_inv_int v t r1 r2 r3 a b p = Ub w.
Proof.
  intros v t r1 r2 r3 a b p T Ra Rb A B P. unfold gcem_incomplete_beta_inv_int.
  assert (E1 : (p <? imin t) = false) by (apply Z.ltb_ge; destruct T, P; subst; vm_compute; discriminate). rewrite E1.
  assert (E2 : isub t 1 p = Ok (1 - p)) by (destruct T, P; subst; reflexivity). rewrite E2. cbn [bind].
  assert (E3 : abs_int t (1 - p) = Ok (1 - p)) by (destruct T, P; subst; reflexivity). rewrite E3. cbn [bind].
  assert (E4 : (1 - p <? imin t) = false) by (apply Z.ltb_ge; destruct T, P; subst; vm_compute; discriminate). rewrite E4.
  assert (X : exists w, ibinv_initial_int v t r1 r2 a b p = Ub w).
  { unfold ibinv_initial_int. destruct ((1 <? a) && (1 <? b)). rewrite tval_ub by auto. eexists; reflexivity.
    rewrite E2. cbn [bind]. destruct (s_int t a b T Ra Rb A B) as [-> | ->]; destruct (s_int t b a T Rb Ra B A) as [-> | ->]; cbn [bind]; destruct (0 <? p); try (eexists; reflexivity).
    all: assert (Z2 : forall q, ibinv_val_2_int t r2 q 0 0 = Ub UbDivZero) by (intros q; destruct T; subst; reflexivity); rewrite Z2; eexists; reflexivity. }
  destruct X as (w & ->). exists w. reflexivity.
Qed.
