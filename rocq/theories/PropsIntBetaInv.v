(** * incomplete_beta_inv of three integral arguments (C139). *)
From Verif Require Import Base ModelBasic ModelInt ModelElem ModelSpecial ModelApi ModelMore IntBetaInv.
Open Scope Z_scope.

(** C139: with a, b, p all of type int (or all of a 64-bit signed type), p = 0 and p = 1 are
    undefined behaviour whatever a, b >= 1 are and whatever the code after the starting value does *)
Theorem C139_incomplete_beta_inv_integers_refuted : forall v t r1 r2 r3 a b p, t = I32 \/ t = I64 -> in_range t a -> in_range t b -> 1 <= a -> 1 <= b -> p = 0 \/ p = 1 ->
  exists w, gcem_incomplete_beta_inv_int v t r1 r2 r3 a b p = Ub w.
Proof. exact ibinv_int_ub. Qed.
Print Assumptions C139_incomplete_beta_inv_integers_refuted.
Example C139_ex : exists w, gcem_incomplete_beta_inv_int Cxx14 I32 (fun z => Ok z) (fun _ => Ok 0) (fun z => Ok z) 2 3 1 = Ub w.
Proof. apply C139_incomplete_beta_inv_integers_refuted; auto; unfold in_range; try lia; vm_compute; split; discriminate. Qed.
