(** * Checked error bounds of the continued fraction of erf over [0, 2.1001] *)
From Verif Require Import Base FltLemmas ConvLemmas.
From Coq Require Import Lra Psatz PrimFloat.
From Coquelicot Require Import Coquelicot.
From Verif Require Import RangeProofs PF FPErr CFBound ErfReal ErfBound.
Open Scope R_scope.

Definition R100 : pf := 0x1p-100%float.
Lemma run1 : eall 59 8 0 129 4%float R100 = true.
Proof. vm_compute. reflexivity. Qed.
Lemma run2 : eall 59 8 128 129 27%float R100 = true.
Proof. vm_compute. reflexivity. Qed.
Lemma run3 : eall 59 11 2047 1026 450%float R100 = true.
Proof. vm_compute. reflexivity. Qed.
Lemma run4 : eall 59 11 3071 (Z.to_nat 617) 45300%float R100 = true.
Proof. vm_compute. reflexivity. Qed.
Lemma run5 : eall 59 12 7372 (Z.to_nat 495) 45300%float R100 = true.
Proof. vm_compute. reflexivity. Qed.
Lemma run6 : eall 59 13 15720 (Z.to_nat 545) 45300%float R100 = true.
Proof. vm_compute. reflexivity. Qed.
Lemma run7 : eall 59 14 32505 (Z.to_nat 760) 45300%float R100 = true.
Proof. vm_compute. reflexivity. Qed.
Lemma run8 : eall 59 15 66486 (Z.to_nat 1185) 45300%float R100 = true.
Proof. vm_compute. reflexivity. Qed.
Lemma run9 : eall 59 16 135266 (Z.to_nat 1710) 45300%float R100 = true.
Proof. vm_compute. reflexivity. Qed.
Lemma run10 : eall 59 17 273809 (Z.to_nat 1490) 45300%float R100 = true.
Proof. vm_compute. reflexivity. Qed.
Lemma R100_val : rv R100 = bpow radix2 (-100).
Proof. destruct (lit R100 4503599627370496 (-152) eq_refl) as (_ & V). rewrite V. cbn. lra. Qed.
Lemma pf4 : rv 4%float = 4.
Proof. change 4%float with (ofZd 4). apply ofZ_val. reflexivity. Qed.
Lemma pf27 : rv 27%float = 27.
Proof. change 27%float with (ofZd 27). apply ofZ_val. reflexivity. Qed.
Lemma pf450 : rv 450%float = 450.
Proof. change 450%float with (ofZd 450). apply ofZ_val. reflexivity. Qed.
Lemma pf45300 : rv 45300%float = 45300.
Proof. change 45300%float with (ofZd 45300). apply ofZ_val. reflexivity. Qed.
