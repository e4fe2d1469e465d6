(** * The polynomial operations of PolyPos on machine-word integers

    Same functions on [bigZ]; only used to evaluate the positivity test fast. *)
From Coq Require Import ZArith List Bool.
From Bignums Require Import BigZ.
From Verif Require Import PolyPos.
Import ListNotations.
Open Scope bigZ_scope.

Definition bpoly := list bigZ.
Definition toP (p : bpoly) : poly := map BigZ.to_Z p.
Definition ofP (p : poly) : bpoly := map BigZ.of_Z p.
Fixpoint badd (p q : bpoly) : bpoly :=
  match p, q with
  | [], _ => q
  | _, [] => p
  | a :: p', b :: q' => (a + b) :: badd p' q'
  end.
Definition bscale (c : bigZ) (p : bpoly) : bpoly := map (BigZ.mul c) p.
Fixpoint bmul (p q : bpoly) : bpoly :=
  match p with
  | [] => []
  | a :: p' => badd (bscale a q) (0 :: bmul p' q)
  end.
Definition bsub (p q : bpoly) : bpoly := badd p (bscale (-1) q).
Fixpoint bshift (a : bigZ) (p : bpoly) : bpoly :=
  match p with
  | [] => []
  | c :: p' => let q := bshift a p' in badd (c :: q) (bscale a q)
  end.
Fixpoint bdil (w m : bigZ) (p : bpoly) : bpoly :=
  match p with [] => [] | c :: p' => (m * c) :: bdil w (m * w) p' end.
Definition bnonneg (p : bpoly) : bool := forallb (BigZ.leb 0) p.
Definition brdil (d : bigZ) (p : bpoly) : bpoly := rev (bdil d 1 (rev p)).
Definition bon_seg (a b : bigZ) (r : bpoly) : bool := bnonneg (rev (bshift 1 (rev (bdil (b - a) 1 (bshift a r))))).
(** [r] is the polynomial already dilated by the denominator *)
Fixpoint bon_all (a : bigZ) (bs : list bigZ) (r : bpoly) : bool :=
  match bs with
  | [] => bnonneg (bshift a r)
  | b :: bs' => ((a <? b) && bon_seg a b r && bon_all b bs' r)%bool
  end.

Lemma toP_of p : toP (ofP p) = p.
Proof. unfold toP, ofP. rewrite map_map. rewrite <- (map_id p) at 2. apply map_ext. apply BigZ.spec_of_Z. Qed.
Lemma toP_add p : forall q, toP (badd p q) = padd (toP p) (toP q).
Proof. induction p as [|a p IH]; intros [|b q]; cbn [badd toP map padd]; auto. rewrite BigZ.spec_add. f_equal. apply IH. Qed.
Lemma toP_scale c p : toP (bscale c p) = pscale (BigZ.to_Z c) (toP p).
Proof. unfold toP, bscale, pscale. rewrite !map_map. apply map_ext. intros x. apply BigZ.spec_mul. Qed.
Lemma toP_mul p q : toP (bmul p q) = pmul (toP p) (toP q).
Proof. induction p as [|a p IH]; cbn [bmul]. reflexivity. rewrite toP_add, toP_scale. cbn [toP map pmul]. f_equal. f_equal. apply IH. Qed.
Lemma toP_sub p q : toP (bsub p q) = psub (toP p) (toP q).
Proof. unfold bsub, psub. rewrite toP_add, toP_scale. reflexivity. Qed.
Lemma toP_shift a p : toP (bshift a p) = pshift (BigZ.to_Z a) (toP p).
Proof. induction p as [|c p IH]; cbn [bshift]. reflexivity. cbv zeta. rewrite toP_add, toP_scale. cbn [toP map pshift]. cbv zeta. change (map BigZ.to_Z (bshift a p)) with (toP (bshift a p)). rewrite IH. reflexivity. Qed.
Lemma toP_dil w p : forall m, toP (bdil w m p) = pdil (BigZ.to_Z w) (BigZ.to_Z m) (toP p).
Proof. induction p as [|c p IH]; intros m; cbn [bdil toP map pdil]. reflexivity. rewrite BigZ.spec_mul. f_equal. change (toP (bdil w (m * w) p) = pdil (BigZ.to_Z w) (BigZ.to_Z m * BigZ.to_Z w) (toP p)). rewrite IH, BigZ.spec_mul. reflexivity. Qed.
Lemma toP_rev p : toP (rev p) = rev (toP p). Proof. apply map_rev. Qed.
Lemma bnonneg_ok p : bnonneg p = pnonneg (toP p).
Proof. unfold bnonneg, pnonneg. induction p as [|c p IH]; cbn; auto. rewrite BigZ.spec_leb, IH. reflexivity. Qed.
Lemma bon_all_ok d bs : forall a p, bon_all a bs (brdil d p) = on_all (BigZ.to_Z d) (BigZ.to_Z a) (map BigZ.to_Z bs) (toP p).
Proof.
  induction bs as [|b bs IH]; intros a p; cbn [bon_all on_all map].
  - unfold on_ray, brdil. rewrite bnonneg_ok, toP_shift, toP_rev, toP_dil, toP_rev. reflexivity.
  - rewrite BigZ.spec_ltb, IH. f_equal. f_equal. unfold bon_seg, on_seg, pmob, brdil. rewrite bnonneg_ok, toP_rev, toP_shift, toP_rev, toP_dil, toP_shift, toP_rev, toP_dil, toP_rev, BigZ.spec_sub. reflexivity.
Qed.
(** constants, so that users need not open the [bigZ] notations *)
Definition b0 : bigZ := 0.
Definition b1 : bigZ := 1.
Definition bm1 : bigZ := -1.
Definition b2 : bigZ := 2.
Definition b128 : bigZ := 128.
Definition bE17 : bigZ := 100000000000000000.
Definition bmulZ (a b : bigZ) : bigZ := a * b.
Lemma bmulZ_ok a b : BigZ.to_Z (bmulZ a b) = (BigZ.to_Z a * BigZ.to_Z b)%Z.
Proof. apply BigZ.spec_mul. Qed.
Definition bpts : list bigZ := 1 :: 2 :: 4 :: 8 :: 16 :: 32 :: 64 :: 128 :: 192 :: 256 :: nil.
