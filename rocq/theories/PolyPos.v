(** * Polynomials with integer coefficients, and a positivity test

    Used to bound the truncation error of the log-gamma approximation: the
    second derivative of the error is a rational function whose sign is decided
    by the coefficients of the polynomial after a substitution. *)
From Coq Require Import ZArith Reals Lra List Bool Psatz.
From Coquelicot Require Import Coquelicot.
Import ListNotations.
Open Scope Z_scope.

Definition poly := list Z.
Fixpoint padd (p q : poly) : poly :=
  match p, q with
  | [], _ => q
  | _, [] => p
  | a :: p', b :: q' => (a + b) :: padd p' q'
  end.
Definition pscale (c : Z) (p : poly) : poly := map (Z.mul c) p.
Fixpoint pmul (p q : poly) : poly :=
  match p with
  | [] => []
  | a :: p' => padd (pscale a q) (0 :: pmul p' q)
  end.
Definition psub (p q : poly) : poly := padd p (pscale (-1) q).
(** p(x + a) *)
Fixpoint pshift (a : Z) (p : poly) : poly :=
  match p with
  | [] => []
  | c :: p' => let q := pshift a p' in padd (c :: q) (pscale a q)
  end.
(** p' (derivative), with the first coefficient having exponent [n] *)
Fixpoint pder_from (n : Z) (p : poly) : poly :=
  match p with [] => [] | c :: p' => (n * c) :: pder_from (n + 1) p' end.
Definition pder (p : poly) : poly := match p with [] => [] | _ :: p' => pder_from 1 p' end.
(** p(w x), and d^(deg p) p(x / d) *)
Fixpoint pdil (w m : Z) (p : poly) : poly :=
  match p with [] => [] | c :: p' => (m * c) :: pdil w (m * w) p' end.
(** sum of a_i t^i (1+t)^(n-i), n = degree *)
Definition pmob (p : poly) : poly := rev (pshift 1 (rev p)).
Definition pnonneg (p : poly) : bool := forallb (Z.leb 0) p.

Open Scope R_scope.
Fixpoint pev (p : poly) (x : R) : R :=
  match p with [] => 0 | a :: p' => IZR a + x * pev p' x end.

Lemma pev_add p q x : pev (padd p q) x = pev p x + pev q x.
Proof.
  revert q; induction p as [|a p IH]; intros q; cbn. lra.
  destruct q as [|b q]; cbn. lra. rewrite IH, plus_IZR. ring.
Qed.
Lemma pev_scale c p x : pev (pscale c p) x = IZR c * pev p x.
Proof. unfold pscale. induction p as [|a p IH]; cbn. ring. rewrite IH, mult_IZR. ring. Qed.
Lemma pev_mul p q x : pev (pmul p q) x = pev p x * pev q x.
Proof. induction p as [|a p IH]; cbn. ring. rewrite pev_add, pev_scale. cbn. rewrite IH. ring. Qed.
Lemma pev_sub p q x : pev (psub p q) x = pev p x - pev q x.
Proof. unfold psub. rewrite pev_add, pev_scale. ring. Qed.
Lemma pev_shift a p x : pev (pshift a p) x = pev p (x + IZR a).
Proof. induction p as [|c p IH]. reflexivity. cbn [pshift]. cbv zeta. rewrite pev_add, pev_scale. cbn. rewrite IH. ring. Qed.
Lemma pev_dil w m p x : pev (pdil w m p) x = IZR m * pev p (IZR w * x).
Proof. revert m; induction p as [|c p IH]; intros m; cbn. ring. rewrite IH, !mult_IZR. ring. Qed.

Lemma pder_from_S n p x : pev (pder_from (n + 1) p) x = pev (pder_from n p) x + pev p x.
Proof. revert n; induction p as [|c p IH]; intros n; cbn. ring. rewrite IH, !mult_IZR, plus_IZR. ring. Qed.
Lemma pder_cons c p x : pev (pder (c :: p)) x = pev p x + x * pev (pder p) x.
Proof.
  cbn. replace 1%Z with (0 + 1)%Z by reflexivity. rewrite pder_from_S.
  destruct p as [|d p]; cbn. ring. ring_simplify. replace (0 + 1)%Z with 1%Z by reflexivity. ring.
Qed.
Lemma pev_derive p x : is_derive (pev p) x (pev (pder p) x).
Proof.
  induction p as [|c p IH].
  - apply (is_derive_const 0).
  - rewrite pder_cons. apply (is_derive_ext (fun x => IZR c + x * pev p x)). reflexivity.
    evar_last. apply (is_derive_plus (fun _ => IZR c) (fun x => x * pev p x)). apply is_derive_const.
    apply (is_derive_mult (fun x => x) (pev p)). apply is_derive_id. exact IH. intros; apply Rmult_comm.
    unfold plus, zero, mult, one; cbn. ring.
Qed.

Lemma pnonneg_ev p x : pnonneg p = true -> 0 <= x -> 0 <= pev p x.
Proof.
  intros H Hx. induction p as [|c p IH]; cbn in *. lra.
  apply andb_prop in H as (H1 & H2). apply Z.leb_le in H1. apply IZR_le in H1.
  assert (0 <= x * pev p x) by (apply Rmult_le_pos; auto). lra.
Qed.
(** with nonnegative coefficients, x p'(x) ≤ n p(x) *)
Lemma pder_le p x n : pnonneg p = true -> 0 <= x -> (length p <= S n)%nat -> 0 <= x * pev (pder p) x <= INR n * pev p x.
Proof.
  intros H Hx. revert n. induction p as [|c p IH]; intros n Hn.
  - cbn. pose proof (pos_INR n). lra.
  - cbn in H. apply andb_prop in H as (H1 & H2). apply Z.leb_le in H1. apply IZR_le in H1. rewrite pder_cons. cbn [pev].
    assert (P0 := pnonneg_ev p x H2 Hx). pose proof (pos_INR n).
    destruct n as [|n].
    + destruct p. cbn. lra. cbn in Hn. exfalso. lia.
    + destruct (IH H2 n) as (I1 & I2). cbn in Hn. lia. rewrite S_INR in *.
      assert (0 <= x * pev p x) by (apply Rmult_le_pos; auto).
      assert (x * (x * pev (pder p) x) <= x * (INR n * pev p x)) by (apply Rmult_le_compat_l; auto).
      assert (0 <= x * (x * pev (pder p) x)) by (apply Rmult_le_pos; auto).
      assert (0 <= (INR n + 1) * IZR c) by (apply Rmult_le_pos; lra). lra.
Qed.

(** ** Substitution x = t / (1 + t) *)
Lemma pev_app p q x : pev (p ++ q) x = pev p x + x ^ length p * pev q x.
Proof. induction p as [|c p IH]; cbn. ring. rewrite IH. ring. Qed.
Lemma pdil_len w m p : length (pdil w m p) = length p.
Proof. revert m; induction p; intros m; cbn; auto. Qed.
Lemma padd_len p q : (length q <= length p)%nat -> length (padd p q) = length p.
Proof. revert q; induction p as [|c p IH]; intros [|d q] H; cbn in *; try lia. rewrite IH; lia. Qed.
Lemma pshift_len a p : length (pshift a p) = length p.
Proof.
  induction p as [|c p IH]; cbn [pshift length]. reflexivity. cbv zeta. rewrite padd_len. cbn. rewrite IH. reflexivity.
  unfold pscale. rewrite map_length. cbn. lia.
Qed.
Lemma prev_ev p y : y <> 0 -> pev (rev p) y * y = y ^ length p * pev p (1 / y).
Proof.
  intros Hy. induction p as [|c p IH]; cbn [rev]. cbn. ring.
  rewrite pev_app, Rmult_plus_distr_r, IH, rev_length. cbn [pev length pow]. field. auto.
Qed.
Lemma pmob_ev p t : 0 < t -> pev (pmob p) t * (1 + t) = (1 + t) ^ length p * pev p (t / (1 + t)).
Proof.
  intros Ht. unfold pmob. assert (A := prev_ev (pshift 1 (rev p)) t ltac:(lra)). rewrite pshift_len, rev_length, pev_shift in A.
  assert (J : 0 < 1 / t) by (apply Rdiv_lt_0_compat; lra).
  assert (B := prev_ev p (1 / t + 1) ltac:(lra)). replace (1 / (1 / t + 1)) with (t / (1 + t)) in B by (field; lra).
  replace ((1 + t) ^ length p) with (t ^ length p * (1 / t + 1) ^ length p). 2:{ rewrite <- Rpow_mult_distr. f_equal. field. lra. }
  rewrite Rmult_assoc, <- B. replace (1 + t) with (t * (1 / t + 1)) by (field; lra).
  rewrite <- !Rmult_assoc, A. reflexivity.
Qed.

(** p ≥ 0 on [a/d, b/d] *)
Definition on_seg (d a b : Z) (p : poly) : bool :=
  pnonneg (pmob (pdil (b - a) 1 (pshift a (rev (pdil d 1 (rev p)))))).
(** p ≥ 0 on [a/d, ∞) *)
Definition on_ray (d a : Z) (p : poly) : bool := pnonneg (pshift a (rev (pdil d 1 (rev p)))).

(** reversing, dilating by d, reversing: d^(n-1) p(x/d) *)
Lemma rdil_ev d p x : IZR d <> 0 -> pev (rev (pdil d 1 (rev p))) x * IZR d = IZR d ^ length p * pev p (x / IZR d).
Proof.
  intros Hd. assert (G : forall q m, pev (rev (pdil d m q)) x * IZR d = IZR m * IZR d ^ length q * pev (rev q) (x / IZR d)).
  { induction q as [|c q IH]; intros m; cbn [pdil rev]. cbn. ring.
    rewrite !pev_app, Rmult_plus_distr_r, IH, !rev_length, pdil_len, mult_IZR. cbn [pev length pow]. rewrite mult_IZR.
    replace (x ^ length q) with (IZR d ^ length q * (x / IZR d) ^ length q). ring.
    rewrite <- Rpow_mult_distr. f_equal. field. auto. }
  rewrite G, rev_length, rev_involutive. ring.
Qed.
Lemma on_ray_ok d a p x : on_ray d a p = true -> (0 < d)%Z -> IZR a / IZR d <= x -> 0 <= pev p x.
Proof.
  intros H Hd Hx. apply IZR_lt in Hd. unfold on_ray in H.
  assert (P := pnonneg_ev _ (x * IZR d - IZR a) H). rewrite pev_shift in P. replace (x * IZR d - IZR a + IZR a) with (x * IZR d) in P by ring.
  assert (E := rdil_ev d p (x * IZR d) ltac:(lra)). replace (x * IZR d / IZR d) with x in E by (field; lra).
  assert (0 <= x * IZR d - IZR a). { apply (Rmult_le_compat_r (IZR d)) in Hx; [|lra]. replace (IZR a / IZR d * IZR d) with (IZR a) in Hx by (field; lra). lra. }
  specialize (P H0). apply (Rmult_le_compat_r (IZR d)) in P; [|lra]. rewrite E, Rmult_0_l in P.
  assert (0 < IZR d ^ length p) by (apply pow_lt; auto). apply (Rmult_le_reg_l (IZR d ^ length p)); auto. lra.
Qed.
Lemma pev_at_left p a b : a < b -> (forall x, a < x < b -> 0 <= pev p x) -> 0 <= pev p a.
Proof.
  intros Hab H. destruct (Rle_or_lt 0 (pev p a)) as [|N]; auto. exfalso.
  assert (C : continuity_pt (pev p) a). { apply continuity_pt_filterlim. apply (ex_derive_continuous (pev p)). eexists. apply pev_derive. }
  destruct (C (- pev p a) ltac:(lra)) as (alp & A1 & A2). set (x := a + Rmin (alp / 2) ((b - a) / 2)).
  assert (M1 := Rmin_l (alp / 2) ((b - a) / 2)). assert (M2 := Rmin_r (alp / 2) ((b - a) / 2)). assert (0 < Rmin (alp / 2) ((b - a) / 2)) by (apply Rmin_glb_lt; lra).
  assert (Q := H x ltac:(unfold x; lra)). specialize (A2 x). cbn in A2. unfold R_dist in A2.
  assert (T : Rabs (pev p x - pev p a) < - pev p a). { apply A2. split. split. exact I. unfold x. lra. unfold x. replace (a + Rmin (alp / 2) ((b - a) / 2) - a) with (Rmin (alp / 2) ((b - a) / 2)) by ring. rewrite Rabs_pos_eq; lra. }
  apply Rabs_lt_between in T. lra.
Qed.
Lemma on_seg_in d a b p x : on_seg d a b p = true -> (0 < d)%Z -> IZR a / IZR d < x < IZR b / IZR d -> 0 <= pev p x.
Proof.
  intros H Hd (Hx1 & Hx2). apply IZR_lt in Hd. unfold on_seg in H.
  apply (Rmult_lt_compat_r (IZR d)) in Hx1; [|lra]. replace (IZR a / IZR d * IZR d) with (IZR a) in Hx1 by (field; lra).
  apply (Rmult_lt_compat_r (IZR d)) in Hx2; [|lra]. replace (IZR b / IZR d * IZR d) with (IZR b) in Hx2 by (field; lra).
  set (y := x * IZR d) in *. set (t := (y - IZR a) / (IZR b - y)).
  assert (Ht : 0 < t). { apply Rdiv_lt_0_compat; lra. }
  assert (P := pnonneg_ev _ t H ltac:(lra)).
  set (q := pdil (b - a) 1 (pshift a (rev (pdil d 1 (rev p))))) in *.
  assert (M := pmob_ev q t Ht). unfold q in M at 3. rewrite pev_dil, pev_shift, minus_IZR in M.
  replace ((IZR b - IZR a) * (t / (1 + t)) + IZR a) with y in M.
  2:{ unfold t. field. lra. }
  assert (E := rdil_ev d p y ltac:(lra)). replace (y / IZR d) with x in E by (unfold y; field; lra).
  assert (0 < (1 + t) ^ length q) by (apply pow_lt; lra). rewrite Rmult_1_l in M.
  assert (0 <= pev (pmob q) t * (1 + t)) by (apply Rmult_le_pos; lra).
  assert (P2 : 0 <= pev (rev (pdil d 1 (rev p))) y) by (apply (Rmult_le_reg_l ((1 + t) ^ length q)); auto; lra).
  apply (Rmult_le_compat_r (IZR d)) in P2; [|lra]. rewrite E, Rmult_0_l in P2.
  assert (0 < IZR d ^ length p) by (apply pow_lt; auto). apply (Rmult_le_reg_l (IZR d ^ length p)); auto. lra.
Qed.
Lemma on_seg_ok d a b p x : on_seg d a b p = true -> (0 < d)%Z -> (a < b)%Z -> IZR a / IZR d <= x < IZR b / IZR d -> 0 <= pev p x.
Proof.
  intros H Hd Hab (Hx1 & Hx2). destruct (Req_dec (IZR a / IZR d) x) as [<-|N].
  - apply (pev_at_left p _ (IZR b / IZR d)). auto. intros y Hy. apply (on_seg_in d a b); auto.
  - apply (on_seg_in d a b); auto. lra.
Qed.
(** p ≥ 0 on [a0/d, ∞), through the breakpoints [bs] *)
Fixpoint on_all (d a : Z) (bs : list Z) (p : poly) : bool :=
  match bs with
  | [] => on_ray d a p
  | b :: bs' => ((a <? b)%Z && on_seg d a b p && on_all d b bs' p)%bool
  end.
Lemma on_all_ok d a bs p x : on_all d a bs p = true -> (0 < d)%Z -> IZR a / IZR d <= x -> 0 <= pev p x.
Proof.
  revert a; induction bs as [|b bs IH]; intros a H Hd Hx; cbn in H.
  - apply (on_ray_ok d a); auto.
  - apply andb_prop in H as (H & H3). apply andb_prop in H as (H1 & H2). apply Z.ltb_lt in H1.
    destruct (Rlt_or_le x (IZR b / IZR d)). apply (on_seg_ok d a b); auto. apply (IH b); auto.
Qed.
