(** * Arguments with an exact or ordered result that the code misses *)
From Verif Require Import Base ModelBasic ModelInt ModelElem ModelApi FltLemmas.
From Coq Require Import Lra.
Open Scope R_scope.

(** Boolean tests that decide the statements by evaluation. *)
Definition less {f} (r : res (flt f)) (n m : Z) : bool :=
  match r with Ok w => finite w && (w <. ofZ f n) && match floor_check w with Ok z => finite z && (z ==. ofZ f m) | _ => false end | _ => false end.
Lemma less_inv f (r : res (flt f)) n m : less r n m = true -> (Z.abs n <= 16777216)%Z -> (Z.abs m <= 16777216)%Z ->
  exists w, r = Ok w /\ finite w = true /\ B2R w < IZR n /\ exists z, gcem_floor (AFlt f w) = Ok z /\ finite z = true /\ B2R z = IZR m.
Proof.
  unfold less. destruct r as [w| |]; try discriminate. intros H N M. destruct (finite w) eqn:F; [|discriminate]. cbn [andb] in H. destruct (w <. ofZ f n) eqn:L; [|discriminate]. cbn [andb] in H.
  destruct (ofZ_small f n N) as (Vn & Fn & _). destruct (ofZ_small f m M) as (Vm & Fm & _). apply flt_true_inv in L; auto. rewrite Vn in L. exists w. split; auto. split; auto. split; auto.
  change (gcem_floor (AFlt f w)) with (floor_check w). destruct (floor_check w) as [z| |]; try discriminate. destruct (finite z) eqn:Fz; [|discriminate]. exists z. split; auto. split; auto.
  cbn [andb] in H. unfold feq in H. rewrite Beqb_correct in H by auto. rewrite Vm in H. destruct (Req_bool_spec (B2R z) (IZR m)); auto. discriminate.
Qed.
Definition differs {f} (r : res (flt f)) (n : Z) : bool := match r with Ok w => finite w && negb (w ==. ofZ f n) | _ => false end.
Lemma differs_inv f (r : res (flt f)) n : differs r n = true -> (Z.abs n <= 16777216)%Z -> exists w, r = Ok w /\ finite w = true /\ B2R w <> IZR n.
Proof.
  unfold differs. destruct r as [w| |]; try discriminate. intros H N. destruct (finite w) eqn:F; [|discriminate]. destruct (ofZ_small f n N) as (Vn & Fn & _). exists w. split; auto. split; auto.
  cbn [andb] in H. unfold feq in H. rewrite Beqb_correct in H by auto. rewrite Vn in H. destruct (Req_bool_spec (B2R w) (IZR n)); auto. discriminate.
Qed.
Definition falls {f} (g : flt f -> res (flt f)) (x : flt f) : bool :=
  finite x && finite (Bsucc x) && (ofZ f 0 <. x) && (x <. Bsucc x) && (Bsucc x <. ofZ f 1) && match g x, g (Bsucc x) with Ok a, Ok b => finite a && finite b && (b <. a) | _, _ => false end.
Lemma falls_inv f (g : flt f -> res (flt f)) x : falls g x = true ->
  exists y a b, 0 < B2R x < B2R y /\ B2R y < 1 /\ finite x = true /\ finite y = true /\ g x = Ok a /\ g y = Ok b /\ finite a = true /\ finite b = true /\ B2R b < B2R a.
Proof.
  unfold falls. intros H. destruct (ofZ_small f 0 ltac:(lia)) as (V0 & F0 & _). destruct (ofZ_small f 1 ltac:(lia)) as (V1 & F1 & _).
  apply andb_true_iff in H. destruct H as (H & K). apply andb_true_iff in H. destruct H as (H & M1). apply andb_true_iff in H. destruct H as (H & L). apply andb_true_iff in H. destruct H as (H & M0). apply andb_true_iff in H. destruct H as (F2 & F3). apply flt_true_inv in L, M0, M1; auto. rewrite V0 in M0. rewrite V1 in M1.
  destruct (g x) as [a| |] eqn:E1; try discriminate. destruct (g (Bsucc x)) as [b| |] eqn:E2; try discriminate. apply andb_true_iff in K. destruct K as (K & M). apply andb_true_iff in K. destruct K as (F4 & F5). apply flt_true_inv in M; auto.
  exists (Bsucc x), a, b. auto 12.
Qed.

(** ** sqrt *)
Definition sq_n (f : fmt) : Z := match f with F64 => 13 | _ => 16 end.
Lemma sqrt_square_bad f : exists n, (1 <= n <= 16)%Z /\ exists w, gcem_sqrt (AFlt f (ofZ f (n * n))) = Ok w /\ finite w = true /\ B2R w < IZR n /\
  exists z, gcem_floor (AFlt f w) = Ok z /\ finite z = true /\ B2R z = IZR (n - 1).
Proof. exists (sq_n f). split. destruct f; split; discriminate. apply less_inv; destruct f; vm_compute; reflexivity || discriminate. Qed.
Lemma sqrt_square_int t : in_range t 169 -> exists w, gcem_sqrt (AInt t 169) = Ok w /\ finite w = true /\ B2R w < 13 /\ exists z, gcem_floor (AFlt F64 w) = Ok z /\ finite z = true /\ B2R z = 12.
Proof. intros _. apply (less_inv F64); vm_compute; reflexivity || discriminate. Qed.

(** ** log2, log10, pow *)
Definition l2_n (f : fmt) : Z := match f with F32 => 15 | F64 => 3 | F80 => 7 end.
Lemma log2_bad v f : exists k, (1 <= k <= 15)%Z /\ exists w, gcem_log2 v (AFlt f (ofZ f (2 ^ k))) = Ok w /\ finite w = true /\ B2R w < IZR k /\
  exists z, gcem_floor (AFlt f w) = Ok z /\ finite z = true /\ B2R z = IZR (k - 1).
Proof. exists (l2_n f). split. destruct f; split; discriminate. apply less_inv; destruct v, f; vm_compute; reflexivity || discriminate. Qed.
Lemma log2_int v t : exists w, gcem_log2 v (AInt t 8) = Ok w /\ finite w = true /\ B2R w < 3 /\ exists z, gcem_floor (AFlt F64 w) = Ok z /\ finite z = true /\ B2R z = 2.
Proof. apply (less_inv F64); destruct v; vm_compute; reflexivity || discriminate. Qed.
Definition l10_n (f : fmt) : Z := match f with F32 => 5 | F64 => 3 | F80 => 15 end.
Lemma log10_bad v f : exists k, (1 <= k <= 15)%Z /\ exists w, gcem_log10 v (AFlt f (ofZ f (10 ^ k))) = Ok w /\ finite w = true /\ B2R w <> IZR k.
Proof. exists (l10_n f). split. destruct f; split; discriminate. apply differs_inv; destruct v, f; vm_compute; reflexivity || discriminate. Qed.
Definition pw_n (f : fmt) : Z := match f with F32 => 6 | _ => 3 end.
Lemma pow_red v f (x y : flt f) : (x <. ofZ f 0) = false -> gcem_pow v (AFlt f x) (AFlt f y) = rmap (AFlt f) (pow_dbl v (conv f x) (conv f y)).
Proof. intros H. destruct f; unfold gcem_pow; cbn [cr_fmt ret_fmt fmt_max to_fmt]; rewrite H; reflexivity. Qed.
Lemma pow_one_bad v f : exists n, (1 <= n <= 6)%Z /\ exists w, gcem_pow v (AFlt f (ofZ f n)) (AFlt f (ofZ f 1)) = Ok (AFlt f w) /\ finite w = true /\ B2R w < IZR n /\
  exists z, gcem_floor (AFlt f w) = Ok z /\ finite z = true /\ B2R z = IZR (n - 1).
Proof.
  exists (pw_n f). split. destruct f; split; discriminate. rewrite pow_red by (destruct f; vm_compute; reflexivity).
  destruct (less_inv f (pow_dbl v (conv f (ofZ f (pw_n f))) (conv f (ofZ f 1))) (pw_n f) (pw_n f - 1)) as (w & E & F & L & Z'); [destruct v, f; vm_compute; reflexivity|destruct f; vm_compute; discriminate|destruct f; vm_compute; discriminate|].
  exists w. rewrite E. auto.
Qed.
Lemma pow_two_bad v : exists w, gcem_pow v (AFlt F64 (ofZ F64 2)) (AFlt F64 (ofZ F64 2)) = Ok (AFlt F64 w) /\ finite w = true /\ B2R w < 4 /\
  exists z, gcem_floor (AFlt F64 w) = Ok z /\ finite z = true /\ B2R z = 3.
Proof.
  rewrite pow_red by (vm_compute; reflexivity).
  destruct (less_inv F64 (pow_dbl v (conv F64 (ofZ F64 2)) (conv F64 (ofZ F64 2))) 4 3) as (w & E & F & L & Z'); [destruct v; vm_compute; reflexivity|discriminate|discriminate|].
  exists w. rewrite E. auto.
Qed.

(** ** Monotonicity *)
Definition mk (f : fmt) (k e : Z) : flt f := binary_normalize (prec f) (emax f) _ _ mode_NE k e false.
Definition atan_x f := match f with F32 => mk F32 12000002 (-24) | F64 => mk F64 6200000000000020 (-53) | F80 => mk F80 12000000000000000032 (-64) end.
Definition sin_x f := match f with F32 => mk F32 12000002 (-24) | F64 => mk F64 6200000000000007 (-53) | F80 => mk F80 12000000000000000033 (-64) end.
Definition tanh_x f := match f with F32 => mk F32 12000015 (-24) | F64 => mk F64 6200000000000019 (-53) | F80 => mk F80 12000000000000000009 (-64) end.
Lemma atan_falls v f : exists x y a b : flt f, 0 < B2R x < B2R y /\ B2R y < 1 /\ finite x = true /\ finite y = true /\ gcem_atan v (AFlt f x) = Ok a /\ gcem_atan v (AFlt f y) = Ok b /\ finite a = true /\ finite b = true /\ B2R b < B2R a.
Proof.
  exists (atan_x f). destruct (falls_inv f (fun x => gcem_atan v (AFlt f x)) (atan_x f)) as (y & a & b & H). destruct v, f; vm_compute; reflexivity. exists y, a, b. exact H.
Qed.
Lemma sin_falls f : exists x y a b : flt f, 0 < B2R x < B2R y /\ B2R y < 1 /\ finite x = true /\ finite y = true /\ gcem_sin (AFlt f x) = Ok a /\ gcem_sin (AFlt f y) = Ok b /\ finite a = true /\ finite b = true /\ B2R b < B2R a.
Proof.
  exists (sin_x f). destruct (falls_inv f (fun x => gcem_sin (AFlt f x)) (sin_x f)) as (y & a & b & H). destruct f; vm_compute; reflexivity. exists y, a, b. exact H.
Qed.
Lemma tanh_falls v f : exists x y a b : flt f, 0 < B2R x < B2R y /\ B2R y < 1 /\ finite x = true /\ finite y = true /\ gcem_tanh v (AFlt f x) = Ok a /\ gcem_tanh v (AFlt f y) = Ok b /\ finite a = true /\ finite b = true /\ B2R b < B2R a.
Proof.
  exists (tanh_x f). destruct (falls_inv f (fun x => gcem_tanh v (AFlt f x)) (tanh_x f)) as (y & a & b & H). destruct v, f; vm_compute; reflexivity. exists y, a, b. exact H.
Qed.
