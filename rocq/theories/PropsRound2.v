(** * Relations between functions of the library (C134 - C137). *)
From Verif Require Import Base ModelBasic ModelInt ModelElem ModelSpecial ModelApi Spec FltLemmas ConvLemmas BasicProofs RoundTrip2.
From Coq Require Import Lra.
Open Scope R_scope.

(** C134: floor, ceil, trunc and round of one argument, and of its negation *)
Theorem C134_rounding_relations : forall f (x : flt f), zero_or_normal x -> exists (fl ce tr rd : Z) wf wc wt wr nf nc nt nr,
  gcem_floor (AFlt f x) = Ok wf /\ has_val wf (IZR fl) /\ gcem_ceil (AFlt f x) = Ok wc /\ has_val wc (IZR ce) /\
  gcem_trunc (AFlt f x) = Ok wt /\ has_val wt (IZR tr) /\ gcem_round (AFlt f x) = Ok wr /\ has_val wr (IZR rd) /\
  (ce - 1 <= fl <= ce)%Z /\ (fl <= rd <= ce)%Z /\ (0 <= B2R x -> tr = fl) /\ (B2R x < 0 -> tr = ce) /\
  gcem_floor (AFlt f (-. x)) = Ok nf /\ has_val nf (IZR (- ce)) /\ gcem_ceil (AFlt f (-. x)) = Ok nc /\ has_val nc (IZR (- fl)) /\
  gcem_trunc (AFlt f (-. x)) = Ok nt /\ has_val nt (IZR (- tr)) /\ gcem_round (AFlt f (-. x)) = Ok nr /\ has_val nr (IZR (- rd)).
Proof. exact round_order_flat. Qed.
Print Assumptions C134_rounding_relations.
(** C134: all four never decrease *)
Theorem C134_rounding_monotone : forall f (x y : flt f), zero_or_normal x -> zero_or_normal y -> B2R x <= B2R y ->
  (exists w z, gcem_floor (AFlt f x) = Ok w /\ gcem_floor (AFlt f y) = Ok z /\ finite w = true /\ finite z = true /\ B2R w <= B2R z) /\
  (exists w z, gcem_ceil (AFlt f x) = Ok w /\ gcem_ceil (AFlt f y) = Ok z /\ finite w = true /\ finite z = true /\ B2R w <= B2R z) /\
  (exists w z, gcem_trunc (AFlt f x) = Ok w /\ gcem_trunc (AFlt f y) = Ok z /\ finite w = true /\ finite z = true /\ B2R w <= B2R z) /\
  (exists w z, gcem_round (AFlt f x) = Ok w /\ gcem_round (AFlt f y) = Ok z /\ finite w = true /\ finite z = true /\ B2R w <= B2R z).
Proof. exact round_monotone4. Qed.
Print Assumptions C134_rounding_monotone.
Example C134_ex : exists w n (fl ce : Z), gcem_floor (AFlt F64 (dec F64 (-25) 1)) = Ok w /\ has_val w (IZR fl) /\ gcem_floor (AFlt F64 (-. dec F64 (-25) 1)) = Ok n /\ has_val n (IZR (- ce)) /\ (ce - 1 <= fl <= ce)%Z.
Proof.
  assert (P : zero_or_normal (dec F64 (-25) 1)) by (apply zero_or_normal_check; vm_compute; reflexivity).
  destruct (C134_rounding_relations F64 _ P) as (fl & ce & tr & rd & wf & wc & wt & wr & nf & nc & nt & nr & A & B & _ & _ & _ & _ & _ & _ & I & _ & _ & _ & C & D & _).
  exists wf, nf, fl, ce. split. exact A. split. exact B. split. exact C. split. exact D. exact I.
Qed.

(** C135: the square of sqrt, and sqrt against inv_sqrt *)
Theorem C135_sqrt_squared : forall f (x : flt f), finite x = true -> bpow radix2 (2 - emax f) <= B2R x -> bpow radix2 (-170) <= B2R x -> B2R x <= 100 ->
  exists w : flt f, gcem_sqrt (AFlt f x) = Ok w /\ finite w = true /\ rel_err (B2R w * B2R w) (B2R x) (35 / 10 * bpow radix2 (- prec f)).
Proof. exact sqrt_square_back. Qed.
Print Assumptions C135_sqrt_squared.
Theorem C135_sqrt_inv_sqrt : forall f (x : flt f), finite x = true -> bpow radix2 (-58) <= B2R x <= 100 ->
  exists w i : flt f, gcem_sqrt (AFlt f x) = Ok w /\ gcem_inv_sqrt (AFlt f x) = Ok i /\ finite w = true /\ finite i = true /\ abs_err (B2R w * B2R i) 1 (4 * bpow radix2 (- prec f)).
Proof. exact sqrt_inv_sqrt. Qed.
Print Assumptions C135_sqrt_inv_sqrt.
Example C135_ex : exists w i : flt F32, gcem_sqrt (AFlt F32 (ofZ F32 7)) = Ok w /\ gcem_inv_sqrt (AFlt F32 (ofZ F32 7)) = Ok i /\ finite w = true /\ finite i = true /\ abs_err (B2R w * B2R i) 1 (4 * bpow radix2 (-24)).
Proof.
  destruct (ofZ_small F32 7 ltac:(lia)) as (V & F & _). apply (C135_sqrt_inv_sqrt F32 (ofZ F32 7) F). rewrite V. split; [|lra].
  apply Rle_trans with (bpow radix2 0). apply bpow_le. discriminate. change (bpow radix2 0) with 1. lra.
Qed.

(** C136: tan and atan undo each other *)
Theorem C136_tan_atan : forall v f (x : flt f), finite x = true -> bpow radix2 (4 - emax f) <= Rabs (B2R x) <= 1 ->
  exists a t : flt f, gcem_atan v (AFlt f x) = Ok a /\ gcem_tan (AFlt f a) = Ok t /\ finite t = true /\
  rel_err (B2R t) (B2R x) (21 * bpow radix2 (- prec f) + bpow radix2 (-55)).
Proof. exact tan_of_atan. Qed.
Print Assumptions C136_tan_atan.
Theorem C136_atan_tan : forall v f (x : flt f), finite x = true -> bpow radix2 (4 - emax f) <= Rabs (B2R x) <= 1 ->
  exists t a : flt f, gcem_tan (AFlt f x) = Ok t /\ gcem_atan v (AFlt f t) = Ok a /\ finite a = true /\
  rel_err (B2R a) (B2R x) (16 * bpow radix2 (- prec f) + bpow radix2 (-56)).
Proof. exact atan_of_tan. Qed.
Print Assumptions C136_atan_tan.
Example C136_ex : exists a t : flt F64, gcem_atan Cxx11 (AFlt F64 (half F64)) = Ok a /\ gcem_tan (AFlt F64 a) = Ok t /\ Rabs (B2R t - / 2) <= / 1000000000.
Proof.
  destruct (half_spec F64) as (V & F). destruct (C136_tan_atan Cxx11 F64 (half F64) F) as (a & t & E & E' & _ & R).
  - rewrite V, Rabs_pos_eq by lra. split; [|lra]. change (/ 2) with (bpow radix2 (-1)). apply bpow_le. discriminate.
  - exists a, t. split. exact E. split. exact E'. unfold rel_err in R. rewrite V, (Rabs_pos_eq (/ 2)) in R by lra. eapply Rle_trans. exact R. change (- prec F64)%Z with (-53)%Z. change (bpow radix2 (-53)) with (/ 9007199254740992). change (bpow radix2 (-55)) with (/ 36028797018963968). lra.
Qed.

(** C137: cosh^2 - sinh^2 = 1 *)
Theorem C137_hyperbola : forall v f (x : flt f), finite x = true -> Rabs (B2R x) <= / 2 ->
  exists c s : flt f, gcem_cosh v (AFlt f x) = Ok c /\ gcem_sinh v (AFlt f x) = Ok s /\ finite c = true /\ finite s = true /\
  Rabs (B2R c * B2R c - B2R s * B2R s - 1) <= 54 * bpow radix2 (- prec f) + bpow radix2 (-52).
Proof. exact hyperbola_small. Qed.
Print Assumptions C137_hyperbola.
Theorem C137_hyperbola_wide : forall v f (x : flt f), finite x = true -> Rabs (B2R x) < 2 ->
  exists c s : flt f, gcem_cosh v (AFlt f x) = Ok c /\ gcem_sinh v (AFlt f x) = Ok s /\ finite c = true /\ finite s = true /\
  Rabs (B2R c * B2R c - B2R s * B2R s - 1) <= (437 * bpow radix2 (- prec f) + bpow radix2 (-51)) * (cosh (B2R x) * cosh (B2R x)).
Proof. exact hyperbola_mid. Qed.
Print Assumptions C137_hyperbola_wide.
Example C137_ex : exists c s : flt F64, gcem_cosh Cxx14 (AFlt F64 (half F64)) = Ok c /\ gcem_sinh Cxx14 (AFlt F64 (half F64)) = Ok s /\ finite c = true /\ finite s = true /\
  Rabs (B2R c * B2R c - B2R s * B2R s - 1) <= 54 * bpow radix2 (-53) + bpow radix2 (-52).
Proof. destruct (half_spec F64) as (V & F). apply (C137_hyperbola Cxx14 F64 (half F64) F). rewrite V, Rabs_pos_eq; lra. Qed.
