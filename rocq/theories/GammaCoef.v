(** * Rounding errors of the coefficient sum of lgamma (long double) *)
From Verif Require Import Base ModelBasic ModelElem ModelSpecial FltLemmas ConvLemmas.
From Coq Require Import Lra Psatz List.
From Coquelicot Require Import Coquelicot.
From Interval Require Import Tactic.
From Verif Require Import SpecGamma PolyPos Lanczos GammaReal.
From Verif Require Import RangeProofs PF FPErr CFBound ExpAcc MiscProofs SinAcc LogAcc LogApi ErfAcc.
Open Scope R_scope.

Notation U80 := (/ 18446744073709551616).
Lemma uf80 : uf F80 = U80. Proof. reflexivity. Qed.

(** ** Bounds for the exact sum *)
Definition lanc_gen (c0 : Z) (cs : list Z) (z : R) : R := IZR c0 / IZR E25 + lsum cs 1 z.
Lemma lanc_gen_nonneg c0 cs x : length cs = 14%nat -> snd (lrat cs 1 (c0 :: nil) (1%Z :: nil)) = DD -> pnonneg (pshift (-1) (fst (lrat cs 1 (c0 :: nil) (1%Z :: nil)))) = true -> 0 < x -> 0 <= lanc_gen c0 cs (x - 1).
Proof.
  intros L ED P Hx. assert (H := lrat_ev cs 1 (c0 :: nil) (1%Z :: nil) (x - 1)). destruct (lrat cs 1 (c0 :: nil) (1%Z :: nil)) as (n, d) eqn:E. cbn [fst snd] in * . subst d. destruct H as (_ & H).
  - cbn. lra.
  - intros j Hj. assert (1 <= IZR j) by (apply IZR_le; lia). lra.
  - assert (Q := pnonneg_ev _ x P ltac:(lra)). rewrite pev_shift in Q. assert (D := DD0_pos x Hx). assert (E0 : 0 < IZR E25) by (apply IZR_lt; reflexivity).
    replace (lanc_gen c0 cs (x - 1)) with (pev n (x - 1) / pev DD (x - 1) / IZR E25).
    + replace (x + -1) with (x - 1) in Q by ring. apply Rmult_le_pos; [|left; apply Rinv_0_lt_compat; auto]. apply Rmult_le_pos; [auto|left; apply Rinv_0_lt_compat; auto].
    + rewrite H. unfold lanc_gen. cbn [pev]. field. lra.
Qed.
Lemma lsum_add k1 k2 cs1 : forall cs2 k z, length cs1 = length cs2 -> lsum (map (fun p => k1 * fst p + k2 * snd p)%Z (combine cs1 cs2)) k z = IZR k1 * lsum cs1 k z + IZR k2 * lsum cs2 k z.
Proof.
  induction cs1 as [|c cs1 IH]; intros [|d cs2] k z L; try discriminate; cbn [combine map lsum fst snd]. ring.
  rewrite IH by (injection L; auto). rewrite plus_IZR, !mult_IZR. unfold Rdiv. ring.
Qed.
Definition lancM (z : R) : R := lanc_gen lanc_c0 (map Z.abs lanc_cs) z.
Lemma lancM_le x : 0 < x -> lancM (x - 1) <= 7 * lanc (x - 1).
Proof.
  intros H. assert (P := lanc_gen_nonneg (7 * lanc_c0 - lanc_c0) (map (fun p => 7 * fst p + -1 * snd p)%Z (combine lanc_cs (map Z.abs lanc_cs))) x eq_refl).
  specialize (P ltac:(vm_compute; reflexivity) ltac:(vm_compute; reflexivity) H). unfold lanc_gen in P. rewrite lsum_add in P by reflexivity.
  rewrite minus_IZR, mult_IZR in P. unfold lancM, lanc, lanc_gen. lra.
Qed.
Lemma lanc_up x : 0 < x -> lanc (x - 1) <= 1 + 58 / x.
Proof.
  intros H. assert (P := lanc_gen_nonneg (E25 - lanc_c0) (map (fun p => 1 * fst p + -1 * snd p)%Z (combine (58 * E25 :: repeat 0%Z 13)%Z lanc_cs)) x eq_refl).
  specialize (P ltac:(vm_compute; reflexivity) ltac:(vm_compute; reflexivity) H). unfold lanc_gen in P. rewrite lsum_add in P by reflexivity.
  rewrite minus_IZR in P. assert (E0 : 0 < IZR E25) by (apply IZR_lt; reflexivity).
  assert (L : forall n k, lsum (repeat 0%Z n) k (x - 1) = 0). { induction n as [|n IH]; intros k; cbn [repeat lsum]. reflexivity. rewrite IH. unfold Rdiv. ring. }
  cbn [lsum] in P. rewrite L, mult_IZR in P. unfold lanc. replace (58 * IZR E25 / IZR E25 / (x - 1 + 1)) with (58 / x) in P by (field; lra).
  replace ((IZR E25 - IZR lanc_c0) / IZR E25) with (1 - IZR lanc_c0 / IZR E25) in P by (field; lra). lra.
Qed.
Lemma lanc_low x : 0 < x -> 99 / 100 <= lanc (x - 1).
Proof.
  intros H. assert (P := lanc_gen_nonneg (lanc_c0 - 9900000000000000000000000) lanc_cs x eq_refl).
  specialize (P ltac:(vm_compute; reflexivity) ltac:(vm_compute; reflexivity) H). unfold lanc_gen in P. rewrite minus_IZR in P. unfold lanc.
  assert (E : (IZR lanc_c0 - 9900000000000000000000000) / IZR E25 = IZR lanc_c0 / IZR E25 - 99 / 100) by (unfold E25; field). lra.
Qed.

(** ** The literals *)
Definition lok (c : flt F80) (k : Z) : Prop := finite c = true /\ Rabs (B2R c - IZR k / IZR E25) <= U80 * (IZR k / IZR E25).
Lemma lit0 : lok (dec F80 99999999999999709182 20) 9999999999999970918200000.
Proof.
  destruct (sf_val (dec F80 99999999999999709182 20) false 18446744073709497970%positive (-64)%Z) as (A & B); [vm_compute; reflexivity|]. split; auto. rewrite B. unfold F2R, E25. cbn [Fnum Fexp cond_Zopp]. change (bpow radix2 (-64)) with (/ 18446744073709551616). apply Rabs_le. lra.
Qed.
Lemma lit1 : lok (dec F80 57156235665862923517 18) 571562356658629235170000000.
Proof.
  destruct (sf_val (dec F80 57156235665862923517 18) false 16474163305387553003%positive (-58)%Z) as (A & B); [vm_compute; reflexivity|]. split; auto. rewrite B. unfold F2R, E25. cbn [Fnum Fexp cond_Zopp]. change (bpow radix2 (-58)) with (/ 288230376151711744). apply Rabs_le. lra.
Qed.
Lemma lit2 : lok (dec F80 59597960355475491248 18) 595979603554754912480000000.
Proof.
  destruct (sf_val (dec F80 59597960355475491248 18) false 17177942531133505006%positive (-58)%Z) as (A & B); [vm_compute; reflexivity|]. split; auto. rewrite B. unfold F2R, E25. cbn [Fnum Fexp cond_Zopp]. change (bpow radix2 (-58)) with (/ 288230376151711744). apply Rabs_le. lra.
Qed.
Lemma lit3 : lok (dec F80 14136097974741747174 18) 141360979747417471740000000.
Proof.
  destruct (sf_val (dec F80 14136097974741747174 18) false 16297811346309057472%positive (-60)%Z) as (A & B); [vm_compute; reflexivity|]. split; auto. rewrite B. unfold F2R, E25. cbn [Fnum Fexp cond_Zopp]. change (bpow radix2 (-60)) with (/ 1152921504606846976). apply Rabs_le. lra.
Qed.
Lemma lit4 : lok (dec F80 49191381609762019978 20) 4919138160976201997800000.
Proof.
  destruct (sf_val (dec F80 49191381609762019978 20) false 18148416543749251306%positive (-65)%Z) as (A & B); [vm_compute; reflexivity|]. split; auto. rewrite B. unfold F2R, E25. cbn [Fnum Fexp cond_Zopp]. change (bpow radix2 (-65)) with (/ 36893488147419103232). apply Rabs_le. lra.
Qed.
Lemma lit5 : lok (dec F80 33994649984811888699 24) 339946499848118886990.
Proof.
  destruct (sf_val (dec F80 33994649984811888699 24) false 10274252523850288443%positive (-78)%Z) as (A & B); [vm_compute; reflexivity|]. split; auto. rewrite B. unfold F2R, E25. cbn [Fnum Fexp cond_Zopp]. change (bpow radix2 (-78)) with (/ 302231454903657293676544). apply Rabs_le. lra.
Qed.
Lemma lit6 : lok (dec F80 46523628927048575665 24) 465236289270485756650.
Proof.
  destruct (sf_val (dec F80 46523628927048575665 24) false 14060904058019767560%positive (-78)%Z) as (A & B); [vm_compute; reflexivity|]. split; auto. rewrite B. unfold F2R, E25. cbn [Fnum Fexp cond_Zopp]. change (bpow radix2 (-78)) with (/ 302231454903657293676544). apply Rabs_le. lra.
Qed.
Lemma lit7 : lok (dec F80 98374475304879564677 24) 983744753048795646770.
Proof.
  destruct (sf_val (dec F80 98374475304879564677 24) false 14865930398388828124%positive (-77)%Z) as (A & B); [vm_compute; reflexivity|]. split; auto. rewrite B. unfold F2R, E25. cbn [Fnum Fexp cond_Zopp]. change (bpow radix2 (-77)) with (/ 151115727451828646838272). apply Rabs_le. lra.
Qed.
Lemma lit8 : lok (dec F80 15808870322491248884 23) 1580887032249124888400.
Proof.
  destruct (sf_val (dec F80 15808870322491248884 23) false 11944844694874450060%positive (-76)%Z) as (A & B); [vm_compute; reflexivity|]. split; auto. rewrite B. unfold F2R, E25. cbn [Fnum Fexp cond_Zopp]. change (bpow radix2 (-76)) with (/ 75557863725914323419136). apply Rabs_le. lra.
Qed.
Lemma lit9 : lok (dec F80 21026444172410488319 23) 2102644417241048831900.
Proof.
  destruct (sf_val (dec F80 21026444172410488319 23) false 15887132034195370515%positive (-76)%Z) as (A & B); [vm_compute; reflexivity|]. split; auto. rewrite B. unfold F2R, E25. cbn [Fnum Fexp cond_Zopp]. change (bpow radix2 (-76)) with (/ 75557863725914323419136). apply Rabs_le. lra.
Qed.
Lemma lit10 : lok (dec F80 21743961811521264320 23) 2174396181152126432000.
Proof.
  destruct (sf_val (dec F80 21743961811521264320 23) false 16429273034164088379%positive (-76)%Z) as (A & B); [vm_compute; reflexivity|]. split; auto. rewrite B. unfold F2R, E25. cbn [Fnum Fexp cond_Zopp]. change (bpow radix2 (-76)) with (/ 75557863725914323419136). apply Rabs_le. lra.
Qed.
Lemma lit11 : lok (dec F80 16431810653676389022 23) 1643181065367638902200.
Proof.
  destruct (sf_val (dec F80 16431810653676389022 23) false 12415525101405077613%positive (-76)%Z) as (A & B); [vm_compute; reflexivity|]. split; auto. rewrite B. unfold F2R, E25. cbn [Fnum Fexp cond_Zopp]. change (bpow radix2 (-76)) with (/ 75557863725914323419136). apply Rabs_le. lra.
Qed.
Lemma lit12 : lok (dec F80 84418223983852743293 24) 844182239838527432930.
Proof.
  destruct (sf_val (dec F80 84418223983852743293 24) false 12756921327511315475%positive (-77)%Z) as (A & B); [vm_compute; reflexivity|]. split; auto. rewrite B. unfold F2R, E25. cbn [Fnum Fexp cond_Zopp]. change (bpow radix2 (-77)) with (/ 151115727451828646838272). apply Rabs_le. lra.
Qed.
Lemma lit13 : lok (dec F80 26190838401581408670 24) 261908384015814086700.
Proof.
  destruct (sf_val (dec F80 26190838401581408670 24) false 15831390390513054382%positive (-79)%Z) as (A & B); [vm_compute; reflexivity|]. split; auto. rewrite B. unfold F2R, E25. cbn [Fnum Fexp cond_Zopp]. change (bpow radix2 (-79)) with (/ 604462909807314587353088). apply Rabs_le. lra.
Qed.
Lemma lit14 : lok (dec F80 36899182659531622704 25) 36899182659531622704.
Proof.
  destruct (sf_val (dec F80 36899182659531622704 25) false 17843349855913671728%positive (-82)%Z) as (A & B); [vm_compute; reflexivity|]. split; auto. rewrite B. unfold F2R, E25. cbn [Fnum Fexp cond_Zopp]. change (bpow radix2 (-82)) with (/ 4835703278458516698824704). apply Rabs_le. lra.
Qed.

Section Coef.
Variable x : flt F80.
Hypothesis Fx : finite x = true.
Notation z := (B2R x).
Hypothesis Hz : / 36028797018963968 <= z + 1 <= 144115188075855872.
(** one term c / (x + k) *)
Lemma term_acc (c : flt F80) (C k : Z) : (1 <= k <= 14)%Z -> lok c C -> / 1000000 <= IZR C / IZR E25 <= 64 ->
  let T := IZR C / IZR E25 / (z + IZR k) in let q := c /. (x +. ofZ F80 k) in
  finite q = true /\ 0 < T <= IZR C / IZR E25 * 36028797018963968 /\ Rabs (B2R q - T) <= 301 / 100 * U80 * T.
Proof.
  intros Hk (Fc & Ec) HC. cbv zeta. set (cv := IZR C / IZR E25) in * .
  assert (K1 : 1 <= IZR k <= 14) by (split; apply IZR_le; lia).
  destruct (ofZ_small F80 k ltac:(lia)) as (Vk & Fk & _).
  destruct (op_add x (ofZ F80 k) Fx Fk) as (Fs & Vs). { rewrite Vk. apply Rabs_le. lra. } rewrite Vk in Vs.
  assert (D0 : / 36028797018963968 <= z + IZR k <= 144115188075855886) by lra. set (d := z + IZR k) in * .
  destruct (rnd_fac F80 d) as (a & Va & Ha). lra. apply Rle_trans with (bpow radix2 (-55)). apply bpow_le; discriminate. change (bpow radix2 (-55)) with (/ 36028797018963968). lra. rewrite uf80 in Ha.
  destruct (fac_of (B2R c) cv U80 ltac:(lra) Ec) as (b & Vb & Hb).
  rewrite Va in Vs. set (s := x +. ofZ F80 k) in * . assert (Ha' := Ha). apply Rabs_le_between in Ha'. assert (Hb' := Hb). apply Rabs_le_between in Hb'.
  assert (I0 : 0 < / d) by (apply Rinv_0_lt_compat; lra). assert (I1 : / d <= 36028797018963968). { replace 36028797018963968 with (/ / 36028797018963968) by (field; lra). apply Rinv_le_contravar; lra. }
  assert (I2 : / 144115188075855886 <= / d) by (apply Rinv_le_contravar; lra).
  assert (T0 : 0 < cv / d) by (apply Rmult_lt_0_compat; lra). assert (T1 : cv / d <= cv * 36028797018963968) by (apply Rmult_le_compat_l; lra).
  assert (T2 : / 1000000 * / 144115188075855886 <= cv / d) by (apply Rmult_le_compat; lra).
  assert (G : Rabs (b * / a - 1) <= 2001 / 1000 * U80). { eapply Rle_trans. apply fac; [exact Hb|apply (fac_inv a U80 Ha); lra|lra]. lra. }
  assert (Q : B2R c / B2R s = cv / d * (b * / a)). { rewrite Vb, Vs. field. lra. }
  assert (G' := G). apply Rabs_le_between in G'.
  assert (QB : / 1000000 * / 144115188075855886 * / 2 <= cv / d * (b * / a) <= cv * 36028797018963968 * 2) by (split; apply Rmult_le_compat; lra).
  destruct (op_div c s Fc) as (Fq & Vq). { rewrite Vs. apply Rgt_not_eq, Rmult_lt_0_compat; lra. } { rewrite Q. rewrite Rabs_pos_eq by lra. lra. }
  split; auto. split. split; auto. rewrite Vq, Q.
  destruct (rnd_fac F80 (cv / d * (b * / a))) as (e & Ve & He). lra. apply Rle_trans with (bpow radix2 (-90)). apply bpow_le; discriminate. change (bpow radix2 (-90)) with (/ 1237940039285380274899124224). lra. rewrite uf80 in He.
  rewrite Ve. apply (of_fac _ _ (b * / a * e)); auto. ring. eapply Rle_trans. apply fac; [exact G|exact He|lra]. lra.
Qed.
Definition inv (a : flt F80) (A M n B : R) : Prop :=
  finite a = true /\ Rabs (B2R a - A) <= n * U80 * M /\ Rabs A <= M <= B * 36028797018963968 /\ 9 / 10 <= M /\ 4 <= n <= 20.
Lemma step_gen (a : flt F80) A M n B (q : flt F80) T c (s : R) (r : flt F80) : inv a A M n B -> finite q = true -> 0 < T <= c * 36028797018963968 -> Rabs (B2R q - T) <= 301 / 100 * U80 * T -> 
  (s = 1 \/ s = -1) -> B + c <= 140 -> n + 101 / 100 <= 20 ->
  (Rabs (B2R a + s * B2R q) <= 18446744073709551616 -> finite r = true /\ B2R r = rnd F80 (B2R a + s * B2R q)) -> inv r (A + s * T) (M + T) (n + 101 / 100) (B + c).
Proof.
  intros (Fa & Ea & (HA & HM) & M0 & N1) Fq HT Eq Hs HB Hn OP.
  assert (E1 : Rabs (B2R a + s * B2R q - (A + s * T)) <= n * U80 * M + 301 / 100 * U80 * T).
  { replace (B2R a + s * B2R q - (A + s * T)) with ((B2R a - A) + s * (B2R q - T)) by ring. eapply Rle_trans. apply Rabs_triang. rewrite Rabs_mult.
    replace (Rabs s) with 1. lra. destruct Hs as [-> | ->]. rewrite Rabs_R1. reflexivity. unfold Rabs. destruct Rcase_abs; lra. }
  assert (E2 : Rabs (A + s * T) <= M + T).
  { eapply Rle_trans. apply Rabs_triang. rewrite Rabs_mult. replace (Rabs s) with 1. rewrite (Rabs_pos_eq T) by lra. lra. destruct Hs as [-> | ->]. rewrite Rabs_R1. reflexivity. unfold Rabs. destruct Rcase_abs; lra. }
  assert (E3 : n * U80 * M + 301 / 100 * U80 * T <= n * U80 * (M + T)). { assert (301 / 100 * (U80 * T) <= n * (U80 * T)) by (apply Rmult_le_compat_r; lra). lra. }
  assert (N2 : n * U80 * (M + T) <= 20 * U80 * (M + T)) by (apply Rmult_le_compat_r; lra).
  set (v := B2R a + s * B2R q) in * . assert (V : Rabs v <= (1 + 20 * U80) * (M + T)). { replace v with ((A + s * T) + (v - (A + s * T))) by ring. eapply Rle_trans. apply Rabs_triang. lra. }
  destruct OP as (Fr & Vr). { lra. }
  repeat split; auto; try lra. rewrite Vr. replace (rnd F80 v - (A + s * T)) with ((rnd F80 v - v) + (v - (A + s * T))) by ring.
  eapply Rle_trans. apply Rabs_triang. assert (R := rnd_small F80 v). rewrite uf80 in R. change (bpow radix2 (-100)) with (/ 1267650600228229401496703205376) in R. lra.
Qed.
Lemma step_add (a : flt F80) A M k n B (c : flt F80) C : (1 <= k <= 14)%Z -> lok c C -> / 1000000 <= IZR C / IZR E25 <= 64 -> B + IZR C / IZR E25 <= 140 -> n + 101 / 100 <= 20 ->
  inv a A M n B -> inv (a +. c /. (x +. ofZ F80 k)) (A + IZR C / IZR E25 / (z + IZR k)) (M + IZR C / IZR E25 / (z + IZR k)) (n + 101 / 100) (B + IZR C / IZR E25).
Proof.
  intros Hk L HC HB Hn I. destruct (term_acc c C k Hk L HC) as (Fq & HT & Eq). 
  replace (A + IZR C / IZR E25 / (z + IZR k)) with (A + 1 * (IZR C / IZR E25 / (z + IZR k))) by ring.
  apply (step_gen a A M n B (c /. (x +. ofZ F80 k)) _ (IZR C / IZR E25)); auto. rewrite Rmult_1_l. intros H. apply op_add; auto. apply I.
Qed.
Lemma step_sub (a : flt F80) A M k n B (c : flt F80) C : (1 <= k <= 14)%Z -> lok c C -> / 1000000 <= IZR C / IZR E25 <= 64 -> B + IZR C / IZR E25 <= 140 -> n + 101 / 100 <= 20 ->
  inv a A M n B -> inv (a -. c /. (x +. ofZ F80 k)) (A + IZR (- C) / IZR E25 / (z + IZR k)) (M + IZR C / IZR E25 / (z + IZR k)) (n + 101 / 100) (B + IZR C / IZR E25).
Proof.
  intros Hk L HC HB Hn I. destruct (term_acc c C k Hk L HC) as (Fq & HT & Eq). 
  replace (A + IZR (- C) / IZR E25 / (z + IZR k)) with (A + -1 * (IZR C / IZR E25 / (z + IZR k))) by (rewrite opp_IZR; unfold Rdiv; ring).
  apply (step_gen a A M n B (c /. (x +. ofZ F80 k)) _ (IZR C / IZR E25)); auto. replace (B2R a + -1 * B2R (c /. (x +. ofZ F80 k))) with (B2R a - B2R (c /. (x +. ofZ F80 k))) by ring. intros H. apply op_sub; auto. apply I.
Qed.
Lemma coef_acc : finite (lgamma_coef_term x) = true /\ Rabs (B2R (lgamma_coef_term x) - lanc z) <= 128 * U80 * lanc z.
Proof.
  assert (I : inv (dec F80 99999999999999709182 20) (IZR lanc_c0 / IZR E25) (IZR lanc_c0 / IZR E25) 4 1).
  { destruct lit0 as (F0 & V0). fold lanc_c0 in V0. assert (E : IZR lanc_c0 / IZR E25 = 99999999999999709182 / 100000000000000000000) by (unfold lanc_c0, E25; field).
    rewrite E in * . split; [exact F0|]. split. eapply Rle_trans. exact V0. lra. rewrite Rabs_pos_eq by lra. lra. }
  apply (step_add _ _ _ 1 _ _ _ _ ltac:(lia) lit1) in I; [|unfold E25; lra|unfold E25; lra|lra].
  apply (step_sub _ _ _ 2 _ _ _ _ ltac:(lia) lit2) in I; [|unfold E25; lra|unfold E25; lra|lra].
  apply (step_add _ _ _ 3 _ _ _ _ ltac:(lia) lit3) in I; [|unfold E25; lra|unfold E25; lra|lra].
  apply (step_sub _ _ _ 4 _ _ _ _ ltac:(lia) lit4) in I; [|unfold E25; lra|unfold E25; lra|lra].
  apply (step_add _ _ _ 5 _ _ _ _ ltac:(lia) lit5) in I; [|unfold E25; lra|unfold E25; lra|lra].
  apply (step_add _ _ _ 6 _ _ _ _ ltac:(lia) lit6) in I; [|unfold E25; lra|unfold E25; lra|lra].
  apply (step_sub _ _ _ 7 _ _ _ _ ltac:(lia) lit7) in I; [|unfold E25; lra|unfold E25; lra|lra].
  apply (step_add _ _ _ 8 _ _ _ _ ltac:(lia) lit8) in I; [|unfold E25; lra|unfold E25; lra|lra].
  apply (step_sub _ _ _ 9 _ _ _ _ ltac:(lia) lit9) in I; [|unfold E25; lra|unfold E25; lra|lra].
  apply (step_add _ _ _ 10 _ _ _ _ ltac:(lia) lit10) in I; [|unfold E25; lra|unfold E25; lra|lra].
  apply (step_sub _ _ _ 11 _ _ _ _ ltac:(lia) lit11) in I; [|unfold E25; lra|unfold E25; lra|lra].
  apply (step_add _ _ _ 12 _ _ _ _ ltac:(lia) lit12) in I; [|unfold E25; lra|unfold E25; lra|lra].
  apply (step_sub _ _ _ 13 _ _ _ _ ltac:(lia) lit13) in I; [|unfold E25; lra|unfold E25; lra|lra].
  apply (step_add _ _ _ 14 _ _ _ _ ltac:(lia) lit14) in I; [|unfold E25; lra|unfold E25; lra|lra].
  destruct I as (F & E & (_ & _) & _ & _). unfold lgamma_coef_term. match type of F with finite ?w = true => set (W := w) in * end. split; [exact F|]. clearbody W.
  assert (SA : IZR lanc_c0 / IZR E25 + lsum lanc_cs 1 z = lanc z) by reflexivity. assert (SM : IZR lanc_c0 / IZR E25 + lsum (map Z.abs lanc_cs) 1 z = lancM z) by reflexivity.
  unfold lanc_cs in SA, SM. cbn [lsum map Z.abs Z.add Pos.add Pos.succ] in SA, SM. cbn [Z.opp] in E.
  assert (ML := lancM_le (z + 1) ltac:(lra)). assert (LL := lanc_low (z + 1) ltac:(lra)). replace (z + 1 - 1) with z in * by ring.
  match type of E with Rabs (_ - ?A) <= ?n * _ * ?M => assert (EA : A = lanc z) by (rewrite <- SA; ring); assert (EM : M = lancM z) by (rewrite <- SM; ring); rewrite EA, EM in E end.
  eapply Rle_trans. exact E. assert (0 <= U80) by lra. nra.
Qed.
End Coef.
