(** * Proofs about the integer functions *)
From Verif Require Import Base ModelInt Spec.
From Coq Require Import Psatz Znumtheory.
Open Scope Z_scope.

Lemma ibits_pos t : 8 <= ibits t <= 64.
Proof. destruct t; simpl; lia. Qed.
Lemma imin_le_0 t : imin t <= 0 <= imax t.
Proof. destruct t; unfold imin, imax; simpl; lia. Qed.

Ltac ity_cases t := destruct t; cbv [in_range imin imax isigned ibits] in * ; simpl Z.sub in * ; simpl Z.pow in * .

Lemma icast_signed h z : 0 < h -> - h <= z < h ->
  (let m := z mod (2 * h) in if m <? h then m else m - 2 * h) = z.
Proof.
  intros H Hz. cbv zeta. destruct (Z_lt_le_dec z 0).
  - replace (z mod (2 * h)) with (z + 2 * h) by (apply Z.mod_unique with (-1); lia).
    destruct (Z.ltb_spec (z + 2 * h) h); lia.
  - rewrite Z.mod_small by lia. destruct (Z.ltb_spec z h); lia.
Qed.
Lemma icast_id t z : in_range t z -> icast t z = z.
Proof.
  intros H. unfold icast. destruct (isigned t) eqn:S.
  - replace (2 ^ ibits t) with (2 * 2 ^ (ibits t - 1)).
    + apply icast_signed. { apply Z.pow_pos_nonneg; pose proof (ibits_pos t); lia. }
      unfold in_range, imin, imax in H. rewrite S in H. lia.
    + rewrite <- Z.pow_succ_r by (pose proof (ibits_pos t); lia). f_equal. lia.
  - apply Z.mod_small. unfold in_range, imin, imax in H. rewrite S in H. lia.
Qed.

Lemma in_rangeb_spec t z : in_rangeb t z = true <-> in_range t z.
Proof. unfold in_rangeb, in_range. rewrite andb_true_iff, !Z.leb_le. reflexivity. Qed.

Lemma iarith_ok t z : in_range t z -> iarith t z = Ok z.
Proof.
  intros H. unfold iarith. destruct (isigned t) eqn:S.
  - rewrite (proj2 (in_rangeb_spec t z)); auto.
  - rewrite Z.mod_small; auto. destruct t; try discriminate; cbv [in_range imin imax isigned ibits] in H |- *; lia.
Qed.
Lemma iarith_ub t z : isigned t = true -> ~ in_range t z -> iarith t z = Ub UbOverflow.
Proof.
  intros S H. unfold iarith. rewrite S. destruct (in_rangeb t z) eqn:E; auto.
  apply in_rangeb_spec in E. tauto.
Qed.

Lemma in_range_promote t z : in_range t z -> in_range (promote t) z.
Proof. intros H. destruct t; cbv [in_range imin imax isigned ibits promote] in * ; simpl Z.sub in * ; simpl Z.pow in * ; lia. Qed.
Lemma in_range_mid t a b z : in_range t a -> in_range t b -> a <= z <= b -> in_range t z.
Proof. unfold in_range. lia. Qed.
Lemma in_range_0 t : in_range t 0.
Proof. pose proof (imin_le_0 t). unfold in_range. lia. Qed.
Lemma in_range_1 t : in_range t 1.
Proof. destruct t; cbv; split; discriminate. Qed.

(** ** abs, sgn, max, min *)

Lemma abs_int_ok t x : in_range t x -> in_range t (Z.abs x) -> abs_int t x = Ok (Z.abs x).
Proof.
  intros H H'. unfold abs_int. destruct (Z.eqb_spec x 0); [subst; reflexivity|].
  destruct (Z.ltb_spec x 0).
  - unfold ineg. rewrite iarith_ok.
    + simpl. replace (- x) with (Z.abs x) by lia. rewrite icast_id; auto.
    + apply in_range_promote. replace (- x) with (Z.abs x) by lia. auto.
  - rewrite Z.abs_eq by lia. reflexivity.
Qed.
Lemma abs_int_min t : isigned t = true -> wide t = true -> abs_int t (imin t) = Ub UbOverflow.
Proof. destruct t; intros A B; try discriminate; reflexivity. Qed.
Lemma abs_int_min_narrow t : isigned t = true -> wide t = false -> abs_int t (imin t) = Ok (imin t).
Proof. destruct t; intros A B; try discriminate; reflexivity. Qed.
Lemma sgn_int_ok x : sgn_int x = Z.sgn x.
Proof. unfold sgn_int. destruct (Z.ltb_spec 0 x), (Z.ltb_spec x 0); lia. Qed.

Lemma in_range_common_arith s t z : in_range (common s t) z -> in_range (arith s t) z.
Proof.
  unfold common. destruct (ity_eqb s t) eqn:E; auto. intros H.
  destruct s, t; try discriminate; cbv [in_range imin imax isigned ibits arith promote] in * ; simpl Z.sub in * ; simpl Z.pow in * ; lia.
Qed.
Lemma max_int_ok t1 t2 x y : in_range (common t1 t2) x -> in_range (common t1 t2) y ->
  max_int t1 t2 x y = Z.max x y.
Proof.
  intros Hx Hy. unfold max_int. rewrite !(icast_id (arith t1 t2)) by (apply in_range_common_arith; auto).
  destruct (Z.ltb_spec y x); rewrite icast_id by auto; lia.
Qed.
Lemma min_int_ok t1 t2 x y : in_range (common t1 t2) x -> in_range (common t1 t2) y ->
  min_int t1 t2 x y = Z.min x y.
Proof.
  intros Hx Hy. unfold min_int. rewrite !(icast_id (arith t1 t2)) by (apply in_range_common_arith; auto).
  destruct (Z.ltb_spec x y); rewrite icast_id by auto; lia.
Qed.

(** ** gcd, lcm *)

Lemma irem_ok t a b : in_range t a -> 0 <= a -> 0 < b -> irem t a b = Ok (a mod b).
Proof.
  intros Ha H0 Hb. unfold irem. destruct (Z.eqb_spec b 0); [lia|].
  rewrite iarith_ok.
  - simpl. rewrite Z.rem_mod_nonneg by lia. reflexivity.
  - rewrite Z.quot_div_nonneg by lia. apply in_range_mid with 0 a; auto using in_range_0.
    split. { apply Z.div_pos; lia. } apply Z.div_le_upper_bound; nia.
Qed.
Lemma idiv_ok t a b : in_range t a -> 0 < b -> idiv t a b = Ok (Z.quot a b).
Proof.
  intros Ha H0. unfold idiv. destruct (Z.eqb_spec b 0); [lia|]. apply iarith_ok.
  pose proof (imin_le_0 t). unfold in_range in * . destruct (Z_le_gt_dec 0 a).
  - assert (0 <= Z.quot a b) by (apply Z.quot_pos; lia).
    assert (Z.quot a b <= a) by (apply Z.quot_le_upper_bound; nia). lia.
  - assert (E : Z.quot a b = - Z.quot (- a) b) by (rewrite Z.quot_opp_l; lia).
    assert (0 <= Z.quot (- a) b) by (apply Z.quot_pos; lia).
    assert (Z.quot (- a) b <= - a) by (apply Z.quot_le_upper_bound; nia). lia.
Qed.

Lemma gcd_recur_ok t : forall k n a b, in_range t a -> in_range t b -> 0 <= a -> 0 <= b < 2 ^ Z.of_nat k ->
  (2 * k + 1 <= n)%nat -> gcd_recur n t a b = Ok (Z.gcd a b).
Proof.
  induction k as [|k IH]; intros n a b Ra Rb Ha Hb Hn.
  - simpl in Hb. assert (b = 0) by lia. subst b. destruct n; [lia|]. simpl. rewrite Z.gcd_0_r, Z.abs_eq; auto.
  - destruct n as [|n]; [lia|]. cbn [gcd_recur]. destruct (Z.eqb_spec b 0).
    + subst. rewrite Z.gcd_0_r, Z.abs_eq; auto.
    + rewrite irem_ok by (auto; lia). cbn [bind].
      pose proof (Z.mod_pos_bound a b ltac:(lia)) as Hr.
      assert (Rr : in_range t (a mod b)) by (apply in_range_mid with 0 b; auto using in_range_0; lia).
      destruct n as [|n]; [lia|]. cbn [gcd_recur]. destruct (Z.eqb_spec (a mod b) 0) as [E|E].
      * rewrite (Z.gcd_comm a b). rewrite <- (Z.gcd_mod a b) by lia. rewrite E, Z.gcd_0_l, Z.abs_eq; auto; lia.
      * rewrite irem_ok by (auto; lia). cbn [bind].
        set (r := a mod b) in * . pose proof (Z.mod_pos_bound b r ltac:(lia)) as Hr2.
        rewrite IH.
        -- f_equal. rewrite (Z.gcd_comm r), Z.gcd_mod by lia. unfold r. rewrite Z.gcd_mod by lia. apply Z.gcd_comm.
        -- auto.
        -- apply in_range_mid with 0 b; auto using in_range_0. lia.
        -- lia.
        -- split; [lia|]. rewrite Nat2Z.inj_succ, Z.pow_succ_r in Hb by lia.
           pose proof (Z.div_mod b r ltac:(lia)). assert (1 <= b / r) by (apply Z.div_le_lower_bound; lia). nia.
        -- lia.
Qed.

Lemma imax_lt_64 t : imax t < 2 ^ Z.of_nat 64.
Proof. destruct t; reflexivity. Qed.

Lemma gcd_int_ok t1 t2 a b :
  in_range t1 a -> in_range t2 b -> in_range t1 (Z.abs a) -> in_range t2 (Z.abs b) ->
  in_range (common t1 t2) (Z.abs a) -> in_range (common t1 t2) (Z.abs b) ->
  gcd_int t1 t2 a b = Ok (Z.gcd a b).
Proof.
  intros. unfold gcd_int. rewrite !abs_int_ok by auto. cbn [bind]. rewrite !icast_id by auto.
  rewrite gcd_recur_ok with (k := 64%nat); auto; try lia.
  - rewrite Z.gcd_abs_l, Z.gcd_abs_r. reflexivity.
  - split; [lia|]. pose proof (imax_lt_64 (common t1 t2)). unfold in_range in * . lia.
  - unfold gcd_fuel. lia.
Qed.

Lemma common_refl t : common t t = t.
Proof. destruct t; reflexivity. Qed.
Lemma common_idem s t : common (common s t) (common s t) = common s t.
Proof. apply common_refl. Qed.

Lemma lcm_int_ok t1 t2 a b :
  in_range (common t1 t2) a -> in_range (common t1 t2) b ->
  in_range (common t1 t2) (Z.abs a) -> in_range (common t1 t2) (Z.abs b) ->
  (a <> 0 \/ b <> 0) -> in_range (common t1 t2) (Z.lcm a b) ->
  lcm_int t1 t2 a b = Ok (Z.lcm a b).
Proof.
  intros Ra Rb Raa Rab Hz Rl. unfold lcm_int. rewrite !icast_id by auto. unfold lcm_compute_int.
  set (t := common t1 t2) in * .
  rewrite gcd_int_ok by (rewrite ?common_refl; auto). cbn [bind].
  assert (Hg : 0 < Z.gcd a b).
  { pose proof (Z.gcd_nonneg a b). destruct (Z.eq_dec (Z.gcd a b) 0) as [E|E]; [|lia].
    pose proof (Z.gcd_eq_0_l _ _ E). pose proof (Z.gcd_eq_0_r _ _ E). lia. }
  rewrite idiv_ok by (auto; lia). cbn [bind].
  pose proof (Z.gcd_divide_r a b) as [q Hq].
  assert (E : Z.quot b (Z.gcd a b) = q) by (rewrite Hq at 1; apply Z.quot_mul; lia).
  assert (E' : b / Z.gcd a b = q) by (rewrite Hq at 1; apply Z.div_mul; lia).
  rewrite E. assert (L : Z.lcm a b = Z.abs (a * q)) by (unfold Z.lcm; rewrite E'; reflexivity).
  assert (Rm : in_range t (a * q)).
  { rewrite L in Rl. unfold in_range in * . pose proof (imin_le_0 t).
    destruct (isigned t) eqn:S.
    - assert (imin t = - imax t - 1) by (destruct t; try discriminate; reflexivity). lia.
    - assert (imin t = 0) by (destruct t; try discriminate; reflexivity).
      assert (0 <= a * q); [|lia]. assert (0 <= q) by nia. nia. }
  unfold imul. rewrite iarith_ok by auto. cbn [bind]. rewrite L. apply abs_int_ok; auto. rewrite <- L; auto.
Qed.

(** ** factorial *)

Lemma nfact_pos n : 1 <= nfact n.
Proof. induction n; cbn [nfact]; nia. Qed.
Lemma nfact_mono n m : (n <= m)%nat -> nfact n <= nfact m.
Proof.
  induction 1; [lia|]. cbn [nfact]. pose proof (nfact_pos m). nia.
Qed.
Lemma factorial_int_ok n t x : 0 <= x -> in_range t x -> in_range t (zfact x) -> (0 < n)%nat ->
  factorial_int n t x = Ok (zfact x).
Proof.
  intros H0 Rx Rf Hn. unfold factorial_int. destruct n as [|n]; [lia|]. cbn [factorial_recur].
  assert (H20 : x <= 20).
  { destruct (Z_le_gt_dec x 20); auto. exfalso.
    assert (nfact 21 <= zfact x) by (unfold zfact; apply nfact_mono; lia).
    assert (imax t < nfact 21) by (destruct t; reflexivity). unfold in_range in Rf. lia. }
  assert (E : icast t 21 = 21) by (destruct t; reflexivity). rewrite E.
  destruct (Z.ltb_spec x 21); [|lia]. f_equal.
  assert (Hc : x = 0 \/ x = 1 \/ x = 2 \/ x = 3 \/ x = 4 \/ x = 5 \/ x = 6 \/ x = 7 \/ x = 8 \/ x = 9 \/ x = 10 \/
               x = 11 \/ x = 12 \/ x = 13 \/ x = 14 \/ x = 15 \/ x = 16 \/ x = 17 \/ x = 18 \/ x = 19 \/ x = 20) by lia.
  rewrite <- (icast_id t (zfact x)) by auto. clear - Hc.
  repeat (destruct Hc as [Hc|Hc]; [subst x; destruct t; reflexivity|]). subst x; destruct t; reflexivity.
Qed.

(** ** binomial_coef *)

Fixpoint pascal (n k : nat) : Z :=
  match k with
  | O => 1
  | S k' => match n with O => 0 | S n' => pascal n' k' + pascal n' k end
  end.
Lemma pascal_0 n k : (n < k)%nat -> pascal n k = 0.
Proof.
  revert k. induction n; intros [|k] H; try lia; cbn; auto. rewrite !IHn by lia. reflexivity.
Qed.
Lemma pascal_diag n : pascal n n = 1.
Proof. induction n; cbn; auto. rewrite IHn, pascal_0 by lia. reflexivity. Qed.
Lemma pascal_nonneg n k : 0 <= pascal n k.
Proof. revert k. induction n; intros [|k]; cbn; try lia. pose proof (IHn k). pose proof (IHn (S k)). lia. Qed.
Lemma pascal_fact : forall n k, (k <= n)%nat -> pascal n k * (nfact k * nfact (n - k)) = nfact n.
Proof.
  induction n; intros [|k] H; try lia; try reflexivity.
  - cbn [pascal nfact]. replace (S n - 0)%nat with (S n) by lia. cbn [nfact]. lia.
  - cbn [pascal]. replace (S n - S k)%nat with (n - k)%nat by lia.
    destruct (Nat.eq_dec k n) as [->|Hne].
    + rewrite (pascal_0 n (S n)) by lia. rewrite pascal_diag. replace (n - n)%nat with 0%nat by lia. cbn [nfact]. lia.
    + pose proof (IHn k ltac:(lia)) as A. pose proof (IHn (S k) ltac:(lia)) as B.
      replace (n - k)%nat with (S (n - S k)) in * by lia.
      change (nfact (S n)) with (Z.of_nat (S n) * nfact n).
      change (nfact (S k)) with (Z.of_nat (S k) * nfact k) in * .
      change (nfact (S (n - S k))) with (Z.of_nat (S (n - S k)) * nfact (n - S k)) in * .
      replace (Z.of_nat (S n)) with (Z.of_nat (S k) + Z.of_nat (S (n - S k))) by lia.
      transitivity (Z.of_nat (S k) * (pascal n k * (nfact k * (Z.of_nat (S (n - S k)) * nfact (n - S k))))
                    + Z.of_nat (S (n - S k)) * (pascal n (S k) * (Z.of_nat (S k) * nfact k * nfact (n - S k)))); [ring|].
      rewrite A, B. ring.
Qed.
Lemma is_choose_pascal n k c : is_choose (Z.of_nat n) (Z.of_nat k) c -> c = pascal n k.
Proof.
  unfold is_choose, zfact. destruct (Z.leb_spec (Z.of_nat k) (Z.of_nat n)).
  - rewrite <- Nat2Z.inj_sub by lia. rewrite !Nat2Z.id. intros E.
    rewrite <- (pascal_fact n k) in E by lia.
    pose proof (nfact_pos k). pose proof (nfact_pos (n - k)).
    eapply Z.mul_reg_r; [|exact E]. nia.
  - intros ->. rewrite pascal_0; auto. lia.
Qed.

Lemma binomial_recur_ok t : forall n k fuel, in_range t (Z.of_nat n) -> in_range t (Z.of_nat k) ->
  in_range t (pascal n k) -> (n < fuel)%nat ->
  binomial_coef_recur fuel t (Z.of_nat n) (Z.of_nat k) = Ok (pascal n k).
Proof.
  induction n as [|n IH]; intros k fuel Rn Rk Rp Hf; (destruct fuel as [|fuel]; [lia|]); cbn [binomial_coef_recur].
  - destruct k; [reflexivity|].
    destruct (Z.eqb_spec (Z.of_nat (S k)) 0); [lia|]. destruct (Z.eqb_spec (Z.of_nat 0) (Z.of_nat (S k))); [lia|]. reflexivity.
  - destruct k as [|k]; [reflexivity|].
    destruct (Z.eqb_spec (Z.of_nat (S k)) 0); [lia|]. cbn [orb].
    destruct (Z.eqb_spec (Z.of_nat (S n)) (Z.of_nat (S k))) as [E|E].
    + apply Nat2Z.inj in E. rewrite E, pascal_diag. reflexivity.
    + destruct (Z.eqb_spec (Z.of_nat (S n)) 0); [lia|].
      unfold isub. rewrite !iarith_ok by (eapply in_range_mid; [apply (in_range_0 t)|exact Rn| lia] || (eapply in_range_mid; [apply (in_range_0 t)|exact Rk| lia])).
      cbn [bind]. replace (Z.of_nat (S n) - 1) with (Z.of_nat n) by lia. replace (Z.of_nat (S k) - 1) with (Z.of_nat k) by lia.
      cbn [pascal] in Rp. pose proof (pascal_nonneg n k). pose proof (pascal_nonneg n (S k)).
      assert (Rn' : in_range t (Z.of_nat n)) by (eapply in_range_mid; [apply (in_range_0 t)|exact Rn| lia]).
      assert (Rk' : in_range t (Z.of_nat k)) by (eapply in_range_mid; [apply (in_range_0 t)|exact Rk| lia]).
      rewrite IH; auto; [|eapply in_range_mid; [apply (in_range_0 t)|exact Rp| lia]|lia].
      rewrite IH; auto; [|eapply in_range_mid; [apply (in_range_0 t)|exact Rp| lia]|lia].
      cbn [bind]. unfold iadd. apply iarith_ok. auto.
Qed.
Lemma binomial_int_ok fuel t1 t2 n k c : 0 <= n -> 0 <= k ->
  in_range (common t1 t2) n -> in_range (common t1 t2) k ->
  is_choose n k c -> in_range (common t1 t2) c -> n < Z.of_nat fuel ->
  binomial_coef_int fuel t1 t2 n k = Ok c.
Proof.
  intros Hn Hk Rn Rk Hc Rc Hf. unfold binomial_coef_int. rewrite !icast_id by auto.
  rewrite <- (Z2Nat.id n), <- (Z2Nat.id k) in * by lia.
  apply is_choose_pascal in Hc. subst c. rewrite binomial_recur_ok by (try apply in_range_promote; auto; lia). cbn [bind]. rewrite icast_id by auto. reflexivity.
Qed.

(** ** Integer power *)

Lemma is_odd_Zodd x : is_odd x = Z.odd x.
Proof.
  unfold is_odd, icast. cbn [isigned ibits].
  change 1 with (Z.ones 1). rewrite Z.land_ones by lia. change (2 ^ 1) with 2.
  rewrite <- Zmod_div_mod; try lia. 2:{ exists (2 ^ 63). reflexivity. }
  rewrite Zodd_mod. unfold Zeq_bool. pose proof (Z.mod_pos_bound x 2 ltac:(lia)).
  destruct (Z.eqb_spec (x mod 2) 0) as [->|]; [reflexivity|]. replace (x mod 2) with 1 by lia. reflexivity.
Qed.

Lemma sq_not_min t b : wide t = true -> isigned t = true -> b * b <> imax t + 1.
Proof.
  intros W S. destruct t; try discriminate; cbv [imax isigned ibits]; simpl Z.sub; simpl Z.pow.
  - intros E. assert (Z.abs b <= 46340 \/ 46341 <= Z.abs b) by lia. nia.
  - intros E. assert (Z.abs b <= 3037000499 \/ 3037000500 <= Z.abs b) by lia. nia.
Qed.

Lemma pow_ge_sq x e : 2 <= x -> 2 <= e -> x * x <= x ^ e.
Proof. intros. replace (x * x) with (x ^ 2) by ring. apply Z.pow_le_mono_r; lia. Qed.
Lemma abs_pow x e : 0 <= e -> Z.abs (x ^ e) = Z.abs x ^ e.
Proof. intros. apply Z.abs_pow. Qed.

Lemma in_range_abs t z m : in_range t m -> Z.abs z <= Z.abs m -> 0 <= z * m -> in_range t z.
Proof. intros R A S. unfold in_range in * . pose proof (imin_le_0 t). nia. Qed.

Lemma in_range_sq t b val e : wide t = true -> val <> 0 -> in_range t b ->
  (Z.abs b <= 1 -> Z.abs val <= 1) -> 2 <= e -> in_range t (val * b ^ e) -> in_range t (b * b).
Proof.
  intros W V Rb I He R.
  destruct (Z_le_gt_dec (Z.abs b) 1) as [L|L].
  - apply in_range_mid with 0 1; auto using in_range_0, in_range_1. nia.
  - assert (A : Z.abs (b * b) <= Z.abs (val * b ^ e)).
    { rewrite !Z.abs_mul, abs_pow by lia. pose proof (pow_ge_sq (Z.abs b) e ltac:(lia) He). nia. }
    unfold in_range in * . pose proof (imin_le_0 t). destruct (isigned t) eqn:S.
    + pose proof (sq_not_min t b W S). assert (imin t = - imax t - 1) by (destruct t; try discriminate; reflexivity). nia.
    + assert (imin t = 0) by (destruct t; try discriminate; reflexivity). nia.
Qed.
Lemma in_range_mulb t b val e : val <> 0 -> in_range t b -> in_range t val ->
  (Z.abs b <= 1 -> Z.abs val <= 1) -> 3 <= e -> in_range t (val * b ^ e) -> in_range t (val * b).
Proof.
  intros V Rb Rv I He R.
  destruct (Z_le_gt_dec (Z.abs b) 1) as [L|L].
  - specialize (I L). unfold in_range in * . pose proof (imin_le_0 t). destruct (isigned t) eqn:S.
    + assert (imin t = - imax t - 1 /\ 1 <= imax t) by (destruct t; try discriminate; split; try reflexivity; discriminate). nia.
    + assert (imin t = 0 /\ 1 <= imax t) by (destruct t; try discriminate; split; try reflexivity; discriminate). nia.
  - assert (A : 2 * Z.abs (val * b) <= Z.abs (val * b ^ e)).
    { replace e with (1 + (e - 1)) by lia. rewrite Z.pow_add_r, Z.pow_1_r by lia.
      rewrite !Z.abs_mul, abs_pow by lia. pose proof (pow_ge_sq (Z.abs b) (e - 1) ltac:(lia) ltac:(lia)).
      assert (2 <= Z.abs b ^ (e - 1)) by nia. nia. }
    unfold in_range in * . pose proof (imin_le_0 t). destruct (isigned t) eqn:S.
    + assert (imin t = - imax t - 1 /\ 1 <= imax t) by (destruct t; try discriminate; split; try reflexivity; discriminate). lia.
    + assert (imin t = 0 /\ 1 <= imax t) by (destruct t; try discriminate; split; try reflexivity; discriminate). nia.
Qed.

Lemma pow_recur_int_S n t1 base val e : pow_recur_int (S n) t1 base val e =
      (if 1 <? e then
        (if is_odd e then
           let* b2 := imul t1 base base in
           let* v2 := imul t1 val base in
           pow_recur_int n t1 b2 v2 (e / 2)
         else
           let* b2 := imul t1 base base in
           pow_recur_int n t1 b2 val (e / 2))
      else if e =? 1 then imul t1 val base else Ok val).
Proof. reflexivity. Qed.

Lemma pow_recur_int_ok t : wide t = true -> forall n b val e,
  0 <= e < 2 ^ Z.of_nat n -> (b = 0 \/ val <> 0) -> in_range t b -> in_range t val ->
  (Z.abs b <= 1 -> Z.abs val <= 1) -> in_range t (val * b ^ e) ->
  pow_recur_int (S n) t b val e = Ok (val * b ^ e).
Proof.
  intros W. induction n as [|n IH]; intros b val e He V Rb Rv I R.
  - simpl in He. assert (e = 0) by lia. subst e. simpl. rewrite Z.mul_1_r. reflexivity.
  - rewrite pow_recur_int_S. destruct (Z.ltb_spec 1 e) as [L|L].
    + rewrite is_odd_Zodd. rewrite Nat2Z.inj_succ, Z.pow_succ_r in He by lia.
      assert (He2 : 0 <= e / 2 < 2 ^ Z.of_nat n).
      { split; [apply Z.div_pos; lia | apply Z.div_lt_upper_bound; lia]. }
      assert (Rsq : in_range t (b * b)).
      { destruct (Z.eq_dec b 0) as [->|Hb]. { apply in_range_0. }
        apply in_range_sq with val e; auto; try lia. }
      pose proof (Z.div_mod e 2 ltac:(lia)) as Dm. rewrite Zmod_odd in Dm.
      unfold imul. destruct (Z.odd e) eqn:O.
      * rewrite iarith_ok by auto. cbn [bind].
        assert (Rvb : in_range t (val * b)).
        { destruct (Z.eq_dec b 0) as [->|Hb]. { rewrite Z.mul_0_r. apply in_range_0. }
          apply in_range_mulb with e; auto; lia. }
        rewrite iarith_ok by auto. cbn [bind].
        assert (P : val * b * (b * b) ^ (e / 2) = val * b ^ e).
        { replace (b * b) with (b ^ 2) by ring. rewrite <- Z.pow_mul_r by lia.
          rewrite <- Z.mul_assoc. f_equal. rewrite <- Z.pow_succ_r by lia. f_equal. lia. }
        rewrite IH; auto.
        -- f_equal; auto.
        -- destruct (Z.eq_dec b 0); [left; nia | right; nia].
        -- intros. nia.
        -- rewrite P; auto.
      * rewrite iarith_ok by auto. cbn [bind].
        assert (P : val * (b * b) ^ (e / 2) = val * b ^ e).
        { replace (b * b) with (b ^ 2) by ring. rewrite <- Z.pow_mul_r by lia. do 2 f_equal. lia. }
        rewrite IH; auto.
        -- f_equal; auto.
        -- destruct (Z.eq_dec b 0); [left; nia | right; nia].
        -- intros. apply I. nia.
        -- rewrite P; auto.
    + destruct (Z.eqb_spec e 1).
      * subst e. rewrite Z.pow_1_r in * . apply iarith_ok; auto.
      * assert (e = 0) by lia. subst e. rewrite Z.pow_0_r, Z.mul_1_r. reflexivity.
Qed.

Lemma in_range_bits t e : in_range t e -> 0 <= e -> e < 2 ^ Z.of_nat 64.
Proof. intros R _. pose proof (imax_lt_64 t). unfold in_range in R. lia. Qed.

Lemma pow_cases_int_ok t1 t2 b e k : wide t1 = true -> in_range t1 b -> 0 <= e -> e <> imax t2 ->
  in_range t1 (b ^ e) -> (3 < e -> k = Ok (b ^ e)) ->
  pow_cases_int t1 t2 b e k = Ok (b ^ e).
Proof.
  intros W Rb He Hmax R Hk. unfold pow_cases_int, imul.
  destruct (Z.eqb_spec e 3) as [->|].
  { assert (in_range t1 (b * b)). { apply in_range_sq with 1 3; auto; try lia. rewrite Z.mul_1_l; auto. }
    rewrite iarith_ok by auto. cbn [bind]. rewrite iarith_ok.
    - f_equal. ring.
    - replace (b * b * b) with (b ^ 3) by ring. auto. }
  destruct (Z.eqb_spec e 2) as [->|]. { rewrite iarith_ok. { f_equal; ring. } replace (b * b) with (b ^ 2) by ring. auto. }
  destruct (Z.eqb_spec e 1) as [->|]. { f_equal; ring. }
  destruct (Z.eqb_spec e 0) as [->|]. { reflexivity. }
  destruct (Z.eqb_spec e (imin t2)). { pose proof (imin_le_0 t2). lia. }
  destruct (Z.eqb_spec e (imax t2)). { lia. }
  apply Hk. lia.
Qed.

Lemma pow_recur_full t1 t2 b e : wide t1 = true -> in_range t1 b -> in_range t2 e -> 0 <= e ->
  in_range t1 (b ^ e) -> pow_recur_int pow_fuel t1 b 1 e = Ok (b ^ e).
Proof.
  intros W Rb Re He R. unfold pow_fuel. change (Z.to_nat 66) with (S 65).
  rewrite pow_recur_int_ok; auto; rewrite ?Z.mul_1_l; auto using in_range_1; try lia.
  pose proof (in_range_bits t2 e Re He). split; auto. eapply Z.lt_trans; [eassumption|]. reflexivity.
Qed.

Lemma pow_int_ok t1 t2 b e : wide t1 = true -> in_range t1 b -> in_range t2 e -> 0 <= e -> e <> imax t2 ->
  in_range t1 (b ^ e) -> in_range (common t1 t2) (b ^ e) ->
  pow_int t1 t2 b e = Ok (b ^ e).
Proof.
  intros W Rb Re He Hm R Rc. unfold pow_int, pow_integral_int.
  rewrite pow_cases_int_ok; auto.
  - cbn [bind]. rewrite icast_id; auto.
  - intros. destruct (Z.ltb_spec e 0); [lia|]. rewrite andb_false_r. apply pow_recur_full with t2; auto.
Qed.

Lemma in_range_quot1 t p : in_range t p -> p <> 0 -> in_range t (Z.quot 1 p).
Proof.
  intros R Hp.
  assert (Z.quot 1 p = 0 \/ Z.quot 1 p = 1 \/ (Z.quot 1 p = -1 /\ p = -1)) as [->|[->|[-> ->]]].
  { destruct (Z.eq_dec p 1) as [->|]; [right; left; reflexivity|].
    destruct (Z.eq_dec p (-1)) as [->|]; [right; right; split; reflexivity|].
    left. apply Z.quot_small_iff; lia. }
  - apply in_range_0.
  - apply in_range_1.
  - auto.
Qed.

Lemma pow_int_neg_ok t1 t2 b e : wide t1 = true -> isigned t2 = true -> in_range t1 b -> in_range t2 e ->
  e < 0 -> e <> imin t2 -> - e <> imax (promote t2) -> b <> 0 ->
  in_range t1 (b ^ (- e)) -> in_range (common t1 t2) (Z.quot 1 (b ^ (- e))) ->
  pow_int t1 t2 b e = Ok (Z.quot 1 (b ^ (- e))).
Proof.
  intros W S Rb Re He Hmin Hmax Hb R Rc. unfold pow_int, pow_integral_int. unfold pow_cases_int at 1.
  destruct (Z.eqb_spec e 3); [lia|]. destruct (Z.eqb_spec e 2); [lia|]. destruct (Z.eqb_spec e 1); [lia|].
  destruct (Z.eqb_spec e 0); [lia|]. destruct (Z.eqb_spec e (imin t2)); [lia|].
  destruct (Z.eqb_spec e (imax t2)). { pose proof (imin_le_0 t2). lia. }
  rewrite S. destruct (Z.ltb_spec e 0); [|lia]. cbn [andb].
  assert (Rne : in_range (promote t2) (- e)).
  { destruct t2; try discriminate; cbv [in_range imin imax isigned ibits promote] in * ; simpl Z.sub in * ; simpl Z.pow in * ; lia. }
  unfold ineg. rewrite iarith_ok by auto. cbn [bind].
  rewrite pow_cases_int_ok; auto; try lia.
  - cbn [bind]. unfold idiv. assert (Hp : b ^ (- e) <> 0) by (apply Z.pow_nonzero; lia).
    destruct (Z.eqb_spec (b ^ (- e)) 0); [lia|]. rewrite iarith_ok by (apply in_range_quot1; auto).
    cbn [bind]. rewrite icast_id; auto.
  - intros. apply pow_recur_full with (promote t2); auto; lia.
Qed.

(** ** Statements at the level of the public functions *)
From Verif Require Import ModelApi.

Lemma api_gcd t1 t2 a b :
  in_range t1 a -> in_range t2 b -> in_range t1 (Z.abs a) -> in_range t2 (Z.abs b) ->
  in_range (common t1 t2) (Z.abs a) -> in_range (common t1 t2) (Z.abs b) ->
  gcem_gcd (AInt t1 a) (AInt t2 b) = Ok (AInt (common t1 t2) (Z.gcd a b)).
Proof. intros. unfold gcem_gcd. rewrite gcd_int_ok by auto. reflexivity. Qed.

Lemma api_lcm t1 t2 a b :
  in_range (common t1 t2) a -> in_range (common t1 t2) b ->
  in_range (common t1 t2) (Z.abs a) -> in_range (common t1 t2) (Z.abs b) ->
  (a <> 0 \/ b <> 0) -> in_range (common t1 t2) (Z.lcm a b) ->
  gcem_lcm (AInt t1 a) (AInt t2 b) = Ok (AInt (common t1 t2) (Z.lcm a b)).
Proof. intros. unfold gcem_lcm. rewrite lcm_int_ok by auto. reflexivity. Qed.

Lemma api_lcm_zero t1 t2 : gcem_lcm (AInt t1 0) (AInt t2 0) = Ub UbDivZero.
Proof. destruct t1, t2; vm_compute; reflexivity. Qed.

Lemma api_factorial v n t x : 0 <= x -> in_range t x -> in_range t (zfact x) -> (0 < n)%nat ->
  gcem_factorial v n (AInt t x) = Ok (AInt t (zfact x)).
Proof. intros. unfold gcem_factorial. rewrite factorial_int_ok by auto. reflexivity. Qed.

Lemma factorial_table_neg t x : x < 0 -> factorial_table t x = icast t (zfact 20).
Proof.
  intros H. unfold factorial_table.
  repeat match goal with |- context [ x =? icast t ?k ] =>
    replace (x =? icast t k) with false by (symmetry; apply Z.eqb_neq; destruct t; vm_compute icast; lia) end.
  reflexivity.
Qed.
Lemma api_factorial_neg v n t x : x < 0 -> (0 < n)%nat ->
  gcem_factorial v n (AInt t x) = Ok (AInt t (icast t (zfact 20))).
Proof.
  intros H Hn. unfold gcem_factorial, factorial_int. destruct n as [|n]; [lia|]. cbn [factorial_recur].
  assert (E : icast t 21 = 21) by (destruct t; reflexivity). rewrite E.
  destruct (Z.ltb_spec x 21); [|lia]. cbn [bind]. rewrite factorial_table_neg by auto. reflexivity.
Qed.
Lemma api_factorial_wrap v n t x : 0 <= x <= 20 -> (0 < n)%nat ->
  gcem_factorial v n (AInt t x) = Ok (AInt t (icast t (zfact x))).
Proof.
  intros H Hn. unfold gcem_factorial, factorial_int. destruct n as [|n]; [lia|]. cbn [factorial_recur].
  assert (E : icast t 21 = 21) by (destruct t; reflexivity). rewrite E.
  destruct (Z.ltb_spec x 21); [|lia]. cbn [bind]. do 2 f_equal.
  assert (Hc : x = 0 \/ x = 1 \/ x = 2 \/ x = 3 \/ x = 4 \/ x = 5 \/ x = 6 \/ x = 7 \/ x = 8 \/ x = 9 \/ x = 10 \/
               x = 11 \/ x = 12 \/ x = 13 \/ x = 14 \/ x = 15 \/ x = 16 \/ x = 17 \/ x = 18 \/ x = 19 \/ x = 20) by lia.
  clear - Hc.
  repeat (destruct Hc as [Hc|Hc]; [subst x; destruct t; reflexivity|]). subst x; destruct t; reflexivity.
Qed.

Lemma api_binomial fuel t1 t2 n k c : 0 <= n -> 0 <= k ->
  in_range (common t1 t2) n -> in_range (common t1 t2) k ->
  is_choose n k c -> in_range (common t1 t2) c -> n < Z.of_nat fuel ->
  gcem_binomial_coef fuel (AInt t1 n) (AInt t2 k) = Ok (AInt (common t1 t2) c).
Proof. intros. unfold gcem_binomial_coef. rewrite binomial_int_ok with (c := c) by auto. reflexivity. Qed.

Lemma api_pow v t1 t2 b e : wide t1 = true -> in_range t1 b -> in_range t2 e -> 0 <= e -> e <> imax t2 ->
  in_range t1 (b ^ e) -> in_range (common t1 t2) (b ^ e) ->
  gcem_pow v (AInt t1 b) (AInt t2 e) = Ok (AInt (common t1 t2) (b ^ e)).
Proof. intros. unfold gcem_pow. rewrite pow_int_ok by auto. reflexivity. Qed.
Lemma api_pow_neg v t1 t2 b e : wide t1 = true -> isigned t2 = true -> in_range t1 b -> in_range t2 e ->
  e < 0 -> e <> imin t2 -> - e <> imax (promote t2) -> b <> 0 ->
  in_range t1 (b ^ (- e)) -> in_range (common t1 t2) (Z.quot 1 (b ^ (- e))) ->
  gcem_pow v (AInt t1 b) (AInt t2 e) = Ok (AInt (common t1 t2) (Z.quot 1 (b ^ (- e)))).
Proof. intros. unfold gcem_pow. rewrite pow_int_neg_ok by auto. reflexivity. Qed.

Lemma api_pow_imax v t1 t2 b : gcem_pow v (AInt t1 b) (AInt t2 (imax t2)) = Ok (AInt (common t1 t2) 0).
Proof.
  unfold gcem_pow, pow_int, pow_integral_int. unfold pow_cases_int at 1. rewrite Z.eqb_refl.
  assert (H : (imax t2 =? 3) = false /\ (imax t2 =? 2) = false /\ (imax t2 =? 1) = false /\ (imax t2 =? 0) = false
              /\ (imax t2 =? imin t2) = false) by (destruct t2; repeat split; reflexivity).
  destruct H as (-> & -> & -> & -> & ->). cbn [bind]. rewrite icast_id by apply in_range_0. reflexivity.
Qed.
Lemma api_pow_imin v t1 t2 b : isigned t2 = true -> gcem_pow v (AInt t1 b) (AInt t2 (imin t2)) = Ok (AInt (common t1 t2) 0).
Proof.
  intros S. unfold gcem_pow, pow_int, pow_integral_int. unfold pow_cases_int at 1. rewrite Z.eqb_refl.
  assert (H : (imin t2 =? 3) = false /\ (imin t2 =? 2) = false /\ (imin t2 =? 1) = false /\ (imin t2 =? 0) = false)
    by (destruct t2; try discriminate; repeat split; reflexivity).
  destruct H as (-> & -> & -> & ->). cbn [bind]. rewrite icast_id by apply in_range_0. reflexivity.
Qed.
(** base zero, negative exponent *)
Lemma pow_zero t1 e n : wide t1 = true -> 0 <= e < 2 ^ Z.of_nat n -> 0 < e -> pow_recur_int (S n) t1 0 1 e = Ok 0.
Proof.
  intros W He Hp. rewrite pow_recur_int_ok; auto using in_range_0, in_range_1; rewrite ?Z.pow_0_l by lia; auto using in_range_0; lia.
Qed.
Lemma api_pow_0_neg v t1 t2 e : wide t1 = true -> isigned t2 = true -> in_range t2 e -> e < 0 -> e <> imin t2 ->
  gcem_pow v (AInt t1 0) (AInt t2 e) = Ub UbDivZero.
Proof.
  intros W S Re He Hmin. unfold gcem_pow, pow_int, pow_integral_int. unfold pow_cases_int at 1.
  destruct (Z.eqb_spec e 3); [lia|]. destruct (Z.eqb_spec e 2); [lia|]. destruct (Z.eqb_spec e 1); [lia|].
  destruct (Z.eqb_spec e 0); [lia|]. destruct (Z.eqb_spec e (imin t2)); [lia|].
  destruct (Z.eqb_spec e (imax t2)). { pose proof (imin_le_0 t2). lia. }
  rewrite S. destruct (Z.ltb_spec e 0); [|lia]. cbn [andb].
  assert (Rne : in_range (promote t2) (- e)).
  { destruct t2; try discriminate; cbv [in_range imin imax isigned ibits promote] in * ; simpl Z.sub in * ; simpl Z.pow in * ; lia. }
  unfold ineg. rewrite iarith_ok by auto. cbn [bind].
  assert (E : pow_cases_int t1 (promote t2) 0 (- e) (pow_recur_int pow_fuel t1 0 1 (- e)) = Ok 0).
  { destruct (Z.eq_dec (- e) (imax (promote t2))) as [M|M].
    - unfold pow_cases_int. rewrite M, Z.eqb_refl. unfold imul.
      rewrite iarith_ok by apply in_range_0. cbn [bind]. rewrite iarith_ok by apply in_range_0.
      destruct (imax (promote t2) =? 3), (imax (promote t2) =? 2), (imax (promote t2) =? 1); auto.
      destruct t2; try discriminate; reflexivity.
    - rewrite <- (Z.pow_0_l (- e)) by lia. rewrite (Z.pow_0_l (- e)) at 1 2 by lia.
      apply pow_cases_int_ok; auto using in_range_0; try lia.
      + rewrite Z.pow_0_l by lia. apply in_range_0.
      + intros. apply pow_recur_full with (promote t2); auto using in_range_0; try lia.
        rewrite Z.pow_0_l by lia. apply in_range_0. }
  rewrite E. reflexivity.
Qed.

Lemma api_abs t x : in_range t x -> in_range t (Z.abs x) -> gcem_abs (AInt t x) = Ok (AInt t (Z.abs x)).
Proof. intros. unfold gcem_abs. rewrite abs_int_ok by auto. reflexivity. Qed.
Lemma api_abs_min t : isigned t = true ->
  gcem_abs (AInt t (imin t)) = if wide t then Ub UbOverflow else Ok (AInt t (imin t)).
Proof. destruct t; intros S; try discriminate; reflexivity. Qed.
Lemma api_sgn t x : gcem_sgn (AInt t x) = Z.sgn x.
Proof. apply sgn_int_ok. Qed.
Lemma api_max t1 t2 x y : in_range (common t1 t2) x -> in_range (common t1 t2) y ->
  gcem_max (AInt t1 x) (AInt t2 y) = AInt (common t1 t2) (Z.max x y).
Proof. intros. unfold gcem_max. rewrite max_int_ok by auto. reflexivity. Qed.
Lemma api_min t1 t2 x y : in_range (common t1 t2) x -> in_range (common t1 t2) y ->
  gcem_min (AInt t1 x) (AInt t2 y) = AInt (common t1 t2) (Z.min x y).
Proof. intros. unfold gcem_min. rewrite min_int_ok by auto. reflexivity. Qed.
Lemma icast_neg_u32 a : - 2 ^ 31 <= a < 0 -> icast U32 a = a + 2 ^ 32.
Proof. intros H. unfold icast. cbn [isigned ibits]. symmetry. apply Z.mod_unique with (-1); lia. Qed.
Lemma api_max_mixed a b : in_range I32 a -> in_range U32 b -> a < 0 ->
  gcem_max (AInt I32 a) (AInt U32 b) = AInt U32 (Z.max (a + 2 ^ 32) b).
Proof.
  intros Ra Rb H. unfold gcem_max, max_int. change (common I32 U32) with U32. change (arith I32 U32) with U32.
  assert (- 2 ^ 31 <= a < 0) by (unfold in_range, imin, imax in Ra; cbn [isigned ibits] in Ra; lia).
  rewrite (icast_neg_u32 a) by lia. rewrite (icast_id U32 b) by auto.
  assert (in_range U32 (a + 2 ^ 32)) by (unfold in_range, imin, imax; cbn [isigned ibits]; lia).
  destruct (Z.ltb_spec b (a + 2 ^ 32)); rewrite icast_id by auto; f_equal; lia.
Qed.
Lemma api_min_mixed a b : in_range I32 a -> in_range U32 b -> a < 0 ->
  gcem_min (AInt I32 a) (AInt U32 b) = AInt U32 (Z.min (a + 2 ^ 32) b).
Proof.
  intros Ra Rb H. unfold gcem_min, min_int. change (common I32 U32) with U32. change (arith I32 U32) with U32.
  assert (- 2 ^ 31 <= a < 0) by (unfold in_range, imin, imax in Ra; cbn [isigned ibits] in Ra; lia).
  rewrite (icast_neg_u32 a) by lia. rewrite (icast_id U32 b) by auto.
  assert (in_range U32 (a + 2 ^ 32)) by (unfold in_range, imin, imax; cbn [isigned ibits]; lia).
  destruct (Z.ltb_spec (a + 2 ^ 32) b); rewrite icast_id by auto; f_equal; lia.
Qed.
