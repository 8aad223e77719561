(** * The PIN objectives in IEEE binary64 (C120) *)
From Coq Require Import Reals ZArith List Lia Lra Psatz Bool Arith.
From Flocq Require Import Core BinarySingleNaN Relative.
From Verif Require Import Arith XR Float64 Float64b Model_pin.
Import ListNotations.
Local Open Scope R_scope.
#[local] Opaque fadd fsub fmul fdiv fsqrt fofZ val.

(** ** Rounding lemmas *)
Definition bounded (k : Z) (x : b64) : Prop := exists r, val x = Fin r /\ Rabs r <= bpow radix2 k.
Lemma fmt_bpow m : (-1000 <= m < 1024)%Z -> fmt (bpow radix2 m) /\ Rabs (bpow radix2 m) < bpow radix2 1024.
Proof.
  intros H. split; [apply generic_format_bpow; unfold fexp64, SpecFloat.fexp, SpecFloat.emin; lia|].
  rewrite Rabs_right; [apply bpow_lt; lia|apply Rle_ge, bpow_ge_0].
Qed.
Lemma RN_bounded r m : Rabs r <= bpow radix2 m -> (-1000 <= m < 1024)%Z -> RN r = Fin (rnd r) /\ Rabs (rnd r) <= bpow radix2 m.
Proof.
  intros H Hm. destruct (fmt_bpow m Hm) as [F B]. apply Rabs_le_inv in H.
  assert (U : rnd r <= bpow radix2 m) by (rewrite <- (rnd_fmt _ F); apply rnd_mono; lra).
  assert (L : - bpow radix2 m <= rnd r) by (rewrite <- (rnd_fmt (- bpow radix2 m)); [apply rnd_mono; lra|apply generic_format_opp; auto]).
  assert (Q : Rabs (rnd r) <= bpow radix2 m) by (apply Rabs_le; lra). split; auto.
  unfold RN. rewrite Rlt_bool_true; auto. eapply Rle_lt_trans; [exact Q|]. rewrite Rabs_right in B by (apply Rle_ge, bpow_ge_0). auto.
Qed.
Lemma bounded_weaken j k x : (j <= k)%Z -> bounded j x -> bounded k x.
Proof. intros H (r & E & Hr). exists r. split; auto. eapply Rle_trans; [exact Hr|apply bpow_le; auto]. Qed.
Lemma bounded_add k x y : (-1000 <= k < 1000)%Z -> bounded k x -> bounded k y -> bounded (k + 1) (fadd x y).
Proof.
  intros Hk (a & Ea & Ha) (b & Eb & Hb). rewrite <- (Rmult_1_l (bpow _ _)) in Ha, Hb.
  assert (Q : Rabs (a + b) <= bpow radix2 (k + 1)).
  { rewrite bpow_plus. simpl. change (bpow radix2 1) with 2. eapply Rle_trans; [apply Rabs_triang|lra]. }
  destruct (RN_bounded _ _ Q) as [E1 E2]; [lia|]. exists (rnd (a + b)). rewrite (val_add _ _ _ _ Ea Eb). auto.
Qed.
Lemma bounded_sub k x y : (-1000 <= k < 1000)%Z -> bounded k x -> bounded k y -> bounded (k + 1) (fsub x y).
Proof.
  intros Hk (a & Ea & Ha) (b & Eb & Hb). rewrite <- (Rmult_1_l (bpow _ _)) in Ha, Hb.
  assert (Q : Rabs (a - b) <= bpow radix2 (k + 1)).
  { rewrite bpow_plus. change (bpow radix2 1) with 2. eapply Rle_trans; [apply Rabs_triang|rewrite Rabs_Ropp; lra]. }
  destruct (RN_bounded _ _ Q) as [E1 E2]; [lia|]. exists (rnd (a - b)). rewrite (val_sub _ _ _ _ Ea Eb). auto.
Qed.
Lemma bounded_mul j k x y : (-1000 <= j + k < 1000)%Z -> bounded j x -> bounded k y -> bounded (j + k) (fmul x y).
Proof.
  intros Hk (a & Ea & Ha) (b & Eb & Hb).
  assert (Q : Rabs (a * b) <= bpow radix2 (j + k)).
  { rewrite bpow_plus, Rabs_mult. apply Rmult_le_compat; auto; apply Rabs_pos. }
  destruct (RN_bounded _ _ Q) as [E1 E2]; [lia|]. exists (rnd (a * b)). rewrite (val_mul _ _ _ _ Ea Eb). auto.
Qed.
Lemma bounded_opp k x : bounded k x -> bounded k (Bopp x).
Proof. intros (r & E & H). exists (- r). rewrite val_opp, E, Rabs_Ropp. auto. Qed.
(** relative error of one rounding, away from overflow and underflow *)
Lemma RN_relative r : bpow radix2 (-1010) <= r <= bpow radix2 1020 ->
  RN r = Fin (rnd r) /\ r * (1 - bpow radix2 (-52)) <= rnd r <= r * (1 + bpow radix2 (-52)).
Proof.
  intros [L U]. assert (P := bpow_gt_0 radix2 (-1010)).
  assert (A : Rabs r = r) by (apply Rabs_right; lra).
  split; [apply (RN_bounded r 1020); [rewrite A; auto|lia]|].
  assert (H := relative_error_FLT radix2 (3 - 1024 - 53) 53 eq_refl ZnearestE r).
  rewrite A in H. assert (Q := H ltac:(eapply Rle_trans; [|exact L]; apply bpow_le; lia)). clear H.
  change (round radix2 (FLT_exp (3 - 1024 - 53) 53) ZnearestE r) with (rnd r) in Q. change (- (53) + 1)%Z with (-52)%Z in Q.
  apply Rabs_lt_inv in Q. generalize dependent (bpow radix2 (-52)). intros u Q. split; lra.
Qed.

(** ** What is assumed of the C library *)
(** log of a positive finite number is finite and at most 2^11 in magnitude *)
Definition log_bounded (lm : libm) : Prop :=
  forall x r, val x = Fin r -> 0 < r -> bounded 11 (l_log lm x).
(** exp of a finite number that is at most 0 lies in [0,1], and exp 0 = 1 *)
Definition exp_unit (lm : libm) : Prop :=
  forall x r, val x = Fin r -> r <= 0 -> exists e, val (l_exp lm x) = Fin e /\ 0 <= e <= 1 /\ (r = 0 -> e = 1).
(** x**y is +inf when the exact power is at least 2^1024, and for 0 to a negative power *)
Definition pow_overflows (lm : libm) : Prop :=
  forall x y r e, val x = Fin r -> val y = Fin e -> (0 < r /\ bpow radix2 1024 <= Rpower r e \/ r = 0 /\ e < 0) -> val (l_pow lm x y) = PInf.
Definition finite (v : xr) : Prop := exists r, v = Fin r.
(** log of NaN or an infinity is not a finite number *)
Definition log_not_finite (lm : libm) : Prop := forall x, ~ finite (val x) -> ~ finite (val (l_log lm x)).

(** a trade count that binary64 holds exactly, with room for halves *)
Definition is_count (x : b64) (n : Z) : Prop := val x = Fin (IZR n) /\ (0 <= n <= 2 ^ 50)%Z.
(** a rate away from overflow and underflow *)
Definition is_rate (x : b64) (r : R) : Prop := val x = Fin r /\ bpow radix2 (-500) <= r <= bpow radix2 500.
(** a probability away from 0 and 1 *)
Definition is_share (x : b64) (r : R) : Prop := val x = Fin r /\ bpow radix2 (-50) <= r <= 1 - bpow radix2 (-50).

(** ** Non-finite terms *)
Lemma nf_add_l x y : ~ finite (val x) -> ~ finite (val (fadd x y)).
Proof. intros H [r E]. apply H. rewrite val_fadd in E. destruct (val x) as [a| | |]; [exists a; auto|..]; destruct (val y); discriminate. Qed.
Lemma nf_add_r x y : ~ finite (val y) -> ~ finite (val (fadd x y)).
Proof. intros H [r E]. apply H. rewrite val_fadd in E. destruct (val y) as [a| | |]; [exists a; auto|..]; destruct (val x); discriminate. Qed.
Lemma nf_mul_r x y : val y = PInf -> ~ finite (val (fmul x y)).
Proof.
  intros H [r E]. rewrite val_fmul, H in E. destruct (val x) as [a| | |]; try discriminate.
  cbn [xmul] in E. unfold xsgn_inf in E. destruct (total_order_T a 0) as [[|]|]; discriminate.
Qed.
Lemma nf_opp x : ~ finite (val x) -> ~ finite (val (Bopp x)).
Proof. intros H [r E]. apply H. rewrite val_opp in E. destruct (val x); try discriminate. eexists; eauto. Qed.
Lemma nf_tree s l x : leaves s = length l -> In x l -> ~ finite (val x) -> ~ finite (val (tree_sum s l)).
Proof.
  revert l. induction s as [|a IHa b IHb]; intros l HL Hx HF; simpl in HL.
  - destruct l as [|y [|]]; try discriminate. destruct Hx as [<-|[]]. exact HF.
  - simpl. assert (La : length (firstn (leaves a) l) = leaves a) by (rewrite firstn_length; lia).
    assert (Lb : length (skipn (leaves a) l) = leaves b) by (rewrite skipn_length; lia).
    rewrite <- (firstn_skipn (leaves a) l) in Hx. apply in_app_or in Hx as [Hx|Hx]; [apply nf_add_l, IHa|apply nf_add_r, IHb]; auto.
Qed.
Lemma nf_sum lm l x : In x l -> ~ finite (val x) -> ~ finite (val (fsum lm l)).
Proof.
  intros Hx HF. destruct l as [|y l'] eqn:E; [destruct Hx|]. rewrite <- E in *.
  replace (fsum lm l) with (tree_sum (l_order lm (length l)) l) by (subst l; reflexivity).
  apply nf_tree with x; auto. apply l_order_ok. subst l; simpl; lia.
Qed.

(** ** The exponent M of a day is computed exactly *)
Lemma fmt_half z : (0 <= z <= 2 ^ 53)%Z -> fmt (IZR z / 2) /\ Rabs (IZR z / 2) < bpow radix2 1024.
Proof.
  intros H. assert (Q := fmt_scaled (Z.to_nat z) (-1)). rewrite INR_IZR_INZ, Z2Nat.id in Q by lia.
  change (bpow radix2 (-1)) with (/ 2) in Q. apply Q; lia.
Qed.
Lemma count_min x y n m lm : is_count x n -> is_count y m -> val (minimum (B64 lm) x y) = Fin (IZR (Z.min n m)).
Proof.
  intros [Ex _] [Ey _]. unfold minimum. cbn [isnan nltb B64]. rewrite !val_isnan, val_ltb, Ex, Ey. cbn [xisnan].
  destruct (Z.lt_ge_cases m n).
  - rewrite xltb_true by (apply IZR_lt; auto). rewrite Ey, Z.min_r by lia. auto.
  - rewrite xltb_false by (apply IZR_le; auto). rewrite Ex, Z.min_l by lia. auto.
Qed.
Lemma count_max x y n m lm : is_count x n -> is_count y m -> val (maximum (B64 lm) x y) = Fin (IZR (Z.max n m)).
Proof.
  intros [Ex _] [Ey _]. unfold maximum. cbn [isnan nltb B64]. rewrite !val_isnan, val_ltb, Ex, Ey. cbn [xisnan].
  destruct (Z.lt_ge_cases n m).
  - rewrite xltb_true by (apply IZR_lt; auto). rewrite Ey, Z.max_r by lia. auto.
  - rewrite xltb_false by (apply IZR_le; auto). rewrite Ex, Z.max_l by lia. auto.
Qed.
(** min + max/2 *)
Definition M_of (n m : Z) : R := IZR (Z.min n m) + IZR (Z.max n m) / 2.
Lemma M_exact lm b s n m : is_count b n -> is_count s m ->
  val (fadd (minimum (B64 lm) b s) (fdiv (maximum (B64 lm) b s) (fofZ 2))) = Fin (M_of n m).
Proof.
  intros Hb Hs. assert (E1 := count_min _ _ _ _ lm Hb Hs). assert (E2 := count_max _ _ _ _ lm Hb Hs).
  assert (E3 : val (fdiv (maximum (B64 lm) b s) (fofZ 2)) = Fin (IZR (Z.max n m) / 2)).
  { rewrite (val_div _ _ _ 2 E2); [|apply val_ofZ_small; simpl; lia|lra]. destruct Hb, Hs. apply RN_fmt; apply fmt_half; lia. }
  rewrite (val_add _ _ _ _ E1 E3). unfold M_of. destruct Hb, Hs.
  replace (IZR (Z.min n m) + IZR (Z.max n m) / 2) with (IZR (2 * Z.min n m + Z.max n m) / 2) by (rewrite plus_IZR, mult_IZR; lra).
  apply RN_fmt; apply fmt_half; lia.
Qed.

(** ** The ratio e/(mu+e) of the EHO factorisation *)
Lemma bpow_m52 : 0 < bpow radix2 (-52) <= / 1048576 * / 1048576 * / 4096.
Proof. split; [apply bpow_gt_0|]. simpl. lra. Qed.
Lemma rate_ratio e mu re rm k : is_rate e re -> is_rate mu rm -> 1 <= k <= 1048576 -> re <= k * rm ->
  exists x, val (fdiv e (fadd mu e)) = Fin x /\ 0 < x <= k / (k + 1) * (1 + 4 * bpow radix2 (-52)).
Proof.
  intros [Ee [Le Ue]] [Em [Lm Um]] Hk H. assert (U := bpow_m52). set (u := bpow radix2 (-52)) in *.
  assert (P1 := bpow_gt_0 radix2 (-500)). assert (P2 := bpow_gt_0 radix2 500).
  assert (B5 : bpow radix2 501 = 2 * bpow radix2 500) by (change 501%Z with (1 + 500)%Z; rewrite bpow_plus; reflexivity).
  assert (Bm : bpow radix2 (-1010) <= bpow radix2 (-500)) by (apply bpow_le; lia).
  assert (Bp : bpow radix2 501 <= bpow radix2 1020) by (apply bpow_le; lia).
  destruct (RN_relative (rm + re)) as [E1 [L1 U1]]; [lra|]. fold u in L1, U1.
  assert (T : val (fadd mu e) = Fin (rnd (rm + re))) by (rewrite (val_add _ _ _ _ Em Ee); auto).
  set (t := rnd (rm + re)) in *.
  assert (Tp : 0 < t) by nra.
  assert (Q1 : bpow radix2 (-1010) <= re / t).
  { apply Rmult_le_reg_r with t; auto. unfold Rdiv. rewrite Rmult_assoc, Rinv_l, Rmult_1_r by lra.
    apply Rle_trans with (bpow radix2 (-1010) * (2 * bpow radix2 501)); [apply Rmult_le_compat_l; [apply bpow_ge_0|nra]|].
    replace (2 * bpow radix2 501) with (bpow radix2 502) by (change 502%Z with (1 + 501)%Z; rewrite bpow_plus; reflexivity).
    rewrite <- bpow_plus. eapply Rle_trans; [|exact Le]. apply bpow_le; lia. }
  assert (Q0 : re * (k + 1) <= k * (rm + re)) by nra.
  assert (Q2 : re / t <= k / (k + 1) * (1 + 2 * u)).
  { apply Rmult_le_reg_r with t; auto. unfold Rdiv at 1. rewrite Rmult_assoc, Rinv_l, Rmult_1_r by lra.
    apply Rmult_le_reg_r with (k + 1); [lra|].
    replace (k / (k + 1) * (1 + 2 * u) * t * (k + 1)) with (k * (1 + 2 * u) * t) by (field; lra).
    apply Rle_trans with (k * (rm + re)); [nra|]. apply Rle_trans with (k * ((1 + 2 * u) * ((rm + re) * (1 - u)))).
    - apply Rmult_le_compat_l; [lra|]. assert (0 <= (u - 2 * u * u) * (rm + re)) by (apply Rmult_le_pos; [nra|lra]). nra.
    - rewrite Rmult_assoc. apply Rmult_le_compat_l; [lra|]. apply Rmult_le_compat_l; lra. }
  assert (K1 : 0 < k / (k + 1) <= 1).
  { split; [apply Rdiv_lt_0_compat; lra|]. apply Rmult_le_reg_r with (k + 1); [lra|]. unfold Rdiv. rewrite Rmult_assoc, Rinv_l; lra. }
  destruct (RN_relative (re / t)) as [E2 [L2 U2]].
  { split; auto. apply Rle_trans with 2; [nra|]. change 2 with (bpow radix2 1). apply bpow_le; lia. }
  fold u in L2, U2. exists (rnd (re / t)). split; [rewrite (val_div _ _ _ _ Ee T) by lra; auto|].
  assert (P3 := bpow_gt_0 radix2 (-1010)). split; [nra|].
  eapply Rle_trans; [exact U2|]. apply Rle_trans with (k / (k + 1) * (1 + 2 * u) * (1 + u)); [apply Rmult_le_compat_r; lra|].
  rewrite Rmult_assoc. apply Rmult_le_compat_l; nra.
Qed.
Lemma ln_ge_1_minus x : 0 < x -> 1 - / x <= ln x.
Proof.
  intros H. assert (I := Rinv_0_lt_compat _ H).
  assert (Q : ln (/ x) <= / x - 1).
  { rewrite <- (ln_exp (/ x - 1)). assert (E := exp_ineq1_le (/ x - 1)). destruct (Rle_lt_or_eq_dec (/ x) (exp (/ x - 1))) as [L|L]; [lra| |].
    - apply Rlt_le, ln_increasing; auto.
    - rewrite <- L. lra. }
  rewrite ln_Rinv in Q by auto. lra.
Qed.
(** (1 + 1/k)^k >= 2 *)
Lemma ln_bernoulli k : (1 <= k)%nat -> ln 2 <= INR k * ln ((INR k + 1) / INR k).
Proof.
  intros H. assert (K : 1 <= INR k) by (change 1 with (INR 1); apply le_INR; auto).
  assert (I : 0 < / INR k) by (apply Rinv_0_lt_compat; lra).
  assert (Q := poly k (/ INR k) I). rewrite Rinv_r in Q by lra.
  replace ((INR k + 1) / INR k) with (1 + / INR k) by (field; lra).
  rewrite <- ln_pow by lra. destruct Q as [Q|Q]; [apply Rlt_le, ln_increasing; lra|rewrite <- Q; right; f_equal; lra].
Qed.
Lemma ln2_lower : / 2 <= ln 2.
Proof. assert (H := ln_ge_1_minus 2 ltac:(lra)). lra. Qed.
(** the power overflows *)
Lemma power_huge x M k : (1 <= k)%nat -> INR k <= 1048576 -> 0 < x <= INR k / (INR k + 1) * (1 + 4 * bpow radix2 (-52)) -> 1025 * INR k <= M ->
  bpow radix2 1024 <= Rpower x (- M).
Proof.
  intros Hk K2 [Hx Ux] HM. assert (U := bpow_m52). set (u := bpow radix2 (-52)) in *.
  assert (K1 : 1 <= INR k) by (change 1 with (INR 1); apply le_INR; lia).
  assert (B := ln_bernoulli k ltac:(lia)). assert (L2 := ln2_lower).
  assert (QQ : 0 < (INR k + 1) / INR k) by (apply Rdiv_lt_0_compat; lra).
  assert (G : ln ((INR k + 1) / INR k) - 4 * u <= - ln x).
  { rewrite <- ln_Rinv by auto.
    apply Rle_trans with (ln (((INR k + 1) / INR k) * / (1 + 4 * u))).
    - rewrite ln_mult; auto; [|apply Rinv_0_lt_compat; lra]. rewrite ln_Rinv by lra.
      assert (W : ln (1 + 4 * u) <= 4 * u).
      { rewrite <- (ln_exp (4 * u)) at 2. assert (E := exp_ineq1_le (4 * u)). destruct E as [E|E]; [apply Rlt_le, ln_increasing; lra|rewrite E; lra]. }
      lra.
    - assert (V : (INR k + 1) / INR k * / (1 + 4 * u) <= / x).
      { replace ((INR k + 1) / INR k * / (1 + 4 * u)) with (/ (INR k / (INR k + 1) * (1 + 4 * u))) by (field; lra).
        apply Rinv_le_contravar; auto. }
      destruct V as [V|V]; [apply Rlt_le, ln_increasing; auto; apply Rmult_lt_0_compat; auto; apply Rinv_0_lt_compat; lra|rewrite V; lra]. }
  unfold Rpower. replace (bpow radix2 1024) with (exp (1024 * ln 2)).
  - assert (X : 1024 * ln 2 <= - M * ln x).
    { replace (- M * ln x) with (M * - ln x) by ring.
      assert (Y : 0 <= ln ((INR k + 1) / INR k) - 4 * u).
      { apply Rmult_le_reg_l with (INR k); [lra|]. rewrite Rmult_0_r, Rmult_minus_distr_l. nra. }
      apply Rle_trans with (1025 * INR k * (ln ((INR k + 1) / INR k) - 4 * u)).
      - assert (Z1 : INR k * (4 * u) <= / 1048576) by nra. nra.
      - apply Rmult_le_compat; auto; lra. }
    destruct X as [X|X]; [apply Rlt_le, exp_increasing; auto|rewrite X; lra].
  - replace 1024 with (IZR 1024) by reflexivity. rewrite <- ln_bpow. apply exp_ln, bpow_gt_0.
Qed.

(** ** C120: EHO2010 overflows on active days *)
Section Eho.
Variable lm : libm.
Notation A := (B64 lm).
(** the day's contribution to the second sum *)
Lemma eho_second_nf p (b s : b64) n m k re rm :
  pow_overflows lm -> log_not_finite lm -> is_count b n -> is_count s m -> (1 <= k)%nat -> INR k <= 1048576 -> 1025 * INR k <= M_of n m ->
  is_rate (mu A p) rm -> (is_rate (eB A p) re \/ is_rate (eS A p) re) -> re <= INR k * rm ->
  ~ finite (val (eho_second A p b s)).
Proof.
  intros HP HLg Hb Hs Hk K2 HM Hm He H. assert (K1 : 1 <= INR k) by (change 1 with (INR 1); apply le_INR; lia).
  unfold eho_second. cbn [nadd nsub nmul ndiv nopp nlog nexp npow ofZ B64] in *. apply HLg.
  assert (EM := M_exact lm b s n m Hb Hs). match type of EM with val ?M = _ => set (M0 := M) in * end. clearbody M0.
  assert (EN : val (Bopp M0) = Fin (- M_of n m)) by (rewrite val_opp, EM; reflexivity).
  destruct He as [He|He]; destruct (rate_ratio _ _ _ _ _ He Hm (conj K1 K2) H) as (x & Ex & Hx).
  - apply nf_add_l, nf_add_l, nf_mul_r, (HP _ _ x (- M_of n m)); auto. left. split; [lra|]. apply power_huge with k; auto.
  - apply nf_add_l, nf_add_r, nf_mul_r, (HP _ _ x (- M_of n m)); auto. left. split; [lra|]. apply power_huge with k; auto.
Qed.
Lemma in_map2 {X Y Z} (f : X -> Y -> Z) l1 l2 x y : In (x, y) (combine l1 l2) -> In (f x y) (map2 f l1 l2).
Proof.
  revert l2. induction l1 as [|a l1 IH]; intros [|b l2] H; cbn [combine map2 In] in *; try tauto.
  destruct H as [H|H]; [injection H as -> ->; auto|right; auto].
Qed.
Theorem C120_eho_not_finite : forall p B S b s n m k re rm,
  pow_overflows lm -> log_not_finite lm ->
  In (b, s) (combine B S) -> is_count b n -> is_count s m ->
  is_rate (mu A p) rm -> is_rate (eB A p) re \/ is_rate (eS A p) re ->
  (1 <= k)%nat -> INR k <= 1048576 -> re <= INR k * rm -> 1025 * INR k <= M_of n m ->
  ~ finite (val (loglikelihood_EHO2010 A B S p)).
Proof.
  intros p B S b s n m k re rm HP HL Hin Hb Hs Hm He Hk K2 H HM. unfold loglikelihood_EHO2010. cbn [nopp nadd asum B64].
  apply nf_opp, nf_add_r. eapply nf_sum; [apply in_map2; exact Hin|]. eapply eho_second_nf; eauto.
Qed.

(** *** at every starting value of the grid search *)
Definition near (x : b64) (lo hi : R) : Prop := exists r, val x = Fin r /\ lo <= r <= hi.
Lemma near_weaken x lo hi lo' hi' : near x lo hi -> lo' <= lo -> hi <= hi' -> near x lo' hi'.
Proof. intros (r & E & H) H1 H2. exists r. split; auto; lra. Qed.
Lemma RN_near r lo hi : lo <= r <= hi -> bpow radix2 (-1010) <= lo -> hi <= bpow radix2 1020 ->
  RN r = Fin (rnd r) /\ lo * (1 - bpow radix2 (-52)) <= rnd r <= hi * (1 + bpow radix2 (-52)).
Proof.
  intros H L U. assert (B := bpow_m52). destruct (RN_relative r) as [E Q]; [lra|]. split; auto.
  generalize dependent (bpow radix2 (-52)). intros u Q B. split; nra.
Qed.
Lemma small_bpow c : / 1048576 <= c -> bpow radix2 (-1010) <= c.
Proof. intros H. apply Rle_trans with (bpow radix2 (-20)); [apply bpow_le; lia|simpl; lra]. Qed.
Lemma large_bpow c : c <= bpow radix2 64 -> c <= bpow radix2 1020.
Proof. intros H. eapply Rle_trans; [exact H|apply bpow_le; lia]. Qed.
Lemma four_bpow c : c <= 4 -> c <= bpow radix2 1020.
Proof. intros H. apply large_bpow. simpl. lra. Qed.
Lemma near_sub x y a b c d : near x a b -> near y c d -> bpow radix2 (-1010) <= a - d -> b - c <= bpow radix2 1020 ->
  near (fsub x y) ((a - d) * (1 - bpow radix2 (-52))) ((b - c) * (1 + bpow radix2 (-52))).
Proof.
  intros (r & E & H) (t & F & G) L U. destruct (RN_near (r - t) (a - d) (b - c)) as [Q1 Q2]; auto; [lra|].
  exists (rnd (r - t)). rewrite (val_sub _ _ _ _ E F). auto.
Qed.
Lemma near_mul x y a b c d : near x a b -> near y c d -> 0 <= a -> 0 <= c -> bpow radix2 (-1010) <= a * c -> b * d <= bpow radix2 1020 ->
  near (fmul x y) (a * c * (1 - bpow radix2 (-52))) (b * d * (1 + bpow radix2 (-52))).
Proof.
  intros (r & E & H) (t & F & G) A0 C0 L U. destruct (RN_near (r * t) (a * c) (b * d)) as [Q1 Q2]; auto.
  - split; [apply Rmult_le_compat; lra|apply Rmult_le_compat; lra].
  - exists (rnd (r * t)). rewrite (val_mul _ _ _ _ E F). auto.
Qed.
Lemma near_div x y a b c d : near x a b -> near y c d -> 0 <= a -> 0 < c -> bpow radix2 (-1010) <= a / d -> b / c <= bpow radix2 1020 ->
  near (fdiv x y) (a / d * (1 - bpow radix2 (-52))) (b / c * (1 + bpow radix2 (-52))).
Proof.
  intros (r & E & H) (t & F & G) A0 C0 L U. destruct (RN_near (r / t) (a / d) (b / c)) as [Q1 Q2]; auto.
  - unfold Rdiv. assert (0 < / d) by (apply Rinv_0_lt_compat; lra). assert (/ d <= / t) by (apply Rinv_le_contravar; lra).
    assert (/ t <= / c) by (apply Rinv_le_contravar; lra). split; apply Rmult_le_compat; lra.
  - exists (rnd (r / t)). rewrite (val_div _ _ _ _ E F) by lra. auto.
Qed.
Lemma near_ofZ z : (Z.abs z <= 2 ^ 53)%Z -> near (fofZ z) (IZR z) (IZR z).
Proof. intros H. exists (IZR z). rewrite val_ofZ_small by auto. split; auto; lra. Qed.
Lemma u_small : 0 < bpow radix2 (-52) <= / 1000000.
Proof. assert (H := bpow_m52). lra. Qed.
Lemma grid_near (x : num A) : In x (grid A) -> near x (99 / 1000) (901 / 1000).
Proof.
  assert (G : forall z, (1 <= z <= 9)%Z -> near (fdiv (fofZ z) (fofZ 10)) (99 / 1000) (901 / 1000)).
  { intros z Hz. assert (Z1 : 1 <= IZR z <= 9) by (split; apply IZR_le; lia). assert (U := u_small).
    eapply near_weaken; [apply near_div; [apply near_ofZ; lia|apply near_ofZ; simpl; lia|lra|lra|apply small_bpow; lra|apply four_bpow; lra]|nra|nra]. }
  unfold grid. cbn [lit B64 In]. intros [<-|[<-|[<-|[<-|[<-|[]]]]]]; apply G; lia.
Qed.
Lemma start_rates a d g mean (B S : list (num A)) : near a (99 / 1000) (901 / 1000) -> near d (99 / 1000) (901 / 1000) -> near g (99 / 1000) (901 / 1000) ->
  val (amean A B) = Fin mean -> 1 <= mean <= bpow radix2 60 ->
  exists re rm, is_rate (eB A (start_of A B S (a, d, g))) re /\ is_rate (mu A (start_of A B S (a, d, g))) rm /\ re <= 8 * rm.
Proof.
  intros Ha Hd Hg Em Hm. assert (U := u_small). set (u := bpow radix2 (-52)) in *.
  assert (Nm : near (amean A B) mean mean) by (exists mean; split; auto; lra).
  assert (B60 : bpow radix2 64 = 16 * bpow radix2 60) by (change 64%Z with (4 + 60)%Z; rewrite bpow_plus; reflexivity).
  assert (P60 := bpow_gt_0 radix2 60).
  unfold start_of. cbn [eB mu nmul nsub ndiv ofZ B64]. set (mb := amean A B) in *. clearbody mb.
  assert (N1 : near (fmul g mb) (98 / 1000 * mean) (902 / 1000 * mean)).
  { eapply near_weaken; [apply near_mul; [exact Hg|exact Nm|lra|lra|apply small_bpow; nra|apply large_bpow; nra]|fold u; nra|fold u; nra]. }
  assert (N2 : near (fsub mb (fmul g mb)) (97 / 1000 * mean) (903 / 1000 * mean)).
  { eapply near_weaken; [apply near_sub; [exact Nm|exact N1|apply small_bpow; nra|apply large_bpow; nra]|fold u; nra|fold u; nra]. }
  assert (N3 : near (fsub (fofZ 1) d) (98 / 1000) (902 / 1000)).
  { eapply near_weaken; [apply near_sub; [apply near_ofZ; simpl; lia|exact Hd|apply small_bpow; lra|apply four_bpow; lra]|fold u; nra|fold u; nra]. }
  assert (N4 : near (fmul a (fsub (fofZ 1) d)) (9 / 1000) (813 / 1000)).
  { eapply near_weaken; [apply near_mul; [exact Ha|exact N3|lra|lra|apply small_bpow; lra|apply four_bpow; lra]|fold u; nra|fold u; nra]. }
  assert (N5 : near (fdiv (fsub mb (fmul g mb)) (fmul a (fsub (fofZ 1) d))) (119 / 1000 * mean) (101 * mean)).
  { eapply near_weaken; [apply near_div; [exact N2|exact N4|lra|lra|apply small_bpow; lra|]|fold u|fold u].
    - apply Rle_trans with (128 * bpow radix2 60); [lra|]. change 128 with (bpow radix2 7). rewrite <- bpow_plus. apply bpow_le; lia.
    - unfold Rdiv. nra.
    - unfold Rdiv. nra. }
  destruct N1 as (re & Ee & He), N5 as (rm & Er & Hr). exists re, rm.
  assert (B500 : 128 * bpow radix2 60 <= bpow radix2 500) by (change 128 with (bpow radix2 7); rewrite <- bpow_plus; apply bpow_le; lia).
  assert (S500 : bpow radix2 (-500) <= / 1000) by (apply Rle_trans with (bpow radix2 (-10)); [apply bpow_le; lia|simpl; lra]).
  split; [|split]; [split; auto; split; lra|split; auto; split; lra|lra].
Qed.
Theorem C120_eho_every_start : forall B S b s n m mean p,
  pow_overflows lm -> log_not_finite lm ->
  In (b, s) (combine B S) -> is_count b n -> is_count s m -> 8200 <= M_of n m ->
  val (amean A B) = Fin mean -> 1 <= mean <= bpow radix2 60 ->
  In p (starting_values A B S) -> ~ finite (val (loglikelihood_EHO2010 A B S p)).
Proof.
  intros B S b s n m mean p HP HL Hin Hb Hs HM Em Hm Hp.
  unfold starting_values in Hp. apply filter_In in Hp as [Hp _]. apply in_map_iff in Hp as ([[a d] g] & <- & Hq).
  unfold grid_product in Hq. apply in_flat_map in Hq as (a' & Ha & Hq). apply in_flat_map in Hq as (d' & Hd & Hq).
  apply in_map_iff in Hq as (g' & Eq & Hg). injection Eq as -> -> ->.
  destruct (start_rates a d g mean B S (grid_near _ Ha) (grid_near _ Hd) (grid_near _ Hg) Em Hm) as (re & rm & H1 & H2 & H3).
  apply (C120_eho_not_finite _ B S b s n m 8 re rm); auto; try lia; simpl INR; lra.
Qed.

(** ** C120: LK2011 never overflows *)
Definition is_trade_rate (x : b64) (r : R) : Prop := val x = Fin r /\ 0 <= r <= bpow radix2 500.
Lemma count_bounded x n : is_count x n -> bounded 50 x.
Proof.
  intros [E H]. exists (IZR n). split; auto. rewrite Rabs_right by (apply Rle_ge, IZR_le; lia).
  replace (bpow radix2 50) with (IZR (2 ^ 50)) by reflexivity. apply IZR_le; lia.
Qed.
Lemma log_term m e rm re : log_bounded lm -> is_trade_rate m rm -> is_rate e re -> bounded 11 (l_log lm (fadd (fofZ 1) (fdiv m e))).
Proof.
  intros HL [Em Hm] [Ee He]. assert (P := bpow_gt_0 radix2 (-500)).
  assert (Q : 0 <= rm / re <= bpow radix2 1000).
  { split; [apply Rmult_le_pos; [lra|apply Rlt_le, Rinv_0_lt_compat; lra]|].
    apply Rmult_le_reg_r with re; [lra|]. unfold Rdiv. rewrite Rmult_assoc, Rinv_l, Rmult_1_r by lra.
    apply Rle_trans with (bpow radix2 1000 * bpow radix2 (-500)); [rewrite <- bpow_plus; change (1000 + -500)%Z with 500%Z; lra|].
    apply Rmult_le_compat_l; [apply bpow_ge_0|lra]. }
  destruct (RN_bounded (rm / re) 1000) as [E1 B1]; [rewrite Rabs_right by lra; lra|lia|].
  assert (D : val (fdiv m e) = Fin (rnd (rm / re))) by (rewrite (val_div _ _ _ _ Em Ee) by lra; auto).
  assert (D0 : 0 <= rnd (rm / re)) by (rewrite <- rnd_0; apply rnd_mono; lra).
  set (q := rnd (rm / re)) in *. rewrite Rabs_right in B1 by lra.
  assert (O : val (fofZ 1) = Fin 1) by (apply val_ofZ_small; simpl; lia).
  assert (B1001 : 1 + q <= bpow radix2 1001).
  { change 1001%Z with (1 + 1000)%Z. rewrite bpow_plus. change (bpow radix2 1) with 2.
    assert (1 <= bpow radix2 1000) by (change 1 with (bpow radix2 0); apply bpow_le; lia). lra. }
  destruct (RN_bounded (1 + q) 1001) as [E2 B2]; [rewrite Rabs_right by lra; lra|lia|].
  assert (S1 : val (fadd (fofZ 1) (fdiv m e)) = Fin (rnd (1 + q))) by (rewrite (val_add _ _ _ _ O D); auto).
  assert (S2 : 1 <= rnd (1 + q)).
  { apply Rle_trans with (rnd 1); [right; symmetry; apply rnd_fmt; destruct (fmt_Z 1); [simpl; lia|auto]|apply rnd_mono; lra]. }
  apply (HL _ _ S1). lra.
Qed.
Lemma rate_bounded x r : is_rate x r -> bounded 500 x.
Proof. intros [E H]. exists r. split; auto. assert (P := bpow_gt_0 radix2 (-500)). rewrite Rabs_right; lra. Qed.
Lemma trade_bounded x r : is_trade_rate x r -> bounded 500 x.
Proof. intros [E H]. exists r. split; auto. rewrite Rabs_right; lra. Qed.
(** maximum of finite numbers is one of them and no smaller than either *)
Lemma maximum_fin (x y : b64) a b : val x = Fin a -> val y = Fin b ->
  exists c, val (maximum A x y) = Fin c /\ a <= c /\ b <= c /\ (c = a \/ c = b).
Proof.
  intros Ex Ey. unfold maximum. cbn [isnan nltb B64]. rewrite !val_isnan, val_ltb, Ex, Ey. cbn [xisnan].
  destruct (Rlt_dec a b).
  - rewrite xltb_true by auto. exists b. rewrite Ey. repeat split; auto; lra.
  - rewrite xltb_false by lra. exists a. rewrite Ex. repeat split; auto; lra.
Qed.
Lemma exp_term (e emax : b64) r c : exp_unit lm -> bounded 502 e -> bounded 502 emax -> val e = Fin r -> val emax = Fin c -> r <= c ->
  exists z, val (l_exp lm (fsub e emax)) = Fin z /\ 0 <= z <= 1 /\ (r = c -> z = 1).
Proof.
  intros HX He Hc Ee Ec H. destruct (bounded_sub 502 e emax) as (d & Ed & Bd); auto; [lia|].
  assert (Ed' := Ed). rewrite (val_sub _ _ _ _ Ee Ec) in Ed'. apply RN_inv in Ed' as (Eq & _).
  destruct (HX _ _ Ed) as (z & Ez & Hz & H1); [rewrite Eq, <- rnd_0; apply rnd_mono; lra|].
  exists z. repeat split; auto; try lra. intros ->. apply H1. rewrite Eq. replace (c - c) with 0 by ring. apply rnd_0.
Qed.

(** the weights alpha(1-delta), alpha*delta, 1-alpha *)
Lemma share_near x r : is_share x r -> near x (bpow radix2 (-50)) (1 - bpow radix2 (-50)).
Proof. intros [E H]. exists r. auto. Qed.
Lemma one_minus_share x r : is_share x r -> near (fsub (fofZ 1) x) (bpow radix2 (-50)) 1.
Proof.
  intros [E H]. assert (O : val (fofZ 1) = Fin 1) by (apply val_ofZ_small; simpl; lia). assert (P := bpow_gt_0 radix2 (-50)).
  destruct (RN_bounded (1 - r) 0) as [E1 _]; [change (bpow radix2 0) with 1; rewrite Rabs_right by lra; lra|lia|].
  exists (rnd (1 - r)). rewrite (val_sub _ _ _ _ O E). split; auto. split.
  - apply Rle_trans with (rnd (bpow radix2 (-50))); [right; symmetry; apply rnd_fmt, fmt_bpow; lia|apply rnd_mono; lra].
  - apply Rle_trans with (rnd 1); [apply rnd_mono; lra|right; apply rnd_fmt; destruct (fmt_Z 1); [simpl; lia|auto]].
Qed.
(** products of numbers in [0,1] stay there; those at least 2^j and 2^k stay at least 2^(j+k) *)
Lemma mul_unit x y j k : (-1000 <= j + k)%Z -> (j <= 0)%Z -> (k <= 0)%Z -> near x (bpow radix2 j) 1 -> near y (bpow radix2 k) 1 -> near (fmul x y) (bpow radix2 (j + k)) 1.
Proof.
  intros Hjk Hj Hk (r & E & H) (t & F & G). assert (P1 := bpow_gt_0 radix2 j). assert (P2 := bpow_gt_0 radix2 k).
  assert (Q : bpow radix2 (j + k) <= r * t <= 1).
  { rewrite bpow_plus. split; [apply Rmult_le_compat; lra|]. replace 1 with (1 * 1) by ring. apply Rmult_le_compat; lra. }
  assert (P3 := bpow_gt_0 radix2 (j + k)).
  destruct (RN_bounded (r * t) 0) as [E1 _]; [change (bpow radix2 0) with 1; rewrite Rabs_right by lra; lra|lia|].
  exists (rnd (r * t)). rewrite (val_mul _ _ _ _ E F). split; auto. split.
  - apply Rle_trans with (rnd (bpow radix2 (j + k))); [right; symmetry; apply rnd_fmt, fmt_bpow; lia|apply rnd_mono; lra].
  - apply Rle_trans with (rnd 1); [apply rnd_mono; lra|right; apply rnd_fmt; destruct (fmt_Z 1); [simpl; lia|auto]].
Qed.
(** a weight times an exponential in [0,1] *)
Lemma mul_weight x w y z : near x (bpow radix2 (-100)) 1 -> w = x -> val y = Fin z -> 0 <= z <= 1 ->
  near (fmul w y) 0 1 /\ (z = 1 -> near (fmul w y) (bpow radix2 (-100)) 1).
Proof.
  intros (r & E & H) -> F G. assert (P := bpow_gt_0 radix2 (-100)).
  assert (Q : 0 <= r * z <= 1) by (split; nra).
  destruct (RN_bounded (r * z) 0) as [E1 _]; [change (bpow radix2 0) with 1; rewrite Rabs_right by lra; lra|lia|].
  assert (U : rnd (r * z) <= 1).
  { apply Rle_trans with (rnd 1); [apply rnd_mono; lra|right; apply rnd_fmt; destruct (fmt_Z 1); [simpl; lia|auto]]. }
  split.
  - exists (rnd (r * z)). rewrite (val_mul _ _ _ _ E F). split; auto. split; auto. rewrite <- rnd_0. apply rnd_mono; lra.
  - intros ->. exists (rnd (r * 1)). rewrite (val_mul _ _ _ _ E F). split; auto. split; auto. rewrite Rmult_1_r.
    destruct (val_fmt _ _ E) as [Fr _]. rewrite (rnd_fmt r) by auto. lra.
Qed.
Lemma add_near x y a b c d : near x a b -> near y c d -> 0 <= a -> 0 <= c -> b <= 4 -> d <= 4 -> fmt (a + c) -> fmt (b + d) ->
  near (fadd x y) (a + c) (b + d).
Proof.
  intros (r & E & H) (t & F & G) A0 C0 B4 D4 FL FU.
  destruct (RN_bounded (r + t) 3) as [E1 _]; [change (bpow radix2 3) with 8; rewrite Rabs_right by lra; lra|lia|].
  exists (rnd (r + t)). rewrite (val_add _ _ _ _ E F). split; auto.
  split; [rewrite <- (rnd_fmt (a + c)) by auto|rewrite <- (rnd_fmt (b + d)) by auto]; apply rnd_mono; lra.
Qed.
Lemma mixture_near w1 w2 w3 : near w1 0 1 -> near w2 0 1 -> near w3 0 1 ->
  (near w1 (bpow radix2 (-100)) 1 \/ near w2 (bpow radix2 (-100)) 1 \/ near w3 (bpow radix2 (-100)) 1) ->
  near (fadd (fadd w1 w2) w3) (bpow radix2 (-100)) 3.
Proof.
  intros N1 N2 N3 H. assert (P := bpow_gt_0 radix2 (-100)).
  assert (F0 : fmt 0) by apply generic_format_0. assert (Fp : fmt (bpow radix2 (-100))) by (apply fmt_bpow; lia).
  assert (F2 : fmt 2) by (destruct (fmt_Z 2); [simpl; lia|auto]). assert (F3 : fmt 3) by (destruct (fmt_Z 3); [simpl; lia|auto]).
  destruct H as [H|[H|H]].
  - apply near_weaken with (bpow radix2 (-100) + 0 + 0) (1 + 1 + 1); [|lra|lra].
    apply add_near; [apply add_near| |..]; rewrite ?Rplus_0_r; auto; try lra; replace (1 + 1) with 2 by ring; auto; replace (2 + 1) with 3 by ring; auto.
  - apply near_weaken with (0 + bpow radix2 (-100) + 0) (1 + 1 + 1); [|lra|lra].
    apply add_near; [apply add_near| |..]; rewrite ?Rplus_0_r, ?Rplus_0_l; auto; try lra; replace (1 + 1) with 2 by ring; auto; replace (2 + 1) with 3 by ring; auto.
  - apply near_weaken with (0 + 0 + bpow radix2 (-100)) (1 + 1 + 1); [|lra|lra].
    apply add_near; [apply add_near| |..]; rewrite ?Rplus_0_r, ?Rplus_0_l; auto; try lra; replace (1 + 1) with 2 by ring; auto; replace (2 + 1) with 3 by ring; auto.
Qed.
(** the three exponents and their maximum are finite *)
Lemma exponents_bounded p (b s : b64) n m rb rs rm : log_bounded lm -> is_count b n -> is_count s m ->
  is_rate (eB A p) rb -> is_rate (eS A p) rs -> is_trade_rate (mu A p) rm ->
  match lk_exponents A p b s with (e1, e2, e3, emax) =>
    bounded 502 e1 /\ bounded 502 e2 /\ bounded 502 e3 /\ bounded 502 emax /\
    exists r1 r2 r3 c, val e1 = Fin r1 /\ val e2 = Fin r2 /\ val e3 = Fin r3 /\ val emax = Fin c /\ r1 <= c /\ r2 <= c /\ r3 <= c /\ (r1 = c \/ r2 = c \/ r3 = c) end.
Proof.
  intros HL Hb Hs HeB HeS Hm. unfold lk_exponents. cbn [nadd nsub nmul ndiv nopp nlog ofZ B64].
  assert (L1 := log_term _ _ _ _ HL Hm HeS). assert (L2 := log_term _ _ _ _ HL Hm HeB).
  set (ls := l_log lm (fadd (fofZ 1) (fdiv (mu A p) (eS A p)))) in *. set (lb := l_log lm (fadd (fofZ 1) (fdiv (mu A p) (eB A p)))) in *.
  assert (Ps : bounded 500 (fmul s ls)) by (apply bounded_weaken with (50 + 11)%Z; [lia|apply bounded_mul; auto; [lia|eapply count_bounded; eauto]]).
  assert (Pb : bounded 500 (fmul b lb)) by (apply bounded_weaken with (50 + 11)%Z; [lia|apply bounded_mul; auto; [lia|eapply count_bounded; eauto]]).
  assert (Pn : bounded 500 (fmul (Bopp b) lb)) by (apply bounded_weaken with (50 + 11)%Z; [lia|apply bounded_mul; auto; [lia|apply bounded_opp; eapply count_bounded; eauto]]).
  assert (Pm : bounded 500 (Bopp (mu A p))) by (apply bounded_opp; eapply trade_bounded; eauto).
  assert (B1 : bounded 501 (fsub (Bopp (mu A p)) (fmul s ls))) by (apply (bounded_sub 500); auto; lia).
  assert (B2 : bounded 501 (fsub (Bopp (mu A p)) (fmul b lb))) by (apply (bounded_sub 500); auto; lia).
  assert (B3 : bounded 501 (fsub (fmul (Bopp b) lb) (fmul s ls))) by (apply (bounded_sub 500); auto; lia).
  set (e1 := fsub (Bopp (mu A p)) (fmul s ls)) in *. set (e2 := fsub (Bopp (mu A p)) (fmul b lb)) in *. set (e3 := fsub (fmul (Bopp b) lb) (fmul s ls)) in *.
  clearbody e1 e2 e3. assert (W := fun x => bounded_weaken 501 502 x ltac:(lia)).
  destruct B1 as (r1 & E1 & R1), B2 as (r2 & E2 & R2), B3 as (r3 & E3 & R3).
  destruct (maximum_fin _ _ _ _ E1 E2) as (c1 & C1 & H1 & H2 & H12). destruct (maximum_fin _ _ _ _ C1 E3) as (c & C & H3 & H4 & H34).
  assert (Bc : bounded 502 (maximum A (maximum A e1 e2) e3)).
  { apply W. exists c. split; auto. destruct H34 as [-> | ->]; auto. destruct H12 as [-> | ->]; auto. }
  repeat split; auto; try (apply W; eexists; split; [eassumption|auto]).
  exists r1, r2, r3, c. repeat split; auto; lra.
Qed.
Lemma lk_second_bounded p (b s : b64) n m rb rs rm ra rd : log_bounded lm -> exp_unit lm -> is_count b n -> is_count s m ->
  is_share (alpha A p) ra -> is_share (delta A p) rd ->
  is_rate (eB A p) rb -> is_rate (eS A p) rs -> is_trade_rate (mu A p) rm -> bounded 11 (lk_second A p b s).
Proof.
  intros HL HX Hb Hs Ha Hd HeB HeS Hm. assert (Q := exponents_bounded p b s n m rb rs rm HL Hb Hs HeB HeS Hm).
  unfold lk_second. destruct (lk_exponents A p b s) as [[[e1 e2] e3] emax].
  destruct Q as (B1 & B2 & B3 & Bc & r1 & r2 & r3 & c & E1 & E2 & E3 & Ec & L1 & L2 & L3 & HD).
  cbn [nadd nsub nmul ndiv nopp nlog nexp ofZ B64] in *.
  destruct (exp_term _ _ _ _ HX B1 Bc E1 Ec L1) as (z1 & X1 & Z1 & O1).
  destruct (exp_term _ _ _ _ HX B2 Bc E2 Ec L2) as (z2 & X2 & Z2 & O2).
  destruct (exp_term _ _ _ _ HX B3 Bc E3 Ec L3) as (z3 & X3 & Z3 & O3).
  assert (P50 := bpow_gt_0 radix2 (-50)).
  assert (Na : near (alpha A p) (bpow radix2 (-50)) 1) by (eapply near_weaken; [eapply share_near; eauto|lra|lra]).
  assert (Nd : near (delta A p) (bpow radix2 (-50)) 1) by (eapply near_weaken; [eapply share_near; eauto|lra|lra]).
  assert (W1 : near (fmul (alpha A p) (fsub (fofZ 1) (delta A p))) (bpow radix2 (-100)) 1) by (apply (mul_unit _ _ (-50) (-50)); auto; [lia|lia|lia|eapply one_minus_share; eauto]).
  assert (W2 : near (fmul (alpha A p) (delta A p)) (bpow radix2 (-100)) 1) by (apply (mul_unit _ _ (-50) (-50)); auto; lia).
  assert (W3 : near (fsub (fofZ 1) (alpha A p)) (bpow radix2 (-100)) 1) by (eapply near_weaken; [eapply one_minus_share; eauto|apply bpow_le; lia|lra]).
  destruct (mul_weight _ _ _ _ W1 eq_refl X1 Z1) as [M1 D1]. destruct (mul_weight _ _ _ _ W2 eq_refl X2 Z2) as [M2 D2].
  destruct (mul_weight _ _ _ _ W3 eq_refl X3 Z3) as [M3 D3].
  destruct (mixture_near _ _ _ M1 M2 M3) as (v & Ev & Hv).
  { destruct HD as [HD|[HD|HD]]; auto. }
  assert (P100 := bpow_gt_0 radix2 (-100)). apply (HL _ _ Ev). lra.
Qed.
Lemma lk_first_bounded p (b s : b64) n m rb rs rm : log_bounded lm -> is_count b n -> is_count s m ->
  is_rate (eB A p) rb -> is_rate (eS A p) rs -> is_trade_rate (mu A p) rm -> bounded 510 (lk_first A p b s).
Proof.
  intros HL Hb Hs HeB HeS Hm. assert (Q := exponents_bounded p b s n m rb rs rm HL Hb Hs HeB HeS Hm).
  unfold lk_first. destruct (lk_exponents A p b s) as [[[e1 e2] e3] emax]. destruct Q as (_ & _ & _ & Bc & _).
  cbn [nadd nsub nmul ndiv nopp nlog nexp ofZ B64] in *.
  assert (LG : forall e r, is_rate e r -> bounded 11 (l_log lm (fadd (mu A p) e))).
  { intros e r [Ee He]. destruct Hm as [Em Hm]. assert (P := bpow_gt_0 radix2 (-500)).
    assert (B5 : bpow radix2 501 = 2 * bpow radix2 500) by (change 501%Z with (1 + 500)%Z; rewrite bpow_plus; reflexivity).
    destruct (RN_bounded (rm + r) 501) as [E1 _]; [rewrite Rabs_right by lra; lra|lia|].
    assert (T : val (fadd (mu A p) e) = Fin (rnd (rm + r))) by (rewrite (val_add _ _ _ _ Em Ee); auto).
    apply (HL _ _ T). apply Rlt_le_trans with (bpow radix2 (-500)); auto.
    apply Rle_trans with (rnd (bpow radix2 (-500))); [right; symmetry; apply rnd_fmt, fmt_bpow; lia|apply rnd_mono; lra]. }
  assert (T1 : bounded 500 (fmul b (l_log lm (fadd (mu A p) (eB A p))))) by (apply bounded_weaken with (50 + 11)%Z; [lia|apply bounded_mul; [lia|eapply count_bounded; eauto|eapply LG; eauto]]).
  assert (T2 : bounded 500 (fmul s (l_log lm (fadd (mu A p) (eS A p))))) by (apply bounded_weaken with (50 + 11)%Z; [lia|apply bounded_mul; [lia|eapply count_bounded; eauto|eapply LG; eauto]]).
  assert (U1 : bounded 501 (fsub (Bopp (eB A p)) (eS A p))) by (apply (bounded_sub 500); [lia|apply bounded_opp; eapply rate_bounded; eauto|eapply rate_bounded; eauto]).
  assert (U2 : bounded 502 (fadd (fsub (Bopp (eB A p)) (eS A p)) (fmul b (l_log lm (fadd (mu A p) (eB A p)))))) by (apply (bounded_add 501); [lia|exact U1|apply bounded_weaken with 500%Z; [lia|exact T1]]).
  apply (bounded_add 509); [lia| |eapply bounded_weaken; [|exact Bc]; lia].
  apply bounded_weaken with 503%Z; [lia|]. apply (bounded_add 502); [lia|exact U2|apply bounded_weaken with 500%Z; [lia|exact T2]].
Qed.
(** finite wherever the probabilities are away from 0 and 1 and the rates away from overflow and underflow: for any number of days and any trade counts *)
Theorem C120_lk_finite : forall p B S ra rd rb rs rm,
  log_bounded lm -> exp_unit lm ->
  (forall b, In b B -> exists n, is_count b n) -> (forall s, In s S -> exists n, is_count s n) -> (Z.of_nat (length B) <= 2 ^ 53)%Z ->
  is_share (alpha A p) ra -> is_share (delta A p) rd -> is_rate (eB A p) rb -> is_rate (eS A p) rs -> is_trade_rate (mu A p) rm ->
  finite (val (loglikelihood_LK2011 A B S p)).
Proof.
  intros p B S ra rd rb rs rm HL HX HB HS HT Ha Hd HeB HeS Hm. unfold loglikelihood_LK2011. cbn [nopp nadd asum B64].
  assert (LM : forall (f : b64 -> b64 -> b64), (Z.of_nat (length (map2 f B S)) <= 2 ^ 53)%Z).
  { intros f. assert (length (map2 f B S) <= length B)%nat; [|lia]. clear. revert S. induction B as [|b B IH]; intros [|s S]; cbn [map2 length]; try lia. specialize (IH S). lia. }
  assert (IN : forall (f : b64 -> b64 -> b64) k, (forall b s, In b B -> In s S -> bounded k (f b s)) -> forall x, In x (map2 f B S) -> bounded k x).
  { intros f k. clear - B. revert S. induction B as [|b B IH]; intros [|s S] H x Hx; cbn [map2 In] in Hx; try tauto.
    destruct Hx as [<-|Hx]; [apply H; left; auto|]. apply (IH S); auto. intros; apply H; right; auto. }
  destruct (fsum_within lm 510 (map2 (lk_first A p) B S)) as (x & Ex & Hx); [apply LM|lia| |].
  { apply (IN (lk_first A p)). intros b s Hb Hs. destruct (HB b Hb) as [n Hn], (HS s Hs) as [m Hmm]. eapply lk_first_bounded; eauto. }
  destruct (fsum_within lm 510 (map2 (lk_second A p) B S)) as (y & Ey & Hy); [apply LM|lia| |].
  { apply (IN (lk_second A p)). intros b s Hb Hs. destruct (HB b Hb) as [n Hn], (HS s Hs) as [m Hmm].
    eapply bounded_weaken; [|eapply lk_second_bounded; eauto]. lia. }
  assert (C : forall f : b64 -> b64 -> b64, INR (length (map2 f B S)) * bpow radix2 510 <= bpow radix2 563).
  { intros f. change 563%Z with (53 + 510)%Z. rewrite bpow_plus. apply Rmult_le_compat_r; [apply bpow_ge_0|].
    rewrite INR_IZR_INZ. replace (bpow radix2 53) with (IZR (2 ^ 53)) by reflexivity. apply IZR_le. apply LM. }
  destruct (bounded_add 563 (fsum lm (map2 (lk_first A p) B S)) (fsum lm (map2 (lk_second A p) B S))) as (z & Ez & _); [lia| | |].
  - exists x. split; auto. eapply Rle_trans; [exact Hx|apply C].
  - exists y. split; auto. eapply Rle_trans; [exact Hy|apply C].
  - exists (- z). change (num A) with b64 in *. rewrite val_opp, Ez. reflexivity.
Qed.

(** at every starting value whose sell rate has not cancelled to (nearly) zero, LK2011 is finite: the very starts at which EHO2010 is not *)
Theorem C120_lk_every_start : forall B S mean p rs,
  log_bounded lm -> exp_unit lm ->
  (forall b, In b B -> exists n, is_count b n) -> (forall s, In s S -> exists n, is_count s n) -> (Z.of_nat (length B) <= 2 ^ 53)%Z ->
  val (amean A B) = Fin mean -> 1 <= mean <= bpow radix2 60 ->
  In p (starting_values A B S) -> is_rate (eS A p) rs -> finite (val (loglikelihood_LK2011 A B S p)).
Proof.
  intros B S mean p rs HL HX HB HS HT Em Hm Hp HeS.
  unfold starting_values in Hp. apply filter_In in Hp as [Hp _]. apply in_map_iff in Hp as ([[a d] g] & <- & Hq).
  unfold grid_product in Hq. apply in_flat_map in Hq as (a' & Ha & Hq). apply in_flat_map in Hq as (d' & Hd & Hq).
  apply in_map_iff in Hq as (g' & Eq & Hg). injection Eq as -> -> ->.
  destruct (start_rates a d g mean B S (grid_near _ Ha) (grid_near _ Hd) (grid_near _ Hg) Em Hm) as (re & rm & H1 & H2 & H3).
  assert (SH : forall x, In x (grid A) -> exists r, is_share x r).
  { intros x Hx. destruct (grid_near x Hx) as (r & Er & Hr). exists r. split; auto.
    assert (bpow radix2 (-50) <= 1 / 1000) by (simpl; lra). lra. }
  destruct (SH a Ha) as [ra Hra], (SH d Hd) as [rd Hrd].
  assert (P := bpow_gt_0 radix2 (-500)).
  apply (C120_lk_finite _ B S ra rd re rs rm); auto. destruct H2 as [E2 H2]. split; auto. lra.
Qed.
End Eho.

(** ** The contracts are met: a C library that rounds the exact results correctly *)
Lemma perfect_log_bounded : log_bounded perfect_libm.
Proof.
  intros x r E Hr. simpl. unfold bounded. rewrite val_of_xr, E, xlog_fin by auto. simpl xrn. destruct (pos_range _ _ E Hr) as [L U].
  assert (B2 := ln2_bounds). assert (P := bpow_gt_0 radix2 (-1074)).
  assert (LU : ln r < ln (bpow radix2 1024)) by (apply ln_increasing; auto).
  assert (LL : ln (bpow radix2 (-1074)) <= ln r) by (destruct L as [L|L]; [apply Rlt_le, ln_increasing; auto|rewrite L; lra]).
  rewrite ln_bpow in LU, LL.
  destruct (RN_bounded (ln r) 11) as [E1 E2]; [|lia|].
  { replace (bpow radix2 11) with 2048 by (simpl; lra). apply Rabs_le. split; nra. }
  rewrite E1. exists (rnd (ln r)); auto.
Qed.
Lemma perfect_exp_unit : exp_unit perfect_libm.
Proof.
  intros x r E H. simpl. rewrite val_of_xr, E. simpl.
  assert (X : 0 < exp r <= 1) by (split; [apply exp_pos|]; rewrite <- exp_0; destruct H as [H|H]; [apply Rlt_le, exp_increasing; auto|rewrite H; lra]).
  destruct (fmt_Z 1) as [F1 _]; [simpl; lia|]. assert (R1 := rnd_fmt 1 F1).
  destruct (RN_bounded (exp r) 0) as [E1 _]; [change (bpow radix2 0) with 1; rewrite Rabs_right by lra; lra|lia|].
  rewrite E1. exists (rnd (exp r)). split; auto. split.
  - split; [rewrite <- rnd_0; apply rnd_mono; lra|]. apply Rle_trans with (rnd 1); [apply rnd_mono; lra|lra].
  - intros ->. rewrite exp_0. auto.
Qed.
Lemma perfect_pow_overflows : pow_overflows perfect_libm.
Proof.
  intros x y r e Ex Ey [[Hr H]|[-> He]]; simpl; rewrite val_of_xr, Ex, Ey.
  - rewrite xpow_fin by auto. simpl. unfold RN.
    assert (B : fmt (bpow radix2 1024)) by (apply generic_format_bpow; vm_compute; discriminate).
    assert (Q : bpow radix2 1024 <= rnd (Rpower r e)) by (rewrite <- (rnd_fmt _ B) at 1; apply rnd_mono; auto).
    assert (P := bpow_gt_0 radix2 1024). rewrite Rlt_bool_false by (rewrite Rabs_right; lra).
    rewrite Rlt_bool_false by lra. reflexivity.
  - simpl. destruct (total_order_T 0 0) as [[|]|]; try lra. destruct (total_order_T e 0) as [[|]|]; try lra. reflexivity.
Qed.
Lemma perfect_log_not_finite : log_not_finite perfect_libm.
Proof.
  intros x H [r E]. simpl in E. rewrite val_of_xr in E. apply H. destruct (val x) as [a| | |]; simpl in E; try discriminate. exists a; auto.
Qed.
Lemma grid_first (A : Arith) : In (@lit A 1 10) (grid A).
Proof. left. reflexivity. Qed.
Lemma grid_last (A : Arith) : In (@lit A 9 10) (grid A).
Proof. do 4 right. left. reflexivity. Qed.
Lemma start_listed (A : Arith) B S a d g : In a (grid A) -> In d (grid A) -> In g (grid A) ->
  @nltb A (eS A (start_of A B S (a, d, g))) (ofZ 0) = false -> In (start_of A B S (a, d, g)) (starting_values A B S).
Proof.
  intros Ha Hd Hg H. unfold starting_values. apply filter_In. split; [|rewrite H; reflexivity].
  apply in_map. unfold grid_product. apply in_flat_map. exists a. split; auto. apply in_flat_map. exists d. split; auto.
  apply in_map_iff. exists g. auto.
Qed.
(** two days, one of them with 6000 buys and 6000 sells *)
Definition busy : list b64 := [fofZ 6000; fofZ 2000].
Example C120_case : let lm := perfect_libm in
  In (fofZ 6000, fofZ 6000) (combine busy busy) /\ is_count (fofZ 6000) 6000 /\ 8200 <= M_of 6000 6000 /\
  (forall b, In b busy -> exists n, is_count b n) /\
  val (amean (B64 lm) busy) = Fin 4000 /\ 1 <= 4000 <= bpow radix2 60 /\
  (exists p rs, In p (starting_values (B64 lm) busy busy) /\ is_rate (eS (B64 lm) p) rs).
Proof.
  cbn zeta. assert (V : forall z, (Z.abs z <= 2 ^ 53)%Z -> val (fofZ z) = Fin (IZR z)) by apply val_ofZ_small.
  assert (Em : val (amean (B64 perfect_libm) busy) = Fin 4000).
  { unfold amean, busy. cbn [asum B64 ndiv ofZ length fsum l_order perfect_libm left_to_right tree_sum leaves firstn skipn Z.of_nat Pos.of_succ_nat Pos.succ].
    assert (S1 : val (fadd (fofZ 6000) (fofZ 2000)) = Fin 8000).
    { rewrite (val_add _ _ 6000 2000) by (apply V; simpl; lia). replace (6000 + 2000) with (IZR 8000) by lra. destruct (fmt_Z 8000); [simpl; lia|]. apply RN_fmt; auto. }
    rewrite (val_div _ _ 8000 2 S1) by (try (apply V; simpl; lia); lra). replace (8000 / 2) with (IZR 4000) by lra.
    destruct (fmt_Z 4000); [simpl; lia|]. apply RN_fmt; auto. }
  split; [left; auto|]. split; [split; [apply V; simpl; lia|lia]|]. split; [unfold M_of; change (Z.min 6000 6000) with 6000%Z; change (Z.max 6000 6000) with 6000%Z; lra|].
  split; [intros b [<-|[<-|[]]]; [exists 6000%Z|exists 2000%Z]; split; try (apply V; simpl; lia); lia|].
  split; [exact Em|]. split; [split; [lra|apply Rle_trans with (bpow radix2 12); [simpl; lra|apply bpow_le; lia]]|].
  (* alpha = delta = 1/10, gamma = 9/10 *)
  set (A := B64 perfect_libm). set (t := @lit A 1 10). set (g := @lit A 9 10).
  set (p := start_of A busy busy (t, t, g)).
  assert (U := u_small). set (u := bpow radix2 (-52)) in *.
  assert (Nm : near (amean A busy) 4000 4000) by (exists 4000; split; [exact Em|lra]).
  assert (Nt : near t (99 / 1000) (101 / 1000)).
  { eapply near_weaken; [apply near_div; [apply near_ofZ; simpl; lia|apply near_ofZ; simpl; lia|lra|lra|apply small_bpow; lra|apply four_bpow; lra]|fold u; nra|fold u; nra]. }
  assert (Ng : near g (899 / 1000) (901 / 1000)).
  { eapply near_weaken; [apply near_div; [apply near_ofZ; simpl; lia|apply near_ofZ; simpl; lia|lra|lra|apply small_bpow; lra|apply four_bpow; lra]|fold u; nra|fold u; nra]. }
  assert (LB : forall c, c <= 1000000 -> c <= bpow radix2 1020) by (intros c Hc; apply Rle_trans with (bpow radix2 20); [simpl; lra|apply bpow_le; lia]).
  assert (N1 : near (fmul g (amean A busy)) 3595 3605).
  { eapply near_weaken; [apply near_mul; [exact Ng|exact Nm|lra|lra|apply small_bpow; lra|apply LB; lra]|fold u; nra|fold u; nra]. }
  assert (N2 : near (fsub (amean A busy) (fmul g (amean A busy))) 394 406).
  { eapply near_weaken; [apply near_sub; [exact Nm|exact N1|apply small_bpow; lra|apply LB; lra]|fold u; nra|fold u; nra]. }
  assert (N3 : near (fsub (fofZ 1) t) (898 / 1000) (902 / 1000)).
  { eapply near_weaken; [apply near_sub; [apply near_ofZ; simpl; lia|exact Nt|apply small_bpow; lra|apply LB; lra]|fold u; nra|fold u; nra]. }
  assert (N4 : near (fmul t (fsub (fofZ 1) t)) (88 / 1000) (92 / 1000)).
  { eapply near_weaken; [apply near_mul; [exact Nt|exact N3|lra|lra|apply small_bpow; lra|apply LB; lra]|fold u; nra|fold u; nra]. }
  assert (N5 : near (mu A p) 4000 5000).
  { unfold p, start_of. cbn [mu nmul nsub ndiv ofZ A B64]. fold A.
    eapply near_weaken; [apply near_div; [exact N2|exact N4|lra|lra|apply small_bpow; lra|apply LB; lra]|fold u; nra|fold u; nra]. }
  assert (N6 : near (fmul t t) (98 / 10000) (103 / 10000)).
  { eapply near_weaken; [apply near_mul; [exact Nt|exact Nt|lra|lra|apply small_bpow; lra|apply LB; lra]|fold u; nra|fold u; nra]. }
  assert (N7 : near (fmul (fmul t t) (mu A p)) 38 52).
  { eapply near_weaken; [apply near_mul; [exact N6|exact N5|lra|lra|apply small_bpow; lra|apply LB; lra]|fold u; nra|fold u; nra]. }
  assert (N8 : near (eS A p) 3900 4000).
  { unfold p, start_of in N7 |- *. cbn [mu eS nmul nsub ndiv ofZ A B64] in N7 |- *. fold A in N7 |- *.
    eapply near_weaken; [apply near_sub; [exact Nm|exact N7|apply small_bpow; lra|apply LB; lra]|fold u; nra|fold u; nra]. }
  destruct N8 as (rs & Es & Hrs). exists p, rs. split.
  - apply start_listed; [apply grid_first|apply grid_first|apply grid_last|].
    fold t g p. change (Bltb (eS A p) (fofZ 0) = false). rewrite val_ltb, Es, V by (simpl; lia). apply xltb_false. lra.
  - split; [exact Es|]. split; [apply Rle_trans with (bpow radix2 0); [apply bpow_le; lia|simpl; lra]|].
    apply Rle_trans with (bpow radix2 12); [simpl; lra|apply bpow_le; lia].
Qed.
(** and the four contracts hold of [perfect_libm] *)
Example C120_contracts : pow_overflows perfect_libm /\ log_not_finite perfect_libm /\ log_bounded perfect_libm /\ exp_unit perfect_libm.
Proof. exact (conj perfect_pow_overflows (conj perfect_log_not_finite (conj perfect_log_bounded perfect_exp_unit))). Qed.
