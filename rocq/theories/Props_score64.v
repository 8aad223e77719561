(** * Property C146: rounding errors of the anomaly scores, and how far thread scheduling can move them *)
From Coq Require Import Reals ZArith List Bool Arith Lia Lra Psatz Permutation.
From Flocq Require Import Core BinarySingleNaN.
From Verif Require Import Arith XR RealAux Float64 Float64b Float64c Float64d Float64e Model_iforest Spec_iforest Props_iforest Props_iforest2 Props_float5 Props_accuracy Props_accuracy2 Props_option64 Props_loglik64 Props_dcc64.
Import ListNotations.
Local Open Scope R_scope.

(** ** Specification *)
(** pow(2, y) for y <= 0 has an absolute error of at most 2^-52 *)
Definition pow2_accurate (lm : libm) : Prop :=
  forall x y w, val x = Fin 2 -> val y = Fin w -> w <= 0 -> exists v, val (l_pow lm x y) = Fin v /\ Rabs (v - Rpower 2 w) <= bpow radix2 (-52).
(** the data set and the trees with every double replaced by the number (NaN, infinity) it stands for *)
Definition exact_data {lm : libm} (d : dataset (B64 lm)) : dataset XRA :=
  mkData XRA (n_num _ d) (n_char _ d) (n_obs _ d) (fun a o => val (num_val _ d a o)) (char_val _ d).
Definition exact_split {lm : libm} (s : split (B64 lm)) : split XRA := match s with SplitNum v => SplitNum (A := XRA) (val v) | SplitStr b => SplitStr b end.
Fixpoint exact_tree {lm : libm} (t : tree (B64 lm)) : tree XRA :=
  match t with Leaf n => Leaf n | Node a s n l r => Node a (exact_split s) n (exact_tree l) (exact_tree r) end.
(** trees of ordinary size: at most 2^50 levels and leaves of at most 2^50 observations *)
Fixpoint leaves_below {A} (t : tree A) : Prop := match t with Leaf n => (Z.of_nat n <= 2 ^ 50)%Z | Node _ _ _ l r => leaves_below l /\ leaves_below r end.
Definition tame {A} (t : tree A) : Prop := leaves_below t /\ (Z.of_nat (height t) <= 2 ^ 50)%Z.

(** ** Proofs *)
(** *** Growing and scoring only compare numbers: the trees grown in doubles are the trees of exact arithmetic *)
Lemma exact_score_left lm (d : dataset (B64 lm)) attr s ob : score_left XRA (exact_data d) attr (exact_split s) ob = score_left (B64 lm) d attr s ob.
Proof. destruct s as [v | b]; [|reflexivity]. cbn [score_left exact_split exact_data num_val nltb XRA B64]. symmetry. apply val_ltb. Qed.
Lemma exact_isnan (x : b64) : match val x with NaN => true | _ => false end = is_nan x.
Proof. destruct x as [s | s | | s m e H]; try reflexivity; destruct s; reflexivity. Qed.
Lemma exact_grow_left lm (d : dataset (B64 lm)) attr s ob : grow_left XRA (exact_data d) attr (exact_split s) ob = grow_left (B64 lm) d attr s ob.
Proof.
  destruct s as [v | b]; [|reflexivity]. cbn [grow_left exact_split exact_data num_val nltb isnan XRA B64]. rewrite val_ltb. rewrite <- !exact_isnan. reflexivity.
Qed.

Theorem C146_same_trees : forall lm (d : dataset (B64 lm)) rg fuel sample g, exact_tree (growTree (B64 lm) d rg fuel sample g) = growTree XRA (exact_data d) rg fuel sample g.
Proof.
  intros lm d rg. induction fuel as [|h IH]; intros sample g; [reflexivity|]. cbn [growTree]. destruct (length sample <=? 1)%nat; [reflexivity|].
  destruct (draw_attr rg g) as [attr g1]. destruct (draw_index rg (length sample) g1) as [ix g2].
  assert (ES : exact_split (split_of (B64 lm) d attr (nth ix sample 0%nat)) = split_of XRA (exact_data d) attr (nth ix sample 0%nat)) by (unfold split_of; cbn [n_num num_val char_val exact_data]; destruct (attr <? n_num _ d)%nat; reflexivity).
  cbn [exact_tree]. rewrite !IH, ES. f_equal; f_equal; apply filter_ext; intros o; rewrite <- ES, exact_grow_left; reflexivity.
Qed.

(** *** The normaliser c(n) *)
Lemma nat_bpow n e : (0 <= e)%Z -> (Z.of_nat n <= 2 ^ e)%Z -> INR n <= bpow radix2 e.
Proof. intros He H. rewrite INR_IZR_INZ, <- (IZR_Zpower radix2 e) by exact He. apply IZR_le. exact H. Qed.
Lemma val_pos_int n : (0 <= Z.of_nat n <= 2 ^ 53)%Z -> val (fofZ (Z.of_nat n)) = Fin (INR n).
Proof. intros H. rewrite INR_IZR_INZ. apply val_ofZ_small. lia. Qed.
Lemma close_euler lm : close 3 (euler_gamma (B64 lm)) gamma_e.
Proof.
  unfold euler_gamma. cbn [lit B64]. assert (E17 : val (fofZ (Z.pos (10 ^ 17))) = RN (10 ^ 17)) by (rewrite val_ofZ; f_equal; change (Z.pos (10 ^ 17)) with 100000000000000000%Z; lra).
  assert (B60 : forall r, 1 <= r <= 1000000000000000000 -> RN r = Fin (rnd r) /\ 0 <= rnd r /\ rel 1 (rnd r) r).
  { intros r Hr. destruct (RN_in_range r 60) as [E P]; [split; [lra|simpl; lra]|lia|]. split; [exact E|]. split; [exact P|]. apply rel_rnd. right. apply (Rle_trans _ 1); [change 1 with (bpow radix2 0); apply bpow_le; lia|lra]. }
  unfold gamma_e. apply (close_div 1 1).
  - simpl; lia.
  - destruct (B60 57721566490153286) as (E & P & HR); [lra|]. exists (rnd 57721566490153286). split; [rewrite val_ofZ; exact E|]. split; [exact P|exact HR].
  - destruct (B60 (10 ^ 17)) as (E & P & HR); [lra|]. exists (rnd (10 ^ 17)). split; [rewrite E17; exact E|]. split; [exact P|exact HR].
  - lra.
  - right. apply (Rle_trans _ (bpow radix2 (-1))); [apply bpow_le; lia|simpl; lra].
  - apply (Rle_trans _ 1); [lra|change 1 with (bpow radix2 0); apply bpow_le; lia].
Qed.
Lemma c_norm_parts n : (2 <= n)%nat -> c_norm n = 2 * (ln (INR n - 1) + gamma_e) - 2 * (INR n - 1) / INR n /\ 0 <= ln (INR n - 1) <= INR n - 1 /\ 0 <= 2 * (INR n - 1) / INR n <= 2 /\ 154 / 1000 <= c_norm n <= 2 * INR n.
Proof.
  intros Hn. assert (H2 : 2 <= INR n) by (replace 2 with (INR 2) by (simpl; lra); apply le_INR; exact Hn). split; [reflexivity|].
  assert (L0 : 0 <= ln (INR n - 1)) by (rewrite <- ln_1; apply ln_le; lra).
  assert (L1 : ln (INR n - 1) <= INR n - 1) by (assert (E := exp_ineq1_le (ln (INR n - 1))); rewrite exp_ln in E by lra; lra).
  assert (Q : 2 * (INR n - 1) / INR n = 2 - 2 / INR n) by (field; lra). assert (I0 : 0 < / INR n) by (apply Rinv_0_lt_compat; lra). assert (I1 : / INR n <= / 2) by (apply Rinv_le_contravar; lra).
  split; [split; assumption|]. rewrite Q. unfold Rdiv. split; [lra|]. unfold c_norm. rewrite Q. unfold gamma_e, Rdiv. destruct (Nat.eq_dec n 2) as [-> | NE].
  - replace (INR 2) with 2 in * by (simpl; lra). replace (2 - 1) with 1 by lra. rewrite ln_1. lra.
  - assert (H3 : 3 <= INR n) by (replace 3 with (INR 3) by (simpl; lra); apply le_INR; lia). assert (HL : 1 / 2 <= ln (INR n - 1)) by (eapply Rle_trans; [apply ln2_half|apply ln_le; lra]). lra.
Qed.
(** a positive number known up to k roundings relative to a size at most rho times its own *)
Lemma near_close k rho x r a : (Z.of_nat (k * rho) <= 2 ^ 48)%Z -> near k x r a -> 0 < r -> a <= INR rho * r -> close (4 * k * rho) x r.
Proof.
  intros HK HN R0 HA. assert (UE := uro_eq). assert (U := uro_pos). assert (K0 := pos_INR k). assert (P0 := pos_INR rho).
  destruct (Nat.eq_dec (k * rho) 0) as [Z0 | NZ].
  - destruct HN as (v & Ev & D & B). exists v. split; [exact Ev|]. assert (E : (up k - 1) * a <= 0).
    { apply Nat.eq_mul_0 in Z0. destruct Z0 as [-> | ->]; [unfold up; simpl; lra|]. assert (a <= 0) by (simpl in HA; lra). assert (G := up_ge1 k). assert (P := Rabs_pos r). assert (a = 0) by lra. subst a. lra. }
    assert (v = r) by (apply Rabs_le_inv in D; lra). subst v. split; [lra|]. apply (rel_weaken 0); [lia|lra|lra|apply rel_refl].
  - assert (Hk : (Z.of_nat k <= 2 ^ 52)%Z). { assert (k <= k * rho)%nat by (destruct rho; [lia|nia]). lia. }
    destruct (near_error k x r a Hk HN) as (v & Ev & D). rewrite w52 in D. set (e := INR (k * rho) * (2 * uro)). assert (E0 : 0 <= e) by (unfold e; assert (P := pos_INR (k * rho)); nra).
    assert (E1 : e <= / 4). { unfold e. rewrite INR_IZR_INZ, UE. apply IZR_le in HK. change (IZR (2 ^ 48)) with 281474976710656 in HK. lra. }
    assert (D' : Rabs (v - r) <= e * r).
    { eapply Rle_trans; [exact D|]. unfold e. rewrite mult_INR. replace (INR k * INR rho * (2 * uro) * r) with (INR k * (2 * uro) * (INR rho * r)) by ring. apply Rmult_le_compat_l; [nra|exact HA]. }
    apply Rabs_le_inv in D'. assert (UP := up_lower (4 * k * rho)). assert (EK : INR (4 * k * rho) * uro = 2 * e) by (unfold e; rewrite !mult_INR; simpl (INR 4); ring). rewrite EK in UP.
    exists v. split; [exact Ev|]. assert (V0 : 0 <= v) by nra. split; [exact V0|]. split.
    + apply (Rle_trans _ (v * (1 + 2 * e))); [|apply Rmult_le_compat_l; lra]. assert (r * (1 - e) <= v) by lra. apply (Rle_trans _ (r * (1 - e) * (1 + 2 * e))); [|apply Rmult_le_compat_r; lra]. assert (0 <= r * (e - 2 * (e * e))) by (apply Rmult_le_pos; nra). nra.
    + apply (Rle_trans _ (r * (1 + 2 * e))); [|apply Rmult_le_compat_l; lra]. nra.
Qed.
Lemma close_norm lm n : log_accurate lm -> (2 <= n)%nat -> (Z.of_nat n <= 2 ^ 50)%Z -> close 1120 (averagePathLength (B64 lm) n) (c_norm n).
Proof.
  intros HA H2 HN. destruct (c_norm_parts n H2) as (EC & (L0 & L1) & (Q0 & Q1) & (C0 & C1)). assert (N2 : 2 <= INR n) by (replace 2 with (INR 2) by (simpl; lra); apply le_INR; exact H2).
  assert (NU : INR n <= bpow radix2 50) by (apply nat_bpow; lia).
  assert (B50 : bpow radix2 50 * 64 <= bpow radix2 1000) by (replace 64 with (bpow radix2 6) by (simpl; lra); rewrite <- bpow_plus; apply bpow_le; lia).
  assert (B9 : bpow radix2 (-1000) <= 1 / 2) by (apply (Rle_trans _ (bpow radix2 (-1))); [apply bpow_le; lia|simpl; lra]). assert (P50 := bpow_gt_0 radix2 50).
  assert (En := val_pos_int n ltac:(lia)). assert (C2 : close 0 (fofZ 2) 2) by (apply close_exact; [apply val_ofZ_small; simpl; lia|lra]).
  assert (CM : close 1 (fsub (fofZ (Z.of_nat n)) (fofZ 1)) (INR n - 1)) by (apply close_sub; [exact En|apply val_ofZ_small; simpl; lia|lra|lra]).
  assert (NL := near_logv lm 1 _ _ HA ltac:(simpl; lia) CM ltac:(lra)). rewrite (Rabs_pos_eq _ L0) in NL. assert (CE := close_euler lm). assert (G : 0 <= gamma_e <= 1) by (unfold gamma_e; lra).
  assert (NE := near_weaken _ 3 _ _ _ (le_n _) (close_near _ _ _ CE)).
  assert (N3 := near_add 3 3 3 _ _ _ _ _ _ ltac:(lia) ltac:(lia) ltac:(simpl; lia) NL NE ltac:(lra)).
  assert (N4 := near_mul 0 4 _ _ _ _ _ _ ltac:(simpl; lia) (close_near _ _ _ C2) N3 ltac:(lra) ltac:(right; lra)).
  assert (CQ1 := close_mul 0 1 _ _ _ _ ltac:(simpl; lia) C2 CM ltac:(right; lra) ltac:(lra)).
  assert (Q2 : 1 <= 2 * (INR n - 1) / INR n) by (apply (Rmult_le_reg_r (INR n)); [lra|]; unfold Rdiv; rewrite Rmult_assoc, Rinv_l by lra; lra).
  assert (CQ := close_div 2 0 _ _ _ _ ltac:(simpl; lia) CQ1 (close_exact _ _ En ltac:(lra)) ltac:(lra) ltac:(right; lra) ltac:(lra)).
  assert (NS := near_sub 6 3 6 _ _ _ _ _ _ ltac:(lia) ltac:(lia) ltac:(simpl; lia) N4 (close_near _ _ _ CQ) ltac:(lra)).
  change 1120%nat with (4 * 7 * 40)%nat. eapply near_close; [simpl; lia|exact NS|lra|]. simpl (INR 40). lra.
Qed.

(** *** Path lengths, their total and the score *)
Definition some_size (r : R) : Prop := r = 0 \/ 154 / 1000 <= r.
Lemma close_path lm (d : dataset (B64 lm)) ob t : log_accurate lm -> leaves_below t -> forall len, (Z.of_nat (len + height t) <= 2 ^ 51)%Z ->
  let r := INR len + path_len (exact_data d) ob (exact_tree t) in close 1121 (pathLength (B64 lm) d ob t len) r /\ some_size r /\ r <= bpow radix2 52.
Proof.
  intros HA. induction t as [n | attr sp n l IHl r IHr]; intros HL len HH; cbn [pathLength path_len exact_tree leaves_below height] in *.
  - assert (EL := val_pos_int len ltac:(lia)). assert (L0 := pos_INR len). assert (LU : INR len <= bpow radix2 51) by (apply nat_bpow; lia). assert (D := bpow_double 51). change (51 + 1)%Z with 52%Z in D. assert (P := bpow_gt_0 radix2 51).
    cbn [ofZ nadd B64]. destruct (Nat.leb_spec n 1) as [N1 | N1].
    + rewrite Rplus_0_r. split; [apply (close_weaken 0); [lia|apply close_exact; assumption]|]. split; [|lra]. destruct len as [|len]; [left; reflexivity|right]. rewrite S_INR. assert (Q := pos_INR len). lra.
    + destruct (c_norm_parts n ltac:(lia)) as (_ & _ & _ & C0 & C1). assert (NU : INR n <= bpow radix2 50) by (apply nat_bpow; lia). assert (D0 := bpow_double 50). change (50 + 1)%Z with 51%Z in D0.
      split; [|split; [right; lra|lra]]. apply (close_add 0 1120); [lia|lia|simpl; lia|apply close_exact; assumption|apply close_norm; [exact HA|lia|exact HL]|]. apply (Rle_trans _ (bpow radix2 52)); [lra|apply bpow_le; lia].
  - destruct HL as [Hl Hr]. rewrite exact_score_left. destruct (score_left (B64 lm) d attr sp ob).
    + assert (I := IHl Hl (S len) ltac:(lia)). cbv zeta in I. rewrite S_INR in I. replace (INR len + (1 + path_len (exact_data d) ob (exact_tree l))) with (INR len + 1 + path_len (exact_data d) ob (exact_tree l)) by ring. exact I.
    + assert (I := IHr Hr (S len) ltac:(lia)). cbv zeta in I. rewrite S_INR in I. replace (INR len + (1 + path_len (exact_data d) ob (exact_tree r))) with (INR len + 1 + path_len (exact_data d) ob (exact_tree r)) by ring. exact I.
Qed.
Lemma close_total lm (d : dataset (B64 lm)) ob : log_accurate lm -> forall trees, Forall tame trees -> forall k acc a, (1121 <= k)%nat -> (Z.of_nat (k + length trees) <= 2 ^ 41)%Z ->
  close k acc a -> some_size a -> a <= INR k * bpow radix2 52 ->
  let r := a + Rsum (map (path_len (exact_data d) ob) (map exact_tree trees)) in
  close (k + length trees) (fold_left (fun avg t => fadd avg (pathLength (B64 lm) d ob t 0)) trees acc) r /\ some_size r /\ r <= INR (k + length trees) * bpow radix2 52.
Proof.
  intros HA. induction trees as [|t trees IH]; intros HF k acc a Hk HZ HC HS HB; cbn [fold_left map Rsum length].
  - rewrite Nat.add_0_r, Rplus_0_r. auto.
  - inversion HF as [|t' l [T1 T2] HF']; subst. destruct (close_path lm d ob t HA T1 0%nat ltac:(cbn; lia)) as (CP & SP & BP). cbv zeta in *. simpl (INR 0) in *. rewrite Rplus_0_l in CP, SP, BP. set (p := path_len (exact_data d) ob (exact_tree t)) in *.
    cbn [length] in HZ. assert (B' : a + p <= INR (S k) * bpow radix2 52) by (rewrite S_INR; lra).
    assert (BT : a + p <= bpow radix2 1000).
    { apply (Rle_trans _ _ _ B'). apply (Rle_trans _ (bpow radix2 41 * bpow radix2 52)); [|rewrite <- bpow_plus; apply bpow_le; lia]. apply Rmult_le_compat_r; [apply bpow_ge_0|]. apply nat_bpow; lia. }
    assert (CA := close_add k 1121 k _ _ _ _ ltac:(lia) ltac:(lia) ltac:(lia) HC CP BT).
    assert (SA : some_size (a + p)) by (destruct HS as [-> | HS], SP as [-> | SP]; [left; ring|right; lra|right; lra|right; lra]).
    destruct (IH HF' (S k) _ _ ltac:(lia) ltac:(lia) CA SA B') as (I1 & I2 & I3). cbv zeta in *. replace (k + S (length trees))%nat with (S k + length trees)%nat by lia. rewrite <- Rplus_assoc. auto.
Qed.
(** the two exponents 2^-w and 2^-e *)
Lemma pow2_rel k w e : (Z.of_nat k <= 2 ^ 50)%Z -> 0 <= w -> 0 <= e -> rel k w e -> Rabs (Rpower 2 (- w) - Rpower 2 (- e)) <= INR k * bpow radix2 (-52).
Proof.
  intros HK W0 E0 [H1 H2]. assert (UE := uro_eq). assert (U := uro_pos). assert (K0 := pos_INR k). rewrite w52. set (dl := INR k * (2 * uro)).
  assert (UB : up k <= 1 + dl).
  { assert (KU : INR k * uro <= 1 / 4). { rewrite INR_IZR_INZ, UE. apply IZR_le in HK. change (IZR (2 ^ 50)) with 1125899906842624 in HK. lra. }
    unfold up. assert (L : (1 + uro) ^ k <= exp (INR k * uro)). { rewrite <- Rpower_pow by lra. unfold Rpower. apply exp_le_mono. apply Rmult_le_compat_l; [exact K0|]. rewrite <- (ln_exp uro) at 2. apply ln_le; [lra|]. apply Rlt_le, exp_ineq1. lra. }
    apply (Rle_trans _ _ _ L). assert (KN : 0 <= INR k * uro) by nra. assert (B := exp_near_0 (INR k * uro) ltac:(rewrite Rabs_pos_eq; lra)). rewrite (Rabs_pos_eq (INR k * uro)) in B by lra. apply Rabs_le_inv in B. unfold dl. lra. }
  assert (G : forall m M, 0 <= m -> m <= M -> M <= m * (1 + dl) -> 0 <= Rpower 2 (- m) - Rpower 2 (- M) <= dl).
  { intros m M Hm HM HD. unfold Rpower. assert (L2 := ln_lt_2). assert (L3 := ln2_half). assert (LU : ln 2 <= 1) by (assert (X := ln2_bounds); lra).
    split.
    - assert (exp (- M * ln 2) <= exp (- m * ln 2)) by (apply exp_le_mono; nra). lra.
    - replace (- M * ln 2) with (- m * ln 2 + - ((M - m) * ln 2)) by ring. rewrite exp_plus. set (z := (M - m) * ln 2). assert (Z0 : 0 <= z) by (unfold z; nra).
      assert (EZ : 1 - z <= exp (- z)) by (assert (X := exp_ineq1_le (- z)); lra). assert (EP := exp_pos (- m * ln 2)).
      apply (Rle_trans _ (exp (- m * ln 2) * z)); [nra|]. set (y := m * ln 2) in *. assert (Y0 : 0 <= y) by (unfold y; nra). replace (- m * ln 2) with (- y) in * by (unfold y; ring).
      assert (YE : exp (- y) * y <= 1). { rewrite exp_Ropp. assert (X := exp_ineq1_le y). assert (XP := exp_pos y). apply (Rmult_le_reg_l (exp y)); [exact XP|]. rewrite <- Rmult_assoc, Rinv_r by lra. lra. }
      assert (DP : 0 <= dl) by (unfold dl; nra). assert (ZD : z <= y * dl) by (unfold z, y; nra).
      apply (Rle_trans _ (exp (- y) * (y * dl))); [apply Rmult_le_compat_l; lra|]. nra. }
  destruct (Rle_lt_dec w e) as [H | H].
  - destruct (G w e W0 H ltac:(apply (Rle_trans _ _ _ H1); apply Rmult_le_compat_l; assumption)) as [G1 G2]. rewrite Rabs_pos_eq by exact G1. exact G2.
  - destruct (G e w E0 ltac:(lra) ltac:(apply (Rle_trans _ _ _ H2); apply Rmult_le_compat_l; assumption)) as [G1 G2]. rewrite Rabs_left1 by lra. lra.
Qed.

(** *** C146: the computed score against the exact score of the same observation in the same forest *)
Theorem C146_score : forall lm (d : dataset (B64 lm)) treeSize forestSize trees ob, log_accurate lm -> pow2_accurate lm ->
  (2 <= treeSize)%nat -> (Z.of_nat treeSize <= 2 ^ 50)%Z -> (1 <= forestSize)%nat -> (Z.of_nat forestSize <= 2 ^ 50)%Z -> (Z.of_nat (length trees) <= 2 ^ 40)%Z -> Forall tame trees ->
  exists v s, val (anomalyScore (B64 lm) d treeSize forestSize trees ob) = Fin v /\
    anomalyScore XRA (exact_data d) treeSize forestSize (map exact_tree trees) ob = Fin s /\ 0 < s <= 1 /\
    Rabs (v - s) <= INR (length trees + 2250) * bpow radix2 (-52).
Proof.
  intros lm d ts fs trees ob HA HP H2 HN HF HFN HT HTr. destruct (C58_score_range (exact_data d) ts fs (map exact_tree trees) ob H2 HF) as (s & Es & Bs). rewrite C58_score_formula in Es by assumption. injection Es as Es.
  destruct (close_total lm d ob HA trees HTr 1121 (fofZ 0) 0 ltac:(lia) ltac:(lia)) as (CT & ST & BT); [apply (close_weaken 0); [lia|]; apply close_exact; [exact (eq_trans (val_ofZ 0) RN_0)|lra]|left; reflexivity|apply Rmult_le_pos; [apply pos_INR|apply bpow_ge_0]|].
  cbv zeta in *. rewrite Rplus_0_l in *. set (total := Rsum (map (path_len (exact_data d) ob) (map exact_tree trees))) in *.
  assert (F1 : 1 <= INR fs) by (replace 1 with (INR 1) by (simpl; lra); apply le_INR; exact HF). assert (FU := nat_bpow fs 50 ltac:(lia) HFN). assert (EF := val_pos_int fs ltac:(lia)). destruct (c_norm_parts ts H2) as (_ & _ & _ & C0 & C1). assert (TU := nat_bpow ts 50 ltac:(lia) HN). assert (D50 := bpow_double 50). change (50 + 1)%Z with 51%Z in D50.
  assert (TB : total <= bpow radix2 93). { apply (Rle_trans _ _ _ BT). apply (Rle_trans _ (bpow radix2 41 * bpow radix2 52)); [|rewrite <- bpow_plus; apply bpow_le; lia]. apply Rmult_le_compat_r; [apply bpow_ge_0|]. apply nat_bpow; lia. }
  assert (T0 : 0 <= total) by (destruct ST as [-> | ST]; lra).
  assert (SP : span 100 total). { destruct ST as [ST | ST]; [left; exact ST|right]. split; [apply (Rle_trans _ (bpow radix2 (-3))); [apply bpow_le; lia|simpl; lra]|apply (Rle_trans _ _ _ TB), bpow_le; lia]. }
  assert (SF : sized 100 0 (fofZ (Z.of_nat fs)) (INR fs)). { apply sized_exact; [exact EF|right]. split; [apply (Rle_trans _ (bpow radix2 0)); [apply bpow_le; lia|simpl; lra]|apply (Rle_trans _ _ _ FU), bpow_le; lia]. }
  assert (SN : sized 100 1120 (averagePathLength (B64 lm) ts) (c_norm ts)). { split; [apply close_norm; assumption|right]. split; [apply (Rle_trans _ (bpow radix2 (-3))); [apply bpow_le; lia|simpl; lra]|apply (Rle_trans _ (bpow radix2 51)); [lra|apply bpow_le; lia]]. }
  assert (SA := sized_div 100 100 (1121 + length trees) 0 _ _ _ _ ltac:(lia) ltac:(lia) (conj CT SP) SF ltac:(lra)). set (avg := fdiv _ (fofZ (Z.of_nat fs))) in *. change (100 + 100)%Z with 200%Z in SA.
  assert (SW := sized_div 200 100 (S (1121 + length trees + 0)) 1120 _ _ _ _ ltac:(lia) ltac:(lia) SA SN ltac:(lra)). destruct SW as [(w & EW & W0 & HW) SW]. set (K := S (S (1121 + length trees + 0) + 1120)) in *.
  assert (W1 := span_nonneg _ _ SW).
  assert (EN : val (fdiv (Bopp avg) (averagePathLength (B64 lm) ts)) = Fin (- w)).
  { destruct SA as [(a & Ea & A0 & RA) _]. destruct SN as [(c & Ec & CC0 & RC) _]. assert (CP := rel_pos _ c (c_norm ts) ltac:(lra) RC). assert (CN : c <> 0) by lra. rewrite (val_div _ _ _ _ Ea Ec CN) in EW.
    assert (EO : val (Bopp avg) = Fin (- a)) by (rewrite val_opp, Ea; reflexivity). rewrite (val_div _ _ _ _ EO Ec CN). apply RN_opp_fin. replace (- (- a / c)) with (a / c) by (field; exact CN). exact EW. }
  destruct (HP (fofZ 2) _ (- w) (val_ofZ_small 2 ltac:(lia)) EN ltac:(lra)) as (v & Ev & Dv). exists v, s. split; [exact Ev|]. split; [rewrite C58_score_formula by assumption; rewrite Es; reflexivity|]. split; [exact Bs|].
  assert (DR := pow2_rel K w _ ltac:(unfold K; lia) W0 W1 HW). unfold avg_path in Es. fold total in Es. replace (- (total / INR fs) / c_norm ts) with (- (total / INR fs / c_norm ts)) in Es by (unfold Rdiv; ring). rewrite Es in DR.
  replace (v - s) with ((v - Rpower 2 (- w)) + (Rpower 2 (- w) - s)) by ring. eapply Rle_trans; [apply Rabs_triang|]. assert (KE : INR K <= INR (length trees + 2248)) by (apply le_INR; unfold K; lia). rewrite plus_INR in *. assert (P52 := bpow_gt_0 radix2 (-52)). replace (INR 2250) with (INR 2248 + 2) by (rewrite !INR_IZR_INZ, <- plus_IZR; reflexivity). nra.
Qed.

(** *** C146: observations whose exact scores differ by more than the two error bounds are ranked correctly *)
Theorem C146_ranking : forall lm (d : dataset (B64 lm)) treeSize forestSize trees ob ob' s s', log_accurate lm -> pow2_accurate lm ->
  (2 <= treeSize)%nat -> (Z.of_nat treeSize <= 2 ^ 50)%Z -> (1 <= forestSize)%nat -> (Z.of_nat forestSize <= 2 ^ 50)%Z -> (Z.of_nat (length trees) <= 2 ^ 40)%Z -> Forall tame trees ->
  anomalyScore XRA (exact_data d) treeSize forestSize (map exact_tree trees) ob = Fin s -> anomalyScore XRA (exact_data d) treeSize forestSize (map exact_tree trees) ob' = Fin s' ->
  s + 2 * (INR (length trees + 2250) * bpow radix2 (-52)) < s' ->
  Bltb (anomalyScore (B64 lm) d treeSize forestSize trees ob) (anomalyScore (B64 lm) d treeSize forestSize trees ob') = true.
Proof.
  intros lm d ts fs trees ob ob' s s' HA HP H2 HN HF HFN HT HTr E E' G. destruct (C146_score lm d ts fs trees ob HA HP H2 HN HF HFN HT HTr) as (v & s1 & Ev & Es & _ & D). destruct (C146_score lm d ts fs trees ob' HA HP H2 HN HF HFN HT HTr) as (v' & s1' & Ev' & Es' & _ & D').
  rewrite E in Es. injection Es as <-. rewrite E' in Es'. injection Es' as <-. apply Rabs_le_inv in D, D'. rewrite val_ltb, Ev, Ev'. apply xltb_true. lra.
Qed.

(** *** The trees a forest is grown from are of ordinary size *)
Lemma growTree_tame A (d : dataset A) rg h sample g : (Z.of_nat (length sample) <= 2 ^ 50)%Z -> leaves_below (growTree A d rg h sample g) /\ (height (growTree A d rg h sample g) <= h)%nat.
Proof.
  revert sample g. induction h as [|h IH]; intros sample g H; cbn [growTree]; [split; [exact H|apply le_n]|].
  destruct (length sample <=? 1)%nat; [split; [exact H|apply Nat.le_0_l]|]. destruct (draw_attr rg g) as [attr g1]. destruct (draw_index rg (length sample) g1) as [ix g2]. cbn [leaves_below height].
  set (f := grow_left A d attr _). assert (L := filter_split_len f sample).
  destruct (IH (filter f sample) g2 ltac:(lia)) as [I1 I2]. destruct (IH (filter (fun o => negb (f o)) sample) g2 ltac:(lia)) as [J1 J2]. split; [split; assumption|lia].
Qed.
(** each tree draws at most [m] observations *)
Definition draws_at_most (rg : rng) (m : nat) : Prop := forall g : gen rg, (length (fst (draw_sample rg g)) <= m)%nat.
Lemma worker_tame A (d : dataset A) rg h m : draws_at_most rg m -> (Z.of_nat h <= 2 ^ 50)%Z -> forall jobs sample g, (Z.of_nat (length sample + jobs * m) <= 2 ^ 50)%Z -> Forall tame (worker_loop A d rg h jobs sample g).
Proof.
  intros HM HH. induction jobs as [|jobs IH]; intros sample g H; cbn [worker_loop]; [constructor|]. assert (D := HM g). destruct (draw_sample rg g) as [drawn g']. cbn [fst] in D.
  assert (L : length (sample ++ drawn) = (length sample + length drawn)%nat) by apply app_length. constructor; [|apply IH; lia].
  destruct (growTree_tame A d rg h (sample ++ drawn) g' ltac:(lia)) as [T1 T2]. split; [exact T1|lia].
Qed.
Theorem C146_forest_is_tame : forall A (d : dataset A) rg treeSize forestSize seed workers trees, (1 <= workers)%nat -> (1 <= forestSize)%nat -> draws_at_most rg treeSize ->
  (Z.of_nat (forestSize * treeSize) <= 2 ^ 50)%Z -> interleaving (all_workers_trees A d rg treeSize forestSize seed workers) trees -> Forall tame trees.
Proof.
  intros A d rg ts fs seed w trees HW HF HM HN HI. apply interleaving_perm in HI. apply Forall_forall. intros t Ht. apply (Permutation_in _ (Permutation_sym HI)) in Ht. apply in_concat in Ht. destruct Ht as (l & Hl & Ht).
  unfold all_workers_trees in Hl. apply in_map_iff in Hl. destruct Hl as (i & <- & Hi). revert t Ht. apply Forall_forall. unfold worker_trees. apply (worker_tame _ _ _ _ ts HM).
  - assert (LL : (maxTreeHeight ts <= ts)%nat) by (unfold maxTreeHeight; apply Nat.log2_up_le_lin; lia). assert (ts <= fs * ts)%nat by nia. lia.
  - assert (J : (jobs_of fs w i <= fs)%nat) by (unfold jobs_of; assert (X := Nat.div_mod fs w ltac:(lia)); destruct (Nat.eqb i 0); nia). cbn [length]. nia.
Qed.

(** *** C146: the order in which threads push their trees moves a computed score by at most twice that *)
Theorem C146_schedules : forall lm (d : dataset (B64 lm)) rg treeSize forestSize seed workers trees trees' ob, log_accurate lm -> pow2_accurate lm ->
  (2 <= treeSize)%nat -> (1 <= workers)%nat -> (1 <= forestSize)%nat -> (Z.of_nat forestSize <= 2 ^ 40)%Z -> draws_at_most rg treeSize -> (Z.of_nat (forestSize * treeSize) <= 2 ^ 50)%Z ->
  interleaving (all_workers_trees (B64 lm) d rg treeSize forestSize seed workers) trees -> interleaving (all_workers_trees (B64 lm) d rg treeSize forestSize seed workers) trees' ->
  exists v v', val (anomalyScore (B64 lm) d treeSize forestSize trees ob) = Fin v /\ val (anomalyScore (B64 lm) d treeSize forestSize trees' ob) = Fin v' /\
    Rabs (v - v') <= 2 * (INR (forestSize + 2250) * bpow radix2 (-52)).
Proof.
  intros lm d rg ts fs seed w trees trees' ob HA HP H2 HW HF HFN HM HD I1 I2. assert (HN : (Z.of_nat ts <= 2 ^ 50)%Z) by nia. assert (HT := C146_forest_is_tame _ d rg ts fs seed w trees HW HF HM HD I1).
  assert (L1 := C60_forest_size _ d rg ts fs seed w trees HW I1). assert (L2 := C60_forest_size _ d rg ts fs seed w trees' HW I2). assert (P := C61_pushes_are_permutations _ d rg ts fs seed w trees trees' I1 I2).
  assert (HT' := C146_forest_is_tame _ d rg ts fs seed w trees' HW HF HM HD I2).
  destruct (C146_score lm d ts fs trees ob HA HP H2 HN HF ltac:(lia) ltac:(lia) HT) as (v & s & Ev & Es & _ & D). destruct (C146_score lm d ts fs trees' ob HA HP H2 HN HF ltac:(lia) ltac:(lia) HT') as (v' & s' & Ev' & Es' & _ & D').
  rewrite (C61_score_order_independent (exact_data d) ts fs _ (map exact_tree trees') ob) in Es by (apply Permutation_map; exact P). rewrite Es' in Es. injection Es as Es. subst s'. exists v, v'. split; [exact Ev|]. split; [exact Ev'|].
  rewrite L1 in D. rewrite L2 in D'. apply Rabs_le_inv in D, D'. apply Rabs_le. lra.
Qed.

(** *** A case: three trees, one a NaN split, scored under a library whose pow rounds the exact power *)
Lemma pow2_times : pow2_accurate times_libm.
Proof.
  intros x y w Ex Ey Hw. cbn [l_pow times_libm perfect_libm]. rewrite val_of_xr, Ex, Ey, xpow_fin by lra. cbn [xrn].
  assert (B : 0 < Rpower 2 w <= 1). { unfold Rpower. split; [apply exp_pos|]. rewrite <- exp_0. apply exp_le_mono. assert (L := ln2_half). nra. }
  exists (rnd (Rpower 2 w)). split; [apply (RN_val _ 1); [rewrite Rabs_right; simpl; lra|lia]|].
  assert (R1 := rnd_error (Rpower 2 w)). rewrite (Rabs_right (Rpower 2 w)) in R1 by lra. assert (EU : eta <= uro) by (unfold eta, uro; apply bpow_le; lia). rewrite w52. assert (U := uro_pos). nra.
Qed.
Definition case_data : dataset (B64 times_libm) := mkData (B64 times_libm) 1 0 3 (fun _ o => match o with 0%nat => fofZ 1 | 1%nat => B754_nan | _ => fofZ 5 end) (fun _ _ => []).
Definition case_forest : list (tree (B64 times_libm)) :=
  [Node 0 (SplitNum (A := B64 times_libm) (fofZ 3)) 256 (Leaf 2) (Leaf 254); Node 0 (SplitNum (A := B64 times_libm) B754_nan) 256 (Leaf 0) (Leaf 256); Leaf 256].
Definition two_rng : rng := mkRng nat (fun s => s) (fun g => (0%nat, S g)) (fun _ g => (0%nat, S g)) (fun g => ([0; 2]%nat, S g)).
Example C146_case : log_accurate times_libm /\ pow2_accurate times_libm /\ Forall tame case_forest /\ draws_at_most two_rng 2 /\
  (exists v s, val (anomalyScore (B64 times_libm) case_data 256 3 case_forest 1) = Fin v /\ anomalyScore XRA (exact_data case_data) 256 3 (map exact_tree case_forest) 1 = Fin s /\ 0 < s <= 1 /\ Rabs (v - s) <= INR (3 + 2250) * bpow radix2 (-52)) /\
  exists trees trees', trees <> trees' /\ interleaving (all_workers_trees (B64 times_libm) case_data two_rng 2 3 7 2) trees /\ interleaving (all_workers_trees (B64 times_libm) case_data two_rng 2 3 7 2) trees'.
Proof.
  split; [exact log_times|]. split; [exact pow2_times|]. assert (T : Forall tame case_forest) by (repeat constructor; cbn; lia). split; [exact T|]. split; [intros g; cbn; lia|]. split.
  - apply (C146_score times_libm case_data 256 3 case_forest 1 log_times pow2_times); try (cbn; lia). exact T.
  - assert (E : exists a b c, all_workers_trees (B64 times_libm) case_data two_rng 2 3 7 2 = [[a; b]; [c]] /\ tree_count b = 4%nat /\ tree_count c = 2%nat /\ tree_count a = 2%nat).
    { eexists _, _, _. split; [unfold all_workers_trees, worker_trees; change (jobs_of 3 2) with (fun i => if Nat.eqb i 0 then 2%nat else 1%nat); cbn [seq map Nat.eqb worker_loop draw_sample two_rng app]; reflexivity|]. rewrite !growTree_count. repeat split. }
    destruct E as (a & b & c & E & Cb & Cc & Ca). rewrite E. exists [a; b; c], [c; a; b]. split; [intros H; injection H as H1 H2 H3; rewrite H2 in Cb; lia|].
    split; [exact (interleaving_sequential [[a; b]; [c]])|]. apply (il_step [[a; b]] c [] []). exact (interleaving_sequential [[a; b]; []]).
Qed.
(** one tree that isolates observation 0 and leaves three others together *)
Definition ranking_tree : tree (B64 times_libm) := Node 0 (SplitNum (A := B64 times_libm) (fofZ 3)) 4 (Leaf 1) (Leaf 3).
Example C146_ranking_case : exists s s', anomalyScore XRA (exact_data case_data) 4 1 (map exact_tree [ranking_tree]) 2 = Fin s /\
  anomalyScore XRA (exact_data case_data) 4 1 (map exact_tree [ranking_tree]) 0 = Fin s' /\ s + 2 * (INR (1 + 2250) * bpow radix2 (-52)) < s'.
Proof.
  rewrite !C58_score_formula by lia. do 2 eexists. split; [reflexivity|]. split; [reflexivity|]. unfold avg_path, ranking_tree. cbn [map exact_tree path_len]. rewrite !exact_score_left. cbn [score_left case_data num_val]. cbn [nltb B64].
  assert (T1 : @Bltb 53 1024 (fofZ 1) (fofZ 3) = true) by (vm_compute; reflexivity). assert (T2 : @Bltb 53 1024 (fofZ 5) (fofZ 3) = false) by (vm_compute; reflexivity). rewrite T1, T2. cbn [path_len Nat.leb Rsum map].
  destruct (c_norm_parts 3 ltac:(lia)) as (_ & _ & _ & C3 & C3'). assert (E3 : c_norm 3 = 2 * (ln 2 + gamma_e) - 4 / 3) by (unfold c_norm; replace (INR 3) with 3 by (simpl; lra); replace (3 - 1) with 2 by lra; lra).
  assert (E4 : c_norm 4 = 2 * (ln 3 + gamma_e) - 3 / 2) by (unfold c_norm; replace (INR 4) with 4 by (simpl; lra); replace (4 - 1) with 3 by lra; lra).
  assert (L2 := ln2_half). assert (L1 : ln 2 <= 1) by (assert (X := Float64b.ln2_bounds); lra). assert (L3 : ln 2 <= ln 3) by (apply ln_le; lra). assert (L4 : ln 3 <= 2 * ln 2). { replace (2 * ln 2) with (ln 2 + ln 2) by ring. rewrite <- ln_mult by lra. apply ln_le; lra. }
  assert (GE : 57 / 100 <= gamma_e <= 58 / 100) by (unfold gamma_e; lra). set (c3 := c_norm 3) in *. set (c4 := c_norm 4) in *. simpl (INR 1). replace (- ((1 + c3 + 0) / 1) / c4) with (- ((1 + c3) / c4)) by (field; lra). replace (- ((1 + 0 + 0) / 1) / c4) with (- (1 / c4)) by (field; lra).
  assert (C4 : 6 / 10 <= c4 <= 4) by lra. assert (C3B : 8 / 10 <= c3 <= 2) by lra. set (x := 1 / c4). set (y := (1 + c3) / c4).
  assert (EX : x * c4 = 1) by (unfold x; field; lra). assert (EY : y * c4 = 1 + c3) by (unfold y; field; lra). assert (XY : x + 1 / 5 <= y) by nra. assert (Y5 : y <= 5) by nra. assert (X0 : 0 < x) by nra.
  unfold Rpower. replace (- x * ln 2) with (- y * ln 2 + (y - x) * ln 2) by ring. rewrite exp_plus. assert (EP := exp_ineq1_le ((y - x) * ln 2)). assert (G1 : 11 / 10 <= exp ((y - x) * ln 2)) by nra.
  assert (G2 : exp (-5) <= exp (- y * ln 2)) by (apply exp_le_mono; nra). assert (G3 : 1 / 1024 <= exp (-5)). { replace (1 / 1024) with (bpow radix2 (-10)) by (simpl; lra). rewrite bpow_exp. apply exp_le_mono. lra. }
  replace (INR (1 + 2250)) with 2251 by (rewrite INR_IZR_INZ; reflexivity). assert (W : bpow radix2 (-52) <= / 1073741824) by (apply (Rle_trans _ (bpow radix2 (-30))); [apply bpow_le; lia|simpl; lra]). assert (WP := bpow_gt_0 radix2 (-52)). nra.
Qed.
