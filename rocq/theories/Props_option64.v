(** * Property C129: Black-Scholes prices in double precision *)
From Coq Require Import Reals ZArith List Bool Arith Lia Lra Psatz.
From Flocq Require Import Core BinarySingleNaN.
From Verif Require Import Props_float4 Props_averages.
From Verif Require Import Arith XR RealAux Gauss Float64 Float64b Float64c Float64d Float64e Model_option Props_option.
Local Open Scope R_scope.

(** ** Specification *)
(** prices, times and volatilities between 2^-100 and 2^100; rates zero or of that size; at most 100 time units of compounding at either rate *)
Definition positive64 (x : b64) : Prop := is_finite x = true /\ bpow radix2 (-100) <= B2R x <= bpow radix2 100.
Definition option64 (S K r T sigma q : b64) : Prop :=
  positive64 S /\ positive64 K /\ positive64 T /\ positive64 sigma /\ return64 r /\ return64 q /\ Rabs (B2R r * B2R T) <= 100 /\ Rabs (B2R q * B2R T) <= 100.
(** a mathematical library with relative errors of 2^-52 (log, exp) or an absolute error of 2^-52 (the distribution function), that squares by multiplying *)
Definition accurate_libm (lm : libm) : Prop := sq_exact lm /\ log_accurate lm /\ exp_accurate lm /\ cdf_accurate lm.
(** the size of the two terms a price is the difference of, with the effect of rounding the exponents *)
Definition notional (S K r T q : R) : R := stock S q T * (1 + Rabs (q * T)) + strike K r T * (1 + Rabs (r * T)).
(** how sensitive the arguments d1 and d2 of the distribution function are *)
Definition sensitivity (S K r T sigma q : R) : R :=
  (1 + Rabs (ln (S / K)) + (Rabs r + Rabs q + sigma * sigma / 2) * T) / (sigma * sqrt T) + sigma * sqrt T.

(** ** Proof *)
Lemma near_widen k x r a b : a <= b -> near k x r a -> near k x r b.
Proof. intros H (v & E & D & R1). assert (U := up_ge1 k). exists v. split; [exact E|]. split; [|lra]. eapply Rle_trans; [exact D|]. apply Rmult_le_compat_l; lra. Qed.
Lemma exp_le_mono a b : a <= b -> exp a <= exp b.
Proof. intros [H | ->]; [apply Rlt_le, exp_increasing, H|lra]. Qed.
Lemma bpow_exp n : bpow radix2 n = exp (IZR n * ln 2).
Proof. rewrite <- ln_bpow, exp_ln; [reflexivity|apply bpow_gt_0]. Qed.
Lemma exp_100 p : Rabs p <= 100 -> bpow radix2 (-200) <= exp p <= bpow radix2 200.
Proof. intros H. apply Rabs_le_inv in H. assert (L := ln_lt_2). rewrite !bpow_exp. split; apply exp_le_mono; lra. Qed.

Section Prices.
Context (lm : libm) (S K r T sigma q : b64).
Hypothesis acc : accurate_libm lm.
Hypothesis opt : option64 S K r T sigma q.
Notation s := (B2R S). Notation k := (B2R K). Notation rr := (B2R r). Notation t := (B2R T). Notation sg := (B2R sigma). Notation qq := (B2R q).
Let st := sqrt t.
Let den := sg * st.
Let size1 := 1 + Rabs (ln (s / k)) + (Rabs rr + Rabs qq + sg * sg / 2) * t.
Let A := sensitivity s k rr t sg qq.

Lemma pos_val x : positive64 x -> val x = Fin (B2R x) /\ bpow radix2 (-100) <= B2R x <= bpow radix2 100 /\ 0 < B2R x.
Proof. intros [F H]. split; [apply val_fin; exact F|]. split; [exact H|]. assert (P := bpow_gt_0 radix2 (-100)). lra. Qed.
Lemma st_bounds : bpow radix2 (-50) <= st <= bpow radix2 50 /\ st * st = t.
Proof.
  destruct opt as (_ & _ & HT & _). destruct (pos_val T HT) as (_ & B & P). unfold st. split; [|apply sqrt_sqrt; lra].
  assert (E : forall n, sqrt (bpow radix2 (n + n)) = bpow radix2 n) by (intros n; rewrite bpow_plus; apply sqrt_square, bpow_ge_0).
  split; [rewrite <- (E (-50)%Z)|rewrite <- (E 50%Z)]; apply sqrt_le_1_alt; apply B.
Qed.
Lemma den_sized : sized 150 2 (fmul sigma (fsqrt T)) den /\ bpow radix2 (-150) <= den <= bpow radix2 150.
Proof.
  destruct opt as (_ & _ & HT & Hs & _). destruct (pos_val T HT) as (ET & BT & PT), (pos_val sigma Hs) as (Es & Bs & Ps). destruct st_bounds as [SB _]. destruct (val_sqrt T _ ET ltac:(lra)) as [E1 R1].
  assert (P1 := bpow_gt_0 radix2 (-100)). assert (P2 := bpow_gt_0 radix2 (-50)).
  assert (ST : sized 50 1 (fsqrt T) st). { split; [|right; exact SB]. exists (rnd (sqrt t)). split; [exact E1|]. split; [rewrite <- rnd_0; apply rnd_mono, sqrt_pos|exact R1]. }
  assert (SS : sized 100 0 sigma sg) by (apply sized_exact; [exact Es|right; exact Bs]).
  assert (M := sized_mul 100 50 0 1 sigma (fsqrt T) sg st ltac:(lia) ltac:(simpl; lia) SS ST). split; [exact M|]. unfold den. change (-150)%Z with (-100 + -50)%Z. change 150%Z with (100 + 50)%Z. rewrite !bpow_plus. split; apply Rmult_le_compat; lra.
Qed.
Lemma ln_bound : Rabs (ln (s / k)) <= 200.
Proof.
  destruct opt as (HS & HK & _). destruct (pos_val S HS) as (_ & BS & PS), (pos_val K HK) as (_ & BK & PK). assert (L := ln2_bounds).
  assert (LB : forall x, bpow radix2 (-100) <= x <= bpow radix2 100 -> -100 <= ln x <= 100).
  { intros x Hx. assert (P := bpow_gt_0 radix2 (-100)). split; [apply (Rle_trans _ (ln (bpow radix2 (-100)))); [rewrite ln_bpow; lra|apply ln_le; lra]|apply (Rle_trans _ (ln (bpow radix2 100))); [apply ln_le; lra|rewrite ln_bpow; lra]]. }
  unfold Rdiv. rewrite ln_mult, ln_Rinv by (try apply Rinv_0_lt_compat; assumption). assert (H1 := LB s BS). assert (H2 := LB k BK). apply Rabs_le. lra.
Qed.
Lemma size1_bounds : 1 <= size1 <= bpow radix2 300.
Proof.
  destruct opt as (_ & _ & HT & Hs & HR & HQ & RT & QT). destruct (pos_val T HT) as (_ & BT & PT), (pos_val sigma Hs) as (_ & Bs & Ps). assert (L := ln_bound). assert (L0 := Rabs_pos (ln (s / k))).
  assert (R1 : Rabs rr * t <= 100) by (rewrite Rabs_mult, (Rabs_right t) in RT by lra; exact RT). assert (Q1 : Rabs qq * t <= 100) by (rewrite Rabs_mult, (Rabs_right t) in QT by lra; exact QT).
  assert (R0 : 0 <= Rabs rr * t) by (apply Rmult_le_pos; [apply Rabs_pos|lra]). assert (Q0 : 0 <= Rabs qq * t) by (apply Rmult_le_pos; [apply Rabs_pos|lra]).
  assert (S2 : 0 <= sg * sg * t <= bpow radix2 300). { split; [apply Rmult_le_pos; [nra|lra]|]. change 300%Z with (100 + 100 + 100)%Z. rewrite !bpow_plus. apply Rmult_le_compat; [nra|lra| |lra]. apply Rmult_le_compat; lra. }
  assert (B10 : bpow radix2 10 <= bpow radix2 300) by (apply bpow_le; lia). replace (bpow radix2 10) with 1024 in B10 by (simpl; lra).
  replace size1 with (1 + Rabs (ln (s / k)) + (Rabs rr * t + Rabs qq * t + sg * sg * t / 2)) by (unfold size1; field). lra.
Qed.
Lemma A_bounds : 0 <= size1 / den /\ size1 / den <= A /\ A <= bpow radix2 452 /\ A = size1 / den + den.
Proof.
  destruct den_sized as [_ DB]. assert (SB := size1_bounds). assert (P := bpow_gt_0 radix2 (-150)).
  assert (Q0 : 0 <= size1 / den) by (apply Rlt_le, Rdiv_lt_0_compat; lra). split; [exact Q0|]. assert (EA : A = size1 / den + den) by reflexivity. rewrite EA. split; [lra|]. split; [|reflexivity].
  assert (Q1 : size1 / den <= bpow radix2 450). { apply (Rmult_le_reg_r den); [lra|]. unfold Rdiv. rewrite Rmult_assoc, Rinv_l, Rmult_1_r by lra. apply (Rle_trans _ (bpow radix2 450 * bpow radix2 (-150))); [rewrite <- bpow_plus; apply SB|apply Rmult_le_compat_l; [apply bpow_ge_0|lra]]. }
  assert (B1 : bpow radix2 150 <= bpow radix2 450) by (apply bpow_le; lia). assert (D1 := bpow_double 450). assert (D2 := bpow_double 451). change (450 + 1)%Z with 451%Z in D1. change (451 + 1)%Z with 452%Z in D2. lra.
Qed.

Let d1x := fdiv (fadd (l_log lm (fdiv S K)) (fmul (fadd (fsub r q) (fdiv (l_sq lm sigma) (fofZ 2))) T)) (fmul sigma (fsqrt T)).
Let d2x := fsub d1x (fmul sigma (fsqrt T)).
Let d1 := (ln (s / k) + (rr - qq + sg * sg / 2) * t) / den.
Let d2 := d1 - den.
Lemma small_size a : 0 <= a -> a <= bpow radix2 300 -> a <= bpow radix2 1000. Proof. intros _ H. apply (Rle_trans _ _ _ H), bpow_le. lia. Qed.
Lemma arguments : near 13 d1x d1 A /\ near 13 d2x d2 A.
Proof.
  destruct acc as (SQ & LA & _ & _). destruct opt as (HS & HK & HT & Hs & HR & HQ & RT & QT).
  destruct (pos_val S HS) as (ES & BS & PS), (pos_val K HK) as (EK & BK & PK), (pos_val T HT) as (ET & BT & PT), (pos_val sigma Hs) as (Es & Bs & Ps).
  assert (Er := val_fin r (proj1 HR)). assert (Eq := val_fin q (proj1 HQ)). assert (Br := return_le r HR). assert (Bq := return_le q HQ). assert (PL := bpow_gt_0 radix2 (-100)).
  assert (SB := size1_bounds). destruct den_sized as [DS DB]. destruct A_bounds as (A0 & A1 & A2 & A3). assert (PD := bpow_gt_0 radix2 (-150)).
  assert (S2 : bpow radix2 (-200) <= sg * sg <= bpow radix2 200) by (change (-200)%Z with (-100 + -100)%Z; change 200%Z with (100 + 100)%Z; rewrite !bpow_plus; split; apply Rmult_le_compat; lra). assert (P2 := bpow_gt_0 radix2 (-200)).
  assert (N1 := near_log lm S K s k LA ES EK BS BK).
  assert (B101 : bpow radix2 100 + bpow radix2 100 <= bpow radix2 1000) by (replace (bpow radix2 100 + bpow radix2 100) with (bpow radix2 100 * 2) by ring; rewrite bpow_double; apply bpow_le; lia).
  assert (N2 : near 1 (fsub r q) (rr - qq) (Rabs rr + Rabs qq)).
  { apply (near_sub 0 0 0); [lia|lia|simpl; lia|apply near_exact; [exact Er|lra]|apply near_exact; [exact Eq|lra]|lra]. }
  assert (N3 : near 2 (l_sq lm sigma) (sg * sg) (sg * sg)).
  { rewrite SQ. apply (near_mul 0 0); [simpl; lia|apply near_exact; [exact Es|rewrite Rabs_right; lra]|apply near_exact; [exact Es|rewrite Rabs_right; lra]|apply (Rle_trans _ _ _ (proj2 S2)), bpow_le; lia|right; apply (Rle_trans _ (bpow radix2 (-200))); [apply bpow_le; lia|apply S2]]. }
  assert (N4 : near 4 (fdiv (l_sq lm sigma) (fofZ 2)) (sg * sg / 2) (sg * sg / 2)).
  { apply (near_divZ 2 _ _ _ 2); [simpl; lia|lia|exact N3|apply (Rle_trans _ _ _ (proj2 S2)), bpow_le; lia|right]. apply (Rle_trans _ (bpow radix2 (-201))); [apply bpow_le; lia|]. assert (D := bpow_double (-201)). change (-201 + 1)%Z with (-200)%Z in D. lra. }
  assert (N5 : near 5 (fadd (fsub r q) (fdiv (l_sq lm sigma) (fofZ 2))) (rr - qq + sg * sg / 2) (Rabs rr + Rabs qq + sg * sg / 2)).
  { apply (near_add 1 4 4); [lia|lia|simpl; lia|exact N2|exact N4|]. assert (bpow radix2 100 <= bpow radix2 200) by (apply bpow_le; lia). apply (Rle_trans _ (bpow radix2 200 * 2 * 2)); [lra|]. rewrite !bpow_double. apply bpow_le; lia. }
  set (dr := Rabs rr + Rabs qq + sg * sg / 2) in *.
  assert (DT : bpow radix2 (-301) <= dr * t <= bpow radix2 300).
  { assert (P0 := Rabs_pos rr). assert (P1 := Rabs_pos qq). split; [|unfold size1 in SB; fold dr in SB; assert (P3 := Rabs_pos (ln (s / k))); lra].
    apply (Rle_trans _ (bpow radix2 (-201) * bpow radix2 (-100))); [rewrite <- bpow_plus; apply bpow_le; lia|]. apply Rmult_le_compat; [apply bpow_ge_0|lra| |lra]. unfold dr. assert (D := bpow_double (-201)). change (-201 + 1)%Z with (-200)%Z in D. lra. }
  assert (N6 : near 7 (fmul (fadd (fsub r q) (fdiv (l_sq lm sigma) (fofZ 2))) T) ((rr - qq + sg * sg / 2) * t) (dr * t)).
  { apply (near_mul 5 0); [simpl; lia|exact N5|apply near_exact; [exact ET|rewrite Rabs_right; lra]|apply (Rle_trans _ _ _ (proj2 DT)), bpow_le; lia|right; apply (Rle_trans _ (bpow radix2 (-301))); [apply bpow_le; lia|apply DT]]. }
  assert (N7 : near 8 (fadd (l_log lm (fdiv S K)) (fmul (fadd (fsub r q) (fdiv (l_sq lm sigma) (fofZ 2))) T)) (ln (s / k) + (rr - qq + sg * sg / 2) * t) size1).
  { apply (near_add 5 7 7); [lia|lia|simpl; lia|exact N1|exact N6|]. change (size1 <= bpow radix2 1000). apply (Rle_trans _ _ _ (proj2 SB)), bpow_le. lia. }
  assert (AB : A <= bpow radix2 1000) by (apply (Rle_trans _ _ _ A2), bpow_le; lia).
  assert (N8 : near 12 d1x d1 (size1 / den)).
  { apply (near_div 8 2); [simpl; lia|exact N7|apply DS|lra|lra|right]. apply (Rmult_le_reg_r den); [lra|]. unfold Rdiv. rewrite Rmult_assoc, Rinv_l, Rmult_1_r by lra.
    apply (Rle_trans _ (bpow radix2 (-1000) * bpow radix2 150)); [apply Rmult_le_compat_l; [apply bpow_ge_0|lra]|]. rewrite <- bpow_plus. apply (Rle_trans _ (bpow radix2 0)); [apply bpow_le; lia|simpl; lra]. }
  split; [apply (near_weaken 12); [lia|]; apply (near_widen _ _ _ (size1 / den)); [exact A1|exact N8]|].
  rewrite A3. apply (near_sub 12 2 12); [lia|lia|simpl; lia|exact N8|apply close_near; apply DS|rewrite <- A3; exact AB].
Qed.
(** the discounted stock and strike *)
Lemma discounted X y : positive64 X -> return64 y -> Rabs (B2R y * t) <= 100 ->
  near 10 (fmul X (l_exp lm (fmul (Bopp y) T))) (B2R X * exp (- B2R y * t)) (B2R X * exp (- B2R y * t) * (1 + Rabs (B2R y * t))) /\
  bpow radix2 (-300) <= B2R X * exp (- B2R y * t) * (1 + Rabs (B2R y * t)) <= bpow radix2 307.
Proof.
  intros HX HY YT. destruct acc as (_ & _ & EA & _). destruct (pos_val X HX) as (EX & BX & PX). destruct opt as (_ & _ & HT & _). destruct (pos_val T HT) as (ET & BT & PT). assert (Ey : val (Bopp y) = Fin (- B2R y)) by (rewrite val_opp, (val_fin y (proj1 HY)); reflexivity).
  assert (EQ : - B2R y * t = - (B2R y * t)) by ring. assert (AY : Rabs (- B2R y * t) = Rabs (B2R y * t)) by (rewrite EQ; apply Rabs_Ropp).
  assert (NE := near_exp lm (Bopp y) T (- B2R y) t EA Ey ET ltac:(lra)). rewrite AY in NE. assert (EB := exp_100 (- B2R y * t) ltac:(lra)). set (X0 := exp (- B2R y * t)) in *. assert (PP := Rabs_pos (B2R y * t)).
  assert (P1 := bpow_gt_0 radix2 (-200)). assert (P2 := bpow_gt_0 radix2 (-100)).
  assert (SB : bpow radix2 (-300) <= B2R X * X0 * (1 + Rabs (B2R y * t)) <= bpow radix2 307).
  { assert (Q1 : bpow radix2 (-300) <= B2R X * X0) by (change (-300)%Z with (-100 + -200)%Z; rewrite bpow_plus; apply Rmult_le_compat; lra). assert (Q2 : B2R X * X0 <= bpow radix2 300) by (change 300%Z with (100 + 200)%Z; rewrite bpow_plus; apply Rmult_le_compat; lra). assert (P3 := bpow_gt_0 radix2 (-300)).
    split; [nra|]. change 307%Z with (300 + 7)%Z. rewrite bpow_plus. apply Rmult_le_compat; [lra|lra|exact Q2|]. simpl. lra. }
  split; [|exact SB]. rewrite Rmult_assoc in SB |- *. apply (near_mul 0 8); [simpl; lia|apply near_exact; [exact EX|rewrite Rabs_right; lra]|exact NE|apply (Rle_trans _ _ _ (proj2 SB)), bpow_le; lia|right; apply (Rle_trans _ (bpow radix2 (-300))); [apply bpow_le; lia|apply SB]].
Qed.
(** a difference of two such amounts, each multiplied by a number near a probability *)
Lemma difference X y Y z c1 c2 p1 p2 kc m : (kc <= 100)%nat -> positive64 X -> return64 y -> Rabs (B2R y * t) <= 100 -> positive64 Y -> return64 z -> Rabs (B2R z * t) <= 100 ->
  1 <= m <= bpow radix2 453 -> near kc c1 p1 m -> near kc c2 p2 m ->
  near (13 + kc) (fsub (fmul (fmul X (l_exp lm (fmul (Bopp y) T))) c1) (fmul (fmul Y (l_exp lm (fmul (Bopp z) T))) c2))
    (B2R X * exp (- B2R y * t) * p1 - B2R Y * exp (- B2R z * t) * p2)
    ((B2R X * exp (- B2R y * t) * (1 + Rabs (B2R y * t)) + B2R Y * exp (- B2R z * t) * (1 + Rabs (B2R z * t))) * m).
Proof.
  intros Hk HX Hy HyT HY Hz HzT Hm C1 C2. destruct (discounted X y HX Hy HyT) as [N1 B1]. destruct (discounted Y z HY Hz HzT) as [N2 B2].
  set (F := B2R X * exp (- B2R y * t) * (1 + Rabs (B2R y * t))) in *. set (G := B2R Y * exp (- B2R z * t) * (1 + Rabs (B2R z * t))) in *. assert (P := bpow_gt_0 radix2 (-300)).
  assert (BB : forall Q, bpow radix2 (-300) <= Q <= bpow radix2 307 -> bpow radix2 (-300) <= Q * m <= bpow radix2 760) by (intros Q HQ; split; [nra|change 760%Z with (307 + 453)%Z; rewrite bpow_plus; apply Rmult_le_compat; lra]).
  assert (BF := BB F B1). assert (BG := BB G B2). replace ((F + G) * m) with (F * m + G * m) by ring. change (13 + kc)%nat with (Datatypes.S (12 + kc)).
  apply (near_sub (12 + kc) (12 + kc)); [lia|lia|lia| | |].
  - change (12 + kc)%nat with (Datatypes.S (Datatypes.S (10 + kc))). apply near_mul; [lia|exact N1|exact C1|apply (Rle_trans _ _ _ (proj2 BF)), bpow_le; lia|right; apply (Rle_trans _ (bpow radix2 (-300))); [apply bpow_le; lia|apply BF]].
  - change (12 + kc)%nat with (Datatypes.S (Datatypes.S (10 + kc))). apply near_mul; [lia|exact N2|exact C2|apply (Rle_trans _ _ _ (proj2 BG)), bpow_le; lia|right; apply (Rle_trans _ (bpow radix2 (-300))); [apply bpow_le; lia|apply BG]].
  - apply (Rle_trans _ (bpow radix2 760 * 2)); [lra|]. rewrite bpow_double. apply bpow_le. lia.
Qed.
End Prices.

Section Statements.
Context (lm : libm) (S K r T sigma q : b64).
Hypothesis acc : accurate_libm lm.
Hypothesis opt : option64 S K r T sigma q.
Let prices := blsprice (B64 lm) S K r T sigma q.
Let d1x := fdiv (fadd (l_log lm (fdiv S K)) (fmul (fadd (fsub r q) (fdiv (l_sq lm sigma) (fofZ 2))) T)) (fmul sigma (fsqrt T)).
Let d2x := fsub d1x (fmul sigma (fsqrt T)).
Let Fx := fmul S (l_exp lm (fmul (Bopp q) T)).
Let Gx := fmul K (l_exp lm (fmul (Bopp r) T)).
Lemma prices_eq : prices = (fsub (fmul Fx (l_cdf lm d1x)) (fmul Gx (l_cdf lm d2x)), fsub (fmul Gx (l_cdf lm (Bopp d2x))) (fmul Fx (l_cdf lm (Bopp d1x)))).
Proof. reflexivity. Qed.
Let A := sensitivity (B2R S) (B2R K) (B2R r) (B2R T) (B2R sigma) (B2R q).
Let den := B2R sigma * sqrt (B2R T).
Let d1 := (ln (B2R S / B2R K) + (B2R r - B2R q + B2R sigma * B2R sigma / 2) * B2R T) / den.
Let F := stock (B2R S) (B2R q) (B2R T).
Let G := strike (B2R K) (B2R r) (B2R T).
Let N := notional (B2R S) (B2R K) (B2R r) (B2R T) (B2R q).
Lemma exact_prices : blsprice XRA (Fin (B2R S)) (Fin (B2R K)) (Fin (B2R r)) (Fin (B2R T)) (Fin (B2R sigma)) (Fin (B2R q)) =
  (Fin (F * Phi d1 - G * Phi (d1 - den)), Fin (G * Phi (- (d1 - den)) - F * Phi (- d1))).
Proof.
  destruct opt as (HS & HK & HT & Hs & _). destruct (pos_val S HS) as (_ & _ & PS), (pos_val K HK) as (_ & _ & PK), (pos_val T HT) as (_ & _ & PT), (pos_val sigma Hs) as (_ & _ & Ps).
  assert (HR : 0 < sqrt (B2R T)) by (apply sqrt_lt_R0; auto). assert (HV : 0 < B2R sigma * sqrt (B2R T)) by (apply Rmult_lt_0_compat; auto).
  unfold blsprice. cbn [ndiv nlog nadd nsub nmul nsq nsqrt nexp nopp ncdf ofZ XRA xsq xopp xmul]. rewrite !xsqrt_fin by lra.
  rewrite !xdiv_fin by lra. rewrite xlog_fin by (apply Rdiv_lt_0_compat; auto). cbn [xmul xadd xsub xopp xexp]. rewrite xdiv_fin by lra. cbn [xadd xopp xncdf xmul xsub]. reflexivity.
Qed.
Lemma price_values : exists c p, val (fst prices) = Fin c /\ val (snd prices) = Fin p /\
  Rabs (c - (F * Phi d1 - G * Phi (d1 - den))) <= 28 * bpow radix2 (-52) * (N * (1 + A)) /\ Rabs (p - (G * Phi (- (d1 - den)) - F * Phi (- d1))) <= 28 * bpow radix2 (-52) * (N * (1 + A)).
Proof.
  destruct (arguments lm S K r T sigma q acc opt) as [N1 N2]. destruct (A_bounds S K r T sigma q opt) as (A0 & A1 & A2 & _). fold A in N1, N2, A1, A2. fold d1x in N1, N2. fold d2x in N2. fold den in N1, N2. fold d1 in N1, N2.
  assert (CA : cdf_accurate lm) by apply acc. destruct opt as (HS & HK & HT & Hs & HR & HQ & RT & QT).
  assert (MB : 1 <= 1 + A <= bpow radix2 453). { split; [lra|]. assert (D := bpow_double 452). change (452 + 1)%Z with 453%Z in D. assert (bpow radix2 0 <= bpow radix2 452) by (apply bpow_le; lia). simpl (bpow radix2 0) in *. lra. }
  assert (C1 := near_cdf lm 13 _ _ _ CA N1). assert (C2 := near_cdf lm 13 _ _ _ CA N2). assert (C3 := near_cdf lm 13 _ _ _ CA (near_opp _ _ _ _ N1)). assert (C4 := near_cdf lm 13 _ _ _ CA (near_opp _ _ _ _ N2)).
  assert (X1 := difference lm S K r T sigma q acc opt S q K r _ _ _ _ 15 (1 + A) ltac:(lia) HS HQ QT HK HR RT MB C1 C2).
  assert (X2 := difference lm S K r T sigma q acc opt K r S q _ _ _ _ 15 (1 + A) ltac:(lia) HK HR RT HS HQ QT MB C4 C3).
  destruct (near_error (13 + 15) _ _ _ ltac:(simpl; lia) X1) as (c & Ec & Dc). destruct (near_error (13 + 15) _ _ _ ltac:(simpl; lia) X2) as (p & Ep & Dp). exists c, p. rewrite prices_eq. cbn [fst snd].
  split; [exact Ec|]. split; [exact Ep|]. replace (INR (13 + 15)) with 28 in Dc, Dp by (simpl; lra). split; [exact Dc|]. replace N with (B2R K * exp (- B2R r * B2R T) * (1 + Rabs (B2R r * B2R T)) + B2R S * exp (- B2R q * B2R T) * (1 + Rabs (B2R q * B2R T))) by (unfold N, notional, stock, strike; ring). exact Dp.
Qed.
Lemma parity_values c p : val (fst prices) = Fin c -> val (snd prices) = Fin p -> Rabs ((c - p) - (F - G)) <= 30 * bpow radix2 (-52) * N.
Proof.
  intros Hc Hp. destruct (arguments lm S K r T sigma q acc opt) as [(v1 & E1 & _) (v2 & E2 & _)]. fold d1x in E1, E2. fold d2x in E2. assert (CA : cdf_accurate lm) by apply acc. destruct opt as (HS & HK & HT & Hs & HR & HQ & RT & QT).
  assert (PN : forall x v, val x = Fin v -> near 2 (l_cdf lm x) (Phi v) 1). { intros x v E. destruct (CA _ _ E) as (w & Ew & _ & D). apply (near_intro 2 _ w); [exact Ew|rewrite w52 in D; simpl; lra|assert (PR := Phi_range v); rewrite Rabs_right; lra]. }
  assert (O1 : val (Bopp d1x) = Fin (- v1)) by (rewrite val_opp, E1; reflexivity). assert (O2 : val (Bopp d2x) = Fin (- v2)) by (rewrite val_opp, E2; reflexivity).
  assert (MB : 1 <= 1 <= bpow radix2 453) by (split; [lra|]; assert (bpow radix2 0 <= bpow radix2 453) by (apply bpow_le; lia); simpl (bpow radix2 0) in *; lra).
  assert (X1 := difference lm S K r T sigma q acc opt S q K r _ _ _ _ 2 1 ltac:(lia) HS HQ QT HK HR RT MB (PN _ _ E1) (PN _ _ E2)).
  assert (X2 := difference lm S K r T sigma q acc opt K r S q _ _ _ _ 2 1 ltac:(lia) HK HR RT HS HQ QT MB (PN _ _ O2) (PN _ _ O1)).
  destruct (near_error (13 + 2) _ _ _ ltac:(simpl; lia) X1) as (c' & Ec & Dc). destruct (near_error (13 + 2) _ _ _ ltac:(simpl; lia) X2) as (p' & Ep & Dp). replace (INR (13 + 2)) with 15 in Dc, Dp by (simpl; lra).
  assert (c' = c) by (rewrite prices_eq in Hc; cbn [fst] in Hc; unfold Fx, Gx in Hc; congruence). assert (p' = p) by (rewrite prices_eq in Hp; cbn [snd] in Hp; unfold Fx, Gx in Hp; congruence). subst c' p'.
  fold (stock (B2R S) (B2R q) (B2R T)) in Dc, Dp. fold (strike (B2R K) (B2R r) (B2R T)) in Dc, Dp. fold F in Dc, Dp. fold G in Dc, Dp. rewrite !Phi_symmetric in Dp.
  assert (EN : N = F * (1 + Rabs (B2R q * B2R T)) + G * (1 + Rabs (B2R r * B2R T))) by reflexivity. rewrite Rmult_1_r in Dc, Dp. rewrite (Rplus_comm (G * _)) in Dp. rewrite <- EN in Dc, Dp.
  replace (c - p - (F - G)) with ((c - (F * Phi v1 - G * Phi v2)) - (p - (G * (1 - Phi v2) - F * (1 - Phi v1)))) by ring. unfold Rminus at 1. eapply Rle_trans; [apply Rabs_triang|]. rewrite Rabs_Ropp. lra.
Qed.
(** the discounted amounts, as computed, are non-negative numbers *)
Lemma amount_value X y : positive64 X -> return64 y -> Rabs (B2R y * B2R T) <= 100 -> exists f, val (fmul X (l_exp lm (fmul (Bopp y) T))) = Fin f /\ 0 <= f.
Proof.
  intros HX HY YT. assert (EA : exp_accurate lm) by apply acc. destruct (pos_val X HX) as (EX & BX & PX). destruct (discounted lm S K r T sigma q acc opt X y HX HY YT) as [(f & Ef & _) _].
  destruct opt as (_ & _ & HT & _). destruct (pos_val T HT) as (ET & BT & PT). assert (Ey : val (Bopp y) = Fin (- B2R y)) by (rewrite val_opp, (val_fin y (proj1 HY)); reflexivity).
  exists f. split; [exact Ef|]. assert (EY : - B2R y * B2R T = - (B2R y * B2R T)) by ring.
  assert (EV : val (fmul (Bopp y) T) = Fin (rnd (- B2R y * B2R T))) by (rewrite (val_mul _ _ _ _ Ey ET); apply (RN_val _ 10); [rewrite EY, Rabs_Ropp; eapply Rle_trans; [exact YT|]; simpl; lra|lia]).
  assert (RB : Rabs (rnd (- B2R y * B2R T)) <= 200). { assert (ER := rnd_error (- B2R y * B2R T)). rewrite EY, Rabs_Ropp in ER. rewrite EY. assert (Rabs (rnd (- (B2R y * B2R T))) <= Rabs (rnd (- (B2R y * B2R T)) - - (B2R y * B2R T)) + Rabs (- (B2R y * B2R T))). { eapply Rle_trans; [|apply Rabs_triang]. apply Req_le. f_equal. ring. }
    rewrite Rabs_Ropp in H. assert (UE := uro_eq). assert (EU : eta <= uro) by (unfold eta, uro; apply bpow_le; lia). assert (0 <= Rabs (B2R y * B2R T)) by apply Rabs_pos. nra. }
  destruct (EA _ _ EV RB) as (v & Ev & D). assert (V0 : 0 <= v). { rewrite w52 in D. assert (UE := uro_eq). assert (XP := exp_pos (rnd (- B2R y * B2R T))). apply Rabs_le_inv in D. nra. }
  rewrite (val_mul _ _ _ _ EX Ev) in Ef. destruct (RN_inv _ _ Ef) as (-> & _). rewrite <- rnd_0. apply rnd_mono. nra.
Qed.
Lemma below X Y (f g a b : R) (x y : b64) : val X = Fin f -> val Y = Fin g -> 0 <= f -> 0 <= g -> val x = Fin a -> val y = Fin b -> 0 <= a <= 1 -> 0 <= b <= 1 ->
  Bleb (fsub (fmul X x) (fmul Y y)) X = true.
Proof.
  intros EX EY F0 G0 Ea Eb Ha Hb. destruct (val_fmt _ _ EX) as [FF FB]. destruct (val_fmt _ _ EY) as [GF GB].
  assert (M : forall Z h z e, val Z = Fin h -> 0 <= h -> val z = Fin e -> 0 <= e <= 1 -> exists w, val (fmul Z z) = Fin w /\ 0 <= w <= h).
  { intros Z h z e EZ H0 Ee He. destruct (val_fmt _ _ EZ) as [HF HB]. exists (rnd (h * e)). assert (R1 : 0 <= rnd (h * e) <= h) by (split; [rewrite <- rnd_0; apply rnd_mono; nra|rewrite <- (rnd_fmt h HF) at 2; apply rnd_mono; nra]). split; [|exact R1].
    rewrite (val_mul _ _ _ _ EZ Ee). unfold RN. rewrite Rlt_bool_true; [reflexivity|]. rewrite Rabs_right in * by lra. lra. }
  destruct (M _ _ _ _ EX F0 Ea Ha) as (u & Eu & U). destruct (M _ _ _ _ EY G0 Eb Hb) as (w & Ew & W). rewrite val_leb, (val_sub _ _ _ _ Eu Ew), EX. apply RN_le; [exact FF|exact FB|lra].
Qed.
Lemma upper_values : Bleb (fst prices) Fx = true /\ Bleb (snd prices) Gx = true.
Proof.
  destruct (arguments lm S K r T sigma q acc opt) as [(v1 & E1 & _) (v2 & E2 & _)]. fold d1x in E1, E2. fold d2x in E2. assert (CA : cdf_accurate lm) by apply acc. assert (HO := opt). destruct HO as (HS & HK & HT & Hs & HR & HQ & RT & QT).
  assert (O1 : val (Bopp d1x) = Fin (- v1)) by (rewrite val_opp, E1; reflexivity). assert (O2 : val (Bopp d2x) = Fin (- v2)) by (rewrite val_opp, E2; reflexivity).
  destruct (amount_value S q HS HQ QT) as (f & Ef & F0). destruct (amount_value K r HK HR RT) as (g & Eg & G0). fold Fx in Ef. fold Gx in Eg.
  destruct (CA _ _ E1) as (a1 & Ea1 & H1 & _), (CA _ _ E2) as (a2 & Ea2 & H2 & _), (CA _ _ O1) as (a3 & Ea3 & H3 & _), (CA _ _ O2) as (a4 & Ea4 & H4 & _).
  rewrite prices_eq. cbn [fst snd]. split; [apply (below Fx Gx f g a1 a2)|apply (below Gx Fx g f a4 a3)]; assumption.
Qed.
End Statements.

(** *** C129: how far the computed prices are from the exact ones *)
Theorem C129_accuracy : forall lm S K r T sigma q, accurate_libm lm -> option64 S K r T sigma q ->
  exists c p c0 p0, val (fst (blsprice (B64 lm) S K r T sigma q)) = Fin c /\ val (snd (blsprice (B64 lm) S K r T sigma q)) = Fin p /\
    blsprice XRA (Fin (B2R S)) (Fin (B2R K)) (Fin (B2R r)) (Fin (B2R T)) (Fin (B2R sigma)) (Fin (B2R q)) = (Fin c0, Fin p0) /\
    let bound := 28 * bpow radix2 (-52) * (notional (B2R S) (B2R K) (B2R r) (B2R T) (B2R q) * (1 + sensitivity (B2R S) (B2R K) (B2R r) (B2R T) (B2R sigma) (B2R q))) in
    Rabs (c - c0) <= bound /\ Rabs (p - p0) <= bound.
Proof.
  intros lm S K r T sigma q acc opt. destruct (price_values lm S K r T sigma q acc opt) as (c & p & Ec & Ep & Dc & Dp). do 4 eexists. split; [exact Ec|]. split; [exact Ep|]. split; [apply exact_prices; exact opt|]. split; [exact Dc|exact Dp].
Qed.
(** *** C129: put-call parity holds up to rounding errors that do not depend on the volatility or on how far the option is in the money *)
Theorem C129_parity : forall lm S K r T sigma q, accurate_libm lm -> option64 S K r T sigma q ->
  exists c p, val (fst (blsprice (B64 lm) S K r T sigma q)) = Fin c /\ val (snd (blsprice (B64 lm) S K r T sigma q)) = Fin p /\
    Rabs ((c - p) - (B2R S * exp (- B2R q * B2R T) - B2R K * exp (- B2R r * B2R T))) <= 30 * bpow radix2 (-52) * notional (B2R S) (B2R K) (B2R r) (B2R T) (B2R q).
Proof.
  intros lm S K r T sigma q acc opt. destruct (price_values lm S K r T sigma q acc opt) as (c & p & Ec & Ep & _). exists c, p. split; [exact Ec|]. split; [exact Ep|]. apply (parity_values lm S K r T sigma q acc opt c p Ec Ep).
Qed.
(** *** C129: no-arbitrage bounds.  The upper bounds hold exactly for the discounted amounts as computed; the lower bound holds up to the error above. *)
Theorem C129_bounds : forall lm S K r T sigma q, accurate_libm lm -> option64 S K r T sigma q ->
  Bleb (fst (blsprice (B64 lm) S K r T sigma q)) (fmul S (l_exp lm (fmul (Bopp q) T))) = true /\
  Bleb (snd (blsprice (B64 lm) S K r T sigma q)) (fmul K (l_exp lm (fmul (Bopp r) T))) = true /\
  exists c p, val (fst (blsprice (B64 lm) S K r T sigma q)) = Fin c /\ val (snd (blsprice (B64 lm) S K r T sigma q)) = Fin p /\
    let bound := 28 * bpow radix2 (-52) * (notional (B2R S) (B2R K) (B2R r) (B2R T) (B2R q) * (1 + sensitivity (B2R S) (B2R K) (B2R r) (B2R T) (B2R sigma) (B2R q))) in
    - bound <= c /\ - bound <= p.
Proof.
  intros lm S K r T sigma q acc opt. destruct (upper_values lm S K r T sigma q acc opt) as [U1 U2]. split; [exact U1|]. split; [exact U2|].
  destruct (C129_accuracy lm S K r T sigma q acc opt) as (c & p & c0 & p0 & Ec & Ep & E0 & Dc & Dp). exists c, p. split; [exact Ec|]. split; [exact Ep|].
  destruct opt as (HS & HK & HT & Hs & _). destruct (pos_val S HS) as (_ & _ & PS), (pos_val K HK) as (_ & _ & PK), (pos_val T HT) as (_ & _ & PT), (pos_val sigma Hs) as (_ & _ & Ps).
  destruct (C38_no_arbitrage_bounds (B2R S) (B2R K) (B2R r) (B2R T) (B2R sigma) (B2R q)) as (c1 & p1 & E1 & H1 & H2); [unfold valid; auto|]. rewrite E0 in E1. apply pair_equal_spec in E1 as [Q1 Q2]. injection Q1 as <-. injection Q2 as <-.
  assert (M1 := Rmax_r (B2R S * exp (- B2R q * B2R T) - B2R K * exp (- B2R r * B2R T)) 0). assert (M2 := Rmax_r (B2R K * exp (- B2R r * B2R T) - B2R S * exp (- B2R q * B2R T)) 0). apply Rabs_le_inv in Dc, Dp. lra.
Qed.

(** ** The contract can be met: correctly rounded library functions *)
Lemma ln_apart x : fmt x -> 0 < x -> ln x = 0 \/ bpow radix2 (-1000) <= Rabs (ln x).
Proof.
  intros F P. assert (L2 := ln_lt_2). assert (PB := bpow_gt_0 radix2 (-152)). destruct (Rle_or_lt (bpow radix2 (-100)) x) as [H | H].
  - destruct (on_grid x F H) as (m & Em). assert (E1 : 1 = IZR (2 ^ 152) * bpow radix2 (-152)) by (replace (IZR (2 ^ 152)) with (bpow radix2 152) by (symmetry; exact (IZR_Zpower radix2 152 ltac:(lia))); rewrite <- bpow_plus; reflexivity).
    destruct (Z.eq_dec m (2 ^ 152)) as [-> | NZ]; [left; rewrite Em, <- E1; apply ln_1|right].
    assert (DX : bpow radix2 (-152) <= Rabs (x - 1)).
    { replace (x - 1) with (IZR (m - 2 ^ 152) * bpow radix2 (-152)) by (rewrite minus_IZR, Rmult_minus_distr_r, <- E1, <- Em; reflexivity). rewrite Rabs_mult, (Rabs_right (bpow _ _)) by lra. assert (1 <= Rabs (IZR (m - 2 ^ 152))) by (rewrite <- abs_IZR; apply IZR_le; lia). nra. }
    assert (B : bpow radix2 (-1000) <= bpow radix2 (-154)) by (apply bpow_le; lia). assert (D1 := bpow_double (-154)). assert (D2 := bpow_double (-153)). change (-154 + 1)%Z with (-153)%Z in D1. change (-153 + 1)%Z with (-152)%Z in D2. assert (P4 := bpow_gt_0 radix2 (-154)).
    assert (SM : bpow radix2 (-154) <= 1 / 2) by (apply (Rle_trans _ (bpow radix2 (-1))); [apply bpow_le; lia|simpl; lra]).
    destruct (Rle_or_lt x 1) as [X1 | X1].
    + rewrite Rabs_left1 in DX by lra. assert (U : ln x <= x - 1) by (rewrite <- (ln_exp (x - 1)); apply ln_le; [exact P|]; assert (E := exp_ineq1_le (x - 1)); lra). rewrite Rabs_left1 by lra. lra.
    + rewrite Rabs_right in DX by lra. assert (U : 1 - / x <= ln x). { assert (I : - ln x <= / x - 1). { rewrite <- ln_Rinv by lra. rewrite <- (ln_exp (/ x - 1)). apply ln_le; [apply Rinv_0_lt_compat; lra|]. assert (E := exp_ineq1_le (/ x - 1)). lra. } lra. }
      destruct (Rle_or_lt x 2) as [X2 | X2].
      * assert (1 - / x = (x - 1) / x) by (field; lra). assert ((x - 1) / 2 <= (x - 1) / x) by (apply Rmult_le_compat_l; [lra|]; apply Rinv_le_contravar; lra). rewrite Rabs_right by lra. lra.
      * assert (ln 2 <= ln x) by (apply ln_le; lra). rewrite Rabs_right by lra. lra.
  - right. assert (X : ln x <= ln (bpow radix2 (-100))) by (apply ln_le; lra). rewrite ln_bpow in X. rewrite Rabs_left1 by lra. apply (Rle_trans _ (bpow radix2 0)); [apply bpow_le; lia|simpl; lra].
Qed.
Lemma squaring_accurate : accurate_libm squaring_libm.
Proof.
  assert (UE := uro_eq). split; [intros x; reflexivity|]. split; [|split].
  - intros x r E P. cbn [l_log squaring_libm perfect_libm]. rewrite val_of_xr, E, xlog_fin by exact P. cbn [xrn]. destruct (val_fmt _ _ E) as [F _]. assert (G := pos_range x r E P). assert (L := ln2_bounds).
    assert (B : Rabs (ln r) <= bpow radix2 11).
    { apply Rabs_le. assert (PB := bpow_gt_0 radix2 (-1074)). assert (ln (bpow radix2 (-1074)) <= ln r) by (apply ln_le; lra). assert (ln r <= ln (bpow radix2 1024)) by (apply ln_le; lra). rewrite ln_bpow in *. simpl (bpow radix2 11). lra. }
    exists (rnd (ln r)). split; [apply (RN_val _ 11); [exact B|lia]|]. rewrite w52. apply rnd_rel. apply ln_apart; assumption.
  - intros x r E H. cbn [l_exp squaring_libm perfect_libm]. rewrite val_of_xr, E. cbn [xexp xrn].
    assert (B : bpow radix2 (-400) <= exp r <= bpow radix2 400). { apply Rabs_le_inv in H. assert (L := ln_lt_2). rewrite !bpow_exp. split; apply exp_le_mono; lra. } assert (P := exp_pos r).
    exists (rnd (exp r)). split; [apply (RN_val _ 400); [rewrite Rabs_right; lra|lia]|]. rewrite w52. assert (R1 := rnd_rel (exp r)). rewrite (Rabs_right (exp r)) in R1 by lra. apply R1. right. apply (Rle_trans _ (bpow radix2 (-400))); [apply bpow_le; lia|lra].
  - intros x r E. cbn [l_cdf squaring_libm perfect_libm]. rewrite val_of_xr, E. cbn [xncdf xrn]. assert (P := Phi_range r). exists (rnd (Phi r)).
    assert (F1 : fmt 1) by (apply (fmt_Z 1); simpl; lia). assert (B : 0 <= rnd (Phi r) <= 1) by (split; [rewrite <- rnd_0|rewrite <- (rnd_fmt 1 F1)]; apply rnd_mono; lra).
    split; [apply (RN_val _ 1); [rewrite Rabs_right; simpl; lra|lia]|]. split; [exact B|]. assert (R1 := rnd_error (Phi r)). rewrite (Rabs_right (Phi r)) in R1 by lra. assert (EU : eta <= uro) by (unfold eta, uro; apply bpow_le; lia). rewrite w52. assert (U := uro_pos). nra.
Qed.

(** ** What does not hold: a positive price can be computed as zero *)
Definition tiny_vol : b64 := @B754_finite 53 1024 false 4503599627370496 (-72) eq_refl.
Lemma small_cdf x r : val x = Fin r -> r <= -100 -> val (l_cdf squaring_libm x) = Fin 0.
Proof.
  intros E H. cbn [l_cdf squaring_libm perfect_libm]. rewrite val_of_xr, E. cbn [xncdf xrn]. assert (P := Phi_range r).
  assert (T : Phi r <= bpow radix2 (-1080)).
  { apply (Rle_trans _ (Phi (Ropp 100))); [apply Phi_nondecreasing; lra|]. eapply Rle_trans; [exact (Phi_tail 100 ltac:(lra))|]. rewrite bpow_exp. assert (L := ln2_bounds). apply (Rle_trans _ (exp (- 100 ^ 2 / 2))); [assert (X := exp_pos (- 100 ^ 2 / 2)); lra|]. apply exp_le_mono. lra. }
  assert (EV : RN (Phi r) = Fin (rnd (Phi r))) by (apply (RN_val _ 1); [rewrite Rabs_right; simpl; lra|lia]). rewrite EV. f_equal.
  assert (R0 : 0 <= rnd (Phi r)) by (rewrite <- rnd_0; apply rnd_mono; lra). destruct (Req_dec (rnd (Phi r)) 0) as [Z | NZ]; [exact Z|exfalso].
  assert (EX : val (l_cdf squaring_libm x) = Fin (rnd (Phi r))) by (cbn [l_cdf squaring_libm perfect_libm]; rewrite val_of_xr, E; exact EV). assert (G := pos_range _ _ EX ltac:(lra)).
  assert (ER := rnd_error (Phi r)). rewrite (Rabs_right (Phi r)) in ER by lra. apply Rabs_le_inv in ER. unfold eta in ER. assert (UE := uro_eq). assert (D := bpow_double (-1075)). change (-1075 + 1)%Z with (-1074)%Z in D. assert (P5 := bpow_gt_0 radix2 (-1075)).
  assert (B : bpow radix2 (-1080) <= bpow radix2 (-1077)) by (apply bpow_le; lia). assert (D1 := bpow_double (-1077)). assert (D2 := bpow_double (-1076)). change (-1077 + 1)%Z with (-1076)%Z in D1. change (-1076 + 1)%Z with (-1075)%Z in D2. nra.
Qed.
Lemma pos64_Z z : (1 <= z <= 7)%Z -> positive64 (fofZ z) /\ B2R (fofZ z) = IZR z.
Proof.
  intros Hz. assert (E := val_ofZ_small z ltac:(simpl; lia)). destruct (val_finite_inv _ _ E) as [F EB]. split; [|exact EB]. split; [exact F|]. rewrite EB. split.
  - apply (Rle_trans _ (bpow radix2 0)); [apply bpow_le; lia|]. simpl. apply (IZR_le 1). lia.
  - apply (Rle_trans _ (bpow radix2 3)); [simpl; apply IZR_le; lia|apply bpow_le; lia].
Qed.
Lemma tiny_val : B2R tiny_vol = / 1048576. Proof. unfold tiny_vol, B2R, F2R. simpl. lra. Qed.
Lemma tiny_option : option64 (fofZ 1) (fofZ 2) (fofZ 0) (fofZ 1) tiny_vol (fofZ 0).
Proof.
  destruct (pos64_Z 1 ltac:(lia)) as [P1 _], (pos64_Z 2 ltac:(lia)) as [P2 _]. assert (E := val_ofZ_small 0 ltac:(simpl; lia)). destruct (val_finite_inv _ _ E) as [F0 E0].
  assert (R0 : return64 (fofZ 0)) by (split; [exact F0|left; exact E0]). split; [exact P1|]. split; [exact P2|]. split; [exact P1|]. split; [|split; [exact R0|split; [exact R0|rewrite E0, Rmult_0_l, Rabs_R0; lra]]].
  split; [reflexivity|]. rewrite tiny_val. split; [apply (Rle_trans _ (bpow radix2 (-20))); [apply bpow_le; lia|simpl; lra]|apply (Rle_trans _ (bpow radix2 0)); [simpl; lra|apply bpow_le; lia]].
Qed.
Theorem C129_positive_refuted : exists lm S K r T sigma q c0 p0, accurate_libm lm /\ option64 S K r T sigma q /\
  blsprice XRA (Fin (B2R S)) (Fin (B2R K)) (Fin (B2R r)) (Fin (B2R T)) (Fin (B2R sigma)) (Fin (B2R q)) = (Fin c0, Fin p0) /\ 0 < c0 /\
  val (fst (blsprice (B64 lm) S K r T sigma q)) = Fin 0.
Proof.
  exists squaring_libm, (fofZ 1), (fofZ 2), (fofZ 0), (fofZ 1), tiny_vol, (fofZ 0). assert (opt := tiny_option). assert (acc := squaring_accurate).
  destruct (pos64_Z 1 ltac:(lia)) as [P1 V1], (pos64_Z 2 ltac:(lia)) as [P2 V2]. assert (E := val_ofZ_small 0 ltac:(simpl; lia)). destruct (val_finite_inv _ _ E) as [F0 E0]. assert (VT := tiny_val).
  destruct (C38_no_arbitrage_bounds (B2R (fofZ 1)) (B2R (fofZ 2)) (B2R (fofZ 0)) (B2R (fofZ 1)) (B2R tiny_vol) (B2R (fofZ 0))) as (c1 & p1 & E1 & H1 & _); [unfold valid; rewrite V1, V2, VT; lra|].
  exists c1, p1. split; [exact acc|]. split; [exact opt|]. split; [exact E1|]. split; [assert (M := Rmax_r (B2R (fofZ 1) * exp (- B2R (fofZ 0) * B2R (fofZ 1)) - B2R (fofZ 2) * exp (- B2R (fofZ 0) * B2R (fofZ 1))) 0); lra|].
  destruct (arguments squaring_libm (fofZ 1) (fofZ 2) (fofZ 0) (fofZ 1) tiny_vol (fofZ 0) acc opt) as [(v1 & Ev1 & D1 & _) (v2 & Ev2 & D2 & _)].
  assert (L2 := ln_lt_2). assert (L3 := ln2_bounds). assert (LH : ln (1 / 2) = - ln 2) by (rewrite <- ln_Rinv by lra; f_equal; lra).
  assert (U := up_linear 13 ltac:(simpl; lia)). rewrite uro_eq in U. replace (INR 13) with 13 in U by (simpl; lra). assert (U1 := up_ge1 13).
  unfold sensitivity in D1, D2. rewrite V1, V2, E0, VT, sqrt_1, LH, Rabs_R0, Rabs_Ropp, (Rabs_right (ln 2)) in D1, D2 by lra.
  set (sz := (1 + ln 2 + (0 + 0 + / 1048576 * / 1048576 / 2) * 1) / (/ 1048576 * 1) + / 1048576 * 1) in *.
  assert (SZ : 0 <= sz <= 4194304) by (unfold sz; replace (/ 1048576 * 1) with (/ 1048576) by ring; unfold Rdiv; rewrite Rinv_inv; split; lra).
  assert (W : (up 13 - 1) * sz <= 1) by nra.
  set (e1 := (- ln 2 + (0 - 0 + / 1048576 * / 1048576 / 2) * 1) / (/ 1048576 * 1)) in *. assert (X1 : e1 <= -1000) by (unfold e1; replace (/ 1048576 * 1) with (/ 1048576) by ring; unfold Rdiv; rewrite Rinv_inv; lra).
  apply Rabs_le_inv in D1. apply Rabs_le_inv in D2. assert (C1 := small_cdf _ _ Ev1 ltac:(lra)). assert (C2 := small_cdf _ _ Ev2 ltac:(lra)).
  destruct (amount_value squaring_libm (fofZ 1) (fofZ 2) (fofZ 0) (fofZ 1) tiny_vol (fofZ 0) acc opt (fofZ 1) (fofZ 0) P1) as (f & Ef & _); [apply opt|rewrite E0, Rmult_0_l, Rabs_R0; lra|].
  destruct (amount_value squaring_libm (fofZ 1) (fofZ 2) (fofZ 0) (fofZ 1) tiny_vol (fofZ 0) acc opt (fofZ 2) (fofZ 0) P2) as (g & Eg & _); [apply opt|rewrite E0, Rmult_0_l, Rabs_R0; lra|].
  rewrite prices_eq. cbn [fst]. assert (M1 := val_mul _ _ _ _ Ef C1). assert (M2 := val_mul _ _ _ _ Eg C2). rewrite Rmult_0_r, RN_0 in M1, M2. refine (eq_trans (val_sub _ _ _ _ M1 M2) _). rewrite Rminus_0_r. apply RN_0.
Qed.
Example C129_case : accurate_libm squaring_libm /\ option64 (fofZ 1) (fofZ 2) (fofZ 0) (fofZ 1) tiny_vol (fofZ 0).
Proof. split; [apply squaring_accurate|apply tiny_option]. Qed.
