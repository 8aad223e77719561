(** * Properties C144 and C145: rounding errors in the CCC and DCC log-likelihoods *)
From Coq Require Import Reals ZArith List Bool Arith Lia Lra Psatz.
From Flocq Require Import Core BinarySingleNaN.
From Verif Require Import Arith XR RealAux Float64 Float64b Float64c Float64d Float64e Model_garch Spec_garch Proofs_garch2 Props_garch2 Model_mgarch Props_mgarch Props_float4 Props_float5 Props_accuracy Props_accuracy2 Props_averages Props_option64 Props_loglik64 Props_dcc64.
Import ListNotations.
Local Open Scope R_scope.

(** ** Specification *)
(** a correlation: a double, zero or at least 2^-100 in absolute value, whose determinant 1 - rho^2 is at least 1/n *)
Definition correlation64 (n : nat) (rho : b64) : Prop :=
  is_finite rho = true /\ (B2R rho = 0 \/ bpow radix2 (-100) <= Rabs (B2R rho)) /\ (Z.of_nat n <= 2 ^ 40)%Z /\ 1 <= INR n * (1 - B2R rho ^ 2).
(** what a pair of observations contributes to the log-likelihood, all parts taken with a positive sign (and one unit for each logarithm) *)
Definition quad_size (rho x v y w : R) : R := (x ^ 2 / v + y ^ 2 / w + 2 * Rabs (rho * x * y) / sqrt (v * w)) / (1 - rho ^ 2).
Definition pair_size (rho x v y w : R) : R :=
  (2 * (1 + Rabs (ln (2 * PI))) + (1 + Rabs (ln (v * w * (1 - rho ^ 2)))) + quad_size rho x v y w) / 2.

(** ** Proofs *)
Lemma scl_weaken j k x r : (j <= k)%nat -> scl j x r -> scl k x r.
Proof. intros H (v & E & [(V & R0 & HR) | (V & R0 & HR)]); exists v; (split; [exact E|]); [left|right]; (split; [exact V|split; [exact R0|]]); apply (rel_weaken j k); auto; lra. Qed.
Lemma scl_exact x r : val x = Fin r -> scl 0 x r.
Proof. intros E. exists r. split; [exact E|]. destruct (Rle_lt_dec 0 r) as [H | H]; [left|right]; (split; [lra|split; [lra|]]); unfold rel, up; simpl; lra. Qed.
(** the determinant 1 - t^2 when rho is t up to one rounding *)
Lemma det_close c n x t : (c <= 1)%nat -> scl c x t -> (t = 0 \/ bpow radix2 (-100) <= Rabs t) -> 1 <= INR n * (1 - t * t) -> (Z.of_nat n <= 2 ^ 40)%Z ->
  close (4 * (c + c + 1) * n + 1) (fsub (fofZ 1) (fmul x x)) (1 - t * t).
Proof.
  intros Hc HX HT HN HZ. assert (U := uro_pos). assert (UE := uro_eq). assert (N0 := pos_INR n).
  assert (NU : INR n * uro <= / 64).
  { rewrite INR_IZR_INZ, UE. apply IZR_le in HZ. change (IZR (2 ^ 40)) with 1099511627776 in HZ. lra. }
  assert (T0 : 0 <= t * t) by nra. assert (T1 : t * t < 1) by nra.
  assert (C2 : close (S (c + c)) (fmul x x) (t * t)).
  { apply scl_square; [lia|exact HX| |].
    - destruct HT as [-> | HT]; [left; ring|right]. replace (t * t) with (Rabs t * Rabs t) by (rewrite <- Rabs_mult; apply Rabs_pos_eq; exact T0). apply (Rle_trans _ (bpow radix2 (-100) * bpow radix2 (-100))); [rewrite <- bpow_plus; apply bpow_le; lia|]. assert (P := bpow_gt_0 radix2 (-100)). apply Rmult_le_compat; lra.
    - apply (Rle_trans _ (bpow radix2 0)); [simpl; lra|apply bpow_le; lia]. }
  destruct C2 as (v & EV & V0 & V1 & V2). assert (GU := up_ge1 (S (c + c))). remember (S (c + c)) as m eqn:EM. assert (M3 : (1 <= m <= 3)%nat) by lia.
  assert (UB : up m <= 1 + 2 * INR m * uro).
  { unfold up. assert (m = 1 \/ m = 2 \/ m = 3)%nat as [-> | [-> | ->]] by lia; simpl; nra. }
  set (d := 2 * INR m * uro) in *. assert (MI : 1 <= INR m <= 3) by (destruct M3 as [M1 M3]; apply le_INR in M1, M3; replace (INR 1) with 1 in M1 by (simpl; lra); replace (INR 3) with 3 in M3 by (simpl; lra); lra).
  assert (D0 : 0 < d) by (unfold d; nra). 
  remember (1 - t * t) as W eqn:EQW. assert (W0 : 0 < W) by nra.
  assert (DW : d <= INR n * d * W) by nra. assert (ND : INR n * d <= / 10) by (unfold d; nra).
  assert (NDW : INR n * d * W <= / 10 * W) by (apply Rmult_le_compat_r; lra).
  assert (L1 : v <= t * t + d) by nra. assert (L2 : t * t - d <= v) by nra.
  destruct (close_sub (fofZ 1) (fmul x x) 1 v (val_ofZ_small 1 ltac:(lia)) EV) as (w & EW & W1 & HW); [lra|apply (Rle_trans _ (bpow radix2 0)); [simpl; lra|apply bpow_le; lia]|].
  exists w. split; [exact EW|]. split; [exact W1|]. set (K := (4 * (c + c + 1) * n)%nat) in *. apply (rel_trans 1 K _ (1 - v)); [exact W1|lra|exact HW|].
  assert (UP := up_lower K). assert (EK : INR K * uro = 2 * (INR n * d)) by (unfold K, d; rewrite EM; rewrite !mult_INR; rewrite !S_INR, !plus_INR; simpl; ring). rewrite EK in UP.
  set (k := INR n * d) in *. assert (K0 : 0 <= k) by (apply Rmult_le_pos; lra). split.
  - apply (Rle_trans _ ((1 - v) * (1 + 2 * k))); [|apply Rmult_le_compat_l; lra]. assert (W * (1 - k) <= 1 - v) by lra.
    apply (Rle_trans _ (W * (1 - k) * (1 + 2 * k))); [|apply Rmult_le_compat_r; lra]. assert (0 <= W * (k - 2 * (k * k))) by (apply Rmult_le_pos; nra). nra.
  - apply (Rle_trans _ (W * (1 + 2 * k))); [|apply Rmult_le_compat_l; lra]. nra.
Qed.

(** the quadratic form of two standardised residuals *)
Definition quad64 (lm : libm) (rho x y : b64) : b64 := fsub (fadd (l_sq lm x) (l_sq lm y)) (fmul (fmul (fmul (fofZ 2) rho) x) y).
Lemma scl_square_near lm x r : square_is_product lm -> scl 2 x r -> span 150 (Rabs r) -> near 5 (l_sq lm x) (r * r) (r * r) /\ span 300 (r * r).
Proof.
  intros HS HX SX. assert (SR : span 300 (r * r)). { replace (r * r) with (Rabs r * Rabs r) by (rewrite <- Rabs_mult, Rabs_pos_eq; [reflexivity|apply Rle_0_sqr]). apply (span_mul 150 150); assumption. }
  split; [|exact SR]. rewrite HS. apply close_near, (scl_square 2); [simpl; lia|exact HX|apply (span_up 300); [lia|exact SR]|apply (bpow1000 300); [lia|exact SR]].
Qed.
Lemma span_tiny e r : (e <= 1000)%Z -> span e r -> not_tiny r.
Proof. intros H S. apply (span_up e); [lia|exact S]. Qed.
Lemma quad_near lm rho x y t r s : square_is_product lm -> scl 1 rho t -> span 100 (Rabs t) -> scl 2 x r -> span 150 (Rabs r) -> scl 2 y s -> span 150 (Rabs s) ->
  near 12 (quad64 lm rho x y) (r * r + s * s - 2 * t * r * s) (r * r + s * s + 2 * Rabs t * Rabs r * Rabs s) /\ span 500 (r * r + s * s + 2 * Rabs t * Rabs r * Rabs s).
Proof.
  intros HS HT ST HX SX HY SY. destruct (scl_square_near lm x r HS HX SX) as [NX QX]. destruct (scl_square_near lm y s HS HY SY) as [NY QY].
  assert (S1 := span_add _ _ _ QX QY). change (300 + 1)%Z with 301%Z in S1. assert (B1 := bpow1000 301 _ ltac:(lia) S1).
  assert (S2 : span 101 (2 * Rabs t)). { change 101%Z with (1 + 100)%Z. apply span_mul; [right; simpl; lra|exact ST]. }
  assert (S3 := span_mul _ _ _ _ S2 SX). assert (S4 := span_mul _ _ _ _ S3 SY). cbn [Z.add Pos.add Pos.succ] in S3, S4. change (101 + 150 + 150)%Z with 401%Z in S4. change (101 + 150)%Z with 251%Z in S3.
  assert (S5 : span 402 (r * r + s * s + 2 * Rabs t * Rabs r * Rabs s)) by (apply (span_add 401); [apply (span_weaken 301); [lia|exact S1]|exact S4]).
  split; [|apply (span_weaken 402); [lia|exact S5]].
  assert (N2 : near 0 (fofZ 2) 2 2) by (apply near_exact; [apply val_ofZ_small; simpl; lia|rewrite Rabs_pos_eq; lra]).
  assert (N3 := near_mul 0 1 _ _ _ _ _ _ ltac:(simpl; lia) N2 (scl_near _ _ _ HT) (bpow1000 101 _ ltac:(lia) S2) (span_tiny 101 _ ltac:(lia) S2)).
  assert (N4 := near_mul 3 2 _ _ _ _ _ _ ltac:(simpl; lia) N3 (scl_near _ _ _ HX) (bpow1000 251 _ ltac:(lia) S3) (span_tiny 251 _ ltac:(lia) S3)).
  assert (N5 := near_mul 7 2 _ _ _ _ _ _ ltac:(simpl; lia) N4 (scl_near _ _ _ HY) (bpow1000 401 _ ltac:(lia) S4) (span_tiny 401 _ ltac:(lia) S4)).
  assert (N6 := near_add 5 5 5 _ _ _ _ _ _ ltac:(lia) ltac:(lia) ltac:(simpl; lia) NX NY B1).
  exact (near_sub 6 11 11 _ _ _ _ _ _ ltac:(lia) ltac:(lia) ltac:(simpl; lia) N6 N5 (bpow1000 402 _ ltac:(lia) S5)).
Qed.
Lemma quad_over_near lm m rho x y t r s d D : square_is_product lm -> scl 1 rho t -> span 100 (Rabs t) -> scl 2 x r -> span 150 (Rabs r) -> scl 2 y s -> span 150 (Rabs s) ->
  close m d D -> within (-50) 0 D -> (Z.of_nat m + 14 <= 2 ^ 52)%Z ->
  near (m + 14) (fdiv (quad64 lm rho x y) d) ((r * r + s * s - 2 * t * r * s) / D) ((r * r + s * s + 2 * Rabs t * Rabs r * Rabs s) / D) /\ span 550 ((r * r + s * s + 2 * Rabs t * Rabs r * Rabs s) / D).
Proof.
  intros HS HT ST HX SX HY SY CD [D1 D2] Hm. destruct (quad_near lm rho x y t r s HS HT ST HX SX HY SY) as [NQ SQ]. assert (P := bpow_gt_0 radix2 (-50)).
  assert (SD : span 50 D) by (right; split; [exact D1|apply (Rle_trans _ _ _ D2), bpow_le; lia]). assert (D0 : 0 < D) by lra. assert (S := span_div 500 50 _ _ D0 SQ SD). change (500 + 50)%Z with 550%Z in S.
  split; [|exact S]. replace (m + 14)%nat with (Datatypes.S (Datatypes.S (12 + m))) by lia. apply near_div; [lia|exact NQ|exact CD|exact D0|apply (bpow1000 550); [lia|exact S]|apply (span_tiny 550); [lia|exact S]].
Qed.
Lemma det_within n t : 1 <= INR n * (1 - t * t) -> (Z.of_nat n <= 2 ^ 40)%Z -> within (-50) 0 (1 - t * t).
Proof.
  intros HN HZ. assert (T0 : 0 <= t * t) by nra. split; [|simpl; lra]. assert (N : INR n <= 1099511627776) by (rewrite INR_IZR_INZ; apply IZR_le; exact HZ). assert (N0 := pos_INR n).
  apply (Rle_trans _ (/ 1099511627776)); [simpl; lra|]. assert (0 < 1 - t * t) by nra. assert (INR n * (1 - t * t) <= 1099511627776 * (1 - t * t)) by (apply Rmult_le_compat_r; lra). lra.
Qed.
Lemma quad_size_eq t x v y w : 0 < v -> 0 < w ->
  (x / sqrt v * (x / sqrt v) + y / sqrt w * (y / sqrt w) + 2 * Rabs t * Rabs (x / sqrt v) * Rabs (y / sqrt w)) / (1 - t * t) = quad_size t x v y w.
Proof.
  intros Hv Hw. assert (Qv : 0 < sqrt v) by (apply sqrt_lt_R0; exact Hv). assert (Qw : 0 < sqrt w) by (apply sqrt_lt_R0; exact Hw). unfold quad_size. replace (1 - t ^ 2) with (1 - t * t) by ring. f_equal.
  rewrite sqrt_mult by lra. rewrite !Rabs_mult. unfold Rdiv. rewrite !Rabs_mult, (Rabs_pos_eq (/ sqrt v)), (Rabs_pos_eq (/ sqrt w)) by (apply Rlt_le, Rinv_0_lt_compat; assumption).
  assert (Ev : x ^ 2 * / v = x * / sqrt v * (x * / sqrt v)) by (rewrite <- (sqrt_sqrt v) at 1 by lra; field; lra).
  assert (Ew : y ^ 2 * / w = y * / sqrt w * (y * / sqrt w)) by (rewrite <- (sqrt_sqrt w) at 1 by lra; field; lra). rewrite Ev, Ew. field. lra.
Qed.
Lemma close_pos_ln e x : 0 < x -> span e x -> (0 <= e <= 1000)%Z -> 0 <= Rabs (ln x) <= 1000.
Proof. intros H S He. assert (L := ln_span e x ltac:(lia) H S). split; [apply Rabs_pos|]. apply (Rle_trans _ _ _ L), IZR_le. lia. Qed.
Lemma ccc_term_near lm n rho r1 s1 r2 s2 : square_is_product lm -> log_accurate lm -> pi_accurate lm -> correlation64 n rho -> resid64 r1 -> positive64 s1 -> resid64 r2 -> positive64 s2 ->
  near (4 * n + 18) (ccc_term (B64 lm) rho r1 s1 r2 s2) (ln (bivariate_density (B2R s1) (B2R s2) (B2R rho) (B2R r1) (B2R r2))) (pair_size (B2R rho) (B2R r1) (B2R s1) (B2R r2) (B2R s2)) /\
  1 <= pair_size (B2R rho) (B2R r1) (B2R s1) (B2R r2) (B2R s2) <= bpow radix2 800.
Proof.
  intros HS HA HP (FR & TR & HZ & HN) R1 P1 R2 P2. replace (B2R rho ^ 2) with (B2R rho * B2R rho) in HN by ring. assert (ER := val_fin rho FR).
  assert (ST : span 100 (Rabs (B2R rho))).
  { destruct TR as [-> | TR]; [left; apply Rabs_R0|right; split; [exact TR|]]. assert (N0 := pos_INR n). assert (B2R rho * B2R rho < 1) by nra. apply (Rle_trans _ (bpow radix2 0)); [|apply bpow_le; lia]. simpl. apply Rabs_le. nra. }
  assert (CD := det_close 0 n rho (B2R rho) ltac:(lia) (scl_exact _ _ ER) TR HN HZ). change (4 * (0 + 0 + 1) * n + 1)%nat with (4 * n + 1)%nat in CD. assert (WD := det_within n (B2R rho) HN HZ).
  assert (SR1 := scl_weaken 0 1 _ _ ltac:(lia) (scl_exact _ _ ER)). set (t := B2R rho) in *.
  destruct (zscore_scl r1 s1 R1 P1) as [Z1 SZ1]. destruct (zscore_scl r2 s2 R2 P2) as [Z2 SZ2].
  assert (Q1 : 0 < B2R s1) by (destruct P1 as [_ P1]; assert (P := bpow_gt_0 radix2 (-100)); lra). assert (Q2 : 0 < B2R s2) by (destruct P2 as [_ P2]; assert (P := bpow_gt_0 radix2 (-100)); lra).
  destruct (quad_over_near lm (4 * n + 1) rho _ _ t _ _ (fsub (fofZ 1) (fmul rho rho)) (1 - t * t) HS SR1 ST Z1 SZ1 Z2 SZ2 CD WD ltac:(lia)) as [NQ SQ]. rewrite quad_size_eq in NQ, SQ by assumption.
  assert (D0 : 0 < 1 - t * t) by (destruct WD as [WD _]; assert (P := bpow_gt_0 radix2 (-50)); lra). assert (SD : span 50 (1 - t * t)) by (right; split; [apply WD|eapply Rle_trans; [apply WD|apply bpow_le; lia]]).
  assert (S1 : sized 100 0 s1 (B2R s1)) by (apply sized_exact; [apply val_fin, P1|right; apply P1]). assert (S2 : sized 100 0 s2 (B2R s2)) by (apply sized_exact; [apply val_fin, P2|right; apply P2]).
  assert (S12 := sized_mul 100 100 0 0 _ _ _ _ ltac:(lia) ltac:(simpl; lia) S1 S2). change (100 + 100)%Z with 200%Z in S12. 
  assert (Sd := sized_mul 200 50 1 (4 * n + 1) _ _ _ _ ltac:(lia) ltac:(lia) S12 (conj CD SD)). change (200 + 50)%Z with 250%Z in Sd.
  assert (V0 : 0 < B2R s1 * B2R s2 * (1 - t * t)) by (repeat apply Rmult_lt_0_compat; assumption).
  assert (NL := near_logv lm (S (1 + (4 * n + 1))) _ _ HA ltac:(lia) (proj1 Sd) V0). assert (NC := near_constant lm HA HP).
  assert (BL := close_pos_ln 250 _ V0 (proj2 Sd) ltac:(lia)). assert (BC := ln_2pi). assert (BC0 := Rabs_pos (ln (2 * PI))). assert (BQ := span_le 550 _ ltac:(lia) SQ). assert (BQ0 := span_nonneg 550 _ SQ).
  assert (B6 : 3000 <= bpow radix2 550) by (apply (Rle_trans _ (bpow radix2 12)); [simpl; lra|apply bpow_le; lia]). assert (B7 : bpow radix2 550 * 2 <= bpow radix2 800) by (rewrite bpow_double; apply bpow_le; lia). assert (B8 : bpow radix2 800 <= bpow radix2 1000) by (apply bpow_le; lia).
  assert (B9 : bpow radix2 (-1000) <= 1) by (change 1 with (bpow radix2 0); apply bpow_le; lia).
  assert (EP : pair_size t (B2R r1) (B2R s1) (B2R r2) (B2R s2) = 1 / 2 * (2 * (1 + Rabs (ln (2 * PI))) + (1 + Rabs (ln (B2R s1 * B2R s2 * (1 - t * t)))) + quad_size t (B2R r1) (B2R s1) (B2R r2) (B2R s2))).
  { unfold pair_size. replace (1 - t ^ 2) with (1 - t * t) by ring. lra. }
  split; [|rewrite EP; lra]. apply (near_weaken _ (4 * n + 5)) in NL; [|lia].
  assert (N2 : near 0 (fofZ 2) 2 2) by (apply near_exact; [apply val_ofZ_small; simpl; lia|rewrite Rabs_pos_eq; lra]).
  assert (N3 := near_mul 0 4 _ _ _ _ _ _ ltac:(simpl; lia) N2 NC ltac:(lra) ltac:(right; lra)).
  assert (N4 := near_add 6 (4 * n + 5) (4 * n + 14) _ _ _ _ _ _ ltac:(lia) ltac:(lia) ltac:(lia) N3 NL ltac:(lra)).
  assert (N5 := near_add (S (4 * n + 14)) (4 * n + 1 + 14) (4 * n + 15) _ _ _ _ _ _ ltac:(lia) ltac:(lia) ltac:(lia) N4 NQ ltac:(lra)).
  assert (NH : near 0 (Bopp (fdiv (fofZ 5) (fofZ 10))) (- (1 / 2)) (1 / 2)) by (apply near_exact; [rewrite val_opp, val_half; reflexivity|rewrite Rabs_Ropp, Rabs_right; lra]).
  assert (N6 := near_mul 0 (S (4 * n + 15)) _ _ _ _ _ _ ltac:(lia) NH N5 ltac:(lra) ltac:(right; lra)). rewrite <- EP in N6.
  replace (4 * n + 18)%nat with (S (S (0 + S (4 * n + 15)))) by lia. rewrite ln_bivariate by (assumption || lra). fold t.
  unfold ccc_term. cbn [nopp lit nmul nlog nadd nsub ndiv nsq nsqrt ofZ npi B64]. rewrite (HS rho). exact N6.
Qed.
Lemma Rsum_sizes_le : forall l : list (R * R), Forall (fun p => 1 <= snd p <= bpow radix2 800) l -> Rsum (map snd l) <= INR (length l) * bpow radix2 800.
Proof. induction 1 as [|p l Hp HF IH]; cbn [map Rsum length]; [simpl; lra|]. rewrite S_INR. lra. Qed.
Lemma sizes_total (l : list (R * R)) : Forall (fun p => 1 <= snd p <= bpow radix2 800) l -> (Z.of_nat (length l) <= 2 ^ 50)%Z -> Rsum (map snd l) <= bpow radix2 850.
Proof.
  intros HF HN. eapply Rle_trans; [apply Rsum_sizes_le, HF|]. rewrite INR_IZR_INZ. apply (Rle_trans _ (bpow radix2 50 * bpow radix2 800)); [|rewrite <- bpow_plus; apply bpow_le; lia].
  apply Rmult_le_compat_r; [apply bpow_ge_0|]. rewrite <- (IZR_Zpower radix2 50) by lia. apply IZR_le. exact HN.
Qed.
Definition quads {X Y} (f : X -> X -> X -> X -> Y) (r1 s1 r2 s2 : list X) : list Y := map2 (fun p q => f (fst p) (snd p) (fst q) (snd q)) (combine r1 s1) (combine r2 s2).
Lemma quads_terms (P : b64 -> b64 -> b64 -> b64 -> Prop) k f g h : forall r1 s1 r2 s2, length s1 = length r1 -> length r2 = length r1 -> length s2 = length r1 ->
  (forall a b c d, P a b c d -> near k (f a b c d) (g (B2R a) (B2R b) (B2R c) (B2R d)) (h (B2R a) (B2R b) (B2R c) (B2R d)) /\ 1 <= h (B2R a) (B2R b) (B2R c) (B2R d) <= bpow radix2 800) ->
  Forall (fun q => P (fst (fst q)) (snd (fst q)) (fst (snd q)) (snd (snd q))) (combine (combine r1 s1) (combine r2 s2)) ->
  let m := quads (fun x v y w => (g x v y w, h x v y w)) (reals r1) (reals s1) (reals r2) (reals s2) in
  Forall2 (fun x p => near k x (fst p) (snd p)) (quads f r1 s1 r2 s2) m /\ Forall (fun p => 1 <= snd p <= bpow radix2 800) m /\ length (quads f r1 s1 r2 s2) = length r1 /\
  map fst m = quads g (reals r1) (reals s1) (reals r2) (reals s2) /\ map snd m = quads h (reals r1) (reals s1) (reals r2) (reals s2).
Proof.
  intros r1 s1 r2 s2 L1 L2 L3 HP. revert s1 r2 s2 L1 L2 L3. induction r1 as [|a r1 IH]; intros [|b s1] [|c r2] [|d s2] L1 L2 L3 HF; try discriminate; [cbn; auto|].
  inversion HF as [|q l HQ HF']; subst. cbn [fst snd] in HQ. injection L1 as L1. injection L2 as L2. injection L3 as L3. destruct (IH s1 r2 s2 L1 L2 L3 HF') as (I1 & I2 & I3 & I4 & I5). destruct (HP a b c d HQ) as [N B].
  unfold quads, reals in *. cbn [map combine map2 fst snd length]. cbv zeta in *. split; [constructor; [exact N|exact I1]|]. split; [constructor; [exact B|exact I2]|]. split; [f_equal; exact I3|]. split; f_equal; assumption.
Qed.

(** *** C144: the bivariate log-likelihood of given variances and correlation *)
Lemma ccc_near lm n rho r1 s1 r2 s2 : square_is_product lm -> log_accurate lm -> pi_accurate lm -> correlation64 n rho ->
  Forall resid64 r1 -> Forall positive64 s1 -> Forall resid64 r2 -> Forall positive64 s2 -> r1 <> [] -> length s1 = length r1 -> length r2 = length r1 -> length s2 = length r1 -> (Z.of_nat (length r1) <= 2 ^ 50)%Z ->
  near (4 * n + 18 + levels lm (length r1)) (ccc_loglikelihood (B64 lm) r1 s1 r2 s2 rho)
    (sum4 (fun x v y w => ln (bivariate_density v w (B2R rho) x y)) (reals r1) (reals s1) (reals r2) (reals s2)) (sum4 (pair_size (B2R rho)) (reals r1) (reals s1) (reals r2) (reals s2)) /\ 
  (Z.of_nat (4 * n + 18 + levels lm (length r1)) <= 2 ^ 52)%Z.
Proof.
  intros HS HA HP HC R1 P1 R2 P2 HNE L1 L2 L3 HN.
  destruct (quads_terms (fun a b c d => resid64 a /\ positive64 b /\ resid64 c /\ positive64 d) (4 * n + 18) (fun a b c d => ccc_term (B64 lm) rho a b c d)
    (fun x v y w => ln (bivariate_density v w (B2R rho) x y)) (pair_size (B2R rho)) r1 s1 r2 s2 L1 L2 L3) as (I1 & I2 & I3 & I4 & I5).
  - intros a b c d (A1 & A2 & A3 & A4). apply ccc_term_near; assumption.
  - apply Forall_forall. intros [[a b] [c d]] HI. cbn [fst snd]. rewrite Forall_forall in R1, P1, R2, P2. split; [|split; [|split]].
    + apply R1. apply in_combine_l, in_combine_l in HI. exact HI.
    + apply P1. apply in_combine_l, in_combine_r in HI. exact HI.
    + apply R2. apply in_combine_r, in_combine_l in HI. exact HI.
    + apply P2. apply in_combine_r, in_combine_r in HI. exact HI.
  - cbv zeta in *. assert (LM := Forall2_len _ _ _ I1). rewrite I3 in LM. assert (LV := levels_lt lm (length r1) ltac:(destruct r1; [congruence|cbn; lia])).
    assert (HZ := proj1 (proj2 (proj2 HC))). assert (G : (Z.of_nat (4 * n + 18 + levels lm (length r1)) <= 2 ^ 52)%Z) by lia. split; [|exact G].
    assert (T := sizes_total _ I2 ltac:(rewrite <- LM; exact HN)). assert (B8 : bpow radix2 850 <= bpow radix2 1000) by (apply bpow_le; lia).
    eapply near_fsum_sizes in I1; [|exact (Rle_trans _ _ _ T B8)|rewrite I3; exact G]. rewrite I3, I4, I5 in I1. exact I1.
Qed.
Theorem C144_ccc_loglikelihood : forall lm n rho r1 s1 r2 s2, square_is_product lm -> log_accurate lm -> pi_accurate lm -> correlation64 n rho ->
  Forall resid64 r1 -> Forall positive64 s1 -> Forall resid64 r2 -> Forall positive64 s2 -> r1 <> [] -> length s1 = length r1 -> length r2 = length r1 -> length s2 = length r1 -> (Z.of_nat (length r1) <= 2 ^ 50)%Z ->
  let L := sum4 (fun x v y w => ln (bivariate_density v w (B2R rho) x y)) (reals r1) (reals s1) (reals r2) (reals s2) in
  exists v, val (ccc_loglikelihood (B64 lm) r1 s1 r2 s2 rho) = Fin v /\
    ccc_loglikelihood XRA (map exact r1) (map exact s1) (map exact r2) (map exact s2) (exact rho) = Fin L /\
    Rabs (v - L) <= INR (4 * n + 18 + levels lm (length r1)) * bpow radix2 (-52) * sum4 (pair_size (B2R rho)) (reals r1) (reals s1) (reals r2) (reals s2).
Proof.
  intros lm n rho r1 s1 r2 s2 HS HA HP HC R1 P1 R2 P2 HNE L1 L2 L3 HN L. destruct (ccc_near lm n rho r1 s1 r2 s2 HS HA HP HC R1 P1 R2 P2 HNE L1 L2 L3 HN) as [N G].
  destruct (near_error _ _ _ _ G N) as (v & Ev & D). exists v. split; [exact Ev|]. split; [|exact D].
  assert (PP : forall l, Forall positive64 l -> positive (map B2R l)).
  { intros l HF. apply Forall_forall. intros z Hz. apply in_map_iff in Hz as (x & <- & Hx). rewrite Forall_forall in HF. destruct (HF x Hx) as [_ B]. assert (P := bpow_gt_0 radix2 (-100)). lra. }
  rewrite !exact_fin. apply ccc_fin; [apply PP, P1|apply PP, P2|]. destruct HC as (_ & _ & _ & HC). assert (N0 := pos_INR n). simpl in HC. nra.
Qed.
(** *** C144: two candidate correlations are ranked correctly unless their exact log-likelihoods are closer than the two error bounds *)
Theorem C144_comparison : forall lm n rho rho' r1 s1 r2 s2, square_is_product lm -> log_accurate lm -> pi_accurate lm -> correlation64 n rho -> correlation64 n rho' ->
  Forall resid64 r1 -> Forall positive64 s1 -> Forall resid64 r2 -> Forall positive64 s2 -> r1 <> [] -> length s1 = length r1 -> length r2 = length r1 -> length s2 = length r1 -> (Z.of_nat (length r1) <= 2 ^ 50)%Z ->
  let L c := sum4 (fun x v y w => ln (bivariate_density v w (B2R c) x y)) (reals r1) (reals s1) (reals r2) (reals s2) in
  let size c := sum4 (pair_size (B2R c)) (reals r1) (reals s1) (reals r2) (reals s2) in
  INR (4 * n + 18 + levels lm (length r1)) * bpow radix2 (-52) * (size rho + size rho') < L rho' - L rho ->
  Bltb (ccc_loglikelihood (B64 lm) r1 s1 r2 s2 rho) (ccc_loglikelihood (B64 lm) r1 s1 r2 s2 rho') = true.
Proof.
  intros lm n rho rho' r1 s1 r2 s2 HS HA HP HC HC' R1 P1 R2 P2 HNE L1 L2 L3 HN L size HD.
  destruct (C144_ccc_loglikelihood lm n rho r1 s1 r2 s2 HS HA HP HC R1 P1 R2 P2 HNE L1 L2 L3 HN) as (v & E1 & _ & D1). destruct (C144_ccc_loglikelihood lm n rho' r1 s1 r2 s2 HS HA HP HC' R1 P1 R2 P2 HNE L1 L2 L3 HN) as (v' & E2 & _ & D2).
  rewrite val_ltb, E1, E2. apply xltb_true. apply Rabs_le_inv in D1, D2. fold (L rho) (size rho) in D1. fold (L rho') (size rho') in D2. lra.
Qed.
(** Concrete case: one pair of residuals (2, 2) with unit variances: correlation 1/2 against 0 *)
Example C144_case : let h := fdiv (fofZ 5) (fofZ 10) in
  (square_is_product times_libm /\ log_accurate times_libm /\ pi_accurate times_libm) /\ correlation64 2 (fofZ 0) /\ correlation64 2 h /\ resid64 (fofZ 2) /\ positive64 (fofZ 1) /\
  INR (4 * 2 + 18 + levels times_libm 1) * bpow radix2 (-52) * (sum4 (pair_size (B2R (fofZ 0))) [2] [1] [2] [1] + sum4 (pair_size (B2R h)) [2] [1] [2] [1]) <
    sum4 (fun x v y w => ln (bivariate_density v w (B2R h) x y)) [2] [1] [2] [1] - sum4 (fun x v y w => ln (bivariate_density v w (B2R (fofZ 0)) x y)) [2] [1] [2] [1].
Proof.
  destruct C126_case as (_ & _ & _ & _ & H5). destruct (val_finite_inv _ _ val_half) as [FH EH]. destruct (val_finite_inv _ _ (val_ofZ_small 0 ltac:(lia))) as [F0 E0]. destruct (val_finite_inv _ _ (val_ofZ_small 1 ltac:(lia))) as [F1 E1].
  assert (S100 : bpow radix2 (-100) <= / 2) by (apply (Rle_trans _ (bpow radix2 (-1))); [apply bpow_le; lia|simpl; lra]). assert (B100 : 1 <= bpow radix2 100) by (change 1 with (bpow radix2 0); apply bpow_le; lia).
  cbv zeta. split; [split; [exact H5|split; [exact log_times|exact pi_times]]|]. split; [|split; [|split; [|split]]].
  - split; [exact F0|]. split; [left; exact E0|]. split; [simpl; lia|]. rewrite E0. simpl. lra.
  - split; [exact FH|]. split; [right; rewrite EH, Rabs_pos_eq; lra|]. split; [simpl; lia|]. rewrite EH. simpl. lra.
  - apply small_resid. cbn. lia.
  - split; [exact F1|]. rewrite E1. split; lra.
  - rewrite EH, E0. unfold sum4, pair_size, quad_size. cbn [combine map2 Rsum fst snd]. rewrite !ln_bivariate by lra. change (levels times_libm 1) with 0%nat.
    rewrite !Rmult_1_r, !sqrt_1, !Rmult_0_l. replace (0 ^ 2) with 0 by ring. rewrite !Rabs_R0, !Rminus_0_r, !Rmult_1_l, ln_1, Rabs_R0. replace ((1 / 2) ^ 2) with (/ 4) by lra. replace (1 / 2 * (1 / 2)) with (/ 4) by lra.
    replace (Rabs (1 / 2 * 2 * 2)) with 2 by (rewrite Rabs_pos_eq; lra). assert (L2 := ln2_bounds). assert (LP := ln_2pi). assert (PP := Rabs_pos (ln (2 * PI))).
    assert (LQ : - ln 2 <= ln (1 - / 4) <= 0). { rewrite <- ln_1, <- ln_Rinv by lra. split; apply ln_le; lra. } rewrite (Rabs_left1 (ln (1 - / 4))) by lra.
    rewrite w52, uro_eq. simpl (INR (4 * 2 + 18 + 0)). lra.
Qed.
