(** * Binary64 versions, continued: rounding breaks the DCC correlation range; the contracts on the library are satisfiable *)
From Coq Require Import Reals ZArith List Lia Lra Psatz Bool Arith.
From Flocq Require Import Core BinarySingleNaN.
From Verif Require Import Arith XR Float64 Float64b Props_float Props_float2 Props_float3 Model_iforest Model_mgarch Model_lrmes Model_garch.
Import ListNotations.
Local Open Scope R_scope.

(** ** C15: in exact arithmetic |rho| <= 1; in binary64 the value 1 + 2^-52 occurs *)
(** x**2 computed as x*x (what numpy and the C++ compiler do) *)
Definition sq_exact (lm : libm) : Prop := forall x, l_sq lm x = fmul x x.
(** two proportional residual series: [1, -5] and [6, -30] with unit variances; a = 1/5 rounded, b = 0 *)
Definition bad_a : b64 := fdiv (fofZ 1) (fofZ 5).
Definition bad_path (lm : libm) : res (list b64) :=
  cond_corr_cpp (B64 lm) bad_a (fofZ 0) [fofZ 1; fofZ (-5)] [fofZ 6; fofZ (-30)] [fofZ 1; fofZ 1] [fofZ 1; fofZ 1].
Definition just_above_one : b64 := @B754_finite 53 1024 false 4503599627370497 (-52) eq_refl.
Lemma SF_eq (x y : b64) : B2SF x = B2SF y -> x = y.
Proof. destruct x, y; simpl; intros H; try discriminate; try (injection H as <-; reflexivity); auto. apply B2SF_inj; auto. Qed.
Lemma bad_path_value lm : sq_exact lm -> bad_path lm = Ok [fofZ 1; just_above_one].
Proof.
  intros H. unfold bad_path, cond_corr_cpp, standardize, dcc_path. cbn [map2 combine removelast dcc_loop length nsq nadd nsub nmul ndiv nsqrt ofZ B64 fold_left].
  rewrite !H. f_equal. f_equal; [|f_equal]; apply SF_eq; vm_compute; reflexivity.
Qed.
Lemma above_one : val just_above_one = Fin (1 + / 4503599627370496).
Proof. unfold just_above_one, val. unfold B2R, F2R. simpl. f_equal. lra. Qed.
Lemma one_minus_sq : xltb (val (fsub (fofZ 1) (fmul just_above_one just_above_one))) (Fin 0) = true.
Proof.
  rewrite val_fin by (vm_compute; reflexivity). apply xltb_true. rewrite <- SF2R_B2SF.
  assert (E : B2SF (fsub (fofZ 1) (fmul just_above_one just_above_one)) = SpecFloat.S754_finite true 4503599627370496 (-103)) by (vm_compute; reflexivity).
  rewrite E. unfold SF2R, F2R. simpl. lra.
Qed.
Lemma sqrt_one_minus_sq : fsqrt (fsub (fofZ 1) (fmul just_above_one just_above_one)) = B754_nan.
Proof. apply SF_eq. vm_compute. reflexivity. Qed.

(** every input is finite and admissible, the exact correlation is 1 throughout, and the second one returned is above 1 *)
Theorem C15_binary64_refuted lm : sq_exact lm ->
  val (fofZ 0) = Fin 0 /\ xltb (Fin 0) (val bad_a) = true /\ xltb (val bad_a) (Fin 1) = true /\
  exists rho0 rho1, bad_path lm = Ok [rho0; rho1] /\ val rho0 = Fin 1 /\ val rho1 = Fin (1 + / 4503599627370496).
Proof.
  intros H. split; [apply val_ofZ_small; simpl; lia|].
  assert (E : val bad_a = Fin (B2R bad_a)) by (apply val_fin; vm_compute; reflexivity).
  assert (V : B2R bad_a = IZR 7205759403792794 / IZR 36028797018963968).
  { rewrite <- SF2R_B2SF. assert (E' : B2SF bad_a = SpecFloat.S754_finite false 7205759403792794 (-55)) by (vm_compute; reflexivity).
    rewrite E'. unfold SF2R, F2R. simpl. lra. }
  rewrite E. split; [apply xltb_true; lra|]. split; [apply xltb_true; lra|].
  exists (fofZ 1), just_above_one. split; [apply bad_path_value; auto|]. split; [apply val_ofZ_small; simpl; lia|apply above_one].
Qed.
(** Consequence for LRMES: with such a correlation the orthogonal firm shock (z_i - rho z_m) / sqrt(1 - rho^2) is NaN, whatever the
    standardized residuals are. *)
Theorem C22_binary64_refuted lm : sq_exact lm -> exists rho0 rho1, bad_path lm = Ok [rho0; rho1] /\
  forall z_i z_m, val (orthogonal (B64 lm) z_i z_m rho1) = NaN.
Proof.
  intros H. exists (fofZ 1), just_above_one. split; [apply bad_path_value; auto|]. intros z_i z_m.
  unfold orthogonal. cbn [nsub nmul ndiv nsqrt nsq ofZ B64]. rewrite H, sqrt_one_minus_sq. apply fdiv_nan_r. reflexivity.
Qed.
(** sq_exact is satisfiable together with the other contracts *)
Definition squaring_libm : libm :=
  mkLibm (l_log perfect_libm) (l_exp perfect_libm) (fun x => fmul x x) (l_pow perfect_libm) (l_cdf perfect_libm) (l_pi perfect_libm) left_to_right left_to_right_ok.
Example C15_binary64_case : sq_exact squaring_libm.
Proof. intros x. reflexivity. Qed.

(** ** The contracts used by the binary64 theorems hold of a correctly rounded library *)
#[local] Opaque fadd fsub fmul fdiv fsqrt fofZ val.
Lemma ln2_half : 1/2 <= ln 2.
Proof.
  assert (H := exp_ineq1_le (-(1/2))). rewrite <- (ln_exp (1/2)). destruct (Rle_lt_dec (exp (1/2)) 2) as [L|L].
  - destruct L as [L|L]; [apply Rlt_le, ln_increasing; auto; apply exp_pos|rewrite L; lra].
  - exfalso. rewrite exp_Ropp in H. assert (P := exp_pos (1/2)). apply (Rmult_le_compat_r (exp (1/2))) in H; [|lra]. rewrite Rinv_l in H by lra. lra.
Qed.
Lemma fmt_half : fmt (1/2) /\ Rabs (1/2) < bpow radix2 1024.
Proof. dyadic 1%Z (-1)%Z. replace (1 * bpow radix2 (-1)) with (1/2) in * by (simpl; lra). auto. Qed.
Lemma perfect_log2 : log2_half perfect_libm.
Proof.
  intros x H. simpl. rewrite val_of_xr. destruct (val x) as [r| | |]; try discriminate; auto. apply xleb_iff in H.
  rewrite xlog_fin by lra. simpl. destruct fmt_half. apply RN_ge; auto. assert (L := ln2_half).
  destruct H as [H|H]; [apply ln_increasing in H; lra|rewrite <- H; lra].
Qed.
Lemma perfect_pow2 : pow2_sane perfect_libm.
Proof.
  intros x y Ex Hy. simpl. rewrite val_of_xr, Ex. destruct Hy as [Hy|Hy]; [rewrite Hy; left; reflexivity|].
  destruct (val y) as [e| | |]; try discriminate; [|left; reflexivity]. apply xleb_iff in Hy. rewrite xpow_fin by lra. right. simpl.
  destruct fmt_0 as [F0 B0]. destruct (fmt_Z 1) as [F1 B1]; [simpl; lia|].
  assert (L : xleb (Fin 0) (RN (Rpower 2 e)) = true) by (apply RN_ge; auto; apply Rlt_le, exp_pos).
  assert (U : xleb (RN (Rpower 2 e)) (Fin 1) = true).
  { apply RN_le; auto. unfold Rpower. rewrite <- exp_0. assert (0 < ln 2) by (assert (L2 := ln2_half); lra).
    destruct (Req_dec (e * ln 2) 0) as [Z|Z]; [rewrite Z; lra|]. apply Rlt_le, exp_increasing. nra. }
  destruct (RN (Rpower 2 e)) as [v| | |]; try discriminate. apply xleb_iff in L. apply xleb_iff in U. eauto.
Qed.
(** hence all contracts can be met at once; on a two-leaf tree the score theorem applies *)
Example C58_binary64_case : exists lm, log_sane lm /\ log2_half lm /\ pow2_sane lm /\ sq_sane lm /\ exp_sane lm /\ pow_sane lm /\
  forall d ob, within_or_nan 0 1 (val (anomalyScore (B64 lm) d 256 2 [Leaf 256; Node 0 (@SplitNum (B64 lm) (fofZ 3)) 256 (Leaf 1) (Leaf 255)] ob)).
Proof.
  exists perfect_libm. do 6 (split; [first [apply perfect_log|apply perfect_log2|apply perfect_pow2|apply perfect_sq|apply perfect_exp|apply perfect_pow]|]).
  intros d ob. apply C58_binary64; [apply perfect_log|apply perfect_log2|apply perfect_pow2|lia|simpl; lia|].
  repeat constructor; simpl; lia.
Qed.

(** ** C40: the overflow hypotheses are met by a correctly rounded library at a risk-free rate of -2000 *)
Lemma RN_over r : bpow radix2 1024 <= r -> RN r = PInf.
Proof.
  intros H. assert (P := bpow_gt_0 radix2 1024).
  assert (F : fmt (bpow radix2 1024)) by (apply generic_format_bpow; unfold fexp64, SpecFloat.fexp, SpecFloat.emin; lia).
  assert (M : bpow radix2 1024 <= rnd r) by (rewrite <- (rnd_fmt _ F); apply rnd_mono; exact H).
  unfold RN. rewrite Rlt_bool_false by (rewrite Rabs_right; lra). rewrite Rlt_bool_false by lra. reflexivity.
Qed.
Lemma RN_Z z : (Z.abs z <= 2 ^ 53)%Z -> RN (IZR z) = Fin (IZR z).
Proof. intros H. rewrite <- val_ofZ. apply val_ofZ_small. exact H. Qed.
Example C40_overflow_case : let A := B64 perfect_libm in let e := @ofZ A 1 in let b := @ofZ A 1 in let t := @ofZ A 1 in let rf := @ofZ A (-2000) in
  nltb (@ofZ A 0) (ndiv (nsq e) b) = true /\ nltb t (@ofZ A 0) = false /\ isinf (nexp (nmul (nopp rf) t)) = true /\ isinf (nmul (nopp rf) t) = false.
Proof.
  cbv zeta. cbn [nltb ofZ nsq ndiv nexp nmul nopp isinf B64 perfect_libm l_exp l_sq].
  assert (V1 : val (fofZ 1) = Fin 1) by (apply val_ofZ_small; simpl; lia). assert (V0 : val (fofZ 0) = Fin 0) by (apply val_ofZ_small; simpl; lia).
  assert (V : val (fmul (Bopp (fofZ (-2000))) (fofZ 1)) = Fin 2000).
  { assert (V2 : val (Bopp (fofZ (-2000))) = Fin 2000) by (rewrite val_opp, (val_ofZ_small (-2000)) by (simpl; lia); cbn [xopp]; f_equal; lra).
    rewrite (val_mul _ _ 2000 1 V2 V1). rewrite Rmult_1_r. apply (RN_Z 2000). simpl; lia. }
  split; [|split; [|split]].
  - assert (S1 : val (of_xr (xsq (val (fofZ 1)))) = Fin 1) by (rewrite val_of_xr, V1; cbn [xsq xmul xrn]; rewrite Rmult_1_r; apply (RN_Z 1); simpl; lia).
    rewrite val_ltb, V0, (val_div _ _ 1 1 S1 V1) by lra. replace (1 / 1) with 1 by lra. rewrite (RN_Z 1) by (simpl; lia). apply xltb_true. lra.
  - rewrite val_ltb, V0, V1. apply xltb_false. lra.
  - apply val_inf. left. rewrite val_of_xr, V. cbn [xexp xrn]. apply RN_over.
    rewrite <- (exp_ln (bpow radix2 1024)) by apply bpow_gt_0. rewrite ln_bpow. assert (L := ln2_bounds). apply Rlt_le, exp_increasing. lra.
  - destruct (fisinf _) eqn:E; [|reflexivity]. apply val_inf in E. rewrite V in E. destruct E; discriminate.
Qed.
