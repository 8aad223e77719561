(** * Concrete, non-trivial instances of the hypotheses of theorems stated elsewhere *)
From Coq Require Import Reals Lra Lia ZArith List Bool.
From Verif Require Import Arith XR RealAux Gauss Model_garch Spec_garch Props_garch Props_garch2 Model_ar Props_ar Model_mgarch Props_mgarch Model_lrmes Props_lrmes.
From Verif Require Model_dip Props_dip Model_iforest Props_iforest Model_option Props_option Props_loans Model_merton Props_fftsmooth Props_modmerton Props_modmerton2 Props_modmerton3.
Import ListNotations.
Local Open Scope R_scope.

(** C03, C14: a GARCH and a GJR recursion over two returns; the C++ and Python paths *)
Definition case_bounds : list (R * R) := [(1/100, 50); (1/100, 50)].
Lemma case_bounds_good : Forall good_row case_bounds /\ length case_bounds = 2%nat.
Proof. unfold case_bounds, good_row. split; [repeat (constructor; [cbn; lra|]); constructor|reflexivity]. Qed.
Example C03_case : exists s, garch_variance_py XRA [Fin 1; Fin (1/10); Fin (1/2)] (map Fin [1; -2]) (Fin 2) (map finrow case_bounds) = Ok s /\
  Ok s = Ok (cpp_garch XRA (Fin 1) (Fin (1/10)) (Fin (1/2)) (Fin 2) (fun i => nth i (map Fin [1; -2]) NaN) (flat2 XRA NaN (map finrow case_bounds)) 2).
Proof.
  destruct case_bounds_good as [H1 H2]. assert (E := C03_garch_same_finite 1 (1/10) (1/2) 2 [1; -2] case_bounds ltac:(discriminate) H2 H1).
  eexists. split; [exact E|reflexivity].
Qed.
Example C14_case : let a := Build_ndarray XRA (fun i => nth i (map Fin [7; 1; -2; 9]) NaN) 1 1 2 in
  logical XRA a = map Fin [1; -2] /\
  garch_wrapper XRA [Fin 1; Fin (1/10); Fin (1/2)] a (Fin 2) (flat2 XRA NaN (map finrow case_bounds)) =
  garch_variance_py XRA [Fin 1; Fin (1/10); Fin (1/2)] (map Fin [1; -2]) (Fin 2) (map finrow case_bounds).
Proof.
  cbv zeta. split; [reflexivity|]. destruct case_bounds_good as [H1 H2].
  exact (C14_contiguous_equals_python (Build_ndarray XRA (fun i => nth i (map Fin [7; 1; -2; 9]) NaN) 1 1 2) 1 (1/10) (1/2) 2 [1; -2] case_bounds eq_refl eq_refl ltac:(discriminate) H2 H1).
Qed.

(** C16, C18: two standardized series *)
Definition unit4 : list R := [1; 1; 1; 1].
Lemma zscores_unit r : length r = 4%nat -> zscores r unit4 = r.
Proof.
  intros H. destruct r as [|a [|b [|c [|d [|? ?]]]]]; try discriminate H. unfold zscores, unit4. cbn [map2]. rewrite sqrt_1.
  repeat (apply f_equal2; [field|]). reflexivity.
Qed.
Example C16_case : exists rho, cond_corr_py XRA (Fin (1/10)) (Fin (8/10)) (map Fin [1; -1; 1; -1]) (map Fin [1; 1; -1; -1]) (map Fin unit4) (map Fin unit4) = Ok rho /\
  cond_corr_cpp XRA (Fin (1/10)) (Fin (8/10)) (map Fin [1; -1; 1; -1]) (map Fin [1; 1; -1; -1]) (map Fin unit4) (map Fin unit4) = Ok rho.
Proof.
  assert (Z1 := zscores_unit [1; -1; 1; -1] eq_refl). assert (Z2 := zscores_unit [1; 1; -1; -1] eq_refl).
  assert (HP : positive unit4) by (unfold unit4; repeat (constructor; [lra|]); constructor).
  assert (E := C16_backends_agree_on_standardized_series (1/10) (8/10) [1; -1; 1; -1] [1; 1; -1; -1] unit4 unit4 eq_refl eq_refl eq_refl HP HP ltac:(lra) ltac:(lra) ltac:(lra) ltac:(lra)).
  cbv zeta in E. rewrite Z1, Z2 in E. 
  assert (N1 : non_constant [1; -1; 1; -1]) by (exists 1, (-1); repeat split; [left; auto|right; left; auto|lra]).
  assert (N2 : non_constant [1; 1; -1; -1]) by (exists 1, (-1); repeat split; [left; auto|right; right; left; auto|lra]).
  specialize (E N1 N2 ltac:(unfold Rmean; cbn; field) ltac:(unfold Rmean; cbn; field) ltac:(unfold moment2; cbn; field) ltac:(unfold moment2; cbn; field)).
  destruct (C15_conditional_correlations_in_range false (1/10) (8/10) [1; -1; 1; -1] [1; 1; -1; -1] unit4 unit4 eq_refl eq_refl eq_refl HP HP ltac:(lra) ltac:(lra) ltac:(lra) ltac:(lra)) as (rho & EC & _); [rewrite Z1; auto|rewrite Z2; auto|].
  exists (map Fin rho). change (cond_corr XRA false) with (cond_corr_py XRA) in EC. split; [exact EC|]. rewrite <- E. exact EC.
Qed.
Example C18_case : exists v, dcc_negative_loglik XRA (loglikelihood XRA (map Fin [1; -1]) (map Fin [1; 4])) (loglikelihood XRA (map Fin [2; 1]) (map Fin [1; 1])) (map Fin [1/2; -1/2])
    (standardize XRA (map Fin [1; -1]) (map Fin [1; 4])) (standardize XRA (map Fin [2; 1]) (map Fin [1; 1])) = Fin v.
Proof. eexists. apply C18_two_step_loglik_is_the_bivariate_one; try reflexivity; repeat (constructor; [lra|]); constructor. Qed.

(** C22, C23: one simulated day in a concrete setting; the market falls by 1 - exp(-1), more than 10% *)
Example C22_case : good_setting case_setting /\ simulation XRA true (inputs case_setting) (Fin (-1/10)) (fin_shocks [(-100, -100)]) = (Fin (exp (-1) - 1), true).
Proof.
  split; [apply case_good|]. destruct (C22_simulation true case_setting (-1/10) [(-100, -100)] case_good) as [E _]. rewrite E.
  destruct (case_returns (-100) (-100)) as [E1 E2]. rewrite E1, E2. replace (-100/100) with (-1) by lra.
  assert (H : exp (-1) < 9/10). { assert (X := exp_ineq1 1 ltac:(lra)). assert (Y := exp_pos (-1)). assert (Z : exp (-1) * exp 1 = 1) by (rewrite <- exp_plus; replace (-1 + 1) with 0 by ring; apply exp_0). nra. }
  destruct (Rlt_dec (exp (-1) - 1) (-1/10)); [reflexivity|lra].
Qed.
Definition case_scenarios : list (list (R * R)) := [[(-100, -100)]; [(100, 100)]].
Example C23_case : n_systemic_events XRA true (inputs case_setting) (Fin (-1/10)) (map fin_shocks case_scenarios) = 1%Z /\
  n_systemic_events XRA true (inputs case_setting) (Fin (-1)) (map fin_shocks case_scenarios) = 0%Z.
Proof.
  split; [|apply C23_no_event_below_minus_one; lra]. unfold n_systemic_events, case_scenarios. cbn [map accumulate]. destruct C22_case as [_ E]. change (num XRA) with xr in *. rewrite E. cbn [accumulate].
  destruct (C22_simulation true case_setting (-1/10) [(100, 100)] case_good) as [E' _]. change (num XRA) with xr in *. rewrite E'. destruct (case_returns 100 100) as [E1 E2]. rewrite E2.
  assert (H := exp_ineq1 (100/100) ltac:(lra)). destruct (Rlt_dec (exp (100/100) - 1) (-1/10)); [lra|]. reflexivity.
Qed.

(** C33: the returns matrix of C32_case; C34: two different matrices *)
Example C33_case : exists er, returns_matrix case_X 3 /\ returns_spectrum er case_X [4; 3/4] /\ 0 < total_variance case_X /\
  (Z.of_nat (length case_X) < Props_dip.Rfloor (3/2 * INR (length case_X) + 1/2) < 2 * Z.of_nat (length case_X))%Z /\ (Props_dip.Rfloor (1/2 * INR (length case_X) + 1/2) <= Z.of_nat (length case_X))%Z.
Proof.
  destruct C32_case as (er & H1 & H2 & H3 & _). exists er. repeat split; auto; try apply H1; try apply H3.
  all: cbn [case_X length INR].
  - replace (3/2 * (1 + 1) + 1/2) with (3 + 1/2) by lra. rewrite (Props_dip.Rfloor_unique (3 + 1/2) 3) by lra. cbn. lia.
  - replace (3/2 * (1 + 1) + 1/2) with (3 + 1/2) by lra. rewrite (Props_dip.Rfloor_unique (3 + 1/2) 3) by lra. cbn. lia.
  - replace (1/2 * (1 + 1) + 1/2) with (1 + 1/2) by lra. rewrite (Props_dip.Rfloor_unique (1 + 1/2) 1) by lra. cbn. lia.
Qed.
Example C34_case : exists er Y, snd (ar_run XRA xround er (new_AR XRA (map (map Fin) case_X)) [Estimate XRA (Fin (1/2)); SetReturns XRA Y; Estimate XRA (Fin (1/2))]) = [Some (Ok (Fin (16/19))); None; Some (Ok (Fin (16/19)))].
Proof.
  destruct C32_case as (er & H1 & H2 & H3 & H4 & _). exists er, (map (map Fin) [[9; 9; 1]; [5; 1; 2]]). rewrite C34_covariance_is_frozen_at_first_use. cbn [history].
  assert (E : ratio_of XRA xround er (np_cov XRA (map (map Fin) case_X)) (length (map (map Fin) case_X)) (Fin (1/2)) = Ok (Fin (16/19))).
  { assert (G := C34_covariance_is_frozen_at_first_use XRA xround er (map (map Fin) case_X) [Estimate XRA (Fin (1/2))]). cbn [history ar_run ar_step] in G.
    unfold absorption in H4. destruct (estimate_ar XRA xround er (new_AR XRA (map (map Fin) case_X)) (Fin (1/2))) as [o' v] eqn:EE. cbn [snd] in H4, G. injection G as G. etransitivity; [exact (eq_sym G)|exact H4]. }
  change (num XRA) with xr in *. change (length (map (map Fin) [[9; 9; 1]; [5; 1; 2]])) with (length (map (map Fin) case_X)). rewrite E. reflexivity.
Qed.

(** C37, C38, C78: an at-the-money and an in-the-money option, two strikes, two rates *)
Example C37_case : exists c p, Model_option.blsprice XRA (Fin 100) (Fin 95) (Fin (1/10)) (Fin (1/4)) (Fin (1/2)) (Fin 0) = (Fin c, Fin p).
Proof.
  destruct (Props_option.C37_put_call_parity 100 95 (1/10) (1/4) (1/2) 0) as (c & p & E & _); [unfold Props_option.valid; lra|]. exists c, p. exact E.
Qed.
Example C38_case : exists c p, Model_option.blsprice XRA (Fin 100) (Fin 95) (Fin (1/10)) (Fin (1/4)) (Fin (1/2)) (Fin (1/50)) = (Fin c, Fin p) /\ 0 < c < 100 /\ 0 < p < 95.
Proof.
  destruct (Props_option.C38_no_arbitrage_bounds 100 95 (1/10) (1/4) (1/2) (1/50)) as (c & p & E & H1 & H2); [unfold Props_option.valid; lra|].
  assert (A1 := Rmax_r (100 * exp (- (1/50) * (1/4)) - 95 * exp (- (1/10) * (1/4))) 0). assert (A2 := Rmax_r (95 * exp (- (1/10) * (1/4)) - 100 * exp (- (1/50) * (1/4))) 0).
  assert (B : forall x, x < 0 -> exp x < 1) by (intros x Hx; rewrite <- exp_0; apply exp_increasing; lra).
  assert (B1 := B (- (1/50) * (1/4)) ltac:(lra)). assert (B2 := B (- (1/10) * (1/4)) ltac:(lra)).
  exists c, p. split; [exact E|]. lra.
Qed.
Example C78_case : Props_option.valid 100 95 (1/4) (1/2) /\ Props_option.valid 110 105 (1/4) (1/2) /\ (1/10 < 2/10) /\ (95 < 100) /\ 0 <= 1/3 <= 1.
Proof. unfold Props_option.valid. lra. Qed.

(** C42, C43: the two banks of C41_case: with a threshold of 99% of each bank's liability there is no tail mass and the result is NaN *)
Example C42_case : Props_dip.losses_in_range (length Props_dip.case_th) 1 Props_dip.case_T /\
  Props_dip.dip Props_dip.case_th Props_dip.case_z 1 Props_dip.case_T (99/100) [[]; []] = Ok NaN /\
  exists r, Props_dip.dip Props_dip.case_th Props_dip.case_z 1 Props_dip.case_T (15/100) [[]; []] = Ok (Fin r).
Proof.
  destruct Props_dip.C41_case as (H1 & S1 & S2 & _ & _ & _ & H2). split; [exact H1|].
  assert (E : Props_dip.Rtrunc (99/100 * 100) = 99%Z).
  { unfold Props_dip.Rtrunc. destruct (Rle_dec 0 (99/100 * 100)) as [|n]; [|exfalso; apply n; lra]. apply Props_dip.Rfloor_unique. lra. }
  destruct (Props_dip.C42_nan_iff_no_tail_mass Props_dip.case_th Props_dip.case_z 1 Props_dip.case_T (99/100) [[]; []]) as [A1 _]; auto; try discriminate; try lra.
  destruct (Props_dip.C42_nan_iff_no_tail_mass Props_dip.case_th Props_dip.case_z 1 Props_dip.case_T (15/100) [[]; []]) as [_ A2]; auto; try discriminate; try lra.
  split; [|apply A2; lra]. apply A1. rewrite E. unfold Props_dip.tail_mass, Props_dip.pairs. cbn [Props_dip.case_th length seq flat_map map app fst snd Rsum plus].
  rewrite S1, S2. cbn. lra.
Qed.
Example C43_case : INR 15 / 100 <= 15/100 < (INR 15 + 1) / 100 /\ INR 15 / 100 <= 159/1000 < (INR 15 + 1) / 100.
Proof. replace (INR 15) with 15 by (cbn; lra). lra. Qed.

(** C62, C76: a complete numeric data set of four observations, a tree of height 2 *)
Definition four : Model_iforest.dataset XRA := Model_iforest.mkData XRA 1 0 4 (fun _ o => Fin (INR o)) (fun _ _ => []).
Example C62_C76_case : Props_iforest.complete four /\ Props_iforest.uniform_consumption Props_iforest.count_rng /\
  exists l r, Model_iforest.growTree XRA four Props_iforest.count_rng 2 [0; 1; 2; 3]%nat 0%nat = Model_iforest.Node 0 (Model_iforest.SplitNum (A:=XRA) (Fin (INR 3))) 4 l r.
Proof.
  split; [intros attr o; reflexivity|]. split; [intros n m g; reflexivity|].
  cbn [Model_iforest.growTree length Nat.leb Model_iforest.draw_attr Model_iforest.draw_index Props_iforest.count_rng]. do 2 eexists. reflexivity.
Qed.

(** C68: for every loan there is a yield at which it is fair, so the equivalence is not vacuous *)
Example C68_case : exists mu, Model_merton.find_face_value_indiv XRA (Fin mu) (Fin (7/10)) (Fin 0) (Fin (1/5)) (Fin 10) (Fin (1/100)) (Fin (1/200)) = Fin 0.
Proof.
  assert (HV := Props_loans.loan_value_pos (7/10) 0 (1/5) 10 (1/100) (1/200) ltac:(lra) ltac:(lra) ltac:(lra)). set (v := Props_loans.loan_value (7/10) 0 (1/5) 10 (1/100) (1/200)) in *.
  exists (- ln (v / (7/10)) / 10). destruct (Props_loans.C68_fair_yield (- ln (v / (7/10)) / 10) (7/10) 0 (1/5) 10 (1/100) (1/200)) as (_ & H & _); try lra. apply H. fold v.
  replace (- (- ln (v / (7/10)) / 10) * 10) with (ln (v / (7/10))) by field. rewrite exp_ln by (apply Rmult_lt_0_compat; lra). field.
Qed.

(** C71: ten cohorts, half of them rolled over *)
Example C71_case : exists l, Model_merton.aHmat XRA 10 5 = Ok l /\ length l = 10%nat /\ Model_merton.rolled 5 4 = true /\ Model_merton.rolled 5 5 = false.
Proof.
  destruct (Props_modmerton.C71_accumulated_life XRA 10 5 0 ltac:(lia) ltac:(lia)) as (l & E & L & _). exists l. repeat split; auto.
Qed.

(** C74: an eleven-entry parameter list *)
Example C74_case : let params := map Fin [1/100; 2; 7/10; 1; 6/10; 1/2; 6/10; 2/10; 1/200; 2/1000; 1/2] in (2 < length params)%nat /\
  forall compute E sigE, nth 2 (fst (Model_merton.mod_single_cohort_solution XRA compute (Model_merton.Vector XRA [Fin 0]) (Fin (8/10)) params E sigE)) NaN = Fin (8/10).
Proof. cbv zeta. split; [cbn; lia|]. intros. reflexivity. Qed.

(** C81, C83, C84: the bank of C70_case; 7 paths make an odd number of scenarios, 2 paths too few *)
Definition case_q := Props_modmerton2.Build_bank_inputs (1/100) 2 (7/10) 1 (6/10) (1/2) (6/10) (2/10) (1/200) (2/1000) (1/2).
Lemma case_call n : (0 < n)%nat -> Props_modmerton3.valid_call case_q 2 1 [0] (repeat [1; -1; 1/2; 0; 2; -1/2] n).
Proof.
  intros Hn. unfold Props_modmerton3.valid_call, Props_modmerton2.valid_inputs, case_q. cbn [Props_modmerton2.i_T Props_modmerton2.i_rho Props_modmerton2.i_sig Props_modmerton2.i_bookF Props_modmerton2.i_ltv Props_modmerton2.i_H].
  repeat split; try lra; try lia; try discriminate; [simpl; lra|destruct n; [lia|discriminate]|].
  apply Forall_forall. intros row H. apply repeat_spec in H. subst. reflexivity.
Qed.
Example C84_case : (forall round9 mu, Model_merton.mod_merton_computation XRA Props_fftsmooth.exact_spectral round9 Props_modmerton.exact_int (fun _ _ => Fin mu) [Fin 0] (Props_modmerton2.as_list case_q) 2
    (map (map Fin) (repeat [1; -1; 1/2; 0; 2; -1/2] 7)) = Err AssertionError) /\
  (forall round9 mu, exists m, Model_merton.mod_merton_computation XRA Props_fftsmooth.exact_spectral round9 Props_modmerton.exact_int (fun _ _ => Fin mu) [Fin 0] (Props_modmerton2.as_list case_q) 2
    (map (map Fin) (repeat [1; -1; 1/2; 0; 2; -1/2] 2)) = Ok m /\ Model_merton.b_Lt XRA (Model_merton.m_bank XRA m) = [Fin 0]).
Proof.
  split; intros round9 mu.
  - apply (Props_modmerton3.C84_odd_counts_raise round9 (fun _ _ => Fin mu) case_q 2 1 [0] _ mu); [apply case_call; lia|reflexivity|left; reflexivity].
  - apply (Props_modmerton3.C84_few_scenarios_worthless round9 (fun _ _ => Fin mu) case_q 2 1 [0] _ mu); [apply case_call; lia|reflexivity|reflexivity|cbn; lia].
Qed.
Example C81_case : forall round9 mu, exists m, Model_merton.mod_merton_computation XRA Props_fftsmooth.exact_spectral round9 Props_modmerton.exact_int (fun _ _ => Fin mu) [Fin 0] (Props_modmerton2.as_list case_q) 2
    (map (map Fin) (repeat [1; -1; 1/2; 0; 2; -1/2] 14)) = Ok m.
Proof.
  intros round9 mu. destruct (Props_modmerton3.C81_mean_assets round9 (fun _ _ => Fin mu) case_q 2 1 [0] (repeat [1; -1; 1/2; 0; 2; -1/2] 14) mu) as (m & E & _); [apply case_call; lia|reflexivity|reflexivity|reflexivity|cbn; lia|]. exists m. exact E.
Qed.
Example C83_case : Props_modmerton2.valid_inputs case_q /\ 0 < 8/10.
Proof. split; [apply (case_call 1); lia|lra]. Qed.
