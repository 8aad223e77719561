(** * Properties C70 (end to end), C74, C80, C81, C82 of the modified Merton model *)
From Coq Require Import Reals Lra List ZArith Lia Bool Permutation.
From Verif Require Import Arith XR RealAux Gauss Fourier Model_option Props_option Props_cca Model_merton Props_fftsmooth Props_loans Props_modmerton.
Import ListNotations.
Local Open Scope R_scope.

(** ** C74: mod_single_cohort_solution changes its caller's list *)
Theorem C74_mutation : forall (A : Arith) compute b0 b1 params E sigE params' res, (2 < length params)%nat ->
  mod_single_cohort_solution A compute b0 b1 params E sigE = (params', res) ->
  length params' = length params /\ nth 2 params' (ofZ 0) = b1 /\ (forall i d, i <> 2%nat -> nth i params' d = nth i params d).
Proof.
  intros A comp b0 b1 ps E sE ps' res HL H. unfold mod_single_cohort_solution in H. destruct (Nat.ltb_spec 2 (length ps)); [|lia].
  injection H as <- _. rewrite set_nth_length. split; [reflexivity|]. split; [apply set_nth_same; auto|]. intros i d Hi. apply set_nth_other. auto.
Qed.
Lemma set_nth_twice {X} (l : list X) i u v : set_nth (set_nth l i u) i v = set_nth l i v.
Proof. revert i. induction l as [|x l IH]; intros [|i]; cbn [set_nth]; auto. f_equal. apply IH. Qed.
(** the old value of param[2] has no influence, and repeating the call changes nothing more *)
Theorem C74_old_value_irrelevant : forall (A : Arith) compute b0 b1 params v E sigE, (2 < length params)%nat ->
  mod_single_cohort_solution A compute b0 b1 (set_nth params 2 v) E sigE = mod_single_cohort_solution A compute b0 b1 params E sigE.
Proof.
  intros A comp b0 b1 ps v E sE HL. unfold mod_single_cohort_solution. rewrite set_nth_length. destruct (Nat.ltb_spec 2 (length ps)); [|lia]. rewrite set_nth_twice. reflexivity.
Qed.
Theorem C74_idempotent : forall (A : Arith) compute b0 b1 params E sigE,
  let r := mod_single_cohort_solution A compute b0 b1 params E sigE in
  mod_single_cohort_solution A compute b0 b1 (fst r) E sigE = r.
Proof.
  intros A comp b0 b1 ps E sE. unfold mod_single_cohort_solution. destruct (Nat.ltb_spec 2 (length ps)) as [L|L]; cbn [fst].
  - rewrite set_nth_length. destruct (Nat.ltb_spec 2 (length ps)); [|lia]. rewrite set_nth_twice. reflexivity.
  - destruct (Nat.ltb_spec 2 (length ps)); [lia|reflexivity].
Qed.
Lemma read_param_err (A : Arith) l e : read_param A l = Err e -> e = IndexError.
Proof. intros H. unfold read_param in H. do 10 (destruct l as [|? l]; [congruence|]). discriminate H. Qed.
(** the list is changed even when the call raises, in particular always when b is a flat vector of two numbers (as scipy's solvers pass it) *)
Theorem C74_scalar_raises_after_mutation : forall (A : Arith) compute x b1 params E sigE, (2 < length params)%nat ->
  mod_single_cohort_solution A compute (Scalar A x) b1 params E sigE = (set_nth params 2 b1, Err IndexError).
Proof.
  intros A comp x b1 ps E sE HL. unfold mod_single_cohort_solution. destruct (Nat.ltb_spec 2 (length ps)); [|lia]. f_equal.
  destruct (read_param A (set_nth ps 2 b1)) as [p|e] eqn:ER; [reflexivity|]. cbn [bind]. rewrite (read_param_err A _ _ ER). reflexivity.
Qed.

(** ** Finite inputs *)
(** the parameters: T > 0, 0 <= rho < 1, sig > 0, bookF > 0, ltv > 0; everything else is any real *)
Record bank_inputs := { i_r : R; i_T : R; i_bookF : R; i_H : R; i_D : R; i_rho : R; i_ltv : R; i_sig : R; i_d : R; i_y : R; i_g : R }.
Definition valid_inputs (q : bank_inputs) : Prop := 0 < i_T q /\ 0 <= i_rho q < 1 /\ 0 < i_sig q /\ 0 < i_bookF q /\ 0 < i_ltv q.
Definition as_list (q : bank_inputs) : list xr :=
  map Fin [i_r q; i_T q; i_bookF q; i_H q; i_D q; i_rho q; i_ltv q; i_sig q; i_d q; i_y q; i_g q].
Definition as_param (q : bank_inputs) : param XRA :=
  params_of (i_r q) (i_T q) (i_bookF q) (i_H q) (i_D q) (i_rho q) (i_ltv q) (i_sig q) (i_d q) (i_y q) (i_g q).
Lemma read_as_list q : read_param XRA (as_list q) = Ok (as_param q).
Proof. reflexivity. Qed.

(** the factor path: after i steps, i drifts and the sum of the first i shocks *)
Definition drift (q : bank_inputs) (N : nat) : R := (i_r q - i_d q - 1 / 2 * (i_sig q * i_sig q)) * (i_T q / INR N).
Definition drift_removed (q : bank_inputs) (N : nat) : R := - (1 / 2) * i_rho q * (i_sig q * i_sig q) * (i_T q / INR N).
Definition loading (q : bank_inputs) (N : nat) : R := sqrt (i_rho q) * i_sig q * sqrt (i_T q / INR N).
Lemma cumsum_from_nth acc l i : (i < length l)%nat -> nth i (cumsum_from XRA (Fin acc) (map Fin l)) (Fin 0) = Fin (acc + Rsum (firstn (S i) l)).
Proof.
  revert acc i. induction l as [|x l IH]; intros acc i Hi; [cbn in Hi; lia|]. cbn [map cumsum_from]. cbn [nadd XRA xadd]. destruct i as [|i].
  - cbn [nth firstn Rsum]. f_equal. ring.
  - cbn [nth]. rewrite IH by (cbn [length] in Hi; lia). cbn [firstn Rsum]. f_equal. ring.
Qed.
Lemma cumulated_nth l i : (i <= length l)%nat -> nth i (Fin 0 :: np_cumsum XRA (map Fin l)) (Fin 0) = Fin (Rsum (firstn i l)).
Proof.
  intros Hi. destruct i as [|i]; [reflexivity|]. cbn [nth]. destruct l as [|x l]; [cbn in Hi; lia|]. cbn [map np_cumsum]. destruct i as [|i].
  - cbn [nth firstn Rsum]. f_equal. ring.
  - cbn [nth]. rewrite cumsum_from_nth by (cbn [length] in Hi; lia). cbn [firstn Rsum]. reflexivity.
Qed.
Lemma Rsum_affine a c l : Rsum (map (fun w => a + c * w) l) = INR (length l) * a + c * Rsum l.
Proof. induction l; cbn [map Rsum length]; [simpl; ring|]. rewrite IHl, S_INR. ring. Qed.
Lemma path_affine (a c : R) (row : list R) i : (i <= length row)%nat ->
  nth i (Fin 0 :: np_cumsum XRA (map Fin (map (fun w => a + c * w) row))) (Fin 0) = Fin (INR i * a + c * Rsum (firstn i row)).
Proof. intros Hi. rewrite cumulated_nth by (rewrite map_length; auto). rewrite firstn_map, Rsum_affine, firstn_length, Nat.min_l by auto. reflexivity. Qed.
Lemma sqrt_dt q N : valid_inputs q -> (0 < N)%nat -> 0 < INR N /\ 0 < i_T q / INR N /\ xdiv (Fin (i_T q)) (Fin (INR N)) = Fin (i_T q / INR N) /\
  xsqrt (Fin (i_T q / INR N)) = Fin (sqrt (i_T q / INR N)) /\ xsqrt (Fin (i_rho q)) = Fin (sqrt (i_rho q)).
Proof.
  intros (HT & Hr & _) HN. assert (HNR : 0 < INR N) by (apply lt_0_INR; auto). assert (0 < i_T q / INR N) by (apply Rdiv_lt_0_compat; auto).
  repeat split; auto; [apply xdiv_fin; lra|apply xsqrt_fin; lra|apply xsqrt_fin; lra].
Qed.
Lemma factor_path_nth q N row i : valid_inputs q -> (0 < N)%nat -> (i <= length row)%nat ->
  nth i (factor_path XRA (as_param q) N (map Fin row)) (Fin 0) = Fin (INR i * drift q N + loading q N * Rsum (firstn i row)).
Proof.
  intros HV HN Hi. destruct (sqrt_dt q N HV HN) as (HNR & HD & E1 & E2 & E3). rewrite <- path_affine by auto. unfold factor_path, as_param, params_of.
  cbn [p_T p_rho p_sig p_r p_d]. rewrite ofN_fin. cbn [ndiv nsqrt nmul nadd nsub nsq lit ofZ XRA]. rewrite E1, E2, E3. rewrite !map_map.
  do 3 f_equal. apply map_ext. intros w. cbn [xmul xadd xsub xsq]. unfold drift, loading. do 3 f_equal. lra.
Qed.
Lemma removed_path_nth q N row i : valid_inputs q -> (0 < N)%nat -> (i <= length row)%nat ->
  nth i (removed_path XRA (as_param q) N (map Fin row)) (Fin 0) = Fin (INR i * drift_removed q N + loading q N * Rsum (firstn i row)).
Proof.
  intros HV HN Hi. destruct (sqrt_dt q N HV HN) as (HNR & HD & E1 & E2 & E3). rewrite <- path_affine by auto. unfold removed_path, as_param, params_of.
  cbn [p_T p_rho p_sig p_r p_d]. rewrite ofN_fin. cbn [ndiv nsqrt nmul nadd nsub nsq nopp lit ofZ XRA]. rewrite E1, E2, E3. rewrite !map_map.
  do 3 f_equal. apply map_ext. intros w. cbn [xmul xadd xsub xsq xopp]. unfold drift_removed, loading. do 3 f_equal. lra.
Qed.

(** ** C80: the shocks before the valuation date cancel *)
(** sum of the shocks of periods s+1 .. e of a path *)
Definition window (row : list R) (s e : nat) : R := Rsum (firstn e row) - Rsum (firstn s row).
Definition realised (q : bank_inputs) (N HN : nat) (row : list R) (j : nat) : cohort_factors XRA :=
  let a := drift q N in let b := drift_removed q N in let c := loading q N in
  mk_cf XRA (Fin (INR N * a - INR (N - j) * b + c * window row N (N + j)))
        (Fin (INR N * a + c * window row (N + j) (2 * N + j)))
        (Fin (INR (N - j) * (a - b)))
        (Fin (INR (N - j + HN) * a - INR (N - j) * b + c * window row N (N + HN)))
        (Fin ((INR HN - INR j) * a + c * (window row N (N + HN) - window row N (N + j)))).
Lemma cohort_of_fin q N HN row j : valid_inputs q -> (j < N)%nat -> (HN < N)%nat -> length row = (3 * N)%nat ->
  cohort_of XRA (as_param q) N HN (map Fin row) j = realised q N HN row j.
Proof.
  intros HV Hj HH HL. assert (HNp : (0 < N)%nat) by lia. unfold cohort_of, realised. change (ofZ (a:=XRA) 0) with (Fin 0). change (num XRA) with xr.
  rewrite !factor_path_nth, !removed_path_nth by (auto; lia). cbn [nsub XRA xsub]. unfold window.
  f_equal; f_equal; rewrite ?plus_INR, ?mult_INR, ?minus_INR by lia; rewrite ?plus_INR, ?mult_INR, ?minus_INR by lia; simpl (INR 2); ring.
Qed.
Lemma Rsum_firstn_split (l : list R) s e : (s <= e)%nat -> Rsum (firstn e l) - Rsum (firstn s l) = Rsum (firstn (e - s) (skipn s l)).
Proof.
  intros H. replace (firstn e l) with (firstn s l ++ firstn (e - s) (skipn s l)); [rewrite Rsum_app; ring|].
  revert l e H. induction s as [|s IH]; intros l e H; [cbn [firstn skipn app]; f_equal; lia|]. destruct l as [|x l]; [rewrite ?skipn_nil, ?firstn_nil; reflexivity|].
  destruct e as [|e]; [lia|]. cbn [firstn skipn app Nat.sub]. f_equal. apply IH. lia.
Qed.
(** the shocks that can matter: those of periods N+1 .. 3N-1 *)
Definition later_shocks (N : nat) (row : list R) : list R := firstn (2 * N - 1) (skipn N row).
Lemma window_later N s e row row' : (N <= s)%nat -> (s <= e)%nat -> (e <= 3 * N - 1)%nat -> later_shocks N row = later_shocks N row' -> window row s e = window row' s e.
Proof.
  intros H1 H2 H3 HE. assert (G : forall t r, (N <= t)%nat -> (t <= 3 * N - 1)%nat -> window r N t = Rsum (firstn (t - N) (later_shocks N r))).
  { intros t r Ht Ht2. unfold window. rewrite Rsum_firstn_split by auto. unfold later_shocks. rewrite firstn_firstn. do 2 f_equal. lia. }
  assert (W : forall r, window r s e = window r N e - window r N s) by (intros; unfold window; ring). rewrite !W, !G by lia. rewrite HE. reflexivity.
Qed.
Lemma realised_later q N HN row row' j : (j < N)%nat -> (HN < N)%nat -> later_shocks N row = later_shocks N row' -> realised q N HN row j = realised q N HN row' j.
Proof.
  intros Hj HH HE. unfold realised. rewrite !(window_later N _ _ row row') by (auto; lia). reflexivity.
Qed.
Lemma aHmat_horizon (A : Arith) N HN l : (0 <= HN)%Z -> aHmat A N HN = Ok l -> (HN < Z.of_nat N)%Z.
Proof. intros H0 H. apply (C71_accepts A N HN H0). eauto. Qed.
(** all outputs are the same for any two shock matrices that agree in periods N+1 .. 3N-1: shocks up to the valuation date
    and the last column are ignored.  (Exact arithmetic; any solver, rounding and smoothing functions.) *)
Theorem C80_early_shocks_cancel : forall spectral round9 as_int solve fs q N w w' HN, valid_inputs q -> (0 < N)%nat ->
  Forall (fun row => length row = (3 * N)%nat) w -> Forall (fun row => length row = (3 * N)%nat) w' ->
  map (later_shocks N) w = map (later_shocks N) w' ->
  horizon XRA as_int N (as_param q) = Ok HN -> (0 <= HN)%Z ->
  mod_merton_computation XRA spectral round9 as_int solve fs (as_list q) N (map (map Fin) w) =
  mod_merton_computation XRA spectral round9 as_int solve fs (as_list q) N (map (map Fin) w').
Proof.
  intros sp r9 ai so fs q N w w' HN HV HNp HF HF' HE HH H0. unfold mod_merton_computation. rewrite read_as_list. cbn [bind]. rewrite HH. cbn [bind].
  destruct (aHmat XRA N HN) as [aH|] eqn:EA; [|reflexivity]. cbn [bind]. apply aHmat_horizon in EA; [|auto]. f_equal.
  rewrite !map_map. revert w' HF' HE. induction w as [|row w IH]; intros [|row' w'] HF' HE; try discriminate; [reflexivity|].
  cbn [map] in *. injection HE as H1 H2. inversion HF; inversion HF'; subst. f_equal; [|apply IH; auto].
  apply map_ext_in. intros j Hj. apply in_seq in Hj. rewrite !cohort_of_fin by (auto; lia). apply realised_later; auto; lia.
Qed.
(** a non-trivial instance: two different matrices with the same later shocks *)
Example C80_case : map (later_shocks 2) [[1; 2; 3; 4; 5; 6]] = map (later_shocks 2) [[7; 8; 3; 4; 5; 9]].
Proof. reflexivity. Qed.
