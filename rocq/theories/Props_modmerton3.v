(** * C70, C81, C83, C84: mod_merton_computation from its arguments to its results *)
From Coq Require Import Reals Lra List ZArith Lia Bool Permutation.
From Verif Require Import Arith XR RealAux Gauss Fourier Model_option Props_option Props_cca Model_merton Props_fftsmooth Props_loans Props_modmerton Props_modmerton2.
Import ListNotations.
Local Open Scope R_scope.

(** ** Specification: what the simulation computes, over the reals *)
(** The yield equation the solver is given, and the face value a yield mu promises on a loan of bookF *)
Definition yield_equation (q : bank_inputs) (mu : xr) : xr :=
  find_face_value_indiv XRA mu (xmul (Fin (i_bookF q)) (xexp (xmul mu (Fin (i_T q))))) (Fin (ln (i_bookF q) - ln (i_ltv q)))
    (Fin (i_sig q)) (Fin (i_T q)) (Fin (i_r q)) (Fin (i_d q)).
Definition promised_face (q : bank_inputs) (mu : R) : R := i_bookF q * exp (mu * i_T q).
(** log collateral at origination: the loan-to-value ratio is ltv *)
Definition origin (q : bank_inputs) : R := ln (i_bookF q) - ln (i_ltv q).
(** growth of the common factor: first loan until its maturity, second loan until its maturity, first loan until t+H, second loan until t+H;
    shocks up to the valuation date t (period N) are replaced by their mean *)
Definition g_first (q : bank_inputs) (N : nat) (row : list R) (j : nat) : R := INR N * drift q N - INR (N - j) * drift_removed q N + loading q N * window row N (N + j).
Definition g_second (q : bank_inputs) (N : nat) (row : list R) (j : nat) : R := INR N * drift q N + loading q N * window row (N + j) (2 * N + j).
Definition g_first_H (q : bank_inputs) (N HN : nat) (row : list R) (j : nat) : R := INR (N - j + HN) * drift q N - INR (N - j) * drift_removed q N + loading q N * window row N (N + HN).
Definition g_second_H (q : bank_inputs) (N HN : nat) (row : list R) (j : nat) : R := (INR HN - INR j) * drift q N + loading q N * (window row N (N + HN) - window row N (N + j)).
(** fraction of its life a loan of cohort j has behind it at t, and (as the code computes it) at t+H *)
Definition age (N j : nat) : R := INR (N - j) / INR N.
Definition age_H (N HN j : nat) : R := if Nat.leb j HN then INR (HN - j) / INR N else INR (N - (j - HN)) / INR N.
Definition jensen (q : bank_inputs) (a : R) : R := exp (1 / 2 * (1 - i_rho q) * (i_T q * a) * (i_sig q * i_sig q)).
(** the k-th factor state, as a shock to cohort j: block 0 plain, block 1 moved up and block 2 moved down by a tenth of the factor volatility *)
Definition state_shock (q : bank_inputs) (N : nat) (fs : list R) (j k : nat) : R :=
  let s := length fs in
  nth (Nat.modulo k s) fs 0 * (sqrt (i_rho q) * i_sig q) * sqrt (i_T q) * age N j
  + sqrt (i_rho q) * i_sig q / 10 * (if Nat.ltb k s then 0 else if Nat.ltb k (2 * s) then 1 else -1).
(** cohorts j < HN are rolled over into a second loan before t+H *)
Definition first_repayment q N fs mu row j k : R :=
  payoff (promised_face q mu) (g_first q N row j + state_shock q N fs j k) (origin q) (i_rho q) (i_sig q) (i_T q).
(** payoff of the loan outstanding at t+H per unit of its size, and the borrower assets it is conditioned on *)
Definition unit_payoff q N HN fs mu row j k : R :=
  if Nat.ltb j HN then payoff (promised_face q mu) (g_second q N row j) (origin q) (i_rho q) (i_sig q) (i_T q)
  else first_repayment q N fs mu row j k.
Definition unit_assets q N HN fs row j k : R :=
  (if Nat.ltb j HN then exp (g_second_H q N HN row j + origin q) else exp (g_first_H q N HN row j + state_shock q N fs j k + origin q)) * jensen q (age_H N HN j).
(** size of the loan outstanding at t+H: a rolled-over loan is as large as the repayment of the first one *)
Definition size q N HN fs mu row j k : R := if Nat.ltb j HN then first_repayment q N fs mu row j k / i_bookF q else 1.
(** periods from t+H to the maturity of the loan outstanding then *)
Definition periods (N HN j : nat) : nat := if Nat.ltb j HN then (N + j - HN)%nat else (j - HN)%nat.
Definition discount (q : bank_inputs) (N m : nat) : R := exp (- i_r q * INR m * (i_T q / INR N)).
(** scenarios are numbered p = path + paths * state *)
Definition scenarios {X} (f : list R -> nat -> X) (w : list (list R)) (states : nat) : list X :=
  map (fun p => f (nth (Nat.modulo p (length w)) w []) (Nat.div p (length w))) (seq 0 (length w * states)).
(** position of a number in a list *)
Fixpoint index_of (p : nat) (l : list nat) : nat := match l with [] => 0%nat | x :: l' => if Nat.eqb x p then 0%nat else S (index_of p l') end.
(** conditional expectation by local averaging: order the scenarios by their assets, smooth the payoffs, read off scenario p *)
Definition local_average (order : list nat) (vals : list R) (h p : nat) : R := smoothed (map (fun t => nth t vals 0) order) h (index_of p order).
Definition asset_order (round9 : xr -> xr) (assets : list R) : list nat := argsort XRA (map round9 (map Fin assets)).
Definition loan_value_H round9 q N HN fs mu w j i k : R :=
  let n := (length w * (3 * length fs))%nat in
  size q N HN fs mu (nth i w []) j k *
  local_average (asset_order round9 (scenarios (fun row k => unit_assets q N HN fs row j k) w (3 * length fs)))
                (scenarios (fun row k => unit_payoff q N HN fs mu row j k) w (3 * length fs)) (Nat.div (Nat.div n 20) 2) (i + length w * k).
(** averages over the cohorts, one row per path and one column per state *)
Definition table {X} (f : nat -> nat -> X) (rows cols : nat) : list (list X) := map (fun i => map (fun k => f i k) (seq 0 cols)) (seq 0 rows).
Definition over_cohorts (N : nat) (f : nat -> R) : R := Rmean (map f (seq 0 N)).
Definition portfolio round9 q N HN fs mu w : list (list R) :=
  table (fun i k => over_cohorts N (fun j => loan_value_H round9 q N HN fs mu w j i k * discount q N (periods N HN j))) (length w) (3 * length fs).

(** ** Proofs *)
Lemma mapM_ok {X Y} (f : X -> res Y) (g : X -> Y) l : (forall x, In x l -> f x = Ok (g x)) -> mapM f l = Ok (map g l).
Proof.
  induction l as [|x l IH]; intros H; [reflexivity|]. cbn [mapM map]. rewrite H by (left; auto). cbn [bind]. rewrite IH by (intros; apply H; right; auto). reflexivity.
Qed.
Lemma mapM_err {X Y} (f : X -> res Y) l e : l <> [] -> (forall x, In x l -> f x = Err e) -> mapM f l = Err e.
Proof. destruct l as [|x l]; [congruence|]. intros _ H. cbn [mapM]. rewrite H by (left; auto). reflexivity. Qed.
Lemma index_of_nth l t : NoDup l -> (t < length l)%nat -> index_of (nth t l 0%nat) l = t.
Proof.
  revert t. induction l as [|x l IH]; intros t HD Ht; [cbn in Ht; lia|]. inversion HD; subst. destruct t as [|t]; cbn [nth index_of].
  - rewrite Nat.eqb_refl. reflexivity.
  - cbn [length] in Ht. destruct (Nat.eqb_spec x (nth t l 0%nat)) as [E|E]; [|f_equal; apply IH; auto; lia]. exfalso. apply H1. rewrite E. apply nth_In. lia.
Qed.
Lemma inverse_index_of n ind p : Permutation ind (seq 0 n) -> (p < n)%nat -> nth p (inverse_index ind) 0%nat = index_of p ind.
Proof.
  intros HP Hp. destruct (perm_position n ind p HP Hp) as (t & Ht & <-). rewrite (inverse_index_at n) by auto. symmetry. apply index_of_nth.
  - apply (Permutation_NoDup (Permutation_sym HP)), seq_NoDup.
  - rewrite (Permutation_length HP), seq_length. auto.
Qed.
Lemma index_of_lt l p : In p l -> (index_of p l < length l)%nat.
Proof. induction l as [|x l IH]; intros H; [destruct H|]. cbn [index_of length]. destruct (Nat.eqb_spec x p); [lia|]. destruct H as [H|H]; [congruence|]. apply IH in H. lia. Qed.
Lemma asset_order_perm round9 keys : Permutation (asset_order round9 keys) (seq 0 (length keys)).
Proof. unfold asset_order. assert (H := argsort_perm XRA (map round9 (map Fin keys))). rewrite !map_length in H. exact H. Qed.
(** smoothing finite values: with a window of at least two *)
Lemma smooth_by_fin round9 keys vals h : length vals = length keys -> Nat.even (length keys) = true -> (1 <= h)%nat -> (2 * h + 2 <= length keys)%nat ->
  smooth_by XRA round9 (fun l => fftsmooth XRA exact_spectral l (2 * h)) (map Fin keys) (map Fin vals) =
  Ok (map Fin (map (local_average (asset_order round9 keys) vals h) (seq 0 (length keys)))).
Proof.
  intros HL HE H1 H2. unfold smooth_by. set (ind := asset_order round9 keys).
  assert (HP : Permutation ind (seq 0 (length keys))) by apply asset_order_perm.
  assert (LI : length ind = length keys) by (rewrite (Permutation_length HP), seq_length; auto).
  assert (ES : map (fun p => nth p (map Fin vals) (ofZ (a:=XRA) 0)) ind = map Fin (map (fun t => nth t vals 0) ind)).
  { rewrite map_map. apply map_ext. intros t. change (ofZ (a:=XRA) 0) with (Fin 0). apply map_nth. }
  change (num XRA) with xr in *. change (ofZ (a:=XRA) 0) with (Fin 0) in *. change (argsort XRA (map round9 (map Fin keys))) with ind. rewrite ES. assert (LM : length (map (fun t => nth t vals 0) ind) = length keys) by (rewrite map_length; auto).
  rewrite C66_moving_average by (rewrite ?LM; auto). cbn [bind]. f_equal. rewrite (map_length Fin keys), LM, !map_map. apply map_ext_in. intros p Hp. apply in_seq in Hp.
  rewrite (inverse_index_of (length keys)) by (auto; lia). 
  assert (HX : (index_of p ind < length keys)%nat). { rewrite <- LI. apply index_of_lt. apply (Permutation_in _ (Permutation_sym HP)). apply in_seq. lia. }
  rewrite (nth_map_seq (fun x => Fin (smoothed (map (fun t => nth t vals 0) ind) h x))) by auto. reflexivity.
Qed.
(** a window of zero: everything becomes 0 *)
Lemma smooth_by_zero round9 keys vals : length vals = length keys -> Nat.even (length keys) = true -> length keys <> 0%nat ->
  smooth_by XRA round9 (fun l => fftsmooth XRA exact_spectral l 0) (map Fin keys) (map Fin vals) = Ok (repeat (Fin 0) (length keys)).
Proof.
  intros HL HE H1. unfold smooth_by. set (ind := asset_order round9 keys).
  assert (HP : Permutation ind (seq 0 (length keys))) by apply asset_order_perm.
  assert (LI : length ind = length keys) by (rewrite (Permutation_length HP), seq_length; auto).
  assert (ES : map (fun p => nth p (map Fin vals) (ofZ (a:=XRA) 0)) ind = map Fin (map (fun t => nth t vals 0) ind)).
  { rewrite map_map. apply map_ext. intros t. change (ofZ (a:=XRA) 0) with (Fin 0). apply map_nth. }
  change (num XRA) with xr in *. change (ofZ (a:=XRA) 0) with (Fin 0) in *. change (argsort XRA (map round9 (map Fin keys))) with ind. rewrite ES. assert (LM : length (map (fun t => nth t vals 0) ind) = length keys) by (rewrite map_length; auto).
  rewrite C66_zero_window_returns_zeros by (rewrite ?LM; auto). cbn [bind]. rewrite LM, (map_length Fin keys). f_equal.
  change (ofZ (a:=XRA) 0) with (Fin 0). transitivity (map (fun _ : nat => Fin 0) (seq 0 (length keys))).
  - apply map_ext. intros p. rewrite nth_repeat'. destruct (Nat.ltb _ _); reflexivity.
  - clear. generalize 0%nat. induction (length keys) as [|m IH]; intros a; [reflexivity|]. cbn [seq map repeat]. f_equal. apply IH.
Qed.

(** one cell (path, cohort, state) *)
Lemma exp_origin q : valid_inputs q -> exp (origin q) = i_bookF q / i_ltv q.
Proof. intros (_ & _ & _ & HB & HL). unfold origin. replace (ln (i_bookF q) - ln (i_ltv q)) with (ln (i_bookF q / i_ltv q)); [apply exp_ln, Rdiv_lt_0_compat; auto|]. unfold Rdiv. rewrite ln_mult, ln_Rinv by (auto; apply Rinv_0_lt_compat; auto). ring. Qed.
Lemma promised_ok q mu : valid_inputs q -> loan_ok (promised_face q mu) (i_rho q) (i_sig q) (i_T q).
Proof. intros (HT & Hr & Hs & HB & HL). repeat split; auto; try lra. apply Rmult_lt_0_compat; [auto|apply exp_pos]. Qed.
Lemma first_repayment_pos q N fs mu row j k : valid_inputs q -> 0 < first_repayment q N fs mu row j k.
Proof. intros HV. apply payoff_bounds, promised_ok, HV. Qed.
Lemma log_size q x : valid_inputs q -> 0 < x -> ln (x / i_ltv q) = origin q + ln (x / i_bookF q).
Proof.
  intros (_ & _ & _ & HB & HL) Hx. unfold origin, Rdiv. rewrite !ln_mult, !ln_Rinv by (auto; apply Rinv_0_lt_compat; auto). ring.
Qed.
(** C83: the rolled-over loan, descaled *)
Theorem C83_descaling : forall q mu f x, valid_inputs q -> 0 < x ->
  let c := x / i_bookF q in
  payoff (x * exp (mu * i_T q)) f (ln (x / i_ltv q)) (i_rho q) (i_sig q) (i_T q) / c = payoff (promised_face q mu) f (origin q) (i_rho q) (i_sig q) (i_T q) /\
  (forall g, exp (g + ln (x / i_ltv q)) / c = exp (g + origin q)).
Proof.
  intros q mu f x HV Hx c. assert (HV' := HV). destruct HV as (_ & _ & _ & HB & HL). assert (Hc : 0 < c) by (apply Rdiv_lt_0_compat; auto). split.
  - rewrite log_size by auto. replace (x * exp (mu * i_T q)) with (c * promised_face q mu) by (unfold c, promised_face; field; lra).
    fold c. rewrite (proj1 (payoff_scaling c _ f (origin q) _ _ _ (promised_ok q mu HV') Hc)). field. lra.
  - intros g. rewrite log_size by auto. fold c. replace (g + (origin q + ln c)) with (ln c + (g + origin q)) by ring. rewrite exp_plus, exp_ln by auto. field. lra.
Qed.
Definition cell_spec q N HN fs mu row j k : cell XRA :=
  mk_cell XRA (Fin (size q N HN fs mu row j k)) (Fin (unit_assets q N HN fs row j k)) (Fin (unit_payoff q N HN fs mu row j k))
    (Fin (size q N HN fs mu row j k * promised_face q mu * discount q N (periods N HN j)))
    (Fin (exp (INR (N - j) * (drift q N - drift_removed q N) + state_shock q N fs j k + origin q) * jensen q (age N j))).
Lemma state_shock_fin q N fs j k : valid_inputs q -> (j < N)%nat -> (k < 3 * length fs)%nat ->
  shock XRA (as_param q) N (length fs) (map Fin fs) j k = Fin (state_shock q N fs j k).
Proof.
  intros (HT & Hr & Hs & HB & HL) Hj Hk. unfold shock, state_shock, as_param, params_of, atmat. cbn [p_rho p_sig p_T]. rewrite ofN_fin.
  assert (HN : 0 < INR N) by (apply lt_0_INR; lia).
  assert (E : nth k (map Fin fs ++ map Fin fs ++ map Fin fs) (ofZ (a:=XRA) 0) = Fin (nth (Nat.modulo k (length fs)) fs 0)).
  { change (ofZ (a:=XRA) 0) with (Fin 0). rewrite <- !map_app. change (num XRA) with xr. rewrite map_nth. f_equal. set (s := length fs) in *.
    destruct (Nat.ltb_spec k s); [rewrite app_nth1, Nat.mod_small by auto; reflexivity|]. rewrite app_nth2 by auto. fold s.
    destruct (Nat.ltb_spec (k - s) s) as [L|L].
    - rewrite app_nth1 by auto. f_equal. symmetry. replace k with ((k - s) + 1 * s)%nat at 1 by lia. rewrite Nat.mod_add, Nat.mod_small by lia. reflexivity.
    - rewrite app_nth2 by auto. fold s. f_equal. symmetry. replace k with ((k - s - s) + 2 * s)%nat at 1 by lia. rewrite Nat.mod_add, Nat.mod_small by lia. reflexivity. }
  change (num XRA) with xr in *. rewrite E. cbn [nsqrt nmul nadd ndiv nopp ofZ XRA]. rewrite !xsqrt_fin by lra. rewrite xdiv_fin by lra. cbn [xmul].
  rewrite (xdiv_fin _ 10) by lra. unfold age. replace (IZR (Z.of_nat N - Z.of_nat j)) with (INR (N - j)) by (rewrite INR_IZR_INZ, Nat2Z.inj_sub by lia; reflexivity).
  cbv zeta. destruct (Nat.ltb k (length fs)), (Nat.ltb k (2 * length fs)); cbn [xmul xadd xopp]; f_equal; lra.
Qed.
Lemma rolled_nat HN j : rolled (Z.of_nat HN) j = Nat.ltb j HN.
Proof. unfold rolled. apply eq_true_iff_eq. rewrite Z.ltb_lt, Nat.ltb_lt. lia. Qed.
Lemma cell_fin q N HN fs mu row j k : valid_inputs q -> (j < N)%nat -> (HN < N)%nat -> length row = (3 * N)%nat -> (k < 3 * length fs)%nat ->
  cohort_cell XRA (as_param q) N (Z.of_nat HN) (Fin (origin q)) (Fin mu) (Fin (promised_face q mu)) (Fin (age_H N HN j))
    (shock XRA (as_param q) N (length fs) (map Fin fs) j k) (cohort_of XRA (as_param q) N HN (map Fin row) j) j = cell_spec q N HN fs mu row j k.
Proof.
  intros HV Hj HH HL Hk. rewrite state_shock_fin, cohort_of_fin by auto. assert (HO := promised_ok q mu HV). assert (HNR : 0 < INR N) by (apply lt_0_INR; lia).
  assert (HP := first_repayment_pos q N fs mu row j k HV). assert (HV' := HV). destruct HV as (HT & Hr & Hs & HB & Hl).
  unfold cohort_cell, realised. cbn [c_f1 c_f2 c_ft c_fH1 c_fH2]. fold (g_first q N row j) (g_second q N row j) (g_first_H q N HN row j) (g_second_H q N HN row j).
  unfold as_param, params_of. cbn [p_rho p_sig p_T p_ltv p_bookF p_r]. cbn [nadd XRA xadd]. rewrite C67_face_minus_put by auto. fold (first_repayment q N fs mu row j k).
  set (L1 := first_repayment q N fs mu row j k) in *. cbn [nlog ndiv nexp nmul XRA xmul xexp]. rewrite (xdiv_fin L1 (i_ltv q)) by lra.
  rewrite (xlog_fin (L1 / i_ltv q)) by (apply Rdiv_lt_0_compat; auto). rewrite C67_face_minus_put by (repeat split; auto; try lra; apply Rmult_lt_0_compat; [auto|apply exp_pos]).
  rewrite rolled_nat. unfold cell_spec, size, unit_assets, unit_payoff. fold L1. rewrite ofN_fin. unfold atmat. rewrite ofN_fin.
  rewrite (xdiv_fin (i_T q)) by lra. cbn [ofZ XRA]. rewrite (xdiv_fin _ (INR N)) by lra.
  assert (Hc : 0 < L1 / i_bookF q) by (apply Rdiv_lt_0_compat; auto). rewrite (xdiv_fin L1 (i_bookF q)) by lra.
  replace (IZR (Z.of_nat N - Z.of_nat j)) with (INR (N - j)) by (rewrite INR_IZR_INZ, Nat2Z.inj_sub by lia; reflexivity).
  cbn [lit nsub nsq nopp XRA xsub xmul xadd xexp xsq xopp]. replace (5 / 10) with (1 / 2) by lra. fold (jensen q (age_H N HN j)).
  change (INR (N - j) / INR N) with (age N j). fold (jensen q (age N j)).
  unfold periods. destruct (Nat.ltb_spec j HN) as [L|L].
  - rewrite !(xdiv_fin _ (L1 / i_bookF q)) by lra. cbn [xadd xmul]. assert (D := C83_descaling q mu (g_second q N row j) L1 HV' HP). cbv zeta in D. destruct D as (D1 & D2).
    f_equal; f_equal.
    + rewrite <- D2. unfold jensen. field. lra.
    + rewrite Rplus_0_l. exact D1.
    + unfold discount, promised_face. replace (IZR (Z.of_nat j - Z.of_nat HN + Z.of_nat N)) with (INR (N + j - HN)) by (rewrite INR_IZR_INZ; f_equal; lia). field. lra.
  - cbn [xadd xmul]. f_equal; f_equal; try (unfold jensen; ring).
    unfold discount, promised_face. replace (IZR (Z.of_nat j - Z.of_nat HN)) with (INR (j - HN)) by (rewrite INR_IZR_INZ; f_equal; lia). ring.
Qed.

(** ** The whole computation *)
(** what a call needs: HN = H*N/T is a whole number of periods, 0 <= HN < N; every path has 3N shocks; at least one path and one state *)
Definition valid_call (q : bank_inputs) (N HN : nat) (fs : list R) (w : list (list R)) : Prop :=
  valid_inputs q /\ (HN < N)%nat /\ i_H q * (INR N / i_T q) = INR HN /\ w <> [] /\ Forall (fun row => length row = (3 * N)%nat) w /\ fs <> [].
Lemma age_H_fin N HN l : (HN < N)%nat -> aHmat XRA N (Z.of_nat HN) = Ok l -> forall j, (j < N)%nat -> nth j l (Fin 0) = Fin (age_H N HN j).
Proof.
  intros HH HL j Hj. destruct (C71_accumulated_life XRA N (Z.of_nat HN) j ltac:(lia) Hj) as (l' & E & _ & G & _). rewrite HL in E. injection E as <-.
  change (ofZ (a:=XRA) 0) with (Fin 0) in G. change (num XRA) with xr in *. etransitivity; [exact G|]. clear G. assert (HNR : 0 < INR N) by (apply lt_0_INR; lia).
  cbn [ndiv ofZ XRA]. rewrite <- INR_IZR_INZ. rewrite !xdiv_fin by lra. unfold age_H.
  destruct (Z.leb_spec (Z.of_nat j) (Z.of_nat HN)), (Nat.leb_spec j HN); try lia; do 2 f_equal; rewrite INR_IZR_INZ; f_equal; lia.
Qed.
Lemma horizon_valid q N HN fs w : valid_call q N HN fs w -> horizon XRA exact_int N (as_param q) = Ok (Z.of_nat HN).
Proof.
  intros (HV & HH & HE & _). destruct HV as (HT & _). apply (proj1 (C72_horizon (as_param q) N (i_H q) (i_T q) eq_refl eq_refl ltac:(lra)) (Z.of_nat HN)). rewrite <- INR_IZR_INZ. exact HE.
Qed.
(** the table of cells the code builds *)
Definition cells q N HN fs mu w j : list (cell XRA) := scenarios (fun row k => cell_spec q N HN fs mu row j k) w (3 * length fs).
Lemma scenarios_map {X Y} (g : X -> Y) f w s : map g (scenarios f w s) = scenarios (fun row k => g (f row k)) w s.
Proof. unfold scenarios. apply map_map. Qed.
Lemma scenarios_length {X} (f : list R -> nat -> X) w s : length (scenarios f w s) = (length w * s)%nat.
Proof. unfold scenarios. rewrite map_length, seq_length. reflexivity. Qed.
Lemma scenarios_nth {X} (f : list R -> nat -> X) w s i k d : (i < length w)%nat -> (k < s)%nat -> nth (i + length w * k) (scenarios f w s) d = f (nth i w []) k.
Proof.
  intros Hi Hk. unfold scenarios. rewrite nth_map_seq by nia. rewrite (Nat.mul_comm (length w) k), Nat.mod_add, Nat.mod_small by lia.
  rewrite Nat.div_add, Nat.div_small by lia. reflexivity.
Qed.
Lemma amean_cohorts N (f : nat -> xr) (g : nat -> R) : (0 < N)%nat -> (forall j, (j < N)%nat -> f j = Fin (g j)) -> amean XRA (map f (seq 0 N)) = Fin (over_cohorts N g).
Proof.
  intros HN H. rewrite (map_ext_in _ (fun j => Fin (g j))) by (intros j Hj; apply in_seq in Hj; apply H; lia).
  rewrite <- map_map. rewrite amean_fin; [reflexivity|]. destruct N; [lia|discriminate].
Qed.
Lemma map2_fin_mul (u v : list R) : map2 (fun a b => xmul a b) (map Fin u) (map Fin v) = map Fin (map2 Rmult u v).
Proof. revert v. induction u as [|x u IH]; intros [|y v]; try reflexivity. cbn [map map2]. f_equal. apply IH. Qed.
Lemma map2_map_r {X Y Z U} (f : X -> Y -> Z) (g : U -> Y) l l' : map2 (fun v c => f v (g c)) l l' = map2 f l (map g l').
Proof. revert l'. induction l as [|x l IH]; intros [|y l']; try reflexivity. cbn [map map2]. f_equal. apply IH. Qed.
Definition state_mean q N fs k : R := over_cohorts N (fun j => exp (INR (N - j) * (drift q N - drift_removed q N) + state_shock q N fs j k + origin q) * jensen q (age N j)).
Lemma table_fin (f : nat -> nat -> xr) (g : nat -> nat -> R) rows cols : (forall i k, (i < rows)%nat -> (k < cols)%nat -> f i k = Fin (g i k)) ->
  map (fun i => map (fun k => f i k) (seq 0 cols)) (seq 0 rows) = map (map Fin) (table g rows cols).
Proof.
  intros H. unfold table. rewrite map_map. apply map_ext_in. intros i Hi. apply in_seq in Hi. rewrite map_map. apply map_ext_in. intros k Hk. apply in_seq in Hk. apply H; lia.
Qed.
Lemma table_firstn {X} (g : nat -> nat -> X) rows cols s : (s <= cols)%nat -> map (firstn s) (table g rows cols) = table g rows s.
Proof. intros H. unfold table. rewrite map_map. apply map_ext. intros i. apply firstn_map_seq. exact H. Qed.
Lemma table_rows {X} (g : nat -> nat -> X) rows cols : Forall (fun row => length row = cols) (table g rows cols).
Proof. apply Forall_forall. intros row H. unfold table in H. apply in_map_iff in H as (i & <- & _). rewrite map_length, seq_length. reflexivity. Qed.
Lemma table_nonempty {X} (g : nat -> nat -> X) rows cols : (0 < rows)%nat -> table g rows cols <> [].
Proof. destruct rows; [lia|discriminate]. Qed.
Lemma mean_axis0_table g rows cols : (0 < rows)%nat -> mean_axis0 XRA cols (map (map Fin) (table (fun _ k => g k) rows cols)) = map (fun k => Fin (g k)) (seq 0 cols).
Proof.
  intros HR. assert (H := mean_axis0_fin cols (fun x => x) (fun x => x) (table (fun _ k => g k) rows cols) (fun _ => eq_refl) (table_nonempty _ _ _ HR) (table_rows _ _ _)).
  rewrite (map_ext _ (fun row : list xr => row)), map_id in H by (intros; apply map_id). etransitivity; [exact H|]. apply map_ext_in. intros k Hk. apply in_seq in Hk.
  rewrite map_id. f_equal. unfold column, table. rewrite map_map. rewrite (map_ext_in _ (fun _ => g k)) by (intros i Hi; apply (nth_map_seq g); lia).
  unfold Rmean. rewrite Rsum_const, map_length, seq_length. assert (0 < INR rows) by (apply lt_0_INR; auto). field. lra.
Qed.
(** the result for any smoothed table [S j p] of finite numbers *)
Lemma value_bank_fin round9 solve q N HN fs w mu (aH : list xr) (S : nat -> nat -> R) :
  valid_call q N HN fs w -> solve (yield_equation q) (Fin (i_r q + 1 / 100)) = Fin mu -> aHmat XRA N (Z.of_nat HN) = Ok aH ->
  let n := (length w * (3 * length fs))%nat in let s := length fs in
  (forall j, (j < N)%nat -> smooth_by XRA round9 (fun l => fftsmooth XRA exact_spectral l (Nat.div n 20))
     (map Fin (scenarios (fun row k => unit_assets q N HN fs row j k) w (3 * s))) (map Fin (scenarios (fun row k => unit_payoff q N HN fs mu row j k) w (3 * s)))
     = Ok (map Fin (map (S j) (seq 0 n)))) ->
  mod_merton_computation XRA exact_spectral round9 exact_int solve (map Fin fs) (as_list q) N (map (map Fin) w) =
  Ok (mk_result XRA (settle XRA s (Fin (i_r q)) (Fin (i_H q)) (Fin (i_D q)) (Fin (i_y q)) (Fin (i_g q))
        (map (map Fin) (table (fun i k => over_cohorts N (fun j => size q N HN fs mu (nth i w []) j k * S j (i + length w * k)%nat * discount q N (periods N HN j))) (length w) (3 * s))))
        (map (fun k => Fin (state_mean q N fs k)) (seq 0 s))
        (map (map Fin) (table (fun i k => over_cohorts N (fun j => size q N HN fs mu (nth i w []) j k * promised_face q mu * discount q N (periods N HN j))) (length w) s))
        (map (map Fin) (table (fun i k => over_cohorts N (fun j => unit_assets q N HN fs (nth i w []) j k)) (length w) s))
        (Fin mu) (Fin (promised_face q mu))).
Proof.
  intros HC Hsol HaH n s HS. assert (HC' := HC). destruct HC' as (HV & HH & HE & Hw & HF & Hfs). assert (HV' := HV). destruct HV' as (HT & Hr & Hs & HB & Hl).
  unfold mod_merton_computation. rewrite read_as_list. cbn [bind]. rewrite (horizon_valid _ _ _ _ _ HC). cbn [bind]. rewrite HaH. cbn [bind].
  rewrite Nat2Z.id. set (cf := map (fun wrow => map (cohort_of XRA (as_param q) N HN wrow) (seq 0 N)) (map (map Fin) w)).
  assert (HNp : (0 < N)%nat) by lia.
  assert (Lw : (0 < length w)%nat) by (destruct w; [congruence|cbn; lia]).
  assert (Lcf : length cf = length w) by (unfold cf; rewrite !map_length; reflexivity).
  assert (HCELL : forall i j k, (i < length w)%nat -> (j < N)%nat -> (k < 3 * s)%nat ->
    cohort_cell XRA (as_param q) N (Z.of_nat HN) (Fin (origin q)) (Fin mu) (Fin (promised_face q mu)) (nth j aH (ofZ (a:=XRA) 0))
      (shock XRA (as_param q) N s (map Fin fs) j k) (nth j (nth i cf []) (mk_cf XRA (ofZ 0) (ofZ 0) (ofZ 0) (ofZ 0) (ofZ 0))) j = cell_spec q N HN fs mu (nth i w []) j k).
  { intros i j k Hi Hj Hk. change (ofZ (a:=XRA) 0) with (Fin 0). change (num XRA) with xr in *. assert (EA := age_H_fin N HN aH HH HaH j Hj). change (num XRA) with xr in EA. rewrite EA.
    unfold cf. rewrite map_map. rewrite (nth_indep _ [] ((fun row => map (cohort_of XRA (as_param q) N HN (map Fin row)) (seq 0 N)) [])) by (rewrite map_length; auto).
    rewrite (map_nth (fun row => map (cohort_of XRA (as_param q) N HN (map Fin row)) (seq 0 N))). rewrite nth_map_seq by auto.
    apply cell_fin; auto. rewrite Forall_forall in HF. apply HF, nth_In, Hi. }
  unfold value_bank. cbv zeta. rewrite Lcf. change (length (map Fin fs)) with (length (map Fin fs)).
  rewrite (map_length Fin fs). fold s. change (length w * (3 * s))%nat with n.
  cbn [p_bookF p_ltv as_param params_of nlog nsub XRA]. rewrite !xlog_fin by auto. cbn [xsub]. fold (origin q).
  match goal with |- context [solve ?f ?x] => change (solve f x) with (solve (yield_equation q) (Fin (i_r q + 1 / 100))) end. rewrite Hsol.
  cbn [nmul nexp XRA xmul xexp p_T as_param params_of]. change (i_bookF q * exp (mu * i_T q)) with (promised_face q mu).
  rewrite (mapM_ok _ (fun j => map Fin (map2 Rmult (map (S j) (seq 0 n)) (scenarios (fun row k => size q N HN fs mu row j k) w (3 * s))))).
  2:{ intros j Hj. apply in_seq in Hj. 
    match goal with |- context [map (x_FHr XRA) (map ?f (seq 0 n))] => assert (EC : map f (seq 0 n) = cells q N HN fs mu w j) end.
    { unfold cells, scenarios. apply map_ext_in. intros p Hp. apply in_seq in Hp. apply HCELL; [apply Nat.mod_upper_bound; lia|lia|]. apply Nat.div_lt_upper_bound; [lia|]. unfold n in Hp. lia. }
    rewrite EC. clear EC. unfold cells. rewrite !scenarios_map. cbn [x_FHr x_Lr cell_spec].
    assert (ES1 := HS j ltac:(lia)). rewrite !scenarios_map in ES1. change (num XRA) with xr in *.
    fold s. rewrite ES1. cbn [bind]. f_equal. rewrite <- map2_fin_mul.
    rewrite (map2_map_r xmul (x_sc XRA)). unfold cells. rewrite !scenarios_map. reflexivity. }
  cbn [bind]. f_equal. change (num XRA) with xr in *.
  assert (HNR : 0 < INR N) by (apply lt_0_INR; lia).
  f_equal.
  - unfold as_param, params_of. cbn [p_r p_H p_D p_y p_g]. f_equal. apply table_fin. intros i k Hi Hk. apply amean_cohorts; [auto|]. intros j Hj.
    rewrite nth_map_seq by auto. change (ofZ (a:=XRA) 0) with (Fin 0). change (num XRA) with xr. rewrite map_nth. rewrite rolled_nat. rewrite ofN_fin. cbn [ndiv nopp ofZ nadd XRA xopp]. rewrite xdiv_fin by lra.
    assert (EN : nth (i + length w * k) (map2 Rmult (map (S j) (seq 0 n)) (scenarios (fun row k0 => size q N HN fs mu row j k0) w (3 * s))) 0 = size q N HN fs mu (nth i w []) j k * S j (i + length w * k)%nat).
    { rewrite (map2_nth Rmult _ _ _ 0 0) by (rewrite ?map_length, ?seq_length, ?scenarios_length; unfold n; nia). rewrite nth_map_seq by (unfold n; fold s; nia). rewrite scenarios_nth by auto. ring. }
    rewrite EN. unfold periods, discount. destruct (Nat.ltb_spec j HN) as [L|L]; cbn [xmul xexp xadd]; f_equal.
    + replace (IZR (Z.of_nat j - Z.of_nat HN + Z.of_nat N)) with (INR (N + j - HN)) by (rewrite INR_IZR_INZ; f_equal; lia). ring.
    + replace (IZR (Z.of_nat j - Z.of_nat HN)) with (INR (j - HN)) by (rewrite INR_IZR_INZ; f_equal; lia). ring.
  - erewrite (table_fin _ (fun _ k => state_mean q N fs k)).
    + rewrite mean_axis0_table by auto. apply firstn_map_seq. lia.
    + intros i k Hi Hk. apply amean_cohorts; [auto|]. intros j Hj. rewrite HCELL by auto. reflexivity.
  - erewrite (table_fin _ (fun i k => over_cohorts N (fun j => size q N HN fs mu (nth i w []) j k * promised_face q mu * discount q N (periods N HN j)))).
    + rewrite <- (table_firstn _ (length w) (3 * s) s) by lia. rewrite !map_map. apply map_ext. intros row. apply firstn_map.
    + intros i k Hi Hk. apply amean_cohorts; [auto|]. intros j Hj. rewrite HCELL by auto. reflexivity.
  - erewrite (table_fin _ (fun i k => over_cohorts N (fun j => unit_assets q N HN fs (nth i w []) j k))).
    + rewrite <- (table_firstn _ (length w) (3 * s) s) by lia. rewrite !map_map. apply map_ext. intros row. apply firstn_map.
    + intros i k Hi Hk. apply amean_cohorts; [auto|]. intros j Hj. rewrite HCELL by auto. reflexivity.
Qed.

(** C70: with a window of at least two scenarios, every output is as specified *)
Theorem C70_computation : forall round9 solve q N HN fs w mu, valid_call q N HN fs w ->
  solve (yield_equation q) (Fin (i_r q + 1 / 100)) = Fin mu ->
  let n := (length w * (3 * length fs))%nat in let s := length fs in
  Nat.even n = true -> Nat.even (Nat.div n 20) = true -> (20 <= n)%nat ->
  mod_merton_computation XRA exact_spectral round9 exact_int solve (map Fin fs) (as_list q) N (map (map Fin) w) =
  Ok (mk_result XRA
        (settle XRA s (Fin (i_r q)) (Fin (i_H q)) (Fin (i_D q)) (Fin (i_y q)) (Fin (i_g q)) (map (map Fin) (portfolio round9 q N HN fs mu w)))
        (map (fun k => Fin (state_mean q N fs k)) (seq 0 s))
        (map (map Fin) (table (fun i k => over_cohorts N (fun j => size q N HN fs mu (nth i w []) j k * promised_face q mu * discount q N (periods N HN j))) (length w) s))
        (map (map Fin) (table (fun i k => over_cohorts N (fun j => unit_assets q N HN fs (nth i w []) j k)) (length w) s))
        (Fin mu) (Fin (promised_face q mu))).
Proof.
  intros r9 solve q N HN fs w mu HC Hsol n s He Hw2 Hn. destruct (proj2 (proj1 (C71_accepts XRA N (Z.of_nat HN) ltac:(lia))) ltac:(destruct HC as (_ & HH & _); lia)) as (aH & HaH).
  rewrite (value_bank_fin r9 solve q N HN fs w mu aH
     (fun j => local_average (asset_order r9 (scenarios (fun row k => unit_assets q N HN fs row j k) w (3 * s))) (scenarios (fun row k => unit_payoff q N HN fs mu row j k) w (3 * s)) (Nat.div (Nat.div n 20) 2))); auto.
  fold n. fold s. intros j Hj. apply Nat.even_spec in Hw2 as (h & Eh). assert (H20 : (1 <= Nat.div n 20)%nat) by (apply Nat.div_le_lower_bound; lia).
  rewrite Eh. replace (Nat.div (2 * h) 2) with h by (rewrite Nat.mul_comm, Nat.div_mul; lia).
  assert (H20' : (20 * Nat.div n 20 <= n)%nat) by (apply Nat.mul_div_le; lia).
  assert (LA : forall f : list R -> nat -> R, length (scenarios f w (3 * s)) = n) by (intros; apply scenarios_length).
  rewrite smooth_by_fin; rewrite ?LA; auto; try lia.
Qed.
(** Reading the result: at every factor state the bank's loans split into debt and equity, debt is worth at most its riskless value,
    the guarantee is g times the shortfall, and the default frequency is a probability *)
Corollary C70_balance_sheet : forall round9 solve q N HN fs w mu k, valid_call q N HN fs w ->
  solve (yield_equation q) (Fin (i_r q + 1 / 100)) = Fin mu ->
  let n := (length w * (3 * length fs))%nat in
  Nat.even n = true -> Nat.even (Nat.div n 20) = true -> (20 <= n)%nat -> (k < length fs)%nat ->
  exists m Lt Bt Et Gt mdef,
  mod_merton_computation XRA exact_spectral round9 exact_int solve (map Fin fs) (as_list q) N (map (map Fin) w) = Ok m /\
  nth k (b_Lt XRA (m_bank XRA m)) NaN = Fin Lt /\ nth k (b_Bt XRA (m_bank XRA m)) NaN = Fin Bt /\ nth k (b_Et XRA (m_bank XRA m)) NaN = Fin Et /\
  nth k (b_Gt XRA (m_bank XRA m)) NaN = Fin Gt /\ nth k (b_mdef XRA (m_bank XRA m)) NaN = Fin mdef /\
  Lt = Bt + Et /\ Bt <= i_D q * exp (- i_r q * i_H q) /\ Gt = i_g q * (i_D q * exp (- i_r q * i_H q) - Bt) /\ 0 <= mdef <= 1 /\
  (mdef = 0 -> Bt = i_D q * exp (- i_r q * i_H q)).
Proof.
  intros r9 solve q N HN fs w mu k HC Hsol n He Hw2 Hn Hk. assert (HW : (0 < length w)%nat) by (destruct HC as (_ & _ & _ & HW & _); destruct w; [congruence|cbn; lia]).
  set (M := portfolio r9 q N HN fs mu w). assert (HM : M <> []) by (apply table_nonempty; auto).
  destruct (C70_settlement (length fs) (i_r q) (i_H q) (i_D q) (i_y q) (i_g q) M HM (table_rows _ _ _)) as (E1 & E2 & E3 & E4 & E5 & _).
  destruct (averaged_identities (i_r q) (i_H q) (i_D q) (i_y q) (i_g q) M k HM) as (I1 & I2 & I3 & I4 & _ & I6).
  eexists. do 5 eexists. split; [apply (C70_computation r9 solve q N HN fs w mu); auto|]. fold M. cbn [m_bank]. change (num XRA) with xr in *.
  rewrite E1, E2, E3, E4, E5. repeat match goal with |- nth k (map ?f (seq 0 _)) NaN = _ /\ _ => split; [apply (nth_map_seq f); exact Hk|] end.
  repeat split; auto; apply I4.
Qed.
(** a concrete call: 2 cohorts, 14 paths, one state *)
Example C70_case : let q := Build_bank_inputs (1/100) 2 (7/10) 1 (6/10) (1/2) (6/10) (2/10) (1/200) (2/1000) (1/2) in let w := repeat [1; -1; 1/2; 0; 2; -1/2] 14 in
  valid_call q 2 1 [0] w /\ let n := (length w * (3 * length [0]))%nat in Nat.even n = true /\ Nat.even (Nat.div n 20) = true /\ (20 <= n)%nat.
Proof.
  cbv zeta. split; [|repeat split; try reflexivity; cbn; lia]. unfold valid_call, valid_inputs. cbn [i_T i_rho i_sig i_bookF i_ltv i_H]. repeat split; try lra; try lia; try discriminate; [simpl; lra|].
  apply Forall_forall. intros row H. apply repeat_spec in H. subst. reflexivity.
Qed.

(** C84: how many scenarios are needed.  n = paths * 3 * states: n and n // 20 must be even, otherwise the call raises ... *)
Theorem C84_odd_counts_raise : forall round9 solve q N HN fs w mu, valid_call q N HN fs w ->
  solve (yield_equation q) (Fin (i_r q + 1 / 100)) = Fin mu ->
  let n := (length w * (3 * length fs))%nat in
  Nat.even n = false \/ Nat.even (Nat.div n 20) = false ->
  mod_merton_computation XRA exact_spectral round9 exact_int solve (map Fin fs) (as_list q) N (map (map Fin) w) = Err AssertionError.
Proof.
  intros r9 solve q N HN fs w mu HC Hsol n Ho. destruct (proj2 (proj1 (C71_accepts XRA N (Z.of_nat HN) ltac:(lia))) ltac:(destruct HC as (_ & HH & _); lia)) as (aH & HaH).
  unfold mod_merton_computation. rewrite read_as_list. cbn [bind]. rewrite (horizon_valid _ _ _ _ _ HC). cbn [bind]. rewrite HaH. cbn [bind].
  unfold value_bank. rewrite (mapM_err _ _ AssertionError); [reflexivity|destruct HC as (_ & HH & _); destruct N; [lia|discriminate]|].
  intros j _. rewrite !map_length. fold n. unfold smooth_by. rewrite C66_odd_rejected; [reflexivity|].
  rewrite map_length. assert (LP := argsort_perm XRA). destruct Ho as [Ho|Ho]; [left|right; exact Ho].
  rewrite (Permutation_length (argsort_perm XRA _)), seq_length, !map_length, seq_length. exact Ho.
Qed.
(** ... and with fewer than 20 scenarios the call succeeds with a worthless loan portfolio in every state *)
Theorem C84_few_scenarios_worthless : forall round9 solve q N HN fs w mu, valid_call q N HN fs w ->
  solve (yield_equation q) (Fin (i_r q + 1 / 100)) = Fin mu ->
  let n := (length w * (3 * length fs))%nat in Nat.even n = true -> (n < 20)%nat ->
  exists m, mod_merton_computation XRA exact_spectral round9 exact_int solve (map Fin fs) (as_list q) N (map (map Fin) w) = Ok m /\
    b_Lt XRA (m_bank XRA m) = repeat (Fin 0) (length fs).
Proof.
  intros r9 solve q N HN fs w mu HC Hsol n He Hn. destruct (proj2 (proj1 (C71_accepts XRA N (Z.of_nat HN) ltac:(lia))) ltac:(destruct HC as (_ & HH & _); lia)) as (aH & HaH).
  assert (HW : (0 < length w)%nat) by (destruct HC as (_ & _ & _ & HW & _); destruct w; [congruence|cbn; lia]).
  assert (HF : (0 < length fs)%nat) by (destruct HC as (_ & _ & _ & _ & _ & HF); destruct fs; [congruence|cbn; lia]).
  eexists. split.
  - apply (value_bank_fin r9 solve q N HN fs w mu aH (fun _ _ => 0)); auto. fold n. intros j Hj. rewrite (Nat.div_small n 20) by auto.
    assert (LA : forall f : list R -> nat -> R, length (scenarios f w (3 * length fs)) = n) by (intros; apply scenarios_length).
    rewrite smooth_by_zero; rewrite ?LA; auto; [|unfold n; nia]. f_equal. change (num XRA) with xr. rewrite map_map. clear. generalize 0%nat. induction n as [|m IH]; intros a; [reflexivity|]. cbn [seq map repeat]. f_equal. apply IH.
  - cbn [m_bank]. rewrite (proj1 (C70_settlement (length fs) (i_r q) (i_H q) (i_D q) (i_y q) (i_g q) _ (table_nonempty _ _ _ HW) (table_rows _ _ _))).
    assert (G : forall k, Fin (Rmean (map (fun l => l) (column k (table (fun i k => over_cohorts N (fun j => size q N HN fs mu (nth i w []) j k * 0 * discount q N (periods N HN j))) (length w) (3 * length fs)))) * exp (- i_r q * i_H q)) = Fin 0).
    { intros k. f_equal. rewrite map_id. unfold column, table. rewrite map_map. unfold Rmean. rewrite Rsum_zero_map; [unfold Rdiv; ring|]. intros i _.
      destruct (Nat.ltb_spec k (3 * length fs)) as [L|L].
      - rewrite (nth_map_seq (fun k => over_cohorts N (fun j => size q N HN fs mu (nth i w []) j k * 0 * discount q N (periods N HN j)))) by auto. unfold over_cohorts, Rmean. rewrite Rsum_zero_map; [unfold Rdiv; ring|]. intros; ring.
      - apply nth_overflow. rewrite map_length, seq_length. auto. }
    rewrite (map_ext _ _ G). clear. generalize 0%nat. induction (length fs) as [|m IH]; intros a; [reflexivity|]. cbn [seq map repeat]. f_equal. apply IH.
Qed.

(** C81: the mean borrower assets mFt do not depend on the paths and have a closed form *)
Theorem C81_mean_assets : forall round9 solve q N HN fs w mu, valid_call q N HN fs w ->
  solve (yield_equation q) (Fin (i_r q + 1 / 100)) = Fin mu ->
  let n := (length w * (3 * length fs))%nat in Nat.even n = true -> Nat.even (Nat.div n 20) = true -> (20 <= n)%nat ->
  exists m, mod_merton_computation XRA exact_spectral round9 exact_int solve (map Fin fs) (as_list q) N (map (map Fin) w) = Ok m /\
    m_mFt XRA m = map (fun x => Fin (over_cohorts N (fun j => i_bookF q / i_ltv q * exp ((i_r q - i_d q) * i_T q * age N j + x * (sqrt (i_rho q) * i_sig q * sqrt (i_T q)) * age N j)))) fs.
Proof.
  intros r9 solve q N HN fs w mu HC Hsol n He Hw2 Hn. eexists. split; [apply (C70_computation r9 solve q N HN fs w mu); auto|]. cbn [m_mFt].
  assert (E : map (fun x => Fin (over_cohorts N (fun j => i_bookF q / i_ltv q * exp ((i_r q - i_d q) * i_T q * age N j + x * (sqrt (i_rho q) * i_sig q * sqrt (i_T q)) * age N j)))) fs
    = map (fun k => Fin (over_cohorts N (fun j => i_bookF q / i_ltv q * exp ((i_r q - i_d q) * i_T q * age N j + nth k fs 0 * (sqrt (i_rho q) * i_sig q * sqrt (i_T q)) * age N j)))) (seq 0 (length fs))).
  { rewrite <- (map_map (fun k => nth k fs 0) (fun x => Fin (over_cohorts N (fun j => i_bookF q / i_ltv q * exp ((i_r q - i_d q) * i_T q * age N j + x * (sqrt (i_rho q) * i_sig q * sqrt (i_T q)) * age N j))))).
    f_equal. clear. induction fs as [|x l IH]; [reflexivity|]. cbn [length seq map nth]. f_equal. rewrite <- seq_shift, map_map. exact IH. }
  rewrite E. apply map_ext_in. intros k Hk. apply in_seq in Hk. f_equal. unfold state_mean, over_cohorts. f_equal. apply map_ext_in. intros j Hj. apply in_seq in Hj.
  destruct HC as (HV & HH & _). rewrite <- (exp_origin q HV). unfold jensen. rewrite <- !exp_plus. f_equal. unfold state_shock. rewrite Nat.mod_small by lia.
  destruct (Nat.ltb_spec k (length fs)); [|lia]. unfold drift, drift_removed, age. assert (0 < INR N) by (apply lt_0_INR; lia). field. lra.
Qed.
