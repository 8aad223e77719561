(** * Property C124: the generated test data for loan_payoff are the first loans of the simulated bank *)
From Coq Require Import Reals ZArith List Bool Arith Lia Lra.
From Verif Require Import Arith XR RealAux Gauss Props_dip Props_loans Model_garch Model_option Model_merton Model_simulation Model_simulate Model_matlab Model_testdata
  Props_modmerton Props_modmerton2 Props_modmerton3 Props_simulation Props_matlab Props_simulate.
Import ListNotations.

(** element (i, j, k) of an array of three dimensions, counted from 0 *)
Definition at3 {X} (a : list (list (list X))) (i j k : nat) (d : X) : X := nth k (nth j (nth i a []) []) d.
(** an array of m x n x q elements *)
Definition shape3 {X} (a : list (list (list X))) (m n q : nat) : Prop :=
  length a = m /\ forall i, (i < m)%nat -> length (nth i a []) = n /\ forall j, (j < n)%nat -> length (nth j (nth i a []) []) = q.

Section Any.
Context (A : Arith).
Notation num := (num A).
Notation zero := (@ofZ A 0).
Local Open Scope num_scope.

(** the parameters simulate() passes to mod_merton_computation *)
Definition bank_param : param A := mk_param A (s_r A) (s_T A) (s_bookF A) (s_H A) (s_D A) (lit 5 10) (s_ltv A) (lit 2 10) (s_d A) (s_y A) (s_g A).
Definition bank_list : list num := [s_r A; s_T A; s_bookF A; s_H A; s_D A; lit 5 10; s_ltv A; lit 2 10; s_d A; s_y A; s_g A].

Lemma shape3_map2 {X Y} (g : nat -> nat -> X -> Y) (ks : list X) m n :
  shape3 (map (fun i => map (fun j => map (g i j) ks) (seq 0 n)) (seq 0 m)) m n (length ks).
Proof.
  split; [rewrite map_length, seq_length; reflexivity|]. intros i Hi. rewrite at_map_seq by exact Hi. split; [rewrite map_length, seq_length; reflexivity|].
  intros j Hj. rewrite at_map_seq by exact Hj. apply map_length.
Qed.

(** *** C124: in any arithmetic the data are, bit for bit, the arguments with which mod_merton_computation values the first loans of the same bank *)
Theorem C124_same_arguments : forall solve invcdf (u : nat -> num) grid Nsim2,
  let fs := map (fun x => x ⊘ s_scale A) grid in
  let w := py_default_shocks A invcdf u Nsim2 10 in
  exists t, m_test_data A solve invcdf u grid Nsim2 = Ok t /\
    (let ival := nlog (s_bookF A) ⊖ nlog (s_ltv A) in
     let promise mu := s_bookF A ⊗ nexp (mu ⊗ s_T A) in
     td_F A t = promise (solve (fun mu => find_face_value_indiv A mu (promise mu) ival (lit 2 10) (s_T A) (s_r A) (s_d A)) (s_r A ⊕ lit 1 100))) /\
    td_ival A t = nlog (s_bookF A) ⊖ nlog (s_ltv A) /\ td_rho A t = lit 5 10 /\ td_sig A t = lit 2 10 /\ td_T A t = s_T A /\
    shape3 (td_f1j A t) Nsim2 10 (3 * length grid) /\
    (forall HN i j k d, (i < Nsim2)%nat -> (j < 10)%nat -> (k < 3 * length grid)%nat ->
       at3 (td_f1j A t) i j k d = c_f1 A (cohort_of A bank_param 10 HN (nth i w []) j) ⊕ shock A bank_param 10 (length fs) fs j k) /\
    (forall spectral round9 as_int m, mod_merton_computation A spectral round9 as_int solve fs bank_list 10 w = Ok m -> td_F A t = m_F A m).
Proof.
  intros solve invcdf u grid Nsim2 fs w. unfold m_test_data. cbv zeta.
  match goal with |- context [idx1 [?a; ?b; ?c; ?d; ?e; ?f; ?g; ?h; ?x; ?y; ?z] 1] => set (pl := [a; b; c; d; e; f; g; h; x; y; z]);
    change (idx1 pl 1) with (Ok a); change (idx1 pl 2) with (Ok b); change (idx1 pl 3) with (Ok c); change (idx1 pl 4) with (Ok d); change (idx1 pl 5) with (Ok e); change (idx1 pl 6) with (Ok f); change (idx1 pl 7) with (Ok g); change (idx1 pl 8) with (Ok h); change (idx1 pl 9) with (Ok x); change (idx1 pl 10) with (Ok y) end. clear pl. cbn [bind].
  change (lit 2 10 ⊗ nsqrt (lit 5 10) ⊗ nsqrt (ofZ 10)) with (s_scale A). fold fs.
  change (lit 6 10 ⊕ ofZ 3 ⊗ lit 2 100) with (s_bookF A). change (@ofZ A 10) with (s_T A). change (@lit A 66 100) with (s_ltv A).
  set (row := fun i => map (fun t => invcdf (u ((i - 1) + (t - 1) * Nsim2)%nat)) (seq 1 (3 * 10))).
  assert (LR : forall i, length (row i) = 30%nat) by (intros i; unfold row; rewrite map_length, seq_length; reflexivity).
  set (c1 := fun i j => c_f1 A (cohort_of A bank_param 10 0 (row i) j)).
  set (sh := fun j k => shock A bank_param 10 (length fs) fs j k).
  match goal with |- context [mapM ?g (seq 1 Nsim2)] => assert (EM : mapM g (seq 1 Nsim2) = Ok (map (fun i => map (fun j => map (fun k => c1 (S i) j ⊕ sh j k) (seq 0 (3 * length fs))) (seq 0 10)) (seq 0 Nsim2))) end.
  { rewrite (seq_1 Nsim2), mapM_map. apply mapM_good. intros i Hi. unfold colon. rewrite mapM_map. change (Z.to_nat (Z.of_nat 10 - 1 + 1)) with 10%nat. apply mapM_good. intros j Hj. apply in_seq in Hj.
    match goal with |- context [idx1 ?l (Z.of_nat 10 + 1)] => set (fw := l) end. match goal with |- context [idx1 ?l (Z.of_nat 10 + (1 + Z.of_nat j))] => set (f := l) end.
    assert (EF : f = factor_path A bank_param 10 (row (S i))) by (unfold f, row, factor_path; cbv zeta; rewrite map_map; reflexivity).
    assert (EW : fw = removed_path A bank_param 10 (row (S i))) by (unfold fw, row, removed_path; cbv zeta; rewrite map_map; reflexivity).
    assert (LF : length f = 31%nat) by (rewrite EF, factor_len, LR; reflexivity).
    assert (LW : length fw = 31%nat) by (rewrite EW, removed_len, LR; reflexivity).
    clearbody f fw.
    rewrite (idx1_ok fw _ zero) by (rewrite LW; lia). cbn [bind]. rewrite (idx1_ok fw (1 + Z.of_nat j) zero) by (rewrite LW; lia). cbn [bind].
    rewrite (idx1_ok f (Z.of_nat 10 + (1 + Z.of_nat j)) zero) by (rewrite LF; lia). cbn [bind]. rewrite (idx1_ok f (1 + Z.of_nat j) zero) by (rewrite LF; lia). cbn [bind]. f_equal.
    replace (length (fs ++ fs ++ fs)) with (3 * length fs)%nat by (rewrite !app_length; lia). rewrite (seq_1 (3 * length fs)), map_map. apply map_ext_in. intros k Hk. apply in_seq in Hk.
    assert (ES := m_shock_same A bank_param 10 fs j k ltac:(lia)). unfold sh. rewrite <- ES. f_equal.
    - unfold c1, cohort_of. cbv zeta. cbn [c_f1]. rewrite <- EF, <- EW. replace (Z.to_nat (Z.of_nat 10 + (1 + Z.of_nat j) - 1)) with (10 + j)%nat by lia.
      replace (Z.to_nat (Z.of_nat 10 + 1 - 1)) with 10%nat by lia. replace (Z.to_nat (1 + Z.of_nat j - 1)) with j by lia. reflexivity.
    - unfold m_shock. cbv zeta. replace (Z.of_nat (S j)) with (1 + Z.of_nat j)%Z by lia. reflexivity. }
  rewrite EM. cbn [bind]. eexists. split; [reflexivity|]. cbn [td_F td_f1j td_ival td_rho td_sig td_T].
  split; [reflexivity|]. split; [reflexivity|]. split; [reflexivity|]. split; [reflexivity|]. split; [reflexivity|].
  assert (LG : length fs = length grid) by apply map_length. split.
  { rewrite <- LG. assert (S3 := shape3_map2 (fun i j k => c1 (S i) j ⊕ sh j k) (seq 0 (3 * length fs)) Nsim2 10). rewrite seq_length in S3. exact S3. }
  split.
  - intros HN i j k d Hi Hj Hk. unfold at3. rewrite at_map_seq by exact Hi. rewrite at_map_seq by exact Hj. rewrite at_map_seq by lia.
    unfold sh. f_equal. unfold c1, cohort_of. cbv zeta. cbn [c_f1].
    assert (ER : nth i w [] = row (S i)).
    { unfold w. rewrite C99_default_shocks. unfold m_default_shocks. rewrite (seq_1 Nsim2), map_map. rewrite at_map_seq by exact Hi. reflexivity. }
    rewrite ER. reflexivity.
  - intros spectral round9 as_int m EX. unfold mod_merton_computation in EX. cbn [bank_list read_param bind] in EX.
    destruct (horizon A as_int 10 _); cbn [bind] in EX; [|discriminate]. destruct (aHmat A 10 _); cbn [bind] in EX; [|discriminate].
    unfold value_bank in EX. cbv zeta in EX. destruct (mapM _ (seq 0 10)); cbn [bind] in EX; [|discriminate]. injection EX as <-. reflexivity.
Qed.
End Any.

(** *** C124: the expected repayment of the generated loans is the one the valuation continues with: as the size of the second loan of a cohort that
    is rolled over before the horizon, and as the loan value of a cohort that is not; MATLAB's LoanPayoff gives the same array *)
Theorem C124_enters_valuation : forall (A : Arith) solve invcdf (u : nat -> num A) grid Nsim2 t,
  m_test_data A solve invcdf u grid Nsim2 = Ok t ->
  let fs := map (fun x => ndiv x (s_scale A)) grid in
  let w := py_default_shocks A invcdf u Nsim2 10 in
  payoffs A (m_loan_payoff A) t = payoffs A (loan_payoff A) t /\
  forall HN mu aH i j k d, (i < Nsim2)%nat -> (j < 10)%nat -> (k < 3 * length grid)%nat ->
    let c := cohort_cell A (bank_param A) 10 HN (nsub (nlog (s_bookF A)) (nlog (s_ltv A))) mu (td_F A t) aH
               (shock A (bank_param A) 10 (length fs) fs j k) (cohort_of A (bank_param A) 10 (Z.to_nat HN) (nth i w []) j) j in
    let repaid := at3 (payoffs A (loan_payoff A) t) i j k d in
    if rolled HN j then x_sc A c = ndiv repaid (s_bookF A) else x_Lr A c = nadd repaid (@ofZ A 0).
Proof.
  intros A solve invcdf u grid Nsim2 t E fs w. split; [reflexivity|]. intros HN mu aH i j k d Hi Hj Hk.
  destruct (C124_same_arguments A solve invcdf u grid Nsim2) as (t' & E' & _ & EI & ER & ES & ET & (L1 & L2) & EF & _). rewrite E in E'. injection E' as <-.
  cbv zeta. destruct (L2 i Hi) as [L3 L4]. assert (L5 := L4 j Hj).
  assert (EP : at3 (payoffs A (loan_payoff A) t) i j k d = loan_payoff A (td_F A t) (at3 (td_f1j A t) i j k d) (nsub (nlog (s_bookF A)) (nlog (s_ltv A))) (lit 5 10) (lit 2 10) (s_T A)).
  { rewrite <- EI, <- ER, <- ES, <- ET. unfold at3, payoffs. rewrite (nth_indep _ [] (map (map (fun x => loan_payoff A (td_F A t) x (td_ival A t) (td_rho A t) (td_sig A t) (td_T A t))) [])) by (rewrite map_length, L1; exact Hi).
    rewrite map_nth. rewrite (nth_indep _ [] (map (fun x => loan_payoff A (td_F A t) x (td_ival A t) (td_rho A t) (td_sig A t) (td_T A t)) [])) by (rewrite map_length, L3; exact Hj).
    rewrite map_nth. rewrite (nth_indep _ d (loan_payoff A (td_F A t) d (td_ival A t) (td_rho A t) (td_sig A t) (td_T A t))) by (rewrite map_length, L5; exact Hk).
    apply (map_nth (fun x => loan_payoff A (td_F A t) x (td_ival A t) (td_rho A t) (td_sig A t) (td_T A t))). }
  rewrite EP, (EF (Z.to_nat HN) i j k d Hi Hj Hk). fold fs w. unfold cohort_cell. cbv zeta. cbn [x_sc x_Lr bank_param p_rho p_sig p_T p_bookF].
  destruct (rolled HN j); reflexivity.
Qed.

(** ** Exact arithmetic *)
Local Open Scope R_scope.
(** -0.8:0.05:0.8 *)
Definition state_grid : list R := map (fun k => -8/10 + 5/100 * INR k) (seq 0 33).
(** the 30 normal draws of path i: draw number c * Nsim2 + i belongs to period c *)
Definition path_draws (z : nat -> R) (Nsim2 i : nat) : list R := map (fun c => z (i + c * Nsim2)%nat) (seq 0 30).

Lemma shipped_valid : valid_inputs (shipped debt_face).
Proof. unfold valid_inputs, shipped. cbn [i_T i_rho i_sig i_bookF i_ltv]. lra. Qed.
Lemma shipped_param : bank_param XRA = as_param (shipped debt_face).
Proof.
  assert (R : read_param XRA (bank_list XRA) = Ok (bank_param XRA)) by reflexivity. unfold bank_list in R. rewrite params_exact, read_as_list in R. exact (eq_sym (f_equal (fun r => match r with Ok p => p | Err _ => bank_param XRA end) R)).
Qed.
Lemma scale_exact : s_scale XRA = Fin (2/10 * sqrt (1/2) * sqrt 10).
Proof. unfold s_scale. cbn [lit ofZ nmul nsqrt XRA]. rewrite !xsqrt_fin by lra. cbn [xmul]. replace (5 / 10) with (1 / 2) by lra. reflexivity. Qed.
Lemma states_of_grid : map (fun x => xdiv x (s_scale XRA)) (map Fin state_grid) = map Fin (shipped_states 33).
Proof.
  unfold state_grid, shipped_states. rewrite !map_map. apply map_ext. intros k. rewrite scale_exact. rewrite xdiv_fin; [reflexivity|].
  assert (0 < sqrt (1/2)) by (apply sqrt_lt_R0; lra). assert (0 < sqrt 10) by (apply sqrt_lt_R0; lra). assert (0 < 2/10 * sqrt (1/2)) by (apply Rmult_lt_0_compat; lra).
  apply Rgt_not_eq. apply Rmult_lt_0_compat; lra.
Qed.

(** *** C124: with exact arithmetic and a converged solver loan_payoff turns element (i, j, k) of the data into the expected repayment of the first loan of
    cohort j on path i in state k, as specified for the valuation of the simulated bank; it is positive and below the promised payment *)
Theorem C124_exact : forall solve invcdf u (z : nat -> R) Nsim2 mu, (forall n, invcdf (u n) = Fin (z n)) ->
  let q := shipped debt_face in
  solve (yield_equation q) (Fin (1 / 100 + 1 / 100)) = Fin mu ->
  exists t, m_test_data XRA solve invcdf u (map Fin state_grid) Nsim2 = Ok t /\
    td_F XRA t = Fin (promised_face q mu) /\ td_ival XRA t = Fin 0 /\ td_rho XRA t = Fin (1/2) /\ td_sig XRA t = Fin (2/10) /\ td_T XRA t = Fin 10 /\
    shape3 (td_f1j XRA t) Nsim2 10 99 /\
    forall i j k d, (i < Nsim2)%nat -> (j < 10)%nat -> (k < 99)%nat ->
      let row := path_draws z Nsim2 i in
      at3 (td_f1j XRA t) i j k d = Fin (g_first q 10 row j + state_shock q 10 (shipped_states 33) j k) /\
      at3 (payoffs XRA (loan_payoff XRA) t) i j k d = Fin (first_repayment q 10 (shipped_states 33) mu row j k) /\
      0 < first_repayment q 10 (shipped_states 33) mu row j k < promised_face q mu.
Proof.
  intros solve invcdf u z Nsim2 mu Hz q Hs.
  destruct (C124_same_arguments XRA solve invcdf u (map Fin state_grid) Nsim2) as (t & E & EFs & EI & ER & ES & ET & SH & EF & _).
  assert (LG : length (map Fin state_grid) = 33%nat) by (unfold state_grid; rewrite !map_length, seq_length; reflexivity).
  assert (EI' : td_ival XRA t = Fin 0).
  { rewrite EI. unfold s_bookF, s_ltv. cbn [lit ofZ nadd nmul nlog nsub XRA xmul xadd]. replace (6 / 10 + 3 * (2 / 100)) with (66 / 100) by lra. rewrite xlog_fin by lra. cbn [xsub]. f_equal. lra. }
  assert (O0 : origin q = 0) by (unfold origin, q, shipped; cbn [i_bookF i_ltv]; lra).
  assert (EFa : td_F XRA t = Fin (promised_face q mu)).
  { cbv zeta in EFs. rewrite EFs.
    assert (B1 : s_bookF XRA = Fin (66/100)) by (unfold s_bookF; cbn [lit ofZ nadd nmul XRA xmul xadd]; f_equal; lra).
    change (s_ltv XRA) with (Fin (66/100)). change (s_T XRA) with (Fin 10). change (s_r XRA) with (Fin (1/100)). change (s_d XRA) with (Fin (5/1000)). rewrite B1.
    cbv beta. change (@nadd XRA (Fin (1/100)) (@lit XRA 1 100)) with (Fin (1/100 + 1/100)). change (@nlog XRA (Fin (66/100))) with (xlog (Fin (66/100))). rewrite xlog_fin by lra.
    match goal with |- context [solve ?f ?x] => assert (SS : solve f x = Fin mu) by exact Hs end.
    change (num XRA) with xr in *. rewrite SS. reflexivity. }
  exists t. split; [exact E|]. split; [exact EFa|]. split; [exact EI'|]. split; [rewrite ER; cbn [lit XRA]; f_equal; lra|]. split; [exact ES|]. split; [exact ET|].
  change (num XRA) with xr in *. rewrite LG in SH. split; [exact SH|].
  intros i j k d Hi Hj Hk row.
  assert (A1 : at3 (td_f1j XRA t) i j k d = Fin (g_first q 10 row j + state_shock q 10 (shipped_states 33) j k)).
  { refine (eq_trans (EF 0%nat i j k d Hi Hj _) _); [rewrite LG; lia|]. rewrite shipped_param. fold q.
    assert (LS : length (shipped_states 33) = 33%nat) by (unfold shipped_states; rewrite map_length, seq_length; reflexivity).
    change (@ndiv XRA) with xdiv. change (num XRA) with xr. rewrite states_of_grid, map_length.
    rewrite state_shock_fin; [|exact shipped_valid|exact Hj|rewrite LS; exact Hk].
    assert (EW : nth i (py_default_shocks XRA invcdf u Nsim2 10) [] = map Fin row).
    { rewrite C99_default_shocks. unfold m_default_shocks. rewrite (seq_1 Nsim2), map_map, at_map_seq by exact Hi.
      unfold row, path_draws. rewrite map_map. change (3 * 10)%nat with 30%nat. rewrite (seq_1 30), map_map. apply map_ext. intros c.
      change (num XRA) with xr. replace (S i - 1 + (S c - 1) * Nsim2)%nat with (i + c * Nsim2)%nat by lia. exact (Hz (i + c * Nsim2)%nat). }
    change (num XRA) with xr in *. rewrite EW. rewrite cohort_of_fin; [|exact shipped_valid|exact Hj|lia|unfold row, path_draws; rewrite map_length, seq_length; reflexivity].
    reflexivity. }
  split; [exact A1|].
  assert (HO : loan_ok (promised_face q mu) (i_rho q) (i_sig q) (i_T q)) by (apply promised_ok; exact shipped_valid).
  split.
  - destruct SH as (L1 & L2). destruct (L2 i Hi) as [L3 L4]. assert (L5 := L4 j Hj).
    assert (EP : at3 (payoffs XRA (loan_payoff XRA) t) i j k d = loan_payoff XRA (td_F XRA t) (at3 (td_f1j XRA t) i j k d) (td_ival XRA t) (td_rho XRA t) (td_sig XRA t) (td_T XRA t)).
    { unfold at3, payoffs. set (G := fun x => loan_payoff XRA (td_F XRA t) x (td_ival XRA t) (td_rho XRA t) (td_sig XRA t) (td_T XRA t)).
      rewrite (nth_indep _ [] (map (map G) [])) by (rewrite map_length; change (num XRA) with xr; rewrite L1; exact Hi). rewrite map_nth.
      rewrite (nth_indep _ [] (map G [])) by (rewrite map_length; change (num XRA) with xr; rewrite L3; exact Hj). rewrite map_nth.
      rewrite (nth_indep _ d (G d)) by (rewrite map_length; change (num XRA) with xr; rewrite L5; exact Hk). apply (map_nth G). }
    change (num XRA) with xr in *. rewrite EP, A1, EFa, EI', ER, ES, ET. cbn [lit XRA]. replace (5 / 10) with (1 / 2) by lra.
    assert (C := C67_face_minus_put (promised_face q mu) (g_first q 10 row j + state_shock q 10 (shipped_states 33) j k) 0 (1/2) (2/10) 10 HO).
    unfold first_repayment. rewrite O0. exact C.
  - unfold first_repayment. rewrite O0. assert (B := payoff_bounds _ (g_first q 10 row j + state_shock q 10 (shipped_states 33) j k) 0 _ _ _ HO). assert (M := Rmin_l (promised_face q mu) (expected_assets (g_first q 10 row j + state_shock q 10 (shipped_states 33) j k) 0 (i_rho q) (i_sig q) (i_T q))). lra.
Qed.

(** *** C124: what the array looks like.  Along the 33 states of a block the repayment strictly increases; the second block (the common factor a tenth of its
    volatility higher) lies above the first and the third (a tenth lower) below it, state by state; element (i, j, k) depends on the path only through its
    draws of the periods 10, ..., 9 + j, so the oldest cohort (j = 0) repays the same on every path *)
Theorem C124_states : forall solve invcdf u (z : nat -> R) Nsim2 mu, (forall n, invcdf (u n) = Fin (z n)) ->
  solve (yield_equation (shipped debt_face)) (Fin (1 / 100 + 1 / 100)) = Fin mu ->
  exists t (v : nat -> nat -> nat -> R), m_test_data XRA solve invcdf u (map Fin state_grid) Nsim2 = Ok t /\
    (forall i j k d, (i < Nsim2)%nat -> (j < 10)%nat -> (k < 99)%nat -> at3 (payoffs XRA (loan_payoff XRA) t) i j k d = Fin (v i j k)) /\
    (forall i j k k', (i < Nsim2)%nat -> (j < 10)%nat -> (k < k')%nat -> (k' < 33)%nat ->
       v i j k < v i j k' /\ v i j (33 + k)%nat < v i j (33 + k')%nat /\ v i j (66 + k)%nat < v i j (66 + k')%nat) /\
    (forall i j k, (i < Nsim2)%nat -> (j < 10)%nat -> (k < 33)%nat -> v i j (66 + k)%nat < v i j k < v i j (33 + k)%nat) /\
    (forall i i' j k, (i < Nsim2)%nat -> (i' < Nsim2)%nat -> (j < 10)%nat -> (k < 99)%nat ->
       (forall c, (10 <= c < 10 + j)%nat -> z (i + c * Nsim2)%nat = z (i' + c * Nsim2)%nat) -> v i j k = v i' j k).
Proof.
  intros solve invcdf u z Nsim2 mu Hz Hs. set (q := shipped debt_face) in *.
  destruct (C124_exact solve invcdf u z Nsim2 mu Hz Hs) as (t & E & _ & _ & _ & _ & _ & _ & EX).
  exists t, (fun i j k => first_repayment q 10 (shipped_states 33) mu (path_draws z Nsim2 i) j k). split; [exact E|].
  split; [intros i j k d Hi Hj Hk; exact (proj1 (proj2 (EX i j k d Hi Hj Hk)))|].
  assert (HO : loan_ok (promised_face q mu) (i_rho q) (i_sig q) (i_T q)) by (apply promised_ok; exact shipped_valid).
  assert (MON : forall i j k k', state_shock q 10 (shipped_states 33) j k < state_shock q 10 (shipped_states 33) j k' ->
            first_repayment q 10 (shipped_states 33) mu (path_draws z Nsim2 i) j k < first_repayment q 10 (shipped_states 33) mu (path_draws z Nsim2 i) j k').
  { intros i j k k' H. unfold first_repayment. apply payoff_increasing_in_factor; [exact HO|]. lra. }
  assert (LS : length (shipped_states 33) = 33%nat) by (unfold shipped_states; rewrite map_length, seq_length; reflexivity).
  assert (P1 : 0 < sqrt (1/2)) by (apply sqrt_lt_R0; lra). assert (P2 : 0 < sqrt 10) by (apply sqrt_lt_R0; lra).
  assert (PC : 0 < 2/10 * sqrt (1/2) * sqrt 10) by (repeat apply Rmult_lt_0_compat; lra).
  assert (ST : forall k, (k < 33)%nat -> nth k (shipped_states 33) 0 = (-8/10 + 5/100 * INR k) / (2/10 * sqrt (1/2) * sqrt 10)).
  { intros k Hk. unfold shipped_states. rewrite at_map_seq by exact Hk. reflexivity. }
  assert (SI : forall k k', (k < k')%nat -> (k' < 33)%nat -> nth k (shipped_states 33) 0 < nth k' (shipped_states 33) 0).
  { intros k k' H1 H2. rewrite !ST by lia. unfold Rdiv. apply Rmult_lt_compat_r; [apply Rinv_0_lt_compat; exact PC|]. apply lt_INR in H1. lra. }
  assert (AG : forall j, (j < 10)%nat -> 0 < age 10 j).
  { intros j Hj. unfold age. apply Rdiv_lt_0_compat; apply lt_0_INR; lia. }
  assert (MD : forall b k, (k < 33)%nat -> Nat.modulo (b * 33 + k) 33 = k).
  { intros b k Hk. rewrite Nat.add_comm, Nat.mod_add by lia. apply Nat.mod_small; exact Hk. }
  assert (S0 : forall j k, (k < 33)%nat -> state_shock q 10 (shipped_states 33) j k = nth k (shipped_states 33) 0 * (sqrt (1/2) * (2/10)) * sqrt 10 * age 10 j).
  { intros j k Hk. unfold state_shock. cbv zeta. rewrite LS. rewrite Nat.mod_small by exact Hk. rewrite (proj2 (Nat.ltb_lt k 33) Hk). unfold q, shipped. cbn [i_rho i_sig i_T]. rewrite Rmult_0_r, Rplus_0_r. reflexivity. }
  assert (S1 : forall j k, (k < 33)%nat -> state_shock q 10 (shipped_states 33) j (33 + k) = state_shock q 10 (shipped_states 33) j k + sqrt (1/2) * (2/10) / 10).
  { intros j k Hk. rewrite (S0 j k Hk). unfold state_shock. cbv zeta. rewrite LS. change (33 + k)%nat with (1 * 33 + k)%nat. rewrite MD by exact Hk.
    rewrite (proj2 (Nat.ltb_ge (1 * 33 + k) 33)) by lia. rewrite (proj2 (Nat.ltb_lt (1 * 33 + k) (2 * 33))) by lia. unfold q, shipped. cbn [i_rho i_sig i_T]. rewrite Rmult_1_r. reflexivity. }
  assert (S2 : forall j k, (k < 33)%nat -> state_shock q 10 (shipped_states 33) j (66 + k) = state_shock q 10 (shipped_states 33) j k - sqrt (1/2) * (2/10) / 10).
  { intros j k Hk. rewrite (S0 j k Hk). unfold state_shock. cbv zeta. rewrite LS. change (66 + k)%nat with (2 * 33 + k)%nat. rewrite MD by exact Hk.
    rewrite (proj2 (Nat.ltb_ge (2 * 33 + k) 33)) by lia. rewrite (proj2 (Nat.ltb_ge (2 * 33 + k) (2 * 33))) by lia. unfold q, shipped. cbn [i_rho i_sig i_T]. lra. }
  assert (SJ : forall j k k', (j < 10)%nat -> (k < k')%nat -> (k' < 33)%nat -> state_shock q 10 (shipped_states 33) j k < state_shock q 10 (shipped_states 33) j k').
  { intros j k k' Hj H1 H2. rewrite !S0 by lia. apply Rmult_lt_compat_r; [apply AG; exact Hj|]. apply Rmult_lt_compat_r; [exact P2|]. apply Rmult_lt_compat_r; [lra|]. apply SI; assumption. }
  split; [|split].
  - intros i j k k' Hi Hj H1 H2. assert (J := SJ j k k' Hj H1 H2). split; [apply MON; exact J|]. split; apply MON; [rewrite !S1 by lia|rewrite !S2 by lia]; lra.
  - intros i j k Hi Hj Hk. split; apply MON; [rewrite S2 by lia|rewrite S1 by lia]; lra.
  - intros i i' j k Hi Hi' Hj Hk H. unfold first_repayment, g_first. f_equal. f_equal. f_equal. f_equal.
    assert (W : forall i0, window (path_draws z Nsim2 i0) 10 (10 + j) = Rsum (map (fun c => z (i0 + c * Nsim2)%nat) (seq 10 j))).
    { intros i0. unfold window, path_draws. rewrite !firstn_map.
      assert (FS : forall a, (a <= 30)%nat -> firstn a (seq 0 30) = seq 0 a).
      { intros a Ha. replace 30%nat with (a + (30 - a))%nat by lia. rewrite seq_app, firstn_app, seq_length, Nat.sub_diag. cbn [firstn]. rewrite app_nil_r. apply firstn_all2. rewrite seq_length. lia. }
      rewrite !FS by lia. rewrite (seq_app 10 j 0), map_app, Rsum_app. cbn [Nat.add]. lra. }
    rewrite !W. f_equal. apply map_ext_in. intros c Hc. apply in_seq in Hc. apply H. lia.
Qed.

(** a solver that returns 2%, and draws that are all zero except one: the program runs, the array has 2 x 10 x 99 elements, and only the cohorts from the
    second on see the difference between the paths *)
Example C124_case : exists t v, m_test_data XRA (fun _ _ => Fin (2/100)) (fun x => x) (fun n => if Nat.eqb n 20 then Fin 1 else Fin 0) (map Fin state_grid) 2 = Ok t /\
  td_F XRA t = Fin (promised_face (shipped debt_face) (2/100)) /\ shape3 (td_f1j XRA t) 2 10 99 /\
  (forall d, at3 (payoffs XRA (loan_payoff XRA) t) 0 0 16 d = Fin v /\ at3 (payoffs XRA (loan_payoff XRA) t) 1 0 16 d = Fin v) /\
  g_first (shipped debt_face) 10 (path_draws (fun n => if Nat.eqb n 20 then 1 else 0) 2 0) 1 <> g_first (shipped debt_face) 10 (path_draws (fun n => if Nat.eqb n 20 then 1 else 0) 2 1) 1.
Proof.
  set (z := fun n => if Nat.eqb n 20 then 1 else 0).
  assert (Hz : forall n, (fun x : xr => x) ((fun n => if Nat.eqb n 20 then Fin 1 else Fin 0) n) = Fin (z n)) by (intros n; unfold z; cbv beta; destruct (Nat.eqb n 20); reflexivity).
  destruct (C124_exact (fun _ _ => Fin (2/100)) (fun x => x) (fun n => if Nat.eqb n 20 then Fin 1 else Fin 0) z 2 (2/100) Hz eq_refl) as (t & E & EF & _ & _ & _ & _ & SH & EX).
  destruct (C124_states (fun _ _ => Fin (2/100)) (fun x => x) (fun n => if Nat.eqb n 20 then Fin 1 else Fin 0) z 2 (2/100) Hz eq_refl) as (t' & v & E' & EV & _ & _ & EQ).
  rewrite E in E'. injection E' as <-.
  exists t, (v 0%nat 0%nat 16%nat). split; [exact E|]. split; [exact EF|]. split; [exact SH|]. split.
  - intros d. split; [apply EV; lia|]. rewrite (EQ 0%nat 1%nat 0%nat 16%nat) by (intros; lia). apply EV; lia.
  - unfold g_first. set (a := INR 10 * _ - _). intros H. apply Rplus_eq_reg_l in H.
    assert (L : loading (shipped debt_face) 10 <> 0).
    { unfold loading, shipped. cbn [i_rho i_sig i_T]. assert (0 < sqrt (1/2)) by (apply sqrt_lt_R0; lra). assert (0 < sqrt (10 / INR 10)) by (apply sqrt_lt_R0; apply Rdiv_lt_0_compat; [lra|apply lt_0_INR; lia]).
      apply Rgt_not_eq. repeat apply Rmult_lt_0_compat; lra. }
    apply Rmult_eq_reg_l in H; [|exact L]. unfold window, path_draws, z in H. cbn in H. lra.
Qed.
