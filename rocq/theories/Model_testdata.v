(** * FRDSGenTestDataLoanPayoff.m: the MATLAB program that generates the inputs for checking the translated loan_payoff

    Written statement by statement from its own source (a copy of parts of ModMertonSimulation.m and ModMertonComputation.m), with the indexing
    rules of Model_matlab.v.  The function takes no arguments, so [nargin < 5] holds and the shocks are always drawn.
    Oracles: [solve] (fsolve), [invcdf] (norminv), the uniforms [u] of rand in column order,
    [grid] = -0.8:0.05:0.8 (33 doubles).  [Nsim2] is 1000 in the source.  Not modelled: the message printed when fsolve fails, and the variables
    that are computed but not used (HN, ind1, ind2, aHmat, xf1, f2, f2j, g). *)
From Coq Require Import ZArith List Bool Arith.
From Verif Require Import Arith Model_option Model_merton Model_matlab.
Import ListNotations.
Local Open Scope num_scope.

Section TestData.
Context (A : Arith).
Notation num := (num A).
Notation zero := (@ofZ A 0).
Notation one := (@ofZ A 1).
Notation half := (@lit A 5 10).
Notation ofN := (ofN A).

(** the six outputs; [td_f1j] is indexed path, cohort, state *)
Record test_data := mk_td { td_F : num; td_f1j : list (list (list num)); td_ival : num; td_rho : num; td_sig : num; td_T : num }.

(** l.1-135 *)
Definition m_test_data (solve : (num -> num) -> num -> num) (invcdf : num -> num) (u : nat -> num) (grid : list num) (Nsim2 : nat) : res test_data :=
  let fs := map (fun x => x ⊘ (lit 2 10 ⊗ nsqrt half ⊗ nsqrt (ofZ 10))) grid in                       (* l.2 *)
  let N := 10 in                                                                                       (* l.4 *)
  let r := lit 1 100 in let d := lit 5 1000 in let y := lit 2 1000 in let T := ofZ 10 in               (* l.7-10 *)
  let bookD := lit 63 100 in let H := ofZ 5 in
  let D := bookD ⊗ nexp (r ⊗ H) ⊗ amean A (map (fun t => nexp (r ⊗ ofN t)) (seq 1 10)) in              (* l.13 *)
  let rho := half in let sig := lit 2 10 in let ltv := lit 66 100 in let g := half in
  let j := ofZ 3 in
  let bookF := lit 6 10 ⊕ j ⊗ lit 2 100 in                                                             (* l.19 *)
  let param := [r; T; bookF; H; D; rho; ltv; sig; d; y; g] in                                          (* l.21 *)
  do r <- idx1 param 1; do T <- idx1 param 2; do bookF <- idx1 param 3; do H <- idx1 param 4; do D <- idx1 param 5; do rho <- idx1 param 6;
  do ltv <- idx1 param 7; do sig <- idx1 param 8; do d <- idx1 param 9; do y <- idx1 param 10;         (* l.24-33 *)
  let w i t := invcdf (u ((i - 1) + (t - 1) * Nsim2)%nat) in                                           (* l.46-54: rand fills columns *)
  let ival := nlog bookF ⊖ nlog ltv in                                                                 (* l.57 *)
  let sigf := nsqrt rho ⊗ sig in
  let szfs := length fs in
  let fs := fs ++ fs ++ fs in                                                                          (* l.61 *)
  let Nsim1 := length fs in
  let atmat q := ofZ (Z.of_nat N - (q - 1)) ⊘ ofN N in                                               (* l.75 *)
  let dt := T ⊘ ofN N in
  let f i := zero :: m_cumsum A (map (fun t => (r ⊖ d ⊖ half ⊗ nsq sig) ⊗ dt ⊕ sigf ⊗ nsqrt dt ⊗ w i t) (seq 1 (3 * N))) in      (* l.90 *)
  let fw i := zero :: m_cumsum A (map (fun t => nopp half ⊗ rho ⊗ nsq sig ⊗ dt ⊕ sigf ⊗ nsqrt dt ⊗ w i t) (seq 1 (3 * N))) in    (* l.95 *)
  let df := sigf ⊘ ofZ 10 in
  let move k := nth (k - 1) (repeat zero szfs ++ repeat one szfs ++ repeat (nopp one) szfs) zero in
  let fsa q k := nth (k - 1) fs zero ⊗ sigf ⊗ nsqrt T ⊗ atmat q ⊕ df ⊗ move k in                     (* l.61, 115-119 *)
  do f1j <- mapM (fun i => mapM (fun q =>
      do fw_N1 <- idx1 (fw i) (Z.of_nat N + 1);
      do fw_q <- idx1 (fw i) q;
      do f_Nq <- idx1 (f i) (Z.of_nat N + q);
      do f_q <- idx1 (f i) q;
      let f1 := f_Nq ⊖ (fw_N1 ⊖ fw_q) ⊖ f_q in                                                       (* l.107-108 *)
      Ok (map (fun k => f1 ⊕ fsa q k) (seq 1 Nsim1)))                                                (* l.120 *)
    (colon 1 (Z.of_nat N))) (seq 1 Nsim2);
  let mu := solve (fun mu => fst (fst (m_find_face_value A mu (bookF ⊗ nexp (mu ⊗ T)) ival sig T r d))) (r ⊕ lit 1 100) in   (* l.127-133 *)
  Ok (mk_td (bookF ⊗ nexp (mu ⊗ T)) f1j ival rho sig T).                                              (* l.135 *)

(** LoanPayoff.m / loan_payoff.py on the whole three-dimensional array *)
Definition payoffs (f : num -> num -> num -> num -> num -> num -> num) (t : test_data) : list (list (list num)) :=
  map (map (map (fun x => f (td_F t) x (td_ival t) (td_rho t) (td_sig t) (td_T t)))) (td_f1j t).
End TestData.
