(** * Model of src/frds/measures/_option_price.py and _contingent_claim_analysis.py *)
From Coq Require Import ZArith List Bool.
From Verif Require Import Arith.
Import ListNotations.
Local Open Scope num_scope.

Section Option.
Context (A : Arith).
Notation num := (num A).

(** blsprice, _option_price.py l.6-27.  Simplification: [S / K] with a Python float K = 0 raises ZeroDivisionError
    in the code and is an IEEE division here; the theorems have K > 0. *)
Definition blsprice (S K r T sigma q : num) : num * num :=
  let d1 := (nlog (S ⊘ K) ⊕ (r ⊖ q ⊕ nsq sigma ⊘ ofZ 2) ⊗ T) ⊘ (sigma ⊗ nsqrt T) in
  let d2 := d1 ⊖ sigma ⊗ nsqrt T in
  let call := S ⊗ nexp (nopp q ⊗ T) ⊗ ncdf d1 ⊖ K ⊗ nexp (nopp r ⊗ T) ⊗ ncdf d2 in
  let put := K ⊗ nexp (nopp r ⊗ T) ⊗ ncdf (nopp d2) ⊖ S ⊗ nexp (nopp q ⊗ T) ⊗ ncdf (nopp d1) in
  (call, put).

(** [math.log], [math.sqrt], [math.exp] and float division raise instead of returning inf/nan *)
Definition m_log (x : num) : res num := if ofZ 0 <? x then Ok (nlog x) else if isnan x then Ok x else Err ValueError.
Definition m_sqrt (x : num) : res num := if x <? ofZ 0 then Err ValueError else Ok (nsqrt x).
Definition m_exp (x : num) : res num := let y := nexp x in if isinf y && negb (isinf x) then Err OverflowError else Ok y.
(** [pow(x, 4)], l.38; simplification: evaluated as (x^2)^2 *)
Definition pow4 (x : num) : num := nsq (nsq x).
(** cca_func, l.36-46: the residuals of the two equations at x = (sqrt asset value, sqrt asset volatility).
    x is a numpy vector, so the divisions by d (a Python float) and by the np.float64 denominator do not raise
    (numpy scalars are involved), while log/sqrt/exp are math functions and do. *)
Definition cca_func (x0 x1 e vol rf d t : num) : res (num * num) :=
  do l <- m_log (nsq x0 ⊘ d);
  do st <- m_sqrt t;
  let d1 := (l ⊕ (rf ⊕ pow4 x1 ⊘ ofZ 2) ⊗ t) ⊘ (nsq x1 ⊗ st) in
  let d2 := d1 ⊖ nsq x1 ⊗ st in
  do ex <- m_exp (nopp rf ⊗ t);
  let eqty := e ⊖ nsq x0 ⊗ ncdf d1 ⊕ d ⊗ ex ⊗ ncdf d2 in
  let sigm := e ⊗ vol ⊖ nsq x0 ⊗ nsq x1 ⊗ ncdf d1 in
  Ok (eqty, sigm).
(** scipy.optimize.fsolve(full_output=False) is an oracle: it evaluates the function at the starting point and at
    further points and returns a vector of two numbers; non-convergence only produces a warning. *)
Record fsolve_run := { fs_evals : list (num * num); fs_x : num * num }.
Fixpoint eval_all (f : num * num -> res (num * num)) (pts : list (num * num)) : res unit :=
  match pts with [] => Ok tt | p :: ps => do _ <- f p; eval_all f ps end.
(** estimate, l.14-96; result (put_price, put_price - cds_put) *)
Definition cca_prices (x0 x1 : num) (rf barrier t cds : num) : res (num * num) :=
  let a := nsq x0 in                                              (* x = x**2, l.64 *)
  let s := nsq x1 in
  do l <- m_log (a ⊘ barrier);
  do st <- m_sqrt t;
  let d1 := (l ⊕ (rf ⊕ nsq s ⊘ ofZ 2) ⊗ t) ⊘ (s ⊗ st) in
  let d2 := d1 ⊖ s ⊗ st in
  do ex <- m_exp (nopp rf ⊗ t);
  let put := barrier ⊗ ex ⊗ ncdf (nopp d2) ⊖ a ⊗ ncdf (nopp d1) in
  let debt := barrier ⊗ ex ⊖ put in
  do ec <- m_exp (nopp (cds ⊘ ofZ 10000) ⊗ (barrier ⊘ debt ⊖ ofZ 1) ⊗ t);
  let cds_put := (ofZ 1 ⊖ ec) ⊗ barrier ⊗ ex in
  Ok (put, put ⊖ cds_put).
Definition cca_estimate (fsolve : num * num -> fsolve_run) (equity volatility rf barrier t cds : num) : res (num * num) :=
  let start := (equity, volatility) in
  let run := fsolve start in
  do _ <- eval_all (fun p => cca_func (fst p) (snd p) equity volatility rf barrier t) (start :: fs_evals run);
  cca_prices (fst (fs_x run)) (snd (fs_x run)) rf barrier t cds.
End Option.
