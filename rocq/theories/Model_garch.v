(** * Model of src/frds/algorithms/_garch.py, utils/garch.hpp and the
      array wrappers of utils/utils_module.cpp *)
From Coq Require Import ZArith List Bool Arith.
From Verif Require Import Arith.
Import ListNotations.
Local Open Scope num_scope.

Section Garch.
Context (A : Arith).
Notation num := (num A).

(** Python's builtin [sum]: left-to-right from the integer 0. *)
Definition pysum (l : list num) : num := fold_left nadd l (ofZ 0).

(** Python's builtin [max(a, b)]: keeps [a] unless [b > a] (NaN never wins from the right). *)
Definition pymax (a b : num) : num := if nltb a b then b else a.

(** [np.maximum], [np.minimum]: NaN if either operand is NaN. *)
Definition npmax (a b : num) : num :=
  if isnan a then a else if isnan b then b else if nltb a b then b else a.
Definition npmin (a b : num) : num :=
  if isnan a then a else if isnan b then b else if nltb b a then b else a.
(** [np.clip(x, lo, hi)]. *)
Definition npclip (x lo hi : num) : num := npmin (npmax x lo) hi.
(** [arr.max()] for a non-empty array, ValueError for an empty one. *)
Definition amax (l : list num) : res num :=
  match l with [] => Err ValueError | x :: l' => Ok (fold_left npmax l' x) end.

(** ** GARCHModel.bounds_check, _garch.py l.272-292 (pure-Python path l.285-292). *)
Definition bounds_check_py (sigma2 : num) (b : num * num) : num :=
  let lower := fst b in
  let upper := snd b in
  let s := pymax lower sigma2 in
  if nltb upper s then
    if negb (isinf s) then upper ⊕ nlog (s ⊘ upper) else upper ⊕ ofZ 1000
  else s.

(** ** bounds_check, garch.hpp l.21-31. *)
Definition bounds_check_cpp (sigma2 lower upper : num) : num :=
  let s := if nltb sigma2 lower then lower else sigma2 in
  if nltb upper s then
    if negb (isinf s) then upper ⊕ nlog (s ⊘ upper) else upper ⊕ ofZ 1000
  else s.

(** One step of the variance recursion before the bounds check:
    _garch.py l.197 (GARCH), l.433-434 (GJR; note the "+ 0" for non-negative residuals). *)
Definition garch_step (omega alpha beta prev r : num) : num :=
  omega ⊕ alpha ⊗ nsq r ⊕ beta ⊗ prev.
Definition gjr_step (omega alpha gamma beta prev r : num) : num :=
  omega ⊕ alpha ⊗ nsq r ⊕ beta ⊗ prev ⊕ (if nltb r (ofZ 0) then gamma ⊗ nsq r else ofZ 0).

(** The loop [for t in range(1, len(resids))]: [rs] are the residuals t-1, ... still to be
    used, [bs] the rows var_bounds[t], ... ; a missing row is an IndexError. *)
Fixpoint var_loop (step : num -> num -> num) (prev : num) (rs : list num)
    (bs : list (num * num)) : res (list num) :=
  match rs with
  | [] => Ok []
  | r :: rs' =>
      match bs with
      | [] => Err IndexError
      | b :: bs' =>
          let s := bounds_check_py (step prev r) b in
          do rest <- var_loop step s rs' bs'; Ok (s :: rest)
      end
  end.

(** ** GARCHModel.compute_variance, _garch.py l.173-199 (pure-Python path l.193-199). *)
Definition garch_variance_py (params : list num) (resids : list num) (backcast : num)
    (var_bounds : list (num * num)) : res (list num) :=
  match params with
  | [omega; alpha; beta] =>
      match resids with
      | [] => Err IndexError                     (* sigma2[0] on an empty array, l.195 *)
      | _ =>
          let s0 := omega ⊕ (alpha ⊕ beta) ⊗ backcast in
          do rest <- var_loop (garch_step omega alpha beta) s0 (removelast resids) (tl var_bounds);
          Ok (s0 :: rest)
      end
  | _ => Err ValueError                          (* tuple unpacking, l.193 *)
  end.

(** ** GJRGARCHModel.compute_variance, _garch.py l.408-436 (pure-Python path l.429-436). *)
Definition gjr_variance_py (params : list num) (resids : list num) (backcast : num)
    (var_bounds : list (num * num)) : res (list num) :=
  match params with
  | [omega; alpha; gamma; beta] =>
      match resids with
      | [] => Err IndexError
      | _ =>
          let s0 := omega ⊕ (alpha ⊕ gamma ⊘ ofZ 2 ⊕ beta) ⊗ backcast in
          do rest <- var_loop (gjr_step omega alpha gamma beta) s0 (removelast resids) (tl var_bounds);
          Ok (s0 :: rest)
      end
  | _ => Err ValueError
  end.

(** ** C++ kernels.  A C array is a function from index to value (a pointer into memory).
    compute_garch_variance, garch.hpp l.33-48. *)
Fixpoint cpp_garch_at (omega alpha beta backcast : num) (r : nat -> num) (vb : nat -> num)
    (t : nat) : num :=
  match t with
  | O => omega ⊕ (alpha ⊕ beta) ⊗ backcast
  | S t' =>
      bounds_check_cpp
        (omega ⊕ alpha ⊗ nsq (r t') ⊕ beta ⊗ cpp_garch_at omega alpha beta backcast r vb t')
        (vb (t * 2)%nat) (vb (t * 2 + 1)%nat)
  end.
Definition cpp_garch (omega alpha beta backcast : num) r vb (T : nat) : list num :=
  map (cpp_garch_at omega alpha beta backcast r vb) (seq 0 T).

(** compute_gjrgarch_variance, garch.hpp l.50-69. *)
Fixpoint cpp_gjr_at (omega alpha gamma beta backcast : num) (r : nat -> num) (vb : nat -> num)
    (t : nat) : num :=
  match t with
  | O => omega ⊕ (alpha ⊕ gamma ⊘ ofZ 2 ⊕ beta) ⊗ backcast
  | S t' =>
      let s := omega ⊕ alpha ⊗ nsq (r t') ⊕ beta ⊗ cpp_gjr_at omega alpha gamma beta backcast r vb t' in
      let s := if nltb (r t') (ofZ 0) then s ⊕ gamma ⊗ nsq (r t') else s in
      bounds_check_cpp s (vb (t * 2)%nat) (vb (t * 2 + 1)%nat)
  end.
Definition cpp_gjr (omega alpha gamma beta backcast : num) r vb (T : nat) : list num :=
  map (cpp_gjr_at omega alpha gamma beta backcast r vb) (seq 0 T).

(** ewma, garch.hpp l.7-19 (squares by multiplication). *)
Fixpoint cpp_ewma_at (r : nat -> num) (init lam : num) (t : nat) : num :=
  match t with
  | O => init
  | S t' => lam ⊗ cpp_ewma_at r init lam t' ⊕ (ofZ 1 ⊖ lam) ⊗ (r t' ⊗ r t')
  end.
Definition cpp_ewma (r : nat -> num) (init lam : num) (T : nat) : list num :=
  map (cpp_ewma_at r init lam) (seq 0 T).

(** ** numpy arrays in memory, for the wrappers of utils_module.cpp. *)
Record ndarray := { buf : nat -> num; off : nat; stride : nat; dim : nat }.
(** The logical contents, as Python sees them: a[i] = buffer[off + i*stride]. *)
Definition logical (a : ndarray) : list num :=
  map (fun i => buf a (off a + i * stride a)%nat) (seq 0 (dim a)).
(** What [(double* )PyArray_DATA(a)] points to: the buffer from the first element on,
    read consecutively whatever the stride. *)
Definition raw (a : ndarray) : nat -> num := fun i => buf a (off a + i)%nat.
(** A (T,2) C-contiguous bounds matrix as a C array. *)
Definition flat2 (d : num) (b : list (num * num)) : nat -> num :=
  fun i => let p := nth (i / 2) b (d, d) in if Nat.even i then fst p else snd p.

(** utils_module.cpp l.17-41 *)
Definition ewma_wrapper (a : ndarray) (init lam : num) : list num :=
  cpp_ewma (raw a) init lam (dim a).
(** utils_module.cpp l.65-109; [vb] is the contiguous result of variance_bounds.
    A parameter list shorter than 3 is undefined behaviour in the code (vector out of range);
    here it is an error. *)
Definition garch_wrapper (params : list num) (a : ndarray) (backcast : num)
    (vb : nat -> num) : res (list num) :=
  match params with
  | omega :: alpha :: beta :: _ => Ok (cpp_garch omega alpha beta backcast (raw a) vb (dim a))
  | _ => Err RuntimeError
  end.
(** utils_module.cpp l.112-156 *)
Definition gjr_wrapper (params : list num) (a : ndarray) (backcast : num)
    (vb : nat -> num) : res (list num) :=
  match params with
  | omega :: alpha :: gamma :: beta :: _ =>
      Ok (cpp_gjr omega alpha gamma beta backcast (raw a) vb (dim a))
  | _ => Err RuntimeError
  end.

(** ** GARCHModel.ewma, _garch.py l.312-335 (pure-Python path l.327-335). *)
Fixpoint ewma_loop (lam prev : num) (sqr : list num) : list num :=
  match sqr with
  | [] => []
  | x :: l => let v := lam ⊗ prev ⊕ (ofZ 1 ⊖ lam) ⊗ x in v :: ewma_loop lam v l
  end.
Definition ewma_py (resids : list num) (initial_value lam : num) : res (list num) :=
  match resids with
  | [] => Err IndexError
  | _ => Ok (initial_value :: ewma_loop lam initial_value (removelast (map nsq resids)))
  end.

(** 0.94 ** np.arange(tau) *)
Definition decay_weights (tau : nat) : list num :=
  map (fun i => npow (lit 94 100) (ofZ (Z.of_nat i))) (seq 0 tau).

(** ** GARCHModel.backcast, _garch.py l.294-310. *)
Definition backcast_py (resids : list num) : num :=
  let tau := Nat.min 75 (length resids) in
  let w := decay_weights tau in
  let w := map (fun x => x ⊘ pysum w) w in
  asum (map2 nmul (map nsq (firstn tau resids)) w).

(** ** GARCHModel.variance_bounds, _garch.py l.236-270. *)
Definition variance_bounds (resids : list num) : res (list (num * num)) :=
  let tau := Nat.min 75 (length resids) in
  let weights := decay_weights tau in
  let weights := map (fun x => x ⊘ asum weights) weights in
  let initial_variance := asum (map2 nmul weights (map nsq (firstn tau resids))) in
  do var_bound <- ewma_py resids initial_variance (lit 94 100);
  let global_lower_bound := avar A resids ⊘ ofZ 100000000 in
  do mx <- amax (map nsq resids);
  let global_upper_bound := ofZ 10000000 ⊗ (ofZ 1 ⊕ mx) in
  let var_bound := map (fun v => npclip v global_lower_bound global_upper_bound) var_bound in
  Ok (map (fun v => (v ⊘ ofZ 1000000, v ⊗ ofZ 1000000)) var_bound).

(** ** GARCHModel.loglikelihood, _garch.py l.158-171. *)
Definition loglik_term (r s2 : num) : num :=
  nopp (lit 5 10) ⊗ (nlog (ofZ 2 ⊗ npi) ⊕ nlog s2 ⊕ nsq r ⊘ s2).
Definition loglikelihood (resids sigma2 : list num) : num :=
  asum (map2 loglik_term resids sigma2).

(** ** The two model classes differ in compute_variance, in the parameters and in the grids. *)
Inductive kind := KGarch | KGjr.
Definition compute_variance (k : kind) :=
  match k with KGarch => garch_variance_py | KGjr => gjr_variance_py end.
(** number of fields before [loglikelihood] in the dataclass, l.24-30 and l.347-354 *)
Definition nfields (k : kind) : nat := match k with KGarch => 4 | KGjr => 5 end.

Definition persistence_grid : list num := [lit 5 10; lit 7 10; lit 9 10; lit 98 100].
Definition alpha_grid : list num := [lit 1 100; lit 5 100; lit 1 10; lit 2 10].

(** Candidates in the order of itertools.product: l.221-228 and l.487-494. *)
Definition garch_candidates (var : num) : list (list num) :=
  flat_map (fun alpha => map (fun p => [var ⊗ (ofZ 1 ⊖ p); alpha; p ⊖ alpha]) persistence_grid)
    alpha_grid.
Definition gjr_candidates (var : num) : list (list num) :=
  flat_map (fun alpha => flat_map (fun gamma => map (fun p =>
      [var ⊗ (ofZ 1 ⊖ p); alpha; gamma; p ⊖ alpha ⊖ gamma ⊘ ofZ 2]) persistence_grid)
    alpha_grid) alpha_grid.
Definition candidates (k : kind) (var : num) :=
  match k with KGarch => garch_candidates var | KGjr => gjr_candidates var end.

(** The search loop l.221-234 / l.487-498: [max_likelihood] stays -inf throughout. *)
Fixpoint grid_search (score : list num -> res num) (max_likelihood : num)
    (cands : list (list num)) (initial_params : list num) : res (list num) :=
  match cands with
  | [] => Ok initial_params
  | params :: rest =>
      do ll <- score params;
      grid_search score max_likelihood rest
        (if nltb max_likelihood (nopp ll) then params else initial_params)
  end.
(** ** starting_values, _garch.py l.201-234 and l.463-498. [returns] supplies the sample
    variance; GJR recomputes bounds and backcast (l.482-483), with the same values that
    [preparation] stored, so both are passed in. *)
Definition starting_values (k : kind) (returns resids : list num) (backcast : num)
    (var_bounds : list (num * num)) : res (list num) :=
  let var := avar A returns in
  grid_search
    (fun params => do s2 <- compute_variance k params resids backcast var_bounds;
                   Ok (loglikelihood resids s2))
    (nopp npinf) (candidates k var) [].

(** ** Estimated parameters: dataclass fields [mu; omega; alpha; (gamma;) beta] and loglikelihood. *)
Record Params := { p_fields : list num; p_ll : num }.
Definition nan_params (k : kind) : Params := {| p_fields := repeat nnan (nfields k); p_ll := nnan |}.
(** [Parameters( *xs, loglikelihood=ll)]: missing fields keep their NaN default. *)
Definition make_params (k : kind) (xs : list num) (ll : num) : res Params :=
  if (nfields k <? length xs)%nat then Err TypeError
  else Ok {| p_fields := xs ++ repeat nnan (nfields k - length xs); p_ll := ll |}.
Definition p_mu (p : Params) : num := nth 0 (p_fields p) nnan.

(** ** The model object, _garch.py l.41-49. *)
Record state := {
  st_returns : list num;
  st_zero_mean : bool;
  st_success : bool;          (* estimation_success *)
  st_ll_final : num;          (* loglikelihood_final *)
  st_params : Params;
  st_resids : list num;       (* np.empty_like: arbitrary contents until a fit succeeds *)
  st_sigma2 : list num;
  st_backcast : num;
  st_bounds : list (num * num)
}.
Definition init (k : kind) (returns garbage1 garbage2 : list num) (zero_mean : bool) : state :=
  {| st_returns := returns; st_zero_mean := zero_mean; st_success := false; st_ll_final := nnan;
     st_params := nan_params k; st_resids := garbage1; st_sigma2 := garbage2;
     st_backcast := nnan; st_bounds := [] |}.

Definition demean (returns : list num) (m : num) : list num := map (fun r => r ⊖ m) returns.

(** ** preparation, _garch.py l.104-128. *)
Definition preparation (k : kind) (st : state) : res (list num * state) :=
  let resids := if st_zero_mean st then st_returns st
                else demean (st_returns st) (amean A (st_returns st)) in
  let bc := backcast_py resids in
  do vb <- variance_bounds resids;
  do var_params <- starting_values k (st_returns st) resids bc vb;
  let initial_mu := amean A (st_returns st) in
  let st' := {| st_returns := st_returns st; st_zero_mean := st_zero_mean st;
                st_success := st_success st; st_ll_final := st_ll_final st;
                st_params := st_params st; st_resids := st_resids st;
                st_sigma2 := st_sigma2 st; st_backcast := bc; st_bounds := vb |} in
  Ok (if st_zero_mean st then var_params else initial_mu :: var_params, st').

(** ** loglikelihood_model, _garch.py l.130-156: also overwrites self.sigma2. *)
Definition objective (k : kind) (st : state) (params : list num) : res (num * list num) :=
  if st_zero_mean st then
    do s2 <- compute_variance k params (st_returns st) (st_backcast st) (st_bounds st);
    Ok (nopp (loglikelihood (st_returns st) s2), s2)
  else
    match params with
    | [] => Err IndexError
    | mu :: rest =>
        let resids := demean (st_returns st) mu in
        do s2 <- compute_variance k rest resids (st_backcast st) (st_bounds st);
        Ok (nopp (loglikelihood resids s2), s2)
    end.

(** ** The optimizer is an oracle: given starting point and bounds it evaluates the objective
    at some finite sequence of points and reports success, x and fun. *)
Record opt_run := { o_evals : list (list num); o_success : bool; o_x : list num; o_fun : num }.
Definition solver := list num -> list (num * num) -> opt_run.

Fixpoint run_evals (k : kind) (st : state) (pts : list (list num)) (s2 : list num) : res (list num) :=
  match pts with
  | [] => Ok s2
  | x :: pts' => do r <- objective k st x; run_evals k st pts' (snd r)
  end.

(** Bounds handed to SLSQP, l.64-71 and l.364-372. *)
Definition fit_bounds (k : kind) (zero_mean : bool) : list (num * num) :=
  let b := match k with
    | KGarch => [(nopp npinf, npinf); (lit 1 1000000, npinf); (ofZ 0, ofZ 1); (ofZ 0, ofZ 1)]
    | KGjr => [(nopp npinf, npinf); (lit 1 1000000, npinf); (lit 1 1000000, ofZ 1);
               (lit 1 1000000, ofZ 1); (lit 1 1000000, ofZ 1)]
    end in
  if zero_mean then tl b else b.
(** Inequality constraint handed to SLSQP (must be >= 0), l.74-76 and l.375-377. *)
Definition stationarity (k : kind) (params : list num) : num :=
  match k, rev params with
  | KGarch, beta :: alpha :: _ => ofZ 1 ⊖ (alpha ⊕ beta)
  | KGjr, beta :: gamma :: alpha :: _ => ofZ 1 ⊖ (alpha ⊕ beta ⊕ gamma ⊘ ofZ 2)
  | _, _ => nnan
  end.

(** ** GARCHModel.fit l.51-102, GJRGARCHModel.fit l.356-406.
    Result: the returned object (None or Parameters) and the new state. *)
Definition fit (k : kind) (minimize : solver) (st : state) : res (option Params * state) :=
  match k, st_success st with
  | KGarch, true => Ok (None, st)                                   (* l.58-59 *)
  | _, _ =>
      do prep <- preparation k st;
      let starting_vals := fst prep in
      let st1 := snd prep in
      let opt := minimize starting_vals (fit_bounds k (st_zero_mean st)) in
      do s2 <- run_evals k st1 (o_evals opt) (st_sigma2 st1);
      if o_success opt then
        let xs := if st_zero_mean st then ofZ 0 :: o_x opt else o_x opt in
        do ps <- make_params k xs (nopp (o_fun opt));
        Ok (Some ps,
          {| st_returns := st_returns st1; st_zero_mean := st_zero_mean st1; st_success := true;
             st_ll_final := st_ll_final st1; st_params := ps;
             st_resids := demean (st_returns st1) (p_mu ps);
             st_sigma2 := s2; st_backcast := st_backcast st1; st_bounds := st_bounds st1 |})
      else
        Ok (Some (st_params st1),
          {| st_returns := st_returns st1; st_zero_mean := st_zero_mean st1;
             st_success := st_success st1;
             st_ll_final := st_ll_final st1; st_params := st_params st1;
             st_resids := st_resids st1;
             st_sigma2 := s2; st_backcast := st_backcast st1; st_bounds := st_bounds st1 |})
  end.

(** A history of fit() calls, each with its own optimizer behaviour. *)
Fixpoint fits (k : kind) (ms : list solver) (st : state) : res (list (option Params) * state) :=
  match ms with
  | [] => Ok ([], st)
  | m :: ms' =>
      do r <- fit k m st;
      do q <- fits k ms' (snd r);
      Ok (fst r :: fst q, snd q)
  end.

(** ** GJRGARCHModel.forecast_variance, _garch.py l.438-461. *)
Fixpoint forecast_loop (omega alpha gamma beta prev : num) (rs : list num) : list num :=
  match rs with
  | [] => []
  | r :: rs' => let s := gjr_step omega alpha gamma beta prev r in
                s :: forecast_loop omega alpha gamma beta s rs'
  end.
Definition forecast_variance (omega alpha gamma beta : num) (resids : list num)
    (initial_variance : num) : res (list num) :=
  match resids with
  | [] => Err IndexError
  | _ => Ok (forecast_loop omega alpha gamma beta initial_variance (removelast resids))
  end.

End Garch.
