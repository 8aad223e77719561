(** * The estimators as sequences of attribute writes

    An exception raised from outside (KeyboardInterrupt) or from inside the objective function can leave fit() or
    estimate() between any two of its assignments to the object's attributes. Model_garch.v, Model_mgarch.v and
    Model_pin.v give the outcome of complete calls; here the same methods are written as programs whose every attribute
    assignment is recorded, so that each prefix of the record is a place where the call can be cut off. *)
From Coq Require Import ZArith List Bool.
From Verif Require Import Arith Model_garch Model_mgarch Model_pin.
Import ListNotations.

(** A program over an object of type [S]: from the object's state it yields the states after each of its
    assignments, in order, and its result. *)
Section Programs.
Context {S : Type}.
Definition prog (X : Type) := S -> list S * res X.
Definition ret {X} (x : X) : prog X := fun s => ([], Ok x).
Definition raise {X} (e : exn) : prog X := fun s => ([], Err e).
Definition lift {X} (r : res X) : prog X := fun s => ([], r).
Definition get {X} (f : S -> X) : prog X := fun s => ([], Ok (f s)).
Definition assign (f : S -> S) : prog unit := fun s => ([f s], Ok tt).
Definition seqp {X Y} (m : prog X) (k : X -> prog Y) : prog Y := fun s =>
  let (t, r) := m s in
  match r with
  | Err e => (t, Err e)
  | Ok x => let (t', r') := k x (last t s) in (t ++ t', r')
  end.
(** the state after a complete call, and the states a cut-off call can leave *)
Definition end_state {X} (m : prog X) (s : S) : S := last (fst (m s)) s.
Definition interrupted {X} (m : prog X) (s s' : S) : Prop := In s' (s :: fst (m s)).
End Programs.
Arguments prog : clear implicits.
(** a program over a part of the object *)
Definition within {S T X} (view : S -> T) (update : T -> S -> S) (m : prog T X) : prog S X := fun s =>
  let (t, r) := m (view s) in (map (fun x => update x s) t, r).
Declare Scope prog_scope.
Delimit Scope prog_scope with prog.
Notation "x <- m ;; k" := (seqp m (fun x => k)) (at level 100, m at next level, right associativity) : prog_scope.
Notation "m ;;; k" := (seqp m (fun _ => k)) (at level 100, right associativity) : prog_scope.

Section Crash.
Context (A : Arith).
Notation num := (num A).
Notation state := (state A).
Open Scope prog_scope.
(** the assignments of GARCHModel and GJRGARCHModel, _garch.py: l.115, l.119, l.149/l.152, l.95/l.395, l.97-99/l.397-403, l.100/l.404 *)
Definition set_backcast (v : num) (s : state) : state := {| st_returns := st_returns A s; st_zero_mean := st_zero_mean A s; st_success := st_success A s; st_ll_final := st_ll_final A s; st_params := st_params A s; st_resids := st_resids A s; st_sigma2 := st_sigma2 A s; st_backcast := v; st_bounds := st_bounds A s |}.
Definition set_bounds (v : list (num * num)) (s : state) : state := {| st_returns := st_returns A s; st_zero_mean := st_zero_mean A s; st_success := st_success A s; st_ll_final := st_ll_final A s; st_params := st_params A s; st_resids := st_resids A s; st_sigma2 := st_sigma2 A s; st_backcast := st_backcast A s; st_bounds := v |}.
Definition set_sigma2 (v : list num) (s : state) : state := {| st_returns := st_returns A s; st_zero_mean := st_zero_mean A s; st_success := st_success A s; st_ll_final := st_ll_final A s; st_params := st_params A s; st_resids := st_resids A s; st_sigma2 := v; st_backcast := st_backcast A s; st_bounds := st_bounds A s |}.
Definition set_success (v : bool) (s : state) : state := {| st_returns := st_returns A s; st_zero_mean := st_zero_mean A s; st_success := v; st_ll_final := st_ll_final A s; st_params := st_params A s; st_resids := st_resids A s; st_sigma2 := st_sigma2 A s; st_backcast := st_backcast A s; st_bounds := st_bounds A s |}.
Definition set_params (v : Params A) (s : state) : state := {| st_returns := st_returns A s; st_zero_mean := st_zero_mean A s; st_success := st_success A s; st_ll_final := st_ll_final A s; st_params := v; st_resids := st_resids A s; st_sigma2 := st_sigma2 A s; st_backcast := st_backcast A s; st_bounds := st_bounds A s |}.
Definition set_resids (v : list num) (s : state) : state := {| st_returns := st_returns A s; st_zero_mean := st_zero_mean A s; st_success := st_success A s; st_ll_final := st_ll_final A s; st_params := st_params A s; st_resids := v; st_sigma2 := st_sigma2 A s; st_backcast := st_backcast A s; st_bounds := st_bounds A s |}.

(** preparation, _garch.py l.104-128 *)
Definition preparation_steps (k : kind) : prog state (list num) :=
  returns <- get (st_returns A);;
  zero_mean <- get (st_zero_mean A);;
  let resids := if (zero_mean : bool) then returns else demean A returns (amean A returns) in
  assign (set_backcast (backcast_py A resids));;;                                               (* l.115 *)
  vb <- lift (variance_bounds A resids);;
  assign (set_bounds vb);;;                                                                     (* l.119 *)
  var_params <- lift (Model_garch.starting_values A k returns resids (backcast_py A resids) vb);;
  ret (if (zero_mean : bool) then var_params else amean A returns :: var_params).
(** the optimizer's evaluations of loglikelihood_model (l.130-156), each of which assigns sigma2 *)
Fixpoint evaluation_steps (k : kind) (pts : list (list num)) : prog state unit :=
  match pts with
  | [] => ret tt
  | x :: rest =>
      s <- get (fun s => s);;
      r <- lift (Model_garch.objective A k s x);;
      assign (set_sigma2 (snd r));;;                                                            (* l.149, l.152 *)
      evaluation_steps k rest
  end.
(** fit, l.51-102 and l.356-406 *)
Definition fit_steps (k : kind) (minimize : solver A) : prog state (option (Params A)) :=
  success <- get (st_success A);;
  match k, (success : bool) with
  | KGarch, true => ret None                                                                    (* l.58-59 *)
  | _, _ =>
      starting_vals <- preparation_steps k;;
      zero_mean <- get (st_zero_mean A);;
      let opt := minimize starting_vals (fit_bounds A k zero_mean) in
      evaluation_steps k (o_evals A opt);;;
      if o_success A opt then
        assign (set_success true);;;                                                            (* l.95, l.395 *)
        let xs := if (zero_mean : bool) then ofZ 0 :: o_x A opt else o_x A opt in
        ps <- lift (make_params A k xs (nopp (o_fun A opt)));;
        assign (set_params ps);;;                                                               (* l.97-99, l.397-403 *)
        returns <- get (st_returns A);;
        assign (set_resids (demean A returns (p_mu A ps)));;;                                   (* l.100, l.404 *)
        ret (Some ps)
      else
        ps <- get (st_params A);;
        ret (Some ps)                                                                           (* l.102, l.406 *)
  end.
(** any number of calls of fit, each cut off at an arbitrary place *)
Inductive cut_off (k : kind) : list (solver A) -> state -> state -> Prop :=
  | cut_none s : cut_off k [] s s
  | cut_more m ms s s1 s2 : interrupted (fit_steps k m) s s1 -> cut_off k ms s1 s2 -> cut_off k (m :: ms) s s2.

(** ** GARCHModel_CCC.fit, _mgarch.py l.57-121 *)
Definition set_c1 (m : state) (o : ccc A) : ccc A := {| c_m1 := m; c_m2 := c_m2 A o; c_success := c_success A o; c_fields := c_fields A o; c_ll := c_ll A o |}.
Definition set_c2 (m : state) (o : ccc A) : ccc A := {| c_m1 := c_m1 A o; c_m2 := m; c_success := c_success A o; c_fields := c_fields A o; c_ll := c_ll A o |}.
Definition ccc_steps (mini1 mini2 : solver A) (mini : list num -> opt_run A) : prog (ccc A) (list num * num) :=
  success <- get (c_success A);;
  if (success : bool) then get (fun o => (c_fields A o, c_ll A o))                              (* l.63-64 *)
  else
    within (c_m1 A) set_c1 (fit_steps KGarch mini1);;;                                          (* l.66 *)
    within (c_m2 A) set_c2 (fit_steps KGarch mini2);;;                                          (* l.67 *)
    m1 <- get (c_m1 A);;
    m2 <- get (c_m2 A);;
    let rho := corr_entry A (standardize A (st_resids A m1) (st_sigma2 A m1)) (standardize A (st_resids A m2) (st_sigma2 A m2)) 1 0 in
    let starting_vals := p_fields A (st_params A m1) ++ p_fields A (st_params A m2) ++ [rho] in
    let opt := mini starting_vals in
    let obj x := ccc_objective A (st_returns A m1) (st_returns A m2) x (st_backcast A m1) (st_backcast A m2) (st_bounds A m1) (st_bounds A m2) in
    lift (fold_left (fun acc x => bind acc (fun _ => bind (obj x) (fun _ => Ok tt))) (o_evals A opt) (Ok tt));;;
    if o_success A opt then
      let fields := o_x A opt ++ repeat nnan (9 - length (o_x A opt)) in
      let ll := nopp (o_fun A opt) in
      assign (fun o => {| c_m1 := c_m1 A o; c_m2 := c_m2 A o; c_success := true; c_fields := c_fields A o; c_ll := c_ll A o |});;;   (* l.119 *)
      assign (fun o => {| c_m1 := c_m1 A o; c_m2 := c_m2 A o; c_success := c_success A o; c_fields := fields; c_ll := ll |});;;     (* l.120 *)
      ret (fields, ll)
    else get (fun o => (c_fields A o, c_ll A o)).                                               (* l.121 *)

(** ** GARCHModel_DCC.fit, _mgarch.py l.249-299, and its helpers *)
Section DCC.
Context (k : kind) (cpp : bool) (mini1 mini2 : solver A).
Definition set_d1 (m : state) (o : dcc A) : dcc A := {| d_models := (m, snd (d_models A o)); d_success := d_success A o; d_marginals := d_marginals A o; d_a := d_a A o; d_b := d_b A o; d_ll := d_ll A o |}.
Definition set_d2 (m : state) (o : dcc A) : dcc A := {| d_models := (fst (d_models A o), m); d_success := d_success A o; d_marginals := d_marginals A o; d_a := d_a A o; d_b := d_b A o; d_ll := d_ll A o |}.
Definition model1 (o : dcc A) := fst (d_models A o).
Definition model2 (o : dcc A) := snd (d_models A o).
(** conditional_correlations, l.356-406 *)
Definition correlations_steps (a b : num) : prog (dcc A) (list num) :=
  within model1 set_d1 (fit_steps k mini1);;;
  within model2 set_d2 (fit_steps k mini2);;;
  m1 <- get model1;;
  m2 <- get model2;;
  lift (cond_corr A cpp a b (st_resids A m1) (st_resids A m2) (st_sigma2 A m1) (st_sigma2 A m2)).
(** loglikelihood_model, l.319-354 *)
Definition dcc_objective_steps (params : list num) : prog (dcc A) num :=
  match params with
  | [a; b] =>
      m1 <- get model1;;
      m2 <- get model2;;
      rho <- correlations_steps a b;;
      ret (dcc_negative_loglik A (p_ll A (st_params A m1)) (p_ll A (st_params A m2)) rho
             (standardize A (st_resids A m1) (st_sigma2 A m1)) (standardize A (st_resids A m2) (st_sigma2 A m2)))
  | _ => raise ValueError
  end.
(** starting_values, l.301-317 *)
Fixpoint dcc_search_steps (max_ll : num) (grid : list (num * num)) (best : num * num) : prog (dcc A) (num * num) :=
  match grid with
  | [] => ret best
  | (a, b) :: rest =>
      if nleb (ofZ 1) (nadd a b) then dcc_search_steps max_ll rest best
      else f <- dcc_objective_steps [a; b];;
           dcc_search_steps max_ll rest (if nltb max_ll (nopp f) then (a, b) else best)
  end.
Fixpoint dcc_evaluation_steps (pts : list (list num)) : prog (dcc A) unit :=
  match pts with
  | [] => ret tt
  | x :: rest => dcc_objective_steps x;;; dcc_evaluation_steps rest
  end.
Definition dcc_steps (mini : list num -> opt_run A) : prog (dcc A) unit :=
  success <- get (d_success A);;
  if (success : bool) then ret tt                                                              (* l.255-256 *)
  else
    within model1 set_d1 (fit_steps k mini1);;;                                                (* l.258 *)
    within model2 set_d2 (fit_steps k mini2);;;                                                (* l.259 *)
    ab <- dcc_search_steps (nopp npinf) (dcc_grid A) (lit 1 100, lit 8 10);;                   (* l.260 *)
    m1 <- get model1;;
    m2 <- get model2;;
    assign (fun o => {| d_models := d_models A o; d_success := d_success A o;
                        d_marginals := p_fields A (st_params A m1) ++ p_fields A (st_params A m2);
                        d_a := nnan; d_b := nnan; d_ll := nnan |});;;                          (* l.263 *)
    let opt := mini [fst ab; snd ab] in
    dcc_evaluation_steps (o_evals A opt);;;
    if o_success A opt then
      assign (fun o => {| d_models := d_models A o; d_success := true; d_marginals := d_marginals A o; d_a := d_a A o; d_b := d_b A o; d_ll := d_ll A o |});;;   (* l.294 *)
      match o_x A opt with
      | [a; b] =>
          assign (fun o => {| d_models := d_models A o; d_success := d_success A o; d_marginals := d_marginals A o; d_a := a; d_b := d_b A o; d_ll := d_ll A o |});;;   (* l.296 *)
          assign (fun o => {| d_models := d_models A o; d_success := d_success A o; d_marginals := d_marginals A o; d_a := d_a A o; d_b := b; d_ll := d_ll A o |});;;   (* l.297 *)
          assign (fun o => {| d_models := d_models A o; d_success := d_success A o; d_marginals := d_marginals A o; d_a := d_a A o; d_b := d_b A o; d_ll := nopp (o_fun A opt) |})   (* l.298 *)
      | _ => raise ValueError                                                                   (* l.295 *)
      end
    else ret tt.
End DCC.

(** ** PIN.estimate, _probability_of_informed_trading.py l.49-103 *)
Definition set_parameters (p : parameters A) (o : pin_object A) : pin_object A :=
  mkPIN A (pin_B A o) (pin_S A o) (estimation_success A o) p.
(** one iteration of the loop, l.96-102: four assignments *)
Definition consider_steps (m : pin_method) (r : opt_result A) : prog (pin_object A) unit :=
  if success A r then
    ll <- get (fun o => par_ll A (pin_parameters A o));;
    if isnan ll || (nltb (nopp (opt_fun A r)) npinf && nltb ll (nopp (opt_fun A r))) then
      assign (set_parameters (mkPar A (opt_x A r) (nopp (opt_fun A r)) nnan None));;;                                    (* l.99 *)
      assign (set_parameters (mkPar A (opt_x A r) (nopp (opt_fun A r)) (calculate_pin A (opt_x A r)) None));;;           (* l.100 *)
      assign (set_parameters (mkPar A (opt_x A r) (nopp (opt_fun A r)) (calculate_pin A (opt_x A r)) (Some m)));;;       (* l.101 *)
      assign (fun o => mkPIN A (pin_B A o) (pin_S A o) true (pin_parameters A o))                                        (* l.102 *)
    else ret tt
  else ret tt.
Fixpoint loop_steps (m : pin_method) (rs : list (opt_result A)) : prog (pin_object A) unit :=
  match rs with [] => ret tt | r :: rest => consider_steps m r;;; loop_steps m rest end.
Definition estimate_steps (method : option pin_method) (min : minimizer A) : prog (pin_object A) (parameters A) :=
  match method with
  | None => raise ValueError                                                                                            (* l.61-62 *)
  | Some m =>
      assign (set_parameters (no_parameters A));;;                                                                      (* l.75 *)
      rs <- get (fun o => runs A o m min);;
      loop_steps m rs;;;
      get (pin_parameters A)                                                                                            (* l.103 *)
  end.
End Crash.
