(** * Model of src/frds/measures/_srisk.py with the LRMES measure it calls (_long_run_mes.py) *)
From Coq Require Import ZArith List Bool.
From Verif Require Import Arith Model_garch Model_mgarch Model_lrmes Model_measures.
Import ListNotations.

Section Srisk.
Context (A : Arith).
Notation num := (num A).

(** what a call of LongRunMarginalExpectedShortfall(firm, market).estimate(h, S, C, seed) depends on besides the series: the two
    extensions, the three optimizations (each a deterministic function of the series defining its objective), the index lists drawn
    by np.random.default_rng(seed) for a sample of size n, C, and the contents of fresh np.empty arrays *)
Record lrmes_env := {
  e_cpp1 : bool; e_cpp2 : bool;
  e_firm_solver : list num -> solver A; e_market_solver : list num -> solver A;
  e_joint_solver : list num -> list num -> list num -> opt_run A;
  e_draws : nat -> list (list nat); e_C : num;
  e_mem1 : list num; e_mem2 : list num; e_mem3 : list num; e_mem4 : list num }.

(** _long_run_mes.py l.15-134 as called from _srisk.py l.81-90. The result is a numpy scalar when the scenarios are simulated in
    Python and one of them is systemic (l.232-248: np.exp); otherwise a Python float (l.131-134, and the C++ simulation). *)
Definition lrmes_call (e : lrmes_env) (firm market : list num) : res (scalar A) :=
  do o <- lrmes_init A firm market (e_mem1 e) (e_mem2 e) (e_mem3 e) (e_mem4 e);
  do r <- estimate_setup A (e_cpp1 e) (e_firm_solver e firm) (e_market_solver e market) (e_joint_solver e firm market) (e_draws e) o;
  let i := fst (fst r) in
  let scenarios := snd (fst r) in
  Ok (negb (e_cpp2 e) && negb (n_systemic_events A (e_cpp2 e) i (e_C e) scenarios =? 0)%Z, lrmes A (e_cpp2 e) i (e_C e) scenarios).

(** SRISK.estimate, _srisk.py l.56-97 *)
Definition srisk_call_one (e : lrmes_env) (firm market : list num) (W D : pyval A) (k : num) (aggregate : bool) : res (scalar A) :=
  srisk_estimate_one A (lrmes_call e) firm market W D k aggregate.
Definition srisk_call_many (e : lrmes_env) (columns : list (list num)) (market W D : list num) (k : num) : res (list num) :=
  srisk_estimate_many A (lrmes_call e) columns market W D k.
Definition srisk_call_aggregate (e : lrmes_env) (columns : list (list num)) (market W D : list num) (k : num) : res num :=
  srisk_estimate_many_aggregate A (lrmes_call e) columns market W D k.
End Srisk.
