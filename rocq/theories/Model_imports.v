(** * Model of the package's import statements (Python 3 import system)

    Third-party and standard-library imports are assumed to succeed and are left out; so are imports under
    [if __name__ == "__main__"].  The attribute a submodule gets on its parent package is not recorded: a from-import
    of a missing name falls back to importing the submodule of that name, as Python does. *)
From Coq Require Import List Bool String Arith.
From Verif Require Import Arith.
Import ListNotations.
Open Scope string_scope.

(** every module of src/frds, the three C++ extensions of setup.py l.14-43, and frds.measures.option_price, which some modules name *)
Inductive modname :=
  | frds | algorithms | a_garch | a_mgarch | a_utils | utils_ext | isolation_forest | iforest_ext
  | datasets | d_stocks
  | measures | m_absorption | m_cca | m_dip | m_lerner | m_lrmes | m_mes | m_pin | m_srisk | m_ses | m_kyle | m_option_price | m_zscore
  | measures_ext | spread | price_impact | lob_slope | option_price
  | modified_merton | fftsmooth | loan_payoff | find_face_value_indiv | merton_solution | mod_merton_computation | mod_merton_create_lookup
  | mod_merton_simulation | mod_single_cohort_computation | mod_single_cohort_solution | mod_single_merton_create_lookup.
Definition all_modules : list modname :=
  [frds; algorithms; a_garch; a_mgarch; a_utils; utils_ext; isolation_forest; iforest_ext; datasets; d_stocks;
   measures; m_absorption; m_cca; m_dip; m_lerner; m_lrmes; m_mes; m_pin; m_srisk; m_ses; m_kyle; m_option_price; m_zscore;
   measures_ext; spread; price_impact; lob_slope; option_price;
   modified_merton; fftsmooth; loan_payoff; find_face_value_indiv; merton_solution; mod_merton_computation; mod_merton_create_lookup;
   mod_merton_simulation; mod_single_cohort_computation; mod_single_cohort_solution; mod_single_merton_create_lookup].

(** the package a module lives in *)
Definition parent (m : modname) : option modname :=
  match m with
  | frds => None
  | algorithms | datasets | measures => Some frds
  | a_garch | a_mgarch | a_utils | isolation_forest => Some algorithms
  | utils_ext => Some a_utils
  | iforest_ext => Some isolation_forest
  | d_stocks => Some datasets
  | m_absorption | m_cca | m_dip | m_lerner | m_lrmes | m_mes | m_pin | m_srisk | m_ses | m_kyle | m_option_price | m_zscore
  | measures_ext | spread | price_impact | lob_slope | option_price | modified_merton => Some measures
  | _ => Some modified_merton
  end.
(** which of the C++ extensions have been built *)
Record built := { b_utils : bool; b_iforest : bool; b_measures : bool }.
Definition file_exists (b : built) (m : modname) : bool :=
  match m with utils_ext => b_utils b | iforest_ext => b_iforest b | measures_ext => b_measures b | option_price => false | _ => true end.
(** submodules a from-import may fall back to *)
Definition submodule (m : modname) (name : string) : option modname :=
  match m with measures => if String.eqb name "measures_ext" then Some measures_ext else None | _ => None end.

Inductive stmt :=
  | Import (m : modname)                                (* import a.b.c [as x] *)
  | From (m : modname) (names : list string)            (* from a.b import x, y *)
  | Try (s : stmt)                                      (* try: s  except ImportError: ... *)
  | Define (name : string).                             (* class / def / assignment *)
(** the bodies, in source order *)
Definition body (m : modname) : list stmt :=
  match m with
  | algorithms => [From a_garch ["GARCHModel"; "GJRGARCHModel"]; From a_mgarch ["GARCHModel_CCC"; "GARCHModel_DCC"; "GJRGARCHModel_DCC"]]   (* algorithms/__init__.py l.1-2 *)
  | a_garch => [Try (Import utils_ext); Define "GARCHModel"; Define "GJRGARCHModel"]                                                     (* _garch.py l.9-12, 15, 338 *)
  | a_mgarch => [From algorithms ["GARCHModel"; "GJRGARCHModel"]; Try (Import utils_ext); Define "GARCHModel_CCC"; Define "GARCHModel_DCC"; Define "GJRGARCHModel_DCC"]   (* _mgarch.py l.8-15, 18, 193, 409 *)
  | isolation_forest => [Import iforest_ext; Define "anomaly_scores"]                                                                    (* isolation_forest/__init__.py l.6, 9 *)
  | datasets => [From d_stocks ["StockReturns"]]                                                                                         (* datasets/__init__.py l.7 *)
  | d_stocks => [Define "StockReturns"]
  | measures => [From m_absorption ["AbsorptionRatio"]; From m_cca ["ContingentClaimAnalysis"]; From m_dip ["DistressInsurancePremium"]; From m_lerner ["LernerIndex"];
      From m_lrmes ["LongRunMarginalExpectedShortfall"]; From m_mes ["MarginalExpectedShortfall"]; From m_pin ["PIN"]; From m_srisk ["SRISK"]; From m_ses ["SystemicExpectedShortfall"];
      From m_kyle ["kyle_lambda"]; From m_option_price ["blsprice"]; From m_zscore ["z_score"]; Define "LRMES"]                          (* measures/__init__.py l.6-20 *)
  | m_absorption => [Define "AbsorptionRatio"] | m_cca => [Define "ContingentClaimAnalysis"] | m_dip => [Define "DistressInsurancePremium"] | m_lerner => [Define "LernerIndex"]
  | m_lrmes => [From algorithms ["GJRGARCHModel"; "GJRGARCHModel_DCC"]; Try (From measures ["measures_ext"]); Define "LongRunMarginalExpectedShortfall"]   (* _long_run_mes.py l.3-9, 12 *)
  | m_mes => [Define "MarginalExpectedShortfall"] | m_pin => [Define "PIN"]
  | m_srisk => [From measures ["LongRunMarginalExpectedShortfall"]; Define "SRISK"]                                                      (* _srisk.py l.4, 7 *)
  | m_ses => [Define "SystemicExpectedShortfall"] | m_kyle => [Define "kyle_lambda"] | m_option_price => [Define "blsprice"] | m_zscore => [Define "z_score"]
  | fftsmooth => [Define "fftsmooth"] | loan_payoff => [Define "loan_payoff"]
  | find_face_value_indiv => [From option_price ["blsprice"]; Define "find_face_value_indiv"]                                            (* find_face_value_indiv.py l.2 *)
  | merton_solution => [From option_price ["blsprice"]; Define "merton_solution"]                                                        (* merton_solution.py l.6 *)
  | mod_merton_computation => [From fftsmooth ["fftsmooth"]; From loan_payoff ["loan_payoff"]; From find_face_value_indiv ["find_face_value_indiv"]; Define "mod_merton_computation"]   (* l.5-7 *)
  | mod_single_cohort_computation => [From fftsmooth ["fftsmooth"]; From loan_payoff ["loan_payoff"]; From find_face_value_indiv ["find_face_value_indiv"]; Define "mod_single_cohort_computation"]
  | mod_merton_create_lookup => [From mod_merton_computation ["mod_merton_computation"]; Define "mod_merton_create_lookup"]
  | mod_single_merton_create_lookup => [From mod_single_cohort_computation ["mod_single_cohort_computation"]; Define "mod_single_merton_create_lookup"]
  | mod_single_cohort_solution => [From mod_single_cohort_computation ["mod_single_cohort_computation"]; Define "mod_single_cohort_solution"]
  | mod_merton_simulation => [From option_price ["blsprice"]; From merton_solution ["merton_solution"]; From mod_merton_computation ["mod_merton_computation"];
      From mod_merton_create_lookup ["mod_merton_create_lookup"]; From mod_single_merton_create_lookup ["mod_single_merton_create_lookup"]; Define "simulate"]   (* mod_merton_simulation.py l.10-18 *)
  | _ => []
  end.

(** sys.modules: for every module of [all_modules], None, or the names it has so far (it may be partially initialised) *)
Definition interp := list (option (list string)).
(** the place of a module in [all_modules] *)
Definition position (m : modname) : nat :=
  match m with
  | frds => 0 | algorithms => 1 | a_garch => 2 | a_mgarch => 3 | a_utils => 4 | utils_ext => 5 | isolation_forest => 6 | iforest_ext => 7 | datasets => 8 | d_stocks => 9 | measures => 10 | m_absorption => 11 | m_cca => 12 | m_dip => 13 | m_lerner => 14 | m_lrmes => 15 | m_mes => 16 | m_pin => 17 | m_srisk => 18 | m_ses => 19 | m_kyle => 20 | m_option_price => 21 | m_zscore => 22 | measures_ext => 23 | spread => 24 | price_impact => 25 | lob_slope => 26 | option_price => 27 | modified_merton => 28 | fftsmooth => 29 | loan_payoff => 30 | find_face_value_indiv => 31 | merton_solution => 32 | mod_merton_computation => 33 | mod_merton_create_lookup => 34 | mod_merton_simulation => 35 | mod_single_cohort_computation => 36 | mod_single_cohort_solution => 37 | mod_single_merton_create_lookup => 38
  end%nat.
Fixpoint store (s : interp) (i : nat) (v : option (list string)) : interp :=
  match s, i with [], _ => [] | _ :: s', O => v :: s' | x :: s', S i' => x :: store s' i' v end.
Definition lookup (s : interp) (m : modname) : option (list string) := nth (position m) s None.
Definition update (s : interp) (m : modname) (v : option (list string)) : interp := store s (position m) v.
Definition bind_name (s : interp) (m : modname) (n : string) : interp :=
  match lookup s m with Some ns => update s m (Some (ns ++ [n])%list) | None => s end.
Definition fresh : interp := map (fun _ => None) all_modules.

Definition is_import_error (e : exn) : bool := match e with ImportError | ModuleNotFoundError => true | _ => false end.
Section Interpreter.
Variable (imp : interp -> modname -> interp * option exn).
(** names of a from-import: attributes of the module, or submodules that can be imported *)
Fixpoint fetch (s : interp) (m : modname) (names : list string) : interp * option exn :=
  match names with
  | [] => (s, None)
  | n :: names' =>
      match lookup s m with
      | Some ns =>
          if existsb (String.eqb n) ns then fetch s m names'
          else match submodule m n with
               | Some c => match imp s c with
                           | (s1, None) => fetch s1 m names'
                           | (s1, Some e) => (s1, Some (if is_import_error e then ImportError else e))   (* a missing submodule makes "from a import b" an ImportError *)
                           end
               | None => (s, Some ImportError)
               end
      | None => (s, Some ImportError)
      end
  end.
Fixpoint exec (self : modname) (s : interp) (st : stmt) : interp * option exn :=
  match st with
  | Import m => imp s m
  | From m names =>
      match imp s m with
      | (s1, None) =>
          match fetch s1 m names with
          | (s2, None) => (fold_left (fun s n => bind_name s self n) names s2, None)
          | (s2, Some e) => (s2, Some e)
          end
      | (s1, Some e) => (s1, Some e)
      end
  | Try st' => match exec self s st' with (s1, Some e) => (s1, if is_import_error e then None else Some e) | r => r end
  | Define n => (bind_name s self n, None)
  end.
Fixpoint run (self : modname) (s : interp) (l : list stmt) : interp * option exn :=
  match l with
  | [] => (s, None)
  | st :: l' => match exec self s st with (s1, None) => run self s1 l' | r => r end
  end.
End Interpreter.
(** importlib: parents first; a module already in sys.modules is not run again; a module whose body raises is removed from sys.modules.
    [fuel] bounds the nesting of imports; running out is reported as RuntimeError (Python's RecursionError). *)
Fixpoint import_module (b : built) (fuel : nat) (s : interp) (m : modname) : interp * option exn :=
  match fuel with
  | O => (s, Some RuntimeError)
  | S fuel' =>
      let imp := import_module b fuel' in
      match (match parent m with None => (s, None) | Some p => imp s p end) with
      | (s1, Some e) => (s1, Some e)
      | (s1, None) =>
          match lookup s1 m with
          | Some _ => (s1, None)
          | None =>
              if file_exists b m then
                match run imp m (update s1 m (Some [])) (body m) with
                | (s2, None) => (s2, None)
                | (s2, Some e) => (update s2 m None, Some e)
                end
              else (s1, Some ModuleNotFoundError)
          end
      end
  end.
(** a session: any sequence of import attempts, starting from a fresh interpreter; failed attempts are ignored *)
Definition session (b : built) (history : list modname) : interp := fold_left (fun s m => fst (import_module b 100 s m)) history fresh.
