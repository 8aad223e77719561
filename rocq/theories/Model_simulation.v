(** * Model of the numbers reported by measures/modified_merton/mod_merton_simulation.py, simulate()

    Not modelled: the printing itself, the figures, and the scattered-data interpolation of the alternative models (1)-(3)
    (scipy.interpolate.griddata); the lookup tables they interpolate are in Model_merton.v. *)
From Coq Require Import ZArith List Bool.
From Verif Require Import Arith Model_garch Model_option Model_merton.
Import ListNotations.
Local Open Scope num_scope.

Section Simulation.
Context (A : Arith).
Notation num := (num A).

(** np.argmin: first NaN if there is one, otherwise the first smallest element; ValueError for an empty array *)
Fixpoint argmin_from (best : num) (at_ i : nat) (l : list num) : nat :=
  match l with
  | [] => at_
  | x :: l' => if isnan best then at_ else if isnan x then i else if x <? best then argmin_from x i (S i) l' else argmin_from best at_ (S i) l'
  end.
Definition argmin (l : list num) : res nat := match l with [] => Err ValueError | x :: l' => Ok (argmin_from x 0 1 l') end.

(** j0, l.90-91: the state whose mean borrower asset value is closest to exp(r * T / 2) *)
Definition central_state (r T : num) (mFt : list num) : res nat :=
  argmin (map (fun m => nabs (m ⊖ nexp (r ⊗ T ⊘ ofZ 2))) mFt).

(** distance to default and its normal tail, l.133-136 and l.253-256 *)
Definition merton_dd (As s D r y H : num) : num :=
  (nlog As ⊖ nlog D ⊕ (r ⊖ y ⊖ nsq s ⊘ ofZ 2) ⊗ H) ⊘ (s ⊗ nsqrt H).
Definition merton_default (As s D r y H : num) : num := ncdf (nopp (merton_dd As s D r y H)).

(** one pass of the loop l.125-141: [fsolve f a s] is scipy's root from the start (a, s); max(bout[1], 0.0001) is Python's max *)
Record merton_estimate := mk_estimate { e_dd : num; e_def : num; e_GG : num; e_sp : num; e_A : num; e_s : num }.
Definition fit_merton (fsolve : (num -> num -> num * num) -> num -> num -> num * num) (g r y H D Et sigEt : num) : merton_estimate :=
  let bout := fsolve (fun a s => merton_solution A a s Et D r y H sigEt) (Et ⊕ D ⊗ nexp (nopp r ⊗ H)) (sigEt ⊘ ofZ 2) in
  let As := fst bout in
  let s := pymax A (snd bout) (lit 1 10000) in
  let P := snd (blsprice A As D r H s y) in
  let pv := D ⊗ nexp (nopp r ⊗ H) in
  mk_estimate (merton_dd As s D r y H) (merton_default As s D r y H) (g ⊗ P) ((ofZ 1 ⊘ H) ⊗ nlog (pv ⊘ (pv ⊖ P))) As s.

(** l.145-146 *)
Definition market_capital_ratio (Et Bt : num) : num := Et ⊘ (Et ⊕ Bt).
Definition credit_spread (r H D Bt : num) : num := (ofZ 1 ⊘ H) ⊗ nlog ((D ⊗ nexp (nopp r ⊗ H)) ⊘ Bt).

(** the seven rows of Table 1, l.286-295, at the columns j0, j0 + 8 and j0 - 8 (Python indexing), l.261-262 *)
Definition table_columns (rows : list (list num)) (j0 : nat) : res (list (num * num * num)) :=
  mapM (fun row => do a <- py_index row (Z.of_nat j0); do b <- py_index row (Z.of_nat j0 + 8); do c <- py_index row (Z.of_nat j0 - 8); Ok (a, b, c)) rows.
(** from the result of mod_merton_computation to the table: l.86-146 and l.261-298 *)
Definition table_rows (fsolve : (num -> num -> num * num) -> num -> num -> num * num) (g r y H D : num) (m : merton_result A) : list (list num) :=
  let b := m_bank A m in
  let fits := map2 (fit_merton fsolve g r y H D) (b_Et A b) (b_sigEt A b) in
  [m_mFt A m; b_Lt A b; map2 market_capital_ratio (b_Et A b) (b_Bt A b); b_mdef A b;
   map (fun x => credit_spread r H D x ⊗ ofZ 100) (b_Bt A b); map e_def fits; map (fun e => e_sp e ⊗ ofZ 100) fits].
Definition simulate_table (compute : list num -> list num -> res (merton_result A)) (fsolve : (num -> num -> num * num) -> num -> num -> num * num)
    (fs : list num) (r T bookF H D rho ltv sig d y g : num) : res (list (num * num * num)) :=
  do m <- compute fs [r; T; bookF; H; D; rho; ltv; sig; d; y; g];
  do j0 <- central_state r T (m_mFt A m);
  table_columns (table_rows fsolve g r y H D m) j0.
End Simulation.
