(** * Model of src/frds/measures/_probability_of_informed_trading.py *)
From Coq Require Import ZArith List Bool.
From Verif Require Import Arith.
Import ListNotations.
Local Open Scope num_scope.

Section PIN.
Context (A : Arith).
Notation num := (num A).

(** optimizer vector (alpha, delta, eB, eS, mu), l.89, l.132, l.156 *)
Record p5 := mkP5 { alpha : num; delta : num; eB : num; eS : num; mu : num }.
Inductive pin_method := EHO2010 | LK2011.
(** Parameters dataclass, l.14-23; [par_method] = None is the empty string *)
Record parameters := mkPar { par : p5; par_ll : num; par_pin : num; par_method : option pin_method }.
Definition no_parameters : parameters :=                                       (* Parameters(), l.47, l.75 *)
  mkPar (mkP5 nnan nnan nnan nnan nnan) nnan nnan None.

(** calculate_pin, l.25-31 *)
Definition calculate_pin (p : p5) : num :=
  alpha p ⊗ mu p ⊘ (alpha p ⊗ mu p ⊕ eB p ⊕ eS p).

(** init_params_grid_search, l.105-121 *)
Definition grid : list num := [lit 1 10; lit 3 10; lit 5 10; lit 7 10; lit 9 10].
Definition grid_product : list (num * num * num) :=                            (* itertools.product, l.114 *)
  flat_map (fun a => flat_map (fun d => map (fun g => (a, d, g)) grid) grid) grid.
Definition start_of (B S : list num) (q : num * num * num) : p5 :=
  match q with (a, d, g) =>
    let B_bar := amean A B in
    let eb := g ⊗ B_bar in
    let m := (B_bar ⊖ eb) ⊘ (a ⊗ (ofZ 1 ⊖ d)) in
    let es := amean A S ⊖ a ⊗ d ⊗ m in
    mkP5 a d eb es m
  end.
Definition starting_values (B S : list num) : list p5 :=
  filter (fun p => negb (eS p <? ofZ 0)) (map (start_of B S) grid_product).

(** np.minimum / np.maximum on a pair; NaN-propagating *)
Definition minimum (x y : num) : num := if isnan x then x else if isnan y then y else if y <? x then y else x.
Definition maximum (x y : num) : num := if isnan x then x else if isnan y then y else if x <? y then y else x.

(** loglikelihood_EHO2010, l.123-145: the two np.sum arguments, element by element *)
Definition eho_first (p : p5) (b s : num) : num :=
  let xs := eS p ⊘ (mu p ⊕ eS p) in
  let xb := eB p ⊘ (mu p ⊕ eB p) in
  let M := minimum b s ⊕ maximum b s ⊘ ofZ 2 in
  nopp (eB p) ⊖ eS p ⊕ M ⊗ (nlog xb ⊕ nlog xs) ⊕ b ⊗ nlog (mu p ⊕ eB p) ⊕ s ⊗ nlog (mu p ⊕ eS p).
Definition eho_second (p : p5) (b s : num) : num :=
  let xs := eS p ⊘ (mu p ⊕ eS p) in
  let xb := eB p ⊘ (mu p ⊕ eB p) in
  let M := minimum b s ⊕ maximum b s ⊘ ofZ 2 in
  nlog (alpha p ⊗ (ofZ 1 ⊖ delta p) ⊗ nexp (nopp (mu p)) ⊗ npow xs (s ⊖ M) ⊗ npow xb (nopp M)
        ⊕ alpha p ⊗ delta p ⊗ nexp (nopp (mu p)) ⊗ npow xb (b ⊖ M) ⊗ npow xs (nopp M)
        ⊕ (ofZ 1 ⊖ alpha p) ⊗ npow xs (s ⊖ M) ⊗ npow xb (b ⊖ M)).
Definition loglikelihood_EHO2010 (B S : list num) (p : p5) : num :=
  nopp (asum (map2 (eho_first p) B S) ⊕ asum (map2 (eho_second p) B S)).

(** loglikelihood_LK2011, l.147-169 *)
Definition lk_exponents (p : p5) (b s : num) : num * num * num * num :=
  let e1 := nopp (mu p) ⊖ s ⊗ nlog (ofZ 1 ⊕ mu p ⊘ eS p) in
  let e2 := nopp (mu p) ⊖ b ⊗ nlog (ofZ 1 ⊕ mu p ⊘ eB p) in
  let e3 := nopp b ⊗ nlog (ofZ 1 ⊕ mu p ⊘ eB p) ⊖ s ⊗ nlog (ofZ 1 ⊕ mu p ⊘ eS p) in
  (e1, e2, e3, maximum (maximum e1 e2) e3).                                    (* np.maximum.reduce, l.162 *)
Definition lk_first (p : p5) (b s : num) : num :=
  match lk_exponents p b s with (_, _, _, emax) =>
    nopp (eB p) ⊖ eS p ⊕ b ⊗ nlog (mu p ⊕ eB p) ⊕ s ⊗ nlog (mu p ⊕ eS p) ⊕ emax end.
Definition lk_second (p : p5) (b s : num) : num :=
  match lk_exponents p b s with (e1, e2, e3, emax) =>
    nlog (alpha p ⊗ (ofZ 1 ⊖ delta p) ⊗ nexp (e1 ⊖ emax) ⊕ alpha p ⊗ delta p ⊗ nexp (e2 ⊖ emax)
          ⊕ (ofZ 1 ⊖ alpha p) ⊗ nexp (e3 ⊖ emax)) end.
Definition loglikelihood_LK2011 (B S : list num) (p : p5) : num :=
  nopp (asum (map2 (lk_first p) B S) ⊕ asum (map2 (lk_second p) B S)).

(** scipy.optimize.minimize, l.90-95: an oracle that may answer anything, differently at every call *)
Record opt_result := mkOpt { success : bool; opt_x : p5; opt_fun : num }.
Definition minimizer := nat -> (p5 -> num) -> p5 -> opt_result.

(** the PIN object, l.33-47. [B.shape == S.shape] is the assertion of the constructor; 1-d arrays *)
Record pin_object := mkPIN { pin_B : list num; pin_S : list num; estimation_success : bool; pin_parameters : parameters }.
Definition new_PIN (B S : list num) : res pin_object :=
  check (Nat.eqb (length B) (length S)) AssertionError (Ok (mkPIN B S false no_parameters)).

(** one iteration of the loop l.88-102 *)
Definition consider (m : pin_method) (o : pin_object) (r : opt_result) : pin_object :=
  if success r then
    let ll := par_ll (pin_parameters o) in
    if isnan ll || ((nopp (opt_fun r) <? npinf) && (ll <? nopp (opt_fun r)))
    then mkPIN (pin_B o) (pin_S o) true (mkPar (opt_x r) (nopp (opt_fun r)) (calculate_pin (opt_x r)) (Some m))
    else o
  else o.
Definition objective (o : pin_object) (m : pin_method) : p5 -> num :=          (* l.76-79 *)
  match m with EHO2010 => loglikelihood_EHO2010 (pin_B o) (pin_S o) | LK2011 => loglikelihood_LK2011 (pin_B o) (pin_S o) end.
(** the optimizer's answers for the successive starts *)
Definition runs (o : pin_object) (m : pin_method) (min : minimizer) : list opt_result :=
  let starts := starting_values (pin_B o) (pin_S o) in
  map2 (fun i p => min i (objective o m) p) (seq 0 (length starts)) starts.
(** estimate, l.49-103: [None] stands for any string other than the two method names *)
Definition estimate (o : pin_object) (method : option pin_method) (min : minimizer) : pin_object * res parameters :=
  match method with
  | None => (o, Err ValueError)                                                (* l.61-62 *)
  | Some m =>
      let o' := fold_left (consider m) (runs o m min) (mkPIN (pin_B o) (pin_S o) (estimation_success o) no_parameters) in
      (o', Ok (pin_parameters o'))
  end.
End PIN.
