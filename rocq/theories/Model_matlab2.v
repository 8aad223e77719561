(** * The MATLAB drivers: ModMertonSimulation.m and the interest-rate interpolation of ModMertonEmpirical_unobsbookF.m

    As in Model_matlab.v every MATLAB error is [Err RuntimeError].  Not modelled: figures, files, scatteredInterpolant (alternative models 1-3),
    fsolve ([fsolve], an oracle), blsprice (the Financial Toolbox function, taken to be the Python blsprice). *)
From Coq Require Import ZArith List Bool.
From Verif Require Import Arith Model_garch Model_option Model_merton Model_simulation Model_matlab.
Import ListNotations.
Local Open Scope num_scope.

Section MatlabDrivers.
Context (A : Arith).
Notation num := (num A).
Notation zero := (@ofZ A 0).
Notation one := (@ofZ A 1).

(** [M, j] = min(v): the first smallest element, NaN ignored; 1 if all are NaN; an empty v gives an empty j, which no later statement can use *)
Fixpoint m_argmin_from (best : num) (at_ i : Z) (l : list num) : Z :=
  match l with
  | [] => at_
  | x :: l' => if isnan x then m_argmin_from best at_ (i + 1) l'
               else if isnan best || (x <? best) then m_argmin_from x i (i + 1) l' else m_argmin_from best at_ (i + 1) l'
  end.
Definition m_argmin (l : list num) : res Z := match l with [] => Err RuntimeError | x :: l' => Ok (m_argmin_from x 1 2 l') end.
(** ModMertonSimulation.m l.68 *)
Definition m_central_state (r T : num) (mFt : list num) : res Z := m_argmin (map (fun m => nabs (m ⊖ nexp (r ⊗ T ⊘ ofZ 2))) mFt).

(** l.107-122 *)
Definition m_fit_merton (fsolve : (num -> num -> num * num) -> num -> num -> num * num) (g r y H D Et sigEt : num) : merton_estimate A :=
  let bout := fsolve (fun a s => m_merton_solution A a s Et D r y H sigEt) (Et ⊕ D ⊗ nexp (nopp r ⊗ H)) (sigEt ⊘ ofZ 2) in
  let As := fst bout in
  let s := m_max A (snd bout) (lit 1 10000) in
  let dd := (nlog As ⊖ nlog D ⊕ (r ⊖ y ⊖ nsq s ⊘ ofZ 2) ⊗ H) ⊘ (s ⊗ nsqrt H) in
  let P := snd (blsprice A As D r H s y) in
  mk_estimate A dd (ncdf (nopp dd)) (g ⊗ P) ((one ⊘ H) ⊗ nlog ((D ⊗ nexp (nopp r ⊗ H)) ⊘ ((D ⊗ nexp (nopp r ⊗ H)) ⊖ P))) As s.

(** l.124-125 and l.220-245: eight rows at the columns j0, jup = j0+8, jdn = j0-8 *)
Definition m_table (fsolve : (num -> num -> num * num) -> num -> num -> num * num) (g r y H D : num) (m : merton_result A) (j0 : Z) : res (list (num * num * num)) :=
  let b := m_bank A m in
  let fits := map2 (m_fit_merton fsolve g r y H D) (b_Et A b) (b_sigEt A b) in
  let mktCR := map2 (fun e q => e ⊘ (e ⊕ q)) (b_Et A b) (b_Bt A b) in
  let sp := map (fun q => (one ⊘ H) ⊗ nlog ((D ⊗ nexp (nopp r ⊗ H)) ⊘ q)) (b_Bt A b) in
  let at3 (row : list num) := do a <- idx1 row j0; do u <- idx1 row (j0 + 8); do d <- idx1 row (j0 - 8); Ok (a, u, d) in
  let pct (t : num * num * num) := match t with (a, u, d) => (a ⊗ ofZ 100, u ⊗ ofZ 100, d ⊗ ofZ 100) end in
  do r1 <- at3 (m_mFt A m);
  do r2 <- at3 (b_Lt A b);
  do r3 <- at3 mktCR;
  do r4 <- at3 (b_mdef A b);
  do r5 <- at3 sp;
  do r7 <- at3 (map (e_def A) fits);
  do r8 <- at3 (map (e_sp A) fits);
  Ok [r1; r2; r3; r4; pct r5; (ofZ (-9999), ofZ (-9999), ofZ (-9999)); r7; pct r8].
(** l.34-125, 220-245 (comp = 1) *)
Definition m_simulate_table (compute : list num -> list num -> res (merton_result A)) (fsolve : (num -> num -> num * num) -> num -> num -> num * num)
    (fs : list num) (r T bookF H D rho ltv sig d y g : num) : res (list (num * num * num)) :=
  do m <- compute fs [r; T; bookF; H; D; rho; ltv; sig; d; y; g];
  do j0 <- m_central_state r T (m_mFt A m);
  m_table fsolve g r y H D m j0.

(** ModMertonEmpirical_unobsbookF.m l.145-166: the weight of the grid rate minr + (a-1)*rstep, a = 1..rs, for an observed rate r, and the weighted sum *)
Definition m_weight (minr rstep : num) (a : nat) (r : num) : num :=
  let dr := ((minr ⊕ ofN A (a - 1) ⊗ rstep) ⊖ r) ⊘ rstep in
  let W := zero in
  let W := if dr <? zero then one ⊕ dr else W in
  let W := if zero <? dr then one ⊖ dr else W in
  let W := if dr <=? nopp one then zero else W in
  if one <=? dr then zero else W.
Definition m_interpolate (minr rstep : num) (rs : nat) (values : list num) (r : num) : num :=
  asum (map2 (fun v a => v ⊗ m_weight minr rstep a r) values (seq 1 rs)).
End MatlabDrivers.
