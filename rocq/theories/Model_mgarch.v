(** * Model of src/frds/algorithms/_mgarch.py and utils/mgarch.hpp

    scipy.optimize.minimize is an oracle, as in Model_garch: it evaluates the objective at an arbitrary finite
    sequence of points and reports success, x and fun. *)
From Coq Require Import ZArith List Bool.
From Verif Require Import Arith Model_garch Model_ar.
Import ListNotations.
Local Open Scope num_scope.

Section MGarch.
Context (A : Arith).
Notation num := (num A).
Notation state := (Model_garch.state A).

(** standardized residuals [resids / np.sqrt(sigma2)], l.68-69, l.177-178, l.334-335, l.385-386 *)
Definition standardize (resids sigma2 : list num) : list num := map2 (fun r s => r ⊘ nsqrt s) resids sigma2.

(** np.corrcoef(z1, z2): covariance, divided by the standard deviations (row first), clipped to [-1,1] *)
Definition corr_entry (z1 z2 : list num) (i j : nat) : num :=
  let c := np_cov A [z1; z2] in
  let e i j := nth j (nth i c []) nnan in
  npclip A (e i j ⊘ nsqrt (e i i) ⊘ nsqrt (e j j)) (nopp (ofZ 1)) (ofZ 1).

(** the common recursion, _mgarch.py l.395-406 and mgarch.hpp l.42-57; [zs] are the pairs z[t-1] still to use *)
Fixpoint dcc_loop (a b q11b q12b q22b q11 q12 q22 : num) (zs : list (num * num)) : list num :=
  match zs with
  | [] => []
  | (z1, z2) :: zs' =>
      let q11 := (ofZ 1 ⊖ a ⊖ b) ⊗ q11b ⊕ a ⊗ nsq z1 ⊕ b ⊗ q11 in
      let q22 := (ofZ 1 ⊖ a ⊖ b) ⊗ q22b ⊕ a ⊗ nsq z2 ⊕ b ⊗ q22 in
      let q12 := (ofZ 1 ⊖ a ⊖ b) ⊗ q12b ⊕ a ⊗ z1 ⊗ z2 ⊕ b ⊗ q12 in
      q12 ⊘ nsqrt (q11 ⊗ q22) :: dcc_loop a b q11b q12b q22b q11 q12 q22 zs'
  end.
Definition dcc_path (a b q11b q12b q22b : num) (z1 z2 : list num) : list num :=
  q12b ⊘ nsqrt (q11b ⊗ q22b) :: dcc_loop a b q11b q12b q22b q11b q12b q22b (removelast (combine z1 z2)).

(** conditional_correlations, pure-Python path, l.379-406 *)
Definition cond_corr_py (a b : num) (resids1 resids2 sigma2_1 sigma2_2 : list num) : res (list num) :=
  let z1 := standardize resids1 sigma2_1 in
  let z2 := standardize resids2 sigma2_2 in
  match z1 with
  | [] => Err IndexError                                             (* q11[0] on an empty array, l.395 *)
  | _ => Ok (dcc_path a b (corr_entry z1 z2 0 0) (corr_entry z1 z2 0 1) (corr_entry z1 z2 1 1) z1 z2)
  end.
(** DCC::conditional_correlations, mgarch.hpp l.10-58; an empty series is out-of-bounds access in the code *)
Definition cond_corr_cpp (a b : num) (resids1 resids2 sigma2_1 sigma2_2 : list num) : res (list num) :=
  let z1 := standardize resids1 sigma2_1 in
  let z2 := standardize resids2 sigma2_2 in
  let T := ofZ (Z.of_nat (length z1)) in
  let moment f := fold_left nadd (map2 f z1 z2) (ofZ 0) ⊘ T in
  match z1 with
  | [] => Err RuntimeError
  | _ => Ok (dcc_path a b (moment (fun x _ => x ⊗ x)) (moment (fun x y => x ⊗ y)) (moment (fun _ y => y ⊗ y)) z1 z2)
  end.
Definition cond_corr (cpp : bool) := if cpp then cond_corr_cpp else cond_corr_py.

(** ** CCC: loglikelihood, l.158-190 *)
Definition ccc_term (rho r1 s1 r2 s2 : num) : num :=
  let z1 := r1 ⊘ nsqrt s1 in
  let z2 := r2 ⊘ nsqrt s2 in
  nopp (lit 5 10) ⊗ (ofZ 2 ⊗ nlog (ofZ 2 ⊗ npi)
    ⊕ nlog (s1 ⊗ s2 ⊗ (ofZ 1 ⊖ nsq rho))
    ⊕ (nsq z1 ⊕ nsq z2 ⊖ ofZ 2 ⊗ rho ⊗ z1 ⊗ z2) ⊘ (ofZ 1 ⊖ nsq rho)).
Definition ccc_loglikelihood (resids1 sigma2_1 resids2 sigma2_2 : list num) (rho : num) : num :=
  asum (map2 (fun p q => ccc_term rho (fst p) (snd p) (fst q) (snd q)) (combine resids1 sigma2_1) (combine resids2 sigma2_2)).
(** loglikelihood_model, l.123-156: the backcast and bounds arguments are overwritten at once *)
Definition ccc_objective (returns1 returns2 : list num) (params : list num)
    (backcast1 backcast2 : num) (var_bounds1 var_bounds2 : list (num * num)) : res num :=
  match params with
  | [mu1; omega1; alpha1; beta1; mu2; omega2; alpha2; beta2; rho] =>
      let resids1 := demean A returns1 mu1 in
      let resids2 := demean A returns2 mu2 in
      let backcast1 := backcast_py A resids1 in
      let backcast2 := backcast_py A resids2 in
      do var_bounds1 <- variance_bounds A resids1;
      do var_bounds2 <- variance_bounds A resids2;
      do s1 <- garch_variance_py A [omega1; alpha1; beta1] resids1 backcast1 var_bounds1;
      do s2 <- garch_variance_py A [omega2; alpha2; beta2] resids2 backcast2 var_bounds2;
      Ok (nopp (ccc_loglikelihood resids1 s1 resids2 s2 rho))
  | _ => Err ValueError
  end.
(** bounds and constraints handed to SLSQP, l.75-99 *)
Definition ccc_bounds : list (num * num) :=
  let one := [(nopp npinf, npinf); (lit 1 1000000, npinf); (ofZ 0, ofZ 1); (ofZ 0, ofZ 1)] in
  one ++ one ++ [(nopp (lit 99 100), lit 99 100)].
Definition ccc_constraints (params : list num) : list num :=
  match params with
  | [_; _; alpha1; beta1; _; _; alpha2; beta2; _] => [ofZ 1 ⊖ (alpha1 ⊕ beta1); ofZ 1 ⊖ (alpha2 ⊕ beta2)]
  | _ => []
  end.
(** the object: sub-models, flag and Parameters (nine fields and the log-likelihood), l.28-55 *)
Record ccc := { c_m1 : state; c_m2 : state; c_success : bool; c_fields : list num; c_ll : num }.
Definition new_ccc (returns1 returns2 g1 g2 g3 g4 : list num) : ccc :=
  {| c_m1 := init A KGarch returns1 g1 g2 false; c_m2 := init A KGarch returns2 g3 g4 false;
     c_success := false; c_fields := repeat nnan 9; c_ll := nnan |}.
(** fit, l.57-121.  [mini1], [mini2] are the optimizer runs of the sub-models, [mini] that of the joint problem *)
Definition ccc_fit (mini1 mini2 : solver A) (mini : list num -> opt_run A) (o : ccc) : res ((list num * num) * ccc) :=
  if c_success o then Ok ((c_fields o, c_ll o), o)
  else
    do r1 <- fit A KGarch mini1 (c_m1 o);
    do r2 <- fit A KGarch mini2 (c_m2 o);
    let m1 := snd r1 in
    let m2 := snd r2 in
    let rho := corr_entry (standardize (st_resids A m1) (st_sigma2 A m1)) (standardize (st_resids A m2) (st_sigma2 A m2)) 1 0 in
    let starting_vals := p_fields A (st_params A m1) ++ p_fields A (st_params A m2) ++ [rho] in
    let opt := mini starting_vals in
    let obj x := ccc_objective (st_returns A m1) (st_returns A m2) x (st_backcast A m1) (st_backcast A m2) (st_bounds A m1) (st_bounds A m2) in
    do _ <- fold_left (fun acc x => do _ <- acc; do _ <- obj x; Ok tt) (o_evals A opt) (Ok tt);
    if o_success A opt then
      let fields := o_x A opt ++ repeat nnan (9 - length (o_x A opt)) in
      let ll := nopp (o_fun A opt) in
      Ok ((fields, ll), {| c_m1 := m1; c_m2 := m2; c_success := true; c_fields := fields; c_ll := ll |})
    else
      Ok ((c_fields o, c_ll o), {| c_m1 := m1; c_m2 := m2; c_success := false; c_fields := c_fields o; c_ll := c_ll o |}).

(** ** DCC *)
(** correlation component, l.345-351 *)
Definition dcc_term (rho z1 z2 : num) : num :=
  nopp (lit 5 10) ⊗ (nopp (nsq z1 ⊕ nsq z2) ⊕ nlog (ofZ 1 ⊖ nsq rho)
    ⊕ (nsq z1 ⊕ nsq z2 ⊖ ofZ 2 ⊗ rho ⊗ z1 ⊗ z2) ⊘ (ofZ 1 ⊖ nsq rho)).
(** the two-step log-likelihood with its sign, l.336-354 *)
Definition dcc_negative_loglik (ll1 ll2 : num) (rho z1 z2 : list num) : num :=
  let rho := map (fun r => npclip A r (nopp (lit 99 100)) (lit 99 100)) rho in
  let l1 := ll1 ⊕ ll2 in
  let l2 := asum (map2 (fun r z => dcc_term r (fst z) (snd z)) rho (combine z1 z2)) in
  nopp (l1 ⊕ l2).

Section DCC.
Context (k : kind) (cpp : bool) (mini1 mini2 : solver A).
Notation models := (state * state)%type.
(** conditional_correlations, l.356-406: re-fits both sub-models first *)
Definition conditional_correlations (ms : models) (a b : num) : res (list num * models) :=
  do r1 <- fit A k mini1 (fst ms);
  do r2 <- fit A k mini2 (snd ms);
  let m1 := snd r1 in
  let m2 := snd r2 in
  do rho <- cond_corr cpp a b (st_resids A m1) (st_resids A m2) (st_sigma2 A m1) (st_sigma2 A m2);
  Ok (rho, (m1, m2)).
(** loglikelihood_model, l.319-354: residuals, variances and l1 are read before the re-fit *)
Definition dcc_objective (ms : models) (params : list num) : res (num * models) :=
  match params with
  | [a; b] =>
      let z1 := standardize (st_resids A (fst ms)) (st_sigma2 A (fst ms)) in
      let z2 := standardize (st_resids A (snd ms)) (st_sigma2 A (snd ms)) in
      do r <- conditional_correlations ms a b;
      Ok (dcc_negative_loglik (p_ll A (st_params A (fst ms))) (p_ll A (st_params A (snd ms))) (fst r) z1 z2, snd r)
  | _ => Err ValueError
  end.
(** np.linspace(start, stop, n) *)
Definition linspace (start stop : num) (n : nat) : list num :=
  let step := (stop ⊖ start) ⊘ ofZ (Z.of_nat n - 1) in
  map (fun i => if Nat.eqb i (n - 1) then stop else ofZ (Z.of_nat i) ⊗ step ⊕ start) (seq 0 n).
(** the grid, in the order of itertools.product, l.307-313 *)
Definition dcc_grid : list (num * num) :=
  list_prod (linspace (lit 1 100) (lit 5 10) 10) (linspace (lit 6 10) (lit 95 100) 10).
(** starting_values, l.301-317: [max_ll] stays -inf *)
Fixpoint dcc_search (max_ll : num) (grid : list (num * num)) (ms : models) (best : num * num) : res ((num * num) * models) :=
  match grid with
  | [] => Ok (best, ms)
  | (a, b) :: rest =>
      if nleb (ofZ 1) (a ⊕ b) then dcc_search max_ll rest ms best
      else
        do r <- dcc_objective ms [a; b];
        dcc_search max_ll rest (snd r) (if nltb max_ll (nopp (fst r)) then (a, b) else best)
  end.
Definition dcc_starting_values (ms : models) : res ((num * num) * models) :=
  dcc_search (nopp npinf) dcc_grid ms (lit 1 100, lit 8 10).

Fixpoint dcc_evals (pts : list (list num)) (ms : models) : res models :=
  match pts with
  | [] => Ok ms
  | x :: pts' => do r <- dcc_objective ms x; dcc_evals pts' (snd r)
  end.
(** the object, l.202-247 (and l.418-465 for GJR): marginal fields, a, b, loglikelihood *)
Record dcc := { d_models : models; d_success : bool; d_marginals : list num; d_a : num; d_b : num; d_ll : num }.
Definition new_dcc (m1 m2 : state) : dcc :=
  {| d_models := (m1, m2); d_success := false; d_marginals := repeat nnan (2 * nfields k); d_a := nnan; d_b := nnan; d_ll := nnan |}.
(** bounds and constraint for (a, b), l.266-274 *)
Definition dcc_bounds : list (num * num) := [(ofZ 0, ofZ 1); (ofZ 0, ofZ 1)].
Definition dcc_constraint (params : list num) : num := match params with [a; b] => ofZ 1 ⊖ (a ⊕ b) | _ => nnan end.
(** fit, l.249-299; [mini] is the run of the second-step optimizer from the starting values *)
Definition dcc_fit (mini : list num -> opt_run A) (o : dcc) : res dcc :=
  if d_success o then Ok o
  else
    do r1 <- fit A k mini1 (fst (d_models o));
    do r2 <- fit A k mini2 (snd (d_models o));
    do sv <- dcc_starting_values (snd r1, snd r2);
    let ab := fst sv in
    let ms := snd sv in
    let marginals := p_fields A (st_params A (fst ms)) ++ p_fields A (st_params A (snd ms)) in
    let opt := mini [fst ab; snd ab] in
    do ms' <- dcc_evals (o_evals A opt) ms;
    if o_success A opt then
      match o_x A opt with
      | [a; b] => Ok {| d_models := ms'; d_success := true; d_marginals := marginals; d_a := a; d_b := b; d_ll := nopp (o_fun A opt) |}
      | _ => Err ValueError
      end
    else Ok {| d_models := ms'; d_success := false; d_marginals := marginals; d_a := nnan; d_b := nnan; d_ll := nnan |}.
Fixpoint dcc_fits (ms : list (list num -> opt_run A)) (o : dcc) : res dcc :=
  match ms with [] => Ok o | m :: ms' => do o1 <- dcc_fit m o; dcc_fits ms' o1 end.
End DCC.
Fixpoint ccc_fits (ms : list (solver A * solver A * (list num -> opt_run A))) (o : ccc) : res ccc :=
  match ms with [] => Ok o | (s1, s2, m) :: ms' => do r <- ccc_fit s1 s2 m o; ccc_fits ms' (snd r) end.
End MGarch.
