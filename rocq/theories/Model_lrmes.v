(** * Model of src/frds/measures/_long_run_mes.py and measures/lrmes.hpp

    numpy's random generator is an oracle: it delivers, for every scenario, a list of indices into the sample
    ([rng.choice(n, size=h, replace=True)]). The optimizers are oracles as in Model_garch / Model_mgarch. *)
From Coq Require Import ZArith List Bool.
From Verif Require Import Arith Model_garch Model_ar Model_mgarch.
Import ListNotations.
Local Open Scope num_scope.

Section Lrmes.
Context (A : Arith).
Notation num := (num A).

(** GJR-GARCH parameters read from a model's [parameters], l.172-178 *)
Record gjr_params := { g_mu : num; g_omega : num; g_alpha : num; g_gamma : num; g_beta : num }.
(** loop-carried variables, l.170, l.184-191: lagged residuals, variances and standardized residuals (firm, market),
    and the three entries of Q *)
Record sim_state := { s_ri : num; s_rm : num; s_vi : num; s_vm : num; s_zi : num; s_zm : num; s_qi : num; s_qm : num; s_qim : num }.
(** l.170-191 and lrmes.hpp l.21-39 *)
Definition sim_start (firm_var mkt_var firm_resid mkt_resid rho : num) : sim_state :=
  {| s_ri := firm_resid; s_rm := mkt_resid; s_vi := firm_var; s_vm := mkt_var;
     s_zi := firm_resid ⊘ nsqrt firm_var; s_zm := mkt_resid ⊘ nsqrt mkt_var;
     s_qi := ofZ 1; s_qm := ofZ 1; s_qim := rho |}.

(** one iteration of the Python loop, l.193-232; result: (mkt_return[h], firm_return[h]) and the next state *)
Definition sim_step_py (pi pm : gjr_params) (a b q_i_bar q_m_bar q_im_bar : num) (s : sim_state) (innov : num * num) : (num * num) * sim_state :=
  let firm_var_t := g_omega pi ⊕ g_alpha pi ⊗ nsq (s_ri s) ⊕ g_beta pi ⊗ s_vi s in
  let firm_var_t := firm_var_t ⊕ (if s_ri s <? ofZ 0 then g_gamma pi ⊗ nsq (s_ri s) else ofZ 0) in
  let mkt_var_t := g_omega pm ⊕ g_alpha pm ⊗ nsq (s_rm s) ⊕ g_beta pm ⊗ s_vm s in
  let mkt_var_t := mkt_var_t ⊕ (if s_rm s <? ofZ 0 then g_gamma pm ⊗ nsq (s_rm s) else ofZ 0) in
  let q_i := (ofZ 1 ⊖ a ⊖ b) ⊗ q_i_bar ⊕ a ⊗ nsq (s_zi s) ⊕ b ⊗ s_qi s in
  let q_m := (ofZ 1 ⊖ a ⊖ b) ⊗ q_m_bar ⊕ a ⊗ nsq (s_zm s) ⊕ b ⊗ s_qm s in
  let q_im := (ofZ 1 ⊖ a ⊖ b) ⊗ q_im_bar ⊕ a ⊗ s_zi s ⊗ s_zm s ⊕ b ⊗ s_qim s in
  let rho_h := q_im ⊘ nsqrt (q_i ⊗ q_m) in
  let firm_innov := fst innov in
  let mkt_innov := snd innov in
  let epsilon_m := nsqrt mkt_var_t ⊗ mkt_innov in
  let epsilon_i := nsqrt firm_var_t ⊗ (rho_h ⊗ mkt_innov ⊕ nsqrt (ofZ 1 ⊖ nsq rho_h) ⊗ firm_innov) in
  ((g_mu pm ⊕ epsilon_m, g_mu pi ⊕ epsilon_i),
   {| s_ri := epsilon_i; s_rm := epsilon_m; s_vi := firm_var_t; s_vm := mkt_var_t;
      s_zi := epsilon_i ⊘ nsqrt firm_var_t; s_zm := mkt_innov; s_qi := q_i; s_qm := q_m; s_qim := q_im |}).
(** one iteration of the C++ loop, lrmes.hpp l.42-79: [a * x * x] instead of [a * x**2], and the asymmetric term is
    added only when the lagged residual is negative *)
Definition sim_step_cpp (pi pm : gjr_params) (a b q_i_bar q_m_bar q_im_bar : num) (s : sim_state) (innov : num * num) : (num * num) * sim_state :=
  let firm_var_t := g_omega pi ⊕ g_alpha pi ⊗ nsq (s_ri s) ⊕ g_beta pi ⊗ s_vi s in
  let firm_var_t := if s_ri s <? ofZ 0 then firm_var_t ⊕ g_gamma pi ⊗ nsq (s_ri s) else firm_var_t in
  let mkt_var_t := g_omega pm ⊕ g_alpha pm ⊗ nsq (s_rm s) ⊕ g_beta pm ⊗ s_vm s in
  let mkt_var_t := if s_rm s <? ofZ 0 then mkt_var_t ⊕ g_gamma pm ⊗ nsq (s_rm s) else mkt_var_t in
  let q_i := (ofZ 1 ⊖ a ⊖ b) ⊗ q_i_bar ⊕ a ⊗ s_zi s ⊗ s_zi s ⊕ b ⊗ s_qi s in
  let q_m := (ofZ 1 ⊖ a ⊖ b) ⊗ q_m_bar ⊕ a ⊗ s_zm s ⊗ s_zm s ⊕ b ⊗ s_qm s in
  let q_im := (ofZ 1 ⊖ a ⊖ b) ⊗ q_im_bar ⊕ a ⊗ s_zi s ⊗ s_zm s ⊕ b ⊗ s_qim s in
  let rho_h := q_im ⊘ nsqrt (q_i ⊗ q_m) in
  let firm_innov := fst innov in
  let mkt_innov := snd innov in
  let epsilon_m := nsqrt mkt_var_t ⊗ mkt_innov in
  let epsilon_i := nsqrt firm_var_t ⊗ (rho_h ⊗ mkt_innov ⊕ nsqrt (ofZ 1 ⊖ nsq rho_h) ⊗ firm_innov) in
  ((g_mu pm ⊕ epsilon_m, g_mu pi ⊕ epsilon_i),
   {| s_ri := epsilon_i; s_rm := epsilon_m; s_vi := firm_var_t; s_vm := mkt_var_t;
      s_zi := epsilon_i ⊘ nsqrt firm_var_t; s_zm := mkt_innov; s_qi := q_i; s_qm := q_m; s_qim := q_im |}).
Fixpoint sim_loop (step : sim_state -> num * num -> (num * num) * sim_state) (s : sim_state) (innovation : list (num * num)) : list (num * num) :=
  match innovation with
  | [] => []
  | x :: rest => let r := step s x in fst r :: sim_loop step (snd r) rest
  end.
(** everything a simulation is given besides the innovations and C; [Q_bar] is only read at (0,0), (1,1), (1,0) *)
Record sim_inputs := { i_firm_var : num; i_mkt_var : num; i_firm_resid : num; i_mkt_resid : num; i_a : num; i_b : num; i_rho : num;
  i_qib : num; i_qmb : num; i_qimb : num; i_pi : gjr_params; i_pm : gjr_params }.
Definition sim_returns (cpp : bool) (i : sim_inputs) (innovation : list (num * num)) : list (num * num) :=
  let step := (if cpp then sim_step_cpp else sim_step_py) (i_pi i) (i_pm i) (i_a i) (i_b i) (i_qib i) (i_qmb i) (i_qimb i) in
  sim_loop step (sim_start (i_firm_var i) (i_mkt_var i) (i_firm_resid i) (i_mkt_resid i) (i_rho i)) innovation.
(** l.234-248 (np.sum) and lrmes.hpp l.81-107 (sequential sum): (firm return, systemic event) *)
Definition simulation (cpp : bool) (i : sim_inputs) (C : num) (innovation : list (num * num)) : num * bool :=
  let total l := if cpp then fold_left nadd l (ofZ 0) else asum l in
  let rets := sim_returns cpp i innovation in
  let mkt_return := map (fun r => fst r ⊘ ofZ 100) rets in
  let firm_return := map (fun r => snd r ⊘ ofZ 100) rets in
  let systemic_event := (nexp (total mkt_return) ⊖ ofZ 1) <? C in
  if systemic_event then (nexp (total firm_return) ⊖ ofZ 1, true) else (ofZ 0, false).

(** the accumulation over scenarios, l.87-91 and l.129-134 *)
Fixpoint accumulate (cpp : bool) (i : sim_inputs) (C : num) (scenarios : list (list (num * num))) (total : num) (n : Z) : num * Z :=
  match scenarios with
  | [] => (total, n)
  | inv :: rest =>
      let r := simulation cpp i C inv in
      accumulate cpp i C rest (total ⊕ fst r) (n + Z.b2z (snd r))
  end.
Definition n_systemic_events (cpp : bool) (i : sim_inputs) (C : num) (scenarios : list (list (num * num))) : Z :=
  snd (accumulate cpp i C scenarios (ofZ 0) 0).
Definition lrmes (cpp : bool) (i : sim_inputs) (C : num) (scenarios : list (list (num * num))) : num :=
  let r := accumulate cpp i C scenarios (ofZ 0) 0 in
  if (snd r =? 0)%Z then ofZ 0 else nopp (fst r) ⊘ ofZ (snd r).

(** __init__, l.15-37: log returns in percent; the two GJR models share their states with the DCC model *)
Definition log_percent (raw : list num) : list num := map (fun x => nlog (ofZ 1 ⊕ x) ⊗ ofZ 100) raw.
Definition lrmes_init (firm_returns market_returns g1 g2 g3 g4 : list num) : res (dcc A) :=
  check (Nat.eqb (length firm_returns) (length market_returns)) AssertionError
  (Ok (new_dcc A KGjr (init A KGjr (log_percent firm_returns) g1 g2 false) (init A KGjr (log_percent market_returns) g3 g4 false))).

(** parameters of an estimated GJR model *)
Definition gjr_of (l : list num) : gjr_params :=
  {| g_mu := nth 0 l nnan; g_omega := nth 1 l nnan; g_alpha := nth 2 l nnan; g_gamma := nth 3 l nnan; g_beta := nth 4 l nnan |}.
(** firm shock orthogonal to the market, l.70 *)
Definition orthogonal (z_i z_m rho : num) : num := (z_i ⊖ rho ⊗ z_m) ⊘ nsqrt (ofZ 1 ⊖ nsq rho).
(** the bootstrap, l.76-81 *)
Definition bootstrap (xi_i z_m : list num) (draws : list (list nat)) : list (list (num * num)) :=
  map (map (fun k => (nth k xi_i nnan, nth k z_m nnan))) draws.
(** the part of [estimate] before the scenario loop, l.53-85.  [draws n] are the index lists drawn from a sample of size n:
    S lists of length h.  [cpp1] is the availability of the algorithms extension.
    An empty sample raises in rng.choice; the last elements are read after the re-fit inside conditional_correlations.
    Result: what every scenario is simulated from, the scenarios, and the DCC object. *)
Definition estimate_setup (cpp1 : bool) (mini1 mini2 : solver A) (mini : list num -> opt_run A)
    (draws : nat -> list (list nat)) (o : dcc A) : res ((sim_inputs * list (list (num * num))) * dcc A) :=
  do o1 <- dcc_fit A KGjr cpp1 mini1 mini2 mini o;
  if d_success A o1 then
    let firm := fst (d_models A o1) in
    let market := snd (d_models A o1) in
    let z_m := standardize A (st_resids A market) (st_sigma2 A market) in
    let z_i := standardize A (st_resids A firm) (st_sigma2 A firm) in
    do r <- conditional_correlations A KGjr cpp1 mini1 mini2 (d_models A o1) (d_a A o1) (d_b A o1);
    let rho := fst r in
    let firm := fst (snd r) in
    let market := snd (snd r) in
    let xi_i := map2 (fun z rho => orthogonal (fst z) (snd z) rho) (combine z_i z_m) rho in
    let o2 := {| d_models := snd r; d_success := d_success A o1; d_marginals := d_marginals A o1; d_a := d_a A o1; d_b := d_b A o1; d_ll := d_ll A o1 |} in
    match xi_i with
    | [] => Err ValueError
    | _ =>
      let i := {| i_firm_var := last (st_sigma2 A firm) nnan; i_mkt_var := last (st_sigma2 A market) nnan;
                  i_firm_resid := last (st_resids A firm) nnan; i_mkt_resid := last (st_resids A market) nnan;
                  i_a := d_a A o1; i_b := d_b A o1; i_rho := last rho nnan;
                  i_qib := corr_entry A z_i z_m 0 0; i_qmb := corr_entry A z_i z_m 1 1; i_qimb := corr_entry A z_i z_m 1 0;
                  i_pi := gjr_of (p_fields A (st_params A firm)); i_pm := gjr_of (p_fields A (st_params A market)) |} in
      Ok ((i, bootstrap xi_i z_m (draws (length xi_i))), o2)
    end
  else Err RuntimeError.
(** estimate, l.39-134: the setup, then the accumulation of [lrmes]. [cpp2] is the availability of the measures extension. *)
Definition estimate (cpp1 cpp2 : bool) (mini1 mini2 : solver A) (mini : list num -> opt_run A)
    (draws : nat -> list (list nat)) (C : num) (o : dcc A) : res (num * dcc A) :=
  do r <- estimate_setup cpp1 mini1 mini2 mini draws o;
  Ok (lrmes cpp2 (fst (fst r)) C (snd (fst r)), snd r).
End Lrmes.
