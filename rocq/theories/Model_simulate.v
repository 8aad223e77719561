(** * Model of measures/modified_merton/mod_merton_simulation.py, simulate(Nsim), as a whole

    Oracles: [spectral], [round9], [as_int], [solve] as in Model_merton.v; [fsolve] (scipy, two unknowns); [ceil] (numpy's length of an arange);
    [griddata points values queries] (scipy.interpolate.griddata with method "cubic", which may raise);
    [shocks Nsim] = norm.ppf(RandomState(1).rand(3*N, Nsim).T), the same matrix in all four computations.
    Not modelled: the text of the table, the figures, [mface] (used in a figure only) and results that are not used.
    The shapes of meshgrid/squeeze/ravel: sig and r are scalars, so every lookup table has shape (len(sfs), 1, 1, len(F)) and ravel() lists it row by row. *)
From Coq Require Import ZArith List Bool.
From Verif Require Import Arith Model_garch Model_option Model_merton Model_simulation.
Import ListNotations.
Local Open Scope num_scope.

Section Simulate.
Context (A : Arith).
Notation num := (num A).
Notation zero := (@ofZ A 0).

(** np.arange(start, stop, step): ceil((stop - start)/step) elements start, start + step, start + i*((start + step) - start) *)
Definition np_arange (ceil : num -> Z) (start stop step : num) : list num :=
  map (fun i => match i with 0 => start | 1 => start ⊕ step | _ => start ⊕ ofN A i ⊗ ((start ⊕ step) ⊖ start) end)
      (seq 0 (Z.to_nat (ceil ((stop ⊖ start) ⊘ step)))).

(** the constants of l.60-82 *)
Definition s_r : num := lit 1 100.
Definition s_d : num := lit 5 1000.
Definition s_y : num := lit 2 1000.
Definition s_bookD : num := lit 63 100.
Definition s_T : num := ofZ 10.
Definition s_H : num := ofZ 5.
Definition s_ltv : num := lit 66 100.
Definition s_g : num := lit 5 10.
Definition s_scale : num := lit 2 10 ⊗ nsqrt (lit 5 10) ⊗ nsqrt (ofZ 10).
Definition s_growth : num := amean A (map (fun t => nexp (s_r ⊗ ofN A t)) (seq 1 10)).                 (* np.mean(np.exp(r * np.arange(1, T+1))) *)
Definition s_D : num := s_bookD ⊗ nexp (s_r ⊗ s_H) ⊗ s_growth.                                        (* l.72 *)
Definition s_bookF : num := lit 6 10 ⊕ ofZ 3 ⊗ lit 2 100.                                             (* l.79 *)
Definition s_bookD1 : num := s_bookD ⊗ s_growth.                                                      (* l.159 *)
Definition s_states (ceil : num -> Z) : list num := map (fun x => x ⊘ s_scale) (np_arange ceil (nopp (lit 8 10)) (lit 85 100) (lit 5 100)).       (* fs, l.60 *)
Definition s_wide_states (ceil : num -> Z) : list num := map (fun x => x ⊘ s_scale) (np_arange ceil (nopp (lit 26 10)) (lit 85 100) (lit 5 100)). (* sfs, l.154 *)
Definition s_loans (ceil : num -> Z) : list num := np_arange ceil (lit 4 10) (lit 145 100) (lit 1 100).                                           (* l.162 *)

(** xEt.squeeze().ravel() and so on *)
Definition ravel (G : nat) (field : lookup_entry A -> list num) (lk : list (list (list (lookup_entry A)))) : list num :=
  concat (map (fun g => map (fun e => nth g (field e) zero) (nth 0 (nth 0 lk []) [])) (seq 0 G)).
(** one alternative model, l.161-181, 192-213, 222-243: a lookup table over (sfs, F) and the two interpolations at (Et, sigEt) *)
Definition alternative (compute : list num -> list num -> res (merton_result A)) (griddata : list (num * num) -> list num -> list (num * num) -> res (list num))
    (sfs Fs : list num) (T rho sig : num) (queries : list (num * num)) : res (list num * list num) :=
  do lk <- create_lookup A compute sfs s_d s_y T s_H s_bookD1 rho s_ltv 1 1 (length Fs) (fun _ _ _ => s_r) (fun _ _ q => nth q Fs zero) (fun _ _ _ => sig);
  let pts := combine (ravel (length sfs) (l_Et A) lk) (ravel (length sfs) (l_sigEt A) lk) in
  do md <- griddata pts (ravel (length sfs) (l_mdef A) lk) queries;
  do mF <- griddata pts (ravel (length sfs) (l_Ft A) lk) queries;
  Ok (md, mF).

Record simulation := mk_simulation {
  sim_table : list (num * num * num);            (* Table 1 *)
  sim_central : nat;                             (* j0 *)
  sim_merton : list (merton_estimate A);         (* mertdd, mertdef, mertGG, mertsp, mertA, merts *)
  sim_alt1 : list num * list num; sim_alt2 : list num * list num; sim_alt3 : list num * list num;   (* mdefsingle, mFtsingle *)
  sim_alt4 : list (num * num) }.                 (* xmertdd, xmertdef *)

(** simulate, l.57-298 *)
Definition simulate (spectral : list num -> list num -> list num) (round9 : num -> num) (as_int : num -> option Z) (solve : (num -> num) -> num -> num)
    (fsolve : (num -> num -> num * num) -> num -> num -> num * num) (ceil : num -> Z)
    (griddata : list (num * num) -> list num -> list (num * num) -> res (list num)) (shocks : nat -> list (list num)) (Nsim : nat) : res simulation :=
  let N := 10%nat in
  let w := shocks Nsim in
  do m <- mod_merton_computation A spectral round9 as_int solve (s_states ceil) [s_r; s_T; s_bookF; s_H; s_D; lit 5 10; s_ltv; lit 2 10; s_d; s_y; s_g] N w;
  let b := m_bank A m in
  do j0 <- central_state A s_r s_T (m_mFt A m);
  let fits := map2 (fit_merton A fsolve s_g s_r s_y s_H s_D) (b_Et A b) (b_sigEt A b) in
  let queries := combine (b_Et A b) (b_sigEt A b) in
  let cohorts fs p := mod_merton_computation A spectral round9 as_int solve fs p N w in
  let single fs p := mod_single_cohort_computation A spectral round9 as_int solve fs p N w in
  let sig_all := lit 20 100 ⊗ nsqrt (lit 5 10) in
  do a1 <- alternative cohorts griddata (s_wide_states ceil) (s_loans ceil) s_T (lit 99 100) sig_all queries;
  do a2 <- alternative single griddata (s_wide_states ceil) (s_loans ceil) (ofZ 5) (lit 5 10) (lit 2 10) queries;
  do a3 <- alternative single griddata (s_wide_states ceil) (s_loans ceil) (ofZ 5) (lit 99 100) sig_all queries;
  let a4 := map2 (fun a s => (merton_dd A a s s_D s_r s_y s_H, merton_default A a s s_D s_r s_y s_H)) (b_Lt A b) (b_sigLt A b) in
  do table <- table_columns A (table_rows A fsolve s_g s_r s_y s_H s_D m) j0;
  Ok (mk_simulation table j0 fits a1 a2 a3 a4).
End Simulate.
