(** * ModMertonEmpirical_unobsbookF.m: from the lookup table and the bank data to the reported values

    As in Model_matlab.v every MATLAB error is [Err RuntimeError].  Not modelled: csvread, save and load; scatteredInterpolant is an oracle
    [interpolant points values query] (the triangulation is a function of the points only). *)
From Coq Require Import ZArith List Bool.
From Verif Require Import Arith Model_garch Model_option Model_merton Model_matlab Model_matlab2.
Import ListNotations.
Local Open Scope num_scope.

Section Empirical.
Context (A : Arith).
Notation num := (num A).

(** one point of the value surface at a fixed interest rate: the elements of fs, sig, bookF, Lt, Bt, Et, mdef, sigEt (l.91-98) at one index *)
Record grid_point := mk_point { g_fs : num; g_sig : num; g_F : num; g_Lt : num; g_Bt : num; g_Et : num; g_mdef : num; g_sigEt : num }.

(** l.91-98, squeeze(x(:,:,a,:)) read as a column: the factor state varies fastest, then the volatility, then the book value.
    [xsig], [xF] are the grids indexed (1, j, k, q); entry (j, k, q) of the table holds a column over the factor states *)
Definition no_entry : lookup_entry A := Build_lookup_entry A [] [] [] [] [] [].
Definition m_slice (fs : list num) (table : list (list (list (lookup_entry A)))) (xsig xF : nat -> nat -> nat -> num) (J Q a : nat) : list grid_point :=
  flat_map (fun q => flat_map (fun j =>
    let e := nth (q - 1) (nth (a - 1) (nth (j - 1) table []) []) no_entry in
    map (fun i => mk_point (nth i fs nnan) (xsig j a q) (xF j a q) (nth i (l_Lt A e) nnan) (nth i (l_Bt A e) nnan) (nth i (l_Et A e) nnan)
                           (nth i (l_mdef A e) nnan) (nth i (l_sigEt A e) nnan)) (seq 0 (length fs))) (seq 1 J)) (seq 1 Q).

(** l.100-105 *)
Definition m_clean (s : num) : num :=
  let s := if isnan s then ofZ 99 else s in
  if isinf s then ofZ 99 else s.
(** the sample points of all five interpolants, l.111-115 *)
Definition m_coords (g : grid_point) : num * num * num := (g_Et g, m_clean (g_sigEt g), g_sig g).

(** l.120-166 for one observation: L, B, mdef, bookF, fs *)
Record reported := mk_reported { o_L : num; o_B : num; o_mdef : num; o_bookF : num; o_fs : num }.
Definition m_observation (interpolant : list (num * num * num) -> list num -> num * num * num -> num) (slices : list (list grid_point))
    (minr maxr E sE vol r : num) : reported :=
  let rs := length slices in
  let rstep := (maxr ⊖ minr) ⊘ (ofN A rs ⊖ ofZ 1) in
  let out (field : grid_point -> num) :=
    m_interpolate A minr rstep rs (map (fun sl => interpolant (map m_coords sl) (map field sl) (E, sE, vol)) slices) r in
  mk_reported (out g_Lt) (out g_Bt) (out g_mdef) (out g_F) (out g_fs).

(** one row of the data file that is used, l.60-65, and the asset volatility fed to the interpolation, l.87 *)
Record bank_row := mk_row { d_E : num; d_r : num; d_sE : num }.
(** l.70-166 with compute = 1 *)
Definition m_empirical (interpolant : list (num * num * num) -> list num -> num * num * num -> num)
    (compute : list num -> list num -> res (merton_result A)) (fs : list num) (d y T H bookD rho ltv : num)
    (J K Q : nat) (xsig xr xF : nat -> nat -> nat -> num) (data : list bank_row) : res (list reported) :=
  do table <- m_create_lookup A compute fs d y T H bookD rho ltv J K Q xr xF xsig;
  check (Nat.ltb 0 J && Nat.ltb 0 K && Nat.ltb 0 Q) RuntimeError (
  let slices := map (m_slice fs table xsig xF J Q) (seq 1 K) in
  Ok (map (fun o => m_observation interpolant slices (xr 1%nat 1%nat 1%nat) (xr 1%nat K 1%nat) (d_E o) (d_sE o) (lit 2 10) (d_r o)) data)).
End Empirical.
