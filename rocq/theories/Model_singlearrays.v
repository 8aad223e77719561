(** * mod_single_cohort_computation.py line by line on numpy arrays

    Model_merton.v computes one cell at a time; here every statement of l.13-137 is an operation on whole arrays.
    The shocks [w] are an arbitrary matrix.  loan_payoff, find_face_value_indiv, fftsmooth, the root finder and rounding are
    those of Model_merton.v; the balance sheet (l.107-137) is [settle_arrays] of Model_mertonarrays.v. *)
From Coq Require Import ZArith List Bool Arith.
From Verif Require Import Arith Model_option Model_merton Model_ndarray Model_mertonarrays Model_matlab.
Import ListNotations.

Section Single.
Context (A : Arith).
Notation num := (num A).
Notation zero := (@ofZ A 0).
Notation one := (@ofZ A 1).
Notation half := (@lit A 5 10).
Local Open Scope num_scope.

(** a.flatten(order="F") *)
Definition flattenF1 (a : nd num) : res (nd num) := reshapeF a [size (shape a)].
(** a[ind] of a vector with an array of nonnegative indices *)
Definition take (a : nd num) (ind : list nat) : res (nd num) :=
  check (forallb (fun q => Nat.ltb q (nth 0 (shape a) 0%nat)) ind) IndexError
    (Ok (mkNd [length ind] (fun idx => get a [nth (nth 0 idx 0%nat) ind 0%nat]))).
(** l.92-101: the whole surface is one cross-section for the smoother; sortF (l.95) is not used afterwards *)
Definition smooth_surface (spectral : list num -> list num -> list num) (round9 : num -> num) (FHr1 Lr1 : nd num) (Nsim2 Nsim1 : nat) : res (nd num) :=
  do FHr <- flattenF1 FHr1;
  do Lr <- flattenF1 Lr1;
  let sort_indices := argsort A (flat (amap round9 FHr)) in
  do sortF <- take FHr sort_indices;
  do sortL <- take Lr sort_indices;
  do LHs <- fftsmooth A spectral (flat sortL) (Nat.div (Nsim2 * Nsim1) 20);
  let new_indices := inverse_index sort_indices in
  do LHn <- take (vec zero LHs) new_indices;
  reshapeF LHn [Nsim2; Nsim1].

(** l.13-137; [fs] is a vector or a column, [w] a matrix *)
Definition single_cohort_arrays (spectral : list num -> list num -> list num) (round9 : num -> num) (as_int : num -> option Z)
    (solve : (num -> num) -> num -> num) (fs : nd num) (params : list num) (N Nsim2 : nat) (w : nd num) : res (outputs A) :=
  do p <- read_param A params;
  let r := p_r A p in let T := p_T A p in let bookF := p_bookF A p in let H := p_H A p in let D := p_D A p in
  let rho := p_rho A p in let ltv := p_ltv A p in let sig := p_sig A p in let d := p_d A p in let y := p_y A p in let g := p_g A p in
  let ival := nlog bookF ⊖ nlog ltv in                                                        (* l.43 *)
  let sigf := nsqrt rho ⊗ sig in
  do HN <- horizon A as_int N p;                                                              (* l.47-50 *)
  let szfs := nth 0 (shape fs) 0%nat in
  do fs <- concat3 0 fs fs fs;
  let Nsim1 := nth 0 (shape fs) 0%nat in
  let dt := T ⊘ ofN A N in
  do f <- concat2 1 (full [Nsim2; 1]%nat zero)
            (cumsum1 A (amap (fun x => (r ⊖ d ⊖ half ⊗ nsq sig) ⊗ dt ⊕ sigf ⊗ nsqrt dt ⊗ x) w));   (* l.56-60 *)
  do f1 <- column f (Z.of_nat N);                                                             (* l.62 *)
  do fsa <- reshape (amap (fun x => x ⊗ sigf ⊗ nsqrt T) fs) [1; Nsim1]%nat;
  let df := sigf ⊘ ofZ 10 in
  do bumps <- concat3 1 (full [Nsim2; szfs] zero) (full [Nsim2; szfs] one) (full [Nsim2; szfs] (nopp one));
  do fsa <- zip nadd fsa (amap (fun x => df ⊗ x) bumps);                                      (* l.65-71 *)
  do f1c <- reshape f1 [Nsim2; 1]%nat;
  do f1j <- zip nadd (tile f1c [1; Nsim1]%nat) fsa;                                           (* l.72 *)
  let mu := solve (fun mu => find_face_value_indiv A mu (bookF ⊗ nexp (mu ⊗ T)) ival sig T r d) (r ⊕ lit 1 100) in
  let F := bookF ⊗ nexp (mu ⊗ T) in                                                           (* l.74-77 *)
  let L1 := loan_payoff_scalar A F f1j ival rho sig T in
  let face1 := full (shape f1j) (one ⊗ F) in                                                  (* l.79-80 *)
  let ft := amap (fun x => x ⊕ ival) fsa in
  do fH1 <- column f HN;                                                                      (* l.83 *)
  do fH1c <- reshape fH1 [Nsim2; 1]%nat;
  do fH1j <- zip nadd (tile fH1c [1; Nsim1]%nat) fsa;
  let fH1j := amap (fun x => x ⊕ ival) fH1j in
  let FH1j := amap (fun x => nexp x ⊗ nexp (half ⊗ (one ⊖ rho) ⊗ H ⊗ nsq sig)) fH1j in         (* l.85 *)
  let Ft := amap nexp ft in
  do LH1j <- smooth_surface spectral round9 FH1j L1 Nsim2 Nsim1;                              (* l.88-101 *)
  let LH := amap (fun x => x ⊗ nexp (nopp r ⊗ (T ⊖ H))) LH1j in
  let face := amap (fun x => x ⊗ nexp (nopp r ⊗ (T ⊖ H))) face1 in                            (* l.103-105 *)
  settle_arrays A r H D y g mu F szfs LH FH1j face Ft.

(** shocks drawn for a number of periods: norm.ppf(rng.rand(periods, Nsim2).T), l.38-40 with N periods, and
    mod_single_merton_create_lookup.py l.17-18 with 3N; rand fills its matrix row by row from the stream [u] of the generator *)
Definition drawn_shocks (invcdf : num -> num) (u : nat -> num) (Nsim2 periods : nat) : list (list num) :=
  map (map invcdf) (transpose A periods Nsim2 (np_rand A u periods Nsim2)).
End Single.
