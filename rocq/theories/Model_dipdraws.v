(** * Model of src/frds/measures/_distress_insurance_premium.py, DistressInsurancePremium.estimate (l.20-90):
      the construction of the simulated draws, and the whole method

    Model_dip.v models everything from l.51 on for arbitrary arrays of draws.  Here the arrays are built the way
    l.38-63 build them, from the raw output of the generator: the standard normals of [rng.normal] (l.49) and the
    uniforms in [0,1) that [rng.triangular] (l.61) transforms.  Library code this relies on is modelled too:
    statistics.NormalDist.inv_cdf (domain check; the quantile itself is an argument), numpy.linalg.cholesky and the
    transformation inside numpy's triangular sampler. *)
From Coq Require Import ZArith List Bool.
From Verif Require Import Arith Model_dip.
Import ListNotations.
Local Open Scope num_scope.

Section Draws.
Context (A : Arith).
Notation num := (num A).

(** l.43-47, norm.inv_cdf(p): StatisticsError, a ValueError, unless 0 < p < 1.  CPython's text is
    [if p <= 0.0 or p >= 1.0: raise StatisticsError]; [quantile] is the value computed otherwise. *)
Definition inv_cdf (quantile : num -> num) (p : num) : res num :=
  if (p <=? ofZ 0) || (ofZ 1 <=? p) then Err ValueError else Ok (quantile p).
(** l.43-47, np.fromiter over the default probabilities *)
Fixpoint default_thresholds (quantile : num -> num) (ps : list num) : res (list num) :=
  match ps with
  | [] => Ok []
  | p :: ps' => do q <- inv_cdf quantile p; do qs <- default_thresholds quantile ps'; Ok (q :: qs)
  end.

(** l.48, np.linalg.cholesky: the row-by-row recurrence.  [solve [] rows a] is the part of the new row left of the
    diagonal, by forward substitution in the rows already computed ([rows]: row j has j+1 elements). *)
Fixpoint solve (acc : list num) (rows : list (list num)) (a : list num) : list num :=
  match rows, a with
  | r :: rows', x :: a' => solve (acc ++ [(x ⊖ asum (map2 nmul acc r)) ⊘ nth (length acc) r (ofZ 0)]) rows' a'
  | _, _ => acc
  end.
(** the new diagonal element; LAPACK's potrf stops, and numpy raises LinAlgError, unless the pivot is > 0
    (a NaN pivot is refused as well) *)
Definition chol_row (rows : list (list num)) (a : list num) : res (list num) :=
  let l := solve [] rows a in
  let pivot := nth (length rows) a (ofZ 0) ⊖ asum (map2 nmul l l) in
  check (ofZ 0 <? pivot) LinAlgError (Ok (l ++ [nsqrt pivot])).
Fixpoint chol_rows (done todo : list (list num)) : res (list (list num)) :=
  match todo with
  | [] => Ok done
  | a :: todo' => do l <- chol_row done a; chol_rows (done ++ [l]) todo'
  end.
(** square matrices only; the strict upper triangle of the result is zero *)
Definition cholesky (C : list (list num)) : res (list (list num)) :=
  check (forallb (fun r => Nat.eqb (length r) (length C)) C) LinAlgError
    (do L <- chol_rows [] C; Ok (map (fun l => l ++ repeat (ofZ 0) (length C - length l)) L)).

(** l.49, np.dot(normals, R) with R = L.T: z[s, i] = sum_k normals[s, k] * L[i, k] *)
Definition correlate (L normals : list (list num)) : list (list num) :=
  map (fun e => map (fun l => asum (map2 nmul e l)) L) normals.

(** l.61, rng.triangular(left, mode, right): numpy/random/src/distributions/distributions.c, random_triangular,
    as a function of the uniform draw U *)
Definition triangular (left mode right U : num) : num :=
  let base := right ⊖ left in
  let leftbase := mode ⊖ left in
  let ratio := leftbase ⊘ base in
  let leftprod := leftbase ⊗ base in
  let rightprod := (right ⊖ mode) ⊗ base in
  if U <=? ratio then left ⊕ nsqrt (U ⊗ leftprod) else right ⊖ nsqrt ((ofZ 1 ⊖ U) ⊗ rightprod).
Definition lgd_draw (U : num) : num := triangular (lit 1 10) (lit 55 100) (ofZ 1) U.

(** l.20-90, the whole method.  [normals] is the (n_simulated_returns x n_banks) array of l.49, [uniforms i] the
    (i+1) x n_simulations array behind l.61, [uninit] the np.empty of l.58 *)
Definition estimate_full (ceilZ truncZ : num -> Z) (quantile : num -> num)
    (default_prob : list num) (correlations : list (list num)) (default_threshold : num)
    (normals : list (list num)) (n_simulations : nat) (uniforms : nat -> list (list num))
    (uninit : list (list num)) : res num :=
  do thresholds <- default_thresholds quantile default_prob;
  do L <- cholesky correlations;
  check (Nat.eqb (length default_prob) (length correlations)) ValueError       (* np.dot: shapes not aligned *)
    (estimate_dip A ceilZ truncZ thresholds default_threshold (correlate L normals)
       n_simulations (fun i => map (map lgd_draw) (uniforms i)) uninit).
End Draws.
