(** * Model of src/frds/measures/_absorption_ratio.py

    np.linalg.eigvals is an oracle (an arbitrary function on matrices that may also raise). *)
From Coq Require Import ZArith List Bool.
From Verif Require Import Arith Model_garch Model_measures Model_dip.
Import ListNotations.
Local Open Scope num_scope.

Section AR.
Context (A : Arith).
Notation num := (num A).
Notation matrix := (list (list num)).
(** int(Decimal(x).to_integral_value(rounding=ROUND_HALF_UP)), l.30; raises on NaN and infinities *)
Context (round_half_up : num -> res Z).
(** np.linalg.eigvals, l.51 *)
Context (eigvals_routine : matrix -> res (list num)).

(** np.cov(X) for a 2-d X with one row per asset (numpy: X -= avg; c = dot(X, X.T); c *= 1/(T-1)), l.41 *)
Definition demeaned (row : list num) : list num := let m := amean A row in map (fun x => x ⊖ m) row.
Definition n_days (X : matrix) : nat := match X with [] => 0 | row :: _ => length row end.
Definition np_cov (X : matrix) : matrix :=
  let factor := ofZ 1 ⊘ ofZ (Z.max 0 (Z.of_nat (n_days X) - 1)) in
  map (fun ri => map (fun rj => asum (map2 nmul (demeaned ri) (demeaned rj)) ⊗ factor) X) X.
(** np.trace *)
Definition trace (M : matrix) : num := asum (map (fun i => nth i (nth i M []) (ofZ 0)) (seq 0 (length M))).

(** the object: the attribute and the two cached properties, l.9-15, l.33-51 *)
Record ar_object := mkAR { asset_returns : matrix; cov_cache : option matrix; eig_cache : option (list num) }.
Definition new_AR (X : matrix) : ar_object := mkAR X None None.
Definition asset_covariance (o : ar_object) : ar_object * matrix :=
  match cov_cache o with
  | Some c => (o, c)
  | None => let c := np_cov (asset_returns o) in (mkAR (asset_returns o) (Some c) (eig_cache o), c)
  end.
(** np.cov of a single row is a 0-d array, which eigvals rejects with LinAlgError *)
Definition eigvals (o : ar_object) : ar_object * res (list num) :=
  match eig_cache o with
  | Some e => (o, Ok e)
  | None =>
      let (o1, c) := asset_covariance o in
      match (if Nat.eqb (length c) 1 then Err LinAlgError else eigvals_routine c) with
      | Ok e => (mkAR (asset_returns o1) (cov_cache o1) (Some e), Ok e)
      | Err x => (o1, Err x)
      end
  end.
(** estimate, l.17-31 *)
Definition estimate_ar (o : ar_object) (fraction : num) : ar_object * res num :=
  let n_assets := length (asset_returns o) in
  let (o1, e) := eigvals o in
  match e with
  | Err x => (o1, Err x)
  | Ok ev =>
    let eig_sorted := isort A ev in
    match round_half_up (fraction ⊗ ofZ (Z.of_nat n_assets)) with
    | Err x => (o1, Err x)
    | Ok k =>
      let (o2, c) := asset_covariance o1 in
      (o2, Ok (pysum A (python_slice_from A eig_sorted (Z.of_nat (length eig_sorted) - k)) ⊘ trace c))
    end
  end.
(** histories: estimate, or assignment to the public attribute *)
Inductive ar_op := Estimate (fraction : num) | SetReturns (X : matrix).
Definition ar_step (o : ar_object) (op : ar_op) : ar_object * option (res num) :=
  match op with
  | Estimate f => let (o', r) := estimate_ar o f in (o', Some r)
  | SetReturns X => (mkAR X (cov_cache o) (eig_cache o), None)
  end.
Fixpoint ar_run (o : ar_object) (ops : list ar_op) : ar_object * list (option (res num)) :=
  match ops with
  | [] => (o, [])
  | op :: ops' => let (o1, r) := ar_step o op in let (o2, rs) := ar_run o1 ops' in (o2, r :: rs)
  end.
End AR.
