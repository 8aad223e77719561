(** * Model of src/frds/measures/_distress_insurance_premium.py, DistressInsurancePremium.estimate (l.20-90)

    The construction of the random draws is in Model_dipdraws.v; here the correlated normals [z] (l.43-49: inverse
    normal cdf, Cholesky factor, RandomState.normal) and the triangular draws (l.61) are arbitrary arrays. *)
From Coq Require Import ZArith List Bool.
From Verif Require Import Arith.
Import ListNotations.
Local Open Scope num_scope.

Section DIP.
Context (A : Arith).
Notation num := (num A).
(** math.ceil (l.75) and int() (l.80) on a finite float *)
Context (ceilZ truncZ : num -> Z).

(** np.sum(z < default_thresholds, axis=1), l.51 *)
Definition n_defaults (thresholds : list num) (zrow : list num) : nat :=
  length (filter (fun b => b) (map2 (fun z t => z <? t) zrow thresholds)).
(** np.bincount(..., minlength=n_banks + 1) / n_simulated_returns, l.55-56 *)
Definition dist_joint_defaults (n_banks : nat) (thresholds : list num) (z : list (list num)) : list num :=
  map (fun i => ofZ (Z.of_nat (length (filter (fun row => Nat.eqb (n_defaults thresholds row) i) z))) ⊘ ofZ (Z.of_nat (length z)))
      (seq 0 (n_banks + 1)).

(** l.61: column sums of the (i+1) x n_simulations array of triangular draws *)
Definition lgd_row (n_simulations : nat) (tri : list (list num)) : list num :=
  map (fun j => asum (map (fun row => nth j row (ofZ 0)) tri)) (seq 0 n_simulations).
(** l.58-62: [loss_given_default[i:] = lgd] assigns every row from i on *)
Fixpoint assign_from {X} (rows : list X) (i : nat) (v : X) : list X :=
  match rows, i with
  | [], _ => []
  | r :: rows', O => v :: assign_from rows' O v
  | r :: rows', S i' => r :: assign_from rows' i' v
  end.
Definition loss_given_default (n_banks n_simulations : nat) (tri : nat -> list (list num)) (uninit : list (list num)) : list (list num) :=
  fold_left (fun rows i => assign_from rows i (lgd_row n_simulations (tri i))) (seq 0 n_banks) uninit.

(** prob_losses[idx] += p, l.76: Python indexing (negative indices count from the end) *)
Fixpoint add_at (l : list num) (i : nat) (p : num) : list num :=
  match l, i with
  | [], _ => []
  | x :: l', O => (x ⊕ p) :: l'
  | x :: l', S i' => x :: add_at l' i' p
  end.
Definition increment (l : list num) (idx : Z) (p : num) : res (list num) :=
  let len := Z.of_nat (length l) in
  if (0 <=? idx)%Z && (idx <? len)%Z then Ok (add_at l (Z.to_nat idx) p)
  else if (- len <=? idx)%Z && (idx <? 0)%Z then Ok (add_at l (Z.to_nat (idx + len)) p)
  else Err IndexError.
(** l.67-76: the two nested loops over banks and simulations *)
Fixpoint fill (l : list num) (slots : list (Z * num)) : res (list num) :=
  match slots with
  | [] => Ok l
  | (idx, p) :: s' => do l' <- increment l idx p; fill l' s'
  end.
Definition slots_of (dist : list num) (losses : list (list num)) : list (Z * num) :=
  concat (map2 (fun i row => map (fun x => (ceilZ (x ⊗ ofZ 100), nth (i + 1) dist (ofZ 0))) row)
               (seq 0 (length losses)) losses).

(** l.80-90 *)
Definition python_slice_from (l : list num) (start : Z) : list num :=   (* l[start:] *)
  let len := Z.of_nat (length l) in
  let s := if (start <? 0)%Z then Z.max 0 (start + len) else start in
  skipn (Z.to_nat s) l.
Definition zrange (a b : Z) : list Z := map (fun k => (a + Z.of_nat k)%Z) (seq 0 (Z.to_nat (b - a))).
Definition premium (n_banks n_simulations : nat) (default_threshold : num) (prob_losses : list num) : res num :=
  let prob := map (fun p => p ⊘ ofZ (Z.of_nat n_simulations)) prob_losses in      (* l.79 *)
  let pct := truncZ (default_threshold ⊗ ofZ 100) in                              (* l.80 *)
  let start := (pct * Z.of_nat n_banks)%Z in
  let tail := python_slice_from prob start in
  let prob_great := asum tail in                                                  (* l.83 *)
  let slots := zrange start (100 * Z.of_nat n_banks) in                           (* l.86 *)
  check (Nat.eqb (length slots) (length tail)) ValueError                         (* np.dot shapes *)
    (let exp_losses := asum (map2 (fun k p => ofZ k ⊗ p) slots tail) ⊘ (ofZ 100 ⊗ prob_great) in
     Ok (exp_losses ⊗ prob_great)).                                               (* l.90 *)

Definition estimate_dip (thresholds : list num) (default_threshold : num) (z : list (list num))
    (n_simulations : nat) (tri : nat -> list (list num)) (uninit : list (list num)) : res num :=
  let n_banks := length thresholds in
  let dist := dist_joint_defaults n_banks thresholds z in
  let losses := loss_given_default n_banks n_simulations tri uninit in
  do prob_losses <- fill (repeat (ofZ 0) (n_banks * 100)) (slots_of dist losses);
  premium n_banks n_simulations default_threshold prob_losses.
End DIP.
