(** * Specification vocabulary for the measures (plain real analysis) *)
From Coq Require Import Reals Lra List Permutation Sorting.Sorted.
From Verif Require Import Arith XR RealAux.
Import ListNotations.
Local Open Scope R_scope.

(** Population standard deviation. *)
Definition Rstd (l : list R) : R := sqrt (Rmean (map (fun x => (x - Rmean l) ^ 2) l)).

(** Sum of squared errors of a no-intercept line of slope b. *)
Definition sse (x y : list R) (b : R) : R := Rsum (map2 (fun u v => (v - b * u) ^ 2) x y).
(** numpy's lstsq contract for one regressor: minimal error, and among minimisers minimal norm. *)
Definition lstsq_contract (x y : list R) (a : R) : Prop :=
  (forall b, sse x y a <= sse x y b) /\
  (forall b, sse x y b = sse x y a -> Rabs a <= Rabs b).

(** Linearly interpolated percentile: [p] is the value at fractional rank q(n-1) of the sorted data. *)
Definition is_percentile (l : list R) (q p : R) : Prop :=
  exists s i, Permutation l s /\ StronglySorted Rle s /\ (i < length l)%nat /\
    let h := q * (INR (length l) - 1) in
    INR i <= h /\ h < INR i + 1 /\
    p = nth i s 0 + (h - INR i) * (nth (S i) s (nth i s 0) - nth i s 0).

(** Days (positions) whose market return is strictly below the threshold. *)
Definition worst_days (market : list R) (thr : R) : list nat :=
  filter (fun d => if Rlt_dec (nth d market 0) thr then true else false) (seq 0 (length market)).

(** Sum of squared errors of the plane a + b x1 + c x2. *)
Definition sse3 (x1 x2 y : list R) (a b c : R) : R :=
  Rsum (map2 (fun u v => (v - (a + b * fst u + c * snd u)) ^ 2) (combine x1 x2) y).

(** The three-column design (1, x1, x2) has full column rank. *)
Definition full_rank3 (x1 x2 : list R) : Prop :=
  forall a b c, (forall u v, In (u, v) (combine x1 x2) -> a + b * u + c * v = 0) -> a = 0 /\ b = 0 /\ c = 0.
Definition minimises3 (x1 x2 y : list R) (a b c : R) : Prop :=
  forall a' b' c', sse3 x1 x2 y a b c <= sse3 x1 x2 y a' b' c'.

(** Capital shortfall of a firm: required capital k*(D + stressed equity) minus stressed equity. *)
Definition shortfall (k W D lrmes : R) : R := k * (D + W * (1 - lrmes)) - W * (1 - lrmes).
