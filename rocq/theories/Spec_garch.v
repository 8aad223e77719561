(** * Independent specification vocabulary for the GARCH properties (plain real analysis,
      no reference to the model). *)
From Coq Require Import Reals Lra List.
From Verif Require Import Arith XR RealAux.
Import ListNotations.
Local Open Scope R_scope.

(** A (lower, upper) row of finite numbers as the code sees it. *)
Definition finrow (b : R * R) : xr * xr := (Fin (fst b), Fin (snd b)).
(** Admissible bounds: 0 < lower <= upper. *)
Definition good_row (b : R * R) : Prop := 0 < fst b <= snd b.

(** The textbook GARCH(1,1) and GJR-GARCH(1,1) one-step updates. *)
Definition garch_update (omega alpha beta : R) (prev r : R) : R :=
  omega + alpha * r ^ 2 + beta * prev.
Definition gjr_update (omega alpha gamma beta : R) (prev r : R) : R :=
  omega + (alpha + (if Rlt_dec r 0 then gamma else 0)) * r ^ 2 + beta * prev.

(** The adjustment of a variance to its bounds: raise to the lower bound; above the upper
    bound keep the bound plus the log of the excess ratio. *)
Definition clip_log (s lo up : R) : R :=
  if Rle_dec s lo then lo else if Rle_dec s up then s else up + ln (s / up).

(** A variance path: [s] starts at [s0] and every later entry is the adjusted update of the
    previous one with the PREVIOUS residual and the CURRENT bounds. *)
Definition variance_path (step : R -> R -> R) (s0 : R) (r : list R) (b : list (R * R)) (s : list R) : Prop :=
  length s = length r /\ nth 0 s 0 = s0 /\
  forall t, (S t < length r)%nat ->
    nth (S t) s 0 =
    clip_log (step (nth t s 0) (nth t r 0)) (fst (nth (S t) b (0, 0))) (snd (nth (S t) b (0, 0))).

(** Density of N(0, s) at r. *)
Definition normal_density (s r : R) : R := exp (- r ^ 2 / (2 * s)) / sqrt (2 * PI * s).

(** Maximum of a list of reals (0 for the empty list). *)
Definition Rmaxl (l : list R) : R := match l with [] => 0 | x :: l' => fold_left Rmax l' x end.

(** Weighted average of the first n squares with weights 0.94^i. *)
Definition ew_weight (i : nat) : R := (94 / 100) ^ i.
Definition ew_average (n : nat) (r : list R) : R :=
  Rsum (map (fun i => ew_weight i * (nth i r 0) ^ 2) (seq 0 n)) / Rsum (map ew_weight (seq 0 n)).
