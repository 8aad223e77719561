(** * Specification vocabulary for spreads and price impact *)
From Coq Require Import Reals List.
From Verif Require Import XR.
Import ListNotations.
Local Open Scope R_scope.

(** A trade with its quotes. *)
Record trade := mkTrade { t_price : R; t_later : R; t_mid : R; t_vol : R; t_dir : R }.
Definition t_weight (t : trade) : R := t_vol t * t_price t.   (* dollar volume *)
(** dollar-volume weighted mean of a per-trade quantity *)
Definition wmean (f : trade -> R) (ts : list trade) : R :=
  Rsum (map (fun t => f t * t_weight t) ts) / Rsum (map t_weight ts).

Inductive measure := Effective | Realized | Impact.
(** the signed per-trade quantity (before direction): twice the relative or log price difference *)
Definition leg (m : measure) (pct : bool) (t : trade) : R :=
  match m, pct with
  | Effective, true => 200 * ((t_price t - t_mid t) / t_mid t)
  | Realized, true => 200 * ((t_price t - t_later t) / t_mid t)
  | Impact, true => 200 * ((t_later t - t_mid t) / t_mid t)
  | Effective, false => 2 * (ln (t_price t) - ln (t_mid t))
  | Realized, false => 2 * (ln (t_price t) - ln (t_later t))
  | Impact, false => 2 * (ln (t_later t) - ln (t_mid t))
  end.
Definition positive_quotes (ts : list trade) : Prop :=
  forall t, In t ts -> 0 < t_price t /\ 0 < t_later t /\ 0 < t_mid t.
