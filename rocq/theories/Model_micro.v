(** * Model of the market-microstructure measures:
      src/frds/measures/spread.py, price_impact.py, lob_slope.py *)
From Coq Require Import ZArith List Bool Arith.
From Verif Require Import Arith.
Import ListNotations.
Local Open Scope num_scope.

Section Micro.
Context (A : Arith).
Notation num := (num A).

(** numpy broadcasting of a binary operation on two 1-d arrays. *)
Definition bcast (f : num -> num -> num) (a b : list num) : res (list num) :=
  if Nat.eqb (length a) (length b) then Ok (map2 f a b)
  else match a, b with
       | [x], _ => Ok (map (f x) b)
       | _, [y] => Ok (map (fun x => f x y) a)
       | _, _ => Err ValueError
       end.

(** ** quoted_spread, spread.py l.17-24 *)
Definition quoted_spread (bid ask : list num) (pct : bool) : res num :=
  check (Nat.eqb (length bid) (length ask)) AssertionError
    (if pct then
       let midpt := map2 (fun b a => (b ⊕ a) ⊘ ofZ 2) bid ask in
       let spread := map2 ndiv (map2 nsub ask bid) midpt in
       Ok (amean A spread ⊗ ofZ 100)
     else Ok (amean A (map2 nsub (map nlog ask) (map nlog bid)))).

(** The [trade_direction] argument: None, a Python list, or an ndarray. The code only asks
    isinstance(trade_direction, np.ndarray). *)
Inductive direction := DirNone | DirList (d : list num) | DirArray (d : list num).

(** np.average(a, weights=w): l.69, l.117; numpy raises ZeroDivisionError when the weights sum to
    zero and TypeError when the shapes differ. *)
Definition waverage (a w : list num) : res num :=
  check (Nat.eqb (length a) (length w)) TypeError
    (let scl := asum w in
     if scl =? ofZ 0 then Err ZeroDivisionError else Ok (asum (map2 nmul a w) ⊘ scl)).
(** l.66-69 (and l.114-117, price_impact l.45-48): dollar-volume weighting. *)
Definition dollar_average (spread volume price : list num) : res num :=
  do dv <- bcast nmul volume price;
  if forallb (fun x => x =? ofZ 0) dv then Ok (nanmean A spread) else waverage spread dv.

(** 2*|a-b|/m*100 and 2*|ln a - ln b|; with direction 2*d*(a-b)/m*100 and 2*d*(ln a - ln b) *)
Definition pct_abs (a b m : list num) : list num :=
  map (fun x => x ⊗ ofZ 100) (map2 ndiv (map (fun x => ofZ 2 ⊗ nabs x) (map2 nsub a b)) m).
Definition log_abs (a b : list num) : list num :=
  map (fun x => ofZ 2 ⊗ nabs x) (map2 nsub (map nlog a) (map nlog b)).
Definition pct_dir (d a b m : list num) : list num :=
  map (fun x => x ⊗ ofZ 100) (map2 ndiv (map2 nmul (map (fun x => ofZ 2 ⊗ x) d) (map2 nsub a b)) m).
Definition log_dir (d a b : list num) : list num :=
  map2 nmul (map (fun x => ofZ 2 ⊗ x) d) (map2 nsub (map nlog a) (map nlog b)).

(** ** effective_spread, spread.py l.49-69 *)
Definition effective_spread (price midpoint volume : list num) (dir : direction) (pct : bool) : res num :=
  check (Nat.eqb (length price) (length midpoint) && Nat.eqb (length midpoint) (length volume)) AssertionError
    (match dir with
     | DirNone | DirList _ =>
         let spread := if pct then pct_abs price midpoint midpoint else log_abs price midpoint in
         dollar_average spread volume price
     | DirArray d =>
         check (Nat.eqb (length price) (length d)) AssertionError
           (let spread := if pct then pct_dir d price midpoint midpoint else log_dir d price midpoint in
            dollar_average spread volume price)
     end).

(** ** realized_spread, spread.py l.96-117 *)
Definition realized_spread (price midpoint_later midpoint volume : list num) (dir : direction) (pct : bool) : res num :=
  check (Nat.eqb (length price) (length midpoint_later) && Nat.eqb (length midpoint_later) (length midpoint)
         && Nat.eqb (length midpoint) (length volume)) AssertionError
    (match dir with
     | DirNone | DirList _ =>
         let spread := if pct then pct_abs price midpoint_later midpoint else log_abs price midpoint_later in
         dollar_average spread volume price
     | DirArray d =>
         check (Nat.eqb (length price) (length d)) AssertionError
           (let spread := if pct then pct_dir d price midpoint_later midpoint else log_dir d price midpoint_later in
            dollar_average spread volume price)
     end).

(** ** simple_price_impact, price_impact.py l.28-48: the shape of [price] is not checked, it is only
    broadcast against the volumes. *)
Definition simple_price_impact (price midpoint_later midpoint volume : list num) (dir : direction) (pct : bool) : res num :=
  check (Nat.eqb (length midpoint_later) (length midpoint) && Nat.eqb (length midpoint) (length volume)) AssertionError
    (match dir with
     | DirNone | DirList _ =>
         let spread := if pct then pct_abs midpoint_later midpoint midpoint else log_abs midpoint_later midpoint in
         dollar_average spread volume price
     | DirArray d =>
         check (Nat.eqb (length midpoint) (length d)) AssertionError
           (let spread := if pct then pct_dir d midpoint_later midpoint midpoint else log_dir d midpoint_later midpoint in
            dollar_average spread volume price)
     end).

(** ** lob_slope.py.  A two-dimensional array: number of columns and the rows (each of that length). *)
Record array2 := mkArray2 { cols : nat; rows : list (list num) }.
Inductive ndarray := Dim1 (l : list num) | Dim2 (a : array2) | Dim3plus.

(** DGGW_ask_slope l.53-60, DGGW_bid_slope l.92-99 *)
Definition lob_slope (dist : num -> num) (size : ndarray) (price_highest : list num) (mid_point : ndarray) : res num :=
  match size with
  | Dim1 _ => Err AssertionError
  | Dim3plus => Err ValueError                        (* n, k = shape *)
  | Dim2 s =>
    check (1 <? cols s)%nat AssertionError
    (match mid_point with
     | Dim1 m =>
       check (Nat.eqb (length (rows s)) (length m)) AssertionError
       (do d <- bcast nsub price_highest m;
        do slope <- bcast ndiv (map asum (rows s)) (map dist d);
        Ok (nanmean A slope))
     | _ => Err AssertionError
     end)
  end.
Definition ask_slope := lob_slope (fun d => d).
Definition bid_slope := lob_slope nabs.

(** column j of a two-dimensional array *)
Definition column (a : array2) (j : nat) : res (list num) :=
  if (j <? cols a)%nat then Ok (map (fun r => nth j r nnan) (rows a)) else Err IndexError.
(** one segment: (size[:,j2] - size[:,j1]) / |price[:,j2] - price[:,j1]|, evaluated left to right *)
Definition segment (size price : array2) (j2 j1 : nat) : res (list num) :=
  do a <- column size j2; do b <- column size j1; do num <- bcast nsub a b;
  do c <- column price j2; do d <- column price j1; do den <- bcast nsub c d;
  bcast ndiv num (map nabs den).
(** DGGW_bid_side_slope_difference l.113-120; the ask version l.135 is the same function. *)
Definition bid_side_slope_difference (size : ndarray) (price : array2) : res num :=
  match size with
  | Dim1 _ => Err AssertionError
  | Dim3plus => Err ValueError
  | Dim2 s =>
    check (1 <? cols s)%nat AssertionError
    (do slope_h <- segment s price 4 2;
     do slope_l <- segment s price 2 0;
     do diff <- bcast nsub slope_h slope_l;
     Ok (nanmean A diff))
  end.
Definition ask_side_slope_difference := bid_side_slope_difference.

(** DGGW_scaled_depth_difference l.167-171 (two-dimensional arguments). *)
Definition scaled_depth_difference (bid_size ask_size : array2) : res num :=
  check (Nat.eqb (cols bid_size) (cols ask_size) && Nat.eqb (length (rows bid_size)) (length (rows ask_size))) AssertionError
   (let bid_depth := map asum (rows bid_size) in
    let ask_depth := map asum (rows ask_size) in
    let sdd := map2 ndiv (map (fun x => ofZ 2 ⊗ x) (map2 nsub ask_depth bid_depth)) (map2 nadd ask_depth bid_depth) in
    Ok (nanmean A sdd)).

(** stubs l.4-21: NS2006_bid_slope, NS2006_ask_slope, GN2019_slope, HS2001_quote_slope, HS2001_log_quote_slope *)
Inductive slope_stub := NS2006_bid_slope | NS2006_ask_slope | GN2019_slope | HS2001_quote_slope | HS2001_log_quote_slope.
Definition call_stub (_ : slope_stub) : res num := Err NotImplementedError.
End Micro.
Arguments DirArray {A}. Arguments DirList {A}. Arguments DirNone {A}.
Arguments Dim1 {A}. Arguments Dim2 {A}. Arguments Dim3plus {A}.
Arguments mkArray2 {A}. Arguments cols {A}. Arguments rows {A}.
