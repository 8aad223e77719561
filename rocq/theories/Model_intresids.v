(** * compute_variance, forecast_variance and ewma called directly with an integer array of residuals

    The constructors convert returns to float64, the static methods do not convert [resids].  The Python code allocates the result with
    np.zeros_like(resids), so every assignment to it casts to the dtype of the residuals; the C++ kernels read the buffer as doubles.
    [store] is that cast (the identity for float64).  Not modelled: integer dtypes other than int64, float32, and the wrap-around of
    resids[t-1] ** 2 for residuals of more than 3037000499 in absolute value. *)
From Coq Require Import ZArith List Bool.
From Flocq Require Import Core BinarySingleNaN Binary Bits.
From Verif Require Import Arith Float64 Model_garch.
Import ListNotations.
Local Open Scope num_scope.

Section Stored.
Context (A : Arith).
Notation num := (num A).
Context (store : num -> num).

(** the loop of _garch.py l.196-198 (GARCH) and l.432-435 (GJR) with the cast at each assignment to sigma2[t];
    [update] computes the value before the bounds check *)
Fixpoint stored_loop (update : num -> num -> num) (prev : num) (rs : list num) (bs : list (num * num)) : res (list num) :=
  match rs with
  | [] => Ok []
  | r :: rs' =>
      match bs with
      | [] => Err IndexError
      | b :: bs' =>
          let s := store (bounds_check_py A (update prev r) b) in
          do rest <- stored_loop update s rs' bs'; Ok (s :: rest)
      end
  end.
(** l.197 *)
Definition stored_garch_update (omega alpha beta prev r : num) : num := store (omega ⊕ alpha ⊗ nsq r ⊕ beta ⊗ prev).
(** l.433-434: two assignments *)
Definition stored_gjr_update (omega alpha gamma beta prev r : num) : num :=
  let s := store (omega ⊕ alpha ⊗ nsq r ⊕ beta ⊗ prev) in
  store (s ⊕ (if nltb r (ofZ 0) then gamma ⊗ nsq r else ofZ 0)).
(** GARCHModel.compute_variance, l.193-199 *)
Definition garch_variance_stored (params resids : list num) (backcast : num) (var_bounds : list (num * num)) : res (list num) :=
  match params with
  | [omega; alpha; beta] =>
      match resids with
      | [] => Err IndexError
      | _ =>
          let s0 := store (omega ⊕ (alpha ⊕ beta) ⊗ backcast) in
          do rest <- stored_loop (stored_garch_update omega alpha beta) s0 (removelast resids) (tl var_bounds);
          Ok (s0 :: rest)
      end
  | _ => Err ValueError
  end.
(** GJRGARCHModel.compute_variance, l.429-436 *)
Definition gjr_variance_stored (params resids : list num) (backcast : num) (var_bounds : list (num * num)) : res (list num) :=
  match params with
  | [omega; alpha; gamma; beta] =>
      match resids with
      | [] => Err IndexError
      | _ =>
          let s0 := store (omega ⊕ (alpha ⊕ gamma ⊘ ofZ 2 ⊕ beta) ⊗ backcast) in
          do rest <- stored_loop (stored_gjr_update omega alpha gamma beta) s0 (removelast resids) (tl var_bounds);
          Ok (s0 :: rest)
      end
  | _ => Err ValueError
  end.
(** GJRGARCHModel.forecast_variance, l.438-461: sigma2[0] is cast too, then dropped *)
Fixpoint forecast_stored_loop (omega alpha gamma beta prev : num) (rs : list num) : list num :=
  match rs with
  | [] => []
  | r :: rs' => let s := stored_gjr_update omega alpha gamma beta prev r in s :: forecast_stored_loop omega alpha gamma beta s rs'
  end.
Definition forecast_stored (omega alpha gamma beta : num) (resids : list num) (initial_variance : num) : res (list num) :=
  match resids with
  | [] => Err IndexError
  | _ => Ok (forecast_stored_loop omega alpha gamma beta (store initial_variance) (removelast resids))
  end.
End Stored.

(** what the kernels of garch.hpp read for an int64 element: its 64 bits, two's complement, as an IEEE-754 double
    (utils_module.cpp l.31, 101, 148: (double * )PyArray_DATA(resids_in), the dtype is not checked) *)
Definition reinterpret (z : Z) : b64 := B2BSN 53 1024 (b64_of_bits (z mod 2 ^ 64)).
