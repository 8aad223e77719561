(** * Numbers used by the model

    The frds code computes with IEEE binary64 numbers (Python floats, numpy float64,
    C++ double).  Every model function is parametric in a record of operations WITHOUT LAWS,
    so a theorem quantified over all [A : Arith] makes no assumption on rounding
    at all and in particular holds bit for bit for binary64.  *)
From Coq Require Import ZArith List.
Import ListNotations.

Record Arith : Type := mkArith {
  num   : Type;
  nadd   : num -> num -> num;      (* x + y *)
  nsub   : num -> num -> num;      (* x - y *)
  nmul   : num -> num -> num;      (* x * y *)
  ndiv   : num -> num -> num;      (* x / y, numpy / C++ semantics: no exception *)
  nopp   : num -> num;             (* -x *)
  nabs   : num -> num;             (* np.abs, np.absolute *)
  nsqrt  : num -> num;             (* np.sqrt, std::sqrt *)
  nlog   : num -> num;             (* np.log, std::log *)
  nexp   : num -> num;             (* np.exp, std::exp *)
  nsq    : num -> num;             (* x**2, std::pow(x, 2) *)
  npow   : num -> num -> num;      (* x**y *)
  nltb   : num -> num -> bool;     (* x < y  *)
  nleb   : num -> num -> bool;     (* x <= y *)
  neqb   : num -> num -> bool;     (* x == y *)
  isnan : num -> bool;
  isinf : num -> bool;
  npinf  : num;                    (* np.inf *)
  nnan   : num;                    (* np.nan *)
  npi    : num;                    (* np.pi *)
  ofZ   : Z -> num;               (* integer literal / int -> float *)
  lit   : Z -> positive -> num;   (* decimal literal m/d, d a power of ten *)
  ncdf  : num -> num;             (* scipy.stats.norm.cdf *)
  asum  : list num -> num         (* np.sum / np.dot accumulation; order unspecified *)
}.

Arguments nadd {_}. Arguments nsub {_}. Arguments nmul {_}. Arguments ndiv {_}.
Arguments nopp {_}. Arguments nabs {_}. Arguments nsqrt {_}. Arguments nlog {_}.
Arguments nexp {_}. Arguments nsq {_}. Arguments npow {_}. Arguments nltb {_}.
Arguments nleb {_}. Arguments neqb {_}. Arguments isnan {_}. Arguments isinf {_}.
Arguments npinf {_}. Arguments nnan {_}. Arguments npi {_}. Arguments ofZ {_}.
Arguments lit {_}. Arguments ncdf {_}. Arguments asum {_}.

Declare Scope num_scope.
Delimit Scope num_scope with num.
Notation "x ⊕ y" := (nadd x y) (at level 50, left associativity) : num_scope.
Notation "x ⊖ y" := (nsub x y) (at level 50, left associativity) : num_scope.
Notation "x ⊗ y" := (nmul x y) (at level 40, left associativity) : num_scope.
Notation "x ⊘ y" := (ndiv x y) (at level 40, left associativity) : num_scope.
Notation "x <? y" := (nltb x y) (at level 70) : num_scope.
Notation "x <=? y" := (nleb x y) (at level 70) : num_scope.
Notation "x =? y" := (neqb x y) (at level 70) : num_scope.

(** ** Results of Python calls: a value or a raised exception. *)
Inductive exn : Type :=
  | AssertionError | IndexError | ValueError | ZeroDivisionError
  | NotImplementedError | AttributeError | RuntimeError | TypeError
  | LinAlgError | ModuleNotFoundError | ImportError | FileError | OverflowError | KeyError.

Inductive res (X : Type) : Type :=
  | Ok  (x : X)
  | Err (e : exn).
Arguments Ok {X}. Arguments Err {X}.

Definition bind {X Y} (r : res X) (f : X -> res Y) : res Y :=
  match r with Ok x => f x | Err e => Err e end.
Notation "'do' x <- r ; k" := (bind r (fun x => k)) (at level 60, x pattern, r at level 60, k at level 60, right associativity).

(** [assert b; k] : Python's assert statement. *)
Definition check {X} (b : bool) (e : exn) (k : res X) : res X :=
  if b then k else Err e.

(** ** Element-wise numpy operations on 1-d arrays of equal length. *)
Fixpoint map2 {X Y Z : Type} (f : X -> Y -> Z) (l : list X) (m : list Y) : list Z :=
  match l, m with
  | x :: l', y :: m' => f x y :: map2 f l' m'
  | _, _ => []
  end.

(** [np.mean] / [np.average] without weights: sum divided by the number of elements
    (0/0 = NaN for the empty array). *)
Definition amean (A : Arith) (l : list (num A)) : num A :=
  ndiv (asum l) (ofZ (Z.of_nat (length l))).

(** [np.nanmean]: mean of the non-NaN elements. *)
Definition nanmean (A : Arith) (l : list (num A)) : num A :=
  amean A (filter (fun x => negb (isnan x)) l).

(** [np.var] with ddof = 0. *)
Definition avar (A : Arith) (l : list (num A)) : num A :=
  let m := amean A l in amean A (map (fun x => nsq (nsub x m)) l).
