(** * Model of the closed-form measures: z_score, kyle_lambda, MarginalExpectedShortfall,
      SRISK, SystemicExpectedShortfall (src/frds/measures/) *)
From Coq Require Import ZArith String List Bool Arith.
From Verif Require Import Arith Model_garch.
Import ListNotations.
Local Open Scope num_scope.

Section Measures.
Context (A : Arith).
Notation num := (num A).

(** [np.std] with ddof = 0. *)
Definition astd (l : list num) : num := nsqrt (avar A l).

(** ** z_score, _z_score.py l.15. numpy division: no exception. *)
Definition z_score (roa capital_ratio : num) (past_roas : list num) : num :=
  (roa ⊕ capital_ratio) ⊘ astd past_roas.

(** ** kyle_lambda, _kyle_lambda.py l.18-22.  [lstsq] is numpy.linalg.lstsq restricted to one
    regressor (an oracle; its contract is stated in Spec_measures.v). Different lengths raise
    LinAlgError. *)
Definition kyle_lambda (lstsq : list num -> list num -> num) (returns volume : list num) : res num :=
  check (Nat.eqb (length returns) (length volume)) LinAlgError
    (Ok (lstsq volume returns ⊗ ofZ 1000000)).

(** ** np.percentile(a, q*100), method "linear", for a 1-d array.
    The quantile is (q*100)/100; virtual index h = (n-1)*quantile; floor h is found by comparing
    with the integers below n; interpolation is numpy's two-branch _lerp. An array with a NaN
    gives NaN; an empty array raises IndexError. *)
Fixpoint insert (x : num) (l : list num) : list num :=
  match l with [] => [x] | y :: l' => if nleb x y then x :: l else y :: insert x l' end.
Fixpoint isort (l : list num) : list num :=
  match l with [] => [] | x :: l' => insert x (isort l') end.
Definition floor_index (h : num) (n : nat) : nat :=
  length (filter (fun i => nleb (ofZ (Z.of_nat i)) h) (seq 1 (n - 1))).
Definition lerp (a b t : num) : num :=
  let d := b ⊖ a in
  if nleb (lit 5 10) t then b ⊖ d ⊗ (ofZ 1 ⊖ t) else a ⊕ d ⊗ t.
Definition percentile (l : list num) (q100 : num) : res num :=
  match l with
  | [] => Err IndexError
  | _ =>
    if existsb isnan l then Ok nnan
    else
      let n := length l in
      let s := isort l in
      let h := ofZ (Z.of_nat (n - 1)) ⊗ (q100 ⊘ ofZ 100) in
      let i := floor_index h n in
      let j := Nat.min (S i) (n - 1) in
      Ok (lerp (nth i s nnan) (nth j s nnan) (h ⊖ ofZ (Z.of_nat i)))
  end.

(** ** MarginalExpectedShortfall, _marginal_expected_shortfall.py l.7-30.
    Constructor l.14: shapes must agree (here: 1-d arrays). estimate l.27-30:
    argwhere(market < threshold) selects days, np.mean of the firm returns on them. *)
Fixpoint select (keep : num -> bool) (market firm : list num) : list num :=
  match market, firm with
  | m :: market', f :: firm' =>
      if keep m then f :: select keep market' firm' else select keep market' firm'
  | _, _ => []
  end.
Definition mes (firm market : list num) (q : num) : res num :=
  check (Nat.eqb (length firm) (length market)) AssertionError
  (check (nleb (ofZ 0) q && nleb q (ofZ 1)) AssertionError
  (do thr <- percentile market (q ⊗ ofZ 100);
   Ok (amean A (select (fun m => nltb m thr) market firm)))).

(** ** SRISK, _srisk.py.  Python values that can be passed as W and D. *)
Inductive pyval := PyFloat (x : num)        (* a Python float *)
                 | NpFloat (x : num)        (* np.float64, a subclass of float *)
                 | PyInt (z : Z)
                 | NpArray (shape : list nat) (data : list num).
Definition is_float (v : pyval) : bool := match v with PyFloat _ | NpFloat _ => true | _ => false end.
Definition is_array (v : pyval) : bool := match v with NpArray _ _ => true | _ => false end.
Definition vshape (v : pyval) : list nat := match v with NpArray s _ => s | _ => [] end.
Definition shape_eqb (a b : list nat) : bool := if list_eq_dec Nat.eq_dec a b then true else false.

(** SRISK.__init__, l.34-54: returns (n_firms, n_days). Only shapes and types are inspected. *)
Definition srisk_init (firm_shape market_shape : list nat) (W D : pyval) : res (nat * nat) :=
  match firm_shape with
  | [n_days] =>
      check (shape_eqb firm_shape market_shape) AssertionError
      (check (is_float D && is_float W) AssertionError (Ok (1, n_days)))
  | [n_days; n_firms] =>
      check (1 <? n_firms)%nat AssertionError
      (match market_shape with
       | [] => Err IndexError                           (* shape[0] of a 0-d array *)
       | m0 :: _ =>
         check (Nat.eqb m0 n_days) AssertionError
         (check (is_array D && is_array W) AssertionError
         (check (shape_eqb (vshape D) (vshape W)) AssertionError
         (check (shape_eqb (vshape D) [n_firms]) AssertionError (Ok (n_firms, n_days)))))
       end)
  | _ => Err ValueError                                  (* n_days, n_firms = shape *)
  end.

(** A scalar together with its Python type: True = numpy scalar, False = Python float. *)
Definition scalar := (bool * num)%type.
Definition to_scalar (v : pyval) : scalar :=
  match v with PyFloat x => (false, x) | NpFloat x => (true, x) | PyInt z => (false, ofZ z)
             | NpArray _ _ => (true, nnan) end.
(** one firm: l.92-93. Dividing two Python floats raises when the divisor is 0. *)
Definition srisk_formula (k W D lrmes : num) : num :=
  let lvg := (D ⊕ W) ⊘ W in W ⊗ (k ⊗ lvg ⊕ (ofZ 1 ⊖ k) ⊗ lrmes ⊖ ofZ 1).
Definition srisk_single (k : num) (W D lrmes : scalar) : res scalar :=
  if negb (fst W) && negb (fst D) && neqb (snd W) (ofZ 0) then Err ZeroDivisionError
  else Ok (fst W || fst D || fst lrmes, srisk_formula k (snd W) (snd D) (snd lrmes)).
(** [.clip(min=0.0)] *)
Definition clip0 (x : num) : num := npmax A x (ofZ 0).
(** SRISK.estimate for one firm, l.80-97; [lrmes] is the value LongRunMarginalExpectedShortfall
    returned (modelled in Model_lrmes.v). A Python float has no method clip. *)
Definition srisk_one (k : num) (W D : pyval) (lrmes : res scalar) (aggregate : bool) : res scalar :=
  do l <- lrmes;
  do s <- srisk_single k (to_scalar W) (to_scalar D) l;
  if aggregate then
    if fst s then Ok (true, asum [clip0 (snd s)]) else Err AttributeError
  else Ok s.
(** several firms: [lrmes_of] gives the LRMES of column i (same seed for all); evaluated in order. *)
Fixpoint collect {X} (l : list (res X)) : res (list X) :=
  match l with
  | [] => Ok []
  | r :: l' => do x <- r; do xs <- collect l'; Ok (x :: xs)
  end.
Definition srisk_many (k : num) (W D : list num) (lrmes : list (res scalar)) : res (list num) :=
  do ls <- collect lrmes;
  Ok (map2 (fun wd l => srisk_formula k (fst wd) (snd wd) (snd l)) (combine W D) ls).
Definition srisk_many_aggregate (k : num) (W D : list num) (lrmes : list (res scalar)) : res num :=
  do s <- srisk_many k W D lrmes; Ok (asum (map clip0 s)).

(** SRISK.estimate, l.78-97, with the LRMES measure as a function of (firm, market) returns
    (same h, S, C and seed for every firm, l.80-90). *)
Definition srisk_estimate_one (LR : list num -> list num -> res scalar)
    (firm market : list num) (W D : pyval) (k : num) (aggregate : bool) : res scalar :=
  srisk_one k W D (LR firm market) aggregate.
Definition srisk_estimate_many (LR : list num -> list num -> res scalar)
    (columns : list (list num)) (market W D : list num) (k : num) : res (list num) :=
  srisk_many k W D (map (fun c => LR c market) columns).
Definition srisk_estimate_many_aggregate (LR : list num -> list num -> res scalar)
    (columns : list (list num)) (market W D : list num) (k : num) : res num :=
  srisk_many_aggregate k W D (map (fun c => LR c market) columns).

(** ** SystemicExpectedShortfall, _systemic_expected_shortfall.py.
    Constructor l.24-25, estimate l.42-49, _bflv2012 l.51-58.
    [lstsq3] = np.linalg.lstsq(data, ses)[0] for the three columns (1, mes, lvg). *)
Definition ses_bflv (lstsq3 : list num -> list num -> list num -> num * num * num)
    (mes lvg ses : list num) (mes_firm lvg_firm : num) : num :=
  let '(_, b, c) := lstsq3 mes lvg ses in
  (b ⊗ mes_firm ⊕ c ⊗ lvg_firm) ⊘ (b ⊕ c).
Definition ses_estimate lstsq3 (mes lvg ses : list num) (mes_firm lvg_firm : num) (version : string) : res num :=
  check (Nat.eqb (length mes) (length lvg)) AssertionError
  (check (Nat.eqb (length mes) (length ses)) AssertionError
  (check (String.eqb version "BFLV2012" || String.eqb version "APPR2017") AssertionError
  (if String.eqb version "BFLV2012" then Ok (ses_bflv lstsq3 mes lvg ses mes_firm lvg_firm)
   else Err NotImplementedError))).
End Measures.
