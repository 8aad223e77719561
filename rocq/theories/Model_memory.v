(** * The C++ kernels as imperative programs on bounded buffers

    garch.hpp, mgarch.hpp, lrmes.hpp and their wrappers in utils_module.cpp and measures_module.cpp, with every read and
    write checked against the extent of the object it touches: an access outside is undefined behaviour ([UB]).
    A buffer of doubles is the list of the 8-byte cells from the pointer to the end of the allocation.
    Not modelled: allocation failure, reference counts, [int] overflow (arrays of 2^30 or more elements),
    arguments that are not arrays where the wrapper does not check it (measures_module.cpp l.32), and reads of
    uninitialised but allocated memory, which deliver some value ([junk]). *)
From Coq Require Import ZArith List Bool Arith.
From Verif Require Import Arith Model_garch Model_mgarch Model_lrmes.
Import ListNotations.
Local Open Scope num_scope.

Inductive run (X : Type) := Done (x : X) | UB.
Arguments Done {X}. Arguments UB {X}.
Definition rbind {X Y} (r : run X) (k : X -> run Y) : run Y := match r with Done x => k x | UB => UB end.
Notation "x <~ r ;; k" := (rbind r (fun x => k)) (at level 61, r at next level, right associativity).
(** p[i] as an rvalue and as an lvalue *)
Definition load {X} (b : list X) (i : nat) : run X := match nth_error b i with Some x => Done x | None => UB end.
Fixpoint set_cell {X} (b : list X) (i : nat) (x : X) : list X :=
  match b, i with [], _ => [] | _ :: b', O => x :: b' | y :: b', S i' => y :: set_cell b' i' x end.
Definition store {X} (b : list X) (i : nat) (x : X) : run (list X) := if (i <? length b)%nat then Done (set_cell b i x) else UB.
(** for (int t = t0; t < t0 + n; ++t) *)
Fixpoint for_loop {S} (n t : nat) (body : nat -> S -> run S) (s : S) : run S :=
  match n with O => Done s | Datatypes.S n' => s' <~ body t s;; for_loop n' (Datatypes.S t) body s' end.

Section Memory.
Context (A : Arith).
Notation num := (num A).

(** ** garch.hpp *)
(** ewma, l.7-19 *)
Definition ewma_mem (resids variance : list num) (T : nat) (initial_value lam : num) : run (list num) :=
  variance <~ store variance 0 initial_value;;
  for_loop (T - 1) 1 (fun t variance =>
    r <~ load resids (t - 1);; r' <~ load resids (t - 1);;
    v <~ load variance (t - 1);;
    store variance t (lam ⊗ v ⊕ (ofZ 1 ⊖ lam) ⊗ (r ⊗ r'))) variance.
(** compute_garch_variance, l.33-48 *)
Definition garch_mem (sigma2 resids var_bounds : list num) (T : nat) (params : list num) (backcast : num) : run (list num) :=
  omega <~ load params 0;; alpha <~ load params 1;; beta <~ load params 2;;
  sigma2 <~ store sigma2 0 (omega ⊕ (alpha ⊕ beta) ⊗ backcast);;
  for_loop (T - 1) 1 (fun t sigma2 =>
    r <~ load resids (t - 1);; s <~ load sigma2 (t - 1);;
    sigma2 <~ store sigma2 t (omega ⊕ alpha ⊗ nsq r ⊕ beta ⊗ s);;
    s <~ load sigma2 t;; lower <~ load var_bounds (t * 2);; upper <~ load var_bounds (t * 2 + 1);;
    store sigma2 t (bounds_check_cpp A s lower upper)) sigma2.
(** compute_gjrgarch_variance, l.50-69 *)
Definition gjr_mem (sigma2 resids var_bounds : list num) (T : nat) (params : list num) (backcast : num) : run (list num) :=
  omega <~ load params 0;; alpha <~ load params 1;; gamma <~ load params 2;; beta <~ load params 3;;
  sigma2 <~ store sigma2 0 (omega ⊕ (alpha ⊕ gamma ⊘ ofZ 2 ⊕ beta) ⊗ backcast);;
  for_loop (T - 1) 1 (fun t sigma2 =>
    r <~ load resids (t - 1);; s <~ load sigma2 (t - 1);;
    sigma2 <~ store sigma2 t (omega ⊕ alpha ⊗ nsq r ⊕ beta ⊗ s);;
    r <~ load resids (t - 1);;
    sigma2 <~ (if r <? ofZ 0 then s <~ load sigma2 t;; r <~ load resids (t - 1);; store sigma2 t (s ⊕ gamma ⊗ nsq r) else Done sigma2);;
    s <~ load sigma2 t;; lower <~ load var_bounds (t * 2);; upper <~ load var_bounds (t * 2 + 1);;
    store sigma2 t (bounds_check_cpp A s lower upper)) sigma2.

(** ** utils_module.cpp *)
(** a numpy array as the wrappers see it: number of dimensions, first dimension, and the doubles that can be read from
    PyArray_DATA to the end of the allocation, whatever the strides and the dtype *)
Record array_arg := { a_ndim : nat; a_dim : nat; a_cells : list num }.
(** a fresh C-contiguous float64 vector, and a (T,2) matrix *)
Definition vector (l : list num) : array_arg := {| a_ndim := 1; a_dim := length l; a_cells := l |}.
Definition matrix2 (b : list (num * num)) : array_arg := {| a_ndim := 2; a_dim := length b; a_cells := concat (map (fun r => [fst r; snd r]) b) |}.
(** a view of the elements off, off + s, off + 2s, ... of a float64 allocation; the cells do not depend on the stride s *)
Definition view (alloc : list num) (off dim : nat) : array_arg := {| a_ndim := 1; a_dim := dim; a_cells := skipn off alloc |}.
(** a float32 vector of dim elements: dim * 4 bytes, i.e. dim / 2 cells with unrelated contents *)
Definition float32_vector (contents : nat -> num) (dim : nat) : array_arg := {| a_ndim := 1; a_dim := dim; a_cells := map contents (seq 0 (Nat.div dim 2)) |}.

(** PyArray_SimpleNew: T cells with arbitrary contents *)
Definition new_cells (junk : nat -> num) (T : nat) : list num := map junk (seq 0 T).
(** l.17-41 *)
Definition ewma_call (junk : nat -> num) (resids : array_arg) (initial_value lam : num) : run (list num) :=
  ewma_mem (a_cells resids) (new_cells junk (a_dim resids)) (a_dim resids) initial_value lam.
(** l.44-62 *)
Definition bounds_check_call (sigma2 : num) (bounds : array_arg) : run num :=
  lower <~ load (a_cells bounds) 0;; upper <~ load (a_cells bounds) 1;; Done (bounds_check_cpp A sigma2 lower upper).
(** l.65-109 and l.112-156; the dimensions are checked, the extents are not *)
Definition variance_call (kernel : list num -> list num -> list num -> nat -> list num -> num -> run (list num))
    (junk : nat -> num) (params : list num) (resids : array_arg) (backcast : num) (var_bounds : array_arg) : run (res (list num)) :=
  if negb (Nat.eqb (a_ndim resids) 1) || negb (Nat.eqb (a_ndim var_bounds) 2) then Done (Err ValueError)
  else s <~ kernel (new_cells junk (a_dim resids)) (a_cells resids) (a_cells var_bounds) (a_dim resids) params backcast;; Done (Ok s).

(** ** mgarch.hpp l.10-58; PyArray_GETPTR1 honours the strides, so that the arrays are their logical contents *)
Definition dcc_mem (a b : num) (resids1 resids2 sigma2_1 sigma2_2 : list num) : run (list num) :=
  let T := length resids1 in
  let zeros := repeat (ofZ 0) T in
  z <~ for_loop T 0 (fun t z =>
    r1 <~ load resids1 t;; s1 <~ load sigma2_1 t;; z1 <~ store (fst z) t (r1 ⊘ nsqrt s1);;
    r2 <~ load resids2 t;; s2 <~ load sigma2_2 t;; z2 <~ store (snd z) t (r2 ⊘ nsqrt s2);; Done (z1, z2)) (zeros, zeros);;
  let z1 := fst z in let z2 := snd z in
  m <~ for_loop T 0 (fun t m =>
    x <~ load z1 t;; y <~ load z2 t;; Done (fst (fst m) ⊕ x ⊗ x, snd (fst m) ⊕ x ⊗ y, snd m ⊕ y ⊗ y)) (ofZ 0, ofZ 0, ofZ 0);;
  let q11b := fst (fst m) ⊘ ofZ (Z.of_nat T) in
  let q12b := snd (fst m) ⊘ ofZ (Z.of_nat T) in
  let q22b := snd m ⊘ ofZ (Z.of_nat T) in
  q11 <~ store zeros 0 q11b;; q22 <~ store zeros 0 q22b;; q12 <~ store zeros 0 q12b;;
  x12 <~ load q12 0;; x11 <~ load q11 0;; x22 <~ load q22 0;;
  rho <~ store zeros 0 (x12 ⊘ nsqrt (x11 ⊗ x22));;
  s <~ for_loop (T - 1) 1 (fun t s =>
    let '(q11, q12, q22, rho) := s in
    x <~ load z1 (t - 1);; y <~ load z2 (t - 1);; p11 <~ load q11 (t - 1);; p22 <~ load q22 (t - 1);; p12 <~ load q12 (t - 1);;
    q11 <~ store q11 t ((ofZ 1 ⊖ a ⊖ b) ⊗ q11b ⊕ a ⊗ nsq x ⊕ b ⊗ p11);;
    q22 <~ store q22 t ((ofZ 1 ⊖ a ⊖ b) ⊗ q22b ⊕ a ⊗ nsq y ⊕ b ⊗ p22);;
    q12 <~ store q12 t ((ofZ 1 ⊖ a ⊖ b) ⊗ q12b ⊕ a ⊗ x ⊗ y ⊕ b ⊗ p12);;
    x12 <~ load q12 t;; x11 <~ load q11 t;; x22 <~ load q22 t;;
    rho <~ store rho t (x12 ⊘ nsqrt (x11 ⊗ x22));; Done (q11, q12, q22, rho)) (q11, q12, q22, rho);;
  Done (snd s).

(** ** lrmes.hpp l.9-107; innovation is a matrix with [cols] columns, of which PyArray_GETPTR2 reads 0 and 1 (rows are
    contiguous in the bootstrap sample); Q_bar as in Model_lrmes *)
Definition lrmes_mem (i : sim_inputs A) (C : num) (cols : nat) (innovation : list num) : run (num * bool) :=
  let H := Nat.div (length innovation) cols in
  let zeros := repeat (ofZ 0) H in
  s <~ for_loop H 0 (fun h s =>
    let '(st, firm_return, mkt_return) := s in
    x <~ load innovation (h * cols);; y <~ load innovation (h * cols + 1);;
    let r := sim_step_cpp A (i_pi A i) (i_pm A i) (i_a A i) (i_b A i) (i_qib A i) (i_qmb A i) (i_qimb A i) st (x, y) in
    mkt_return <~ store mkt_return h (fst (fst r));; firm_return <~ store firm_return h (snd (fst r));;
    Done (snd r, firm_return, mkt_return))
    (sim_start A (i_firm_var A i) (i_mkt_var A i) (i_firm_resid A i) (i_mkt_resid A i) (i_rho A i), zeros, zeros);;
  let '(_, firm_return, mkt_return) := s in
  let mkt_return := map (fun ret => ret ⊘ ofZ 100) mkt_return in
  let firm_return := map (fun ret => ret ⊘ ofZ 100) firm_return in
  if (nexp (fold_left nadd mkt_return (ofZ 0)) ⊖ ofZ 1) <? C then Done (nexp (fold_left nadd firm_return (ofZ 0)) ⊖ ofZ 1, true) else Done (ofZ 0, false).
End Memory.

(** ** Strings in a numpy 'S' array: every item occupies [width] bytes, padded with NUL bytes on the right and not
    terminated when it fills its width; IsolationForest.cpp passes the item's address to strlen and strcmp (l.58-69, l.132-140) *)
Definition item_bytes (width : nat) (s : list nat) : list nat := s ++ repeat 0%nat (width - length s).
Definition char_cells (width : nat) (items : list (list nat)) : list nat := concat (map (item_bytes width) items).
(** the C string at an address: the bytes up to the next NUL, undefined when the allocation ends first *)
Fixpoint c_string (cells : list nat) : run (list nat) :=
  match cells with
  | [] => UB
  | c :: cells' => if Nat.eqb c 0 then Done [] else s <~ c_string cells';; Done (c :: s)
  end.
Definition read_item (width : nat) (items : list (list nat)) (i : nat) : run (list nat) := c_string (skipn (i * width) (char_cells width items)).
(** to_numpy(dtype=np.string_): the width is that of the longest string, at least 1 (isolation_forest/__init__.py l.34) *)
Definition numpy_width (items : list (list nat)) : nat := fold_right (fun s w => Nat.max (length s) w) 1%nat items.
