(** * Model of the isolation forest as called: isolation_forest/__init__.py anomaly_scores (l.9-46), iforest_module.cpp
      (l.14-65), and IsolationForest.cpp on the memory it is given

    Model_iforest.v is the forest over an abstract table.  Here the table is the memory of the two C-contiguous numpy
    arrays, every access is checked ([UB] outside), and the Python front end is included.
    Simplifications: the integer Node::nObs does not overflow; memory can be allocated; the object column's str() values
    are given as code points. *)
From Coq Require Import ZArith String List Bool Arith.
From Verif Require Import Arith Model_iforest Model_memory.
Import ListNotations.
Local Open Scope num_scope.

Section Mem.
Context (A : Arith).
Notation num := (num A).

(** the arrays behind num_data and char_data (attributes x observations, row-major), IsolationForest.cpp l.83-98 *)
Record table := mkTable { t_num : list num; t_char : list nat; t_width : nat; t_nnum : nat; t_nchar : nat; t_nobs : nat }.
(** PyArray_GETPTR2(num_data, attr, ob) and the load through it, l.31, l.34, l.126 *)
Definition read_num (t : table) (attr ob : nat) : run num := load (t_num t) (attr * t_nobs t + ob).
(** PyArray_GETPTR2(char_data, attr, ob) and the C string at that address, l.58-69, l.133-140 *)
Definition read_char (t : table) (attr ob : nat) : run (list nat) := c_string (skipn ((attr * t_nobs t + ob) * t_width t) (t_char t)).

(** l.33-51 and l.61-74 *)
Definition grow_left_mem (t : table) (attr : nat) (sp : split A) (ob : nat) : run bool :=
  match sp with
  | SplitNum v => x <~ read_num t attr ob;; Done (if isnan v then isnan x else isnan x || (x <? v))
  | SplitStr s => x <~ read_char t (attr - t_nnum t) ob;; Done (str_lt x s)
  end.
Definition split_mem (t : table) (attr ob : nat) : run (split A) :=
  if (attr <? t_nnum t)%nat then v <~ read_num t attr ob;; Done (SplitNum v) else s <~ read_char t (attr - t_nnum t) ob;; Done (SplitStr s).
Fixpoint partition_mem (p : nat -> run bool) (sample : list nat) : run (list nat * list nat) :=
  match sample with
  | [] => Done ([], [])
  | o :: s' => b <~ p o;; lr <~ partition_mem p s';; Done (if b : bool then (o :: fst lr, snd lr) else (fst lr, o :: snd lr))
  end.
(** growTree, l.12-81 *)
Fixpoint growTree_mem (t : table) (rg : rng) (fuel : nat) (sample : list nat) (g : gen rg) : run (tree A) :=
  match fuel with
  | O => Done (Leaf (List.length sample))
  | S fuel' =>
    if (List.length sample <=? 1)%nat then Done (Leaf (List.length sample))
    else
      let (attr, g1) := draw_attr rg g in
      let (ix, g2) := draw_index rg (List.length sample) g1 in
      ob <~ load sample ix;;
      sp <~ split_mem t attr ob;;
      lr <~ partition_mem (grow_left_mem t attr sp) sample;;
      l <~ growTree_mem t rg fuel' (fst lr) g2;;
      r <~ growTree_mem t rg fuel' (snd lr) g2;;
      Done (Node attr sp (List.length sample) l r)
  end.
(** pathLength, l.116-146 *)
Definition score_left_mem (t : table) (attr : nat) (sp : split A) (ob : nat) : run bool :=
  match sp with
  | SplitNum v => x <~ read_num t attr ob;; Done (x <? v)
  | SplitStr s => x <~ read_char t (attr - t_nnum t) ob;; Done (str_lt x s)
  end.
Fixpoint pathLength_mem (t : table) (ob : nat) (tr : tree A) (len : nat) : run num :=
  match tr with
  | Leaf n => Done (if (n <=? 1)%nat then ofZ (Z.of_nat len) else ofZ (Z.of_nat len) ⊕ averagePathLength A n)
  | Node attr sp _ l r => b <~ score_left_mem t attr sp ob;; if b : bool then pathLength_mem t ob l (S len) else pathLength_mem t ob r (S len)
  end.
Fixpoint total_mem (t : table) (ob : nat) (trees : list (tree A)) (acc : num) : run num :=
  match trees with
  | [] => Done acc
  | tr :: trees' => p <~ pathLength_mem t ob tr 0;; total_mem t ob trees' (acc ⊕ p)
  end.
(** anomalyScore, l.109-114 *)
Definition anomalyScore_mem (t : table) (treeSize forestSize : nat) (trees : list (tree A)) (ob : nat) : run num :=
  total <~ total_mem t ob trees (ofZ 0);;
  Done (npow (ofZ 2) (nopp (total ⊘ ofZ (Z.of_nat forestSize)) ⊘ averagePathLength A treeSize)).
(** a worker thread, l.148-174 *)
Fixpoint worker_loop_mem (t : table) (rg : rng) (height jobs : nat) (sample : list nat) (g : gen rg) : run (list (tree A)) :=
  match jobs with
  | O => Done []
  | S jobs' =>
    let (drawn, g') := draw_sample rg g in
    tr <~ growTree_mem t rg height (sample ++ drawn) g';;
    rest <~ worker_loop_mem t rg height jobs' (sample ++ drawn) g';;
    Done (tr :: rest)
  end.
Fixpoint map_run {X Y} (f : X -> run Y) (l : list X) : run (list Y) :=
  match l with [] => Done [] | x :: l' => y <~ f x;; ys <~ map_run f l';; Done (y :: ys) end.
(** grow(), l.176-195: the trees of each worker; undefined behaviour of one thread is undefined behaviour *)
Definition grow_mem (t : table) (rg : rng) (treeSize forestSize randomSeed workers : nat) : run (list (list (tree A))) :=
  map_run (fun i => let jobs := jobs_of forestSize workers i in
             worker_loop_mem t rg (maxTreeHeight treeSize) jobs [] (seed_gen rg (i * jobs + random_offset (t_nobs t) randomSeed)))
          (seq 0 workers).

(** what a call can do: return or raise, terminate the process (uncaught C++ exception), or anything at all *)
Inductive outcome (X : Type) := Returns (r : res X) | Aborts | Undefined.
Arguments Returns {X}. Arguments Aborts {X}. Arguments Undefined {X}.
Definition in_int (z : Z) : bool := (- 2 ^ 31 <=? z)%Z && (z <? 2 ^ 31)%Z.
(** iforest_module.cpp l.14-65.  [merge] is the order in which the workers push their trees, [out] the output array.
    l.17-20: "iii" (OverflowError outside the range of int; then int -> size_t).  IsolationForest.cpp l.91:
    ceil(log2(0)) cannot be converted to size_t; l.97: reserve of a wrapped negative size throws std::length_error,
    which nothing catches; l.177: division by hardware_concurrency(), which may be 0. *)
Definition ext_iforest (workers : nat) (merge : list (list (tree A)) -> list (tree A)) (rg : rng) (t : table)
    (out : list num) (forest_size tree_size random_seed : Z) : outcome (list num) :=
  if negb (in_int forest_size && in_int tree_size && in_int random_seed) then Returns (Err OverflowError)
  else if (tree_size =? 0)%Z then Undefined
  else if (forest_size <? 0)%Z then Aborts
  else if Nat.eqb workers 0 then Undefined
  else
    let treeSize := size_t_of_int tree_size in
    let forestSize := size_t_of_int forest_size in
    let seed := size_t_of_int random_seed in
    match (ws <~ grow_mem t rg treeSize forestSize seed workers;;
           scores <~ map_run (anomalyScore_mem t treeSize forestSize (merge ws)) (seq 0 (t_nobs t));;
           for_loop (t_nobs t) 0 (fun i out => x <~ load scores i;; store out i x) out) with       (* l.53-56 *)
    | Done out' => Returns (Ok out')
    | UB => Undefined
    end.

(** ** The Python front end *)
(** a column of the DataFrame: a numeric dtype (np.number), dtype object (code points of the str() of its values), or any
    other dtype (bool, datetime, category, string[...]) *)
Inductive column := Numeric (v : list num) | Objects (v : list (list nat)) | OtherDtype.
Record frame (X : Type) := mkFrame { index : list X; columns : list (string * column) }.
Arguments mkFrame {X}. Arguments index {X}. Arguments columns {X}.
(** data.drop(columns=exclude_cols), l.31 *)
Definition drop_columns (excl : list string) (cols : list (string * column)) : res (list (string * column)) :=
  if forallb (fun e => existsb (fun c => String.eqb (fst c) e) cols) excl
  then Ok (filter (fun c => negb (existsb (String.eqb (fst c)) excl)) cols) else Err KeyError.
(** select_dtypes(include=[object]) and select_dtypes(include=[np.number]), l.34-36 *)
Definition object_columns (cols : list (string * column)) : list (list (list nat)) :=
  flat_map (fun c => match snd c with Objects v => [v] | _ => [] end) cols.
Definition numeric_columns (cols : list (string * column)) : list (list num) :=
  flat_map (fun c => match snd c with Numeric v => [v] | _ => [] end) cols.
(** l.34-38 and PyArray_FROM_OTF (iforest_module.cpp l.22-27): row-major copies of the transposes *)
Definition table_of (n_obs : nat) (nums : list (list num)) (objs : list (list (list nat))) : table :=
  let w := numpy_width (concat objs) in
  mkTable (concat nums) (char_cells w (concat objs)) w (List.length nums) (List.length objs) n_obs.
(** anomaly_scores, l.9-46; [junk] is the content of np.empty.  to_numpy(dtype=np.string_) raises UnicodeEncodeError,
    a ValueError, for a character outside ASCII *)
Definition anomaly_scores {X} (workers : nat) merge (rg : table -> Z -> rng) (junk : nat -> num) (data : frame X)
    (forest_size tree_size : Z) (exclude_cols : option (list string)) (random_seed : Z) (name : string) : outcome (frame X) :=
  let excl := match exclude_cols with None => [] | Some e => e end in
  match drop_columns excl (columns data) with
  | Err e => Returns (Err e)
  | Ok cols =>
    let objs := object_columns cols in
    if negb (forallb (forallb (forallb (fun c => c <? 128)%nat)) objs) then Returns (Err ValueError)
    else
      let n_obs := List.length (index data) in
      let t := table_of n_obs (numeric_columns cols) objs in
      match ext_iforest workers merge (rg t tree_size) t (map junk (seq 0 n_obs)) forest_size tree_size random_seed with
      | Returns (Ok scores) => Returns (Ok (mkFrame (index data) [(name, Numeric scores)]))
      | Returns (Err e) => Returns (Err e)
      | Aborts => Aborts
      | Undefined => Undefined
      end
  end.
End Mem.
Arguments Returns {X}. Arguments Aborts {X}. Arguments Undefined {X}.
Arguments mkFrame {A X}. Arguments index {A X}. Arguments columns {A X}.
Arguments Numeric {A}. Arguments Objects {A}. Arguments OtherDtype {A}.
