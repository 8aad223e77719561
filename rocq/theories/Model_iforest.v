(** * Model of the isolation forest: src/frds/algorithms/isolation_forest/IsolationForest.cpp
      (and IsolationForest.hpp, iforest_module.cpp, __init__.py).

    Random numbers: std::mt19937_64 is an abstract state [gen]; the distributions and std::sample
    are arbitrary functions on it (oracles), so the theorems hold for every generator.
    Strings are NUL-terminated byte strings (a simplification: a numpy 'S' item that fills its whole
    width has no terminating NUL, and strlen then reads on into the next item).
    size_t arithmetic is unbounded.  A node stores either a numeric or a string split value; the code
    stores both and tells them apart by splitAttribute < n_num_attrs, which for grown trees is the same. *)
From Coq Require Import ZArith String List Bool Arith.
From Verif Require Import Arith.
Import ListNotations.
Local Open Scope num_scope.

Section IForest.
Context (A : Arith).
Notation num := (num A).

(** constructor arguments l.83-102: n_num_attrs numeric rows, n_char_attrs string rows, nObs columns *)
Record dataset := mkData {
  n_num : nat; n_char : nat; n_obs : nat;
  num_val : nat -> nat -> num;        (* attribute, observation *)
  char_val : nat -> nat -> list nat   (* bytes before the terminating NUL *)
}.

(** the random engine and the operations applied to it *)
Record rng := mkRng {
  gen : Type;
  seed_gen : nat -> gen;                          (* std::mt19937_64(seed), l.164 *)
  draw_attr : gen -> nat * gen;                   (* this->uniformDist(randomGen), l.21 *)
  draw_index : nat -> gen -> nat * gen;           (* uniform_int_distribution(0, n-1), l.26-32 *)
  draw_sample : gen -> list nat * gen             (* std::sample(obs, treeSize), l.165-166 *)
}.

(** ** Tree nodes, IsolationForest.hpp l.19-37 *)
Inductive split := SplitNum (v : num) | SplitStr (s : list nat).
Inductive tree :=
  | Leaf (n : nat)
  | Node (attr : nat) (sp : split) (n : nat) (l r : tree).
Definition tree_count (t : tree) : nat := match t with Leaf n => n | Node _ _ n _ _ => n end.

(** strlen then strcmp, l.60-73 and l.134-144 *)
Fixpoint strcmp_lt (a b : list nat) : bool :=
  match a, b with
  | _, [] => false
  | [], _ => true
  | x :: a', y :: b' => if (x <? y)%nat then true else if (y <? x)%nat then false else strcmp_lt a' b'
  end.
Definition str_lt (a b : list nat) : bool :=
  if (length a <? length b)%nat then true else if (length b <? length a)%nat then false else strcmp_lt a b.

(** direction taken while growing, l.33-51 (numeric) and l.61-74 (string): true = left *)
Definition grow_left (d : dataset) (attr : nat) (sp : split) (ob : nat) : bool :=
  match sp with
  | SplitNum v =>
      let x := num_val d attr ob in
      if isnan v then isnan x else isnan x || (x <? v)
  | SplitStr s => str_lt (char_val d (attr - n_num d) ob) s
  end.
(** split value taken from the drawn observation, l.31-32 and l.58-59 *)
Definition split_of (d : dataset) (attr ob : nat) : split :=
  if (attr <? n_num d)%nat then SplitNum (num_val d attr ob) else SplitStr (char_val d (attr - n_num d) ob).

(** ** growTree, l.12-81. [fuel] = maxTreeHeight - height. The engine is passed BY VALUE, so both
    recursive calls (l.79, l.80) start from a copy of the same state. *)
Fixpoint growTree (d : dataset) (rg : rng) (fuel : nat) (sample : list nat) (g : gen rg) : tree :=
  match fuel with
  | O => Leaf (length sample)
  | S fuel' =>
    if (length sample <=? 1)%nat then Leaf (length sample)
    else
      let (attr, g1) := draw_attr rg g in
      let (ix, g2) := draw_index rg (length sample) g1 in
      let sp := split_of d attr (nth ix sample 0) in
      let lobs := filter (grow_left d attr sp) sample in
      let robs := filter (fun o => negb (grow_left d attr sp o)) sample in
      Node attr sp (length sample) (growTree d rg fuel' lobs g2) (growTree d rg fuel' robs g2)
  end.

(** ** pathLength, l.116-146 *)
Definition euler_gamma : num := lit 57721566490153286 (10^17).
Definition averagePathLength (n : nat) : num :=                      (* l.104-107 *)
  let n' := ofZ (Z.of_nat n) in
  ofZ 2 ⊗ (nlog (n' ⊖ ofZ 1) ⊕ euler_gamma) ⊖ (ofZ 2 ⊗ (n' ⊖ ofZ 1) ⊘ n').
(** direction taken while scoring: true = left *)
Definition score_left (d : dataset) (attr : nat) (sp : split) (ob : nat) : bool :=
  match sp with
  | SplitNum v => num_val d attr ob <? v
  | SplitStr s => str_lt (char_val d (attr - n_num d) ob) s
  end.
Fixpoint pathLength (d : dataset) (ob : nat) (t : tree) (len : nat) : num :=
  match t with
  | Leaf n => if (n <=? 1)%nat then ofZ (Z.of_nat len) else ofZ (Z.of_nat len) ⊕ averagePathLength n
  | Node attr sp _ l r => if score_left d attr sp ob then pathLength d ob l (S len) else pathLength d ob r (S len)
  end.
(** ** anomalyScore, l.109-114 *)
Definition anomalyScore (d : dataset) (treeSize forestSize : nat) (trees : list tree) (ob : nat) : num :=
  let total := fold_left (fun avg t => avg ⊕ pathLength d ob t 0) trees (ofZ 0) in
  let avg := total ⊘ ofZ (Z.of_nat forestSize) in
  npow (ofZ 2) (nopp avg ⊘ averagePathLength treeSize).

(** ** the growing threads, l.148-195 *)
Definition maxTreeHeight (treeSize : nat) : nat := Nat.log2_up treeSize.     (* ceil(log2(treeSize)), l.91 *)
Definition random_offset (nObs randomSeed : nat) : nat :=                    (* l.156-158, size_t *)
  Nat.modulo nObs (if (0 <? randomSeed)%nat then randomSeed else 1 - randomSeed).
(** iforest_module.cpp l.17-20: the Python int is parsed as a C int, and converted to size_t by the
    constructor's parameter (l.87): negative seeds wrap around *)
Definition size_t_of_int (z : Z) : nat := Z.to_nat (z mod 2 ^ 64)%Z.
(** loop l.159-172: [sample] is declared outside the loop and only appended to *)
Fixpoint worker_loop (d : dataset) (rg : rng) (height : nat) (jobs : nat) (sample : list nat) (g : gen rg) : list tree :=
  match jobs with
  | O => []
  | S jobs' =>
    let (drawn, g') := draw_sample rg g in
    let sample' := sample ++ drawn in
    growTree d rg height sample' g' :: worker_loop d rg height jobs' sample' g'
  end.
(** thread [thread_id]: its engine is thread_local static, seeded once by its first index, l.159, l.164 *)
Definition worker_trees (d : dataset) (rg : rng) (treeSize randomSeed thread_id jobs : nat) : list tree :=
  worker_loop d rg (maxTreeHeight treeSize) jobs []
    (seed_gen rg (thread_id * jobs + random_offset (n_obs d) randomSeed)).
Definition jobs_of (forestSize workers i : nat) : nat :=                      (* l.177, l.184-186 *)
  let per := Nat.div forestSize workers in
  if Nat.eqb i 0 then forestSize - per * (workers - 1) else per.
Definition indices_of (forestSize workers i : nat) : list nat :=              (* l.159 *)
  let jobs := jobs_of forestSize workers i in seq (i * jobs) jobs.
Definition all_workers_trees (d : dataset) (rg : rng) (treeSize forestSize randomSeed workers : nat) : list (list tree) :=
  map (fun i => worker_trees d rg treeSize randomSeed i (jobs_of forestSize workers i)) (seq 0 workers).

(** ** the scoring threads, l.197-231: (first observation, count) per worker *)
Definition score_range (nObs workers i : nat) : nat * nat :=
  let per := Nat.div nObs workers in
  if (i <? workers - 1)%nat then (i * per, per)
  else let remain := nObs - per * i in (nObs - remain, remain).
Definition score_actions (f : nat -> num) (nObs workers : nat) : list (list (nat * num)) :=
  map (fun i => let (start, n) := score_range nObs workers i in map (fun o => (o, f o)) (seq start n)) (seq 0 workers).
(** anomalyScores[i] = ... *)
Fixpoint update {X} (l : list X) (i : nat) (x : X) : list X :=
  match l, i with
  | [], _ => []
  | _ :: l', O => x :: l'
  | y :: l', S i' => y :: update l' i' x
  end.
Definition run_writes (l : list num) (ws : list (nat * num)) : list num :=
  fold_left (fun l w => update l (fst w) (snd w)) ws l.
End IForest.
Arguments Leaf {A}. Arguments Node {A}. Arguments SplitNum {A}. Arguments SplitStr {A}.
Arguments tree_count {A}.

(** ** Thread schedules: the atomic actions of the workers are merged in any order that keeps each
    worker's own order. *)
Inductive interleaving {X} : list (list X) -> list X -> Prop :=
  | il_done : forall ws, (forall w, In w ws -> w = []) -> interleaving ws []
  | il_step : forall before x w after out,
      interleaving (before ++ w :: after) out -> interleaving (before ++ (x :: w) :: after) (x :: out).
