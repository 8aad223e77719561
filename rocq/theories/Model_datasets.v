(** * Model of src/frds/datasets/_stocks.py *)
From Coq Require Import List Bool Arith.
From Verif Require Import Arith.
Import ListNotations.

Section Stocks.
(** a reference to a pandas DataFrame: DataFrames are mutable, identity matters *)
Context (table : Type).
(** SingletonMeta._instances, l.9 and the attribute _stocks_us of the single instance, l.21;
    [file_reads] counts the executions of pd.read_csv (l.40) *)
Record world := mkWorld {
  instance : option nat;           (* address of the registered _StockReturns object *)
  next_address : nat;
  cached : option table;           (* self._stocks_us *)
  file_reads : nat
}.
(** SingletonMeta.__call__, l.11-15 *)
Definition construct (w : world) : world * nat :=
  match instance w with
  | Some a => (w, a)
  | None => (mkWorld (Some (next_address w)) (S (next_address w)) None (file_reads w), next_address w)
  end.
(** property stocks_us, l.23-41; [file] is what pd.read_csv would do at this moment *)
Definition stocks_us (w : world) (file : res table) : world * res table :=
  match cached w with
  | Some t => (w, Ok t)
  | None =>
      let w' := mkWorld (instance w) (next_address w) (cached w) (S (file_reads w)) in
      match file with
      | Ok t => (mkWorld (instance w') (next_address w') (Some t) (file_reads w'), Ok t)
      | Err e => (w', Err e)
      end
  end.
(** module execution, l.44 : StockReturns = _StockReturns() *)
Definition import_module : world := fst (construct (mkWorld None 0 None 0)).

(** what a client can do: build another "instance", or access the property through any instance *)
Inductive op := Construct | Access (file : res table).
Inductive obs := Built (address : nat) | Got (r : res table).
Definition step (w : world) (o : op) : world * obs :=
  match o with
  | Construct => let (w', a) := construct w in (w', Built a)
  | Access f => let (w', r) := stocks_us w f in (w', Got r)
  end.
Fixpoint run (w : world) (ops : list op) : world * list obs :=
  match ops with
  | [] => (w, [])
  | o :: ops' => let (w1, x) := step w o in let (w2, xs) := run w1 ops' in (w2, x :: xs)
  end.
End Stocks.
Arguments mkWorld {table}. Arguments Construct {table}. Arguments Access {table}. Arguments Built {table}. Arguments Got {table}.
Arguments instance {table}. Arguments cached {table}. Arguments file_reads {table}.
