(** * Model of src/frds/datasets/_stocks.py under several Python threads

    Model_datasets.v runs every access to the end before the next one starts. Here each access and each construction
    is a thread of its own and the interpreter may switch threads between any two of the steps below.
    SIMPLIFICATION: one load or store of an attribute or of a dictionary entry is one step (CPython makes these atomic);
    what pd.read_csv (l.40) returns is decided at the step that reads the file, and is an argument of that step. *)
From Coq Require Import List Bool Arith.
From Verif Require Import Arith.
Import ListNotations.

Section Threads.
Context (table : Type).
(** where a thread stands inside the property stocks_us (l.23-41) or inside SingletonMeta.__call__ (l.11-15) *)
Inductive place :=
  | AtCheck                             (* before "if self._stocks_us is None", l.39 *)
  | AtRead                              (* before pd.read_csv, l.40 *)
  | AtStore (t : table)                 (* before the assignment of l.40 *)
  | AtReturn                            (* before "return self._stocks_us", l.41 *)
  | Returned (r : option table)         (* the access returned the attribute: a table, or None *)
  | Raised (e : exn)                    (* pd.read_csv raised and the access with it *)
  | AtLookup                            (* before "if cls not in cls._instances", l.12 *)
  | AtCreate                            (* before super().__call__, l.13 *)
  | AtRegister (a : nat)                (* before cls._instances[cls] = instance, l.14 *)
  | AtFetch                             (* before "return cls._instances[cls]", l.15 *)
  | Constructed (a : option nat).       (* the constructor returned *)
(** the shared state: SingletonMeta._instances[_StockReturns] (l.9), the next object address, the attribute
    _stocks_us of the instance (l.21), and how many times the file was read (l.40) *)
Record shared := mkShared { registered : option nat; fresh : nat; attribute : option table; reads : nat }.
(** one step of one thread; [file] is what pd.read_csv would do at this moment *)
Definition thread_step (s : shared) (p : place) (file : res table) : shared * place :=
  match p with
  | AtCheck => (s, match attribute s with None => AtRead | Some _ => AtReturn end)                     (* l.39 *)
  | AtRead => (mkShared (registered s) (fresh s) (attribute s) (S (reads s)),
               match file with Ok t => AtStore t | Err e => Raised e end)                             (* l.40 *)
  | AtStore t => (mkShared (registered s) (fresh s) (Some t) (reads s), AtReturn)                     (* l.40 *)
  | AtReturn => (s, Returned (attribute s))                                                           (* l.41 *)
  | AtLookup => (s, match registered s with None => AtCreate | Some _ => AtFetch end)                 (* l.12 *)
  | AtCreate => (mkShared (registered s) (S (fresh s)) (attribute s) (reads s), AtRegister (fresh s)) (* l.13 *)
  | AtRegister a => (mkShared (Some a) (fresh s) (attribute s) (reads s), AtFetch)                    (* l.14 *)
  | AtFetch => (s, Constructed (registered s))                                                        (* l.15 *)
  | Returned _ | Raised _ | Constructed _ => (s, p)
  end.
(** the threads of the process, and the interpreter's choices: which thread steps, and what the file holds then *)
Definition process := (shared * list place)%type.
Fixpoint set_nth (i : nat) (p : place) (l : list place) : list place :=
  match l, i with
  | [], _ => []
  | _ :: l', 0 => p :: l'
  | q :: l', S i' => q :: set_nth i' p l'
  end.
Definition process_step (s : process) (c : nat * res table) : process :=
  match nth_error (snd s) (fst c) with
  | None => s
  | Some p => let (sh, p') := thread_step (fst s) p (snd c) in (sh, set_nth (fst c) p' (snd s))
  end.
Definition execute (s : process) (schedule : list (nat * res table)) : process := fold_left process_step schedule s.
(** the module has been imported (l.44, under Python's import lock): the one instance is registered, nothing is read.
    Each call a program makes, access or construction, is a thread that starts at its first step. *)
Inductive call := CallAccess | CallConstruct.
Definition start_of (c : call) : place := match c with CallAccess => AtCheck | CallConstruct => AtLookup end.
Definition imported (calls : list call) : process := (mkShared (Some 0) 1 None 0, map start_of calls).
End Threads.
Arguments AtCheck {table}. Arguments AtRead {table}. Arguments AtStore {table}. Arguments AtReturn {table}.
Arguments Returned {table}. Arguments Raised {table}. Arguments AtLookup {table}. Arguments AtCreate {table}.
Arguments AtRegister {table}. Arguments AtFetch {table}. Arguments Constructed {table}.
Arguments mkShared {table}. Arguments registered {table}. Arguments fresh {table}. Arguments attribute {table}. Arguments reads {table}.
Arguments execute {table}. Arguments imported {table}. Arguments process_step {table}. Arguments thread_step {table}. Arguments set_nth {table}.
