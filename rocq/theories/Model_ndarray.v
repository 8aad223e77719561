(** * numpy arrays: shapes and contents

    The array operations that mod_merton_computation.py and mod_single_cohort_computation.py use, with numpy's rules for
    shapes (reshape, tile, repeat, dstack, concatenate, slicing, broadcasting) and its exceptions.
    An array is its shape and its content as a function of the multi-index; values outside the shape are never used.
    Not modelled: dtypes, strides and views.  The code assigns through masks only to arrays that no other live name refers
    to ([face2 = F2], mod_merton_computation.py l.183-185: F2 is not used afterwards), so that arrays are values. *)
From Coq Require Import ZArith List Bool Arith.
From Verif Require Import Arith Model_option Model_merton.
Import ListNotations.

Record nd (X : Type) := mkNd { shape : list nat; get : list nat -> X }.
Arguments mkNd {X}. Arguments shape {X}. Arguments get {X}.
Definition size (s : list nat) : nat := fold_right Nat.mul 1 s.
Fixpoint ravel (s idx : list nat) : nat := match s, idx with _ :: s', i :: idx' => i * size s' + ravel s' idx' | _, _ => 0 end.
Fixpoint unravel (s : list nat) (k : nat) : list nat := match s with [] => [] | _ :: s' => k / size s' :: unravel s' (k mod size s') end.
(** a.reshape(s), and with order="F" (the first index runs fastest) *)
Definition reshape {X} (a : nd X) (s : list nat) : res (nd X) :=
  check (size s =? size (shape a)) ValueError (Ok (mkNd s (fun idx => get a (unravel (shape a) (ravel s idx))))).
Definition reshapeF {X} (a : nd X) (s : list nat) : res (nd X) :=
  check (size s =? size (shape a)) ValueError (Ok (mkNd s (fun idx => get a (rev (unravel (rev (shape a)) (ravel (rev s) (rev idx))))))).
(** np.tile: missing leading dimensions are 1 *)
Definition pad_left (n : nat) (s : list nat) : list nat := repeat 1 (n - length s) ++ s.
Definition tile {X} (a : nd X) (reps : list nat) : nd X :=
  let n := Nat.max (length (shape a)) (length reps) in
  let s := pad_left n (shape a) in
  mkNd (map2 Nat.mul s (pad_left n reps)) (fun idx => get a (skipn (n - length (shape a)) (map2 Nat.modulo idx s))).
(** broadcasting, from the last dimension backwards *)
Fixpoint broadcast_rev (s1 s2 : list nat) : res (list nat) :=
  match s1, s2 with
  | [], s | s, [] => Ok s
  | a :: s1', b :: s2' =>
    do r <- broadcast_rev s1' s2';
    if a =? b then Ok (a :: r) else if a =? 1 then Ok (b :: r) else if b =? 1 then Ok (a :: r) else Err ValueError
  end.
Definition bget {X} (a : nd X) (idx : list nat) : X :=
  get a (map2 (fun d i => if d =? 1 then 0 else i) (shape a) (skipn (length idx - length (shape a)) idx)).
Definition zip {X Y Z} (f : X -> Y -> Z) (a : nd X) (b : nd Y) : res (nd Z) :=
  do s <- broadcast_rev (rev (shape a)) (rev (shape b));
  Ok (mkNd (rev s) (fun idx => f (bget a idx) (bget b idx))).
(** element by element, and against a scalar *)
Definition amap {X Y} (f : X -> Y) (a : nd X) : nd Y := mkNd (shape a) (fun idx => f (get a idx)).
Definition full {X} (s : list nat) (v : X) : nd X := mkNd s (fun _ => v).
(** a[mask] = v with a mask of the same shape (IndexError otherwise) *)
Definition mask_set {X} (a : nd X) (mask : nd bool) (v : X) : res (nd X) :=
  check (if list_eq_dec Nat.eq_dec (shape mask) (shape a) then true else false) IndexError
    (Ok (mkNd (shape a) (fun idx => if get mask idx then v else get a idx))).
(** np.concatenate((a, b), axis=ax): the other dimensions must agree *)
Definition concat2 {X} (ax : nat) (a b : nd X) : res (nd X) :=
  let n := nth ax (shape a) 0 in
  check ((length (shape a) =? length (shape b)) && (if list_eq_dec Nat.eq_dec (set_nth (shape a) ax 0) (set_nth (shape b) ax 0) then true else false)) ValueError
    (Ok (mkNd (set_nth (shape a) ax (n + nth ax (shape b) 0))
          (fun idx => let i := nth ax idx 0 in if i <? n then get a idx else get b (set_nth idx ax (i - n))))).
Definition concat3 {X} (ax : nat) (a b c : nd X) : res (nd X) := do ab <- concat2 ax a b; concat2 ax ab c.
(** np.dstack((a,) * n) for a matrix a; no arrays is a ValueError *)
Definition dstack {X} (a : nd X) (n : nat) : res (nd X) :=
  check (negb (n =? 0)) ValueError (Ok (mkNd (shape a ++ [n]) (fun idx => get a (firstn 2 idx)))).
(** np.repeat(a, n, axis=1) *)
Definition repeat1 {X} (a : nd X) (n : nat) : nd X :=
  mkNd (set_nth (shape a) 1 (nth 1 (shape a) 0 * n)) (fun idx => get a (set_nth idx 1 (nth 1 idx 0 / n))).
(** a[:, lo:hi] of a matrix (bounds are clipped), a[:, j] (Python index), a[:, j, :] *)
Definition columns {X} (a : nd X) (lo hi : nat) : nd X :=
  let n := nth 1 (shape a) 0 in
  mkNd [nth 0 (shape a) 0; Nat.min hi n - Nat.min lo n] (fun idx => get a [nth 0 idx 0; lo + nth 1 idx 0]).
Definition column {X} (a : nd X) (j : Z) : res (nd X) :=
  let n := Z.of_nat (nth 1 (shape a) 0) in
  let q := if (j <? 0)%Z then (j + n)%Z else j in
  check ((0 <=? q)%Z && (q <? n)%Z) IndexError (Ok (mkNd [nth 0 (shape a) 0] (fun idx => get a [nth 0 idx 0; Z.to_nat q]))).
Definition plane {X} (a : nd X) (j : nat) : nd X := mkNd [nth 0 (shape a) 0; nth 2 (shape a) 0] (fun idx => get a [nth 0 idx 0; j; nth 1 idx 0]).
(** a.flatten() of an (n,1) matrix or an (n,) vector, as a list *)
Definition flat {X} (a : nd X) : list X := map (fun q => get a (unravel (shape a) q)) (seq 0 (size (shape a))).
Definition vec {X} (d : X) (l : list X) : nd X := mkNd [length l] (fun idx => nth (nth 0 idx 0) l d).
