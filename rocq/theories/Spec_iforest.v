(** * Specification vocabulary for isolation trees *)
From Coq Require Import List Arith Permutation.
From Verif Require Import Arith Model_iforest.
Import ListNotations.

Section S.
Context {A : Arith}.
Fixpoint leaf_total (t : tree A) : nat :=
  match t with Leaf n => n | Node _ _ _ l r => leaf_total l + leaf_total r end.
Fixpoint height (t : tree A) : nat :=
  match t with Leaf _ => 0 | Node _ _ _ l r => S (Nat.max (height l) (height r)) end.
(** every internal node's count is the sum of its children's counts and is at least two *)
Fixpoint counts_add_up (t : tree A) : Prop :=
  match t with
  | Leaf _ => True
  | Node _ _ n l r => n = tree_count l + tree_count r /\ 2 <= n /\ counts_add_up l /\ counts_add_up r
  end.
(** leaves holding more than one observation occur only at depth [h] *)
Fixpoint big_leaves_at (h : nat) (t : tree A) : Prop :=
  match t with
  | Leaf n => n <= 1 \/ h = 0
  | Node _ _ _ l r => match h with 0 => False | S h' => big_leaves_at h' l /\ big_leaves_at h' r end
  end.
Fixpoint right_nonempty (t : tree A) : Prop :=
  match t with
  | Leaf _ => True
  | Node _ _ _ l r => 1 <= tree_count r /\ right_nonempty l /\ right_nonempty r
  end.
(** both children of a node, when they are themselves internal nodes, split on the same attribute *)
Definition root_attr (t : tree A) : option nat := match t with Leaf _ => None | Node a _ _ _ _ => Some a end.
Fixpoint siblings_same_attr (t : tree A) : Prop :=
  match t with
  | Leaf _ => True
  | Node _ _ _ l r =>
      (forall a b, root_attr l = Some a -> root_attr r = Some b -> a = b) /\
      siblings_same_attr l /\ siblings_same_attr r
  end.
(** [t] is a correct partition tree of the observations [obs]: each split uses the value of one of the
    observations in the node, and the observations are divided by the growing rule. *)
Inductive partitions (d : dataset A) : tree A -> list nat -> Prop :=
  | p_leaf : forall obs, partitions d (Leaf (length obs)) obs
  | p_node : forall attr l r obs lo ro pivot,
      2 <= length obs -> In pivot obs ->
      Permutation obs (lo ++ ro) ->
      (forall o, In o lo -> grow_left A d attr (split_of A d attr pivot) o = true) ->
      (forall o, In o ro -> grow_left A d attr (split_of A d attr pivot) o = false) ->
      partitions d l lo -> partitions d r ro ->
      partitions d (Node attr (split_of A d attr pivot) (length obs) l r) obs.
(** the path (true = left) an observation follows when it is scored *)
Fixpoint score_path (d : dataset A) (t : tree A) (ob : nat) : list bool :=
  match t with
  | Leaf _ => []
  | Node attr sp _ l r => let b := score_left A d attr sp ob in b :: score_path d (if b then l else r) ob
  end.
(** size of the leaf at the end of a path *)
Fixpoint leaf_at (t : tree A) (p : list bool) : option nat :=
  match t, p with
  | Leaf n, [] => Some n
  | Node _ _ _ l r, b :: p' => leaf_at (if b then l else r) p'
  | _, _ => None
  end.
Definition path_eqb (p q : list bool) : bool := if list_eq_dec Bool.bool_dec p q then true else false.
End S.
