(** * Model of src/frds/measures/modified_merton/matlab/matrix2latex_Stefan.m
    Numbers are an abstract type: [show] is num2str(x), [fmt f] is num2str(x, f), [blank] is x == -9999,
    [numeric_labels] is cellstr(num2str(v(:))).  Cell arrays hold strings.  The text of error messages and the
    warning of l.105 are not modelled; 'wt' is taken to write the characters it is given. *)
From Coq Require Import Ascii String DecimalString Decimal.
From Coq Require Import ZArith List Bool Arith.
Import ListNotations.
Local Open Scope string_scope.
Local Open Scope nat_scope.

Section Latex.
Context (num : Type) (show : num -> string) (fmt : string -> num -> string) (blank : num -> bool) (numeric_labels : list num -> list string).

(** the values an argument can have *)
Inductive mval :=
| MCells (l : list string)       (* a cell array of strings *)
| MNums (l : list num)           (* a numeric vector *)
| MInts (l : list Z)             (* a numeric vector of whole numbers, as 'topwidth' *)
| MStr (s : string)              (* a character row vector *)
| MChars (m : list string).      (* a character matrix, one string per row *)
Inductive matrix := Numeric (rows : list (list num)) | Cells (rows : list (list string)).

(** A run either fails or returns; the file is [None] as long as it has not been opened (l.126), else what was written. *)
Definition file := option string.
Definition M (X : Type) := file -> option X * file.
Definition ret {X} (x : X) : M X := fun s => (Some x, s).
Definition fail {X} : M X := fun s => (None, s).
Definition bindM {X Y} (m : M X) (k : X -> M Y) : M Y := fun s => match m s with (Some x, s') => k x s' | (None, s') => (None, s') end.
Definition open_file : M unit := fun _ => (Some tt, Some "").
Definition put (t : string) : M unit := fun s => (Some tt, match s with Some w => Some (w ++ t) | None => None end).
Notation "x <- m ;; k" := (bindM m (fun x => k)) (at level 61, m at next level, right associativity).
Notation "m ;;; k" := (bindM m (fun _ => k)) (at level 61, right associativity).
Fixpoint each {X} (l : list X) (f : X -> M unit) : M unit :=
  match l with [] => ret tt | x :: l' => f x ;;; each l' f end.
Definition when (b : bool) (m : M unit) : M unit := if b then m else ret tt.

(** MATLAB indexing from 1; an index of 0 or past the end is an error *)
Definition at1 {X} (l : list X) (i : nat) : M X :=
  match i with O => fail | S j => match nth_error l j with Some x => ret x | None => fail end end.
Definition char1 (s : string) (i : nat) : M ascii :=
  match i with O => fail | S j => match String.get j s with Some c => ret c | None => fail end end.
Definition int2str (n : nat) : string := NilEmpty.string_of_uint (Nat.to_uint n).
(** lower() on ASCII letters *)
Definition lower_char (c : ascii) : ascii := let n := nat_of_ascii c in if (65 <=? n) && (n <=? 90) then ascii_of_nat (n + 32) else c.
Fixpoint lower (s : string) : string := match s with EmptyString => EmptyString | String c s' => String (lower_char c) (lower s') end.
Definition CRLF : string := String (ascii_of_nat 13) (String (ascii_of_nat 10) EmptyString).

(** l.69-70 *)
Definition okargs : list string := ["rowlabels"; "columnlabels"; "alignment"; "format"; "size"; "specform"; "topwidth"; "topcollabels"; "topcollines"].
(** strmatch(p, okargs): the positions (from 1) of the entries that begin with p, l.75 *)
Definition strmatch (p : string) : list nat := map fst (filter (fun q => prefix p (snd q)) (combine (seq 1 (length okargs)) okargs)).

(** l.55-63 *)
Record options := mkOptions { rowLabels : option mval; colLabels : option mval; alignment : ascii; format : string; textsize : string;
  specform : option (list string); topwidth : list Z; topcolLabels : option mval; topcolLines : string }.
Definition defaults : options := mkOptions None None "l"%char "" "" None [] None "".

(** labels: numeric ones are converted, l.83-91, 116-119 *)
Definition label_value (v : mval) : mval := match v with MNums l => MCells (numeric_labels l) | v => v end.
(** alignment == 'right': an error unless the lengths agree or one of the two has length 1; then true if all characters agree, l.94-102 *)
Definition char_eq (s word : string) : option bool :=
  if String.length s =? String.length word then Some (String.eqb s word)
  else if String.length s =? 1 then Some false else None.
Definition align_value (v : mval) : M ascii :=
  match v with
  | MStr s =>
      let replace (s word new : string) : M string := match char_eq s word with None => fail | Some b => ret (if b then new else s) end in
      s <- replace (lower s) "right" "r";; s <- replace s "left" "l";; s <- replace s "center" "c";;
      match s with
      | String c EmptyString => ret (if Ascii.eqb c "l" || Ascii.eqb c "c" || Ascii.eqb c "r" then c else "l"%char)   (* l.103-106 *)
      | _ => fail          (* not reached: the comparisons leave one character *)
      end
  | _ => fail
  end.
(** one (name, value) pair, l.72-124.  A value of an unsuitable type is an error here (MATLAB reports it at the first use). *)
Definition set_option (o : options) (name : string) (v : mval) : M options :=
  let 'mkOptions rl cl al fo ts sf tw tl tn := o in
  match strmatch (lower name) with
  | [] => fail                                     (* unknown *)
  | [1] => ret (mkOptions (Some (label_value v)) cl al fo ts sf tw tl tn)
  | [2] => ret (mkOptions rl (Some (label_value v)) al fo ts sf tw tl tn)
  | [3] => a <- align_value v;; ret (mkOptions rl cl a fo ts sf tw tl tn)
  | [4] => match v with MStr s => ret (mkOptions rl cl al (lower s) ts sf tw tl tn) | _ => fail end
  | [5] => match v with MStr s => ret (mkOptions rl cl al fo s sf tw tl tn) | _ => fail end
  | [6] => match v with MChars m => ret (mkOptions rl cl al fo ts (Some m) tw tl tn) | MStr s => ret (mkOptions rl cl al fo ts (Some [s]) tw tl tn) | _ => fail end
  | [7] => match v with MInts l => ret (mkOptions rl cl al fo ts sf l tl tn) | _ => fail end
  | [8] => ret (mkOptions rl cl al fo ts sf tw (Some (label_value v)) tn)
  | [9] => match v with MStr s => ret (mkOptions rl cl al fo ts sf tw tl s) | _ => fail end
  | _ => fail                                      (* ambiguous *)
  end.
Fixpoint set_options (o : options) (args : list (string * mval)) : M options :=
  match args with [] => ret o | (n, v) :: args' => o' <- set_option o n v;; set_options o' args' end.

(** ~isempty(labels) *)
Definition nonempty (v : option mval) : bool :=
  match v with
  | None | Some (MCells []) | Some (MNums []) | Some (MInts []) | Some (MStr "") | Some (MChars []) => false
  | _ => true
  end.
(** labels{i}: an error unless a cell array *)
Definition label (v : option mval) (i : nat) : M string := match v with Some (MCells l) => at1 l i | _ => fail end.

(** l.128-156: the text of cell (h, w); without 'specform' every position is ' ', l.63 *)
Definition spec_at (o : options) (h w : nat) : M ascii :=
  match specform o with None => ret " "%char | Some m => row <- at1 m h;; char1 row w end.
Definition cell_text (o : options) (h w : nat) (x : num) : M string :=
  if blank x then ret " "
  else
    c <- spec_at o h w;;
    let t := if String.eqb (format o) "" then show x else fmt (format o) x in
    ret (if Ascii.eqb c "p" then "(" ++ t ++ ")" else if Ascii.eqb c "b" then "[" ++ t ++ "]" else t).
Fixpoint text_row (o : options) (h w : nat) (row : list num) : M (list string) :=
  match row with [] => ret [] | x :: row' => t <- cell_text o h w x;; ts <- text_row o h (S w) row';; ret (t :: ts) end.
Fixpoint text_rows (o : options) (h : nat) (rows : list (list num)) : M (list (list string)) :=
  match rows with [] => ret [] | row :: rows' => t <- text_row o h 1 row;; ts <- text_rows o (S h) rows';; ret (t :: ts) end.
Definition text_matrix (o : options) (m : matrix) : M (list (list string)) :=
  match m with Cells rows => ret rows | Numeric rows => text_rows o 1 rows end.

(** the additional header line, l.174-204: [count] and [subcount] run along the columns tw, tw+1, ..., width *)
Fixpoint top_labels (o : options) (width tw n count subcount : nat) : M unit :=
  match n with
  | O => ret tt
  | S n' =>
      k <- at1 (topwidth o) count;;
      (if (k =? 1)%Z then
        l <- label (topcolLabels o) count;;
        put (if tw =? width then l ++ " " else l ++ "& ") ;;; top_labels o width (S tw) n' (S count) subcount
      else if (Z.of_nat subcount =? k)%Z then
        put ("\multicolumn{" ++ int2str subcount ++ "}{c}") ;;;
        l <- label (topcolLabels o) count;;
        put (if tw =? width then "{" ++ l ++ "} " else "{" ++ l ++ "} & ") ;;; top_labels o width (S tw) n' (S count) 1
      else top_labels o width (S tw) n' count (S subcount))
  end.
(** the lines under it, l.205-236 *)
Fixpoint top_lines (o : options) (shift tw n count subcount : nat) : M unit :=
  match n with
  | O => ret tt
  | S n' =>
      k <- at1 (topwidth o) count;;
      (if (k =? 1)%Z then
        c <- char1 (topcolLines o) count;;
        when (Ascii.eqb c "_") (put ("\cline{" ++ int2str (tw + shift) ++ "-" ++ int2str (tw + shift) ++ "}")) ;;; top_lines o shift (S tw) n' (S count) subcount
      else if (Z.of_nat subcount =? k)%Z then
        c <- char1 (topcolLines o) count;;
        when (Ascii.eqb c "_") (put ("\cline{" ++ int2str (tw - subcount + 1 + shift) ++ "-" ++ int2str (tw + shift) ++ "}")) ;;; top_lines o shift (S tw) n' (S count) 1
      else top_lines o shift (S tw) n' count (S subcount))
  end.

(** l.240-248 *)
Definition column_header (o : options) (width : nat) : M unit :=
  when (nonempty (rowLabels o)) (put "& ") ;;;
  each (seq 1 (width - 1)) (fun w => l <- label (colLabels o) w;; put (l ++ " &")) ;;;
  l <- label (colLabels o) width;; put (l ++ "\\\hline" ++ CRLF).
(** l.250-258 *)
Definition body_row (o : options) (width h : nat) (row : list string) : M unit :=
  when (nonempty (rowLabels o)) (l <- label (rowLabels o) h;; put (l ++ " &")) ;;;
  each (seq 1 (width - 1)) (fun w => t <- at1 row w;; put (t ++ " &")) ;;;
  t <- at1 row width;; put (t ++ "\\" ++ CRLF).
Fixpoint repeat_char (c : ascii) (n : nat) : string := match n with O => EmptyString | S n' => String c (repeat_char c n') end.

(** the whole function; size(matrix), l.53, is taken from the rows.  An odd argument list, l.65, cannot be expressed. *)
Definition m_size (m : matrix) : nat * nat :=
  match m with
  | Numeric rows => (length rows, length (hd [] rows))
  | Cells rows => (length rows, length (hd [] rows))
  end.
Definition matrix2latex (m : matrix) (args : list (string * mval)) : M unit :=
  let '(height, width) := m_size m in
  o <- set_options defaults args;;
  open_file ;;;
  body <- text_matrix o m;;
  when (negb (String.eqb (textsize o) "")) (put ("\begin{" ++ textsize o ++ "}")) ;;;
  put "\begin{tabular}{" ;;;
  when (nonempty (rowLabels o)) (put "l") ;;;
  put (repeat_char (alignment o) width) ;;;
  put ("}" ++ CRLF) ;;;
  put ("\hline\hline" ++ CRLF) ;;;
  when (nonempty (topcolLabels o))
    (when (nonempty (rowLabels o)) (put "& ") ;;;
     top_labels o width 1 width 1 1 ;;; put "\\ " ;;;
     top_lines o (if nonempty (rowLabels o) then 1 else 0) 1 width 1 1 ;;; put CRLF) ;;;
  when (nonempty (colLabels o)) (column_header o width) ;;;
  each (combine (seq 1 height) body) (fun p => body_row o width (fst p) (snd p)) ;;;
  put ("\hline\hline" ++ CRLF) ;;;
  put ("\end{tabular}" ++ CRLF) ;;;
  when (negb (String.eqb (textsize o) "")) (put ("\end{" ++ textsize o ++ "}")).
End Latex.
