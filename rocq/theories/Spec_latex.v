(** * Specification for C127: reading a LaTeX table *)
From Coq Require Import Ascii String DecimalString Decimal.
From Coq Require Import ZArith List Bool Arith.
Import ListNotations.

Definition text := list ascii.
Definition chars (s : string) : text := list_ascii_of_string s.
Definition LF : ascii := ascii_of_nat 10.
Definition CR : ascii := ascii_of_nat 13.
Definition AMP : ascii := "&"%char.
Definition BS : ascii := "\"%char.
Definition SPC : ascii := " "%char.

(** the pieces between the occurrences of a character *)
Fixpoint split (c : ascii) (l : text) : list text :=
  match l with
  | [] => [[]]
  | x :: l' => if Ascii.eqb x c then [] :: split c l' else match split c l' with [] => [[x]] | p :: ps => (x :: p) :: ps end
  end.
(** without the blanks around it *)
Fixpoint drop_blanks (l : text) : text := match l with x :: l' => if Ascii.eqb x SPC then drop_blanks l' else l | [] => [] end.
Definition trim (l : text) : text := rev (drop_blanks (rev (drop_blanks l))).
(** what stands before a given ending, if the text has it *)
Definition without (ending l : text) : option text :=
  if list_eq_dec ascii_dec (skipn (length l - length ending) l) ending then Some (firstn (length l - length ending) l) else None.
(** the cells of a row *)
Definition cells (row : text) : list text := map trim (split AMP row).
Definition keep {X Y} (f : X -> option Y) (l : list X) : list Y := flat_map (fun x => match f x with Some y => [y] | None => [] end) l.
(** the rows of a table: the lines that end in \\ ; its header: the lines that end in \\\hline *)
Definition ROW_END : text := [BS; BS; CR].
Definition HEAD_END : text := [BS; BS] ++ chars "\hline" ++ [CR].
Definition table_rows (f : text) : list (list text) := map cells (keep (without ROW_END) (split LF f)).
Definition table_heads (f : text) : list (list text) := map cells (keep (without HEAD_END) (split LF f)).
(** the letters of the column specification: the first line after its last opening brace, without the closing one *)
Definition column_letters (f : text) : text :=
  match without [("}"%char); CR] (hd [] (split LF f)) with Some l => last (split "{"%char l) [] | None => [] end.
(** a text that can stand in a cell *)
Definition plain (s : string) : Prop := ~ In AMP (chars s) /\ ~ In LF (chars s).

(** ** The additional header line *)
Definition MULTI : text := chars "\multicolumn{".
Fixpoint strip (p l : text) : option text :=
  match p, l with [], _ => Some l | x :: p', y :: l' => if Ascii.eqb x y then strip p' l' else None | _, [] => None end.
Fixpoint before (c : ascii) (l : text) : text := match l with [] => [] | x :: l' => if Ascii.eqb x c then [] else x :: before c l' end.
Definition number (l : text) : nat := match NilEmpty.uint_of_string (string_of_list_ascii l) with Some d => Nat.of_uint d | None => 0 end.
(** columns covered by a cell and its text: "\multicolumn{n}{c}{text}" or plain text *)
Definition read_span (cell : text) : nat * text :=
  match strip MULTI cell with
  | Some r => let n := before "}"%char r in (number n, trim (removelast (skipn (length n + 5) r)))
  | None => (1, trim cell)
  end.
(** up to the first \\ *)
Fixpoint before_break (l : text) : text :=
  match l with
  | x :: l' => match l' with y :: _ => if Ascii.eqb x BS && Ascii.eqb y BS then [] else x :: before_break l' | [] => [x] end
  | [] => []
  end.
(** no two backslashes in a row *)
Fixpoint unbroken (l : text) : bool :=
  match l with
  | x :: l' => match l' with y :: _ => negb (Ascii.eqb x BS && Ascii.eqb y BS) && unbroken l' | [] => true end
  | [] => true
  end.
(** a text that can stand in a header cell: no two backslashes in a row, none at the end, and not itself a \multicolumn *)
Definition header_text (s : string) : Prop := unbroken (chars s ++ [BS]) = true /\ strip MULTI (trim (chars s)) = None.
(** the header spans of the third line *)
Definition top_spans (f : text) : list (nat * text) := map read_span (cells (before_break (nth 2 (split LF f) []))).
(** what follows the first \\ of the third line *)
Definition top_rules (f : text) : text := skipn (length (before_break (nth 2 (split LF f) [])) + 2) (nth 2 (split LF f) []).

(** decimal numeral *)
Definition dec (n : nat) : string := NilEmpty.string_of_uint (Nat.to_uint n).
(** the rules under the header cells that are marked with '_': cell i covers w_i columns, starting at column [from] *)
Fixpoint rules (from : nat) (ws : list nat) (marks : text) : text :=
  match ws, marks with
  | w :: ws', c :: marks' => (if Ascii.eqb c "_"%char then chars "\cline{" ++ chars (dec from) ++ ["-"%char] ++ chars (dec (from + w - 1)) ++ ["}"%char] else []) ++ rules (from + w) ws' marks'
  | _, _ => []
  end.

(** ** What a cell shows *)
Section Shown.
Context (num : Type) (show : num -> string) (fmt : string -> num -> string) (blank : num -> bool).
(** nothing for the code -9999; otherwise the number, in parentheses or brackets if marked 'p' or 'b' *)
Definition shown (format : string) (mark : ascii) (x : num) : string :=
  if blank x then " "
  else let t := if String.eqb format "" then show x else fmt format x in
       if Ascii.eqb mark "p"%char then "(" ++ t ++ ")" else if Ascii.eqb mark "b"%char then "[" ++ t ++ "]" else t.
End Shown.
(** f applied with the position (from 1) *)
Fixpoint indexed {X Y} (f : nat -> X -> Y) (n : nat) (l : list X) : list Y := match l with [] => [] | x :: l' => f n x :: indexed f (S n) l' end.
Definition with_index {X Y} (f : nat -> X -> Y) (l : list X) : list Y := indexed f 1 l.
