(** * Property C127: the LaTeX tables written by matrix2latex_Stefan.m *)
From Coq Require Import Ascii String DecimalString Decimal DecimalNat.
From Coq Require Import ZArith List Bool Arith Lia.
From Verif Require Import Model_latex Spec_latex Proofs_latex.
Import ListNotations.
Local Open Scope string_scope.
Local Open Scope nat_scope.
Local Open Scope list_scope.

(** ** Numerals *)
Definition digits : text := chars "0123456789".
Lemma numeral_digits d : forall c, In c (chars (NilEmpty.string_of_uint d)) -> In c digits.
Proof. induction d as [|d IH|d IH|d IH|d IH|d IH|d IH|d IH|d IH|d IH|d IH]; intros c H; cbn [NilEmpty.string_of_uint chars list_ascii_of_string] in H; [destruct H|..]; (destruct H as [<- | H]; [cbn; tauto|apply IH; exact H]). Qed.
Lemma int2str_digits n c : In c (chars (int2str n)) -> In c digits. Proof. apply numeral_digits. Qed.
Lemma not_digit n c : ~ In c digits -> ~ In c (chars (int2str n)). Proof. intros H G. exact (H (int2str_digits n c G)). Qed.
Lemma chars_string l : chars (string_of_list_ascii l) = l. Proof. apply list_ascii_of_string_of_list_ascii. Qed.
Lemma number_int2str n : number (chars (int2str n)) = n.
Proof. unfold number, chars. rewrite string_of_list_ascii_of_string. unfold int2str. rewrite NilEmpty.usu. apply Unsigned.of_to. Qed.

(** ** Lines *)
Lemma rules_end ws : forall from marks, rules_text from ws marks = "" \/ exists a, chars (rules_text from ws marks) = a ++ ["}"%char].
Proof.
  induction ws as [|w ws IH]; intros from marks; [left; reflexivity|]. destruct marks as [|c marks]; [left; reflexivity|]. cbn [rules_text]. rewrite chars_app. destruct (IH (from + w) marks) as [E | [a E]].
  - rewrite E. unfold rule_cell. destruct (Ascii.eqb c "_"%char); [|left; reflexivity]. right. change (chars "") with (@nil ascii). rewrite app_nil_r, !chars_app. exists (chars "\cline{" ++ chars (int2str from) ++ chars "-" ++ chars (int2str (from + w - 1))). rewrite <- !app_assoc. reflexivity.
  - right. exists (chars (rule_cell from w c) ++ a). rewrite E, app_assoc. reflexivity.
Qed.
Lemma rules_no_LF ws : forall from marks, ~ In LF (chars (rules_text from ws marks)).
Proof.
  induction ws as [|w ws IH]; intros from marks; [intros []|]. destruct marks as [|c marks]; [intros []|]. cbn [rules_text]. rewrite chars_app. intros H. apply in_app_or in H as [H | H]; [|exact (IH _ _ H)].
  unfold rule_cell in H. destruct (Ascii.eqb c "_"%char); [|destruct H]. rewrite !chars_app in H. assert (N : ~ In LF digits) by (cbn; intros G; repeat (destruct G as [G | G]; [discriminate G|]); exact G).
  repeat (apply in_app_or in H as [H | H]); try (cbn in H; repeat (destruct H as [H | H]; [discriminate H|]); exact H); exact (not_digit _ _ N H).
Qed.
Lemma top_text_no ws : forall ls c, In c [AMP; LF; BS] -> c = LF -> Forall (fun l => ~ In LF (chars l)) ls -> ~ In c (chars (top_text ws ls)).
Proof.
  induction ws as [|w ws IH]; intros ls c _ -> HF; [intros []|]. destruct HF as [|l ls Hl HF]; [intros []|]. cbn [top_text]. rewrite chars_app. intros H. apply in_app_or in H as [H | H]; [|exact (IH ls LF ltac:(cbn; tauto) eq_refl HF H)].
  assert (N : ~ In LF digits) by (cbn; intros G; repeat (destruct G as [G | G]; [discriminate G|]); exact G).
  unfold top_cell in H. destruct (w =? 1), ws; rewrite ?chars_app in H; repeat (apply in_app_or in H as [H | H]); try (cbn in H; repeat (destruct H as [H | H]; [discriminate H|]); exact H); try exact (Hl H); exact (not_digit _ _ N H).
Qed.
Lemma repeat_chars c n : chars (repeat_char c n) = repeat c n.
Proof. induction n as [|n IH]; [reflexivity|]. cbn. f_equal. exact IH. Qed.

Section Table.
Context (num : Type) (show : num -> string) (fmt : string -> num -> string) (blank : num -> bool) (numeric_labels : list num -> list string).
Notation options := (options num).
(** the text shown in column w of row h for the number x *)
Notation shown_at o h w x := (shown num show fmt blank (format num o) (mark_at num o h w) x).

(** ** The calls considered: [o] is what the arguments set, [labels], [heads] and [top] are the row labels, column labels
    and additional header cells (widths and labels), if given *)
Record well_formed (o : options) (rows : list (list num)) (width : nat) (labels heads : option (list string)) (top : option (list nat * list string)) : Prop := {
  wf_shape : 1 <= width /\ rows <> [] /\ (forall row, In row rows -> length row = width);
  (* 'specform' has an entry for every cell that is not blank *)
  wf_marks : forall h w x row, nth_error rows h = Some row -> nth_error row w = Some x -> blank x = false ->
    match specform num o with None => True | Some m => exists r, nth_error m h = Some r /\ w < String.length r end;
  wf_labels : match labels with None => rowLabels num o = None | Some ls => rowLabels num o = Some (MCells num ls) /\ length rows <= length ls /\ Forall plain ls end;
  wf_heads : match heads with None => colLabels num o = None | Some ls => colLabels num o = Some (MCells num ls) /\ width <= length ls /\ Forall plain ls end;
  (* the widths of the header cells are at least 1 and add up to the width of the table; one label and one line mark for each *)
  wf_top : match top with None => topcolLabels num o = None
    | Some (ws, ls) => topcolLabels num o = Some (MCells num ls) /\ topwidth num o = map Z.of_nat ws /\ Forall (le 1) ws /\ total ws = width /\ length ls = length ws /\
        length ws <= String.length (topcolLines num o) /\ Forall plain ls end;
  wf_size : ~ In LF (chars (textsize num o));
  wf_texts : forall h w x row, nth_error rows h = Some row -> nth_error row w = Some x -> plain (shown_at o (S h) (S w) x) }.

(** row label of row h and cells of a header row *)
Definition stub (labels : option (list string)) (h : nat) : list text := match labels with None => [] | Some ls => [trim (chars (nth (h - 1) ls ""))] end.
Definition corner (labels : option (list string)) : list text := match labels with None => [] | Some _ => [[]] end.

Lemma wf_has_rows o rows width labels heads top : well_formed o rows width labels heads top -> has_rows num o = match labels with None => false | Some _ => true end.
Proof.
  intros W. assert (L := wf_labels _ _ _ _ _ _ W). destruct (wf_shape _ _ _ _ _ _ W) as (_ & NE & _). unfold has_rows. destruct labels as [ls|]; [|rewrite L; reflexivity].
  destruct L as (-> & L & _). destruct ls; [destruct rows; [congruence|cbn in L; lia]|reflexivity].
Qed.
Lemma wf_run o rows width labels heads top args s : well_formed o rows width labels heads top -> gets (set_options num numeric_labels (defaults num) args) o ->
  exists f, matrix2latex num show fmt blank numeric_labels (Numeric num rows) args s = (Some tt, Some f) /\
    chars f = file_of (all_lines num o width top heads (body_of num show fmt blank o 1 rows)) (tail_of num o).
Proof.
  intros W HO. destruct (wf_shape _ _ _ _ _ _ W) as (HW & NE & HL). assert (LB : length (body_of num show fmt blank o 1 rows) = length rows) by apply indexed_length.
  apply run_all; [exact HO| | |exact HW| | | |].
  - cbn [text_matrix]. apply rows_gets. intros h row w x E1 E2 B. assert (G := wf_marks _ _ _ _ _ _ W h w x row E1 E2 B). unfold marked. destruct (specform num o) as [m|]; [|exact I].
    destruct G as (r & Er & Lr). assert (h < length m) by (apply nth_error_Some; congruence). split; [lia|]. replace (1 + h - 1) with h by lia. rewrite (nth_error_nth m h "" Er). lia.
  - rewrite LB. cbn [m_size]. f_equal. destruct rows as [|r rows]; [congruence|]. apply HL. left. reflexivity.
  - intros row H. unfold body_of in H. rewrite indexed_combine in H. apply in_map_iff in H as ((h & r) & <- & H). cbn [fst snd]. rewrite indexed_length. apply HL. exact (in_combine_r _ _ _ _ H).
  - rewrite LB. unfold rows_ok. assert (HR := wf_has_rows _ _ _ _ _ _ W). assert (L := wf_labels _ _ _ _ _ _ W). destruct labels as [ls|]; [right; exists ls; tauto|left; exact HR].
  - unfold top_given. assert (T := wf_top _ _ _ _ _ _ W). destruct top as [[ws ls]|]; [|rewrite T; reflexivity]. destruct T as (T1 & T2 & T3 & T4 & T5 & T6 & _). unfold top_ok.
    split; [exact T1|]. split; [destruct ls; [destruct ws; [cbn in T4; lia|discriminate T5]|discriminate]|]. split; [exact T2|]. split; [exact T3|]. split; [exact T4|]. split; [lia|exact T6].
  - unfold heads_given. assert (H := wf_heads _ _ _ _ _ _ W). destruct heads as [ls|]; [tauto|rewrite H; reflexivity].
Qed.
Lemma HL_no_LF : ~ In LF HL. Proof. cbn. intros H. repeat (destruct H as [H | H]; [discriminate H|]). exact H. Qed.
Ltac no_LF H := repeat (apply in_app_or in H as [H | H]); try (cbn in H; repeat (destruct H as [H | H]; [discriminate H|]); exact H).
Lemma Forall_firstn {X} (P : X -> Prop) n l : Forall P l -> Forall P (firstn n l).
Proof. intros H. revert n. induction H as [|x l Hx H IH]; intros [|n]; cbn; constructor; auto. Qed.
Lemma body_plain o rows width labels heads top : well_formed o rows width labels heads top -> forall h row, In (h, row) (combine (seq 1 (length rows)) rows) ->
  Forall plain (labelled num o h (indexed (fun w x => shown_at o h w x) 1 row)) /\ labelled num o h (indexed (fun w x => shown_at o h w x) 1 row) <> [].
Proof.
  intros W h row H. destruct (wf_shape _ _ _ _ _ _ W) as (HW & NE & HL). assert (LR := HL row (in_combine_r _ _ _ _ H)).
  apply (In_nth_error) in H as [i Hi]. assert (I1 : nth_error rows i = Some row /\ h = S i).
  { assert (N1 : i < length (combine (seq 1 (length rows)) rows)) by (apply nth_error_Some; congruence). rewrite combine_length, seq_length, Nat.min_id in N1.
    apply (nth_error_nth _ _ (0, [])) in Hi. rewrite combine_nth in Hi by apply seq_length. injection Hi as H1 H2. rewrite seq_nth in H1 by exact N1. split; [|lia]. rewrite <- H2. apply nth_error_nth'. exact N1. }
  destruct I1 as [I1 ->].
  assert (PB : Forall plain (indexed (fun w x => shown_at o (S i) w x) 1 row)).
  { apply Forall_forall. intros t Ht. rewrite indexed_combine in Ht. apply in_map_iff in Ht as ((w & x) & <- & Hx). cbn [fst snd]. apply In_nth_error in Hx as [j Hj].
    assert (N1 : j < length (combine (seq 1 (length row)) row)) by (apply nth_error_Some; congruence). rewrite combine_length, seq_length, Nat.min_id in N1.
    apply (nth_error_nth _ _ (0, x)) in Hj. rewrite combine_nth in Hj by apply seq_length. injection Hj as H1 H2. rewrite seq_nth in H1 by exact N1. subst w.
    apply (wf_texts _ _ _ _ _ _ W i j x row I1). rewrite <- H2. apply nth_error_nth'. exact N1. }
  assert (NB : indexed (fun w x => shown_at o (S i) w x) 1 row <> []) by (destruct row; [cbn in LR; lia|discriminate]).
  assert (L := wf_labels _ _ _ _ _ _ W). unfold labelled. destruct labels as [ls|].
  - destruct L as (EL & LL & PL). rewrite EL. destruct (has_rows num o); [|split; assumption]. split; [|discriminate]. constructor; [|exact PB].
    rewrite Forall_forall in PL. apply PL, nth_In. assert (i < length rows) by (apply nth_error_Some; congruence). lia.
  - rewrite L. split; assumption.
Qed.

Lemma rows_of {X Y} (g : nat -> X -> Y) rows : forall n h r, In (h, r) (combine (seq n (length rows)) (indexed g n rows)) -> exists row, In (h, row) (combine (seq n (length rows)) rows) /\ r = g h row.
Proof.
  induction rows as [|row rows IH]; intros n h r Hr; [destruct Hr|]. cbn [length seq combine indexed] in Hr. destruct Hr as [E | Hr].
  - injection E as <- <-. exists row. split; [left; reflexivity|reflexivity].
  - destruct (IH (S n) h r Hr) as (row' & H1 & H2). exists row'. split; [right; exact H1|exact H2].
Qed.
(** the alignment is always one of the three letters *)
Definition letter (c : ascii) : Prop := In c ["l"; "c"; "r"]%char.
Lemma align_letter v s c s' : align_value num v s = (Some c, s') -> letter c /\ s' = s.
Proof.
  unfold align_value, letter. destruct v as [| | |t|]; try discriminate. unfold bindM. destruct (char_eq (lower t) "right"); cbn; [|discriminate]. destruct (char_eq _ "left"); cbn; [|discriminate]. destruct (char_eq _ "center"); cbn; [|discriminate].
  match goal with |- context [match ?u with EmptyString => _ | String _ _ => _ end] => destruct u as [|c' [|]] end; try discriminate. unfold ret. intros E. injection E as E1 E2. split; [|congruence].
  subst c. destruct (Ascii.eqb_spec c' "l"), (Ascii.eqb_spec c' "c"), (Ascii.eqb_spec c' "r"); cbn; subst; tauto.
Qed.
Lemma option_letter o name v s o' s' : letter (alignment num o) -> set_option num numeric_labels o name v s = (Some o', s') -> letter (alignment num o').
Proof.
  intros H. destruct o as [rl cl al fo ts sf tw tl tn]. cbn [alignment] in H. unfold set_option. destruct (strmatch (lower name)) as [|[|[|[|[|[|[|[|[|[|[|]]]]]]]]]] [|]]; try discriminate;
    try (destruct v; cbn; intros E; try discriminate E; injection E as <- _; exact H).
  unfold bindM. destruct (align_value num v s) as [[a|] s1] eqn:EA; [|discriminate]. cbn. intros E. injection E as <- _. exact (proj1 (align_letter _ _ _ _ EA)).
Qed.
Lemma options_letter args : forall o s o' s', letter (alignment num o) -> set_options num numeric_labels o args s = (Some o', s') -> letter (alignment num o').
Proof.
  induction args as [|[n v] args IH]; intros o s o' s' H E; [cbn in E; injection E as <- _; exact H|]. cbn [set_options] in E. unfold bindM in E. destruct (set_option num numeric_labels o n v s) as [[o1|] s1] eqn:E1; [|discriminate].
  exact (IH o1 s1 o' s' (option_letter _ _ _ _ _ _ H E1) E).
Qed.
Lemma set_letter args o : gets (set_options num numeric_labels (defaults num) args) o -> letter (alignment num o).
Proof. intros H. apply (options_letter args (defaults num) None o None); [cbn; tauto|apply H]. Qed.

Lemma lines_no_LF o rows width labels heads top : well_formed o rows width labels heads top -> letter (alignment num o) ->
  Forall (fun l => ~ In LF l) (all_lines num o width top heads (body_of num show fmt blank o 1 rows)) /\ ~ In LF (tail_of num o).
Proof.
  intros W LT. assert (SZ := wf_size _ _ _ _ _ _ W). assert (AL : alignment num o <> LF) by (intros E; rewrite E in LT; cbn in LT; repeat (destruct LT as [LT | LT]; [discriminate LT|]); exact LT). split.
  - unfold all_lines. apply Forall_app. split; [|apply Forall_app; split; [|apply Forall_app; split; [|apply Forall_app; split]]].
    + constructor; [|constructor; [exact HL_no_LF|constructor]]. unfold pre_line. rewrite !chars_app, repeat_chars. intros H. apply in_app_or in H as [H | H].
      * destruct (negb _); [rewrite !chars_app in H; no_LF H; exact (SZ H)|destruct H].
      * apply in_app_or in H as [H | H]; [no_LF H|]. apply in_app_or in H as [H | H]; [destruct (has_rows num o); no_LF H|]. apply in_app_or in H as [H | H]; [apply repeat_spec in H; congruence|no_LF H].
    + assert (T := wf_top _ _ _ _ _ _ W). unfold top_part. destruct top as [[ws ls]|]; [|constructor]. destruct T as (_ & _ & _ & _ & _ & _ & PL). constructor; [|constructor]. rewrite !chars_app. intros H.
      apply in_app_or in H as [H | H]; [destruct (has_rows num o); no_LF H|]. apply in_app_or in H as [H | H].
      * revert H. apply (top_text_no ws ls LF); [cbn; tauto|reflexivity|]. eapply Forall_impl; [|exact PL]. intros l [_ P]. exact P.
      * apply in_app_or in H as [H | H]; [no_LF H|exact (rules_no_LF _ _ _ H)].
    + assert (T := wf_heads _ _ _ _ _ _ W). unfold head_part. destruct heads as [ls|]; [|constructor]. destruct T as (_ & _ & PL). constructor; [|constructor]. rewrite !chars_app. intros H.
      apply in_app_or in H as [H | H]; [destruct (has_rows num o); no_LF H|]. apply in_app_or in H as [H | H]; [|no_LF H]. exact (row_line_no_LF _ (Forall_firstn _ width _ PL) H).
    + apply Forall_forall. intros l Hl. unfold with_index, body_of in Hl. rewrite indexed_combine, indexed_length in Hl. apply in_map_iff in Hl as ((h & r) & <- & Hr). cbn [fst snd].
      destruct (rows_of _ rows 1 h r Hr) as (row & Hin & ->). unfold row_part. rewrite chars_app. intros H. apply in_app_or in H as [H | H]; [|no_LF H]. exact (row_line_no_LF _ (proj1 (body_plain _ _ _ _ _ _ W h row Hin)) H).
    + constructor; [exact HL_no_LF|]. constructor; [intros H; no_LF H|constructor].
  - unfold tail_of. destruct (negb _); [|intros []]. rewrite !chars_app. intros H. no_LF H. exact (SZ H).
Qed.

(** ** Reading the lines back *)
Lemma without_last a x e y : x <> y -> without (e ++ [y]) (a ++ [x]) = None.
Proof.
  intros N. unfold without. destruct (list_eq_dec ascii_dec _ (e ++ [y])) as [E | _]; [|reflexivity]. exfalso. apply N.
  set (n := length (a ++ [x]) - length (e ++ [y])) in E.
  assert (E3 : rev (a ++ [x]) = rev (skipn n (a ++ [x])) ++ rev (firstn n (a ++ [x]))) by (rewrite <- rev_app_distr, firstn_skipn; reflexivity).
  rewrite E, !rev_app_distr in E3. cbn in E3. injection E3 as E3 _. exact E3.
Qed.
Definition ends (x : ascii) (l : text) : Prop := exists a, l = a ++ [x].
Lemma ends_app x a l : ends x l -> ends x (a ++ l). Proof. intros [b ->]. exists (a ++ b). apply app_assoc. Qed.
Lemma ends_CR x l : ends x l -> exists a, l ++ [CR] = a ++ [x; CR]. Proof. intros [a ->]. exists a. rewrite <- app_assoc. reflexivity. Qed.
Lemma not_row x l : ends x l -> x <> BS -> without ROW_END (l ++ [CR]) = None.
Proof. intros H N. destruct (ends_CR _ _ H) as [a ->]. exact (without_differs a x [BS] BS N). Qed.
Lemma not_head x l : ends x l -> x <> "e"%char -> without HEAD_END (l ++ [CR]) = None.
Proof. intros H N. destruct (ends_CR _ _ H) as [a ->]. exact (without_differs a x (chars "\\\hlin") "e"%char N). Qed.
Ltac ends_lit := match goal with |- ends ?x ?l => let l' := eval vm_compute in l in change (ends x l'); unfold ends; let n := eval vm_compute in (removelast l') in exists n; reflexivity end.
Lemma pre_ends o width : ends "}"%char (pre_line num o width).
Proof. unfold pre_line. rewrite !chars_app. repeat apply ends_app. exists []. reflexivity. Qed.
Lemma top_ends o top l : In l (top_part num o top) -> ends " "%char l \/ ends "}"%char l.
Proof.
  unfold top_part. destruct top as [[ws ls]|]; [|intros []]. intros [<- | []]. rewrite !chars_app. destruct (rules_end ws (1 + shift_of num o) (chars (topcolLines num o))) as [E | [a E]].
  - left. rewrite E. do 2 apply ends_app. ends_lit.
  - right. do 3 apply ends_app. exists a. exact E.
Qed.
Lemma head_ends o width heads l : In l (head_part num o width heads) -> ends "e"%char l.
Proof. unfold head_part. destruct heads as [ls|]; [|intros []]. intros [<- | []]. rewrite !chars_app. do 2 apply ends_app. ends_lit. Qed.
Lemma tail_not e o : without (e ++ [CR]) (tail_of num o) = None.
Proof.
  unfold tail_of. destruct (negb _).
  - rewrite !chars_app, app_assoc. apply (without_last _ "}"%char e CR). discriminate.
  - apply without_short. rewrite app_length. cbn. lia.
Qed.
Lemma map_keep {X Y Z} (f : Y -> option Z) (g : X -> Y) l : keep f (map g l) = keep (fun x => f (g x)) l.
Proof. unfold keep. induction l as [|x l IH]; [reflexivity|]. cbn. f_equal. exact IH. Qed.
Lemma indexed_indexed {X Y Z} (g : nat -> Y -> Z) (f : nat -> X -> Y) l : forall n, indexed g n (indexed f n l) = indexed (fun i x => g i (f i x)) n l.
Proof. induction l as [|x l IH]; intros n; [reflexivity|]. cbn. f_equal. apply IH. Qed.
Lemma map_indexed {X Y Z} (g : Y -> Z) (f : nat -> X -> Y) l : forall n, map g (indexed f n l) = indexed (fun i x => g (f i x)) n l.
Proof. induction l as [|x l IH]; intros n; [reflexivity|]. cbn. f_equal. apply IH. Qed.
Lemma indexed_ext {X Y} (f g : nat -> X -> Y) l : forall n, (forall i x, In (i, x) (combine (seq n (length l)) l) -> f i x = g i x) -> indexed f n l = indexed g n l.
Proof.
  induction l as [|x l IH]; intros n H; [reflexivity|]. cbn. rewrite (H n x (or_introl eq_refl)). f_equal. apply IH. intros i y Hy. apply H. right. exact Hy.
Qed.

Lemma rows_read o rows width labels heads top : well_formed o rows width labels heads top ->
  map cells (keep (without ROW_END) (map (fun l => l ++ [CR]) (all_lines num o width top heads (body_of num show fmt blank o 1 rows)) ++ [tail_of num o])) =
  with_index (fun h row => stub labels h ++ with_index (fun w x => trim (chars (shown_at o h w x))) row) rows.
Proof.
  intros W. rewrite keep_app, map_keep. unfold all_lines. rewrite !keep_app.
  replace (keep (without ROW_END) [tail_of num o]) with (@nil text) by (unfold keep; cbn [flat_map]; rewrite (tail_not [BS; BS]); reflexivity). rewrite app_nil_r.
  rewrite (keep_none _ [pre_line num o width; HL]) by (intros l [<- | [<- | []]]; [apply (not_row "}"%char); [apply pre_ends|discriminate]|reflexivity]).
  rewrite (keep_none _ (top_part num o top)) by (intros l Hl; destruct (top_ends _ _ _ Hl) as [E | E]; eapply not_row; [exact E|discriminate|exact E|discriminate]).
  rewrite (keep_none _ (head_part num o width heads)) by (intros l Hl; eapply not_row; [exact (head_ends _ _ _ _ Hl)|discriminate]).
  rewrite (keep_none _ [HL; chars "\end{tabular}"]) by (intros l [<- | [<- | []]]; reflexivity).
  cbn [app]. rewrite app_nil_r. unfold with_index, body_of. rewrite indexed_indexed.
  rewrite indexed_combine. rewrite map_keep. rewrite (keep_all _ (fun p => chars (row_line (labelled num o (fst p) (indexed (fun w x => shown_at o (fst p) w x) 1 (snd p)))))).
  - rewrite map_map, <- (indexed_combine (fun h row => cells (chars (row_line (labelled num o h (indexed (fun w x => shown_at o h w x) 1 row)))))). apply indexed_ext. intros h row Hr.
    destruct (body_plain _ _ _ _ _ _ W h row Hr) as [P1 P2]. rewrite (cells_row_line _ P2 P1). rewrite <- (map_indexed (fun t => trim (chars t))).
    unfold labelled. assert (HR := wf_has_rows _ _ _ _ _ _ W). rewrite HR. assert (L := wf_labels _ _ _ _ _ _ W). destruct labels as [ls|]; [destruct L as [-> _]; reflexivity|rewrite L; reflexivity].
  - intros (h & row) _. cbn [fst snd]. unfold row_part. rewrite chars_app, <- app_assoc. apply (without_app _ ROW_END).
Qed.
Lemma heads_read o rows width labels heads top : well_formed o rows width labels heads top ->
  map cells (keep (without HEAD_END) (map (fun l => l ++ [CR]) (all_lines num o width top heads (body_of num show fmt blank o 1 rows)) ++ [tail_of num o])) =
  match heads with None => [] | Some ls => [corner labels ++ map (fun l => trim (chars l)) (firstn width ls)] end.
Proof.
  intros W. rewrite keep_app, map_keep. unfold all_lines. rewrite !keep_app.
  replace (keep (without HEAD_END) [tail_of num o]) with (@nil text) by (unfold keep; cbn [flat_map]; change HEAD_END with (chars "\\\hline" ++ [CR]); rewrite tail_not; reflexivity). rewrite app_nil_r.
  rewrite (keep_none _ [pre_line num o width; HL]) by (intros l [<- | [<- | []]]; [apply (not_head "}"%char); [apply pre_ends|discriminate]|reflexivity]).
  rewrite (keep_none _ (top_part num o top)) by (intros l Hl; destruct (top_ends _ _ _ Hl) as [E | E]; eapply not_head; [exact E|discriminate|exact E|discriminate]).
  rewrite (keep_none _ (with_index _ _)).
  2:{ intros l Hl. unfold with_index in Hl. rewrite indexed_combine in Hl. apply in_map_iff in Hl as ((h & r) & <- & _). cbn [fst snd]. apply (not_head BS); [|discriminate]. unfold row_part. rewrite chars_app. apply ends_app. ends_lit. }
  rewrite (keep_none _ [HL; chars "\end{tabular}"]) by (intros l [<- | [<- | []]]; reflexivity).
  cbn [app]. rewrite app_nil_r. assert (HR := wf_has_rows _ _ _ _ _ _ W). assert (H := wf_heads _ _ _ _ _ _ W). unfold head_part. destruct heads as [ls|]; [|reflexivity].
  destruct H as (_ & HL1 & PL). destruct (wf_shape _ _ _ _ _ _ W) as (HW & _ & _). unfold keep. cbn [flat_map]. rewrite !chars_app. 
  replace ((chars (if has_rows num o then "& " else "") ++ chars (row_line (firstn width ls)) ++ chars "\\\hline") ++ [CR]) with ((chars (if has_rows num o then "& " else "") ++ chars (row_line (firstn width ls))) ++ HEAD_END) by (rewrite <- !app_assoc; reflexivity).
  rewrite without_app. cbn [app map]. f_equal. assert (C : cells (chars (row_line (firstn width ls))) = map (fun l => trim (chars l)) (firstn width ls)).
  { apply cells_row_line; [|apply Forall_firstn; exact PL]. destruct ls, width; cbn in *; try lia; discriminate. }
  rewrite HR. destruct labels as [rl|]; [|exact C]. cbn [corner app]. change (chars "& ") with [AMP; SPC]. cbn [app]. rewrite cells_head, C. reflexivity.
Qed.

(** ** C127: what is read back from the file is what was given *)
Theorem C127_read_back o rows width labels heads top args s :
  well_formed o rows width labels heads top -> gets (set_options num numeric_labels (defaults num) args) o ->
  exists f, matrix2latex num show fmt blank numeric_labels (Numeric num rows) args s = (Some tt, Some f) /\
    table_rows (chars f) = with_index (fun h row => stub labels h ++ with_index (fun w x => trim (chars (shown_at o h w x))) row) rows /\
    table_heads (chars f) = match heads with None => [] | Some ls => [corner labels ++ map (fun l => trim (chars l)) (firstn width ls)] end /\
    column_letters (chars f) = match labels with None => [] | Some _ => ["l"%char] end ++ repeat (alignment num o) width /\ letter (alignment num o).
Proof.
  intros W HO. assert (LT := set_letter args o HO). destruct (wf_run _ _ _ _ _ _ args s W HO) as (f & E & F). exists f. split; [exact E|].
  destruct (lines_no_LF _ _ _ _ _ _ W LT) as [N1 N2]. unfold table_rows, table_heads, column_letters. rewrite F, (split_file _ _ N1 N2).
  split; [exact (rows_read _ _ _ _ _ _ W)|]. split; [exact (heads_read _ _ _ _ _ _ W)|]. split; [|exact LT].
  unfold all_lines. cbn [app map hd]. unfold pre_line. rewrite !chars_app, repeat_chars. rewrite (wf_has_rows _ _ _ _ _ _ W).
  match goal with |- context [(chars ?a ++ chars "\begin{tabular}{" ++ chars ?b ++ _) ++ _] => set (A := chars a); set (B := chars b) end.
  replace ((A ++ chars "\begin{tabular}{" ++ B ++ repeat (alignment num o) width ++ chars "}") ++ [CR]) with (((A ++ chars "\begin{tabular}") ++ "{"%char :: (B ++ repeat (alignment num o) width)) ++ ["}"%char; CR]) by (rewrite <- !app_assoc; rewrite <- app_comm_cons, <- !app_assoc; reflexivity).
  rewrite without_app, split_last.
  - unfold B. destruct labels; reflexivity.
  - intros H. apply in_app_or in H as [H | H].
    + unfold B in H. destruct labels; cbn in H; repeat (destruct H as [H | H]; [discriminate H|]); exact H.
    + apply repeat_spec in H. rewrite <- H in LT. cbn in LT. repeat (destruct LT as [LT | LT]; [discriminate LT|]). exact LT.
Qed.

(** ** The additional header line *)
Lemma unbroken_app a b : unbroken (a ++ [BS]) = true -> unbroken b = true -> unbroken (a ++ b) = true.
Proof.
  induction a as [|x a IH]; intros H1 H2; [exact H2|]. destruct a as [|y a].
  - cbn [app] in *. destruct b as [|z b]; [reflexivity|]. cbn [unbroken] in *. change (Ascii.eqb BS BS) with true in H1. rewrite !andb_true_r in H1. destruct (Ascii.eqb x BS); [discriminate H1|]. cbn. exact H2.
  - change ((x :: y :: a) ++ [BS]) with (x :: y :: a ++ [BS]) in H1. change ((x :: y :: a) ++ b) with (x :: y :: a ++ b). cbn [unbroken] in H1 |- *. apply andb_prop in H1 as [H1 H3]. rewrite H1. exact (IH H3 H2).
Qed.
Lemma unbroken_none a : ~ In BS a -> unbroken (a ++ [BS]) = true.
Proof.
  induction a as [|x a IH]; intros H; [reflexivity|]. assert (X : Ascii.eqb x BS = false) by (apply Ascii.eqb_neq; intros ->; apply H; left; reflexivity).
  assert (R := IH (fun G => H (or_intror G))). destruct a as [|y a]; cbn [app unbroken] in *; rewrite X; [reflexivity|exact R].
Qed.
Lemma break_at P r : unbroken (P ++ [BS]) = true -> before_break (P ++ BS :: BS :: r) = P.
Proof.
  induction P as [|x P IH]; intros H; [reflexivity|]. destruct P as [|y P].
  - cbn in H. cbn. destruct (Ascii.eqb x BS); [discriminate H|]. reflexivity.
  - change ((x :: y :: P) ++ [BS]) with (x :: y :: P ++ [BS]) in H. cbn [unbroken] in H. apply andb_prop in H as [H1 H2]. specialize (IH H2).
    change ((x :: y :: P) ++ BS :: BS :: r) with (x :: (y :: P) ++ BS :: BS :: r). cbn [before_break]. cbn [app] in *. destruct (Ascii.eqb x BS && Ascii.eqb y BS); [discriminate H1|]. f_equal. exact IH.
Qed.
Lemma unbroken_two a b : unbroken (a ++ [BS]) = true -> unbroken (b ++ [BS]) = true -> unbroken ((a ++ b) ++ [BS]) = true.
Proof. intros H1 H2. rewrite <- app_assoc. apply unbroken_app; assumption. Qed.
Lemma no_BS_digits : ~ In BS digits. Proof. cbn. intros H. repeat (destruct H as [H | H]; [discriminate H|]). exact H. Qed.
Lemma top_unbroken ws : forall ls, Forall header_text ls -> unbroken (chars (top_text ws ls) ++ [BS]) = true.
Proof.
  induction ws as [|w ws IH]; intros ls HF; [reflexivity|]. destruct HF as [|l ls [Hl _] HF]; [reflexivity|]. cbn [top_text]. rewrite chars_app. apply unbroken_two; [|exact (IH ls HF)].
  unfold top_cell. destruct (w =? 1), ws; rewrite ?chars_app; repeat apply unbroken_two; try reflexivity; try exact Hl; apply unbroken_none; apply not_digit; exact no_BS_digits.
Qed.
(** the text of a header cell *)
Definition span_text (w : nat) (l : string) : text := if w =? 1 then chars l else MULTI ++ chars (int2str w) ++ chars "}{c}{" ++ chars l ++ ["}"%char].
Lemma before_none c a r : ~ In c a -> before c (a ++ c :: r) = a.
Proof. induction a as [|x a IH]; intros H; cbn; [rewrite Ascii.eqb_refl; reflexivity|]. destruct (Ascii.eqb_spec x c) as [-> | N]; [exfalso; apply H; left; reflexivity|]. f_equal. apply IH. intros G. apply H. right. exact G. Qed.
Lemma strip_app p r : strip p (p ++ r) = Some r.
Proof. induction p as [|x p IH]; [reflexivity|]. cbn. rewrite Ascii.eqb_refl. exact IH. Qed.
Lemma trim_solid x a y : x <> SPC -> y <> SPC -> trim (x :: a ++ [y]) = x :: a ++ [y].
Proof.
  intros H1 H2. unfold trim. cbn [drop_blanks]. apply Ascii.eqb_neq in H1, H2. rewrite H1. cbn [rev]. rewrite rev_app_distr. cbn [rev app drop_blanks]. rewrite H2. cbn [rev]. rewrite rev_app_distr, rev_involutive. reflexivity.
Qed.
Lemma no_brace_digits : ~ In "}"%char digits. Proof. cbn. intros H. repeat (destruct H as [H | H]; [discriminate H|]). exact H. Qed.
Lemma read_span_text w l : header_text l -> read_span (trim (span_text w l)) = (w, trim (chars l)).
Proof.
  intros [_ H]. unfold span_text. destruct (Nat.eqb_spec w 1) as [-> | N].
  - unfold read_span. rewrite H, trim_idem. reflexivity.
  - replace (trim (MULTI ++ chars (int2str w) ++ chars "}{c}{" ++ chars l ++ ["}"%char])) with (MULTI ++ chars (int2str w) ++ chars "}{c}{" ++ chars l ++ ["}"%char]).
    2:{ change MULTI with (BS :: chars "multicolumn{"). cbn [app]. symmetry.
        replace (chars "multicolumn{" ++ chars (int2str w) ++ chars "}{c}{" ++ chars l ++ ["}"%char]) with ((chars "multicolumn{" ++ chars (int2str w) ++ chars "}{c}{" ++ chars l) ++ ["}"%char]) by (rewrite <- !app_assoc; reflexivity).
        apply trim_solid; discriminate. }
    unfold read_span. rewrite strip_app. change (chars "}{c}{" ++ chars l ++ ["}"%char]) with ("}"%char :: chars "{c}{" ++ chars l ++ ["}"%char]). rewrite before_none by (apply not_digit; exact no_brace_digits).
    rewrite number_int2str. f_equal. f_equal.
    replace (skipn (length (chars (int2str w)) + 5) (chars (int2str w) ++ "}"%char :: chars "{c}{" ++ chars l ++ ["}"%char])) with (chars l ++ ["}"%char]); [apply removelast_last|].
    rewrite skipn_app, skipn_all2 by lia. replace (length (chars (int2str w)) + 5 - length (chars (int2str w))) with 5 by lia. reflexivity.
Qed.
Lemma no_AMP_digits : ~ In AMP digits. Proof. cbn. intros H. repeat (destruct H as [H | H]; [discriminate H|]). exact H. Qed.
Lemma span_no_AMP w l : plain l -> ~ In AMP (span_text w l).
Proof.
  intros [H _]. unfold span_text. destruct (w =? 1); [exact H|]. intros G. repeat (apply in_app_or in G as [G | G]); try exact (H G); try (cbn in G; repeat (destruct G as [G | G]; [discriminate G|]); exact G).
  exact (not_digit _ _ no_AMP_digits G).
Qed.
Lemma top_cell_last w l : chars (top_cell w l true) = span_text w l ++ [SPC].
Proof. unfold top_cell, span_text, MULTI. destruct (w =? 1); rewrite ?chars_app; [reflexivity|]. rewrite <- !app_assoc. reflexivity. Qed.
Lemma top_cell_more w l : exists b, (b = [] \/ b = [SPC]) /\ chars (top_cell w l false) = span_text w l ++ b ++ [AMP; SPC].
Proof.
  unfold top_cell, span_text, MULTI. destruct (w =? 1); rewrite ?chars_app.
  - exists []. split; [left; reflexivity|reflexivity].
  - exists [SPC]. split; [right; reflexivity|]. rewrite <- !app_assoc. reflexivity.
Qed.
Lemma cells_top ws : forall ls, ws <> [] -> length ls = length ws -> Forall plain ls -> Forall header_text ls ->
  map read_span (cells (chars (top_text ws ls))) = combine ws (map (fun l => trim (chars l)) ls).
Proof.
  induction ws as [|w ws IH]; intros ls NE HL HP HF; [congruence|]. destruct HF as [|l ls Hl HF]; [discriminate HL|]. inversion HP as [|? ? Pl HP']; subst. cbn in HL. cbn [top_text]. rewrite chars_app. destruct ws as [|w' ws].
  - destruct ls; [|discriminate HL]. rewrite top_cell_last. change (chars (top_text [] [])) with (@nil ascii). rewrite app_nil_r. unfold cells. rewrite split_none by (intros G; apply in_app_or in G as [G | [G | []]]; [exact (span_no_AMP _ _ Pl G)|discriminate G]).
    cbn [map combine]. rewrite trim_right, (read_span_text _ _ Hl). reflexivity.
  - destruct (top_cell_more w l) as (b & Hb & E). rewrite E.
    replace ((span_text w l ++ b ++ [AMP; SPC]) ++ chars (top_text (w' :: ws) ls)) with ((span_text w l ++ b) ++ AMP :: SPC :: chars (top_text (w' :: ws) ls)) by (rewrite <- !app_assoc; reflexivity).
    assert (S1 : cells ((span_text w l ++ b) ++ AMP :: SPC :: chars (top_text (w' :: ws) ls)) = trim (span_text w l) :: cells (chars (top_text (w' :: ws) ls))).
    { unfold cells at 1. rewrite split_app.
      - cbn [map]. f_equal; [destruct Hb as [-> | ->]; [rewrite app_nil_r; reflexivity|apply trim_right]|]. apply cells_after_blank.
      - intros G. apply in_app_or in G as [G | G]; [exact (span_no_AMP _ _ Pl G)|]. destruct Hb as [-> | ->]; [destruct G|destruct G as [G | []]; discriminate G]. }
    rewrite S1. cbn [map combine]. rewrite (read_span_text _ _ Hl). f_equal. apply IH; [discriminate|lia|exact HP'|exact HF].
Qed.
Theorem C127_top_header o rows width labels heads ws ls args s :
  well_formed o rows width labels heads (Some (ws, ls)) -> Forall header_text ls -> gets (set_options num numeric_labels (defaults num) args) o ->
  exists f, matrix2latex num show fmt blank numeric_labels (Numeric num rows) args s = (Some tt, Some f) /\
    top_spans (chars f) = match labels with None => [] | Some _ => [(1, [])] end ++ combine ws (map (fun l => trim (chars l)) ls) /\
    top_rules (chars f) = SPC :: rules (match labels with None => 1 | Some _ => 2 end) ws (chars (topcolLines num o)) ++ [CR].
Proof.
  intros W HH HO. assert (LT := set_letter args o HO). destruct (wf_run _ _ _ _ _ _ args s W HO) as (f & E & F). exists f. split; [exact E|].
  destruct (lines_no_LF _ _ _ _ _ _ W LT) as [N1 N2]. unfold top_spans, top_rules. rewrite F, (split_file _ _ N1 N2).
  assert (HR := wf_has_rows _ _ _ _ _ _ W). destruct (wf_top _ _ _ _ _ _ W) as (_ & _ & _ & T4 & T5 & T6 & T7). destruct (wf_shape _ _ _ _ _ _ W) as (HW & _ & _).
  unfold all_lines. cbn [app map nth top_part]. unfold shift_of. rewrite HR, !chars_app, rules_text_chars.
  set (P := chars (if match labels with Some _ => true | None => false end then "& " else "")).
  replace ((P ++ chars (top_text ws ls) ++ chars "\\ " ++ rules (1 + (if match labels with Some _ => true | None => false end then 1 else 0)) ws (chars (topcolLines num o))) ++ [CR])
    with ((P ++ chars (top_text ws ls)) ++ BS :: BS :: SPC :: rules (match labels with None => 1 | Some _ => 2 end) ws (chars (topcolLines num o)) ++ [CR])
    by (rewrite <- !app_assoc; destruct labels; reflexivity).
  rewrite break_at.
  2:{ apply unbroken_two; [unfold P; destruct labels; reflexivity|apply top_unbroken; exact HH]. }
  split.
  - assert (C := cells_top ws ls ltac:(intros ->; cbn in T4; lia) T5 T7 HH). unfold P. destruct labels as [rl|]; [|exact C]. change (chars "& ") with [AMP; SPC]. cbn [app]. rewrite cells_head. cbn [map]. rewrite C. reflexivity.
  - rewrite skipn_app, skipn_all2 by lia. replace (length (P ++ chars (top_text ws ls)) + 2 - length (P ++ chars (top_text ws ls))) with 2 by lia. reflexivity.
Qed.

(** ** The arguments *)
Lemma option_file o name v s : snd (set_option num numeric_labels o name v s) = s.
Proof.
  destruct o as [rl cl al fo ts sf tw tl tn]. unfold set_option. destruct (strmatch (lower name)) as [|[|[|[|[|[|[|[|[|[|[|]]]]]]]]]] [|]]; try reflexivity; try (destruct v; reflexivity).
  unfold bindM. assert (G : snd (align_value num v s) = s).
  { unfold align_value. destruct v as [| | |t|]; try reflexivity. unfold bindM. destruct (char_eq (lower t) "right"); [|reflexivity]. cbn. destruct (char_eq _ "left"); [|reflexivity]. cbn. destruct (char_eq _ "center"); [|reflexivity]. cbn.
    match goal with |- context [match ?u with EmptyString => _ | String _ _ => _ end] => destruct u as [|c' [|]] end; reflexivity. }
  destruct (align_value num v s) as [[a|] s1]; exact G.
Qed.
Lemma options_file args : forall o s, snd (set_options num numeric_labels o args s) = s.
Proof.
  induction args as [|[n v] args IH]; intros o s; [reflexivity|]. cbn [set_options]. unfold bindM. assert (G := option_file o n v s). destruct (set_option num numeric_labels o n v s) as [[o1|] s1]; cbn in G; subst s1; [apply IH|reflexivity].
Qed.
Lemma options_app a b : forall o s, set_options num numeric_labels o (a ++ b) s = bindM (set_options num numeric_labels o a) (fun o' => set_options num numeric_labels o' b) s.
Proof.
  induction a as [|[n v] a IH]; intros o s; [reflexivity|]. cbn [app set_options]. unfold bindM in *. destruct (set_option num numeric_labels o n v s) as [[o1|] s1]; [apply IH|reflexivity].
Qed.
Lemma bad_argument m pre post name v s : (forall o s, fst (set_option num numeric_labels o name v s) = None) ->
  matrix2latex num show fmt blank numeric_labels m (pre ++ (name, v) :: post) s = (None, s).
Proof.
  intros H. unfold matrix2latex. destruct (m_size num m) as [hgt wid]. unfold bindM at 1. rewrite options_app. unfold bindM at 1. assert (G := options_file pre (defaults num) s).
  destruct (set_options num numeric_labels (defaults num) pre s) as [[o1|] s1]; cbn in G; subst s1; [|reflexivity]. cbn [set_options]. unfold bindM at 1. assert (F := option_file o1 name v s). specialize (H o1 s).
  destruct (set_option num numeric_labels o1 name v s) as [[o2|] s2]; cbn in *; [discriminate|]. subst s2. reflexivity.
Qed.
(** the options whose name begins with the given text, letters in any case *)
Definition candidates (name : string) : list string := filter (prefix (lower name)) okargs.
Lemma strmatch_length name : length (strmatch (lower name)) = length (candidates name).
Proof. unfold strmatch, candidates. rewrite map_length. unfold okargs. cbn [length seq combine filter snd]. repeat (destruct (prefix _ _); cbn [length]; f_equal); reflexivity. Qed.
(** ** C127: an argument name that no option, or more than one, begins with is refused, and no file is opened *)
Theorem C127_names m pre post name v s : length (candidates name) <> 1 ->
  matrix2latex num show fmt blank numeric_labels m (pre ++ (name, v) :: post) s = (None, s).
Proof.
  intros H. apply bad_argument. intros [rl cl al fo ts sf tw tl tn] s0. rewrite <- strmatch_length in H. unfold set_option. destruct (strmatch (lower name)) as [|k [|]]; [reflexivity|cbn in H; lia|].
  destruct k as [|[|[|[|[|[|[|[|[|[|]]]]]]]]]]; reflexivity.
Qed.
Lemma lower_length t : String.length (lower t) = String.length t. Proof. induction t as [|c t IH]; [reflexivity|]. cbn. f_equal. exact IH. Qed.
Lemma align_refused t s : String.length t <> 1 -> lower t <> "right" -> fst (align_value num (MStr num t) s) = None.
Proof.
  intros H1 H2. unfold align_value, bindM, char_eq. cbn [String.length]. rewrite lower_length.
  destruct (Nat.eqb_spec (String.length t) 5) as [E | N].
  - destruct (String.eqb_spec (lower t) "right") as [E2 | _]; [congruence|]. cbn. rewrite lower_length, E. reflexivity.
  - destruct (Nat.eqb_spec (String.length t) 1) as [E | _]; [congruence|]. reflexivity.
Qed.
Definition align_of (t : string) : ascii :=
  match lower t with String c EmptyString => if Ascii.eqb c "l" || Ascii.eqb c "c" || Ascii.eqb c "r" then c else "l"%char | _ => "r"%char end.
(** ** C127: an alignment is accepted exactly when it is a single character (letters other than l, c and r stand for l) or the
    word 'right'.  The words 'left' and 'center', for which the code has a case, are refused *)
Theorem C127_alignment t s :
  (String.length t = 1 \/ lower t = "right" -> forall o, exists o', set_option num numeric_labels o "alignment" (MStr num t) s = (Some o', s) /\ alignment num o' = align_of t) /\
  (String.length t <> 1 -> lower t <> "right" -> forall m pre post, matrix2latex num show fmt blank numeric_labels m (pre ++ ("alignment", MStr num t) :: post) s = (None, s)).
Proof.
  split.
  - intros H [rl cl al fo ts sf tw tl tn]. assert (E : exists c, align_value num (MStr num t) s = (Some c, s) /\ c = align_of t).
    { unfold align_value, align_of, bindM, char_eq. rewrite lower_length. destruct H as [H | H].
      - rewrite H. destruct (lower t) as [|c [|]] eqn:El; [apply (f_equal String.length) in El; rewrite lower_length in El; cbn in El; lia| |apply (f_equal String.length) in El; rewrite lower_length in El; cbn in El; lia].
        eexists. split; [cbn; reflexivity|reflexivity].
      - assert (L : String.length t = 5) by (rewrite <- lower_length, H; reflexivity). rewrite L, H. eexists. split; [cbn; reflexivity|reflexivity]. }
    destruct E as (c & E & ->). eexists. split; [unfold set_option; cbn [strmatch]; change (strmatch (lower "alignment")) with [3]; cbv iota; unfold bindM; rewrite E; reflexivity|reflexivity].
  - intros H1 H2 m pre post. apply bad_argument. intros [rl cl al fo ts sf tw tl tn] s0. unfold set_option. change (strmatch (lower "alignment")) with [3]. cbv iota. unfold bindM. assert (G := align_refused t s0 H1 H2).
    destruct (align_value num (MStr num t) s0) as [[a|] s1]; [discriminate G|reflexivity].
Qed.
Corollary C127_words_refused m pre post t s : In t ["left"; "center"; "Left"; "CENTER"] -> matrix2latex num show fmt blank numeric_labels m (pre ++ ("alignment", MStr num t) :: post) s = (None, s).
Proof. intros H. apply (proj2 (C127_alignment t s)); cbn in H; repeat (destruct H as [<- | H]; [discriminate|]); destruct H. Qed.

(** ** C127: letters in any case.  Two calls whose option names differ only in the case of letters, and whose alignments and formats
    differ only in the case of letters, write the same file *)
Definition same_arg (a b : string * mval num) : Prop :=
  lower (fst a) = lower (fst b) /\
  (snd a = snd b \/
   exists t u, snd a = MStr num t /\ snd b = MStr num u /\ lower t = lower u /\ (candidates (fst a) = ["alignment"] \/ candidates (fst a) = ["format"])).
Lemma strmatch_candidates name : map (fun k => nth (k - 1) okargs "") (strmatch (lower name)) = candidates name.
Proof. unfold strmatch, candidates. unfold okargs. cbn [length seq combine filter snd]. repeat (destruct (prefix _ _); cbn [map fst]; f_equal); reflexivity. Qed.
Lemma same_option a b o s : same_arg a b -> set_option num numeric_labels o (fst a) (snd a) s = set_option num numeric_labels o (fst b) (snd b) s.
Proof.
  destruct a as [n v], b as [n' v']. unfold same_arg. cbn [fst snd]. intros [E [-> | (t & u & -> & -> & L & C)]]; destruct o as [rl cl al fo ts sf tw tl tn]; unfold set_option; rewrite <- E; [reflexivity|].
  rewrite <- strmatch_candidates in C. assert (K : In (strmatch (lower n)) [[3]; [4]]).
  { assert (G : forall k, In k (strmatch (lower n)) -> 1 <= k <= 9).
    { intros k Hk. unfold strmatch in Hk. apply in_map_iff in Hk. destruct Hk as ([k' w] & <- & Hk). apply filter_In in Hk. destruct Hk as [Hk _]. apply in_combine_l, in_seq in Hk. cbn [length okargs] in Hk. cbn [fst]. change (length okargs) with 9 in Hk. lia. }
    destruct (strmatch (lower n)) as [|k [|k2 r]]; cbn [map] in C; try (destruct C; discriminate).
    specialize (G k (or_introl eq_refl)). do 10 (destruct k as [|k]; [try lia; cbn in C; first [left; reflexivity | right; left; reflexivity | destruct C; discriminate]|]). lia. }
  destruct K as [<- | [<- | []]].
  - unfold bindM, align_value. rewrite L. reflexivity.
  - rewrite L. reflexivity.
Qed.
Theorem C127_any_case m args args' s : Forall2 same_arg args args' ->
  matrix2latex num show fmt blank numeric_labels m args s = matrix2latex num show fmt blank numeric_labels m args' s.
Proof.
  intros H. assert (G : forall o s, set_options num numeric_labels o args s = set_options num numeric_labels o args' s).
  { induction H as [|a b l l' E H IH]; intros o s1; [reflexivity|]. destruct a as [n v], b as [n' v']. cbn [set_options]. unfold bindM. assert (X := same_option (n, v) (n', v') o s1 E). cbn [fst snd] in X. rewrite X.
    destruct (set_option num numeric_labels o n' v' s1) as [[o1|] s2]; [apply IH|reflexivity]. }
  unfold matrix2latex. destruct (m_size num m) as [hgt wid]. unfold bindM at 1. rewrite G. reflexivity.
Qed.

Example C127_any_case_case m s :
  matrix2latex num show fmt blank numeric_labels m [("Align", MStr num "RIGHT"); ("FORMAT", MStr num "%6.2F")] s
  = matrix2latex num show fmt blank numeric_labels m [("aLIGN", MStr num "Right"); ("format", MStr num "%6.2f")] s.
Proof.
  apply C127_any_case. apply Forall2_cons; [|apply Forall2_cons; [|apply Forall2_nil]]; (split; [reflexivity|]); right; eexists _, _; (split; [reflexivity|]); (split; [reflexivity|]); (split; [reflexivity|]); [left|right]; reflexivity.
Qed.

(** ** The table of ModMertonSimulation.m, l.237-252, whatever the simulated numbers are *)
Definition sim_rows : list string := ["Agg. Borrower Asset Value"; "Bank Asset Value"; "Bank Market Equity/Market Assets"; "Bank 5Y RN Default Prob."; "Bank Credit Spread (\%)"; " "; "Merton 5Y RN Default Prob."; "Merton Credit Spread (\%)"].
Definition sim_heads : list string := ["Borrower asset value const."; "Borrower asset value $+30\%$"; "Borrower asset value $-30\%$"].
Definition sim_args : list (string * mval num) := [("rowLabels", MCells num sim_rows); ("columnLabels", MCells num sim_heads); ("alignment", MStr num "c"); ("format", MStr num "%6.2f"); ("size", MStr num "footnotesize"); ("specform", MChars num (repeat "   " 9))].
Definition sim_options : options := mkOptions num (Some (MCells num sim_rows)) (Some (MCells num sim_heads)) "c"%char "%6.2f" "footnotesize" (Some (repeat "   " 9)) [] None "".
Lemma plain_list ls : forallb (fun s => negb (existsb (fun c => Ascii.eqb c AMP || Ascii.eqb c LF) (chars s))) ls = true -> Forall plain ls.
Proof.
  intros H. apply Forall_forall. intros t Ht. rewrite forallb_forall in H. specialize (H t Ht). apply negb_true_iff in H.
  split; intros G; assert (X : existsb (fun c => Ascii.eqb c AMP || Ascii.eqb c LF) (chars t) = true) by (apply existsb_exists; eexists; split; [exact G|reflexivity]); congruence.
Qed.
Lemma sim_mark h w : mark_at num sim_options h w = " "%char.
Proof.
  unfold mark_at, sim_options. cbn [specform]. destruct (Nat.lt_ge_cases (h - 1) 9) as [L | L].
  - (replace (nth (h - 1) (repeat "   " 9) "") with "   " by (symmetry; apply (repeat_spec 9), nth_In; rewrite repeat_length; exact L)). destruct (w - 1) as [|[|[|[|]]]]; reflexivity.
  - rewrite (nth_overflow (repeat "   " 9) "") by (rewrite repeat_length; exact L). destruct (w - 1); reflexivity.
Qed.
Theorem C127_simulation_table rows s : length rows = 8 -> (forall row, In row rows -> length row = 3) -> (forall row x, In row rows -> In x row -> blank x = false -> plain (fmt "%6.2f" x)) ->
  exists f, matrix2latex num show fmt blank numeric_labels (Numeric num rows) sim_args s = (Some tt, Some f) /\
    table_rows (chars f) = with_index (fun h row => trim (chars (nth (h - 1) sim_rows "")) :: map (fun x => if blank x then [] else trim (chars (fmt "%6.2f" x))) row) rows /\
    table_heads (chars f) = [[] :: map chars sim_heads] /\ column_letters (chars f) = chars "lccc".
Proof.
  intros H8 H3 HP.
  assert (W : well_formed sim_options rows 3 (Some sim_rows) (Some sim_heads) None).
  { constructor; cbn [sim_options specform rowLabels colLabels topcolLabels textsize format].
    - split; [lia|]. split; [intros ->; discriminate H8|exact H3].
    - intros h w x row E1 E2 _. exists "   ". assert (h < 8) by (rewrite <- H8; apply nth_error_Some; congruence). split; [rewrite (nth_error_nth' _ "") by (rewrite repeat_length; lia); f_equal; apply (repeat_spec 9), nth_In; rewrite repeat_length; lia|].
      cbn [String.length]. rewrite <- (H3 row (nth_error_In _ _ E1)). apply nth_error_Some. congruence.
    - split; [reflexivity|]. split; [rewrite H8; cbn; lia|]. apply plain_list. reflexivity.
    - split; [reflexivity|]. split; [cbn; lia|]. apply plain_list. reflexivity.
    - reflexivity.
    - cbn. intros G. repeat (destruct G as [G | G]; [discriminate G|]). exact G.
    - intros h w x row E1 E2. rewrite sim_mark. unfold shown. destruct (blank x) eqn:B; [split; cbn; intros [G | []]; discriminate G|]. cbn. exact (HP row x (nth_error_In _ _ E1) (nth_error_In _ _ E2) B). }
  assert (O : gets (set_options num numeric_labels (defaults num) sim_args) sim_options) by (intros s'; reflexivity).
  destruct (C127_read_back _ _ _ _ _ _ sim_args s W O) as (f & E1 & E2 & E3 & E4 & _). exists f. split; [exact E1|]. split; [|split; [exact E3|exact E4]].
  rewrite E2. unfold with_index. apply indexed_ext. intros h row _. cbn [stub app]. f_equal. rewrite <- (map_indexed (fun t => trim (chars t))), indexed_combine, map_map.
  assert (G : forall n, map (fun p => trim (chars (shown_at sim_options h (fst p) (snd p)))) (combine (seq n (length row)) row) = map (fun x => if blank x then [] else trim (chars (fmt "%6.2f" x))) row).
  { induction row as [|x row IH]; intros n; [reflexivity|]. cbn [length seq combine map fst snd]. rewrite IH. f_equal. rewrite sim_mark. unfold shown. destruct (blank x); reflexivity. }
  apply G.
Qed.
End Table.

(** ** A concrete table with an additional header: numbers are whole hundredths *)
Definition hundredths (z : Z) : string := (NilEmpty.string_of_int (Z.to_int (z / 100)) ++ "." ++ (if (z mod 100 <? 10)%Z then "0" else "") ++ NilEmpty.string_of_int (Z.to_int (z mod 100)))%string.
Definition case_args : list (string * mval Z) :=
  [("ROWL", MCells Z ["mean"; "(s.e.)"]); ("columnLabels", MCells Z ["$E$"; "$R$"; "$d$"]); ("alignment", MStr Z "R"); ("format", MStr Z "%6.2f"); ("specform", MChars Z ["   "; "ppp"]); ("topwidth", MInts Z [2%Z; 1%Z]); ("topcoll", MCells Z ["Bank"]) ].
Definition case_args2 : list (string * mval Z) :=
  [("ROWL", MCells Z ["mean"; "(s.e.)"]); ("columnLabels", MCells Z ["$E$"; "$R$"; "$d$"]); ("alignment", MStr Z "R"); ("format", MStr Z "%6.2f"); ("specform", MChars Z ["   "; "ppp"]); ("topwidth", MInts Z [2%Z; 1%Z]); ("topcollab", MCells Z ["Bank"; "$\sigma$"]); ("topcollin", MStr Z "_ ")].
Definition case_rows : list (list Z) := [[125; 7; 1000]; [12; -999900; 250]]%Z.
Definition written (r : option unit * option string) : text := match r with (Some _, Some f) => chars f | _ => [] end.
Example C127_case :
  let run args := matrix2latex Z hundredths (fun _ => hundredths) (Z.eqb (-999900)) (map hundredths) (Numeric Z case_rows) args None in
  run case_args = (None, None) (* 'topcoll' could be 'topcollabels' or 'topcollines' *) /\
  table_rows (written (run case_args2)) = [[chars "mean"; chars "1.25"; chars "0.07"; chars "10.00"]; [chars "(s.e.)"; chars "(0.12)"; []; chars "(2.50)"]] /\
  table_heads (written (run case_args2)) = [[]  :: map chars ["$E$"; "$R$"; "$d$"]] /\ column_letters (written (run case_args2)) = chars "lrrr" /\
  top_spans (written (run case_args2)) = [(1, []); (2, chars "Bank"); (1, chars "$\sigma$")] /\ top_rules (written (run case_args2)) = chars " \cline{2-3}" ++ [CR] /\
  header_text "$\sigma$" /\ plain "$\sigma$".
Proof. vm_compute. repeat split; try reflexivity; intros H; repeat (destruct H as [H | H]; [discriminate H|]); exact H. Qed.
