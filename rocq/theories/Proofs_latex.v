(** * Proofs about matrix2latex_Stefan.m: texts, the writer, reading back *)
From Coq Require Import Ascii String DecimalString Decimal DecimalNat.
From Coq Require Import ZArith List Bool Arith Lia.
From Verif Require Import Model_latex Spec_latex.
Import ListNotations.
Local Open Scope string_scope.
Local Open Scope nat_scope.
Local Open Scope list_scope.

(** ** Texts *)
Lemma chars_app a b : chars (a ++ b)%string = chars a ++ chars b.
Proof. induction a as [|c a IH]; [reflexivity|]. cbn. f_equal. exact IH. Qed.
Lemma str_assoc a b c : ((a ++ b) ++ c)%string = (a ++ (b ++ c))%string.
Proof. induction a as [|x a IH]; [reflexivity|]. cbn. f_equal. exact IH. Qed.
Lemma str_nil a : (a ++ "")%string = a.
Proof. induction a as [|x a IH]; [reflexivity|]. cbn. f_equal. exact IH. Qed.
Lemma split_none c l : ~ In c l -> split c l = [l].
Proof.
  induction l as [|x l IH]; intros H; [reflexivity|]. cbn [split]. destruct (Ascii.eqb_spec x c) as [-> | N]; [exfalso; apply H; left; reflexivity|].
  rewrite IH by (intros G; apply H; right; exact G). reflexivity.
Qed.
Lemma split_app c a l : ~ In c a -> split c (a ++ c :: l) = a :: split c l.
Proof.
  induction a as [|x a IH]; intros H; cbn [app split]; [rewrite Ascii.eqb_refl; reflexivity|].
  destruct (Ascii.eqb_spec x c) as [-> | N]; [exfalso; apply H; left; reflexivity|]. rewrite IH by (intros G; apply H; right; exact G). reflexivity.
Qed.
Lemma split_nonempty c l : split c l <> [].
Proof. destruct l as [|x l]; cbn; [discriminate|]. destruct (Ascii.eqb x c); [discriminate|]. destruct (split c l); discriminate. Qed.
Lemma split_last c a l : ~ In c l -> last (split c (a ++ c :: l)) [] = l.
Proof.
  intros H. induction a as [|x a IH]; cbn [app split].
  - rewrite Ascii.eqb_refl, (split_none c l H). reflexivity.
  - destruct (Ascii.eqb x c).
    + destruct (split c (a ++ c :: l)) eqn:E; [|exact IH]. destruct a; cbn in E; [rewrite Ascii.eqb_refl in E; discriminate|]. destruct (Ascii.eqb a c); [discriminate|]. destruct (split c (a0 ++ c :: l)); discriminate.
    + assert (L : 2 <= length (split c (a ++ c :: l))).
      { clear IH. induction a as [|y a IHa]; cbn [app split]; [rewrite Ascii.eqb_refl; cbn; destruct (split c l) eqn:E; cbn; [|lia]; destruct l; cbn in E; [discriminate|]; destruct (Ascii.eqb a c); [discriminate|]; destruct (split c l); discriminate|].
        destruct (Ascii.eqb y c); [cbn; lia|]. destruct (split c (a ++ c :: l)); cbn in *; lia. }
      destruct (split c (a ++ c :: l)) as [|p [|q ps]]; cbn in L; try lia. exact IH.
Qed.
Lemma drop_blanks_app_blank l : drop_blanks (l ++ [SPC]) = match drop_blanks l with [] => [] | d => d ++ [SPC] end.
Proof. induction l as [|x l IH]; [reflexivity|]. cbn [app drop_blanks]. destruct (Ascii.eqb x SPC); [exact IH|reflexivity]. Qed.
Lemma trim_right l : trim (l ++ [SPC]) = trim l.
Proof. unfold trim. rewrite drop_blanks_app_blank. destruct (drop_blanks l) as [|x d]; [reflexivity|]. rewrite rev_app_distr. reflexivity. Qed.
Lemma trim_left l : trim (SPC :: l) = trim l. Proof. reflexivity. Qed.
Lemma drop_blanks_head l x d : drop_blanks l = x :: d -> x <> SPC.
Proof. induction l as [|y l IH]; [discriminate|]. cbn. destruct (Ascii.eqb_spec y SPC) as [E | N]; [exact IH|]. intros E. injection E as <- _. exact N. Qed.
Lemma drop_blanks_id l : (forall x d, l = x :: d -> x <> SPC) -> drop_blanks l = l.
Proof. destruct l as [|x d]; [reflexivity|]. intros H. cbn. destruct (Ascii.eqb_spec x SPC) as [E | N]; [exfalso; exact (H x d eq_refl E)|reflexivity]. Qed.
Lemma trim_idem l : trim (trim l) = trim l.
Proof.
  unfold trim. set (a := drop_blanks l). set (b := drop_blanks (rev a)).
  assert (HB : drop_blanks (rev b) = rev b).
  { apply drop_blanks_id. intros x d E S. subst x.
    (* rev b is a beginning of a *)
    assert (P : exists z, a = rev b ++ z).
    { unfold b. exists (rev (firstn (length (rev a) - length (drop_blanks (rev a))) (rev a))).
      rewrite <- rev_app_distr. assert (G : forall m, firstn (length m - length (drop_blanks m)) m ++ drop_blanks m = m).
      { induction m as [|y m IH]; [reflexivity|]. cbn [drop_blanks]. destruct (Ascii.eqb y SPC).
        - assert (LD : length (drop_blanks m) <= length m) by (clear; induction m as [|y m IH]; cbn; [lia|]; destruct (Ascii.eqb y SPC); cbn; lia).
          cbn [length]. rewrite Nat.sub_succ_l by lia. cbn [firstn app]. f_equal. exact IH.
        - rewrite Nat.sub_diag. reflexivity. }
      rewrite G. symmetry. apply rev_involutive. }
    destruct P as [z Pz]. rewrite E in Pz. cbn in Pz. exact (drop_blanks_head l SPC _ Pz eq_refl). }
  rewrite HB. rewrite rev_involutive. f_equal. unfold b at 2. apply drop_blanks_id. intros x d E. intros ->. exact (drop_blanks_head (rev a) SPC d E eq_refl).
Qed.
Lemma without_app a e : without e (a ++ e) = Some a.
Proof.
  unfold without. rewrite app_length. replace (length a + length e - length e) with (length a) by lia. rewrite skipn_app, Nat.sub_diag, skipn_all. cbn [app skipn].
  destruct (list_eq_dec ascii_dec e e); [|congruence]. rewrite firstn_app, Nat.sub_diag, firstn_all. cbn. rewrite app_nil_r. reflexivity.
Qed.
Lemma without_other a e e' : length e' <= length e -> skipn (length e - length e') e <> e' -> without e' (a ++ e) = None.
Proof.
  intros L N. unfold without. rewrite app_length. destruct (list_eq_dec ascii_dec _ e') as [E | _]; [exfalso; apply N|reflexivity].
  rewrite skipn_app in E. rewrite (skipn_all2 a) in E by lia. cbn [app] in E. rewrite <- E at 2. f_equal. lia.
Qed.
Lemma without_short e l : length l < length e -> without e l = None.
Proof. intros H. unfold without. destruct (list_eq_dec ascii_dec _ e) as [E | _]; [|reflexivity]. exfalso. apply (f_equal (@length _)) in E. rewrite skipn_length in E. lia. Qed.

(** ** The writer *)
Definition writes (m : M unit) (t : string) : Prop := forall w, m (Some w) = (Some tt, Some (w ++ t)%string).
Definition gets {X} (m : M X) (x : X) : Prop := forall s, m s = (Some x, s).
Lemma writes_put t : writes (put t) t. Proof. intros w. reflexivity. Qed.
Lemma writes_bind (m : M unit) (k : unit -> M unit) a b : writes m a -> writes (k tt) b -> writes (bindM m k) (a ++ b)%string.
Proof. intros Hm Hk w. unfold bindM. rewrite Hm, Hk, str_assoc. reflexivity. Qed.
Lemma gets_bind {X} (m : M X) (k : X -> M unit) x b : gets m x -> writes (k x) b -> writes (bindM m k) b.
Proof. intros Hm Hk w. unfold bindM. rewrite Hm. apply Hk. Qed.
Lemma gets_gets {X Y} (m : M X) (k : X -> M Y) x y : gets m x -> gets (k x) y -> gets (bindM m k) y.
Proof. intros Hm Hk w. unfold bindM. rewrite Hm. apply Hk. Qed.
Lemma gets_ret {X} (x : X) : gets (ret x) x. Proof. intros s. reflexivity. Qed.
Lemma writes_ret : writes (ret tt) "". Proof. intros w. cbn. rewrite str_nil. reflexivity. Qed.
Lemma writes_when b m t : writes m t -> writes (when b m) (if b then t else "")%string.
Proof. intros H. destruct b; [exact H|exact writes_ret]. Qed.
Fixpoint join {X} (f : X -> string) (l : list X) : string := match l with [] => "" | x :: l' => (f x ++ join f l')%string end.
Lemma writes_each {X} (l : list X) (f : X -> M unit) g : (forall x, In x l -> writes (f x) (g x)) -> writes (each l f) (join g l).
Proof.
  induction l as [|x l IH]; intros H; [exact writes_ret|]. cbn [each join]. apply writes_bind; [apply H; left; reflexivity|apply IH; intros y Hy; apply H; right; exact Hy].
Qed.
Lemma at1_nth {X} (l : list X) i d : 1 <= i <= length l -> gets (at1 l i) (nth (i - 1) l d).
Proof.
  intros H s. destruct i as [|j]; [lia|]. cbn [at1]. replace (S j - 1) with j by lia. rewrite (nth_error_nth' l d) by lia. reflexivity.
Qed.

(** ** Rows *)
Fixpoint row_line (cs : list string) : string := match cs with [] => "" | [c] => c | c :: cs' => (c ++ " &" ++ row_line cs')%string end.
Lemma join_map {X Y} (f : Y -> string) (g : X -> Y) l : join f (map g l) = join (fun x => f (g x)) l.
Proof. induction l as [|x l IH]; [reflexivity|]. cbn. f_equal. exact IH. Qed.
Lemma join_ext {X} (f g : X -> string) l : (forall x, In x l -> f x = g x) -> join f l = join g l.
Proof. induction l as [|x l IH]; intros H; [reflexivity|]. cbn. rewrite (H x (or_introl eq_refl)), IH; [reflexivity|]. intros; apply H; right; assumption. Qed.
Lemma row_line_join row : row <> [] -> (join (fun w => nth (w - 1) row "" ++ " &") (seq 1 (length row - 1)) ++ nth (length row - 1) row "")%string = row_line row.
Proof.
  induction row as [|c [|c' row] IH]; intros H; [congruence|reflexivity|]. specialize (IH ltac:(discriminate)).
  replace (length (c :: c' :: row) - 1) with (S (length (c' :: row) - 1)) by (cbn; lia). cbn [seq join]. rewrite <- seq_shift, join_map.
  change (nth (1 - 1) (c :: c' :: row) "") with c. cbn [nth].
  rewrite (join_ext _ (fun w : nat => (nth (w - 1) (c' :: row) "" ++ " &")%string)).
  - change (row_line (c :: c' :: row)) with (c ++ " &" ++ row_line (c' :: row))%string. rewrite <- IH, !str_assoc. reflexivity.
  - intros w Hw. apply in_seq in Hw. f_equal. replace (S w - 1) with (S (w - 1)) by lia. reflexivity.
Qed.
Lemma row_line_no_LF cs : Forall plain cs -> ~ In LF (chars (row_line cs)).
Proof.
  induction 1 as [|c [|c' cs] [H1 H2] HF IH]; [intros []|exact H2|]. change (row_line (c :: c' :: cs)) with (c ++ " &" ++ row_line (c' :: cs))%string. rewrite !chars_app. intros H.
  apply in_app_or in H as [H | H]; [exact (H2 H)|]. apply in_app_or in H as [[H | [H | []]] | H]; [discriminate H|discriminate H|exact (IH H)].
Qed.
Lemma cells_row_line cs : cs <> [] -> Forall plain cs -> cells (chars (row_line cs)) = map (fun c => trim (chars c)) cs.
Proof.
  intros NE HF. unfold cells. induction HF as [|c [|c' cs] [H1 H2] HF IH]; [congruence| |].
  - cbn [row_line map]. rewrite split_none by exact H1. reflexivity.
  - specialize (IH ltac:(discriminate)). change (row_line (c :: c' :: cs)) with (c ++ " &" ++ row_line (c' :: cs))%string. rewrite !chars_app.
    replace (chars c ++ chars " &" ++ chars (row_line (c' :: cs))) with ((chars c ++ [SPC]) ++ AMP :: chars (row_line (c' :: cs))) by (rewrite <- app_assoc; reflexivity).
    rewrite split_app by (intros H; apply in_app_or in H as [H | [H | []]]; [exact (H1 H)|discriminate H]). cbn [map]. rewrite trim_right. f_equal. exact IH.
Qed.
Lemma cells_after_blank l : cells (SPC :: l) = cells l.
Proof. unfold cells. cbn [split]. change (Ascii.eqb SPC AMP) with false. cbv iota. destruct (split AMP l) as [|p ps] eqn:E; [exfalso; exact (split_nonempty AMP l E)|reflexivity]. Qed.
Lemma cells_head l : cells (AMP :: SPC :: l) = [] :: cells l.
Proof. unfold cells at 1. cbn [split]. change (Ascii.eqb AMP AMP) with true. cbv iota. cbn [map]. f_equal. apply cells_after_blank. Qed.

(** ** Lines *)
Definition file_of (lines : list text) (tail : text) : text := flat_map (fun l => l ++ [CR; LF]) lines ++ tail.
Lemma split_file lines tail : Forall (fun l => ~ In LF l) lines -> ~ In LF tail -> split LF (file_of lines tail) = map (fun l => l ++ [CR]) lines ++ [tail].
Proof.
  intros HF HT. induction HF as [|l ls Hl HF IH]; [apply split_none; exact HT|]. unfold file_of in *. cbn [flat_map map app]. rewrite <- app_assoc.
  replace ((l ++ [CR; LF]) ++ flat_map (fun l0 => l0 ++ [CR; LF]) ls ++ tail) with ((l ++ [CR]) ++ LF :: flat_map (fun l0 => l0 ++ [CR; LF]) ls ++ tail) by (rewrite <- !app_assoc; reflexivity).
  rewrite split_app by (intros H; apply in_app_or in H as [H | [H | []]]; [exact (Hl H)|discriminate H]). f_equal. exact IH.
Qed.
Lemma without_differs a x e y : x <> y -> without (e ++ [y; CR]) (a ++ [x; CR]) = None.
Proof.
  intros N. unfold without. destruct (list_eq_dec ascii_dec _ (e ++ [y; CR])) as [E | _]; [|reflexivity]. exfalso. apply N.
  set (n := length (a ++ [x; CR]) - length (e ++ [y; CR])) in E. assert (E2 := f_equal (@rev _) E). rewrite <- (firstn_skipn n (a ++ [x; CR])) in *. 
  assert (E3 : rev (a ++ [x; CR]) = rev (skipn n (a ++ [x; CR])) ++ rev (firstn n (a ++ [x; CR]))) by (rewrite <- rev_app_distr, firstn_skipn; reflexivity).
  rewrite (firstn_skipn n) in E2. rewrite E2 in E3. rewrite !rev_app_distr in E3. cbn in E3. injection E3 as E3 _. exact E3.
Qed.
Lemma keep_app {X Y} (f : X -> option Y) a b : keep f (a ++ b) = keep f a ++ keep f b.
Proof. unfold keep. apply flat_map_app. Qed.
Lemma keep_none {X Y} (f : X -> option Y) l : (forall x, In x l -> f x = None) -> keep f l = [].
Proof. induction l as [|x l IH]; intros H; [reflexivity|]. unfold keep in *. cbn. rewrite (H x (or_introl eq_refl)). apply IH. intros; apply H; right; assumption. Qed.
Lemma keep_all {X Y} (f : X -> option Y) (g : X -> Y) l : (forall x, In x l -> f x = Some (g x)) -> keep f l = map g l.
Proof. induction l as [|x l IH]; intros H; [reflexivity|]. unfold keep in *. cbn. rewrite (H x (or_introl eq_refl)). cbn. f_equal. apply IH. intros; apply H; right; assumption. Qed.

(** ** The additional header *)
Definition top_cell (w : nat) (l : string) (is_last : bool) : string :=
  if w =? 1 then (if is_last then l ++ " " else l ++ "& ")%string
  else ("\multicolumn{" ++ int2str w ++ "}{c}" ++ (if is_last then "{" ++ l ++ "} " else "{" ++ l ++ "} & "))%string.
Fixpoint top_text (ws : list nat) (ls : list string) : string :=
  match ws, ls with
  | w :: ws', l :: ls' => (top_cell w l (match ws' with [] => true | _ => false end) ++ top_text ws' ls')%string
  | _, _ => ""
  end.
Fixpoint total (ws : list nat) : nat := match ws with [] => 0 | w :: ws' => w + total ws' end.
Lemma total_pos ws : Forall (le 1) ws -> ws <> [] -> 1 <= total ws.
Proof. intros H N. destruct H; [congruence|]. cbn. lia. Qed.

Section Runs.
Context (num : Type) (show : num -> string) (fmt : string -> num -> string) (blank : num -> bool) (numeric_labels : list num -> list string).
Notation options := (options num).

Lemma writes_eq m a b : writes m a -> a = b -> writes m b. Proof. intros H <-. exact H. Qed.
Lemma label_gets (v : option (mval num)) ls i : v = Some (MCells num ls) -> 1 <= i <= length ls -> gets (label num v i) (nth (i - 1) ls "").
Proof. intros -> H. cbn [label]. apply at1_nth. exact H. Qed.

(** a header cell over w >= 2 columns is written when its last column is reached *)
Lemma top_multi (o : options) ls width n count t w l : topcolLabels num o = Some (MCells num ls) -> 1 <= count <= length ls -> nth (count - 1) ls "" = l ->
  gets (at1 (topwidth num o) count) (Z.of_nat w) -> 2 <= w ->
  forall d j tw, j + d = w -> 1 <= j -> (tw + d <= width) ->
  writes (top_labels num o width (tw + S d) n (S count) 1) t ->
  writes (top_labels num o width tw (S d + n) count j) (top_cell w l (tw + d =? width)%nat ++ t)%string.
Proof.
  intros HL HC HN HW W2. induction d as [|d IH]; intros j tw Hj J1 Htw Ht.
  - cbn [Nat.add top_labels]. eapply gets_bind; [exact HW|]. destruct (Z.eqb_spec (Z.of_nat w) 1) as [E | _]; [lia|]. destruct (Z.eqb_spec (Z.of_nat j) (Z.of_nat w)) as [_ | N]; [|lia].
    replace j with w by lia. unfold top_cell. destruct (Nat.eqb_spec w 1) as [E | _]; [lia|].
    rewrite Nat.add_0_r. replace (tw + 1) with (S tw) in Ht by lia.
    eapply writes_eq; [apply writes_bind; [apply writes_put|]; eapply gets_bind; [apply (label_gets _ ls); [exact HL|exact HC]|]; rewrite HN; apply writes_bind; [apply writes_put|exact Ht]|].
    rewrite !str_assoc. reflexivity.
  - cbn [Nat.add top_labels]. eapply gets_bind; [exact HW|]. destruct (Z.eqb_spec (Z.of_nat w) 1) as [E | _]; [lia|]. destruct (Z.eqb_spec (Z.of_nat j) (Z.of_nat w)) as [E | _]; [lia|].
    replace (tw + S d =? width) with (S tw + d =? width) by (f_equal; lia). change (S (d + n)) with (S d + n). apply IH; [lia|lia|lia|]. replace (S tw + S d) with (tw + S (S d)) by lia. exact Ht.
Qed.
Lemma top_labels_run (o : options) pre ws prel ls width : topwidth num o = map Z.of_nat (pre ++ ws) -> topcolLabels num o = Some (MCells num (prel ++ ls)) -> length prel = length pre ->
  length ws <= length ls -> Forall (le 1) ws -> forall tw, tw + total ws = width + 1 -> writes (top_labels num o width tw (total ws) (length pre + 1) 1) (top_text ws ls).
Proof.
  revert pre prel ls. induction ws as [|w ws IH]; intros pre prel ls HW HL HP HE HF tw HT; [exact writes_ret|].
  destruct ls as [|l ls]; [cbn in HE; lia|]. cbn [total top_text]. inversion HF as [|w' ws' Hw HF']; subst w' ws'. cbn [length] in HE. cbn [total] in HT.
  assert (G : gets (at1 (topwidth num o) (length pre + 1)) (Z.of_nat w)).
  { rewrite HW. assert (E := @at1_nth Z (map Z.of_nat (pre ++ w :: ws)) (length pre + 1) 0%Z). replace (nth (length pre + 1 - 1) (map Z.of_nat (pre ++ w :: ws)) 0%Z) with (Z.of_nat w) in E.
    - apply E. rewrite map_length, app_length. cbn. lia.
    - replace (length pre + 1 - 1) with (length pre) by lia. rewrite map_app, app_nth2 by (rewrite map_length; lia). rewrite map_length, Nat.sub_diag. reflexivity. }
  assert (EL : nth (length pre + 1 - 1) (prel ++ l :: ls) "" = l) by (replace (length pre + 1 - 1) with (length prel) by lia; apply nth_middle).
  assert (LL : 1 <= length pre + 1 <= length (prel ++ l :: ls)) by (rewrite app_length; cbn; lia).
  assert (R : forall tw', tw' = tw + w -> writes (top_labels num o width tw' (total ws) (S (length pre + 1)) 1) (top_text ws ls)).
  { intros tw' ->. assert (Q := IH (pre ++ [w]) (prel ++ [l]) ls). rewrite <- !app_assoc in Q. cbn [app] in Q. specialize (Q HW HL). rewrite !app_length in Q. cbn [length] in Q. replace (S (length pre + 1)) with (length pre + 1 + 1) by lia. apply Q; [lia|lia|exact HF'|lia]. }
  assert (LASTB : (tw + (w - 1) =? width) = match ws with [] => true | _ => false end).
  { destruct ws as [|w2 ws2]; [apply Nat.eqb_eq; cbn in HT; lia|]. apply Nat.eqb_neq. inversion HF' as [|? ? Q _]; subst. cbn in HT. lia. }
  destruct (Nat.eq_dec w 1) as [-> | N].
  - cbn [Nat.add top_labels]. eapply gets_bind; [exact G|]. change (Z.of_nat 1 =? 1)%Z with true. cbv iota. eapply gets_bind; [apply (label_gets _ (prel ++ l :: ls)); [exact HL|exact LL]|].
    rewrite EL. unfold top_cell. cbn [Nat.eqb]. replace (tw + (1 - 1)) with tw in LASTB by lia. rewrite LASTB.
    apply writes_bind; [apply writes_put|]. apply R. lia.
  - rewrite <- LASTB. replace w with (S (w - 1)) at 1 by lia. apply (top_multi o (prel ++ l :: ls) width (total ws) (length pre + 1) (top_text ws ls) w l HL LL EL G ltac:(lia) (w - 1) 1 tw); [lia|lia|lia|]. apply R. lia.
Qed.
(** the rules *)
Definition rule_cell (from w : nat) (c : ascii) : string := if Ascii.eqb c "_"%char then ("\cline{" ++ int2str from ++ "-" ++ int2str (from + w - 1) ++ "}")%string else "".
Lemma char1_gets s i c : 1 <= i -> String.get (i - 1) s = Some c -> gets (char1 s i) c.
Proof. intros H E st. destruct i as [|j]; [lia|]. cbn [char1]. replace (S j - 1) with j in E by lia. rewrite E. reflexivity. Qed.
Lemma top_rule (o : options) shift n count t w c : gets (char1 (topcolLines num o) count) c -> gets (at1 (topwidth num o) count) (Z.of_nat w) -> 2 <= w ->
  forall d j tw, j + d = w -> 1 <= j -> j <= tw ->
  writes (top_lines num o shift (tw + S d) n (S count) 1) t ->
  writes (top_lines num o shift tw (S d + n) count j) (rule_cell (tw + 1 - j + shift) w c ++ t)%string.
Proof.
  intros HC HW W2. induction d as [|d IH]; intros j tw Hj J1 Jt Ht.
  - cbn [Nat.add top_lines]. eapply gets_bind; [exact HW|]. destruct (Z.eqb_spec (Z.of_nat w) 1) as [E | _]; [lia|]. destruct (Z.eqb_spec (Z.of_nat j) (Z.of_nat w)) as [_ | N]; [|lia].
    eapply gets_bind; [exact HC|]. replace (tw + 1) with (S tw) in Ht by lia. unfold rule_cell.
    replace (tw - j + 1 + shift) with (tw + 1 - j + shift) by lia. replace (tw + 1 - j + shift + w - 1) with (tw + shift) by lia.
    apply writes_bind; [apply writes_when, writes_put|exact Ht].
  - cbn [Nat.add top_lines]. eapply gets_bind; [exact HW|]. destruct (Z.eqb_spec (Z.of_nat w) 1) as [E | _]; [lia|]. destruct (Z.eqb_spec (Z.of_nat j) (Z.of_nat w)) as [E | _]; [lia|].
    replace (tw + 1 - j + shift) with (S tw + 1 - S j + shift) by lia. refine (IH (S j) (S tw) _ _ _ _); [lia|lia|lia|]. replace (S tw + S d) with (tw + S (S d)) by lia. exact Ht.
Qed.
Fixpoint rules_text (from : nat) (ws : list nat) (marks : text) : string :=
  match ws, marks with w :: ws', c :: marks' => (rule_cell from w c ++ rules_text (from + w) ws' marks')%string | _, _ => "" end.
Lemma get_chars s : forall i, String.get i s = nth_error (chars s) i.
Proof. induction s as [|c s IH]; intros [|i]; try reflexivity. cbn. apply IH. Qed.
Lemma top_lines_run (o : options) shift : forall ws pre premarks marks, topwidth num o = map Z.of_nat (pre ++ ws) -> chars (topcolLines num o) = premarks ++ marks -> length premarks = length pre ->
  length ws <= length marks -> Forall (le 1) ws -> forall tw, 1 <= tw -> writes (top_lines num o shift tw (total ws) (length pre + 1) 1) (rules_text (tw + shift) ws marks).
Proof.
  induction ws as [|w ws IH]; intros pre premarks marks HW HM HP HE HF tw Htw; [exact writes_ret|].
  destruct marks as [|c marks]; [cbn in HE; lia|]. cbn [total rules_text]. inversion HF as [|w' ws' Hw HF']; subst w' ws'. cbn [length] in HE.
  assert (G : gets (at1 (topwidth num o) (length pre + 1)) (Z.of_nat w)).
  { rewrite HW. assert (E := @at1_nth Z (map Z.of_nat (pre ++ w :: ws)) (length pre + 1) 0%Z). replace (nth (length pre + 1 - 1) (map Z.of_nat (pre ++ w :: ws)) 0%Z) with (Z.of_nat w) in E.
    - apply E. rewrite map_length, app_length. cbn. lia.
    - replace (length pre + 1 - 1) with (length pre) by lia. rewrite map_app, app_nth2 by (rewrite map_length; lia). rewrite map_length, Nat.sub_diag. reflexivity. }
  assert (GC : gets (char1 (topcolLines num o) (length pre + 1)) c).
  { apply char1_gets; [lia|]. rewrite get_chars, HM. replace (length pre + 1 - 1) with (length premarks) by lia. rewrite nth_error_app2 by lia. rewrite Nat.sub_diag. reflexivity. }
  assert (R : forall tw', tw' = tw + w -> writes (top_lines num o shift tw' (total ws) (S (length pre + 1)) 1) (rules_text (tw + shift + w) ws marks)).
  { intros tw' ->. assert (Q := IH (pre ++ [w]) (premarks ++ [c]) marks). rewrite <- !app_assoc in Q. cbn [app] in Q. specialize (Q HW HM). rewrite !app_length in Q. cbn [length] in Q.
    replace (S (length pre + 1)) with (length pre + 1 + 1) by lia. replace (tw + shift + w) with (tw + w + shift) by lia. apply Q; [lia|lia|exact HF'|lia]. }
  destruct (Nat.eq_dec w 1) as [-> | N].
  - cbn [Nat.add top_lines]. eapply gets_bind; [exact G|]. change (Z.of_nat 1 =? 1)%Z with true. cbv iota. eapply gets_bind; [exact GC|].
    unfold rule_cell. replace (tw + shift + 1 - 1) with (tw + shift) by lia. apply writes_bind; [apply writes_when, writes_put|]. apply R. lia.
  - replace w with (S (w - 1)) at 1 by lia. replace (tw + shift) with (tw + 1 - 1 + shift) at 1 by lia. apply (top_rule o shift (total ws) (length pre + 1) _ w c GC G ltac:(lia) (w - 1) 1 tw); [lia|lia|lia|]. apply R. lia.
Qed.
Lemma rules_text_chars ws : forall from marks, chars (rules_text from ws marks) = rules from ws marks.
Proof.
  induction ws as [|w ws IH]; intros from marks; [reflexivity|]. destruct marks as [|c marks]; [reflexivity|]. cbn [rules_text rules]. rewrite chars_app, IH. f_equal. unfold rule_cell. destruct (Ascii.eqb c "_"%char); [|reflexivity].
  rewrite !chars_app. reflexivity.
Qed.
(** ** Rows and the body *)
Lemma nth_firstn_str {X} (l : list X) n i d : i < n -> nth i (firstn n l) d = nth i l d.
Proof. revert n i. induction l as [|x l IH]; intros [|n] [|i] H; try lia; try reflexivity. cbn. apply IH. lia. Qed.
Lemma cells_run (get : nat -> M string) cs n E : cs <> [] -> length cs = n -> (forall i, 1 <= i <= n -> gets (get i) (nth (i - 1) cs "")) ->
  writes (bindM (each (seq 1 (n - 1)) (fun w => bindM (get w) (fun t => put (t ++ " &")%string))) (fun _ => bindM (get n) (fun t => put (t ++ E)%string))) (row_line cs ++ E)%string.
Proof.
  intros NE HL HG. assert (n1 : 1 <= n) by (destruct cs; [congruence|cbn in HL; lia]).
  eapply writes_eq.
  - apply writes_bind.
    + apply (writes_each _ _ (fun w => nth (w - 1) cs "" ++ " &")%string). intros w Hw. apply in_seq in Hw. eapply gets_bind; [apply HG; lia|apply writes_put].
    + eapply gets_bind; [apply HG; lia|apply writes_put].
  - rewrite <- str_assoc. f_equal. rewrite <- HL. apply row_line_join. exact NE.
Qed.
Definition has_rows (o : options) : bool := nonempty num (rowLabels num o).
Lemma head_run (o : options) ls width : colLabels num o = Some (MCells num ls) -> 1 <= width <= length ls ->
  writes (column_header num o width) ((if has_rows o then "& " else "") ++ row_line (firstn width ls) ++ "\\\hline" ++ CRLF)%string.
Proof.
  intros HC HW. unfold column_header. apply writes_bind; [apply writes_when, writes_put|].
  apply (cells_run (label num (colLabels num o)) (firstn width ls) width); [destruct ls, width; cbn in *; try lia; discriminate|rewrite firstn_length; lia|].
  intros i Hi. rewrite nth_firstn_str by lia. apply label_gets; [exact HC|lia].
Qed.
Definition labelled (o : options) (h : nat) (row : list string) : list string :=
  match rowLabels num o with Some (MCells _ ls) => if has_rows o then nth (h - 1) ls "" :: row else row | _ => row end.
(** the row labels, if given, are a cell array that is long enough *)
Definition rows_ok (o : options) (height : nat) : Prop := has_rows o = false \/ exists ls, rowLabels num o = Some (MCells num ls) /\ height <= length ls.
Lemma row_line_cons c cs : cs <> [] -> row_line (c :: cs) = (c ++ " &" ++ row_line cs)%string. Proof. destruct cs; [congruence|reflexivity]. Qed.
Lemma body_run (o : options) width h row height : rows_ok o height -> 1 <= h <= height -> length row = width -> 1 <= width ->
  writes (body_row num o width h row) (row_line (labelled o h row) ++ "\\" ++ CRLF)%string.
Proof.
  intros HR Hh HL HW. unfold body_row, labelled. assert (NE : row <> []) by (destruct row; [cbn in HL; lia|discriminate]).
  assert (C := cells_run (at1 row) row width ("\\" ++ CRLF)%string NE HL ltac:(intros i Hi; apply at1_nth; lia)).
  destruct HR as [HR | (ls & HR & HL2)].
  - unfold has_rows in HR. replace (match rowLabels num o with Some (MCells _ ls) => if has_rows o then nth (h - 1) ls "" :: row else row | _ => row end) with row by (unfold has_rows; rewrite HR; destruct (rowLabels num o) as [[]|]; reflexivity).
    rewrite HR. cbn [when]. eapply writes_eq; [apply writes_bind; [exact writes_ret|exact C]|reflexivity].
  - rewrite HR. unfold has_rows. rewrite HR. destruct ls as [|l0 ls]; [cbn in HL2; lia|]. cbn [nonempty when].
    eapply writes_eq; [apply writes_bind; [eapply gets_bind; [apply (label_gets _ (l0 :: ls)); [reflexivity|lia]|apply writes_put]|exact C]|].
    rewrite row_line_cons by exact NE. rewrite !str_assoc. reflexivity.
Qed.
(** the texts of the cells *)
Definition mark_at (o : options) (h w : nat) : ascii := match specform num o with None => " "%char | Some m => nth (w - 1) (chars (nth (h - 1) m "")) " "%char end.
Definition marked (o : options) (h w : nat) : Prop := match specform num o with None => True | Some m => 1 <= h <= length m /\ 1 <= w <= String.length (nth (h - 1) m "") end.
Lemma chars_length s : length (chars s) = String.length s. Proof. induction s as [|c s IH]; [reflexivity|]. cbn. f_equal. exact IH. Qed.
Lemma spec_at_gets o h w : marked o h w -> gets (spec_at num o h w) (mark_at o h w).
Proof.
  unfold marked, spec_at, mark_at. destruct (specform num o) as [m|]; [|intros _; apply gets_ret]. intros [Hh Hw]. eapply gets_gets; [apply (at1_nth m h ""); lia|].
  apply char1_gets; [lia|]. rewrite get_chars. apply nth_error_nth'. rewrite chars_length. lia.
Qed.
Lemma cell_gets o h w x : (blank x = false -> marked o h w) -> gets (cell_text num show fmt blank o h w x) (shown num show fmt blank (format num o) (mark_at o h w) x).
Proof.
  intros H. unfold cell_text, shown. destruct (blank x); [apply gets_ret|]. eapply gets_gets; [apply spec_at_gets; auto|]. apply gets_ret.
Qed.
Lemma row_gets o h row : forall w, (forall i x, nth_error row i = Some x -> blank x = false -> marked o h (w + i)) ->
  gets (text_row num show fmt blank o h w row) (indexed (fun w x => shown num show fmt blank (format num o) (mark_at o h w) x) w row).
Proof.
  induction row as [|x row IH]; intros w H; [apply gets_ret|]. cbn [text_row indexed]. eapply gets_gets; [apply cell_gets; intros B; specialize (H 0 x eq_refl B); rewrite Nat.add_0_r in H; exact H|].
  eapply gets_gets; [apply IH; intros i y E B; specialize (H (S i) y E B); replace (S w + i) with (w + S i) by lia; exact H|]. apply gets_ret.
Qed.
Definition body_of (o : options) (h : nat) (rows : list (list num)) : list (list string) :=
  indexed (fun h row => indexed (fun w x => shown num show fmt blank (format num o) (mark_at o h w) x) 1 row) h rows.
Lemma rows_gets o rows : forall h, (forall i row j x, nth_error rows i = Some row -> nth_error row j = Some x -> blank x = false -> marked o (h + i) (1 + j)) ->
  gets (text_rows num show fmt blank o h rows) (body_of o h rows).
Proof.
  induction rows as [|row rows IH]; intros h H; [apply gets_ret|]. cbn [text_rows body_of indexed]. eapply gets_gets; [apply row_gets; intros j x E B; specialize (H 0 row j x eq_refl E B); rewrite Nat.add_0_r in H; exact H|].
  eapply gets_gets; [apply IH; intros i r j x E1 E2 B; specialize (H (S i) r j x E1 E2 B); replace (S h + i) with (h + S i) by lia; exact H|]. apply gets_ret.
Qed.
Lemma indexed_length {X Y} (f : nat -> X -> Y) l : forall n, length (indexed f n l) = length l.
Proof. induction l as [|x l IH]; intros n; [reflexivity|]. cbn. f_equal. apply IH. Qed.
Lemma indexed_combine {X Y} (f : nat -> X -> Y) l : forall n, indexed f n l = map (fun p => f (fst p) (snd p)) (combine (seq n (length l)) l).
Proof. induction l as [|x l IH]; intros n; [reflexivity|]. cbn. f_equal. apply IH. Qed.

(** ** The whole file *)
(** the additional header is absent, or its cells cover the columns exactly *)
Definition top_ok (o : options) (width : nat) (ws : list nat) (ls : list string) : Prop :=
  topcolLabels num o = Some (MCells num ls) /\ ls <> [] /\ topwidth num o = map Z.of_nat ws /\ Forall (le 1) ws /\ total ws = width /\ length ws <= length ls /\ length ws <= String.length (topcolLines num o).
Definition shift_of (o : options) : nat := if has_rows o then 1 else 0.
Definition top_part (o : options) (top : option (list nat * list string)) : list text :=
  match top with None => [] | Some (ws, ls) => [chars ((if has_rows o then "& " else "") ++ top_text ws ls ++ "\\ " ++ rules_text (1 + shift_of o) ws (chars (topcolLines num o)))%string] end.
Definition head_part (o : options) (width : nat) (heads : option (list string)) : list text :=
  match heads with None => [] | Some ls => [chars ((if has_rows o then "& " else "") ++ row_line (firstn width ls) ++ "\\\hline")%string] end.
Definition pre_line (o : options) (width : nat) : text :=
  chars ((if negb (String.eqb (textsize num o) "") then "\begin{" ++ textsize num o ++ "}" else "") ++ "\begin{tabular}{" ++ (if has_rows o then "l" else "") ++ repeat_char (alignment num o) width ++ "}")%string.
Definition row_part (o : options) (h : nat) (row : list string) : text := chars (row_line (labelled o h row) ++ "\\")%string.
Definition tail_of (o : options) : text := chars (if negb (String.eqb (textsize num o) "") then "\end{" ++ textsize num o ++ "}" else "")%string.
Definition HL : text := chars "\hline\hline".
Definition all_lines (o : options) (width : nat) top heads (body : list (list string)) : list text :=
  [pre_line o width; HL] ++ top_part o top ++ head_part o width heads ++ with_index (row_part o) body ++ [HL; chars "\end{tabular}"].
Definition top_given (o : options) (width : nat) (top : option (list nat * list string)) : Prop :=
  match top with None => nonempty num (topcolLabels num o) = false | Some (ws, ls) => top_ok o width ws ls end.
Definition heads_given (o : options) (width : nat) (heads : option (list string)) : Prop :=
  match heads with None => nonempty num (colLabels num o) = false | Some ls => colLabels num o = Some (MCells num ls) /\ width <= length ls end.
Lemma join_lines {X} (g : X -> string) (h : X -> text) l : (forall x, chars (g x) = h x ++ [CR; LF]) -> chars (join g l) = flat_map (fun t => t ++ [CR; LF]) (map h l).
Proof. intros H. induction l as [|x l IH]; [reflexivity|]. cbn [join map flat_map]. rewrite chars_app, H, IH. reflexivity. Qed.
Lemma file_cons l ls t : file_of (l :: ls) t = l ++ [CR; LF] ++ file_of ls t.
Proof. unfold file_of. cbn [flat_map]. rewrite <- !app_assoc. reflexivity. Qed.
Lemma file_app a b t : file_of (a ++ b) t = flat_map (fun l => l ++ [CR; LF]) a ++ file_of b t.
Proof. unfold file_of. rewrite flat_map_app, app_assoc. reflexivity. Qed.
Lemma CRLF_chars : chars CRLF = [CR; LF]. Proof. reflexivity. Qed.
Lemma run_all (m : matrix num) args o body width top heads s :
  gets (set_options num numeric_labels (defaults num) args) o -> gets (text_matrix num show fmt blank o m) body -> m_size num m = (length body, width) -> 1 <= width ->
  (forall row, In row body -> length row = width) -> rows_ok o (length body) -> top_given o width top -> heads_given o width heads ->
  exists f, matrix2latex num show fmt blank numeric_labels m args s = (Some tt, Some f) /\ chars f = file_of (all_lines o width top heads body) (tail_of o).
Proof.
  intros HO HB HS HW HLEN HR HT HH. unfold matrix2latex. rewrite HS.
  set (T := match top with None => "" | Some (ws, ls) => ((if has_rows o then "& " else "") ++ top_text ws ls ++ "\\ " ++ rules_text (1 + shift_of o) ws (chars (topcolLines num o)) ++ CRLF)%string end).
  set (H := match heads with None => "" | Some ls => ((if has_rows o then "& " else "") ++ row_line (firstn width ls) ++ "\\\hline" ++ CRLF)%string end).
  set (B := join (fun p : nat * list string => (row_line (labelled o (fst p) (snd p)) ++ "\\" ++ CRLF)%string) (combine (seq 1 (length body)) body)).
  set (SB := (if negb (String.eqb (textsize num o) "") then "\begin{" ++ textsize num o ++ "}" else "")%string).
  set (SE := (if negb (String.eqb (textsize num o) "") then "\end{" ++ textsize num o ++ "}" else "")%string).
  set (full := (SB ++ "\begin{tabular}{" ++ (if has_rows o then "l" else "") ++ repeat_char (alignment num o) width ++ ("}" ++ CRLF) ++ ("\hline\hline" ++ CRLF) ++ T ++ H ++ B ++ ("\hline\hline" ++ CRLF) ++ ("\end{tabular}" ++ CRLF) ++ SE)%string).
  exists full. split.
  - unfold bindM at 1. rewrite HO. unfold bindM at 1. cbn [open_file]. unfold bindM at 1. rewrite HB.
    match goal with |- ?m (Some "") = _ => assert (W : writes m full) end; [|rewrite W; reflexivity].
    unfold full. apply writes_bind; [apply writes_when, writes_put|]. apply writes_bind; [apply writes_put|]. apply writes_bind; [apply writes_when, writes_put|]. apply writes_bind; [apply writes_put|]. apply writes_bind; [apply writes_put|]. apply writes_bind; [apply writes_put|].
    apply writes_bind.
    { destruct top as [[ws ls]|]; cbn [top_given] in HT.
      - destruct HT as (T1 & T2 & T3 & T4 & T5 & T6 & T7). rewrite T1. destruct ls as [|l0 ls]; [congruence|]. cbn [nonempty when]. unfold T.
        apply writes_bind; [apply writes_when, writes_put|]. apply writes_bind; [|apply writes_bind; [apply writes_put|apply writes_bind; [|apply writes_put]]].
        + rewrite <- T5 at 2. apply (top_labels_run o [] ws [] (l0 :: ls)); [exact T3|exact T1|reflexivity|exact T6|exact T4|lia].
        + rewrite <- T5. change (if nonempty num (rowLabels num o) then 1 else 0) with (shift_of o). apply (top_lines_run o (shift_of o) ws [] []); [exact T3|reflexivity|reflexivity|rewrite chars_length; exact T7|exact T4|lia].
      - rewrite HT. exact writes_ret. }
    apply writes_bind.
    { destruct heads as [ls|]; cbn [heads_given] in HH.
      - destruct HH as [H1 H2]. rewrite H1. destruct ls as [|l0 ls]; [cbn in H2; lia|]. cbn [nonempty when]. apply head_run; [exact H1|lia].
      - rewrite HH. exact writes_ret. }
    apply writes_bind; [|apply writes_bind; [apply writes_put|apply writes_bind; [apply writes_put|apply writes_when, writes_put]]].
    apply writes_each. intros (h & row) Hin. cbn [fst snd]. apply (body_run o width h row (length body)); [exact HR| |apply HLEN; exact (in_combine_r _ _ _ _ Hin)|exact HW].
    apply in_combine_l in Hin. apply in_seq in Hin. lia.
  - unfold full, all_lines. rewrite file_app. cbn [flat_map app]. rewrite app_nil_r. unfold pre_line. fold SB. rewrite !chars_app, !CRLF_chars, !file_app.
    assert (ET : chars T = flat_map (fun l => l ++ [CR; LF]) (top_part o top)).
    { unfold T, top_part. destruct top as [[ws ls]|]; [|reflexivity]. cbn [flat_map]. rewrite !chars_app, CRLF_chars, app_nil_r, <- !app_assoc. reflexivity. }
    assert (EH : chars H = flat_map (fun l => l ++ [CR; LF]) (head_part o width heads)).
    { unfold H, head_part. destruct heads as [ls|]; [|reflexivity]. cbn [flat_map]. rewrite !chars_app, CRLF_chars, app_nil_r, <- !app_assoc. reflexivity. }
    assert (EB : chars B = flat_map (fun l => l ++ [CR; LF]) (with_index (row_part o) body)).
    { unfold B, with_index. rewrite indexed_combine. apply join_lines. intros (h & row). cbn [fst snd]. unfold row_part. rewrite !chars_app, CRLF_chars, <- !app_assoc. reflexivity. }
    rewrite ET, EH, EB. unfold file_of. cbn [flat_map]. fold SE. unfold tail_of. fold SE. unfold HL. rewrite <- !app_assoc. cbn [app]. reflexivity.
Qed.
End Runs.
