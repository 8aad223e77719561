(** * Theorems: the dataset under concurrent access (C118) *)
From Coq Require Import List Bool Arith Lia.
From Verif Require Import Arith Model_datasets Model_threads.
Import ListNotations.

Section T.
Context {table : Type}.
Notation process := (process table).
(** the state a program can be in: any calls, any schedule *)
Definition after (calls : list call) (schedule : list (nat * res table)) : process := execute (imported calls) schedule.
Definition outcome (s : process) (i : nat) : option (place table) := nth_error (snd s) i.
Definition count (f : place table -> bool) (l : list (place table)) : nat := length (filter f l).
Definition reading (p : place table) : bool := match p with AtRead => true | _ => false end.
Definition storing (p : place table) : bool := match p with AtStore _ => true | _ => false end.

Lemma nth_set_same i p (l : list (place table)) q : nth_error l i = Some q -> nth_error (set_nth i p l) i = Some p.
Proof. revert i. induction l as [|x l IH]; intros [|i]; cbn; try discriminate; auto. Qed.
Lemma nth_set_other i j p (l : list (place table)) : i <> j -> nth_error (set_nth i p l) j = nth_error l j.
Proof.
  revert i j. induction l as [|x l IH]; intros i j H; [destruct i; reflexivity|].
  destruct i as [|i], j as [|j]; cbn; auto. congruence.
Qed.
Lemma length_set i p (l : list (place table)) : length (set_nth i p l) = length l.
Proof. revert i. induction l as [|x l IH]; intros [|i]; cbn; auto. Qed.
Lemma in_set i p (l : list (place table)) q : In q (set_nth i p l) -> q = p \/ In q l.
Proof. revert i. induction l as [|x l IH]; intros [|i]; cbn; auto; intros [H|H]; auto. destruct (IH _ H); auto. Qed.
Lemma count_set f i p (l : list (place table)) q : nth_error l i = Some q ->
  count f (set_nth i p l) + Nat.b2n (f q) = count f l + Nat.b2n (f p).
Proof.
  unfold count. revert i. induction l as [|x l IH]; intros [|i]; cbn [nth_error set_nth]; try discriminate.
  - intros [= ->]. cbn [filter]. destruct (f p), (f q); cbn [length Nat.b2n]; lia.
  - intros H. specialize (IH i H). cbn [filter]. destruct (f x); cbn [length]; lia.
Qed.
Lemma execute_app (s : process) a b : execute s (a ++ b) = execute (execute s a) b.
Proof. apply fold_left_app. Qed.
Lemma execute_cons (s : process) c b : execute s (c :: b) = execute (process_step s c) b.
Proof. reflexivity. Qed.
(** induction over executions *)
Lemma execute_inv (P : process -> Prop) : forall sch s, P s ->
  (forall s c, In c sch -> P s -> P (process_step s c)) -> P (execute s sch).
Proof.
  induction sch as [|c sch IH]; intros s H0 Hs; [exact H0|]. rewrite execute_cons. apply IH.
  - apply Hs; [left; auto|auto].
  - intros s' c' Hin. apply Hs. right; auto.
Qed.
(** every place is one of those its call can be in; tables come from the schedule; a thread about to return finds a table *)
Definition came (sch : list (nat * res table)) (t : table) : Prop := exists i, In (i, Ok t) sch.
Definition sound (sch : list (nat * res table)) (s : process) : Prop :=
  registered (fst s) = Some 0 /\ fresh (fst s) = 1 /\
  (forall t, attribute (fst s) = Some t -> came sch t) /\
  (forall i p, nth_error (snd s) i = Some p ->
     match p with
     | AtStore t => In (i, Ok t) sch
     | AtReturn => attribute (fst s) <> None
     | Returned None => False
     | Returned (Some t) => came sch t /\ attribute (fst s) <> None
     | Raised e => In (i, Err e) sch
     | AtCreate | AtRegister _ => False
     | Constructed a => a = Some 0
     | _ => True
     end).
Lemma step_sound sch s c : In c sch -> sound sch s -> sound sch (process_step s c).
Proof.
  intros Hin (H1 & H2 & H3 & H4). destruct s as [sh l], c as [i f]. unfold process_step. cbn [fst snd] in *.
  destruct (nth_error l i) as [p|] eqn:E; [|exact (conj H1 (conj H2 (conj H3 H4)))].
  pose proof (H4 i p E) as Hp.
  assert (K : forall sh' p',
    registered sh' = Some 0 -> fresh sh' = 1 -> (forall t, attribute sh' = Some t -> came sch t) ->
    (attribute sh <> None -> attribute sh' <> None) ->
    match p' with
     | AtStore t => In (i, Ok t) sch
     | AtReturn => attribute sh' <> None
     | Returned None => False
     | Returned (Some t) => came sch t /\ attribute sh' <> None
     | Raised e => In (i, Err e) sch
     | AtCreate | AtRegister _ => False
     | Constructed a => a = Some 0
     | _ => True
     end -> sound sch (sh', set_nth i p' l)).
  { intros sh' p' A1 A2 A3 A4 A5. split; [exact A1|]. split; [exact A2|]. split; [exact A3|]. cbn [fst snd].
    intros j q Hq. destruct (Nat.eq_dec i j) as [<-|Hne].
    - rewrite (nth_set_same i p' l p E) in Hq. injection Hq as <-. exact A5.
    - rewrite nth_set_other in Hq by auto. specialize (H4 j q Hq). destruct q as [| | | |[t|]| | | | | |]; auto.
      destruct H4; auto. }
  destruct p as [| |t| |[t|]|e| | |a| |a]; cbn [thread_step]; cbn [registered fresh attribute] in *.
  - apply K; auto. destruct (attribute sh) eqn:Ea; cbn; auto. discriminate.
  - apply K; auto. destruct f as [t|e]; auto.
  - apply K; auto; cbn [attribute]; try discriminate. intros t' [= <-]. exists i. auto.
  - apply K; auto. destruct (attribute sh) as [t|] eqn:Ea; [split; [auto|discriminate]|congruence].
  - apply K; auto.
  - contradiction.
  - apply K; auto.
  - apply K; auto. rewrite H1. exact I.
  - contradiction.
  - contradiction.
  - apply K; auto.
  - apply K; auto.
Qed.
Lemma imported_places calls i p : nth_error (snd (imported calls)) i = Some p -> @AtCheck table = p \/ AtLookup = p.
Proof.
  unfold imported. cbn [snd]. rewrite nth_error_map. destruct (nth_error calls i) as [[|]|]; cbn; intros H; inversion H; auto.
Qed.
Lemma after_sound calls sch : sound sch (after calls sch).
Proof.
  unfold after. apply execute_inv.
  - split; [reflexivity|]. split; [reflexivity|]. split; [discriminate|]. intros i p H. destruct (imported_places _ _ _ H) as [<-|<-]; exact I.
  - intros s c Hin. apply step_sound, Hin.
Qed.
(** C118: no access ever returns None; what it returns is a table that some access read from the file *)
Theorem C118_returns_a_table : forall calls sch i r, outcome (after calls sch) i = Some (Returned r) ->
  exists t j, r = Some t /\ In (j, Ok t) sch.
Proof.
  intros calls sch i r H. destruct (after_sound calls sch) as (_ & _ & _ & K). specialize (K i _ H). cbn in K.
  destruct r as [t|]; [|contradiction]. destruct K as [[j Hj] _]. eauto.
Qed.
(** an access that fails fails with the error of its own read, never with another thread's *)
Theorem C118_own_error : forall calls sch i e, outcome (after calls sch) i = Some (Raised e) -> In (i, Err e) sch.
Proof. intros calls sch i e H. destruct (after_sound calls sch) as (_ & _ & _ & K). exact (K i _ H). Qed.
(** every construction, in any thread, returns the object made at import *)
Theorem C118_single_instance : forall calls sch i a, outcome (after calls sch) i = Some (Constructed a) -> a = Some 0.
Proof. intros calls sch i a H. destruct (after_sound calls sch) as (_ & _ & _ & K). exact (K i _ H). Qed.
(** and no second object is ever made *)
Theorem C118_no_second_object : forall calls sch, fresh (fst (after calls sch)) = 1.
Proof. intros calls sch. apply (after_sound calls sch). Qed.

(** an access can still come to read: it has not passed its check, or it is at its read *)
Definition may_read (p : place table) : bool := match p with AtCheck | AtRead => true | _ => false end.
Lemma reads_step s c : reads (fst (process_step s c)) + count may_read (snd (process_step s c)) <= reads (fst s) + count may_read (snd s).
Proof.
  destruct s as [sh l], c as [i f]. unfold process_step. cbn [fst snd]. destruct (nth_error l i) as [p|] eqn:E; [|apply le_n].
  destruct (thread_step sh p f) as [sh' p'] eqn:T. cbn [fst snd]. pose proof (count_set may_read i p' l p E) as C.
  destruct p as [| |t| |r|e| | |a| |a]; cbn [thread_step] in T; injection T as <- <-; cbn [reads may_read Nat.b2n] in *; try lia.
  - destruct (attribute sh); cbn [may_read Nat.b2n] in C; lia.
  - destruct f; cbn [may_read Nat.b2n] in C; lia.
  - destruct (registered sh); cbn [may_read Nat.b2n] in C; lia.
Qed.
Definition access_count (calls : list call) : nat := length (filter (fun c => match c with CallAccess => true | _ => false end) calls).
(** C118: the file is read at most once per access *)
Theorem C118_reads_at_most_accesses : forall calls sch, reads (fst (after calls sch)) <= access_count calls.
Proof.
  intros calls sch. unfold after.
  assert (H : reads (fst (execute (imported calls) sch)) + count may_read (snd (execute (imported calls) sch)) <= @access_count calls).
  { apply execute_inv with (P := fun s => reads (fst s) + count may_read (snd s) <= access_count calls).
    - unfold imported. cbn [fst snd reads]. unfold count, access_count. clear sch. induction calls as [|c cs IH]; [cbn; lia|]. destruct c; cbn [map filter start_of may_read length]; lia.
    - intros s c _ Hs. pose proof (reads_step s c). lia. }
  lia.
Qed.
(** once the table is there it stays (it may be replaced by the table of an access that was already reading) *)
Lemma attribute_step (s : process) c : attribute (fst s) <> None -> attribute (fst (process_step s c)) <> None.
Proof.
  destruct s as [sh l], c as [i f]. unfold process_step. cbn [fst snd]. destruct (nth_error l i) as [p|]; [|auto].
  intros H. destruct p as [| |t| |r|e| | |a| |a]; cbn; auto. discriminate.
Qed.
(** C118: once a table is stored, only the accesses that were already past their check can still read:
    whatever happens later, the file is read at most once more for each of those *)
Theorem C118_reads_after_store : forall (s : process) sch, attribute (fst s) <> None ->
  reads (fst (execute s sch)) + count reading (snd (execute s sch)) <= reads (fst s) + count reading (snd s).
Proof.
  intros s sch Ha. revert s Ha. induction sch as [|c sch IH]; intros s Ha; [apply le_n|]. rewrite execute_cons.
  specialize (IH (process_step s c) (attribute_step s c Ha)).
  enough (reads (fst (process_step s c)) + count reading (snd (process_step s c)) <= reads (fst s) + count reading (snd s)) by lia.
  clear IH. destruct s as [sh l], c as [i f]. unfold process_step. cbn [fst snd] in *. destruct (nth_error l i) as [p|] eqn:E; [|apply le_n].
  destruct (thread_step sh p f) as [sh' p'] eqn:T. cbn [fst snd]. pose proof (count_set reading i p' l p E) as C.
  destruct p as [| |t| |r|e| | |a| |a]; cbn [thread_step] in T; injection T as <- <-; cbn [reads reading Nat.b2n] in *; try lia.
  - destruct (attribute sh); [|congruence]. cbn [reading Nat.b2n] in C. lia.
  - destruct f; cbn [reading Nat.b2n] in C; lia.
  - destruct (registered sh); cbn [reading Nat.b2n] in C; lia.
Qed.
(** C118: once a table is stored and no access is between its check and its store, the dataset is settled:
    whatever the threads do from there, the file is not read again and every access that returns, returns that table *)
Definition settled (t : table) (s : process) : Prop :=
  attribute (fst s) = Some t /\ forall p, In p (snd s) -> reading p = false /\ storing p = false.
Lemma settled_step t s c : settled t s -> settled t (process_step s c) /\ reads (fst (process_step s c)) = reads (fst s).
Proof.
  intros [Ha Hp]. destruct s as [sh l], c as [i f]. unfold process_step. cbn [fst snd] in *.
  destruct (nth_error l i) as [p|] eqn:E; [|split; [split|]; auto]. pose proof (Hp p (nth_error_In _ _ E)) as [R S].
  assert (K : forall p', reading p' = false -> storing p' = false -> forall q, In q (set_nth i p' l) -> reading q = false /\ storing q = false).
  { intros p' A B q Hq. apply in_set in Hq. destruct Hq as [-> |Hq]; auto. }
  destruct p as [| |t'| |r|e| | |a| |a]; cbn [thread_step]; try discriminate; (split; [split; [exact Ha|apply K]|reflexivity]); cbn [fst snd]; auto.
  - rewrite Ha. reflexivity.
  - rewrite Ha. reflexivity.
  - destruct (registered sh); reflexivity.
  - destruct (registered sh); reflexivity.
Qed.
Theorem C118_settled : forall t (s : process) sch, settled t s ->
  reads (fst (execute s sch)) = reads (fst s) /\ settled t (execute s sch) /\
  (forall i r, outcome (execute s sch) i = Some (Returned r) -> outcome s i = Some (Returned r) \/ r = Some t) /\
  (forall i e, outcome (execute s sch) i = Some (Raised e) -> outcome s i = Some (Raised e)).
Proof.
  intros t s sch Hs. revert s Hs. induction sch as [|c sch IH]; intros s Hs; [cbn; auto|]. rewrite execute_cons.
  destruct (settled_step t s c Hs) as [Hs' Hr]. destruct (IH _ Hs') as (I1 & I2 & I3 & I4).
  split; [congruence|]. split; [exact I2|].
  assert (O : forall i q, outcome (process_step s c) i = Some q ->
     outcome s i = Some q \/ (exists p, outcome s i = Some p /\ q = snd (thread_step (fst s) p (snd c)))).
  { intros i q. destruct s as [sh l], c as [k f]. unfold process_step, outcome. cbn [fst snd].
    destruct (nth_error l k) as [p|] eqn:E; [|auto]. destruct (thread_step sh p f) as [sh' p'] eqn:T. cbn [snd].
    destruct (Nat.eq_dec k i) as [<- |Hne]; [|rewrite nth_set_other by auto; auto].
    rewrite (nth_set_same k p' l p E). intros [= <-]. right. exists p. rewrite T. auto. }
  destruct Hs as [Ha Hp]. split.
  - intros i r H. destruct (I3 i r H) as [H'| ->]; [|auto]. destruct (O i _ H') as [H2|(p & H2 & H3)]; [auto|].
    destruct p as [| |t'| |r'|e| | |a| |a]; cbn [thread_step snd] in H3; try discriminate.
    + rewrite Ha in H3. discriminate.
    + destruct (snd c); discriminate.
    + injection H3 as ->. auto.
    + injection H3 as ->. auto.
    + destruct (registered (fst s)); discriminate.
  - intros i e H. specialize (I4 i e H). destruct (O i _ I4) as [H2|(p & H2 & H3)]; [auto|].
    destruct p as [| |t'| |r'|e'| | |a| |a]; cbn [thread_step snd] in H3; try discriminate.
    + rewrite Ha in H3. discriminate.
    + destruct (Hp AtRead (nth_error_In _ _ H2)) as [X _]. discriminate X.
    + injection H3 as ->. auto.
    + destruct (registered (fst s)); discriminate.
Qed.
(** the first access run alone, in any program, settles the dataset when its read succeeds *)
Theorem C118_first_access_alone_settles : forall calls i f1 f3 f4 t, nth_error calls i = Some CallAccess ->
  settled t (after calls [(i, f1); (i, Ok t); (i, f3); (i, f4)]).
Proof.
  intros calls i f1 f3 f4 t H.
  assert (S2 : forall q p (l : list (place table)), set_nth i p (set_nth i q l) = set_nth i p l).
  { clear. intros q p l. revert i. induction l as [|x l IH]; intros [|i]; cbn; auto. f_equal. auto. }
  assert (E0 : nth_error (map (start_of table) calls) i = Some AtCheck) by (rewrite nth_error_map, H; reflexivity).
  unfold after, execute, imported. cbn [fold_left].
  unfold process_step at 4. cbn [fst snd]. rewrite E0. cbn [thread_step attribute].
  unfold process_step at 3. cbn [fst snd]. rewrite (nth_set_same i _ _ _ E0). cbn [thread_step attribute registered fresh reads]. rewrite S2.
  unfold process_step at 2. cbn [fst snd]. rewrite (nth_set_same i _ _ _ E0). cbn [thread_step attribute registered fresh reads]. rewrite S2.
  unfold process_step at 1. cbn [fst snd]. rewrite (nth_set_same i _ _ _ E0). cbn [thread_step attribute registered fresh reads]. rewrite S2.
  split; [reflexivity|]. cbn [fst snd]. intros p Hp. apply in_set in Hp. destruct Hp as [-> |Hp]; [auto|].
  apply in_map_iff in Hp. destruct Hp as ([|] & <- & _); auto.
Qed.
(** an uninterrupted access does what the one-thread model of C65 says: same answer, same cache, same number of reads *)
Definition world_of (s : shared table) : world table := mkWorld (registered s) (fresh s) (attribute s) (reads s).
Theorem C118_uninterrupted : forall (s : process) i f1 file f3 f4,
  outcome s i = Some AtCheck -> let s' := execute s [(i, f1); (i, file); (i, f3); (i, f4)] in
  world_of (fst s') = fst (stocks_us table (world_of (fst s)) file) /\
  outcome s' i = Some (match snd (stocks_us table (world_of (fst s)) file) with Ok t => Returned (Some t) | Err e => Raised e end).
Proof.
  intros [sh l] i f1 file f3 f4 H. unfold outcome in *. cbn [fst snd] in *.
  assert (S2 : forall q p (l : list (place table)), set_nth i p (set_nth i q l) = set_nth i p l).
  { clear. intros q p l. revert i. induction l as [|x l IH]; intros [|i]; cbn; auto. f_equal. auto. }
  pose proof (fun p => nth_set_same i p l _ H) as N.
  unfold execute. cbn [fold_left]. destruct sh as [rg fr at' rd].
  unfold process_step at 4 8. cbn [fst snd]. rewrite H. cbn [thread_step attribute registered fresh reads].
  destruct at' as [t|].
  - unfold process_step at 3 6. cbn [fst snd]. rewrite N. cbn [thread_step attribute registered fresh reads]. rewrite S2.
    unfold process_step at 2 4. cbn [fst snd]. rewrite N. cbn [thread_step attribute registered fresh reads]. rewrite S2.
    unfold process_step at 1 2. cbn [fst snd]. rewrite N. cbn [thread_step attribute registered fresh reads fst snd]. rewrite S2, N.
    split; reflexivity.
  - unfold process_step at 3 6. cbn [fst snd]. rewrite N. cbn [thread_step attribute registered fresh reads]. rewrite S2.
    unfold process_step at 2 4. cbn [fst snd]. rewrite N. destruct file as [t|e]; cbn [thread_step attribute registered fresh reads]; rewrite S2.
    + unfold process_step at 1 2. cbn [fst snd]. rewrite N. cbn [thread_step attribute registered fresh reads fst snd]. rewrite S2, N. split; reflexivity.
    + unfold process_step at 1 2. cbn [fst snd]. rewrite N. cbn [thread_step attribute registered fresh reads fst snd]. rewrite S2, N. split; reflexivity.
Qed.
End T.
(** "the file is read once and everybody gets the same table" is false of overlapping first accesses: two accesses both
    read, and return two different tables; even a later reader can get a table other than the first one returned *)
Theorem C118_one_read_refuted : forall (table : Type) (t u : table), t <> u ->
  exists sch, let s := after [CallAccess; CallAccess; CallAccess] sch in
    reads (fst s) = 2 /\ outcome s 0 = Some (Returned (Some t)) /\ outcome s 1 = Some (Returned (Some u)) /\ outcome s 2 = Some (Returned (Some u)).
Proof.
  intros table t u H. exists [(0, Ok t); (1, Ok t); (0, Ok t); (1, Ok u); (0, Ok t); (0, Ok t); (1, Ok t); (1, Ok t); (2, Ok t); (2, Ok t)].
  repeat split; reflexivity.
Qed.
(** even the access that stored its own table can return another's *)
Theorem C118_own_table_refuted : forall (table : Type) (t u : table), t <> u ->
  exists sch, In (0, Ok t) sch /\ let s := after [CallAccess; CallAccess] sch in
    outcome s 0 = Some (Returned (Some u)) /\ outcome s 1 = Some (Returned (Some u)).
Proof.
  intros table t u H. exists [(0, Err FileError); (1, Err FileError); (0, Ok t); (1, Ok u); (0, Err FileError); (1, Err FileError); (0, Err FileError); (1, Err FileError)].
  split; [right; right; left; reflexivity|]. split; reflexivity.
Qed.
(** non-vacuity: three accesses and a construction interleaved; one of the accesses fails, the dataset then settles *)
Example C118_case :
  let s := after [CallAccess; CallAccess; CallConstruct; CallAccess]
    [(0, Ok 0); (1, Ok 0); (2, Ok 0); (0, Err FileError); (1, Ok 7); (2, Ok 0); (1, Ok 0); (3, Ok 0); (1, Ok 0); (3, Ok 0)] in
  outcome s 0 = Some (Raised FileError) /\ outcome s 1 = Some (Returned (Some 7)) /\ outcome s 2 = Some (Constructed (Some 0)) /\
  outcome s 3 = Some (Returned (Some 7)) /\ reads (fst s) = 2 /\ settled 7 s.
Proof.
  cbn zeta. do 5 (split; [reflexivity|]). split; [reflexivity|]. cbn. intros p [<-|[<-|[<-|[<-|[]]]]]; auto.
Qed.
