(** * C75: which modules can be imported, in every import order *)
From Coq Require Import List Bool String Arith NArith Lia.
From Verif Require Import Arith Model_imports.
Import ListNotations.

(** ** Specification *)
(** unconditional imports of a module: its package and the imports of its body outside try *)
Inductive requires (m : modname) : modname -> Prop :=
  | req_parent p : parent m = Some p -> requires m p
  | req_import t : In (Import t) (body m) -> requires m t
  | req_from t names : In (From t names) (body m) -> requires m t.
Inductive requires_missing (b : built) (m : modname) : Prop :=
  | miss_self : file_exists b m = false -> requires_missing b m
  | miss_dep t : requires m t -> requires_missing b t -> requires_missing b m.

(** ** Sets of loaded modules *)
(** the names a fully initialised module has *)
Definition names_of (b : built) (m : modname) : list string :=
  flat_map (fun st => match st with From _ ns => ns | Try (From _ ns) => if b_measures b then ns else [] | Define n => [n] | _ => [] end) (body m).
Definition missing (b : built) (m : modname) : bool :=
  negb (file_exists b m) ||
  match m with
  | isolation_forest | iforest_ext => negb (b_iforest b)
  | find_face_value_indiv | merton_solution | mod_merton_computation | mod_merton_create_lookup | mod_merton_simulation
  | mod_single_cohort_computation | mod_single_cohort_solution | mod_single_merton_create_lookup => true
  | _ => false
  end.
Definition deps (m : modname) : list modname :=
  match parent m with Some p => [p] | None => [] end ++ flat_map (fun st => match st with Import t | From t _ => [t] | _ => [] end) (body m).
Definition all_built : list built := flat_map (fun x => flat_map (fun y => map (fun z => Build_built x y z) [true; false]) [true; false]) [true; false].
Lemma all_built_complete b : In b all_built.
Proof. destruct b as [[] [] []]; cbn; auto 10. Qed.
Lemma all_modules_complete m : In m all_modules.
Proof. destruct m; cbn; auto 50. Qed.
Lemma requires_deps m t : requires m t -> In t (deps m).
Proof.
  intros H. unfold deps. apply in_or_app. destruct H as [p E|t H|t ns H]; [left; rewrite E; left; auto| |]; right; apply in_flat_map; eexists; (split; [exact H|left; reflexivity]).
Qed.
Lemma deps_requires m t : In t (deps m) -> requires m t.
Proof.
  intros H. unfold deps in H. apply in_app_or in H as [H|H].
  - destruct (parent m) eqn:E; [|destruct H]. destruct H as [<-|[]]. apply req_parent; auto.
  - apply in_flat_map in H as (st & H1 & H2). destruct st; try contradiction; destruct H2 as [<-|[]]; [apply req_import|eapply req_from]; eauto.
Qed.
Lemma missing_closed : forallb (fun b => forallb (fun m => implb (negb (missing b m)) (file_exists b m && forallb (fun t => negb (missing b t)) (deps m))) all_modules) all_built = true.
Proof. vm_compute. reflexivity. Qed.
Lemma missing_sound b m : requires_missing b m -> missing b m = true.
Proof.
  intros H. induction H as [m H|m t HR H IH].
  - unfold missing. rewrite H. reflexivity.
  - destruct (missing b m) eqn:E; [reflexivity|]. assert (C := missing_closed). rewrite forallb_forall in C. specialize (C b (all_built_complete b)). rewrite forallb_forall in C.
    specialize (C m (all_modules_complete m)). rewrite E in C. cbn [negb implb] in C. apply andb_true_iff in C as (_ & C). rewrite forallb_forall in C. specialize (C t (requires_deps m t HR)).
    rewrite IH in C. discriminate.
Qed.
Lemma missing_complete b m : missing b m = true -> requires_missing b m.
Proof.
  assert (OP : requires_missing b option_price) by (apply miss_self; reflexivity).
  assert (D : forall x t, In t (deps x) -> requires_missing b t -> requires_missing b x) by (intros x t H; apply miss_dep, deps_requires, H).
  assert (FF : requires_missing b find_face_value_indiv) by (apply (D _ option_price); [cbn; auto|auto]).
  assert (MS : requires_missing b merton_solution) by (apply (D _ option_price); [cbn; auto|auto]).
  assert (MC : requires_missing b mod_merton_computation) by (apply (D _ find_face_value_indiv); [cbn; auto|auto]).
  assert (SC : requires_missing b mod_single_cohort_computation) by (apply (D _ find_face_value_indiv); [cbn; auto|auto]).
  intros H. unfold missing in H. apply orb_true_iff in H as [H|H]; [apply miss_self, negb_true_iff, H|].
  destruct m; try discriminate; auto.
  - apply (D _ iforest_ext); [cbn; auto|]. apply miss_self. apply negb_true_iff, H.
  - apply miss_self. apply negb_true_iff, H.
  - apply (D _ mod_merton_computation); [cbn; auto|auto].
  - apply (D _ option_price); [cbn; auto|auto].
  - apply (D _ mod_single_cohort_computation); [cbn; auto|auto].
  - apply (D _ mod_single_cohort_computation); [cbn; auto|auto].
Qed.

(** ** All states a session can be in *)
Fixpoint names_eqb (a b : list string) : bool := match a, b with [], [] => true | x :: a', y :: b' => String.eqb x y && names_eqb a' b' | _, _ => false end.
Lemma names_eqb_eq a b : names_eqb a b = true -> a = b.
Proof. revert b. induction a as [|x a IH]; intros [|y b] H; try discriminate; [reflexivity|]. cbn [names_eqb] in H. apply andb_true_iff in H as (H1 & H2). apply String.eqb_eq in H1. f_equal; auto. Qed.
Definition ns_eqb (a b : option (list string)) : bool :=
  match a, b with
  | None, None => true
  | Some x, Some y => names_eqb x y
  | _, _ => false
  end.
Fixpoint state_eqb (a b : interp) : bool := match a, b with [], [] => true | x :: a', y :: b' => ns_eqb x y && state_eqb a' b' | _, _ => false end.
Lemma state_eqb_eq a b : state_eqb a b = true -> a = b.
Proof.
  revert b. induction a as [|x a IH]; intros [|y b] H; try discriminate; [reflexivity|]. cbn [state_eqb] in H. apply andb_true_iff in H as (H1 & H2). f_equal; [|auto].
  destruct x, y; try discriminate; [|reflexivity]. cbn [ns_eqb] in H1. f_equal. apply names_eqb_eq, H1.
Qed.
(** a set of modules (a bit mask over [all_modules]) as a state in which exactly these modules are loaded, fully initialised *)
Fixpoint decode_from (b : built) (l : list modname) (c : N) : interp :=
  match l with [] => [] | m :: l' => (if N.odd c then Some (names_of b m) else None) :: decode_from b l' (N.div2 c) end.
Definition decode (b : built) (c : N) : interp := decode_from b all_modules c.
Fixpoint encode (s : interp) : N := match s with [] => 0%N | x :: s' => (match x with Some _ => 1 | None => 0 end + 2 * encode s')%N end.
Definition expected (b : built) (m : modname) : option exn := if missing b m then Some ModuleNotFoundError else None.
Definition same_result (a c : option exn) : bool := match a, c with None, None => true | Some ModuleNotFoundError, Some ModuleNotFoundError => true | _, _ => false end.
(** all sets of loaded modules a session can reach *)
Fixpoint explore (b : built) (fuel : nat) (seen frontier : list N) : list N :=
  match fuel with
  | O => seen
  | S f =>
      let add '(sn, fr) c := if existsb (N.eqb c) sn then (sn, fr) else (c :: sn, c :: fr) in
      let '(seen', new) := fold_left (fun acc c => fold_left (fun acc m => add acc (encode (fst (import_module b 100 (decode b c) m)))) all_modules acc) frontier (seen, []) in
      match new with [] => seen' | _ => explore b f seen' new end
  end.
Definition reachable (b : built) : list N := explore b 50 [0%N] [0%N].
Definition closed (b : built) (R : list N) : bool :=
  forallb (fun c => forallb (fun m =>
    let '(s, r) := import_module b 100 (decode b c) m in
    let c' := encode s in
    state_eqb s (decode b c') && existsb (N.eqb c') R && same_result r (expected b m)) all_modules) R.
Lemma all_closed : forallb (fun b => closed b (reachable b)) all_built = true.
Proof. vm_compute. reflexivity. Qed.
Lemma zero_reachable : forallb (fun b => existsb (N.eqb 0) (reachable b) && state_eqb fresh (decode b 0)) all_built = true.
Proof. vm_compute. reflexivity. Qed.
Lemma loaded_not_missing : forallb (fun b => forallb (fun c => forallb (fun m => match lookup (decode b c) m with Some _ => negb (missing b m) | None => true end) all_modules) (reachable b)) all_built = true.
Proof. vm_compute. reflexivity. Qed.
Opaque import_module reachable.
Lemma step_reachable b c m : In c (reachable b) ->
  exists c', fst (import_module b 100 (decode b c) m) = decode b c' /\ In c' (reachable b) /\ snd (import_module b 100 (decode b c) m) = expected b m.
Proof.
  intros HC. assert (H := all_closed). rewrite forallb_forall in H. specialize (H b (all_built_complete b)). unfold closed in H. rewrite forallb_forall in H. specialize (H c HC).
  rewrite forallb_forall in H. specialize (H m (all_modules_complete m)). destruct (import_module b 100 (decode b c) m) as (s & r). cbn [fst snd].
  apply andb_true_iff in H as (H & H3). apply andb_true_iff in H as (H1 & H2). exists (encode s). repeat split.
  - apply state_eqb_eq, H1.
  - apply existsb_exists in H2 as (x & Hx & E). apply N.eqb_eq in E. congruence.
  - unfold same_result in H3. destruct r as [[]|], (expected b m) as [[]|]; try discriminate; reflexivity.
Qed.
Lemma session_reachable b history : exists c, session b history = decode b c /\ In c (reachable b).
Proof.
  unfold session. rewrite <- fold_left_rev_right. induction (rev history) as [|m l IH]; cbn [fold_right].
  - assert (H := zero_reachable). rewrite forallb_forall in H. specialize (H b (all_built_complete b)). apply andb_true_iff in H as (H1 & H2). exists 0%N. split; [apply state_eqb_eq, H2|].
    apply existsb_exists in H1 as (x & Hx & E). apply N.eqb_eq in E. congruence.
  - destruct IH as (c & E & HC). destruct (step_reachable b c m HC) as (c' & E1 & H1 & _). exists c'. rewrite E. auto.
Qed.

(** ** C75: after every history of import attempts, importing a module fails with ModuleNotFoundError exactly when it transitively
    requires a module that does not exist, and succeeds otherwise; circular imports never get in the way *)
Theorem C75_every_history : forall b history m,
  (requires_missing b m -> snd (import_module b 100 (session b history) m) = Some ModuleNotFoundError) /\
  (~ requires_missing b m -> snd (import_module b 100 (session b history) m) = None).
Proof.
  intros b history m. destruct (session_reachable b history) as (c & E & HC). destruct (step_reachable b c m HC) as (_ & _ & _ & ER). rewrite E, ER. unfold expected. split.
  - intros H. rewrite (missing_sound b m H). reflexivity.
  - intros H. destruct (missing b m) eqn:EM; [|reflexivity]. destruct H. apply missing_complete, EM.
Qed.
(** the eight broken modules, whatever has been built *)
Corollary C75_broken : forall b history m,
  In m [find_face_value_indiv; merton_solution; mod_merton_computation; mod_merton_create_lookup; mod_merton_simulation; mod_single_cohort_computation; mod_single_cohort_solution; mod_single_merton_create_lookup] ->
  snd (import_module b 100 (session b history) m) = Some ModuleNotFoundError.
Proof. intros b history m H. apply C75_every_history, missing_complete. unfold missing. destruct (file_exists b m); cbn [negb orb]; [|reflexivity]. cbn in H. repeat (destruct H as [<-|H]; [reflexivity|]). destruct H. Qed.
(** the packages load, whatever has been built and tried before; the isolation forest needs its extension *)
Corollary C75_packages : forall b history,
  (forall m, In m [frds; algorithms; datasets; measures; modified_merton; spread; price_impact; lob_slope; fftsmooth; loan_payoff] -> snd (import_module b 100 (session b history) m) = None) /\
  (snd (import_module b 100 (session b history) isolation_forest) = None <-> b_iforest b = true).
Proof.
  intros b history. assert (G : forall m, missing b m = false -> snd (import_module b 100 (session b history) m) = None).
  { intros m H. apply C75_every_history. intros HM. apply missing_sound in HM. congruence. }
  split.
  - intros m H. apply G. cbn in H. repeat (destruct H as [<-|H]; [reflexivity|]). destruct H.
  - split.
    + intros H. destruct (b_iforest b) eqn:E; [reflexivity|]. assert (HM : missing b isolation_forest = true) by (unfold missing; rewrite E; reflexivity).
      rewrite (proj1 (C75_every_history b history isolation_forest) (missing_complete b _ HM)) in H. discriminate.
    + intros E. apply G. unfold missing. rewrite E. reflexivity.
Qed.
(** a failed import leaves nothing half-initialised behind: every module present after a session has all its names *)
Theorem C75_no_partial_modules : forall b history m ns, lookup (session b history) m = Some ns -> ns = names_of b m /\ ~ requires_missing b m.
Proof.
  assert (G := loaded_not_missing).
  intros b history m ns H. destruct (session_reachable b history) as (c & E & HC). rewrite E in H. rewrite forallb_forall in G. specialize (G b (all_built_complete b)). rewrite forallb_forall in G. specialize (G c HC).
  rewrite forallb_forall in G. specialize (G m (all_modules_complete m)). rewrite H in G. split.
  - unfold lookup, decode in H. assert (D : forall l c i, nth i (decode_from b l c) None = None \/ exists m', nth_error l i = Some m' /\ nth i (decode_from b l c) None = Some (names_of b m')).
    { clear. induction l as [|x l IH]; intros c i; [left; destruct i; reflexivity|]. cbn [decode_from]. destruct i as [|i]; [|apply IH]. cbn. destruct (N.odd c); [right; eauto|left; auto]. }
    destruct (D all_modules c (position m)) as [D1|(m' & D1 & D2)]; [congruence|]. assert (m' = m) by (destruct m; cbn in D1; congruence). subst. congruence.
  - intros HM. apply missing_sound in HM. rewrite HM in G. discriminate.
Qed.
(** a non-trivial history: a failed import first, then one that succeeds and one that fails again *)
Transparent import_module reachable.
Example C75_case : let b := Build_built false false false in
  snd (import_module b 100 (session b [mod_merton_computation; isolation_forest; measures]) fftsmooth) = None /\
  lookup (session b [mod_merton_computation]) fftsmooth = Some ["fftsmooth"%string] /\ lookup (session b [mod_merton_computation]) mod_merton_computation = None /\
  requires_missing b mod_merton_simulation /\ ~ requires_missing b measures.
Proof.
  cbv zeta. repeat split; try (vm_compute; reflexivity); [apply missing_complete; reflexivity|]. intros H. apply missing_sound in H. discriminate.
Qed.
