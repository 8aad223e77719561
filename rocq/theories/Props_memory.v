(** * Properties C90, C91, C92: memory safety of the C++ kernels *)
From Coq Require Import List ZArith Lia Bool Arith Reals Lra.
From Verif Require Import Arith XR Model_garch Model_mgarch Model_lrmes Model_memory.
Import ListNotations.
Local Open Scope nat_scope.

(** ** Buffers *)
Lemma load_ok {X} (b : list X) i d : i < length b -> load b i = Done (nth i b d).
Proof. intros H. unfold load. rewrite (nth_error_nth' b d H). reflexivity. Qed.
Lemma load_ub {X} (b : list X) i : length b <= i -> load b i = UB.
Proof. intros H. unfold load. assert (E : nth_error b i = None) by (apply nth_error_None; auto). rewrite E. reflexivity. Qed.
Lemma load_cases {X} (b : list X) i : load b i = UB \/ exists x, load b i = Done x.
Proof. unfold load. destruct (nth_error b i); eauto. Qed.
Lemma store_ok {X} (b : list X) i x : i < length b -> store b i x = Done (set_cell b i x).
Proof. intros H. unfold store. destruct (Nat.ltb_spec i (length b)); [reflexivity|lia]. Qed.
Lemma store_ub {X} (b : list X) i x : length b <= i -> store b i x = UB.
Proof. intros H. unfold store. destruct (Nat.ltb_spec i (length b)); [lia|reflexivity]. Qed.
Lemma set_cell_length {X} (b : list X) i x : length (set_cell b i x) = length b.
Proof. revert i. induction b as [|y b IH]; intros [|i]; cbn; auto. Qed.
Lemma set_cell_nth {X} (b : list X) i x d j : i < length b -> nth j (set_cell b i x) d = if Nat.eqb j i then x else nth j b d.
Proof.
  revert i j. induction b as [|y b IH]; intros i j H; cbn in H; [lia|]. destruct i, j; cbn; auto. rewrite IH by lia. reflexivity.
Qed.
Lemma set_cell_twice {X} (b : list X) i x y : set_cell (set_cell b i x) i y = set_cell b i y.
Proof. revert i. induction b as [|z b IH]; intros [|i]; cbn; auto. f_equal. auto. Qed.
Lemma firstn_set_cell {X} (b : list X) i x : i < length b -> firstn (S i) (set_cell b i x) = firstn i b ++ [x].
Proof. revert i. induction b as [|y b IH]; intros [|i] H; cbn in *; try lia; auto. f_equal. apply IH. lia. Qed.
Lemma store_length {X} (b b' : list X) i x : store b i x = Done b' -> length b' = length b.
Proof. unfold store. destruct (i <? length b); [|discriminate]. intros H. injection H as <-. apply set_cell_length. Qed.
Lemma list_eq_nth {X} (d : X) l l' : length l = length l' -> (forall i, i < length l -> nth i l d = nth i l' d) -> l = l'.
Proof. intros. apply (nth_ext l l' d d); auto. Qed.

(** a loop that fills a buffer from left to right, each cell from its left neighbour *)
Lemma fill_loop {X} (body : nat -> list X -> run (list X)) (g : nat -> X) T d :
  (forall t s, 1 <= t < T -> length s = T -> nth (t - 1) s d = g (t - 1) -> body t s = Done (set_cell s t (g t))) ->
  forall n t s, t + n = T -> 1 <= t -> length s = T -> firstn t s = map g (seq 0 t) -> for_loop n t body s = Done (map g (seq 0 T)).
Proof.
  intros HB. induction n as [|n IH]; intros t s HT Ht HL HF; cbn [for_loop].
  - assert (t = T) by lia. subst t. rewrite <- HF, <- HL. rewrite firstn_all. reflexivity.
  - rewrite HB; [|lia|auto|].
    + cbn [rbind]. apply IH; [lia|lia|rewrite set_cell_length; auto|]. rewrite firstn_set_cell by lia. rewrite HF, seq_S, map_app. reflexivity.
    + assert (E : nth (t - 1) (firstn t s) d = nth (t - 1) s d).
      { rewrite <- (firstn_skipn t s) at 2. rewrite app_nth1; auto. rewrite firstn_length. lia. }
      rewrite <- E, HF. rewrite (nth_indep _ d (g 0)) by (rewrite map_length, seq_length; lia). rewrite (map_nth g), seq_nth by lia. reflexivity.
Qed.
Lemma loop_ub {S} (P : S -> Prop) (body : nat -> S -> run S) t0 : (forall s, P s -> body t0 s = UB) -> (forall t s s', P s -> body t s = Done s' -> P s') ->
  forall n t s, P s -> t <= t0 < t + n -> for_loop n t body s = UB.
Proof.
  intros H0 HP. induction n as [|n IH]; intros t s Hs Ht; [lia|]. cbn [for_loop]. destruct (Nat.eq_dec t t0) as [->|].
  - rewrite H0 by auto. reflexivity.
  - destruct (body t s) as [s'|] eqn:E; [|reflexivity]. cbn [rbind]. apply IH; [eapply HP; eauto|lia].
Qed.

Section Variance.
Context (A : Arith).
Notation num := (num A).
Implicit Types (junk : nat -> num).
Lemma new_cells_length junk T : length (new_cells A junk T) = T.
Proof. unfold new_cells. rewrite map_length, seq_length. reflexivity. Qed.
Lemma first_cell (l : list num) g0 : 1 <= length l -> firstn 1 (set_cell l 0 g0) = [g0].
Proof. destruct l; cbn; [lia|reflexivity]. Qed.

(** what the kernels may touch: T-1 residuals, the bounds of periods 1..T-1, the parameters *)
Definition enough (n_params T n_resids n_bounds needed : nat) : Prop := 1 <= T /\ needed <= n_params /\ T - 1 <= n_resids /\ (T = 1 \/ 2 * T <= n_bounds).

(** ** C90 *)
Theorem C90_ewma : forall junk (resids : array_arg A) v0 lam d,
  (1 <= a_dim A resids -> a_dim A resids - 1 <= length (a_cells A resids) ->
     ewma_call A junk resids v0 lam = Done (cpp_ewma A (fun i => nth i (a_cells A resids) d) v0 lam (a_dim A resids))) /\
  (a_dim A resids = 0 \/ length (a_cells A resids) < a_dim A resids - 1 -> ewma_call A junk resids v0 lam = UB).
Proof.
  intros junk R v0 lam d. set (T := a_dim A R). set (r := fun i => nth i (a_cells A R) d). unfold ewma_call, ewma_mem. fold T. split.
  - intros HT HR. rewrite store_ok by (rewrite new_cells_length; lia). cbn [rbind]. unfold cpp_ewma.
    apply (fill_loop _ (cpp_ewma_at A r v0 lam) T d); try (rewrite ?set_cell_length, ?new_cells_length; lia).
    + intros t s Ht HL HN. rewrite (load_ok _ (t - 1) d) by lia. cbn [rbind]. rewrite (load_ok s (t - 1) d) by lia. cbn [rbind]. rewrite store_ok by lia.
      rewrite HN. destruct t as [|t]; [lia|]. replace (S t - 1) with t by lia. reflexivity.
    + apply first_cell. rewrite new_cells_length. lia.
  - intros [H|H].
    + rewrite store_ub by (rewrite new_cells_length; lia). reflexivity.
    + destruct (Nat.eq_dec T 0) as [E|E]; [rewrite store_ub by (rewrite new_cells_length; lia); reflexivity|].
      rewrite store_ok by (rewrite new_cells_length; lia). cbn [rbind]. apply (loop_ub (fun _ => True) _ (T - 1)); auto; [|lia].
      intros s _. rewrite load_ub by lia. reflexivity.
Qed.
Ltac ub := repeat match goal with |- context [load ?b ?i] => destruct (load_cases b i) as [->|(? & ->)]; cbn [rbind]; [reflexivity|] end.
Theorem C90_garch : forall junk (params : list num) (resids bounds : array_arg A) bc d, a_ndim A resids = 1 -> a_ndim A bounds = 2 ->
  let ok := enough (length params) (a_dim A resids) (length (a_cells A resids)) (length (a_cells A bounds)) 3 in
  let call := variance_call A (garch_mem A) junk params resids bc bounds in
  (ok -> call = Done (Ok (cpp_garch A (nth 0 params d) (nth 1 params d) (nth 2 params d) bc (fun i => nth i (a_cells A resids) d) (fun i => nth i (a_cells A bounds) d) (a_dim A resids)))) /\
  (~ ok -> call = UB).
Proof.
  intros junk params R B bc d N1 N2 ok call. set (T := a_dim A R) in *. unfold call, variance_call. rewrite N1, N2. cbn [Nat.eqb negb orb]. fold T.
  set (r := fun i => nth i (a_cells A R) d). set (vb := fun i => nth i (a_cells A B) d). unfold garch_mem. split.
  - intros (HT & HP & HR & HB). rewrite (load_ok params 0 d), (load_ok params 1 d), (load_ok params 2 d) by lia. cbn [rbind].
    set (om := nth 0 params d). set (al := nth 1 params d). set (be := nth 2 params d).
    rewrite store_ok by (rewrite new_cells_length; lia). cbn [rbind]. unfold cpp_garch.
    rewrite (fill_loop _ (cpp_garch_at A om al be bc r vb) T d); try (rewrite ?set_cell_length, ?new_cells_length; lia); [reflexivity| |].
    + intros t s Ht HL HN. rewrite (load_ok _ (t - 1) d) by lia. cbn [rbind]. rewrite (load_ok s (t - 1) d) by lia. cbn [rbind]. rewrite store_ok by lia. cbn [rbind].
      rewrite (load_ok _ t d) by (rewrite set_cell_length; lia). cbn [rbind]. rewrite (load_ok _ (t * 2) d), (load_ok _ (t * 2 + 1) d) by lia. cbn [rbind].
      rewrite store_ok by (rewrite set_cell_length; lia). rewrite set_cell_twice, set_cell_nth, Nat.eqb_refl, HN by lia.
      destruct t as [|t]; [lia|]. replace (S t - 1) with t by lia. reflexivity.
    + apply first_cell. rewrite new_cells_length. lia.
  - intros HN. assert (G : garch_mem A (new_cells A junk T) (a_cells A R) (a_cells A B) T params bc = UB); [|unfold garch_mem in G; rewrite G; reflexivity].
    unfold garch_mem. destruct (le_lt_dec 3 (length params)) as [HP|HP].
    2:{ destruct (load_cases params 0) as [->|(? & ->)]; [reflexivity|]. destruct (load_cases params 1) as [->|(? & ->)]; [reflexivity|]. cbn [rbind]. rewrite load_ub by lia. reflexivity. }
    rewrite (load_ok params 0 d), (load_ok params 1 d), (load_ok params 2 d) by lia. cbn [rbind].
    destruct (Nat.eq_dec T 0) as [E|E]; [rewrite store_ub by (rewrite new_cells_length; lia); reflexivity|]. rewrite store_ok by (rewrite new_cells_length; lia). cbn [rbind].
    apply (loop_ub (fun _ => True) _ (T - 1)); auto; [|unfold ok, enough in HN; lia].
    intros s _. destruct (le_lt_dec (T - 1) (length (a_cells A R))) as [HR|HR]; [|rewrite load_ub by lia; reflexivity].
    assert (HB : length (a_cells A B) < 2 * T /\ T <> 1) by (unfold ok, enough in HN; lia).
    destruct (load_cases (a_cells A R) (T - 1 - 1)) as [->|(? & ->)]; [reflexivity|]. cbn [rbind].
    destruct (load_cases s (T - 1 - 1)) as [->|(? & ->)]; [reflexivity|]. cbn [rbind].
    destruct (store s (T - 1) _) as [s'|]; [|reflexivity]. cbn [rbind].
    destruct (load_cases s' (T - 1)) as [->|(? & ->)]; [reflexivity|]. cbn [rbind].
    destruct (load_cases (a_cells A B) ((T - 1) * 2)) as [->|(? & ->)]; [reflexivity|]. cbn [rbind]. rewrite load_ub by lia. reflexivity.
Qed.
Theorem C90_gjr : forall junk (params : list num) (resids bounds : array_arg A) bc d, a_ndim A resids = 1 -> a_ndim A bounds = 2 ->
  let ok := enough (length params) (a_dim A resids) (length (a_cells A resids)) (length (a_cells A bounds)) 4 in
  let call := variance_call A (gjr_mem A) junk params resids bc bounds in
  (ok -> call = Done (Ok (cpp_gjr A (nth 0 params d) (nth 1 params d) (nth 2 params d) (nth 3 params d) bc (fun i => nth i (a_cells A resids) d) (fun i => nth i (a_cells A bounds) d) (a_dim A resids)))) /\
  (~ ok -> call = UB).
Proof.
  intros junk params R B bc d N1 N2 ok call. set (T := a_dim A R) in *. unfold call, variance_call. rewrite N1, N2. cbn [Nat.eqb negb orb]. fold T.
  set (r := fun i => nth i (a_cells A R) d). set (vb := fun i => nth i (a_cells A B) d). unfold gjr_mem. split.
  - intros (HT & HP & HR & HB). rewrite (load_ok params 0 d), (load_ok params 1 d), (load_ok params 2 d), (load_ok params 3 d) by lia. cbn [rbind].
    set (om := nth 0 params d). set (al := nth 1 params d). set (ga := nth 2 params d). set (be := nth 3 params d).
    rewrite store_ok by (rewrite new_cells_length; lia). cbn [rbind]. unfold cpp_gjr.
    rewrite (fill_loop _ (cpp_gjr_at A om al ga be bc r vb) T d); try (rewrite ?set_cell_length, ?new_cells_length; lia); [reflexivity| |].
    + intros t s Ht HL HN. rewrite (load_ok _ (t - 1) d) by lia. cbn [rbind]. rewrite (load_ok s (t - 1) d) by lia. cbn [rbind]. rewrite store_ok by lia. cbn [rbind].
      rewrite HN. fold (r (t - 1)). set (s1 := set_cell s t _).
      assert (L1 : length s1 = T) by (unfold s1; rewrite set_cell_length; auto).
      assert (E1 : nth t s1 d = nadd (nadd om (nmul al (nsq (r (t - 1))))) (nmul be (cpp_gjr_at A om al ga be bc r vb (t - 1)))) by (unfold s1; rewrite set_cell_nth, Nat.eqb_refl by lia; reflexivity).
      assert (UN : cpp_gjr_at A om al ga be bc r vb t = bounds_check_cpp A (let s0 := nadd (nadd om (nmul al (nsq (r (t - 1))))) (nmul be (cpp_gjr_at A om al ga be bc r vb (t - 1))) in if nltb (r (t - 1)) (ofZ 0) then nadd s0 (nmul ga (nsq (r (t - 1)))) else s0) (vb (t * 2)) (vb (t * 2 + 1))).
      { destruct t as [|t]; [lia|]. replace (S t - 1) with t by lia. reflexivity. }
      rewrite UN. destruct (nltb (r (t - 1)) (ofZ 0)) eqn:EL.
      * rewrite (load_ok s1 t d) by lia. cbn [rbind]. rewrite store_ok by lia. cbn [rbind]. rewrite (load_ok _ t d) by (rewrite set_cell_length; lia). cbn [rbind].
        rewrite (load_ok _ (t * 2) d), (load_ok _ (t * 2 + 1) d) by lia. cbn [rbind]. rewrite store_ok by (rewrite set_cell_length; lia).
        rewrite set_cell_twice, set_cell_nth, Nat.eqb_refl, E1 by lia. unfold s1. rewrite set_cell_twice. reflexivity.
      * cbn [rbind]. rewrite (load_ok s1 t d) by lia. cbn [rbind]. rewrite (load_ok _ (t * 2) d), (load_ok _ (t * 2 + 1) d) by lia. cbn [rbind]. rewrite store_ok by lia.
        rewrite E1. unfold s1. rewrite set_cell_twice. reflexivity.
    + apply first_cell. rewrite new_cells_length. lia.
  - intros HN. assert (G : gjr_mem A (new_cells A junk T) (a_cells A R) (a_cells A B) T params bc = UB); [|unfold gjr_mem in G; rewrite G; reflexivity].
    unfold gjr_mem. destruct (le_lt_dec 4 (length params)) as [HP|HP].
    2:{ destruct (load_cases params 0) as [->|(? & ->)]; [reflexivity|]. destruct (load_cases params 1) as [->|(? & ->)]; [reflexivity|]. destruct (load_cases params 2) as [->|(? & ->)]; [reflexivity|]. cbn [rbind]. rewrite load_ub by lia. reflexivity. }
    rewrite (load_ok params 0 d), (load_ok params 1 d), (load_ok params 2 d), (load_ok params 3 d) by lia. cbn [rbind].
    destruct (Nat.eq_dec T 0) as [E|E]; [rewrite store_ub by (rewrite new_cells_length; lia); reflexivity|]. rewrite store_ok by (rewrite new_cells_length; lia). cbn [rbind].
    apply (loop_ub (fun _ => True) _ (T - 1)); auto; [|unfold ok, enough in HN; lia].
    intros s _. destruct (le_lt_dec (T - 1) (length (a_cells A R))) as [HR|HR]; [|rewrite load_ub by lia; reflexivity].
    assert (HB : length (a_cells A B) < 2 * T /\ T <> 1) by (unfold ok, enough in HN; lia).
    destruct (load_cases (a_cells A R) (T - 1 - 1)) as [->|(x & ->)]; [reflexivity|]. cbn [rbind].
    destruct (load_cases s (T - 1 - 1)) as [->|(? & ->)]; [reflexivity|]. cbn [rbind].
    destruct (store s (T - 1) _) as [s'|]; [|reflexivity]. cbn [rbind].
    destruct (if nltb x (ofZ 0) then _ else _) as [s2|]; [|reflexivity]. cbn [rbind].
    destruct (load_cases s2 (T - 1)) as [->|(? & ->)]; [reflexivity|]. cbn [rbind].
    destruct (load_cases (a_cells A B) ((T - 1) * 2)) as [->|(? & ->)]; [reflexivity|]. cbn [rbind]. rewrite load_ub by lia. reflexivity.
Qed.
End Variance.

Section Callers.
Context (A : Arith).
Notation num := (num A).
Lemma matrix2_cells (b : list (num * num)) d i : i < 2 * length b -> nth i (a_cells A (matrix2 A b)) d = flat2 A d b i.
Proof.
  unfold flat2. cbn [a_cells matrix2]. revert i. induction b as [|r b IH]; intros i Hi; cbn in Hi; [lia|]. cbn [map concat app].
  destruct i as [|[|i]]; [reflexivity|reflexivity|]. cbn [nth]. rewrite IH by (cbn; lia). replace (S (S i)) with (i + 1 * 2) by lia. rewrite Nat.div_add by lia.
  replace (i / 2 + 1) with (S (i / 2)) by lia. cbn [nth]. replace (i + 1 * 2) with (S (S i)) by lia. reflexivity.
Qed.
Lemma matrix2_length (b : list (num * num)) : length (a_cells A (matrix2 A b)) = 2 * length b.
Proof. cbn [a_cells matrix2]. induction b as [|r b IH]; [reflexivity|]. cbn [map concat app length]. rewrite IH. cbn. lia. Qed.
Lemma cpp_garch_ext om al be bc r r' vb vb' T : (forall i, i < T - 1 -> r i = r' i) -> (forall i, 2 <= i < 2 * T -> vb i = vb' i) ->
  cpp_garch A om al be bc r vb T = cpp_garch A om al be bc r' vb' T.
Proof.
  intros Hr Hv. unfold cpp_garch. apply map_ext_in. intros t Ht. apply in_seq in Ht. assert (H : t < T) by lia. clear Ht. revert H. induction t as [|t IH]; intros H; [reflexivity|].
  cbn [cpp_garch_at]. rewrite IH by lia. rewrite Hr by lia. rewrite !Hv by lia. reflexivity.
Qed.
Lemma cpp_gjr_ext om al ga be bc r r' vb vb' T : (forall i, i < T - 1 -> r i = r' i) -> (forall i, 2 <= i < 2 * T -> vb i = vb' i) ->
  cpp_gjr A om al ga be bc r vb T = cpp_gjr A om al ga be bc r' vb' T.
Proof.
  intros Hr Hv. unfold cpp_gjr. apply map_ext_in. intros t Ht. apply in_seq in Ht. assert (H : t < T) by lia. clear Ht. revert H. induction t as [|t IH]; intros H; [reflexivity|].
  cbn [cpp_gjr_at]. rewrite IH by lia. rewrite Hr by lia. rewrite !Hv by lia. reflexivity.
Qed.
(** fresh contiguous arrays of matching sizes: no out-of-bounds access, and exactly the values of the functional model *)
Theorem C90_contiguous : forall junk om al ga be l b bc d, l <> [] -> length l <= length b ->
  variance_call A (garch_mem A) junk [om; al; be] (vector A l) bc (matrix2 A b) = Done (Ok (cpp_garch A om al be bc (fun i => nth i l d) (flat2 A d b) (length l))) /\
  variance_call A (gjr_mem A) junk [om; al; ga; be] (vector A l) bc (matrix2 A b) = Done (Ok (cpp_gjr A om al ga be bc (fun i => nth i l d) (flat2 A d b) (length l))).
Proof.
  intros junk om al ga be l b bc d Hl HL. assert (1 <= length l) by (destruct l; [congruence|cbn; lia]).
  assert (E : forall n k, k <= n -> enough n (length l) (length (a_cells A (vector A l))) (length (a_cells A (matrix2 A b))) k).
  { intros n k Hk. rewrite matrix2_length. cbn [a_cells vector]. unfold enough. lia. }
  assert (HV : forall i, 2 <= i < 2 * length l -> nth i (a_cells A (matrix2 A b)) d = flat2 A d b i) by (intros i Hi; apply matrix2_cells; lia).
  split.
  - destruct (C90_garch A junk [om; al; be] (vector A l) (matrix2 A b) bc d eq_refl eq_refl) as (H1 & _). rewrite H1 by (apply E; cbn; lia). do 2 f_equal.
    cbn [nth a_dim vector]. apply cpp_garch_ext; auto.
  - destruct (C90_gjr A junk [om; al; ga; be] (vector A l) (matrix2 A b) bc d eq_refl eq_refl) as (H1 & _). rewrite H1 by (apply E; cbn; lia). do 2 f_equal.
    cbn [nth a_dim vector]. apply cpp_gjr_ext; auto.
Qed.
(** no residuals, too few rows of bounds or too few parameters: undefined behaviour, where the Python path raises IndexError or ValueError *)
Theorem C90_short_inputs : forall junk (params : list num) l b bc,
  (l = [] \/ length params < 3 \/ (2 <= length l /\ length b < length l) ->
     variance_call A (garch_mem A) junk params (vector A l) bc (matrix2 A b) = UB) /\
  (l = [] \/ length params < 4 \/ (2 <= length l /\ length b < length l) ->
     variance_call A (gjr_mem A) junk params (vector A l) bc (matrix2 A b) = UB) /\
  (l = [] \/ length params <> 3 \/ (2 <= length l /\ length b < length l) -> exists e, garch_variance_py A params l bc b = Err e).
Proof.
  intros junk params l b bc. split; [|split].
  - intros H. destruct (C90_garch A junk params (vector A l) (matrix2 A b) bc (ofZ 0) eq_refl eq_refl) as (_ & H1). apply H1. rewrite matrix2_length. unfold enough. cbn [a_dim vector].
    destruct H as [->|H]; cbn; lia.
  - intros H. destruct (C90_gjr A junk params (vector A l) (matrix2 A b) bc (ofZ 0) eq_refl eq_refl) as (_ & H1). apply H1. rewrite matrix2_length. unfold enough. cbn [a_dim vector].
    destruct H as [->|H]; cbn; lia.
  - intros H. unfold garch_variance_py. destruct params as [|om [|al [|be [|]]]]; eauto. destruct l as [|x l]; eauto. destruct H as [H|[H|H]]; [discriminate|cbn in H; lia|].
    assert (V : forall step rs prev bs, length bs < length rs -> exists e, var_loop A step prev rs bs = Err e).
    { clear. intros step. induction rs as [|r rs IH]; intros prev bs H; cbn in H; [lia|]. cbn [var_loop]. destruct bs as [|b bs]; eauto. cbn in H.
      destruct (IH (bounds_check_py A (step prev r) b) bs ltac:(lia)) as (e & E). rewrite E. exists e. reflexivity. }
    destruct (V (garch_step A om al be) (removelast (x :: l)) (nadd om (nmul (nadd al be) bc)) (tl b)) as (e & E).
    { assert (LR : length (x :: l) = length (removelast (x :: l)) + 1) by (rewrite (app_removelast_last x (l := x :: l)) at 1 by discriminate; rewrite app_length; reflexivity).
      destruct b as [|b0 b]; cbn [tl length] in *; lia. }
    rewrite E. exists e. reflexivity.
Qed.
(** a reversed series (returns[::-1]) points at the last cell of its allocation, a float32 series is half as long as assumed *)
Theorem C90_reversed : forall junk l v0 lam, let rev_view := view A l (length l - 1) (length l) in 3 <= length l -> ewma_call A junk rev_view v0 lam = UB.
Proof.
  intros junk l v0 lam rv H. destruct (C90_ewma A junk rv v0 lam (ofZ 0)) as (_ & H1). apply H1. right. unfold rv, view. cbn [a_dim a_cells]. rewrite skipn_length. lia.
Qed.
Theorem C90_float32 : forall junk contents T v0 lam, 3 <= T -> ewma_call A junk (float32_vector A contents T) v0 lam = UB.
Proof.
  intros junk c T v0 lam H. destruct (C90_ewma A junk (float32_vector A c T) v0 lam (ofZ 0)) as (_ & H1). apply H1. right. cbn [a_dim a_cells float32_vector]. rewrite map_length, seq_length.
  assert (T / 2 * 2 <= T) by (rewrite Nat.mul_comm; apply Nat.mul_div_le; lia). lia.
Qed.
Theorem C90_bounds_check : forall s2 (b : array_arg A) d,
  (2 <= length (a_cells A b) -> bounds_check_call A s2 b = Done (bounds_check_cpp A s2 (nth 0 (a_cells A b) d) (nth 1 (a_cells A b) d))) /\
  (length (a_cells A b) < 2 -> bounds_check_call A s2 b = UB).
Proof.
  intros s2 b d. unfold bounds_check_call. split; intros H.
  - rewrite !(load_ok _ _ d) by lia. reflexivity.
  - destruct (load_cases (a_cells A b) 0) as [->|(? & ->)]; [reflexivity|]. cbn [rbind]. rewrite load_ub by lia. reflexivity.
Qed.
(** wrong numbers of dimensions are rejected *)
Theorem C90_dimensions : forall kernel junk params (r b : array_arg A) bc, a_ndim A r <> 1 \/ a_ndim A b <> 2 -> variance_call A kernel junk params r bc b = Done (Err ValueError).
Proof.
  intros kernel junk params r b bc H. unfold variance_call. destruct (Nat.eqb_spec (a_ndim A r) 1), (Nat.eqb_spec (a_ndim A b) 2); cbn [negb orb]; auto. lia.
Qed.
End Callers.

(** ** C91: string attributes of the isolation forest *)
Definition nul_free (s : list nat) : Prop := Forall (fun c => c <> 0) s.
Lemma c_string_app s rest : nul_free s -> c_string (s ++ rest) = (t <~ c_string rest;; Done (s ++ t)).
Proof.
  induction s as [|c s IH]; intros H; cbn [app].
  - destruct (c_string rest); reflexivity.
  - inversion H; subst. cbn [c_string]. destruct (Nat.eqb_spec c 0); [congruence|]. rewrite IH by auto. destruct (c_string rest); reflexivity.
Qed.
Lemma item_length w s : length s <= w -> length (item_bytes w s) = w.
Proof. intros H. unfold item_bytes. rewrite app_length, repeat_length. lia. Qed.
Lemma skip_items w items i : Forall (fun s => length s <= w) items -> i <= length items -> skipn (i * w) (char_cells w items) = char_cells w (skipn i items).
Proof.
  revert i. induction items as [|s items IH]; intros i HF Hi; cbn in Hi; [assert (i = 0) by lia; subst; reflexivity|]. destruct i as [|i]; [reflexivity|]. inversion HF; subst.
  unfold char_cells in *. cbn [map concat]. replace (S i * w) with (length (item_bytes w s) + i * w) by (rewrite item_length by auto; lia).
  rewrite skipn_app, skipn_all2 by lia. cbn [app]. replace (length (item_bytes w s) + i * w - length (item_bytes w s)) with (i * w) by lia. apply IH; [auto|lia].
Qed.
Lemma read_from w s items : nul_free s -> length s <= w -> c_string (char_cells w (s :: items)) = if length s <? w then Done s else (t <~ c_string (char_cells w items);; Done (s ++ t)).
Proof.
  intros Hs Hl. unfold char_cells. cbn [map concat]. unfold item_bytes at 1. rewrite <- app_assoc, c_string_app by auto. destruct (Nat.ltb_spec (length s) w).
  - destruct (w - length s) as [|k] eqn:E; [lia|]. cbn [repeat app c_string Nat.eqb rbind]. rewrite app_nil_r. reflexivity.
  - replace (w - length s) with 0 by lia. reflexivity.
Qed.
(** what is read at an item: the item itself if it is shorter than the width, otherwise glued to what is read at the next one; nothing bounds the last one *)
Theorem C91_read_item : forall w items i s, Forall nul_free items -> Forall (fun s => length s <= w) items -> nth_error items i = Some s ->
  (length s < w -> read_item w items i = Done s) /\
  (length s = w -> S i < length items -> read_item w items i = (t <~ read_item w items (S i);; Done (s ++ t))) /\
  (length s = w -> S i = length items -> read_item w items i = UB).
Proof.
  intros w items i s HN HW Hi. assert (HL : i < length items) by (apply nth_error_Some; congruence).
  assert (ES : skipn i items = s :: skipn (S i) items).
  { clear - Hi. revert i Hi. induction items as [|x items IH]; intros [|i] Hi; cbn in *; try discriminate; [congruence|]. apply IH. auto. }
  assert (Hs : nul_free s) by (rewrite Forall_forall in HN; apply HN; eapply nth_error_In; eauto). assert (HS : length s <= w) by (rewrite Forall_forall in HW; apply HW; eapply nth_error_In; eauto).
  assert (ER : read_item w items i = if length s <? w then Done s else (t <~ c_string (char_cells w (skipn (S i) items));; Done (s ++ t))).
  { unfold read_item. rewrite skip_items by (auto; lia). rewrite ES. apply read_from; auto. }
  split; [|split]; intros Hw.
  - rewrite ER. destruct (Nat.ltb_spec (length s) w); [reflexivity|lia].
  - intros Hn. rewrite ER. destruct (Nat.ltb_spec (length s) w); [lia|]. unfold read_item. rewrite skip_items by (auto; lia). reflexivity.
  - intros Hn. rewrite ER. destruct (Nat.ltb_spec (length s) w); [lia|]. rewrite skipn_all2 by lia. reflexivity.
Qed.
Lemma numpy_width_spec items : 1 <= numpy_width items /\ Forall (fun s => length s <= numpy_width items) items /\ ((exists s, In s items /\ s <> []) -> exists s, In s items /\ length s = numpy_width items).
Proof.
  induction items as [|s items (I1 & I2 & I3)].
  - cbn. repeat split; auto. intros (s & [] & _).
  - unfold numpy_width in *. cbn [fold_right]. set (w := fold_right _ 1 items) in *. split; [lia|]. split.
    + constructor; [lia|]. eapply Forall_impl; [|exact I2]. cbn. intros. lia.
    + intros (x & Hx & Hx0). destruct (le_lt_dec w (length s)) as [H|H].
      * exists s. split; [left; auto|]. lia.
      * destruct Hx as [->|Hx].
        -- destruct (Nat.eq_dec w 1) as [E|E]; [destruct x; [congruence|cbn in H; lia]|]. assert (HI : exists s, In s items /\ s <> []).
           { destruct (existsb (fun s => negb (Nat.eqb (length s) 0)) items) eqn:EX.
             - apply existsb_exists in EX. destruct EX as (y & Hy & Ey). exists y. split; auto. intros ->. discriminate.
             - exfalso. apply E. clear - EX. unfold w. clear w. induction items as [|y items IH]; [reflexivity|]. cbn in EX |- *. apply orb_false_iff in EX. destruct EX as (E1 & E2). rewrite IH by auto.
               apply negb_false_iff, Nat.eqb_eq in E1. rewrite E1. reflexivity. }
           destruct (I3 HI) as (y & Hy & Ey). exists y. split; [right; auto|]. lia.
        -- destruct (I3 (ex_intro _ x (conj Hx Hx0))) as (y & Hy & Ey). exists y. split; [right; auto|]. lia.
Qed.
(** numpy chooses the width of the longest string: in every table with a non-empty string some item is not terminated *)
Theorem C91_some_item_unterminated : forall items, Forall nul_free items -> (exists s, In s items /\ s <> []) ->
  exists i s, nth_error items i = Some s /\ length s = numpy_width items /\
    (read_item (numpy_width items) items i = UB \/ exists t, S i < length items /\ read_item (numpy_width items) items (S i) = Done t /\ read_item (numpy_width items) items i = Done (s ++ t)).
Proof.
  intros items HN HE. destruct (numpy_width_spec items) as (_ & HW & HM). destruct (HM HE) as (s & Hs & HL). apply In_nth_error in Hs. destruct Hs as (i & Hi).
  exists i, s. split; [auto|]. split; [auto|]. destruct (C91_read_item (numpy_width items) items i s HN HW Hi) as (_ & H2 & H3). assert (HI : i < length items) by (apply nth_error_Some; congruence).
  destruct (Nat.eq_dec (S i) (length items)) as [E|E]; [left; auto|]. rewrite H2 by (auto; lia). destruct (read_item (numpy_width items) items (S i)) as [t|] eqn:ER; [right|left; reflexivity].
  exists t. repeat split; auto; lia.
Qed.
(** strings of equal length (tickers, country codes): every single read runs off the end of the array *)
Theorem C91_fixed_length_codes : forall items n, 1 <= n -> Forall nul_free items -> Forall (fun s => length s = n) items ->
  forall i, i < length items -> read_item (numpy_width items) items i = UB.
Proof.
  intros items n Hn HN HL i Hi. destruct (numpy_width_spec items) as (_ & HW & HM).
  assert (Ew : numpy_width items = n).
  { destruct items as [|s items]; [cbn in Hi; lia|]. destruct HM as (x & Hx & Ex); [exists s; split; [left; auto|]; inversion HL; subst; destruct s; [cbn in Hn; lia|discriminate]|].
    rewrite Forall_forall in HL. rewrite <- Ex. apply HL. auto. }
  rewrite Ew in *. remember (length items - i) as k eqn:Ek. revert i Hi Ek. induction k as [|k IH]; intros i Hi Ek; [lia|].
  destruct (nth_error items i) as [s|] eqn:Es; [|apply nth_error_None in Es; lia]. destruct (C91_read_item n items i s HN HW Es) as (_ & H2 & H3).
  assert (EL : length s = n) by (rewrite Forall_forall in HL; apply HL; eapply nth_error_In; eauto).
  destruct (Nat.eq_dec (S i) (length items)) as [E|E]; [apply H3; auto|]. rewrite H2 by (auto; lia). rewrite IH by lia. reflexivity.
Qed.
(** safe as soon as one byte is added to the width *)
Theorem C91_terminated : forall items w i s, Forall nul_free items -> numpy_width items < w -> nth_error items i = Some s -> read_item w items i = Done s.
Proof.
  intros items w i s HN Hw Hi. destruct (numpy_width_spec items) as (_ & HW & _). assert (HL : Forall (fun s => length s < w) items) by (eapply Forall_impl; [|exact HW]; cbn; intros; lia).
  apply C91_read_item; auto; [eapply Forall_impl; [|exact HL]; cbn; intros; lia|]. rewrite Forall_forall in HL. apply HL. eapply nth_error_In; eauto.
Qed.
(** equal strings may be read as different ones: "ab" followed by "c" and "ab" followed by "" *)
Theorem C91_equal_strings_differ_refuted : let items := [[97; 98]; [99]; [97; 98]; []] in
  nth_error items 0 = nth_error items 2 /\ read_item (numpy_width items) items 0 = Done [97; 98; 99] /\ read_item (numpy_width items) items 2 = Done [97; 98].
Proof. repeat split. Qed.
Example C91_case : let items := [[97]; [98]; [97]] in Forall nul_free items /\ numpy_width items = 1 /\ read_item 1 items 0 = UB /\ read_item 2 items 0 = Done [97].
Proof. cbv zeta. split; [repeat constructor; discriminate|]. repeat split. Qed.

(** ** C92: the DCC and LRMES kernels *)
Lemma for_inv {S} (P : nat -> S -> Prop) (body : nat -> S -> run S) n : forall t0 s, P t0 s ->
  (forall t s, t0 <= t < t0 + n -> P t s -> exists s', body t s = Done s' /\ P (Datatypes.S t) s') -> exists s', for_loop n t0 body s = Done s' /\ P (t0 + n) s'.
Proof.
  induction n as [|n IH]; intros t0 s H0 HB; cbn [for_loop].
  - exists s. split; auto. rewrite Nat.add_0_r. auto.
  - destruct (HB t0 s ltac:(lia) H0) as (s1 & E1 & P1). rewrite E1. cbn [rbind]. destruct (IH (Datatypes.S t0) s1 P1) as (s2 & E2 & P2).
    + intros t s' Ht. apply HB. lia.
    + exists s2. split; auto. replace (t0 + Datatypes.S n) with (Datatypes.S t0 + n) by lia. auto.
Qed.
Lemma firstn_S_nth {X} (l : list X) t d : t < length l -> firstn (S t) l = firstn t l ++ [nth t l d].
Proof. revert t. induction l as [|x l IH]; intros [|t] H; cbn in *; try lia; auto. f_equal. apply IH. lia. Qed.
Lemma nth_firstn_below {X} (l : list X) t i d : i < t -> nth i (firstn t l) d = nth i l d.
Proof. revert t i. induction l as [|x l IH]; intros [|t] [|i] H; cbn; try lia; auto. apply IH. lia. Qed.
Lemma map2_len {X Y Z} (f : X -> Y -> Z) a : forall b, length b = length a -> length (map2 f a b) = length a.
Proof. induction a as [|x a IH]; intros [|y b] H; cbn in *; try lia; auto. Qed.
Lemma map2_nth' {X Y Z} (f : X -> Y -> Z) a dx dy dz : forall b i, length b = length a -> i < length a -> nth i (map2 f a b) dz = f (nth i a dx) (nth i b dy).
Proof. induction a as [|x a IH]; intros [|y b] [|i] H Hi; cbn in *; try lia; auto. apply IH; lia. Qed.
Lemma map_seq_nth {X} (g : nat -> X) T i d : i < T -> nth i (map g (seq 0 T)) d = g i.
Proof. intros H. rewrite (nth_indep _ d (g 0)) by (rewrite map_length, seq_length; lia). rewrite (map_nth g), seq_nth by lia. reflexivity. Qed.
Lemma filled {X} (l l' : list X) T : length l = T -> length l' = T -> firstn T l = firstn T l' -> l = l'.
Proof. intros H1 H2 H. rewrite <- H1 in H at 1. rewrite <- H2 in H. rewrite !firstn_all in H. auto. Qed.

Section DCC.
Context (A : Arith).
Notation num := (num A).
Section Path.
Context (a b q11b q12b q22b : num) (z1 z2 : list num) (d : num).
Fixpoint q_at (t : nat) : num * num * num :=
  match t with
  | O => (q11b, q12b, q22b)
  | S t' => let q := q_at t' in let x := nth t' z1 d in let y := nth t' z2 d in
      (nadd (nadd (nmul (nsub (nsub (ofZ 1) a) b) q11b) (nmul a (nsq x))) (nmul b (fst (fst q))),
       nadd (nadd (nmul (nsub (nsub (ofZ 1) a) b) q12b) (nmul (nmul a x) y)) (nmul b (snd (fst q))),
       nadd (nadd (nmul (nsub (nsub (ofZ 1) a) b) q22b) (nmul a (nsq y))) (nmul b (snd q)))
  end.
Definition rho_at (t : nat) : num := let q := q_at t in ndiv (snd (fst q)) (nsqrt (nmul (fst (fst q)) (snd q))).
Lemma dcc_loop_at zs : forall k, zs = map (fun t => (nth t z1 d, nth t z2 d)) (seq k (length zs)) ->
  dcc_loop A a b q11b q12b q22b (fst (fst (q_at k))) (snd (fst (q_at k))) (snd (q_at k)) zs = map rho_at (seq (S k) (length zs)).
Proof.
  induction zs as [|(x, y) zs IH]; intros k H; [reflexivity|]. cbn [length seq map] in H |- *. injection H as Hx Hy H. cbn [dcc_loop]. f_equal.
  - unfold rho_at. cbn [q_at fst snd]. rewrite <- Hx, <- Hy. reflexivity.
  - rewrite <- (IH (S k) H). cbn [q_at fst snd]. rewrite <- Hx, <- Hy. reflexivity.
Qed.
Lemma combine_nths : forall (u v : list num), length u = length v -> combine u v = map (fun t => (nth t u d, nth t v d)) (seq 0 (length u)).
Proof.
  induction u as [|x u IH]; intros [|y v] H; cbn in H; try lia; [reflexivity|]. cbn [combine length seq map nth]. f_equal. rewrite IH by lia. rewrite <- seq_shift, map_map. reflexivity.
Qed.
Lemma removelast_map_seq {X} (g : nat -> X) n : removelast (map g (seq 0 (S n))) = map g (seq 0 n).
Proof. rewrite seq_S, map_app. cbn [map]. apply removelast_last. Qed.
Lemma dcc_path_at : z1 <> [] -> length z1 = length z2 -> dcc_path A a b q11b q12b q22b z1 z2 = map rho_at (seq 0 (length z1)).
Proof.
  intros H0 HL. unfold dcc_path. rewrite combine_nths by auto. destruct (length z1) as [|n] eqn:E; [destruct z1; [congruence|discriminate]|].
  rewrite removelast_map_seq. cbn [seq map]. f_equal. pose proof (dcc_loop_at (map (fun t => (nth t z1 d, nth t z2 d)) (seq 0 n)) 0) as H. rewrite map_length, seq_length in H. apply H. reflexivity.
Qed.
End Path.
Context (a b : num) (r1 r2 s1 s2 : list num).
Notation T := (length r1).
Lemma standardize_at r s d n : n <= length r -> n <= length s -> standardize A (firstn n r) (firstn n s) = map (fun t => ndiv (nth t r d) (nsqrt (nth t s d))) (seq 0 n).
Proof.
  intros Hr Hs. assert (L : length (standardize A (firstn n r) (firstn n s)) = n) by (unfold standardize; rewrite map2_len; rewrite ?firstn_length; lia).
  apply (list_eq_nth d); [rewrite L, map_length, seq_length; reflexivity|]. rewrite L. intros i Hi. rewrite map_seq_nth by auto. unfold standardize.
  rewrite (map2_nth' _ _ d d) by (rewrite ?firstn_length; lia). rewrite !nth_firstn_below by auto. reflexivity.
Qed.
Lemma firstn_map_seq {X} (g : nat -> X) t : forall k n, t <= n -> firstn t (map g (seq k n)) = map g (seq k t).
Proof. induction t as [|t IH]; intros k [|n] H; cbn [firstn seq map]; try lia; auto. f_equal. apply IH. lia. Qed.
Theorem C92_dcc : 1 <= T -> T <= length r2 -> T <= length s1 -> T <= length s2 ->
  exists rho, cond_corr_cpp A a b r1 (firstn T r2) (firstn T s1) (firstn T s2) = Ok rho /\ length rho = T /\ dcc_mem A a b r1 r2 s1 s2 = Done rho.
Proof.
  intros HT H2 H3 H4. set (d := ofZ 0 : num). set (Z1 := fun t => ndiv (nth t r1 d) (nsqrt (nth t s1 d))). set (Z2 := fun t => ndiv (nth t r2 d) (nsqrt (nth t s2 d))).
  assert (EZ1 : standardize A r1 (firstn T s1) = map Z1 (seq 0 T)) by (rewrite <- (firstn_all r1) at 1; apply standardize_at; lia).
  assert (EZ2 : standardize A (firstn T r2) (firstn T s2) = map Z2 (seq 0 T)) by (apply standardize_at; lia).
  set (z1 := map Z1 (seq 0 T)) in *. set (z2 := map Z2 (seq 0 T)) in *.
  assert (L1 : length z1 = T) by (unfold z1; rewrite map_length, seq_length; reflexivity). assert (L2 : length z2 = T) by (unfold z2; rewrite map_length, seq_length; reflexivity).
  set (mom := fun f : num -> num -> num => ndiv (fold_left nadd (map2 f z1 z2) (ofZ 0)) (ofZ (Z.of_nat T))).
  set (q11b := mom (fun x _ => nmul x x)). set (q12b := mom (fun x y => nmul x y)). set (q22b := mom (fun _ y => nmul y y)).
  assert (HN : z1 <> []) by (intros E; rewrite E in L1; cbn in L1; lia).
  exists (map (rho_at a b q11b q12b q22b z1 z2 d) (seq 0 T)). split; [|split; [rewrite map_length, seq_length; reflexivity|]].
  - unfold cond_corr_cpp. pose proof (dcc_path_at a b q11b q12b q22b z1 z2 d HN ltac:(congruence)) as PA. rewrite L1 in PA. rewrite EZ1, EZ2, L1, <- PA. fold (mom (fun x _ => nmul x x)) (mom (fun x y => nmul x y)) (mom (fun _ y : num => nmul y y)).
    fold q11b q12b q22b. destruct z1; [congruence|reflexivity].
  - unfold dcc_mem. cbv zeta.
    match goal with |- rbind (for_loop ?n ?t0 ?body ?s) _ = _ => destruct (for_inv (fun t z => length (fst z) = T /\ length (snd z) = T /\ firstn t (fst z) = firstn t z1 /\ firstn t (snd z) = firstn t z2) body n t0 s) as ((w1, w2) & E & W1 & W2 & W3 & W4) end.
    + cbn [fst snd]. rewrite repeat_length. auto.
    + intros t (u1, u2) Ht (U1 & U2 & U3 & U4). cbn [fst snd] in *. rewrite !(load_ok _ _ d) by lia. cbn [rbind]. repeat (progress (rewrite ?(load_ok _ _ d), ?store_ok by lia; cbn [rbind])).
      eexists. split; [reflexivity|]. cbn [fst snd]. rewrite !set_cell_length, !firstn_set_cell by lia. rewrite U3, U4. repeat split; auto.
      * rewrite (firstn_S_nth z1 t d) by lia. f_equal. f_equal. unfold z1. rewrite map_seq_nth by lia. reflexivity.
      * rewrite (firstn_S_nth z2 t d) by lia. f_equal. f_equal. unfold z2. rewrite map_seq_nth by lia. reflexivity.
    + cbn [fst snd Nat.add] in *. assert (w1 = z1) by (apply (filled _ _ T); auto). assert (w2 = z2) by (apply (filled _ _ T); auto). subst w1 w2. rewrite E. clear E W1 W2 W3 W4. cbn [rbind fst snd].
      match goal with |- rbind (for_loop ?n ?t0 ?body ?s) _ = _ => destruct (for_inv (fun t m => m = (fold_left nadd (firstn t (map2 (fun x _ => nmul x x) z1 z2)) (ofZ 0),
        fold_left nadd (firstn t (map2 (fun x y => nmul x y) z1 z2)) (ofZ 0), fold_left nadd (firstn t (map2 (fun _ y => nmul y y) z1 z2)) (ofZ 0))) body n t0 s) as (m & E & EM) end.
      * reflexivity.
      * intros t m Ht ->. cbn [fst snd]. rewrite !(load_ok _ _ d) by lia. cbn [rbind]. eexists. split; [reflexivity|].
        rewrite !(firstn_S_nth (map2 _ _ _) t d) by (rewrite map2_len; lia). rewrite !fold_left_app. cbn [fold_left]. rewrite !(map2_nth' _ z1 d d) by lia. reflexivity.
      * rewrite E. clear E. cbn [rbind]. cbn [Nat.add] in EM. subst m. cbn [fst snd]. rewrite !firstn_all2 by (rewrite map2_len; lia).
        change (ndiv (fold_left nadd (map2 (fun x _ : num => nmul x x) z1 z2) (ofZ 0)) (ofZ (Z.of_nat T))) with q11b.
        change (ndiv (fold_left nadd (map2 (fun x y : num => nmul x y) z1 z2) (ofZ 0)) (ofZ (Z.of_nat T))) with q12b.
        change (ndiv (fold_left nadd (map2 (fun _ y : num => nmul y y) z1 z2) (ofZ 0)) (ofZ (Z.of_nat T))) with q22b.
        clearbody q11b q12b q22b. rewrite !store_ok by (rewrite repeat_length; lia). cbn [rbind]. rewrite !(load_ok _ _ d) by (rewrite set_cell_length, repeat_length; lia). cbn [rbind].
        rewrite !store_ok by (rewrite repeat_length; lia). cbn [rbind]. rewrite !set_cell_nth by (rewrite repeat_length; lia). cbn [Nat.eqb].
        set (Q := q_at a b q11b q12b q22b z1 z2 d). set (R := rho_at a b q11b q12b q22b z1 z2 d).
        match goal with |- rbind (for_loop ?n ?t0 ?body ?s) _ = _ => destruct (for_inv (fun t sv => let '(q11, q12, q22, rho) := sv in (length q11 = T /\ length q12 = T /\ length q22 = T /\ length rho = T) /\
          firstn t q11 = map (fun t => fst (fst (Q t))) (seq 0 t) /\ firstn t q12 = map (fun t => snd (fst (Q t))) (seq 0 t) /\ firstn t q22 = map (fun t => snd (Q t)) (seq 0 t) /\ firstn t rho = map R (seq 0 t)) body n t0 s) as ((((q11, q12), q22), rho) & E & W) end.
        -- rewrite !set_cell_length, !repeat_length. split; [auto|]. rewrite !first_cell by (rewrite repeat_length; lia). repeat split; reflexivity.
        -- intros t (((q11, q12), q22), rho) Ht ((Lq1 & Lq2 & Lq3 & Lq4) & F1 & F2 & F3 & F4).
           assert (N : forall (q : list num) g, firstn t q = map g (seq 0 t) -> nth (t - 1) q d = g (t - 1)).
           { intros q g F. rewrite <- (nth_firstn_below q t) by lia. rewrite F. apply map_seq_nth. lia. }
           apply N in F1 as N1. apply N in F2 as N2. apply N in F3 as N3. clear N.
           rewrite !(load_ok _ _ d) by lia. cbn [rbind]. rewrite !store_ok by lia. cbn [rbind]. rewrite !(load_ok _ _ d) by (rewrite set_cell_length; lia). cbn [rbind]. rewrite store_ok by lia. cbn [rbind].
           eexists. split; [reflexivity|]. cbv beta iota. rewrite !set_cell_length. split; [auto|]. rewrite !firstn_set_cell by lia. rewrite F1, F2, F3, F4. rewrite !seq_S, !map_app. cbn [Nat.add map].
           rewrite !set_cell_nth by lia. rewrite Nat.eqb_refl. rewrite N1, N2, N3.
           assert (ES : Q t = Q (S (t - 1))) by (f_equal; lia).
           assert (ER : R t = R (S (t - 1))) by (f_equal; lia).
           rewrite ER, ES. unfold R, rho_at, Q. cbn [q_at fst snd]. repeat split.
        -- rewrite E. cbn [rbind snd]. destruct W as ((_ & _ & _ & LR) & _ & _ & _ & W). f_equal. replace (1 + (T - 1)) with T in W by lia. rewrite <- LR in W at 1. rewrite firstn_all in W. auto.
Qed.
(** an empty first series, or another one that is shorter: reads or writes outside *)
Theorem C92_dcc_short : T = 0 \/ length r2 < T \/ length s1 < T \/ length s2 < T -> dcc_mem A a b r1 r2 s1 s2 = UB.
Proof.
  intros H. unfold dcc_mem. cbv zeta. destruct (Nat.eq_dec T 0) as [E0|N0].
  - rewrite E0. reflexivity.
  - match goal with |- rbind (for_loop ?n ?t0 ?body ?s) _ = _ => assert (E : for_loop n t0 body s = UB) end.
    + destruct H as [H|H]; [lia|]. apply (loop_ub (fun _ => True) _ (T - 1)); auto; [|lia]. intros (u1, u2) _. cbn [fst snd]. rewrite !(load_ok r1 _ (ofZ 0)) by lia. cbn [rbind].
      destruct H as [H|[H|H]].
      * destruct (load_cases s1 (T - 1)) as [->|(x & ->)]; [reflexivity|]. cbn [rbind]. unfold store. destruct (_ <? _); [|reflexivity]. cbn [rbind]. rewrite load_ub by lia. reflexivity.
      * rewrite load_ub by lia. reflexivity.
      * destruct (load_cases s1 (T - 1)) as [->|(x & ->)]; [reflexivity|]. cbn [rbind]. unfold store at 1. destruct (_ <? _); [|reflexivity]. cbn [rbind].
        destruct (load_cases r2 (T - 1)) as [->|(y & ->)]; [reflexivity|]. cbn [rbind]. rewrite load_ub by lia. reflexivity.
    + rewrite E. reflexivity.
Qed.
End DCC.
Section LRMES.
Context (A : Arith).
Notation num := (num A).
Implicit Types (i : sim_inputs A) (rows : list (list num)).
Definition step_of i := sim_step_cpp A (i_pi A i) (i_pm A i) (i_a A i) (i_b A i) (i_qib A i) (i_qmb A i) (i_qimb A i).
Definition start_of i := sim_start A (i_firm_var A i) (i_mkt_var A i) (i_firm_resid A i) (i_mkt_resid A i) (i_rho A i).
Fixpoint state_after (step : sim_state A -> num * num -> (num * num) * sim_state A) (s : sim_state A) (inn : list (num * num)) (h : nat) {struct h} : sim_state A :=
  match h, inn with O, _ => s | S h', x :: rest => state_after step (snd (step s x)) rest h' | S _, [] => s end.
Lemma state_after_S step d : forall h s inn, h < length inn -> state_after step s inn (S h) = snd (step (state_after step s inn h) (nth h inn d)).
Proof.
  induction h as [|h IH]; intros s [|x inn] H; cbn in H; try lia; [reflexivity|]. change (state_after step s (x :: inn) (S (S h))) with (state_after step (snd (step s x)) inn (S h)). rewrite IH by lia. reflexivity.
Qed.
Lemma sim_loop_nth step d dr : forall h s inn, h < length inn -> nth h (sim_loop A step s inn) dr = fst (step (state_after step s inn h) (nth h inn d)).
Proof.
  induction h as [|h IH]; intros s [|x inn] H; cbn in H; try lia; [reflexivity|]. cbn [sim_loop nth]. rewrite IH by lia. reflexivity.
Qed.
Lemma sim_loop_length step : forall s inn, length (sim_loop A step s inn) = length inn.
Proof. intros s inn. revert s. induction inn as [|x inn IH]; intros s; cbn; auto. Qed.
Lemma concat_nth cols d : forall rows h k, Forall (fun r => length r = cols) rows -> h < length rows -> k < cols -> nth (h * cols + k) (concat rows) d = nth k (nth h rows []) d.
Proof.
  induction rows as [|r rows IH]; intros h k HF Hh Hk; cbn in Hh; [lia|]. inversion HF; subst. destruct h as [|h]; cbn [concat nth Nat.mul Nat.add].
  - rewrite app_nth1 by lia. reflexivity.
  - rewrite app_nth2 by lia. replace (length r + h * length r + k - length r) with (h * length r + k) by lia. apply IH; auto. lia.
Qed.
Lemma concat_len cols : forall rows, Forall (fun r => length r = cols) rows -> length (concat rows) = length rows * cols.
Proof. induction rows as [|r rows IH]; intros HF; cbn; [reflexivity|]. inversion HF; subst. rewrite app_length, IH by auto. reflexivity. Qed.
Lemma simulation_cpp_unfold i C inn : simulation A true i C inn =
  let rets := sim_loop A (step_of i) (start_of i) inn in
  if nltb (nsub (nexp (fold_left nadd (map (fun r => ndiv (fst r) (ofZ 100)) rets) (ofZ 0))) (ofZ 1)) C
  then (nsub (nexp (fold_left nadd (map (fun r => ndiv (snd r) (ofZ 100)) rets) (ofZ 0))) (ofZ 1), true) else (ofZ 0, false).
Proof. reflexivity. Qed.
(** any matrix with two or more columns is processed without leaving it; only the first two columns matter *)
Theorem C92_lrmes : forall i C cols rows d, 2 <= cols -> Forall (fun r => length r = cols) rows ->
  lrmes_mem A i C cols (concat rows) = Done (simulation A true i C (map (fun r => (nth 0 r d, nth 1 r d)) rows)).
Proof.
  intros i C cols rows d Hc HF. rewrite simulation_cpp_unfold. cbv zeta. set (inn := map (fun r => (nth 0 r d, nth 1 r d)) rows). set (rets := sim_loop A (step_of i) (start_of i) inn).
  unfold lrmes_mem. cbv zeta. assert (EH : Nat.div (length (concat rows)) cols = length rows) by (rewrite (concat_len cols) by auto; apply Nat.div_mul; lia). rewrite EH.
  assert (LI : length inn = length rows) by (unfold inn; apply map_length). assert (LRt : length rets = length rows) by (unfold rets; rewrite sim_loop_length; auto).
  fold (start_of i). set (dr := (d, d) : num * num).
  match goal with |- rbind (for_loop ?n ?t0 ?body ?s) _ = _ => destruct (for_inv (fun h sv => let '(st, f, m) := sv in st = state_after (step_of i) (start_of i) inn h /\ length f = length rows /\ length m = length rows /\
     firstn h f = firstn h (map snd rets) /\ firstn h m = firstn h (map fst rets)) body n t0 s) as (((st, f), m) & E & _ & L1 & L2 & W1 & W2) end.
  - rewrite repeat_length. auto.
  - intros h ((st, f), m) Hh (-> & L1 & L2 & W1 & W2).
    assert (B : h * cols + 1 < length (concat rows)) by (rewrite (concat_len cols) by auto; assert (length rows * cols = (length rows - 1) * cols + cols) by nia; assert (h * cols <= (length rows - 1) * cols) by (apply Nat.mul_le_mono_r; lia); lia).
    rewrite !(load_ok _ _ d) by lia. cbn [rbind]. rewrite store_ok by lia. cbn [rbind]. rewrite store_ok by lia. cbn [rbind]. eexists. split; [reflexivity|]. cbv beta iota.
    rewrite (concat_nth cols d rows h 1) by (auto; lia). replace (h * cols) with (h * cols + 0) by lia. rewrite (concat_nth cols d rows h 0) by (auto; lia).
    assert (EN : (nth 0 (nth h rows []) d, nth 1 (nth h rows []) d) = nth h inn dr).
    { unfold inn. rewrite (nth_indep _ dr ((fun r => (nth 0 r d, nth 1 r d)) [])) by (rewrite map_length; lia). rewrite (map_nth (fun r => (nth 0 r d, nth 1 r d))). reflexivity. }
    rewrite EN. fold (step_of i). rewrite !set_cell_length, !firstn_set_cell by lia. rewrite (state_after_S _ dr) by lia.
    rewrite W1, W2. rewrite !(firstn_S_nth (map _ rets) h d) by (rewrite map_length; lia).
    assert (EM : forall g : num * num -> num, nth h (map g rets) d = g (nth h rets dr)) by (intros g; rewrite (nth_indep _ d (g dr)) by (rewrite map_length; lia); apply map_nth).
    rewrite !EM. unfold rets. rewrite (sim_loop_nth _ dr) by lia. repeat split; auto.
  - rewrite E. cbn [rbind]. cbn [Nat.add] in W1, W2. assert (f = map snd rets) by (apply (filled _ _ (length rows)); rewrite ?map_length; auto). assert (m = map fst rets) by (apply (filled _ _ (length rows)); rewrite ?map_length; auto).
    subst f m. rewrite !map_map. destruct (nltb _ C); reflexivity.
Qed.
(** a one-column innovation is read beyond its end *)
Theorem C92_lrmes_one_column : forall i C inn, inn <> [] -> lrmes_mem A i C 1 inn = UB.
Proof.
  intros i C inn H. assert (1 <= length inn) by (destruct inn; [congruence|cbn; lia]). unfold lrmes_mem. cbv zeta. rewrite Nat.div_1_r.
  match goal with |- rbind (for_loop ?n ?t0 ?body ?s) _ = _ => assert (E : for_loop n t0 body s = UB) end.
  - apply (loop_ub (fun _ => True) _ (length inn - 1)); auto; [|lia]. intros ((st, f), m) _. rewrite (load_ok inn _ (ofZ 0)) by lia. cbn [rbind]. rewrite load_ub by lia. reflexivity.
  - rewrite E. reflexivity.
Qed.
End LRMES.
Example C90_case : let z := fun k => Fin (IZR k) in
  (exists s, variance_call XRA (garch_mem XRA) (fun _ => NaN) [z 1%Z; z 0%Z; z 0%Z] (vector XRA [z 1%Z; z 2%Z; z 3%Z]) (z 5%Z) (matrix2 XRA [(z 0%Z, z 9%Z); (z 0%Z, z 9%Z); (z 0%Z, z 9%Z)]) = Done (Ok s) /\ length s = 3) /\
  variance_call XRA (garch_mem XRA) (fun _ => NaN) [z 1%Z; z 0%Z; z 0%Z] (vector XRA [z 1%Z; z 2%Z; z 3%Z]) (z 5%Z) (matrix2 XRA [(z 0%Z, z 9%Z)]) = UB /\
  ewma_call XRA (fun _ => NaN) (view XRA [z 1%Z; z 2%Z; z 3%Z] 2 3) (z 1%Z) (z 1%Z) = UB.
Proof.
  intros z. split; [|split].
  - destruct (C90_contiguous XRA (fun _ => NaN) (z 1%Z) (z 0%Z) NaN (z 0%Z) [z 1%Z; z 2%Z; z 3%Z] [(z 0%Z, z 9%Z); (z 0%Z, z 9%Z); (z 0%Z, z 9%Z)] (z 5%Z) NaN) as [E _]; [discriminate|cbn; lia|].
    eexists. split; [exact E|]. unfold cpp_garch. rewrite map_length, seq_length. reflexivity.
  - destruct (C90_short_inputs XRA (fun _ => NaN) [z 1%Z; z 0%Z; z 0%Z] [z 1%Z; z 2%Z; z 3%Z] [(z 0%Z, z 9%Z)] (z 5%Z)) as [E _]. apply E. right. right. cbn. lia.
  - exact (C90_reversed XRA (fun _ => NaN) [z 1%Z; z 2%Z; z 3%Z] (z 1%Z) (z 1%Z) ltac:(cbn; lia)).
Qed.
Example C92_case : let z := fun k => Fin (IZR k) in
  (exists rho, dcc_mem XRA (z 0%Z) (z 0%Z) [z 1%Z; z 2%Z] [z 3%Z; z 4%Z] [z 1%Z; z 1%Z] [z 1%Z; z 1%Z] = Done rho /\ length rho = 2) /\
  dcc_mem XRA (z 0%Z) (z 0%Z) [z 1%Z; z 2%Z] [z 3%Z] [z 1%Z; z 1%Z] [z 1%Z; z 1%Z] = UB /\
  (exists i r, lrmes_mem XRA i (z 0%Z) 2 [z 1%Z; z 2%Z; z 3%Z; z 4%Z] = Done r) /\ (forall i, lrmes_mem XRA i (z 0%Z) 1 [z 1%Z; z 2%Z] = UB).
Proof.
  cbv zeta. split; [|split; [|split]].
  - destruct (C92_dcc XRA (Fin 0) (Fin 0) [Fin 1; Fin 2] [Fin 3; Fin 4] [Fin 1; Fin 1] [Fin 1; Fin 1]) as (rho & _ & HL & E); try (cbn; lia). exists rho. auto.
  - apply C92_dcc_short. cbn. lia.
  - set (g := Build_gjr_params XRA (Fin 0) (Fin 1) (Fin 0) (Fin 0) (Fin 0)). exists (Build_sim_inputs XRA (Fin 1) (Fin 1) (Fin 1) (Fin 1) (Fin 0) (Fin 0) (Fin 0) (Fin 1) (Fin 1) (Fin 0) g g).
    eexists. apply (C92_lrmes XRA _ _ 2 [[Fin 1; Fin 2]; [Fin 3; Fin 4]] NaN); [lia|repeat constructor].
  - intros i. apply C92_lrmes_one_column. discriminate.
Qed.
