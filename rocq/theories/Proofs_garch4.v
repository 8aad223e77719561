(** C++ kernels vs Python, wrappers, starting values, fit protocol, nesting, forecast *)
From Coq Require Import Reals Lra List ZArith Lia Bool Arith.
From Verif Require Import Arith XR RealAux Model_garch Spec_garch Proofs_garch Proofs_garch2 Proofs_garch3.
Import ListNotations.
Local Open Scope R_scope.

(** ** C++ = Python *)
Lemma xlt_total x y : x <> NaN -> y <> NaN -> xltb x y = false -> xltb y x = false -> x = y.
Proof.
  destruct x, y; try tauto; try discriminate; cbn; try reflexivity.
  intros _ _. destruct (Rlt_dec r r0); [discriminate|]. destruct (Rlt_dec r0 r); [discriminate|].
  intros; f_equal; lra.
Qed.
Lemma xlt_asym x y : xltb x y = true -> xltb y x = false.
Proof.
  destruct x, y; cbn; try discriminate; try reflexivity.
  destruct (Rlt_dec r r0); [|discriminate]. destruct (Rlt_dec r0 r); [lra|reflexivity].
Qed.
Lemma bounds_check_same s lo up : s <> NaN -> lo <> NaN ->
  bounds_check_cpp XRA s lo up = bounds_check_py XRA s (lo, up).
Proof.
  intros Hs Hl. unfold bounds_check_cpp, bounds_check_py, pymax. cbn [nltb XRA fst snd].
  destruct (xltb s lo) eqn:E1.
  - rewrite (xlt_asym _ _ E1). reflexivity.
  - destruct (xltb lo s) eqn:E2; auto. rewrite (xlt_total s lo); auto.
Qed.
Lemma bounds_check_cpp_nan lo up : bounds_check_cpp XRA NaN lo up = NaN.
Proof. unfold bounds_check_cpp. cbn. destruct up; reflexivity. Qed.

(** the C++ loop as a list loop, for any step function *)
Lemma nth_map_seq {X} (f : nat -> X) n t d : (t < n)%nat -> nth t (map f (seq 0 n)) d = f t.
Proof.
  intros H. rewrite (nth_indep _ d (f 0%nat)) by (rewrite map_length, seq_length; auto).
  rewrite map_nth. rewrite seq_nth; auto.
Qed.
Lemma list_eq_nth {X} (d : X) l m : length l = length m ->
  (forall t, (t < length l)%nat -> nth t l d = nth t m d) -> l = m.
Proof. intros. eapply nth_ext; eauto. Qed.

Lemma flat2_even A d b t : flat2 A d b (t * 2)%nat = fst (nth t b (d, d)).
Proof.
  unfold flat2. rewrite Nat.div_mul by lia.
  replace (Nat.even (t * 2)) with true; auto.
  symmetry. rewrite Nat.even_mul. simpl. apply orb_true_r.
Qed.
Lemma flat2_odd A d b t : flat2 A d b (t * 2 + 1)%nat = snd (nth t b (d, d)).
Proof.
  unfold flat2. replace ((t * 2 + 1) / 2)%nat with t.
  2:{ symmetry. rewrite Nat.add_comm, Nat.div_add by lia. reflexivity. }
  replace (Nat.even (t * 2 + 1)) with false; auto.
  symmetry. rewrite Nat.even_add. replace (Nat.even (t * 2)) with true; auto.
  symmetry. rewrite Nat.even_mul. simpl. apply orb_true_r.
Qed.

Lemma gjr_cpp_step s q : xadd s (Fin 0) = s /\ (forall r : xr, (if xltb r (Fin 0) then xadd s q else s) = xadd s (if xltb r (Fin 0) then q else Fin 0)).
Proof.
  assert (E : xadd s (Fin 0) = s) by (destruct s; cbn; auto; f_equal; lra).
  split; auto. intros r. destruct (xltb r (Fin 0)); auto.
Qed.

Definition cpp_variance A (k : kind) (params : list (num A)) bc r vb T : list (num A) :=
  match k, params with
  | KGarch, [omega; alpha; beta] => cpp_garch A omega alpha beta bc r vb T
  | KGjr, [omega; alpha; gamma; beta] => cpp_gjr A omega alpha gamma beta bc r vb T
  | _, _ => []
  end.

Lemma cpp_variance_step A k params bc r vb T d : length params = nparams k ->
  length (cpp_variance A k params bc r vb T) = T /\
  ((0 < T)%nat -> nth 0 (cpp_variance A k params bc r vb T) d = s0_of A params bc).
Proof.
  intros HL. destruct k; simpl in HL;
  repeat (destruct params as [|? params]; try discriminate HL);
  cbn [cpp_variance]; unfold cpp_garch, cpp_gjr; (split; [rewrite map_length, seq_length; auto|]);
  intros; rewrite nth_map_seq by auto; reflexivity.
Qed.

Lemma cpp_variance_next k params bc r vb T t : length params = nparams k -> (S t < T)%nat ->
  nth (S t) (cpp_variance XRA k params bc r vb T) NaN =
  bounds_check_cpp XRA (step_of XRA params (nth t (cpp_variance XRA k params bc r vb T) NaN) (r t))
    (vb (S t * 2)%nat) (vb (S t * 2 + 1)%nat).
Proof.
  intros HL Ht. destruct k; simpl in HL;
  repeat (destruct params as [|? params]; try discriminate HL);
  cbn [cpp_variance]; unfold cpp_garch, cpp_gjr.
  - rewrite !nth_map_seq by lia. reflexivity.
  - rewrite !nth_map_seq by lia. cbn [cpp_gjr_at step_of]. unfold gjr_step.
    cbn [nadd nmul nsq nltb ofZ XRA].
    rewrite (proj2 (gjr_cpp_step _ _)). reflexivity.
Qed.

Theorem cpp_py_same k params rs bc bs :
  length params = nparams k -> rs <> [] -> (length rs <= length bs)%nat ->
  Forall (fun b : num XRA * num XRA => fst b <> NaN) bs ->
  Forall (fun x : num XRA => x <> NaN)
    (cpp_variance XRA k params bc (fun i => nth i rs NaN) (flat2 XRA NaN bs) (length rs)) ->
  compute_variance XRA k params rs bc bs =
  Ok (cpp_variance XRA k params bc (fun i => nth i rs NaN) (flat2 XRA NaN bs) (length rs)).
Proof.
  intros HL Hn Hb Hlo Hnan.
  destruct (cv_total XRA k params rs bc bs HL Hn Hb) as [s E]. rewrite E. f_equal.
  destruct (cv_spec XRA k params rs bc bs s NaN (NaN, NaN) E) as (h1 & h2 & h3).
  set (c := cpp_variance XRA k params bc (fun i => nth i rs NaN) (flat2 XRA NaN bs) (length rs)) in *.
  destruct (cpp_variance_step XRA k params bc (fun i => nth i rs NaN) (flat2 XRA NaN bs) (length rs) NaN HL) as [g1 g2].
  fold c in g1, g2.
  assert (H0 : (0 < length rs)%nat) by (destruct rs; simpl; [tauto|lia]).
  apply (list_eq_nth (X:=num XRA) NaN); [transitivity (length rs); [exact h1|symmetry; exact g1]|].
  rewrite h1. intros t. induction t as [|t IH]; intros Ht.
  - rewrite h2, g2; auto.
  - rewrite h3 by auto.
    assert (HN : nth (S t) c NaN <> NaN).
    { rewrite Forall_forall in Hnan. apply Hnan. apply nth_In. exact (Nat.lt_le_trans _ _ _ Ht (Nat.eq_le_incl _ _ (eq_sym g1))). }
    unfold c in HN |- *. rewrite cpp_variance_next in HN |- * by auto. fold c in HN |- *.
    rewrite IH by lia. rewrite flat2_even, flat2_odd in *.
    set (x := step_of XRA params (nth t c NaN) (nth t rs NaN)) in *.
    assert (Hx : x <> NaN).
    { intros Ex. rewrite Ex, bounds_check_cpp_nan in HN. tauto. }
    assert (Hl : fst (nth (S t) bs (NaN, NaN)) <> NaN).
    { rewrite Forall_forall in Hlo. apply Hlo. apply nth_In. exact (Nat.lt_le_trans _ _ _ Ht Hb). }
    etransitivity; [|symmetry; apply bounds_check_same; assumption].
    f_equal. apply surjective_pairing.
Qed.

(** finite inputs: the two always agree *)
Lemma bounds_check_cpp_fin s lo up : 0 < lo <= up ->
  bounds_check_cpp XRA (Fin s) (Fin lo) (Fin up) = Fin (clip_log s lo up).
Proof. intros H. rewrite bounds_check_same by discriminate. apply bounds_check_fin; auto. Qed.

Lemma step_of_fin k ps p r : length ps = nparams k ->
  exists x, step_of XRA (map Fin ps) (Fin p) (Fin r) = Fin x.
Proof.
  destruct k; simpl; intros HL; repeat (destruct ps as [|? ps]; try discriminate HL); cbn [map step_of].
  - exists (garch_update r0 r1 r2 p r). apply lifts_garch.
  - exists (gjr_update r0 r1 r2 r3 p r). apply lifts_gjr.
Qed.
Lemma s0_of_fin k ps bc : length ps = nparams k ->
  exists x, s0_of XRA (map Fin ps) (Fin bc) = Fin x.
Proof.
  destruct k; simpl; intros HL; repeat (destruct ps as [|? ps]; try discriminate HL); cbn [map s0_of].
  - eexists; cbn; reflexivity.
  - eexists. cbn [nadd nmul ndiv ofZ XRA]. rewrite xdiv_fin by lra. reflexivity.
Qed.

Lemma nth_map_fin rs t : (t < length rs)%nat -> nth t (map Fin rs) NaN = Fin (nth t rs 0).
Proof.
  intros H. rewrite (nth_indep _ NaN (Fin 0)) by (rewrite map_length; auto).
  apply map_nth.
Qed.

Theorem cpp_py_same_fin k ps rs bc bs :
  length ps = nparams k -> rs <> [] -> (length rs <= length bs)%nat -> Forall good_row bs ->
  compute_variance XRA k (map Fin ps) (map Fin rs) (Fin bc) (map finrow bs) =
  Ok (cpp_variance XRA k (map Fin ps) (Fin bc) (fun i => nth i (map Fin rs) NaN)
        (flat2 XRA NaN (map finrow bs)) (length rs)).
Proof.
  intros HL Hn Hb HB.
  rewrite <- (map_length Fin rs). apply cpp_py_same.
  - rewrite map_length; auto.
  - destruct rs; [tauto|discriminate].
  - rewrite !map_length; auto.
  - apply Forall_map. apply Forall_forall. intros; cbn; discriminate.
  - rewrite map_length.
    set (c := cpp_variance _ _ _ _ _ _ _).
    assert (HP : length (map Fin ps) = nparams k) by (rewrite map_length; auto).
    destruct (cpp_variance_step XRA k (map Fin ps) (Fin bc) (fun i => nth i (map Fin rs) NaN)
      (flat2 XRA NaN (map finrow bs)) (length rs) NaN HP) as [g1 g2]. fold c in g1, g2.
    assert (HF : forall t, (t < length rs)%nat -> exists x, nth t c NaN = Fin x).
    { intros t; induction t as [|t IH]; intros Ht.
      - rewrite g2 by auto. apply s0_of_fin with k; auto.
      - unfold c. rewrite cpp_variance_next by auto. fold c.
        destruct (IH ltac:(lia)) as [y Ey]. rewrite Ey. rewrite nth_map_fin by lia.
        destruct (step_of_fin k ps y (nth t rs 0) HL) as [z Ez]. rewrite Ez.
        rewrite flat2_even, flat2_odd.
        assert (Hbt : (S t < length bs)%nat) by lia.
        rewrite (nth_indep _ (NaN, NaN) (finrow (0, 0))) by (rewrite map_length; auto).
        rewrite map_nth. unfold finrow. cbn [fst snd].
        rewrite bounds_check_cpp_fin; eauto.
        rewrite Forall_forall in HB. apply HB. apply nth_In; auto. }
    apply Forall_forall. intros x Hx. destruct (In_nth c x NaN Hx) as (t & Ht & <-).
    rewrite g1 in Ht. destruct (HF t Ht) as [y ->]. discriminate.
Qed.

(** ** EWMA C++ = Python for every extended real input *)
Lemma xsq_mul x : xsq x = xmul x x.
Proof. destruct x; reflexivity. Qed.
Lemma ewma_loop_nth lam : forall l prev t, (t < length l)%nat ->
  nth t (ewma_loop XRA lam prev l) NaN =
  xadd (xmul lam (nth t (prev :: ewma_loop XRA lam prev l) NaN)) (xmul (xsub (Fin 1) lam) (nth t l NaN)).
Proof.
  induction l as [|x l IH]; intros prev t Ht; simpl in *; [lia|].
  destruct t; auto. apply IH; lia.
Qed.
Lemma ewma_loop_length A lam l : forall prev, length (ewma_loop A lam prev l) = length l.
Proof. induction l; intros; simpl; auto. Qed.
Theorem cpp_ewma_same rs v0 lam : rs <> [] ->
  ewma_py XRA rs v0 lam = Ok (cpp_ewma XRA (fun i => nth i rs NaN) v0 lam (length rs)).
Proof.
  intros Hn. unfold ewma_py.
  assert (H0 : (0 < length rs)%nat) by (destruct rs; simpl; [tauto|lia]).
  replace (match rs with [] => Err IndexError | _ :: _ => Ok (v0 :: ewma_loop XRA lam v0 (removelast (map nsq rs))) end)
    with (Ok (v0 :: ewma_loop XRA lam v0 (removelast (map nsq rs)))) by (destruct rs; tauto).
  f_equal. unfold cpp_ewma. apply (list_eq_nth (X:=num XRA) NaN).
  { cbn [length]. rewrite ewma_loop_length, removelast_length, !map_length, seq_length. lia. }
  cbn [length]. rewrite ewma_loop_length, removelast_length, map_length.
  intros t Ht. rewrite nth_map_seq by lia.
  induction t as [|t IH]; [reflexivity|].
  change (nth (S t) (v0 :: ?l) NaN) with (nth t l NaN).
  rewrite ewma_loop_nth by (rewrite removelast_length, map_length; lia).
  rewrite IH by lia. cbn [cpp_ewma_at nadd nmul nsub ofZ XRA].
  rewrite removelast_nth by (rewrite map_length; lia).
  f_equal. f_equal.
  rewrite (nth_indep _ NaN (nsq (a:=XRA) NaN)) by (rewrite map_length; lia).
  rewrite map_nth. apply xsq_mul.
Qed.

(** ** wrappers *)
Lemma cpp_ewma_at_ext A r r' v0 lam t : (forall i, (i < t)%nat -> r i = r' i) ->
  cpp_ewma_at A r v0 lam t = cpp_ewma_at A r' v0 lam t.
Proof. induction t; intros H; simpl; auto. rewrite IHt, H; auto. Qed.
Lemma cpp_garch_at_ext A o a b bc r r' vb t : (forall i, (i < t)%nat -> r i = r' i) ->
  cpp_garch_at A o a b bc r vb t = cpp_garch_at A o a b bc r' vb t.
Proof. induction t; intros H; cbn [cpp_garch_at]; auto. rewrite IHt, H; auto. Qed.
Lemma cpp_gjr_at_ext A o a g b bc r r' vb t : (forall i, (i < t)%nat -> r i = r' i) ->
  cpp_gjr_at A o a g b bc r vb t = cpp_gjr_at A o a g b bc r' vb t.
Proof. induction t; intros H; cbn [cpp_gjr_at]; auto. rewrite IHt, H; auto. Qed.
Lemma raw_logical A (a : ndarray A) d i : (i < dim A a)%nat -> stride A a = 1%nat ->
  raw A a i = nth i (logical A a) d.
Proof.
  intros Hi Hs. unfold raw, logical. rewrite nth_map_seq by auto. rewrite Hs, Nat.mul_1_r. auto.
Qed.
Lemma map_seq_ext {X} (f g : nat -> X) n : (forall i, (i < n)%nat -> f i = g i) ->
  map f (seq 0 n) = map g (seq 0 n).
Proof. intros H. apply map_ext_in. intros i Hi. apply in_seq in Hi. apply H; lia. Qed.

(** ** grid search *)
Fixpoint last_sat {X} (P : X -> bool) (l : list X) (d : X) : X :=
  match l with [] => d | x :: l' => last_sat P l' (if P x then x else d) end.
Lemma grid_search_spec A score ml : forall cands init r,
  grid_search A score ml cands init = Ok r ->
  exists sc, (forall c, In c cands -> score c = Ok (sc c)) /\
    r = last_sat (fun c => nltb ml (nopp (sc c))) cands init.
Proof.
  intros cands init0 r H.
  exists (fun c => match score c with Ok x => x | Err _ => nnan end).
  revert init0 r H. induction cands as [|c cs IH]; intros i0 r H; simpl in *.
  - split; [tauto|congruence].
  - destruct (score c) as [x|e] eqn:E; simpl in H; [|discriminate].
    destruct (IH _ _ H) as [h1 h2]. split.
    + intros c' [->|Hc]; [rewrite E; auto|apply h1; auto].
    + rewrite h2. reflexivity.
Qed.
Lemma last_sat_all {X} (P : X -> bool) l d x : (forall y, In y (l ++ [x]) -> P y = true) ->
  last_sat P (l ++ [x]) d = x.
Proof.
  revert d; induction l as [|y l IH]; intros d H; simpl in *.
  - rewrite H; auto.
  - rewrite H by auto. apply IH. intros; apply H; auto.
Qed.
Lemma grid_search_total A score ml : forall cands init,
  (forall c, In c cands -> exists x, score c = Ok x) ->
  exists r, grid_search A score ml cands init = Ok r.
Proof.
  induction cands as [|c cs IH]; intros i0 H; simpl; eauto.
  destruct (H c) as [x E]; simpl; auto. rewrite E. simpl. apply IH. intros; apply H; simpl; auto.
Qed.
Lemma grid_search_last A score ml cands x init : 
  (forall c, In c (cands ++ [x]) -> exists v, score c = Ok v /\ nltb ml (nopp v) = true) ->
  grid_search A score ml (cands ++ [x]) init = Ok x.
Proof.
  revert init; induction cands as [|c cs IH]; intros i0 H; simpl in *.
  - destruct (H x) as (v & E & Hv); auto. rewrite E; simpl. rewrite Hv. auto.
  - destruct (H c) as (v & E & Hv); auto. rewrite E; simpl. rewrite Hv. apply IH. intros; apply H; auto.
Qed.
