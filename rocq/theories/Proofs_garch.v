From Coq Require Import Reals Lra List ZArith Lia Bool Arith.
From Verif Require Import Arith XR RealAux Model_garch Spec_garch.
Import ListNotations.

(** ** Structural facts, valid for every arithmetic *)
Section Gen.
Context (A : Arith).
Notation num := (num A).

Lemma removelast_length {X} (l : list X) : length (removelast l) = (length l - 1)%nat.
Proof. induction l as [|a [|b l] IH]; simpl in *; auto; lia. Qed.
Lemma removelast_nth {X} (l : list X) t d : (S t < length l)%nat -> nth t (removelast l) d = nth t l d.
Proof.
  revert t; induction l as [|a [|b l] IH]; simpl; intros t H; try lia.
  destruct t; auto. apply IH; simpl; lia.
Qed.
Lemma tl_nth {X} (l : list X) t d : nth t (tl l) d = nth (S t) l d.
Proof. destruct l; simpl; auto. destruct t; auto. Qed.
Lemma tl_length {X} (l : list X) : length (tl l) = (length l - 1)%nat.
Proof. destruct l; simpl; auto; lia. Qed.

Lemma var_loop_total step prev rs bs :
  (length rs <= length bs)%nat -> exists out, var_loop A step prev rs bs = Ok out.
Proof.
  revert prev bs; induction rs as [|r rs IH]; intros prev bs H; simpl; eauto.
  destruct bs as [|b bs]; simpl in *; [lia|].
  edestruct (IH (bounds_check_py A (step prev r) b) bs) as [o E]; [lia|].
  rewrite E; simpl; eauto.
Qed.
Lemma var_loop_error step prev rs bs :
  (length bs < length rs)%nat -> var_loop A step prev rs bs = Err IndexError.
Proof.
  revert prev bs; induction rs as [|r rs IH]; intros prev bs H; simpl in *; [lia|].
  destruct bs as [|b bs]; simpl in *; auto.
  rewrite IH; simpl; auto; lia.
Qed.
Lemma var_loop_spec step prev rs bs out d db :
  var_loop A step prev rs bs = Ok out ->
  length out = length rs /\
  forall t, (t < length rs)%nat ->
    nth t out d = bounds_check_py A (step (nth t (prev :: out) d) (nth t rs d)) (nth t bs db).
Proof.
  revert prev bs out; induction rs as [|r rs IH]; intros prev bs out; simpl.
  - intros [= <-]; simpl; split; auto; intros; lia.
  - destruct bs as [|b bs]; [discriminate|].
    destruct (var_loop A step (bounds_check_py A (step prev r) b) rs bs) as [o|e] eqn:E; simpl; [|discriminate].
    intros [= <-]. destruct (IH _ _ _ E) as [HL HN]. simpl; split; [lia|].
    intros [|t] Ht; auto. apply HN; lia.
Qed.
Lemma var_loop_causal step prev rs rs' bs bs' out out' d t :
  var_loop A step prev rs bs = Ok out -> var_loop A step prev rs' bs' = Ok out' ->
  firstn (S t) rs = firstn (S t) rs' -> firstn (S t) bs = firstn (S t) bs' ->
  nth t out d = nth t out' d.
Proof.
  revert prev rs rs' bs bs' out out'; induction t as [|t IH];
    intros prev rs rs' bs bs' out out' H1 H2 H3 H4;
    destruct rs as [|r rs], rs' as [|r' rs']; try discriminate.
  - simpl in H1, H2. congruence.
  - injection H3 as <-. simpl in H1, H2.
    destruct bs as [|b bs], bs' as [|b' bs']; try discriminate. injection H4 as <-.
    destruct (var_loop A step _ rs bs); simpl in H1; [|discriminate].
    destruct (var_loop A step _ rs' bs'); simpl in H2; [|discriminate].
    injection H1 as <-; injection H2 as <-. reflexivity.
  - simpl in H1, H2. congruence.
  - change (firstn (S (S t)) (r :: rs)) with (r :: firstn (S t) rs) in H3.
    change (firstn (S (S t)) (r' :: rs')) with (r' :: firstn (S t) rs') in H3.
    injection H3 as <- H3. simpl in H1, H2.
    destruct bs as [|b bs], bs' as [|b' bs']; try discriminate.
    change (firstn (S (S t)) (b :: bs)) with (b :: firstn (S t) bs) in H4.
    change (firstn (S (S t)) (b' :: bs')) with (b' :: firstn (S t) bs') in H4.
    injection H4 as <- H4.
    destruct (var_loop A step _ rs bs) eqn:E1; simpl in H1; [|discriminate].
    destruct (var_loop A step _ rs' bs') eqn:E2; simpl in H2; [|discriminate].
    injection H1 as <-; injection H2 as <-. simpl. eapply IH; eauto.
Qed.

Lemma firstn_removelast {X} (l l' : list X) t :
  firstn (S t) l = firstn (S t) l' -> (S t < length l)%nat -> (S t < length l')%nat ->
  firstn (S t) (removelast l) = firstn (S t) (removelast l').
Proof.
  intros H H1 H2.
  assert (forall (m : list X), (S t < length m)%nat -> firstn (S t) (removelast m) = firstn (S t) m) as K.
  { clear. intros m Hm. rewrite removelast_firstn_len, firstn_firstn. f_equal; lia. }
  rewrite !K; auto.
Qed.
Lemma firstn_tl {X} (l l' : list X) t :
  firstn (S t) l = firstn (S t) l' -> firstn t (tl l) = firstn t (tl l').
Proof. destruct l, l'; simpl; intros H; try discriminate; auto. injection H; auto. Qed.

(** the two models share one shape *)
Definition s0_of (params : list num) (backcast : num) : num :=
  match params with
  | [omega; alpha; beta] => (omega ⊕ (alpha ⊕ beta) ⊗ backcast)%num
  | [omega; alpha; gamma; beta] => (omega ⊕ (alpha ⊕ gamma ⊘ ofZ 2 ⊕ beta) ⊗ backcast)%num
  | _ => nnan
  end.
Definition step_of (params : list num) : num -> num -> num :=
  match params with
  | [omega; alpha; beta] => garch_step A omega alpha beta
  | [omega; alpha; gamma; beta] => gjr_step A omega alpha gamma beta
  | _ => fun x _ => x
  end.
Definition nparams (k : kind) := match k with KGarch => 3%nat | KGjr => 4%nat end.

Lemma cv_unfold k params rs bc bs :
  length params = nparams k -> rs <> [] ->
  compute_variance A k params rs bc bs =
  bind (var_loop A (step_of params) (s0_of params bc) (removelast rs) (tl bs))
       (fun rest => Ok (s0_of params bc :: rest)).
Proof.
  intros HL Hn. destruct k; simpl in HL;
  repeat (destruct params as [|? params]; try discriminate HL);
  unfold compute_variance, garch_variance_py, gjr_variance_py; destruct rs; try tauto; reflexivity.
Qed.

Lemma cv_inv k params rs bc bs s :
  compute_variance A k params rs bc bs = Ok s ->
  length params = nparams k /\ rs <> [] /\
  exists rest, var_loop A (step_of params) (s0_of params bc) (removelast rs) (tl bs) = Ok rest
               /\ s = s0_of params bc :: rest.
Proof.
  intros H.
  assert (HL : length params = nparams k).
  { destruct k; unfold compute_variance, garch_variance_py, gjr_variance_py in H;
    repeat (destruct params as [|? params]; simpl in H; try discriminate H); auto. }
  assert (Hn : rs <> []).
  { intros ->. destruct k; simpl in HL;
    repeat (destruct params as [|? params]; try discriminate HL); discriminate H. }
  split; auto; split; auto. rewrite cv_unfold in H by auto.
  destruct (var_loop A (step_of params) (s0_of params bc) (removelast rs) (tl bs)) as [rest|e];
    simpl in H; [|discriminate].
  injection H as <-; eauto.
Qed.

Theorem cv_total k params rs bc bs :
  length params = nparams k -> rs <> [] -> (length rs <= length bs)%nat ->
  exists s, compute_variance A k params rs bc bs = Ok s.
Proof.
  intros H1 H2 H3. rewrite cv_unfold by auto.
  edestruct var_loop_total as [o E]; [|rewrite E; simpl; eauto].
  rewrite removelast_length, tl_length. lia.
Qed.

Theorem cv_spec k params rs bc bs s d db :
  compute_variance A k params rs bc bs = Ok s ->
  length s = length rs /\ nth 0 s d = s0_of params bc /\
  forall t, (S t < length rs)%nat ->
    nth (S t) s d = bounds_check_py A (step_of params (nth t s d) (nth t rs d)) (nth (S t) bs db).
Proof.
  intros H. apply cv_inv in H as (HL & Hn & rest & E & ->).
  destruct (var_loop_spec _ _ _ _ _ d db E) as [HL2 HN].
  rewrite removelast_length in *.
  assert (length rs <> 0)%nat by (destruct rs; simpl; [tauto|lia]).
  split; [simpl; lia|]. split; [reflexivity|].
  intros t Ht. change (nth (S t) (s0_of params bc :: rest) d) with (nth t rest d).
  rewrite HN by lia. rewrite removelast_nth, tl_nth by auto. reflexivity.
Qed.

Theorem cv_causal k params rs rs' bc bs bs' s s' t d :
  compute_variance A k params rs bc bs = Ok s ->
  compute_variance A k params rs' bc bs' = Ok s' ->
  (t < length rs)%nat -> (t < length rs')%nat ->
  firstn t rs = firstn t rs' -> firstn (S t) bs = firstn (S t) bs' ->
  nth t s d = nth t s' d.
Proof.
  intros H1 H2 H3 H4 H5 H6.
  apply cv_inv in H1 as (HL1 & Hn1 & rest1 & E1 & ->).
  apply cv_inv in H2 as (HL2 & Hn2 & rest2 & E2 & ->).
  destruct t as [|t]; [reflexivity|]. simpl.
  eapply var_loop_causal; eauto.
  - apply firstn_removelast; auto.
  - apply firstn_tl; auto.
Qed.
End Gen.
