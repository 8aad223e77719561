(** * C57: which observations go left at a split on a string attribute *)
From Coq Require Import Reals Lra ZArith List Bool Arith Lia.
From Verif Require Import Arith XR Model_iforest Spec_iforest Props_iforest.
Import ListNotations.

(** ** Specification: shorter strings first; strings of one length in dictionary order of their bytes *)
Definition before (a b : list nat) : Prop :=
  length a < length b \/
  (length a = length b /\ exists p x y a' b', a = p ++ x :: a' /\ b = p ++ y :: b' /\ x < y).

Lemma strcmp_lt_spec a b : length a = length b ->
  (strcmp_lt a b = true <-> exists p x y a' b', a = p ++ x :: a' /\ b = p ++ y :: b' /\ x < y).
Proof.
  revert b. induction a as [|x a IH]; intros [|y b] H; try discriminate H.
  - split; [discriminate|]. intros (p & x & y & a' & b' & E & _). destruct p; discriminate E.
  - cbn [strcmp_lt]. assert (H' : length a = length b) by (cbn in H; lia).
    destruct (Nat.ltb_spec x y) as [L|L].
    + split; auto. intros _. exists [], x, y, a, b. auto.
    + destruct (Nat.ltb_spec y x) as [M|M].
      * split; [discriminate|]. intros (p & u & v & a' & b' & E1 & E2 & E3).
        destruct p as [|z p]; cbn in E1, E2; injection E1 as -> ->; injection E2 as -> ->; lia.
      * assert (x = y) as -> by lia. rewrite (IH b H'). split.
        -- intros (p & u & v & a' & b' & -> & -> & E3). exists (y :: p), u, v, a', b'. auto.
        -- intros (p & u & v & a' & b' & E1 & E2 & E3).
           destruct p as [|z p]; cbn in E1, E2; injection E1 as -> ->; injection E2; intros; subst; [lia|].
           exists p, u, v, a', b'. auto.
Qed.
Lemma str_lt_spec a b : str_lt a b = true <-> before a b.
Proof.
  unfold str_lt, before. destruct (Nat.ltb_spec (length a) (length b)) as [L|L].
  - split; auto.
  - destruct (Nat.ltb_spec (length b) (length a)) as [M|M].
    + split; [discriminate|]. lia.
    + rewrite strcmp_lt_spec by lia. split; [right; split; [lia|auto]|]. intros [?|[_ ?]]; [lia|auto].
Qed.

(** the rule is the same while growing and while scoring, in any arithmetic: left exactly when the
    observation's string comes before the split string *)
Theorem C57_string_split : forall (A : Arith) (d : dataset A) attr s o,
  (grow_left A d attr (SplitStr s) o = true <-> before (char_val A d (attr - n_num A d) o) s) /\
  score_left A d attr (SplitStr s) o = grow_left A d attr (SplitStr s) o.
Proof. intros. split; [apply str_lt_spec|reflexivity]. Qed.

(** so the left child of a node split on a string attribute receives, in order, exactly the sample
    observations whose string comes before the drawn observation's string, and the right child the others *)
Theorem C57_string_children : forall (A : Arith) (d : dataset A) rg h sample g attr g1 ix g2,
  1 < length sample -> draw_attr rg g = (attr, g1) -> draw_index rg (length sample) g1 = (ix, g2) ->
  n_num A d <= attr ->
  let key o := char_val A d (attr - n_num A d) o in
  let s := key (nth ix sample 0) in
  exists lobs robs,
    growTree A d rg (S h) sample g = Node attr (SplitStr s) (length sample) (growTree A d rg h lobs g2) (growTree A d rg h robs g2) /\
    (forall o, In o lobs <-> In o sample /\ before (key o) s) /\
    (forall o, In o robs <-> In o sample /\ ~ before (key o) s) /\
    length lobs + length robs = length sample.
Proof.
  intros A d rg h sample g attr g1 ix g2 Hl Ha Hi Hn key s.
  exists (filter (grow_left A d attr (SplitStr s)) sample), (filter (fun o => negb (grow_left A d attr (SplitStr s) o)) sample).
  split; [|split; [|split]].
  - cbn [growTree]. destruct (Nat.leb_spec (length sample) 1); [lia|]. rewrite Ha, Hi.
    unfold split_of. destruct (Nat.ltb_spec attr (n_num A d)); [lia|]. reflexivity.
  - intros o. rewrite filter_In. rewrite (proj1 (C57_string_split A d attr s o)). reflexivity.
  - intros o. rewrite filter_In, negb_true_iff, <- not_true_iff_false.
    rewrite (proj1 (C57_string_split A d attr s o)). reflexivity.
  - symmetry. apply filter_split_len.
Qed.

(** the order is a strict total order, so equal strings are never separated and different strings always can be *)
Theorem C57_string_order : forall a b c : list nat,
  ~ before a a /\ (before a b -> before b c -> before a c) /\ (before a b \/ a = b \/ before b a).
Proof.
  intros a b c. split; [|split].
  - rewrite <- str_lt_spec, str_lt_irrefl. discriminate.
  - intros [L|(L & p & x & y & a' & b' & Ea & Eb & Hxy)] [M|(M & q & u & v & b'' & c' & Fb & Fc & Huv)];
      try (left; lia).
    right. split; [lia|]. clear L M. revert a b c q Ea Eb Fb Fc.
    induction p as [|z p IH]; intros a b c q Ea Eb Fb Fc.
    + destruct q as [|w q]; rewrite Eb in Fb; cbn in Fb; injection Fb; intros E1 E2; subst; cbn.
      * exists [], x, v, a', c'. split; [|split]; auto; lia.
      * exists [], x, w, a', (q ++ v :: c'). auto.
    + destruct q as [|w q]; rewrite Eb in Fb; cbn in Fb; injection Fb; intros E1 E2; subst; cbn.
      * exists [], u, v, (p ++ x :: a'), c'. auto.
      * destruct (IH (p ++ x :: a') (p ++ y :: b') (q ++ v :: c') q eq_refl eq_refl E1 eq_refl) as (r & i & j & s & t & H1 & H2 & H3).
        rewrite H1, H2. exists (w :: r), i, j, s, t. auto.
  - destruct (Nat.lt_trichotomy (length a) (length b)) as [L|[L|L]].
    + left; left; auto.
    + revert b L. clear c. induction a as [|x a IH]; intros [|y b] L; try discriminate L; auto.
      destruct (Nat.lt_trichotomy x y) as [E|[->|E]].
      * left; right. split; auto. exists [], x, y, a, b; auto.
      * cbn in L. destruct (IH b ltac:(lia)) as [[E|(_ & p & u & v & s & t & -> & -> & E)]|[->|[E|(_ & p & u & v & s & t & -> & -> & E)]]]; auto; try lia.
        -- left; right. split; [cbn; lia|]. exists (y :: p), u, v, s, t; auto.
        -- right; right; right. split; [cbn; lia|]. exists (y :: p), u, v, s, t; auto.
      * right; right; right. split; auto. exists [], y, x, b, a; auto.
    + right; right; left; auto.
Qed.

(** "B" comes before "AA" (shorter), "AB" before "BA", and nothing else *)
Example C57_strings_case : before [66] [65; 65] /\ ~ before [65; 65] [66] /\ before [65; 66] [66; 65] /\ ~ before [66; 65] [65; 66].
Proof.
  rewrite <- !str_lt_spec. repeat split; try reflexivity; discriminate.
Qed.
