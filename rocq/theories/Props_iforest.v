(** * Theorems: isolation trees (C57, C62, C76) and their scores (C58) *)
From Coq Require Import Reals Lra ZArith List Bool Arith Lia Permutation.
From Verif Require Import Arith XR RealAux Model_iforest Spec_iforest.
Import ListNotations.

(** ** Structure of grown trees: any arithmetic, any generator whose index draws are in range *)
Definition index_in_range (rg : rng) : Prop := forall n (g : gen rg), 0 < n -> fst (draw_index rg n g) < n.

Lemma filter_split {X} (f : X -> bool) l : Permutation l (filter f l ++ filter (fun x => negb (f x)) l).
Proof.
  induction l as [|x l IH]; auto. cbn [filter]. destruct (f x); cbn [negb app].
  - constructor; auto.
  - eapply Permutation_trans; [apply perm_skip, IH|]. apply Permutation_middle.
Qed.
Lemma filter_split_len {X} (f : X -> bool) l : length l = length (filter f l) + length (filter (fun x => negb (f x)) l).
Proof. rewrite <- app_length. apply Permutation_length, filter_split. Qed.

Section Grow.
Context {A : Arith}.
Lemma growTree_count d rg h sample g : tree_count (growTree A d rg h sample g) = length sample.
Proof.
  destruct h; cbn [growTree]; auto. destruct (length sample <=? 1) eqn:E; auto.
  destruct (draw_attr rg g), (draw_index rg (length sample) g0). reflexivity.
Qed.
Theorem C57_partition : forall (d : dataset A) rg treeSize sample g, index_in_range rg ->
  let t := growTree A d rg (maxTreeHeight treeSize) sample g in
  partitions d t sample /\ counts_add_up t /\ tree_count t = length sample /\ leaf_total t = length sample /\
  height t <= maxTreeHeight treeSize /\ big_leaves_at (maxTreeHeight treeSize) t.
Proof.
  intros d rg ts sample g Hrg; cbn zeta. generalize (maxTreeHeight ts) as h; clear ts. intros h.
  revert sample g. induction h as [|h IH]; intros sample g.
  - cbn [growTree]. repeat split; auto. constructor. right; auto.
  - cbn [growTree]. destruct (length sample <=? 1) eqn:E.
    + repeat split; auto. constructor. cbn. lia. left. apply Nat.leb_le; auto.
    + apply Nat.leb_gt in E.
      destruct (draw_attr rg g) as [attr g1]. destruct (draw_index rg (length sample) g1) as [ix g2] eqn:Ei.
      assert (Hix : ix < length sample) by (generalize (Hrg (length sample) g1 ltac:(lia)); rewrite Ei; auto).
      set (sp := split_of A d attr (nth ix sample 0)).
      destruct (IH (filter (grow_left A d attr sp) sample) g2) as (P1&P2&P3&P4&P5&P6).
      destruct (IH (filter (fun o => negb (grow_left A d attr sp o)) sample) g2) as (Q1&Q2&Q3&Q4&Q5&Q6).
      assert (HL := filter_split_len (grow_left A d attr sp) sample).
      repeat split.
      * apply p_node with (lo := filter (grow_left A d attr sp) sample)
          (ro := filter (fun o => negb (grow_left A d attr sp o)) sample); auto.
        -- apply nth_In; auto.
        -- apply filter_split.
        -- intros o Ho. apply filter_In in Ho. apply Ho.
        -- intros o Ho. apply filter_In in Ho. destruct Ho as [_ Ho]. apply negb_true_iff in Ho; auto.
      * rewrite P3, Q3; auto.
      * lia.
      * auto.
      * auto.
      * cbn [leaf_total]. rewrite P4, Q4; auto.
      * cbn [height]. lia.
      * auto.
      * auto.
Qed.
(** the height limit is the documented ceil(log2(tree_size)) *)
Theorem C57_height_limit : forall treeSize, 2 <= treeSize ->
  2 ^ (maxTreeHeight treeSize - 1) < treeSize <= 2 ^ maxTreeHeight treeSize.
Proof.
  intros n Hn. unfold maxTreeHeight. destruct (Nat.log2_up_spec n ltac:(lia)) as [H1 H2].
  rewrite <- Nat.sub_1_r in H1. auto.
Qed.
(** the drawn observation itself goes right, so the right child is never empty, unless the split value is NaN *)
Definition complete (d : dataset A) : Prop := forall attr o, isnan (num_val A d attr o) = false.
Definition irreflexive : Prop := forall x : num A, nltb x x = false.
Lemma strcmp_irrefl s : strcmp_lt s s = false.
Proof. induction s; cbn [strcmp_lt]; auto. rewrite Nat.ltb_irrefl. auto. Qed.
Lemma str_lt_irrefl s : str_lt s s = false.
Proof. unfold str_lt. rewrite Nat.ltb_irrefl. apply strcmp_irrefl. Qed.
Theorem C57_right_never_empty : forall (d : dataset A) rg h sample g, index_in_range rg ->
  irreflexive -> complete d -> right_nonempty (growTree A d rg h sample g).
Proof.
  intros d rg h sample g Hrg Hir Hc. revert sample g. induction h as [|h IH]; intros sample g; cbn [growTree].
  - exact I.
  - destruct (length sample <=? 1) eqn:E; [exact I|]. apply Nat.leb_gt in E.
    destruct (draw_attr rg g) as [attr g1]. destruct (draw_index rg (length sample) g1) as [ix g2] eqn:Ei.
    assert (Hix : ix < length sample) by (generalize (Hrg (length sample) g1 ltac:(lia)); rewrite Ei; auto).
    cbn [right_nonempty]. split; [|split; apply IH].
    rewrite growTree_count.
    assert (Hin : In (nth ix sample 0) (filter (fun o => negb (grow_left A d attr (split_of A d attr (nth ix sample 0)) o)) sample)).
    { apply filter_In. split; [apply nth_In; auto|]. apply negb_true_iff. unfold split_of.
      destruct (attr <? n_num A d); cbn [grow_left]. rewrite Hc. cbn [orb]. apply Hir.
      apply str_lt_irrefl. }
    destruct (filter _ _); [destruct Hin|cbn; lia].
Qed.

(** ** C76 *)
Theorem C76_siblings_same_attribute : forall (d : dataset A) rg h sample g,
  siblings_same_attr (growTree A d rg h sample g).
Proof.
  intros d rg. induction h as [|h IH]; intros sample g; cbn [growTree]; [exact I|].
  destruct (length sample <=? 1); [exact I|].
  destruct (draw_attr rg g) as [attr g1]. destruct (draw_index rg (length sample) g1) as [ix g2].
  cbn [siblings_same_attr]. split; [|split; apply IH].
  intros a b. destruct h; cbn [growTree root_attr]; [discriminate|].
  destruct (length (filter (grow_left _ _ _ _) sample) <=? 1); [discriminate|].
  destruct (length (filter (fun o => negb _) sample) <=? 1);
    [destruct (draw_attr rg g2), (draw_index rg _ _); discriminate|].
  destruct (draw_attr rg g2) as [a' g3]. destruct (draw_index rg _ g3). destruct (draw_index rg _ g3).
  cbn. congruence.
Qed.
(** the attributes used at one depth *)
Fixpoint attrs_at (depth : nat) (t : tree A) : list nat :=
  match t, depth with
  | Leaf _, _ => []
  | Node a _ _ _ _, O => [a]
  | Node _ _ _ l r, S k => attrs_at k l ++ attrs_at k r
  end.
(** If moreover an index draw consumes a number of engine steps that does not depend on the range (true
    for std::uniform_int_distribution unless a draw is rejected), all internal nodes at the same depth of
    a tree split on the same attribute: a tree of height h uses at most h attributes. *)
Definition uniform_consumption (rg : rng) : Prop :=
  forall n m (g : gen rg), snd (draw_index rg n g) = snd (draw_index rg m g).
(** the attribute used at depth k *)
Fixpoint attr_of_depth (rg : rng) (g : gen rg) (k : nat) : nat :=
  let (attr, g1) := draw_attr rg g in
  match k with O => attr | S k' => attr_of_depth rg (snd (draw_index rg 2 g1)) k' end.
Theorem C76_one_attribute_per_depth : forall (d : dataset A) rg h sample g, uniform_consumption rg ->
  forall depth, forall a b, In a (attrs_at depth (growTree A d rg h sample g)) ->
  In b (attrs_at depth (growTree A d rg h sample g)) -> a = b.
Proof.
  intros d rg h sample g Hu.
  assert (H : forall h sample g k a, In a (attrs_at k (growTree A d rg h sample g)) -> a = attr_of_depth rg g k).
  { clear h sample g. induction h as [|h IH]; intros sample g k a; cbn [growTree].
    - destruct k; intros [].
    - destruct (length sample <=? 1); [destruct k; intros []|].
      destruct k as [|k]; cbn [attr_of_depth].
      + destruct (draw_attr rg g) as [attr g1]. destruct (draw_index rg _ g1). cbn. intros [->|[]]; auto.
      + destruct (draw_attr rg g) as [attr g1]. rewrite (Hu 2 (length sample) g1).
        destruct (draw_index rg (length sample) g1) as [ix g2]. cbn [attrs_at snd].
        intros Hin. apply in_app_or in Hin. destruct Hin; eapply IH; eauto. }
  intros k a b Ha Hb. rewrite (H _ _ _ _ _ Ha), (H _ _ _ _ _ Hb). reflexivity.
Qed.
End Grow.
Arguments complete {A}. Arguments irreflexive A : clear implicits.

Lemma path_eqb_iff p q : path_eqb p q = true <-> p = q.
Proof. unfold path_eqb. destruct (list_eq_dec bool_dec p q); split; auto; discriminate. Qed.
Lemma path_eqb_false p q : path_eqb p q = false <-> p <> q.
Proof. unfold path_eqb. destruct (list_eq_dec bool_dec p q); split; auto; congruence. Qed.
(** ** C62.  Complete data: an observation of the sample is scored along the path it was grown along, so
    the leaf reached on a path holds exactly the sample observations that are scored along that path. *)
Theorem C62_complete_data_consistent : forall (A : Arith) (d : dataset A) rg h sample g, complete d ->
  let t := growTree A d rg h sample g in
  forall ob, In ob sample ->
    leaf_at t (score_path d t ob) =
    Some (length (filter (fun o => path_eqb (score_path d t o) (score_path d t ob)) sample)).
Proof.
  intros A d rg h sample g Hc; cbn zeta. revert sample g.
  assert (Hgs : forall attr sp, (forall v, sp = SplitNum v -> isnan v = false) ->
            forall o, grow_left A d attr sp o = score_left A d attr sp o).
  { intros attr sp Hsp o. destruct sp as [v|s]; cbn; auto. rewrite (Hsp v eq_refl), Hc. reflexivity. }
  induction h as [|h IH]; intros sample g ob Hin; cbn [growTree].
  - cbn [score_path leaf_at]. f_equal. f_equal. symmetry. clear Hin. induction sample; cbn; auto. f_equal; auto.
  - destruct (length sample <=? 1).
    + cbn [score_path leaf_at]. f_equal. f_equal. symmetry. clear Hin. induction sample; cbn; auto. f_equal; auto.
    + destruct (draw_attr rg g) as [attr g1]. destruct (draw_index rg (length sample) g1) as [ix g2].
      set (sp := split_of A d attr (nth ix sample 0)).
      assert (E : forall o, grow_left A d attr sp o = score_left A d attr sp o).
      { apply Hgs. intros v. unfold sp, split_of. destruct (_ <? _); [|discriminate].
        intros H; injection H as <-; apply Hc. }
      set (L := growTree A d rg h (filter (grow_left A d attr sp) sample) g2) in *.
      set (R := growTree A d rg h (filter (fun o => negb (grow_left A d attr sp o)) sample) g2) in *.
      cbn [score_path leaf_at]. rewrite <- E.
      assert (F : forall (L R : tree A) (s : list nat) (b : bool), filter (fun o => path_eqb (score_left A d attr sp o :: score_path d (if score_left A d attr sp o then L else R) o)
                                     (b :: score_path d (if b then L else R) ob)) s
                  = filter (fun o => path_eqb (score_path d (if b then L else R) o) (score_path d (if b then L else R) ob))
                      (filter (fun o => Bool.eqb (grow_left A d attr sp o) b) s)).
      { clear - E. intros L R s b. induction s as [|o s IHs]; auto. cbn [filter]. rewrite IHs, E.
        destruct (Bool.eqb (score_left A d attr sp o) b) eqn:Eb.
        - apply eqb_prop in Eb. rewrite Eb. cbn [filter].
          replace (path_eqb (b :: score_path d (if b then L else R) o) (b :: score_path d (if b then L else R) ob))
            with (path_eqb (score_path d (if b then L else R) o) (score_path d (if b then L else R) ob)); [reflexivity|].
          apply eq_true_iff_eq. rewrite !path_eqb_iff. split; [intros ->; auto|]. intros e; injection e; auto.
        - rewrite (proj2 (path_eqb_false _ _)); [reflexivity|].
          intros e. injection e as e _. rewrite e, eqb_reflx in Eb. discriminate. }
      rewrite F. destruct (grow_left A d attr sp ob) eqn:Eo.
      * unfold L. rewrite IH by (apply filter_In; auto). do 3 f_equal.
        apply filter_ext. intros o. destruct (grow_left A d attr sp o); reflexivity.
      * unfold R. rewrite IH by (apply filter_In; rewrite Eo; auto). do 3 f_equal.
Qed.
(** Missing values: at a split on a number they are grown left but scored right ... *)
Theorem C62_missing_routed_apart : forall (A : Arith) (d : dataset A) attr v o,
  (forall x y : num A, isnan x = true -> nltb x y = false) ->
  isnan (num_val A d attr o) = true ->
  grow_left A d attr (SplitNum v) o = true /\ score_left A d attr (SplitNum v) o = false.
Proof. intros A d attr v o Hn Ho. cbn. rewrite Ho, Hn by auto. split; auto. destruct (isnan v); reflexivity. Qed.
(** ... and at a split whose value is missing everything is scored right, whatever it was grown as. *)
Theorem C62_missing_split_value : forall (A : Arith) (d : dataset A) attr v o,
  (forall x y : num A, isnan y = true -> nltb x y = false) ->
  isnan v = true -> score_left A d attr (SplitNum v) o = false.
Proof. intros A d attr v o Hn Hv. cbn. auto. Qed.
(** concrete cases: an engine counting its draws, always picking the last index *)
Definition count_rng : rng :=
  mkRng nat (fun s => s) (fun g => (0, S g)) (fun n g => (n - 1, S g)) (fun g => ([0; 1; 2], S g)).
Lemma count_rng_in_range : index_in_range count_rng.
Proof. intros n g Hn. cbn. lia. Qed.
Definition strings : dataset XRA := mkData XRA 0 1 3 (fun _ _ => NaN) (fun _ o => repeat 65 o).
Example C57_case : index_in_range count_rng /\
  growTree XRA strings count_rng (maxTreeHeight 4) [0; 1; 2] 7 =
  Node 0 (SplitStr (A:=XRA) [65; 65]) 3 (Node 0 (SplitStr (A:=XRA) [65]) 2 (Leaf 1) (Leaf 1)) (Leaf 1) /\
  maxTreeHeight 4 = 2 /\ uniform_consumption count_rng.
Proof. split; [apply count_rng_in_range|]. split; [reflexivity|]. split; [reflexivity|]. intros n m g; reflexivity. Qed.
(** missing values: NaN for observation 0 *)
Definition with_nan : dataset XRA := mkData XRA 1 0 2 (fun _ o => match o with 0 => NaN | _ => Fin 1%R end) (fun _ _ => []).
Theorem C62_missing_refuted :
  let t := growTree XRA with_nan count_rng 1 [0; 1] 0 in
  leaf_at t (score_path with_nan t 0) = Some 1 /\
  length (filter (fun o => path_eqb (score_path with_nan t o) (score_path with_nan t 0)) [0; 1]) = 2.
Proof.
  assert (E : growTree XRA with_nan count_rng 1 [0; 1] 0 = Node 0 (SplitNum (A:=XRA) (Fin 1%R)) 2 (Leaf 1) (Leaf 1)).
  { cbn [growTree length Nat.leb draw_attr draw_index count_rng]. cbn -[xltb]. rewrite (xltb_false 1 1) by lra. reflexivity. }
  cbn zeta. rewrite E. cbn -[xltb path_eqb]. rewrite (xltb_false 1 1) by lra. cbn -[xltb].
  split; reflexivity.
Qed.
Theorem C57_right_empty_with_missing_split :
  exists d : dataset XRA, exists t, t = growTree XRA d count_rng 1 [0; 1] 0 /\ t = Node 0 (SplitNum (A:=XRA) NaN) 2 (Leaf 2) (Leaf 0).
Proof. exists (mkData XRA 1 0 2 (fun _ _ => NaN) (fun _ _ => [])). eexists. split; reflexivity. Qed.

(** ** C58: scores *)
Local Open Scope R_scope.
Definition gamma_e : R := 57721566490153286 / 10 ^ 17.
(** the normaliser c(n) of Liu, Ting and Zhou, for n > 1 *)
Definition c_norm (n : nat) : R := 2 * (ln (INR n - 1) + gamma_e) - 2 * (INR n - 1) / INR n.
(** path length: depth of the leaf, plus c(size) when several observations share it *)
Fixpoint path_len (d : dataset XRA) (ob : nat) (t : tree XRA) : R :=
  match t with
  | Leaf n => if (n <=? 1)%nat then 0 else c_norm n
  | Node attr sp _ l r => 1 + path_len d ob (if score_left XRA d attr sp ob then l else r)
  end.
Definition avg_path (d : dataset XRA) (forestSize : nat) (trees : list (tree XRA)) (ob : nat) : R :=
  Rsum (map (path_len d ob) trees) / INR forestSize.

Lemma ln2_half : 1 / 2 <= ln 2.
Proof.
  rewrite <- (ln_exp (1/2)). apply ln_le; [apply exp_pos|].
  apply Rsqr_incr_0_var; [|lra]. unfold Rsqr. rewrite <- exp_plus. replace (1/2+1/2) with 1 by lra.
  generalize exp_le_3; lra.
Qed.
Lemma c_norm_pos n : (2 <= n)%nat -> 0 < c_norm n.
Proof.
  intros Hn. unfold c_norm, gamma_e.
  assert (Hq : 2 * (INR n - 1) / INR n = 2 - 2 / INR n).
  { field. apply not_0_INR. lia. }
  rewrite Hq. destruct (Nat.eq_dec n 2) as [->|Hne].
  - replace (INR 2) with 2 by (simpl; lra). replace (2 - 1) with 1 by lra. rewrite ln_1. lra.
  - assert (H3 : 3 <= INR n) by (replace 3 with (INR 3) by (simpl; lra); apply le_INR; lia).
    assert (HL : 1 / 2 <= ln (INR n - 1)) by (eapply Rle_trans; [apply ln2_half|apply ln_le; lra]).
    assert (0 < 2 / INR n) by (apply Rdiv_lt_0_compat; lra). lra.
Qed.
Lemma averagePathLength_fin n : (2 <= n)%nat -> averagePathLength XRA n = Fin (c_norm n).
Proof.
  intros Hn. assert (H2 : 2 <= INR n) by (replace 2 with (INR 2) by (simpl; lra); apply le_INR; lia).
  unfold averagePathLength, euler_gamma. cbn [nlog nsub nadd nmul ndiv ofZ lit XRA]. rewrite <- INR_IZR_INZ.
  cbn [xsub xadd xopp]. replace (INR n + - (1)) with (INR n - 1) by lra. rewrite xlog_fin by lra.
  cbn [xadd xmul xsub xopp]. rewrite xdiv_fin by lra. cbn [xadd xsub xopp]. unfold c_norm, gamma_e. f_equal.
  replace (IZR (Z.pos (10 ^ 17))) with (10^17); [reflexivity|]. change (Z.pos (10 ^ 17)) with 100000000000000000%Z. lra.
Qed.
Lemma pathLength_fin d ob t len : pathLength XRA d ob t len = Fin (INR len + path_len d ob t).
Proof.
  revert len. induction t as [n|attr sp n l IHl r IHr]; intros len; cbn [pathLength path_len].
  - cbn [ofZ XRA]. rewrite <- INR_IZR_INZ. destruct (n <=? 1)%nat eqn:E.
    + f_equal; lra.
    + apply Nat.leb_gt in E. rewrite averagePathLength_fin by lia. reflexivity.
  - destruct (score_left XRA d attr sp ob); [rewrite IHl|rewrite IHr]; f_equal; rewrite S_INR; lra.
Qed.
Lemma path_len_nonneg d ob t : 0 <= path_len d ob t.
Proof.
  induction t as [n|attr sp n l IHl r IHr]; cbn [path_len].
  - destruct (n <=? 1)%nat eqn:E; [lra|]. apply Nat.leb_gt in E. generalize (c_norm_pos n ltac:(lia)); lra.
  - destruct (score_left XRA d attr sp ob); lra.
Qed.
Lemma total_fin d ob trees a :
  fold_left (fun avg t => nadd (a:=XRA) avg (pathLength XRA d ob t 0)) trees (Fin a) = Fin (a + Rsum (map (path_len d ob) trees)).
Proof.
  revert a. induction trees as [|t ts IH]; intros a; cbn [fold_left map Rsum].
  - f_equal; lra.
  - rewrite pathLength_fin. cbn [nadd XRA xadd]. rewrite IH. f_equal. simpl INR. lra.
Qed.
Theorem C58_score_formula : forall d treeSize forestSize trees ob, (2 <= treeSize)%nat -> (1 <= forestSize)%nat ->
  anomalyScore XRA d treeSize forestSize trees ob = Fin (Rpower 2 (- avg_path d forestSize trees ob / c_norm treeSize)).
Proof.
  intros d ts fs trees ob Hts Hfs. unfold anomalyScore. cbn [ofZ XRA].
  assert (E := total_fin d ob trees 0). cbn [nadd XRA] in E |- *. rewrite E.
  rewrite averagePathLength_fin by auto. rewrite <- INR_IZR_INZ. cbn [ndiv nopp npow XRA].
  assert (0 < INR fs) by (apply lt_0_INR; lia). generalize (c_norm_pos ts Hts); intros Hc.
  rewrite xdiv_fin by lra. cbn [xopp]. rewrite xdiv_fin by lra. rewrite xpow_fin by lra.
  unfold avg_path. do 3 f_equal. lra.
Qed.
Theorem C58_score_range : forall d treeSize forestSize trees ob, (2 <= treeSize)%nat -> (1 <= forestSize)%nat ->
  exists s, anomalyScore XRA d treeSize forestSize trees ob = Fin s /\ 0 < s <= 1.
Proof.
  intros d ts fs trees ob Hts Hfs. eexists. split; [apply C58_score_formula; auto|].
  split; [apply exp_pos|]. unfold Rpower. replace 1 with (exp 0) by apply exp_0.
  assert (Ha : 0 <= avg_path d fs trees ob).
  { unfold avg_path. apply Rmult_le_pos.
    - apply Rsum_nonneg. intros x Hx. apply in_map_iff in Hx. destruct Hx as (t&<-&_). apply path_len_nonneg.
    - left. apply Rinv_0_lt_compat. apply lt_0_INR; lia. }
  assert (Hc := c_norm_pos ts Hts).
  assert (H : - avg_path d fs trees ob / c_norm ts * ln 2 <= 0).
  { generalize ln2_half; intros.
    assert (0 <= avg_path d fs trees ob / c_norm ts) by (apply Rmult_le_pos; auto; left; apply Rinv_0_lt_compat; auto).
    unfold Rdiv in *. rewrite Ropp_mult_distr_l_reverse. nra. }
  destruct H as [H| ->]; [left; apply exp_increasing; auto|right; auto].
Qed.
Theorem C58_strictly_decreasing : forall d treeSize forestSize trees ob trees' ob', (2 <= treeSize)%nat -> (1 <= forestSize)%nat ->
  (avg_path d forestSize trees ob < avg_path d forestSize trees' ob' <->
   nltb (anomalyScore XRA d treeSize forestSize trees' ob') (anomalyScore XRA d treeSize forestSize trees ob) = true).
Proof.
  intros d ts fs trees ob trees' ob' Hts Hfs. rewrite !C58_score_formula by auto. cbn [nltb XRA]. rewrite xltb_iff.
  assert (Hc := c_norm_pos ts Hts). generalize (avg_path d fs trees ob), (avg_path d fs trees' ob'); intros a b.
  generalize ln2_half; intros Hl. unfold Rpower.
  assert (E : forall x y, - x / c_norm ts * ln 2 < - y / c_norm ts * ln 2 <-> y < x).
  { intros x y. assert (Hi : 0 < / c_norm ts) by (apply Rinv_0_lt_compat; auto). unfold Rdiv. 
    assert (0 < / c_norm ts * ln 2) by (apply Rmult_lt_0_compat; lra). split; intros; nra. }
  split; intros H; [apply exp_increasing, E; auto|apply exp_lt_inv in H; apply E; auto].
Qed.
(** tree_size = 1: the normaliser is -infinity and every observation scores exactly 1 *)
Theorem C58_tree_size_one : forall d forestSize trees ob, (1 <= forestSize)%nat ->
  anomalyScore XRA d 1 forestSize trees ob = Fin 1.
Proof.
  intros d fs trees ob Hfs. unfold anomalyScore. cbn [ofZ XRA].
  assert (E := total_fin d ob trees 0). cbn [nadd XRA] in E |- *. rewrite E.
  assert (0 < INR fs) by (apply lt_0_INR; lia).
  assert (EA : averagePathLength XRA 1 = MInf).
  { unfold averagePathLength, euler_gamma. cbn [nlog nsub nadd nmul ndiv ofZ lit XRA].
    cbn [xsub xadd xopp Z.of_nat Pos.of_succ_nat]. replace (1 - 1) with 0 by lra. rewrite xlog_0.
    cbn [xadd xmul]. rewrite (xsgn_inf_pos 2) by lra. cbn [xopp]. rewrite xdiv_fin by lra. reflexivity. }
  rewrite EA, <- INR_IZR_INZ. cbn [ndiv nopp npow XRA]. rewrite xdiv_fin by lra. cbn [xopp].
  cbn [xdiv]. rewrite xpow_fin by lra. f_equal. unfold Rpower. rewrite Rmult_0_l, exp_0. reflexivity.
Qed.
Example C58_case : (2 <= 256)%nat /\ (1 <= 1000)%nat /\
  avg_path strings 1 [growTree XRA strings count_rng 2 [0; 1; 2]%nat 7%nat] 2%nat = 1 /\
  avg_path strings 1 [growTree XRA strings count_rng 2 [0; 1; 2]%nat 7%nat] 0%nat = 2.
Proof. repeat split; try lia; unfold avg_path; cbn; lra. Qed.
