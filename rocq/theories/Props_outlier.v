(** * Property C134: what makes an observation an outlier for the isolation forest *)
From Coq Require Import Reals Lra Lia ZArith List Bool Arith Permutation.
From Verif Require Import Arith XR RealAux Model_iforest Props_iforest Draws Harmonic Props_pathlen.
Import ListNotations.

(** ** Only the order of the values matters *)
Section Order.
Context (A : Arith).
Local Open Scope num_scope.
(** the two data sets have the same strings, and in every numeric attribute the same missing values and the same order of observations *)
Record same_order (d d' : dataset A) : Prop := {
  so_num : n_num A d' = n_num A d; so_char : n_char A d' = n_char A d; so_obs : n_obs A d' = n_obs A d;
  so_str : forall a o, char_val A d' a o = char_val A d a o;
  so_nan : forall a o, (a < n_num A d)%nat -> isnan (num_val A d' a o) = isnan (num_val A d a o);
  so_lt : forall a o o', (a < n_num A d)%nat -> (num_val A d' a o <? num_val A d' a o') = (num_val A d a o <? num_val A d a o') }.
Variables d d' : dataset A.
Hypothesis H : same_order d d'.
Lemma same_grow_left a s o : grow_left A d' a (split_of A d' a s) o = grow_left A d a (split_of A d a s) o.
Proof.
  unfold split_of. rewrite (so_num _ _ H). destruct (Nat.ltb_spec a (n_num A d)) as [L | L]; unfold grow_left.
  - rewrite !(so_nan _ _ H), (so_lt _ _ H) by exact L. reflexivity.
  - rewrite (so_num _ _ H), !(so_str _ _ H). reflexivity.
Qed.
Lemma same_score_left a s o : score_left A d' a (split_of A d' a s) o = score_left A d a (split_of A d a s) o.
Proof.
  unfold split_of. rewrite (so_num _ _ H). destruct (Nat.ltb_spec a (n_num A d)) as [L | L]; unfold score_left.
  - apply (so_lt _ _ H), L.
  - rewrite (so_num _ _ H), !(so_str _ _ H). reflexivity.
Qed.
Definition same_paths (t t' : tree A) : Prop := forall o len, pathLength A d' o t' len = pathLength A d o t len.
Lemma same_trees rg fuel : forall sample g, same_paths (growTree A d rg fuel sample g) (growTree A d' rg fuel sample g).
Proof.
  induction fuel as [|fuel IH]; intros sample g o len; cbn [growTree]; [reflexivity|]. destruct (length sample <=? 1)%nat; [reflexivity|].
  destruct (draw_attr rg g) as [a g1]. destruct (draw_index rg (length sample) g1) as [ix g2].
  rewrite (filter_ext _ (grow_left A d a (split_of A d a (nth ix sample 0%nat)))) by (intros; apply same_grow_left).
  rewrite (filter_ext (fun o => negb (grow_left A d' a (split_of A d' a (nth ix sample 0%nat)) o)) (fun o => negb (grow_left A d a (split_of A d a (nth ix sample 0%nat)) o))) by (intros; rewrite same_grow_left; reflexivity).
  cbn [pathLength]. rewrite same_score_left. destruct (score_left A d a _ o); apply IH.
Qed.
Lemma same_worker rg height jobs : forall sample g, Forall2 same_paths (worker_loop A d rg height jobs sample g) (worker_loop A d' rg height jobs sample g).
Proof.
  induction jobs as [|jobs IH]; intros sample g; cbn [worker_loop]; [constructor|]. destruct (draw_sample rg g) as [drawn g']. constructor; [apply same_trees|apply IH].
Qed.
Lemma same_forest rg treeSize forestSize seed workers : Forall2 same_paths (concat (all_workers_trees A d rg treeSize forestSize seed workers)) (concat (all_workers_trees A d' rg treeSize forestSize seed workers)).
Proof.
  unfold all_workers_trees. generalize (seq 0 workers). intros l. induction l as [|i l IH]; [constructor|]. cbn [map concat]. apply Forall2_app; [|exact IH].
  unfold worker_trees. rewrite (so_obs _ _ H). apply same_worker.
Qed.
(** ** C134: two data sets with the same order give every observation the same score, bit for bit, for every generator, seed and number of workers *)
Theorem C134_only_order rg treeSize forestSize seed workers o :
  anomalyScore A d' treeSize forestSize (concat (all_workers_trees A d' rg treeSize forestSize seed workers)) o
  = anomalyScore A d treeSize forestSize (concat (all_workers_trees A d rg treeSize forestSize seed workers)) o.
Proof.
  assert (F := same_forest rg treeSize forestSize seed workers). unfold anomalyScore. do 3 f_equal. revert F. generalize (ofZ (a := A) 0). generalize (concat (all_workers_trees A d rg treeSize forestSize seed workers)), (concat (all_workers_trees A d' rg treeSize forestSize seed workers)).
  intros l l' z F. revert z. induction F as [|t t' l l' E F IH]; intros z; [reflexivity|]. cbn [fold_left]. rewrite E. apply IH.
Qed.
End Order.

Local Open Scope R_scope.
(** the data with the value of one observation in one attribute replaced *)
Definition replace_value (d : dataset XRA) (a o : nat) (y : R) : dataset XRA :=
  mkData XRA (n_num XRA d) (n_char XRA d) (n_obs XRA d) (fun b p => if (b =? a)%nat && (p =? o)%nat then Fin y else num_val XRA d b p) (char_val XRA d).
(** ** C134: how far out an outlier is does not matter: the largest value of an attribute can be replaced by any larger one *)
Theorem C134_distance d a o x y : num_val XRA d a o = Fin x -> x <= y -> (forall p, p <> o -> match num_val XRA d a p with Fin z => z < x | MInf | NaN => True | PInf => False end) ->
  forall rg treeSize forestSize seed workers p,
  anomalyScore XRA (replace_value d a o y) treeSize forestSize (concat (all_workers_trees XRA (replace_value d a o y) rg treeSize forestSize seed workers)) p
  = anomalyScore XRA d treeSize forestSize (concat (all_workers_trees XRA d rg treeSize forestSize seed workers)) p.
Proof.
  intros E L HB rg treeSize forestSize seed workers p. apply C134_only_order. constructor; try reflexivity.
  - intros b q _. cbn [replace_value num_val]. destruct (Nat.eqb_spec b a) as [-> | N]; [|reflexivity]. destruct (Nat.eqb_spec q o) as [-> | N]; [|reflexivity]. cbn [andb]. rewrite E. reflexivity.
  - intros b q q' _. cbn [replace_value num_val]. destruct (Nat.eqb_spec b a) as [-> | N]; [|reflexivity].
    destruct (Nat.eqb_spec q o) as [-> | Nq]; destruct (Nat.eqb_spec q' o) as [-> | Nq']; cbn [andb]; [| | |reflexivity].
    + rewrite E. cbn. destruct (Rlt_dec y y), (Rlt_dec x x); try reflexivity; lra.
    + rewrite E. specialize (HB q' Nq'). destruct (num_val XRA d a q') as [z| | |]; cbn; try reflexivity; try contradiction. destruct (Rlt_dec y z), (Rlt_dec x z); try reflexivity; lra.
    + rewrite E. specialize (HB q Nq). destruct (num_val XRA d a q) as [z| | |]; cbn; try reflexivity; try contradiction. destruct (Rlt_dec z y), (Rlt_dec z x); try reflexivity; lra.
Qed.

(** ** The path of an extreme observation *)
Fixpoint extreme_path (L : nat -> R) (h n : nat) : R :=
  if (n <=? 1)%nat then 0 else
  match h with O => L n | S h' => 1 + Rsum (map (extreme_path L h') (seq 1 n)) / INR n end.
(** the smallest or the largest value of the sample, in every attribute *)
Definition extreme (d : dataset XRA) (l : list nat) (o : nat) : Prop :=
  forall a x, (a < n_num XRA d)%nat -> (forall p, In p l -> num_val XRA d a p = Fin (x p)) -> (forall p, In p l -> x o <= x p) \/ (forall p, In p l -> x p <= x o).
Lemma extreme_incl d l l' o : no_ties d l -> incl l' l -> In o l' -> extreme d l o -> extreme d l' o.
Proof.
  intros NT I Ho HX a x Ha HF. destruct (NT a Ha) as (y & Fy & _). assert (E : forall p, In p l' -> x p = y p) by (intros p Hp; specialize (HF p Hp); rewrite (Fy p (I p Hp)) in HF; congruence).
  destruct (HX a y Ha Fy) as [G | G]; [left|right]; intros p Hp; rewrite !E by assumption; apply G, I, Hp.
Qed.
Lemma min_sizes (f : nat -> R) n : (1 <= n)%nat -> Rsum (map (fun k => f (if (k =? 0)%nat then n else k)) (seq 0 n)) = Rsum (map f (seq 1 n)).
Proof.
  intros Hn. destruct n as [|m]; [lia|]. rewrite (Rsum_last f 1 m). change (1 + m)%nat with (S m). cbn [seq map Rsum Nat.eqb].
  rewrite (Rsum_map_ext _ f); [ring|]. intros k Hk. apply in_seq in Hk. destruct (Nat.eqb_spec k 0); [lia|reflexivity].
Qed.
Lemma extreme_path_tree d h N o : (0 < N)%nat -> (0 < n_num XRA d)%nat -> n_char XRA d = 0%nat -> forall l, NoDup l -> no_ties d l -> In o l -> extreme d l o ->
  (forall k, (1 <= k <= length l)%nat -> Nat.divide k N) ->
  average (sequences (seq 0 N) (2 * h)) (fun s => path_len d o (growTree XRA d (stream_rng d) h l s)) = extreme_path c_norm h (length l).
Proof.
  intros HN HA HC. assert (NE : seq 0 N <> []) by (destruct N; [lia|discriminate]).
  induction h as [|h IH]; intros l ND NT Ho HX HD.
  - rewrite average_none. reflexivity.
  - cbn [growTree extreme_path]. destruct (length l <=? 1)%nat eqn:E.
    { cbn [path_len]. rewrite E. apply average_const, sequences_nonempty, NE. }
    apply Nat.leb_gt in E. set (n := length l) in *. replace (2 * S h)%nat with (S (S (2 * h))) by lia.
    rewrite average_next by exact NE. assert (Hn : 0 < INR n) by (apply lt_0_INR; lia).
    rewrite (average_ext _ _ (fun _ => 1 + Rsum (map (extreme_path c_norm h) (seq 1 n)) / INR n)); [apply average_const, NE|].
    intros x _. rewrite average_next by exact NE.
    set (a := (x mod (n_num XRA d + n_char XRA d))%nat). assert (Ha : (a < n_num XRA d)%nat) by (unfold a; rewrite HC, Nat.add_0_r; apply Nat.mod_upper_bound; lia).
    destruct (NT a Ha) as (v & HF & HI).
    (* the size of the part the observation is in *)
    set (size := fun k => if Rlt_dec (v o) (v (nth k l 0%nat)) then rank v l k else (n - rank v l k)%nat).
    rewrite (average_ext _ _ (fun y => 1 + extreme_path c_norm h (size (y mod n)%nat))).
    2:{ intros y _. set (i := (y mod n)%nat). assert (Hi : (i < n)%nat) by (apply Nat.mod_upper_bound; lia).
        set (p := fun o => if Rlt_dec (v o) (v (nth i l 0%nat)) then true else false).
        assert (GL : forall o, In o l -> grow_left XRA d a (split_of XRA d a (nth i l 0%nat)) o = p o /\ score_left XRA d a (split_of XRA d a (nth i l 0%nat)) o = p o).
        { intros q Hq. unfold split_of. destruct (Nat.ltb_spec a (n_num XRA d)); [|lia]. unfold grow_left, score_left. rewrite (HF q Hq), (HF _ (nth_In l 0%nat Hi)). cbn. unfold p. destruct (Rlt_dec _ _); split; reflexivity. }
        assert (FL : filter (grow_left XRA d a (split_of XRA d a (nth i l 0%nat))) l = filter p l) by (apply filter_ext_in; intros q Hq; apply GL, Hq).
        assert (FR : filter (fun o => negb (grow_left XRA d a (split_of XRA d a (nth i l 0%nat)) o)) l = filter (fun o => negb (p o)) l) by (apply filter_ext_in; intros q Hq; rewrite (proj1 (GL q Hq)); reflexivity).
        set (q := fun z => if p o then p z else negb (p z)).
        rewrite (average_ext _ _ (fun s => 1 + path_len d o (growTree XRA d (stream_rng d) h (filter q l) s))).
        2:{ intros s _. cbn [stream_rng draw_attr draw_index hd tl]. fold a. fold n. fold i. rewrite FL, FR. cbn [path_len]. rewrite (proj2 (GL o Ho)). unfold q. destruct (p o); reflexivity. }
        assert (LE : incl (filter q l) l) by (intros z Hz; apply filter_In in Hz; apply Hz).
        assert (Oq : In o (filter q l)) by (apply filter_In; split; [exact Ho|unfold q; destruct (p o); reflexivity]).
        rewrite average_plus, average_const by (apply sequences_nonempty, NE). f_equal.
        rewrite IH; [|apply NoDup_filter, ND|apply (no_ties_incl d l); [exact LE|exact NT]|exact Oq|apply (extreme_incl d l); assumption|].
        2:{ intros k Hk. apply HD. generalize (NoDup_incl_length (NoDup_filter q ND) LE). unfold n in *. lia. }
        f_equal. unfold size, q. assert (PO : p o = if Rlt_dec (v o) (v (nth i l 0%nat)) then true else false) by reflexivity. destruct (Rlt_dec (v o) (v (nth i l 0%nat))) as [Q | Q]; rewrite PO; [reflexivity|].
        assert (FLN := filter_length p l). fold n in FLN. change (rank v l i) with (length (filter p l)). clear - FLN. lia. }
    rewrite (uniform_mod (fun i => 1 + extreme_path c_norm h (size i)) n N) by (try lia; apply HD; lia).
    rewrite average_plus, average_const by (destruct n; [lia|discriminate]). f_equal. unfold average. rewrite seq_length. f_equal.
    assert (RP : Permutation (map (rank v l) (seq 0 n)) (seq 0 n)) by (apply ranks_permutation; assumption).
    destruct (HX a v Ha HF) as [G | G].
    + (* the smallest: the part has rank many members, or all if the smallest itself was drawn *)
      set (sz := fun k => if (k =? 0)%nat then n else k).
      assert (SE : forall i, In i (seq 0 n) -> size i = sz (rank v l i)).
      { intros i Hi. apply in_seq in Hi. unfold size, sz. destruct (Rlt_dec (v o) (v (nth i l 0%nat))) as [Q | Q].
        - destruct (Nat.eqb_spec (rank v l i) 0) as [Z | Z]; [|reflexivity]. exfalso. unfold rank in Z. apply length_zero_iff_nil in Z.
          assert (K : In o (filter (fun o => if Rlt_dec (v o) (v (nth i l 0%nat)) then true else false) l)) by (apply filter_In; split; [exact Ho|destruct (Rlt_dec _ _); [reflexivity|lra]]). rewrite Z in K. destruct K.
        - assert (Z : rank v l i = 0%nat).
          { unfold rank. apply length_zero_iff_nil. destruct (filter _ l) as [|z r] eqn:Q2; [reflexivity|]. exfalso. assert (K : In z (z :: r)) by (left; reflexivity). rewrite <- Q2 in K. apply filter_In in K. destruct K as [K1 K2].
            destruct (Rlt_dec (v z) (v (nth i l 0%nat))) as [K3|]; [|discriminate]. specialize (G z K1). lra. }
          rewrite Z. apply Nat.sub_0_r. }
      rewrite (Rsum_map_ext _ (fun i => extreme_path c_norm h (sz (rank v l i)))) by (intros i Hi; rewrite SE by exact Hi; reflexivity).
      rewrite <- (map_map (rank v l) (fun k => extreme_path c_norm h (sz k))), (Rsum_perm _ _ (Permutation_map _ RP)).
      apply min_sizes. lia.
    + (* the largest: never below the split value *)
      rewrite (Rsum_map_ext _ (fun i => extreme_path c_norm h (n - rank v l i))).
      2:{ intros i Hi. apply in_seq in Hi. unfold size. destruct (Rlt_dec (v o) (v (nth i l 0%nat))) as [Q | Q]; [|reflexivity]. assert (Hi' : (i < length l)%nat) by (fold n; lia). specialize (G _ (nth_In l 0%nat Hi')). lra. }
      rewrite <- (map_map (rank v l) (fun k => extreme_path c_norm h (n - k)%nat)), (Rsum_perm _ _ (Permutation_map _ RP)). apply (reversed_sum (extreme_path c_norm h)).
Qed.

(** ** Bounds *)
Definition extreme_depth (n : nat) : R := 1 + harmonic (n - 1).
Lemma sum_extreme n : (1 <= n)%nat -> Rsum (map extreme_depth (seq 1 n)) = INR n * (1 + harmonic (n - 1)) - (INR n - 1) .
Proof.
  intros Hn. destruct n as [|m]; [lia|]. clear Hn. induction m as [|m IH]; [cbn; unfold extreme_depth, harmonic; cbn; ring|].
  rewrite Rsum_last, IH. replace (1 + S m)%nat with (S (S m)) by lia. unfold extreme_depth. rewrite !Nat.sub_succ, !Nat.sub_0_r, harmonic_S, !S_INR. assert (0 <= INR m) by apply pos_INR. field. lra.
Qed.
Definition extreme_excess (L : nat -> R) (h n : nat) : R := if (n <=? 1)%nat then 0 else extreme_path L h n - extreme_depth n.
Lemma extreme_excess_S L h n : (2 <= n)%nat -> extreme_excess L (S h) n = Rsum (map (extreme_excess L h) (seq 1 n)) / INR n.
Proof.
  intros Hn. unfold extreme_excess at 1. destruct (Nat.leb_spec n 1); [lia|]. cbn [extreme_path]. destruct (Nat.leb_spec n 1); [lia|].
  assert (E : Rsum (map (extreme_path L h) (seq 1 n)) = Rsum (map (extreme_excess L h) (seq 1 n)) + Rsum (map extreme_depth (seq 1 n)) - 1).
  { destruct n as [|n]; [lia|]. cbn [seq map Rsum]. assert (Z : extreme_path L h 1 = 0) by (destruct h; reflexivity). rewrite Z. unfold extreme_excess at 1. cbn [Nat.leb].
    replace (extreme_depth 1) with 1 by (unfold extreme_depth, harmonic; cbn; ring).
    rewrite (Rsum_map_ext (extreme_path L h) (fun k => extreme_excess L h k + extreme_depth k)).
    - rewrite Rsum_plus. ring.
    - intros k Hk. apply in_seq in Hk. unfold extreme_excess. destruct (Nat.leb_spec k 1); [lia|]. ring. }
  rewrite E, sum_extreme by lia. unfold extreme_depth. assert (0 < INR n) by (apply INR_pos; lia). field. lra.
Qed.
Lemma sum_INR_1 n : Rsum (map (fun k => INR k - 1) (seq 1 n)) = INR n * (INR n - 1) / 2.
Proof. induction n as [|n IH]; [cbn; lra|]. rewrite Rsum_last, IH. change (1 + n)%nat with (S n). rewrite S_INR. field. Qed.
Lemma harmonic_le n : harmonic n <= INR n.
Proof. induction n as [|n IH]; [cbn; lra|]. rewrite harmonic_S, S_INR. assert (/ (INR n + 1) <= 1) by (rewrite <- Rinv_1; apply Rinv_le_contravar; generalize (pos_INR n); lra). lra. Qed.
Lemma extreme_excess_bounds h : forall n, (1 <= n)%nat -> - 3 <= extreme_excess c_norm h n <= (INR n - 1) / 2 ^ h.
Proof.
  induction h as [|h IH]; intros n Hn; assert (H1 : 1 <= INR n) by (change 1 with (INR 1); apply le_INR; exact Hn).
  - unfold extreme_excess. destruct (Nat.leb_spec n 1) as [S1 | S1]; [cbn; lra|]. cbn [extreme_path]. destruct (Nat.leb_spec n 1); [lia|].
    assert (L := leaf_low n ltac:(lia)). assert (U := leaf_high n ltac:(lia)). unfold ideal_depth in L, U. unfold extreme_depth.
    destruct n as [|m]; [lia|]. rewrite Nat.sub_succ, Nat.sub_0_r. rewrite harmonic_S in L, U. assert (B := harmonic_le m). rewrite S_INR in *.
    assert (Hm : 1 <= INR m) by (change 1 with (INR 1); apply le_INR; lia). assert (I : 0 < / (INR m + 1) <= / 2) by (split; [apply Rinv_0_lt_compat; lra|apply Rinv_le_contravar; lra]).
    assert (H1' : 1 <= harmonic m). { clear - S1. assert (G : (1 <= m)%nat) by lia. induction G as [|k G IHk]; [unfold harmonic; cbn; lra|]. rewrite harmonic_S. assert (0 < / INR (S k)) by (apply Rinv_0_lt_compat, lt_0_INR; lia). specialize (IHk ltac:(lia)). lra. }
    replace ((INR m + 1 - 1) / 2 ^ 0) with (INR m) by (cbn; field). lra.
  - destruct (Nat.le_gt_cases n 1) as [S1 | S1].
    { replace n with 1%nat by lia. unfold extreme_excess. cbn [Nat.leb INR]. unfold Rdiv. rewrite Rminus_eq_0. lra. }
    rewrite extreme_excess_S by lia. split.
    + apply (Rmult_le_reg_r (INR n)); [lra|]. unfold Rdiv. rewrite Rmult_assoc, Rinv_l, Rmult_1_r by lra.
      replace (-3 * INR n) with (Rsum (map (fun _ : nat => -3) (seq 1 n))) by (rewrite Rsum_const, seq_length; ring).
      apply Rsum_le. intros k Hk. apply in_seq in Hk. apply IH. lia.
    + apply (Rmult_le_reg_r (INR n)); [lra|]. unfold Rdiv at 1. rewrite Rmult_assoc, Rinv_l, Rmult_1_r by lra.
      assert (P : 0 < 2 ^ h) by (apply pow_lt; lra).
      replace ((INR n - 1) / 2 ^ S h * INR n) with (/ 2 ^ h * Rsum (map (fun k => INR k - 1) (seq 1 n))) by (rewrite sum_INR_1; cbn [pow]; field; lra).
      rewrite <- Rsum_mult_l. apply Rsum_le. intros k Hk. apply in_seq in Hk. destruct (IH k ltac:(lia)) as [_ G]. unfold Rdiv in G. lra.
Qed.
Definition extreme_mean (d : dataset XRA) (N h : nat) (l : list nat) (o : nat) : R :=
  average (sequences (seq 0 N) (2 * h)) (fun s => path_len d o (growTree XRA d (stream_rng d) h l s)).
Lemma height_enough n : (1 <= n)%nat -> INR n <= 2 ^ maxTreeHeight n.
Proof.
  intros Hn. assert (G : (n <= 2 ^ maxTreeHeight n)%nat). { unfold maxTreeHeight. destruct (Nat.eq_dec n 1) as [-> | N]; [cbn; lia|]. apply Nat.log2_up_spec. lia. }
  apply le_INR in G. rewrite pow_INR in G. exact G.
Qed.
(** ** C134: an observation that has the smallest or the largest value of the sample in every attribute is found, on average over the draws,
    after about H(n-1) levels: half of the normaliser, where the average observation is found after about the normaliser (C133) *)
Theorem C134_extreme d N l o : numeric d -> NoDup l -> no_ties d l -> fair N (length l) -> (2 <= length l)%nat -> In o l -> extreme d l o ->
  harmonic (length l - 1) - 2 <= extreme_mean d N (maxTreeHeight (length l)) l o <= harmonic (length l - 1) + 2.
Proof.
  intros [A C] ND T [F1 F2] H2 Ho HX. unfold extreme_mean. rewrite (extreme_path_tree d _ N o F1 A C l ND T Ho HX F2).
  destruct (extreme_excess_bounds (maxTreeHeight (length l)) (length l) ltac:(lia)) as [L U]. unfold extreme_excess in L, U. destruct (Nat.leb_spec (length l) 1); [lia|]. unfold extreme_depth in L, U.
  assert (G := height_enough (length l) ltac:(lia)). assert (P : 0 < 2 ^ maxTreeHeight (length l)) by (apply pow_lt; lra).
  assert (B : (INR (length l) - 1) / 2 ^ maxTreeHeight (length l) <= 1) by (apply div_le_iff; lra). lra.
Qed.
Theorem C134_half eps : 0 < eps -> exists n0, forall d N l o, numeric d -> NoDup l -> no_ties d l -> fair N (length l) -> (n0 <= length l)%nat -> In o l -> extreme d l o ->
  Rabs (extreme_mean d N (maxTreeHeight (length l)) l o / c_norm (length l) - 1 / 2) < eps.
Proof.
  intros He. destruct (archimed (exp (4 / eps + 2))) as [H1 _]. set (n1 := Z.to_nat (up (exp (4 / eps + 2)))).
  assert (H1' : exp (4 / eps + 2) < INR n1) by (unfold n1; rewrite INR_IZR_INZ, Z2Nat.id; [exact H1|apply le_IZR; generalize (exp_pos (4 / eps + 2)); lra]).
  exists (n1 + 2)%nat. intros d N l o A ND T F H Ho HX. assert (G := C134_extreme d N l o A ND T F ltac:(lia) Ho HX).
  set (m := extreme_mean d N (maxTreeHeight (length l)) l o) in *.
  assert (K := harmonic_ln (length l - 1) ltac:(lia)). rewrite (minus_INR (length l) 1) in K by lia. cbn [INR] in K. set (n := INR (length l)) in *.
  assert (Hn : exp (4 / eps + 2) <= n - 1). { assert (Q : INR (n1 + 2) <= n) by (apply le_INR; exact H). rewrite plus_INR in Q. cbn in Q. lra. }
  assert (L : 4 / eps + 2 <= ln (n - 1)) by (rewrite <- (ln_exp (4 / eps + 2)); apply ln_le; [apply exp_pos|exact Hn]).
  assert (HE : 0 < 4 / eps) by (apply Rdiv_lt_0_compat; lra).
  assert (H2 : 2 <= n) by (unfold n; change 2 with (INR 2); apply le_INR; lia).
  assert (I : 0 < / n <= / 2) by (split; [apply Rinv_0_lt_compat; lra|apply Rinv_le_contravar; lra]).
  assert (CE : c_norm (length l) = 2 * (ln (n - 1) + gamma_e) - 2 + 2 * / n) by (unfold c_norm; fold n; field; lra).
  assert (C : 4 / eps < c_norm (length l)) by (rewrite CE; unfold gamma_e; lra).
  assert (I2 : 0 < 2 / (4 * (n - 1) + 1)) by (apply Rdiv_lt_0_compat; lra).
  assert (I3 : 0 < / (2 * (n - 1)) <= / 2) by (split; [apply Rinv_0_lt_compat; lra|apply Rinv_le_contravar; lra]).
  assert (B : Rabs (m - c_norm (length l) / 2) < 4).
  { rewrite CE. unfold gamma_e. apply Rabs_def1; lra. }
  replace (m / c_norm (length l) - 1 / 2) with ((m - c_norm (length l) / 2) / c_norm (length l)) by (field; lra).
  unfold Rdiv at 1. rewrite Rabs_mult, (Rabs_right (/ c_norm (length l))) by (apply Rle_ge; left; apply Rinv_0_lt_compat; lra).
  apply (Rmult_lt_reg_r (c_norm (length l))); [lra|]. rewrite Rmult_assoc, Rinv_l, Rmult_1_r by lra.
  apply (Rlt_trans _ 4); [exact B|]. apply (Rmult_lt_compat_l eps) in C; [|exact He]. replace (eps * (4 / eps)) with 4 in C by (field; lra). exact C.
Qed.
(** observation 3 of [squares_data] has the largest value of the first and the smallest of the second attribute *)
Example C134_case : extreme squares_data [0; 3; 1; 2]%nat 3 /\ harmonic 3 - 2 <= extreme_mean squares_data 12 2 [0; 3; 1; 2]%nat 3 <= harmonic 3 + 2.
Proof.
  destruct C133_case as (A & T & F & _). assert (ND : NoDup [0; 3; 1; 2]%nat) by (repeat constructor; cbn; lia).
  assert (X : extreme squares_data [0; 3; 1; 2]%nat 3).
  { intros a x Ha HF. cbn in Ha. assert (V : forall p, In p [0; 3; 1; 2]%nat -> Fin (x p) = num_val XRA squares_data a p) by (intros p Hp; symmetry; apply HF, Hp).
    destruct a as [|[|a]]; [right|left|lia]; intros p Hp; assert (V3 := V 3%nat ltac:(cbn; tauto)); assert (Vp := V p Hp); cbn in V3, Vp; injection V3 as ->; injection Vp as ->;
      cbn in Hp; repeat (destruct Hp as [<- | Hp]; [cbn; lra|]); destruct Hp. }
  split; [exact X|]. exact (C134_extreme squares_data 12 [0; 3; 1; 2]%nat 3 A ND T F ltac:(cbn; lia) ltac:(cbn; tauto) X).
Qed.
(** the outlier 9 among 0, 1, 1, 0, 1, ... may as well be 1000 *)
Example C134_distance_case rg ts fs seed workers p : let d := mkData XRA 1 0 40 (fun _ o => if (o =? 3)%nat then Fin 9 else Fin (if Nat.even o then 0 else 1)) (fun _ _ => []) in
  anomalyScore XRA (replace_value d 0 3 1000) ts fs (concat (all_workers_trees XRA (replace_value d 0 3 1000) rg ts fs seed workers)) p
  = anomalyScore XRA d ts fs (concat (all_workers_trees XRA d rg ts fs seed workers)) p.
Proof.
  intros d. apply (C134_distance d 0 3 9 1000); [reflexivity|lra|]. intros q Hq. cbn. destruct q as [|[|[|[|q]]]]; try (cbn; lra); [congruence|]. cbn [Nat.eqb]. destruct (Nat.even _); lra.
Qed.
