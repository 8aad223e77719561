(** * Property C133: the mean path length in an isolation tree and the normaliser of the scores *)
From Coq Require Import Reals Lra Lia ZArith List Bool Arith Permutation.
From Verif Require Import Arith XR RealAux Model_iforest Props_iforest Draws Harmonic.
Import ListNotations.
Local Open Scope R_scope.

(** ** The recursion *)
(** mean path length of a sample of n when both children of a node are trees for k and n - k members with k uniform on 0..n-1,
    at most h levels are grown, and a leaf of n >= 2 members counts L n *)
Fixpoint mean_path (L : nat -> R) (h n : nat) : R :=
  if (n <=? 1)%nat then 0 else
  match h with
  | O => L n
  | S h' => 1 + Rsum (map (fun k => INR k * mean_path L h' k + INR (n - k) * mean_path L h' (n - k)) (seq 0 n)) / INR n / INR n
  end.
Lemma mean_path_small L h n : (n <= 1)%nat -> mean_path L h n = 0.
Proof. intros H. destruct h; cbn [mean_path]; destruct (Nat.leb_spec n 1); try reflexivity; lia. Qed.
Lemma reversed_sum (g : nat -> R) n : Rsum (map (fun k => g (n - k)%nat) (seq 0 n)) = Rsum (map g (seq 1 n)).
Proof.
  induction n as [|n IH]; [reflexivity|]. cbn [seq map]. rewrite <- seq_shift, map_map. rewrite (map_ext _ (fun k => g (n - k)%nat)) by (intros; f_equal; lia).
  cbn [Rsum]. rewrite IH, Nat.sub_0_r. assert (E := Rsum_last g 1 n). cbn [seq map Rsum] in E. rewrite E. change (1 + n)%nat with (S n). lra.
Qed.
Lemma two_sided (f : nat -> R) n : Rsum (map (fun k => INR k * f k + INR (n - k) * f (n - k)%nat) (seq 0 n)) = INR n * f n + 2 * Rsum (map (fun k => INR k * f k) (seq 0 n)).
Proof.
  rewrite Rsum_plus, (reversed_sum (fun k => INR k * f k)). destruct n as [|n]; [cbn; lra|].
  assert (E := Rsum_last (fun k => INR k * f k) 1 n). cbv beta in E. rewrite E. change (1 + n)%nat with (S n). cbn [seq map Rsum]. change (INR 0) with 0. lra.
Qed.
Lemma mean_path_S L h n : (2 <= n)%nat -> mean_path L (S h) n = 1 + (INR n * mean_path L h n + 2 * Rsum (map (fun k => INR k * mean_path L h k) (seq 0 n))) / INR n / INR n.
Proof. intros Hn. cbn [mean_path]. destruct (Nat.leb_spec n 1); [lia|]. rewrite <- (two_sided (mean_path L h)). reflexivity. Qed.
Lemma sum_INR n : Rsum (map INR (seq 0 n)) = INR n * (INR n - 1) / 2.
Proof. induction n as [|n IH]; [cbn; lra|]. rewrite Rsum_last, IH, Nat.add_0_l, S_INR. field. Qed.
(** changing the value of the leaves by at most delta changes the mean by at most delta *)
Lemma mean_path_leaves L L' d h n : 0 <= d -> (forall k, (2 <= k)%nat -> L' k <= L k + d) -> mean_path L' h n <= mean_path L h n + d.
Proof.
  intros Hd HL. revert n. induction h as [|h IH]; intros n; (destruct (Nat.leb_spec n 1) as [S1 | S1]; [rewrite !mean_path_small by exact S1; lra|]).
  - cbn [mean_path]. destruct (Nat.leb_spec n 1); [lia|]. apply HL. lia.
  - rewrite !mean_path_S by lia. assert (Hn := INR_pos n ltac:(lia)).
    assert (G : Rsum (map (fun k => INR k * mean_path L' h k) (seq 0 n)) <= Rsum (map (fun k => INR k * mean_path L h k) (seq 0 n)) + d * (INR n * (INR n - 1) / 2)).
    { rewrite <- sum_INR, <- Rsum_mult_l, <- Rsum_plus. apply Rsum_le. intros k _. generalize (IH k), (pos_INR k). intros. nra. }
    enough ((INR n * mean_path L' h n + 2 * Rsum (map (fun k => INR k * mean_path L' h k) (seq 0 n))) / INR n / INR n
      <= (INR n * mean_path L h n + 2 * Rsum (map (fun k => INR k * mean_path L h k) (seq 0 n)) + d * INR n * INR n) / INR n / INR n) as K.
    { eapply Rle_trans; [apply Rplus_le_compat_l; exact K|]. apply Req_le. field. lra. }
    apply Rmult_le_compat_r; [left; apply Rinv_0_lt_compat; exact Hn|]. apply Rmult_le_compat_r; [left; apply Rinv_0_lt_compat; exact Hn|].
    specialize (IH n). nra.
Qed.

(** ** The ideal normaliser *)
(** mean depth of a leaf when n values are cut at uniformly random gaps (Liu, Ting and Zhou): 2 H_{n-1} - 2 (n-1)/n = 2 (H_n - 1) *)
Definition ideal_depth (n : nat) : R := 2 * (harmonic n - 1).
Lemma ideal_recursion n : (2 <= n)%nat -> INR n * ideal_depth n = INR n + 2 * Rsum (map (fun k => INR k * ideal_depth k) (seq 0 n)) / (INR n - 1).
Proof.
  intros Hn. unfold ideal_depth. rewrite sum_k_harmonic. assert (2 <= INR n) by (change 2 with (INR 2); apply le_INR; exact Hn). field. lra.
Qed.
Lemma ideal_1 : ideal_depth 1 = 0. Proof. unfold ideal_depth, harmonic. cbn. lra. Qed.
Lemma excess_S L h n : (2 <= n)%nat -> (forall k, L k = ideal_depth k) ->
  INR n * INR n * (mean_path L (S h) n - ideal_depth n) = INR n + INR n * (mean_path L h n - ideal_depth n) + 2 * Rsum (map (fun k => INR k * (mean_path L h k - ideal_depth k)) (seq 0 n)).
Proof.
  intros Hn HL. rewrite mean_path_S by exact Hn. assert (H2 : 2 <= INR n) by (change 2 with (INR 2); apply le_INR; exact Hn).
  replace (Rsum (map (fun k => INR k * (mean_path L h k - ideal_depth k)) (seq 0 n))) with (Rsum (map (fun k => INR k * mean_path L h k) (seq 0 n)) - Rsum (map (fun k => INR k * ideal_depth k) (seq 0 n)))
    by (rewrite <- Rsum_minus; apply Rsum_map_ext; intros; ring).
  unfold ideal_depth at 3. rewrite sum_k_harmonic. unfold ideal_depth. field. lra.
Qed.
Lemma excess_small L h k : (k <= 1)%nat -> INR k * (mean_path L h k - ideal_depth k) = 0.
Proof. intros H. rewrite mean_path_small by exact H. destruct k as [|[|k]]; [cbn; ring|rewrite ideal_1; cbn; ring|lia]. Qed.
Lemma excess_bounds h : forall n, (2 <= n)%nat -> 0 <= mean_path ideal_depth h n - ideal_depth n <= 3 / 2 - / INR n.
Proof.
  induction h as [|h IH]; intros n Hn; assert (H2 : 2 <= INR n) by (change 2 with (INR 2); apply le_INR; exact Hn).
  - cbn [mean_path]. destruct (Nat.leb_spec n 1); [lia|]. assert (/ INR n <= / 2) by (apply Rinv_le_contravar; lra). lra.
  - assert (E := excess_S ideal_depth h n Hn ltac:(reflexivity)). set (e := mean_path ideal_depth (S h) n - ideal_depth n) in *.
    assert (U : Rsum (map (fun k => INR k * (mean_path ideal_depth h k - ideal_depth k)) (seq 0 n)) <= 3 / 2 * (INR n * (INR n - 1) / 2) - (INR n - 2) - 3 / 2).
    { destruct n as [|[|n]]; [lia|lia|]. cbn [seq map Rsum]. rewrite !excess_small by lia. 
      replace (3 / 2 * (INR (S (S n)) * (INR (S (S n)) - 1) / 2) - (INR (S (S n)) - 2) - 3 / 2) with (Rsum (map (fun k => 3 / 2 * INR k - 1) (seq 2 n))).
      2:{ clear. induction n as [|n IHn]; [cbn; lra|]. rewrite Rsum_last, IHn, plus_INR, !S_INR. cbn [INR]. field. }
      rewrite !Rplus_0_l. apply Rsum_le. intros k Hk. apply in_seq in Hk. assert (Hk2 := INR_pos k ltac:(lia)). destruct (IH k ltac:(lia)) as [_ G].
      apply (Rmult_le_compat_l (INR k)) in G; [|lra]. replace (INR k * (3 / 2 - / INR k)) with (3 / 2 * INR k - 1) in G by (field; lra). exact G. }
    assert (Z : 0 <= Rsum (map (fun k => INR k * (mean_path ideal_depth h k - ideal_depth k)) (seq 0 n))).
    { apply Rsum_nonneg. intros x Hx. apply in_map_iff in Hx. destruct Hx as (k & <- & Hk). destruct (Nat.le_gt_cases k 1) as [K | K]; [rewrite excess_small by exact K; lra|].
      apply Rmult_le_pos; [apply pos_INR|]. apply IH. lia. }
    destruct (IH n Hn) as [B1 B2]. assert (I : INR n * (3 / 2 - / INR n) = 3 / 2 * INR n - 1) by (field; lra).
    apply (Rmult_le_compat_l (INR n)) in B2; [|lra]. apply (Rmult_le_compat_l (INR n)) in B1; [|lra]. rewrite I in B2. rewrite Rmult_0_r in B1.
    split.
    + apply (Rmult_le_reg_l (INR n * INR n)); [nra|]. rewrite E. lra.
    + apply (Rmult_le_reg_l (INR n * INR n)); [nra|]. rewrite E. replace (INR n * INR n * (3 / 2 - / INR n)) with (3 / 2 * (INR n * INR n) - INR n) by (field; lra). nra.
Qed.

(** ** What the code's c(n) is *)
Definition constant_gap (n : nat) : R := ideal_depth n - c_norm n.
Lemma constant_gap_form m : (1 <= m)%nat -> constant_gap (S m) = 2 * (harmonic m - ln (INR m) - gamma_e).
Proof.
  intros Hm. assert (Hp := INR_pos m Hm). unfold constant_gap, ideal_depth, c_norm. rewrite harmonic_S, S_INR. replace (INR m + 1 - 1) with (INR m) by ring. field. lra.
Qed.
(** ** C133: the code's c(n) takes the logarithm for the harmonic number and is below the mean depth by about 1/(n-1): between
    4/(4n-3) - 0.005 and 1/(n-1) + 0.002.  For n = 2 it is 0.154 instead of 1 *)
Theorem C133_normaliser n : (2 <= n)%nat -> 4 / (4 * INR n - 3) - 5 / 1000 <= ideal_depth n - c_norm n <= 1 / (INR n - 1) + 2 / 1000.
Proof.
  intros Hn. destruct n as [|m]; [lia|]. change (ideal_depth (S m) - c_norm (S m)) with (constant_gap (S m)). rewrite constant_gap_form by lia.
  assert (G := harmonic_ln m ltac:(lia)). assert (Hp := INR_pos m ltac:(lia)). rewrite S_INR. replace (4 * (INR m + 1) - 3) with (4 * INR m + 1) by ring. replace (INR m + 1 - 1) with (INR m) by ring.
  replace (4 / (4 * INR m + 1)) with (2 * (2 / (4 * INR m + 1))) by (field; lra). replace (1 / INR m) with (2 * / (2 * INR m)) by (field; lra). unfold gamma_e. lra.
Qed.
Theorem C133_two : ideal_depth 2 = 1 /\ 154 / 1000 < c_norm 2 < 155 / 1000.
Proof.
  split; [unfold ideal_depth, harmonic; cbn; lra|]. unfold c_norm. cbn [INR]. replace (1 + 1 - 1) with 1 by ring. rewrite ln_1. unfold gamma_e. lra.
Qed.

(** ** Uniform draws *)
(** a generator whose state is the sequence of numbers still to come; a draw takes the next one modulo the size of the range,
    as std::uniform_int_distribution does for an engine whose range is a multiple of it *)
Definition stream_rng (d : dataset XRA) : rng :=
  mkRng (list nat) (fun _ => []) (fun g => (hd 0%nat g mod (n_num XRA d + n_char XRA d), tl g)) (fun n g => (hd 0%nat g mod n, tl g)) (fun g => ([], g)).
(** every attribute is numeric and takes pairwise different (finite) values on the sample *)
Definition no_ties (d : dataset XRA) (l : list nat) : Prop :=
  forall a, (a < n_num XRA d)%nat -> exists x : nat -> R, (forall o, In o l -> num_val XRA d a o = Fin (x o)) /\ (forall o o', In o l -> In o' l -> x o = x o' -> o = o').
Lemma no_ties_incl d l l' : incl l' l -> no_ties d l -> no_ties d l'.
Proof. intros H N a Ha. destruct (N a Ha) as (x & F & I). exists x. split; [intros o Ho; apply F, H, Ho|intros o o' Ho Ho'; apply I; apply H; assumption]. Qed.

Lemma seq_offset a n : seq a n = map (fun k => (a + k)%nat) (seq 0 n).
Proof. induction n as [|n IH]; [reflexivity|]. rewrite !seq_S, map_app, IH. reflexivity. Qed.
Lemma uniform_mod F n N : (0 < n)%nat -> (0 < N)%nat -> Nat.divide n N -> average (seq 0 N) (fun y => F (y mod n)) = average (seq 0 n) F.
Proof.
  intros Hn HN [q ->]. assert (E : Rsum (map (fun y => F (y mod n)) (seq 0 (q * n))) = INR q * Rsum (map F (seq 0 n))).
  { clear HN. induction q as [|q IH]; [cbn; ring|]. replace (S q * n)%nat with (q * n + n)%nat by lia. rewrite seq_app, map_app, Rsum_app, IH, Nat.add_0_l, (seq_offset (q * n) n), map_map.
    rewrite (Rsum_map_ext (fun k => F ((q * n + k) mod n)%nat) F); [rewrite S_INR; ring|]. intros k Hk. apply in_seq in Hk. f_equal. rewrite Nat.add_comm, Nat.mod_add by lia. apply Nat.mod_small. lia. }
  unfold average. rewrite E, !seq_length, mult_INR. assert (0 < INR n) by (apply lt_0_INR; exact Hn). assert (0 < INR q) by (apply lt_0_INR; nia). field. lra.
Qed.
Lemma filter_strict {X} (p q : X -> bool) l z : (forall o, In o l -> p o = true -> q o = true) -> In z l -> p z = false -> q z = true -> (length (filter p l) < length (filter q l))%nat.
Proof.
  assert (W : forall m, (forall o, In o m -> p o = true -> q o = true) -> (length (filter p m) <= length (filter q m))%nat).
  { induction m as [|o m IH]; intros H; [reflexivity|]. cbn [filter]. specialize (IH (fun u Hu => H u (or_intror Hu))). specialize (H o (or_introl eq_refl)).
    destruct (p o); [rewrite H by reflexivity; cbn; lia|]. destruct (q o); cbn; lia. }
  intros H Hz P Q. induction l as [|o l IH]; [destruct Hz|]. cbn [filter]. destruct Hz as [-> | Hz].
  - rewrite P, Q. cbn. specialize (W l (fun u Hu => H u (or_intror Hu))). lia.
  - specialize (IH (fun u Hu => H u (or_intror Hu)) Hz). specialize (H o (or_introl eq_refl)). destruct (p o); [rewrite H by reflexivity; cbn; lia|]. destruct (q o); cbn; lia.
Qed.
(** the number of members below the i-th one, for all i, is 0, 1, ..., n-1 in some order *)
Definition rank (x : nat -> R) (l : list nat) (i : nat) : nat := length (filter (fun o => if Rlt_dec (x o) (x (nth i l 0%nat)) then true else false) l).
Lemma rank_lt x l i j : (i < length l)%nat -> x (nth i l 0%nat) < x (nth j l 0%nat) -> (rank x l i < rank x l j)%nat.
Proof.
  intros Hi H. apply (filter_strict _ _ l (nth i l 0%nat)).
  - intros o _. destruct (Rlt_dec (x o) (x (nth i l 0%nat))); [|discriminate]. intros _. destruct (Rlt_dec (x o) (x (nth j l 0%nat))); [reflexivity|lra].
  - apply nth_In, Hi.
  - destruct (Rlt_dec _ _); [lra|reflexivity].
  - destruct (Rlt_dec _ _); [reflexivity|lra].
Qed.
Lemma rank_range x l i : (i < length l)%nat -> (rank x l i < length l)%nat.
Proof.
  intros Hi. assert (G : (rank x l i < length (filter (fun _ => true) l))%nat).
  { apply (filter_strict _ _ l (nth i l 0%nat)); [reflexivity|apply nth_In, Hi| |reflexivity]. destruct (Rlt_dec _ _); [lra|reflexivity]. }
  replace (filter (fun _ => true) l) with l in G by (clear; induction l; cbn; congruence). exact G.
Qed.
Lemma NoDup_map_on {X Y} (f : X -> Y) l : NoDup l -> (forall x y, In x l -> In y l -> f x = f y -> x = y) -> NoDup (map f l).
Proof.
  induction 1 as [|x l Hx Hl IH]; intros I; [constructor|]. cbn [map]. constructor.
  - rewrite in_map_iff. intros (y & E & Hy). apply Hx. rewrite <- (I y x (or_intror Hy) (or_introl eq_refl) E). exact Hy.
  - apply IH. intros u v Hu Hv. apply I; right; assumption.
Qed.
Lemma ranks_permutation x l : NoDup l -> (forall o o', In o l -> In o' l -> x o = x o' -> o = o') -> Permutation (map (rank x l) (seq 0 (length l))) (seq 0 (length l)).
Proof.
  intros ND I. apply NoDup_Permutation_bis.
  - apply NoDup_map_on; [apply seq_NoDup|]. intros i j Hi Hj E. apply in_seq in Hi, Hj. destruct (Rtotal_order (x (nth i l 0%nat)) (x (nth j l 0%nat))) as [L | [Q | L]].
    + generalize (rank_lt x l i j ltac:(lia) L). lia.
    + apply (proj1 (NoDup_nth l 0%nat) ND i j); [lia|lia|]. apply I; [apply nth_In; lia|apply nth_In; lia|exact Q].
    + generalize (rank_lt x l j i ltac:(lia) L). lia.
  - rewrite map_length. reflexivity.
  - intros k Hk. apply in_map_iff in Hk. destruct Hk as (i & <- & Hi). apply in_seq in Hi. apply in_seq. generalize (rank_range x l i ltac:(lia)). lia.
Qed.
Lemma Rsum_split {X} (p : X -> bool) A B l : Rsum (map (fun o => if p o then A o else B o) l) = Rsum (map A (filter p l)) + Rsum (map B (filter (fun o => negb (p o)) l)).
Proof. induction l as [|o l IH]; cbn [map filter Rsum]; [ring|]. rewrite IH. destruct (p o); cbn [negb map Rsum]; ring. Qed.
Lemma Rsum_average {X} (f : X -> R) l : Rsum (map f l) = INR (length l) * average l f.
Proof. destruct l as [|x l]; [unfold average; cbn; ring|]. unfold average. assert (0 < INR (length (x :: l))) by (apply lt_0_INR; cbn; lia). field. lra. Qed.

Lemma filter_length {X} (p : X -> bool) l : (length (filter p l) + length (filter (fun o => negb (p o)) l) = length l)%nat.
Proof. induction l as [|o l IH]; [reflexivity|]. cbn [filter]. destruct (p o); cbn [negb length]; lia. Qed.

(** ** C133: over all draws, the members of the sample are on average at a depth that depends on the size of the sample only *)
Lemma mean_path_tree d h N : (0 < N)%nat -> (0 < n_num XRA d)%nat -> n_char XRA d = 0%nat -> forall l, NoDup l -> no_ties d l ->
  (forall k, (1 <= k <= length l)%nat -> Nat.divide k N) ->
  average (sequences (seq 0 N) (2 * h)) (fun s => average l (fun o => path_len d o (growTree XRA d (stream_rng d) h l s))) = mean_path c_norm h (length l).
Proof.
  intros HN HA HC. assert (NE : seq 0 N <> []) by (destruct N; [lia|discriminate]).
  induction h as [|h IH]; intros l ND NT HD.
  - rewrite average_none. cbn [growTree path_len mean_path]. destruct (length l <=? 1)%nat eqn:E; [|apply average_const; intros ->; discriminate E].
    destruct l; [unfold average; cbn; unfold Rdiv; ring|apply average_const; discriminate].
  - cbn [growTree mean_path]. destruct (length l <=? 1)%nat eqn:E.
    { cbn [path_len]. rewrite E. destruct l as [|o l].
      - rewrite (average_ext _ _ (fun _ => 0)); [|intros; unfold average; cbn; lra]. apply average_const, sequences_nonempty, NE.
      - rewrite (average_ext _ _ (fun _ => 0)); [|intros; apply average_const; discriminate]. apply average_const, sequences_nonempty, NE. }
    apply Nat.leb_gt in E. set (n := length l) in *. replace (2 * S h)%nat with (S (S (2 * h))) by lia.
    rewrite average_next by exact NE.
    set (G := fun k => 1 + (INR k * mean_path c_norm h k + INR (n - k) * mean_path c_norm h (n - k)) / INR n).
    assert (Hn : 0 < INR n) by (apply lt_0_INR; lia).
    rewrite (average_ext _ _ (fun _ => average (seq 0 n) G)).
    2:{ intros x _. rewrite average_next by exact NE.
        set (a := (x mod (n_num XRA d + n_char XRA d))%nat). assert (Ha : (a < n_num XRA d)%nat) by (unfold a; rewrite HC, Nat.add_0_r; apply Nat.mod_upper_bound; lia).
        destruct (NT a Ha) as (v & HF & HI).
        rewrite (average_ext _ _ (fun y => G (rank v l (y mod n)))).
        2:{ intros y _. set (i := (y mod n)%nat). assert (Hi : (i < n)%nat) by (apply Nat.mod_upper_bound; lia).
            set (p := fun o => if Rlt_dec (v o) (v (nth i l 0%nat)) then true else false).
            assert (GL : forall o, In o l -> grow_left XRA d a (split_of XRA d a (nth i l 0%nat)) o = p o /\ score_left XRA d a (split_of XRA d a (nth i l 0%nat)) o = p o).
            { intros o Ho. unfold split_of. destruct (Nat.ltb_spec a (n_num XRA d)); [|lia]. unfold grow_left, score_left. rewrite (HF o Ho), (HF _ (nth_In l 0%nat Hi)). cbn. unfold p. destruct (Rlt_dec _ _); split; reflexivity. }
            assert (FL : filter (grow_left XRA d a (split_of XRA d a (nth i l 0%nat))) l = filter p l) by (apply filter_ext_in; intros o Ho; apply GL, Ho).
            assert (FR : filter (fun o => negb (grow_left XRA d a (split_of XRA d a (nth i l 0%nat)) o)) l = filter (fun o => negb (p o)) l) by (apply filter_ext_in; intros o Ho; rewrite (proj1 (GL o Ho)); reflexivity).
            rewrite (average_ext _ _ (fun s => 1 + (INR (length (filter p l)) * average (filter p l) (fun o => path_len d o (growTree XRA d (stream_rng d) h (filter p l) s))
                + INR (length (filter (fun o => negb (p o)) l)) * average (filter (fun o => negb (p o)) l) (fun o => path_len d o (growTree XRA d (stream_rng d) h (filter (fun o => negb (p o)) l) s))) / INR n)).
            2:{ intros s _. cbn [stream_rng draw_attr draw_index hd tl]. fold a. fold n. fold i. rewrite FL, FR.
                rewrite <- !Rsum_average, <- Rsum_split. unfold average. fold n.
                rewrite (Rsum_map_ext _ (fun o => 1 + (if p o then path_len d o (growTree XRA d (stream_rng d) h (filter p l) s) else path_len d o (growTree XRA d (stream_rng d) h (filter (fun o => negb (p o)) l) s)))).
                - rewrite Rsum_plus, Rsum_const. fold n.
 field. lra.
                - intros o Ho. cbn [path_len]. rewrite (proj2 (GL o Ho)). destruct (p o); reflexivity. }
            assert (LE : forall q : nat -> bool, incl (filter q l) l) by (intros q o Ho; apply filter_In in Ho; apply Ho).
            assert (LN : forall q : nat -> bool, (length (filter q l) <= n)%nat) by (intros q; apply (NoDup_incl_length (NoDup_filter q ND) (LE q))).
            assert (IHq : forall q : nat -> bool, average (sequences (seq 0 N) (2 * h)) (fun s => average (filter q l) (fun o => path_len d o (growTree XRA d (stream_rng d) h (filter q l) s))) = mean_path c_norm h (length (filter q l))).
            { intros q. apply IH; [apply NoDup_filter, ND|apply (no_ties_incl d l); [apply LE|exact NT]|]. intros k Hk. apply HD. specialize (LN q). lia. }
            unfold Rdiv. rewrite average_plus, average_const by (apply sequences_nonempty, NE). rewrite average_scal_r, average_plus, !average_scal, !IHq.
            assert (FLN := filter_length p l). unfold G. change (rank v l i) with (length (filter p l)).
            replace (length (filter (fun o => negb (p o)) l)) with (n - length (filter p l))%nat by (fold n in FLN; clear - FLN; lia). reflexivity. }
        rewrite (uniform_mod (fun i => G (rank v l i)) n N) by (try lia; apply HD; lia).
        unfold average. f_equal. rewrite <- (map_map (rank v l) G). apply Rsum_perm, Permutation_map. apply ranks_permutation; assumption. }
    rewrite average_const by exact NE. unfold average, G. rewrite seq_length, Rsum_plus, Rsum_const, seq_length. 
    rewrite (Rsum_map_ext (fun k => (INR k * mean_path c_norm h k + INR (n - k) * mean_path c_norm h (n - k)) / INR n) (fun k => / INR n * (INR k * mean_path c_norm h k + INR (n - k) * mean_path c_norm h (n - k)))) by (intros; unfold Rdiv; ring).
    rewrite Rsum_mult_l. destruct (Nat.leb_spec n 1); [lia|]. field. lra.
Qed.

(** The draws: [2 * maxTreeHeight] numbers below N, all sequences of them equally likely, where N is a multiple of every possible range *)
Definition mean_depth (d : dataset XRA) (N h : nat) (l : list nat) : R :=
  average (sequences (seq 0 N) (2 * h)) (fun s => average l (fun o => path_len d o (growTree XRA d (stream_rng d) h l s))).
Definition fair (N n : nat) : Prop := (0 < N)%nat /\ forall k, (1 <= k <= n)%nat -> Nat.divide k N.
Definition numeric (d : dataset XRA) : Prop := (0 < n_num XRA d)%nat /\ n_char XRA d = 0%nat.
Theorem C133_mean_path d d' N N' h l l' : numeric d -> numeric d' -> NoDup l -> NoDup l' -> no_ties d l -> no_ties d' l' -> fair N (length l) -> fair N' (length l') -> length l = length l' ->
  mean_depth d N h l = mean_path c_norm h (length l) /\ mean_depth d N h l = mean_depth d' N' h l'.
Proof.
  intros [A C] [A' C'] ND ND' T T' [F1 F2] [F1' F2'] E. unfold mean_depth.
  assert (G := mean_path_tree d h N F1 A C l ND T F2). assert (G' := mean_path_tree d' h N' F1' A' C' l' ND' T' F2'). split; [exact G|]. rewrite G, G', E. reflexivity.
Qed.
(** ** C133: that mean is the normaliser of the scores, c(n), up to constants: at most 0.86 below, at most 1.502 + 1/(n-1) - 1/n above *)
Lemma leaf_low k : (2 <= k)%nat -> ideal_depth k <= c_norm k + 846 / 1000.
Proof.
  intros Hk. destruct (Nat.le_gt_cases k 2) as [E | E].
  - replace k with 2%nat by lia. destruct C133_two. lra.
  - destruct (C133_normaliser k Hk) as [_ G]. assert (3 <= INR k) by (change 3 with (INR 3) || replace 3 with (INR 3) by (cbn; lra); apply le_INR; lia).
    assert (1 / (INR k - 1) <= 1 / 2) by (unfold Rdiv; rewrite !Rmult_1_l; apply Rinv_le_contravar; lra). lra.
Qed.
Lemma leaf_high k : (2 <= k)%nat -> c_norm k <= ideal_depth k + 5 / 1000.
Proof.
  intros Hk. destruct (C133_normaliser k Hk) as [G _]. assert (2 <= INR k) by (change 2 with (INR 2); apply le_INR; exact Hk).
  assert (0 <= 4 / (4 * INR k - 3)) by (apply Rmult_le_pos; [lra|left; apply Rinv_0_lt_compat; lra]). lra.
Qed.
Theorem C133_close d N h l : numeric d -> NoDup l -> no_ties d l -> fair N (length l) -> (2 <= length l)%nat ->
  let n := INR (length l) in - (86 / 100) <= mean_depth d N h l - c_norm (length l) <= 151 / 100 + 1 / (n - 1) - 1 / n.
Proof.
  intros [A C] ND T [F1 F2] H2 n. unfold mean_depth. rewrite (mean_path_tree d h N F1 A C l ND T F2).
  assert (E := excess_bounds h (length l) H2). assert (K := C133_normaliser (length l) H2). fold n in E, K.
  assert (L := mean_path_leaves c_norm ideal_depth (846 / 1000) h (length l) ltac:(lra) leaf_low).
  assert (U := mean_path_leaves ideal_depth c_norm (5 / 1000) h (length l) ltac:(lra) leaf_high).
  assert (2 <= n) by (unfold n; change 2 with (INR 2); apply le_INR; exact H2).
  assert (0 <= 4 / (4 * n - 3)) by (apply Rmult_le_pos; [lra|left; apply Rinv_0_lt_compat; lra]). replace (1 / n) with (/ n) by (unfold Rdiv; ring). lra.
Qed.
(** ** C133: the average member of a tree has normalised depth (the exponent of its score, 1/2 for 1) close to 1, the closer the larger the sample *)
Theorem C133_ratio eps : 0 < eps -> exists n0, forall d N h l, numeric d -> NoDup l -> no_ties d l -> fair N (length l) -> (n0 <= length l)%nat ->
  Rabs (mean_depth d N h l / c_norm (length l) - 1) < eps.
Proof.
  intros He. destruct (archimed (exp (3 / eps + 2))) as [H1 _]; set (n1 := Z.to_nat (up (exp (3 / eps + 2)))); assert (H1' : exp (3 / eps + 2) < INR n1) by (unfold n1; rewrite INR_IZR_INZ, Z2Nat.id; [exact H1|apply le_IZR; generalize (exp_pos (3 / eps + 2)); lra]). exists (n1 + 2)%nat. intros d N h l A ND T F H.
  assert (G := C133_close d N h l A ND T F ltac:(lia)). cbv zeta in G. set (n := INR (length l)) in *.
  assert (Hn : exp (3 / eps + 2) <= n - 1). { assert (INR (n1 + 2) <= n) by (apply le_INR; exact H). rewrite plus_INR in H0. cbn in H0. lra. }
  assert (L : 3 / eps + 2 <= ln (n - 1)) by (rewrite <- (ln_exp (3 / eps + 2)); apply ln_le; [apply exp_pos|exact Hn]).
  assert (HE : 0 < 3 / eps) by (apply Rdiv_lt_0_compat; lra).
  assert (H2 : 2 <= n) by (unfold n; change 2 with (INR 2); apply le_INR; lia).
  assert (C : 3 / eps < c_norm (length l)).
  { unfold c_norm. fold n. replace (2 * (n - 1) / n) with (2 - 2 * / n) by (field; lra). assert (0 < / n) by (apply Rinv_0_lt_compat; lra). unfold gamma_e. lra. }
  assert (B : Rabs (mean_depth d N h l - c_norm (length l)) < 3).
  { assert (1 / (n - 1) <= 1) by (unfold Rdiv; rewrite Rmult_1_l, <- Rinv_1; apply Rinv_le_contravar; lra).
    assert (0 < 1 / n) by (apply Rdiv_lt_0_compat; lra). apply Rabs_def1; lra. }
  replace (mean_depth d N h l / c_norm (length l) - 1) with ((mean_depth d N h l - c_norm (length l)) / c_norm (length l)) by (field; lra).
  unfold Rdiv. rewrite Rabs_mult, (Rabs_right (/ c_norm (length l))) by (apply Rle_ge; left; apply Rinv_0_lt_compat; lra).
  apply (Rmult_lt_reg_r (c_norm (length l))); [lra|]. rewrite Rmult_assoc, Rinv_l, Rmult_1_r by lra.
  apply (Rlt_trans _ 3); [exact B|]. apply (Rmult_lt_compat_l eps) in C; [|exact He]. replace (eps * (3 / eps)) with 3 in C by (field; lra). exact C.
Qed.
Definition squares_data : dataset XRA := mkData XRA 2 0 4 (fun a o => if (a =? 0)%nat then Fin (INR o * INR o) else Fin (- INR o)) (fun _ _ => []).
Example C133_case : numeric squares_data /\ no_ties squares_data [0; 3; 1; 2]%nat /\ fair 12 4 /\
  mean_depth squares_data 12 2 [0; 3; 1; 2]%nat = mean_path c_norm 2 4 /\ Rabs (mean_depth squares_data 12 2 [0; 3; 1; 2]%nat - c_norm 4) < 18 / 10.
Proof.
  assert (A : numeric squares_data) by (split; cbn; [lia|reflexivity]).
  assert (F : fair 12 4). { split; [lia|]. intros k Hk. assert (K : k = 1%nat \/ k = 2%nat \/ k = 3%nat \/ k = 4%nat) by lia. destruct K as [-> | [-> | [-> | ->]]]; [exists 12%nat|exists 6%nat|exists 4%nat|exists 3%nat]; reflexivity. }
  assert (T : no_ties squares_data [0; 3; 1; 2]%nat).
  { intros a Ha. cbn in Ha. destruct a as [|a].
    - exists (fun o => INR o * INR o). split; [reflexivity|]. intros o o' _ _ E. apply INR_eq. generalize (pos_INR o), (pos_INR o'). intros. nra.
    - exists (fun o => - INR o). split; [reflexivity|]. intros o o' _ _ E. apply INR_eq. lra. }
  assert (ND : NoDup [0; 3; 1; 2]%nat) by (repeat constructor; cbn; lia).
  split; [exact A|]. split; [exact T|]. split; [exact F|]. split.
  - exact (proj1 (C133_mean_path _ _ 12 12 2 _ _ A A ND ND T T F F eq_refl)).
  - assert (G := C133_close squares_data 12 2 _ A ND T F ltac:(cbn; lia)). cbv zeta in G. cbn [length] in G. replace (INR 4) with 4 in G by (cbn; lra). apply Rabs_def1; lra.
Qed.
