(** * Theorems: threads, sampling and seeds of the isolation forest (C59-C61, C63, C64) *)
From Coq Require Import Reals Lra ZArith List Bool Arith Lia Permutation.
From Verif Require Import Arith XR RealAux Model_iforest Spec_iforest Props_iforest.
Import ListNotations.
Local Open Scope nat_scope.

(** ** Interleavings *)
Lemma interleaving_perm {X} (ws : list (list X)) out : interleaving ws out -> Permutation (concat ws) out.
Proof.
  induction 1 as [ws H|before x w after out H IH].
  - assert (concat ws = []) as ->; auto. induction ws as [|w ws IHw]; auto.
    cbn. rewrite (H w) by (left; auto). apply IHw. intros; apply H; right; auto.
  - rewrite concat_app in *. cbn [concat] in *.
    eapply Permutation_trans; [|apply perm_skip, IH]. cbn [app]. symmetry. apply Permutation_middle.
Qed.
(** a schedule always exists: run the workers one after the other *)
Lemma interleaving_sequential {X} (ws : list (list X)) : interleaving ws (concat ws).
Proof.
  assert (H : forall (done todo : list (list X)), (forall w, In w done -> w = []) -> interleaving (done ++ todo) (concat todo)).
  { intros done todo; revert done; induction todo as [|w todo IH]; intros done Hd.
    - rewrite app_nil_r. constructor; auto.
    - cbn [concat]. induction w as [|x w IHw]; cbn [app].
      + replace (done ++ [] :: todo) with ((done ++ [[]]) ++ todo) by (rewrite <- app_assoc; auto).
        apply IH. intros w Hw. apply in_app_or in Hw. destruct Hw as [|[|[]]]; auto.
      + apply il_step, IHw. }
  apply (H [] ws). intros w [].
Qed.

(** ** C59: the ranges of the scoring workers *)
Lemma concat_map_seq_chunks w per : concat (map (fun i => seq (i * per) per) (seq 0 w)) = seq 0 (w * per).
Proof.
  induction w as [|w IH]; auto. rewrite seq_S, map_app, concat_app, IH. cbn [map concat plus]. rewrite app_nil_r.
  rewrite <- seq_app. f_equal. lia.
Qed.
Lemma div_mul_le n w : 1 <= w -> w * (n / w) <= n.
Proof. intros. apply Nat.mul_div_le. lia. Qed.
Theorem C59_ranges_cover_once : forall nObs workers, 1 <= workers ->
  concat (map (fun i => seq (fst (score_range nObs workers i)) (snd (score_range nObs workers i))) (seq 0 workers)) = seq 0 nObs.
Proof.
  intros n w Hw. destruct w as [|w]; [lia|]. rewrite seq_S, map_app, concat_app. cbn [map concat plus]. rewrite app_nil_r.
  rewrite (map_ext_in _ (fun i => seq (i * (n / S w)) (n / S w))).
  - rewrite concat_map_seq_chunks.
    unfold score_range. replace (w <? S w - 1) with false by (symmetry; apply Nat.ltb_ge; lia). cbn [fst snd].
    generalize (div_mul_le n (S w) Hw); intros H. set (per := n / S w) in *.
    replace (n - (n - per * w)) with (w * per) by nia.
    rewrite <- seq_app. f_equal. nia.
  - intros i Hi. apply in_seq in Hi. unfold score_range.
    replace (i <? S w - 1) with true by (symmetry; apply Nat.ltb_lt; lia). reflexivity.
Qed.
Section W.
Context {A : Arith}.
Lemma update_length {X} (l : list X) i x : length (update l i x) = length l.
Proof. revert i; induction l; intros [|]; cbn; auto. Qed.
Lemma update_nth {X} (l : list X) i x j d : i < length l -> nth j (update l i x) d = if j =? i then x else nth j l d.
Proof.
  revert i j; induction l as [|y l IH]; intros i j; cbn [length]; [lia|].
  destruct i, j; cbn; auto. intros. rewrite IH by lia. reflexivity.
Qed.
Lemma run_writes_length l ws : length (run_writes A l ws) = length l.
Proof. revert l; induction ws as [|[i x] ws IH]; intros l; auto. change (length (run_writes A (update l i x) ws) = length l). rewrite IH, update_length. auto. Qed.
Lemma run_writes_nth f l ws d : (forall i x, In (i, x) ws -> i < length l /\ x = f i) ->
  forall j, nth j (run_writes A l ws) d = if existsb (fun w => fst w =? j) ws then f j else nth j l d.
Proof.
  revert l. induction ws as [|[i x] ws IH]; intros l Hw j; cbn [run_writes fold_left existsb fst snd]; auto.
  destruct (Hw i x ltac:(left; auto)) as [Hi ->].
  change (nth j (run_writes A (update l i (f i)) ws) d = if (i =? j) || existsb (fun w => fst w =? j) ws then f j else nth j l d).
  rewrite IH by (intros; rewrite update_length; apply Hw; right; auto).
  destruct (existsb _ ws); [rewrite orb_true_r; auto|]. rewrite orb_false_r, update_nth by auto.
  rewrite (Nat.eqb_sym j i). destruct (i =? j) eqn:E; auto. apply Nat.eqb_eq in E; subst; auto.
Qed.
Lemma score_actions_concat f n w : 1 <= w -> concat (score_actions A f n w) = map (fun o => (o, f o)) (seq 0 n).
Proof.
  intros Hw. rewrite <- (C59_ranges_cover_once n w Hw), concat_map, map_map. unfold score_actions. f_equal.
  apply map_ext. intros i. destruct (score_range n w i); reflexivity.
Qed.
(** whatever the schedule and the initial content of the vector, entry i is the score of observation i *)
Theorem C59_schedule_independent : forall (score : nat -> num A) nObs workers init out, 1 <= workers ->
  length init = nObs -> interleaving (score_actions A score nObs workers) out ->
  run_writes A init out = map score (seq 0 nObs).
Proof.
  intros f n w init out Hw Hl Hi. apply interleaving_perm in Hi. rewrite score_actions_concat in Hi by auto.
  assert (Hin : forall i x, In (i, x) out <-> i < n /\ x = f i).
  { intros i x. transitivity (In (i, x) (map (fun o => (o, f o)) (seq 0 n))).
    - split; apply Permutation_in; auto. symmetry; auto.
    - rewrite in_map_iff. split.
      + intros (o&E&Ho). injection E as <- <-. apply in_seq in Ho. split; auto; lia.
      + intros [H ->]. exists i. split; auto. apply in_seq; lia. }
  apply (nth_ext _ _ (ofZ 0) (f 0)).
  - rewrite run_writes_length, map_length, seq_length. auto.
  - rewrite run_writes_length, Hl. intros j Hj. rewrite map_nth, seq_nth by auto.
    rewrite (run_writes_nth f) by (intros; rewrite Hl; apply Hin; auto).
    replace (existsb _ out) with true; auto. symmetry. apply existsb_exists. exists (j, f j). split; [apply Hin; auto|apply Nat.eqb_refl].
Qed.
(** no two workers ever write the same entry, so no lock is needed *)
Theorem C59_no_write_race : forall (score : nat -> num A) nObs workers i j wi wj, 1 <= workers -> i <> j ->
  nth_error (score_actions A score nObs workers) i = Some wi ->
  nth_error (score_actions A score nObs workers) j = Some wj ->
  forall o x y, In (o, x) wi -> In (o, y) wj -> False.
Proof.
  intros f n w i j wi wj Hw Hne Hi Hj o x y Hx Hy.
  assert (Hr : forall k wk z, nth_error (score_actions A f n w) k = Some wk -> In (o, z) wk ->
            k < w /\ fst (score_range n w k) <= o < fst (score_range n w k) + snd (score_range n w k)).
  { clear - Hw. intros k wk z Hk Hin. unfold score_actions in Hk.
    assert (Hkw : k < w).
    { assert (k < length (map (fun i => let (start, n0) := score_range n w i in map (fun o => (o, f o)) (seq start n0)) (seq 0 w)))
        by (apply nth_error_Some; congruence). rewrite map_length, seq_length in *; auto. }
    split; auto. rewrite nth_error_map, (nth_error_nth' _ 0) in Hk by (rewrite seq_length; auto).
    rewrite seq_nth in Hk by auto. cbn [option_map plus] in Hk. injection Hk as Hk. 
    destruct (score_range n w k) as [st m]. cbn [fst snd]. subst wk. apply in_map_iff in Hin. destruct Hin as (q&E&Hq).
    injection E as -> _. apply in_seq in Hq. lia. }
  destruct (Hr _ _ _ Hi Hx) as [Hiw Hri]. destruct (Hr _ _ _ Hj Hy) as [Hjw Hrj].
  assert (Hdm := div_mul_le n w Hw). unfold score_range in *.
  destruct (i <? w - 1) eqn:Ei, (j <? w - 1) eqn:Ej; cbn [fst snd] in *;
    rewrite ?Nat.ltb_lt, ?Nat.ltb_ge in *; try nia.
Qed.
End W.

Lemma concat_length {X} (l : list (list X)) : length (concat l) = list_sum (map (@length X) l).
Proof. induction l; cbn; auto. rewrite app_length. auto. Qed.
(** ** C60: number of trees *)
Lemma worker_loop_length A d rg h jobs sample g : length (worker_loop A d rg h jobs sample g) = jobs.
Proof. revert sample g; induction jobs; intros; cbn [worker_loop]; auto. destruct (draw_sample rg g). cbn. f_equal; auto. Qed.
Lemma jobs_total F w : 1 <= w -> list_sum (map (jobs_of F w) (seq 0 w)) = F.
Proof.
  intros Hw. destruct w as [|w]; [lia|]. cbn [seq map]. rewrite (map_ext_in _ (fun _ => F / S w)).
  - assert (E : forall (c : nat) l, list_sum (map (fun _ : nat => c) l) = length l * c) by (unfold list_sum; induction l; cbn [map fold_right length]; lia).
    change (jobs_of F (S w) 0 + list_sum (map (fun _ => F / S w) (seq 1 w)) = F).
    rewrite E, seq_length. unfold jobs_of. cbn [Nat.eqb].
    assert (H := div_mul_le F (S w) Hw). replace (S w - 1) with w by lia. nia.
  - intros i Hi. apply in_seq in Hi. unfold jobs_of. replace (i =? 0) with false; auto. symmetry; apply Nat.eqb_neq; lia.
Qed.
Theorem C60_forest_size : forall A (d : dataset A) rg treeSize forestSize seed workers trees, 1 <= workers ->
  interleaving (all_workers_trees A d rg treeSize forestSize seed workers) trees -> length trees = forestSize.
Proof.
  intros A d rg ts F s w trees Hw Hi. apply interleaving_perm in Hi. rewrite <- (Permutation_length Hi).
  rewrite <- (jobs_total F w Hw) at 2. unfold all_workers_trees. rewrite concat_length, map_map. f_equal. apply map_ext.
  intros i. unfold worker_trees. apply worker_loop_length.
Qed.
(** the index ranges are meant to be disjoint, but worker 0's overlaps worker 1's whenever the division
    leaves a remainder *)
Theorem C60_indices_overlap : forall forestSize workers, 2 <= workers <= forestSize -> forestSize mod workers <> 0 ->
  exists i, In i (indices_of forestSize workers 0) /\ In i (indices_of forestSize workers 1).
Proof.
  intros F w Hw Hm. exists (F / w). unfold indices_of, jobs_of. cbn [Nat.eqb].
  assert (H := Nat.div_mod F w ltac:(lia)). assert (0 < F / w) by (apply Nat.div_str_pos; lia).
  split; apply in_seq; nia.
Qed.
Theorem C60_indices_disjoint_otherwise : forall forestSize workers i j, 1 <= workers -> forestSize mod workers = 0 -> i <> j ->
  i < workers -> j < workers ->
  forall k, In k (indices_of forestSize workers i) -> In k (indices_of forestSize workers j) -> False.
Proof.
  intros F w i j Hw Hm Hij Hi Hj k.
  assert (H := Nat.div_mod F w ltac:(lia)). rewrite Hm in H.
  assert (E : forall i, i < w -> jobs_of F w i = F / w) by (intros [|i'] ?; unfold jobs_of; cbn [Nat.eqb]; nia).
  unfold indices_of. rewrite !E by auto. rewrite !in_seq. nia.
Qed.
(** root sizes of a worker's trees: the sample is never cleared (C63) *)
Definition sample_size (rg : rng) (m : nat) : Prop := forall g : gen rg, length (fst (draw_sample rg g)) = m.
Lemma worker_loop_counts A d rg h jobs sample g m : sample_size rg m ->
  map tree_count (worker_loop A d rg h jobs sample g) = map (fun k => length sample + k * m) (seq 1 jobs).
Proof.
  intros Hm. revert sample g. induction jobs as [|jobs IH]; intros sample g; auto.
  cbn [worker_loop seq map]. generalize (Hm g). destruct (draw_sample rg g) as [drawn g']; cbn [fst]; intros Hl.
  cbn [map]. rewrite growTree_count, app_length, Hl. f_equal; [lia|].
  rewrite IH, <- (seq_shift jobs 1), map_map. apply map_ext. intros k. rewrite app_length. lia.
Qed.
Theorem C63_kth_tree_sample : forall A (d : dataset A) rg treeSize seed thread jobs k, 
  sample_size rg (Nat.min treeSize (n_obs A d)) -> k < jobs ->
  option_map tree_count (nth_error (worker_trees A d rg treeSize seed thread jobs) k) =
  Some ((k + 1) * Nat.min treeSize (n_obs A d)).
Proof.
  intros A d rg ts s th jobs k Hm Hk. rewrite <- nth_error_map. unfold worker_trees.
  rewrite (worker_loop_counts _ _ _ _ _ _ _ _ Hm), nth_error_map, (nth_error_nth' (seq 1 jobs) 0) by (rewrite seq_length; auto).
  rewrite seq_nth by auto. cbn [option_map length]. f_equal. rewrite (Nat.add_comm 1 k). reflexivity.
Qed.
(** so the documented "tree_size observations per tree" holds for the first tree only *)
Corollary C63_documented_size_refuted : forall A (d : dataset A) rg treeSize seed thread jobs k, 
  sample_size rg (Nat.min treeSize (n_obs A d)) -> 1 <= Nat.min treeSize (n_obs A d) -> k < jobs ->
  (option_map tree_count (nth_error (worker_trees A d rg treeSize seed thread jobs) k) = Some (Nat.min treeSize (n_obs A d)) <-> k = 0).
Proof.
  intros A d rg ts s th jobs k Hm H1 Hk. rewrite C63_kth_tree_sample by auto. split; [|intros ->; f_equal; lia].
  intros H. injection H as H. destruct k; auto. nia.
Qed.
Example C63_case : sample_size count_rng (Nat.min 3 (n_obs XRA strings)) /\
  map tree_count (worker_trees XRA strings count_rng 3 1021 0 4) = [3; 6; 9; 12].
Proof. split; [intros g; reflexivity|reflexivity]. Qed.

(** ** C60: the forest depends on the number of workers. With one worker some tree is grown from
    forestSize * m observations; with 2..forestSize workers none is. *)
Theorem C60_depends_on_workers : forall A (d : dataset A) rg treeSize forestSize seed workers m trees1 treesw,
  sample_size rg m -> 1 <= m -> 2 <= workers <= forestSize ->
  interleaving (all_workers_trees A d rg treeSize forestSize seed 1) trees1 ->
  interleaving (all_workers_trees A d rg treeSize forestSize seed workers) treesw ->
  ~ Permutation trees1 treesw.
Proof.
  intros A d rg ts F s w m t1 tw Hm H1 Hw Hi1 Hiw HP.
  apply interleaving_perm in Hi1. apply interleaving_perm in Hiw.
  assert (HP' : Permutation (map tree_count (concat (all_workers_trees A d rg ts F s 1))) (map tree_count (concat (all_workers_trees A d rg ts F s w)))).
  { apply Permutation_map. etransitivity; [exact Hi1|]. etransitivity; [exact HP|]. symmetry; exact Hiw. }
  assert (Hin : In (F * m) (map tree_count (concat (all_workers_trees A d rg ts F s w)))).
  { eapply Permutation_in; [exact HP'|]. unfold all_workers_trees. cbn [seq map concat]. rewrite app_nil_r. unfold worker_trees.
    rewrite (worker_loop_counts _ _ _ _ _ _ _ _ Hm). apply in_map_iff. exists F. split; [reflexivity|].
    apply in_seq. unfold jobs_of. cbn [Nat.eqb]. rewrite Nat.div_1_r. lia. }
  rewrite concat_map in Hin. apply in_concat in Hin. destruct Hin as (l&Hl&Hin).
  unfold all_workers_trees in Hl. rewrite map_map in Hl. apply in_map_iff in Hl. destruct Hl as (i&<-&Hi). apply in_seq in Hi.
  unfold worker_trees in Hin. rewrite (worker_loop_counts _ _ _ _ _ _ _ _ Hm) in Hin.
  apply in_map_iff in Hin. destruct Hin as (k&Ek&Hk). apply in_seq in Hk. cbn [length] in Ek.
  assert (Hj : jobs_of F w i < F).
  { unfold jobs_of. assert (0 < F / w) by (apply Nat.div_str_pos; lia). assert (Hd := div_mul_le F w ltac:(lia)).
    destruct (i =? 0); nia. }
  nia.
Qed.
(** with more workers than trees, worker 0 does everything, as if alone *)
Theorem C60_more_workers_than_trees : forall A (d : dataset A) rg treeSize forestSize seed workers,
  forestSize < workers ->
  concat (all_workers_trees A d rg treeSize forestSize seed workers) = concat (all_workers_trees A d rg treeSize forestSize seed 1).
Proof.
  intros A d rg ts F s w Hw. unfold all_workers_trees. destruct w as [|w]; [lia|]. cbn [seq map concat].
  assert (E : forall l, ~ In 0 l -> concat (map (fun i => worker_trees A d rg ts s i (jobs_of F (S w) i)) l) = []).
  { induction l as [|i l IH]; auto; intros Hn. cbn [map concat]. rewrite IH by (intros ?; apply Hn; right; auto). rewrite app_nil_r.
    unfold jobs_of. rewrite Nat.div_small by lia. destruct (i =? 0) eqn:Ei; [|reflexivity].
    apply Nat.eqb_eq in Ei. exfalso; apply Hn; left; auto. }
  rewrite E by (rewrite in_seq; lia). f_equal. unfold jobs_of. cbn [Nat.eqb]. rewrite Nat.div_small by lia. rewrite Nat.div_1_r. f_equal. lia.
Qed.
Example C60_case : 2 <= 4 <= 1000 /\ 1000 mod 3 <> 0 /\ sample_size count_rng 3 /\
  indices_of 10 3 0 = [0; 1; 2; 3] /\ indices_of 10 3 1 = [3; 4; 5] /\
  map tree_count (concat (all_workers_trees XRA strings count_rng 3 4 1021 1)) = [3; 6; 9; 12] /\
  map tree_count (concat (all_workers_trees XRA strings count_rng 3 4 1021 2)) = [3; 6; 3; 6].
Proof. repeat split; try lia; try reflexivity. vm_compute; discriminate. Qed.

(** ** C61 *)
Theorem C61_pushes_are_permutations : forall A (d : dataset A) rg treeSize forestSize seed workers trees trees',
  interleaving (all_workers_trees A d rg treeSize forestSize seed workers) trees ->
  interleaving (all_workers_trees A d rg treeSize forestSize seed workers) trees' -> Permutation trees trees'.
Proof.
  intros A d rg ts F s w t t' H H'. apply interleaving_perm in H. apply interleaving_perm in H'.
  etransitivity; [symmetry; exact H|exact H'].
Qed.
Theorem C61_score_order_independent : forall (d : dataset XRA) treeSize forestSize trees trees' ob,
  Permutation trees trees' ->
  anomalyScore XRA d treeSize forestSize trees ob = anomalyScore XRA d treeSize forestSize trees' ob.
Proof.
  intros d ts F t t' ob HP. unfold anomalyScore. cbn [ofZ XRA].
  assert (E := total_fin d ob t 0%R). assert (E' := total_fin d ob t' 0%R). cbn [nadd XRA] in E, E' |- *. rewrite E, E'.
  rewrite (Rsum_perm _ _ (Permutation_map (path_len d ob) HP)). reflexivity.
Qed.
(** end to end: for a given machine (worker count) the reported scores are a function of data, sizes and
    seed, whatever the two schedules *)
Theorem C61_scores_deterministic : forall (d : dataset XRA) rg treeSize forestSize seed workers trees trees' out out' init init',
  1 <= workers -> length init = n_obs XRA d -> length init' = n_obs XRA d ->
  interleaving (all_workers_trees XRA d rg treeSize forestSize seed workers) trees ->
  interleaving (all_workers_trees XRA d rg treeSize forestSize seed workers) trees' ->
  interleaving (score_actions XRA (anomalyScore XRA d treeSize forestSize trees) (n_obs XRA d) workers) out ->
  interleaving (score_actions XRA (anomalyScore XRA d treeSize forestSize trees') (n_obs XRA d) workers) out' ->
  run_writes XRA init out = run_writes XRA init' out'.
Proof.
  intros d rg ts F s w t t' o o' i i' Hw Hl Hl' Ht Ht' Ho Ho'.
  rewrite (C59_schedule_independent _ _ _ _ _ Hw Hl Ho), (C59_schedule_independent _ _ _ _ _ Hw Hl' Ho').
  apply map_ext. intros ob. apply C61_score_order_independent. eapply C61_pushes_are_permutations; eauto.
Qed.
Example C59_C61_case : interleaving [[1; 2]; [3]] [1; 3; 2] /\ interleaving [[1; 2]; [3]] [3; 1; 2] /\
  score_range 10 3 0 = (0, 3) /\ score_range 10 3 1 = (3, 3) /\ score_range 10 3 2 = (6, 4).
Proof.
  split; [|split; [|repeat split]].
  - apply (il_step [] 1 [2] [[3]]). apply (il_step [[2]] 3 [] []). apply (il_step [] 2 [] [[]]).
    constructor. intros w [<-|[<-|[]]]; auto.
  - apply (il_step [[1; 2]] 3 [] []). apply (il_step [] 1 [2] [[]]). apply (il_step [] 2 [] [[]]).
    constructor. intros w [<-|[<-|[]]]; auto.
Qed.

(** ** C64 *)
Theorem C64_offset : forall nObs seed,
  (nObs < seed -> random_offset nObs seed = nObs) /\
  (seed <> 0 -> (exists k, nObs = k * seed) -> random_offset nObs seed = 0) /\
  random_offset nObs 0 = 0 /\ random_offset nObs 1 = 0.
Proof.
  intros n s. unfold random_offset. split; [|split; [|split]].
  - intros H. replace (0 <? s) with true by (symmetry; apply Nat.ltb_lt; lia). apply Nat.mod_small; auto.
  - intros Hs [k ->]. replace (0 <? s) with true by (symmetry; apply Nat.ltb_lt; lia). apply Nat.mod_mul; auto.
  - apply Nat.mod_1_r.
  - apply Nat.mod_1_r.
Qed.
Theorem C64_large_seeds_equivalent : forall A (d : dataset A) rg treeSize forestSize workers (seed seed' : nat),
  n_obs A d < seed -> n_obs A d < seed' ->
  all_workers_trees A d rg treeSize forestSize seed workers = all_workers_trees A d rg treeSize forestSize seed' workers.
Proof.
  intros A d rg ts F w s s' H H'. unfold all_workers_trees. apply map_ext. intros i. unfold worker_trees.
  rewrite (proj1 (C64_offset _ _) H), (proj1 (C64_offset _ _) H'). reflexivity.
Qed.
(** every negative seed (a C int) wraps to a number near 2^64, larger than any data set *)
Theorem C64_negative_seeds : forall A (d : dataset A) rg treeSize forestSize workers (z : Z) (seed : nat),
  (- 2 ^ 31 <= z < 0)%Z -> (Z.of_nat (n_obs A d) < 2 ^ 63)%Z -> n_obs A d < seed ->
  all_workers_trees A d rg treeSize forestSize (size_t_of_int z) workers = all_workers_trees A d rg treeSize forestSize seed workers.
Proof.
  intros A d rg ts F w z s Hz Hn Hs. apply C64_large_seeds_equivalent; auto.
  unfold size_t_of_int. rewrite <- (Z_mod_plus_full z 1), Z.mod_small by lia. apply Nat2Z.inj_lt. rewrite Z2Nat.id by lia. lia.
Qed.
(** ... and all divisors of the number of observations (and 0 and 1) are equivalent *)
Theorem C64_divisor_seeds_equivalent : forall A (d : dataset A) rg treeSize forestSize workers seed k,
  seed <> 0 -> n_obs A d = k * seed ->
  all_workers_trees A d rg treeSize forestSize seed workers = all_workers_trees A d rg treeSize forestSize 0 workers.
Proof.
  intros A d rg ts F w s k Hs Hn. unfold all_workers_trees. apply map_ext. intros i. unfold worker_trees.
  destruct (C64_offset (n_obs A d) s) as (_&H2&H3&_). rewrite H3, H2 by eauto. reflexivity.
Qed.
Example C64_case : random_offset 500 1021 = 500 /\ random_offset 500 501 = 500 /\ random_offset 500 250 = 0 /\ random_offset 500 300 = 200.
Proof. vm_compute. auto. Qed.
