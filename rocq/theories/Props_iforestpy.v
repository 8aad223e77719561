(** * Theorems: the isolation forest on its memory, and the Python front end (C96, C97) *)
From Coq Require Import Reals Lra ZArith String List Bool Arith Lia.
From Verif Require Import Arith XR Model_iforest Spec_iforest Model_memory Model_iforestpy Props_iforest Props_iforest2 Props_memory.
Import ListNotations.
Local Open Scope nat_scope.
Notation length := List.length.

(** ** The abstract table a memory represents *)
Section R.
Context {A : Arith}.
Notation num := (num A).
Definition done_or {X} (d : X) (r : run X) : X := match r with Done x => x | UB => d end.
Definition dataset_of (t : table A) : dataset A :=
  mkData A (t_nnum A t) (t_nchar A t) (t_nobs A t) (fun a o => done_or (ofZ 0) (read_num A t a o)) (fun a o => done_or [] (read_char A t a o)).
(** all elements of the two arrays can be read *)
Definition readable (t : table A) : Prop :=
  (forall a o, a < t_nnum A t -> o < t_nobs A t -> exists x, read_num A t a o = Done x) /\
  (forall a o, a < t_nchar A t -> o < t_nobs A t -> exists s, read_char A t a o = Done s).
(** what std::uniform_int_distribution and std::sample deliver for a table with at least one attribute *)
Definition draws_in_range (n_attrs n_obs : nat) (rg : rng) : Prop :=
  (forall g, fst (draw_attr rg g) < n_attrs) /\ (forall n g, 1 <= n -> fst (draw_index rg n g) < n) /\
  (forall g o, In o (fst (draw_sample rg g)) -> o < n_obs).

Section T.
Variable t : table A.
Hypothesis Hread : readable t.
Notation d := (dataset_of t).
Notation ok o := (o < t_nobs A t).
Lemma grow_left_refine attr sp o : attr < t_nnum A t + t_nchar A t -> (match sp with SplitNum _ => attr < t_nnum A t | SplitStr _ => t_nnum A t <= attr end) -> ok o ->
  grow_left_mem A t attr sp o = Done (grow_left A d attr sp o).
Proof.
  intros Ha Hs Ho. destruct Hread as [R1 R2]. destruct sp as [v|s]; cbn [grow_left_mem grow_left].
  - destruct (R1 attr o Hs Ho) as [x E]. cbn [dataset_of num_val]. rewrite E. reflexivity.
  - cbn [dataset_of char_val n_num]. destruct (R2 (attr - t_nnum A t) o ltac:(lia) Ho) as [x E]. rewrite E. reflexivity.
Qed.
Lemma score_left_refine attr sp o : attr < t_nnum A t + t_nchar A t -> (match sp with SplitNum _ => attr < t_nnum A t | SplitStr _ => t_nnum A t <= attr end) -> ok o ->
  score_left_mem A t attr sp o = Done (score_left A d attr sp o).
Proof.
  intros Ha Hs Ho. destruct Hread as [R1 R2]. destruct sp as [v|s]; cbn [score_left_mem score_left].
  - destruct (R1 attr o Hs Ho) as [x E]. cbn [dataset_of num_val]. rewrite E. reflexivity.
  - cbn [dataset_of char_val n_num]. destruct (R2 (attr - t_nnum A t) o ltac:(lia) Ho) as [x E]. rewrite E. reflexivity.
Qed.
Lemma split_refine attr o : attr < t_nnum A t + t_nchar A t -> ok o ->
  split_mem A t attr o = Done (split_of A d attr o) /\ (match split_of A d attr o with SplitNum _ => attr < t_nnum A t | SplitStr _ => t_nnum A t <= attr end).
Proof.
  intros Ha Ho. destruct Hread as [R1 R2]. unfold split_mem, split_of. cbn [dataset_of n_num num_val char_val]. destruct (Nat.ltb_spec attr (t_nnum A t)).
  - destruct (R1 attr o H Ho) as [x E]. rewrite E. cbn. auto.
  - destruct (R2 (attr - t_nnum A t) o ltac:(lia) Ho) as [x E]. rewrite E. cbn. auto.
Qed.
Lemma partition_refine p q sample : (forall o, In o sample -> p o = Done (q o)) ->
  partition_mem p sample = Done (filter q sample, filter (fun o => negb (q o)) sample).
Proof.
  induction sample as [|o s IH]; intros H; [reflexivity|]. cbn [partition_mem filter]. rewrite (H o) by (cbn; auto). cbn [rbind].
  rewrite IH by (intros; apply H; cbn; auto). cbn [rbind fst snd]. destruct (q o); reflexivity.
Qed.
(** every split of the tree reads an existing attribute *)
Fixpoint splits_ok (tr : tree A) : Prop :=
  match tr with
  | Leaf _ => True
  | Node attr sp _ l r => attr < t_nnum A t + t_nchar A t /\ (match sp with SplitNum _ => attr < t_nnum A t | SplitStr _ => t_nnum A t <= attr end) /\ splits_ok l /\ splits_ok r
  end.
Lemma grow_refine rg : draws_in_range (t_nnum A t + t_nchar A t) (t_nobs A t) rg -> forall fuel sample g, (forall o, In o sample -> ok o) ->
  growTree_mem A t rg fuel sample g = Done (growTree A d rg fuel sample g) /\ splits_ok (growTree A d rg fuel sample g).
Proof.
  intros (Da & Di & Ds). induction fuel as [|fuel IH]; intros sample g Hs; cbn [growTree_mem growTree]; [cbn; auto|].
  destruct (Nat.leb_spec (length sample) 1); [cbn; auto|].
  specialize (Da g). destruct (draw_attr rg g) as [attr g1]. cbn [fst] in Da.
  assert (Di' := Di (length sample) g1 ltac:(lia)). destruct (draw_index rg (length sample) g1) as [ix g2]. cbn [fst] in Di'.
  unfold load at 1. rewrite (nth_error_nth' sample 0 Di'). cbn [rbind].
  assert (Ho : ok (nth ix sample 0)) by (apply Hs, nth_In; auto).
  destruct (split_refine attr (nth ix sample 0) Da Ho) as [E1 E2]. rewrite E1. cbn [rbind].
  rewrite (partition_refine _ (grow_left A d attr (split_of A d attr (nth ix sample 0)))) by (intros; apply grow_left_refine; auto).
  cbn [rbind fst snd].
  destruct (IH (filter (grow_left A d attr (split_of A d attr (nth ix sample 0))) sample) g2) as [L1 L2]; [intros o Hin; apply filter_In in Hin; apply Hs, Hin|].
  destruct (IH (filter (fun o => negb (grow_left A d attr (split_of A d attr (nth ix sample 0)) o)) sample) g2) as [M1 M2]; [intros o Hin; apply filter_In in Hin; apply Hs, Hin|].
  rewrite L1, M1. cbn [rbind]. split; [reflexivity|]. cbn. auto.
Qed.
Lemma path_refine o tr : ok o -> splits_ok tr -> forall len, pathLength_mem A t o tr len = Done (pathLength A d o tr len).
Proof.
  intros Ho. induction tr as [n|attr sp n l IHl r IHr]; intros Hs len; cbn [pathLength_mem pathLength]; [reflexivity|].
  destruct Hs as (S1 & S2 & S3 & S4). rewrite score_left_refine by auto. cbn [rbind]. destruct (score_left A d attr sp o); auto.
Qed.
Lemma score_refine ts fs trees o : ok o -> (forall tr, In tr trees -> splits_ok tr) -> anomalyScore_mem A t ts fs trees o = Done (anomalyScore A d ts fs trees o).
Proof.
  intros Ho Hs. unfold anomalyScore_mem, anomalyScore. cbn zeta.
  assert (E : forall acc, total_mem A t o trees acc = Done (fold_left (fun avg tr => nadd avg (pathLength A d o tr 0)) trees acc)).
  { induction trees as [|tr trees IH]; intros acc; [reflexivity|]. cbn [total_mem fold_left]. rewrite path_refine by (auto; apply Hs; cbn; auto). cbn [rbind].
    apply IH. intros; apply Hs; cbn; auto. }
  rewrite E. reflexivity.
Qed.
Lemma worker_refine rg h : draws_in_range (t_nnum A t + t_nchar A t) (t_nobs A t) rg -> forall jobs sample g, (forall o, In o sample -> ok o) ->
  worker_loop_mem A t rg h jobs sample g = Done (worker_loop A d rg h jobs sample g) /\ (forall tr, In tr (worker_loop A d rg h jobs sample g) -> splits_ok tr).
Proof.
  intros D. induction jobs as [|jobs IH]; intros sample g Hs; cbn [worker_loop_mem worker_loop]; [cbn; split; [reflexivity|intros tr []]|].
  assert (Ds := proj2 (proj2 D) g). destruct (draw_sample rg g) as [drawn g']. cbn [fst] in Ds.
  assert (Hs' : forall o, In o (sample ++ drawn) -> ok o) by (intros o Ho; apply in_app_or in Ho; destruct Ho; auto).
  destruct (grow_refine rg D h (sample ++ drawn) g' Hs') as [G1 G2]. rewrite G1. cbn [rbind].
  destruct (IH (sample ++ drawn) g' Hs') as [I1 I2]. rewrite I1. cbn [rbind]. split; [reflexivity|]. intros tr [<-|Hin]; auto.
Qed.
Lemma map_run_done {X Y} (f : X -> run Y) g l : (forall x, In x l -> f x = Done (g x)) -> map_run f l = Done (map g l).
Proof.
  induction l as [|x l IH]; intros H; [reflexivity|]. cbn [map_run map]. rewrite (H x) by (cbn; auto). cbn [rbind]. rewrite IH by (intros; apply H; cbn; auto). reflexivity.
Qed.
Lemma grow_all_refine rg ts fs seed w : draws_in_range (t_nnum A t + t_nchar A t) (t_nobs A t) rg ->
  grow_mem A t rg ts fs seed w = Done (all_workers_trees A d rg ts fs seed w) /\ (forall ws, In ws (all_workers_trees A d rg ts fs seed w) -> forall tr, In tr ws -> splits_ok tr).
Proof.
  intros D. unfold grow_mem, all_workers_trees, worker_trees. split.
  - apply map_run_done. intros i _. cbn zeta. apply worker_refine; auto. intros o [].
  - intros ws Hw tr Ht. apply in_map_iff in Hw. destruct Hw as (i & <- & _). eapply (worker_refine rg); eauto. intros o [].
Qed.
End T.

Lemma nth_error_ext' {X} (l m : list X) : (forall j, nth_error l j = nth_error m j) -> l = m.
Proof. revert m. induction l as [|x l IH]; intros [|y m] H; auto; [specialize (H 0); discriminate | specialize (H 0); discriminate |]. f_equal; [specialize (H 0); cbn in H; congruence | apply IH; intros j; exact (H (S j))]. Qed.
Lemma copy_out (scores out : list num) : length out = length scores -> 
  for_loop (length scores) 0 (fun i o => x <~ load scores i;; store o i x) out = Done scores.
Proof.
  intros HL.
  assert (G : forall k i o, i + k = length scores -> length o = length scores -> (forall j, j < i -> nth_error o j = nth_error scores j) ->
    for_loop k i (fun i o => x <~ load scores i;; store o i x) o = Done scores).
  { induction k as [|k IH]; intros i o Hk Ho Hj; cbn [for_loop].
    - f_equal. apply nth_error_ext'. intros j. destruct (Nat.lt_ge_cases j i); auto.
      rewrite (proj2 (nth_error_None o j)), (proj2 (nth_error_None scores j)) by lia. reflexivity.
    - unfold load at 1. destruct (nth_error scores i) as [x|] eqn:E; [|apply nth_error_None in E; lia]. cbn [rbind]. unfold store.
      replace (i <? length o) with true by (symmetry; apply Nat.ltb_lt; lia). cbn [rbind].
      assert (SL : forall (l : list num) i x, length (set_cell l i x) = length l) by (induction l; intros [|]; cbn; auto).
      assert (SN : forall (l : list num) i x j, i < length l -> nth_error (set_cell l i x) j = if Nat.eqb j i then Some x else nth_error l j).
      { clear. induction l as [|y l IH]; intros i x j Hi; cbn in Hi; [lia|]. destruct i, j; cbn; auto. apply IH. lia. }
      apply IH; [lia|rewrite SL; auto|]. intros j Hj'. rewrite SN by lia. destruct (Nat.eqb_spec j i) as [->|]; [auto|]. apply Hj. lia. }
  apply G; auto. intros; lia.
Qed.
End R.

(** ** C96: memory safety and refinement *)
Definition int_args (f ts s : Z) : Prop := in_int f = true /\ in_int ts = true /\ in_int s = true.
(** With readable arrays, at least one attribute, a worker, a non-negative forest size and a non-zero tree size, the
    extension stays inside its memory and fills the output with the scores of Model_iforest, whatever the output array held. *)
Theorem C96_refines : forall (A : Arith) w merge rg (t : table A) out f ts s,
  readable t -> draws_in_range (t_nnum A t + t_nchar A t) (t_nobs A t) rg -> (forall ws, interleaving ws (merge ws)) ->
  int_args f ts s -> (0 <= f)%Z -> ts <> 0%Z -> 1 <= w -> length out = t_nobs A t ->
  exists trees, interleaving (all_workers_trees A (dataset_of t) rg (size_t_of_int ts) (size_t_of_int f) (size_t_of_int s) w) trees /\
    ext_iforest A w merge rg t out f ts s =
    Returns (Ok (map (anomalyScore A (dataset_of t) (size_t_of_int ts) (size_t_of_int f) trees) (seq 0 (t_nobs A t)))).
Proof.
  intros A w merge rg t out f ts s HR HD HM (I1 & I2 & I3) Hf Hts Hw Hout.
  destruct (grow_all_refine t HR rg (size_t_of_int ts) (size_t_of_int f) (size_t_of_int s) w HD) as [G1 G2].
  exists (merge (all_workers_trees A (dataset_of t) rg (size_t_of_int ts) (size_t_of_int f) (size_t_of_int s) w)). split; [apply HM|].
  unfold ext_iforest. rewrite I1, I2, I3. cbn [andb negb]. rewrite (proj2 (Z.eqb_neq ts 0) Hts), (proj2 (Z.ltb_ge f 0) Hf).
  rewrite (proj2 (Nat.eqb_neq w 0)) by lia. rewrite G1. cbn [rbind]. cbv zeta.
  rewrite (map_run_done _ (anomalyScore A (dataset_of t) (size_t_of_int ts) (size_t_of_int f) (merge (all_workers_trees A (dataset_of t) rg (size_t_of_int ts) (size_t_of_int f) (size_t_of_int s) w)))).
  - cbn [rbind]. set (sc := map _ (seq 0 (t_nobs A t))). assert (L : length sc = t_nobs A t) by (unfold sc; rewrite map_length, seq_length; auto).
    assert (C := copy_out sc out ltac:(lia)). rewrite L in C. rewrite C. reflexivity.
  - intros o Ho. apply in_seq in Ho. apply score_refine; auto; [lia|]. intros tr Htr.
    set (ws := all_workers_trees A (dataset_of t) rg (size_t_of_int ts) (size_t_of_int f) (size_t_of_int s) w) in *.
    assert (P := Permutation.Permutation_in tr (Permutation.Permutation_sym (interleaving_perm ws (merge ws) (HM ws))) Htr).
    apply in_concat in P. destruct P as (l & Hl & Hin). eapply G2; eauto.
Qed.
(** arguments that never reach the algorithm *)
Theorem C96_arguments : forall (A : Arith) w merge rg (t : table A) out f ts s,
  (~ int_args f ts s -> ext_iforest A w merge rg t out f ts s = Returns (Err OverflowError)) /\
  (int_args f ts s -> ts = 0%Z -> ext_iforest A w merge rg t out f ts s = Undefined) /\
  (int_args f ts s -> ts <> 0%Z -> (f < 0)%Z -> ext_iforest A w merge rg t out f ts s = Aborts) /\
  (int_args f ts s -> (0 <= f)%Z -> w = 0 -> ext_iforest A w merge rg t out f ts s = Undefined).
Proof.
  intros A w merge rg t out f ts s. unfold ext_iforest, int_args. split; [|split; [|split]].
  - intros H. destruct (in_int f), (in_int ts), (in_int s); try reflexivity. exfalso. apply H. auto.
  - intros (-> & -> & ->) ->. reflexivity.
  - intros (-> & -> & ->) H1 H2. cbn [andb negb]. rewrite (proj2 (Z.eqb_neq ts 0) H1), (proj2 (Z.ltb_lt f 0) H2). reflexivity.
  - intros (-> & -> & ->) H1 ->. cbn [andb negb]. rewrite (proj2 (Z.ltb_ge f 0) H1). destruct (ts =? 0)%Z; reflexivity.
Qed.
(** a table without attributes (no numeric and no object column): the first tree already reads outside *)
Lemma c_string_nil n (l : list nat) : l = [] -> c_string (skipn n l) = UB.
Proof. intros ->. destruct n; reflexivity. Qed.
Lemma size_t_small z : (0 <= z < 2 ^ 31)%Z -> size_t_of_int z = Z.to_nat z.
Proof. intros H. unfold size_t_of_int. rewrite Z.mod_small by lia. reflexivity. Qed.
Lemma int_small z : in_int z = true -> (- 2 ^ 31 <= z < 2 ^ 31)%Z.
Proof. unfold in_int. rewrite andb_true_iff, Z.leb_le, Z.ltb_lt. auto. Qed.
Lemma log2_up_pos z : in_int z = true -> (z < 0 \/ 2 <= z)%Z -> exists h, maxTreeHeight (size_t_of_int z) = S h.
Proof.
  intros Hi Hz. assert (B := int_small z Hi). assert (2 <= size_t_of_int z).
  { unfold size_t_of_int. change 2 with (Z.to_nat 2). apply Z2Nat.inj_le; [lia | apply Z.mod_pos_bound; lia |].
    destruct Hz; [|rewrite Z.mod_small; lia]. rewrite <- (Z_mod_plus_full z 1), Z.mod_small; lia. }
  unfold maxTreeHeight. assert (P := Nat.log2_up_pos (size_t_of_int z) ltac:(lia)). destruct (Nat.log2_up (size_t_of_int z)); [lia|eauto].
Qed.
Lemma jobs_first fs w : 1 <= w -> 1 <= fs -> exists j, jobs_of fs w 0 = S j.
Proof.
  intros Hw Hf. unfold jobs_of. cbn [Nat.eqb]. assert (P := div_mul_le fs w Hw).
  assert (fs / w * (w - 1) < fs). { destruct (Nat.eq_dec (fs / w) 0) as [->|]; [lia|]. nia. }
  destruct (fs - fs / w * (w - 1)) eqn:E; [lia|eauto].
Qed.
(** the sample behind the first tree holds at least two observations *)
Definition samples_two (rg : rng) : Prop := forall g, 2 <= length (fst (draw_sample rg g)).
Lemma first_tree_ub (A : Arith) w merge rg (t : table A) out f ts s : int_args f ts s -> (1 <= f)%Z -> (ts < 0 \/ 2 <= ts)%Z -> 1 <= w ->
  (forall h sample g, 2 <= length sample -> sample = fst (draw_sample rg g) -> growTree_mem A t rg (S h) sample (snd (draw_sample rg g)) = UB) ->
  samples_two rg -> ext_iforest A w merge rg t out f ts s = Undefined.
Proof.
  intros (I1 & I2 & I3) Hf Hts Hw HU H2. unfold ext_iforest. rewrite I1, I2, I3. cbn [andb negb].
  rewrite (proj2 (Z.eqb_neq ts 0)) by lia. rewrite (proj2 (Z.ltb_ge f 0)) by lia. rewrite (proj2 (Nat.eqb_neq w 0)) by lia. cbv zeta.
  assert (G : grow_mem A t rg (size_t_of_int ts) (size_t_of_int f) (size_t_of_int s) w = UB).
  { unfold grow_mem. destruct w as [|w']; [lia|]. cbn [seq map_run]. destruct (jobs_first (size_t_of_int f) (S w') ltac:(lia)) as [j ->].
    { assert (B := int_small f I1). rewrite size_t_small by lia. lia. }
    cbn [Nat.mul]. destruct (log2_up_pos ts I2 Hts) as [h ->]. cbn [worker_loop_mem].
    set (g := seed_gen rg _). assert (U := HU h _ g (H2 g) eq_refl). destruct (draw_sample rg g) as [drawn g']. cbn [fst snd app] in *. rewrite U. reflexivity. }
  rewrite G. reflexivity.
Qed.
(** the conversions at the C boundary: what the three arguments become as size_t *)
Theorem C96_conversion : forall z, in_int z = true ->
  ((0 <= z)%Z -> Z.of_nat (size_t_of_int z) = z) /\ ((z < 0)%Z -> Z.of_nat (size_t_of_int z) = (18446744073709551616 + z)%Z).
Proof.
  intros z H. assert (B := int_small z H). split; intros Hz.
  - rewrite size_t_small by lia. apply Z2Nat.id. lia.
  - unfold size_t_of_int. rewrite Z2Nat.id by (apply Z.mod_pos_bound; lia).
    rewrite <- (Z_mod_plus_full z 1), Z.mod_small; lia.
Qed.
Theorem C96_no_attributes : forall (A : Arith) w merge rg (t : table A) out f ts s,
  t_nnum A t = 0 -> t_char A t = [] -> (forall n g, 1 <= n -> fst (draw_index rg n g) < n) -> samples_two rg ->
  int_args f ts s -> (1 <= f)%Z -> (ts < 0 \/ 2 <= ts)%Z -> 1 <= w -> ext_iforest A w merge rg t out f ts s = Undefined.
Proof.
  intros A w merge rg t out f ts s Hn Hc Hi H2 HI Hf Hts Hw. apply first_tree_ub; auto. intros h sample g Hl _. cbn [growTree_mem].
  replace (length sample <=? 1) with false by (symmetry; apply Nat.leb_gt; lia).
  destruct (draw_attr rg (snd (draw_sample rg g))) as [attr g1]. assert (Hi' := Hi (length sample) g1 ltac:(lia)).
  destruct (draw_index rg (length sample) g1) as [ix g2]. cbn [fst] in Hi'. unfold load at 1. rewrite (nth_error_nth' sample 0 Hi'). cbn [rbind].
  unfold split_mem. rewrite Hn. cbn [Nat.ltb Nat.leb]. unfold read_char. rewrite c_string_nil by auto. reflexivity.
Qed.
(** string columns: every read is inside the array as soon as its very last byte is NUL *)
Lemma c_string_last (l : list nat) : l <> [] -> last l 1 = 0 -> exists s, c_string l = Done s.
Proof.
  induction l as [|c l IH]; intros H0 HL; [contradiction|]. cbn [c_string]. destruct (Nat.eqb_spec c 0); [eauto|].
  destruct l as [|c' l]; [cbn in HL; congruence|]. destruct IH as [s E]; [discriminate|exact HL|]. rewrite E. cbn. eauto.
Qed.
Lemma last_skipn (l : list nat) n d : n < length l -> last (skipn n l) d = last l d.
Proof. revert n. induction l as [|c l IH]; intros [|n] H; cbn in H; try lia; [reflexivity|]. cbn [skipn]. rewrite IH by lia. destruct l; [cbn in H; lia|reflexivity]. Qed.
Lemma skipn_nonempty (l : list nat) n : n < length l -> skipn n l <> [].
Proof. intros H E. apply (f_equal (@length nat)) in E. rewrite skipn_length in E. cbn in E. lia. Qed.
Theorem C96_readable : forall (A : Arith) (t : table A),
  length (t_num A t) = t_nnum A t * t_nobs A t -> length (t_char A t) = t_nchar A t * t_nobs A t * t_width A t -> 1 <= t_width A t ->
  (t_nchar A t = 0 \/ last (t_char A t) 1 = 0) -> readable t.
Proof.
  intros A t L1 L2 Hw HC. split.
  - intros a o Ha Ho. unfold read_num, load. destruct (nth_error (t_num A t) (a * t_nobs A t + o)) as [x|] eqn:E; [eauto|].
    apply nth_error_None in E. rewrite L1 in E. nia.
  - intros a o Ha Ho. unfold read_char. destruct HC as [HC|HC]; [lia|].
    assert (B : (a * t_nobs A t + o) * t_width A t < length (t_char A t)).
    { rewrite L2. apply Nat.mul_lt_mono_pos_r; [lia|]. nia. }
    apply c_string_last; [apply skipn_nonempty; auto|]. rewrite last_skipn by auto. exact HC.
Qed.
(** for the arrays built from a DataFrame: safe if the last value of the last object column is shorter than the longest
    string of all object columns, and the read of that value runs off the array otherwise *)
Lemma concat_length_const {X} (l : list (list X)) n : (forall c, In c l -> length c = n) -> length (concat l) = length l * n.
Proof. induction l as [|c l IH]; intros H; [reflexivity|]. cbn [concat length]. rewrite app_length, IH, (H c) by (cbn; auto; intros; apply H; cbn; auto). lia. Qed.
Lemma char_cells_length w items : Forall (fun s => length s <= w) items -> length (char_cells w items) = length items * w.
Proof. induction items as [|s items IH]; intros H; [reflexivity|]. inversion H; subst. unfold char_cells in *. cbn [map concat length]. rewrite app_length, item_length, IH by auto. lia. Qed.
Lemma last_app_cons {X} (l m : list X) d : m <> [] -> last (l ++ m) d = last m d.
Proof. intros H. induction l as [|x l IH]; [reflexivity|]. cbn [app last]. rewrite IH. destruct (l ++ m) eqn:E; [|reflexivity]. destruct l; [subst; cbn in E; contradiction|discriminate]. Qed.
Lemma last_cell w items : items <> [] -> length (last items []) < w -> last (char_cells w items) 1 = 0.
Proof.
  intros H Hl. rewrite (app_removelast_last [] H). unfold char_cells. rewrite map_app, concat_app. cbn [map concat]. rewrite app_nil_r.
  assert (R : exists k, w - length (last items []) = S k) by (destruct (w - length (last items [])) eqn:E; [lia|eauto]). destruct R as [k Hk].
  unfold item_bytes at 2. rewrite Hk, app_assoc, last_app_cons by discriminate. clear. induction k as [|k IH]; [reflexivity|]. cbn [repeat last] in *. exact IH.
Qed.
Lemma removelast_length {X} (l : list X) : length (removelast l) = length l - 1.
Proof. induction l as [|x l IH]; [reflexivity|]. destruct l as [|y l]; [reflexivity|]. cbn [removelast length] in *. lia. Qed.
Theorem C96_frame_memory : forall (A : Arith) n nums objs, let t := table_of A n nums objs in let items := concat objs in
  (forall c, In c nums -> length c = n) -> (forall c, In c objs -> length c = n) -> Forall nul_free items ->
  (objs = [] \/ length (last items []) < numpy_width items -> readable t) /\
  (objs <> [] -> 1 <= n -> length (last items []) = numpy_width items -> read_char A t (length objs - 1) (n - 1) = UB).
Proof.
  intros A n nums objs t items Hn Ho HN. destruct (numpy_width_spec items) as (W1 & W2 & _).
  assert (LI : length items = length objs * n) by (apply concat_length_const; auto). split.
  - intros HC. destruct (Nat.eq_dec n 0) as [->|Hn0]. { split; unfold t, table_of; cbn [t_nobs]; intros; lia. }
    apply C96_readable; unfold t, table_of; cbn [t_num t_nnum t_nobs t_char t_nchar t_width]; auto.
    + apply concat_length_const. auto.
    + fold items. rewrite char_cells_length, LI by auto. reflexivity.
    + destruct HC as [->|HC]; [left; reflexivity|]. fold items. destruct objs as [|o0 objs]; [left; reflexivity|]. right. apply last_cell; auto.
      intros E. rewrite E in LI. cbn [length] in LI. nia.
  - intros H0 H1 HL. assert (HO : 1 <= length objs) by (destruct objs; [contradiction|cbn; lia]).
    assert (E : (length objs - 1) * n + (n - 1) = length items - 1) by (rewrite LI; nia).
    unfold read_char, t, table_of. cbn [t_nobs t_width t_char]. fold items. rewrite E. change (read_item (numpy_width items) items (length items - 1) = UB).
    assert (P : 1 <= length items) by (rewrite LI; nia).
    assert (NI : items <> []) by (destruct items; [cbn in P; lia|discriminate]).
    assert (NE : nth_error items (length items - 1) = Some (last items [])).
    { rewrite (app_removelast_last [] NI) at 1. rewrite nth_error_app2; rewrite removelast_length; [|lia]. rewrite Nat.sub_diag. reflexivity. }
    destruct (C91_read_item _ _ _ _ HN W2 NE) as (_ & _ & H3). apply H3; auto. lia.
Qed.

(** one object column, no numeric one: a longest string in the last row makes the first tree read beyond the array as soon as
    that row is in its sample *)
Theorem C96_last_row_undefined : forall (A : Arith) n v w merge rg out f ts s, 1 <= n -> length v = n -> Forall nul_free v ->
  length (last v []) = numpy_width v -> (forall g, In (n - 1) (fst (draw_sample rg g))) -> samples_two rg ->
  (forall g, fst (draw_attr rg g) = 0) -> (forall m g, 1 <= m -> fst (draw_index rg m g) < m) ->
  int_args f ts s -> (1 <= f)%Z -> (ts < 0 \/ 2 <= ts)%Z -> 1 <= w ->
  ext_iforest A w merge rg (table_of A n [] [v]) out f ts s = Undefined.
Proof.
  intros A n v w merge rg out f ts s Hn Hv HN HL Hlast H2 Hattr Hidx HI Hf Hts Hw. apply first_tree_ub; auto. intros h sample g Hl Hs. cbn [growTree_mem].
  replace (length sample <=? 1) with false by (symmetry; apply Nat.leb_gt; lia).
  assert (Ha := Hattr (snd (draw_sample rg g))). destruct (draw_attr rg (snd (draw_sample rg g))) as [attr g1]. cbn [fst] in Ha. subst attr.
  assert (Hi' := Hidx (length sample) g1 ltac:(lia)). destruct (draw_index rg (length sample) g1) as [ix g2]. cbn [fst] in Hi'.
  unfold load at 1. rewrite (nth_error_nth' sample 0 Hi'). cbn [rbind].
  set (t := table_of A n [] [v]). unfold split_mem. change (t_nnum A t) with 0. cbn [Nat.ltb Nat.leb Nat.sub].
  destruct (read_char A t 0 (nth ix sample 0)) as [sp|]; [|reflexivity]. cbn [rbind].
  assert (U : grow_left_mem A t 0 (SplitStr sp) (n - 1) = UB).
  { cbn [grow_left_mem]. change (0 - t_nnum A t) with 0. assert (F := C96_frame_memory A n [] [v]). cbn zeta in F. cbn [concat length] in F. rewrite app_nil_r in F.
    destruct F as [_ F]; [intros c [] | intros c [<-|[]]; auto | auto |]. change (1 - 1) with 0 in F. fold t in F. rewrite F by (auto; discriminate). reflexivity. }
  assert (P : forall (p : nat -> run bool) l, In (n - 1) l -> p (n - 1) = UB -> partition_mem p l = UB).
  { clear. intros p l. induction l as [|x l IH]; intros Hi Hp; [destruct Hi|]. cbn [partition_mem]. destruct Hi as [->|Hi]; [rewrite Hp; reflexivity|].
    destruct (p x); [|reflexivity]. cbn [rbind]. rewrite IH by auto. reflexivity. }
  rewrite P; auto. rewrite Hs. apply Hlast.
Qed.

(** a generator that draws attribute 0, index 0 and the two observations 0, 1 *)
Definition const_rng : rng := mkRng unit (fun _ => tt) (fun g => (0, g)) (fun _ g => (0, g)) (fun g => ([0; 1], g)).
Example C96_case : forall (A : Arith) (x y : num A),
  readable (table_of A 2 [[x; y]] []) /\ draws_in_range 1 2 const_rng /\ samples_two const_rng /\ int_args 1 2 0 /\
  (exists out, ext_iforest A 1 (@concat _) const_rng (table_of A 2 [[x; y]] []) [x; x] 1 2 0 = Returns (Ok out)) /\
  ext_iforest A 1 (@concat _) const_rng (table_of A 2 [] []) [x; x] 1 2 0 = Undefined /\
  (* one column of two-letter codes *)
  ext_iforest A 1 (@concat _) const_rng (table_of A 2 [] [[[85; 83]; [67; 65]]]) [x; x] 1 2 0 = Undefined /\
  readable (table_of A 2 [] [[[85; 83]; [65]]]).
Proof.
  intros A x y.
  assert (D : draws_in_range 1 2 const_rng) by (repeat split; cbn; intros; try lia; destruct H as [<-|[<-|[]]]; lia).
  assert (S2 : samples_two const_rng) by (intros g; cbn; lia). assert (I : int_args 1 2 0) by (repeat split).
  assert (R : readable (table_of A 2 [[x; y]] [])).
  { apply (C96_frame_memory A 2 [[x; y]] []); auto; [intros c [<-|[]]; reflexivity | intros c [] | constructor]. }
  split; [auto|]. split; [auto|]. split; [auto|]. split; [auto|]. split; [|split; [|split]].
  - destruct (C96_refines A 1 (@concat _) const_rng (table_of A 2 [[x; y]] []) [x; x] 1 2 0) as (trees & _ & E); auto; try lia.
    + intros ws. apply interleaving_sequential.
    + eauto.
  - apply C96_no_attributes; auto; try lia; try (cbn; intros; lia).
  - apply C96_last_row_undefined; auto; try lia; cbn; auto.
    repeat constructor; discriminate.
  - apply (C96_frame_memory A 2 [] [[[85; 83]; [65]]]); cbn; auto; [intros c [] | intros c [<-|[]]; reflexivity | repeat constructor; discriminate].
Qed.

(** ** C97: the Python function *)
Lemma for_store_length {X} (scores : list X) k : forall i o o', for_loop k i (fun i o => x <~ load scores i;; store o i x) o = Done o' -> length o' = length o.
Proof.
  induction k as [|k IH]; intros i o o' H; cbn [for_loop] in H; [injection H as <-; reflexivity|].
  destruct (load scores i) as [x|]; [|discriminate]. cbn [rbind] in H. unfold store in H. destruct (i <? length o); [|discriminate]. cbn [rbind] in H.
  rewrite (IH _ _ _ H). clear. revert i. induction o; intros [|i]; cbn; auto.
Qed.
Lemma ext_length A w merge rg (t : table A) out f ts s r : ext_iforest A w merge rg t out f ts s = Returns (Ok r) -> length r = length out.
Proof.
  unfold ext_iforest. destruct (negb _); [discriminate|]. destruct (ts =? 0)%Z; [discriminate|]. destruct (f <? 0)%Z; [discriminate|]. destruct (Nat.eqb w 0); [discriminate|]. cbv zeta.
  destruct (grow_mem _ _ _ _ _ _ _); [|discriminate]. cbn [rbind]. destruct (map_run _ _) as [sc|]; [|discriminate]. cbn [rbind].
  destruct (for_loop _ _ _ _) eqn:E; [|discriminate]. intros H. injection H as <-. exact (for_store_length sc _ _ _ _ E).
Qed.
(** the result has the index of the input, in order, and one numeric column of that length with the given name *)
Theorem C97_shape : forall (A : Arith) X w merge rg junk (data : frame A X) f ts excl s name r,
  anomaly_scores A w merge rg junk data f ts excl s name = Returns (Ok r) ->
  index r = index data /\ exists scores, columns r = [(name, Numeric scores)] /\ length scores = length (index data).
Proof.
  intros A X w merge rg junk data f ts excl s name r. unfold anomaly_scores. destruct (drop_columns A _ _) as [cols|e]; [|discriminate].
  destruct (negb _); [discriminate|]. destruct (ext_iforest _ _ _ _ _ _ _ _ _) as [[sc|e]| |] eqn:E; try discriminate. intros H. injection H as <-.
  cbn [index columns]. split; [reflexivity|]. exists sc. split; [reflexivity|]. rewrite (ext_length _ _ _ _ _ _ _ _ _ _ E), map_length, seq_length. reflexivity.
Qed.
(** excluding a name that is not a column raises KeyError, and this is the only way to get one *)
Lemma ext_no_keyerror A w merge rg (t : table A) out f ts s : ext_iforest A w merge rg t out f ts s <> Returns (Err KeyError).
Proof.
  unfold ext_iforest. destruct (negb _); [discriminate|]. destruct (ts =? 0)%Z; [discriminate|]. destruct (f <? 0)%Z; [discriminate|]. destruct (Nat.eqb w 0); [discriminate|]. cbv zeta.
  destruct (_ <~ _;; _); discriminate.
Qed.
Theorem C97_keyerror : forall (A : Arith) X w merge rg junk (data : frame A X) f ts excl s name,
  anomaly_scores A w merge rg junk data f ts (Some excl) s name = Returns (Err KeyError) <-> exists e, In e excl /\ ~ In e (map fst (columns data)).
Proof.
  intros A X w merge rg junk data f ts excl s name. unfold anomaly_scores, drop_columns.
  assert (EX : forall e, existsb (fun c : string * column A => String.eqb (fst c) e) (columns data) = true <-> In e (map fst (columns data))).
  { intros e. rewrite existsb_exists, in_map_iff. split; intros (c & H1 & H2); exists c; [rewrite <- (proj1 (String.eqb_eq _ _) H2); auto | split; auto; apply String.eqb_eq; auto]. }
  destruct (forallb _ excl) eqn:F.
  - split; [|intros (e & He & Hn); rewrite forallb_forall in F; exfalso; apply Hn, EX, F, He].
    destruct (negb _); [discriminate|]. destruct (ext_iforest _ _ _ _ _ _ _ _ _) as [[sc|e]| |] eqn:E; try discriminate. intros H. injection H as ->. exfalso. exact (ext_no_keyerror _ _ _ _ _ _ _ _ _ E).
  - split; [|reflexivity]. intros _. clear -F EX. induction excl as [|e excl IH]; [discriminate|]. cbn [forallb] in F. apply andb_false_iff in F. destruct F as [F|F].
    + exists e. split; [cbn; auto|]. intros H. apply EX in H. congruence.
    + destruct (IH F) as (e' & H1 & H2). exists e'. split; [cbn; auto|auto].
Qed.
(** only the numeric and the object columns that are not excluded matter, and only their order among their own kind *)
Theorem C97_only_numeric_and_object : forall (A : Arith) X w merge rg junk (data data' : frame A X) f ts excl excl' s name cols cols',
  index data = index data' -> drop_columns A excl (columns data) = Ok cols -> drop_columns A excl' (columns data') = Ok cols' ->
  numeric_columns A cols = numeric_columns A cols' -> object_columns A cols = object_columns A cols' ->
  anomaly_scores A w merge rg junk data f ts (Some excl) s name = anomaly_scores A w merge rg junk data' f ts (Some excl') s name.
Proof.
  intros A X w merge rg junk data data' f ts excl excl' s name cols cols' Hi Hd Hd' Hn Ho. unfold anomaly_scores. rewrite Hd, Hd', Hi, Hn, Ho. reflexivity.
Qed.
Lemma drop_none A cols : drop_columns A [] cols = Ok cols.
Proof. unfold drop_columns. cbn. f_equal. induction cols; cbn; congruence. Qed.
Theorem C97_none_is_empty : forall (A : Arith) X w merge rg junk (data : frame A X) f ts s name,
  anomaly_scores A w merge rg junk data f ts None s name = anomaly_scores A w merge rg junk data f ts (Some []) s name.
Proof. reflexivity. Qed.
(** a boolean, datetime or categorical column is silently ignored *)
Theorem C97_other_dtypes_ignored : forall (A : Arith) X w merge rg junk idx (l r : list (string * column A)) nm f ts s name,
  anomaly_scores A w merge rg junk (mkFrame (X := X) idx (l ++ (nm, OtherDtype) :: r)) f ts None s name =
  anomaly_scores A w merge rg junk (mkFrame (X := X) idx (l ++ r)) f ts None s name.
Proof.
  intros A X w merge rg junk idx l r nm f ts s name. rewrite !C97_none_is_empty.
  eapply C97_only_numeric_and_object; [reflexivity | apply drop_none | apply drop_none | |]; cbn [columns]; unfold numeric_columns, object_columns; rewrite !flat_map_app; reflexivity.
Qed.
(** a numeric and an object column next to each other can be exchanged *)
Theorem C97_kinds_commute : forall (A : Arith) X w merge rg junk idx (l r : list (string * column A)) n1 n2 v o f ts s name,
  anomaly_scores A w merge rg junk (mkFrame (X := X) idx (l ++ (n1, Numeric v) :: (n2, Objects o) :: r)) f ts None s name =
  anomaly_scores A w merge rg junk (mkFrame (X := X) idx (l ++ (n2, Objects o) :: (n1, Numeric v) :: r)) f ts None s name.
Proof.
  intros A X w merge rg junk idx l r n1 n2 v o f ts s name. rewrite !C97_none_is_empty.
  eapply C97_only_numeric_and_object; [reflexivity | apply drop_none | apply drop_none | |]; cbn [columns]; unfold numeric_columns, object_columns; rewrite !flat_map_app; reflexivity.
Qed.
(** excluding columns is the same as passing a frame without them *)
Theorem C97_exclusion : forall (A : Arith) X w merge rg junk idx (cols : list (string * column A)) excl f ts s name,
  (forall e, In e excl -> In e (map fst cols)) ->
  anomaly_scores A w merge rg junk (mkFrame (X := X) idx cols) f ts (Some excl) s name =
  anomaly_scores A w merge rg junk (mkFrame (X := X) idx (filter (fun c => negb (existsb (String.eqb (fst c)) excl)) cols)) f ts None s name.
Proof.
  intros A X w merge rg junk idx cols excl f ts s name H. rewrite C97_none_is_empty.
  eapply C97_only_numeric_and_object; [reflexivity | | apply drop_none | reflexivity | reflexivity].
  unfold drop_columns. cbn [columns]. replace (forallb _ excl) with true; [reflexivity|]. symmetry. apply forallb_forall. intros e He. apply existsb_exists.
  apply H, in_map_iff in He. destruct He as (c & E & Hc). exists c. split; auto. apply String.eqb_eq. auto.
Qed.
(** a frame without usable columns: undefined behaviour, not an error *)
Theorem C97_no_usable_columns : forall (A : Arith) X w merge rg junk (data : frame A X) f ts s name,
  (forall c, In c (columns data) -> snd c = OtherDtype) -> (forall t m g, 1 <= m -> fst (draw_index (rg t ts) m g) < m) -> (forall t, samples_two (rg t ts)) ->
  int_args f ts s -> (1 <= f)%Z -> (ts < 0 \/ 2 <= ts)%Z -> 1 <= w -> anomaly_scores A w merge rg junk data f ts None s name = Undefined.
Proof.
  intros A X w merge rg junk data f ts s name HO Hi H2 HI Hf Hts Hw. unfold anomaly_scores. rewrite drop_none.
  assert (E : numeric_columns A (columns data) = [] /\ object_columns A (columns data) = []).
  { clear - HO. induction (columns data) as [|c l IH]; [split; reflexivity|]. destruct IH as [I1 I2]; [intros; apply HO; cbn; auto|].
    unfold numeric_columns, object_columns in *. cbn [flat_map]. rewrite (HO c) by (cbn; auto). auto. }
  destruct E as [-> ->]. cbn [forallb negb]. rewrite C96_no_attributes; auto.
Qed.
(** a character outside ASCII raises UnicodeEncodeError (a ValueError) *)
Theorem C97_non_ascii : forall (A : Arith) X w merge rg junk (data : frame A X) f ts s name nm v str c,
  In (nm, Objects v) (columns data) -> In str v -> In c str -> 128 <= c -> anomaly_scores A w merge rg junk data f ts None s name = Returns (Err ValueError).
Proof.
  intros A X w merge rg junk data f ts s name nm v str c H1 H2 H3 H4. unfold anomaly_scores. rewrite drop_none.
  destruct (forallb _ (object_columns A (columns data))) eqn:E; [|reflexivity]. exfalso.
  rewrite forallb_forall in E. assert (Hv : In v (object_columns A (columns data))). { unfold object_columns. apply in_flat_map. exists (nm, Objects v). cbn. auto. }
  specialize (E v Hv). rewrite forallb_forall in E. specialize (E str H2). rewrite forallb_forall in E. specialize (E c H3). apply Nat.ltb_lt in E. lia.
Qed.
(** end to end: with a usable column, ASCII strings that are terminated in memory, and sensible sizes, row j of the result is the
    anomaly score of observation j of the table of kept columns *)
Theorem C97_scores : forall (A : Arith) X w merge rg junk (data : frame A X) f ts excl s name cols,
  let t := table_of A (length (index data)) (numeric_columns A cols) (object_columns A cols) in
  drop_columns A excl (columns data) = Ok cols ->
  (forall c, In c (numeric_columns A cols) -> length c = length (index data)) -> (forall c, In c (object_columns A cols) -> length c = length (index data)) ->
  (forall v str c, In v (object_columns A cols) -> In str v -> In c str -> 0 < c < 128) ->
  (object_columns A cols = [] \/ length (last (concat (object_columns A cols)) []) < numpy_width (concat (object_columns A cols))) ->
  draws_in_range (length (numeric_columns A cols) + length (object_columns A cols)) (length (index data)) (rg t ts) ->
  (forall ws, interleaving ws (merge ws)) -> int_args f ts s -> (0 <= f)%Z -> ts <> 0%Z -> 1 <= w ->
  exists trees, interleaving (all_workers_trees A (dataset_of t) (rg t ts) (size_t_of_int ts) (size_t_of_int f) (size_t_of_int s) w) trees /\
  anomaly_scores A w merge rg junk data f ts (Some excl) s name =
    Returns (Ok (mkFrame (index data) [(name, Numeric (map (anomalyScore A (dataset_of t) (size_t_of_int ts) (size_t_of_int f) trees) (seq 0 (length (index data)))))])).
Proof.
  intros A X w merge rg junk data f ts excl s name cols t Hd Hn Ho Hc HL HD HM HI Hf Hts Hw.
  assert (HR : readable t).
  { apply C96_frame_memory; auto. apply Forall_forall. intros str Hs. apply in_concat in Hs. destruct Hs as (v & Hv & Hs). apply Forall_forall. intros c Hcc.
    assert (B := Hc v str c Hv Hs Hcc). lia. }
  destruct (C96_refines A w merge (rg t ts) t (map junk (seq 0 (length (index data)))) f ts s HR HD HM HI Hf Hts Hw) as (trees & H1 & H2).
  { rewrite map_length, seq_length. reflexivity. }
  exists trees. split; [exact H1|]. unfold anomaly_scores. rewrite Hd.
  replace (forallb _ (object_columns A cols)) with true.
  - cbn [negb]. fold t. rewrite H2. reflexivity.
  - symmetry. apply forallb_forall. intros v Hv. apply forallb_forall. intros str Hs. apply forallb_forall. intros c Hcc. apply Nat.ltb_lt. apply (Hc v str c); auto.
Qed.
(** zero trees: every score is NaN *)
Theorem C97_zero_trees : forall X w merge rg junk (data : frame XRA X) ts excl s name cols, drop_columns XRA excl (columns data) = Ok cols ->
  (forall v str c, In v (object_columns XRA cols) -> In str v -> In c str -> c < 128) ->
  (forall ws, interleaving ws (merge ws)) -> in_int ts = true -> in_int s = true -> ts <> 0%Z -> 1 <= w ->
  anomaly_scores XRA w merge rg junk data 0 ts (Some excl) s name = Returns (Ok (mkFrame (index data) [(name, Numeric (A := XRA) (map (fun _ => NaN : num XRA) (index data)))])).
Proof.
  intros X w merge rg junk data ts excl s name cols Hd Hc HM I2 I3 Hts Hw. unfold anomaly_scores. rewrite Hd.
  replace (forallb _ (object_columns XRA cols)) with true.
  2:{ symmetry. apply forallb_forall. intros v Hv. apply forallb_forall. intros str Hs. apply forallb_forall. intros c Hcc. apply Nat.ltb_lt. apply (Hc v str c); auto. }
  cbn [negb]. set (t := table_of _ _ _ _). set (out := map junk _).
  assert (E : ext_iforest XRA w merge (rg t ts) t out 0 ts s = Returns (Ok (map (fun _ => NaN : num XRA) (index data)))).
  { unfold ext_iforest. change (in_int 0) with true. rewrite I2, I3. cbn [andb negb]. rewrite (proj2 (Z.eqb_neq ts 0) Hts). cbn [Z.ltb Z.compare]. rewrite (proj2 (Nat.eqb_neq w 0)) by lia. cbv zeta.
    change (size_t_of_int 0) with 0.
    assert (G : grow_mem XRA t (rg t ts) (size_t_of_int ts) 0 (size_t_of_int s) w = Done (map (fun _ => []) (seq 0 w))).
    { unfold grow_mem. apply map_run_done. intros i _. cbn zeta. unfold jobs_of. rewrite Nat.div_0_l by lia. destruct (Nat.eqb i 0); reflexivity. }
    rewrite G. cbn [rbind].
    assert (M : merge (map (fun _ => []) (seq 0 w)) = []).
    { assert (P := interleaving_perm _ _ (HM (map (fun _ : nat => ([] : list (tree XRA))) (seq 0 w)))).
      replace (concat (map (fun _ : nat => ([] : list (tree XRA))) (seq 0 w))) with (@nil (tree XRA)) in P by (clear; induction (seq 0 w); cbn; auto).
      apply Permutation.Permutation_nil in P. exact P. }
    rewrite M. rewrite (map_run_done _ (fun _ => NaN)).
    - cbn [rbind]. assert (L : t_nobs XRA t = length (index data)) by reflexivity. rewrite L.
      assert (C := copy_out (A := XRA) (map (fun _ => NaN) (seq 0 (length (index data)))) out). rewrite !map_length, seq_length in C. change (num XRA) with xr in *. rewrite C.
      + f_equal. f_equal. clear. generalize 0. induction (index data) as [|x l IH]; intros k; [reflexivity|]. cbn [length seq map]. f_equal. apply IH.
      + unfold out. rewrite map_length, seq_length. reflexivity.
    - intros o _. unfold anomalyScore_mem. cbn [total_mem rbind]. f_equal. change (@ndiv XRA) with xdiv. change (@ofZ XRA 0) with (Fin 0). change (@ofZ XRA (Z.of_nat 0)) with (Fin 0).
      rewrite xdiv_0, xsgn_inf_0. reflexivity. }
  rewrite E. reflexivity.
Qed.
Example C97_case : forall (A : Arith) (x y : num A), let data := mkFrame (A := A) [10; 20] [("a", Numeric [x; y]); ("flag", OtherDtype); ("b", Objects [[85; 83]; [65]])]%string in
  (exists r, anomaly_scores A 1 (@concat _) (fun _ _ => const_rng) (fun _ => x) data 1 2 None 0 "score" = Returns (Ok r)) /\
  anomaly_scores A 1 (@concat _) (fun _ _ => const_rng) (fun _ => x) data 1 2 (Some ["z"%string]) 0 "score" = Returns (Err KeyError) /\
  anomaly_scores A 1 (@concat _) (fun _ _ => const_rng) (fun _ => x) data 1 2 (Some ["a"; "b"]%string) 0 "score" = Undefined.
Proof.
  intros A x y data.
  assert (D : draws_in_range 2 2 const_rng) by (repeat split; cbn; intros; try lia; destruct H as [<-|[<-|[]]]; lia).
  split; [|split].
  - rewrite C97_none_is_empty. destruct (C97_scores A nat 1 (@concat _) (fun _ _ => const_rng) (fun _ => x) data 1 2 [] 0 "score" (columns data)) as (trees & _ & E).
    + apply drop_none.
    + intros c [<-|[]]. reflexivity.
    + intros c [<-|[]]. reflexivity.
    + intros v str c [<-|[]] [<-|[<-|[]]] Hc; cbn in Hc; lia.
    + right. cbn. lia.
    + exact D.
    + intros ws. apply interleaving_sequential.
    + repeat split.
    + lia.
    + lia.
    + lia.
    + eauto.
  - apply C97_keyerror. exists "z"%string. split; [cbn; auto|]. cbn. intros [H|[H|[H|[]]]]; discriminate.
  - change (anomaly_scores A 1 (@concat _) (fun _ _ => const_rng) (fun _ => x) data 1 2 (Some ["a"; "b"]%string) 0 "score") with
      (anomaly_scores A 1 (@concat _) (fun _ _ => const_rng) (fun _ => x) (mkFrame (A := A) [10; 20] (columns data)) 1 2 (Some ["a"; "b"]%string) 0 "score").
    rewrite C97_exclusion by (intros e [<-|[<-|[]]]; cbn; auto). apply C97_no_usable_columns; try lia.
    + intros c [<-|[]]. reflexivity.
    + intros t m g Hm. cbn. lia.
    + intros t g. cbn. lia.
    + repeat split.
Qed.
