(** * C98: the numpy program of the modified Merton model computes the cell-by-cell valuation *)
From Coq Require Import ZArith List Bool Arith Lia.
From Coq Require Import Permutation.
From Coq Require Import Reals Lra.
From Verif Require Import Arith XR Model_option Model_merton Model_ndarray Model_mertonarrays.
Import ListNotations.

(** ** Specification: an array of a given shape with given contents *)
Definition arr1 {X} (a : nd X) (n : nat) (g : nat -> X) : Prop := shape a = [n] /\ forall i, i < n -> get a [i] = g i.
Definition arr2 {X} (a : nd X) (m n : nat) (g : nat -> nat -> X) : Prop := shape a = [m; n] /\ forall i j, i < m -> j < n -> get a [i; j] = g i j.
Definition arr3 {X} (a : nd X) (m n p : nat) (g : nat -> nat -> nat -> X) : Prop :=
  shape a = [m; n; p] /\ forall i j k, i < m -> j < n -> k < p -> get a [i; j; k] = g i j k.

(** ** Operations on arrays of known shape *)
Lemma ext1 {X} (a : nd X) n g h : arr1 a n g -> (forall i, i < n -> g i = h i) -> arr1 a n h.
Proof. intros [S G] H. split; auto. intros. rewrite G, H; auto. Qed.
Lemma ext2 {X} (a : nd X) m n g h : arr2 a m n g -> (forall i j, i < m -> j < n -> g i j = h i j) -> arr2 a m n h.
Proof. intros [S G] H. split; auto. intros. rewrite G, H; auto. Qed.
Lemma ext3 {X} (a : nd X) m n p g h : arr3 a m n p g -> (forall i j k, i < m -> j < n -> k < p -> g i j k = h i j k) -> arr3 a m n p h.
Proof. intros [S G] H. split; auto. intros. rewrite G, H; auto. Qed.
Lemma amap1 {X Y} (f : X -> Y) a n g : arr1 a n g -> arr1 (amap f a) n (fun i => f (g i)).
Proof. intros [S G]. split; [exact S|]. intros. cbn [amap get]. rewrite G; auto. Qed.
Lemma amap2 {X Y} (f : X -> Y) a m n g : arr2 a m n g -> arr2 (amap f a) m n (fun i j => f (g i j)).
Proof. intros [S G]. split; [exact S|]. intros. cbn [amap get]. rewrite G; auto. Qed.
Lemma amap3 {X Y} (f : X -> Y) a m n p g : arr3 a m n p g -> arr3 (amap f a) m n p (fun i j k => f (g i j k)).
Proof. intros [S G]. split; [exact S|]. intros. cbn [amap get]. rewrite G; auto. Qed.
Lemma full2 {X} (v : X) m n : arr2 (full [m; n] v) m n (fun _ _ => v).
Proof. split; reflexivity. Qed.
Lemma full3 {X} (v : X) m n p : arr3 (full [m; n; p] v) m n p (fun _ _ _ => v).
Proof. split; reflexivity. Qed.
Lemma unit_index d i : i < d -> (if d =? 1 then 0 else i) = i.
Proof. intros H. destruct (Nat.eqb_spec d 1); lia. Qed.
Ltac idx := repeat (rewrite unit_index by lia).
Lemma zip1 {X Y Z} (f : X -> Y -> Z) a b n g h : arr1 a n g -> arr1 b n h -> exists c, zip f a b = Ok c /\ arr1 c n (fun i => f (g i) (h i)).
Proof.
  intros [S1 G1] [S2 G2]. unfold zip. rewrite S1, S2. cbn [rev app broadcast_rev bind]. rewrite Nat.eqb_refl. cbn [bind rev app]. eexists. split; [reflexivity|].
  split; [reflexivity|]. intros i Hi. cbn [get]. unfold bget. rewrite S1, S2. cbn [length Nat.sub skipn map2]. idx. rewrite G1, G2; auto.
Qed.
Lemma zip2 {X Y Z} (f : X -> Y -> Z) a b m n g h : arr2 a m n g -> arr2 b m n h -> exists c, zip f a b = Ok c /\ arr2 c m n (fun i j => f (g i j) (h i j)).
Proof.
  intros [S1 G1] [S2 G2]. unfold zip. rewrite S1, S2. cbn [rev app broadcast_rev bind]. rewrite !Nat.eqb_refl. cbn [bind rev app]. rewrite ?Nat.eqb_refl. cbn [bind rev app]. eexists. split; [reflexivity|].
  split; [reflexivity|]. intros i j Hi Hj. cbn [get]. unfold bget. rewrite S1, S2. cbn [length Nat.sub skipn map2]. idx. rewrite G1, G2; auto.
Qed.
Lemma zip3 {X Y Z} (f : X -> Y -> Z) a b m n p g h : arr3 a m n p g -> arr3 b m n p h ->
  exists c, zip f a b = Ok c /\ arr3 c m n p (fun i j k => f (g i j k) (h i j k)).
Proof.
  intros [S1 G1] [S2 G2]. unfold zip. rewrite S1, S2. cbn [rev app broadcast_rev bind]. rewrite !Nat.eqb_refl. cbn [bind rev app]. rewrite ?Nat.eqb_refl. cbn [bind rev app]. rewrite ?Nat.eqb_refl. cbn [bind rev app].
  eexists. split; [reflexivity|].
  split; [reflexivity|]. intros i j k Hi Hj Hk. cbn [get]. unfold bget. rewrite S1, S2. cbn [length Nat.sub skipn map2]. idx. rewrite G1, G2; auto.
Qed.
(** the first argument is repeated along the first dimension *)
Lemma zip3_first {X Y Z} (f : X -> Y -> Z) a b m n p g h : arr3 a 1 n p g -> arr3 b m n p h ->
  exists c, zip f a b = Ok c /\ arr3 c m n p (fun i j k => f (g 0 j k) (h i j k)).
Proof.
  intros [S1 G1] [S2 G2]. unfold zip. rewrite S1, S2. cbn [rev app broadcast_rev bind]. rewrite !Nat.eqb_refl. 
  destruct (Nat.eqb_spec 1 m) as [<-|Hm]; cbn [bind rev app].
  - eexists. split; [reflexivity|]. split; [reflexivity|]. intros i j k Hi Hj Hk. assert (i = 0) by lia. subst i. cbn [get]. unfold bget. rewrite S1, S2. cbn [length Nat.sub skipn map2 Nat.eqb]. idx. rewrite G1, G2; auto.
  - cbn [Nat.eqb bind rev app]. eexists. split; [reflexivity|]. split; [reflexivity|]. intros i j k Hi Hj Hk. cbn [get]. unfold bget. rewrite S1, S2. cbn [length Nat.sub skipn map2]. change (1 =? 1) with true. cbv iota. idx. rewrite G1, G2; auto; lia.
Qed.
(** one column is repeated for every column of the other argument *)
Lemma zip2_column {X Y Z} (f : X -> Y -> Z) a b m n g h : arr2 a m 1 g -> arr2 b m n h -> exists c, zip f a b = Ok c /\ arr2 c m n (fun i j => f (g i 0) (h i j)).
Proof.
  intros [S1 G1] [S2 G2]. unfold zip. rewrite S1, S2. cbn [rev app broadcast_rev bind]. rewrite !Nat.eqb_refl. cbn [bind].
  destruct (Nat.eqb_spec 1 n) as [<-|Hn]; cbn [bind rev app Nat.eqb].
  - eexists. split; [reflexivity|]. split; [reflexivity|]. intros i j Hi Hj. assert (j = 0) by lia. subst j. cbn [get]. unfold bget. rewrite S1, S2. cbn [length Nat.sub skipn map2 Nat.eqb]. idx. rewrite G1, G2; auto.
  - eexists. split; [reflexivity|]. split; [reflexivity|]. intros i j Hi Hj. cbn [get]. unfold bget. rewrite S1, S2. cbn [length Nat.sub skipn map2]. change (1 =? 1) with true. cbv iota. idx. rewrite G1, G2; auto; lia.
Qed.
(** columns that do not fit *)
Lemma zip2_mismatch {X Y Z} (f : X -> Y -> Z) a b m n n' g h : arr2 a m n g -> arr2 b m n' h -> n <> n' -> n <> 1 -> n' <> 1 -> zip f a b = Err ValueError.
Proof.
  intros [S1 _] [S2 _] H1 H2 H3. unfold zip. rewrite S1, S2. cbn [rev app broadcast_rev bind]. rewrite Nat.eqb_refl. cbn [bind].
  rewrite (proj2 (Nat.eqb_neq n n') H1), (proj2 (Nat.eqb_neq n 1) H2), (proj2 (Nat.eqb_neq n' 1) H3). reflexivity.
Qed.
Lemma mask1 {X} (a : nd X) b v n g h : arr1 a n g -> arr1 b n h -> exists c, mask_set a b v = Ok c /\ arr1 c n (fun i => if h i then v else g i).
Proof.
  intros [S1 G1] [S2 G2]. unfold mask_set. destruct (list_eq_dec _ _ _) as [_|H]; [|congruence]. cbn [check]. eexists. split; [reflexivity|]. split; [exact S1|].
  intros. cbn [get]. rewrite G1, G2; auto.
Qed.
Lemma mask2 {X} (a : nd X) b v m n g h : arr2 a m n g -> arr2 b m n h -> exists c, mask_set a b v = Ok c /\ arr2 c m n (fun i j => if h i j then v else g i j).
Proof.
  intros [S1 G1] [S2 G2]. unfold mask_set. destruct (list_eq_dec _ _ _) as [_|H]; [|congruence]. cbn [check]. eexists. split; [reflexivity|]. split; [exact S1|].
  intros. cbn [get]. rewrite G1, G2; auto.
Qed.
Lemma mask3 {X} (a : nd X) b v m n p g h : arr3 a m n p g -> arr3 b m n p h -> exists c, mask_set a b v = Ok c /\ arr3 c m n p (fun i j k => if h i j k then v else g i j k).
Proof.
  intros [S1 G1] [S2 G2]. unfold mask_set. destruct (list_eq_dec _ _ _) as [_|H]; [|congruence]. cbn [check]. eexists. split; [reflexivity|]. split; [exact S1|].
  intros. cbn [get]. rewrite G1, G2; auto.
Qed.
Ltac shapes := repeat match goal with S : shape _ = _ |- _ => rewrite S end; cbn [length nth set_nth Nat.eqb andb].
Ltac eqlist := match goal with |- context [list_eq_dec ?d ?x ?y] => destruct (list_eq_dec d x y) as [_|NE]; [|exfalso; apply NE; reflexivity] end.
Lemma concat2_cols {X} (a b : nd X) m n n' g h : arr2 a m n g -> arr2 b m n' h ->
  exists c, concat2 1 a b = Ok c /\ arr2 c m (n + n') (fun i j => if j <? n then g i j else h i (j - n)).
Proof.
  intros [S1 G1] [S2 G2]. unfold concat2. shapes. eqlist. cbn [check]. eexists. split; [reflexivity|]. split; [reflexivity|].
  intros i j Hi Hj. cbn [get nth set_nth]. destruct (Nat.ltb_spec j n); [apply G1 | apply G2]; lia.
Qed.
Lemma concat2_cols_rows {X} (a b : nd X) m m' n n' g h : arr2 a m n g -> arr2 b m' n' h -> m <> m' -> concat2 1 a b = Err ValueError.
Proof.
  intros [S1 _] [S2 _] H. unfold concat2. shapes. destruct (list_eq_dec _ _ _) as [E|_]; [exfalso; injection E; lia|]. reflexivity.
Qed.
Lemma concat2_depth {X} (a b : nd X) m n p p' g h : arr3 a m n p g -> arr3 b m n p' h ->
  exists c, concat2 2 a b = Ok c /\ arr3 c m n (p + p') (fun i j k => if k <? p then g i j k else h i j (k - p)).
Proof.
  intros [S1 G1] [S2 G2]. unfold concat2. shapes. eqlist. cbn [check]. eexists. split; [reflexivity|]. split; [reflexivity|].
  intros i j k Hi Hj Hk. cbn [get nth set_nth]. destruct (Nat.ltb_spec k p); [apply G1 | apply G2]; lia.
Qed.
Lemma concat2_vec {X} (a b : nd X) n n' g h : arr1 a n g -> arr1 b n' h ->
  exists c, concat2 0 a b = Ok c /\ arr1 c (n + n') (fun i => if i <? n then g i else h (i - n)).
Proof.
  intros [S1 G1] [S2 G2]. unfold concat2. shapes. eqlist. cbn [check]. eexists. split; [reflexivity|]. split; [reflexivity|].
  intros i Hi. cbn [get nth set_nth]. destruct (Nat.ltb_spec i n); [apply G1 | apply G2]; lia.
Qed.
Lemma concat2_rows {X} (a b : nd X) n n' q g h : arr2 a n q g -> arr2 b n' q h ->
  exists c, concat2 0 a b = Ok c /\ arr2 c (n + n') q (fun i j => if i <? n then g i j else h (i - n) j).
Proof.
  intros [S1 G1] [S2 G2]. unfold concat2. shapes. eqlist. cbn [check]. eexists. split; [reflexivity|]. split; [reflexivity|].
  intros i j Hi Hj. cbn [get nth set_nth]. destruct (Nat.ltb_spec i n); [apply G1 | apply G2]; lia.
Qed.
Lemma dstack2 {X} (a : nd X) m n p g : arr2 a m n g -> p <> 0 -> exists c, dstack a p = Ok c /\ arr3 c m n p (fun i j _ => g i j).
Proof.
  intros [S1 G1] H. unfold dstack. rewrite (proj2 (Nat.eqb_neq p 0) H). cbn [negb check]. eexists. split; [reflexivity|]. rewrite S1. split; [reflexivity|]. intros. cbn [get firstn]. auto.
Qed.
Lemma columns2 {X} (a : nd X) m n lo hi g : arr2 a m n g -> arr2 (columns a lo hi) m (Nat.min hi n - Nat.min lo n) (fun i j => g i (lo + j)).
Proof. intros [S1 G1]. unfold columns. shapes. split; [reflexivity|]. intros i j Hi Hj. cbn [get nth]. apply G1; lia. Qed.
Lemma column2 {X} (a : nd X) m n j g : arr2 a m n g -> (0 <= j < Z.of_nat n)%Z -> exists c, column a j = Ok c /\ arr1 c m (fun i => g i (Z.to_nat j)).
Proof.
  intros [S1 G1] H. unfold column. shapes. replace (j <? 0)%Z with false by (symmetry; apply Z.ltb_ge; lia).
  replace ((0 <=? j)%Z && (j <? Z.of_nat n)%Z) with true by (symmetry; apply andb_true_iff; split; [apply Z.leb_le | apply Z.ltb_lt]; lia). cbn [check].
  eexists. split; [reflexivity|]. split; [reflexivity|]. intros. cbn [get nth]. apply G1; lia.
Qed.
Lemma column2_out {X} (a : nd X) m n j g : arr2 a m n g -> (Z.of_nat n <= j)%Z -> column a j = Err IndexError.
Proof.
  intros [S1 _] H. unfold column. shapes. replace (j <? 0)%Z with false by (symmetry; apply Z.ltb_ge; lia).
  replace (j <? Z.of_nat n)%Z with false by (symmetry; apply Z.ltb_ge; lia). rewrite andb_false_r. reflexivity.
Qed.
Lemma to_column {X} (a : nd X) n g : arr1 a n g -> exists c, reshape a [n; 1] = Ok c /\ arr2 c n 1 (fun i _ => g i).
Proof.
  intros [S1 G1]. unfold reshape. shapes. cbn [size fold_right]. rewrite Nat.eqb_refl. cbn [check]. eexists. split; [reflexivity|]. split; [reflexivity|].
  intros i j Hi Hj. assert (j = 0) by lia. subst j. cbn [get shape]. shapes. cbn [unravel ravel size fold_right]. rewrite <- (G1 i Hi). f_equal. rewrite Nat.div_1_r. f_equal. lia.
Qed.
Lemma tile_rows {X} (a : nd X) m n g : arr2 a m 1 g -> arr2 (tile a [1; n]) m n (fun i _ => g i 0).
Proof.
  intros [S1 G1]. unfold tile. shapes. cbn [Nat.max pad_left length Nat.sub repeat app map2]. unfold arr2. cbn [shape get]. split; [f_equal; [lia|f_equal; lia]|]. intros i j Hi Hj.
  cbn [map2 skipn Nat.sub length]. rewrite Nat.mod_small by lia. rewrite Nat.mod_1_r. apply G1; lia.
Qed.
Lemma tile_cohorts {X} (a : nd X) m n p g : arr2 a n 1 g -> arr3 (tile a [m; 1; p]) m n p (fun _ j _ => g j 0).
Proof.
  intros [S1 G1]. unfold tile. shapes. cbn [Nat.max pad_left length Nat.sub repeat app map2]. unfold arr3. cbn [shape get]. split; [f_equal; [lia|f_equal; [lia|f_equal; lia]]|]. intros i j k Hi Hj Hk.
  cbn [map2 skipn Nat.sub length]. rewrite (Nat.mod_small j) by lia. rewrite Nat.mod_1_r. apply G1; lia.
Qed.
Lemma plane3 {X} (a : nd X) m n p j g : arr3 a m n p g -> j < n -> arr2 (plane a j) m p (fun i k => g i j k).
Proof. intros [S1 G1] H. unfold plane. shapes. split; [reflexivity|]. intros. cbn [get nth]. auto. Qed.
(** order="F": element q of the column is row q mod m, column q / m *)
Lemma flattenF {X} (a : nd X) m n g : arr2 a m n g -> exists c, reshapeF a [m * n; 1] = Ok c /\ arr2 c (m * n) 1 (fun q _ => g (q mod m) (q / m)).
Proof.
  intros [S1 G1]. unfold reshapeF. shapes. cbn [size fold_right]. rewrite !Nat.mul_1_r, Nat.eqb_refl. cbn [check]. eexists. split; [reflexivity|]. split; [reflexivity|].
  intros q j Hq Hj. assert (j = 0) by lia. subst j. cbn [get rev app unravel ravel size fold_right]. rewrite !Nat.mul_1_r, !Nat.add_0_r.
  assert (m <> 0) by (intros ->; lia). replace (0 * _ + q) with q by lia. cbn [rev app]. rewrite Nat.div_1_r. apply G1; [apply Nat.mod_upper_bound; auto | apply Nat.div_lt_upper_bound; lia].
Qed.
Lemma unflattenF {X} (a : nd X) m n g : arr1 a (m * n) g -> exists c, reshapeF a [m; n] = Ok c /\ arr2 c m n (fun i k => g (i + m * k)).
Proof.
  intros [S1 G1]. unfold reshapeF. shapes. cbn [size fold_right]. rewrite !Nat.mul_1_r, Nat.eqb_refl. cbn [check]. eexists. split; [reflexivity|]. split; [reflexivity|].
  intros i k Hi Hk. cbn [get rev app unravel ravel size fold_right]. rewrite !Nat.mul_1_r, !Nat.add_0_r. rewrite Nat.div_1_r. replace (k * m + i) with (i + m * k) by lia. apply G1. nia.
Qed.
Lemma flat_column {X} (a : nd X) n g : arr2 a n 1 g -> flat a = map (fun q => g q 0) (seq 0 n).
Proof.
  intros [S1 G1]. unfold flat. shapes. cbn [size fold_right]. rewrite !Nat.mul_1_r. apply map_ext_in. intros q Hq. apply in_seq in Hq. cbn [unravel size fold_right].
  rewrite Nat.mul_1_r, Nat.div_1_r, Nat.mod_1_r, Nat.div_1_r. apply G1; lia.
Qed.
Lemma vec_arr {X} (d : X) l : arr1 (vec d l) (length l) (fun i => nth i l d).
Proof. split; reflexivity. Qed.

Section Refinement.
Context (A : Arith).
Notation num := (num A).
Notation zero := (@ofZ A 0).
Notation one := (@ofZ A 1).
Notation half := (@lit A 5 10).
Local Open Scope num_scope.

(** the shocks [fs] as a vector or as a column *)
Definition fs_array (a : nd num) (l : list num) : Prop := arr1 a (length l) (fun i => nth i l zero) \/ arr2 a (length l) 1 (fun i _ => nth i l zero).
Lemma fs_rows a l : fs_array a l -> nth 0 (shape a) 0%nat = length l.
Proof. intros [[S _]|[S _]]; rewrite S; reflexivity. Qed.
Lemma nth_triple (l : list num) i : (i < 3 * length l)%nat ->
  (if (i <? length l + length l)%nat then if (i <? length l)%nat then nth i l zero else nth (i - length l) l zero else nth (i - (length l + length l)) l zero) = nth i (l ++ l ++ l) zero.
Proof.
  intros H. destruct (Nat.ltb_spec i (length l + length l)); [destruct (Nat.ltb_spec i (length l))|].
  - rewrite app_nth1 by lia. reflexivity.
  - rewrite app_nth2, app_nth1 by lia. reflexivity.
  - rewrite app_nth2, app_nth2 by lia. f_equal. lia.
Qed.
Lemma fs_triple a l : fs_array a l -> exists c, concat3 0 a a a = Ok c /\ fs_array c (l ++ l ++ l).
Proof.
  intros [H|H].
  - destruct (concat2_vec a a _ _ _ _ H H) as (b & E & Hb). destruct (concat2_vec b a _ _ _ _ Hb H) as (c & E' & Hc). exists c. unfold concat3. rewrite E. cbn [bind]. split; [exact E'|]. left.
    rewrite !app_length. replace (length l + (length l + length l))%nat with (length l + length l + length l)%nat by lia. eapply ext1; [exact Hc|]. intros i Hi. cbn beta. apply nth_triple. lia.
  - destruct (concat2_rows a a _ _ _ _ _ H H) as (b & E & Hb). destruct (concat2_rows b a _ _ _ _ _ Hb H) as (c & E' & Hc). exists c. unfold concat3. rewrite E. cbn [bind]. split; [exact E'|]. right.
    rewrite !app_length. replace (length l + (length l + length l))%nat with (length l + length l + length l)%nat by lia. eapply ext2; [exact Hc|]. intros i j Hi Hj. cbn beta. apply nth_triple. lia.
Qed.
Lemma fs_depth (h : num -> num) a l : fs_array a l -> exists c, reshape (amap h a) [1; 1; length l]%nat = Ok c /\ arr3 c 1 1 (length l) (fun _ _ k => h (nth k l zero)).
Proof.
  intros H. unfold reshape. assert (Z : size (shape (amap h a)) = length l) by (destruct H as [[S _]|[S _]]; cbn [amap shape]; rewrite S; cbn; lia).
  rewrite Z. replace (size [1; 1; length l]) with (length l) by (cbn; lia). rewrite Nat.eqb_refl. cbn [check]. eexists. split; [reflexivity|]. split; [reflexivity|].
  intros i j k Hi Hj Hk. assert (i = 0 /\ j = 0)%nat as [-> ->] by lia. cbn [get amap shape]. f_equal. replace (ravel [1; 1; length l] [0; 0; k]) with k by (cbn; lia).
  destruct H as [[S G]|[S G]]; rewrite S; cbn [unravel size fold_right].
  - rewrite Nat.div_1_r. apply G; lia.
  - rewrite Nat.mul_1_r, Nat.div_1_r, Nat.mod_1_r, Nat.div_1_r. apply G; lia.
Qed.
Lemma repeat_cohorts (a : nd num) N p g : arr3 a 1 1 p g -> arr3 (repeat1 a N) 1 N p (fun _ _ k => g 0%nat 0%nat k).
Proof.
  intros [S G]. unfold repeat1. rewrite S. cbn [nth set_nth]. rewrite Nat.mul_1_l. split; [reflexivity|]. intros i j k Hi Hj Hk. cbn [get set_nth nth]. rewrite Nat.div_small by auto. rewrite G by lia. f_equal. lia.
Qed.
Lemma cumsum2 (a : nd num) m n g : arr2 a m n g -> arr2 (cumsum1 A a) m n (fun i j => nth j (np_cumsum A (map (g i) (seq 0 n))) zero).
Proof.
  intros [S G]. unfold cumsum1. rewrite S. split; [reflexivity|]. intros i j Hi Hj. cbn [get nth]. f_equal. f_equal. apply map_ext_in. intros t Ht. apply in_seq in Ht. apply G; lia.
Qed.
Lemma mean1_3 (a : nd num) m n p g : arr3 a m n p g -> arr2 (mean1 A a) m p (fun i k => amean A (map (fun j => g i j k) (seq 0 n))).
Proof. intros [S G]. unfold mean1. rewrite S. split; [reflexivity|]. intros i k Hi Hk. cbn [get nth]. f_equal. apply map_ext_in. intros t Ht. apply in_seq in Ht. apply G; lia. Qed.
Lemma mean0_2 (a : nd num) m n g : arr2 a m n g -> arr1 (mean0 A a) n (fun k => amean A (map (fun i => g i k) (seq 0 m))).
Proof. intros [S G]. unfold mean0. rewrite S. split; [reflexivity|]. intros k Hk. cbn [get nth]. f_equal. apply map_ext_in. intros t Ht. apply in_seq in Ht. apply G; lia. Qed.
Lemma slice1 (a : nd num) n lo hi g : arr1 a n g -> arr1 (slice A a lo hi) (Nat.min hi n - Nat.min lo n) (fun i => g (lo + i)%nat).
Proof. intros [S G]. unfold slice. rewrite S. split; [reflexivity|]. intros i Hi. cbn [get nth]. apply G. lia. Qed.

(** arrays as lists *)
Definition arr1_list (a : nd num) (l : list num) : Prop := arr1 a (length l) (fun i => nth i l zero).
Definition arr2_list (a : nd num) (m n : nat) (l : list (list num)) : Prop := length l = m /\ (forall row, In row l -> length row = n) /\ arr2 a m n (fun i k => nth k (nth i l []) zero).
(** every output array has the shape and the contents of the cell-by-cell result *)
Definition agrees (o : outputs A) (m : merton_result A) (Nsim2 szfs : nat) : Prop :=
  let b := m_bank A m in
  arr1_list (o_Lt A o) (b_Lt A b) /\ arr1_list (o_Bt A o) (b_Bt A b) /\ arr1_list (o_Et A o) (b_Et A b) /\ arr1_list (o_Gt A o) (b_Gt A b) /\
  arr1_list (o_mdef A o) (b_mdef A b) /\ arr1_list (o_sigEt A o) (b_sigEt A b) /\ arr1_list (o_sigLt A o) (b_sigLt A b) /\ arr1_list (o_mFt A o) (m_mFt A m) /\
  arr2_list (o_LH A o) Nsim2 szfs (b_LH A b) /\ arr2_list (o_BH A o) Nsim2 szfs (b_BH A b) /\ arr2_list (o_EH A o) Nsim2 szfs (b_EH A b) /\
  arr2_list (o_default A o) Nsim2 szfs (b_default A b) /\ arr2_list (o_face A o) Nsim2 szfs (m_face A m) /\ arr2_list (o_FH A o) Nsim2 szfs (m_FH A m) /\
  o_mu A o = m_mu A m /\ o_F A o = m_F A m /\
  Forall (fun l => length l = szfs) [b_Lt A b; b_Bt A b; b_Et A b; b_Gt A b; b_mdef A b; b_sigEt A b; b_sigLt A b; m_mFt A m].

Lemma nth_firstn' {X} (l : list X) s j d : (j < s)%nat -> nth j (firstn s l) d = nth j l d.
Proof. revert s j. induction l as [|x l IH]; intros [|s] [|j] H; cbn [firstn nth]; try lia; auto. apply IH. lia. Qed.
Lemma nth_map_seq {X} (g : nat -> X) n j d : (j < n)%nat -> nth j (map g (seq 0 n)) d = g j.
Proof. intros H. rewrite nth_indep with (d' := g 0%nat) by (rewrite map_length, seq_length; lia). rewrite map_nth, seq_nth by lia. reflexivity. Qed.
(** ** The balance sheet *)
Definition table (m n : nat) (g : nat -> nat -> num) : list (list num) := map (fun i => map (fun k => g i k) (seq 0 n)) (seq 0 m).
Lemma table_list (a : nd num) m n s g : arr2 a m n g -> (s <= n)%nat -> arr2_list (columns a 0 s) m s (map (firstn s) (table m n g)).
Proof.
  intros H Hs. assert (C := columns2 a m n 0 s g H). replace (Nat.min s n - Nat.min 0 n)%nat with s in C by lia.
  split; [unfold table; rewrite !map_length, seq_length; reflexivity|]. split.
  - intros row Hr. apply in_map_iff in Hr. destruct Hr as (r & <- & Hr). unfold table in Hr. apply in_map_iff in Hr. destruct Hr as (i & <- & _). rewrite firstn_length, map_length, seq_length. lia.
  - eapply ext2; [exact C|]. intros i j Hi Hj. cbn beta. unfold table. rewrite map_map.
    rewrite nth_indep with (d' := firstn s (map (fun k => g 0%nat k) (seq 0 n))) by (rewrite map_length, seq_length; lia).
    rewrite (map_nth (fun i => firstn s (map (fun k => g i k) (seq 0 n)))), seq_nth by lia. cbn [Nat.add].
    rewrite nth_firstn' by lia. rewrite nth_map_seq by lia. reflexivity.
Qed.
Lemma vector_list (a : nd num) n s g : arr1 a n g -> (s <= n)%nat -> arr1_list (slice A a 0 s) (firstn s (map g (seq 0 n))).
Proof.
  intros H Hs. assert (C := slice1 a n 0 s g H). replace (Nat.min s n - Nat.min 0 n)%nat with s in C by lia. unfold arr1_list. rewrite firstn_length, map_length, seq_length.
  replace (Nat.min s n) with s by lia. eapply ext1; [exact C|]. intros i Hi. cbn beta. rewrite nth_firstn' by lia. rewrite nth_map_seq by lia. reflexivity.
Qed.
Lemma map_table (h : num -> num) m n g : map (map h) (table m n g) = table m n (fun i k => h (g i k)).
Proof. unfold table. rewrite map_map. apply map_ext. intros i. rewrite map_map. reflexivity. Qed.
Lemma mean_axis0_table m n g : mean_axis0 A n (table m n g) = map (fun k => amean A (map (fun i => g i k) (seq 0 m))) (seq 0 n).
Proof.
  unfold mean_axis0, table. apply map_ext_in. intros k Hk. apply in_seq in Hk. f_equal. rewrite map_map. apply map_ext. intros i. rewrite nth_map_seq by lia. reflexivity.
Qed.
Lemma settle_ok (r H D y g mu F : num) szfs m LH FH face Ft gLH gFH gface gFt :
  arr2 LH m (3 * szfs) gLH -> arr2 FH m (3 * szfs) gFH -> arr2 face m (3 * szfs) gface -> arr2 Ft m (3 * szfs) gFt ->
  exists o, settle_arrays A r H D y g mu F szfs LH FH face Ft = Ok o /\
    agrees o (mk_result A (settle A szfs r H D y g (table m (3 * szfs) gLH)) (firstn szfs (mean_axis0 A (3 * szfs) (table m (3 * szfs) gFt)))
                (map (firstn szfs) (table m (3 * szfs) gface)) (map (firstn szfs) (table m (3 * szfs) gFH)) mu F) m szfs.
Proof.
  intros HL HF Hf HT. unfold settle_arrays. cbv zeta.
  assert (HLy := amap2 (fun x => x ⊗ nexp (nopp y ⊗ H)) _ _ _ _ HL). assert (HB := amap2 (fun x => np_minimum A D x) _ _ _ _ HLy).
  destruct (zip2 nsub _ _ _ _ _ _ HLy HB) as (EHex & -> & HX). cbn [bind].
  destruct (zip2 nsub _ _ _ _ _ _ HL HB) as (EH & -> & HE). cbn [bind].
  assert (HG := amap2 (fun x => g ⊗ np_maximum A (D ⊖ x) zero) _ _ _ _ HLy).
  assert (HX1 := amap2 (fun x => zero <? x) _ _ _ _ HX). assert (H1 : arr2 (full (shape EHex) one) m (3 * szfs) (fun _ _ => one)) by (rewrite (proj1 HX); apply full2).
  destruct (mask2 _ _ zero _ _ _ _ H1 HX1) as (df & -> & Hd). cbn [bind].
  set (tmp := nexp (nopp r ⊗ H)).
  assert (V : forall M gM, arr2 M m (3 * szfs) gM -> let Vt := amap (fun x => x ⊗ tmp) (mean0 A M) in
     arr1 Vt (3 * szfs) (fun k => amean A (map (fun i => gM i k) (seq 0 m)) ⊗ tmp)) by (intros M gM HM; exact (amap1 (fun x => x ⊗ tmp) _ _ _ (mean0_2 M _ _ _ HM))).
  assert (W : forall M gM, arr2 M m (3 * szfs) gM -> exists v, zip nsub (amap nlog (slice A (amap (fun x => x ⊗ tmp) (mean0 A M)) szfs (2 * szfs))) (amap nlog (slice A (amap (fun x => x ⊗ tmp) (mean0 A M)) (2 * szfs) (3 * szfs))) = Ok v /\
     arr1_list (amap (fun x => ofZ 5 ⊗ x) v) (numeric_vol A szfs (map (fun k => amean A (map (fun i => gM i k) (seq 0 m)) ⊗ tmp) (seq 0 (3 * szfs))))).
  { intros M gM HM. assert (HV := V M gM HM). cbv zeta in HV. assert (S1 := slice1 _ _ szfs (2 * szfs) _ HV). assert (S2 := slice1 _ _ (2 * szfs) (3 * szfs) _ HV).
    replace (Nat.min (2 * szfs) (3 * szfs) - Nat.min szfs (3 * szfs))%nat with szfs in S1 by lia. replace (Nat.min (3 * szfs) (3 * szfs) - Nat.min (2 * szfs) (3 * szfs))%nat with szfs in S2 by lia.
    destruct (zip1 nsub _ _ _ _ _ (amap1 nlog _ _ _ S1) (amap1 nlog _ _ _ S2)) as (v & -> & Hv). exists v. split; [reflexivity|]. unfold arr1_list, numeric_vol. rewrite map_length, seq_length.
    eapply ext1; [exact (amap1 (fun x => ofZ 5 ⊗ x) _ _ _ Hv)|]. intros k Hk. cbn beta. rewrite nth_map_seq by lia. f_equal. f_equal; f_equal; rewrite nth_map_seq by lia; reflexivity. }
  destruct (W EH _ HE) as (vE & -> & HvE). cbn [bind]. destruct (W LH _ HL) as (vL & -> & HvL). cbn [bind].
  eexists. split; [reflexivity|]. unfold agrees. cbn [m_bank b_Lt b_Bt b_Et b_Gt b_mdef b_sigEt b_sigLt m_mFt b_LH b_BH b_EH b_default m_face m_FH m_mu m_F settle o_Lt o_Bt o_Et o_Gt o_mdef o_sigEt o_sigLt o_mFt o_LH o_BH o_EH o_default o_face o_FH o_mu o_F].
  rewrite !map_table, !mean_axis0_table, !map_map.
  assert (L : forall (l : list num), length l = (3 * szfs)%nat -> length (firstn szfs l) = szfs) by (intros l Hl; rewrite firstn_length; lia).
  repeat match goal with |- _ /\ _ => split end; try reflexivity.
  - eapply vector_list; [apply (V LH _ HL)|lia].
  - eapply vector_list; [apply (V _ _ HB)|lia].
  - eapply vector_list; [apply (V EH _ HE)|lia].
  - eapply vector_list; [apply (V _ _ HG)|lia].
  - eapply vector_list; [apply (mean0_2 df _ _ _ Hd)|lia].
  - exact HvE.
  - exact HvL.
  - eapply vector_list; [apply (mean0_2 Ft _ _ _ HT)|lia].
  - eapply table_list; [exact HL|lia].
  - eapply table_list; [exact HB|lia].
  - eapply table_list; [exact HE|lia].
  - eapply table_list; [exact Hd|lia].
  - eapply table_list; [exact Hf|lia].
  - eapply table_list; [exact HF|lia].
  - repeat constructor; try (apply L; rewrite map_length, seq_length; reflexivity); unfold numeric_vol; rewrite map_length, seq_length; reflexivity.
Qed.

(** ** One cohort: sort, smooth, put back *)
Lemma insert_perm' key x l : Permutation (insert_idx A key x l) (x :: l).
Proof.
  induction l as [|y l IH]; cbn [insert_idx]; [reflexivity|]. destruct (key_lt A (key y) (key x)); [|reflexivity].
  rewrite IH. apply perm_swap.
Qed.
Lemma argsort_length' keys : length (argsort A keys) = length keys.
Proof.
  unfold argsort. rewrite <- (seq_length (length keys) 0) at 2. generalize (seq 0 (length keys)). induction l as [|x l IH]; [reflexivity|]. cbn [fold_right length].
  rewrite (Permutation_length (insert_perm' _ _ _)). cbn [length]. f_equal. exact IH.
Qed.
Lemma argsort_bound keys q : In q (argsort A keys) -> (q < length keys)%nat.
Proof.
  intros H. assert (P : Permutation (argsort A keys) (seq 0 (length keys))).
  { unfold argsort. generalize (seq 0 (length keys)). induction l as [|x l IH]; [reflexivity|]. cbn [fold_right]. rewrite insert_perm'. apply perm_skip. exact IH. }
  apply (Permutation_in _ P) in H. apply in_seq in H. lia.
Qed.
Lemma smooth_ok spectral round9 FHr Lr n win gF gL : arr2 FHr n 1 (fun q _ => gF q) -> arr2 Lr n 1 (fun q _ => gL q) ->
  match smooth_by A round9 (fun l => fftsmooth A spectral l win) (map gF (seq 0 n)) (map gL (seq 0 n)) with
  | Err e => smooth_cohort A spectral round9 FHr Lr n win = Err e
  | Ok s => length s = n /\ exists c, smooth_cohort A spectral round9 FHr Lr n win = Ok c /\ arr1 c n (fun q => nth q s zero)
  end.
Proof.
  intros HF HL. unfold smooth_by, smooth_cohort. replace (flat FHr) with (map gF (seq 0 n)) by (symmetry; exact (flat_column FHr n _ HF)). cbv zeta.
  assert (E : map (fun q => get Lr [q; 0%nat]) (argsort A (map round9 (map gF (seq 0 n)))) = map (fun q => nth q (map gL (seq 0 n)) zero) (argsort A (map round9 (map gF (seq 0 n))))).
  { apply map_ext_in. intros q Hq. apply argsort_bound in Hq. rewrite !map_length, seq_length in Hq. rewrite (proj2 HL) by lia. rewrite nth_map_seq by lia. reflexivity. }
  rewrite E. destruct (fftsmooth A spectral _ win) as [LHs|e]; cbn [bind]; [|reflexivity]. replace (length (map gF (seq 0 n))) with n by (rewrite map_length, seq_length; reflexivity).
  split; [rewrite map_length, seq_length; reflexivity|].
  eexists. split; [reflexivity|]. eapply ext1; [|reflexivity].
  match goal with |- arr1 (vec _ ?l) _ _ => assert (LL : length l = n) by (rewrite map_length, seq_length; reflexivity); assert (V := vec_arr zero l); rewrite LL in V; exact V end.
Qed.
Lemma mapM_rel {X Y Z} (R : X -> Y -> Z -> Prop) (f : X -> res Y) (g : X -> res Z) (l : list X) :
  (forall x, In x l -> match g x with Err e => f x = Err e | Ok z => exists y, f x = Ok y /\ R x y z end) ->
  match mapM g l with
  | Err e => mapM f l = Err e
  | Ok zs => exists ys, mapM f l = Ok ys /\ length ys = length l /\ length zs = length l /\
      forall t d dy dz, (t < length l)%nat -> R (nth t l d) (nth t ys dy) (nth t zs dz)
  end.
Proof.
  induction l as [|x l IH]; intros H; cbn [mapM].
  - exists []. repeat split. intros t d dy dz Ht. cbn in Ht. lia.
  - assert (Hx := H x (or_introl eq_refl)). destruct (g x) as [z|e]; cbn [bind]; [|rewrite Hx; reflexivity]. destruct Hx as (y & -> & HR). cbn [bind].
    assert (IH' := IH (fun x' Hx' => H x' (or_intror Hx'))). destruct (mapM g l) as [zs|e]; cbn [bind]; [|rewrite IH'; reflexivity].
    destruct IH' as (ys & -> & L1 & L2 & HI). cbn [bind]. exists (y :: ys). repeat split; cbn [length]; try lia. intros [|t] d dy dz Ht; cbn [nth]; [exact HR|]. apply HI. cbn [length] in Ht. lia.
Qed.
Lemma loan_array_ok F f ival m n q gF gf gi rho sig T : arr3 F m n q gF -> arr3 f m n q gf -> arr3 ival m n q gi ->
  exists c, loan_payoff_array A F f ival rho sig T = Ok c /\ arr3 c m n q (fun i j k => loan_payoff A (gF i j k) (gf i j k) (gi i j k) rho sig T).
Proof.
  intros H1 H2 H3. unfold loan_payoff_array.
  destruct (zip3 nadd _ _ _ _ _ _ _ H2 H3) as (fi & -> & Hfi). cbn [bind]. cbv zeta.
  destruct (zip3 nsub _ _ _ _ _ _ _ (amap3 nlog _ _ _ _ _ H1) H2) as (lf & -> & Hlf). cbn [bind].
  destruct (zip3 nsub _ _ _ _ _ _ _ Hlf H3) as (lfi & -> & Hlfi). cbn [bind].
  match goal with |- context [zip nmul (amap ?e fi) (amap ?g (amap ?h lfi))] =>
    destruct (zip3 nmul _ _ _ _ _ _ _ (amap3 e _ _ _ _ _ Hfi) (amap3 g _ _ _ _ _ (amap3 h _ _ _ _ _ Hlfi))) as (P & -> & HP) end. cbn [bind].
  match goal with |- context [zip nmul (amap ?g (amap ?h lfi)) F] =>
    destruct (zip3 nmul _ _ _ _ _ _ _ (amap3 g _ _ _ _ _ (amap3 h _ _ _ _ _ Hlfi)) H1) as (Q & -> & HQ) end. cbn [bind].
  destruct (zip3 nadd _ _ _ _ _ _ _ HP HQ) as (c & -> & Hc). exists c. split; [reflexivity|]. exact Hc.
Qed.

Lemma nth_map2' {X Y Z} (f : X -> Y -> Z) l l' q dx dy dz : (q < length l)%nat -> (q < length l')%nat -> nth q (map2 f l l') dz = f (nth q l dx) (nth q l' dy).
Proof. revert l' q. induction l as [|x l IH]; intros [|y l'] [|q] H H'; cbn [length map2 nth] in *; try lia; auto. apply IH; lia. Qed.
Lemma self3 {X} (a : nd X) m n q g : arr3 a m n q g -> arr3 a m n q (fun i j k => get a [i; j; k]).
Proof. intros [S _]. split; auto. Qed.

(** ** The valuation from the factor realisations on *)
Lemma value_arrays_ok spectral round9 solve (p : param A) N Nsim2 HN (fs : list num) fs3 (aH : list num) cf rmat aHmat atm f f0w f1 f2 cols gf gf0w :
  let dflt := mk_cf A zero zero zero zero zero in
  let C i j := nth j (nth i cf []) dflt in
  let Nsim1 := (3 * length fs)%nat in
  length cf = Nsim2 -> (0 < N)%nat -> (-1 <= HN)%Z -> (Z.of_nat N + HN < Z.of_nat cols)%Z -> (N < cols)%nat -> (2 * N <= cols)%nat ->
  fs_array fs3 (fs ++ fs ++ fs) ->
  arr3 rmat Nsim2 N Nsim1 (fun _ j _ => Z.of_nat j) -> arr3 aHmat Nsim2 N Nsim1 (fun _ j _ => nth j aH zero) -> arr3 atm Nsim2 N Nsim1 (fun _ j _ => atmat A N j) ->
  arr2 f Nsim2 cols gf -> arr2 f0w Nsim2 N gf0w ->
  arr2 f1 Nsim2 N (fun i j => c_f1 A (C i j)) -> arr2 f2 Nsim2 N (fun i j => c_f2 A (C i j)) ->
  (forall i j, (i < Nsim2)%nat -> (j < N)%nat ->
     gf i N ⊖ gf0w i j ⊖ gf i j = c_ft A (C i j) /\
     gf i (Z.to_nat (Z.of_nat N + HN)) ⊖ gf0w i j ⊖ gf i j = c_fH1 A (C i j) /\
     gf i (Z.to_nat (Z.of_nat N + HN)) ⊖ gf i (N + j)%nat = c_fH2 A (C i j)) ->
  match value_bank A spectral round9 solve p N HN fs aH cf with
  | Err e => value_arrays A spectral round9 solve p N Nsim2 HN (length fs) fs3 rmat aHmat atm f f0w f1 f2 = Err e
  | Ok m => exists o, value_arrays A spectral round9 solve p N Nsim2 HN (length fs) fs3 rmat aHmat atm f f0w f1 f2 = Ok o /\ agrees o m Nsim2 (length fs)
  end.
Proof.
  intros dflt C Nsim1 Hcf HN0 HHN Hcols Hcols1 Hcols2 Hfs Hr HaH Hat Hf Hf0w Hf1 Hf2 HC.
  unfold value_arrays, value_bank. rewrite Hcf. fold dflt. change (fun j => nth j ?x dflt) with (fun j => nth j x dflt).
  assert (L3 : length (fs ++ fs ++ fs) = Nsim1) by (rewrite !app_length; unfold Nsim1; lia).
  rewrite (fs_rows _ _ Hfs), L3. cbv zeta.
  set (ival := nlog (p_bookF A p) ⊖ nlog (p_ltv A p)). set (sigf := nsqrt (p_rho A p) ⊗ p_sig A p). set (dt := p_T A p ⊘ ofN A N).
  set (mu := solve _ _). set (F := p_bookF A p ⊗ nexp (mu ⊗ p_T A p)).
  destruct (fs_depth (fun x => x ⊗ sigf ⊗ nsqrt (p_T A p)) _ _ Hfs) as (fsa0 & E & Hfsa0). rewrite L3 in E, Hfsa0. rewrite E. cbn [bind]. clear E.
  unfold concat3. destruct (concat2_depth _ _ _ _ _ _ _ _ (full3 zero Nsim2 N (length fs)) (full3 one Nsim2 N (length fs))) as (b2 & -> & Hb2). cbn [bind].
  destruct (concat2_depth _ _ _ _ _ _ _ _ Hb2 (full3 (nopp one) Nsim2 N (length fs))) as (bumps & -> & Hbumps). cbn [bind].
  replace (length fs + length fs + length fs)%nat with Nsim1 in Hbumps by (unfold Nsim1; lia).
  destruct (zip3_first nmul _ _ _ _ _ _ _ (repeat_cohorts _ N _ _ Hfsa0) Hat) as (t2 & -> & Ht2). cbn [bind].
  destruct (zip3 nadd _ _ _ _ _ _ _ Ht2 (amap3 (fun x => sigf ⊘ ofZ 10 ⊗ x) _ _ _ _ _ Hbumps)) as (fsa & -> & Hfsa). cbn [bind].
  assert (Hsh : arr3 fsa Nsim2 N Nsim1 (fun _ j k => shock A p N (length fs) fs j k)).
  { eapply ext3; [exact Hfsa|]. intros i j k Hi Hj Hk. cbn beta. unfold shock. fold sigf. f_equal. f_equal.
    destruct (Nat.ltb_spec k (length fs)); destruct (Nat.ltb_spec k (length fs + length fs)); destruct (Nat.ltb_spec k (2 * length fs)); try lia; reflexivity. }
  clear Hfsa Ht2 Hbumps Hb2 Hfsa0 b2 bumps t2 fsa0.
  destruct (Nat.eq_dec Nsim1 0) as [Z0|Z0].
  { assert (D0 : forall a : nd num, dstack a Nsim1 = Err ValueError) by (intros a; unfold dstack; rewrite Z0; reflexivity). rewrite !D0. cbn [bind].
    replace (3 * length fs)%nat with 0%nat by (symmetry; exact Z0). rewrite Nat.mul_0_r. clear Hf Hf0w Hf1 Hf2 HC Hsh Hr HaH Hat Hcols Hcols1 Hcols2.
    destruct N as [|N']; [lia|]. cbn [seq mapM map]. unfold smooth_by at 1. cbn [map argsort length seq fold_right fftsmooth Nat.even Nat.div fst Nat.divmod Nat.leb Nat.eqb negb check bind]. reflexivity. }
  destruct (dstack2 _ _ _ _ _ Hf1 Z0) as (f1s & -> & Hf1s). cbn [bind].
  destruct (zip3 nadd _ _ _ _ _ _ _ Hf1s Hsh) as (f1j & -> & Hf1j). cbn [bind].
  destruct (dstack2 _ _ _ _ _ Hf2 Z0) as (f2j & -> & Hf2j). cbn [bind].
  assert (HL1 := amap3 (fun x => loan_payoff A F x ival (p_rho A p) (p_sig A p) (p_T A p)) _ _ _ _ _ Hf1j). cbn beta in HL1.
  unfold loan_payoff_scalar.
  set (L1 := amap (fun x => loan_payoff A F x ival (p_rho A p) (p_sig A p) (p_T A p)) f1j) in *. clearbody L1.
  assert (Hi2 := amap3 (fun x => nlog (x ⊘ p_ltv A p)) _ _ _ _ _ HL1). assert (HF2 := amap3 (fun x => x ⊗ nexp (mu ⊗ p_T A p)) _ _ _ _ _ HL1). cbn beta in Hi2, HF2.
  destruct (loan_array_ok _ _ _ _ _ _ _ _ _ (p_rho A p) (p_sig A p) (p_T A p) HF2 Hf2j Hi2) as (L2 & -> & HL2). cbn [bind].
  set (ival2 := amap (fun x => nlog (x ⊘ p_ltv A p)) L1) in *. set (F2 := amap (fun x => x ⊗ nexp (mu ⊗ p_T A p)) L1) in *. clearbody ival2 F2.
  assert (Hind1 := amap3 (fun z => (HN <=? z)%Z) _ _ _ _ _ Hr). assert (Hind2 := amap3 (fun z => (z <? HN)%Z) _ _ _ _ _ Hr). cbn beta in Hind1, Hind2.
  set (ind1 := amap (fun z => (HN <=? z)%Z) rmat) in *. set (ind2 := amap (fun z => (z <? HN)%Z) rmat) in *. clearbody ind1 ind2.
  assert (LEB : forall j, (HN <=? Z.of_nat j)%Z = negb (rolled HN j)) by (intros j; unfold rolled; destruct (Z.leb_spec HN (Z.of_nat j)); destruct (Z.ltb_spec (Z.of_nat j) HN); auto; lia).
  destruct (mask3 _ _ zero _ _ _ _ _ HF2 Hind1) as (face2 & -> & Hface2). cbn [bind].
  assert (Hone : arr3 (full (shape f1j) (one ⊗ F)) Nsim2 N Nsim1 (fun _ _ _ => one ⊗ F)) by (rewrite (proj1 Hf1j); apply full3).
  destruct (mask3 _ _ zero _ _ _ _ _ Hone Hind2) as (face1 & -> & Hface1). cbn [bind].
  destruct (column2 f Nsim2 cols (Z.of_nat N) gf Hf) as (fN & -> & HfN); [lia|]. cbn [bind]. rewrite (proj1 HfN). cbn [nth].
  destruct (to_column _ _ _ HfN) as (fNc & -> & HfNc). cbn [bind].
  destruct (zip2 nsub _ _ _ _ _ _ (tile_rows _ _ N _ HfNc) Hf0w) as (ft0 & -> & Hft0). cbn [bind].
  assert (HfH := columns2 f Nsim2 cols 0 N gf Hf). replace (Nat.min N cols - Nat.min 0 cols)%nat with N in HfH by lia. cbn [Nat.add] in HfH.
  destruct (zip2 nsub _ _ _ _ _ _ Hft0 HfH) as (ft1 & -> & Hft1). cbn [bind].
  destruct (dstack2 _ _ _ _ _ Hft1 Z0) as (ft2 & -> & Hft2). cbn [bind].
  destruct (zip3 nadd _ _ _ _ _ _ _ Hft2 Hsh) as (ft3 & -> & Hft3). cbn [bind].
  destruct (column2 f Nsim2 cols (Z.of_nat N + HN) gf Hf) as (fH & -> & HfHc); [lia|]. cbn [bind]. rewrite (proj1 HfHc). cbn [nth].
  destruct (to_column _ _ _ HfHc) as (fHc & -> & HfHcc). cbn [bind].
  destruct (zip2 nsub _ _ _ _ _ _ (tile_rows _ _ N _ HfHcc) Hf0w) as (fH1a & -> & HfH1a). cbn [bind].
  destruct (zip2 nsub _ _ _ _ _ _ HfH1a HfH) as (fH1 & -> & HfH1). cbn [bind].
  assert (HfN2 := columns2 f Nsim2 cols N (2 * N) gf Hf). replace (Nat.min (2 * N) cols - Nat.min N cols)%nat with N in HfN2 by lia.
  destruct (zip2 nsub _ _ _ _ _ _ (tile_rows _ _ N _ HfHcc) HfN2) as (fH2 & -> & HfH2). cbn [bind].
  destruct (dstack2 _ _ _ _ _ HfH1 Z0) as (fH1s & -> & HfH1s). cbn [bind].
  destruct (zip3 nadd _ _ _ _ _ _ _ HfH1s Hsh) as (fH1j & -> & HfH1j). cbn [bind].
  destruct (dstack2 _ _ _ _ _ HfH2 Z0) as (fH2s & -> & HfH2s). cbn [bind].
  destruct (zip3 nadd _ _ _ _ _ _ _ HfH2s Hi2) as (fH2j & -> & HfH2j). cbn [bind].
  set (jj := fun x => nexp (half ⊗ (one ⊖ p_rho A p) ⊗ (p_T A p ⊗ x) ⊗ nsq (p_sig A p))).
  destruct (zip3 nmul _ _ _ _ _ _ _ (amap3 nexp _ _ _ _ _ (amap3 (fun x => x ⊕ ival) _ _ _ _ _ HfH1j)) (amap3 jj _ _ _ _ _ HaH)) as (FH1j & -> & HFH1j). cbn [bind].
  destruct (zip3 nmul _ _ _ _ _ _ _ (amap3 nexp _ _ _ _ _ HfH2j) (amap3 jj _ _ _ _ _ HaH)) as (FH2j & -> & HFH2j). cbn [bind].
  destruct (zip3 nmul _ _ _ _ _ _ _ (amap3 nexp _ _ _ _ _ (amap3 (fun x => x ⊕ ival) _ _ _ _ _ Hft3)) (amap3 jj _ _ _ _ _ Hat)) as (Ftc & -> & HFtc). cbn [bind].
  destruct (mask3 _ _ one _ _ _ _ _ (amap3 (fun x => x ⊘ p_bookF A p) _ _ _ _ _ HL1) Hind1) as (sc & -> & Hsc). cbn [bind].
  destruct (mask3 _ _ zero _ _ _ _ _ HFH1j Hind2) as (FHr1 & -> & HFHr1). cbn [bind].
  destruct (zip3 ndiv _ _ _ _ _ _ _ HFH2j Hsc) as (FHr2a & -> & HFHr2a). cbn [bind].
  destruct (mask3 _ _ zero _ _ _ _ _ HFHr2a Hind1) as (FHr2 & -> & HFHr2). cbn [bind].
  destruct (mask3 _ _ zero _ _ _ _ _ HL1 Hind2) as (Lr1 & -> & HLr1). cbn [bind].
  destruct (zip3 ndiv _ _ _ _ _ _ _ HL2 Hsc) as (Lr2a & -> & HLr2a). cbn [bind].
  destruct (mask3 _ _ zero _ _ _ _ _ HLr2a Hind1) as (Lr2 & -> & HLr2). cbn [bind].
  (* the cells *)
  set (cellof := fun i j k => cohort_cell A p N HN ival mu F (nth j aH zero) (shock A p N (length fs) fs j k) (C i j) j).
  assert (CFH : forall i j k, (i < Nsim2)%nat -> (j < N)%nat -> (k < Nsim1)%nat -> get FHr1 [i; j; k] ⊕ get FHr2 [i; j; k] = x_FHr A (cellof i j k)).
  { intros i j k Hi Hj Hk. destruct (HC i j Hi Hj) as (_ & E1 & E2). rewrite (proj2 HFHr1), (proj2 HFHr2) by auto. cbn beta. rewrite E1, E2.
    unfold cellof, cohort_cell. cbn [x_FHr]. rewrite LEB. fold (rolled HN j). destruct (rolled HN j); reflexivity. }
  assert (CL : forall i j k, (i < Nsim2)%nat -> (j < N)%nat -> (k < Nsim1)%nat -> get Lr1 [i; j; k] ⊕ get Lr2 [i; j; k] = x_Lr A (cellof i j k)).
  { intros i j k Hi Hj Hk. rewrite (proj2 HLr1), (proj2 HLr2) by auto. cbn beta.
    unfold cellof, cohort_cell. cbn [x_Lr]. rewrite LEB. fold (rolled HN j). destruct (rolled HN j); reflexivity. }
  assert (CS : forall i j k, (i < Nsim2)%nat -> (j < N)%nat -> (k < Nsim1)%nat -> get sc [i; j; k] = x_sc A (cellof i j k)).
  { intros i j k Hi Hj Hk. rewrite (proj2 Hsc) by auto. cbn beta.
    unfold cellof, cohort_cell. cbn [x_sc]. rewrite LEB. destruct (rolled HN j); reflexivity. }
  match goal with |- match (bind (mapM ?g (seq 0 N)) ?kg) with Ok _ => _ | Err e => bind (mapM ?f (seq 0 N)) ?kf = Err e end =>
    set (gcol := g); set (fcol := f); set (kgc := kg); set (kfc := kf) end.
  assert (HM : forall j, In j (seq 0 N) -> match gcol j with Err e => fcol j = Err e | Ok z => exists c, fcol j = Ok c /\ arr2 c Nsim2 Nsim1 (fun i k => nth (i + Nsim2 * k)%nat z zero) end).
  { intros j Hj. apply in_seq in Hj. assert (Hj' : (j < N)%nat) by lia. unfold gcol, fcol.
    destruct (zip2 nadd _ _ _ _ _ _ (plane3 _ _ _ _ j _ (self3 _ _ _ _ _ HFHr1) Hj') (plane3 _ _ _ _ j _ (self3 _ _ _ _ _ HFHr2) Hj')) as (a & -> & Ha). cbn [bind].
    assert (Ha' : arr2 a Nsim2 Nsim1 (fun i k => x_FHr A (cellof i j k))) by (eapply ext2; [exact Ha|]; intros; apply CFH; auto). clear Ha.
    destruct (flattenF _ _ _ _ Ha') as (af & -> & Haf). cbn [bind].
    destruct (zip2 nadd _ _ _ _ _ _ (plane3 _ _ _ _ j _ (self3 _ _ _ _ _ HLr1) Hj') (plane3 _ _ _ _ j _ (self3 _ _ _ _ _ HLr2) Hj')) as (b & -> & Hb). cbn [bind].
    assert (Hb' : arr2 b Nsim2 Nsim1 (fun i k => x_Lr A (cellof i j k))) by (eapply ext2; [exact Hb|]; intros; apply CL; auto). clear Hb.
    destruct (flattenF _ _ _ _ Hb') as (bf & -> & Hbf). cbn [bind]. cbn beta in Haf, Hbf.
    assert (SO := smooth_ok spectral round9 af bf (Nsim2 * Nsim1) (Nat.div (Nsim2 * Nsim1) 20) _ _ Haf Hbf).
    rewrite !map_map. fold Nsim1.
    set (zs := smooth_by A round9 _ (map (fun q => x_FHr A (cellof (q mod Nsim2) j (q / Nsim2))) _) _) in SO.
    change (smooth_by A round9 _ _ _) with zs. destruct zs as [z|e]; cbn [bind]; [|rewrite SO; reflexivity].
    destruct SO as (Lz & c & -> & Hc). cbn [bind]. destruct (unflattenF _ Nsim2 Nsim1 _ Hc) as (cm & -> & Hcm). cbn [bind].
    destruct (zip2 nmul _ _ _ _ _ _ Hcm (plane3 _ _ _ _ j _ (self3 _ _ _ _ _ Hsc) Hj')) as (out & -> & Hout). exists out. split; [reflexivity|].
    eapply ext2; [exact Hout|]. intros i k Hi Hk. cbn beta.
    assert (Hq : (i + Nsim2 * k < Nsim2 * Nsim1)%nat) by nia.
    rewrite (nth_map2' _ _ _ _ zero (cellof 0 j 0)%nat) by (rewrite ?map_length, ?seq_length; lia). rewrite CS by auto. f_equal. f_equal.
    rewrite nth_map_seq by lia. rewrite (Nat.mul_comm Nsim2 k). rewrite Nat.mod_add, Nat.div_add, Nat.mod_small, Nat.div_small by lia. reflexivity. }
  assert (MR := mapM_rel _ fcol gcol (seq 0 N) HM). destruct (mapM gcol (seq 0 N)) as [zs|e]; cbn [bind]; [|rewrite MR; reflexivity].
  destruct MR as (ys & -> & Ly & Lz & HR). cbn [bind]. unfold kgc, kfc. cbv zeta beta.
  rewrite seq_length in HR. 
  match goal with |- context [mask_set ?L ind2 zero] => set (LHj := L) end.
  assert (HLHj : arr3 LHj Nsim2 N Nsim1 (fun i j k => nth (i + Nsim2 * k)%nat (nth j zs []) zero)).
  { split; [reflexivity|]. intros i j k Hi Hj Hk. unfold LHj. cbn [get nth]. exact (proj2 (HR j 0%nat (full [] zero) [] Hj) i k Hi Hk). }
  destruct (mask3 _ _ zero _ _ _ _ _ HLHj Hind2) as (LH1j & -> & HLH1j). cbn [bind].
  destruct (mask3 _ _ zero _ _ _ _ _ HLHj Hind1) as (LH2j & -> & HLH2j). cbn [bind].
  set (d1 := fun z => nexp (nopp (p_r A p) ⊗ ofZ (z - HN) ⊗ dt)). set (d2 := fun z => nexp (nopp (p_r A p) ⊗ ofZ (z - HN + Z.of_nat N) ⊗ dt)).
  assert (Hd1 := amap3 d1 _ _ _ _ _ Hr). assert (Hd2 := amap3 d2 _ _ _ _ _ Hr).
  destruct (zip3 nmul _ _ _ _ _ _ _ HLH1j Hd1) as (x1 & -> & Hx1). cbn [bind].
  destruct (zip3 nmul _ _ _ _ _ _ _ HLH2j Hd2) as (x2 & -> & Hx2). cbn [bind].
  destruct (zip3 nadd _ _ _ _ _ _ _ Hx1 Hx2) as (LHc & -> & HLHc). cbn [bind].
  destruct (zip3 nadd _ _ _ _ _ _ _ (self3 _ _ _ _ _ HFHr1) (self3 _ _ _ _ _ HFHr2)) as (FHc & -> & HFHc). cbn [bind].
  destruct (zip3 nmul _ _ _ _ _ _ _ Hface1 Hd1) as (y1 & -> & Hy1). cbn [bind].
  destruct (zip3 nmul _ _ _ _ _ _ _ Hface2 Hd2) as (y2 & -> & Hy2). cbn [bind].
  destruct (zip3 nadd _ _ _ _ _ _ _ Hy1 Hy2) as (fc & -> & Hfc). cbn [bind].
  assert (GLH : arr3 LHc Nsim2 N Nsim1 (fun i j k => (if rolled HN j then zero else nth (i + Nsim2 * k)%nat (nth j zs []) zero) ⊗ d1 (Z.of_nat j) ⊕ (if rolled HN j then nth (i + Nsim2 * k)%nat (nth j zs []) zero else zero) ⊗ d2 (Z.of_nat j))).
  { eapply ext3; [exact HLHc|]. intros i j k Hi Hj Hk. cbn beta. rewrite LEB. fold (rolled HN j). destruct (rolled HN j); reflexivity. }
  assert (GFH : arr3 FHc Nsim2 N Nsim1 (fun i j k => x_FHr A (cellof i j k))) by (eapply ext3; [exact HFHc|]; intros; apply CFH; auto).
  assert (Gfc : arr3 fc Nsim2 N Nsim1 (fun i j k => x_face A (cellof i j k))).
  { eapply ext3; [exact Hfc|]. intros i j k Hi Hj Hk. cbn beta. rewrite LEB. fold (rolled HN j). unfold cellof, cohort_cell. cbn [x_face]. destruct (rolled HN j); reflexivity. }
  assert (GFt : arr3 Ftc Nsim2 N Nsim1 (fun i j k => x_Ft A (cellof i j k))).
  { eapply ext3; [exact HFtc|]. intros i j k Hi Hj Hk. cbn beta. destruct (HC i j Hi Hj) as (E & _). rewrite Nat2Z.id, E. reflexivity. }
  exact (settle_ok (p_r A p) (p_H A p) (p_D A p) (p_y A p) (p_g A p) mu F (length fs) Nsim2 _ _ _ _ _ _ _ _
    (mean1_3 _ _ _ _ _ GLH) (mean1_3 _ _ _ _ _ GFH) (mean1_3 _ _ _ _ _ Gfc) (mean1_3 _ _ _ _ _ GFt)).
Qed.

(** ** The factor matrices *)
Lemma arange_length a b : length (arange_down a b) = Z.to_nat (a - b).
Proof. unfold arange_down. rewrite map_length, seq_length. reflexivity. Qed.
Lemma aHmat_ok N HN : (-1 <= HN < Z.of_nat N)%Z -> exists l, aHmat A N HN = Ok l /\ length l = N /\
  l = map (fun z => ofZ z ⊘ ofN A N) (arange_down HN (-1) ++ arange_down (Z.of_nat N - 1) HN).
Proof.
  intros H. unfold aHmat. set (l := map _ _). assert (L : length l = N) by (unfold l; rewrite map_length, app_length, !arange_length; lia).
  rewrite L, Nat.eqb_refl. cbn [check]. exists l. auto.
Qed.
Lemma aHmat_bad N HN : ~ (-1 <= HN < Z.of_nat N)%Z -> aHmat A N HN = Err ValueError.
Proof.
  intros H. unfold aHmat. set (l := map _ _). assert (L : length l <> N) by (unfold l; rewrite map_length, app_length, !arange_length; lia).
  rewrite (proj2 (Nat.eqb_neq _ _) L). reflexivity.
Qed.
Lemma np_cumsum_length l : length (np_cumsum A l) = length l.
Proof. destruct l as [|x l]; [reflexivity|]. cbn [np_cumsum length]. f_equal. generalize x. induction l as [|y l IH]; intros a; cbn [cumsum_from length]; auto. Qed.
Lemma factor_matrix (h : num -> num) w m c rows : arr2_list w m c rows ->
  exists f, concat2 1 (full [m; 1]%nat zero) (cumsum1 A (amap h w)) = Ok f /\ arr2 f m (S c) (fun i t => nth t (zero :: np_cumsum A (map h (nth i rows []))) zero).
Proof.
  intros (L1 & L2 & W). destruct (concat2_cols _ _ _ _ _ _ _ (full2 zero m 1) (cumsum2 _ _ _ _ (amap2 h _ _ _ _ W))) as (f & E & Hf). exists f. split; [exact E|].
  eapply ext2; [exact Hf|]. intros i [|t] Hi Ht; [reflexivity|]. cbn [Nat.ltb Nat.leb nth]. f_equal; [lia|]. f_equal.
  assert (Lr : length (nth i rows []) = c) by (apply L2, nth_In; lia). rewrite <- Lr. clear. generalize (nth i rows []). intros l.
  rewrite <- (map_map (fun t => nth t l zero) h). f_equal. induction l as [|x l IH]; [reflexivity|]. cbn [length seq map nth]. f_equal. rewrite <- seq_shift, map_map. exact IH.
Qed.

(** everything before f1 and f2 *)
Lemma front_raw spectral round9 as_int solve fs fs3 params N Nsim2 c w rows p HN :
  concat3 0 fs fs fs = Ok fs3 -> arr2_list w Nsim2 c rows -> read_param A params = Ok p -> horizon A as_int N p = Ok HN -> (-1 <= HN < Z.of_nat N)%Z -> (N <= c)%nat ->
  let Nsim1 := nth 0 (shape fs3) 0%nat in
  exists rmat aHm atm f f0w aH, aHmat A N HN = Ok aH /\
    arr3 rmat Nsim2 N Nsim1 (fun _ j _ => Z.of_nat j) /\ arr3 aHm Nsim2 N Nsim1 (fun _ j _ => nth j aH zero) /\
    arr3 atm Nsim2 N Nsim1 (fun _ j _ => atmat A N j) /\
    arr2 f Nsim2 (S c) (fun i t => nth t (factor_path A p N (nth i rows [])) zero) /\
    arr2 f0w Nsim2 N (fun i j => nth N (removed_path A p N (nth i rows [])) zero ⊖ nth j (removed_path A p N (nth i rows [])) zero) /\
    mod_merton_arrays A spectral round9 as_int solve fs params N Nsim2 w =
      (do t1 <- zip nsub (columns f N (2 * N)) f0w;
       do f1 <- zip nsub t1 (columns f 0 N);
       do f2 <- zip nsub (columns f (2 * N) (3 * N)) (columns f N (2 * N));
       value_arrays A spectral round9 solve p N Nsim2 HN (nth 0 (shape fs) 0%nat) fs3 rmat aHm atm f f0w f1 f2).
Proof.
  intros Hfs3 Hw Hp Hh HHN Hc Nsim1. unfold mod_merton_arrays. rewrite Hp. cbn [bind]. rewrite Hh. cbn [bind].
  rewrite Hfs3. cbn [bind]. fold Nsim1.
  destruct (to_column (mkNd [N] (fun idx => Z.of_nat (nth 0 idx 0%nat))) N (fun i => Z.of_nat i)) as (rm & -> & Hrm); [split; reflexivity|]. cbn [bind].
  destruct (aHmat_ok N HN HHN) as (aH & EaH & LaH & DaH). rewrite <- DaH.
  assert (VaH := vec_arr zero aH). rewrite LaH in VaH. destruct (to_column _ _ _ VaH) as (aHc & -> & HaHc). cbn [bind].
  destruct (to_column (mkNd [N] (fun idx => ofZ (Z.of_nat N - Z.of_nat (nth 0 idx 0%nat)) ⊘ ofN A N)) N (atmat A N)) as (atc & -> & Hatc); [split; reflexivity|]. cbn [bind].
  match goal with |- context [concat2 1 (full [Nsim2; 1]%nat zero) (cumsum1 A (amap ?h w))] => destruct (factor_matrix h w Nsim2 c rows Hw) as (f & -> & Hf) end. cbn [bind].
  match goal with |- context [concat2 1 (full [Nsim2; 1]%nat zero) (cumsum1 A (amap ?h w))] => destruct (factor_matrix h w Nsim2 c rows Hw) as (fw & -> & Hfw) end. cbn [bind].
  destruct (column2 fw Nsim2 (S c) (Z.of_nat N) _ Hfw) as (fwN & -> & HfwN); [lia|]. cbn [bind]. rewrite (proj1 HfwN). cbn [nth].
  destruct (to_column _ _ _ HfwN) as (fwNc & -> & HfwNc). cbn [bind].
  assert (Hfw0 := columns2 fw Nsim2 (S c) 0 N _ Hfw). replace (Nat.min N (S c) - Nat.min 0 (S c))%nat with N in Hfw0 by lia.
  destruct (zip2 nsub _ _ _ _ _ _ (tile_rows _ _ N _ HfwNc) Hfw0) as (f0w & -> & Hf0w). cbn [bind].
  exists (tile rm [Nsim2; 1; Nsim1]%nat), (tile aHc [Nsim2; 1; Nsim1]%nat), (tile atc [Nsim2; 1; Nsim1]%nat), f, f0w, aH.
  split; [exact EaH|]. split; [apply (tile_cohorts _ _ _ _ _ Hrm)|]. split; [apply (tile_cohorts _ _ _ _ _ HaHc)|]. split; [apply (tile_cohorts _ _ _ _ _ Hatc)|].
  split; [exact Hf|]. split; [|reflexivity]. eapply ext2; [exact Hf0w|]. intros i j Hi Hj. cbn beta. rewrite Nat2Z.id. reflexivity.
Qed.
Lemma front spectral round9 as_int solve fs fsl params N Nsim2 c w rows p HN :
  fs_array fs fsl -> arr2_list w Nsim2 c rows -> read_param A params = Ok p -> horizon A as_int N p = Ok HN -> (-1 <= HN < Z.of_nat N)%Z -> (N <= c)%nat ->
  exists fs3 rmat aHm atm f f0w aH, fs_array fs3 (fsl ++ fsl ++ fsl) /\ aHmat A N HN = Ok aH /\
    arr3 rmat Nsim2 N (3 * length fsl) (fun _ j _ => Z.of_nat j) /\ arr3 aHm Nsim2 N (3 * length fsl) (fun _ j _ => nth j aH zero) /\
    arr3 atm Nsim2 N (3 * length fsl) (fun _ j _ => atmat A N j) /\
    arr2 f Nsim2 (S c) (fun i t => nth t (factor_path A p N (nth i rows [])) zero) /\
    arr2 f0w Nsim2 N (fun i j => nth N (removed_path A p N (nth i rows [])) zero ⊖ nth j (removed_path A p N (nth i rows [])) zero) /\
    mod_merton_arrays A spectral round9 as_int solve fs params N Nsim2 w =
      (do t1 <- zip nsub (columns f N (2 * N)) f0w;
       do f1 <- zip nsub t1 (columns f 0 N);
       do f2 <- zip nsub (columns f (2 * N) (3 * N)) (columns f N (2 * N));
       value_arrays A spectral round9 solve p N Nsim2 HN (length fsl) fs3 rmat aHm atm f f0w f1 f2).
Proof.
  intros Hfs Hw Hp Hh HHN Hc. destruct (fs_triple _ _ Hfs) as (fs3 & E & Hfs3).
  destruct (front_raw spectral round9 as_int solve fs fs3 params N Nsim2 c w rows p HN E Hw Hp Hh HHN Hc) as (rmat & aHm & atm & f & f0w & aH & H). cbv zeta in H.
  rewrite (fs_rows _ _ Hfs), (fs_rows _ _ Hfs3) in H. replace (length (fsl ++ fsl ++ fsl)) with (3 * length fsl)%nat in H by (rewrite !app_length; lia).
  exists fs3, rmat, aHm, atm, f, f0w, aH. split; [exact Hfs3|exact H].
Qed.

(** ** Specification: the factor realisations of a path, with the column read at the horizon and the columns read for the
    second generation as parameters *)
Definition factors_at (p : param A) (N tH : nat) (t2 : nat -> nat) (wrow : list num) (j : nat) : cohort_factors A :=
  let f i := nth i (factor_path A p N wrow) zero in
  let fw i := nth i (removed_path A p N wrow) zero in
  let f0w := fw N ⊖ fw j in
  mk_cf A (f (N + j)%nat ⊖ f0w ⊖ f j) (f (t2 j) ⊖ f (N + j)%nat) (f N ⊖ f0w ⊖ f j) (f tH ⊖ f0w ⊖ f j) (f tH ⊖ f (N + j)%nat).

Lemma wide_enough spectral round9 as_int solve fs fsl params N Nsim2 c w rows p HN aH t2 :
  fs_array fs fsl -> arr2_list w Nsim2 c rows -> read_param A params = Ok p -> horizon A as_int N p = Ok HN -> aHmat A N HN = Ok aH -> (1 <= N)%nat ->
  ((3 * N - 1 <= c)%nat /\ t2 = (fun j => 2 * N + j)%nat \/ c = (2 * N)%nat /\ t2 = (fun _ => 2 * N)%nat) ->
  match value_bank A spectral round9 solve p N HN fsl aH (map (fun row => map (factors_at p N (Z.to_nat (Z.of_nat N + HN)) t2 row) (seq 0 N)) rows) with
  | Err e => mod_merton_arrays A spectral round9 as_int solve fs params N Nsim2 w = Err e
  | Ok m => exists o, mod_merton_arrays A spectral round9 as_int solve fs params N Nsim2 w = Ok o /\ agrees o m Nsim2 (length fsl)
  end.
Proof.
  intros Hfs Hw Hp Hh HaH HN1 Hc. assert (c2 : (2 * N <= c)%nat) by lia.
  assert (HHN : (-1 <= HN < Z.of_nat N)%Z) by (destruct (Z_lt_dec HN (-1)); [rewrite aHmat_bad in HaH by lia; discriminate|]; destruct (Z_lt_dec HN (Z.of_nat N)); [lia|rewrite aHmat_bad in HaH by lia; discriminate]).
  destruct (front spectral round9 as_int solve fs fsl params N Nsim2 c w rows p HN Hfs Hw Hp Hh HHN ltac:(lia)) as (fs3 & rmat & aHm & atm & f & f0w & aH' & Hfs3 & EaH & Hr & HaHm & Hat & Hf & Hf0w & ->).
  rewrite HaH in EaH. injection EaH as <-.
  assert (HfN := columns2 f Nsim2 (S c) N (2 * N) _ Hf). replace (Nat.min (2 * N) (S c) - Nat.min N (S c))%nat with N in HfN by lia.
  assert (Hf0 := columns2 f Nsim2 (S c) 0 N _ Hf). replace (Nat.min N (S c) - Nat.min 0 (S c))%nat with N in Hf0 by lia.
  destruct (zip2 nsub _ _ _ _ _ _ HfN Hf0w) as (t1 & -> & Ht1). cbn [bind].
  destruct (zip2 nsub _ _ _ _ _ _ Ht1 Hf0) as (f1 & -> & Hf1). cbn [bind].
  assert (H2 : exists f2, zip nsub (columns f (2 * N) (3 * N)) (columns f N (2 * N)) = Ok f2 /\
     arr2 f2 Nsim2 N (fun i j => nth (t2 j) (factor_path A p N (nth i rows [])) zero ⊖ nth (N + j) (factor_path A p N (nth i rows [])) zero)).
  { assert (Hf2 := columns2 f Nsim2 (S c) (2 * N) (3 * N) _ Hf). destruct Hc as [[Hc ->]|[Hc ->]].
    - replace (Nat.min (3 * N) (S c) - Nat.min (2 * N) (S c))%nat with N in Hf2 by lia. exact (zip2 nsub _ _ _ _ _ _ Hf2 HfN).
    - replace (Nat.min (3 * N) (S c) - Nat.min (2 * N) (S c))%nat with 1%nat in Hf2 by lia. destruct (zip2_column nsub _ _ _ _ _ _ Hf2 HfN) as (f2 & E & Hf2'). exists f2. split; [exact E|].
      eapply ext2; [exact Hf2'|]. intros i j Hi Hj. cbn beta. rewrite Nat.add_0_r. reflexivity. }
  destruct H2 as (f2 & -> & Hf2). cbn [bind]. destruct Hw as (Lw & _ & _).
  set (cf := map _ rows).
  assert (HC : forall i j, (i < Nsim2)%nat -> (j < N)%nat -> nth j (nth i cf []) (mk_cf A zero zero zero zero zero) = factors_at p N (Z.to_nat (Z.of_nat N + HN)) t2 (nth i rows []) j).
  { intros i j Hi Hj. unfold cf. rewrite nth_indep with (d' := map (factors_at p N (Z.to_nat (Z.of_nat N + HN)) t2 []) (seq 0 N)) by (rewrite map_length; lia).
    rewrite (map_nth (fun row => map (factors_at p N (Z.to_nat (Z.of_nat N + HN)) t2 row) (seq 0 N))). rewrite nth_map_seq by lia. reflexivity. }
  eapply value_arrays_ok with (cols := S c); try eassumption; try lia.
  - unfold cf. rewrite map_length. exact Lw.
  - eapply ext2; [exact Hf1|]. intros i j Hi Hj. cbn beta. rewrite HC by auto. reflexivity.
  - eapply ext2; [exact Hf2|]. intros i j Hi Hj. cbn beta. rewrite HC by auto. reflexivity.
  - intros i j Hi Hj. rewrite HC by auto. repeat split; reflexivity.
Qed.
Lemma failed_horizon spectral round9 as_int solve fs fsl params N Nsim2 w p HN :
  fs_array fs fsl -> read_param A params = Ok p -> horizon A as_int N p = Ok HN -> aHmat A N HN = Err ValueError ->
  mod_merton_arrays A spectral round9 as_int solve fs params N Nsim2 w = Err ValueError.
Proof.
  intros Hfs Hp Hh HaH. unfold mod_merton_arrays. rewrite Hp. cbn [bind]. rewrite Hh. cbn [bind]. rewrite (fs_rows _ _ Hfs).
  destruct (fs_triple _ _ Hfs) as (fs3 & -> & Hfs3). cbn [bind].
  destruct (to_column (mkNd [N] (fun idx => Z.of_nat (nth 0 idx 0%nat))) N (fun i => Z.of_nat i)) as (rm & -> & Hrm); [split; reflexivity|]. cbn [bind].
  unfold aHmat in HaH. set (l := map _ _) in *. destruct (Nat.eqb_spec (length l) N) as [E|E]; [discriminate|].
  unfold reshape. cbn [vec shape size fold_right]. rewrite !Nat.mul_1_r. rewrite (proj2 (Nat.eqb_neq N (length l))) by congruence. reflexivity.
Qed.
Lemma factors_at_cohort p N HN row j : (0 <= HN)%Z -> factors_at p N (Z.to_nat (Z.of_nat N + HN)) (fun j => 2 * N + j)%nat row j = cohort_of A p N (Z.to_nat HN) row j.
Proof. intros H. unfold factors_at, cohort_of. replace (Z.to_nat (Z.of_nat N + HN)) with (N + Z.to_nat HN)%nat by lia. reflexivity. Qed.

(** *** C98: with enough shocks per path the numpy program computes the cell-by-cell valuation, or fails exactly as it does *)
Theorem C98_refines spectral round9 as_int solve fs fsl params N Nsim2 c w rows :
  fs_array fs fsl -> arr2_list w Nsim2 c rows -> (3 * N - 1 <= c)%nat ->
  (forall p, read_param A params = Ok p -> horizon A as_int N p <> Ok (-1)%Z) ->
  match mod_merton_computation A spectral round9 as_int solve fsl params N rows with
  | Err e => mod_merton_arrays A spectral round9 as_int solve fs params N Nsim2 w = Err e
  | Ok m => exists o, mod_merton_arrays A spectral round9 as_int solve fs params N Nsim2 w = Ok o /\ agrees o m Nsim2 (length fsl)
  end.
Proof.
  intros Hfs Hw Hc Hneg. unfold mod_merton_computation.
  destruct (read_param A params) as [p|e] eqn:Hp; cbn [bind]; [|unfold mod_merton_arrays; rewrite Hp; reflexivity].
  destruct (horizon A as_int N p) as [HN|e] eqn:Hh; cbn [bind]; [|unfold mod_merton_arrays; rewrite Hp; cbn [bind]; rewrite Hh; reflexivity].
  assert (HN <> (-1)%Z) by (intros ->; exact (Hneg p eq_refl Hh)).
  destruct (aHmat A N HN) as [aH|e] eqn:HaH; cbn [bind].
  - assert (HHN : (-1 <= HN < Z.of_nat N)%Z) by (destruct (Z_lt_dec HN (-1)); [rewrite aHmat_bad in HaH by lia; discriminate|]; destruct (Z_lt_dec HN (Z.of_nat N)); [lia|rewrite aHmat_bad in HaH by lia; discriminate]).
    assert (WE := wide_enough spectral round9 as_int solve fs fsl params N Nsim2 c w rows p HN aH _ Hfs Hw Hp Hh HaH ltac:(lia) (or_introl (conj Hc eq_refl))).
    replace (map (fun row => map (cohort_of A p N (Z.to_nat HN) row) (seq 0 N)) rows) with (map (fun row => map (factors_at p N (Z.to_nat (Z.of_nat N + HN)) (fun j => 2 * N + j)%nat row) (seq 0 N)) rows); [exact WE|].
    apply map_ext. intros row. apply map_ext. intros j. apply factors_at_cohort. lia.
  - assert (Herr : aHmat A N HN = Err ValueError) by (apply aHmat_bad; intros B; destruct (aHmat_ok N HN B) as (l & E & _); congruence).
    rewrite HaH in Herr. injection Herr as ->. eapply failed_horizon; eassumption.
Qed.

(** *** C98: the shocks after the first 3N-1 columns are never used; in particular the last of the 3N columns drawn *)
Lemma cumsum_from_firstn acc l n : firstn n (cumsum_from A acc l) = cumsum_from A acc (firstn n l).
Proof. revert acc n. induction l as [|x l IH]; intros acc [|n]; cbn [cumsum_from firstn]; auto. f_equal. apply IH. Qed.
Lemma np_cumsum_firstn l n : firstn n (np_cumsum A l) = np_cumsum A (firstn n l).
Proof. destruct l as [|x l]; destruct n as [|n]; cbn [np_cumsum firstn]; auto. f_equal. apply cumsum_from_firstn. Qed.
Lemma path_prefix (h : num -> num) row row' n t : firstn n row = firstn n row' -> (t <= n)%nat ->
  nth t (zero :: np_cumsum A (map h row)) zero = nth t (zero :: np_cumsum A (map h row')) zero.
Proof.
  intros E Ht. rewrite <- (nth_firstn' (zero :: np_cumsum A (map h row)) (S n)), <- (nth_firstn' (zero :: np_cumsum A (map h row')) (S n)) by lia.
  cbn [firstn]. rewrite !np_cumsum_firstn, !firstn_map, E. reflexivity.
Qed.
Theorem C98_last_shock_unused spectral round9 as_int solve fsl params N (rows rows' : list (list num)) :
  map (firstn (3 * N - 1)) rows = map (firstn (3 * N - 1)) rows' ->
  mod_merton_computation A spectral round9 as_int solve fsl params N rows = mod_merton_computation A spectral round9 as_int solve fsl params N rows'.
Proof.
  intros E. unfold mod_merton_computation. destruct (read_param A params) as [p|e]; cbn [bind]; [|reflexivity]. destruct (horizon A as_int N p) as [HN|e]; cbn [bind]; [|reflexivity].
  destruct (aHmat A N HN) as [aH|e] eqn:HaH; cbn [bind]; [|reflexivity].
  assert (HHN : (-1 <= HN < Z.of_nat N)%Z) by (destruct (Z_lt_dec HN (-1)); [rewrite aHmat_bad in HaH by lia; discriminate|]; destruct (Z_lt_dec HN (Z.of_nat N)); [lia|rewrite aHmat_bad in HaH by lia; discriminate]).
  f_equal. revert rows' E. induction rows as [|row rows IH]; intros [|row' rows'] E; try discriminate; [reflexivity|]. cbn [map] in E |- *.
  injection E as E1 E2. f_equal; [|apply IH, E2]. apply map_ext_in. intros j Hj. apply in_seq in Hj.
  assert (P1 : forall t, (t <= 3 * N - 1)%nat -> nth t (factor_path A p N row) zero = nth t (factor_path A p N row') zero) by (intros t Ht; exact (path_prefix _ row row' _ t E1 Ht)).
  assert (P2 : forall t, (t <= 3 * N - 1)%nat -> nth t (removed_path A p N row) zero = nth t (removed_path A p N row') zero) by (intros t Ht; exact (path_prefix _ row row' _ t E1 Ht)).
  unfold cohort_of. cbv zeta. rewrite !P1, !P2 by lia. reflexivity.
Qed.

(** *** C98: shapes of the shock matrix that do not fit *)
(** the number of rows is not Nsim2 *)
Theorem C98_wrong_rows spectral round9 as_int solve fs fsl params N Nsim2 m c w rows p HN :
  fs_array fs fsl -> arr2_list w m c rows -> m <> Nsim2 -> read_param A params = Ok p -> horizon A as_int N p = Ok HN -> (-1 <= HN < Z.of_nat N)%Z ->
  mod_merton_arrays A spectral round9 as_int solve fs params N Nsim2 w = Err ValueError.
Proof.
  intros Hfs (_ & _ & Hw) Hm Hp Hh HHN. unfold mod_merton_arrays. rewrite Hp. cbn [bind]. rewrite Hh. cbn [bind].
  destruct (fs_triple _ _ Hfs) as (fs3 & -> & Hfs3). cbn [bind].
  destruct (to_column (mkNd [N] (fun idx => Z.of_nat (nth 0 idx 0%nat))) N (fun i => Z.of_nat i)) as (rm & -> & Hrm); [split; reflexivity|]. cbn [bind].
  destruct (aHmat_ok N HN HHN) as (aH & EaH & LaH & DaH). rewrite <- DaH.
  assert (VaH := vec_arr zero aH). rewrite LaH in VaH. destruct (to_column _ _ _ VaH) as (aHc & -> & HaHc). cbn [bind].
  destruct (to_column (mkNd [N] (fun idx => ofZ (Z.of_nat N - Z.of_nat (nth 0 idx 0%nat)) ⊘ ofN A N)) N (atmat A N)) as (atc & -> & Hatc); [split; reflexivity|]. cbn [bind].
  match goal with |- context [concat2 1 _ (cumsum1 A (amap ?h w))] => rewrite (concat2_cols_rows _ _ _ _ _ _ _ _ (full2 zero Nsim2 1) (cumsum2 _ _ _ _ (amap2 h _ _ _ _ Hw))) by congruence end. reflexivity.
Qed.
(** fewer than N shocks per path *)
Theorem C98_few_shocks spectral round9 as_int solve fs fsl params N Nsim2 c w rows p HN :
  fs_array fs fsl -> arr2_list w Nsim2 c rows -> (c < N)%nat -> read_param A params = Ok p -> horizon A as_int N p = Ok HN -> (-1 <= HN < Z.of_nat N)%Z ->
  mod_merton_arrays A spectral round9 as_int solve fs params N Nsim2 w = Err IndexError.
Proof.
  intros Hfs Hw Hc Hp Hh HHN. unfold mod_merton_arrays. rewrite Hp. cbn [bind]. rewrite Hh. cbn [bind].
  destruct (fs_triple _ _ Hfs) as (fs3 & -> & Hfs3). cbn [bind].
  destruct (to_column (mkNd [N] (fun idx => Z.of_nat (nth 0 idx 0%nat))) N (fun i => Z.of_nat i)) as (rm & -> & Hrm); [split; reflexivity|]. cbn [bind].
  destruct (aHmat_ok N HN HHN) as (aH & EaH & LaH & DaH). rewrite <- DaH.
  assert (VaH := vec_arr zero aH). rewrite LaH in VaH. destruct (to_column _ _ _ VaH) as (aHc & -> & HaHc). cbn [bind].
  destruct (to_column (mkNd [N] (fun idx => ofZ (Z.of_nat N - Z.of_nat (nth 0 idx 0%nat)) ⊘ ofN A N)) N (atmat A N)) as (atc & -> & Hatc); [split; reflexivity|]. cbn [bind].
  match goal with |- context [concat2 1 (full [Nsim2; 1]%nat zero) (cumsum1 A (amap ?h w))] => destruct (factor_matrix h w Nsim2 c rows Hw) as (f & -> & Hf) end. cbn [bind].
  match goal with |- context [concat2 1 (full [Nsim2; 1]%nat zero) (cumsum1 A (amap ?h w))] => destruct (factor_matrix h w Nsim2 c rows Hw) as (fw & -> & Hfw) end. cbn [bind].
  rewrite (column2_out fw Nsim2 (S c) (Z.of_nat N) _ Hfw) by lia. reflexivity.
Qed.
(** between N and 3N-2 shocks per path, but not 2N *)
Lemma zip2_one_col {X Y Z} (f : X -> Y -> Z) a b m n g h : arr2 a m 1 g -> arr2 b m n h -> exists c, zip f a b = Ok c /\ shape c = [m; n].
Proof. intros Ha Hb. destruct (zip2_column f a b m n g h Ha Hb) as (c & E & H). exists c. split; [exact E|apply H]. Qed.
Theorem C98_missing_shocks spectral round9 as_int solve fs fsl params N Nsim2 c w rows p HN :
  fs_array fs fsl -> arr2_list w Nsim2 c rows -> (2 <= N)%nat -> (N <= c < 3 * N - 1)%nat -> c <> (2 * N)%nat ->
  read_param A params = Ok p -> horizon A as_int N p = Ok HN -> (-1 <= HN < Z.of_nat N)%Z ->
  mod_merton_arrays A spectral round9 as_int solve fs params N Nsim2 w = Err ValueError.
Proof.
  intros Hfs Hw H2 Hc Hc2 Hp Hh HHN.
  destruct (front spectral round9 as_int solve fs fsl params N Nsim2 c w rows p HN Hfs Hw Hp Hh HHN ltac:(lia)) as (fs3 & rmat & aHm & atm & f & f0w & aH & Hfs3 & EaH & Hr & HaHm & Hat & Hf & Hf0w & ->).
  assert (HfN := columns2 f Nsim2 (S c) N (2 * N) _ Hf). assert (Hf0 := columns2 f Nsim2 (S c) 0 N _ Hf). replace (Nat.min N (S c) - Nat.min 0 (S c))%nat with N in Hf0 by lia.
  assert (Hf2 := columns2 f Nsim2 (S c) (2 * N) (3 * N) _ Hf).
  destruct (le_lt_dec (2 * N) (S c)) as [L|L].
  - replace (Nat.min (2 * N) (S c) - Nat.min N (S c))%nat with N in HfN by lia.
    destruct (zip2 nsub _ _ _ _ _ _ HfN Hf0w) as (t1 & -> & Ht1). cbn [bind].
    destruct (zip2 nsub _ _ _ _ _ _ Ht1 Hf0) as (f1 & -> & Hf1). cbn [bind].
    rewrite (zip2_mismatch nsub _ _ _ _ _ _ _ Hf2 HfN) by lia. reflexivity.
  - destruct (Nat.eq_dec c N) as [->|Hne].
    + replace (Nat.min (2 * N) (S N) - Nat.min N (S N))%nat with 1%nat in HfN by lia. replace (Nat.min (3 * N) (S N) - Nat.min (2 * N) (S N))%nat with 0%nat in Hf2 by lia.
      destruct (zip2_column nsub _ _ _ _ _ _ HfN Hf0w) as (t1 & -> & Ht1). cbn [bind].
      destruct (zip2 nsub _ _ _ _ _ _ Ht1 Hf0) as (f1 & -> & Hf1). cbn [bind].
      assert (E2 : exists f2, zip nsub (columns f (2 * N) (3 * N)) (columns f N (2 * N)) = Ok f2 /\ arr2 f2 Nsim2 0 (fun _ _ => zero)).
      { unfold zip. rewrite (proj1 Hf2), (proj1 HfN). cbn [rev app broadcast_rev bind]. rewrite Nat.eqb_refl. cbn [bind Nat.eqb rev app]. eexists. split; [reflexivity|]. split; [reflexivity|]. intros; lia. }
      destruct E2 as (f2 & -> & Hf2'). cbn [bind]. clear Hf2. rename Hf2' into Hf2.
      unfold value_arrays. assert (L3 : length (fsl ++ fsl ++ fsl) = (3 * length fsl)%nat) by (rewrite !app_length; lia). rewrite (fs_rows _ _ Hfs3), L3. cbv zeta.
      destruct (fs_depth (fun x => x ⊗ (nsqrt (p_rho A p) ⊗ p_sig A p) ⊗ nsqrt (p_T A p)) _ _ Hfs3) as (fsa0 & E & Hfsa0). rewrite L3 in E, Hfsa0. rewrite E. cbn [bind]. clear E.
      unfold concat3. destruct (concat2_depth _ _ _ _ _ _ _ _ (full3 zero Nsim2 N (length fsl)) (full3 one Nsim2 N (length fsl))) as (b2 & -> & Hb2). cbn [bind].
      destruct (concat2_depth _ _ _ _ _ _ _ _ Hb2 (full3 (nopp one) Nsim2 N (length fsl))) as (bumps & -> & Hbumps). cbn [bind].
      replace (length fsl + length fsl + length fsl)%nat with (3 * length fsl)%nat in Hbumps by lia.
      destruct (zip3_first nmul _ _ _ _ _ _ _ (repeat_cohorts _ N _ _ Hfsa0) Hat) as (t2 & -> & Ht2). cbn [bind].
      destruct (zip3 nadd _ _ _ _ _ _ _ Ht2 (amap3 (fun x => nsqrt (p_rho A p) ⊗ p_sig A p ⊘ ofZ 10 ⊗ x) _ _ _ _ _ Hbumps)) as (fsa & -> & Hfsa). cbn [bind].
      destruct (Nat.eq_dec (3 * length fsl) 0) as [Z0|Z0]; [unfold dstack at 1; rewrite Z0; reflexivity|].
      destruct (dstack2 _ _ _ _ _ Hf1 Z0) as (f1s & -> & Hf1s). cbn [bind].
      destruct (zip3 nadd _ _ _ _ _ _ _ Hf1s Hfsa) as (f1j & -> & Hf1j). cbn [bind].
      destruct (dstack2 _ _ _ _ _ Hf2 Z0) as (f2j & -> & Hf2j). cbn [bind].
      unfold loan_payoff_array at 1. unfold zip at 1. cbn [amap loan_payoff_scalar shape]. rewrite (proj1 Hf2j), (proj1 Hf1j). cbn [rev app broadcast_rev bind]. rewrite Nat.eqb_refl. cbn [bind].
      destruct N as [|[|N]]; try lia. reflexivity.
    + rewrite (zip2_mismatch nsub _ _ _ _ _ _ _ HfN Hf0w) by lia. reflexivity.
Qed.
(** with exactly 2N shocks per path nothing fails: the last factor is used for every second-generation loan *)
Theorem C98_reused_factor spectral round9 as_int solve fs fsl params N Nsim2 w rows p HN aH :
  fs_array fs fsl -> arr2_list w Nsim2 (2 * N) rows -> (2 <= N)%nat -> read_param A params = Ok p -> horizon A as_int N p = Ok HN -> aHmat A N HN = Ok aH ->
  match value_bank A spectral round9 solve p N HN fsl aH (map (fun row => map (factors_at p N (Z.to_nat (Z.of_nat N + HN)) (fun _ => 2 * N)%nat row) (seq 0 N)) rows) with
  | Err e => mod_merton_arrays A spectral round9 as_int solve fs params N Nsim2 w = Err e
  | Ok m => exists o, mod_merton_arrays A spectral round9 as_int solve fs params N Nsim2 w = Ok o /\ agrees o m Nsim2 (length fsl)
  end.
Proof. intros Hfs Hw HN2 Hp Hh HaH. eapply wide_enough; eauto. lia. Qed.

(** *** C98: a horizon of minus one period passes the only check and reads the factor one period before today *)
Theorem C98_negative_horizon spectral round9 as_int solve fs fsl params N Nsim2 c w rows p :
  fs_array fs fsl -> arr2_list w Nsim2 c rows -> (3 * N - 1 <= c)%nat -> (1 <= N)%nat -> read_param A params = Ok p -> horizon A as_int N p = Ok (-1)%Z ->
  let aH := map (fun j => ofZ (Z.of_nat N - 1 - Z.of_nat j) ⊘ ofN A N) (seq 0 N) in
  match value_bank A spectral round9 solve p N (-1) fsl aH (map (fun row => map (factors_at p N (N - 1) (fun j => 2 * N + j)%nat row) (seq 0 N)) rows) with
  | Err e => mod_merton_arrays A spectral round9 as_int solve fs params N Nsim2 w = Err e
  | Ok m => exists o, mod_merton_arrays A spectral round9 as_int solve fs params N Nsim2 w = Ok o /\ agrees o m Nsim2 (length fsl)
  end.
Proof.
  intros Hfs Hw Hc HN1 Hp Hh aH. destruct (aHmat_ok N (-1) ltac:(lia)) as (aH' & E & _ & D).
  assert (HaH : aH' = aH). { rewrite D. unfold aH, arange_down. rewrite map_app, !map_map. cbn [Z.sub Z.opp Z.add Z.to_nat seq map app Pos.add Pos.sub Z.pos_sub]. replace (Z.to_nat (Z.of_nat N - 1 - -1)) with N by lia. reflexivity. }
  rewrite HaH in E. assert (WE := wide_enough spectral round9 as_int solve fs fsl params N Nsim2 c w rows p (-1) aH _ Hfs Hw Hp Hh E ltac:(lia) (or_introl (conj Hc eq_refl))).
  replace (Z.to_nat (Z.of_nat N + -1)) with (N - 1)%nat in WE by lia. exact WE.
Qed.

(** *** C98: the shocks as a row instead of a column *)
Theorem C98_row_of_shocks spectral round9 as_int solve fs k g params N Nsim2 c w rows p HN :
  arr2 fs 1 k g -> k <> 1%nat -> arr2_list w Nsim2 c rows -> (3 * N - 1 <= c)%nat -> read_param A params = Ok p -> horizon A as_int N p = Ok HN -> (-1 <= HN < Z.of_nat N)%Z ->
  mod_merton_arrays A spectral round9 as_int solve fs params N Nsim2 w = Err ValueError.
Proof.
  intros Hfs Hk Hw Hc Hp Hh HHN. destruct (concat2_rows fs fs _ _ _ _ _ Hfs Hfs) as (b & E & Hb). destruct (concat2_rows b fs _ _ _ _ _ Hb Hfs) as (fs3 & E' & Hfs3).
  assert (E3 : concat3 0 fs fs fs = Ok fs3) by (unfold concat3; rewrite E; exact E').
  destruct (front_raw spectral round9 as_int solve fs fs3 params N Nsim2 c w rows p HN E3 Hw Hp Hh HHN ltac:(lia)) as (rmat & aHm & atm & f & f0w & aH & _ & _ & _ & _ & Hf & Hf0w & ->).
  assert (HfN := columns2 f Nsim2 (S c) N (2 * N) _ Hf). replace (Nat.min (2 * N) (S c) - Nat.min N (S c))%nat with N in HfN by lia.
  assert (Hf0 := columns2 f Nsim2 (S c) 0 N _ Hf). replace (Nat.min N (S c) - Nat.min 0 (S c))%nat with N in Hf0 by lia.
  assert (Hf2 := columns2 f Nsim2 (S c) (2 * N) (3 * N) _ Hf). replace (Nat.min (3 * N) (S c) - Nat.min (2 * N) (S c))%nat with N in Hf2 by lia.
  destruct (zip2 nsub _ _ _ _ _ _ HfN Hf0w) as (t1 & -> & Ht1). cbn [bind].
  destruct (zip2 nsub _ _ _ _ _ _ Ht1 Hf0) as (f1 & -> & Hf1). cbn [bind].
  destruct (zip2 nsub _ _ _ _ _ _ Hf2 HfN) as (f2 & -> & Hf2'). cbn [bind].
  unfold value_arrays. rewrite (proj1 Hfs3). cbn [nth Nat.add]. unfold reshape at 1. cbn [amap shape]. rewrite (proj1 Hfs3). cbn [size fold_right Nat.mul Nat.add].
  replace (3 =? _)%nat with false by (symmetry; apply Nat.eqb_neq; lia). reflexivity.
Qed.
End Refinement.

Lemma smooth_six (keys vals : list (num XRA)) : length keys = 6 -> exists s, smooth_by XRA (fun x => x) (fun l => fftsmooth XRA (fun x _ => x) l 0) keys vals = Ok s.
Proof.
  intros H. unfold smooth_by. assert (L := argsort_length' XRA (map (fun x => x) keys)). rewrite map_length, H in L. destruct (argsort XRA _) as [|a [|b [|c [|d [|e [|f [|g ind]]]]]]]; try discriminate L.
  cbn [map]. eexists. reflexivity.
Qed.
(** a concrete call: two cohorts, two paths of five shocks (the least number), one state, horizon one period *)
Example C98_case : let fs : nd (num XRA) := vec (Fin 0) [Fin 0] in
  let rows := [[Fin 1; Fin 2; Fin 3; Fin 4; Fin 5]; [Fin 6; Fin 7; Fin 8; Fin 9; Fin 10]] : list (list (num XRA)) in
  let w : nd (num XRA) := mkNd [2; 5] (fun idx => nth (nth 1 idx 0) (nth (nth 0 idx 0) rows []) (Fin 0)) in
  let params := map Fin [1/100; 2; 7/10; 1; 6/10; 1/2; 6/10; 2/10; 1/200; 2/1000; 1/2]%R : list (num XRA) in
  let call := mod_merton_computation XRA (fun x _ => x) (fun x => x) (fun _ => Some 1%Z) (fun _ x => x) [Fin 0] params 2 rows in
  fs_array XRA fs [Fin 0] /\ arr2_list XRA w 2 5 rows /\ 3 * 2 - 1 <= 5 /\ (exists p, read_param XRA params = Ok p /\ horizon XRA (fun _ => Some 1%Z) 2 p = Ok 1%Z) /\ exists m, call = Ok m.
Proof.
  cbv zeta. split; [left; split; [reflexivity|]; intros; reflexivity|]. split; [|split; [lia|]].
  - split; [reflexivity|]. split; [intros row [<-|[<-|[]]]; reflexivity|]. split; reflexivity.
  - assert (E : (@neqb XRA (Fin 2) (Fin 0)) = false) by (cbn [neqb XRA xeqb]; destruct (Req_EM_T 2 0); [lra|reflexivity]).
    split.
    + eexists. split; [reflexivity|]. unfold horizon. cbn [p_T]. change (@ofZ XRA 0) with (Fin 0). rewrite E. reflexivity.
    + unfold mod_merton_computation. cbn [map read_param bind]. unfold horizon at 1. cbn [p_T]. change (@ofZ XRA 0) with (Fin 0). rewrite E. cbn [bind].
      destruct (aHmat_ok XRA 2 1 ltac:(lia)) as (aH & -> & _). cbn [bind]. unfold value_bank. cbv zeta. cbn [length map seq mapM Nat.mul Nat.add].
      replace (6 / 20) with 0 by reflexivity. 
      match goal with |- context [smooth_by XRA ?r ?sm ?k ?v] => destruct (smooth_six k v eq_refl) as (s0 & ->) end. cbn [bind].
      match goal with |- context [smooth_by XRA ?r ?sm ?k ?v] => destruct (smooth_six k v eq_refl) as (s1 & ->) end. cbn [bind].
      eexists. reflexivity.
Qed.
