(** * C106: the numpy program of the single-cohort model computes the cell-by-cell valuation *)
From Coq Require Import ZArith List Bool Arith Lia.
From Coq Require Import Permutation.
From Coq Require Import Reals Lra.
From Verif Require Import Arith XR Model_option Model_merton Model_ndarray Model_mertonarrays Model_matlab Model_singlearrays Props_mertonarrays.
Import ListNotations.

Section Refinement.
Context (A : Arith).
Notation num := (num A).
Notation zero := (@ofZ A 0).
Notation one := (@ofZ A 1).
Notation half := (@lit A 5 10).
Local Open Scope num_scope.

(** ** Operations *)
Lemma fs_row (h : num -> num) a l : fs_array A a l -> exists c, reshape (amap h a) [1; length l]%nat = Ok c /\ arr2 c 1 (length l) (fun _ k => h (nth k l zero)).
Proof.
  intros H. unfold reshape. assert (Z : size (shape (amap h a)) = length l) by (destruct H as [[S _]|[S _]]; cbn [amap shape]; rewrite S; cbn; lia).
  rewrite Z. replace (size [1; length l]) with (length l) by (cbn; lia). rewrite Nat.eqb_refl. cbn [check]. eexists. split; [reflexivity|]. split; [reflexivity|].
  intros i k Hi Hk. assert (i = 0)%nat as -> by lia. cbn [get amap shape]. f_equal. replace (ravel [1; length l] [0; k]) with k by (cbn; lia).
  destruct H as [[S G]|[S G]]; rewrite S; cbn [unravel size fold_right].
  - rewrite Nat.div_1_r. apply G; lia.
  - rewrite Nat.mul_1_r, Nat.div_1_r, Nat.mod_1_r, Nat.div_1_r. apply G; lia.
Qed.
(** one row is repeated for every row of the other argument *)
Lemma zip2_row {X Y Z} (f : X -> Y -> Z) a b m n g h : arr2 a 1 n g -> arr2 b m n h -> exists c, zip f a b = Ok c /\ arr2 c m n (fun i j => f (g 0%nat j) (h i j)).
Proof.
  intros [S1 G1] [S2 G2]. unfold zip. rewrite S1, S2. cbn [rev app broadcast_rev bind]. rewrite !Nat.eqb_refl.
  destruct (Nat.eqb_spec 1 m) as [<-|Hm]; cbn [bind rev app Nat.eqb].
  - eexists. split; [reflexivity|]. split; [reflexivity|]. intros i j Hi Hj. assert (i = 0)%nat by lia. subst i. cbn [get]. unfold bget. rewrite S1, S2. cbn [length Nat.sub skipn map2 Nat.eqb]. idx. rewrite G1, G2; auto.
  - eexists. split; [reflexivity|]. split; [reflexivity|]. intros i j Hi Hj. cbn [get]. unfold bget. rewrite S1, S2. cbn [length Nat.sub skipn map2]. change (1 =? 1)%nat with true. cbv iota. idx. rewrite G1, G2; auto; lia.
Qed.
Lemma flattenF1_ok (a : nd num) m n g : arr2 a m n g -> exists c, flattenF1 A a = Ok c /\ arr1 c (m * n) (fun q => g (q mod m) (q / m))%nat.
Proof.
  intros [S1 G1]. unfold flattenF1, reshapeF. rewrite S1. cbn [size fold_right]. rewrite !Nat.mul_1_r, Nat.eqb_refl. cbn [check]. eexists. split; [reflexivity|]. split; [reflexivity|].
  intros q Hq. cbn [get rev app unravel ravel size fold_right]. rewrite !Nat.mul_1_r, ?Nat.add_0_r.
  assert (m <> 0)%nat by (intros ->; lia). cbn [rev app]. rewrite Nat.div_1_r. apply G1; [apply Nat.mod_upper_bound; auto | apply Nat.div_lt_upper_bound; lia].
Qed.
Lemma flat_vec {X} (a : nd X) n g : arr1 a n g -> flat a = map g (seq 0 n).
Proof.
  intros [S1 G1]. unfold flat. rewrite S1. cbn [size fold_right]. rewrite !Nat.mul_1_r. apply map_ext_in. intros q Hq. apply in_seq in Hq. cbn [unravel size fold_right].
  rewrite Nat.div_1_r. apply G1; lia.
Qed.
Lemma take_ok (a : nd num) n g ind : arr1 a n g -> (forall q, In q ind -> (q < n)%nat) -> exists c, take A a ind = Ok c /\ arr1 c (length ind) (fun t => g (nth t ind 0%nat)).
Proof.
  intros [S1 G1] H. unfold take. rewrite S1. cbn [nth]. replace (forallb _ ind) with true.
  2:{ symmetry. apply forallb_forall. intros q Hq. apply Nat.ltb_lt, H, Hq. }
  cbn [check]. eexists. split; [reflexivity|]. split; [reflexivity|]. intros t Ht. cbn [get nth]. apply G1, H, nth_In. exact Ht.
Qed.
Lemma flat_take (a : nd num) n g ind : arr1 a n g -> (forall q, In q ind -> (q < n)%nat) -> exists c, take A a ind = Ok c /\ flat c = map g ind.
Proof.
  intros Ha H. destruct (take_ok _ _ _ _ Ha H) as (c & E & Hc). exists c. split; [exact E|].
  rewrite (flat_vec _ _ _ Hc). clear. induction ind as [|x ind IH]; [reflexivity|]. cbn [length seq map nth]. f_equal. rewrite <- seq_shift, map_map. exact IH.
Qed.
Lemma set_nth_length {X} (l : list X) i x : length (set_nth l i x) = length l.
Proof. revert i. induction l as [|y l IH]; intros [|i]; cbn [set_nth length]; auto. Qed.
Lemma inverse_length ind : length (inverse_index ind) = length ind.
Proof.
  unfold inverse_index. assert (H : forall l acc, length (fold_left (fun acc tp => set_nth acc (snd tp) (fst tp)) l acc) = length (acc : list nat)).
  { induction l as [|x l IH]; intros acc; [reflexivity|]. cbn [fold_left]. rewrite IH. apply set_nth_length. }
  rewrite H. apply repeat_length.
Qed.
(** the positions assigned by new_indices[sort_indices] = arange(n) are below n *)
Lemma set_nth_bound l i x n : (forall q, In q l -> (q < n)%nat) -> (x < n)%nat -> forall q, In q (set_nth l i x) -> (q < n)%nat.
Proof. revert i. induction l as [|y l IH]; intros [|i] H Hx q Hq; cbn [set_nth In] in *; try tauto; destruct Hq as [<-|Hq]; auto. eapply IH; eauto. Qed.
Lemma inverse_bound ind q : In q (inverse_index ind) -> (q < length ind)%nat.
Proof.
  unfold inverse_index. set (n := length ind). intros Hq.
  assert (H : forall l acc, (forall tp, In tp l -> (fst tp < n)%nat) -> (forall q, In q acc -> (q < n)%nat) ->
    forall q, In q (fold_left (fun acc (tp : nat * nat) => set_nth acc (snd tp) (fst tp)) l acc) -> (q < n)%nat).
  { induction l as [|x l IH]; intros acc Hl Hacc q' Hq'; [auto|]. cbn [fold_left] in Hq'. eapply IH; [| |exact Hq'].
    - intros tp Ht. apply Hl. right. exact Ht.
    - intros q'' Hq''. eapply set_nth_bound; [exact Hacc| |exact Hq'']. apply Hl. left. reflexivity. }
  eapply H; [| |exact Hq].
  - intros [t u] Ht. apply in_combine_l in Ht. apply in_seq in Ht. cbn [fst]. lia.
  - intros q' Hq'. assert (length ind <> 0)%nat by (intros E; unfold n in *; rewrite E in Hq'; destruct Hq'). apply repeat_spec in Hq'. unfold n. lia.
Qed.
(** the transform of l.88-91 of fftsmooth.py keeps the length *)
Definition keeps_length (spectral : list num -> list num -> list num) : Prop := forall x k, length x = length k -> length (spectral x k) = length x.
Lemma fftsmooth_length spectral x win xs : keeps_length spectral -> fftsmooth A spectral x win = Ok xs -> (length x <= length xs)%nat.
Proof.
  intros Hs E. unfold fftsmooth in E. destruct (Nat.even (length x)); [|discriminate]. cbn [check] in E. destruct (Nat.even win) eqn:Ew; [|discriminate]. cbn [check] in E.
  destruct (Nat.leb_spec (win / 2) (length x)) as [Hl|]; [|discriminate]. cbn [check] in E. destruct (negb (length x =? 0)%nat); [|discriminate]. cbn [check] in E.
  set (h := (win / 2)%nat) in *. set (sp := spectral _ _) in *.
  assert (Ew2 : win = (2 * h)%nat). { apply Nat.even_spec in Ew. destruct Ew as [v ->]. unfold h. rewrite Nat.mul_comm, Nat.div_mul by lia. lia. }
  assert (Lsp : length sp = (2 * length x)%nat). { unfold sp. rewrite Hs; rewrite !app_length, !repeat_length; lia. }
  destruct (py_index sp (Z.of_nat h + 1)) as [a1|]; [|discriminate]. cbn [bind] in E. destruct (py_index sp (Z.of_nat h)) as [a0|]; [|discriminate]. cbn [bind] in E.
  destruct (py_index sp (Z.of_nat (length x) - Z.of_nat h - 1)) as [b1|]; [|discriminate]. cbn [bind] in E. destruct (py_index sp (Z.of_nat (length x) - Z.of_nat h - 2)) as [b0|]; [|discriminate]. cbn [bind] in E.
  injection E as <-. rewrite !app_length, !map_length, !seq_length, firstn_length, skipn_length, Lsp. lia.
Qed.
Lemma smooth_surface_ok spectral round9 F1 L1 m n gF gL : keeps_length spectral -> arr2 F1 m n gF -> arr2 L1 m n gL ->
  match smooth_by A round9 (fun l => fftsmooth A spectral l (Nat.div (m * n) 20)) (map (fun q => gF (q mod m) (q / m)) (seq 0 (m * n)))%nat (map (fun q => gL (q mod m) (q / m)) (seq 0 (m * n)))%nat with
  | Err e => smooth_surface A spectral round9 F1 L1 m n = Err e
  | Ok s => exists c, smooth_surface A spectral round9 F1 L1 m n = Ok c /\ arr2 c m n (fun i k => nth (i + m * k)%nat s zero)
  end.
Proof.
  intros Hs HF HL. unfold smooth_by, smooth_surface. destruct (flattenF1_ok _ _ _ _ HF) as (Fr & -> & HFr). cbn [bind]. destruct (flattenF1_ok _ _ _ _ HL) as (Lr & -> & HLr). cbn [bind].
  rewrite (flat_vec _ _ _ (amap1 round9 _ _ _ HFr)). cbv zeta. rewrite map_map. set (keys := map (fun q => round9 (gF (q mod m) (q / m)))%nat (seq 0 (m * n))). 
  assert (Lk : length keys = (m * n)%nat) by (unfold keys; rewrite map_length, seq_length; reflexivity). set (ind := argsort A keys).
  assert (Li : length ind = (m * n)%nat) by (unfold ind; rewrite argsort_length'; exact Lk).
  assert (Bi : forall q, In q ind -> (q < m * n)%nat) by (intros q Hq; rewrite <- Lk; exact (argsort_bound A keys q Hq)).
  destruct (flat_take _ _ _ ind HFr Bi) as (sF & -> & _). cbn [bind]. destruct (flat_take _ _ _ ind HLr Bi) as (sL & -> & EsL). cbn [bind]. rewrite EsL.
  assert (E : map (fun q => nth q (map (fun q => gL (q mod m) (q / m)) (seq 0 (m * n)))%nat zero) ind = map (fun q => gL (q mod m) (q / m))%nat ind).
  { apply map_ext_in. intros q Hq. rewrite nth_map_seq by auto. reflexivity. }
  rewrite E. destruct (fftsmooth A spectral _ _) as [LHs|e] eqn:EF; cbn [bind]; [|reflexivity].
  apply (fftsmooth_length _ _ _ _ Hs) in EF. rewrite map_length, Li in EF.
  assert (Bn : forall q, In q (inverse_index ind) -> (q < length LHs)%nat) by (intros q Hq; apply inverse_bound in Hq; lia).
  destruct (take_ok _ _ _ (inverse_index ind) (vec_arr zero LHs) Bn) as (c & -> & Hc). cbn [bind]. rewrite inverse_length, Li in Hc.
  destruct (unflattenF _ m n _ Hc) as (cm & -> & Hcm). exists cm. split; [reflexivity|]. eapply ext2; [exact Hcm|]. intros i k Hi Hk. cbn beta.
  rewrite map_length, seq_length. rewrite nth_map_seq by nia. reflexivity.
Qed.

(** ** The factor columns: f[:, t] of the matrix and of every path *)
Lemma column_paths f m c (rows : list (list num)) (path : list num -> list num) t : length rows = m -> (1 <= m)%nat -> (forall row, In row rows -> length (path row) = c) ->
  arr2 f m c (fun i j => nth j (path (nth i rows [])) zero) ->
  match mapM (fun l => py_index l t) (map path rows) with
  | Err e => column f t = Err e
  | Ok v => length v = m /\ exists a, column f t = Ok a /\ arr1 a m (fun i => nth i v zero)
  end.
Proof.
  intros Lr Hm Hp Hf. set (q := if (t <? 0)%Z then (t + Z.of_nat c)%Z else t).
  assert (NR : (0 <= q < Z.of_nat c)%Z \/ ~ (0 <= q < Z.of_nat c)%Z) by lia. destruct NR as [B|B].
  - assert (P : forall row, In row rows -> py_index (path row) t = Ok (nth (Z.to_nat q) (path row) zero)).
    { intros row Hr. unfold py_index. rewrite (Hp row Hr). fold q. destruct (Z.ltb_spec q 0); [lia|]. destruct (nth_error (path row) (Z.to_nat q)) as [x|] eqn:E.
      - f_equal. symmetry. apply nth_error_nth. exact E.
      - apply nth_error_None in E. rewrite (Hp row Hr) in E. lia. }
    assert (M : mapM (fun l => py_index l t) (map path rows) = Ok (map (fun row => nth (Z.to_nat q) (path row) zero) rows)).
    { clear Lr Hm Hf Hp. induction rows as [|row rows' IH]; [reflexivity|]. cbn [map mapM]. rewrite (P row (or_introl eq_refl)). cbn [bind]. rewrite IH by (intros r Hr; apply P; right; exact Hr). reflexivity. }
    rewrite M. split; [rewrite map_length; exact Lr|]. unfold column. rewrite (proj1 Hf). cbn [nth]. fold q. destruct (Z.leb_spec 0 q); [|lia]. destruct (Z.ltb_spec q (Z.of_nat c)); [|lia]. cbn [andb check].
    eexists. split; [reflexivity|]. split; [reflexivity|]. intros i Hi. cbn [get nth]. rewrite (proj2 Hf) by lia. cbn beta.
    rewrite (nth_indep (map (fun row => nth (Z.to_nat q) (path row) zero) rows) zero (nth (Z.to_nat q) (path []) zero)) by (rewrite map_length; lia). rewrite (map_nth (fun row => nth (Z.to_nat q) (path row) zero)). reflexivity.
  - destruct rows as [|row rows]; [cbn in Lr; lia|]. cbn [map mapM]. assert (E : py_index (path row) t = Err IndexError).
    { unfold py_index. rewrite (Hp row (or_introl eq_refl)). fold q. destruct (Z.ltb_spec q 0); [reflexivity|]. destruct (nth_error (path row) (Z.to_nat q)) as [x|] eqn:E; [|reflexivity].
      assert (Z.to_nat q < length (path row))%nat by (apply nth_error_Some; congruence). rewrite (Hp row (or_introl eq_refl)) in H0. lia. }
    rewrite E. cbn [bind]. unfold column. rewrite (proj1 Hf). cbn [nth]. fold q. destruct (Z.leb_spec 0 q); destruct (Z.ltb_spec q (Z.of_nat c)); cbn [andb check]; try reflexivity. lia.
Qed.

(** *** C106: the numpy program computes the cell-by-cell valuation, or fails exactly as it does *)
Theorem C106_refines spectral round9 as_int solve fs fsl params N Nsim2 c w rows :
  keeps_length spectral -> fs_array A fs fsl -> arr2_list A w Nsim2 c rows -> (1 <= Nsim2)%nat ->
  match mod_single_cohort_computation A spectral round9 as_int solve fsl params N rows with
  | Err e => single_cohort_arrays A spectral round9 as_int solve fs params N Nsim2 w = Err e
  | Ok m => exists o, single_cohort_arrays A spectral round9 as_int solve fs params N Nsim2 w = Ok o /\ agrees A o m Nsim2 (length fsl)
  end.
Proof.
  intros Hs Hfs Hw Hm. unfold mod_single_cohort_computation, single_cohort_arrays.
  destruct (read_param A params) as [p|e]; cbn [bind]; [|reflexivity]. cbv zeta.
  destruct (horizon A as_int N p) as [HN|e]; cbn [bind]; [|reflexivity].
  set (ival := nlog (p_bookF A p) ⊖ nlog (p_ltv A p)). set (sigf := nsqrt (p_rho A p) ⊗ p_sig A p). set (mu := solve _ _). set (F := p_bookF A p ⊗ nexp (mu ⊗ p_T A p)).
  assert (Lw := proj1 Hw). rewrite Lw. set (Nsim1 := (3 * length fsl)%nat).
  assert (L3 : length (fsl ++ fsl ++ fsl) = Nsim1) by (rewrite !app_length; unfold Nsim1; lia).
  destruct (fs_triple A _ _ Hfs) as (fs3 & -> & Hfs3). cbn [bind]. rewrite (fs_rows A _ _ Hfs), (fs_rows A _ _ Hfs3), L3.
  match goal with |- context [concat2 1 (full [Nsim2; 1]%nat zero) (cumsum1 A (amap ?h w))] => destruct (factor_matrix A h w Nsim2 c rows Hw) as (f & -> & Hf) end. cbn [bind].
  change (fun i t => nth t (zero :: np_cumsum A (map ?h (nth i rows []))) zero) with (fun i t => nth t (factor_path A p N (nth i rows [])) zero) in Hf.
  assert (Lp : forall row, In row rows -> length (factor_path A p N row) = S c).
  { intros row Hr. unfold factor_path. cbn [length]. rewrite np_cumsum_length, map_length. f_equal. apply (proj1 (proj2 Hw)), Hr. }
  assert (C1 := column_paths f Nsim2 (S c) rows (factor_path A p N) (Z.of_nat N) Lw Hm Lp Hf).
  destruct (mapM (fun f => py_index f (Z.of_nat N)) (map (factor_path A p N) rows)) as [f1|e]; cbn [bind]; [|rewrite C1; reflexivity].
  destruct C1 as (Lf1 & f1a & -> & Hf1). cbn [bind].
  destruct (fs_row (fun x => x ⊗ sigf ⊗ nsqrt (p_T A p)) _ _ Hfs3) as (fsa0 & E & Hfsa0). rewrite L3 in E, Hfsa0. rewrite E. cbn [bind]. clear E.
  unfold concat3. destruct (concat2_cols _ _ _ _ _ _ _ (full2 zero Nsim2 (length fsl)) (full2 one Nsim2 (length fsl))) as (b2 & -> & Hb2). cbn [bind].
  destruct (concat2_cols _ _ _ _ _ _ _ Hb2 (full2 (nopp one) Nsim2 (length fsl))) as (bumps & -> & Hbumps). cbn [bind].
  replace (length fsl + length fsl + length fsl)%nat with Nsim1 in Hbumps by (unfold Nsim1; lia).
  destruct (zip2_row nadd _ _ _ _ _ _ Hfsa0 (amap2 (fun x => sigf ⊘ ofZ 10 ⊗ x) _ _ _ _ Hbumps)) as (fsa & -> & Hfsa). cbn [bind].
  set (sh := fun k => nth k (fsl ++ fsl ++ fsl) zero ⊗ sigf ⊗ nsqrt (p_T A p) ⊕ sigf ⊘ ofZ 10 ⊗ (if Nat.ltb k (length fsl) then zero else if Nat.ltb k (2 * length fsl) then one else nopp one)).
  assert (Hsh : arr2 fsa Nsim2 Nsim1 (fun _ k => sh k)).
  { eapply ext2; [exact Hfsa|]. intros i k Hi Hk. cbn beta. unfold sh. f_equal. f_equal.
    destruct (Nat.ltb_spec k (length fsl)); destruct (Nat.ltb_spec k (length fsl + length fsl)); destruct (Nat.ltb_spec k (2 * length fsl)); try lia; reflexivity. }
  clear Hfsa Hbumps Hb2 Hfsa0 b2 bumps fsa0.
  destruct (to_column _ _ _ Hf1) as (f1c & -> & Hf1c). cbn [bind].
  destruct (zip2 nadd _ _ _ _ _ _ (tile_rows _ _ Nsim1 _ Hf1c) Hsh) as (f1j & -> & Hf1j). cbn [bind].
  assert (C2 := column_paths f Nsim2 (S c) rows (factor_path A p N) HN Lw Hm Lp Hf).
  destruct (mapM (fun f => py_index f HN) (map (factor_path A p N) rows)) as [fH|e]; cbn [bind]; [|rewrite C2; reflexivity].
  destruct C2 as (LfH & fHa & -> & HfH). cbn [bind]. destruct (to_column _ _ _ HfH) as (fHc & -> & HfHc). cbn [bind].
  destruct (zip2 nadd _ _ _ _ _ _ (tile_rows _ _ Nsim1 _ HfHc) Hsh) as (fHj & -> & HfHj). cbn [bind].
  assert (HL1 := amap2 (fun x => loan_payoff A F x ival (p_rho A p) (p_sig A p) (p_T A p)) _ _ _ _ Hf1j). cbn beta in HL1.
  assert (HFH := amap2 (fun x => nexp x ⊗ nexp (half ⊗ (one ⊖ p_rho A p) ⊗ p_H A p ⊗ nsq (p_sig A p))) _ _ _ _ (amap2 (fun x => x ⊕ ival) _ _ _ _ HfHj)). cbn beta in HFH.
  unfold loan_payoff_scalar. assert (SO := smooth_surface_ok spectral round9 _ _ _ _ _ _ Hs HFH HL1).
  match goal with |- context [smooth_by A round9 ?sm ?k ?v] => set (zs := smooth_by A round9 sm k v) end. change (smooth_by A round9 _ _ _) with zs in SO.
  destruct zs as [z|e]; cbn [bind]; [|rewrite SO; reflexivity]. destruct SO as (LH1 & -> & HLH1). cbn [bind].
  assert (Hone : arr2 (full (shape f1j) (one ⊗ F)) Nsim2 Nsim1 (fun _ _ => one ⊗ F)) by (rewrite (proj1 Hf1j); apply full2).
  exact (settle_ok A (p_r A p) (p_H A p) (p_D A p) (p_y A p) (p_g A p) mu F (length fsl) Nsim2 _ _ _ _ _ _ _ _
    (amap2 (fun x => x ⊗ nexp (nopp (p_r A p) ⊗ (p_T A p ⊖ p_H A p))) _ _ _ _ HLH1) HFH
    (amap2 (fun x => x ⊗ nexp (nopp (p_r A p) ⊗ (p_T A p ⊖ p_H A p))) _ _ _ _ Hone) (amap2 nexp _ _ _ _ (amap2 (fun x => x ⊕ ival) _ _ _ _ Hsh))).
Qed.

(** *** C106: shapes that do not fit *)
(** the number of paths in w is not Nsim2 *)
Theorem C106_wrong_rows spectral round9 as_int solve fs fsl params N Nsim2 m c w rows p HN :
  fs_array A fs fsl -> arr2_list A w m c rows -> m <> Nsim2 -> read_param A params = Ok p -> horizon A as_int N p = Ok HN ->
  single_cohort_arrays A spectral round9 as_int solve fs params N Nsim2 w = Err ValueError.
Proof.
  intros Hfs (_ & _ & Hw) Hm Hp Hh. unfold single_cohort_arrays. rewrite Hp. cbn [bind]. rewrite Hh. cbn [bind]. destruct (fs_triple A _ _ Hfs) as (fs3 & -> & Hfs3). cbn [bind].
  match goal with |- context [concat2 1 _ (cumsum1 A (amap ?h w))] => rewrite (concat2_cols_rows _ _ _ _ _ _ _ _ (full2 zero Nsim2 1) (cumsum2 A _ _ _ _ (amap2 h _ _ _ _ Hw))) by congruence end. reflexivity.
Qed.
(** fewer than N shocks per path *)
Theorem C106_few_shocks spectral round9 as_int solve fs fsl params N Nsim2 c w rows p HN :
  fs_array A fs fsl -> arr2_list A w Nsim2 c rows -> (c < N)%nat -> read_param A params = Ok p -> horizon A as_int N p = Ok HN ->
  single_cohort_arrays A spectral round9 as_int solve fs params N Nsim2 w = Err IndexError.
Proof.
  intros Hfs Hw Hc Hp Hh. unfold single_cohort_arrays. rewrite Hp. cbn [bind]. rewrite Hh. cbn [bind]. destruct (fs_triple A _ _ Hfs) as (fs3 & -> & Hfs3). cbn [bind].
  match goal with |- context [concat2 1 (full [Nsim2; 1]%nat zero) (cumsum1 A (amap ?h w))] => destruct (factor_matrix A h w Nsim2 c rows Hw) as (f & -> & Hf) end. cbn [bind].
  rewrite (column2_out f Nsim2 (S c) (Z.of_nat N) _ Hf) by lia. reflexivity.
Qed.
(** the shocks as a row instead of a column *)
Theorem C106_row_of_shocks spectral round9 as_int solve fs k g params N Nsim2 c w rows p HN :
  arr2 fs 1 k g -> k <> 1%nat -> arr2_list A w Nsim2 c rows -> (N <= c)%nat -> read_param A params = Ok p -> horizon A as_int N p = Ok HN ->
  single_cohort_arrays A spectral round9 as_int solve fs params N Nsim2 w = Err ValueError.
Proof.
  intros Hfs Hk Hw Hc Hp Hh. destruct (concat2_rows fs fs _ _ _ _ _ Hfs Hfs) as (b & E & Hb). destruct (concat2_rows b fs _ _ _ _ _ Hb Hfs) as (fs3 & E' & Hfs3).
  unfold single_cohort_arrays. rewrite Hp. cbn [bind]. rewrite Hh. cbn [bind]. unfold concat3 at 1. rewrite E. cbn [bind]. rewrite E'. cbn [bind].
  match goal with |- context [concat2 1 (full [Nsim2; 1]%nat zero) (cumsum1 A (amap ?h w))] => destruct (factor_matrix A h w Nsim2 c rows Hw) as (f & -> & Hf) end. cbn [bind].
  destruct (column2 f Nsim2 (S c) (Z.of_nat N) _ Hf) as (f1 & -> & _); [lia|]. cbn [bind].
  unfold reshape at 1. cbn [amap shape]. rewrite (proj1 Hfs3). cbn [nth size fold_right Nat.mul Nat.add].
  replace (3 =? _)%nat with false by (symmetry; apply Nat.eqb_neq; lia). reflexivity.
Qed.
(** no paths *)
Theorem C106_no_paths spectral round9 as_int solve fs fsl params N c w p HN :
  fs_array A fs fsl -> arr2_list A w 0 c [] -> (N <= c)%nat -> (0 <= HN <= Z.of_nat c)%Z -> read_param A params = Ok p -> horizon A as_int N p = Ok HN ->
  single_cohort_arrays A spectral round9 as_int solve fs params N 0 w = Err ValueError.
Proof.
  intros Hfs Hw Hc HHN Hp Hh. unfold single_cohort_arrays. rewrite Hp. cbn [bind]. rewrite Hh. cbn [bind].
  assert (L3 : length (fsl ++ fsl ++ fsl) = (3 * length fsl)%nat) by (rewrite !app_length; lia).
  destruct (fs_triple A _ _ Hfs) as (fs3 & -> & Hfs3). cbn [bind]. rewrite (fs_rows A _ _ Hfs), (fs_rows A _ _ Hfs3), L3.
  match goal with |- context [concat2 1 (full [0; 1]%nat zero) (cumsum1 A (amap ?h w))] => destruct (factor_matrix A h w 0 c [] Hw) as (f & -> & Hf) end. cbn [bind].
  destruct (column2 f 0 (S c) (Z.of_nat N) _ Hf) as (f1 & -> & Hf1); [lia|]. cbn [bind].
  match goal with |- context [reshape (amap ?h fs3) _] => destruct (fs_row h _ _ Hfs3) as (fsa0 & E & Hfsa0) end. rewrite L3 in E, Hfsa0. rewrite E. cbn [bind]. clear E.
  unfold concat3. destruct (concat2_cols _ _ _ _ _ _ _ (full2 zero 0 (length fsl)) (full2 one 0 (length fsl))) as (b2 & -> & Hb2). cbn [bind].
  destruct (concat2_cols _ _ _ _ _ _ _ Hb2 (full2 (nopp one) 0 (length fsl))) as (bumps & -> & Hbumps). cbn [bind].
  replace (length fsl + length fsl + length fsl)%nat with (3 * length fsl)%nat in Hbumps by lia.
  match goal with |- context [zip nadd fsa0 (amap ?h bumps)] => destruct (zip2_row nadd _ _ _ _ _ _ Hfsa0 (amap2 h _ _ _ _ Hbumps)) as (fsa & -> & Hfsa) end. cbn [bind].
  destruct (to_column _ _ _ Hf1) as (f1c & -> & Hf1c). cbn [bind].
  destruct (zip2 nadd _ _ _ _ _ _ (tile_rows _ _ (3 * length fsl) _ Hf1c) Hfsa) as (f1j & -> & Hf1j). cbn [bind].
  destruct (column2 f 0 (S c) HN _ Hf) as (fH & -> & HfH); [lia|]. cbn [bind]. destruct (to_column _ _ _ HfH) as (fHc & -> & HfHc). cbn [bind].
  destruct (zip2 nadd _ _ _ _ _ _ (tile_rows _ _ (3 * length fsl) _ HfHc) Hfsa) as (fHj & -> & HfHj). cbn [bind]. cbv zeta.
  match goal with |- context [smooth_surface A spectral round9 ?X ?Y 0 _] => assert (HX : shape X = [0; 3 * length fsl]%nat) by exact (proj1 HfHj); assert (HY : shape Y = [0; 3 * length fsl]%nat) by exact (proj1 Hf1j) end.
  unfold smooth_surface, flattenF1. rewrite HX, HY. unfold reshapeF at 1. rewrite HX. cbn [size fold_right Nat.mul Nat.eqb check bind].
  unfold reshapeF at 1. rewrite HY. cbn [size fold_right Nat.mul Nat.eqb check bind]. reflexivity.
Qed.
(** a negative horizon counts from the last period for which shocks are supplied *)
Theorem C106_negative_horizon spectral round9 as_int as_int' solve fs fsl params N Nsim2 c w rows p HN :
  keeps_length spectral -> fs_array A fs fsl -> arr2_list A w Nsim2 c rows -> (1 <= Nsim2)%nat -> read_param A params = Ok p ->
  horizon A as_int N p = Ok HN -> (- Z.of_nat (c + 1) <= HN < 0)%Z -> horizon A as_int' N p = Ok (Z.of_nat (c + 1) + HN)%Z ->
  single_cohort_arrays A spectral round9 as_int solve fs params N Nsim2 w = single_cohort_arrays A spectral round9 as_int' solve fs params N Nsim2 w.
Proof.
  intros Hs Hfs Hw Hm Hp Hh HHN Hh'. unfold single_cohort_arrays. rewrite Hp. cbn [bind]. rewrite Hh, Hh'. cbn [bind]. cbv zeta.
  destruct (fs_triple A _ _ Hfs) as (fs3 & -> & Hfs3). cbn [bind].
  match goal with |- context [concat2 1 (full [Nsim2; 1]%nat zero) (cumsum1 A (amap ?h w))] => destruct (factor_matrix A h w Nsim2 c rows Hw) as (f & -> & Hf) end. cbn [bind].
  assert (E : column f HN = column f (Z.of_nat (c + 1) + HN)).
  { unfold column. rewrite (proj1 Hf). cbn [nth]. destruct (Z.ltb_spec HN 0); [|lia]. destruct (Z.ltb_spec (Z.of_nat (c + 1) + HN) 0); [lia|]. replace (HN + Z.of_nat (S c))%Z with (Z.of_nat (c + 1) + HN)%Z by lia. reflexivity. }
  rewrite E. reflexivity.
Qed.

(** *** C106: only the shocks up to loan and debt maturity matter, so that the 3N periods drawn for a lookup table give what the N periods drawn by default give *)
Lemma path_at p N row t : py_index (factor_path A p N row) (Z.of_nat t) = if (t <=? length row)%nat then Ok (nth t (factor_path A p N row) zero) else Err IndexError.
Proof.
  assert (L : length (factor_path A p N row) = S (length row)) by (unfold factor_path; cbn [length]; rewrite np_cumsum_length, map_length; reflexivity).
  unfold py_index. destruct (Z.ltb_spec (Z.of_nat t) 0); [lia|]. destruct (Z.ltb_spec (Z.of_nat t) 0); [lia|]. rewrite Nat2Z.id. destruct (Nat.leb_spec t (length row)) as [H1|H1].
  - destruct (nth_error _ t) as [x|] eqn:E; [f_equal; symmetry; apply nth_error_nth, E|]. apply nth_error_None in E. lia.
  - destruct (nth_error _ t) as [x|] eqn:E; [|reflexivity]. assert (t < length (factor_path A p N row))%nat by (apply nth_error_Some; congruence). lia.
Qed.
Theorem C106_unused_shocks spectral round9 as_int solve fsl params N (rows rows' : list (list num)) p HN t :
  read_param A params = Ok p -> horizon A as_int N p = Ok (Z.of_nat HN) -> (N <= t)%nat -> (HN <= t)%nat ->
  Forall (fun row => t <= length row)%nat rows -> Forall (fun row => t <= length row)%nat rows' -> map (firstn t) rows = map (firstn t) rows' ->
  mod_single_cohort_computation A spectral round9 as_int solve fsl params N rows = mod_single_cohort_computation A spectral round9 as_int solve fsl params N rows'.
Proof.
  intros Hp Hh Ht1 Ht2 HF HF' E. unfold mod_single_cohort_computation. rewrite Hp. cbn [bind]. rewrite Hh. cbn [bind]. cbv zeta.
  assert (L : length rows = length rows') by (rewrite <- (map_length (firstn t) rows), E, map_length; reflexivity). rewrite L.
  assert (M : forall a, (a <= t)%nat -> mapM (fun f => py_index f (Z.of_nat a)) (map (factor_path A p N) rows) = mapM (fun f => py_index f (Z.of_nat a)) (map (factor_path A p N) rows')).
  { intros a Ha. clear L. revert rows' HF' E. induction rows as [|row rows IH]; intros [|row' rows'] HF' E; try discriminate; [reflexivity|]. cbn [map] in E. injection E as E1 E2.
    apply Forall_cons_iff in HF as (HR & HF). apply Forall_cons_iff in HF' as (HR' & HF'). cbn [map mapM]. rewrite (IH HF rows' HF' E2). rewrite !path_at.
    destruct (Nat.leb_spec a (length row)); [|lia]. destruct (Nat.leb_spec a (length row')); [|lia]. rewrite (path_prefix A _ row row' t a E1 Ha : nth a (factor_path A p N row) zero = nth a (factor_path A p N row') zero). reflexivity. }
  rewrite !M by lia. reflexivity.
Qed.
Theorem C106_drawn_shocks spectral round9 as_int solve fsl params N invcdf u Nsim2 more p HN :
  read_param A params = Ok p -> horizon A as_int N p = Ok (Z.of_nat HN) -> (HN <= N)%nat ->
  mod_single_cohort_computation A spectral round9 as_int solve fsl params N (drawn_shocks A invcdf u Nsim2 (N + more)) =
  mod_single_cohort_computation A spectral round9 as_int solve fsl params N (drawn_shocks A invcdf u Nsim2 N).
Proof.
  intros Hp Hh HHN.
  assert (D : forall n, drawn_shocks A invcdf u Nsim2 n = map (fun i => map (fun t => invcdf (u (t * Nsim2 + i)%nat)) (seq 0 n)) (seq 0 Nsim2)).
  { intros n. unfold drawn_shocks, transpose, np_rand. rewrite map_map. apply map_ext_in. intros i Hi. apply in_seq in Hi. rewrite map_map. apply map_ext_in. intros t Ht. apply in_seq in Ht. f_equal.
    rewrite nth_map_seq by lia. rewrite nth_map_seq by lia. reflexivity. }
  apply (C106_unused_shocks _ _ _ _ _ _ _ _ _ p HN N Hp Hh (le_n N) HHN); rewrite ?D.
  - apply Forall_forall. intros row Hr. apply in_map_iff in Hr. destruct Hr as (i & <- & _). rewrite map_length, seq_length. lia.
  - apply Forall_forall. intros row Hr. apply in_map_iff in Hr. destruct Hr as (i & <- & _). rewrite map_length, seq_length. lia.
  - rewrite !map_map. apply map_ext. intros i. rewrite seq_app, map_app. rewrite !firstn_app, !map_length, !seq_length, Nat.sub_diag. cbn [firstn]. rewrite app_nil_r. reflexivity.
Qed.
End Refinement.

(** a concrete call: two paths of two shocks, one state, horizon one of two periods *)
Example C106_case : let fs : nd (num XRA) := vec (Fin 0) [Fin 0] in
  let rows := [[Fin 1; Fin 2]; [Fin 6; Fin 7]] : list (list (num XRA)) in
  let w : nd (num XRA) := mkNd [2; 2] (fun idx => nth (nth 1 idx 0) (nth (nth 0 idx 0) rows []) (Fin 0)) in
  let params := map Fin [1/100; 2; 7/10; 1; 6/10; 1/2; 6/10; 2/10; 1/200; 2/1000; 1/2]%R : list (num XRA) in
  let call := mod_single_cohort_computation XRA (fun x _ => x) (fun x => x) (fun _ => Some 1%Z) (fun _ x => x) [Fin 0] params 2 rows in
  keeps_length XRA (fun x _ => x) /\ fs_array XRA fs [Fin 0] /\ arr2_list XRA w 2 2 rows /\ (exists p, read_param XRA params = Ok p /\ horizon XRA (fun _ => Some 1%Z) 2 p = Ok 1%Z) /\ exists m, call = Ok m.
Proof.
  cbv zeta. split; [intros x k _; reflexivity|]. split; [left; split; [reflexivity|]; intros; reflexivity|]. split.
  - split; [reflexivity|]. split; [intros row [<-|[<-|[]]]; reflexivity|]. split; reflexivity.
  - assert (E : (@neqb XRA (Fin 2) (Fin 0)) = false) by (cbn [neqb XRA xeqb]; destruct (Req_EM_T 2 0); [lra|reflexivity]).
    split.
    + eexists. split; [reflexivity|]. unfold horizon. cbn [p_T]. change (@ofZ XRA 0) with (Fin 0). rewrite E. reflexivity.
    + unfold mod_single_cohort_computation. cbn [map read_param bind]. unfold horizon at 1. cbn [p_T]. change (@ofZ XRA 0) with (Fin 0). rewrite E. cbn [bind]. cbv zeta.
      cbn [length map seq Nat.mul Nat.add]. 
      cbn [map mapM]. rewrite !(path_at XRA _ _ _ 2). change 1%Z with (Z.of_nat 1). rewrite !(path_at XRA _ _ _ 1). cbn [length Nat.leb bind].
      replace (6 / 20) with 0 by reflexivity.
      match goal with |- context [smooth_by XRA ?r ?sm ?k ?v] => destruct (smooth_six k v eq_refl) as (s0 & ->) end. cbn [bind].
      eexists. reflexivity.
Qed.
