(** * Theorems: absorption ratio (C32-C34) *)
From Coq Require Import Reals Lra ZArith List Bool Arith Lia Permutation Sorted.
From Verif Require Import Arith XR RealAux Model_garch Model_measures Proofs_measures Proofs_garch3 Model_dip Props_dip Model_ar.
Import ListNotations.
Local Open Scope R_scope.

(** ** Specification *)
(** Sample covariance of two return series. *)
Definition covar (x y : list R) : R :=
  Rsum (map2 (fun a b => (a - Rmean x) * (b - Rmean y)) x y) / (INR (length x) - 1).
Definition total_variance (X : list (list R)) : R := Rsum (map (fun x => covar x x) X).
(** [n]-vectors are functions on indices below [n]; the inner product. *)
Definition inner (n : nat) (v w : nat -> R) : R := Rsum (map (fun i => v i * w i) (seq 0 n)).
Definition delta (i j : nat) : R := if Nat.eqb i j then 1 else 0.
(** [ev] lists the spectrum of the real symmetric [n] x [n] matrix [C]: there is an orthogonal matrix of
    eigenvectors (its rows are orthonormal and so are its columns) with these eigenvalues. *)
Definition spectrum (n : nat) (C : nat -> nat -> R) (ev : list R) : Prop :=
  length ev = n /\
  exists V : nat -> nat -> R,
    (forall k l, (k < n)%nat -> (l < n)%nat -> inner n (V k) (V l) = delta k l) /\
    (forall i j, (i < n)%nat -> (j < n)%nat -> inner n (fun k => V k i) (fun k => V k j) = delta i j) /\
    (forall k i, (k < n)%nat -> (i < n)%nat -> inner n (C i) (V k) = nth k ev 0 * V k i).
Definition covmat (X : list (list R)) (i j : nat) : R := covar (nth i X []) (nth j X []).
(** Rounding half away from zero (decimal's ROUND_HALF_UP). *)
Definition Rhalf_up (r : R) : Z := if Rle_dec 0 r then Rfloor (r + 1/2) else (- Rfloor (- r + 1/2))%Z.
Definition xround (x : xr) : res Z := match x with Fin r => Ok (Rhalf_up r) | NaN => Err ValueError | _ => Err OverflowError end.
(** Sum of the [k] largest elements. *)
Definition top_sum (k : nat) (l : list R) : R := Rsum (skipn (length l - k) (sortR l)).
(** The eigenvalue routine returns the spectrum of the covariance matrix of [X]. *)
Definition returns_spectrum (er : list (list xr) -> res (list xr)) (X : list (list R)) (ev : list R) : Prop :=
  er (map (fun x => map (fun y => Fin (covar x y)) X) X) = Ok (map Fin ev) /\ spectrum (length X) (covmat X) ev.
Definition returns_matrix (X : list (list R)) (T : nat) : Prop :=
  (2 <= length X)%nat /\ (2 <= T)%nat /\ (forall x, In x X -> length x = T).
Definition absorption (er : list (list xr) -> res (list xr)) (X : list (list R)) (f : R) : res xr :=
  snd (estimate_ar XRA xround er (new_AR XRA (map (map Fin) X)) (Fin f)).

(** ** Proofs *)
Lemma demeaned_fin x : x <> [] -> demeaned XRA (map Fin x) = map Fin (map (fun a => a - Rmean x) x).
Proof.
  intros H. unfold demeaned. rewrite amean_fin by auto. rewrite !map_map. apply map_ext. intros a. cbn. f_equal. 
Qed.
Lemma np_cov_fin X T : returns_matrix X T ->
  np_cov XRA (map (map Fin) X) = map (fun x => map (fun y => Fin (covar x y)) X) X.
Proof.
  intros (Hn & HT & HX). unfold np_cov. rewrite !map_map.
  assert (HD : n_days XRA (map (map Fin) X) = T).
  { destruct X as [|x X']; cbn in *; [lia|]. rewrite map_length. apply HX. auto. }
  rewrite HD. apply map_ext_in. intros x Hx. rewrite map_map. apply map_ext_in. intros y Hy.
  assert (Nx : x <> []) by (intros ->; specialize (HX _ Hx); cbn in HX; lia).
  assert (Ny : y <> []) by (intros ->; specialize (HX _ Hy); cbn in HX; lia).
  rewrite !demeaned_fin by auto. rewrite map2_map. rewrite map2_map.
  replace (map2 (fun a b => nmul (a:=XRA) (Fin (a - Rmean x)) (Fin (b - Rmean y))) x y)
     with (map Fin (map2 (fun a b => (a - Rmean x) * (b - Rmean y)) x y)) by (rewrite map_map2; reflexivity).
  rewrite asum_fin. cbn [nmul ndiv XRA ofZ].
  replace (Z.max 0 (Z.of_nat T - 1)) with (Z.of_nat T - 1)%Z by lia.
  assert (HP : 1 < INR T) by (apply (lt_INR 1); lia).
  rewrite minus_IZR, <- INR_IZR_INZ. rewrite xdiv_fin by lra. cbn [xmul]. f_equal. unfold covar. rewrite (HX x Hx). field. lra.
Qed.
Lemma trace_fin X T : returns_matrix X T ->
  trace XRA (map (fun x => map (fun y => Fin (covar x y)) X) X) = Fin (total_variance X).
Proof.
  intros (Hn & HT & HX). unfold trace. rewrite map_length. unfold total_variance. rewrite <- (asum_fin). f_equal.
  rewrite map_map. etransitivity; [|apply (map_seq_nth (fun x => Fin (covar x x)) X [])]. apply map_ext_in. intros i Hi. apply in_seq in Hi.
  rewrite (nth_indep _ _ (map (fun y => Fin (covar [] y)) X)) by (rewrite map_length; lia).
  rewrite (map_nth (fun x => map (fun y => Fin (covar x y)) X)).
  rewrite (nth_indep _ _ (Fin (covar (nth i X []) []))) by (rewrite map_length; lia).
  rewrite (map_nth (fun y => Fin (covar (nth i X []) y))). reflexivity.
Qed.

Definition used (n : nat) (k : Z) : nat :=
  if (k <? 0)%Z then 0 else if (k <=? Z.of_nat n)%Z then Z.to_nat k else Nat.min n (Z.to_nat (k - Z.of_nat n)).
Lemma slice_used (l : list R) k : Rsum (skipn (length l - used (length l) k) l) =
   fin_val (pysum XRA (python_slice_from XRA (map Fin l) (Z.of_nat (length l) - k))) /\
   pysum XRA (python_slice_from XRA (map Fin l) (Z.of_nat (length l) - k)) = Fin (Rsum (skipn (length l - used (length l) k) l)).
Proof.
  assert (E : pysum XRA (python_slice_from XRA (map Fin l) (Z.of_nat (length l) - k)) = Fin (Rsum (skipn (length l - used (length l) k) l))).
  { unfold python_slice_from. rewrite skipn_map. rewrite pysum_fin. f_equal. f_equal. rewrite map_length.
    unfold used. destruct (Z.ltb_spec (Z.of_nat (length l) - k) 0) as [H|H].
    - destruct (Z.ltb_spec k 0); [lia|]. destruct (Z.leb_spec k (Z.of_nat (length l))); [lia|]. f_equal. lia.
    - destruct (Z.ltb_spec k 0).
      + rewrite skipn_all2 by lia. rewrite skipn_all2 by lia. reflexivity.
      + destruct (Z.leb_spec k (Z.of_nat (length l))); [|lia]. f_equal. lia. }
  rewrite E. split; reflexivity.
Qed.

Lemma isort_length_fin ev : length (isort XRA (map Fin ev)) = length ev.
Proof. rewrite isort_fin, map_length. apply sortR_length. Qed.

Lemma length_cov X : length (map (fun x => map (fun y => Fin (covar x y)) X) X) = length X.
Proof. apply map_length. Qed.

Lemma absorption_formula er X T ev f : returns_matrix X T -> returns_spectrum er X ev ->
  absorption er X f =
  Ok (xdiv (Fin (top_sum (used (length X) (Rhalf_up (f * INR (length X)))) ev)) (Fin (total_variance X))).
Proof.
  intros HX [He [Hl Hs]]. unfold absorption, estimate_ar, eigvals, asset_covariance, new_AR.
  cbn [asset_returns cov_cache eig_cache]. rewrite (np_cov_fin X T HX). rewrite length_cov.
  assert (H2 : (2 <= length X)%nat) by apply HX.
  destruct (Nat.eqb_spec (length X) 1); [lia|]. change (num XRA) with xr in *. rewrite He. cbn [asset_returns cov_cache eig_cache snd].
  rewrite map_length. change (nmul (a:=XRA) (Fin f) (ofZ (a:=XRA) (Z.of_nat (length X)))) with (Fin (f * IZR (Z.of_nat (length X)))).
  rewrite <- INR_IZR_INZ. cbn [xround snd]. rewrite (trace_fin X T HX).
  f_equal. change (ndiv (a:=XRA)) with xdiv. f_equal.
  rewrite isort_fin, map_length. rewrite (proj2 (slice_used (sortR ev) _)).
  unfold top_sum. rewrite !sortR_length, Hl. reflexivity.
Qed.

(** *** Linear algebra *)
Lemma inner_comm n v w : inner n v w = inner n w v.
Proof. unfold inner. apply Rsum_map_ext. intros; ring. Qed.
Lemma inner_ext n v w v' w' : (forall i, (i < n)%nat -> v i = v' i) -> (forall i, (i < n)%nat -> w i = w' i) -> inner n v w = inner n v' w'.
Proof. intros H H'. unfold inner. apply Rsum_map_ext. intros i Hi. apply in_seq in Hi. rewrite H, H' by lia. reflexivity. Qed.
Lemma inner_scal n c v w : inner n (fun i => c * v i) w = c * inner n v w.
Proof. unfold inner. rewrite <- Rsum_mult_l. apply Rsum_map_ext. intros; ring. Qed.
Lemma Rsum_delta (g : nat -> R) n i : (i < n)%nat -> Rsum (map (fun j => delta i j * g j) (seq 0 n)) = g i.
Proof.
  intros H. replace n with (i + S (n - S i))%nat by lia. rewrite seq_app, map_app, Rsum_app. cbn [seq map Rsum Nat.add].
  unfold delta at 2. rewrite Nat.eqb_refl.
  rewrite (Rsum_map_ext _ (fun _ => 0) (seq 0 i)), (Rsum_map_ext _ (fun _ => 0) (seq (S i) _)).
  - rewrite !Rsum_const. ring.
  - intros j Hj. apply in_seq in Hj. unfold delta. destruct (Nat.eqb_spec i j); [lia|ring].
  - intros j Hj. apply in_seq in Hj. unfold delta. destruct (Nat.eqb_spec i j); [lia|ring].
Qed.
(** Eigenpairs, as a list whose order may be changed. *)
Definition pairs_ok (n : nat) (C : nat -> nat -> R) (ps : list (R * (nat -> R))) : Prop :=
  length ps = n /\
  (forall p, In p ps -> inner n (snd p) (snd p) = 1) /\
  (forall i j, (i < n)%nat -> (j < n)%nat -> Rsum (map (fun p => snd p i * snd p j) ps) = delta i j) /\
  (forall p i, In p ps -> (i < n)%nat -> inner n (C i) (snd p) = fst p * snd p i).
Lemma spectrum_pairs n C ev : spectrum n C ev -> exists ps, map fst ps = ev /\ pairs_ok n C ps.
Proof.
  intros [Hl (V & HO & HC & HE)]. exists (map (fun k => (nth k ev 0, V k)) (seq 0 n)). split; [|split; [|split; [|split]]].
  - rewrite map_map. cbn [fst]. rewrite <- Hl. rewrite (map_seq_nth (fun x => x)). apply map_id.
  - rewrite map_length, seq_length. reflexivity.
  - intros p Hp. apply in_map_iff in Hp. destruct Hp as (k & <- & Hk). apply in_seq in Hk. cbn [snd].
    rewrite HO by lia. unfold delta. rewrite Nat.eqb_refl. reflexivity.
  - intros i j Hi Hj. rewrite map_map. cbn [snd]. apply (HC i j Hi Hj).
  - intros p i Hp Hi. apply in_map_iff in Hp. destruct Hp as (k & <- & Hk). apply in_seq in Hk. cbn [snd fst]. apply HE; lia.
Qed.
Lemma pairs_perm n C ps ps' : Permutation ps ps' -> pairs_ok n C ps -> pairs_ok n C ps'.
Proof.
  intros HP (H0 & H1 & H2 & H3). split; [|split; [|split]].
  - rewrite <- (Permutation_length HP). auto.
  - intros p Hp. apply H1. eapply Permutation_in; [symmetry; eauto|auto].
  - intros i j Hi Hj. rewrite <- (H2 i j Hi Hj). apply Rsum_perm. apply Permutation_map. symmetry; auto.
  - intros p i Hp. apply H3. eapply Permutation_in; [symmetry; eauto|auto].
Qed.
Lemma sorted_pairs n C ev : spectrum n C ev -> exists ps, map fst ps = sortR ev /\ pairs_ok n C ps.
Proof.
  intros H. destruct (spectrum_pairs _ _ _ H) as (ps & Hf & Hp).
  assert (P : Permutation (sortR ev) (map fst ps)) by (rewrite Hf; symmetry; apply sortR_perm).
  apply Permutation_map_inv in P. destruct P as (ps' & E & P'). exists ps'. split; [auto|]. eapply pairs_perm; eauto.
Qed.
(** Parseval: completeness of a family turns inner products into sums. *)
Lemma parseval n C ps v w : pairs_ok n C ps ->
  Rsum (map (fun p => inner n v (snd p) * inner n w (snd p)) ps) = inner n v w.
Proof.
  intros (H0 & H1 & H2 & H3).
  rewrite (Rsum_map_ext _ (fun p => Rsum (map (fun i => Rsum (map (fun j => v i * w j * (snd p i * snd p j)) (seq 0 n))) (seq 0 n)))).
  - rewrite (Rsum_swap (fun p i => Rsum (map (fun j => v i * w j * (snd p i * snd p j)) (seq 0 n)))).
    unfold inner. apply Rsum_map_ext. intros i Hi. apply in_seq in Hi.
    rewrite (Rsum_swap (fun p j => v i * w j * (snd p i * snd p j))).
    rewrite (Rsum_map_ext _ (fun j => delta i j * (v i * w j))).
    + apply (Rsum_delta (fun j => v i * w j)). lia.
    + intros j Hj. apply in_seq in Hj. rewrite <- (H2 i j) by lia. rewrite Rsum_mult_l. ring.
  - intros p Hp. unfold inner at 1. rewrite <- Rsum_scal_r, map_map. apply Rsum_map_ext. intros i Hi.
    unfold inner. rewrite <- Rsum_mult_l. apply Rsum_map_ext. intros; ring.
Qed.
Lemma trace_pairs n C ps : pairs_ok n C ps -> Rsum (map fst ps) = Rsum (map (fun i => C i i) (seq 0 n)).
Proof.
  intros HP. assert (HP' := HP). destruct HP' as (H0 & H1 & H2 & H3).
  rewrite (Rsum_map_ext _ (fun p => Rsum (map (fun i => inner n (C i) (snd p) * snd p i) (seq 0 n)))).
  - rewrite (Rsum_swap (fun p i => inner n (C i) (snd p) * snd p i)). apply Rsum_map_ext. intros i Hi. apply in_seq in Hi.
    rewrite (Rsum_map_ext _ (fun p => inner n (C i) (snd p) * inner n (delta i) (snd p))).
    + rewrite (parseval n C ps _ _ HP). rewrite inner_comm. apply (Rsum_delta (C i)). lia.
    + intros p Hp. f_equal. symmetry. apply (Rsum_delta (snd p)). lia.
  - intros p Hp. rewrite <- (Rmult_1_r (fst p)), <- (H1 p Hp). unfold inner at 1. rewrite <- Rsum_mult_l.
    apply Rsum_map_ext. intros i Hi. apply in_seq in Hi. rewrite (H3 p i Hp) by lia. ring.
Qed.
Definition quad n (C : nat -> nat -> R) (v : nat -> R) : R := inner n v (fun i => inner n (C i) v).
Lemma eig_quad n C ps p : pairs_ok n C ps -> In p ps -> fst p = quad n C (snd p).
Proof.
  intros (H0 & H1 & H2 & H3) Hp. unfold quad. rewrite (inner_ext n _ _ (snd p) (fun i => fst p * snd p i)); [|reflexivity|intros; apply H3; auto].
  rewrite inner_comm, inner_scal, H1 by auto. ring.
Qed.
(** the quadratic form in the other eigenbasis *)
Lemma quad_basis n C qs v : (forall i j, (i < n)%nat -> (j < n)%nat -> C i j = C j i) -> pairs_ok n C qs ->
  quad n C v = Rsum (map (fun q => inner n v (snd q) * inner n v (snd q) * fst q) qs).
Proof.
  intros HS HQ. unfold quad. rewrite <- (parseval n C qs _ _ HQ). apply Rsum_map_ext. intros q Hq.
  rewrite (Rmult_assoc _ _ (fst q)). f_equal.
  (* <C v, w> = <v, C w> *)
  unfold inner at 1. rewrite (Rsum_map_ext _ (fun i => Rsum (map (fun j => C i j * v j * snd q i) (seq 0 n)))).
  - rewrite (Rsum_swap (fun i j => C i j * v j * snd q i)).
    rewrite Rmult_comm. unfold inner. rewrite <- Rsum_mult_l. apply Rsum_map_ext. intros j Hj. apply in_seq in Hj.
    destruct HQ as (H0 & H1 & H2 & H3).
    transitivity (v j * (fst q * snd q j)); [|ring]. rewrite <- (H3 q j Hq) by lia. unfold inner. rewrite <- Rsum_mult_l.
    apply Rsum_map_ext. intros i Hi. apply in_seq in Hi. rewrite (HS i j) by lia. ring.
  - intros i Hi. unfold inner. rewrite <- Rsum_scal_r, map_map. apply Rsum_map_ext. intros; ring.
Qed.

(** Weights in [0,1] with total [k] cannot beat the [k] largest values. *)
Lemma sorted_split (l : list R) m : StronglySorted Rle l -> exists t,
  (forall x, In x (firstn m l) -> x <= t) /\ (forall x, In x (skipn m l) -> t <= x).
Proof.
  intros H. destruct (le_lt_dec (length l) m) as [Hm|Hm].
  - rewrite skipn_all2, firstn_all2 by lia. clear Hm. induction H as [|x l H IH HF].
    + exists 0. split; intros ? [].
    + destruct IH as (t & Ht & _). exists (Rmax x t). split; [|intros ? []]. intros y [<-|Hy]; [apply Rmax_l|].
      eapply Rle_trans; [apply Ht; auto|apply Rmax_r].
  - exists (nth m l 0). split.
    + intros x Hx. apply In_nth with (d:=0) in Hx. destruct Hx as (i & Hi & <-). rewrite firstn_length in Hi.
      assert (E : nth i (firstn m l) 0 = nth i l 0).
      { rewrite <- (firstn_skipn m l) at 2. rewrite app_nth1; [reflexivity|rewrite firstn_length; lia]. }
      rewrite E. apply sorted_nth_le; auto; lia.
    + intros x Hx. apply In_nth with (d:=0) in Hx. destruct Hx as (i & Hi & <-). rewrite skipn_length in Hi.
      assert (E : nth i (skipn m l) 0 = nth (m + i) l 0).
      { rewrite <- (firstn_skipn m l) at 2. rewrite app_nth2; [f_equal|]; rewrite firstn_length; lia. }
      rewrite E. apply sorted_nth_le; auto; lia.
Qed.
Lemma weighted_le {X} (xs : list X) (w val : X -> R) k : (k <= length xs)%nat ->
  StronglySorted Rle (map val xs) -> (forall x, In x xs -> 0 <= w x <= 1) -> Rsum (map w xs) = INR k ->
  Rsum (map (fun x => w x * val x) xs) <= Rsum (skipn (length xs - k) (map val xs)).
Proof.
  intros Hk HS Hw Hsum. set (m := (length xs - k)%nat).
  destruct (sorted_split _ m HS) as (t & Ht1 & Ht2). rewrite firstn_map in Ht1. rewrite skipn_map in Ht2 |- *.
  rewrite <- (firstn_skipn m xs) in Hsum, Hw |- * at 1. 
  rewrite !map_app, !Rsum_app in *.
  set (a := firstn m xs) in *. set (b := skipn m xs) in *.
  assert (Lb : INR (length b) = INR k) by (unfold b, m; rewrite skipn_length; f_equal; lia).
  assert (A1 : Rsum (map (fun x => w x * val x) a) <= t * Rsum (map w a)).
  { rewrite <- Rsum_mult_l. apply Rsum_le. intros x Hx. rewrite (Rmult_comm t). apply Rmult_le_compat_l.
    - apply Hw. apply in_or_app; auto.
    - apply Ht1, in_map; auto. }
  assert (A2 : Rsum (map (fun x => t * (1 - w x)) b) <= Rsum (map (fun x => val x - w x * val x) b)).
  { apply Rsum_le. intros x Hx. replace (val x - w x * val x) with (val x * (1 - w x)) by ring.
    apply Rmult_le_compat_r.
    - assert (Hx' := Hw x (in_or_app _ _ _ (or_intror Hx))). lra.
    - apply Ht2, in_map; auto. }
  rewrite Rsum_minus in A2. rewrite Rsum_mult_l in A2. rewrite Rsum_minus in A2. rewrite Rsum_const in A2. rewrite Lb in A2.
  assert (E : t * Rsum (map w a) = t * INR k * 1 - t * Rsum (map w b)) by (rewrite <- Hsum; ring). lra.
Qed.

Lemma skipn_In {X} m (l : list X) x : In x (skipn m l) -> In x l.
Proof. intros H. rewrite <- (firstn_skipn m l). apply in_or_app; auto. Qed.
Lemma top_le n C ev ev' k : (k <= n)%nat -> (forall i j, (i < n)%nat -> (j < n)%nat -> C i j = C j i) ->
  spectrum n C ev -> spectrum n C ev' -> top_sum k ev <= top_sum k ev'.
Proof.
  intros Hk HS H H'.
  destruct (sorted_pairs _ _ _ H) as (ps & Ef & HP). destruct (sorted_pairs _ _ _ H') as (qs & Eq & HQ).
  assert (Lp := proj1 HP). assert (Lq := proj1 HQ).
  unfold top_sum. rewrite (proj1 H), (proj1 H'). rewrite <- Ef, <- Eq. rewrite skipn_map.
  set (top := skipn (n - k) ps).
  assert (Ht : forall p, In p top -> In p ps) by (intros p; apply skipn_In).
  rewrite (Rsum_map_ext _ (fun p => Rsum (map (fun q => inner n (snd p) (snd q) * inner n (snd p) (snd q) * fst q) qs))).
  2:{ intros p Hp. rewrite (eig_quad n C ps p HP (Ht p Hp)). apply quad_basis; auto. }
  rewrite (Rsum_swap (fun p q => inner n (snd p) (snd q) * inner n (snd p) (snd q) * fst q)).
  set (w := fun q : R * (nat -> R) => Rsum (map (fun p => inner n (snd p) (snd q) * inner n (snd p) (snd q)) top)).
  rewrite (Rsum_map_ext _ (fun q => w q * fst q)).
  2:{ intros q Hq. unfold w. rewrite <- Rsum_scal_r, map_map. reflexivity. }
  rewrite <- Lq. apply weighted_le.
  - lia.
  - rewrite Eq. apply sortR_sorted.
  - intros q Hq. split.
    + unfold w. apply Rsum_nonneg. intros x Hx. apply in_map_iff in Hx. destruct Hx as (p & <- & _). apply sqr_nonneg.
    + destruct HQ as (_ & H1 & _). rewrite <- (H1 q Hq). rewrite <- (parseval n C ps (snd q) (snd q) HP).
      rewrite <- (firstn_skipn (n - k) ps). rewrite map_app, Rsum_app. fold top.
      assert (A0 : 0 <= Rsum (map (fun p => inner n (snd q) (snd p) * inner n (snd q) (snd p)) (firstn (n - k) ps))).
      { apply Rsum_nonneg. intros x Hx. apply in_map_iff in Hx. destruct Hx as (p & <- & _). apply sqr_nonneg. }
      assert (E : w q = Rsum (map (fun p => inner n (snd q) (snd p) * inner n (snd q) (snd p)) top)).
      { unfold w. apply Rsum_map_ext. intros p Hp. rewrite (inner_comm n (snd q)). reflexivity. }
      lra.
  - unfold w. rewrite (Rsum_swap (fun q p => inner n (snd p) (snd q) * inner n (snd p) (snd q))).
    rewrite (Rsum_map_ext _ (fun _ => 1)).
    + rewrite Rsum_const. unfold top. rewrite skipn_length. rewrite Rmult_1_r. f_equal. lia.
    + intros p Hp. rewrite (parseval n C qs _ _ HQ). destruct HP as (_ & H1 & _). apply H1. auto.
Qed.
Lemma top_unique n C ev ev' k : (k <= n)%nat -> (forall i j, (i < n)%nat -> (j < n)%nat -> C i j = C j i) ->
  spectrum n C ev -> spectrum n C ev' -> top_sum k ev = top_sum k ev'.
Proof. intros. apply Rle_antisym; eapply top_le; eauto. Qed.

(** Covariance matrices. *)
Lemma map2_seq {X Y Z} (f : X -> Y -> Z) l m dx dy : length l = length m ->
  map2 f l m = map (fun t => f (nth t l dx) (nth t m dy)) (seq 0 (length l)).
Proof.
  revert m. induction l as [|x l IH]; intros [|y m] H; cbn in *; try discriminate; [reflexivity|].
  f_equal. rewrite <- seq_shift, map_map. apply IH. lia.
Qed.
Lemma covar_seq x y T : length x = T -> length y = T ->
  covar x y = Rsum (map (fun t => (nth t x 0 - Rmean x) * (nth t y 0 - Rmean y)) (seq 0 T)) / (INR T - 1).
Proof. intros Hx Hy. unfold covar. rewrite (map2_seq _ x y 0 0) by lia. rewrite Hx. reflexivity. Qed.
Lemma covmat_sym X T : returns_matrix X T -> forall i j, (i < length X)%nat -> (j < length X)%nat -> covmat X i j = covmat X j i.
Proof.
  intros (_ & _ & HX) i j Hi Hj. unfold covmat. rewrite (covar_seq _ _ T), (covar_seq (nth j X []) _ T) by (apply HX, nth_In; auto).
  f_equal. apply Rsum_map_ext. intros; ring.
Qed.
Lemma covmat_psd X T v : returns_matrix X T -> 0 <= quad (length X) (covmat X) v.
Proof.
  intros (_ & HT & HX). set (n := length X).
  set (d := fun i t => nth t (nth i X []) 0 - Rmean (nth i X [])).
  assert (HP : 1 < INR T) by (apply (lt_INR 1); lia).
  assert (E : quad n (covmat X) v = / (INR T - 1) * Rsum (map (fun t => inner n v (fun i => d i t) * inner n v (fun i => d i t)) (seq 0 T))).
  { unfold quad, inner at 1.
    rewrite (Rsum_map_ext _ (fun i => Rsum (map (fun j => Rsum (map (fun t => / (INR T - 1) * (v i * d i t * (v j * d j t))) (seq 0 T))) (seq 0 n)))).
    - rewrite <- Rsum_mult_l.
      rewrite (Rsum_map_ext _ (fun i => Rsum (map (fun t => Rsum (map (fun j => / (INR T - 1) * (v i * d i t * (v j * d j t))) (seq 0 n))) (seq 0 T)))).
      2:{ intros i _. apply (Rsum_swap (fun j t => / (INR T - 1) * (v i * d i t * (v j * d j t)))). }
      rewrite (Rsum_swap (fun i t => Rsum (map (fun j => / (INR T - 1) * (v i * d i t * (v j * d j t))) (seq 0 n)))).
      apply Rsum_map_ext. intros t _. unfold inner at 1. rewrite <- Rsum_scal_r, map_map, <- Rsum_mult_l.
      apply Rsum_map_ext. intros i _. unfold inner. rewrite <- Rmult_assoc, <- Rsum_mult_l. apply Rsum_map_ext. intros; ring.
    - intros i Hi. apply in_seq in Hi. unfold inner. rewrite <- Rsum_mult_l. apply Rsum_map_ext. intros j Hj. apply in_seq in Hj.
      unfold covmat. rewrite (covar_seq _ _ T) by (apply HX, nth_In; unfold n in *; lia).
      unfold Rdiv. rewrite (Rmult_comm (Rsum _)). rewrite (Rmult_assoc (/ _)). rewrite <- Rsum_scal_r, map_map.
      rewrite (Rmult_comm (v i)). rewrite Rmult_assoc. rewrite <- Rsum_scal_r, map_map, <- Rsum_mult_l. apply Rsum_map_ext. intros t _. unfold d. ring. }
  rewrite E. apply Rmult_le_pos.
  - left. apply Rinv_0_lt_compat. lra.
  - apply Rsum_nonneg. intros x Hx. apply in_map_iff in Hx. destruct Hx as (t & <- & _). apply sqr_nonneg.
Qed.
Lemma eig_nonneg X T ev : returns_matrix X T -> spectrum (length X) (covmat X) ev -> forall x, In x ev -> 0 <= x.
Proof.
  intros HX H x Hx. destruct (spectrum_pairs _ _ _ H) as (ps & <- & HP). apply in_map_iff in Hx. destruct Hx as (p & <- & Hp).
  rewrite (eig_quad _ _ _ _ HP Hp). eapply covmat_psd; eauto.
Qed.
Lemma eig_sum X ev : spectrum (length X) (covmat X) ev -> Rsum ev = total_variance X.
Proof.
  intros H. destruct (spectrum_pairs _ _ _ H) as (ps & <- & HP). rewrite (trace_pairs _ _ _ HP).
  unfold total_variance, covmat. rewrite (map_seq_nth (fun x => covar x x) X []). reflexivity.
Qed.
Lemma top_sum_all l : top_sum (length l) l = Rsum l.
Proof. unfold top_sum. rewrite Nat.sub_diag. cbn [skipn]. symmetry. apply Rsum_perm, sortR_perm. Qed.
Lemma top_sum_0 l : top_sum 0 l = 0.
Proof. unfold top_sum. rewrite skipn_all2; [reflexivity|rewrite sortR_length; lia]. Qed.
Lemma skipn_skipn' {X} a b (l : list X) : skipn a (skipn b l) = skipn (a + b) l.
Proof. revert l. induction b as [|b IH]; intros l; [rewrite Nat.add_0_r; reflexivity|]. rewrite Nat.add_succ_r. destruct l as [|x l]; [apply skipn_nil|apply IH]. Qed.
Lemma Rsum_skipn_mono (l : list R) a b : (forall x, In x l -> 0 <= x) -> (a <= b)%nat -> Rsum (skipn b l) <= Rsum (skipn a l).
Proof.
  intros H Hab. replace b with ((b - a) + a)%nat by lia. rewrite <- skipn_skipn'. 
  rewrite <- (firstn_skipn (b - a) (skipn a l)) at 2. rewrite Rsum_app.
  assert (0 <= Rsum (firstn (b - a) (skipn a l))); [|lra]. apply Rsum_nonneg. intros x Hx. apply H.
  apply (skipn_In a). rewrite <- (firstn_skipn (b - a) (skipn a l)). apply in_or_app; auto.
Qed.
Lemma top_sum_mono l j k : (forall x, In x l -> 0 <= x) -> (j <= k)%nat -> top_sum j l <= top_sum k l.
Proof.
  intros H Hjk. unfold top_sum. apply Rsum_skipn_mono; [|lia]. intros x Hx. apply H. eapply Permutation_in; [symmetry; apply sortR_perm|auto].
Qed.
Lemma top_sum_share l k : (k <= length l)%nat -> INR k * Rsum l <= INR (length l) * top_sum k l.
Proof.
  intros Hk. destruct (Nat.eq_dec (length l) 0) as [E|E].
  { assert (k = 0)%nat by lia. subst. rewrite E. cbn. lra. }
  assert (HP : 0 < INR (length l)) by (apply (lt_INR 0); lia).
  assert (W := weighted_le (sortR l) (fun _ => INR k / INR (length l)) (fun x => x) k).
  rewrite map_id, sortR_length in W. specialize (W Hk (sortR_sorted l)).
  rewrite Rsum_mult_l, map_id in W. rewrite <- (Rsum_perm _ _ (sortR_perm l)) in W.
  assert (W1 : INR k / INR (length l) * Rsum l <= Rsum (skipn (length l - k) (sortR l))).
  { apply W.
    - intros _ _. split; [apply Rle_mult_inv_pos; [apply pos_INR|auto]|]. apply div_le_iff; [auto|]. rewrite Rmult_1_l. apply le_INR; auto.
    - rewrite Rsum_const, sortR_length. field. lra. }
  unfold top_sum. replace (INR k * Rsum l) with (INR (length l) * (INR k / INR (length l) * Rsum l)) by (field; lra).
  apply Rmult_le_compat_l; [lra|auto].
Qed.

(** ** C33: the number of eigenvalues used *)
Lemma Rhalf_up_nonneg r : 0 <= r -> Rhalf_up r = Rfloor (r + 1/2).
Proof. intros H. unfold Rhalf_up. destruct (Rle_dec 0 r); [reflexivity|lra]. Qed.
Lemma Rfloor_mono x y : x <= y -> (Rfloor x <= Rfloor y)%Z.
Proof.
  intros H. assert (A := Rfloor_spec x). assert (B := Rfloor_spec y). apply Z.lt_succ_r. apply lt_IZR. rewrite succ_IZR. lra.
Qed.
Lemma Rfloor_nonneg x : 0 <= x -> (0 <= Rfloor x)%Z.
Proof. intros H. assert (B := Rfloor_spec x). apply Z.lt_succ_r. apply lt_IZR. rewrite succ_IZR. lra. Qed.
(** Round half up, characterised: the nearest integer, ties away from zero. *)
Theorem C33_rounds_half_away_from_zero : forall r,
  Rabs (IZR (Rhalf_up r) - r) <= 1/2 /\
  (Rabs (IZR (Rhalf_up r) - r) = 1/2 -> Rabs r < Rabs (IZR (Rhalf_up r))).
Proof.
  intros r. unfold Rhalf_up. destruct (Rle_dec 0 r) as [H|H].
  - assert (B := Rfloor_spec (r + 1/2)). set (z := IZR (Rfloor (r + 1/2))) in *. split.
    + apply Rabs_le. lra.
    + intros E. rewrite (Rabs_right r) by lra. unfold Rabs in E. destruct (Rcase_abs (z - r)); [lra|]. rewrite Rabs_right by lra. lra.
  - assert (B := Rfloor_spec (- r + 1/2)). rewrite opp_IZR. set (z := IZR (Rfloor (- r + 1/2))) in *. split.
    + apply Rabs_le. lra.
    + intros E. rewrite (Rabs_left r) by lra. unfold Rabs in E. destruct (Rcase_abs (- z - r)).
      * assert (z = - r + 1/2) by lra. rewrite Rabs_left; lra.
      * lra.
Qed.
(** For a product [fraction * n] that rounds to at most [n], floor(fraction*n + 1/2) eigenvalues are used. *)
Theorem C33_number_of_eigenvalues_used : forall er X T ev f,
  returns_matrix X T -> returns_spectrum er X ev -> 0 < total_variance X ->
  0 <= f -> (Rfloor (f * INR (length X) + 1/2) <= Z.of_nat (length X))%Z ->
  absorption er X f = Ok (Fin (top_sum (Z.to_nat (Rfloor (f * INR (length X) + 1/2))) ev / total_variance X)).
Proof.
  intros er X T ev f HX HE HV Hf Hk. rewrite (absorption_formula er X T ev f HX HE). rewrite xdiv_fin by lra.
  set (n := length X) in *.
  assert (P : 0 <= f * INR n) by (apply Rmult_le_pos; [auto|apply pos_INR]).
  rewrite Rhalf_up_nonneg by auto. unfold used. assert (B := Rfloor_nonneg (f * INR n + 1/2) ltac:(lra)).
  destruct (Z.ltb_spec (Rfloor (f * INR n + 1/2)) 0); [lia|]. destruct (Z.leb_spec (Rfloor (f * INR n + 1/2)) (Z.of_nat n)); [|lia]. reflexivity.
Qed.
(** Above that the slice start is negative: only [k - n] eigenvalues are used (all of them again from [2 n] on). *)
Theorem C33_above_one_uses_fewer : forall er X T ev f,
  returns_matrix X T -> returns_spectrum er X ev -> 0 < total_variance X ->
  0 <= f -> (Z.of_nat (length X) < Rfloor (f * INR (length X) + 1/2))%Z ->
  let k := Z.to_nat (Rfloor (f * INR (length X) + 1/2)) in
  absorption er X f = Ok (Fin (top_sum (Nat.min (length X) (k - length X)) ev / total_variance X)).
Proof.
  intros er X T ev f HX HE HV Hf Hk k. rewrite (absorption_formula er X T ev f HX HE). rewrite xdiv_fin by lra.
  set (n := length X) in *.
  assert (P : 0 <= f * INR n) by (apply Rmult_le_pos; [auto|apply pos_INR]).
  rewrite Rhalf_up_nonneg by auto. unfold used.
  destruct (Z.ltb_spec (Rfloor (f * INR n + 1/2)) 0); [lia|]. destruct (Z.leb_spec (Rfloor (f * INR n + 1/2)) (Z.of_nat n)); [lia|].
  unfold k. rewrite Z2Nat.inj_sub, Nat2Z.id by lia. reflexivity.
Qed.
(** ... so the ratio drops strictly below one whenever every eigenvalue is positive and [n < k < 2 n]. *)
Theorem C33_above_one_drops : forall er X T ev f,
  returns_matrix X T -> returns_spectrum er X ev -> (forall x, In x ev -> 0 < x) ->
  0 <= f -> (Z.of_nat (length X) < Rfloor (f * INR (length X) + 1/2) < 2 * Z.of_nat (length X))%Z ->
  exists r, absorption er X f = Ok (Fin r) /\ r < 1.
Proof.
  intros er X T ev f HX HE HP Hf Hk. assert (Hs := eig_sum X ev (proj2 HE)). assert (Hl := proj1 (proj2 HE)).
  assert (HP' : forall x, In x (sortR ev) -> 0 < x) by (intros x Hx; apply HP; eapply Permutation_in; [symmetry; apply sortR_perm|auto]).
  assert (Hs' : Rsum (sortR ev) = total_variance X) by (rewrite <- Hs; symmetry; apply Rsum_perm, sortR_perm).
  assert (HLs := sortR_length ev).
  assert (Hpos : 0 < total_variance X).
  { rewrite <- Hs'. destruct (sortR ev) as [|x l]; [cbn in HLs; destruct HX; lia|]. apply (Rsum_pos _ x); [|left; auto|apply HP'; left; auto].
    intros y Hy. left. auto. }
  rewrite (C33_above_one_uses_fewer er X T ev f HX HE Hpos Hf ltac:(lia)). eexists; split; [reflexivity|].
  apply div_lt_iff; [auto|]. rewrite Rmult_1_l. set (j := Nat.min _ _). assert (Hj : (j < length X)%nat) by (unfold j; lia).
  unfold top_sum. rewrite <- Hs'. destruct (length ev - j)%nat as [|d] eqn:Ed; [lia|].
  destruct (sortR ev) as [|x l]; [cbn in HLs; lia|]. cbn [skipn Rsum].
  assert (H0 := HP' x (or_introl eq_refl)). assert (Hm := Rsum_skipn_mono l 0 d). cbn [skipn] in Hm.
  assert (Rsum (skipn d l) <= Rsum l); [|lra]. apply Hm; [|lia]. intros y Hy. left. apply HP'. right; auto.
Qed.
Theorem C33_negative_fraction_gives_zero : forall er X T ev f,
  returns_matrix X T -> returns_spectrum er X ev -> 0 < total_variance X -> f < 0 ->
  absorption er X f = Ok (Fin 0).
Proof.
  intros er X T ev f HX HE HV Hf. rewrite (absorption_formula er X T ev f HX HE). rewrite xdiv_fin by lra.
  set (n := length X) in *. assert (Hn : 0 < INR n) by (apply (lt_INR 0); destruct HX; unfold n; lia).
  assert (P : f * INR n < 0) by (apply Ropp_lt_cancel; rewrite Ropp_0, Ropp_mult_distr_l; apply Rmult_lt_0_compat; lra).
  unfold Rhalf_up. destruct (Rle_dec 0 (f * INR n)) as [|_]; [lra|].
  assert (B := Rfloor_nonneg (- (f * INR n) + 1/2) ltac:(lra)).
  assert (E : used n (- Rfloor (- (f * INR n) + 1/2)) = 0%nat).
  { unfold used. destruct (Z.ltb_spec (- Rfloor (- (f * INR n) + 1/2)) 0); [reflexivity|]. destruct (Z.leb_spec (- Rfloor (- (f * INR n) + 1/2)) (Z.of_nat n)); lia. }
  rewrite E, top_sum_0. unfold Rdiv. rewrite Rmult_0_l. reflexivity.
Qed.

(** ** C32 *)
Lemma fraction_count f n : 0 <= f <= 1 -> (0 <= Rfloor (f * INR n + 1/2) <= Z.of_nat n)%Z.
Proof.
  intros Hf. assert (P := pos_INR n).
  assert (P1 : 0 <= f * INR n) by (apply Rmult_le_pos; lra). assert (P2 : f * INR n <= 1 * INR n) by (apply Rmult_le_compat_r; lra).
  split; [apply Rfloor_nonneg; lra|]. assert (B := Rfloor_spec (f * INR n + 1/2)). apply Z.lt_succ_r. apply lt_IZR. rewrite succ_IZR, <- INR_IZR_INZ. lra.
Qed.
Theorem C32_range_monotone_endpoints : forall er X T ev,
  returns_matrix X T -> returns_spectrum er X ev -> 0 < total_variance X ->
  exists ratio : R -> R,
    (forall f, 0 <= f <= 1 -> absorption er X f = Ok (Fin (ratio f))) /\
    (forall f, 0 <= f <= 1 -> 0 <= ratio f <= 1) /\
    (forall f g, 0 <= f -> f <= g -> g <= 1 -> ratio f <= ratio g) /\
    (forall f, 0 <= f -> f * INR (length X) < 1/2 -> ratio f = 0) /\
    (forall f, f <= 1 -> INR (length X) - 1/2 <= f * INR (length X) -> ratio f = 1) /\
    (forall f, 0 <= f <= 1 -> IZR (Rfloor (f * INR (length X) + 1/2)) / INR (length X) <= ratio f).
Proof.
  intros er X T ev HX HE HV. set (n := length X).
  assert (Hn : 2 <= INR n) by (apply (le_INR 2); apply HX).
  assert (Hl : length ev = n) by apply HE.
  assert (HN := eig_nonneg X T ev HX (proj2 HE)). assert (Hs := eig_sum X ev (proj2 HE)).
  set (kk := fun f => Z.to_nat (Rfloor (f * INR n + 1/2))).
  exists (fun f => top_sum (kk f) ev / total_variance X).
  assert (Hk : forall f, 0 <= f <= 1 -> (kk f <= n)%nat) by (intros f Hf; assert (A := fraction_count f n Hf); unfold kk; lia).
  assert (Hfull : top_sum n ev = total_variance X) by (rewrite <- Hl, top_sum_all; auto).
  split; [|split; [|split; [|split; [|split]]]].
  - intros f Hf. apply (C33_number_of_eigenvalues_used er X T ev f HX HE HV); [lra|]. apply fraction_count; auto.
  - intros f Hf. split.
    + apply le_div_iff; [auto|]. rewrite Rmult_0_l, <- (top_sum_0 ev). apply top_sum_mono; [auto|lia].
    + apply div_le_iff; [auto|]. rewrite Rmult_1_l, <- Hfull. apply top_sum_mono; auto.
  - intros f g H0 Hfg H1. unfold Rdiv. apply Rmult_le_compat_r; [left; apply Rinv_0_lt_compat; auto|]. apply top_sum_mono; [auto|].
    unfold kk. assert (A1 := fraction_count f n ltac:(lra)). 
    assert (f * INR n <= g * INR n) by (apply Rmult_le_compat_r; lra).
    assert (A2 := Rfloor_mono (f * INR n + 1/2) (g * INR n + 1/2) ltac:(lra)). lia.
  - intros f H0 Hf. unfold kk. rewrite (Rfloor_unique _ 0).
    + cbn [Z.to_nat]. rewrite top_sum_0. unfold Rdiv. ring.
    + assert (0 <= f * INR n) by (apply Rmult_le_pos; lra). unfold n in *. lra.
  - intros f H1 Hf. fold n in Hf. assert (f * INR n <= 1 * INR n) by (apply Rmult_le_compat_r; lra).
    unfold kk. rewrite (Rfloor_unique _ (Z.of_nat n)).
    + rewrite Nat2Z.id, Hfull. field. lra.
    + rewrite <- INR_IZR_INZ. lra.
  - intros f Hf. assert (A := fraction_count f n Hf). 
    assert (S := top_sum_share ev (kk f)). rewrite Hl in S. specialize (S (Hk f Hf)). rewrite Hs in S.
    apply div_le_iff; [lra|]. replace (IZR (Rfloor (f * INR n + 1/2))) with (INR (kk f)) by (unfold kk; rewrite INR_IZR_INZ, Z2Nat.id by lia; reflexivity).
    replace (top_sum (kk f) ev / total_variance X * INR n) with (INR n * top_sum (kk f) ev / total_variance X) by (field; lra).
    apply le_div_iff; auto.
Qed.
(** Two routines that both return the spectrum (with any order, any eigenvectors) give the same ratio. *)
Theorem C32_independent_of_the_routine : forall er er' X T ev ev' f,
  returns_matrix X T -> returns_spectrum er X ev -> returns_spectrum er' X ev' ->
  absorption er X f = absorption er' X f.
Proof.
  intros er er' X T ev ev' f HX HE HE'. rewrite (absorption_formula er X T ev f HX HE), (absorption_formula er' X T ev' f HX HE').
  do 3 f_equal. apply (top_unique (length X) (covmat X)); [|apply (covmat_sym X T HX)|apply HE|apply HE'].
  unfold used. destruct (Z.ltb_spec (Rhalf_up (f * INR (length X))) 0); [lia|]. destruct (Z.leb_spec (Rhalf_up (f * INR (length X))) (Z.of_nat (length X))); lia.
Qed.
(** Scaling all returns by [c <> 0] and shifting every asset by its own constant leave the ratio unchanged. *)
Lemma Rmean_affine c a (x : list R) : x <> [] -> Rmean (map (fun r => c * r + a) x) = c * Rmean x + a.
Proof.
  intros H. rewrite (Rmean_plus (fun r => c * r) (fun _ => a)), Rmean_const by auto. f_equal. apply Rmean_scal.
Qed.
Lemma covar_affine c a b x y : length x = length y -> x <> [] ->
  covar (map (fun r => c * r + a) x) (map (fun r => c * r + b) y) = c * c * covar x y.
Proof.
  intros HL Hx. assert (Hy : y <> []) by (intros ->; destruct x; [auto|discriminate]).
  unfold covar. rewrite !Rmean_affine by auto. rewrite map2_map, map_length.
  unfold Rdiv. rewrite <- (Rmult_assoc (c * c)). f_equal. rewrite <- Rsum_scal, map_map2. f_equal. apply map2_ext. intros; ring.
Qed.
Definition rescale (c : R) (shift : nat -> R) (X : list (list R)) : list (list R) :=
  map (fun i => map (fun r => c * r + shift i) (nth i X [])) (seq 0 (length X)).
Lemma rescale_nth c s X i : (i < length X)%nat -> nth i (rescale c s X) [] = map (fun r => c * r + s i) (nth i X []).
Proof.
  intros H. unfold rescale. rewrite (nth_indep _ _ ((fun i => map (fun r => c * r + s i) (nth i X [])) 0%nat)) by (rewrite map_length, seq_length; auto).
  rewrite (map_nth (fun i => map (fun r => c * r + s i) (nth i X []))). rewrite seq_nth by auto. reflexivity.
Qed.
Lemma rescale_length c s X : length (rescale c s X) = length X.
Proof. unfold rescale. rewrite map_length, seq_length. reflexivity. Qed.
Lemma rescale_matrix c s X T : returns_matrix X T -> returns_matrix (rescale c s X) T.
Proof.
  intros (H1 & H2 & H3). split; [rewrite rescale_length; auto|]. split; [auto|]. intros x Hx. apply in_map_iff in Hx.
  destruct Hx as (i & <- & Hi). apply in_seq in Hi. rewrite map_length. apply H3, nth_In. lia.
Qed.
Lemma rescale_cov c s X T i j : returns_matrix X T -> (i < length X)%nat -> (j < length X)%nat ->
  covmat (rescale c s X) i j = c * c * covmat X i j.
Proof.
  intros (H1 & H2 & H3) Hi Hj. unfold covmat. rewrite !rescale_nth by auto.
  assert (A : length (nth i X []) = T) by (apply H3, nth_In; auto). assert (B : length (nth j X []) = T) by (apply H3, nth_In; auto).
  apply covar_affine; [congruence|]. intros E. rewrite E in A. cbn in A. lia.
Qed.
Lemma rescale_total c s X T : returns_matrix X T -> total_variance (rescale c s X) = c * c * total_variance X.
Proof.
  intros HX. unfold total_variance. rewrite <- (map_seq_nth (fun x => covar x x) (rescale c s X) []), <- (map_seq_nth (fun x => covar x x) X []).
  rewrite rescale_length, <- Rsum_mult_l. apply Rsum_map_ext. intros i Hi. apply in_seq in Hi. apply (rescale_cov c s X T i i HX); lia.
Qed.
Lemma spectrum_scale n C C' a ev : spectrum n C ev -> (forall i j, (i < n)%nat -> (j < n)%nat -> C' i j = a * C i j) ->
  spectrum n C' (map (fun x => a * x) ev).
Proof.
  intros [Hl (V & H1 & H2 & H3)] HC. split; [rewrite map_length; auto|]. exists V. split; [auto|]. split; [auto|].
  intros k i Hk Hi. rewrite (inner_ext n _ _ (fun j => a * C i j) (V k)); [|intros; apply HC; auto|auto].
  rewrite inner_scal, H3 by auto. replace 0 with (a * 0) at 2 by ring. rewrite (map_nth (fun x => a * x)). ring.
Qed.
Lemma sortR_scale a l : 0 <= a -> sortR (map (fun x => a * x) l) = map (fun x => a * x) (sortR l).
Proof.
  intros Ha. apply sorted_perm_unique.
  - apply sortR_sorted.
  - assert (S := sortR_sorted l). induction S as [|x m S IH HF]; [constructor|]. cbn [map]. constructor; [auto|].
    apply Forall_forall. intros y Hy. apply in_map_iff in Hy. destruct Hy as (z & <- & Hz). rewrite Forall_forall in HF.
    apply Rmult_le_compat_l; auto.
  - etransitivity; [symmetry; apply sortR_perm|]. apply Permutation_map, sortR_perm.
Qed.
Lemma top_sum_scale a k l : 0 <= a -> top_sum k (map (fun x => a * x) l) = a * top_sum k l.
Proof. intros Ha. unfold top_sum. rewrite sortR_scale by auto. rewrite map_length, skipn_map. apply Rsum_scal. Qed.
Theorem C32_invariant_under_scale_and_shift : forall er X T ev ev' c shift f, c <> 0 ->
  returns_matrix X T -> 0 < total_variance X -> returns_spectrum er X ev -> returns_spectrum er (rescale c shift X) ev' ->
  absorption er (rescale c shift X) f = absorption er X f.
Proof.
  intros er X T ev ev' c s f Hc HX HV HE HE'.
  rewrite (absorption_formula er X T ev f HX HE), (absorption_formula er _ T ev' f (rescale_matrix c s X T HX) HE').
  rewrite (rescale_total c s X T HX). assert (Hc2 : 0 < c * c) by nra.
  rewrite !xdiv_fin by nra. do 2 f_equal. rewrite rescale_length. set (k := used _ _).
  assert (Hk : (k <= length X)%nat).
  { unfold k, used. destruct (Z.ltb_spec (Rhalf_up (f * INR (length X))) 0); [lia|]. destruct (Z.leb_spec (Rhalf_up (f * INR (length X))) (Z.of_nat (length X))); lia. }
  rewrite (top_unique (length X) (covmat (rescale c s X)) ev' (map (fun x => c * c * x) ev) k).
  - rewrite top_sum_scale by lra. field. split; lra.
  - auto.
  - intros i j Hi Hj. apply (covmat_sym _ T (rescale_matrix c s X T HX)); rewrite rescale_length; auto.
  - rewrite <- (rescale_length c s X). apply HE'.
  - apply (spectrum_scale _ (covmat X)); [apply HE|]. intros i j Hi Hj. apply (rescale_cov c s X T); auto.
Qed.

(** ** C34: caching over arbitrary histories *)
(** What [estimate(f)] computes from a covariance matrix [c] when the attribute currently has [n] assets. *)
Definition ratio_of (A : Arith) (round : num A -> res Z) (er : list (list (num A)) -> res (list (num A)))
    (c : list (list (num A))) (n : nat) (f : num A) : res (num A) :=
  do ev <- (if Nat.eqb (length c) 1 then Err LinAlgError else er c);
  do k <- round (nmul f (ofZ (Z.of_nat n)));
  let s := isort A ev in Ok (ndiv (pysum A (python_slice_from A s (Z.of_nat (length s) - k))) (trace A c)).
(** The observable history: [first] is the matrix in place at the first estimate, [cur] the current one. *)
Fixpoint history (A : Arith) round er (first : option (list (list (num A)))) (cur : list (list (num A))) (ops : list (ar_op A)) : list (option (res (num A))) :=
  match ops with
  | [] => []
  | SetReturns Y :: ops' => None :: history A round er first Y ops'
  | Estimate f :: ops' =>
      let X0 := match first with Some X0 => X0 | None => cur end in
      Some (ratio_of A round er (np_cov A X0) (length cur) f) :: history A round er (Some X0) cur ops'
  end.
Definition cached (A : Arith) (er : list (list (num A)) -> res (list (num A))) (first : option (list (list (num A)))) (o : ar_object A) : Prop :=
  match first with
  | None => cov_cache A o = None /\ eig_cache A o = None
  | Some X0 => cov_cache A o = Some (np_cov A X0) /\
      (eig_cache A o = None \/ exists e, eig_cache A o = Some e /\ (if Nat.eqb (length (np_cov A X0)) 1 then Err LinAlgError else er (np_cov A X0)) = Ok e)
  end.
Theorem C34_covariance_is_frozen_at_first_use : forall (A : Arith) round er X ops,
  snd (ar_run A round er (new_AR A X) ops) = history A round er None X ops.
Proof.
  intros A round er X ops.
  assert (G : forall ops o first, cached A er first o -> snd (ar_run A round er o ops) = history A round er first (asset_returns A o) ops).
  { clear. induction ops as [|op ops IH]; intros o first HC; [reflexivity|]. cbn [ar_run history]. destruct op as [f|Y].
    - cbn [ar_step]. set (X0 := match first with Some X0 => X0 | None => asset_returns A o end).
      assert (S : exists o', estimate_ar A round er o f = (o', ratio_of A round er (np_cov A X0) (length (asset_returns A o)) f) /\
      asset_returns A o' = asset_returns A o /\ cached A er (Some X0) o').
      { unfold estimate_ar, eigvals, asset_covariance, ratio_of. destruct first as [X1|]; cbn [cached] in HC.
        - destruct HC as [HC [HE|(e & HE & Hr)]]; rewrite HE, HC; unfold X0.
          + destruct (if Nat.eqb (length (np_cov A X1)) 1 then Err LinAlgError else er (np_cov A X1)) as [e|x] eqn:Er; cbn [bind asset_returns cov_cache eig_cache].
            * destruct (round _) as [k|x]; cbn [bind]; eexists; (split; [try rewrite HC; reflexivity|]); (split; [reflexivity|]); cbn [cached cov_cache eig_cache]; (split; [auto|right; exists e; auto]).
            * eexists; split; [reflexivity|]. split; [reflexivity|]. cbn [cached]. split; [auto|left; auto].
          + rewrite Hr; cbn [bind]. destruct (round _) as [k|x]; cbn [bind]; eexists; (split; [reflexivity|]); (split; [reflexivity|]); cbn [cached]; (split; [auto|right; exists e; auto]).
        - destruct HC as [HC HE]; rewrite HE, HC; unfold X0. cbn [asset_returns cov_cache eig_cache].
          destruct (if Nat.eqb (length (np_cov A (asset_returns A o))) 1 then Err LinAlgError else er (np_cov A (asset_returns A o))) as [e|x] eqn:Er; cbn [bind asset_returns cov_cache eig_cache].
          * destruct (round _) as [k|x]; cbn [bind]; eexists; (split; [reflexivity|]); (split; [reflexivity|]); cbn [cached cov_cache eig_cache]; (split; [auto|right; exists e; auto]).
          * eexists; split; [reflexivity|]. split; [reflexivity|]. cbn [cached cov_cache eig_cache]. split; [auto|left; auto]. }
      destruct S as (o' & HS & HR & HC'). rewrite HS. specialize (IH o' (Some X0) HC'). destruct (ar_run A round er o' ops) as [o2 rs].
      cbn [snd] in *. rewrite IH, HR. reflexivity.
    - cbn [ar_step]. specialize (IH (mkAR A Y (cov_cache A o) (eig_cache A o)) first). cbn [asset_returns] in IH.
      destruct (ar_run A round er (mkAR A Y (cov_cache A o) (eig_cache A o)) ops) as [o2 rs]. cbn [snd] in *. rewrite IH; [reflexivity|].
      destruct first; exact HC. }
  apply (G ops (new_AR A X) None). split; reflexivity.
Qed.
(** Repeated calls with the same fraction return the same value, whatever happened in between (the number of
    assets being the same); replacing the matrix in between has no effect on the covariance used. *)
Lemma history_estimates (A : Arith) round er ops : forall X0 cur,
  Forall2 (fun op r => match op with
     | SetReturns _ => r = None
     | Estimate f => exists n, r = Some (ratio_of A round er (np_cov A X0) n f) end) ops (history A round er (Some X0) cur ops).
Proof. induction ops as [|[f|Y] ops IH]; intros X0 cur; cbn [history]; constructor; eauto. Qed.
Theorem C34_estimates_only_use_the_first_matrix : forall (A : Arith) round er X f ops,
  exists rs, snd (ar_run A round er (new_AR A X) (Estimate A f :: ops)) = Some (ratio_of A round er (np_cov A X) (length X) f) :: rs /\
  Forall2 (fun op r => match op with
     | SetReturns _ => r = None
     | Estimate g => exists n, r = Some (ratio_of A round er (np_cov A X) n g) end) ops rs.
Proof.
  intros. rewrite C34_covariance_is_frozen_at_first_use. cbn [history]. eexists; split; [reflexivity|]. apply history_estimates.
Qed.
Theorem C34_repeated_calls_agree : forall (A : Arith) round er X f fs,
  exists r rs, snd (ar_run A round er (new_AR A X) (map (Estimate A) (f :: fs ++ [f]))) = r :: rs ++ [r].
Proof.
  intros. rewrite C34_covariance_is_frozen_at_first_use. cbn [history map]. eexists. rewrite map_app. cbn [map].
  assert (G : forall gs, history A round er (Some X) X (map (Estimate A) gs ++ [Estimate A f]) =
     map (fun g => Some (ratio_of A round er (np_cov A X) (length X) g)) gs ++ [Some (ratio_of A round er (np_cov A X) (length X) f)]).
  { induction gs as [|g gs IH]; [reflexivity|]. cbn [map app history]. rewrite IH. reflexivity. }
  rewrite G. eexists. reflexivity.
Qed.

(** ** Concrete case: two uncorrelated assets over three days, variances 4 and 1 *)
Definition case_X : list (list R) := [[2; -2; 0]; [1/2; 1/2; -1]].
Example C32_case :
  exists er, returns_matrix case_X 3 /\ 0 < total_variance case_X /\ returns_spectrum er case_X [4; 3/4] /\
    absorption er case_X (1/2) = Ok (Fin (16/19)) /\ absorption er case_X (3/2) = Ok (Fin (16/19)) /\ absorption er case_X 1 = Ok (Fin 1).
Proof.
  exists (fun _ => Ok [Fin 4; Fin (3/4)]).
  assert (C : covar [2; -2; 0] [2; -2; 0] = 4 /\ covar [1/2; 1/2; -1] [1/2; 1/2; -1] = 3/4 /\ covar [2; -2; 0] [1/2; 1/2; -1] = 0 /\ covar [1/2; 1/2; -1] [2; -2; 0] = 0).
  { unfold covar, Rmean. cbn. repeat split; field. }
  destruct C as (C1 & C2 & C3 & C4).
  assert (HT : total_variance case_X = 19/4) by (unfold total_variance, case_X; cbn [map Rsum]; rewrite C1, C2; field).
  assert (HX : returns_matrix case_X 3) by (split; [cbn; lia|]; split; [lia|]; intros x [<-|[<-|[]]]; reflexivity).
  assert (HS : returns_spectrum (fun _ => Ok [Fin 4; Fin (3/4)]) case_X [4; 3/4]).
  { split; [reflexivity|]. split; [reflexivity|]. exists delta.
    split; [|split].
    - intros k l Hk Hl. cbn in Hk, Hl. destruct k as [|[|k]]; destruct l as [|[|l]]; try lia; unfold inner, delta; cbn; ring.
    - intros k l Hk Hl. cbn in Hk, Hl. destruct k as [|[|k]]; destruct l as [|[|l]]; try lia; unfold inner, delta; cbn; ring.
    - intros k l Hk Hl. cbn in Hk, Hl. unfold inner, covmat, case_X. cbn [length seq map Rsum nth].
      destruct k as [|[|k]]; destruct l as [|[|l]]; try lia; unfold delta; cbn [Nat.eqb]; cbn [nth]; rewrite ?C1, ?C2, ?C3, ?C4; ring. }
  split; [auto|]. split; [lra|]. split; [auto|].
  assert (Hs : sortR [4; 3/4] = [3/4; 4]). { cbn. unfold insR. repeat destruct (Rle_dec _ _); try lra; reflexivity. }
  split; [|split].
  - rewrite (C33_number_of_eigenvalues_used _ _ 3 _ (1/2) HX HS); [|lra|lra|].
    + rewrite (Rfloor_unique _ 1) by (cbn; lra). rewrite HT. unfold top_sum. rewrite Hs. change (skipn (length [4; 3/4] - Z.to_nat 1) [3/4; 4]) with [4]. cbn [Rsum]. do 2 f_equal. field.
    + rewrite (Rfloor_unique _ 1) by (cbn; lra). cbn. lia.
  - rewrite (C33_above_one_uses_fewer _ _ 3 _ (3/2) HX HS); [|lra|lra|].
    + rewrite (Rfloor_unique _ 3) by (cbn; lra). rewrite HT. unfold top_sum. rewrite Hs. change (skipn _ [3/4; 4]) with [4]. cbn [Rsum]. do 2 f_equal. field.
    + rewrite (Rfloor_unique _ 3) by (cbn; lra). cbn. lia.
  - rewrite (C33_number_of_eigenvalues_used _ _ 3 _ 1 HX HS); [|lra|lra|].
    + rewrite (Rfloor_unique _ 2) by (cbn; lra). rewrite HT. unfold top_sum. rewrite Hs. change (skipn (length [4; 3/4] - Z.to_nat 2) [3/4; 4]) with [3/4; 4]. cbn [Rsum]. do 2 f_equal. field.
    + rewrite (Rfloor_unique _ 2) by (cbn; lra). cbn. lia.
Qed.
