(** * Property C136: the absorption ratio is the largest share of the total variance that a given number of uncorrelated bets can explain *)
From Coq Require Import Reals ZArith List Bool Arith Lia Lra Psatz Permutation FinFun.
From Verif Require Import Arith XR RealAux Model_garch Model_measures Proofs_measures Proofs_garch3 Model_dip Props_dip Model_ar Props_ar.
Import ListNotations.
Local Open Scope R_scope.

(** ** Specification *)
(** the returns over T days of a portfolio with weight [w i] on asset i *)
Definition portfolio (T : nat) (X : list (list R)) (w : nat -> R) : list R :=
  map (fun t => Rsum (map (fun i => w i * nth t (nth i X []) 0) (seq 0 (length X)))) (seq 0 T).
Definition variance (x : list R) : R := covar x x.
(** a family of weight vectors of length one, orthogonal to each other *)
Definition orthonormal (n : nat) (ws : list (nat -> R)) : Prop :=
  forall a b, (a < length ws)%nat -> (b < length ws)%nat -> inner n (nth a ws (fun _ => 0)) (nth b ws (fun _ => 0)) = delta a b.
(** the share of the total variance of the assets that is found in these portfolios *)
Definition share_of (T : nat) (X : list (list R)) (ws : list (nat -> R)) : R := Rsum (map (fun w => variance (portfolio T X w)) ws) / total_variance X.
(** how many portfolios: the fraction times the number of assets, rounded half up *)
Definition bets (X : list (list R)) (f : R) : nat := Z.to_nat (Rfloor (f * INR (length X) + 1 / 2)).
(** mixing the assets: row i of the new matrix is the portfolio with weights [Q i] *)
Definition mixed (T : nat) (Q : nat -> nat -> R) (X : list (list R)) : list (list R) := map (fun i => portfolio T X (Q i)) (seq 0 (length X)).
Definition rotation (n : nat) (Q : nat -> nat -> R) : Prop :=
  (forall i j, (i < n)%nat -> (j < n)%nat -> inner n (Q i) (Q j) = delta i j) /\
  (forall i j, (i < n)%nat -> (j < n)%nat -> inner n (fun k => Q k i) (fun k => Q k j) = delta i j).

(** ** Proofs *)
Lemma inner_plus n u v w : inner n u (fun i => v i + w i) = inner n u v + inner n u w.
Proof. unfold inner. rewrite <- Rsum_plus. apply Rsum_map_ext. intros; ring. Qed.
Lemma inner_sum {X} n u (g : X -> nat -> R) l : inner n u (fun i => Rsum (map (fun x => g x i) l)) = Rsum (map (fun x => inner n u (g x)) l).
Proof. unfold inner. rewrite <- (Rsum_swap (fun i x => u i * g x i)). apply Rsum_map_ext. intros i _. symmetry. apply Rsum_mult_l. Qed.
Lemma delta_sym i j : delta i j = delta j i.
Proof. unfold delta. rewrite Nat.eqb_sym. reflexivity. Qed.

Lemma portfolio_length T X w : length (portfolio T X w) = T.
Proof. unfold portfolio. rewrite map_length. apply seq_length. Qed.
Lemma portfolio_nth T X w t : (t < T)%nat -> nth t (portfolio T X w) 0 = inner (length X) w (fun i => nth t (nth i X []) 0).
Proof.
  intros H. unfold portfolio. rewrite (nth_indep _ 0 ((fun t => Rsum (map (fun i => w i * nth t (nth i X []) 0) (seq 0 (length X)))) 0%nat)) by (rewrite map_length, seq_length; exact H).
  rewrite (map_nth (fun t => Rsum (map (fun i => w i * nth t (nth i X []) 0) (seq 0 (length X))))). rewrite seq_nth by exact H. reflexivity.
Qed.
Lemma Rmean_seq x T : length x = T -> Rmean x = Rsum (map (fun t => nth t x 0) (seq 0 T)) / INR T.
Proof. intros <-. unfold Rmean. rewrite (map_seq_nth (fun r => r) x 0), map_id. reflexivity. Qed.
Lemma portfolio_mean T X w : returns_matrix X T -> Rmean (portfolio T X w) = inner (length X) w (fun i => Rmean (nth i X [])).
Proof.
  intros (_ & HT & HX). rewrite (Rmean_seq _ T (portfolio_length T X w)).
  rewrite (Rsum_map_ext _ (fun t => Rsum (map (fun i => w i * nth t (nth i X []) 0) (seq 0 (length X))))) by (intros t Ht; apply in_seq in Ht; apply portfolio_nth; lia).
  rewrite (Rsum_swap (fun t i => w i * nth t (nth i X []) 0)). unfold inner, Rdiv. rewrite <- Rsum_scal_r, map_map. apply Rsum_map_ext. intros i Hi. apply in_seq in Hi.
  rewrite Rsum_mult_l, (Rmean_seq _ T) by (apply HX, nth_In; lia). unfold Rdiv. ring.
Qed.
(** covariances of portfolios are the bilinear form of the covariance matrix *)
Lemma portfolio_covariance T X w v : returns_matrix X T ->
  covar (portfolio T X w) (portfolio T X v) = inner (length X) w (fun i => inner (length X) (covmat X i) v).
Proof.
  intros HM. assert (HM' := HM). destruct HM' as (Hn & HT & HX). set (n := length X).
  assert (HP : 1 < INR T) by (apply (lt_INR 1); lia).
  rewrite (covar_seq _ _ T) by apply portfolio_length. rewrite !(portfolio_mean T X _ HM). fold n.
  set (d := fun i t => nth t (nth i X []) 0 - Rmean (nth i X [])).
  rewrite (Rsum_map_ext _ (fun t => Rsum (map (fun i => Rsum (map (fun j => w i * d i t * (v j * d j t)) (seq 0 n))) (seq 0 n)))).
  - rewrite (Rsum_swap (fun t i => Rsum (map (fun j => w i * d i t * (v j * d j t)) (seq 0 n)))). unfold inner at 1, Rdiv. rewrite <- Rsum_scal_r, map_map. apply Rsum_map_ext. intros i Hi. apply in_seq in Hi.
    rewrite (Rsum_swap (fun t j => w i * d i t * (v j * d j t))). unfold inner. rewrite <- Rsum_scal_r, map_map, <- Rsum_mult_l. apply Rsum_map_ext. intros j Hj. apply in_seq in Hj.
    unfold covmat. rewrite (covar_seq _ _ T) by (apply HX, nth_In; unfold n in *; lia). unfold Rdiv.
    rewrite (Rsum_map_ext _ (fun t => w i * v j * (d i t * d j t))) by (intros; ring). rewrite Rsum_mult_l. unfold d. ring.
  - intros t Ht. apply in_seq in Ht. rewrite !portfolio_nth by lia. fold n.
    assert (S : forall u : nat -> R, inner n u (fun i => nth t (nth i X []) 0) - inner n u (fun i => Rmean (nth i X [])) = Rsum (map (fun i => u i * d i t) (seq 0 n))).
    { intros u. unfold inner. rewrite <- Rsum_minus. apply Rsum_map_ext. intros i _. unfold d. ring. }
    rewrite !S. rewrite <- Rsum_scal_r, map_map. apply Rsum_map_ext. intros i _. rewrite <- Rsum_mult_l. apply Rsum_map_ext. intros; ring.
Qed.
Lemma portfolio_variance T X w : returns_matrix X T -> variance (portfolio T X w) = quad (length X) (covmat X) w.
Proof. intros HM. apply portfolio_covariance. exact HM. Qed.

(** Bessel's inequality *)
Lemma bessel n ws q : orthonormal n ws -> Rsum (map (fun w => inner n w q * inner n w q) ws) <= inner n q q.
Proof.
  intros HO. set (K := length ws). set (W := fun a => nth a ws (fun _ : nat => 0)). set (c := fun a => inner n (W a) q).
  assert (EW : forall g : (nat -> R) -> R, Rsum (map g ws) = Rsum (map (fun a => g (W a)) (seq 0 K))) by (intros g; f_equal; symmetry; apply (map_seq_nth g ws (fun _ => 0))).
  rewrite EW. fold (c).
  set (p := fun i => Rsum (map (fun a => c a * W a i) (seq 0 K))).
  assert (PQ : inner n q p = Rsum (map (fun a => c a * c a) (seq 0 K))).
  { unfold p. rewrite (inner_sum n q (fun a i => c a * W a i)). apply Rsum_map_ext. intros a _. rewrite inner_comm, (inner_scal n (c a) (W a) q). reflexivity. }
  assert (PP : inner n p p = Rsum (map (fun a => c a * c a) (seq 0 K))).
  { unfold p at 2. rewrite (inner_sum n p (fun a i => c a * W a i)). apply Rsum_map_ext. intros a Ha. apply in_seq in Ha. rewrite inner_comm, (inner_scal n (c a) (W a) p). f_equal.
    unfold p. rewrite (inner_sum n (W a) (fun b i => c b * W b i)). transitivity (Rsum (map (fun b => delta a b * c b) (seq 0 K))).
    - apply Rsum_map_ext. intros b Hb. apply in_seq in Hb. rewrite inner_comm, (inner_scal n (c b) (W b) (W a)), inner_comm. unfold W. rewrite (HO a b) by (fold K; lia). ring.
    - rewrite (Rsum_delta c) by (unfold K in *; lia). reflexivity. }
  assert (NN : 0 <= inner n (fun i => q i - p i) (fun i => q i - p i)).
  { unfold inner. apply Rsum_nonneg. intros x Hx. apply in_map_iff in Hx as (i & <- & _). apply Rle_0_sqr. }
  assert (EX : inner n (fun i => q i - p i) (fun i => q i - p i) = inner n q q - 2 * inner n q p + inner n p p).
  { unfold inner. rewrite <- Rsum_mult_l, <- Rsum_minus, <- Rsum_plus. apply Rsum_map_ext. intros; ring. }
  rewrite EX, PQ, PP in NN. change (Rsum (map (fun a => c a * c a) (seq 0 K)) <= inner n q q). lra.
Qed.
(** Ky Fan's inequality: no k orthonormal vectors do better than the k largest eigenvalues *)
Lemma ky_fan n C ev ws : (length ws <= n)%nat -> (forall i j, (i < n)%nat -> (j < n)%nat -> C i j = C j i) -> spectrum n C ev -> orthonormal n ws ->
  Rsum (map (quad n C) ws) <= top_sum (length ws) ev.
Proof.
  intros Hk HS HE HO. destruct (sorted_pairs _ _ _ HE) as (qs & Eq & HQ). assert (Lq := proj1 HQ). unfold top_sum. rewrite (proj1 HE), <- Eq.
  rewrite (Rsum_map_ext _ (fun w => Rsum (map (fun q => inner n w (snd q) * inner n w (snd q) * fst q) qs))) by (intros w _; apply quad_basis; assumption).
  rewrite (Rsum_swap (fun w q => inner n w (snd q) * inner n w (snd q) * fst q)).
  set (m := fun q : R * (nat -> R) => Rsum (map (fun w => inner n w (snd q) * inner n w (snd q)) ws)).
  rewrite (Rsum_map_ext _ (fun q => m q * fst q)) by (intros q _; unfold m; rewrite <- Rsum_scal_r, map_map; reflexivity).
  rewrite <- Lq. apply weighted_le; [lia|rewrite Eq; apply sortR_sorted| |].
  - intros q Hq. split; [unfold m; apply Rsum_nonneg; intros x Hx; apply in_map_iff in Hx as (w & <- & _); apply Rle_0_sqr|].
    destruct HQ as (_ & H1 & _). rewrite <- (H1 q Hq). apply bessel. exact HO.
  - unfold m. rewrite (Rsum_swap (fun q w => inner n w (snd q) * inner n w (snd q))). rewrite (Rsum_map_ext _ (fun _ => 1)); [rewrite Rsum_const; ring|].
    intros w Hw. rewrite (parseval n C qs _ _ HQ). apply In_nth with (d := fun _ => 0) in Hw as (a & Ha & <-). rewrite (HO a a Ha Ha). unfold delta. rewrite Nat.eqb_refl. reflexivity.
Qed.

(** a complete family of unit vectors is orthogonal *)
Lemma pairs_orthonormal n C ps : pairs_ok n C ps -> orthonormal n (map snd ps).
Proof.
  intros HP. assert (HP' := HP). destruct HP' as (H0 & H1 & _). set (v := fun a => nth a (map snd ps) (fun _ : nat => 0)). intros a b Ha Hb. fold (v a) (v b). rewrite map_length in Ha, Hb.
  assert (U : forall a, (a < length ps)%nat -> inner n (v a) (v a) = 1).
  { intros c Hc. unfold v. rewrite (nth_indep _ _ (snd (0, fun _ : nat => 0))) by (rewrite map_length; exact Hc). rewrite (map_nth snd). apply H1, nth_In. exact Hc. }
  destruct (Nat.eq_dec a b) as [-> | N]; [unfold delta; rewrite Nat.eqb_refl; apply U; exact Hb|].
  assert (E : delta a b = 0) by (unfold delta; destruct (Nat.eqb_spec a b); [contradiction|reflexivity]). rewrite E.
  assert (P := parseval n C ps (v a) (v a) HP). rewrite (U a Ha) in P.
  set (g := fun c => inner n (v a) (v c) * inner n (v a) (v c)).
  assert (P' : Rsum (map g (seq 0 (length ps))) = 1).
  { rewrite <- P. transitivity (Rsum (map (fun w => inner n (v a) w * inner n (v a) w) (map snd ps))); [|rewrite map_map; reflexivity].
    rewrite <- (map_seq_nth (fun w => inner n (v a) w * inner n (v a) w) (map snd ps) (fun _ => 0)), map_length. reflexivity. }
  assert (G0 : forall c, 0 <= g c) by (intros c; apply Rle_0_sqr).
  assert (D : Rsum (map (fun c => g c - delta a c * g c) (seq 0 (length ps))) = 0).
  { rewrite Rsum_minus, P', (Rsum_delta g) by exact Ha. unfold g. rewrite (U a Ha). ring. }
  assert (B : g b - delta a b * g b <= 0).
  { rewrite <- D. apply Rsum_ge_elem; [|apply in_map_iff; exists b; split; [reflexivity|apply in_seq; lia]]. intros y Hy. apply in_map_iff in Hy as (c & <- & _). assert (G := G0 c). unfold delta. destruct (Nat.eqb a c); lra. }
  rewrite E in B. assert (G := G0 b). unfold g in *. assert (Q : inner n (v a) (v b) * inner n (v a) (v b) = 0) by lra. apply Rmult_integral in Q. destruct Q; assumption.
Qed.
Lemma orthonormal_skipn n m ws : orthonormal n ws -> orthonormal n (skipn m ws).
Proof.
  intros H a b Ha Hb. rewrite skipn_length in Ha, Hb. assert (S : forall c, (c < length ws - m)%nat -> nth c (skipn m ws) (fun _ => 0) = nth (m + c) ws (fun _ => 0)).
  { intros c Hc. rewrite <- (firstn_skipn m ws) at 2. rewrite app_nth2; rewrite firstn_length; [f_equal; lia|lia]. }
  rewrite !S by assumption. rewrite H by lia. unfold delta. destruct (Nat.eqb_spec a b), (Nat.eqb_spec (m + a) (m + b)); try reflexivity; lia.
Qed.
Lemma best_bets n C ev k : (k <= n)%nat -> spectrum n C ev -> exists ws, length ws = k /\ orthonormal n ws /\ Rsum (map (quad n C) ws) = top_sum k ev.
Proof.
  intros Hk HE. destruct (sorted_pairs _ _ _ HE) as (qs & Eq & HQ). assert (Lq := proj1 HQ). exists (skipn (n - k) (map snd qs)). split; [rewrite skipn_length, map_length; lia|]. split; [apply orthonormal_skipn, (pairs_orthonormal n C); exact HQ|].
  unfold top_sum. rewrite (proj1 HE), <- Eq, !skipn_map, map_map. apply Rsum_map_ext. intros q Hq. symmetry. apply (eig_quad n C qs); [exact HQ|]. eapply skipn_In. exact Hq.
Qed.

Lemma bets_le (X : list (list R)) f : 0 <= f <= 1 -> (0 <= Rfloor (f * INR (length X) + 1 / 2) <= Z.of_nat (length X))%Z.
Proof. intros H. apply fraction_count. exact H. Qed.
Lemma ratio_value er X T ev f : returns_matrix X T -> returns_spectrum er X ev -> 0 < total_variance X -> 0 <= f <= 1 -> absorption er X f = Ok (Fin (top_sum (bets X f) ev / total_variance X)).
Proof. intros HX HE HV Hf. apply (C33_number_of_eigenvalues_used er X T ev f HX HE HV); [lra|]. apply bets_le. exact Hf. Qed.
Lemma share_le X T ev ws : returns_matrix X T -> spectrum (length X) (covmat X) ev -> 0 < total_variance X -> (length ws <= length X)%nat -> orthonormal (length X) ws ->
  share_of T X ws <= top_sum (length ws) ev / total_variance X.
Proof.
  intros HX HE HV HL HO. unfold share_of, Rdiv. apply Rmult_le_compat_r; [left; apply Rinv_0_lt_compat; exact HV|].
  rewrite (Rsum_map_ext _ (quad (length X) (covmat X))) by (intros w _; apply portfolio_variance; exact HX). apply ky_fan; [exact HL|apply (covmat_sym X T HX)|exact HE|exact HO].
Qed.

(** *** C136: the estimate is the largest share of the total variance of the assets that any family of that many orthonormal portfolios has, and some family has it *)
Theorem C136_largest_share : forall er X T ev f, returns_matrix X T -> returns_spectrum er X ev -> 0 < total_variance X -> 0 <= f <= 1 ->
  exists r, absorption er X f = Ok (Fin r) /\
    (forall ws, length ws = bets X f -> orthonormal (length X) ws -> share_of T X ws <= r) /\
    exists ws, length ws = bets X f /\ orthonormal (length X) ws /\ share_of T X ws = r.
Proof.
  intros er X T ev f HX HE HV Hf. assert (B := bets_le X f Hf). assert (BK : (bets X f <= length X)%nat) by (unfold bets; lia).
  exists (top_sum (bets X f) ev / total_variance X). split; [apply (ratio_value er X T); assumption|]. split.
  - intros ws HL HO. rewrite <- HL. apply share_le; [exact HX|apply HE|exact HV|lia|exact HO].
  - destruct (best_bets (length X) (covmat X) ev (bets X f) BK (proj2 HE)) as (ws & L & O & S). exists ws. split; [exact L|]. split; [exact O|].
    unfold share_of. rewrite <- S. f_equal. apply Rsum_map_ext. intros w _. apply portfolio_variance. exact HX.
Qed.

(** *** C136: so it is at least the share that the same number of assets have by themselves *)
Lemma portfolio_asset X T i : returns_matrix X T -> (i < length X)%nat -> portfolio T X (delta i) = nth i X [].
Proof.
  intros (_ & _ & HX) Hi. assert (L : length (nth i X []) = T) by (apply HX, nth_In; exact Hi). apply (nth_ext _ _ 0 0); [rewrite portfolio_length; congruence|]. intros t Ht. rewrite portfolio_length in Ht.
  rewrite portfolio_nth by exact Ht. apply (Rsum_delta (fun i => nth t (nth i X []) 0)). exact Hi.
Qed.
Lemma orthonormal_assets n is : NoDup is -> (forall i, In i is -> (i < n)%nat) -> orthonormal n (map delta is).
Proof.
  intros ND HI a b Ha Hb. rewrite map_length in Ha, Hb.
  assert (G : forall c, (c < length is)%nat -> nth c (map delta is) (fun _ => 0) = delta (nth c is 0%nat)).
  { intros c Hc. rewrite (nth_indep _ _ (delta 0%nat)) by (rewrite map_length; exact Hc). apply (map_nth delta). }
  rewrite !G by assumption. transitivity (delta (nth b is 0%nat) (nth a is 0%nat)); [apply (Rsum_delta (delta (nth b is 0%nat))); apply HI, nth_In; exact Ha|].
  unfold delta. destruct (Nat.eqb_spec (nth b is 0%nat) (nth a is 0%nat)) as [E | E], (Nat.eqb_spec a b) as [E' | E']; try reflexivity; [|congruence]. exfalso. apply E'. apply (proj1 (NoDup_nth is 0%nat) ND); auto.
Qed.
Theorem C136_at_least_the_largest_assets : forall er X T ev f r (is : list nat), returns_matrix X T -> returns_spectrum er X ev -> 0 < total_variance X -> 0 <= f <= 1 ->
  absorption er X f = Ok (Fin r) -> NoDup is -> (forall i, In i is -> (i < length X)%nat) -> length is = bets X f ->
  Rsum (map (fun i => variance (nth i X [])) is) / total_variance X <= r.
Proof.
  intros er X T ev f r js HX HE HV Hf HR ND HI HL. destruct (C136_largest_share er X T ev f HX HE HV Hf) as (r' & E & U & _). assert (r' = r) by congruence. subst r'.
  specialize (U (map delta js) (eq_trans (map_length delta js) HL) (orthonormal_assets _ _ ND HI)). unfold share_of in U. rewrite map_map in U.
  rewrite (Rsum_map_ext (fun i => variance (nth i X [])) (fun i => variance (portfolio T X (delta i)))); [exact U|]. intros i Hi. rewrite portfolio_asset; auto.
Qed.

(** *** C136: mixing the assets by a rotation does not change the estimate; in particular their order and their signs do not matter *)
Lemma rotation_pairs n Q : rotation n Q -> pairs_ok n (fun _ _ => 0) (map (fun k => (0, Q k)) (seq 0 n)).
Proof.
  intros [H1 H2]. split; [rewrite map_length; apply seq_length|]. split; [|split].
  - intros p Hp. apply in_map_iff in Hp as (k & <- & Hk). apply in_seq in Hk. cbn [snd]. rewrite H1 by lia. unfold delta. rewrite Nat.eqb_refl. reflexivity.
  - intros i j Hi Hj. rewrite map_map. cbn [snd]. apply H2; assumption.
  - intros p i Hp Hi. apply in_map_iff in Hp as (k & <- & Hk). cbn [fst snd]. unfold inner. rewrite (Rsum_map_ext _ (fun _ => 0)) by (intros; ring). rewrite Rsum_const. ring.
Qed.
Lemma rotation_parseval n Q v w : rotation n Q -> Rsum (map (fun k => inner n (Q k) v * inner n (Q k) w) (seq 0 n)) = inner n v w.
Proof.
  intros H. rewrite <- (parseval n _ _ v w (rotation_pairs n Q H)), map_map. cbn [snd]. apply Rsum_map_ext. intros k _. rewrite (inner_comm n v), (inner_comm n w). reflexivity.
Qed.
Lemma rotated_spectrum n C C' Q ev : rotation n Q -> spectrum n C ev -> (forall i j, (i < n)%nat -> (j < n)%nat -> C' i j = inner n (Q i) (fun a => inner n (C a) (Q j))) -> spectrum n C' ev.
Proof.
  intros HQ [HL (V & H1 & H2 & H3)] HC. split; [exact HL|]. exists (fun k i => inner n (Q i) (V k)). split; [|split].
  - intros k l Hk Hl. rewrite <- (H1 k l Hk Hl). exact (rotation_parseval n Q (V k) (V l) HQ).
  - intros i j Hi Hj. destruct HQ as [HR _]. rewrite <- (HR i j Hi Hj).
    assert (HV : rotation n V) by (split; assumption). rewrite <- (rotation_parseval n V (Q i) (Q j) HV). unfold inner at 1. apply Rsum_map_ext. intros k _. rewrite (inner_comm n (Q i)), (inner_comm n (Q j)). reflexivity.
  - intros k i Hk Hi.
    transitivity (inner n (Q i) (fun a => inner n (C a) (V k))).
    + unfold inner at 1. transitivity (Rsum (map (fun j => Rsum (map (fun a => Q i a * (inner n (Q j) (C a) * inner n (Q j) (V k))) (seq 0 n))) (seq 0 n))).
      * apply Rsum_map_ext. intros j Hj. apply in_seq in Hj. rewrite HC by lia. unfold inner at 1. rewrite <- Rsum_scal_r, map_map. apply Rsum_map_ext. intros a _. rewrite (inner_comm n (C a)). ring.
      * rewrite (Rsum_swap (fun j a => Q i a * (inner n (Q j) (C a) * inner n (Q j) (V k)))). unfold inner at 3. apply Rsum_map_ext. intros a _. rewrite Rsum_mult_l. f_equal. apply (rotation_parseval n Q (C a) (V k) HQ).
    + rewrite (inner_ext n (Q i) _ (Q i) (fun a => nth k ev 0 * V k a)); [|reflexivity|intros a Ha; apply H3; assumption]. rewrite inner_comm, inner_scal, inner_comm. reflexivity.
Qed.
Lemma mixed_length T Q X : length (mixed T Q X) = length X.
Proof. unfold mixed. rewrite map_length. apply seq_length. Qed.
Lemma mixed_nth T Q X i : (i < length X)%nat -> nth i (mixed T Q X) [] = portfolio T X (Q i).
Proof.
  intros H. unfold mixed. rewrite (nth_indep _ [] ((fun i => portfolio T X (Q i)) 0%nat)) by (rewrite map_length, seq_length; exact H). rewrite (map_nth (fun i => portfolio T X (Q i))), seq_nth by exact H. reflexivity.
Qed.
Lemma mixed_matrix T Q X : returns_matrix X T -> returns_matrix (mixed T Q X) T.
Proof.
  intros (Hn & HT & HX). split; [rewrite mixed_length; exact Hn|]. split; [exact HT|]. intros x Hx. apply in_map_iff in Hx as (i & <- & _). apply portfolio_length.
Qed.
Theorem C136_rotation : forall er X T ev ev' Q f, returns_matrix X T -> returns_spectrum er X ev -> 0 < total_variance X -> rotation (length X) Q ->
  returns_spectrum er (mixed T Q X) ev' -> 0 <= f <= 1 -> absorption er (mixed T Q X) f = absorption er X f.
Proof.
  intros er X T ev ev' Q f HX HE HV HQ HE' Hf. set (n := length X) in *.
  assert (SP : spectrum n (covmat (mixed T Q X)) ev).
  { apply (rotated_spectrum n (covmat X) _ Q ev HQ (proj2 HE)). intros i j Hi Hj. unfold covmat at 1. rewrite !mixed_nth by assumption. apply portfolio_covariance. exact HX. }
  assert (HM := mixed_matrix T Q X HX). assert (LM := mixed_length T Q X).
  assert (TV : total_variance (mixed T Q X) = total_variance X).
  { transitivity (Rsum ev); [symmetry; apply eig_sum; rewrite LM; exact SP|apply eig_sum; apply HE]. }
  rewrite (ratio_value er X T ev f HX HE HV Hf), (ratio_value er (mixed T Q X) T ev' f HM HE') by (rewrite ?TV; assumption).
  assert (BE : bets (mixed T Q X) f = bets X f) by (unfold bets; rewrite LM; reflexivity). rewrite BE, TV. do 3 f_equal.
  assert (B := bets_le X f Hf). assert (LN : length (mixed T Q X) = n) by exact LM. apply (top_unique n (covmat (mixed T Q X))); [unfold bets; fold n; fold n in B; lia| |rewrite <- LN; apply HE'|exact SP].
  intros i j Hi Hj. apply (covmat_sym _ T HM); rewrite LN; assumption.
Qed.
(** the order of the assets *)
Theorem C136_order : forall er X X' T ev ev' f, returns_matrix X T -> returns_spectrum er X ev -> 0 < total_variance X -> Permutation X X' ->
  returns_spectrum er X' ev' -> 0 <= f <= 1 -> absorption er X' f = absorption er X f.
Proof.
  intros er X X' T ev ev' f HX HE HV HP HE' Hf. assert (LX := Permutation_length HP). destruct (proj1 (Permutation_nth X X' []) HP) as (LX' & g & HB & HI & HG).
  set (n := length X) in *. 
  assert (PG : Permutation (map g (seq 0 n)) (seq 0 n)).
  { apply NoDup_Permutation_bis; [|rewrite map_length; lia|].
    - clear - HI HB. 
      assert (G : forall l, NoDup l -> (forall x, In x l -> (x < n)%nat) -> NoDup (map g l)).
      { induction l as [|x l IH]; intros ND HL; [constructor|]. inversion ND as [|x' l' NI ND']; subst. cbn [map]. constructor; [|apply IH; [exact ND'|intros y Hy; apply HL; right; exact Hy]].
        intros Hin. apply in_map_iff in Hin as (y & E & Hy). apply NI. rewrite <- (HI y x); [exact Hy|apply HL; right; exact Hy|apply HL; left; reflexivity|exact E]. }
      apply G; [apply seq_NoDup|intros x Hx; apply in_seq in Hx; lia].
    - intros y Hy. apply in_map_iff in Hy as (x & <- & Hx). apply in_seq in Hx. apply in_seq. assert (H := HB x ltac:(lia)). lia. }
  assert (RQ : rotation n (fun i => delta (g i))).
  { split; intros i j Hi Hj.
    - transitivity (delta (g j) (g i)); [apply (Rsum_delta (delta (g j))); apply HB; exact Hi|]. unfold delta. destruct (Nat.eqb_spec (g j) (g i)) as [E | E], (Nat.eqb_spec i j) as [E' | E']; try reflexivity; [|congruence]. exfalso. apply E'. symmetry. apply HI; assumption.
    - unfold inner. transitivity (Rsum (map (fun m => delta m i * delta m j) (map g (seq 0 n)))); [rewrite map_map; reflexivity|].
      rewrite (Rsum_perm _ _ (Permutation_map (fun m => delta m i * delta m j) PG)). rewrite (Rsum_map_ext _ (fun m => delta i m * delta m j)) by (intros m _; rewrite (delta_sym m i); reflexivity). rewrite (Rsum_delta (fun m => delta m j)) by exact Hi. reflexivity. }
  assert (EX : X' = mixed T (fun i => delta (g i)) X).
  { apply (nth_ext _ _ [] []); [rewrite mixed_length; fold n; lia|]. intros i Hi. rewrite mixed_nth by (fold n; lia). rewrite portfolio_asset by (try exact HX; apply HB; lia). apply HG. lia. }
  rewrite EX in *. apply (C136_rotation er X T ev ev'); assumption.
Qed.

(** *** C136: the two extremes.  Assets that all move with one factor: every estimate that uses a portfolio at all is 1 *)
Lemma covar_factor z a b c d : z <> [] -> covar (map (fun r => a * r + b) z) (map (fun r => c * r + d) z) = a * c * covar z z.
Proof.
  intros Hz. unfold covar. rewrite !Rmean_affine by exact Hz. rewrite map2_map, map_length. unfold Rdiv. rewrite <- (Rmult_assoc (a * c)). f_equal. rewrite <- Rsum_scal, map_map2. f_equal. apply map2_ext. intros; ring.
Qed.
Theorem C136_one_factor : forall er X T ev f z b a, returns_matrix X T -> returns_spectrum er X ev -> 0 < total_variance X -> 0 <= f <= 1 ->
  length z = T -> (forall i, (i < length X)%nat -> nth i X [] = map (fun r => b i * r + a i) z) -> (1 <= bets X f)%nat -> absorption er X f = Ok (Fin 1).
Proof.
  intros er X T ev f z b a HX HE HV Hf Lz HZ HB. set (n := length X) in *. assert (HX' := HX). destruct HX' as (Hn & HT & _).
  assert (Nz : z <> []) by (intros E; rewrite E in Lz; cbn in Lz; lia).
  assert (CV : forall i j, (i < n)%nat -> (j < n)%nat -> covmat X i j = b i * b j * covar z z) by (intros i j Hi Hj; unfold covmat; rewrite !HZ by assumption; apply covar_factor; exact Nz).
  set (B := inner n b b). assert (TV : total_variance X = B * covar z z).
  { unfold total_variance. rewrite <- (map_seq_nth (fun x => covar x x) X []). fold n. unfold B, inner. rewrite <- Rsum_scal_r, map_map. apply Rsum_map_ext. intros i Hi. apply in_seq in Hi. apply (CV i i); lia. }
  assert (B0 : 0 <= B) by (unfold B, inner; apply Rsum_nonneg; intros x Hx; apply in_map_iff in Hx as (i & <- & _); apply Rle_0_sqr).
  assert (BP : 0 < B) by (destruct B0 as [H | H]; [exact H|rewrite <- H in TV; lra]). set (s := sqrt B). assert (S0 : 0 < s) by (apply sqrt_lt_R0; exact BP). assert (SS : s * s = B) by (apply sqrt_sqrt; exact B0).
  set (w := fun i => / s * b i).
  assert (WW : inner n w w = 1). { unfold w. rewrite inner_scal, inner_comm, inner_scal. fold B. rewrite <- SS. field. lra. }
  assert (OW : orthonormal n [w]). { intros i j Hi Hj. cbn in Hi, Hj. assert (i = 0%nat) by lia. assert (j = 0%nat) by lia. subst. cbn [nth]. rewrite WW. reflexivity. }
  assert (QW : quad n (covmat X) w = total_variance X).
  { rewrite TV. unfold quad. rewrite (inner_ext n w _ w (fun i => covar z z * inner n b w * b i)); [|reflexivity|].
    - assert (WB : inner n b w = s) by (unfold w; rewrite inner_comm, inner_scal; fold B; rewrite <- SS; field; lra). rewrite inner_comm, inner_scal, WB, <- SS. ring.
    - intros i Hi. unfold inner. rewrite Rmult_comm, <- Rmult_assoc, <- Rsum_mult_l. apply Rsum_map_ext. intros j Hj. apply in_seq in Hj. rewrite CV by lia. ring. }
  assert (K := ky_fan n (covmat X) ev [w] ltac:(cbn; lia) (covmat_sym X T HX) (proj2 HE) OW). cbn [map Rsum length] in K. rewrite QW, Rplus_0_r in K.
  assert (NN := eig_nonneg X T ev HX (proj2 HE)). assert (M := top_sum_mono ev 1 (bets X f) NN HB). assert (LE : length ev = n) by apply HE. assert (HK : (bets X f <= n)%nat) by (assert (H := bets_le X f Hf); unfold bets; fold n; fold n in H; lia).
  assert (U := top_sum_mono ev (bets X f) n NN HK). rewrite <- LE, top_sum_all, (eig_sum X ev (proj2 HE)) in U.
  rewrite (ratio_value er X T ev f HX HE HV Hf). do 2 f_equal. replace (top_sum (bets X f) ev) with (total_variance X) by lra. field. lra.
Qed.
(** Uncorrelated assets: the estimate is the share of the assets with the largest variances; when the variances are equal it is just the fraction of portfolios used. *)
Theorem C136_uncorrelated : forall er X T ev f, returns_matrix X T -> returns_spectrum er X ev -> 0 < total_variance X -> 0 <= f <= 1 ->
  (forall i j, (i < length X)%nat -> (j < length X)%nat -> i <> j -> covar (nth i X []) (nth j X []) = 0) ->
  absorption er X f = Ok (Fin (top_sum (bets X f) (map variance X) / total_variance X)) /\
  (forall v, (forall x, In x X -> variance x = v) -> absorption er X f = Ok (Fin (INR (bets X f) / INR (length X)))).
Proof.
  intros er X T ev f HX HE HV Hf HU. set (n := length X) in *. assert (HK : (bets X f <= n)%nat) by (assert (H := bets_le X f Hf); unfold bets; fold n; fold n in H; lia).
  assert (EN : forall k, (k < n)%nat -> nth k (map variance X) 0 = covmat X k k).
  { intros k Hk. rewrite (nth_indep _ 0 (variance [])) by (rewrite map_length; exact Hk). apply (map_nth variance). }
  assert (SP : spectrum n (covmat X) (map variance X)).
  { split; [apply map_length|]. exists delta. split; [|split].
    - intros k l Hk Hl. transitivity (delta l k); [apply (Rsum_delta (delta l)); exact Hk|apply delta_sym].
    - intros i j Hi Hj. unfold inner. rewrite (Rsum_map_ext _ (fun k => delta i k * delta k j)) by (intros k _; rewrite (delta_sym k i); reflexivity). apply (Rsum_delta (fun k => delta k j)). exact Hi.
    - intros k i Hk Hi. rewrite inner_comm. unfold inner. rewrite (Rsum_delta (covmat X i)) by exact Hk. unfold delta. destruct (Nat.eqb_spec k i) as [-> | N]; [rewrite EN by exact Hi; ring|].
      assert (Z : covmat X i k = 0) by (apply HU; [exact Hi|exact Hk|congruence]). rewrite Z. ring. }
  assert (E : absorption er X f = Ok (Fin (top_sum (bets X f) (map variance X) / total_variance X))).
  { rewrite (ratio_value er X T ev f HX HE HV Hf). do 3 f_equal. apply (top_unique n (covmat X)); [exact HK|apply (covmat_sym X T HX)|apply HE|exact SP]. }
  split; [exact E|]. intros v Hv. rewrite E. do 2 f_equal.
  assert (EM : map variance X = repeat v n). { unfold n. clear - Hv. induction X as [|x l IH]; [reflexivity|]. cbn [map length repeat]. rewrite (Hv x (or_introl eq_refl)), IH; [reflexivity|]. intros y Hy. apply Hv. right. exact Hy. }
  assert (TV : total_variance X = INR n * v). { change (total_variance X) with (Rsum (map variance X)). rewrite EM. clear. induction n as [|m IH]; [simpl; ring|]. cbn [repeat Rsum]. rewrite IH, S_INR. ring. }
  assert (TS : top_sum (bets X f) (map variance X) = INR (bets X f) * v).
  { unfold top_sum. rewrite EM. assert (AV : Forall (fun x => x = v) (sortR (repeat v n))). { apply Forall_forall. intros x Hx. apply (Permutation_in _ (Permutation_sym (sortR_perm _))) in Hx. apply repeat_spec in Hx. exact Hx. }
    assert (G : forall l, Forall (fun x => x = v) l -> Rsum l = INR (length l) * v) by (induction 1 as [|x l Hx _ IH]; [simpl; ring|]; cbn [Rsum length]; rewrite IH, S_INR, Hx; ring).
    rewrite G; [rewrite skipn_length, sortR_length, repeat_length; replace (n - (n - bets X f))%nat with (bets X f) by lia; reflexivity|]. apply Forall_forall. intros x Hx. apply skipn_In in Hx. rewrite Forall_forall in AV. apply AV. exact Hx. }
  rewrite TS, TV. assert (N0 : 0 < INR n) by (apply (lt_INR 0); assert (H := proj1 HX); unfold n; lia). assert (V0 : v <> 0) by (intros ->; rewrite Rmult_0_r in TV; lra). field. split; [lra|exact V0].
Qed.

(** Concrete case: the two assets of [C32_case]; a second data set in which both move with one factor *)
Example C136_case : exists er, returns_matrix case_X 3 /\ returns_spectrum er case_X [4; 3/4] /\ 0 < total_variance case_X /\ bets case_X (1/2) = 1%nat /\
  orthonormal 2 [fun i => if Nat.eqb i 0 then 3/5 else 4/5] /\ rotation 2 (fun i j => if Nat.eqb i j then 0 else 1) /\
  share_of 3 case_X [fun i => if Nat.eqb i 0 then 3/5 else 4/5] = 192/475 /\ absorption er case_X (1/2) = Ok (Fin (16/19)).
Proof.
  destruct C32_case as (er & H1 & H2 & H3 & H4 & _). exists er. split; [exact H1|]. split; [exact H3|]. split; [exact H2|]. split.
  { unfold bets. rewrite (Rfloor_unique _ 1) by (cbn; lra). reflexivity. }
  split; [|split; [|split; [|exact H4]]].
  - intros a b Ha Hb. cbn in Ha, Hb. assert (a = 0%nat) by lia. assert (b = 0%nat) by lia. subst. unfold inner, delta. cbn. field.
  - split; intros i j Hi Hj; destruct i as [|[|i]]; destruct j as [|[|j]]; try lia; unfold inner, delta; cbn; ring.
  - unfold share_of, total_variance, variance, portfolio, case_X, covar, Rmean. cbn. field.
Qed.
(** the hypotheses of [C136_rotation] for these assets in the other order *)
Example C136_rotation_case : exists er, returns_matrix case_X 3 /\ returns_spectrum er case_X [4; 3/4] /\ 0 < total_variance case_X /\ rotation 2 (fun i j => if Nat.eqb i j then 0 else 1) /\
  returns_spectrum er (mixed 3 (fun i j => if Nat.eqb i j then 0 else 1) case_X) [4; 3/4].
Proof.
  destruct C32_case as (er & H1 & H2 & H3 & _). assert (RQ : rotation 2 (fun i j => if Nat.eqb i j then 0 else 1)) by (split; intros i j Hi Hj; destruct i as [|[|i]]; destruct j as [|[|j]]; try lia; unfold inner, delta; cbn; ring).
  exists (fun _ => Ok [Fin 4; Fin (3/4)]). split; [exact H1|]. split; [split; [reflexivity|apply H3]|]. split; [exact H2|]. split; [exact RQ|]. split; [reflexivity|].
  apply (rotated_spectrum 2 (covmat case_X) _ _ _ RQ (proj2 H3)). intros i j Hi Hj. unfold covmat at 1. rewrite !mixed_nth by assumption. apply (portfolio_covariance 3 case_X). exact H1.
Qed.
(** and those of [C136_one_factor] *)
Example C136_one_factor_case : let X := [[3; -3]; [4; -4]] in let er := fun _ => Ok [Fin 50; Fin 0] in
  returns_matrix X 2 /\ returns_spectrum er X [50; 0] /\ 0 < total_variance X /\ bets X (1/2) = 1%nat /\
  (forall i, (i < 2)%nat -> nth i X [] = map (fun r => (if Nat.eqb i 0 then 3 else 4) * r + 0) [1; -1]).
Proof.
  assert (C : covar [3; -3] [3; -3] = 18 /\ covar [3; -3] [4; -4] = 24 /\ covar [4; -4] [3; -3] = 24 /\ covar [4; -4] [4; -4] = 32) by (unfold covar, Rmean; cbn; repeat split; field).
  destruct C as (C1 & C2 & C3 & C4). split; [|split; [|split; [|split]]].
  - split; [cbn; lia|]. split; [lia|]. intros x [<-|[<-|[]]]; reflexivity.
  - split; [reflexivity|]. split; [reflexivity|]. exists (fun k i => if Nat.eqb k 0 then (if Nat.eqb i 0 then 3/5 else 4/5) else (if Nat.eqb i 0 then -4/5 else 3/5)). split; [|split].
    + intros k l Hk Hl. cbn in Hk, Hl. destruct k as [|[|k]]; destruct l as [|[|l]]; try lia; unfold inner, delta; cbn; field.
    + intros k l Hk Hl. cbn in Hk, Hl. destruct k as [|[|k]]; destruct l as [|[|l]]; try lia; unfold inner, delta; cbn; field.
    + intros k l Hk Hl. cbn in Hk, Hl. unfold inner, covmat. cbn [length seq map Rsum nth]. destruct k as [|[|k]]; destruct l as [|[|l]]; try lia; cbn [nth Nat.eqb]; rewrite ?C1, ?C2, ?C3, ?C4; field.
  - unfold total_variance. cbn [map Rsum]. rewrite C1, C4. lra.
  - unfold bets. rewrite (Rfloor_unique _ 1) by (cbn; lra). reflexivity.
  - intros i Hi. destruct i as [|[|i]]; try lia; cbn; repeat f_equal; ring.
Qed.
