(** * Theorems for properties C01-C14 (univariate GARCH and GJR-GARCH)

    [garch_variance_py], [gjr_variance_py], [ewma_py], ... are the model of the code
    (Model_garch.v); [XRA] is the exact extended-real arithmetic (XR.v); a theorem over all
    [A : Arith] holds for the arithmetic of the machine bit for bit. *)
From Coq Require Import Reals Lra List ZArith Lia Bool Arith Permutation.
From Verif Require Import Arith XR RealAux Model_garch Spec_garch
  Proofs_garch Proofs_garch2 Proofs_garch3 Proofs_garch4 Proofs_garch5.
Import ListNotations.
Local Open Scope R_scope.

(** ** C01: positivity *)
Theorem C01_garch_variance_positive omega alpha beta bc rs bs :
  0 < omega -> 0 <= alpha -> 0 <= beta -> 0 <= bc ->
  rs <> [] -> length bs = length rs -> Forall good_row bs ->
  exists s,
    garch_variance_py XRA [Fin omega; Fin alpha; Fin beta] (map Fin rs) (Fin bc) (map finrow bs)
      = Ok (map Fin s) /\
    length s = length rs /\ Forall (fun v => 0 < v) s /\
    (forall t, (0 < t < length rs)%nat -> fst (nth t bs (0,0)) <= nth t s 0) /\
    exists ll, loglikelihood XRA (map Fin rs) (map Fin s) = Fin ll.
Proof.
  intros Ho Ha Hb Hc Hn HL HB.
  destruct (cv_fin_pos KGarch [omega; alpha; beta] rs bc bs) as (s & E & HP & HF & HLL); auto; try lia.
  - apply Forall_tl; auto.
  - simpl. assert (0 <= (alpha + beta) * bc) by (apply Rmult_le_pos; lra). lra.
  - exists s. split; [exact E|]. split; [apply HP|]. split; auto. split; [|eauto].
    intros [|t] Ht; [lia|].
    eapply (path_bounds _ _ _ _ _ HP); try lia; [apply Forall_tl; auto|].
    simpl. assert (0 <= (alpha + beta) * bc) by (apply Rmult_le_pos; lra). lra.
Qed.
Theorem C01_gjr_variance_positive omega alpha gamma beta bc rs bs :
  0 < omega -> 0 <= alpha -> 0 <= gamma -> 0 <= beta -> 0 <= bc ->
  rs <> [] -> length bs = length rs -> Forall good_row bs ->
  exists s,
    gjr_variance_py XRA [Fin omega; Fin alpha; Fin gamma; Fin beta] (map Fin rs) (Fin bc) (map finrow bs)
      = Ok (map Fin s) /\
    length s = length rs /\ Forall (fun v => 0 < v) s /\
    (forall t, (0 < t < length rs)%nat -> fst (nth t bs (0,0)) <= nth t s 0) /\
    exists ll, loglikelihood XRA (map Fin rs) (map Fin s) = Fin ll.
Proof.
  intros Ho Ha Hg Hb Hc Hn HL HB.
  assert (H0 : 0 < s0R [omega; alpha; gamma; beta] bc).
  { simpl. assert (0 <= (alpha + gamma / 2 + beta) * bc) by (apply Rmult_le_pos; lra). lra. }
  destruct (cv_fin_pos KGjr [omega; alpha; gamma; beta] rs bc bs) as (s & E & HP & HF & HLL); auto; try lia.
  - apply Forall_tl; auto.
  - exists s. split; [exact E|]. split; [apply HP|]. split; auto. split; [|eauto].
    intros [|t] Ht; [lia|].
    eapply (path_bounds _ _ _ _ _ HP); try lia; auto. apply Forall_tl; auto.
Qed.
(** The hypotheses are met, e.g. by the bounds the code itself computes for any series that is
    not identically zero (see C07). *)
Example C01_case : exists s,
  garch_variance_py XRA [Fin (1/10); Fin (1/10); Fin (8/10)] (map Fin [1; -2; 3])
    (Fin (ew_average 3 [1; -2; 3])) (map finrow (boundsR [1; -2; 3])) = Ok (map Fin s)
  /\ Forall (fun v => 0 < v) s.
Proof.
  destruct (C01_garch_variance_positive (1/10) (1/10) (8/10) (ew_average 3 [1; -2; 3]) [1; -2; 3]
    (boundsR [1; -2; 3])) as (s & H1 & _ & H2 & _); try lra; try discriminate.
  - apply ew_average_nonneg; lia.
  - reflexivity.
  - apply boundsR_good. exists 1. simpl; split; [auto|lra].
  - exists s; auto.
Qed.

(** ** C02: the recursion and causality *)
Theorem C02_garch_recursion (A : Arith) omega alpha beta rs bc bs s d db :
  garch_variance_py A [omega; alpha; beta] rs bc bs = Ok s ->
  length s = length rs /\
  nth 0 s d = nadd omega (nmul (nadd alpha beta) bc) /\
  forall t, (S t < length rs)%nat ->
    nth (S t) s d =
    bounds_check_py A
      (nadd (nadd omega (nmul alpha (nsq (nth t rs d)))) (nmul beta (nth t s d)))
      (nth (S t) bs db).
Proof. intros H. exact (cv_spec A KGarch _ rs bc bs s d db H). Qed.
Theorem C02_gjr_recursion (A : Arith) omega alpha gamma beta rs bc bs s d db :
  gjr_variance_py A [omega; alpha; gamma; beta] rs bc bs = Ok s ->
  length s = length rs /\
  nth 0 s d = nadd omega (nmul (nadd (nadd alpha (ndiv gamma (ofZ 2))) beta) bc) /\
  forall t, (S t < length rs)%nat ->
    nth (S t) s d =
    bounds_check_py A
      (nadd (nadd (nadd omega (nmul alpha (nsq (nth t rs d)))) (nmul beta (nth t s d)))
            (if nltb (nth t rs d) (ofZ 0) then nmul gamma (nsq (nth t rs d)) else ofZ 0))
      (nth (S t) bs db).
Proof. intros H. exact (cv_spec A KGjr _ rs bc bs s d db H). Qed.
(** The same with real numbers against the textbook recursion. *)
Theorem C02_garch_path omega alpha beta bc rs bs :
  rs <> [] -> length bs = length rs -> Forall good_row bs ->
  exists s, garch_variance_py XRA [Fin omega; Fin alpha; Fin beta] (map Fin rs) (Fin bc) (map finrow bs)
      = Ok (map Fin s) /\
    variance_path (garch_update omega alpha beta) (omega + (alpha + beta) * bc) rs bs s.
Proof.
  intros Hn HL HB. apply (cv_fin KGarch [omega; alpha; beta]); auto; try lia. apply Forall_tl; auto.
Qed.
Theorem C02_gjr_path omega alpha gamma beta bc rs bs :
  rs <> [] -> length bs = length rs -> Forall good_row bs ->
  exists s, gjr_variance_py XRA [Fin omega; Fin alpha; Fin gamma; Fin beta] (map Fin rs) (Fin bc) (map finrow bs)
      = Ok (map Fin s) /\
    variance_path (gjr_update omega alpha gamma beta) (omega + (alpha + gamma / 2 + beta) * bc) rs bs s.
Proof.
  intros Hn HL HB. apply (cv_fin KGjr [omega; alpha; gamma; beta]); auto; try lia. apply Forall_tl; auto.
Qed.
(** No look-ahead: entry t is a function of residuals before t and bounds up to t. *)
Theorem C02_no_lookahead (A : Arith) k params rs rs' bc bs bs' s s' t d :
  compute_variance A k params rs bc bs = Ok s ->
  compute_variance A k params rs' bc bs' = Ok s' ->
  (t < length rs)%nat -> (t < length rs')%nat ->
  firstn t rs = firstn t rs' -> firstn (S t) bs = firstn (S t) bs' ->
  nth t s d = nth t s' d.
Proof. apply cv_causal. Qed.
(** When does it return: exactly for the right number of parameters, at least one residual and
    enough bounds rows. *)
Theorem C02_defined (A : Arith) k params rs bc bs :
  (exists s, compute_variance A k params rs bc bs = Ok s) <->
  length params = nparams k /\ rs <> [] /\ (length rs <= S (length (tl bs)))%nat.
Proof.
  split.
  - intros [s H]. apply cv_inv in H as (H1 & H2 & rest & E & _). split; auto. split; auto.
    destruct (Nat.le_gt_cases (length rs) (S (length (tl bs)))) as [|Hgt]; auto. exfalso.
    rewrite var_loop_error in E; [discriminate|].
    rewrite removelast_length. lia.
  - intros (H1 & H2 & H3). rewrite cv_unfold by auto.
    edestruct var_loop_total as [o E]; [|rewrite E; simpl; eauto].
    rewrite removelast_length. lia.
Qed.
Example C02_case : exists s, garch_variance_py XRA [Fin 1; Fin (1/10); Fin (1/2)] (map Fin [1; -2]) (Fin 1)
  (map finrow [(1, 9); (1, 9)]) = Ok (map Fin s) /\ nth 0 s 0 = 16/10 /\ nth 1 s 0 = 19/10.
Proof.
  destruct (C02_garch_path 1 (1/10) (1/2) 1 [1; -2] [(1,9);(1,9)]) as (s & E & (HL & H0 & HS)); try discriminate; auto.
  - repeat constructor; unfold good_row; simpl; lra.
  - exists s. split; auto. split; [rewrite H0; lra|]. rewrite (HS 0%nat) by (simpl; lia). rewrite H0.
    unfold garch_update. simpl nth. cbn [fst snd].
    rewrite clip_log_id; simpl; lra.
Qed.

(** ** C03: Python fallback = C++ extension away from NaN *)
Theorem C03_bounds_check_same (sigma2 lower upper : xr) :
  sigma2 <> NaN -> lower <> NaN ->
  bounds_check_cpp XRA sigma2 lower upper = bounds_check_py XRA sigma2 (lower, upper).
Proof. apply bounds_check_same. Qed.
Theorem C03_bounds_check_nan_differs (lower upper : R) : lower <= upper ->
  bounds_check_cpp XRA NaN (Fin lower) (Fin upper) = NaN /\
  bounds_check_py XRA NaN (Fin lower, Fin upper) = Fin lower.
Proof.
  intros H. split; [apply bounds_check_cpp_nan|].
  unfold bounds_check_py, pymax. cbn [fst snd nltb XRA]. cbn [xltb].
  change (if Rlt_dec upper lower then true else false) with (xltb (Fin upper) (Fin lower)).
  rewrite xltb_false by lra. reflexivity.
Qed.
Theorem C03_garch_same_finite omega alpha beta bc rs bs :
  rs <> [] -> length bs = length rs -> Forall good_row bs ->
  garch_variance_py XRA [Fin omega; Fin alpha; Fin beta] (map Fin rs) (Fin bc) (map finrow bs) =
  Ok (cpp_garch XRA (Fin omega) (Fin alpha) (Fin beta) (Fin bc)
        (fun i => nth i (map Fin rs) NaN) (flat2 XRA NaN (map finrow bs)) (length rs)).
Proof. intros. apply (cpp_py_same_fin KGarch [omega; alpha; beta]); auto; lia. Qed.
Theorem C03_gjr_same_finite omega alpha gamma beta bc rs bs :
  rs <> [] -> length bs = length rs -> Forall good_row bs ->
  gjr_variance_py XRA [Fin omega; Fin alpha; Fin gamma; Fin beta] (map Fin rs) (Fin bc) (map finrow bs) =
  Ok (cpp_gjr XRA (Fin omega) (Fin alpha) (Fin gamma) (Fin beta) (Fin bc)
        (fun i => nth i (map Fin rs) NaN) (flat2 XRA NaN (map finrow bs)) (length rs)).
Proof. intros. apply (cpp_py_same_fin KGjr [omega; alpha; gamma; beta]); auto; lia. Qed.
(** Any extended-real data: if the C++ result contains no NaN and the lower bounds are numbers,
    Python computes the same. *)
Theorem C03_garch_same (omega alpha beta bc : xr) (rs : list xr) (bs : list (xr * xr)) :
  let cpp := cpp_garch XRA omega alpha beta bc (fun i => nth i rs NaN) (flat2 XRA NaN bs) (length rs) in
  rs <> [] -> (length rs <= length bs)%nat -> Forall (fun b => fst b <> NaN) bs ->
  Forall (fun x => x <> NaN) cpp ->
  garch_variance_py XRA [omega; alpha; beta] rs bc bs = Ok cpp.
Proof. intros cpp. exact (cpp_py_same KGarch [omega; alpha; beta] rs bc bs eq_refl). Qed.
Theorem C03_gjr_same (omega alpha gamma beta bc : xr) (rs : list xr) (bs : list (xr * xr)) :
  let cpp := cpp_gjr XRA omega alpha gamma beta bc (fun i => nth i rs NaN) (flat2 XRA NaN bs) (length rs) in
  rs <> [] -> (length rs <= length bs)%nat -> Forall (fun b => fst b <> NaN) bs ->
  Forall (fun x => x <> NaN) cpp ->
  gjr_variance_py XRA [omega; alpha; gamma; beta] rs bc bs = Ok cpp.
Proof. intros cpp. exact (cpp_py_same KGjr [omega; alpha; gamma; beta] rs bc bs eq_refl). Qed.
Theorem C03_ewma_same (rs : list xr) (v0 lam : xr) : rs <> [] ->
  ewma_py XRA rs v0 lam = Ok (cpp_ewma XRA (fun i => nth i rs NaN) v0 lam (length rs)).
Proof. apply cpp_ewma_same. Qed.
(** A NaN residual separates the two back-ends. *)
Theorem C03_nan_refuted : exists (params : list xr) rs bc bs s,
  garch_variance_py XRA params rs bc bs = Ok s /\
  garch_wrapper XRA params {| buf := fun i => nth i rs NaN; off := 0; stride := 1; dim := length rs |}
    bc (flat2 XRA NaN bs) <> Ok s.
Proof.
  exists [Fin 1; Fin 1; Fin 1], [NaN; NaN], (Fin 1), [(Fin 1, Fin 2); (Fin 1, Fin 2)], [Fin (1 + (1 + 1) * 1); Fin 1].
  split.
  - unfold garch_variance_py. cbn [removelast tl var_loop garch_step].
    cbn [nadd nmul nsq garch_step XRA xadd xmul xsq].
    rewrite (proj2 (C03_bounds_check_nan_differs 1 2 ltac:(lra))). reflexivity.
  - unfold garch_wrapper, cpp_garch. cbn [dim length seq map]. intros H. injection H as H.
    cbn [cpp_garch_at] in H. unfold raw in H. cbn in H.
    discriminate H.
Qed.

(** ** C04: bounds_check *)
Theorem C04_bounds_check_law s lo up : 0 < lo <= up ->
  bounds_check_py XRA (Fin s) (Fin lo, Fin up) =
  Fin (if Rle_dec s lo then lo else if Rle_dec s up then s else up + ln (s / up)).
Proof. apply bounds_check_fin. Qed.
Theorem C04_bounds_check_inf lo up : lo <= up ->
  bounds_check_py XRA PInf (Fin lo, Fin up) = Fin (up + 1000) /\
  bounds_check_py XRA MInf (Fin lo, Fin up) = Fin lo.
Proof.
  intros H. unfold bounds_check_py, pymax. split; cbn; auto.
  destruct (Rlt_dec up lo); [lra|reflexivity].
Qed.
Theorem C04_bounds_check_props s s' lo up v v' : 0 < lo <= up ->
  bounds_check_py XRA (Fin s) (Fin lo, Fin up) = Fin v ->
  bounds_check_py XRA (Fin s') (Fin lo, Fin up) = Fin v' ->
  (lo <= s <= up -> v = s) /\ (s < lo -> v = lo) /\ (up < s -> v = up + ln (s / up) /\ up < v) /\
  lo <= v /\ (s <= s' -> v <= v').
Proof.
  intros H E E'. rewrite bounds_check_fin in E, E' by auto. injection E as <-. injection E' as <-.
  split; [apply clip_log_id|]. split; [|split].
  - intros; unfold clip_log. destruct (Rle_dec s lo); lra.
  - intros Hs. unfold clip_log. destruct (Rle_dec s lo); [lra|]. destruct (Rle_dec s up); [lra|].
    split; auto. assert (0 < ln (s / up)); [|lra]. rewrite <- ln_1. apply ln_increasing; [lra|].
    apply lt_div_iff; lra.
  - split; [apply clip_log_ge_lo; auto|]. apply clip_log_mono; auto.
Qed.
(** It does not cap at the upper bound; with an upper bound below one it can even raise the variance. *)
Theorem C04_bounds_check_can_increase : exists s lo up v, 0 < lo <= up /\ up < s /\
  bounds_check_py XRA (Fin s) (Fin lo, Fin up) = Fin v /\ s < v.
Proof.
  exists (2/10), (1/100), (1/10), (1/10 + ln ((2/10) / (1/10))). split; [lra|]. split; [lra|]. split.
  - rewrite C04_bounds_check_law by lra. destruct (Rle_dec (2/10) (1/100)); [lra|].
    destruct (Rle_dec (2/10) (1/10)); [lra|]. reflexivity.
  - replace (2/10/(1/10)) with 2 by lra.
    assert (1/2 <= ln 2).
    { assert (ln (1/2) <= 1/2 - 1) by (apply ln_le_sub1; lra).
      replace (1/2) with (/2) in H at 1 by lra. rewrite ln_Rinv in H by lra. lra. }
    lra.
Qed.
Example C04_case : bounds_check_py XRA (Fin 3) (Fin 1, Fin 2) = Fin (2 + ln (3/2)).
Proof.
  rewrite C04_bounds_check_law by lra. destruct (Rle_dec 3 1); [lra|]. destruct (Rle_dec 3 2); [lra|]. reflexivity.
Qed.

(** ** C05: EWMA *)
Theorem C05_ewma_closed_form rs v0 lam : rs <> [] ->
  exists v, ewma_py XRA (map Fin rs) (Fin v0) (Fin lam) = Ok (map Fin v) /\
    length v = length rs /\
    (forall t, (t < length rs)%nat ->
      nth t v 0 = lam ^ t * v0 + (1 - lam) * Rsum (map (fun i => lam ^ (t - 1 - i) * (nth i rs 0) ^ 2) (seq 0 t))) /\
    (0 <= lam <= 1 -> forall t lo hi, (t < length rs)%nat -> lo <= v0 <= hi ->
      (forall i, (i < t)%nat -> lo <= (nth i rs 0) ^ 2 <= hi) -> lo <= nth t v 0 <= hi).
Proof.
  intros Hn. exists (ewmaR lam v0 rs). split; [apply ewma_fin; auto|].
  split; [apply ewmaR_length; auto|]. split.
  - intros t Ht. apply ewmaR_closed; auto.
  - intros Hl t lo hi Ht H0 Hr. apply ewmaR_range; auto.
Qed.
Theorem C05_ewma_causal rs rs' v0 lam v v' t : 
  ewma_py XRA (map Fin rs) (Fin v0) (Fin lam) = Ok (map Fin v) ->
  ewma_py XRA (map Fin rs') (Fin v0) (Fin lam) = Ok (map Fin v') ->
  (t < length rs)%nat -> (t < length rs')%nat -> (forall i, (i < t)%nat -> nth i rs 0 = nth i rs' 0) ->
  nth t v 0 = nth t v' 0.
Proof.
  intros H1 H2 Ht Ht' HE.
  assert (Hn : rs <> []) by (destruct rs; [simpl in Ht; lia|discriminate]).
  assert (Hn' : rs' <> []) by (destruct rs'; [simpl in Ht'; lia|discriminate]).
  assert (Hinj : forall l m, map Fin l = map Fin m -> l = m).
  { induction l; destruct m; simpl; intros H; try discriminate; auto. injection H as -> H. f_equal; auto. }
  rewrite ewma_fin in H1, H2 by auto. injection H1 as H1. injection H2 as H2.
  apply (Hinj (ewmaR lam v0 rs) v) in H1. apply (Hinj (ewmaR lam v0 rs') v') in H2. subst v v'.
  rewrite !ewmaR_closed by auto. f_equal. f_equal. apply Rsum_map_ext.
  intros i Hi. apply in_seq in Hi. rewrite HE by lia. reflexivity.
Qed.
Example C05_case : exists v, ewma_py XRA (map Fin [1; 2]) (Fin 3) (Fin (1/2)) = Ok (map Fin v) /\ nth 1 v 0 = 2.
Proof.
  destruct (C05_ewma_closed_form [1; 2] 3 (1/2)) as (v & E & _ & H & _); [discriminate|].
  exists v. split; auto. rewrite H by (simpl; lia). simpl. lra.
Qed.

(** ** C06: backcast *)
Theorem C06_backcast_average rs : rs <> [] ->
  backcast_py XRA (map Fin rs) = Fin (ew_average (Nat.min 75 (length rs)) rs).
Proof. apply backcast_fin. Qed.
Theorem C06_backcast_range rs b : rs <> [] -> backcast_py XRA (map Fin rs) = Fin b ->
  0 <= b /\
  (forall lo hi, (forall i, (i < Nat.min 75 (length rs))%nat -> lo <= nth i rs 0 ^ 2 <= hi) -> lo <= b <= hi).
Proof.
  intros Hn E. rewrite backcast_fin in E by auto. injection E as <-.
  assert (0 < Nat.min 75 (length rs))%nat by (destruct rs; [tauto|simpl; lia]).
  split; [apply ew_average_nonneg; auto|]. intros lo hi H1. apply ew_average_range; auto.
Qed.
(** only the squares of the first 75 residuals matter *)
Theorem C06_backcast_depends rs rs' : rs <> [] ->
  Nat.min 75 (length rs) = Nat.min 75 (length rs') ->
  (forall i, (i < 75)%nat -> Rabs (nth i rs 0) = Rabs (nth i rs' 0)) ->
  backcast_py XRA (map Fin rs) = backcast_py XRA (map Fin rs').
Proof.
  intros Hn HL H. assert (Hn' : rs' <> []).
  { destruct rs' as [|x rs']; [|discriminate]. destruct rs; [tauto|]. simpl in HL. lia. }
  rewrite !backcast_fin by auto. rewrite <- HL. f_equal. unfold ew_average. f_equal.
  apply Rsum_map_ext. intros i Hi. apply in_seq in Hi. f_equal.
  rewrite <- (pow2_abs (nth i rs 0)), <- (pow2_abs (nth i rs' 0)). rewrite H by lia. reflexivity.
Qed.
Theorem C06_backcast_scaling rs c b : rs <> [] -> backcast_py XRA (map Fin rs) = Fin b ->
  backcast_py XRA (map Fin (map (fun r => c * r) rs)) = Fin (c ^ 2 * b).
Proof.
  intros Hn E. rewrite backcast_fin in E by auto. rewrite backcast_fin by (destruct rs; [tauto|discriminate]).
  apply (f_equal fin_val) in E. cbn [fin_val] in E. subst b. f_equal. rewrite map_length. unfold ew_average.
  rewrite (Rsum_map_ext _ (fun i => c ^ 2 * (ew_weight i * nth i rs 0 ^ 2))).
  - rewrite Rsum_mult_l. unfold Rdiv. ring.
  - intros i Hi. apply in_seq in Hi.
    replace (nth i (map (fun r => c * r) rs) 0) with (c * nth i rs 0). { ring. }
    replace 0 with (c * 0) at 2 by ring. symmetry. exact (map_nth (fun r => c * r) rs 0 i).
Qed.
Theorem C06_weights_decrease i : 0 < ew_weight (S i) < ew_weight i.
Proof. split; [apply ew_weight_pos|apply ew_weight_decr]. Qed.
Example C06_case : backcast_py XRA (map Fin [1; 2]) = Fin ((1 + 94/100 * 4) / (1 + 94/100)).
Proof.
  rewrite C06_backcast_average by discriminate. f_equal. unfold ew_average, ew_weight. simpl. field.
Qed.

(** ** C07: variance bounds *)
Theorem C07_variance_bounds rs : rs <> [] -> exists v e,
  (* e: the EWMA (lambda = 0.94) of the squared residuals started at the backcast *)
  ewma_py XRA (map Fin rs) (Fin (ew_average (Nat.min 75 (length rs)) rs)) (Fin (94/100)) = Ok (map Fin e) /\
  variance_bounds XRA (map Fin rs) = Ok (map finrow v) /\ length v = length rs /\
  (forall t, (t < length rs)%nat ->
    nth t v (0,0) = (Rmax (nth t e 0) (Rvar rs / 100000000) / 1000000,
                     Rmax (nth t e 0) (Rvar rs / 100000000) * 1000000)) /\
  ((exists x, In x rs /\ x <> 0) ->
   forall t, (t < length rs)%nat ->
     0 < fst (nth t v (0,0)) < snd (nth t v (0,0)) /\
     snd (nth t v (0,0)) = 1000000000000 * fst (nth t v (0,0))).
Proof.
  intros Hn. exists (boundsR rs), (ewmaR (94/100) (ew_average (Nat.min 75 (length rs)) rs) rs).
  assert (HN : forall t, (t < length rs)%nat -> nth t (boundsR rs) (0,0) = (vbR rs t / 1000000, vbR rs t * 1000000)).
  { intros t Ht. unfold boundsR. rewrite nth_map_seq by auto; reflexivity. }
  split; [apply ewma_fin; auto|]. split; [apply variance_bounds_fin; auto|]. split; [apply boundsR_length|].
  split.
  - intros t Ht. rewrite HN by auto. reflexivity.
  - intros Hx t Ht. rewrite HN by auto. simpl. pose proof (vbR_pos rs t Hx Ht). split; lra.
Qed.
Theorem C07_all_zero n : (0 < n)%nat ->
  variance_bounds XRA (repeat (Fin 0) n) = Ok (repeat (Fin 0, Fin 0) n).
Proof. apply variance_bounds_zero. Qed.
(** with all-zero residuals the variances after the first alternate between +inf and 1000 *)
Theorem C07_all_zero_infinite omega alpha beta n s t : (0 < n)%nat -> 0 < omega -> 0 <= alpha -> 0 < beta ->
  garch_variance_py XRA [Fin omega; Fin alpha; Fin beta] (repeat (Fin 0) n) (backcast_py XRA (repeat (Fin 0) n))
    (repeat (Fin 0, Fin 0) n) = Ok s ->
  (0 < t < n)%nat -> nth t s NaN = if Nat.odd t then PInf else Fin 1000.
Proof.
  intros Hn Ho Ha Hb E Ht.
  assert (EB : backcast_py XRA (repeat (Fin 0) n) = Fin 0).
  { replace (repeat (Fin 0) n) with (map Fin (repeat 0 n)) by (clear; induction n; simpl; f_equal; auto).
    rewrite backcast_fin by (destruct n; [lia|discriminate]). f_equal.
    assert (HR : 0 <= ew_average (Nat.min 75 (length (repeat 0 n))) (repeat 0 n) <= 0); [|lra].
    apply ew_average_range; [rewrite repeat_length; lia|]. intros i _.
    replace (nth i (repeat 0 n) 0) with 0; [simpl; lra|]. clear. revert n; induction i; destruct n; simpl; auto. }
  rewrite EB in E.
  pose proof (C02_garch_recursion XRA _ _ _ _ _ _ _ NaN (NaN, NaN) E) as (_ & H0 & HS).
  rewrite repeat_length in HS.
  assert (Hr0 : forall i, (i < n)%nat -> nth i (repeat (Fin 0) n) NaN = Fin 0).
  { clear; intros i; revert n; induction i; destruct n; simpl; intros; try lia; auto. apply IHi; lia. }
  assert (Hb0 : forall i, (i < n)%nat -> nth i (repeat (Fin 0, Fin 0) n) (NaN, NaN) = (Fin 0, Fin 0)).
  { clear; intros i; revert n; induction i; destruct n; simpl; intros; try lia; auto. apply IHi; lia. }
  assert (B1 : forall x, 0 < x -> bounds_check_py XRA (Fin x) (Fin 0, Fin 0) = PInf).
  { intros x Hx. unfold bounds_check_py, pymax. cbn [fst snd nltb XRA].
    rewrite xltb_true by auto. rewrite xltb_true by auto. cbn [isinf XRA xisinf negb ndiv nlog nadd].
    rewrite xdiv_0, xsgn_inf_pos by auto. reflexivity. }
  assert (B2 : bounds_check_py XRA PInf (Fin 0, Fin 0) = Fin 1000).
  { unfold bounds_check_py, pymax. cbn. f_equal; lra. }
  cbn [nadd nmul nsq XRA] in H0, HS. cbn [xadd xmul] in H0.
  assert (HI : forall i, (i < n)%nat ->
     (if Nat.odd i then nth i s NaN = PInf else exists x, 0 < x /\ nth i s NaN = Fin x /\ (i = 0%nat \/ x = 1000))).
  { induction i as [|i IH]; intros Hi.
    - exists (omega + (alpha + beta) * 0). split; [lra|]. split; auto.
    - specialize (IH ltac:(lia)). rewrite Nat.odd_succ, <- Nat.negb_odd.
      destruct (Nat.odd i); simpl negb; cbv iota.
      + exists 1000. split; [lra|]. split; [|auto].
        rewrite (HS i Hi), Hr0, Hb0, IH by lia. cbn [xsq xmul xadd]. rewrite xsgn_inf_pos by auto. cbn [xadd]. exact B2.
      + destruct IH as (x & Hx & Ex & _).
        rewrite (HS i Hi), Hr0, Hb0, Ex by lia. cbn [xsq xmul xadd]. apply B1.
        assert (0 < beta * x) by (apply Rmult_lt_0_compat; auto). lra. }
  specialize (HI t ltac:(lia)). destruct (Nat.odd t); auto.
  destruct HI as (x & Hx & Ex & [E0|E0]); [lia|subst x; exact Ex].
Qed.
Example C07_case : exists v, variance_bounds XRA (map Fin [1; -1; 2]) = Ok (map finrow v) /\ 0 < fst (nth 2 v (0,0)).
Proof.
  destruct (C07_variance_bounds [1; -1; 2]) as (v & e & _ & E & _ & _ & H); [discriminate|].
  exists v. split; auto. apply H; [|simpl; lia]. exists 1. simpl. split; [auto|lra].
Qed.
