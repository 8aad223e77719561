(** * Property C145: rounding errors in the two-step DCC log-likelihood *)
From Coq Require Import Reals ZArith List Bool Arith Lia Lra Psatz.
From Flocq Require Import Core BinarySingleNaN.
From Verif Require Import Arith XR RealAux Float64 Float64b Float64c Float64d Float64e Model_garch Spec_garch Proofs_garch2 Props_garch2 Model_mgarch Props_mgarch Props_float4 Props_float5 Props_accuracy Props_accuracy2 Props_averages Props_option64 Props_loglik64 Props_dcc64 Props_ccc64.
Import ListNotations.
Local Open Scope R_scope.

(** ** Specification *)
(** a computed conditional correlation: any double that is zero or at least 2^-100 in absolute value (it is clipped at 0.99 on either side) *)
Definition rho64 (x : b64) : Prop := is_finite x = true /\ (B2R x = 0 \/ bpow radix2 (-100) <= Rabs (B2R x)).
(** the parts of the correlation component of one pair of observations, all with a positive sign (and one unit for the logarithm) *)
Definition corr_size (c x v y w : R) : R := (x ^ 2 / v + y ^ 2 / w + (1 + Rabs (ln (1 - c ^ 2))) + quad_size c x v y w) / 2.
(** the size of the whole two-step log-likelihood: both univariate ones and the correlation component at the clipped correlations *)
Definition two_step_size (rho r1 s1 r2 s2 : list R) : R :=
  total_size r1 s1 + total_size r2 s2 + sum5 (fun c x v y w => corr_size (clip99 c) x v y w) rho r1 s1 r2 s2.

(** ** Proofs *)
Lemma lit99 : exists q, val (fdiv (fofZ 99) (fofZ 100)) = Fin q /\ rel 1 q (99 / 100) /\ 0 < q <= 1.
Proof.
  destruct (close_div 0 0 (fofZ 99) (fofZ 100) 99 100) as (q & E & Q0 & HR); [simpl; lia|apply close_exact; [apply val_ofZ_small; simpl; lia|lra]|apply close_exact; [apply val_ofZ_small; simpl; lia|lra]|lra| | |].
  - right. apply (Rle_trans _ (bpow radix2 (-1))); [apply bpow_le; lia|simpl; lra].
  - apply (Rle_trans _ (bpow radix2 0)); [simpl; lra|apply bpow_le; lia].
  - exists q. split; [exact E|]. split; [exact HR|]. destruct HR as [H1 H2]. unfold up in *. rewrite pow_1 in *. assert (U := uro_pos). assert (UE := uro_eq). split; nra.
Qed.
Lemma val_npclip lm x lo hi c a b : val x = Fin c -> val lo = Fin a -> val hi = Fin b -> val (npclip (B64 lm) x lo hi) = Fin (Rmin (Rmax c a) b).
Proof.
  intros EX EA EB. unfold npclip, npmax, npmin. cbn [isnan nltb B64]. change (num (B64 lm)) with b64 in *.
  assert (NN : forall y r, val y = Fin r -> is_nan y = false) by (intros [] r E; try reflexivity; discriminate). rewrite (NN _ _ EX), (NN _ _ EA).
  assert (EM : val (if Bltb x lo then lo else x) = Fin (Rmax c a)).
  { rewrite val_ltb, EX, EA. unfold Rmax. destruct (Rle_dec c a) as [H | H].
    - destruct (Rlt_dec c a) as [L | L]; [rewrite xltb_true by exact L; exact EA|rewrite xltb_false by lra; rewrite EX; f_equal; lra].
    - rewrite xltb_false by lra. exact EX. }
  set (m := if Bltb x lo then lo else x) in *. rewrite (NN _ _ EM), (NN _ _ EB), val_ltb, EB, EM. unfold Rmin. destruct (Rle_dec (Rmax c a) b) as [H | H].
  - rewrite xltb_false by lra. exact EM.
  - rewrite xltb_true by lra. exact EB.
Qed.
Lemma clip_scl lm x : rho64 x -> let y := npclip (B64 lm) x (nopp (lit 99 100)) (lit 99 100) in scl 1 y (clip99 (B2R x)) /\ (clip99 (B2R x) = 0 \/ bpow radix2 (-100) <= Rabs (clip99 (B2R x))).
Proof.
  intros [F H]. cbv zeta. cbn [nopp lit B64]. destruct lit99 as (q & EQ & [Q1 Q2] & Q0). assert (EN : val (Bopp (fdiv (fofZ 99) (fofZ 100))) = Fin (- q)) by (rewrite val_opp, EQ; reflexivity).
  assert (E := val_npclip lm x _ _ _ _ _ (val_fin x F) EN EQ). set (c := B2R x) in *. assert (U := uro_pos). assert (B : bpow radix2 (-100) <= 99 / 100) by (apply (Rle_trans _ (bpow radix2 (-1))); [apply bpow_le; lia|simpl; lra]).
  assert (G : up 1 = 1 + uro) by (unfold up; apply pow_1). rewrite G in Q1, Q2. split.
  - exists (Rmin (Rmax c (- q)) q). split; [exact E|]. unfold clip99, rel. rewrite G. destruct (Rle_lt_dec 0 c) as [HC | HC]; [left|right].
    + rewrite (Rmax_left c (- q)) by lra. rewrite (Rmax_right (-99 / 100)); [|apply (Rle_trans _ 0); [lra|apply Rmin_glb; lra]].
      unfold Rmin. destruct (Rle_dec c q), (Rle_dec c (99 / 100)); repeat split; try lra; nra.
    + rewrite (Rmin_left c (99 / 100)) by lra. rewrite (Rmin_left (Rmax c (- q)) q); [|apply Rmax_lub; lra].
      unfold Rmax. destruct (Rle_dec c (- q)), (Rle_dec (-99 / 100) c); repeat split; try lra; nra.
  - unfold clip99. destruct H as [-> | H]; [left; rewrite (Rmin_left 0) by lra; rewrite Rmax_right by lra; reflexivity|]. right. destruct (Rle_lt_dec 0 c) as [HC | HC].
    + rewrite (Rabs_pos_eq c HC) in H. rewrite Rmax_right; [|apply (Rle_trans _ 0); [lra|apply Rmin_glb; lra]]. rewrite Rabs_pos_eq by (apply Rmin_glb; lra). apply Rmin_glb; lra.
    + rewrite (Rabs_left c HC) in H. rewrite (Rmin_left c (99 / 100)) by lra. rewrite Rabs_left1 by (apply Rmax_lub; lra). unfold Rmax. destruct (Rle_dec (-99 / 100) c); lra.
Qed.
Lemma clip99_det c : 1 <= INR 51 * (1 - clip99 c * clip99 c).
Proof.
  assert (H : -99 / 100 <= clip99 c <= 99 / 100). { unfold clip99. split; [apply Rmax_l|]. apply Rmax_lub; [lra|apply Rmin_r]. }
  replace (INR 51) with 51 by (rewrite INR_IZR_INZ; reflexivity). nra.
Qed.
(** the exact correlation component of one pair *)
Definition corr_part (c x v y w : R) : R :=
  - (1 / 2) * (- (x / sqrt v * (x / sqrt v) + y / sqrt w * (y / sqrt w)) + ln (1 - c * c) + (x / sqrt v * (x / sqrt v) + y / sqrt w * (y / sqrt w) - 2 * c * (x / sqrt v) * (y / sqrt w)) / (1 - c * c)).
Lemma zsq x v : 0 < v -> x / sqrt v * (x / sqrt v) = x ^ 2 / v.
Proof. intros Hv. assert (0 < sqrt v) by (apply sqrt_lt_R0; exact Hv). rewrite <- (sqrt_sqrt v) at 3 by lra. field. lra. Qed.
Lemma dcc_term_near lm rho r1 s1 r2 s2 : square_is_product lm -> log_accurate lm -> rho64 rho -> resid64 r1 -> positive64 s1 -> resid64 r2 -> positive64 s2 ->
  let c := clip99 (B2R rho) in
  near 630 (dcc_term (B64 lm) (npclip (B64 lm) rho (nopp (lit 99 100)) (lit 99 100)) (fdiv r1 (fsqrt s1)) (fdiv r2 (fsqrt s2))) (corr_part c (B2R r1) (B2R s1) (B2R r2) (B2R s2)) (corr_size c (B2R r1) (B2R s1) (B2R r2) (B2R s2)) /\
  1 / 2 <= corr_size c (B2R r1) (B2R s1) (B2R r2) (B2R s2) <= bpow radix2 800.
Proof.
  intros HS HA HR R1 P1 R2 P2 c. destruct (clip_scl lm rho HR) as [SC TC]. cbv zeta in SC. fold c in SC, TC. set (y := npclip (B64 lm) rho (nopp (lit 99 100)) (lit 99 100)) in *.
  assert (HN := clip99_det (B2R rho)). fold c in HN. assert (CB : Rabs c <= 1) by (apply Rabs_le; destruct (clip99_range (B2R rho)) as [H _]; fold c in H; lra).
  assert (ST : span 100 (Rabs c)).
  { destruct TC as [-> | TC]; [left; apply Rabs_R0|right; split; [exact TC|]]. apply (Rle_trans _ (bpow radix2 0)); [exact CB|apply bpow_le; lia]. }
  assert (CD := det_close 1 51 y c ltac:(lia) SC TC HN ltac:(simpl; lia)). change (4 * (1 + 1 + 1) * 51 + 1)%nat with 613%nat in CD. assert (WD := det_within 51 c HN ltac:(simpl; lia)).
  destruct (zscore_scl r1 s1 R1 P1) as [Z1 SZ1]. destruct (zscore_scl r2 s2 R2 P2) as [Z2 SZ2].
  assert (Q1 : 0 < B2R s1) by (destruct P1 as [_ P1]; assert (P := bpow_gt_0 radix2 (-100)); lra). assert (Q2 : 0 < B2R s2) by (destruct P2 as [_ P2]; assert (P := bpow_gt_0 radix2 (-100)); lra).
  destruct (quad_over_near lm 613 y _ _ c _ _ (fsub (fofZ 1) (fmul y y)) (1 - c * c) HS SC ST Z1 SZ1 Z2 SZ2 CD WD ltac:(simpl; lia)) as [NQ SQ]. rewrite quad_size_eq in NQ, SQ by assumption.
  destruct (scl_square_near lm _ _ HS Z1 SZ1) as [NX QX]. destruct (scl_square_near lm _ _ HS Z2 SZ2) as [NY QY]. assert (S1 := span_add _ _ _ QX QY). change (300 + 1)%Z with 301%Z in S1. assert (B1 := bpow1000 301 _ ltac:(lia) S1). assert (B2 := span_le 301 _ ltac:(lia) S1). assert (B3 := span_nonneg 301 _ S1).
  assert (NS := near_opp _ _ _ _ (near_add 5 5 5 _ _ _ _ _ _ ltac:(lia) ltac:(lia) ltac:(simpl; lia) NX NY B1)).
  assert (D0 : 0 < 1 - c * c) by (destruct WD as [WD _]; assert (P := bpow_gt_0 radix2 (-50)); lra). assert (SD : span 50 (1 - c * c)) by (right; split; [apply WD|eapply Rle_trans; [apply WD|apply bpow_le; lia]]).
  assert (NL := near_logv lm 613 _ _ HA ltac:(simpl; lia) CD D0). assert (BL := close_pos_ln 50 _ D0 SD ltac:(lia)). assert (BQ := span_le 550 _ ltac:(lia) SQ). assert (BQ0 := span_nonneg 550 _ SQ).
  assert (B6 : 3000 <= bpow radix2 550) by (apply (Rle_trans _ (bpow radix2 12)); [simpl; lra|apply bpow_le; lia]). assert (B7 : bpow radix2 550 * 2 * 2 <= bpow radix2 800) by (rewrite !bpow_double; apply bpow_le; lia). assert (B8 : bpow radix2 800 <= bpow radix2 1000) by (apply bpow_le; lia). assert (B5 : bpow radix2 301 <= bpow radix2 550) by (apply bpow_le; lia).
  assert (B9 : bpow radix2 (-1000) <= 1 / 2) by (apply (Rle_trans _ (bpow radix2 (-1))); [apply bpow_le; lia|simpl; lra]).
  set (rr := B2R r1 / sqrt (B2R s1)) in *. set (ss := B2R r2 / sqrt (B2R s2)) in *.
  assert (EP : corr_size c (B2R r1) (B2R s1) (B2R r2) (B2R s2) = 1 / 2 * (rr * rr + ss * ss + (1 + Rabs (ln (1 - c * c))) + quad_size c (B2R r1) (B2R s1) (B2R r2) (B2R s2))).
  { unfold corr_size, rr, ss. rewrite !zsq by assumption. replace (1 - c ^ 2) with (1 - c * c) by ring. lra. }
  split; [|rewrite EP; lra].
  assert (N4 := near_add 6 615 626 _ _ _ _ _ _ ltac:(lia) ltac:(lia) ltac:(simpl; lia) NS NL ltac:(lra)).
  assert (N5 := near_add 627 627 627 _ _ _ _ _ _ ltac:(lia) ltac:(lia) ltac:(simpl; lia) N4 NQ ltac:(lra)).
  assert (NH : near 0 (Bopp (fdiv (fofZ 5) (fofZ 10))) (- (1 / 2)) (1 / 2)) by (apply near_exact; [rewrite val_opp, val_half; reflexivity|rewrite Rabs_Ropp, Rabs_right; lra]).
  assert (N6 := near_mul 0 628 _ _ _ _ _ _ ltac:(simpl; lia) NH N5 ltac:(lra) ltac:(right; lra)). rewrite <- EP in N6.
  unfold dcc_term. cbn [nopp lit nmul nlog nadd nsub ndiv nsq nsqrt ofZ npi B64]. rewrite (HS y). exact N6.
Qed.
Lemma dcc_terms lm : square_is_product lm -> log_accurate lm -> forall rho r1 s1 r2 s2, length s1 = length r1 -> length r2 = length r1 -> length s2 = length r1 -> length rho = length r1 ->
  Forall rho64 rho -> Forall resid64 r1 -> Forall positive64 s1 -> Forall resid64 r2 -> Forall positive64 s2 -> exists m : list (R * R),
  let terms := map2 (fun r z => dcc_term (B64 lm) r (fst z) (snd z)) (map (fun r => npclip (B64 lm) r (nopp (lit 99 100)) (lit 99 100)) rho) (combine (standardize (B64 lm) r1 s1) (standardize (B64 lm) r2 s2)) in
  Forall2 (fun x p => near 630 x (fst p) (snd p)) terms m /\ Forall (fun p => 1 / 2 <= snd p <= bpow radix2 800) m /\ length terms = length r1 /\
  Rsum (map fst m) = sum5 (fun c => corr_part (clip99 c)) (reals rho) (reals r1) (reals s1) (reals r2) (reals s2) /\
  Rsum (map snd m) = sum5 (fun c => corr_size (clip99 c)) (reals rho) (reals r1) (reals s1) (reals r2) (reals s2).
Proof.
  intros HS HA. induction rho as [|c rho IH]; intros [|a r1] [|b s1] [|d r2] [|e s2] L1 L2 L3 L4 H0 H1 H2 H3 H4; try discriminate.
  - exists []. cbn. repeat split; constructor.
  - inversion H0; inversion H1; inversion H2; inversion H3; inversion H4; subst. injection L1 as L1. injection L2 as L2. injection L3 as L3. injection L4 as L4.
    destruct (IH r1 s1 r2 s2 L1 L2 L3 L4) as (m & I1 & I2 & I3 & I4 & I5); try assumption.
    assert (T : rho64 c /\ resid64 a /\ positive64 b /\ resid64 d /\ positive64 e) by auto. destruct T as (T1 & T2 & T3 & T4 & T5).
    destruct (dcc_term_near lm c a b d e HS HA T1 T2 T3 T4 T5) as [N B]. cbv zeta in *.
    exists ((corr_part (clip99 (B2R c)) (B2R a) (B2R b) (B2R d) (B2R e), corr_size (clip99 (B2R c)) (B2R a) (B2R b) (B2R d) (B2R e)) :: m).
    unfold standardize, reals, sum5 in *. cbn [map map2 combine fst snd length Rsum]. split; [constructor; [exact N|exact I1]|]. split; [constructor; [exact B|exact I2]|]. split; [f_equal; exact I3|]. split; f_equal; assumption.
Qed.
Lemma two_step_exact rho r1 s1 r2 s2 : length r1 = length s1 -> length r2 = length s2 -> length r1 = length r2 -> length rho = length r1 -> positive s1 -> positive s2 ->
  exact_loglik r1 s1 + exact_loglik r2 s2 + sum5 (fun c => corr_part (clip99 c)) rho r1 s1 r2 s2 = sum5 (fun c x v y w => ln (bivariate_density v w (clip99 c) x y)) rho r1 s1 r2 s2.
Proof.
  intros L1 L2 L12 LR P1 P2. assert (X := C18_two_step_loglik_is_the_bivariate_one rho r1 s1 r2 s2 L1 L2 L12 LR P1 P2).
  unfold dcc_negative_loglik in X. rewrite !C11_gaussian_loglik in X by (first [assumption | symmetry; assumption]). change (num XRA) with xr in X. rewrite !standardize_fin in X by (first [assumption | symmetry; assumption]). rewrite combine_fin, map_map, map2_map in X. cbn [fst snd] in X.
  rewrite (map2_ext _ (fun c p => Fin (- (1/2) * (- (fst p * fst p + snd p * snd p) + ln (1 - clip99 c * clip99 c) + (fst p * fst p + snd p * snd p - 2 * clip99 c * fst p * snd p) / (1 - clip99 c * clip99 c))))) in X.
  2:{ intros c p. rewrite clip_fin. apply dcc_term_fin. apply clip99_range. }
  rewrite <- (map_map2 Fin (fun c p => - (1/2) * (- (fst p * fst p + snd p * snd p) + ln (1 - clip99 c * clip99 c) + (fst p * fst p + snd p * snd p - 2 * clip99 c * fst p * snd p) / (1 - clip99 c * clip99 c)))) in X.
  rewrite asum_fin in X. cbn [nadd nopp XRA xadd xopp] in X. injection X as X. apply Ropp_eq_compat in X. rewrite !Ropp_involutive in X. rewrite <- X. unfold exact_loglik. f_equal.
  clear. unfold sum5, zscores. revert r1 s1 r2 s2. induction rho as [|c rho IH]; intros [|x r1] [|v s1] [|y r2] [|w s2]; cbn [combine map2 Rsum fst snd]; try reflexivity.
  - f_equal. apply IH.
Qed.

Lemma sizes_below (l : list (R * R)) : Forall (fun p => snd p <= bpow radix2 800) l -> (Z.of_nat (length l) <= 2 ^ 50)%Z -> Rsum (map snd l) <= bpow radix2 850.
Proof.
  intros HF HN. apply (Rle_trans _ (INR (length l) * bpow radix2 800)).
  - clear HN. induction HF as [|p l Hp HF IH]; cbn [map Rsum length]; [simpl; lra|]. rewrite S_INR. lra.
  - rewrite INR_IZR_INZ. apply (Rle_trans _ (bpow radix2 50 * bpow radix2 800)); [|rewrite <- bpow_plus; apply bpow_le; lia].
    apply Rmult_le_compat_r; [apply bpow_ge_0|]. rewrite <- (IZR_Zpower radix2 50) by lia. apply IZR_le. exact HN.
Qed.
Lemma total_size_below lm r s : square_is_product lm -> log_accurate lm -> pi_accurate lm -> Forall resid64 r -> Forall2 (fun x y => sized 500 0 x y /\ 0 < y) s (reals s) -> (Z.of_nat (length r) <= 2 ^ 50)%Z -> total_size (reals r) (reals s) <= bpow radix2 850.
Proof.
  intros HS HA HP HR HX HN. destruct (near_terms lm 0 HS HA HP ltac:(simpl; lia) r s (reals s) HR HX) as (I1 & I2 & _ & I4). cbv zeta in *. unfold total_size, reals at 1. rewrite <- I4. assert (LM := Forall2_len _ _ _ I1). rewrite map2_len in LM.
  apply sizes_below; [eapply Forall_impl; [|exact I2]; intros p Hp; apply Hp|]. change (num (B64 lm)) with b64 in *. assert (Nat.min (length r) (length s) <= length r)%nat by apply Nat.le_min_l. lia.
Qed.

(** *** C145: the two-step log-likelihood of given variances and conditional correlations, standardisation and clipping included *)
Theorem C145_two_step : forall lm rho r1 s1 r2 s2, square_is_product lm -> log_accurate lm -> pi_accurate lm ->
  Forall rho64 rho -> Forall resid64 r1 -> Forall positive64 s1 -> Forall resid64 r2 -> Forall positive64 s2 -> r1 <> [] -> length s1 = length r1 -> length r2 = length r1 -> length s2 = length r1 -> length rho = length r1 -> (Z.of_nat (length r1) <= 2 ^ 50)%Z ->
  let L := sum5 (fun c x v y w => ln (bivariate_density v w (clip99 c) x y)) (reals rho) (reals r1) (reals s1) (reals r2) (reals s2) in
  exists v, val (dcc_negative_loglik (B64 lm) (loglikelihood (B64 lm) r1 s1) (loglikelihood (B64 lm) r2 s2) rho (standardize (B64 lm) r1 s1) (standardize (B64 lm) r2 s2)) = Fin (- v) /\
    dcc_negative_loglik XRA (loglikelihood XRA (map exact r1) (map exact s1)) (loglikelihood XRA (map exact r2) (map exact s2)) (map exact rho) (standardize XRA (map exact r1) (map exact s1)) (standardize XRA (map exact r2) (map exact s2)) = Fin (- L) /\
    Rabs (v - L) <= INR (631 + levels lm (length r1)) * bpow radix2 (-52) * two_step_size (reals rho) (reals r1) (reals s1) (reals r2) (reals s2).
Proof.
  intros lm rho r1 s1 r2 s2 HS HA HP H0 R1 P1 R2 P2 HNE L1 L2 L3 L4 HN L.
  assert (LV := levels_lt lm (length r1) ltac:(destruct r1; [congruence|cbn; lia])).
  assert (PV : forall l, Forall positive64 l -> Forall2 (fun x s => sized 500 0 x s /\ 0 < s) l (reals l)).
  { induction 1 as [|x l [F B] HF IH]; constructor; [|exact IH]. assert (P := bpow_gt_0 radix2 (-100)). split; [|lra]. apply sized_exact; [apply val_fin, F|]. apply (span_weaken 100); [lia|right; exact B]. }
  assert (PP : forall l, Forall positive64 l -> positive (map (@B2R 53 1024) l)).
  { intros l HF. apply Forall_forall. intros z Hz. apply in_map_iff in Hz as (x & <- & Hx). rewrite Forall_forall in HF. destruct (HF x Hx) as [_ B]. assert (P := bpow_gt_0 radix2 (-100)). lra. }
  assert (N1 := loglik_near lm 0 r1 s1 _ HS HA HP HNE HN ltac:(simpl; lia) R1 L1 (PV _ P1)).
  assert (HNE2 : r2 <> []) by (destruct r2; [destruct r1; [congruence|discriminate]|discriminate]).
  assert (N2 := loglik_near lm 0 r2 s2 _ HS HA HP HNE2 ltac:(lia) ltac:(simpl; lia) R2 ltac:(lia) (PV _ P2)). rewrite L2 in N2.
  destruct (dcc_terms lm HS HA rho r1 s1 r2 s2 L1 L2 L3 L4 H0 R1 P1 R2 P2) as (m & I1 & I2 & I3 & I4 & I5). cbv zeta in *.
  change (num (B64 lm)) with b64 in *. assert (LM : length r1 = length m) by (rewrite <- I3; exact (Forall2_len _ _ _ I1)).
  assert (T3 : Rsum (map snd m) <= bpow radix2 850) by (apply sizes_below; [eapply Forall_impl; [|exact I2]; intros p Hp; apply Hp|lia]).
  assert (T1 := total_size_below lm r1 s1 HS HA HP R1 (PV _ P1) ltac:(lia)). assert (T2 := total_size_below lm r2 s2 HS HA HP R2 (PV _ P2) ltac:(lia)).
  assert (B3 : bpow radix2 850 * 2 * 2 <= bpow radix2 1000) by (rewrite !bpow_double; apply bpow_le; lia). assert (B0 := bpow_gt_0 radix2 850).
  assert (N3 := I1). eapply (near_fsum_sizes lm) in N3; [|apply (Rle_trans _ _ _ T3), bpow_le; lia|rewrite I3; lia]. rewrite I3, I4, I5 in N3. rewrite I5 in T3.
  set (d := levels lm (length r1)) in *. assert (N4 := near_add (0 + 8 + d) (0 + 8 + d) (629 + d) _ _ _ _ _ _ ltac:(lia) ltac:(lia) ltac:(lia) N1 N2 ltac:(unfold reals in *; lra)).
  assert (N5 := near_add (S (629 + d)) (630 + d) (630 + d) _ _ _ _ _ _ ltac:(lia) ltac:(lia) ltac:(lia) N4 N3 ltac:(unfold reals in *; lra)).
  destruct (near_error (S (630 + d)) _ _ _ ltac:(lia) N5) as (v & Ev & D).
  assert (EL : exact_loglik (map B2R r1) (reals s1) + exact_loglik (map B2R r2) (reals s2) + sum5 (fun c => corr_part (clip99 c)) (reals rho) (reals r1) (reals s1) (reals r2) (reals s2) = L).
  { unfold L, reals. apply two_step_exact; rewrite ?map_length; first [exact (eq_sym L1) | exact (eq_trans L2 (eq_sym L3)) | exact (eq_sym L2) | exact L4 | apply PP; assumption]. }
  rewrite EL in D. exists v. split; [|split].
  - exact (eq_trans (val_opp _) (f_equal xopp Ev)).
  - unfold L, reals. rewrite !exact_fin. apply C18_two_step_loglik_is_the_bivariate_one; rewrite ?map_length; first [exact (eq_sym L1) | exact (eq_trans L2 (eq_sym L3)) | exact (eq_sym L2) | exact L4 | apply PP; assumption].
  - unfold two_step_size, reals in *. exact D.
Qed.
(** *** C145: of two correlation paths (two candidates for the news weights, say) the computed objective prefers the better one unless their exact values are closer than the two error bounds *)
Theorem C145_comparison : forall lm rho rho' r1 s1 r2 s2, square_is_product lm -> log_accurate lm -> pi_accurate lm ->
  Forall rho64 rho -> Forall rho64 rho' -> Forall resid64 r1 -> Forall positive64 s1 -> Forall resid64 r2 -> Forall positive64 s2 -> r1 <> [] -> length s1 = length r1 -> length r2 = length r1 -> length s2 = length r1 -> length rho = length r1 -> length rho' = length r1 -> (Z.of_nat (length r1) <= 2 ^ 50)%Z ->
  let L c := sum5 (fun c x v y w => ln (bivariate_density v w (clip99 c) x y)) (reals c) (reals r1) (reals s1) (reals r2) (reals s2) in
  let size c := two_step_size (reals c) (reals r1) (reals s1) (reals r2) (reals s2) in
  let objective c := dcc_negative_loglik (B64 lm) (loglikelihood (B64 lm) r1 s1) (loglikelihood (B64 lm) r2 s2) c (standardize (B64 lm) r1 s1) (standardize (B64 lm) r2 s2) in
  INR (631 + levels lm (length r1)) * bpow radix2 (-52) * (size rho + size rho') < L rho' - L rho ->
  Bltb (objective rho') (objective rho) = true.
Proof.
  intros lm rho rho' r1 s1 r2 s2 HS HA HP H0 H0' R1 P1 R2 P2 HNE L1 L2 L3 L4 L4' HN L size objective HD.
  destruct (C145_two_step lm rho r1 s1 r2 s2 HS HA HP H0 R1 P1 R2 P2 HNE L1 L2 L3 L4 HN) as (v & E1 & _ & D1). destruct (C145_two_step lm rho' r1 s1 r2 s2 HS HA HP H0' R1 P1 R2 P2 HNE L1 L2 L3 L4' HN) as (v' & E2 & _ & D2).
  unfold objective. rewrite val_ltb. rewrite E1, E2. apply xltb_true. apply Rabs_le_inv in D1, D2. fold (L rho) (size rho) in D1. fold (L rho') (size rho') in D2.
  set (k := INR (631 + levels lm (length r1)) * bpow radix2 (-52)) in *. lra.
Qed.

(** Concrete case: the pair of C144_case, the conditional correlation 1/2 against 0 *)
Example C145_case : let h := fdiv (fofZ 5) (fofZ 10) in
  (square_is_product times_libm /\ log_accurate times_libm /\ pi_accurate times_libm) /\ rho64 (fofZ 0) /\ rho64 h /\ resid64 (fofZ 2) /\ positive64 (fofZ 1) /\
  let L c := sum5 (fun c x v y w => ln (bivariate_density v w (clip99 c) x y)) [B2R c] [2] [1] [2] [1] in
  let size c := two_step_size [B2R c] [2] [1] [2] [1] in
  INR (631 + levels times_libm 1) * bpow radix2 (-52) * (size (fofZ 0) + size h) < L h - L (fofZ 0).
Proof.
  destruct C144_case as (H1 & H2 & H3 & H4 & H5 & _). destruct (val_finite_inv _ _ val_half) as [FH EH]. destruct (val_finite_inv _ _ (val_ofZ_small 0 ltac:(lia))) as [F0 E0].
  cbv zeta. split; [exact H1|]. split; [split; [exact F0|left; exact E0]|]. split; [split; [exact FH|apply H3]|]. split; [exact H4|]. split; [exact H5|].
  assert (C0 : clip99 0 = 0) by (unfold clip99; rewrite Rmin_left, Rmax_right by lra; reflexivity). assert (CH : clip99 (1 / 2) = 1 / 2) by (unfold clip99; rewrite Rmin_left, Rmax_right by lra; reflexivity).
  rewrite EH, E0. unfold sum5, two_step_size, total_size, term_size, sum5, corr_size, quad_size. cbn [combine map2 Rsum fst snd]. rewrite C0, CH. rewrite !ln_bivariate by lra. change (levels times_libm 1) with 0%nat.
  rewrite !Rmult_1_r, !sqrt_1, !Rmult_0_l. replace (0 ^ 2) with 0 by ring. rewrite !Rabs_R0, !Rminus_0_r, !Rmult_1_l, ln_1, Rabs_R0. replace ((1 / 2) ^ 2) with (/ 4) by lra. replace (1 / 2 * (1 / 2)) with (/ 4) by lra.
  replace (Rabs (1 / 2 * 2 * 2)) with 2 by (rewrite Rabs_pos_eq; lra). assert (L2 := ln2_bounds). assert (LP := ln_2pi). assert (PP := Rabs_pos (ln (2 * PI))).
  assert (LQ : - ln 2 <= ln (1 - / 4) <= 0). { rewrite <- ln_1, <- ln_Rinv by lra. split; apply ln_le; lra. } rewrite (Rabs_left1 (ln (1 - / 4))) by lra.
  rewrite w52, uro_eq. replace (INR (631 + 0)) with 631 by (rewrite INR_IZR_INZ; reflexivity). lra.
Qed.
