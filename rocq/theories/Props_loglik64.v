(** * Property C135: rounding errors in the Gaussian log-likelihood *)
From Coq Require Import Reals ZArith List Bool Arith Lia Lra Psatz.
From Flocq Require Import Core BinarySingleNaN.
From Verif Require Import Arith XR RealAux Float64 Float64b Float64c Float64d Float64e Model_garch Spec_garch Proofs_garch2 Props_garch2 Props_float5 Props_accuracy Props_accuracy2 Props_option64.
Import ListNotations.
Local Open Scope R_scope.

(** ** Specification *)
(** numpy's pi is within 2^-52 of the real one *)
Definition pi_accurate (lm : libm) : Prop := exists p, val (l_pi lm) = Fin p /\ Rabs (p - PI) <= bpow radix2 (-52).
(** what one observation contributes to the log-likelihood, all its parts taken with a positive sign (and one unit for each logarithm) *)
Definition term_size (r s : R) : R := (2 + Rabs (ln (2 * PI)) + Rabs (ln s) + r * r / s) / 2.
Definition total_size (rs ss : list R) : R := Rsum (map2 term_size rs ss).
(** the exact Gaussian log-likelihood *)
Definition exact_loglik (rs ss : list R) : R := Rsum (map2 (fun r v => ln (normal_density v r)) rs ss).
(** a variance: a double between 2^-500 and 2^500 *)
Definition variance64 (x : b64) : Prop := is_finite x = true /\ bpow radix2 (-500) <= B2R x <= bpow radix2 500.

(** ** Proofs *)
(** sums whose terms are known up to a multiple of a size of their own *)
Lemma near_tree_sizes k s : forall l (m : list (R * R)), leaves s = length l -> Forall2 (fun x p => near k x (fst p) (snd p)) l m -> Rsum (map snd m) <= bpow radix2 1000 -> (Z.of_nat (k + depth s) <= 2 ^ 52)%Z ->
  near (k + depth s) (tree_sum s l) (Rsum (map fst m)) (Rsum (map snd m)).
Proof.
  induction s as [|a IHa b IHb]; intros l m HL HF HB HD; simpl in HL.
  - destruct HF as [|x r l' m' Hx HF]; [discriminate|]. destruct HF; [|discriminate]. simpl. rewrite Nat.add_0_r, !Rplus_0_r. exact Hx.
  - cbn [tree_sum depth] in *. assert (LM := Forall2_len _ _ _ HF).
    assert (SP : Rsum (map fst m) = Rsum (map fst (firstn (leaves a) m)) + Rsum (map fst (skipn (leaves a) m))) by (rewrite <- Rsum_app, <- map_app, firstn_skipn; reflexivity).
    assert (SQ : Rsum (map snd m) = Rsum (map snd (firstn (leaves a) m)) + Rsum (map snd (skipn (leaves a) m))) by (rewrite <- Rsum_app, <- map_app, firstn_skipn; reflexivity).
    assert (NN : forall l' m', Forall2 (fun x (p : R * R) => near k x (fst p) (snd p)) l' m' -> 0 <= Rsum (map snd m')).
    { induction 1 as [|x p l' m' Hp HF' IH]; cbn [map Rsum]; [lra|]. apply near_size in Hp. lra. }
    assert (N1 := NN _ _ (Forall2_firstn _ (leaves a) _ _ HF)). assert (N2 := NN _ _ (Forall2_skipn _ (leaves a) _ _ HF)).
    rewrite SP, SQ. replace (k + S (Nat.max (depth a) (depth b)))%nat with (S (k + Nat.max (depth a) (depth b))) by lia.
    apply (near_add (k + depth a) (k + depth b)); [lia|lia|lia| | |rewrite <- SQ; exact HB].
    + apply IHa; [rewrite firstn_length; lia|apply Forall2_firstn; exact HF|lra|lia].
    + apply IHb; [rewrite skipn_length; lia|apply Forall2_skipn; exact HF|lra|lia].
Qed.
Lemma near_fsum_sizes lm k l (m : list (R * R)) : Forall2 (fun x p => near k x (fst p) (snd p)) l m -> Rsum (map snd m) <= bpow radix2 1000 -> (Z.of_nat (k + levels lm (length l)) <= 2 ^ 52)%Z ->
  near (k + levels lm (length l)) (fsum lm l) (Rsum (map fst m)) (Rsum (map snd m)).
Proof.
  intros HF HB HD. destruct l as [|x l'] eqn:EL.
  - inversion HF; subst. eapply near_weaken; [|apply near_exact]; [lia|exact (eq_trans (val_ofZ 0) RN_0)|simpl; rewrite Rabs_R0; lra].
  - rewrite <- EL in *. replace (fsum lm l) with (tree_sum (l_order lm (length l)) l) by (rewrite EL; reflexivity). apply near_tree_sizes; auto. apply l_order_ok. rewrite EL. simpl. lia.
Qed.

(** the logarithm of a number known up to k roundings *)
Lemma near_logv lm k x s : log_accurate lm -> (Z.of_nat k <= 2 ^ 52)%Z -> close k x s -> 0 < s -> near (k + 2) (l_log lm x) (ln s) (1 + Rabs (ln s)).
Proof.
  intros HA Hk (w & Ew & W0 & R1 & R2) HS. assert (U := up_ge1 k). assert (UP := uro_pos). assert (WP : 0 < w) by (apply (rel_pos k w s); [exact HS|split; assumption]).
  destruct (HA _ _ Ew WP) as (v & Ev & D). rewrite w52 in D.
  assert (LU : ln (up k) <= INR k * uro).
  { unfold up. rewrite ln_pow by lra. apply Rmult_le_compat_l; [apply pos_INR|]. rewrite <- (ln_exp uro) at 2. apply ln_le; [lra|]. apply Rlt_le. apply exp_ineq1. lra. }
  assert (D1 : Rabs (ln w - ln s) <= INR k * uro).
  { apply Rabs_le. split.
    - assert (L : ln s <= ln (w * up k)) by (apply ln_le; assumption). rewrite ln_mult in L by lra. lra.
    - assert (L : ln w <= ln (s * up k)) by (apply ln_le; assumption). rewrite ln_mult in L by lra. lra. }
  assert (K2 : INR k * uro <= 1 / 2). { assert (H : IZR (Z.of_nat k) <= IZR (2 ^ 52)) by (apply IZR_le; exact Hk). rewrite <- INR_IZR_INZ in H. change (IZR (2 ^ 52)) with 4503599627370496 in H. rewrite uro_eq. lra. }
  assert (AW : Rabs (ln w) <= Rabs (ln s) + INR k * uro) by (replace (ln w) with (ln s + (ln w - ln s)) by ring; eapply Rle_trans; [apply Rabs_triang|]; lra).
  assert (P := Rabs_pos (ln s)). apply (near_intro _ _ v); [exact Ev| |lra].
  replace (v - ln s) with ((v - ln w) + (ln w - ln s)) by ring. eapply Rle_trans; [apply Rabs_triang|]. rewrite plus_INR. replace (INR 2) with 2 by (simpl; lra).
  assert (Q : 0 <= INR k * uro) by (apply Rmult_le_pos; [apply pos_INR|lra]). set (a := INR k * uro) in *. set (b := Rabs (ln s)) in *.
  replace ((INR k + 2) * uro * (1 + b)) with (a + a * b + 2 * uro * (1 + b)) by (unfold a; ring).
  assert (2 * uro * Rabs (ln w) <= 2 * uro * (b + 1 / 2)) by (apply Rmult_le_compat_l; lra). assert (0 <= a * b) by (apply Rmult_le_pos; assumption). nra.
Qed.

Lemma near_constant lm : log_accurate lm -> pi_accurate lm -> near 4 (l_log lm (fmul (fofZ 2) (l_pi lm))) (ln (2 * PI)) (1 + Rabs (ln (2 * PI))).
Proof.
  intros HA (p & Ep & D). rewrite w52 in D. apply Rabs_le_inv in D. assert (P2 := PI2_3_2). assert (P4 := PI_4). assert (U := uro_pos). assert (UE := uro_eq).
  assert (C2 : close 0 (fofZ 2) 2) by (apply close_exact; [apply val_ofZ_small; simpl; lia|lra]).
  assert (CP : close 1 (l_pi lm) PI). { exists p. split; [exact Ep|]. split; [lra|]. unfold rel, up. rewrite pow_1. split; nra. }
  apply (near_logv lm 2); [exact HA|simpl; lia| |lra]. apply (close_mul 0 1); [simpl; lia|exact C2|exact CP| |].
  - right. apply (Rle_trans _ 1); [change 1 with (bpow radix2 0); apply bpow_le; lia|lra].
  - apply (Rle_trans _ (bpow radix2 3)); [simpl; lra|apply bpow_le; lia].
Qed.
Lemma val_half : val (fdiv (fofZ 5) (fofZ 10)) = Fin (1 / 2).
Proof.
  rewrite (val_div _ _ _ _ (val_ofZ_small 5 ltac:(simpl; lia)) (val_ofZ_small 10 ltac:(simpl; lia))) by lra. replace (5 / 10) with (bpow radix2 (-1)) by (simpl; lra). rewrite RN_fmt; [f_equal; simpl; lra| |].
  - apply generic_format_bpow. unfold SpecFloat.fexp, SpecFloat.emin. simpl. lia.
  - rewrite Rabs_right by (apply Rle_ge, bpow_ge_0). apply bpow_lt. lia.
Qed.
Lemma ln_span e s : (0 <= e)%Z -> 0 < s -> span e s -> Rabs (ln s) <= IZR e.
Proof.
  intros He H0 SP. destruct (span_pos e s SP H0) as [H1 H2]. assert (L2 := ln2_bounds). assert (E0 : 0 <= IZR e) by (apply IZR_le; exact He). assert (P := bpow_gt_0 radix2 (- e)).
  apply Rabs_le. split.
  - assert (L : ln (bpow radix2 (- e)) <= ln s) by (apply ln_le; assumption). rewrite ln_bpow, opp_IZR in L. nra.
  - assert (L : ln s <= ln (bpow radix2 e)) by (apply ln_le; assumption). rewrite ln_bpow in L. nra.
Qed.
Lemma ln_2pi : Rabs (ln (2 * PI)) <= 3.
Proof.
  assert (P2 := PI2_3_2). assert (P4 := PI_4). apply (ln_span 3); [lia|lra|]. right. split; [apply (Rle_trans _ 1); [change 1 with (bpow radix2 0); apply bpow_le; lia|lra]|simpl; lra].
Qed.
Lemma term_size_bounds r s : 0 < s -> span 700 (r * r / s) -> span 500 s -> 1 <= term_size r s <= bpow radix2 800.
Proof.
  intros H0 SQ SS. assert (L := ln_span 500 s ltac:(lia) H0 SS). assert (L2 := ln_2pi). assert (Q := span_le 700 _ ltac:(lia) SQ). assert (Q0 := span_nonneg _ _ SQ). assert (P1 := Rabs_pos (ln s)). assert (P2 := Rabs_pos (ln (2 * PI))).
  unfold term_size. split; [lra|]. assert (D1 : 600 <= bpow radix2 700) by (apply (Rle_trans _ (bpow radix2 10)); [simpl; lra|apply bpow_le; lia]). assert (D2 : bpow radix2 700 * 2 <= bpow radix2 800) by (rewrite bpow_double; apply bpow_le; lia). lra.
Qed.
Lemma near_term lm k r x s : square_is_product lm -> log_accurate lm -> pi_accurate lm -> (Z.of_nat k + 8 <= 2 ^ 52)%Z -> resid64 r -> sized 500 k x s -> 0 < s ->
  near (k + 8) (loglik_term (B64 lm) r x) (ln (normal_density s (B2R r))) (term_size (B2R r) s).
Proof.
  intros HS HA HP Hk Hr [CX SX] H0. set (rr := B2R r * B2R r).
  assert (N1 := near_constant lm HA HP). assert (N2 := near_logv lm k x s HA ltac:(lia) CX H0).
  assert (Z3 := sized_div 200 500 1 k _ _ _ _ ltac:(lia) ltac:(lia) (square_sized lm r HS Hr) (conj CX SX) H0). fold rr in Z3. change (200 + 500)%Z with 700%Z in Z3.
  assert (N3 := close_near _ _ _ (proj1 Z3)).
  assert (B := term_size_bounds (B2R r) s H0 (proj2 Z3) SX). fold rr in B. assert (ET : term_size (B2R r) s = 1 / 2 * (1 + Rabs (ln (2 * PI)) + (1 + Rabs (ln s)) + rr / s)) by (unfold term_size, rr; field; lra).
  assert (D2 : bpow radix2 800 * 2 <= bpow radix2 1000) by (rewrite bpow_double; apply bpow_le; lia).
  assert (Q0 := span_nonneg _ _ (proj2 Z3)). assert (P1 := Rabs_pos (ln s)). assert (P2 := Rabs_pos (ln (2 * PI))).
  assert (N4 := near_add 4 (k + 2) (k + 4) _ _ _ _ _ _ ltac:(lia) ltac:(lia) ltac:(lia) N1 N2 ltac:(lra)).
  assert (N5 := near_add (S (k + 4)) (S (1 + k)) (k + 5) _ _ _ _ _ _ ltac:(lia) ltac:(lia) ltac:(lia) N4 N3 ltac:(lra)).
  assert (NH : near 0 (Bopp (fdiv (fofZ 5) (fofZ 10))) (- (1 / 2)) (1 / 2)) by (apply near_exact; [rewrite val_opp, val_half; reflexivity|rewrite Rabs_Ropp, Rabs_right; lra]).
  assert (N6 := near_mul 0 (S (k + 5)) _ _ _ _ _ _ ltac:(lia) NH N5 ltac:(lra)). rewrite <- ET in N6.
  assert (T : near (S (S (0 + S (k + 5)))) (loglik_term (B64 lm) r x) (- (1 / 2) * (ln (2 * PI) + ln s + rr / s)) (term_size (B2R r) s)).
  { apply N6. right. apply (Rle_trans _ 1); [change 1 with (bpow radix2 0); apply bpow_le; lia|lra]. }
  replace (k + 8)%nat with (S (S (0 + S (k + 5)))) by lia. replace (ln (normal_density s (B2R r))) with (- (1 / 2) * (ln (2 * PI) + ln s + rr / s)); [exact T|].
  assert (X := loglik_term_fin (B2R r) s H0). unfold loglik_term in X. cbn [nopp lit nmul nlog nadd ndiv nsq ofZ npi XRA xopp xmul xsq] in X. pose proof PI_RGT_0. rewrite !xlog_fin, xdiv_fin in X by lra. cbn [xadd xmul] in X. injection X as X. rewrite <- X. unfold rr. lra.
Qed.
Lemma map2_pairs {X Y Z} (f : X -> Y -> Z) xs ys : map2 f xs ys = map (fun p => f (fst p) (snd p)) (combine xs ys).
Proof. revert ys. induction xs as [|x xs IH]; intros [|y ys]; [reflexivity|reflexivity|reflexivity|]. cbn [map2 combine map fst snd]. rewrite IH. reflexivity. Qed.
Lemma near_terms lm k : square_is_product lm -> log_accurate lm -> pi_accurate lm -> (Z.of_nat k + 8 <= 2 ^ 52)%Z -> forall rs xs ss,
  Forall resid64 rs -> Forall2 (fun x s => sized 500 k x s /\ 0 < s) xs ss ->
  let m := map2 (fun r s => (ln (normal_density s r), term_size r s)) (map B2R rs) ss in
  Forall2 (fun x p => near (k + 8) x (fst p) (snd p)) (map2 (loglik_term (B64 lm)) rs xs) m /\ Forall (fun p => 1 <= snd p <= bpow radix2 800) m /\
  map fst m = map2 (fun r s => ln (normal_density s r)) (map B2R rs) ss /\ map snd m = map2 term_size (map B2R rs) ss.
Proof.
  intros HS HA HP Hk. induction rs as [|r rs IH]; intros xs ss HR HX; [cbn; auto|]. destruct HX as [|x s xs ss [Sx S0] HX]; [cbn; auto|].
  inversion HR as [|r' rs' Hr HRs]; subst r' rs'. destruct (IH xs ss HRs HX) as (I1 & I2 & I3 & I4). cbn [map map2 fst snd]. cbv zeta in *. split; [|split; [|split; f_equal; assumption]].
  - constructor; [|exact I1]. cbn [fst snd]. apply near_term; auto.
  - constructor; [|exact I2]. cbn [snd]. assert (Z3 := sized_div 200 500 1 k _ _ _ _ ltac:(lia) ltac:(lia) (square_sized lm r HS Hr) Sx S0). apply term_size_bounds; [exact S0|exact (proj2 Z3)|exact (proj2 Sx)].
Qed.
Lemma map2_len {X Y Z} (f : X -> Y -> Z) xs ys : length (map2 f xs ys) = Nat.min (length xs) (length ys).
Proof. rewrite map2_pairs, map_length. apply combine_length. Qed.
Lemma loglik_near lm k rs xs ss : square_is_product lm -> log_accurate lm -> pi_accurate lm -> rs <> [] -> (Z.of_nat (length rs) <= 2 ^ 50)%Z -> (Z.of_nat k <= 2 ^ 51)%Z ->
  Forall resid64 rs -> length xs = length rs -> Forall2 (fun x s => sized 500 k x s /\ 0 < s) xs ss ->
  near (k + 8 + levels lm (length rs)) (loglikelihood (B64 lm) rs xs) (exact_loglik (map B2R rs) ss) (total_size (map B2R rs) ss).
Proof.
  intros HS HA HP HNE HN Hk HR HL HX. destruct (near_terms lm k HS HA HP ltac:(lia) rs xs ss HR HX) as (I1 & I2 & I3 & I4). cbv zeta in *.
  set (m := map2 (fun r s => (ln (normal_density s r), term_size r s)) (map B2R rs) ss) in *. unfold exact_loglik, total_size. rewrite <- I3, <- I4.
  assert (LT : length (map2 (loglik_term (B64 lm)) rs xs) = length rs) by (exact (eq_trans (map2_len _ rs xs) (eq_trans (f_equal (Nat.min (length rs)) HL) (Nat.min_id _)))).
  assert (LM : length m = length rs) by (rewrite <- LT; symmetry; apply (Forall2_len _ _ _ I1)).
  assert (BS : Rsum (map snd m) <= bpow radix2 1000).
  { assert (B : forall l : list (R * R), Forall (fun p => 1 <= snd p <= bpow radix2 800) l -> Rsum (map snd l) <= INR (length l) * bpow radix2 800).
    { induction 1 as [|p l Hp HF IH]; cbn [map Rsum length]; [simpl; lra|]. rewrite S_INR. lra. }
    eapply Rle_trans; [apply B; exact I2|]. rewrite LM, INR_IZR_INZ. apply (Rle_trans _ (bpow radix2 50 * bpow radix2 800)); [|rewrite <- bpow_plus; apply bpow_le; lia].
    apply Rmult_le_compat_r; [apply bpow_ge_0|]. rewrite <- (IZR_Zpower radix2 50) by lia. apply IZR_le. exact HN. }
  assert (DL : (Z.of_nat (levels lm (length rs)) <= 2 ^ 50)%Z) by (assert (H := levels_lt lm (length rs) ltac:(destruct rs; [congruence|cbn; lia])); lia).
  assert (GK : (Z.of_nat (k + 8 + levels lm (length (map2 (loglik_term (B64 lm)) rs xs))) <= 2 ^ 52)%Z) by (rewrite LT; lia).
  rewrite <- LT. unfold loglikelihood. cbn [asum B64]. apply near_fsum_sizes; [exact I1|exact BS|exact GK].
Qed.

Lemma variance_sized x : variance64 x -> sized 500 0 x (B2R x) /\ 0 < B2R x.
Proof. intros [F H]. assert (P := bpow_gt_0 radix2 (-500)). split; [|lra]. apply sized_exact; [apply val_fin; exact F|right; exact H]. Qed.
Lemma exact_fin l : map exact l = map Fin (map B2R l).
Proof. rewrite map_map. reflexivity. Qed.

(** *** C135: the log-likelihood of given variances *)
Theorem C135_loglikelihood : forall lm resids sigma2, square_is_product lm -> log_accurate lm -> pi_accurate lm ->
  resids <> [] -> (Z.of_nat (length resids) <= 2 ^ 50)%Z -> length sigma2 = length resids -> Forall resid64 resids -> Forall variance64 sigma2 ->
  exists v, val (loglikelihood (B64 lm) resids sigma2) = Fin v /\
    loglikelihood XRA (map exact resids) (map exact sigma2) = Fin (exact_loglik (map B2R resids) (map B2R sigma2)) /\
    Rabs (v - exact_loglik (map B2R resids) (map B2R sigma2)) <= INR (8 + levels lm (length resids)) * bpow radix2 (-52) * total_size (map B2R resids) (map B2R sigma2).
Proof.
  intros lm rs xs HS HA HP HNE HN HL HR HX.
  assert (F : Forall2 (fun x s => sized 500 0 x s /\ 0 < s) xs (map B2R xs)) by (clear HL; induction HX; constructor; [apply variance_sized; assumption|assumption]).
  assert (N := loglik_near lm 0 rs xs _ HS HA HP HNE HN ltac:(simpl; lia) HR HL F). assert (LV := levels_lt lm (length rs) ltac:(destruct rs; [congruence|cbn; lia])).
  destruct (near_error (0 + 8 + levels lm (length rs)) _ _ _ ltac:(lia) N) as (v & Ev & D). exists v. split; [exact Ev|]. split; [|exact D].
  rewrite !exact_fin. apply C11_gaussian_loglik; [rewrite !map_length; exact HL|]. apply Forall_forall. intros z Hz. apply in_map_iff in Hz as (x & <- & Hx). rewrite Forall_forall in HX. apply variance_sized, HX, Hx.
Qed.

(** *** C135: the objective of the fit, variance recursion included *)
Theorem C135_model : forall lm k params resids bc bs vs, square_is_product lm -> log_accurate lm -> pi_accurate lm ->
  Forall volume64 params -> volume64 bc -> resids <> [] -> Forall resid64 resids -> Forall row64 bs -> (Z.of_nat (length resids) <= 2 ^ 48)%Z ->
  compute_variance XRA k (map exact params) (map exact resids) (exact bc) (map exact_row bs) = Ok (map Fin vs) -> below_upper vs bs -> Forall (fun v => 0 < v) vs ->
  exists xs v, compute_variance (B64 lm) k params resids bc bs = Ok xs /\ val (loglikelihood (B64 lm) resids xs) = Fin v /\
    loglikelihood XRA (map exact resids) (map Fin vs) = Fin (exact_loglik (map B2R resids) vs) /\
    Rabs (v - exact_loglik (map B2R resids) vs) <= INR (roundings k (length resids) + 8 + levels lm (length resids)) * bpow radix2 (-52) * total_size (map B2R resids) vs.
Proof.
  intros lm k params rs bc bs vs HS HA HP HPa HB HNE HR HW HN E HU HV.
  destruct (variances_sized lm k params rs bc bs vs HS HPa HB HR HW ltac:(lia) E HU) as (xs & EX & LX & HX).
  destruct (C126_variances lm k params rs bc bs vs HS HPa HB HR HW ltac:(lia) E HU) as (xs' & EX' & _ & LR & _). assert (XX : xs' = xs) by congruence. subst xs'.
  assert (RK : (Z.of_nat (roundings k (length rs)) <= 2 ^ 51)%Z) by (destruct k; unfold roundings; lia).
  assert (F : Forall2 (fun x s => sized 500 (roundings k (length rs)) x s /\ 0 < s) xs vs).
  { assert (G : forall t, (t < length vs)%nat -> sized 500 (roundings k (length rs)) (nth t xs (fofZ 0)) (nth t vs 0) /\ 0 < nth t vs 0).
    { intros t Ht. split; [|apply (nth_val (fun v => 0 < v)); assumption]. apply (sized_weaken 500 500 (roundings k t)); [lia| |apply HX; exact Ht]. destruct k; unfold roundings; lia. }
    clear - LX G. revert vs LX G. induction xs as [|x xs IH]; intros [|v vs] LX G; [constructor|discriminate|discriminate|]. constructor; [exact (G 0%nat ltac:(cbn; lia))|]. apply IH; [injection LX as LX; exact LX|]. intros t Ht. apply (G (S t)). cbn [length]. lia. }
  assert (N := loglik_near lm _ rs xs vs HS HA HP HNE ltac:(lia) RK HR LR F). assert (LV := levels_lt lm (length rs) ltac:(destruct rs; [congruence|cbn; lia])).
  destruct (near_error (roundings k (length rs) + 8 + levels lm (length rs)) _ _ _ ltac:(lia) N) as (v & Ev & D). exists xs, v. split; [exact EX|]. split; [exact Ev|]. split; [|exact D].
  rewrite exact_fin. apply C11_gaussian_loglik; [rewrite map_length; rewrite <- LX; exact LR|exact HV].
Qed.

(** *** C135: comparing two candidates by their computed log-likelihoods gives the right answer unless the exact ones are closer than the two error bounds *)
Theorem C135_comparison : forall lm resids s1 s2, square_is_product lm -> log_accurate lm -> pi_accurate lm ->
  resids <> [] -> (Z.of_nat (length resids) <= 2 ^ 50)%Z -> length s1 = length resids -> length s2 = length resids -> Forall resid64 resids -> Forall variance64 s1 -> Forall variance64 s2 ->
  let rs := map B2R resids in
  INR (8 + levels lm (length resids)) * bpow radix2 (-52) * (total_size rs (map B2R s1) + total_size rs (map B2R s2)) < exact_loglik rs (map B2R s2) - exact_loglik rs (map B2R s1) ->
  Bltb (loglikelihood (B64 lm) resids s1) (loglikelihood (B64 lm) resids s2) = true.
Proof.
  intros lm resids s1 s2 HS HA HP HNE HN L1 L2 HR H1 H2 rs HD.
  destruct (C135_loglikelihood lm resids s1 HS HA HP HNE HN L1 HR H1) as (v1 & E1 & _ & D1). destruct (C135_loglikelihood lm resids s2 HS HA HP HNE HN L2 HR H2) as (v2 & E2 & _ & D2). fold rs in D1, D2.
  rewrite val_ltb, E1, E2. apply xltb_true. apply Rabs_le_inv in D1, D2. lra.
Qed.

(** non-vacuity: the variances of C126_case, with correctly rounded library functions *)
Lemma pi_times : pi_accurate times_libm.
Proof.
  assert (P2 := PI2_3_2). assert (P4 := PI_4). exists (rnd PI). split.
  - cbn [l_pi times_libm perfect_libm]. rewrite val_of_R. apply (RN_val _ 2); [rewrite Rabs_right; simpl; lra|lia].
  - assert (R1 := rnd_error PI). rewrite (Rabs_right PI) in R1 by lra. (* half an ulp of a number in [2,4] *)
    assert (U := error_le_half_ulp radix2 fexp64 (fun x => negb (Z.even x)) PI). unfold rnd. eapply Rle_trans; [exact U|]. rewrite ulp_neq_0 by lra. unfold cexp. rewrite (mag_unique_pos radix2 PI 2).
    + assert (EF : fexp64 2 = (-51)%Z) by reflexivity. rewrite EF. assert (D := bpow_double (-52)). change (-52 + 1)%Z with (-51)%Z in D. lra.
    + simpl. split; [lra|]. destruct (Rle_lt_or_eq_dec PI 4 P4) as [L | L]; [lra|]. exfalso. assert (Q := PI_ineq 1). cbn in Q. unfold PI_tg, tg_alt in Q. cbn in Q. lra.
Qed.
Lemma log_times : log_accurate times_libm.
Proof. exact (proj1 (proj2 Props_option64.squaring_accurate)). Qed.
Example C135_case : (square_is_product times_libm /\ log_accurate times_libm /\ pi_accurate times_libm) /\
  (Forall volume64 [fofZ 1; fofZ 1; fofZ 1] /\ Forall resid64 case_resids /\ Forall row64 case_bounds /\
   compute_variance XRA KGarch (map exact [fofZ 1; fofZ 1; fofZ 1]) (map exact case_resids) (exact (fofZ 1)) (map exact_row case_bounds) = Ok (map Fin [3; 5; 12]) /\
   below_upper [3; 5; 12] case_bounds /\ Forall (fun v => 0 < v) [3; 5; 12]) /\
  INR (8 + levels times_libm 1) * bpow radix2 (-52) * (total_size [4] [1] + total_size [4] [16]) < exact_loglik [4] [16] - exact_loglik [4] [1].
Proof.
  destruct C126_case as (H1 & H2 & H3 & H4 & H5). split; [split; [exact H5|split; [exact log_times|exact pi_times]]|]. split.
  - split; [repeat (constructor; [apply small_volume; lia|]); constructor|]. split; [exact H1|]. split; [exact H2|]. split; [exact H3|]. split; [exact H4|]. repeat (constructor; [lra|]). constructor.
  - unfold exact_loglik, total_size, term_size. cbn [map2 Rsum]. 
    assert (T : forall s, 0 < s -> ln (normal_density s 4) = - (1 / 2) * (ln (2 * PI) + ln s + 16 / s)).
    { intros s H0. assert (X := loglik_term_fin 4 s H0). unfold loglik_term in X. cbn [nopp lit nmul nlog nadd ndiv nsq ofZ npi XRA xopp xmul xsq] in X. pose proof PI_RGT_0. rewrite !xlog_fin, xdiv_fin in X by lra. cbn [xadd xmul] in X. injection X as X. rewrite <- X. replace (4 * 4) with 16 by ring. lra. }
    rewrite !T by lra. rewrite ln_1. assert (L2 := ln2_bounds). assert (LP := ln_2pi). assert (L16 : ln 16 = 4 * ln 2) by (replace 16 with (2 ^ 4) by ring; rewrite ln_pow by lra; simpl; ring). rewrite L16. rewrite Rabs_R0, (Rabs_right (4 * ln 2)) by lra.
    change (levels times_libm 1) with 0%nat. rewrite w52, uro_eq. simpl (INR (8 + 0)). lra.
Qed.
