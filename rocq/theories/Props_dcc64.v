(** * Property C139: rounding errors in the DCC conditional correlations *)
From Coq Require Import Reals ZArith List Bool Arith Lia Lra Psatz.
From Flocq Require Import Core BinarySingleNaN.
From Verif Require Import Arith XR RealAux Float64 Float64b Float64c Float64d Float64e Model_garch Model_ar Model_mgarch Props_mgarch Props_accuracy Props_accuracy2 Props_averages Props_option64 Props_loglik64.
Import ListNotations.
Local Open Scope R_scope.

(** ** Specification *)
(** the news weights: zero or between 2^-100 and 2^100, and 1 - a - b at least 1/n *)
Definition weights64 (n : nat) (a b : b64) : Prop := volume64 a /\ volume64 b /\ (Z.of_nat n <= 2 ^ 40)%Z /\ 1 <= INR n * (1 - B2R a - B2R b).
(** two series of residuals and variances of one length; neither residual series is identically zero *)
Definition series64 (r1 r2 s1 s2 : list b64) : Prop :=
  Forall resid64 r1 /\ Forall resid64 r2 /\ Forall positive64 s1 /\ Forall positive64 s2 /\ length s1 = length r1 /\ length s2 = length r1 /\ length r2 = length r1 /\ (Z.of_nat (length r1) <= 2 ^ 48)%Z.
Definition moves (r : list b64) : Prop := exists x, In x r /\ B2R x <> 0.
Definition reals (l : list b64) : list R := map (@B2R 53 1024) l.

(** ** Proofs *)
(** numbers of either sign with a relative error of k roundings *)
Definition scl (k : nat) (x : b64) (r : R) : Prop := exists v, val x = Fin v /\ ((0 <= v /\ 0 <= r /\ rel k v r) \/ (v <= 0 /\ r <= 0 /\ rel k (- v) (- r))).
Lemma scl_near k x r : scl k x r -> near k x r (Rabs r).
Proof.
  intros (v & E & [(V & H & HR) | (V & H & HR)]).
  - rewrite Rabs_pos_eq by exact H. apply close_near. exists v. auto.
  - rewrite Rabs_left1 by exact H. assert (N : near k (Bopp x) (- r) (- r)) by (apply close_near; exists (- v); split; [rewrite val_opp, E; reflexivity|split; [lra|exact HR]]).
    destruct N as (w & EW & D & B). rewrite val_opp, E in EW. injection EW as EW. subst w. exists v. split; [exact E|]. split; [|rewrite Rabs_left1; lra]. replace (v - r) with (- (- v - - r)) by ring. rewrite Rabs_Ropp. exact D.
Qed.
Lemma scl_square k x r : (Z.of_nat (k + k) <= 2 ^ 52)%Z -> scl k x r -> (r * r = 0 \/ bpow radix2 (-1000) <= r * r) -> r * r <= bpow radix2 1000 -> close (S (k + k)) (fmul x x) (r * r).
Proof.
  intros HK (v & E & [(V & H & HR) | (V & H & HR)]) H1 H2.
  - apply close_mul; auto; exists v; auto.
  - assert (C : close k (Bopp x) (- r)) by (exists (- v); split; [rewrite val_opp, E; reflexivity|split; [lra|exact HR]]).
    assert (EO : val (Bopp x) = Fin (- v)) by (rewrite val_opp, E; reflexivity).
    destruct (close_mul k k (Bopp x) (Bopp x) (- r) (- r) HK C C) as (z & EZ & HZ); [replace (- r * - r) with (r * r) by ring; exact H1|replace (- r * - r) with (r * r) by ring; exact H2|].
    exists z. replace (- r * - r) with (r * r) in HZ by ring. split; [|exact HZ]. rewrite <- EZ. rewrite (val_mul _ _ _ _ E E), (val_mul _ _ _ _ EO EO). f_equal. ring.
Qed.
Lemma sqrt_bpow z : sqrt (bpow radix2 (z + z)) = bpow radix2 z.
Proof. rewrite bpow_plus. apply sqrt_square, bpow_ge_0. Qed.
Lemma close_sqrt m x r : close (m + m) x r -> close (S m) (fsqrt x) (sqrt r).
Proof.
  intros C. assert (R0 := close_nonneg _ _ _ C). destruct C as (v & E & V0 & R1 & R2). destruct (val_sqrt _ _ E V0) as [ES HR].
  exists (rnd (sqrt v)). split; [exact ES|]. assert (Q : rel m (sqrt v) (sqrt r)).
  { assert (U : sqrt (up (m + m)) = up m) by (rewrite up_add; apply sqrt_square; assert (G := up_ge1 m); lra). assert (G := up_pos (m + m)). split; rewrite <- U, <- sqrt_mult by lra; apply sqrt_le_1_alt; assumption. }
  assert (S0 : 0 <= rnd (sqrt v)) by (rewrite <- rnd_0; apply rnd_mono, sqrt_pos). split; [exact S0|].
  replace (S m) with (m + 1)%nat by lia. apply (rel_trans 1 m _ (sqrt v)); [exact S0|apply sqrt_pos|exact HR|exact Q].
Qed.
Lemma RN_opp_fin r v : RN (- r) = Fin v -> RN r = Fin (- v).
Proof.
  intros E. destruct (RN_inv _ _ E) as (V & _ & B). assert (O : rnd (- r) = - rnd r) by (unfold rnd; rewrite round_NE_opp; reflexivity). rewrite O in V.
  unfold RN. rewrite Rlt_bool_true; [f_equal; lra|]. rewrite V, Rabs_Ropp in B. exact B.
Qed.
Lemma zscore_scl r s : resid64 r -> positive64 s -> scl 2 (fdiv r (fsqrt s)) (B2R r / sqrt (B2R s)) /\ span 150 (Rabs (B2R r / sqrt (B2R s))).
Proof.
  intros [Fr Hr] [Fs Hs]. assert (Er := val_fin r Fr). assert (Es := val_fin s Fs). set (x := B2R r) in *. set (y := B2R s) in *. assert (P := bpow_gt_0 radix2 (-100)).
  assert (Y0 : 0 < y) by lra. assert (Q0 : 0 < sqrt y) by (apply sqrt_lt_R0; exact Y0).
  assert (C : close 1 (fsqrt s) (sqrt y)) by (apply (close_sqrt 0), close_exact; [exact Es|lra]).
  assert (SQ : span 50 (sqrt y)).
  { right. split; [rewrite <- (sqrt_bpow (- (50)))|rewrite <- (sqrt_bpow 50)]; apply sqrt_le_1_alt; apply Hs. }
  assert (SX : span 100 (Rabs x)) by (destruct Hr as [-> | Hr]; [left; apply Rabs_R0|right; exact Hr]).
  assert (SA : Rabs (x / sqrt y) = Rabs x / sqrt y) by (unfold Rdiv; rewrite Rabs_mult, (Rabs_pos_eq (/ sqrt y)); [reflexivity|apply Rlt_le, Rinv_0_lt_compat, Q0]).
  split; [|rewrite SA; apply (span_div 100 50); assumption].
  destruct (Rle_lt_dec 0 x) as [H | H].
  - rewrite (Rabs_pos_eq x) in SX by exact H. destruct (sized_div 100 50 0 1 r (fsqrt s) x (sqrt y) ltac:(lia) ltac:(simpl; lia) (sized_exact _ _ _ Er SX) (conj C SQ) Q0) as [(v & EV & V0 & HV) _].
    exists v. split; [exact EV|]. left. split; [exact V0|]. split; [|exact HV]. apply Rmult_le_pos; [exact H|apply Rlt_le, Rinv_0_lt_compat, Q0].
  - rewrite (Rabs_left x) in SX by exact H. assert (EO : val (Bopp r) = Fin (- x)) by (rewrite val_opp, Er; reflexivity).
    destruct (sized_div 100 50 0 1 (Bopp r) (fsqrt s) (- x) (sqrt y) ltac:(lia) ltac:(simpl; lia) (sized_exact _ _ _ EO SX) (conj C SQ) Q0) as [(v & EV & V0 & HV) _].
    assert (C' := C). destruct C' as (q & EQ & QN & HQ). assert (QP := rel_pos _ _ _ Q0 HQ).
    exists (- v). assert (EN : - x / sqrt y = - (x / sqrt y)) by (field; lra). rewrite EN in HV. split.
    + assert (QN' : q <> 0) by lra. rewrite (val_div _ _ _ _ Er EQ QN'). rewrite (val_div _ _ _ _ EO EQ QN') in EV. apply RN_opp_fin. rewrite <- EV. f_equal. field. exact QN'.
    + right. split; [lra|]. split; [|rewrite Ropp_involutive; exact HV]. assert (0 < - x / sqrt y) by (apply Rdiv_lt_0_compat; lra). rewrite EN in H0. lra.
Qed.
Lemma weight_close x y a b n : val x = Fin a -> val y = Fin b -> 0 <= a -> 0 <= b -> 1 <= INR n * (1 - a - b) -> (Z.of_nat n <= 2 ^ 50)%Z -> close (n + n + 1) (fsub (fsub (fofZ 1) x) y) (1 - a - b).
Proof.
  intros EX EY A0 B0 HN HZ. assert (U := uro_pos). assert (UE := uro_eq). assert (N0 := pos_INR n).
  assert (NU : INR n * uro <= / 8).
  { rewrite INR_IZR_INZ, UE. apply IZR_le in HZ. change (IZR (2 ^ 50)) with 1125899906842624 in HZ. lra. }
  remember (1 - a - b) as W eqn:EQW. assert (W0 : 0 < W) by (destruct (Rle_lt_dec W 0); [exfalso; nra|assumption]). assert (WU : uro <= INR n * uro * W) by nra. assert (NUW : INR n * uro * W <= / 8 * W) by nra.
  destruct (close_sub (fofZ 1) x 1 a (val_ofZ_small 1 ltac:(lia)) EX ltac:(lra)) as (v & EV & V0 & V1 & V2); [apply (Rle_trans _ (bpow radix2 0)); [simpl; lra|apply bpow_le; lia]|].
  unfold up in V1, V2. rewrite pow_1 in V1, V2. assert (A1 : 1 - a <= 1) by lra. assert (L1 : v <= (1 - a) + uro) by nra. assert (L2 : 1 - a - uro <= v) by nra.
  destruct (close_sub (fsub (fofZ 1) x) y v b EV EY) as (w & EW & W1 & HW); [lra|apply (Rle_trans _ (bpow radix2 1)); [simpl; lra|apply bpow_le; lia]|].
  exists w. split; [exact EW|]. split; [exact W1|]. apply (rel_trans 1 (n + n) _ (v - b)); [exact W1|lra|exact HW|].
  assert (UP := up_lower (n + n)). rewrite plus_INR in UP. split.
  - apply (Rle_trans _ ((v - b) * (1 + 2 * (INR n * uro)))); [|apply Rmult_le_compat_l; lra]. set (k := INR n * uro) in *.  assert (W * (1 - k) <= v - b) by lra. assert (0 <= k) by (apply Rmult_le_pos; lra).
    apply (Rle_trans _ (W * (1 - k) * (1 + 2 * k))); [|apply Rmult_le_compat_r; lra]. assert (0 <= W * (k - 2 * (k * k))) by (apply Rmult_le_pos; nra). nra.
  - apply (Rle_trans _ (W * (1 + 2 * (INR n * uro)))); [|apply Rmult_le_compat_l; lra]. nra.
Qed.
(** ranges of the entries of the matrices *)
Definition within (lo hi : Z) (r : R) : Prop := bpow radix2 lo <= r <= bpow radix2 hi.
Lemma near_enlarge k x r a b : a <= b -> near k x r a -> near k x r b.
Proof. intros H (v & E & D & B). exists v. split; [exact E|]. assert (U := up_ge1 k). split; [|lra]. eapply Rle_trans; [exact D|]. apply Rmult_le_compat_l; lra. Qed.

Section Recursion.
Variables (lm : libm) (a b w : b64) (ra rb W : R) (kw K : nat) (qb11 qb12 qb22 : b64) (B11 B12 B22 g : R).
Hypotheses (HS : square_is_product lm) (Ea : val a = Fin ra) (Eb : val b = Fin rb) (Sa : span 100 ra) (Sb : span 100 rb).
Hypotheses (EW : W = 1 - ra - rb) (W0 : within (-50) 0 W) (CW : close kw (fsub (fsub (fofZ 1) a) b) W).
Hypotheses (C11 : close K qb11 B11) (C12 : near K qb12 B12 g) (C22 : close K qb22 B22) (PB : pd (B11, g, B22)).
Hypotheses (R11 : within (-350) 350 B11) (R22 : within (-350) 350 B22) (Rg : within (-350) 350 g).

Definition ok_pair (p : b64 * b64) (z : R * R) : Prop := scl 2 (fst p) (fst z) /\ scl 2 (snd p) (snd z) /\ span 150 (Rabs (fst z)) /\ span 150 (Rabs (snd z)).
Lemma wq_bounds q : within (-350) 350 q -> within (-400) 350 (W * q).
Proof.
  intros [Q1 Q2]. destruct W0 as [W1 W2]. assert (P1 := bpow_gt_0 radix2 (-50)). assert (P2 := bpow_gt_0 radix2 (-350)). split.
  - change (-400)%Z with (-50 + -350)%Z. rewrite bpow_plus. apply Rmult_le_compat; lra.
  - rewrite <- (Rmult_1_l (bpow radix2 350)). apply Rmult_le_compat; try lra. exact W2.
Qed.
Lemma next_bounds q u p : within (-350) 350 q -> 0 <= u <= bpow radix2 350 -> within (-400) 350 p -> within (-400) 350 (W * q + ra * u + rb * p).
Proof.
  intros HQ HU HP. assert (HW := wq_bounds q HQ). assert (A0 := span_nonneg _ _ Sa). assert (B0 := span_nonneg _ _ Sb). destruct HQ as [Q1 Q2], HW as [H1 H2], HP as [P1 P2], W0 as [W1 W2].
  assert (PP := bpow_gt_0 radix2 (-400)). assert (PQ := bpow_gt_0 radix2 (-50)). assert (0 <= ra * u) by (apply Rmult_le_pos; lra). assert (0 <= rb * p) by (apply Rmult_le_pos; lra). split; [lra|].
  apply (Rle_trans _ (W * bpow radix2 350 + ra * bpow radix2 350 + rb * bpow radix2 350)).
  - assert (W * q <= W * bpow radix2 350) by (apply Rmult_le_compat_l; lra). assert (ra * u <= ra * bpow radix2 350) by (apply Rmult_le_compat_l; lra). assert (rb * p <= rb * bpow radix2 350) by (apply Rmult_le_compat_l; lra). lra.
  - rewrite EW. right. ring.
Qed.
Lemma le1000 z e : (e <= 1000)%Z -> z <= bpow radix2 e -> z <= bpow radix2 1000.
Proof. intros H HZ. apply (Rle_trans _ _ _ HZ), bpow_le, H. Qed.
Lemma rb_span p : within (-400) 350 p -> span 500 (rb * p) /\ rb * p <= bpow radix2 500.
Proof.
  intros [P1 P2]. assert (S : span 500 (rb * p)). { change 500%Z with (100 + 400)%Z. apply span_mul; [exact Sb|]. right. split; [exact P1|apply (Rle_trans _ _ _ P2), bpow_le; lia]. }
  split; [exact S|]. apply (span_le 500); [lia|exact S].
Qed.
(** one step of a diagonal entry *)
Lemma diag_step L qb q z B Q r : close K qb B -> within (-350) 350 B -> close L q Q -> within (-400) 350 Q -> scl 2 z r -> span 150 (Rabs r) ->
  (kw + K + 3 <= L)%nat -> (9 <= L)%nat -> (Z.of_nat L + 10 <= 2 ^ 52)%Z ->
  close (L + 3) (fadd (fadd (fmul (fsub (fsub (fofZ 1) a) b) qb) (fmul a (l_sq lm z))) (fmul b q)) (W * B + ra * (r * r) + rb * Q).
Proof.
  intros HB RB HQ RQ HZ SZ H1 H2 H3. assert (A0 := span_nonneg _ _ Sa). assert (B0 := span_nonneg _ _ Sb). rewrite HS.
  assert (SR : span 300 (r * r)). { replace (r * r) with (Rabs r * Rabs r) by (rewrite <- Rabs_mult, Rabs_pos_eq; [reflexivity|apply Rle_0_sqr]). apply (span_mul 150 150); assumption. }
  assert (N0 := span_nonneg _ _ SR). assert (NU := span_le 300 _ ltac:(lia) SR).
  assert (HWB := wq_bounds B RB). assert (NB := next_bounds B (r * r) Q RB ltac:(split; [exact N0|apply (Rle_trans _ _ _ NU), bpow_le; lia]) RQ).
  assert (T1 : close (S (kw + K)) (fmul (fsub (fsub (fofZ 1) a) b) qb) (W * B)).
  { apply close_mul; [lia|exact CW|exact HB|right; eapply Rle_trans; [|apply HWB]; apply bpow_le; lia|apply (le1000 _ 350); [lia|apply HWB]]. }
  assert (T2 : close 6 (fmul a (fmul z z)) (ra * (r * r))).
  { apply (close_mul 0 5); [simpl; lia|apply close_exact; assumption|apply (scl_square 2); [simpl; lia|exact HZ|apply (span_up 300); [lia|exact SR]|apply (le1000 _ 300); [lia|exact NU]]| |].
    - apply (span_up 400); [lia|]. apply (span_mul 100 300); assumption.
    - apply (le1000 _ 400); [lia|]. apply (span_le 400); [lia|]. apply (span_mul 100 300); assumption. }
  destruct (rb_span Q RQ) as [SQ BQ].
  assert (T3 : close (S (0 + L)) (fmul b q) (rb * Q)).
  { apply close_mul; [simpl; lia|apply close_exact; assumption|exact HQ|apply (span_up 500); [lia|exact SQ]|apply (le1000 _ 500); [lia|exact BQ]]. }
  assert (BP : 0 <= rb * Q) by (apply (span_nonneg 500); exact SQ). assert (AP : 0 <= ra * (r * r)) by (apply Rmult_le_pos; lra). assert (WP : 0 <= W * B) by (destruct HWB as [X _]; assert (Y := bpow_gt_0 radix2 (-400)); lra).
  destruct NB as [_ NB]. assert (B3 := le1000 _ 350 ltac:(lia) NB).
  replace (L + 3)%nat with (S (L + 2)) by lia. apply (close_add (L + 1) (S (0 + L))); [lia|lia|lia| |exact T3|exact B3].
  replace (L + 1)%nat with (S L) by lia. apply (close_add (S (kw + K)) 6); [lia|lia|lia|exact T1|exact T2|lra].
Qed.
(** one step of the off-diagonal entry, with the size G of the terms it is the sum of *)
Lemma cross_step L q x y Q G r s : near L q Q G -> within (-400) 350 G -> scl 2 x r -> span 150 (Rabs r) -> scl 2 y s -> span 150 (Rabs s) ->
  (kw + K + 3 <= L)%nat -> (9 <= L)%nat -> (Z.of_nat L + 10 <= 2 ^ 52)%Z ->
  near (L + 3) (fadd (fadd (fmul (fsub (fsub (fofZ 1) a) b) qb12) (fmul (fmul a x) y)) (fmul b q)) (W * B12 + ra * (r * s) + rb * Q) (W * g + ra * (Rabs r * Rabs s) + rb * G).
Proof.
  intros HQ RQ HX SX HY SY H1 H2 H3. assert (A0 := span_nonneg _ _ Sa). assert (B0 := span_nonneg _ _ Sb).
  assert (SR := span_mul _ _ _ _ SX SY). assert (N0 := span_nonneg _ _ SR). assert (NU := span_le (150 + 150) _ ltac:(lia) SR). change (150 + 150)%Z with 300%Z in *.
  assert (HWB := wq_bounds g Rg). assert (NB := next_bounds g (Rabs r * Rabs s) G Rg ltac:(split; [exact N0|apply (Rle_trans _ _ _ NU), bpow_le; lia]) RQ).
  assert (CWN : near kw (fsub (fsub (fofZ 1) a) b) W W) by (apply close_near, CW).
  assert (T1 : near (S (S (kw + K))) (fmul (fsub (fsub (fofZ 1) a) b) qb12) (W * B12) (W * g)).
  { apply near_mul; [lia|exact CWN|exact C12|apply (le1000 _ 350); [lia|apply HWB]|right; eapply Rle_trans; [|apply HWB]; apply bpow_le; lia]. }
  assert (T2a : near 4 (fmul a x) (ra * r) (ra * Rabs r)).
  { assert (S2 := span_mul _ _ _ _ Sa SX). apply (near_mul 0 2); [simpl; lia|apply near_exact; [exact Ea|rewrite Rabs_pos_eq; lra]|apply scl_near, HX|apply (le1000 _ 250); [lia|apply (span_le 250); [lia|exact S2]]|apply (span_up 250); [lia|exact S2]]. }
  assert (T2 : near 8 (fmul (fmul a x) y) (ra * r * s) (ra * Rabs r * Rabs s)).
  { assert (S2 := span_mul _ _ _ _ (span_mul _ _ _ _ Sa SX) SY). apply (near_mul 4 2); [simpl; lia|exact T2a|apply scl_near, HY|apply (le1000 _ 400); [lia|apply (span_le 400); [lia|exact S2]]|apply (span_up 400); [lia|exact S2]]. }
  rewrite !(Rmult_assoc ra) in T2.
  destruct (rb_span G RQ) as [SQ BQ].
  assert (T3 : near (S (S (0 + L))) (fmul b q) (rb * Q) (rb * G)).
  { apply near_mul; [simpl; lia|apply near_exact; [exact Eb|rewrite Rabs_pos_eq; lra]|exact HQ|apply (le1000 _ 500); [lia|exact BQ]|apply (span_up 500); [lia|exact SQ]]. }
  assert (BP : 0 <= rb * G) by (apply (span_nonneg 500); exact SQ). assert (AP : 0 <= ra * (Rabs r * Rabs s)) by (apply Rmult_le_pos; lra). assert (WP : 0 <= W * g) by (destruct HWB as [X _]; assert (Y := bpow_gt_0 radix2 (-400)); lra).
  destruct NB as [_ NB]. assert (B3 := le1000 _ 350 ltac:(lia) NB).
  replace (L + 3)%nat with (S (L + 2)) by lia. apply (near_add (L + 1) (S (S (0 + L)))); [lia|lia|lia| |exact T3|exact B3].
  replace (L + 1)%nat with (S L) by lia. apply (near_add (S (S (kw + K))) 8); [lia|lia|lia|exact T1|exact T2|lra].
Qed.
(** the correlation of a computed matrix *)
Lemma corr_near L q11 q12 q22 Q11 Q12 Q22 G : close L q11 Q11 -> near L q12 Q12 G -> close L q22 Q22 -> pd (Q11, G, Q22) -> within (-400) 350 Q11 -> within (-400) 350 Q22 -> within (-400) 350 G ->
  (Z.of_nat (L + L) + 10 <= 2 ^ 52)%Z -> near (L + L + 4) (fdiv q12 (fsqrt (fmul q11 q22))) (corr_of (Q11, Q12, Q22)) 1.
Proof.
  intros H11 H12 H22 (P1 & P2 & P3) I11 I22 IG HL. cbn [corr_of]. assert (PP : 0 < Q11 * Q22) by (apply Rmult_lt_0_compat; assumption). assert (S0 := sqrt_lt_R0 _ PP).
  assert (LO : bpow radix2 (-800) <= Q11 * Q22). { change (-800)%Z with (-400 + -400)%Z. rewrite bpow_plus. destruct I11, I22. apply Rmult_le_compat; try apply bpow_ge_0; assumption. }
  assert (HI : Q11 * Q22 <= bpow radix2 700). { change 700%Z with (350 + 350)%Z. rewrite bpow_plus. destruct I11, I22. apply Rmult_le_compat; try lra. }
  assert (CM : close (S L + S L) (fmul q11 q22) (Q11 * Q22)).
  { apply (close_weaken (S (L + L))); [lia|]. apply close_mul; [lia|exact H11|exact H22|right; eapply Rle_trans; [|exact LO]; apply bpow_le; lia|apply (le1000 _ 700); [lia|exact HI]]. }
  assert (CS := close_sqrt _ _ _ CM). assert (G0 : 0 < G) by (destruct IG as [X _]; assert (Y := bpow_gt_0 radix2 (-400)); lra).
  assert (GS : G <= sqrt (Q11 * Q22)) by (rewrite <- (sqrt_square G) by lra; apply sqrt_le_1_alt; exact P3).
  assert (HI2 : sqrt (Q11 * Q22) <= bpow radix2 350) by (rewrite <- (sqrt_bpow 350); apply sqrt_le_1_alt; exact HI).
  assert (IS := Rinv_0_lt_compat _ S0). assert (G1 : G / sqrt (Q11 * Q22) <= 1) by (apply div_le_iff; lra).
  replace (L + L + 4)%nat with (S (S (L + S (S L)))) by lia. apply (near_enlarge _ _ _ (G / sqrt (Q11 * Q22))); [exact G1|].
  apply near_div; [lia|exact H12|exact CS|exact S0|apply (Rle_trans _ _ _ G1); apply (Rle_trans _ (bpow radix2 0)); [right; reflexivity|apply bpow_le; lia]|].
  right. apply (Rle_trans _ (bpow radix2 (-400) * bpow radix2 (-350))); [rewrite <- bpow_plus; apply bpow_le; lia|]. unfold Rdiv. apply Rmult_le_compat; try apply bpow_ge_0; [apply IG|].
  change (-350)%Z with (- (350))%Z. rewrite bpow_opp. apply Rinv_le; assumption.
Qed.
Lemma loop_near : forall zs rs, Forall2 ok_pair zs rs -> forall L q11 q12 q22 Q11 Q12 Q22 G, close L q11 Q11 -> near L q12 Q12 G -> close L q22 Q22 -> pd (Q11, G, Q22) ->
  within (-400) 350 Q11 -> within (-400) 350 Q22 -> within (-400) 350 G -> (kw + K + 3 <= L)%nat -> (9 <= L)%nat -> (Z.of_nat L + 3 * Z.of_nat (length zs) + 10 <= 2 ^ 51)%Z ->
  forall t, (t < length zs)%nat -> near ((L + 3 * S t) + (L + 3 * S t) + 4) (nth t (dcc_loop (B64 lm) a b qb11 qb12 qb22 q11 q12 q22 zs) (fofZ 0)) (corr_of (nth t (Qpath ra rb (B11, B12, B22) (Q11, Q12, Q22) rs) (0, 0, 0))) 1.
Proof.
  intros zs rs HF. induction HF as [|[x y] [r s] zs rs (HX & HY & SX & SY) HF IH]; intros L q11 q12 q22 Q11 Q12 Q22 G H11 H12 H22 HP I11 I22 IG H1 H2 H3 t Ht; [cbn in Ht; lia|].
  cbn [fst snd length] in *.
  assert (D11 := diag_step L qb11 q11 x B11 Q11 r C11 R11 H11 I11 HX SX H1 H2 ltac:(lia)).
  assert (D22 := diag_step L qb22 q22 y B22 Q22 s C22 R22 H22 I22 HY SY H1 H2 ltac:(lia)).
  assert (D12 := cross_step L q12 x y Q12 G r s H12 IG HX SX HY SY H1 H2 ltac:(lia)).
  assert (SQ : forall u, span 150 (Rabs u) -> 0 <= u * u <= bpow radix2 350).
  { intros u SU. assert (S2 := span_mul _ _ _ _ SU SU). rewrite <- Rabs_mult, Rabs_pos_eq in S2 by apply Rle_0_sqr. split; [apply Rle_0_sqr|]. apply (Rle_trans _ (bpow radix2 300)); [apply (span_le 300); [lia|exact S2]|apply bpow_le; lia]. }
  assert (N11 := next_bounds B11 (r * r) Q11 R11 (SQ r SX) I11). assert (N22 := next_bounds B22 (s * s) Q22 R22 (SQ s SY) I22).
  assert (SRS := span_mul _ _ _ _ SX SY).
  assert (NG := next_bounds g (Rabs r * Rabs s) G Rg ltac:(split; [apply (span_nonneg 300); exact SRS|apply (Rle_trans _ (bpow radix2 300)); [apply (span_le 300); [lia|exact SRS]|apply bpow_le; lia]]) IG).
  assert (A0 := span_nonneg _ _ Sa). assert (B0 := span_nonneg _ _ Sb). assert (WP : 0 < W) by (destruct W0; assert (Y := bpow_gt_0 radix2 (-50)); lra).
  assert (AD : admissible ra rb) by (unfold admissible; rewrite EW in WP; repeat split; lra).
  assert (PN := pd_next ra rb (B11, g, B22) (Q11, G, Q22) (Rabs r, Rabs s) AD PB HP). cbn [Qnext] in PN. rewrite <- EW in PN.
  replace (Rabs r ^ 2) with (r * r) in PN by (rewrite (pow2_abs r); ring). replace (Rabs s ^ 2) with (s * s) in PN by (rewrite (pow2_abs s); ring).
  cbn [dcc_loop Qpath Qnext nadd nsub nmul ofZ B64 nsq]. rewrite <- EW.
  replace (ra * r ^ 2) with (ra * (r * r)) by ring. replace (ra * s ^ 2) with (ra * (s * s)) by ring.
  destruct t as [|t].
  - cbn [nth]. replace (L + 3 * 1)%nat with (L + 3)%nat by lia. apply (corr_near (L + 3) _ _ _ _ _ _ _ D11 D12 D22 PN N11 N22 NG). lia.
  - cbn [nth]. replace (L + 3 * S (S t))%nat with ((L + 3) + 3 * S t)%nat by lia.
    apply (IH (L + 3)%nat _ _ _ _ _ _ _ D11 D12 D22 PN N11 N22 NG); lia.
Qed.
End Recursion.
(** sums in the order of the C++ loop *)
Lemma close_fold k l m : Forall2 (close k) l m -> forall j x c, close (k + j) x c -> c + Rsum m <= bpow radix2 1000 -> (Z.of_nat (k + j + length l) <= 2 ^ 52)%Z -> close (k + j + length l) (fold_left fadd l x) (c + Rsum m).
Proof.
  induction 1 as [|y r l m Hy HF IH]; intros j x c Hx HB HD; cbn [fold_left Rsum length] in *; [rewrite Nat.add_0_r, Rplus_0_r; exact Hx|].
  assert (M0 : 0 <= Rsum m) by (clear - HF; induction HF as [|y r l m Hy HF IH]; cbn; [lra|apply close_nonneg in Hy; lra]).
  replace (k + j + S (length l))%nat with (k + S j + length l)%nat by lia. replace (c + (r + Rsum m)) with (c + r + Rsum m) by ring. apply IH; [|lra|lia].
  replace (k + S j)%nat with (S (k + j)) by lia. apply (close_add (k + j) k); [lia|lia|lia|exact Hx|exact Hy|lra].
Qed.
Lemma near_fold k l (m : list (R * R)) : Forall2 (fun x p => near k x (fst p) (snd p)) l m -> forall j x c d, near (k + j) x c d -> d + Rsum (map snd m) <= bpow radix2 1000 -> (Z.of_nat (k + j + length l) <= 2 ^ 52)%Z ->
  near (k + j + length l) (fold_left fadd l x) (c + Rsum (map fst m)) (d + Rsum (map snd m)).
Proof.
  induction 1 as [|y r l m Hy HF IH]; intros j x c d Hx HB HD; cbn [fold_left Rsum length map] in *; [rewrite Nat.add_0_r, !Rplus_0_r; exact Hx|].
  assert (M0 : 0 <= Rsum (map snd m)) by (clear - HF; induction HF as [|y r l m Hy HF IH]; cbn; [lra|apply near_size in Hy; lra]).
  replace (k + j + S (length l))%nat with (k + S j + length l)%nat by lia. replace (c + (fst r + Rsum (map fst m))) with (c + fst r + Rsum (map fst m)) by ring. replace (d + (snd r + Rsum (map snd m))) with (d + snd r + Rsum (map snd m)) by ring. apply IH; [|lra|lia].
  replace (k + S j)%nat with (S (k + j)) by lia. apply (near_add (k + j) k); [lia|lia|lia|exact Hx|exact Hy|lra].
Qed.
Lemma mean_span e l : (0 <= e)%Z -> l <> [] -> (Z.of_nat (length l) <= 2 ^ 50)%Z -> (forall x, In x l -> span e x) -> span (e + 50) (Rsum l / INR (length l)).
Proof.
  intros He HN HL H. assert (LP : 0 < INR (length l)) by (apply lt_0_INR; destruct l; [congruence|cbn; lia]).
  assert (LB : INR (length l) <= bpow radix2 50) by (rewrite INR_IZR_INZ; change (bpow radix2 50) with (IZR (2 ^ 50)); apply IZR_le; exact HL).
  assert (G : Rsum l = 0 \/ bpow radix2 (- e) <= Rsum l <= INR (length l) * bpow radix2 e).
  { clear HL HN LP LB. assert (P := bpow_gt_0 radix2 e). induction l as [|x l IH]; [left; reflexivity|]. cbn [Rsum length]. rewrite S_INR.
    assert (N := pos_INR (length l)). assert (NP : 0 <= INR (length l) * bpow radix2 e) by (apply Rmult_le_pos; lra). assert (Px := bpow_gt_0 radix2 (- e)).
    destruct (H x ltac:(left; reflexivity)) as [-> | Hx]; (destruct IH as [-> | IH]; [intros; apply H; right; assumption| |]); [left; lra|right; lra|right; lra|right; lra]. }
  destruct G as [-> | [G1 G2]]; [left; unfold Rdiv; ring|right]. assert (I := Rinv_0_lt_compat _ LP). split.
  - replace (- (e + 50))%Z with (- e + - (50))%Z by lia. rewrite bpow_plus. unfold Rdiv. apply Rmult_le_compat; try apply bpow_ge_0; [exact G1|]. rewrite bpow_opp. apply Rinv_le; assumption.
  - apply (Rle_trans _ (bpow radix2 e)); [|apply bpow_le; lia]. apply div_le_iff; [exact LP|]. lra.
Qed.
Lemma square_span r : span 150 (Rabs r) -> span 300 (r * r).
Proof. intros S. replace (r * r) with (Rabs r * Rabs r) by (rewrite <- Rabs_mult, Rabs_pos_eq; [reflexivity|apply Rle_0_sqr]). apply (span_mul 150 150); assumption. Qed.

Lemma div_up a n : 0 < n -> span 350 (a / n) -> a = 0 \/ bpow radix2 (-1000) <= a / n.
Proof. intros HN S. destruct (span_up 350 _ ltac:(lia) S) as [Z | Z]; [left|right; exact Z]. replace a with (a / n * n) by (field; lra). rewrite Z. ring. Qed.
Lemma moments_near zs rs : Forall2 ok_pair zs rs -> zs <> [] -> (Z.of_nat (length zs) <= 2 ^ 48)%Z ->
  let T := length zs in let n := fofZ (Z.of_nat T) in
  let m11 := Rsum (map (fun p => fst p * fst p) rs) / INR T in let m12 := Rsum (map (fun p => fst p * snd p) rs) / INR T in let m22 := Rsum (map (fun p => snd p * snd p) rs) / INR T in
  let g := Rsum (map (fun p => Rabs (fst p * snd p)) rs) / INR T in
  close (8 + T) (fdiv (fold_left fadd (map (fun p => fmul (fst p) (fst p)) zs) (fofZ 0)) n) m11 /\
  near (8 + T) (fdiv (fold_left fadd (map (fun p => fmul (fst p) (snd p)) zs) (fofZ 0)) n) m12 g /\
  close (8 + T) (fdiv (fold_left fadd (map (fun p => fmul (snd p) (snd p)) zs) (fofZ 0)) n) m22 /\
  span 350 m11 /\ span 350 m22.
Proof.
  intros HF HN HT T n m11 m12 m22 g. assert (LR := Forall2_len _ _ _ HF). assert (TP : (1 <= T)%nat) by (unfold T; destruct zs; [congruence|cbn; lia]).
  assert (E0 : val (fofZ 0) = Fin 0) by (apply val_ofZ_small; lia). assert (EI : INR T = IZR (Z.of_nat T)) by apply INR_IZR_INZ. assert (TR : 0 < INR T) by (apply lt_0_INR; lia).
  assert (RN : rs <> []) by (intros E; rewrite E in LR; cbn in LR; unfold T in TP; lia).
  assert (DG : forall (f : b64 * b64 -> b64) (h : R * R -> R), (forall p q, ok_pair p q -> scl 2 (f p) (h q) /\ span 150 (Rabs (h q))) ->
     close (8 + T) (fdiv (fold_left fadd (map (fun p => fmul (f p) (f p)) zs) (fofZ 0)) n) (Rsum (map (fun p => h p * h p) rs) / INR T) /\ span 350 (Rsum (map (fun p => h p * h p) rs) / INR T)).
  { intros f h Hfh. set (ms := map (fun p => h p * h p) rs). assert (LM : length ms = T) by (unfold ms; rewrite map_length; unfold T; lia).
    assert (SM : forall x, In x ms -> span 300 x).
    { intros x Hx. unfold ms in Hx. apply in_map_iff in Hx as (q & <- & Hq). clear - HF Hfh Hq. induction HF as [|p q' zs rs Hp HF IH]; [destruct Hq|]. destruct Hq as [-> | Hq]; [apply square_span, (Hfh p), Hp|auto]. }
    assert (MS : span 350 (Rsum ms / INR T)) by (rewrite <- LM; apply (mean_span 300); [lia|unfold ms; intros E; apply map_eq_nil in E; contradiction|lia|exact SM]).
    assert (SS : span 350 (Rsum ms)) by (apply (span_sum 300); [lia|lia|exact SM]).
    split; [|exact MS]. assert (F2 : Forall2 (close 5) (map (fun p => fmul (f p) (f p)) zs) ms).
    { unfold ms. clear - HF Hfh. induction HF as [|p q zs rs Hp HF IH]; cbn [map]; constructor; [|exact IH]. destruct (Hfh p q Hp) as [HS HP]. assert (S3 := square_span _ HP). apply (scl_square 2); [simpl; lia|exact HS|apply (span_up 300); [lia|exact S3]|apply (bpow1000 300); [lia|exact S3]]. }
    assert (C := close_fold 5 _ ms F2 0 (fofZ 0) 0 (close_weaken 0 5 _ _ ltac:(lia) (close_exact _ _ E0 ltac:(lra)))). rewrite Rplus_0_l, map_length in C. fold T in C.
    assert (C' := C ltac:(apply (bpow1000 350); [lia|exact SS]) ltac:(lia)). replace (8 + T)%nat with (S (S (S (5 + 0 + T)) + 0)) by lia. rewrite EI.
    apply close_weaken with (j := S ((5 + 0 + T) + 0)); [lia|].
    apply close_div; [lia|exact C'|apply close_exact; [apply val_ofZ_small; lia|apply IZR_le; lia]|apply IZR_lt; lia|rewrite <- EI; apply div_up; [exact TR|exact MS]|rewrite <- EI; apply (bpow1000 350); [lia|exact MS]]. }
  destruct (DG fst fst) as [D1 S1]; [intros p q (? & ? & ? & ?); auto|]. destruct (DG snd snd) as [D2 S2]; [intros p q (? & ? & ? & ?); auto|].
  split; [exact D1|]. split; [|split; [exact D2|split; [exact S1|exact S2]]].
  set (ms := map (fun p : R * R => (fst p * snd p, Rabs (fst p * snd p))) rs).
  assert (MF : map fst ms = map (fun p => fst p * snd p) rs) by (unfold ms; rewrite map_map; reflexivity). assert (MG : map snd ms = map (fun p => Rabs (fst p * snd p)) rs) by (unfold ms; rewrite map_map; reflexivity).
  assert (SM : forall x, In x (map snd ms) -> span 300 x).
  { intros x Hx. rewrite MG in Hx. apply in_map_iff in Hx as (q & <- & Hq). clear - HF Hq. induction HF as [|p q' zs rs Hp HF IH]; [destruct Hq|]. destruct Hq as [-> | Hq]; [|auto]. destruct Hp as (_ & _ & A1 & A2). rewrite Rabs_mult. apply (span_mul 150 150); assumption. }
  assert (LM : length (map snd ms) = T) by (unfold ms; rewrite !map_length; unfold T; lia).
  assert (NE : map snd ms <> []) by (intros E; rewrite E in LM; cbn in LM; lia).
  assert (MS : span 350 (Rsum (map snd ms) / INR T)) by (rewrite <- LM; apply (mean_span 300); [lia|exact NE|lia|exact SM]).
  assert (SS : span 350 (Rsum (map snd ms))) by (apply (span_sum 300); [lia|lia|exact SM]).
  assert (F2 : Forall2 (fun x p => near 6 x (fst p) (snd p)) (map (fun p => fmul (fst p) (snd p)) zs) ms).
  { unfold ms. clear - HF. induction HF as [|p q zs rs Hp HF IH]; cbn [map]; constructor; [|exact IH]. destruct Hp as (H1 & H2 & A1 & A2). assert (S3 := span_mul _ _ _ _ A1 A2). cbn [fst snd]. rewrite Rabs_mult.
    apply (near_mul 2 2); [simpl; lia|apply scl_near, H1|apply scl_near, H2|apply (bpow1000 300); [lia|exact S3]|apply (span_up 300); [lia|exact S3]]. }
  assert (N0 : near (6 + 0) (fofZ 0) 0 0) by (apply (near_weaken 0); [lia|]; apply near_exact; [exact E0|rewrite Rabs_R0; lra]).
  assert (N := near_fold 6 _ ms F2 0%nat (fofZ 0) 0 0 N0). rewrite !Rplus_0_l, map_length in N. fold T in N.
  assert (N' := N ltac:(apply (bpow1000 350); [lia|exact SS]) ltac:(lia)). rewrite MF, MG in *.
  unfold m12, g. apply (near_weaken (S (S (6 + 0 + T)))); [lia|]. rewrite !EI. apply near_divZ; [lia|lia|exact N'|apply (bpow1000 350); [lia|exact SS]|].
  rewrite <- EI. apply div_up; [exact TR|exact MS].
Qed.

Lemma exact_map (l : list b64) : map exact l = map Fin (reals l).
Proof. unfold reals. rewrite map_map. reflexivity. Qed.
Lemma pairs_ok : forall r1 r2 s1 s2, Forall resid64 r1 -> Forall resid64 r2 -> Forall positive64 s1 -> Forall positive64 s2 -> length s1 = length r1 -> length s2 = length r1 -> length r2 = length r1 ->
  Forall2 ok_pair (combine (map2 (fun r s => fdiv r (fsqrt s)) r1 s1) (map2 (fun r s => fdiv r (fsqrt s)) r2 s2)) (combine (zscores (reals r1) (reals s1)) (zscores (reals r2) (reals s2))).
Proof.
  induction r1 as [|x r1 IH]; intros [|y r2] [|v s1] [|w s2] H1 H2 H3 H4 L1 L2 L3; cbn in L1, L2, L3; try discriminate; [constructor|].
  inversion H1; subst. inversion H2; subst. inversion H3; subst. inversion H4; subst. cbn [map2 combine reals map zscores]. constructor; [|apply IH; auto; lia].
  destruct (zscore_scl x v) as [A1 A2]; [assumption|assumption|]. destruct (zscore_scl y w) as [B1 B2]; [assumption|assumption|]. split; [exact A1|]. split; [exact B1|]. split; [exact A2|exact B2].
Qed.
Lemma reals_positive s : Forall positive64 s -> positive (reals s).
Proof. intros H. unfold positive, reals. apply Forall_map. eapply Forall_impl; [|exact H]. intros x [_ [L _]]. assert (P := bpow_gt_0 radix2 (-100)). lra. Qed.
Lemma Forall2_removelast {X Y} (P : X -> Y -> Prop) l m : Forall2 P l m -> Forall2 P (removelast l) (removelast m).
Proof. induction 1 as [|x y l m H HF IH]; [constructor|]. destruct HF; [constructor|]. cbn [removelast] in *. constructor; assumption. Qed.
Lemma removelast_len {X} (l : list X) : length (removelast l) = (length l - 1)%nat.
Proof. apply removelast_length. Qed.

(** the whole path, once the target matrix is known up to K roundings *)
Lemma path_near lm a b n K qb11 qb12 qb22 B11 B12 B22 g z1 z2 y1 y2 :
  square_is_product lm -> weights64 n a b -> close K qb11 B11 -> near K qb12 B12 g -> close K qb22 B22 -> pd (B11, g, B22) -> within (-350) 350 B11 -> within (-350) 350 B22 -> within (-350) 350 g ->
  Forall2 ok_pair (combine z1 z2) (combine y1 y2) -> (Z.of_nat (length (combine z1 z2)) <= 2 ^ 48)%Z -> (4 <= K)%nat -> (Z.of_nat K <= 2 ^ 50)%Z -> forall t, (t < length (combine z1 z2))%nat ->
  exists v, val (nth t (dcc_path (B64 lm) a b qb11 qb12 qb22 z1 z2) (fofZ 0)) = Fin v /\
    Rabs (v - nth t (dcc_correlations (B2R a) (B2R b) (B11, B12, B22) y1 y2) 0) <= INR (4 * n + 2 * K + 6 * t + 12) * bpow radix2 (-52).
Proof.
  intros HS (Ha & Hb & HN & HW) C11 C12 C22 HP R11 R22 Rg HF HT HK4 HK t Ht. destruct Ha as [Fa Sa], Hb as [Fb Sb]. assert (Ea := val_fin a Fa). assert (Eb := val_fin b Fb). change (span 100 (B2R a)) in Sa. change (span 100 (B2R b)) in Sb.
  assert (A0 := span_nonneg _ _ Sa). assert (B0 := span_nonneg _ _ Sb). assert (CW := weight_close a b (B2R a) (B2R b) n Ea Eb A0 B0 HW ltac:(lia)).
  assert (N1 : (1 <= n)%nat) by (destruct n; [exfalso; cbn in HW; lra|lia]).
  assert (NP : 0 < INR n) by (apply lt_0_INR; lia). remember (1 - B2R a - B2R b) as W eqn:EW.
  assert (W0 : within (-50) 0 W).
  { split; [|simpl; lra]. assert (NB : INR n <= bpow radix2 50) by (rewrite INR_IZR_INZ; change (bpow radix2 50) with (IZR (2 ^ 50)); apply IZR_le; lia). change (-50)%Z with (- (50))%Z. rewrite bpow_opp.
    apply (Rle_trans _ (/ INR n)); [apply Rinv_le; assumption|]. apply (Rmult_le_reg_l (INR n)); [exact NP|]. rewrite Rinv_r by lra. exact HW. }
  assert (WK : forall q, within (-350) 350 q -> within (-400) 350 q) by (intros q [Q1 Q2]; split; [apply (Rle_trans _ (bpow radix2 (-350))); [apply bpow_le; lia|exact Q1]|exact Q2]).
  assert (NN : exists k, near k (nth t (dcc_path (B64 lm) a b qb11 qb12 qb22 z1 z2) (fofZ 0)) (nth t (dcc_correlations (B2R a) (B2R b) (B11, B12, B22) y1 y2) 0) 1 /\ (k <= 4 * n + 2 * K + 6 * t + 12)%nat).
  { unfold dcc_path, dcc_correlations. destruct t as [|t].
    - exists (K + K + 4)%nat. split; [|lia]. cbn [nth map]. apply (corr_near K _ _ _ B11 B12 B22 g); auto; lia.
    - exists ((n + n + 1 + K + 3 + 3 * S t) + (n + n + 1 + K + 3 + 3 * S t) + 4)%nat. split; [|lia]. cbn [nth map].
      assert (LR : length (removelast (combine z1 z2)) = (length (combine z1 z2) - 1)%nat) by apply removelast_length.
      assert (E0 : 0 = corr_of (0, 0, 0)) by (cbn; unfold Rdiv; ring). assert (NM : forall l, nth t (map corr_of l) 0 = corr_of (nth t l (0, 0, 0))) by (intros l; rewrite <- (map_nth corr_of l (0, 0, 0) t); apply f_equal; exact E0). rewrite NM.
      assert (C11' : close (n + n + 1 + K + 3) qb11 B11) by (apply (close_weaken K); [lia|exact C11]). assert (C22' : close (n + n + 1 + K + 3) qb22 B22) by (apply (close_weaken K); [lia|exact C22]). assert (C12' : near (n + n + 1 + K + 3) qb12 B12 g) by (apply (near_weaken K); [lia|exact C12]).
      apply (loop_near lm a b (B2R a) (B2R b) W (n + n + 1) K qb11 qb12 qb22 B11 B12 B22 g HS Ea Eb Sa Sb EW W0 CW C11 C12 C22 HP R11 R22 Rg _ _ (Forall2_removelast _ _ _ HF) (n + n + 1 + K + 3)%nat qb11 qb12 qb22 B11 B12 B22 g C11' C12' C22' HP (WK _ R11) (WK _ R22) (WK _ Rg)); [lia|lia| |]; rewrite LR; lia. }
  destruct NN as (k & NK & KL). destruct (near_error (4 * n + 2 * K + 6 * t + 12) _ _ _ ltac:(lia) (near_weaken _ _ _ _ _ KL NK)) as (v & EV & DV). exists v. split; [exact EV|]. rewrite Rmult_1_r in DV. exact DV.
Qed.

(** ** C139: the C++ backend.  In binary64 it returns the correlations of exact arithmetic with an absolute error of at most (4 n + 2 T + 6 t + 28) 2^-52 at time t, where 1 - a - b >= 1/n *)
Theorem C139_cpp : forall lm a b n r1 r2 s1 s2, square_is_product lm -> weights64 n a b -> series64 r1 r2 s1 s2 -> moves r1 -> moves r2 ->
  exists xs rho, cond_corr_cpp (B64 lm) a b r1 r2 s1 s2 = Ok xs /\ length xs = length r1 /\
    cond_corr_cpp XRA (exact a) (exact b) (map exact r1) (map exact r2) (map exact s1) (map exact s2) = Ok (map Fin rho) /\
    (let y1 := zscores (reals r1) (reals s1) in let y2 := zscores (reals r2) (reals s2) in rho = dcc_correlations (B2R a) (B2R b) (moment2 y1 y1, moment2 y1 y2, moment2 y2 y2) y1 y2) /\ length rho = length r1 /\ Forall (fun r => -1 <= r <= 1) rho /\
    forall t, (t < length r1)%nat -> exists v, val (nth t xs (fofZ 0)) = Fin v /\ Rabs (v - nth t rho 0) <= INR (4 * n + 2 * length r1 + 6 * t + 28) * bpow radix2 (-52).
Proof.
  intros lm a b n r1 r2 s1 s2 HS HW (H1 & H2 & H3 & H4 & L1 & L2 & L3 & LT) M1 M2.
  assert (RL : forall l, length (reals l) = length l) by (intros l; apply map_length).
  assert (NZ : forall r s, length s = length r -> Forall positive64 s -> moves r -> non_zero (zscores (reals r) (reals s))).
  { intros r s HL HP (x & Hx & Nx). clear - HL HP Hx Nx. revert s HL HP. induction r as [|y r IH]; intros [|v s] HL HP; cbn in HL; try discriminate; [destruct Hx|]. inversion HP as [|? ? [_ [P _]] HP']; subst. cbn [reals map zscores map2].
    destruct Hx as [-> | Hx]. 2: { destruct (IH Hx s ltac:(lia) HP') as (z & Hz & Nz). exists z. split; [right; exact Hz|exact Nz]. }
    exists (B2R x / sqrt (B2R v)). split; [left; reflexivity|]. assert (PP := bpow_gt_0 radix2 (-100)). assert (Q := sqrt_lt_R0 (B2R v) ltac:(lra)). intros E. apply Nx. replace (B2R x) with (B2R x / sqrt (B2R v) * sqrt (B2R v)) by (field; lra). rewrite E. ring. }
  assert (HA : admissible (B2R a) (B2R b)).
  { destruct HW as ([_ Sa] & [_ Sb] & _ & HW). change (span 100 (B2R a)) in Sa. change (span 100 (B2R b)) in Sb. assert (A0 := span_nonneg _ _ Sa). assert (B0 := span_nonneg _ _ Sb). assert (N := pos_INR n).
    assert (0 < 1 - B2R a - B2R b) by (destruct (Rle_lt_dec (1 - B2R a - B2R b) 0); [exfalso; nra|assumption]). unfold admissible. split; [exact A0|split; [exact B0|split; [lra|intros [E1 E2]; lra]]]. }
  set (y1 := zscores (reals r1) (reals s1)). set (y2 := zscores (reals r2) (reals s2)).
  assert (N1 := NZ r1 s1 L1 H3 M1). assert (N2 := NZ r2 s2 ltac:(lia) H4 M2). fold y1 in N1. fold y2 in N2.
  destruct (cond_corr_cpp_value (B2R a) (B2R b) (reals r1) (reals r2) (reals s1) (reals s2)) as [HP EX]; try (rewrite !RL; lia); try (apply reals_positive; assumption); [exact HA|exact N1|exact N2|]. fold y1 y2 in HP, EX.
  assert (HF := pairs_ok r1 r2 s1 s2 H1 H2 H3 H4 L1 L2 L3). fold y1 y2 in HF. set (z1 := map2 _ r1 s1) in *. set (z2 := map2 _ r2 s2) in *.
  assert (LZ1 : length z1 = length r1) by (unfold z1; rewrite map2_length, L1; apply Nat.min_id). assert (LZ2 : length z2 = length r1) by (unfold z2; rewrite map2_length, L2, L3; apply Nat.min_id).
  assert (LY1 : length y1 = length r1) by (unfold y1; rewrite zscores_length by (rewrite !RL; lia); apply RL). assert (LY2 : length y2 = length r1) by (unfold y2; rewrite zscores_length by (rewrite !RL; lia); rewrite RL; exact L3).
  assert (LC : length (combine z1 z2) = length r1) by (rewrite combine_length, LZ1, LZ2; apply Nat.min_id).
  assert (LR : (1 <= length r1)%nat) by (destruct M1 as (x & Hx & _); destruct r1; [destruct Hx|cbn; lia]).
  assert (CN : combine z1 z2 <> []) by (intros E; rewrite E in LC; cbn in LC; lia).
  assert (MN := moments_near _ _ HF CN ltac:(rewrite LC; exact LT)). cbv zeta in MN. rewrite LC in MN. destruct MN as (C11 & C12 & C22 & S11 & S22).
  assert (EM11 : Rsum (map (fun p => fst p * fst p) (combine y1 y2)) / INR (length r1) = moment2 y1 y1) by (rewrite (map_fst_combine (fun x => x * x)) by lia; rewrite moment2_self, LY1; reflexivity).
  assert (EM22 : Rsum (map (fun p => snd p * snd p) (combine y1 y2)) / INR (length r1) = moment2 y2 y2) by (rewrite (map_snd_combine (fun x => x * x)) by lia; rewrite moment2_self, LY2; reflexivity).
  assert (EM12 : Rsum (map (fun p => fst p * snd p) (combine y1 y2)) / INR (length r1) = moment2 y1 y2) by (unfold moment2; rewrite map2_combine, LY1; reflexivity).
  rewrite EM11 in C11, S11. rewrite EM22 in C22, S22. rewrite EM12 in C12.
  destruct HP as (P11 & P22 & P12). assert (PP : 0 < moment2 y1 y1 * moment2 y2 y2) by (apply Rmult_lt_0_compat; assumption).
  set (g := sqrt (moment2 y1 y1 * moment2 y2 y2)). assert (GG : g * g = moment2 y1 y1 * moment2 y2 y2) by (apply sqrt_sqrt; lra).
  assert (C12' : near (8 + length r1) (fdiv (fold_left fadd (map (fun p : b64 * b64 => fmul (fst p) (snd p)) (combine z1 z2)) (fofZ 0)) (fofZ (Z.of_nat (length r1)))) (moment2 y1 y2) g).
  { eapply near_enlarge; [|exact C12]. assert (CS := cauchy_schwarz (fun p : R * R => Rabs (fst p)) (fun p => Rabs (snd p)) (combine y1 y2)). cbv beta in CS.
    assert (NP : 0 < INR (length r1)) by (apply lt_0_INR; lia).
    rewrite (map_ext (fun p => Rabs (fst p) * Rabs (fst p)) (fun p : R * R => fst p * fst p)) in CS by (intros p; rewrite <- Rabs_mult; apply Rabs_pos_eq, Rle_0_sqr).
    rewrite (map_ext (fun p => Rabs (snd p) * Rabs (snd p)) (fun p : R * R => snd p * snd p)) in CS by (intros p; rewrite <- Rabs_mult; apply Rabs_pos_eq, Rle_0_sqr).
    rewrite (map_ext (fun p => Rabs (fst p) * Rabs (snd p)) (fun p : R * R => Rabs (fst p * snd p))) in CS by (intros p; symmetry; apply Rabs_mult).
    set (u := Rsum (map (fun p : R * R => Rabs (fst p * snd p)) (combine y1 y2))) in *.
    assert (U0 : 0 <= u) by (apply Rsum_nonneg; intros x Hx; apply in_map_iff in Hx as (p & <- & _); apply Rabs_pos).
    unfold g. rewrite <- (sqrt_square (u / INR (length r1))) by (apply Rmult_le_pos; [exact U0|apply Rlt_le, Rinv_0_lt_compat, NP]). apply sqrt_le_1_alt. rewrite <- EM11, <- EM22.
    set (A := Rsum (map (fun p : R * R => fst p * fst p) (combine y1 y2))) in *. set (B := Rsum (map (fun p : R * R => snd p * snd p) _)) in *. unfold Rsqr in CS. assert (IP := Rinv_0_lt_compat _ NP). unfold Rdiv.
    replace (u * / INR (length r1) * (u * / INR (length r1))) with (u * u * (/ INR (length r1) * / INR (length r1))) by ring. replace (A * / INR (length r1) * (B * / INR (length r1))) with (A * B * (/ INR (length r1) * / INR (length r1))) by ring.
    apply Rmult_le_compat_r; [apply Rle_0_sqr|exact CS]. }
  assert (R11 := span_pos _ _ S11 P11). assert (R22 := span_pos _ _ S22 P22). change (within (-350) 350 (moment2 y1 y1)) in R11. change (within (-350) 350 (moment2 y2 y2)) in R22.
  assert (Rg : within (-350) 350 g).
  { destruct R11 as [X1 X2], R22 as [Y1 Y2]. assert (Z0 := bpow_gt_0 radix2 (-350)). split; [rewrite <- (sqrt_bpow (-350)) | rewrite <- (sqrt_bpow 350)]; apply sqrt_le_1_alt; rewrite bpow_plus; apply Rmult_le_compat; lra. }
  assert (HPg : pd (moment2 y1 y1, g, moment2 y2 y2)) by (split; [exact P11|split; [exact P22|lra]]).
  assert (EB : cond_corr_cpp (B64 lm) a b r1 r2 s1 s2 = Ok (dcc_path (B64 lm) a b (fdiv (fold_left fadd (map (fun p : b64 * b64 => fmul (fst p) (fst p)) (combine z1 z2)) (fofZ 0)) (fofZ (Z.of_nat (length r1))))
     (fdiv (fold_left fadd (map (fun p : b64 * b64 => fmul (fst p) (snd p)) (combine z1 z2)) (fofZ 0)) (fofZ (Z.of_nat (length r1))))
     (fdiv (fold_left fadd (map (fun p : b64 * b64 => fmul (snd p) (snd p)) (combine z1 z2)) (fofZ 0)) (fofZ (Z.of_nat (length r1)))) z1 z2)).
  { assert (UNF : cond_corr_cpp (B64 lm) a b r1 r2 s1 s2 = match z1 with [] => Err RuntimeError | _ => Ok (dcc_path (B64 lm) a b (fdiv (fold_left fadd (map2 (fun x _ => fmul x x) z1 z2) (fofZ 0)) (fofZ (Z.of_nat (length z1))))
       (fdiv (fold_left fadd (map2 (fun x y => fmul x y) z1 z2) (fofZ 0)) (fofZ (Z.of_nat (length z1)))) (fdiv (fold_left fadd (map2 (fun _ y => fmul y y) z1 z2) (fofZ 0)) (fofZ (Z.of_nat (length z1)))) z1 z2) end) by reflexivity.
    rewrite UNF, LZ1, !map2_combine. destruct z1 as [|z0 z1']; [cbn in LZ1; lia|]. reflexivity. }
  exists (dcc_path (B64 lm) a b (fdiv (fold_left fadd (map (fun p : b64 * b64 => fmul (fst p) (fst p)) (combine z1 z2)) (fofZ 0)) (fofZ (Z.of_nat (length r1))))
     (fdiv (fold_left fadd (map (fun p : b64 * b64 => fmul (fst p) (snd p)) (combine z1 z2)) (fofZ 0)) (fofZ (Z.of_nat (length r1))))
     (fdiv (fold_left fadd (map (fun p : b64 * b64 => fmul (snd p) (snd p)) (combine z1 z2)) (fofZ 0)) (fofZ (Z.of_nat (length r1)))) z1 z2).
  exists (dcc_correlations (B2R a) (B2R b) (moment2 y1 y1, moment2 y1 y2, moment2 y2 y2) y1 y2).
  split; [exact EB|]. split.
  { unfold dcc_path. cbn [length]. assert (DL : forall zs q1 q2 q3 q4 q5 q6, length (dcc_loop (B64 lm) a b q1 q2 q3 q4 q5 q6 zs) = length zs) by (induction zs as [|[? ?] zs IH]; intros; cbn [dcc_loop length]; [reflexivity|rewrite IH; reflexivity]). apply (eq_trans (y := S (length (removelast (combine z1 z2))))); [apply f_equal, DL|]. rewrite removelast_length, LC. lia. }
  split; [rewrite !exact_map; exact EX|]. split; [reflexivity|]. split; [rewrite dcc_correlations_length by (try lia; intros E; rewrite E in LY1; cbn in LY1; lia); exact LY1|]. split; [apply dcc_correlations_range; [exact HA|split; [exact P11|split; [exact P22|exact P12]]]|].
  intros t Ht. destruct (path_near lm a b n (8 + length r1) _ _ _ _ _ _ g z1 z2 y1 y2 HS HW C11 C12' C22 HPg R11 R22 Rg HF ltac:(rewrite LC; exact LT) ltac:(lia) ltac:(lia) t ltac:(rewrite LC; exact Ht)) as (v & EV & DV).
  exists v. split; [exact EV|]. replace (4 * n + 2 * length r1 + 6 * t + 28)%nat with (4 * n + 2 * (8 + length r1) + 6 * t + 12)%nat by lia. exact DV.
Qed.
(** never further outside [-1,1] than that, and strictly inside where the exact correlation is further inside than that *)
Corollary C139_range : forall lm a b n r1 r2 s1 s2, square_is_product lm -> weights64 n a b -> series64 r1 r2 s1 s2 -> moves r1 -> moves r2 ->
  exists xs rho, cond_corr_cpp (B64 lm) a b r1 r2 s1 s2 = Ok xs /\
    cond_corr_cpp XRA (exact a) (exact b) (map exact r1) (map exact r2) (map exact s1) (map exact s2) = Ok (map Fin rho) /\
    forall t, (t < length r1)%nat -> let e := INR (4 * n + 2 * length r1 + 6 * t + 28) * bpow radix2 (-52) in
      exists v, val (nth t xs (fofZ 0)) = Fin v /\ Rabs v <= 1 + e /\ (Rabs (nth t rho 0) < 1 - e -> -1 < v < 1).
Proof.
  intros lm a b n r1 r2 s1 s2 HS HW HD M1 M2. destruct (C139_cpp lm a b n r1 r2 s1 s2 HS HW HD M1 M2) as (xs & rho & E1 & _ & E2 & _ & L2 & FR & H). exists xs, rho. split; [exact E1|]. split; [exact E2|].
  intros t Ht e. destruct (H t Ht) as (v & EV & DV). fold e in DV. exists v. split; [exact EV|]. assert (R1 : -1 <= nth t rho 0 <= 1) by (rewrite Forall_forall in FR; apply FR, nth_In; lia).
  apply Rabs_le_inv in DV. split; [apply Rabs_le; lra|]. intros HR. apply Rabs_def2 in HR. lra.
Qed.

(** ** The Python backend *)
Lemma val_npmax lm x y a b : val x = Fin a -> val y = Fin b -> val (npmax (B64 lm) x y) = Fin (Rmax a b).
Proof.
  intros EX EY. unfold npmax. cbn [isnan nltb B64 num]. rewrite !val_isnan, val_ltb, EX, EY. cbn [xisnan xltb]. destruct (Rlt_dec a b) as [H | H]; [rewrite EY, Rmax_right by lra|rewrite EX, Rmax_left by lra]; reflexivity.
Qed.
Lemma val_npmin lm x y a b : val x = Fin a -> val y = Fin b -> val (npmin (B64 lm) x y) = Fin (Rmin a b).
Proof.
  intros EX EY. unfold npmin. cbn [isnan nltb B64 num]. rewrite !val_isnan, val_ltb, EX, EY. cbn [xisnan xltb]. destruct (Rlt_dec b a) as [H | H]; [rewrite EY, Rmin_right by lra|rewrite EX, Rmin_left by lra]; reflexivity.
Qed.
(** a diagonal entry of numpy's correlation matrix *)
Lemma diag_entry lm (z1 z2 : list b64) i c : val (nth i (nth i (np_cov (B64 lm) [z1; z2]) []) (nnan (a := B64 lm))) = Fin c -> within (-100) 100 c -> close 4 (corr_entry (B64 lm) z1 z2 i i) 1.
Proof.
  intros E [H1 H2]. set (x := nth i (nth i (np_cov (B64 lm) [z1; z2]) []) (nnan (a := B64 lm))) in *. assert (P := bpow_gt_0 radix2 (-100)). assert (C0 : 0 < c) by lra. assert (S0 := sqrt_lt_R0 c C0).
  assert (SX : sized 100 0 x c) by (apply sized_exact; [exact E|right; split; assumption]).
  assert (SQ : sized 50 1 (fsqrt x) (sqrt c)).
  { split; [apply (close_sqrt 0), close_exact; [exact E|lra]|]. right. split; [rewrite <- (sqrt_bpow (- (50)))|rewrite <- (sqrt_bpow 50)]; apply sqrt_le_1_alt; assumption. }
  assert (D1 := sized_div 100 50 0 1 _ _ _ _ ltac:(lia) ltac:(simpl; lia) SX SQ S0). assert (D2 := sized_div 150 50 2 1 _ _ _ _ ltac:(lia) ltac:(simpl; lia) D1 SQ S0).
  destruct D2 as [(v & EV & V0 & HV) _]. replace (c / sqrt c / sqrt c) with 1 in HV by (replace c with (sqrt c * sqrt c) at 1 by (apply sqrt_sqrt; lra); field; lra). cbn [plus] in HV.
  assert (E1 : val (fofZ 1) = Fin 1) by (apply val_ofZ_small; lia). assert (EO : val (Bopp (fofZ 1)) = Fin (- (1))) by (rewrite val_opp, E1; reflexivity).
  assert (EC : val (corr_entry (B64 lm) z1 z2 i i) = Fin (Rmin (Rmax v (- (1))) 1)) by exact (val_npmin lm _ _ _ _ (val_npmax lm _ _ _ _ EV EO) E1).
  exists (Rmin (Rmax v (- (1))) 1). split; [exact EC|]. rewrite Rmax_left by lra. destruct HV as [R1 R2]. assert (U := up_ge1 4). unfold Rmin. destruct (Rle_dec v 1); (split; [lra|split; lra]).
Qed.

(** ** C139: the Python backend.  If numpy's covariances are in range and its sample correlation is within K units of 2^-53 of the exact one, the conditional correlations are in error by at most (4 n + 2 K + 6 t + 20) 2^-52 *)
Theorem C139_python : forall lm a b n K r1 r2 s1 s2, square_is_product lm -> weights64 n a b -> series64 r1 r2 s1 s2 ->
  let y1 := zscores (reals r1) (reals s1) in let y2 := zscores (reals r2) (reals s2) in non_constant y1 -> non_constant y2 ->
  let z1 := standardize (B64 lm) r1 s1 in let z2 := standardize (B64 lm) r2 s2 in
  (forall i, (i < 2)%nat -> exists c, val (nth i (nth i (np_cov (B64 lm) [z1; z2]) []) (nnan (a := B64 lm))) = Fin c /\ bpow radix2 (-100) <= c <= bpow radix2 100) ->
  (Z.of_nat K <= 2 ^ 48)%Z -> (exists p, val (corr_entry (B64 lm) z1 z2 0 1) = Fin p /\ Rabs (p - pearson y1 y2) <= INR K * bpow radix2 (-53)) ->
  exists xs rho, cond_corr_py (B64 lm) a b r1 r2 s1 s2 = Ok xs /\
    cond_corr_py XRA (exact a) (exact b) (map exact r1) (map exact r2) (map exact s1) (map exact s2) = Ok (map Fin rho) /\ rho = dcc_correlations (B2R a) (B2R b) (1, pearson y1 y2, 1) y1 y2 /\ length rho = length r1 /\ Forall (fun r => -1 <= r <= 1) rho /\
    forall t, (t < length r1)%nat -> exists v, val (nth t xs (fofZ 0)) = Fin v /\ Rabs (v - nth t rho 0) <= INR (4 * n + 2 * K + 6 * t + 20) * bpow radix2 (-52).
Proof.
  intros lm a b n K r1 r2 s1 s2 HS HW (H1 & H2 & H3 & H4 & L1 & L2 & L3 & LT) y1 y2 N1 N2 z1 z2 HC HK (p & EP & DP).
  assert (RL : forall l, length (reals l) = length l) by (intros l; apply map_length).
  assert (HA : admissible (B2R a) (B2R b)).
  { destruct HW as ([_ Sa] & [_ Sb] & _ & HW). change (span 100 (B2R a)) in Sa. change (span 100 (B2R b)) in Sb. assert (A0 := span_nonneg _ _ Sa). assert (B0 := span_nonneg _ _ Sb). assert (N := pos_INR n).
    assert (0 < 1 - B2R a - B2R b) by (destruct (Rle_lt_dec (1 - B2R a - B2R b) 0); [exfalso; nra|assumption]). unfold admissible. split; [exact A0|split; [exact B0|split; [lra|intros [E1 E2]; lra]]]. }
  destruct (cond_corr_py_value (B2R a) (B2R b) (reals r1) (reals r2) (reals s1) (reals s2)) as [HP EX]; try (rewrite !RL; lia); try (apply reals_positive; assumption); [exact HA|exact N1|exact N2|]. fold y1 y2 in HP, EX.
  assert (HF := pairs_ok r1 r2 s1 s2 H1 H2 H3 H4 L1 L2 L3). fold y1 y2 in HF. change (Forall2 ok_pair (combine z1 z2) (combine y1 y2)) in HF.
  assert (LZ1 : length z1 = length r1) by (refine (eq_trans (map2_length _ r1 s1) _); rewrite L1; apply Nat.min_id). assert (LZ2 : length z2 = length r1) by (refine (eq_trans (map2_length _ r2 s2) _); rewrite L2, L3; apply Nat.min_id).
  assert (LY1 : length y1 = length r1) by (unfold y1; rewrite zscores_length by (rewrite !RL; lia); apply RL). assert (LY2 : length y2 = length r1) by (unfold y2; rewrite zscores_length by (rewrite !RL; lia); rewrite RL; exact L3).
  assert (LC : length (combine z1 z2) = length r1) by (rewrite combine_length, LZ1, LZ2; apply Nat.min_id).
  assert (LR : (2 <= length r1)%nat) by (rewrite <- LY1; apply non_constant_length; exact N1).
  destruct (HC 0%nat ltac:(lia)) as (c1 & EC1 & RC1). destruct (HC 1%nat ltac:(lia)) as (c2 & EC2 & RC2).
  assert (C11 := diag_entry lm z1 z2 0 c1 EC1 RC1). assert (C22 := diag_entry lm z1 z2 1 c2 EC2 RC2).
  assert (PR := pearson_range y1 y2 ltac:(lia) N1 N2).
  assert (C12 : near (K + 4) (corr_entry (B64 lm) z1 z2 0 1) (pearson y1 y2) 1).
  { apply (near_weaken K); [lia|]. apply (near_intro K _ p); [exact EP|rewrite Rmult_1_r; exact DP|apply Rabs_le; exact PR]. }
  assert (W1 : within (-350) 350 1) by (split; [apply (Rle_trans _ (bpow radix2 0)); [apply bpow_le; lia|right; reflexivity]|apply (Rle_trans _ (bpow radix2 0)); [right; reflexivity|apply bpow_le; lia]]).
  exists (dcc_path (B64 lm) a b (corr_entry (B64 lm) z1 z2 0 0) (corr_entry (B64 lm) z1 z2 0 1) (corr_entry (B64 lm) z1 z2 1 1) z1 z2), (dcc_correlations (B2R a) (B2R b) (1, pearson y1 y2, 1) y1 y2).
  split.
  { assert (UNF : cond_corr_py (B64 lm) a b r1 r2 s1 s2 = match z1 with [] => Err IndexError | _ => Ok (dcc_path (B64 lm) a b (corr_entry (B64 lm) z1 z2 0 0) (corr_entry (B64 lm) z1 z2 0 1) (corr_entry (B64 lm) z1 z2 1 1) z1 z2) end) by reflexivity.
    rewrite UNF. destruct z1; [cbn in LZ1; lia|reflexivity]. }
  split; [rewrite !exact_map; exact EX|]. split; [reflexivity|]. split; [rewrite dcc_correlations_length by (try lia; intros E; rewrite E in LY1; cbn in LY1; lia); exact LY1|]. split; [apply dcc_correlations_range; [exact HA|exact HP]|].
  intros t Ht. destruct (path_near lm a b n (K + 4) _ _ _ _ _ _ 1 (z1 : list b64) (z2 : list b64) y1 y2 HS HW (close_weaken 4 (K + 4) _ _ ltac:(lia) C11) C12 (close_weaken 4 (K + 4) _ _ ltac:(lia) C22) ltac:(cbn; lra) W1 W1 W1 HF ltac:(apply (Z.le_trans _ (Z.of_nat (length r1))); [apply Z.eq_le_incl, f_equal, LC|exact LT]) ltac:(lia) ltac:(lia) t ltac:(exact (eq_ind_r (fun k => (t < k)%nat) Ht LC))) as (v & EV & DV).
  exists v. split; [exact EV|]. replace (4 * n + 2 * K + 6 * t + 20)%nat with (4 * n + 2 * (K + 4) + 6 * t + 12)%nat by lia. exact DV.
Qed.

(** Concrete case: residuals 1 and 2 against 2 and 1 with unit variances, no news, half persistence: the bound is below 2^-40 *)
Example C139_case : let r1 := [fofZ 1; fofZ 2] in let r2 := [fofZ 2; fofZ 1] in let s := [fofZ 1; fofZ 1] in
  (exists b, B2R b = 1 / 2 /\ weights64 2 (fofZ 0) b /\ INR (4 * 2 + 2 * 2 + 6 * 1 + 28) * bpow radix2 (-52) < bpow radix2 (-40)) /\ series64 r1 r2 s s /\ moves r1 /\ moves r2 /\
  non_constant (zscores (reals r1) (reals s)) /\ non_constant (zscores (reals r2) (reals s)).
Proof.
  assert (V : forall z, (1 <= z <= 2)%Z -> is_finite (fofZ z) = true /\ B2R (fofZ z) = IZR z /\ bpow radix2 (-100) <= IZR z <= bpow radix2 100).
  { intros z Hz. destruct (val_finite_inv _ _ (val_ofZ_small z ltac:(lia))) as [F E]. split; [exact F|]. split; [exact E|]. split.
    - apply (Rle_trans _ (bpow radix2 0)); [apply bpow_le; lia|]. simpl. apply (IZR_le 1). lia.
    - apply (Rle_trans _ (bpow radix2 1)); [simpl; apply IZR_le; lia|apply bpow_le; lia]. }
  destruct (V 1%Z ltac:(lia)) as (F1 & E1 & B1). destruct (V 2%Z ltac:(lia)) as (F2 & E2 & B2).
  destruct (val_finite_inv _ _ (val_ofZ_small 0 ltac:(lia))) as [F0 E0].
  assert (P1 : positive64 (fofZ 1)) by (split; [exact F1|rewrite E1; exact B1]). assert (R1 : resid64 (fofZ 1)) by (split; [exact F1|right; rewrite E1, Rabs_R1; exact B1]).
  assert (R2 : resid64 (fofZ 2)) by (split; [exact F2|right; rewrite E2, Rabs_pos_eq by lra; exact B2]).
  cbv zeta. split; [|split; [|split; [|split; [|split]]]].
  - exists (fdiv (fofZ 1) (fofZ 2)). assert (EH : val (fdiv (fofZ 1) (fofZ 2)) = Fin (1 / 2)).
    { rewrite (val_div _ _ 1 2 (val_ofZ_small 1 ltac:(lia)) (val_ofZ_small 2 ltac:(lia)) ltac:(lra)). replace (1 / 2) with (bpow radix2 (-1)) by (simpl; lra). apply RN_fmt; [apply generic_format_bpow; vm_compute; discriminate|]. rewrite Rabs_pos_eq by apply bpow_ge_0. apply bpow_lt. lia. }
    destruct (val_finite_inv _ _ EH) as [FH VH]. split; [exact VH|]. split.
    + split; [split; [exact F0|left; rewrite E0; reflexivity]|]. split.
      * split; [exact FH|right]. rewrite VH. split; [apply (Rle_trans _ (bpow radix2 (-1))); [apply bpow_le; lia|right; simpl; lra]|apply (Rle_trans _ (bpow radix2 0)); [simpl; lra|apply bpow_le; lia]].
      * split; [lia|]. rewrite E0, VH. simpl. lra.
    + apply (Rlt_le_trans _ (bpow radix2 6 * bpow radix2 (-52))); [apply Rmult_lt_compat_r; [apply bpow_gt_0|simpl; lra]|rewrite <- bpow_plus; apply bpow_le; lia].
  - unfold series64. repeat split; auto; try (simpl; lia).
  - exists (fofZ 1). split; [left; reflexivity|rewrite E1; lra].
  - exists (fofZ 2). split; [left; reflexivity|rewrite E2; lra].
  - exists (1 / sqrt 1), (2 / sqrt 1). unfold reals. cbn [map zscores map2]. rewrite E1, E2. rewrite sqrt_1. split; [left; reflexivity|]. split; [right; left; reflexivity|lra].
  - exists (2 / sqrt 1), (1 / sqrt 1). unfold reals. cbn [map zscores map2]. rewrite E1, E2. rewrite sqrt_1. split; [left; reflexivity|]. split; [right; left; reflexivity|lra].
Qed.
