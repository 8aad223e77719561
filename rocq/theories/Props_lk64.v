(** * C142: accuracy of the LK2011 log-likelihood of the PIN model in double precision *)
From Coq Require Import Reals ZArith List Lia Lra Psatz Bool Arith.
From Flocq Require Import Core BinarySingleNaN.
From Verif Require Import Arith XR RealAux Float64 Float64b Float64c Float64d Float64e Props_float Props_loglik64 Props_dcc64 Props_lob64 Model_pin Props_pin.
From Verif Require Props_pinfloat Props_option64 Props_float4.
Import ListNotations.
Local Open Scope R_scope.

(** the C library's exp of a number below -200 is below 2^-200 *)
Definition exp_tail (lm : libm) : Prop := forall x r, val x = Fin r -> r <= -200 -> exists v, val (l_exp lm x) = Fin v /\ 0 <= v <= bpow radix2 (-199).
(** a rate between 2^-40 and 2^40 *)
Definition moderate (x : b64) (r : R) : Prop := val x = Fin r /\ bpow radix2 (-40) <= r <= bpow radix2 40.
(** the parameters: alpha and delta away from 0 and 1, moderate uninformed rates, an informed rate that is 0 or moderate *)
Definition parameters_are (lm : libm) (p : p5 (B64 lm)) (a d eb es m : R) : Prop :=
  Props_pinfloat.is_share (alpha _ p) a /\ Props_pinfloat.is_share (delta _ p) d /\ moderate (eB _ p) eb /\ moderate (eS _ p) es /\
  (val (mu _ p) = Fin 0 /\ m = 0 \/ moderate (mu _ p) m).
(** a number of trades up to 2^30 *)
Definition trades (x : b64) (n : nat) : Prop := val x = Fin (INR n) /\ (Z.of_nat n <= 2 ^ 30)%Z.
(** the size one day's rounding errors are relative to *)
Definition exponent_size (eb es m : R) (n k : nat) : R := m + INR n * (1 + ln (1 + m / eb)) + INR k * (1 + ln (1 + m / es)).
Definition day_size (eb es m : R) (n k : nat) : R :=
  eb + es + INR n * (1 + Rabs (ln (m + eb))) + INR k * (1 + Rabs (ln (m + es))) + 49 * exponent_size eb es m n k + 154.

Lemma near_maximum lm k x y r s a : near k x r a -> near k y s a -> near k (maximum (B64 lm) x y) (Rmax r s) a.
Proof.
  intros (v & Ev & Dv & Rv) (w & Ew & Dw & Rw). destruct (Props_pinfloat.maximum_fin lm x y v w Ev Ew) as (c & Ec & H1 & H2 & H3).
  exists c. split; [exact Ec|]. apply Rabs_le_inv in Dv, Dw, Rv, Rw. set (t := (up k - 1) * a) in *. clearbody t.
  split; apply Rabs_le; unfold Rmax; destruct (Rle_dec r s); split; destruct H3; subst; lra.
Qed.
Lemma pow_IZR_aux n : 2 ^ n = IZR (2 ^ Z.of_nat n).
Proof. rewrite <- (pow_IZR 2 n). reflexivity. Qed.
(** the exponential of a number that is at most 0 and known with a small absolute error *)
Lemma near_exp_abs lm x v r M : exp_accurate lm -> exp_tail lm -> val x = Fin v -> v <= 0 -> 0 <= M <= bpow radix2 41 -> Rabs (v - r) <= 32 * uro * M -> 
  near 8 (l_exp lm x) (exp r) (exp r * (1 + 8 * M) + bpow radix2 (-140)).
Proof.
  intros HA HT Ex Hv HM HD. assert (U := uro_pos). assert (XP := exp_pos r). assert (B140 := bpow_gt_0 radix2 (-140)).
  assert (UE : uro * bpow radix2 41 = bpow radix2 (-12)) by (unfold uro; rewrite <- bpow_plus; reflexivity). change (bpow radix2 (-12)) with (/ 4096) in UE.
  assert (D4 : 32 * uro * M <= 1 / 128) by nra. assert (UM : 0 <= uro * M) by nra.
  assert (US : uro <= / 1000000) by (rewrite uro_eq; lra).
  destruct (Rle_or_lt (-200) v) as [H|H].
  - destruct (HA x v Ex ltac:(apply Rabs_le; lra)) as (z & Ez & D). rewrite w52 in D. apply (near_intro 8 _ z); [exact Ez| |rewrite Rabs_right by lra; nra].
    replace v with (r + (v - r)) in D by ring. rewrite exp_plus in D. set (e := v - r) in *. assert (XE := exp_near_0 e ltac:(lra)). set (Y := exp e) in *. set (X := exp r) in *.
    assert (YB : Rabs (Y - 1) <= 1/64) by lra. apply Rabs_le_inv in YB. replace (INR 8) with 8 by (simpl; lra).
    replace (z - X) with ((z - X * Y) + X * (Y - 1)) by ring. eapply Rle_trans; [apply Rabs_triang|]. rewrite (Rabs_mult X), (Rabs_right X) by lra.
    assert (XY : X * Y <= X * 2) by (apply Rmult_le_compat_l; lra). assert (UXY : uro * (X * Y) <= uro * (X * 2)) by (apply Rmult_le_compat_l; lra). assert (BB : Rabs (z - X * Y) <= 4 * uro * X) by lra. assert (B2 : X * Rabs (Y - 1) <= X * (64 * (uro * M))) by (apply Rmult_le_compat_l; lra). nra.
  - destruct (HT x v Ex ltac:(lra)) as (z & Ez & Z0). apply (near_intro 8 _ z); [exact Ez| |rewrite Rabs_right by lra; nra].
    apply Rabs_le_inv in HD. assert (RL : r <= -199) by lra.
    assert (XT : exp r <= bpow radix2 (-199)).
    { apply Rle_trans with (exp (-199)); [destruct RL as [RL | ->]; [left; apply exp_increasing; exact RL|lra]|].
      replace (-199) with (- (INR 199 * 1)) by (rewrite INR_IZR_INZ; simpl; lra). rewrite exp_Ropp. 
      assert (E2 : 2 ^ 199 <= exp (INR 199 * 1)).
      { replace (exp (INR 199 * 1)) with (exp 1 ^ 199) by (rewrite <- Rpower_pow by apply exp_pos; unfold Rpower; rewrite ln_exp; reflexivity). apply pow_incr. assert (Q := exp_ineq1_le 1). lra. }
      assert (E3 : bpow radix2 (-199) = / 2 ^ 199) by (change (bpow radix2 (-199)) with (/ IZR (2 ^ 199)); rewrite (pow_IZR_aux 199); reflexivity).
      rewrite E3. apply Rinv_le_contravar; [apply pow_lt; lra|exact E2]. }
    assert (T : bpow radix2 (-199) <= uro * bpow radix2 (-140)) by (unfold uro; rewrite <- bpow_plus; apply bpow_le; lia).
    replace (INR 8) with 8 by (simpl; lra). apply Rle_trans with (bpow radix2 (-199)); [apply Rabs_le; lra|]. assert (0 <= uro * (exp r * (1 + 8 * M))) by (apply Rmult_le_pos; [lra|nra]). nra.
Qed.
(** the logarithm of a number known with a relative error *)
Lemma near_log_rel lm k x s Q : log_accurate lm -> near k x s (s * Q) -> 0 < s -> 1 <= Q -> (Z.of_nat k <= 2 ^ 20)%Z -> (1 <= k)%nat -> (up k - 1) * Q <= 1 / 4 ->
  near k (l_log lm x) (ln s) (Rabs (ln s) * 2 + 6 * Q).
Proof.
  intros HA (v & Ev & D & _) HS HQ Hk K1 HB. assert (U := up_ge1 k). assert (UP := uro_pos). assert (L := up_linear k ltac:(lia)).
  set (q := (up k - 1) * Q) in *. assert (Q0 : 0 <= q) by (unfold q; nra). replace ((up k - 1) * (s * Q)) with (s * q) in D by (unfold q; ring).
  assert (D' := Rabs_le_inv _ _ D). assert (VP : 0 < v) by nra. destruct (HA _ _ Ev VP) as (z & Ez & DZ). rewrite w52 in DZ.
  set (e := (v - s) / s). assert (Ee : v = s * (1 + e)) by (unfold e; field; lra).
  assert (AE : Rabs e <= q). { unfold e, Rdiv. rewrite Rabs_mult, (Rabs_right (/ s)) by (apply Rle_ge, Rlt_le, Rinv_0_lt_compat, HS). apply (Rmult_le_reg_r s); [exact HS|]. rewrite Rmult_assoc, Rinv_l, Rmult_1_r by lra. lra. }
  assert (AE' := Rabs_le_inv _ _ AE). assert (LN := ln_near_1 e ltac:(lra)). rewrite Ee, ln_mult in DZ by lra. set (l := ln (1 + e)) in *.
  assert (P := Rabs_pos (ln s)). apply (near_intro _ _ z); [exact Ez| |nra].
  replace (z - ln s) with ((z - (ln s + l)) + l) by ring. eapply Rle_trans; [apply Rabs_triang|]. assert (T := Rabs_triang (ln s) l).
  assert (K : 1 <= INR k) by (apply (le_INR 1); exact K1).
  assert (QK : q <= INR k * (2 * uro) * Q) by (unfold q; apply Rmult_le_compat_r; lra).
  assert (US : uro <= / 1000000) by (rewrite uro_eq; lra).
  assert (A1 : 2 * uro * Rabs (ln s + l) <= 2 * uro * Rabs (ln s) + 4 * uro * q) by nra.
  assert (A2 : 4 * uro * q <= q) by nra. assert (A3 : 2 * uro * Rabs (ln s) <= INR k * uro * (2 * Rabs (ln s))) by (apply Rle_trans with (1 * (2 * uro * Rabs (ln s))); [lra|replace (INR k * uro * (2 * Rabs (ln s))) with (INR k * (2 * uro * Rabs (ln s))) by ring; apply Rmult_le_compat_r; nra]).
  nra.
Qed.

(** ** One day *)
Section Day.
Context (lm : libm) (p : p5 (B64 lm)) (a d eb es m : R) (b s : b64) (n k : nat).
Hypotheses (HL : log_accurate lm) (HE : exp_accurate lm) (HT : exp_tail lm) (HP : parameters_are lm p a d eb es m) (Hb : trades b n) (Hs : trades s k).
Notation fwd := (fun x => x).

Definition Lx (e : R) : R := ln (1 + m / e).
Definition ex1 : R := - m - INR k * Lx es.
Definition ex2 : R := - m - INR n * Lx eb.
Definition ex3 : R := - INR n * Lx eb - INR k * Lx es.
Definition top : R := Rmax (Rmax ex1 ex2) ex3.
Definition mixture : R := a * (1 - d) * exp (ex1 - top) + a * d * exp (ex2 - top) + (1 - a) * exp (ex3 - top).
Notation M := (exponent_size eb es m n k).

Lemma m_cases : val (mu _ p) = Fin m /\ 0 <= m <= bpow radix2 40 /\ span 40 m.
Proof.
  destruct HP as (_ & _ & _ & _ & [[E ->] | [E H]]); (split; [exact E|]).
  - split; [split; [lra|apply bpow_ge_0]|left; reflexivity].
  - assert (P := bpow_gt_0 radix2 (-40)). split; [lra|right; exact H].
Qed.
Lemma moderate_pos x r : moderate x r -> 0 < r. Proof. intros [_ H]. assert (P := bpow_gt_0 radix2 (-40)). lra. Qed.
Lemma moderate_span x r : moderate x r -> span 40 r. Proof. intros [_ H]. right. exact H. Qed.
Lemma one_val : val (fofZ 1) = Fin 1. Proof. apply val_ofZ_small; simpl; lia. Qed.
Lemma Lx_range e x : moderate x e -> 0 <= Lx e <= 60 /\ near 4 (l_log lm (fadd (fofZ 1) (fdiv (mu _ p) x))) (Lx e) (1 + Lx e).
Proof.
  intros Hx. assert (Q := Hx). destruct Q as [Ex He]. destruct m_cases as (Em & Hm & SM). assert (E0 := moderate_pos _ _ Hx).
  assert (SQ : span 80 (m / e)) by (apply (span_div 40 40); [exact E0|exact SM|apply (moderate_span x), Hx]).
  assert (Q0 := span_nonneg _ _ SQ). assert (Q1 : m / e <= bpow radix2 80) by (apply span_le; [lia|exact SQ]).
  assert (L0 : 0 <= Lx e) by (unfold Lx; rewrite <- ln_1; apply ln_le; lra).
  assert (L1 : Lx e <= 60).
  { unfold Lx. rewrite <- (ln_exp 60). apply ln_le; [lra|]. apply Rle_trans with (2 ^ 81).
    - change (bpow radix2 80) with (IZR (2 ^ 80)) in Q1. rewrite (pow_IZR_aux 81). replace (IZR (2 ^ Z.of_nat 81)) with (IZR (2 ^ 80) + IZR (2 ^ 80)) by (rewrite <- plus_IZR; reflexivity). assert (1 <= IZR (2 ^ 80)) by (apply IZR_le; lia). lra.
    - (* exp 60 = (exp (20/27))^81, exp (20/27) >= 2 *)
      replace (exp 60) with (exp (20/27) ^ 81) by (rewrite <- Rpower_pow by apply exp_pos; unfold Rpower; rewrite ln_exp; f_equal; rewrite INR_IZR_INZ; change (Z.of_nat 81) with 81%Z; lra). apply pow_incr. split; [lra|].
      replace (20/27) with (INR 16 * (5/108)) by (rewrite INR_IZR_INZ; change (Z.of_nat 16) with 16%Z; lra). replace (exp (INR 16 * (5/108))) with (exp (5/108) ^ 16) by (rewrite <- Rpower_pow by apply exp_pos; unfold Rpower; rewrite ln_exp; f_equal).
      apply Rle_trans with ((113/108) ^ 16); [lra|]. apply pow_incr. assert (X := exp_ineq1_le (5/108)). lra. }
  split; [lra|].
  assert (C1 : close 1 (fdiv (mu _ p) x) (m / e)).
  { apply (close_div 0 0); [simpl; lia|apply close_exact; [exact Em|lra]|apply close_exact; [exact Ex|lra]|exact E0| |].
    - destruct (Req_dec m 0) as [Z|Z]; [left; exact Z|right]. destruct SQ as [SQ|SQ]; [exfalso; apply Z; apply (Rmult_eq_reg_r (/ e)); [unfold Rdiv in SQ; lra|apply Rinv_neq_0_compat; lra]|]. eapply Rle_trans; [apply bpow_le|apply SQ]; lia.
    - eapply Rle_trans; [exact Q1|apply bpow_le; lia]. }
  assert (C2 : close 2 (fadd (fofZ 1) (fdiv (mu _ p) x)) (1 + m / e)).
  { apply (close_add 0 1 1); [lia|lia|simpl; lia|apply close_exact; [exact one_val|lra]|exact C1|]. apply Rle_trans with (bpow radix2 81); [|apply bpow_le; lia].
    change 81%Z with (80 + 1)%Z. rewrite bpow_plus. change (bpow radix2 1) with 2. assert (1 <= bpow radix2 80) by (change 1 with (bpow radix2 0); apply bpow_le; lia). lra. }
  assert (N := near_logv lm 2 _ _ HL ltac:(simpl; lia) C2 ltac:(lra)). fold (Lx e) in N. rewrite (Rabs_right (Lx e)) in N by lra. exact N.
Qed.
Lemma size_facts : 0 <= INR n * (1 + Lx eb) <= bpow radix2 36 /\ 0 <= INR k * (1 + Lx es) <= bpow radix2 36 /\ 0 <= M <= bpow radix2 41.
Proof.
  destruct HP as (_ & _ & Qb & Qs & _). destruct (Lx_range _ _ Qb) as [Lb _]. destruct (Lx_range _ _ Qs) as [Ls _]. destruct m_cases as (_ & Hm & _).
  assert (C : forall x j, trades x j -> 0 <= INR j <= bpow radix2 30). { intros x j [_ H]. split; [apply pos_INR|]. rewrite INR_IZR_INZ. change (bpow radix2 30) with (IZR (2 ^ 30)). apply IZR_le. exact H. }
  assert (Cn := C _ _ Hb). assert (Ck := C _ _ Hs). clear C.
  assert (B : forall j L, 0 <= j <= bpow radix2 30 -> 0 <= L <= 60 -> 0 <= j * (1 + L) <= bpow radix2 36).
  { intros j L Hj Hl. split; [apply Rmult_le_pos; lra|]. replace (bpow radix2 36) with (bpow radix2 30 * 64) by (simpl; lra). apply Rmult_le_compat; lra. }
  assert (B1 := B _ _ Cn Lb). assert (B2 := B _ _ Ck Ls). split; [exact B1|]. split; [exact B2|].
  unfold exponent_size. fold (Lx eb) (Lx es). replace (bpow radix2 41) with (bpow radix2 40 + bpow radix2 40) by (simpl; lra).
  assert (bpow radix2 36 + bpow radix2 36 <= bpow radix2 40) by (simpl; lra). lra.
Qed.
Lemma big_enough (x : R) e : (e <= 1000)%Z -> x <= bpow radix2 e -> x <= bpow radix2 1000.
Proof. intros H1 H2. eapply Rle_trans; [exact H2|apply bpow_le; exact H1]. Qed.
Lemma count_tiny j L : 0 <= L -> not_tiny (INR j * (1 + L)).
Proof.
  intros H. destruct j as [|j]; [left; simpl; lra|right]. apply Rle_trans with 1; [change 1 with (bpow radix2 0); apply bpow_le; lia|]. rewrite S_INR. assert (P := pos_INR j). nra.
Qed.
Lemma count_log x j q L : trades x j -> 0 <= L -> INR j * (1 + L) <= bpow radix2 36 -> near 4 q L (1 + L) -> near 6 (fmul x q) (INR j * L) (INR j * (1 + L)).
Proof.
  intros [Ex Hj] HLx HB N. apply (near_mul 0 4); [simpl; lia|apply near_exact; [exact Ex|rewrite Rabs_right by (apply Rle_ge, pos_INR); lra]|exact N|apply (big_enough _ 36); [lia|exact HB]|apply count_tiny; exact HLx].
Qed.
Lemma exponents_near : exists e1 e2 e3 t, lk_exponents (B64 lm) p b s = (e1, e2, e3, t) /\ near 7 e1 ex1 M /\ near 7 e2 ex2 M /\ near 7 e3 ex3 M /\ near 7 t top M /\
  exists v1 v2 v3 vt, val e1 = Fin v1 /\ val e2 = Fin v2 /\ val e3 = Fin v3 /\ val t = Fin vt /\ v1 <= vt /\ v2 <= vt /\ v3 <= vt.
Proof.
  destruct size_facts as (B1 & B2 & BM). destruct HP as (_ & _ & Qb & Qs & _). destruct (Lx_range _ _ Qb) as [Lb Nb]. destruct (Lx_range _ _ Qs) as [Ls Ns]. destruct m_cases as (Em & Hm & _).
  assert (ME : M = m + INR n * (1 + Lx eb) + INR k * (1 + Lx es)) by reflexivity.
  assert (Tb := count_log _ _ _ (Lx eb) Hb ltac:(lra) ltac:(lra) Nb). assert (Ts := count_log _ _ _ (Lx es) Hs ltac:(lra) ltac:(lra) Ns).
  assert (Nm : near 0 (Bopp (mu _ p)) (- m) m) by (apply near_opp, near_exact; [exact Em|rewrite Rabs_right; lra]).
  assert (BB : forall x, x <= M -> x <= bpow radix2 1000) by (intros x Hx; apply (big_enough _ 41); [lia|lra]).
  set (e1 := fsub (Bopp (mu _ p)) (fmul s (l_log lm (fadd (fofZ 1) (fdiv (mu _ p) (eS _ p)))))).
  set (e2 := fsub (Bopp (mu _ p)) (fmul b (l_log lm (fadd (fofZ 1) (fdiv (mu _ p) (eB _ p)))))).
  set (e3 := fsub (fmul (Bopp b) (l_log lm (fadd (fofZ 1) (fdiv (mu _ p) (eB _ p))))) (fmul s (l_log lm (fadd (fofZ 1) (fdiv (mu _ p) (eS _ p)))))).
  assert (N1 : near 7 e1 ex1 M) by (apply (near_enlarge _ _ _ (m + INR k * (1 + Lx es))); [lra|apply (near_sub 0 6 6); [lia|lia|simpl; lia|exact Nm|exact Ts|apply BB; lra]]).
  assert (N2 : near 7 e2 ex2 M) by (apply (near_enlarge _ _ _ (m + INR n * (1 + Lx eb))); [lra|apply (near_sub 0 6 6); [lia|lia|simpl; lia|exact Nm|exact Tb|apply BB; lra]]).
  assert (Tb' : near 6 (fmul (Bopp b) (l_log lm (fadd (fofZ 1) (fdiv (mu _ p) (eB _ p))))) (- INR n * Lx eb) (INR n * (1 + Lx eb))).
  { destruct Hb as [Ex Hj]. apply (near_mul 0 4); [simpl; lia|apply near_opp, near_exact; [exact Ex|rewrite Rabs_right by (apply Rle_ge, pos_INR); lra]|exact Nb|apply (big_enough _ 36); [lia|lra]|apply count_tiny; lra]. }
  assert (N3 : near 7 e3 ex3 M) by (apply (near_enlarge _ _ _ (INR n * (1 + Lx eb) + INR k * (1 + Lx es))); [lra|apply (near_sub 6 6 6); [lia|lia|simpl; lia|exact Tb'|exact Ts|apply BB; lra]]).
  exists e1, e2, e3, (maximum (B64 lm) (maximum (B64 lm) e1 e2) e3). split; [reflexivity|]. do 3 (split; [assumption|]).
  split; [apply near_maximum; [apply near_maximum; assumption|assumption]|].
  destruct N1 as (v1 & E1 & _). destruct N2 as (v2 & E2 & _). destruct N3 as (v3 & E3 & _).
  destruct (Props_pinfloat.maximum_fin lm e1 e2 v1 v2 E1 E2) as (c & Ec & C1 & C2 & _). destruct (Props_pinfloat.maximum_fin lm _ e3 c v3 Ec E3) as (t & Et & T1 & T2 & _).
  exists v1, v2, v3, t. repeat split; auto; lra.
Qed.
Lemma exp_near (e t : b64) x v vt : near 7 e x M -> near 7 t top M -> val e = Fin v -> val t = Fin vt -> v <= vt ->
  near 8 (l_exp lm (fsub e t)) (exp (x - top)) (exp (x - top) * (1 + 8 * M) + bpow radix2 (-140)).
Proof.
  intros N1 N2 E1 E2 H. destruct size_facts as (_ & _ & BM).
  assert (N : near 8 (fsub e t) (x - top) (M + M)) by (apply (near_sub 7 7 7); [lia|lia|simpl; lia|exact N1|exact N2|]; apply (big_enough _ 42); [lia|change 42%Z with (41 + 1)%Z; rewrite bpow_plus; change (bpow radix2 1) with 2; lra]).
  assert (V0 : exists w, val (fsub e t) = Fin w /\ w <= 0).
  { destruct N as (w & Ew & _). exists w. split; [exact Ew|]. assert (Ew' := Ew). rewrite (val_sub _ _ _ _ E1 E2) in Ew'. apply RN_inv in Ew' as (-> & _). rewrite <- rnd_0. apply rnd_mono. lra. }
  destruct V0 as (w & Ew & W0). destruct N as (w' & Ew' & D & _). rewrite Ew in Ew'. injection Ew' as <-.
  assert (L := up_linear 8 ltac:(simpl; lia)). replace (INR 8) with 8 in L by (simpl; lra).
  apply (near_exp_abs lm _ w _ M HE HT Ew W0 BM). eapply Rle_trans; [exact D|]. replace (32 * uro * M) with (8 * (2 * uro) * (M + M)) by ring. apply Rmult_le_compat_r; lra.
Qed.
Notation B50 := (bpow radix2 (-50)).
Lemma weights : close 2 (fmul (alpha _ p) (fsub (fofZ 1) (delta _ p))) (a * (1 - d)) /\ close 1 (fmul (alpha _ p) (delta _ p)) (a * d) /\ close 1 (fsub (fofZ 1) (alpha _ p)) (1 - a) /\
  bpow radix2 (-100) <= a * (1 - d) <= 1 /\ bpow radix2 (-100) <= a * d <= 1 /\ bpow radix2 (-100) <= 1 - a <= 1.
Proof.
  destruct HP as ([Ea Ha] & [Ed Hd] & _). assert (P := bpow_gt_0 radix2 (-50)). assert (BB : bpow radix2 (-100) = B50 * B50) by (rewrite <- bpow_plus; reflexivity).
  assert (B1 : B50 <= 1 / 2) by (simpl; lra).
  assert (ONE : 1 <= bpow radix2 1000) by (change 1 with (bpow radix2 0); apply bpow_le; lia).
  assert (PR : forall x y, B50 <= x <= 1 - B50 -> B50 <= y <= 1 -> B50 * B50 <= x * y <= 1) by (intros; split; [apply Rmult_le_compat; lra|apply Rle_trans with (1 * 1); [apply Rmult_le_compat; lra|lra]]).
  assert (W1 := PR a (1 - d) Ha ltac:(lra)). assert (W2 := PR a d Ha ltac:(lra)). assert (TT : bpow radix2 (-1000) <= B50 * B50) by (rewrite <- BB; apply bpow_le; lia).
  assert (S1 : close 1 (fsub (fofZ 1) (delta _ p)) (1 - d)) by (apply close_sub; [exact one_val|exact Ed|lra|exact ONE]).
  split; [apply (close_mul 0 1); [simpl; lia|apply close_exact; [exact Ea|lra]|exact S1|right; lra|lra]|].
  split; [apply (close_mul 0 0); [simpl; lia|apply close_exact; [exact Ea|lra]|apply close_exact; [exact Ed|lra]|right; lra|lra]|].
  split; [apply close_sub; [exact one_val|exact Ea|lra|exact ONE]|]. rewrite BB. assert (B50 * B50 <= B50) by nra. lra.
Qed.
Lemma top_ge : ex1 <= top /\ ex2 <= top /\ ex3 <= top /\ (top = ex1 \/ top = ex2 \/ top = ex3).
Proof. unfold top, Rmax. repeat destruct (Rle_dec _ _); repeat split; try lra; tauto. Qed.
Lemma mixture_range : bpow radix2 (-100) <= mixture <= 1.
Proof.
  destruct weights as (_ & _ & _ & W1 & W2 & W3). assert (P := bpow_gt_0 radix2 (-100)). destruct top_ge as (T1 & T2 & T3 & TE).
  assert (X : forall x, x <= top -> 0 < exp (x - top) <= 1) by (intros x Hx; split; [apply exp_pos|]; rewrite <- exp_0; destruct (Req_dec (x - top) 0) as [->|]; [lra|left; apply exp_increasing; lra]).
  assert (X1 := X _ T1). assert (X2 := X _ T2). assert (X3 := X _ T3). unfold mixture.
  assert (Z : forall x, top = x -> exp (x - top) = 1) by (intros x ->; rewrite Rminus_diag_eq by reflexivity; apply exp_0).
  set (E1 := exp (ex1 - top)) in *. set (E2 := exp (ex2 - top)) in *. set (E3 := exp (ex3 - top)) in *.
  assert (Y1 : 0 <= a * (1 - d) * E1 <= a * (1 - d)) by nra. assert (Y2 : 0 <= a * d * E2 <= a * d) by nra. assert (Y3 : 0 <= (1 - a) * E3 <= 1 - a) by nra.
  split; [|lra]. destruct TE as [TE | [TE | TE]]; apply Z in TE; [fold E1 in TE|fold E2 in TE|fold E3 in TE]; rewrite TE in *; lra.
Qed.
Lemma product_near (w z : b64) W E : close 2 w W -> bpow radix2 (-100) <= W <= 1 -> 0 <= E <= 1 -> near 8 z E (E * (1 + 8 * M) + bpow radix2 (-140)) -> near 12 (fmul w z) (W * E) (W * (E * (1 + 8 * M) + bpow radix2 (-140))).
Proof.
  intros C HW HE' N. destruct size_facts as (_ & _ & BM). assert (P := bpow_gt_0 radix2 (-140)). assert (P1 := bpow_gt_0 radix2 (-100)).
  assert (T1 : bpow radix2 (-140) <= 1) by (change 1 with (bpow radix2 0); apply bpow_le; lia).
  assert (UB : E * (1 + 8 * M) + bpow radix2 (-140) <= bpow radix2 50). { replace (bpow radix2 50) with (512 * bpow radix2 41) by (simpl; lra). assert (G : 1 <= bpow radix2 41) by (change 1 with (bpow radix2 0); apply bpow_le; lia). assert (E * (1 + 8 * M) <= 1 * (1 + 8 * M)) by (apply Rmult_le_compat_r; lra). lra. }
  set (A := E * (1 + 8 * M) + bpow radix2 (-140)) in *. assert (LB : bpow radix2 (-140) <= A) by (unfold A; assert (0 <= E * (1 + 8 * M)) by (apply Rmult_le_pos; lra); lra).
  apply (near_mul 2 8); [simpl; lia|apply close_near, C|exact N| |].
  - apply (big_enough _ 50); [lia|]. apply Rle_trans with (1 * A); [apply Rmult_le_compat_r; lra|lra].
  - right. apply Rle_trans with (bpow radix2 (-100) * bpow radix2 (-140)); [rewrite <- bpow_plus; apply bpow_le; lia|apply Rmult_le_compat; lra].
Qed.
Lemma second_near : near 14 (lk_second (B64 lm) p b s) (ln mixture) (48 * M + 154).
Proof.
  destruct exponents_near as (e1 & e2 & e3 & t & EQ & N1 & N2 & N3 & NT & v1 & v2 & v3 & vt & E1 & E2 & E3 & ET & H1 & H2 & H3).
  unfold lk_second. rewrite EQ. cbn [nlog nadd nmul nsub nexp ofZ B64]. destruct weights as (C1 & C2 & C3 & W1 & W2 & W3). destruct size_facts as (_ & _ & BM). destruct mixture_range as [ML MU].
  destruct top_ge as (T1 & T2 & T3 & _). assert (P1 := bpow_gt_0 radix2 (-100)). assert (P := bpow_gt_0 radix2 (-140)).
  assert (X : forall x, x <= top -> 0 <= exp (x - top) <= 1) by (intros x Hx; split; [left; apply exp_pos|]; rewrite <- exp_0; destruct (Req_dec (x - top) 0) as [->|]; [lra|left; apply exp_increasing; lra]).
  assert (Q1 := product_near _ _ _ _ C1 W1 (X _ T1) (exp_near _ _ _ _ _ N1 NT E1 ET H1)).
  assert (Q2 := product_near _ _ _ _ (close_weaken 1 2 _ _ ltac:(lia) C2) W2 (X _ T2) (exp_near _ _ _ _ _ N2 NT E2 ET H2)).
  assert (Q3 := product_near _ _ _ _ (close_weaken 1 2 _ _ ltac:(lia) C3) W3 (X _ T3) (exp_near _ _ _ _ _ N3 NT E3 ET H3)).
  set (A1 := a * (1 - d) * (_ + _)) in Q1. set (A2 := a * d * (_ + _)) in Q2. set (A3 := (1 - a) * (_ + _)) in Q3.
  assert (SA : A1 + A2 + A3 = mixture * (1 + 8 * M) + bpow radix2 (-140)) by (unfold A1, A2, A3, mixture; ring).
  assert (TM : bpow radix2 (-140) <= mixture) by (eapply Rle_trans; [apply bpow_le|exact ML]; lia).
  assert (A1P := near_size _ _ _ _ Q1). assert (A2P := near_size _ _ _ _ Q2). assert (A3P := near_size _ _ _ _ Q3).
  assert (UB : A1 + A2 + A3 <= bpow radix2 1000). { rewrite SA. apply (big_enough _ 50); [lia|]. replace (bpow radix2 50) with (512 * bpow radix2 41) by (simpl; lra). assert (G : 1 <= bpow radix2 41) by (change 1 with (bpow radix2 0); apply bpow_le; lia). assert (mixture * (1 + 8 * M) <= 1 * (1 + 8 * M)) by (apply Rmult_le_compat_r; lra). lra. }
  assert (NS : near 14 (fadd (fadd (fmul (fmul (alpha _ p) (fsub (fofZ 1) (delta _ p))) (l_exp lm (fsub e1 t))) (fmul (fmul (alpha _ p) (delta _ p)) (l_exp lm (fsub e2 t)))) (fmul (fsub (fofZ 1) (alpha _ p)) (l_exp lm (fsub e3 t)))) mixture (A1 + A2 + A3)).
  { apply (near_add 13 12 13); [lia|lia|simpl; lia| |exact Q3|exact UB]. apply (near_add 12 12 12); [lia|lia|simpl; lia|exact Q1|exact Q2|lra]. }
  assert (AB : A1 + A2 + A3 <= mixture * (2 + 8 * M)) by (rewrite SA; lra). assert (NM := near_enlarge _ _ _ _ _ AB NS).
  assert (L := near_log_rel lm 14 _ _ _ HL NM ltac:(lra) ltac:(lra) ltac:(simpl; lia) ltac:(lia)).
  assert (QQ : (up 14 - 1) * (2 + 8 * M) <= 1 / 4).
  { assert (U := up_linear 14 ltac:(simpl; lia)). replace (INR 14) with 14 in U by (simpl; lra). assert (UE : uro * bpow radix2 41 = / 4096) by (unfold uro; rewrite <- bpow_plus; reflexivity). assert (UP := uro_pos).
    assert (US : uro <= / 1000000) by (rewrite uro_eq; lra). assert (UM : uro * M <= / 4096) by (rewrite <- UE; apply Rmult_le_compat_l; lra). apply Rle_trans with (14 * (2 * uro) * (2 + 8 * M)); [apply Rmult_le_compat_r; lra|]. lra. }
  specialize (L QQ). eapply near_enlarge; [|exact L].
  assert (LN : Rabs (ln mixture) <= 71).
  { rewrite Rabs_left1 by (rewrite <- ln_1; apply ln_le; lra). assert (Z : ln (bpow radix2 (-100)) <= ln mixture) by (apply ln_le; lra).
    assert (Z2 : ln (bpow radix2 (-100)) = - (100 * ln 2)). { change (bpow radix2 (-100)) with (/ IZR (2 ^ 100)). rewrite ln_Rinv by (apply IZR_lt; lia). f_equal. change (2 ^ 100)%Z with (2 ^ Z.of_nat 100)%Z. rewrite <- pow_IZR_aux. rewrite ln_pow by lra. rewrite INR_IZR_INZ. reflexivity. }
    assert (L2 : ln 2 <= 71/100). { rewrite <- (ln_exp (71/100)). apply ln_le; [lra|]. replace (71/100) with (INR 32 * (71/3200)) by (rewrite INR_IZR_INZ; change (Z.of_nat 32) with 32%Z; lra).
      replace (exp (INR 32 * (71/3200))) with (exp (71/3200) ^ 32) by (rewrite <- Rpower_pow by apply exp_pos; unfold Rpower; rewrite ln_exp; reflexivity). apply Rle_trans with ((3271/3200) ^ 32); [lra|]. apply pow_incr. assert (Y := exp_ineq1_le (71/3200)). lra. }
    lra. }
  lra.
Qed.
Lemma rate_near x e : moderate x e -> near 3 (l_log lm (fadd (mu _ p) x)) (ln (m + e)) (1 + Rabs (ln (m + e))) /\ 0 <= Rabs (ln (m + e)) <= 41.
Proof.
  intros Hx. assert (E0 := moderate_pos _ _ Hx). destruct Hx as [Ex He]. destruct m_cases as (Em & Hm & _).
  assert (B40 : 1 <= bpow radix2 40) by (change 1 with (bpow radix2 0); apply bpow_le; lia).
  assert (C : close 1 (fadd (mu _ p) x) (m + e)).
  { apply (close_add 0 0 0); [lia|lia|simpl; lia|apply close_exact; [exact Em|lra]|apply close_exact; [exact Ex|lra]|]. apply (big_enough _ 41); [lia|]. change 41%Z with (40 + 1)%Z. rewrite bpow_plus. change (bpow radix2 1) with 2. lra. }
  split; [apply (near_logv lm 1 _ _ HL ltac:(simpl; lia) C); lra|]. split; [apply Rabs_pos|].
  assert (LB : forall j, ln (2 ^ j) <= INR j). { intros j. rewrite ln_pow by lra. assert (ln 2 <= 1) by (rewrite <- (ln_exp 1); apply ln_le; [lra|]; assert (Q := exp_ineq1_le 1); lra). assert (P := pos_INR j). nra. }
  assert (P40 : bpow radix2 40 = 2 ^ 40) by (rewrite (pow_IZR_aux 40); reflexivity). assert (P40' : bpow radix2 (-40) = / 2 ^ 40) by (rewrite (pow_IZR_aux 40); reflexivity).
  apply Rabs_le. split.
  - assert (Z : ln (/ 2 ^ 40) <= ln (m + e)) by (apply ln_le; [apply Rinv_0_lt_compat, pow_lt; lra|lra]). rewrite ln_Rinv in Z by (apply pow_lt; lra). assert (Q := LB 40%nat). replace (INR 40) with 40 in Q by (simpl; lra). lra.
  - assert (Z : ln (m + e) <= ln (2 ^ 41)) by (apply ln_le; [lra|]; replace (2 ^ 41) with (2 ^ 40 + 2 ^ 40) by (simpl; lra); lra). assert (Q := LB 41%nat). replace (INR 41) with 41 in Q by (simpl; lra). lra.
Qed.
Lemma first_near : near 8 (lk_first (B64 lm) p b s) (- eb - es + INR n * ln (m + eb) + INR k * ln (m + es) + top) (eb + es + INR n * (1 + Rabs (ln (m + eb))) + INR k * (1 + Rabs (ln (m + es))) + M) /\
  eb + es + INR n * (1 + Rabs (ln (m + eb))) + INR k * (1 + Rabs (ln (m + es))) <= bpow radix2 42.
Proof.
  destruct exponents_near as (e1 & e2 & e3 & t & EQ & _ & _ & _ & NT & _). unfold lk_first. rewrite EQ. cbn [nlog nadd nmul nsub nopp B64].
  destruct HP as (_ & _ & Qb & Qs & _). destruct (rate_near _ _ Qb) as [Nb Lb]. destruct (rate_near _ _ Qs) as [Ns Ls]. destruct size_facts as (_ & _ & BM).
  assert (CB : forall x j, trades x j -> 0 <= INR j <= bpow radix2 30). { intros x j [_ H]. split; [apply pos_INR|]. rewrite INR_IZR_INZ. change (bpow radix2 30) with (IZR (2 ^ 30)). apply IZR_le. exact H. }
  assert (CL : forall x j q L, trades x j -> 0 <= Rabs L <= 41 -> near 3 q L (1 + Rabs L) -> near 5 (fmul x q) (INR j * L) (INR j * (1 + Rabs L)) /\ 0 <= INR j * (1 + Rabs L) <= bpow radix2 36).
  { intros x j q L Hx HLL N. assert (Bj := CB _ _ Hx). destruct Hx as [Ex Hj].
    assert (B : 0 <= INR j * (1 + Rabs L) <= bpow radix2 36). { split; [apply Rmult_le_pos; lra|]. replace (bpow radix2 36) with (bpow radix2 30 * 64) by (simpl; lra). apply Rmult_le_compat; lra. }
    split; [|exact B]. apply (near_mul 0 3); [simpl; lia|apply near_exact; [exact Ex|rewrite Rabs_right; lra]|exact N|apply (big_enough _ 36); [lia|lra]|apply count_tiny; lra]. }
  destruct (CL _ _ _ _ Hb Lb Nb) as [Pb Ub]. destruct (CL _ _ _ _ Hs Ls Ns) as [Ps Us].
  assert (Eb0 := moderate_pos _ _ Qb). assert (Es0 := moderate_pos _ _ Qs). destruct Qb as [Eb Rb]. destruct Qs as [Es Rs].
  assert (S42 : bpow radix2 40 + bpow radix2 40 + bpow radix2 36 + bpow radix2 36 <= bpow radix2 42) by (simpl; lra).
  assert (BB : forall x, x <= bpow radix2 42 + bpow radix2 41 -> x <= bpow radix2 1000) by (intros x Hx; apply (big_enough _ 43); [lia|]; assert (bpow radix2 42 + bpow radix2 41 <= bpow radix2 43) by (simpl; lra); lra).
  assert (B41 := bpow_gt_0 radix2 41).
  assert (N1 : near 1 (fsub (Bopp (eB _ p)) (eS _ p)) (- eb - es) (eb + es)) by (apply (near_sub 0 0 0); [lia|lia|simpl; lia|apply near_opp, near_exact; [exact Eb|rewrite Rabs_right; lra]|apply near_exact; [exact Es|rewrite Rabs_right; lra]|apply BB; lra]).
  split; [|lra].
  apply (near_add 7 7 7); [lia|lia|simpl; lia| |exact NT|apply BB; lra].
  apply (near_add 6 5 6); [lia|lia|simpl; lia| |exact Ps|apply BB; lra].
  apply (near_add 1 5 5); [lia|lia|simpl; lia|exact N1|exact Pb|apply BB; lra].
Qed.
Lemma day_value : - eb - es + INR n * ln (m + eb) + INR k * ln (m + es) + top + ln mixture = day_ll a d eb es m (INR n) (INR k).
Proof.
  assert (AD : admissible a d eb es m).
  { destruct HP as ([_ Ha] & [_ Hd] & Qb & Qs & _). assert (P := bpow_gt_0 radix2 (-50)). destruct m_cases as (_ & Hm & _). repeat split; try lra; eapply moderate_pos; eassumption. }
  assert (AD' := AD). destruct AD' as (Ha & Hd & Heb & Hes & Hm). unfold day_ll.
  assert (X : forall e, 0 < e -> ln (1 + m / e) = - ln (e / (m + e))). { intros e He. rewrite <- ln_Rinv by (apply ratio_pos; assumption). f_equal. field. lra. }
  assert (HK : mixture = core a d eb es m (INR n) (INR k) * exp (- top)).
  { assert (XM : forall x, exp (x - top) = exp x * exp (- top)) by (intros x; unfold Rminus; apply exp_plus). unfold mixture, core. rewrite !XM. generalize (exp (- top)). intros et. unfold ex1, ex2, ex3, Lx, Rpower. rewrite !X by assumption.
    set (ls := ln (es / (m + es))). set (lb := ln (eb / (m + eb))).
    replace (- m - INR k * - ls) with (- m + INR k * ls) by ring. replace (- m - INR n * - lb) with (- m + INR n * lb) by ring. replace (- INR n * - lb - INR k * - ls) with (INR k * ls + INR n * lb) by ring.
    rewrite !exp_plus. ring. }
  rewrite HK, ln_mult, ln_exp by (try apply core_pos; try apply exp_pos; assumption). ring.
Qed.
End Day.

(** ** The sample *)
Definition exact_loglik (a d eb es m : R) (BS : list (nat * nat)) : R :=
  mixture_loglik a d eb es m BS + Rsum (map (fun q => ln (INR (fact (fst q))) + ln (INR (fact (snd q)))) BS).
Definition total_day_size (eb es m : R) (BS : list (nat * nat)) : R := Rsum (map (fun q => day_size eb es m (fst q) (snd q)) BS).
Lemma days_near lm p a d eb es m : log_accurate lm -> exp_accurate lm -> exp_tail lm -> parameters_are lm p a d eb es m ->
  forall B S BS, Forall2 (fun x q => trades x (fst q)) B BS -> Forall2 (fun x q => trades x (snd q)) S BS ->
  exists m1 m2, Forall2 (fun x q => near 14 x (fst q) (snd q)) (map2 (lk_first (B64 lm) p) B S) m1 /\ Forall2 (fun x q => near 14 x (fst q) (snd q)) (map2 (lk_second (B64 lm) p) B S) m2 /\
    Rsum (map fst m1) + Rsum (map fst m2) = Rsum (map (fun q => day_ll a d eb es m (INR (fst q)) (INR (snd q))) BS) /\
    Rsum (map snd m1) + Rsum (map snd m2) = total_day_size eb es m BS /\ 0 <= Rsum (map snd m1) <= INR (length BS) * bpow radix2 43 /\ 0 <= Rsum (map snd m2) <= INR (length BS) * bpow radix2 47.
Proof.
  intros HL HE HT HP. induction B as [|b B IH]; intros S BS HB HS; inversion HB; subst.
  - inversion HS; subst. exists [], []. split; [constructor|]. split; [constructor|]. unfold total_day_size. change (map _ []) with (@nil R). cbn [map Rsum length INR]. repeat split; lra.
  - inversion HS as [|s ? S' ? HS1 HS2]; subst. destruct (IH _ _ H3 HS2) as (m1 & m2 & F1 & F2 & V & W & B1 & B2).
    match goal with H : trades b (fst ?q) |- _ => set (n := fst q) in *; set (k := snd q) in * end.
    destruct (first_near lm p a d eb es m b s n k HL HP H1 HS1) as [N1 L1]. assert (N2 := second_near lm p a d eb es m b s n k HL HE HT HP H1 HS1).
    destruct (size_facts lm p a d eb es m b s n k HL HP H1 HS1) as (_ & _ & BM).
    assert (DV := day_value lm p a d eb es m n k HP). assert (Z1 := near_size _ _ _ _ N1).
    eexists ((_, _) :: m1), ((_, _) :: m2). cbn [map2 map fst snd Rsum length]. split; [constructor; [cbn [fst snd]; eapply near_weaken; [|exact N1]; lia|exact F1]|]. split; [constructor; [exact N2|exact F2]|].
    rewrite S_INR. unfold total_day_size in *. cbn [map Rsum]. fold n k.
    assert (T1 : bpow radix2 42 + bpow radix2 41 <= bpow radix2 43) by (simpl; lra). assert (T2 : 48 * bpow radix2 41 + 154 <= bpow radix2 47) by (simpl; lra).
    split; [rewrite <- DV; lra|]. split; [rewrite <- W; unfold day_size; lra|]. split; lra.
Qed.
(** Lin and Ke's likelihood in double precision: the value differs from minus the logarithm of the mixture likelihood (up to the factorials,
    which it omits) by at most (15 + D) 2^-52 times the sum of the days' sizes; D is the depth of the summation of one value per day. *)
Theorem C142_loglikelihood : forall lm p a d eb es m B S BS, log_accurate lm -> exp_accurate lm -> exp_tail lm -> parameters_are lm p a d eb es m ->
  Forall2 (fun x q => trades x (fst q)) B BS -> Forall2 (fun x q => trades x (snd q)) S BS -> BS <> [] -> (Z.of_nat (length BS) <= 2 ^ 50)%Z ->
  exists v, val (loglikelihood_LK2011 (B64 lm) B S p) = Fin v /\
    Rabs (v - - exact_loglik a d eb es m BS) <= INR (15 + levels lm (length BS)) * bpow radix2 (-52) * total_day_size eb es m BS.
Proof.
  intros lm p a d eb es m B S BS HL HE HT HP HB HS HN HLN. destruct (days_near lm p a d eb es m HL HE HT HP B S BS HB HS) as (m1 & m2 & F1 & F2 & V & W & B1 & B2).
  assert (LV := levels_lt lm (length BS) ltac:(destruct BS; [congruence|cbn; lia])).
  assert (LB : length B = length BS) by (apply (Forall2_len _ _ _ HB)). assert (LS : length S = length BS) by (apply (Forall2_len _ _ _ HS)).
  assert (L1 : forall f : b64 -> b64 -> b64, length (map2 f B S) = length BS) by (intros f; rewrite map2_length, LB, LS; lia).
  assert (NB : INR (length BS) <= bpow radix2 50) by (rewrite INR_IZR_INZ; change (bpow radix2 50) with (IZR (2 ^ 50)); apply IZR_le; exact HLN).
  assert (U1 : Rsum (map snd m1) <= bpow radix2 93). { change 93%Z with (50 + 43)%Z. rewrite bpow_plus. eapply Rle_trans; [apply B1|]. apply Rmult_le_compat_r; [apply bpow_ge_0|exact NB]. }
  assert (U2 : Rsum (map snd m2) <= bpow radix2 97). { change 97%Z with (50 + 47)%Z. rewrite bpow_plus. eapply Rle_trans; [apply B2|]. apply Rmult_le_compat_r; [apply bpow_ge_0|exact NB]. }
  assert (X1 : bpow radix2 93 <= bpow radix2 998) by (apply bpow_le; lia). assert (X2 : bpow radix2 97 <= bpow radix2 998) by (apply bpow_le; lia). assert (X3 : bpow radix2 998 + bpow radix2 998 <= bpow radix2 999) by (generalize (bpow_double 998); change (998 + 1)%Z with 999%Z; lra). assert (X5 : bpow radix2 999 <= bpow radix2 1000) by (apply bpow_le; lia). assert (X4 := bpow_gt_0 radix2 998).
  set (g := (14 + levels lm (length BS))%nat). assert (GK : (Z.of_nat g <= 2 ^ 51)%Z) by (unfold g; lia). assert (GK' : (Z.of_nat g <= 2 ^ 52)%Z) by lia.
  assert (N1 := near_fsum_sizes lm 14 _ m1 F1). assert (N2 := near_fsum_sizes lm 14 _ m2 F2). rewrite !L1 in N1, N2. fold g in N1, N2.
  assert (N1' := N1 ltac:(lra) GK'). assert (N2' := N2 ltac:(lra) GK').
  assert (NS := near_add g g g _ _ _ _ _ _ (le_n _) (le_n _) GK' N1' N2' ltac:(lra)). rewrite V, W in NS. apply near_opp in NS.
  assert (GS : (Z.of_nat (Datatypes.S g) <= 2 ^ 52)%Z) by lia.
  destruct (near_error (Datatypes.S g) _ _ _ GS NS) as (v & Ev & D). exists v. split; [exact Ev|].
  assert (EX : exact_loglik a d eb es m BS = Rsum (map (fun q => day_ll a d eb es m (INR (fst q)) (INR (snd q))) BS)).
  { assert (AD : admissible a d eb es m).
    { destruct HP as ([_ Ha] & [_ Hd] & [_ Qb] & [_ Qs] & HM). assert (P := bpow_gt_0 radix2 (-50)). assert (P' := bpow_gt_0 radix2 (-40)). repeat split; try lra. destruct HM as [[_ ->] | [_ HM]]; lra. }
    unfold exact_loglik, mixture_loglik. rewrite <- Rsum_plus. apply Rsum_map_ext. intros q _. rewrite day_ll_poisson by exact AD. reflexivity. }
  rewrite EX. exact D.
Qed.
(** comparing two parameter vectors: when the exact log-likelihoods of two parameter vectors differ by more than the two error bounds, the
    computed objectives are in the right order; the factorials cancel *)
Corollary C142_comparison : forall lm p a d eb es m p' a' d' eb' es' m' B S BS, log_accurate lm -> exp_accurate lm -> exp_tail lm ->
  parameters_are lm p a d eb es m -> parameters_are lm p' a' d' eb' es' m' ->
  Forall2 (fun x q => trades x (fst q)) B BS -> Forall2 (fun x q => trades x (snd q)) S BS -> BS <> [] -> (Z.of_nat (length BS) <= 2 ^ 50)%Z ->
  INR (15 + levels lm (length BS)) * bpow radix2 (-52) * (total_day_size eb es m BS + total_day_size eb' es' m' BS) <
    mixture_loglik a d eb es m BS - mixture_loglik a' d' eb' es' m' BS ->
  Bltb (loglikelihood_LK2011 (B64 lm) B S p) (loglikelihood_LK2011 (B64 lm) B S p') = true.
Proof.
  intros lm p a d eb es m p' a' d' eb' es' m' B S BS HL HE HT HP HP' HB HS HN HLN HD.
  destruct (C142_loglikelihood lm p a d eb es m B S BS HL HE HT HP HB HS HN HLN) as (v & Ev & D).
  destruct (C142_loglikelihood lm p' a' d' eb' es' m' B S BS HL HE HT HP' HB HS HN HLN) as (v' & Ev' & D').
  rewrite val_ltb, Ev, Ev'. apply xltb_true. unfold exact_loglik in D, D'. apply Rabs_le_inv in D, D'. lra.
Qed.

(** ** Non-vacuity: correctly rounded library functions; one day with 3 buys and 2 sells; two parameter vectors the program orders correctly *)
Lemma exp_tail_perfect : exp_tail Props_float4.squaring_libm.
Proof.
  intros x r E Hr. cbn [l_exp Props_float4.squaring_libm perfect_libm]. rewrite val_of_xr, E. cbn [xexp xrn].
  assert (XP := exp_pos r). assert (XB : exp r <= bpow radix2 (-199)).
  { apply Rle_trans with (exp (-199)); [left; apply exp_increasing; lra|]. replace (-199) with (- (INR 199 * 1)) by (rewrite INR_IZR_INZ; simpl; lra). rewrite exp_Ropp.
    assert (E2 : 2 ^ 199 <= exp (INR 199 * 1)).
    { replace (exp (INR 199 * 1)) with (exp 1 ^ 199) by (rewrite <- Rpower_pow by apply exp_pos; unfold Rpower; rewrite ln_exp; reflexivity). apply pow_incr. assert (Q := exp_ineq1_le 1). lra. }
    assert (E3 : bpow radix2 (-199) = / 2 ^ 199) by (change (bpow radix2 (-199)) with (/ IZR (2 ^ 199)); rewrite (pow_IZR_aux 199); reflexivity).
    rewrite E3. apply Rinv_le_contravar; [apply pow_lt; lra|exact E2]. }
  assert (F : fmt (bpow radix2 (-199))) by (apply generic_format_bpow; unfold fexp64, SpecFloat.fexp, SpecFloat.emin; lia).
  assert (BB : Rabs (bpow radix2 (-199)) < bpow radix2 1024) by (rewrite Rabs_right; [apply bpow_lt; lia|apply Rle_ge, bpow_ge_0]).
  assert (U := RN_le (exp r) _ F BB XB). assert (L := RN_mono 0 (exp r) ltac:(lra)). rewrite RN_0 in L.
  destruct (RN_finite (exp r) (-199)) as (v & Ev); [rewrite Rabs_right by lra; exact XB|lia|]. rewrite Ev in *. exists v. split; [reflexivity|].
  apply xleb_iff in U, L. split; assumption.
Qed.
Definition one_half : b64 := fdiv (fofZ 1) (fofZ 2).
Lemma one_half_val : val one_half = Fin (1 / 2).
Proof. unfold one_half. rewrite (val_div _ _ 1 2) by (try apply val_ofZ_small; simpl; try lia; lra). apply RN_fmt; apply (Props_pinfloat.fmt_half 1); lia. Qed.
Definition informed_day (lm : libm) : p5 (B64 lm) := mkP5 (B64 lm) one_half one_half (fofZ 4) (fofZ 4) (fofZ 4).
Definition busy_day (lm : libm) : p5 (B64 lm) := mkP5 (B64 lm) one_half one_half (fofZ 1024) (fofZ 1024) (fofZ 0).
Lemma half_share : Props_pinfloat.is_share one_half (1 / 2).
Proof. split; [exact one_half_val|]. assert (bpow radix2 (-50) <= bpow radix2 (-2)) by (apply bpow_le; lia). replace (bpow radix2 (-2)) with (/ 4) in H by reflexivity. lra. Qed.
Lemma moderate_Z z : (1 <= z <= 2 ^ 40)%Z -> moderate (fofZ z) (IZR z).
Proof.
  intros H. split; [apply val_ofZ_small; lia|]. split.
  - apply Rle_trans with 1; [change 1 with (bpow radix2 0); apply bpow_le; lia|apply IZR_le; lia].
  - change (bpow radix2 40) with (IZR (2 ^ 40)). apply IZR_le. lia.
Qed.
Example C142_case : let lm := Props_float4.squaring_libm in log_accurate lm /\ exp_accurate lm /\ exp_tail lm /\
  parameters_are lm (informed_day lm) (1 / 2) (1 / 2) 4 4 4 /\ parameters_are lm (busy_day lm) (1 / 2) (1 / 2) 1024 1024 0 /\
  Forall2 (fun x q => trades x (fst q)) [fofZ 3] [(3, 2)%nat] /\ Forall2 (fun x q => trades x (snd q)) [fofZ 2] [(3, 2)%nat] /\
  INR (15 + levels lm 1) * bpow radix2 (-52) * (total_day_size 4 4 4 [(3, 2)%nat] + total_day_size 1024 1024 0 [(3, 2)%nat]) <
    mixture_loglik (1 / 2) (1 / 2) 4 4 4 [(3, 2)%nat] - mixture_loglik (1 / 2) (1 / 2) 1024 1024 0 [(3, 2)%nat].
Proof.
  cbv zeta. destruct Props_option64.squaring_accurate as (_ & HL & HE & _). split; [exact HL|]. split; [exact HE|]. split; [exact exp_tail_perfect|].
  split; [|split; [|split; [|split]]].
  - split; [exact half_share|]. split; [exact half_share|]. split; [apply moderate_Z; lia|]. split; [apply moderate_Z; lia|]. right. apply moderate_Z. lia.
  - split; [exact half_share|]. split; [exact half_share|]. split; [apply moderate_Z; lia|]. split; [apply moderate_Z; lia|]. left. split; [apply val_ofZ_small; simpl; lia|reflexivity].
  - constructor; [|constructor]. split; [rewrite INR_IZR_INZ; apply val_ofZ_small; simpl; lia|simpl; lia].
  - constructor; [|constructor]. split; [rewrite INR_IZR_INZ; apply val_ofZ_small; simpl; lia|simpl; lia].
  - assert (A1 : admissible (1 / 2) (1 / 2) 4 4 4) by (unfold admissible; lra). assert (A2 : admissible (1 / 2) (1 / 2) 1024 1024 0) by (unfold admissible; lra).
    assert (P1 := day_ll_poisson _ _ _ _ _ 3 2 A1). assert (P2 := day_ll_poisson _ _ _ _ _ 3 2 A2).
    assert (L2 := ln2_bounds). assert (Lp : forall j, ln (2 ^ j) = INR j * ln 2) by (intros j; apply ln_pow; lra).
    assert (L4 : ln 4 = 2 * ln 2) by (replace 4 with (2 ^ 2) by ring; rewrite Lp; simpl; lra).
    assert (L8 : ln 8 = 3 * ln 2) by (replace 8 with (2 ^ 3) by ring; rewrite Lp; simpl; lra).
    assert (L1024 : ln 1024 = 10 * ln 2) by (replace 1024 with (2 ^ 10) by ring; rewrite Lp; simpl; lra).
    unfold mixture_loglik, total_day_size, day_size, exponent_size. cbn [map fst snd Rsum]. change (levels Props_float4.squaring_libm 1) with 0%nat.
    replace (4 + 4) with 8 by ring. replace (0 + 1024) with 1024 by ring. replace (1 + 0 / 1024) with 1 by lra. replace (1 + 4 / 4) with 2 by lra. rewrite L8, L1024, ln_1, (Rabs_right (3 * ln 2)), (Rabs_right (10 * ln 2)) by lra.
    assert (C2 : ln (core (1 / 2) (1 / 2) 1024 1024 0 (INR 3) (INR 2)) = 0).
    { unfold core. replace (1024 / (0 + 1024)) with 1 by lra. assert (R1 : forall y, Rpower 1 y = 1) by (intros y; unfold Rpower; rewrite ln_1, Rmult_0_r; apply exp_0). rewrite !R1, Ropp_0, exp_0. rewrite <- ln_1. f_equal. lra. }
    assert (C1 : - 6 * ln 2 <= ln (core (1 / 2) (1 / 2) 4 4 4 (INR 3) (INR 2))).
    { replace (- 6 * ln 2) with (ln (/ 2 ^ 6)) by (rewrite ln_Rinv by lra; rewrite Lp; simpl; lra). apply ln_le; [lra|]. unfold core. replace (4 / (4 + 4)) with (/ 2) by lra. rewrite !Rpower_pow by lra.
      assert (XP := exp_pos (Ropp 4)). replace (/ 2 ^ 6) with (/ 64) by (f_equal; ring). replace ((/ 2) ^ 2) with (/ 4) by field. replace ((/ 2) ^ 3) with (/ 8) by field. lra. }
    unfold day_ll in P1, P2. rewrite C2 in P2. replace (4 + 4) with 8 in P1 by ring. replace (0 + 1024) with 1024 in P2 by ring. rewrite L8 in P1. rewrite L1024 in P2.
    rewrite w52, uro_eq. simpl (INR (15 + 0)). simpl (INR 3) in *. simpl (INR 2) in *. lra.
Qed.
