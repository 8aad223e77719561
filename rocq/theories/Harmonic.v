(** * Harmonic numbers, the logarithm, and the depth of a random tree: facts used by Props_pathlen.v *)
From Coq Require Import Reals Lra Lia List Arith.
From Coquelicot Require Import Coquelicot.
From Verif Require Import XR RealAux.
Import ListNotations.
Local Open Scope R_scope.

(** the n-th harmonic number 1 + 1/2 + ... + 1/n *)
Definition harmonic (n : nat) : R := Rsum (map (fun k => / INR k) (seq 1 n)).

Lemma Rsum_last (f : nat -> R) a n : Rsum (map f (seq a (S n))) = Rsum (map f (seq a n)) + f (a + n)%nat.
Proof. rewrite seq_S, map_app, Rsum_app. cbn [map Rsum]. lra. Qed.
Lemma harmonic_S n : harmonic (S n) = harmonic n + / INR (S n).
Proof. unfold harmonic. apply Rsum_last. Qed.
Lemma harmonic_0 : harmonic 0 = 0. Proof. reflexivity. Qed.
Lemma INR_pos n : (1 <= n)%nat -> 0 < INR n. Proof. intros. apply lt_0_INR. lia. Qed.
(** sum of k H_k over k < n *)
Lemma sum_k_harmonic n : Rsum (map (fun k => INR k * (2 * (harmonic k - 1))) (seq 0 n)) = INR n * (INR n - 1) * (harmonic n - 3 / 2).
Proof.
  induction n as [|n IH]; [cbn; ring|]. rewrite Rsum_last, IH, Nat.add_0_l, harmonic_S, S_INR. assert (0 <= INR n) by apply pos_INR. field. lra.
Qed.

(** ** Bounds on the logarithm *)
Lemma nonneg_by_derivative (f f' : R -> R) y : 0 <= y -> f 0 = 0 -> (forall x, 0 <= x -> derivable_pt_lim f x (f' x)) -> (forall x, 0 <= x -> 0 <= f' x) -> 0 <= f y.
Proof.
  intros [Hy | <-] H0 HD HP; [|lra]. destruct (MVT_cor2 f f' 0 y Hy) as (c & E & Hc); [intros c Hc; apply HD; lra|].
  rewrite H0 in E. generalize (Rmult_le_pos (f' c) (y - 0) (HP c ltac:(lra)) ltac:(lra)). lra.
Qed.
Lemma ln_trapezoid y : 0 <= y -> ln (1 + y) <= (y + y / (1 + y)) / 2.
Proof.
  intros Hy. enough (0 <= (y + y / (1 + y)) / 2 - ln (1 + y)) by lra.
  apply (nonneg_by_derivative (fun y => (y + y / (1 + y)) / 2 - ln (1 + y)) (fun y => y ^ 2 / (2 * (1 + y) ^ 2)) y Hy).
  - rewrite Rplus_0_r, ln_1. field.
  - intros x Hx. apply is_derive_Reals. auto_derive; [lra|]. field. lra.
  - intros x Hx. apply Rmult_le_pos; [nra|]. left. apply Rinv_0_lt_compat. nra.
Qed.
Lemma ln_midpoint y : 0 <= y -> 2 * y / (2 + y) <= ln (1 + y).
Proof.
  intros Hy. enough (0 <= ln (1 + y) - 2 * y / (2 + y)) by lra.
  apply (nonneg_by_derivative (fun y => ln (1 + y) - 2 * y / (2 + y)) (fun y => y ^ 2 / ((1 + y) * (2 + y) ^ 2)) y Hy).
  - rewrite Rplus_0_r, ln_1. field.
  - intros x Hx. apply is_derive_Reals. auto_derive; [lra|]. field. lra.
  - intros x Hx. apply Rmult_le_pos; [nra|]. left. apply Rinv_0_lt_compat. assert (0 < (2 + x) ^ 2) by nra. nra.
Qed.

(** H_m - ln m - 1/(2m) grows and H_m - ln (m + 1/2) falls *)
Definition below (m : nat) : R := harmonic m - ln (INR m) - / (2 * INR m).
Definition above (m : nat) : R := harmonic m - ln (INR m + / 2).
Lemma below_S m : (1 <= m)%nat -> below m <= below (S m).
Proof.
  intros Hm. assert (Hp := INR_pos m Hm). unfold below. rewrite harmonic_S, S_INR.
  assert (G := ln_trapezoid (/ INR m) ltac:(left; apply Rinv_0_lt_compat; exact Hp)).
  replace (ln (1 + / INR m)) with (ln (INR m + 1) - ln (INR m)) in G by (rewrite <- ln_div by lra; f_equal; field; lra).
  assert (E : (/ INR m + / INR m / (1 + / INR m)) / 2 = / (2 * INR m) + / (2 * (INR m + 1))) by (field; lra). rewrite E in G.
  assert (E2 : / (INR m + 1) = 2 * / (2 * (INR m + 1))) by (field; lra). rewrite E2. lra.
Qed.
Lemma above_S m : above (S m) <= above m.
Proof.
  assert (Hp := pos_INR m). unfold above. rewrite harmonic_S, S_INR.
  assert (G := ln_midpoint (/ (INR m + / 2)) ltac:(left; apply Rinv_0_lt_compat; lra)).
  replace (ln (1 + / (INR m + / 2))) with (ln (INR m + 1 + / 2) - ln (INR m + / 2)) in G by (rewrite <- ln_div by lra; f_equal; field; lra).
  assert (E : 2 * / (INR m + / 2) / (2 + / (INR m + / 2)) = / (INR m + 1)) by (field; lra). rewrite E in G. lra.
Qed.
Lemma below_mono m n : (1 <= m <= n)%nat -> below m <= below n.
Proof. intros [H1 H2]. induction H2 as [|n H2 IH]; [lra|]. eapply Rle_trans; [exact IH|]. apply below_S. lia. Qed.
Lemma above_mono m n : (m <= n)%nat -> above n <= above m.
Proof. intros H2. induction H2 as [|n H2 IH]; [lra|]. eapply Rle_trans; [apply above_S|exact IH]. Qed.
Lemma below_above m : (1 <= m)%nat -> below m <= above m.
Proof.
  intros Hm. assert (Hp := INR_pos m Hm). unfold below, above. enough (ln (INR m + / 2) - ln (INR m) <= / (2 * INR m)) by lra.
  rewrite <- ln_div by lra. eapply Rle_trans; [apply ln_le_sub1; apply Rdiv_lt_0_compat; lra|]. apply Req_le. field. lra.
Qed.
(** any value of the one is at most any value of the other *)
Lemma below_above_any m n : (1 <= m)%nat -> (1 <= n)%nat -> below m <= above n.
Proof.
  intros Hm Hn. destruct (Nat.le_ge_cases m n) as [L | L].
  - eapply Rle_trans; [apply below_mono; split; [exact Hm|exact L]|]. apply below_above, Hn.
  - eapply Rle_trans; [apply below_above, Hm|]. apply above_mono, L.
Qed.

(** ** Numbers *)
Lemma ln_step a b : 0 < a -> a <= b -> 2 * (b - a) / (a + b) <= ln b - ln a <= (b - a) * (/ a + / b) / 2.
Proof.
  intros Ha Hb. assert (Hy : 0 <= (b - a) / a) by (apply Rmult_le_pos; [lra|left; apply Rinv_0_lt_compat; lra]).
  assert (E : ln (1 + (b - a) / a) = ln b - ln a) by (rewrite <- ln_div by lra; f_equal; field; lra).
  generalize (ln_midpoint _ Hy), (ln_trapezoid _ Hy). rewrite E. intros G1 G2. split.
  - eapply Rle_trans; [|exact G1]. apply Req_le. field. lra.
  - eapply Rle_trans; [exact G2|]. apply Req_le. field. lra.
Qed.
(** the bounds add up over a partition of [1, 2] in steps of 1/16 *)
Definition grid (k : nat) : R := 1 + INR k / 16.
Lemma ln2_partition : Rsum (map (fun k => 2 * (grid (S k) - grid k) / (grid k + grid (S k))) (seq 0 16)) <= ln 2
  <= Rsum (map (fun k => (grid (S k) - grid k) * (/ grid k + / grid (S k)) / 2) (seq 0 16)).
Proof.
  assert (T : Rsum (map (fun k => ln (grid (S k)) - ln (grid k)) (seq 0 16)) = ln 2).
  { assert (G : forall n, Rsum (map (fun k => ln (grid (S k)) - ln (grid k)) (seq 0 n)) = ln (grid n)).
    { induction n as [|n IH]; [unfold grid; cbn; replace (1 + 0 / 16) with 1 by field; rewrite ln_1; reflexivity|]. rewrite Rsum_last, IH, Nat.add_0_l. lra. }
    rewrite G. f_equal. unfold grid. replace (INR 16) with 16 by (cbn; lra). field. }
  assert (P : forall k, 0 < grid k <= grid (S k)) by (intros k; unfold grid; rewrite S_INR; generalize (pos_INR k); lra).
  rewrite <- T. split; apply Rsum_le; intros k _; apply ln_step; apply P.
Qed.
Lemma ln2_bounds : 69302 / 100000 <= ln 2 <= 6934 / 10000.
Proof.
  destruct ln2_partition as [G1 G2]. unfold grid in G1, G2. cbn [seq map] in G1, G2. cbn [Rsum] in G1, G2.
  cbn [INR] in G1, G2. split; [eapply Rle_trans; [|exact G1]|eapply Rle_trans; [exact G2|]]; lra.
Qed.
Lemma below_8 : 57515 / 100000 <= below 8.
Proof.
  unfold below. replace (INR 8) with (2 * (2 * 2)) by (cbn; lra). rewrite !ln_mult by lra. generalize ln2_bounds. unfold harmonic. cbn [seq map INR]. cbn [Rsum]. lra.
Qed.
Lemma above_8 : above 8 <= 5782 / 10000.
Proof.
  unfold above. replace (INR 8 + / 2) with (2 * (2 * 2) * (17 / 16)) by (cbn; lra). rewrite !ln_mult by lra.
  assert (G := proj1 (ln_step 1 (17 / 16) ltac:(lra) ltac:(lra))). rewrite ln_1 in G.
  generalize ln2_bounds. unfold harmonic. cbn [seq map INR]. cbn [Rsum]. lra.
Qed.
(** H_m against the logarithm, with numbers for the Euler-Mascheroni constant *)
Theorem harmonic_ln m : (1 <= m)%nat -> 57515 / 100000 + 2 / (4 * INR m + 1) <= harmonic m - ln (INR m) <= 5782 / 10000 + / (2 * INR m).
Proof.
  intros Hm. assert (Hp := INR_pos m Hm). split.
  - assert (G : below 8 <= above m) by (apply below_above_any; [lia|exact Hm]). unfold above in G.
    assert (L := proj1 (ln_step (INR m) (INR m + / 2) Hp ltac:(lra))). replace (2 * (INR m + / 2 - INR m) / (INR m + (INR m + / 2))) with (2 / (4 * INR m + 1)) in L by (field; lra).
    generalize below_8. lra.
  - assert (G : below m <= above 8) by (apply below_above_any; [exact Hm|lia]). unfold below in G. generalize above_8. lra.
Qed.
