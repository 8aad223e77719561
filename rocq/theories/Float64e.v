(** * Absolute accuracy of products, quotients and library functions in binary64 *)
From Coq Require Import Reals ZArith List Lia Lra Psatz Bool Arith.
From Flocq Require Import Core BinarySingleNaN.
From Coquelicot Require Import Coquelicot.
From Verif Require Import Arith XR RealAux Gauss Float64 Float64b Float64c Float64d.
Local Open Scope R_scope.

Definition not_tiny (b : R) : Prop := b = 0 \/ bpow radix2 (-1000) <= b.
(** rounding a number known with error (up k - 1) b *)
Lemma near_round k x w r b : (Z.of_nat k <= 2 ^ 52)%Z -> val x = RN w -> Rabs (w - r) <= (up k - 1) * b -> Rabs r <= b -> b <= bpow radix2 1000 -> not_tiny b -> near (S (S k)) x r b.
Proof.
  intros Hk E D RB HB HT. assert (B0 : 0 <= b) by (assert (P := Rabs_pos r); lra). assert (U := up_le2 k Hk). assert (U1 := up_ge1 k). assert (P := uro_pos).
  assert (W : Rabs w <= up k * b) by (replace w with ((w - r) + r) by ring; eapply Rle_trans; [apply Rabs_triang|]; lra).
  exists (rnd w). rewrite E. split; [apply (RN_val _ 1001); [|lia]; assert (DD := bpow_double 1000); change (1000 + 1)%Z with 1001%Z in DD; nra|]. split; [|exact RB].
  rewrite !up_S. destruct HT as [-> | HT].
  - rewrite Rmult_0_r in *. assert (WZ : w = 0) by (destruct (Req_dec w 0) as [Z | Z]; [exact Z|apply Rabs_pos_lt in Z; lra]). rewrite WZ in *. rewrite rnd_0. exact D.
  - assert (ER := rnd_error w). assert (ET : eta <= uro * b) by (apply (Rle_trans _ (uro * bpow radix2 (-1000))); [unfold uro, eta; rewrite <- bpow_plus; apply bpow_le; lia|apply Rmult_le_compat_l; lra]).
    replace (rnd w - r) with ((rnd w - w) + (w - r)) by ring. eapply Rle_trans; [apply Rabs_triang|].
    set (c := up k * b) in *. assert (BC : b <= c) by (unfold c; nra). assert (C1 : uro * Rabs w <= uro * c) by (apply Rmult_le_compat_l; lra). assert (C2 : uro * b <= uro * c) by (apply Rmult_le_compat_l; lra).
    assert (C3 : 0 <= uro * (uro * c)) by (apply Rmult_le_pos; [lra|apply Rmult_le_pos; lra]).
    replace ((up k * (1 + uro) * (1 + uro) - 1) * b) with (c + 2 * (uro * c) + uro * (uro * c) - b) by (unfold c; ring). replace ((up k - 1) * b) with (c - b) in D by (unfold c; ring). lra.
Qed.
Lemma product_error j k v w r s a b : Rabs (v - r) <= (up j - 1) * a -> Rabs v <= up j * a -> Rabs (w - s) <= (up k - 1) * b -> Rabs s <= b -> Rabs r <= a -> Rabs (v * w - r * s) <= (up (j + k) - 1) * (a * b).
Proof.
  intros D V D' S' R'. assert (A0 : 0 <= a) by (assert (P := Rabs_pos r); lra). assert (B0 : 0 <= b) by (assert (P := Rabs_pos s); lra). assert (U := up_ge1 j). assert (U' := up_ge1 k).
  replace (v * w - r * s) with (v * (w - s) + (v - r) * s) by ring. eapply Rle_trans; [apply Rabs_triang|]. rewrite !Rabs_mult, up_add.
  apply (Rle_trans _ (up j * a * ((up k - 1) * b) + (up j - 1) * a * b)); [|apply Req_le; ring].
  apply Rplus_le_compat; apply Rmult_le_compat; try apply Rabs_pos; assumption.
Qed.
Lemma near_mul j k x y r s a b : (Z.of_nat (j + k) <= 2 ^ 52)%Z -> near j x r a -> near k y s b -> a * b <= bpow radix2 1000 -> not_tiny (a * b) -> near (S (S (j + k))) (fmul x y) (r * s) (a * b).
Proof.
  intros Hk Nx Ny HB HT. assert (RA : Rabs r <= a) by (destruct Nx as (? & _ & _ & H); exact H). assert (SB : Rabs s <= b) by (destruct Ny as (? & _ & _ & H); exact H).
  destruct (near_value _ _ _ _ Nx) as (v & Ev & Dv & Bv). destruct (near_value _ _ _ _ Ny) as (w & Ew & Dw & Bw).
  apply (near_round (j + k) _ (v * w)); [exact Hk|apply val_mul; assumption| | |exact HB|exact HT].
  - apply product_error; assumption.
  - rewrite Rabs_mult. apply Rmult_le_compat; try apply Rabs_pos; assumption.
Qed.
Lemma near_div j k x y r s a : (Z.of_nat (j + k) <= 2 ^ 52)%Z -> near j x r a -> close k y s -> 0 < s -> a / s <= bpow radix2 1000 -> not_tiny (a / s) -> near (S (S (j + k))) (fdiv x y) (r / s) (a / s).
Proof.
  intros Hk Nx (w & Ew & W0 & RW) S0 HB HT. assert (RA : Rabs r <= a) by (destruct Nx as (? & _ & _ & H); exact H).
  destruct (near_value _ _ _ _ Nx) as (v & Ev & Dv & Bv). assert (WP : 0 < w) by (apply (rel_pos k w s); assumption). destruct (rel_inv k w s WP S0 RW) as [I1 I2]. assert (IS : 0 < / s) by (apply Rinv_0_lt_compat; exact S0). assert (IW : 0 < / w) by (apply Rinv_0_lt_compat; exact WP).
  apply (near_round (j + k) _ (v / w)); [exact Hk|apply val_div; [exact Ev|exact Ew|lra]| | |exact HB|exact HT].
  - unfold Rdiv. apply product_error; [exact Dv|exact Bv| |rewrite Rabs_right; lra|exact RA]. assert (U := up_ge1 k). apply Rabs_le. split; [|lra]. assert (/ s - / w <= (up k - 1) * / w) by lra. assert (0 <= (up k - 1) * (/ s)) by nra.
    (* 1/w >= (1/s) / up k >= (1/s)(2 - up k) *)
    assert (/ s * (2 - up k) <= / w); [|lra]. destruct (Rle_or_lt (2 - up k) 0) as [N | N]; [nra|]. apply (Rle_trans _ (/ w * up k * (2 - up k))); [apply Rmult_le_compat_r; lra|]. replace (/ w * up k * (2 - up k)) with (/ w * (1 - (up k - 1) * (up k - 1))) by ring. assert (0 <= (up k - 1) * (up k - 1)) by nra. nra.
  - unfold Rdiv. rewrite Rabs_mult, (Rabs_right (/ s)) by lra. apply Rmult_le_compat_r; lra.
Qed.

(** ** Contracts on the mathematical library: errors of at most one unit in the last place or so *)
Definition log_accurate (lm : libm) : Prop := forall x r, val x = Fin r -> 0 < r -> exists v, val (l_log lm x) = Fin v /\ Rabs (v - ln r) <= bpow radix2 (-52) * Rabs (ln r).
Definition exp_accurate (lm : libm) : Prop := forall x r, val x = Fin r -> Rabs r <= 200 -> exists v, val (l_exp lm x) = Fin v /\ Rabs (v - exp r) <= bpow radix2 (-52) * exp r.
Definition cdf_accurate (lm : libm) : Prop := forall x r, val x = Fin r -> exists v, val (l_cdf lm x) = Fin v /\ 0 <= v <= 1 /\ Rabs (v - Phi r) <= bpow radix2 (-52).
Lemma w52 : bpow radix2 (-52) = 2 * uro. Proof. rewrite uro_eq. replace (bpow radix2 (-52)) with (/ 4503599627370496) by reflexivity. lra. Qed.

Lemma up_lower k : 1 + INR k * uro <= up k.
Proof. induction k as [|k IH]; [unfold up; simpl; lra|]. rewrite up_S, S_INR. assert (P := uro_pos). assert (U := up_ge1 k). nra. Qed.
(** error bounds given as a multiple of the rounding unit *)
Lemma near_intro k x v r a : val x = Fin v -> Rabs (v - r) <= INR k * uro * a -> Rabs r <= a -> near k x r a.
Proof. intros E D H. exists v. split; [exact E|]. split; [|exact H]. eapply Rle_trans; [exact D|]. assert (L := up_lower k). assert (0 <= a) by (assert (P := Rabs_pos r); lra). apply Rmult_le_compat_r; lra. Qed.
Lemma close_near k x r : close k x r -> near k x r r.
Proof.
  intros (v & E & V0 & R1 & R2). assert (U := up_ge1 k). assert (r0 : 0 <= r) by (assert (0 <= v * up k) by nra; nra). exists v. split; [exact E|]. split; [|rewrite Rabs_right; lra]. apply Rabs_le. split; [|lra].
  (* r - v <= (up k - 1) v <= ... *)
  destruct (Rle_or_lt v r) as [H | H]; [|nra]. nra.
Qed.

(** the logarithm of a quotient *)
Lemma ln_near_1 e : Rabs e <= 1 / 4 -> Rabs (ln (1 + e)) <= 2 * Rabs e.
Proof.
  intros H. apply Rabs_le_inv in H. apply Rabs_le. assert (U : ln (1 + e) <= e) by (rewrite <- (ln_exp e) at 2; apply ln_le; [lra|]; assert (X := exp_ineq1_le e); lra).
  assert (L : - ln (1 + e) <= / (1 + e) - 1). { rewrite <- ln_Rinv by lra. assert (X := exp_ineq1_le (/ (1 + e) - 1)). rewrite <- (ln_exp (/ (1 + e) - 1)). apply ln_le; [apply Rinv_0_lt_compat; lra|lra]. }
  assert (I : / (1 + e) - 1 = - e / (1 + e)) by (field; lra). rewrite I in L. assert (A : e <= Rabs e) by apply Rle_abs. assert (A' : - e <= Rabs e) by (rewrite <- Rabs_Ropp; apply Rle_abs). assert (P := Rabs_pos e). split; [|lra].
  assert (- e / (1 + e) <= 2 * Rabs e); [|lra]. apply (Rmult_le_reg_r (1 + e)); [lra|]. unfold Rdiv. rewrite Rmult_assoc, Rinv_l, Rmult_1_r by lra. nra.
Qed.
Lemma near_log lm x y r s : log_accurate lm -> val x = Fin r -> val y = Fin s -> bpow radix2 (-100) <= r <= bpow radix2 100 -> bpow radix2 (-100) <= s <= bpow radix2 100 ->
  near 5 (l_log lm (fdiv x y)) (ln (r / s)) (1 + Rabs (ln (r / s))).
Proof.
  intros HA Ex Ey Hr Hs. assert (P := bpow_gt_0 radix2 (-100)). assert (U := uro_pos). assert (UE := uro_eq).
  assert (SX : sized 100 0 x r) by (apply sized_exact; [exact Ex|right; exact Hr]). assert (SY : sized 100 0 y s) by (apply sized_exact; [exact Ey|right; exact Hs]).
  assert (Q := sized_div 100 100 0 0 x y r s ltac:(lia) ltac:(simpl; lia) SX SY ltac:(lra)). destruct Q as [(w & Ew & W0 & R1 & R2) _]. change (S (0 + 0)) with 1%nat in *.
  set (t := r / s) in *. assert (T0 : 0 < t) by (apply Rdiv_lt_0_compat; lra). unfold up in R1, R2. simpl in R1, R2. rewrite Rmult_1_r in R1, R2. assert (WP : 0 < w) by nra.
  destruct (HA _ _ Ew WP) as (v & Ev & D). rewrite w52 in D.
  set (e := w / t - 1). assert (Ew' : w = t * (1 + e)) by (unfold e; field; lra).
  assert (He : Rabs e <= uro). { apply Rabs_le. split; apply (Rmult_le_reg_l t); try exact T0; replace (t * e) with (w - t) by (unfold e; field; lra); nra. }
  assert (LE := ln_near_1 e ltac:(lra)). assert (LW : ln w = ln t + ln (1 + e)) by (rewrite Ew'; apply ln_mult; [exact T0|apply Rabs_le_inv in He; lra]). set (d := ln (1 + e)) in *. rewrite LW in D.
  assert (AT := Rabs_triang (ln t) d). assert (P2 := Rabs_pos (ln t)).
  apply (near_intro 5 _ v); [exact Ev| |lra]. replace (INR 5) with 5 by (simpl; lra). replace (v - ln t) with ((v - (ln t + d)) + d) by ring. eapply Rle_trans; [apply Rabs_triang|]. nra.
Qed.
(** the exponential of a product *)
Lemma exp_near_0 e : Rabs e <= 1 / 4 -> Rabs (exp e - 1) <= 2 * Rabs e.
Proof.
  intros H. apply Rabs_le_inv in H. apply Rabs_le. assert (L := exp_ineq1_le e). assert (L' := exp_ineq1_le (- e)). rewrite exp_Ropp in L'. assert (XP := exp_pos e).
  assert (A : e <= Rabs e) by apply Rle_abs. assert (A' : - e <= Rabs e) by (rewrite <- Rabs_Ropp; apply Rle_abs). split; [lra|].
  assert (I : exp e <= / (1 - e)). { apply (Rmult_le_reg_r (1 - e)); [lra|]. rewrite Rinv_l by lra. assert (exp e * (1 + - e) <= exp e * / exp e) by (apply Rmult_le_compat_l; lra). rewrite Rinv_r in * by lra. lra. }
  assert (J : / (1 - e) - 1 = e / (1 - e)) by (field; lra). assert (e / (1 - e) <= 2 * Rabs e); [|lra]. apply (Rmult_le_reg_r (1 - e)); [lra|]. unfold Rdiv. rewrite Rmult_assoc, Rinv_l, Rmult_1_r by lra. nra.
Qed.
Lemma near_exp lm x y r s : exp_accurate lm -> val x = Fin r -> val y = Fin s -> Rabs (r * s) <= 100 -> near 8 (l_exp lm (fmul x y)) (exp (r * s)) (exp (r * s) * (1 + Rabs (r * s))).
Proof.
  intros HA Ex Ey H. assert (U := uro_pos). assert (UE := uro_eq). set (p := r * s) in *. assert (E0 : 0 < eta) by apply bpow_gt_0. assert (EU : eta <= uro) by (unfold eta, uro; apply bpow_le; lia).
  assert (EV : val (fmul x y) = Fin (rnd p)) by (rewrite (val_mul _ _ _ _ Ex Ey); apply (RN_val _ 10); [eapply Rle_trans; [exact H|]; simpl; lra|lia]).
  assert (ER := rnd_error p). set (d := rnd p - p) in *. assert (DS : Rabs d <= uro * (1 + Rabs p)) by lra. assert (PP := Rabs_pos p).
  assert (RB : Rabs (rnd p) <= 200) by (replace (rnd p) with (p + d) by (unfold d; ring); eapply Rle_trans; [apply Rabs_triang|]; nra).
  destruct (HA _ _ EV RB) as (v & Ev & D). rewrite w52 in D. replace (rnd p) with (p + d) in D by (unfold d; ring). rewrite exp_plus in D. assert (XP := exp_pos p). set (X := exp p) in *.
  assert (D4 : Rabs d <= 1 / 4) by nra. assert (XD := exp_near_0 d D4). set (Y := exp d) in *. apply (near_intro 8 _ v); [exact Ev| |rewrite Rabs_right by lra; nra]. replace (INR 8) with 8 by (simpl; lra).
  replace (v - X) with ((v - X * Y) + X * (Y - 1)) by ring. eapply Rle_trans; [apply Rabs_triang|]. rewrite (Rabs_mult X), (Rabs_right X) by lra.
  assert (Y2 : Y <= 2) by (apply Rabs_le_inv in XD; lra). assert (YP : 0 < Y) by apply exp_pos.
  assert (B1 : Rabs (v - X * Y) <= 4 * uro * X) by nra. assert (B2 : X * Rabs (Y - 1) <= X * (2 * (uro * (1 + Rabs p)))) by (apply Rmult_le_compat_l; lra). nra.
Qed.
(** the distribution function *)
Lemma sqrt_2pi_ge1 : 1 <= sqrt (2 * PI).
Proof. rewrite <- sqrt_1. apply sqrt_le_1_alt. assert (H := PI_RGT_0). assert (H' := PI2_1). unfold PI2 in *. lra. Qed.
Lemma Phi_lipschitz x y : Rabs (Phi x - Phi y) <= Rabs (x - y).
Proof.
  destruct (MVT_gen Phi y x phi) as (c & _ & EC); [intros; apply Phi_derive|intros z _; apply derivable_continuous_pt; exists (phi z); apply is_derive_Reals; apply Phi_derive|].
  rewrite EC, Rabs_mult. assert (P := phi_pos c). rewrite (Rabs_right (phi c)) by lra. assert (G : phi c <= 1).
  { rewrite phi_gauss. assert (S1 := sqrt_2pi_ge1). apply (Rmult_le_reg_r (sqrt (2 * PI))); [lra|]. unfold Rdiv. rewrite Rmult_assoc, Rinv_l, Rmult_1_r by lra. unfold gauss. apply (Rle_trans _ (exp 0)); [|rewrite exp_0; lra].
    assert (H : - c ^ 2 / 2 <= 0) by nra. destruct H as [H | H]; [apply Rlt_le, exp_increasing, H|rewrite H; lra]. }
  assert (A := Rabs_pos (x - y)). nra.
Qed.
Lemma near_cdf lm k x d a : cdf_accurate lm -> near k x d a -> near (S (S k)) (l_cdf lm x) (Phi d) (1 + a).
Proof.
  intros HA N. assert (A0 := near_size _ _ _ _ N). destruct N as (v & E & D & B). destruct (HA _ _ E) as (w & Ew & _ & DW). rewrite w52 in DW. exists w. split; [exact Ew|]. assert (PR := Phi_range d). split; [|rewrite Rabs_right; lra].
  replace (w - Phi d) with ((w - Phi v) + (Phi v - Phi d)) by ring. eapply Rle_trans; [apply Rabs_triang|]. assert (L := Phi_lipschitz v d). rewrite !up_S. assert (U := up_ge1 k). assert (P := uro_pos). 
  set (W := up k) in *. set (e := 2 * uro + uro * uro). assert (e2 : 2 * uro <= e) by (unfold e; nra). replace ((W * (1 + uro) * (1 + uro) - 1) * (1 + a)) with ((W - 1) * (1 + a) + W * (1 + a) * e) by (unfold e; ring).
  assert (X1 : 1 <= W * (1 + a)) by nra. assert (X2 : e <= W * (1 + a) * e) by nra. assert (X3 : (W - 1) * a <= (W - 1) * (1 + a)) by nra. lra.
Qed.
