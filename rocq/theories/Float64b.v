(** * Rounding-robust facts: signs, bounds and sums in binary64 *)
From Coq Require Import Reals ZArith List Lia Lra Psatz Bool Arith.
From Flocq Require Import Core BinarySingleNaN.
From Verif Require Import Arith XR Float64.
Import ListNotations.
Local Open Scope R_scope.

(** ** The order on extended reals *)
Lemma xleb_refl v : v <> NaN -> xleb v v = true.
Proof. destruct v; intros; try congruence; auto. apply xleb_true; lra. Qed.
Lemma xleb_trans a b c : xleb a b = true -> xleb b c = true -> xleb a c = true.
Proof.
  destruct a, b, c; try reflexivity; try discriminate; intros H1 H2; try (apply xleb_iff in H1); try (apply xleb_iff in H2); try apply xleb_true; lra.
Qed.
Lemma xltb_leb a b : xltb a b = true -> xleb a b = true.
Proof. unfold xleb. intros ->. reflexivity. Qed.
Lemma xltb_not_leb a b : a <> NaN -> b <> NaN -> xltb a b = false -> xleb b a = true.
Proof.
  intros Ha Hb H. destruct a as [a| | |], b as [b| | |]; try reflexivity; try discriminate; try congruence.
  apply xleb_true. destruct (Rle_lt_dec b a); auto. rewrite xltb_true in H by auto. discriminate.
Qed.
Lemma xleb_nan_l a b : xleb a b = true -> a <> NaN.
Proof. destruct a; try discriminate. Qed.
Lemma xleb_nan_r a b : xleb a b = true -> b <> NaN.
Proof. destruct a, b; discriminate. Qed.

(** "NaN or at least 0", "NaN or in [lo, hi]" *)
Definition nonneg_or_nan (v : xr) : Prop := v = NaN \/ xleb (Fin 0) v = true.
Definition within_or_nan (lo hi : R) (v : xr) : Prop := v = NaN \/ exists r, v = Fin r /\ lo <= r <= hi.
Lemma nn_cases v : nonneg_or_nan v -> v = NaN \/ v = PInf \/ exists r, v = Fin r /\ 0 <= r.
Proof. intros [->|H]; auto. right. destruct v; try discriminate; auto. apply xleb_iff in H. eauto. Qed.
Lemma nn_fin r : nonneg_or_nan (Fin r) <-> 0 <= r.
Proof. unfold nonneg_or_nan. rewrite xleb_iff. split; [intros [|]; [discriminate|auto]|auto]. Qed.
Lemma nn_nan : nonneg_or_nan NaN. Proof. left; auto. Qed.
Lemma nn_pinf : nonneg_or_nan PInf. Proof. right; auto. Qed.
Lemma fmt_0 : fmt 0 /\ Rabs 0 < bpow radix2 1024.
Proof. apply (fmt_Z 0). simpl; lia. Qed.
Lemma nn_RN r : 0 <= r -> nonneg_or_nan (RN r).
Proof. intros H. right. destruct fmt_0. apply RN_ge; auto. Qed.
Lemma nn_xrn v : nonneg_or_nan v -> nonneg_or_nan (xrn v).
Proof. intros H. destruct v; simpl; auto. apply nn_RN. apply nn_fin; auto. Qed.
Lemma nn_add x y : nonneg_or_nan (val x) -> nonneg_or_nan (val y) -> nonneg_or_nan (val (fadd x y)).
Proof.
  intros Hx Hy. rewrite val_fadd. apply nn_xrn. apply nn_cases in Hx. apply nn_cases in Hy.
  destruct Hx as [->|[->|(a & -> & Ha)]], Hy as [->|[->|(b & -> & Hb)]]; simpl; try apply nn_nan; try apply nn_pinf. apply nn_fin; lra.
Qed.
Lemma nn_mul x y : nonneg_or_nan (val x) -> nonneg_or_nan (val y) -> nonneg_or_nan (val (fmul x y)).
Proof.
  intros Hx Hy. rewrite val_fmul. apply nn_xrn. apply nn_cases in Hx. apply nn_cases in Hy.
  destruct Hx as [->|[->|(a & -> & Ha)]], Hy as [->|[->|(b & -> & Hb)]]; simpl; try apply nn_nan; try apply nn_pinf.
  - destruct (Req_dec b 0); [subst; rewrite xsgn_inf_0; apply nn_nan|rewrite xsgn_inf_pos by lra; apply nn_pinf].
  - destruct (Req_dec a 0); [subst; rewrite xsgn_inf_0; apply nn_nan|rewrite xsgn_inf_pos by lra; apply nn_pinf].
  - apply nn_fin. apply Rmult_le_pos; auto.
Qed.
Lemma nn_div x y : nonneg_or_nan (val x) -> nonneg_or_nan (val y) -> val y <> Fin 0 -> nonneg_or_nan (val (fdiv x y)).
Proof.
  intros Hx Hy N. rewrite val_fdiv by auto. apply nn_xrn. revert N. apply nn_cases in Hx. apply nn_cases in Hy.
  destruct Hx as [->|[->|(a & -> & Ha)]], Hy as [->|[->|(b & -> & Hb)]]; intros N; simpl; try apply nn_nan; try apply nn_pinf.
  - destruct (Rlt_dec b 0); [lra|apply nn_pinf].
  - apply nn_fin; lra.
  - assert (b <> 0) by congruence. destruct (Req_EM_T b 0); [tauto|]. apply nn_fin. apply Rmult_le_pos; auto. apply Rlt_le, Rinv_0_lt_compat. lra.
Qed.
Lemma nn_abs x : nonneg_or_nan (val (Babs x)).
Proof. rewrite val_abs. destruct (val x); simpl; try apply nn_nan; try apply nn_pinf. apply nn_fin, Rabs_pos. Qed.
Lemma nn_ofZ z : (0 <= z)%Z -> nonneg_or_nan (val (fofZ z)).
Proof. intros H. rewrite val_ofZ. apply nn_RN. apply IZR_le; auto. Qed.
Lemma ofZ_ge1 z : (1 <= z)%Z -> xleb (Fin 1) (val (fofZ z)) = true.
Proof. intros H. rewrite val_ofZ. destruct (fmt_Z 1) as [F B]; [simpl; lia|]. apply RN_ge; auto. apply IZR_le; auto. Qed.
Lemma ofZ_nonzero z : (1 <= z)%Z -> val (fofZ z) <> Fin 0.
Proof. intros H E. assert (G := ofZ_ge1 z H). rewrite E in G. apply xleb_iff in G. lra. Qed.
(** a positive decimal literal is positive *)
Lemma lit_nn z d : (0 <= z)%Z -> nonneg_or_nan (val (fdiv (fofZ z) (fofZ (Zpos d)))).
Proof. intros H. apply nn_div; [apply nn_ofZ; auto|apply nn_ofZ; lia|apply ofZ_nonzero; lia]. Qed.

(** ** Sums of arrays, whatever the order *)
Lemma tree_sum_ind (P : nat -> xr -> Prop) s l :
  leaves s = length l ->
  (forall x, In x l -> P 1%nat (val x)) ->
  (forall m n x y, (0 < m)%nat -> (0 < n)%nat -> (m + n <= length l)%nat -> P m (val x) -> P n (val y) -> P (m + n)%nat (val (fadd x y))) ->
  P (length l) (val (tree_sum s l)).
Proof.
  revert l. induction s as [|a IHa b IHb]; intros l HL H1 HA; simpl in HL.
  - destruct l as [|x [|]]; try discriminate. simpl. apply H1. left; auto.
  - simpl. assert (La : length (firstn (leaves a) l) = leaves a) by (rewrite firstn_length; lia).
    assert (Lb : length (skipn (leaves a) l) = leaves b) by (rewrite skipn_length; lia).
    assert (Ga : forall t, (0 < leaves t)%nat) by (induction t; simpl; lia).
    replace (length l) with (leaves a + leaves b)%nat by lia. apply HA; auto; [lia| |].
    + rewrite <- La at 1. apply IHa; [lia| |].
      * intros x Hx. apply H1. rewrite <- (firstn_skipn (leaves a) l). apply in_or_app; auto.
      * rewrite La. intros; apply HA; auto; lia.
    + rewrite <- Lb at 1. apply IHb; [lia| |].
      * intros x Hx. apply H1. rewrite <- (firstn_skipn (leaves a) l). apply in_or_app; auto.
      * rewrite Lb. intros; apply HA; auto; lia.
Qed.
Lemma fsum_ind lm (P : nat -> xr -> Prop) l :
  P 0%nat (Fin 0) ->
  (forall x, In x l -> P 1%nat (val x)) ->
  (forall m n x y, (0 < m)%nat -> (0 < n)%nat -> (m + n <= length l)%nat -> P m (val x) -> P n (val y) -> P (m + n)%nat (val (fadd x y))) ->
  P (length l) (val (fsum lm l)).
Proof.
  intros H0 H1 HA. destruct l as [|x l'] eqn:E.
  - simpl. exact H0.
  - assert (HL : (0 < length l)%nat) by (subst; simpl; lia). rewrite <- E in *.
    replace (fsum lm l) with (tree_sum (l_order lm (length l)) l) by (subst l; reflexivity).
    apply tree_sum_ind; auto. apply l_order_ok; auto.
Qed.
Lemma fsum_nn lm l : (forall x, In x l -> nonneg_or_nan (val x)) -> nonneg_or_nan (val (fsum lm l)).
Proof.
  intros H. apply (fsum_ind lm (fun _ v => nonneg_or_nan v)); auto.
  - apply nn_fin; lra.
  - intros; apply nn_add; auto.
Qed.
(** no NaN can appear when the terms are at least 0 (possibly +inf) *)
Lemma add_ge0 x y : xleb (Fin 0) (val x) = true -> xleb (Fin 0) (val y) = true -> xleb (Fin 0) (val (fadd x y)) = true.
Proof.
  intros Hx Hy. rewrite val_fadd. destruct (val x) as [a| | |], (val y) as [b| | |]; try discriminate; auto.
  apply xleb_iff in Hx. apply xleb_iff in Hy. simpl. destruct fmt_0. apply RN_ge; auto; lra.
Qed.
Lemma fsum_ge0 lm l : (forall x, In x l -> xleb (Fin 0) (val x) = true) -> xleb (Fin 0) (val (fsum lm l)) = true.
Proof.
  intros H. apply (fsum_ind lm (fun _ v => xleb (Fin 0) v = true)); auto.
  - apply xleb_true; lra.
  - intros; apply add_ge0; auto.
Qed.
(** adding something >= 0 does not decrease *)
Lemma add_ge_l x y : val x <> NaN -> xleb (Fin 0) (val y) = true -> xleb (val x) (val (fadd x y)) = true \/ val (fadd x y) = NaN.
Proof.
  intros Hx Hy. rewrite val_fadd. destruct (val x) as [a| | |] eqn:Ex; try congruence; destruct (val y) as [b| | |]; try discriminate; auto.
  left. apply xleb_iff in Hy. simpl. destruct (val_fmt _ _ Ex). apply RN_ge; auto; lra.
Qed.
Lemma add_ge_l' x y : xleb (Fin 0) (val x) = true -> xleb (Fin 0) (val y) = true -> xleb (val x) (val (fadd x y)) = true.
Proof.
  intros Hx Hy. destruct (add_ge_l x y) as [H|H]; auto; [eapply xleb_nan_r; eauto|].
  assert (G := add_ge0 x y Hx Hy). rewrite H in G. discriminate.
Qed.
(** |terms| <= 2^k, at most 2^53 of them: no rounding error can push the sum beyond n * 2^k *)
Lemma fmt_scaled n k : (Z.of_nat n <= 2 ^ 53)%Z -> (-1000 <= k <= 900)%Z -> fmt (INR n * bpow radix2 k) /\ Rabs (INR n * bpow radix2 k) < bpow radix2 1024.
Proof.
  intros Hn Hk. destruct (fmt_Z (Z.of_nat n)) as [F _]; [lia|]. rewrite <- INR_IZR_INZ in F. split.
  - destruct (Nat.eq_dec n 0) as [->|Hn0]; [simpl; rewrite Rmult_0_l; apply generic_format_0|].
    destruct (Z.eq_dec (Z.of_nat n) (2 ^ 53)) as [E|E].
    + replace (INR n) with (bpow radix2 53) by (rewrite INR_IZR_INZ, E; reflexivity). rewrite <- bpow_plus.
      apply generic_format_bpow. unfold fexp64, SpecFloat.fexp, SpecFloat.emin. lia.
    + replace (INR n * bpow radix2 k) with (F2R (Float radix2 (Z.of_nat n) k)) by (unfold F2R; simpl; rewrite INR_IZR_INZ; ring).
      apply generic_format_FLT with (emin := (3 - 1024 - 53)%Z) (prec := 53%Z). exists (Float radix2 (Z.of_nat n) k); simpl; auto; lia.
  - rewrite Rabs_right.
    + apply Rle_lt_trans with (bpow radix2 53 * bpow radix2 k).
      * apply Rmult_le_compat_r; [apply bpow_ge_0|]. rewrite INR_IZR_INZ. replace (bpow radix2 53) with (IZR (2 ^ 53)) by reflexivity. apply IZR_le; auto.
      * rewrite <- bpow_plus. apply bpow_lt. lia.
    + apply Rle_ge, Rmult_le_pos; [apply pos_INR|apply bpow_ge_0].
Qed.
Lemma fsum_within lm k l : (Z.of_nat (length l) <= 2 ^ 53)%Z -> (-1000 <= k <= 900)%Z ->
  (forall x, In x l -> exists r, val x = Fin r /\ Rabs r <= bpow radix2 k) ->
  exists r, val (fsum lm l) = Fin r /\ Rabs r <= INR (length l) * bpow radix2 k.
Proof.
  intros HL Hk H. apply (fsum_ind lm (fun n v => exists r, v = Fin r /\ Rabs r <= INR n * bpow radix2 k)).
  - exists 0. split; auto. simpl. rewrite Rabs_R0. lra.
  - intros x Hx. destruct (H x Hx) as (r & E & Hr). exists r. split; auto. simpl. lra.
  - intros m n x y Hm Hn HLe (a & Ea & Ha) (b & Eb & Hb). rewrite val_fadd, Ea, Eb. simpl.
    destruct (fmt_scaled (m + n) k) as [F B]; [lia|auto|].
    assert (HA : Rabs (a + b) <= INR (m + n) * bpow radix2 k).
    { rewrite plus_INR, Rmult_plus_distr_r. eapply Rle_trans; [apply Rabs_triang|lra]. }
    apply Rabs_le_inv in HA.
    assert (U := RN_le (a + b) _ F B (proj2 HA)).
    assert (L : xleb (Fin (- (INR (m + n) * bpow radix2 k))) (RN (a + b)) = true).
    { apply RN_ge; [apply generic_format_opp; auto|rewrite Rabs_Ropp; auto|lra]. }
    destruct (RN (a + b)) as [r| | |] eqn:E; try discriminate. exists r. split; auto.
    apply xleb_iff in U. apply xleb_iff in L. apply Rabs_le; lra.
Qed.

(** ** The correctly rounded library: what a perfect libm would return. Shows that the contracts used below can be met. *)
Definition of_R (r : R) : b64 := binary_normalize 53 1024 _ _ mode_NE (Ztrunc (scaled_mantissa radix2 fexp64 (rnd r))) (cexp radix2 fexp64 (rnd r)) false.
Lemma RN_rnd r : RN (rnd r) = RN r.
Proof.
  unfold RN. rewrite (rnd_fmt (rnd r) (fmt_rnd r)). destruct (Rlt_bool_spec (Rabs (rnd r)) (bpow radix2 1024)); auto.
  assert (Z1 : 0 <= r -> 0 <= rnd r) by (intros Hr; rewrite <- rnd_0; apply rnd_mono; auto).
  assert (Z2 : r < 0 -> rnd r <= 0) by (intros Hr; rewrite <- rnd_0; apply rnd_mono; lra).
  assert (0 < bpow radix2 1024) by apply bpow_gt_0.
  destruct (Rlt_bool_spec (rnd r) 0), (Rlt_bool_spec r 0); auto.
  - specialize (Z1 ltac:(auto)). lra.
  - specialize (Z2 ltac:(auto)). assert (rnd r = 0) by lra. rewrite H3, Rabs_R0 in H. lra.
Qed.
Lemma val_of_R r : val (of_R r) = RN r.
Proof.
  rewrite <- (RN_rnd r). unfold of_R.
  generalize (binary_normalize_correct 53 1024 _ _ mode_NE (Ztrunc (scaled_mantissa radix2 fexp64 (rnd r))) (cexp radix2 fexp64 (rnd r)) false).
  cbv zeta. rewrite <- (fmt_rnd r : rnd r = F2R (Float radix2 (Ztrunc (scaled_mantissa radix2 fexp64 (rnd r))) (cexp radix2 fexp64 (rnd r)))).
  simpl round_mode. unfold RN. fold (rnd (rnd r)).
  destruct (Rlt_bool (Rabs (rnd (rnd r))) _) eqn:E.
  - intros (H1 & H2 & _). rewrite val_fin by auto. rewrite H1. reflexivity.
  - intros H1. rewrite (overflow_val _ _ H1). reflexivity.
Qed.
Definition of_xr (v : xr) : b64 :=
  match v with Fin r => of_R r | PInf => B754_infinity false | MInf => B754_infinity true | NaN => B754_nan end.
Lemma val_of_xr v : val (of_xr v) = xrn v.
Proof. destruct v; simpl; auto. apply val_of_R. Qed.
Fixpoint left_to_right (n : nat) : shape := match n with O | 1%nat => One | S m => Join (left_to_right m) One end.
Lemma left_to_right_ok n : (0 < n)%nat -> leaves (left_to_right n) = n.
Proof. induction n as [|[|n] IH]; intros H; try lia; auto. change (leaves (left_to_right (S n)) + 1 = S (S n))%nat. rewrite IH by lia. lia. Qed.
Definition perfect_libm : libm :=
  mkLibm (fun x => of_xr (xlog (val x))) (fun x => of_xr (xexp (val x))) (fun x => of_xr (xsq (val x)))
    (fun x y => of_xr (xpow (val x) (val y))) (fun x => of_xr (xncdf (val x))) (of_R PI) left_to_right left_to_right_ok.

(** contracts of the library functions, used as hypotheses *)
Definition log_sane (lm : libm) : Prop :=
  (forall x, xleb (Fin 1) (val x) = true -> xleb (Fin 0) (val (l_log lm x)) = true) /\
  (forall x y, xltb (Fin 0) (val x) = true -> xleb (val x) (val y) = true -> xleb (val (l_log lm x)) (val (l_log lm y)) = true) /\
  (forall x r, val x = Fin r -> 0 < r -> exists l, val (l_log lm x) = Fin l).
Definition sq_sane (lm : libm) : Prop := forall x, nonneg_or_nan (val (l_sq lm x)).
Definition exp_sane (lm : libm) : Prop := forall x, nonneg_or_nan (val (l_exp lm x)).
Lemma RN_finite r m : Rabs r <= bpow radix2 m -> (-1000 <= m < 1024)%Z -> exists v, RN r = Fin v.
Proof.
  intros H Hm. assert (F : fmt (bpow radix2 m)) by (apply generic_format_bpow; unfold fexp64, SpecFloat.fexp, SpecFloat.emin; lia).
  assert (B : Rabs (bpow radix2 m) < bpow radix2 1024) by (rewrite Rabs_right; [apply bpow_lt; lia|apply Rle_ge, bpow_ge_0]).
  apply Rabs_le_inv in H. assert (U := RN_le r _ F B (proj2 H)).
  assert (L : xleb (Fin (- bpow radix2 m)) (RN r) = true) by (apply RN_ge; [apply generic_format_opp; auto|rewrite Rabs_Ropp; auto|lra]).
  destruct (RN r); try discriminate; eauto.
Qed.
Lemma pos_range x r : val x = Fin r -> 0 < r -> bpow radix2 (-1074) <= r < bpow radix2 1024.
Proof.
  intros E Hr. destruct (val_fmt _ _ E) as [_ B]. apply val_finite_inv in E as [F <-]. rewrite Rabs_right in B by lra. split; auto.
  rewrite <- (Rabs_right (B2R x)) by lra. apply (abs_B2R_ge_emin 53 1024). destruct x as [|[]| |]; simpl in *; auto; lra.
Qed.
Lemma ln_bpow e : ln (bpow radix2 e) = IZR e * ln 2.
Proof. rewrite bpow_powerRZ. simpl. rewrite powerRZ_Rpower by lra. unfold Rpower. apply ln_exp. Qed.
Lemma ln2_bounds : 0 < ln 2 <= 1.
Proof.
  split; [rewrite <- ln_1; apply ln_increasing; lra|]. rewrite <- (ln_exp 1). apply Rlt_le, ln_increasing; [lra|].
  assert (H := exp_ineq1 1 ltac:(lra)). lra.
Qed.
Lemma perfect_log : log_sane perfect_libm.
Proof.
  split; [|split].
  - intros x H. simpl. rewrite val_of_xr. destruct (val x) as [r| | |]; try discriminate; auto. apply xleb_iff in H.
    rewrite xlog_fin by lra. simpl. destruct fmt_0. apply RN_ge; auto. rewrite <- ln_1. destruct H as [H|H]; [apply Rlt_le, ln_increasing; lra|rewrite H; lra].
  - intros x y Hx Hxy. simpl. rewrite !val_of_xr. destruct (val x) as [r| | |] eqn:Ex; try discriminate.
    + apply xltb_iff in Hx. destruct (val y) as [s| | |] eqn:Ey; try discriminate.
      * apply xleb_iff in Hxy. rewrite !xlog_fin by lra. simpl. apply RN_mono. destruct Hxy as [Hxy|Hxy]; [apply Rlt_le, ln_increasing; lra|rewrite Hxy; lra].
      * rewrite xlog_fin by lra. simpl. destruct (RN (ln r)) eqn:E; auto. elim (RN_not_nan _ E).
    + destruct (val y); try discriminate. reflexivity.
  - intros x r E Hr. simpl. rewrite val_of_xr, E, xlog_fin by auto. simpl. destruct (pos_range _ _ E Hr) as [L U].
    apply RN_finite with 11%Z; [|lia]. assert (P := bpow_gt_0 radix2 (-1074)). assert (B2 := ln2_bounds).
    assert (LU : ln r < ln (bpow radix2 1024)) by (apply ln_increasing; auto).
    assert (LL : ln (bpow radix2 (-1074)) <= ln r) by (destruct L as [L|L]; [apply Rlt_le, ln_increasing; auto|rewrite L; lra]).
    rewrite ln_bpow in LU, LL. replace (bpow radix2 11) with 2048 by (simpl; lra). apply Rabs_le. split; nra.
Qed.
Lemma perfect_sq : sq_sane perfect_libm.
Proof.
  intros x. simpl. rewrite val_of_xr. apply nn_xrn. destruct (val x); simpl; try apply nn_nan; try apply nn_pinf. apply nn_fin. nra.
Qed.
Lemma perfect_exp : exp_sane perfect_libm.
Proof.
  intros x. simpl. rewrite val_of_xr. apply nn_xrn. destruct (val x); simpl; try apply nn_nan; try apply nn_pinf; apply nn_fin; [apply Rlt_le, exp_pos|lra].
Qed.
Lemma val_fdiv_0 x y : val y = Fin 0 -> val (fdiv x y) = NaN \/ val (fdiv x y) = PInf \/ val (fdiv x y) = MInf.
Proof. intros H. apply fzero_val in H. destruct y; try discriminate. destruct x as [|[]| |[]], s; simpl; auto. Qed.
(** dividing by a converted non-negative integer (whose zero is +0) keeps the sign *)
Lemma nn_div_ofZ x z : (0 <= z)%Z -> nonneg_or_nan (val x) -> nonneg_or_nan (val (fdiv x (fofZ z))).
Proof.
  intros Hz Hx. destruct (Z.eq_dec z 0) as [->|H0].
  - destruct x as [|[]| |[] m e h]; try apply nn_nan; try apply nn_pinf; auto.
    exfalso. simpl val in Hx. apply nn_cases in Hx as [H|[H|(r & H & Hr)]]; try discriminate. injection H as <-.
    destruct (fin_sign true m e h) as (_ & _ & N). specialize (N eq_refl). unfold B2R in N. simpl in *. lra.
  - apply nn_div; auto; [apply nn_ofZ; auto|apply ofZ_nonzero; lia].
Qed.
(** a sum of terms that are each NaN or at least 0 is NaN or at least every one of them *)
Lemma tree_sum_ge s l x : leaves s = length l -> (forall y, In y l -> nonneg_or_nan (val y)) -> In x l ->
  val (tree_sum s l) = NaN \/ xleb (val x) (val (tree_sum s l)) = true.
Proof.
  revert l. induction s as [|a IHa b IHb]; intros l HL H Hx; simpl in HL.
  - destruct l as [|y [|]]; try discriminate. simpl. destruct Hx as [<-|[]]. destruct (val y) eqn:E; auto; right; rewrite ?xleb_refl; auto; discriminate.
  - simpl. assert (La : length (firstn (leaves a) l) = leaves a) by (rewrite firstn_length; lia).
    assert (Lb : length (skipn (leaves a) l) = leaves b) by (rewrite skipn_length; lia).
    assert (HF : forall y, In y (firstn (leaves a) l) -> nonneg_or_nan (val y)) by (intros y Hy; apply H; rewrite <- (firstn_skipn (leaves a) l); apply in_or_app; auto).
    assert (HS : forall y, In y (skipn (leaves a) l) -> nonneg_or_nan (val y)) by (intros y Hy; apply H; rewrite <- (firstn_skipn (leaves a) l); apply in_or_app; auto).
    assert (NA : nonneg_or_nan (val (tree_sum a (firstn (leaves a) l)))).
    { apply (tree_sum_ind (fun _ v => nonneg_or_nan v)); auto. intros; apply nn_add; auto. }
    assert (NB : nonneg_or_nan (val (tree_sum b (skipn (leaves a) l)))).
    { apply (tree_sum_ind (fun _ v => nonneg_or_nan v)); auto. intros; apply nn_add; auto. }
    set (u := tree_sum a (firstn (leaves a) l)) in *. set (v := tree_sum b (skipn (leaves a) l)) in *.
    destruct NA as [NA|NA]; [left; rewrite val_fadd, NA; destruct (val v); reflexivity|].
    destruct NB as [NB|NB]; [left; rewrite val_fadd, NB; destruct (val u); reflexivity|]. right.
    rewrite <- (firstn_skipn (leaves a) l) in Hx. apply in_app_or in Hx as [Hx|Hx].
    + destruct (IHa (firstn (leaves a) l)) as [E|E]; auto; fold u in E; [rewrite E in NA; discriminate|].
      eapply xleb_trans; [exact E|]. apply add_ge_l'; auto.
    + destruct (IHb (skipn (leaves a) l)) as [E|E]; auto; fold v in E; [rewrite E in NB; discriminate|].
      eapply xleb_trans; [exact E|].
      assert (C : val (fadd u v) = val (fadd v u)) by (rewrite !val_fadd; f_equal; destruct (val u), (val v); simpl; auto; f_equal; ring).
      rewrite C. apply add_ge_l'; auto.
Qed.
Lemma fsum_ge lm l x : (forall y, In y l -> nonneg_or_nan (val y)) -> In x l -> val (fsum lm l) = NaN \/ xleb (val x) (val (fsum lm l)) = true.
Proof.
  intros H Hx. destruct l as [|y l'] eqn:E; [destruct Hx|]. assert (HL : (0 < length l)%nat) by (subst; simpl; lia). rewrite <- E in *.
  replace (fsum lm l) with (tree_sum (l_order lm (length l)) l) by (subst l; reflexivity).
  apply tree_sum_ge; auto. apply l_order_ok; auto.
Qed.
(** x ** y of a base at least 0, and x ** 0 *)
Definition pow_sane (lm : libm) : Prop :=
  (forall x y, nonneg_or_nan (val x) -> nonneg_or_nan (val (l_pow lm x y))) /\
  (forall x y r, val x = Fin r -> 0 < r -> val y = Fin 0 -> val (l_pow lm x y) = Fin 1).
Lemma perfect_pow : pow_sane perfect_libm.
Proof.
  split.
  - intros x y H. simpl. rewrite val_of_xr. apply nn_xrn. apply nn_cases in H as [->|[->|(r & -> & Hr)]]; simpl; try apply nn_nan.
    destruct (val y) as [e| | |]; try apply nn_nan. destruct (total_order_T r 0) as [[|]|]; try apply nn_nan.
    + destruct (total_order_T e 0) as [[|]|]; try apply nn_pinf; apply nn_fin; lra.
    + apply nn_fin. apply Rlt_le, exp_pos.
  - intros x y r E Hr Ey. simpl. rewrite val_of_xr, E, Ey, xpow_fin by auto. rewrite Rpower_O by auto. simpl.
    destruct (fmt_Z 1) as [F B]; [simpl; lia|]. apply RN_fmt; auto.
Qed.
Lemma fdiv_nan_l x y : val x = NaN -> val (fdiv x y) = NaN.
Proof. intros H. apply val_nan in H. destruct x; try discriminate. destruct y as [|[]| |]; reflexivity. Qed.
Lemma fdiv_nan_r x y : val y = NaN -> val (fdiv x y) = NaN.
Proof. intros H. apply val_nan in H. destruct y; try discriminate. destruct x as [|[]| |]; reflexivity. Qed.
Lemma fdiv_0_0 x y : val x = Fin 0 -> val y = Fin 0 -> val (fdiv x y) = NaN.
Proof. intros H1 H2. apply fzero_val in H1. apply fzero_val in H2. destruct x; try discriminate. destruct y; try discriminate. reflexivity. Qed.
Lemma fmul_inf_0 x y : xisinf (val x) = true -> val y = Fin 0 -> val (fmul x y) = NaN.
Proof. intros H1 H2. rewrite val_fmul, H2. destruct (val x); try discriminate; simpl; rewrite xsgn_inf_0; reflexivity. Qed.
Lemma fmul_nan_l x y : val x = NaN -> val (fmul x y) = NaN.
Proof. intros H. rewrite val_fmul, H. reflexivity. Qed.
Lemma fadd_nan_l x y : val x = NaN -> val (fadd x y) = NaN.
Proof. intros H. rewrite val_fadd, H. reflexivity. Qed.
Lemma fadd_nan_r x y : val y = NaN -> val (fadd x y) = NaN.
Proof. intros H. rewrite val_fadd, H. destruct (val x); reflexivity. Qed.
(** 0 <= x <= y: the quotient x / y is NaN or in [0,1] *)
Lemma ratio_01 x y : xleb (Fin 0) (val x) = true -> xleb (val x) (val y) = true -> within_or_nan 0 1 (val (fdiv x y)).
Proof.
  intros H0 H1. destruct (val x) as [a| | |] eqn:Ex; try discriminate; destruct (val y) as [b| | |] eqn:Ey; try discriminate.
  - apply xleb_iff in H0. apply xleb_iff in H1. destruct (Req_dec b 0) as [->|N].
    + left. apply fdiv_0_0; auto. rewrite Ex. f_equal. lra.
    + right. rewrite (val_div _ _ _ _ Ex Ey N). destruct fmt_0 as [F0 B0]. destruct (fmt_Z 1) as [F1 B1]; [simpl; lia|].
      assert (Q : 0 <= a / b <= 1).
      { split; [apply Rmult_le_pos; auto; apply Rlt_le, Rinv_0_lt_compat; lra|]. apply Rmult_le_reg_r with b; [lra|]. unfold Rdiv. rewrite Rmult_assoc, Rinv_l by auto. lra. }
      assert (U := RN_le _ 1 F1 B1 (proj2 Q)). assert (L := RN_ge _ 0 F0 B0 (proj1 Q)).
      destruct (RN (a / b)) as [v| | |]; try discriminate. exists v. apply xleb_iff in U. apply xleb_iff in L. auto.
  - right. exists 0. rewrite val_fdiv by (rewrite Ey; discriminate). rewrite Ex, Ey. simpl. rewrite RN_0. split; [auto|lra].
  - left. rewrite val_fdiv by (rewrite Ey; discriminate). rewrite Ex, Ey. reflexivity.
Qed.
