(** * Binary64 versions, continued: anomaly scores; a rounding error that breaks the DCC correlation range *)
From Coq Require Import Reals ZArith List Lia Lra Psatz Bool Arith.
From Flocq Require Import Core BinarySingleNaN.
From Verif Require Import Arith XR Float64 Float64b Props_float Props_float2 Model_iforest Model_mgarch Model_lrmes.
Import ListNotations.
Local Open Scope R_scope.

(** ** C58: anomaly scores are NaN or in [0,1] *)
Lemma gamma64 : xleb (Fin (9/16)) (val (fdiv (fofZ 57721566490153286) (fofZ (10 ^ 17)))) = true.
Proof.
  rewrite val_fin by (vm_compute; reflexivity). apply xleb_true. rewrite <- SF2R_B2SF.
  assert (E : B2SF (fdiv (fofZ 57721566490153286) (fofZ (10 ^ 17))) = SpecFloat.S754_finite false 5199096506725913 (-53)) by (vm_compute; reflexivity).
  rewrite E. unfold SF2R, F2R. simpl. lra.
Qed.
#[local] Opaque fadd fsub fmul fdiv fsqrt fofZ val.
(** the library's logarithm is at least 1/2 from 2 on *)
Definition log2_half (lm : libm) : Prop := forall x, xleb (Fin 2) (val x) = true -> xleb (Fin (1/2)) (val (l_log lm x)) = true.
(** 2 ** y lies in [0,1] for y <= 0 *)
Definition pow2_sane (lm : libm) : Prop :=
  forall x y, val x = Fin 2 -> (val y = NaN \/ xleb (val y) (Fin 0) = true) -> within_or_nan 0 1 (val (l_pow lm x y)).
Lemma fmt_dyadic m e : (Z.abs m <= 2 ^ 53)%Z -> (-1000 <= e <= 900)%Z -> fmt (IZR m * bpow radix2 e) /\ Rabs (IZR m * bpow radix2 e) < bpow radix2 1024.
Proof.
  intros Hm He. destruct (fmt_scaled (Z.abs_nat m) e) as [F B]; [lia|lia|].
  replace (INR (Z.abs_nat m)) with (IZR (Z.abs m)) in * by (rewrite INR_IZR_INZ, Zabs2Nat.id_abs; auto).
  destruct (Z.abs_eq_or_opp m) as [A|A]; rewrite A in *; auto. rewrite opp_IZR, Ropp_mult_distr_l_reverse in *. split.
  - apply generic_format_opp in F. rewrite Ropp_involutive in F. auto.
  - rewrite Rabs_Ropp in B. auto.
Qed.
Ltac dyadic m e := let F := fresh "F" in let B := fresh "B" in
  destruct (fmt_dyadic m e) as [F B]; [simpl; lia|lia|].
Lemma avg_path64 lm n : log_sane lm -> log2_half lm -> (2 <= n)%nat -> (Z.of_nat n <= 2 ^ 53)%Z ->
  xleb (Fin (1/8)) (val (averagePathLength (B64 lm) n)) = true.
Proof.
  intros (L1 & L2 & L3) LH Hn HB. unfold averagePathLength, euler_gamma. cbn [ofZ nsub nadd nmul ndiv nlog lit B64].
  assert (En : val (fofZ (Z.of_nat n)) = Fin (IZR (Z.of_nat n))) by (apply val_ofZ_small; lia).
  assert (E1 : val (fofZ 1) = Fin 1) by (apply val_ofZ_small; simpl; lia). assert (E2 : val (fofZ 2) = Fin 2) by (apply val_ofZ_small; simpl; lia).
  set (m := fsub (fofZ (Z.of_nat n)) (fofZ 1)).
  assert (Em : val m = Fin (IZR (Z.of_nat n - 1))).
  { unfold m. rewrite (val_sub _ _ _ _ En E1), <- minus_IZR. destruct (fmt_Z (Z.of_nat n - 1)) as [F B]; [lia|]. apply RN_fmt; auto. }
  assert (Hm1 : 1 <= IZR (Z.of_nat n - 1)) by (apply IZR_le; lia).
  assert (G := gamma64). change (10 ^ 17)%Z with (Z.pos (10 ^ 17)) in G. set (g := fdiv (fofZ 57721566490153286) (fofZ (Z.pos (10 ^ 17)))) in *. clearbody g. clearbody m.
  destruct (L3 m _ Em) as [l El]; [lra|].
  assert (L0 : 0 <= l) by (assert (H := L1 m); rewrite Em, El in H; apply xleb_iff, H, xleb_true; lra).
  (* the term that is subtracted *)
  assert (E2m : val (fmul (fofZ 2) m) = Fin (2 * IZR (Z.of_nat n - 1))).
  { rewrite (val_mul _ _ _ _ E2 Em). destruct (fmt_scaled (n - 1) 1) as [F B]; [lia|lia|].
    replace (INR (n - 1) * bpow radix2 1) with (2 * IZR (Z.of_nat n - 1)) in *; [apply RN_fmt; auto|].
    rewrite INR_IZR_INZ. replace (Z.of_nat (n - 1)) with (Z.of_nat n - 1)%Z by lia. replace (bpow radix2 1) with 2 by (simpl; lra). ring. }
  assert (Nn : IZR (Z.of_nat n) <> 0) by (apply not_0_IZR; lia).
  assert (Eq := val_div _ _ _ _ E2m En Nn). set (q := fdiv (fmul (fofZ 2) m) (fofZ (Z.of_nat n))) in *. clearbody q.
  (* the first term *)
  assert (HD : forall c, fmt c -> Rabs c < bpow radix2 1024 -> fmt (2 * c) -> Rabs (2 * c) < bpow radix2 1024 -> 0 <= c -> c <= l + 9/16 -> 
    xleb (Fin (2 * c)) (val (fmul (fofZ 2) (fadd (l_log lm m) g))) = true).
  { intros c Fc Bc F2c B2c Hc Hlc. assert (S : xleb (Fin c) (val (fadd (l_log lm m) g)) = true).
    { rewrite val_fadd, El. destruct (val g) as [gr| | |]; try discriminate; auto. apply xleb_iff in G. simpl. apply RN_ge; auto. lra. }
    rewrite val_fmul, E2. destruct (val (fadd (l_log lm m) g)) as [s| | |]; try discriminate; simpl.
    - apply xleb_iff in S. apply RN_ge; auto. lra.
    - rewrite xsgn_inf_pos by lra. auto. }
  set (d := fmul (fofZ 2) (fadd (l_log lm m) g)) in *. clearbody d.
  assert (K : forall c u, xleb (Fin c) (val d) = true -> val q = Fin u -> u <= c - 1/8 -> xleb (Fin (1/8)) (val (fsub d q)) = true).
  { intros c u H1 H2 H3. rewrite val_fsub, H2. destruct (val d) as [x| | |]; try discriminate; auto. apply xleb_iff in H1. simpl.
    dyadic 1%Z (-3)%Z. replace (1 * bpow radix2 (-3)) with (1/8) in * by (simpl; lra). apply RN_ge; auto. lra. }
  destruct (Nat.eq_dec n 2) as [->|N2].
  - apply (K (2 * (9/16)) 1); [| |lra].
    + dyadic 9%Z (-4)%Z. replace (9 * bpow radix2 (-4)) with (9/16) in * by (simpl; lra).
      dyadic 9%Z (-3)%Z. replace (9 * bpow radix2 (-3)) with (2 * (9/16)) in * by (simpl; lra). apply HD; auto; lra.
    + rewrite Eq. replace (2 * IZR (Z.of_nat 2 - 1) / IZR (Z.of_nat 2)) with 1 by (simpl; field). destruct (fmt_Z 1) as [F B]; [simpl; lia|]. apply RN_fmt; auto.
  - assert (LL : 1/2 <= l).
    { assert (H := LH m). rewrite Em, El in H. apply xleb_iff, H, xleb_true. apply IZR_le. lia. }
    assert (Q : 2 * IZR (Z.of_nat n - 1) / IZR (Z.of_nat n) <= 2).
    { rewrite minus_IZR. assert (0 < IZR (Z.of_nat n)) by (apply IZR_lt; lia). apply Rmult_le_reg_r with (IZR (Z.of_nat n)); auto. unfold Rdiv. rewrite Rmult_assoc, Rinv_l by auto. lra. }
    assert (Q0 : 0 <= 2 * IZR (Z.of_nat n - 1) / IZR (Z.of_nat n)).
    { apply Rmult_le_pos; [lra|]. apply Rlt_le, Rinv_0_lt_compat, IZR_lt. lia. }
    destruct (fmt_Z 2) as [F2 B2]; [simpl; lia|]. destruct fmt_0 as [F0 B0].
    assert (U := RN_le _ 2 F2 B2 Q). assert (W := RN_ge _ 0 F0 B0 Q0).
    destruct (RN (2 * IZR (Z.of_nat n - 1) / IZR (Z.of_nat n))) as [u| | |] eqn:ER; try discriminate. apply xleb_iff in U.
    apply (K (2 * (17/16)) u); auto; [|lra].
    dyadic 17%Z (-4)%Z. replace (17 * bpow radix2 (-4)) with (17/16) in * by (simpl; lra).
    dyadic 17%Z (-3)%Z. replace (17 * bpow radix2 (-3)) with (2 * (17/16)) in * by (simpl; lra). apply HD; auto; lra.
Qed.
(** no leaf is larger than 2^53 observations *)
Fixpoint leaves_small {A} (t : tree A) : Prop :=
  match t with Leaf n => (Z.of_nat n <= 2 ^ 53)%Z | Node _ _ _ l r => leaves_small l /\ leaves_small r end.
Lemma path64 lm d ob t : log_sane lm -> log2_half lm -> leaves_small t -> forall len, nonneg_or_nan (val (pathLength (B64 lm) d ob t len)).
Proof.
  intros H1 H2. induction t as [n|at_ sp n l IHl r IHr]; intros HS len; cbn [pathLength].
  - destruct (Nat.leb_spec n 1); cbn [ofZ nadd B64]; [apply nn_ofZ; lia|]. apply nn_add; [apply nn_ofZ; lia|]. right.
    eapply xleb_trans; [|apply avg_path64; auto; lia]. apply xleb_true; lra.
  - destruct HS. destruct (score_left _ _ _ _ _); auto.
Qed.
Theorem C58_binary64 lm d treeSize forestSize trees ob :
  log_sane lm -> log2_half lm -> pow2_sane lm -> (2 <= treeSize)%nat -> (Z.of_nat treeSize <= 2 ^ 53)%Z -> Forall leaves_small trees ->
  within_or_nan 0 1 (val (anomalyScore (B64 lm) d treeSize forestSize trees ob)).
Proof.
  intros H1 H2 H3 HT HB HF. unfold anomalyScore. cbn [npow ndiv nopp nadd ofZ B64]. apply H3; [apply val_ofZ_small; simpl; lia|].
  set (total := fold_left _ _ _). assert (HN : nonneg_or_nan (val total)).
  { unfold total. assert (H0 : nonneg_or_nan (val (fofZ 0))) by (apply nn_ofZ; lia). revert H0. generalize (fofZ 0).
    induction HF as [|t ts Ht _ IH]; intros acc Ha; simpl; auto. apply IH. apply nn_add; auto. apply path64; auto. }
  assert (HA : nonneg_or_nan (val (fdiv total (fofZ (Z.of_nat forestSize))))) by (apply nn_div_ofZ; auto; lia).
  set (avg := fdiv total _) in *. clearbody avg. assert (HC := avg_path64 lm treeSize H1 H2 HT HB). set (c := averagePathLength _ _) in *. clearbody c.
  apply nn_cases in HA. destruct HA as [HA|HA].
  - left. apply fdiv_nan_l. rewrite val_opp, HA. reflexivity.
  - destruct (val c) as [cr| | |] eqn:Ec; try discriminate.
    + right. rewrite val_fdiv by (rewrite Ec; intros E; injection E as E; apply xleb_iff in HC; lra). rewrite val_opp, Ec.
      apply xleb_iff in HC. destruct HA as [->|(r & -> & Hr)]; simpl.
      * destruct (Rlt_dec cr 0); [lra|]. reflexivity.
      * destruct (Req_EM_T cr 0); [lra|]. destruct fmt_0. apply RN_le; auto. unfold Rdiv. assert (0 < / cr) by (apply Rinv_0_lt_compat; lra). nra.
    + destruct HA as [HA|(r & HA & Hr)].
      * left. rewrite val_fdiv by (rewrite Ec; discriminate). rewrite val_opp, HA, Ec. reflexivity.
      * right. rewrite val_fdiv by (rewrite Ec; discriminate). rewrite val_opp, HA, Ec. simpl. rewrite RN_0. apply xleb_true; lra.
Qed.
