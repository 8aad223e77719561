(** * What survives rounding: theorems about the binary64 instance [B64 lm]

    [B64 lm] is the model of the code run on IEEE-754 binary64 (Flocq) with an arbitrary maths library [lm] and an arbitrary order of
    summation; [val] reads a binary64 number as an extended real.  Each theorem belongs to the property in its name and restates it for the
    numbers the program really computes with, NaN and overflow included; [perfect_libm] shows the contracts on the library can be met. *)
From Coq Require Import Reals ZArith List Lia Lra Psatz Bool Arith.
From Flocq Require Import Core BinarySingleNaN.
From Verif Require Import Arith XR Float64 Float64b Model_garch Spec_garch Proofs_garch Props_garch Model_measures Model_micro Model_pin Model_dip Model_lrmes Model_mgarch Model_iforest.
Import ListNotations.
Local Open Scope R_scope.
#[local] Opaque fadd fsub fmul fdiv fsqrt fofZ val.

(** ** C01, C04: conditional variances *)
(** a bounds row: 0 <= lower <= upper, upper not zero (either may be +inf) *)
Definition row64 (b : b64 * b64) : Prop :=
  xleb (Fin 0) (val (fst b)) = true /\ xleb (val (fst b)) (val (snd b)) = true /\ val (snd b) <> Fin 0.
Lemma bounds_check64 lm s b : log_sane lm -> row64 b -> xleb (val (fst b)) (val (bounds_check_py (B64 lm) s b)) = true.
Proof.
  intros (HL & _ & _) (H0 & H1 & H2). destruct b as [l u]. cbn [fst snd] in *. unfold bounds_check_py, pymax. cbn [fst snd nltb B64 nlog nadd ndiv ofZ isinf].
  assert (NL := xleb_nan_r _ _ H0). assert (NU := xleb_nan_r _ _ H1).
  set (m := if Bltb l s then s else l).
  assert (HM : xleb (val l) (val m) = true).
  { unfold m. rewrite val_ltb. destruct (xltb (val l) (val s)) eqn:E; [apply xltb_leb; auto|apply xleb_refl; auto]. }
  change (@Bltb 53 1024 u m) with (Bltb u m). rewrite val_ltb. destruct (xltb (val u) (val m)) eqn:EU; auto.
  assert (U0 : xleb (Fin 0) (val u) = true) by (eapply xleb_trans; eauto).
  rewrite val_isinf. destruct (xisinf (val m)) eqn:EI; cbn [negb].
  - eapply xleb_trans; [exact H1|]. apply add_ge_l'; auto. eapply xleb_trans; [|apply ofZ_ge1; lia]. apply xleb_true; lra.
  - eapply xleb_trans; [exact H1|]. apply add_ge_l'; auto. apply HL.
    rewrite val_fdiv by auto. destruct (val m) as [r| | |]; try discriminate; try (destruct (val u); discriminate).
    destruct (val u) as [v| | |]; try discriminate. apply xltb_iff in EU. apply xleb_iff in U0.
    assert (v <> 0) by (intros ->; auto). rewrite xdiv_fin by auto. simpl. destruct (fmt_Z 1) as [F B]; [simpl; lia|]. apply RN_ge; auto.
    apply Rmult_le_reg_r with v; [lra|]. unfold Rdiv. rewrite Rmult_assoc, Rinv_l by auto. lra.
Qed.
(** From the second day on every conditional variance is a number (never NaN) and at least the lower bound of its row, whatever the parameters
    and residuals are - including NaN, infinities and overflow in the recursion. *)
Theorem C01_binary64 lm k params rs bc bs s d db :
  log_sane lm -> compute_variance (B64 lm) k params rs bc bs = Ok s -> Forall row64 (tl bs) ->
  forall t, (0 < t < length rs)%nat -> xleb (val (fst (nth t bs (db, db)))) (val (nth t s d)) = true.
Proof.
  intros HL E HB [|t] Ht; [lia|].
  assert (LB : (length rs <= S (length (tl bs)))%nat) by (apply (proj1 (C02_defined (B64 lm) k params rs bc bs)); eauto).
  destruct (proj1 (C02_defined (B64 lm) k params rs bc bs) (ex_intro _ s E)) as (HP & _ & _).
  assert (HR : row64 (nth (S t) bs (db, db))).
  { destruct bs as [|b0 bs]; simpl in *; [lia|]. rewrite Forall_forall in HB. apply HB, nth_In. lia. }
  destruct k; simpl in HP.
  - destruct params as [|w [|a1 [|b1 [|]]]]; try discriminate.
    destruct (C02_garch_recursion (B64 lm) _ _ _ _ _ _ _ d (db, db) E) as (_ & _ & R). rewrite R by lia. apply bounds_check64; auto.
  - destruct params as [|w [|a1 [|g1 [|b1 [|]]]]]; try discriminate.
    destruct (C02_gjr_recursion (B64 lm) _ _ _ _ _ _ _ _ d (db, db) E) as (_ & _ & R). rewrite R by lia. apply bounds_check64; auto.
Qed.
(** The first variance: with parameters and backcast at least 0 it is NaN or at least 0; it is at least omega unless NaN. *)
Theorem C01_binary64_first lm params rs bc bs s omega alpha beta d :
  params = [omega; alpha; beta] -> garch_variance_py (B64 lm) params rs bc bs = Ok s ->
  xleb (Fin 0) (val omega) = true -> nonneg_or_nan (val alpha) -> nonneg_or_nan (val beta) -> nonneg_or_nan (val bc) ->
  val (nth 0 s d) = NaN \/ xleb (val omega) (val (nth 0 s d)) = true.
Proof.
  intros -> E Ho Ha Hb Hc. destruct (C02_garch_recursion (B64 lm) _ _ _ _ _ _ _ d (d, d) E) as (_ & -> & _).
  cbn [nadd nmul B64].
  assert (N : nonneg_or_nan (val (fmul (fadd alpha beta) bc))) by (apply nn_mul; auto; apply nn_add; auto).
  destruct N as [N|N].
  - left. rewrite val_fadd, N. destruct (val omega); reflexivity.
  - right. apply add_ge_l'; auto.
Qed.
Theorem C01_binary64_first_gjr lm params rs bc bs s omega alpha gamma beta d :
  params = [omega; alpha; gamma; beta] -> gjr_variance_py (B64 lm) params rs bc bs = Ok s ->
  xleb (Fin 0) (val omega) = true -> nonneg_or_nan (val alpha) -> nonneg_or_nan (val gamma) -> nonneg_or_nan (val beta) -> nonneg_or_nan (val bc) ->
  val (nth 0 s d) = NaN \/ xleb (val omega) (val (nth 0 s d)) = true.
Proof.
  intros -> E Ho Ha Hg Hb Hc. destruct (C02_gjr_recursion (B64 lm) _ _ _ _ _ _ _ _ d (d, d) E) as (_ & -> & _).
  cbn [nadd nmul ndiv ofZ B64].
  assert (N : nonneg_or_nan (val (fmul (fadd (fadd alpha (fdiv gamma (fofZ 2))) beta) bc))).
  { apply nn_mul; auto. apply nn_add; auto. apply nn_add; auto. apply nn_div_ofZ; auto; lia. }
  destruct N as [N|N].
  - left. rewrite val_fadd, N. destruct (val omega); reflexivity.
  - right. apply add_ge_l'; auto.
Qed.
(** C04: clamping a variance never goes below the lower bound, and leaves a variance within the bounds untouched bit for bit. *)
Theorem C04_binary64 lm s b : log_sane lm -> row64 b ->
  xleb (val (fst b)) (val (bounds_check_py (B64 lm) s b)) = true /\
  (xltb (val (fst b)) (val s) = true -> xleb (val s) (val (snd b)) = true -> bounds_check_py (B64 lm) s b = s).
Proof.
  intros HL HB. split; [apply bounds_check64; auto|]. intros H1 H2. destruct b as [l u]. unfold bounds_check_py, pymax. cbn [nltb B64 fst snd] in *.
  rewrite (val_ltb l s), H1. rewrite (val_ltb u s).
  destruct (xltb (val u) (val s)) eqn:E; auto. exfalso.
  destruct (val s) as [r| | |], (val u) as [v| | |]; try discriminate. apply xleb_iff in H2. apply xltb_iff in E. lra.
Qed.
(** C04: monotone for finite variances *)
Theorem C04_binary64_monotone lm s s' b : log_sane lm -> row64 b ->
  xleb (val s) (val s') = true -> (exists r, val s' = Fin r) ->
  xleb (val (bounds_check_py (B64 lm) s b)) (val (bounds_check_py (B64 lm) s' b)) = true.
Proof.
  intros HL HR Hs [r' Er']. destruct b as [l u]. assert (HL' := HL). destruct HL' as (L1 & L2 & L3). assert (HR' := HR). destruct HR' as (H0 & H1 & H2). cbn [fst snd] in *.
  assert (NS := xleb_nan_l _ _ Hs). assert (NS' := xleb_nan_r _ _ Hs). assert (NL := xleb_nan_r _ _ H0). assert (NU := xleb_nan_r _ _ H1).
  assert (B := bounds_check64 lm s' (l, u) HL HR). unfold bounds_check_py, pymax in *. cbn [fst snd nltb B64 nlog nadd ndiv ofZ isinf] in *. change (num (B64 lm)) with b64 in *.
  set (m := if Bltb l s then s else l) in *. set (m' := if Bltb l s' then s' else l) in *.
  assert (HM : xleb (val m) (val m') = true).
  { unfold m, m'. rewrite !val_ltb. destruct (xltb (val l) (val s)) eqn:E1, (xltb (val l) (val s')) eqn:E2; auto.
    - eapply xleb_trans; [exact Hs|]. apply xltb_not_leb; auto.
    - apply xltb_leb; auto.
    - apply xleb_refl; auto. }
  rewrite (val_ltb u m), (val_ltb u m') in *. rewrite (val_isinf m), (val_isinf m') in *.
  assert (U0 : xleb (Fin 0) (val u) = true) by (eapply xleb_trans; eauto).
  destruct (xltb (val u) (val m)) eqn:E1, (xltb (val u) (val m')) eqn:E2; auto.
  - (* both above the upper bound: finite *)
    destruct (val u) as [v| | |] eqn:Eu; try discriminate; try (destruct (val m); discriminate).
    assert (Fm' : exists a, val m' = Fin a).
    { unfold m' in *. destruct (Bltb l s'); eauto. destruct (val l); try discriminate; eauto. }
    destruct Fm' as [a' Ea']. rewrite Ea' in *. cbn [xisinf negb] in *.
    assert (Fm : exists a, val m = Fin a) by (destruct (val m); try discriminate; eauto). destruct Fm as [a Ea]. rewrite Ea in *. cbn [xisinf negb] in *.
    apply xltb_iff in E1. apply xltb_iff in E2. apply xleb_iff in HM. apply xleb_iff in U0. assert (v <> 0) by (intros ->; auto).
    assert (D : forall m a, val m = Fin a -> val (fdiv m u) = RN (a / v)) by (intros; apply val_div; auto).
    assert (DV : xleb (val (fdiv m u)) (val (fdiv m' u)) = true).
    { rewrite (D _ _ Ea), (D _ _ Ea'). apply RN_mono. apply Rmult_le_compat_r; auto. apply Rlt_le, Rinv_0_lt_compat. lra. }
    assert (GE : xleb (Fin 1) (val (fdiv m u)) = true).
    { rewrite (D _ _ Ea). destruct (fmt_Z 1) as [F B1]; [simpl; lia|]. apply RN_ge; auto.
      apply Rmult_le_reg_r with v; [lra|]. unfold Rdiv. rewrite Rmult_assoc, Rinv_l by auto. lra. }
    assert (LG : xleb (val (l_log lm (fdiv m u))) (val (l_log lm (fdiv m' u))) = true).
    { apply L2; auto. destruct (val (fdiv m u)); try discriminate; auto. apply xleb_iff in GE. apply xltb_true. lra. }
    assert (G0 := L1 _ GE). rewrite !val_fadd, Eu.
    destruct (val (l_log lm (fdiv m u))) as [g| | |], (val (l_log lm (fdiv m' u))) as [g'| | |]; try discriminate; simpl; auto.
    + apply xleb_iff in LG. apply RN_mono. lra.
    + destruct (RN (v + g)) eqn:ER; auto. elim (RN_not_nan _ ER).
  - (* only one above: impossible order *)
    exfalso. destruct (val u) as [v| | |], (val m) as [a| | |], (val m') as [a'| | |]; try discriminate.
    apply xltb_iff in E1. apply xleb_iff in HM. rewrite xltb_true in E2 by lra. discriminate.
  - (* m within, m' above *)
    assert (MU : xleb (val m) (val u) = true).
    { apply xltb_not_leb; auto. apply (xleb_nan_l _ _ HM). }
    eapply xleb_trans; [exact MU|]. destruct (xisinf (val m')) eqn:EI; cbn [negb].
    + apply add_ge_l'; auto. eapply xleb_trans; [|apply ofZ_ge1; lia]. apply xleb_true; lra.
    + apply add_ge_l'; auto. apply L1. destruct (val u) as [v| | |] eqn:Eu; try discriminate; try (destruct (val m'); discriminate).
      destruct (val m') as [a'| | |] eqn:Ea'; try discriminate.
      apply xltb_iff in E2. apply xleb_iff in U0. assert (v <> 0) by (intros ->; auto).
      rewrite (val_div m' u a' v) by auto. destruct (fmt_Z 1) as [F B1]; [simpl; lia|]. apply RN_ge; auto.
      apply Rmult_le_reg_r with v; [lra|]. unfold Rdiv. rewrite Rmult_assoc, Rinv_l by auto. lra.
Qed.

Lemma in_removelast {X} (x : X) l : In x (removelast l) -> In x l.
Proof. induction l as [|y [|z l] IH]; [auto|intros []|]. intros [H|H]; [left; auto|right; apply IH; exact H]. Qed.
(** ** C05, C07: the EWMA and the variance bounds the code computes *)
Lemma ewma_loop_nn lm lam prev l : nonneg_or_nan (val lam) -> nonneg_or_nan (val (fsub (fofZ 1) lam)) -> nonneg_or_nan (val prev) ->
  Forall (fun x => nonneg_or_nan (val x)) l -> Forall (fun x => nonneg_or_nan (val x)) (ewma_loop (B64 lm) lam prev l).
Proof.
  intros H1 H2 H3 HF. revert prev H3. induction HF as [|x l Hx _ IH]; intros prev H3; cbn [ewma_loop]; [constructor|].
  assert (nonneg_or_nan (val (fadd (fmul lam prev) (fmul (fsub (fofZ 1) lam) x)))) by (apply nn_add; apply nn_mul; auto).
  constructor; auto.
Qed.
Lemma one_minus_nn x : xleb (val x) (Fin 1) = true -> nonneg_or_nan (val (fsub (fofZ 1) x)).
Proof.
  intros H. rewrite val_fsub, val_ofZ_small by (simpl; lia). destruct (val x) as [r| | |]; try discriminate; try apply nn_pinf.
  apply xleb_iff in H. simpl. apply nn_RN. lra.
Qed.
(** every entry of the smoothed variance is NaN or at least 0, for any residuals, a start at least 0 and 0 <= lambda <= 1 *)
Theorem C05_binary64 lm resids init lam l :
  sq_sane lm -> xleb (Fin 0) (val lam) = true -> xleb (val lam) (Fin 1) = true -> nonneg_or_nan (val init) ->
  ewma_py (B64 lm) resids init lam = Ok l -> Forall (fun x => nonneg_or_nan (val x)) l.
Proof.
  intros HS L0 L1 HI E. destruct resids as [|r rs]; [discriminate|]. unfold ewma_py in E. injection E as <-.
  constructor; auto. apply ewma_loop_nn; auto; [right; auto|apply one_minus_nn; auto|].
  apply Forall_forall. intros x Hx. assert (Hx' : In x (map (l_sq lm) (r :: rs))) by (apply in_removelast; exact Hx).
  apply in_map_iff in Hx' as (y & <- & _). apply HS.
Qed.
Lemma lit_range z d : (0 <= z <= Z.pos d)%Z -> (Z.pos d <= 2 ^ 53)%Z ->
  xleb (Fin 0) (val (fdiv (fofZ z) (fofZ (Z.pos d)))) = true /\ xleb (val (fdiv (fofZ z) (fofZ (Z.pos d)))) (Fin 1) = true.
Proof.
  intros Hz Hd. rewrite (val_div _ _ (IZR z) (IZR (Z.pos d))); try (apply val_ofZ_small; lia); [|apply not_0_IZR; lia].
  assert (P : 0 < IZR (Z.pos d)) by (apply IZR_lt; lia). assert (L : IZR z <= IZR (Z.pos d)) by (apply IZR_le; lia). assert (G : 0 <= IZR z) by (apply IZR_le; lia).
  destruct (fmt_Z 1) as [F B]; [simpl; lia|]. destruct fmt_0. split.
  - apply RN_ge; auto. apply Rmult_le_pos; auto. apply Rlt_le, Rinv_0_lt_compat; auto.
  - apply RN_le; auto. apply Rmult_le_reg_r with (IZR (Z.pos d)); auto. unfold Rdiv. rewrite Rmult_assoc, Rinv_l by lra. lra.
Qed.
Lemma Forall_map_nn (f : b64 -> b64) l : (forall x, nonneg_or_nan (val (f x))) -> Forall (fun x => nonneg_or_nan (val x)) (map f l).
Proof. intros H. apply Forall_forall. intros x Hx. apply in_map_iff in Hx as (y & <- & _). auto. Qed.
Lemma map2_nn (f : b64 -> b64 -> b64) l m : (forall x y, In x l -> In y m -> nonneg_or_nan (val (f x y))) -> forall x, In x (map2 f l m) -> nonneg_or_nan (val x).
Proof.
  revert m. induction l as [|a l IH]; intros [|b m] H x Hx; simpl in Hx; try tauto. destruct Hx as [<-|Hx].
  - apply H; simpl; auto.
  - apply (IH m); auto. intros; apply H; simpl; auto.
Qed.
Lemma npmax_nn lm a b : nonneg_or_nan (val a) -> nonneg_or_nan (val b) -> nonneg_or_nan (val (npmax (B64 lm) a b)).
Proof. intros; unfold npmax. cbn [isnan nltb B64]. destruct (is_nan a); auto. destruct (is_nan b); auto. destruct (Bltb a b); auto. Qed.
Lemma npmin_nn lm a b : nonneg_or_nan (val a) -> nonneg_or_nan (val b) -> nonneg_or_nan (val (npmin (B64 lm) a b)).
Proof. intros; unfold npmin. cbn [isnan nltb B64]. destruct (is_nan a); auto. destruct (is_nan b); auto. destruct (Bltb b a); auto. Qed.
Lemma avar_nn lm l : sq_sane lm -> nonneg_or_nan (val (avar (B64 lm) l)).
Proof.
  intros HS. unfold avar, amean. cbn [asum ndiv ofZ nsq B64]. apply nn_div_ofZ; [lia|]. apply fsum_nn. intros x Hx. apply in_map_iff in Hx as (y & <- & _). apply HS.
Qed.
Lemma decay_nn lm tau : pow_sane lm -> forall x, In x (decay_weights (B64 lm) tau) -> nonneg_or_nan (val x).
Proof. intros [HP _] x Hx. unfold decay_weights in Hx. apply in_map_iff in Hx as (y & <- & _). apply HP. apply lit_nn. lia. Qed.
Lemma first_weight lm tau : pow_sane lm -> exists l, decay_weights (B64 lm) (S tau) = l_pow lm (fdiv (fofZ 94) (fofZ 100)) (fofZ 0) :: l /\
  val (l_pow lm (fdiv (fofZ 94) (fofZ 100)) (fofZ 0)) = Fin 1.
Proof.
  intros [_ HP]. unfold decay_weights. simpl seq. simpl map. eexists. split; [reflexivity|].
  assert (E : val (fdiv (fofZ 94) (fofZ 100)) = RN (94 / 100)) by (apply val_div; try apply val_ofZ_small; simpl; try lia; lra).
  eapply HP with (r := B2R (fdiv (fofZ 94) (fofZ 100))).
  - apply val_fin. vm_compute. reflexivity.
  - rewrite val_fin in E by (vm_compute; reflexivity).
    assert (G : xleb (Fin (bpow radix2 (-1))) (RN (94 / 100)) = true).
    { apply RN_ge; [apply generic_format_bpow; vm_compute; discriminate|rewrite Rabs_right; [apply bpow_lt; reflexivity|apply Rle_ge, bpow_ge_0]|simpl; lra]. }
    rewrite <- E in G. apply xleb_iff in G. simpl bpow in G. lra.
  - apply val_ofZ_small. simpl. lia.
Qed.
Lemma norm_decay_nn lm tau : pow_sane lm -> forall x, In x (map (fun x => fdiv x (fsum lm (decay_weights (B64 lm) tau))) (decay_weights (B64 lm) tau)) -> nonneg_or_nan (val x).
Proof.
  intros HP x Hx. apply in_map_iff in Hx as (y & <- & Hy). assert (HD := decay_nn lm tau HP). apply nn_div; auto; [apply fsum_nn; auto|].
  assert (H1 : exists u, In u (decay_weights (B64 lm) tau) /\ val u = Fin 1).
  { destruct tau as [|tau]; [destruct Hy|]. destruct (first_weight lm tau HP) as (l & -> & E). eexists. split; [left; reflexivity|exact E]. }
  destruct H1 as (u & Hu & E1). destruct (fsum_ge lm _ u HD Hu) as [E|E]; [congruence|]. rewrite E1 in E. intros EZ. rewrite EZ in E. apply xleb_iff in E. lra.
Qed.
(** Every row of the computed bounds is (NaN, NaN) or satisfies 0 <= lower <= upper - whatever the residuals, in binary64. *)
Theorem C07_binary64 lm resids b :
  sq_sane lm -> pow_sane lm -> variance_bounds (B64 lm) resids = Ok b ->
  Forall (fun r => (val (fst r) = NaN /\ val (snd r) = NaN) \/ (xleb (Fin 0) (val (fst r)) = true /\ xleb (val (fst r)) (val (snd r)) = true)) b.
Proof.
  intros HS HP E. unfold variance_bounds in E. cbn [asum nmul ndiv nsq lit ofZ B64 nadd] in E. change (num (B64 lm)) with b64 in *.
  set (ini := fsum lm (map2 fmul _ _)) in E.
  assert (HI : nonneg_or_nan (val ini)).
  { apply fsum_nn. apply map2_nn. intros x y Hx Hy. apply nn_mul; [eapply norm_decay_nn; eauto|].
    apply in_map_iff in Hy as (z & <- & _). apply HS. }
  destruct (ewma_py (B64 lm) resids ini (fdiv (fofZ 94) (fofZ 100))) as [vb|] eqn:EE; [|discriminate]. cbn [bind] in E.
  assert (HV : Forall (fun x => nonneg_or_nan (val x)) vb).
  { destruct (lit_range 94 100) as [A B]; try lia. eapply C05_binary64; eauto. }
  destruct (amax (B64 lm) (map (l_sq lm) resids)) as [mx|] eqn:EM; [|discriminate]. cbn [bind] in E. injection E as <-.
  assert (HM : nonneg_or_nan (val mx)).
  { unfold amax in EM. destruct (map (l_sq lm) resids) as [|x0 l0] eqn:EL; [discriminate|]. injection EM as <-.
    assert (HF : Forall (fun x => nonneg_or_nan (val x)) (x0 :: l0)) by (rewrite <- EL; apply Forall_map_nn; auto).
    inversion HF as [|? ? H1 H2]; subst. clear - H1 H2. revert x0 H1. induction H2 as [|y l Hy _ IH]; intros x0 H1; simpl; auto. apply IH. apply npmax_nn; auto. }
  apply Forall_forall. intros r Hr. apply in_map_iff in Hr as (v & <- & Hv). apply in_map_iff in Hv as (u & <- & Hu). cbn [fst snd].
  rewrite Forall_forall in HV. set (g := npclip _ _ _ _).
  assert (HG : nonneg_or_nan (val g)).
  { apply npmin_nn; [apply npmax_nn; auto|].
    - apply nn_div_ofZ; [lia|]. apply avar_nn; auto.
    - apply nn_mul; [apply nn_ofZ; lia|]. apply nn_add; auto. apply nn_ofZ; lia. }
  clearbody g. apply nn_cases in HG. rewrite val_fmul, val_fdiv; [|apply ofZ_nonzero; lia].
  rewrite !val_ofZ_small by (simpl; lia). destruct HG as [->|[->|(r & -> & Hr)]].
  - left. split; reflexivity.
  - right. simpl. destruct (Rlt_dec 1000000 0); [lra|]. rewrite xsgn_inf_pos by lra. split; reflexivity.
  - right. rewrite xdiv_fin by lra. simpl. split; [destruct fmt_0; apply RN_ge; auto; lra|]. apply RN_mono. lra.
Qed.
(** C06: the backcast is NaN or at least 0 *)
Lemma fold_ge1 l acc : (forall x, In x l -> nonneg_or_nan (val x)) -> val acc = NaN \/ xleb (Fin 1) (val acc) = true ->
  val (fold_left fadd l acc) = NaN \/ xleb (Fin 1) (val (fold_left fadd l acc)) = true.
Proof.
  revert acc. induction l as [|x l IH]; intros acc H HA; simpl; auto. apply IH; [intros; apply H; simpl; auto|].
  destruct (H x) as [E|E]; [simpl; auto|left; rewrite val_fadd, E; destruct (val acc); reflexivity|].
  destruct HA as [HA|HA]; [left; rewrite val_fadd, HA; reflexivity|]. right. eapply xleb_trans; [exact HA|]. apply add_ge_l'; auto.
  eapply xleb_trans; [|exact HA]. apply xleb_true; lra.
Qed.
Theorem C06_binary64 lm resids : sq_sane lm -> pow_sane lm -> nonneg_or_nan (val (backcast_py (B64 lm) resids)).
Proof.
  intros HS HP. unfold backcast_py. cbn [asum nmul ndiv nsq B64]. change (num (B64 lm)) with b64 in *. apply fsum_nn. apply map2_nn. intros x y Hx Hy.
  apply in_map_iff in Hx as (r & <- & _). apply in_map_iff in Hy as (w & <- & Hw).
  apply nn_mul; [apply HS|]. assert (HD := decay_nn lm (Nat.min 75 (length resids)) HP).
  set (tau := Nat.min 75 (length resids)) in *. destruct tau as [|tau]; [destruct Hw|].
  destruct (first_weight lm tau HP) as (l & El & E1).
  assert (G : val (pysum (B64 lm) (decay_weights (B64 lm) (S tau))) = NaN \/ xleb (Fin 1) (val (pysum (B64 lm) (decay_weights (B64 lm) (S tau)))) = true).
  { unfold pysum. rewrite El in *. simpl fold_left. apply fold_ge1; [intros; apply HD; simpl; auto|]. right.
    rewrite val_fadd, E1, val_ofZ_small by (simpl; lia). simpl. destruct (fmt_Z 1) as [F B]; [simpl; lia|]. apply RN_ge; auto; lra. }
  apply nn_div; auto.
  - destruct G as [->|G]; [apply nn_nan|]. right. eapply xleb_trans; [|exact G]. apply xleb_true; lra.
  - intros E. destruct G as [G|G]; [congruence|]. rewrite E in G. apply xleb_iff in G. lra.
Qed.
