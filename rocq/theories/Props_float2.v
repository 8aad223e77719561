(** * Binary64 versions, continued: SRISK, spreads, depth imbalance, PIN, DIP, LRMES *)
From Coq Require Import Reals ZArith List Lia Lra Psatz Bool Arith.
From Flocq Require Import Core BinarySingleNaN.
From Verif Require Import Arith XR Float64 Float64b Props_float Model_garch Model_measures Model_micro Model_pin Model_dip Model_lrmes.
Import ListNotations.
Local Open Scope R_scope.
#[local] Opaque fadd fsub fmul fdiv fsqrt fofZ val.

(** ** C25: aggregate SRISK is NaN or at least 0 *)
Lemma clip0_nn lm (z : b64) : nonneg_or_nan (val (clip0 (B64 lm) z)).
Proof.
  unfold clip0, npmax. cbn [isnan nltb ofZ B64]. rewrite !val_isnan, (val_ltb z (fofZ 0)), val_ofZ_small by (simpl; lia).
  destruct (val z) as [r| | |] eqn:Ez; cbn [xisnan].
  - destruct (xltb (Fin r) (Fin 0)) eqn:L.
    + rewrite val_ofZ_small by (simpl; lia). apply nn_fin; lra.
    + rewrite Ez. apply nn_fin. destruct (Rle_lt_dec 0 r); auto. rewrite xltb_true in L by auto. discriminate.
  - simpl. rewrite Ez. apply nn_pinf.
  - simpl. rewrite val_ofZ_small by (simpl; lia). apply nn_fin; lra.
  - rewrite Ez. apply nn_nan.
Qed.
Theorem C25_binary64_many lm k W D lr x :
  srisk_many_aggregate (B64 lm) k W D lr = Ok x -> nonneg_or_nan (val x).
Proof.
  unfold srisk_many_aggregate. destruct (srisk_many (B64 lm) k W D lr) as [s|]; [|discriminate]. cbn [bind asum B64]. intros E. injection E as <-.
  apply fsum_nn. intros y Hy. apply in_map_iff in Hy as (z & <- & _). apply clip0_nn.
Qed.
Theorem C25_binary64_one lm k W D lr b x : srisk_one (B64 lm) k W D lr true = Ok (b, x) -> nonneg_or_nan (val x).
Proof.
  unfold srisk_one. destruct lr as [l|]; [|discriminate]. cbn [bind]. destruct (srisk_single (B64 lm) k _ _ l) as [[fl y]|]; [|discriminate]. cbn [bind fst snd].
  destruct fl; [|discriminate]. cbn [asum B64]. intros E. assert (E' : x = fsum lm [clip0 (B64 lm) y]) by congruence. rewrite E'.
  apply fsum_nn. intros z [<-|[]]. apply clip0_nn.
Qed.

(** ** C44: the quoted spread is never negative (and is a number) for quotes 0 < bid <= ask *)
Definition quote64 (b a : b64) : Prop := exists x y, val b = Fin x /\ val a = Fin y /\ 0 < x <= y.
Lemma fmt_double r : fmt r -> fmt (2 * r).
Proof.
  intros F. apply FLT_format_generic in F; [|exact eq_refl]. destruct F as [f E H1 H2].
  apply generic_format_FLT with (emin := (3 - 1024 - 53)%Z) (prec := 53%Z). exists (Float radix2 (Fnum f) (Fexp f + 1)); simpl; auto.
  - rewrite E. unfold F2R. cbn [Fnum Fexp]. rewrite bpow_plus. replace (bpow radix2 1) with 2 by (simpl; lra). ring.
  - change (3 - 1024 - 53 <= Fexp f)%Z in H2. lia.
Qed.
Lemma midpoint64 b a x y : val b = Fin x -> val a = Fin y -> 0 < x <= y -> xleb (Fin x) (val (fdiv (fadd b a) (fofZ 2))) = true.
Proof.
  intros Eb Ea H. destruct (val_fmt _ _ Eb) as [F B].
  assert (E2 : val (fofZ 2) = Fin 2) by (apply val_ofZ_small; simpl; lia).
  assert (ES := val_add b a x y Eb Ea). unfold RN in ES. destruct (Rlt_bool (Rabs (rnd (x + y))) (bpow radix2 1024)) eqn:O.
  - rewrite (val_div _ _ _ 2 ES E2) by lra. apply RN_ge; auto.
    assert (2 * x <= rnd (x + y)); [|lra]. rewrite <- (rnd_fmt (2 * x)) by (apply fmt_double; auto). apply rnd_mono. lra.
  - rewrite Rlt_bool_false in ES by lra. rewrite val_fdiv by (rewrite E2; intros HH; injection HH; lra).
    rewrite ES, E2. simpl. destruct (Rlt_dec 2 0); [lra|reflexivity].
Qed.
Lemma sub_ge0 a b x y : val b = Fin x -> val a = Fin y -> 0 < x <= y -> exists d, val (fsub a b) = Fin d /\ 0 <= d.
Proof.
  intros Eb Ea H. destruct (val_fmt _ _ Ea) as [F B]. rewrite (val_sub a b y x) by auto.
  assert (L : xleb (Fin 0) (RN (y - x)) = true) by (destruct fmt_0; apply RN_ge; auto; lra).
  assert (U : xleb (RN (y - x)) (Fin y) = true) by (apply RN_le; auto; lra).
  destruct (RN (y - x)); try discriminate. apply xleb_iff in L. eauto.
Qed.
Lemma map2_in {X Y Z} (f : X -> Y -> Z) l m z : In z (map2 f l m) -> exists x y, In (x, y) (combine l m) /\ z = f x y.
Proof. revert m. induction l as [|x l IH]; intros [|y m] H; simpl in *; try tauto. destruct H as [<-|H]; eauto. destruct (IH m H) as (u & v & H1 & H2). eauto. Qed.
Lemma amean_ge0 lm l : l <> [] -> (Z.of_nat (length l) <= 2 ^ 53)%Z -> (forall x, In x l -> xleb (Fin 0) (val x) = true) -> xleb (Fin 0) (val (amean (B64 lm) l)) = true.
Proof.
  intros HN HL H. unfold amean. cbn [asum ndiv ofZ B64]. change (num (B64 lm)) with b64. assert (HS := fsum_ge0 lm l H).
  assert (HZ : (1 <= Z.of_nat (length l))%Z) by (destruct l; [tauto|simpl length; lia]).
  rewrite val_fdiv by (apply ofZ_nonzero; auto). rewrite val_ofZ_small by lia. assert (N1 : 1 <= IZR (Z.of_nat (length l))) by (apply IZR_le; auto).
  destruct (val (fsum lm l)) as [s| | |]; try discriminate.
  - apply xleb_iff in HS. rewrite xdiv_fin by lra. simpl. destruct fmt_0. apply RN_ge; auto. apply Rmult_le_pos; auto. apply Rlt_le, Rinv_0_lt_compat; lra.
  - simpl. destruct (Rlt_dec _ 0); [lra|reflexivity].
Qed.
Lemma mul_ge0 a b x : xleb (Fin 0) (val a) = true -> val b = Fin x -> 0 < x -> xleb (Fin 0) (val (fmul a b)) = true.
Proof.
  intros Ha Eb Hx. rewrite val_fmul, Eb. destruct (val a) as [r| | |]; try discriminate; simpl.
  - apply xleb_iff in Ha. destruct fmt_0. apply RN_ge; auto. apply Rmult_le_pos; lra.
  - rewrite xsgn_inf_pos by auto. reflexivity.
Qed.
Theorem C44_binary64 lm bid ask pct x :
  log_sane lm -> bid <> [] -> (Z.of_nat (length bid) <= 2 ^ 53)%Z -> (forall b a, In (b, a) (combine bid ask) -> quote64 b a) ->
  quoted_spread (B64 lm) bid ask pct = Ok x -> xleb (Fin 0) (val x) = true.
Proof.
  intros (_ & L2 & L3) HN HL HQ. unfold quoted_spread, check. cbn [num B64] in *. destruct (Nat.eqb_spec (length bid) (length ask)) as [EL|]; [|discriminate].
  assert (M2 : forall X Y Z (f : X -> Y -> Z) l m, length (map2 f l m) = Nat.min (length l) (length m)).
  { intros X Y Z f l. induction l as [|u l IH]; intros [|v m]; simpl; auto. }
  destruct pct; intros E; assert (E' := f_equal (fun r => match r with Ok y => y | Err _ => x end) E); cbv beta iota in E'; rewrite <- E'; clear E E'.
  - cbn [nmul ofZ B64]. eapply mul_ge0; [|apply val_ofZ_small; simpl; lia|lra]. cbn [ndiv nsub nadd ofZ B64]. apply amean_ge0.
    + destruct bid as [|b bid], ask as [|a ask]; try discriminate; tauto.
    + rewrite !M2. lia.
    + intros y Hy.
      assert (HH : exists b a, In (b, a) (combine bid ask) /\ y = fdiv (fsub a b) (fdiv (fadd b a) (fofZ 2))).
      { clear - Hy EL. revert ask EL Hy. induction bid as [|b bid IH]; intros [|a ask] EL Hy; simpl in *; try tauto; try discriminate.
        destruct Hy as [<-|Hy]; [eauto|]. destruct (IH ask) as (b' & a' & H1 & H2); auto. eauto. }
      destruct HH as (b & a & HI & ->). destruct (HQ _ _ HI) as (u & v & Eb & Ea & H).
      destruct (sub_ge0 a b u v Eb Ea H) as (d & Ed & Hd). assert (HM := midpoint64 b a u v Eb Ea H).
      rewrite val_fdiv, Ed; [|intros HH; rewrite HH in HM; apply xleb_iff in HM; lra].
      destruct (val (fdiv (fadd b a) (fofZ 2))) as [m| | |]; try discriminate.
      * apply xleb_iff in HM. rewrite xdiv_fin by lra. simpl. destruct fmt_0. apply RN_ge; auto. apply Rmult_le_pos; auto. apply Rlt_le, Rinv_0_lt_compat; lra.
      * simpl. rewrite RN_0. apply xleb_true; lra.
  - cbn [nsub nlog B64]. apply amean_ge0.
    + destruct bid as [|b bid], ask as [|a ask]; try discriminate; tauto.
    + rewrite M2, !map_length. lia.
    + intros y Hy.
      assert (HH : exists b a, In (b, a) (combine bid ask) /\ y = fsub (l_log lm a) (l_log lm b)).
      { clear - Hy EL. revert ask EL Hy. induction bid as [|b bid IH]; intros [|a ask] EL Hy; simpl in *; try tauto; try discriminate.
        destruct Hy as [<-|Hy]; [eauto|]. destruct (IH ask) as (b' & a' & H1 & H2); auto. eauto. }
      destruct HH as (b & a & HI & ->). destruct (HQ _ _ HI) as (u & v & Eb & Ea & H).
      destruct (L3 b u Eb) as [lb Elb]; [lra|]. destruct (L3 a v Ea) as [la Ela]; [lra|].
      assert (HLL : xleb (val (l_log lm b)) (val (l_log lm a)) = true) by (apply L2; rewrite ?Eb, ?Ea; [apply xltb_true|apply xleb_true]; lra).
      rewrite Elb, Ela in HLL. apply xleb_iff in HLL. rewrite (val_sub _ _ la lb) by auto. destruct fmt_0. apply RN_ge; auto; lra.
Qed.

(** ** C45: undirected spreads are NaN or at least 0 *)
Lemma nanmean_nn lm l : (forall x, In x l -> nonneg_or_nan (val x)) -> nonneg_or_nan (val (nanmean (B64 lm) l)).
Proof.
  intros H. unfold nanmean, amean. cbn [asum ndiv ofZ B64]. apply nn_div_ofZ; [lia|]. apply fsum_nn. intros x Hx. apply filter_In in Hx as [Hx _]. auto.
Qed.
Lemma bcast_nn lm (f : b64 -> b64 -> b64) a b c : (forall x y, In x a -> In y b -> nonneg_or_nan (val (f x y))) ->
  bcast (B64 lm) f a b = Ok c -> forall z, In z c -> nonneg_or_nan (val z).
Proof.
  intros H E z Hz. unfold bcast in E. destruct (Nat.eqb _ _).
  - injection E as <-. eapply map2_nn; eauto.
  - destruct a as [|x [|x' a]]; destruct b as [|y [|y' b]]; try discriminate; injection E as <-;
      try (destruct Hz; fail); simpl in Hz; repeat (destruct Hz as [<-|Hz]; [apply H; simpl; auto|]); try (destruct Hz; fail);
      try (apply in_map_iff in Hz as (w & <- & Hw); apply H; simpl; auto).
Qed.
Lemma dollar_average_nn lm spread volume price x :
  (forall s, In s spread -> nonneg_or_nan (val s)) -> (forall v, In v volume -> nonneg_or_nan (val v)) -> (forall p, In p price -> nonneg_or_nan (val p)) ->
  dollar_average (B64 lm) spread volume price = Ok x -> nonneg_or_nan (val x).
Proof.
  intros HS HV HP E. unfold dollar_average in E. destruct (bcast (B64 lm) nmul volume price) as [dv|] eqn:EB; [|discriminate]. cbn [bind] in E.
  assert (HD : forall z, In z dv -> nonneg_or_nan (val z)) by (eapply bcast_nn; [|exact EB]; intros; apply nn_mul; auto).
  destruct (forallb _ dv); [injection E as <-; apply nanmean_nn; auto|].
  unfold waverage, check in E. destruct (Nat.eqb _ _); [|discriminate]. cbn [asum neqb ofZ nmul ndiv B64] in E.
  rewrite (val_eqb (fsum lm dv) (fofZ 0)), val_ofZ_small in E by (simpl; lia).
  destruct (xeqb (val (fsum lm dv)) (Fin 0)) eqn:EZ; [discriminate|]. injection E as <-.
  apply nn_div; [|apply fsum_nn; auto|].
  - apply fsum_nn. apply map2_nn. intros; apply nn_mul; auto.
  - intros HH. rewrite HH in EZ. rewrite xeqb_refl in EZ. discriminate.
Qed.
Lemma pct_abs_nn lm a b m : (forall x, In x m -> nonneg_or_nan (val x) /\ val x <> Fin 0) -> forall s, In s (pct_abs (B64 lm) a b m) -> nonneg_or_nan (val s).
Proof.
  intros H s Hs. unfold pct_abs in Hs. cbn [nmul ndiv nsub nabs ofZ B64] in Hs. change (num (B64 lm)) with b64 in *.
  apply in_map_iff in Hs as (y & <- & Hy). apply nn_mul; [|apply nn_ofZ; lia]. revert y Hy. apply map2_nn. intros x y Hx Hy.
  apply in_map_iff in Hx as (w & <- & _). destruct (H y Hy). apply nn_div; auto. apply nn_mul; [apply nn_ofZ; lia|apply nn_abs].
Qed.
Lemma log_abs_nn lm a b : forall s, In s (log_abs (B64 lm) a b) -> nonneg_or_nan (val s).
Proof.
  intros s Hs. unfold log_abs in Hs. cbn [nmul nsub nabs ofZ B64] in Hs. change (num (B64 lm)) with b64 in *.
  apply in_map_iff in Hs as (y & <- & Hy). apply nn_mul; [apply nn_ofZ; lia|apply nn_abs].
Qed.
(** for non-negative prices and volumes and positive mid-points (any of them may be NaN or infinite) *)
Theorem C45_binary64 lm price later mid volume pct x :
  (forall p, In p price -> nonneg_or_nan (val p)) -> (forall v, In v volume -> nonneg_or_nan (val v)) ->
  (forall m, In m mid -> nonneg_or_nan (val m) /\ val m <> Fin 0) ->
  effective_spread (B64 lm) price mid volume DirNone pct = Ok x \/
  realized_spread (B64 lm) price later mid volume DirNone pct = Ok x \/
  simple_price_impact (B64 lm) price later mid volume DirNone pct = Ok x -> nonneg_or_nan (val x).
Proof.
  intros HP HV HM [E|[E|E]]; [unfold effective_spread, check in E|unfold realized_spread, check in E|unfold simple_price_impact, check in E];
    (match type of E with (if ?c then _ else _) = _ => destruct c; [|discriminate] end); revert E; apply dollar_average_nn; auto;
    destruct pct; try apply log_abs_nn; apply pct_abs_nn; auto.
Qed.

(** ** C51: the scaled depth difference is NaN or in [-2, 2] *)
(** order-book sizes: finite, at least 0, at most 2^900 *)
Definition size64 (x : b64) : Prop := exists r, val x = Fin r /\ 0 <= r <= bpow radix2 900.
Lemma depth64 lm l : (Z.of_nat (length l) <= 2 ^ 53)%Z -> (forall x, In x l -> size64 x) ->
  exists r, val (fsum lm l) = Fin r /\ 0 <= r <= bpow radix2 953.
Proof.
  intros HL H.
  destruct (fsum_within lm 900 l HL ltac:(lia)) as (r & E & Hr).
  { intros x Hx. destruct (H x Hx) as (r & E & Hr). exists r. split; auto. rewrite Rabs_right; lra. }
  assert (G : xleb (Fin 0) (val (fsum lm l)) = true).
  { apply fsum_ge0. intros x Hx. destruct (H x Hx) as (u & -> & Hu). apply xleb_true; lra. }
  exists r. split; auto. rewrite E in G. apply xleb_iff in G. split; auto. apply Rabs_le_inv in Hr. eapply Rle_trans; [apply Hr|].
  replace 953%Z with (53 + 900)%Z by lia. rewrite bpow_plus. apply Rmult_le_compat_r; [apply bpow_ge_0|].
  rewrite INR_IZR_INZ. replace (bpow radix2 53) with (IZR (2 ^ 53)) by reflexivity. apply IZR_le; auto.
Qed.
Lemma sdd_entry a b x y : val a = Fin x -> val b = Fin y -> 0 <= x <= bpow radix2 953 -> 0 <= y <= bpow radix2 953 ->
  within_or_nan (-2) 2 (val (fdiv (fmul (fofZ 2) (fsub a b)) (fadd a b))).
Proof.
  intros Ea Eb Hx Hy. assert (E2 : val (fofZ 2) = Fin 2) by (apply val_ofZ_small; simpl; lia).
  assert (P953 : bpow radix2 953 * 2 = bpow radix2 954) by (replace 954%Z with (953 + 1)%Z by lia; rewrite bpow_plus; replace (bpow radix2 1) with 2 by (simpl; lra); ring).
  assert (P954 : bpow radix2 954 * 2 = bpow radix2 955) by (replace 955%Z with (954 + 1)%Z by lia; rewrite bpow_plus; replace (bpow radix2 1) with 2 by (simpl; lra); ring).
  assert (GP := bpow_gt_0 radix2 953).
  assert (ES := val_add a b x y Ea Eb). assert (ED := val_sub a b x y Ea Eb).
  destruct (RN_finite (x + y) 954) as [s Es]; [rewrite Rabs_right; lra|lia|]. destruct (RN_finite (x - y) 954) as [d Ed]; [apply Rabs_le; lra|lia|].
  rewrite Es in ES. rewrite Ed in ED.
  apply RN_inv in Es as (-> & FS & BS). apply RN_inv in Ed as (-> & FD & BD).
  assert (DS : Rabs (rnd (x - y)) <= rnd (x + y)).
  { apply Rabs_le. split.
    - assert (O : - rnd (x + y) = rnd (- (x + y))).
      { unfold rnd. rewrite round_NE_opp. reflexivity. }
      rewrite O. apply rnd_mono. lra.
    - apply rnd_mono. lra. }
  destruct (Req_dec (rnd (x + y)) 0) as [EZ|NZ].
  - rewrite EZ in *. assert (D0 : rnd (x - y) = 0) by (apply Rabs_le_inv in DS; lra). rewrite D0 in *.
    left. apply fzero_val in ES. assert (EN : val (fmul (fofZ 2) (fsub a b)) = Fin 0).
    { rewrite (val_mul _ _ 2 0) by auto. rewrite Rmult_0_r. apply RN_0. }
    apply fdiv_0_0; auto. apply fzero_val; auto.
  - assert (SP : 0 < rnd (x + y)) by (assert (0 <= rnd (x + y)) by (rewrite <- rnd_0; apply rnd_mono; lra); lra).
    assert (SB : rnd (x + y) <= bpow radix2 954).
    { rewrite <- (rnd_fmt (bpow radix2 954)) by (apply generic_format_bpow; vm_compute; discriminate). apply rnd_mono. lra. }
    assert (EM : val (fmul (fofZ 2) (fsub a b)) = Fin (2 * rnd (x - y))).
    { rewrite (val_mul _ _ 2 _ E2 ED). apply RN_fmt; [apply fmt_double; auto|]. rewrite Rabs_mult, (Rabs_right 2) by lra.
      apply Rle_lt_trans with (bpow radix2 955); [|apply bpow_lt; lia]. lra. }
    right. rewrite (val_div _ _ _ _ EM ES NZ).
    assert (Q : Rabs (2 * rnd (x - y) / rnd (x + y)) <= 2).
    { unfold Rdiv. rewrite !Rabs_mult, (Rabs_right 2), Rabs_inv, (Rabs_right (rnd (x + y))) by lra.
      apply Rmult_le_reg_r with (rnd (x + y)); auto. rewrite Rmult_assoc, Rinv_l by auto. nra. }
    apply Rabs_le_inv in Q. destruct (fmt_Z 2) as [F2 B2]; [simpl; lia|]. destruct (fmt_Z (-2)) as [F3 B3]; [simpl; lia|].
    assert (U := RN_le _ 2 F2 B2 (proj2 Q)). assert (L := RN_ge _ (-2) F3 B3 (proj1 Q)).
    destruct (RN (2 * rnd (x - y) / rnd (x + y))) as [v| | |]; try discriminate. exists v. apply xleb_iff in U. apply xleb_iff in L. auto.
Qed.
Lemma nanmean_within lm l : (Z.of_nat (length l) <= 2 ^ 53)%Z -> (forall x, In x l -> within_or_nan (-2) 2 (val x)) ->
  within_or_nan (-2) 2 (val (nanmean (B64 lm) l)).
Proof.
  intros HL H. unfold nanmean, amean. cbn [asum ndiv ofZ isnan B64]. change (num (B64 lm)) with b64 in *.
  set (f := filter _ l).
  assert (HF : (length f <= length l)%nat) by (unfold f; clear; induction l as [|y l IH]; simpl; [lia|]; destruct (negb (is_nan y)); simpl; lia).
  assert (HI : forall x, In x f -> exists r, val x = Fin r /\ Rabs r <= bpow radix2 1).
  { intros x Hx. apply filter_In in Hx as [Hx Hn]. destruct (H x Hx) as [E|(r & E & Hr)].
    - apply val_nan in E. rewrite E in Hn. discriminate.
    - exists r. split; auto. simpl. apply Rabs_le; lra. }
  destruct (fsum_within lm 1 f) as (s & E & Hs); auto; try lia.
  destruct f as [|x0 f0] eqn:EF.
  - left. simpl length. change (Z.of_nat 0) with 0%Z. assert (EZ : val (fofZ 0) = Fin 0) by (apply val_ofZ_small; simpl; lia).
    simpl in Hs. rewrite Rmult_0_l in Hs. assert (s = 0) by (apply Rabs_le_inv in Hs; lra). subst s.
    apply fdiv_0_0; auto.
  - right. set (n := length (x0 :: f0)) in *. assert (Hn : (1 <= Z.of_nat n)%Z) by (unfold n; simpl length; lia).
    assert (Hn1 : 1 <= INR n) by (rewrite INR_IZR_INZ; apply IZR_le; auto).
    rewrite (val_div _ _ _ (INR n) E) by (try lra; rewrite INR_IZR_INZ; apply val_ofZ_small; lia).
    assert (Q : Rabs (s / INR n) <= 2).
    { unfold Rdiv. rewrite Rabs_mult, Rabs_inv, (Rabs_right (INR n)) by lra. apply Rmult_le_reg_r with (INR n); [lra|].
      rewrite Rmult_assoc, Rinv_l by lra. replace (bpow radix2 1) with 2 in Hs by (simpl; lra). lra. }
    apply Rabs_le_inv in Q. destruct (fmt_Z 2) as [F2 B2]; [simpl; lia|]. destruct (fmt_Z (-2)) as [F3 B3]; [simpl; lia|].
    assert (U := RN_le _ 2 F2 B2 (proj2 Q)). assert (L := RN_ge _ (-2) F3 B3 (proj1 Q)).
    destruct (RN (s / INR n)) as [v| | |]; try discriminate. exists v. apply xleb_iff in U. apply xleb_iff in L. auto.
Qed.
(** for any sizes that are finite, non-negative and at most 2^900, up to 2^53 levels and 2^53 snapshots *)
Theorem C51_binary64 lm (bid ask : array2 (B64 lm)) x :
  (forall r s, In r (rows bid) \/ In r (rows ask) -> In s r -> size64 s) ->
  (forall r, In r (rows bid) \/ In r (rows ask) -> (Z.of_nat (length r) <= 2 ^ 53)%Z) ->
  (Z.of_nat (length (rows bid)) <= 2 ^ 53)%Z ->
  scaled_depth_difference (B64 lm) bid ask = Ok x -> within_or_nan (-2) 2 (val x).
Proof.
  intros HS HC HR E. unfold scaled_depth_difference, check in E. destruct (_ && _)%bool eqn:EC; [|discriminate]. apply andb_prop in EC as [_ EL]. apply Nat.eqb_eq in EL.
  cbn [asum ndiv nmul nsub nadd ofZ B64] in E. change (num (B64 lm)) with b64 in *. injection E as <-.
  assert (M2 : forall X Y Z (f : X -> Y -> Z) l m, length (map2 f l m) = Nat.min (length l) (length m)).
  { intros X Y Z f l. induction l as [|u l IH]; intros [|v m]; simpl; auto. }
  apply nanmean_within.
  - rewrite M2, !map_length, !M2, !map_length. lia.
  - intros y Hy.
    assert (HH : exists r s, In r (rows ask) /\ In s (rows bid) /\ y = fdiv (fmul (fofZ 2) (fsub (fsum lm r) (fsum lm s))) (fadd (fsum lm r) (fsum lm s))).
    { clear - Hy. revert Hy. generalize (rows bid). induction (rows ask) as [|r ra IH]; intros [|s rb] Hy; simpl in *; try tauto.
      destruct Hy as [<-|Hy]; [eauto 8|]. destruct (IH rb Hy) as (r' & s' & H1 & H2 & H3). eauto 8. }
    destruct HH as (r & s & Hr & Hs & ->).
    destruct (depth64 lm r) as (u & Eu & Hu); eauto. destruct (depth64 lm s) as (v & Ev & Hv); eauto. eapply sdd_entry; eauto.
Qed.

(** ** C52: PIN is NaN or in [0,1], for rates and probabilities that are at least 0 (NaN and infinities allowed) *)
Theorem C52_binary64 lm p :
  nonneg_or_nan (val (alpha (B64 lm) p)) -> nonneg_or_nan (val (mu (B64 lm) p)) -> nonneg_or_nan (val (eB (B64 lm) p)) -> nonneg_or_nan (val (eS (B64 lm) p)) ->
  within_or_nan 0 1 (val (calculate_pin (B64 lm) p)).
Proof.
  intros Ha Hm Hb Hs. unfold calculate_pin. cbn [nmul nadd ndiv B64]. set (n := fmul _ _).
  assert (Hn : nonneg_or_nan (val n)) by (apply nn_mul; auto). clearbody n.
  destruct Hn as [Hn|Hn]; [left; apply fdiv_nan_l; auto|].
  destruct Hb as [Hb|Hb]; [left; apply fdiv_nan_r, fadd_nan_l, fadd_nan_r; auto|].
  destruct Hs as [Hs|Hs]; [left; apply fdiv_nan_r, fadd_nan_r; auto|].
  apply ratio_01; auto. assert (H1 := add_ge_l' n (eB (B64 lm) p) Hn Hb).
  eapply xleb_trans; [exact H1|]. apply add_ge_l'; auto. eapply xleb_trans; [exact Hn|exact H1].
Qed.

(** ** C41: the distress insurance premium is NaN or at least 0 *)
Lemma add_at_nn lm l i p : (forall x, In x l -> nonneg_or_nan (val x)) -> nonneg_or_nan (val p) -> forall x, In x (add_at (B64 lm) l i p) -> nonneg_or_nan (val x).
Proof.
  intros HL HP. revert i. induction l as [|y l IH]; intros [|i] x Hx; cbn [add_at] in Hx; try (destruct Hx; fail).
  - destruct Hx as [<-|Hx]; [apply nn_add; auto; apply HL; simpl; auto|apply HL; simpl; auto].
  - destruct Hx as [<-|Hx]; [apply HL; simpl; auto|]. eapply IH; eauto. intros; apply HL; simpl; auto.
Qed.
Lemma fill_nn lm l slots r : (forall x, In x l -> nonneg_or_nan (val x)) -> (forall i p, In (i, p) slots -> nonneg_or_nan (val p)) ->
  fill (B64 lm) l slots = Ok r -> forall x, In x r -> nonneg_or_nan (val x).
Proof.
  revert l. induction slots as [|[i p] s IH]; intros l HL HS E; cbn [fill] in E.
  - injection E as <-. auto.
  - unfold increment in E. assert (HP : nonneg_or_nan (val p)) by (eapply HS; left; reflexivity).
    assert (HS' : forall j q, In (j, q) s -> nonneg_or_nan (val q)) by (intros; eapply HS; right; eauto).
    destruct (_ && _)%bool; [|destruct (_ && _)%bool; [|discriminate]]; cbn [bind] in E; refine (IH _ _ HS' E); apply add_at_nn; auto.
Qed.
Theorem C41_binary64 lm ceilZ truncZ thresholds default_threshold z n tri uninit x :
  (0 <= truncZ (fmul default_threshold (fofZ 100)))%Z ->
  estimate_dip (B64 lm) ceilZ truncZ thresholds default_threshold z n tri uninit = Ok x -> nonneg_or_nan (val x).
Proof.
  intros HT E. unfold estimate_dip in E. destruct (fill _ _ _) as [pl|] eqn:EF; [|discriminate]. cbn [bind] in E.
  assert (HD : forall i, nonneg_or_nan (val (nth i (dist_joint_defaults (B64 lm) (length thresholds) thresholds z) (fofZ 0)))).
  { intros i. destruct (nth_in_or_default i (dist_joint_defaults (B64 lm) (length thresholds) thresholds z) (fofZ 0)) as [H| ->]; [|apply nn_ofZ; lia].
    unfold dist_joint_defaults in H at 2. apply in_map_iff in H as (k & <- & _). cbn [ndiv ofZ B64]. apply nn_div_ofZ; [lia|]. apply nn_ofZ; lia. }
  assert (HP : forall p, In p pl -> nonneg_or_nan (val p)).
  { eapply fill_nn; [| |exact EF].
    - intros y Hy. apply repeat_spec in Hy. subst y. apply nn_ofZ; lia.
    - intros i p Hp. unfold slots_of in Hp. apply in_concat in Hp as (l & Hl & Hp).
      apply map2_in in Hl as (k & row & _ & ->). apply in_map_iff in Hp as (y & Hy & _). injection Hy as _ <-. apply HD. }
  clear EF. unfold premium in E. unfold check in E. cbn [asum nmul ndiv ofZ B64] in E. change (num (B64 lm)) with b64 in *.
  set (tail := python_slice_from _ _ _) in E. destruct (Nat.eqb _ _); [|discriminate]. injection E as <-.
  assert (HTL : forall p, In p tail -> nonneg_or_nan (val p)).
  { intros p Hp. unfold tail, python_slice_from in Hp. assert (Hp' : In p (map (fun p => fdiv p (fofZ (Z.of_nat n))) pl)).
    { rewrite <- (firstn_skipn (Z.to_nat (if (truncZ (fmul default_threshold (fofZ 100)) * Z.of_nat (length thresholds) <? 0)%Z
        then Z.max 0 (truncZ (fmul default_threshold (fofZ 100)) * Z.of_nat (length thresholds) + Z.of_nat (length (map (fun p => fdiv p (fofZ (Z.of_nat n))) pl)))
        else truncZ (fmul default_threshold (fofZ 100)) * Z.of_nat (length thresholds))) (map (fun p => fdiv p (fofZ (Z.of_nat n))) pl)).
      apply in_or_app. right. exact Hp. }
    apply in_map_iff in Hp' as (q & <- & Hq). apply nn_div_ofZ; [lia|]. auto. }
  assert (HG : nonneg_or_nan (val (fsum lm tail))) by (apply fsum_nn; auto).
  assert (HN : nonneg_or_nan (val (fsum lm (map2 (fun k p => fmul (fofZ k) p) (zrange (truncZ (fmul default_threshold (fofZ 100)) * Z.of_nat (length thresholds)) (100 * Z.of_nat (length thresholds))) tail)))).
  { apply fsum_nn. intros y Hy. apply map2_in in Hy as (k & p & Hk & ->). assert (Hp := in_combine_r _ _ _ _ Hk). assert (Hz := in_combine_l _ _ _ _ Hk).
    apply nn_mul; auto. apply nn_ofZ. unfold zrange in Hz. apply in_map_iff in Hz as (j & <- & _). nia. }
  set (num := fsum lm (map2 _ _ _)) in *. set (g := fsum lm tail) in *. clearbody num g.
  destruct HG as [HG|HG]; [left; rewrite val_fmul, HG; destruct (val (fdiv num (fmul (fofZ 100) g))); reflexivity|].
  assert (E100 : val (fofZ 100) = Fin 100) by (apply val_ofZ_small; simpl; lia).
  destruct (xeqb (val (fmul (fofZ 100) g)) (Fin 0)) eqn:EZ.
  - (* an empty tail: x / 0 * g *)
    assert (EZ' : val (fmul (fofZ 100) g) = Fin 0) by (destruct (val (fmul (fofZ 100) g)); try discriminate; apply xeqb_iff in EZ; congruence).
    assert (G0 : val g = Fin 0).
    { rewrite val_fmul, E100 in EZ'. destruct (val g) as [r| | |] eqn:Eg; try discriminate.
      - simpl in EZ'. f_equal. apply xleb_iff in HG. apply RN_inv in EZ' as (EZ' & _). destruct (val_fmt _ _ Eg) as [F _].
        assert (r <= rnd (100 * r)) by (rewrite <- (rnd_fmt r F) at 1; apply rnd_mono; lra). lra.
      - simpl in EZ'. rewrite xsgn_inf_pos in EZ' by lra. discriminate. }
    left. destruct (val_fdiv_0 num _ EZ') as [H|[H|H]]; [apply fmul_nan_l; auto|apply fmul_inf_0; auto; rewrite H; auto|apply fmul_inf_0; auto; rewrite H; auto].
  - apply nn_mul; [|right; auto]. apply nn_div; auto.
    + apply nn_mul; [apply nn_ofZ; lia|right; auto].
    + intros HH. rewrite HH in EZ. rewrite xeqb_refl in EZ. discriminate.
Qed.

(** ** C21: LRMES is NaN or at most 1 (a firm cannot lose more than everything) *)
Lemma simulation64 lm cpp i C inv : exp_sane lm ->
  val (fst (simulation (B64 lm) cpp i C inv)) = NaN \/
  xleb (Fin (if snd (simulation (B64 lm) cpp i C inv) then -1 else 0)) (val (fst (simulation (B64 lm) cpp i C inv))) = true.
Proof.
  intros HE. unfold simulation. cbv zeta. match goal with |- context [if ?c then (?x, true) else _] => destruct c; cbn [fst snd]; [set (e := x)|] end.
  - cbn [nexp nsub ofZ B64] in e. match eval unfold e in e with fsub (l_exp lm ?y) _ => assert (H := HE y); set (w := l_exp lm y) in * end.
    apply nn_cases in H. unfold e. rewrite val_fsub, val_ofZ_small by (simpl; lia). destruct H as [->|[->|(r & -> & Hr)]]; simpl; auto.
    right. destruct (fmt_Z (-1)) as [F B]; [simpl; lia|]. apply RN_ge; auto; lra.
  - right. cbn [ofZ B64]. rewrite val_ofZ_small by (simpl; lia). apply xleb_true; lra.
Qed.
Lemma accumulate64 lm cpp i C sc : exp_sane lm -> forall total n, (0 <= n)%Z -> (n + Z.of_nat (length sc) <= 2 ^ 53)%Z ->
  val total = NaN \/ xleb (Fin (- IZR n)) (val total) = true ->
  let r := accumulate (B64 lm) cpp i C sc total n in
  (0 <= snd r <= n + Z.of_nat (length sc))%Z /\ (val (fst r) = NaN \/ xleb (Fin (- IZR (snd r))) (val (fst r)) = true).
Proof.
  intros HE. induction sc as [|inv sc IH]; intros total n Hn HL HT; cbn [accumulate].
  - cbn [fst snd length]. split; [lia|auto].
  - assert (HS := simulation64 lm cpp i C inv HE). destruct (simulation (B64 lm) cpp i C inv) as [v ev]. cbn [fst snd] in *. cbn [nadd B64].
    simpl length in *. change (num (B64 lm)) with b64 in *.
    assert (HN : (0 <= n + Z.b2z ev)%Z) by (destruct ev; simpl; lia).
    assert (HB : (n + Z.b2z ev + Z.of_nat (length sc) <= 2 ^ 53)%Z) by (destruct ev; cbn [Z.b2z]; lia).
    assert (HI : val (fadd total v) = NaN \/ xleb (Fin (- IZR (n + Z.b2z ev))) (val (fadd total v)) = true).
    { destruct HT as [HT|HT]; [left; apply fadd_nan_l; auto|]. destruct HS as [HS|HS]; [left; apply fadd_nan_r; auto|].
      rewrite val_fadd. destruct (val total) as [t| | |], (val v) as [w| | |]; try discriminate; simpl; auto.
      right. apply xleb_iff in HT. apply xleb_iff in HS. destruct (fmt_Z (- (n + Z.b2z ev))) as [F B]; [rewrite Z.abs_opp; lia|].
      rewrite <- opp_IZR. apply RN_ge; auto. rewrite opp_IZR, plus_IZR. destruct ev; cbn [Z.b2z] in *; lra. }
    destruct (IH (fadd total v) (n + Z.b2z ev)%Z HN HB HI) as [H1 H2]. split; auto. destruct ev; cbn [Z.b2z] in *; lia.
Qed.
Theorem C21_binary64 lm cpp i C sc : exp_sane lm -> (Z.of_nat (length sc) <= 2 ^ 53)%Z ->
  val (lrmes (B64 lm) cpp i C sc) = NaN \/ xleb (val (lrmes (B64 lm) cpp i C sc)) (Fin 1) = true.
Proof.
  intros HE HL. unfold lrmes. cbv zeta.
  destruct (accumulate64 lm cpp i C sc HE (fofZ 0) 0 ltac:(lia) ltac:(lia)) as [H1 H2].
  { right. rewrite val_ofZ_small by (simpl; lia). apply xleb_true. simpl; lra. }
  change (accumulate (B64 lm) cpp i C sc (ofZ (a:=B64 lm) 0) 0) with (accumulate (B64 lm) cpp i C sc (fofZ 0) 0).
  destruct (accumulate (B64 lm) cpp i C sc (fofZ 0) 0) as [t n]. cbn [fst snd] in *. destruct (Z.eqb_spec n 0) as [->|N].
  - right. cbn [ofZ B64]. rewrite val_ofZ_small by (simpl; lia). apply xleb_true; lra.
  - cbn [nopp ndiv ofZ B64]. assert (EN : val (fofZ n) = Fin (IZR n)) by (apply val_ofZ_small; lia). assert (P : 1 <= IZR n) by (apply IZR_le; lia).
    destruct H2 as [H2|H2].
    + left. apply fdiv_nan_l. rewrite val_opp, H2. reflexivity.
    + right. rewrite val_fdiv by (rewrite EN; intros HH; injection HH; lra). rewrite val_opp, EN.
      destruct (val t) as [r| | |]; try discriminate; simpl xopp.
      * apply xleb_iff in H2. rewrite xdiv_fin by lra. simpl. destruct (fmt_Z 1) as [F B]; [simpl; lia|]. apply RN_le; auto.
        apply Rmult_le_reg_r with (IZR n); [lra|]. unfold Rdiv. rewrite Rmult_assoc, Rinv_l by lra. lra.
      * simpl. destruct (Rlt_dec (IZR n) 0); [lra|reflexivity].
Qed.
