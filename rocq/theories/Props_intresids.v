(** * Property C123: integer residual arrays passed to the static methods *)
From Coq Require Import Reals ZArith List Lia Lra Psatz Bool Arith.
From Flocq Require Import Core BinarySingleNaN Binary Bits.
From Verif Require Import Arith XR RealAux Float64 Float64b Model_garch Spec_garch Proofs_garch Props_garch Model_intresids.
From Verif Require Props_float5.
Import ListNotations.
Local Open Scope R_scope.

(** ** Specification *)
(** assignment to an element of an int64 array truncates towards zero; out of range the result is unspecified *)
Definition int64_cast (store : xr -> xr) : Prop := forall x, - 2 ^ 63 < x < 2 ^ 63 -> store (Fin x) = Fin (IZR (Ztrunc x)).
(** residuals whose squares fit in int64 *)
Definition small_ints (zs : list Z) : Prop := Forall (fun z => (Z.abs z <= 3037000499)%Z) zs.
Definition ints (zs : list Z) : list xr := map (fun z => Fin (IZR z)) zs.
(** a value that can be assigned *)
Definition fits (x : R) : Prop := x < 2 ^ 63.

(** *** C123: with float64 residuals the casts do nothing *)
Lemma stored_loop_id (A : Arith) update prev rs bs : stored_loop A (fun x => x) update prev rs bs = var_loop A update prev rs bs.
Proof. reflexivity. Qed.
Lemma forecast_loop_id (A : Arith) om al ga be rs : forall prev, forecast_stored_loop A (fun x => x) om al ga be prev rs = forecast_loop A om al ga be prev rs.
Proof. induction rs as [|r rs IH]; intros prev; [reflexivity|]. cbn [forecast_stored_loop forecast_loop]. cbv zeta. rewrite IH. reflexivity. Qed.
Theorem C123_float64_unchanged : forall (A : Arith) params rs bc bs om al ga be v0,
  garch_variance_stored A (fun x => x) params rs bc bs = garch_variance_py A params rs bc bs /\
  gjr_variance_stored A (fun x => x) params rs bc bs = gjr_variance_py A params rs bc bs /\
  forecast_stored A (fun x => x) om al ga be rs v0 = forecast_variance A om al ga be rs v0.
Proof.
  intros A params rs bc bs om al ga be v0. split; [|split].
  - reflexivity.
  - reflexivity.
  - reflexivity.
Qed.

(** ** The stored loop as a recursion *)
Lemma stored_loop_ok (A : Arith) store update rs : forall prev bs, (length rs <= length bs)%nat ->
  exists out, stored_loop A store update prev rs bs = Ok out /\ length out = length rs /\
    forall t d db, (t < length rs)%nat -> nth t out d = store (bounds_check_py A (update (nth t (prev :: out) d) (nth t rs d)) (nth t bs db)).
Proof.
  induction rs as [|r rs IH]; intros prev bs HL.
  - exists []. split; [reflexivity|]. split; [reflexivity|]. intros t d db Ht. cbn in Ht. lia.
  - destruct bs as [|b bs]; [cbn in HL; lia|]. cbn [stored_loop]. cbv zeta. destruct (IH (store (bounds_check_py A (update prev r) b)) bs) as (out & E & L & N); [cbn in HL; lia|].
    rewrite E. cbn [bind]. eexists. split; [reflexivity|]. split; [cbn; lia|]. intros [|t] d db Ht; [reflexivity|]. cbn [nth]. refine (eq_trans (N t d db _) _); [cbn in Ht; lia|reflexivity].
Qed.

Lemma trunc_le x : 0 <= x -> (0 <= Ztrunc x)%Z /\ IZR (Ztrunc x) <= x.
Proof. intros H. rewrite Ztrunc_floor by auto. split; [apply Zfloor_lub; auto|apply Zfloor_lb]. Qed.
Lemma trunc_nonneg_upto x b : 0 <= x -> x <= b -> (0 <= Ztrunc x)%Z /\ IZR (Ztrunc x) <= b.
Proof. intros H1 H2. destruct (trunc_le x H1). split; auto; lra. Qed.
Lemma clip_log_mono lo up s s' : 0 < lo <= up -> s <= s' -> clip_log s lo up <= clip_log s' lo up /\ 0 < clip_log s lo up.
Proof.
  intros H HS. assert (E := C04_bounds_check_law s lo up H). assert (E' := C04_bounds_check_law s' lo up H).
  destruct (C04_bounds_check_props s s' lo up _ _ H E E') as (_ & _ & _ & L & M). split; [apply M; auto|]. unfold clip_log. lra.
Qed.
Lemma check_fin s lo up : 0 < lo <= up -> bounds_check_py XRA (Fin s) (Fin lo, Fin up) = Fin (clip_log s lo up).
Proof. intros H. apply C04_bounds_check_law. exact H. Qed.

Section Understates.
Context (store : xr -> xr) (Hst : int64_cast store).
(** [update] is the stored update, [step] the exact one *)
Definition understates (update : xr -> xr -> xr) (step : R -> R -> R) (zs : list Z) : Prop :=
  forall k p z, (0 <= k)%Z -> IZR k <= p -> fits (step p (IZR z)) -> exists j, update (Fin (IZR k)) (Fin (IZR z)) = Fin (IZR j) /\ (0 <= j)%Z /\ IZR j <= step p (IZR z).
Lemma store_nonneg x : 0 <= x -> fits x -> store (Fin x) = Fin (IZR (Ztrunc x)).
Proof using Hst. intros H1 H2. apply Hst. unfold fits in H2. split; auto. assert (0 < 2 ^ 63) by (apply pow_lt; lra). lra. Qed.

Lemma understates_path update step zs bs s k0 out : understates update step zs -> length bs = length zs -> Forall good_row bs ->
  (0 <= k0)%Z -> IZR k0 <= nth 0 s 0 ->
  (forall t, (S t < length zs)%nat -> nth (S t) s 0 = clip_log (step (nth t s 0) (IZR (nth t zs 0%Z))) (fst (nth (S t) bs (0, 0))) (snd (nth (S t) bs (0, 0)))) ->
  (forall t, (S t < length zs)%nat -> fits (step (nth t s 0) (IZR (nth t zs 0%Z))) /\ fits (nth (S t) s 0)) ->
  (forall t, (S t < length zs)%nat -> nth t out NaN = store (bounds_check_py XRA (update (nth t (Fin (IZR k0) :: out) NaN) (Fin (IZR (nth t zs 0%Z)))) (finrow (nth (S t) bs (0, 0))))) ->
  forall t, (t < length zs)%nat -> exists k, nth t (Fin (IZR k0) :: out) NaN = Fin (IZR k) /\ (0 <= k)%Z /\ IZR k <= nth t s 0.
Proof using Hst.
  intros HU LB HB K0 KS HS HF HO. induction t as [|t IH]; intros Ht; [exists k0; auto|].
  destruct (IH ltac:(lia)) as (k & Ek & P1 & P2). cbn [nth]. rewrite (HO t Ht), Ek. destruct (HF t Ht) as [F1 F2].
  destruct (HU k (nth t s 0) (nth t zs 0%Z) P1 P2 F1) as (j & Ej & J1 & J2). rewrite Ej.
  assert (GR : good_row (nth (S t) bs (0, 0))) by (rewrite Forall_forall in HB; apply HB, nth_In; lia). unfold good_row in GR. unfold finrow.
  rewrite check_fin by exact GR. destruct (clip_log_mono _ _ _ _ GR J2) as [M P]. rewrite (HS t Ht) in *.
  exists (Ztrunc (clip_log (IZR j) (fst (nth (S t) bs (0, 0))) (snd (nth (S t) bs (0, 0))))). split; [apply store_nonneg; [lra|unfold fits in *; lra]|]. apply trunc_nonneg_upto; lra.
Qed.
End Understates.

Lemma ints_list (l : list xr) (P : nat -> Z -> Prop) : (forall t, (t < length l)%nat -> exists k, nth t l NaN = Fin (IZR k) /\ P t k) ->
  exists ks, l = ints ks /\ length ks = length l /\ forall t, (t < length l)%nat -> P t (nth t ks 0%Z).
Proof.
  revert P. induction l as [|x l IH]; intros P H; [exists []; repeat split; intros; cbn in *; lia|].
  destruct (H 0%nat ltac:(cbn; lia)) as (k & Ek & Pk). destruct (IH (fun t => P (S t))) as (ks & El & Ll & Pl).
  { intros t Ht. apply (H (S t)). cbn. lia. }
  exists (k :: ks). split; [cbn in Ek |- *; rewrite Ek, El; reflexivity|]. split; [cbn; lia|]. intros [|t] Ht; [exact Pk|]. apply Pl. cbn in Ht. lia.
Qed.

(** *** C123: integer residuals in the Python code.  [s] is what the same residuals give as float64; the integer array holds whole numbers that
    never exceed it *)
Lemma garch_understates store omega alpha beta zs : int64_cast store -> 0 <= omega -> 0 <= alpha -> 0 <= beta ->
  understates (stored_garch_update XRA store (Fin omega) (Fin alpha) (Fin beta)) (garch_update omega alpha beta) zs.
Proof.
  intros Hst Ho Ha Hb k p z K1 K2 HF. unfold stored_garch_update. cbn [nadd nmul nsq XRA xsq xmul xadd].
  assert (0 <= IZR k) by (apply IZR_le; auto). set (v := omega + alpha * (IZR z * IZR z) + beta * IZR k).
  assert (V0 : 0 <= v) by (unfold v; assert (0 <= alpha * (IZR z * IZR z)) by (apply Rmult_le_pos; nra); assert (0 <= beta * IZR k) by (apply Rmult_le_pos; auto); lra).
  assert (V1 : v <= garch_update omega alpha beta p (IZR z)) by (unfold v, garch_update; assert (beta * IZR k <= beta * p) by (apply Rmult_le_compat_l; auto); cbn [pow]; nra).
  exists (Ztrunc v). split; [apply (store_nonneg store Hst); [exact V0|unfold fits in *; lra]|]. apply trunc_nonneg_upto; auto.
Qed.
Lemma gjr_understates store omega alpha gamma beta zs : int64_cast store -> 0 <= omega -> 0 <= alpha -> 0 <= gamma -> 0 <= beta ->
  understates (stored_gjr_update XRA store (Fin omega) (Fin alpha) (Fin gamma) (Fin beta)) (gjr_update omega alpha gamma beta) zs.
Proof.
  intros Hst Ho Ha Hg Hb k p z K1 K2 HF. unfold stored_gjr_update. cbn [nadd nmul nsq XRA xsq xmul xadd nltb ofZ].
  assert (0 <= IZR k) by (apply IZR_le; auto). set (v := omega + alpha * (IZR z * IZR z) + beta * IZR k).
  assert (V0 : 0 <= v) by (unfold v; assert (0 <= alpha * (IZR z * IZR z)) by (apply Rmult_le_pos; nra); assert (0 <= beta * IZR k) by (apply Rmult_le_pos; auto); lra).
  assert (Q : 0 <= gamma * (IZR z * IZR z)) by (apply Rmult_le_pos; nra).
  assert (B : beta * IZR k <= beta * p) by (apply Rmult_le_compat_l; auto).
  assert (V1 : v + (if Rlt_dec (IZR z) 0 then gamma * (IZR z * IZR z) else 0) <= gjr_update omega alpha gamma beta p (IZR z)) by (unfold v, gjr_update; cbn [pow]; destruct (Rlt_dec (IZR z) 0); nra).
  rewrite (store_nonneg store Hst v V0) by (unfold fits in *; destruct (Rlt_dec (IZR z) 0); lra).
  destruct (trunc_le v V0) as [T0 T1]. apply IZR_le in T0.
  assert (EQ : xadd (Fin (IZR (Ztrunc v))) (if xltb (Fin (IZR z)) (Fin 0) then Fin (gamma * (IZR z * IZR z)) else Fin 0) =
    Fin (IZR (Ztrunc v) + (if Rlt_dec (IZR z) 0 then gamma * (IZR z * IZR z) else 0))) by (cbn [xltb]; destruct (Rlt_dec (IZR z) 0); reflexivity).
  exists (Ztrunc (IZR (Ztrunc v) + (if Rlt_dec (IZR z) 0 then gamma * (IZR z * IZR z) else 0))). split.
  { refine (eq_trans (f_equal store EQ) _). apply (store_nonneg store Hst); unfold fits in *; destruct (Rlt_dec (IZR z) 0); lra. }
  apply trunc_nonneg_upto; destruct (Rlt_dec (IZR z) 0); lra.
Qed.
Lemma map_fin_inj (l m : list R) : map Fin l = map Fin m -> l = m.
Proof. revert m. induction l as [|x l IH]; intros [|y m] H; try discriminate; [reflexivity|]. injection H as -> H. f_equal. auto. Qed.

Lemma ints_map zs : ints zs = map Fin (map IZR zs).
Proof. unfold ints. rewrite map_map. reflexivity. Qed.
Lemma nth_ints zs t : (t < length zs)%nat -> nth t (ints zs) NaN = Fin (IZR (nth t zs 0%Z)).
Proof. intros H. unfold ints. rewrite (nth_indep _ NaN (Fin (IZR 0))) by (rewrite map_length; auto). rewrite (map_nth (fun z => Fin (IZR z))). reflexivity. Qed.
Lemma removelast_ints zs : removelast (ints zs) = ints (removelast zs).
Proof. unfold ints. induction zs as [|z [|z' zs] IH]; try reflexivity. change (removelast (z :: z' :: zs)) with (z :: removelast (z' :: zs)). cbn [map] in *. rewrite <- IH. reflexivity. Qed.
Lemma nth_finrow bs t : (t < length bs)%nat -> nth t (map finrow bs) (NaN, NaN) = finrow (nth t bs (0, 0)).
Proof. intros H. rewrite (nth_indep _ (NaN, NaN) (finrow (0, 0))) by (rewrite map_length; auto). apply map_nth. Qed.

Lemma stored_variance_bounded store update step zs bs s s0 : int64_cast store -> understates update step zs -> zs <> [] -> length bs = length zs -> Forall good_row bs ->
  variance_path step s0 (map IZR zs) bs s -> 0 <= s0 ->
  (forall t, (t < length zs)%nat -> fits (nth t s 0) /\ fits (step (nth t s 0) (IZR (nth t zs 0%Z)))) ->
  exists ks, (do rest <- stored_loop XRA store update (store (Fin s0)) (removelast (ints zs)) (tl (map finrow bs)); Ok (store (Fin s0) :: rest)) = Ok (ints ks) /\
    length ks = length zs /\ forall t, (t < length zs)%nat -> (0 <= nth t ks 0)%Z /\ IZR (nth t ks 0%Z) <= nth t s 0.
Proof.
  intros Hst HU HZ LB HB (LS & S0 & SR) P0 HF. rewrite map_length in LS, SR.
  assert (LZ : (0 < length zs)%nat) by (destruct zs; [congruence|cbn; lia]).
  assert (EST : store (Fin s0) = Fin (IZR (Ztrunc s0))) by (apply (store_nonneg store Hst); auto; destruct (HF 0%nat LZ) as [F _]; rewrite S0 in F; exact F).
  rewrite EST. destruct (trunc_le s0 P0) as [T0 T1].
  destruct (stored_loop_ok XRA store update (removelast (ints zs)) (Fin (IZR (Ztrunc s0))) (tl (map finrow bs))) as (out & E & L & N).
  { rewrite removelast_length, tl_length. unfold ints. rewrite !map_length. lia. }
  change (num XRA) with xr in *. rewrite E. cbn [bind]. rewrite removelast_length in L, N. unfold ints in L at 1. rewrite map_length in L.
  assert (LI : length (ints zs) = length zs) by (unfold ints; apply map_length). rewrite LI in N.
  destruct (ints_list (Fin (IZR (Ztrunc s0)) :: out) (fun t k => (0 <= k)%Z /\ IZR k <= nth t s 0)) as (ks & EK & LK & PK).
  { intros t Ht. cbn [length] in Ht. refine (understates_path store Hst update step zs bs s (Ztrunc s0) out HU LB HB T0 _ _ _ _ t _).
    - rewrite S0. exact T1.
    - intros u Hu. rewrite (SR u Hu). do 2 f_equal. exact (map_nth IZR zs 0%Z u).
    - intros u Hu. split; [apply HF; lia|apply HF; lia].
    - intros u Hu. rewrite (N u NaN (NaN, NaN)) by lia. f_equal. f_equal.
      + f_equal. rewrite removelast_nth by (rewrite LI; lia). apply nth_ints. lia.
      + rewrite tl_nth. apply nth_finrow. lia.
    - lia. }
  exists ks. rewrite <- EK. split; [reflexivity|]. cbn [length] in LK, PK. split; [lia|]. intros t Ht. apply PK. lia.
Qed.

Theorem C123_integer_garch : forall store omega alpha beta bc zs bs s, int64_cast store -> 0 <= omega -> 0 <= alpha -> 0 <= beta -> 0 <= bc ->
  small_ints zs -> zs <> [] -> length bs = length zs -> Forall good_row bs ->
  garch_variance_py XRA [Fin omega; Fin alpha; Fin beta] (ints zs) (Fin bc) (map finrow bs) = Ok (map Fin s) ->
  (forall t, (t < length zs)%nat -> fits (nth t s 0) /\ fits (omega + alpha * IZR (nth t zs 0%Z) ^ 2 + beta * nth t s 0)) ->
  exists ks, garch_variance_stored XRA store [Fin omega; Fin alpha; Fin beta] (ints zs) (Fin bc) (map finrow bs) = Ok (ints ks) /\
    length ks = length zs /\ forall t, (t < length zs)%nat -> (0 <= nth t ks 0)%Z /\ IZR (nth t ks 0%Z) <= nth t s 0.
Proof.
  intros store omega alpha beta bc zs bs s Hst Ho Ha Hb Hc _ HZ LB HB E HF.
  assert (HZ' : map IZR zs <> []) by (destruct zs; [congruence|discriminate]).
  destruct (C02_garch_path omega alpha beta bc (map IZR zs) bs HZ' ltac:(rewrite map_length; auto) HB) as (s' & E' & HP).
  rewrite <- ints_map in E'. rewrite E in E'. injection E' as E'. apply map_fin_inj in E'. subst s'.
  destruct (stored_variance_bounded store _ _ zs bs s _ Hst (garch_understates store omega alpha beta zs Hst Ho Ha Hb) HZ LB HB HP) as (ks & EK & PK).
  - assert (0 <= (alpha + beta) * bc) by (apply Rmult_le_pos; lra). lra.
  - exact HF.
  - exists ks. split; [|exact PK]. rewrite <- EK. unfold garch_variance_stored. destruct (ints zs) eqn:EZ; [destruct zs; [congruence|discriminate]|]. reflexivity.
Qed.
Theorem C123_integer_gjr : forall store omega alpha gamma beta bc zs bs s, int64_cast store -> 0 <= omega -> 0 <= alpha -> 0 <= gamma -> 0 <= beta -> 0 <= bc ->
  small_ints zs -> zs <> [] -> length bs = length zs -> Forall good_row bs ->
  gjr_variance_py XRA [Fin omega; Fin alpha; Fin gamma; Fin beta] (ints zs) (Fin bc) (map finrow bs) = Ok (map Fin s) ->
  (forall t, (t < length zs)%nat -> fits (nth t s 0) /\ fits (gjr_update omega alpha gamma beta (nth t s 0) (IZR (nth t zs 0%Z)))) ->
  exists ks, gjr_variance_stored XRA store [Fin omega; Fin alpha; Fin gamma; Fin beta] (ints zs) (Fin bc) (map finrow bs) = Ok (ints ks) /\
    length ks = length zs /\ forall t, (t < length zs)%nat -> (0 <= nth t ks 0)%Z /\ IZR (nth t ks 0%Z) <= nth t s 0.
Proof.
  intros store omega alpha gamma beta bc zs bs s Hst Ho Ha Hg Hb Hc _ HZ LB HB E HF.
  assert (HZ' : map IZR zs <> []) by (destruct zs; [congruence|discriminate]).
  destruct (C02_gjr_path omega alpha gamma beta bc (map IZR zs) bs HZ' ltac:(rewrite map_length; auto) HB) as (s' & E' & HP).
  rewrite <- ints_map in E'. rewrite E in E'. injection E' as E'. apply map_fin_inj in E'. subst s'.
  destruct (stored_variance_bounded store _ _ zs bs s _ Hst (gjr_understates store omega alpha gamma beta zs Hst Ho Ha Hg Hb) HZ LB HB HP) as (ks & EK & PK).
  - assert (0 <= (alpha + gamma / 2 + beta) * bc) by (apply Rmult_le_pos; lra). lra.
  - exact HF.
  - exists ks. split; [|exact PK]. rewrite <- EK. unfold gjr_variance_stored. destruct (ints zs) eqn:EZ; [destruct zs; [congruence|discriminate]|]. cbv zeta. cbn [nadd nmul ndiv ofZ XRA]. rewrite xdiv_fin by lra. reflexivity.
Qed.

(** *** C123: one variance below one and the likelihood of the integer variances is not a number *)
Lemma fold_nan (l : list xr) : fold_left xadd l NaN = NaN.
Proof. induction l as [|x l IH]; [reflexivity|]. cbn [fold_left xadd]. exact IH. Qed.
Lemma fold_has_nan l : forall acc, In NaN l -> fold_left xadd l acc = NaN.
Proof.
  induction l as [|x l IH]; intros acc [].
  - subst. cbn [fold_left]. replace (xadd acc NaN) with NaN by (destruct acc; reflexivity). apply fold_nan.
  - cbn [fold_left]. apply IH. exact H.
Qed.
Lemma zero_variance_term r : loglik_term XRA (Fin r) (Fin 0) = NaN.
Proof.
  unfold loglik_term. cbn [nadd nmul ndiv nsq nlog nopp ofZ lit npi XRA xsq xmul xopp]. rewrite xlog_fin by (assert (P := PI_RGT_0); lra). rewrite xlog_0.
  unfold xdiv. destruct (Req_EM_T 0 0) as [_|N]; [|congruence]. cbn [xadd]. unfold xsgn_inf. destruct (total_order_T (r * r) 0) as [[L|E]|G]; [exfalso; nra|reflexivity|reflexivity].
Qed.
Lemma likelihood_nan (rs ss : list xr) t r : (t < length rs)%nat -> (t < length ss)%nat -> nth t rs NaN = Fin r -> nth t ss NaN = Fin 0 -> loglikelihood XRA rs ss = NaN.
Proof.
  intros H1 H2 E1 E2. unfold loglikelihood. cbn [asum XRA]. apply fold_has_nan. rewrite <- (zero_variance_term r).
  revert ss t H1 H2 E1 E2. induction rs as [|x rs IH]; intros [|y ss] [|t] H1 H2 E1 E2; cbn [length] in *; try lia; cbn [nth map2] in *; [left; congruence|]. right. apply (IH ss t); auto; lia.
Qed.
Theorem C123_likelihood_refuted : forall store omega alpha beta bc zs bs s, int64_cast store -> 0 < omega -> 0 <= alpha -> 0 <= beta -> 0 <= bc ->
  small_ints zs -> zs <> [] -> length bs = length zs -> Forall good_row bs ->
  garch_variance_py XRA [Fin omega; Fin alpha; Fin beta] (ints zs) (Fin bc) (map finrow bs) = Ok (map Fin s) ->
  (forall t, (t < length zs)%nat -> fits (nth t s 0) /\ fits (omega + alpha * IZR (nth t zs 0%Z) ^ 2 + beta * nth t s 0)) ->
  (exists t, (t < length zs)%nat /\ nth t s 0 < 1) ->
  (exists l, loglikelihood XRA (ints zs) (map Fin s) = Fin l) /\
  exists k, garch_variance_stored XRA store [Fin omega; Fin alpha; Fin beta] (ints zs) (Fin bc) (map finrow bs) = Ok k /\ loglikelihood XRA (ints zs) k = NaN.
Proof.
  intros store omega alpha beta bc zs bs s Hst Ho Ha Hb Hc HS HZ LB HB E HF (t & Ht & Hlt). split.
  - assert (HZ' : map IZR zs <> []) by (destruct zs; [congruence|discriminate]).
    destruct (C01_garch_variance_positive omega alpha beta bc (map IZR zs) bs Ho Ha Hb Hc HZ' ltac:(rewrite map_length; auto) HB) as (s' & E' & _ & _ & _ & ll & EL).
    rewrite <- ints_map in E', EL. rewrite E in E'. injection E' as E'. apply map_fin_inj in E'. subst s'. exists ll. exact EL.
  - destruct (C123_integer_garch store omega alpha beta bc zs bs s Hst ltac:(lra) Ha Hb Hc HS HZ LB HB E HF) as (ks & EK & LK & PK).
    exists (ints ks). split; [exact EK|]. destruct (PK t Ht) as [P1 P2].
    assert (K0 : nth t ks 0%Z = 0%Z) by (assert (IZR (nth t ks 0%Z) < 1) by lra; apply lt_IZR in H; lia).
    apply (likelihood_nan _ _ t (IZR (nth t zs 0%Z))); [unfold ints; rewrite map_length; auto|unfold ints; rewrite map_length; lia|apply nth_ints; auto|].
    rewrite nth_ints by lia. rewrite K0. reflexivity.
Qed.

Theorem C123_likelihood_gjr_refuted : forall store omega alpha gamma beta bc zs bs s, int64_cast store -> 0 < omega -> 0 <= alpha -> 0 <= gamma -> 0 <= beta -> 0 <= bc ->
  small_ints zs -> zs <> [] -> length bs = length zs -> Forall good_row bs ->
  gjr_variance_py XRA [Fin omega; Fin alpha; Fin gamma; Fin beta] (ints zs) (Fin bc) (map finrow bs) = Ok (map Fin s) ->
  (forall t, (t < length zs)%nat -> fits (nth t s 0) /\ fits (gjr_update omega alpha gamma beta (nth t s 0) (IZR (nth t zs 0%Z)))) ->
  (exists t, (t < length zs)%nat /\ nth t s 0 < 1) ->
  (exists l, loglikelihood XRA (ints zs) (map Fin s) = Fin l) /\
  exists k, gjr_variance_stored XRA store [Fin omega; Fin alpha; Fin gamma; Fin beta] (ints zs) (Fin bc) (map finrow bs) = Ok k /\ loglikelihood XRA (ints zs) k = NaN.
Proof.
  intros store omega alpha gamma beta bc zs bs s Hst Ho Ha Hg Hb Hc HS HZ LB HB E HF (t & Ht & Hlt). split.
  - assert (HZ' : map IZR zs <> []) by (destruct zs; [congruence|discriminate]).
    destruct (C01_gjr_variance_positive omega alpha gamma beta bc (map IZR zs) bs Ho Ha Hg Hb Hc HZ' ltac:(rewrite map_length; auto) HB) as (s' & E' & _ & _ & _ & ll & EL).
    rewrite <- ints_map in E', EL. rewrite E in E'. injection E' as E'. apply map_fin_inj in E'. subst s'. exists ll. exact EL.
  - destruct (C123_integer_gjr store omega alpha gamma beta bc zs bs s Hst ltac:(lra) Ha Hg Hb Hc HS HZ LB HB E HF) as (ks & EK & LK & PK).
    exists (ints ks). split; [exact EK|]. destruct (PK t Ht) as [P1 P2].
    assert (K0 : nth t ks 0%Z = 0%Z) by (assert (IZR (nth t ks 0%Z) < 1) by lra; apply lt_IZR in H; lia).
    apply (likelihood_nan _ _ t (IZR (nth t zs 0%Z))); [unfold ints; rewrite map_length; auto|unfold ints; rewrite map_length; lia|apply nth_ints; auto|].
    rewrite nth_ints by lia. rewrite K0. reflexivity.
Qed.

(** *** C123: forecasts from integer residuals are understated too, and are zero when below one *)
Lemma forecast_understates store omega alpha gamma beta : int64_cast store -> 0 <= omega -> 0 <= alpha -> 0 <= gamma -> 0 <= beta ->
  forall zs k p out, (0 <= k)%Z -> IZR k <= p -> forecast_loop XRA (Fin omega) (Fin alpha) (Fin gamma) (Fin beta) (Fin p) (ints zs) = map Fin out -> Forall fits out ->
  exists ks, forecast_stored_loop XRA store (Fin omega) (Fin alpha) (Fin gamma) (Fin beta) (Fin (IZR k)) (ints zs) = ints ks /\ Forall2 (fun j v => (0 <= j)%Z /\ IZR j <= v) ks out.
Proof.
  intros Hst Ho Ha Hg Hb. induction zs as [|z zs IH]; intros k p out K1 K2 E HF.
  - destruct out; [|discriminate]. exists []. split; [reflexivity|constructor].
  - cbn [ints map forecast_loop forecast_stored_loop] in *. cbv zeta in *.
    assert (EG : gjr_step XRA (Fin omega) (Fin alpha) (Fin gamma) (Fin beta) (Fin p) (Fin (IZR z)) = Fin (gjr_update omega alpha gamma beta p (IZR z))).
    { unfold gjr_step, gjr_update. cbn [nadd nmul nsq nltb ofZ XRA xsq xmul xadd xltb]. destruct (Rlt_dec (IZR z) 0); cbn [xadd]; f_equal; ring. }
    change (num XRA) with xr in *. rewrite EG in E. destruct out as [|v out]; [discriminate|]. cbn [map] in E. injection E as E1 E2. subst v. inversion HF as [|? ? F1 F2]; subst.
    destruct (gjr_understates store omega alpha gamma beta [] Hst Ho Ha Hg Hb k p z K1 K2 F1) as (j & Ej & J1 & J2). change (num XRA) with xr in *. rewrite Ej.
    destruct (IH j _ out J1 J2 E2 F2) as (ks & EK & PK). exists (j :: ks). split; [cbn [ints map]; f_equal; exact EK|]. constructor; auto.
Qed.
Theorem C123_integer_forecast : forall store omega alpha gamma beta v0 zs out, int64_cast store -> 0 <= omega -> 0 <= alpha -> 0 <= gamma -> 0 <= beta -> 0 <= v0 -> fits v0 ->
  small_ints zs -> forecast_variance XRA (Fin omega) (Fin alpha) (Fin gamma) (Fin beta) (ints zs) (Fin v0) = Ok (map Fin out) -> Forall fits out ->
  exists ks, forecast_stored XRA store (Fin omega) (Fin alpha) (Fin gamma) (Fin beta) (ints zs) (Fin v0) = Ok (ints ks) /\
    Forall2 (fun j v => (0 <= j)%Z /\ IZR j <= v /\ (v < 1 -> j = 0%Z)) ks out.
Proof.
  intros store omega alpha gamma beta v0 zs out Hst Ho Ha Hg Hb H0 HV _ E HF. destruct zs as [|z zs]; [discriminate|]. unfold forecast_variance, forecast_stored in *. cbn [ints map] in *.
  change (Fin (IZR z) :: map (fun z => Fin (IZR z)) zs) with (ints (z :: zs)) in *. change (num XRA) with xr in *. rewrite removelast_ints in *. injection E as E.
  rewrite (store_nonneg store Hst v0 H0 HV). destruct (trunc_le v0 H0) as [T0 T1].
  destruct (forecast_understates store omega alpha gamma beta Hst Ho Ha Hg Hb (removelast (z :: zs)) (Ztrunc v0) v0 out T0 T1 E HF) as (ks & EK & PK).
  exists ks. split; [f_equal; exact EK|]. clear -PK. induction PK as [|j v ks out [P1 P2] _ IH]; constructor; auto. split; [auto|]. split; [auto|].
  intros L. assert (IZR j < 1) by lra. apply lt_IZR in H. lia.
Qed.

(** ** The C++ kernels on an int64 buffer *)
Lemma val_of_ff (b : binary_float 53 1024) : val (B2BSN 53 1024 b) =
  match B2FF 53 1024 b with F754_zero _ => Fin 0 | F754_infinity s => if s then MInf else PInf | F754_nan _ _ => NaN | F754_finite s m e => Fin (F2R (Float radix2 (SpecFloat.cond_Zopp s (Zpos m)) e)) end.
Proof. destruct b as [s|[]|s pl H|s m e H]; reflexivity. Qed.
Lemma val_reinterpret z : val (reinterpret z) =
  match binary_float_of_bits_aux 52 11 (z mod 2 ^ 64) with F754_zero _ => Fin 0 | F754_infinity s => if s then MInf else PInf | F754_nan _ _ => NaN | F754_finite s m e => Fin (F2R (Float radix2 (SpecFloat.cond_Zopp s (Zpos m)) e)) end.
Proof. unfold reinterpret. rewrite val_of_ff. unfold b64_of_bits, binary_float_of_bits. rewrite B2FF_FF2B. reflexivity. Qed.
(** a non-negative integer reads as that many times the smallest positive double *)
Lemma reinterpret_nonneg z : (0 <= z < 2 ^ 52)%Z -> val (reinterpret z) = Fin (IZR z * bpow radix2 (-1074)).
Proof.
  intros H. rewrite val_reinterpret. rewrite Z.mod_small by lia. unfold binary_float_of_bits_aux, split_bits.
  replace (z / Zpower 2 52)%Z with 0%Z by (symmetry; apply Z.div_small; exact H). rewrite Zmod_0_l. replace (z mod Zpower 2 52)%Z with z by (symmetry; apply Z.mod_small; exact H).
  replace (Zle_bool (Zpower 2 52 * Zpower 2 11) z) with false by (symmetry; apply Z.leb_gt; change (Zpower 2 52 * Zpower 2 11)%Z with (2 ^ 63)%Z; lia).
  change (Zeq_bool 0 0) with true. cbv iota. destruct z as [|p|p]; [f_equal; ring| |lia]. unfold F2R. cbn [Fnum Fexp SpecFloat.cond_Zopp]. reflexivity.
Qed.
(** a negative one reads as NaN *)
Lemma reinterpret_neg z : (- 2 ^ 52 < z < 0)%Z -> val (reinterpret z) = NaN.
Proof.
  intros H. rewrite val_reinterpret. replace (z mod 2 ^ 64)%Z with (2 ^ 64 + z)%Z by (apply (Z.mod_unique_pos z (2 ^ 64) (-1)); lia).
  unfold binary_float_of_bits_aux, split_bits. set (x := (2 ^ 64 + z)%Z).
  replace (x / Zpower 2 52)%Z with 4095%Z by (apply (Z.div_unique_pos x (2 ^ 52) 4095 (2 ^ 52 + z)); unfold x; lia).
  replace (x mod Zpower 2 52)%Z with (2 ^ 52 + z)%Z by (apply (Z.mod_unique_pos x (2 ^ 52) 4095); unfold x; lia).
  change (4095 mod Zpower 2 11)%Z with 2047%Z. change (Zeq_bool 2047 0) with false. change (Zeq_bool 2047 (Zpower 2 11 - 1)) with true. cbv iota.
  destruct (2 ^ 52 + z)%Z eqn:E; try lia; reflexivity.
Qed.
#[local] Opaque fadd fsub fmul fdiv fofZ val.
Lemma tiny_square x z : (0 <= z < 2 ^ 52)%Z -> val x = Fin (IZR z * bpow radix2 (-1074)) -> fmul x x = BinarySingleNaN.B754_zero false.
Proof.
  intros H E. 
  assert (V : val (fmul x x) = Fin 0).
  { rewrite val_fmul, E. cbn [xmul xrn]. set (q := _ * _ * _).
    assert (Q0 : 0 <= q) by (unfold q; nra).
    assert (Q1 : q < bpow radix2 (-1075)).
    { assert (B : IZR z < bpow radix2 52) by (change (bpow radix2 52) with (IZR (2 ^ 52)); apply IZR_lt; lia). assert (Z0 : 0 <= IZR z) by (apply IZR_le; lia).
      assert (P := bpow_gt_0 radix2 (-1074)). apply Rle_lt_trans with ((bpow radix2 52 * bpow radix2 (-1074)) * (bpow radix2 52 * bpow radix2 (-1074))).
      - unfold q. apply Rmult_le_compat; try (apply Rmult_le_pos; lra); apply Rmult_le_compat_r; lra.
      - rewrite <- !bpow_plus. apply bpow_lt. lia. }
    assert (R : rnd q = 0).
    { destruct (Req_dec q 0) as [->|NZ]; [apply rnd_0|]. unfold rnd. apply (round_N_small radix2 fexp64 (fun t => negb (Z.even t)) q (mag radix2 q)).
      - split; [apply bpow_mag_le; exact NZ|apply bpow_mag_gt].
      - assert (M : (mag radix2 q <= -1075)%Z) by (apply mag_le_bpow; [exact NZ|rewrite Rabs_pos_eq by lra; exact Q1]). unfold SpecFloat.fexp, SpecFloat.emin. lia. }
    unfold RN. rewrite R, Rabs_R0, Rlt_bool_true by apply bpow_gt_0. reflexivity. }
  apply fzero_val in V. destruct (fmul x x) as [s| | |] eqn:EM; try discriminate. f_equal.
  assert (NX : BinarySingleNaN.is_nan x = false) by (destruct x; try reflexivity; discriminate).
  assert (FX : BinarySingleNaN.is_finite x = true) by (apply val_finite_inv in E; tauto).
  generalize (BinarySingleNaN.Bmult_correct 53 1024 _ _ mode_NE x x). Local Transparent fmul. unfold fmul in EM. rewrite EM. destruct (Rlt_bool _ _).
  - intros (_ & _ & HS). specialize (HS eq_refl). cbn [BinarySingleNaN.Bsign] in HS. rewrite HS. apply xorb_nilpotent.
  - cbn. destruct (xorb _ _); discriminate.
Qed.
#[local] Opaque fmul.
(** the kernels' view of an int64 array *)
Definition as_doubles (zs : list Z) : nat -> b64 := fun i => reinterpret (nth i zs 0%Z).
Definition multiplies (lm : libm) : Prop := forall x, l_sq lm x = fmul x x.
Lemma entry_range zs lo hi i : (lo <= 0 <= hi)%Z -> Forall (fun z => (lo <= z <= hi)%Z) zs -> (lo <= nth i zs 0 <= hi)%Z.
Proof. intros H HF. destruct (Nat.lt_ge_cases i (length zs)); [rewrite Forall_forall in HF; apply HF, nth_In; auto|rewrite nth_overflow by auto; auto]. Qed.
Definition nonneg_ints (zs : list Z) : Prop := Forall (fun z => (0 <= z <= 2 ^ 52 - 1)%Z) zs.
Lemma square_read zs i : nonneg_ints zs -> fmul (as_doubles zs i) (as_doubles zs i) = fmul (fofZ 0) (fofZ 0).
Proof.
  intros HN. assert (R := entry_range zs 0 (2 ^ 52 - 1) i ltac:(lia) HN). unfold as_doubles. rewrite (tiny_square _ (nth i zs 0%Z)) by (try apply reinterpret_nonneg; lia).
  symmetry. apply (tiny_square _ 0); [lia|]. rewrite val_ofZ, RN_0. f_equal. ring.
Qed.
Lemma not_negative zs i : nonneg_ints zs -> BinarySingleNaN.Bltb (as_doubles zs i) (fofZ 0) = BinarySingleNaN.Bltb (fofZ 0) (fofZ 0).
Proof.
  intros HN. assert (R := entry_range zs 0 (2 ^ 52 - 1) i ltac:(lia) HN). rewrite !val_ltb. unfold as_doubles. rewrite reinterpret_nonneg by lia. rewrite val_ofZ, RN_0.
  rewrite !xltb_false; auto; [lra|]. apply Rmult_le_pos; [apply IZR_le; lia|apply Rlt_le, bpow_gt_0].
Qed.
(** *** C123: the C++ kernels compute, bit for bit, what they compute for residuals that are all zero, whatever the non-negative integers are *)
Theorem C123_cpp_ignores_residuals : forall lm zs omega alpha gamma beta bc vb v0 lam, multiplies lm -> nonneg_ints zs ->
  cpp_garch (B64 lm) omega alpha beta bc (as_doubles zs) vb (length zs) = cpp_garch (B64 lm) omega alpha beta bc (fun _ => fofZ 0) vb (length zs) /\
  cpp_gjr (B64 lm) omega alpha gamma beta bc (as_doubles zs) vb (length zs) = cpp_gjr (B64 lm) omega alpha gamma beta bc (fun _ => fofZ 0) vb (length zs) /\
  cpp_ewma (B64 lm) (as_doubles zs) v0 lam (length zs) = cpp_ewma (B64 lm) (fun _ => fofZ 0) v0 lam (length zs).
Proof.
  intros lm zs omega alpha gamma beta bc vb v0 lam HM HN. split; [|split]; apply map_ext; intros t; induction t as [|t IH]; try reflexivity.
  - cbn [cpp_garch_at nsq B64]. rewrite !HM. rewrite (square_read zs t HN). f_equal. f_equal. f_equal. exact IH.
  - cbn [cpp_gjr_at nsq nltb B64 ofZ]. cbv zeta. rewrite !HM. rewrite (square_read zs t HN). rewrite (not_negative zs t HN). change (num (B64 lm)) with b64 in *. rewrite IH. reflexivity.
  - cbn [cpp_ewma_at nmul B64]. rewrite (square_read zs t HN). change (num (B64 lm)) with b64 in *. rewrite IH. reflexivity.
Qed.

(** *** C123: after the first negative residual every C++ variance is NaN *)
Lemma fmul_nan_either x y : val x = NaN \/ val y = NaN -> val (fmul x y) = NaN.
Proof. rewrite val_fmul. intros [-> | ->]; [reflexivity|]. destruct (val x); reflexivity. Qed.
Lemma fadd_nan_either x y : val x = NaN \/ val y = NaN -> val (fadd x y) = NaN.
Proof. rewrite val_fadd. intros [-> | ->]; [reflexivity|]. destruct (val x); reflexivity. Qed.
Lemma check_nan lm s l u : val s = NaN -> val (bounds_check_cpp (B64 lm) s l u) = NaN.
Proof.
  intros HS. unfold bounds_check_cpp. cbn [nltb B64]. change (num (B64 lm)) with b64 in *. rewrite (val_ltb s l), HS. cbn [xltb]. rewrite (val_ltb u s), HS. replace (xltb (val u) NaN) with false by (destruct (val u); reflexivity). exact HS.
Qed.
Definition int_range (zs : list Z) : Prop := Forall (fun z => (- 2 ^ 52 + 1 <= z <= 2 ^ 52 - 1)%Z) zs.
Theorem C123_cpp_negative_residual : forall lm zs omega alpha gamma beta bc vb v0 lam t u d, multiplies lm -> int_range zs -> (nth t zs 0 < 0)%Z -> (t < u < length zs)%nat ->
  val (nth u (cpp_garch (B64 lm) omega alpha beta bc (as_doubles zs) vb (length zs)) d) = NaN /\
  val (nth u (cpp_gjr (B64 lm) omega alpha gamma beta bc (as_doubles zs) vb (length zs)) d) = NaN /\
  val (nth u (cpp_ewma (B64 lm) (as_doubles zs) v0 lam (length zs)) d) = NaN.
Proof.
  intros lm zs omega alpha gamma beta bc vb v0 lam t u d HM HR Hneg Hu.
  assert (VN : val (as_doubles zs t) = NaN) by (assert (R := entry_range zs (- 2 ^ 52 + 1) (2 ^ 52 - 1) t ltac:(lia) HR); apply reinterpret_neg; lia).
  assert (NS : forall f : nat -> b64, nth u (map f (seq 0 (length zs))) d = f u).
  { intros f. rewrite (nth_indep _ d (f 0%nat)) by (rewrite map_length, seq_length; lia). rewrite map_nth, seq_nth by lia. reflexivity. }
  assert (SQ : val (fmul (as_doubles zs t) (as_doubles zs t)) = NaN) by (apply fmul_nan_either; auto).
  destruct Hu as [Htu Hul]. split; [|split].
  - unfold cpp_garch. refine (eq_trans (f_equal val (NS _)) _). clear NS Hul. induction Htu as [|u Htu IH].
    + cbn [cpp_garch_at]. apply check_nan. cbn [nadd nmul nsq B64]. rewrite HM. apply fadd_nan_either. left. apply fadd_nan_either. right. apply fmul_nan_either. auto.
    + cbn [cpp_garch_at]. apply check_nan. cbn [nadd nmul nsq B64]. apply fadd_nan_either. right. apply fmul_nan_either. auto.
  - unfold cpp_gjr. refine (eq_trans (f_equal val (NS _)) _). clear NS Hul. induction Htu as [|u Htu IH].
    + cbn [cpp_gjr_at]. cbv zeta. apply check_nan. cbn [nadd nmul nsq nltb ofZ B64]. rewrite HM.
      assert (G : val (fadd (fadd omega (fmul alpha (fmul (as_doubles zs t) (as_doubles zs t)))) (fmul beta (cpp_gjr_at (B64 lm) omega alpha gamma beta bc (as_doubles zs) vb t))) = NaN)
        by (apply fadd_nan_either; left; apply fadd_nan_either; right; apply fmul_nan_either; auto).
      destruct (BinarySingleNaN.Bltb _ _); [apply fadd_nan_either; left|]; exact G.
    + cbn [cpp_gjr_at]. cbv zeta. apply check_nan. cbn [nadd nmul nsq nltb ofZ B64].
      assert (G : val (fadd (fadd omega (fmul alpha (l_sq lm (as_doubles zs u)))) (fmul beta (cpp_gjr_at (B64 lm) omega alpha gamma beta bc (as_doubles zs) vb u))) = NaN)
        by (apply fadd_nan_either; right; apply fmul_nan_either; auto).
      destruct (BinarySingleNaN.Bltb _ _); [apply fadd_nan_either; left|]; exact G.
  - unfold cpp_ewma. refine (eq_trans (f_equal val (NS _)) _). clear NS Hul. induction Htu as [|u Htu IH].
    + cbn [cpp_ewma_at nadd nmul B64]. apply fadd_nan_either. right. apply fmul_nan_either. auto.
    + cbn [cpp_ewma_at nadd nmul B64]. apply fadd_nan_either. left. apply fmul_nan_either. auto.
Qed.

(** *** a case: residuals 0 and 1; as float64 the variances are 1 and 3/4, as int64 they are 1 and 0; the likelihood is finite, then not a number *)
Definition trunc_store (x : xr) : xr := match x with Fin r => Fin (IZR (Ztrunc r)) | _ => x end.
Definition case_bounds : list (R * R) := [(/10, 10); (/10, 10)].
Example C123_case :
  int64_cast trunc_store /\ small_ints [0; 1]%Z /\ Forall good_row case_bounds /\
  garch_variance_py XRA [Fin (/2); Fin (/4); Fin (/4)] (ints [0; 1]%Z) (Fin 1) (map finrow case_bounds) = Ok (map Fin [1; 3/4]) /\
  (forall t, (t < 2)%nat -> fits (nth t [1; 3/4] 0) /\ fits (/2 + /4 * IZR (nth t [0; 1]%Z 0%Z) ^ 2 + /4 * nth t [1; 3/4] 0)) /\
  garch_variance_stored XRA trunc_store [Fin (/2); Fin (/4); Fin (/4)] (ints [0; 1]%Z) (Fin 1) (map finrow case_bounds) = Ok (ints [1; 0]%Z) /\
  loglikelihood XRA (ints [0; 1]%Z) (ints [1; 0]%Z) = NaN /\
  nonneg_ints [0; 1]%Z /\ int_range [5; -3; 2]%Z /\ (nth 1 [5; -3; 2]%Z 0 < 0)%Z.
Proof.
  assert (TR : forall x k, IZR k <= x < IZR (k + 1) -> 0 <= x -> Ztrunc x = k).
  { intros x k H H0. rewrite Ztrunc_floor by auto. apply Zfloor_imp. auto. }
  assert (P63 : 2 ^ 63 > 2) by (rewrite pow_IZR; apply Rlt_gt, IZR_lt; reflexivity).
  assert (GR : good_row (/10, 10)) by (unfold good_row; cbn; lra).
  split; [|split; [|split; [|split; [|split; [|split; [|split; [|split; [|split]]]]]]]].
  - intros x _. reflexivity.
  - constructor; [cbn; lia|constructor; [cbn; lia|constructor]].
  - constructor; [exact GR|constructor; [exact GR|constructor]].
  - cbn [garch_variance_py ints map removelast tl case_bounds var_loop finrow fst snd]. unfold garch_step. cbn [nadd nmul nsq XRA xadd xmul xsq].
    unfold finrow; cbn [fst snd]. replace (/ 2 + (/ 4 + / 4) * 1) with 1 by lra. rewrite check_fin by lra. cbn [bind]. replace (clip_log (/ 2 + / 4 * (0 * 0) + / 4 * 1) (/ 10) 10) with (3 / 4); [reflexivity|].
    unfold clip_log. destruct (Rle_dec _ _); [exfalso; lra|]. destruct (Rle_dec _ _); [lra|exfalso; lra].
  - intros [|[|t]] Ht; [| |lia]; unfold fits; cbn [nth]; split; lra.
  - cbn [garch_variance_stored ints map removelast tl case_bounds stored_loop finrow fst snd]. unfold stored_garch_update. cbn [nadd nmul nsq XRA xadd xmul xsq trunc_store].
    rewrite (TR (/ 2 + (/ 4 + / 4) * 1) 1%Z) by (cbn; lra). rewrite (TR (/ 2 + / 4 * (0 * 0) + / 4 * 1) 0%Z) by (cbn; lra).
    unfold finrow; cbn [fst snd]. rewrite check_fin by lra. cbn [bind trunc_store]. rewrite (TR _ 0%Z); [reflexivity| |];
    unfold clip_log; (destruct (Rle_dec _ _); [cbn; lra|exfalso; lra]).
  - apply (likelihood_nan _ _ 1 1); cbn [ints map length nth]; try lia; reflexivity.
  - constructor; [lia|constructor; [lia|constructor]].
  - constructor; [lia|constructor; [lia|constructor; [lia|constructor]]].
  - cbn. lia.
Qed.
Example C123_cpp_case : exists lm, multiplies lm.
Proof. exists Props_float5.times_libm. intros x. reflexivity. Qed.
