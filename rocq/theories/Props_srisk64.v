(** * Property C138: rounding errors in SRISK and SES *)
From Coq Require Import Reals ZArith List Bool Arith Lia Lra Psatz.
From Flocq Require Import Core BinarySingleNaN.
From Verif Require Import Arith XR RealAux Float64 Float64b Float64c Float64d Float64e Model_garch Model_measures Props_accuracy2 Props_averages Props_option64 Props_loglik64 Props_srisk Props_float4.
Import ListNotations.
Local Open Scope R_scope.

(** ** Specification *)
(** equity W, debt D, capital ratio k, long-run marginal expected shortfall L: the capital shortfall and the size of its parts *)
Definition capital_shortfall (k w d l : R) : R := k * d - (1 - k) * w * (1 - l).
Definition gross (k w d l : R) : R := k * (d + w) + w * (1 + Rabs l).
(** equity between 2^-100 and 2^100, debt and capital ratio zero or of such a size and not negative, the ratio at most one, LRMES of either sign *)
Definition firm64 (k W D L : b64) : Prop := positive64 W /\ return64 D /\ 0 <= B2R D /\ return64 L /\ return64 k /\ 0 <= B2R k <= 1.

(** ** Proofs *)
Lemma positive_val x : positive64 x -> val x = Fin (B2R x) /\ 0 < B2R x.
Proof. intros [F H]. split; [apply val_fin; exact F|]. assert (P := bpow_gt_0 radix2 (-100)). lra. Qed.
Lemma return_span x : return64 x -> 0 <= B2R x -> span 100 (B2R x).
Proof. intros [_ [E | H]] P; [left; exact E|right]. rewrite Rabs_pos_eq in H by exact P. exact H. Qed.
Lemma one_minus k : val k = Fin (B2R k) -> 0 <= B2R k <= 1 -> near 2 (fsub (fofZ 1) k) (1 - B2R k) 1.
Proof.
  intros E H. assert (E1 : val (fofZ 1) = Fin 1) by (apply val_ofZ_small; lia). assert (S := val_sub _ _ _ _ E1 E).
  destruct (RN_finite (1 - B2R k) 0) as (v & EV); [simpl; rewrite Rabs_pos_eq by lra; lra|lia|].
  apply (near_intro 2 _ v); [rewrite S; exact EV| |rewrite Rabs_pos_eq by lra; lra].
  assert (V : v = rnd (1 - B2R k)) by (unfold RN in EV; destruct (Rlt_bool _ _); [injection EV as <-; reflexivity|destruct (Rlt_bool _ _); discriminate]). subst v.
  eapply Rle_trans; [apply rnd_error|]. rewrite Rabs_pos_eq by lra. assert (P := uro_pos). assert (eta <= uro) by (unfold eta, uro; apply bpow_le; lia). simpl INR. nra.
Qed.
Lemma formula_near lm k W D L : firm64 k W D L -> near 8 (srisk_formula (B64 lm) k W D L) (capital_shortfall (B2R k) (B2R W) (B2R D) (B2R L)) (gross (B2R k) (B2R W) (B2R D) (B2R L)) /\ gross (B2R k) (B2R W) (B2R D) (B2R L) <= bpow radix2 203.
Proof.
  intros (HW & HD & D0 & HL & Hk & K1). destruct (positive_val W HW) as [EW W0]. assert (ED := val_fin D (proj1 HD)). assert (EL := val_fin L (proj1 HL)). assert (EK := val_fin k (proj1 Hk)).
  assert (SW : sized 100 0 W (B2R W)) by (apply sized_exact; [exact EW|right; apply HW]). assert (SD : sized 100 0 D (B2R D)) by (apply sized_exact; [exact ED|apply return_span; assumption]).
  assert (SK : sized 100 0 k (B2R k)) by (apply sized_exact; [exact EK|apply return_span; [assumption|lra]]).
  assert (S1 := sized_add 100 0 0 0 D W (B2R D) (B2R W) ltac:(lia) ltac:(lia) ltac:(lia) ltac:(simpl; lia) SD SW).
  assert (S2 := sized_div 101 100 1 0 _ _ _ _ ltac:(lia) ltac:(simpl; lia) S1 SW W0).
  assert (S3 := sized_mul 100 201 0 2 _ _ _ _ ltac:(lia) ltac:(simpl; lia) SK S2).
  set (lv := B2R k * ((B2R D + B2R W) / B2R W)) in *. cbn [plus] in S3. change (100 + (101 + 100))%Z with 301%Z in S3.
  assert (LV0 : 0 <= lv) by (apply (span_nonneg 301); apply S3). assert (LV1 : lv <= bpow radix2 301) by (apply (span_le 301); [lia|apply S3]).
  assert (BL := return_le L HL). assert (AL := Rabs_pos (B2R L)).
  assert (N4 : near 4 (fmul (fsub (fofZ 1) k) L) ((1 - B2R k) * B2R L) (1 * Rabs (B2R L))).
  { apply (near_mul 2 0); [simpl; lia|apply one_minus; assumption|apply near_exact; [exact EL|lra]|rewrite Rmult_1_l; apply (Rle_trans _ _ _ BL), bpow_le; lia|].
    rewrite Rmult_1_l. destruct (return_low L HL) as [Z | Z]; [left; rewrite Z, Rabs_R0; reflexivity|right; apply (Rle_trans _ (bpow radix2 (-100))); [apply bpow_le; lia|exact Z]]. }
  rewrite Rmult_1_l in N4.
  assert (B301 : bpow radix2 301 + bpow radix2 100 + 1 <= bpow radix2 303).
  { assert (bpow radix2 100 <= bpow radix2 301) by (apply bpow_le; lia). assert (bpow radix2 0 <= bpow radix2 301) by (apply bpow_le; lia). simpl (bpow radix2 0) in *. change 303%Z with (301 + 2)%Z. rewrite bpow_plus. change (bpow radix2 2) with 4. lra. }
  assert (B1000 : forall z, z <= bpow radix2 303 -> z <= bpow radix2 1000) by (intros z Hz; apply (Rle_trans _ _ _ Hz), bpow_le; lia).
  assert (N5 : near 5 (fadd (fmul k (fdiv (fadd D W) W)) (fmul (fsub (fofZ 1) k) L)) (lv + (1 - B2R k) * B2R L) (lv + Rabs (B2R L))).
  { apply (near_add 3 4 4); [lia|lia|simpl; lia|apply close_near, (sized_close 301), S3|exact N4|apply B1000; lra]. }
  assert (N6 : near 6 (fsub (fadd (fmul k (fdiv (fadd D W) W)) (fmul (fsub (fofZ 1) k) L)) (fofZ 1)) (lv + (1 - B2R k) * B2R L - 1) (lv + Rabs (B2R L) + 1)).
  { apply (near_sub 5 0 5); [lia|lia|simpl; lia|exact N5|apply near_exact; [apply val_ofZ_small; lia|rewrite Rabs_R1; lra]|apply B1000; lra]. }
  assert (G : gross (B2R k) (B2R W) (B2R D) (B2R L) = B2R W * (lv + Rabs (B2R L) + 1)) by (unfold gross, lv; field; lra).
  assert (V : capital_shortfall (B2R k) (B2R W) (B2R D) (B2R L) = B2R W * (lv + (1 - B2R k) * B2R L - 1)) by (unfold capital_shortfall, lv; field; lra).
  destruct HW as [FW BW]. assert (P := bpow_gt_0 radix2 (-100)).
  split.
  - rewrite V, G. apply (near_mul 0 6); [simpl; lia|apply near_exact; [exact EW|rewrite Rabs_pos_eq; lra]|exact N6| |right].
    + apply (Rle_trans _ (bpow radix2 100 * bpow radix2 303)); [apply Rmult_le_compat; lra|rewrite <- bpow_plus; apply bpow_le; lia].
    + apply (Rle_trans _ (bpow radix2 (-100))); [apply bpow_le; lia|]. nra.
  - unfold gross. assert (B2R D <= bpow radix2 100) by (assert (Z := return_le D HD); rewrite Rabs_pos_eq in Z by exact D0; exact Z).
    assert (E1 : bpow radix2 100 <= bpow radix2 200) by (apply bpow_le; lia). assert (E2 : B2R W * Rabs (B2R L) <= bpow radix2 200) by (change 200%Z with (100 + 100)%Z; rewrite bpow_plus; apply Rmult_le_compat; lra).
    change 203%Z with (200 + 3)%Z. rewrite bpow_plus. change (bpow radix2 3) with 8. assert (E3 : B2R k * (B2R D + B2R W) <= bpow radix2 100 + bpow radix2 100) by nra. assert (0 < bpow radix2 200) by apply bpow_gt_0. lra.
Qed.
Lemma rnd_opp r : rnd (- r) = - rnd r.
Proof. unfold rnd. rewrite round_NE_opp. reflexivity. Qed.
Lemma clip0_val lm x v : val x = Fin v -> val (clip0 (B64 lm) x) = Fin (Rmax v 0).
Proof.
  intros E. unfold clip0, npmax. cbn [isnan nltb ofZ B64 num]. rewrite !val_isnan. rewrite val_ltb. rewrite E. rewrite (val_ofZ_small 0) by lia. cbn [xisnan xltb].
  destruct (Rlt_dec v 0) as [H | H]; cbn [andb].
  - rewrite (val_ofZ_small 0) by lia. rewrite Rmax_right by lra. reflexivity.
  - rewrite E, Rmax_left by lra. reflexivity.
Qed.
(** ** C138: one firm.  Its SRISK is the capital shortfall of the inputs up to eight roundings of the gross amount it is computed from *)
Theorem C138_srisk : forall lm LR firm market k W D L t (W' D' : pyval (B64 lm)), firm64 k W D L ->
  (W' = PyFloat (B64 lm) W \/ W' = NpFloat (B64 lm) W) -> (D' = PyFloat (B64 lm) D \/ D' = NpFloat (B64 lm) D) -> LR firm market = Ok (t, L) ->
  exists t' x v, srisk_estimate_one (B64 lm) LR firm market W' D' k false = Ok (t', x) /\ val x = Fin v /\
    Rabs (v - capital_shortfall (B2R k) (B2R W) (B2R D) (B2R L)) <= 8 * bpow radix2 (-52) * gross (B2R k) (B2R W) (B2R D) (B2R L).
Proof.
  intros lm LR firm market k W D L t W' D' HF HW HD HL. destruct (formula_near lm k W D L HF) as [N _]. destruct (near_error 8 _ _ _ ltac:(simpl; lia) N) as (v & EV & DV). replace (INR 8) with 8 in DV by (simpl; lra).
  destruct (positive_val W (proj1 HF)) as [EW W0].
  assert (NZ : @neqb (B64 lm) W (ofZ 0) = false). { change (Beqb W (fofZ 0) = false). rewrite val_eqb, EW, (val_ofZ_small 0) by lia. cbn. destruct (Req_EM_T (B2R W) 0); [lra|reflexivity]. }
  unfold srisk_estimate_one, srisk_one. rewrite HL. cbn [bind].
  assert (E : exists t', srisk_single (B64 lm) k (to_scalar (B64 lm) W') (to_scalar (B64 lm) D') (t, L) = Ok (t', srisk_formula (B64 lm) k W D L)).
  { unfold srisk_single. destruct HW as [-> | ->]; destruct HD as [-> | ->]; cbn [to_scalar fst snd negb andb]; try rewrite NZ; eexists; reflexivity. }
  destruct E as (t' & E). rewrite E. cbn [bind]. exists t', (srisk_formula (B64 lm) k W D L), v. split; [reflexivity|]. split; [exact EV|exact DV].
Qed.
(** ** C138: if the exact shortfall is further from zero than that, the computed one has the right sign *)
Theorem C138_sign : forall lm LR firm market k W D L t (W' D' : pyval (B64 lm)), firm64 k W D L ->
  (W' = PyFloat (B64 lm) W \/ W' = NpFloat (B64 lm) W) -> (D' = PyFloat (B64 lm) D \/ D' = NpFloat (B64 lm) D) -> LR firm market = Ok (t, L) ->
  8 * bpow radix2 (-52) * gross (B2R k) (B2R W) (B2R D) (B2R L) < Rabs (capital_shortfall (B2R k) (B2R W) (B2R D) (B2R L)) ->
  exists t' x v, srisk_estimate_one (B64 lm) LR firm market W' D' k false = Ok (t', x) /\ val x = Fin v /\ (0 < v <-> 0 < capital_shortfall (B2R k) (B2R W) (B2R D) (B2R L)) /\ v <> 0.
Proof.
  intros lm LR firm market k W D L t W' D' HF HW HD HL HS. destruct (C138_srisk lm LR firm market k W D L t W' D' HF HW HD HL) as (t' & x & v & E & EV & DV). exists t', x, v. split; [exact E|]. split; [exact EV|].
  set (s := capital_shortfall _ _ _ _) in *. set (e := 8 * bpow radix2 (-52) * gross _ _ _ _) in *. apply Rabs_le_inv in DV. unfold Rabs in HS. destruct (Rcase_abs s); split; try split; lra.
Qed.
(** ** C138: the aggregate of many firms *)
Record firm_data := { returns_of : list b64; equity : b64; debt : b64; lrmes_of_firm : b64 }.
Definition shortfall_of (k : R) (f : firm_data) : R := capital_shortfall k (B2R (equity f)) (B2R (debt f)) (B2R (lrmes_of_firm f)).
Definition gross_of (k : R) (f : firm_data) : R := gross k (B2R (equity f)) (B2R (debt f)) (B2R (lrmes_of_firm f)).
Theorem C138_aggregate : forall lm LR market k (firms : list firm_data), firms <> [] -> (Z.of_nat (length firms) <= 2 ^ 50)%Z ->
  (forall f, In f firms -> firm64 k (equity f) (debt f) (lrmes_of_firm f) /\ exists t, LR (returns_of f) market = Ok (t, lrmes_of_firm f)) ->
  exists x v, srisk_estimate_many_aggregate (B64 lm) LR (map returns_of firms) market (map equity firms) (map debt firms) k = Ok x /\ val x = Fin v /\
    Rabs (v - Rsum (map (fun f => Rmax (shortfall_of (B2R k) f) 0) firms)) <= INR (8 + levels lm (length firms)) * bpow radix2 (-52) * Rsum (map (gross_of (B2R k)) firms).
Proof.
  intros lm LR market k firms NE HN HF.
  assert (EC : exists ls, collect (map (fun c => LR c market) (map returns_of firms)) = Ok ls /\ map snd ls = map lrmes_of_firm firms).
  { clear HN NE. induction firms as [|f fs IH]; [exists []; split; reflexivity|]. destruct (IH (fun g Hg => HF g (or_intror Hg))) as (ls & E & M). destruct (HF f (or_introl eq_refl)) as (_ & t & ET).
    exists ((t, lrmes_of_firm f) :: ls). cbn [map collect]. rewrite ET. cbn [bind]. rewrite E. cbn [bind]. split; [reflexivity|]. cbn [map snd]. rewrite M. reflexivity. }
  destruct EC as (ls & EC & ML). 
  assert (UNF : srisk_estimate_many_aggregate (B64 lm) LR (map returns_of firms) market (map equity firms) (map debt firms) k =
    bind (bind (collect (map (fun c => LR c market) (map returns_of firms))) (fun ls => Ok (map2 (fun (wd : num (B64 lm) * num (B64 lm)) (l : scalar (B64 lm)) => srisk_formula (B64 lm) k (fst wd) (snd wd) (snd l)) (combine (map equity firms) (map debt firms)) ls)))
     (fun s => Ok (fsum lm (map (clip0 (B64 lm)) s)))) by reflexivity.
  rewrite UNF, EC. cbn [bind].
  exists (fsum lm (map (fun f => clip0 (B64 lm) (srisk_formula (B64 lm) k (equity f) (debt f) (lrmes_of_firm f))) firms)).
  assert (EQ : map (clip0 (B64 lm)) (map2 (fun (wd : num (B64 lm) * num (B64 lm)) (l : scalar (B64 lm)) => srisk_formula (B64 lm) k (fst wd) (snd wd) (snd l)) (combine (map equity firms) (map debt firms)) ls)
    = map (fun f => clip0 (B64 lm) (srisk_formula (B64 lm) k (equity f) (debt f) (lrmes_of_firm f))) firms).
  { clear HN HF EC UNF NE. revert ls ML. induction firms as [|f fs IH]; intros [|l ls] ML; try discriminate; [reflexivity|]. cbn [map] in ML. injection ML as M1 M2. cbn [map combine map2 fst snd]. f_equal; [|apply IH, M2]. exact (f_equal (fun z => clip0 (B64 lm) (srisk_formula (B64 lm) k (equity f) (debt f) z)) M1). }
  set (m := map (fun f => (Rmax (shortfall_of (B2R k) f) 0, gross_of (B2R k) f)) firms).
  assert (F : Forall2 (fun x p => near 8 x (fst p) (snd p)) (map (fun f => clip0 (B64 lm) (srisk_formula (B64 lm) k (equity f) (debt f) (lrmes_of_firm f))) firms) m).
  { unfold m. clear HN EC EQ m ML UNF NE. induction firms as [|f fs IH]; [constructor|]. cbn [map]. constructor; [|apply IH; intros g Hg; apply HF; right; exact Hg]. cbn [fst snd].
    destruct (HF f (or_introl eq_refl)) as [HF1 _]. destruct (formula_near lm k _ _ _ HF1) as [(v & EV & DV & BV) _]. exists (Rmax v 0). split; [apply clip0_val; exact EV|]. fold (shortfall_of (B2R k) f) in DV, BV. fold (gross_of (B2R k) f) in DV, BV. split.
    - eapply Rle_trans; [|exact DV]. unfold Rmax. destruct (Rle_dec v 0); destruct (Rle_dec (shortfall_of (B2R k) f) 0); apply Rabs_le; unfold Rabs; destruct (Rcase_abs _); lra.
    - eapply Rle_trans; [|exact BV]. unfold Rmax. destruct (Rle_dec (shortfall_of (B2R k) f) 0); [rewrite Rabs_R0; apply Rabs_pos|lra]. }
  assert (B : Rsum (map snd m) <= bpow radix2 1000).
  { assert (Q : Rsum (map snd m) <= INR (length firms) * bpow radix2 203).
    { unfold m. rewrite map_map. cbn [snd]. clear HN EC EQ F m ML UNF NE. induction firms as [|f fs IH]; [cbn [map Rsum length INR]; lra|]. cbn [map Rsum]. cbn [length]. rewrite S_INR. assert (H1 := proj2 (formula_near lm k _ _ _ (proj1 (HF f (or_introl eq_refl))))). fold (gross_of (B2R k) f) in H1. specialize (IH (fun g Hg => HF g (or_intror Hg))). lra. }
    eapply Rle_trans; [exact Q|]. apply (Rle_trans _ (bpow radix2 50 * bpow radix2 203)); [|rewrite <- bpow_plus; apply bpow_le; lia]. apply Rmult_le_compat_r; [apply bpow_ge_0|]. rewrite INR_IZR_INZ. change (bpow radix2 50) with (IZR (2 ^ 50)). apply IZR_le. exact HN. }
  assert (KEY : forall xs : list b64, xs = (map (fun f => clip0 (B64 lm) (srisk_formula (B64 lm) k (equity f) (debt f) (lrmes_of_firm f))) firms) -> length xs = length firms) by (intros xs ->; apply map_length).
  assert (LV : (Z.of_nat (8 + levels lm (length firms)) <= 2 ^ 52)%Z).
  { destruct firms as [|f fs]; [congruence|]. assert (G := levels_lt lm (length (f :: fs)) ltac:(cbn; lia)). lia. }
  assert (N : forall xs : list b64, xs = (map (fun f => clip0 (B64 lm) (srisk_formula (B64 lm) k (equity f) (debt f) (lrmes_of_firm f))) firms) -> near (8 + levels lm (length firms)) (fsum lm xs) (Rsum (map fst m)) (Rsum (map snd m))).
  { intros xs EX. assert (LX := KEY xs EX). rewrite <- LX. apply near_fsum_sizes; [rewrite EX; exact F|exact B|rewrite LX; exact LV]. }
  specialize (N _ eq_refl). destruct (near_error _ _ _ _ LV N) as (v & EV & DV). exists v. split; [do 2 f_equal; exact EQ|]. split; [exact EV|].
  unfold m in DV. rewrite !map_map in DV. cbn [fst snd] in DV. exact DV.
Qed.
(** ** C138: SES.  With regression weights [b], [c] for MES and leverage the estimate is their weighted mean up to six roundings of the gross amount *)
Theorem C138_ses : forall lm lstsq3 mes lvg ses a b c m l, lstsq3 mes lvg ses = (a, b, c) ->
  return64 b -> return64 c -> return64 m -> return64 l -> bpow radix2 (-100) <= Rabs (B2R b + B2R c) ->
  exists v, val (ses_bflv (B64 lm) lstsq3 mes lvg ses m l) = Fin v /\
    Rabs (v - (B2R b * B2R m + B2R c * B2R l) / (B2R b + B2R c)) <= 6 * bpow radix2 (-52) * ((Rabs (B2R b * B2R m) + Rabs (B2R c * B2R l)) / Rabs (B2R b + B2R c)).
Proof.
  intros lm lstsq3 mes lvg ses a b c m l EL Hb Hc Hm Hl HS. unfold ses_bflv. rewrite EL. cbn [nadd nmul ndiv B64 num].
  assert (Eb := val_fin b (proj1 Hb)). assert (Ec := val_fin c (proj1 Hc)). assert (Em := val_fin m (proj1 Hm)). assert (El := val_fin l (proj1 Hl)).
  assert (Bb := return_le b Hb). assert (Bc := return_le c Hc). assert (Bm := return_le m Hm). assert (Bl := return_le l Hl). assert (P := bpow_gt_0 radix2 (-100)).
  assert (PR : forall x y, return64 x -> return64 y -> near 2 (fmul x y) (B2R x * B2R y) (Rabs (B2R x * B2R y)) /\ Rabs (B2R x * B2R y) <= bpow radix2 200 /\ (Rabs (B2R x * B2R y) = 0 \/ bpow radix2 (-200) <= Rabs (B2R x * B2R y))).
  { intros x y Hx Hy. assert (Bx := return_le x Hx). assert (By := return_le y Hy). rewrite Rabs_mult.
    assert (U : Rabs (B2R x) * Rabs (B2R y) <= bpow radix2 200) by (change 200%Z with (100 + 100)%Z; rewrite bpow_plus; apply Rmult_le_compat; try apply Rabs_pos; assumption).
    assert (T : Rabs (B2R x) * Rabs (B2R y) = 0 \/ bpow radix2 (-200) <= Rabs (B2R x) * Rabs (B2R y)).
    { destruct (return_low x Hx) as [Z | Zx]; [left; rewrite Z, Rabs_R0; ring|]. destruct (return_low y Hy) as [Z | Zy]; [left; rewrite Z, Rabs_R0; ring|]. right. change (-200)%Z with (-100 + -100)%Z. rewrite bpow_plus. apply Rmult_le_compat; lra. }
    split; [|split; [exact U|exact T]]. apply (near_mul 0 0); [simpl; lia|apply near_exact; [apply val_fin, Hx|lra]|apply near_exact; [apply val_fin, Hy|lra]|apply (Rle_trans _ _ _ U), bpow_le; lia|].
    destruct T as [T | T]; [left; exact T|right; apply (Rle_trans _ (bpow radix2 (-200))); [apply bpow_le; lia|exact T]]. }
  destruct (PR b m Hb Hm) as (N1 & U1 & T1). destruct (PR c l Hc Hl) as (N2 & U2 & T2).
  assert (U : Rabs (B2R b * B2R m) + Rabs (B2R c * B2R l) <= bpow radix2 201) by (change 201%Z with (200 + 1)%Z; rewrite bpow_plus; change (bpow radix2 1) with 2; lra).
  assert (N3 : near 3 (fadd (fmul b m) (fmul c l)) (B2R b * B2R m + B2R c * B2R l) (Rabs (B2R b * B2R m) + Rabs (B2R c * B2R l))).
  { apply (near_add 2 2 2); [lia|lia|simpl; lia|exact N1|exact N2|apply (Rle_trans _ _ _ U), bpow_le; lia]. }
  set (g := Rabs (B2R b * B2R m) + Rabs (B2R c * B2R l)) in *. set (s := B2R b + B2R c) in *. assert (S0 : s <> 0) by (intros Z; rewrite Z, Rabs_R0 in HS; lra).
  assert (S1 : Rabs s <= bpow radix2 101) by (change 101%Z with (100 + 1)%Z; rewrite bpow_plus; change (bpow radix2 1) with 2; unfold s; eapply Rle_trans; [apply Rabs_triang|lra]).
  assert (G0 : 0 <= g) by (unfold g; generalize (Rabs_pos (B2R b * B2R m)) (Rabs_pos (B2R c * B2R l)); lra).
  assert (SP : 0 < Rabs s) by lra. assert (IS : 0 < / Rabs s) by (apply Rinv_0_lt_compat; exact SP).
  assert (GT : g = 0 \/ bpow radix2 (-200) <= g). { unfold g. generalize (Rabs_pos (B2R b * B2R m)) (Rabs_pos (B2R c * B2R l)). destruct T1 as [T1 | T1]; destruct T2 as [T2 | T2]; intros; [left; lra|right; lra|right; lra|right; lra]. }
  assert (Q1 : g / Rabs s <= bpow radix2 1000).
  { apply (Rmult_le_reg_r (Rabs s)); [exact SP|]. unfold Rdiv. rewrite Rmult_assoc, Rinv_l, Rmult_1_r by lra. apply (Rle_trans _ _ _ U). apply (Rle_trans _ (bpow radix2 1000 * bpow radix2 (-100))); [rewrite <- bpow_plus; apply bpow_le; lia|apply Rmult_le_compat_l; [apply bpow_ge_0|exact HS]]. }
  assert (Q2 : not_tiny (g / Rabs s)).
  { destruct GT as [-> | GT]; [left; unfold Rdiv; ring|right]. apply (Rmult_le_reg_r (Rabs s)); [exact SP|]. unfold Rdiv. rewrite Rmult_assoc, Rinv_l, Rmult_1_r by lra.
    apply (Rle_trans _ (bpow radix2 (-1000) * bpow radix2 101)); [apply Rmult_le_compat_l; [apply bpow_ge_0|exact S1]|]. rewrite <- bpow_plus. apply (Rle_trans _ (bpow radix2 (-200))); [apply bpow_le; lia|exact GT]. }
  (* the divisor, up to its sign *)
  assert (CS : exists y, close 1 y (Rabs s) /\ exists w, val (fadd b c) = Fin w /\ w <> 0 /\ val y = Fin (Rabs w) /\ (0 < s -> 0 < w) /\ (s < 0 -> w < 0)).
  { assert (SA := val_add _ _ _ _ Eb Ec). fold s in SA. destruct (RN_finite s 101) as (w & EW); [exact S1|lia|].
    assert (V : w = rnd s) by (unfold RN in EW; destruct (Rlt_bool _ _); [injection EW as <-; reflexivity|destruct (Rlt_bool _ _); discriminate]).
    assert (RR : forall z, z = s \/ z = - s -> 0 < z -> rel 1 (rnd z) z /\ 0 < rnd z).
    { intros z Hz Z0. assert (R1 : rel 1 (rnd z) z). { apply rel_rnd. right. assert (AZ : Rabs s = z) by (destruct Hz as [-> | ->]; [apply Rabs_pos_eq; lra|rewrite <- Rabs_Ropp; apply Rabs_pos_eq; lra]). rewrite <- AZ. apply (Rle_trans _ (bpow radix2 (-100))); [apply bpow_le; lia|exact HS]. }
      split; [exact R1|apply (rel_pos 1 _ z Z0 R1)]. }
    destruct (Rlt_dec 0 s) as [H | H].
    - destruct (RR s (or_introl eq_refl) H) as [R1 R2]. exists (fadd b c). rewrite (Rabs_pos_eq s) by lra. rewrite <- V in R1, R2. assert (EV : val (fadd b c) = Fin w) by (rewrite SA; exact EW).
      split; [exists w; split; [exact EV|split; [lra|exact R1]]|]. exists w. split; [exact EV|]. split; [lra|]. split; [rewrite Rabs_pos_eq by lra; exact EV|]. split; lra.
    - assert (H' : 0 < - s) by (assert (s <> 0) by exact S0; lra). destruct (RR (- s) (or_intror eq_refl) H') as [R1 R2]. exists (Bopp (fadd b c)). rewrite (Rabs_left s) by lra.
      rewrite rnd_opp in R1, R2. rewrite <- V in R1, R2. assert (EV : val (fadd b c) = Fin w) by (rewrite SA; exact EW). assert (EO : val (Bopp (fadd b c)) = Fin (- w)) by (rewrite val_opp, EV; reflexivity).
      split; [exists (- w); split; [exact EO|split; [lra|exact R1]]|]. exists w. split; [exact EV|]. split; [lra|]. split; [rewrite Rabs_left by lra; exact EO|]. split; lra. }
  destruct CS as (y & CY & w & EW & W0 & EY & WP & WN).
  set (x := fadd (fmul b m) (fmul c l)) in *. set (r := B2R b * B2R m + B2R c * B2R l) in *.
  assert (RES : near 6 (fdiv x (fadd b c)) (r / s) (g / Rabs s)).
  { destruct (Rlt_dec 0 s) as [H | H].
    - rewrite (Rabs_pos_eq s) in * by lra. assert (N := near_div 3 1 x y r s g ltac:(simpl; lia) N3 CY H Q1 Q2). destruct N as (v & EV & DV & BV). exists v. split; [|split; assumption].
      rewrite <- EV. destruct N3 as (xv & EX & _). rewrite (val_div _ _ _ _ EX EW W0). rewrite (val_div _ _ _ _ EX EY) by (rewrite Rabs_pos_eq; [exact W0|apply Rlt_le, WP, H]). rewrite Rabs_pos_eq by (apply Rlt_le, WP, H). reflexivity.
    - assert (H' : s < 0) by lra. rewrite (Rabs_left s) in * by lra. assert (N := near_div 3 1 (Bopp x) y (- r) (- s) g ltac:(simpl; lia) (near_opp _ _ _ _ N3) CY ltac:(lra) Q1 Q2).
      replace (- r / - s) with (r / s) in N by (field; lra). destruct N as (v & EV & DV & BV). exists v. split; [|split; assumption].
      rewrite <- EV. destruct N3 as (xv & EX & _). assert (EX' : val (Bopp x) = Fin (- xv)) by (rewrite val_opp, EX; reflexivity). assert (WN' := WN H'). rewrite (val_div _ _ _ _ EX EW W0). rewrite (val_div _ _ _ _ EX' EY) by (rewrite Rabs_left; lra). rewrite Rabs_left by exact WN'. f_equal. field. lra. }
  destruct (near_error 6 _ _ _ ltac:(simpl; lia) RES) as (v & EV & DV). exists v. split; [exact EV|]. replace (INR 6) with 6 in DV by (simpl; lra). exact DV.
Qed.

(** Concrete case: equity 10, debt 100, capital ratio and LRMES one tenth (the double next to it) *)
Example C138_case : firm64 tenth (fofZ 10) (fofZ 100) tenth /\
  8 * bpow radix2 (-52) * gross (B2R tenth) (B2R (fofZ 10)) (B2R (fofZ 100)) (B2R tenth) < Rabs (capital_shortfall (B2R tenth) (B2R (fofZ 10)) (B2R (fofZ 100)) (B2R tenth)) /\
  return64 (fofZ 10) /\ bpow radix2 (-100) <= Rabs (B2R (fofZ 10) + B2R (Bopp (fofZ 100))) /\ return64 (Bopp (fofZ 100)).
Proof.
  assert (V : forall z, (1 <= z <= 100)%Z -> return64 (fofZ z) /\ B2R (fofZ z) = IZR z).
  { intros z Hz. assert (E := val_ofZ_small z ltac:(simpl; lia)). destruct (val_finite_inv _ _ E) as [F EB]. split; [|exact EB]. split; [exact F|]. right. rewrite EB, Rabs_right by (apply Rle_ge, IZR_le; lia). split.
    - apply (Rle_trans _ (bpow radix2 0)); [apply bpow_le; lia|]. simpl. apply (IZR_le 1). lia.
    - apply (Rle_trans _ (bpow radix2 7)); [simpl; apply IZR_le; lia|apply bpow_le; lia]. }
  destruct (V 10%Z ltac:(lia)) as [R10 V10]. destruct (V 100%Z ltac:(lia)) as [R100 V100].
  assert (E : tenth = @B754_finite 53 1024 false 7205759403792794 (-56) eq_refl) by (apply SF_eq; vm_compute; reflexivity).
  assert (VT : 1 / 16 <= B2R tenth <= 1 / 8) by (rewrite E; unfold B2R, F2R; simpl; lra).
  assert (RT : return64 tenth).
  { split; [rewrite E; reflexivity|]. right. rewrite Rabs_pos_eq by lra. split; [apply (Rle_trans _ (bpow radix2 (-4))); [apply bpow_le; lia|change (bpow radix2 (-4)) with (/ 16); lra]|apply (Rle_trans _ (bpow radix2 0)); [change (bpow radix2 0) with 1; lra|apply bpow_le; lia]]. }
  split; [|split; [|split; [exact R10|split]]].
  - split; [|split; [exact R100|split; [rewrite V100; lra|split; [exact RT|split; [exact RT|lra]]]]].
    split; [apply R10|]. rewrite V10. split; [apply (Rle_trans _ (bpow radix2 0)); [apply bpow_le; lia|simpl; lra]|apply (Rle_trans _ (bpow radix2 4)); [simpl; lra|apply bpow_le; lia]].
  - rewrite V10, V100. unfold gross, capital_shortfall. rewrite (Rabs_pos_eq (B2R tenth)) by lra. set (t := B2R tenth) in *.
    assert (bpow radix2 (-52) <= / 1000000) by (apply (Rle_trans _ (bpow radix2 (-20))); [apply bpow_le; lia|simpl; lra]). assert (P := bpow_gt_0 radix2 (-52)).
    assert (TT : 99 / 1000 <= t <= 101 / 1000) by (unfold t; rewrite E; unfold B2R, F2R; simpl; lra).
    rewrite Rabs_pos_eq by nra. apply (Rle_lt_trans _ (8 * / 1000000 * 30)); [|nra]. apply Rmult_le_compat; nra.
  - rewrite B2R_Bopp, V10, V100. rewrite Rabs_left by lra. apply (Rle_trans _ (bpow radix2 0)); [apply bpow_le; lia|simpl; lra].
  - split; [rewrite is_finite_Bopp; apply R100|]. rewrite B2R_Bopp, Rabs_Ropp. destruct R100 as [_ [Z | Z]]; [left; rewrite Z; ring|right; exact Z].
Qed.
