(** * Property C147: contingent claim analysis in double precision *)
From Coquelicot Require Import Coquelicot.
From Coq Require Import Reals ZArith List Bool Arith Lia Lra Psatz.
From Flocq Require Import Core BinarySingleNaN.
From Verif Require Import Props_float4 Props_averages.
From Verif Require Import Arith XR RealAux Gauss Float64 Float64b Float64c Float64d Float64e Model_option Props_option Props_cca Props_option64.
Local Open Scope R_scope.

(** ** Specification *)
(** exp(0) is computed as 1 *)
Definition exp_zero (lm : libm) : Prop := forall x, val x = Fin 0 -> val (l_exp lm x) = Fin 1.
(** exp of a number <= 0 is computed as a number between 0 and 1 *)
Definition exp_nonpos (lm : libm) : Prop := forall x r, val x = Fin r -> r <= 0 -> exists v, val (l_exp lm x) = Fin v /\ 0 <= v <= 1.
(** how far the put may be from the exact one (property C129) *)
Definition put_error (a s r b t : R) : R := 28 * bpow radix2 (-52) * (notional a b r t 0 * (1 + sensitivity a b r t s 0)).

(** ** Proof *)
Lemma same_bits x y r : val x = Fin r -> val y = Fin r -> r <> 0 -> x = y.
Proof.
  intros Ex Ey NZ. destruct (val_finite_inv _ _ Ex) as [Fx Rx], (val_finite_inv _ _ Ey) as [Fy Ry]. apply B2R_inj.
  - destruct x as [sx|sx| |sx mx ex Hx]; try discriminate; [simpl in Rx; lra|reflexivity].
  - destruct y as [sy|sy| |sy my ey Hy]; try discriminate; [simpl in Ry; lra|reflexivity].
  - congruence.
Qed.
Lemma val_0 : val (fofZ 0) = Fin 0. Proof. apply val_ofZ_small. simpl. lia. Qed.
Lemma sub_zero x : is_finite x = true -> fsub x (fofZ 0) = x.
Proof.
  intros F. destruct (Req_dec (B2R x) 0) as [Z0 | NZ].
  - destruct x as [sx|sx| |sx mx ex Hx]; try discriminate; [destruct sx; reflexivity|]. exfalso. assert (P := @B2R_inj 53 1024). clear P. simpl in Z0. unfold F2R in Z0. simpl in Z0. assert (B := bpow_gt_0 radix2 ex). destruct sx; simpl in Z0; [assert (IZR (Z.neg mx) < 0) by (apply (IZR_lt _ 0); lia)|assert (0 < IZR (Z.pos mx)) by (apply (IZR_lt 0); lia)]; nra.
  - apply (same_bits _ _ (B2R x)); [|apply val_fin; exact F|exact NZ]. rewrite (val_sub _ _ _ _ (val_fin x F) val_0), Rminus_0_r. destruct (val_fmt _ _ (val_fin x F)). apply RN_fmt; assumption.
Qed.
Lemma mul_one x y : is_finite x = true -> B2R x <> 0 -> val y = Fin 1 -> fmul x y = x.
Proof.
  intros F NZ E. apply (same_bits _ _ (B2R x)); [|apply val_fin; exact F|exact NZ]. rewrite (val_mul _ _ _ _ (val_fin x F) E), Rmult_1_r. destruct (val_fmt _ _ (val_fin x F)). apply RN_fmt; assumption.
Qed.

Section Put.
Context (lm : libm) (x0 x1 rf b t : b64).
Let a := l_sq lm x0.
Let s := l_sq lm x1.
Hypothesis acc : accurate_libm lm.
Hypothesis one : exp_zero lm.
Hypothesis opt : option64 a b rf t s (fofZ 0).
Let ex := l_exp lm (fmul (Bopp rf) t).
Let put := snd (blsprice (B64 lm) a b rf t s (fofZ 0)).
Let debt := fsub (fmul b ex) put.
Let expo cds := fmul (fmul (Bopp (fdiv cds (fofZ 10000))) (fsub (fdiv b debt) (fofZ 1))) t.
Let protection ec := fmul (fmul (fsub (fofZ 1) ec) b) ex.
Lemma put_eq : put = fsub (fmul (fmul b ex) (l_cdf lm (Bopp (fsub (fdiv (fadd (l_log lm (fdiv a b)) (fmul (fadd rf (fdiv (l_sq lm s) (fofZ 2))) t)) (fmul s (fsqrt t))) (fmul s (fsqrt t))))))
  (fmul a (l_cdf lm (Bopp (fdiv (fadd (l_log lm (fdiv a b)) (fmul (fadd rf (fdiv (l_sq lm s) (fofZ 2))) t)) (fmul s (fsqrt t)))))).
Proof.
  destruct opt as (Ha & Hb & Ht & Hs & Hr & _). destruct (pos_val a Ha) as (Ea & _ & Pa). destruct (pos_val t Ht) as (Et & _ & Pt).
  assert (Z : val (fmul (Bopp (fofZ 0)) t) = Fin 0). { assert (O : val (Bopp (fofZ 0)) = Fin (- 0)) by (rewrite val_opp, val_0; reflexivity). rewrite (val_mul _ _ _ _ O Et). replace (- 0 * B2R t) with 0 by ring. apply RN_0. }
  unfold put. rewrite prices_eq. cbn [snd]. rewrite (sub_zero rf) by apply Hr. assert (M1 := mul_one a _ (proj1 Ha) ltac:(lra) (one _ Z)). rewrite M1. reflexivity.
Qed.
Lemma prices_run cds : cca_prices (B64 lm) x0 x1 rf b t cds =
  (let ec := l_exp lm (expo cds) in if fisinf ec && negb (fisinf (expo cds)) then Err OverflowError else Ok (put, fsub put (protection ec))).
Proof.
  destruct opt as (Ha & Hb & Ht & Hs & Hr & _ & RT & _). destruct (pos_val a Ha) as (Ea & Ba & Pa). destruct (pos_val b Hb) as (Eb & Bb & Pb). destruct (pos_val t Ht) as (Et & Bt & Pt).
  assert (L : m_log (B64 lm) (fdiv a b) = Ok (l_log lm (fdiv a b))).
  { unfold m_log. cbn [nltb ofZ B64 nlog]. change (num (B64 lm)) with b64 in *. assert (PB : B2R b <> 0) by lra. assert (Q := val_div _ _ _ _ Ea Eb PB). assert (QB : bpow radix2 (-200) <= B2R a / B2R b <= bpow radix2 200).
    { split; apply (Rmult_le_reg_r (B2R b)); try exact Pb; unfold Rdiv; rewrite Rmult_assoc, Rinv_l, Rmult_1_r by exact PB.
      - apply (Rle_trans _ (bpow radix2 (-200) * bpow radix2 100)); [apply Rmult_le_compat_l; [apply bpow_ge_0|apply Bb]|rewrite <- bpow_plus; apply Ba].
      - apply (Rle_trans _ (bpow radix2 200 * bpow radix2 (-100))); [rewrite <- bpow_plus; apply Ba|apply Rmult_le_compat_l; [apply bpow_ge_0|apply Bb]]. }
    assert (P2 := bpow_gt_0 radix2 (-200)). rewrite (RN_val _ 200) in Q by (try lia; rewrite Rabs_right; lra).
    assert (R2 : bpow radix2 (-200) <= rnd (B2R a / B2R b)) by (rewrite <- (rnd_fmt (bpow radix2 (-200))); [apply rnd_mono; apply QB|rewrite <- (Rmult_1_l (bpow _ _)); apply (fmt_scaled 1); lia]).
    rewrite val_ltb, val_0, Q. rewrite xltb_true by lra. reflexivity. }
  assert (ST : m_sqrt (B64 lm) t = Ok (fsqrt t)). { unfold m_sqrt. cbn [nltb ofZ B64 nsqrt]. rewrite val_ltb, val_0, Et. rewrite xltb_false by lra. reflexivity. }
  assert (EX : m_exp (B64 lm) (fmul (Bopp rf) t) = Ok ex).
  { unfold m_exp. cbn [nexp isinf B64]. fold ex. destruct (discounted lm a b rf t s (fofZ 0) acc opt b rf Hb Hr RT) as [(v & Ev & _) _]. fold ex in Ev.
    assert (NI : fisinf ex = false). { destruct (fisinf ex) eqn:I; [|reflexivity]. exfalso. apply val_inf in I. destruct ex as [ | [] | | ]; destruct I as [I | I]; simpl in I; try discriminate; destruct b as [ | [] | | [] ]; simpl in Ev; discriminate. }
    rewrite NI. reflexivity. }
  unfold cca_prices. cbn [nsq B64 ndiv nadd nmul nsub nopp ncdf ofZ]. change (num (B64 lm)) with b64 in *. fold a s. rewrite L. cbn [bind]. rewrite ST. cbn [bind]. rewrite EX. cbn [bind]. rewrite <- put_eq. fold debt. fold (expo cds). unfold m_exp. cbn [nexp isinf B64]. 
  destruct (fisinf (l_exp lm (expo cds)) && negb (fisinf (expo cds))); reflexivity.
Qed.
End Put.

(** *** C147: the put is, bit for bit, the Black-Scholes put of blsprice without dividends; the only possible error is an overflow of the last exponential *)
Theorem C147_put_is_blsprice : forall lm x0 x1 rf b t cds, accurate_libm lm -> exp_zero lm -> option64 (l_sq lm x0) b rf t (l_sq lm x1) (fofZ 0) ->
  cca_prices (B64 lm) x0 x1 rf b t cds = Err OverflowError \/
  exists premium, cca_prices (B64 lm) x0 x1 rf b t cds = Ok (snd (blsprice (B64 lm) (l_sq lm x0) b rf t (l_sq lm x1) (fofZ 0)), premium).
Proof.
  intros lm x0 x1 rf b t cds acc one opt. rewrite (prices_run lm x0 x1 rf b t acc one opt). cbv zeta. destruct (fisinf _ && _); [left; reflexivity|right; eexists; reflexivity].
Qed.
(** *** C147: its distance from the exact put on assets of that value and volatility, and its exact upper bound *)
Theorem C147_accuracy : forall lm x0 x1 rf b t cds put premium, accurate_libm lm -> exp_zero lm -> option64 (l_sq lm x0) b rf t (l_sq lm x1) (fofZ 0) ->
  cca_prices (B64 lm) x0 x1 rf b t cds = Ok (put, premium) ->
  let a := B2R (l_sq lm x0) in let s := B2R (l_sq lm x1) in
  exists v, val put = Fin v /\ Rabs (v - merton_put a s (B2R rf) (B2R b) (B2R t)) <= put_error a s (B2R rf) (B2R b) (B2R t) /\
    Bleb put (fmul b (l_exp lm (fmul (Bopp rf) t))) = true.
Proof.
  intros lm x0 x1 rf b t cds put prem acc one opt E a s. destruct (C147_put_is_blsprice lm x0 x1 rf b t cds acc one opt) as [E' | (pr & E')]; rewrite E' in E; [discriminate|]. injection E as <- _.
  destruct (C129_accuracy lm _ _ _ _ _ _ acc opt) as (c & p & c0 & p0 & _ & Ep & E0 & _ & D). destruct (C129_bounds lm _ _ _ _ _ _ acc opt) as (_ & U & _). destruct (val_finite_inv _ _ val_0) as [_ Z0]. rewrite Z0 in E0, D.
  destruct opt as (Ha & Hb & Ht & Hs & _). destruct (pos_val _ Ha) as (_ & _ & Pa), (pos_val b Hb) as (_ & _ & Pb), (pos_val t Ht) as (_ & _ & Pt), (pos_val _ Hs) as (_ & _ & Ps).
  rewrite (blsprice_fin _ _ _ _ _ _ Pa Pb Pt Ps) in E0. rewrite stock_0 in E0. apply pair_equal_spec in E0 as [_ Q]. injection Q as Q. exists p. split; [exact Ep|]. split; [|exact U]. rewrite <- Q in D. exact D.
Qed.
(** the risky debt, as computed, and the barrier divided by it *)
Lemma computed_debt lm x0 x1 rf b t : accurate_libm lm -> option64 (l_sq lm x0) b rf t (l_sq lm x1) (fofZ 0) ->
  let a := B2R (l_sq lm x0) in let s := B2R (l_sq lm x1) in
  2 * put_error a s (B2R rf) (B2R b) (B2R t) <= risky_debt a s (B2R rf) (B2R b) (B2R t) ->
  let put := snd (blsprice (B64 lm) (l_sq lm x0) b rf t (l_sq lm x1) (fofZ 0)) in let discounted := fmul b (l_exp lm (fmul (Bopp rf) t)) in
  exists p g q, val put = Fin p /\ val discounted = Fin g /\ val (fdiv b (fsub discounted put)) = Fin (rnd q) /\ 0 <= q <= bpow radix2 452 /\ bpow radix2 (-352) <= rnd (g - p) /\ q = B2R b / rnd (g - p) /\
    exists e, val (l_exp lm (fmul (Bopp rf) t)) = Fin e.
Proof.
  intros acc opt a s HD put0 disc0; unfold put0, disc0; clear put0 disc0. set (put := snd (blsprice (B64 lm) (l_sq lm x0) b rf t (l_sq lm x1) (fofZ 0))).
  destruct (C129_accuracy lm _ _ _ _ _ _ acc opt) as (c & p & c0 & p0 & _ & Ep & E0 & _ & D). fold put in Ep. destruct (val_finite_inv _ _ val_0) as [_ Z0]. rewrite Z0 in E0, D.
  assert (HO := opt). destruct HO as (Ha & Hb & Ht & Hs & Hr & _ & RT & _). destruct (pos_val _ Ha) as (_ & Ba & Pa), (pos_val b Hb) as (Eb & Bb & Pb), (pos_val t Ht) as (Et & Bt & Pt), (pos_val _ Hs) as (_ & _ & Ps).
  rewrite (blsprice_fin _ _ _ _ _ _ Pa Pb Pt Ps) in E0. rewrite stock_0 in E0. apply pair_equal_spec in E0 as [_ Q]. injection Q as Q. rewrite <- Q in D. clear Q. fold a s in D. change (bs (strike (B2R b) (B2R rf) (B2R t)) a (s * sqrt (B2R t))) with (merton_put a s (B2R rf) (B2R b) (B2R t)) in D.
  destruct (discounted lm _ b rf t _ (fofZ 0) acc opt b rf Hb Hr RT) as [NG [G1 G2]]. set (G := B2R b * exp (- B2R rf * B2R t)) in *. set (gs := G * (1 + Rabs (B2R rf * B2R t))) in *.
  destruct (near_error 10 _ _ _ ltac:(simpl; lia) NG) as (g & Eg & DG). replace (INR 10) with 10 in DG by (simpl; lra).
  unfold risky_debt in HD. fold G in HD. cbv zeta in D. unfold put_error in HD. set (N := notional a (B2R b) (B2R rf) (B2R t) 0 * (1 + sensitivity a (B2R b) (B2R rf) (B2R t) s 0)) in *.
  assert (NGE : gs <= N). { unfold N, notional. fold (strike (B2R b) (B2R rf) (B2R t)) in G. change (strike (B2R b) (B2R rf) (B2R t)) with G. assert (SP : 0 < stock a 0 (B2R t)) by (rewrite stock_0; exact Pa). assert (AB := A_bounds _ _ _ _ _ _ opt). fold a s in AB. rewrite Z0 in AB. destruct AB as (A0 & A1 & _). change (gs <= (stock a 0 (B2R t) * (1 + Rabs (0 * B2R t)) + gs) * (1 + sensitivity a (B2R b) (B2R rf) (B2R t) s 0)).
    assert (P := Rabs_pos (0 * B2R t)). assert (GP : 0 < gs) by (assert (X := bpow_gt_0 radix2 (-300)); lra). set (se := sensitivity _ _ _ _ _ _) in *. assert (0 <= stock a 0 (B2R t) * (1 + Rabs (0 * B2R t))) by nra. nra. }
  set (w := bpow radix2 (-52)) in *. assert (W0 : 0 < w) by apply bpow_gt_0. assert (P3 := bpow_gt_0 radix2 (-300)). apply Rabs_le_inv in D, DG.
  assert (LD : w * bpow radix2 (-300) <= g - p) by nra. assert (WE : w * bpow radix2 (-300) = bpow radix2 (-352)) by (unfold w; rewrite <- bpow_plus; reflexivity). rewrite WE in LD.
  assert (PP : 0 < merton_put a s (B2R rf) (B2R b) (B2R t)). { unfold merton_put. apply bs_pos; [apply strike_pos; exact Pb|exact Pa|]. assert (SQ : 0 < sqrt (B2R t)) by (apply sqrt_lt_R0; exact Pt). apply Rmult_lt_0_compat; [exact Ps|exact SQ]. }
  assert (GG : G <= gs). { unfold gs. assert (P := Rabs_pos (B2R rf * B2R t)). assert (0 <= G) by (unfold G; assert (X := exp_pos (- B2R rf * B2R t)); nra). nra. }
  assert (UD : g - p <= bpow radix2 310). { assert (g - p <= 2 * G) by nra. apply (Rle_trans _ (bpow radix2 307 * 2)); [lra|]. rewrite bpow_double. apply bpow_le. lia. }
  assert (P352 := bpow_gt_0 radix2 (-352)).
  assert (ED := val_sub _ _ _ _ Eg Ep). rewrite (RN_val _ 310) in ED by (try lia; rewrite Rabs_right; lra). set (debt := rnd (g - p)) in *.
  assert (LB : bpow radix2 (-352) <= debt) by (unfold debt; rewrite <- (rnd_fmt (bpow radix2 (-352))); [apply rnd_mono; exact LD|rewrite <- (Rmult_1_l (bpow _ _)); apply (fmt_scaled 1); lia]).
  assert (DN : debt <> 0) by lra. assert (EQ := val_div _ _ _ _ Eb ED DN).
  assert (QB : 0 <= B2R b / debt <= bpow radix2 452). { split; [apply Rlt_le, Rdiv_lt_0_compat; lra|]. apply (Rmult_le_reg_r debt); [lra|]. unfold Rdiv. rewrite Rmult_assoc, Rinv_l, Rmult_1_r by exact DN. apply (Rle_trans _ (bpow radix2 452 * bpow radix2 (-352))); [rewrite <- bpow_plus; apply Bb|apply Rmult_le_compat_l; [apply bpow_ge_0|exact LB]]. }
  destruct (RN_in_range _ 452 QB ltac:(lia)) as [E1 P1]. rewrite E1 in EQ.
  assert (EE : exists e, val (l_exp lm (fmul (Bopp rf) t)) = Fin e). { destruct (l_exp lm (fmul (Bopp rf) t)) as [z | [] | | z m' e' H'] eqn:EL; try (eexists; reflexivity); exfalso; clear - Eg; destruct b as [ | [] | | [] ]; simpl in Eg; discriminate. }
  exists p, g, (B2R b / debt). auto 10.
Qed.
(** *** C147: with a CDS spread of zero the premium is exactly the put, unless the exact risky debt is within the rounding errors of zero *)
Theorem C147_zero_spread : forall lm x0 x1 rf b t cds, accurate_libm lm -> exp_zero lm -> option64 (l_sq lm x0) b rf t (l_sq lm x1) (fofZ 0) -> val cds = Fin 0 ->
  let a := B2R (l_sq lm x0) in let s := B2R (l_sq lm x1) in
  2 * put_error a s (B2R rf) (B2R b) (B2R t) <= risky_debt a s (B2R rf) (B2R b) (B2R t) ->
  exists put premium v, cca_prices (B64 lm) x0 x1 rf b t cds = Ok (put, premium) /\ val put = Fin v /\ val premium = Fin v.
Proof.
  intros lm x0 x1 rf b t cds acc one opt Ec a s HD. destruct (computed_debt lm x0 x1 rf b t acc opt HD) as (p & g & q & Ep & Eg & EQ & QB & LB & DQ & e & EE). set (put := snd (blsprice (B64 lm) (l_sq lm x0) b rf t (l_sq lm x1) (fofZ 0))) in *.
  assert (HO := opt). destruct HO as (_ & Hb & Ht & _). destruct (pos_val b Hb) as (Eb & Bb & Pb), (pos_val t Ht) as (Et & Bt & Pt).
  assert (V1 : val (fofZ 1) = Fin 1) by (apply val_ofZ_small; simpl; lia). assert (EM := val_sub _ _ _ _ EQ V1). assert (P1 : 0 <= rnd q) by (rewrite <- rnd_0; apply rnd_mono; apply QB).
  assert (RB : rnd q <= bpow radix2 452) by (rewrite <- (rnd_fmt (bpow radix2 452)); [apply rnd_mono; apply QB|rewrite <- (Rmult_1_l (bpow _ _)); apply (fmt_scaled 1); lia]).
  assert (B0 : 1 <= bpow radix2 452) by (change 1 with (bpow radix2 0); apply bpow_le; lia).
  rewrite (RN_val _ 452) in EM by (try lia; apply Rabs_le; lra). set (m := rnd (rnd q - 1)) in *.
  assert (V4 : val (fofZ 10000) = Fin 10000) by (apply val_ofZ_small; simpl; lia). assert (N4 : (10000 : R) <> 0) by lra. assert (EC := val_div _ _ _ _ Ec V4 N4). replace (0 / 10000) with 0 in EC by (unfold Rdiv; ring). rewrite RN_0 in EC.
  assert (EO : val (Bopp (fdiv cds (fofZ 10000))) = Fin (- 0)) by (rewrite val_opp, EC; reflexivity).
  assert (EX := val_mul _ _ _ _ EO EM). replace (- 0 * m) with 0 in EX by ring. rewrite RN_0 in EX. assert (EX2 := val_mul _ _ _ _ EX Et). rewrite Rmult_0_l, RN_0 in EX2. assert (E3 := one _ EX2).
  assert (ES := val_sub _ _ _ _ V1 E3). replace (1 - 1) with 0 in ES by ring. rewrite RN_0 in ES. assert (ES2 := val_mul _ _ _ _ ES Eb). rewrite Rmult_0_l, RN_0 in ES2.
  assert (ES3 := val_mul _ _ _ _ ES2 EE). rewrite Rmult_0_l, RN_0 in ES3. assert (EF := val_sub _ _ _ _ Ep ES3). rewrite Rminus_0_r in EF. destruct (val_fmt _ _ Ep) as [F1 F2]. rewrite (RN_fmt _ F1 F2) in EF.
  rewrite (prices_run lm x0 x1 rf b t acc one opt). cbv zeta. fold put. rewrite val_isinf, E3. cbn [xisinf andb]. exists put. eexists. exists p. split; [reflexivity|]. split; [exact Ep|exact EF].
Qed.

(** *** C147: with a non-negative spread and rate the call succeeds and the premium lies between the put minus the discounted barrier and the put, in computed numbers *)
Theorem C147_protection : forall lm x0 x1 rf b t cds c, accurate_libm lm -> exp_zero lm -> exp_nonpos lm -> option64 (l_sq lm x0) b rf t (l_sq lm x1) (fofZ 0) ->
  val cds = Fin c -> 0 <= c <= bpow radix2 100 -> 0 <= B2R rf ->
  let a := B2R (l_sq lm x0) in let s := B2R (l_sq lm x1) in let put := snd (blsprice (B64 lm) (l_sq lm x0) b rf t (l_sq lm x1) (fofZ 0)) in
  2 * put_error a s (B2R rf) (B2R b) (B2R t) <= risky_debt a s (B2R rf) (B2R b) (B2R t) -> Bleb (fofZ 0) put = true ->
  exists premium, cca_prices (B64 lm) x0 x1 rf b t cds = Ok (put, premium) /\ Bleb premium put = true /\ Bleb (fsub put (fmul b (l_exp lm (fmul (Bopp rf) t)))) premium = true.
Proof.
  intros lm x0 x1 rf b t cds c acc one neg opt Ec Hc Hr0 a s put HD HP. destruct (computed_debt lm x0 x1 rf b t acc opt HD) as (p & g & q & Ep & Eg & EQ & QB & LB & DQ & e & EE). fold put in Ep, EQ.
  assert (HO := opt). destruct HO as (_ & Hb & Ht & _ & Hr & _ & RT & _). destruct (pos_val b Hb) as (Eb & Bb & Pb), (pos_val t Ht) as (Et & Bt & Pt).
  assert (B100 : bpow radix2 100 <= bpow radix2 1000) by (apply bpow_le; lia). assert (P100 := bpow_gt_0 radix2 100). assert (P452 := bpow_gt_0 radix2 452). assert (P352 := bpow_gt_0 radix2 (-352)).
  assert (V1 : val (fofZ 1) = Fin 1) by (apply val_ofZ_small; simpl; lia). destruct (val_fmt _ _ V1) as [F1 _]. destruct (val_fmt _ _ Eb) as [Fb _]. destruct (val_fmt _ _ Ep) as [Fp Gp].
  rewrite val_leb, val_0, Ep in HP. apply xleb_iff in HP.
  (* the discounted barrier *)
  assert (EO : val (Bopp rf) = Fin (- B2R rf)) by (rewrite val_opp, (val_fin rf (proj1 Hr)); reflexivity).
  assert (EY := val_mul _ _ _ _ EO Et). rewrite (RN_val _ 100) in EY by (first [lia | rewrite Ropp_mult_distr_l_reverse, Rabs_Ropp; apply (Rle_trans _ _ _ RT); apply (Rle_trans _ (bpow radix2 7)); [simpl; lra|apply bpow_le; lia]]).
  assert (Y0 : rnd (- B2R rf * B2R t) <= 0) by (rewrite <- rnd_0; apply rnd_mono; nra).
  destruct (neg _ _ EY Y0) as (e' & EE' & E01). rewrite EE in EE'. injection EE' as <-. assert (G1 := val_mul _ _ _ _ Eb EE). rewrite Eg in G1. symmetry in G1. destruct (RN_inv _ _ G1) as (GE & Fg & Gg).
  assert (GB : 0 <= g <= B2R b). { rewrite GE. split; [rewrite <- rnd_0; apply rnd_mono; nra|rewrite <- (rnd_fmt (B2R b) Fb) at 2; apply rnd_mono; nra]. }
  (* the exponent *)
  set (D := rnd (g - p)) in *. assert (DB : D <= B2R b) by (unfold D; rewrite <- (rnd_fmt (B2R b) Fb); apply rnd_mono; lra).
  assert (Q1 : 1 <= q). { rewrite DQ. apply (Rmult_le_reg_r D); [lra|]. unfold Rdiv. rewrite Rmult_assoc, Rinv_l by lra. lra. }
  assert (RQ : 1 <= rnd q <= bpow radix2 452). { split; [rewrite <- (rnd_fmt 1 F1); apply rnd_mono; exact Q1|]. rewrite <- (rnd_fmt (bpow radix2 452)); [apply rnd_mono; apply QB|rewrite <- (Rmult_1_l (bpow _ _)); apply (fmt_scaled 1); lia]. }
  assert (EM := val_sub _ _ _ _ EQ V1). destruct (RN_in_range (rnd q - 1) 452) as [EM1 M0]; [lra|lia|]. rewrite EM1 in EM. set (m := rnd (rnd q - 1)) in *.
  assert (M1 : m <= bpow radix2 452). { unfold m. rewrite <- (rnd_fmt (bpow radix2 452)); [apply rnd_mono; lra|rewrite <- (Rmult_1_l (bpow _ _)); apply (fmt_scaled 1); lia]. }
  assert (V4 : val (fofZ 10000) = Fin 10000) by (apply val_ofZ_small; simpl; lia). assert (N4 : (10000 : R) <> 0) by lra. assert (EC := val_div _ _ _ _ Ec V4 N4).
  destruct (RN_in_range (c / 10000) 100) as [EC1 C0]; [lra|lia|]. rewrite EC1 in EC. set (c1 := rnd (c / 10000)) in *.
  assert (C1 : c1 <= bpow radix2 100). { unfold c1. rewrite <- (rnd_fmt (bpow radix2 100)); [apply rnd_mono; lra|rewrite <- (Rmult_1_l (bpow _ _)); apply (fmt_scaled 1); lia]. }
  assert (EN : val (Bopp (fdiv cds (fofZ 10000))) = Fin (- c1)) by (rewrite val_opp, EC; reflexivity).
  assert (CM : 0 <= c1 * m <= bpow radix2 552) by (split; [nra|]; change 552%Z with (100 + 452)%Z; rewrite bpow_plus; apply Rmult_le_compat; lra).
  assert (EX := val_mul _ _ _ _ EN EM). rewrite (RN_val _ 552) in EX by (try lia; rewrite Ropp_mult_distr_l_reverse, Rabs_Ropp, Rabs_right; lra). set (y := rnd (- c1 * m)) in *.
  assert (YB : - bpow radix2 552 <= y <= 0). { split; [|unfold y; rewrite <- rnd_0; apply rnd_mono; lra]. unfold y. assert (FN : fmt (- bpow radix2 552)) by (apply generic_format_opp; rewrite <- (Rmult_1_l (bpow _ _)); apply (fmt_scaled 1); lia). rewrite <- (rnd_fmt _ FN). apply rnd_mono. lra. }
  assert (YT : - bpow radix2 652 <= y * B2R t <= 0). { split; [|nra]. change 652%Z with (552 + 100)%Z. rewrite bpow_plus. assert (P552 := bpow_gt_0 radix2 552). assert (- y * B2R t <= bpow radix2 552 * bpow radix2 100) by (apply Rmult_le_compat; lra). lra. }
  assert (EX2 := val_mul _ _ _ _ EX Et). rewrite (RN_val _ 652) in EX2 by (try lia; apply Rabs_le; lra). assert (Y2 : rnd (y * B2R t) <= 0) by (rewrite <- rnd_0; apply rnd_mono; lra).
  destruct (neg _ _ EX2 Y2) as (v & Ev & V01).
  (* the protection *)
  assert (ES := val_sub _ _ _ _ V1 Ev). destruct (RN_in_range (1 - v) 1) as [ES1 S0]; [simpl; lra|lia|]. rewrite ES1 in ES. set (z := rnd (1 - v)) in *. assert (Z1 : z <= 1) by (unfold z; rewrite <- (rnd_fmt 1 F1) at 2; apply rnd_mono; lra).
  assert (ZB : 0 <= z * B2R b <= B2R b) by nra. assert (ES2 := val_mul _ _ _ _ ES Eb). destruct (RN_in_range (z * B2R b) 100) as [ES3 S2]; [lra|lia|]. rewrite ES3 in ES2. set (u := rnd (z * B2R b)) in *.
  assert (UB : u <= B2R b) by (unfold u; rewrite <- (rnd_fmt (B2R b) Fb) at 2; apply rnd_mono; lra).
  assert (UE : 0 <= u * e <= B2R b * e) by nra. assert (EK := val_mul _ _ _ _ ES2 EE). destruct (RN_in_range (u * e) 100) as [EK1 K0]; [nra|lia|]. rewrite EK1 in EK. set (k := rnd (u * e)) in *.
  assert (KG : k <= g) by (rewrite GE; unfold k; apply rnd_mono; lra). assert (EF := val_sub _ _ _ _ Ep EK). assert (EL := val_sub _ _ _ _ Ep Eg).
  rewrite (prices_run lm x0 x1 rf b t acc one opt). cbv zeta. fold put. rewrite val_isinf, Ev. cbn [xisinf andb]. eexists. split; [reflexivity|]. split; rewrite val_leb, EF.
  - rewrite Ep. apply RN_le; [exact Fp|exact Gp|lra].
  - rewrite EL. apply RN_mono. lra.
Qed.

(** *** A case: assets and barrier 1, volatility 1, one year, no interest, no CDS spread *)
Lemma Phi_half : Phi (1 / 2) <= 3 / 4.
Proof.
  rewrite Phi_erf. assert (P2 := sqrt_2pi_pos). assert (S2 : 2 <= sqrt (2 * PI)). { assert (Q : sqrt (2 * 2) <= sqrt (2 * PI)) by (apply sqrt_le_1_alt; assert (X := PI2_3_2); lra). rewrite sqrt_square in Q by lra. exact Q. }
  assert (E : erfA (1 / 2) <= 1 / 2).
  { unfold erfA. replace (1 / 2) with (RInt (fun _ : R => 1) 0 (1 / 2)) at 2 by (rewrite RInt_const; unfold scal; simpl; unfold mult; simpl; lra).
    apply RInt_le; [lra|apply gauss_ex|apply (ex_RInt_const (V := R_NormedModule))|]. intros x Hx. unfold gauss. rewrite <- exp_0. apply exp_le_mono. assert (0 <= x ^ 2) by (apply pow2_ge_0). lra. }
  set (y := sqrt (2 * PI)) in *. set (x := erfA (1 / 2)) in *. assert (Q : x / y <= 1 / 4) by (apply (Rmult_le_reg_r y); [exact P2|]; replace (x / y * y) with x by (field; lra); lra). lra.
Qed.
Example C147_case : let one := fofZ 1 in accurate_libm squaring_libm /\ (exp_zero squaring_libm /\ exp_nonpos squaring_libm) /\ option64 (l_sq squaring_libm one) one (fofZ 0) one (l_sq squaring_libm one) (fofZ 0) /\ val (fofZ 0) = Fin 0 /\
  let a := B2R (l_sq squaring_libm one) in 2 * put_error a a (B2R (fofZ 0)) (B2R one) (B2R one) <= risky_debt a a (B2R (fofZ 0)) (B2R one) (B2R one).
Proof.
  cbv zeta. assert (acc := squaring_accurate). destruct (pos64_Z 1 ltac:(lia)) as [P1 V1]. assert (E1 := val_fin _ (proj1 P1)). rewrite V1 in E1. destruct (val_finite_inv _ _ val_0) as [F0 Z0].
  assert (SQ : l_sq squaring_libm (fofZ 1) = fofZ 1). { rewrite (proj1 acc). apply mul_one; [apply P1|rewrite V1; lra|exact E1]. } rewrite SQ.
  assert (R0 : return64 (fofZ 0)) by (split; [exact F0|left; exact Z0]). assert (T0 : Rabs (B2R (fofZ 0) * B2R (fofZ 1)) <= 100) by (rewrite Z0, Rmult_0_l, Rabs_R0; lra).
  split; [exact acc|]. split; [|split; [unfold option64; auto 10|split; [exact val_0|]]].
  - split.
    + intros x E. cbn [l_exp squaring_libm perfect_libm]. rewrite val_of_xr, E. cbn [xexp xrn]. rewrite exp_0. destruct (val_fmt _ _ E1). apply RN_fmt; assumption.
    + intros x r E Hr. cbn [l_exp squaring_libm perfect_libm]. rewrite val_of_xr, E. cbn [xexp xrn]. assert (EP := exp_pos r). assert (EU : exp r <= 1) by (rewrite <- exp_0; apply exp_le_mono; exact Hr). exists (rnd (exp r)). destruct (RN_in_range (exp r) 1) as [G1 G2]; [simpl; lra|lia|]. split; [exact G1|]. split; [exact G2|]. destruct (val_fmt _ _ E1) as [F1 _]. rewrite <- (rnd_fmt 1 F1). apply rnd_mono. exact EU.
  - rewrite V1, Z0. unfold risky_debt. assert (H1 : 0 < 1) by lra. destruct (bs_from_code 1 1 0 1 1 H1 H1 H1 H1) as (BS & _). cbv zeta in BS. rewrite BS. clear BS. rewrite sqrt_1. replace (1 / 1) with 1 by field. rewrite ln_1. replace ((0 + (0 + 1 * 1 / 2) * 1) / (1 * 1)) with (1 / 2) by field. replace (- (1 / 2 - 1 * 1)) with (1 / 2) by lra.
    replace (- 0 * 1) with 0 by ring. rewrite exp_0, Phi_symmetric. assert (PH := Phi_half). unfold put_error, notional, sensitivity. rewrite stock_0. unfold strike. replace (- 0 * 1) with 0 by ring. rewrite exp_0, sqrt_1. replace (0 * 1) with 0 by ring. rewrite Rabs_R0. replace (1 / 1) with 1 by field. rewrite ln_1, Rabs_R0. assert (W : bpow radix2 (-52) <= / 1048576) by (apply (Rle_trans _ (bpow radix2 (-20))); [apply bpow_le; lia|simpl; lra]). lra.
Qed.
