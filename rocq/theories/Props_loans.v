(** * Properties C67, C68, C69, C79: loan payoffs, the promised yield, the standard Merton system *)
From Coq Require Import Reals Lra.
From Coquelicot Require Import Coquelicot.
From Verif Require Import Arith XR RealAux Gauss Model_option Props_option Props_cca Model_merton.
Local Open Scope R_scope.

(** ** Specification *)
(** expected assets of the borrowers given the common factor, and the volatility left *)
Definition expected_assets (f ival rho sig T : R) : R := exp (f + ival + 1 / 2 * (1 - rho) * T * (sig * sig)).
Definition idiosyncratic_vol (rho sig T : R) : R := sig * sqrt T * sqrt (1 - rho).
Definition loan_ok (F rho sig T : R) : Prop := 0 < F /\ rho < 1 /\ 0 < sig /\ 0 < T.
(** the lenders receive min(F, assets): the expectation of it is F minus a put and assets minus a call *)
Definition payoff (F f ival rho sig T : R) : R := F - bs F (expected_assets f ival rho sig T) (idiosyncratic_vol rho sig T).

Lemma idio_pos F rho sig T : loan_ok F rho sig T -> 0 < idiosyncratic_vol rho sig T.
Proof. intros (_ & Hr & Hs & HT). unfold idiosyncratic_vol. repeat apply Rmult_lt_0_compat; auto; apply sqrt_lt_R0; lra. Qed.
Lemma payoff_call F f ival rho sig T : 0 < F ->
  payoff F f ival rho sig T = expected_assets f ival rho sig T - bs (expected_assets f ival rho sig T) F (idiosyncratic_vol rho sig T).
Proof. intros HF. unfold payoff. assert (H := bs_parity F (expected_assets f ival rho sig T) (idiosyncratic_vol rho sig T) HF (exp_pos _)). lra. Qed.

(** ** C67 *)
Theorem C67_face_minus_put : forall F f ival rho sig T, loan_ok F rho sig T ->
  loan_payoff XRA (Fin F) (Fin f) (Fin ival) (Fin rho) (Fin sig) (Fin T) = Fin (payoff F f ival rho sig T).
Proof.
  intros F f ival rho sig T HO. assert (Hs := idio_pos _ _ _ _ HO). destruct HO as (HF & Hr & Hsig & HT).
  unfold loan_payoff. cbn [nexp nadd nsub nmul nsq nsqrt nlog ncdf nopp ofZ lit XRA xadd xsub xmul xopp xsq xexp].
  rewrite !xsqrt_fin by lra. rewrite xlog_fin by auto. cbn [xmul xsub]. fold (idiosyncratic_vol rho sig T). set (s := idiosyncratic_vol rho sig T) in *.
  rewrite xdiv_fin by lra. cbn [xsub xopp xncdf xmul xadd]. f_equal.
  replace (5 / 10) with (1 / 2) by lra. fold (expected_assets f ival rho sig T). set (EA := expected_assets f ival rho sig T).
  assert (HE : 0 < EA) by apply exp_pos.
  unfold payoff. fold EA. fold s. unfold bs. set (a := (ln F - f - ival) / s).
  assert (EL : ln (F / EA) = a * s - s * s / 2).
  { unfold Rdiv at 1. rewrite ln_mult, ln_Rinv by (auto; apply Rinv_0_lt_compat; auto). unfold EA, expected_assets. rewrite ln_exp.
    assert (ES : s * s = sig * sig * T * (1 - rho)).
    { unfold s, idiosyncratic_vol. replace (sig * sqrt T * sqrt (1 - rho) * (sig * sqrt T * sqrt (1 - rho))) with (sig * sig * (sqrt T * sqrt T) * (sqrt (1 - rho) * sqrt (1 - rho))) by ring.
      rewrite !sqrt_sqrt by lra. reflexivity. }
    rewrite ES. unfold a. field. lra. }
  rewrite EL. replace ((a * s - s * s / 2) / s + s / 2) with a by (field; lra). replace ((a * s - s * s / 2) / s - s / 2) with (- (s - a)) by (field; lra).
  rewrite !Phi_symmetric. ring.
Qed.
Lemma payoff_bounds : forall F f ival rho sig T, loan_ok F rho sig T ->
  0 < payoff F f ival rho sig T < Rmin F (expected_assets f ival rho sig T).
Proof.
  intros F f ival rho sig T HO. assert (Hs := idio_pos _ _ _ _ HO). destruct HO as (HF & _).
  assert (HE : 0 < expected_assets f ival rho sig T) by apply exp_pos. assert (HC := payoff_call F f ival rho sig T HF).
  assert (B1 := bs_below_F F (expected_assets f ival rho sig T) (idiosyncratic_vol rho sig T) HF HE).
  assert (P1 := bs_pos F (expected_assets f ival rho sig T) (idiosyncratic_vol rho sig T) HF HE Hs).
  assert (P2 := bs_pos (expected_assets f ival rho sig T) F (idiosyncratic_vol rho sig T) HE HF Hs).
  split; [unfold payoff; lra|]. apply Rmin_glb_lt; [unfold payoff|]; lra.
Qed.
Lemma payoff_increasing_in_face : forall F F' f ival rho sig T, loan_ok F rho sig T -> F < F' ->
  payoff F f ival rho sig T < payoff F' f ival rho sig T < payoff F f ival rho sig T + (F' - F).
Proof.
  intros F F' f ival rho sig T HO HL. assert (Hs := idio_pos _ _ _ _ HO). destruct HO as (HF & _). split.
  - rewrite !payoff_call by lra. assert (H := bs_decr_D (expected_assets f ival rho sig T) F F' (idiosyncratic_vol rho sig T) (exp_pos _) ltac:(lra) Hs). lra.
  - unfold payoff. assert (H := bs_incr_F F F' (expected_assets f ival rho sig T) (idiosyncratic_vol rho sig T) ltac:(lra) (exp_pos _) Hs). lra.
Qed.
Lemma payoff_increasing_in_factor : forall F f f' ival rho sig T, loan_ok F rho sig T -> f < f' ->
  payoff F f ival rho sig T < payoff F f' ival rho sig T.
Proof.
  intros F f f' ival rho sig T HO HL. assert (Hs := idio_pos _ _ _ _ HO). destruct HO as (HF & _). unfold payoff.
  assert (expected_assets f ival rho sig T < expected_assets f' ival rho sig T) by (apply exp_increasing; lra).
  assert (H0 := bs_decr_D F (expected_assets f ival rho sig T) (expected_assets f' ival rho sig T) (idiosyncratic_vol rho sig T) HF ltac:(split; [apply exp_pos|auto]) Hs). lra.
Qed.
(** the factor and the initial asset value only enter through their sum, and scaling both face and assets scales the payoff *)
Lemma payoff_scaling : forall c F f ival rho sig T, loan_ok F rho sig T -> 0 < c ->
  payoff (c * F) f (ival + ln c) rho sig T = c * payoff F f ival rho sig T /\ payoff F (f + ln c) ival rho sig T = payoff F f (ival + ln c) rho sig T.
Proof.
  intros c F f ival rho sig T HO Hc. destruct HO as (HF & _). split.
  - unfold payoff. assert (E : expected_assets f (ival + ln c) rho sig T = c * expected_assets f ival rho sig T).
    { unfold expected_assets. replace (f + (ival + ln c) + 1 / 2 * (1 - rho) * T * (sig * sig)) with (ln c + (f + ival + 1 / 2 * (1 - rho) * T * (sig * sig))) by ring.
      rewrite exp_plus, exp_ln by auto. reflexivity. }
    rewrite E. unfold bs. replace (c * F / (c * expected_assets f ival rho sig T)) with (F / expected_assets f ival rho sig T); [ring|].
    assert (H := exp_pos (f + ival + 1 / 2 * (1 - rho) * T * (sig * sig))). fold (expected_assets f ival rho sig T) in H. field. lra.
  - unfold payoff. replace (expected_assets (f + ln c) ival rho sig T) with (expected_assets f (ival + ln c) rho sig T); [reflexivity|].
    unfold expected_assets. f_equal. ring.
Qed.
(** the same facts about the returned numbers *)
Definition paid (F f ival rho sig T v : R) : Prop := loan_payoff XRA (Fin F) (Fin f) (Fin ival) (Fin rho) (Fin sig) (Fin T) = Fin v.
Lemma paid_payoff F f ival rho sig T v : loan_ok F rho sig T -> paid F f ival rho sig T v -> v = payoff F f ival rho sig T.
Proof. intros HO E. unfold paid in E. rewrite C67_face_minus_put in E by auto. congruence. Qed.
Theorem C67_bounds : forall F f ival rho sig T, loan_ok F rho sig T -> exists v, paid F f ival rho sig T v /\ 0 < v < Rmin F (expected_assets f ival rho sig T).
Proof. intros. eexists. split; [apply C67_face_minus_put; auto|]. apply payoff_bounds; auto. Qed.
Theorem C67_increasing_in_face : forall F F' f ival rho sig T v v', loan_ok F rho sig T -> F < F' -> paid F f ival rho sig T v -> paid F' f ival rho sig T v' ->
  v < v' < v + (F' - F).
Proof.
  intros F F' f ival rho sig T v v' HO HL H H'. apply paid_payoff in H; [|auto]. apply paid_payoff in H'; [|destruct HO as (H0 & HO); split; [lra|auto]]. subst. apply payoff_increasing_in_face; auto.
Qed.
Theorem C67_increasing_in_factor : forall F f f' ival rho sig T v v', loan_ok F rho sig T -> f < f' -> paid F f ival rho sig T v -> paid F f' ival rho sig T v' -> v < v'.
Proof. intros F f f' ival rho sig T v v' HO HL H H'. apply paid_payoff in H; [|auto]. apply paid_payoff in H'; [|auto]. subst. apply payoff_increasing_in_factor; auto. Qed.
Theorem C67_scaling : forall c F f ival rho sig T v, loan_ok F rho sig T -> 0 < c -> paid F f ival rho sig T v ->
  paid (c * F) f (ival + ln c) rho sig T (c * v) /\ forall w, paid F (f + ln c) ival rho sig T w <-> paid F f (ival + ln c) rho sig T w.
Proof.
  intros c F f ival rho sig T v HO Hc H. apply paid_payoff in H; [|auto]. subst v. destruct (payoff_scaling c F f ival rho sig T HO Hc) as [E1 E2].
  split; [unfold paid; rewrite C67_face_minus_put; [congruence|destruct HO as (H0 & HO); split; [apply Rmult_lt_0_compat; auto|auto]]|].
  intros w. unfold paid. rewrite !C67_face_minus_put by auto. rewrite E2. tauto.
Qed.
Example C67_case : loan_ok (7/10) (1/2) (1/5) 10.
Proof. unfold loan_ok. lra. Qed.

(** ** C68: the promised yield *)
(** value of a loan of face value F on assets worth exp(ival) *)
Definition loan_value (F ival sig T r d : R) : R := F * exp (- r * T) - bs (strike F r T) (stock (exp ival) d T) (sig * sqrt T).
Lemma loan_value_call F ival sig T r d : 0 < F -> loan_value F ival sig T r d = stock (exp ival) d T - bs (stock (exp ival) d T) (strike F r T) (sig * sqrt T).
Proof.
  intros HF. unfold loan_value. assert (H := bs_parity (strike F r T) (stock (exp ival) d T) (sig * sqrt T) (strike_pos F r T HF) (stock_pos _ d T (exp_pos ival))).
  unfold strike in *. lra.
Qed.
Lemma loan_value_pos F ival sig T r d : 0 < F -> 0 < sig -> 0 < T -> 0 < loan_value F ival sig T r d < F * exp (- r * T).
Proof.
  intros HF Hs HT. unfold loan_value. assert (H := bs_below_F (strike F r T) (stock (exp ival) d T) (sig * sqrt T) (strike_pos F r T HF) (stock_pos _ d T (exp_pos ival))).
  assert (H2 := bs_pos (strike F r T) (stock (exp ival) d T) (sig * sqrt T) (strike_pos F r T HF) (stock_pos _ d T (exp_pos ival)) ltac:(apply Rmult_lt_0_compat; [auto|apply sqrt_lt_R0; auto])).
  unfold strike in *. lra.
Qed.
Lemma find_face_value_fin mu F ival sig T r d : 0 < F -> 0 < sig -> 0 < T ->
  find_face_value_indiv XRA (Fin mu) (Fin F) (Fin ival) (Fin sig) (Fin T) (Fin r) (Fin d) = Fin (mu - 1 / T * ln (F / loan_value F ival sig T r d)).
Proof.
  intros HF Hs HT. unfold find_face_value_indiv. cbn [nexp XRA xexp]. rewrite blsprice_fin by (auto; apply exp_pos). cbn [snd].
  cbn [nmul nopp nsub ndiv nlog ofZ XRA xopp xmul xexp xsub]. fold (loan_value F ival sig T r d).
  assert (H := loan_value_pos F ival sig T r d HF Hs HT). rewrite (xdiv_fin F) by lra. rewrite (xdiv_fin 1) by lra.
  rewrite xlog_fin by (apply Rdiv_lt_0_compat; lra). reflexivity.
Qed.
Theorem C68_fair_yield : forall mu F ival sig T r d, 0 < F -> 0 < sig -> 0 < T ->
  snd (blsprice XRA (Fin (exp ival)) (Fin F) (Fin r) (Fin T) (Fin sig) (Fin d)) = Fin (F * exp (- r * T) - loan_value F ival sig T r d) /\
  (find_face_value_indiv XRA (Fin mu) (Fin F) (Fin ival) (Fin sig) (Fin T) (Fin r) (Fin d) = Fin 0 <->
   F * exp (- mu * T) = loan_value F ival sig T r d) /\
  (find_face_value_indiv XRA (Fin mu) (Fin F) (Fin ival) (Fin sig) (Fin T) (Fin r) (Fin d) = Fin 0 -> r < mu).
Proof.
  intros mu F ival sig T r d HF Hs HT. assert (HL := loan_value_pos F ival sig T r d HF Hs HT). rewrite find_face_value_fin by auto.
  split. { rewrite blsprice_fin by (auto; apply exp_pos). cbn [snd]. unfold loan_value. f_equal. ring. }
  assert (E : Fin (mu - 1 / T * ln (F / loan_value F ival sig T r d)) = Fin 0 <-> F * exp (- mu * T) = loan_value F ival sig T r d).
  { assert (LQ : ln (F / loan_value F ival sig T r d) = ln F - ln (loan_value F ival sig T r d)) by (unfold Rdiv; rewrite ln_mult, ln_Rinv by (try apply Rinv_0_lt_compat; lra); ring).
    assert (LE : ln (F * exp (- mu * T)) = ln F - mu * T) by (rewrite ln_mult, ln_exp by (auto; apply exp_pos); ring).
    split; intros H.
    - injection H as H. apply ln_inv; [apply Rmult_lt_0_compat; [auto|apply exp_pos]|lra|]. rewrite LE. rewrite LQ in H.
      apply (f_equal (fun z => z * T)) in H. replace ((mu - 1 / T * (ln F - ln (loan_value F ival sig T r d))) * T) with (mu * T - (ln F - ln (loan_value F ival sig T r d))) in H by (field; lra). lra.
    - f_equal. rewrite LQ. rewrite <- H, LE. field. lra. }
  split; [exact E|]. intros H. apply E in H. assert (X : exp (- mu * T) < exp (- r * T)) by (apply (Rmult_lt_reg_l F); [auto|lra]).
  apply exp_lt_inv in X. nra.
Qed.

(** ** C79: with the face value F = bookF * exp(mu T) used by the code, the equation has at most one root, and has one
    exactly when ltv < exp(-d T) *)
Definition yield_error (bookF ltv sig T r d mu : R) : xr :=
  find_face_value_indiv XRA (Fin mu) (Fin (bookF * exp (mu * T))) (Fin (ln bookF - ln ltv)) (Fin sig) (Fin T) (Fin r) (Fin d).
Definition contract_ok (bookF ltv sig T : R) : Prop := 0 < bookF /\ 0 < ltv /\ 0 < sig /\ 0 < T.
Lemma yield_error_root bookF ltv sig T r d mu : contract_ok bookF ltv sig T ->
  yield_error bookF ltv sig T r d mu = Fin 0 <-> loan_value (bookF * exp (mu * T)) (ln bookF - ln ltv) sig T r d = bookF.
Proof.
  intros (Hb & Hl & Hs & HT). unfold yield_error. assert (HF : 0 < bookF * exp (mu * T)) by (apply Rmult_lt_0_compat; [auto|apply exp_pos]).
  destruct (C68_fair_yield mu (bookF * exp (mu * T)) (ln bookF - ln ltv) sig T r d HF Hs HT) as (_ & E & _). rewrite E.
  rewrite Rmult_assoc, <- exp_plus. replace (mu * T + - mu * T) with 0 by ring. rewrite exp_0, Rmult_1_r. split; auto.
Qed.
Lemma loan_value_incr F F' ival sig T r d : 0 < F < F' -> 0 < sig -> 0 < T -> loan_value F ival sig T r d < loan_value F' ival sig T r d.
Proof.
  intros HF Hs HT. rewrite !loan_value_call by lra.
  assert (H := bs_decr_D (stock (exp ival) d T) (strike F r T) (strike F' r T) (sig * sqrt T) (stock_pos _ d T (exp_pos ival))
    ltac:(split; [apply strike_pos; lra|apply Rmult_lt_compat_r; [apply exp_pos|lra]]) ltac:(apply Rmult_lt_0_compat; [auto|apply sqrt_lt_R0; auto])). lra.
Qed.
Theorem C79_yield_unique : forall bookF ltv sig T r d mu mu', contract_ok bookF ltv sig T ->
  yield_error bookF ltv sig T r d mu = Fin 0 -> yield_error bookF ltv sig T r d mu' = Fin 0 -> mu = mu'.
Proof.
  intros bookF ltv sig T r d mu mu' HO H H'. apply yield_error_root in H, H'; auto. destruct HO as (Hb & Hl & Hs & HT).
  assert (X : forall m m', m < m' -> loan_value (bookF * exp (m * T)) (ln bookF - ln ltv) sig T r d < loan_value (bookF * exp (m' * T)) (ln bookF - ln ltv) sig T r d).
  { intros m m' Hm. apply loan_value_incr; auto. split; [apply Rmult_lt_0_compat; [auto|apply exp_pos]|]. apply Rmult_lt_compat_l; [auto|]. apply exp_increasing. nra. }
  destruct (Rtotal_order mu mu') as [L|[L|L]]; [|auto|]; apply X in L; lra.
Qed.
Lemma bs_vanishes F v eps : 0 < F -> 0 < v -> 0 < eps -> exists D, 0 < D /\ bs F D v < eps.
Proof.
  intros HF Hv He. destruct (Phi_small (eps / F)) as (x & Hx); [apply Rdiv_lt_0_compat; auto|].
  exists (F * exp (- (v * (x - v / 2)))). assert (HD : 0 < F * exp (- (v * (x - v / 2)))) by (apply Rmult_lt_0_compat; [auto|apply exp_pos]). split; [auto|].
  unfold bs. assert (EL : ln (F / (F * exp (- (v * (x - v / 2))))) / v + v / 2 = x).
  { replace (F / (F * exp (- (v * (x - v / 2))))) with (exp (v * (x - v / 2))).
    - rewrite ln_exp. field. lra.
    - rewrite exp_Ropp. field. split; [|lra]. assert (H := exp_pos (v * (x - v / 2))). lra. }
  rewrite EL. apply lt_div_iff in Hx; [|auto]. assert (P := Phi_range (ln (F / (F * exp (- (v * (x - v / 2))))) / v - v / 2)).
  assert (0 < F * exp (- (v * (x - v / 2))) * Phi (ln (F / (F * exp (- (v * (x - v / 2))))) / v - v / 2)) by (apply Rmult_lt_0_compat; lra). lra.
Qed.
Lemma Phi_continuous x : continuous Phi x.
Proof. apply (ex_derive_continuous Phi). eexists. apply Phi_derive. Qed.
Lemma bs_continuous F D v : 0 < F -> 0 < D -> 0 < v -> continuous (fun D => bs F D v) D.
Proof.
  intros HF HD Hv. apply (ex_derive_continuous (fun D => bs F D v)). unfold bs. auto_derive.
  assert (0 < / D) by (apply Rinv_0_lt_compat; auto). assert (0 < F * / D) by (apply Rmult_lt_0_compat; auto).
  repeat split; try lra; try (eexists; apply Phi_derive); try apply Rgt_not_eq; auto.
Qed.
Theorem C79_yield_exists : forall bookF ltv sig T r d, contract_ok bookF ltv sig T ->
  ((exists mu, yield_error bookF ltv sig T r d mu = Fin 0) <-> ltv < exp (- d * T)).
Proof.
  intros bookF ltv sig T r d HO. assert (HO' := HO). destruct HO' as (Hb & Hl & Hs & HT). set (iv := ln bookF - ln ltv).
  assert (HV : 0 < sig * sqrt T) by (apply Rmult_lt_0_compat; [auto|apply sqrt_lt_R0; auto]).
  assert (HX : exp iv = bookF / ltv). { unfold iv, Rminus. rewrite exp_plus, exp_Ropp, !exp_ln by auto. reflexivity. }
  assert (HS : 0 < stock (exp iv) d T) by (apply stock_pos, exp_pos).
  assert (FP : forall mu, 0 < bookF * exp (mu * T)) by (intros; apply Rmult_lt_0_compat; [auto|apply exp_pos]). split.
  - intros (mu & H). apply yield_error_root in H; auto. fold iv in H. rewrite loan_value_call in H by auto.
    assert (P := bs_pos (stock (exp iv) d T) (strike (bookF * exp (mu * T)) r T) (sig * sqrt T) HS (strike_pos _ _ _ (FP mu)) HV).
    assert (L : bookF < stock (exp iv) d T) by lra. unfold stock in L. rewrite HX in L. unfold Rdiv in L.
    apply (Rmult_lt_compat_r ltv) in L; [|auto]. replace (bookF * / ltv * exp (- d * T) * ltv) with (bookF * exp (- d * T)) in L by (field; lra).
    apply Rmult_lt_reg_l in L; auto.
  - intros HL. assert (HG : bookF < stock (exp iv) d T).
    { unfold stock. rewrite HX. apply (Rmult_lt_reg_r ltv); [auto|]. replace (bookF / ltv * exp (- d * T) * ltv) with (bookF * exp (- d * T)) by (field; lra). apply Rmult_lt_compat_l; auto. }
    destruct (bs_vanishes (stock (exp iv) d T) (sig * sqrt T) (stock (exp iv) d T - bookF)) as (D0 & HD0 & HE); [auto|auto|lra|].
    set (h := fun mu => bs (stock (exp iv) d T) (bookF * exp (mu * T) * exp (- r * T)) (sig * sqrt T)).
    assert (HC : Ranalysis1.continuity h).
    { intros mu. apply continuity_pt_filterlim. unfold h.
      apply (continuous_comp (fun mu => bookF * exp (mu * T) * exp (- r * T)) (fun D => bs (stock (exp iv) d T) D (sig * sqrt T))).
      - apply (ex_derive_continuous (fun mu => bookF * exp (mu * T) * exp (- r * T))). auto_derive. auto.
      - apply bs_continuous; auto. apply Rmult_lt_0_compat; [apply FP|apply exp_pos]. }
    set (mu1 := (ln D0 - ln bookF) / T + r).
    assert (E1 : h mu1 = bs (stock (exp iv) d T) D0 (sig * sqrt T)).
    { unfold h. f_equal. rewrite Rmult_assoc, <- exp_plus. replace (mu1 * T + - r * T) with (ln D0 - ln bookF) by (unfold mu1; field; lra).
      unfold Rminus. rewrite exp_plus, exp_Ropp, !exp_ln by auto. field. lra. }
    assert (E2 : stock (exp iv) d T - bookF < h r).
    { unfold h. rewrite Rmult_assoc, <- exp_plus. replace (r * T + - r * T) with 0 by ring. rewrite exp_0, Rmult_1_r.
      assert (P := bs_parity (stock (exp iv) d T) bookF (sig * sqrt T) HS Hb). assert (Q := bs_pos bookF (stock (exp iv) d T) (sig * sqrt T) Hb HS HV). lra. }
    destruct (IVT_gen h r mu1 (stock (exp iv) d T - bookF) HC) as (mu & _ & Hmu).
    { rewrite E1. split; [apply Rle_trans with (bs (stock (exp iv) d T) D0 (sig * sqrt T)); [apply Rmin_r|lra]|apply Rle_trans with (h r); [lra|apply Rmax_l]]. }
    exists mu. apply yield_error_root; auto. fold iv. rewrite loan_value_call by auto. unfold strike. fold (h mu). rewrite Hmu. ring.
Qed.
Example C79_case : contract_ok (66/100) (66/100) (1/5) 10 /\ 66/100 < exp (- 0 * 10).
Proof. unfold contract_ok. replace (- 0 * 10) with 0 by ring. rewrite exp_0. lra. Qed.

(** ** C69: the standard Merton system *)
(** cum-dividend equity value of the standard Merton model (the dividends go to the equity holders) and its volatility times its value *)
Definition merton_equity (a s D r d T : R) : R := bs (stock a d T) (strike D r T) (s * sqrt T) + a * (1 - exp (- d * T)).
Definition merton_delta (a s D r d T : R) : R :=
  exp (- d * T) * Phi ((ln a - ln D + (r - d + s * s / 2) * T) / (s * sqrt T)) + (1 - exp (- d * T)).
Lemma merton_solution_fin a s E D r d T sigE : 0 < a -> 0 < s -> 0 < D -> 0 < T -> E <> 0 ->
  merton_solution XRA (Fin a) (Fin s) (Fin E) (Fin D) (Fin r) (Fin d) (Fin T) (Fin sigE) =
  (Fin (E - merton_equity a s D r d T), Fin (sigE - merton_delta a s D r d T * (a / E) * s)).
Proof.
  intros Ha Hs HD HT HE. unfold merton_solution. cbn [nltb XRA ofZ]. rewrite !xltb_false by lra. rewrite blsprice_fin by auto. cbn [fst].
  assert (HV : 0 < s * sqrt T) by (apply Rmult_lt_0_compat; [auto|apply sqrt_lt_R0; auto]).
  cbn [nmul nadd nsub nsq nopp nexp nlog nsqrt ncdf ndiv XRA xopp xmul xexp xsub xadd xsq]. rewrite !xlog_fin by auto. rewrite xsqrt_fin by lra. rewrite (xdiv_fin (s * s)) by lra.
  rewrite (xdiv_fin a) by auto. cbn [xmul xadd xsub]. rewrite xdiv_fin by lra. cbn [xncdf xmul xadd xsub]. fold (merton_delta a s D r d T). unfold merton_equity. f_equal; f_equal; ring.
Qed.
(** at positive asset value and volatility both errors vanish exactly at the solution of the two Merton equations *)
Theorem C69_solution : forall a s E D r d T sigE, 0 < a -> 0 < s -> 0 < D -> 0 < T -> E <> 0 ->
  fst (blsprice XRA (Fin a) (Fin D) (Fin r) (Fin T) (Fin s) (Fin d)) = Fin (merton_equity a s D r d T - a * (1 - exp (- d * T))) /\
  (merton_solution XRA (Fin a) (Fin s) (Fin E) (Fin D) (Fin r) (Fin d) (Fin T) (Fin sigE) = (Fin 0, Fin 0) <->
   E = merton_equity a s D r d T /\ sigE * E = merton_delta a s D r d T * a * s).
Proof.
  intros a s E D r d T sigE Ha Hs HD HT HE. split. { rewrite blsprice_fin by auto. cbn [fst]. unfold merton_equity. f_equal. ring. }
  rewrite merton_solution_fin by auto. split.
  - intros H. injection H as H1 H2. split; [lra|]. apply (f_equal (fun z => z * E)) in H2.
    replace ((sigE - merton_delta a s D r d T * (a / E) * s) * E) with (sigE * E - merton_delta a s D r d T * a * s) in H2 by (field; auto). lra.
  - intros (H1 & H2). f_equal; f_equal; [lra|]. replace sigE with (merton_delta a s D r d T * a * s / E) by (rewrite <- H2; field; auto). field. auto.
Qed.
Lemma xncdf_pinf : ncdf (a:=XRA) PInf = Fin 1. Proof. reflexivity. Qed.
Lemma xncdf_minf : ncdf (a:=XRA) MInf = Fin 0. Proof. reflexivity. Qed.
(** a negative volatility is replaced by 0 and the "penalty" 9999999 * 0^2 vanishes: the error is the one of riskless assets,
    whatever the size of the violation, and the second error is just sigE *)
Theorem C69_negative_volatility : forall a s E D r d T sigE, 0 < a -> s < 0 -> 0 < D -> 0 < T -> E <> 0 ->
  a * exp (- d * T) <> D * exp (- r * T) ->
  merton_solution XRA (Fin a) (Fin s) (Fin E) (Fin D) (Fin r) (Fin d) (Fin T) (Fin sigE) =
  (Fin (E - (Rmax (a * exp (- d * T) - D * exp (- r * T)) 0 + a * (1 - exp (- d * T)))), Fin sigE).
Proof.
  intros a s E D r d T sigE Ha Hs HD HT HE HN. unfold merton_solution. cbn [nltb XRA ofZ]. rewrite (xltb_true s 0) by lra. rewrite (xltb_false a 0) by lra.
  assert (HL : 0 < a * exp (- d * T)) by (apply Rmult_lt_0_compat; [auto|apply exp_pos]). assert (HR : 0 < D * exp (- r * T)) by (apply Rmult_lt_0_compat; [auto|apply exp_pos]).
  set (x := ln (a / D) + (r - d + 0 * 0 / 2) * T).
  assert (EX : x = ln (a * exp (- d * T)) - ln (D * exp (- r * T))).
  { unfold x. rewrite !ln_mult, !ln_exp by (auto; apply exp_pos). unfold Rdiv. rewrite ln_mult, ln_Rinv by (try apply Rinv_0_lt_compat; auto). field. }
  assert (EX2 : ln a - ln D + (r - d + 0 * 0 / 2) * T = x). { unfold x, Rdiv at 2. rewrite ln_mult, ln_Rinv by (try apply Rinv_0_lt_compat; auto). ring. }
  assert (HX : x <> 0). { intros HX. apply HN. apply ln_inv; auto. lra. }
  unfold blsprice. cbn [ndiv nlog nadd nsub nmul nsq nsqrt nexp nopp ofZ XRA xsq xopp xmul]. rewrite !xsqrt_fin by lra.
  rewrite !(xdiv_fin _ 2), !(xdiv_fin a) by lra. rewrite !xlog_fin by (auto; apply Rdiv_lt_0_compat; auto). cbn [xmul xadd xsub xopp xexp].
  fold x. rewrite EX2. rewrite Rmult_0_l, !xdiv_0. destruct (Rlt_dec 0 x) as [L|L].
  - rewrite (xsgn_inf_pos x) by auto. cbn [xsub xadd xopp ncdf XRA xncdf fst xmul]. f_equal; f_equal; [|ring].
    rewrite Rmax_left by (left; assert (ln (D * exp (- r * T)) < ln (a * exp (- d * T))) by lra; apply ln_lt_inv in H; auto; lra). ring.
  - rewrite (xsgn_inf_neg x) by lra. cbn [xsub xadd xopp ncdf XRA xncdf fst xmul]. f_equal; f_equal; [|ring].
    rewrite Rmax_right by (left; assert (ln (a * exp (- d * T)) < ln (D * exp (- r * T))) by lra; apply ln_lt_inv in H; auto; lra). ring.
Qed.
(** a negative asset value is replaced by 0: the errors are (E, sigE), again without any penalty *)
Theorem C69_negative_assets : forall a s E D r d T sigE, a < 0 -> 0 < D -> 0 < T -> E <> 0 ->
  merton_solution XRA (Fin a) (Fin s) (Fin E) (Fin D) (Fin r) (Fin d) (Fin T) (Fin sigE) = (Fin E, Fin sigE).
Proof.
  intros a s E D r d T sigE Ha HD HT HE. assert (HQ : 0 < sqrt T) by (apply sqrt_lt_R0; auto).
  assert (G : forall s' e', 0 <= s' ->
    (let '(sig, esig) := (Fin s', Fin e') in let '(As, eA) := (Fin 0, Fin 9999999) in
     let C := nadd (a:=XRA) (fst (blsprice XRA As (Fin D) (Fin r) (Fin T) sig (Fin d))) (xmul As (xsub (Fin 1) (xexp (xmul (xopp (Fin d)) (Fin T))))) in
     let d1 := xdiv (xadd (xsub (xlog As) (xlog (Fin D))) (xmul (xadd (xsub (Fin r) (Fin d)) (xdiv (xsq sig) (Fin 2))) (Fin T))) (xmul sig (xsqrt (Fin T))) in
     let v := xmul (xmul (xadd (xmul (xexp (xmul (xopp (Fin d)) (Fin T))) (xncdf d1)) (xsub (Fin 1) (xexp (xmul (xopp (Fin d)) (Fin T))))) (xdiv As (Fin E))) sig in
     let pen := xadd (xmul esig (xsq sig)) (xmul eA (xsq As)) in
     (xadd (xsub (Fin E) C) pen, xadd (xsub (Fin sigE) v) pen)) = (Fin (E + e' * (s' * s')), Fin (sigE + e' * (s' * s')))).
  { intros s' e' Hs'. cbv zeta.
    unfold blsprice. cbn [ndiv nlog nadd nsub nmul nsq nsqrt nexp nopp ofZ XRA xsq xopp xmul]. rewrite !xsqrt_fin by lra.
    rewrite !(xdiv_fin _ 2), !(xdiv_fin 0) by lra. replace (0 / D) with 0 by (unfold Rdiv; ring). replace (0 / E) with 0 by (unfold Rdiv; ring). rewrite xlog_0, xlog_fin by auto.
    cbn [xmul xadd xsub xopp xexp].
    assert (ED : xdiv MInf (Fin (s' * sqrt T)) = MInf). { unfold xdiv. destruct (Rlt_dec (s' * sqrt T) 0); [nra|reflexivity]. }
    rewrite ED. cbn [xsub xadd xopp ncdf XRA xncdf fst xmul]. f_equal; f_equal; ring. }
  unfold merton_solution. cbn [nltb XRA ofZ]. rewrite (xltb_true a 0) by lra. destruct (Rlt_dec s 0) as [L|L].
  - rewrite (xltb_true s 0) by lra. etransitivity; [apply (G 0 9999999); lra|]. f_equal; f_equal; ring.
  - rewrite (xltb_false s 0) by lra. etransitivity; [apply (G s 0); lra|]. f_equal; f_equal; ring.
Qed.
(** so the error is the same for every negative volatility (no gradient back to the feasible region), and it can even be zero in
    its first component *)
Theorem C69_penalty_refuted : forall a s s' E D r d T sigE, 0 < a -> s < 0 -> s' < 0 -> 0 < D -> 0 < T -> E <> 0 ->
  a * exp (- d * T) <> D * exp (- r * T) ->
  merton_solution XRA (Fin a) (Fin s) (Fin E) (Fin D) (Fin r) (Fin d) (Fin T) (Fin sigE) =
  merton_solution XRA (Fin a) (Fin s') (Fin E) (Fin D) (Fin r) (Fin d) (Fin T) (Fin sigE).
Proof. intros. rewrite !C69_negative_volatility by auto. reflexivity. Qed.
Example C69_case : merton_solution XRA (Fin 2) (Fin (-1)) (Fin 1) (Fin 1) (Fin 0) (Fin 0) (Fin 1) (Fin (1/2)) = (Fin 0, Fin (1/2)).
Proof.
  assert (E0 : exp (- 0 * 1) = 1) by (replace (- 0 * 1) with 0 by ring; apply exp_0).
  rewrite C69_negative_volatility by (try lra; rewrite E0; lra). rewrite !E0. f_equal. f_equal. rewrite Rmax_left by lra. ring.
Qed.
