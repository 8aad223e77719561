(** * Property C105: the closed-form prices are expected discounted payoffs *)
From Coq Require Import Reals Lra Lia.
From Coquelicot Require Import Coquelicot.
From Verif Require Import Arith XR RealAux Gauss Model_option Props_option Props_cca Model_merton Props_loans.
Local Open Scope R_scope.

(** ** Specification *)
(** the expectation of f(Z), Z standard normal, as an improper integral: the integrals of f(z) e^(-z^2/2)/sqrt(2 pi) over [a, b] exist and come arbitrarily close to m as
    a and b tend to minus and plus infinity independently of each other *)
Definition normal_mean (f : R -> R) (m : R) : Prop := forall eps, 0 < eps -> exists M, forall a b, a <= - M -> M <= b ->
  exists I, is_RInt (fun z => f z * (exp (- z ^ 2 / 2) / sqrt (2 * PI))) a b I /\ Rabs (I - m) < eps.
(** price at T of an asset worth S with drift r - q and volatility sigma (geometric Brownian motion) *)
Definition price_at (S r q sigma T z : R) : R := S * exp ((r - q - sigma ^ 2 / 2) * T + sigma * sqrt T * z).
(** assets at maturity of a borrower, given the common factor: the idiosyncratic part of the log has variance (1 - rho) sigma^2 T *)
Definition borrower_assets (f ival rho sig T z : R) : R := exp (f + ival + sig * sqrt (T * (1 - rho)) * z).

(** ** Expectations *)
Lemma mean_unique f m m' : normal_mean f m -> normal_mean f m' -> m = m'.
Proof.
  intros H H'. destruct (Req_dec m m') as [|N]; [auto|exfalso]. assert (HE : 0 < Rabs (m - m') / 2) by (assert (0 < Rabs (m - m')) by (apply Rabs_pos_lt; lra); lra).
  destruct (H _ HE) as (M & HM). destruct (H' _ HE) as (M' & HM'). set (X := Rmax M M'). assert (M <= X) by apply Rmax_l. assert (M' <= X) by apply Rmax_r.
  destruct (HM (- X) X) as (I & I1 & I2); try lra. destruct (HM' (- X) X) as (I' & I1' & I2'); try lra.
  assert (EI : I = I') by (rewrite <- (is_RInt_unique (V := R_CompleteNormedModule) _ _ _ _ I1); exact (is_RInt_unique (V := R_CompleteNormedModule) _ _ _ _ I1')). subst I'.
  assert (Rabs (m - m') <= Rabs (I - m) + Rabs (I - m')); [|lra]. replace (m - m') with (- (I - m) + (I - m')) by ring. eapply Rle_trans; [apply Rabs_triang|]. rewrite Rabs_Ropp. lra.
Qed.
Lemma mean_ext f g m : (forall z, f z = g z) -> normal_mean f m -> normal_mean g m.
Proof.
  intros E H eps He. destruct (H eps He) as (M & HM). exists M. intros a b Ha Hb. destruct (HM a b Ha Hb) as (I & I1 & I2). exists I. split; [|exact I2].
  eapply is_RInt_ext; [|exact I1]. intros z _. cbn beta. rewrite E. reflexivity.
Qed.
Lemma mean_plus f g m n : normal_mean f m -> normal_mean g n -> normal_mean (fun z => f z + g z) (m + n).
Proof.
  intros H H' eps He. destruct (H (eps / 2) ltac:(lra)) as (M & HM). destruct (H' (eps / 2) ltac:(lra)) as (M' & HM'). exists (Rmax M M').
  assert (M <= Rmax M M') by apply Rmax_l. assert (M' <= Rmax M M') by apply Rmax_r. intros a b Ha Hb.
  destruct (HM a b) as (I & I1 & I2); try lra. destruct (HM' a b) as (J & J1 & J2); try lra. exists (I + J). split.
  - eapply is_RInt_ext; [|apply (is_RInt_plus _ _ _ _ _ _ I1 J1)]. intros z _. unfold plus; cbn. ring.
  - replace (I + J - (m + n)) with ((I - m) + (J - n)) by ring. eapply Rle_lt_trans; [apply Rabs_triang|]. lra.
Qed.
Lemma mean_scal c f m : normal_mean f m -> normal_mean (fun z => c * f z) (c * m).
Proof.
  intros H eps He. destruct (H (eps / (Rabs c + 1))) as (M & HM). { apply Rdiv_lt_0_compat; [auto|]. assert (P := Rabs_pos c). lra. }
  exists M. intros a b Ha Hb. destruct (HM a b Ha Hb) as (I & I1 & I2). exists (c * I). split.
  - eapply is_RInt_ext; [|apply (is_RInt_scal _ _ _ c _ I1)]. intros z _. unfold scal; cbn; unfold mult; cbn. ring.
  - replace (c * I - c * m) with (c * (I - m)) by ring. rewrite Rabs_mult. assert (P := Rabs_pos c).
    apply Rle_lt_trans with ((Rabs c + 1) * Rabs (I - m)). { assert (Q := Rabs_pos (I - m)). nra. }
    apply Rmult_lt_reg_r with (/ (Rabs c + 1)); [apply Rinv_0_lt_compat; lra|]. replace ((Rabs c + 1) * Rabs (I - m) * / (Rabs c + 1)) with (Rabs (I - m)) by (field; lra). exact I2.
Qed.
(** the integral of c e^(v z - v^2/2) phi(z) *)
Lemma integral_lognormal c v a b : is_RInt (fun z => c * exp (v * z - v ^ 2 / 2) * (exp (- z ^ 2 / 2) / sqrt (2 * PI))) a b (c * Phi (b - v) - c * Phi (a - v)).
Proof.
  apply (is_RInt_ext (fun z => c * phi (z - v))).
  { intros z _. unfold phi. unfold Rdiv. rewrite Rmult_assoc. rewrite <- (Rmult_assoc (exp (v * z - _)) (exp _)), <- exp_plus. do 3 f_equal. field. }
  apply (is_RInt_derive (fun z => c * Phi (z - v)) (fun z => c * phi (z - v))).
  - intros z _. apply (is_derive_scal (fun z => Phi (z - v))). replace (phi (z - v)) with (scal 1 (phi (z - v))) by (unfold scal; cbn; unfold mult; cbn; ring).
    apply (is_derive_comp (V := R_NormedModule) Phi (fun y => y - v)); [apply Phi_derive|]. auto_derive; [auto|ring].
  - intros z _. apply (ex_derive_continuous (K := R_AbsRing) (V := R_NormedModule)). unfold phi. auto_derive. auto.
Qed.
Lemma tails eps v : 0 < eps -> exists M, 0 < M /\ forall x, M <= x -> 1 - Phi (x - v) < eps /\ Phi (- x - v) < eps.
Proof.
  intros He. destruct (Phi_small eps He) as (x & Hx). exists (Rmax 1 (Rabs x + Rabs v)). split; [apply Rlt_le_trans with 1; [lra|apply Rmax_l]|].
  intros y Hy. assert (Rabs x + Rabs v <= y) by (eapply Rle_trans; [apply Rmax_r|exact Hy]). assert (A1 := Rle_abs x). assert (A2 := Rle_abs v). assert (A3 := Rle_abs (- x)). assert (A4 := Rle_abs (- v)). rewrite !Rabs_Ropp in A3, A4. rewrite Rabs_Ropp in A4 || idtac.
  split.
  - replace (y - v) with (- (v - y)) by ring. rewrite Phi_symmetric. assert (Phi (v - y) <= Phi x) by (apply Phi_nondecreasing; lra). lra.
  - assert (Phi (- y - v) <= Phi x) by (apply Phi_nondecreasing; lra). lra.
Qed.
(** a lognormal variable with mean F *)
Lemma mean_lognormal F v : normal_mean (fun z => F * exp (v * z - v ^ 2 / 2)) F.
Proof.
  apply (mean_ext (fun z => F * (1 * exp (v * z - v ^ 2 / 2)))); [intros z; ring|]. assert (H : normal_mean (fun z => F * (1 * exp (v * z - v ^ 2 / 2))) (F * 1)); [|rewrite Rmult_1_r in H; exact H]. apply (mean_scal F (fun z => 1 * exp (v * z - v ^ 2 / 2))).
  intros eps He. destruct (tails (eps / 2) v ltac:(lra)) as (M & HM0 & HM). exists M. intros a b Ha Hb. exists (1 * Phi (b - v) - 1 * Phi (a - v)). split; [apply integral_lognormal|].
  destruct (HM b Hb) as [T1 _]. destruct (HM (- a) ltac:(lra)) as [_ T2]. rewrite Ropp_involutive in T2. assert (R1 := Phi_range (b - v)). assert (R2 := Phi_range (a - v)). apply Rabs_def1; lra.
Qed.
Lemma mean_const c : normal_mean (fun _ => c) c.
Proof. apply (mean_ext (fun z => c * exp (0 * z - 0 ^ 2 / 2))); [|apply mean_lognormal]. intros z. replace (0 * z - 0 ^ 2 / 2) with 0 by field. rewrite exp_0. ring. Qed.
(** the excess of a lognormal variable over D *)
Lemma mean_excess F D v : 0 < F -> 0 < D -> 0 < v -> normal_mean (fun z => Rmax (F * exp (v * z - v ^ 2 / 2) - D) 0) (bs F D v).
Proof.
  intros HF HD Hv. set (z0 := v / 2 - ln (F / D) / v).
  assert (EX : forall z, F * exp (v * z - v ^ 2 / 2) = D * exp (v * (z - z0))).
  { intros z. rewrite <- (exp_ln F) at 1 by auto. rewrite <- (exp_ln D) at 1 by auto. rewrite <- !exp_plus. f_equal. unfold z0. rewrite ln_div by auto. field. lra. }
  assert (EB : bs F D v = F * (1 - Phi (z0 - v)) - D * (1 - Phi (z0 - 0))).
  { unfold bs. replace (ln (F / D) / v + v / 2) with (- (z0 - v)) by (unfold z0; field; lra). replace (ln (F / D) / v - v / 2) with (- (z0 - 0)) by (unfold z0; field; lra). rewrite !Phi_symmetric. reflexivity. }
  intros eps He. assert (HS : 0 < eps / (F + D)) by (apply Rdiv_lt_0_compat; lra).
  destruct (tails _ v HS) as (M1 & H1 & T1). destruct (tails _ 0 HS) as (M2 & H2 & T2). set (M := Rmax (Rmax M1 M2) (Rabs z0)).
  assert (L1 : M1 <= M) by (eapply Rle_trans; [apply Rmax_l|apply Rmax_l]). assert (L2 : M2 <= M) by (eapply Rle_trans; [apply Rmax_r|apply Rmax_l]). assert (L3 : Rabs z0 <= M) by apply Rmax_r.
  assert (A1 := Rle_abs z0). assert (A2 := Rle_abs (- z0)). rewrite Rabs_Ropp in A2.
  exists M. intros a b Ha Hb. exists (0 + ((F * Phi (b - v) - F * Phi (z0 - v)) - (D * Phi (b - 0) - D * Phi (z0 - 0)))). split.
  - apply (is_RInt_Chasles (V := R_NormedModule) _ a z0 b 0 (F * Phi (b - v) - F * Phi (z0 - v) - (D * Phi (b - 0) - D * Phi (z0 - 0)))).
    + apply (is_RInt_ext (fun _ => 0)).
      { intros z Hz. rewrite Rmin_left, Rmax_right in Hz by lra. rewrite EX. rewrite Rmax_right; [symmetry; apply Rmult_0_l|]. assert (exp (v * (z - z0)) <= 1); [|nra]. rewrite <- exp_0 at 1. left. apply exp_increasing. nra. }
      assert (IC := is_RInt_const (V := R_NormedModule) a z0 0). assert (E0 : @scal R_Ring R_ModuleSpace (z0 - a) 0 = 0) by (apply Rmult_0_r). eapply is_RInt_ext; [|exact (eq_rect _ (fun w => is_RInt _ a z0 w) IC _ E0)]. intros z _. reflexivity.
    + eapply is_RInt_ext; [|apply (is_RInt_minus _ _ _ _ _ _ (integral_lognormal F v z0 b) (integral_lognormal D 0 z0 b))].
      intros z Hz. rewrite Rmin_left, Rmax_right in Hz by lra. unfold minus, plus, opp; cbn. replace (0 * z - 0 * (0 * 1) / 2) with 0 by field. rewrite exp_0.
      change (v * (v * 1)) with (v ^ 2). change (z * (z * 1)) with (z ^ 2). rewrite EX. rewrite Rmax_left; [ring|]. assert (1 <= exp (v * (z - z0))); [|nra]. rewrite <- exp_0 at 1. left. apply exp_increasing. nra.
  - rewrite EB. destruct (T1 b ltac:(lra)) as [U1 _]. destruct (T2 b ltac:(lra)) as [U2 _]. assert (R1 := Phi_range (b - v)). assert (R2 := Phi_range (b - 0)).
    replace (0 + (F * Phi (b - v) - F * Phi (z0 - v) - (D * Phi (b - 0) - D * Phi (z0 - 0))) - (F * (1 - Phi (z0 - v)) - D * (1 - Phi (z0 - 0)))) with (D * (1 - Phi (b - 0)) - F * (1 - Phi (b - v))) by ring.
    assert (EE : F * (eps / (F + D)) + D * (eps / (F + D)) = eps) by (field; lra).
    assert (F * (1 - Phi (b - v)) < F * (eps / (F + D))) by (apply Rmult_lt_compat_l; auto). assert (D * (1 - Phi (b - 0)) < D * (eps / (F + D))) by (apply Rmult_lt_compat_l; auto).
    assert (0 < F * (1 - Phi (b - v))) by (apply Rmult_lt_0_compat; lra). assert (0 < D * (1 - Phi (b - 0))) by (apply Rmult_lt_0_compat; lra).
    assert (0 < F * (eps / (F + D))) by (apply Rmult_lt_0_compat; lra). assert (0 < D * (eps / (F + D))) by (apply Rmult_lt_0_compat; lra). apply Rabs_def1; lra.
Qed.
Lemma mean_shortfall F D v : 0 < F -> 0 < D -> 0 < v -> normal_mean (fun z => Rmax (D - F * exp (v * z - v ^ 2 / 2)) 0) (bs D F v).
Proof.
  intros HF HD Hv. assert (P := bs_parity F D v HF HD). replace (bs D F v) with (bs F D v + (-1 * F + D)) by lra.
  apply (mean_ext (fun z => Rmax (F * exp (v * z - v ^ 2 / 2) - D) 0 + (-1 * (F * exp (v * z - v ^ 2 / 2)) + D))).
  { intros z. unfold Rmax. destruct (Rle_dec _ _), (Rle_dec _ _); lra. }
  apply mean_plus; [apply mean_excess; auto|]. apply mean_plus; [apply mean_scal, mean_lognormal|apply mean_const].
Qed.
Lemma mean_min F D v : 0 < F -> 0 < D -> 0 < v -> normal_mean (fun z => Rmin D (F * exp (v * z - v ^ 2 / 2))) (D - bs D F v).
Proof.
  intros HF HD Hv. replace (D - bs D F v) with (D + -1 * bs D F v) by ring.
  apply (mean_ext (fun z => D + -1 * Rmax (D - F * exp (v * z - v ^ 2 / 2)) 0)).
  { intros z. unfold Rmax, Rmin. destruct (Rle_dec _ _), (Rle_dec _ _); lra. }
  apply mean_plus; [apply mean_const|]. apply mean_scal, mean_shortfall; auto.
Qed.

(** ** C105 *)
Lemma discounted_price S r q sigma T z : 0 < T -> exp (- r * T) * price_at S r q sigma T z = stock S q T * exp (sigma * sqrt T * z - (sigma * sqrt T) ^ 2 / 2).
Proof.
  intros HT. unfold price_at, stock. replace (exp (- r * T) * (S * exp ((r - q - sigma ^ 2 / 2) * T + sigma * sqrt T * z))) with (S * (exp (- r * T) * exp ((r - q - sigma ^ 2 / 2) * T + sigma * sqrt T * z))) by ring.
  rewrite (Rmult_assoc S), <- !exp_plus. apply f_equal, f_equal. assert (EQ : (sigma * sqrt T) ^ 2 = sigma ^ 2 * T) by (transitivity (sigma ^ 2 * (sqrt T * sqrt T)); [ring|rewrite sqrt_sqrt by lra; ring]). rewrite EQ. field.
Qed.
Lemma scal_max c x y : 0 < c -> c * Rmax x y = Rmax (c * x) (c * y).
Proof. intros Hc. symmetry. apply RmaxRmult. lra. Qed.
Lemma scal_min c x y : 0 < c -> c * Rmin x y = Rmin (c * x) (c * y).
Proof. intros Hc. unfold Rmin. destruct (Rle_dec x y), (Rle_dec (c * x) (c * y)); nra. Qed.
(** The call and the put are the expected discounted payoffs. *)
Theorem C105_option_prices : forall S K r T sigma q, valid S K T sigma -> exists c p,
  blsprice XRA (Fin S) (Fin K) (Fin r) (Fin T) (Fin sigma) (Fin q) = (Fin c, Fin p) /\
  normal_mean (fun z => exp (- r * T) * Rmax (price_at S r q sigma T z - K) 0) c /\
  normal_mean (fun z => exp (- r * T) * Rmax (K - price_at S r q sigma T z) 0) p.
Proof.
  intros S K r T sigma q HV. assert (Hv := vol_pos _ _ _ _ HV). destruct HV as (HS & HK & HT & Hs). do 2 eexists. split; [apply blsprice_fin; auto|].
  assert (HF := stock_pos S q T HS). assert (HD := strike_pos K r T HK). assert (HE := exp_pos (- r * T)). split.
  - eapply mean_ext; [|apply (mean_excess _ _ _ HF HD Hv)]. intros z. cbn beta. rewrite scal_max by auto. rewrite Rmult_minus_distr_l, discounted_price by auto. unfold strike. f_equal; ring.
  - eapply mean_ext; [|apply (mean_shortfall _ _ _ HF HD Hv)]. intros z. cbn beta. rewrite scal_max by auto. rewrite Rmult_minus_distr_l, discounted_price by auto. unfold strike. f_equal; ring.
Qed.
(** The contingent claim analysis: the put is the expected discounted loss of the debt holders, the risky debt the expected discounted repayment. *)
Theorem C105_expected_loss : forall x0 x1 r b t cds, cca_inputs b t -> x0 <> 0 -> x1 <> 0 -> exists put rest,
  cca_prices XRA (Fin x0) (Fin x1) (Fin r) (Fin b) (Fin t) (Fin cds) = Ok (Fin put, Fin rest) /\
  normal_mean (fun z => exp (- r * t) * Rmax (b - price_at (x0 ^ 2) r 0 (x1 ^ 2) t z) 0) put /\
  exists debt, normal_mean (fun z => exp (- r * t) * Rmin b (price_at (x0 ^ 2) r 0 (x1 ^ 2) t z)) debt /\
    rest = put - (1 - exp (- (cds / 10000) * (b / debt - 1) * t)) * b * exp (- r * t).
Proof.
  intros x0 x1 r b t cds Hi H0 H1. destruct (C40_prices x0 x1 r b t cds Hi H0 H1) as (_ & _ & E). destruct Hi as (Hb & Ht).
  assert (Ha : 0 < x0 * x0) by nra. assert (Hs : 0 < x1 * x1) by nra. assert (Hv : 0 < x1 * x1 * sqrt t) by (apply Rmult_lt_0_compat; [auto|apply sqrt_lt_R0; auto]).
  assert (HF := stock_pos _ 0 t Ha). assert (HD := strike_pos b r t Hb). assert (HE := exp_pos (- r * t)).
  assert (ES : stock (x0 * x0) 0 t = x0 * x0) by apply stock_0.
  do 2 eexists. split; [exact E|]. replace (x0 ^ 2) with (x0 * x0) by ring. replace (x1 ^ 2) with (x1 * x1) by ring. split.
  - assert (EP : merton_put (x0 * x0) (x1 * x1) r b t = bs (strike b r t) (stock (x0 * x0) 0 t) (x1 * x1 * sqrt t)) by (unfold merton_put; rewrite ES; reflexivity). rewrite EP. eapply mean_ext; [|apply (mean_shortfall _ _ _ HF HD Hv)]. intros z. cbn beta. rewrite scal_max by auto. rewrite Rmult_minus_distr_l, discounted_price by auto. unfold strike. f_equal; ring.
  - exists (risky_debt (x0 * x0) (x1 * x1) r b t). split; [|reflexivity].
    assert (EP : risky_debt (x0 * x0) (x1 * x1) r b t = strike b r t - bs (strike b r t) (stock (x0 * x0) 0 t) (x1 * x1 * sqrt t)) by (unfold risky_debt, merton_put; rewrite ES; reflexivity). rewrite EP. eapply mean_ext; [|apply (mean_min _ _ _ HF HD Hv)]. intros z. cbn beta. rewrite scal_min by auto. rewrite discounted_price by auto. unfold strike. f_equal; ring.
Qed.
(** The Merton equations: equity is the expected discounted residual claim plus the dividends. *)
Theorem C105_equity : forall a s E D r d T sigE, 0 < a -> 0 < s -> 0 < D -> 0 < T -> E <> 0 -> 
  merton_solution XRA (Fin a) (Fin s) (Fin E) (Fin D) (Fin r) (Fin d) (Fin T) (Fin sigE) = (Fin 0, Fin 0) ->
  normal_mean (fun z => exp (- r * T) * Rmax (price_at a r d s T z - D) 0 + a * (1 - exp (- d * T))) E.
Proof.
  intros a s E D r d T sigE Ha Hs HD HT HE H. destruct (C69_solution a s E D r d T sigE Ha Hs HD HT HE) as [_ G]. destruct (proj1 G H) as [-> _].
  assert (Hv : 0 < s * sqrt T) by (apply Rmult_lt_0_compat; [auto|apply sqrt_lt_R0; auto]). assert (HF := stock_pos a d T Ha). assert (HK := strike_pos D r T HD). assert (HX := exp_pos (- r * T)).
  unfold merton_equity. apply mean_plus; [|apply mean_const]. eapply mean_ext; [|apply (mean_excess _ _ _ HF HK Hv)]. intros z. cbn beta. rewrite scal_max by auto. rewrite Rmult_minus_distr_l, discounted_price by auto. unfold strike. f_equal; ring.
Qed.
(** The repayment of a loan given the common factor is the expected minimum of face value and borrower assets. *)
Theorem C105_loan_payoff : forall F f ival rho sig T, loan_ok F rho sig T -> exists v,
  loan_payoff XRA (Fin F) (Fin f) (Fin ival) (Fin rho) (Fin sig) (Fin T) = Fin v /\ normal_mean (fun z => Rmin F (borrower_assets f ival rho sig T z)) v.
Proof.
  intros F f ival rho sig T HO. eexists. split; [apply C67_face_minus_put; auto|]. assert (Hv := idio_pos _ _ _ _ HO). destruct HO as (HF & Hr & Hs & HT).
  unfold payoff. eapply mean_ext; [|apply (mean_min (expected_assets f ival rho sig T) F _ (exp_pos _) HF Hv)]. intros z. cbn beta. f_equal. unfold expected_assets, borrower_assets, idiosyncratic_vol.
  rewrite <- exp_plus. f_equal. rewrite sqrt_mult by lra. replace ((sig * sqrt T * sqrt (1 - rho)) ^ 2) with (sig * sig * (sqrt T * sqrt T) * (sqrt (1 - rho) * sqrt (1 - rho))) by ring. rewrite !sqrt_sqrt by lra. field.
Qed.
(** The promised yield is fair: the loan's discounted promise at the yield is the expected discounted repayment. *)
Theorem C105_fair_yield : forall mu F ival sig T r d v, 0 < F -> 0 < sig -> 0 < T ->
  normal_mean (fun z => exp (- r * T) * Rmin F (price_at (exp ival) r d sig T z)) v ->
  (find_face_value_indiv XRA (Fin mu) (Fin F) (Fin ival) (Fin sig) (Fin T) (Fin r) (Fin d) = Fin 0 <-> F * exp (- mu * T) = v).
Proof.
  intros mu F ival sig T r d v HF Hs HT H. destruct (C68_fair_yield mu F ival sig T r d HF Hs HT) as (_ & G & _).
  assert (Hv : 0 < sig * sqrt T) by (apply Rmult_lt_0_compat; [auto|apply sqrt_lt_R0; auto]). assert (HX := exp_pos (- r * T)).
  assert (EV : v = loan_value F ival sig T r d); [|rewrite EV; exact G]. eapply mean_unique; [exact H|].
  unfold loan_value. fold (strike F r T). eapply mean_ext; [|apply (mean_min _ _ _ (stock_pos _ d T (exp_pos ival)) (strike_pos F r T HF) Hv)]. intros z. cbn beta. rewrite scal_min by auto. rewrite discounted_price by auto. unfold strike. f_equal; ring.
Qed.
(** the density integrates to 1, and a discounted price without dividends is worth today's price *)
Theorem C105_expectation : normal_mean (fun _ => 1) 1 /\ forall S r sigma T, 0 < T -> normal_mean (fun z => exp (- r * T) * price_at S r 0 sigma T z) S.
Proof.
  split; [apply mean_const|]. intros S r sigma T HT. eapply mean_ext; [|apply (mean_lognormal S (sigma * sqrt T))]. intros z. cbn beta. rewrite discounted_price by auto. rewrite stock_0. reflexivity.
Qed.
(** an expectation is determined by the payoff *)
Theorem C105_unique : forall f m m', normal_mean f m -> normal_mean f m' -> m = m'.
Proof. exact mean_unique. Qed.
(** non-vacuity: admissible options, claims and loans, and a bank that solves the Merton equations *)
Example C105_case : valid 2 1 1 1 /\ cca_inputs 1 1 /\ loan_ok (7/10) (1/2) (1/5) 10 /\
  exists E sigE, E <> 0 /\ merton_solution XRA (Fin 2) (Fin 1) (Fin E) (Fin 1) (Fin (1/100)) (Fin (1/200)) (Fin 5) (Fin sigE) = (Fin 0, Fin 0).
Proof.
  split; [unfold valid; lra|]. split; [unfold cca_inputs; lra|]. split; [unfold loan_ok; lra|].
  set (E := merton_equity 2 1 1 (1/100) (1/200) 5). exists E, (merton_delta 2 1 1 (1/100) (1/200) 5 * 2 * 1 / E).
  assert (HE : E <> 0).
  { unfold E, merton_equity. assert (P := bs_pos (stock 2 (1/200) 5) (strike 1 (1/100) 5) (1 * sqrt 5) (stock_pos 2 (1/200) 5 ltac:(lra)) (strike_pos 1 (1/100) 5 ltac:(lra)) ltac:(rewrite Rmult_1_l; apply sqrt_lt_R0; lra)).
    assert (Q : exp (- (1/200) * 5) < exp 0) by (apply exp_increasing; lra). rewrite exp_0 in Q. lra. }
  split; [exact HE|]. apply (C69_solution 2 1 E 1 (1/100) (1/200) 5); try lra; auto. split; [reflexivity|]. field. exact HE.
Qed.
