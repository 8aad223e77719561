(** * Property C104: CCC and DCC estimation from the return series to the reported parameters and log-likelihood *)
From Coq Require Import Reals Lra Lia ZArith List Bool.
From Verif Require Import Arith XR RealAux Model_garch Spec_garch Proofs_garch Proofs_garch2 Proofs_garch3 Proofs_garch4 Proofs_garch5 Model_ar Props_ar Model_mgarch Props_mgarch Props_mgarch2 Model_lrmes Props_lrmes Props_lrmes2 Props_lrmes3 Props_tight.
Import ListNotations.
Local Open Scope R_scope.

(** ** Specification *)
(** deviations of the returns from the estimated mean *)
Definition deviations (r : list R) (mu : R) : list R := map (fun v => v - mu) r.
(** the conditional variances of the marginal model at the parameter vector x = mu :: variance parameters; the backcast and the bounds come from the series minus its average *)
Definition model_variances (k : kind) (r x s : list R) : Prop := exists vb,
  variance_bounds XRA (map Fin (centred r)) = Ok vb /\
  compute_variance XRA k (map Fin (tl x)) (map Fin (deviations r (hd 0 x))) (backcast_py XRA (map Fin (centred r))) vb = Ok (map Fin s).
(** the parameters inside their bounds *)
Definition feasible (k : kind) (x : list R) : Prop := length x = nfields k /\ 0 < nth 1 x 0 /\ Forall (fun v => 0 <= v) (tl (tl x)).
(** the Gaussian log-likelihood of a series of deviations *)
Definition gaussian (e s : list R) : R := Rsum (map2 (fun r v => ln (normal_density v r)) e s).
(** the point from which a series is estimated *)
Definition marginal_start (k : kind) (r : list R) : list xr :=
  map Fin (Rmean r :: Rvar r * (1 - 98/100) :: match k with KGarch => [2/10; 98/100 - 2/10] | KGjr => [2/10; 2/10; 98/100 - 2/10 - 2/10/2] end).
(** a marginal optimizer run that reports the estimate [e] with its objective value, after evaluating vectors of the right length, [x] last *)
Definition marginal_run (k : kind) (run : opt_run XRA) (r e x : list R) : Prop :=
  o_success XRA run = true /\ o_x XRA run = map Fin e /\ feasible k e /\
  (exists s, model_variances k r e s /\ o_fun XRA run = Fin (- gaussian (deviations r (hd 0 e)) s)) /\
  exists pts, o_evals XRA run = map (map Fin) (pts ++ [x]) /\ Forall (fun p => length p = nfields k) (pts ++ [x]).
(** the log-density of the Gaussian copula with correlation c at a pair of standardized residuals *)
Definition copula (c z w : R) : R := ln (bivariate_density 1 1 c z w / (normal_density 1 z * normal_density 1 w)).
Definition copula_sum (rho z1 z2 : list R) : R := Rsum (map2 (fun c p => copula c (fst p) (snd p)) rho (combine z1 z2)).

Lemma ok_inj3 {T} (x y : T) : Ok x = Ok y -> x = y.
Proof. congruence. Qed.
(** ** The marginal estimation, for both kinds of model *)
Lemma copula_value c z w : c * c < 1 -> copula c z w = - (1/2) * (- (z * z + w * w) + ln (1 - c * c) + (z * z + w * w - 2 * c * z * w) / (1 - c * c)).
Proof.
  intros Hc. unfold copula. assert (HPI := PI_RGT_0).
  assert (HN : forall x, 0 < normal_density 1 x).
  { intros x. unfold normal_density. apply Rdiv_lt_0_compat; [apply exp_pos|apply sqrt_lt_R0; lra]. }
  assert (HB : 0 < bivariate_density 1 1 c z w).
  { unfold bivariate_density. apply Rdiv_lt_0_compat; [apply exp_pos|]. apply Rmult_lt_0_compat; [lra|]. apply sqrt_lt_R0. replace (1 * 1 * (1 - c ^ 2)) with (1 - c * c) by ring. lra. }
  rewrite ln_div by (auto; apply Rmult_lt_0_compat; auto). rewrite ln_mult by auto. rewrite ln_bivariate by lra.
  assert (E : forall x, ln (normal_density 1 x) = - (1/2) * (ln (2 * PI) + x * x)).
  { intros x. unfold normal_density. rewrite ln_div by (try apply exp_pos; apply sqrt_lt_R0; lra). rewrite ln_exp, ln_sqrt by lra. replace (2 * PI * 1) with (2 * PI) by ring. field. }
  rewrite !E. rewrite sqrt_1. replace (1 * 1 * (1 - c * c)) with (1 - c * c) by ring. field. lra.
Qed.
Lemma neg_loglik_value l1 l2 rho z1 z2 :
  dcc_negative_loglik XRA (Fin l1) (Fin l2) (map Fin rho) (map Fin z1) (map Fin z2) = Fin (- (l1 + l2 + copula_sum (map clip99 rho) z1 z2)).
Proof.
  unfold dcc_negative_loglik. change (num XRA) with xr. rewrite combine_fin, map_map, map2_map. cbn [fst snd].
  rewrite (map2_ext _ (fun c p => Fin (copula (clip99 c) (fst p) (snd p)))).
  2:{ intros c p. rewrite clip_fin. rewrite copula_value by apply clip99_range. apply dcc_term_fin. apply clip99_range. }
  rewrite <- (map_map2 Fin (fun c p => copula (clip99 c) (fst p) (snd p))). rewrite asum_fin. cbn [nadd nopp XRA xadd xopp]. f_equal. f_equal. f_equal.
  unfold copula_sum. f_equal. generalize (combine z1 z2). induction rho as [|c rho IH]; intros [|p l]; try reflexivity. cbn [map map2]. f_equal. apply IH.
Qed.
Lemma model_variances_exist k r x : 0 < Rvar r -> length x = nfields k ->
  exists s, model_variances k r x s /\ length s = length r /\ (feasible k x -> positive s).
Proof.
  intros Hv HL. assert (Hn := var_nonempty r Hv). assert (Hc := centred_nonempty r Hn).
  set (bc := ew_average (Nat.min 75 (length (centred r))) (centred r)).
  assert (Hb : 0 <= bc) by (apply Props_lrmes3.ew_average_nonneg; rewrite centred_length; destruct r; [tauto|cbn; lia]).
  assert (HG : Forall good_row (tl (boundsR (centred r)))) by (apply Forall_tl, boundsR_good; exact (prep_resids_nonzero false r Hv)).
  set (d := deviations r (hd 0 x)).
  assert (HB : (length d <= length (boundsR (centred r)))%nat) by (unfold d, deviations, boundsR; rewrite !map_length, seq_length, centred_length; lia).
  assert (HN : d <> []) by (unfold d; destruct r; [tauto|discriminate]).
  assert (HT : length (tl x) = nparams k) by (destruct k, x; try discriminate HL; cbn in *; lia).
  destruct (cv_fin k (tl x) d bc (boundsR (centred r)) HT HN HB HG) as (s & E & HP).
  exists s. split; [|split].
  - exists (map finrow (boundsR (centred r))). split; [apply variance_bounds_fin; auto|]. rewrite backcast_fin by auto. exact E.
  - destruct HP as (HP & _). unfold d, deviations in HP. rewrite map_length in HP. exact HP.
  - intros (_ & Ho & Hx). assert (H0 : 0 < s0R (tl x) bc).
    { destruct k; cbn in HL; repeat (destruct x as [|? x]; try discriminate HL); cbn [tl nth] in *; cbn [s0R]; rewrite Forall_forall in Hx.
      - assert (0 <= r2) by (apply Hx; cbn; auto). assert (0 <= r3) by (apply Hx; cbn; auto). assert (0 <= (r2 + r3) * bc) by (apply Rmult_le_pos; lra). lra.
      - assert (0 <= r2) by (apply Hx; cbn; auto). assert (0 <= r3) by (apply Hx; cbn; auto). assert (0 <= r4) by (apply Hx; cbn; auto). assert (0 <= (r2 + r3 / 2 + r4) * bc) by (apply Rmult_le_pos; lra). lra. }
    destruct (cv_fin_pos k (tl x) d bc _ HT HN HB HG H0) as (s' & E' & _ & HF & _). rewrite E in E'. injection E' as E'.
    apply fin_inj in E'. subst s'. exact HF.
Qed.
Lemma model_variances_unique k r x s s' : model_variances k r x s -> model_variances k r x s' -> s = s'.
Proof.
  intros (vb & E1 & E2) (vb' & F1 & F2). rewrite E1 in F1. injection F1 as <-. rewrite E2 in F2. injection F2 as F2. apply fin_inj. exact F2.
Qed.
Lemma objective_value k (st : state XRA) r p s : 0 < Rvar r -> st_returns XRA st = map Fin r -> st_zero_mean XRA st = false ->
  st_bounds XRA st = map finrow (boundsR (prep_resids false r)) ->
  st_backcast XRA st = Fin (ew_average (Nat.min 75 (length r)) (prep_resids false r)) -> length p = nfields k -> model_variances k r p s ->
  exists f, objective XRA k st (map Fin p) = Ok (f, map Fin s).
Proof.
  intros Hv HR HZ HB HC HL (vb & E1 & E2). assert (Hn := var_nonempty r Hv). assert (Hc := centred_nonempty r Hn).
  assert (EV := variance_bounds_fin _ Hc). fold (boundsR (centred r)) in EV. change (num XRA) with xr in *. rewrite EV in E1. injection E1 as <-.
  rewrite backcast_fin in E2 by auto. rewrite centred_length in E2.
  destruct p as [|m vp]; [destruct k; discriminate HL|]. cbn [hd tl] in E2.
  eexists. unfold objective. change (num XRA) with xr in *. rewrite HZ, HR, HB, HC. cbn [map]. rewrite Props_tight.demean_fin. change (prep_resids false r) with (centred r). change (map (fun x => x - m) r) with (deviations r m).
  change (num XRA) with xr in *. rewrite E2. cbn [bind]. reflexivity.
Qed.
Lemma evals_last k (st : state XRA) r pts x s0 s : 0 < Rvar r -> st_returns XRA st = map Fin r -> st_zero_mean XRA st = false ->
  st_bounds XRA st = map finrow (boundsR (prep_resids false r)) ->
  st_backcast XRA st = Fin (ew_average (Nat.min 75 (length r)) (prep_resids false r)) ->
  Forall (fun p => length p = nfields k) (pts ++ [x]) -> model_variances k r x s -> run_evals XRA k st (map (map Fin) (pts ++ [x])) s0 = Ok (map Fin s).
Proof.
  intros Hv HR HZ HB HC HF HS. revert s0. induction pts as [|p pts IH]; intros s0; cbn [app map run_evals].
  - inversion HF; subst. destruct (objective_value k st r x s Hv HR HZ HB HC H1 HS) as (f & E). rewrite E. reflexivity.
  - inversion HF; subst. destruct (model_variances_exist k r p Hv H1) as (s' & V & _). destruct (objective_value k st r p s' Hv HR HZ HB HC H1 V) as (f & E). rewrite E. cbn [bind snd]. apply IH; auto.
Qed.
Lemma marginal_fit k m (st : state XRA) r e x s : 0 < Rvar r -> st_returns XRA st = map Fin r -> st_zero_mean XRA st = false -> st_success XRA st = false ->
  marginal_run k (m (marginal_start k r) (fit_bounds XRA k false)) r e x -> model_variances k r x s ->
  exists q st' s', fit XRA k m st = Ok (q, st') /\ st_returns XRA st' = map Fin r /\ st_resids XRA st' = map Fin (deviations r (hd 0 e)) /\ st_sigma2 XRA st' = map Fin s /\
    p_fields XRA (st_params XRA st') = map Fin e /\ model_variances k r e s' /\ p_ll XRA (st_params XRA st') = Fin (gaussian (deviations r (hd 0 e)) s') /\ settled XRA k m st'.
Proof.
  intros Hv HR HZ HS0 (F1 & F2 & FE & (s' & V' & F3) & pts & F4 & F5) HS.
  destruct (preparation_fin k st r HR Hv) as (st1 & E & B & C & R1 & Z1). rewrite HZ in *.
  assert (EF : exists q st', fit XRA k m st = Ok (q, st') /\ st_returns XRA st' = map Fin r /\ st_resids XRA st' = map Fin (deviations r (hd 0 e)) /\ st_sigma2 XRA st' = map Fin s /\
    p_fields XRA (st_params XRA st') = map Fin e /\ p_ll XRA (st_params XRA st') = Fin (gaussian (deviations r (hd 0 e)) s')).
  { rewrite fit_unfold by (intros [? ?]; congruence).
    assert (ES : map Fin (Rmean r :: start_point k (Rvar r)) = marginal_start k r) by (destruct k; reflexivity).
    change (num XRA) with xr in *. rewrite ES in E. rewrite E. cbn [bind fst snd]. rewrite HZ. change (num XRA) with xr in *. rewrite F4.
    rewrite (evals_last k st1 r pts x _ s) by auto. cbn [bind]. rewrite F1, F2, F3. destruct FE as (LE & _).
    unfold make_params. rewrite map_length, LE, Nat.ltb_irrefl. cbn [bind].
    do 2 eexists. split; [reflexivity|]. cbn [st_returns st_resids st_sigma2 st_params p_fields p_ll p_mu]. rewrite R1. split; [reflexivity|].
    destruct e as [|m0 e]; [destruct k; discriminate LE|]. cbn [map hd]. rewrite Nat.sub_diag. cbn [repeat]. rewrite app_nil_r. cbn [map]. split; [unfold p_mu; cbn [p_fields nth map]; apply Props_tight.demean_fin|]. split; [reflexivity|]. split; [reflexivity|].
    cbn [nopp XRA xopp]. f_equal. ring. }
  destruct EF as (q & st' & E1 & A1 & A2 & A3 & A4 & A5). exists q, st', s'. split; [exact E1|]. repeat split; auto. exists st, q. exact E1.
Qed.

(** ** C104: DCC from the data to the result *)
Section Series.
Context (k : kind) (m1 m2 : solver XRA) (r1 r2 e1 e2 x1 x2 s1 s2 : list R).
(** two series of equal length that vary, marginal optimizer runs from the documented start, the variances at the points evaluated last *)
Definition estimated : Prop :=
  length r1 = length r2 /\ 0 < Rvar r1 /\ 0 < Rvar r2 /\
  marginal_run k (m1 (marginal_start k r1) (fit_bounds XRA k false)) r1 e1 x1 /\ marginal_run k (m2 (marginal_start k r2) (fit_bounds XRA k false)) r2 e2 x2 /\
  model_variances k r1 x1 s1 /\ model_variances k r2 x2 s2 /\ feasible k x1 /\ feasible k x2.
Definition z1 : list R := zscores (deviations r1 (hd 0 e1)) s1.
Definition z2 : list R := zscores (deviations r2 (hd 0 e2)) s2.

Lemma estimated_models u1 u2 u3 u4 : estimated -> exists t1 t2 v1 v2 q1 q2,
  fit XRA k m1 (init XRA k (map Fin r1) u1 u2 false) = Ok (q1, t1) /\ fit XRA k m2 (init XRA k (map Fin r2) u3 u4 false) = Ok (q2, t2) /\
  settled XRA k m1 t1 /\ settled XRA k m2 t2 /\ st_returns XRA t1 = map Fin r1 /\ st_returns XRA t2 = map Fin r2 /\
  st_resids XRA t1 = map Fin (deviations r1 (hd 0 e1)) /\ st_resids XRA t2 = map Fin (deviations r2 (hd 0 e2)) /\
  st_sigma2 XRA t1 = map Fin s1 /\ st_sigma2 XRA t2 = map Fin s2 /\ p_fields XRA (st_params XRA t1) = map Fin e1 /\ p_fields XRA (st_params XRA t2) = map Fin e2 /\
  model_variances k r1 e1 v1 /\ model_variances k r2 e2 v2 /\
  p_ll XRA (st_params XRA t1) = Fin (gaussian (deviations r1 (hd 0 e1)) v1) /\ p_ll XRA (st_params XRA t2) = Fin (gaussian (deviations r2 (hd 0 e2)) v2) /\
  length s1 = length r1 /\ length s2 = length r2 /\ positive s1 /\ positive s2.
Proof.
  intros (HL & V1 & V2 & R1 & R2 & S1 & S2 & F1 & F2).
  destruct (marginal_fit k m1 (init XRA k (map Fin r1) u1 u2 false) r1 e1 x1 s1 V1 eq_refl eq_refl eq_refl R1 S1) as (q1 & t1 & v1 & A1 & A2 & A3 & A4 & A5 & A6 & A7 & A8).
  destruct (marginal_fit k m2 (init XRA k (map Fin r2) u3 u4 false) r2 e2 x2 s2 V2 eq_refl eq_refl eq_refl R2 S2) as (q2 & t2 & v2 & B1 & B2 & B3 & B4 & B5 & B6 & B7 & B8).
  destruct (model_variances_exist k r1 x1 V1 (proj1 F1)) as (w1 & W1 & L1 & P1). rewrite (model_variances_unique _ _ _ _ _ W1 S1) in *.
  destruct (model_variances_exist k r2 x2 V2 (proj1 F2)) as (w2 & W2 & L2 & P2). rewrite (model_variances_unique _ _ _ _ _ W2 S2) in *.
  exists t1, t2, v1, v2, q1, q2. repeat (split; [solve [auto]|]); auto.
Qed.

(** The function that the joint optimizer minimizes: minus the Gaussian log-likelihoods of the two marginal models and the log-density of the Gaussian copula
    with the DCC correlations at (a, b). *)
Theorem C104_dcc_objective cpp t1 t2 l1 l2 a b : settled XRA k m1 t1 -> settled XRA k m2 t2 ->
  st_resids XRA t1 = map Fin (deviations r1 (hd 0 e1)) -> st_resids XRA t2 = map Fin (deviations r2 (hd 0 e2)) -> st_sigma2 XRA t1 = map Fin s1 -> st_sigma2 XRA t2 = map Fin s2 ->
  p_ll XRA (st_params XRA t1) = Fin l1 -> p_ll XRA (st_params XRA t2) = Fin l2 -> length s1 = length r1 -> length s2 = length r2 -> length r1 = length r2 -> positive s1 -> positive s2 ->
  non_constant z1 -> non_constant z2 -> 0 <= a -> 0 <= b -> a + b <= 1 -> ~ (a = 1 /\ b = 0) ->
  exists rho, cond_corr XRA cpp (Fin a) (Fin b) (map Fin (deviations r1 (hd 0 e1))) (map Fin (deviations r2 (hd 0 e2))) (map Fin s1) (map Fin s2) = Ok (map Fin rho) /\ length rho = length r1 /\
    dcc_objective XRA k cpp m1 m2 (t1, t2) [Fin a; Fin b] = Ok (Fin (- (l1 + l2 + copula_sum (map clip99 rho) z1 z2)), (t1, t2)).
Proof.
  intros S1 S2 A1 A2 B1 B2 C1 C2 L1 L2 L12 P1 P2 N1 N2 Ha Hb Hab Hne.
  assert (D1 : length (deviations r1 (hd 0 e1)) = length r1) by apply map_length. assert (D2 : length (deviations r2 (hd 0 e2)) = length r2) by apply map_length.
  destruct (C15_conditional_correlations_in_range cpp a b (deviations r1 (hd 0 e1)) (deviations r2 (hd 0 e2)) s1 s2) as (rho & EC & LR & _); auto; try congruence.
  exists rho. split; [exact EC|]. split; [congruence|]. cbn [dcc_objective]. rewrite cond_corr_settled by auto. cbn [fst snd]. change (num XRA) with xr in *. rewrite A1, A2, B1, B2, EC. cbn [bind fst snd]. rewrite C1, C2.
  rewrite !standardize_fin by (auto; congruence). fold z1 z2. rewrite neg_loglik_value. reflexivity.
Qed.

(** what the joint optimizer has to deliver: success at an admissible point (a, b), its objective value there, after evaluating pairs *)
Definition joint_run (cpp : bool) (run : opt_run XRA) (a b : R) : Prop :=
  o_success XRA run = true /\ o_x XRA run = [Fin a; Fin b] /\ Forall (fun p => length p = 2%nat) (o_evals XRA run) /\ 0 <= a /\ 0 <= b /\ a + b <= 1 /\ ~ (a = 1 /\ b = 0) /\
  forall v1 v2 rho, model_variances k r1 e1 v1 -> model_variances k r2 e2 v2 ->
    cond_corr XRA cpp (Fin a) (Fin b) (map Fin (deviations r1 (hd 0 e1))) (map Fin (deviations r2 (hd 0 e2))) (map Fin s1) (map Fin s2) = Ok (map Fin rho) ->
    o_fun XRA run = Fin (- (gaussian (deviations r1 (hd 0 e1)) v1 + gaussian (deviations r2 (hd 0 e2)) v2 + copula_sum (map clip99 rho) z1 z2)).

(** The whole estimation returns: the marginal estimates, the pair (a, b), and as log-likelihood the two Gaussian ones plus the copula's. *)
Theorem C104_dcc cpp mini u1 u2 u3 u4 a b : estimated -> non_constant z1 -> non_constant z2 -> joint_run cpp (mini [Fin (88/225); Fin (3/5)]) a b ->
  exists o v1 v2 rho, dcc_fit XRA k cpp m1 m2 mini (new_dcc XRA k (init XRA k (map Fin r1) u1 u2 false) (init XRA k (map Fin r2) u3 u4 false)) = Ok o /\
    d_success XRA o = true /\ d_marginals XRA o = map Fin (e1 ++ e2) /\ d_a XRA o = Fin a /\ d_b XRA o = Fin b /\
    model_variances k r1 e1 v1 /\ model_variances k r2 e2 v2 /\
    cond_corr XRA cpp (Fin a) (Fin b) (map Fin (deviations r1 (hd 0 e1))) (map Fin (deviations r2 (hd 0 e2))) (map Fin s1) (map Fin s2) = Ok (map Fin rho) /\
    d_ll XRA o = Fin (gaussian (deviations r1 (hd 0 e1)) v1 + gaussian (deviations r2 (hd 0 e2)) v2 + copula_sum (map clip99 rho) z1 z2).
Proof.
  intros HE N1 N2 (J1 & J2 & J3 & Ha & Hb & Hab & Hne & J4). assert (HL := proj1 HE).
  destruct (estimated_models u1 u2 u3 u4 HE) as (t1 & t2 & v1 & v2 & q1 & q2 & F1 & F2 & S1 & S2 & _ & _ & A1 & A2 & B1 & B2 & G1 & G2 & V1 & V2 & C1 & C2 & L1 & L2 & P1 & P2).
  assert (D1 : length (deviations r1 (hd 0 e1)) = length r1) by apply map_length. assert (D2 : length (deviations r2 (hd 0 e2)) = length r2) by apply map_length.
  destruct (C104_dcc_objective cpp t1 t2 _ _ a b S1 S2 A1 A2 B1 B2 C1 C2 L1 L2 HL P1 P2 N1 N2 Ha Hb Hab Hne) as (rho & EC & LR & _).
  assert (SV : dcc_starting_values XRA k cpp m1 m2 (t1, t2) = Ok ((Fin (88/225), Fin (3/5)), (t1, t2))).
  { eapply (C19_start_is_constant_any_kind k cpp m1 m2 t1 t2 (deviations r1 (hd 0 e1)) (deviations r2 (hd 0 e2)) s1 s2); eauto; congruence. }
  set (l := gaussian (deviations r1 (hd 0 e1)) v1 + gaussian (deviations r2 (hd 0 e2)) v2 + copula_sum (map clip99 rho) z1 z2).
  exists (Build_dcc XRA (t1, t2) true (map Fin (e1 ++ e2)) (Fin a) (Fin b) (Fin l)), v1, v2, rho. split; [|cbn [d_success d_marginals d_a d_b d_ll]; repeat (split; [solve [auto]|]); reflexivity].
  unfold dcc_fit. cbn [d_success new_dcc d_models fst snd]. rewrite F1, F2. cbn [bind snd]. rewrite SV. cbn [bind fst snd]. change (num XRA) with xr in *.
  rewrite dcc_evals_settled; auto.
  - cbn [bind]. rewrite J1, J2. cbn [fst snd]. rewrite G1, G2, (J4 v1 v2 rho V1 V2 EC). cbn [nopp XRA xopp]. rewrite map_app. fold l. rewrite Ropp_involutive. reflexivity.
  - cbn [fst]. rewrite A1, B1. rewrite standardize_fin by (auto; congruence). fold z1. apply non_constant_length in N1. destruct z1; [cbn in N1; lia|discriminate].
Qed.

(** If both marginal optimizers evaluate their estimate last, the reported log-likelihood is that of the bivariate normal model with the reported parameters. *)
Corollary C104_dcc_is_the_likelihood cpp mini u1 u2 u3 u4 a b : estimated -> x1 = e1 -> x2 = e2 -> non_constant z1 -> non_constant z2 -> joint_run cpp (mini [Fin (88/225); Fin (3/5)]) a b ->
  exists o rho, dcc_fit XRA k cpp m1 m2 mini (new_dcc XRA k (init XRA k (map Fin r1) u1 u2 false) (init XRA k (map Fin r2) u3 u4 false)) = Ok o /\
    cond_corr XRA cpp (Fin a) (Fin b) (map Fin (deviations r1 (hd 0 e1))) (map Fin (deviations r2 (hd 0 e2))) (map Fin s1) (map Fin s2) = Ok (map Fin rho) /\
    d_ll XRA o = Fin (sum5 (fun c x v y w => ln (bivariate_density v w (clip99 c) x y)) rho (deviations r1 (hd 0 e1)) s1 (deviations r2 (hd 0 e2)) s2).
Proof.
  intros HE E1 E2 N1 N2 HJ. assert (HL := proj1 HE). destruct (C104_dcc cpp mini u1 u2 u3 u4 a b HE N1 N2 HJ) as (o & v1 & v2 & rho & EF & _ & _ & _ & _ & V1 & V2 & EC & ELL).
  exists o, rho. split; [exact EF|]. split; [exact EC|]. rewrite ELL.
  destruct (estimated_models u1 u2 u3 u4 HE) as (t1 & t2 & v1' & v2' & q1 & q2 & _ & _ & _ & _ & _ & _ & _ & _ & _ & _ & _ & _ & _ & _ & _ & _ & L1 & L2 & P1 & P2).
  destruct HE as (_ & _ & _ & _ & _ & S1 & S2 & _ & _). rewrite E1 in S1. rewrite E2 in S2.
  assert (v1 = s1) by (eapply model_variances_unique; eauto). assert (v2 = s2) by (eapply model_variances_unique; eauto). subst v1 v2.
  assert (D1 : length (deviations r1 (hd 0 e1)) = length r1) by apply map_length. assert (D2 : length (deviations r2 (hd 0 e2)) = length r2) by apply map_length.
  destruct HJ as (_ & _ & _ & Ha & Hb & Hab & Hne & _).
  destruct (C15_conditional_correlations_in_range cpp a b (deviations r1 (hd 0 e1)) (deviations r2 (hd 0 e2)) s1 s2) as (rho' & EC' & LR & _); auto; try congruence.
  rewrite EC in EC'. apply ok_inj3 in EC'. apply fin_inj in EC'. subst rho'.
  assert (G := C18_two_step_loglik_is_the_bivariate_one rho (deviations r1 (hd 0 e1)) s1 (deviations r2 (hd 0 e2)) s2 ltac:(congruence) ltac:(congruence) ltac:(congruence) ltac:(congruence) P1 P2).
  rewrite !loglik_fin in G by auto. rewrite !standardize_fin in G by (auto; congruence). fold z1 z2 in G. rewrite neg_loglik_value in G. injection G as G. f_equal. unfold gaussian. lra.
Qed.
End Series.

(** ** C104: CCC from the data to the result *)
(** the nine numbers handed to and reported by the joint optimizer *)
Definition ccc_start (e1 e2 : list R) (rho : R) : list xr := map Fin (e1 ++ e2 ++ [rho]).
Lemma ccc_objective_defined r1 r2 x b1 b2 v1 v2 : 0 < Rvar r1 -> 0 < Rvar r2 -> length x = 9%nat ->
  exists f, ccc_objective XRA (map Fin r1) (map Fin r2) (map Fin x) b1 b2 v1 v2 = Ok f.
Proof.
  intros V1 V2 HL. do 9 (destruct x as [|? x]; [discriminate HL|]). destruct x; [|discriminate HL].
  assert (G : forall r m o a b, 0 < Rvar r -> exists vb s, variance_bounds XRA (map Fin (deviations r m)) = Ok vb /\ garch_variance_py XRA [Fin o; Fin a; Fin b] (map Fin (deviations r m)) (backcast_py XRA (map Fin (deviations r m))) vb = Ok s).
  { clear. intros r m o a b HV. assert (Hn := var_nonempty r HV). destruct (proj1 (Rvar_pos_iff r Hn) HV) as (x & y & Hx & Hy & Hxy).
    set (d := deviations r m). assert (Hd : d <> []) by (unfold d; destruct r; [tauto|discriminate]).
    assert (HZ : exists u, In u d /\ u <> 0).
    { destruct (Req_dec (x - m) 0); [exists (y - m)|exists (x - m)]; (split; [unfold d, deviations; apply in_map_iff; eauto|lra]). }
    destruct (cv_fin KGarch [o; a; b] d (ew_average (Nat.min 75 (length d)) d) (boundsR d) eq_refl Hd ltac:(rewrite boundsR_length; lia) ltac:(apply Forall_tl, boundsR_good; auto)) as (s & E & _).
    exists (map finrow (boundsR d)), (map Fin s). split; [apply variance_bounds_fin; auto|]. rewrite backcast_fin by auto. exact E. }
  unfold ccc_objective. cbn [map]. rewrite !Props_tight.demean_fin.
  destruct (G r1 r r0 r3 r4 V1) as (vb1 & s1 & E1 & F1). destruct (G r2 r5 r6 r7 r8 V2) as (vb2 & s2 & E2 & F2). unfold deviations in *.
  change (num XRA) with xr in *. rewrite E1, E2. cbn [bind]. rewrite F1. cbn [bind]. rewrite F2. cbn [bind]. eauto.
Qed.
Lemma evals_defined (obj : list xr -> res xr) l : (forall x, In x l -> exists f, obj x = Ok f) -> fold_left (fun acc x => do _ <- acc; do _ <- obj x; Ok tt) l (Ok tt) = Ok tt.
Proof.
  induction l as [|x l IH]; intros H; [reflexivity|]. cbn [fold_left bind]. destruct (H x (or_introl eq_refl)) as (f & ->). cbn [bind]. apply IH. intros; apply H; right; auto.
Qed.
(** The joint optimizer starts from the two marginal estimates and the Pearson correlation of the standardized residuals; what it reports is stored unchanged,
    and the log-likelihood is that of the bivariate normal model with constant correlation at the reported parameters, the variances being recomputed from them. *)
Theorem C104_ccc m1 m2 mini r1 r2 e1 e2 x1 x2 s1 s2 u1 u2 u3 u4 mu1 o1 a1 b1 mu2 o2 a2 b2 rho :
  estimated KGarch m1 m2 r1 r2 e1 e2 x1 x2 s1 s2 -> non_constant (z1 r1 e1 s1) -> non_constant (z2 r2 e2 s2) ->
  let run := mini (ccc_start e1 e2 (pearson (z1 r1 e1 s1) (z2 r2 e2 s2))) in
  let x := [mu1; o1; a1; b1; mu2; o2; a2; b2; rho] in
  o_success XRA run = true -> o_x XRA run = map Fin x -> (exists pts, o_evals XRA run = map (map Fin) pts /\ Forall (fun p => length p = 9%nat) pts) ->
  ccc_objective XRA (map Fin r1) (map Fin r2) (map Fin x) NaN NaN [] [] = Ok (o_fun XRA run) ->
  0 < o1 -> 0 <= a1 -> 0 <= b1 -> 0 < o2 -> 0 <= a2 -> 0 <= b2 -> -1 < rho < 1 ->
  exists o v1 v2 ll, ccc_fit XRA m1 m2 mini (new_ccc XRA (map Fin r1) (map Fin r2) u1 u2 u3 u4) = Ok ((map Fin x, Fin ll), o) /\
    c_success XRA o = true /\ c_fields XRA o = map Fin x /\ c_ll XRA o = Fin ll /\
    own_variances r1 mu1 o1 a1 b1 v1 /\ own_variances r2 mu2 o2 a2 b2 v2 /\
    ll = sum4 (fun x v y w => ln (bivariate_density v w rho x y)) (deviations r1 mu1) v1 (deviations r2 mu2) v2.
Proof.
  intros HE N1 N2 run x J1 J2 (pts & J3 & J5) J4 Ho1 Ha1 Hb1 Ho2 Ha2 Hb2 Hr. assert (HL := proj1 HE). destruct HE as (HL' & V1 & V2 & HE'). assert (HE : estimated KGarch m1 m2 r1 r2 e1 e2 x1 x2 s1 s2) by (repeat (split; auto)). clear HE' HL'.
  destruct (estimated_models KGarch m1 m2 r1 r2 e1 e2 x1 x2 s1 s2 u1 u2 u3 u4 HE) as (t1 & t2 & w1 & w2 & q1 & q2 & F1 & F2 & S1 & S2 & R1 & R2 & A1 & A2 & B1 & B2 & G1 & G2 & _ & _ & C1 & C2 & L1 & L2 & P1 & P2).
  assert (D1 : length (deviations r1 (hd 0 e1)) = length r1) by apply map_length. assert (D2 : length (deviations r2 (hd 0 e2)) = length r2) by apply map_length.
  assert (HX : forall r m, 0 < Rvar r -> exists y, In y r /\ y <> m).
  { clear. intros r m HV. assert (Hn := var_nonempty r HV). destruct (proj1 (Rvar_pos_iff r Hn) HV) as (x & y & Hx & Hy & Hxy). destruct (Req_dec x m); [exists y|exists x]; split; auto; congruence. }
  destruct (C17_own_variances_exist r1 mu1 o1 a1 b1 (HX r1 mu1 V1) Ho1 Ha1 Hb1) as (v1 & W1 & M1 & Q1).
  destruct (C17_own_variances_exist r2 mu2 o2 a2 b2 (HX r2 mu2 V2) Ho2 Ha2 Hb2) as (v2 & W2 & M2 & Q2).
  set (ll := sum4 (fun x v y w => ln (bivariate_density v w rho x y)) (deviations r1 mu1) v1 (deviations r2 mu2) v2).
  assert (EO : o_fun XRA run = Fin (- ll)).
  { assert (G := C17_objective r1 r2 mu1 o1 a1 b1 mu2 o2 a2 b2 rho v1 v2 NaN NaN [] [] W1 W2 M1 M2 HL Q1 Q2 Hr). change (ccc_point mu1 o1 a1 b1 mu2 o2 a2 b2 rho) with (map Fin x) in G.
    change (num XRA) with xr in *. rewrite J4 in G. apply ok_inj3 in G. exact G. }
  exists (Build_ccc XRA t1 t2 true (map Fin x) (Fin ll)), v1, v2, ll. split; [|cbn [c_success c_fields c_ll]; repeat (split; [solve [auto]|]); reflexivity].
  unfold ccc_fit, new_ccc. cbn [c_success c_m1 c_m2]. rewrite F1, F2. cbn [bind snd]. change (num XRA) with xr in *. rewrite A1, A2, B1, B2, G1, G2, R1, R2.
  rewrite !standardize_fin by (auto; congruence). change (zscores (deviations r1 (hd 0 e1)) s1) with (z1 r1 e1 s1). change (zscores (deviations r2 (hd 0 e2)) s2) with (z2 r2 e2 s2).
  assert (LZ : length (z1 r1 e1 s1) = length (z2 r2 e2 s2)) by (unfold z1, z2, zscores; rewrite !map2_length; lia).
  destruct (corr_entry_fin (z1 r1 e1 s1) (z2 r2 e2 s2) LZ N1 N2) as (_ & _ & E10 & _). change (num XRA) with xr in *. rewrite E10.
  replace (map Fin e1 ++ map Fin e2 ++ [Fin (pearson (z1 r1 e1 s1) (z2 r2 e2 s2))]) with (ccc_start e1 e2 (pearson (z1 r1 e1 s1) (z2 r2 e2 s2))) by (unfold ccc_start; rewrite !map_app; reflexivity).
  fold run. rewrite evals_defined.
  - cbn [bind]. rewrite J1, J2, EO. cbn [nopp XRA xopp]. rewrite Ropp_involutive. reflexivity.
  - intros y Hy. rewrite J3 in Hy. apply in_map_iff in Hy. destruct Hy as (p & <- & Hp). rewrite Forall_forall in J5. apply ccc_objective_defined; auto.
Qed.

(** ** Non-vacuity: the series (1,-1,1,-1) and (1,1,-1,-1), estimates with omega + alpha + beta = 1, both kinds of model *)
Definition case_point (k : kind) : list R := match k with KGarch => [0; 4/10; 1/10; 1/2] | KGjr => [0; 4/10; 1/10; 0; 1/2] end.
Definition ones : list R := [1; 1; 1; 1].
Definition ones_run (k : kind) (r : list R) : opt_run XRA :=
  Build_opt_run XRA (map (map Fin) ([case_point k] ++ [case_point k])) true (map Fin (case_point k)) (Fin (- gaussian (deviations r 0) ones)).
Lemma pm1_deviations r : deviations r 0 = r.
Proof. unfold deviations. rewrite <- (map_id r) at 2. apply map_ext. intros; ring. Qed.
Lemma ones_variances k r : pm1 r -> model_variances k r (case_point k) ones.
Proof.
  intros HP. assert (Hn : r <> []) by (destruct HP as (HL & _); destruct r; discriminate || auto). destruct (pm1_bounds r HP) as (B & W).
  unfold model_variances. rewrite (pm1_centred r HP). exists (map finrow (boundsR r)). split; [apply variance_bounds_fin; auto|]. rewrite backcast_fin by auto. rewrite W, B.
  replace (hd 0 (case_point k)) with 0 by (destruct k; reflexivity). rewrite pm1_deviations. destruct HP as (HL & _ & HF).
  destruct r as [|v0 [|v1 [|v2 [|v3 [|? ?]]]]]; try discriminate HL.
  inversion HF as [|? ? F0 HF0]; inversion HF0 as [|? ? F1 HF1]; inversion HF1 as [|? ? F2 HF2]; inversion HF2 as [|? ? F3 HF3]; subst.
  assert (S0 : v0 ^ 2 = 1) by (destruct F0 as [-> | ->]; ring). assert (S1 : v1 ^ 2 = 1) by (destruct F1 as [-> | ->]; ring). assert (S2 : v2 ^ 2 = 1) by (destruct F2 as [-> | ->]; ring).
  assert (GR : Forall good_row (tl (repeat (1 / 1000000, 1 * 1000000) 4))) by (cbn [repeat tl]; repeat constructor; unfold good_row; cbn; lra).
  destruct k; cbn [case_point tl map compute_variance].
  - refine (eq_trans (garch_fin (4/10) (1/10) (1/2) 1 _ (repeat (1 / 1000000, 1 * 1000000) 4) Hn (Nat.le_refl 4) GR) _). do 2 f_equal. unfold garchR, s0R_garch, ones. cbn [removelast repeat tl]. replace (4/10 + (1/10 + 1/2) * 1) with 1 by lra. f_equal.
    repeat (rewrite (loopR_inside _ _ _ _ _ _ 1); [|unfold garch_update; rewrite ?S0, ?S1, ?S2; lra|cbn; lra]; f_equal).
  - refine (eq_trans (gjr_fin (4/10) (1/10) 0 (1/2) 1 _ (repeat (1 / 1000000, 1 * 1000000) 4) Hn (Nat.le_refl 4) GR) _). do 2 f_equal. unfold gjrR, s0R_gjr, ones. cbn [removelast repeat tl]. replace (4/10 + (1/10 + 0/2 + 1/2) * 1) with 1 by lra. f_equal.
    repeat (rewrite (loopR_inside _ _ _ _ _ _ 1); [|unfold gjr_update; rewrite ?S0, ?S1, ?S2; destruct (Rlt_dec _ 0); lra|cbn; lra]; f_equal).
Qed.
Lemma case_feasible k : feasible k (case_point k).
Proof. destruct k; (split; [reflexivity|]; split; [cbn; lra|]; cbn; repeat (constructor; [lra|]); constructor). Qed.
Lemma ones_is_run k r : pm1 r -> marginal_run k (ones_run k r) r (case_point k) (case_point k).
Proof.
  intros HP. unfold marginal_run, ones_run. cbn [o_success o_x o_evals o_fun]. split; [reflexivity|]. split; [reflexivity|]. split; [apply case_feasible|].
  split; [exists ones; split; [apply ones_variances; auto|]; destruct k; reflexivity|]. exists [case_point k]. split; [reflexivity|]. repeat (constructor; [apply case_feasible|]). constructor.
Qed.
Lemma case_estimated k : estimated k (fun _ _ => ones_run k case_firm) (fun _ _ => ones_run k case_market) case_firm case_market (case_point k) (case_point k) (case_point k) (case_point k) ones ones.
Proof.
  destruct pm1_case as [P1 P2]. split; [reflexivity|]. rewrite (pm1_var _ P1), (pm1_var _ P2). split; [lra|]. split; [lra|].
  repeat (split; [first [apply ones_is_run; assumption|apply ones_variances; assumption|apply case_feasible]|]). apply case_feasible.
Qed.
Lemma case_z k : z1 case_firm (case_point k) ones = case_firm /\ z2 case_market (case_point k) ones = case_market /\ non_constant case_firm /\ non_constant case_market.
Proof.
  unfold z1, z2. replace (hd 0 (case_point k)) with 0 by (destruct k; reflexivity). rewrite !pm1_deviations.
  split; [exact (zscores_unit _ _ eq_refl)|]. split; [exact (zscores_unit _ _ eq_refl)|].
  split; [exists 1, (-1)|exists 1, (-1)]; unfold case_firm, case_market; cbn; repeat split; auto; lra.
Qed.
Example C104_case_dcc : forall k cpp, exists mini o l, joint_run k case_firm case_market (case_point k) (case_point k) ones ones cpp (mini [Fin (88/225); Fin (3/5)]) (1/10) (1/2) /\
  dcc_fit XRA k cpp (fun _ _ => ones_run k case_firm) (fun _ _ => ones_run k case_market) mini (new_dcc XRA k (init XRA k (map Fin case_firm) [] [] false) (init XRA k (map Fin case_market) [] [] false)) = Ok o /\
  d_ll XRA o = Fin l /\ d_a XRA o = Fin (1/10).
Proof.
  intros k cpp. destruct (case_z k) as (Z1 & Z2 & N1 & N2). assert (HE := case_estimated k). assert (H0 : hd 0 (case_point k) = 0) by (destruct k; reflexivity).
  assert (PO : positive ones) by (repeat (constructor; [lra|]); constructor).
  unfold z1 in Z1. unfold z2 in Z2.
  destruct (C15_conditional_correlations_in_range cpp (1/10) (1/2) (deviations case_firm (hd 0 (case_point k))) (deviations case_market (hd 0 (case_point k))) ones ones eq_refl eq_refl eq_refl PO PO) as (rho & EC & _); try lra.
  { rewrite Z1; auto. } { rewrite Z2; auto. }
  set (l := gaussian (deviations case_firm (hd 0 (case_point k))) ones + gaussian (deviations case_market (hd 0 (case_point k))) ones + copula_sum (map clip99 rho) case_firm case_market).
  set (run := Build_opt_run XRA [[Fin 0; Fin 0]; [Fin (1/10); Fin (1/2)]] true [Fin (1/10); Fin (1/2)] (Fin (- l))).
  assert (HJ : joint_run k case_firm case_market (case_point k) (case_point k) ones ones cpp run (1/10) (1/2)).
  { unfold joint_run, run. cbn [o_success o_x o_evals o_fun]. split; [reflexivity|]. split; [reflexivity|]. split; [repeat constructor|]. do 3 (split; [lra|]). split; [lra|].
    intros v1 v2 rho' V1 V2 E'. destruct pm1_case as [P1 P2]. rewrite (model_variances_unique _ _ _ _ _ V1 (ones_variances k _ P1)), (model_variances_unique _ _ _ _ _ V2 (ones_variances k _ P2)).
    assert (ER : rho' = rho) by (apply fin_inj, ok_inj3; exact (eq_trans (eq_sym E') EC)). subst rho'.
    destruct (case_z k) as (Z1' & Z2' & _). rewrite Z1', Z2'. reflexivity. }
  destruct (C104_dcc k (fun _ _ => ones_run k case_firm) (fun _ _ => ones_run k case_market) case_firm case_market (case_point k) (case_point k) (case_point k) (case_point k) ones ones cpp (fun _ => run) [] [] [] [] (1/10) (1/2) HE) as (o & v1 & v2 & rho' & EF & _ & _ & EA & _ & _ & _ & _ & EL).
  { destruct (case_z k) as (-> & _). exact N1. } { destruct (case_z k) as (_ & -> & _). exact N2. } { exact HJ. }
  exists (fun _ => run), o. eexists. split; [exact HJ|]. split; [exact EF|]. split; [exact EL|exact EA].
Qed.
Example C104_case_ccc : exists mini o l, 
  ccc_fit XRA (fun _ _ => ones_run KGarch case_firm) (fun _ _ => ones_run KGarch case_market) mini (new_ccc XRA (map Fin case_firm) (map Fin case_market) [] [] [] []) = Ok l /\
  mini (ccc_start (case_point KGarch) (case_point KGarch) 0) = o /\ o_success XRA o = true /\ o_x XRA o = map Fin [0; 4/10; 1/10; 1/2; 0; 4/10; 1/10; 1/2; 1/5].
Proof.
  destruct (case_z KGarch) as (Z1 & Z2 & N1 & N2). assert (HE := case_estimated KGarch).
  assert (HX : forall r, pm1 r -> exists y, In y r /\ y <> 0).
  { intros r (HL & _ & HF). destruct r as [|y r]; [discriminate|]. exists y. split; [left; auto|]. inversion HF; subst. lra. }
  destruct pm1_case as [P1 P2].
  destruct (C17_own_variances_exist case_firm 0 (4/10) (1/10) (1/2) (HX _ P1)) as (v1 & W1 & M1 & Q1); try lra.
  destruct (C17_own_variances_exist case_market 0 (4/10) (1/10) (1/2) (HX _ P2)) as (v2 & W2 & M2 & Q2); try lra.
  assert (G := C17_objective case_firm case_market 0 (4/10) (1/10) (1/2) 0 (4/10) (1/10) (1/2) (1/5) v1 v2 NaN NaN [] [] W1 W2 M1 M2 eq_refl Q1 Q2 ltac:(lra)).
  match type of G with _ = Ok ?f => set (run := Build_opt_run XRA [map Fin [0; 4/10; 1/10; 1/2; 0; 4/10; 1/10; 1/2; 1/5]] true (map Fin [0; 4/10; 1/10; 1/2; 0; 4/10; 1/10; 1/2; 1/5]) f) end.
  destruct (C104_ccc (fun _ _ => ones_run KGarch case_firm) (fun _ _ => ones_run KGarch case_market) (fun _ => run) case_firm case_market _ _ _ _ ones ones [] [] [] []
    0 (4/10) (1/10) (1/2) 0 (4/10) (1/10) (1/2) (1/5) HE) as (o & v1' & v2' & ll & EF & _); try lra; auto.
  - rewrite Z1. exact N1.
  - rewrite Z2. exact N2.
  - exists [[0; 4/10; 1/10; 1/2; 0; 4/10; 1/10; 1/2; 1/5]]. split; [reflexivity|]. repeat constructor.
  - exists (fun _ => run), run. eexists. split; [exact EF|]. repeat split.
Qed.
