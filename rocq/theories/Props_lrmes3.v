(** * C21 from the constructor to the estimate; C19 for models that re-estimate their marginals *)
From Coq Require Import Reals Lra Lia ZArith List Bool.
From Verif Require Import Arith XR RealAux Model_garch Spec_garch Proofs_garch2 Proofs_garch3 Proofs_garch5 Model_ar Props_ar Model_mgarch Props_mgarch Props_mgarch2 Model_lrmes Props_lrmes Props_lrmes2.
Import ListNotations.
Local Open Scope R_scope.

(** ** C19 for both kinds of marginal model *)
(** GJR sub-models are re-estimated at every grid point; with the same deterministic solver that changes nothing, so the
    start is the same constant as for GARCH sub-models. *)
Theorem C19_start_is_constant_any_kind : forall k cpp mini1 mini2 m1 m2 r1 r2 s1 s2 l1 l2,
  settled XRA k mini1 m1 -> settled XRA k mini2 m2 ->
  st_resids XRA m1 = map Fin r1 -> st_resids XRA m2 = map Fin r2 -> st_sigma2 XRA m1 = map Fin s1 -> st_sigma2 XRA m2 = map Fin s2 ->
  p_ll XRA (st_params XRA m1) = Fin l1 -> p_ll XRA (st_params XRA m2) = Fin l2 ->
  length r1 = length s1 -> length r2 = length s2 -> length r1 = length r2 -> positive s1 -> positive s2 ->
  non_constant (zscores r1 s1) -> non_constant (zscores r2 s2) ->
  dcc_starting_values XRA k cpp mini1 mini2 (m1, m2) = Ok ((Fin (88/225), Fin (3/5)), (m1, m2)).
Proof.
  intros k cpp mini1 mini2 m1 m2 r1 r2 s1 s2 l1 l2 S1 S2 R1 R2 V1 V2 P1 P2 L1 L2 L12 HP1 HP2 N1 N2.
  assert (EV : forall pts, (forall p, In p pts -> exists a b, p = (Fin a, Fin b) /\ 0 < a /\ 0 < b /\ a + b < 1) ->
    exists es, evaluate XRA k cpp mini1 mini2 pts (m1, m2) = Ok (es, (m1, m2)) /\ Forall (fun e => nltb (a:=XRA) (nopp npinf) (snd e) = true) es).
  { induction pts as [|p pts IH]; intros HPt; [exists []; split; [reflexivity|constructor]|].
    destruct (HPt p (or_introl eq_refl)) as (a & b & -> & Ha & Hb & Hab).
    destruct IH as (es & E & F); [intros; apply HPt; right; auto|].
    destruct (C15_conditional_correlations_in_range cpp a b r1 r2 s1 s2) as (rho & EC & _); auto; try lra.
    cbn [evaluate fst snd]. unfold dcc_objective. rewrite cond_corr_settled by auto. cbn [fst snd].
    change (num XRA) with xr in *. rewrite R1, R2, V1, V2, EC. cbn [bind fst snd]. rewrite P1, P2.
    rewrite !standardize_fin by auto.
    destruct (neg_loglik_fin l1 l2 rho (zscores r1 s1) (zscores r2 s2)) as (v & Ev). rewrite Ev, E. cbn [bind fst snd].
    eexists. split; [reflexivity|]. constructor; [reflexivity|auto]. }
  destruct (EV (tried XRA)) as (es & E & F).
  { intros p Hp. unfold tried in Hp. apply filter_In in Hp. destruct Hp as [H1 H2].
    rewrite grid_fin in H1. destruct p as [x1 x2]. apply in_prod_iff in H1. destruct H1 as [A1 A2]. apply in_map_iff in A1, A2.
    destruct A1 as (i & <- & Hi), A2 as (j & <- & Hj). exists (ga i), (gb j). split; [reflexivity|]. apply keep_iff in H2.
    assert (0 <= i)%Z by (unfold idx in Hi; cbn in Hi; lia). assert (0 <= j)%Z by (unfold idx in Hj; cbn in Hj; lia).
    apply IZR_le in H, H0. unfold ga, gb in *. lra. }
  rewrite C19_returns_the_last_acceptable_point, E. cbn [bind fst snd]. unfold last_acceptable. rewrite Forall_forall in F. rewrite filter_all by auto.
  rewrite (evaluate_points _ _ _ _ _ _ _ _ _ E). cbn [lit XRA]. change (num XRA) with xr in *. assert (E0 := C19_the_point). change (num XRA) with xr in E0. apply f_equal. apply (f_equal (fun z => (z, (m1, m2)))). exact E0.
Qed.

(** ** One GJR estimation with a solver that behaves *)
Definition centred (r : list R) : list R := map (fun v => v - Rmean r) r.
(** the conditional variances of the parameter vector x = [mu; omega; alpha; gamma; beta] for the series [r] *)
Definition variances_at (r x s : list R) : Prop := exists vb,
  variance_bounds XRA (map Fin (centred r)) = Ok vb /\
  gjr_variance_py XRA (map Fin (tl x)) (map Fin (map (fun v => v - hd 0 x) r)) (backcast_py XRA (map Fin (centred r))) vb = Ok (map Fin s).
(** the point from which every series with positive variance is estimated (C08) *)
Definition gjr_start (r : list R) : list xr := map Fin [Rmean r; Rvar r * (1 - 98/100); 2/10; 2/10; 98/100 - 2/10 - 2/10/2].
(** a run of the optimizer that reports the estimate [g] with objective value [nll] after evaluating finite points, [x] last *)
Definition finite_run (run : opt_run XRA) (g : gjr) (nll : R) (x : list R) : Prop :=
  o_success XRA run = true /\ o_x XRA run = gjr_fields g /\ o_fun XRA run = Fin nll /\
  exists pts, o_evals XRA run = map (map Fin) (pts ++ [x]) /\ Forall (fun p => length p = 5%nat) (pts ++ [x]).

Lemma var_nonempty r : 0 < Rvar r -> r <> [].
Proof. intros H ->. unfold Rvar, Rmean in H. cbn in H. unfold Rdiv in H. lra. Qed.
Lemma centred_length r : length (centred r) = length r.
Proof. apply map_length. Qed.
Lemma centred_nonempty r : r <> [] -> centred r <> [].
Proof. destruct r; [tauto|discriminate]. Qed.
Lemma ew_average_nonneg n r : (0 < n)%nat -> 0 <= ew_average n r.
Proof.
  intros Hn. unfold ew_average. assert (HP := ew_total_pos n Hn).
  apply Rmult_le_pos; [|left; apply Rinv_0_lt_compat; exact HP].
  apply Rsum_nonneg. intros y Hy. apply in_map_iff in Hy. destruct Hy as (i & <- & _).
  apply Rmult_le_pos; [left; apply ew_weight_pos|apply pow2_ge_0].
Qed.

(** The variances exist, one per observation, for every finite parameter vector; they are positive when omega > 0 and the others >= 0. *)
Theorem C21_variances_exist : forall r mu om al ga be, 0 < Rvar r ->
  exists s, variances_at r [mu; om; al; ga; be] s /\ length s = length r /\ (0 < om -> 0 <= al -> 0 <= ga -> 0 <= be -> positive s).
Proof.
  intros r mu om al ga be Hv. assert (Hn := var_nonempty r Hv). assert (Hc := centred_nonempty r Hn).
  set (bc := ew_average (Nat.min 75 (length (centred r))) (centred r)).
  assert (Hb : 0 <= bc) by (apply ew_average_nonneg; rewrite centred_length; destruct r; [tauto|cbn; lia]).
  assert (HG : Forall good_row (tl (boundsR (centred r)))) by (apply Forall_tl, boundsR_good; exact (prep_resids_nonzero false r Hv)).
  assert (HL : (length (map (fun v => (v - mu)%R) r) <= length (boundsR (centred r)))%nat) by (unfold boundsR; rewrite !map_length, seq_length, centred_length; lia).
  assert (HN : map (fun v => v - mu) r <> []) by (destruct r; [tauto|discriminate]).
  destruct (cv_fin KGjr [om; al; ga; be] (map (fun v => v - mu) r) bc (boundsR (centred r)) eq_refl HN HL HG) as (s & E & HP).
  exists s. split; [|split].
  - exists (map finrow (boundsR (centred r))). split; [apply variance_bounds_fin; auto|]. rewrite backcast_fin by auto. exact E.
  - destruct HP as (HP & _). rewrite map_length in HP. exact HP.
  - intros Ho Ha Hg Hbe. assert (H0 : 0 < s0R [om; al; ga; be] bc) by (cbn [s0R]; assert (0 <= (al + ga / 2 + be) * bc) by (apply Rmult_le_pos; lra); lra).
    destruct (cv_fin_pos KGjr [om; al; ga; be] _ bc _ eq_refl HN HL HG H0) as (s' & E' & _ & HF & _). rewrite E in E'. injection E' as E'.
    assert (s = s') by (revert E'; clear; revert s'; induction s; destruct s'; cbn; intros H; try discriminate; auto; injection H as -> H; f_equal; auto). subst s'. exact HF.
Qed.

Lemma gjr_objective_ok (st : state XRA) r p : 0 < Rvar r -> st_returns XRA st = map Fin r -> st_zero_mean XRA st = false ->
  st_bounds XRA st = map finrow (boundsR (prep_resids false r)) ->
  st_backcast XRA st = Fin (ew_average (Nat.min 75 (length r)) (prep_resids false r)) -> length p = 5%nat ->
  exists s f, variances_at r p s /\ objective XRA KGjr st (map Fin p) = Ok (f, map Fin s).
Proof.
  intros Hv HR HZ HB HC HL. assert (Hn := var_nonempty r Hv). assert (Hc := centred_nonempty r Hn). destruct p as [|mu [|om [|al [|ga [|be [|? ?]]]]]]; try discriminate HL.
  destruct (C21_variances_exist r mu om al ga be Hv) as (s & (vb & E1 & E2) & _). exists s. eexists. split; [exists vb; auto|].
  unfold objective. change (num XRA) with xr in *. rewrite HZ, HR, HB, HC. cbn [map].
  assert (EV := variance_bounds_fin _ Hc). fold (boundsR (centred r)) in EV. change (num XRA) with xr in *. rewrite EV in E1. injection E1 as <-.
  rewrite backcast_fin in E2 by auto. rewrite centred_length in E2. cbn [map tl hd] in E2. rewrite demean_fin. change (prep_resids false r) with (centred r).
  change (num XRA) with xr in *. cbn [compute_variance]. rewrite E2. reflexivity.
Qed.
Lemma fin_inj (l m : list R) : map Fin l = map Fin m -> l = m.
Proof. revert m. induction l; destruct m; cbn; intros H; try discriminate; auto. injection H as -> H. f_equal; auto. Qed.
Lemma variances_unique r x s s' : variances_at r x s -> variances_at r x s' -> s = s'.
Proof.
  intros (vb & E1 & E2) (vb' & F1 & F2). rewrite E1 in F1. injection F1 as <-. rewrite E2 in F2. injection F2 as F2. apply fin_inj. exact F2.
Qed.
Lemma gjr_evals_ok (st : state XRA) r pts x s0 s : 0 < Rvar r -> st_returns XRA st = map Fin r -> st_zero_mean XRA st = false ->
  st_bounds XRA st = map finrow (boundsR (prep_resids false r)) ->
  st_backcast XRA st = Fin (ew_average (Nat.min 75 (length r)) (prep_resids false r)) ->
  Forall (fun p => length p = 5%nat) (pts ++ [x]) -> variances_at r x s -> run_evals XRA KGjr st (map (map Fin) (pts ++ [x])) s0 = Ok (map Fin s).
Proof.
  intros Hv HR HZ HB HC HF HS. revert s0. induction pts as [|p pts IH]; intros s0; cbn [app map run_evals].
  - inversion HF; subst. destruct (gjr_objective_ok st r x Hv HR HZ HB HC H1) as (s' & f & V & E). rewrite E. cbn [bind snd].
    rewrite (variances_unique _ _ _ _ V HS). reflexivity.
  - inversion HF; subst. destruct (gjr_objective_ok st r p Hv HR HZ HB HC H1) as (s' & f & V & E). rewrite E. cbn [bind snd]. apply IH; auto.
Qed.
Lemma gjr_fit_ok m (st : state XRA) r g nll x s : 0 < Rvar r -> st_returns XRA st = map Fin r -> st_zero_mean XRA st = false ->
  finite_run (m (gjr_start r) (fit_bounds XRA KGjr false)) g nll x -> variances_at r x s ->
  exists q st', fit XRA KGjr m st = Ok (q, st') /\ st_resids XRA st' = map Fin (map (fun v => v - mu g) r) /\ st_sigma2 XRA st' = map Fin s /\
    p_fields XRA (st_params XRA st') = gjr_fields g /\ p_ll XRA (st_params XRA st') = Fin (- nll) /\ settled XRA KGjr m st'.
Proof.
  intros Hv HR HZ (F1 & F2 & F3 & pts & F4 & F5) HS.
  destruct (preparation_fin KGjr st r HR Hv) as (st1 & E & B & C & R1 & Z1). rewrite HZ in *.
  assert (EF : exists q st', fit XRA KGjr m st = Ok (q, st') /\ st_resids XRA st' = map Fin (map (fun v => v - mu g) r) /\ st_sigma2 XRA st' = map Fin s /\
    p_fields XRA (st_params XRA st') = gjr_fields g /\ p_ll XRA (st_params XRA st') = Fin (- nll)).
  { rewrite fit_unfold by (intros [? ?]; discriminate). change (map Fin (Rmean r :: start_point KGjr (Rvar r))) with (gjr_start r) in E.
    change (num XRA) with xr in *. rewrite E. cbn [bind fst snd]. rewrite HZ. change (num XRA) with xr in *. rewrite F4.
    rewrite (gjr_evals_ok st1 r pts x _ s) by auto. cbn [bind]. rewrite F1, F2, F3. cbn [make_params gjr_fields length nfields Nat.ltb Nat.leb bind].
    do 2 eexists. split; [reflexivity|]. cbn [st_resids st_sigma2 st_params p_fields p_ll]. rewrite R1.
    split; [|split; [reflexivity|split; reflexivity]]. cbn. apply demean_fin. }
  destruct EF as (q & st' & E1 & E2). exists q, st'. split; [exact E1|]. destruct E2 as (A1 & A2 & A3 & A4). repeat split; auto. exists st, q. exact E1.
Qed.

(** ** The joint estimation never raises: whatever pair it is evaluated at, the objective returns a number *)
Lemma dcc_evals_settled (A : Arith) k cpp m1 m2 ms pts : settled A k m1 (fst ms) -> settled A k m2 (snd ms) ->
  standardize A (st_resids A (fst ms)) (st_sigma2 A (fst ms)) <> [] -> Forall (fun p => length p = 2%nat) pts ->
  dcc_evals A k cpp m1 m2 pts ms = Ok ms.
Proof.
  intros S1 S2 HZ HF. induction HF as [|p pts HP _ IH]; [reflexivity|]. destruct p as [|a [|b [|? ?]]]; try discriminate HP.
  cbn [dcc_evals dcc_objective]. rewrite cond_corr_settled by auto.
  assert (E : exists rho, cond_corr A cpp a b (st_resids A (fst ms)) (st_resids A (snd ms)) (st_sigma2 A (fst ms)) (st_sigma2 A (snd ms)) = Ok rho).
  { unfold cond_corr, cond_corr_py, cond_corr_cpp. destruct cpp; destruct (standardize A (st_resids A (fst ms)) (st_sigma2 A (fst ms))); try tauto; eauto. }
  destruct E as (rho & E). rewrite E. cbn [bind fst snd]. exact IH.
Qed.

(** the series the GARCH models see: percentage log returns *)
Definition log_returns (raw : list R) : list R := map (fun x => 100 * ln (1 + x)) raw.
Definition residuals (g : gjr) (r : list R) : list R := map (fun v => v - mu g) r.

Lemma end_to_end_setup : forall cpp1 m1 m2 mini draws f_raw m_raw u1 u2 u3 u4 gi gm li lm xi xm si sm a b ll,
  length f_raw = length m_raw -> Forall (fun x => -1 < x) f_raw -> Forall (fun x => -1 < x) m_raw ->
  let fi := log_returns f_raw in let fm := log_returns m_raw in 0 < Rvar fi -> 0 < Rvar fm ->
  finite_run (m1 (gjr_start fi) (fit_bounds XRA KGjr false)) gi li xi -> finite_run (m2 (gjr_start fm) (fit_bounds XRA KGjr false)) gm lm xm ->
  good_gjr gi -> good_gjr gm -> variances_at fi xi si -> variances_at fm xm sm -> positive si -> positive sm ->
  let joint := mini [Fin (88/225); Fin (3/5)] in
  o_success XRA joint = true -> o_x XRA joint = [Fin a; Fin b] -> o_fun XRA joint = Fin ll -> Forall (fun p => length p = 2%nat) (o_evals XRA joint) ->
  0 <= a -> 0 <= b -> a + b < 1 ->
  let zi := zscores (residuals gi fi) si in let zm := zscores (residuals gm fm) sm in
  non_constant zi -> non_constant zm -> -1 < target_correlation cpp1 zi zm < 1 ->
  (forall d k, In d (draws (length fi)) -> In k d -> (k < length fi)%nat) ->
  exists o o1 rho, lrmes_init XRA (map Fin f_raw) (map Fin m_raw) u1 u2 u3 u4 = Ok o /\
    cond_corr XRA cpp1 (Fin a) (Fin b) (map Fin (residuals gi fi)) (map Fin (residuals gm fm)) (map Fin si) (map Fin sm) = Ok (map Fin rho) /\
    d_success XRA o1 = true /\ d_marginals XRA o1 = gjr_fields gi ++ gjr_fields gm /\ d_a XRA o1 = Fin a /\ d_b XRA o1 = Fin b /\ d_ll XRA o1 = Fin (- ll) /\
    let s := forecast_setting gi gm a b (residuals gi fi) si (residuals gm fm) sm rho in
    good_setting s /\
    estimate_setup XRA cpp1 m1 m2 mini draws o = Ok ((inputs s, map fin_shocks (resample (orth zi zm rho) zm (draws (length fi)))), o1).
Proof.
  intros cpp1 m1 m2 mini draws f_raw m_raw u1 u2 u3 u4 gi gm li lm xi xm si sm a b ll HL Hf Hm fi fm Vi Vm Ri Rm Gi Gm Si Sm Pi Pm joint J1 J2 J3 J4 Ha Hb Hab zi zm Ni Nm HT HD.
  assert (LF : length fi = length fm) by (unfold fi, fm, log_returns; rewrite !map_length; auto).
  assert (LI : length (residuals gi fi) = length fi) by apply map_length. assert (LM : length (residuals gm fm) = length fm) by apply map_length.
  assert (LS : forall r x s, variances_at r x s -> 0 < Rvar r -> length x = 5%nat -> length s = length r).
  { intros r x s V HV HX. destruct x as [|x0 [|x1 [|x2 [|x3 [|x4 [|? ?]]]]]]; try discriminate HX.
    destruct (C21_variances_exist r x0 x1 x2 x3 x4 HV) as (s' & V' & L & _). rewrite (variances_unique _ _ _ _ V V'). exact L. }
  assert (LX : forall run g l x, finite_run run g l x -> length x = 5%nat).
  { intros run g l x (_ & _ & _ & pts & _ & HF). rewrite Forall_app in HF. destruct HF as [_ HF]. inversion HF; auto. }
  assert (Li := LS _ _ _ Si Vi (LX _ _ _ _ Ri)). assert (Lm := LS _ _ _ Sm Vm (LX _ _ _ _ Rm)).
  set (s1 := init XRA KGjr (map Fin fi) u1 u2 false). set (s2 := init XRA KGjr (map Fin fm) u3 u4 false).
  destruct (gjr_fit_ok m1 s1 fi gi li xi si Vi eq_refl eq_refl Ri Si) as (q1 & t1 & F1 & A1 & B1 & P1 & Q1 & T1).
  destruct (gjr_fit_ok m2 s2 fm gm lm xm sm Vm eq_refl eq_refl Rm Sm) as (q2 & t2 & F2 & A2 & B2 & P2 & Q2 & T2).
  set (o := new_dcc XRA KGjr s1 s2).
  assert (EI : lrmes_init XRA (map Fin f_raw) (map Fin m_raw) u1 u2 u3 u4 = Ok o).
  { unfold lrmes_init. rewrite !map_length. rewrite HL, Nat.eqb_refl. cbn [check]. rewrite (C77_log_percent f_raw Hf), (C77_log_percent m_raw Hm). reflexivity. }
  assert (SV : dcc_starting_values XRA KGjr cpp1 m1 m2 (t1, t2) = Ok ((Fin (88/225), Fin (3/5)), (t1, t2))).
  { apply (C19_start_is_constant_any_kind KGjr cpp1 m1 m2 t1 t2 (residuals gi fi) (residuals gm fm) si sm (- li) (- lm)); auto; lia. }
  set (o1 := Build_dcc XRA (t1, t2) true (gjr_fields gi ++ gjr_fields gm) (Fin a) (Fin b) (Fin (- ll))).
  assert (EF : dcc_fit XRA KGjr cpp1 m1 m2 mini o = Ok o1).
  { unfold dcc_fit. cbn [d_success o new_dcc d_models fst snd]. rewrite F1, F2. cbn [bind snd]. rewrite SV. cbn [bind fst snd].
    change (num XRA) with xr in *. fold joint. rewrite dcc_evals_settled; auto.
    - cbn [bind]. rewrite J1, J2. cbn [fst snd]. rewrite P1, P2, J3. reflexivity.
    - cbn [fst]. rewrite A1, B1. change (map (fun v => v - mu gi) fi) with (residuals gi fi). rewrite standardize_fin by (auto; lia). fold zi.
      apply non_constant_length in Ni. destruct zi; [cbn in Ni; lia|discriminate]. }
  destruct (estimate_value cpp1 m1 m2 mini draws o o1 (residuals gi fi) si (residuals gm fm) sm gi gm a b) as (rho & EC & HG & EE); auto; try lia.
  { rewrite LI. exact HD. }
  exists o, o1, rho. rewrite LI in EE. repeat split; auto; apply HG.
Qed.
(** From the constructor to the number: for all raw returns above -100% with positive variance of the log returns, if the three optimizer
    runs (the two marginal ones from their fixed start, the joint one from (88/225, 3/5)) report feasible estimates, the whole
    computation returns; the number is the mean simulated firm loss over the systemic scenarios of the GJR-DCC model with those
    estimates, the variances being those of the point evaluated last. *)
Theorem C21_end_to_end : forall cpp1 cpp2 m1 m2 mini draws C f_raw m_raw u1 u2 u3 u4 gi gm li lm xi xm si sm a b ll,
  length f_raw = length m_raw -> Forall (fun x => -1 < x) f_raw -> Forall (fun x => -1 < x) m_raw ->
  let fi := log_returns f_raw in let fm := log_returns m_raw in 0 < Rvar fi -> 0 < Rvar fm ->
  finite_run (m1 (gjr_start fi) (fit_bounds XRA KGjr false)) gi li xi -> finite_run (m2 (gjr_start fm) (fit_bounds XRA KGjr false)) gm lm xm ->
  good_gjr gi -> good_gjr gm -> variances_at fi xi si -> variances_at fm xm sm -> positive si -> positive sm ->
  let joint := mini [Fin (88/225); Fin (3/5)] in
  o_success XRA joint = true -> o_x XRA joint = [Fin a; Fin b] -> o_fun XRA joint = Fin ll -> Forall (fun p => length p = 2%nat) (o_evals XRA joint) ->
  0 <= a -> 0 <= b -> a + b < 1 ->
  let zi := zscores (residuals gi fi) si in let zm := zscores (residuals gm fm) sm in
  non_constant zi -> non_constant zm -> -1 < target_correlation cpp1 zi zm < 1 ->
  (forall d k, In d (draws (length fi)) -> In k d -> (k < length fi)%nat) ->
  exists o o1 rho, lrmes_init XRA (map Fin f_raw) (map Fin m_raw) u1 u2 u3 u4 = Ok o /\
    cond_corr XRA cpp1 (Fin a) (Fin b) (map Fin (residuals gi fi)) (map Fin (residuals gm fm)) (map Fin si) (map Fin sm) = Ok (map Fin rho) /\
    d_success XRA o1 = true /\ d_marginals XRA o1 = gjr_fields gi ++ gjr_fields gm /\ d_a XRA o1 = Fin a /\ d_b XRA o1 = Fin b /\ d_ll XRA o1 = Fin (- ll) /\
    let s := forecast_setting gi gm a b (residuals gi fi) si (residuals gm fm) sm rho in
    good_setting s /\
    estimate XRA cpp1 cpp2 m1 m2 mini draws (Fin C) o =
      Ok (Fin (match systemic s C (resample (orth zi zm rho) zm (draws (length fi))) with [] => 0 | sys => - Rmean (map (firm_return s) sys) end), o1).
Proof.
  intros cpp1 cpp2 m1 m2 mini draws C f_raw m_raw u1 u2 u3 u4 gi gm li lm xi xm si sm a b ll HL Hf Hm fi fm Vi Vm Ri Rm Gi Gm Si Sm Pi Pm joint J1 J2 J3 J4 Ha Hb Hab zi zm Ni Nm HT HD.
  destruct (end_to_end_setup cpp1 m1 m2 mini draws f_raw m_raw u1 u2 u3 u4 gi gm li lm xi xm si sm a b ll) as (o & o1 & rho & H1 & H2 & H3 & H4 & H5 & H6 & H7 & HG & EE); auto.
  exists o, o1, rho. repeat (split; [assumption|]). unfold estimate. rewrite EE. cbn [bind fst snd].
  rewrite C21_lrmes_is_the_conditional_mean by exact HG. reflexivity.
Qed.

(** ** A concrete run: four days, log returns +1/-1 percent, persistence 0.65, all parameters strictly inside their bounds *)
Definition case_firm : list R := [1; -1; 1; -1].
Definition case_market : list R := [1; 1; -1; -1].
Definition case_raw (r : list R) : list R := map (fun v => exp (v / 100) - 1) r.
Definition case_est : gjr := {| mu := 0; omega := 35/100; alpha := 1/10; gamma := 1/10; beta := 1/2 |}.
Definition case_x : list R := [0; 35/100; 1/10; 1/10; 1/2].
Definition case_run : opt_run XRA := Build_opt_run XRA (map (map Fin) ([] ++ [case_x])) true (gjr_fields case_est) (Fin 3).
Definition case_joint : opt_run XRA := Build_opt_run XRA [[Fin (1/10); Fin (1/2)]] true [Fin (1/10); Fin (1/2)] (Fin 5).
Definition pm1 (r : list R) : Prop := length r = 4%nat /\ Rmean r = 0 /\ Forall (fun v => v = 1 \/ v = -1) r.
Lemma log_case_raw r : log_returns (case_raw r) = r.
Proof.
  unfold log_returns, case_raw. rewrite map_map. rewrite <- (map_id r) at 2. apply map_ext. intros v. replace (1 + (exp (v / 100) - 1)) with (exp (v / 100)) by ring. rewrite ln_exp. field.
Qed.
Lemma case_raw_above r : Forall (fun x => -1 < x) (case_raw r).
Proof. apply Forall_forall. intros x H. apply in_map_iff in H. destruct H as (v & <- & _). assert (H := exp_pos (v / 100)). lra. Qed.
Lemma pm1_centred r : pm1 r -> centred r = r.
Proof. intros (_ & H & _). unfold centred. rewrite H. rewrite <- (map_id r) at 2. apply map_ext. intros. lra. Qed.
Lemma pm1_var r : pm1 r -> Rvar r = 1.
Proof.
  intros (HL & HM & HF). unfold Rvar. rewrite HM. rewrite (map_ext_in _ (fun _ => 1)).
  - destruct r as [|v0 [|v1 [|v2 [|v3 [|? ?]]]]]; try discriminate HL. unfold Rmean. cbn. field.
  - intros v Hv. rewrite Forall_forall in HF. destruct (HF v Hv) as [-> | ->]; lra.
Qed.
Lemma pm1_bounds r : pm1 r -> boundsR r = repeat (1 / 1000000, 1 * 1000000) 4 /\ ew_average (Nat.min 75 (length r)) r = 1.
Proof.
  intros HP. assert (HV := pm1_var r HP). destruct HP as (HL & HM & HF).
  destruct r as [|v0 [|v1 [|v2 [|v3 [|? ?]]]]]; try discriminate HL. 
  assert (E : ew_average (Nat.min 75 (length [v0; v1; v2; v3])) [v0; v1; v2; v3] = 1).
  { unfold ew_average. cbn [length Nat.min seq map nth Rsum fold_right]. inversion HF as [|? ? F0 HF0]; inversion HF0 as [|? ? F1 HF1]; inversion HF1 as [|? ? F2 HF2]; inversion HF2 as [|? ? F3 HF3]; subst.
    assert (S0 : v0 ^ 2 = 1) by (destruct F0 as [-> | ->]; ring). assert (S1 : v1 ^ 2 = 1) by (destruct F1 as [-> | ->]; ring).
    assert (S2 : v2 ^ 2 = 1) by (destruct F2 as [-> | ->]; ring). assert (S3 : v3 ^ 2 = 1) by (destruct F3 as [-> | ->]; ring).
    rewrite S0, S1, S2, S3. unfold ew_weight. cbn. field. }
  split; [|exact E]. unfold boundsR, vbR. rewrite E, HV. cbn [length seq map].
  unfold ewmaR. inversion HF as [|? ? F0 HF0]; inversion HF0 as [|? ? F1 HF1]; inversion HF1 as [|? ? F2 HF2]; inversion HF2 as [|? ? F3 HF3]; subst.
  assert (S0 : v0 * v0 = 1) by (destruct F0 as [-> | ->]; ring). assert (S1 : v1 * v1 = 1) by (destruct F1 as [-> | ->]; ring).
  assert (S2 : v2 * v2 = 1) by (destruct F2 as [-> | ->]; ring). cbn [map removelast]. rewrite S0, S1, S2. cbn [ewR nth repeat].
  repeat match goal with |- context [94/100 * ?x + (1 - 94/100) * 1] => replace (94/100 * x + (1 - 94/100) * 1) with 1 by lra end.
  rewrite Rmax_left by lra. reflexivity.
Qed.
Definition case_si : list R := [1; 95/100; 1025/1000; 9625/10000].
Definition case_sm : list R := [1; 95/100; 925/1000; 10125/10000].
Lemma pm1_case : pm1 case_firm /\ pm1 case_market.
Proof.
  unfold pm1, case_firm, case_market, Rmean. split; (split; [reflexivity|]; split; [cbn; field|]); repeat (constructor; [lra|]); constructor.
Qed.
Lemma loopR_inside st p r rs b bs v : st p r = v -> fst b <= v <= snd b -> loopR st p (r :: rs) (b :: bs) = v :: loopR st v rs bs.
Proof. intros <- H. cbn [loopR]. rewrite clip_log_id by exact H. reflexivity. Qed.
Lemma case_variances : variances_at case_firm case_x case_si /\ variances_at case_market case_x case_sm.
Proof.
  destruct pm1_case as [P1 P2].
  assert (G : forall r s, pm1 r -> gjrR (35/100) (1/10) (1/10) (1/2) 1 (map (fun v => v - 0) r) (repeat (1 / 1000000, 1 * 1000000) 4) = s -> variances_at r case_x s).
  { intros r s HP HE. assert (Hn : r <> []) by (destruct HP as (HL & _); destruct r; discriminate || auto). destruct (pm1_bounds r HP) as (B & W).
    unfold variances_at. rewrite (pm1_centred r HP). exists (map finrow (boundsR r)). split; [apply variance_bounds_fin; auto|]. rewrite backcast_fin by auto. rewrite W, B.
    unfold case_x. cbn [tl hd map]. rewrite <- HE. apply gjr_fin; [destruct r; [tauto|discriminate]|rewrite map_length; destruct HP as (-> & _); cbn; lia|].
    cbn [repeat tl]. repeat constructor; unfold good_row; cbn; lra. }
  split; apply G; auto; unfold gjrR, s0R_gjr, case_firm, case_market, case_si, case_sm; cbn [map removelast tl repeat]; replace (35/100 + (1/10 + 1/10/2 + 1/2) * 1) with 1 by lra; f_equal.
  - rewrite (loopR_inside _ _ _ _ _ _ (95/100)); [|unfold gjr_update; destruct (Rlt_dec _ 0); lra|cbn; lra]. f_equal.
    rewrite (loopR_inside _ _ _ _ _ _ (1025/1000)); [|unfold gjr_update; destruct (Rlt_dec _ 0); lra|cbn; lra]. f_equal.
    rewrite (loopR_inside _ _ _ _ _ _ (9625/10000)); [|unfold gjr_update; destruct (Rlt_dec _ 0); lra|cbn; lra]. reflexivity.
  - rewrite (loopR_inside _ _ _ _ _ _ (95/100)); [|unfold gjr_update; destruct (Rlt_dec _ 0); lra|cbn; lra]. f_equal.
    rewrite (loopR_inside _ _ _ _ _ _ (925/1000)); [|unfold gjr_update; destruct (Rlt_dec _ 0); lra|cbn; lra]. f_equal.
    rewrite (loopR_inside _ _ _ _ _ _ (10125/10000)); [|unfold gjr_update; destruct (Rlt_dec _ 0); lra|cbn; lra]. reflexivity.
Qed.
Lemma inv_sqrt_bounds s : 9/10 <= s <= 11/10 -> 95/100 <= 1 / sqrt s <= 106/100.
Proof.
  intros H. assert (Hp : 0 < sqrt s) by (apply sqrt_lt_R0; lra).
  assert (L : 945/1000 <= sqrt s) by (apply Rsqr_incr_0_var; [rewrite Rsqr_sqrt by lra; unfold Rsqr; lra|lra]).
  assert (U : sqrt s <= 105/100) by (apply Rsqr_incr_0_var; [rewrite Rsqr_sqrt by lra; unfold Rsqr; lra|lra]).
  split; [|apply div_le_iff; lra]. apply Rmult_le_reg_r with (sqrt s); [lra|]. replace (1 / sqrt s * sqrt s) with 1 by (field; lra). lra.
Qed.

Lemma case_zscores : exists w1 w2 w3 w4 v1 v2 v3 v4,
  zscores (residuals case_est case_firm) case_si = [w1; - w2; w3; - w4] /\ zscores (residuals case_est case_market) case_sm = [v1; v2; - v3; - v4] /\
  Forall (fun w => 95/100 <= w <= 106/100) [w1; w2; w3; w4; v1; v2; v3; v4].
Proof.
  exists (1 / sqrt 1), (1 / sqrt (95/100)), (1 / sqrt (1025/1000)), (1 / sqrt (9625/10000)), (1 / sqrt 1), (1 / sqrt (95/100)), (1 / sqrt (925/1000)), (1 / sqrt (10125/10000)).
  unfold zscores, residuals, case_firm, case_market, case_si, case_sm, case_est. cbn [map map2 mu].
  split; [|split].
  - repeat (apply f_equal2; [unfold Rdiv; ring|]). reflexivity.
  - repeat (apply f_equal2; [unfold Rdiv; ring|]). reflexivity.
  - repeat (constructor; [apply inv_sqrt_bounds; lra|]). constructor.
Qed.
Lemma case_target : -1 < target_correlation true (zscores (residuals case_est case_firm) case_si) (zscores (residuals case_est case_market) case_sm) < 1 /\
  non_constant (zscores (residuals case_est case_firm) case_si) /\ non_constant (zscores (residuals case_est case_market) case_sm).
Proof.
  destruct case_zscores as (w1 & w2 & w3 & w4 & v1 & v2 & v3 & v4 & Z1 & Z2 & HB).
  inversion HB as [|? ? B1 HB1]; inversion HB1 as [|? ? B2 HB2]; inversion HB2 as [|? ? B3 HB3]; inversion HB3 as [|? ? B4 HB4];
  inversion HB4 as [|? ? B5 HB5]; inversion HB5 as [|? ? B6 HB6]; inversion HB6 as [|? ? B7 HB7]; inversion HB7 as [|? ? B8 HB8]. subst. clear HB HB1 HB2 HB3 HB4 HB5 HB6 HB7 HB8.
  assert (PR : forall x y, 95/100 <= x <= 106/100 -> 95/100 <= y <= 106/100 -> 9025/10000 <= x * y <= 11236/10000).
  { intros x y Hx Hy. split; [apply Rle_trans with (95/100 * (95/100)); [lra|apply Rmult_le_compat; lra]|apply Rle_trans with (106/100 * (106/100)); [apply Rmult_le_compat; lra|lra]]. }
  assert (HT : -1 < target_correlation true (zscores (residuals case_est case_firm) case_si) (zscores (residuals case_est case_market) case_sm) < 1).
  { rewrite Z1, Z2. cbn [target_correlation]. set (x := moment2 _ _). set (d1 := moment2 [w1; - w2; w3; - w4] [w1; - w2; w3; - w4]). set (d2 := moment2 [v1; v2; - v3; - v4] [v1; v2; - v3; - v4]).
    assert (Hx : -1/2 < x < 1/2).
    { unfold x, moment2. cbn [map2 length Rsum fold_right INR]. assert (p1 := PR w1 v1 B1 B5). assert (p2 := PR w2 v2 B2 B6). assert (p3 := PR w3 v3 B3 B7). assert (p4 := PR w4 v4 B4 B8). lra. }
    assert (H1 : 9/10 <= d1).
    { unfold d1, moment2. cbn [map2 length Rsum fold_right INR]. assert (p1 := PR w1 w1 B1 B1). assert (p2 := PR w2 w2 B2 B2). assert (p3 := PR w3 w3 B3 B3). assert (p4 := PR w4 w4 B4 B4). lra. }
    assert (H2 : 9/10 <= d2).
    { unfold d2, moment2. cbn [map2 length Rsum fold_right INR]. assert (p1 := PR v1 v1 B5 B5). assert (p2 := PR v2 v2 B6 B6). assert (p3 := PR v3 v3 B7 B7). assert (p4 := PR v4 v4 B8 B8). lra. }
    assert (HS : 9/10 <= sqrt (d1 * d2)).
    { apply Rsqr_incr_0_var; [|apply sqrt_pos]. rewrite Rsqr_sqrt by (apply Rmult_le_pos; lra). unfold Rsqr. apply Rmult_le_compat; lra. }
    split; [apply Rmult_lt_reg_r with (sqrt (d1 * d2)); [lra|]; replace (x / sqrt (d1 * d2) * sqrt (d1 * d2)) with x by (field; lra); lra|].
    apply Rmult_lt_reg_r with (sqrt (d1 * d2)); [lra|]. replace (x / sqrt (d1 * d2) * sqrt (d1 * d2)) with x by (field; lra). lra. }
  split; [exact HT|]. split.
  - rewrite Z1. exists w1, (- w2). split; [left; auto|]. split; [right; left; auto|]. lra.
  - rewrite Z2. exists v1, (- v3). split; [left; auto|]. split; [right; right; left; auto|]. lra.
Qed.
Example C21_end_to_end_case : exists o o1 v,
  lrmes_init XRA (map Fin (case_raw case_firm)) (map Fin (case_raw case_market)) [] [] [] [] = Ok o /\ d_success XRA o1 = true /\ d_a XRA o1 = Fin (1/10) /\
  estimate XRA true true (fun _ _ => case_run) (fun _ _ => case_run) (fun _ => case_joint) (fun _ => [[0; 1]; [2; 3]; [1; 1]])%nat (Fin (-1/100)) o = Ok (Fin v, o1).
Proof.
  destruct case_variances as [V1 V2]. destruct pm1_case as [Q1 Q2].
  assert (R1 : finite_run case_run case_est 3 case_x) by (repeat split; exists []; split; [reflexivity|repeat constructor]).
  destruct case_target as (HT & N1 & N2).
  destruct (C21_end_to_end true true (fun _ _ => case_run) (fun _ _ => case_run) (fun _ => case_joint) (fun _ => [[0; 1]; [2; 3]; [1; 1]])%nat (-1/100)
    (case_raw case_firm) (case_raw case_market) [] [] [] [] case_est case_est 3 3 case_x case_x case_si case_sm (1/10) (1/2) 5) as (o & o1 & rho & E1 & _ & E2 & _ & E3 & _ & _ & _ & E4);
    rewrite ?log_case_raw; auto; try lra; try apply case_raw_above.
  - rewrite (pm1_var _ Q1). lra.
  - rewrite (pm1_var _ Q2). lra.
  - unfold good_gjr, case_est. cbn. lra.
  - unfold good_gjr, case_est. cbn. lra.
  - unfold case_si. repeat (constructor; [lra|]). constructor.
  - unfold case_sm. repeat (constructor; [lra|]). constructor.
  - repeat constructor.
  - intros d k Hd Hk. change (length case_firm) with 4%nat. destruct Hd as [<-|[<-|[<-|[]]]]; cbn in Hk; lia.
  - exists o, o1. eexists. split; [exact E1|]. split; [exact E2|]. split; [exact E3|]. exact E4.
Qed.
(** the object of that run also witnesses the hypotheses of C20 (an estimation that succeeds, fresh object) and C77 *)
Example C20_case : exists o o1, d_success XRA o = false /\ dcc_fit XRA KGjr true (fun _ _ => case_run) (fun _ _ => case_run) (fun _ => case_joint) o = Ok o1 /\ d_success XRA o1 = true /\
  settled XRA KGjr (fun _ _ => case_run) (fst (d_models XRA o1)).
Proof.
  destruct C21_end_to_end_case as (o & o1 & v & E1 & E2 & _ & E3). exists o, o1.
  assert (HO : d_success XRA o = false).
  { destruct (C77_series_must_match XRA (map Fin (case_raw case_firm)) (map Fin (case_raw case_market)) [] [] [] []) as [_ H]. destruct H as (o' & H & H' & _); [reflexivity|]. rewrite E1 in H. injection H as <-. exact H'. }
  destruct (C77_estimates_do_not_influence_each_other XRA _ _ _ _ _ _ _ _ _ _ HO E3) as [EF _].
  split; [exact HO|]. split; [exact EF|]. split; [exact E2|]. apply (dcc_fit_settled XRA _ _ _ _ _ _ _ HO EF).
Qed.
Example C77_case : exists o v o2, d_success XRA o = false /\
  estimate XRA true true (fun _ _ => case_run) (fun _ _ => case_run) (fun _ => case_joint) (fun _ => [[0; 1]; [2; 3]; [1; 1]])%nat (Fin (-1/100)) o = Ok (v, o2).
Proof.
  destruct C20_case as (o & o1 & H & _). destruct C21_end_to_end_case as (o' & o1' & v & E1 & E2 & _ & E3). exists o', (Fin v), o1'. split; [|exact E3].
  destruct (C77_series_must_match XRA (map Fin (case_raw case_firm)) (map Fin (case_raw case_market)) [] [] [] []) as [_ H0]. destruct H0 as (o0 & H0 & H1 & _); [reflexivity|]. rewrite E1 in H0. injection H0 as <-. exact H1.
Qed.
