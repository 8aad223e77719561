(** * C108: SRISK is the mean simulated capital shortfall; C109: all firms share the systemic scenarios; C110: log returns *)
From Coq Require Import Reals Lra Lia ZArith List Bool.
From Verif Require Import Arith XR RealAux Spec_measures Model_garch Spec_garch Proofs_garch Proofs_garch5 Model_ar Model_mgarch Props_mgarch Props_mgarch2 Model_lrmes Props_lrmes Props_lrmes2 Props_lrmes3 Model_measures Props_srisk Model_srisk.
Import ListNotations.
Local Open Scope R_scope.

(** ** C109 (any arithmetic, bit for bit) *)
Section Same.
Context (A : Arith).
Notation num := (num A).

(** the simulated market leg does not look at the firm *)
Lemma sim_market_leg cpp (i j : sim_inputs A) :
  i_mkt_var A i = i_mkt_var A j -> i_mkt_resid A i = i_mkt_resid A j -> i_pm A i = i_pm A j ->
  forall x y, map snd x = map snd y -> map fst (sim_returns A cpp i x) = map fst (sim_returns A cpp j y).
Proof.
  intros H1 H2 H3.
  assert (G : forall (p q : gjr_params A) a b c d e a' b' c' d' e' x y s t, map snd x = map snd y -> s_rm A s = s_rm A t -> s_vm A s = s_vm A t ->
    map fst (sim_loop A ((if cpp then sim_step_cpp A else sim_step_py A) p (i_pm A j) a b c d e) s x) =
    map fst (sim_loop A ((if cpp then sim_step_cpp A else sim_step_py A) q (i_pm A j) a' b' c' d' e') t y)).
  { intros p q a b c d e a' b' c' d' e'. induction x as [|x0 x IH]; intros [|y0 y] s t Hxy Hr Hv; try discriminate Hxy; [reflexivity|].
    cbn [map] in Hxy. injection Hxy as E0 E. cbn [sim_loop map]. f_equal.
    - destruct cpp; cbn [sim_step_cpp sim_step_py fst]; rewrite E0, Hr, Hv; reflexivity.
    - apply IH; [exact E| |]; destruct cpp; cbn [sim_step_cpp sim_step_py snd s_rm s_vm]; rewrite ?E0, Hr, Hv; reflexivity. }
  intros x y Hxy. unfold sim_returns. rewrite H3. apply G; auto.
Qed.
Lemma sim_event cpp (i j : sim_inputs A) C x y :
  i_mkt_var A i = i_mkt_var A j -> i_mkt_resid A i = i_mkt_resid A j -> i_pm A i = i_pm A j -> map snd x = map snd y ->
  snd (simulation A cpp i C x) = snd (simulation A cpp j C y).
Proof.
  intros H1 H2 H3 H4. assert (E := sim_market_leg cpp i j H1 H2 H3 x y H4). unfold simulation.
  assert (M : forall l : list (num * num), map (fun r => ndiv (fst r) (ofZ 100)) l = map (fun v => ndiv v (ofZ 100)) (map fst l)) by (intros; rewrite map_map; reflexivity).
  rewrite !M, E. destruct (nltb _ C); reflexivity.
Qed.
Lemma accumulate_count cpp i C sc t n : snd (accumulate A cpp i C sc t n) = (n + Z.of_nat (length (filter (fun s => snd (simulation A cpp i C s)) sc)))%Z.
Proof.
  revert t n. induction sc as [|s sc IH]; intros t n; cbn [accumulate snd filter length]; [lia|]. rewrite IH.
  destruct (snd (simulation A cpp i C s)); cbn [Z.b2z length]; lia.
Qed.

(** a solver that reports success after evaluating the objective *)
Definition runs (m : solver A) : Prop := forall x b, o_success A (m x b) = true /\ o_evals A (m x b) <> [].
Lemma fit_memory (m : solver A) r u1 u2 v1 v2 q t q' t' : runs m ->
  fit A KGjr m (init A KGjr r u1 u2 false) = Ok (q, t) -> fit A KGjr m (init A KGjr r v1 v2 false) = Ok (q', t') -> t = t'.
Proof.
  intros Hm. rewrite !fit_unfold by (intros [? ?]; discriminate). unfold preparation. cbn [init st_zero_mean st_returns].
  destruct (variance_bounds A _) as [vb|]; cbn [bind]; [|discriminate].
  destruct (starting_values A KGjr _ _ _ _) as [vp|]; cbn [bind]; [|discriminate]. cbn [fst snd]. cbn [st_zero_mean st_returns st_sigma2 st_ll_final st_backcast st_bounds st_params st_resids st_success].
  destruct (Hm (amean A r :: vp) (fit_bounds A KGjr false)) as [S E]. rewrite S.
  destruct (o_evals A (m (amean A r :: vp) (fit_bounds A KGjr false))) as [|p pts]; [tauto|]. cbn [run_evals].
  match goal with |- bind (bind (objective A KGjr ?s p) _) _ = _ -> bind (bind (objective A KGjr ?s' p) _) _ = _ -> _ =>
    rewrite (objective_ext A KGjr s' s p) by reflexivity; destruct (objective A KGjr s p) as [[f s0]|]; cbn [bind snd]; [|discriminate];
    rewrite (run_evals_ext A KGjr s' s pts) by reflexivity; destruct (run_evals A KGjr s pts s0) as [s2|]; cbn [bind]; [|discriminate] end.
  destruct (make_params A KGjr _ _) as [ps|]; cbn [bind]; [|discriminate]. intros H1 H2. injection H1 as _ <-. injection H2 as _ <-. reflexivity.
Qed.
Lemma fit_lengths (m : solver A) r u1 u2 q t : runs m -> fit A KGjr m (init A KGjr r u1 u2 false) = Ok (q, t) ->
  length (st_resids A t) = length r /\ length (st_sigma2 A t) = length r /\ r <> [].
Proof.
  intros Hm H. destruct (fit_inv A _ _ _ _ _ H) as [(? & _)|(_ & sv & p1 & s & HP & HR)]; [discriminate|]. cbv zeta in HR.
  cbn [init st_zero_mean st_returns] in HR. destruct (Hm sv (fit_bounds A KGjr false)) as [S E]. rewrite S in HR.
  destruct HR as (HE & _ & ES & ER & _ & _ & _ & _ & _ & EO). destruct (exists_last E) as (pts & x & EL). rewrite EL in HE.
  apply run_evals_last in HE. destruct HE as (f & HE).
  destruct (prep_inv A _ _ _ _ HP) as (e1 & e2 & _). cbn [init st_returns st_zero_mean] in e1, e2.
  unfold objective in HE. rewrite e2 in HE. destruct x as [|mu rest]; [discriminate|].
  destruct (compute_variance A KGjr rest _ _ _) as [s2|] eqn:CV; cbn [bind] in HE; [|discriminate]. injection HE as _ <-.
  destruct (cv_spec A KGjr _ _ _ _ _ nnan (nnan, nnan) CV) as (L & _). apply cv_inv in CV as (_ & Hn & _). rewrite e1 in *. unfold demean in *. rewrite map_length in L.
  rewrite EO, map_length. split; [reflexivity|]. split; [congruence|]. intros ->. apply Hn. reflexivity.
Qed.
Lemma dcc_fit_models cpp m1 m2 mini s1 s2 o1 : dcc_fit A KGjr cpp m1 m2 mini (new_dcc A KGjr s1 s2) = Ok o1 ->
  exists q1 q2, fit A KGjr m1 s1 = Ok (q1, fst (d_models A o1)) /\ fit A KGjr m2 s2 = Ok (q2, snd (d_models A o1)).
Proof.
  intros H. unfold dcc_fit in H. cbn [new_dcc d_success d_models fst snd] in H.
  destruct (fit A KGjr m1 s1) as [[q1 t1]|] eqn:F1; cbn [bind] in H; [|discriminate].
  destruct (fit A KGjr m2 s2) as [[q2 t2]|] eqn:F2; cbn [bind] in H; [|discriminate]. cbn [snd] in H.
  assert (S1 : settled A KGjr m1 t1) by (exists s1, q1; auto). assert (S2 : settled A KGjr m2 t2) by (exists s2, q2; auto).
  assert (KE : forall pts ms, ms = (t1, t2) -> forall r ms', evaluate A KGjr cpp m1 m2 pts ms = Ok (r, ms') -> ms' = (t1, t2)).
  { induction pts as [|p pts IH]; intros ms -> r ms' E; cbn [evaluate] in E; [injection E as _ <-; reflexivity|].
    destruct (dcc_objective A KGjr cpp m1 m2 (t1, t2) _) as [[f ms1]|] eqn:EO; cbn [bind] in E; [|discriminate]. cbn [fst snd] in E.
    unfold dcc_objective in EO. rewrite cond_corr_settled in EO by auto.
    destruct (cond_corr A cpp _ _ _ _ _ _) as [rho|]; cbn [bind] in EO; [|discriminate]. cbn [fst snd] in EO. injection EO as _ <-.
    destruct (evaluate A KGjr cpp m1 m2 pts (t1, t2)) as [[rr ms2]|] eqn:EE; cbn [bind] in E; [|discriminate]. cbn [fst snd] in E. injection E as _ <-. exact (IH _ eq_refl _ _ EE). }
  assert (KD : forall pts ms, ms = (t1, t2) -> forall ms', dcc_evals A KGjr cpp m1 m2 pts ms = Ok ms' -> ms' = (t1, t2)).
  { induction pts as [|p pts IH]; intros ms -> ms' E; cbn [dcc_evals] in E; [injection E as <-; reflexivity|].
    destruct (dcc_objective A KGjr cpp m1 m2 (t1, t2) p) as [[f ms1]|] eqn:EO; cbn [bind] in E; [|discriminate]. cbn [fst snd] in E.
    assert (ms1 = (t1, t2)).
    { unfold dcc_objective in EO. destruct p as [|a [|b [|? ?]]]; try discriminate EO. rewrite cond_corr_settled in EO by auto.
      destruct (cond_corr A cpp _ _ _ _ _ _) as [rho|]; cbn [bind] in EO; [|discriminate]. cbn [fst snd] in EO. injection EO as _ <-. reflexivity. }
    subst ms1. exact (IH _ eq_refl _ E). }
  destruct (dcc_starting_values A KGjr cpp m1 m2 (t1, t2)) as [[ab ms]|] eqn:SV; cbn [bind] in H; [|discriminate]. cbn [fst snd] in H.
  rewrite C19_returns_the_last_acceptable_point in SV.
  destruct (evaluate A KGjr cpp m1 m2 (tried A) (t1, t2)) as [[es ms1]|] eqn:EE; cbn [bind] in SV; [|discriminate].
  assert (Ems := KE _ _ eq_refl _ _ EE). cbn [fst snd] in SV. injection SV as _ <-. subst ms1.
  destruct (dcc_evals A KGjr cpp m1 m2 _ (t1, t2)) as [ms'|] eqn:EV; cbn [bind] in H; [|discriminate].
  assert (Ems := KD _ _ eq_refl _ EV). subst ms'.
  exists q1, q2. destruct (o_success A _).
  - destruct (o_x A _) as [|a [|b [|c x]]]; try discriminate. injection H as <-. auto.
  - injection H as <-. auto.
Qed.
Lemma standardize_length (r s : list num) : length r = length s -> length (standardize A r s) = length r.
Proof. intros H. unfold standardize. rewrite map2_length, H. lia. Qed.
Lemma dcc_loop_length a b x y z u v w zs : length (dcc_loop A a b x y z u v w zs) = length zs.
Proof. revert u v w. induction zs as [|[z1 z2] zs IH]; intros; cbn [dcc_loop length]; auto. Qed.
Lemma dcc_path_length a b x y z (z1 z2 : list num) : z1 <> [] -> length z1 = length z2 -> length (dcc_path A a b x y z z1 z2) = length z1.
Proof.
  intros H1 H2. unfold dcc_path. cbn [length]. rewrite dcc_loop_length, removelast_length, combine_length, <- H2, Nat.min_id. destruct z1; [tauto|cbn [length]; lia].
Qed.
Lemma cond_corr_length cpp a b (r1 r2 s1 s2 rho : list num) n : length r1 = n -> length r2 = n -> length s1 = n -> length s2 = n ->
  cond_corr A cpp a b r1 r2 s1 s2 = Ok rho -> length rho = n.
Proof.
  intros H1 H2 H3 H4. assert (L1 : length (standardize A r1 s1) = n) by (rewrite standardize_length; lia). assert (L2 : length (standardize A r2 s2) = n) by (rewrite standardize_length; lia).
  unfold cond_corr, cond_corr_cpp, cond_corr_py. destruct cpp; destruct (standardize A r1 s1) as [|x l] eqn:E; try discriminate; intros H; injection H as <-;
    (rewrite dcc_path_length; [exact L1|discriminate|congruence]).
Qed.

(** what the setup hands to the simulator: the market leg comes from the market series alone *)
Lemma setup_market cpp m1 m2 mini draws firm market u1 u2 u3 u4 o r :
  lrmes_init A firm market u1 u2 u3 u4 = Ok o -> runs m1 -> runs m2 ->
  estimate_setup A cpp m1 m2 mini draws o = Ok r ->
  exists q t, fit A KGjr m2 (init A KGjr (log_percent A market) u3 u4 false) = Ok (q, t) /\
    i_mkt_var A (fst (fst r)) = last (st_sigma2 A t) nnan /\ i_mkt_resid A (fst (fst r)) = last (st_resids A t) nnan /\
    i_pm A (fst (fst r)) = gjr_of A (p_fields A (st_params A t)) /\
    map (map snd) (snd (fst r)) = map (map (fun k => nth k (standardize A (st_resids A t) (st_sigma2 A t)) nnan)) (draws (length market)).
Proof.
  intros HI Hm1 Hm2 H. unfold lrmes_init, check in HI. destruct (Nat.eqb_spec (length firm) (length market)) as [HL|HL]; [|discriminate]. injection HI as <-.
  unfold estimate_setup in H. destruct (dcc_fit A KGjr cpp m1 m2 mini _) as [o1|] eqn:EF; cbn [bind] in H; [|discriminate].
  destruct (d_success A o1) eqn:ES; [|discriminate]. destruct (dcc_fit_models _ _ _ _ _ _ _ EF) as (q1 & q2 & F1 & F2).
  destruct (fit_lengths m1 _ _ _ _ _ Hm1 F1) as (L1 & L2 & _). destruct (fit_lengths m2 _ _ _ _ _ Hm2 F2) as (L3 & L4 & _).
  unfold log_percent in L1, L2, L3, L4. rewrite map_length in L1, L2, L3, L4.
  rewrite cond_corr_settled in H by (eexists; eexists; eauto).
  destruct (cond_corr A cpp _ _ _ _ _ _) as [rho|] eqn:EC; cbn [bind fst snd] in H; [|discriminate].
  apply (cond_corr_length _ _ _ _ _ _ _ _ (length market)) in EC; try lia.
  set (z_i := standardize A (st_resids A (fst (d_models A o1))) (st_sigma2 A (fst (d_models A o1)))) in *.
  set (z_m := standardize A (st_resids A (snd (d_models A o1))) (st_sigma2 A (snd (d_models A o1)))) in *.
  assert (LX : length (map2 (fun z rho => orthogonal A (fst z) (snd z) rho) (combine z_i z_m) rho) = length market).
  { rewrite map2_length, combine_length. unfold z_i, z_m. rewrite !standardize_length by lia. lia. }
  exists q2, (snd (d_models A o1)). split; [exact F2|].
  destruct (map2 (fun z rho => orthogonal A (fst z) (snd z) rho) (combine z_i z_m) rho) as [|x xi] eqn:EX; [discriminate|]. injection H as <-.
  cbn [fst snd i_mkt_var i_mkt_resid i_pm]. repeat split.
  unfold bootstrap. change (length (x :: xi)) with (S (length xi)) in LX. cbn [length]. rewrite LX, map_map. apply map_ext. intros d. rewrite map_map. apply map_ext. intros k. reflexivity.
Qed.
(** For a given market series, draws and C, a scenario is systemic for one firm exactly when it is for another: for any arithmetic,
    firms, firm optimizations and memory contents. So is the number of systemic scenarios, the divisor of every firm's LRMES. *)
Theorem C109_same_systemic_scenarios : forall cpp cpp2 mA mB m2 miniA miniB draws C market firmA firmB u1 u2 u3 u4 v1 v2 v3 v4 oA oB rA rB,
  lrmes_init A firmA market u1 u2 u3 u4 = Ok oA -> lrmes_init A firmB market v1 v2 v3 v4 = Ok oB -> runs mA -> runs mB -> runs m2 ->
  estimate_setup A cpp mA m2 miniA draws oA = Ok rA -> estimate_setup A cpp mB m2 miniB draws oB = Ok rB ->
  let event r sc := snd (simulation A cpp2 (fst (fst r)) C sc) in
  map (event rA) (snd (fst rA)) = map (event rB) (snd (fst rB)) /\ length (snd (fst rA)) = length (draws (length market)) /\
  n_systemic_events A cpp2 (fst (fst rA)) C (snd (fst rA)) = n_systemic_events A cpp2 (fst (fst rB)) C (snd (fst rB)).
Proof.
  intros cpp cpp2 mA mB m2 miniA miniB draws C market firmA firmB u1 u2 u3 u4 v1 v2 v3 v4 oA oB rA rB IA IB HA HB H2 EA EB event.
  destruct (setup_market _ _ _ _ _ _ _ _ _ _ _ _ _ IA HA H2 EA) as (q & t & F & A1 & A2 & A3 & A4).
  destruct (setup_market _ _ _ _ _ _ _ _ _ _ _ _ _ IB HB H2 EB) as (q' & t' & F' & B1 & B2 & B3 & B4).
  assert (t' = t) by (symmetry; eapply fit_memory; [exact H2|exact F|exact F']). subst t'.
  assert (EE : map (event rA) (snd (fst rA)) = map (event rB) (snd (fst rB))).
  { assert (G : forall x y, map (map snd) x = map (map snd) y -> map (event rA) x = map (event rB) y).
    { induction x as [|x0 x IH]; intros [|y0 y] Hxy; try discriminate Hxy; [reflexivity|]. cbn [map] in *. injection Hxy as E0 E. f_equal; [|auto].
      apply sim_event; congruence. }
    apply G. congruence. }
  split; [exact EE|]. split.
  - rewrite <- (map_length (map snd) (snd (fst rA))). rewrite A4. apply map_length.
  - unfold n_systemic_events. rewrite !accumulate_count. f_equal. f_equal.
    assert (FL : forall (X : Type) (f : X -> bool) (l : list X), length (filter f l) = length (filter (fun b => b) (map f l))).
    { intros X f l. induction l as [|x l IH]; [reflexivity|]. cbn [filter map]. destruct (f x); cbn [length]; rewrite IH; reflexivity. }
    rewrite (FL _ (fun s => snd (simulation A cpp2 (fst (fst rA)) C s))), (FL _ (fun s => snd (simulation A cpp2 (fst (fst rB)) C s))). f_equal. f_equal. exact EE.
Qed.
End Same.

(** ** C108: what SRISK.estimate returns, from raw returns to the shortfall *)
(** capital shortfall of a firm with debt D and equity W (docs/source/measures/srisk.rst, eq:capital_shortfall) *)
Definition CS (k D W : R) : R := k * (D + W) - W.
(** mean capital shortfall over the systemic scenarios, equity having moved by the simulated firm return and debt unchanged;
    today's shortfall when no scenario is systemic *)
Definition mean_shortfall (k D W C : R) (s : setting) (scenarios : list (list (R * R))) : R :=
  match systemic s C scenarios with
  | [] => CS k D W
  | sys => Rmean (map (fun sh => CS k D (W * (1 + firm_return s sh))) sys)
  end.
(** the three optimizations of one LRMES estimation report feasible estimates; [s] is the GJR-DCC model with those estimates, started
    from the last day, and [scenarios] its resampled innovations (the premises and the setting of C21_end_to_end) *)
Definition estimated (e : lrmes_env XRA) (C : R) (f_raw m_raw : list R) (s : setting) (scenarios : list (list (R * R))) : Prop :=
  let fi := log_returns f_raw in let fm := log_returns m_raw in
  exists gi gm li lm xi xm si sm a b ll rho,
    e_C XRA e = Fin C /\ length f_raw = length m_raw /\ Forall (fun x => -1 < x) f_raw /\ Forall (fun x => -1 < x) m_raw /\ 0 < Rvar fi /\ 0 < Rvar fm /\
    finite_run (e_firm_solver XRA e (map Fin f_raw) (gjr_start fi) (fit_bounds XRA KGjr false)) gi li xi /\
    finite_run (e_market_solver XRA e (map Fin m_raw) (gjr_start fm) (fit_bounds XRA KGjr false)) gm lm xm /\
    good_gjr gi /\ good_gjr gm /\ variances_at fi xi si /\ variances_at fm xm sm /\ positive si /\ positive sm /\
    let joint := e_joint_solver XRA e (map Fin f_raw) (map Fin m_raw) [Fin (88/225); Fin (3/5)] in
    o_success XRA joint = true /\ o_x XRA joint = [Fin a; Fin b] /\ o_fun XRA joint = Fin ll /\ Forall (fun p => length p = 2%nat) (o_evals XRA joint) /\
    0 <= a /\ 0 <= b /\ a + b < 1 /\
    let zi := zscores (residuals gi fi) si in let zm := zscores (residuals gm fm) sm in
    non_constant zi /\ non_constant zm /\ -1 < target_correlation (e_cpp1 XRA e) zi zm < 1 /\
    (forall d k, In d (e_draws XRA e (length fi)) -> In k d -> (k < length fi)%nat) /\
    cond_corr XRA (e_cpp1 XRA e) (Fin a) (Fin b) (map Fin (residuals gi fi)) (map Fin (residuals gm fm)) (map Fin si) (map Fin sm) = Ok (map Fin rho) /\
    s = forecast_setting gi gm a b (residuals gi fi) si (residuals gm fm) sm rho /\
    scenarios = resample (orth zi zm rho) zm (e_draws XRA e (length fi)).

Definition lrmes_value (C : R) (s : setting) (scenarios : list (list (R * R))) : R :=
  match systemic s C scenarios with [] => 0 | sys => - Rmean (map (firm_return s) sys) end.
Lemma estimated_call e C f m s sc : estimated e C f m s sc ->
  lrmes_call XRA e (map Fin f) (map Fin m) =
    Ok (negb (e_cpp2 XRA e) && match systemic s C sc with [] => false | _ => true end, Fin (lrmes_value C s sc)).
Proof.
  intros (gi & gm & li & lm & xi & xm & si & sm & a & b & ll & rho & EC & HL & Hf & Hm & Vi & Vm & Ri & Rm & Gi & Gm & Si & Sm & Pi & Pm & J1 & J2 & J3 & J4 & Ha & Hb & Hab & Ni & Nm & HT & HD & ER & -> & ->).
  destruct (end_to_end_setup (e_cpp1 XRA e) (e_firm_solver XRA e (map Fin f)) (e_market_solver XRA e (map Fin m)) (e_joint_solver XRA e (map Fin f) (map Fin m)) (e_draws XRA e)
    f m (e_mem1 XRA e) (e_mem2 XRA e) (e_mem3 XRA e) (e_mem4 XRA e) gi gm li lm xi xm si sm a b ll) as (o & o1 & rho' & EI & ER' & _ & _ & _ & _ & _ & HG & EE); auto.
  rewrite ER in ER'. injection ER' as ER'. apply fin_inj in ER'. subst rho'.
  unfold lrmes_call. change (num XRA) with xr in *. rewrite EI. cbn [bind]. change (num XRA) with xr in *. rewrite EE. cbn [bind fst snd].
  rewrite EC. unfold n_systemic_events. rewrite (C21_lrmes_is_the_conditional_mean _ _ _ _ HG). cbn [ofZ XRA]. rewrite (accumulate_fin _ _ _ _ HG). cbn [snd].
  apply f_equal, f_equal2; [|reflexivity]. apply f_equal. destruct (systemic _ _ _); reflexivity.
Qed.
Lemma mean_shortfall_lrmes k D W C s sc : mean_shortfall k D W C s sc = k * D - (1 - k) * W * (1 - lrmes_value C s sc).
Proof.
  unfold mean_shortfall, lrmes_value. destruct (systemic s C sc) as [|x l]; [unfold CS; ring|]. set (L := x :: l).
  assert (H : INR (length L) <> 0) by (apply not_0_INR; discriminate). unfold Rmean. rewrite !map_length.
  assert (E : Rsum (map (fun sh => CS k D (W * (1 + firm_return s sh))) L) = INR (length L) * (k * D - (1 - k) * W) - (1 - k) * W * Rsum (map (firm_return s) L)).
  { clearbody L. clear. induction L as [|y L IH]; [cbn; ring|]. cbn [map length]. rewrite !Rsum_cons, S_INR, IH. unfold CS. ring. }
  rewrite E. field. auto.
Qed.

(** One firm: for all raw returns, equity W <> 0, debt D and capital fraction k, the value SRISK.estimate returns is the documented
    conditional expectation E(CS | market return < C) over the simulated scenarios. *)
Theorem C108_srisk_is_the_mean_shortfall : forall e C f m s scenarios k D W PW PD,
  estimated e C f m s scenarios -> is_float XRA PW = true -> is_float XRA PD = true -> number_of PW = Fin W -> number_of PD = Fin D -> W <> 0 ->
  exists t, srisk_call_one XRA e (map Fin f) (map Fin m) PW PD (Fin k) false = Ok (t, Fin (mean_shortfall k D W C s scenarios)).
Proof.
  intros e C f m s sc k D W PW PD HE FW FD NW ND HW. assert (E := estimated_call e C f m s sc HE).
  destruct (C24_value (lrmes_call XRA e) (map Fin f) (map Fin m) PW PD k W D _ _ FW FD NW ND HW E) as (t' & E'). exists t'. unfold srisk_call_one.
  rewrite mean_shortfall_lrmes. exact E'.
Qed.
(** One firm with the documented option aggregate=True and plain Python floats: AttributeError when the scenarios are simulated by the
    C++ extension or none is systemic, the positive part of the shortfall otherwise; with W or D np.float64 always the positive part. *)
Theorem C108_single_firm_aggregate : forall e C f m s scenarios k D W PW PD,
  estimated e C f m s scenarios -> is_float XRA PW = true -> is_float XRA PD = true -> number_of PW = Fin W -> number_of PD = Fin D -> W <> 0 ->
  let positive_part := Ok (true, Fin (Rmax (mean_shortfall k D W C s scenarios) 0)) in
  let plain := (PW = PyFloat XRA (Fin W) /\ PD = PyFloat XRA (Fin D)) in
  (plain -> e_cpp2 XRA e = true \/ systemic s C scenarios = [] -> srisk_call_one XRA e (map Fin f) (map Fin m) PW PD (Fin k) true = Err AttributeError) /\
  (plain -> e_cpp2 XRA e = false -> systemic s C scenarios <> [] -> srisk_call_one XRA e (map Fin f) (map Fin m) PW PD (Fin k) true = positive_part) /\
  (~ plain -> srisk_call_one XRA e (map Fin f) (map Fin m) PW PD (Fin k) true = positive_part).
Proof.
  intros e C f m s sc k D W PW PD HE FW FD NW ND HW pp plain. assert (E := estimated_call e C f m s sc HE). set (t := negb _ && _) in E.
  assert (V : srisk_formula XRA (Fin k) (Fin W) (Fin D) (Fin (lrmes_value C s sc)) = Fin (mean_shortfall k D W C s sc)).
  { rewrite srisk_formula_fin by auto. rewrite mean_shortfall_lrmes. unfold shortfall. f_equal. ring. }
  assert (P : forall x, asum [clip0 XRA (Fin x)] = Fin (Rmax x 0)).
  { intros x. unfold asum, clip0, npmax. cbn [isnan XRA nltb ofZ xltb fold_left nadd xadd]. unfold asum. cbn. destruct (Rlt_dec x 0); cbn; f_equal; [rewrite Rmax_right by lra|rewrite Rmax_left by lra]; lra. }
  assert (EZ : xeqb (Fin W) (Fin 0) = false) by (apply xeqb_false; auto).
  unfold srisk_call_one, srisk_estimate_one, srisk_one. change (num XRA) with xr in *. rewrite E. cbn [bind]. unfold srisk_single.
  split; [|split].
  - intros [-> ->] H. assert (T : t = false).
    { unfold t. destruct H as [-> | ->]; [reflexivity|apply andb_false_r]. }
    rewrite T. cbn [to_scalar fst snd negb andb orb neqb ofZ XRA]. rewrite EZ. reflexivity.
  - intros [-> ->] H1 H2. assert (T : t = true).
    { unfold t. rewrite H1. destruct (systemic s C sc); [tauto|reflexivity]. }
    rewrite T. cbn [to_scalar fst snd negb andb orb neqb ofZ XRA]. rewrite EZ. cbn [bind fst snd]. change (num XRA) with xr in *. rewrite V, P. reflexivity.
  - intros H. destruct PW as [w|w|w|w], PD as [d|d|d|d]; cbn in FW, FD; try discriminate; cbn [number_of] in NW, ND; subst w d;
      cbn [to_scalar fst snd negb andb orb]; try (exfalso; apply H; split; reflexivity);
      cbn [bind fst snd orb]; rewrite ?orb_true_r; cbn [bind fst snd]; change (num XRA) with xr in *; rewrite V, P; reflexivity.
Qed.
(** Several firms: each gets its own mean shortfall, and the aggregate is the sum of the positive ones. *)
Record firm_case := { fc_returns : list R; fc_W : R; fc_D : R; fc_setting : setting; fc_scenarios : list (list (R * R)) }.
Definition fc_shortfall (k C : R) (c : firm_case) : R := mean_shortfall k (fc_D c) (fc_W c) C (fc_setting c) (fc_scenarios c).
Definition fc_ok (e : lrmes_env XRA) (C : R) (m : list R) (c : firm_case) : Prop :=
  estimated e C (fc_returns c) m (fc_setting c) (fc_scenarios c) /\ fc_W c <> 0.
Theorem C108_many_firms : forall e C m k (firms : list firm_case), Forall (fc_ok e C m) firms ->
  let columns := map (fun c => map Fin (fc_returns c)) firms in
  let W := map (fun c => Fin (fc_W c)) firms in let D := map (fun c => Fin (fc_D c)) firms in
  srisk_call_many XRA e columns (map Fin m) W D (Fin k) = Ok (map Fin (map (fc_shortfall k C) firms)) /\
  srisk_call_aggregate XRA e columns (map Fin m) W D (Fin k) = Ok (Fin (Rsum (map (fun c => Rmax (fc_shortfall k C c) 0) firms))).
Proof.
  intros e C m k firms H. cbv zeta.
  set (tr := fun c => (map Fin (fc_returns c), (fc_W c, fc_D c, lrmes_value C (fc_setting c) (fc_scenarios c)))).
  assert (HP : forall c w d l, In (c, (w, d, l)) (map tr firms) -> w <> 0 /\ exists t, lrmes_call XRA e c (map Fin m) = Ok (t, Fin l)).
  { intros c w d l Hin. apply in_map_iff in Hin. destruct Hin as (x & Ex & Hx). unfold tr in Ex. injection Ex as <- <- <- <-.
    rewrite Forall_forall in H. destruct (H x Hx) as [HE HW]. split; [exact HW|]. eexists. apply estimated_call. exact HE. }
  assert (V : forall c, firm_value k (snd (tr c)) = fc_shortfall k C c).
  { intros c. unfold fc_shortfall. rewrite mean_shortfall_lrmes. reflexivity. }
  split.
  - assert (E := srisk_many_fin (lrmes_call XRA e) (map Fin m) k (map tr firms) HP). unfold srisk_call_many. rewrite !map_map in E. cbn [tr fst snd] in E.
    change (num XRA) with xr in *. etransitivity; [exact E|]. f_equal. rewrite !map_map. apply map_ext. intros c. f_equal. apply V.
  - destruct (C25_aggregate (lrmes_call XRA e) (map Fin m) k (map tr firms) HP) as (v & E & Ev & _). unfold srisk_call_aggregate. rewrite !map_map in E. cbn [tr fst snd] in E.
    change (num XRA) with xr in *. etransitivity; [exact E|]. f_equal. f_equal. rewrite Ev, map_map. f_equal. apply map_ext. intros c. rewrite V. reflexivity.
Qed.

(** *** The shortfalls of all firms are averaged over the same scenarios, so their sum is the mean shortfall of the whole system *)
Lemma path_market s s' : mkt s = mkt s' -> forall x y p q, map snd x = map snd y -> e_mkt p = e_mkt q -> v_mkt p = v_mkt q ->
  map e_mkt (path s p x) = map e_mkt (path s' q y).
Proof.
  intros H. induction x as [|[a b] x IH]; intros [|[a' b'] y] p q Hxy He Hv; try discriminate Hxy; [reflexivity|].
  cbn [map snd] in Hxy. injection Hxy as -> E. cbn [path map]. f_equal.
  - cbn [tomorrow e_mkt]. rewrite H, He, Hv. reflexivity.
  - apply IH; auto; cbn [tomorrow e_mkt v_mkt]; rewrite H, He, Hv; reflexivity.
Qed.
Lemma market_return_market s s' x y : mkt s = mkt s' -> e_mkt (today s) = e_mkt (today s') -> v_mkt (today s) = v_mkt (today s') -> map snd x = map snd y ->
  market_return s x = market_return s' y.
Proof.
  intros H1 H2 H3 H4. unfold market_return. assert (E := path_market s s' H1 x y _ _ H4 H2 H3).
  assert (M : forall g l, map (fun p => (mu g + e_mkt p) / 100) l = map (fun v => (mu g + v) / 100) (map e_mkt l)) by (intros; rewrite map_map; reflexivity).
  rewrite !M, E, H1. reflexivity.
Qed.
Lemma gjr_fields_inj g g' : gjr_fields g = gjr_fields g' -> g = g'.
Proof. destruct g, g'. unfold gjr_fields. cbn. intros H. injection H as <- <- <- <- <-. reflexivity. Qed.
Lemma estimated_market e C m f s sc f' s' sc' : estimated e C f m s sc -> estimated e C f' m s' sc' ->
  length sc = length (e_draws XRA e (length m)) /\ length sc = length sc' /\
  forall j, market_return s (nth j sc []) = market_return s' (nth j sc' []).
Proof.
  intros (gi & gm & li & lm & xi & xm & si & sm & a & b & ll & rho & EC & HL & Hf & Hm & Vi & Vm & Ri & Rm & Gi & Gm & Si & Sm & Pi & Pm & J1 & J2 & J3 & J4 & Ha & Hb & Hab & Ni & Nm & HT & HD & ER & -> & ->).
  intros (gi' & gm' & li' & lm' & xi' & xm' & si' & sm' & a' & b' & ll' & rho' & EC' & HL' & Hf' & Hm' & Vi' & Vm' & Ri' & Rm' & Gi' & Gm' & Si' & Sm' & Pi' & Pm' & J1' & J2' & J3' & J4' & Ha' & Hb' & Hab' & Ni' & Nm' & HT' & HD' & ER' & -> & ->).
  assert (gm' = gm). { destruct Rm as (_ & X & _), Rm' as (_ & X' & _). rewrite X in X'. apply gjr_fields_inj. symmetry. exact X'. } subst gm'.
  assert (xm' = xm).
  { destruct Rm as (_ & _ & _ & pts & X & _), Rm' as (_ & _ & _ & pts' & X' & _). rewrite X in X'. rewrite !map_app in X'. cbn [map] in X'. apply app_inj_tail in X'. destruct X' as [_ X']. symmetry. apply fin_inj. exact X'. } subst xm'.
  rewrite (variances_unique _ _ _ _ Sm' Sm) in *. clear Sm' Pm'.
  assert (LF : length (log_returns f) = length m) by (unfold log_returns; rewrite map_length; auto).
  assert (LF' : length (log_returns f') = length m) by (unfold log_returns; rewrite map_length; auto).
  unfold resample. rewrite LF, LF', !map_length. split; [reflexivity|]. split; [reflexivity|]. intros j.
  apply market_return_market; try reflexivity.
  destruct (Nat.lt_ge_cases j (length (e_draws XRA e (length m)))) as [Hj|Hj].
  - set (g := fun xi zm => map (fun k : nat => (nth k xi 0, nth k zm 0))).
    assert (N : forall xi zm : list R, nth j (map (g xi zm) (e_draws XRA e (length m))) [] = g xi zm (nth j (e_draws XRA e (length m)) [])).
    { intros. change (@nil (R * R)) with (g xi0 zm []) at 1. apply map_nth. }
    unfold g in N. rewrite !N, !map_map. reflexivity.
  - rewrite !nth_overflow by (rewrite map_length; lia). reflexivity.
Qed.
Lemma filter_by_index {X} (f : X -> bool) (l : list X) d : filter f l = map (fun j => nth j l d) (filter (fun j => f (nth j l d)) (seq 0 (length l))).
Proof.
  induction l as [|x l IH]; [reflexivity|]. cbn [length seq]. rewrite <- seq_shift. cbn [filter nth].
  assert (F : filter (fun j => f (nth j (x :: l) d)) (map S (seq 0 (length l))) = map S (filter (fun j => f (nth j l d)) (seq 0 (length l)))).
  { generalize (seq 0 (length l)) as k. induction k as [|j k IHk]; [reflexivity|]. cbn [map filter]. change (nth (S j) (x :: l) d) with (nth j l d). rewrite IHk. destruct (f (nth j l d)); reflexivity. }
  cbn [nth] in F. destruct (f x); cbn [map nth]; rewrite F, map_map, IH; reflexivity.
Qed.
Definition system_shortfall (k : R) (firms : list firm_case) (j : nat) : R :=
  Rsum (map (fun c => CS k (fc_D c) (fc_W c * (1 + firm_return (fc_setting c) (nth j (fc_scenarios c) [])))) firms).
(** There is one set of scenarios - the indices j of the draws at which the market falls by more than C - over which every firm's
    shortfall is averaged; the plain sum of the firms' SRISK is the mean total shortfall over that set, the aggregate SRISK is never
    below it, and equals it when no firm has a surplus. *)
Theorem C108_system : forall e C m k (firms : list firm_case), firms <> [] -> Forall (fc_ok e C m) firms ->
  exists J, NoDup J /\
    (forall c j, In c firms -> (In j J <-> (j < length (e_draws XRA e (length m)))%nat /\ market_return (fc_setting c) (nth j (fc_scenarios c) []) < C)) /\
    let mean_total := match J with [] => Rsum (map (fun c => CS k (fc_D c) (fc_W c)) firms) | _ => Rmean (map (system_shortfall k firms) J) end in
    Rsum (map (fc_shortfall k C) firms) = mean_total /\
    exists agg, srisk_call_aggregate XRA e (map (fun c => map Fin (fc_returns c)) firms) (map Fin m) (map (fun c => Fin (fc_W c)) firms) (map (fun c => Fin (fc_D c)) firms) (Fin k) = Ok (Fin agg) /\
      mean_total <= agg /\ (Forall (fun c => 0 <= fc_shortfall k C c) firms -> agg = mean_total).
Proof.
  intros e C m k firms Hne HF. destruct firms as [|c0 firms']; [tauto|]. set (firms := c0 :: firms') in *. clear Hne.
  assert (H0 : fc_ok e C m c0) by (inversion HF; auto). destruct H0 as [H0 _].
  set (ev := fun j => if Rlt_dec (market_return (fc_setting c0) (nth j (fc_scenarios c0) [])) C then true else false).
  set (J := filter ev (seq 0 (length (e_draws XRA e (length m))))).
  assert (HM : forall c, In c firms -> length (fc_scenarios c) = length (e_draws XRA e (length m)) /\ forall j, market_return (fc_setting c) (nth j (fc_scenarios c) []) = market_return (fc_setting c0) (nth j (fc_scenarios c0) [])).
  { intros c Hc. rewrite Forall_forall in HF. destruct (HF c Hc) as [Hc' _]. destruct (estimated_market _ _ _ _ _ _ _ _ _ Hc' H0) as (L & _ & E). split; auto. }
  assert (HS : forall c, In c firms -> systemic (fc_setting c) C (fc_scenarios c) = map (fun j => nth j (fc_scenarios c) []) J).
  { intros c Hc. destruct (HM c Hc) as [L E]. unfold systemic. rewrite (filter_by_index _ _ []). rewrite L. f_equal. unfold J. apply filter_ext. intros j. unfold ev. rewrite E. reflexivity. }
  exists J. split; [apply NoDup_filter, seq_NoDup|]. split.
  { intros c j Hc. destruct (HM c Hc) as [L E]. rewrite E. unfold J. rewrite filter_In, in_seq. unfold ev. destruct (Rlt_dec _ C); split; intros [? ?]; split; auto; try lia; try discriminate; contradiction. }
  cbv zeta. set (mt := match J with [] => _ | _ => _ end).
  assert (SUM : Rsum (map (fc_shortfall k C) firms) = mt).
  { unfold mt. assert (V : forall c, In c firms -> fc_shortfall k C c = match J with [] => CS k (fc_D c) (fc_W c) | _ => Rmean (map (fun j => CS k (fc_D c) (fc_W c * (1 + firm_return (fc_setting c) (nth j (fc_scenarios c) [])))) J) end).
    { intros c Hc. unfold fc_shortfall, mean_shortfall. rewrite (HS c Hc). destruct J as [|j J']; [reflexivity|]. cbn [map]. f_equal. cbn [map]. f_equal. rewrite map_map. reflexivity. }
    rewrite (map_ext_in _ _ _ V). destruct J as [|j J']; [reflexivity|]. set (JJ := j :: J'). unfold Rmean. rewrite map_length. unfold system_shortfall.
    clearbody firms. clear. induction firms as [|c l IH]; [cbn [map]; unfold Rsum at 1; cbn [fold_right]|].
    - rewrite (Rsum_map_ext _ (fun _ => 0)) by reflexivity. rewrite Rsum_const. unfold Rdiv. ring.
    - cbn [map]. rewrite Rsum_cons, IH. rewrite (Rsum_map_ext (fun j0 => Rsum (_ :: _)) (fun j0 => CS k (fc_D c) (fc_W c * (1 + firm_return (fc_setting c) (nth j0 (fc_scenarios c) []))) + Rsum (map (fun c => CS k (fc_D c) (fc_W c * (1 + firm_return (fc_setting c) (nth j0 (fc_scenarios c) [])))) l))) by (intros; apply Rsum_cons).
      rewrite Rsum_plus. rewrite map_length. unfold Rdiv. ring. }
  split; [exact SUM|]. destruct (C108_many_firms e C m k firms HF) as [_ E]. eexists. split; [exact E|]. rewrite <- SUM. split.
  - apply Rsum_le. intros c _. apply Rmax_l.
  - intros HP. rewrite Forall_forall in HP. apply Rsum_map_ext. intros c Hc. apply Rmax_left. apply HP; auto.
Qed.

(** *** A concrete firm: the run of C21_end_to_end_case, priced with W = 10, D = 100 and k = 8% *)
Definition case_env : lrmes_env XRA :=
  {| e_cpp1 := true; e_cpp2 := true; e_firm_solver := fun _ _ _ => case_run; e_market_solver := fun _ _ _ => case_run; e_joint_solver := fun _ _ _ => case_joint;
     e_draws := fun _ => [[0; 1]; [2; 3]; [1; 1]]%nat; e_C := Fin (-1/100); e_mem1 := []; e_mem2 := []; e_mem3 := []; e_mem4 := [] |}.
Lemma case_estimated : exists s sc, estimated case_env (-1/100) (case_raw case_firm) (case_raw case_market) s sc.
Proof.
  destruct case_variances as [V1 V2]. destruct pm1_case as [Q1 Q2]. destruct case_target as (HT & N1 & N2).
  assert (R1 : finite_run case_run case_est 3 case_x) by (repeat split; exists []; split; [reflexivity|repeat constructor]).
  assert (PS : positive case_si) by (unfold case_si; repeat (constructor; [lra|]); constructor). assert (PM : positive case_sm) by (unfold case_sm; repeat (constructor; [lra|]); constructor).
  assert (GG : good_gjr case_est) by (unfold good_gjr, case_est; cbn; lra).
  destruct (C15_conditional_correlations_in_range true (1/10) (1/2) (residuals case_est case_firm) (residuals case_est case_market) case_si case_sm) as (rho & EC & _); try reflexivity; auto; try lra.
  do 2 eexists. unfold estimated. cbv zeta. rewrite !log_case_raw.
  exists case_est, case_est, 3, 3, case_x, case_x, case_si, case_sm, (1/10), (1/2), 5, rho. cbn [case_env e_C e_cpp1 e_firm_solver e_market_solver e_joint_solver e_draws case_joint o_success o_x o_fun o_evals].
  split; [reflexivity|]. split; [reflexivity|]. split; [apply case_raw_above|]. split; [apply case_raw_above|]. rewrite (pm1_var _ Q1), (pm1_var _ Q2).
  split; [lra|]. split; [lra|]. split; [exact R1|]. split; [exact R1|]. do 6 (split; [assumption|]). do 3 (split; [reflexivity|]). split; [repeat constructor|].
  do 3 (split; [lra|]). do 3 (split; [assumption|]). split.
  - intros d k Hd Hk. change (length case_firm) with 4%nat. destruct Hd as [<-|[<-|[<-|[]]]]; cbn in Hk; lia.
  - split; [exact EC|]. split; reflexivity.
Qed.
Example C108_case : exists s sc t, srisk_call_one XRA case_env (map Fin (case_raw case_firm)) (map Fin (case_raw case_market)) (PyFloat XRA (Fin 10)) (PyFloat XRA (Fin 100)) (Fin (8/100)) false =
  Ok (t, Fin (mean_shortfall (8/100) 100 10 (-1/100) s sc)).
Proof.
  destruct case_estimated as (s & sc & H). exists s, sc. apply C108_srisk_is_the_mean_shortfall; auto; lra.
Qed.
Example C108_system_case : exists firms, length firms = 2%nat /\ Forall (fc_ok case_env (-1/100) (case_raw case_market)) firms.
Proof.
  destruct case_estimated as (s & sc & H).
  exists [Build_firm_case (case_raw case_firm) 10 100 s sc; Build_firm_case (case_raw case_firm) 3 1 s sc]. split; [reflexivity|].
  repeat constructor; cbn [fc_returns fc_setting fc_scenarios fc_W]; auto; lra.
Qed.
Example C109_case : exists o r, lrmes_init XRA (map Fin (case_raw case_firm)) (map Fin (case_raw case_market)) [] [] [] [] = Ok o /\ runs XRA (fun _ _ => case_run) /\
  estimate_setup XRA true (fun _ _ => case_run) (fun _ _ => case_run) (fun _ => case_joint) (fun _ => [[0; 1]; [2; 3]; [1; 1]])%nat o = Ok r.
Proof.
  destruct C21_end_to_end_case as (o & o1 & v & E1 & _ & _ & E4). exists o. unfold estimate in E4.
  destruct (estimate_setup XRA true _ _ _ _ o) as [r|] eqn:E; cbn [bind] in E4; [|discriminate]. exists r. split; [exact E1|]. split; [|reflexivity].
  intros x b. split; [reflexivity|discriminate].
Qed.

(** ** C24: the expansion printed in the documentation has the wrong sign *)
(** srisk.rst eq:final_srisk, first line: k D + (1-k) W (1 - LRMES). The code computes the second line, k D - (1-k) W (1 - LRMES). *)
Theorem C24_documented_expansion_refuted : forall W D k l v, srisk_of W D k l v -> k < 1 -> 0 < W -> l < 1 ->
  v < k * D + (1 - k) * W * (1 - l) /\ v = W * (k * ((D + W) / W) + (1 - k) * l - 1).
Proof.
  intros W D k l v H Hk HW Hl. apply srisk_of_shortfall in H as [H0 ->]. unfold shortfall.
  assert (0 < (1 - k) * W * (1 - l)) by (apply Rmult_lt_0_compat; [apply Rmult_lt_0_compat|]; lra). split; [lra|]. field. auto.
Qed.

(** ** C110: SRISK's documented inputs are log returns; the LRMES it calls converts them again *)
(** the log returns of a series of simple returns *)
Definition as_logs (r : list R) : list R := map (fun x => ln (1 + x)) r.
(** Given log returns (of simple returns above 1/e - 1 = -63%), the models are estimated on 100 ln(1 + ln(1 + r)) ... *)
Theorem C110_log_returns_are_converted_again : forall f m g1 g2 g3 g4, length f = length m ->
  Forall (fun r => exp (-1) - 1 < r) f -> Forall (fun r => exp (-1) - 1 < r) m ->
  exists o, lrmes_init XRA (map Fin (as_logs f)) (map Fin (as_logs m)) g1 g2 g3 g4 = Ok o /\
    st_returns XRA (fst (d_models XRA o)) = map Fin (map (fun r => 100 * ln (1 + ln (1 + r))) f) /\
    st_returns XRA (snd (d_models XRA o)) = map Fin (map (fun r => 100 * ln (1 + ln (1 + r))) m).
Proof.
  intros f m g1 g2 g3 g4 HL Hf Hm.
  assert (LG : forall l, Forall (fun r => exp (-1) - 1 < r) l -> Forall (fun x => -1 < x) (as_logs l)).
  { intros l H. apply Forall_forall. intros x Hx. apply in_map_iff in Hx. destruct Hx as (r & <- & Hr). rewrite Forall_forall in H. specialize (H r Hr).
    rewrite <- (ln_exp (-1)). apply ln_increasing; [apply exp_pos|lra]. }
  destruct (C77_series_must_match XRA (map Fin (as_logs f)) (map Fin (as_logs m)) g1 g2 g3 g4) as [_ H]. destruct H as (o & E & _ & E1 & E2).
  { unfold as_logs. rewrite !map_length. exact HL. }
  exists o. split; [exact E|]. rewrite E1, E2. rewrite !C77_log_percent by auto. unfold as_logs. rewrite !map_map. split; reflexivity.
Qed.
(** ... which understates every return but 0: the documented series 100 ln(1 + r) is reached only by simple returns *)
Theorem C110_documented_log_returns_refuted : forall r, exp (-1) - 1 < r -> r <> 0 -> 100 * ln (1 + ln (1 + r)) < 100 * ln (1 + r).
Proof.
  intros r H Hr. assert (0 < exp (-1)) by apply exp_pos.
  assert (HL : -1 < ln (1 + r)) by (rewrite <- (ln_exp (-1)); apply ln_increasing; lra).
  assert (HX : ln (1 + r) < r).
  { rewrite <- (ln_exp r) at 2. apply ln_increasing; [lra|]. assert (E := exp_ineq1 r Hr). lra. }
  assert (ln (1 + ln (1 + r)) < ln (1 + r)) by (apply ln_increasing; lra). lra.
Qed.
(** ... and a daily loss of more than 63% turns into NaN *)
Theorem C110_large_loss_becomes_nan : forall f m g1 g2 g3 g4 r, length f = length m -> In r f -> -1 < r < exp (-1) - 1 ->
  exists o, lrmes_init XRA (map Fin (as_logs f)) (map Fin (as_logs m)) g1 g2 g3 g4 = Ok o /\ In NaN (st_returns XRA (fst (d_models XRA o))).
Proof.
  intros f m g1 g2 g3 g4 r HL Hr H.
  destruct (C77_series_must_match XRA (map Fin (as_logs f)) (map Fin (as_logs m)) g1 g2 g3 g4) as [_ HI]. destruct HI as (o & E & _ & E1 & _).
  { unfold as_logs. rewrite !map_length. exact HL. }
  exists o. split; [exact E|]. rewrite E1. unfold log_percent, as_logs. rewrite !map_map. apply in_map_iff. exists r. split; [|exact Hr].
  cbn [nmul nlog nadd ofZ XRA xadd].
  assert (ln (1 + r) < -1) by (rewrite <- (ln_exp (-1)); apply ln_increasing; lra).
  unfold xlog. destruct (total_order_T (1 + ln (1 + r)) 0) as [[h|h]|h]; [reflexivity|lra|lra].
Qed.
(** a 5% gain, a 10% loss: both understated *)
Example C110_case : exp (-1) - 1 < 5/100 /\ 5/100 <> 0 /\ exp (-1) - 1 < -10/100 /\ -1 < -9/10 < exp (-1) - 1.
Proof.
  assert (E1 : exp (-1) < 1/2).
  { assert (H : 2 < exp 1) by (assert (E := exp_ineq1 1 ltac:(lra)); lra). replace (-1) with (- (1)) by lra. rewrite exp_Ropp. apply (Rmult_lt_reg_l (exp 1)); [apply exp_pos|]. rewrite Rinv_r by (apply Rgt_not_eq, exp_pos). lra. }
  assert (E2 : 1/10 < exp (-1)).
  { replace (-1) with (- (1)) by lra. rewrite exp_Ropp. apply (Rmult_lt_reg_l (exp 1)); [apply exp_pos|]. rewrite Rinv_r by (apply Rgt_not_eq, exp_pos). assert (H := exp_le_3). lra. }
  lra.
Qed.
