(** * C21 end to end, C77: the estimate method *)
From Coq Require Import Reals Lra Lia ZArith List Bool.
From Verif Require Import Arith XR RealAux Model_garch Spec_garch Proofs_garch3 Proofs_garch5 Model_ar Props_ar Model_mgarch Props_mgarch Props_mgarch2 Model_lrmes Props_lrmes.
Import ListNotations.
Local Open Scope R_scope.

(** ** Re-fitting a GARCH/GJR model with the same deterministic solver changes nothing *)
Lemma objective_ext (A : Arith) k (s s' : state A) x : st_returns A s = st_returns A s' -> st_zero_mean A s = st_zero_mean A s' ->
  st_backcast A s = st_backcast A s' -> st_bounds A s = st_bounds A s' -> objective A k s x = objective A k s' x.
Proof. intros H1 H2 H3 H4. unfold objective. rewrite H1, H2, H3, H4. reflexivity. Qed.
Lemma run_evals_ext (A : Arith) k (s s' : state A) pts : st_returns A s = st_returns A s' -> st_zero_mean A s = st_zero_mean A s' ->
  st_backcast A s = st_backcast A s' -> st_bounds A s = st_bounds A s' -> forall s2, run_evals A k s pts s2 = run_evals A k s' pts s2.
Proof.
  intros H1 H2 H3 H4. induction pts as [|x pts IH]; intros s2; [reflexivity|]. cbn [run_evals]. rewrite (objective_ext A k s s') by auto.
  destruct (objective A k s' x); cbn [bind]; auto.
Qed.
Lemma run_evals_again (A : Arith) k (s : state A) pts s2 r : run_evals A k s pts s2 = Ok r -> run_evals A k s pts r = Ok r.
Proof. destruct pts as [|x pts]; cbn [run_evals]; [reflexivity|auto]. Qed.
Lemma preparation_again (A : Arith) k (s s' t : state A) sv : preparation A k s = Ok (sv, t) ->
  st_returns A s' = st_returns A s -> st_zero_mean A s' = st_zero_mean A s -> st_backcast A s' = st_backcast A t -> st_bounds A s' = st_bounds A t ->
  preparation A k s' = Ok (sv, s').
Proof.
  intros H H1 H2 H3 H4. unfold preparation in *. rewrite H1, H2.
  destruct (variance_bounds A _) as [vb|]; cbn [bind] in *; [|discriminate].
  destruct (starting_values A k _ _ _ _) as [vp|]; cbn [bind] in *; [|discriminate]. injection H as H <-. rewrite H.
  cbn [st_backcast st_bounds] in H3, H4. rewrite <- H3, <- H4, <- H1, <- H2. destruct s'; reflexivity.
Qed.
Lemma refit_same (A : Arith) k m (st st1 : state A) r : fit A k m st = Ok (r, st1) -> exists r', fit A k m st1 = Ok (r', st1).
Proof.
  intros H. destruct (fit_inv A _ _ _ _ _ H) as [(-> & S & -> & ->)|(HC & sv & p1 & s & HP & HR)]; [eauto|].
  cbv zeta in HR. destruct HR as (HE & _ & ES & ER & EZ & EB & EV & HO).
  destruct (prep_inv A _ _ _ _ HP) as (e1 & e2 & e3 & e4 & e5 & e6 & e7).
  assert (HP1 := preparation_again A k st st1 p1 sv HP ER EZ EB EV).
  assert (HE1 : run_evals A k st1 (o_evals A (m sv (fit_bounds A k (st_zero_mean A st)))) (st_sigma2 A st1) = Ok (st_sigma2 A st1)).
  { rewrite ES. rewrite (run_evals_ext A k st1 p1) by congruence. eapply run_evals_again; eauto. }
  assert (HD : (k = KGarch /\ st_success A st1 = true) \/ ~ (k = KGarch /\ st_success A st1 = true)).
  { destruct k, (st_success A st1); auto; right; intros [? ?]; discriminate. }
  destruct HD as [[-> HS]|HD]; [exists None; unfold fit; rewrite HS; reflexivity|].
  rewrite (fit_unfold _ _ _ _ HD), HP1. cbn [bind fst snd]. rewrite EZ, HE1. cbn [bind].
  destruct (o_success A (m sv (fit_bounds A k (st_zero_mean A st)))).
  - destruct HO as (M & O1 & O2). rewrite M. cbn [bind]. eexists. f_equal. f_equal. rewrite <- ER in O2. rewrite <- O2.
    destruct st1; cbn in *; subst; reflexivity.
  - eexists. f_equal. f_equal. destruct st1; cbn in *; subst; reflexivity.
Qed.
Lemma settled_same (A : Arith) k m st : settled A k m st -> exists r, fit A k m st = Ok (r, st).
Proof. intros (prev & r & H). eapply refit_same; eauto. Qed.
(** Fitting twice with the same deterministic solver leaves the object as after the first fit (any arithmetic). *)
Theorem C09_refit_is_idempotent : forall (A : Arith) k m (st st1 : state A) r, fit A k m st = Ok (r, st1) ->
  exists r', fit A k m st1 = Ok (r', st1).
Proof. exact refit_same. Qed.

Lemma dcc_fit_settled (A : Arith) k cpp m1 m2 mini o o1 : d_success A o = false -> dcc_fit A k cpp m1 m2 mini o = Ok o1 ->
  settled A k m1 (fst (d_models A o1)) /\ settled A k m2 (snd (d_models A o1)).
Proof.
  intros Hs H. unfold dcc_fit in H. rewrite Hs in H.
  destruct (fit A k m1 (fst (d_models A o))) as [[q1 t1]|] eqn:F1; cbn [bind] in H; [|discriminate].
  destruct (fit A k m2 (snd (d_models A o))) as [[q2 t2]|] eqn:F2; cbn [bind] in H; [|discriminate]. cbn [snd] in H.
  destruct (dcc_starting_values A k cpp m1 m2 (t1, t2)) as [[ab ms]|] eqn:SV; cbn [bind] in H; [|discriminate]. cbn [fst snd] in H.
  assert (S1 : settled A k m1 t1) by (exists (fst (d_models A o)), q1; auto).
  assert (S2 : settled A k m2 t2) by (exists (snd (d_models A o)), q2; auto).
  assert (K1 := search_keeps A k cpp m1 m2 _ _ (t1, t2) _ _ _ S1 S2 SV).
  destruct (dcc_evals A k cpp m1 m2 _ ms) as [ms'|] eqn:EV; cbn [bind] in H; [|discriminate].
  destruct K1 as (K1 & K2 & _).
  destruct (evals_keep A k cpp m1 m2 _ ms ms' K1 K2 EV) as (Q1 & Q2 & _).
  destruct (o_success A (mini [fst ab; snd ab])).
  - destruct (o_x A (mini [fst ab; snd ab])) as [|a [|b [|c x]]]; try discriminate. injection H as <-. auto.
  - injection H as <-. auto.
Qed.
(** The correlations of a settled pair of models do not change the models. *)
Lemma cond_corr_settled (A : Arith) k cpp m1 m2 ms a b : settled A k m1 (fst ms) -> settled A k m2 (snd ms) ->
  conditional_correlations A k cpp m1 m2 ms a b =
  bind (cond_corr A cpp a b (st_resids A (fst ms)) (st_resids A (snd ms)) (st_sigma2 A (fst ms)) (st_sigma2 A (snd ms))) (fun rho => Ok (rho, ms)).
Proof.
  intros S1 S2. destruct (settled_same A k m1 _ S1) as (r1 & F1). destruct (settled_same A k m2 _ S2) as (r2 & F2).
  unfold conditional_correlations. rewrite F1, F2. cbn [bind snd]. destruct ms; reflexivity.
Qed.

(** ** C77: repeated estimates *)
(** After a first estimate, the object is unchanged by further ones, and any further estimate (same or different C, h,
    S, seed) returns exactly what it would have returned on the fresh object; for any arithmetic, bit for bit. *)
Theorem C77_estimates_do_not_influence_each_other : forall (A : Arith) cpp1 cpp2 m1 m2 mini draws C o v o2,
  d_success A o = false -> estimate A cpp1 cpp2 m1 m2 mini draws C o = Ok (v, o2) ->
  dcc_fit A KGjr cpp1 m1 m2 mini o = Ok o2 /\
  forall draws' C', estimate A cpp1 cpp2 m1 m2 mini draws' C' o2 = estimate A cpp1 cpp2 m1 m2 mini draws' C' o.
Proof.
  intros A cpp1 cpp2 m1 m2 mini draws C o v o2 Hs H. unfold estimate, estimate_setup in H.
  destruct (dcc_fit A KGjr cpp1 m1 m2 mini o) as [o1|] eqn:EF; cbn [bind] in H; [|discriminate].
  destruct (d_success A o1) eqn:ES; [|discriminate]. cbn zeta in H.
  destruct (dcc_fit_settled A _ _ _ _ _ _ _ Hs EF) as [S1 S2].
  assert (E : o2 = o1).
  { rewrite cond_corr_settled in H by auto. destruct (cond_corr A cpp1 _ _ _ _ _ _) as [rho|]; cbn [bind] in H; [|discriminate].
    cbn [fst snd] in H. destruct (map2 _ _ rho) as [|x l]; [discriminate|]. cbn [bind fst snd] in H. injection H as _ <-. rewrite <- ES. destruct o1; reflexivity. }
  subst o2. split; [reflexivity|]. intros draws' C'. unfold estimate, estimate_setup. rewrite EF.
  assert (E1 : dcc_fit A KGjr cpp1 m1 m2 mini o1 = Ok o1) by (unfold dcc_fit; rewrite ES; reflexivity). rewrite E1. reflexivity.
Qed.
Corollary C77_repeating_an_estimate : forall (A : Arith) cpp1 cpp2 m1 m2 mini draws C o v o2,
  d_success A o = false -> estimate A cpp1 cpp2 m1 m2 mini draws C o = Ok (v, o2) -> estimate A cpp1 cpp2 m1 m2 mini draws C o2 = Ok (v, o2).
Proof.
  intros A cpp1 cpp2 m1 m2 mini draws C o v o2 Hs H. destruct (C77_estimates_do_not_influence_each_other A _ _ _ _ _ _ _ _ _ _ Hs H) as [_ E]. rewrite E. exact H.
Qed.
(** An unsuccessful DCC estimation raises RuntimeError; the constructor insists on equally long series. *)
Theorem C77_failed_estimation_raises : forall (A : Arith) cpp1 cpp2 m1 m2 mini draws C o o1,
  dcc_fit A KGjr cpp1 m1 m2 mini o = Ok o1 -> d_success A o1 = false -> estimate A cpp1 cpp2 m1 m2 mini draws C o = Err RuntimeError.
Proof. intros A cpp1 cpp2 m1 m2 mini draws C o o1 H1 H2. unfold estimate, estimate_setup. rewrite H1. cbn [bind]. rewrite H2. reflexivity. Qed.
Theorem C77_series_must_match : forall (A : Arith) f m g1 g2 g3 g4,
  (length f <> length m -> lrmes_init A f m g1 g2 g3 g4 = Err AssertionError) /\
  (length f = length m -> exists o, lrmes_init A f m g1 g2 g3 g4 = Ok o /\ d_success A o = false /\
     st_returns A (fst (d_models A o)) = log_percent A f /\ st_returns A (snd (d_models A o)) = log_percent A m).
Proof.
  intros A f m g1 g2 g3 g4. split; intros H; unfold lrmes_init.
  - apply Nat.eqb_neq in H. rewrite H. reflexivity.
  - apply Nat.eqb_eq in H. rewrite H. eexists. split; [reflexivity|]. repeat split; reflexivity.
Qed.
(** the series handed to the GARCH models are 100 ln(1 + raw return) *)
Theorem C77_log_percent : forall raw, Forall (fun x => -1 < x) raw -> log_percent XRA (map Fin raw) = map Fin (map (fun x => 100 * ln (1 + x)) raw).
Proof.
  intros raw H. unfold log_percent. rewrite !map_map. apply map_ext_in. intros x Hx. rewrite Forall_forall in H. specialize (H x Hx).
  cbn [nmul nlog nadd ofZ XRA xadd]. rewrite xlog_fin by lra. cbn [xmul]. f_equal. ring.
Qed.

(** ** C21 for the method [estimate] itself *)
Lemma nth_fin_in (l : list R) k d : (k < length l)%nat -> nth k (map Fin l) d = Fin (nth k l 0).
Proof. intros H. rewrite (nth_indep _ d (Fin 0)) by (rewrite map_length; auto). apply map_nth. Qed.
Lemma last_fin (l : list R) d : l <> [] -> last (map Fin l) d = Fin (last l 0).
Proof. intros H. destruct (exists_last H) as (l' & x & ->). rewrite map_app. cbn [map]. rewrite !last_last. reflexivity. Qed.
Lemma last_In (l : list R) d : l <> [] -> In (last l d) l.
Proof. intros H. destruct (exists_last H) as (l' & x & ->). rewrite last_last. apply in_or_app. right. left. reflexivity. Qed.
(** firm shocks orthogonal to the market shocks *)
Definition orth (zi zm rho : list R) : list R := map2 (fun z r => (fst z - r * snd z) / sqrt (1 - r ^ 2)) (combine zi zm) rho.
Definition resample (xi zm : list R) (draws : list (list nat)) : list (list (R * R)) := map (map (fun k => (nth k xi 0, nth k zm 0))) draws.
Definition gjr_fields (g : gjr) : list xr := [Fin (mu g); Fin (omega g); Fin (alpha g); Fin (gamma g); Fin (beta g)].
Definition forecast_setting (gi gm : gjr) (a b : R) (ri si rm sm rho : list R) : setting :=
  {| firm := gi; mkt := gm; dcc_a := a; dcc_b := b; Qbar := (1, pearson (zscores ri si) (zscores rm sm), 1);
     today := {| e_firm := last ri 0; e_mkt := last rm 0; v_firm := last si 0; v_mkt := last sm 0; Qmat := (1, last rho 0, 1) |} |}.
Lemma estimate_value : forall cpp1 m1 m2 mini draws o o1 ri si rm sm gi gm a b,
  d_success XRA o = false -> dcc_fit XRA KGjr cpp1 m1 m2 mini o = Ok o1 -> d_success XRA o1 = true ->
  d_a XRA o1 = Fin a -> d_b XRA o1 = Fin b -> 0 <= a -> 0 <= b -> a + b < 1 ->
  st_resids XRA (fst (d_models XRA o1)) = map Fin ri -> st_sigma2 XRA (fst (d_models XRA o1)) = map Fin si ->
  st_resids XRA (snd (d_models XRA o1)) = map Fin rm -> st_sigma2 XRA (snd (d_models XRA o1)) = map Fin sm ->
  p_fields XRA (st_params XRA (fst (d_models XRA o1))) = gjr_fields gi -> p_fields XRA (st_params XRA (snd (d_models XRA o1))) = gjr_fields gm ->
  good_gjr gi -> good_gjr gm ->
  length ri = length si -> length rm = length sm -> length ri = length rm -> positive si -> positive sm ->
  let zi := zscores ri si in let zm := zscores rm sm in
  non_constant zi -> non_constant zm -> -1 < target_correlation cpp1 zi zm < 1 ->
  (forall d k, In d (draws (length ri)) -> In k d -> (k < length ri)%nat) ->
  exists rho, cond_corr XRA cpp1 (Fin a) (Fin b) (map Fin ri) (map Fin rm) (map Fin si) (map Fin sm) = Ok (map Fin rho) /\
    let s := forecast_setting gi gm a b ri si rm sm rho in
    good_setting s /\
    estimate_setup XRA cpp1 m1 m2 mini draws o = Ok ((inputs s, map fin_shocks (resample (orth zi zm rho) zm (draws (length ri)))), o1).
Proof.
  intros cpp1 m1 m2 mini draws o o1 ri si rm sm gi gm a b Hs HF HS Ea Eb Ha Hb Hab R1 V1 R2 V2 P1 P2 G1 G2 L1 L2 L12 HP1 HP2 zi zm N1 N2 HT HD.
  assert (Hne : ~ (a = 1 /\ b = 0)) by lra.
  destruct (C15_conditional_correlations_in_range cpp1 a b ri rm si sm L1 L2 L12 HP1 HP2 Ha Hb ltac:(lra) Hne N1 N2) as (rho & EC & LR & _ & HR).
  specialize (HR Hab HT). exists rho. split; [exact EC|]. cbv zeta. set (s := forecast_setting gi gm a b ri si rm sm rho).
  assert (LZ : length zi = length ri) by (apply zscores_length; auto). assert (LM : length zm = length ri) by (unfold zm; rewrite zscores_length by auto; auto).
  assert (NE : ri <> []) by (intros E0; apply non_constant_length in N1; rewrite E0 in LZ; cbn [length] in LZ; lia).
  assert (NR : rho <> []) by (intros ->; destruct ri; [tauto|discriminate]).
  assert (NS : si <> []) by (intros ->; destruct ri; [tauto|discriminate]).
  assert (NM : sm <> []) by (intros ->; destruct rm, ri; try tauto; discriminate).
  assert (NRM : rm <> []) by (intros ->; destruct ri; [tauto|discriminate]).
  assert (HG : good_setting s).
  { unfold good_setting, s, forecast_setting. cbn [firm mkt dcc_a dcc_b Qbar today Qmat v_firm v_mkt]. repeat (split; [assumption || (unfold admissible; lra)|]).
    split; [exists (pearson zi zm); split; [apply pearson_range; auto; lia|reflexivity]|].
    split; [exists (last rho 0); split; [|reflexivity]|].
    - rewrite Forall_forall in HR. assert (H := HR _ (last_In rho 0 NR)). lra.
    - unfold positive in *. rewrite Forall_forall in HP1, HP2. split; [apply HP1|apply HP2]; apply last_In; auto. }
  split; [exact HG|].
  destruct (dcc_fit_settled XRA _ _ _ _ _ _ _ Hs HF) as [S1 S2].
  assert (XI : map2 (fun z rho => orthogonal XRA (fst z) (snd z) rho) (combine (map Fin zi) (map Fin zm)) (map Fin rho) = map Fin (orth zi zm rho)).
  { rewrite combine_fin. unfold orth. rewrite map2_map, map_map2. cbn [fst snd]. apply map2_ext_in. intros z r Hin. cbn [fst snd].
    assert (Hr : -1 < r < 1). { rewrite Forall_forall in HR. apply HR. apply in_combine_r in Hin. exact Hin. }
    unfold orthogonal. cbn [nsub nmul ndiv nsqrt nsq ofZ XRA xmul xsub xadd xopp xsq].
    assert (0 < 1 - r * r) by nra. rewrite xsqrt_fin by lra. replace (1 - r ^ 2) with (1 - r * r) by ring. apply xdiv_fin. apply Rgt_not_eq, sqrt_lt_R0. auto. }
  assert (LO : length (orth zi zm rho) = length ri).
  { unfold orth. rewrite map2_length, combine_length. lia. }
  unfold estimate_setup. rewrite HF. cbn [bind]. rewrite HS. rewrite cond_corr_settled by auto. rewrite Ea, Eb.
  change (num XRA) with xr in *. rewrite R1, R2, V1, V2, EC. cbn [bind fst snd]. rewrite R1, R2, V1, V2, P1, P2.
  rewrite !standardize_fin by auto. fold zi. fold zm. change (num XRA) with xr in *. rewrite XI.
  destruct (orth zi zm rho) as [|x0 l0] eqn:EO; [cbn in LO; destruct ri; [tauto|discriminate]|]. rewrite <- EO in *.
  assert (MX : map Fin (orth zi zm rho) = Fin x0 :: map Fin l0) by (rewrite EO; reflexivity).
  rewrite map_length, LO. rewrite <- HS. 
  assert (ES : {| d_models := d_models XRA o1; d_success := d_success XRA o1; d_marginals := d_marginals XRA o1; d_a := d_a XRA o1; d_b := d_b XRA o1; d_ll := d_ll XRA o1 |} = o1) by (destruct o1; reflexivity).
  rewrite Ea, Eb in ES.
  destruct (corr_entry_fin zi zm ltac:(lia) N1 N2) as (C00 & _ & C10 & C11). change (num XRA) with xr in *. rewrite C00, C10, C11.
  rewrite !last_fin by auto. rewrite ES.
  assert (BS : bootstrap XRA (map Fin (orth zi zm rho)) (map Fin zm) (draws (length ri)) = map fin_shocks (resample (orth zi zm rho) zm (draws (length ri)))).
  { unfold bootstrap, resample. rewrite map_map. apply map_ext_in. intros d Hd. unfold fin_shocks. rewrite map_map. apply map_ext_in. intros k Hk. cbn [fst snd].
    specialize (HD d k Hd Hk). rewrite !nth_fin_in by lia. reflexivity. }
  change (num XRA) with xr in *. rewrite BS. rewrite MX. reflexivity.
Qed.
Theorem C21_estimate : forall cpp1 cpp2 m1 m2 mini draws C o o1 ri si rm sm gi gm a b,
  d_success XRA o = false -> dcc_fit XRA KGjr cpp1 m1 m2 mini o = Ok o1 -> d_success XRA o1 = true ->
  d_a XRA o1 = Fin a -> d_b XRA o1 = Fin b -> 0 <= a -> 0 <= b -> a + b < 1 ->
  st_resids XRA (fst (d_models XRA o1)) = map Fin ri -> st_sigma2 XRA (fst (d_models XRA o1)) = map Fin si ->
  st_resids XRA (snd (d_models XRA o1)) = map Fin rm -> st_sigma2 XRA (snd (d_models XRA o1)) = map Fin sm ->
  p_fields XRA (st_params XRA (fst (d_models XRA o1))) = gjr_fields gi -> p_fields XRA (st_params XRA (snd (d_models XRA o1))) = gjr_fields gm ->
  good_gjr gi -> good_gjr gm ->
  length ri = length si -> length rm = length sm -> length ri = length rm -> positive si -> positive sm ->
  let zi := zscores ri si in let zm := zscores rm sm in
  non_constant zi -> non_constant zm -> -1 < target_correlation cpp1 zi zm < 1 ->
  (forall d k, In d (draws (length ri)) -> In k d -> (k < length ri)%nat) ->
  exists rho, cond_corr XRA cpp1 (Fin a) (Fin b) (map Fin ri) (map Fin rm) (map Fin si) (map Fin sm) = Ok (map Fin rho) /\
    let s := forecast_setting gi gm a b ri si rm sm rho in
    good_setting s /\
    estimate XRA cpp1 cpp2 m1 m2 mini draws (Fin C) o =
      Ok (Fin (match systemic s C (resample (orth zi zm rho) zm (draws (length ri))) with [] => 0 | sys => - Rmean (map (firm_return s) sys) end), o1).
Proof.
  intros cpp1 cpp2 m1 m2 mini draws C o o1 ri si rm sm gi gm a b Hs HF HS Ea Eb Ha Hb Hab R1 V1 R2 V2 P1 P2 G1 G2 L1 L2 L12 HP1 HP2 zi zm N1 N2 HT HD.
  destruct (estimate_value cpp1 m1 m2 mini draws o o1 ri si rm sm gi gm a b) as (rho & EC & HG & EE); auto.
  exists rho. split; [exact EC|]. split; [exact HG|]. unfold estimate. rewrite EE. cbn [bind fst snd].
  rewrite C21_lrmes_is_the_conditional_mean by auto. reflexivity.
Qed.
