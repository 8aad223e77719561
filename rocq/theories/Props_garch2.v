(** * Theorems for properties C08-C14 *)
From Coq Require Import Reals Lra List ZArith Lia Bool Arith Permutation.
From Verif Require Import Arith XR RealAux Model_garch Spec_garch
  Proofs_garch Proofs_garch2 Proofs_garch3 Proofs_garch4 Proofs_garch5.
Import ListNotations.
Local Open Scope R_scope.

(** ** C08: starting values *)
(** What is returned, for every arithmetic: the LAST candidate of the grid whose negated
    log-likelihood compares greater than -inf (an empty list if there is none). *)
Theorem C08_returns_last_acceptable (A : Arith) k returns resids bc vb r :
  starting_values A k returns resids bc vb = Ok r ->
  exists ll : list (num A) -> num A,
    (forall c, In c (candidates A k (avar A returns)) ->
       exists s2, compute_variance A k c resids bc vb = Ok s2 /\ ll c = loglikelihood A resids s2) /\
    ((r = [] /\ forall c, In c (candidates A k (avar A returns)) -> nltb (nopp npinf) (nopp (ll c)) = false) \/
     exists before after, candidates A k (avar A returns) = before ++ r :: after /\
       nltb (nopp npinf) (nopp (ll r)) = true /\
       forall c, In c after -> nltb (nopp npinf) (nopp (ll c)) = false).
Proof.
  intros H. unfold starting_values in H.
  apply grid_search_spec in H as (sc & H1 & H2). exists sc. split.
  - intros c Hc. specialize (H1 c Hc).
    destruct (compute_variance A k c resids bc vb) as [s2|]; cbn [bind] in H1; [|discriminate].
    injection H1 as <-. eauto.
  - clear H1. subst r. generalize (candidates A k (avar A returns)). intros l.
    set (P := fun c => nltb (nopp npinf) (nopp (sc c))).
    assert (G : forall d, (last_sat P l d = d /\ forall c, In c l -> P c = false) \/
       exists before after, l = before ++ last_sat P l d :: after /\ P (last_sat P l d) = true /\
         forall c, In c after -> P c = false).
    { induction l as [|x l IH]; intros d; cbn [last_sat].
      - left; split; auto. simpl; tauto.
      - destruct (P x) eqn:E.
        + right. destruct (IH x) as [[e1 e2]|(b & a & e1 & e2 & e3)].
          * exists [], l. rewrite e1. auto.
          * exists (x :: b), a. split; [simpl; f_equal; auto|auto].
        + destruct (IH d) as [[e1 e2]|(b & a & e1 & e2 & e3)].
          * left. split; auto. intros c [<-|Hc]; auto.
          * right. exists (x :: b), a. split; [simpl; f_equal; auto|auto]. }
    exact (G []).
Qed.
(** For every return series with positive variance fit() starts from the same point, whatever the
    data: persistence 0.98, alpha = 0.2 (gamma = 0.2), omega = 0.02 var. *)
Theorem C08_start_is_constant k st returns :
  st_returns XRA st = map Fin returns -> 0 < Rvar returns ->
  exists st' , preparation XRA k st =
    Ok (map Fin (let start := match k with
                   | KGarch => [Rvar returns * (1 - 98/100); 2/10; 98/100 - 2/10]
                   | KGjr => [Rvar returns * (1 - 98/100); 2/10; 2/10; 98/100 - 2/10 - 2/10/2]
                   end in
                 if st_zero_mean XRA st then start else Rmean returns :: start), st').
Proof.
  intros H1 H2. destruct (preparation_fin k st returns H1 H2) as (st' & E & _).
  exists st'. rewrite E. destruct k; reflexivity.
Qed.
(** Constant returns (mean removed): no candidate is acceptable and the list is empty. *)
Theorem C08_constant_returns_no_start k st returns :
  st_returns XRA st = map Fin returns -> returns <> [] -> Rvar returns = 0 -> st_zero_mean XRA st = false ->
  exists st', preparation XRA k st = Ok ([Fin (Rmean returns)], st').
Proof.
  intros Hr Hn Hv Hz. unfold preparation. rewrite Hr, Hz. cbv zeta iota.
  rewrite amean_fin by auto. rewrite demean_fin.
  assert (HC : forall x, In x returns -> x = Rmean returns) by (apply Rvar_zero_iff; auto).
  assert (E0 : map Fin (map (fun r => r - Rmean returns) returns) = repeat (Fin 0) (length returns)).
  { clear - HC. generalize dependent (Rmean returns). intros m HC.
    induction returns as [|x l IH]; simpl; auto. f_equal.
    - rewrite (HC x) by (simpl; auto). f_equal; lra.
    - apply IH. intros; apply HC; simpl; auto. }
  rewrite E0. assert (HL : (0 < length returns)%nat) by (destruct returns; [tauto|simpl; lia]).
  rewrite variance_bounds_zero by auto. cbn [bind].
  assert (EB : backcast_py XRA (repeat (Fin 0) (length returns)) = Fin 0).
  { replace (repeat (Fin 0) (length returns)) with (map Fin (repeat 0 (length returns)))
      by (clear; induction (length returns); simpl; f_equal; auto).
    rewrite backcast_fin by (destruct (length returns); [lia|discriminate]). f_equal.
    assert (HR : 0 <= ew_average (Nat.min 75 (length (repeat 0 (length returns)))) (repeat 0 (length returns)) <= 0); [|lra].
    apply ew_average_range; [rewrite repeat_length; lia|]. intros i _.
    replace (nth i (repeat 0 (length returns)) 0) with 0; [simpl; lra|].
    clear. generalize (length returns). induction i; destruct n; simpl; auto. }
  rewrite EB. rewrite start_degenerate by auto. cbn [bind]. eexists. reflexivity.
Qed.
(** The same with zero_mean=true is true only of all-zero returns... *)
Theorem C08_zero_returns_no_start k st n :
  st_returns XRA st = map Fin (repeat 0 n) -> (0 < n)%nat -> st_zero_mean XRA st = true ->
  exists st', preparation XRA k st = Ok ([], st').
Proof.
  intros Hr Hn Hz. unfold preparation. rewrite Hr, Hz. cbv zeta iota.
  assert (E0 : map Fin (repeat 0 n) = repeat (Fin 0) n) by (clear; induction n; simpl; f_equal; auto).
  assert (Hne : repeat 0 n <> []) by (destruct n; [lia|discriminate]).
  assert (HV : Rvar (repeat 0 n) = 0).
  { apply Rvar_zero_iff; auto. intros x Hx. apply repeat_spec in Hx as ->.
    assert (E : 0 <= Rmean (repeat 0 n) <= 0); [|lra].
    apply Rmean_bounds; auto. intros y Hy. apply repeat_spec in Hy as ->. lra. }
  assert (EB : backcast_py XRA (repeat (Fin 0) n) = Fin 0).
  { rewrite <- E0, backcast_fin by auto. f_equal.
    assert (HR : 0 <= ew_average (Nat.min 75 (length (repeat 0 n))) (repeat 0 n) <= 0); [|lra].
    apply ew_average_range; [rewrite repeat_length; lia|]. intros i _.
    replace (nth i (repeat 0 n) 0) with 0; [simpl; lra|].
    clear. revert n. induction i; destruct n; simpl; auto. }
  pose proof (start_degenerate k n n (repeat 0 n) Hn (le_n _) Hne HV) as HS.
  rewrite E0 in HS |- *.
  rewrite variance_bounds_zero by auto. cbn [bind].
  rewrite EB. rewrite HS. cbn [bind]. eexists. reflexivity.
Qed.
(** ... constant returns other than zero start from omega = 0, below the optimizer's lower bound. *)
Theorem C08_constant_returns_zero_mean k st returns c :
  st_returns XRA st = map Fin returns -> returns <> [] -> (forall x, In x returns -> x = c) -> c <> 0 ->
  st_zero_mean XRA st = true ->
  exists st', preparation XRA k st = Ok (map Fin (match k with
    | KGarch => [0; 2/10; 98/100 - 2/10]
    | KGjr => [0; 2/10; 2/10; 98/100 - 2/10 - 2/10/2]
    end), st').
Proof.
  intros Hr Hn HC Hc Hz.
  assert (HM : Rmean returns = c).
  { assert (E : c <= Rmean returns <= c); [|lra].
    apply Rmean_bounds; auto. intros y Hy. rewrite (HC y Hy). lra. }
  assert (HV : Rvar returns = 0).
  { apply Rvar_zero_iff; auto. intros x Hx. rewrite HM; auto. }
  assert (Hx : exists x, In x returns /\ x <> 0).
  { destruct returns as [|x l]; [tauto|]. exists x. split; [simpl; auto|]. rewrite (HC x); simpl; auto. }
  assert (HL : (0 < length returns)%nat) by (destruct returns; [tauto|simpl; lia]).
  unfold preparation. rewrite Hr, Hz. cbv zeta iota.
  rewrite variance_bounds_fin by auto. cbn [bind].
  rewrite backcast_fin by auto. fold (boundsR returns).
  set (bc := ew_average _ _).
  assert (Hbc : 0 < bc).
  { assert (E : c ^ 2 <= bc <= c ^ 2).
    { apply ew_average_range; [lia|]. intros i Hi.
      rewrite (HC (nth i returns 0)); [lra|]. apply nth_In. lia. }
    pose proof (Rsqr_pos_lt c Hc) as Hs. unfold Rsqr in Hs. simpl in E. lra. }
  assert (ES : starting_values XRA k (map Fin returns) (map Fin returns) (Fin bc) (map finrow (boundsR returns))
    = Ok (map Fin (start_point k 0))).
  { unfold starting_values. rewrite avar_fin by auto. rewrite HV, cand_fin.
    destruct (candR_last k 0) as [l El]. rewrite El, map_app. cbn [map].
    apply grid_search_last.
    intros q Hq. change [map Fin (start_point k 0)] with (map (map Fin) [start_point k 0]) in Hq.
    rewrite <- map_app, <- El in Hq. apply in_map_iff in Hq as (ps & <- & Hps).
    destruct (candR_props k _ ps Hps) as (HLp & (p & Hp & E0 & _) & HP).
    assert (H0 : 0 < s0R ps bc).
    { destruct k; simpl in HLp; repeat (destruct ps as [|? ps]; try discriminate HLp); simpl in E0, HP |- *.
      - pose proof (HP 1%nat ltac:(lia)). pose proof (HP 2%nat ltac:(lia)). simpl in *.
        assert (0 < (r0 + r1) * bc) by (apply Rmult_lt_0_compat; lra). lra.
      - pose proof (HP 1%nat ltac:(lia)). pose proof (HP 2%nat ltac:(lia)). pose proof (HP 3%nat ltac:(lia)). simpl in *.
        assert (0 < (r0 + r1 / 2 + r2) * bc) by (apply Rmult_lt_0_compat; lra). lra. }
    destruct (cv_fin_pos k ps returns bc (boundsR returns) HLp Hn) as (s & E & _ & _ & ELL); auto.
    - rewrite boundsR_length; lia.
    - apply Forall_tl, boundsR_good; auto.
    - rewrite E. cbn [bind]. rewrite ELL. eexists; split; reflexivity. }
  match goal with |- context[starting_values XRA k ?a ?b ?x ?d] =>
    change (starting_values XRA k a b x d) with (starting_values XRA k (map Fin returns) (map Fin returns) (Fin bc) (map finrow (boundsR returns))) end.
  rewrite ES. cbn [bind]. eexists. apply f_equal. apply f_equal2; [|reflexivity].
  destruct k; simpl; rewrite Rmult_0_l; reflexivity.
Qed.
(** Grid facts: every candidate has a grid persistence below one and reproduces the sample variance. *)
Theorem C08_candidates_admissible k v ps : In ps (candR k v) ->
  In (map Fin ps) (candidates XRA k (Fin v)) /\
  exists p, In p [5/10; 7/10; 9/10; 98/100] /\ 
    nth 0 ps 0 / (1 - p) = v /\
    match k with
    | KGarch => nth 1 ps 0 + nth 2 ps 0 = p
    | KGjr => nth 1 ps 0 + nth 2 ps 0 / 2 + nth 3 ps 0 = p
    end /\ (forall i, (0 < i < nparams k)%nat -> 0 < nth i ps 0).
Proof.
  intros H. split; [rewrite cand_fin; apply in_map; auto|].
  destruct (candR_props k v ps H) as (_ & (p & Hp & E0 & ES) & HP). exists p. split; auto.
  split; [|split; auto]. rewrite E0. unfold pgridR in Hp. simpl in Hp. field. intuition lra.
Qed.
Theorem C08_candidates_are_grid k v c : In c (candidates XRA k (Fin v)) ->
  exists ps, c = map Fin ps /\ In ps (candR k v).
Proof. rewrite cand_fin. intros H. apply in_map_iff in H as (ps & <- & H). eauto. Qed.

(** The documented promise (highest log-likelihood) is false. *)
Theorem C08_argmax_refuted : exists returns resids bc vb r c s2r s2c llr llc,
  variance_bounds XRA (map Fin resids) = Ok vb /\ backcast_py XRA (map Fin resids) = bc /\
  starting_values XRA KGarch (map Fin returns) (map Fin resids) bc vb = Ok r /\
  In c (candidates XRA KGarch (avar XRA (map Fin returns))) /\
  compute_variance XRA KGarch r (map Fin resids) bc vb = Ok s2r /\
  compute_variance XRA KGarch c (map Fin resids) bc vb = Ok s2c /\
  loglikelihood XRA (map Fin resids) s2r = Fin llr /\
  loglikelihood XRA (map Fin resids) s2c = Fin llc /\ llr < llc.
Proof.
  set (rs := [1; 0]).
  assert (HV : Rvar rs = 1/4) by (unfold Rvar, Rmean, rs; simpl; field).
  assert (HG : Forall good_row (boundsR rs)).
  { apply boundsR_good. exists 1. simpl; split; [auto|lra]. }
  assert (Hn : rs <> []) by discriminate.
  set (bc := ew_average (Nat.min 75 (length rs)) rs).
  assert (Hbc : bc = 1 / (194/100)). { unfold bc, rs, ew_average, ew_weight. simpl. field. }
  assert (HGt : Forall good_row (tl (boundsR rs))) by (apply Forall_tl; auto).
  assert (HLb : (length rs <= length (boundsR rs))%nat) by (rewrite boundsR_length; lia).
  (* bounds do not bind in the second period *)
  assert (Hvb : nth 1 (boundsR rs) (0,0) = ((94/194 + 6/100) / 1000000, (94/194 + 6/100) * 1000000)).
  { unfold boundsR. rewrite nth_map_seq by (simpl; lia). unfold vbR. rewrite HV. fold bc.
    assert (E : nth 1 (ewmaR (94/100) bc rs) 0 = 94/194 + 6/100).
    { unfold ewmaR. simpl. rewrite Hbc. field. }
    rewrite E. rewrite Rmax_left by lra. reflexivity. }
  set (c := [1/4 * (1 - 5/10); 1/100; 5/10 - 1/100]).
  set (r := start_point KGarch (Rvar rs)).
  assert (Hcin : In c (candR KGarch (1/4))) by (unfold c, candR, agridR, pgridR; simpl; auto).
  destruct (cv_fin_pos KGarch r rs bc (boundsR rs) eq_refl Hn HLb HGt) as (sr & Er & (Lr & Hr0 & Hr1) & Fr & LLr).
  { unfold r, start_point, s0R. rewrite HV, Hbc. lra. }
  destruct (cv_fin_pos KGarch c rs bc (boundsR rs) eq_refl Hn HLb HGt) as (sc & Ec & (Lc & Hc0 & Hc1) & Fc & LLc).
  { unfold c, s0R. rewrite Hbc. lra. }
  exists rs, rs, (Fin bc), (map finrow (boundsR rs)), (map Fin r), (map Fin c), (map Fin sr), (map Fin sc).
  eexists; eexists.
  split; [apply variance_bounds_fin; auto|]. split; [apply backcast_fin; auto|].
  split. { apply starting_values_fin; auto; [rewrite HV; lra|rewrite Hbc; lra]. }
  split. { rewrite avar_fin by auto. rewrite HV, cand_fin. apply in_map; auto. }
  split; [exact Er|]. split; [exact Ec|]. split; [exact LLr|]. split; [exact LLc|].
  (* numbers *)
  assert (Hr_0 : nth 0 sr 0 = 5/1000 + 98/194).
  { rewrite Hr0. unfold r, start_point, s0R. rewrite HV, Hbc. field. }
  assert (Hc_0 : nth 0 sc 0 = 125/1000 + 50/194).
  { rewrite Hc0. unfold c, s0R. rewrite Hbc. field. }
  assert (Hr_1 : nth 1 sr 0 = 205/1000 + 78/100 * (5/1000 + 98/194)).
  { rewrite (Hr1 0%nat) by (simpl; lia). rewrite Hvb, Hr_0. unfold r, start_point, stepR, garch_update. rewrite HV.
    cbn [nth rs fst snd]. rewrite clip_log_id; lra. }
  assert (Hc_1 : nth 1 sc 0 = 135/1000 + 49/100 * (125/1000 + 50/194)).
  { rewrite (Hc1 0%nat) by (simpl; lia). rewrite Hvb, Hc_0. unfold c, stepR, garch_update.
    cbn [nth rs fst snd]. rewrite clip_log_id; lra. }
  destruct sr as [|a0 [|a1 [|]]]; try discriminate Lr. destruct sc as [|b0 [|b1 [|]]]; try discriminate Lc.
  cbn [nth] in Hr_0, Hr_1, Hc_0, Hc_1. unfold rs. cbn [map2 Rsum].
  assert (D : forall v x, 0 < v -> ln (normal_density v x) = - ln (2 * PI) / 2 - ln v / 2 - x ^ 2 / (2 * v)).
  { intros v x Hv. unfold normal_density. pose proof PI_RGT_0.
    assert (0 < 2 * PI * v) by (apply Rmult_lt_0_compat; lra).
    rewrite ln_div; [|apply exp_pos|apply sqrt_lt_R0; auto]. rewrite ln_exp, ln_sqrt by auto.
    rewrite (ln_mult (2 * PI) v) by lra. field. lra. }
  assert (0 < a0 /\ 0 < a1 /\ 0 < b0 /\ 0 < b1) as (Ha0 & Ha1 & Hb0 & Hb1).
  { rewrite Hr_0, Hr_1, Hc_0, Hc_1. lra. }
  rewrite !D by auto.
  (* need ln b0 + ln b1 + 1/b0 < ln a0 + ln a1 + 1/a0 *)
  assert (K : ln (b0 * b1 / (a0 * a1)) <= 2 * (64/100 - 1)).
  { assert (0 < a0 * a1) by (apply Rmult_lt_0_compat; auto).
    assert (0 < b0 * b1) by (apply Rmult_lt_0_compat; auto).
    apply Rle_trans with (ln (64/100 * (64/100))).
    - apply ln_le; [apply Rdiv_lt_0_compat; auto|]. apply div_le_iff; auto.
      rewrite Hr_0, Hr_1, Hc_0, Hc_1. lra.
    - rewrite ln_mult by lra. pose proof (ln_le_sub1 (64/100) ltac:(lra)). lra. }
  rewrite ln_div in K by (apply Rmult_lt_0_compat; auto). rewrite !ln_mult in K by auto.
  assert (I1 : 1 / (2 * b0) <= 1307 / 1000). { apply div_le_iff; lra. }
  assert (I2 : 979 / 1000 <= 1 / (2 * a0)). { apply le_div_iff; lra. }
  replace (1 ^ 2 / (2 * a0)) with (1 / (2 * a0)) by (rewrite pow1; auto).
  replace (1 ^ 2 / (2 * b0)) with (1 / (2 * b0)) by (rewrite pow1; auto).
  replace (0 ^ 2 / (2 * a1)) with 0 by (field; lra).
  replace (0 ^ 2 / (2 * b1)) with 0 by (field; lra).
  lra.
Qed.

(** ** C09: fit() over any call history *)
(** GARCHModel: f failing calls return the initial (NaN) parameters, then one successful call
    returns the estimate, and every later call returns None and changes nothing. *)
Theorem C09_garch_history (A : Arith) returns g1 g2 zm (ms : list (solver A)) outs st' :
  fits A KGarch ms (init A KGarch returns g1 g2 zm) = Ok (outs, st') ->
  (st_success A st' = false /\ st_params A st' = nan_params A KGarch /\
   outs = repeat (Some (nan_params A KGarch)) (length ms))
  \/
  (st_success A st' = true /\ exists f, (f < length ms)%nat /\
   outs = repeat (Some (nan_params A KGarch)) f ++ Some (st_params A st') :: repeat None (length ms - f - 1)).
Proof.
  intros H. destruct (fits_garch_history A ms (init A KGarch returns g1 g2 zm) outs st' eq_refl H) as (f & [(h1 & h2 & h3 & _)|(h1 & h2 & h3)]).
  - left. auto.
  - right. eauto.
Qed.
Theorem C09_garch_refit_is_none (A : Arith) m st : st_success A st = true ->
  fit A KGarch m st = Ok (None, st).
Proof. intros H. unfold fit. rewrite H. reflexivity. Qed.
(** GJRGARCHModel: every call estimates anew; it returns the stored parameters. A failed
    optimization leaves parameters, residuals and the success flag as they were. *)
Theorem C09_gjr_every_call (A : Arith) m st r st' : fit A KGjr m st = Ok (r, st') ->
  r = Some (st_params A st') /\
  exists sv st1, preparation A KGjr st = Ok (sv, st1) /\
    let opt := m sv (fit_bounds A KGjr (st_zero_mean A st)) in
    if o_success A opt then
      st_success A st' = true /\
      make_params A KGjr (if st_zero_mean A st then ofZ 0 :: o_x A opt else o_x A opt) (nopp (o_fun A opt))
        = Ok (st_params A st')
    else st_params A st' = st_params A st /\ st_success A st' = st_success A st /\
         st_resids A st' = st_resids A st.
Proof.
  intros H. destruct (fit_inv A _ _ _ _ _ H) as [(? & _)|(_ & sv & st1 & s2 & HP & HR)]; [discriminate|].
  cbv zeta in HR. destruct HR as (_ & Hr & _ & _ & _ & _ & _ & HO).
  split; auto. exists sv, st1. split; auto. cbv zeta. destruct (o_success A _); tauto.
Qed.
(** One failing call, both classes. *)
Theorem C09_failure_keeps_parameters (A : Arith) k m st r st' :
  fit A k m st = Ok (r, st') -> (forall sv b, o_success A (m sv b) = false) ->
  st_params A st' = st_params A st /\ st_success A st' = st_success A st /\ st_resids A st' = st_resids A st.
Proof.
  intros H HM. destruct (fit_inv A _ _ _ _ _ H) as [(_ & _ & _ & ->)|(_ & sv & st1 & s2 & HP & HR)]; auto.
  cbv zeta in HR. destruct HR as (_ & Hr & _ & _ & _ & _ & _ & HO). rewrite HM in HO. auto.
Qed.
(** zero_mean: reported mu is exactly 0, and the optimizer gets one bound fewer. *)
Theorem C09_zero_mean (A : Arith) k m st r st' :
  fit A k m st = Ok (r, st') -> st_success A st = false -> st_zero_mean A st = true ->
  (forall sv b, o_success A (m sv b) = true) ->
  p_mu A (st_params A st') = ofZ 0 /\
  length (fit_bounds A k true) = nparams k /\ length (fit_bounds A k false) = S (nparams k).
Proof.
  intros H Hs Hz HM. destruct (fit_inv A _ _ _ _ _ H) as [(_ & ? & _)|(_ & sv & st1 & s2 & HP & HR)]; [congruence|].
  cbv zeta in HR. destruct HR as (_ & Hr & _ & _ & _ & _ & _ & HO). rewrite HM, Hz in HO.
  destruct HO as [HO _]. split; [|destruct k; split; reflexivity].
  unfold make_params in HO. destruct (_ <? _)%nat; [discriminate|]. injection HO as <-. reflexivity.
Qed.
(** What the optimizer is given: a starting point of matching length (or the degenerate one). *)
Theorem C09_start_length (A : Arith) k st sv st1 : preparation A k st = Ok (sv, st1) ->
  let n := if st_zero_mean A st then length sv else pred (length sv) in n = nparams k \/ n = 0%nat.
Proof.
  unfold preparation. intros H.
  destruct (variance_bounds A _) as [vb|]; cbn [bind] in H; [|discriminate].
  destruct (starting_values A k _ _ _ _) as [vp|] eqn:E; cbn [bind] in H; [|discriminate].
  assert (HL : length vp = nparams k \/ length vp = 0%nat).
  { destruct (C08_returns_last_acceptable _ _ _ _ _ _ _ E) as (ll & _ & [[-> _]|(b & a & Ec & _)]); auto.
    left. assert (Hin : In vp (candidates A k (avar A (st_returns A st)))).
    { rewrite Ec. apply in_or_app. right; left; reflexivity. }
    clear - Hin. destruct k; unfold candidates, garch_candidates, gjr_candidates in Hin.
    - apply in_flat_map in Hin as (x & _ & Hin). apply in_map_iff in Hin as (y & <- & _). reflexivity.
    - apply in_flat_map in Hin as (x & _ & Hin). apply in_flat_map in Hin as (z & _ & Hin).
      apply in_map_iff in Hin as (y & <- & _). reflexivity. }
  injection H as <- _. destruct (st_zero_mean A st); simpl; auto.
Qed.

(** ** C10: consistency after a successful fit *)
(** The contract of scipy.optimize.minimize on success, seen from the state it leaves:
    x within the box, constraint satisfied, fun = objective(x). *)
Definition solver_contract (k : kind) (st : state XRA) (opt : opt_run XRA) : Prop :=
  o_success XRA opt = true /\
  Forall2 (fun x b => xleb (fst b) x = true /\ xleb x (snd b) = true)
          (o_x XRA opt) (fit_bounds XRA k (st_zero_mean XRA st)) /\
  xleb (Fin 0) (stationarity XRA k (o_x XRA opt)) = true /\
  exists s2, objective XRA k st (o_x XRA opt) = Ok (o_fun XRA opt, s2).
(** the variance parameters inside the Parameters object *)
Definition variance_params (ps : Params XRA) : list xr := tl (p_fields XRA ps).

Lemma Forall2_len {X Y} (P : X -> Y -> Prop) l m : Forall2 P l m -> length l = length m.
Proof. induction 1; simpl; auto. Qed.
Lemma xsub_0 x : xsub x (Fin 0) = x.
Proof. destruct x; cbn; auto. f_equal; lra. Qed.
Lemma xopp_opp x : xopp (xopp x) = x.
Proof. destruct x; cbn; auto. f_equal; lra. Qed.
Lemma demean_0 l : demean XRA l (Fin 0) = l.
Proof. unfold demean. rewrite <- (map_id l) at 2. apply map_ext. apply xsub_0. Qed.

Theorem C10_after_fit k m st r st' :
  fit XRA k m st = Ok (r, st') -> st_success XRA st = false ->
  (forall sv b, solver_contract k st' (m sv b)) ->
  exists s2,
    r = Some (st_params XRA st') /\
    st_resids XRA st' = demean XRA (st_returns XRA st) (p_mu XRA (st_params XRA st')) /\
    compute_variance XRA k (variance_params (st_params XRA st')) (st_resids XRA st')
      (st_backcast XRA st') (st_bounds XRA st') = Ok s2 /\
    p_ll XRA (st_params XRA st') = loglikelihood XRA (st_resids XRA st') s2 /\
    (* sigma2 is the series of the LAST objective evaluation *)
    exists sv b, (forall pts y, o_evals XRA (m sv b) = pts ++ [y] ->
         exists f, objective XRA k st' y = Ok (f, st_sigma2 XRA st')) /\
       (forall pts, o_evals XRA (m sv b) = pts ++ [o_x XRA (m sv b)] -> st_sigma2 XRA st' = s2).
Proof.
  intros H Hs HC.
  destruct (fit_inv XRA _ _ _ _ _ H) as [(_ & ? & _)|(_ & sv & st1 & s2 & HP & HR)]; [congruence|].
  cbv zeta in HR. destruct HR as (HE & Hr & Hsig & Hret & Hzm & Hbc & Hvb & HO).
  set (opt := m sv (fit_bounds XRA k (st_zero_mean XRA st))) in *.
  destruct (HC sv (fit_bounds XRA k (st_zero_mean XRA st))) as (Hok & HB & HS & s2x & Hobj). fold opt in Hok, HB, HS, Hobj.
  rewrite Hok in HO. destruct HO as (HM & _ & Hres).
  destruct (prep_inv XRA _ _ _ _ HP) as (q1 & q2 & _).
  assert (Hext : forall y, objective XRA k st1 y = objective XRA k st' y).
  { intros y. apply objective_ext; congruence. }
  assert (HL : length (if st_zero_mean XRA st then Fin 0 :: o_x XRA opt else o_x XRA opt) = nfields k).
  { pose proof (Forall2_len _ _ _ HB) as HLb. rewrite Hzm in HLb.
    destruct (st_zero_mean XRA st), k; cbn in *; rewrite HLb; reflexivity. }
  destruct (make_params_fields XRA k _ _ _ HM HL) as [HPF HPL].
  exists s2x. split; auto. split; auto.
  unfold objective in Hobj. rewrite Hzm, Hret in Hobj.
  assert (HX : compute_variance XRA k (variance_params (st_params XRA st')) (st_resids XRA st')
      (st_backcast XRA st') (st_bounds XRA st') = Ok s2x /\
      p_ll XRA (st_params XRA st') = loglikelihood XRA (st_resids XRA st') s2x).
  { unfold variance_params. unfold p_mu in Hres. rewrite HPF in Hres |- *. rewrite Hres, HPL.
    destruct (st_zero_mean XRA st).
    - cbn [tl nth]. rewrite demean_0.
      destruct (compute_variance XRA k (o_x XRA opt) (st_returns XRA st) (st_backcast XRA st') (st_bounds XRA st')) as [w|];
        cbn [bind] in Hobj; [|discriminate].
      injection Hobj as Hf ->. split; auto. rewrite <- Hf. apply xopp_opp.
    - destruct (o_x XRA opt) as [|mu rest]; [discriminate|]. cbn [tl nth].
      destruct (compute_variance XRA k rest _ (st_backcast XRA st') (st_bounds XRA st')) as [w|];
        cbn [bind] in Hobj; [|discriminate].
      injection Hobj as Hf ->. split; auto. rewrite <- Hf. apply xopp_opp. }
  destruct HX as [HX1 HX2]. split; auto. split; auto.
  exists sv, (fit_bounds XRA k (st_zero_mean XRA st)). fold opt. split.
  - intros pts y Hy. rewrite Hy in HE. apply run_evals_last in HE as [f Hf].
    exists f. rewrite Hsig, <- Hext. exact Hf.
  - intros pts Hy. rewrite Hy in HE. apply run_evals_last in HE as [f Hf]. rewrite Hext in Hf.
    rewrite Hsig. unfold objective in Hf. rewrite Hzm, Hret in Hf.
    destruct (st_zero_mean XRA st).
    + destruct (compute_variance XRA k (o_x XRA opt) _ _ _) as [w|]; cbn [bind] in Hf, Hobj; congruence.
    + destruct (o_x XRA opt) as [|mu rest]; [discriminate|].
      destruct (compute_variance XRA k rest _ _ _) as [w|]; cbn [bind] in Hf, Hobj; congruence.
Qed.
(** The estimates satisfy the box and stationarity constraints. *)
Theorem C10_garch_constraints m st r st' omega alpha beta :
  fit XRA KGarch m st = Ok (r, st') -> st_success XRA st = false ->
  (forall sv b, solver_contract KGarch st' (m sv b)) ->
  variance_params (st_params XRA st') = [Fin omega; Fin alpha; Fin beta] ->
  1/1000000 <= omega /\ 0 <= alpha <= 1 /\ 0 <= beta <= 1 /\ alpha + beta <= 1.
Proof.
  intros H Hs HC HV.
  destruct (fit_inv XRA _ _ _ _ _ H) as [(_ & ? & _)|(_ & sv & st1 & s2 & HP & HR)]; [congruence|].
  cbv zeta in HR. destruct HR as (_ & Hr & _ & Hret & Hzm & _ & _ & HO).
  destruct (HC sv (fit_bounds XRA KGarch (st_zero_mean XRA st))) as (Hok & HB & HS & _).
  set (opt := m sv (fit_bounds XRA KGarch (st_zero_mean XRA st))) in *.
  rewrite Hok in HO. destruct HO as (HM & _ & _). rewrite Hzm in HB.
  pose proof (Forall2_len _ _ _ HB) as HLb.
  assert (HL : length (if st_zero_mean XRA st then Fin 0 :: o_x XRA opt else o_x XRA opt) = nfields KGarch).
  { destruct (st_zero_mean XRA st); cbn in *; rewrite HLb; reflexivity. }
  destruct (make_params_fields XRA _ _ _ _ HM HL) as [HPF _].
  unfold variance_params in HV. rewrite HPF in HV.
  assert (exists pre, o_x XRA opt = pre ++ [Fin omega; Fin alpha; Fin beta]) as [pre EX].
  { destruct (st_zero_mean XRA st).
    - exists []. exact HV.
    - destruct (o_x XRA opt) as [|x l]; [discriminate HL|]. exists [x]. cbn [tl] in HV. rewrite HV. reflexivity. }
  assert (HB3 : Forall2 (fun x b => xleb (fst b) x = true /\ xleb x (snd b) = true)
     [Fin omega; Fin alpha; Fin beta] [(Fin (1/1000000), PInf); (Fin 0, Fin 1); (Fin 0, Fin 1)]).
  { destruct (st_zero_mean XRA st); cbn [fit_bounds tl] in HB.
    - rewrite <- HV. exact HB.
    - destruct (o_x XRA opt) as [|x l]; [discriminate HL|]. cbn [tl] in HV.
      inversion HB; subst. assumption. }
  inversion HB3 as [|? ? ? ? [a1 _] HB2]; subst. inversion HB2 as [|? ? ? ? [b1 b2] HB1]; subst.
  inversion HB1 as [|? ? ? ? [c1 c2] _]; subst. cbn [fst snd] in *.
  apply xleb_iff in a1, b1, b2, c1, c2.
  unfold stationarity in HS. rewrite EX, rev_app_distr in HS. cbn [rev app] in HS.
  cbn [nsub nadd ofZ XRA xadd xsub] in HS. apply xleb_iff in HS. lra.
Qed.
Theorem C10_gjr_constraints m st r st' omega alpha gamma beta :
  fit XRA KGjr m st = Ok (r, st') -> st_success XRA st = false ->
  (forall sv b, solver_contract KGjr st' (m sv b)) ->
  variance_params (st_params XRA st') = [Fin omega; Fin alpha; Fin gamma; Fin beta] ->
  1/1000000 <= omega /\ 1/1000000 <= alpha <= 1 /\ 1/1000000 <= gamma <= 1 /\ 1/1000000 <= beta <= 1 /\
  alpha + gamma / 2 + beta <= 1.
Proof.
  intros H Hs HC HV.
  destruct (fit_inv XRA _ _ _ _ _ H) as [(_ & ? & _)|(_ & sv & st1 & s2 & HP & HR)]; [congruence|].
  cbv zeta in HR. destruct HR as (_ & Hr & _ & Hret & Hzm & _ & _ & HO).
  destruct (HC sv (fit_bounds XRA KGjr (st_zero_mean XRA st))) as (Hok & HB & HS & _).
  set (opt := m sv (fit_bounds XRA KGjr (st_zero_mean XRA st))) in *.
  rewrite Hok in HO. destruct HO as (HM & _ & _). rewrite Hzm in HB.
  pose proof (Forall2_len _ _ _ HB) as HLb.
  assert (HL : length (if st_zero_mean XRA st then Fin 0 :: o_x XRA opt else o_x XRA opt) = nfields KGjr).
  { destruct (st_zero_mean XRA st); cbn in *; rewrite HLb; reflexivity. }
  destruct (make_params_fields XRA _ _ _ _ HM HL) as [HPF _].
  unfold variance_params in HV. rewrite HPF in HV.
  assert (exists pre, o_x XRA opt = pre ++ [Fin omega; Fin alpha; Fin gamma; Fin beta]) as [pre EX].
  { destruct (st_zero_mean XRA st).
    - exists []. exact HV.
    - destruct (o_x XRA opt) as [|x l]; [discriminate HL|]. exists [x]. cbn [tl] in HV. rewrite HV. reflexivity. }
  assert (HB3 : Forall2 (fun x b => xleb (fst b) x = true /\ xleb x (snd b) = true)
     [Fin omega; Fin alpha; Fin gamma; Fin beta]
     [(Fin (1/1000000), PInf); (Fin (1/1000000), Fin 1); (Fin (1/1000000), Fin 1); (Fin (1/1000000), Fin 1)]).
  { assert (EB : fit_bounds XRA KGjr true = [(Fin (1/1000000), PInf); (Fin (1/1000000), Fin 1); (Fin (1/1000000), Fin 1); (Fin (1/1000000), Fin 1)]).
    { reflexivity. }
    destruct (st_zero_mean XRA st).
    - rewrite EB in HB. rewrite <- HV. exact HB.
    - change (fit_bounds XRA KGjr false) with ((nopp (npinf (a:=XRA)), npinf (a:=XRA)) :: fit_bounds XRA KGjr true) in HB.
      rewrite EB in HB. destruct (o_x XRA opt) as [|x l]; [discriminate HL|]. cbn [tl] in HV.
      inversion HB; subst. assumption. }
  inversion HB3 as [|? ? ? ? [a1 _] HB2]; subst. inversion HB2 as [|? ? ? ? [b1 b2] HB1]; subst.
  inversion HB1 as [|? ? ? ? [g1 g2] HB0]; subst. inversion HB0 as [|? ? ? ? [c1 c2] _]; subst. cbn [fst snd] in *.
  apply xleb_iff in a1, b1, b2, g1, g2, c1, c2.
  unfold stationarity in HS. rewrite EX, rev_app_distr in HS. cbn [rev app] in HS.
  cbn [nsub nadd ndiv ofZ XRA] in HS. rewrite xdiv_fin in HS by lra. cbn [xadd xsub] in HS. apply xleb_iff in HS. lra.
Qed.
(** sigma2 need not belong to the reported parameters: for EVERY data set with positive variance
    and either class there is an optimizer run obeying the contract after which it does not. *)
Theorem C10_sigma2_stale_refuted k returns zm g1 g2 :
  0 < Rvar returns ->
  exists m r st', fit XRA k m (init XRA k (map Fin returns) g1 g2 zm) = Ok (r, st') /\
    (forall sv b, solver_contract k st' (m sv b)) /\
    compute_variance XRA k (variance_params (st_params XRA st')) (st_resids XRA st')
      (st_backcast XRA st') (st_bounds XRA st') <> Ok (st_sigma2 XRA st').
Proof.
  intros Hv. assert (Hn : returns <> []).
  { intros ->. unfold Rvar, Rmean in Hv. simpl in Hv. unfold Rdiv in Hv. lra. }
  set (st0 := init XRA k (map Fin returns) g1 g2 zm).
  destruct (preparation_fin k st0 returns eq_refl Hv) as (st1 & EP & EB & EC & ER & EZ).
  change (st_zero_mean XRA st0) with zm in *.
  set (rs := prep_resids zm returns) in *.
  set (bc := ew_average (Nat.min 75 (length returns)) rs) in *.
  set (vp := fun o => match k with KGarch => [o; 1/10; 1/10] | KGjr => [o; 1/10; 1/10; 1/10] end).
  set (xv := fun o => if zm then vp o else 0 :: vp o).
  destruct (prep_resids_nonzero zm returns Hv) as (x0 & Hx0 & Hx00).
  fold rs in Hx0.
  assert (HLrs : length rs = length returns).
  { unfold rs, prep_resids. destruct zm; auto. apply map_length. }
  assert (Hbc0 : 0 <= bc).
  { apply ew_average_nonneg. destruct returns; [tauto|simpl; lia]. }
  (* variance series at [vp o] with the residuals the objective uses *)
  set (or_ := map (fun r => r - 0) returns).
  assert (Hor : forall o, 0 < o -> exists s, compute_variance XRA k (map Fin (vp o)) (map Fin or_) (Fin bc) (map finrow (boundsR rs)) = Ok (map Fin s)
     /\ nth 0 s 0 = s0R (vp o) bc /\ loglikelihood XRA (map Fin or_) (map Fin s) = Fin (Rsum (map2 (fun r v => ln (normal_density v r)) or_ s)) /\ s <> []).
  { intros o Ho. destruct (cv_fin_pos k (vp o) or_ bc (boundsR rs)) as (s & E & HP & _ & LL).
    - unfold vp; destruct k; reflexivity.
    - unfold or_. destruct returns; [tauto|discriminate].
    - rewrite boundsR_length, HLrs. unfold or_. rewrite map_length. lia.
    - apply Forall_tl, boundsR_good. eauto.
    - assert (0 <= 3/10 * bc) by (apply Rmult_le_pos; lra). unfold vp; destruct k; simpl; lra.
    - exists s. split; auto. split; [apply HP|]. split; auto.
      destruct HP as [HL _]. intros ->. unfold or_ in HL. rewrite map_length in HL. destruct returns; [tauto|discriminate]. }
  assert (HOid : map Fin or_ = map Fin returns).
  { unfold or_. rewrite map_map. apply map_ext. intros; f_equal; lra. }
  assert (Hobj : forall o, 0 < o -> exists s f, objective XRA k st1 (map Fin (xv o)) = Ok (Fin f, map Fin s) /\
     nth 0 s 0 = s0R (vp o) bc /\ s <> [] /\
     compute_variance XRA k (map Fin (vp o)) (map Fin or_) (Fin bc) (map finrow (boundsR rs)) = Ok (map Fin s)).
  { intros o Ho. destruct (Hor o Ho) as (s & E & H0 & LL & Hs). exists s. eexists. split; [|eauto].
    unfold objective. rewrite EZ, ER, EB, EC. unfold xv. destruct zm.
    - rewrite <- HOid, E. cbn [bind]. rewrite LL. cbn [nopp XRA xopp]. reflexivity.
    - cbn [map]. rewrite demean_fin. fold or_. rewrite E. cbn [bind]. rewrite LL. cbn [nopp XRA xopp]. reflexivity. }
  destruct (Hobj 1 ltac:(lra)) as (s1 & f1 & O1 & N1 & Z1 & C1).
  destruct (Hobj 2 ltac:(lra)) as (s2 & f2 & O2 & N2 & Z2 & C2).
  set (opt := Build_opt_run XRA [map Fin (xv 1); map Fin (xv 2)] true (map Fin (xv 1)) (Fin f1)).
  exists (fun _ _ => opt).
  assert (HLx : length (if zm then Fin 0 :: map Fin (xv 1) else map Fin (xv 1)) = nfields k).
  { unfold xv, vp. destruct k, zm; reflexivity. }
  set (ps := Build_Params XRA (if zm then Fin 0 :: map Fin (xv 1) else map Fin (xv 1)) (xopp (Fin f1))).
  assert (HMP : make_params XRA k (if zm then Fin 0 :: map Fin (xv 1) else map Fin (xv 1)) (xopp (Fin f1)) = Ok ps).
  { unfold make_params, num, XRA. fold XRA. rewrite HLx. rewrite Nat.ltb_irrefl, Nat.sub_diag. cbn [repeat].
    rewrite app_nil_r. reflexivity. }
  assert (Hmu : p_mu XRA ps = Fin 0). { unfold p_mu, ps, xv. destruct zm; reflexivity. }
  assert (Hvps : variance_params ps = map Fin (vp 1)).
  { unfold variance_params, ps, xv. cbn [p_fields]. destruct zm; reflexivity. }
  destruct (fit XRA k (fun _ _ => opt) st0) as [[r st']|e] eqn:EF.
  2:{ exfalso. rewrite fit_unfold in EF by (intros [_ ?]; discriminate).
      rewrite EP in EF. cbn [bind fst snd] in EF. cbv zeta in EF. cbn [opt o_evals run_evals] in EF.
      rewrite O1 in EF. cbn [bind snd run_evals] in EF. rewrite O2 in EF. cbn [bind snd run_evals opt o_success o_x o_fun] in EF.
      cbn [nopp XRA] in EF.
      change (st_zero_mean XRA st0) with zm in EF. 
      match type of EF with bind ?M _ = _ => assert (EM : M = Ok ps) by exact HMP; rewrite EM in EF end.
      discriminate EF. }
  exists r, st'. split; auto.
  destruct (fit_inv XRA _ _ _ _ _ EF) as [(_ & ? & _)|(_ & sv & st1' & s2' & HP & HR)]; [discriminate|].
  rewrite EP in HP. injection HP as _ <-.
  cbv zeta in HR. destruct HR as (HE & Hr & Hsig & Hret & Hzm & Hbc & Hvb & HO).
  cbn [opt o_success o_x o_fun] in HO. destruct HO as (HM & _ & Hres).
  assert (Hps : st_params XRA st' = ps).
  { assert (Ok (st_params XRA st') = Ok ps) as HH; [|injection HH; auto]. rewrite <- HM. exact HMP. }
  assert (Hs2 : s2' = map Fin s2).
  { cbn [opt o_evals run_evals] in HE. rewrite O1 in HE. cbn [bind snd run_evals] in HE. rewrite O2 in HE. cbn [bind snd run_evals] in HE. congruence. }
  split.
  - intros _ _. unfold solver_contract. cbn [opt o_success o_x o_fun]. split; auto.
    rewrite Hzm. change (st_zero_mean XRA st0) with zm.
    split; [|split].
    + unfold xv, vp. destruct k, zm; cbn [map fit_bounds tl]; repeat constructor; cbn [fst snd lit ofZ nopp npinf XRA];
        try reflexivity; try (apply xleb_true; lra).
    + unfold xv, vp. destruct k, zm; cbn [map stationarity rev app]; cbn [nsub nadd ndiv ofZ XRA];
        rewrite ?xdiv_fin by lra; cbn [xsub xadd]; apply xleb_true; lra.
    + exists (map Fin s1). etransitivity; [|exact O1]. apply objective_ext; [rewrite Hret, ER; reflexivity|rewrite Hzm, EZ; reflexivity|exact Hbc|exact Hvb].
  - rewrite Hps, Hvps, Hres, Hps, Hmu. change (st_returns XRA st0) with (map Fin returns).
    rewrite demean_fin. fold or_. rewrite Hbc, EC, Hvb, EB. rewrite C1.
    rewrite Hsig, Hs2. intros HH. injection HH as HH.
    destruct s1 as [|u1 s1]; [tauto|]. destruct s2 as [|u2 s2]; [tauto|].
    injection HH as HH _. simpl in N1, N2. rewrite N1, N2 in HH. unfold vp in HH.
    destruct k; simpl in HH; lra.
Qed.
(** A concrete optimizer run meeting the hypotheses of C10_after_fit exists (for any data). *)
Example C10_case : exists m r st', fit XRA KGarch m (init XRA KGarch (map Fin [1; -2; 3]) [] [] false) = Ok (r, st') /\
  (forall sv b, solver_contract KGarch st' (m sv b)).
Proof.
  destruct (C10_sigma2_stale_refuted KGarch [1; -2; 3] false [] []) as (m & r & st' & H1 & H2 & _).
  - apply Rvar_pos_iff; [discriminate|]. exists 1, (-2). simpl. repeat split; auto. lra.
  - eauto.
Qed.
(** ... and histories of successful and failing calls exist (hypotheses of C09). *)
Example C09_case : exists (ms : list (solver XRA)) outs st',
  fits XRA KGarch ms (init XRA KGarch (map Fin [1; -2; 3]) [] [] false) = Ok (outs, st') /\
  st_success XRA st' = true /\ length ms = 3%nat.
Proof.
  set (st0 := init XRA KGarch (map Fin [1; -2; 3]) [] [] false).
  assert (HV : 0 < Rvar [1; -2; 3]).
  { apply Rvar_pos_iff; [discriminate|]. exists 1, (-2). simpl. repeat split; auto. lra. }
  set (bad := (fun _ _ => Build_opt_run XRA [] false [] NaN) : solver XRA).
  destruct (preparation_fin KGarch st0 [1; -2; 3] eq_refl HV) as (st1 & EP & _).
  set (good := (fun _ _ => Build_opt_run XRA [] true [Fin 0; Fin 1; Fin 0; Fin 0] (Fin 5)) : solver XRA).
  destruct (fit XRA KGarch good st0) as [[r st2]|e] eqn:E.
  2:{ rewrite fit_unfold in E by (intros [_ ?]; discriminate). rewrite EP in E. cbn in E. discriminate E. }
  assert (S2 : st_success XRA st2 = true).
  { destruct (fit_inv XRA _ _ _ _ _ E) as [(_ & ? & _)|(_ & sv & st1' & s2 & _ & HR)]; [discriminate|].
    cbv zeta in HR. destruct HR as (_ & _ & _ & _ & _ & _ & _ & HO). cbn [good o_success] in HO. apply HO. }
  exists [good; bad; good]. cbn [fits]. rewrite E. cbn [bind snd fst].
  rewrite !(C09_garch_refit_is_none XRA _ st2 S2). cbn [bind snd fst].
  rewrite !(C09_garch_refit_is_none XRA _ st2 S2). cbn [bind snd fst]. eauto.
Qed.

(** ** C11: the log-likelihood *)
Theorem C11_gaussian_loglik rs s : length s = length rs -> Forall (fun v => 0 < v) s ->
  loglikelihood XRA (map Fin rs) (map Fin s) =
  Fin (Rsum (map2 (fun r v => ln (normal_density v r)) rs s)).
Proof. intros _. apply loglik_fin. Qed.
(** Over constant variances it is maximal exactly at the mean squared residual. *)
Theorem C11_constant_variance_mle rs v L Lstar : rs <> [] ->
  let vstar := Rmean (map (fun r => r ^ 2) rs) in
  0 < v -> 0 < vstar ->
  loglikelihood XRA (map Fin rs) (repeat (Fin v) (length rs)) = Fin L ->
  loglikelihood XRA (map Fin rs) (repeat (Fin vstar) (length rs)) = Fin Lstar ->
  L <= Lstar /\ (v <> vstar -> L < Lstar).
Proof.
  intros Hn vstar Hv Hs.
  assert (RP : forall w n, repeat (Fin w) n = map Fin (repeat w n)) by (intros w n; induction n; simpl; f_equal; auto).
  assert (V : forall w, 0 < w -> loglikelihood XRA (map Fin rs) (repeat (Fin w) (length rs)) =
     Fin (INR (length rs) * (- ln (2 * PI) / 2 - ln w / 2 - vstar / (2 * w)))).
  { intros w Hw. rewrite RP, loglik_fin.
    2:{ apply Forall_forall. intros x Hx. apply repeat_spec in Hx as ->. auto. }
    f_equal.
    assert (G : forall l, Rsum (map2 (fun r v0 => ln (normal_density v0 r)) l (repeat w (length l))) =
       INR (length l) * (- ln (2 * PI) / 2 - ln w / 2) - Rsum (map (fun r => r ^ 2) l) / (2 * w)).
    { induction l as [|x l IH]; [simpl; field; lra|]. cbn [length repeat map2 Rsum map]. rewrite IH, S_INR.
      unfold normal_density. pose proof PI_RGT_0.
      assert (0 < 2 * PI * w) by (apply Rmult_lt_0_compat; lra).
      rewrite ln_div; [|apply exp_pos|apply sqrt_lt_R0; auto]. rewrite ln_exp, ln_sqrt by auto.
      rewrite (ln_mult (2 * PI) w) by lra. field. lra. }
    rewrite G. unfold vstar, Rmean. rewrite map_length.
    pose proof (INR_len_pos rs Hn). field. lra. }
  rewrite (V v Hv), (V vstar Hs). intros E1 E2.
  apply (f_equal fin_val) in E1. apply (f_equal fin_val) in E2. cbn [fin_val] in E1, E2. subst L Lstar.
  pose proof (INR_len_pos rs Hn) as HN.
  assert (K : ln vstar - ln v <= vstar / v - 1 /\ (v <> vstar -> ln vstar - ln v < vstar / v - 1)).
  { rewrite <- ln_div by auto. assert (0 < vstar / v) by (apply Rdiv_lt_0_compat; auto). split.
    - apply ln_le_sub1; auto.
    - intros HD. apply ln_lt_sub1; auto. intros HE. apply HD.
      apply (f_equal (fun z => z * v)) in HE. unfold Rdiv in HE. rewrite Rmult_assoc, Rinv_l in HE; lra. }
  assert (E3 : vstar / (2 * vstar) = 1/2) by (field; lra).
  assert (E4 : vstar / (2 * v) = (vstar / v) / 2) by (field; lra).
  rewrite E3, E4. split.
  - apply Rmult_le_compat_l; [lra|]. lra.
  - intros HD. apply Rmult_lt_compat_l; auto. destruct K as [_ K]. specialize (K HD). lra.
Qed.
Example C11_case : loglikelihood XRA (map Fin [1; -2]) (map Fin [1; 4]) =
  Fin (ln (normal_density 1 1) + (ln (normal_density 4 (-2)) + 0)).
Proof. apply (C11_gaussian_loglik [1; -2] [1; 4]); auto. repeat constructor; lra. Qed.

(** ** C12: nesting and leverage *)
Lemma gjr_update_0 o a b p r : gjr_update o a 0 b p r = garch_update o a b p r.
Proof. unfold gjr_update, garch_update. destruct (Rlt_dec r 0); ring. Qed.
Theorem C12_gjr_gamma0_is_garch omega alpha beta bc rs bs :
  rs <> [] -> length bs = length rs -> Forall good_row bs ->
  gjr_variance_py XRA [Fin omega; Fin alpha; Fin 0; Fin beta] (map Fin rs) (Fin bc) (map finrow bs) =
  garch_variance_py XRA [Fin omega; Fin alpha; Fin beta] (map Fin rs) (Fin bc) (map finrow bs).
Proof.
  intros Hn HL HB. rewrite garch_fin, gjr_fin; auto; try lia; try (apply Forall_tl; auto).
  unfold gjrR, garchR, s0R_gjr, s0R_garch. f_equal. f_equal.
  replace (alpha + 0 / 2 + beta) with (alpha + beta) by field. f_equal.
  generalize (omega + (alpha + beta) * bc). generalize (tl bs).
  induction (removelast rs) as [|r l IH]; intros [|b bs'] p; cbn [loopR]; auto.
  rewrite gjr_update_0. f_equal. apply IH.
Qed.
Theorem C12_leverage_adds_variance omega alpha gamma beta bc rs bs s g :
  0 <= gamma -> 0 <= beta -> 0 <= bc -> rs <> [] -> length bs = length rs -> Forall good_row bs ->
  garch_variance_py XRA [Fin omega; Fin alpha; Fin beta] (map Fin rs) (Fin bc) (map finrow bs) = Ok (map Fin s) ->
  gjr_variance_py XRA [Fin omega; Fin alpha; Fin gamma; Fin beta] (map Fin rs) (Fin bc) (map finrow bs) = Ok (map Fin g) ->
  length s = length rs /\ length g = length rs /\ forall t, (t < length rs)%nat -> nth t s 0 <= nth t g 0.
Proof.
  intros Hg Hb Hc Hn HL HB Es Eg.
  assert (Hinj : forall l m, map Fin l = map Fin m -> l = m).
  { induction l; destruct m; simpl; intros H; try discriminate; auto. injection H as -> H. f_equal; auto. }
  destruct (cv_fin KGarch [omega; alpha; beta] rs bc bs) as (s' & E & HP); auto; try lia; try (apply Forall_tl; auto).
  destruct (cv_fin KGjr [omega; alpha; gamma; beta] rs bc bs) as (g' & E' & HP'); auto; try lia; try (apply Forall_tl; auto).
  cbn [compute_variance map] in E, E'. rewrite Es in E. rewrite Eg in E'.
  injection E as E. injection E' as E'. apply (Hinj s s') in E. apply (Hinj g g') in E'. subst s' g'.
  split; [apply HP|]. split; [apply HP'|].
  eapply (path_le _ _ _ _ rs rs bs); eauto; try lia; try (apply Forall_tl; auto).
  - simpl. assert (0 <= gamma / 2 * bc) by (apply Rmult_le_pos; lra). lra.
  - intros t p p' _ Hp. simpl. unfold garch_update, gjr_update.
    assert (beta * p <= beta * p') by (apply Rmult_le_compat_l; auto).
    destruct (Rlt_dec (nth t rs 0) 0); [|lra].
    assert (0 <= gamma * nth t rs 0 ^ 2); [|lra].
    apply Rmult_le_pos; auto. simpl. rewrite Rmult_1_r. apply sqr_nonneg.
Qed.
Theorem C12_garch_sign_invariant omega alpha beta bc rs rs' bs :
  rs <> [] -> length bs = length rs -> Forall good_row bs ->
  Forall2 (fun r r' => Rabs r = Rabs r') rs rs' ->
  garch_variance_py XRA [Fin omega; Fin alpha; Fin beta] (map Fin rs) (Fin bc) (map finrow bs) =
  garch_variance_py XRA [Fin omega; Fin alpha; Fin beta] (map Fin rs') (Fin bc) (map finrow bs).
Proof.
  intros Hn HL HB HF. pose proof (Forall2_len _ _ _ HF) as HL2.
  rewrite !garch_fin; auto; try lia; try (apply Forall_tl; auto).
  2:{ intros ->. destruct rs; [tauto|discriminate]. }
  unfold garchR. f_equal. f_equal. f_equal. generalize (s0R_garch omega alpha beta bc). generalize (tl bs).
  assert (HF2 : Forall2 (fun r r' => Rabs r = Rabs r') (removelast rs) (removelast rs')).
  { clear - HF. induction HF as [|x y l m H HF IH]; [constructor|].
    destruct l, m; try (inversion HF; fail); [constructor|]. constructor; auto. }
  induction HF2 as [|x y l m H HF2 IH]; intros [|b bs'] p; cbn [loopR]; auto.
  assert (E : garch_update omega alpha beta p x = garch_update omega alpha beta p y).
  { unfold garch_update. rewrite <- (pow2_abs x), <- (pow2_abs y), H. reflexivity. }
  rewrite E. f_equal. apply IH.
Qed.
(** Turning negative shocks positive never raises a GJR variance. *)
Theorem C12_gjr_bad_news omega alpha gamma beta bc rs rs' bs s s' :
  0 <= gamma -> 0 <= beta -> rs <> [] -> length bs = length rs -> Forall good_row bs ->
  Forall2 (fun r r' => r' = r \/ r' = Rabs r) rs rs' ->
  gjr_variance_py XRA [Fin omega; Fin alpha; Fin gamma; Fin beta] (map Fin rs) (Fin bc) (map finrow bs) = Ok (map Fin s) ->
  gjr_variance_py XRA [Fin omega; Fin alpha; Fin gamma; Fin beta] (map Fin rs') (Fin bc) (map finrow bs) = Ok (map Fin s') ->
  forall t, (t < length rs)%nat -> nth t s' 0 <= nth t s 0.
Proof.
  intros Hg Hb Hn HL HB HF Es Eg. pose proof (Forall2_len _ _ _ HF) as HL2.
  assert (Hn' : rs' <> []) by (intros ->; destruct rs; [tauto|discriminate]).
  assert (Hinj : forall l m, map Fin l = map Fin m -> l = m).
  { induction l; destruct m; simpl; intros H; try discriminate; auto. injection H as -> H. f_equal; auto. }
  destruct (cv_fin KGjr [omega; alpha; gamma; beta] rs bc bs) as (g & E & HP); auto; try lia; try (apply Forall_tl; auto).
  destruct (cv_fin KGjr [omega; alpha; gamma; beta] rs' bc bs) as (g' & E' & HP'); auto; try lia; try (apply Forall_tl; auto).
  cbn [compute_variance map] in E, E'. rewrite Es in E. rewrite Eg in E'.
  injection E as E. injection E' as E'. apply (Hinj s g) in E. apply (Hinj s' g') in E'. subst g g'.
  rewrite HL2. eapply (path_le _ _ _ _ rs' rs bs); eauto; try lia; try (apply Forall_tl; auto).
  - lra.
  - intros t p p' Ht Hp. simpl. unfold gjr_update.
    assert (Hr : nth t rs' 0 = nth t rs 0 \/ nth t rs' 0 = Rabs (nth t rs 0)).
    { clear - HF Ht. revert t Ht. induction HF; intros [|t] Ht; simpl in *; try lia; auto. apply IHHF; lia. }
    assert (beta * p <= beta * p') by (apply Rmult_le_compat_l; auto).
    assert (Hsq : nth t rs' 0 ^ 2 = nth t rs 0 ^ 2) by (destruct Hr as [->| ->]; [auto|apply pow2_abs]).
    rewrite Hsq. set (q := nth t rs 0 ^ 2) in *.
    assert (Hq : 0 <= q) by (subst q; simpl; rewrite Rmult_1_r; apply sqr_nonneg).
    assert (0 <= gamma * q) by (apply Rmult_le_pos; auto).
    destruct (Rlt_dec (nth t rs' 0) 0), (Rlt_dec (nth t rs 0) 0); try lra.
    destruct Hr as [Hr|Hr]; [lra|]. pose proof (Rabs_pos (nth t rs 0)). lra.
Qed.
Example C12_case : exists s g,
  garch_variance_py XRA [Fin 1; Fin (1/10); Fin (1/2)] (map Fin [-1; 2]) (Fin 1) (map finrow [(1,9);(1,9)]) = Ok (map Fin s) /\
  gjr_variance_py XRA [Fin 1; Fin (1/10); Fin (1/5); Fin (1/2)] (map Fin [-1; 2]) (Fin 1) (map finrow [(1,9);(1,9)]) = Ok (map Fin g) /\
  nth 1 s 0 <= nth 1 g 0.
Proof.
  assert (HB : Forall good_row [(1,9);(1,9)]) by (repeat constructor; unfold good_row; simpl; lra).
  destruct (cv_fin KGarch [1; 1/10; 1/2] [-1; 2] 1 [(1,9);(1,9)]) as (s & E & _); auto; try discriminate; try (apply Forall_tl; auto).
  destruct (cv_fin KGjr [1; 1/10; 1/5; 1/2] [-1; 2] 1 [(1,9);(1,9)]) as (g & E' & _); auto; try discriminate; try (apply Forall_tl; auto).
  exists s, g. split; [exact E|]. split; [exact E'|].
  eapply (C12_leverage_adds_variance 1 (1/10) (1/5) (1/2) 1 [-1; 2]); eauto; try lra; try discriminate. simpl; lia.
Qed.

(** ** C13: forecast_variance *)
Theorem C13_forecast omega alpha gamma beta rs v0 : rs <> [] ->
  exists f, forecast_variance XRA (Fin omega) (Fin alpha) (Fin gamma) (Fin beta) (map Fin rs) (Fin v0) = Ok (map Fin f) /\
    length f = (length rs - 1)%nat /\
    (forall t, (t < length f)%nat ->
       nth t f 0 = gjr_update omega alpha gamma beta (nth t (v0 :: f) 0) (nth t rs 0)) /\
    (0 < omega -> 0 <= alpha -> 0 <= gamma -> 0 <= beta -> 0 <= v0 -> Forall (fun v => 0 < v) f).
Proof.
  intros Hn. exists (fcR (gjr_update omega alpha gamma beta) v0 (removelast rs)).
  assert (HL : length (fcR (gjr_update omega alpha gamma beta) v0 (removelast rs)) = (length rs - 1)%nat).
  { rewrite fcR_length, removelast_length. auto. }
  split; [|split; [auto|split]].
  - unfold forecast_variance. rewrite removelast_map, forecast_fin. destruct rs; [tauto|reflexivity].
  - intros t Ht. rewrite HL in Ht. rewrite fcR_step by (rewrite removelast_length; lia).
    rewrite removelast_nth by lia. reflexivity.
  - intros Ho Ha Hg Hb. generalize (removelast rs). clear - Ho Ha Hg Hb. intros l.
    revert v0; induction l as [|r l IH]; intros v0 H0; cbn [fcR]; constructor.
    + unfold gjr_update. assert (0 <= r ^ 2) by (simpl; rewrite Rmult_1_r; apply sqr_nonneg).
      assert (0 <= beta * v0) by (apply Rmult_le_pos; auto).
      destruct (Rlt_dec r 0).
      * assert (0 <= (alpha + gamma) * r ^ 2) by (apply Rmult_le_pos; lra). lra.
      * assert (0 <= (alpha + 0) * r ^ 2) by (apply Rmult_le_pos; lra). lra.
    + apply IH. left. unfold gjr_update. assert (0 <= r ^ 2) by (simpl; rewrite Rmult_1_r; apply sqr_nonneg).
      assert (0 <= beta * v0) by (apply Rmult_le_pos; auto).
      destruct (Rlt_dec r 0).
      * assert (0 <= (alpha + gamma) * r ^ 2) by (apply Rmult_le_pos; lra). lra.
      * assert (0 <= (alpha + 0) * r ^ 2) by (apply Rmult_le_pos; lra). lra.
Qed.
Theorem C13_forecast_empty (A : Arith) o a g b (v0 : num A) : forecast_variance A o a g b [] v0 = Err IndexError.
Proof. reflexivity. Qed.
(** It is compute_variance without its first entry as long as no bound binds. *)
Theorem C13_forecast_matches_variance omega alpha gamma beta rs bc bs s f :
  rs <> [] -> length bs = length rs -> Forall good_row bs ->
  gjr_variance_py XRA [Fin omega; Fin alpha; Fin gamma; Fin beta] (map Fin rs) (Fin bc) (map finrow bs) = Ok (map Fin s) ->
  forecast_variance XRA (Fin omega) (Fin alpha) (Fin gamma) (Fin beta) (map Fin rs) (Fin (nth 0 s 0)) = Ok (map Fin f) ->
  (forall t, (t < length f)%nat -> fst (nth (S t) bs (0,0)) <= nth t f 0 <= snd (nth (S t) bs (0,0))) ->
  s = nth 0 s 0 :: f.
Proof.
  intros Hn HL HB Es Ef Hin.
  assert (Hinj : forall l m, map Fin l = map Fin m -> l = m).
  { induction l; destruct m; simpl; intros H; try discriminate; auto. injection H as -> H. f_equal; auto. }
  destruct (cv_fin KGjr [omega; alpha; gamma; beta] rs bc bs) as (g & E & (h1 & h2 & h3)); auto; try lia; try (apply Forall_tl; auto).
  cbn [compute_variance map] in E. rewrite Es in E. injection E as E. apply (Hinj s g) in E. subst g.
  destruct (C13_forecast omega alpha gamma beta rs (nth 0 s 0) Hn) as (f' & E & g1 & g2 & _).
  rewrite Ef in E. injection E as E. apply (Hinj f f') in E. subst f'.
  assert (H0 : (0 < length rs)%nat) by (destruct rs; simpl; [tauto|lia]).
  apply (nth_ext _ _ 0 0); [simpl; lia|]. rewrite h1.
  intros t. induction t as [|t IH]; intros Ht; [reflexivity|].
  rewrite h3 by auto. rewrite IH by lia. change (nth (S t) (nth 0 s 0 :: f) 0) with (nth t f 0).
  rewrite (g2 t) by lia. cbn [stepR]. apply clip_log_id. rewrite <- (g2 t) by lia. apply Hin. lia.
Qed.
Theorem C13_forecast_causal (A : Arith) o a g b rs rs' (v0 : num A) f f' t d :
  forecast_variance A o a g b rs v0 = Ok f -> forecast_variance A o a g b rs' v0 = Ok f' ->
  (t < length f)%nat -> (t < length f')%nat -> firstn (S t) rs = firstn (S t) rs' -> nth t f d = nth t f' d.
Proof.
  unfold forecast_variance. intros H1 H2 Ht Ht' HE.
  destruct rs as [|r0 rs]; [discriminate|]. destruct rs' as [|r0' rs']; [discriminate|].
  assert (E1 : f = forecast_loop A o a g b v0 (removelast (r0 :: rs))) by congruence.
  assert (E2 : f' = forecast_loop A o a g b v0 (removelast (r0' :: rs'))) by congruence. clear H1 H2. subst f f'.
  assert (LL : forall l p, length (forecast_loop A o a g b p l) = length l) by (induction l; intros; simpl; auto).
  rewrite LL, removelast_length in Ht, Ht'.
  assert (HE2 : firstn (S t) (removelast (r0 :: rs)) = firstn (S t) (removelast (r0' :: rs'))).
  { rewrite (removelast_firstn_len (r0 :: rs)), (removelast_firstn_len (r0' :: rs')).
    rewrite !firstn_firstn.
    replace (Nat.min (S t) (pred (length (r0 :: rs)))) with (S t) by lia.
    replace (Nat.min (S t) (pred (length (r0' :: rs')))) with (S t) by lia. exact HE. }
  revert HE2. generalize (removelast (r0 :: rs)) (removelast (r0' :: rs')). clear. intros l m.
  revert l m v0; induction t as [|t IH]; intros [|x l] [|y m] v0 H; cbn [firstn] in H; try discriminate; auto.
  - injection H as ->. reflexivity.
  - injection H as -> H. cbn [forecast_loop]. apply (IH l m). exact H.
Qed.
Example C13_case : exists f, forecast_variance XRA (Fin 1) (Fin (1/10)) (Fin (1/5)) (Fin (1/2)) (map Fin [-1; 2; 5]) (Fin 1) = Ok (map Fin f)
  /\ nth 0 f 0 = 18/10 /\ length f = 2%nat.
Proof.
  destruct (C13_forecast 1 (1/10) (1/5) (1/2) [-1; 2; 5] 1) as (f & E & HL & HS & _); [discriminate|].
  exists f. split; auto. split; auto. rewrite (HS 0%nat) by (rewrite HL; simpl; lia). unfold gjr_update. simpl.
  destruct (Rlt_dec (-1) 0); lra.
Qed.

(** ** C14: the C++ wrappers and memory layout *)
(** Contiguous arrays: the wrapper works on the logical array. *)
Theorem C14_contiguous_ok (A : Arith) (a : ndarray A) omega alpha gamma beta bc vb v0 lam d : stride A a = 1%nat ->
  garch_wrapper A [omega; alpha; beta] a bc vb =
    Ok (cpp_garch A omega alpha beta bc (fun i => nth i (logical A a) d) vb (length (logical A a))) /\
  gjr_wrapper A [omega; alpha; gamma; beta] a bc vb =
    Ok (cpp_gjr A omega alpha gamma beta bc (fun i => nth i (logical A a) d) vb (length (logical A a))) /\
  ewma_wrapper A a v0 lam = cpp_ewma A (fun i => nth i (logical A a) d) v0 lam (length (logical A a)).
Proof.
  intros Hs. assert (HL : length (logical A a) = dim A a) by (unfold logical; rewrite map_length, seq_length; auto).
  rewrite HL. unfold garch_wrapper, gjr_wrapper, ewma_wrapper, cpp_garch, cpp_gjr, cpp_ewma.
  split; [f_equal|split; [f_equal|]]; apply map_seq_ext; intros i Hi.
  - apply cpp_garch_at_ext. intros j Hj. apply raw_logical; auto. lia.
  - apply cpp_gjr_at_ext. intros j Hj. apply raw_logical; auto. lia.
  - apply cpp_ewma_at_ext. intros j Hj. apply raw_logical; auto. lia.
Qed.
(** Contiguous, finite data: the compiled entry point = the Python fallback on the logical array. *)
Theorem C14_contiguous_equals_python (a : ndarray XRA) omega alpha beta bc rs bs :
  stride XRA a = 1%nat -> logical XRA a = map Fin rs -> rs <> [] -> length bs = length rs -> Forall good_row bs ->
  garch_wrapper XRA [Fin omega; Fin alpha; Fin beta] a (Fin bc) (flat2 XRA NaN (map finrow bs)) =
  garch_variance_py XRA [Fin omega; Fin alpha; Fin beta] (logical XRA a) (Fin bc) (map finrow bs).
Proof.
  intros Hs HLg Hn HL HB.
  destruct (C14_contiguous_ok XRA a (Fin omega) (Fin alpha) (Fin 0) (Fin beta) (Fin bc) (flat2 XRA NaN (map finrow bs)) NaN NaN NaN Hs) as [HW _].
  etransitivity; [exact HW|]. rewrite HLg. rewrite map_length.
  symmetry. apply (cpp_py_same_fin KGarch [omega; alpha; beta]); auto; lia.
Qed.
(** Any stride: what is read is the contiguous block that starts at the first element. *)
Theorem C14_reads_contiguous_block (A : Arith) (a : ndarray A) params bc vb v0 lam :
  let c := {| buf := buf A a; off := off A a; stride := 1; dim := dim A a |} in
  garch_wrapper A params a bc vb = garch_wrapper A params c bc vb /\
  gjr_wrapper A params a bc vb = gjr_wrapper A params c bc vb /\
  ewma_wrapper A a v0 lam = ewma_wrapper A c v0 lam.
Proof. repeat split; reflexivity. Qed.
(** returns[::2] of [1; 2; 3; 4]: the wrapper uses 1, 2 instead of 1, 3. *)
Theorem C14_strided_refuted : exists (a : ndarray XRA) omega alpha beta bc bs,
  stride XRA a = 2%nat /\ logical XRA a = map Fin [1; 3; 5] /\ Forall good_row bs /\ length bs = 3%nat /\
  garch_wrapper XRA [Fin omega; Fin alpha; Fin beta] a (Fin bc) (flat2 XRA NaN (map finrow bs)) <>
  garch_variance_py XRA [Fin omega; Fin alpha; Fin beta] (logical XRA a) (Fin bc) (map finrow bs).
Proof.
  set (b := fun i : nat => Fin (INR i + 1)).
  exists (Build_ndarray XRA b 0 2 3), 1, 1, 0, 0, [(1/2, 100); (1/2, 100); (1/2, 100)].
  set (bs := [(1/2, 100); (1/2, 100); (1/2, 100)]).
  assert (HB : Forall good_row bs) by (repeat constructor; unfold good_row; simpl; lra).
  assert (HLg : logical XRA (Build_ndarray XRA b 0 2 3) = map Fin [1; 3; 5]).
  { unfold logical, b. cbn [dim off stride buf seq map]. cbn. repeat (f_equal; try lra). }
  split; auto. split; auto. split; auto. split; auto.
  destruct (C14_reads_contiguous_block XRA (Build_ndarray XRA b 0 2 3) [Fin 1; Fin 1; Fin 0] (Fin 0) (flat2 XRA NaN (map finrow bs)) NaN NaN) as [HW _].
  cbn [buf off dim] in HW. intros HN. assert (HN2 := eq_trans (eq_sym HW) HN). revert HN2. clear HN HW.
  assert (HLc : logical XRA (Build_ndarray XRA b 0 1 3) = map Fin [1; 2; 3]).
  { unfold logical, b. cbn [dim off stride buf seq map]. cbn. repeat (f_equal; try lra). }
  intros HN. assert (HN2 := eq_trans (eq_sym (C14_contiguous_equals_python (Build_ndarray XRA b 0 1 3) 1 1 0 0 [1; 2; 3] bs eq_refl HLc ltac:(discriminate) eq_refl HB)) HN).
  revert HN2. rewrite HLc, HLg. clear HN.
  destruct (cv_fin KGarch [1; 1; 0] [1; 2; 3] 0 bs) as (s & E & (h1 & h2 & h3)); auto; try discriminate; try (apply Forall_tl; auto).
  destruct (cv_fin KGarch [1; 1; 0] [1; 3; 5] 0 bs) as (s' & E' & (g1 & g2 & g3)); auto; try discriminate; try (apply Forall_tl; auto).
  cbn [compute_variance map] in E, E'. cbn [map]. rewrite E, E'. intros H. injection H as H.
  assert (Hinj : forall l m, map Fin l = map Fin m -> l = m).
  { induction l; destruct m; simpl; intros H'; try discriminate; auto. injection H' as -> H'. f_equal; auto. }
  apply Hinj in H. subst s'.
  specialize (h3 1%nat ltac:(simpl; lia)). specialize (g3 1%nat ltac:(simpl; lia)). rewrite h3 in g3.
  cbn [stepR nth fst snd bs] in g3. unfold garch_update in g3.
  rewrite !clip_log_id in g3; simpl in g3 |- *; lra.
Qed.
Example C08_case : exists st', preparation XRA KGarch (init XRA KGarch (map Fin [1; -1]) [] [] false) =
  Ok (map Fin [0; 1 * (1 - 98/100); 2/10; 98/100 - 2/10], st').
Proof.
  assert (HV : Rvar [1; -1] = 1) by (unfold Rvar, Rmean; simpl; field).
  destruct (C08_start_is_constant KGarch (init XRA KGarch (map Fin [1; -1]) [] [] false) [1; -1]) as (st' & E); auto.
  - rewrite HV; lra.
  - exists st'. rewrite E. cbn [st_zero_mean init]. rewrite HV.
    replace (Rmean [1; -1]) with 0 by (unfold Rmean; simpl; field). reflexivity.
Qed.
