(** Starting values over the reals, fit protocol, nesting, forecast *)
From Coq Require Import Reals Lra List ZArith Lia Bool Arith.
From Verif Require Import Arith XR RealAux Model_garch Spec_garch Proofs_garch Proofs_garch2 Proofs_garch3 Proofs_garch4.
Import ListNotations.
Local Open Scope R_scope.

(** real counterparts of the parameter-dependent pieces *)
Definition stepR (ps : list R) : R -> R -> R :=
  match ps with
  | [o; a; b] => garch_update o a b
  | [o; a; g; b] => gjr_update o a g b
  | _ => fun p _ => p
  end.
Definition s0R (ps : list R) (bc : R) : R :=
  match ps with
  | [o; a; b] => o + (a + b) * bc
  | [o; a; g; b] => o + (a + g / 2 + b) * bc
  | _ => 0
  end.

Lemma cv_fin k ps rs bc bs : length ps = nparams k -> rs <> [] -> (length rs <= length bs)%nat ->
  Forall good_row (tl bs) ->
  exists s, compute_variance XRA k (map Fin ps) (map Fin rs) (Fin bc) (map finrow bs) = Ok (map Fin s)
    /\ variance_path (stepR ps) (s0R ps bc) rs bs s.
Proof.
  intros HL Hn Hb HB.
  destruct k; simpl in HL; repeat (destruct ps as [|? ps]; try discriminate HL); cbn [map compute_variance].
  - rewrite garch_fin by auto. eexists; split; [reflexivity|]. apply path_of_loop; auto.
  - rewrite gjr_fin by auto. eexists; split; [reflexivity|]. apply path_of_loop; auto.
Qed.

Lemma cv_fin_pos k ps rs bc bs : length ps = nparams k -> rs <> [] -> (length rs <= length bs)%nat ->
  Forall good_row (tl bs) -> 0 < s0R ps bc ->
  exists s, compute_variance XRA k (map Fin ps) (map Fin rs) (Fin bc) (map finrow bs) = Ok (map Fin s)
    /\ variance_path (stepR ps) (s0R ps bc) rs bs s
    /\ Forall (fun x => 0 < x) s
    /\ loglikelihood XRA (map Fin rs) (map Fin s) =
       Fin (Rsum (map2 (fun r v => ln (normal_density v r)) rs s)).
Proof.
  intros HL Hn Hb HB H0.
  destruct (cv_fin k ps rs bc bs HL Hn Hb HB) as (s & E & HP).
  destruct (path_bounds _ _ _ _ _ HP Hb HB H0) as [h1 _].
  assert (HF : Forall (fun x => 0 < x) s).
  { apply Forall_forall. intros x Hx. destruct (In_nth s x 0 Hx) as (t & Ht & <-).
    apply h1. destruct HP as [<- _]. auto. }
  exists s. repeat split; auto; try apply HP. apply loglik_fin; auto.
Qed.

(** ** candidates *)
Definition pgridR : list R := [5/10; 7/10; 9/10; 98/100].
Definition agridR : list R := [1/100; 5/100; 1/10; 2/10].
Definition candR (k : kind) (v : R) : list (list R) :=
  match k with
  | KGarch => flat_map (fun a => map (fun p => [v * (1 - p); a; p - a]) pgridR) agridR
  | KGjr => flat_map (fun a => flat_map (fun g => map (fun p => [v * (1 - p); a; g; p - a - g / 2]) pgridR) agridR) agridR
  end.
Lemma cand_fin k v : candidates XRA k (Fin v) = map (map Fin) (candR k v).
Proof.
  destruct k; unfold candidates.
  - reflexivity.
  - unfold gjr_candidates.
    cbn [flat_map map app persistence_grid alpha_grid candR pgridR agridR].
    cbn [lit ndiv ofZ XRA]. rewrite !xdiv_fin by lra. reflexivity.
Qed.
Lemma candR_props k v ps : In ps (candR k v) ->
  length ps = nparams k /\
  (exists p, In p pgridR /\ nth 0 ps 0 = v * (1 - p) /\
     match k with
     | KGarch => nth 1 ps 0 + nth 2 ps 0 = p
     | KGjr => nth 1 ps 0 + nth 2 ps 0 / 2 + nth 3 ps 0 = p
     end) /\
  (forall i, (0 < i < nparams k)%nat -> 0 < nth i ps 0).
Proof.
  intros H. destruct k; unfold candR in H.
  - apply in_flat_map in H as (a & Ha & H). apply in_map_iff in H as (p & <- & Hp).
    split; [reflexivity|]. split.
    + exists p. simpl nth. repeat split; auto. lra.
    + intros i Hi. assert (Hp2 : 5/10 <= p) by (simpl in Hp; intuition lra).
      assert (0 < a <= 2/10) by (simpl in Ha; intuition lra).
      destruct i as [|[|[|i]]]; simpl in *; try lia; lra.
  - apply in_flat_map in H as (a & Ha & H). apply in_flat_map in H as (g & Hg & H).
    apply in_map_iff in H as (p & <- & Hp).
    split; [reflexivity|]. split.
    + exists p. simpl nth. repeat split; auto. lra.
    + intros i Hi. assert (Hp2 : 5/10 <= p) by (simpl in Hp; intuition lra).
      assert (0 < a <= 2/10) by (simpl in Ha; intuition lra).
      assert (0 < g <= 2/10) by (simpl in Hg; intuition lra).
      destruct i as [|[|[|[|i]]]]; simpl in *; try lia; lra.
Qed.
Lemma candR_s0 k v ps bc : In ps (candR k v) -> 0 < v -> 0 <= bc -> 0 < s0R ps bc.
Proof.
  intros H Hv Hbc. destruct (candR_props k v ps H) as (HL & (p & Hp & E0 & ES) & HP).
  assert (0 < nth 0 ps 0).
  { rewrite E0. apply Rmult_lt_0_compat; auto. simpl in Hp. intuition lra. }
  destruct k; simpl in HL; repeat (destruct ps as [|? ps]; try discriminate HL); simpl in *.
  - pose proof (HP 1%nat ltac:(lia)). pose proof (HP 2%nat ltac:(lia)). simpl in *.
    assert (0 <= (r0 + r1) * bc) by (apply Rmult_le_pos; lra). lra.
  - pose proof (HP 1%nat ltac:(lia)). pose proof (HP 2%nat ltac:(lia)). pose proof (HP 3%nat ltac:(lia)). simpl in *.
    assert (0 <= (r0 + r1 / 2 + r2) * bc) by (apply Rmult_le_pos; lra). lra.
Qed.

Definition start_point (k : kind) (v : R) : list R :=
  match k with
  | KGarch => [v * (1 - 98/100); 2/10; 98/100 - 2/10]
  | KGjr => [v * (1 - 98/100); 2/10; 2/10; 98/100 - 2/10 - 2/10/2]
  end.
Lemma candR_last k v : exists l, candR k v = l ++ [start_point k v].
Proof.
  destruct k.
  - unfold candR, agridR. cbn [flat_map map pgridR app].
    exists (removelast (candR KGarch v)). reflexivity.
  - exists (removelast (candR KGjr v)). reflexivity.
Qed.

Lemma starting_values_fin k returns rs bc bs :
  rs <> [] -> (length rs <= length bs)%nat -> Forall good_row (tl bs) ->
  0 < Rvar returns -> 0 <= bc ->
  starting_values XRA k (map Fin returns) (map Fin rs) (Fin bc) (map finrow bs)
  = Ok (map Fin (start_point k (Rvar returns))).
Proof.
  intros Hn Hb HB Hv Hbc. unfold starting_values.
  assert (Hr : returns <> []).
  { intros ->. unfold Rvar, Rmean in Hv. simpl in Hv. unfold Rdiv in Hv. lra. }
  rewrite avar_fin by auto. rewrite cand_fin.
  destruct (candR_last k (Rvar returns)) as [l El]. rewrite El. rewrite map_app. cbn [map].
  apply grid_search_last.
  intros c Hc. change [map Fin (start_point k (Rvar returns))] with (map (map Fin) [start_point k (Rvar returns)]) in Hc.
  rewrite <- map_app, <- El in Hc. apply in_map_iff in Hc as (ps & <- & Hps).
  destruct (candR_props k _ ps Hps) as (HL & _ & _).
  destruct (cv_fin_pos k ps rs bc bs HL Hn Hb HB (candR_s0 k _ ps bc Hps Hv Hbc)) as (s & E & _ & _ & ELL).
  rewrite E. cbn [bind]. rewrite ELL. eexists; split; reflexivity.
Qed.

(** the residuals that preparation uses *)
Definition prep_resids (zero_mean : bool) (returns : list R) : list R :=
  if zero_mean then returns else map (fun r => r - Rmean returns) returns.
Lemma demean_fin returns m : demean XRA (map Fin returns) (Fin m) = map Fin (map (fun r => r - m) returns).
Proof. unfold demean. rewrite !map_map. reflexivity. Qed.
Lemma prep_resids_fin (zm : bool) returns : returns <> [] ->
  (if zm then map Fin returns else demean XRA (map Fin returns) (amean XRA (map Fin returns)))
  = map Fin (prep_resids zm returns).
Proof. intros H. destruct zm; auto. rewrite amean_fin, demean_fin by auto. reflexivity. Qed.

Definition boundsR (rs : list R) : list (R * R) :=
  map (fun t => (vbR rs t / 1000000, vbR rs t * 1000000)) (seq 0 (length rs)).
Lemma boundsR_good rs : (exists x, In x rs /\ x <> 0) -> Forall good_row (boundsR rs).
Proof.
  intros H. apply Forall_forall. intros b Hb. apply in_map_iff in Hb as (t & <- & Ht).
  apply in_seq in Ht. pose proof (vbR_pos rs t H ltac:(lia)). unfold good_row; simpl; lra.
Qed.
Lemma boundsR_length rs : length (boundsR rs) = length rs.
Proof. unfold boundsR. rewrite map_length, seq_length. auto. Qed.

Lemma prep_resids_nonzero zm returns : 0 < Rvar returns -> exists x, In x (prep_resids zm returns) /\ x <> 0.
Proof.
  intros Hv. assert (Hn : returns <> []).
  { intros ->. unfold Rvar, Rmean in Hv. simpl in Hv. unfold Rdiv in Hv. lra. }
  destruct (proj1 (Rvar_pos_iff returns Hn) Hv) as (x & y & Hx & Hy & Hxy).
  unfold prep_resids. destruct zm.
  - destruct (Req_dec x 0); [exists y|exists x]; split; auto; congruence.
  - destruct (Req_dec (x - Rmean returns) 0).
    + exists (y - Rmean returns). split; [apply in_map_iff; eauto|lra].
    + exists (x - Rmean returns). split; [apply in_map_iff; eauto|lra].
Qed.

Theorem preparation_fin k st returns :
  st_returns XRA st = map Fin returns -> 0 < Rvar returns ->
  exists st', preparation XRA k st =
    Ok (map Fin (if st_zero_mean XRA st then start_point k (Rvar returns)
                 else Rmean returns :: start_point k (Rvar returns)), st')
    /\ st_bounds XRA st' = map finrow (boundsR (prep_resids (st_zero_mean XRA st) returns))
    /\ st_backcast XRA st' = Fin (ew_average (Nat.min 75 (length returns)) (prep_resids (st_zero_mean XRA st) returns))
    /\ st_returns XRA st' = map Fin returns
    /\ st_zero_mean XRA st' = st_zero_mean XRA st.
Proof.
  intros Hr Hv. assert (Hn : returns <> []).
  { intros ->. unfold Rvar, Rmean in Hv. simpl in Hv. unfold Rdiv in Hv. lra. }
  set (zm := st_zero_mean XRA st). set (rs := prep_resids zm returns).
  assert (HL : length rs = length returns).
  { subst rs. unfold prep_resids. destruct zm; auto. apply map_length. }
  assert (Hn2 : rs <> []). { destruct returns; [tauto|]. destruct rs; [discriminate HL|discriminate]. }
  unfold preparation. rewrite Hr. fold zm.
  pose proof (prep_resids_fin zm returns Hn) as E. fold rs in E.
  cbv zeta.
  match goal with |- context[backcast_py XRA ?e] => change e with (if zm then map Fin returns else demean XRA (map Fin returns) (amean XRA (map Fin returns))) end.
  rewrite E.
  rewrite variance_bounds_fin by auto. cbn [bind].
  rewrite backcast_fin by auto. fold (boundsR rs).
  destruct (prep_resids_nonzero zm returns Hv) as (x & Hx & Hx0). fold rs in Hx.
  rewrite starting_values_fin; auto.
  - cbn [bind]. rewrite HL. rewrite (amean_fin returns Hn). eexists. split.
    + apply f_equal. apply f_equal2; [destruct zm; reflexivity|reflexivity].
    + cbn [st_bounds st_backcast st_returns st_zero_mean]. repeat split; auto.
  - rewrite boundsR_length; lia.
  - apply Forall_tl, boundsR_good. eauto.
  - apply ew_average_nonneg. destruct rs; [tauto|simpl; lia].
Qed.

(** ** degenerate data *)
Lemma asum_nan_l l : fold_left xadd l NaN = NaN.
Proof. induction l; auto. Qed.
Lemma vbR_zero n t : (t < n)%nat -> vbR (repeat 0 n) t = 0.
Proof.
  intros Ht. unfold vbR. rewrite repeat_length.
  assert (HV : Rvar (repeat 0 n) = 0).
  { destruct n; [lia|]. apply Rvar_zero_iff; [discriminate|].
    intros x Hx. apply repeat_spec in Hx as ->.
    assert (E : 0 <= Rmean (repeat 0 (S n)) <= 0); [|lra].
    apply Rmean_bounds; [discriminate|]. intros y Hy. apply repeat_spec in Hy as ->. lra. }
  rewrite HV.
  assert (HZ : forall i, nth i (repeat 0 n) 0 ^ 2 = 0).
  { intros i. destruct (Nat.lt_ge_cases i n).
    - rewrite (repeat_spec n 0 (nth i (repeat 0 n) 0)); [lra|]. apply nth_In. rewrite repeat_length; auto.
    - rewrite nth_overflow by (rewrite repeat_length; auto). lra. }
  assert (HE : nth t (ewmaR (94/100) (ew_average (Nat.min 75 n) (repeat 0 n)) (repeat 0 n)) 0 = 0).
  { assert (0 <= nth t (ewmaR (94/100) (ew_average (Nat.min 75 n) (repeat 0 n)) (repeat 0 n)) 0 <= 0); [|lra].
    apply ewmaR_range.
    - rewrite repeat_length; auto.
    - lra.
    - apply ew_average_range; [lia|]. intros i Hi. rewrite HZ; lra.
    - intros i Hi. rewrite HZ; lra. }
  rewrite HE. unfold Rmax. destruct (Rle_dec 0 (0 / 100000000)); lra.
Qed.
Lemma variance_bounds_zero n : (0 < n)%nat ->
  variance_bounds XRA (repeat (Fin 0) n) = Ok (repeat (Fin 0, Fin 0) n).
Proof.
  intros Hn.
  replace (repeat (Fin 0) n) with (map Fin (repeat 0 n)) by (clear; induction n; simpl; f_equal; auto).
  rewrite variance_bounds_fin by (destruct n; [lia|discriminate]). f_equal.
  rewrite repeat_length, map_map.
  rewrite (map_ext_in _ (fun _ => (Fin 0, Fin 0))).
  - clear Hn. generalize 0%nat at 1. induction n; intros; simpl; f_equal; auto.
  - intros t Ht. apply in_seq in Ht. rewrite vbR_zero by lia. unfold finrow; cbn. f_equal; f_equal; lra.
Qed.

Lemma grid_search_none A score ml init cands :
  (forall c, In c cands -> exists v, score c = Ok v /\ nltb ml (nopp v) = false) ->
  grid_search A score ml cands init = Ok init.
Proof.
  induction cands as [|c cs IH]; intros H; simpl; auto.
  destruct (H c) as (v & E & Hv); simpl; auto. rewrite E; simpl. rewrite Hv. apply IH.
  intros; apply H; simpl; auto.
Qed.

(** all-zero residuals, zero variance: log-likelihood of every candidate is NaN *)
Lemma start_degenerate k n m returns : (0 < n)%nat -> (n <= m)%nat -> returns <> [] -> Rvar returns = 0 ->
  starting_values XRA k (map Fin returns) (repeat (Fin 0) n) (Fin 0) (repeat (Fin 0, Fin 0) m) = Ok [].
Proof.
  intros Hn Hm Hr Hv. unfold starting_values. rewrite avar_fin by auto. rewrite Hv, cand_fin.
  apply grid_search_none. intros c Hc. apply in_map_iff in Hc as (ps & <- & Hps).
  destruct (candR_props k 0 ps Hps) as (HL & (p & Hp & E0 & _) & _).
  destruct (cv_total XRA k (map Fin ps) (repeat (Fin 0) n) (Fin 0) (repeat (Fin 0, Fin 0) m)) as [s E].
  - rewrite map_length; auto.
  - destruct n; [lia|discriminate].
  - rewrite !repeat_length; auto.
  - destruct (cv_spec XRA k (map Fin ps) (repeat (Fin 0) n) (Fin 0) (repeat (Fin 0, Fin 0) m) s NaN (NaN,NaN) E) as (h1 & h2 & _).
    rewrite repeat_length in h1. destruct s as [|x s]; [simpl in h1; lia|]. simpl in h2. subst x.
    destruct n as [|n]; [lia|].
    assert (ES : s0_of XRA (map Fin ps) (Fin 0) = Fin 0).
    { destruct k; simpl in HL; repeat (destruct ps as [|? ps]; try discriminate HL); simpl in E0; cbn [map s0_of].
      - cbn. f_equal. rewrite E0. lra.
      - cbn [nadd nmul ndiv ofZ XRA]. rewrite xdiv_fin by lra. cbn. f_equal. rewrite E0. lra. }
    rewrite E. cbn [bind]. eexists; split; [reflexivity|].
    rewrite ES. unfold loglikelihood. cbn [repeat map2].
    assert (EL : loglik_term XRA (Fin 0) (Fin 0) = NaN).
    { unfold loglik_term. cbn [nopp lit nmul nlog nadd ndiv nsq ofZ npi XRA xopp xmul xsq].
      rewrite Rmult_0_l. rewrite xdiv_0, xsgn_inf_0, xlog_0.
      pose proof PI_RGT_0. rewrite xlog_fin by lra. reflexivity. }
    rewrite EL. cbn [asum XRA fold_left xadd]. rewrite asum_nan_l. reflexivity.
Qed.

(** ** fit *)
Section Fit.
Context (A : Arith).
Lemma prep_inv k st sv st1 : preparation A k st = Ok (sv, st1) ->
  st_returns A st1 = st_returns A st /\ st_zero_mean A st1 = st_zero_mean A st /\
  st_success A st1 = st_success A st /\ st_params A st1 = st_params A st /\
  st_resids A st1 = st_resids A st /\ st_ll_final A st1 = st_ll_final A st /\
  st_sigma2 A st1 = st_sigma2 A st.
Proof.
  unfold preparation. intros H.
  destruct (variance_bounds A _) as [vb|]; simpl in H; [|discriminate].
  destruct (starting_values A k _ _ _ _) as [vp|]; simpl in H; [|discriminate].
  injection H as <- <-. simpl. repeat split; reflexivity.
Qed.

Lemma fit_unfold k m st : ~ (k = KGarch /\ st_success A st = true) ->
  fit A k m st =
    bind (preparation A k st) (fun prep =>
      let st1 := snd prep in
      let opt := m (fst prep) (fit_bounds A k (st_zero_mean A st)) in
      bind (run_evals A k st1 (o_evals A opt) (st_sigma2 A st1)) (fun s2 =>
      if o_success A opt then
        bind (make_params A k (if st_zero_mean A st then ofZ 0 :: o_x A opt else o_x A opt) (nopp (o_fun A opt)))
        (fun ps => Ok (Some ps,
          {| st_returns := st_returns A st1; st_zero_mean := st_zero_mean A st1; st_success := true;
             st_ll_final := st_ll_final A st1; st_params := ps;
             st_resids := demean A (st_returns A st1) (p_mu A ps);
             st_sigma2 := s2; st_backcast := st_backcast A st1; st_bounds := st_bounds A st1 |}))
      else
        Ok (Some (st_params A st1),
          {| st_returns := st_returns A st1; st_zero_mean := st_zero_mean A st1;
             st_success := st_success A st1;
             st_ll_final := st_ll_final A st1; st_params := st_params A st1;
             st_resids := st_resids A st1;
             st_sigma2 := s2; st_backcast := st_backcast A st1; st_bounds := st_bounds A st1 |}))).
Proof. intros HC. unfold fit. destruct k, (st_success A st); try reflexivity. exfalso; apply HC; auto. Qed.

(** what one effective call (one that actually estimates) does *)
Lemma fit_inv k m st r st' : fit A k m st = Ok (r, st') ->
  (k = KGarch /\ st_success A st = true /\ r = None /\ st' = st) \/
  (~ (k = KGarch /\ st_success A st = true) /\
   exists sv st1 s2, preparation A k st = Ok (sv, st1) /\
     let opt := m sv (fit_bounds A k (st_zero_mean A st)) in
     run_evals A k st1 (o_evals A opt) (st_sigma2 A st1) = Ok s2 /\
     r = Some (st_params A st') /\ st_sigma2 A st' = s2 /\
     st_returns A st' = st_returns A st /\ st_zero_mean A st' = st_zero_mean A st /\
     st_backcast A st' = st_backcast A st1 /\ st_bounds A st' = st_bounds A st1 /\
     if o_success A opt then
       make_params A k (if st_zero_mean A st then ofZ 0 :: o_x A opt else o_x A opt) (nopp (o_fun A opt))
         = Ok (st_params A st') /\
       st_success A st' = true /\
       st_resids A st' = demean A (st_returns A st) (p_mu A (st_params A st'))
     else st_params A st' = st_params A st /\ st_success A st' = st_success A st /\
          st_resids A st' = st_resids A st).
Proof.
  intros H.
  assert (HC : (k = KGarch /\ st_success A st = true) \/ ~ (k = KGarch /\ st_success A st = true)).
  { destruct k, (st_success A st); auto; right; intros [? ?]; discriminate. }
  destruct HC as [[-> Hs]|HC].
  { left. unfold fit in H. rewrite Hs in H. injection H as <- <-. auto. }
  right. split; auto.
  rewrite (fit_unfold _ _ _ HC) in H.
  destruct (preparation A k st) as [[sv st1]|e] eqn:EP; cbn [bind fst snd] in H; [|discriminate].
  destruct (prep_inv _ _ _ _ EP) as (e1 & e2 & e3 & e4 & e5 & e6 & e7).
  exists sv, st1.
  destruct (run_evals A k st1 _ _) as [s2|e] eqn:ER; cbn [bind] in H; [|discriminate].
  exists s2. split; auto.
  set (opt := m sv (fit_bounds A k (st_zero_mean A st))) in *. cbv zeta.
  split; [exact ER|].
  destruct (o_success A opt) eqn:EO.
  - destruct (make_params A k _ _) as [ps|e] eqn:EM; cbn [bind] in H; [|discriminate].
    injection H as <- <-. cbn. rewrite <- e1, <- e2. repeat split; auto.
  - injection H as <- <-. cbn. rewrite <- e1, <- e2, <- e3, <- e4, <- e5. repeat split; auto.
Qed.

Lemma run_evals_last k st pts x s2 r : run_evals A k st (pts ++ [x]) s2 = Ok r ->
  exists f, objective A k st x = Ok (f, r).
Proof.
  revert s2; induction pts as [|y pts IH]; intros s2 H; simpl in H.
  - destruct (objective A k st x) as [[f s]|]; simpl in H; [|discriminate]. injection H as <-. eauto.
  - destruct (objective A k st y) as [[f s]|]; simpl in H; [|discriminate]. eauto.
Qed.

Lemma objective_ext k st st' x : st_returns A st = st_returns A st' ->
  st_zero_mean A st = st_zero_mean A st' -> st_backcast A st = st_backcast A st' ->
  st_bounds A st = st_bounds A st' -> objective A k st x = objective A k st' x.
Proof. intros H1 H2 H3 H4. unfold objective. rewrite H1, H2, H3, H4. reflexivity. Qed.

Lemma make_params_fields k xs ll ps : make_params A k xs ll = Ok ps ->
  length xs = nfields k -> p_fields A ps = xs /\ p_ll A ps = ll.
Proof.
  unfold make_params. intros H HL. destruct (nfields k <? length xs)%nat; [discriminate|].
  injection H as <-. simpl. rewrite HL, Nat.sub_diag. simpl. rewrite app_nil_r. auto.
Qed.

Lemma fits_garch_done ms st : st_success A st = true ->
  fits A KGarch ms st = Ok (repeat None (length ms), st).
Proof.
  intros H. induction ms as [|m ms IH]; cbn [fits length repeat]; auto.
  assert (E : fit A KGarch m st = Ok (None, st)) by (unfold fit; rewrite H; reflexivity).
  rewrite E. cbn [bind snd]. rewrite IH. reflexivity.
Qed.

Lemma fits_garch_history ms : forall st outs st', st_success A st = false ->
  fits A KGarch ms st = Ok (outs, st') ->
  exists f, 
    (st_success A st' = false /\ st_params A st' = st_params A st /\ outs = repeat (Some (st_params A st)) (length ms) /\ f = length ms)
    \/ (st_success A st' = true /\ (f < length ms)%nat /\
        outs = repeat (Some (st_params A st)) f ++ Some (st_params A st') :: repeat None (length ms - f - 1)).
Proof.
  induction ms as [|m ms IH]; intros st outs st' Hs H; cbn [fits] in H.
  - injection H as <- <-. exists 0%nat. left. auto.
  - destruct (fit A KGarch m st) as [[r st1]|] eqn:EF; cbn [bind fst snd] in H; [|discriminate].
    destruct (fits A KGarch ms st1) as [[q st2]|] eqn:EQ; cbn [bind fst snd] in H; [|discriminate].
    injection H as <- <-.
    destruct (fit_inv _ _ _ _ _ EF) as [(_ & Hbad & _)|(_ & sv & st0 & s2 & HP & HR)]; [congruence|].
    cbv zeta in HR. destruct HR as (_ & Hr & _ & _ & _ & _ & _ & HO).
    destruct (o_success A _).
    + destruct HO as (_ & Hs1 & _). rewrite (fits_garch_done ms st1 Hs1) in EQ. injection EQ as <- <-.
      exists 0%nat. right. split; auto. split; [simpl; lia|]. simpl. rewrite Nat.sub_0_r, Hr. reflexivity.
    + destruct HO as (Hp & Hs1 & _). rewrite Hs in Hs1.
      destruct (IH st1 q st2 Hs1 EQ) as (f & [(g1 & g2 & g3 & g4)|(g1 & g2 & g3)]).
      * exists (S f). left. repeat split; auto; [congruence| |simpl; lia].
        simpl. rewrite g3, Hr, Hp. reflexivity.
      * exists (S f). right. split; auto. split; [simpl; lia|].
        simpl. rewrite g3, Hr, Hp. reflexivity.
Qed.
End Fit.

(** ** nesting and comparison *)
Lemma path_le step step' s0 s0' rs rs' bs s s' :
  length rs = length rs' -> (length rs <= length bs)%nat -> Forall good_row (tl bs) ->
  variance_path step s0 rs bs s -> variance_path step' s0' rs' bs s' -> s0 <= s0' ->
  (forall t p p', (t < length rs)%nat -> p <= p' -> step p (nth t rs 0) <= step' p' (nth t rs' 0)) ->
  forall t, (t < length rs)%nat -> nth t s 0 <= nth t s' 0.
Proof.
  intros HL Hb HB (h1 & h2 & h3) (g1 & g2 & g3) H0 HS t.
  induction t as [|t IH]; intros Ht; [congruence|].
  rewrite h3, g3 by lia. apply clip_log_mono.
  - rewrite <- tl_nth. rewrite Forall_forall in HB. apply (HB (nth t (tl bs) (0,0))).
    apply nth_In. rewrite tl_length; lia.
  - apply HS; [lia|]. apply IH; lia.
Qed.
Lemma path_unique step s0 rs bs s s' : variance_path step s0 rs bs s -> variance_path step s0 rs bs s' -> s = s'.
Proof.
  intros (h1 & h2 & h3) (g1 & g2 & g3). apply (nth_ext _ _ 0 0); [congruence|].
  rewrite h1. intros t. induction t as [|t IH]; intros Ht; [congruence|].
  rewrite h3, g3 by auto. rewrite IH by lia. reflexivity.
Qed.

(** ** forecast *)
Fixpoint fcR (step : R -> R -> R) (prev : R) (rs : list R) : list R :=
  match rs with [] => [] | r :: rs' => step prev r :: fcR step (step prev r) rs' end.
Lemma forecast_fin o a g b : forall rs prev,
  forecast_loop XRA (Fin o) (Fin a) (Fin g) (Fin b) (Fin prev) (map Fin rs) = map Fin (fcR (gjr_update o a g b) prev rs).
Proof.
  induction rs as [|r rs IH]; intros prev; [reflexivity|].
  cbn [map forecast_loop fcR]. pose proof (lifts_gjr o a g b prev r) as E.
  cbv zeta. rewrite E. rewrite IH. reflexivity.
Qed.
Lemma fcR_length step rs : forall p, length (fcR step p rs) = length rs.
Proof. induction rs; intros; simpl; auto. Qed.
Lemma fcR_step step rs : forall p t, (t < length rs)%nat ->
  nth t (fcR step p rs) 0 = step (nth t (p :: fcR step p rs) 0) (nth t rs 0).
Proof. induction rs as [|r rs IH]; intros p [|t] Ht; simpl in *; try lia; auto. apply IH; lia. Qed.
