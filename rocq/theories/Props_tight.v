(** * Theorems added after mutation testing: optimizer constraints (C86), NaN residuals (C07), the CCC objective (C17),
      engine seeds (C60), PIN shapes (C56), parameter defaults (C85), residuals (C74) *)
From Coq Require Import Reals Lra List ZArith Lia Bool Psatz.
From Verif Require Import Arith XR RealAux Spec_garch Model_garch Proofs_garch2 Proofs_garch3 Proofs_garch4 Proofs_garch5 Props_garch Props_garch2 Model_mgarch Props_mgarch Props_mgarch2 Model_iforest Model_pin Model_merton Props_modmerton2.
Import ListNotations.
Local Open Scope R_scope.

(** ** C86: the inequality constraints are exactly mean stationarity *)
(** The next variance averaged over a shock of one standard deviation and its mirror image. *)
Definition mean_next (update : R -> R -> R) (v : R) : R := (update v (sqrt v) + update v (- sqrt v)) / 2.
(** variances do not grow on average *)
Definition not_explosive (omega : R) (update : R -> R -> R) : Prop := forall v, 0 < v -> mean_next update v <= omega + v.
Lemma mean_garch omega alpha beta v : 0 < v -> mean_next (garch_update omega alpha beta) v = omega + (alpha + beta) * v.
Proof.
  intros Hv. unfold mean_next, garch_update. replace ((- sqrt v) ^ 2) with (sqrt v ^ 2) by ring.
  replace (sqrt v ^ 2) with v by (simpl; rewrite Rmult_1_r, sqrt_sqrt; lra). field.
Qed.
Lemma mean_gjr omega alpha gamma beta v : 0 < v -> mean_next (gjr_update omega alpha gamma beta) v = omega + (alpha + gamma / 2 + beta) * v.
Proof.
  intros Hv. assert (S := sqrt_lt_R0 v Hv). unfold mean_next, gjr_update. destruct (Rlt_dec (sqrt v) 0); [lra|]. destruct (Rlt_dec (- sqrt v) 0); [|lra].
  replace ((- sqrt v) ^ 2) with (sqrt v ^ 2) by ring. replace (sqrt v ^ 2) with v by (simpl; rewrite Rmult_1_r, sqrt_sqrt; lra). field.
Qed.
Theorem C86_garch_constraint_is_stationarity pre omega alpha beta :
  xleb (Fin 0) (stationarity XRA KGarch (pre ++ [Fin omega; Fin alpha; Fin beta])) = true <-> not_explosive omega (garch_update omega alpha beta).
Proof.
  unfold stationarity. change (num XRA) with xr. rewrite rev_app_distr. cbn [rev app nsub nadd ofZ XRA xsub xadd]. rewrite xleb_iff. split.
  - intros H v Hv. rewrite mean_garch by auto. nra.
  - intros H. specialize (H 1 ltac:(lra)). rewrite mean_garch in H by lra. lra.
Qed.
Theorem C86_gjr_constraint_is_stationarity pre omega alpha gamma beta :
  xleb (Fin 0) (stationarity XRA KGjr (pre ++ [Fin omega; Fin alpha; Fin gamma; Fin beta])) = true <-> not_explosive omega (gjr_update omega alpha gamma beta).
Proof.
  unfold stationarity. change (num XRA) with xr. rewrite rev_app_distr. cbn [rev app nsub nadd ndiv ofZ XRA xsub xadd]. rewrite xdiv_fin by lra. cbn [xsub xadd]. rewrite xleb_iff. split.
  - intros H v Hv. rewrite mean_gjr by auto. nra.
  - intros H. specialize (H 1 ltac:(lra)). rewrite mean_gjr in H by lra. lra.
Qed.
(** the GJR estimates of an optimizer that keeps its promises *)
Theorem C86_gjr_estimates m st r st' omega alpha gamma beta :
  fit XRA KGjr m st = Ok (r, st') -> st_success XRA st = false ->
  (forall sv b, solver_contract KGjr st' (m sv b)) ->
  variance_params (st_params XRA st') = [Fin omega; Fin alpha; Fin gamma; Fin beta] ->
  1/1000000 <= omega /\ 1/1000000 <= alpha <= 1 /\ 1/1000000 <= gamma <= 1 /\ 1/1000000 <= beta <= 1 /\ not_explosive omega (gjr_update omega alpha gamma beta).
Proof.
  intros H Hs HC HV.
  destruct (fit_inv XRA _ _ _ _ _ H) as [(? & ? & _)|(_ & sv & st1 & s2 & HP & HR)]; [congruence|].
  cbv zeta in HR. destruct HR as (_ & Hr & _ & Hret & Hzm & _ & _ & HO).
  destruct (HC sv (fit_bounds XRA KGjr (st_zero_mean XRA st))) as (Hok & HB & HS & _).
  set (opt := m sv (fit_bounds XRA KGjr (st_zero_mean XRA st))) in *.
  rewrite Hok in HO. destruct HO as (HM & _ & _). rewrite Hzm in HB.
  pose proof (Forall2_len _ _ _ HB) as HLb.
  assert (HL : length (if st_zero_mean XRA st then Fin 0 :: o_x XRA opt else o_x XRA opt) = nfields KGjr).
  { destruct (st_zero_mean XRA st); cbn in *; rewrite HLb; reflexivity. }
  destruct (make_params_fields XRA _ _ _ _ HM HL) as [HPF _].
  unfold variance_params in HV. rewrite HPF in HV.
  assert (exists pre, o_x XRA opt = pre ++ [Fin omega; Fin alpha; Fin gamma; Fin beta]) as [pre EX].
  { destruct (st_zero_mean XRA st).
    - exists []. exact HV.
    - destruct (o_x XRA opt) as [|x l]; [discriminate HL|]. exists [x]. cbn [tl] in HV. rewrite HV. reflexivity. }
  assert (HB3 : Forall2 (fun x b => xleb (fst b) x = true /\ xleb x (snd b) = true)
     [Fin omega; Fin alpha; Fin gamma; Fin beta] [(Fin (1/1000000), PInf); (Fin (1/1000000), Fin 1); (Fin (1/1000000), Fin 1); (Fin (1/1000000), Fin 1)]).
  { destruct (st_zero_mean XRA st); cbn [fit_bounds tl] in HB.
    - rewrite <- HV. exact HB.
    - destruct (o_x XRA opt) as [|x l]; [discriminate HL|]. cbn [tl] in HV.
      inversion HB; subst. assumption. }
  inversion HB3 as [|? ? ? ? [a1 _] HB2]; subst. inversion HB2 as [|? ? ? ? [b1 b2] HB1]; subst.
  inversion HB1 as [|? ? ? ? [c1 c2] HB0]; subst. inversion HB0 as [|? ? ? ? [d1 d2] _]; subst. cbn [fst snd] in *.
  apply xleb_iff in a1, b1, b2, c1, c2, d1, d2. rewrite EX in HS. apply C86_gjr_constraint_is_stationarity in HS. repeat split; auto.
Qed.

(** CCC: each component stationary, the correlation within 0.99 of zero *)
Definition ccc_point (mu1 o1 a1 b1 mu2 o2 a2 b2 rho : R) : list xr :=
  [Fin mu1; Fin o1; Fin a1; Fin b1; Fin mu2; Fin o2; Fin a2; Fin b2; Fin rho].
Definition in_box (x : list xr) (b : list (xr * xr)) : Prop := Forall2 (fun x b => xleb (fst b) x = true /\ xleb x (snd b) = true) x b.
Theorem C86_ccc_feasible_set mu1 o1 a1 b1 mu2 o2 a2 b2 rho :
  let x := ccc_point mu1 o1 a1 b1 mu2 o2 a2 b2 rho in
  (in_box x (ccc_bounds XRA) /\ Forall (fun c => xleb (Fin 0) c = true) (ccc_constraints XRA x)) <->
  (1/1000000 <= o1 /\ 1/1000000 <= o2 /\ 0 <= a1 <= 1 /\ 0 <= b1 <= 1 /\ 0 <= a2 <= 1 /\ 0 <= b2 <= 1 /\ -99/100 <= rho <= 99/100 /\
   not_explosive o1 (garch_update o1 a1 b1) /\ not_explosive o2 (garch_update o2 a2 b2)).
Proof.
  intros x.
  assert (S : forall o a b, not_explosive o (garch_update o a b) <-> a + b <= 1).
  { intros o a b. split; intros H; [|intros v Hv; rewrite mean_garch by auto; nra]. specialize (H 1 ltac:(lra)). rewrite mean_garch in H by lra. lra. }
  rewrite !S. unfold x, ccc_point, ccc_bounds, ccc_constraints, in_box. cbn [app nopp npinf lit ofZ nsub nadd XRA xopp xsub xadd].
  split.
  - intros [HB HC]. repeat match goal with H : Forall2 _ (_ :: _) _ |- _ => inversion H; clear H; subst end.
    repeat match goal with H : Forall _ (_ :: _) |- _ => inversion H; clear H; subst end. cbn [fst snd] in *.
    repeat match goal with H : _ /\ _ |- _ => destruct H end.
    repeat match goal with H : xleb (Fin _) (Fin _) = true |- _ => apply xleb_iff in H end. lra.
  - intros H. split; repeat constructor; cbn [fst snd]; try reflexivity; apply xleb_true; lra.
Qed.
(** the estimates of an optimizer whose successful answers are feasible *)
Theorem C86_ccc_estimates s1 s2 mini o p o' mu1 o1 a1 b1 mu2 o2 a2 b2 rho :
  (forall sv, o_success XRA (mini sv) = true -> in_box (o_x XRA (mini sv)) (ccc_bounds XRA) /\ Forall (fun c => xleb (Fin 0) c = true) (ccc_constraints XRA (o_x XRA (mini sv)))) ->
  c_success XRA o = false -> ccc_fit XRA s1 s2 mini o = Ok (p, o') -> c_success XRA o' = true ->
  c_fields XRA o' = ccc_point mu1 o1 a1 b1 mu2 o2 a2 b2 rho ->
  -99/100 <= rho <= 99/100 /\ not_explosive o1 (garch_update o1 a1 b1) /\ not_explosive o2 (garch_update o2 a2 b2) /\ 0 < o1 /\ 0 < o2 /\ 0 <= a1 /\ 0 <= b1 /\ 0 <= a2 /\ 0 <= b2.
Proof.
  intros HC Hs H Ht HF. destruct (C20_ccc_reports_the_solver_vector XRA s1 s2 mini o p o' Hs H) as (r & start & _ & _ & E & HI).
  rewrite Ht in E. rewrite <- E in HI. destruct HI as [_ HI]. destruct (HC start (eq_sym E)) as [HB HK].
  assert (HL : length (o_x XRA (mini start)) = 9%nat) by (exact (Forall2_len _ _ _ HB)).
  specialize (HI HL). rewrite HF in HI. change (num XRA) with xr in *. rewrite <- HI in HB, HK.
  destruct (proj1 (C86_ccc_feasible_set mu1 o1 a1 b1 mu2 o2 a2 b2 rho) (conj HB HK)) as (? & ? & ? & ? & ? & ? & ? & ? & ?). repeat split; try tauto; lra.
Qed.
(** DCC: a, b in [0,1] with a + b <= 1 *)
Theorem C86_dcc_feasible_set a b :
  (in_box [Fin a; Fin b] (dcc_bounds XRA) /\ xleb (Fin 0) (dcc_constraint XRA [Fin a; Fin b]) = true) <-> (0 <= a /\ 0 <= b /\ a + b <= 1).
Proof.
  unfold in_box, dcc_bounds, dcc_constraint. cbn [ofZ nsub nadd XRA xsub xadd]. rewrite xleb_iff. split.
  - intros [HB HC]. repeat match goal with H : Forall2 _ (_ :: _) _ |- _ => inversion H; clear H; subst end. cbn [fst snd] in *.
    repeat match goal with H : _ /\ _ |- _ => destruct H end.
    repeat match goal with H : xleb (Fin _) (Fin _) = true |- _ => apply xleb_iff in H end. lra.
  - intros H. split; [repeat constructor; cbn [fst snd]; apply xleb_true; lra|lra].
Qed.
Theorem C86_dcc_estimates k cpp m1 m2 mini o o' :
  (forall sv, o_success XRA (mini sv) = true -> in_box (o_x XRA (mini sv)) (dcc_bounds XRA) /\ xleb (Fin 0) (dcc_constraint XRA (o_x XRA (mini sv))) = true) ->
  d_success XRA o = false -> dcc_fit XRA k cpp m1 m2 mini o = Ok o' -> d_success XRA o' = true ->
  exists a b, d_a XRA o' = Fin a /\ d_b XRA o' = Fin b /\ 0 <= a /\ 0 <= b /\ a + b <= 1.
Proof.
  intros HC Hs H Ht. unfold dcc_fit in H. rewrite Hs in H.
  destruct (fit XRA k m1 (fst (d_models XRA o))) as [r1|]; cbn [bind] in H; [|discriminate].
  destruct (fit XRA k m2 (snd (d_models XRA o))) as [r2|]; cbn [bind] in H; [|discriminate].
  destruct (dcc_starting_values XRA k cpp m1 m2 (snd r1, snd r2)) as [sv|]; cbn [bind] in H; [|discriminate].
  destruct (dcc_evals XRA k cpp m1 m2 _ _) as [ms'|]; cbn [bind] in H; [|discriminate].
  destruct (o_success XRA (mini [fst (fst sv); snd (fst sv)])) eqn:E; [|injection H as <-; discriminate Ht].
  destruct (HC _ E) as [HB HK]. destruct (o_x XRA (mini [fst (fst sv); snd (fst sv)])) as [|x [|y [|? ?]]]; try discriminate. injection H as <-. cbn [d_a d_b].
  assert (HF : exists a b, x = Fin a /\ y = Fin b).
  { unfold in_box, dcc_bounds in HB. repeat match goal with H : Forall2 _ (_ :: _) _ |- _ => inversion H; clear H; subst end. cbn [fst snd ofZ XRA] in *.
    repeat match goal with H : _ /\ _ |- _ => destruct H end. destruct x, y; try discriminate. eauto. }
  destruct HF as (a & b & -> & ->). exists a, b. split; [reflexivity|]. split; [reflexivity|]. apply C86_dcc_feasible_set. auto.
Qed.
Example C86_case : not_explosive 1 (gjr_update 1 (1/10) (1/5) (8/10)) /\ ~ not_explosive 1 (gjr_update 1 (1/10) (1/5) (9/10)).
Proof.
  split; [intros v Hv; rewrite mean_gjr by auto; nra|]. intros H. specialize (H 1 ltac:(lra)). rewrite mean_gjr in H by lra. lra.
Qed.

(** ** C60: every two threads that grow a tree seed their engines differently, whatever the seed, the data and the engine *)
Theorem C60_distinct_engine_seeds : forall nObs forestSize randomSeed workers,
  exists s : nat -> nat,
    (forall i j, (i < workers)%nat -> (j < workers)%nat -> i <> j -> (0 < jobs_of forestSize workers i)%nat -> (0 < jobs_of forestSize workers j)%nat -> s i <> s j) /\
    forall A (d : dataset A) rg treeSize i, n_obs A d = nObs -> (i < workers)%nat ->
      nth i (all_workers_trees A d rg treeSize forestSize randomSeed workers) [] =
      worker_loop A d rg (maxTreeHeight treeSize) (jobs_of forestSize workers i) [] (seed_gen rg (s i)).
Proof.
  intros nObs forestSize randomSeed workers. exists (fun i => i * jobs_of forestSize workers i + random_offset nObs randomSeed)%nat. split.
  - intros i j Hi Hj Hij Pi Pj. unfold jobs_of in *. destruct i as [|i], j as [|j]; cbn [Nat.eqb] in *; try lia; nia.
  - intros A d rg treeSize i HN Hi. unfold all_workers_trees. rewrite (nth_indep _ _ ((fun i => worker_trees A d rg treeSize randomSeed i (jobs_of forestSize workers i)) 0%nat)) by (rewrite map_length, seq_length; auto).
    rewrite (map_nth (fun i => worker_trees A d rg treeSize randomSeed i (jobs_of forestSize workers i))), seq_nth by auto. cbn [Nat.add]. unfold worker_trees. rewrite HN. reflexivity.
Qed.

(** ** C56: buys and sells must have the same shape *)
Theorem C56_shape_mismatch : forall A (B S : list (num A)), length B <> length S -> new_PIN A B S = Err AssertionError.
Proof. intros A B S H. unfold new_PIN. apply Nat.eqb_neq in H. rewrite H. reflexivity. Qed.
Theorem C56_new_object : forall A (B S : list (num A)), length B = length S ->
  exists o, new_PIN A B S = Ok o /\ pin_B A o = B /\ pin_S A o = S /\ estimation_success A o = false.
Proof. intros A B S H. unfold new_PIN. apply Nat.eqb_eq in H. rewrite H. eexists. repeat split. Qed.

(** ** C85: the growth rate defaults to 0 and further list entries are ignored *)
Theorem C85_growth_defaults_to_zero : forall A spectral round9 as_int solve fs params N w, length params = 10%nat ->
  mod_single_cohort_computation A spectral round9 as_int solve fs params N w = mod_single_cohort_computation A spectral round9 as_int solve fs (params ++ [ofZ 0]) N w /\
  mod_merton_computation A spectral round9 as_int solve fs params N w = mod_merton_computation A spectral round9 as_int solve fs (params ++ [ofZ 0]) N w.
Proof.
  intros A sp r9 ai so fs ps N w H. do 10 (destruct ps as [|? ps]; [discriminate|]). destruct ps; [|discriminate]. split; reflexivity.
Qed.
Theorem C85_extra_parameters_ignored : forall A spectral round9 as_int solve fs params more N w, length params = 11%nat ->
  mod_single_cohort_computation A spectral round9 as_int solve fs (params ++ more) N w = mod_single_cohort_computation A spectral round9 as_int solve fs params N w /\
  mod_merton_computation A spectral round9 as_int solve fs (params ++ more) N w = mod_merton_computation A spectral round9 as_int solve fs params N w.
Proof.
  intros A sp r9 ai so fs ps more N w H. do 11 (destruct ps as [|? ps]; [discriminate|]). destruct ps; [|discriminate]. split; reflexivity.
Qed.
Theorem C85_too_few_parameters : forall A spectral round9 as_int solve fs params N w, (length params < 10)%nat ->
  mod_single_cohort_computation A spectral round9 as_int solve fs params N w = Err IndexError /\
  mod_merton_computation A spectral round9 as_int solve fs params N w = Err IndexError.
Proof.
  intros A sp r9 ai so fs ps N w H. do 10 (destruct ps as [|? ps]; [split; reflexivity|]). cbn [length] in H. lia.
Qed.

(** ** C74: the returned vectors vanish exactly when the model reproduces the observed equity values and volatilities *)
Definition vanishes (l : list xr) : Prop := Forall (fun x => x = Fin 0) l.
Lemma sub_vanishes E X : length E = length X -> vanishes (map2 (nsub (a := XRA)) (map Fin E) (map Fin X)) <-> E = X.
Proof.
  unfold vanishes. revert X. induction E as [|e E IH]; intros [|x X] HL; cbn in *; try discriminate; [split; auto|].
  injection HL as HL. specialize (IH X HL). cbn in IH. split.
  - intros H. inversion H as [|? ? H1 H2]; subst. injection H1 as H1. apply IH in H2. f_equal; auto. lra.
  - intros H. injection H as -> ->. constructor; [f_equal; ring|]. apply IH. reflexivity.
Qed.
Theorem C74_residuals : forall compute fs b1 params E sigE m Et sigEt, (2 < length params)%nat ->
  compute fs (set_nth params 2 (Fin b1)) = Ok m -> b_Et XRA (m_bank XRA m) = map Fin Et -> b_sigEt XRA (m_bank XRA m) = map Fin sigEt ->
  length E = length Et -> length sigE = length sigEt ->
  exists dE dsig, mod_single_cohort_solution XRA compute (Vector XRA fs) (Fin b1) params (map Fin E) (map Fin sigE) = (set_nth params 2 (Fin b1), Ok (dE, dsig)) /\
    (vanishes dE <-> E = Et) /\ (vanishes dsig <-> sigE = sigEt).
Proof.
  intros comp fs b1 ps E sE m Et sEt HL HC H1 H2 L1 L2. unfold mod_single_cohort_solution. change (num XRA) with xr in *. destruct (Nat.ltb_spec 2 (length ps)); [|lia].
  rewrite HC. cbn [bind]. rewrite H1, H2. eexists _, _. split; [reflexivity|]. split; apply sub_vanishes; auto.
Qed.

(** ** C07: one NaN residual makes every bound NaN *)
Lemma npclip_nan_lo v hi : npclip XRA v NaN hi = NaN.
Proof. unfold npclip, npmax, npmin. destruct v; reflexivity. Qed.
Lemma asum_nan_in l : In NaN l -> fold_left xadd l (Fin 0) = NaN.
Proof.
  generalize (Fin 0). induction l as [|x l IH]; intros a H; [destruct H|]. cbn [fold_left]. destruct H as [->|H]; [|apply IH; auto].
  destruct a; apply asum_nan_l.
Qed.
Lemma amean_nan l : In NaN l -> amean XRA l = NaN.
Proof.
  intros H. unfold amean. cbn [asum XRA ndiv]. assert (E : asum (a := XRA) l = NaN) by (apply asum_nan_in; auto). cbn [asum XRA] in E. rewrite E. reflexivity.
Qed.
Lemma avar_nan l : In NaN l -> avar XRA l = NaN.
Proof.
  intros H. unfold avar. apply amean_nan. apply in_map_iff. exists NaN. split; auto.
Qed.
Lemma Ok_inj {X} (x y : X) : Ok x = Ok y -> x = y.
Proof. congruence. Qed.
Theorem C07_nan_residual resids b : In NaN resids -> variance_bounds XRA resids = Ok b -> length b = length resids /\ Forall (fun r => r = (NaN, NaN)) b.
Proof.
  intros HN H. unfold variance_bounds in H. rewrite (avar_nan _ HN) in H. destruct resids as [|r rs]; [destruct HN|]. unfold ewma_py in H. cbn [bind] in H.
  destruct (amax XRA _) as [mx|]; cbn [bind] in H; [|discriminate]. apply Ok_inj in H. subst b. split.
  - change (num XRA) with xr. do 2 (erewrite map_length). cbn [length].
    match goal with |- context[ewma_loop XRA ?l ?p ?x] => assert (EL := ewma_loop_length XRA l x p) end.
    assert (ER := removelast_length (map (nsq (a := XRA)) (r :: rs))). assert (EM := map_length (nsq (a := XRA)) (r :: rs)). cbn [length] in EM. change (num XRA) with xr in *.
    rewrite EL. rewrite ER, EM. lia.
  - apply Forall_forall. intros [x y] Hin. apply in_map_iff in Hin as (v & E & Hv). apply in_map_iff in Hv as (u & <- & _). rewrite <- E. cbn [ndiv XRA xdiv]. rewrite npclip_nan_lo. reflexivity.
Qed.

(** ** C17: the CCC objective prices each series with its own mean and variances *)
(** what the univariate model computes for returns [r] at (mu, omega, alpha, beta): residuals r - mu and their conditional variances [s] *)
Definition own_variances (r : list R) (mu omega alpha beta : R) (s : list R) : Prop :=
  let resids := map (fun x => Fin (x - mu)) r in
  exists vb, variance_bounds XRA resids = Ok vb /\ garch_variance_py XRA [Fin omega; Fin alpha; Fin beta] resids (backcast_py XRA resids) vb = Ok (map Fin s).
Lemma demean_fin r mu : demean XRA (map Fin r) (Fin mu) = map Fin (map (fun x => x - mu) r).
Proof. unfold demean. change (num XRA) with xr. rewrite !map_map. reflexivity. Qed.
Theorem C17_objective : forall r1 r2 mu1 o1 a1 b1 mu2 o2 a2 b2 rho s1 s2 bc1 bc2 vb1 vb2,
  own_variances r1 mu1 o1 a1 b1 s1 -> own_variances r2 mu2 o2 a2 b2 s2 ->
  length r1 = length s1 -> length r2 = length s2 -> length r1 = length r2 -> positive s1 -> positive s2 -> -1 < rho < 1 ->
  ccc_objective XRA (map Fin r1) (map Fin r2) (ccc_point mu1 o1 a1 b1 mu2 o2 a2 b2 rho) bc1 bc2 vb1 vb2 =
  Ok (Fin (- sum4 (fun x v y w => ln (bivariate_density v w rho x y)) (map (fun x => x - mu1) r1) s1 (map (fun x => x - mu2) r2) s2)).
Proof.
  intros r1 r2 mu1 o1 a1 b1 mu2 o2 a2 b2 rho s1 s2 bc1 bc2 vb1 vb2 (w1 & V1 & G1) (w2 & V2 & G2) L1 L2 L12 P1 P2 Hr.
  unfold ccc_objective, ccc_point. rewrite !demean_fin. rewrite <- map_map in V1, V2, G1, G2. change (num XRA) with xr in *.
  rewrite V1. cbn [bind]. rewrite V2. cbn [bind]. rewrite G1. cbn [bind]. rewrite G2. cbn [bind].
  rewrite C17_bivariate_normal_loglik; auto; rewrite ?map_length; auto.
Qed.
(** these variances exist and are positive as soon as one return differs from the mean *)
Theorem C17_own_variances_exist : forall r mu omega alpha beta, (exists x, In x r /\ x <> mu) -> 0 < omega -> 0 <= alpha -> 0 <= beta ->
  exists s, own_variances r mu omega alpha beta s /\ length r = length s /\ positive s.
Proof.
  intros r mu omega alpha beta (x & Hx & Hne) Ho Ha Hb. set (rs := map (fun x => x - mu) r).
  assert (Hn : rs <> []) by (unfold rs; destruct r; [destruct Hx|discriminate]).
  destruct (C07_variance_bounds rs Hn) as (v & e & _ & E & L & _ & G).
  assert (HG : Forall good_row v).
  { apply Forall_forall. intros b Hb'. destruct (In_nth _ _ (0, 0) Hb') as (t & Ht & <-). rewrite L in Ht.
    destruct (G (ex_intro _ (x - mu) (conj (in_map (fun x => x - mu) _ _ Hx) (Rminus_eq_contra _ _ Hne))) t Ht) as [G1 _]. unfold good_row. lra. }
  assert (HW : 0 <= ew_average (Nat.min 75 (length rs)) rs) by (apply ew_average_nonneg; destruct rs; [tauto|cbn [length]; lia]).
  destruct (C01_garch_variance_positive omega alpha beta (ew_average (Nat.min 75 (length rs)) rs) rs v) as (s & HV & LS & HP & _); auto.
  exists s. split; [|split; [rewrite LS; unfold rs; rewrite map_length; reflexivity|exact HP]].
  exists (map finrow v). rewrite <- map_map. fold rs. split; [exact E|]. rewrite backcast_fin by auto. exact HV.
Qed.
