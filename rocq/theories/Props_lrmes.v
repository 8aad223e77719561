(** * Properties C21, C22, C23: long-run marginal expected shortfall *)
From Coq Require Import Reals Lra Lia ZArith List Bool Permutation.
From Verif Require Import Arith XR RealAux Model_garch Spec_garch Proofs_garch3 Model_ar Props_ar Model_mgarch Props_mgarch Model_lrmes.
Import ListNotations.
Local Open Scope R_scope.

(** ** Specification: the simulated GJR-DCC process, in plain reals *)
Record gjr := { mu : R; omega : R; alpha : R; gamma : R; beta : R }.
(** residuals and variances of firm and market, and the matrix Q (firm-firm, firm-market, market-market) *)
Record point := { e_firm : R; e_mkt : R; v_firm : R; v_mkt : R; Qmat : Q3 }.
Record setting := { firm : gjr; mkt : gjr; dcc_a : R; dcc_b : R; Qbar : Q3; today : point }.
Definition corr (p : point) : R := corr_of (Qmat p).
Definition z_firm (p : point) : R := e_firm p / sqrt (v_firm p).
Definition z_mkt (p : point) : R := e_mkt p / sqrt (v_mkt p).
(** tomorrow, given a firm shock [xi] orthogonal to the market shock [z] *)
Definition tomorrow (s : setting) (p : point) (xi z : R) : point :=
  let vi := gjr_update (omega (firm s)) (alpha (firm s)) (gamma (firm s)) (beta (firm s)) (v_firm p) (e_firm p) in
  let vm := gjr_update (omega (mkt s)) (alpha (mkt s)) (gamma (mkt s)) (beta (mkt s)) (v_mkt p) (e_mkt p) in
  let Q := Qnext (dcc_a s) (dcc_b s) (Qbar s) (Qmat p) (z_firm p, z_mkt p) in
  let rho := corr_of Q in
  {| e_firm := sqrt vi * (rho * z + sqrt (1 - rho ^ 2) * xi); e_mkt := sqrt vm * z; v_firm := vi; v_mkt := vm; Qmat := Q |}.
Fixpoint path (s : setting) (p : point) (shocks : list (R * R)) : list point :=
  match shocks with
  | [] => []
  | (xi, z) :: rest => let p' := tomorrow s p xi z in p' :: path s p' rest
  end.
(** simple returns over the horizon; daily log returns are mu + residual, in percent *)
Definition market_return (s : setting) (shocks : list (R * R)) : R :=
  exp (Rsum (map (fun p => (mu (mkt s) + e_mkt p) / 100) (path s (today s) shocks))) - 1.
Definition firm_return (s : setting) (shocks : list (R * R)) : R :=
  exp (Rsum (map (fun p => (mu (firm s) + e_firm p) / 100) (path s (today s) shocks))) - 1.
(** admissible parameters *)
Definition good_gjr (g : gjr) : Prop := 0 < omega g /\ 0 <= alpha g /\ 0 <= gamma g /\ 0 <= beta g.
Definition sound (p : point) : Prop := 0 < v_firm p /\ 0 < v_mkt p /\ pd (Qmat p).
Definition good_setting (s : setting) : Prop :=
  good_gjr (firm s) /\ good_gjr (mkt s) /\ admissible (dcc_a s) (dcc_b s) /\
  (exists r, -1 <= r <= 1 /\ Qbar s = (1, r, 1)) /\
  (exists r, -1 <= r <= 1 /\ Qmat (today s) = (1, r, 1)) /\ 0 < v_firm (today s) /\ 0 < v_mkt (today s).
(** the inputs of the code that describe a setting *)
Definition fin_gjr (g : gjr) : gjr_params XRA := Build_gjr_params XRA (Fin (mu g)) (Fin (omega g)) (Fin (alpha g)) (Fin (gamma g)) (Fin (beta g)).
Definition q11 (Q : Q3) := fst (fst Q).
Definition q12 (Q : Q3) := snd (fst Q).
Definition q22 (Q : Q3) := snd Q.
Definition inputs (s : setting) : sim_inputs XRA :=
  Build_sim_inputs XRA (Fin (v_firm (today s))) (Fin (v_mkt (today s))) (Fin (e_firm (today s))) (Fin (e_mkt (today s)))
    (Fin (dcc_a s)) (Fin (dcc_b s)) (Fin (q12 (Qmat (today s)))) (Fin (q11 (Qbar s))) (Fin (q22 (Qbar s))) (Fin (q12 (Qbar s)))
    (fin_gjr (firm s)) (fin_gjr (mkt s)).
Definition fin_shocks (l : list (R * R)) : list (xr * xr) := map (fun x => (Fin (fst x), Fin (snd x))) l.

(** ** Positivity *)
Lemma pd_corr r : -1 <= r <= 1 -> pd (1, r, 1).
Proof. intros H. cbn. nra. Qed.
Lemma gjr_update_pos om al ga be v e : 0 < om -> 0 <= al -> 0 <= ga -> 0 <= be -> 0 < v -> 0 < gjr_update om al ga be v e.
Proof.
  intros H1 H2 H3 H4 H5. unfold gjr_update. assert (0 <= e ^ 2) by (cbn; nra).
  assert (0 <= be * v) by (apply Rmult_le_pos; lra).
  destruct (Rlt_dec e 0); [assert (0 <= (al + ga) * e ^ 2) by (apply Rmult_le_pos; lra)|assert (0 <= (al + 0) * e ^ 2) by (apply Rmult_le_pos; lra)]; lra.
Qed.
Lemma tomorrow_sound s p xi z : good_setting s -> sound p -> sound (tomorrow s p xi z).
Proof.
  intros (G1 & G2 & HA & (r & Hr & EQ) & _) (P1 & P2 & P3). split; [|split].
  - apply gjr_update_pos; try apply G1; auto.
  - apply gjr_update_pos; try apply G2; auto.
  - cbn [tomorrow Qmat]. apply pd_next; auto. rewrite EQ. apply pd_corr; auto.
Qed.
Lemma path_sound s shocks : good_setting s -> forall p, sound p -> Forall sound (path s p shocks).
Proof.
  intros HG. induction shocks as [|[xi z] shocks IH]; intros p HP; cbn [path]; constructor; [|apply IH]; apply tomorrow_sound; auto.
Qed.
Lemma today_sound s : good_setting s -> sound (today s).
Proof. intros (_ & _ & _ & _ & (r & Hr & EQ) & H1 & H2). split; [auto|split; [auto|]]. rewrite EQ. apply pd_corr; auto. Qed.

(** ** The code's loop computes this process *)
Definition fin_state (p : point) : sim_state XRA :=
  Build_sim_state XRA (Fin (e_firm p)) (Fin (e_mkt p)) (Fin (v_firm p)) (Fin (v_mkt p)) (Fin (z_firm p)) (Fin (z_mkt p))
    (Fin (q11 (Qmat p))) (Fin (q22 (Qmat p))) (Fin (q12 (Qmat p))).
Lemma var_py_fin g v e :
  xadd (xadd (xadd (g_omega XRA (fin_gjr g)) (xmul (g_alpha XRA (fin_gjr g)) (xsq (Fin e)))) (xmul (g_beta XRA (fin_gjr g)) (Fin v)))
       (if xltb (Fin e) (Fin 0) then xmul (g_gamma XRA (fin_gjr g)) (xsq (Fin e)) else Fin 0)
  = Fin (gjr_update (omega g) (alpha g) (gamma g) (beta g) v e).
Proof.
  unfold gjr_update, fin_gjr. cbn [g_omega g_alpha g_beta g_gamma xsq xmul xadd xltb].
  destruct (Rlt_dec e 0); cbn [xadd]; f_equal; ring.
Qed.
Lemma var_cpp_fin g v e :
  (let x := xadd (xadd (g_omega XRA (fin_gjr g)) (xmul (g_alpha XRA (fin_gjr g)) (xsq (Fin e)))) (xmul (g_beta XRA (fin_gjr g)) (Fin v)) in
   if xltb (Fin e) (Fin 0) then xadd x (xmul (g_gamma XRA (fin_gjr g)) (xsq (Fin e))) else x)
  = Fin (gjr_update (omega g) (alpha g) (gamma g) (beta g) v e).
Proof.
  unfold gjr_update, fin_gjr. cbn [g_omega g_alpha g_beta g_gamma xsq xmul xadd xltb]. cbv zeta.
  destruct (Rlt_dec e 0); cbn [xadd]; f_equal; ring.
Qed.
Definition step_of (cpp : bool) := if cpp then sim_step_cpp XRA else sim_step_py XRA.
Lemma step_fin cpp s p xi z : good_setting s -> sound p ->
  step_of cpp (fin_gjr (firm s)) (fin_gjr (mkt s)) (Fin (dcc_a s)) (Fin (dcc_b s)) (Fin (q11 (Qbar s))) (Fin (q22 (Qbar s))) (Fin (q12 (Qbar s))) (fin_state p) (Fin xi, Fin z)
  = let p' := tomorrow s p xi z in ((Fin (mu (mkt s) + e_mkt p'), Fin (mu (firm s) + e_firm p')), fin_state p').
Proof.
  intros HG HP. assert (HP' := tomorrow_sound s p xi z HG HP). cbv zeta.
  assert (HQ : pd (Qmat (tomorrow s p xi z))) by apply HP'.
  assert (HV1 : 0 < v_firm (tomorrow s p xi z)) by apply HP'. assert (HV2 : 0 < v_mkt (tomorrow s p xi z)) by apply HP'.
  assert (HC := corr_range _ HQ).
  set (p' := tomorrow s p xi z) in *.
  assert (E1 : gjr_update (omega (firm s)) (alpha (firm s)) (gamma (firm s)) (beta (firm s)) (v_firm p) (e_firm p) = v_firm p') by reflexivity.
  assert (E2 : gjr_update (omega (mkt s)) (alpha (mkt s)) (gamma (mkt s)) (beta (mkt s)) (v_mkt p) (e_mkt p) = v_mkt p') by reflexivity.
  assert (EQ : Qnext (dcc_a s) (dcc_b s) (Qbar s) (Qmat p) (z_firm p, z_mkt p) = Qmat p') by reflexivity.
  assert (EM : e_mkt p' = sqrt (v_mkt p') * z) by reflexivity.
  assert (EI : e_firm p' = sqrt (v_firm p') * (corr_of (Qmat p') * z + sqrt (1 - corr_of (Qmat p') ^ 2) * xi)) by reflexivity.
  assert (ZM : z_mkt p' = z).
  { unfold z_mkt. rewrite EM. field. apply Rgt_not_eq, sqrt_lt_R0. auto. }
  clearbody p'. 
  destruct (Qbar s) as [[b11 b12] b22]. destruct (Qmat p) as [[c11 c12] c22] eqn:EP. cbn [Qnext] in EQ.
  destruct (Qmat p') as [[d11 d12] d22] eqn:EP'. injection EQ as Q1 Q2 Q3. destruct HQ as (D1 & D2 & D3).
  assert (HD : 0 < d11 * d22) by (apply Rmult_lt_0_compat; auto).
  cbn [corr_of] in *. set (rho := d12 / sqrt (d11 * d22)) in *.
  assert (RH : xdiv (Fin d12) (xsqrt (Fin (d11 * d22))) = Fin rho).
  { rewrite xsqrt_fin by lra. apply xdiv_fin. apply Rgt_not_eq, sqrt_lt_R0. auto. }
  assert (R2 : 0 <= 1 - rho * rho) by nra.
  assert (S1 : xsqrt (Fin (v_firm p')) = Fin (sqrt (v_firm p'))) by (apply xsqrt_fin; lra).
  assert (S2 : xsqrt (Fin (v_mkt p')) = Fin (sqrt (v_mkt p'))) by (apply xsqrt_fin; lra).
  assert (S3 : xsqrt (xsub (Fin 1) (xsq (Fin rho))) = Fin (sqrt (1 - rho ^ 2))).
  { cbn [xsq xsub xadd xopp]. rewrite xsqrt_fin by lra. f_equal. f_equal. ring. }
  assert (ND : sqrt (v_firm p') <> 0) by (apply Rgt_not_eq, sqrt_lt_R0; auto).
  set (om := xsub (xsub (Fin 1) (Fin (dcc_a s))) (Fin (dcc_b s))).
  assert (QM : xadd (xadd (xmul om (Fin b12)) (xmul (xmul (Fin (dcc_a s)) (Fin (z_firm p))) (Fin (z_mkt p)))) (xmul (Fin (dcc_b s)) (Fin c12)) = Fin d12).
  { unfold om. cbn [xmul xsub xadd xopp xsq]. f_equal. rewrite <- Q2. ring. }
  assert (FINAL : forall q1 q2, q1 = Fin d11 -> q2 = Fin d22 -> forall v1 v2, v1 = Fin (v_firm p') -> v2 = Fin (v_mkt p') ->
    (let rho_h := xdiv (Fin d12) (xsqrt (xmul q1 q2)) in
     let em := xmul (xsqrt v2) (Fin z) in
     let ei := xmul (xsqrt v1) (xadd (xmul rho_h (Fin z)) (xmul (xsqrt (xsub (Fin 1) (xsq rho_h))) (Fin xi))) in
     ((xadd (Fin (mu (mkt s))) em, xadd (Fin (mu (firm s))) ei),
      Build_sim_state XRA ei em v1 v2 (xdiv ei (xsqrt v1)) (Fin z) q1 q2 (Fin d12)))
    = ((Fin (mu (mkt s) + e_mkt p'), Fin (mu (firm s) + e_firm p')), fin_state p')).
  { intros q1 q2 -> -> v1 v2 -> ->. cbv zeta. change (xmul (Fin d11) (Fin d22)) with (Fin (d11 * d22)). rewrite RH, S1, S2, S3.
    unfold fin_state. rewrite ZM, EP', EM. unfold z_firm. rewrite EI. cbn [q11 q12 q22 fst snd]. cbn [xmul xadd]. rewrite xdiv_fin by auto. reflexivity. }
  cbv zeta in FINAL.


  change (fin_state p) with (Build_sim_state XRA (Fin (e_firm p)) (Fin (e_mkt p)) (Fin (v_firm p)) (Fin (v_mkt p)) (Fin (z_firm p)) (Fin (z_mkt p))
    (Fin (q11 (Qmat p))) (Fin (q22 (Qmat p))) (Fin (q12 (Qmat p)))). rewrite EP.
  destruct cpp; cbn [step_of]; unfold sim_step_cpp, sim_step_py;
    cbn [nadd nmul nsq ndiv nsqrt nltb nsub ofZ XRA s_ri s_rm s_vi s_vm s_zi s_zm s_qi s_qm s_qim fst snd];
    cbn [q11 q12 q22 fst snd]; cbv zeta; fold om; change (num XRA) with xr in *; rewrite QM; apply FINAL.
  - unfold om. cbn [xmul xsub xadd xopp xsq]. f_equal. rewrite <- Q1. ring.
  - unfold om. cbn [xmul xsub xadd xopp xsq]. f_equal. rewrite <- Q3. ring.
  - rewrite <- E1. apply var_cpp_fin.
  - rewrite <- E2. apply var_cpp_fin.
  - unfold om. cbn [xmul xsub xadd xopp xsq]. f_equal. rewrite <- Q1. ring.
  - unfold om. cbn [xmul xsub xadd xopp xsq]. f_equal. rewrite <- Q3. ring.
  - rewrite <- E1. apply var_py_fin.
  - rewrite <- E2. apply var_py_fin.
Qed.
Lemma loop_fin cpp s shocks : good_setting s -> forall p, sound p ->
  sim_loop XRA (step_of cpp (fin_gjr (firm s)) (fin_gjr (mkt s)) (Fin (dcc_a s)) (Fin (dcc_b s)) (Fin (q11 (Qbar s))) (Fin (q22 (Qbar s))) (Fin (q12 (Qbar s))))
    (fin_state p) (fin_shocks shocks)
  = map (fun p => (Fin (mu (mkt s) + e_mkt p), Fin (mu (firm s) + e_firm p))) (path s p shocks).
Proof.
  intros HG. induction shocks as [|[xi z] shocks IH]; intros p HP; [reflexivity|].
  cbn [fin_shocks map sim_loop path fst snd]. rewrite step_fin by auto. cbv zeta. cbn [map fst snd]. f_equal. apply IH. apply tomorrow_sound; auto.
Qed.
Lemma start_fin s : good_setting s ->
  sim_start XRA (Fin (v_firm (today s))) (Fin (v_mkt (today s))) (Fin (e_firm (today s))) (Fin (e_mkt (today s))) (Fin (q12 (Qmat (today s)))) = fin_state (today s).
Proof.
  intros (_ & _ & _ & _ & (r & Hr & EQ) & H1 & H2). unfold sim_start, fin_state, z_firm, z_mkt. cbn [nsqrt ndiv ofZ XRA].
  rewrite !xsqrt_fin by lra. rewrite !xdiv_fin by (apply Rgt_not_eq, sqrt_lt_R0; auto). rewrite EQ. reflexivity.
Qed.
Lemma returns_fin cpp s shocks : good_setting s ->
  sim_returns XRA cpp (inputs s) (fin_shocks shocks) = map (fun p => (Fin (mu (mkt s) + e_mkt p), Fin (mu (firm s) + e_firm p))) (path s (today s) shocks).
Proof.
  intros HG. unfold sim_returns, inputs. cbn [i_firm_var i_mkt_var i_firm_resid i_mkt_resid i_a i_b i_rho i_qib i_qmb i_qimb i_pi i_pm].
  rewrite start_fin by auto. apply (loop_fin cpp); auto. apply today_sound; auto.
Qed.
Lemma total_fin (cpp : bool) l : (if cpp then fold_left xadd (map Fin l) (Fin 0) else asum (a:=XRA) (map Fin l)) = Fin (Rsum l).
Proof. destruct cpp; [|apply asum_fin]. rewrite xsum_fin_acc. f_equal. ring. Qed.

(** ** C22 *)
(** Both implementations return the specified pair, for every horizon and every shock matrix; every simulated step
    has positive variances and a correlation in [-1,1]; the firm return is finite and above -1. *)
Theorem C22_simulation : forall cpp s C shocks, good_setting s ->
  simulation XRA cpp (inputs s) (Fin C) (fin_shocks shocks) =
    (if Rlt_dec (market_return s shocks) C then (Fin (firm_return s shocks), true) else (Fin 0, false)) /\
  Forall (fun p => 0 < v_firm p /\ 0 < v_mkt p /\ -1 <= corr p <= 1) (path s (today s) shocks) /\
  -1 < firm_return s shocks /\ -1 < market_return s shocks.
Proof.
  intros cpp s C shocks HG. split; [|split].
  - unfold simulation. rewrite returns_fin by auto. rewrite !map_map. cbn [fst snd nadd ndiv ofZ XRA].
    assert (E1 : map (fun x => xdiv (Fin (mu (mkt s) + e_mkt x)) (Fin 100)) (path s (today s) shocks) = map Fin (map (fun p => (mu (mkt s) + e_mkt p) / 100) (path s (today s) shocks))).
    { rewrite map_map. apply map_ext. intros x. apply xdiv_fin. lra. }
    assert (E2 : map (fun x => xdiv (Fin (mu (firm s) + e_firm x)) (Fin 100)) (path s (today s) shocks) = map Fin (map (fun p => (mu (firm s) + e_firm p) / 100) (path s (today s) shocks))).
    { rewrite map_map. apply map_ext. intros x. apply xdiv_fin. lra. }
    change (num XRA) with xr in *. rewrite E1, E2, !total_fin. cbn [nexp nsub nltb XRA xexp xsub xadd xopp xltb].
    unfold market_return, firm_return, Rminus. destruct (Rlt_dec _ C); reflexivity.
  - eapply Forall_impl; [|apply path_sound; [exact HG|apply today_sound; auto]]. intros p (H1 & H2 & H3). split; [auto|split; [auto|]]. apply corr_range. auto.
  - unfold firm_return, market_return. split; match goal with |- context [exp ?x] => assert (H := exp_pos x) end; lra.
Qed.
Corollary C22_python_and_cpp_agree : forall s C shocks, good_setting s ->
  simulation XRA false (inputs s) (Fin C) (fin_shocks shocks) = simulation XRA true (inputs s) (Fin C) (fin_shocks shocks).
Proof. intros s C shocks HG. destruct (C22_simulation false s C shocks HG) as [-> _]. destruct (C22_simulation true s C shocks HG) as [-> _]. reflexivity. Qed.
(** The simulated variances follow the GJR variance-forecast recursion of the fitted models. *)
Fixpoint forecast (g : gjr) (v : R) (es : list R) : list R :=
  match es with [] => [] | e :: es' => let v' := gjr_update (omega g) (alpha g) (gamma g) (beta g) v e in v' :: forecast g v' es' end.
Theorem C22_variances_follow_the_forecast_recursion : forall s shocks,
  map v_firm (path s (today s) shocks) = forecast (firm s) (v_firm (today s)) (removelast (e_firm (today s) :: map e_firm (path s (today s) shocks))) /\
  map v_mkt (path s (today s) shocks) = forecast (mkt s) (v_mkt (today s)) (removelast (e_mkt (today s) :: map e_mkt (path s (today s) shocks))).
Proof.
  intros s shocks. generalize (today s). induction shocks as [|[xi z] shocks IH]; intros p; [split; reflexivity|].
  cbn [path map]. destruct (IH (tomorrow s p xi z)) as [I1 I2]. split.
  - change (removelast (e_firm p :: e_firm (tomorrow s p xi z) :: ?l)) with (e_firm p :: removelast (e_firm (tomorrow s p xi z) :: l)).
    cbn [forecast]. f_equal. exact I1.
  - change (removelast (e_mkt p :: e_mkt (tomorrow s p xi z) :: ?l)) with (e_mkt p :: removelast (e_mkt (tomorrow s p xi z) :: l)).
    cbn [forecast]. f_equal. exact I2.
Qed.
(** ... which is what the fitted model's own forecast_variance computes. *)
Theorem C22_forecast_recursion_is_forecast_variance : forall g v es, es <> [] ->
  forecast_variance XRA (Fin (omega g)) (Fin (alpha g)) (Fin (gamma g)) (Fin (beta g)) (map Fin es) (Fin v) = Ok (map Fin (forecast g v (removelast es))).
Proof.
  intros g v es He. unfold forecast_variance. destruct es as [|e es]; [tauto|]. cbn [map]. f_equal.
  change (Fin e :: map Fin es) with (map Fin (e :: es)). rewrite removelast_map. generalize (removelast (e :: es)). intros l. clear. revert v.
  induction l as [|e l IH]; intros v; [reflexivity|]. cbn [map forecast_loop forecast].
  assert (E : gjr_step XRA (Fin (omega g)) (Fin (alpha g)) (Fin (gamma g)) (Fin (beta g)) (Fin v) (Fin e) = Fin (gjr_update (omega g) (alpha g) (gamma g) (beta g) v e)).
  { unfold gjr_step, gjr_update. cbn [nadd nmul nsq nltb ofZ XRA xadd xmul xsq xltb]. destruct (Rlt_dec e 0); cbn; f_equal; ring. }
  change (num XRA) with xr in *. rewrite E. cbv zeta. f_equal. apply IH.
Qed.
(** The corner a = 1, b = 0 is really excluded: a zero residual today makes the firm return NaN. *)
Theorem C22_corner : exists s C shocks, good_gjr (firm s) /\ good_gjr (mkt s) /\ dcc_a s = 1 /\ dcc_b s = 0 /\ Qbar s = (1, 0, 1) /\
  Qmat (today s) = (1, 0, 1) /\ v_firm (today s) = 1 /\ v_mkt (today s) = 1 /\
  simulation XRA false (inputs s) (Fin C) (fin_shocks shocks) = (NaN, true).
Proof.
  set (g := {| mu := 0; omega := 1; alpha := 0; gamma := 0; beta := 0 |}).
  exists {| firm := g; mkt := g; dcc_a := 1; dcc_b := 0; Qbar := (1, 0, 1); today := {| e_firm := 0; e_mkt := 0; v_firm := 1; v_mkt := 1; Qmat := (1, 0, 1) |} |}, 1, [(0, 0)].
  repeat (split; [first [reflexivity|unfold good_gjr; cbn; lra]|]).
  set (s := Build_setting _ _ _ _ _ _).
  assert (ST : sim_start XRA (Fin 1) (Fin 1) (Fin 0) (Fin 0) (Fin 0) = Build_sim_state XRA (Fin 0) (Fin 0) (Fin 1) (Fin 1) (Fin 0) (Fin 0) (Fin 1) (Fin 1) (Fin 0)).
  { unfold sim_start. cbn [ndiv nsqrt ofZ XRA]. rewrite xsqrt_fin, sqrt_1, xdiv_fin by lra. replace (0 / 1) with 0 by field. reflexivity. }
  assert (SP : sim_returns XRA false (inputs s) (fin_shocks [(0, 0)]) = [(Fin 0, NaN)]).
  { unfold sim_returns, inputs, fin_shocks, q11, q12, q22, s.
    cbn [i_firm_var i_mkt_var i_firm_resid i_mkt_resid i_a i_b i_rho i_qib i_qmb i_qimb i_pi i_pm firm mkt dcc_a dcc_b Qbar today e_firm e_mkt v_firm v_mkt Qmat fst snd map].
    rewrite ST. cbn [sim_loop]. cbv zeta. cbn [fst]. f_equal. unfold sim_step_py, fin_gjr, g.
    cbn [mu omega alpha gamma beta fst snd g_mu g_omega g_alpha g_gamma g_beta s_ri s_rm s_vi s_vm s_zi s_zm s_qi s_qm s_qim nadd nsub nmul nsq nsqrt ndiv nltb ofZ XRA].
    cbn [xadd xsub xmul xopp xsq xltb]. destruct (Rlt_dec 0 0); [lra|]. cbn [xadd].
    repeat match goal with |- context [Fin ?e] => lazymatch e with | 0 => fail | 1 => fail | sqrt _ => fail | _ => first [replace e with 0 by ring | replace e with 1 by ring] end end.
    rewrite !xsqrt_fin by lra. rewrite sqrt_0, sqrt_1, xdiv_0. assert (E0 : xsgn_inf 0 = NaN) by (unfold xsgn_inf; destruct (total_order_T 0 0) as [[?|?]|?]; auto; lra). rewrite E0. 
    cbn [xmul xadd xsub xopp xsq xsqrt]. f_equal. f_equal. ring. }
  unfold simulation. cbv zeta. rewrite SP. cbn [map fst snd]. cbn [ndiv nltb nexp asum ofZ XRA nsub fold_left]. rewrite xdiv_fin by lra. cbn [xadd xdiv xexp xsub xopp].
  replace (0 + 0 / 100) with 0 by field. rewrite exp_0. cbn [xltb]. destruct (Rlt_dec _ 1); [reflexivity|lra].
Qed.

Lemma Rsum_cons x l : Rsum (x :: l) = x + Rsum l.
Proof. reflexivity. Qed.
(** ** C21 *)
(** The systemic scenarios, and the conditional mean. *)
Definition systemic (s : setting) (C : R) (scenarios : list (list (R * R))) : list (list (R * R)) :=
  filter (fun sh => if Rlt_dec (market_return s sh) C then true else false) scenarios.
Lemma accumulate_fin cpp s C scenarios : good_setting s -> forall t n,
  accumulate XRA cpp (inputs s) (Fin C) (map fin_shocks scenarios) (Fin t) n =
  (Fin (t + Rsum (map (firm_return s) (systemic s C scenarios))), (n + Z.of_nat (length (systemic s C scenarios)))%Z).
Proof.
  intros HG. induction scenarios as [|sh scenarios IH]; intros t n.
  - cbn. rewrite Rplus_0_r, Z.add_0_r. reflexivity.
  - cbn [map accumulate systemic filter]. destruct (C22_simulation cpp s C sh HG) as [E _]. rewrite E. clear E.
    destruct (Rlt_dec (market_return s sh) C); cbn [fst snd Z.b2z nadd XRA xadd]; rewrite IH; unfold systemic; cbn [map Rsum fold_right length]; f_equal; try (f_equal; ring); try lia.
Qed.
Theorem C21_lrmes_is_the_conditional_mean : forall cpp s C scenarios, good_setting s ->
  lrmes XRA cpp (inputs s) (Fin C) (map fin_shocks scenarios) =
    Fin (match systemic s C scenarios with [] => 0 | sys => - Rmean (map (firm_return s) sys) end).
Proof.
  intros cpp s C scenarios HG. unfold lrmes. cbn [ofZ XRA]. rewrite accumulate_fin by auto. cbn [fst snd].
  destruct (systemic s C scenarios) as [|x l]; [reflexivity|].
  destruct (_ =? 0)%Z eqn:E; [apply Z.eqb_eq in E; cbn [length] in E; lia|].
  cbn [nopp ndiv XRA xopp]. rewrite Z.add_0_l. rewrite <- INR_IZR_INZ. rewrite xdiv_fin by (apply Rgt_not_eq; apply lt_0_INR; cbn; lia).
  unfold Rmean. rewrite map_length. f_equal. field. apply Rgt_not_eq; apply lt_0_INR; cbn; lia.
Qed.
Theorem C21_below_one : forall cpp s C scenarios, good_setting s ->
  exists v, lrmes XRA cpp (inputs s) (Fin C) (map fin_shocks scenarios) = Fin v /\ v < 1.
Proof.
  intros cpp s C scenarios HG. eexists. split; [apply C21_lrmes_is_the_conditional_mean; auto|].
  destruct (systemic s C scenarios) as [|x l]; [lra|].
  assert (H : -1 < Rmean (map (firm_return s) (x :: l))).
  { unfold Rmean. rewrite map_length. apply lt_div_iff; [apply lt_0_INR; cbn; lia|].
    assert (G : forall l, - INR (length l) <= Rsum (map (firm_return s) l)).
    { induction l0 as [|y l0 IH]; [cbn; lra|]. cbn [map]. rewrite Rsum_cons. cbn [length]. rewrite S_INR.
      destruct (C22_simulation cpp s C y HG) as (_ & _ & H & _). lra. }
    cbn [map]. rewrite Rsum_cons. cbn [length]. rewrite S_INR. specialize (G l). destruct (C22_simulation cpp s C x HG) as (_ & _ & H & _). lra. }
  lra.
Qed.
(** Order of the scenarios, and scenarios that are not systemic, are irrelevant. *)
Theorem C21_order_irrelevant : forall cpp s C sc sc', good_setting s -> Permutation sc sc' ->
  lrmes XRA cpp (inputs s) (Fin C) (map fin_shocks sc) = lrmes XRA cpp (inputs s) (Fin C) (map fin_shocks sc').
Proof.
  intros cpp s C sc sc' HG HP. rewrite !C21_lrmes_is_the_conditional_mean by auto.
  assert (P : Permutation (systemic s C sc) (systemic s C sc')).
  { unfold systemic. clear -HP. induction HP; cbn [filter]; auto.
    - destruct (Rlt_dec _ _); auto.
    - destruct (Rlt_dec (market_return s x) C), (Rlt_dec (market_return s y) C); auto. apply perm_swap.
    - etransitivity; eauto. }
  f_equal. destruct (systemic s C sc) as [|x l] eqn:E.
  - apply Permutation_nil in P. rewrite P. reflexivity.
  - destruct (systemic s C sc') as [|x' l']; [apply Permutation_sym, Permutation_nil in P; discriminate|].
    f_equal. unfold Rmean. rewrite !map_length. rewrite (Permutation_length P). f_equal. apply Rsum_perm. apply Permutation_map. auto.
Qed.

(** ** C23 *)
Lemma accumulate_count (A : Arith) cpp i C scenarios : forall t n,
  snd (accumulate A cpp i C scenarios t n) = (n + Z.of_nat (length (filter (fun sh => snd (simulation A cpp i C sh)) scenarios)))%Z.
Proof.
  induction scenarios as [|sh scenarios IH]; intros t n; [cbn; lia|]. cbn [accumulate filter]. rewrite IH.
  destruct (snd (simulation A cpp i C sh)); cbn [Z.b2z length]; lia.
Qed.
Lemma xltb_le_trans x c c' : xleb c c' = true -> xltb x c = true -> xltb x c' = true.
Proof.
  destruct x as [x| | |], c as [c| | |], c' as [c'| | |]; try (intros _ X; exact X); try (intros X; discriminate X); try (intros _ X; discriminate X); try (intros _ _; reflexivity).
  rewrite xleb_iff, !xltb_iff. lra.
Qed.
(** For any inputs at all, infinite and NaN ones included. *)
Theorem C23_fewer_systemic_events_for_severer_thresholds : forall cpp i C C' scenarios, xleb C C' = true ->
  (n_systemic_events XRA cpp i C scenarios <= n_systemic_events XRA cpp i C' scenarios)%Z.
Proof.
  intros cpp i C C' scenarios H. unfold n_systemic_events. rewrite !accumulate_count.
  assert (HI : forall sh, snd (simulation XRA cpp i C sh) = true -> snd (simulation XRA cpp i C' sh) = true).
  { intros sh. unfold simulation. cbv zeta. cbn [nltb XRA].
    match goal with |- context [xltb ?x C] => destruct (xltb x C) eqn:E end; [|discriminate]. rewrite (xltb_le_trans _ _ _ H E). auto. }
  apply Z.add_le_mono_l. apply inj_le. induction scenarios as [|sh sc IH]; [cbn; lia|]. cbn [filter].
  destruct (snd (simulation XRA cpp i C sh)) eqn:E; [rewrite (HI _ E); cbn [length]; lia|]. destruct (snd (simulation XRA cpp i C' sh)); cbn [length]; lia.
Qed.
Theorem C23_no_event_below_minus_one : forall cpp i C scenarios, C <= -1 ->
  n_systemic_events XRA cpp i (Fin C) scenarios = 0%Z /\ lrmes XRA cpp i (Fin C) scenarios = Fin 0.
Proof.
  intros cpp i C scenarios HC.
  assert (N : n_systemic_events XRA cpp i (Fin C) scenarios = 0%Z).
  { unfold n_systemic_events. rewrite accumulate_count.
    assert (F : filter (fun sh => snd (simulation XRA cpp i (Fin C) sh)) scenarios = []).
    { induction scenarios as [|sh sc IH]; [reflexivity|]. cbn [filter]. rewrite IH.
      assert (E : snd (simulation XRA cpp i (Fin C) sh) = false).
      { unfold simulation. cbv zeta. cbn [nltb nsub nexp ofZ XRA].
        match goal with |- context [xltb (xsub (xexp ?x) _) _] => assert (X : xltb (xsub (xexp x) (Fin 1)) (Fin C) = false) end.
        { match goal with |- xltb (xsub (xexp ?x) _) _ = _ => destruct x as [x0| | |] end; cbn; try reflexivity.
          - destruct (Rlt_dec _ C); [|reflexivity]. assert (EP := exp_pos x0). lra.
          - destruct (Rlt_dec _ C); [|reflexivity]. lra. }
        rewrite X. reflexivity. }
      rewrite E. reflexivity. }
    rewrite F. reflexivity. }
  split; [exact N|]. unfold lrmes. unfold n_systemic_events in N. cbv zeta. rewrite N. reflexivity.
Qed.

(** A concrete setting: two one-day scenarios, one of them systemic. *)
Definition case_gjr : gjr := {| mu := 0; omega := 1; alpha := 0; gamma := 0; beta := 0 |}.
Definition case_setting : setting := {| firm := case_gjr; mkt := case_gjr; dcc_a := 1/10; dcc_b := 8/10; Qbar := (1, 0, 1);
  today := {| e_firm := 0; e_mkt := 0; v_firm := 1; v_mkt := 1; Qmat := (1, 0, 1) |} |}.
Lemma case_good : good_setting case_setting.
Proof.
  unfold good_setting, good_gjr, admissible. cbn. repeat split; try lra; exists 0; split; try lra; reflexivity.
Qed.
Lemma case_returns x z : firm_return case_setting [(x, z)] = exp (x / 100) - 1 /\ market_return case_setting [(x, z)] = exp (z / 100) - 1.
Proof.
  unfold firm_return, market_return. cbn [path map]. unfold case_setting. cbn [firm mkt dcc_a dcc_b Qbar today tomorrow e_firm e_mkt case_gjr mu].
  unfold gjr_update, z_firm, z_mkt. cbn [omega alpha gamma beta e_firm e_mkt v_firm v_mkt Qmat case_gjr Qnext corr_of].
  destruct (Rlt_dec 0 0); [lra|]. rewrite !Rsum_cons. change (Rsum []) with 0. rewrite sqrt_1.
  replace (1 + (0 + 0) * 0 ^ 2 + 0 * 1) with 1 by ring. rewrite sqrt_1.
  replace ((1 - 1 / 10 - 8 / 10) * 0 + 1 / 10 * (0 / 1 * (0 / 1)) + 8 / 10 * 0) with 0 by field. match goal with |- context [0 / sqrt ?e] => replace (0 / sqrt e) with 0 by (unfold Rdiv; rewrite Rmult_0_l; reflexivity) end.
  replace (1 - 0 ^ 2) with 1 by ring. rewrite sqrt_1. split; f_equal; f_equal; field.
Qed.
Example C21_case : lrmes XRA false (inputs case_setting) (Fin 0) (map fin_shocks [[(-100, -100)]; [(100, 100)]]) = Fin (1 - exp (-1)).
Proof.
  rewrite C21_lrmes_is_the_conditional_mean by apply case_good. f_equal. unfold systemic. cbn [filter].
  destruct (case_returns (-100) (-100)) as [E1 E2]. destruct (case_returns 100 100) as [E3 E4].
  assert (H1 : exp (-1) < 1) by (rewrite <- exp_0; apply exp_increasing; lra).
  assert (H2 : 1 < exp 1) by (assert (X := exp_increasing 0 1 ltac:(lra)); rewrite exp_0 in X; exact X).
  rewrite E2, E4. replace (-100 / 100) with (-1) by field. replace (100 / 100) with 1 by field.
  destruct (Rlt_dec (exp (-1) - 1) 0); [|lra]. destruct (Rlt_dec (exp 1 - 1) 0); [lra|].
  unfold Rmean. cbn [map length]. rewrite Rsum_cons, E1. change (Rsum []) with 0. replace (-100 / 100) with (-1) by field. cbn [INR]. field.
Qed.
