(** * Theorems: interrupted estimations of the bivariate models and of PIN (C119, continued) *)
From Coq Require Import ZArith List Bool Lia.
From Verif Require Import Arith Model_garch Model_mgarch Model_pin Model_crash XR Props_crash.
Import ListNotations.

Section T.
Context {A : Arith}.
Notation num := (num A).
Notation state := (state A).
Notation fit := (fit A).
Lemma end_in {S X} (m : prog S X) s : interrupted m s (end_state m s).
Proof.
  unfold interrupted, end_state. destruct (fst (m s)) as [|x t] eqn:E; [left; reflexivity|]. right. rewrite <- E.
  assert (G : forall (l : list S) d, l <> [] -> In (last l d) l).
  { clear. induction l as [|x l IH]; intros d H; [congruence|]. destruct l as [|y l]; [left; reflexivity|]. right. apply (IH d). discriminate. }
  apply G. rewrite E. discriminate.
Qed.
Lemma triple_assign {S} (P W : S -> Prop) (Q : unit -> S -> Prop) f : (forall s, P s -> W (f s) /\ Q tt (f s)) -> triple P W Q (assign f).
Proof. intros H s Hs. destruct (H s Hs). split; [intros s' [<-|[]]; auto|]. intros [] _. auto. Qed.
Lemma triple_ret {S X} (P W : S -> Prop) (x : X) : triple P W (fun y s => P s /\ y = x) (ret x).
Proof. intros s Hs. split; [intros s' []|]. intros y [= <-]. auto. Qed.
Lemma triple_raise {S X} (P W : S -> Prop) (Q : X -> S -> Prop) e : triple P W Q (raise e).
Proof. intros s Hs. split; [intros s' []|]. discriminate. Qed.
Lemma fit_ends k m s r s1 : snd (fit_steps A k m s) = Ok r -> end_state (fit_steps A k m) s = s1 -> fit k m s = Ok (r, s1).
Proof. intros H1 H2. rewrite <- C119_complete_fit. unfold complete. rewrite H1, H2. reflexivity. Qed.

Lemma in_seq_l {S X Y} (m : prog S X) (f : X -> prog S Y) s s' : In s' (fst (m s)) -> In s' (fst (seqp m f s)).
Proof.
  unfold seqp. destruct (m s) as [t [x|e]]; cbn [fst]; [|auto]. destruct (f x (last t s)). cbn [fst]. intros H. apply in_or_app. auto.
Qed.
Lemma in_seq_r {S X Y} (m : prog S X) (f : X -> prog S Y) s s' x s1 : complete m s = Ok (x, s1) -> In s' (fst (f x s1)) -> In s' (fst (seqp m f s)).
Proof.
  unfold complete, seqp, end_state. destruct (m s) as [t [y|e]]; cbn [fst snd]; [|discriminate]. intros [= -> <-].
  destruct (f x (last t s)). cbn [fst]. intros H. apply in_or_app. auto.
Qed.

(** ** CCC *)
Theorem C119_complete_ccc : forall m1 m2 mini o, complete (ccc_steps A m1 m2 mini) o = ccc_fit A m1 m2 mini o.
Proof.
  intros m1 m2 mini o. unfold ccc_steps, ccc_fit. rewrite complete_seq, complete_get. cbn [bind fst snd]. destruct (c_success A o) eqn:S; [rewrite complete_get; reflexivity|].
  rewrite complete_seq, complete_within by (destruct o; reflexivity). rewrite C119_complete_fit, bind_assoc. apply bind_ext. intros [r1 s1]. cbn [bind fst snd].
  rewrite complete_seq, complete_within by (destruct o; reflexivity). rewrite C119_complete_fit, bind_assoc. cbn [set_c1 c_m2]. apply bind_ext. intros [r2 s2]. cbn [bind fst snd].
  rewrite complete_seq, complete_get. cbn [bind fst snd]. rewrite complete_seq, complete_get. cbn [bind fst snd set_c1 set_c2 c_m1 c_m2]. cbv zeta.
  rewrite complete_seq, complete_lift, bind_assoc. apply bind_ext. intros u. cbn [bind fst snd]. destruct (o_success A _).
  - rewrite complete_seq, complete_assign. cbn [bind fst snd]. rewrite complete_seq, complete_assign. cbn [bind fst snd]. rewrite complete_ret. reflexivity.
  - rewrite complete_get. unfold set_c1, set_c2. cbn [c_fields c_ll c_m1 c_m2 c_success]. rewrite S. reflexivity.
Qed.
(** a sub-model is not torn: it was not cut off between its flag and its residuals *)
Definition not_torn (k : kind) (m : solver A) (s s' : state) : Prop := k = KGarch -> st_success A s' = true -> exists r, fit k m s = Ok (r, s').
Definition ccc_trace_ok m1 m2 (o o' : ccc A) : Prop := c_success A o' = true \/
  (c_success A o' = false /\ c_fields A o' = c_fields A o /\ c_ll A o' = c_ll A o /\
   interrupted (fit_steps A KGarch m1) (c_m1 A o) (c_m1 A o') /\ interrupted (fit_steps A KGarch m2) (c_m2 A o) (c_m2 A o')).
Lemma in_within {S T X} (view : S -> T) upd (m : prog T X) s s' : In s' (fst (within view upd m s)) -> exists t, In t (fst (m (view s))) /\ s' = upd t s.
Proof. unfold within. destruct (m (view s)) as [t r]. cbn [fst]. intros H. apply in_map_iff in H. destruct H as (x & <- & H). eauto. Qed.
Lemma end_within {S T X} (view : S -> T) upd (m : prog T X) s : upd (view s) s = s -> end_state (within view upd m) s = upd (end_state m (view s)) s.
Proof.
  intros H. unfold end_state, within. destruct (m (view s)) as [t r]. cbn [fst]. pose proof (last_map (fun x => upd x s) t (view s)) as L. cbv beta in L. rewrite H in L. exact L.
Qed.
Lemma ccc_trace m1 m2 mini o o' : c_success A o = false -> interrupted (ccc_steps A m1 m2 mini) o o' -> ccc_trace_ok m1 m2 o o'.
Proof.
  intros F [<- |H]; [right; repeat split; auto; left; reflexivity|]. unfold ccc_steps in H.
  apply in_seq in H. destruct H as [[]|(b & Eb & H)]. cbn [get snd] in Eb. injection Eb as <-. unfold end_state in H. cbn [get fst last] in H. rewrite F in H.
  apply in_seq in H. destruct H as [H|(r1 & E1 & H)].
  { apply in_within in H. destruct H as (t & Ht & ->). right. repeat split; auto; [right; exact Ht|left; reflexivity]. }
  rewrite end_within in H by (destruct o; reflexivity). set (s1 := end_state (fit_steps A KGarch m1) (c_m1 A o)) in *.
  assert (I1 : interrupted (fit_steps A KGarch m1) (c_m1 A o) s1) by apply end_in.
  apply in_seq in H. destruct H as [H|(r2 & E2 & H)].
  { apply in_within in H. destruct H as (t & Ht & ->). right. repeat split; auto. right; exact Ht. }
  rewrite end_within in H by (destruct o; reflexivity). cbn [set_c1 c_m2] in H. set (s2 := end_state (fit_steps A KGarch m2) (c_m2 A o)) in *.
  apply in_seq in H. destruct H as [[]|(q1 & _ & H)]. unfold end_state in H. cbn [get fst last] in H.
  apply in_seq in H. destruct H as [[]|(q2 & _ & H)]. unfold end_state in H. cbn [get fst last] in H. cbv zeta in H.
  apply in_seq in H. destruct H as [[]|(q3 & _ & H)]. unfold end_state in H. cbn [lift fst last] in H.
  destruct (o_success A _) in H; [|destruct H].
  apply in_seq in H. destruct H as [[<-|[]]|(q4 & _ & H)]; [left; reflexivity|]. unfold end_state in H. cbn [assign fst last] in H.
  apply in_seq in H. destruct H as [[<-|[]]|(q5 & _ & H)]; [left; reflexivity|]. destruct H.
Qed.
Lemma bind_final {X} (r : res (option (Params A) * state)) (F : state -> res X) : bind r (fun p => F (snd p)) = bind (final_state r) F.
Proof. destruct r; reflexivity. Qed.
(** C119: a CCC fit that was cut off before reporting success, with no sub-model torn, is simply run again: the same outcome *)
Theorem C119_ccc_restart : forall m1 m2 mini mini' o o', c_success A o = false -> interrupted (ccc_steps A m1 m2 mini) o o' -> c_success A o' = false ->
  not_torn KGarch m1 (c_m1 A o) (c_m1 A o') -> not_torn KGarch m2 (c_m2 A o) (c_m2 A o') ->
  ccc_fit A m1 m2 mini' o' = ccc_fit A m1 m2 mini' o.
Proof.
  intros m1 m2 mini mini' o o' F H F' N1 N2. destruct (ccc_trace m1 m2 mini o o' F H) as [T|(_ & Hf & Hl & I1 & I2)]; [congruence|].
  pose proof (C119_restart KGarch m1 _ _ I1 N1) as J1. pose proof (C119_restart KGarch m2 _ _ I2 N2) as J2.
  unfold ccc_fit. rewrite F, F', Hf, Hl.
  set (G := fun s1 s2 : state => let rho := corr_entry A (standardize A (st_resids A s1) (st_sigma2 A s1)) (standardize A (st_resids A s2) (st_sigma2 A s2)) 1 0 in
    let opt := mini' (p_fields A (st_params A s1) ++ p_fields A (st_params A s2) ++ [rho]) in
    bind (fold_left (fun acc x => bind acc (fun _ => bind (ccc_objective A (st_returns A s1) (st_returns A s2) x (st_backcast A s1) (st_backcast A s2) (st_bounds A s1) (st_bounds A s2)) (fun _ => Ok tt))) (o_evals A opt) (Ok tt)) (fun _ =>
    if o_success A opt then
      Ok ((o_x A opt ++ repeat nnan (9 - length (o_x A opt)), nopp (o_fun A opt)), {| c_m1 := s1; c_m2 := s2; c_success := true; c_fields := o_x A opt ++ repeat nnan (9 - length (o_x A opt)); c_ll := nopp (o_fun A opt) |})
    else
      Ok ((c_fields A o, c_ll A o), {| c_m1 := s1; c_m2 := s2; c_success := false; c_fields := c_fields A o; c_ll := c_ll A o |}))).
  change (bind (fit KGarch m1 (c_m1 A o')) (fun r1 => bind (fit KGarch m2 (c_m2 A o')) (fun r2 => G (snd r1) (snd r2))) =
          bind (fit KGarch m1 (c_m1 A o)) (fun r1 => bind (fit KGarch m2 (c_m2 A o)) (fun r2 => G (snd r1) (snd r2)))).
  transitivity (bind (final_state (fit KGarch m1 (c_m1 A o'))) (fun s1 => bind (final_state (fit KGarch m2 (c_m2 A o'))) (fun s2 => G s1 s2))).
  - rewrite <- bind_final. apply bind_ext. intros r1. rewrite <- bind_final. reflexivity.
  - rewrite J1, J2. rewrite <- bind_final. apply bind_ext. intros r1. rewrite <- bind_final. reflexivity.
Qed.
(** "a CCC model that reports success has estimates" is false: there is a place where the flag is set and all parameters are still the
    old ones, and from there fit returns those for ever *)
Theorem C119_ccc_success_without_estimates_refuted : forall m1 m2 mini o p o1, c_success A o = false -> ccc_fit A m1 m2 mini o = Ok (p, o1) -> c_success A o1 = true ->
  exists o', interrupted (ccc_steps A m1 m2 mini) o o' /\ c_success A o' = true /\ c_fields A o' = c_fields A o /\ c_ll A o' = c_ll A o /\
    forall n1 n2 n, ccc_fit A n1 n2 n o' = Ok ((c_fields A o, c_ll A o), o').
Proof.
  intros m1 m2 mini o p o1 F H T. unfold ccc_fit in H. rewrite F in H.
  destruct (fit KGarch m1 (c_m1 A o)) as [[r1 s1]|] eqn:E1; [|discriminate]. cbn [bind] in H.
  destruct (fit KGarch m2 (c_m2 A o)) as [[r2 s2]|] eqn:E2; [|discriminate]. cbn [bind snd] in H.
  set (opt := mini (p_fields A (st_params A s1) ++ p_fields A (st_params A s2) ++
         [corr_entry A (standardize A (st_resids A s1) (st_sigma2 A s1)) (standardize A (st_resids A s2) (st_sigma2 A s2)) 1 0])) in *.
  destruct (fold_left _ _ _) as [u|] eqn:E3 in H; [|discriminate]. cbn [bind] in H.
  destruct (o_success A opt) eqn:E4; [|injection H as _ <-; discriminate T]. clear H T.
  exists {| c_m1 := s1; c_m2 := s2; c_success := true; c_fields := c_fields A o; c_ll := c_ll A o |}. split; [|repeat split].
  right. unfold ccc_steps. apply (in_seq_r _ _ _ _ false o); [rewrite complete_get, F; reflexivity|]. cbv iota.
  apply (in_seq_r _ _ _ _ r1 (set_c1 A s1 o)); [rewrite complete_within by (destruct o; reflexivity); rewrite C119_complete_fit, E1; reflexivity|].
  apply (in_seq_r _ _ _ _ r2 (set_c2 A s2 (set_c1 A s1 o))); [rewrite complete_within by (destruct o; reflexivity); rewrite C119_complete_fit; cbn [set_c1 c_m2]; rewrite E2; reflexivity|].
  apply (in_seq_r _ _ _ _ s1 (set_c2 A s2 (set_c1 A s1 o))); [reflexivity|].
  apply (in_seq_r _ _ _ _ s2 (set_c2 A s2 (set_c1 A s1 o))); [reflexivity|]. cbv zeta. fold opt.
  apply (in_seq_r _ _ _ _ u (set_c2 A s2 (set_c1 A s1 o))); [rewrite complete_lift, E3; reflexivity|]. rewrite E4.
  apply in_seq_l. left. reflexivity.
Qed.

(** ** DCC *)
Section DCC.
Context (k : kind) (cpp : bool) (n1 n2 : solver A).
Definition with_models (ms : state * state) (o : dcc A) : dcc A :=
  {| d_models := ms; d_success := d_success A o; d_marginals := d_marginals A o; d_a := d_a A o; d_b := d_b A o; d_ll := d_ll A o |}.
Lemma complete_correlations a b o : complete (correlations_steps A k cpp n1 n2 a b) o =
  bind (conditional_correlations A k cpp n1 n2 (d_models A o) a b) (fun r => Ok (fst r, with_models (snd r) o)).
Proof.
  unfold correlations_steps, conditional_correlations. assert (U1 : forall x, set_d1 A (model1 A x) x = x) by (intros [[] ? ? ? ? ?]; reflexivity).
  assert (U2 : forall x, set_d2 A (model2 A x) x = x) by (intros [[] ? ? ? ? ?]; reflexivity).
  rewrite complete_seq, complete_within by apply U1. rewrite C119_complete_fit, !bind_assoc. unfold model1. apply bind_ext. intros [r1 s1]. cbn [bind fst snd].
  rewrite complete_seq, complete_within by apply U2. rewrite C119_complete_fit, !bind_assoc. unfold model2. cbn [set_d1 d_models snd]. apply bind_ext. intros [r2 s2]. cbn [bind fst snd].
  rewrite complete_seq, complete_get. cbn [bind fst snd]. rewrite complete_seq, complete_get. cbn [bind fst snd]. rewrite complete_lift, bind_assoc. reflexivity.
Qed.
Lemma complete_dcc_objective x o : complete (dcc_objective_steps A k cpp n1 n2 x) o =
  bind (dcc_objective A k cpp n1 n2 (d_models A o) x) (fun r => Ok (fst r, with_models (snd r) o)).
Proof.
  unfold dcc_objective_steps, dcc_objective. destruct x as [|a [|b [|? ?]]]; try reflexivity.
  rewrite complete_seq, complete_get. cbn [bind fst snd]. rewrite complete_seq, complete_get. cbn [bind fst snd]. cbv zeta.
  rewrite complete_seq, complete_correlations, !bind_assoc. apply bind_ext. intros [rho ms]. reflexivity.
Qed.
Lemma complete_dcc_search ml grid best o : complete (dcc_search_steps A k cpp n1 n2 ml grid best) o =
  bind (dcc_search A k cpp n1 n2 ml grid (d_models A o) best) (fun r => Ok (fst r, with_models (snd r) o)).
Proof.
  revert best o. induction grid as [|[a b] grid IH]; intros best o; [cbn [dcc_search_steps dcc_search]; rewrite complete_ret; cbn [bind fst snd]; destruct o; reflexivity|].
  cbn [dcc_search_steps dcc_search]. destruct (nleb _ _); [apply IH|].
  rewrite complete_seq, complete_dcc_objective, !bind_assoc. apply bind_ext. intros [f ms]. cbn [bind fst snd]. rewrite IH. reflexivity.
Qed.
Lemma complete_dcc_evaluations pts o : complete (dcc_evaluation_steps A k cpp n1 n2 pts) o =
  bind (dcc_evals A k cpp n1 n2 pts (d_models A o)) (fun ms => Ok (tt, with_models ms o)).
Proof.
  revert o. induction pts as [|x pts IH]; intros o; [cbn [dcc_evaluation_steps dcc_evals]; rewrite complete_ret; destruct o; reflexivity|].
  cbn [dcc_evaluation_steps dcc_evals]. rewrite complete_seq, complete_dcc_objective, !bind_assoc. apply bind_ext. intros [f ms]. cbn [bind fst snd]. rewrite IH. reflexivity.
Qed.
Theorem C119_complete_dcc : forall mini o, complete (dcc_steps A k cpp n1 n2 mini) o = bind (dcc_fit A k cpp n1 n2 mini o) (fun o1 => Ok (tt, o1)).
Proof.
  intros mini o. unfold dcc_steps, dcc_fit, dcc_starting_values.
  assert (U1 : forall x, set_d1 A (model1 A x) x = x) by (intros [[] ? ? ? ? ?]; reflexivity).
  assert (U2 : forall x, set_d2 A (model2 A x) x = x) by (intros [[] ? ? ? ? ?]; reflexivity).
  rewrite complete_seq, complete_get. cbn [bind fst snd]. destruct (d_success A o) eqn:S; [rewrite complete_ret; reflexivity|].
  rewrite complete_seq, complete_within by apply U1. rewrite C119_complete_fit, !bind_assoc. unfold model1 at 1. apply bind_ext. intros [r1 s1]. cbn [bind fst snd].
  rewrite complete_seq, complete_within by apply U2. rewrite C119_complete_fit, !bind_assoc. unfold model2 at 1. cbn [set_d1 d_models snd]. apply bind_ext. intros [r2 s2]. cbn [bind fst snd].
  rewrite complete_seq, complete_dcc_search, !bind_assoc. cbn [set_d1 set_d2 d_models fst snd]. apply bind_ext. intros [ab ms]. cbn [bind fst snd].
  rewrite complete_seq, complete_get. cbn [bind fst snd]. rewrite complete_seq, complete_get. cbn [bind fst snd].
  rewrite complete_seq, complete_assign. cbn [bind fst snd]. cbv zeta. unfold model1, model2. cbn [with_models set_d1 set_d2 d_models fst snd].
  rewrite complete_seq, complete_dcc_evaluations, !bind_assoc. cbn [d_models]. apply bind_ext. intros ms'. cbn [bind fst snd].
  destruct (o_success A _).
  - rewrite complete_seq, complete_assign. cbn [bind fst snd]. destruct (o_x A _) as [|a [|b [|? ?]]]; try reflexivity.
  - rewrite complete_ret. unfold with_models. cbn [bind d_success d_marginals d_a d_b d_ll set_d1 set_d2]. rewrite S. reflexivity.
Qed.

(** what a cut-off DCC fit leaves behind *)
Context (o0 : dcc A).
Let same1 (s : state) := final_state (fit k n1 s) = final_state (fit k n1 (model1 A o0)).
Let same2 (s : state) := final_state (fit k n2 s) = final_state (fit k n2 (model2 A o0)).
Let before (o : dcc A) := d_success A o = false /\ same1 (model1 A o) /\ same2 (model2 A o).
Let left_behind (o : dcc A) := d_success A o = true \/
  (d_success A o = false /\ (not_torn k n1 (model1 A o0) (model1 A o) -> not_torn k n2 (model2 A o0) (model2 A o) -> same1 (model1 A o) /\ same2 (model2 A o))).
Lemma same_step m s0 s s' : final_state (fit k m s) = final_state (fit k m s0) -> interrupted (fit_steps A k m) s s' -> not_torn k m s0 s' ->
  final_state (fit k m s') = final_state (fit k m s0).
Proof.
  intros J I N. rewrite <- J. apply C119_restart; [exact I|]. intros K T. destruct (N K T) as [r Hr].
  rewrite Hr in J. cbn [final_state bind snd] in J. destruct (fit k m s) as [[r' s1]|]; [|discriminate]. cbn in J. injection J as ->. eauto.
Qed.
Lemma same_end m s0 s : final_state (fit k m s) = final_state (fit k m s0) -> forall r, snd (fit_steps A k m s) = Ok r ->
  final_state (fit k m (end_state (fit_steps A k m) s)) = final_state (fit k m s0).
Proof.
  intros J r E. rewrite <- J. apply C119_restart; [apply end_in|]. intros _ _. exists r. exact (fit_ends k m s r _ E eq_refl).
Qed.
Lemma fit1_triple : triple before left_behind (fun _ => before) (within (model1 A) (set_d1 A) (fit_steps A k n1)).
Proof.
  intros o (F & S1 & S2). split.
  - intros o' H. apply in_within in H. destruct H as (t & Ht & ->). right. split; [exact F|]. intros N1 N2. split; [|exact S2].
    apply (same_step n1 (model1 A o0) (model1 A o) t S1); [right; exact Ht|exact N1].
  - intros r E. rewrite end_within by (destruct o as [[] ? ? ? ? ?]; reflexivity). split; [exact F|]. split; [|exact S2].
    unfold model1 at 1. cbn [set_d1 d_models fst]. apply same_end with (r := r); [exact S1|]. unfold within in E. destruct (fit_steps A k n1 (model1 A o)). exact E.
Qed.
Lemma fit2_triple : triple before left_behind (fun _ => before) (within (model2 A) (set_d2 A) (fit_steps A k n2)).
Proof.
  intros o (F & S1 & S2). split.
  - intros o' H. apply in_within in H. destruct H as (t & Ht & ->). right. split; [exact F|]. intros N1 N2. split; [exact S1|].
    apply (same_step n2 (model2 A o0) (model2 A o) t S2); [right; exact Ht|exact N2].
  - intros r E. rewrite end_within by (destruct o as [[] ? ? ? ? ?]; reflexivity). split; [exact F|]. split; [exact S1|].
    unfold model2 at 1. cbn [set_d2 d_models snd]. apply same_end with (r := r); [exact S2|]. unfold within in E. destruct (fit_steps A k n2 (model2 A o)). exact E.
Qed.
Lemma get_triple {X} (f : dcc A -> X) : triple before left_behind (fun _ => before) (get f).
Proof. eapply triple_weaken; [apply (triple_get before left_behind f)|auto..]. intros x s [H _]. exact H. Qed.
Lemma lift_triple {X} (r : res X) : triple before left_behind (fun _ => before) (lift r).
Proof. eapply triple_weaken; [apply (triple_lift before left_behind r)|auto..]. intros x s [H _]. exact H. Qed.
Lemma ret_triple {X} (x : X) : triple before left_behind (fun _ => before) (ret x).
Proof. eapply triple_weaken; [apply (triple_ret before left_behind x)|auto..]. intros y s [H _]. exact H. Qed.
Lemma objective_triple x : triple before left_behind (fun _ => before) (dcc_objective_steps A k cpp n1 n2 x).
Proof.
  unfold dcc_objective_steps. destruct x as [|a [|b [|? ?]]]; try apply triple_raise.
  eapply triple_seq; [apply get_triple|intros m1]. eapply triple_seq; [apply get_triple|intros m2].
  eapply triple_seq; [|intros rho; apply ret_triple]. unfold correlations_steps.
  eapply triple_seq; [apply fit1_triple|intros ?]. eapply triple_seq; [apply fit2_triple|intros ?].
  eapply triple_seq; [apply get_triple|intros q1]. eapply triple_seq; [apply get_triple|intros q2]. apply lift_triple.
Qed.
Lemma search_triple ml grid best : triple before left_behind (fun _ => before) (dcc_search_steps A k cpp n1 n2 ml grid best).
Proof.
  revert best. induction grid as [|[a b] grid IH]; intros best; cbn [dcc_search_steps]; [apply ret_triple|].
  destruct (nleb _ _); [apply IH|]. eapply triple_seq; [apply objective_triple|]. intros f. apply IH.
Qed.
Lemma evals_triple pts : triple before left_behind (fun _ => before) (dcc_evaluation_steps A k cpp n1 n2 pts).
Proof.
  induction pts as [|x pts IH]; cbn [dcc_evaluation_steps]; [apply ret_triple|].
  eapply triple_seq; [apply objective_triple|]. intros f. apply IH.
Qed.
Lemma dcc_trace mini o' : d_success A o0 = false -> interrupted (dcc_steps A k cpp n1 n2 mini) o0 o' -> left_behind o'.
Proof.
  intros F H. assert (B : before o0) by (repeat split; exact F).
  destruct H as [<- |H]; [right; split; [exact F|]; intros _ _; split; reflexivity|].
  enough (T : triple before left_behind (fun _ _ => True) (dcc_steps A k cpp n1 n2 mini)) by (exact (proj1 (T o0 B) o' H)). clear H o'.
  unfold dcc_steps. eapply triple_seq; [apply get_triple|]. intros b. destruct b; [eapply triple_weaken; [apply ret_triple|auto..]|].
  eapply triple_seq; [apply fit1_triple|intros ?]. eapply triple_seq; [apply fit2_triple|intros ?].
  eapply triple_seq; [apply search_triple|intros ab]. eapply triple_seq; [apply get_triple|intros m1]. eapply triple_seq; [apply get_triple|intros m2].
  eapply triple_seq with (Q := fun _ => before).
  { apply triple_assign. intros o (G & S1 & S2). split; [|split; [exact G|auto]]. right. split; [exact G|]. intros _ _. split; [exact S1|exact S2]. }
  intros ?. cbv zeta. eapply triple_seq; [apply evals_triple|intros ?]. destruct (o_success A _); [|eapply triple_weaken; [apply ret_triple|auto..]].
  eapply triple_seq with (Q := fun _ o => d_success A o = true).
  { apply triple_assign. intros o _. split; [left; reflexivity|reflexivity]. }
  intros ?. destruct (o_x A _) as [|a [|b' [|? ?]]]; try apply triple_raise.
  eapply triple_seq with (Q := fun _ o => d_success A o = true). { apply triple_assign. intros o G. split; [left; exact G|exact G]. } intros ?.
  eapply triple_seq with (Q := fun _ o => d_success A o = true). { apply triple_assign. intros o G. split; [left; exact G|exact G]. } intros ?.
  apply triple_assign. intros o G. split; [left; exact G|exact I].
Qed.
(** C119: a DCC fit that was cut off before reporting success, with no GARCH sub-model torn, is simply run again: the same outcome.
    GJR sub-models may be cut off anywhere *)
Theorem C119_dcc_restart : forall mini mini' o', d_success A o0 = false -> interrupted (dcc_steps A k cpp n1 n2 mini) o0 o' -> d_success A o' = false ->
  not_torn k n1 (model1 A o0) (model1 A o') -> not_torn k n2 (model2 A o0) (model2 A o') ->
  dcc_fit A k cpp n1 n2 mini' o' = dcc_fit A k cpp n1 n2 mini' o0.
Proof.
  intros mini mini' o' F H F' N1 N2. destruct (dcc_trace mini o' F H) as [T|[_ K]]; [congruence|]. destruct (K N1 N2) as [J1 J2].
  unfold dcc_fit. rewrite F, F'.
  match goal with |- bind ?f1 (fun r1 => bind ?f2 ?g) = _ => set (G := fun s1 s2 : state => bind (dcc_starting_values A k cpp n1 n2 (s1, s2)) (fun sv =>
    let ab := fst sv in let ms := snd sv in
    let marginals := p_fields A (st_params A (fst ms)) ++ p_fields A (st_params A (snd ms)) in
    let opt := mini' [fst ab; snd ab] in
    bind (dcc_evals A k cpp n1 n2 (o_evals A opt) ms) (fun ms' =>
    if o_success A opt then
      match o_x A opt with
      | [a; b] => Ok {| d_models := ms'; d_success := true; d_marginals := marginals; d_a := a; d_b := b; d_ll := nopp (o_fun A opt) |}
      | _ => Err ValueError
      end
    else Ok {| d_models := ms'; d_success := false; d_marginals := marginals; d_a := nnan; d_b := nnan; d_ll := nnan |}))) end.
  change (bind (fit k n1 (model1 A o')) (fun r1 => bind (fit k n2 (model2 A o')) (fun r2 => G (snd r1) (snd r2))) =
          bind (fit k n1 (model1 A o0)) (fun r1 => bind (fit k n2 (model2 A o0)) (fun r2 => G (snd r1) (snd r2)))).
  transitivity (bind (final_state (fit k n1 (model1 A o'))) (fun s1 => bind (final_state (fit k n2 (model2 A o'))) (fun s2 => G s1 s2))).
  - rewrite <- bind_final. apply bind_ext. intros r1. rewrite <- bind_final. reflexivity.
  - unfold same1, same2 in *. rewrite J1, J2. rewrite <- bind_final. apply bind_ext. intros r1. rewrite <- bind_final. reflexivity.
Qed.
(** "a DCC model that reports success has estimates" is false: there is a place where the flag is set and a, b and the log-likelihood are NaN,
    and from there fit does nothing, for ever *)
Theorem C119_dcc_success_without_estimates_refuted : forall mini o1, d_success A o0 = false -> dcc_fit A k cpp n1 n2 mini o0 = Ok o1 -> d_success A o1 = true ->
  exists o', interrupted (dcc_steps A k cpp n1 n2 mini) o0 o' /\ d_success A o' = true /\ d_a A o' = nnan /\ d_b A o' = nnan /\ d_ll A o' = nnan /\
    forall ms, dcc_fits A k cpp n1 n2 ms o' = Ok o'.
Proof.
  intros mini o1 F H T. unfold dcc_fit in H. rewrite F in H.
  destruct (fit k n1 (fst (d_models A o0))) as [[r1 s1]|] eqn:E1; [|discriminate]. cbn [bind] in H.
  destruct (fit k n2 (snd (d_models A o0))) as [[r2 s2]|] eqn:E2; [|discriminate]. cbn [bind snd] in H.
  destruct (dcc_starting_values A k cpp n1 n2 (s1, s2)) as [[ab ms]|] eqn:E3; [|discriminate]. cbn [bind fst snd] in H. cbv zeta in H.
  destruct (dcc_evals A k cpp n1 n2 _ ms) as [ms'|] eqn:E4; [|discriminate]. cbn [bind] in H.
  destruct (o_success A (mini [fst ab; snd ab])) eqn:E5; [|injection H as <-; discriminate T]. clear H T o1.
  set (mar := p_fields A (st_params A (fst ms)) ++ p_fields A (st_params A (snd ms))).
  exists {| d_models := ms'; d_success := true; d_marginals := mar; d_a := nnan; d_b := nnan; d_ll := nnan |}.
  split; [|repeat split; induction ms0 as [|m0 ms0 IH]; [reflexivity|exact IH]].
  assert (U1 : forall x, set_d1 A (model1 A x) x = x) by (intros [[] ? ? ? ? ?]; reflexivity).
  assert (U2 : forall x, set_d2 A (model2 A x) x = x) by (intros [[] ? ? ? ? ?]; reflexivity).
  right. unfold dcc_steps. apply (in_seq_r _ _ _ _ false o0); [rewrite complete_get, F; reflexivity|]. cbv iota.
  apply (in_seq_r _ _ _ _ r1 (set_d1 A s1 o0)); [rewrite complete_within by apply U1; rewrite C119_complete_fit; unfold model1; rewrite E1; reflexivity|].
  apply (in_seq_r _ _ _ _ r2 (set_d2 A s2 (set_d1 A s1 o0))); [rewrite complete_within by apply U2; rewrite C119_complete_fit; unfold model2; cbn [set_d1 d_models snd]; rewrite E2; reflexivity|].
  apply (in_seq_r _ _ _ _ ab (with_models ms o0)).
  { rewrite complete_dcc_search. unfold dcc_starting_values in E3. cbn [set_d1 set_d2 d_models fst snd]. rewrite E3. reflexivity. }
  apply (in_seq_r _ _ _ _ (fst ms) (with_models ms o0)); [reflexivity|].
  apply (in_seq_r _ _ _ _ (snd ms) (with_models ms o0)); [reflexivity|].
  apply (in_seq_r _ _ _ _ tt {| d_models := ms; d_success := false; d_marginals := mar; d_a := nnan; d_b := nnan; d_ll := nnan |}).
  { rewrite complete_assign. cbn [with_models d_models d_success]. rewrite F. reflexivity. }
  cbv zeta. apply (in_seq_r _ _ _ _ tt {| d_models := ms'; d_success := false; d_marginals := mar; d_a := nnan; d_b := nnan; d_ll := nnan |}).
  { rewrite complete_dcc_evaluations. cbn [d_models]. rewrite E4. reflexivity. }
  rewrite E5. apply in_seq_l. left. reflexivity.
Qed.
End DCC.

(** ** PIN *)
Lemma complete_consider m r o : complete (consider_steps A m r) o = Ok (tt, consider A m o r).
Proof.
  unfold consider_steps, consider. destruct (success A r); [|reflexivity]. rewrite complete_seq, complete_get. cbn [bind fst snd]. cbv zeta. destruct (_ || _); [|reflexivity].
  reflexivity.
Qed.
Lemma complete_loop m rs o : complete (loop_steps A m rs) o = Ok (tt, fold_left (consider A m) rs o).
Proof.
  revert o. induction rs as [|r rs IH]; intros o; [reflexivity|]. cbn [loop_steps fold_left]. rewrite complete_seq, complete_consider. cbn [bind fst snd]. apply IH.
Qed.
Theorem C119_complete_pin : forall o method min, complete (estimate_steps A method min) o =
  bind (snd (estimate A o method min)) (fun p => Ok (p, fst (estimate A o method min))).
Proof.
  intros o [m|] min; [|reflexivity]. unfold estimate_steps, estimate. rewrite complete_seq, complete_assign. cbn [bind fst snd]. rewrite complete_seq, complete_get. cbn [bind fst snd].
  rewrite complete_seq, complete_loop. cbn [bind fst snd]. rewrite complete_get. reflexivity.
Qed.
(** C119: a PIN estimation that was cut off leaves the object as it was, or holding the best of the first j optimizer runs, for some j
    (its pin and method perhaps not filled in yet), and success is reported exactly if it was before, or one of those runs was accepted;
    the last accepted run may not have set the flag yet *)
Theorem C119_pin_interrupted : forall o m min o', interrupted (estimate_steps A (Some m) min) o o' -> o' = o \/
  (pin_B A o' = pin_B A o /\ pin_S A o' = pin_S A o /\
   exists j, let best := fold_left (consider A m) (firstn j (runs A o m min)) (mkPIN A (pin_B A o) (pin_S A o) (estimation_success A o) (no_parameters A)) in
     par A (pin_parameters A o') = par A (pin_parameters A best) /\ par_ll A (pin_parameters A o') = par_ll A (pin_parameters A best) /\
     (estimation_success A o' = true -> estimation_success A best = true) /\
     (o' = best \/ (par_method A (pin_parameters A o') = None /\ (par_pin A (pin_parameters A o') = nnan \/ par_pin A (pin_parameters A o') = par_pin A (pin_parameters A best))) \/
      (pin_parameters A o' = pin_parameters A best))).
Proof.
  intros o m min o' [<- |H]; [left; reflexivity|]. right. unfold estimate_steps in H.
  apply in_seq in H. destruct H as [[<-|[]]|(u & _ & H)].
  { split; [reflexivity|]. split; [reflexivity|]. exists 0. cbn [firstn fold_left]. repeat split; auto. }
  unfold end_state in H. cbn [assign fst last] in H. set (r0 := set_parameters A (no_parameters A) o) in *.
  change (mkPIN A (pin_B A o) (pin_S A o) (estimation_success A o) (no_parameters A)) with r0.
  apply in_seq in H. destruct H as [[]|(rs & Ers & H)]. cbn [get snd] in Ers. injection Ers as <-. unfold end_state in H. cbn [get fst last] in H.
  change (runs A r0 m min) with (runs A o m min) in H. apply in_seq in H. destruct H as [H|(v & _ & H)]; [|destruct H].
  change (pin_B A o) with (pin_B A r0). change (pin_S A o) with (pin_S A r0). clearbody r0. revert r0 H. induction (runs A o m min) as [|r rs IH]; intros r0 H; [destruct H|].
  cbn [loop_steps] in H. apply in_seq in H. destruct H as [H|(w & Ew & H)].
  - unfold consider_steps in H. destruct (success A r) eqn:Es; [|destruct H].
    apply in_seq in H. destruct H as [[]|(ll & Ell & H)]. cbn [get snd] in Ell. injection Ell as <-. unfold end_state in H. cbn [get fst last] in H.
    destruct (_ || _) eqn:Ec in H; [|destruct H].
    assert (B : fold_left (consider A m) (firstn 1 (r :: rs)) r0 = mkPIN A (pin_B A r0) (pin_S A r0) true (mkPar A (opt_x A r) (nopp (opt_fun A r)) (calculate_pin A (opt_x A r)) (Some m))).
    { cbn [firstn fold_left]. unfold consider. rewrite Es. cbv zeta. rewrite Ec. reflexivity. }
    apply in_seq in H. destruct H as [[<-|[]]|(q1 & _ & H)].
    { split; [reflexivity|]. split; [reflexivity|]. exists 1. rewrite B. cbv zeta. cbn [set_parameters pin_parameters par par_ll par_pin par_method]. repeat split; auto. }
    unfold end_state in H. cbn [assign fst last] in H. apply in_seq in H. destruct H as [[<-|[]]|(q2 & _ & H)].
    { split; [reflexivity|]. split; [reflexivity|]. exists 1. rewrite B. cbv zeta. cbn [set_parameters pin_parameters par par_ll par_pin par_method]. repeat split; auto. }
    unfold end_state in H. cbn [assign fst last] in H. apply in_seq in H. destruct H as [[<-|[]]|(q3 & _ & H)].
    { split; [reflexivity|]. split; [reflexivity|]. exists 1. rewrite B. cbv zeta. cbn [set_parameters pin_parameters par par_ll par_pin par_method]. repeat split; auto. }
    unfold end_state in H. cbn [assign fst last] in H. destruct H as [<-|[]].
    split; [reflexivity|]. split; [reflexivity|]. exists 1. rewrite B. cbv zeta. repeat split; auto.
  - pose proof (complete_ok _ _ _ Ew) as C. rewrite complete_consider in C. injection C as _ C. rewrite <- C in H.
    destruct (IH _ H) as (B1 & B2 & j & K). assert (X : pin_B A (consider A m r0 r) = pin_B A r0 /\ pin_S A (consider A m r0 r) = pin_S A r0).
    { unfold consider. destruct (success A r); [cbv zeta; destruct (_ || _)|]; split; reflexivity. }
    destruct X as [X1 X2]. split; [congruence|]. split; [congruence|]. exists (S j). cbn [firstn fold_left]. exact K.
Qed.
(** C119: whatever place the estimation was cut off at, estimating again gives the same answer as if it had never been started *)
Theorem C119_pin_again : forall o m min o' method min', interrupted (estimate_steps A m min) o o' ->
  snd (estimate A o' method min') = snd (estimate A o method min').
Proof.
  intros o m min o' method min' H. destruct method as [q|]; [|reflexivity].
  assert (X : pin_B A o' = pin_B A o /\ pin_S A o' = pin_S A o).
  { destruct m as [m|]; [|destruct H as [<-|[]]; auto]. destruct (C119_pin_interrupted o m min o' H) as [-> |(B1 & B2 & _)]; auto. }
  destruct X as [X1 X2]. unfold estimate. cbn [snd]. f_equal.
  assert (R : runs A o' q min' = runs A o q min') by (unfold runs, Model_pin.objective; rewrite X1, X2; reflexivity). rewrite R, X1, X2.
  enough (G : forall rs a b, pin_parameters A a = pin_parameters A b -> pin_parameters A (fold_left (consider A q) rs a) = pin_parameters A (fold_left (consider A q) rs b))
    by (apply G; reflexivity).
  clear. induction rs as [|r rs IH]; intros a b H; [exact H|]. cbn [fold_left]. apply IH. unfold consider. rewrite H.
  destruct (success A r); [cbv zeta; destruct (_ || _); [reflexivity|exact H]|exact H].
Qed.
(** "an object that reports success has an estimate" is false of PIN as well: a second estimation that is cut off right at its start has
    already erased the first one's parameters, and success is still reported *)
Theorem C119_pin_stale_success_refuted : forall o m min, estimation_success A o = true ->
  exists o', interrupted (estimate_steps A (Some m) min) o o' /\ estimation_success A o' = true /\ pin_parameters A o' = no_parameters A.
Proof.
  intros o m min H. exists (set_parameters A (no_parameters A) o). split; [|split; [exact H|reflexivity]].
  right. unfold estimate_steps. apply in_seq_l. left. reflexivity.
Qed.
(** the first assignment of every fit that does any work *)
Lemma first_write k m s : st_success A s = false -> In (set_backcast A (backcast_py A (resids_of s)) s) (fst (fit_steps A k m s)).
Proof.
  intros F. unfold fit_steps. apply (in_seq_r _ _ _ _ false s); [rewrite complete_get, F; reflexivity|].
  destruct k; apply in_seq_l; unfold preparation_steps; (apply (in_seq_r _ _ _ _ (st_returns A s) s); [reflexivity|]); (apply (in_seq_r _ _ _ _ (st_zero_mean A s) s); [reflexivity|]);
    cbv zeta; apply in_seq_l; left; reflexivity.
Qed.
End T.
