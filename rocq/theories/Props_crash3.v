(** * Concrete cases for C119 *)
From Coq Require Import Reals ZArith List Bool Lra Lia.
From Verif Require Import Arith XR RealAux Model_garch Model_mgarch Model_pin Model_lrmes Model_crash Proofs_garch5 Props_crash Props_crash2 Props_garch2 Props_pin2 Props_lrmes2 Props_lrmes3.
Import ListNotations.
Open Scope R_scope.

(** a GARCH fit that succeeds; one of its unfinished states is harmless, another reports success without estimates *)
Example C119_case : exists (m : solver XRA) ps s1, let s := init XRA KGarch (map Fin [1; -2; 3]) [] [] false in
  fit XRA KGarch m s = Ok (Some ps, s1) /\ st_success XRA s1 = true /\
  (exists s', interrupted (fit_steps XRA KGarch m) s s' /\ s' <> s /\ st_success XRA s' = false) /\
  (exists s', interrupted (fit_steps XRA KGarch m) s s' /\ st_success XRA s' = true /\ st_params XRA s' = nan_params XRA KGarch).
Proof.
  set (s := init XRA KGarch (map Fin [1; -2; 3]) [] [] false).
  assert (HV : 0 < Rvar [1; -2; 3]).
  { apply Rvar_pos_iff; [discriminate|]. exists 1, (-2). simpl. repeat split; auto. lra. }
  destruct (preparation_fin KGarch s [1; -2; 3] eq_refl HV) as (st1 & EP & _ & HB & _).
  set (good := (fun _ _ => Build_opt_run XRA [] true [Fin 0; Fin 1; Fin 0; Fin 0] (Fin 5)) : solver XRA).
  destruct (fit XRA KGarch good s) as [[r st2]|e] eqn:E.
  2:{ rewrite fit_unfold in E by (intros [_ ?]; discriminate). rewrite EP in E. cbn in E. discriminate E. }
  assert (S2 : exists ps, r = Some ps /\ st_success XRA st2 = true).
  { rewrite fit_unfold in E by (intros [_ ?]; discriminate). rewrite EP in E. cbn in E. injection E as <- <-. eexists. split; reflexivity. }
  destruct S2 as (ps & -> & S2). exists good, ps, st2. cbv zeta. fold s. split; [exact E|]. split; [exact S2|]. split.
  - exists (set_backcast XRA (backcast_py XRA (resids_of s)) s). split; [right; apply first_write; reflexivity|]. split; [|reflexivity].
    intros C. apply (f_equal (st_backcast XRA)) in C. cbn [set_backcast st_backcast s init] in C.
    assert (X : st_backcast XRA st1 = backcast_py XRA (resids_of s)).
    { unfold preparation in EP. destruct (variance_bounds XRA _) as [vb|]; [|discriminate EP]. cbn [bind] in EP.
      destruct (Model_garch.starting_values XRA KGarch _ _ _ _) as [vp|]; [|discriminate EP]. cbn [bind] in EP. apply (f_equal (fun z => match z with Ok p => st_backcast XRA (snd p) | Err _ => NaN end)) in EP. cbn [snd] in EP. rewrite <- EP. reflexivity. }
    rewrite HB in X. rewrite <- X in C. discriminate C.
  - destruct (C119_success_without_estimates_refuted good s ps st2 eq_refl E S2) as (s' & H1 & H2 & H3 & _). exists s'. split; [exact H1|]. split; [exact H2|exact H3].
Qed.
(** a DCC fit (GJR margins) that succeeds: it passes through a state that reports success with NaN estimates, and through one that is
    unfinished and does not report success *)
Example C119_dcc_case : exists o o1 : dcc XRA, let fits := dcc_steps XRA KGjr true (fun _ _ => case_run) (fun _ _ => case_run) (fun _ => case_joint) in
  d_success XRA o = false /\ d_success XRA o1 = true /\ dcc_fit XRA KGjr true (fun _ _ => case_run) (fun _ _ => case_run) (fun _ => case_joint) o = Ok o1 /\
  (exists o', interrupted fits o o' /\ d_success XRA o' = true /\ d_a XRA o' = NaN) /\
  (exists o', interrupted fits o o' /\ d_success XRA o' = false /\ model1 XRA o' = set_backcast XRA (backcast_py XRA (resids_of (model1 XRA o))) (model1 XRA o)).
Proof.
  destruct C21_end_to_end_case as (o & o1 & v & E1 & E2 & _ & E3). exists o, o1. cbv zeta.
  unfold Model_lrmes.lrmes_init in E1. destruct (Nat.eqb _ _) in E1; [|discriminate E1]. cbn [check] in E1.
  assert (HO : d_success XRA o = false) by (injection E1 as <-; reflexivity).
  assert (F : st_success XRA (model1 XRA o) = false /\ st_backcast XRA (model1 XRA o) = NaN) by (injection E1 as <-; split; reflexivity).
  destruct (C77_estimates_do_not_influence_each_other XRA _ _ _ _ _ _ _ _ _ _ HO E3) as [H2 _]. destruct F as [F _].
  split; [exact HO|]. split; [exact E2|]. split; [exact H2|]. split.
  - destruct (C119_dcc_success_without_estimates_refuted KGjr true (fun _ _ => case_run) (fun _ _ => case_run) o (fun _ => case_joint) o1 HO H2 E2) as (o' & K1 & K2 & K3 & _).
    exists o'. auto.
  - exists (set_d1 XRA (set_backcast XRA (backcast_py XRA (resids_of (model1 XRA o))) (model1 XRA o)) o). split; [|split; [exact HO|reflexivity]].
    right. unfold dcc_steps. apply (in_seq_r _ _ _ _ false o); [rewrite complete_get, HO; reflexivity|]. cbv iota. apply in_seq_l. unfold within.
    pose proof (@first_write XRA KGjr (fun _ _ => case_run) (model1 XRA o) F) as W. destruct (fit_steps XRA KGjr (fun _ _ => case_run) (model1 XRA o)) as [t r]. cbn [fst] in W |- *.
    apply in_map_iff. eexists. split; [reflexivity|exact W].
Qed.
(** a PIN estimation that succeeds and a second one cut off at its start *)
Example C119_pin_case : estimation_success XRA (fst (Model_pin.estimate XRA demo (Some EHO2010) (demo_min true))) = true /\
  exists o', interrupted (estimate_steps XRA (Some LK2011) (demo_min true)) (fst (Model_pin.estimate XRA demo (Some EHO2010) (demo_min true))) o' /\
    estimation_success XRA o' = true /\ par_ll XRA (pin_parameters XRA o') = NaN.
Proof.
  assert (S : estimation_success XRA (fst (Model_pin.estimate XRA demo (Some EHO2010) (demo_min true))) = true).
  { destruct C56_case as (C1 & _ & _ & C4). rewrite (C56_flag demo EHO2010 (demo_min true) C4). apply orb_true_iff. right. apply existsb_exists. exact C1. }
  split; [exact S|]. destruct (C119_pin_stale_success_refuted _ LK2011 (demo_min true) S) as (o' & H1 & H2 & H3). exists o'. split; [exact H1|]. split; [exact H2|]. rewrite H3. reflexivity.
Qed.
