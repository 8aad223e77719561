(** * C141: how far the simulated SRISK is from the exact one *)
From Coq Require Import Reals Lra Lia ZArith List Bool.
From Verif Require Import Arith XR RealAux Spec_measures Model_garch Spec_garch Model_ar Model_mgarch Props_mgarch Props_mgarch2 Model_lrmes Props_lrmes Props_lrmes2 Props_lrmes3 Model_measures Props_srisk Model_srisk Draws Props_volterm Props_montecarlo Props_srisk2.
Import ListNotations.
Local Open Scope R_scope.

(** the same computation, the random generator having returned the scenarios [ds] (each a list of day numbers) *)
Definition with_draws (e : lrmes_env XRA) (ds : list (list nat)) : lrmes_env XRA :=
  {| e_cpp1 := e_cpp1 XRA e; e_cpp2 := e_cpp2 XRA e; e_firm_solver := e_firm_solver XRA e; e_market_solver := e_market_solver XRA e; e_joint_solver := e_joint_solver XRA e;
     e_draws := fun _ => ds; e_C := e_C XRA e; e_mem1 := e_mem1 XRA e; e_mem2 := e_mem2 XRA e; e_mem3 := e_mem3 XRA e; e_mem4 := e_mem4 XRA e |}.
(** the model fitted to the two return series: [s] with the firm's and the market's innovations [xi] and [zm], one per day; whatever
    days are drawn, these are what is simulated from *)
Definition fitted (e : lrmes_env XRA) (C : R) (f m : list R) (s : setting) (xi zm : list R) : Prop :=
  good_setting s /\ length xi = length m /\ length zm = length m /\ zm <> [] /\
  forall ds, (forall d k, In d ds -> In k d -> (k < length m)%nat) -> estimated (with_draws e ds) C f m s (resample xi zm ds).

(** Every successful estimation determines such a model: it does not depend on the draws. *)
Theorem C141_fitted : forall e C f m s sc, estimated e C f m s sc ->
  exists xi zm, fitted e C f m s xi zm /\ sc = resample xi zm (e_draws XRA e (length m)).
Proof.
  intros e C f m s sc (gi & gm & li & lm & xi & xm & si & sm & a & b & ll & rho & EC & HL & Hf & Hm & Vi & Vm & Ri & Rm & Gi & Gm & Si & Sm & Pi & Pm & J1 & J2 & J3 & J4 & Ha & Hb & Hab & Ni & Nm & HT & HD & ER & -> & ->).
  set (zi := zscores (residuals gi (log_returns f)) si) in *. set (zm := zscores (residuals gm (log_returns m)) sm) in *.
  assert (LFm : length (log_returns f) = length m) by (unfold log_returns; rewrite map_length; auto).
  assert (LMm : length (log_returns m) = length m) by (unfold log_returns; apply map_length).
  assert (LS : forall r x s, variances_at r x s -> 0 < Rvar r -> length x = 5%nat -> length s = length r).
  { intros r x s V HV HX. destruct x as [|x0 [|x1 [|x2 [|x3 [|x4 [|? ?]]]]]]; try discriminate HX.
    destruct (C21_variances_exist r x0 x1 x2 x3 x4 HV) as (s' & V' & L & _). rewrite (variances_unique _ _ _ _ V V'). exact L. }
  assert (LX : forall run g l x, finite_run run g l x -> length x = 5%nat).
  { intros run g l x (_ & _ & _ & pts & _ & HF). rewrite Forall_app in HF. destruct HF as [_ HF]. inversion HF; auto. }
  assert (Li := LS _ _ _ Si Vi (LX _ _ _ _ Ri)). assert (Lm := LS _ _ _ Sm Vm (LX _ _ _ _ Rm)).
  assert (LI : length (residuals gi (log_returns f)) = length m) by (unfold residuals; rewrite map_length; auto).
  assert (LM : length (residuals gm (log_returns m)) = length m) by (unfold residuals; rewrite map_length; auto).
  assert (Lzi : length zi = length m) by (unfold zi; rewrite zscores_length by lia; lia).
  assert (Lzm : length zm = length m) by (unfold zm; rewrite zscores_length by lia; lia).
  assert (LR : length rho = length m).
  { assert (Hne : ~ (a = 1 /\ b = 0)) by lra.
    destruct (C15_conditional_correlations_in_range (e_cpp1 XRA e) a b (residuals gi (log_returns f)) (residuals gm (log_returns m)) si sm ltac:(lia) ltac:(lia) ltac:(lia) Pi Pm Ha Hb ltac:(lra) Hne Ni Nm) as (rho' & EC' & L & _).
    change (num XRA) with xr in *. rewrite ER in EC'. injection EC' as EC'. apply (f_equal (@length xr)) in EC'. rewrite !map_length in EC'. lia. }
  exists (orth zi zm rho), zm. rewrite LFm. split; [|reflexivity].
  destruct (end_to_end_setup (e_cpp1 XRA e) (e_firm_solver XRA e (map Fin f)) (e_market_solver XRA e (map Fin m)) (e_joint_solver XRA e (map Fin f) (map Fin m)) (e_draws XRA e)
    f m (e_mem1 XRA e) (e_mem2 XRA e) (e_mem3 XRA e) (e_mem4 XRA e) gi gm li lm xi xm si sm a b ll) as (o & o1 & rho' & EI & ER' & _ & _ & _ & _ & _ & HG & EE); auto.
  rewrite ER in ER'. injection ER' as ER'. apply fin_inj in ER'. subst rho'.
  split; [exact HG|]. split; [unfold orth; rewrite map2_length, combine_length, LR, Lzi, Lzm; lia|]. split; [exact Lzm|].
  split; [intros E; apply non_constant_length in Nm; fold zm in Nm; rewrite E in Nm; cbn in Nm; lia|].
  intros ds Hds. unfold estimated. cbv zeta. exists gi, gm, li, lm, xi, xm, si, sm, a, b, ll, rho. cbn [with_draws e_cpp1 e_firm_solver e_market_solver e_joint_solver e_draws e_C].
  rewrite LFm. fold zi zm. do 24 (split; [assumption|]). split; [exact Hds|]. split; [exact ER|]. split; reflexivity.
Qed.

(** the value SRISK.estimate returns for one firm when the generator drew [ds] *)
Definition returned (e : lrmes_env XRA) (f m : list R) (W D : pyval XRA) (k : R) (ds : list (list nat)) : R :=
  match srisk_call_one XRA (with_draws e ds) (map Fin f) (map Fin m) W D (Fin k) false with Ok (_, Fin v) => v | _ => 0 end.
(** a bound on the share of the draws that are off: p is the share of the n^h scenarios that are systemic *)
Definition off_share (s : setting) (xi zm : list R) (C : R) (h S : nat) (eps : R) : R :=
  let p := share (day_draws (length zm) h) (fun d => is_systemic s C (shocks_of xi zm d)) in
  4 / (INR S * p) * (1 - p + Rvar (firm_returns s xi zm C (day_draws (length zm) h)) / eps ^ 2).

Lemma lrmes_value_shortfall C s xi zm ds : lrmes_value C s (resample xi zm ds) = shortfall s xi zm C ds.
Proof.
  unfold lrmes_value, shortfall, firm_returns, systemic_draws.
  assert (E : systemic s C (resample xi zm ds) = map (shocks_of xi zm) (filter (fun d => is_systemic s C (shocks_of xi zm d)) ds)).
  { unfold systemic, resample. induction ds as [|d ds IH]; [reflexivity|]. cbn [map filter]. unfold is_systemic at 1, shocks_of at 1. destruct (Rlt_dec _ C); rewrite IH; reflexivity. }
  rewrite E, <- (map_map (shocks_of xi zm) (firm_return s)). destruct (map (shocks_of xi zm) _); reflexivity.
Qed.
Lemma draws_below n h ds : (forall d, In d ds -> In d (day_draws n h)) -> forall d k, In d ds -> In k d -> (k < n)%nat.
Proof. intros H d k Hd Hk. apply H, sequences_spec in Hd. destruct Hd as [_ Hd]. apply Hd, in_seq in Hk. lia. Qed.
Lemma experiment_below n h S ds : In ds (experiments n h S) -> forall d k, In d ds -> In k d -> (k < n)%nat.
Proof. intros H. apply (draws_below n h). intros d Hd. apply sequences_spec in H. destruct H as [_ H]. auto. Qed.
Lemma shortfall_gap k D W C s xi zm ds es :
  Rabs (mean_shortfall k D W C s (resample xi zm ds) - mean_shortfall k D W C s (resample xi zm es)) = Rabs ((1 - k) * W) * Rabs (shortfall s xi zm C ds - shortfall s xi zm C es).
Proof. rewrite !mean_shortfall_lrmes, !lrmes_value_shortfall. rewrite <- Rabs_mult. f_equal. ring. Qed.

(** One firm. [exact] is the value returned when each of the n^h possible scenarios is simulated exactly once. Every possible draw of S
    scenarios returns a number, and among the (n^h)^S of them the share for which it is more than |(1-k)W| eps away from [exact] is at
    most 4/(S p) (1 - p + var/eps^2). *)
Theorem C141_firm : forall e C f m s xi zm k W D PW PD h S eps, fitted e C f m s xi zm ->
  is_float XRA PW = true -> is_float XRA PD = true -> number_of PW = Fin W -> number_of PD = Fin D -> W <> 0 -> k <> 1 -> (0 < S)%nat -> 0 < eps ->
  let exact := returned e f m PW PD k (day_draws (length m) h) in
  (forall ds, In ds (experiments (length m) h S) -> exists t v, srisk_call_one XRA (with_draws e ds) (map Fin f) (map Fin m) PW PD (Fin k) false = Ok (t, Fin v)) /\
  exact = mean_shortfall k D W C s (resample xi zm (day_draws (length m) h)) /\
  (0 < share (day_draws (length m) h) (fun d => is_systemic s C (shocks_of xi zm d)) ->
   share (experiments (length m) h S) (fun ds => if Rlt_dec (Rabs ((1 - k) * W) * eps) (Rabs (returned e f m PW PD k ds - exact)) then true else false)
     <= off_share s xi zm C h S eps).
Proof.
  intros e C f m s xi zm k W D PW PD h S eps (HG & LX & LZ & NE & HE) FW FD NW ND HW Hk HS He exact.
  assert (CALL : forall ds, (forall d k, In d ds -> In k d -> (k < length m)%nat) -> exists t, srisk_call_one XRA (with_draws e ds) (map Fin f) (map Fin m) PW PD (Fin k) false = Ok (t, Fin (mean_shortfall k D W C s (resample xi zm ds)))).
  { intros ds Hds. apply C108_srisk_is_the_mean_shortfall; auto. }
  assert (RET : forall ds, (forall d k, In d ds -> In k d -> (k < length m)%nat) -> returned e f m PW PD k ds = mean_shortfall k D W C s (resample xi zm ds)).
  { intros ds Hds. unfold returned. destruct (CALL ds Hds) as [t ->]. reflexivity. }
  assert (ALL : forall d k, In d (day_draws (length m) h) -> In k d -> (k < length m)%nat) by (apply (draws_below _ h); auto).
  split; [intros ds Hds; destruct (CALL ds (experiment_below _ _ _ _ Hds)) as [t E]; eexists; eexists; exact E|].
  split; [apply RET; exact ALL|]. intros Hp. unfold exact. rewrite (RET _ ALL). unfold off_share. rewrite LZ in *. rewrite <- LZ in Hp |- *.
  destruct (C131_monte_carlo_error true s xi zm C h S eps HG ltac:(lia) NE HS He Hp) as (_ & _ & B). cbv zeta in B. refine (Rle_trans _ _ _ _ B). apply share_le.
  intros ds Hds. rewrite LZ in Hds. rewrite (RET ds (experiment_below _ _ _ _ Hds)), shortfall_gap.
  assert (P : 0 < Rabs ((1 - k) * W)) by (apply Rabs_pos_lt, Rmult_integral_contrapositive_currified; lra).
  destruct (Rlt_dec _ _) as [H|]; [|discriminate]. intros _. destruct (Rlt_dec eps _) as [|N]; [reflexivity|]. exfalso. apply N. apply Rmult_lt_reg_l in H; auto.
Qed.

(** Several firms, priced with the same market draws. *)
Record firm_model := { fm_returns : list R; fm_W : R; fm_D : R; fm_setting : setting; fm_xi : list R; fm_zm : list R }.
Definition fm_ok (e : lrmes_env XRA) (C : R) (m : list R) (c : firm_model) : Prop := fitted e C (fm_returns c) m (fm_setting c) (fm_xi c) (fm_zm c) /\ fm_W c <> 0.
(** the share of the n^h scenarios in which the market, simulated with this firm's model, falls by more than C *)
Definition systemic_share (C : R) (h : nat) (c : firm_model) : R :=
  share (day_draws (length (fm_zm c)) h) (fun d => is_systemic (fm_setting c) C (shocks_of (fm_xi c) (fm_zm c) d)).
(** the aggregate value SRISK.estimate returns when the generator drew [ds], and the value per firm *)
Definition call_aggregate (e : lrmes_env XRA) (firms : list firm_model) (m : list R) (k : R) (ds : list (list nat)) : res xr :=
  srisk_call_aggregate XRA (with_draws e ds) (map (fun c => map Fin (fm_returns c)) firms) (map Fin m) (map (fun c => Fin (fm_W c)) firms) (map (fun c => Fin (fm_D c)) firms) (Fin k).
Definition returned_aggregate (e : lrmes_env XRA) (firms : list firm_model) (m : list R) (k : R) (ds : list (list nat)) : R :=
  match call_aggregate e firms m k ds with Ok (Fin v) => v | _ => 0 end.
Definition call_vector (e : lrmes_env XRA) (firms : list firm_model) (m : list R) (k : R) (ds : list (list nat)) : res (list xr) :=
  srisk_call_many XRA (with_draws e ds) (map (fun c => map Fin (fm_returns c)) firms) (map Fin m) (map (fun c => Fin (fm_W c)) firms) (map (fun c => Fin (fm_D c)) firms) (Fin k).
Definition fm_shortfall (k C : R) (ds : list (list nat)) (c : firm_model) : R := mean_shortfall k (fm_D c) (fm_W c) C (fm_setting c) (resample (fm_xi c) (fm_zm c) ds).

Lemma fm_calls e C m k firms ds : Forall (fm_ok e C m) firms -> (forall d k, In d ds -> In k d -> (k < length m)%nat) ->
  call_vector e firms m k ds = Ok (map Fin (map (fm_shortfall k C ds) firms)) /\
  call_aggregate e firms m k ds = Ok (Fin (Rsum (map (fun c => Rmax (fm_shortfall k C ds c) 0) firms))).
Proof.
  intros HF Hd. set (g := fun c => Build_firm_case (fm_returns c) (fm_W c) (fm_D c) (fm_setting c) (resample (fm_xi c) (fm_zm c) ds)).
  assert (H : Forall (fc_ok (with_draws e ds) C m) (map g firms)).
  { apply Forall_forall. intros x Hx. apply in_map_iff in Hx. destruct Hx as (c & <- & Hc). rewrite Forall_forall in HF. destruct (HF c Hc) as [(_ & _ & _ & _ & HE) HW].
    split; [apply HE; exact Hd|exact HW]. }
  destruct (C108_many_firms (with_draws e ds) C m k (map g firms) H) as [E1 E2]. repeat rewrite map_map in E1. rewrite !map_map in E2. split; [rewrite map_map; exact E1|exact E2].
Qed.
Lemma Rmax_gap x y : Rabs (Rmax x 0 - Rmax y 0) <= Rabs (x - y).
Proof. unfold Rmax, Rabs. repeat destruct (Rle_dec _ _); repeat destruct (Rcase_abs _); lra. Qed.
Lemma sum_gap {T} (l : list T) f g : Rabs (Rsum (map f l) - Rsum (map g l)) <= Rsum (map (fun x => Rabs (f x - g x)) l).
Proof.
  induction l as [|x l IH]; [cbn; rewrite Rminus_0_r, Rabs_R0; lra|]. cbn [map]. rewrite !Rsum_cons.
  replace (f x + Rsum (map f l) - (g x + Rsum (map g l))) with ((f x - g x) + (Rsum (map f l) - Rsum (map g l))) by ring. eapply Rle_trans; [apply Rabs_triang|]. lra.
Qed.
Lemma share_union {T U} (l : list T) (cs : list U) (P : U -> T -> bool) : share l (fun x => existsb (fun c => P c x) cs) <= Rsum (map (fun c => share l (P c)) cs).
Proof.
  induction cs as [|c cs IH]; [unfold share, average; rewrite (Rsum_map_ext _ (fun _ => 0)) by reflexivity; rewrite Rsum_const; cbn; unfold Rdiv; lra|].
  cbn [existsb map]. rewrite Rsum_cons. eapply Rle_trans; [apply share_or|]. lra.
Qed.

(** The market being simulated from the same draws with the same model, a scenario is systemic for every firm or for none. *)
Theorem C141_same_events : forall e C m c c' h, fm_ok e C m c -> fm_ok e C m c' ->
  (forall d, In d (day_draws (length m) h) -> is_systemic (fm_setting c) C (shocks_of (fm_xi c) (fm_zm c) d) = is_systemic (fm_setting c') C (shocks_of (fm_xi c') (fm_zm c') d)) /\
  systemic_share C h c = systemic_share C h c'.
Proof.
  intros e C m c c' h [(HG & LX & LZ & NE & HE) _] [(HG' & LX' & LZ' & NE' & HE') _].
  assert (EQ : forall d, In d (day_draws (length m) h) -> is_systemic (fm_setting c) C (shocks_of (fm_xi c) (fm_zm c) d) = is_systemic (fm_setting c') C (shocks_of (fm_xi c') (fm_zm c') d)).
  { intros d Hd. assert (B : forall d' k, In d' [d] -> In k d' -> (k < length m)%nat) by (intros d' k [<-|[]] Hk; eapply draws_below with (ds := [d]); [intros ? [<-|[]]; exact Hd|left; reflexivity|exact Hk]).
    destruct (estimated_market _ _ _ _ _ _ _ _ _ (HE [d] B) (HE' [d] B)) as (_ & _ & E). specialize (E 0%nat). cbn [resample map nth] in E. unfold is_systemic, shocks_of. rewrite E. reflexivity. }
  split; [exact EQ|]. unfold systemic_share. rewrite LZ, LZ'. unfold share. apply average_ext. intros d Hd. rewrite EQ by auto. reflexivity.
Qed.
(** The share of the draws for which the aggregate SRISK is more than sum |(1-k)W_c| eps away from its exact value is at most the sum of the
    firms' bounds; so is the share for which, of any firm, the SRISK is more than |(1-k)W_c| eps away from its exact value. *)
Theorem C141_system : forall e C m k (firms : list firm_model) h S eps, Forall (fm_ok e C m) firms -> k <> 1 -> (0 < S)%nat -> 0 < eps ->
  Forall (fun c => 0 < systemic_share C h c) firms ->
  let all := day_draws (length m) h in
  let scale c := Rabs ((1 - k) * fm_W c) in
  let bound := Rsum (map (fun c => off_share (fm_setting c) (fm_xi c) (fm_zm c) C h S eps) firms) in
  (forall ds, ds = all \/ In ds (experiments (length m) h S) ->
     call_vector e firms m k ds = Ok (map Fin (map (fm_shortfall k C ds) firms)) /\ call_aggregate e firms m k ds = Ok (Fin (returned_aggregate e firms m k ds)) /\
     returned_aggregate e firms m k ds = Rsum (map (fun c => Rmax (fm_shortfall k C ds c) 0) firms)) /\
  share (experiments (length m) h S) (fun ds => existsb (fun c => if Rlt_dec (scale c * eps) (Rabs (fm_shortfall k C ds c - fm_shortfall k C all c)) then true else false) firms) <= bound /\
  share (experiments (length m) h S) (fun ds => if Rlt_dec (Rsum (map scale firms) * eps) (Rabs (returned_aggregate e firms m k ds - returned_aggregate e firms m k all)) then true else false) <= bound.
Proof.
  intros e C m k firms h S eps HF Hk HS He HP all scale bound.
  assert (ALL : forall d j, In d all -> In j d -> (j < length m)%nat) by (apply (draws_below _ h); auto).
  assert (CALL : forall ds, ds = all \/ In ds (experiments (length m) h S) ->
     call_vector e firms m k ds = Ok (map Fin (map (fm_shortfall k C ds) firms)) /\ call_aggregate e firms m k ds = Ok (Fin (returned_aggregate e firms m k ds)) /\
     returned_aggregate e firms m k ds = Rsum (map (fun c => Rmax (fm_shortfall k C ds c) 0) firms)).
  { intros ds Hds. assert (B : forall d j, In d ds -> In j d -> (j < length m)%nat) by (destruct Hds as [->|Hds]; [exact ALL|exact (experiment_below _ _ _ _ Hds)]).
    destruct (fm_calls e C m k firms ds HF B) as [E1 E2]. unfold returned_aggregate. rewrite E2. auto. }
  split; [exact CALL|].
  set (off := fun c ds => if Rlt_dec (scale c * eps) (Rabs (fm_shortfall k C ds c - fm_shortfall k C all c)) then true else false).
  assert (U : share (experiments (length m) h S) (fun ds => existsb (fun c => off c ds) firms) <= bound).
  { eapply Rle_trans; [apply share_union|]. apply Rsum_le. intros c Hc. rewrite Forall_forall in HF, HP. destruct (HF c Hc) as [(HG & LX & LZ & NE & HE) HW]. specialize (HP c Hc).
    destruct (C131_monte_carlo_error true (fm_setting c) (fm_xi c) (fm_zm c) C h S eps HG ltac:(lia) NE HS He HP) as (_ & _ & B). cbv zeta in B. refine (Rle_trans _ _ _ _ B). rewrite LZ.
    apply share_le. intros ds Hds. unfold off, fm_shortfall. rewrite shortfall_gap. fold all. fold (scale c).
    assert (P : 0 < scale c) by (apply Rabs_pos_lt, Rmult_integral_contrapositive_currified; lra).
    destruct (Rlt_dec _ _) as [H|]; [|discriminate]. intros _. destruct (Rlt_dec eps _) as [|N]; [reflexivity|]. exfalso. apply N. apply Rmult_lt_reg_l in H; auto. }
  split; [exact U|]. refine (Rle_trans _ _ _ _ U). apply share_le. intros ds Hds. destruct (CALL ds (or_intror Hds)) as (_ & _ & E1). destruct (CALL all (or_introl eq_refl)) as (_ & _ & E2).
  rewrite E1, E2. destruct (Rlt_dec _ _) as [H|]; [|discriminate]. intros _. destruct (existsb _ firms) eqn:X; [reflexivity|]. exfalso.
  assert (N : forall c, In c firms -> Rabs (fm_shortfall k C ds c - fm_shortfall k C all c) <= scale c * eps).
  { intros c Hc. assert (Y : off c ds = false). { destruct (off c ds) eqn:Z; [|reflexivity]. rewrite <- X. symmetry. apply existsb_exists. exists c. auto. }
    unfold off in Y. destruct (Rlt_dec _ _); [discriminate|lra]. }
  assert (LE : Rabs (Rsum (map (fun c => Rmax (fm_shortfall k C ds c) 0) firms) - Rsum (map (fun c => Rmax (fm_shortfall k C all c) 0) firms)) <= Rsum (map scale firms) * eps).
  { eapply Rle_trans; [apply sum_gap|]. rewrite Rmult_comm, <- Rsum_scal, map_map. apply Rsum_le. intros c Hc. eapply Rle_trans; [apply Rmax_gap|]. rewrite Rmult_comm. apply N, Hc. }
  lra.
Qed.

(** Convergence: for every tolerance and level there is a number of simulations from which on the aggregate is further off in at most that
    share of the draws. *)
Lemma off_share_vanishes C h eps level (firms : list firm_model) e m : Forall (fm_ok e C m) firms -> Forall (fun c => 0 < systemic_share C h c) firms -> 0 < eps -> 0 < level ->
  exists S0, forall S, (S0 <= S)%nat -> (0 < S)%nat /\ Rsum (map (fun c => off_share (fm_setting c) (fm_xi c) (fm_zm c) C h S eps) firms) <= level.
Proof.
  intros HF HP He Hl.
  set (v := fun c => let p := systemic_share C h c in 4 / p * (1 - p + Rvar (firm_returns (fm_setting c) (fm_xi c) (fm_zm c) C (day_draws (length (fm_zm c)) h)) / eps ^ 2)).
  destruct (above (Rsum (map v firms) / level)) as [N HN]. exists (Nat.max 1 N). intros S HS. split; [lia|].
  assert (S0 : 0 < INR S) by (apply lt_0_INR; lia). assert (HS' : INR N <= INR S) by (apply le_INR; lia).
  assert (E : Rsum (map (fun c => off_share (fm_setting c) (fm_xi c) (fm_zm c) C h S eps) firms) = / INR S * Rsum (map v firms)).
  { rewrite <- Rsum_scal, map_map. apply Rsum_map_ext. intros c Hc. rewrite Forall_forall in HP. specialize (HP c Hc). unfold off_share, v. fold (systemic_share C h c). unfold systemic_share in HP |- *. field. repeat split; nra. }
  rewrite E. apply (Rmult_le_reg_l (INR S)); [exact S0|]. rewrite <- Rmult_assoc, Rinv_r, Rmult_1_l by lra.
  apply Rlt_le, Rlt_le_trans with (INR N * level); [|apply Rmult_le_compat_r; lra].
  apply (Rmult_lt_reg_r (/ level)); [apply Rinv_0_lt_compat; auto|]. rewrite (Rmult_assoc (INR N)), Rinv_r by lra. unfold Rdiv in HN. lra.
Qed.
Theorem C141_convergence : forall e C m k (firms : list firm_model) h eps level, Forall (fm_ok e C m) firms -> k <> 1 ->
  Forall (fun c => 0 < systemic_share C h c) firms -> 0 < eps -> 0 < level ->
  exists S0, forall S, (S0 <= S)%nat ->
    share (experiments (length m) h S) (fun ds => if Rlt_dec eps (Rabs (returned_aggregate e firms m k ds - returned_aggregate e firms m k (day_draws (length m) h))) then true else false) <= level.
Proof.
  intros e C m k firms h eps level HF Hk HP He Hl. set (sc := Rsum (map (fun c => Rabs ((1 - k) * fm_W c)) firms)).
  assert (P : 0 <= sc) by (apply Rsum_nonneg; intros y Hy; apply in_map_iff in Hy; destruct Hy as (c & <- & _); apply Rabs_pos).
  set (t := eps / (sc + 1)). assert (T : 0 < t) by (apply Rdiv_lt_0_compat; lra).
  assert (ST : sc * t <= eps). { unfold t. apply (Rmult_le_reg_r (sc + 1)); [lra|]. replace (sc * (eps / (sc + 1)) * (sc + 1)) with (sc * eps) by (field; lra). nra. }
  destruct (off_share_vanishes C h t level firms e m HF HP T Hl) as [S0 H]. exists S0. intros S HS. destruct (H S HS) as [SP B].
  destruct (C141_system e C m k firms h S t HF Hk SP T HP) as (_ & _ & X). refine (Rle_trans _ _ _ _ (Rle_trans _ _ _ X B)). apply share_le. intros ds _. fold sc.
  destruct (Rlt_dec eps _) as [Y|]; [|discriminate]. intros _. destruct (Rlt_dec _ _) as [|N]; [reflexivity|]. exfalso. apply N. lra.
Qed.

(** A concrete case: the run of C21_end_to_end_case, two differently priced firms, a one-day horizon and the threshold of -1 percent. *)
Lemma case_explicit : exists rho, estimated (with_draws case_env [[3%nat]]) (-1/100) (case_raw case_firm) (case_raw case_market)
  (forecast_setting case_est case_est (1/10) (1/2) (residuals case_est case_firm) case_si (residuals case_est case_market) case_sm rho)
  (resample (orth (zscores (residuals case_est case_firm) case_si) (zscores (residuals case_est case_market) case_sm) rho) (zscores (residuals case_est case_market) case_sm) [[3%nat]]).
Proof.
  destruct case_variances as [V1 V2]. destruct pm1_case as [Q1 Q2]. destruct case_target as (HT & N1 & N2).
  assert (R1 : finite_run case_run case_est 3 case_x) by (repeat split; exists []; split; [reflexivity|repeat constructor]).
  assert (PS : positive case_si) by (unfold case_si; repeat (constructor; [lra|]); constructor). assert (PM : positive case_sm) by (unfold case_sm; repeat (constructor; [lra|]); constructor).
  assert (GG : good_gjr case_est) by (unfold good_gjr, case_est; cbn; lra).
  destruct (C15_conditional_correlations_in_range true (1/10) (1/2) (residuals case_est case_firm) (residuals case_est case_market) case_si case_sm) as (rho & EC & _); try reflexivity; auto; try lra.
  exists rho. unfold estimated. cbv zeta. rewrite !log_case_raw.
  exists case_est, case_est, 3, 3, case_x, case_x, case_si, case_sm, (1/10), (1/2), 5, rho. cbn [with_draws case_env e_C e_cpp1 e_firm_solver e_market_solver e_joint_solver e_draws case_joint o_success o_x o_fun o_evals].
  split; [reflexivity|]. split; [reflexivity|]. split; [apply case_raw_above|]. split; [apply case_raw_above|]. rewrite (pm1_var _ Q1), (pm1_var _ Q2).
  split; [lra|]. split; [lra|]. split; [exact R1|]. split; [exact R1|]. do 6 (split; [assumption|]). do 3 (split; [reflexivity|]). split; [repeat constructor|].
  do 3 (split; [lra|]). do 3 (split; [assumption|]). split.
  - intros d k Hd Hk. change (length case_firm) with 4%nat. destruct Hd as [<-|[]]; cbn in Hk; lia.
  - split; [exact EC|]. split; reflexivity.
Qed.
Example C141_case : exists firms, length firms = 2%nat /\ Forall (fm_ok case_env (-1/100) (case_raw case_market)) firms /\ Forall (fun c => 0 < systemic_share (-1/100) 1 c) firms.
Proof.
  destruct case_explicit as (rho & H). destruct (C141_fitted _ _ _ _ _ _ H) as (xi & zm & HF & E).
  set (s := forecast_setting case_est case_est (1/10) (1/2) (residuals case_est case_firm) case_si (residuals case_est case_market) case_sm rho) in *.
  assert (HF' : fitted case_env (-1/100) (case_raw case_firm) (case_raw case_market) s xi zm) by exact HF. clear HF H.
  cbn [with_draws e_draws resample map] in E. injection E as _ E. symmetry in E.
  assert (Q0 : 0 < sqrt (10125/10000)) by (apply sqrt_lt_R0; lra).
  assert (Q1 : sqrt (10125/10000) <= 101/100) by (apply Rsqr_incr_0_var; [rewrite Rsqr_sqrt by lra; unfold Rsqr; lra|lra]).
  assert (Q2 : 1025/1000 <= sqrt (105625/100000)) by (apply Rsqr_incr_0_var; [rewrite Rsqr_sqrt by lra; unfold Rsqr; lra|apply sqrt_pos]).
  assert (IS : is_systemic s (-1/100) (shocks_of xi zm [3%nat]) = true).
  { unfold is_systemic, market_return, shocks_of. cbn [map path Rsum fold_right]. unfold tomorrow. cbn [e_mkt]. 
    assert (V : gjr_update (omega (mkt s)) (alpha (mkt s)) (gamma (mkt s)) (beta (mkt s)) (v_mkt (today s)) (e_mkt (today s)) = 105625/100000).
    { unfold s, forecast_setting, residuals. cbn [mkt today v_mkt e_mkt case_est omega alpha gamma beta mu case_market case_sm map last]. unfold gjr_update. destruct (Rlt_dec _ 0); lra. }
    rewrite V, E. change (mu (mkt s)) with 0. destruct (Rlt_dec _ _) as [|N]; [reflexivity|]. exfalso. apply N. clear N.
    assert (Z : sqrt (105625/100000) * ((-1 - 0) / sqrt (10125/10000)) <= - (1014/1000)).
    { apply (Rmult_le_reg_r (sqrt (10125/10000))); [exact Q0|]. replace (sqrt (105625/100000) * ((-1 - 0) / sqrt (10125/10000)) * sqrt (10125/10000)) with (- sqrt (105625/100000)) by (field; lra). nra. }
    set (q := sqrt (105625/100000) * _) in *. 
    assert (X : exp ((0 + q) / 100 + 0) <= exp (- (1014/100000))).
    { destruct (Req_dec ((0 + q) / 100 + 0) (- (1014/100000))) as [->|]; [lra|left; apply exp_increasing; lra]. }
    rewrite exp_Ropp in X. assert (Y := exp_ineq1_le (1014/100000)). assert (W : / exp (1014/100000) <= / (1 + 1014/100000)) by (apply Rinv_le_contravar; lra).
    assert (U : / (1 + 1014/100000) < 99/100) by (apply (Rmult_lt_reg_r (1 + 1014/100000)); [lra|]; rewrite Rinv_l by lra; lra). lra. }
  assert (SH : 0 < share (day_draws (length zm) 1) (fun d => is_systemic s (-1/100) (shocks_of xi zm d))).
  { destruct HF' as (_ & _ & LZ & _). rewrite LZ. change (length (case_raw case_market)) with 4%nat. unfold share, average, day_draws. cbn [seq sequences flat_map map app length]. 
    rewrite IS. cbn [Rsum fold_right INR]. repeat destruct (is_systemic _ _ _); cbn; lra. }
  exists [Build_firm_model (case_raw case_firm) 10 100 s xi zm; Build_firm_model (case_raw case_firm) 3 1 s xi zm]. split; [reflexivity|]. split.
  - repeat apply Forall_cons; try apply Forall_nil; split; cbn [fm_returns fm_setting fm_xi fm_zm fm_W]; auto; lra.
  - repeat apply Forall_cons; try apply Forall_nil; exact SH.
Qed.
