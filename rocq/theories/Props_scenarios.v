(** * Property C132: the scenarios of LRMES for different numbers of simulations and horizons *)
From Coq Require Import Reals Lra Lia ZArith List Bool.
From Verif Require Import Arith XR RealAux Model_garch Model_mgarch Model_lrmes Model_scenarios Props_lrmes Props_lrmes2 Draws Props_volterm Props_montecarlo.
Import ListNotations.

(** rng.choice draws its elements one after the other: asking for h1 and then for h2 indices is asking for h1 + h2 *)
Definition one_by_one (G : generator) : Prop := forall g n, choice G g n 0 = ([], g) /\ forall h1 h2,
  choice G g n (h1 + h2) = (fst (choice G g n h1) ++ fst (choice G (snd (choice G g n h1)) n h2), snd (choice G (snd (choice G g n h1)) n h2)).
(** it returns as many indices as asked for, each below n *)
Definition proper (G : generator) : Prop := forall g n h, length (fst (choice G g n h)) = h /\ ((0 < n)%nat -> forall k, In k (fst (choice G g n h)) -> (k < n)%nat).

Lemma draw_loop_length G n h S : forall g, length (fst (draw_loop G g n h S)) = S.
Proof. induction S as [|S IH]; intros g; [reflexivity|]. cbn [draw_loop fst length]. f_equal. apply IH. Qed.
Lemma draw_loop_app G n h S T : forall g, draw_loop G g n h (S + T) =
  (fst (draw_loop G g n h S) ++ fst (draw_loop G (snd (draw_loop G g n h S)) n h T), snd (draw_loop G (snd (draw_loop G g n h S)) n h T)).
Proof.
  induction S as [|S IH]; intros g; [cbn [Nat.add draw_loop fst snd app]; destruct (draw_loop G g n h T); reflexivity|]. cbn [Nat.add draw_loop]. rewrite IH. reflexivity.
Qed.
(** More simulations with the same seed and horizon keep all earlier scenarios. *)
Theorem C132_nested : forall G seed h S S' n, (S <= S')%nat ->
  length (scenario_draws G seed h S' n) = S' /\ firstn S (scenario_draws G seed h S' n) = scenario_draws G seed h S n.
Proof.
  intros G seed h S S' n H. split; [apply draw_loop_length|]. unfold scenario_draws. replace S' with (S + (S' - S))%nat by lia. rewrite draw_loop_app. cbn [fst].
  rewrite firstn_app, draw_loop_length, Nat.sub_diag. cbn [firstn]. rewrite app_nil_r. rewrite <- (draw_loop_length G n h S (seeded G seed)) at 1. apply firstn_all.
Qed.
(** ... and different horizons cut the same sequence of days: S scenarios of h days and S' of h' days use, read one after the other, the same days up to the
    shorter of the two. *)
Lemma draw_loop_concat G : one_by_one G -> forall n h S g, concat (fst (draw_loop G g n h S)) = fst (choice G g n (S * h)) /\ snd (draw_loop G g n h S) = snd (choice G g n (S * h)).
Proof.
  intros HO n h. induction S as [|S IH]; intros g.
  - cbn [Nat.mul draw_loop fst snd concat]. destruct (HO g n) as [-> _]. split; reflexivity.
  - cbn [Nat.mul draw_loop fst snd concat]. destruct (HO g n) as [_ E]. rewrite E. cbn [fst snd]. destruct (IH (snd (choice G g n h))) as [-> ->]. split; reflexivity.
Qed.
Theorem C132_horizons_cut_the_same_days : forall G, one_by_one G -> proper G -> forall seed n h S h' S', (S * h <= S' * h')%nat ->
  firstn (S * h) (concat (scenario_draws G seed h' S' n)) = concat (scenario_draws G seed h S n).
Proof.
  intros G HO HP seed n h S h' S' H. unfold scenario_draws. destruct (draw_loop_concat G HO n h S (seeded G seed)) as [-> _]. destruct (draw_loop_concat G HO n h' S' (seeded G seed)) as [-> _].
  replace (S' * h')%nat with (S * h + (S' * h' - S * h))%nat by lia. destruct (HO (seeded G seed) n) as [_ E]. rewrite E. cbn [fst].
  assert (L := proj1 (HP (seeded G seed) n (S * h)%nat)). rewrite firstn_app, L, Nat.sub_diag. cbn [firstn]. rewrite app_nil_r. rewrite <- L at 1. apply firstn_all.
Qed.

(** ** What this means for the estimates *)
Lemma accumulate_app (A : Arith) cpp i C a b : forall t n, accumulate A cpp i C (a ++ b) t n = accumulate A cpp i C b (fst (accumulate A cpp i C a t n)) (snd (accumulate A cpp i C a t n)).
Proof. induction a as [|x a IH]; intros t n; [reflexivity|]. cbn [app accumulate]. apply IH. Qed.
Lemma setup_draws (A : Arith) cpp1 m1 m2 mini draws draws' o i sc o2 : estimate_setup A cpp1 m1 m2 mini draws o = Ok ((i, sc), o2) ->
  exists xi zm, sc = bootstrap A xi zm (draws (length xi)) /\ estimate_setup A cpp1 m1 m2 mini draws' o = Ok ((i, bootstrap A xi zm (draws' (length xi))), o2).
Proof.
  unfold estimate_setup. destruct (dcc_fit A KGjr cpp1 m1 m2 mini o) as [o1|e]; cbn [bind]; [|discriminate]. destruct (d_success A o1); [|discriminate].
  destruct (conditional_correlations A KGjr cpp1 m1 m2 (d_models A o1) (d_a A o1) (d_b A o1)) as [r|e]; cbn [bind]; [|discriminate].
  match goal with |- context [match ?x with [] => _ | _ => _ end] => set (xi := x) end. destruct xi as [|x0 xi'] eqn:EX; [discriminate|]. rewrite <- EX. intros H. injection H as <- <- <-.
  eexists xi, _. rewrite EX. split; reflexivity.
Qed.
(** In every arithmetic (so bit for bit), for both back ends and any state of the object: if an estimate with S' simulations succeeds, so does one with S <= S'
    simulations and the same other arguments, from the same fitted model; its scenarios are the first S, and the longer run continues where the shorter one
    stopped, with the total return and the number of systemic events it had reached. *)
Theorem C132_longer_runs_continue : forall (A : Arith) G cpp1 cpp2 m1 m2 mini h S S' C seed o v' o2, (S <= S')%nat ->
  estimate_call A G cpp1 cpp2 m1 m2 mini h S' C seed o = Ok (v', o2) ->
  exists v i first rest, estimate_call A G cpp1 cpp2 m1 m2 mini h S C seed o = Ok (v, o2) /\ length first = S /\ length rest = (S' - S)%nat /\
    v = lrmes A cpp2 i C first /\ v' = lrmes A cpp2 i C (first ++ rest) /\
    (let r := accumulate A cpp2 i C first (ofZ 0) 0 in accumulate A cpp2 i C (first ++ rest) (ofZ 0) 0 = accumulate A cpp2 i C rest (fst r) (snd r)) /\
    (n_systemic_events A cpp2 i C first <= n_systemic_events A cpp2 i C (first ++ rest))%Z.
Proof.
  intros A G cpp1 cpp2 m1 m2 mini h S S' C seed o v' o2 HS H. unfold estimate_call, estimate in *.
  destruct (estimate_setup A cpp1 m1 m2 mini (scenario_draws G seed h S') o) as [[[i sc] o2']|e] eqn:ES; cbn [bind fst snd] in H; [|discriminate]. injection H as <- <-.
  destruct (setup_draws A cpp1 m1 m2 mini _ (scenario_draws G seed h S) o i sc o2' ES) as (xi & zm & Esc & ES').
  set (n := length xi) in *. destruct (C132_nested G seed h S S' n HS) as [LN FN].
  assert (ED : scenario_draws G seed h S' n = scenario_draws G seed h S n ++ skipn S (scenario_draws G seed h S' n)) by (rewrite <- FN at 1; symmetry; apply firstn_skipn).
  exists (lrmes A cpp2 i C (bootstrap A xi zm (scenario_draws G seed h S n))), i, (bootstrap A xi zm (scenario_draws G seed h S n)), (bootstrap A xi zm (skipn S (scenario_draws G seed h S' n))).
  rewrite ES'. cbn [bind fst snd]. split; [reflexivity|]. unfold bootstrap. rewrite !map_length.
  split; [apply draw_loop_length|]. split; [rewrite skipn_length, LN; reflexivity|]. split; [reflexivity|].
  split; [rewrite <- map_app, <- ED, Esc; reflexivity|]. split; [apply accumulate_app|].
  unfold n_systemic_events. rewrite accumulate_app. set (r := accumulate A cpp2 i C (map _ (scenario_draws G seed h S n)) (ofZ 0) 0). generalize (fst r) (snd r). generalize (map (map (fun k => (nth k xi nnan, nth k zm nnan))) (skipn S (scenario_draws G seed h S' n))).
  intros l. induction l as [|x l IH]; intros t z; cbn [accumulate snd]; [lia|]. eapply Z.le_trans; [|apply IH]. destruct (snd (simulation A cpp2 i C x)); cbn; lia.
Qed.
Local Open Scope R_scope.
Lemma update : forall s xi zm C first rest,
  let N ds := INR (length (systemic_draws s xi zm C ds)) in
  N (first ++ rest) * shortfall s xi zm C (first ++ rest) = N first * shortfall s xi zm C first + N rest * shortfall s xi zm C rest /\
  (systemic_draws s xi zm C rest = [] -> shortfall s xi zm C (first ++ rest) = shortfall s xi zm C first).
Proof.
  intros s xi zm C first rest N.
  assert (AP : systemic_draws s xi zm C (first ++ rest) = systemic_draws s xi zm C first ++ systemic_draws s xi zm C rest) by apply filter_app.
  split.
  - assert (E : forall ds, N ds * shortfall s xi zm C ds = - Rsum (firm_returns s xi zm C ds)).
    { intros ds. rewrite shortfall_mean. unfold mean_or_zero. destruct (firm_returns s xi zm C ds) as [|x l] eqn:E; [cbn; ring|]. rewrite <- E. unfold N, Rmean.
      assert (LF : length (firm_returns s xi zm C ds) = length (systemic_draws s xi zm C ds)) by apply map_length. rewrite LF. field. rewrite <- LF, E. apply Rgt_not_eq, lt_0_INR. cbn. lia. }
    rewrite !E. unfold firm_returns. rewrite AP, map_app, Rsum_app. ring.
  - intros H. rewrite !shortfall_mean. unfold firm_returns. rewrite AP, H, app_nil_r. reflexivity.
Qed.
(** The estimate moves only through additional systemic scenarios: it is the average of the old estimate and that of the added scenarios, weighted by their
    numbers of systemic scenarios; without a new one it stays as it is. *)
Theorem C132_update : forall cpp s xi zm C first rest, good_setting s ->
  let scenarios ds := map fin_shocks (resample xi zm ds) in
  let N ds := n_systemic_events XRA cpp (inputs s) (Fin C) (scenarios ds) in
  exists v v1 v2, lrmes XRA cpp (inputs s) (Fin C) (scenarios (first ++ rest)) = Fin v /\
    lrmes XRA cpp (inputs s) (Fin C) (scenarios first) = Fin v1 /\ lrmes XRA cpp (inputs s) (Fin C) (scenarios rest) = Fin v2 /\
    N (first ++ rest) = (N first + N rest)%Z /\ IZR (N (first ++ rest)) * v = IZR (N first) * v1 + IZR (N rest) * v2 /\ (N rest = 0%Z -> v = v1).
Proof.
  intros cpp s xi zm C first rest HG scenarios N. exists (shortfall s xi zm C (first ++ rest)), (shortfall s xi zm C first), (shortfall s xi zm C rest).
  repeat (split; [apply lrmes_shortfall; auto|]). assert (EN : forall ds, N ds = Z.of_nat (length (systemic_draws s xi zm C ds))) by (intros; apply events_count; auto).
  destruct (update s xi zm C first rest) as [U1 U2]. rewrite !EN, <- !INR_IZR_INZ. split; [|split; [exact U1|]].
  - rewrite <- Nat2Z.inj_add. f_equal. unfold systemic_draws. rewrite filter_app, app_length. reflexivity.
  - intros H. apply U2. destruct (systemic_draws s xi zm C rest); [reflexivity|cbn in H; lia].
Qed.
(** The same seed, horizon and number of simulations with another threshold uses the same scenarios, so the events for a severer threshold are among those for
    a milder one. *)
Theorem C132_thresholds : forall G cpp1 cpp2 m1 m2 mini h S C C' seed o v v' o2 o2', xleb C C' = true ->
  estimate_call XRA G cpp1 cpp2 m1 m2 mini h S C seed o = Ok (v, o2) -> estimate_call XRA G cpp1 cpp2 m1 m2 mini h S C' seed o = Ok (v', o2') ->
  o2 = o2' /\ exists i sc, length sc = S /\ v = lrmes XRA cpp2 i C sc /\ v' = lrmes XRA cpp2 i C' sc /\
    (n_systemic_events XRA cpp2 i C sc <= n_systemic_events XRA cpp2 i C' sc)%Z.
Proof.
  intros G cpp1 cpp2 m1 m2 mini h S C C' seed o v v' o2 o2' HC H H'. unfold estimate_call, estimate in *.
  destruct (estimate_setup XRA cpp1 m1 m2 mini (scenario_draws G seed h S) o) as [[[i sc] o3]|e] eqn:ES; cbn [bind fst snd] in *; [|discriminate]. injection H as <- <-. injection H' as <- <-.
  split; [reflexivity|]. exists i, sc. destruct (setup_draws _ _ _ _ _ _ (scenario_draws G seed h S) _ _ _ _ ES) as (xi & zm & Esc & _).
  split; [rewrite Esc; unfold bootstrap; rewrite map_length; apply draw_loop_length|]. split; [reflexivity|]. split; [reflexivity|].
  apply (C23_fewer_systemic_events_for_severer_thresholds cpp2 i C C' sc HC).
Qed.

(** a generator that meets the two contracts: it counts *)
Definition counting : generator := {| gstate := nat; seeded := Z.to_nat; choice := fun g n h => (map (fun k => Nat.modulo k n) (seq g h), (g + h)%nat) |}.
Example C132_case : one_by_one counting /\ proper counting /\ scenario_draws counting 5 2 3 4 = [[1; 2]; [3; 0]; [1; 2]]%nat /\ scenario_draws counting 5 3 2 4 = [[1; 2; 3]; [0; 1; 2]]%nat.
Proof.
  split; [|split; [|split; reflexivity]].
  - intros g n. split; [cbn; rewrite Nat.add_0_r; reflexivity|]. intros h1 h2. cbn [choice counting fst snd]. rewrite seq_app, map_app, Nat.add_assoc. reflexivity.
  - intros g n h. cbn [choice counting fst]. split; [rewrite map_length, seq_length; reflexivity|]. intros Hn k Hk. apply in_map_iff in Hk. destruct Hk as (j & <- & _). apply Nat.mod_upper_bound. lia.
Qed.
