(** * Theorems: PIN starting values (C53) and PIN.estimate (C56) *)
From Coq Require Import Reals Lra ZArith List Bool Arith Lia.
From Verif Require Import Arith XR RealAux Model_pin Props_pin.
Import ListNotations.
Local Open Scope R_scope.

(** ** C53 *)
Definition rgrid : list R := [1/10; 3/10; 5/10; 7/10; 9/10].
Definition rgrid3 : list (R * R * R) :=    (* lexicographic order, last factor fastest *)
  flat_map (fun a => flat_map (fun d => map (fun g => (a, d, g)) rgrid) rgrid) rgrid.
(** the five numbers yielded for a grid point *)
Definition yielded (Bbar Sbar : R) (q : R * R * R) : R * R * R * R * R :=
  match q with (a, d, g) =>
    let m := (1 - g) * Bbar / (a * (1 - d)) in (a, d, g * Bbar, Sbar - a * d * m, m) end.
Definition eS_of (y : R * R * R * R * R) : R := match y with (_, _, _, s, _) => s end.
Definition as_point (y : R * R * R * R * R) : p5 XRA := match y with (a, d, b, s, m) => pt a d b s m end.

Lemma rgrid_range x : In x rgrid -> 1/10 <= x <= 9/10.
Proof. unfold rgrid; cbn [In]. intros [H|[H|[H|[H|[H|[]]]]]]; subst; lra. Qed.
Lemma rgrid3_in a d g : In (a, d, g) rgrid3 <-> In a rgrid /\ In d rgrid /\ In g rgrid.
Proof.
  unfold rgrid3. rewrite in_flat_map. split.
  - intros (x&Hx&H). apply in_flat_map in H. destruct H as (y&Hy&H). apply in_map_iff in H. destruct H as (z&E&Hz).
    injection E as <- <- <-. auto.
  - intros (Ha&Hd&Hg). exists a. split; auto. apply in_flat_map. exists d. split; auto. apply in_map_iff. exists g; auto.
Qed.
Lemma grid_fin : grid_product XRA = map (fun q => match q with (a, d, g) => (Fin a, Fin d, Fin g) end) rgrid3.
Proof. reflexivity. Qed.
Lemma start_fin B S q : B <> [] -> S <> [] -> In q rgrid3 ->
  start_of XRA (map Fin B) (map Fin S) (match q with (a, d, g) => (Fin a, Fin d, Fin g) end) = as_point (yielded (Rmean B) (Rmean S) q).
Proof.
  intros HB HS. destruct q as [[a d] g]. rewrite rgrid3_in. intros (Ha&Hd&Hg).
  apply rgrid_range in Ha, Hd, Hg. unfold start_of, yielded, as_point, pt.
  rewrite (amean_fin B HB), (amean_fin S HS). cbn [nmul nsub ndiv ofZ XRA xmul xsub].
  assert (0 < a * (1 - d)) by (apply Rmult_lt_0_compat; lra).
  rewrite xdiv_fin by lra. cbn [xmul xsub].
  replace ((Rmean B - g * Rmean B) / (a * (1 - d))) with ((1 - g) * Rmean B / (a * (1 - d))) by (field; lra). reflexivity.
Qed.
Lemma filter_map_comm {X Y} (f : X -> Y) (p : Y -> bool) (q : X -> bool) l :
  (forall x, In x l -> p (f x) = q x) -> filter p (map f l) = map f (filter q l).
Proof.
  intros H. induction l as [|x l IH]; auto. cbn [map filter]. rewrite (H x) by (left; auto).
  rewrite IH by (intros; apply H; right; auto). destruct (q x); reflexivity.
Qed.
Definition kept (y : R * R * R * R * R) : bool := if Rle_dec 0 (eS_of y) then true else false.
(** exactly the grid points with non-negative implied sell rate, in grid order *)
Theorem C53_exactly_feasible_grid_points : forall B S, B <> [] -> S <> [] ->
  starting_values XRA (map Fin B) (map Fin S) = map as_point (filter kept (map (yielded (Rmean B) (Rmean S)) rgrid3)).
Proof.
  intros B S HB HS. unfold starting_values. rewrite grid_fin, map_map.
  rewrite (map_ext_in _ (fun q => as_point (yielded (Rmean B) (Rmean S) q))) by (intros q Hq; apply start_fin; auto).
  rewrite <- (map_map (yielded (Rmean B) (Rmean S)) as_point). apply filter_map_comm.
  intros [[[[a d] b] s] m] _. unfold as_point, pt, kept, eS_of. cbn [Model_pin.eS nltb ofZ XRA].
  destruct (Rle_dec 0 s); [rewrite xltb_false by lra|rewrite xltb_true by lra]; reflexivity.
Qed.
(** first moments are matched and the points lie inside the optimizer's bounds *)
Theorem C53_moments_and_bounds : forall B S p, B <> [] -> S <> [] -> (forall x, In x B -> 0 <= x) ->
  In p (starting_values XRA (map Fin B) (map Fin S)) ->
  exists a d b s m, p = pt a d b s m /\
    Rmean B = b + a * (1 - d) * m /\ Rmean S = s + a * d * m /\
    0 < a < 1 /\ 0 < d < 1 /\ 0 <= b /\ 0 <= s /\ 0 <= m.
Proof.
  intros B S p HB HS Hpos Hin. rewrite C53_exactly_feasible_grid_points in Hin by auto.
  apply in_map_iff in Hin. destruct Hin as (y&<-&Hy). apply filter_In in Hy. destruct Hy as [Hy Hk].
  apply in_map_iff in Hy. destruct Hy as ([[a d] g]&<-&Hq). apply rgrid3_in in Hq. destruct Hq as (Ha&Hd&Hg).
  apply rgrid_range in Ha, Hd, Hg.
  assert (HM : 0 <= Rmean B).
  { unfold Rmean. apply Rmult_le_pos; [apply Rsum_nonneg; auto|left; apply Rinv_0_lt_compat, INR_len_pos; auto]. }
  assert (0 < a * (1 - d)) by (apply Rmult_lt_0_compat; lra).
  unfold kept, eS_of, yielded in Hk. cbn [yielded as_point].
  match type of Hk with (if Rle_dec 0 ?x then _ else _) = _ => destruct (Rle_dec 0 x) as [Hs|]; [|discriminate] end.
  exists a, d, (g * Rmean B), (Rmean S - a * d * ((1 - g) * Rmean B / (a * (1 - d)))), ((1 - g) * Rmean B / (a * (1 - d))).
  split; [reflexivity|]. split; [field; lra|]. split; [ring|]. repeat split; try lra.
  - apply Rmult_le_pos; lra.
  - apply Rmult_le_pos; [apply Rmult_le_pos; lra|left; apply Rinv_0_lt_compat; auto].
Qed.
(** the generator is empty (and estimate then returns all-NaN parameters without ever calling the optimizer)
    exactly when mean sells are below one ninetieth of mean buys; all 125 points appear when mean sells are at
    least 8.1 times mean buys *)
Lemma implied_sell_rate Bb Sb a d g : In (a, d, g) rgrid3 ->
  eS_of (yielded Bb Sb (a, d, g)) = Sb - d / (1 - d) * (1 - g) * Bb.
Proof.
  rewrite rgrid3_in. intros (Ha&Hd&Hg). apply rgrid_range in Ha, Hd, Hg. unfold eS_of, yielded. field. lra.
Qed.
Lemma odds_range d : 1/10 <= d <= 9/10 -> 1/9 <= d / (1 - d) <= 9.
Proof. intros H. split; [apply le_div_iff; lra|apply div_le_iff; lra]. Qed.
Theorem C53_no_start_iff : forall B S, B <> [] -> S <> [] -> 0 <= Rmean B ->
  (starting_values XRA (map Fin B) (map Fin S) = [] <-> Rmean S < Rmean B / 90).
Proof.
  intros B S HB HS HM. rewrite C53_exactly_feasible_grid_points by auto. split.
  - intros H. apply Rnot_le_lt. intros Hle.
    assert (Hin : In (as_point (yielded (Rmean B) (Rmean S) (1/10, 1/10, 9/10)))
              (map as_point (filter kept (map (yielded (Rmean B) (Rmean S)) rgrid3)))).
    { assert (Hg : In (1/10, 1/10, 9/10) rgrid3) by (rewrite rgrid3_in; cbn; tauto).
      apply in_map. apply filter_In. split; [apply in_map; auto|]. unfold kept.
      rewrite implied_sell_rate by auto. destruct (Rle_dec _ _) as [|n]; auto. exfalso; apply n. lra. }
    rewrite H in Hin. destruct Hin.
  - intros H. destruct (filter _ _) as [|y l] eqn:E; auto. exfalso.
    assert (Hy : In y (filter kept (map (yielded (Rmean B) (Rmean S)) rgrid3))) by (rewrite E; left; auto).
    apply filter_In in Hy. destruct Hy as [Hy Hk]. apply in_map_iff in Hy. destruct Hy as ([[a d] g]&<-&Hq).
    unfold kept in Hk. rewrite implied_sell_rate in Hk by auto. apply rgrid3_in in Hq. destruct Hq as (Ha&Hd&Hg).
    apply rgrid_range in Ha, Hd, Hg. destruct (Rle_dec _ _) as [Hs|]; [|discriminate].
    assert (Ho := odds_range d Hd).
    assert (1/9 * (1/10) <= d / (1 - d) * (1 - g)) by (apply Rmult_le_compat; lra).
    assert (1/9 * (1/10) * Rmean B <= d / (1 - d) * (1 - g) * Rmean B) by (apply Rmult_le_compat_r; lra). lra.
Qed.
Theorem C53_all_points_iff : forall B S, B <> [] -> S <> [] -> 0 <= Rmean B ->
  (length (starting_values XRA (map Fin B) (map Fin S)) = 125%nat <-> 81 / 10 * Rmean B <= Rmean S).
Proof.
  intros B S HB HS HM. rewrite C53_exactly_feasible_grid_points by auto. rewrite map_length. split.
  - intros H. assert (Hall : forall y, In y (map (yielded (Rmean B) (Rmean S)) rgrid3) -> kept y = true).
    { assert (HL : length (map (yielded (Rmean B) (Rmean S)) rgrid3) = 125%nat) by (rewrite map_length; reflexivity).
      revert H. rewrite <- HL. generalize (map (yielded (Rmean B) (Rmean S)) rgrid3) as l. clear. intros l H y.
      assert (forall {X} (p : X -> bool) l, (length (filter p l) <= length l)%nat) as HF by (clear; induction l; cbn; auto; destruct (p a); cbn; lia).
      revert H. induction l as [|x l IH]; cbn [filter length]; [intros _ []|]. destruct (kept x) eqn:E; cbn [length].
      - intros H [->|Hy]; auto.
      - intros H. generalize (HF _ kept l); lia. }
    assert (Hg : In (1/10, 9/10, 1/10) rgrid3) by (rewrite rgrid3_in; cbn; tauto).
    specialize (Hall _ (in_map _ _ _ Hg)). unfold kept in Hall. rewrite implied_sell_rate in Hall by auto.
    destruct (Rle_dec _ _) as [Hs|]; [lra|discriminate].
  - intros H. transitivity (length (map (yielded (Rmean B) (Rmean S)) rgrid3)); [|rewrite map_length; reflexivity].
    f_equal. assert (HF : forall {X} (p : X -> bool) l, (forall x, In x l -> p x = true) -> filter p l = l).
    { clear; intros X p l; induction l as [|x l IH]; intros Hl; cbn; auto. rewrite Hl by (left; auto). f_equal. apply IH; intros; apply Hl; right; auto. }
    apply HF. intros y Hy. apply in_map_iff in Hy. destruct Hy as ([[a d] g]&<-&Hq). unfold kept.
    rewrite implied_sell_rate by auto. apply rgrid3_in in Hq. destruct Hq as (Ha&Hd&Hg). apply rgrid_range in Ha, Hd, Hg.
    destruct (Rle_dec _ _) as [Hs|n]; auto. exfalso; apply n. assert (Ho := odds_range d Hd).
    assert (d / (1 - d) * (1 - g) <= 9 * (9/10)) by (apply Rmult_le_compat; lra).
    assert (d / (1 - d) * (1 - g) * Rmean B <= 9 * (9/10) * Rmean B) by (apply Rmult_le_compat_r; lra). lra.
Qed.
Example C53_case : length rgrid3 = 125%nat /\ Rmean [60; 80] = 70 /\
  as_point (yielded 70 80 (1/10, 1/10, 1/10)) = pt (1/10) (1/10) 7 73 700.
Proof. split; [reflexivity|]. split; [unfold Rmean; simpl; lra|]. unfold yielded, as_point, pt. repeat f_equal; lra. Qed.

(** ** C56: PIN.estimate *)
Definition from_run {A} (m : pin_method) (r : opt_result A) : parameters A :=
  mkPar A (opt_x A r) (nopp (opt_fun A r)) (calculate_pin A (opt_x A r)) (Some m).
Section Any.
Context {A : Arith}.
Lemma consider_cases m (o : pin_object A) r :
  consider A m o r = o \/ (success A r = true /\ consider A m o r = mkPIN A (pin_B A o) (pin_S A o) true (from_run m r)).
Proof.
  unfold consider. destruct (success A r); auto. destruct (isnan _ || _); auto.
Qed.
(** unknown method names raise before anything changes *)
Theorem C56_unknown_method : forall (o : pin_object A) min, estimate A o None min = (o, Err ValueError).
Proof. reflexivity. Qed.
(** the data are never modified *)
Theorem C56_data_unchanged : forall (o : pin_object A) method min,
  pin_B A (fst (estimate A o method min)) = pin_B A o /\ pin_S A (fst (estimate A o method min)) = pin_S A o.
Proof.
  intros o [m|] min; [|split; reflexivity]. cbn [estimate fst].
  generalize (runs A o m min) as rs; intros rs.
  assert (H : forall rs o0, pin_B A (fold_left (consider A m) rs o0) = pin_B A o0 /\ pin_S A (fold_left (consider A m) rs o0) = pin_S A o0).
  { clear. induction rs as [|r rs IH]; intros o0; cbn [fold_left]; [split; auto|].
    destruct (IH (consider A m o0 r)) as [-> ->]. destruct (consider_cases m o0 r) as [->|[_ ->]]; split; auto. }
  apply (H rs (mkPIN A (pin_B A o) (pin_S A o) (estimation_success A o) (no_parameters A))).
Qed.
(** the result is the object's parameters, and they are NaN or those of a successful run of this call *)
Theorem C56_from_successful_run : forall (o : pin_object A) m min,
  let o' := fst (estimate A o (Some m) min) in
  snd (estimate A o (Some m) min) = Ok (pin_parameters A o') /\
  (pin_parameters A o' = no_parameters A \/
   exists r, In r (runs A o m min) /\ success A r = true /\ pin_parameters A o' = from_run m r).
Proof.
  intros o m min; cbn zeta. cbn [estimate fst snd]. split; auto.
  generalize (runs A o m min) as rs; intros rs. 
  assert (H : forall rs o0, pin_parameters A (fold_left (consider A m) rs o0) = pin_parameters A o0 \/
     exists r, In r rs /\ success A r = true /\ pin_parameters A (fold_left (consider A m) rs o0) = from_run m r).
  { clear. induction rs as [|r rs IH]; intros o0; cbn [fold_left]; auto.
    destruct (IH (consider A m o0 r)) as [E|(r'&Hin&Hs&E)].
    - rewrite E. destruct (consider_cases m o0 r) as [E'|[Hs E']]; rewrite E'; auto.
      right. exists r. repeat split; auto. left; auto.
    - right. exists r'. repeat split; auto. right; auto. }
  apply (H rs (mkPIN A (pin_B A o) (pin_S A o) (estimation_success A o) (no_parameters A))).
Qed.
(** no run succeeds: NaN parameters, success flag as before *)
Theorem C56_no_success : forall (o : pin_object A) m min,
  (forall r, In r (runs A o m min) -> success A r = false) ->
  estimate A o (Some m) min = (mkPIN A (pin_B A o) (pin_S A o) (estimation_success A o) (no_parameters A), Ok (no_parameters A)).
Proof.
  intros o m min H. cbn [estimate]. revert H. generalize (runs A o m min) as rs; intros rs H.
  assert (E : fold_left (consider A m) rs (mkPIN A (pin_B A o) (pin_S A o) (estimation_success A o) (no_parameters A))
              = mkPIN A (pin_B A o) (pin_S A o) (estimation_success A o) (no_parameters A)); [|rewrite E; reflexivity].
  induction rs as [|r rs IH]; cbn [fold_left]; auto. unfold consider at 2. rewrite (H r) by (left; auto).
  apply IH. intros; apply H; right; auto.
Qed.
(** some run succeeds: the flag is set and the parameters are those of a run *)
Lemma fold_flag m rs (o : pin_object A) : estimation_success A (fold_left (consider A m) rs o) = true -> 
   estimation_success A o = true \/ existsb (success A) rs = true.
Proof.
  revert o; induction rs as [|r rs IH]; intros o; cbn [fold_left existsb]; auto. intros H. apply IH in H.
  destruct H as [H|H]; [|right; rewrite H, orb_true_r; auto].
  destruct (consider_cases m o r) as [E|[Hs E]]; rewrite E in H; auto. right; rewrite Hs; auto.
Qed.
Lemma fold_flag_keep m rs (o : pin_object A) : estimation_success A o = true -> estimation_success A (fold_left (consider A m) rs o) = true.
Proof.
  revert o; induction rs as [|r rs IH]; intros o; cbn [fold_left]; auto. intros H. apply IH.
  destruct (consider_cases m o r) as [E|[Hs E]]; rewrite E; auto.
Qed.
Theorem C56_flag : forall (o : pin_object A) m min, isnan (nnan (a:=A)) = true ->
  estimation_success A (fst (estimate A o (Some m) min)) = estimation_success A o || existsb (success A) (runs A o m min).
Proof.
  intros o m min Hn. cbn [estimate fst]. generalize (runs A o m min) as rs; intros rs.
  apply eq_true_iff_eq. rewrite orb_true_iff. split.
  - apply (fold_flag m rs (mkPIN A (pin_B A o) (pin_S A o) (estimation_success A o) (no_parameters A))).
  - intros [H|H]; [apply fold_flag_keep; auto|].
    assert (G : forall o0, isnan (par_ll A (pin_parameters A o0)) = true -> estimation_success A (fold_left (consider A m) rs o0) = true); [|apply G; auto].
    clear - H. induction rs as [|r rs IH]; cbn [existsb fold_left] in *; [discriminate|].
    intros o0 Ho. destruct (success A r) eqn:E.
    + apply fold_flag_keep. unfold consider. rewrite E, Ho. reflexivity.
    + unfold consider at 2. rewrite E. apply IH; auto.
Qed.
(** any history of calls *)
Definition history := list (option pin_method * minimizer A).
Fixpoint run_history (o : pin_object A) (h : history) : pin_object A :=
  match h with [] => o | (m, min) :: h' => run_history (fst (estimate A o m min)) h' end.
(** once set, the flag is never cleared, not even by an estimate in which nothing succeeds *)
Theorem C56_flag_never_reset : forall o h, estimation_success A o = true -> estimation_success A (run_history o h) = true.
Proof.
  intros o h. revert o. induction h as [|[[m|] min] h IH]; intros o H; cbn [run_history]; auto.
  apply IH. cbn [estimate fst]. apply fold_flag_keep; auto.
Qed.
Theorem C56_stale_success : forall o m min, estimation_success A o = true ->
  (forall r, In r (runs A o m min) -> success A r = false) ->
  let o' := fst (estimate A o (Some m) min) in
  estimation_success A o' = true /\ pin_parameters A o' = no_parameters A.
Proof. intros o m min Ho H; cbn zeta. rewrite C56_no_success by auto. cbn. auto. Qed.
(** a rejected call (unknown method) anywhere in a history changes nothing *)
Theorem C56_unknown_transparent : forall o h1 min h2, run_history o (h1 ++ (None, min) :: h2) = run_history o (h1 ++ h2).
Proof. intros o h1 min h2. revert o. induction h1 as [|[m mn] h1 IH]; intros o; cbn [run_history app]; auto. Qed.
(** estimate depends on the data only, not on what was estimated before (flag aside) *)
Theorem C56_history_independent : forall o o' m min, pin_B A o = pin_B A o' -> pin_S A o = pin_S A o' ->
  snd (estimate A o (Some m) min) = snd (estimate A o' (Some m) min).
Proof.
  intros o o' m min HB HS. cbn [estimate snd]. f_equal.
  assert (HR : runs A o m min = runs A o' m min) by (unfold runs, objective; rewrite HB, HS; reflexivity).
  rewrite HR. generalize (runs A o' m min) as rs. rewrite HB, HS.
  assert (G : forall rs o1 o2, pin_parameters A o1 = pin_parameters A o2 ->
              pin_parameters A (fold_left (consider A m) rs o1) = pin_parameters A (fold_left (consider A m) rs o2)).
  { clear. induction rs as [|r rs IH]; intros o1 o2 H; cbn [fold_left]; auto. apply IH. unfold consider. rewrite H.
    destruct (success A r); auto. destruct (_ || _); auto. }
  intros rs. apply G. reflexivity.
Qed.
End Any.

(** the earliest of the best successful runs, when the objectives are finite *)
Definition loglik_of (r : opt_result XRA) : xr := xopp (opt_fun XRA r).
Lemma consider_keep m (o : pin_object XRA) r v w : par_ll XRA (pin_parameters XRA o) = Fin v -> loglik_of r = Fin w -> w <= v -> consider XRA m o r = o.
Proof.
  intros Ho Hr Hle. unfold consider. destruct (success XRA r); auto.
  change (nopp (opt_fun XRA r)) with (loglik_of r). rewrite Ho, Hr. cbn [isnan nltb XRA xisnan]. rewrite (xltb_false v w) by lra.
  rewrite andb_false_r. reflexivity.
Qed.
Lemma consider_replace m (o : pin_object XRA) r v w : par_ll XRA (pin_parameters XRA o) = Fin v -> success XRA r = true -> loglik_of r = Fin w -> v < w ->
  consider XRA m o r = mkPIN XRA (pin_B XRA o) (pin_S XRA o) true (from_run m r).
Proof.
  intros Ho Hs Hr Hlt. unfold consider. rewrite Hs. unfold from_run.
  change (nopp (opt_fun XRA r)) with (loglik_of r). rewrite Ho, Hr. cbn [isnan nltb npinf XRA xisnan]. rewrite (xltb_true v w) by lra. reflexivity.
Qed.
Lemma consider_nan m (o : pin_object XRA) r : par_ll XRA (pin_parameters XRA o) = NaN -> success XRA r = true ->
  consider XRA m o r = mkPIN XRA (pin_B XRA o) (pin_S XRA o) true (from_run m r).
Proof. intros Ho Hs. unfold consider. rewrite Hs, Ho. reflexivity. Qed.
Lemma consider_fail m (o : pin_object XRA) r : success XRA r = false -> consider XRA m o r = o.
Proof. intros H. unfold consider. rewrite H. reflexivity. Qed.
(** [r] is the earliest best success of the list *)
Definition earliest_best (rs : list (opt_result XRA)) (r : opt_result XRA) : Prop :=
  exists before after v, rs = before ++ r :: after /\ success XRA r = true /\ loglik_of r = Fin v /\
    (forall r', In r' before -> success XRA r' = true -> exists w, loglik_of r' = Fin w /\ w < v) /\
    (forall r', In r' after -> success XRA r' = true -> exists w, loglik_of r' = Fin w /\ w <= v).
Lemma fold_best m rs : (forall r, In r rs -> success XRA r = true -> is_fin (loglik_of r)) ->
  forall o, (exists r, In r rs /\ success XRA r = true) -> par_ll XRA (pin_parameters XRA o) = NaN ->
  exists r, earliest_best rs r /\ pin_parameters XRA (fold_left (consider XRA m) rs o) = from_run m r.
Proof.
  induction rs as [|r0 rs IH] using rev_ind; intros Hf o (r1&Hin&Hs) Ho; [destruct Hin|].
  rewrite fold_left_app. cbn [fold_left].
  assert (Hf' : forall r, In r rs -> success XRA r = true -> is_fin (loglik_of r)) by (intros; apply Hf; auto; apply in_or_app; auto).
  assert (Hfr : success XRA r0 = true -> is_fin (loglik_of r0)) by (apply Hf; apply in_or_app; right; left; auto).
  destruct (existsb (success XRA) rs) eqn:Ex.
  - apply existsb_exists in Ex. destruct (IH Hf' o Ex Ho) as (r&HB&E). assert (HB' := HB).
    destruct HB as (bf&af&v&->&Hsr&Hv&Hbf&Haf).
    assert (Ell : par_ll XRA (pin_parameters XRA (fold_left (consider XRA m) (bf ++ r :: af) o)) = Fin v) by (rewrite E; exact Hv).
    destruct (success XRA r0) eqn:Es0.
    + assert (F0 := Hfr eq_refl). destruct (loglik_of r0) as [w| | |] eqn:Ew; try destruct F0.
      destruct (Rle_dec w v) as [Hle|Hgt].
      * exists r. rewrite (consider_keep m _ r0 v w Ell Ew Hle). split; auto.
        exists bf, (af ++ [r0]), v. rewrite <- app_assoc. repeat split; auto.
        intros r' Hr' Hs'. apply in_app_or in Hr'. destruct Hr' as [Hr'|[<-|[]]]; eauto.
      * exists r0. rewrite (consider_replace m _ r0 v w Ell Es0 Ew) by lra. split; [|reflexivity].
        exists (bf ++ r :: af), [], w. repeat split; auto; [|intros r' []].
        intros r' Hr' Hs'. apply in_app_or in Hr'. destruct Hr' as [Hr'|[<-|Hr']].
        -- destruct (Hbf r' Hr' Hs') as (u&->&Hu). exists u. split; auto; lra.
        -- exists v. split; auto; lra.
        -- destruct (Haf r' Hr' Hs') as (u&->&Hu). exists u. split; auto; lra.
    + exists r. rewrite consider_fail by auto. split; auto.
      exists bf, (af ++ [r0]), v. rewrite <- app_assoc. repeat split; auto.
      intros r' Hr' Hs'. apply in_app_or in Hr'. destruct Hr' as [Hr'|[<-|[]]]; eauto. congruence.
  - assert (Hno : forall r, In r rs -> success XRA r = false).
    { intros r Hr. destruct (success XRA r) eqn:E; auto. rewrite (proj2 (existsb_exists _ _)) in Ex; [discriminate|]. eauto. }
    assert (Eo : fold_left (consider XRA m) rs o = o).
    { clear - Hno. induction rs as [|r rs IH]; auto. cbn [fold_left]. rewrite consider_fail by (apply Hno; left; auto). apply IH. intros; apply Hno; right; auto. }
    rewrite Eo. apply in_app_or in Hin. destruct Hin as [Hin|[<-|[]]]; [rewrite Hno in Hs by auto; discriminate|].
    exists r0. rewrite consider_nan by auto. split; [|reflexivity].
    assert (F0 := Hfr Hs). destruct (loglik_of r0) as [w| | |] eqn:Ew; try destruct F0.
    exists rs, [], w. repeat split; auto; [|intros r' []]. intros r' Hr' Hs'. rewrite Hno in Hs' by auto. discriminate.
Qed.
Theorem C56_keeps_best : forall (o : pin_object XRA) m min,
  (forall r, In r (runs XRA o m min) -> success XRA r = true -> is_fin (opt_fun XRA r)) ->
  (exists r, In r (runs XRA o m min) /\ success XRA r = true) ->
  exists r, earliest_best (runs XRA o m min) r /\ snd (estimate XRA o (Some m) min) = Ok (from_run m r).
Proof.
  intros o m min Hf Hex. cbn [estimate snd].
  destruct (fold_best m (runs XRA o m min)) with (o := mkPIN XRA (pin_B XRA o) (pin_S XRA o) (estimation_success XRA o) (no_parameters XRA))
    as (r&HB&E); auto.
  - intros r Hr Hs. specialize (Hf r Hr Hs). unfold loglik_of. destruct (opt_fun XRA r); auto.
  - exists r. split; auto. rewrite E. reflexivity.
Qed.
(** a first success with objective -infinity (log-likelihood +infinity) is never replaced *)
Theorem C56_infinite_first_kept : forall (o : pin_object XRA) m min before r after,
  runs XRA o m min = before ++ r :: after -> (forall r', In r' before -> success XRA r' = false) ->
  success XRA r = true -> opt_fun XRA r = MInf -> snd (estimate XRA o (Some m) min) = Ok (from_run m r).
Proof.
  intros o m min bf r af E Hb Hs Hi. cbn [estimate snd]. rewrite E, fold_left_app. cbn [fold_left].
  assert (Eo : forall o1, fold_left (consider XRA m) bf o1 = o1).
  { clear - Hb. induction bf as [|r bf IH]; intros; auto. cbn [fold_left]. rewrite consider_fail by (apply Hb; left; auto). apply IH. intros; apply Hb; right; auto. }
  rewrite Eo, consider_nan by auto. f_equal.
  assert (G : forall rs o1, par_ll XRA (pin_parameters XRA o1) = PInf -> pin_parameters XRA (fold_left (consider XRA m) rs o1) = pin_parameters XRA o1).
  { clear. induction rs as [|r rs IH]; intros o1 H; auto. cbn [fold_left].
    assert (consider XRA m o1 r = o1) as ->; [|apply IH; auto]. unfold consider. destruct (success XRA r); auto. rewrite H.
    cbn [isnan XRA xisnan nltb npinf nopp]. destruct (xopp (opt_fun XRA r)) eqn:Eq; cbn; auto. }
  rewrite G; auto. cbn. rewrite Hi. reflexivity.
Qed.
(** a success whose objective is NaN is replaced by the next success, however poor *)
Theorem C56_nan_replaced : forall (o : pin_object XRA) m min before r mid r2,
  runs XRA o m min = before ++ r :: mid ++ [r2] ->
  (forall r', In r' before \/ In r' mid -> success XRA r' = false) ->
  success XRA r = true -> opt_fun XRA r = NaN -> success XRA r2 = true ->
  snd (estimate XRA o (Some m) min) = Ok (from_run m r2).
Proof.
  intros o m min bf r md r2 E Hb Hs Hi Hs2. cbn [estimate snd]. rewrite E, fold_left_app. cbn [fold_left].
  assert (Eo : forall rs o1, (forall r', In r' rs -> success XRA r' = false) -> fold_left (consider XRA m) rs o1 = o1).
  { clear. induction rs as [|r bf IH]; intros; auto. cbn [fold_left]. rewrite consider_fail by (apply H; left; auto). apply IH. intros; apply H; right; auto. }
  rewrite (Eo bf), consider_nan by auto. rewrite fold_left_app, (Eo md) by auto. cbn [fold_left]. rewrite consider_nan; auto.
  cbn. rewrite Hi. reflexivity.
Qed.
(** non-vacuity: data with 125 starts, an optimizer succeeding everywhere with finite objective *)
Definition demo : pin_object XRA := mkPIN XRA (map Fin [10; 10]) (map Fin [90; 90]) false (no_parameters XRA).
Definition demo_min (succ : bool) : minimizer XRA := fun i _ p => mkOpt XRA succ p (Fin (- INR i)).
Lemma demo_runs_len succ m : length (runs XRA demo m (demo_min succ)) = 125%nat.
Proof.
  unfold runs. rewrite map2_length, seq_length, Nat.min_id. cbn [pin_B pin_S demo].
  apply C53_all_points_iff; try discriminate; unfold Rmean; simpl; lra.
Qed.
Lemma map2_In {X Y Z} (f : X -> Y -> Z) l k z : In z (map2 f l k) -> exists x y, z = f x y.
Proof. revert k; induction l as [|x l IH]; intros [|y k]; cbn; try tauto. intros [<-|H]; eauto. Qed.
Example C56_case : 
  (exists r, In r (runs XRA demo EHO2010 (demo_min true)) /\ success XRA r = true) /\
  (forall r, In r (runs XRA demo EHO2010 (demo_min true)) -> is_fin (opt_fun XRA r)) /\
  (forall r, In r (runs XRA demo LK2011 (demo_min false)) -> success XRA r = false) /\
  isnan (nnan (a:=XRA)) = true.
Proof.
  split; [|split; [|split; [|reflexivity]]].
  - destruct (runs XRA demo EHO2010 (demo_min true)) as [|r l] eqn:E.
    + generalize (demo_runs_len true EHO2010). rewrite E. discriminate.
    + exists r. split; [left; auto|]. assert (In r (r :: l)) by (left; auto). rewrite <- E in H.
      apply map2_In in H. destruct H as (i&p&->). reflexivity.
  - intros r H. apply map2_In in H. destruct H as (i&p&->). exact I.
  - intros r H. apply map2_In in H. destruct H as (i&p&->). reflexivity.
Qed.
