(** * Theorems: multivariate GARCH, search and protocol (C19, C20) *)
From Coq Require Import Reals Lra ZArith List Bool Arith Lia.
From Verif Require Import Arith XR RealAux Model_garch Spec_garch Proofs_garch2 Proofs_garch3 Proofs_garch5 Model_ar Props_ar Model_mgarch Props_mgarch.
Import ListNotations.
Local Open Scope R_scope.

(** ** C19: starting values *)
(** The points tried: the grid in itertools.product order without those with a + b >= 1. *)
Definition tried (A : Arith) : list (num A * num A) := filter (fun p => negb (nleb (ofZ 1) (nadd (fst p) (snd p)))) (dcc_grid A).
(** Evaluate the log-likelihood at a list of points, in order (evaluation re-fits the sub-models). *)
Fixpoint evaluate (A : Arith) k cpp m1 m2 (pts : list (num A * num A)) (ms : state A * state A) : res (list ((num A * num A) * num A) * (state A * state A)) :=
  match pts with
  | [] => Ok ([], ms)
  | p :: pts' => do r <- dcc_objective A k cpp m1 m2 ms [fst p; snd p];
                 do rest <- evaluate A k cpp m1 m2 pts' (snd r);
                 Ok ((p, nopp (fst r)) :: fst rest, snd rest)
  end.
(** The last point whose log-likelihood compares greater than -inf. *)
Definition last_acceptable (A : Arith) (es : list ((num A * num A) * num A)) (default : num A * num A) : num A * num A :=
  last (map fst (filter (fun e => nltb (nopp npinf) (snd e)) es)) default.
Lemma last_cons_default {X} (x : X) l d : last (x :: l) d = last l x.
Proof.
  assert (G : forall (l : list X) y d d', last (y :: l) d = last (y :: l) d').
  { clear. induction l as [|z l IH]; intros y d d'; [reflexivity|]. change (last (z :: l) d = last (z :: l) d'). apply IH. }
  destruct l as [|y l]; [reflexivity|]. change (last (y :: l) d = last (y :: l) x). apply G.
Qed.
Theorem C19_returns_the_last_acceptable_point : forall (A : Arith) k cpp m1 m2 ms,
  dcc_starting_values A k cpp m1 m2 ms =
  do e <- evaluate A k cpp m1 m2 (tried A) ms; Ok (last_acceptable A (fst e) (lit 1 100, lit 8 10), snd e).
Proof.
  intros A k cpp m1 m2 ms. unfold dcc_starting_values, tried. generalize (lit (a:=A) 1 100, lit (a:=A) 8 10). revert ms.
  induction (dcc_grid A) as [|[a b] grid IH]; intros ms d; [reflexivity|]. cbn [dcc_search filter fst snd].
  destruct (nleb (ofZ 1) (nadd a b)); cbn [negb]; [apply IH|]. cbn [evaluate fst snd].
  destruct (dcc_objective A k cpp m1 m2 ms [a; b]) as [[f ms1]|e]; cbn [bind]; [|reflexivity].
  cbn [fst snd]. rewrite IH. destruct (evaluate A k cpp m1 m2 _ ms1) as [[es ms2]|e]; cbn [bind]; [|reflexivity]. cbn [fst snd].
  unfold last_acceptable. cbn [filter snd]. destruct (nltb (nopp npinf) (nopp f)); cbn [map fst]; [rewrite last_cons_default|]; reflexivity.
Qed.
Lemma evaluate_points (A : Arith) k cpp m1 m2 pts : forall ms es ms', evaluate A k cpp m1 m2 pts ms = Ok (es, ms') -> map fst es = pts.
Proof.
  induction pts as [|p pts IH]; intros ms es ms' H; cbn [evaluate] in H; [injection H as <- <-; reflexivity|].
  destruct (dcc_objective A k cpp m1 m2 ms [fst p; snd p]) as [[f ms1]|e]; cbn [bind] in H; [|discriminate]. cbn [snd fst] in H.
  destruct (evaluate A k cpp m1 m2 pts ms1) as [[es1 ms2]|e] eqn:E; cbn [bind] in H; [|discriminate]. injection H as <- <-. cbn. f_equal. eauto.
Qed.
Lemma filter_all {X} (f : X -> bool) l : (forall x, In x l -> f x = true) -> filter f l = l.
Proof. induction l as [|x l IH]; intros H; [reflexivity|]. cbn. rewrite (H x) by (left; auto). f_equal. apply IH. intros; apply H; right; auto. Qed.
(** Two arbitrary data sets (likelihood surfaces) without a value -inf or NaN get the same starting values. *)
Theorem C19_independent_of_the_likelihood : forall (A : Arith) k cpp m1 m2 ms es ms' best ms'',
  evaluate A k cpp m1 m2 (tried A) ms = Ok (es, ms') -> Forall (fun e => nltb (nopp npinf) (snd e) = true) es ->
  dcc_starting_values A k cpp m1 m2 ms = Ok (best, ms'') -> best = last (tried A) (lit 1 100, lit 8 10).
Proof.
  intros A k cpp m1 m2 ms es ms' best ms'' HE HF HS. rewrite C19_returns_the_last_acceptable_point, HE in HS. cbn [bind fst snd] in HS.
  injection HS as <- _. unfold last_acceptable. rewrite Forall_forall in HF. rewrite filter_all by auto. rewrite (evaluate_points _ _ _ _ _ _ _ _ _ HE). reflexivity.
Qed.
(** Over the reals that point is (88/225, 3/5), the corner of the grid with the largest a. *)
Lemma linspace_a : linspace XRA (Fin (1/100)) (Fin (5/10)) 10 = map (fun i => Fin (1/100 + IZR i * (49/900))) [0;1;2;3;4;5;6;7;8;9]%Z.
Proof.
  unfold linspace. change (Z.of_nat 10 - 1)%Z with 9%Z. cbn [nsub ndiv ofZ XRA xsub xadd xopp]. rewrite xdiv_fin by lra.
  cbn [seq map Nat.eqb Nat.sub]. cbn [nadd nmul XRA xmul xadd Z.of_nat Pos.of_succ_nat Pos.succ]. repeat (f_equal; try lra).
Qed.
Lemma linspace_b : linspace XRA (Fin (6/10)) (Fin (95/100)) 10 = map (fun i => Fin (6/10 + IZR i * (35/900))) [0;1;2;3;4;5;6;7;8;9]%Z.
Proof.
  unfold linspace. change (Z.of_nat 10 - 1)%Z with 9%Z. cbn [nsub ndiv ofZ XRA xsub xadd xopp]. rewrite xdiv_fin by lra.
  cbn [seq map Nat.eqb Nat.sub]. cbn [nadd nmul XRA xmul xadd Z.of_nat Pos.of_succ_nat Pos.succ]. repeat (f_equal; try lra).
Qed.
Lemma filter_app' {X} (f : X -> bool) l m : filter f (l ++ m) = filter f l ++ filter f m.
Proof. apply filter_app. Qed.
Definition keep (p : xr * xr) : bool := negb (xleb (Fin 1) (xadd (fst p) (snd p))).
Lemma keep_iff x y : keep (Fin x, Fin y) = true <-> x + y < 1.
Proof.
  unfold keep. cbn [fst snd xadd]. destruct (Rlt_dec (x + y) 1) as [h|h].
  - rewrite xleb_false by auto. tauto.
  - rewrite xleb_true by lra. split; [discriminate|lra].
Qed.
Definition ga (i : Z) : R := 1/100 + IZR i * (49/900).
Definition gb (i : Z) : R := 6/10 + IZR i * (35/900).
Definition idx : list Z := [0;1;2;3;4;5;6;7;8;9]%Z.
Lemma grid_fin : dcc_grid XRA = list_prod (map (fun i => Fin (ga i)) idx) (map (fun i => Fin (gb i)) idx).
Proof. unfold dcc_grid. cbn [lit XRA]. rewrite linspace_a, linspace_b. reflexivity. Qed.
Theorem C19_the_point : last (tried XRA) (Fin (1/100), Fin (8/10)) = (Fin (88/225), Fin (3/5)).
Proof.
  change (tried XRA) with (filter keep (dcc_grid XRA)). change (num XRA) with xr. rewrite grid_fin.
  assert (R0 : forall i, (8 <= i)%Z -> filter keep (map (fun y => (Fin (ga i), y)) (map (fun i => Fin (gb i)) idx)) = []).
  { intros i Hi. assert (HA : 8 <= IZR i) by (apply IZR_le in Hi; lra).
    assert (G : forall l, (forall j, In j l -> (0 <= j)%Z) -> filter keep (map (fun y => (Fin (ga i), y)) (map (fun i => Fin (gb i)) l)) = []).
    { induction l as [|j l IH]; intros HJ; [reflexivity|]. cbn [map filter]. assert (H0 := HJ j (or_introl eq_refl)). apply IZR_le in H0.
      destruct (keep (Fin (ga i), Fin (gb j))) eqn:E; [apply keep_iff in E; unfold ga, gb in E; lra|]. apply IH. intros; apply HJ; right; auto. }
    apply G. intros j Hj. unfold idx in Hj. cbn in Hj. lia. }
  assert (R7 : filter keep (map (fun y => (Fin (ga 7), y)) (map (fun i => Fin (gb i)) idx)) = [(Fin (ga 7), Fin (gb 0))]).
  { unfold idx. cbn [map filter].
    assert (E0 : keep (Fin (ga 7), Fin (gb 0)) = true) by (apply keep_iff; unfold ga, gb; lra). rewrite E0.
    repeat match goal with |- context [keep (Fin (ga 7), Fin (gb ?j))] => 
      let E := fresh in assert (E : keep (Fin (ga 7), Fin (gb j)) = false) by (apply not_true_is_false; intros X; apply keep_iff in X; unfold ga, gb in X; lra); rewrite E; clear E end.
    reflexivity. }
  change idx with ([0;1;2;3;4;5;6] ++ [7;8;9])%Z at 1. rewrite map_app.
  assert (LP : forall (l1 l2 m : list xr), list_prod (l1 ++ l2) m = list_prod l1 m ++ list_prod l2 m).
  { induction l1 as [|x l1 IH]; intros; [reflexivity|]. cbn [app list_prod]. rewrite IH. apply app_assoc. }
  rewrite LP, filter_app. set (front := filter keep (list_prod (map _ [0;1;2;3;4;5;6]%Z) _)).
  cbn [map list_prod]. rewrite !filter_app, R7, (R0 8%Z), (R0 9%Z) by lia. cbn [app filter].
  rewrite last_last. f_equal; f_equal; [unfold ga|unfold gb]; lra.
Qed.
(** Every value that can be returned is in the admissible region (any arithmetic outcome of the likelihoods). *)
Lemma list_eq_nil_or_last {X} (l : list X) : l = [] \/ exists l' x, l = l' ++ [x].
Proof. induction l as [|x l] using rev_ind; [auto|right; eauto]. Qed.
Theorem C19_admissible : forall k cpp m1 m2 ms best ms', dcc_starting_values XRA k cpp m1 m2 ms = Ok (best, ms') ->
  exists a b, best = (Fin a, Fin b) /\ 0 < a /\ 0 < b /\ a + b < 1.
Proof.
  intros k cpp m1 m2 ms best ms' H. rewrite C19_returns_the_last_acceptable_point in H.
  destruct (evaluate XRA k cpp m1 m2 (tried XRA) ms) as [[es ms1]|e] eqn:E; cbn [bind] in H; [|discriminate].
  injection H as <- _. unfold last_acceptable. cbn [fst].
  set (l := map fst (filter _ es)).
  assert (HL : forall x, In x l -> In x (tried XRA)).
  { intros x Hx. unfold l in Hx. apply in_map_iff in Hx. destruct Hx as (y & <- & Hy). apply filter_In in Hy. rewrite <- (evaluate_points _ _ _ _ _ _ _ _ _ E). apply in_map. tauto. }
  clearbody l. destruct (list_eq_nil_or_last l) as [->|(l' & x & ->)].
  - exists (1/100), (8/10). split; [reflexivity|lra].
  - rewrite last_last. assert (HX := HL x ltac:(apply in_or_app; right; left; reflexivity)). unfold tried in HX. apply filter_In in HX. destruct HX as [H1 H2].
    rewrite grid_fin in H1. destruct x as [x1 x2]. apply in_prod_iff in H1. destruct H1 as [A1 A2]. apply in_map_iff in A1, A2.
    destruct A1 as (i & <- & Hi), A2 as (j & <- & Hj). exists (ga i), (gb j). split; [reflexivity|]. apply keep_iff in H2.
    assert (0 <= i)%Z by (unfold idx in Hi; cbn in Hi; lia). assert (0 <= j)%Z by (unfold idx in Hj; cbn in Hj; lia).
    apply IZR_le in H, H0. unfold ga, gb in *. lra.
Qed.

(** Hence, for any two estimated GARCH sub-models with finite log-likelihoods, positive variances and non-degenerate
    standardized residuals, the search always starts the optimizer at (88/225, 3/5). *)
Lemma neg_loglik_fin l1 l2 rho z1 z2 : exists v, dcc_negative_loglik XRA (Fin l1) (Fin l2) (map Fin rho) (map Fin z1) (map Fin z2) = Fin v.
Proof.
  unfold dcc_negative_loglik. change (num XRA) with xr. rewrite combine_fin, map_map, map2_map. cbn [fst snd].
  rewrite (map2_ext _ (fun c p => Fin (- (1/2) * (- (fst p * fst p + snd p * snd p) + ln (1 - clip99 c * clip99 c) + (fst p * fst p + snd p * snd p - 2 * clip99 c * fst p * snd p) / (1 - clip99 c * clip99 c))))).
  2:{ intros c p. rewrite clip_fin. apply dcc_term_fin. apply clip99_range. }
  rewrite <- (map_map2 Fin (fun c p => - (1/2) * (- (fst p * fst p + snd p * snd p) + ln (1 - clip99 c * clip99 c) + (fst p * fst p + snd p * snd p - 2 * clip99 c * fst p * snd p) / (1 - clip99 c * clip99 c)))).
  rewrite asum_fin. cbn [nadd nopp XRA xadd xopp]. eauto.
Qed.
Theorem C19_start_is_constant : forall cpp mini1 mini2 m1 m2 r1 r2 s1 s2 l1 l2,
  st_success XRA m1 = true -> st_success XRA m2 = true ->
  st_resids XRA m1 = map Fin r1 -> st_resids XRA m2 = map Fin r2 -> st_sigma2 XRA m1 = map Fin s1 -> st_sigma2 XRA m2 = map Fin s2 ->
  p_ll XRA (st_params XRA m1) = Fin l1 -> p_ll XRA (st_params XRA m2) = Fin l2 ->
  length r1 = length s1 -> length r2 = length s2 -> length r1 = length r2 -> positive s1 -> positive s2 ->
  non_constant (zscores r1 s1) -> non_constant (zscores r2 s2) ->
  dcc_starting_values XRA KGarch cpp mini1 mini2 (m1, m2) = Ok ((Fin (88/225), Fin (3/5)), (m1, m2)).
Proof.
  intros cpp mini1 mini2 m1 m2 r1 r2 s1 s2 l1 l2 S1 S2 R1 R2 V1 V2 P1 P2 L1 L2 L12 HP1 HP2 N1 N2.
  assert (EV : forall pts, (forall p, In p pts -> exists a b, p = (Fin a, Fin b) /\ 0 < a /\ 0 < b /\ a + b < 1) ->
    exists es, evaluate XRA KGarch cpp mini1 mini2 pts (m1, m2) = Ok (es, (m1, m2)) /\ Forall (fun e => nltb (a:=XRA) (nopp npinf) (snd e) = true) es).
  { induction pts as [|p pts IH]; intros HPt; [exists []; split; [reflexivity|constructor]|].
    destruct (HPt p (or_introl eq_refl)) as (a & b & -> & Ha & Hb & Hab).
    destruct IH as (es & E & F); [intros; apply HPt; right; auto|].
    destruct (C15_conditional_correlations_in_range cpp a b r1 r2 s1 s2) as (rho & EC & _); auto; try lra.
    cbn [evaluate fst snd]. unfold dcc_objective, conditional_correlations. cbn [fst snd].
    assert (F1 : fit XRA KGarch mini1 m1 = Ok (None, m1)) by (unfold fit; rewrite S1; reflexivity).
    assert (F2 : fit XRA KGarch mini2 m2 = Ok (None, m2)) by (unfold fit; rewrite S2; reflexivity).
    rewrite F1, F2. cbn [bind snd]. change (num XRA) with xr in *. rewrite R1, R2, V1, V2, EC. cbn [bind fst snd]. rewrite P1, P2.
    rewrite !standardize_fin by auto.
    destruct (neg_loglik_fin l1 l2 rho (zscores r1 s1) (zscores r2 s2)) as (v & Ev). rewrite Ev, E. cbn [bind fst snd].
    eexists. split; [reflexivity|]. constructor; [reflexivity|auto]. }
  destruct (EV (tried XRA)) as (es & E & F).
  { intros p Hp. unfold tried in Hp. apply filter_In in Hp. destruct Hp as [H1 H2].
    rewrite grid_fin in H1. destruct p as [x1 x2]. apply in_prod_iff in H1. destruct H1 as [A1 A2]. apply in_map_iff in A1, A2.
    destruct A1 as (i & <- & Hi), A2 as (j & <- & Hj). exists (ga i), (gb j). split; [reflexivity|]. apply keep_iff in H2.
    assert (0 <= i)%Z by (unfold idx in Hi; cbn in Hi; lia). assert (0 <= j)%Z by (unfold idx in Hj; cbn in Hj; lia).
    apply IZR_le in H, H0. unfold ga, gb in *. lra. }
  rewrite C19_returns_the_last_acceptable_point, E. cbn [bind fst snd]. unfold last_acceptable. rewrite Forall_forall in F. rewrite filter_all by auto.
  rewrite (evaluate_points _ _ _ _ _ _ _ _ _ E). cbn [lit XRA]. change (num XRA) with xr in *. assert (E0 := C19_the_point). change (num XRA) with xr in E0. apply f_equal. apply (f_equal (fun z => (z, (m1, m2)))). exact E0.
Qed.
Example C19_case : exists m1 m2, dcc_starting_values XRA KGarch true (fun _ _ => Build_opt_run XRA [] true [] NaN) (fun _ _ => Build_opt_run XRA [] true [] NaN) (m1, m2)
   = Ok ((Fin (88/225), Fin (3/5)), (m1, m2)).
Proof.
  set (mk := fun r : list R => Build_state XRA (map Fin r) false true NaN (Build_Params XRA [] (Fin (-5))) (map Fin r) (map Fin [1; 1; 1; 1]) NaN []).
  exists (mk [1; -1; 2; 0]), (mk [2; 1; -1; 0]).
  assert (C := C15_case). cbv zeta in C. destruct C as (_ & HP & HN1 & HN2 & _).
  apply (C19_start_is_constant true _ _ _ _ [1; -1; 2; 0] [2; 1; -1; 0] [1; 1; 1; 1] [1; 1; 1; 1] (-5) (-5)); auto.
Qed.

(** ** C20: protocol *)
(** A successful object is never estimated again. *)
Theorem C20_success_is_final_dcc : forall (A : Arith) k cpp m1 m2 ms o, d_success A o = true -> dcc_fits A k cpp m1 m2 ms o = Ok o.
Proof.
  intros A k cpp m1 m2 ms o H. induction ms as [|m ms IH]; [reflexivity|]. cbn [dcc_fits]. unfold dcc_fit at 1. rewrite H. cbn [bind]. exact IH.
Qed.
Theorem C20_success_is_final_ccc : forall (A : Arith) s1 s2 m o ms, c_success A o = true ->
  ccc_fit A s1 s2 m o = Ok ((c_fields A o, c_ll A o), o) /\ ccc_fits A ms o = Ok o.
Proof.
  intros A s1 s2 m o ms H. split; [unfold ccc_fit; rewrite H; reflexivity|].
  induction ms as [|[[x y] z] ms IH]; [reflexivity|]. cbn [ccc_fits]. unfold ccc_fit at 1. rewrite H. cbn [bind snd]. exact IH.
Qed.

(** Re-fitting a sub-model with the same (deterministic) solver does not change its parameters. *)
Lemma prep_sv (A : Arith) k st st' sv x sv' x' : st_returns A st = st_returns A st' -> st_zero_mean A st = st_zero_mean A st' ->
  preparation A k st = Ok (sv, x) -> preparation A k st' = Ok (sv', x') -> sv = sv'.
Proof.
  intros H1 H2 P P'. unfold preparation in *. rewrite H1, H2 in P.
  destruct (variance_bounds A _) as [vb|]; cbn [bind] in P, P'; [|discriminate].
  destruct (starting_values A k _ _ _ _) as [vp|]; cbn [bind] in P, P'; [|discriminate]. congruence.
Qed.
Lemma refit_params (A : Arith) k m st r st1 r' st2 : fit A k m st = Ok (r, st1) -> fit A k m st1 = Ok (r', st2) -> st_params A st2 = st_params A st1.
Proof.
  intros H H'. destruct (fit_inv A _ _ _ _ _ H) as [(-> & S & -> & ->)|(_ & sv & p1 & s & HP & HR)].
  - unfold fit in H'. rewrite S in H'. injection H' as <- <-. reflexivity.
  - cbv zeta in HR. destruct HR as (_ & _ & _ & ER & EZ & _ & _ & HO).
    destruct (fit_inv A _ _ _ _ _ H') as [(_ & _ & _ & ->)|(_ & sv' & p1' & s' & HP' & HR')]; [reflexivity|].
    cbv zeta in HR'. destruct HR' as (_ & _ & _ & _ & _ & _ & _ & HO').
    assert (E := prep_sv A k st st1 _ _ _ _ (eq_sym ER) (eq_sym EZ) HP HP'). subst sv'. rewrite EZ in HO'.
    destruct (o_success A (m sv (fit_bounds A k (st_zero_mean A st)))).
    + destruct HO as (M & _), HO' as (M' & _). congruence.
    + apply HO'.
Qed.
Definition settled (A : Arith) k m (st : state A) : Prop := exists prev r, fit A k m prev = Ok (r, st).
Lemma settled_fit (A : Arith) k m st r st' : settled A k m st -> fit A k m st = Ok (r, st') -> st_params A st' = st_params A st /\ settled A k m st'.
Proof. intros (prev & r0 & H) H'. split; [eapply refit_params; eauto|exists st, r; auto]. Qed.
Section Keep.
Context (A : Arith) (k : kind) (cpp : bool) (m1 m2 : solver A).
Definition kept (ms ms' : state A * state A) : Prop :=
  settled A k m1 (fst ms') /\ settled A k m2 (snd ms') /\
  st_params A (fst ms') = st_params A (fst ms) /\ st_params A (snd ms') = st_params A (snd ms).
Lemma objective_keeps ms x f ms' : settled A k m1 (fst ms) -> settled A k m2 (snd ms) -> dcc_objective A k cpp m1 m2 ms x = Ok (f, ms') -> kept ms ms'.
Proof.
  intros S1 S2 H. destruct x as [|a [|b [|c x]]]; cbn [dcc_objective] in H; try discriminate.
  unfold conditional_correlations in H.
  destruct (fit A k m1 (fst ms)) as [[q1 t1]|] eqn:F1; cbn [bind] in H; [|discriminate].
  destruct (fit A k m2 (snd ms)) as [[q2 t2]|] eqn:F2; cbn [bind] in H; [|discriminate]. cbn [snd] in H.
  destruct (cond_corr A cpp a b _ _ _ _) as [rho|]; cbn [bind] in H; [|discriminate]. injection H as _ <-.
  destruct (settled_fit A k m1 _ _ _ S1 F1) as [E1 T1]. destruct (settled_fit A k m2 _ _ _ S2 F2) as [E2 T2]. repeat split; auto.
Qed.
Lemma kept_trans a b c : kept a b -> kept b c -> kept a c.
Proof. intros (A1 & A2 & A3 & A4) (B1 & B2 & B3 & B4). repeat split; auto; congruence. Qed.
Lemma kept_refl ms : settled A k m1 (fst ms) -> settled A k m2 (snd ms) -> kept ms ms.
Proof. intros. repeat split; auto. Qed.
Lemma search_keeps ml grid : forall ms best r ms', settled A k m1 (fst ms) -> settled A k m2 (snd ms) ->
  dcc_search A k cpp m1 m2 ml grid ms best = Ok (r, ms') -> kept ms ms'.
Proof.
  induction grid as [|[a b] grid IH]; intros ms best r ms' S1 S2 H; cbn [dcc_search] in H.
  - injection H as _ <-. apply kept_refl; auto.
  - destruct (nleb (ofZ 1) (nadd a b)); [eauto|].
    destruct (dcc_objective A k cpp m1 m2 ms [a; b]) as [[f ms1]|] eqn:E; cbn [bind] in H; [|discriminate]. cbn [snd] in H.
    assert (K := objective_keeps _ _ _ _ S1 S2 E). eapply kept_trans; [exact K|]. eapply IH; [apply K|apply K|exact H].
Qed.
Lemma evals_keep pts : forall ms ms', settled A k m1 (fst ms) -> settled A k m2 (snd ms) -> dcc_evals A k cpp m1 m2 pts ms = Ok ms' -> kept ms ms'.
Proof.
  induction pts as [|x pts IH]; intros ms ms' S1 S2 H; cbn [dcc_evals] in H.
  - injection H as <-. apply kept_refl; auto.
  - destruct (dcc_objective A k cpp m1 m2 ms x) as [[f ms1]|] eqn:E; cbn [bind] in H; [|discriminate]. cbn [snd] in H.
    assert (K := objective_keeps _ _ _ _ S1 S2 E). eapply kept_trans; [exact K|]. eapply IH; [apply K|apply K|exact H].
Qed.
End Keep.
(** One effective DCC fit: the reported marginals are the sub-models' parameters at the end (first asset first), and
    the values of a, b and the log-likelihood are the solver's (NaN after a failure). *)
Theorem C20_dcc_marginals_are_the_submodels : forall (A : Arith) k cpp m1 m2 mini o o',
  d_success A o = false -> dcc_fit A k cpp m1 m2 mini o = Ok o' ->
  d_marginals A o' = p_fields A (st_params A (fst (d_models A o'))) ++ p_fields A (st_params A (snd (d_models A o'))) /\
  exists start, let opt := mini start in
    d_success A o' = o_success A opt /\
    if o_success A opt then o_x A opt = [d_a A o'; d_b A o'] /\ d_ll A o' = nopp (o_fun A opt)
    else d_a A o' = nnan /\ d_b A o' = nnan /\ d_ll A o' = nnan.
Proof.
  intros A k cpp m1 m2 mini o o' Hs H. unfold dcc_fit in H. rewrite Hs in H.
  destruct (fit A k m1 (fst (d_models A o))) as [[q1 t1]|] eqn:F1; cbn [bind] in H; [|discriminate].
  destruct (fit A k m2 (snd (d_models A o))) as [[q2 t2]|] eqn:F2; cbn [bind] in H; [|discriminate]. cbn [snd] in H.
  destruct (dcc_starting_values A k cpp m1 m2 (t1, t2)) as [[ab ms]|] eqn:SV; cbn [bind] in H; [|discriminate]. cbn [fst snd] in H.
  assert (S1 : settled A k m1 t1) by (exists (fst (d_models A o)), q1; auto).
  assert (S2 : settled A k m2 t2) by (exists (snd (d_models A o)), q2; auto).
  assert (K1 := search_keeps A k cpp m1 m2 _ _ (t1, t2) _ _ _ S1 S2 SV).
  destruct (dcc_evals A k cpp m1 m2 _ ms) as [ms'|] eqn:EV; cbn [bind] in H; [|discriminate].
  destruct K1 as (K1 & K2 & K3 & K4).
  destruct (evals_keep A k cpp m1 m2 _ ms ms' K1 K2 EV) as (_ & _ & Q3 & Q4).
  destruct (o_success A (mini [fst ab; snd ab])) eqn:EO.
  - destruct (o_x A (mini [fst ab; snd ab])) as [|a [|b [|c x]]] eqn:EX; try discriminate. injection H as <-. cbn [d_marginals d_models fst snd].
    split; [rewrite Q3, Q4; reflexivity|]. exists [fst ab; snd ab]. cbv zeta. rewrite EO, EX. cbn. auto.
  - injection H as <-. cbn [d_marginals d_models]. split; [rewrite Q3, Q4; reflexivity|]. exists [fst ab; snd ab]. cbv zeta. rewrite EO. cbn. auto.
Qed.
(** Already estimated GARCH sub-models passed to the constructor are used as they are. *)
Theorem C20_estimated_submodels_are_reused : forall (A : Arith) cpp m1 m2 mini s1 s2 o',
  st_success A s1 = true -> st_success A s2 = true ->
  dcc_fit A KGarch cpp m1 m2 mini (new_dcc A KGarch s1 s2) = Ok o' ->
  d_models A o' = (s1, s2) /\ d_marginals A o' = p_fields A (st_params A s1) ++ p_fields A (st_params A s2).
Proof.
  intros A cpp m1 m2 mini s1 s2 o' S1 S2 H.
  assert (OB : forall x f ms', dcc_objective A KGarch cpp m1 m2 (s1, s2) x = Ok (f, ms') -> ms' = (s1, s2)).
  { intros x f ms' HO. destruct x as [|a [|b [|c x]]]; cbn [dcc_objective] in HO; try discriminate. unfold conditional_correlations in HO.
    cbn [fst snd] in HO. assert (F1 : fit A KGarch m1 s1 = Ok (None, s1)) by (unfold fit; rewrite S1; reflexivity).
    assert (F2 : fit A KGarch m2 s2 = Ok (None, s2)) by (unfold fit; rewrite S2; reflexivity). rewrite F1, F2 in HO. cbn [bind snd] in HO.
    destruct (cond_corr A cpp a b _ _ _ _); cbn [bind] in HO; [|discriminate]. injection HO as _ <-. reflexivity. }
  assert (SE : forall ml grid best r ms', dcc_search A KGarch cpp m1 m2 ml grid (s1, s2) best = Ok (r, ms') -> ms' = (s1, s2)).
  { intros ml. induction grid as [|[a b] grid IH]; intros best r ms' HS; cbn [dcc_search] in HS; [injection HS as _ <-; reflexivity|].
    destruct (nleb (ofZ 1) (nadd a b)); [eauto|].
    destruct (dcc_objective A KGarch cpp m1 m2 (s1, s2) [a; b]) as [[f ms1]|] eqn:E; cbn [bind] in HS; [|discriminate].
    apply OB in E. subst ms1. eauto. }
  assert (EV : forall pts ms', dcc_evals A KGarch cpp m1 m2 pts (s1, s2) = Ok ms' -> ms' = (s1, s2)).
  { induction pts as [|x pts IH]; intros ms' HS; cbn [dcc_evals] in HS; [injection HS as <-; reflexivity|].
    destruct (dcc_objective A KGarch cpp m1 m2 (s1, s2) x) as [[f ms1]|] eqn:E; cbn [bind] in HS; [|discriminate].
    apply OB in E. subst ms1. eauto. }
  assert (HM := C20_dcc_marginals_are_the_submodels A KGarch cpp m1 m2 mini (new_dcc A KGarch s1 s2) o' eq_refl H). destruct HM as [HM _].
  unfold dcc_fit in H. cbn [new_dcc d_success d_models fst snd] in H.
  assert (F1 : fit A KGarch m1 s1 = Ok (None, s1)) by (unfold fit; rewrite S1; reflexivity).
  assert (F2 : fit A KGarch m2 s2 = Ok (None, s2)) by (unfold fit; rewrite S2; reflexivity). rewrite F1, F2 in H. cbn [bind snd] in H.
  destruct (dcc_starting_values A KGarch cpp m1 m2 (s1, s2)) as [[ab ms]|] eqn:SV; cbn [bind] in H; [|discriminate]. cbn [fst snd] in H.
  apply SE in SV. subst ms. destruct (dcc_evals A KGarch cpp m1 m2 _ (s1, s2)) as [ms'|] eqn:E2; cbn [bind] in H; [|discriminate].
  apply EV in E2. subst ms'.
  assert (D : d_models A o' = (s1, s2)).
  { destruct (o_success A (mini [fst ab; snd ab])).
    - destruct (o_x A (mini [fst ab; snd ab])) as [|a [|b [|c x]]]; try discriminate. injection H as <-. reflexivity.
    - injection H as <-. reflexivity. }
  split; [auto|]. rewrite D in HM. exact HM.
Qed.
(** CCC: starting vector and reported parameters. *)
Theorem C20_ccc_reports_the_solver_vector : forall (A : Arith) s1 s2 mini o p o',
  c_success A o = false -> ccc_fit A s1 s2 mini o = Ok (p, o') ->
  exists rho start,
    start = p_fields A (st_params A (c_m1 A o')) ++ p_fields A (st_params A (c_m2 A o')) ++ [rho] /\
    p = (c_fields A o', c_ll A o') /\ c_success A o' = o_success A (mini start) /\
    if o_success A (mini start) then
      c_ll A o' = nopp (o_fun A (mini start)) /\ (length (o_x A (mini start)) = 9%nat -> c_fields A o' = o_x A (mini start))
    else c_fields A o' = c_fields A o /\ c_ll A o' = c_ll A o.
Proof.
  intros A s1 s2 mini o p o' Hs H. unfold ccc_fit in H. rewrite Hs in H.
  destruct (fit A KGarch s1 (c_m1 A o)) as [[q1 t1]|] eqn:F1; cbn [bind] in H; [|discriminate].
  destruct (fit A KGarch s2 (c_m2 A o)) as [[q2 t2]|] eqn:F2; cbn [bind] in H; [|discriminate]. cbn [snd] in H.
  set (rho := corr_entry A _ _ 1 0) in H. set (start := p_fields A _ ++ _) in H.
  destruct (fold_left _ _ _) as [u|]; cbn [bind] in H; [|discriminate].
  exists rho, start. destruct (o_success A (mini start)) eqn:EO; injection H as <- <-; cbn [c_m1 c_m2 c_fields c_ll c_success].
  - split; [reflexivity|]. split; [reflexivity|]. split; [auto|]. split; [reflexivity|]. intros HL. rewrite HL. apply app_nil_r.
  - split; [reflexivity|]. split; [reflexivity|]. split; [auto|]. auto.
Qed.
(** The CCC objective ignores the backcast and bounds it is given. *)
Theorem C20_ccc_objective_ignores_its_arguments : forall (A : Arith) r1 r2 x b1 b2 v1 v2 b1' b2' v1' v2',
  ccc_objective A r1 r2 x b1 b2 v1 v2 = ccc_objective A r1 r2 x b1' b2' v1' v2'.
Proof. reflexivity. Qed.

(** A failed sub-model: NaN log-likelihood, hence a NaN objective at every point and the default start. *)
Theorem C20_failed_submodel_makes_objective_nan : forall k cpp m1 m2 ms x f ms',
  (p_ll XRA (st_params XRA (fst ms)) = NaN \/ p_ll XRA (st_params XRA (snd ms)) = NaN) ->
  dcc_objective XRA k cpp m1 m2 ms x = Ok (f, ms') -> f = NaN.
Proof.
  intros k cpp m1 m2 ms x f ms' HN H. destruct x as [|a [|b [|c x]]]; cbn [dcc_objective] in H; try discriminate.
  destruct (conditional_correlations XRA k cpp m1 m2 ms a b) as [[rho ms1]|]; cbn [bind] in H; [|discriminate]. injection H as <- _.
  unfold dcc_negative_loglik. cbn [nadd nopp XRA].
  assert (E : xadd (p_ll XRA (st_params XRA (fst ms))) (p_ll XRA (st_params XRA (snd ms))) = NaN).
  { destruct HN as [-> | ->]; [reflexivity|]. destruct (p_ll XRA (st_params XRA (fst ms))); reflexivity. }
  rewrite E. reflexivity.
Qed.
Theorem C20_failed_submodel_gives_default_start : forall k cpp m1 m2 ms best ms',
  settled XRA k m1 (fst ms) -> settled XRA k m2 (snd ms) ->
  (p_ll XRA (st_params XRA (fst ms)) = NaN \/ p_ll XRA (st_params XRA (snd ms)) = NaN) ->
  dcc_starting_values XRA k cpp m1 m2 ms = Ok (best, ms') -> best = (Fin (1/100), Fin (8/10)).
Proof.
  intros k cpp m1 m2 ms best ms' S1 S2 HN H. unfold dcc_starting_values in H.
  assert (G : forall grid ms d best ms', settled XRA k m1 (fst ms) -> settled XRA k m2 (snd ms) ->
     (p_ll XRA (st_params XRA (fst ms)) = NaN \/ p_ll XRA (st_params XRA (snd ms)) = NaN) ->
     dcc_search XRA k cpp m1 m2 (nopp npinf) grid ms d = Ok (best, ms') -> best = d).
  { clear. induction grid as [|[a b] grid IH]; intros ms d best ms' S1 S2 HN H; cbn [dcc_search] in H; [injection H as <- _; reflexivity|].
    destruct (nleb (a:=XRA) (ofZ 1) (nadd a b)); [eauto|].
    destruct (dcc_objective XRA k cpp m1 m2 ms [a; b]) as [[f ms1]|] eqn:E; cbn [bind] in H; [|discriminate]. cbn [snd fst] in H.
    assert (K := objective_keeps XRA k cpp m1 m2 _ _ _ _ S1 S2 E). rewrite (C20_failed_submodel_makes_objective_nan _ _ _ _ _ _ _ _ HN E) in H.
    cbn [nltb nopp npinf XRA xopp xltb] in H. destruct K as (K1 & K2 & K3 & K4). eapply (IH ms1); eauto. rewrite K3, K4. auto. }
  apply G in H; auto.
Qed.
(** ... and success can still be reported, with NaN for all marginal parameters. *)
Theorem C20_failure_is_not_noticed : forall cpp returns1 returns2 g1 g2 g3 g4 a b ll,
  0 < Rvar returns1 -> 0 < Rvar returns2 -> g1 <> [] -> g2 <> [] ->
  exists mini1 mini2 mini o',
    (forall sv bd, o_success XRA (mini1 sv bd) = false) /\ (forall sv bd, o_success XRA (mini2 sv bd) = false) /\
    dcc_fit XRA KGarch cpp mini1 mini2 mini
      (new_dcc XRA KGarch (init XRA KGarch (map Fin returns1) g1 g2 false) (init XRA KGarch (map Fin returns2) g3 g4 false)) = Ok o' /\
    d_success XRA o' = true /\ d_marginals XRA o' = repeat NaN 8 /\ d_a XRA o' = Fin a /\ d_b XRA o' = Fin b /\ d_ll XRA o' = Fin ll.
Proof.
  intros cpp returns1 returns2 g1 g2 g3 g4 a b ll V1 V2 N1 N2.
  set (bad := (fun _ _ => Build_opt_run XRA [] false [] NaN) : solver XRA).
  set (good := (fun _ : list xr => Build_opt_run XRA [] true [Fin a; Fin b] (Fin (- ll)))).
  assert (FB : forall returns st, st_returns XRA st = map Fin returns -> 0 < Rvar returns -> st_success XRA st = false ->
     exists r st', fit XRA KGarch bad st = Ok (r, st') /\ st_returns XRA st' = map Fin returns /\ st_success XRA st' = false /\
        st_resids XRA st' = st_resids XRA st /\ st_sigma2 XRA st' = st_sigma2 XRA st /\ st_params XRA st' = st_params XRA st).
  { intros returns st HR HV HS. destruct (preparation_fin KGarch st returns HR HV) as (st1 & EP & _).
    assert (HI := prep_inv XRA _ _ _ _ EP). rewrite fit_unfold by (intros [_ ?]; congruence). rewrite EP. cbn [bind bad o_evals run_evals o_success fst snd].
    do 2 eexists. split; [reflexivity|]. cbn. intuition congruence. }
  set (ok := fun ms : state XRA * state XRA => st_returns XRA (fst ms) = map Fin returns1 /\ st_returns XRA (snd ms) = map Fin returns2 /\
     st_success XRA (fst ms) = false /\ st_success XRA (snd ms) = false /\ st_resids XRA (fst ms) = g1 /\ st_sigma2 XRA (fst ms) = g2 /\
     st_params XRA (fst ms) = nan_params XRA KGarch /\ st_params XRA (snd ms) = nan_params XRA KGarch).
  assert (OB : forall ms x y, ok ms -> exists f ms', dcc_objective XRA KGarch cpp bad bad ms [x; y] = Ok (f, ms') /\ ok ms').
  { intros ms x y (O1 & O2 & O3 & O4 & O5 & O6 & O7 & O8). unfold dcc_objective, conditional_correlations.
    destruct (FB returns1 (fst ms) O1 V1 O3) as (q1 & t1 & F1 & A1 & A2 & A3 & A4 & A5).
    destruct (FB returns2 (snd ms) O2 V2 O4) as (q2 & t2 & F2 & B1 & B2 & B3 & B4 & B5).
    rewrite F1, F2. cbn [bind snd].
    assert (CC : exists rho, cond_corr XRA cpp x y (st_resids XRA t1) (st_resids XRA t2) (st_sigma2 XRA t1) (st_sigma2 XRA t2) = Ok rho).
    { rewrite A3, A4, O5, O6. destruct g1 as [|u g1']; [tauto|]. destruct g2 as [|v g2']; [tauto|]. destruct cpp; cbn; eauto. }
    destruct CC as (rho & CC). rewrite CC. cbn [bind fst snd]. do 2 eexists. split; [reflexivity|].
    unfold ok. cbn [fst snd]. rewrite A1, A2, A3, A4, A5, B1, B2, B5. repeat split; auto. }
  assert (SE : forall ml grid ms d, ok ms -> exists r ms', dcc_search XRA KGarch cpp bad bad ml grid ms d = Ok (r, ms') /\ ok ms').
  { intros ml. induction grid as [|[x y] grid IH]; intros ms d HO; cbn [dcc_search]; [eauto|].
    destruct (nleb (a:=XRA) (ofZ 1) (nadd x y)); [eauto|]. destruct (OB ms x y HO) as (f & ms1 & E & HO1). rewrite E. cbn [bind snd fst]. eauto. }
  exists bad, bad, good. unfold dcc_fit. cbn [new_dcc d_success d_models fst snd].
  destruct (FB returns1 (init XRA KGarch (map Fin returns1) g1 g2 false) eq_refl V1 eq_refl) as (q1 & t1 & F1 & A1 & A2 & A3 & A4 & A5).
  destruct (FB returns2 (init XRA KGarch (map Fin returns2) g3 g4 false) eq_refl V2 eq_refl) as (q2 & t2 & F2 & B1 & B2 & B3 & B4 & B5).
  assert (HO : ok (t1, t2)) by (unfold ok; cbn [fst snd]; rewrite A1, A2, A3, A4, A5, B1, B2, B5; repeat split; auto).
  unfold dcc_starting_values. destruct (SE (nopp npinf) (dcc_grid XRA) (t1, t2) (lit 1 100, lit 8 10) HO) as (ab & ms & E & HO1).
  change (num XRA) with xr in *. rewrite F1, F2. cbn [bind snd fst]. rewrite E. cbn [bind fst snd good o_evals dcc_evals o_success o_x o_fun].
  eexists. split; [reflexivity|]. split; [reflexivity|]. split; [reflexivity|]. cbn [d_success d_marginals d_a d_b d_ll].
  destruct HO1 as (_ & _ & _ & _ & _ & _ & O7 & O8). rewrite O7, O8. repeat split; auto. cbn. f_equal. ring.
Qed.
