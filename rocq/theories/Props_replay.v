(** * C107: the LRMES simulator inverts the GJR-GARCH-DCC filter *)
From Coq Require Import Reals Lra Lia ZArith List Bool.
From Verif Require Import Arith XR RealAux Model_garch Spec_garch Proofs_garch3 Props_garch Model_ar Props_ar Model_mgarch Props_mgarch Model_lrmes Props_lrmes Props_lrmes2 Props_lrmes3.
Import ListNotations.
Local Open Scope R_scope.

(** ** Specification: step 1 of the documentation (long_run_mes.rst), the innovations of an observed return path *)
(** the day after [p] when the (firm, market) log returns [r] are observed: GJR variances, DCC matrix, residuals return - mu *)
Definition observe (s : setting) (p : point) (r : R * R) : point :=
  {| e_firm := fst r - mu (firm s); e_mkt := snd r - mu (mkt s);
     v_firm := gjr_update (omega (firm s)) (alpha (firm s)) (gamma (firm s)) (beta (firm s)) (v_firm p) (e_firm p);
     v_mkt := gjr_update (omega (mkt s)) (alpha (mkt s)) (gamma (mkt s)) (beta (mkt s)) (v_mkt p) (e_mkt p);
     Qmat := Qnext (dcc_a s) (dcc_b s) (Qbar s) (Qmat p) (z_firm p, z_mkt p) |}.
(** xi = (z_i - rho z_m) / sqrt(1 - rho^2) and z_m *)
Definition innovation (p : point) : R * R := ((z_firm p - corr p * z_mkt p) / sqrt (1 - corr p ^ 2), z_mkt p).
Fixpoint innovations (s : setting) (p : point) (rs : list (R * R)) : list (R * R) :=
  match rs with [] => [] | r :: rest => innovation (observe s p r) :: innovations s (observe s p r) rest end.
(** correlations stay away from +-1 *)
Definition strict (s : setting) : Prop :=
  (dcc_a s + dcc_b s < 1 /\ -1 < q12 (Qbar s) < 1) \/ (0 < dcc_b s /\ -1 < q12 (Qmat (today s)) < 1).

Definition keeps (s : setting) (p : point) : Prop := (dcc_a s + dcc_b s < 1 /\ spd (Qbar s)) \/ (0 < dcc_b s /\ spd (Qmat p)).
Lemma spd_corr r : -1 < r < 1 -> spd (1, r, 1).
Proof. intros H. cbn. nra. Qed.
Lemma form_pos Q x y : spd Q -> y <> 0 -> 0 < form Q x y.
Proof.
  destruct Q as [[a b] c]. intros (H1 & H2 & H3) Hy. cbn [form]. apply (Rmult_lt_reg_l a); [auto|]. rewrite Rmult_0_r.
  replace (a * (a * (x * x) + 2 * b * (x * y) + c * (y * y))) with ((a * x + b * y) * (a * x + b * y) + (a * c - b * b) * (y * y)) by ring.
  assert (0 <= (a * x + b * y) * (a * x + b * y)) by apply sqr_nonneg. assert (0 < y * y) by nra. assert (0 < (a * c - b * b) * (y * y)) by (apply Rmult_lt_0_compat; lra). lra.
Qed.
Lemma spd_next_b a b Qb Q z : admissible a b -> 0 < b -> pd Qb -> spd Q -> spd (Qnext a b Qb Q z).
Proof.
  intros HA Hlt HB HQ. assert (HD := diag_next a b Qb Q z HA HB (spd_pd _ HQ)). assert (HF := form_next a b Qb Q z).
  destruct HA as (Ha & Hb & Hab & _).
  destruct (Qnext a b Qb Q z) as [[q11 q12] q22]. destruct HD as [D1 D2]. split; [auto|]. split; [auto|].
  specialize (HF (- q12) q11). cbn [form] in HF.
  assert (N : 0 < q11 * (- q12 * - q12) + 2 * q12 * (- q12 * q11) + q22 * (q11 * q11)).
  { rewrite HF. assert (F1 := form_nonneg Qb (- q12) q11 HB). assert (F2 := form_pos Q (- q12) q11 HQ ltac:(lra)).
    assert (S := sqr_nonneg (fst z * - q12 + snd z * q11)).
    assert (0 <= (1 - a - b) * form Qb (- q12) q11) by (apply Rmult_le_pos; lra).
    assert (0 < b * form Q (- q12) q11) by (apply Rmult_lt_0_compat; lra).
    assert (0 <= a * ((fst z * - q12 + snd z * q11) * (fst z * - q12 + snd z * q11))) by (apply Rmult_le_pos; lra). lra. }
  assert (0 < q11 * (q11 * q22 - q12 * q12)) by lra. apply Rmult_lt_reg_l with q11; [lra|]. lra.
Qed.
Lemma keeps_next s p : good_setting s -> sound p -> keeps s p ->
  spd (Qnext (dcc_a s) (dcc_b s) (Qbar s) (Qmat p) (z_firm p, z_mkt p)).
Proof.
  intros (_ & _ & HA & (r & Hr & EQ) & _) (_ & _ & HP) [(H1 & H2)|(H1 & H2)].
  - apply spd_next; auto.
  - apply spd_next_b; auto. rewrite EQ. apply pd_corr; auto.
Qed.
Lemma keeps_today s : good_setting s -> strict s -> keeps s (today s).
Proof.
  intros (_ & _ & _ & (r & Hr & E1) & (r' & Hr' & E2) & _) [(H & H')|(H & H')]; [left|right]; (split; [auto|]); rewrite ?E1, ?E2 in *; apply spd_corr; auto.
Qed.
Lemma sqrt_one_minus r : -1 < r < 1 -> 0 < sqrt (1 - r ^ 2).
Proof. intros H. apply sqrt_lt_R0. nra. Qed.
Lemma tomorrow_observe s p r : good_setting s -> sound p -> keeps s p ->
  tomorrow s p (fst (innovation (observe s p r))) (snd (innovation (observe s p r))) = observe s p r.
Proof.
  intros HG HP HK. assert (HS := tomorrow_sound s p 0 0 HG HP). assert (HQ := keeps_next s p HG HP HK). destruct HS as (V1 & V2 & _).
  unfold tomorrow in *. cbv zeta in *. cbn [v_firm v_mkt] in V1, V2.
  set (vi := gjr_update (omega (firm s)) (alpha (firm s)) (gamma (firm s)) (beta (firm s)) (v_firm p) (e_firm p)) in *.
  set (vm := gjr_update (omega (mkt s)) (alpha (mkt s)) (gamma (mkt s)) (beta (mkt s)) (v_mkt p) (e_mkt p)) in *.
  unfold observe. fold vi vm. set (Q := Qnext (dcc_a s) (dcc_b s) (Qbar s) (Qmat p) (z_firm p, z_mkt p)) in *.
  clearbody Q. unfold innovation, corr, z_firm, z_mkt. cbn [fst snd Qmat e_firm e_mkt v_firm v_mkt].
  assert (R := corr_range_strict Q HQ). set (rho := corr_of Q) in *. assert (HW := sqrt_one_minus rho R).
  assert (W1 : 0 < sqrt vi) by (apply sqrt_lt_R0; auto). assert (W2 : 0 < sqrt vm) by (apply sqrt_lt_R0; auto).
  f_equal; field; lra.
Qed.
Lemma path_innovations s rs : good_setting s -> forall p, sound p -> keeps s p ->
  map (fun p => (mu (firm s) + e_firm p, mu (mkt s) + e_mkt p)) (path s p (innovations s p rs)) = rs.
Proof.
  intros HG. induction rs as [|r rs IH]; intros p HP HK; [reflexivity|]. cbn [innovations path]. 
  assert (E := tomorrow_observe s p r HG HP HK). destruct (innovation (observe s p r)) as [xi z] eqn:EI. cbn [fst snd] in E. rewrite E. cbn [map]. f_equal.
  - cbn [observe e_firm e_mkt]. destruct r as [a b]. cbn [fst snd]. f_equal; ring.
  - apply IH; [rewrite <- E; apply tomorrow_sound; auto|].
    destruct HK as [HK|(HK1 & HK2)]; [left; exact HK|right; split; [exact HK1|]]. change (Qmat (observe s p r)) with (Qnext (dcc_a s) (dcc_b s) (Qbar s) (Qmat p) (z_firm p, z_mkt p)).
    apply keeps_next; auto. right; auto.
Qed.
Lemma innovations_path s sh : good_setting s -> forall p, sound p -> keeps s p ->
  innovations s p (map (fun p => (mu (firm s) + e_firm p, mu (mkt s) + e_mkt p)) (path s p sh)) = sh.
Proof.
  intros HG. induction sh as [|[xi z] sh IH]; intros p HP HK; [reflexivity|]. cbn [path map innovations].
  assert (HS := tomorrow_sound s p xi z HG HP). assert (HQ := keeps_next s p HG HP HK).
  assert (E : observe s p (mu (firm s) + e_firm (tomorrow s p xi z), mu (mkt s) + e_mkt (tomorrow s p xi z)) = tomorrow s p xi z).
  { unfold observe, tomorrow. cbv zeta. cbn [fst snd e_firm e_mkt]. f_equal; ring. }
  rewrite E. f_equal.
  - destruct HS as (V1 & V2 & _). unfold innovation, corr, z_firm, z_mkt, tomorrow in *. cbv zeta in *. cbn [e_firm e_mkt v_firm v_mkt Qmat] in *.
    match type of V1 with 0 < ?v => set (vi := v) in * end. match type of V2 with 0 < ?v => set (vm := v) in * end.
    match type of HQ with spd ?q => set (Q := q) in * end.
    assert (R := corr_range_strict Q HQ). set (rho := corr_of Q) in *. assert (HW := sqrt_one_minus rho R).
    assert (W1 : 0 < sqrt vi) by (apply sqrt_lt_R0; auto). assert (W2 : 0 < sqrt vm) by (apply sqrt_lt_R0; auto).
    f_equal; field; repeat split; apply Rgt_not_eq; assumption.
  - apply IH; [exact HS|]. destruct HK as [HK|(HK1 & HK2)]; [left; exact HK|right; split; [exact HK1|]]. exact HQ.
Qed.

(** ** The simulator fed with the innovations of a return path returns that path: any horizon, any returns, both back ends *)
Theorem C107_inverts : forall cpp s returns, good_setting s -> strict s ->
  sim_returns XRA cpp (inputs s) (fin_shocks (innovations s (today s) returns)) = map (fun r => (Fin (snd r), Fin (fst r))) returns.
Proof.
  intros cpp s rs HG HS. rewrite returns_fin by auto. rewrite <- (path_innovations s rs HG (today s) (today_sound s HG) (keeps_today s HG HS)) at 2.
  rewrite map_map. reflexivity.
Qed.
(** ... and no other innovations do *)
Theorem C107_unique : forall cpp s shocks returns, good_setting s -> strict s ->
  sim_returns XRA cpp (inputs s) (fin_shocks shocks) = map (fun r => (Fin (snd r), Fin (fst r))) returns ->
  shocks = innovations s (today s) returns.
Proof.
  intros cpp s sh rs HG HS E. rewrite returns_fin in E by auto.
  rewrite <- (innovations_path s sh HG (today s) (today_sound s HG) (keeps_today s HG HS)). f_equal.
  revert E. generalize (path s (today s) sh). clear. intros l. revert rs. induction l as [|p l IH]; intros [|[a b] rs] E; try discriminate; [reflexivity|].
  cbn [map fst snd] in *. injection E as E1 E2 E3. rewrite E1, E2, (IH rs E3). reflexivity.
Qed.
(** Hence every pair of holding-period returns above -100% is reached by some shocks, at every horizon. *)
Theorem C107_every_outcome : forall cpp s h C Ri Rm, good_setting s -> strict s -> (1 <= h)%nat -> -1 < Ri -> -1 < Rm ->
  exists shocks, length shocks = h /\ simulation XRA cpp (inputs s) (Fin C) (fin_shocks shocks) = if Rlt_dec Rm C then (Fin Ri, true) else (Fin 0, false).
Proof.
  intros cpp s h C Ri Rm HG HS Hh Hi Hm. destruct h as [|h]; [lia|].
  set (rs := (100 * ln (1 + Ri), 100 * ln (1 + Rm)) :: repeat (0, 0) h). exists (innovations s (today s) rs). split.
  - assert (L : forall rs p, length (innovations s p rs) = length rs) by (induction rs0; intros; cbn [innovations length]; auto).
    rewrite L. unfold rs. cbn [length]. rewrite repeat_length. reflexivity.
  - destruct (C22_simulation cpp s C (innovations s (today s) rs) HG) as (-> & _).
    assert (P := path_innovations s rs HG (today s) (today_sound s HG) (keeps_today s HG HS)).
    assert (Z : Rsum (repeat 0 h) = 0) by (clear; induction h as [|h IH]; [reflexivity|cbn [repeat]; rewrite Rsum_cons, IH; ring]).
    assert (E1 : firm_return s (innovations s (today s) rs) = Ri).
    { unfold firm_return. rewrite <- (map_map (fun p => (mu (firm s) + e_firm p, mu (mkt s) + e_mkt p)) (fun r => fst r / 100)). rewrite P. unfold rs. cbn [map fst]. rewrite Rsum_cons.
      replace (map (fun r : R * R => fst r / 100) (repeat (0, 0) h)) with (repeat 0 h) by (clear; induction h as [|h IH]; [reflexivity|cbn [repeat map fst]; rewrite IH; f_equal; field]).
      rewrite Z. replace (100 * ln (1 + Ri) / 100 + 0) with (ln (1 + Ri)) by field. rewrite exp_ln by lra. ring. }
    assert (E2 : market_return s (innovations s (today s) rs) = Rm).
    { unfold market_return. rewrite <- (map_map (fun p => (mu (firm s) + e_firm p, mu (mkt s) + e_mkt p)) (fun r => snd r / 100)). rewrite P. unfold rs. cbn [map snd]. rewrite Rsum_cons.
      replace (map (fun r : R * R => snd r / 100) (repeat (0, 0) h)) with (repeat 0 h) by (clear; induction h as [|h IH]; [reflexivity|cbn [repeat map snd]; rewrite IH; f_equal; field]).
      rewrite Z. replace (100 * ln (1 + Rm) / 100 + 0) with (ln (1 + Rm)) by field. rewrite exp_ln by lra. ring. }
    rewrite E1, E2. reflexivity.
Qed.

(** ** Replaying the sample: the sample innovations computed by [estimate] reproduce the observed returns *)
(** the setting of the first day of the sample *)
Definition first_day (gi gm : gjr) (a b : R) (ri si rm sm : list R) : setting :=
  {| firm := gi; mkt := gm; dcc_a := a; dcc_b := b; Qbar := (1, pearson (zscores ri si) (zscores rm sm), 1);
     today := {| e_firm := hd 0 ri; e_mkt := hd 0 rm; v_firm := hd 0 si; v_mkt := hd 0 sm; Qmat := (1, pearson (zscores ri si) (zscores rm sm), 1) |} |}.
(** the variances follow the recursion without being clipped *)
Definition unclipped (g : gjr) (e s : list R) : Prop := tl s = forecast g (hd 0 s) (removelast e).

Lemma removelast_cons2 {T} (x y : T) l : removelast (x :: y :: l) = x :: removelast (y :: l).
Proof. reflexivity. Qed.
Lemma replay_rest s : forall ri rm p si sm rho, length ri = length rm ->
  si = forecast (firm s) (v_firm p) (removelast (e_firm p :: ri)) -> sm = forecast (mkt s) (v_mkt p) (removelast (e_mkt p :: rm)) ->
  rho = map corr_of (Qpath (dcc_a s) (dcc_b s) (Qbar s) (Qmat p) (removelast ((z_firm p, z_mkt p) :: combine (zscores ri si) (zscores rm sm)))) ->
  combine (orth (zscores ri si) (zscores rm sm) rho) (zscores rm sm) =
  innovations s p (combine (map (fun e => e + mu (firm s)) ri) (map (fun e => e + mu (mkt s)) rm)).
Proof.
  induction ri as [|e ri IH]; intros [|f rm] p si sm rho L Ei Em Er; try discriminate L; [reflexivity|].
  rewrite removelast_cons2 in Ei, Em. cbn [forecast] in Ei, Em. cbv zeta in Ei, Em. 
  set (p' := observe s p (e + mu (firm s), f + mu (mkt s))).
  assert (Ee : e_firm p' = e) by (cbn [p' observe e_firm fst]; ring). assert (Ef : e_mkt p' = f) by (cbn [p' observe e_mkt snd]; ring).
  change (gjr_update (omega (firm s)) (alpha (firm s)) (gamma (firm s)) (beta (firm s)) (v_firm p) (e_firm p)) with (v_firm p') in Ei.
  change (gjr_update (omega (mkt s)) (alpha (mkt s)) (gamma (mkt s)) (beta (mkt s)) (v_mkt p) (e_mkt p)) with (v_mkt p') in Em.
  rewrite <- Ee in Ei at 1. rewrite <- Ef in Em at 1.
  set (si' := forecast (firm s) (v_firm p') (removelast (e_firm p' :: ri))) in *. set (sm' := forecast (mkt s) (v_mkt p') (removelast (e_mkt p' :: rm))) in *.
  subst si sm. cbn [zscores map2] in *. fold (zscores ri si') (zscores rm sm') in *.
  cbn [combine] in Er. rewrite removelast_cons2 in Er. cbn [Qpath map] in Er.
  change (Qnext (dcc_a s) (dcc_b s) (Qbar s) (Qmat p) (z_firm p, z_mkt p)) with (Qmat p') in Er.
  assert (Zi : e / sqrt (v_firm p') = z_firm p') by (unfold z_firm; rewrite Ee; reflexivity).
  assert (Zm : f / sqrt (v_mkt p') = z_mkt p') by (unfold z_mkt; rewrite Ef; reflexivity). rewrite Zi, Zm in *.
  set (rho' := map corr_of (Qpath (dcc_a s) (dcc_b s) (Qbar s) (Qmat p') (removelast ((z_firm p', z_mkt p') :: combine (zscores ri si') (zscores rm sm'))))) in *.
  subst rho. cbn [map combine innovations]. fold p'. unfold orth. cbn [combine map2 fst snd]. fold (orth (zscores ri si') (zscores rm sm') rho'). f_equal.
  apply IH; auto.
Qed.

Theorem C107_replay_sample : forall cpp gi gm a b fi fm si sm rho, fi <> [] ->
  let ri := residuals gi fi in let rm := residuals gm fm in let zi := zscores ri si in let zm := zscores rm sm in
  length fi = length si -> length fm = length sm -> length fi = length fm -> positive si -> positive sm -> good_gjr gi -> good_gjr gm ->
  0 <= a -> 0 <= b -> a + b < 1 -> non_constant zi -> non_constant zm -> -1 < pearson zi zm < 1 ->
  unclipped gi ri si -> unclipped gm rm sm ->
  cond_corr XRA false (Fin a) (Fin b) (map Fin ri) (map Fin rm) (map Fin si) (map Fin sm) = Ok (map Fin rho) ->
  map (sim_returns XRA cpp (inputs (first_day gi gm a b ri si rm sm))) (bootstrap XRA (map Fin (orth zi zm rho)) (map Fin zm) [seq 1 (length fi - 1)]) =
  [map2 (fun i m => (Fin m, Fin i)) (tl fi) (tl fm)].
Proof.
  intros cpp gi gm a b fi fm si sm rho HN ri rm zi zm L1 L2 L12 P1 P2 G1 G2 Ha Hb Hab N1 N2 HT U1 U2 EC.
  assert (Lri : length ri = length si) by (unfold ri, residuals; rewrite map_length; auto). assert (Lrm : length rm = length sm) by (unfold rm, residuals; rewrite map_length; auto).
  assert (Lrr : length ri = length rm) by lia. assert (HA : admissible a b) by (unfold admissible; lra).
  destruct (cond_corr_py_value a b ri rm si sm Lri Lrm Lrr P1 P2 HA N1 N2) as (HP & E). cbn [cond_corr] in EC. rewrite E in EC. injection EC as EC.
  change (map Fin (dcc_correlations a b (1, pearson zi zm, 1) zi zm) = map Fin rho) in EC.
  apply fin_inj in EC. subst rho. clear E.
  set (s := first_day gi gm a b ri si rm sm).
  assert (V1 : 0 < hd 0 si) by (destruct si; [destruct fi; [tauto|discriminate]|inversion P1; auto]).
  assert (V2 : 0 < hd 0 sm) by (destruct sm; [destruct fm; [destruct fi; [tauto|discriminate]|discriminate]|inversion P2; auto]).
  assert (HG : good_setting s).
  { unfold good_setting, s, first_day. cbn [firm mkt dcc_a dcc_b Qbar today Qmat v_firm v_mkt]. fold zi zm. repeat (split; [assumption || (eexists; split; [|reflexivity]; lra)|]). auto. }
  assert (HS : strict s) by (left; split; [exact Hab|exact HT]).
  assert (HD : combine (tl (orth zi zm (dcc_correlations a b (1, pearson zi zm, 1) zi zm))) (tl zm) = innovations s (today s) (combine (tl fi) (tl fm))).
  { destruct fi as [|f0 fi]; [tauto|]. destruct fm as [|m0 fm]; [discriminate|]. destruct si as [|s0 si]; [discriminate|]. destruct sm as [|t0 sm]; [discriminate|].
    unfold unclipped in U1, U2. cbn [ri rm residuals map tl hd] in U1, U2. fold (residuals gi fi) (residuals gm fm) in U1, U2.
    unfold dcc_correlations, zi, zm, ri, rm. cbn [residuals map zscores map2 combine tl orth]. fold (residuals gi fi) (residuals gm fm). fold (zscores (residuals gi fi) si) (zscores (residuals gm fm) sm).
    cbn [orth combine map2 tl map fst snd].
    match goal with |- combine (map2 ?h (combine ?x ?y) ?r) ?w = _ => change (combine (orth x y r) w = innovations s (today s) (combine fi fm)) end.
    assert (LF : forall g l e, length (forecast g e l) = length l) by (induction l; intros; cbn [forecast length]; auto).
    rewrite (replay_rest s (residuals gi fi) (residuals gm fm) (today s) si sm _).
    - f_equal. unfold residuals. rewrite !map_map. cbn [s first_day firm mkt]. f_equal; (etransitivity; [|apply map_id]); apply map_ext; intros; ring.
    - unfold residuals. rewrite !map_length. cbn in L12. lia.
    - exact U1.
    - exact U2.
    - reflexivity. }
  assert (LZ : length zi = length fi) by (unfold zi; rewrite zscores_length by auto; lia). assert (LM : length zm = length fi) by (unfold zm; rewrite zscores_length by auto; lia).
  assert (LR : length (dcc_correlations a b (1, pearson zi zm, 1) zi zm) = length fi) by (rewrite dcc_correlations_length; [exact LZ|lia|intros E0; rewrite E0 in LZ; destruct fi; [tauto|discriminate]]).
  assert (LO : length (orth zi zm (dcc_correlations a b (1, pearson zi zm, 1) zi zm)) = length fi) by (unfold orth; rewrite map2_length, combine_length; lia).
  set (xi := orth zi zm (dcc_correlations a b (1, pearson zi zm, 1) zi zm)) in *. clearbody xi.
  assert (BS : bootstrap XRA (map Fin xi) (map Fin zm) [seq 1 (length fi - 1)] = [fin_shocks (combine (tl xi) (tl zm))]).
  { unfold bootstrap. cbn [map]. f_equal. destruct xi as [|x0 xi]; [destruct fi; [tauto|discriminate]|]. destruct zm as [|y0 zm']; [destruct fi; [tauto|discriminate]|].
    cbn [tl length] in *. replace (length fi - 1)%nat with (length xi) by lia. rewrite <- seq_shift, map_map. cbn [map nth].
    assert (LL : length xi = length zm') by lia. clear -LL. revert zm' LL. induction xi as [|x xi IH]; intros [|y zm'] LL; try discriminate; [reflexivity|].
    cbn [length seq map]. rewrite <- seq_shift, map_map. unfold fin_shocks. cbn [combine map nth fst snd]. f_equal. apply IH. cbn in LL. lia. }
  change (num XRA) with xr in *. rewrite BS. cbn [map]. f_equal. rewrite HD. rewrite C107_inverts by auto.
  clear. revert fm. destruct fi as [|f0 fi]; intros fm; [reflexivity|]. cbn [tl]. generalize (tl fm). induction fi as [|f fi IH]; intros [|m l]; try reflexivity. cbn [combine map map2 fst snd]. f_equal. apply IH.
Qed.

(** The premise [unclipped] can be read off the reported variances: they lie strictly above the lower and not above the upper bounds. *)
Theorem C107_inside_bounds_unclipped : forall g e bc vb s, Forall (fun row => 0 < fst row <= snd row) vb ->
  gjr_variance_py XRA [Fin (omega g); Fin (alpha g); Fin (gamma g); Fin (beta g)] (map Fin e) bc (map (fun row => (Fin (fst row), Fin (snd row))) vb) = Ok (map Fin s) ->
  (forall t, (1 <= t < length s)%nat -> fst (nth t vb (0, 0)) < nth t s 0 <= snd (nth t vb (0, 0))) -> unclipped g e s.
Proof.
  intros g e bc vb s HF E HI. unfold gjr_variance_py in E. destruct e as [|e0 e]; [discriminate|]. cbn [map] in E. change (Fin e0 :: map Fin e) with (map Fin (e0 :: e)) in E.
  rewrite removelast_map in E. unfold unclipped. 
  match type of E with bind ?x _ = _ => destruct x as [rest|] eqn:EL; [|discriminate] end. cbn [bind] in E. injection E as E.
  destruct s as [|s0 s]; [discriminate|]. cbn [map] in E. injection E as E0 E. cbn [hd tl].
  assert (E0' : @nadd XRA (Fin (omega g)) (@nmul XRA (@nadd XRA (@nadd XRA (Fin (alpha g)) (@ndiv XRA (Fin (gamma g)) (ofZ 2))) (Fin (beta g))) bc) = Fin s0) by exact E0.
  change (num XRA) with xr in *. rewrite E0' in EL. clear E0 E0' bc.
  replace (tl (map (fun row => (Fin (fst row), Fin (snd row))) vb)) with (map (fun row => (Fin (fst row), Fin (snd row))) (tl vb)) in EL by (destruct vb; reflexivity).
  assert (HF' : Forall (fun row => 0 < fst row <= snd row) (tl vb)) by (destruct vb; [constructor|inversion HF; auto]).
  assert (HI' : forall t, (t < length s)%nat -> fst (nth t (tl vb) (0, 0)) < nth t s 0 <= snd (nth t (tl vb) (0, 0))).
  { intros t Ht. assert (H := HI (S t) ltac:(cbn; lia)). destruct vb; [destruct t|]; exact H. }
  clear HF HI. revert HF' HI' EL. generalize (tl vb). revert E. generalize (removelast (e0 :: e)). clear. intros l. revert s0 s rest.
  induction l as [|x l IH]; intros s0 s rest E vb HF HI EL.
  - cbn [map var_loop] in EL. injection EL as <-. destruct s; [reflexivity|discriminate].
  - cbn [map var_loop] in EL. destruct vb as [|b vb]; [discriminate|]. cbn [map] in EL. cbv zeta in EL.
    assert (EG : gjr_step XRA (Fin (omega g)) (Fin (alpha g)) (Fin (gamma g)) (Fin (beta g)) (Fin s0) (Fin x) = Fin (gjr_update (omega g) (alpha g) (gamma g) (beta g) s0 x)).
    { unfold gjr_step, gjr_update. cbn [nadd nmul nsq nltb ofZ XRA xadd xmul xsq xltb]. destruct (Rlt_dec x 0); cbn; f_equal; ring. }
    change (num XRA) with xr in *. rewrite EG in EL. apply Forall_cons_iff in HF as (HB & HF0). rewrite C04_bounds_check_law in EL by auto.
    match type of EL with bind ?x _ = _ => destruct x as [rest'|] eqn:EL'; [|discriminate] end. cbn [bind] in EL. injection EL as <-.
    destruct s as [|s1 s]; [discriminate|]. cbn [map] in E. injection E as E1 E2. assert (H0 := HI 0%nat ltac:(cbn; lia)). cbn [nth] in H0.
    set (u := gjr_update (omega g) (alpha g) (gamma g) (beta g) s0 x) in *.
    assert (EU : s1 = u).
    { destruct (Rle_dec u (fst b)); [lra|]. destruct (Rle_dec u (snd b)); [lra|].
      exfalso. assert (0 < ln (u / snd b)) by (rewrite <- ln_1; apply ln_increasing; [lra|apply lt_div_iff; lra]). lra. }
    cbn [forecast]. fold u. rewrite EU in *. f_equal. rewrite E1 in EL'.
    refine (IH u s rest' E2 vb HF0 _ _).
    + intros t Ht. exact (HI (S t) ltac:(cbn; lia)).
    + exact EL'.
Qed.

(** ** The matrix the forecast starts from *)
(** long_run_mes.rst, step 3: the forecast continues from the last matrix Q_T of the sample ([documented_setting]);
    the code continues from the correlation matrix (1, rho_T, 1) ([forecast_setting], C21). *)
Definition last_Q (a b : R) (Qb : Q3) (zi zm : list R) : Q3 := last (Qb :: Qpath a b Qb Qb (removelast (combine zi zm))) Qb.
Definition documented_setting (gi gm : gjr) (a b : R) (ri si rm sm : list R) : setting :=
  let zi := zscores ri si in let zm := zscores rm sm in let Qb := (1, pearson zi zm, 1) in
  {| firm := gi; mkt := gm; dcc_a := a; dcc_b := b; Qbar := Qb;
     today := {| e_firm := last ri 0; e_mkt := last rm 0; v_firm := last si 0; v_mkt := last sm 0; Qmat := last_Q a b Qb zi zm |} |}.
Lemma last_map {X Y} (f : X -> Y) l d : last (map f l) (f d) = f (last l d).
Proof. induction l as [|x [|y l] IH]; [reflexivity|reflexivity|exact IH]. Qed.
Lemma last_indep {X} (l : list X) d d' : l <> [] -> last l d = last l d'.
Proof. intros H. destruct (exists_last H) as (l' & x & ->). rewrite !last_last. reflexivity. Qed.
Lemma last_rho a b Qb zi zm : last (dcc_correlations a b Qb zi zm) 0 = corr_of (last_Q a b Qb zi zm).
Proof.
  unfold dcc_correlations, last_Q. rewrite <- (last_map corr_of). apply last_indep. discriminate.
Qed.
(** Both agree when Q_T has a unit diagonal, and when nothing of Q_T is kept (b = 0). *)
Theorem C107_start_normalised : forall gi gm a b ri si rm sm,
  let zi := zscores ri si in let zm := zscores rm sm in let Qb := (1, pearson zi zm, 1) in
  q11 (last_Q a b Qb zi zm) = 1 -> q22 (last_Q a b Qb zi zm) = 1 ->
  forecast_setting gi gm a b ri si rm sm (dcc_correlations a b Qb zi zm) = documented_setting gi gm a b ri si rm sm.
Proof.
  intros gi gm a b ri si rm sm zi zm Qb H1 H2. unfold forecast_setting, documented_setting. fold zi zm Qb. rewrite last_rho.
  destruct (last_Q a b Qb zi zm) as [[c11 c12] c22]. cbn [q11 q22 fst snd] in H1, H2. subst. cbn [corr_of]. rewrite Rmult_1_l, sqrt_1. unfold Rdiv. rewrite Rinv_1, Rmult_1_r. reflexivity.
Qed.
Theorem C107_start_forgotten : forall gi gm a ri si rm sm shocks,
  let zi := zscores ri si in let zm := zscores rm sm in let Qb := (1, pearson zi zm, 1) in
  let s := forecast_setting gi gm a 0 ri si rm sm (dcc_correlations a 0 Qb zi zm) in let d := documented_setting gi gm a 0 ri si rm sm in
  path s (today s) shocks = path d (today d) shocks.
Proof.
  intros gi gm a ri si rm sm shocks. cbv zeta. destruct shocks as [|[xi z] shocks]; [reflexivity|]. cbn [path].
  set (zi := zscores ri si). set (zm := zscores rm sm). set (Qb := (1, pearson zi zm, 1)).
  set (s := forecast_setting gi gm a 0 ri si rm sm (dcc_correlations a 0 Qb zi zm)). set (d := documented_setting gi gm a 0 ri si rm sm).
  assert (E : tomorrow s (today s) xi z = tomorrow d (today d) xi z).
  { assert (EQ : Qnext a 0 Qb (Qmat (today s)) (z_firm (today s), z_mkt (today s)) = Qnext a 0 Qb (Qmat (today d)) (z_firm (today s), z_mkt (today s))).
    { unfold Qb. destruct (Qmat (today s)) as [[? ?] ?]. destruct (Qmat (today d)) as [[? ?] ?]. cbn [Qnext]. f_equal; [f_equal|]; ring. }
    unfold tomorrow. change (Qnext (dcc_a s) (dcc_b s) (Qbar s) (Qmat (today s)) (z_firm (today s), z_mkt (today s))) with (Qnext a 0 Qb (Qmat (today s)) (z_firm (today s), z_mkt (today s))).
    rewrite EQ. reflexivity. }
  rewrite E. f_equal. generalize (tomorrow d (today d) xi z). induction shocks as [|[xi' z'] shocks IH]; intros p; [reflexivity|]. cbn [path].
  change (tomorrow s p xi' z') with (tomorrow d p xi' z'). f_equal. apply IH.
Qed.
(** In general they differ: a four-day sample, standardized residuals +2, -2, +2, -2 and +2, +2, -2, -2, DCC parameters 1/4 and 1/2. *)
Definition flat_gjr : gjr := {| mu := 0; omega := 1; alpha := 0; gamma := 0; beta := 0 |}.
Lemma four_pearson : pearson [2; -2; 2; -2] [2; 2; -2; -2] = 0.
Proof. unfold pearson. replace (covar [2; -2; 2; -2] [2; 2; -2; -2]) with 0 by (unfold covar, Rmean; cbn; field). unfold Rdiv. ring. Qed.
Lemma four_last_Q : last_Q (1/4) (1/2) (1, 0, 1) [2; -2; 2; -2] [2; 2; -2; -2] = (37/16, -5/4, 37/16).
Proof. unfold last_Q. cbn [combine removelast Qpath last Qnext]. f_equal; [f_equal|]; field. Qed.
Theorem C107_start_refuted : exists gi gm a b ri si rm sm rho shocks,
  good_gjr gi /\ good_gjr gm /\ 0 < a /\ 0 < b /\ a + b < 1 /\ positive si /\ positive sm /\ unclipped gi ri si /\ unclipped gm rm sm /\
  non_constant (zscores ri si) /\ non_constant (zscores rm sm) /\ -1 < pearson (zscores ri si) (zscores rm sm) < 1 /\
  cond_corr XRA false (Fin a) (Fin b) (map Fin ri) (map Fin rm) (map Fin si) (map Fin sm) = Ok (map Fin rho) /\
  let s := forecast_setting gi gm a b ri si rm sm rho in let d := documented_setting gi gm a b ri si rm sm in
  sim_returns XRA false (inputs s) (fin_shocks shocks) = [(Fin 1, Fin (108/259))] /\
  map (fun p => (mu (mkt d) + e_mkt p, mu (firm d) + e_firm p)) (path d (today d) shocks) = [(1, 12/77)].
Proof.
  exists flat_gjr, flat_gjr, (1/4), (1/2), [2; -2; 2; -2], [1; 1; 1; 1], [2; 2; -2; -2], [1; 1; 1; 1].
  assert (Z1 : zscores [2; -2; 2; -2] [1; 1; 1; 1] = [2; -2; 2; -2]) by exact (zscores_unit _ _ eq_refl).
  assert (Z2 : zscores [2; 2; -2; -2] [1; 1; 1; 1] = [2; 2; -2; -2]) by exact (zscores_unit _ _ eq_refl).
  assert (N1 : non_constant [2; -2; 2; -2]) by (exists 2, (-2); cbn; repeat split; auto; lra).
  assert (N2 : non_constant [2; 2; -2; -2]) by (exists 2, (-2); cbn; repeat split; auto; lra).
  assert (PS : positive [1; 1; 1; 1]) by (repeat constructor; lra).
  assert (HA : admissible (1/4) (1/2)) by (unfold admissible; lra).
  destruct (cond_corr_py_value (1/4) (1/2) [2; -2; 2; -2] [2; 2; -2; -2] [1; 1; 1; 1] [1; 1; 1; 1] eq_refl eq_refl eq_refl PS PS HA) as (_ & E); [rewrite Z1; auto|rewrite Z2; auto|].
  rewrite Z1, Z2, four_pearson in E. exists (dcc_correlations (1/4) (1/2) (1, 0, 1) [2; -2; 2; -2] [2; 2; -2; -2]), [(0, 1)].
  assert (GF : good_gjr flat_gjr) by (unfold good_gjr, flat_gjr; cbn; lra).
  assert (UC : forall e, length e = 4%nat -> unclipped flat_gjr e [1; 1; 1; 1]).
  { intros e He. destruct e as [|e0 [|e1 [|e2 [|e3 [|? ?]]]]]; try discriminate He. unfold unclipped. cbn [removelast forecast tl hd flat_gjr omega alpha gamma beta]. unfold gjr_update.
    destruct (Rlt_dec e0 0), (Rlt_dec e1 0), (Rlt_dec e2 0); repeat (f_equal; try ring). }
  rewrite Z1, Z2, four_pearson. repeat (split; [first [assumption|lra|apply UC; reflexivity]|]). clear E. cbv zeta.
  assert (RT : last (dcc_correlations (1/4) (1/2) (1, 0, 1) [2; -2; 2; -2] [2; 2; -2; -2]) 0 = -20/37).
  { rewrite last_rho, four_last_Q. cbn [corr_of]. rewrite sqrt_square by lra. field. }
  split.
  - rewrite returns_fin.
    + unfold forecast_setting. rewrite RT, Z1, Z2, four_pearson. cbn [path today]. unfold tomorrow, z_firm, z_mkt.
      cbn [firm mkt dcc_a dcc_b Qbar Qmat e_firm e_mkt v_firm v_mkt last map flat_gjr mu omega alpha gamma beta Qnext corr_of].
      unfold gjr_update. destruct (Rlt_dec (-2) 0); [|lra].
      match goal with |- context [sqrt (1 + ?x + ?y)] => replace (1 + x + y) with 1 by ring end. rewrite sqrt_1.
      match goal with |- context [sqrt (?x * ?x)] => replace x with (7/4) by field end. rewrite sqrt_square by lra.
      apply (f_equal (fun x => [x])), f_equal2; apply f_equal; field.
    + unfold good_setting, forecast_setting. rewrite RT, Z1, Z2, four_pearson. cbn [firm mkt dcc_a dcc_b Qbar today Qmat v_firm v_mkt last].
      repeat (split; [assumption || (eexists; split; [|reflexivity]; lra)|]). lra.
  - unfold documented_setting. rewrite Z1, Z2, four_pearson, four_last_Q. cbn [path today]. unfold tomorrow, z_firm, z_mkt.
    cbn [firm mkt dcc_a dcc_b Qbar Qmat e_firm e_mkt v_firm v_mkt last map flat_gjr mu omega alpha gamma beta Qnext corr_of].
    unfold gjr_update. destruct (Rlt_dec (-2) 0); [|lra].
    match goal with |- context [sqrt (1 + ?x + ?y)] => replace (1 + x + y) with 1 by ring end. rewrite sqrt_1.
    match goal with |- context [sqrt (?x * ?x)] => replace x with (77/32) by field end. rewrite sqrt_square by lra.
    apply (f_equal (fun x => [x])), f_equal2; field.
Qed.
Example C107_case : exists rho, cond_corr XRA false (Fin (1/4)) (Fin (1/2)) (map Fin [2; -2; 2; -2]) (map Fin [2; 2; -2; -2]) (map Fin [1; 1; 1; 1]) (map Fin [1; 1; 1; 1]) = Ok (map Fin rho) /\
  let s := first_day flat_gjr flat_gjr (1/4) (1/2) [2; -2; 2; -2] [1; 1; 1; 1] [2; 2; -2; -2] [1; 1; 1; 1] in
  good_setting s /\ strict s /\
  map (sim_returns XRA true (inputs s)) (bootstrap XRA (map Fin (orth [2; -2; 2; -2] [2; 2; -2; -2] rho)) (map Fin [2; 2; -2; -2]) [[1; 2; 3]%nat]) =
  [[(Fin 2, Fin (-2)); (Fin (-2), Fin 2); (Fin (-2), Fin (-2))]].
Proof.
  assert (Z1 : zscores [2; -2; 2; -2] [1; 1; 1; 1] = [2; -2; 2; -2]) by exact (zscores_unit _ _ eq_refl).
  assert (Z2 : zscores [2; 2; -2; -2] [1; 1; 1; 1] = [2; 2; -2; -2]) by exact (zscores_unit _ _ eq_refl).
  assert (N1 : non_constant [2; -2; 2; -2]) by (exists 2, (-2); cbn; repeat split; auto; lra).
  assert (N2 : non_constant [2; 2; -2; -2]) by (exists 2, (-2); cbn; repeat split; auto; lra).
  assert (PS : positive [1; 1; 1; 1]) by (repeat constructor; lra). assert (HA : admissible (1/4) (1/2)) by (unfold admissible; lra).
  destruct (cond_corr_py_value (1/4) (1/2) [2; -2; 2; -2] [2; 2; -2; -2] [1; 1; 1; 1] [1; 1; 1; 1] eq_refl eq_refl eq_refl PS PS HA) as (_ & E); [rewrite Z1; auto|rewrite Z2; auto|].
  rewrite Z1, Z2, four_pearson in E. exists (dcc_correlations (1/4) (1/2) (1, 0, 1) [2; -2; 2; -2] [2; 2; -2; -2]). split; [exact E|]. cbv zeta.
  assert (GF : good_gjr flat_gjr) by (unfold good_gjr, flat_gjr; cbn; lra).
  assert (UC : forall e, length e = 4%nat -> unclipped flat_gjr e [1; 1; 1; 1]).
  { intros e He. destruct e as [|e0 [|e1 [|e2 [|e3 [|? ?]]]]]; try discriminate He. unfold unclipped. cbn [removelast forecast tl hd flat_gjr omega alpha gamma beta]. unfold gjr_update.
    destruct (Rlt_dec e0 0), (Rlt_dec e1 0), (Rlt_dec e2 0); repeat (f_equal; try ring). }
  assert (RE : forall l, residuals flat_gjr l = l) by (intros l; unfold residuals, flat_gjr; cbn [mu]; etransitivity; [|apply map_id]; apply map_ext; intros; ring).
  split; [|split].
  - unfold good_setting, first_day. rewrite Z1, Z2, four_pearson. cbn [firm mkt dcc_a dcc_b Qbar today Qmat v_firm v_mkt hd].
    repeat (split; [assumption || (eexists; split; [|reflexivity]; lra)|]). lra.
  - left. unfold first_day. rewrite Z1, Z2, four_pearson. cbn. lra.
  - assert (H := C107_replay_sample true flat_gjr flat_gjr (1/4) (1/2) [2; -2; 2; -2] [2; 2; -2; -2] [1; 1; 1; 1] [1; 1; 1; 1] (dcc_correlations (1/4) (1/2) (1, 0, 1) [2; -2; 2; -2] [2; 2; -2; -2])).
    cbv zeta in H. rewrite !RE, Z1, Z2, four_pearson in H. apply H; auto; try lra; try discriminate.
Qed.
Example C107_case_bounds : gjr_variance_py XRA [Fin 1; Fin 0; Fin 0; Fin 0] (map Fin [2; -2]) (Fin 1) (map (fun row => (Fin (fst row), Fin (snd row))) [(1/2, 3/2); (1/2, 3/2)]) = Ok (map Fin [1; 1]).
Proof.
  unfold gjr_variance_py. cbn [map removelast tl var_loop fst snd].
  assert (E0 : @nadd XRA (Fin 1) (@nmul XRA (@nadd XRA (@nadd XRA (Fin 0) (@ndiv XRA (Fin 0) (ofZ 2))) (Fin 0)) (Fin 1)) = Fin 1).
  { cbn [nadd nmul ndiv ofZ XRA]. rewrite xdiv_fin by lra. cbn [xadd xmul]. f_equal. field. }
  assert (E1 : gjr_step XRA (Fin 1) (Fin 0) (Fin 0) (Fin 0) (Fin 1) (Fin 2) = Fin 1).
  { unfold gjr_step. cbn [nadd nmul nsq nltb ofZ XRA xadd xmul xsq xltb]. destruct (Rlt_dec 2 0); cbn; f_equal; ring. }
  change (num XRA) with xr in *. rewrite E0. cbv zeta. rewrite E1, C04_bounds_check_law by lra.
  destruct (Rle_dec 1 (1/2)); [lra|]. destruct (Rle_dec 1 (3/2)); [|lra]. reflexivity.
Qed.
