(** * Theorems: the unit of the returns (C114) *)
From Coq Require Import Reals Lra List ZArith Lia Bool Arith.
From Verif Require Import Arith XR RealAux Model_garch Spec_garch Proofs_garch Proofs_garch2 Proofs_garch3 Proofs_garch4 Proofs_garch5 Props_garch2.
Import ListNotations.
Local Open Scope R_scope.

(** returns expressed in another unit (e.g. c = 100: percent instead of decimals) *)
Definition scale (c : R) (l : list R) : list R := map (fun x => c * x) l.
(** the same parameters in the other unit: omega is a variance, alpha, gamma and beta are pure numbers *)
Definition rescaled (c : R) (ps : list R) : list R := match ps with o :: rest => c ^ 2 * o :: rest | [] => [] end.

Lemma scale_length c l : length (scale c l) = length l. Proof. apply map_length. Qed.
Lemma scale_nth c l i : nth i (scale c l) 0 = c * nth i l 0.
Proof. unfold scale. replace 0 with (c * 0) at 1 by ring. exact (map_nth (fun x => c * x) l 0 i). Qed.
Lemma scale_nil c l : l <> [] -> scale c l <> []. Proof. destruct l; [tauto|discriminate]. Qed.
Lemma Rsum_scale c l : Rsum (scale c l) = c * Rsum l.
Proof. unfold scale. induction l as [|x l IH]; cbn [map Rsum]; [ring|rewrite IH; ring]. Qed.
Lemma Rmean_scale c l : Rmean (scale c l) = c * Rmean l.
Proof. unfold Rmean. rewrite Rsum_scale, scale_length. unfold Rdiv. ring. Qed.
Lemma demean_scale c m l : map (fun r => r - c * m) (scale c l) = scale c (map (fun r => r - m) l).
Proof. unfold scale. rewrite !map_map. apply map_ext. intros. ring. Qed.
Lemma Rvar_scale c l : Rvar (scale c l) = c ^ 2 * Rvar l.
Proof.
  unfold Rvar. rewrite Rmean_scale.
  replace (map (fun x => (x - c * Rmean l) * (x - c * Rmean l)) (scale c l)) with (scale (c ^ 2) (map (fun x => (x - Rmean l) * (x - Rmean l)) l)).
  - apply Rmean_scale.
  - unfold scale. rewrite !map_map. apply map_ext. intros. ring.
Qed.
Lemma ew_average_scale n c l : ew_average n (scale c l) = c ^ 2 * ew_average n l.
Proof.
  unfold ew_average. rewrite (Rsum_map_ext _ (fun i => c ^ 2 * (ew_weight i * nth i l 0 ^ 2))).
  - rewrite Rsum_mult_l. unfold Rdiv. ring.
  - intros i _. rewrite scale_nth. ring.
Qed.
Lemma ewR_scale lam v c l : ewR lam (c ^ 2 * v) (map (fun r => r * r) (scale c l)) = scale (c ^ 2) (ewR lam v (map (fun r => r * r) l)).
Proof.
  revert v. induction l as [|x l IH]; intros v; cbn [scale map ewR]; auto.
  replace (lam * (c ^ 2 * v) + (1 - lam) * (c * x * (c * x))) with (c ^ 2 * (lam * v + (1 - lam) * (x * x))) by ring.
  f_equal. apply IH.
Qed.
Lemma removelast_map' {X Y} (f : X -> Y) l : removelast (map f l) = map f (removelast l).
Proof. induction l as [|x l IH]; auto. cbn [map removelast]. destruct l; auto. cbn [map] in *. now rewrite IH. Qed.
Lemma ewmaR_scale lam v c l t : nth t (ewmaR lam (c ^ 2 * v) (scale c l)) 0 = c ^ 2 * nth t (ewmaR lam v l) 0.
Proof.
  unfold ewmaR. rewrite <- scale_nth. cbn [scale map]. f_equal. f_equal.
  rewrite !removelast_map'. unfold scale at 1. rewrite removelast_map'. apply (ewR_scale lam v c (removelast l)).
Qed.
Lemma vbR_scale c l t : vbR (scale c l) t = c ^ 2 * vbR l t.
Proof.
  unfold vbR. rewrite scale_length, ew_average_scale, ewmaR_scale, Rvar_scale.
  replace (c ^ 2 * Rvar l / 100000000) with (c ^ 2 * (Rvar l / 100000000)) by (unfold Rdiv; ring).
  rewrite RmaxRmult; auto. simpl. rewrite Rmult_1_r. apply Rle_0_sqr.
Qed.
Definition scale_row (c : R) (b : R * R) : R * R := (c ^ 2 * fst b, c ^ 2 * snd b).
Lemma boundsR_scale c l : boundsR (scale c l) = map (scale_row c) (boundsR l).
Proof.
  unfold boundsR. rewrite map_map, scale_length. apply map_ext. intros t. unfold scale_row. cbn [fst snd]. rewrite vbR_scale. f_equal; unfold Rdiv; ring.
Qed.
Lemma prep_resids_scale zm c l : prep_resids zm (scale c l) = scale c (prep_resids zm l).
Proof. unfold prep_resids. destruct zm; auto. rewrite Rmean_scale. apply demean_scale. Qed.

(** backcast and bounds are in the unit of a variance; in particular the clipping of the EWMA at 10^7 (1 + max r^2), which has a
    unit-dependent 1 in it, never takes effect *)
Theorem C114_bounds_scale : forall c l, l <> [] -> exists v, variance_bounds XRA (map Fin l) = Ok (map finrow v) /\
  variance_bounds XRA (map Fin (scale c l)) = Ok (map finrow (map (scale_row c) v)).
Proof.
  intros c l Hl. exists (boundsR l). split; [apply variance_bounds_fin; auto|].
  rewrite <- boundsR_scale. apply variance_bounds_fin. apply scale_nil; auto.
Qed.

Lemma stepR_scale k c ps p r : length ps = nparams k -> (k = KGjr -> 0 < c) -> stepR (rescaled c ps) (c ^ 2 * p) (c * r) = c ^ 2 * stepR ps p r.
Proof.
  intros HL Hc. destruct k; cbn [nparams] in HL; repeat (destruct ps as [|? ps]; try discriminate HL); cbn [rescaled stepR].
  - unfold garch_update. ring.
  - specialize (Hc eq_refl). unfold gjr_update.
    destruct (Rlt_dec (c * r) 0) as [H1|H1], (Rlt_dec r 0) as [H2|H2]; try ring.
    + exfalso. assert (0 <= c * r) by (apply Rmult_le_pos; lra). lra.
    + exfalso. assert (0 < c * - r) by (apply Rmult_lt_0_compat; lra). lra.
Qed.
Lemma s0R_scale k c ps bc : length ps = nparams k -> s0R (rescaled c ps) (c ^ 2 * bc) = c ^ 2 * s0R ps bc.
Proof. intros HL. destruct k; cbn [nparams] in HL; repeat (destruct ps as [|? ps]; try discriminate HL); cbn [rescaled s0R]; ring. Qed.
Lemma pow2_pos c : c <> 0 -> 0 < c ^ 2.
Proof. intros H. simpl. rewrite Rmult_1_r. apply Rsqr_pos_lt. auto. Qed.
Lemma clip_scale c x lo up : c <> 0 -> 0 < lo <= up ->
  clip_log (c ^ 2 * x) (c ^ 2 * lo) (c ^ 2 * up) = if Rle_dec x up then c ^ 2 * clip_log x lo up else c ^ 2 * up + (clip_log x lo up - up).
Proof.
  intros Hc Hlo. assert (Hp := pow2_pos c Hc). unfold clip_log.
  destruct (Rle_dec x lo) as [H1|H1].
  - destruct (Rle_dec (c ^ 2 * x) (c ^ 2 * lo)) as [|n]; [|exfalso; apply n; apply Rmult_le_compat_l; lra].
    destruct (Rle_dec x up); [auto|lra].
  - destruct (Rle_dec (c ^ 2 * x) (c ^ 2 * lo)) as [H2|_]; [apply Rmult_le_reg_l in H2; lra|].
    destruct (Rle_dec x up) as [H3|H3].
    + destruct (Rle_dec (c ^ 2 * x) (c ^ 2 * up)) as [|n]; [auto|exfalso; apply n; apply Rmult_le_compat_l; lra].
    + destruct (Rle_dec (c ^ 2 * x) (c ^ 2 * up)) as [H4|_]; [apply Rmult_le_reg_l in H4; lra|].
      replace (c ^ 2 * x / (c ^ 2 * up)) with (x / up) by (field; split; lra). ring.
Qed.
Lemma clip_le_up x lo up : 0 < lo <= up -> (clip_log x lo up <= up <-> x <= up).
Proof.
  intros H. unfold clip_log. destruct (Rle_dec x lo); [lra|]. destruct (Rle_dec x up); [lra|].
  assert (0 < ln (x / up)); [|lra]. rewrite <- ln_1. apply ln_increasing; [lra|]. apply lt_div_iff; lra.
Qed.
Lemma path_scale k c ps bc rs bs s s' : length ps = nparams k -> c <> 0 -> (k = KGjr -> 0 < c) ->
  length bs = length rs -> Forall good_row bs ->
  variance_path (stepR ps) (s0R ps bc) rs bs s ->
  variance_path (stepR (rescaled c ps)) (s0R (rescaled c ps) (c ^ 2 * bc)) (scale c rs) (map (scale_row c) bs) s' ->
  forall t, (t < length rs)%nat -> (forall i, (0 < i <= t)%nat -> nth i s 0 <= snd (nth i bs (0, 0))) -> nth t s' 0 = c ^ 2 * nth t s 0.
Proof.
  intros HL Hc Hk Hb HG (L1 & Z1 & P1) (L2 & Z2 & P2). rewrite scale_length in *.
  assert (RB : forall i, (i < length rs)%nat -> nth i (map (scale_row c) bs) (0, 0) = scale_row c (nth i bs (0, 0)) /\ good_row (nth i bs (0, 0))).
  { intros i Hi. split.
    - rewrite (nth_indep _ (0, 0) (scale_row c (0, 0))) by (rewrite map_length; lia). apply map_nth.
    - rewrite Forall_forall in HG. apply HG. apply nth_In. lia. }
  induction t as [|t IH]; intros Ht Hup.
  - rewrite Z1, Z2. apply (s0R_scale k); auto.
  - rewrite P2 by auto. rewrite IH by (try lia; intros; apply Hup; lia).
    rewrite scale_nth, (stepR_scale k) by auto. destruct (RB (S t) Ht) as [-> HR]. unfold scale_row. cbn [fst snd].
    rewrite clip_scale by auto. rewrite (P1 t Ht).
    destruct (Rle_dec _ _) as [|n]; auto. exfalso. apply n. apply (clip_le_up _ (fst (nth (S t) bs (0, 0)))); [exact HR|].
    rewrite <- P1 by auto. apply Hup. lia.
Qed.

Definition unit_change (zm : bool) (c : R) (xs : list R) : list R :=
  if zm then rescaled c xs else match xs with mu :: ps => c * mu :: rescaled c ps | [] => [] end.
Lemma rescaled_length c ps : length (rescaled c ps) = length ps. Proof. destruct ps; auto. Qed.

(** the point from which the optimizer starts is the same point in the new unit *)
Theorem C114_start_scales : forall k c returns st st', c <> 0 -> 0 < Rvar returns ->
  st_returns XRA st = map Fin returns -> st_returns XRA st' = map Fin (scale c returns) -> st_zero_mean XRA st' = st_zero_mean XRA st ->
  exists sv st1 st1' bs, preparation XRA k st = Ok (map Fin sv, st1) /\
    preparation XRA k st' = Ok (map Fin (unit_change (st_zero_mean XRA st) c sv), st1') /\
    st_bounds XRA st1 = map finrow bs /\ st_bounds XRA st1' = map finrow (map (scale_row c) bs).
Proof.
  intros k c returns st st' Hc Hv Hr Hr' Hz. assert (Hp := pow2_pos c Hc).
  assert (Hv' : 0 < Rvar (scale c returns)) by (rewrite Rvar_scale; apply Rmult_lt_0_compat; auto).
  destruct (preparation_fin k st returns Hr Hv) as (st1 & E1 & B1 & _).
  destruct (preparation_fin k st' (scale c returns) Hr' Hv') as (st1' & E2 & B2 & _).
  rewrite Hz in *. do 4 eexists. split; [exact E1|]. split.
  - rewrite E2. f_equal. f_equal. f_equal. rewrite Rvar_scale, Rmean_scale.
    destruct (st_zero_mean XRA st), k; cbn [unit_change rescaled start_point]; repeat (f_equal; try ring).
  - split; [exact B1|]. rewrite B2. f_equal. rewrite prep_resids_scale. apply boundsR_scale.
Qed.

Lemma density_scale c s r : c <> 0 -> 0 < s -> ln (normal_density (c ^ 2 * s) (c * r)) = ln (normal_density s r) - ln (Rabs c).
Proof.
  intros Hc Hs. assert (Hp := pow2_pos c Hc). assert (HPI := PI_RGT_0).
  assert (0 < 2 * PI * s) by (apply Rmult_lt_0_compat; lra).
  assert (E : normal_density (c ^ 2 * s) (c * r) = normal_density s r / Rabs c).
  { unfold normal_density. replace (- (c * r) ^ 2 / (2 * (c ^ 2 * s))) with (- r ^ 2 / (2 * s)) by (field; split; lra).
    replace (2 * PI * (c ^ 2 * s)) with (c ^ 2 * (2 * PI * s)) by ring. rewrite sqrt_mult by lra.
    replace (sqrt (c ^ 2)) with (Rabs c) by (rewrite <- sqrt_Rsqr_abs; f_equal; unfold Rsqr; ring).
    assert (0 < sqrt (2 * PI * s)) by (apply sqrt_lt_R0; auto). assert (Rabs c <> 0) by (apply Rabs_no_R0; auto). field. split; lra. }
  rewrite E. apply ln_div.
  - unfold normal_density. apply Rdiv_lt_0_compat; [apply exp_pos|apply sqrt_lt_R0; auto].
  - apply Rabs_pos_lt; auto.
Qed.
Lemma loglik_scale c : c <> 0 -> forall rs s, length s = length rs -> Forall (fun x => 0 < x) s ->
  Rsum (map2 (fun r v => ln (normal_density v r)) (scale c rs) (scale (c ^ 2) s)) =
  Rsum (map2 (fun r v => ln (normal_density v r)) rs s) - INR (length rs) * ln (Rabs c).
Proof.
  intros Hc. induction rs as [|r rs IH]; intros [|v s] HL HF; try discriminate HL.
  - cbn. ring.
  - inversion HF; subst. cbn [scale map map2 Rsum length]. rewrite S_INR. rewrite density_scale by auto.
    unfold scale in IH. rewrite IH by (auto; cbn in HL; lia). ring.
Qed.

(** admissible variance parameters: omega positive, the others nonnegative *)
Definition admissible (k : kind) (ps : list R) : Prop :=
  length ps = nparams k /\ 0 < nth 0 ps 0 /\ forall i, (0 < i < nparams k)%nat -> 0 <= nth i ps 0.
Lemma admissible_s0 k ps bc : admissible k ps -> 0 <= bc -> 0 < s0R ps bc.
Proof.
  intros (HL & H0 & HP) Hbc.
  destruct k; cbn [nparams] in *; repeat (destruct ps as [|? ps]; try discriminate HL); cbn [nth s0R] in *.
  - pose proof (HP 1%nat ltac:(lia)). pose proof (HP 2%nat ltac:(lia)). cbn [nth] in *.
    assert (0 <= (r0 + r1) * bc) by (apply Rmult_le_pos; lra). lra.
  - pose proof (HP 1%nat ltac:(lia)). pose proof (HP 2%nat ltac:(lia)). pose proof (HP 3%nat ltac:(lia)). cbn [nth] in *.
    assert (0 <= (r0 + r1 / 2 + r2) * bc) by (apply Rmult_le_pos; lra). lra.
Qed.
Lemma rescaled_admissible k c ps : c <> 0 -> admissible k ps -> admissible k (rescaled c ps).
Proof.
  intros Hc (HL & H0 & HP). assert (Hp := pow2_pos c Hc). destruct ps as [|o ps]; [destruct k; discriminate HL|].
  split; [exact HL|]. split; [cbn [rescaled nth] in *; apply Rmult_lt_0_compat; auto|].
  intros [|i] Hi; [lia|]. exact (HP (S i) Hi).
Qed.
Lemma list_eq_nth (a b : list R) : length a = length b -> (forall t, (t < length a)%nat -> nth t a 0 = nth t b 0) -> a = b.
Proof. intros. apply (nth_ext a b 0 0); auto. Qed.

(** Evaluating the objective in the other unit.  If no variance had to be compressed at its upper bound, all variances are multiplied by
    c^2 and the objective is shifted by T ln|c|, a constant: the ranking of parameters is the same in both units. *)
Theorem C114_objective_scales : forall k c returns st st' sv sv' st1 st1' bs mu ps, c <> 0 -> (k = KGjr -> 0 < c) -> 0 < Rvar returns ->
  st_returns XRA st = map Fin returns -> st_returns XRA st' = map Fin (scale c returns) -> st_zero_mean XRA st' = st_zero_mean XRA st ->
  preparation XRA k st = Ok (sv, st1) -> preparation XRA k st' = Ok (sv', st1') -> st_bounds XRA st1 = map finrow bs ->
  admissible k ps ->
  let xs := if st_zero_mean XRA st then ps else mu :: ps in
  exists f s f' s', objective XRA k st1 (map Fin xs) = Ok (Fin f, map Fin s) /\
    objective XRA k st1' (map Fin (unit_change (st_zero_mean XRA st) c xs)) = Ok (Fin f', map Fin s') /\
    length s = length returns /\
    ((forall t, (0 < t < length returns)%nat -> nth t s 0 <= snd (nth t bs (0, 0))) ->
      s' = scale (c ^ 2) s /\ f' = f + INR (length returns) * ln (Rabs c)) /\
    (* the first period whose update exceeds the upper bound, and the excess is NOT scaled *)
    (forall t, (0 < t < length returns)%nat -> (forall i, (0 < i < t)%nat -> nth i s 0 <= snd (nth i bs (0, 0))) ->
      snd (nth t bs (0, 0)) < nth t s 0 ->
      nth t s' 0 = c ^ 2 * nth t s 0 - (c ^ 2 - 1) * (nth t s 0 - snd (nth t bs (0, 0)))).
Proof.
  intros k c returns st st' sv sv' st1 st1' bs mu ps Hc Hk Hv Hr Hr' Hz EP EP' EB HA xs. assert (Hp := pow2_pos c Hc).
  assert (Hn : returns <> []). { intros ->. unfold Rvar, Rmean in Hv. cbn in Hv. unfold Rdiv in Hv. lra. }
  assert (Hv' : 0 < Rvar (scale c returns)) by (rewrite Rvar_scale; apply Rmult_lt_0_compat; auto).
  destruct (preparation_fin k st returns Hr Hv) as (w1 & E1 & B1 & C1 & R1 & Z1).
  destruct (preparation_fin k st' (scale c returns) Hr' Hv') as (w2 & E2 & B2 & C2 & R2 & Z2).
  rewrite EP in E1. injection E1 as _ <-. rewrite EP' in E2. injection E2 as _ <-.
  rewrite Hz in *. set (zm := st_zero_mean XRA st) in *. set (pr := prep_resids zm returns) in *.
  rewrite prep_resids_scale in B2, C2. fold pr in B2, C2. rewrite boundsR_scale in B2. rewrite scale_length, ew_average_scale in C2.
  set (bc := ew_average (Nat.min 75 (length returns)) pr) in *.
  assert (Ebs : bs = boundsR pr).
  { rewrite B1 in EB. clear - EB. revert EB. generalize (boundsR pr). induction bs as [|[a b] bs IH]; intros [|[a' b'] q] E; cbn in E; try discriminate E; auto.
    unfold finrow in E. cbn [fst snd] in E. injection E as -> -> E. f_equal. auto. }
  subst bs. clear EB.
  set (rs := if zm then returns else map (fun r => r - mu) returns).
  assert (LR : length rs = length returns) by (subst rs; destruct zm; [auto|apply map_length]).
  assert (LP : length pr = length returns) by (subst pr; unfold prep_resids; destruct zm; [auto|apply map_length]).
  assert (Hrs : rs <> []) by (destruct returns; [tauto|]; destruct rs; [discriminate LR|discriminate]).
  assert (HG : Forall good_row (boundsR pr)). { apply boundsR_good. destruct (prep_resids_nonzero zm returns Hv) as (x & Hx & Hx0). exists x; auto. }
  assert (HG' : Forall good_row (map (scale_row c) (boundsR pr))).
  { apply Forall_forall. intros b Hb. apply in_map_iff in Hb as (b0 & <- & Hb). rewrite Forall_forall in HG. specialize (HG _ Hb).
    unfold good_row, scale_row in *. cbn [fst snd]. split; [apply Rmult_lt_0_compat; lra|apply Rmult_le_compat_l; lra]. }
  assert (Hbc : 0 <= bc). { unfold bc. apply ew_average_nonneg. destruct returns; [tauto|cbn; lia]. }
  assert (Lb : length (boundsR pr) = length rs) by (rewrite boundsR_length; lia).
  destruct (cv_fin_pos k ps rs bc (boundsR pr)) as (s & Es & Ps & Fs & Ls); auto; try lia; [apply HA|now apply Forall_tl|apply (admissible_s0 k); auto|].
  destruct (cv_fin_pos k (rescaled c ps) (scale c rs) (c ^ 2 * bc) (map (scale_row c) (boundsR pr))) as (s' & Es' & Ps' & Fs' & Ls').
  { rewrite rescaled_length. apply HA. } { apply scale_nil; auto. } { rewrite map_length, scale_length. lia. } { now apply Forall_tl. }
  { apply (admissible_s0 k); [apply rescaled_admissible; auto|apply Rmult_le_pos; lra]. }
  set (f := - Rsum (map2 (fun r v => ln (normal_density v r)) rs s)).
  set (f' := - Rsum (map2 (fun r v => ln (normal_density v r)) (scale c rs) s')).
  exists f, s, f', s'.
  assert (O1 : objective XRA k st1 (map Fin xs) = Ok (Fin f, map Fin s)).
  { unfold objective. rewrite Z1, R1, C1, B1. unfold xs, rs in *. destruct zm.
    - rewrite Es. cbn [bind]. rewrite Ls. reflexivity.
    - cbn [map]. rewrite demean_fin. rewrite Es. cbn [bind]. rewrite Ls. reflexivity. }
  assert (O2 : objective XRA k st1' (map Fin (unit_change zm c xs)) = Ok (Fin f', map Fin s')).
  { unfold objective. rewrite Z2, R2, C2, B2. unfold xs, rs in *. destruct zm; cbn [unit_change].
    - rewrite Es'. cbn [bind]. rewrite Ls'. reflexivity.
    - cbn [map]. rewrite demean_fin, demean_scale. rewrite Es'. cbn [bind]. rewrite Ls'. reflexivity. }
  split; [exact O1|]. split; [exact O2|]. destruct Ps as (L1 & P0 & P1). destruct Ps' as (L2 & Q0 & Q1). rewrite scale_length in L2, Q1.
  split; [lia|].
  assert (PS : forall t, (t < length rs)%nat -> (forall i, (0 < i <= t)%nat -> nth i s 0 <= snd (nth i (boundsR pr) (0, 0))) -> nth t s' 0 = c ^ 2 * nth t s 0).
  { apply (path_scale k c ps bc rs (boundsR pr) s s'); auto; [apply HA|repeat split; auto|].
    split; [rewrite scale_length; exact L2|]. split; [exact Q0|]. rewrite scale_length. exact Q1. }
  split.
  - intros Hup. assert (Es2 : s' = scale (c ^ 2) s).
    { apply list_eq_nth; [rewrite scale_length; lia|]. intros t Ht. rewrite scale_nth. apply PS; [lia|]. intros i Hi. apply Hup. lia. }
    split; auto. unfold f', f. rewrite Es2, loglik_scale by (auto; lia). rewrite LR. ring.
  - intros [|t] Ht Hup Hex; [lia|]. rewrite Q1 by lia.
    rewrite PS by (try lia; intros; apply Hup; lia). rewrite scale_nth, (stepR_scale k) by (auto; apply HA).
    rewrite (nth_indep _ (0, 0) (scale_row c (0, 0))) by (rewrite map_length; lia). rewrite map_nth. unfold scale_row. cbn [fst snd].
    rewrite Forall_forall in HG. assert (G := HG (nth (S t) (boundsR pr) (0, 0)) ltac:(apply nth_In; lia)). unfold good_row in G.
    rewrite clip_scale by auto. rewrite <- P1 by lia. destruct (Rle_dec _ _) as [l|_].
    + exfalso. apply (clip_le_up _ (fst (nth (S t) (boundsR pr) (0, 0)))) in l; [|exact G]. rewrite <- P1 in l by lia. lra.
    + ring.
Qed.

(** Hence the claim "the unit does not matter" is false for every data set of at least two returns and every change of unit: there are
    admissible parameters whose variance series does not carry over. *)
Theorem C114_unit_free_refuted : forall k c returns st st' sv sv' st1 st1' mu, c <> 0 -> (k = KGjr -> 0 < c) -> c ^ 2 <> 1 -> 0 < Rvar returns ->
  st_returns XRA st = map Fin returns -> st_returns XRA st' = map Fin (scale c returns) -> st_zero_mean XRA st' = st_zero_mean XRA st ->
  preparation XRA k st = Ok (sv, st1) -> preparation XRA k st' = Ok (sv', st1') ->
  exists ps, admissible k ps /\ let xs := if st_zero_mean XRA st then ps else mu :: ps in
    exists f s f' s', objective XRA k st1 (map Fin xs) = Ok (Fin f, map Fin s) /\
      objective XRA k st1' (map Fin (unit_change (st_zero_mean XRA st) c xs)) = Ok (Fin f', map Fin s') /\ s' <> scale (c ^ 2) s.
Proof.
  intros k c returns st st' sv sv' st1 st1' mu Hc Hk Hc1 Hv Hr Hr' Hz EP EP'.
  assert (Hn : returns <> []). { intros ->. unfold Rvar, Rmean in Hv. cbn in Hv. unfold Rdiv in Hv. lra. }
  assert (L2 : (2 <= length returns)%nat).
  { destruct (proj1 (Rvar_pos_iff returns Hn) Hv) as (x & y & Hx & Hy & Hxy).
    destruct returns as [|a [|b q]]; [tauto| |cbn; lia]. destruct Hx as [<-|[]], Hy as [<-|[]]. congruence. }
  destruct (preparation_fin k st returns Hr Hv) as (w1 & E1 & B1 & C1 & R1 & Z1). rewrite EP in E1. injection E1 as _ <-.
  set (bs := boundsR (prep_resids (st_zero_mean XRA st) returns)) in *.
  set (o := Rmax 1 (snd (nth 1 bs (0, 0))) + 1). assert (Ho : 1 < o /\ snd (nth 1 bs (0, 0)) < o).
  { unfold o. pose proof (Rmax_l 1 (snd (nth 1 bs (0, 0)))). pose proof (Rmax_r 1 (snd (nth 1 bs (0, 0)))). lra. }
  exists (match k with KGarch => [o; 0; 0] | KGjr => [o; 0; 0; 0] end).
  assert (HA : admissible k (match k with KGarch => [o; 0; 0] | KGjr => [o; 0; 0; 0] end)).
  { destruct k; (split; [reflexivity|]; split; [cbn [nth]; lra|]; cbn [nparams]; intros i Hi;
      destruct i as [|[|[|[|i]]]]; cbn [nth]; try lra; lia). }
  split; [exact HA|]. cbv zeta.
  destruct (C114_objective_scales k c returns st st' sv sv' st1 st1' bs mu _ Hc Hk Hv Hr Hr' Hz EP EP' B1 HA) as (f & s & f' & s' & O1 & O2 & LS & _ & HX).
  exists f, s, f', s'. split; [exact O1|]. split; [exact O2|]. intros Es.
  assert (Hs : snd (nth 1 bs (0, 0)) < nth 1 s 0).
  { clear O2 HX Es. unfold objective in O1. rewrite Z1, R1, C1, B1 in O1.
    set (bc := ew_average (Nat.min 75 (length returns)) (prep_resids (st_zero_mean XRA st) returns)) in *.
    assert (Lb : length bs = length returns).
    { unfold bs. rewrite boundsR_length. unfold prep_resids. destruct (st_zero_mean XRA st); [auto|apply map_length]. }
    assert (HG : Forall good_row bs).
    { apply boundsR_good. destruct (prep_resids_nonzero (st_zero_mean XRA st) returns Hv) as (x & Hx & Hx0). exists x; auto. }
    assert (MAIN : forall rs, length rs = length returns ->
       forall w, compute_variance XRA k (map Fin (match k with KGarch => [o; 0; 0] | KGjr => [o; 0; 0; 0] end)) (map Fin rs) (Fin bc) (map finrow bs) = Ok w ->
       w = map Fin s -> snd (nth 1 bs (0, 0)) < nth 1 s 0).
    { intros rs Lr w Ew ->. destruct (cv_fin k (match k with KGarch => [o; 0; 0] | KGjr => [o; 0; 0; 0] end) rs bc bs) as (q & Eq & (Lq & _ & Pq)).
      - apply HA. - destruct rs; [cbn in Lr; lia|discriminate]. - lia. - now apply Forall_tl.
      - rewrite Ew in Eq. injection Eq as Eq.
        assert (s = q). { clear - Eq. revert q Eq. induction s as [|x s IH]; intros [|y q] E; try discriminate E; auto. injection E as -> E. f_equal; auto. }
        subst q. rewrite Pq by lia. rewrite Forall_forall in HG. assert (G := HG (nth 1 bs (0, 0)) ltac:(apply nth_In; lia)). unfold good_row in G.
        apply Rnot_le_lt. intros Hle. apply clip_le_up in Hle; [|exact G].
        assert (stepR (match k with KGarch => [o; 0; 0] | KGjr => [o; 0; 0; 0] end) (nth 0 s 0) (nth 0 rs 0) = o); [|lra].
        destruct k; cbn [stepR]; [unfold garch_update; ring|unfold gjr_update; destruct (Rlt_dec _ _); ring]. }
    destruct (st_zero_mean XRA st); cbn [map] in O1.
    - destruct (compute_variance XRA k _ _ _ _) as [w|] eqn:Ew; cbn [bind] in O1; [|discriminate O1]. injection O1 as _ Hw. exact (MAIN returns eq_refl w Ew Hw).
    - rewrite demean_fin in O1. destruct (compute_variance XRA k _ _ _ _) as [w|] eqn:Ew; cbn [bind] in O1; [|discriminate O1]. injection O1 as _ Hw.
      refine (MAIN (map (fun r => r - mu) returns) _ w Ew Hw). apply map_length. }
  specialize (HX 1%nat ltac:(lia) ltac:(intros; lia) Hs). rewrite Es, scale_nth in HX.
  assert ((c ^ 2 - 1) * (nth 1 s 0 - snd (nth 1 bs (0, 0))) = 0) as H0 by lra. apply Rmult_integral in H0. lra.
Qed.

(** The box handed to the optimizer is NOT in the unit of the data: omega >= 1e-6 whatever the unit.  The start omega = 0.02 var(returns)
    lies below that bound exactly when the returns' variance is below 5e-5 (a daily volatility of about 0.7% in decimals, unremarkable),
    and every feasible model then has a long-run variance of at least 1e-6. *)
Theorem C114_start_outside_box : forall k st returns, st_returns XRA st = map Fin returns -> 0 < Rvar returns ->
  exists sv st1, preparation XRA k st = Ok (map Fin sv, st1) /\
    let i := if st_zero_mean XRA st then 0%nat else 1%nat in
    nth i (fit_bounds XRA k (st_zero_mean XRA st)) (NaN, NaN) = (Fin (1 / 1000000), PInf) /\
    (nth i sv 0 < 1 / 1000000 <-> Rvar returns < 5 / 100000).
Proof.
  intros k st returns Hr Hv. destruct (preparation_fin k st returns Hr Hv) as (st1 & E & _).
  do 2 eexists. split; [exact E|]. cbv zeta. destruct (st_zero_mean XRA st), k; cbn [fit_bounds tl nth start_point]; (split; [reflexivity|]); split; lra.
Qed.
Lemma floor_div o d : 1 / 1000000 <= o -> 0 < d <= 1 -> 1 / 1000000 <= o / d.
Proof. intros Ho Hd. apply le_div_iff; [lra|]. assert (1 / 1000000 * d <= 1 / 1000000 * 1) by (apply Rmult_le_compat_l; lra). lra. Qed.
Theorem C114_long_run_floor : forall m st r st' omega alpha beta,
  fit XRA KGarch m st = Ok (r, st') -> st_success XRA st = false -> (forall sv b, solver_contract KGarch st' (m sv b)) ->
  variance_params (st_params XRA st') = [Fin omega; Fin alpha; Fin beta] -> alpha + beta < 1 -> 1 / 1000000 <= omega / (1 - alpha - beta).
Proof.
  intros m st r st' omega alpha beta Hf Hs HC HV Hab. destruct (C10_garch_constraints m st r st' omega alpha beta Hf Hs HC HV) as (Ho & Ha & Hb & _).
  apply floor_div; lra.
Qed.

Theorem C114_long_run_floor_gjr : forall m st r st' omega alpha gamma beta,
  fit XRA KGjr m st = Ok (r, st') -> st_success XRA st = false -> (forall sv b, solver_contract KGjr st' (m sv b)) ->
  variance_params (st_params XRA st') = [Fin omega; Fin alpha; Fin gamma; Fin beta] -> alpha + gamma / 2 + beta < 1 ->
  1 / 1000000 <= omega / (1 - alpha - gamma / 2 - beta).
Proof.
  intros m st r st' omega alpha gamma beta Hf Hs HC HV Hab. destruct (C10_gjr_constraints m st r st' omega alpha gamma beta Hf Hs HC HV) as (Ho & Ha & Hg & Hb & _).
  apply floor_div; lra.
Qed.

(** the cases above are inhabited: a mean model with one return above and one below, in percent instead of decimals *)
Example C114_case : 0 < Rvar [1 / 100; -1 / 100] /\ Rvar [1 / 100; -1 / 100] < 5 / 1000 /\ 5 / 100000 <= Rvar [1 / 100; -1 / 100] /\
  scale 100 [1 / 100; -1 / 100] = [1; -1] /\ admissible KGarch [2 / 1000000; 1 / 10; 8 / 10] /\
  exists st1 f s, preparation XRA KGarch (init XRA KGarch (map Fin [1 / 100; -1 / 100]) [] [] true) = Ok (map Fin (start_point KGarch (1 / 10000)), st1) /\
    objective XRA KGarch st1 (map Fin [2 / 1000000; 1 / 10; 8 / 10]) = Ok (f, map Fin s) /\
    (forall t, (0 < t < 2)%nat -> nth t s 0 <= snd (nth t (boundsR [1 / 100; -1 / 100]) (0, 0))).
Proof.
  assert (V : Rvar [1 / 100; -1 / 100] = 1 / 10000) by (unfold Rvar, Rmean; cbn; field).
  rewrite V. split; [lra|]. split; [lra|]. split; [lra|]. split; [unfold scale; cbn [map]; repeat (f_equal; try field)|].
  split. { split; [reflexivity|]. split; [cbn [nth]; lra|]. cbn [nparams]. intros [|[|[|i]]] Hi; cbn [nth]; try lra; lia. }
  destruct (preparation_fin KGarch (init XRA KGarch (map Fin [1 / 100; -1 / 100]) [] [] true) [1 / 100; -1 / 100] eq_refl ltac:(lra)) as (st1 & E & B & C & R & Z).
  cbn [st_zero_mean init] in *. rewrite V in E. unfold prep_resids in *.
  set (rs := [1 / 100; -1 / 100]) in *. set (bc := ew_average (Nat.min 75 (length rs)) rs) in *.
  assert (Hbc : 1 / 10000 <= bc <= 1 / 10000).
  { unfold bc. apply ew_average_range; [cbn; lia|]. intros i Hi. cbn [length rs Nat.min] in Hi. destruct i as [|[|i]]; [| |lia]; cbn [rs nth]; lra. }
  assert (HB : 1 <= snd (nth 1 (boundsR rs) (0, 0))).
  { unfold boundsR. cbn [length rs seq map nth snd]. fold rs. unfold vbR. rewrite V.
    set (w := nth 1 (ewmaR (94 / 100) (ew_average (Nat.min 75 (length rs)) rs) rs) 0).
    assert (1 / 10000 <= w <= 1 / 10000).
    { unfold w. apply ewmaR_range; [cbn; lia|lra|exact Hbc|]. intros i Hi. cbn [length rs] in Hi. destruct i as [|[|i]]; [| |lia]; cbn [rs nth]; lra. }
    pose proof (Rmax_l w (1 / 10000 / 100000000)). unfold Rmax in *. destruct (Rle_dec w _); lra. }
  destruct (cv_fin_pos KGarch [2 / 1000000; 1 / 10; 8 / 10] rs bc (boundsR rs)) as (s & Es & (L & P0 & P1) & _ & Ls).
  - reflexivity. - discriminate. - rewrite boundsR_length. lia.
  - apply Forall_tl, boundsR_good. exists (1 / 100). split; [left; auto|lra].
  - cbn [s0R]. lra.
  - exists st1. do 2 eexists. split; [exact E|]. split.
    + unfold objective. rewrite Z, R, C, B. cbn [st_zero_mean init]. rewrite Es. cbn [bind]. reflexivity.
    + intros t Ht. assert (t = 1%nat) as -> by lia. rewrite P1 by (cbn; lia).
      assert (HG : good_row (nth 1 (boundsR rs) (0, 0))).
      { assert (F : Forall good_row (boundsR rs)) by (apply boundsR_good; exists (1 / 100); split; [left; auto|lra]).
        rewrite Forall_forall in F. apply F. apply nth_In. rewrite boundsR_length. cbn; lia. }
      apply clip_le_up; [exact HG|]. rewrite P0. cbn [s0R stepR nth rs]. unfold garch_update. lra.
Qed.
