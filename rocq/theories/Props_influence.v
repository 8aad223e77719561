(** * Property C137: how long a starting value or a single shock stays in the variances *)
From Coq Require Import Reals ZArith List Bool Arith Lia Lra Psatz.
From Verif Require Import Arith XR RealAux Model_garch Spec_garch Proofs_garch Proofs_garch2 Proofs_garch3 Proofs_garch4 Proofs_garch5 Props_garch Props_garch2.
Import ListNotations.
Local Open Scope R_scope.

(** ** Specification: parameters are [omega; alpha; beta] or [omega; alpha; gamma; beta] *)
Definition decay (ps : list R) : R := last ps 0.
(** the weight of the backcast in the first variance *)
Definition start_weight (ps : list R) : R := match ps with [_; a; b] => a + b | [_; a; g; b] => a + g / 2 + b | _ => 0 end.
(** what a residual adds to the next variance *)
Definition impact (ps : list R) (r : R) : R :=
  match ps with [_; a; _] => a * r ^ 2 | [_; a; g; _] => (a + if Rlt_dec r 0 then g else 0) * r ^ 2 | _ => 0 end.
(** no upper bound below one is exceeded *)
Definition tame (bs : list (R * R)) (s : list R) : Prop := forall t, (0 < t < length s)%nat -> 1 <= snd (nth t bs (0, 0)) \/ nth t s 0 <= snd (nth t bs (0, 0)).
(** no bound is active *)
Definition unclipped (bs : list (R * R)) (s : list R) : Prop := forall t, (0 < t < length s)%nat -> fst (nth t bs (0, 0)) < nth t s 0 <= snd (nth t bs (0, 0)).
(** the program's variances for real inputs *)
Definition variances (k : kind) (ps rs : list R) (bc : R) (bs : list (R * R)) (s : list R) : Prop :=
  compute_variance XRA k (map Fin ps) (map Fin rs) (Fin bc) (map finrow bs) = Ok (map Fin s).

(** ** Proofs *)
Lemma Rminus_diag x : x - x = 0. Proof. ring. Qed.
Lemma Fin_inj_list : forall l m, map Fin l = map Fin m -> l = m.
Proof. induction l as [|x l IH]; intros [|y m] H; cbn in H; try discriminate; [reflexivity|]. injection H as -> H. f_equal. apply IH, H. Qed.
Lemma variances_path k ps rs bc bs s : Forall good_row bs -> variances k ps rs bc bs s -> length ps = nparams k /\ variance_path (stepR ps) (s0R ps bc) rs bs s.
Proof.
  intros HB E. destruct (proj1 (C02_defined XRA k (map Fin ps) (map Fin rs) (Fin bc) (map finrow bs)) (ex_intro _ (map Fin s) E)) as (H1 & H2 & H3). rewrite map_length in H1. split; [exact H1|].
  assert (Hn : rs <> []) by (intros ->; apply H2; reflexivity).
  rewrite map_length, tl_length, map_length in H3.
  destruct (Nat.eq_dec (length bs) 0) as [Z | Z].
  { (* a single residual needs no row *)
    destruct bs; [|discriminate]. cbn in H3. assert (L : length rs = 1%nat) by (destruct rs; [congruence|cbn in *; lia]).
    destruct rs as [|r [|]]; try discriminate. 
    destruct (cv_fin k ps [r] bc [(1, 1)] H1 ltac:(discriminate) ltac:(cbn; lia) ltac:(constructor)) as (s' & E' & P).
    assert (EQ : compute_variance XRA k (map Fin ps) (map Fin [r]) (Fin bc) (map finrow []) = compute_variance XRA k (map Fin ps) (map Fin [r]) (Fin bc) (map finrow [(1, 1)])).
    { destruct k; repeat (destruct ps as [|? ps]; try discriminate H1); reflexivity. }
    unfold variances in E. rewrite EQ, E' in E. injection E as E. apply Fin_inj_list in E. subst s'.
    destruct P as (P1 & P2 & _). split; [exact P1|]. split; [exact P2|]. cbn. intros t Ht. lia. }
  destruct (cv_fin k ps rs bc bs H1 Hn ltac:(lia) (Forall_tl _ _ HB)) as (s' & E' & P). unfold variances in E. rewrite E' in E. injection E as E. apply Fin_inj_list in E. subst s'. exact P.
Qed.
Lemma step_shape k ps p r : length ps = nparams k -> stepR ps p r = hd 0 ps + impact ps r + decay ps * p.
Proof. intros H. destruct k; repeat (destruct ps as [|? ps]; try discriminate H); unfold stepR, garch_update, gjr_update, impact, decay; cbn; ring. Qed.
Lemma start_shape k ps bc : length ps = nparams k -> s0R ps bc = hd 0 ps + start_weight ps * bc.
Proof. intros H. destruct k; repeat (destruct ps as [|? ps]; try discriminate H); unfold s0R, start_weight; cbn; ring. Qed.
(** above its upper bound [u] a variance [v] becomes [u + ln (v/u)], which moves less than [v] if [u >= 1] *)
Lemma ln_slow u v w : 1 <= u -> u <= v <= w -> ln (w / u) - ln (v / u) <= w - v.
Proof.
  intros H1 [H2 H3]. assert (0 < v) by lra. rewrite <- ln_div by (apply Rdiv_lt_0_compat; lra). replace (w / u / (v / u)) with (1 + (w - v) / v) by (field; lra).
  assert (0 <= (w - v) / v) by (apply Rmult_le_pos; [lra|apply Rlt_le, Rinv_0_lt_compat; lra]).
  apply Rle_trans with ((w - v) / v). { generalize (exp_ineq1_le (ln (1 + (w - v) / v))). rewrite exp_ln by lra. lra. }
  apply Rmult_le_reg_r with v; [lra|]. unfold Rdiv. rewrite Rmult_assoc, Rinv_l by lra. nra.
Qed.
Lemma clip_above s lo up : 0 < lo <= up -> clip_log s lo up <= up -> s <= up.
Proof.
  intros HB H. unfold clip_log in H. destruct (Rle_dec s lo); [lra|]. destruct (Rle_dec s up); [lra|].
  assert (0 < ln (s / up)); [|lra]. rewrite <- ln_1. apply ln_increasing; [lra|]. apply Rmult_lt_reg_r with up; [lra|]. unfold Rdiv. rewrite Rmult_assoc, Rinv_l by lra. lra.
Qed.
Lemma clip_contracts_le a b lo up : 0 < lo <= up -> 1 <= up \/ clip_log b lo up <= up -> a <= b -> clip_log a lo up <= clip_log b lo up <= clip_log a lo up + (b - a).
Proof.
  intros HB HU HAB. assert (HU' : 1 <= up \/ b <= up) by (destruct HU as [HU | HU]; [left; exact HU|right; exact (clip_above b lo up HB HU)]).
  unfold clip_log. destruct (Rle_dec a lo); destruct (Rle_dec b lo); destruct (Rle_dec a up); destruct (Rle_dec b up); try lra.
  - destruct HU' as [U | U]; [|lra]. assert (G := ln_slow up up b U ltac:(lra)). unfold Rdiv at 2 in G. rewrite Rinv_r, ln_1 in G by lra.
    assert (0 <= ln (b / up)); [|lra]. rewrite <- ln_1. apply ln_le; [lra|]. apply Rmult_le_reg_r with up; [lra|]. unfold Rdiv. rewrite Rmult_assoc, Rinv_l by lra. lra.
  - destruct HU' as [U | U]; [|lra]. assert (G := ln_slow up up b U ltac:(lra)). unfold Rdiv at 2 in G. rewrite Rinv_r, ln_1 in G by lra.
    assert (0 <= ln (b / up)); [|lra]. rewrite <- ln_1. apply ln_le; [lra|]. apply Rmult_le_reg_r with up; [lra|]. unfold Rdiv. rewrite Rmult_assoc, Rinv_l by lra. lra.
  - destruct HU' as [U | U]; [|lra]. assert (G := ln_slow up a b U ltac:(lra)). 
    assert (ln (a / up) <= ln (b / up)); [|lra]. apply ln_le; [apply Rdiv_lt_0_compat; lra|]. apply Rmult_le_compat_r; [apply Rlt_le, Rinv_0_lt_compat; lra|lra].
Qed.
Lemma clip_contracts a b lo up : 0 < lo <= up -> (1 <= up \/ clip_log a lo up <= up) -> (1 <= up \/ clip_log b lo up <= up) -> Rabs (clip_log a lo up - clip_log b lo up) <= Rabs (a - b).
Proof.
  intros HB HA HC. destruct (Rle_dec a b) as [L | L].
  - assert (G := clip_contracts_le a b lo up HB HC L). rewrite Rabs_minus_sym, (Rabs_minus_sym a b), !Rabs_pos_eq by lra. lra.
  - assert (G := clip_contracts_le b a lo up HB HA ltac:(lra)). rewrite !Rabs_pos_eq by lra. lra.
Qed.
Lemma clip_inside s lo up : 0 < lo <= up -> lo < clip_log s lo up <= up -> clip_log s lo up = s.
Proof.
  intros HB [H1 H2]. assert (G := clip_above s lo up HB H2). unfold clip_log in *. destruct (Rle_dec s lo); [lra|]. destruct (Rle_dec s up); [reflexivity|lra].
Qed.
(** the difference of two series: what remains of the difference of the starts and of every shock *)
Definition remains (b : R) (e0 : R) (e : nat -> R) (t : nat) : R := b ^ t * e0 + Rsum (map (fun j => b ^ (t - 1 - j) * e j) (seq 0 t)).
Lemma remains_0 b e0 e : remains b e0 e 0 = e0.
Proof. unfold remains. cbn. ring. Qed.
Lemma remains_S b e0 e t : remains b e0 e (S t) = b * remains b e0 e t + e t.
Proof.
  unfold remains. rewrite seq_S, map_app, Rsum_app. cbn [map Rsum plus]. replace (S t - 1 - t)%nat with 0%nat by lia. cbn [pow].
  rewrite (Rsum_map_ext (fun j => b ^ (S t - 1 - j) * e j) (fun j => b * (b ^ (t - 1 - j) * e j))).
  - rewrite Rsum_mult_l. ring.
  - intros j Hj. apply in_seq in Hj. replace (S t - 1 - j)%nat with (S (t - 1 - j)) by lia. cbn [pow]. ring.
Qed.
Section Two.
Variables (k : kind) (ps : list R) (bc bc' : R) (rs rs' : list R) (bs : list (R * R)) (s s' : list R).
Hypothesis Hb : 0 <= decay ps.
Hypothesis HB : Forall good_row bs.
Hypothesis HL : (length rs <= length bs)%nat.
Hypothesis Hlen : length rs' = length rs.
Hypothesis V : variances k ps rs bc bs s.
Hypothesis V' : variances k ps rs' bc' bs s'.
Lemma row_good t : (t < length rs)%nat -> good_row (nth t bs (0, 0)).
Proof. intros Ht. rewrite Forall_forall in HB. apply HB, nth_In. lia. Qed.
Lemma two_inequality : tame bs s -> tame bs s' -> forall t, (t < length rs)%nat ->
  Rabs (nth t s 0 - nth t s' 0) <= remains (decay ps) (Rabs (start_weight ps) * Rabs (bc - bc')) (fun j => Rabs (impact ps (nth j rs 0) - impact ps (nth j rs' 0))) t.
Proof.
  intros HT HT'. destruct (variances_path _ _ _ _ _ _ HB V) as (N & P1 & P2 & P3). destruct (variances_path _ _ _ _ _ _ HB V') as (_ & Q1 & Q2 & Q3).
  induction t as [|t IH]; intros Ht.
  - rewrite remains_0, P2, Q2, !(start_shape k) by exact N. rewrite <- Rabs_mult. apply Req_le. f_equal. ring.
  - rewrite remains_S, P3, Q3 by lia. assert (G := row_good (S t) Ht). specialize (HT (S t) ltac:(lia)). specialize (HT' (S t) ltac:(lia)). rewrite P3 in HT by lia. rewrite Q3 in HT' by lia.
    eapply Rle_trans; [apply clip_contracts; assumption|]. rewrite !(step_shape k) by exact N.
    replace (hd 0 ps + impact ps (nth t rs 0) + decay ps * nth t s 0 - (hd 0 ps + impact ps (nth t rs' 0) + decay ps * nth t s' 0))
      with (decay ps * (nth t s 0 - nth t s' 0) + (impact ps (nth t rs 0) - impact ps (nth t rs' 0))) by ring.
    eapply Rle_trans; [apply Rabs_triang|]. apply Rplus_le_compat_r. rewrite Rabs_mult, (Rabs_pos_eq (decay ps)) by exact Hb. apply Rmult_le_compat_l; [exact Hb|]. apply IH. lia.
Qed.
Lemma two_equality : unclipped bs s -> unclipped bs s' -> forall t, (t < length rs)%nat ->
  nth t s 0 - nth t s' 0 = remains (decay ps) (start_weight ps * (bc - bc')) (fun j => impact ps (nth j rs 0) - impact ps (nth j rs' 0)) t.
Proof.
  intros HT HT'. destruct (variances_path _ _ _ _ _ _ HB V) as (N & P1 & P2 & P3). destruct (variances_path _ _ _ _ _ _ HB V') as (_ & Q1 & Q2 & Q3).
  induction t as [|t IH]; intros Ht.
  - rewrite remains_0, P2, Q2, !(start_shape k) by exact N. ring.
  - rewrite remains_S, <- IH by lia. assert (G := row_good (S t) Ht). specialize (HT (S t) ltac:(lia)). specialize (HT' (S t) ltac:(lia)).
    rewrite P3 in HT |- * by lia. rewrite Q3 in HT' |- * by lia. rewrite (clip_inside _ _ _ G HT), (clip_inside _ _ _ G HT'). rewrite !(step_shape k) by exact N. ring.
Qed.
End Two.

(** ** C137: any two inputs.  The difference of the variances of period t is at most what is left of the difference of the two starts and of
    the differences of all earlier residuals, each discounted by the decay parameter once per period; exactly that when no bound is active *)
Theorem C137_difference k ps bc bc' rs rs' bs s s' : 0 <= decay ps -> Forall good_row bs -> (length rs <= length bs)%nat -> length rs' = length rs ->
  variances k ps rs bc bs s -> variances k ps rs' bc' bs s' -> tame bs s -> tame bs s' -> forall t, (t < length rs)%nat ->
  Rabs (nth t s 0 - nth t s' 0) <= decay ps ^ t * (Rabs (start_weight ps) * Rabs (bc - bc'))
    + Rsum (map (fun j => decay ps ^ (t - 1 - j) * Rabs (impact ps (nth j rs 0) - impact ps (nth j rs' 0))) (seq 0 t)).
Proof. intros. apply (two_inequality k ps bc bc' rs rs' bs s s'); assumption. Qed.
Theorem C137_difference_exact k ps bc bc' rs rs' bs s s' : Forall good_row bs -> (length rs <= length bs)%nat -> length rs' = length rs ->
  variances k ps rs bc bs s -> variances k ps rs' bc' bs s' -> unclipped bs s -> unclipped bs s' -> forall t, (t < length rs)%nat ->
  nth t s 0 - nth t s' 0 = decay ps ^ t * (start_weight ps * (bc - bc'))
    + Rsum (map (fun j => decay ps ^ (t - 1 - j) * (impact ps (nth j rs 0) - impact ps (nth j rs' 0))) (seq 0 t)).
Proof. intros. apply (two_equality k ps bc bc' rs rs' bs s s'); assumption. Qed.
(** ** C137: the backcast *)
Lemma no_shock (f : R -> R) b (rs : list R) t : Rsum (map (fun j => b ^ (t - 1 - j) * Rabs (f (nth j rs 0) - f (nth j rs 0))) (seq 0 t)) = 0.
Proof. rewrite (Rsum_map_ext _ (fun j => 0 * 1)); [rewrite Rsum_mult_l; ring|]. intros j _. rewrite Rminus_diag, Rabs_R0. ring. Qed.
Theorem C137_backcast k ps bc bc' rs bs s s' : 0 <= decay ps -> Forall good_row bs -> (length rs <= length bs)%nat ->
  variances k ps rs bc bs s -> variances k ps rs bc' bs s' -> tame bs s -> tame bs s' -> forall t, (t < length rs)%nat ->
  Rabs (nth t s 0 - nth t s' 0) <= decay ps ^ t * (Rabs (start_weight ps) * Rabs (bc - bc')).
Proof.
  intros Hb HB HL V V' T T' t Ht. assert (G := C137_difference k ps bc bc' rs rs bs s s' Hb HB HL eq_refl V V' T T' t Ht). rewrite no_shock in G. lra.
Qed.
(** ** C137: a single residual, day i *)
Lemma one_shock (b : R) (e : nat -> R) i t : (forall j, j <> i -> e j = 0) -> (i < t)%nat -> Rsum (map (fun j => b ^ (t - 1 - j) * e j) (seq 0 t)) = b ^ (t - 1 - i) * e i.
Proof.
  intros H Hi. assert (E : seq 0 t = seq 0 i ++ i :: seq (S i) (t - 1 - i)) by (transitivity (seq 0 (i + S (t - 1 - i))); [f_equal; lia|rewrite seq_app; reflexivity]). rewrite E, map_app, Rsum_app. cbn [map Rsum].
  rewrite (Rsum_map_ext _ (fun j => 0 * 1) (seq 0 i)), (Rsum_map_ext _ (fun j => 0 * 1) (seq (S i) _)).
  - rewrite !Rsum_mult_l. ring.
  - intros j Hj. apply in_seq in Hj. rewrite H by lia. ring.
  - intros j Hj. apply in_seq in Hj. rewrite H by lia. ring.
Qed.
Theorem C137_shock k ps bc rs rs' bs s s' i : 0 <= decay ps -> Forall good_row bs -> (length rs <= length bs)%nat -> length rs' = length rs ->
  variances k ps rs bc bs s -> variances k ps rs' bc bs s' -> tame bs s -> tame bs s' -> (forall j, j <> i -> nth j rs 0 = nth j rs' 0) ->
  (forall t, (t < length rs)%nat -> (t <= i)%nat -> nth t s 0 = nth t s' 0) /\
  (forall t, (i < t < length rs)%nat -> Rabs (nth t s 0 - nth t s' 0) <= decay ps ^ (t - 1 - i) * Rabs (impact ps (nth i rs 0) - impact ps (nth i rs' 0))) /\
  (unclipped bs s -> unclipped bs s' -> forall t, (i < t < length rs)%nat -> nth t s 0 - nth t s' 0 = decay ps ^ (t - 1 - i) * (impact ps (nth i rs 0) - impact ps (nth i rs' 0))).
Proof.
  intros Hb HB HL HN V V' T T' HE. split; [|split].
  - intros t Ht Hi. assert (G := C137_difference k ps bc bc rs rs' bs s s' Hb HB HL HN V V' T T' t Ht). rewrite (Rsum_map_ext _ (fun j => 0 * 1)) in G.
    + rewrite Rsum_mult_l, Rminus_diag, Rabs_R0 in G. assert (A := Rabs_pos (nth t s 0 - nth t s' 0)). assert (E : Rabs (nth t s 0 - nth t s' 0) = 0) by lra. destruct (Req_dec (nth t s 0 - nth t s' 0) 0) as [Z | Z]; [lra|]. apply Rabs_no_R0 in Z. lra.
    + intros j Hj. apply in_seq in Hj. rewrite (HE j) by lia. rewrite Rminus_diag, Rabs_R0. ring.
  - intros t [Hi Ht]. assert (G := C137_difference k ps bc bc rs rs' bs s s' Hb HB HL HN V V' T T' t Ht). rewrite (one_shock _ (fun j => Rabs (impact ps (nth j rs 0) - impact ps (nth j rs' 0))) i t) in G.
    + rewrite Rminus_diag, Rabs_R0 in G. lra.
    + intros j Hj. rewrite (HE j Hj), Rminus_diag. apply Rabs_R0.
    + exact Hi.
  - intros U U' t [Hi Ht]. rewrite (C137_difference_exact k ps bc bc rs rs' bs s s' HB HL HN V V' U U' t Ht). rewrite (one_shock _ (fun j => impact ps (nth j rs 0) - impact ps (nth j rs' 0)) i t).
    + ring.
    + intros j Hj. rewrite (HE j Hj). ring.
    + exact Hi.
Qed.
(** ** C137: the log-likelihood.  The choice of the backcast moves the log-likelihood of a sample of any length by at most a constant, if the
    variances stay above [m] and the squared residuals below [q] *)
Lemma ln_close m a b : 0 < m -> m <= a -> m <= b -> Rabs (ln a - ln b) <= Rabs (a - b) / m.
Proof.
  intros Hm Ha Hb.
  assert (G : forall x y, m <= x -> x <= y -> 0 <= ln y - ln x <= (y - x) / m).
  { intros x y Hx Hy. split; [assert (ln x <= ln y) by (apply ln_le; lra); lra|]. rewrite <- ln_div by lra. replace (y / x) with (1 + (y - x) / x) by (field; lra).
    assert (0 <= (y - x) / x) by (apply Rmult_le_pos; [lra|apply Rlt_le, Rinv_0_lt_compat; lra]).
    apply Rle_trans with ((y - x) / x). { generalize (exp_ineq1_le (ln (1 + (y - x) / x))). rewrite exp_ln by lra. lra. }
    apply Rmult_le_compat_l; [lra|]. apply Rinv_le_contravar; lra. }
  destruct (Rle_dec a b) as [L | L].
  - specialize (G a b Ha L). rewrite Rabs_minus_sym, (Rabs_minus_sym a), !Rabs_pos_eq by lra. lra.
  - specialize (G b a Hb ltac:(lra)). rewrite !Rabs_pos_eq by lra. lra.
Qed.
Lemma inv_close m a b : 0 < m -> m <= a -> m <= b -> Rabs (/ a - / b) <= Rabs (a - b) / (m * m).
Proof.
  intros Hm Ha Hb. replace (/ a - / b) with ((b - a) * / (a * b)) by (field; lra). rewrite Rabs_mult, (Rabs_minus_sym b). apply Rmult_le_compat_l; [apply Rabs_pos|].
  rewrite Rabs_pos_eq by (apply Rlt_le, Rinv_0_lt_compat; nra). apply Rinv_le_contravar; nra.
Qed.
Lemma density_log v r : 0 < v -> ln (normal_density v r) = - r ^ 2 / (2 * v) - (ln (2 * PI) + ln v) / 2.
Proof.
  intros Hv. assert (P := PI_RGT_0). unfold normal_density, Rdiv at 1. assert (S0 : 0 < sqrt (2 * PI * v)) by (apply sqrt_lt_R0; nra).
  rewrite ln_mult, ln_exp, ln_Rinv by (try apply exp_pos; try apply Rinv_0_lt_compat; exact S0). rewrite <- ln_mult by lra.
  assert (E : ln (2 * PI * v) = 2 * ln (sqrt (2 * PI * v))) by (rewrite <- (sqrt_sqrt (2 * PI * v)) at 1 by nra; rewrite ln_mult by exact S0; ring). rewrite E. field. lra.
Qed.
Lemma density_close m q v v' r : 0 < m -> m <= v -> m <= v' -> r ^ 2 <= q -> Rabs (ln (normal_density v r) - ln (normal_density v' r)) <= (1 / m + q / (m * m)) / 2 * Rabs (v - v').
Proof.
  intros Hm Hv Hv' Hq. rewrite !density_log by lra.
  replace (- r ^ 2 / (2 * v) - (ln (2 * PI) + ln v) / 2 - (- r ^ 2 / (2 * v') - (ln (2 * PI) + ln v') / 2)) with (- (1 / 2) * (ln v - ln v') + (- (1 / 2) * r ^ 2) * (/ v - / v')) by (field; lra).
  eapply Rle_trans; [apply Rabs_triang|]. rewrite !Rabs_mult, !Rabs_Ropp. rewrite (Rabs_pos_eq (1 / 2)), (Rabs_pos_eq (r ^ 2)) by nra.
  assert (A := ln_close m v v' Hm Hv Hv'). assert (B := inv_close m v v' Hm Hv Hv'). assert (0 <= r ^ 2) by nra. assert (D := Rabs_pos (v - v')).
  assert (0 <= Rabs (v - v') / (m * m)) by (apply Rmult_le_pos; [exact D|apply Rlt_le, Rinv_0_lt_compat; nra]). assert (Z := Rabs_pos (/ v - / v')).
  assert (r ^ 2 * Rabs (/ v - / v') <= q * (Rabs (v - v') / (m * m))) by (apply Rmult_le_compat; lra).
  replace ((1 / m + q / (m * m)) / 2 * Rabs (v - v')) with (1 / 2 * (Rabs (v - v') / m) + 1 / 2 * (q * (Rabs (v - v') / (m * m)))) by (field; lra). nra.
Qed.
Lemma geometric_bound b c n : 0 <= b < 1 -> 0 <= c -> Rsum (map (fun t => b ^ t * c) (seq 0 n)) <= c / (1 - b).
Proof.
  intros Hb Hc. assert (E : Rsum (map (fun t => b ^ t * c) (seq 0 n)) = c * (1 - b ^ n) / (1 - b)).
  { induction n as [|n IH]; [cbn; field; lra|]. rewrite seq_S, map_app, Rsum_app, IH. cbn. field. lra. }
  rewrite E. apply Rmult_le_compat_r; [apply Rlt_le, Rinv_0_lt_compat; lra|]. assert (0 <= b ^ n) by (apply pow_le; lra). nra.
Qed.
Lemma sum_close K : forall rs s s' (d : nat -> R), length s = length rs -> length s' = length rs ->
  (forall t, (t < length rs)%nat -> Rabs (ln (normal_density (nth t s 0) (nth t rs 0)) - ln (normal_density (nth t s' 0) (nth t rs 0))) <= K * d t) ->
  Rabs (Rsum (map2 (fun r v => ln (normal_density v r)) rs s) - Rsum (map2 (fun r v => ln (normal_density v r)) rs s')) <= K * Rsum (map d (seq 0 (length rs))).
Proof.
  induction rs as [|r rs IH]; intros [|v s] [|v' s'] d L L' H; try discriminate; [cbn; rewrite Rminus_diag, Rabs_R0; lra|]. cbn [map2 Rsum length seq map].
  injection L as L. injection L' as L'. specialize (IH s s' (fun t => d (S t)) L L' (fun t Ht => H (S t) (proj1 (Nat.succ_lt_mono _ _) Ht))). rewrite <- seq_shift, map_map.
  assert (G := H 0%nat ltac:(cbn; lia)). cbn [nth] in G.
  match goal with |- Rabs (?a + ?x - (?b + ?y)) <= _ => replace (a + x - (b + y)) with ((a - b) + (x - y)) by ring end. eapply Rle_trans; [apply Rabs_triang|]. lra.
Qed.
Theorem C137_loglikelihood k ps bc bc' rs bs s s' m q : 0 <= decay ps < 1 -> Forall good_row bs -> (length rs <= length bs)%nat ->
  variances k ps rs bc bs s -> variances k ps rs bc' bs s' -> tame bs s -> tame bs s' ->
  0 < m -> Forall (fun v => m <= v) s -> Forall (fun v => m <= v) s' -> Forall (fun r => r ^ 2 <= q) rs ->
  exists l l', loglikelihood XRA (map Fin rs) (map Fin s) = Fin l /\ loglikelihood XRA (map Fin rs) (map Fin s') = Fin l' /\
  Rabs (l - l') <= (1 / m + q / (m * m)) / 2 * (Rabs (start_weight ps) * Rabs (bc - bc') / (1 - decay ps)).
Proof.
  intros Hb HB HL V V' T T' Hm Hs Hs' Hq. destruct (variances_path _ _ _ _ _ _ HB V) as (_ & L & _). destruct (variances_path _ _ _ _ _ _ HB V') as (_ & L' & _).
  eexists. eexists. split; [apply C11_gaussian_loglik; [exact L|eapply Forall_impl; [|exact Hs]; cbn; intros; lra]|]. split; [apply C11_gaussian_loglik; [exact L'|eapply Forall_impl; [|exact Hs']; cbn; intros; lra]|].
  rewrite Forall_forall in Hs, Hs', Hq.
  destruct rs as [|r0 rs0]; [destruct s; [|discriminate]; destruct s'; [|discriminate]|].
  { exfalso. destruct (proj1 (C02_defined XRA k (map Fin ps) (map Fin []) (Fin bc) (map finrow bs)) (ex_intro _ (map Fin []) V)) as (_ & H & _). apply H. reflexivity. }
  set (rs := r0 :: rs0) in *. assert (Q0 : 0 <= q) by (apply Rle_trans with (r0 ^ 2); [nra|apply Hq; left; reflexivity]).
  assert (K0 : 0 <= (1 / m + q / (m * m)) / 2). { assert (0 < / m) by (apply Rinv_0_lt_compat; lra). assert (0 <= q / (m * m)) by (apply Rmult_le_pos; [exact Q0|apply Rlt_le, Rinv_0_lt_compat; nra]). lra. }
  eapply Rle_trans; [apply (sum_close ((1 / m + q / (m * m)) / 2) rs s s' (fun t => decay ps ^ t * (Rabs (start_weight ps) * Rabs (bc - bc'))) L L')|].
  - intros t Ht. eapply Rle_trans; [apply (density_close m q); [exact Hm|apply Hs, nth_In; lia|apply Hs', nth_In; lia|apply Hq, nth_In; exact Ht]|].
    apply Rmult_le_compat_l; [exact K0|]. apply (C137_backcast k ps bc bc' rs bs s s'); try assumption. lra.
  - apply Rmult_le_compat_l; [exact K0|]. apply geometric_bound; [exact Hb|]. apply Rmult_le_pos; apply Rabs_pos.
Qed.
(** ** C137: an upper bound below one can amplify the influence of the backcast by any factor *)
Theorem C137_small_upper_refuted K : 0 < K -> exists ps bc bc' rs bs s s', 0 <= decay ps < 1 /\ Forall good_row bs /\ length rs = length bs /\
  variances KGarch ps rs bc bs s /\ variances KGarch ps rs bc' bs s' /\
  K * (decay ps ^ 1 * (Rabs (start_weight ps) * Rabs (bc - bc'))) < Rabs (nth 1 s 0 - nth 1 s' 0).
Proof.
  intros HK. set (u := / (8 * K)). assert (U : 0 < u) by (apply Rinv_0_lt_compat; lra).
  assert (G : good_row (u / 1000000000000, u)) by (split; cbn; lra).
  assert (GB : Forall good_row [(u / 1000000000000, u); (u / 1000000000000, u)]) by (constructor; [exact G|]; constructor; [exact G|constructor]).
  destruct (C02_garch_path u 0 (1/2) (2 * u) [0; 0] [(u / 1000000000000, u); (u / 1000000000000, u)] ltac:(discriminate) eq_refl GB) as (s & E & P).
  destruct (C02_garch_path u 0 (1/2) (10 * u) [0; 0] [(u / 1000000000000, u); (u / 1000000000000, u)] ltac:(discriminate) eq_refl GB) as (s' & E' & P').
  exists [u; 0; 1/2], (2 * u), (10 * u), [0; 0], [(u / 1000000000000, u); (u / 1000000000000, u)], s, s'.
  split; [unfold decay; cbn; lra|]. split; [exact GB|]. split; [reflexivity|]. split; [exact E|]. split; [exact E'|].
  destruct P as (_ & P0 & P1). destruct P' as (_ & Q0 & Q1). specialize (P1 0%nat ltac:(cbn; lia)). specialize (Q1 0%nat ltac:(cbn; lia)). rewrite P1, Q1, P0, Q0.
  unfold decay, start_weight, garch_update. cbn [last nth fst snd]. unfold clip_log.
  destruct (Rle_dec _ _) as [B|_]; [exfalso; lra|]. destruct (Rle_dec _ _) as [B|_]; [exfalso; lra|]. destruct (Rle_dec _ _) as [B|_]; [exfalso; lra|]. destruct (Rle_dec _ _) as [B|_]; [exfalso; lra|].
  replace ((u + 0 * 0 ^ 2 + 1 / 2 * (u + (0 + 1 / 2) * (2 * u))) / u) with 2 by (field; lra).
  replace ((u + 0 * 0 ^ 2 + 1 / 2 * (u + (0 + 1 / 2) * (10 * u))) / u) with (2 * 2) by (field; lra). rewrite ln_mult by lra.
  assert (L2 := ln_lt_2). rewrite (Rabs_left (u + ln 2 - (u + (ln 2 + ln 2)))) by lra. rewrite (Rabs_pos_eq (0 + 1 / 2)) by lra. rewrite (Rabs_left (2 * u - 10 * u)) by lra.
  assert (EK : K * u = / 8) by (unfold u; field; lra). nra.
Qed.
(** ** C137: the exponentially weighted average forgets its initial value at the rate of its weight *)
Theorem C137_ewma lam rs v0 v0' v v' : rs <> [] ->
  ewma_py XRA (map Fin rs) (Fin v0) (Fin lam) = Ok (map Fin v) -> ewma_py XRA (map Fin rs) (Fin v0') (Fin lam) = Ok (map Fin v') ->
  forall t, (t < length rs)%nat -> nth t v 0 - nth t v' 0 = lam ^ t * (v0 - v0').
Proof.
  intros Hn E E' t Ht. destruct (C05_ewma_closed_form rs v0 lam Hn) as (w & F & _ & C & _). destruct (C05_ewma_closed_form rs v0' lam Hn) as (w' & F' & _ & C' & _).
  assert (X : Ok (map Fin v) = Ok (map Fin w)) by (rewrite <- E, <- F; reflexivity). assert (X' : Ok (map Fin v') = Ok (map Fin w')) by (rewrite <- E', <- F'; reflexivity).
  injection X as X. injection X' as X'. apply Fin_inj_list in X, X'. subst v v'. rewrite C, C' by exact Ht. ring.
Qed.

(** Concrete case: two backcasts and two first residuals, no bound active *)
Example C137_case : let ps := [1/10; 1/10; 8/10] in let bs := [(1/100, 100); (1/100, 100); (1/100, 100)] in
  variances KGarch ps [1; -2; 1] 1 bs [1; 1; 13/10] /\ variances KGarch ps [1; -2; 1] 2 bs [19/10; 172/100; 1876/1000] /\ variances KGarch ps [3; -2; 1] 1 bs [1; 18/10; 194/100] /\
  Forall good_row bs /\ 0 <= decay ps < 1 /\
  (forall s, s = [1; 1; 13/10] \/ s = [19/10; 172/100; 1876/1000] \/ s = [1; 18/10; 194/100] -> tame bs s /\ unclipped bs s /\ Forall (fun v => 1 <= v) s) /\
  19/10 - 1 = 9/10 * (2 - 1) /\ 1876/1000 - 13/10 = (8/10) ^ 2 * (9/10 * (2 - 1)) /\ 194/100 - 13/10 = (8/10) ^ 1 * (impact ps 3 - impact ps 1).
Proof.
  cbv zeta. set (bs := [(1/100, 100); (1/100, 100); (1/100, 100)]).
  assert (V : forall bc rs s, length rs = 3%nat -> variance_path (garch_update (1/10) (1/10) (8/10)) (1/10 + (1/10 + 8/10) * bc) rs bs s -> variances KGarch [1/10; 1/10; 8/10] rs bc bs s).
  { intros bc rs s L P. assert (GB : Forall good_row bs) by (repeat (constructor; [split; cbn; lra|]); constructor).
    destruct (C02_garch_path (1/10) (1/10) (8/10) bc rs bs ltac:(destruct rs; [discriminate|congruence]) ltac:(rewrite L; reflexivity) GB) as (s' & E & Q). unfold variances. cbn [compute_variance map].
    replace s with s'; [exact E|]. destruct P as (P0 & P1 & P2). destruct Q as (Q0 & Q1 & Q2). apply (nth_ext _ _ 0 0); [lia|]. intros t _. 
    destruct (Nat.lt_ge_cases t 3) as [Ht | Ht]; [|rewrite !nth_overflow by lia; reflexivity].
    induction t as [|t IH]; [rewrite P1, Q1; reflexivity|]. rewrite P2, Q2, IH by lia. reflexivity. }
  assert (C : forall s, 1/100 <= s <= 100 -> clip_log s (1/100) 100 = s) by (intros; apply clip_log_id; assumption).
  assert (F : forall bc rs s, length rs = 3%nat -> length s = 3%nat -> (nth 0 s 0 = 1/10 + 9/10 * bc /\ nth 1 s 0 = 1/10 + 1/10 * nth 0 rs 0 ^ 2 + 8/10 * nth 0 s 0 /\ nth 2 s 0 = 1/10 + 1/10 * nth 1 rs 0 ^ 2 + 8/10 * nth 1 s 0) -> 1 <= nth 1 s 0 <= 2 -> 1 <= nth 2 s 0 <= 2 -> variances KGarch [1/10; 1/10; 8/10] rs bc bs s).
  { intros bc rs s L LS (E0 & E1 & E2) B1 B2. apply V; [exact L|]. split; [lia|]. split; [rewrite E0; field|]. intros t Ht. rewrite L in Ht.
    assert (K : t = 0%nat \/ t = 1%nat) by lia. unfold garch_update. destruct K as [-> | ->]; cbn [nth bs fst snd]; rewrite C; lra. }
  split; [apply F; cbn; try reflexivity; lra|]. split; [apply F; cbn; try reflexivity; lra|]. split; [apply F; cbn; try reflexivity; lra|].
  split; [repeat (constructor; [split; cbn; lra|]); constructor|]. split; [unfold decay; cbn; lra|]. split.
  - intros s H. split; [|split].
    + intros t Ht. left. assert (K : t = 1%nat \/ t = 2%nat) by (destruct H as [-> | [-> | ->]]; cbn in Ht; lia). destruct K as [-> | ->]; cbn; lra.
    + intros t Ht. assert (K : t = 1%nat \/ t = 2%nat) by (destruct H as [-> | [-> | ->]]; cbn in Ht; lia). destruct K as [-> | ->]; destruct H as [-> | [-> | ->]]; cbn; lra.
    + destruct H as [-> | [-> | ->]]; repeat constructor; lra.
  - split; [lra|]. split; [lra|]. unfold impact. lra.
Qed.
