(** * Theorems: documentation of the GJR, Kyle's lambda and Z-score pages (C115, C116, C117) *)
From Coq Require Import Reals Lra.
From Coquelicot Require Import Coquelicot.
From Coq Require Import List ZArith Lia Bool Arith.
From Verif Require Import Arith XR RealAux Gauss Model_garch Model_measures Spec_garch Spec_measures
  Proofs_garch Proofs_garch2 Proofs_garch3 Proofs_garch4 Proofs_garch5 Proofs_measures Props_measures Props_expect.
Import ListNotations.
Local Open Scope R_scope.

(** ** C115: the comparison with Stata's tarch.  Stata's recursion has the indicator of POSITIVE shocks. *)
Definition stata_update (omega alpha gamma beta : R) (prev r : R) : R :=
  omega + (alpha + (if Rlt_dec 0 r then gamma else 0)) * r ^ 2 + beta * prev.
Lemma stata_step o a g b p r : stata_update o (a + g) (- g) b p r = gjr_update o a g b p r.
Proof.
  unfold stata_update, gjr_update. destruct (Rlt_dec 0 r), (Rlt_dec r 0); try lra.
  assert (r = 0) by lra. subst r. ring.
Qed.
Lemma path_step_ext f g s0 r b s : (forall p x, f p x = g p x) -> variance_path f s0 r b s -> variance_path g s0 r b s.
Proof. intros E (L & Z & P). split; [auto|]. split; [auto|]. intros t Ht. rewrite P by auto. now rewrite E. Qed.

(** The code's variances are those of Stata's recursion with gamma negated AND alpha raised by gamma, for every residual series
    (zero residuals included), with the matching first value. *)
Theorem C115_stata_equivalent : forall o a g b rs bc bs, rs <> [] -> (length rs <= length bs)%nat -> Forall good_row (tl bs) ->
  exists s, compute_variance XRA KGjr (map Fin [o; a; g; b]) (map Fin rs) (Fin bc) (map finrow bs) = Ok (map Fin s) /\
    variance_path (stata_update o (a + g) (- g) b) (o + ((a + g) + - g / 2 + b) * bc) rs bs s.
Proof.
  intros o a g b rs bc bs Hn HL HG. destruct (cv_fin KGjr [o; a; g; b] rs bc bs eq_refl Hn HL HG) as (s & E & HP).
  exists s. split; [exact E|]. cbn [stepR s0R] in HP. replace (o + ((a + g) + - g / 2 + b) * bc) with (o + (a + g / 2 + b) * bc) by field.
  eapply path_step_ext; [|exact HP]. intros. symmetry. apply stata_step.
Qed.
(** No other Stata parameters give the same updates. *)
Theorem C115_stata_unique : forall o a g b o' a' g' b',
  (forall p r, stata_update o' a' g' b' p r = gjr_update o a g b p r) <-> o' = o /\ a' = a + g /\ g' = - g /\ b' = b.
Proof.
  intros o a g b o' a' g' b'. split.
  - intros H. pose proof (H 0 0) as H0. pose proof (H 1 0) as H1. pose proof (H 0 1) as H2. pose proof (H 0 (-1)) as H3.
    unfold stata_update, gjr_update in *. repeat destruct (Rlt_dec _ _); try lra.
  - intros (-> & -> & -> & ->). intros. apply stata_step.
Qed.
(** So the warning "gamma is the negative of Stata's" read with alpha unchanged is wrong for every non-zero shock: the update is off by exactly gamma r^2. *)
Theorem C115_only_gamma_negated_refuted : forall o a g b p r, r <> 0 ->
  stata_update o a (- g) b p r = gjr_update o a g b p r - g * r ^ 2.
Proof. intros o a g b p r Hr. unfold stata_update, gjr_update. destruct (Rlt_dec 0 r), (Rlt_dec r 0); try lra; ring. Qed.
(** Estimates within the box gamma >= 1e-6 mean: negative gamma in Stata's notation, i.e. only the leverage effect, never its reverse. *)
Theorem C115_box_is_leverage : forall g, (exists lo hi, nth 2 (fit_bounds XRA KGjr true) (NaN, NaN) = (Fin lo, Fin hi) /\ lo <= g <= hi) <-> - 1 <= - g <= - (1 / 1000000).
Proof.
  intros g. cbn [fit_bounds tl nth]. split.
  - intros (lo & hi & E & H). assert (E1 := f_equal (fun q => fin_val (fst q)) E). assert (E2 := f_equal (fun q => fin_val (snd q)) E).
    cbn in E1, E2. lra.
  - intros H. exists (1 / 1000000), 1. split; [reflexivity|]. lra.
Qed.
Example C115_case : gjr_update 1 (1/10) (1/5) (1/2) 4 (-2) = 4.2 /\ stata_update 1 (1/10 + 1/5) (- (1/5)) (1/2) 4 (-2) = 4.2 /\
  stata_update 1 (1/10) (- (1/5)) (1/2) 4 (-2) = 3.4 /\ Forall good_row (tl [(1, 2); (1, 2)]).
Proof.
  unfold gjr_update, stata_update. repeat destruct (Rlt_dec _ _); try lra. repeat split; try lra.
  cbn [tl]. repeat constructor; unfold good_row; cbn; lra.
Qed.

(** ** C116: Kyle's lambda.  The page defines the regressor of a period from the signed dollar volumes of its trades: *)
Definition signed_root (v : R) : R := if Rlt_dec v 0 then - sqrt (- v) else sqrt v.
Definition documented_S (trades : list R) : R := Rsum (map signed_root trades).
(** ... the argument of the function is named and documented "signed dollar volume": *)
Definition dollar_volume (trades : list R) : R := Rsum trades.
(** documented estimate: least-squares slope (no intercept) on documented_S, times a million *)
Definition documented_lambda (returns : list R) (periods : list (list R)) : R :=
  1000000 * (Rsum (map2 Rmult (map documented_S periods) returns) / Rsum (map2 Rmult (map documented_S periods) (map documented_S periods))).

(** The function returns the documented estimate when it is handed the signed square-root volumes, not the dollar volumes. *)
Theorem C116_needs_root_volumes : forall lstsq returns periods, lstsq_ok lstsq -> length returns = length periods ->
  (exists p, In p periods /\ documented_S p <> 0) ->
  kyle_lambda XRA lstsq (map Fin returns) (map Fin (map documented_S periods)) = Ok (Fin (documented_lambda returns periods)).
Proof.
  intros ls r ps H HL (p & Hp & Hn). apply C35_value; auto; [rewrite map_length; auto|].
  exists (documented_S p). split; [apply in_map; auto|auto].
Qed.
Lemma signed_root_scale d v : 0 < d -> signed_root (d * v) = sqrt d * signed_root v.
Proof.
  intros Hd. unfold signed_root. destruct (Rlt_dec v 0).
  - destruct (Rlt_dec (d * v) 0) as [|n].
    + replace (- (d * v)) with (d * - v) by ring. rewrite sqrt_mult by lra. ring.
    + exfalso. apply n. assert (0 < d * - v) by (apply Rmult_lt_0_compat; lra). lra.
  - destruct (Rlt_dec (d * v) 0) as [q|].
    + exfalso. assert (0 <= d * v) by (apply Rmult_le_pos; lra). lra.
    + apply sqrt_mult; lra.
Qed.
Lemma Rsum_map_scale {X} (f g : X -> R) c l : (forall x, f x = c * g x) -> Rsum (map f l) = c * Rsum (map g l).
Proof. intros E. induction l as [|x l IH]; cbn; [ring|rewrite E, IH; ring]. Qed.
Lemma documented_S_scale d p : 0 < d -> documented_S (map (Rmult d) p) = sqrt d * documented_S p.
Proof. intros Hd. unfold documented_S. rewrite map_map. apply Rsum_map_scale. intros. apply signed_root_scale; auto. Qed.
Lemma sum_xy_scale c l r : Rsum (map2 Rmult (map (Rmult c) l) r) = c * Rsum (map2 Rmult l r).
Proof. revert r. induction l as [|x l IH]; intros [|y r]; cbn [map map2 Rsum]; try ring. rewrite IH. ring. Qed.
Lemma sum_xx_scale c l : Rsum (map2 Rmult (map (Rmult c) l) (map (Rmult c) l)) = c * c * Rsum (map2 Rmult l l).
Proof. induction l as [|x l IH]; cbn [map map2 Rsum]; try ring. rewrite IH. ring. Qed.

(** With dollar volumes it computes another quantity, not a rescaling of the documented one: multiplying all volumes by d divides the
    documented lambda by sqrt d, the returned one by d. *)
Theorem C116_documented_scaling : forall d returns periods, 0 < d -> (exists p, In p periods /\ documented_S p <> 0) ->
  documented_lambda returns (map (map (Rmult d)) periods) = documented_lambda returns periods / sqrt d.
Proof.
  intros d r ps Hd (p & Hp & Hn). unfold documented_lambda. rewrite map_map.
  assert (E : map (fun x => documented_S (map (Rmult d) x)) ps = map (Rmult (sqrt d)) (map documented_S ps)).
  { rewrite map_map. apply map_ext. intros. apply documented_S_scale; auto. }
  rewrite E, sum_xy_scale, sum_xx_scale. assert (0 < sqrt d) by (apply sqrt_lt_R0; auto).
  assert (HS : 0 < Rsum (map2 Rmult (map documented_S ps) (map documented_S ps))) by (apply (Sxx_pos _ (documented_S p)); auto; apply in_map; auto).
  field. split; lra.
Qed.
Theorem C116_dollar_volume_scaling : forall lstsq d returns periods lam, lstsq_ok lstsq -> 0 < d ->
  kyle_lambda XRA lstsq (map Fin returns) (map Fin (map dollar_volume periods)) = Ok (Fin lam) ->
  kyle_lambda XRA lstsq (map Fin returns) (map Fin (map dollar_volume (map (map (Rmult d)) periods))) = Ok (Fin (lam / d)).
Proof.
  intros ls d r ps lam H Hd E. apply (C35_scaling ls r (map dollar_volume ps) lam 1 d H) in E; [|lra].
  replace (map (Rmult 1) r) with r in E by (rewrite <- (map_id r) at 1; apply map_ext; intros; ring).
  assert (EV : map dollar_volume (map (map (Rmult d)) ps) = map (Rmult d) (map dollar_volume ps)).
  { rewrite !map_map. apply map_ext. intros p. unfold dollar_volume. induction p as [|x p IH]; cbn; [ring|rewrite IH; ring]. }
  rewrite EV, E. do 2 f_equal. field. lra.
Qed.
(** the two can disagree even in sign: one large buy against several small sells *)
Theorem C116_dollar_volume_refuted : forall lstsq, lstsq_ok lstsq -> exists returns periods lam,
  kyle_lambda XRA lstsq (map Fin returns) (map Fin (map dollar_volume periods)) = Ok (Fin lam) /\
  0 < lam /\ documented_lambda returns periods < 0.
Proof.
  intros ls H. exists [1], [[9; -1; -1; -1; -1; -1]], 250000.
  assert (R9 : signed_root 9 = 3). { unfold signed_root. destruct (Rlt_dec 9 0); [lra|]. replace 9 with (3 * 3) by ring. apply sqrt_square. lra. }
  assert (R1 : signed_root (-1) = -1). { unfold signed_root. destruct (Rlt_dec (-1) 0); [|lra]. replace (- -1) with 1 by ring. rewrite sqrt_1. ring. }
  split; [|split; [lra|]].
  - rewrite C35_value; auto; cbn [map dollar_volume Rsum map2].
    + do 2 f_equal. unfold dollar_volume. cbn [Rsum]. field.
    + exists 4. split; [left; unfold dollar_volume; cbn [Rsum]; ring|lra].
  - unfold documented_lambda, documented_S. cbn [map Rsum map2]. rewrite R9, R1. lra.
Qed.
Example C116_case : documented_S [9; -4] = 1 /\ dollar_volume [9; -4] = 5 /\ documented_lambda [2] [[9; -4]] = 2000000.
Proof.
  assert (R9 : signed_root 9 = 3). { unfold signed_root. destruct (Rlt_dec 9 0); [lra|]. replace 9 with (3 * 3) by ring. apply sqrt_square. lra. }
  assert (R4 : signed_root (-4) = -2). { unfold signed_root. destruct (Rlt_dec (-4) 0); [|lra]. replace (- -4) with (2 * 2) by ring. rewrite sqrt_square by lra. ring. }
  unfold documented_lambda, documented_S, dollar_volume. cbn [map Rsum map2]. rewrite R9, R4. repeat split; try lra.
Qed.

(** ** C117: the Z-score as a distance to insolvency *)
(** number of past periods whose loss would have reached the capital ratio *)
Definition insolvent_periods (cr : R) (past : list R) : list R := filter (fun x => if Rle_dec cr (- x) then true else false) past.
Lemma cantelli mu a lam cr past : 0 < lam + a -> lam = mu + cr ->
  INR (length (insolvent_periods cr past)) * (lam + a) ^ 2 <= Rsum (map (fun x => (x - mu - a) ^ 2) past).
Proof.
  intros Hp ->. unfold insolvent_periods. induction past as [|x l IH]; cbn [filter map Rsum length].
  - cbn. lra.
  - destruct (Rle_dec cr (- x)).
    + cbn [length]. rewrite S_INR. assert ((mu + cr + a) ^ 2 <= (x - mu - a) ^ 2); [|lra].
      replace ((x - mu - a) ^ 2) with ((mu + a - x) ^ 2) by ring. apply pow_incr. lra.
    + pose proof (pow2_ge_0 (x - mu - a)). lra.
Qed.
Lemma Rsum_centered mu a l : Rsum (map (fun x => (x - mu - a) ^ 2) l) = Rsum (map (fun x => (x - mu) ^ 2) l) - 2 * a * (Rsum l - INR (length l) * mu) + INR (length l) * a ^ 2.
Proof.
  induction l as [|x l IH]; [cbn; ring|]. cbn [map Rsum length]. rewrite S_INR, IH. ring.
Qed.
(** With the current ROA at its past mean and a positive score Z, at most a fraction 1/(1+Z^2) of the past periods had a loss that would
    exhaust the current capital - whatever the distribution. *)
Theorem C117_distribution_free : forall cr past z, not_constant past ->
  z_score XRA (Fin (Rmean past)) (Fin cr) (map Fin past) = Fin z -> 0 < z ->
  INR (length (insolvent_periods cr past)) / INR (length past) <= 1 / (1 + z ^ 2).
Proof.
  intros cr past z H E Hz. destruct (C36_value (Rmean past) cr past H) as [V HP]. rewrite V in E. apply (f_equal fin_val) in E. cbn [fin_val] in E.
  assert (Hn : past <> []) by (destruct H as (x & y & Hx & _); intros ->; inversion Hx).
  set (mu := Rmean past) in *. set (sd := Rstd past) in *. set (lam := mu + cr) in *.
  assert (El : lam = z * sd) by (rewrite <- E; field; lra). assert (Hl : 0 < lam) by (rewrite El; apply Rmult_lt_0_compat; auto).
  set (a := sd ^ 2 / lam). assert (Ha : 0 < a) by (unfold a; apply Rdiv_lt_0_compat; auto; apply pow_lt; auto).
  pose proof (cantelli mu a lam cr past ltac:(lra) eq_refl) as C. rewrite Rsum_centered in C.
  assert (HN : 0 < INR (length past)) by (apply lt_0_INR; destruct past; [tauto|cbn; lia]).
  assert (Em : Rsum past - INR (length past) * mu = 0) by (unfold mu, Rmean; field; lra).
  assert (Ev : Rsum (map (fun x => (x - mu) ^ 2) past) = INR (length past) * sd ^ 2).
  { unfold sd, Rstd. fold mu. rewrite <- Rsqr_pow2, Rsqr_sqrt.
    - unfold Rmean. rewrite map_length. field. lra.
    - unfold Rmean. apply Rmult_le_pos; [|left; apply Rinv_0_lt_compat; rewrite map_length; auto]. apply Rsum_nonneg. intros x Hx. apply in_map_iff in Hx as (y & <- & _). apply pow2_ge_0. }
  rewrite Em, Ev in C. set (m := INR (length (insolvent_periods cr past))) in *. set (N := INR (length past)) in *.
  assert (C2 : m * (lam + a) ^ 2 <= N * (sd ^ 2 + a ^ 2)) by lra.
  assert (Ea : (sd ^ 2 + a ^ 2) * (1 + z ^ 2) = (lam + a) ^ 2).
  { unfold a. rewrite El. field. split; lra. }
  assert (Hs : 0 < sd ^ 2 + a ^ 2) by (assert (0 < sd ^ 2) by (apply pow_lt; auto); pose proof (pow2_ge_0 a); lra).
  rewrite <- Ea in C2. assert (C3 : m * (1 + z ^ 2) <= N).
  { apply (Rmult_le_reg_r (sd ^ 2 + a ^ 2)); auto. lra. }
  assert (H1 : 0 < 1 + z ^ 2) by (pose proof (pow2_ge_0 z); lra).
  apply le_div_iff; auto. replace (m / N * (1 + z ^ 2)) with (m * (1 + z ^ 2) / N) by (field; lra).
  apply (Rmult_le_reg_r N); auto. replace (m * (1 + z ^ 2) / N * N) with (m * (1 + z ^ 2)) by (field; lra). lra.
Qed.
(** the bound is attained *)
Theorem C117_bound_attained : exists cr past z, not_constant past /\ 0 < z /\
  z_score XRA (Fin (Rmean past)) (Fin cr) (map Fin past) = Fin z /\
  INR (length (insolvent_periods cr past)) / INR (length past) = 1 / (1 + z ^ 2).
Proof.
  assert (H : not_constant [1; -1]) by (exists 1, (-1); cbn; repeat split; auto; lra).
  exists 1, [1; -1], 1. split; auto. split; [lra|]. destruct (C36_value (Rmean [1; -1]) 1 _ H) as [-> _].
  assert (ES : Rstd [1; -1] = 1). { unfold Rstd. transitivity (sqrt 1); [f_equal; unfold Rmean; cbn; field|apply sqrt_1]. }
  assert (EM : Rmean [1; -1] = 0) by (unfold Rmean; cbn; field). rewrite ES, EM. split; [f_equal; field|].
  unfold insolvent_periods. cbn [filter]. destruct (Rle_dec 1 (- (1))); [lra|]. destruct (Rle_dec 1 (- -1)); [|lra]. cbn. field.
Qed.
(** Under the page's normality assumption - profit/assets normal with mean roa and the sample standard deviation - the probability that
    the loss exceeds the capital ratio is Phi(-Z): strictly decreasing in the score, and the score is its exact inverse. *)
Lemma below_prob c : normal_mean (fun z => if Rlt_dec z c then 1 else 0) (Phi c).
Proof.
  intros eps He. destruct (tails eps 0 He) as (M0 & HM0 & HM). exists (Rmax M0 (Rabs c)).
  assert (M0 <= Rmax M0 (Rabs c)) by apply Rmax_l. assert (L3 : Rabs c <= Rmax M0 (Rabs c)) by apply Rmax_r.
  assert (A1 := Rle_abs c). assert (A2 := Rle_abs (- c)). rewrite Rabs_Ropp in A2. intros a b Ha Hb.
  exists (Phi c - Phi a + 0). split.
  - apply (is_RInt_Chasles (V := R_NormedModule) _ a c b (Phi c - Phi a) 0).
    + pose proof (integral_lognormal 1 0 a c) as I. rewrite !Rminus_0_r, !Rmult_1_l in I. eapply is_RInt_ext; [|exact I].
      intros z Hz. rewrite Rmin_left, Rmax_right in Hz by lra. destruct (Rlt_dec z c); [|lra].
      replace (0 * z - 0 ^ 2 / 2) with 0 by field. rewrite exp_0. match goal with |- ?a = ?b => change (@eq R a b) end. ring.
    + apply (is_RInt_ext (fun _ => 0)).
      * intros z Hz. rewrite Rmin_left, Rmax_right in Hz by lra. destruct (Rlt_dec z c); [lra|]. symmetry. apply Rmult_0_l.
      * assert (IC := is_RInt_const (V := R_NormedModule) c b 0). assert (E0 : @scal R_Ring R_ModuleSpace (b - c) 0 = 0) by (apply Rmult_0_r).
        exact (eq_rect _ (fun w => is_RInt _ c b w) IC _ E0).
  - destruct (HM (- a) ltac:(lra)) as [_ T2]. rewrite Ropp_involutive, Rminus_0_r in T2. assert (R2 := Phi_range a). apply Rabs_def1; lra.
Qed.
Theorem C117_normal_insolvency : forall roa cr past z, not_constant past ->
  z_score XRA (Fin roa) (Fin cr) (map Fin past) = Fin z ->
  normal_mean (fun u => if Rlt_dec cr (- (roa + Rstd past * u)) then 1 else 0) (Phi (- z)).
Proof.
  intros roa cr past z H E. destruct (C36_value roa cr past H) as [V HP]. rewrite V in E. apply (f_equal fin_val) in E. cbn [fin_val] in E. subst z.
  eapply mean_ext; [|apply below_prob]. intros u. cbn beta. set (sd := Rstd past) in *.
  assert (EQ : - ((roa + cr) / sd) = (- roa - cr) / sd) by (field; lra). rewrite EQ.
  destruct (Rlt_dec u _) as [h|h], (Rlt_dec cr _) as [h'|h']; auto; exfalso.
  - apply h'. apply lt_div_iff in h; auto. lra.
  - apply h. apply lt_div_iff; auto. lra.
Qed.
Theorem C117_ranks_banks : forall roa cr past z roa' cr' past' z' p p', not_constant past -> not_constant past' ->
  z_score XRA (Fin roa) (Fin cr) (map Fin past) = Fin z -> z_score XRA (Fin roa') (Fin cr') (map Fin past') = Fin z' ->
  normal_mean (fun u => if Rlt_dec cr (- (roa + Rstd past * u)) then 1 else 0) p ->
  normal_mean (fun u => if Rlt_dec cr' (- (roa' + Rstd past' * u)) then 1 else 0) p' ->
  (z < z' <-> p' < p).
Proof.
  intros roa cr past z roa' cr' past' z' p p' H H' E E' P P'.
  rewrite (mean_unique _ _ _ P (C117_normal_insolvency _ _ _ _ H E)), (mean_unique _ _ _ P' (C117_normal_insolvency _ _ _ _ H' E')).
  split; intros HH.
  - apply Phi_increasing. lra.
  - apply Rnot_le_lt. intros HC. assert (Phi (- z) <= Phi (- z')) by (apply Phi_nondecreasing; lra). lra.
Qed.
Example C117_case : not_constant [3; 5] /\ z_score XRA (Fin (Rmean [3; 5])) (Fin 2) (map Fin [3; 5]) = Fin 6 /\
  insolvent_periods (-4) [3; 5] = [3].
Proof.
  assert (H : not_constant [3; 5]) by (exists 3, 5; cbn; repeat split; auto; lra). split; auto. split.
  - destruct (C36_value (Rmean [3; 5]) 2 _ H) as [-> _]. f_equal. replace (Rstd [3; 5]) with 1; [unfold Rmean; cbn; field|].
    symmetry. unfold Rstd. transitivity (sqrt 1); [f_equal; unfold Rmean; cbn; field|apply sqrt_1].
  - unfold insolvent_periods. cbn [filter]. destruct (Rle_dec (-4) (- (3))); [|lra]. destruct (Rle_dec (-4) (- (5))); [lra|]. reflexivity.
Qed.
