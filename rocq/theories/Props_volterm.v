(** * Property C130: the market volatility simulated by LRMES, averaged over every possible bootstrap draw *)
From Coq Require Import Reals Lra Lia ZArith List Bool.
From Verif Require Import Arith XR RealAux Spec_garch Model_lrmes Props_mgarch Props_lrmes Props_lrmes2 Draws.
Import ListNotations.
Local Open Scope R_scope.

(** the days drawn for one scenario of horizon [h] from a sample of [n] days: n^h possibilities *)
Definition day_draws (n h : nat) : list (list nat) := sequences (seq 0 n) h.
(** the shocks of the days drawn *)
Definition shocks_of (xi zm : list R) (d : list nat) : list (R * R) := map (fun k => (nth k xi 0, nth k zm 0)) d.
(** simulated market log returns in percent, day by day *)
Definition market_log_returns (s : setting) (shocks : list (R * R)) : list R := map (fun p => mu (mkt s) + e_mkt p) (path s (today s) shocks).

(** persistence of the variance in the resampled shocks: beta plus the sample mean of (alpha + gamma 1[z<0]) z^2 *)
Definition persistence (g : gjr) (zm : list R) : R := beta g + average zm (fun z => (alpha g + (if Rlt_dec z 0 then gamma g else 0)) * z ^ 2).
(** tomorrow's variance is known today *)
Definition first_variance (s : setting) : R := gjr_update (omega (mkt s)) (alpha (mkt s)) (gamma (mkt s)) (beta (mkt s)) (v_mkt (today s)) (e_mkt (today s)).
(** expected variance k days after tomorrow *)
Fixpoint expected_variance (om kap v1 : R) (k : nat) : R := match k with O => v1 | S k' => om + kap * expected_variance om kap v1 k' end.
Definition total_expected (om kap v1 : R) (h : nat) : R := Rsum (map (expected_variance om kap v1) (seq 0 h)).
Definition second_moment (zm : list R) : R := average zm (fun z => z ^ 2).

(** ** Arithmetic of the recursion *)
Lemma ev_next om kap v k : expected_variance om kap (om + kap * v) k = expected_variance om kap v (S k).
Proof. induction k as [|k IH]; [reflexivity|]. cbn [expected_variance] in *. rewrite IH. reflexivity. Qed.
Lemma ev_affine om kap v k : expected_variance om kap v k = expected_variance om kap 0 k + kap ^ k * v.
Proof. induction k as [|k IH]; cbn [expected_variance pow]; [ring|]. rewrite IH. ring. Qed.
Lemma ev_average {T} (l : list T) om kap f k : l <> [] -> average l (fun x => expected_variance om kap (f x) k) = expected_variance om kap (average l f) k.
Proof.
  intros H. rewrite (average_ext l _ (fun x => expected_variance om kap 0 k + kap ^ k * f x)) by (intros; apply ev_affine).
  rewrite average_plus, average_scal, average_const by auto. symmetry. apply ev_affine.
Qed.
Lemma ev_pos om kap v k : 0 <= om -> 0 <= kap -> 0 <= v -> 0 <= expected_variance om kap v k.
Proof. intros. induction k as [|k IH]; cbn [expected_variance]; [auto|]. assert (0 <= kap * expected_variance om kap v k) by (apply Rmult_le_pos; auto). lra. Qed.
Lemma te_next om kap v h : total_expected om kap v (S h) = v + total_expected om kap (om + kap * v) h.
Proof.
  unfold total_expected. cbn [seq map Rsum expected_variance]. f_equal. rewrite <- seq_shift, map_map. f_equal. apply map_ext. intros k. symmetry. apply ev_next.
Qed.
Lemma te_average {T} (l : list T) om kap f h : l <> [] -> average l (fun x => total_expected om kap (f x) h) = total_expected om kap (average l f) h.
Proof.
  intros H. unfold total_expected. induction (seq 0 h) as [|k q IH]; cbn [map Rsum]; [apply average_const; auto|].
  rewrite average_plus, IH, ev_average by auto. reflexivity.
Qed.
Lemma average_nth (zm : list R) f : average (seq 0 (length zm)) (fun k => f (nth k zm 0)) = average zm f.
Proof.
  rewrite <- (average_map (fun k => nth k zm 0) (seq 0 (length zm)) f). f_equal. apply nth_ext with (d := 0) (d' := 0); [rewrite map_length, seq_length; reflexivity|].
  intros k Hk. rewrite map_length, seq_length in Hk. rewrite nth_indep with (d' := nth 0%nat zm 0) by (rewrite map_length, seq_length; auto).
  rewrite (map_nth (fun k => nth k zm 0)), seq_nth by auto. reflexivity.
Qed.

(** ** The recursion along the simulated paths *)
Section Paths.
Variables (s : setting) (xi zm : list R).
Hypothesis HG : good_setting s.
Hypothesis NE : zm <> [].
Local Notation n := (length zm).
Local Notation kap := (persistence (mkt s) zm).
Local Notation om := (omega (mkt s)).
Definition next_var (p : point) : R := gjr_update (omega (mkt s)) (alpha (mkt s)) (gamma (mkt s)) (beta (mkt s)) (v_mkt p) (e_mkt p).
Lemma next_var_pos p : sound p -> 0 < next_var p.
Proof. intros (_ & H & _). destruct HG as (_ & (A & B & C & D) & _). apply gjr_update_pos; auto. Qed.
Lemma idx_ne : seq 0 n <> [].
Proof. intros E. apply (f_equal (@length nat)) in E. rewrite seq_length in E. cbn in E. apply NE. destruct zm; [reflexivity|discriminate]. Qed.
Lemma draws_ne h : day_draws n h <> [].
Proof. apply sequences_nonempty, idx_ne. Qed.
Lemma step_var p xi0 z : sound p ->
  next_var (tomorrow s p xi0 z) = om + next_var p * (beta (mkt s) + (alpha (mkt s) + (if Rlt_dec z 0 then gamma (mkt s) else 0)) * z ^ 2).
Proof.
  intros HP. assert (V := next_var_pos p HP). unfold next_var at 1, gjr_update. cbn [tomorrow e_mkt v_mkt]. change (gjr_update _ _ _ _ _ _) with (next_var p).
  assert (Q : 0 < sqrt (next_var p)) by (apply sqrt_lt_R0; auto).
  replace ((sqrt (next_var p) * z) ^ 2) with (next_var p * z ^ 2) by (rewrite Rpow_mult_distr, pow2_sqrt by lra; reflexivity).
  destruct (Rlt_dec (sqrt (next_var p) * z) 0) as [H|H], (Rlt_dec z 0) as [K|K]; try ring; exfalso; nra.
Qed.
Lemma step_average p : sound p -> average (seq 0 n) (fun k => next_var (tomorrow s p (nth k xi 0) (nth k zm 0))) = om + kap * next_var p.
Proof.
  intros HP. rewrite (average_ext _ _ (fun k => om + next_var p * (beta (mkt s) + (alpha (mkt s) + (if Rlt_dec (nth k zm 0) 0 then gamma (mkt s) else 0)) * (nth k zm 0) ^ 2))) by (intros; apply step_var; auto).
  rewrite average_plus, average_scal, average_plus, !average_const by apply idx_ne.
  rewrite (average_nth zm (fun z => (alpha (mkt s) + (if Rlt_dec z 0 then gamma (mkt s) else 0)) * z ^ 2)). unfold persistence. ring.
Qed.
Lemma variance_from h : forall k p p0, (k < h)%nat -> sound p ->
  average (day_draws n h) (fun d => v_mkt (nth k (path s p (shocks_of xi zm d)) p0)) = expected_variance om kap (next_var p) k.
Proof.
  unfold day_draws. induction h as [|h IH]; intros k p p0 Hk HP; [lia|]. rewrite average_next by apply idx_ne.
  destruct k as [|k].
  - rewrite (average_ext _ _ (fun _ => next_var p)); [apply average_const, idx_ne|]. intros x _. cbn [shocks_of map path nth tomorrow v_mkt]. apply average_const, draws_ne.
  - rewrite (average_ext _ _ (fun x => expected_variance om kap (next_var (tomorrow s p (nth x xi 0) (nth x zm 0))) k)).
    + rewrite ev_average by apply idx_ne. rewrite step_average by auto. apply ev_next.
    + intros x _. cbn [shocks_of map path nth]. apply IH; [lia|]. apply tomorrow_sound; auto.
Qed.
Lemma square_from h : forall k p p0, (k < h)%nat -> sound p ->
  average (day_draws n h) (fun d => e_mkt (nth k (path s p (shocks_of xi zm d)) p0) ^ 2) = second_moment zm * expected_variance om kap (next_var p) k.
Proof.
  unfold day_draws. induction h as [|h IH]; intros k p p0 Hk HP; [lia|]. rewrite average_next by apply idx_ne.
  destruct k as [|k].
  - rewrite (average_ext _ _ (fun x => next_var p * nth x zm 0 ^ 2)).
    + rewrite average_scal, (average_nth zm (fun z => z ^ 2)). cbn [expected_variance]. unfold second_moment. ring.
    + intros x _. cbn [shocks_of map path nth tomorrow e_mkt]. change (gjr_update _ _ _ _ _ _) with (next_var p). rewrite average_const by apply draws_ne.
      rewrite Rpow_mult_distr, pow2_sqrt by (left; apply next_var_pos; auto). reflexivity.
  - rewrite (average_ext _ _ (fun x => second_moment zm * expected_variance om kap (next_var (tomorrow s p (nth x xi 0) (nth x zm 0))) k)).
    + rewrite average_scal, ev_average by apply idx_ne. rewrite step_average by auto. f_equal. apply ev_next.
    + intros x _. cbn [shocks_of map path nth]. apply IH; [lia|]. apply tomorrow_sound; auto.
Qed.
Definition total_shock (p : point) (d : list nat) : R := Rsum (map e_mkt (path s p (shocks_of xi zm d))).
Lemma total_zero h : average zm (fun z => z) = 0 -> forall p, sound p -> average (day_draws n h) (total_shock p) = 0.
Proof.
  intros HZ. unfold day_draws. induction h as [|h IH]; intros p HP; [rewrite average_none; reflexivity|].
  rewrite average_next by apply idx_ne. rewrite (average_ext _ _ (fun x => sqrt (next_var p) * nth x zm 0)).
  - rewrite average_scal, (average_nth zm (fun z => z)), HZ. ring.
  - intros x _. unfold total_shock. cbn [shocks_of map path Rsum]. rewrite average_plus, average_const by apply draws_ne.
    transitivity (e_mkt (tomorrow s p (nth x xi 0) (nth x zm 0)) + 0); [f_equal; exact (IH (tomorrow s p (nth x xi 0) (nth x zm 0)) ltac:(apply tomorrow_sound; auto))|].
    cbn [tomorrow e_mkt]. change (gjr_update _ _ _ _ _ _) with (next_var p). ring.
Qed.
Lemma total_square h : average zm (fun z => z) = 0 -> forall p, sound p ->
  average (day_draws n h) (fun d => total_shock p d ^ 2) = second_moment zm * total_expected om kap (next_var p) h.
Proof.
  intros HZ. unfold day_draws. induction h as [|h IH]; intros p HP; [rewrite average_none; unfold total_expected; cbn; ring|].
  rewrite average_next by apply idx_ne.
  rewrite (average_ext _ _ (fun x => next_var p * nth x zm 0 ^ 2 + second_moment zm * total_expected om kap (next_var (tomorrow s p (nth x xi 0) (nth x zm 0))) h)).
  - rewrite average_plus, !average_scal, te_average by apply idx_ne. rewrite step_average by auto. rewrite (average_nth zm (fun z => z ^ 2)), te_next. fold (second_moment zm). ring.
  - intros x _. set (p' := tomorrow s p (nth x xi 0) (nth x zm 0)). assert (HP' : sound p') by (apply tomorrow_sound; auto).
    rewrite (average_ext _ _ (fun d => e_mkt p' ^ 2 + 2 * e_mkt p' * total_shock p' d + total_shock p' d ^ 2)).
    + rewrite !average_plus, average_scal, average_const by apply draws_ne. assert (Z := total_zero h HZ p' HP'). unfold day_draws in Z. rewrite Z, IH by auto.
      assert (E : e_mkt p' ^ 2 = next_var p * nth x zm 0 ^ 2).
      { unfold p'. cbn [tomorrow e_mkt]. change (gjr_update _ _ _ _ _ _) with (next_var p). rewrite Rpow_mult_distr, pow2_sqrt by (left; apply next_var_pos; auto). reflexivity. }
      rewrite E. ring.
    + intros d _. unfold total_shock. cbn [shocks_of map path Rsum]. fold p'. fold (shocks_of xi zm d). ring.
Qed.
Lemma path_length : forall d p, length (path s p (shocks_of xi zm d)) = length d.
Proof. induction d as [|k d IH]; intros p; [reflexivity|]. cbn [shocks_of map path length]. f_equal. apply IH. Qed.
Lemma square_of_sum (l : list R) : Rsum l ^ 2 <= INR (length l) * Rsum (map (fun x => x ^ 2) l).
Proof.
  assert (C := cauchy_schwarz (fun _ : R => 1) (fun x => x) l). cbn beta in C.
  rewrite (Rsum_const (1 * 1) l) in C. rewrite (Rsum_map_ext (fun x => 1 * x) (fun x => x)) in C by (intros; ring). rewrite map_id in C.
  rewrite (Rsum_map_ext (fun x => x * x) (fun x => x ^ 2)) in C by (intros; ring). unfold Rsqr in C. lra.
Qed.
Lemma total_square_le h : forall p, sound p -> average (day_draws n h) (fun d => total_shock p d ^ 2) <= INR h * (second_moment zm * total_expected om kap (next_var p) h).
Proof.
  intros p HP. assert (E : average (day_draws n h) (fun d => INR h * Rsum (map (fun q => e_mkt q ^ 2) (path s p (shocks_of xi zm d)))) = INR h * (second_moment zm * total_expected om kap (next_var p) h)).
  { rewrite average_scal. f_equal. unfold total_expected.
    rewrite (average_ext _ _ (fun d => Rsum (map (fun k => e_mkt (nth k (path s p (shocks_of xi zm d)) p) ^ 2) (seq 0 h)))).
    - assert (G : forall q, (forall k, In k q -> (k < h)%nat) -> average (day_draws n h) (fun d => Rsum (map (fun k => e_mkt (nth k (path s p (shocks_of xi zm d)) p) ^ 2) q)) = second_moment zm * Rsum (map (expected_variance om kap (next_var p)) q)).
      { induction q as [|k q IHq]; intros Hq; cbn [map Rsum]; [rewrite average_const by apply draws_ne; ring|].
        rewrite average_plus, IHq by (intros; apply Hq; right; auto). rewrite square_from by (auto; apply Hq; left; auto). ring. }
      apply G. intros k Hk. apply in_seq in Hk. lia.
    - intros d Hd. apply sequences_spec in Hd. destruct Hd as [Ld _]. f_equal. assert (Lp := path_length d p). rewrite Ld in Lp.
      apply nth_ext with (d := 0) (d' := 0); [rewrite !map_length, seq_length; auto|]. intros k Hk. rewrite map_length, Lp in Hk.
      rewrite (nth_indep _ 0 (e_mkt p ^ 2)) by (rewrite map_length; lia). rewrite (map_nth (fun q => e_mkt q ^ 2)).
      rewrite (nth_indep (map _ (seq 0 h)) 0 (e_mkt (nth 0 (path s p (shocks_of xi zm d)) p) ^ 2)) by (rewrite map_length, seq_length; auto).
      rewrite (map_nth (fun k => e_mkt (nth k (path s p (shocks_of xi zm d)) p) ^ 2)), seq_nth by auto. reflexivity. }
  rewrite <- E. apply average_le. intros d Hd. apply sequences_spec in Hd. destruct Hd as [Ld _].
  assert (Q := square_of_sum (map e_mkt (path s p (shocks_of xi zm d)))). rewrite map_length, path_length, Ld, map_map in Q. exact Q.
Qed.
End Paths.

(** ** C130 *)
(** The simulated returns are the specified ones, in both back ends; averaged over all n^h draws of days, the squared deviation of the market return
    from its mean on the (k+1)-th simulated day is the mean squared shock times the variance of the recursion v -> omega + persistence * v started at
    tomorrow's (known) variance. *)
Theorem C130_market_volatility : forall cpp s xi zm h k, good_setting s -> length xi = length zm -> zm <> [] -> (k < h)%nat ->
  let draws := day_draws (length zm) h in
  let r d := market_log_returns s (shocks_of xi zm d) in
  (forall d, In d draws -> map fst (sim_returns XRA cpp (inputs s) (fin_shocks (shocks_of xi zm d))) = map Fin (r d) /\ length (r d) = h) /\
  average draws (fun d => (nth k (r d) 0 - mu (mkt s)) ^ 2)
    = second_moment zm * expected_variance (omega (mkt s)) (persistence (mkt s) zm) (first_variance s) k.
Proof.
  intros cpp s xi zm h k HG HL NE Hk draws r. split.
  - intros d Hd. apply sequences_spec in Hd. destruct Hd as [Ld _]. split.
    + rewrite returns_fin by auto. unfold r, market_log_returns. rewrite !map_map. apply map_ext. reflexivity.
    + unfold r, market_log_returns. rewrite map_length, path_length. exact Ld.
  - etransitivity; [|exact (square_from s xi zm HG NE h k (today s) (today s) Hk (today_sound s HG))]. apply average_ext. intros d Hd.
    apply sequences_spec in Hd. destruct Hd as [Ld _]. f_equal. unfold r, market_log_returns.
    rewrite (nth_indep _ 0 (mu (mkt s) + e_mkt (today s))) by (rewrite map_length, path_length; lia). rewrite (map_nth (fun p => mu (mkt s) + e_mkt p)). ring.
Qed.
(** Where the recursion goes: with persistence below one it approaches omega / (1 - persistence) geometrically; otherwise it grows without bound. *)
Theorem C130_long_run_level : forall om kap v k, 0 < om -> 0 <= kap -> 0 < v ->
  (kap < 1 -> expected_variance om kap v k = om / (1 - kap) + kap ^ k * (v - om / (1 - kap))) /\
  (1 <= kap -> v + INR k * om <= expected_variance om kap v k).
Proof.
  intros om kap v k Ho Hk Hv. split; intros H.
  - induction k as [|k IH]; cbn [expected_variance pow]; [ring|]. rewrite IH. field. lra.
  - induction k as [|k IH]; [cbn; lra|]. cbn [expected_variance]. rewrite S_INR. assert (P := pos_INR k). assert (0 <= INR k * om) by (apply Rmult_le_pos; lra). nra.
Qed.
(** With shocks of mean square one, half of it on negative days, the persistence is alpha + gamma/2 + beta, which the optimizer keeps below one. *)
Theorem C130_persistence : forall g zm, average zm (fun z => z ^ 2) = 1 -> average zm (fun z => if Rlt_dec z 0 then z ^ 2 else 0) = 1 / 2 ->
  persistence g zm = alpha g + gamma g / 2 + beta g.
Proof.
  intros g zm H1 H2. unfold persistence. rewrite (average_ext zm _ (fun z => alpha g * z ^ 2 + gamma g * (if Rlt_dec z 0 then z ^ 2 else 0))).
  - rewrite average_plus, !average_scal, H1, H2. field.
  - intros z _. destruct (Rlt_dec z 0); ring.
Qed.
(** In general it is not: with residuals of mean zero and mean square one, parameters the optimizer admits can give an exploding simulated variance. *)
Theorem C130_persistence_refuted : exists g zm, good_gjr g /\ alpha g + gamma g / 2 + beta g < 1 /\
  average zm (fun z => z) = 0 /\ average zm (fun z => z ^ 2) = 1 /\ 1 < persistence g zm.
Proof.
  exists {| mu := 0; omega := 1/10; alpha := 0; gamma := 2/10; beta := 89/100 |}, [-2; 1/2; 1/2; 1/2; 1/2].
  assert (D1 : forall A (x y : A), (if Rlt_dec (-2) 0 then x else y) = x) by (intros; destruct (Rlt_dec (-2) 0); [reflexivity|lra]).
  assert (D2 : forall A (x y : A), (if Rlt_dec (1/2) 0 then x else y) = y) by (intros; destruct (Rlt_dec (1/2) 0); [lra|reflexivity]).
  unfold good_gjr, persistence, average. cbn [map Rsum length alpha gamma beta omega]. rewrite !D1, !D2. simpl. repeat split; lra.
Qed.
(** Over the whole horizon: with shocks of mean zero the deviation of the h-day log return from h mu has exactly the summed variance. *)
Theorem C130_horizon : forall s xi zm h, good_setting s -> length xi = length zm -> zm <> [] -> average zm (fun z => z) = 0 ->
  let draws := day_draws (length zm) h in
  let total d := Rsum (market_log_returns s (shocks_of xi zm d)) in
  average draws total = INR h * mu (mkt s) /\
  average draws (fun d => (total d - INR h * mu (mkt s)) ^ 2) = second_moment zm * total_expected (omega (mkt s)) (persistence (mkt s) zm) (first_variance s) h.
Proof.
  intros s xi zm h HG HL NE HZ draws total.
  assert (E : forall d, In d draws -> total d = INR h * mu (mkt s) + total_shock s xi zm (today s) d).
  { intros d Hd. apply sequences_spec in Hd. destruct Hd as [Ld _]. unfold total, market_log_returns, total_shock. rewrite Rsum_plus, Rsum_const, path_length, Ld. reflexivity. }
  split.
  - rewrite (average_ext _ _ _ E), average_plus, average_const by (apply draws_ne; auto). unfold draws. assert (Z := total_zero s xi zm HG NE h HZ (today s) (today_sound s HG)).
    transitivity (INR h * mu (mkt s) + 0); [f_equal; exact Z|ring].
  - etransitivity; [|exact (total_square s xi zm HG NE h HZ (today s) (today_sound s HG))]. apply average_ext. intros d Hd. rewrite E by auto. f_equal. ring.
Qed.
(** How many scenarios can be systemic: the share of all possible scenarios in which the market falls below C is at most the (summed) variance over the
    squared distance of the threshold from the mean; without any assumption on the mean of the shocks, h times that. *)
Definition is_systemic (s : setting) (C : R) (sh : list (R * R)) : bool := if Rlt_dec (market_return s sh) C then true else false.
Theorem C130_systemic_share : forall s xi zm h C, good_setting s -> length xi = length zm -> zm <> [] -> -1 < C ->
  let distance := INR h * mu (mkt s) - 100 * ln (1 + C) in 0 < distance ->
  let variance := second_moment zm * total_expected (omega (mkt s)) (persistence (mkt s) zm) (first_variance s) h in
  let p := share (day_draws (length zm) h) (fun d => is_systemic s C (shocks_of xi zm d)) in
  p <= INR h * variance / distance ^ 2 /\ (average zm (fun z => z) = 0 -> p <= variance / distance ^ 2).
Proof.
  intros s xi zm h C HG HL NE HC dist HD var p.
  assert (P : p <= average (day_draws (length zm) h) (fun d => total_shock s xi zm (today s) d ^ 2) / dist ^ 2).
  { eapply Rle_trans; [|apply (share_far _ (total_shock s xi zm (today s)) dist HD)]. apply share_le. intros d Hd. unfold is_systemic.
    apply sequences_spec in Hd. destruct Hd as [Ld _].
    destruct (Rlt_dec (market_return s (shocks_of xi zm d)) C) as [H|H]; [|discriminate]. intros _.
    assert (E : Rsum (map (fun q => (mu (mkt s) + e_mkt q) / 100) (path s (today s) (shocks_of xi zm d))) = (INR h * mu (mkt s) + total_shock s xi zm (today s) d) / 100).
    { unfold total_shock, Rdiv.
      replace (INR h * mu (mkt s)) with (Rsum (map (fun _ => mu (mkt s)) (path s (today s) (shocks_of xi zm d)))) by (rewrite Rsum_const, path_length, Ld; reflexivity).
      rewrite <- Rsum_plus, <- Rsum_scal_r, map_map. reflexivity. }
    unfold market_return in H. rewrite E in H.
    assert (L : (INR h * mu (mkt s) + total_shock s xi zm (today s) d) / 100 < ln (1 + C)).
    { rewrite <- (ln_exp ((INR h * mu (mkt s) + total_shock s xi zm (today s) d) / 100)). apply ln_increasing; [apply exp_pos|lra]. }
    assert (L' : dist < - total_shock s xi zm (today s) d) by (unfold dist; lra).
    destruct (Rlt_dec dist (Rabs (total_shock s xi zm (today s) d))) as [|N]; [reflexivity|]. exfalso. apply N. rewrite Rabs_left by lra. exact L'. }
  assert (D2 : 0 < / dist ^ 2) by (apply Rinv_0_lt_compat; nra). split.
  - eapply Rle_trans; [exact P|]. unfold Rdiv. apply Rmult_le_compat_r; [lra|]. exact (total_square_le s xi zm HG NE h (today s) (today_sound s HG)).
  - intros HZ. eapply Rle_trans; [exact P|]. right. f_equal. exact (total_square s xi zm HG NE h HZ (today s) (today_sound s HG)).
Qed.
(** a case: alpha = 0.1, gamma = 0.1, beta = 0.8, two days with shocks +1 and -1 *)
Definition vol_gjr : gjr := {| mu := 0; omega := 1/10; alpha := 1/10; gamma := 1/10; beta := 8/10 |}.
Definition vol_setting : setting := {| firm := vol_gjr; mkt := vol_gjr; dcc_a := 1/10; dcc_b := 8/10; Qbar := (1, 1/2, 1);
  today := {| e_firm := 1; e_mkt := -1; v_firm := 1; v_mkt := 1; Qmat := (1, 1/2, 1) |} |}.
Example C130_case : good_setting vol_setting /\ average [1; -1] (fun z => z) = 0 /\ second_moment [1; -1] = 1 /\ persistence (mkt vol_setting) [1; -1] = 95/100 /\
  first_variance vol_setting = 11/10 /\ expected_variance (1/10) (95/100) (11/10) 1 = 1145/1000 /\ length (day_draws 2 3) = 8%nat /\
  0 < INR 3 * mu (mkt vol_setting) - 100 * ln (1 + - (1/10)).
Proof.
  assert (D1 : forall A (x y : A), (if Rlt_dec (-1) 0 then x else y) = x) by (intros; destruct (Rlt_dec (-1) 0); [reflexivity|lra]).
  assert (D2 : forall A (x y : A), (if Rlt_dec 1 0 then x else y) = y) by (intros; destruct (Rlt_dec 1 0); [lra|reflexivity]).
  split; [|split; [|split; [|split; [|split; [|split; [|split]]]]]].
  - unfold good_setting, vol_setting, good_gjr, admissible. cbn. repeat split; try lra; exists (1/2); split; [lra|reflexivity|lra|reflexivity].
  - unfold average. cbn. lra.
  - unfold second_moment, average. cbn. lra.
  - rewrite C130_persistence; [cbn; lra| |]; unfold average; cbn [map Rsum length]; rewrite ?D1, ?D2; simpl; lra.
  - unfold first_variance, gjr_update. cbn [mkt vol_setting vol_gjr omega alpha gamma beta today v_mkt e_mkt]. rewrite D1. lra.
  - cbn. lra.
  - reflexivity.
  - cbn [mkt vol_setting vol_gjr mu]. assert (L := ln_increasing (1 + - (1/10)) 1 ltac:(lra) ltac:(lra)). rewrite ln_1 in L. lra.
Qed.
