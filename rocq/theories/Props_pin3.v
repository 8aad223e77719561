(** * Theorems: what the PIN ratio measures and what its documentation says (C111), symmetries of the PIN likelihood (C112),
      the edge of the optimizer's bounds (C113) *)
From Coq Require Import Reals Lra ZArith List Bool Arith Lia Permutation.
From Verif Require Import Arith XR RealAux Model_pin Props_pin Props_pin2.
Import ListNotations.
Local Open Scope R_scope.

(** ** C111. The trading day of Easley et al.: with which probability which kind of day occurs, and at which rates uninformed
    buys, uninformed sells, informed buys and informed sells arrive on it. *)
Record day := mkDay { prob : R; uninformed_buys : R; uninformed_sells : R; informed_buys : R; informed_sells : R }.
Definition days (a d eb es m : R) : list day :=
  [ mkDay (1 - a) eb es 0 0;              (* no news *)
    mkDay (a * d) eb es 0 m;              (* bad news *)
    mkDay (a * (1 - d)) eb es m 0 ].      (* good news *)
(** expected number of trades of a kind on a day drawn at random *)
Definition expected (kind : day -> R) (l : list day) : R := Rsum (map (fun x => prob x * kind x) l).
Definition buy_trades (x : day) : R := uninformed_buys x + informed_buys x.
Definition sell_trades (x : day) : R := uninformed_sells x + informed_sells x.
Definition all_trades (x : day) : R := buy_trades x + sell_trades x.
Definition informed_trades (x : day) : R := informed_buys x + informed_sells x.

Theorem C111_share_of_informed_trades : forall a d eb es m, 0 <= a <= 1 -> 0 <= d <= 1 -> 0 <= eb -> 0 <= es -> 0 <= m -> 0 < eb + es ->
  calculate_pin XRA (pt a d eb es m) = Fin (expected informed_trades (days a d eb es m) / expected all_trades (days a d eb es m)).
Proof.
  intros a d eb es m Ha Hd Hb Hs Hm Hp.
  assert (0 <= a * m) by (apply Rmult_le_pos; lra).
  destruct (C52_probability a d eb es m) as (p & -> & -> & _); try lra.
  f_equal. unfold expected, days, informed_trades, all_trades, buy_trades, sell_trades. cbn [map Rsum prob uninformed_buys uninformed_sells informed_buys informed_sells].
  f_equal; ring.
Qed.
(** probability that a buy (a sell) is informed: the two terms of the documentation's (9) and (10) *)
Definition informed_given_buy (a d eb es m : R) : R := expected informed_buys (days a d eb es m) / expected buy_trades (days a d eb es m).
Definition informed_given_sell (a d eb es m : R) : R := expected informed_sells (days a d eb es m) / expected sell_trades (days a d eb es m).
Lemma given_buy a d eb es m : informed_given_buy a d eb es m = m * (a * (1 - d)) / (eb + m * (a * (1 - d))).
Proof.
  unfold informed_given_buy, expected, days, buy_trades. cbn [map Rsum prob uninformed_buys uninformed_sells informed_buys informed_sells].
  f_equal; ring.
Qed.
Lemma given_sell a d eb es m : informed_given_sell a d eb es m = m * (a * d) / (es + m * (a * d)).
Proof.
  unfold informed_given_sell, expected, days, sell_trades. cbn [map Rsum prob uninformed_buys uninformed_sells informed_buys informed_sells].
  f_equal; ring.
Qed.
(** the reported PIN is the average of the two, weighted by how frequent buys and sells are -- not their sum *)
Theorem C111_average_of_the_two_sides : forall a d eb es m, 0 <= a <= 1 -> 0 <= d <= 1 -> 0 < eb -> 0 < es -> 0 <= m ->
  let D := days a d eb es m in
  calculate_pin XRA (pt a d eb es m) =
  Fin (expected buy_trades D / expected all_trades D * informed_given_buy a d eb es m
       + expected sell_trades D / expected all_trades D * informed_given_sell a d eb es m).
Proof.
  intros a d eb es m Ha Hd Hb Hs Hm D.
  assert (0 <= a * m) by (apply Rmult_le_pos; lra).
  assert (0 <= a * d * m) by (repeat apply Rmult_le_pos; lra). assert (0 <= a * (1 - d) * m) by (repeat apply Rmult_le_pos; lra).
  rewrite C111_share_of_informed_trades by lra. f_equal. unfold D, informed_given_buy, informed_given_sell.
  unfold expected, days, informed_trades, all_trades, buy_trades, sell_trades. cbn [map Rsum prob uninformed_buys uninformed_sells informed_buys informed_sells].
  field. repeat split; nra.
Qed.
(** the documentation's (10) says PIN is the sum of the two and that the sum equals the reported ratio: the sum is strictly larger
    whenever there is any informed trading at all, by a factor two when good and bad news are equally likely *)
Theorem C111_documented_sum_refuted : forall a d e m, 0 <= a <= 1 -> 0 <= d <= 1 -> 0 < e -> 0 <= m ->
  exists p, calculate_pin XRA (pt a d e e m) = Fin p /\
    p <= informed_given_buy a d e e m + informed_given_sell a d e e m /\
    (p = informed_given_buy a d e e m + informed_given_sell a d e e m <-> a = 0 \/ m = 0) /\
    (d = 1 / 2 -> informed_given_buy a d e e m + informed_given_sell a d e e m = 2 * p).
Proof.
  intros a d e m Ha Hd He Hm.
  assert (Ham : 0 <= a * m) by (apply Rmult_le_pos; lra).
  destruct (C52_probability a d e e m) as (p & Ep & -> & _); try lra.
  exists (a * m / (a * m + e + e)). split; [exact Ep|].
  rewrite given_buy, given_sell.
  set (x := m * (a * (1 - d))). set (y := m * (a * d)).
  assert (Hx : 0 <= x) by (unfold x; repeat apply Rmult_le_pos; lra). assert (Hy : 0 <= y) by (unfold y; repeat apply Rmult_le_pos; lra).
  assert (Exy : a * m = x + y) by (unfold x, y; ring). rewrite Exy.
  assert (Hdiff : x / (e + x) + y / (e + y) - (x + y) / (x + y + e + e)
                  = ((x + y) * (e * e) + x * y * (x + y) + 4 * e * x * y) / ((e + x) * (e + y) * (x + y + e + e))) by (field; repeat split; lra).
  assert (Hden : 0 < (e + x) * (e + y) * (x + y + e + e)) by (repeat apply Rmult_lt_0_compat; lra).
  assert (Hxy : 0 <= x * y) by (apply Rmult_le_pos; lra).
  assert (Hnum : (x + y) * (e * e) <= (x + y) * (e * e) + x * y * (x + y) + 4 * e * x * y).
  { assert (0 <= x * y * (x + y)) by (apply Rmult_le_pos; lra). assert (0 <= 4 * e * (x * y)) by (apply Rmult_le_pos; lra). lra. }
  assert (Hee : 0 < e * e) by (apply Rmult_lt_0_compat; lra).
  assert (Hn0 : 0 <= (x + y) * (e * e)) by (apply Rmult_le_pos; lra).
  split; [|split].
  - assert (0 <= ((x + y) * (e * e) + x * y * (x + y) + 4 * e * x * y) / ((e + x) * (e + y) * (x + y + e + e))).
    { apply Rmult_le_pos; [lra|]. left. apply Rinv_0_lt_compat; auto. }
    lra.
  - split.
    + intros E. assert (E0 : x + y = 0).
      { destruct (Req_dec (x + y) 0) as [|N]; auto. exfalso.
        assert (0 < (x + y) * (e * e)) by (apply Rmult_lt_0_compat; lra).
        assert (0 < ((x + y) * (e * e) + x * y * (x + y) + 4 * e * x * y) / ((e + x) * (e + y) * (x + y + e + e))) by (apply Rdiv_lt_0_compat; lra).
        lra. }
      rewrite <- Exy in E0. apply Rmult_integral in E0. tauto.
    + intros Z. assert (x + y = 0) by (rewrite <- Exy; destruct Z as [-> | ->]; ring). assert (x = 0) by lra. assert (y = 0) by lra.
      replace x with 0 by auto. replace y with 0 by auto. field. repeat split; lra.
  - intros Ed. assert (x = y) by (unfold x, y; rewrite Ed; field). replace y with x by auto. field. split; lra.
Qed.
(** and the documented sum is no probability: it exceeds one for admissible parameters *)
Example C111_documented_sum_exceeds_one : 1 < informed_given_buy 1 (1/2) 1 1 6 + informed_given_sell 1 (1/2) 1 1 6 /\
  calculate_pin XRA (pt 1 (1/2) 1 1 6) = Fin (3/4).
Proof.
  split; [rewrite given_buy, given_sell; lra|]. rewrite C111_share_of_informed_trades by lra. f_equal.
  unfold expected, days, informed_trades, all_trades, buy_trades, sell_trades. cbn [map Rsum prob uninformed_buys uninformed_sells informed_buys informed_sells]. lra.
Qed.
(** quotes of a Bayesian market maker: the value of the asset, hi on good news, lo on bad news, mid without news, given that the
    next trade is a buy (ask) or a sell (bid) *)
Definition value_given (kind : day -> R) (a d eb es m mid lo hi : R) : R :=
  match days a d eb es m with
  | [none; bad; good] => (prob none * kind none * mid + prob bad * kind bad * lo + prob good * kind good * hi) / expected kind (days a d eb es m)
  | _ => 0
  end.
(** with equally likely good and bad news the spread is the reported PIN times the range of values (documentation, (11)) *)
Theorem C111_spread_is_pin_times_range : forall a e m mid lo hi, 0 <= a <= 1 -> 0 < e -> 0 <= m ->
  exists p, calculate_pin XRA (pt a (1/2) e e m) = Fin p /\
    value_given buy_trades a (1/2) e e m mid lo hi - value_given sell_trades a (1/2) e e m mid lo hi = p * (hi - lo).
Proof.
  intros a e m mid lo hi Ha He Hm.
  assert (Ham : 0 <= a * m) by (apply Rmult_le_pos; lra).
  destruct (C52_probability a (1/2) e e m) as (p & Ep & -> & _); try lra.
  eexists. split; [exact Ep|]. unfold value_given, expected, days, buy_trades, sell_trades.
  cbn [map Rsum prob uninformed_buys uninformed_sells informed_buys informed_sells].
  field. repeat split; nra.
Qed.

(** ** C112. Symmetries of the likelihood *)
Lemma loglik_value a d eb es m B S : admissible a d eb es m ->
  loglikelihood_EHO2010 XRA (map Fin B) (map Fin S) (pt a d eb es m) = Fin (- Rsum (map2 (day_ll a d eb es m) B S)) /\
  loglikelihood_LK2011 XRA (map Fin B) (map Fin S) (pt a d eb es m) = Fin (- Rsum (map2 (day_ll a d eb es m) B S)).
Proof.
  intros H. split.
  - exact (day_sum _ _ _ B S (fun b s => eho_day a d eb es m b s H)).
  - exact (day_sum _ _ _ B S (fun b s => lk_day a d eb es m b s H)).
Qed.
Lemma day_ll_swap a d eb es m b s : day_ll a d eb es m b s = day_ll a (1 - d) es eb m s b.
Proof.
  unfold day_ll. replace (core a (1 - d) es eb m s b) with (core a d eb es m b s); [ring|]. unfold core.
  replace (1 - (1 - d)) with d by ring. ring.
Qed.
Lemma map2_swap {X Y Z} (f : X -> Y -> Z) (g : Y -> X -> Z) l k : (forall x y, f x y = g y x) -> map2 f l k = map2 g k l.
Proof. intros H. revert k. induction l as [|x l IH]; intros [|y k]; cbn; auto. now rewrite H, IH. Qed.
Lemma map2_combine {X Y Z} (f : X -> Y -> Z) l k : map2 f l k = map (fun q => f (fst q) (snd q)) (combine l k).
Proof. revert k. induction l as [|x l IH]; intros [|y k]; cbn; auto. now rewrite IH. Qed.
Lemma Rsum_perm l k : Permutation l k -> Rsum l = Rsum k.
Proof. induction 1; cbn; lra. Qed.
Lemma Rmean_perm l k : Permutation l k -> Rmean l = Rmean k.
Proof. intros H. unfold Rmean. rewrite (Rsum_perm _ _ H), (Permutation_length H). reflexivity. Qed.
Lemma combine_fst {X Y} (l : list X) (k : list Y) : length l = length k -> map fst (combine l k) = l.
Proof. revert k; induction l as [|x l IH]; intros [|y k]; cbn; intros E; try discriminate; auto. injection E as E. now rewrite IH. Qed.
Lemma combine_snd {X Y} (l : list X) (k : list Y) : length l = length k -> map snd (combine l k) = k.
Proof. revert k; induction l as [|x l IH]; intros [|y k]; cbn; intros E; try discriminate; auto. injection E as E. now rewrite IH. Qed.

(** which side is called the buy side does not matter to the likelihood, nor to the ratio: exchanging the two sides of the data
    with the two uninformed rates and good with bad news changes neither *)
Theorem C112_buys_and_sells_exchanged : forall a d eb es m B S, admissible a d eb es m ->
  loglikelihood_EHO2010 XRA (map Fin B) (map Fin S) (pt a d eb es m) = loglikelihood_EHO2010 XRA (map Fin S) (map Fin B) (pt a (1 - d) es eb m) /\
  loglikelihood_LK2011 XRA (map Fin B) (map Fin S) (pt a d eb es m) = loglikelihood_LK2011 XRA (map Fin S) (map Fin B) (pt a (1 - d) es eb m) /\
  calculate_pin XRA (pt a d eb es m) = calculate_pin XRA (pt a (1 - d) es eb m).
Proof.
  intros a d eb es m B S H. assert (H' : admissible a (1 - d) es eb m) by (unfold admissible in *; lra).
  destruct (loglik_value a d eb es m B S H) as [-> ->]. destruct (loglik_value a (1 - d) es eb m S B H') as [-> ->].
  rewrite (map2_swap _ (day_ll a (1 - d) es eb m) B S) by (intros; apply day_ll_swap). repeat split.
  destruct H as (Ha & Hd & Hb & Hs & Hm). assert (0 <= a * m) by (apply Rmult_le_pos; lra).
  destruct (C52_probability a d eb es m) as (p & -> & -> & _); try lra.
  destruct (C52_probability a (1 - d) es eb m) as (p & -> & -> & _); try lra. do 2 f_equal. lra.
Qed.
(** the order of the days does not matter to the likelihood *)
Theorem C112_days_reordered : forall a d eb es m B S B' S', admissible a d eb es m ->
  Permutation (combine B S) (combine B' S') ->
  loglikelihood_EHO2010 XRA (map Fin B) (map Fin S) (pt a d eb es m) = loglikelihood_EHO2010 XRA (map Fin B') (map Fin S') (pt a d eb es m) /\
  loglikelihood_LK2011 XRA (map Fin B) (map Fin S) (pt a d eb es m) = loglikelihood_LK2011 XRA (map Fin B') (map Fin S') (pt a d eb es m).
Proof.
  intros a d eb es m B S B' S' H P.
  destruct (loglik_value a d eb es m B S H) as [-> ->]. destruct (loglik_value a d eb es m B' S' H) as [-> ->].
  rewrite !map2_combine, (Rsum_perm _ _ (Permutation_map (fun q => day_ll a d eb es m (fst q) (snd q)) P)). auto.
Qed.
(** nor to the starting points *)
Theorem C112_starts_reordered : forall B S B' S', length B = length S -> length B' = length S' -> B <> [] ->
  Permutation (combine B S) (combine B' S') ->
  starting_values XRA (map Fin B) (map Fin S) = starting_values XRA (map Fin B') (map Fin S').
Proof.
  intros B S B' S' E E' HB P.
  assert (PB : Permutation B B') by (rewrite <- (combine_fst B S E), <- (combine_fst B' S' E'); apply Permutation_map; auto).
  assert (PS : Permutation S S') by (rewrite <- (combine_snd B S E), <- (combine_snd B' S' E'); apply Permutation_map; auto).
  assert (HS : S <> []) by (intros ->; destruct B; [congruence|discriminate]).
  assert (HB' : B' <> []) by (intros ->; apply Permutation_sym, Permutation_nil in PB; congruence).
  assert (HS' : S' <> []) by (intros ->; apply Permutation_sym, Permutation_nil in PS; congruence).
  rewrite !C53_exactly_feasible_grid_points by auto. rewrite (Rmean_perm _ _ PB), (Rmean_perm _ _ PS). reflexivity.
Qed.
(** the days are independent: the likelihood of two samples put together is the sum of their likelihoods *)
Theorem C112_samples_joined : forall a d eb es m B S B' S', admissible a d eb es m -> length B = length S -> 
  exists v w, loglikelihood_LK2011 XRA (map Fin B) (map Fin S) (pt a d eb es m) = Fin v /\
    loglikelihood_LK2011 XRA (map Fin B') (map Fin S') (pt a d eb es m) = Fin w /\
    loglikelihood_LK2011 XRA (map Fin (B ++ B')) (map Fin (S ++ S')) (pt a d eb es m) = Fin (v + w).
Proof.
  intros a d eb es m B S B' S' H E.
  destruct (loglik_value a d eb es m B S H) as [_ ->]. destruct (loglik_value a d eb es m B' S' H) as [_ ->].
  destruct (loglik_value a d eb es m (B ++ B') (S ++ S') H) as [_ ->].
  do 2 eexists. split; [reflexivity|]. split; [reflexivity|]. f_equal.
  assert (Em : map2 (day_ll a d eb es m) (B ++ B') (S ++ S') = map2 (day_ll a d eb es m) B S ++ map2 (day_ll a d eb es m) B' S').
  { revert S E. induction B as [|b B IH]; intros [|s S] E; try discriminate; auto. cbn. f_equal. apply IH. injection E; auto. }
  rewrite Em, Rsum_app. ring.
Qed.
(** but the estimator is not symmetric: with fewer than one sell in ninety buys there is no starting point, whatever the optimizer
    would do, and the answer is NaN without an error; the same data with the sides exchanged have all 125 starting points *)
Theorem C112_estimator_not_symmetric_refuted : forall B S, B <> [] -> S <> [] -> 0 <= Rmean S -> Rmean S < Rmean B / 90 ->
  (forall o m min, pin_B XRA o = map Fin B -> pin_S XRA o = map Fin S ->
     snd (estimate XRA o (Some m) min) = Ok (no_parameters XRA)) /\
  length (starting_values XRA (map Fin S) (map Fin B)) = 125%nat.
Proof.
  intros B S HB HS H0 Hlt. split.
  - intros o m min EB ES. assert (E : starting_values XRA (pin_B XRA o) (pin_S XRA o) = []).
    { rewrite EB, ES. apply C53_no_start_iff; auto. lra. }
    unfold estimate, runs. rewrite E. reflexivity.
  - apply C53_all_points_iff; auto. lra.
Qed.
Example C112_case : Rmean [2] < Rmean [200] / 90 /\ admissible (3/10) (1/2) 60 50 40 /\ Permutation (combine [1; 2] [3; 4]) (combine [2; 1] [4; 3]).
Proof. unfold Rmean; cbn. repeat split; try lra. apply perm_swap. Qed.

(** ** C113. The edge of the optimizer's bounds: eB = 0, eS = 0, mu = 0 are allowed by the bounds [0, inf) of l.66-72 *)
Definition nonneg_ext (x : xr) : Prop := x = NaN \/ x = PInf \/ exists r, 0 <= r /\ x = Fin r.
Definition nonpos_ext (x : xr) : Prop := x = NaN \/ x = MInf \/ exists r, x = Fin r.
Definition up (x : xr) : Prop := x = NaN \/ x = PInf.
Definition down (x : xr) : Prop := x = NaN \/ x = MInf.
Lemma sgn_inf_cases r : 0 <= r -> (r = 0 /\ xsgn_inf r = NaN) \/ (0 < r /\ xsgn_inf r = PInf).
Proof. intros H. unfold xsgn_inf. destruct (total_order_T r 0) as [[|]|]; [lra|left; auto|right; split; auto; lra]. Qed.
Lemma mul_nonneg x y : nonneg_ext x -> nonneg_ext y -> nonneg_ext (xmul x y).
Proof.
  unfold nonneg_ext. intros [->|[->|(r & Hr & ->)]] [->|[->|(t & Ht & ->)]]; cbn [xmul]; auto.
  - destruct (sgn_inf_cases t Ht) as [[_ ->]|[_ ->]]; auto.
  - destruct (sgn_inf_cases r Hr) as [[_ ->]|[_ ->]]; auto.
  - right; right. exists (r * t). split; auto. apply Rmult_le_pos; auto.
Qed.
Lemma mul_up x : nonneg_ext x -> up (xmul x PInf).
Proof.
  unfold nonneg_ext, up. intros [->|[->|(r & Hr & ->)]]; cbn [xmul]; auto.
  destruct (sgn_inf_cases r Hr) as [[_ ->]|[_ ->]]; auto.
Qed.
Lemma add_up_l x y : up x -> nonneg_ext y -> up (xadd x y).
Proof. unfold up, nonneg_ext. intros [-> | ->] [->|[->|(r & _ & ->)]]; cbn [xadd]; auto. Qed.
Lemma add_up_r x y : nonneg_ext x -> up y -> up (xadd x y).
Proof. unfold up, nonneg_ext. intros [->|[->|(r & _ & ->)]] [-> | ->]; cbn [xadd]; auto. Qed.
Lemma add_nonneg x y : nonneg_ext x -> nonneg_ext y -> nonneg_ext (xadd x y).
Proof.
  unfold nonneg_ext. intros [->|[->|(r & Hr & ->)]] [->|[->|(t & Ht & ->)]]; cbn [xadd]; auto.
  right; right. exists (r + t). split; auto; lra.
Qed.
Lemma up_nonneg x : up x -> nonneg_ext x. Proof. unfold up, nonneg_ext. tauto. Qed.
Lemma fin_nonneg r : 0 <= r -> nonneg_ext (Fin r). Proof. intros. right; right. eauto. Qed.
Lemma log_up x : up x -> up (xlog x). Proof. unfold up. intros [->| ->]; cbn [xlog]; auto. Qed.
Lemma pow_nonneg x y : nonneg_ext x -> nonneg_ext (xpow x y).
Proof.
  unfold nonneg_ext. intros [->|[->|(r & Hr & ->)]]; cbn [xpow]; auto. destruct y as [t| | |]; auto.
  destruct (total_order_T r 0) as [[|]|]; [lra| |].
  - destruct (total_order_T t 0) as [[|]|]; [auto|right; right; exists 1; split; auto; lra|right; right; exists 0; split; auto; lra].
  - right; right. eexists. split; [|reflexivity]. left. apply exp_pos.
Qed.
Lemma div_nonneg r t : 0 <= r -> 0 <= t -> nonneg_ext (xdiv (Fin r) (Fin t)).
Proof.
  intros Hr Ht. cbn [xdiv]. destruct (Req_EM_T t 0) as [E|E].
  - destruct (sgn_inf_cases r Hr) as [[_ ->]|[_ ->]]; unfold nonneg_ext; auto.
  - right; right. eexists. split; [|reflexivity]. apply Rmult_le_pos; auto. left. apply Rinv_0_lt_compat. lra.
Qed.
Lemma min_fin b s : minimum XRA (Fin b) (Fin s) = Fin (Rmin b s).
Proof.
  unfold minimum. cbn [isnan XRA xisnan nltb]. destruct (xltb (Fin s) (Fin b)) eqn:E.
  - apply xltb_iff in E. now rewrite Rmin_right by lra.
  - assert (~ s < b) by (intros H; apply xltb_iff in H; congruence). now rewrite Rmin_left by lra.
Qed.
Lemma max_fin b s : maximum XRA (Fin b) (Fin s) = Fin (Rmax b s).
Proof.
  unfold maximum. cbn [isnan XRA xisnan nltb]. destruct (xltb (Fin b) (Fin s)) eqn:E.
  - apply xltb_iff in E. now rewrite Rmax_right by lra.
  - assert (~ b < s) by (intros H; apply xltb_iff in H; congruence). now rewrite Rmax_left by lra.
Qed.
Lemma log_nonpos r : nonpos_ext (xlog (Fin r)).
Proof. unfold nonpos_ext. cbn [xlog]. destruct (total_order_T r 0) as [[|]|]; eauto. Qed.
Lemma add_nonpos x y : nonpos_ext x -> nonpos_ext y -> nonpos_ext (xadd x y).
Proof. unfold nonpos_ext. intros [->|[->|(r & ->)]] [->|[->|(t & ->)]]; cbn [xadd]; eauto. Qed.
Lemma add_down x y : down x -> nonpos_ext y -> down (xadd x y).
Proof. unfold nonpos_ext, down. intros [-> | ->] [->|[->|(t & ->)]]; cbn [xadd]; eauto. Qed.
Lemma add_down_r x y : nonpos_ext x -> down y -> down (xadd x y).
Proof. unfold nonpos_ext, down. intros [->|[->|(t & ->)]] [-> | ->]; cbn [xadd]; eauto. Qed.
Lemma down_nonpos x : down x -> nonpos_ext x. Proof. unfold down, nonpos_ext. tauto. Qed.
Lemma mul_nonpos r x : 0 <= r -> nonpos_ext x -> nonpos_ext (xmul (Fin r) x).
Proof.
  unfold nonpos_ext. intros Hr [->|[->|(t & ->)]]; cbn [xmul]; eauto.
  destruct (sgn_inf_cases r Hr) as [[_ ->]|[_ ->]]; cbn [xopp]; auto.
Qed.
Lemma mul_down r x : 0 <= r -> down x -> down (xmul (Fin r) x).
Proof.
  unfold down. intros Hr [-> | ->]; cbn [xmul]; auto.
  destruct (sgn_inf_cases r Hr) as [[_ ->]|[_ ->]]; cbn [xopp]; auto.
Qed.
(** the ratio e / (mu + e) that the code raises to powers *)
Lemma ratio_zero m : 0 <= m -> down (xlog (xdiv (Fin 0) (Fin (m + 0)))).
Proof.
  intros Hm. cbn [xdiv]. destruct (Req_EM_T (m + 0) 0) as [E|E].
  - destruct (sgn_inf_cases 0) as [[_ ->]|[H _]]; [lra|left; reflexivity|lra].
  - right. unfold Rdiv. rewrite Rmult_0_l. cbn [xlog]. destruct (total_order_T 0 0) as [[|]|]; auto; lra.
Qed.
Lemma ratio_nonpos e m : 0 <= e -> 0 <= m -> nonpos_ext (xlog (xdiv (Fin e) (Fin (m + e)))).
Proof.
  intros He Hm. cbn [xdiv]. destruct (Req_EM_T (m + e) 0) as [E|E]; [|apply log_nonpos].
  assert (e = 0) by lra. subst e. destruct (sgn_inf_cases 0) as [[_ ->]|[H _]]; [lra|left; reflexivity|lra].
Qed.
(** a zero ratio to a negative power *)
Lemma zero_ratio_pow m t : 0 < m -> 0 < t -> xpow (xdiv (Fin 0) (Fin (m + 0))) (Fin (- t)) = PInf.
Proof.
  intros Hm Ht. rewrite xdiv_fin by lra. unfold Rdiv. rewrite Rmult_0_l. cbn [xpow].
  destruct (total_order_T 0 0) as [[|]|]; try lra. destruct (total_order_T (- t) 0) as [[|]|]; auto; lra.
Qed.
Lemma eho_edge_day a d eb es m b s : 0 <= a <= 1 -> 0 <= d <= 1 -> 0 <= eb -> 0 <= es -> 0 <= m -> eb = 0 \/ es = 0 -> 0 <= b -> 0 <= s ->
  let F := eho_first XRA (pt a d eb es m) (Fin b) (Fin s) in
  F = NaN \/ (F = MInf /\ up (eho_second XRA (pt a d eb es m) (Fin b) (Fin s))).
Proof.
  intros Ha Hd Hb Hs Hm Hz Hcb Hcs F.
  assert (HF : down F).
  { unfold F, eho_first. cbn [Model_pin.eB Model_pin.eS Model_pin.mu Model_pin.alpha Model_pin.delta pt].
    cbn [nadd nsub nmul ndiv nopp nlog nexp npow ofZ XRA]. rewrite min_fin, max_fin. cbn [xadd xopp xsub]. rewrite (xdiv_fin _ 2) by lra. cbn [xadd].
    assert (HM : 0 <= Rmin b s + Rmax b s / 2).
    { assert (0 <= Rmin b s) by (apply Rmin_glb; auto). assert (b <= Rmax b s) by apply Rmax_l. lra. }
    apply add_down; [|apply mul_nonpos; auto; apply log_nonpos].
    apply add_down; [|apply mul_nonpos; auto; apply log_nonpos].
    match goal with |- down (match ?x with _ => _ end) => change (down (xadd (Fin (- eb - es)) x)) end.
    apply add_down_r; [right; right; eauto|].
    apply mul_down; auto. destruct Hz as [-> | ->].
    - apply add_down; [apply ratio_zero; auto|apply ratio_nonpos; auto].
    - apply add_down_r; [apply ratio_nonpos; auto|apply ratio_zero; auto]. }
  destruct HF as [HF|HF]; [auto|]. right. split; auto.
  (* the first term is MInf only if M > 0 and mu > 0 *)
  assert (Hpos : 0 < m /\ 0 < Rmin b s + Rmax b s / 2).
  { destruct (Rlt_dec 0 m) as [Hm'|Hm'].
    - split; auto. apply Rnot_le_lt. intros HM. revert HF. unfold F, eho_first.
      cbn [Model_pin.eB Model_pin.eS Model_pin.mu Model_pin.alpha Model_pin.delta pt].
      cbn [nadd nsub nmul ndiv nopp nlog nexp npow ofZ XRA]. rewrite min_fin, max_fin. cbn [xadd xopp xsub]. rewrite (xdiv_fin _ 2) by lra. cbn [xadd].
      assert (E0 : Rmin b s + Rmax b s / 2 = 0).
      { assert (0 <= Rmin b s) by (apply Rmin_glb; auto). assert (b <= Rmax b s) by apply Rmax_l. lra. }
      rewrite E0. intros HF. exfalso. revert HF.
      match goal with |- context [xmul (Fin 0) ?x] => assert (HD : down x) end.
      { destruct Hz as [-> | ->].
        - apply add_down; [apply ratio_zero; auto|apply ratio_nonpos; auto].
        - apply add_down_r; [apply ratio_nonpos; auto|apply ratio_zero; auto]. }
      destruct HD as [-> | ->]; cbn [xmul]; [|destruct (sgn_inf_cases 0) as [[_ ->]|[H _]]; [lra| |lra]]; cbn [xopp xadd]; discriminate.
    - assert (m = 0) by lra. subst m. exfalso. revert HF. unfold F, eho_first.
      cbn [Model_pin.eB Model_pin.eS Model_pin.mu Model_pin.alpha Model_pin.delta pt].
      cbn [nadd nsub nmul ndiv nopp nlog nexp npow ofZ XRA].
      assert (EN : xlog (xdiv (Fin 0) (Fin (0 + 0))) = NaN).
      { cbn [xdiv]. destruct (Req_EM_T (0 + 0) 0); [|lra]. destruct (sgn_inf_cases 0) as [[_ ->]|[H _]]; [lra|reflexivity|lra]. }
      cbn [xadd]. destruct Hz as [-> | ->]; rewrite EN.
      + cbn [xadd]. rewrite min_fin, max_fin. rewrite (xdiv_fin _ 2) by lra. cbn [xadd xmul xopp xsub]. discriminate.
      + destruct (xlog (xdiv (Fin eb) (Fin (0 + eb)))); cbn [xadd]; rewrite min_fin, max_fin; rewrite (xdiv_fin _ 2) by lra; cbn [xadd xmul xopp xsub]; discriminate. }
  destruct Hpos as [Hm' HM].
  unfold eho_second. cbn [Model_pin.eB Model_pin.eS Model_pin.mu Model_pin.alpha Model_pin.delta pt].
  cbn [nadd nsub nmul ndiv nopp nlog nexp npow ofZ XRA]. rewrite min_fin, max_fin. rewrite (xdiv_fin _ 2) by lra. cbn [xadd xsub xopp xexp].
  assert (He := exp_pos (- m)).
  assert (K1 : 0 <= a * (1 - d) * exp (- m)) by (repeat apply Rmult_le_pos; lra).
  assert (K2 : 0 <= a * d * exp (- m)) by (repeat apply Rmult_le_pos; lra).
  apply log_up.
  assert (Rb : nonneg_ext (xdiv (Fin eb) (Fin (m + eb)))) by (apply div_nonneg; lra).
  assert (Rs : nonneg_ext (xdiv (Fin es) (Fin (m + es)))) by (apply div_nonneg; lra).
  destruct Hz as [-> | ->].
  - apply add_up_l; [|repeat apply mul_nonneg; try apply pow_nonneg; auto; apply fin_nonneg; lra].
    apply add_up_l; [|repeat apply mul_nonneg; try apply pow_nonneg; auto; apply fin_nonneg; lra].
    rewrite zero_ratio_pow by auto. apply mul_up. repeat apply mul_nonneg; try apply pow_nonneg; auto; apply fin_nonneg; lra.
  - apply add_up_l; [|repeat apply mul_nonneg; try apply pow_nonneg; auto; apply fin_nonneg; lra].
    apply add_up_r; [repeat apply mul_nonneg; try apply pow_nonneg; auto; apply fin_nonneg; lra|].
    rewrite zero_ratio_pow by auto. apply mul_up. repeat apply mul_nonneg; try apply pow_nonneg; auto; apply fin_nonneg; lra.
Qed.
Lemma fold_nan l : fold_left xadd l NaN = NaN.
Proof. induction l as [|x l IH]; auto. Qed.
Lemma fold_in_nan l acc : In NaN l -> fold_left xadd l acc = NaN.
Proof.
  revert acc. induction l as [|x l IH]; intros acc []; cbn [fold_left].
  - subst x. destruct acc; cbn [xadd]; apply fold_nan.
  - apply IH; auto.
Qed.
Lemma fold_minf l : (forall x, In x l -> x = MInf) -> fold_left xadd l MInf = MInf.
Proof. induction l as [|x l IH]; intros H; auto. cbn [fold_left]. rewrite (H x) by (left; auto). apply IH. intros; apply H; right; auto. Qed.
Lemma fold_up l acc : (forall x, In x l -> up x) -> up acc -> up (fold_left xadd l acc).
Proof.
  revert acc. induction l as [|x l IH]; intros acc H Ha; cbn [fold_left]; auto. apply IH; [intros; apply H; right; auto|].
  apply add_up_l; auto. apply up_nonneg. apply H. left; auto.
Qed.
Lemma edge_total (F G : xr -> xr -> xr) B S : B <> [] -> length B = length S ->
  (forall b s, In b B -> In s S -> F b s = NaN \/ (F b s = MInf /\ up (G b s))) ->
  xadd (fold_left xadd (map2 F B S) (Fin 0)) (fold_left xadd (map2 G B S) (Fin 0)) = NaN.
Proof.
  intros HB E H.
  assert (D : In NaN (map2 F B S) \/ ((forall x, In x (map2 F B S) -> x = MInf) /\ (forall x, In x (map2 G B S) -> up x))).
  { clear HB. revert S E H. induction B as [|b B IH]; intros [|s S] E H; try discriminate; [right; split; intros x []|].
    destruct (IH S) as [HN|[H1 H2]]; [injection E; auto|intros; apply H; right; auto|left; right; auto|].
    destruct (H b s) as [HN|[HM HU]]; [left; auto|left; auto|left; left; auto|].
    right. cbn [map2]. split; intros x [<-|Hx]; auto. }
  destruct D as [D|[H1 H2]].
  - rewrite (fold_in_nan _ _ D). reflexivity.
  - destruct B as [|b B]; [congruence|]. destruct S as [|s S]; [discriminate|]. cbn [map2 fold_left] in *.
    rewrite (H1 (F b s)) by (left; auto). change (xadd (Fin 0) MInf) with MInf. rewrite fold_minf by (intros; apply H1; right; auto).
    assert (HU : up (fold_left xadd (map2 G B S) (xadd (Fin 0) (G b s)))).
    { apply fold_up; [intros; apply H2; right; auto|]. apply add_up_r; [apply fin_nonneg; lra|apply H2; left; auto]. }
    destruct HU as [-> | ->]; reflexivity.
Qed.
(** EHO2010 is NaN on the whole edge eB = 0 or eS = 0, whatever the data *)
Theorem C113_eho_nan_on_the_edge : forall a d eb es m B S, 0 <= a <= 1 -> 0 <= d <= 1 -> 0 <= eb -> 0 <= es -> 0 <= m ->
  eb = 0 \/ es = 0 -> B <> [] -> length B = length S -> (forall x, In x B -> 0 <= x) -> (forall x, In x S -> 0 <= x) ->
  loglikelihood_EHO2010 XRA (map Fin B) (map Fin S) (pt a d eb es m) = NaN.
Proof.
  intros a d eb es m B S Ha Hd Hb Hs Hm Hz HB E PB PS. unfold loglikelihood_EHO2010. cbn [nopp nadd XRA].
  assert (H := edge_total (eho_first XRA (pt a d eb es m)) (eho_second XRA (pt a d eb es m)) (map Fin B) (map Fin S)).
  refine (eq_trans (f_equal xopp (H _ _ _)) eq_refl).
  - destruct B; [congruence|discriminate].
  - now rewrite !map_length.
  - intros b s Ib Is. apply in_map_iff in Ib, Is. destruct Ib as (b' & <- & Ib), Is as (s' & <- & Is).
    apply eho_edge_day; auto.
Qed.

(** LK2011 on the same edge *)
Lemma xlog_pinf : xlog PInf = PInf. Proof. reflexivity. Qed.
Lemma pos_inf r : 0 < r -> xsgn_inf r = PInf.
Proof. intros H. unfold xsgn_inf. destruct (total_order_T r 0) as [[|]|]; auto; lra. Qed.
Lemma neg_inf r : r < 0 -> xsgn_inf r = MInf.
Proof. intros H. unfold xsgn_inf. destruct (total_order_T r 0) as [[|]|]; auto; lra. Qed.
Lemma zero_inf : xsgn_inf 0 = NaN.
Proof. unfold xsgn_inf. destruct (total_order_T 0 0) as [[|]|]; auto; lra. Qed.
Lemma div_zero m : 0 < m -> xdiv (Fin m) (Fin 0) = PInf.
Proof. intros H. cbn [xdiv]. destruct (Req_EM_T 0 0); [apply pos_inf; auto|lra]. Qed.
(** a day with at least one buy when the uninformed buy rate is zero: only a good-news day can have produced it *)
Lemma lk_edge_buy a d es m b s : 0 < es -> 0 < m -> 0 < b ->
  let e1 := - m - s * ln (1 + m / es) in
  lk_first XRA (pt a d 0 es m) (Fin b) (Fin s) = Fin (- es + b * ln m + s * ln (m + es) + e1) /\
  lk_second XRA (pt a d 0 es m) (Fin b) (Fin s) = xlog (Fin (a * (1 - d))).
Proof.
  intros Hs Hm Hb e1.
  assert (E : lk_exponents XRA (pt a d 0 es m) (Fin b) (Fin s) = (Fin e1, MInf, MInf, Fin e1)).
  { unfold lk_exponents. cbn [Model_pin.eB Model_pin.eS Model_pin.mu pt]. cbn [nadd nsub nmul ndiv nopp nlog nexp npow ofZ XRA].
    assert (0 < m / es) by (apply Rdiv_lt_0_compat; auto).
    rewrite (div_zero m Hm), (xdiv_fin m es) by lra. cbn [xadd]. rewrite xlog_pinf, (xlog_fin (1 + m / es)) by lra.
    cbn [xopp xmul]. rewrite (pos_inf b), (neg_inf (- b)) by lra. cbn [xsub xopp xadd]. fold e1.
    unfold maximum. cbn [isnan XRA xisnan nltb xltb]. reflexivity. }
  unfold lk_first, lk_second. rewrite E. cbn [Model_pin.eB Model_pin.eS Model_pin.mu Model_pin.alpha Model_pin.delta pt].
  cbn [nadd nsub nmul ndiv nopp nlog nexp npow ofZ XRA]. cbn [xadd xsub xopp xmul].
  rewrite (xlog_fin (m + 0)), (xlog_fin (m + es)) by lra. cbn [xadd xsub xopp xmul xexp].
  split; [f_equal; rewrite Rplus_0_r; ring|]. f_equal. f_equal. replace (e1 - e1) with 0 by ring. rewrite exp_0. ring.
Qed.
Lemma lk_edge_sell a d eb m b s : 0 < eb -> 0 < m -> 0 < s ->
  let e2 := - m - b * ln (1 + m / eb) in
  lk_first XRA (pt a d eb 0 m) (Fin b) (Fin s) = Fin (- eb + b * ln (m + eb) + s * ln m + e2) /\
  lk_second XRA (pt a d eb 0 m) (Fin b) (Fin s) = xlog (Fin (a * d)).
Proof.
  intros Hs Hm Hb e2.
  assert (E : lk_exponents XRA (pt a d eb 0 m) (Fin b) (Fin s) = (MInf, Fin e2, MInf, Fin e2)).
  { unfold lk_exponents. cbn [Model_pin.eB Model_pin.eS Model_pin.mu pt]. cbn [nadd nsub nmul ndiv nopp nlog nexp npow ofZ XRA].
    assert (0 < m / eb) by (apply Rdiv_lt_0_compat; auto).
    rewrite (div_zero m Hm), (xdiv_fin m eb) by lra. cbn [xadd]. rewrite xlog_pinf, (xlog_fin (1 + m / eb)) by lra.
    cbn [xopp xmul]. rewrite (pos_inf s) by lra. cbn [xsub xopp xadd]. fold e2.
    unfold maximum. cbn [isnan XRA xisnan nltb xltb]. reflexivity. }
  unfold lk_first, lk_second. rewrite E. cbn [Model_pin.eB Model_pin.eS Model_pin.mu Model_pin.alpha Model_pin.delta pt].
  cbn [nadd nsub nmul ndiv nopp nlog nexp npow ofZ XRA]. cbn [xadd xsub xopp xmul].
  rewrite (xlog_fin (m + 0)), (xlog_fin (m + eb)) by lra. cbn [xadd xsub xopp xmul xexp].
  split; [f_equal; rewrite Rplus_0_r; ring|]. f_equal. f_equal. replace (e2 - e2) with 0 by ring. rewrite exp_0. ring.
Qed.
(** a day without buys (sells) there: 0 * inf *)
Lemma lk_edge_no_buy a d es m s : 0 <= m -> lk_first XRA (pt a d 0 es m) (Fin 0) (Fin s) = NaN.
Proof.
  intros Hm. unfold lk_first, lk_exponents. cbn [Model_pin.eB Model_pin.eS Model_pin.mu Model_pin.alpha Model_pin.delta pt].
  cbn [nadd nsub nmul ndiv nopp nlog nexp npow ofZ XRA].
  assert (E : xmul (Fin 0) (xlog (xadd (Fin 1) (xdiv (Fin m) (Fin 0)))) = NaN).
  { cbn [xdiv]. destruct (Req_EM_T 0 0); [|lra]. destruct (sgn_inf_cases m Hm) as [[_ ->]|[_ ->]]; cbn [xadd xlog xmul]; auto. apply zero_inf. }
  rewrite E. cbn [xopp xsub xadd]. 
  assert (MN : forall x y, maximum XRA (maximum XRA x NaN) y = NaN).
  { intros x y. unfold maximum. cbn [isnan XRA]. change (num XRA) with xr in *. destruct x; reflexivity. }
  rewrite MN. match goal with |- xadd ?x NaN = NaN => destruct x; reflexivity end.
Qed.
Lemma lk_edge_no_sell a d eb m b : 0 <= m -> lk_first XRA (pt a d eb 0 m) (Fin b) (Fin 0) = NaN.
Proof.
  intros Hm. unfold lk_first, lk_exponents. cbn [Model_pin.eB Model_pin.eS Model_pin.mu Model_pin.alpha Model_pin.delta pt].
  cbn [nadd nsub nmul ndiv nopp nlog nexp npow ofZ XRA].
  assert (E : xmul (Fin 0) (xlog (xadd (Fin 1) (xdiv (Fin m) (Fin 0)))) = NaN).
  { cbn [xdiv]. destruct (Req_EM_T 0 0); [|lra]. destruct (sgn_inf_cases m Hm) as [[_ ->]|[_ ->]]; cbn [xadd xlog xmul]; auto. apply zero_inf. }
  rewrite E. cbn [xopp xsub xadd]. 
  assert (MN : forall x y, maximum XRA (maximum XRA NaN x) y = NaN) by (intros; reflexivity).
  rewrite MN. match goal with |- xadd ?x NaN = NaN => destruct x; reflexivity end.
Qed.
Lemma nan_total (F G : xr -> xr -> xr) B S : In NaN (map2 F B S) ->
  xopp (xadd (fold_left xadd (map2 F B S) (Fin 0)) (fold_left xadd (map2 G B S) (Fin 0))) = NaN.
Proof. intros H. rewrite fold_in_nan by auto. reflexivity. Qed.
Lemma in_days (F : xr -> xr -> xr) BS q : In q BS -> In (F (Fin (INR (fst q))) (Fin (INR (snd q)))) (map2 F (buys BS) (sells BS)).
Proof.
  unfold buys, sells. induction BS as [|p BS IH]; intros []; cbn [map map2].
  - subst p. left. reflexivity.
  - right. auto.
Qed.
(** NaN as soon as one day has no buys, even when the probability of the sample is positive *)
Theorem C113_lk_nan_without_buys : forall a d es m BS, 0 <= m -> (exists q, In q BS /\ fst q = 0%nat) ->
  loglikelihood_LK2011 XRA (buys BS) (sells BS) (pt a d 0 es m) = NaN.
Proof.
  intros a d es m BS Hm (q & Hq & Eq). unfold loglikelihood_LK2011. cbn [nopp nadd XRA]. refine (nan_total _ _ _ _ _).
  assert (H := in_days (lk_first XRA (pt a d 0 es m)) BS q Hq). rewrite Eq in H. change (INR 0) with 0 in H.
  rewrite lk_edge_no_buy in H by auto. exact H.
Qed.
Theorem C113_lk_nan_without_sells : forall a d eb m BS, 0 <= m -> (exists q, In q BS /\ snd q = 0%nat) ->
  loglikelihood_LK2011 XRA (buys BS) (sells BS) (pt a d eb 0 m) = NaN.
Proof.
  intros a d eb m BS Hm (q & Hq & Eq). unfold loglikelihood_LK2011. cbn [nopp nadd XRA]. refine (nan_total _ _ _ _ _).
  assert (H := in_days (lk_first XRA (pt a d eb 0 m)) BS q Hq). rewrite Eq in H. change (INR 0) with 0 in H.
  rewrite lk_edge_no_sell in H by auto. exact H.
Qed.
Lemma poisson_pos l k : 0 < l -> 0 < poisson l k.
Proof.
  intros Hl. unfold poisson. apply Rdiv_lt_0_compat; [|apply INR_fact_lt_0].
  apply Rmult_lt_0_compat; [apply exp_pos|apply pow_lt; auto].
Qed.
Lemma poisson_zero k : (0 < k)%nat -> poisson 0 k = 0.
Proof. intros H. unfold poisson. rewrite pow_i by auto. lra. Qed.
Lemma poisson_zero_zero : poisson 0 0 = 1.
Proof. unfold poisson. rewrite Ropp_0, exp_0. cbn. lra. Qed.
Theorem C113_lost_sample_has_positive_probability : forall a d es m S, 0 <= a < 1 -> 0 <= d <= 1 -> 0 < es -> 0 <= m -> 0 < day_likelihood a d 0 es m 0 S.
Proof.
  intros a d es m S Ha Hd Hs Hm. unfold day_likelihood. rewrite poisson_zero_zero.
  assert (P1 := poisson_pos es S Hs). assert (P2 := poisson_pos (es + m) S ltac:(lra)).
  assert (P3 : 0 <= poisson (0 + m) 0) by (unfold poisson; cbn; assert (Hx := exp_pos (- (0 + m))); lra).
  generalize dependent (poisson es S). generalize dependent (poisson (es + m) S). generalize dependent (poisson (0 + m) 0).
  intros u Hu v Hv w Hw.
  assert (0 <= a * d * (1 * v)) by (repeat apply Rmult_le_pos; lra).
  assert (0 < (1 - a) * (1 * w)) by (repeat apply Rmult_lt_0_compat; lra).
  assert (0 <= a * (1 - d) * (u * w)) by (repeat apply Rmult_le_pos; lra). lra.
Qed.
Lemma edge_day_likelihood_buy a d es m B S : (0 < B)%nat -> day_likelihood a d 0 es m B S = a * (1 - d) * (poisson m B * poisson es S).
Proof. intros H. unfold day_likelihood. rewrite poisson_zero by auto. rewrite Rplus_0_l. ring. Qed.
Lemma edge_day_likelihood_sell a d eb m B S : (0 < S)%nat -> day_likelihood a d eb 0 m B S = a * d * (poisson eb B * poisson m S).
Proof. intros H. unfold day_likelihood. rewrite (poisson_zero S) by auto. rewrite Rplus_0_l. ring. Qed.
Lemma ln_poisson l k : 0 < l -> ln (poisson l k) = - l + INR k * ln l - ln (INR (fact k)).
Proof.
  intros Hl. assert (HF := INR_fact_lt_0 k). assert (0 < l ^ k) by (apply pow_lt; auto). assert (He := exp_pos (- l)).
  unfold poisson, Rdiv. rewrite ln_mult, ln_Rinv, ln_mult, ln_exp by (auto; try apply Rinv_0_lt_compat; auto; apply Rmult_lt_0_compat; auto).
  assert (INR k * ln l = ln (l ^ k)) as ->; [|ring]. rewrite <- Rpower_pow by auto. unfold Rpower. rewrite ln_exp. reflexivity.
Qed.
Lemma day_sum_nat (F G : xr -> xr -> xr) (h : nat * nat -> R) BS :
  (forall q, In q BS -> exists u v, F (Fin (INR (fst q))) (Fin (INR (snd q))) = Fin u /\ G (Fin (INR (fst q))) (Fin (INR (snd q))) = Fin v /\ u + v = h q) ->
  xopp (xadd (fold_left xadd (map2 F (buys BS) (sells BS)) (Fin 0)) (fold_left xadd (map2 G (buys BS) (sells BS)) (Fin 0)))
  = Fin (- Rsum (map h BS)).
Proof.
  intros H.
  assert (E : exists U V, map2 F (buys BS) (sells BS) = map Fin U /\ map2 G (buys BS) (sells BS) = map Fin V
              /\ Rsum U + Rsum V = Rsum (map h BS)).
  { unfold buys, sells. induction BS as [|q BS IH]; [exists [], []; cbn; repeat split; lra|].
    destruct IH as (U&V&EU&EV&ES); [intros; apply H; right; auto|]. destruct (H q) as (u&v&Eu&Ev&Es); [left; auto|].
    exists (u :: U), (v :: V). cbn [map map2 Rsum]. rewrite Eu, Ev, EU, EV. repeat split. lra. }
  destruct E as (U&V&EU&EV&ES). rewrite EU, EV.
  etransitivity; [apply (f_equal xopp (f_equal2 xadd (asum_fin U) (asum_fin V)))|]. cbn [xadd xopp]. f_equal. lra.
Qed.
(** with buys on every day it is the likelihood of the mixture, which EHO2010 does not deliver there *)
Theorem C113_lk_correct_on_the_edge : forall a d es m BS, 0 < a -> d < 1 -> 0 < es -> 0 < m -> (forall q, In q BS -> (0 < fst q)%nat) ->
  loglikelihood_LK2011 XRA (buys BS) (sells BS) (pt a d 0 es m) = Fin (- (mixture_loglik a d 0 es m BS + log_factorials BS)).
Proof.
  intros a d es m BS Ha Hd Hs Hm H. unfold loglikelihood_LK2011. cbn [nopp nadd XRA].
  assert (HK : 0 < a * (1 - d)) by (apply Rmult_lt_0_compat; lra).
  refine (eq_trans (day_sum_nat _ _ (fun q => ln (day_likelihood a d 0 es m (fst q) (snd q)) + (ln (INR (fact (fst q))) + ln (INR (fact (snd q))))) BS _) _).
  - intros q Hq. assert (Hb : 0 < INR (fst q)) by (apply lt_0_INR; auto).
    destruct (lk_edge_buy a d es m (INR (fst q)) (INR (snd q)) Hs Hm Hb) as [-> ->].
    rewrite xlog_fin by auto. do 2 eexists. split; [reflexivity|]. split; [reflexivity|].
    rewrite edge_day_likelihood_buy by auto. assert (P1 := poisson_pos m (fst q) Hm). assert (P2 := poisson_pos es (snd q) Hs).
    rewrite (ln_mult (a * (1 - d))), (ln_mult (poisson m _)), !ln_poisson by (auto; apply Rmult_lt_0_compat; auto).
    replace (1 + m / es) with ((m + es) * / es) by (field; lra). rewrite (ln_mult (m + es)), ln_Rinv by (try apply Rinv_0_lt_compat; lra). ring.
  - unfold mixture_loglik, log_factorials. rewrite <- Rsum_plus. reflexivity.
Qed.
Theorem C113_lk_correct_on_the_sell_edge : forall a d eb m BS, 0 < a -> 0 < d -> 0 < eb -> 0 < m -> (forall q, In q BS -> (0 < snd q)%nat) ->
  loglikelihood_LK2011 XRA (buys BS) (sells BS) (pt a d eb 0 m) = Fin (- (mixture_loglik a d eb 0 m BS + log_factorials BS)).
Proof.
  intros a d eb m BS Ha Hd Hs Hm H. unfold loglikelihood_LK2011. cbn [nopp nadd XRA].
  assert (HK : 0 < a * d) by (apply Rmult_lt_0_compat; lra).
  refine (eq_trans (day_sum_nat _ _ (fun q => ln (day_likelihood a d eb 0 m (fst q) (snd q)) + (ln (INR (fact (fst q))) + ln (INR (fact (snd q))))) BS _) _).
  - intros q Hq. assert (Hb : 0 < INR (snd q)) by (apply lt_0_INR; auto).
    destruct (lk_edge_sell a d eb m (INR (fst q)) (INR (snd q)) Hs Hm Hb) as [-> ->].
    rewrite xlog_fin by auto. do 2 eexists. split; [reflexivity|]. split; [reflexivity|].
    rewrite edge_day_likelihood_sell by auto. assert (P1 := poisson_pos eb (fst q) Hs). assert (P2 := poisson_pos m (snd q) Hm).
    rewrite (ln_mult (a * d)), (ln_mult (poisson eb _)), !ln_poisson by (auto; apply Rmult_lt_0_compat; auto).
    replace (1 + m / eb) with ((m + eb) * / eb) by (field; lra). rewrite (ln_mult (m + eb)), ln_Rinv by (try apply Rinv_0_lt_compat; lra). ring.
  - unfold mixture_loglik, log_factorials. rewrite <- Rsum_plus. reflexivity.
Qed.
(** impossible samples get the worst possible value *)
Theorem C113_lk_impossible_sample : forall a d es m BS, a * (1 - d) = 0 -> 0 < es -> 0 < m -> BS <> [] -> (forall q, In q BS -> (0 < fst q)%nat) ->
  loglikelihood_LK2011 XRA (buys BS) (sells BS) (pt a d 0 es m) = PInf /\ (forall q, In q BS -> day_likelihood a d 0 es m (fst q) (snd q) = 0).
Proof.
  intros a d es m BS HK Hs Hm HBS H. split.
  2:{ intros q Hq. rewrite edge_day_likelihood_buy, HK by auto. ring. }
  unfold loglikelihood_LK2011. cbn [nopp nadd XRA].
  assert (E : exists U, map2 (lk_first XRA (pt a d 0 es m)) (buys BS) (sells BS) = map Fin U /\
                        forall x, In x (map2 (lk_second XRA (pt a d 0 es m)) (buys BS) (sells BS)) -> x = MInf).
  { unfold buys, sells. clear HBS. induction BS as [|q BS IH]; [exists []; split; [reflexivity|intros x []]|].
    destruct IH as (U & EU & EV); [intros; apply H; right; auto|]. 
    assert (Hb : 0 < INR (fst q)) by (apply lt_0_INR; apply H; left; auto).
    destruct (lk_edge_buy a d es m (INR (fst q)) (INR (snd q)) Hs Hm Hb) as [E1 E2].
    eexists (_ :: U). cbn [map map2]. split; [f_equal; [exact E1|exact EU]|].
    intros x [<-|Hx]; [|auto]. refine (eq_trans E2 _). rewrite HK. cbn [xlog]. destruct (total_order_T 0 0) as [[|]|]; auto; lra. }
  destruct E as (U & EU & EV).
  assert (E1 : fold_left xadd (map2 (lk_first XRA (pt a d 0 es m)) (buys BS) (sells BS)) (Fin 0) = Fin (Rsum U)).
  { change (num XRA) with xr in *. rewrite EU. apply (asum_fin U). }
  assert (E2 : fold_left xadd (map2 (lk_second XRA (pt a d 0 es m)) (buys BS) (sells BS)) (Fin 0) = MInf).
  { destruct BS as [|q BS]; [congruence|]. unfold buys, sells in *. cbn [map map2 fold_left] in *.
    assert (E0 := EV _ (or_introl eq_refl)). change (num XRA) with xr in *. rewrite E0. change (xadd (Fin 0) MInf) with MInf.
    apply fold_minf. intros; apply EV; right; auto. }
  refine (eq_trans (f_equal xopp (f_equal2 xadd E1 E2)) eq_refl).
Qed.
(** the edge is reached: a starting point lies on it whenever the mean number of sells is one of the values below, and EHO2010 is NaN there *)
Theorem C113_start_on_the_edge : forall B S a d g, B <> [] -> length B = length S -> (forall x, In x B -> 0 <= x) -> (forall x, In x S -> 0 <= x) ->
  In a [1/10; 3/10; 5/10; 7/10; 9/10] -> In d [1/10; 3/10; 5/10; 7/10; 9/10] -> In g [1/10; 3/10; 5/10; 7/10; 9/10] ->
  Rmean S = d / (1 - d) * (1 - g) * Rmean B ->
  exists p, In p (starting_values XRA (map Fin B) (map Fin S)) /\ eS XRA p = Fin 0 /\
            loglikelihood_EHO2010 XRA (map Fin B) (map Fin S) p = NaN.
Proof.
  intros B S a d g HB E PB PS Ia Id Ig HM.
  assert (HS : S <> []) by (intros ->; destruct B; [congruence|discriminate]).
  assert (Hq : In (a, d, g) rgrid3) by (apply rgrid3_in; auto).
  assert (Ra := rgrid_range a Ia). assert (Rd := rgrid_range d Id). assert (Rg := rgrid_range g Ig).
  assert (Hy : eS_of (yielded (Rmean B) (Rmean S) (a, d, g)) = 0) by (rewrite implied_sell_rate by auto; rewrite HM; ring).
  exists (as_point (yielded (Rmean B) (Rmean S) (a, d, g))). split; [|].
  - rewrite C53_exactly_feasible_grid_points by auto. apply in_map. apply filter_In. split; [apply in_map; auto|].
    unfold kept. rewrite Hy. destruct (Rle_dec 0 0); auto; lra.
  - assert (HBm : 0 <= Rmean B).
    { unfold Rmean, Rdiv. apply Rmult_le_pos; [|apply Rlt_le, Rinv_0_lt_compat, lt_0_INR; destruct B; [congruence|cbn; lia]].
      clear - PB. induction B as [|x B IH]; cbn; [lra|]. assert (0 <= x) by (apply PB; left; auto). assert (0 <= Rsum B) by (apply IH; intros; apply PB; right; auto). lra. }
    unfold yielded in *. cbn [eS_of as_point] in *. unfold pt. cbn [Model_pin.eS]. split; [f_equal; auto|].
    apply C113_eho_nan_on_the_edge; auto; try lra.
    + apply Rmult_le_pos; lra.
    + unfold Rdiv. apply Rmult_le_pos; [|apply Rlt_le, Rinv_0_lt_compat; apply Rmult_lt_0_compat; lra].
      apply Rmult_le_pos; lra.
Qed.
(** no buys at all: every one of the 125 starting points has eB = mu = 0 and both objectives are NaN there *)
Theorem C113_no_buys_at_all : forall B S p, B <> [] -> length B = length S -> (forall x, In x B -> x = 0) -> (forall x, In x S -> 0 <= x) ->
  In p (starting_values XRA (map Fin B) (map Fin S)) ->
  eB XRA p = Fin 0 /\ mu XRA p = Fin 0 /\
  loglikelihood_EHO2010 XRA (map Fin B) (map Fin S) p = NaN /\ loglikelihood_LK2011 XRA (map Fin B) (map Fin S) p = NaN.
Proof.
  intros B S p HB E ZB PS Hp.
  assert (HS : S <> []) by (intros ->; destruct B; [congruence|discriminate]).
  rewrite C53_exactly_feasible_grid_points in Hp by auto. apply in_map_iff in Hp. destruct Hp as (y & <- & Hy).
  apply filter_In in Hy. destruct Hy as [Hy Hk]. apply in_map_iff in Hy. destruct Hy as ([[a d] g] & <- & Hq).
  apply rgrid3_in in Hq. destruct Hq as (Ia & Id & Ig). apply rgrid_range in Ia, Id, Ig.
  assert (HBm : Rmean B = 0).
  { unfold Rmean. assert (Rsum B = 0) as ->; [|unfold Rdiv; ring]. clear - ZB. induction B as [|x B IH]; cbn; auto.
    rewrite (ZB x) by (left; auto). rewrite IH by (intros; apply ZB; right; auto). ring. }
  unfold kept in Hk. unfold yielded in *. rewrite HBm in *. cbn [eS_of as_point] in *. unfold pt. cbn [Model_pin.eB Model_pin.mu].
  assert (E1 : g * 0 = 0) by ring. rewrite E1 in *. assert (E2 : (1 - g) * 0 / (a * (1 - d)) = 0) by (unfold Rdiv; ring). rewrite E2 in *.
  destruct (Rle_dec _ _) as [Hs|]; [|discriminate]. split; auto. split; auto. split.
  - apply C113_eho_nan_on_the_edge; auto; try lra. intros x Hx. rewrite (ZB x Hx). lra.
  - unfold loglikelihood_LK2011. cbn [nopp nadd XRA]. refine (nan_total _ _ _ _ _).
    destruct B as [|b B]; [congruence|]. destruct S as [|s S]; [discriminate|]. cbn [map map2]. left.
    rewrite (ZB b) by (left; auto). apply lk_edge_no_buy. lra.
Qed.
Example C113_case : Rmean [5; 15] = (5/10) / (1 - 5/10) * (1 - 5/10) * Rmean [10; 30] /\ (forall q, In q [(3, 2); (5, 0)]%nat -> (0 < fst q)%nat).
Proof. split; [unfold Rmean; cbn; lra|]. intros q [<-|[<-|[]]]; cbn; lia. Qed.
