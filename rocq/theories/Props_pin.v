(** * Theorems: PIN likelihoods (C54, C55), starting values (C53), the PIN ratio (C52) *)
From Coq Require Import Reals Lra ZArith List Bool Arith Lia.
From Verif Require Import Arith XR RealAux Model_pin.
Import ListNotations.
Local Open Scope R_scope.

Definition pt (a d b s m : R) : p5 XRA := mkP5 XRA (Fin a) (Fin d) (Fin b) (Fin s) (Fin m).
(** the optimizer's bounds (l.66-72), with positive uninformed rates *)
Definition admissible (a d b s m : R) : Prop := 0 <= a <= 1 /\ 0 <= d <= 1 /\ 0 < b /\ 0 < s /\ 0 <= m.

(** ** The model of Easley et al.: Poisson arrivals, information events with probability alpha, bad news
    with conditional probability delta, informed arrivals at rate mu. *)
Definition poisson (lam : R) (k : nat) : R := exp (- lam) * lam ^ k / INR (fact k).
Definition day_likelihood (a d eb es m : R) (B S : nat) : R :=
  a * d * (poisson eb B * poisson (es + m) S)           (* bad news: informed sell *)
  + a * (1 - d) * (poisson (eb + m) B * poisson es S)   (* good news: informed buy *)
  + (1 - a) * (poisson eb B * poisson es S).            (* no news *)
Definition mixture_loglik (a d eb es m : R) (BS : list (nat * nat)) : R :=
  Rsum (map (fun q => ln (day_likelihood a d eb es m (fst q) (snd q))) BS).

(** common factorization *)
Definition core (a d eb es m B S : R) : R :=
  a * (1 - d) * exp (- m) * Rpower (es / (m + es)) S + a * d * exp (- m) * Rpower (eb / (m + eb)) B
  + (1 - a) * Rpower (es / (m + es)) S * Rpower (eb / (m + eb)) B.
Definition day_ll (a d eb es m B S : R) : R :=
  - eb - es + B * ln (m + eb) + S * ln (m + es) + ln (core a d eb es m B S).
Lemma mix_pos a d x y z : 0 <= a <= 1 -> 0 <= d <= 1 -> 0 < x -> 0 < y -> 0 < z ->
  0 < a * (1 - d) * x + a * d * y + (1 - a) * z.
Proof.
  intros Ha Hd Hx Hy Hz.
  assert (H1 : 0 <= a * (1 - d) * x) by (apply Rmult_le_pos; [apply Rmult_le_pos|]; lra).
  assert (H2 : 0 <= a * d * y) by (apply Rmult_le_pos; [apply Rmult_le_pos|]; lra).
  assert (H3 : 0 <= (1 - a) * z) by (apply Rmult_le_pos; lra).
  destruct (Rlt_dec a 1) as [H|H]; [assert (0 < (1 - a) * z) by (apply Rmult_lt_0_compat; lra); lra|].
  assert (a = 1) by lra; subst. destruct (Rlt_dec d 1).
  - assert (0 < 1 * (1 - d) * x) by (apply Rmult_lt_0_compat; lra). lra.
  - assert (d = 1) by lra; subst. lra.
Qed.
Lemma core_pos a d eb es m B S : admissible a d eb es m -> 0 < core a d eb es m B S.
Proof.
  intros (Ha&Hd&Hb&Hs&Hm). unfold core.
  assert (H := mix_pos a d (exp (- m) * Rpower (es / (m + es)) S) (exp (- m) * Rpower (eb / (m + eb)) B)
            (Rpower (es / (m + es)) S * Rpower (eb / (m + eb)) B) Ha Hd).
  assert (HP : forall x y, 0 < Rpower x y) by (intros; apply exp_pos).
  assert (HE := exp_pos (- m)).
  specialize (H ltac:(apply Rmult_lt_0_compat; auto) ltac:(apply Rmult_lt_0_compat; auto) ltac:(apply Rmult_lt_0_compat; auto)).
  lra.
Qed.
Lemma Rpower_sub x y z : Rpower x (y - z) = Rpower x y * Rpower x (- z).
Proof. rewrite <- Rpower_plus. f_equal. Qed.
Lemma Rpower_opp_self x y : Rpower x (- y) * Rpower x y = 1.
Proof. rewrite <- Rpower_plus. replace (- y + y) with 0 by lra. unfold Rpower. rewrite Rmult_0_l. apply exp_0. Qed.
Lemma ratio_pos e m : 0 < e -> 0 <= m -> 0 < e / (m + e).
Proof. intros; apply Rdiv_lt_0_compat; lra. Qed.
Lemma minimum_fin b s : exists r, minimum XRA (Fin b) (Fin s) = Fin r.
Proof. unfold minimum. cbn [isnan XRA xisnan]. destruct (nltb _ _); eexists; reflexivity. Qed.
Lemma maximum_fin b s : exists r, maximum XRA (Fin b) (Fin s) = Fin r /\ b <= r /\ s <= r /\ (r = b \/ r = s).
Proof.
  unfold maximum. cbn [isnan XRA xisnan nltb]. destruct (xltb (Fin b) (Fin s)) eqn:E.
  - apply xltb_iff in E. exists s. repeat split; auto; lra.
  - exists b. assert (~ b < s) by (intros H; apply xltb_iff in H; congruence). repeat split; auto; lra.
Qed.
Lemma eho_day a d eb es m B S : admissible a d eb es m ->
  exists u v, eho_first XRA (pt a d eb es m) (Fin B) (Fin S) = Fin u /\
              eho_second XRA (pt a d eb es m) (Fin B) (Fin S) = Fin v /\ u + v = day_ll a d eb es m B S.
Proof.
  intros H. assert (H' := H). destruct H as (Ha&Hd&Hb&Hs&Hm).
  destruct (minimum_fin B S) as [lo E1]. destruct (maximum_fin B S) as (hi&E2&_).
  unfold eho_first, eho_second. cbn [Model_pin.eB Model_pin.eS Model_pin.mu Model_pin.alpha Model_pin.delta pt].
  rewrite E1, E2. cbn [nadd nsub nmul ndiv nopp nlog nexp npow ofZ XRA].
  cbn [xadd xsub xmul xopp xexp]. rewrite !(xdiv_fin _ (m + es)), !(xdiv_fin _ (m + eb)), !(xdiv_fin _ 2) by lra.
  cbn [xadd xsub xmul xopp xexp]. set (M := lo + hi / 2).
  assert (Hxs := ratio_pos es m Hs Hm). assert (Hxb := ratio_pos eb m Hb Hm).
  set (xs := es / (m + es)) in *. set (xb := eb / (m + eb)) in *.
  rewrite !(xlog_fin xb), !(xlog_fin xs), !(xlog_fin (m + eb)), !(xlog_fin (m + es)) by lra.
  rewrite !xpow_fin by auto. cbn [xadd xsub xmul xopp xexp].
  set (K := core a d eb es m B S).
  assert (HK : a * (1 - d) * exp (- m) * Rpower xs (S - M) * Rpower xb (- M)
               + a * d * exp (- m) * Rpower xb (B - M) * Rpower xs (- M)
               + (1 - a) * Rpower xs (S - M) * Rpower xb (B - M) = K * Rpower xs (- M) * Rpower xb (- M)).
  { unfold K, core. fold xs xb. rewrite !Rpower_sub. ring. }
  assert (KP : 0 < K) by (apply core_pos; auto).
  assert (HP : forall x y, 0 < Rpower x y) by (intros; apply exp_pos).
  assert (KP' : 0 < K * Rpower xs (- M) * Rpower xb (- M)) by (repeat apply Rmult_lt_0_compat; auto).
  rewrite HK, xlog_fin by auto.
  eexists; eexists. split; [reflexivity|split; [reflexivity|]].
  rewrite !ln_mult by (auto; repeat apply Rmult_lt_0_compat; auto).
  unfold Rpower. rewrite !ln_exp. unfold day_ll. fold K. ring.
Qed.
Lemma lk_day a d eb es m B S : admissible a d eb es m ->
  exists u v, lk_first XRA (pt a d eb es m) (Fin B) (Fin S) = Fin u /\
              lk_second XRA (pt a d eb es m) (Fin B) (Fin S) = Fin v /\ u + v = day_ll a d eb es m B S.
Proof.
  intros H. assert (H' := H). destruct H as (Ha&Hd&Hb&Hs&Hm).
  unfold lk_first, lk_second, lk_exponents. cbn [Model_pin.eB Model_pin.eS Model_pin.mu Model_pin.alpha Model_pin.delta pt].
  cbn [nadd nsub nmul ndiv nopp nlog nexp npow ofZ XRA].
  rewrite !(xdiv_fin _ es), !(xdiv_fin _ eb) by lra. cbn [xadd].
  assert (Hxs := ratio_pos es m Hs Hm). assert (Hxb := ratio_pos eb m Hb Hm).
  assert (Es : 1 + m / es = / (es / (m + es))) by (field; lra).
  assert (Eb : 1 + m / eb = / (eb / (m + eb))) by (field; lra).
  rewrite Es, Eb. rewrite !(xlog_fin (/ _)) by (apply Rinv_0_lt_compat; auto).
  rewrite !ln_Rinv by auto. cbn [xadd xsub xmul xopp xexp].
  set (xs := es / (m + es)) in *. set (xb := eb / (m + eb)) in *.
  set (e1 := - m - S * - ln xs). set (e2 := - m - B * - ln xb). set (e3 := - B * - ln xb - S * - ln xs).
  destruct (maximum_fin e1 e2) as (r&->&_). destruct (maximum_fin r e3) as (e&->&_).
  rewrite (xlog_fin (m + eb)), (xlog_fin (m + es)) by lra. cbn [xadd xsub xmul xopp xexp].
  set (K := core a d eb es m B S).
  assert (HK : a * (1 - d) * exp (e1 - e) + a * d * exp (e2 - e) + (1 - a) * exp (e3 - e) = K * exp (- e)).
  { unfold K, core, Rminus. rewrite !exp_plus. fold xs xb. unfold e1, e2, e3, Rpower.
    replace (- m - S * - ln xs) with (- m + S * ln xs) by ring. replace (- m - B * - ln xb) with (- m + B * ln xb) by ring.
    replace (- B * - ln xb - S * - ln xs) with (S * ln xs + B * ln xb) by ring. rewrite !exp_plus. ring. }
  assert (KP : 0 < K) by (apply core_pos; auto).
  assert (KP' : 0 < K * exp (- e)) by (apply Rmult_lt_0_compat; auto; apply exp_pos).
  rewrite HK, xlog_fin by auto.
  eexists; eexists. split; [reflexivity|split; [reflexivity|]].
  rewrite ln_mult, ln_exp by (auto; apply exp_pos). unfold day_ll. fold K. ring.
Qed.
Lemma day_sum (F G : xr -> xr -> xr) (h : R -> R -> R) B S :
  (forall b s, exists u v, F (Fin b) (Fin s) = Fin u /\ G (Fin b) (Fin s) = Fin v /\ u + v = h b s) ->
  xopp (xadd (asum (a:=XRA) (map2 F (map Fin B) (map Fin S))) (asum (a:=XRA) (map2 G (map Fin B) (map Fin S))))
  = Fin (- Rsum (map2 h B S)).
Proof.
  intros H.
  assert (E : exists U V, map2 F (map Fin B) (map Fin S) = map Fin U /\ map2 G (map Fin B) (map Fin S) = map Fin V
              /\ Rsum U + Rsum V = Rsum (map2 h B S)).
  { revert S; induction B as [|b B IH]; intros [|s S]; try (exists [], []; cbn; repeat split; lra).
    destruct (IH S) as (U&V&EU&EV&ES). destruct (H b s) as (u&v&Eu&Ev&Es).
    exists (u :: U), (v :: V). cbn [map map2 Rsum]. rewrite Eu, Ev, EU, EV. repeat split. lra. }
  destruct E as (U&V&EU&EV&ES). change (num XRA) with xr. rewrite EU, EV.
  etransitivity; [apply (f_equal xopp (f_equal2 xadd (asum_fin U) (asum_fin V)))|]. cbn [xadd xopp]. f_equal. lra.
Qed.

(** ** C54 *)
Theorem C54_factorizations_equal : forall a d eb es m B S, admissible a d eb es m ->
  loglikelihood_EHO2010 XRA (map Fin B) (map Fin S) (pt a d eb es m) =
  loglikelihood_LK2011 XRA (map Fin B) (map Fin S) (pt a d eb es m) /\
  is_fin (loglikelihood_EHO2010 XRA (map Fin B) (map Fin S) (pt a d eb es m)).
Proof.
  intros a d eb es m B S H. unfold loglikelihood_EHO2010, loglikelihood_LK2011. cbn [nopp nadd XRA].
  assert (E1 := day_sum _ _ _ B S (fun b s => eho_day a d eb es m b s H)).
  assert (E2 := day_sum _ _ _ B S (fun b s => lk_day a d eb es m b s H)).
  change (num XRA) with xr in *. 
  split; [etransitivity; [exact E1|symmetry; exact E2]|]. unfold is_fin.
  match goal with |- match ?x with _ => _ end => replace x with (Fin (- Rsum (map2 (day_ll a d eb es m) B S))) by (symmetry; exact E1) end. exact I.
Qed.
(** ** C55 *)
Lemma day_likelihood_pos a d eb es m B S : admissible a d eb es m -> 0 < day_likelihood a d eb es m B S.
Proof.
  intros (Ha&Hd&Hb&Hs&Hm).
  assert (HP : forall l k, 0 < l -> 0 < poisson l k).
  { intros l k Hl. unfold poisson. apply Rdiv_lt_0_compat; [|apply INR_fact_lt_0].
    apply Rmult_lt_0_compat; [apply exp_pos|apply pow_lt; auto]. }
  assert (H := mix_pos a d (poisson (eb + m) B * poisson es S) (poisson eb B * poisson (es + m) S) (poisson eb B * poisson es S) Ha Hd).
  unfold day_likelihood.
  specialize (H ltac:(apply Rmult_lt_0_compat; apply HP; lra) ltac:(apply Rmult_lt_0_compat; apply HP; lra) ltac:(apply Rmult_lt_0_compat; apply HP; lra)).
  lra.
Qed.
Lemma day_ll_poisson a d eb es m B S : admissible a d eb es m ->
  day_ll a d eb es m (INR B) (INR S) = ln (day_likelihood a d eb es m B S) + (ln (INR (fact B)) + ln (INR (fact S))).
Proof.
  intros H. assert (H' := H). destruct H as (Ha&Hd&Hb&Hs&Hm).
  assert (HF := fun k => INR_fact_lt_0 k).
  rewrite <- !ln_mult by (auto; try apply Rmult_lt_0_compat; auto; apply day_likelihood_pos; auto).
  unfold day_ll.
  assert (El : forall x k, 0 < x -> INR k * ln x = ln (x ^ k)).
  { intros x k Hx. rewrite <- Rpower_pow by auto. unfold Rpower. rewrite ln_exp. reflexivity. }
  rewrite !El by lra. replace (- eb - es) with (ln (exp (- eb - es))) by apply ln_exp.
  assert (Hp1 : 0 < (m + eb) ^ B) by (apply pow_lt; lra). assert (Hp2 : 0 < (m + es) ^ S) by (apply pow_lt; lra).
  assert (He := exp_pos (- eb - es)). assert (Hc := core_pos a d eb es m (INR B) (INR S) H').
  rewrite <- !ln_mult by (auto; repeat apply Rmult_lt_0_compat; auto). f_equal.
  unfold core, day_likelihood, poisson. rewrite !Rpower_pow by (apply ratio_pos; auto).
  unfold Rdiv. rewrite !Rpow_mult_distr, !pow_inv.
  replace (exp (- (es + m))) with (exp (- es) * exp (- m)) by (rewrite <- exp_plus; f_equal; ring).
  replace (exp (- (eb + m))) with (exp (- eb) * exp (- m)) by (rewrite <- exp_plus; f_equal; ring).
  replace (exp (- eb - es)) with (exp (- eb) * exp (- es)) by (rewrite <- exp_plus; f_equal; ring).
  replace (es + m) with (m + es) by ring. replace (eb + m) with (m + eb) by ring.
  field. repeat split; apply Rgt_not_eq; auto; apply HF.
Qed.
Definition log_factorials (BS : list (nat * nat)) : R := Rsum (map (fun q => ln (INR (fact (fst q))) + ln (INR (fact (snd q)))) BS).
Definition buys (BS : list (nat * nat)) : list xr := map Fin (map (fun q => INR (fst q)) BS).
Definition sells (BS : list (nat * nat)) : list xr := map Fin (map (fun q => INR (snd q)) BS).
Theorem C55_poisson_mixture : forall a d eb es m BS, admissible a d eb es m ->
  loglikelihood_EHO2010 XRA (buys BS) (sells BS) (pt a d eb es m) =
  Fin (- (mixture_loglik a d eb es m BS + log_factorials BS)).
Proof.
  intros a d eb es m BS H. unfold loglikelihood_EHO2010, buys, sells. cbn [nopp nadd XRA].
  assert (E1 := day_sum _ _ _ (map (fun q => INR (fst q)) BS) (map (fun q => INR (snd q)) BS) (fun b s => eho_day a d eb es m b s H)).
  etransitivity; [exact E1|]. do 2 f_equal. unfold mixture_loglik, log_factorials. rewrite <- Rsum_plus. f_equal.
  rewrite map2_map. induction BS as [|q BS IH]; cbn [map map2]; auto. f_equal; [apply day_ll_poisson; auto|apply IH; auto].
  apply day_sum. intros; apply eho_day; auto.
Qed.
(** so minimising the returned value over the admissible region is maximum likelihood *)
Corollary C55_same_maximisers : forall a d eb es m a' d' eb' es' m' BS, admissible a d eb es m -> admissible a' d' eb' es' m' ->
  (nleb (loglikelihood_EHO2010 XRA (buys BS) (sells BS) (pt a d eb es m))
        (loglikelihood_EHO2010 XRA (buys BS) (sells BS) (pt a' d' eb' es' m')) = true
   <-> mixture_loglik a' d' eb' es' m' BS <= mixture_loglik a d eb es m BS).
Proof. intros. rewrite !C55_poisson_mixture by auto. cbn [nleb XRA]. rewrite xleb_iff. split; lra. Qed.
Example C54_C55_case : admissible (3/10) (1/2) 60 50 40 /\ length [(75, 81); (120, 60)]%nat = 2%nat /\
  0 < day_likelihood (3/10) (1/2) 60 50 40 75 81.
Proof.
  assert (admissible (3/10) (1/2) 60 50 40) by (unfold admissible; lra).
  split; auto. split; auto. apply day_likelihood_pos; auto.
Qed.

(** ** C52 *)
Theorem C52_probability : forall a d eb es m, 0 <= a <= 1 -> 0 <= eb -> 0 <= es -> 0 <= m -> 0 < a * m + eb + es ->
  exists p, calculate_pin XRA (pt a d eb es m) = Fin p /\ p = a * m / (a * m + eb + es) /\ 0 <= p <= 1.
Proof.
  intros a d eb es m Ha Hb Hs Hm Hpos. unfold calculate_pin, pt. cbn [Model_pin.eB Model_pin.eS Model_pin.mu Model_pin.alpha nmul ndiv nadd XRA xmul xadd].
  rewrite xdiv_fin by lra. eexists. split; [reflexivity|]. split; [reflexivity|].
  assert (0 <= a * m) by (apply Rmult_le_pos; lra). split; [apply Rmult_le_pos; [auto|left; apply Rinv_0_lt_compat; auto]|].
  apply div_le_iff; lra.
Qed.
Theorem C52_nan_iff : forall a d eb es m, 0 <= a <= 1 -> 0 <= eb -> 0 <= es -> 0 <= m ->
  (calculate_pin XRA (pt a d eb es m) = NaN <-> a * m = 0 /\ eb = 0 /\ es = 0).
Proof.
  intros a d eb es m Ha Hb Hs Hm. assert (0 <= a * m) by (apply Rmult_le_pos; lra).
  unfold calculate_pin, pt. cbn [Model_pin.eB Model_pin.eS Model_pin.mu Model_pin.alpha nmul ndiv nadd XRA xmul xadd]. split.
  - destruct (Req_dec (a * m + eb + es) 0) as [E|E]; [|rewrite xdiv_fin by auto; discriminate]. intros _. repeat split; lra.
  - intros (E1&E2&E3). rewrite E1, E2, E3. replace (0 + 0 + 0) with 0 by lra. rewrite xdiv_0. apply xsgn_inf_0.
Qed.
Lemma pin_mono x x' e e' : 0 <= x <= x' -> 0 < e' <= e -> x / (x + e) <= x' / (x' + e').
Proof.
  intros Hx He. assert (H1 : 0 < x + e) by lra. assert (H2 : 0 < x' + e') by lra.
  apply div_le_iff; auto. unfold Rdiv. rewrite Rmult_assoc, (Rmult_comm (/ _)), <- Rmult_assoc. apply le_div_iff; auto. nra.
Qed.
(** monotone: more (intense) information raises PIN, more uninformed trade lowers it *)
Theorem C52_monotone : forall a a' d d' eb eb' es es' m m', 0 <= a <= a' -> a' <= 1 -> 0 <= m <= m' -> 0 <= eb' <= eb -> 0 <= es' <= es -> 0 < eb' + es' ->
  nleb (calculate_pin XRA (pt a d eb es m)) (calculate_pin XRA (pt a' d' eb' es' m')) = true.
Proof.
  intros a a' d d' eb eb' es es' m m' Ha Ha' Hm Hb Hs Hpos.
  assert (0 <= a * m) by (apply Rmult_le_pos; lra). assert (0 <= a' * m') by (apply Rmult_le_pos; lra).
  assert (a * m <= a' * m') by (apply Rmult_le_compat; lra).
  destruct (C52_probability a d eb es m) as (p&->&->&_); try lra.
  destruct (C52_probability a' d' eb' es' m') as (p&->&->&_); try lra.
  cbn [nleb XRA]. apply xleb_iff. replace (a * m + eb + es) with (a * m + (eb + es)) by lra.
  replace (a' * m' + eb' + es') with (a' * m' + (eb' + es')) by lra. apply pin_mono; lra.
Qed.
Theorem C52_time_unit : forall c a d eb es m, 0 < c -> 0 <= a <= 1 -> 0 <= eb -> 0 <= es -> 0 <= m ->
  calculate_pin XRA (pt a d (c * eb) (c * es) (c * m)) = calculate_pin XRA (pt a d eb es m).
Proof.
  intros c a d eb es m Hc Ha Hb Hs Hm. assert (0 <= a * m) by (apply Rmult_le_pos; lra).
  unfold calculate_pin, pt. cbn [Model_pin.eB Model_pin.eS Model_pin.mu Model_pin.alpha nmul ndiv nadd XRA xmul xadd].
  replace (a * (c * m) + c * eb + c * es) with (c * (a * m + eb + es)) by ring.
  destruct (Req_dec (a * m + eb + es) 0) as [E|E].
  - rewrite E. replace (a * (c * m)) with 0 by nra. replace (a * m) with 0 by lra. rewrite Rmult_0_r. reflexivity.
  - rewrite !xdiv_fin by (auto; apply Rmult_integral_contrapositive; split; lra). f_equal. field. split; lra.
Qed.
(** a strictly larger arrival rate strictly raises PIN when there are informed trades *)
Theorem C52_strict_in_mu : forall a d eb es m m', 0 < a <= 1 -> 0 <= eb -> 0 <= es -> 0 < eb + es -> 0 <= m < m' ->
  nltb (calculate_pin XRA (pt a d eb es m)) (calculate_pin XRA (pt a d eb es m')) = true.
Proof.
  intros a d eb es m m' Ha Hb Hs Hpos Hm.
  assert (0 <= a * m) by (apply Rmult_le_pos; lra). assert (a * m < a * m') by (apply Rmult_lt_compat_l; lra).
  destruct (C52_probability a d eb es m) as (p&->&->&_); try lra.
  destruct (C52_probability a d eb es m') as (p&->&->&_); try lra.
  cbn [nltb XRA]. apply xltb_iff. apply div_lt_iff; [lra|]. unfold Rdiv. rewrite Rmult_assoc, (Rmult_comm (/ _)), <- Rmult_assoc.
  apply lt_div_iff; [lra|]. nra.
Qed.
(** the exact order of two pins: compare alpha*mu relative to the uninformed rates *)
Theorem C52_order : forall a d eb es m a' d' eb' es' m', 0 <= a <= 1 -> 0 <= a' <= 1 -> 0 <= eb -> 0 <= es -> 0 <= eb' -> 0 <= es' -> 0 <= m -> 0 <= m' ->
  0 < a * m + eb + es -> 0 < a' * m' + eb' + es' ->
  (nltb (calculate_pin XRA (pt a d eb es m)) (calculate_pin XRA (pt a' d' eb' es' m')) = true <-> a * m * (eb' + es') < a' * m' * (eb + es)).
Proof.
  intros a d eb es m a' d' eb' es' m' Ha Ha' Hb Hs Hb' Hs' Hm Hm' H H'.
  destruct (C52_probability a d eb es m) as (p&->&->&_); auto. destruct (C52_probability a' d' eb' es' m') as (p&->&->&_); auto.
  cbn [nltb XRA]. rewrite xltb_iff. rewrite div_lt_iff by exact H.
  replace (a' * m' / (a' * m' + eb' + es') * (a * m + eb + es)) with (a' * m' * (a * m + eb + es) / (a' * m' + eb' + es')) by (field; lra).
  rewrite lt_div_iff by exact H'. split; intros; nra.
Qed.
Example C52_case : calculate_pin XRA (pt (1/2) 0 10 10 40) = Fin (1/2) /\ calculate_pin XRA (pt 0 0 0 0 40) = NaN.
Proof.
  split; [|apply C52_nan_iff; lra]. destruct (C52_probability (1/2) 0 10 10 40) as (p&->&->&_); try lra. f_equal; lra.
Qed.
