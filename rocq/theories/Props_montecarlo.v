(** * Property C131: how far the simulated LRMES is from the exact one *)
From Coq Require Import Reals Lra Lia ZArith List Bool.
From Verif Require Import Arith XR RealAux Spec_garch Model_garch Model_ar Model_mgarch Model_lrmes Props_mgarch Props_lrmes Props_lrmes2 Draws Props_volterm.
Import ListNotations.
Local Open Scope R_scope.

(** everything [rng.choice] can return for S scenarios of h days from n: (n^h)^S possibilities *)
Definition experiments (n h S : nat) : list (list (list nat)) := sequences (day_draws n h) S.
(** the scenarios that are systemic, and the firm's returns in them *)
Definition systemic_draws (s : setting) (xi zm : list R) (C : R) (ds : list (list nat)) : list (list nat) := filter (fun d => is_systemic s C (shocks_of xi zm d)) ds.
Definition firm_returns (s : setting) (xi zm : list R) (C : R) (ds : list (list nat)) : list R := map (fun d => firm_return s (shocks_of xi zm d)) (systemic_draws s xi zm C ds).
(** minus the mean firm return over the systemic ones, 0 if there is none *)
Definition shortfall (s : setting) (xi zm : list R) (C : R) (ds : list (list nat)) : R :=
  match firm_returns s xi zm C ds with [] => 0 | l => - Rmean l end.

Lemma lrmes_shortfall cpp s xi zm C ds : good_setting s ->
  lrmes XRA cpp (inputs s) (Fin C) (map fin_shocks (resample xi zm ds)) = Fin (shortfall s xi zm C ds).
Proof.
  intros HG. rewrite C21_lrmes_is_the_conditional_mean by auto. f_equal. unfold shortfall, firm_returns, systemic_draws.
  assert (E : systemic s C (resample xi zm ds) = map (shocks_of xi zm) (filter (fun d => is_systemic s C (shocks_of xi zm d)) ds)).
  { unfold systemic, resample. induction ds as [|d ds IH]; [reflexivity|]. cbn [map filter]. unfold is_systemic at 1, shocks_of at 1. destruct (Rlt_dec _ C); rewrite IH; reflexivity. }
  rewrite E, <- (map_map (shocks_of xi zm) (firm_return s)). destruct (map (shocks_of xi zm) _); reflexivity.
Qed.
Lemma events_count cpp s xi zm C ds : good_setting s ->
  n_systemic_events XRA cpp (inputs s) (Fin C) (map fin_shocks (resample xi zm ds)) = Z.of_nat (length (systemic_draws s xi zm C ds)).
Proof.
  intros HG. unfold n_systemic_events. cbn [ofZ XRA]. rewrite accumulate_fin by auto. cbn [snd]. f_equal. rewrite Z.add_0_l. f_equal. unfold systemic, resample, systemic_draws.
  induction ds as [|d ds IH]; [reflexivity|]. cbn [map filter]. unfold is_systemic at 1, shocks_of at 1. destruct (Rlt_dec _ C); cbn [length]; rewrite IH; reflexivity.
Qed.

(** ** Conditional means as ratios of averages *)
Definition ind (b : bool) : R := if b then 1 else 0.
Lemma filter_sum {T} (P : T -> bool) (f : T -> R) l : Rsum (map f (filter P l)) = Rsum (map (fun x => f x * ind (P x)) l).
Proof. induction l as [|x l IH]; [reflexivity|]. cbn [filter map Rsum]. unfold ind at 1. destruct (P x); cbn [map Rsum]; rewrite IH; ring. Qed.
Lemma filter_count {T} (P : T -> bool) (l : list T) : INR (length (filter P l)) = Rsum (map (fun x => ind (P x)) l).
Proof. induction l as [|x l IH]; [reflexivity|]. cbn [filter map Rsum]. unfold ind at 1. destruct (P x); cbn [length]; rewrite ?S_INR, IH; ring. Qed.

Section Mean.
Context {T : Type} (all : list T) (Y : T -> bool) (X : T -> R) (S : nat).
Hypothesis NE : all <> [].
Local Notation p := (share all Y).
Local Notation hits l := (map X (filter Y l)).
Hypothesis PP : 0 < p.
Hypothesis SP : (0 < S)%nat.
Lemma hits_ne : hits all <> [].
Proof.
  intros E. apply map_eq_nil in E. apply (Rlt_irrefl 0). replace 0 with p at 2; [exact PP|]. unfold share, average.
  change (fun x => if Y x then 1 else 0) with (fun x => ind (Y x)). rewrite <- filter_count, E. cbn. unfold Rdiv. ring.
Qed.
Local Notation m := (Rmean (hits all)).
Lemma W_zero : average all (fun x => (X x - m) * ind (Y x)) = 0.
Proof.
  assert (P := len_pos _ hits_ne). rewrite map_length in P. unfold average. rewrite <- (filter_sum Y (fun x => X x - m)), (Rsum_minus X (fun _ => m) (filter Y all)), Rsum_const.
  unfold Rmean. rewrite map_length. unfold Rdiv at 1. match goal with |- ?a * _ = _ => replace a with 0 by (field; lra) end. ring.
Qed.
Lemma W_square : average all (fun x => ((X x - m) * ind (Y x)) ^ 2) = p * Rvar (hits all).
Proof.
  assert (P := len_pos _ hits_ne). rewrite map_length in P. assert (A := len_pos _ NE). unfold Rvar. set (c := m). unfold Rmean. rewrite map_map, !map_length. unfold share, average.
  change (fun x => if Y x then 1 else 0) with (fun x => ind (Y x)). rewrite <- filter_count.
  rewrite (Rsum_map_ext (fun x => ((X x - c) * ind (Y x)) ^ 2) (fun x => (X x - c) * (X x - c) * ind (Y x))) by (intros x _; unfold ind; destruct (Y x); ring).
  rewrite <- filter_sum. field. lra.
Qed.
Lemma Y_zero : average all (fun x => ind (Y x) - p) = 0.
Proof. unfold Rminus. rewrite average_plus, average_const by auto. unfold share. change (average all (fun x => ind (Y x))) with (average all (fun x => if Y x then 1 else 0)). ring. Qed.
Lemma Y_square : average all (fun x => (ind (Y x) - p) ^ 2) = p * (1 - p).
Proof.
  rewrite (average_ext all _ (fun x => (1 - 2 * p) * (if Y x then 1 else 0) + p ^ 2)) by (intros x _; unfold ind; destruct (Y x); ring).
  rewrite average_plus, average_scal, average_const by auto. change (average all (fun x => if Y x then 1 else 0)) with p. ring.
Qed.
Definition mean_or_zero (l : list R) : R := match l with [] => 0 | l => Rmean l end.
Lemma monte_carlo eps : 0 < eps ->
  share (sequences all S) (fun l => if Rlt_dec eps (Rabs (mean_or_zero (hits l) - m)) then true else false)
    <= 4 / (INR S * p) * (1 - p + Rvar (hits all) / eps ^ 2).
Proof.
  intros He. assert (HS : 0 < INR S) by (apply lt_0_INR; auto). assert (SPp : 0 < INR S * p) by (apply Rmult_lt_0_compat; auto).
  set (A := fun l => if Rlt_dec (INR S * p / 2) (Rabs (Rsum (map (fun x => ind (Y x) - p) l))) then true else false).
  set (B := fun l => if Rlt_dec (eps * (INR S * p / 2)) (Rabs (Rsum (map (fun x => (X x - m) * ind (Y x)) l))) then true else false).
  apply Rle_trans with (share (sequences all S) (fun l => A l || B l)).
  - apply share_le. intros l Hl. apply sequences_spec in Hl. destruct Hl as [Ll _]. destruct (Rlt_dec eps _) as [H|]; [intros _|discriminate]. unfold A, B.
    destruct (Rlt_dec (INR S * p / 2) _) as [|NA]; [reflexivity|]. destruct (Rlt_dec (eps * _) _) as [|NB]; [reflexivity|]. exfalso.
    assert (D : Rsum (map (fun x => ind (Y x) - p) l) = INR (length (filter Y l)) - INR S * p) by (rewrite (Rsum_minus (fun x => ind (Y x)) (fun _ => p) l), Rsum_const, filter_count, Ll; reflexivity).
    rewrite D in NA. assert (ND : INR S * p / 2 <= INR (length (filter Y l))).
    { apply Rnot_lt_le in NA. assert (Q := Rle_abs (- (INR (length (filter Y l)) - INR S * p))). rewrite Rabs_Ropp in Q. lra. }
    assert (HN : 0 < INR (length (filter Y l))) by lra.
    assert (E : Rsum (map (fun x => (X x - m) * ind (Y x)) l) = INR (length (filter Y l)) * (mean_or_zero (hits l) - m)).
    { rewrite <- (filter_sum Y (fun x => X x - m)). rewrite (Rsum_minus X (fun _ => m) (filter Y l)), Rsum_const.
      unfold mean_or_zero. destruct (hits l) as [|y q] eqn:EH; [apply map_eq_nil in EH; rewrite EH in HN; cbn in HN; lra|]. rewrite <- EH. unfold Rmean at 2. rewrite map_length. field. lra. }
    rewrite E, Rabs_mult, (Rabs_right (INR _)) in NB by lra. apply NB. apply Rle_lt_trans with (eps * INR (length (filter Y l))); [apply Rmult_le_compat_l; lra|]. rewrite Rmult_comm. apply Rmult_lt_compat_l; auto.
  - eapply Rle_trans; [apply share_or|].
    assert (BA := share_far (sequences all S) (fun l => Rsum (map (fun x => ind (Y x) - p) l)) (INR S * p / 2) ltac:(lra)).
    assert (BB := share_far (sequences all S) (fun l => Rsum (map (fun x => (X x - m) * ind (Y x)) l)) (eps * (INR S * p / 2)) ltac:(apply Rmult_lt_0_compat; lra)).
    cbv beta in BA, BB. rewrite (average_of_square all _ S NE Y_zero) in BA. rewrite (average_of_square all _ S NE W_zero) in BB. rewrite Y_square in BA. rewrite W_square in BB.
    fold A in BA. fold B in BB. eapply Rle_trans; [apply Rplus_le_compat; [exact BA|exact BB]|]. right. field. repeat split; lra.
Qed.
End Mean.

(** ** C131 *)
Lemma shortfall_mean s xi zm C ds : shortfall s xi zm C ds = - mean_or_zero (firm_returns s xi zm C ds).
Proof. unfold shortfall, mean_or_zero. destruct (firm_returns s xi zm C ds); [ring|reflexivity]. Qed.
(** Among all (n^h)^S possible draws, the share in which the reported LRMES is more than eps away from its exact value (the conditional mean over all n^h
    scenarios) is at most 4/(S p) (1 - p + var/eps^2), where p is the share of scenarios that are systemic and var the variance of the firm's return over them. *)
Theorem C131_monte_carlo_error : forall cpp s xi zm C h S eps, good_setting s -> length xi = length zm -> zm <> [] -> (0 < S)%nat -> 0 < eps ->
  let all := day_draws (length zm) h in
  let p := share all (fun d => is_systemic s C (shocks_of xi zm d)) in
  let exact := shortfall s xi zm C all in
  let reported ds := shortfall s xi zm C ds in
  0 < p ->
  (forall ds, In ds (experiments (length zm) h S) -> lrmes XRA cpp (inputs s) (Fin C) (map fin_shocks (resample xi zm ds)) = Fin (reported ds)) /\
  exact = - Rmean (firm_returns s xi zm C all) /\
  share (experiments (length zm) h S) (fun ds => if Rlt_dec eps (Rabs (reported ds - exact)) then true else false)
    <= 4 / (INR S * p) * (1 - p + Rvar (firm_returns s xi zm C all) / eps ^ 2).
Proof.
  intros cpp s xi zm C h S eps HG HL NE HS He all p exact reported Hp. split; [intros ds _; apply lrmes_shortfall; auto|].
  assert (NA : all <> []) by (apply draws_ne; auto). set (Y := fun d => is_systemic s C (shocks_of xi zm d)) in *. set (X := fun d => firm_return s (shocks_of xi zm d)).
  assert (EX : exact = - Rmean (firm_returns s xi zm C all)).
  { unfold exact, shortfall. destruct (firm_returns s xi zm C all) eqn:E; [|reflexivity]. exfalso. exact (hits_ne all Y X Hp E). }
  split; [exact EX|].
  assert (M := monte_carlo all Y X S NA Hp HS eps He). refine (Rle_trans _ _ _ _ M). apply share_le. intros ds _.
  unfold reported. rewrite shortfall_mean, EX. change (map X (filter Y ?l)) with (firm_returns s xi zm C l).
  replace (- mean_or_zero (firm_returns s xi zm C ds) - - Rmean (firm_returns s xi zm C all)) with (- (mean_or_zero (firm_returns s xi zm C ds) - Rmean (firm_returns s xi zm C all))) by ring.
  rewrite Rabs_Ropp. auto.
Qed.
Lemma above x : exists N, x < INR N.
Proof.
  destruct (archimed x) as [A _]. exists (Z.to_nat (up x)). destruct (Z_le_gt_dec 0 (up x)) as [H|H].
  - rewrite INR_IZR_INZ, Z2Nat.id by auto. lra.
  - apply Rlt_le_trans with 0; [|apply pos_INR]. apply Rlt_trans with (IZR (up x)); [lra|]. apply (IZR_lt _ 0). lia.
Qed.
(** So the estimate converges: for every tolerance and every level there is a number of simulations from which on at most that share of the draws is off by more. *)
Theorem C131_convergence : forall s xi zm C h eps level, good_setting s -> length xi = length zm -> zm <> [] -> 0 < eps -> 0 < level ->
  let all := day_draws (length zm) h in
  0 < share all (fun d => is_systemic s C (shocks_of xi zm d)) ->
  exists S0, forall S, (S0 <= S)%nat ->
    share (experiments (length zm) h S) (fun ds => if Rlt_dec eps (Rabs (shortfall s xi zm C ds - shortfall s xi zm C all)) then true else false) <= level.
Proof.
  intros s xi zm C h eps level HG HL NE He Hl all Hp. set (p := share all _) in *. set (v := 1 - p + Rvar (firm_returns s xi zm C all) / eps ^ 2).
  assert (P1 : p <= 1) by apply share_range.
  assert (V : 0 <= v).
  { unfold v. assert (0 <= Rvar (firm_returns s xi zm C all)).
    { unfold Rvar. set (q := map _ _). assert (Q : q <> []) by (unfold q; intros E; apply map_eq_nil in E; exact (hits_ne all _ (fun d => firm_return s (shocks_of xi zm d)) Hp E)).
      unfold Rmean. apply Rmult_le_pos; [apply Rsum_nonneg; intros y Hy; unfold q in Hy; apply in_map_iff in Hy; destruct Hy as (z & <- & _); apply Rle_0_sqr|left; apply Rinv_0_lt_compat, len_pos, Q]. }
    assert (0 <= Rvar (firm_returns s xi zm C all) / eps ^ 2) by (apply Rmult_le_pos; [auto|left; apply Rinv_0_lt_compat; nra]). lra. }
  destruct (above (4 * v / (p * level))) as [N HN]. exists (Nat.max 1 N). intros S HS.
  destruct (C131_monte_carlo_error true s xi zm C h S eps HG HL NE ltac:(lia) He Hp) as (_ & _ & B). refine (Rle_trans _ _ _ B _). fold all. fold p. fold v.
  assert (HS' : INR N <= INR S) by (apply le_INR; lia). assert (S0 : 0 < INR S) by (apply lt_0_INR; lia). assert (PL : 0 < p * level) by (apply Rmult_lt_0_compat; auto).
  assert (K : 4 * v < INR S * (p * level)).
  { apply Rlt_le_trans with (INR N * (p * level)); [|apply Rmult_le_compat_r; lra]. apply (Rmult_lt_reg_r (/ (p * level))); [apply Rinv_0_lt_compat; auto|].
    rewrite (Rmult_assoc (INR N)), Rinv_r by lra. unfold Rdiv in HN. lra. }
  apply (Rmult_le_reg_r (INR S * p)); [apply Rmult_lt_0_compat; auto|]. replace (4 / (INR S * p) * v * (INR S * p)) with (4 * v) by (field; lra). rewrite (Rmult_comm level), Rmult_assoc. left. exact K.
Qed.
(** On average S p of the S scenarios are systemic, and the share of the draws without a systemic scenario, for which 0 is reported, is exactly (1 - p)^S. *)
Theorem C131_number_of_events : forall cpp s xi zm C h S, good_setting s -> length xi = length zm -> zm <> [] ->
  let p := share (day_draws (length zm) h) (fun d => is_systemic s C (shocks_of xi zm d)) in
  let events ds := n_systemic_events XRA cpp (inputs s) (Fin C) (map fin_shocks (resample xi zm ds)) in
  average (experiments (length zm) h S) (fun ds => IZR (events ds)) = INR S * p /\
  share (experiments (length zm) h S) (fun ds => (events ds =? 0)%Z) = (1 - p) ^ S /\
  (forall ds, events ds = 0%Z -> lrmes XRA cpp (inputs s) (Fin C) (map fin_shocks (resample xi zm ds)) = Fin 0).
Proof.
  intros cpp s xi zm C h S HG HL NE p events. assert (NA : day_draws (length zm) h <> []) by (apply draws_ne; auto). set (Y := fun d => is_systemic s C (shocks_of xi zm d)) in *.
  assert (EV : forall ds, events ds = Z.of_nat (length (filter Y ds))) by (intros ds; apply events_count; auto).
  split; [|split].
  - rewrite (average_ext _ _ (fun ds => Rsum (map (fun d => ind (Y d)) ds))) by (intros ds _; rewrite EV, <- INR_IZR_INZ; apply filter_count).
    unfold experiments. rewrite average_of_sum by auto. reflexivity.
  - unfold p. rewrite <- (share_not _ Y NA), <- share_of_all by auto. unfold share. apply average_ext. intros ds _. rewrite EV.
    assert (E : (Z.of_nat (length (filter Y ds)) =? 0)%Z = forallb (fun x => negb (Y x)) ds).
    { induction ds as [|d ds IH]; [reflexivity|]. cbn [filter forallb]. destruct (Y d); cbn [negb andb length]; [apply Z.eqb_neq; lia|exact IH]. }
    rewrite E. reflexivity.
  - intros ds H0. rewrite lrmes_shortfall by auto. f_equal. unfold shortfall, firm_returns, systemic_draws. rewrite EV in H0. change (filter _ ds) with (filter Y ds). destruct (filter Y ds); [reflexivity|cbn in H0; lia].
Qed.

(** The same for a call of estimate on an object that has not been fitted: whatever days the generator draws, the call succeeds, and the share of the
    possible draws for which it returns something more than eps away from the exact value is bounded as above. *)
Theorem C131_estimate : forall cpp1 cpp2 m1 m2 mini C o o1 ri si rm sm gi gm a b h S eps,
  d_success XRA o = false -> dcc_fit XRA KGjr cpp1 m1 m2 mini o = Ok o1 -> d_success XRA o1 = true ->
  d_a XRA o1 = Fin a -> d_b XRA o1 = Fin b -> 0 <= a -> 0 <= b -> a + b < 1 ->
  st_resids XRA (fst (d_models XRA o1)) = map Fin ri -> st_sigma2 XRA (fst (d_models XRA o1)) = map Fin si ->
  st_resids XRA (snd (d_models XRA o1)) = map Fin rm -> st_sigma2 XRA (snd (d_models XRA o1)) = map Fin sm ->
  p_fields XRA (st_params XRA (fst (d_models XRA o1))) = gjr_fields gi -> p_fields XRA (st_params XRA (snd (d_models XRA o1))) = gjr_fields gm ->
  good_gjr gi -> good_gjr gm ->
  length ri = length si -> length rm = length sm -> length ri = length rm -> positive si -> positive sm ->
  let zi := zscores ri si in let zm := zscores rm sm in
  non_constant zi -> non_constant zm -> -1 < target_correlation cpp1 zi zm < 1 -> (0 < S)%nat -> 0 < eps ->
  exists rho, cond_corr XRA cpp1 (Fin a) (Fin b) (map Fin ri) (map Fin rm) (map Fin si) (map Fin sm) = Ok (map Fin rho) /\
    let s := forecast_setting gi gm a b ri si rm sm rho in
    let xi := orth zi zm rho in
    let all := day_draws (length zm) h in
    let p := share all (fun d => is_systemic s C (shocks_of xi zm d)) in
    let returned ds := match estimate XRA cpp1 cpp2 m1 m2 mini (fun _ => ds) (Fin C) o with Ok (Fin v, _) => v | _ => 0 end in
    good_setting s /\
    (forall ds, In ds (experiments (length zm) h S) -> exists v, estimate XRA cpp1 cpp2 m1 m2 mini (fun _ => ds) (Fin C) o = Ok (Fin v, o1)) /\
    (0 < p -> share (experiments (length zm) h S) (fun ds => if Rlt_dec eps (Rabs (returned ds - shortfall s xi zm C all)) then true else false)
      <= 4 / (INR S * p) * (1 - p + Rvar (firm_returns s xi zm C all) / eps ^ 2)).
Proof.
  intros cpp1 cpp2 m1 m2 mini C o o1 ri si rm sm gi gm a b h S eps Hs HF HS Ea Eb Ha Hb Hab R1 V1 R2 V2 P1 P2 G1 G2 L1 L2 L12 HP1 HP2 zi zm N1 N2 HT S0 He.
  destruct (estimate_value cpp1 m1 m2 mini (fun _ => []) o o1 ri si rm sm gi gm a b) as (rho & EC & HG & _); auto; [intros d k []|].
  exists rho. split; [exact EC|]. cbv zeta in HG |- *. set (s := forecast_setting gi gm a b ri si rm sm rho) in *. fold zi zm. set (xi := orth zi zm rho).
  assert (LM : length zm = length ri) by (unfold zm; rewrite zscores_length by auto; auto).
  assert (LR : length rho = length ri).
  { assert (Hne : ~ (a = 1 /\ b = 0)) by lra. destruct (C15_conditional_correlations_in_range cpp1 a b ri rm si sm L1 L2 L12 HP1 HP2 Ha Hb ltac:(lra) Hne N1 N2) as (rho' & EC' & L & _).
    change (num XRA) with xr in *. rewrite EC in EC'. injection EC' as EC'. apply (f_equal (@length xr)) in EC'. rewrite !map_length in EC'. lia. }
  assert (LX : length xi = length zm) by (unfold xi, orth; rewrite map2_length, combine_length, LR, LM; unfold zi; rewrite zscores_length by auto; lia).
  assert (NZ : zm <> []) by (intros E; apply non_constant_length in N2; rewrite E in N2; cbn in N2; lia).
  split; [exact HG|].
  assert (EE : forall ds, In ds (experiments (length zm) h S) -> estimate XRA cpp1 cpp2 m1 m2 mini (fun _ => ds) (Fin C) o = Ok (Fin (shortfall s xi zm C ds), o1)).
  { intros ds Hds. apply sequences_spec in Hds. destruct Hds as [_ Hds].
    destruct (estimate_value cpp1 m1 m2 mini (fun _ => ds) o o1 ri si rm sm gi gm a b) as (rho' & EC' & HG' & EE'); auto.
    - intros d k Hd Hk. apply Hds, sequences_spec in Hd. destruct Hd as [_ Hd]. apply Hd, in_seq in Hk. lia.
    - assert (ER : rho' = rho). { change (num XRA) with xr in *. rewrite EC in EC'. injection EC' as EC'. symmetry. clear -EC'. revert rho' EC'. induction rho as [|x l IH]; intros [|y m] E; try discriminate; [reflexivity|]. injection E as -> E. f_equal. auto. }
      subst rho'. cbv zeta in EE'. fold s zi zm xi in EE'. unfold estimate. rewrite EE'. cbn [bind fst snd]. rewrite lrmes_shortfall by auto. reflexivity. }
  split; [intros ds Hds; eexists; apply EE; auto|]. intros Hp.
  destruct (C131_monte_carlo_error cpp2 s xi zm C h S eps HG LX NZ S0 He Hp) as (_ & _ & B). refine (Rle_trans _ _ _ _ B). apply share_le. intros ds Hds. rewrite (EE ds Hds). auto.
Qed.

(** a case: two days, one-day horizon, threshold -0.1 percent: half of the scenarios are systemic *)
Example C131_case : good_setting vol_setting /\ share (day_draws (length [1; -1]) 1) (fun d => is_systemic vol_setting (- (1/1000)) (shocks_of [1; 1] [1; -1] d)) = 1 / 2 /\
  length (experiments 2 1 3) = 8%nat.
Proof.
  split; [apply C130_case|]. split; [|reflexivity].
  assert (V : first_variance vol_setting = 11/10) by apply C130_case.
  assert (M : forall x z, market_return vol_setting [(x, z)] = exp (sqrt (11/10) * z / 100) - 1).
  { intros x z. unfold market_return. cbn [path map Rsum]. unfold tomorrow. cbn [e_mkt]. change (gjr_update _ _ _ _ (v_mkt (today vol_setting)) (e_mkt (today vol_setting))) with (first_variance vol_setting).
    rewrite V. cbn [mkt vol_setting vol_gjr mu]. f_equal. f_equal. field. }
  assert (Q : 1 <= sqrt (11/10)) by (rewrite <- sqrt_1; apply sqrt_le_1_alt; lra).
  unfold share, average, day_draws. cbn [sequences seq length flat_map map app shocks_of nth Rsum]. unfold is_systemic. rewrite !M.
  assert (E1 : 1 <= exp (sqrt (11/10) * 1 / 100)) by (assert (X := exp_ineq1_le (sqrt (11/10) * 1 / 100)); lra).
  assert (E2 : exp (sqrt (11/10) * -1 / 100) <= 995/1000).
  { apply Rle_trans with (exp (- (1/100))); [destruct (Req_dec (sqrt (11/10) * -1 / 100) (- (1/100))) as [->|]; [lra|left; apply exp_increasing; lra]|].
    rewrite exp_Ropp. apply (Rmult_le_reg_l (exp (1/100))); [apply exp_pos|]. rewrite Rinv_r by (apply Rgt_not_eq, exp_pos). assert (X := exp_ineq1_le (1/100)). lra. }
  destruct (Rlt_dec (exp (sqrt (11/10) * 1 / 100) - 1) _); [lra|]. destruct (Rlt_dec (exp (sqrt (11/10) * -1 / 100) - 1) _); [|lra]. simpl. lra.
Qed.
