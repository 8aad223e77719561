(** * C82, C85: the single-cohort model and the lookup tables *)
From Coq Require Import Reals Lra List ZArith Lia Bool Permutation.
From Verif Require Import Arith XR RealAux Gauss Fourier Model_option Props_option Props_cca Model_merton Props_fftsmooth Props_loans Props_modmerton Props_modmerton2 Props_modmerton3.
Import ListNotations.
Local Open Scope R_scope.

(** ** Specification of the single-cohort model: all loans start at the valuation date and mature after N periods; debt matures after HN periods *)
Definition growth (q : bank_inputs) (N : nat) (row : list R) (i : nat) : R := INR i * drift q N + loading q N * Rsum (firstn i row).
Definition single_shock (q : bank_inputs) (fs : list R) (k : nat) : R :=
  let s := length fs in
  nth (Nat.modulo k s) fs 0 * (sqrt (i_rho q) * i_sig q) * sqrt (i_T q)
  + sqrt (i_rho q) * i_sig q / 10 * (if Nat.ltb k s then 0 else if Nat.ltb k (2 * s) then 1 else -1).
Definition single_payoff q N fs mu row k : R := payoff (promised_face q mu) (growth q N row N + single_shock q fs k) (origin q) (i_rho q) (i_sig q) (i_T q).
Definition single_assets q N HN fs row k : R := exp (growth q N row HN + single_shock q fs k + origin q) * exp (1 / 2 * (1 - i_rho q) * i_H q * (i_sig q * i_sig q)).
Definition single_portfolio round9 q N HN fs mu w : list (list R) :=
  let n := (length w * (3 * length fs))%nat in
  table (fun i k => local_average (asset_order round9 (scenarios (single_assets q N HN fs) w (3 * length fs))) (scenarios (single_payoff q N fs mu) w (3 * length fs))
                      (Nat.div (Nat.div n 20) 2) (i + length w * k) * exp (- i_r q * (i_T q - i_H q))) (length w) (3 * length fs).
(** what a call needs: N > 0, HN = H*N/T a whole number of periods, 0 <= HN; enough shocks on every path; at least one path and one state *)
Definition single_call (q : bank_inputs) (N HN : nat) (fs : list R) (w : list (list R)) : Prop :=
  valid_inputs q /\ (0 < N)%nat /\ i_H q * (INR N / i_T q) = INR HN /\ w <> [] /\ Forall (fun row => (N <= length row)%nat /\ (HN <= length row)%nat) w /\ fs <> [].

Lemma nth_triple fs k : (k < 3 * length fs)%nat -> nth k (map Fin fs ++ map Fin fs ++ map Fin fs) (Fin 0) = Fin (nth (Nat.modulo k (length fs)) fs 0).
Proof.
  intros Hk. rewrite <- !map_app. rewrite map_nth. f_equal. set (s := length fs) in *.
  destruct (Nat.ltb_spec k s); [rewrite app_nth1, Nat.mod_small by auto; reflexivity|]. rewrite app_nth2 by auto. fold s.
  destruct (Nat.ltb_spec (k - s) s) as [L|L].
  - rewrite app_nth1 by auto. f_equal. symmetry. replace k with ((k - s) + 1 * s)%nat at 1 by lia. rewrite Nat.mod_add, Nat.mod_small by lia. reflexivity.
  - rewrite app_nth2 by auto. fold s. f_equal. symmetry. replace k with ((k - s - s) + 2 * s)%nat at 1 by lia. rewrite Nat.mod_add, Nat.mod_small by lia. reflexivity.
Qed.
(** the result for any smoothed vector [S p] of finite numbers *)
Lemma single_fin round9 solve q N HN fs w mu (S : nat -> R) :
  single_call q N HN fs w -> solve (yield_equation q) (Fin (i_r q + 1 / 100)) = Fin mu ->
  let n := (length w * (3 * length fs))%nat in let s := length fs in
  smooth_by XRA round9 (fun l => fftsmooth XRA exact_spectral l (Nat.div n 20))
     (map Fin (scenarios (single_assets q N HN fs) w (3 * s))) (map Fin (scenarios (single_payoff q N fs mu) w (3 * s))) = Ok (map Fin (map S (seq 0 n))) ->
  mod_single_cohort_computation XRA exact_spectral round9 exact_int solve (map Fin fs) (as_list q) N (map (map Fin) w) =
  Ok (mk_result XRA (settle XRA s (Fin (i_r q)) (Fin (i_H q)) (Fin (i_D q)) (Fin (i_y q)) (Fin (i_g q))
        (map (map Fin) (table (fun i k => S (i + length w * k)%nat * exp (- i_r q * (i_T q - i_H q))) (length w) (3 * s))))
        (map (fun k => Fin (exp (single_shock q fs k + origin q))) (seq 0 s))
        (map (map Fin) (table (fun _ _ => promised_face q mu * exp (- i_r q * (i_T q - i_H q))) (length w) s))
        (map (map Fin) (table (fun i k => single_assets q N HN fs (nth i w []) k) (length w) s))
        (Fin mu) (Fin (promised_face q mu))).
Proof.
  intros HC Hsol n s HS. destruct HC as (HV & HNp & HE & Hw & HF & Hfs). assert (HO := promised_ok q mu HV). assert (HV' := HV). destruct HV' as (HT & Hr & Hs & HB & Hl).
  assert (Lw : (0 < length w)%nat) by (destruct w; [congruence|cbn; lia]).
  unfold mod_single_cohort_computation. rewrite read_as_list. cbn [bind].
  rewrite (proj1 (C72_horizon (as_param q) N (i_H q) (i_T q) eq_refl eq_refl ltac:(lra)) (Z.of_nat HN)) by (rewrite <- INR_IZR_INZ; exact HE). cbn [bind].
  rewrite !map_length. fold s. cbv zeta.
  assert (HP : forall a, (forall row, In row w -> (a <= length row)%nat) ->
     mapM (fun f => py_index f (Z.of_nat a)) (map (factor_path XRA (as_param q) N) (map (map Fin) w)) = Ok (map (fun row => Fin (growth q N row a)) w)).
  { intros a Ha. rewrite map_map. clear - Ha HV HNp. induction w as [|row w IH]; [reflexivity|]. cbn [map mapM].
    rewrite (py_index_nth _ a (Fin 0)).
    - rewrite factor_path_nth by (auto; apply Ha; left; auto). cbn [bind]. rewrite IH by (intros; apply Ha; right; auto). reflexivity.
    - unfold factor_path. cbn [length]. assert (HL : forall l, length (np_cumsum XRA l) = length l).
      { clear. intros [|x l]; [reflexivity|]. cbn [np_cumsum length]. f_equal. generalize (x : num XRA). induction l; intros; [reflexivity|]. cbn [cumsum_from length]. f_equal. apply IHl. }
      rewrite HL, !map_length. specialize (Ha row (or_introl eq_refl)). lia. }
  rewrite Forall_forall in HF. rewrite (HP N) by (intros row Hi; apply HF, Hi). cbn [bind]. rewrite (HP HN) by (intros row Hi; apply HF, Hi). cbn [bind].
  assert (NF : forall a i, nth i (map (fun row => Fin (growth q N row a)) w) (Fin 0) = Fin (nth i (map (fun row => growth q N row a) w) 0)).
  { intros a i. rewrite <- (map_map (fun row => growth q N row a) Fin). apply (map_nth Fin). }
  assert (NG : forall a i, (i < length w)%nat -> nth i (map (fun row => growth q N row a) w) 0 = growth q N (nth i w []) a).
  { intros a i Hi. rewrite (nth_indep _ 0 (growth q N [] a)) by (rewrite map_length; auto). apply (map_nth (fun row => growth q N row a)). }
  cbn [p_bookF p_ltv p_rho p_sig p_T p_r p_H p_D p_y p_g p_d as_param params_of nlog nsub XRA]. rewrite !xlog_fin by auto. cbn [xsub]. fold (origin q).
  match goal with |- context [solve ?f ?x] => change (solve f x) with (solve (yield_equation q) (Fin (i_r q + 1 / 100))) end. rewrite Hsol.
  cbn [nmul nexp nadd ndiv nsqrt nsub nopp nsq lit ofZ XRA xsub xmul xexp xopp xsq]. rewrite !xsqrt_fin by lra. cbn [xmul]. rewrite (xdiv_fin _ 10) by lra.
  change (i_bookF q * exp (mu * i_T q)) with (promised_face q mu). change (num XRA) with xr in *.
  assert (SH : forall k, (k < 3 * s)%nat -> xadd (xmul (xmul (nth k (map Fin fs ++ map Fin fs ++ map Fin fs) (Fin 0)) (Fin (sqrt (i_rho q) * i_sig q))) (Fin (sqrt (i_T q))))
     (xmul (Fin (sqrt (i_rho q) * i_sig q / 10)) (if Nat.ltb k s then Fin 0 else if Nat.ltb k (2 * s) then Fin 1 else Fin (- (1)))) = Fin (single_shock q fs k)).
  { intros k Hk. rewrite nth_triple by auto. unfold single_shock. fold s. cbv zeta. destruct (Nat.ltb k s), (Nat.ltb k (2 * s)); cbn [xmul xadd]; f_equal; lra. }
  assert (FHX : forall i k, (i < length w)%nat -> (k < 3 * s)%nat -> xmul (xexp (xadd (xadd (nth i (map (fun row => Fin (growth q N row HN)) w) (Fin 0)) (Fin (single_shock q fs k))) (Fin (origin q))))
     (Fin (exp (5 / 10 * (1 - i_rho q) * i_H q * (i_sig q * i_sig q)))) = Fin (single_assets q N HN fs (nth i w []) k)).
  { intros i k Hi Hk. rewrite NF, NG by auto. cbn [xadd xexp xmul]. unfold single_assets. replace (5 / 10) with (1 / 2) by lra. reflexivity. }
  assert (PX : forall i k, (i < length w)%nat -> loan_payoff XRA (Fin (promised_face q mu)) (xadd (nth i (map (fun row => Fin (growth q N row N)) w) (Fin 0)) (Fin (single_shock q fs k)))
     (Fin (origin q)) (Fin (i_rho q)) (Fin (i_sig q)) (Fin (i_T q)) = Fin (single_payoff q N fs mu (nth i w []) k)).
  { intros i k Hi. rewrite NF, NG by auto. cbn [xadd]. apply C67_face_minus_put. exact HO. }
  change (length w * (3 * s))%nat with n.
  assert (RNG : forall p, (p < n)%nat -> (Nat.modulo p (length w) < length w)%nat /\ (Nat.div p (length w) < 3 * s)%nat).
  { intros p Hp. split; [apply Nat.mod_upper_bound; lia|]. apply Nat.div_lt_upper_bound; [lia|]. exact Hp. }
  match goal with |- context [smooth_by _ _ _ (map ?f (seq 0 n)) (map ?g (seq 0 n))] =>
    assert (E1 : map f (seq 0 n) = map Fin (scenarios (single_assets q N HN fs) w (3 * s))); [|assert (E2 : map g (seq 0 n) = map Fin (scenarios (single_payoff q N fs mu) w (3 * s)))] end.
  { unfold scenarios. rewrite map_map. apply map_ext_in. intros p Hp. apply in_seq in Hp. destruct (RNG p ltac:(lia)). rewrite SH by auto. apply FHX; auto. }
  { unfold scenarios. rewrite map_map. apply map_ext_in. intros p Hp. apply in_seq in Hp. destruct (RNG p ltac:(lia)). rewrite SH by auto. apply PX; auto. }
  change (num XRA) with xr in *. rewrite E1, E2, HS. cbn [bind]. f_equal. f_equal.
  - f_equal. apply table_fin. intros i k Hi Hk. rewrite (map_nth Fin). rewrite (nth_indep _ 0 (S 0%nat)) by (rewrite map_length, seq_length; unfold n; fold s; nia).
    rewrite map_nth, seq_nth by (unfold n; fold s; nia). reflexivity.
  - erewrite (table_fin _ (fun _ k => exp (single_shock q fs k + origin q))).
    + rewrite mean_axis0_table by auto. apply firstn_map_seq. lia.
    + intros i k Hi Hk. cbv beta. rewrite SH by auto. reflexivity.
  - erewrite (table_fin _ (fun _ _ => promised_face q mu * exp (- i_r q * (i_T q - i_H q)))).
    + rewrite <- (table_firstn _ (length w) (3 * s) s) by lia. rewrite !map_map. apply map_ext. intros row. apply firstn_map.
    + intros i k Hi Hk. cbv beta. f_equal. ring.
  - erewrite (table_fin _ (fun i k => single_assets q N HN fs (nth i w []) k)).
    + rewrite <- (table_firstn _ (length w) (3 * s) s) by lia. rewrite !map_map. apply map_ext. intros row. apply firstn_map.
    + intros i k Hi Hk. cbv beta. rewrite SH by auto. apply FHX; auto.
Qed.
(** ** C85 *)
Theorem C85_computation : forall round9 solve q N HN fs w mu, single_call q N HN fs w ->
  solve (yield_equation q) (Fin (i_r q + 1 / 100)) = Fin mu ->
  let n := (length w * (3 * length fs))%nat in let s := length fs in
  Nat.even n = true -> Nat.even (Nat.div n 20) = true -> (20 <= n)%nat ->
  mod_single_cohort_computation XRA exact_spectral round9 exact_int solve (map Fin fs) (as_list q) N (map (map Fin) w) =
  Ok (mk_result XRA
        (settle XRA s (Fin (i_r q)) (Fin (i_H q)) (Fin (i_D q)) (Fin (i_y q)) (Fin (i_g q)) (map (map Fin) (single_portfolio round9 q N HN fs mu w)))
        (map (fun x => Fin (i_bookF q / i_ltv q * exp (x * (sqrt (i_rho q) * i_sig q) * sqrt (i_T q)))) fs)
        (map (map Fin) (table (fun _ _ => promised_face q mu * exp (- i_r q * (i_T q - i_H q))) (length w) s))
        (map (map Fin) (table (fun i k => single_assets q N HN fs (nth i w []) k) (length w) s))
        (Fin mu) (Fin (promised_face q mu))).
Proof.
  intros r9 solve q N HN fs w mu HC Hsol n s He Hw2 Hn.
  rewrite (single_fin r9 solve q N HN fs w mu (local_average (asset_order r9 (scenarios (single_assets q N HN fs) w (3 * s))) (scenarios (single_payoff q N fs mu) w (3 * s)) (Nat.div (Nat.div n 20) 2))); auto.
  - do 2 f_equal. fold s. transitivity (map (fun k => Fin (i_bookF q / i_ltv q * exp (nth k fs 0 * (sqrt (i_rho q) * i_sig q) * sqrt (i_T q)))) (seq 0 s)).
    + apply map_ext_in. intros k Hk. apply in_seq in Hk. f_equal. destruct HC as (HV & _). rewrite <- (exp_origin q HV), <- exp_plus. f_equal. unfold single_shock. fold s. rewrite Nat.mod_small by lia.
      destruct (Nat.ltb_spec k s); [|lia]. ring.
    + rewrite <- (map_map (fun k => nth k fs 0) (fun x => Fin (i_bookF q / i_ltv q * exp (x * (sqrt (i_rho q) * i_sig q) * sqrt (i_T q))))).
      f_equal. unfold s. clear. induction fs as [|x l IH]; [reflexivity|]. cbn [length seq map nth]. f_equal. rewrite <- seq_shift, map_map. exact IH.
  - fold n. fold s. apply Nat.even_spec in Hw2 as (h & Eh). assert (H20 : (1 <= Nat.div n 20)%nat) by (apply Nat.div_le_lower_bound; lia).
    rewrite Eh. replace (Nat.div (2 * h) 2) with h by (rewrite Nat.mul_comm, Nat.div_mul; lia).
    assert (H20' : (20 * Nat.div n 20 <= n)%nat) by (apply Nat.mul_div_le; lia).
    assert (LA : forall f : list R -> nat -> R, length (scenarios f w (3 * s)) = n) by (intros; apply scenarios_length).
    rewrite smooth_by_fin; rewrite ?LA; auto; try lia.
Qed.
Corollary C85_balance_sheet : forall round9 solve q N HN fs w mu k, single_call q N HN fs w ->
  solve (yield_equation q) (Fin (i_r q + 1 / 100)) = Fin mu ->
  let n := (length w * (3 * length fs))%nat in
  Nat.even n = true -> Nat.even (Nat.div n 20) = true -> (20 <= n)%nat -> (k < length fs)%nat ->
  exists m Lt Bt Et Gt mdef,
  mod_single_cohort_computation XRA exact_spectral round9 exact_int solve (map Fin fs) (as_list q) N (map (map Fin) w) = Ok m /\
  nth k (b_Lt XRA (m_bank XRA m)) NaN = Fin Lt /\ nth k (b_Bt XRA (m_bank XRA m)) NaN = Fin Bt /\ nth k (b_Et XRA (m_bank XRA m)) NaN = Fin Et /\
  nth k (b_Gt XRA (m_bank XRA m)) NaN = Fin Gt /\ nth k (b_mdef XRA (m_bank XRA m)) NaN = Fin mdef /\
  Lt = Bt + Et /\ Bt <= i_D q * exp (- i_r q * i_H q) /\ Gt = i_g q * (i_D q * exp (- i_r q * i_H q) - Bt) /\ 0 <= mdef <= 1 /\
  (mdef = 0 -> Bt = i_D q * exp (- i_r q * i_H q)).
Proof.
  intros r9 solve q N HN fs w mu k HC Hsol n He Hw2 Hn Hk. assert (HW : (0 < length w)%nat) by (destruct HC as (_ & _ & _ & HW & _); destruct w; [congruence|cbn; lia]).
  set (M := single_portfolio r9 q N HN fs mu w). assert (HM : M <> []) by (apply table_nonempty; auto).
  destruct (C70_settlement (length fs) (i_r q) (i_H q) (i_D q) (i_y q) (i_g q) M HM (table_rows _ _ _)) as (E1 & E2 & E3 & E4 & E5 & _).
  destruct (averaged_identities (i_r q) (i_H q) (i_D q) (i_y q) (i_g q) M k HM) as (I1 & I2 & I3 & I4 & _ & I6).
  eexists. do 5 eexists. split; [apply (C85_computation r9 solve q N HN fs w mu); auto|]. fold M. cbn [m_bank]. change (num XRA) with xr in *.
  rewrite E1, E2, E3, E4, E5. repeat match goal with |- nth k (map ?f (seq 0 _)) NaN = _ /\ _ => split; [apply (nth_map_seq f); exact Hk|] end.
  repeat split; auto; apply I4.
Qed.
(** shocks after both the loan maturity and the debt maturity do not matter, and a path that is too short raises *)
Theorem C85_later_shocks_ignored : forall spectral round9 as_int solve fs q N HN w w', valid_inputs q -> (0 < N)%nat ->
  horizon XRA as_int N (as_param q) = Ok (Z.of_nat HN) ->
  Forall (fun row => (N <= length row)%nat /\ (HN <= length row)%nat) w -> Forall (fun row => (N <= length row)%nat /\ (HN <= length row)%nat) w' ->
  map (firstn (max N HN)) w = map (firstn (max N HN)) w' ->
  mod_single_cohort_computation XRA spectral round9 as_int solve fs (as_list q) N (map (map Fin) w) =
  mod_single_cohort_computation XRA spectral round9 as_int solve fs (as_list q) N (map (map Fin) w').
Proof.
  intros sp r9 ai solve fs q N HN w w' HV HN0 HH HF HF' HE. unfold mod_single_cohort_computation. rewrite read_as_list. cbn [bind]. rewrite HH. cbn [bind].
  assert (HL : length w = length w') by (rewrite <- (map_length (firstn (max N HN)) w), HE, map_length; reflexivity).
  rewrite !map_length, HL. cbv zeta.
  assert (HP : forall a, (a = N \/ a = HN) -> 
     mapM (fun f => py_index f (Z.of_nat a)) (map (factor_path XRA (as_param q) N) (map (map Fin) w)) = mapM (fun f => py_index f (Z.of_nat a)) (map (factor_path XRA (as_param q) N) (map (map Fin) w'))).
  { intros a Ha. clear HL. rewrite !map_map. revert w' HF' HE. induction w as [|row w IH]; intros [|row' w'] HF' HE; try discriminate; [reflexivity|].
    cbn [map] in HE. injection HE as H1 H2. apply Forall_cons_iff in HF as (HR & HF). apply Forall_cons_iff in HF' as (HR' & HF'). cbn [map mapM]. rewrite (IH HF w' HF' H2).
    assert (HL : forall l, length (np_cumsum XRA l) = length l).
    { clear. intros [|x l]; [reflexivity|]. cbn [np_cumsum length]. f_equal. generalize (x : num XRA). induction l; intros; [reflexivity|]. cbn [cumsum_from length]. f_equal. apply IHl. }
    rewrite !(py_index_nth _ a (Fin 0)) by (unfold factor_path; cbn [length]; rewrite HL, !map_length; destruct Ha; subst; lia).
    rewrite !factor_path_nth by (auto; destruct Ha; subst; lia).
    replace (firstn a row) with (firstn a (firstn (max N HN) row)) by (rewrite firstn_firstn; f_equal; destruct Ha; subst; lia).
    replace (firstn a row') with (firstn a (firstn (max N HN) row')) by (rewrite firstn_firstn; f_equal; destruct Ha; subst; lia). rewrite H1. reflexivity. }
  rewrite (HP N), (HP HN) by auto. reflexivity.
Qed.
Example C85_case : let q := Build_bank_inputs (1/100) 2 (7/10) 1 (6/10) (1/2) (6/10) (2/10) (1/200) (2/1000) (1/2) in let w := repeat [1; -1] 14 in
  single_call q 2 1 [0] w /\ let n := (length w * (3 * length [0]))%nat in Nat.even n = true /\ Nat.even (Nat.div n 20) = true /\ (20 <= n)%nat.
Proof.
  cbv zeta. split; [|repeat split; try reflexivity; cbn; lia]. unfold single_call, valid_inputs. cbn [i_T i_rho i_sig i_bookF i_ltv i_H]. repeat split; try lra; try lia; try discriminate; [simpl; lra|].
  apply Forall_forall. intros row H. apply repeat_spec in H. subst. cbn. lia.
Qed.

(** ** C82: lookup tables *)
Lemma mapM_nth {X Y} (f : X -> res Y) l out i d d' : mapM f l = Ok out -> length out = length l /\ ((i < length l)%nat -> f (nth i l d) = Ok (nth i out d')).
Proof.
  revert out i. induction l as [|x l IH]; intros out i H; [injection H as <-; cbn; split; [auto|lia]|]. cbn [mapM] in H. destruct (f x) as [y|] eqn:E; [|discriminate]. cbn [bind] in H.
  destruct (mapM f l) as [ys|] eqn:E2; [|discriminate]. cbn [bind] in H. injection H as <-. destruct (IH ys 0%nat eq_refl) as (L & _). split; [cbn; lia|].
  intros Hi. destruct i as [|i]; [exact E|]. cbn [nth length] in *. apply (IH ys i eq_refl). lia.
Qed.
Theorem C82_lookup : forall (A : Arith) compute fs d y T H bookD rho ltv J K Q xr xF xsig tab j k q dflt,
  create_lookup A compute fs d y T H bookD rho ltv J K Q xr xF xsig = Ok tab -> (j < J)%nat -> (k < K)%nat -> (q < Q)%nat ->
  length tab = J /\ length (nth j tab []) = K /\ length (nth k (nth j tab []) []) = Q /\
  let e := nth q (nth k (nth j tab []) []) dflt in
  exists m, compute fs [xr j k q; T; xF j k q; H; nmul bookD (nexp (nmul (xr j k q) H)); rho; ltv; xsig j k q; d; y] = Ok m /\
    l_Lt A e = b_Lt A (m_bank A m) /\ l_Bt A e = b_Bt A (m_bank A m) /\ l_Et A e = b_Et A (m_bank A m) /\
    l_Ft A e = m_mFt A m /\ l_mdef A e = b_mdef A (m_bank A m) /\ l_sigEt A e = b_sigEt A (m_bank A m).
Proof.
  intros A comp fs d y T H bookD rho ltv J K Q xr xF xsig tab j k q dflt HT Hj Hk Hq. unfold create_lookup in HT.
  destruct (mapM_nth _ _ _ j 0%nat [] HT) as (L1 & E1). rewrite seq_length in *. specialize (E1 Hj). rewrite seq_nth in E1 by auto. cbn [Nat.add] in E1.
  destruct (mapM_nth _ _ _ k 0%nat [] E1) as (L2 & E2). rewrite seq_length in *. specialize (E2 Hk). rewrite seq_nth in E2 by auto. cbn [Nat.add] in E2.
  destruct (mapM_nth _ _ _ q 0%nat dflt E2) as (L3 & E3). rewrite seq_length in *. specialize (E3 Hq). rewrite seq_nth in E3 by auto. cbn [Nat.add] in E3.
  repeat split; auto. cbv zeta. unfold lookup_params in E3. destruct (comp _ _) as [m|]; [|discriminate]. cbn [bind] in E3. exists m. split; [reflexivity|]. injection E3 as <-. repeat split; reflexivity.
Qed.
(** the table has a cell at a grid point only if all cells could be computed *)
Theorem C82_all_or_nothing : forall (A : Arith) compute fs d y T H bookD rho ltv J K Q xr xF xsig,
  (exists tab, create_lookup A compute fs d y T H bookD rho ltv J K Q xr xF xsig = Ok tab) <->
  (forall j k q, (j < J)%nat -> (k < K)%nat -> (q < Q)%nat -> exists m, compute fs [xr j k q; T; xF j k q; H; nmul bookD (nexp (nmul (xr j k q) H)); rho; ltv; xsig j k q; d; y] = Ok m).
Proof.
  intros A comp fs d y T H bookD rho ltv J K Q xr xF xsig. split.
  - intros (tab & E) j k q Hj Hk Hq. destruct (C82_lookup A comp fs d y T H bookD rho ltv J K Q xr xF xsig tab j k q (Build_lookup_entry A [] [] [] [] [] []) E Hj Hk Hq) as (_ & _ & _ & m & Em & _). eauto.
  - intros HA. assert (G : forall X Y (f : X -> res Y) l, (forall x, In x l -> exists y, f x = Ok y) -> exists out, mapM f l = Ok out).
    { clear. intros X Y f l. induction l as [|x l IH]; intros Hx; [exists []; reflexivity|]. destruct (Hx x (or_introl eq_refl)) as (y & Ey). destruct IH as (ys & Eys); [intros; apply Hx; right; auto|].
      exists (y :: ys). cbn [mapM]. rewrite Ey. cbn [bind]. rewrite Eys. reflexivity. }
    apply G. intros j Hj. apply in_seq in Hj. apply G. intros k Hk. apply in_seq in Hk. apply G. intros q Hq. apply in_seq in Hq.
    destruct (HA j k q ltac:(lia) ltac:(lia) ltac:(lia)) as (m & Em). unfold lookup_params. rewrite Em. cbn [bind]. eauto.
Qed.
(** with exact numbers, the debt at every grid point is the book debt compounded at that point's interest rate, g = 0, and the same shocks are used everywhere *)
Example C82_case : forall w N solve round9 fs b, let compute fs p := mod_merton_computation XRA exact_spectral round9 exact_int solve fs p N w in
  create_lookup XRA compute fs (Fin (1/200)) (Fin 0) (Fin 10) (Fin 5) (Fin (6/10)) (Fin (1/2)) (Fin (66/100)) 1 1 1 (fun _ _ _ => Fin (1/100)) (fun _ _ _ => Fin (6/10)) (fun _ _ _ => Fin (2/10)) = Ok b ->
  exists m, compute fs (map Fin [1/100; 10; 6/10; 5; 6/10 * exp (1/100 * 5); 1/2; 66/100; 2/10; 1/200; 0]) = Ok m /\ l_Et XRA (nth 0 (nth 0 (nth 0 b []) []) (Build_lookup_entry XRA [] [] [] [] [] [])) = b_Et XRA (m_bank XRA m).
Proof.
  intros w N solve r9 fs b comp E. destruct (C82_lookup XRA comp fs _ _ _ _ _ _ _ _ _ _ _ _ _ b 0 0 0 (Build_lookup_entry XRA [] [] [] [] [] []) E ltac:(lia) ltac:(lia) ltac:(lia)) as (_ & _ & _ & m & Em & _ & _ & E3 & _). exists m. split; [exact Em|exact E3].
Qed.

