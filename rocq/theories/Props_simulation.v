(** * Properties C87, C88, C89: the numbers reported by simulate() *)
From Coq Require Import Reals Lra List ZArith Lia Bool Psatz.
From Verif Require Import Arith XR RealAux Gauss Fourier Model_garch Model_option Props_option Model_merton Props_fftsmooth Props_loans Props_modmerton Props_modmerton2 Props_modmerton3 Model_simulation.
Import ListNotations.
Local Open Scope R_scope.

(** ** C87: the central state and the table columns *)
Lemma argmin_from_spec (f : nat -> R) l : forall best at_ i, (forall k, (k < length l)%nat -> nth k l 0 = f (i + k)%nat) -> (at_ < i)%nat -> best = f at_ ->
  (forall k, (k < i)%nat -> best <= f k) -> (forall k, (k < at_)%nat -> best < f k) ->
  let j := argmin_from XRA (Fin best) at_ i (map Fin l) in
  (j < i + length l)%nat /\ (forall k, (k < i + length l)%nat -> f j <= f k) /\ (forall k, (k < j)%nat -> f j < f k).
Proof.
  induction l as [|x l IH]; intros best at_ i HF Ha Hb Hle Hlt.
  - cbn. rewrite Nat.add_0_r. split; [auto|]. rewrite <- Hb. auto.
  - cbn [map argmin_from isnan XRA xisnan nltb]. assert (Hx := HF 0%nat ltac:(cbn; lia)). cbn [nth] in Hx. rewrite Nat.add_0_r in Hx.
    assert (HF' : forall k, (k < length l)%nat -> nth k l 0 = f (S i + k)%nat).
    { intros k Hk. assert (H := HF (S k) ltac:(cbn; lia)). cbn [nth] in H. rewrite H. f_equal. lia. }
    replace (i + length (x :: l))%nat with (S i + length l)%nat by (cbn; lia).
    destruct (Rlt_dec x best) as [L|L].
    + rewrite xltb_true by auto. apply IH; auto; try lia.
      * intros k Hk. destruct (Nat.eq_dec k i) as [->|]; [lra|]. apply Rlt_le, Rlt_le_trans with best; [auto|]. apply Hle. lia.
      * intros k Hk. apply Rlt_le_trans with best; [auto|]. apply Hle. lia.
    + rewrite xltb_false by lra. apply IH; auto; try lia.
      intros k Hk. destruct (Nat.eq_dec k i) as [->|]; [lra|]. apply Hle. lia.
Qed.
Theorem C87_central_state : forall r T mFt, mFt <> [] ->
  let dist k := Rabs (nth k mFt 0 - exp (r * T / 2)) in
  exists j, central_state XRA (Fin r) (Fin T) (map Fin mFt) = Ok j /\ (j < length mFt)%nat /\
    (forall k, (k < length mFt)%nat -> dist j <= dist k) /\ (forall k, (k < j)%nat -> dist j < dist k).
Proof.
  intros r T mFt Hn dist. destruct mFt as [|m l]; [congruence|]. unfold central_state. cbn [map argmin]. eexists. split; [reflexivity|].
  set (F := fun m : num XRA => @nabs XRA (@nsub XRA m (@nexp XRA (@ndiv XRA (@nmul XRA (Fin r) (Fin T)) (@ofZ XRA 2))))).
  assert (E0 : forall x : R, F (Fin x) = Fin (Rabs (x - exp (r * T / 2)))).
  { intros x. unfold F. cbn [nmul ndiv ofZ nexp nsub nabs XRA xmul]. rewrite xdiv_fin by lra. reflexivity. }
  assert (E : forall l : list R, map F (map Fin l) = map Fin (map (fun m => Rabs (m - exp (r * T / 2))) l)).
  { intros l'. change (num XRA) with xr in *. rewrite !map_map. apply map_ext. intros x. apply E0. }
  change (num XRA) with xr in *. fold F. rewrite E. change (@nabs XRA (@nsub XRA (Fin m) (@nexp XRA (@ndiv XRA (@nmul XRA (Fin r) (Fin T)) (@ofZ XRA 2))))) with (F (Fin m)). rewrite E0.
  destruct (argmin_from_spec dist (map (fun m => Rabs (m - exp (r * T / 2))) l) (Rabs (m - exp (r * T / 2))) 0 1) as (H1 & H2 & H3).
  - intros k Hk. rewrite map_length in Hk. unfold dist. cbn [Nat.add nth]. rewrite (nth_indep _ 0 ((fun m => Rabs (m - exp (r * T / 2))) 0)) by (rewrite map_length; auto). apply (map_nth (fun m => Rabs (m - exp (r * T / 2)))).
  - lia.
  - reflexivity.
  - intros k Hk. assert (k = 0)%nat by lia. subst k. unfold dist. cbn [nth]. lra.
  - intros k Hk. lia.
  - rewrite map_length in H1, H2. cbn [length]. split; [exact H1|]. split; [exact H2|exact H3].
Qed.
(** a NaN mean asset value is reported as the central state: the first one wins *)
Lemma argmin_from_nan (A : Arith) pre x post : (forall m, In m pre -> isnan m = false) -> isnan x = true ->
  forall best at_ i, isnan best = false -> argmin_from A best at_ i (pre ++ x :: post) = (i + length pre)%nat.
Proof.
  intros Hp Hx. induction pre as [|m pre IH]; intros best at_ i Hb; cbn [app argmin_from length].
  - rewrite Hb, Hx. lia.
  - rewrite Hb, (Hp m) by (cbn; auto). assert (HI : forall m', In m' pre -> isnan m' = false) by (intros; apply Hp; cbn; auto). destruct (nltb m best); [rewrite (IH HI m i (S i)) by (apply Hp; cbn; auto) | rewrite (IH HI best at_ (S i) Hb)]; lia.
Qed.
Theorem C87_nan_state : forall (A : Arith) r T (pre post : list (num A)) x,
  let dist m := nabs (nsub m (nexp (ndiv (nmul r T) (ofZ 2)))) in
  (forall m, In m pre -> isnan (dist m) = false) -> isnan (dist x) = true ->
  central_state A r T (pre ++ x :: post) = Ok (length pre).
Proof.
  intros A r T pre post x dist Hp Hx. unfold central_state. fold dist. rewrite map_app. cbn [map]. destruct pre as [|m pre]; cbn [map app argmin].
  - f_equal. destruct (map dist post) as [|z l]; cbn [argmin_from]; [reflexivity|]. rewrite Hx. reflexivity.
  - f_equal. rewrite argmin_from_nan; [rewrite map_length; reflexivity | | exact Hx | apply Hp; cbn; auto].
    intros z Hz. apply in_map_iff in Hz. destruct Hz as (m' & <- & Hm). apply Hp. cbn. auto.
Qed.
Theorem C87_no_states : forall (A : Arith) r T, central_state A r T [] = Err ValueError.
Proof. reflexivity. Qed.
Lemma py_index_nth {X} (l : list X) i d : (0 <= i < Z.of_nat (length l))%Z -> py_index l i = Ok (nth (Z.to_nat i) l d).
Proof.
  intros H. unfold py_index. destruct (Z.ltb_spec i 0); [lia|]. destruct (Z.ltb_spec i 0); [lia|]. rewrite (nth_error_nth' l d) by lia. reflexivity.
Qed.
Lemma py_index_wrap {X} (l : list X) i d : (- Z.of_nat (length l) <= i < 0)%Z -> py_index l i = Ok (nth (Z.to_nat (Z.of_nat (length l) + i)) l d).
Proof.
  intros H. unfold py_index. destruct (Z.ltb_spec i 0); [|lia]. destruct (Z.ltb_spec (i + Z.of_nat (length l)) 0); [lia|]. rewrite (nth_error_nth' l d) by lia. do 2 f_equal. lia.
Qed.
Lemma py_index_beyond {X} (l : list X) i : (Z.of_nat (length l) <= i)%Z -> py_index l i = Err IndexError.
Proof.
  intros H. unfold py_index. destruct (Z.ltb_spec i 0); [lia|]. destruct (Z.ltb_spec i 0); [lia|].
  assert (E : nth_error l (Z.to_nat i) = None) by (apply nth_error_None; lia). rewrite E. reflexivity.
Qed.
(** K states, central one j0: at least eight states on either side - the intended columns; fewer above - IndexError;
    fewer below - the "-ve shock" column silently shows state K + j0 - 8, which lies above the central one *)
Theorem C87_columns : forall (A : Arith) K j0 (rows : list (list (num A))) d, (j0 < K)%nat -> rows <> [] -> Forall (fun row => length row = K) rows ->
  ((K <= j0 + 8)%nat -> table_columns A rows j0 = Err IndexError) /\
  ((8 <= j0)%nat -> (j0 + 8 < K)%nat -> table_columns A rows j0 = Ok (map (fun row => (nth j0 row d, nth (j0 + 8) row d, nth (j0 - 8) row d)) rows)) /\
  ((j0 < 8)%nat -> (j0 + 8 < K)%nat -> (j0 < K + j0 - 8 < K)%nat /\
     table_columns A rows j0 = Ok (map (fun row => (nth j0 row d, nth (j0 + 8) row d, nth (K + j0 - 8) row d)) rows)).
Proof.
  intros A K j0 rows d Hj Hn HF. rewrite Forall_forall in HF. unfold table_columns. split; [|split].
  - intros HK. apply mapM_err; auto. intros row Hr. rewrite (py_index_nth row _ d) by (rewrite HF by auto; lia). cbn [bind]. rewrite py_index_beyond by (rewrite HF by auto; lia). reflexivity.
  - intros H8 HK. apply mapM_ok. intros row Hr. assert (HL := HF row Hr). rewrite !(py_index_nth row _ d) by lia. cbn [bind]. repeat f_equal; lia.
  - intros H8 HK. split; [lia|]. apply mapM_ok. intros row Hr. assert (HL := HF row Hr). rewrite !(py_index_nth row _ d) by lia. rewrite (py_index_wrap row _ d) by lia. cbn [bind]. repeat f_equal; lia.
Qed.

(** ** C88: the standard Merton estimates *)
(** the risk-neutral terminal asset value after a standard normal shock z *)
Definition terminal_assets (a s r y H z : R) : R := a * exp ((r - y - s * s / 2) * H + s * sqrt H * z).
Theorem C88_default_probability : forall a s D r y H, 0 < a -> 0 < s -> 0 < D -> 0 < H ->
  exists dd, merton_dd XRA (Fin a) (Fin s) (Fin D) (Fin r) (Fin y) (Fin H) = Fin dd /\
    merton_default XRA (Fin a) (Fin s) (Fin D) (Fin r) (Fin y) (Fin H) = Fin (Phi (- dd)) /\ 0 < Phi (- dd) < 1 /\
    (forall z, terminal_assets a s r y H z < D <-> z < - dd).
Proof.
  intros a s D r y H Ha Hs HD HH. assert (HQ := sqrt_lt_R0 H HH). assert (HV : 0 < s * sqrt H) by (apply Rmult_lt_0_compat; auto).
  set (dd := (ln a - ln D + (r - y - s * s / 2) * H) / (s * sqrt H)).
  assert (E : merton_dd XRA (Fin a) (Fin s) (Fin D) (Fin r) (Fin y) (Fin H) = Fin dd).
  { unfold merton_dd. cbn [nlog nsub nadd nmul ndiv nsq nsqrt ofZ XRA xsq xsub xmul]. rewrite !xlog_fin by auto. rewrite xsqrt_fin by lra. rewrite (xdiv_fin (s * s)) by lra.
    cbn [xsub xmul xadd]. rewrite xdiv_fin by lra. reflexivity. }
  exists dd. split; [exact E|]. split; [unfold merton_default; rewrite E; reflexivity|]. split; [apply Phi_range|]. intros z.
  assert (ED : dd * (s * sqrt H) = ln a - ln D + (r - y - s * s / 2) * H) by (unfold dd; field; lra).
  assert (EA : terminal_assets a s r y H z = D * exp (s * sqrt H * (z + dd))).
  { unfold terminal_assets. rewrite <- (exp_ln a Ha) at 1. rewrite <- (exp_ln D HD) at 1. rewrite <- !exp_plus. f_equal. replace (s * sqrt H * (z + dd)) with (s * sqrt H * z + dd * (s * sqrt H)) by ring. rewrite ED. ring. }
  rewrite EA. split; intros HL.
  - destruct (Rlt_le_dec z (- dd)); auto. exfalso. assert (0 <= s * sqrt H * (z + dd)) by (apply Rmult_le_pos; lra).
    assert (1 <= exp (s * sqrt H * (z + dd))) by (rewrite <- exp_0; destruct H0 as [H0| <-]; [apply Rlt_le, exp_increasing; auto|lra]). nra.
  - assert (s * sqrt H * (z + dd) < 0) by nra. assert (exp (s * sqrt H * (z + dd)) < 1) by (rewrite <- exp_0; apply exp_increasing; auto). nra.
Qed.
(** it decreases in the asset value *)
Theorem C88_default_decreasing : forall a a' s D r y H, 0 < a -> a < a' -> 0 < s -> 0 < D -> 0 < H ->
  xltb (merton_default XRA (Fin a') (Fin s) (Fin D) (Fin r) (Fin y) (Fin H)) (merton_default XRA (Fin a) (Fin s) (Fin D) (Fin r) (Fin y) (Fin H)) = true.
Proof.
  intros a a' s D r y H Ha Haa Hs HD HH. destruct (C88_default_probability a s D r y H) as (d1 & _ & E1 & _ & Z1); auto.
  destruct (C88_default_probability a' s D r y H) as (d2 & _ & E2 & _ & Z2); auto; try lra. rewrite E1, E2. apply xltb_true. apply Phi_increasing.
  (* at z = - d2 the larger firm is exactly at its boundary, hence the smaller one is below it *)
  apply Z1. assert (P : 0 < exp ((r - y - s * s / 2) * H + s * sqrt H * - d2)) by apply exp_pos.
  assert (N : ~ terminal_assets a' s r y H (- d2) < D) by (rewrite Z2; lra).
  assert (C : terminal_assets a' s r y H (- d2) <= D).
  { destruct (Rle_lt_dec (terminal_assets a' s r y H (- d2)) D) as [L|L]; auto. exfalso.
    (* continuity: move z slightly below - d2 *)
    unfold terminal_assets in L. set (v := s * sqrt H) in *. assert (HV : 0 < v) by (apply Rmult_lt_0_compat; [auto|apply sqrt_lt_R0; auto]).
    set (c := (r - y - s * s / 2) * H) in *. set (X := a' * exp (c + v * - d2)) in *. assert (HX : 0 < X) by (unfold X; apply Rmult_lt_0_compat; [lra|auto]).
    assert (HLn : ln D < ln X) by (apply ln_increasing; auto). set (e := (ln X - ln D) / v). assert (He : 0 < e) by (apply Rdiv_lt_0_compat; lra).
    assert (Hz : - d2 - e < - d2) by lra. apply Z2 in Hz. unfold terminal_assets in Hz. fold v c in Hz.
    replace (c + v * (- d2 - e)) with ((c + v * - d2) + - (ln X - ln D)) in Hz by (unfold e; field; lra).
    rewrite exp_plus, <- Rmult_assoc in Hz. fold X in Hz. replace (- (ln X - ln D)) with (ln D + - ln X) in Hz by ring. rewrite exp_plus, exp_Ropp, !exp_ln in Hz by lra.
    replace (X * (D * / X)) with D in Hz by (field; lra). lra. }
  unfold terminal_assets in *. nra.
Qed.
(** what the code makes of the solver's root (a, s0); the start and the equations are those of the call *)
Theorem C88_fit : forall fsolve g r y H D Et sigEt a s0, 0 < a -> 0 < D -> 0 < H ->
  fsolve (fun x v => merton_solution XRA x v (Fin Et) (Fin D) (Fin r) (Fin y) (Fin H) (Fin sigEt)) (Fin (Et + D * exp (- r * H))) (Fin (sigEt / 2)) = (Fin a, Fin s0) ->
  let s := Rmax s0 (1 / 10000) in let e := fit_merton XRA fsolve (Fin g) (Fin r) (Fin y) (Fin H) (Fin D) (Fin Et) (Fin sigEt) in
  exists dd P sp, e_A XRA e = Fin a /\ e_s XRA e = Fin s /\ e_dd XRA e = Fin dd /\ e_def XRA e = Fin (Phi (- dd)) /\ e_GG XRA e = Fin (g * P) /\ e_sp XRA e = Fin sp /\
    (forall z, terminal_assets a s r y H z < D <-> z < - dd) /\
    snd (blsprice XRA (Fin a) (Fin D) (Fin r) (Fin H) (Fin s) (Fin y)) = Fin P /\ 0 < P < D * exp (- r * H) /\
    0 < sp /\ D * exp (- (r + sp) * H) = D * exp (- r * H) - P.
Proof.
  intros fsolve g r y H D Et sigEt a s0 Ha HD HH HF s e.
  assert (Hs : 0 < s) by (unfold s; apply Rlt_le_trans with (1 / 10000); [lra|apply Rmax_r]).
  assert (HPV : 0 < D * exp (- r * H)) by (apply Rmult_lt_0_compat; [auto|apply exp_pos]).
  destruct (C88_default_probability a s D r y H) as (dd & E1 & E2 & _ & HZ); auto.
  destruct (C38_no_arbitrage_bounds a D r H s y) as (c & P & EB & _ & HP); [repeat split; auto|].
  assert (HP0 : 0 < P < D * exp (- r * H)) by (assert (Hm := Rmax_r (D * exp (- r * H) - a * exp (- y * H)) 0); lra).
  assert (Es : pymax XRA (Fin s0) (@lit XRA 1 10000) = Fin s).
  { unfold pymax, s. cbn [lit nltb XRA]. unfold Rmax. destruct (Rle_dec s0 (1 / 10000)) as [L|L].
    - destruct (Rlt_dec s0 (1 / 10000)); [rewrite xltb_true by auto; reflexivity|]. rewrite xltb_false by lra. f_equal. lra.
    - rewrite xltb_false by lra. reflexivity. }
  set (pv := D * exp (- r * H)) in *. set (sp := 1 / H * ln (pv / (pv - P))).
  assert (Ee : e = mk_estimate XRA (Fin dd) (Fin (Phi (- dd))) (Fin (g * P)) (Fin sp) (Fin a) (Fin s)).
  { unfold e, fit_merton. cbn [nmul nadd nexp nopp ndiv ofZ XRA xopp xmul xexp xadd]. rewrite (xdiv_fin sigEt) by lra.
    change (num XRA) with xr in *. fold pv. rewrite HF. cbn [fst snd]. rewrite Es.
    rewrite E1, E2, EB. cbn [snd nsub nlog XRA xmul xsub]. rewrite !xdiv_fin by lra. rewrite xlog_fin by (apply Rdiv_lt_0_compat; lra). reflexivity. }
  exists dd, P, sp. rewrite Ee. cbn [e_A e_s e_dd e_def e_GG e_sp]. repeat split; auto; try lra; try apply HZ.
  - rewrite EB. reflexivity.
  - unfold sp. apply Rmult_lt_0_compat; [apply Rdiv_lt_0_compat; lra|]. rewrite <- ln_1. apply ln_increasing; [lra|]. apply Rmult_lt_reg_r with (pv - P); [lra|]. unfold Rdiv. rewrite Rmult_assoc, Rinv_l by lra. lra.
  - replace (- (r + sp) * H) with (- r * H + - ln (pv / (pv - P))) by (unfold sp; field; lra). rewrite exp_plus, exp_Ropp, exp_ln by (apply Rdiv_lt_0_compat; lra).
    rewrite <- Rmult_assoc. fold pv. field. lra.
Qed.
(** an exact root with volatility at least 0.0001 reproduces the equity value and volatility, and the implied spread then prices the debt at assets minus equity *)
Theorem C88_consistent : forall fsolve g r y H D Et sigEt a s0, 0 < a -> 0 < D -> 0 < H -> Et <> 0 -> 1 / 10000 <= s0 ->
  fsolve (fun x v => merton_solution XRA x v (Fin Et) (Fin D) (Fin r) (Fin y) (Fin H) (Fin sigEt)) (Fin (Et + D * exp (- r * H))) (Fin (sigEt / 2)) = (Fin a, Fin s0) ->
  merton_solution XRA (Fin a) (Fin s0) (Fin Et) (Fin D) (Fin r) (Fin y) (Fin H) (Fin sigEt) = (Fin 0, Fin 0) ->
  let e := fit_merton XRA fsolve (Fin g) (Fin r) (Fin y) (Fin H) (Fin D) (Fin Et) (Fin sigEt) in
  Et = merton_equity a s0 D r y H /\ sigEt * Et = merton_delta a s0 D r y H * a * s0 /\ e_s XRA e = Fin s0 /\
  exists sp, e_sp XRA e = Fin sp /\ D * exp (- (r + sp) * H) = a - Et.
Proof.
  intros fsolve g r y H D Et sigEt a s0 Ha HD HH HE Hs HF HR e. assert (Hs0 : 0 < s0) by lra.
  destruct (C69_solution a s0 Et D r y H sigEt Ha Hs0 HD HH HE) as (_ & HC). apply HC in HR. destruct HR as (R1 & R2). split; [auto|]. split; [auto|].
  destruct (C88_fit fsolve g r y H D Et sigEt a s0 Ha HD HH HF) as (dd & P & sp & _ & E2 & _ & _ & _ & E6 & _ & EB & _ & _ & E7).
  rewrite (Rmax_left s0) in * by auto. split; [exact E2|]. exists sp. split; [exact E6|]. rewrite E7.
  destruct (C37_put_call_parity a D r H s0 y) as (c & p & EB' & PC); [repeat split; auto|]. rewrite EB' in EB. cbn [snd] in EB. injection EB as <-.
  destruct (C69_solution a s0 Et D r y H sigEt Ha Hs0 HD HH HE) as (EC & _). rewrite EB' in EC. cbn [fst] in EC. injection EC as EC. rewrite <- R1 in EC. lra.
Qed.
(** nothing stops the solver from returning a negative asset value: every estimate is then NaN *)
Theorem C88_negative_assets : forall fsolve g r y H D Et sigEt a s0, a < 0 -> 0 < D -> 0 < H ->
  fsolve (fun x v => merton_solution XRA x v (Fin Et) (Fin D) (Fin r) (Fin y) (Fin H) (Fin sigEt)) (Fin (Et + D * exp (- r * H))) (Fin (sigEt / 2)) = (Fin a, Fin s0) ->
  let e := fit_merton XRA fsolve (Fin g) (Fin r) (Fin y) (Fin H) (Fin D) (Fin Et) (Fin sigEt) in
  e_dd XRA e = NaN /\ e_def XRA e = NaN /\ e_GG XRA e = NaN /\ e_sp XRA e = NaN /\ e_A XRA e = Fin a.
Proof.
  intros fsolve g r y H D Et sigEt a s0 Ha HD HH HF e. assert (HQ := sqrt_lt_R0 H HH).
  assert (Es : exists s, pymax XRA (Fin s0) (@lit XRA 1 10000) = Fin s).
  { unfold pymax. cbn [lit nltb XRA]. destruct (xltb (Fin s0) (Fin (1 / 10000))); eauto. }
  destruct Es as (s & Es). unfold e, fit_merton. cbn [nmul nadd nexp nopp ndiv ofZ XRA xopp xmul xexp xadd]. rewrite (xdiv_fin sigEt) by lra.
  change (num XRA) with xr in *. rewrite HF. cbn [fst snd]. rewrite Es.
  assert (EA : xlog (Fin a) = NaN) by (apply xlog_neg; auto). assert (EAD : xlog (Fin (a / D)) = NaN) by (apply xlog_neg; unfold Rdiv; assert (0 < / D) by (apply Rinv_0_lt_compat; auto); nra).
  assert (Ed : merton_dd XRA (Fin a) (Fin s) (Fin D) (Fin r) (Fin y) (Fin H) = NaN).
  { unfold merton_dd. cbn [nlog nsub nadd nmul ndiv nsq nsqrt ofZ XRA xsq xsub xmul]. rewrite EA. reflexivity. }
  assert (EP : exists c, blsprice XRA (Fin a) (Fin D) (Fin r) (Fin H) (Fin s) (Fin y) = (c, NaN)).
  { eexists. unfold blsprice. cbn [nlog nsub nadd nmul ndiv nsq nsqrt ofZ nexp nopp ncdf XRA xsq xsub xmul xopp snd xexp]. rewrite (xdiv_fin a) by lra. rewrite EAD. cbn [xadd xdiv]. cbn. f_equal. }
  cbn [e_dd e_def e_GG e_sp e_A]. unfold merton_default. rewrite Ed. destruct EP as (c & EP). rewrite EP. cbn [snd]. rewrite (xdiv_fin 1) by lra. repeat split; reflexivity.
Qed.

(** ** C89: market capital ratio and credit spread of the true model *)
Theorem C89_capital_ratio : forall Et Bt, 0 <= Et -> 0 < Bt ->
  exists c, market_capital_ratio XRA (Fin Et) (Fin Bt) = Fin c /\ 0 <= c < 1 /\ c * (Et + Bt) = Et /\ (c = 0 <-> Et = 0).
Proof.
  intros Et Bt HE HB. exists (Et / (Et + Bt)). split; [unfold market_capital_ratio; cbn [nadd ndiv XRA xadd]; rewrite xdiv_fin by lra; reflexivity|].
  assert (EQ : Et / (Et + Bt) * (Et + Bt) = Et) by (field; lra). split.
  - split; [apply Rmult_le_pos; [auto|apply Rlt_le, Rinv_0_lt_compat; lra]|]. apply Rmult_lt_reg_r with (Et + Bt); lra.
  - split; [auto|]. split; intros E; [rewrite E in EQ; lra|rewrite E; unfold Rdiv; ring].
Qed.
Theorem C89_credit_spread : forall r H D Bt, 0 < D -> 0 < H -> 0 < Bt ->
  exists sp, credit_spread XRA (Fin r) (Fin H) (Fin D) (Fin Bt) = Fin sp /\ D * exp (- (r + sp) * H) = Bt /\
    (0 <= sp <-> Bt <= D * exp (- r * H)) /\ (0 < sp <-> Bt < D * exp (- r * H)).
Proof.
  intros r H D Bt HD HH HB. set (pv := D * exp (- r * H)). assert (HPV : 0 < pv) by (apply Rmult_lt_0_compat; [auto|apply exp_pos]).
  set (sp := 1 / H * ln (pv / Bt)). exists sp.
  assert (EL : ln (pv / Bt) = ln pv - ln Bt) by (unfold Rdiv; rewrite ln_mult, ln_Rinv by (try apply Rinv_0_lt_compat; auto); ring).
  assert (EH : sp * H = ln pv - ln Bt) by (unfold sp; rewrite EL; field; lra).
  assert (S1 : 0 < sp <-> Bt < pv).
  { split; intros L; [apply ln_lt_inv; auto; nra|]. apply ln_increasing in L; auto. apply Rmult_lt_reg_r with H; [auto|]. lra. }
  split; [|split; [|split; [|exact S1]]].
  - unfold credit_spread. cbn [nmul nexp nopp ndiv nlog ofZ XRA xopp xmul xexp]. fold pv. rewrite !xdiv_fin by lra. rewrite xlog_fin by (apply Rdiv_lt_0_compat; auto). reflexivity.
  - replace (- (r + sp) * H) with (- r * H + - (sp * H)) by ring. rewrite EH, exp_plus, <- Rmult_assoc. fold pv. replace (- (ln pv - ln Bt)) with (ln Bt + - ln pv) by ring.
    rewrite exp_plus, exp_Ropp, !exp_ln by auto. field. lra.
  - split; intros L.
    + destruct (Rle_lt_dec Bt pv); auto. exfalso. assert (ln pv < ln Bt) by (apply ln_increasing; auto). nra.
    + destruct (Rle_lt_dec 0 sp); auto. exfalso. destruct (Req_dec Bt pv) as [->|]; [nra|]. assert (0 < sp) by (apply S1; lra). lra.
Qed.

(** ** the whole table *)
Theorem C87_table : forall (A : Arith) compute fsolve fs r T bookF H D rho ltv sig d y g m j0 K z,
  compute fs [r; T; bookF; H; D; rho; ltv; sig; d; y; g] = Ok m -> central_state A r T (m_mFt A m) = Ok j0 ->
  let b := m_bank A m in
  length (m_mFt A m) = K -> length (b_Lt A b) = K -> length (b_Et A b) = K -> length (b_Bt A b) = K -> length (b_mdef A b) = K -> length (b_sigEt A b) = K ->
  (8 <= j0)%nat -> (j0 + 8 < K)%nat ->
  let cols (f : nat -> num A) := (f j0, f (j0 + 8)%nat, f (j0 - 8)%nat) in
  let at_ (l : list (num A)) k := nth k l z in
  let fit k := fit_merton A fsolve g r y H D (at_ (b_Et A b) k) (at_ (b_sigEt A b) k) in
  simulate_table A compute fsolve fs r T bookF H D rho ltv sig d y g = Ok
    [cols (at_ (m_mFt A m)); cols (at_ (b_Lt A b)); cols (fun k => market_capital_ratio A (at_ (b_Et A b) k) (at_ (b_Bt A b) k)); cols (at_ (b_mdef A b));
     cols (fun k => nmul (credit_spread A r H D (at_ (b_Bt A b) k)) (ofZ 100)); cols (fun k => e_def A (fit k)); cols (fun k => nmul (e_sp A (fit k)) (ofZ 100))].
Proof.
  intros A compute fsolve fs r T bookF H D rho ltv sig d y g m j0 K z Hm Hj b L1 L2 L3 L4 L5 L6 H8 HK cols at_ fit.
  unfold simulate_table. rewrite Hm. cbn [bind]. rewrite Hj. cbn [bind]. fold b.
  assert (LM : forall (X Y Z : Type) (f : X -> Y -> Z) l l', length l = K -> length l' = K -> length (map2 f l l') = K).
  { intros X Y Z f l l' E1 E2. rewrite map2_length. lia. }
  destruct (C87_columns A K j0 (table_rows A fsolve g r y H D m) z) as (_ & HT & _); [lia|discriminate| |].
  { unfold table_rows. fold b. repeat constructor; auto; rewrite ?map_length; auto. }
  rewrite HT by auto. clear HT. unfold table_rows. fold b. cbn [map].
  assert (NM : forall (X Y : Type) (f : X -> Y) l k dx dy, (k < length l)%nat -> nth k (map f l) dy = f (nth k l dx)).
  { intros X Y f l k dx dy Hk. rewrite (nth_indep _ dy (f dx)) by (rewrite map_length; auto). apply map_nth. }
  assert (N2 : forall (X Y Z : Type) (f : X -> Y -> Z) l l' k dx dy dz, length l = K -> length l' = K -> (k < K)%nat -> nth k (map2 f l l') dz = f (nth k l dx) (nth k l' dy)).
  { intros X Y Z f l l' k dx dy dz E1 E2 Hk. apply map2_nth; lia. }
  set (fits := map2 (fit_merton A fsolve g r y H D) (b_Et A b) (b_sigEt A b)).
  assert (HF : forall k, (k < K)%nat -> nth k fits (fit 0%nat) = fit k) by (intros k Hk; unfold fits; rewrite (N2 _ _ _ _ _ _ k z z) by auto; reflexivity).
  assert (LF : length fits = K) by (apply LM; auto).
  assert (R3 : forall k, (k < K)%nat -> nth k (map2 (market_capital_ratio A) (b_Et A b) (b_Bt A b)) z = market_capital_ratio A (at_ (b_Et A b) k) (at_ (b_Bt A b) k)) by (intros k Hk; apply N2; auto).
  assert (R5 : forall k, (k < K)%nat -> nth k (map (fun x => nmul (credit_spread A r H D x) (ofZ 100)) (b_Bt A b)) z = nmul (credit_spread A r H D (at_ (b_Bt A b) k)) (ofZ 100)).
  { intros k Hk. apply (NM _ _ (fun x => nmul (credit_spread A r H D x) (ofZ 100))). lia. }
  assert (R6 : forall k, (k < K)%nat -> nth k (map (e_def A) fits) z = e_def A (fit k)).
  { intros k Hk. rewrite (NM _ _ (e_def A) _ _ (fit 0%nat)) by lia. rewrite HF by auto. reflexivity. }
  assert (R7 : forall k, (k < K)%nat -> nth k (map (fun e => nmul (e_sp A e) (ofZ 100)) fits) z = nmul (e_sp A (fit k)) (ofZ 100)).
  { intros k Hk. rewrite (NM _ _ (fun e => nmul (e_sp A e) (ofZ 100)) _ _ (fit 0%nat)) by lia. rewrite HF by auto. reflexivity. }
  unfold cols. rewrite !R3, !R5, !R6, !R7 by lia. reflexivity.
Qed.

(** ** the shipped parameters of simulate(), l.60-82, with an arbitrary debt face value: K factor states -0.8, -0.75, ... in units of the factor volatility *)
Definition shipped (D : R) : bank_inputs :=
  {| i_r := 1/100; i_T := 10; i_bookF := 66/100; i_H := 5; i_D := D; i_rho := 1/2; i_ltv := 66/100; i_sig := 2/10; i_d := 5/1000; i_y := 2/1000; i_g := 1/2 |}.
Definition shipped_states (K : nat) : list R := map (fun k => (-8/10 + 5/100 * INR k) / (2/10 * sqrt (1/2) * sqrt 10)) (seq 0 K).

Definition shipped_mean (k : nat) : R := over_cohorts 10 (fun j => exp ((INR k - 15) / 20 * (INR (10 - j) / 10))).
Lemma over10 (f : nat -> R) : over_cohorts 10 f = (f 0%nat + f 1%nat + f 2%nat + f 3%nat + f 4%nat + f 5%nat + f 6%nat + f 7%nat + f 8%nat + f 9%nat) / 10.
Proof.
  unfold over_cohorts, Rmean. cbn [seq map Rsum length]. replace (INR 10) with 10 by (rewrite INR_IZR_INZ; reflexivity). unfold Rdiv. ring.
Qed.
Lemma exp_le_inv y : y < 1 -> exp y <= / (1 - y).
Proof.
  intros H. assert (E := exp_ineq1_le (- y)). rewrite exp_Ropp in E. assert (P := exp_pos y).
  apply (Rmult_le_reg_r (1 - y)); [lra|]. rewrite Rinv_l by lra. apply (Rmult_le_compat_l (exp y)) in E; [|lra]. rewrite Rinv_r in E by lra. lra.
Qed.
Lemma shipped_mean_increasing k k' : (k <= k')%nat -> shipped_mean k <= shipped_mean k'.
Proof.
  intros H. apply le_INR in H. unfold shipped_mean. rewrite !over10.
  assert (E : forall i : nat, exp ((INR k - 15) / 20 * (INR i / 10)) <= exp ((INR k' - 15) / 20 * (INR i / 10))).
  { intros i. assert (0 <= INR i) by apply pos_INR. assert (L : (INR k - 15) / 20 * (INR i / 10) <= (INR k' - 15) / 20 * (INR i / 10)) by nra.
    destruct L as [L|L]; [left; apply exp_increasing; auto|rewrite L; lra]. }
  assert (E0 := E (10 - 0)%nat). assert (E1 := E (10 - 1)%nat). assert (E2 := E (10 - 2)%nat). assert (E3 := E (10 - 3)%nat). assert (E4 := E (10 - 4)%nat).
  assert (E5 := E (10 - 5)%nat). assert (E6 := E (10 - 6)%nat). assert (E7 := E (10 - 7)%nat). assert (E8 := E (10 - 8)%nat). assert (E9 := E (10 - 9)%nat). lra.
Qed.
Lemma inr_z n : INR n = IZR (Z.of_nat n).
Proof. apply INR_IZR_INZ. Qed.
Lemma shipped_17_above : exp (1 / 20) <= shipped_mean 17.
Proof.
  apply Rle_trans with (/ (1 - 1 / 20)); [apply exp_le_inv; lra|]. unfold shipped_mean. rewrite over10, !inr_z. cbn [Nat.sub Z.of_nat Pos.of_succ_nat Pos.succ].
  repeat match goal with |- context [exp ?y] => generalize (exp_ineq1_le y); generalize (exp y); intros ? ? end. lra.
Qed.
Lemma shipped_16_17 : shipped_mean 16 + shipped_mean 17 < 2 * exp (1 / 20).
Proof.
  apply Rlt_le_trans with (2 * (1 + 1 / 20)); [|assert (H := exp_ineq1_le (1 / 20)); lra]. unfold shipped_mean. rewrite !over10, !inr_z. cbn [Nat.sub Z.of_nat Pos.of_succ_nat Pos.succ].
  repeat match goal with |- context [exp ?y] => generalize (exp_le_inv y ltac:(lra)); generalize (exp y); intros ? ? end. lra.
Qed.
(** the mean borrower asset value closest to the riskless growth factor is the eighteenth state, whatever K, and the shocked columns are states 25 and 9 *)
Theorem C87_shipped : forall round9 solve D K w mu, (26 <= K)%nat ->
  let q := shipped D in let fs := shipped_states K in valid_call q 10 5 fs w ->
  solve (yield_equation q) (Fin (i_r q + 1 / 100)) = Fin mu ->
  let n := (length w * (3 * K))%nat in Nat.even n = true -> Nat.even (Nat.div n 20) = true -> (20 <= n)%nat ->
  exists m, mod_merton_computation XRA exact_spectral round9 exact_int solve (map Fin fs) (as_list q) 10 (map (map Fin) w) = Ok m /\
    m_mFt XRA m = map (fun k => Fin (shipped_mean k)) (seq 0 K) /\
    central_state XRA (Fin (i_r q)) (Fin (i_T q)) (m_mFt XRA m) = Ok 17%nat /\
    (forall rows : list (list xr), rows <> [] -> Forall (fun row => length row = K) rows ->
      table_columns XRA rows 17 = Ok (map (fun row => (nth 17 row NaN, nth 25 row NaN, nth 9 row NaN)) rows)).
Proof.
  intros r9 solve D K w mu HK q fs HC Hs n He Hw Hn.
  assert (LF : length fs = K) by (unfold fs, shipped_states; rewrite map_length, seq_length; auto).
  destruct (C81_mean_assets r9 solve q 10 5 fs w mu HC Hs) as (m & E1 & E2); rewrite ?LF; auto. exists m. split; [exact E1|].
  assert (E3 : m_mFt XRA m = map (fun k => Fin (shipped_mean k)) (seq 0 K)).
  { rewrite E2. unfold fs, shipped_states. rewrite map_map. apply map_ext. intros k. f_equal. unfold shipped_mean, over_cohorts. f_equal. apply map_ext. intros j.
    replace (i_bookF q / i_ltv q) with 1 by (unfold q, shipped; cbn [i_bookF i_ltv]; field). rewrite Rmult_1_l. f_equal.
    unfold q, shipped, age. cbn [i_r i_d i_T i_rho i_sig]. rewrite (inr_z 10). cbn [Z.of_nat Pos.of_succ_nat Pos.succ].
    assert (0 < sqrt (1 / 2)) by (apply sqrt_lt_R0; lra). assert (0 < sqrt 10) by (apply sqrt_lt_R0; lra). field. lra. }
  split; [exact E3|]. split.
  - rewrite E3. replace (map (fun k => Fin (shipped_mean k)) (seq 0 K)) with (map Fin (map shipped_mean (seq 0 K))) by (rewrite map_map; reflexivity).
    destruct (C87_central_state (i_r q) (i_T q) (map shipped_mean (seq 0 K))) as (j & EJ & HJ & Hle & Hlt); [destruct K; [lia|discriminate]|].
    cbv zeta in Hle, Hlt. rewrite map_length, seq_length in HJ, Hle. change (num XRA) with xr. rewrite EJ. f_equal.
    assert (ET : exp (i_r q * i_T q / 2) = exp (1 / 20)) by (unfold q, shipped; cbn [i_r i_T]; f_equal; field). rewrite ET in *.
    assert (HN : forall k, (k < K)%nat -> nth k (map shipped_mean (seq 0 K)) 0 = shipped_mean k).
    { intros k Hk. rewrite (nth_indep _ 0 (shipped_mean 0)) by (rewrite map_length, seq_length; auto). rewrite (map_nth shipped_mean), seq_nth by auto. reflexivity. }
    assert (A17 := shipped_17_above). assert (B := shipped_16_17).
    assert (D17 : Rabs (shipped_mean 17 - exp (1 / 20)) = shipped_mean 17 - exp (1 / 20)) by (apply Rabs_right; lra).
    destruct (lt_eq_lt_dec j 17) as [[L|L]|L]; [|auto|].
    + exfalso. assert (HL := Hle 17%nat ltac:(lia)). rewrite !HN in HL by lia. rewrite D17 in HL. assert (M := shipped_mean_increasing j 16 ltac:(lia)).
      rewrite Rabs_left in HL by lra. lra.
    + exfalso. assert (HL := Hlt 17%nat L). rewrite !HN in HL by lia. rewrite D17 in HL. assert (M := shipped_mean_increasing 17 j ltac:(lia)).
      rewrite Rabs_right in HL by lra. lra.
  - intros rows Hr HF. destruct (C87_columns XRA K 17 rows NaN) as (_ & HT & _); auto; [lia|]. apply HT; lia.
Qed.
(** ** Cases *)
Example C87_case : 
  (* forty simulated paths satisfy the premises of C87_shipped with the 33 states of the shipped grid *)
  (let w := repeat (repeat 0 30) 40 in valid_call (shipped 1) 10 5 (shipped_states 33) w /\
     let n := (length w * (3 * 33))%nat in Nat.even n = true /\ Nat.even (Nat.div n 20) = true /\ (20 <= n)%nat) /\
  (* twenty states, central state 3: the "-ve shock" column shows state 15 *)
  table_columns XRA [map (fun k => Fin (INR k)) (seq 0 20)] 3 = Ok [(Fin (INR 3), Fin (INR 11), Fin (INR 15))] /\
  table_columns XRA [map (fun k => Fin (INR k)) (seq 0 20)] 12 = Err IndexError /\
  central_state XRA (Fin 0) (Fin 1) (map Fin [0; 2; 3/2; 1/2]) = Ok 2%nat.
Proof.
  split; [|split; [|split]].
  - cbv zeta. split; [|rewrite repeat_length; split; [reflexivity|split; [reflexivity|lia]]]. unfold valid_call, valid_inputs, shipped. cbn [i_T i_rho i_sig i_bookF i_ltv i_H].
    rewrite !inr_z. cbn [Z.of_nat Pos.of_succ_nat Pos.succ]. repeat split; try lra; try lia; try discriminate.
    apply Forall_forall. intros row Hr. apply repeat_spec in Hr. subst row. reflexivity.
  - reflexivity.
  - reflexivity.
  - destruct (C87_central_state 0 1 [0; 2; 3/2; 1/2]) as (j & EJ & HJ & Hle & Hlt); [discriminate|]. rewrite EJ. f_equal. cbv zeta in Hle, Hlt. cbn [length] in HJ, Hle.
    replace (0 * 1 / 2) with 0 in * by field. rewrite exp_0 in *.
    assert (A2 : Rabs (3/2 - 1) = 1/2) by (rewrite Rabs_right by lra; lra). assert (A3 : Rabs (1/2 - 1) = 1/2) by (rewrite Rabs_left by lra; lra).
    assert (A0 : Rabs (0 - 1) = 1) by (rewrite Rabs_left by lra; lra). assert (A1 : Rabs (2 - 1) = 1) by (rewrite Rabs_right by lra; lra).
    assert (H2 := Hle 2%nat ltac:(lia)). destruct j as [|[|[|[|]]]]; [exfalso|exfalso|auto|exfalso|lia].
    + cbn [nth] in H2. lra.
    + cbn [nth] in H2. lra.
    + assert (H3 := Hlt 2%nat ltac:(lia)). cbn [nth] in H3. lra.
Qed.
Example C88_case : forall D r y H a s, 0 < D -> 0 < H -> 0 < a -> 1 / 10000 <= s -> 0 <= y ->
  (* every admissible pair is the exact root for its own equity value and volatility *)
  let Et := merton_equity a s D r y H in let sigEt := merton_delta a s D r y H * a * s / Et in
  0 < Et /\ merton_solution XRA (Fin a) (Fin s) (Fin Et) (Fin D) (Fin r) (Fin y) (Fin H) (Fin sigEt) = (Fin 0, Fin 0).
Proof.
  intros D r y H a s HD HH Ha Hs Hy Et sigEt. assert (HE : 0 < Et).
  { unfold Et, merton_equity. assert (0 < bs (stock a y H) (strike D r H) (s * sqrt H)).
    { apply bs_pos; [apply stock_pos; auto|apply strike_pos; auto|apply Rmult_lt_0_compat; [lra|apply sqrt_lt_R0; auto]]. }
    assert (exp (- y * H) <= 1). { rewrite <- exp_0. destruct (Req_dec (- y * H) 0) as [E|E]; [rewrite E; lra|]. left. apply exp_increasing. nra. } nra. }
  split; [auto|]. apply C69_solution; auto; try lra. split; [reflexivity|]. unfold sigEt. field. lra.
Qed.
(** end to end: in the simulated economy every bank debt value is at most the riskless one, so that the spread is never negative and vanishes in a state without defaults *)
Theorem C89_simulated : forall szfs r H D y g M k, M <> [] -> Forall (fun row => length row = (3 * szfs)%nat) M -> (k < szfs)%nat -> 0 < D -> 0 < H ->
  let b := settle XRA szfs (Fin r) (Fin H) (Fin D) (Fin y) (Fin g) (map (map Fin) M) in
  exists B mdef, nth k (b_Bt XRA b) NaN = Fin B /\ nth k (b_mdef XRA b) NaN = Fin mdef /\ 0 <= mdef <= 1 /\
    (0 < B -> exists sp, credit_spread XRA (Fin r) (Fin H) (Fin D) (nth k (b_Bt XRA b) NaN) = Fin sp /\ 0 <= sp /\ (mdef = 0 -> sp = 0)) /\
    (0 < B -> 0 <= y * H -> Forall (fun row => 0 <= nth k row 0) M ->
       exists c, market_capital_ratio XRA (nth k (b_Et XRA b) NaN) (nth k (b_Bt XRA b) NaN) = Fin c /\ 0 <= c < 1).
Proof.
  intros szfs r H D y g M k HM HF Hk HD HH b. destruct (C70_settlement szfs r H D y g M HM HF) as (_ & EB & EE & _ & ED & _). fold b in EB, EE, ED.
  destruct (averaged_identities r H D y g M k HM) as (_ & I2 & _ & I4 & I5 & I6). cbv zeta in I2, I4, I5, I6, EB, EE, ED.
  assert (HN : forall f : nat -> xr, nth k (map f (seq 0 szfs)) NaN = f k).
  { intros f. rewrite (nth_indep _ NaN (f 0%nat)) by (rewrite map_length, seq_length; auto). rewrite (map_nth f), seq_nth by auto. reflexivity. }
  change (num XRA) with xr in *. rewrite EB, EE, ED, !HN.
  set (B := Rmean (map (debt_payoff D y H) (column k M)) * exp (- r * H)) in *. set (E := Rmean (map (equity_payoff D y H) (column k M)) * exp (- r * H)) in *.
  exists B, (Rmean (map (defaulted D y H) (column k M))). split; [auto|]. split; [auto|]. split; [exact I4|]. split.
  - intros HB. destruct (C89_credit_spread r H D B HD HH HB) as (sp & E1 & _ & S0 & S1). exists sp. split; [exact E1|]. assert (P0 : 0 <= sp) by (apply S0; exact I2). split; [exact P0|].
    intros HZ. apply I6 in HZ. destruct P0 as [P0|P0]; [|auto]. apply S1 in P0. lra.
  - intros HB Hy HR. destruct (C89_capital_ratio E B (I5 Hy HR) HB) as (c & E1 & HC & _). exists c. auto.
Qed.
Example C89_case : exists sp, credit_spread XRA (Fin 0) (Fin 5) (Fin 1) (Fin (1/2)) = Fin sp /\ 0 < sp /\ 1 * exp (- (0 + sp) * 5) = 1/2.
Proof.
  destruct (C89_credit_spread 0 5 1 (1/2)) as (sp & E1 & E2 & _ & S1); try lra. exists sp. split; [exact E1|]. split; [|exact E2]. apply S1. replace (- 0 * 5) with 0 by ring. rewrite exp_0. lra.
Qed.
