(** * Property C40: contingent claim analysis *)
From Coq Require Import Reals Lra List Bool.
From Verif Require Import Arith XR RealAux Gauss Model_option Props_option.
Import ListNotations.
Local Open Scope R_scope.

Lemma m_log_fin x : 0 < x -> m_log XRA (Fin x) = Ok (Fin (ln x)).
Proof. intros H. unfold m_log. cbn [nltb ofZ XRA nlog]. rewrite xltb_true by auto. rewrite xlog_fin by auto. reflexivity. Qed.
Lemma m_sqrt_fin x : 0 <= x -> m_sqrt XRA (Fin x) = Ok (Fin (sqrt x)).
Proof. intros H. unfold m_sqrt. cbn [nltb ofZ XRA nsqrt]. rewrite xltb_false by auto. rewrite xsqrt_fin by auto. reflexivity. Qed.
Lemma m_exp_fin x : m_exp XRA (Fin x) = Ok (Fin (exp x)).
Proof. reflexivity. Qed.

(** ** Specification.  The assets are worth a with volatility s; all claims are European claims of maturity t. *)
Definition merton_put (a s r b t : R) : R := bs (strike b r t) a (s * sqrt t).      (* put on the assets struck at the barrier *)
Definition merton_call (a s r b t : R) : R := bs a (strike b r t) (s * sqrt t).
Definition risky_debt (a s r b t : R) : R := b * exp (- r * t) - merton_put a s r b t.
Definition cds_protection (debt r b t cds : R) : R := (1 - exp (- (cds / 10000) * (b / debt - 1) * t)) * b * exp (- r * t).

Lemma risky_debt_pos a s r b t : 0 < a -> 0 < b -> 0 < risky_debt a s r b t.
Proof.
  intros Ha Hb. unfold risky_debt, merton_put. assert (H := bs_below_F (strike b r t) a (s * sqrt t) (strike_pos b r t Hb) Ha). unfold strike in *. lra.
Qed.
Lemma risky_debt_parity a s r b t : 0 < a -> 0 < b -> risky_debt a s r b t = a - merton_call a s r b t.
Proof.
  intros Ha Hb. unfold risky_debt, merton_put, merton_call. assert (H := bs_parity a (strike b r t) (s * sqrt t) Ha (strike_pos b r t Hb)). unfold strike in *. lra.
Qed.
Lemma stock_0 a T : stock a 0 T = a.
Proof. unfold stock. replace (- 0 * T) with 0 by ring. rewrite exp_0. ring. Qed.

(** the d1, d2 of the code are those of Black-Scholes *)
Lemma bs_from_code a s r b t : 0 < a -> 0 < b -> 0 < t -> 0 < s ->
  let d1 := (ln (a / b) + (r + s * s / 2) * t) / (s * sqrt t) in
  let d2 := d1 - s * sqrt t in
  merton_put a s r b t = b * exp (- r * t) * Phi (- d2) - a * Phi (- d1) /\
  merton_call a s r b t = a * Phi d1 - b * exp (- r * t) * Phi d2.
Proof.
  intros Ha Hb Ht Hs d1 d2. assert (H := blsprice_fin a b r t s 0 Ha Hb Ht Hs). rewrite stock_0 in H. fold (merton_put a s r b t) in H. fold (merton_call a s r b t) in H.
  assert (HR : 0 < sqrt t) by (apply sqrt_lt_R0; auto). assert (HV : 0 < s * sqrt t) by (apply Rmult_lt_0_compat; auto).
  unfold blsprice in H. cbn [ndiv nlog nadd nsub nmul nsq nsqrt nexp nopp ncdf ofZ XRA xsq xopp xmul] in H. rewrite !xsqrt_fin in H by lra.
  rewrite !xdiv_fin in H by lra. rewrite xlog_fin in H by (apply Rdiv_lt_0_compat; auto). cbn [xmul xadd xsub xopp xexp] in H. rewrite xdiv_fin in H by lra.
  cbn [xadd xopp xncdf xmul] in H. injection H as H1 H2.
  replace (- 0 * t) with 0 in * by ring. rewrite exp_0 in *. unfold d2, d1.
  replace (r - 0 + s * s / 2) with (r + s * s / 2) in * by ring. rewrite <- H1, <- H2. split; ring.
Qed.

Definition cca_inputs (b t : R) : Prop := 0 < b /\ 0 < t.

(** ** C40 (a): the put is the Black-Scholes put of A = x0^2 with volatility x1^2 struck at the barrier; the second
    component is that put minus the CDS put computed from the risky debt.  Holds for whatever (x0, x1) the solver returned. *)
Theorem C40_prices : forall x0 x1 r b t cds, cca_inputs b t -> x0 <> 0 -> x1 <> 0 ->
  let a := x0 * x0 in let s := x1 * x1 in
  let put := merton_put a s r b t in let debt := risky_debt a s r b t in
  snd (blsprice XRA (Fin a) (Fin b) (Fin r) (Fin t) (Fin s) (Fin 0)) = Fin put /\
  0 < debt /\
  cca_prices XRA (Fin x0) (Fin x1) (Fin r) (Fin b) (Fin t) (Fin cds) = Ok (Fin put, Fin (put - cds_protection debt r b t cds)).
Proof.
  intros x0 x1 r b t cds (Hb & Ht) H0 H1 a s put debt.
  assert (Ha : 0 < a) by (unfold a; nra). assert (Hs : 0 < s) by (unfold s; nra).
  assert (HR : 0 < sqrt t) by (apply sqrt_lt_R0; auto). assert (HV : 0 < s * sqrt t) by (apply Rmult_lt_0_compat; auto).
  assert (HD : 0 < debt) by (apply risky_debt_pos; auto).
  split; [|split; [exact HD|]].
  - rewrite blsprice_fin by auto. rewrite stock_0. reflexivity.
  - unfold cca_prices. cbn [nsq XRA xsq xmul ndiv]. fold a. fold s. rewrite xdiv_fin by lra. rewrite m_log_fin by (apply Rdiv_lt_0_compat; auto). cbn [bind].
    rewrite m_sqrt_fin by lra. cbn [bind nadd nmul nsub nopp ncdf ofZ XRA xmul xadd xopp xsub]. rewrite (xdiv_fin (s * s)) by lra. cbn [xadd xmul]. rewrite (xdiv_fin _ (s * sqrt t)) by lra.
    rewrite m_exp_fin. cbn [bind xadd xmul xsub xopp xncdf].
    destruct (bs_from_code a s r b t Ha Hb Ht Hs) as (E & _). cbv zeta in E. fold put in E.
    set (d1 := (ln (a / b) + (r + s * s / 2) * t) / (s * sqrt t)) in *.
    rewrite <- E.
    rewrite (xdiv_fin cds 10000) by lra. change (b * exp (- r * t) - put) with debt.
    rewrite xdiv_fin by lra. cbn [xadd xmul xopp xsub]. rewrite m_exp_fin. cbn [bind xadd xmul xopp]. reflexivity.
Qed.

(** ** C40 (b): if the solver's vector is a root of the system it was given, risky debt = assets - equity *)
Theorem C40_solved : forall x0 x1 e vol r b t, cca_inputs b t -> x0 <> 0 -> x1 <> 0 ->
  let a := x0 * x0 in let s := x1 * x1 in
  cca_func XRA (Fin x0) (Fin x1) (Fin e) (Fin vol) (Fin r) (Fin b) (Fin t) = Ok (Fin 0, Fin 0) ->
  e = merton_call a s r b t /\ risky_debt a s r b t = a - e /\
  e * vol = a * s * Phi ((ln (a / b) + (r + s * s / 2) * t) / (s * sqrt t)) /\ 0 < e < a.
Proof.
  intros x0 x1 e vol r b t (Hb & Ht) H0 H1 a s H.
  assert (Ha : 0 < a) by (unfold a; nra). assert (Hs : 0 < s) by (unfold s; nra).
  assert (HR : 0 < sqrt t) by (apply sqrt_lt_R0; auto). assert (HV : 0 < s * sqrt t) by (apply Rmult_lt_0_compat; auto).
  unfold cca_func in H. cbn [nsq XRA xsq xmul ndiv] in H. unfold pow4 in H. cbn [nsq XRA xsq xmul ndiv] in H. fold a in H. fold s in H.
  rewrite xdiv_fin in H by lra. rewrite m_log_fin in H by (apply Rdiv_lt_0_compat; auto). cbn [bind] in H.
  rewrite m_sqrt_fin in H by lra. cbn [bind nadd nmul nsub nopp ncdf ofZ XRA xmul xadd xopp xsub] in H. rewrite (xdiv_fin (s * s)) in H by lra.
  cbn [xadd xmul] in H. rewrite xdiv_fin in H by lra. rewrite m_exp_fin in H. cbn [bind xadd xmul xsub xopp xncdf] in H. injection H as HE HS.
  destruct (bs_from_code a s r b t Ha Hb Ht Hs) as (_ & E). cbv zeta in E.
  set (d1 := (ln (a / b) + (r + s * s / 2) * t) / (s * sqrt t)) in *.
  assert (EE : e = merton_call a s r b t) by lra. rewrite risky_debt_parity by auto. repeat split; try lra.
  - rewrite EE. unfold merton_call. apply bs_pos; auto. apply strike_pos; auto.
  - rewrite EE. unfold merton_call. apply bs_below_F; auto. apply strike_pos; auto.
Qed.
(** an input on which the solver has something to solve: for every asset value and volatility there is an equity value and
    volatility whose equations they solve *)
Theorem C40_solvable : forall a s r b t, cca_inputs b t -> 0 < a -> 0 < s ->
  exists e vol, 0 < e /\ 0 < vol /\
    cca_func XRA (Fin (sqrt a)) (Fin (sqrt s)) (Fin e) (Fin vol) (Fin r) (Fin b) (Fin t) = Ok (Fin 0, Fin 0).
Proof.
  intros a s r b t (Hb & Ht) Ha Hs.
  set (d1 := (ln (a / b) + (r + s * s / 2) * t) / (s * sqrt t)). set (e := merton_call a s r b t).
  assert (He : 0 < e). { unfold e, merton_call. apply bs_pos; [auto|apply strike_pos; auto|apply Rmult_lt_0_compat; [auto|apply sqrt_lt_R0; auto]]. }
  assert (HP := Phi_range d1).
  exists e, (a * s * Phi d1 / e). split; [exact He|]. split. { apply Rdiv_lt_0_compat; [|auto]. repeat apply Rmult_lt_0_compat; auto; lra. }
  assert (HR : 0 < sqrt t) by (apply sqrt_lt_R0; auto). assert (HV : 0 < s * sqrt t) by (apply Rmult_lt_0_compat; auto).
  unfold cca_func. cbn [nsq XRA xsq xmul ndiv]. unfold pow4. cbn [nsq XRA xsq xmul ndiv]. rewrite !sqrt_sqrt by lra.
  rewrite xdiv_fin by lra. rewrite m_log_fin by (apply Rdiv_lt_0_compat; auto). cbn [bind].
  rewrite m_sqrt_fin by lra. cbn [bind nadd nmul nsub nopp ncdf ofZ XRA xmul xadd xopp xsub]. rewrite (xdiv_fin (s * s)) by lra.
  cbn [xadd xmul]. rewrite xdiv_fin by lra. rewrite m_exp_fin. cbn [bind xadd xmul xsub xopp xncdf]. fold d1.
  destruct (bs_from_code a s r b t Ha Hb Ht Hs) as (_ & E). cbv zeta in E. fold d1 in E. fold e in E.
  do 3 f_equal; [rewrite E; ring|]. field. lra.
Qed.

(** ** C40 (c): the systemic contribution as a function of the CDS spread *)
Definition contribution (x0 x1 r b t cds : R) : xr :=
  match cca_prices XRA (Fin x0) (Fin x1) (Fin r) (Fin b) (Fin t) (Fin cds) with Ok (_, c) => c | Err _ => NaN end.
Lemma contribution_eq x0 x1 r b t cds : cca_inputs b t -> x0 <> 0 -> x1 <> 0 ->
  contribution x0 x1 r b t cds = Fin (merton_put (x0 * x0) (x1 * x1) r b t - cds_protection (risky_debt (x0 * x0) (x1 * x1) r b t) r b t cds).
Proof. intros Hi H0 H1. unfold contribution. destruct (C40_prices x0 x1 r b t cds Hi H0 H1) as (_ & _ & ->). reflexivity. Qed.
Theorem C40_zero_spread : forall x0 x1 r b t cds, cca_inputs b t -> x0 <> 0 -> x1 <> 0 ->
  (contribution x0 x1 r b t cds = Fin (merton_put (x0 * x0) (x1 * x1) r b t) <-> cds = 0 \/ risky_debt (x0 * x0) (x1 * x1) r b t = b).
Proof.
  intros x0 x1 r b t cds Hi H0 H1. rewrite contribution_eq by auto. destruct Hi as (Hb & Ht).
  assert (Ha : 0 < x0 * x0) by nra. assert (HD := risky_debt_pos (x0 * x0) (x1 * x1) r b t Ha Hb).
  set (dd := risky_debt (x0 * x0) (x1 * x1) r b t) in *. set (pp := merton_put (x0 * x0) (x1 * x1) r b t).
  assert (X := exp_pos (- r * t)). unfold cds_protection. split.
  - intros H. injection H as H. assert (E : (1 - exp (- (cds / 10000) * (b / dd - 1) * t)) * (b * exp (- r * t)) = 0) by lra.
    apply Rmult_integral in E. destruct E as [E|E]; [|assert (0 < b * exp (- r * t)) by (apply Rmult_lt_0_compat; auto); lra].
    assert (E' : exp (- (cds / 10000) * (b / dd - 1) * t) = exp 0) by (rewrite exp_0; lra). apply exp_inv in E'.
    apply Rmult_integral in E'. destruct E' as [E'|E']; [|lra]. apply Rmult_integral in E'. destruct E' as [E'|E']; [left; lra|right].
    assert (F : b / dd = 1) by lra. apply (f_equal (fun z => z * dd)) in F. replace (b / dd * dd) with b in F by (field; lra). lra.
  - intros [->|E]; f_equal.
    + replace (- (0 / 10000) * (b / dd - 1) * t) with 0 by (field; lra). rewrite exp_0. ring.
    + rewrite E. replace (- (cds / 10000) * (b / b - 1) * t) with 0 by (field; lra). rewrite exp_0. ring.
Qed.
Theorem C40_decreasing_in_spread : forall x0 x1 r b t cds cds', cca_inputs b t -> x0 <> 0 -> x1 <> 0 ->
  risky_debt (x0 * x0) (x1 * x1) r b t < b -> cds < cds' ->
  xltb (contribution x0 x1 r b t cds') (contribution x0 x1 r b t cds) = true.
Proof.
  intros x0 x1 r b t cds cds' Hi H0 H1 HL HC. rewrite !contribution_eq by auto. rewrite xltb_iff. destruct Hi as (Hb & Ht).
  assert (Ha : 0 < x0 * x0) by nra. assert (HD := risky_debt_pos (x0 * x0) (x1 * x1) r b t Ha Hb).
  set (dd := risky_debt (x0 * x0) (x1 * x1) r b t) in *. set (pp := merton_put (x0 * x0) (x1 * x1) r b t).
  assert (X := exp_pos (- r * t)). unfold cds_protection.
  assert (HG : 0 < b / dd - 1). { assert (1 < b / dd); [|lra]. apply lt_div_iff; lra. }
  assert (HE : exp (- (cds' / 10000) * (b / dd - 1) * t) < exp (- (cds / 10000) * (b / dd - 1) * t)).
  { apply exp_increasing. apply Rmult_lt_compat_r; [auto|]. apply Rmult_lt_compat_r; [auto|]. lra. }
  assert (0 < b * exp (- r * t)) by (apply Rmult_lt_0_compat; auto).
  assert (Q : exp (- (cds' / 10000) * (b / dd - 1) * t) * (b * exp (- r * t)) < exp (- (cds / 10000) * (b / dd - 1) * t) * (b * exp (- r * t)))
    by (apply Rmult_lt_compat_r; auto). lra.
Qed.
(** with a nonnegative rate the debt is always worth less than the barrier, so the premise above holds *)
Lemma debt_below_barrier : forall x0 x1 r b t, cca_inputs b t -> x0 <> 0 -> x1 <> 0 -> 0 <= r ->
  risky_debt (x0 * x0) (x1 * x1) r b t < b.
Proof.
  intros x0 x1 r b t (Hb & Ht) H0 H1 Hr. assert (Ha : 0 < x0 * x0) by nra. assert (Hs : 0 < x1 * x1) by nra. unfold risky_debt.
  assert (HP : 0 < merton_put (x0 * x0) (x1 * x1) r b t).
  { unfold merton_put. apply bs_pos; [apply strike_pos; auto|auto|apply Rmult_lt_0_compat; [auto|apply sqrt_lt_R0; auto]]. }
  assert (exp (- r * t) <= 1). { replace 1 with (exp 0) by apply exp_0. destruct (Req_dec r 0) as [->|]; [right; f_equal; ring|]. left. apply exp_increasing. nra. } nra.
Qed.
(** a larger spread never makes the contribution exceed the put: it lies strictly between put - strike and put *)
Theorem C40_protection_bounds : forall x0 x1 r b t cds, cca_inputs b t -> x0 <> 0 -> x1 <> 0 -> 0 <= r -> 0 < cds ->
  let a := x0 * x0 in let s := x1 * x1 in
  exists c, contribution x0 x1 r b t cds = Fin c /\ - risky_debt a s r b t < c < merton_put a s r b t.
Proof.
  intros x0 x1 r b t cds Hi H0 H1 Hr Hc a s. eexists. split; [apply contribution_eq; auto|].
  assert (HB := debt_below_barrier x0 x1 r b t Hi H0 H1 Hr). destruct Hi as (Hb & Ht).
  assert (Ha : 0 < x0 * x0) by nra. assert (HD := risky_debt_pos (x0 * x0) (x1 * x1) r b t Ha Hb). fold a in HD, HB |- *. fold s in HD, HB |- *.
  set (dd := risky_debt a s r b t) in *. assert (ED : dd = b * exp (- r * t) - merton_put a s r b t) by reflexivity. set (pp := merton_put a s r b t) in *.
  assert (X := exp_pos (- r * t)). unfold cds_protection.
  assert (HG : 0 < b / dd - 1). { assert (1 < b / dd); [|lra]. apply lt_div_iff; lra. }
  assert (HE : exp (- (cds / 10000) * (b / dd - 1) * t) < 1).
  { apply Rlt_le_trans with (exp 0); [|rewrite exp_0; lra]. apply exp_increasing. assert (0 < cds / 10000 * (b / dd - 1) * t) by (repeat apply Rmult_lt_0_compat; lra). lra. }
  assert (HE0 := exp_pos (- (cds / 10000) * (b / dd - 1) * t)). set (ee := exp (- (cds / 10000) * (b / dd - 1) * t)) in *.
  assert (0 < b * exp (- r * t)) by (apply Rmult_lt_0_compat; auto). set (st := b * exp (- r * t)) in *.
  replace ((1 - ee) * b * exp (- r * t)) with ((1 - ee) * st) by (unfold st; ring). split; nra.
Qed.

(** ** C40 (d): the estimate uses whatever the solver returned; its residuals, flag and the equity inputs play no further part *)
Theorem C40_flag_ignored : forall (A : Arith) fsolve fsolve' equity equity' volatility volatility' rf b t cds v v',
  cca_estimate A fsolve equity volatility rf b t cds = Ok v -> cca_estimate A fsolve' equity' volatility' rf b t cds = Ok v' ->
  fs_x A (fsolve (equity, volatility)) = fs_x A (fsolve' (equity', volatility')) -> v = v'.
Proof.
  intros A f f' e e' vo vo' rf b t cds v v' H H' E. unfold cca_estimate in *.
  destruct (eval_all _ _ (_ :: fs_evals A (f _))); [|discriminate]. destruct (eval_all _ _ (_ :: fs_evals A (f' _))); [|discriminate].
  cbn [bind] in *. rewrite E in H. congruence.
Qed.
(** the whole call: it succeeds whenever the starting point and the visited points have nonzero first coordinates *)
Lemma cca_func_ok x0 x1 e vol r b t : cca_inputs b t -> x0 <> 0 -> exists p, cca_func XRA (Fin x0) x1 e vol (Fin r) (Fin b) (Fin t) = Ok p.
Proof.
  intros (Hb & Ht) H0. unfold cca_func. cbn [nsq XRA xsq xmul ndiv]. rewrite xdiv_fin by lra. rewrite m_log_fin by (apply Rdiv_lt_0_compat; [nra|auto]). cbn [bind].
  rewrite m_sqrt_fin by lra. cbn [bind nopp nmul XRA xmul xopp]. rewrite m_exp_fin. cbn [bind]. eexists. reflexivity.
Qed.
Lemma eval_all_ok e vol r b t pts : cca_inputs b t -> Forall (fun p => exists x, x <> 0 /\ fst p = Fin x) pts ->
  eval_all XRA (fun p => cca_func XRA (fst p) (snd p) e vol (Fin r) (Fin b) (Fin t)) pts = Ok tt.
Proof.
  intros Hi. induction pts as [|p pts IH]; intros HF; [reflexivity|]. inversion HF as [|? ? H1 H2]; subst. destruct H1 as (x & Hx & E). cbn [eval_all]. change (num XRA) with xr in *. rewrite E.
  destruct (cca_func_ok x (snd p) e vol r b t Hi Hx) as (q & ->). cbn [bind]. apply IH. exact H2.
Qed.
Theorem C40_estimate : forall fsolve e vol r b t cds x0 x1, cca_inputs b t -> e <> 0 ->
  Forall (fun p => exists x, x <> 0 /\ fst p = Fin x) (fs_evals XRA (fsolve (Fin e, Fin vol))) ->
  fs_x XRA (fsolve (Fin e, Fin vol)) = (Fin x0, Fin x1) -> x0 <> 0 -> x1 <> 0 ->
  let a := x0 * x0 in let s := x1 * x1 in
  cca_estimate XRA fsolve (Fin e) (Fin vol) (Fin r) (Fin b) (Fin t) (Fin cds) =
  Ok (Fin (merton_put a s r b t), Fin (merton_put a s r b t - cds_protection (risky_debt a s r b t) r b t cds)).
Proof.
  intros f e vol r b t cds x0 x1 Hi He HF HX H0 H1 a s. unfold cca_estimate. rewrite eval_all_ok; [|auto|constructor; [exists e; split; auto|exact HF]]. cbn [bind].
  change (num XRA) with xr in *. rewrite HX. cbn [fst snd]. apply (C40_prices x0 x1 r b t cds Hi H0 H1).
Qed.
(** zero equity or a nonpositive barrier makes the very first evaluation raise *)
Theorem C40_bad_start : forall fsolve e vol r b t cds, 0 < t -> b <> 0 -> e = 0 \/ b < 0 ->
  cca_estimate XRA fsolve (Fin e) (Fin vol) (Fin r) (Fin b) (Fin t) (Fin cds) = Err ValueError.
Proof.
  intros f e vol r b t cds Ht Hb H. unfold cca_estimate. cbn [eval_all fst snd]. unfold cca_func. cbn [nsq XRA xsq xmul ndiv]. rewrite xdiv_fin by auto.
  unfold m_log. cbn [nltb ofZ XRA]. rewrite xltb_false; [reflexivity|].
  destruct H as [->|H]; [unfold Rdiv; lra|]. assert (/ b < 0) by (apply Rinv_lt_0_compat; auto). unfold Rdiv. nra.
Qed.
(** outside the domain of the logarithm or of the square root the call raises ValueError at the starting point, whatever the solver *)
Theorem C40_domain : forall fsolve e vol r b t cds,
  (e = 0 /\ b <> 0) \/ (b < 0) \/ (e <> 0 /\ 0 < b /\ t < 0) ->
  cca_estimate XRA fsolve (Fin e) (Fin vol) (Fin r) (Fin b) (Fin t) (Fin cds) = Err ValueError.
Proof.
  intros f e vol r b t cds H. unfold cca_estimate. cbn [eval_all fst snd]. unfold cca_func at 1, m_log. cbn [nsq ndiv XRA xsq isnan ofZ nltb].
  destruct H as [[-> Hb] | [Hb | (He & Hb & Ht)]].
  - rewrite xdiv_fin by auto. replace (0 * 0 / b) with 0 by (field; auto). rewrite xltb_false by lra. reflexivity.
  - rewrite xdiv_fin by lra. rewrite xltb_false; [reflexivity|]. assert (0 <= e * e) by nra. assert (/ b < 0) by (apply Rinv_lt_0_compat; auto). unfold Rdiv. nra.
  - rewrite xdiv_fin by lra. replace (xltb (Fin 0) (Fin (e * e / b))) with true; [|symmetry; rewrite xltb_iff; apply Rdiv_lt_0_compat; [nra|auto]]. cbn [bind].
    unfold m_sqrt. cbn [nltb ofZ XRA]. replace (xltb (Fin t) (Fin 0)) with true by (symmetry; rewrite xltb_iff; auto). reflexivity.
Qed.
(** an exponential of a finite number that leaves the floating-point range raises OverflowError, and nothing else does:
    the only exponentials taken are those of minus the rate times the maturity and of the accumulated CDS spread *)
Definition overflows (A : Arith) (z : num A) : Prop := isinf (nexp z) = true /\ isinf z = false.
Theorem C40_overflow : forall (A : Arith) fsolve e vol rf b t cds,
  nltb (@ofZ A 0) (ndiv (nsq e) b) = true -> nltb t (@ofZ A 0) = false ->
  overflows A (nmul (nopp rf) t) ->
  cca_estimate A fsolve e vol rf b t cds = Err OverflowError.
Proof.
  intros A f e vol rf b t cds H1 H2 [H3 H4]. unfold cca_estimate. cbn [eval_all fst snd]. unfold cca_func at 1, m_log. rewrite H1. cbn [bind]. unfold m_sqrt. rewrite H2. cbn [bind].
  unfold m_exp. rewrite H3, H4. reflexivity.
Qed.
Theorem C40_overflow_only : forall (A : Arith) fsolve e vol rf b t cds,
  cca_estimate A fsolve e vol rf b t cds = Err OverflowError ->
  overflows A (nmul (nopp rf) t) \/
  exists debt, overflows A (nmul (nmul (nopp (ndiv cds (ofZ 10000))) (nsub (ndiv b debt) (ofZ 1))) t).
Proof.
  intros A f e vol rf b t cds.
  assert (M : forall z, m_exp A z = Err OverflowError /\ overflows A z \/ exists y, m_exp A z = Ok y).
  { intros z; unfold m_exp, overflows; destruct (isinf (nexp z)); cbn [andb]; [destruct (isinf z); cbn [negb]; [right; eauto|left; auto]|right; eauto]. }
  assert (L : forall z, m_log A z <> Err OverflowError) by (intros z; unfold m_log; destruct (_ <? _)%num; [discriminate|]; destruct (isnan z); discriminate).
  assert (S : forall z, m_sqrt A z <> Err OverflowError) by (intros z; unfold m_sqrt; destruct (_ <? _)%num; discriminate).
  assert (E : forall x0 x1, cca_func A x0 x1 e vol rf b t = Err OverflowError -> overflows A (nmul (nopp rf) t)).
  { intros x0 x1. unfold cca_func. destruct (m_log A _) as [l|ex] eqn:EL; cbn [bind]; [|intros H; injection H as ->; destruct (L _ EL)].
    destruct (m_sqrt A t) as [st|ex] eqn:ES; cbn [bind]; [|intros H; injection H as ->; destruct (S _ ES)].
    intros H. destruct (M (nmul (nopp rf) t)) as [[HE O]|(y & HE)]; rewrite HE in H; cbn [bind] in H; [exact O|discriminate]. }
  unfold cca_estimate. destruct (eval_all A _ _) as [[]|ex] eqn:EE; cbn [bind].
  - intros H. unfold cca_prices in H. destruct (m_log A _) as [l|ex] eqn:EL; cbn [bind] in H; [|injection H as ->; destruct (L _ EL)].
    destruct (m_sqrt A t) as [st|ex] eqn:ES; cbn [bind] in H; [|injection H as ->; destruct (S _ ES)].
    destruct (M (nmul (nopp rf) t)) as [[HE O]|(y & HE)]; rewrite HE in H; cbn [bind] in H; [left; exact O|right].
    match type of H with context [m_exp A ?z] => destruct (M z) as [[HE' O]|(y' & HE')]; rewrite HE' in H; cbn [bind] in H end; [eexists; exact O|discriminate].
  - intros H. injection H as ->. left. revert EE. generalize ((e, vol) :: fs_evals A (f (e, vol))). induction l as [|q l IH]; cbn [eval_all]; [discriminate|].
    destruct (cca_func A (fst q) (snd q) e vol rf b t) as [v|ex] eqn:EF; cbn [bind]; [exact IH|]. intros H. injection H as ->. exact (E _ _ EF).
Qed.
Example C40_case : cca_inputs 3 (1/2) /\ (2 : R) <> 0 /\ (1/2 : R) <> 0 /\ 0 <= 1/20.
Proof. unfold cca_inputs. repeat split; lra. Qed.
