(** * Properties C37, C38, C39, C78: Black-Scholes prices *)
From Coq Require Import Reals Lra.
From Coquelicot Require Import Coquelicot.
From Verif Require Import Arith XR RealAux Gauss Model_option.
Local Open Scope R_scope.

(** ** Specification: prices in terms of forward values F = S e^{-qT}, D = K e^{-rT} and total volatility v *)
Definition bs (F D v : R) : R := F * Phi (ln (F / D) / v + v / 2) - D * Phi (ln (F / D) / v - v / 2).
Definition stock (S q T : R) : R := S * exp (- q * T).
Definition strike (K r T : R) : R := K * exp (- r * T).

(** The call value is the largest of F Phi(x+v) - D Phi(x): exercising at any other boundary is worth less. *)
Lemma phi_shift x v : phi (x + v) = phi x * exp (- (x * v + v ^ 2 / 2)).
Proof.
  unfold phi. unfold Rdiv. rewrite Rmult_assoc, (Rmult_comm (/ sqrt _)), <- Rmult_assoc. f_equal. rewrite <- exp_plus. f_equal. field.
Qed.
Lemma envelope F D v x : 0 < F -> 0 < D -> 0 < v -> F * Phi (x + v) - D * Phi x <= bs F D v.
Proof.
  intros HF HD Hv. set (x0 := ln (F / D) / v - v / 2).
  assert (E : bs F D v = F * Phi (x0 + v) - D * Phi x0). { unfold bs, x0. f_equal. f_equal. f_equal. field. lra. }
  rewrite E. clear E. set (h := fun y => F * Phi (y + v) - D * Phi y). change (h x <= h x0).
  assert (HX : x0 * v + v ^ 2 / 2 = ln (F / D)) by (unfold x0; field; lra).
  set (dh := fun y => F * phi (y + v) - D * phi y).
  assert (DH : forall y, is_derive h y (dh y)).
  { intros y. unfold h, dh. apply (is_derive_minus (V := R_NormedModule) (fun y => F * Phi (y + v)) (fun y => D * Phi y)).
    - apply (is_derive_scal (fun y => Phi (y + v))). 
      replace (phi (y + v)) with (scal 1 (phi (y + v))) by (unfold scal; cbn; unfold mult; cbn; ring).
      apply (is_derive_comp (V := R_NormedModule) Phi (fun y => y + v)); [apply Phi_derive|]. auto_derive; [auto|ring].
    - apply (is_derive_scal Phi). apply Phi_derive. }
  assert (SG : forall y, dh y = phi y * D * (exp (ln (F / D) - (y * v + v ^ 2 / 2)) - 1)).
  { intros y. unfold dh. rewrite phi_shift. unfold Rminus at 3. rewrite exp_plus, exp_ln by (apply Rdiv_lt_0_compat; auto). field. lra. }
  destruct (MVT_gen h x x0 dh) as (c & Hc & EC).
  { intros y _. apply DH. }
  { intros y _. apply derivable_continuous_pt. exists (dh y). apply is_derive_Reals. apply DH. }
  assert (HP : 0 < phi c * D) by (apply Rmult_lt_0_compat; [apply phi_pos|auto]).
  destruct (Rle_dec x x0) as [Hx|Hx].
  - rewrite Rmin_left, Rmax_right in Hc by auto.
    assert (G : 0 <= dh c).
    { rewrite SG. apply Rmult_le_pos; [lra|]. rewrite <- HX.
      assert (0 <= x0 * v + v ^ 2 / 2 - (c * v + v ^ 2 / 2)) by nra.
      assert (exp 0 <= exp (x0 * v + v ^ 2 / 2 - (c * v + v ^ 2 / 2))) by (destruct H as [H|H]; [left; apply exp_increasing; auto|right; rewrite <- ?H, ?H; reflexivity]).
      rewrite exp_0 in H0. lra. }
    assert (0 <= dh c * (x0 - x)) by (apply Rmult_le_pos; lra). lra.
  - assert (Hx' : x0 <= x) by lra. rewrite Rmin_right, Rmax_left in Hc by auto.
    assert (G : dh c <= 0).
    { rewrite SG. rewrite <- HX.
      assert (x0 * v + v ^ 2 / 2 - (c * v + v ^ 2 / 2) <= 0) by nra.
      assert (exp (x0 * v + v ^ 2 / 2 - (c * v + v ^ 2 / 2)) <= exp 0) by (destruct H as [H|H]; [left; apply exp_increasing; auto|right; rewrite <- ?H, ?H; reflexivity]).
      rewrite exp_0 in H0. nra. }
    assert (0 <= dh c * (x0 - x)) by nra. lra.
Qed.
(** [bs] in the form "value at its own boundary" *)
Lemma bs_boundary F D v : 0 < v -> exists x, bs F D v = F * Phi (x + v) - D * Phi x.
Proof. intros Hv. exists (ln (F / D) / v - v / 2). unfold bs. f_equal. f_equal. f_equal. field. lra. Qed.
Lemma bs_incr_F F F' D v : 0 < F < F' -> 0 < D -> 0 < v -> bs F D v < bs F' D v.
Proof.
  intros HF HD Hv. destruct (bs_boundary F D v Hv) as (x & ->). eapply Rlt_le_trans; [|apply (envelope F' D v x); lra].
  assert (H := Phi_range (x + v)). nra.
Qed.
Lemma bs_decr_D F D D' v : 0 < F -> 0 < D < D' -> 0 < v -> bs F D' v < bs F D v.
Proof.
  intros HF HD Hv. destruct (bs_boundary F D' v Hv) as (x & ->). eapply Rlt_le_trans; [|apply (envelope F D v x); lra].
  assert (H := Phi_range x). nra.
Qed.
Lemma bs_incr_v F D v v' : 0 < F -> 0 < D -> 0 < v < v' -> bs F D v < bs F D v'.
Proof.
  intros HF HD Hv. destruct (bs_boundary F D v ltac:(lra)) as (x & ->). eapply Rlt_le_trans; [|apply (envelope F D v' x); lra].
  assert (H := Phi_increasing (x + v) (x + v') ltac:(lra)). nra.
Qed.
Lemma bs_nonneg F D v : 0 < F -> 0 < D -> 0 < v -> 0 <= bs F D v.
Proof.
  intros HF HD Hv. apply Rnot_lt_le. intros Hn.
  destruct (Phi_small (- bs F D v / D)) as (x & Hx); [apply Rdiv_lt_0_compat; lra|].
  assert (H := envelope F D v x HF HD Hv). assert (P := Phi_range (x + v)).
  apply lt_div_iff in Hx; [|auto]. assert (0 < F * Phi (x + v)) by (apply Rmult_lt_0_compat; lra). lra.
Qed.
Lemma bs_pos F D v : 0 < F -> 0 < D -> 0 < v -> 0 < bs F D v.
Proof.
  intros HF HD Hv. assert (H := bs_nonneg (F / 2) D v ltac:(lra) HD Hv). assert (H1 := bs_incr_F (F / 2) F D v ltac:(lra) HD Hv). lra.
Qed.
Lemma bs_below_F F D v : 0 < F -> 0 < D -> bs F D v < F.
Proof. intros HF HD. unfold bs. assert (H1 := Phi_range (ln (F / D) / v + v / 2)). assert (H2 := Phi_range (ln (F / D) / v - v / 2)). nra. Qed.
(** put-call symmetry and parity *)
Lemma bs_parity F D v : 0 < F -> 0 < D -> bs F D v - bs D F v = F - D.
Proof.
  intros HF HD. unfold bs. assert (E : ln (D / F) = - ln (F / D)).
  { rewrite <- ln_Rinv by (apply Rdiv_lt_0_compat; auto). f_equal. field. lra. }
  rewrite E. replace (- ln (F / D) / v + v / 2) with (- (ln (F / D) / v - v / 2)) by (unfold Rdiv; ring).
  replace (- ln (F / D) / v - v / 2) with (- (ln (F / D) / v + v / 2)) by (unfold Rdiv; ring). rewrite !Phi_symmetric. ring.
Qed.
(** ** The code computes these prices *)
Lemma blsprice_fin S K r T sigma q : 0 < S -> 0 < K -> 0 < T -> 0 < sigma ->
  blsprice XRA (Fin S) (Fin K) (Fin r) (Fin T) (Fin sigma) (Fin q) =
  (Fin (bs (stock S q T) (strike K r T) (sigma * sqrt T)), Fin (bs (strike K r T) (stock S q T) (sigma * sqrt T))).
Proof.
  intros HS HK HT Hs. assert (HR : 0 < sqrt T) by (apply sqrt_lt_R0; auto). assert (HV : 0 < sigma * sqrt T) by (apply Rmult_lt_0_compat; auto).
  unfold blsprice. cbn [ndiv nlog nadd nsub nmul nsq nsqrt nexp nopp ncdf ofZ XRA xsq xopp xmul]. rewrite !xsqrt_fin by lra.
  rewrite !xdiv_fin by lra. rewrite xlog_fin by (apply Rdiv_lt_0_compat; auto). cbn [xmul xadd xsub xopp xexp]. rewrite xdiv_fin by lra. cbn [xadd xopp xncdf xmul].
  set (v := sigma * sqrt T) in *.
  assert (HF : 0 < stock S q T) by (apply Rmult_lt_0_compat; [auto|apply exp_pos]).
  assert (HD : 0 < strike K r T) by (apply Rmult_lt_0_compat; [auto|apply exp_pos]).
  assert (HL : ln (stock S q T / strike K r T) = ln (S / K) + (r - q) * T).
  { unfold stock, strike. unfold Rdiv. rewrite Rinv_mult. replace (S * exp (- q * T) * (/ K * / exp (- r * T))) with (S * / K * (exp (- q * T) * / exp (- r * T))) by ring.
    rewrite <- exp_Ropp, <- exp_plus. rewrite ln_mult, ln_exp; [|apply Rdiv_lt_0_compat; auto|apply exp_pos]. f_equal. ring. }
  assert (D1 : (ln (S / K) + (r - q + sigma * sigma / 2) * T) / v = ln (stock S q T / strike K r T) / v + v / 2).
  { rewrite HL. replace (sigma * sigma / 2 * T) with (sigma * sigma / 2 * (sqrt T * sqrt T)) by (rewrite sqrt_sqrt by lra; reflexivity).
    replace ((r - q + sigma * sigma / 2) * T) with ((r - q) * T + v * v / 2); [field; lra|].
    unfold v. replace (sigma * sqrt T * (sigma * sqrt T) / 2) with (sigma * sigma / 2 * (sqrt T * sqrt T)) by field. rewrite sqrt_sqrt by lra. ring. }
  assert (EI : ln (strike K r T / stock S q T) = - ln (stock S q T / strike K r T)).
  { rewrite <- ln_Rinv by (apply Rdiv_lt_0_compat; auto). f_equal. field. lra. }
  unfold bs. rewrite EI. fold (stock S q T). fold (strike K r T).
  rewrite D1. cbn [xsub xopp xncdf].
  set (m := ln (stock S q T / strike K r T)). f_equal; f_equal; [f_equal; f_equal; f_equal; field; lra|].
  f_equal; f_equal; f_equal; field; lra.
Qed.
Definition call_price S K r T sigma q := fst (blsprice XRA (Fin S) (Fin K) (Fin r) (Fin T) (Fin sigma) (Fin q)).
Definition put_price S K r T sigma q := snd (blsprice XRA (Fin S) (Fin K) (Fin r) (Fin T) (Fin sigma) (Fin q)).
Definition valid (S K T sigma : R) : Prop := 0 < S /\ 0 < K /\ 0 < T /\ 0 < sigma.
Lemma vol_pos S K T sigma : valid S K T sigma -> 0 < sigma * sqrt T.
Proof. intros (_ & _ & HT & Hs). apply Rmult_lt_0_compat; [auto|apply sqrt_lt_R0; auto]. Qed.
Lemma stock_pos S q T : 0 < S -> 0 < stock S q T.
Proof. intros H. apply Rmult_lt_0_compat; [auto|apply exp_pos]. Qed.
Lemma strike_pos K r T : 0 < K -> 0 < strike K r T.
Proof. intros H. apply Rmult_lt_0_compat; [auto|apply exp_pos]. Qed.

(** ** C37: put-call parity *)
Theorem C37_put_call_parity : forall S K r T sigma q, valid S K T sigma ->
  exists c p, blsprice XRA (Fin S) (Fin K) (Fin r) (Fin T) (Fin sigma) (Fin q) = (Fin c, Fin p) /\ c - p = S * exp (- q * T) - K * exp (- r * T).
Proof.
  intros S K r T sigma q (HS & HK & HT & Hs). do 2 eexists. split; [apply blsprice_fin; auto|]. apply bs_parity; [apply stock_pos|apply strike_pos]; auto.
Qed.
(** ** C38: no-arbitrage bounds *)
Theorem C38_no_arbitrage_bounds : forall S K r T sigma q, valid S K T sigma ->
  exists c p, blsprice XRA (Fin S) (Fin K) (Fin r) (Fin T) (Fin sigma) (Fin q) = (Fin c, Fin p) /\
    Rmax (S * exp (- q * T) - K * exp (- r * T)) 0 < c < S * exp (- q * T) /\
    Rmax (K * exp (- r * T) - S * exp (- q * T)) 0 < p < K * exp (- r * T).
Proof.
  intros S K r T sigma q HV. assert (Hv := vol_pos _ _ _ _ HV). destruct HV as (HS & HK & HT & Hs). do 2 eexists. split; [apply blsprice_fin; auto|].
  assert (HF := stock_pos S q T HS). assert (HD := strike_pos K r T HK). fold (stock S q T). fold (strike K r T).
  assert (P1 := bs_pos _ _ _ HF HD Hv). assert (P2 := bs_pos _ _ _ HD HF Hv). assert (P3 := bs_parity _ _ (sigma * sqrt T) HF HD).
  assert (U1 := bs_below_F _ _ (sigma * sqrt T) HF HD). assert (U2 := bs_below_F _ _ (sigma * sqrt T) HD HF).
  split; (split; [apply Rmax_lub_lt; lra|auto]).
Qed.
(** ** C39: monotonicity *)
Theorem C39_spot : forall S S' K r T sigma q, valid S K T sigma -> S < S' ->
  xltb (call_price S K r T sigma q) (call_price S' K r T sigma q) = true /\ xltb (put_price S' K r T sigma q) (put_price S K r T sigma q) = true.
Proof.
  intros S S' K r T sigma q HV HL. assert (Hv := vol_pos _ _ _ _ HV). destruct HV as (HS & HK & HT & Hs). unfold call_price, put_price. rewrite !blsprice_fin by lra.
  cbn [fst snd]. rewrite !xltb_iff. assert (HF := stock_pos S q T HS). assert (HD := strike_pos K r T HK).
  assert (stock S q T < stock S' q T) by (apply Rmult_lt_compat_r; [apply exp_pos|auto]). split; [apply bs_incr_F; auto|apply bs_decr_D; auto].
Qed.
Theorem C39_strike : forall S K K' r T sigma q, valid S K T sigma -> K < K' ->
  xltb (call_price S K' r T sigma q) (call_price S K r T sigma q) = true /\ xltb (put_price S K r T sigma q) (put_price S K' r T sigma q) = true.
Proof.
  intros S K K' r T sigma q HV HL. assert (Hv := vol_pos _ _ _ _ HV). destruct HV as (HS & HK & HT & Hs). unfold call_price, put_price. rewrite !blsprice_fin by lra.
  cbn [fst snd]. rewrite !xltb_iff. assert (HF := stock_pos S q T HS). assert (HD := strike_pos K r T HK).
  assert (strike K r T < strike K' r T) by (apply Rmult_lt_compat_r; [apply exp_pos|auto]). split; [apply bs_decr_D; auto|apply bs_incr_F; auto].
Qed.
Theorem C39_volatility : forall S K r T sigma sigma' q, valid S K T sigma -> sigma < sigma' ->
  xltb (call_price S K r T sigma q) (call_price S K r T sigma' q) = true /\ xltb (put_price S K r T sigma q) (put_price S K r T sigma' q) = true.
Proof.
  intros S K r T sigma sigma' q HV HL. assert (Hv := vol_pos _ _ _ _ HV). destruct HV as (HS & HK & HT & Hs). unfold call_price, put_price. rewrite !blsprice_fin by lra.
  cbn [fst snd]. rewrite !xltb_iff. assert (HF := stock_pos S q T HS). assert (HD := strike_pos K r T HK).
  assert (sigma * sqrt T < sigma' * sqrt T) by (apply Rmult_lt_compat_r; [apply sqrt_lt_R0; auto|auto]). split; apply bs_incr_v; auto.
Qed.
Example C39_case : valid 100 95 (1/4) (1/2) /\ valid 100 100 (1/4) (1/2).
Proof. unfold valid. lra. Qed.

(** ** C78: further no-arbitrage relations *)
Theorem C78_rates : forall S K r r' T sigma q q', valid S K T sigma -> r < r' -> q < q' ->
  xltb (call_price S K r T sigma q) (call_price S K r' T sigma q) = true /\ xltb (put_price S K r' T sigma q) (put_price S K r T sigma q) = true /\
  xltb (call_price S K r T sigma q') (call_price S K r T sigma q) = true /\ xltb (put_price S K r T sigma q) (put_price S K r T sigma q') = true.
Proof.
  intros S K r r' T sigma q q' HV HL HQ. assert (Hv := vol_pos _ _ _ _ HV). destruct HV as (HS & HK & HT & Hs). unfold call_price, put_price. rewrite !blsprice_fin by lra.
  cbn [fst snd]. rewrite !xltb_iff.
  assert (HF := stock_pos S q T HS). assert (HF' := stock_pos S q' T HS). assert (HD := strike_pos K r T HK). assert (HD' := strike_pos K r' T HK).
  assert (strike K r' T < strike K r T) by (apply Rmult_lt_compat_l; [auto|apply exp_increasing; nra]).
  assert (stock S q' T < stock S q T) by (apply Rmult_lt_compat_l; [auto|apply exp_increasing; nra]).
  repeat split; [apply bs_decr_D|apply bs_incr_F|apply bs_incr_F|apply bs_decr_D]; auto.
Qed.
(** without dividends and with a non-negative rate, a longer call is worth more *)
Theorem C78_maturity : forall S K r T T' sigma, valid S K T sigma -> 0 <= r -> T < T' ->
  xltb (call_price S K r T sigma 0) (call_price S K r T' sigma 0) = true.
Proof.
  intros S K r T T' sigma HV Hr HL. assert (Hv := vol_pos _ _ _ _ HV). destruct HV as (HS & HK & HT & Hs). unfold call_price. rewrite !blsprice_fin by lra.
  cbn [fst]. rewrite xltb_iff. assert (HF := stock_pos S 0 T HS). assert (HD := strike_pos K r T HK). assert (HD' := strike_pos K r T' HK).
  assert (EF : stock S 0 T' = stock S 0 T) by (unfold stock; f_equal; f_equal; ring). rewrite EF.
  assert (HV' : sigma * sqrt T < sigma * sqrt T') by (apply Rmult_lt_compat_l; [auto|apply sqrt_lt_1; lra]).
  assert (LD : strike K r T' <= strike K r T).
  { apply Rmult_le_compat_l; [lra|]. destruct Hr as [Hr| <-]; [left; apply exp_increasing; nra|right; f_equal; ring]. }
  eapply Rlt_le_trans; [apply bs_incr_v; [auto|auto|split; [auto|exact HV']]|]. destruct LD as [LD| ->]; [left; apply bs_decr_D; auto; lra|lra].
Qed.
(** homogeneity of degree one *)
Theorem C78_homogeneous : forall l S K r T sigma q, valid S K T sigma -> 0 < l ->
  call_price (l * S) (l * K) r T sigma q = xmul (Fin l) (call_price S K r T sigma q) /\
  put_price (l * S) (l * K) r T sigma q = xmul (Fin l) (put_price S K r T sigma q).
Proof.
  intros l S K r T sigma q (HS & HK & HT & Hs) Hl. assert (0 < l * S) by (apply Rmult_lt_0_compat; auto). assert (0 < l * K) by (apply Rmult_lt_0_compat; auto).
  unfold call_price, put_price. rewrite !blsprice_fin by lra. cbn [fst snd xmul].
  assert (HF := stock_pos S q T HS). assert (HD := strike_pos K r T HK).
  replace (stock (l * S) q T) with (l * stock S q T) by (unfold stock; ring). replace (strike (l * K) r T) with (l * strike K r T) by (unfold strike; ring).
  assert (G : forall F D v, 0 < F -> 0 < D -> bs (l * F) (l * D) v = l * bs F D v).
  { intros F D v H1 H2. unfold bs. replace (l * F / (l * D)) with (F / D) by (field; lra). ring. }
  rewrite !G by auto. auto.
Qed.
(** convexity in the strike (butterflies are not worth less than nothing) and in the spot *)
Lemma bs_convex F F' D D' v w : 0 < F -> 0 < F' -> 0 < D -> 0 < D' -> 0 < v -> 0 <= w <= 1 ->
  bs (w * F + (1 - w) * F') (w * D + (1 - w) * D') v <= w * bs F D v + (1 - w) * bs F' D' v.
Proof.
  intros H1 H2 H3 H4 Hv Hw. destruct (bs_boundary (w * F + (1 - w) * F') (w * D + (1 - w) * D') v Hv) as (x & ->).
  assert (E1 := envelope F D v x H1 H3 Hv). assert (E2 := envelope F' D' v x H2 H4 Hv).
  assert (w * (F * Phi (x + v) - D * Phi x) <= w * bs F D v) by (apply Rmult_le_compat_l; lra).
  assert ((1 - w) * (F' * Phi (x + v) - D' * Phi x) <= (1 - w) * bs F' D' v) by (apply Rmult_le_compat_l; lra). lra.
Qed.
Theorem C78_convex_in_strike_and_spot : forall S S' K K' r T sigma q w, valid S K T sigma -> valid S' K' T sigma -> 0 <= w <= 1 ->
  exists c c' cw p p' pw,
    call_price S K r T sigma q = Fin c /\ call_price S' K' r T sigma q = Fin c' /\ call_price (w * S + (1 - w) * S') (w * K + (1 - w) * K') r T sigma q = Fin cw /\
    put_price S K r T sigma q = Fin p /\ put_price S' K' r T sigma q = Fin p' /\ put_price (w * S + (1 - w) * S') (w * K + (1 - w) * K') r T sigma q = Fin pw /\
    cw <= w * c + (1 - w) * c' /\ pw <= w * p + (1 - w) * p'.
Proof.
  intros S S' K K' r T sigma q w HV (HS' & HK' & _ & _) Hw. assert (Hv := vol_pos _ _ _ _ HV). destruct HV as (HS & HK & HT & Hs).
  assert (HM : forall x y, 0 < x -> 0 < y -> 0 < w * x + (1 - w) * y).
  { intros x y Hx Hy. destruct (Req_dec w 0) as [->|Hn]; [lra|]. assert (0 < w * x) by (apply Rmult_lt_0_compat; lra). assert (0 <= (1 - w) * y) by (apply Rmult_le_pos; lra). lra. }
  unfold call_price, put_price. rewrite !blsprice_fin by auto. cbn [fst snd]. do 6 eexists. repeat (split; [reflexivity|]).
  replace (stock (w * S + (1 - w) * S') q T) with (w * stock S q T + (1 - w) * stock S' q T) by (unfold stock; ring).
  replace (strike (w * K + (1 - w) * K') r T) with (w * strike K r T + (1 - w) * strike K' r T) by (unfold strike; ring).
  split; apply bs_convex; auto using stock_pos, strike_pos.
Qed.
(** a call spread is worth less than the discounted strike difference *)
Theorem C78_call_spread : forall S K K' r T sigma q, valid S K T sigma -> K < K' ->
  exists c c', call_price S K r T sigma q = Fin c /\ call_price S K' r T sigma q = Fin c' /\ 0 < c - c' < (K' - K) * exp (- r * T).
Proof.
  intros S K K' r T sigma q HV HL. assert (Hv := vol_pos _ _ _ _ HV). destruct HV as (HS & HK & HT & Hs).
  unfold call_price. rewrite !blsprice_fin by lra. cbn [fst]. do 2 eexists. split; [reflexivity|]. split; [reflexivity|].
  assert (HF := stock_pos S q T HS). assert (HD := strike_pos K r T HK).
  assert (HL' : strike K r T < strike K' r T) by (apply Rmult_lt_compat_r; [apply exp_pos|auto]).
  assert (B1 := bs_decr_D _ _ _ _ HF (conj HD HL') Hv).
  assert (B2 := bs_incr_F _ _ _ _ (conj HD HL') HF Hv).
  assert (P1 := bs_parity _ _ (sigma * sqrt T) HF HD). assert (P2 := bs_parity _ (strike K' r T) (sigma * sqrt T) HF ltac:(lra)).
  replace ((K' - K) * exp (- r * T)) with (strike K' r T - strike K r T) by (unfold strike; ring). lra.
Qed.
