(** * Theorems: quoted/effective/realized spread and price impact (C44-C48) *)
From Coq Require Import Reals Lra List ZArith Lia Bool Arith Permutation.
From Verif Require Import Arith XR RealAux Model_micro Spec_micro Proofs_micro.
Import ListNotations.
Local Open Scope R_scope.

(** ** C44 quoted spread. Quotes are (bid, ask) pairs. *)
Definition bids (qs : list (R * R)) : list xr := map (fun q => Fin (fst q)) qs.
Definition asks (qs : list (R * R)) : list xr := map (fun q => Fin (snd q)) qs.
Definition proper_quotes (qs : list (R * R)) : Prop := forall b a, In (b, a) qs -> 0 < b <= a.
Definition pct_spread_of (q : R * R) : R := 100 * ((snd q - fst q) / ((fst q + snd q) / 2)).

Theorem C44_pct_value : forall qs, qs <> [] -> proper_quotes qs ->
  quoted_spread XRA (bids qs) (asks qs) true = Ok (Fin (Rmean (map pct_spread_of qs))).
Proof.
  intros qs Hn HQ. unfold quoted_spread, check, bids, asks. rewrite !map_length, Nat.eqb_refl. cbv zeta.
  change (num XRA) with xr. rewrite !(map2_diag (X:=xr) (Y:=xr) (Z:=xr)). f_equal.
  rewrite (map_ext_in _ (fun q => Fin ((snd q - fst q) / ((fst q + snd q) / 2)))).
  2:{ intros (b & a) Hq. specialize (HQ b a Hq). cbn [fst snd nsub nadd ndiv ofZ XRA xsub xadd].
      rewrite (xdiv_fin (b + a) 2) by lra. rewrite xdiv_fin by lra. reflexivity. }
  rewrite <- (map_map (fun q => (snd q - fst q) / ((fst q + snd q) / 2)) Fin).
  rewrite amean_fin by (destruct qs; [tauto|discriminate]).
  cbn [nmul ofZ XRA xmul]. f_equal. rewrite Rmult_comm, <- Rmean_scal, map_map. reflexivity.
Qed.
Theorem C44_log_value : forall qs, qs <> [] -> proper_quotes qs ->
  quoted_spread XRA (bids qs) (asks qs) false = Ok (Fin (Rmean (map (fun q => ln (snd q / fst q)) qs))).
Proof.
  intros qs Hn HQ. unfold quoted_spread, check, bids, asks. rewrite !map_length, Nat.eqb_refl.
  change (num XRA) with xr. rewrite !map_map, !(map2_diag (X:=xr) (Y:=xr) (Z:=xr)). f_equal.
  rewrite (map_ext_in _ (fun q => Fin (ln (snd q / fst q)))).
  2:{ intros (b & a) Hq. specialize (HQ b a Hq). cbn [fst snd nsub nlog XRA].
      rewrite !xlog_fin by lra. cbn [xsub]. rewrite ln_div by lra. reflexivity. }
  rewrite <- (map_map (fun q => ln (snd q / fst q)) Fin).
  apply amean_fin. destruct qs; [tauto|discriminate].
Qed.
Lemma pct_spread_range b a : 0 < b <= a -> 0 <= pct_spread_of (b, a) < 200.
Proof.
  intros H. unfold pct_spread_of; cbn [fst snd]. split.
  - apply Rmult_le_pos; [lra|]. apply Rmult_le_pos; [lra|]. left; apply Rinv_0_lt_compat; lra.
  - assert ((a - b) / ((b + a) / 2) < 2); [|lra]. apply div_lt_iff; lra.
Qed.
Lemma Rmean_lt_bound l hi : l <> [] -> (forall x, In x l -> x < hi) -> Rmean l < hi.
Proof.
  intros Hn H. unfold Rmean. pose proof (INR_len_pos l Hn). apply div_lt_iff; auto.
  rewrite Rmult_comm, <- (Rsum_const hi l). rewrite <- (map_id l) at 1. apply Rsum_lt; auto.
Qed.
Lemma Rmean_zero_iff l : l <> [] -> (forall x, In x l -> 0 <= x) -> (Rmean l = 0 <-> forall x, In x l -> x = 0).
Proof.
  intros Hn HP. unfold Rmean. pose proof (INR_len_pos l Hn). split.
  - intros E. apply Rsum_zero_all; auto. unfold Rdiv in E. apply Rmult_integral in E as [E|E]; auto.
    pose proof (Rinv_0_lt_compat _ H). lra.
  - intros E. replace (Rsum l) with 0; [field; lra|]. clear - E. induction l; simpl; auto.
    rewrite (E a) by (left; auto). rewrite <- IHl by (intros; apply E; right; auto). ring.
Qed.
Theorem C44_pct_range : forall qs, qs <> [] -> proper_quotes qs -> exists s,
  quoted_spread XRA (bids qs) (asks qs) true = Ok (Fin s) /\ 0 <= s < 200 /\
  (s = 0 <-> forall b a, In (b, a) qs -> b = a).
Proof.
  intros qs Hn HQ. rewrite C44_pct_value by auto. eexists. split; [reflexivity|].
  assert (Hn' : map pct_spread_of qs <> []) by (destruct qs; [tauto|discriminate]).
  assert (HR : forall x, In x (map pct_spread_of qs) -> 0 <= x < 200).
  { intros x Hx. apply in_map_iff in Hx as ((b & a) & <- & Hq). apply pct_spread_range. apply HQ; auto. }
  split; [split|].
  - destruct (Rmean_bounds (map pct_spread_of qs) 0 200 Hn'); auto. intros x Hx; specialize (HR x Hx); lra.
  - apply Rmean_lt_bound; auto. intros x Hx; apply HR; auto.
  - rewrite Rmean_zero_iff; auto. 2: intros x Hx; apply HR; auto. split.
    + intros H b a Hq. specialize (H (pct_spread_of (b, a)) (in_map _ _ _ Hq)). specialize (HQ b a Hq).
      unfold pct_spread_of in H; cbn [fst snd] in H.
      assert (E : (a - b) / ((b + a) / 2) = 0) by lra. unfold Rdiv at 1 in E. apply Rmult_integral in E as [E|E]; [lra|].
      assert (0 < / ((b + a) / 2)) by (apply Rinv_0_lt_compat; lra). lra.
    + intros H x Hx. apply in_map_iff in Hx as ((b & a) & <- & Hq). rewrite (H b a Hq). unfold pct_spread_of; cbn [fst snd].
      replace (a - a) with 0 by ring. unfold Rdiv. ring.
Qed.
Theorem C44_log_range : forall qs, qs <> [] -> proper_quotes qs -> exists s,
  quoted_spread XRA (bids qs) (asks qs) false = Ok (Fin s) /\ 0 <= s /\
  (s = 0 <-> forall b a, In (b, a) qs -> b = a).
Proof.
  intros qs Hn HQ. rewrite C44_log_value by auto. eexists. split; [reflexivity|].
  assert (Hn' : map (fun q : R * R => ln (snd q / fst q)) qs <> []) by (destruct qs; [tauto|discriminate]).
  assert (HR : forall x, In x (map (fun q : R * R => ln (snd q / fst q)) qs) -> 0 <= x).
  { intros x Hx. apply in_map_iff in Hx as ((b & a) & <- & Hq). cbn [fst snd]. specialize (HQ b a Hq).
    apply ln_ge_0. apply le_div_iff; lra. }
  split.
  - unfold Rmean. apply Rmult_le_pos; [apply Rsum_nonneg; auto|]. left; apply Rinv_0_lt_compat, INR_len_pos; auto.
  - rewrite Rmean_zero_iff; auto. split.
    + intros H b a Hq. specialize (H _ (in_map (fun q : R * R => ln (snd q / fst q)) _ _ Hq)). cbn [fst snd] in H.
      specialize (HQ b a Hq). rewrite ln_div in H by lra. apply ln_inv; lra.
    + intros H x Hx. apply in_map_iff in Hx as ((b & a) & <- & Hq). cbn [fst snd]. specialize (HQ b a Hq).
      rewrite (H b a Hq). replace (a / a) with 1 by (field; lra). apply ln_1.
Qed.
Theorem C44_unit_free : forall qs c pct, qs <> [] -> proper_quotes qs -> 0 < c ->
  let qs' := map (fun q => (c * fst q, c * snd q)) qs in
  quoted_spread XRA (bids qs') (asks qs') pct = quoted_spread XRA (bids qs) (asks qs) pct.
Proof.
  intros qs c pct Hn HQ Hc qs'.
  assert (HQ' : proper_quotes qs').
  { intros b a Hq. apply in_map_iff in Hq as ((b0 & a0) & E & Hq). injection E as <- <-. specialize (HQ b0 a0 Hq). cbn [fst snd].
    split; [apply Rmult_lt_0_compat; lra|apply Rmult_le_compat_l; lra]. }
  assert (Hn' : qs' <> []) by (subst qs'; destruct qs; [tauto|discriminate]).
  destruct pct.
  - rewrite !C44_pct_value by auto. do 3 f_equal. subst qs'. rewrite map_map. apply map_ext_in.
    intros (b & a) Hq. specialize (HQ b a Hq). unfold pct_spread_of; cbn [fst snd]. assert (0 < c * b) by (apply Rmult_lt_0_compat; lra). assert (0 < c * a) by (apply Rmult_lt_0_compat; lra). field. repeat split; lra.
  - rewrite !C44_log_value by auto. do 3 f_equal. subst qs'. rewrite map_map. apply map_ext_in.
    intros (b & a) Hq. specialize (HQ b a Hq). cbn [fst snd]. f_equal. field. lra.
Qed.
Theorem C44_shape_mismatch : forall A bid ask pct, length bid <> length ask -> quoted_spread A bid ask pct = Err AssertionError.
Proof. intros. unfold quoted_spread, check. destruct (Nat.eqb_spec (length bid) (length ask)); tauto. Qed.
Example C44_case : proper_quotes [(1,1);(2,3)] /\ quoted_spread XRA (bids [(1,1);(2,3)]) (asks [(1,1);(2,3)]) true = Ok (Fin 20).
Proof.
  assert (H : proper_quotes [(1,1);(2,3)]).
  { intros b a [E|[E|[]]]; injection E as <- <-; lra. }
  split; auto. rewrite C44_pct_value by (auto; discriminate). do 2 f_equal. unfold Rmean, pct_spread_of; cbn. field.
Qed.

(** ** The three trade-based measures on one sample of trades *)
Definition run (m : measure) (ts : list trade) (dir : direction XRA) (pct : bool) : res xr :=
  match m with
  | Effective => effective_spread XRA (col t_price ts) (col t_mid ts) (col t_vol ts) dir pct
  | Realized => realized_spread XRA (col t_price ts) (col t_later ts) (col t_mid ts) (col t_vol ts) dir pct
  | Impact => simple_price_impact XRA (col t_price ts) (col t_later ts) (col t_mid ts) (col t_vol ts) dir pct
  end.
Definition undirected : direction XRA := DirNone.
Definition directed (ts : list trade) : direction XRA := DirArray (A:=XRA) (col t_dir ts).
Definition value_of (dir : bool) (m : measure) (pct : bool) (t : trade) : R :=
  if dir then t_dir t * leg m pct t else Rabs (leg m pct t).
Definition dir_arg (dir : bool) ts := if dir then directed ts else undirected.

Lemma leg_pct_abs a b m (ts : list trade) : (forall t, In t ts -> 0 < m t) ->
  pct_abs XRA (map (fun t => Fin (a t)) ts) (map (fun t => Fin (b t)) ts) (map (fun t => Fin (m t)) ts) =
  map (fun t => Fin (Rabs (200 * ((a t - b t) / m t)))) ts.
Proof.
  intros H. unfold pct_abs. change (num XRA) with xr.
  rewrite (map2_diag (X:=xr) (Y:=xr) (Z:=xr)), (map_map (C:=xr)), (map2_diag (X:=xr) (Y:=xr) (Z:=xr)), (map_map (C:=xr)).
  apply map_ext_in. intros t Ht. specialize (H t Ht). cbn [nmul nsub nabs ofZ ndiv XRA xsub xabs xmul].
  rewrite xdiv_fin by lra. cbn [xmul]. f_equal.
  rewrite Rabs_mult, (Rabs_right 200) by lra. unfold Rdiv. rewrite Rabs_mult, (Rabs_right (/ m t)).
  2: left; apply Rinv_0_lt_compat; auto. ring.
Qed.
Lemma leg_pct_dir d a b m (ts : list trade) : (forall t, In t ts -> 0 < m t) ->
  pct_dir XRA (map (fun t => Fin (d t)) ts) (map (fun t => Fin (a t)) ts) (map (fun t => Fin (b t)) ts) (map (fun t => Fin (m t)) ts) =
  map (fun t => Fin (d t * (200 * ((a t - b t) / m t)))) ts.
Proof.
  intros H. unfold pct_dir. change (num XRA) with xr.
  rewrite (map_map (C:=xr)), !(map2_diag (X:=xr) (Y:=xr) (Z:=xr)), (map_map (C:=xr)).
  apply map_ext_in. intros t Ht. specialize (H t Ht). cbn [nmul nsub nabs ofZ ndiv XRA xsub xabs xmul].
  rewrite xdiv_fin by lra. cbn [xmul]. f_equal. field. lra.
Qed.
Lemma leg_log_abs a b (ts : list trade) : (forall t, In t ts -> 0 < a t /\ 0 < b t) ->
  log_abs XRA (map (fun t => Fin (a t)) ts) (map (fun t => Fin (b t)) ts) =
  map (fun t => Fin (Rabs (2 * (ln (a t) - ln (b t))))) ts.
Proof.
  intros H. unfold log_abs. change (num XRA) with xr.
  rewrite !(map_map (C:=xr)), !(map2_diag (X:=xr) (Y:=xr) (Z:=xr)), (map_map (C:=xr)).
  apply map_ext_in. intros t Ht. specialize (H t Ht). cbn [nmul nsub nabs nlog ofZ ndiv XRA].
  rewrite !xlog_fin by lra. cbn [xsub xabs xmul]. f_equal. rewrite Rabs_mult, (Rabs_right 2) by lra. auto.
Qed.
Lemma leg_log_dir d a b (ts : list trade) : (forall t, In t ts -> 0 < a t /\ 0 < b t) ->
  log_dir XRA (map (fun t => Fin (d t)) ts) (map (fun t => Fin (a t)) ts) (map (fun t => Fin (b t)) ts) =
  map (fun t => Fin (d t * (2 * (ln (a t) - ln (b t))))) ts.
Proof.
  intros H. unfold log_dir. change (num XRA) with xr.
  rewrite !(map_map (C:=xr)), !(map2_diag (X:=xr) (Y:=xr) (Z:=xr)).
  apply map_ext_in. intros t Ht. specialize (H t Ht). cbn [nmul nsub nabs nlog ofZ ndiv XRA].
  rewrite !xlog_fin by lra. cbn [xsub xabs xmul]. f_equal. ring.
Qed.
Lemma run_davg m dir pct ts : positive_quotes ts ->
  run m ts (dir_arg dir ts) pct = davg (map (fun t => (value_of dir m pct t, t_weight t)) ts).
Proof.
  intros H. rewrite <- dollar_average_fin.
  assert (H1 : forall t, In t ts -> 0 < t_mid t) by (intros t Ht; apply H in Ht; tauto).
  assert (H2 : forall t, In t ts -> 0 < t_price t /\ 0 < t_mid t) by (intros t Ht; apply H in Ht; tauto).
  assert (H3 : forall t, In t ts -> 0 < t_price t /\ 0 < t_later t) by (intros t Ht; apply H in Ht; tauto).
  assert (H4 : forall t, In t ts -> 0 < t_later t /\ 0 < t_mid t) by (intros t Ht; apply H in Ht; tauto).
  destruct m, dir, pct; cbn [run dir_arg]; unfold directed, undirected, effective_spread, realized_spread, simple_price_impact, check, col;
    rewrite !map_length, !Nat.eqb_refl; cbn [andb];
    cbv zeta; apply (f_equal (fun s => dollar_average XRA s _ _));
    unfold value_of, leg.
  - apply leg_pct_dir; auto. - apply leg_log_dir; auto. - apply leg_pct_abs; auto. - apply leg_log_abs; auto.
  - apply leg_pct_dir; auto. - apply leg_log_dir; auto. - apply leg_pct_abs; auto. - apply leg_log_abs; auto.
  - apply leg_pct_dir; auto. - apply leg_log_dir; auto. - apply leg_pct_abs; auto. - apply leg_log_abs; auto.
Qed.

(** ** C45 *)
Definition proper_trades (ts : list trade) : Prop :=
  positive_quotes ts /\ (forall t, In t ts -> 0 <= t_vol t) /\ (exists t, In t ts /\ 0 < t_vol t).
Lemma weight_nonneg ts : proper_trades ts -> forall w, In w (map t_weight ts) -> 0 <= w.
Proof.
  intros (H & HV & _) w Hw. apply in_map_iff in Hw as (t & <- & Ht). unfold t_weight.
  destruct (H t Ht). apply Rmult_le_pos; [auto|lra].
Qed.
Lemma weight_pos ts : proper_trades ts -> 0 < Rsum (map t_weight ts).
Proof.
  intros HP. pose proof (weight_nonneg ts HP) as HN. destruct HP as (H & HV & t & Ht & Hv).
  apply Rsum_pos with (t_weight t); auto. { apply in_map; auto. }
  unfold t_weight. destruct (H t Ht). apply Rmult_lt_0_compat; auto.
Qed.
Theorem C45_value : forall m pct ts, proper_trades ts ->
  run m ts undirected pct = Ok (Fin (wmean (fun t => Rabs (leg m pct t)) ts)) /\
  run m ts (directed ts) pct = Ok (Fin (wmean (fun t => t_dir t * leg m pct t) ts)).
Proof.
  intros m pct ts H. pose proof (weight_pos ts H). destruct H as [H _].
  split.
  - etransitivity; [apply (run_davg m false pct ts H)|]. apply davg_pos. lra.
  - etransitivity; [apply (run_davg m true pct ts H)|]. apply davg_pos. lra.
Qed.
Lemma wmean_le f g ts : proper_trades ts -> (forall t, In t ts -> f t <= g t) -> wmean f ts <= wmean g ts.
Proof.
  intros H HL. pose proof (weight_pos ts H). unfold wmean, Rdiv. apply Rmult_le_compat_r.
  - left; apply Rinv_0_lt_compat; auto.
  - apply Rsum_le. intros t Ht. apply Rmult_le_compat_r; auto. apply (weight_nonneg ts H). apply in_map; auto.
Qed.
Lemma wmean_const c ts : proper_trades ts -> wmean (fun _ => c) ts = c.
Proof.
  intros H. pose proof (weight_pos ts H). unfold wmean. rewrite Rsum_mult_l. field. lra.
Qed.
Theorem C45_range : forall m pct ts lo hi s, proper_trades ts ->
  (forall t, In t ts -> lo <= Rabs (leg m pct t) <= hi) ->
  run m ts undirected pct = Ok (Fin s) -> lo <= s <= hi /\ 0 <= s.
Proof.
  intros m pct ts lo hi s H HB E. destruct (C45_value m pct ts H) as [V _]. rewrite V in E.
  injection E as <-. split; [split|].
  - rewrite <- (wmean_const lo ts H). apply wmean_le; auto. intros; apply HB; auto.
  - rewrite <- (wmean_const hi ts H). apply wmean_le; auto. intros; apply HB; auto.
  - rewrite <- (wmean_const 0 ts H). apply wmean_le; auto. intros; apply Rabs_pos.
Qed.
Lemma wmean_ext f g ts : (forall t, In t ts -> f t = g t) -> wmean f ts = wmean g ts.
Proof. intros H. unfold wmean. f_equal. apply Rsum_map_ext. intros t Ht. rewrite H; auto. Qed.
Theorem C45_signed_directions : forall m pct ts, proper_trades ts ->
  (forall t, In t ts -> t_dir t * leg m pct t = Rabs (leg m pct t)) ->
  run m ts (directed ts) pct = run m ts undirected pct.
Proof.
  intros m pct ts H HS. destruct (C45_value m pct ts H) as [-> ->]. do 2 f_equal. apply wmean_ext; auto.
Qed.
Theorem C45_directed_bounded : forall m pct ts, proper_trades ts -> (forall t, In t ts -> -1 <= t_dir t <= 1) ->
  exists u d, run m ts undirected pct = Ok (Fin u) /\ run m ts (directed ts) pct = Ok (Fin d) /\ Rabs d <= u.
Proof.
  intros m pct ts H HD. destruct (C45_value m pct ts H) as [-> ->]. do 2 eexists. split; [reflexivity|]. split; [reflexivity|].
  assert (K : forall t, In t ts -> Rabs (t_dir t * leg m pct t) <= Rabs (leg m pct t)).
  { intros t Ht. rewrite Rabs_mult. rewrite <- (Rmult_1_l (Rabs (leg m pct t))) at 2.
    apply Rmult_le_compat_r; [apply Rabs_pos|]. apply Rabs_le. specialize (HD t Ht). lra. }
  apply Rabs_le. split.
  - replace (- wmean (fun t => Rabs (leg m pct t)) ts) with (wmean (fun t => - Rabs (leg m pct t)) ts).
    + apply wmean_le; auto. intros t Ht. specialize (K t Ht). pose proof (Rle_abs (- (t_dir t * leg m pct t))). rewrite Rabs_Ropp in H0. lra.
    + unfold wmean. rewrite (Rsum_map_ext _ (fun t => (-1) * (Rabs (leg m pct t) * t_weight t))) by (intros; ring).
      rewrite Rsum_mult_l. unfold Rdiv. ring.
  - apply wmean_le; auto. intros t Ht. specialize (K t Ht). pose proof (Rle_abs (t_dir t * leg m pct t)). lra.
Qed.
Definition ex_trades := [mkTrade 11 12 10 5 1; mkTrade 9 8 10 3 (-1)].
Lemma ex_proper : proper_trades ex_trades.
Proof.
  split; [|split].
  - intros t [<-|[<-|[]]]; simpl; lra.
  - intros t [<-|[<-|[]]]; simpl; lra.
  - exists (mkTrade 11 12 10 5 1). simpl; split; auto; lra.
Qed.
Example C45_case : run Effective ex_trades undirected true = Ok (Fin 20) /\
  (forall t, In t ex_trades -> t_dir t * leg Effective true t = Rabs (leg Effective true t)).
Proof.
  assert (K : forall t, In t ex_trades -> t_dir t * leg Effective true t = Rabs (leg Effective true t)).
  { intros t [<-|[<-|[]]]; unfold leg; cbn [t_price t_mid t_dir].
    - rewrite Rabs_right by lra. lra. - rewrite Rabs_left by lra. lra. }
  split; auto. rewrite <- C45_signed_directions by (auto; apply ex_proper).
  destruct (C45_value Effective true _ ex_proper) as [_ ->]. do 2 f_equal.
  unfold wmean, ex_trades, t_weight, leg; cbn. field.
Qed.

(** ** C46 *)
Lemma leg_decomposition pct t : leg Effective pct t = leg Realized pct t + leg Impact pct t.
Proof. destruct pct; unfold leg; unfold Rdiv; ring. Qed.
Lemma wmean_plus f g ts : wmean (fun t => f t + g t) ts = wmean f ts + wmean g ts.
Proof.
  unfold wmean. rewrite (Rsum_map_ext _ (fun t => f t * t_weight t + g t * t_weight t)) by (intros; ring).
  rewrite Rsum_plus. unfold Rdiv. ring.
Qed.
Theorem C46_decomposition : forall pct ts, positive_quotes ts -> Rsum (map t_weight ts) <> 0 ->
  exists e r i, run Effective ts (directed ts) pct = Ok (Fin e) /\ run Realized ts (directed ts) pct = Ok (Fin r) /\
    run Impact ts (directed ts) pct = Ok (Fin i) /\ e = r + i.
Proof.
  intros pct ts H HW. do 3 eexists.
  split; [etransitivity; [apply (run_davg Effective true pct ts H)|apply davg_pos; auto]|].
  split; [etransitivity; [apply (run_davg Realized true pct ts H)|apply davg_pos; auto]|].
  split; [etransitivity; [apply (run_davg Impact true pct ts H)|apply davg_pos; auto]|].
  rewrite <- wmean_plus. apply wmean_ext. intros t _. unfold value_of. rewrite leg_decomposition. ring.
Qed.
Theorem C46_decomposition_zero_volume : forall pct ts, positive_quotes ts -> ts <> [] ->
  (forall t, In t ts -> t_weight t = 0) ->
  exists e r i, run Effective ts (directed ts) pct = Ok (Fin e) /\ run Realized ts (directed ts) pct = Ok (Fin r) /\
    run Impact ts (directed ts) pct = Ok (Fin i) /\ e = r + i.
Proof.
  intros pct ts H Hn HW. do 3 eexists.
  split; [etransitivity; [apply (run_davg Effective true pct ts H)|apply davg_zero; auto]|].
  split; [etransitivity; [apply (run_davg Realized true pct ts H)|apply davg_zero; auto]|].
  split; [etransitivity; [apply (run_davg Impact true pct ts H)|apply davg_zero; auto]|].
  rewrite <- Rmean_plus. apply Rmean_map_ext. intros t _. unfold value_of. rewrite leg_decomposition. ring.
Qed.
Theorem C46_undirected_triangle : forall pct ts, proper_trades ts ->
  exists e r i, run Effective ts undirected pct = Ok (Fin e) /\ run Realized ts undirected pct = Ok (Fin r) /\
    run Impact ts undirected pct = Ok (Fin i) /\ e <= r + i.
Proof.
  intros pct ts H. do 3 eexists.
  split; [apply C45_value; auto|]. split; [apply C45_value; auto|]. split; [apply C45_value; auto|].
  rewrite <- wmean_plus. apply wmean_le; auto. intros t _. rewrite leg_decomposition. apply Rabs_triang.
Qed.
(** strict inequality is possible: the decomposition fails without directions *)
Theorem C46_undirected_decomposition_refuted : exists ts e r i, proper_trades ts /\
  run Effective ts undirected true = Ok (Fin e) /\ run Realized ts undirected true = Ok (Fin r) /\
    run Impact ts undirected true = Ok (Fin i) /\ e <> r + i.
Proof.
  exists ex_trades, 20, 20, 40. split; [apply ex_proper|].
  destruct (C45_value Effective true _ ex_proper) as [-> _]. destruct (C45_value Realized true _ ex_proper) as [-> _].
  destruct (C45_value Impact true _ ex_proper) as [-> _].
  repeat split; try (do 2 f_equal; unfold wmean, ex_trades, t_weight, leg; cbn;
    repeat match goal with |- context [Rabs ?x] => first [rewrite (Rabs_right x) by lra | rewrite (Rabs_left x) by lra] end; field).
  lra.
Qed.
Example C46_case : positive_quotes ex_trades /\ Rsum (map t_weight ex_trades) <> 0.
Proof. split; [apply ex_proper|]. pose proof (weight_pos _ ex_proper). lra. Qed.

(** ** C47 *)
Definition rescale_prices c t := mkTrade (c * t_price t) (c * t_later t) (c * t_mid t) (t_vol t) (t_dir t).
Definition rescale_volume c t := mkTrade (t_price t) (t_later t) (t_mid t) (c * t_vol t) (t_dir t).
Lemma leg_rescale m pct c t : 0 < c -> 0 < t_price t /\ 0 < t_later t /\ 0 < t_mid t -> leg m pct (rescale_prices c t) = leg m pct t.
Proof.
  intros Hc (H1 & H2 & H3). destruct m, pct; unfold leg, rescale_prices; cbn [t_price t_later t_mid];
    rewrite ?ln_mult by auto; try ring; field; lra.
Qed.
Theorem C47_price_unit : forall m dir pct ts c, positive_quotes ts -> 0 < c ->
  let ts' := map (rescale_prices c) ts in
  run m ts' (dir_arg dir ts') pct = run m ts (dir_arg dir ts) pct.
Proof.
  intros m dir pct ts c H Hc ts'.
  assert (H' : positive_quotes ts').
  { intros t Ht. apply in_map_iff in Ht as (u & <- & Hu). destruct (H u Hu) as (H1 & H2 & H3). cbn.
    repeat split; apply Rmult_lt_0_compat; auto. }
  rewrite !run_davg by auto. subst ts'. rewrite map_map.
  rewrite <- (davg_scale c (map (fun t => (value_of dir m pct t, t_weight t)) ts)) by lra.
  rewrite map_map. cbn [fst snd]. f_equal. apply map_ext_in. intros t Ht. f_equal.
  - unfold value_of. rewrite leg_rescale; auto.
  - unfold t_weight, rescale_prices; cbn. ring.
Qed.
Theorem C47_volume_unit : forall m dir pct ts c, positive_quotes ts -> 0 < c ->
  let ts' := map (rescale_volume c) ts in
  run m ts' (dir_arg dir ts') pct = run m ts (dir_arg dir ts) pct.
Proof.
  intros m dir pct ts c H Hc ts'.
  assert (H' : positive_quotes ts').
  { intros t Ht. apply in_map_iff in Ht as (u & <- & Hu). destruct (H u Hu) as (H1 & H2 & H3). cbn. auto. }
  rewrite !run_davg by auto. subst ts'. rewrite map_map.
  rewrite <- (davg_scale c (map (fun t => (value_of dir m pct t, t_weight t)) ts)) by lra.
  rewrite map_map. cbn [fst snd]. f_equal. apply map_ext_in. intros t Ht. f_equal.
  unfold t_weight, rescale_volume; cbn. ring.
Qed.
Theorem C47_reorder : forall m dir pct ts ts', positive_quotes ts -> Permutation ts ts' ->
  run m ts' (dir_arg dir ts') pct = run m ts (dir_arg dir ts) pct.
Proof.
  intros m dir pct ts ts' H HP.
  assert (H' : positive_quotes ts') by (intros t Ht; apply H; eapply Permutation_in; [apply Permutation_sym; eauto|auto]).
  rewrite !run_davg by auto. apply davg_perm. apply Permutation_map. apply Permutation_sym; auto.
Qed.
Example C47_case : map (rescale_prices 2) ex_trades = [mkTrade (2*11) (2*12) (2*10) 5 1; mkTrade (2*9) (2*8) (2*10) 3 (-1)].
Proof. reflexivity. Qed.

(** ** C48 *)
Theorem C48_zero_dollar_volume : forall m dir pct ts, positive_quotes ts -> ts <> [] ->
  (forall t, In t ts -> t_weight t = 0) ->
  run m ts (dir_arg dir ts) pct = Ok (Fin (Rmean (map (value_of dir m pct) ts))).
Proof. intros. rewrite run_davg by auto. apply davg_zero; auto. Qed.
Theorem C48_cancelling_dollar_volume : forall m dir pct ts, positive_quotes ts ->
  (exists t, In t ts /\ t_weight t <> 0) -> Rsum (map t_weight ts) = 0 ->
  run m ts (dir_arg dir ts) pct = Err ZeroDivisionError.
Proof. intros. rewrite run_davg by auto. apply davg_cancel; auto. Qed.
(** a direction passed as a list is ignored, whatever its contents and length; any arithmetic *)
Theorem C48_list_direction_ignored : forall A price later mid vol pct d,
  effective_spread A price mid vol (DirList d) pct = effective_spread A price mid vol DirNone pct /\
  realized_spread A price later mid vol (DirList d) pct = realized_spread A price later mid vol DirNone pct /\
  simple_price_impact A price later mid vol (DirList d) pct = simple_price_impact A price later mid vol DirNone pct.
Proof. intros; repeat split; reflexivity. Qed.
(** so a list and an ndarray with the same directions can give different answers *)
Theorem C48_list_vs_array_refuted : exists ts, proper_trades ts /\
  run Effective ts (DirList (A:=XRA) (col t_dir ts)) true <> run Effective ts (DirArray (A:=XRA) (col t_dir ts)) true.
Proof.
  exists [mkTrade 11 12 10 5 (-1)].
  assert (HP : proper_trades [mkTrade 11 12 10 5 (-1)]).
  { split; [|split]. - intros t [<-|[]]; simpl; lra. - intros t [<-|[]]; simpl; lra. - eexists; split; [left; reflexivity|]; simpl; lra. }
  split; auto. change (run Effective [mkTrade 11 12 10 5 (-1)] (DirList (A:=XRA) (col t_dir [mkTrade 11 12 10 5 (-1)])) true) with
    (run Effective [mkTrade 11 12 10 5 (-1)] undirected true).
  destruct (C45_value Effective true _ HP) as [-> E]. unfold directed in E. rewrite E. intros F.
  injection F as F. unfold wmean, t_weight, leg in F. cbn in F. rewrite Rabs_right in F by lra. lra.
Qed.
Theorem C48_shape_errors : forall A price later mid vol pct,
  (~ (length price = length mid /\ length mid = length vol) -> forall dir,
     effective_spread A price mid vol dir pct = Err AssertionError) /\
  (~ (length price = length later /\ length later = length mid /\ length mid = length vol) -> forall dir,
     realized_spread A price later mid vol dir pct = Err AssertionError) /\
  (~ (length later = length mid /\ length mid = length vol) -> forall dir,
     simple_price_impact A price later mid vol dir pct = Err AssertionError) /\
  (forall d, length price = length mid -> length mid = length vol -> length d <> length price ->
     effective_spread A price mid vol (DirArray d) pct = Err AssertionError) /\
  (forall d, length later = length mid -> length mid = length vol -> length d <> length mid ->
     realized_spread A price later mid vol (DirArray d) pct = Err AssertionError /\
     simple_price_impact A price later mid vol (DirArray d) pct = Err AssertionError).
Proof.
  intros. unfold effective_spread, realized_spread, simple_price_impact, check. repeat split.
  - intros H dir. destruct (Nat.eqb_spec (length price) (length mid)), (Nat.eqb_spec (length mid) (length vol)); cbn; auto. tauto.
  - intros H dir. destruct (Nat.eqb_spec (length price) (length later)), (Nat.eqb_spec (length later) (length mid)), (Nat.eqb_spec (length mid) (length vol)); cbn; auto. tauto.
  - intros H dir. destruct (Nat.eqb_spec (length later) (length mid)), (Nat.eqb_spec (length mid) (length vol)); cbn; auto. tauto.
  - intros d -> -> H. rewrite !Nat.eqb_refl. cbn. destruct (Nat.eqb_spec (length vol) (length d)); auto. congruence.
  - rewrite H, H0, !Nat.eqb_refl, !andb_true_r. destruct (Nat.eqb_spec (length price) (length vol)); [|reflexivity].
    destruct (Nat.eqb_spec (length price) (length d)); [congruence|reflexivity].
  - rewrite H, H0, !Nat.eqb_refl. cbn [andb]. destruct (Nat.eqb_spec (length vol) (length d)); [congruence|reflexivity].
Qed.
(** simple_price_impact does not check [price]: a one-element price is silently broadcast, other
    mismatches surface as ValueError *)
Theorem C48_price_impact_price_unchecked : forall A later mid vol pct, length later = length mid -> length mid = length vol ->
  (forall p, (1 < length vol)%nat ->
     simple_price_impact A [p] later mid vol DirNone pct =
     simple_price_impact A (map (fun _ => p) vol) later mid vol DirNone pct) /\
  (forall price, length price <> length vol -> length price <> 1%nat -> length vol <> 1%nat ->
     simple_price_impact A price later mid vol DirNone pct = Err ValueError).
Proof.
  intros A later mid vol pct E1 E2. unfold simple_price_impact, check. rewrite E1, E2, !Nat.eqb_refl. cbn [andb].
  split.
  - intros p Hp. unfold dollar_average. cbv zeta.
    assert (E : bcast A nmul vol [p] = bcast A nmul vol (map (fun _ => p) vol)).
    { unfold bcast. rewrite map_length, Nat.eqb_refl. destruct (Nat.eqb_spec (length vol) (length [p])) as [e|e].
      - simpl in e; lia.
      - assert (EM : map (fun x => nmul x p) vol = map2 nmul vol (map (fun _ => p) vol)).
        { clear. induction vol; simpl; f_equal; auto. }
        destruct vol as [|v [|v' vol]]; [reflexivity|simpl in Hp; lia|]. rewrite EM. reflexivity. }
    rewrite E. reflexivity.
  - intros price H1 H2 H3. unfold dollar_average, bcast. cbv zeta.
    destruct (Nat.eqb_spec (length vol) (length price)); [congruence|].
    destruct vol as [|v [|v' vol]]; destruct price as [|q [|q' price]]; simpl in *; try lia; reflexivity.
Qed.
Theorem C48_empty : forall A price later mid vol pct, price = [] -> later = [] -> mid = [] -> vol = [] ->
  effective_spread A price mid vol DirNone pct = Ok (nanmean A []) /\
  realized_spread A price later mid vol DirNone pct = Ok (nanmean A []) /\
  simple_price_impact A price later mid vol DirNone pct = Ok (nanmean A []).
Proof. intros; subst; destruct pct; repeat split; reflexivity. Qed.
Example C48_case : exists ts, positive_quotes ts /\ (exists t, In t ts /\ t_weight t <> 0) /\ Rsum (map t_weight ts) = 0.
Proof.
  exists [mkTrade 1 1 1 1 1; mkTrade 1 1 1 (-1) 1]. split; [|split].
  - intros t [<-|[<-|[]]]; simpl; lra.
  - eexists; split; [left; reflexivity|]. unfold t_weight; simpl; lra.
  - unfold t_weight; simpl; lra.
Qed.
