(** * Theorems: Z-score (C36), Kyle's lambda (C35), MES (C28-C30) *)
From Coq Require Import String Reals Lra List ZArith Lia Bool Arith Permutation Sorting.Sorted.
From Verif Require Import Arith XR RealAux Model_garch Model_measures Spec_garch Spec_measures
  Proofs_garch Proofs_garch2 Proofs_garch3 Proofs_measures.
Import ListNotations.
Local Open Scope R_scope.

Definition not_constant (l : list R) : Prop := exists x y, In x l /\ In y l /\ x <> y.

(** ** C36 *)
Theorem C36_value : forall roa cr past, not_constant past ->
  z_score XRA (Fin roa) (Fin cr) (map Fin past) = Fin ((roa + cr) / Rstd past) /\ 0 < Rstd past.
Proof.
  intros roa cr past H.
  assert (Hn : past <> []) by (destruct H as (x & y & Hx & _); intros ->; inversion Hx).
  assert (HP : 0 < Rstd past) by (apply Rstd_pos_iff; auto).
  split; auto. unfold z_score. rewrite astd_fin by auto. cbn [ndiv nadd XRA xadd]. apply xdiv_fin. lra.
Qed.
Theorem C36_constant_past : forall roa cr past, past <> [] -> ~ not_constant past ->
  z_score XRA (Fin roa) (Fin cr) (map Fin past) =
    (if Rlt_dec 0 (roa + cr) then PInf else if Rlt_dec (roa + cr) 0 then MInf else NaN).
Proof.
  intros roa cr past Hn HC. unfold z_score. rewrite astd_fin by auto.
  replace (Rstd past) with 0.
  2:{ symmetry. apply Rstd_zero; auto. intros x y Hx Hy. destruct (Req_dec x y); auto. exfalso; apply HC; exists x, y; auto. }
  cbn [ndiv nadd XRA xadd]. rewrite xdiv_0.
  destruct (Rlt_dec 0 (roa + cr)); [apply xsgn_inf_pos; auto|].
  destruct (Rlt_dec (roa + cr) 0); [apply xsgn_inf_neg; auto|].
  replace (roa + cr) with 0 by lra. apply xsgn_inf_0.
Qed.
Theorem C36_empty_past : forall roa cr, z_score XRA (Fin roa) (Fin cr) [] = NaN.
Proof.
  intros. unfold z_score, astd, avar. cbn [map]. rewrite amean_nil. reflexivity.
Qed.
(** strictly increasing in ROA and in the capital ratio *)
Theorem C36_increasing : forall roa cr roa' cr' past z z', not_constant past ->
  z_score XRA (Fin roa) (Fin cr) (map Fin past) = Fin z ->
  z_score XRA (Fin roa') (Fin cr') (map Fin past) = Fin z' ->
  (z < z' <-> roa + cr < roa' + cr').
Proof.
  intros roa cr roa' cr' past z z' H E E'.
  destruct (C36_value roa cr past H) as [V HP]. destruct (C36_value roa' cr' past H) as [V' _].
  rewrite V in E. rewrite V' in E'. apply (f_equal fin_val) in E, E'. cbn [fin_val] in *. subst z z'.
  unfold Rdiv. pose proof (Rinv_0_lt_compat _ HP). split; intros HH.
  - apply Rmult_lt_reg_r in HH; auto.
  - apply Rmult_lt_compat_r; auto.
Qed.
(** shifting and reordering past ROAs does nothing; scaling them by c divides z by |c| *)
Theorem C36_shift_scale : forall roa cr past c d, not_constant past -> c <> 0 ->
  exists z, z_score XRA (Fin roa) (Fin cr) (map Fin past) = Fin z /\
    z_score XRA (Fin roa) (Fin cr) (map Fin (map (fun x => c * x + d) past)) = Fin (z / Rabs c).
Proof.
  intros roa cr past c d H Hc. destruct (C36_value roa cr past H) as [V HP].
  exists ((roa + cr) / Rstd past). split; auto.
  assert (Hn : past <> []) by (destruct H as (x & y & Hx & _); intros ->; inversion Hx).
  assert (H2 : not_constant (map (fun x => c * x + d) past)).
  { destruct H as (x & y & Hx & Hy & Hxy). exists (c * x + d), (c * y + d).
    split; [apply (in_map (fun x => c * x + d)); auto|]. split; [apply (in_map (fun x => c * x + d)); auto|].
    intros E. apply Hxy. apply (Rmult_eq_reg_l c); auto. lra. }
  destruct (C36_value roa cr _ H2) as [V2 _]. rewrite V2, Rstd_affine by auto. f_equal. field.
  split; [lra|apply Rabs_no_R0; auto].
Qed.
Theorem C36_reorder : forall roa cr past past', Permutation past past' ->
  z_score XRA (Fin roa) (Fin cr) (map Fin past) = z_score XRA (Fin roa) (Fin cr) (map Fin past').
Proof.
  intros roa cr past past' HP. destruct past as [|x l].
  - apply Permutation_nil in HP. subst; auto.
  - unfold z_score. rewrite astd_fin by discriminate. rewrite astd_fin.
    + rewrite (Rstd_perm _ _ HP). reflexivity.
    + intros ->. apply Permutation_sym, Permutation_nil in HP. discriminate.
Qed.
Example C36_case : not_constant [3;5] /\ z_score XRA (Fin 1) (Fin 2) (map Fin [3;5]) = Fin 3.
Proof.
  assert (H : not_constant [3;5]) by (exists 3, 5; simpl; repeat split; auto; lra).
  split; auto. destruct (C36_value 1 2 _ H) as [-> _]. f_equal.
  replace (Rstd [3;5]) with 1; [lra|]. unfold Rstd.
  rewrite <- sqrt_1. f_equal. unfold Rmean, Rsum, map; simpl. field.
Qed.

(** ** C35.  [contract]: numpy's lstsq returns the least-squares slope of smallest magnitude. *)
Definition lstsq_ok (lstsq : list xr -> list xr -> xr) : Prop :=
  forall x y, length x = length y -> exists a, lstsq (map Fin x) (map Fin y) = Fin a /\ lstsq_contract x y a.

Theorem C35_value : forall lstsq returns volume, lstsq_ok lstsq -> length returns = length volume ->
  (exists v, In v volume /\ v <> 0) ->
  kyle_lambda XRA lstsq (map Fin returns) (map Fin volume) =
    Ok (Fin (1000000 * (Rsum (map2 Rmult volume returns) / Rsum (map2 Rmult volume volume)))).
Proof.
  intros lstsq r v H HL (x & Hx & Hnz). unfold kyle_lambda, check. rewrite !map_length, HL, Nat.eqb_refl.
  destruct (H v r) as (a & E & HC); [auto|]. rewrite E.
  rewrite (contract_slope v r a) by auto. unfold slope.
  pose proof (Sxx_pos v x Hx Hnz). destruct (Req_EM_T (Sxy v v) 0); [lra|].
  cbn [nmul ofZ XRA xmul]. do 2 f_equal. unfold Sxy. ring.
Qed.
Theorem C35_zero_volume : forall lstsq returns volume, lstsq_ok lstsq -> length returns = length volume ->
  (forall v, In v volume -> v = 0) ->
  kyle_lambda XRA lstsq (map Fin returns) (map Fin volume) = Ok (Fin 0).
Proof.
  intros lstsq r v H HL HZ. unfold kyle_lambda, check. rewrite !map_length, HL, Nat.eqb_refl.
  destruct (H v r) as (a & E & HC); [auto|]. rewrite E.
  rewrite (contract_slope v r a) by auto. unfold slope.
  destruct (Req_EM_T (Sxy v v) 0) as [e|e].
  - cbn [nmul ofZ XRA xmul]. do 2 f_equal. ring.
  - exfalso. apply e. unfold Sxy. clear -HZ. induction v as [|x v IH]; simpl; auto.
    rewrite (HZ x) by (left; auto). rewrite IH; [lra|]. intros; apply HZ; right; auto.
Qed.
Theorem C35_length_mismatch : forall A lstsq returns volume, length returns <> length volume ->
  kyle_lambda A lstsq returns volume = Err LinAlgError.
Proof.
  intros. unfold kyle_lambda, check. destruct (Nat.eqb_spec (length returns) (length volume)); tauto.
Qed.
(** optimality, stated on the returned value itself *)
Theorem C35_optimal : forall lstsq returns volume lam, lstsq_ok lstsq ->
  kyle_lambda XRA lstsq (map Fin returns) (map Fin volume) = Ok (Fin lam) ->
  forall b, sse volume returns (lam / 1000000) <= sse volume returns b.
Proof.
  intros lstsq r v lam H E b. unfold kyle_lambda, check in E. rewrite !map_length in E.
  destruct (Nat.eqb_spec (length r) (length v)) as [HL|]; [|discriminate].
  destruct (H v r) as (a & EA & HC & _); [auto|]. rewrite EA in E. cbn [nmul ofZ XRA xmul] in E.
  assert (a * 1000000 = lam) by congruence. replace (lam / 1000000) with a by (subst; field). apply HC.
Qed.
Theorem C35_scaling : forall lstsq returns volume lam c d, lstsq_ok lstsq -> d <> 0 ->
  kyle_lambda XRA lstsq (map Fin returns) (map Fin volume) = Ok (Fin lam) ->
  kyle_lambda XRA lstsq (map Fin (map (Rmult c) returns)) (map Fin (map (Rmult d) volume)) = Ok (Fin (c * lam / d)).
Proof.
  intros lstsq r v lam c d H Hd E. unfold kyle_lambda, check in *. rewrite !map_length in *.
  destruct (Nat.eqb_spec (length r) (length v)) as [HL|]; [|discriminate].
  destruct (H v r) as (a & EA & HC); [auto|]. rewrite EA in E.
  destruct (H (map (Rmult d) v) (map (Rmult c) r)) as (a' & EA' & HC'); [rewrite !map_length; auto|].
  rewrite EA'. cbn [nmul ofZ XRA xmul] in *.
  apply contract_slope in HC; auto. apply contract_slope in HC'; [|rewrite !map_length; auto].
  assert (EL : lam = a * 1000000) by congruence. rewrite EL.
  enough (a' = c * a / d) as -> by (do 2 f_equal; field; auto).
  rewrite HC, HC'. unfold slope.
  assert (E1 : Sxy (map (Rmult d) v) (map (Rmult d) v) = d * d * Sxy v v).
  { unfold Sxy. rewrite map2_map. rewrite !map2_combine. rewrite <- Rsum_mult_l. f_equal. apply map_ext; intros; ring. }
  assert (E2 : Sxy (map (Rmult d) v) (map (Rmult c) r) = d * c * Sxy v r).
  { unfold Sxy. rewrite map2_map. rewrite !map2_combine. rewrite <- Rsum_mult_l. f_equal. apply map_ext; intros; ring. }
  rewrite E1, E2. assert (d * d <> 0) by (apply Rmult_integral_contrapositive; auto).
  destruct (Req_EM_T (Sxy v v) 0) as [z|z].
  - destruct (Req_EM_T (d * d * Sxy v v) 0) as [z'|z']; [field; auto|]. exfalso; apply z'; rewrite z; ring.
  - destruct (Req_EM_T (d * d * Sxy v v) 0) as [z'|z'].
    + apply Rmult_integral in z'; tauto.
    + field; auto.
Qed.
Theorem C35_reorder : forall lstsq returns volume returns' volume', lstsq_ok lstsq ->
  length returns = length volume -> length returns' = length volume' ->
  Permutation (combine volume returns) (combine volume' returns') ->
  kyle_lambda XRA lstsq (map Fin returns) (map Fin volume) =
  kyle_lambda XRA lstsq (map Fin returns') (map Fin volume').
Proof.
  intros lstsq r v r' v' H HL HL' HP. unfold kyle_lambda, check. rewrite !map_length, HL, HL', !Nat.eqb_refl.
  destruct (H v r) as (a & EA & HC); [auto|]. destruct (H v' r') as (a' & EA' & HC'); [auto|].
  rewrite EA, EA'. apply contract_slope in HC; auto. apply contract_slope in HC'; auto.
  replace a' with a; auto. rewrite HC, HC'. unfold slope.
  assert (E1 : Sxy v r = Sxy v' r').
  { unfold Sxy. rewrite !map2_combine. apply Rsum_perm. apply Permutation_map; auto. }
  assert (E2 : Sxy v v = Sxy v' v').
  { unfold Sxy. assert (K : forall v r : list R, length r = length v ->
        map2 Rmult v v = map (fun p => fst p * fst p) (combine v r)).
    { clear. induction v; destruct r; simpl; intros; try discriminate; auto. f_equal; auto. }
    rewrite (K v r), (K v' r') by auto. apply Rsum_perm. apply Permutation_map; auto. }
  rewrite E1, E2. reflexivity.
Qed.
Example C35_case : exists lstsq, lstsq_ok lstsq /\
  kyle_lambda XRA lstsq (map Fin [2;6]) (map Fin [1;3]) = Ok (Fin 2000000).
Proof.
  set (ls := fun x y => Fin (slope (map fin_val x) (map fin_val y))).
  assert (H : lstsq_ok ls).
  { intros x y HL. exists (slope x y). subst ls. cbv beta. rewrite !map_map. cbn [fin_val]. rewrite !map_id.
    split; auto. apply slope_contract; auto. }
  exists ls. split; auto.
  rewrite C35_value; auto.
  - cbn. do 2 f_equal. field.
  - exists 1. split; [simpl; auto|lra].
Qed.

(** ** C28 *)
Theorem C28_bad_q : forall firm market q, (q < 0 \/ 1 < q) ->
  mes XRA firm market (Fin q) = Err AssertionError.
Proof.
  intros firm market q H. unfold mes, check. destruct (length firm =? length market)%nat; auto.
  cbn [nleb ofZ XRA]. destruct H as [H|H].
  - rewrite xleb_false by lra. reflexivity.
  - rewrite (xleb_false q 1) by lra. rewrite andb_false_r. reflexivity.
Qed.
Theorem C28_nan_q : forall firm market, mes XRA firm market NaN = Err AssertionError.
Proof. intros. unfold mes, check. destruct (length firm =? length market)%nat; auto. Qed.
Theorem C28_shape_mismatch : forall A firm market q, length firm <> length market ->
  mes A firm market q = Err AssertionError.
Proof. intros. unfold mes, check. destruct (Nat.eqb_spec (length firm) (length market)); tauto. Qed.
(** the estimate is the mean of the firm returns over [worst_days market thr] *)
Theorem C28_value : forall firm market q, length firm = length market -> market <> [] -> 0 <= q <= 1 ->
  exists thr, is_percentile market q thr /\
    let days := worst_days market thr in
    mes XRA (map Fin firm) (map Fin market) (Fin q) =
      Ok (match days with [] => NaN | _ => Fin (Rmean (map (fun d => nth d firm 0) days)) end).
Proof.
  intros firm market q HL Hn Hq. destruct (mes_fin firm market q HL Hn Hq) as (thr & HP & E).
  exists thr. split; auto. cbv zeta. rewrite E. unfold mes_value. rewrite selR_days by auto.
  destruct (worst_days market thr); reflexivity.
Qed.
(** at most k days are selected as soon as q*(n-1) <= k; the selected days are the worst ones *)
Lemma days_count : forall market q thr k, is_percentile market q thr ->
  q * (INR (length market) - 1) <= INR k -> (length (worst_days market thr) <= k)%nat.
Proof. intros market q thr k H Hk. rewrite worst_days_length. eapply count_below; eauto. Qed.
Lemma days_are_worst : forall market thr d d', In d (worst_days market thr) ->
  (d' < length market)%nat -> ~ In d' (worst_days market thr) -> nth d market 0 < nth d' market 0.
Proof.
  intros market thr d d' Hd Hd' Hn. unfold worst_days in *. apply filter_In in Hd as [_ Hd].
  destruct (Rlt_dec (nth d market 0) thr) as [h|]; [|discriminate].
  destruct (Rlt_dec (nth d' market 0) thr) as [h'|h'].
  - exfalso. apply Hn. apply filter_In. split; [apply in_seq; lia|]. destruct (Rlt_dec (nth d' market 0) thr); tauto.
  - lra.
Qed.
Lemma days_monotone : forall market q q' thr thr', is_percentile market q thr -> is_percentile market q' thr' ->
  q <= q' -> incl (worst_days market thr) (worst_days market thr').
Proof.
  intros market q q' thr thr' H H' Hq d Hd. pose proof (percentile_mono _ _ _ _ _ H H' Hq) as Hle.
  unfold worst_days in *. apply filter_In in Hd as [H1 H2]. apply filter_In. split; auto.
  destruct (Rlt_dec (nth d market 0) thr); [|discriminate]. destruct (Rlt_dec (nth d market 0) thr'); auto. lra.
Qed.
(** The result is the average over a set of days that are worse than every other day; at most k of them as soon as q*(n-1) <= k. *)
Definition average_over (firm : list R) (days : list nat) : xr := match days with [] => NaN | _ => Fin (Rmean (map (fun d => nth d firm 0) days)) end.
Theorem C28_worst_days : forall firm market q, length firm = length market -> market <> [] -> 0 <= q <= 1 -> exists thr,
  is_percentile market q thr /\ let days := worst_days market thr in
  mes XRA (map Fin firm) (map Fin market) (Fin q) = Ok (average_over firm days) /\ NoDup days /\
  (forall d, In d days <-> (d < length market)%nat /\ nth d market 0 < thr) /\
  (forall d d', In d days -> (d' < length market)%nat -> ~ In d' days -> nth d market 0 < nth d' market 0) /\
  (forall k, q * (INR (length market) - 1) <= INR k -> (length days <= k)%nat).
Proof.
  intros firm market q HL Hn Hq. destruct (C28_value firm market q HL Hn Hq) as (thr & HP & E). cbv zeta in E.
  exists thr. split; [exact HP|]. cbv zeta. split; [exact E|]. split; [apply NoDup_filter, seq_NoDup|].
  split. { intros d. unfold worst_days. rewrite filter_In, in_seq. destruct (Rlt_dec (nth d market 0) thr); intuition (try discriminate; try lia; try lra). }
  split; [apply days_are_worst|]. intros k Hk. eapply days_count; eauto.
Qed.
(** a larger q averages over more days *)
Theorem C28_more_days : forall firm market q q', length firm = length market -> market <> [] -> 0 <= q -> q <= q' -> q' <= 1 -> exists thr thr',
  is_percentile market q thr /\ is_percentile market q' thr' /\
  mes XRA (map Fin firm) (map Fin market) (Fin q) = Ok (average_over firm (worst_days market thr)) /\
  mes XRA (map Fin firm) (map Fin market) (Fin q') = Ok (average_over firm (worst_days market thr')) /\ incl (worst_days market thr) (worst_days market thr').
Proof.
  intros firm market q q' HL Hn H0 H1 H2. destruct (C28_value firm market q HL Hn ltac:(lra)) as (thr & HP & E). destruct (C28_value firm market q' HL Hn ltac:(lra)) as (thr' & HP' & E').
  exists thr, thr'. split; [exact HP|]. split; [exact HP'|]. split; [exact E|]. split; [exact E'|]. eapply days_monotone; eauto.
Qed.
Theorem C28_empty : forall q, 0 <= q <= 1 -> mes XRA [] [] (Fin q) = Err IndexError.
Proof. intros q Hq. unfold mes, check. simpl length. cbn [Nat.eqb nleb ofZ XRA]. rewrite !xleb_true by lra. reflexivity. Qed.
Lemma pct_123 : is_percentile [3;1;2] (1/2) 2.
Proof.
  exists [1;2;3], 1%nat.
  split; [eapply perm_trans; [apply perm_swap|]; apply perm_skip; apply perm_swap|].
  split; [repeat constructor; lra|]. split; [simpl; lia|]. cbn [length]. cbv zeta. simpl. lra.
Qed.
Example C28_case : mes XRA (map Fin [7;-4;9]) (map Fin [3;1;2]) (Fin (1/2)) = Ok (Fin (-4)).
Proof.
  destruct (C28_value [7;-4;9] [3;1;2] (1/2)) as (thr & HP & ->); try reflexivity; try lra; try discriminate.
  rewrite (is_percentile_unique _ _ _ _ HP pct_123).
  unfold worst_days. cbn [length seq filter nth].
  destruct (Rlt_dec 3 2); [lra|]. destruct (Rlt_dec 1 2); [|lra]. destruct (Rlt_dec 2 2); [lra|].
  do 2 f_equal. unfold Rmean. simpl. field.
Qed.

(** ** C29 *)
Theorem C29_range : forall firm market q lo hi v, length firm = length market -> market <> [] -> 0 <= q <= 1 ->
  (forall f, In f firm -> lo <= f <= hi) ->
  mes XRA (map Fin firm) (map Fin market) (Fin q) = Ok v -> v <> NaN -> exists r, v = Fin r /\ lo <= r <= hi.
Proof.
  intros firm market q lo hi v HL Hn Hq Hr E Hv. destruct (mes_fin firm market q HL Hn Hq) as (thr & HP & E').
  rewrite E' in E. assert (E2 : mes_value firm market thr = v) by congruence.
  unfold mes_value in E2. destruct (selR thr market firm) as [|x l] eqn:ES; [congruence|].
  exists (Rmean (x :: l)). split; auto. apply Rmean_bounds; [discriminate|].
  intros f Hf. rewrite <- ES in Hf. unfold selR in Hf. apply in_map_iff in Hf as ((m & f') & Ef & Hf).
  apply filter_In in Hf as [Hf _]. apply in_combine_r in Hf. simpl in Ef; subst. auto.
Qed.
Theorem C29_nan_iff : forall firm market q, length firm = length market -> market <> [] -> 0 <= q <= 1 ->
  exists thr, is_percentile market q thr /\
  (mes XRA (map Fin firm) (map Fin market) (Fin q) = Ok NaN <-> forall m, In m market -> thr <= m).
Proof.
  intros firm market q HL Hn Hq. destruct (mes_fin firm market q HL Hn Hq) as (thr & HP & E).
  exists thr. split; auto. rewrite E. unfold mes_value.
  assert (K : selR thr market firm = [] <-> forall m, In m market -> thr <= m).
  { unfold selR. clear - HL. revert firm HL. induction market as [|m l IH]; intros [|f firm] HL; simpl in *; try discriminate.
    - split; auto. intros; tauto.
    - specialize (IH firm ltac:(lia)). unfold below at 1. destruct (Rlt_dec m thr) as [h|h].
      + split; [discriminate|]. intros H. specialize (H m (or_introl eq_refl)). lra.
      + rewrite IH. split; intros H; [intros x [->|Hx]; [lra|auto]|auto]. }
  rewrite <- K. destruct (selR thr market firm); split; intros HH; auto; discriminate.
Qed.
Theorem C29_q_zero : forall firm market, length firm = length market -> market <> [] ->
  mes XRA (map Fin firm) (map Fin market) (Fin 0) = Ok NaN.
Proof.
  intros firm market HL Hn. destruct (C29_nan_iff firm market 0 HL Hn) as (thr & HP & ->); [lra|].
  intros m Hm.
  pose proof (days_count market 0 thr 0 HP) as HC. rewrite Rmult_0_l in HC. specialize (HC (Rle_refl _)).
  rewrite worst_days_length in HC. destruct (Rle_lt_dec thr m) as [|h]; auto. exfalso.
  assert (HI : In m (filter (below thr) market)).
  { apply filter_In. split; auto. unfold below. destruct (Rlt_dec m thr); auto. }
  destruct (filter (below thr) market); simpl in *; [tauto|lia].
Qed.
Theorem C29_constant_market : forall firm market q c, length firm = length market -> market <> [] -> 0 <= q <= 1 ->
  (forall m, In m market -> m = c) ->
  mes XRA (map Fin firm) (map Fin market) (Fin q) = Ok NaN.
Proof.
  intros firm market q c HL Hn Hq HC. destruct (C29_nan_iff firm market q HL Hn Hq) as (thr & HP & ->).
  intros m Hm. rewrite (HC m Hm). destruct HP as (s & i & P & SS & I & A & B & E). cbv zeta in *.
  assert (HS : forall j, (j < length s)%nat -> nth j s 0 = c).
  { intros j Hj. apply HC. eapply Permutation_in; [apply Permutation_sym; exact P|apply nth_In; auto]. }
  pose proof (Permutation_length P) as HLs. rewrite E. rewrite (HS i) by lia.
  destruct (Nat.eq_dec (S i) (length s)) as [e|e].
  - rewrite nth_overflow by lia. lra.
  - rewrite (nth_indep s c 0) by lia. rewrite HS by lia. lra.
Qed.
(** One observation: never defined. *)
Theorem C29_single_day : forall f m q, 0 <= q <= 1 -> mes XRA [Fin f] [Fin m] (Fin q) = Ok NaN.
Proof.
  intros f m q Hq. apply (C29_constant_market [f] [m] q m); auto; try discriminate.
  intros x [->|[]]; auto.
Qed.
Example C29_case : exists thr, is_percentile [3;1;2] (1/2) thr /\ (exists m, In m [3;1;2] /\ m < thr).
Proof. exists 2. split; [apply pct_123|]. exists 1. simpl; split; auto; lra. Qed.

(** ** C30 *)
Lemma is_percentile_perm l m q p : Permutation l m -> is_percentile l q p -> is_percentile m q p.
Proof.
  intros HP (s & i & P & R). exists s, i. rewrite <- (Permutation_length HP). split; auto.
  eapply perm_trans; [apply Permutation_sym; exact HP|exact P].
Qed.
Lemma combine_fst_perm (a b a' b' : list R) : length a = length b -> length a' = length b' ->
  Permutation (combine a b) (combine a' b') -> Permutation a a'.
Proof.
  intros H H' HP. apply (Permutation_map fst) in HP.
  assert (K : forall a b : list R, length a = length b -> map fst (combine a b) = a).
  { clear. induction a; destruct b; simpl; intros; try discriminate; auto. f_equal; auto. }
  rewrite !K in HP; auto.
Qed.
Lemma filter_perm {X} (f : X -> bool) l m : Permutation l m -> Permutation (filter f l) (filter f m).
Proof.
  induction 1; simpl; auto.
  - destruct (f x); auto.
  - destruct (f x), (f y); auto. apply perm_swap.
  - eapply perm_trans; eauto.
Qed.
Theorem C30_reorder_days : forall firm market firm' market' q,
  length firm = length market -> length firm' = length market' -> market <> [] -> 0 <= q <= 1 ->
  Permutation (combine market firm) (combine market' firm') ->
  mes XRA (map Fin firm) (map Fin market) (Fin q) = mes XRA (map Fin firm') (map Fin market') (Fin q).
Proof.
  intros firm market firm' market' q HL HL' Hn Hq HP.
  assert (HPm : Permutation market market') by (eapply combine_fst_perm; [| |exact HP]; auto).
  assert (Hn' : market' <> []) by (intros ->; apply Hn; apply Permutation_nil; apply Permutation_sym; auto).
  destruct (mes_fin firm market q HL Hn Hq) as (thr & HT & ->).
  destruct (mes_fin firm' market' q HL' Hn' Hq) as (thr' & HT' & ->).
  assert (thr' = thr) by (eapply is_percentile_unique; [exact HT'|eapply is_percentile_perm; eauto]). subst thr'.
  f_equal. unfold mes_value.
  assert (HS : Permutation (selR thr market firm) (selR thr market' firm')).
  { unfold selR. apply Permutation_map. apply filter_perm; auto. }
  destruct (selR thr market firm) as [|x l].
  - apply Permutation_nil in HS. rewrite HS. reflexivity.
  - destruct (selR thr market' firm') as [|y m]; [apply Permutation_sym, Permutation_nil in HS; discriminate|].
    f_equal. apply Rmean_perm; auto.
Qed.
Lemma selR_map_firm thr g market firm : selR thr market (map g firm) = map g (selR thr market firm).
Proof.
  unfold selR. revert firm; induction market as [|m l IH]; intros [|f firm]; try reflexivity.
  cbn [map combine filter fst]. destruct (below thr m); cbn [map snd]; rewrite IH; reflexivity.
Qed.
Theorem C30_affine_firm : forall firm market q c d, length firm = length market -> market <> [] -> 0 <= q <= 1 ->
  exists v, mes XRA (map Fin firm) (map Fin market) (Fin q) = Ok v /\
    mes XRA (map Fin (map (fun f => c * f + d) firm)) (map Fin market) (Fin q) =
      Ok (match v with Fin r => Fin (c * r + d) | _ => NaN end).
Proof.
  intros firm market q c d HL Hn Hq. destruct (mes_fin firm market q HL Hn Hq) as (thr & HT & E).
  exists (mes_value firm market thr). split; auto.
  destruct (mes_fin (map (fun f => c * f + d) firm) market q) as (thr' & HT' & ->); auto.
  { rewrite map_length; auto. }
  rewrite (is_percentile_unique _ _ _ _ HT' HT). f_equal. unfold mes_value. rewrite selR_map_firm.
  destruct (selR thr market firm) as [|x l]; [reflexivity|].
  cbn [map]. f_equal. apply (Rmean_affine c d (x :: l)). discriminate.
Qed.
Lemma nth_map_mult c s i d : nth i (map (Rmult c) s) (c * d) = c * nth i s d.
Proof. apply map_nth. Qed.
Lemma is_percentile_scale l q p c : 0 < c -> is_percentile l q p -> is_percentile (map (Rmult c) l) q (c * p).
Proof.
  intros Hc (s & i & P & S1 & I & A & B & E). exists (map (Rmult c) s), i. rewrite map_length.
  split; [apply Permutation_map; auto|]. split.
  { clear - S1 Hc. induction S1; simpl; constructor; auto.
    apply Forall_forall. intros x Hx. apply in_map_iff in Hx as (y & <- & Hy). rewrite Forall_forall in H.
    apply Rmult_le_compat_l; [lra|]. auto. }
  split; auto. cbv zeta in *. split; auto. split; auto.
  rewrite E. assert (E0 : nth i (map (Rmult c) s) 0 = c * nth i s 0).
  { rewrite <- nth_map_mult. f_equal. ring. }
  rewrite E0, nth_map_mult. ring.
Qed.
Theorem C30_scale_market : forall firm market q c, length firm = length market -> market <> [] -> 0 <= q <= 1 -> 0 < c ->
  mes XRA (map Fin firm) (map Fin (map (Rmult c) market)) (Fin q) = mes XRA (map Fin firm) (map Fin market) (Fin q).
Proof.
  intros firm market q c HL Hn Hq Hc. destruct (mes_fin firm market q HL Hn Hq) as (thr & HT & ->).
  destruct (mes_fin firm (map (Rmult c) market) q) as (thr' & HT' & ->); auto.
  { rewrite map_length; auto. } { destruct market; [tauto|discriminate]. }
  rewrite (is_percentile_unique _ _ _ _ HT' (is_percentile_scale _ _ _ c Hc HT)). f_equal. unfold mes_value.
  replace (selR (c * thr) (map (Rmult c) market) firm) with (selR thr market firm); auto.
  unfold selR. clear - Hc. revert firm; induction market as [|m l IH]; intros [|f firm]; try reflexivity.
  cbn [map combine filter fst].
  replace (below (c * thr) (c * m)) with (below thr m).
  2:{ unfold below. destruct (Rlt_dec m thr) as [h|h], (Rlt_dec (c * m) (c * thr)) as [h'|h']; auto; exfalso.
      - apply h'. apply Rmult_lt_compat_l; auto.
      - apply h. apply Rmult_lt_reg_l in h'; auto. }
  destruct (below thr m); cbn [map snd]; rewrite IH; reflexivity.
Qed.
Example C30_case : Permutation (combine [3;1;2] [7;-4;9]) (combine [1;3;2] [-4;7;9]).
Proof. simpl. apply perm_swap. Qed.
