From Coq Require Import String Reals Lra List ZArith Lia Bool Arith Permutation Sorting.Sorted.
From Verif Require Import Arith XR RealAux Model_garch Model_measures Spec_garch Spec_measures Proofs_garch Proofs_garch2 Proofs_garch3.
Import ListNotations.
Local Open Scope R_scope.

(** ** std *)
Lemma Rstd_var l : Rstd l = sqrt (Rvar l).
Proof. unfold Rstd, Rvar. f_equal. apply Rmean_map_ext. intros; simpl; ring. Qed.
Lemma astd_fin l : l <> [] -> astd XRA (map Fin l) = Fin (Rstd l).
Proof.
  intros H. unfold astd. rewrite avar_fin by auto. cbn [nsqrt XRA].
  rewrite xsqrt_fin by apply Rvar_nonneg. rewrite Rstd_var. reflexivity.
Qed.
Lemma Rstd_nonneg l : 0 <= Rstd l.
Proof. rewrite Rstd_var. apply sqrt_pos. Qed.
Lemma Rstd_pos_iff l : l <> [] -> (0 < Rstd l <-> exists x y, In x l /\ In y l /\ x <> y).
Proof.
  intros H. rewrite <- (Rvar_pos_iff l H), Rstd_var. split; intros HH.
  - destruct (Rle_lt_or_eq_dec _ _ (Rvar_nonneg l)) as [|E]; auto. rewrite <- E, sqrt_0 in HH. lra.
  - apply sqrt_lt_R0; auto.
Qed.
Lemma Rstd_zero l : l <> [] -> (forall x y, In x l -> In y l -> x = y) -> Rstd l = 0.
Proof.
  intros H HC. destruct (Rle_lt_or_eq_dec _ _ (Rstd_nonneg l)) as [HP|]; auto.
  apply Rstd_pos_iff in HP as (x & y & Hx & Hy & Hxy); auto. exfalso; auto.
Qed.
Lemma Rmean_affine c d l : l <> [] -> Rmean (map (fun x => c * x + d) l) = c * Rmean l + d.
Proof. intros H. rewrite (Rmean_plus (fun x => c * x) (fun _ => d)). rewrite Rmean_scal, Rmean_const by auto. auto. Qed.
Lemma Rvar_affine c d l : l <> [] -> Rvar (map (fun x => c * x + d) l) = c * c * Rvar l.
Proof.
  intros H. unfold Rvar. rewrite Rmean_affine by auto. rewrite map_map.
  rewrite <- (Rmean_scal (c * c)). rewrite (map_map (fun x => (x - Rmean l) * (x - Rmean l))). apply Rmean_map_ext. intros; ring.
Qed.
Lemma Rstd_affine c d l : l <> [] -> Rstd (map (fun x => c * x + d) l) = Rabs c * Rstd l.
Proof.
  intros H. rewrite !Rstd_var, Rvar_affine by auto.
  rewrite sqrt_mult; [|apply sqr_nonneg|apply Rvar_nonneg]. f_equal. apply sqrt_Rsqr_abs.
Qed.
Lemma Rstd_perm l m : Permutation l m -> Rstd l = Rstd m.
Proof.
  intros H. unfold Rstd. rewrite (Rmean_perm l m H). f_equal. apply Rmean_perm. apply Permutation_map; auto.
Qed.

(** ** least squares, one regressor *)
Definition Sxy (x y : list R) := Rsum (map2 Rmult x y).
Lemma sse_expand x y b : length x = length y ->
  sse x y b = Sxy y y - 2 * b * Sxy x y + b * b * Sxy x x.
Proof.
  unfold sse, Sxy. revert y; induction x as [|u x IH]; intros [|v y] H; simpl in *; try discriminate; [lra|].
  rewrite IH by lia. ring.
Qed.
Lemma Sxx_nonneg x : 0 <= Sxy x x.
Proof. unfold Sxy. induction x; simpl; [lra|]. pose proof (sqr_nonneg a); lra. Qed.
Lemma Sxx_zero x y : Sxy x x = 0 -> Sxy x y = 0.
Proof.
  unfold Sxy. revert y; induction x as [|u x IH]; intros [|v y] H; simpl in *; try lra.
  pose proof (sqr_nonneg u). pose proof (Sxx_nonneg x). unfold Sxy in H1.
  assert (u * u = 0) by lra. assert (u = 0) by (apply Rmult_integral in H2; tauto). subst.
  rewrite IH by lra. lra.
Qed.
Lemma Sxx_pos x u : In u x -> u <> 0 -> 0 < Sxy x x.
Proof.
  intros Hi Hu. pose proof (Sxx_nonneg x) as H. destruct (Rle_lt_or_eq_dec _ _ H) as [|E]; auto. exfalso.
  clear H. induction x as [|v x IH]; [simpl in Hi; tauto|].
  unfold Sxy in E, IH; simpl in E. pose proof (sqr_nonneg v). pose proof (Sxx_nonneg x) as HS. unfold Sxy in HS.
  destruct Hi as [->|Hi].
  - assert (E2 : u * u = 0) by lra. apply Rmult_integral in E2; tauto.
  - apply IH; auto. lra.
Qed.
Definition slope x y := if Req_EM_T (Sxy x x) 0 then 0 else Sxy x y / Sxy x x.
Lemma slope_contract x y : length x = length y -> lstsq_contract x y (slope x y).
Proof.
  intros HL. unfold lstsq_contract, slope.
  destruct (Req_EM_T (Sxy x x) 0) as [E|E].
  - split.
    + intros b. rewrite !sse_expand by auto. rewrite E, (Sxx_zero x y E). lra.
    + intros b _. rewrite Rabs_R0. apply Rabs_pos.
  - pose proof (Sxx_nonneg x). assert (HP : 0 < Sxy x x) by lra.
    assert (K : forall b, sse x y b = sse x y (Sxy x y / Sxy x x) + Sxy x x * ((b - Sxy x y / Sxy x x) * (b - Sxy x y / Sxy x x))).
    { intros b. rewrite !sse_expand by auto. field. lra. }
    split.
    + intros b. rewrite (K b). assert (0 <= Sxy x x * ((b - Sxy x y / Sxy x x) * (b - Sxy x y / Sxy x x))); [|lra].
      apply Rmult_le_pos; [lra|apply sqr_nonneg].
    + intros b Hb. rewrite (K b) in Hb.
      assert (Hz : Sxy x x * ((b - Sxy x y / Sxy x x) * (b - Sxy x y / Sxy x x)) = 0) by lra.
      apply Rmult_integral in Hz as [|Hz]; [lra|]. apply Rmult_integral in Hz.
      replace b with (Sxy x y / Sxy x x) by lra. lra.
Qed.
Lemma contract_slope x y a : length x = length y -> lstsq_contract x y a -> a = slope x y.
Proof.
  intros HL [H1 H2]. unfold slope.
  destruct (Req_EM_T (Sxy x x) 0) as [E|E].
  - assert (Rabs a <= Rabs 0).
    { apply H2. rewrite !sse_expand by auto. rewrite E, (Sxx_zero x y E). lra. }
    rewrite Rabs_R0 in H. pose proof (Rabs_pos a).
    destruct (Req_dec a 0); auto. pose proof (Rabs_no_R0 a H3). lra.
  - pose proof (Sxx_nonneg x). assert (HP : 0 < Sxy x x) by lra.
    specialize (H1 (Sxy x y / Sxy x x)). rewrite !sse_expand in H1 by auto.
    assert (K : Sxy x x * ((a - Sxy x y / Sxy x x) * (a - Sxy x y / Sxy x x)) <= 0).
    { replace (Sxy x x * ((a - Sxy x y / Sxy x x) * (a - Sxy x y / Sxy x x))) with
        (a * a * Sxy x x - 2 * a * Sxy x y + Sxy x y / Sxy x x * Sxy x y) by (field; lra).
      replace (Sxy x y / Sxy x x * (Sxy x y / Sxy x x) * Sxy x x) with (Sxy x y / Sxy x x * Sxy x y) in H1 by (field; lra).
      lra. }
    pose proof (sqr_nonneg (a - Sxy x y / Sxy x x)) as HQ.
    assert (HZ : (a - Sxy x y / Sxy x x) * (a - Sxy x y / Sxy x x) = 0).
    { destruct (Rle_lt_or_eq_dec _ _ HQ) as [HQ2|]; auto.
      pose proof (Rmult_lt_0_compat _ _ HP HQ2). lra. }
    apply Rmult_integral in HZ. lra.
Qed.

(** ** sorting *)
Fixpoint insR (x : R) (l : list R) : list R :=
  match l with [] => [x] | y :: l' => if Rle_dec x y then x :: l else y :: insR x l' end.
Fixpoint sortR (l : list R) : list R := match l with [] => [] | x :: l' => insR x (sortR l') end.
Lemma insert_fin x l : insert XRA (Fin x) (map Fin l) = map Fin (insR x l).
Proof.
  induction l as [|y l IH]; [reflexivity|]. cbn [map insert insR].
  cbn [nleb XRA]. destruct (Rle_dec x y) as [h|h].
  - rewrite xleb_true by auto. reflexivity.
  - rewrite xleb_false by lra. cbn [map]. f_equal. exact IH.
Qed.
Lemma isort_fin l : isort XRA (map Fin l) = map Fin (sortR l).
Proof.
  induction l as [|x l IH]; [reflexivity|]. cbn [map isort sortR].
  etransitivity; [apply (f_equal (insert XRA (Fin x)) IH)|]. apply insert_fin.
Qed.
Lemma insR_perm x l : Permutation (x :: l) (insR x l).
Proof.
  induction l as [|y l IH]; simpl; auto. destruct (Rle_dec x y); auto.
  eapply perm_trans; [apply perm_swap|]. constructor; auto.
Qed.
Lemma sortR_perm l : Permutation l (sortR l).
Proof. induction l; simpl; auto. eapply perm_trans; [|apply insR_perm]. constructor; auto. Qed.
Lemma insR_sorted x l : StronglySorted Rle l -> StronglySorted Rle (insR x l).
Proof.
  induction 1 as [|y l HS IH HF]; simpl; [repeat constructor|].
  destruct (Rle_dec x y).
  - constructor; [constructor; auto|]. constructor; auto.
    eapply Forall_impl; [|exact HF]. intros; simpl in *; lra.
  - constructor; auto. apply (Permutation_Forall (insR_perm x l)). constructor; [lra|auto].
Qed.
Lemma sortR_sorted l : StronglySorted Rle (sortR l).
Proof. induction l; simpl; [constructor|apply insR_sorted; auto]. Qed.
Lemma sorted_perm_unique l : forall m, StronglySorted Rle l -> StronglySorted Rle m -> Permutation l m -> l = m.
Proof.
  induction l as [|x l IH]; intros m HL HM HP.
  - apply Permutation_nil in HP. auto.
  - destruct m as [|y m]; [apply Permutation_sym, Permutation_nil in HP; discriminate|].
    inversion HL as [|? ? HL' HFx]; subst. inversion HM as [|? ? HM' HFy]; subst.
    rewrite Forall_forall in HFx, HFy.
    assert (x = y).
    { assert (Hx : In x (y :: m)) by (eapply Permutation_in; [exact HP|left; auto]).
      assert (Hy : In y (x :: l)) by (eapply Permutation_in; [apply Permutation_sym; exact HP|left; auto]).
      destruct Hx as [|Hx]; auto. destruct Hy as [|Hy]; auto.
      specialize (HFx y Hy). specialize (HFy x Hx). lra. }
    subst y. f_equal. apply IH; auto. eapply Permutation_cons_inv; eauto.
Qed.
Lemma sorted_nth_le l : StronglySorted Rle l -> forall i j d, (i <= j)%nat -> (j < length l)%nat -> nth i l d <= nth j l d.
Proof.
  induction 1 as [|x l HS IH HF]; intros i j d Hij Hj; [simpl in Hj; lia|].
  destruct i, j; simpl in *; try lia; try lra.
  - rewrite Forall_forall in HF. apply HF. apply nth_In. lia.
  - apply IH; lia.
Qed.

(** ** percentile *)
Lemma floor_index_fin h n k : INR k <= h < INR k + 1 -> (k <= n - 1)%nat ->
  floor_index XRA (Fin h) n = k.
Proof.
  intros Hk Hn. unfold floor_index.
  assert (G : forall m, length (filter (fun i => nleb (a:=XRA) (ofZ (Z.of_nat i)) (Fin h)) (seq 1 m)) = Nat.min k m).
  { induction m as [|m IH]; [simpl; lia|]. rewrite seq_S, filter_app, app_length, IH.
    cbn [filter]. change (1 + m)%nat with (S m).
    assert (E : nleb (a:=XRA) (ofZ (Z.of_nat (S m))) (Fin h) = (S m <=? k)%nat).
    { cbn [nleb ofZ XRA]. rewrite <- INR_IZR_INZ. destruct (S m <=? k)%nat eqn:EE.
      - apply Nat.leb_le in EE. apply xleb_true. apply le_INR in EE. lra.
      - apply Nat.leb_gt in EE. apply xleb_false. assert (H : (k <= m)%nat) by lia. apply le_INR in H. rewrite S_INR. lra. }
    rewrite E. destruct (S m <=? k)%nat eqn:EE; simpl.
    - apply Nat.leb_le in EE. lia.
    - apply Nat.leb_gt in EE. lia. }
  rewrite G. lia.
Qed.
Lemma nat_floor h : 0 <= h -> exists k, INR k <= h < INR k + 1.
Proof.
  intros H. destruct (archimed h) as [H1 H2].
  assert (0 < up h)%Z by (apply lt_IZR; simpl; lra).
  exists (Z.to_nat (up h - 1)). rewrite INR_IZR_INZ, Z2Nat.id by lia. rewrite minus_IZR. lra.
Qed.
Lemma lerp_fin a b t : lerp XRA (Fin a) (Fin b) (Fin t) = Fin (a + t * (b - a)).
Proof.
  unfold lerp. cbn [nsub nmul nadd nleb lit ofZ XRA xsub xadd xmul].
  destruct (xleb (Fin (5/10)) (Fin t)); f_equal; ring.
Qed.
Definition pctR (l : list R) (q : R) (i : nat) : R :=
  let h := q * (INR (length l) - 1) in
  nth i (sortR l) 0 + (h - INR i) * (nth (S i) (sortR l) (nth i (sortR l) 0) - nth i (sortR l) 0).
Lemma nth_map_fin' rs t : (t < length rs)%nat -> nth t (map Fin rs) NaN = Fin (nth t rs 0).
Proof.
  intros H. rewrite (nth_indep _ NaN (Fin 0)) by (rewrite map_length; auto). apply map_nth.
Qed.
Lemma sortR_length l : length (sortR l) = length l.
Proof. symmetry. apply Permutation_length, sortR_perm. Qed.
Lemma percentile_unfold (m : list (num XRA)) (qq : num XRA) : m <> [] ->
  percentile XRA m qq =
    (if existsb isnan m then Ok nnan else
      let n0 := length m in
      let s := isort XRA m in
      let h0 := nmul (ofZ (Z.of_nat (n0 - 1))) (ndiv qq (ofZ 100)) in
      let i0 := floor_index XRA h0 n0 in
      let j := Nat.min (S i0) (n0 - 1) in
      Ok (lerp XRA (nth i0 s nnan) (nth j s nnan) (nsub h0 (ofZ (Z.of_nat i0))))).
Proof. destruct m; [tauto|reflexivity]. Qed.
Lemma percentile_fin l q : l <> [] -> 0 <= q <= 1 ->
  exists p, percentile XRA (map Fin l) (xmul (Fin q) (Fin 100)) = Ok (Fin p) /\ is_percentile l q p.
Proof.
  intros Hn Hq. set (n := length l).
  assert (HN : (0 < n)%nat) by (subst n; destruct l; simpl; [tauto|lia]).
  assert (HN1 : 1 <= INR n) by (replace 1 with (INR 1) by reflexivity; apply le_INR; lia).
  set (h := q * (INR n - 1)).
  assert (Hh : 0 <= h <= INR n - 1).
  { subst h. split; [apply Rmult_le_pos; lra|]. rewrite <- (Rmult_1_l (INR n - 1)) at 2. apply Rmult_le_compat_r; lra. }
  destruct (nat_floor h) as [i Hi]; [lra|].
  assert (Hin : (i <= n - 1)%nat).
  { apply INR_le. rewrite minus_INR by lia. simpl (INR 1). lra. }
  exists (pctR l q i). split.
  - assert (EX : existsb (isnan (a:=XRA)) (map Fin l) = false).
    { clear. induction l; simpl; auto. }
    rewrite percentile_unfold by (destruct l; [tauto|discriminate]).
    rewrite EX. cbv zeta. rewrite map_length. fold n.
    cbn [nmul ndiv nsub ofZ XRA xmul]. rewrite xdiv_fin by lra. cbn [xmul].
    replace (IZR (Z.of_nat (n - 1)) * (q * 100 / 100)) with h.
    2:{ subst h. rewrite <- INR_IZR_INZ, minus_INR by lia. simpl (INR 1). field. }
    rewrite (floor_index_fin h n i) by (auto; lia).
    rewrite isort_fin.
    assert (HLs : length (sortR l) = n) by apply sortR_length.
    rewrite nth_map_fin' by lia. rewrite nth_map_fin' by lia. cbn [xsub].
    rewrite lerp_fin. f_equal. f_equal. unfold pctR. fold n. fold h. rewrite <- INR_IZR_INZ. f_equal. f_equal.
    f_equal. destruct (Nat.eq_dec i (n - 1)) as [E|E].
    + rewrite Nat.min_r by lia. rewrite (nth_overflow (sortR l) _ (n:=S i)) by lia. rewrite E. reflexivity.
    + rewrite Nat.min_l by lia. apply nth_indep. lia.
  - exists (sortR l), i. split; [apply sortR_perm|]. split; [apply sortR_sorted|]. split; [fold n; lia|].
    cbv zeta. fold n. fold h. split; [lra|]. split; [lra|]. reflexivity.
Qed.
Lemma is_percentile_unique l q p p' : is_percentile l q p -> is_percentile l q p' -> p = p'.
Proof.
  intros (s & i & P1 & S1 & I1 & A1 & B1 & E1) (s' & i' & P2 & S2 & I2 & A2 & B2 & E2).
  assert (s = s').
  { apply sorted_perm_unique; auto. eapply perm_trans; [apply Permutation_sym; exact P1|exact P2]. }
  subst s'. assert (i = i').
  { cbv zeta in *. assert (INR i < INR i' + 1) by lra. assert (INR i' < INR i + 1) by lra.
    rewrite <- S_INR in H, H0. apply INR_lt in H, H0. lia. }
  subst i'. cbv zeta in *. congruence.
Qed.
Lemma percentile_mono l q q' p p' : is_percentile l q p -> is_percentile l q' p' -> q <= q' -> p <= p'.
Proof.
  intros (s & i & P1 & S1 & I1 & A1 & B1 & E1) (s' & i' & P2 & S2 & I2 & A2 & B2 & E2) Hq.
  assert (s = s').
  { apply sorted_perm_unique; auto. eapply perm_trans; [apply Permutation_sym; exact P1|exact P2]. }
  subst s'. cbv zeta in *. pose proof (Permutation_length P1) as HL.
  set (n := length l) in *. assert (HN1 : 1 <= INR n) by (replace 1 with (INR 1) by reflexivity; apply le_INR; lia).
  set (h := q * (INR n - 1)) in *. set (h' := q' * (INR n - 1)) in *.
  assert (Hh : h <= h') by (subst h h'; apply Rmult_le_compat_r; lra).
  assert (Hii : (i <= i')%nat).
  { assert (INR i < INR i' + 1) by lra. rewrite <- S_INR in H. apply INR_lt in H. lia. }
  assert (ST : forall j, (j < n)%nat -> nth j s 0 <= nth (S j) s (nth j s 0)).
  { intros j Hj. destruct (Nat.eq_dec (S j) n) as [E|E].
    - rewrite (nth_overflow s (nth j s 0) (n:=S j)) by lia. lra.
    - rewrite (nth_indep s (nth j s 0) 0 (n:=S j)) by lia. apply sorted_nth_le; auto; lia. }
  assert (HB : forall j x, (j < n)%nat -> INR j <= x -> x < INR j + 1 ->
     nth j s 0 <= nth j s 0 + (x - INR j) * (nth (S j) s (nth j s 0) - nth j s 0) <= nth (S j) s (nth j s 0)).
  { intros j x Hj H1 H2. specialize (ST j Hj). set (d := nth (S j) s (nth j s 0) - nth j s 0) in *.
    assert (0 <= (x - INR j) * d) by (apply Rmult_le_pos; subst d; lra).
    assert ((x - INR j) * d <= 1 * d) by (apply Rmult_le_compat_r; subst d; lra). subst d; lra. }
  destruct (Nat.eq_dec i i') as [E|E].
  - subst i'. rewrite E1, E2. apply Rplus_le_compat_l. apply Rmult_le_compat_r; [|lra].
    specialize (ST i I1). lra.
  - assert (Hlt : (S i <= i')%nat) by lia.
    rewrite E1, E2. eapply Rle_trans; [apply HB; auto; lra|]. eapply Rle_trans; [|apply HB; auto; lra].
    rewrite (nth_indep _ _ 0) by lia. apply sorted_nth_le; auto; lia.
Qed.

(** values below the percentile *)
Lemma filter_length_perm {X} (f : X -> bool) l m : Permutation l m -> length (filter f l) = length (filter f m).
Proof. induction 1; simpl; auto; try (destruct (f x); simpl; auto); try (destruct (f y); simpl; auto); lia. Qed.
Lemma filter_sorted_bound s thr k : StronglySorted Rle s -> (forall j, (k <= j < length s)%nat -> thr <= nth j s 0) ->
  (length (filter (fun x => if Rlt_dec x thr then true else false) s) <= k)%nat.
Proof.
  intros HS. revert k. induction HS as [|x s HS IH HF]; intros k H; simpl; [lia|].
  destruct (Rlt_dec x thr) as [h|h].
  - destruct k as [|k]; [specialize (H 0%nat); simpl in H; specialize (H ltac:(lia)); lra|].
    simpl. apply le_n_S. apply IH. intros j Hj. apply (H (S j)). simpl; lia.
  - enough (E : filter (fun x0 => if Rlt_dec x0 thr then true else false) s = []) by (rewrite E; simpl; lia).
    rewrite Forall_forall in HF. clear - HF h. induction s as [|y s IH]; simpl; auto.
    destruct (Rlt_dec y thr) as [g|g]; [specialize (HF y (or_introl eq_refl)); lra|].
    apply IH. intros; apply HF; simpl; auto.
Qed.
Definition below (thr : R) (x : R) : bool := if Rlt_dec x thr then true else false.
Lemma worst_days_length market thr : length (worst_days market thr) = length (filter (below thr) market).
Proof.
  unfold worst_days. induction market as [|m l IH] using rev_ind; auto.
  rewrite app_length, Nat.add_comm. change (length [m] + length l)%nat with (S (length l)).
  rewrite seq_S, !filter_app, !app_length. cbn [filter Nat.add].
  rewrite (filter_ext_in _ (fun d => if Rlt_dec (nth d l 0) thr then true else false)).
  - rewrite IH. f_equal. rewrite app_nth2 by lia. rewrite Nat.sub_diag. simpl. unfold below. destruct (Rlt_dec m thr); reflexivity.
  - intros d Hd. apply in_seq in Hd. rewrite app_nth1 by lia. reflexivity.
Qed.
Lemma count_below l q p k : is_percentile l q p -> q * (INR (length l) - 1) <= INR k ->
  (length (filter (below p) l) <= k)%nat.
Proof.
  intros (s & i & P1 & S1 & I1 & A1 & B1 & E1) Hk. cbv zeta in *.
  rewrite (filter_length_perm _ l s P1). pose proof (Permutation_length P1) as HL.
  set (h := q * (INR (length l) - 1)) in *. apply filter_sorted_bound; auto.
  intros j Hj. rewrite <- HL in Hj.
  destruct (Rle_lt_or_eq_dec _ _ A1) as [Hlt|Heq].
  - assert (S i <= j)%nat. { assert (HH : INR i < INR k) by lra. apply INR_lt in HH. lia. }
    assert (HS : (S i < length s)%nat) by lia.
    rewrite E1. rewrite (nth_indep s (nth i s 0) 0 (n:=S i)) by lia.
    assert (M1 : nth i s 0 <= nth (S i) s 0) by (apply sorted_nth_le; auto; lia).
    assert (M2 : nth (S i) s 0 <= nth j s 0) by (apply sorted_nth_le; auto; lia).
    assert ((h - INR i) * (nth (S i) s 0 - nth i s 0) <= 1 * (nth (S i) s 0 - nth i s 0)) by (apply Rmult_le_compat_r; lra).
    lra.
  - rewrite E1, <- Heq. replace (INR i - INR i) with 0 by ring. rewrite Rmult_0_l, Rplus_0_r.
    assert (i <= j)%nat. { assert (HH : INR i <= INR k) by lra. apply INR_le in HH. lia. }
    apply sorted_nth_le; auto; lia.
Qed.

(** ** selection *)
Definition selR (thr : R) (market firm : list R) : list R :=
  map snd (filter (fun p => below thr (fst p)) (combine market firm)).
Lemma select_fin thr market : forall firm,
  select XRA (fun m => nltb (a:=XRA) m (Fin thr)) (map Fin market) (map Fin firm) = map Fin (selR thr market firm).
Proof.
  unfold selR. induction market as [|m l IH]; intros [|f firm]; try reflexivity.
  cbn [map select combine filter]. cbn [nltb XRA fst]. unfold below at 1.
  destruct (Rlt_dec m thr) as [h|h].
  - rewrite xltb_true by auto. cbn [map snd]. f_equal. apply IH.
  - rewrite xltb_false by lra. apply IH.
Qed.
Lemma selR_days thr market firm : length firm = length market ->
  selR thr market firm = map (fun d => nth d firm 0) (worst_days market thr).
Proof.
  unfold selR, worst_days. revert firm. induction market as [|m l IH] using rev_ind; intros firm HL.
  - destruct firm; [reflexivity|discriminate].
  - rewrite app_length in *. simpl in HL.
    destruct (exists_last (l:=firm)) as (fs & f & E); [intros ->; simpl in HL; lia|]. subst firm.
    rewrite app_length in HL. simpl in HL.
    assert (HL2 : length fs = length l) by lia.
    assert (EC : combine (l ++ [m]) (fs ++ [f]) = combine l fs ++ [(m, f)]).
    { clear - HL2. revert fs HL2; induction l; destruct fs; simpl; intros; try discriminate; auto. f_equal; auto. }
    rewrite EC. change (length l + length [m])%nat with (length l + 1)%nat.
    rewrite Nat.add_1_r, seq_S, !filter_app, !map_app. f_equal.
    + rewrite IH by auto.
      rewrite (filter_ext_in (fun d => if Rlt_dec (nth d (l ++ [m]) 0) thr then true else false)
        (fun d => if Rlt_dec (nth d l 0) thr then true else false)).
      * apply map_ext_in. intros d Hd. apply filter_In in Hd as [Hd _]. apply in_seq in Hd.
        rewrite app_nth1 by lia. reflexivity.
      * intros d Hd. apply in_seq in Hd. rewrite app_nth1 by lia. reflexivity.
    + cbn [filter fst Nat.add]. rewrite app_nth2 by lia. rewrite Nat.sub_diag. cbn [nth]. unfold below.
      destruct (Rlt_dec m thr); cbn [map snd]; auto.
      f_equal. rewrite app_nth2 by lia. rewrite HL2, Nat.sub_diag. reflexivity.
Qed.
Definition mes_value (firm market : list R) (thr : R) : xr :=
  match selR thr market firm with [] => NaN | l => Fin (Rmean l) end.
Lemma mes_fin firm market q : length firm = length market -> market <> [] -> 0 <= q <= 1 ->
  exists thr, is_percentile market q thr /\
    mes XRA (map Fin firm) (map Fin market) (Fin q) = Ok (mes_value firm market thr).
Proof.
  intros HL Hn Hq. destruct (percentile_fin market q Hn Hq) as (thr & E & HP).
  exists thr. split; auto. unfold mes, check. rewrite !map_length, HL, Nat.eqb_refl.
  cbn [nleb ofZ XRA nmul]. rewrite !xleb_true by lra. cbn [andb].
  rewrite E. cbn [bind]. f_equal. rewrite select_fin. unfold mes_value.
  destruct (selR thr market firm) as [|x l] eqn:ES.
  - apply amean_nil.
  - apply (amean_fin (x :: l)). discriminate.
Qed.
