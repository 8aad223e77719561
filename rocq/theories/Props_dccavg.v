(** * C143: the DCC conditional correlation is a weighted average of the past, and forgets it *)
From Coq Require Import Reals Lra ZArith List Bool Arith Lia Psatz.
From Flocq Require Import Core.Raux.
From Verif Require Import Arith XR RealAux Model_garch Model_mgarch Props_mgarch.
Import ListNotations.
Local Open Scope R_scope.

(** ** Specification *)
(** b^(t-1) x_0 + b^(t-2) x_1 + ... + x_(t-1) *)
Definition past (b : R) (t : nat) (x : nat -> R) : R := Rsum (map (fun j => b ^ (t - 1 - j) * x j) (seq 0 t)).
(** the weight of day j < t at time t is a b^(t-1-j); what remains to one is the weight of the long-run value c *)
Definition long_run_weight (a b : R) (t : nat) : R := 1 - a * past b t (fun _ => 1).
Definition weighted_average (a b : R) (t : nat) (c : R) (x : nat -> R) : R := long_run_weight a b t * c + a * past b t x.
(** the long-run matrix the two backends use: sample correlations (Python), uncentered second moments (C++) *)
Definition long_run (cpp : bool) (z1 z2 : list R) : R * R * R :=
  if cpp then (moment2 z1 z1, moment2 z1 z2, moment2 z2 z2) else (1, pearson z1 z2, 1).

(** ** The recursion in closed form *)
Lemma past_S b t x : past b (S t) x = b ^ t * x 0%nat + past b t (fun j => x (S j)).
Proof.
  unfold past. cbn [seq map Rsum]. replace (S t - 1 - 0)%nat with t by lia. f_equal. rewrite <- seq_shift. rewrite (List.map_map Datatypes.S). apply Rsum_map_ext. intros j _. replace (S t - 1 - S j)%nat with (t - 1 - j)%nat by lia. reflexivity.
Qed.
Lemma past_ones b t : (1 - b) * past b t (fun _ => 1) = 1 - b ^ t.
Proof. induction t as [|t IH]; [unfold past; simpl; ring|]. rewrite past_S, Rmult_plus_distr_l, IH. simpl. ring. Qed.
Lemma past_ext b t x y : (forall j, (j < t)%nat -> x j = y j) -> past b t x = past b t y.
Proof. intros H. apply Rsum_map_ext. intros j Hj. apply in_seq in Hj. rewrite H by lia. reflexivity. Qed.
Lemma past_minus b t x y : past b t x - past b t y = past b t (fun j => x j - y j).
Proof. unfold past. induction (seq 0 t) as [|j l IH]; cbn [map Rsum]; [ring|]. rewrite <- IH. ring. Qed.
Lemma past_abs b t x y : 0 <= b -> (forall j, (j < t)%nat -> Rabs (x j) <= y j) -> Rabs (past b t x) <= past b t y.
Proof.
  intros Hb H. unfold past. eapply Rle_trans; [apply Rsum_abs|]. apply Rsum_le. intros j Hj. apply in_seq in Hj. rewrite Rabs_mult, (Rabs_right (b ^ _)) by (apply Rle_ge, pow_le; exact Hb).
  apply Rmult_le_compat_l; [apply pow_le; exact Hb|apply H; lia].
Qed.
Lemma past_nonneg b t x : 0 <= b -> (forall j, (j < t)%nat -> 0 <= x j) -> 0 <= past b t x.
Proof. intros Hb H. assert (P := past_abs b t (fun _ => 0) x Hb). cbv beta in P. rewrite Rabs_R0 in P. eapply Rle_trans; [apply Rabs_pos|apply P; exact H]. Qed.
Lemma past_mult b t c x : past b t (fun j => c * x j) = c * past b t x.
Proof. unfold past. rewrite <- Rsum_mult_l. apply Rsum_map_ext. intros. ring. Qed.

Lemma Qpath_closed a b c11 c12 c22 zs : forall q11 q12 q22 t, (t <= length zs)%nat ->
  let g c q x := b ^ t * q + (1 - a - b) * past b t (fun _ => 1) * c + a * past b t x in
  nth t ((q11, q12, q22) :: Qpath a b (c11, c12, c22) (q11, q12, q22) zs) (0, 0, 0) =
  (g c11 q11 (fun j => fst (nth j zs (0, 0)) ^ 2), g c12 q12 (fun j => fst (nth j zs (0, 0)) * snd (nth j zs (0, 0))), g c22 q22 (fun j => snd (nth j zs (0, 0)) ^ 2)).
Proof.
  induction zs as [|[u v] zs IH]; intros q11 q12 q22 t Ht g; subst g; cbv beta.
  - cbn in Ht. replace t with 0%nat by lia. unfold past. cbn. repeat (f_equal; try ring).
  - destruct t as [|t]; [unfold past; cbn; repeat (f_equal; try ring)|]. cbn [length] in Ht. cbn [nth Qpath].
    change (nth t (Qnext a b (c11, c12, c22) (q11, q12, q22) (u, v) :: Qpath a b (c11, c12, c22) (Qnext a b (c11, c12, c22) (q11, q12, q22) (u, v)) zs) (0, 0, 0) = 
      (b ^ S t * q11 + (1 - a - b) * past b (S t) (fun _ => 1) * c11 + a * past b (S t) (fun j => fst (nth j ((u, v) :: zs) (0, 0)) ^ 2),
       b ^ S t * q12 + (1 - a - b) * past b (S t) (fun _ => 1) * c12 + a * past b (S t) (fun j => fst (nth j ((u, v) :: zs) (0, 0)) * snd (nth j ((u, v) :: zs) (0, 0))),
       b ^ S t * q22 + (1 - a - b) * past b (S t) (fun _ => 1) * c22 + a * past b (S t) (fun j => snd (nth j ((u, v) :: zs) (0, 0)) ^ 2))).
    cbn [Qnext]. rewrite IH by lia. rewrite !past_S. cbn [nth fst snd]. 
    f_equal; [f_equal|]; change (b ^ Datatypes.S t) with (b * b ^ t); ring.
Qed.
Lemma closed_average a b t c x : b ^ t * c + (1 - a - b) * past b t (fun _ => 1) * c + a * past b t x = weighted_average a b t c x.
Proof. unfold weighted_average, long_run_weight. assert (P := past_ones b t). set (p := past b t (fun _ => 1)) in *. replace (b ^ t) with (1 - (1 - b) * p) by lra. ring. Qed.
Lemma nth_removelast {X} (l : list X) j d : (j < length l - 1)%nat -> nth j (removelast l) d = nth j l d.
Proof.
  revert j. induction l as [|x [|y l] IH]; intros j H; cbn in H; try lia. cbn [removelast]. destruct j as [|j]; [reflexivity|]. cbn [nth]. apply IH. cbn. lia.
Qed.
Definition matrix_at (a b : R) (C : R * R * R) (z1 z2 : list R) (t : nat) : R * R * R :=
  (weighted_average a b t (fst (fst C)) (fun j => nth j z1 0 ^ 2), weighted_average a b t (snd (fst C)) (fun j => nth j z1 0 * nth j z2 0), weighted_average a b t (snd C) (fun j => nth j z2 0 ^ 2)).
Lemma Q_at a b C z1 z2 t : length z1 = length z2 -> (t < length z1)%nat ->
  nth t (C :: Qpath a b C C (removelast (combine z1 z2))) (0, 0, 0) = matrix_at a b C z1 z2 t.
Proof.
  intros HL Ht. destruct C as [[c11 c12] c22]. rewrite Qpath_closed by (rewrite removelast_length, combine_length, <- HL; lia). rewrite !closed_average. unfold matrix_at. cbn [fst snd].
  assert (N : forall j, (j < t)%nat -> nth j (removelast (combine z1 z2)) (0, 0) = (nth j z1 0, nth j z2 0)).
  { intros j Hj. rewrite nth_removelast by (rewrite combine_length, <- HL; lia). apply combine_nth. exact HL. }
  unfold weighted_average. f_equal; [f_equal|]; do 2 f_equal; apply past_ext; intros j Hj; rewrite (N j Hj); reflexivity.
Qed.

(** ** The two backends *)
Lemma value cpp a b r1 r2 s1 s2 : length r1 = length s1 -> length r2 = length s2 -> length r1 = length r2 -> positive s1 -> positive s2 -> admissible a b ->
  non_constant (zscores r1 s1) -> non_constant (zscores r2 s2) ->
  pd (long_run cpp (zscores r1 s1) (zscores r2 s2)) /\
  cond_corr XRA cpp (Fin a) (Fin b) (map Fin r1) (map Fin r2) (map Fin s1) (map Fin s2) =
    Ok (map Fin (dcc_correlations a b (long_run cpp (zscores r1 s1) (zscores r2 s2)) (zscores r1 s1) (zscores r2 s2))).
Proof.
  intros L1 L2 L12 P1 P2 HA N1 N2. destruct cpp; cbn [cond_corr long_run].
  - apply cond_corr_cpp_value; auto using non_constant_non_zero.
  - apply cond_corr_py_value; auto.
Qed.
Lemma path_at a b C z1 z2 t : length z1 = length z2 -> (t < length z1)%nat -> nth t (dcc_correlations a b C z1 z2) 0 = corr_of (matrix_at a b C z1 z2 t).
Proof.
  intros HL Ht. unfold dcc_correlations. rewrite (nth_indep _ 0 (corr_of (0, 0, 0))).
  - rewrite map_nth. f_equal. apply Q_at; assumption.
  - rewrite map_length. cbn [length]. rewrite Qpath_length, removelast_length, combine_length, <- HL. lia.
Qed.
Lemma matrix_pd a b C z1 z2 t : length z1 = length z2 -> (t < length z1)%nat -> admissible a b -> pd C -> pd (matrix_at a b C z1 z2 t).
Proof.
  intros HL Ht HA HC. rewrite <- Q_at by assumption. assert (F : Forall pd (C :: Qpath a b C C (removelast (combine z1 z2)))) by (constructor; [exact HC|apply Qpath_pd; assumption]).
  rewrite Forall_forall in F. apply F, nth_In. cbn [length]. rewrite Qpath_length, removelast_length, combine_length, <- HL. lia.
Qed.

(** Conditional correlation of day t: the entries of the matrix are weighted averages, with the common weights a b^(t-1-j), of the products of
    the standardized residuals of the earlier days and of the long-run matrix; the weights add up to one. Both backends. *)
Theorem C143_weighted_average : forall cpp a b r1 r2 s1 s2,
  length r1 = length s1 -> length r2 = length s2 -> length r1 = length r2 -> positive s1 -> positive s2 ->
  0 <= a -> 0 <= b -> a + b <= 1 -> ~ (a = 1 /\ b = 0) ->
  let z1 := zscores r1 s1 in let z2 := zscores r2 s2 in non_constant z1 -> non_constant z2 ->
  let '(c11, c12, c22) := long_run cpp z1 z2 in
  exists rho : list R, cond_corr XRA cpp (Fin a) (Fin b) (map Fin r1) (map Fin r2) (map Fin s1) (map Fin s2) = Ok (map Fin rho) /\ length rho = length r1 /\
    forall t, (t < length r1)%nat ->
      long_run_weight a b t + a * past b t (fun _ => 1) = 1 /\ 0 <= long_run_weight a b t <= 1 /\
      let v1 := weighted_average a b t c11 (fun j => nth j z1 0 ^ 2) in
      let v2 := weighted_average a b t c22 (fun j => nth j z2 0 ^ 2) in
      0 < v1 /\ 0 < v2 /\
      nth t rho 0 = weighted_average a b t c12 (fun j => nth j z1 0 * nth j z2 0) / sqrt (v1 * v2).
Proof.
  intros cpp a b r1 r2 s1 s2 L1 L2 L12 P1 P2 Ha Hb Hab Hne z1 z2 N1 N2. assert (HA : admissible a b) by (repeat split; auto).
  assert (HL : length z1 = length z2) by (unfold z1, z2; rewrite !zscores_length by auto; auto). assert (HL1 : length z1 = length r1) by (unfold z1; apply zscores_length; auto).
  destruct (value cpp a b r1 r2 s1 s2 L1 L2 L12 P1 P2 HA N1 N2) as [HP E]. fold z1 z2 in HP, E.
  remember (long_run cpp z1 z2) as C eqn:EC. destruct C as [[c11 c12] c22].
  assert (HN : z1 <> []) by (intros X; apply non_constant_length in N1; rewrite X in N1; cbn in N1; lia).
  eexists. split; [exact E|]. split; [rewrite dcc_correlations_length by auto; exact HL1|]. intros t Ht. split; [unfold long_run_weight; ring|].
  assert (PN := past_nonneg b t (fun _ => 1) Hb ltac:(intros; lra)). assert (PO := past_ones b t). assert (BT := pow_le b t Hb).
  split; [unfold long_run_weight; nra|]. cbv zeta. assert (HM := matrix_pd a b _ z1 z2 t HL ltac:(lia) HA HP). unfold matrix_at in HM. cbn [fst snd] in HM. destruct HM as (M1 & M2 & _).
  split; [exact M1|]. split; [exact M2|]. rewrite path_at by (auto; lia). reflexivity.
Qed.

(** ** Forgetting *)
Lemma corr_lipschitz_one x y w x' y' w' m d : 0 < m -> m <= x -> m <= y -> m <= x' -> m <= y' -> w' * w' <= x' * y' -> x' * y' <= x * y ->
  Rabs (x - x') <= d -> Rabs (y - y') <= d -> Rabs (w - w') <= d -> Rabs (w / sqrt (x * y) - w' / sqrt (x' * y')) <= 3 * d / m.
Proof.
  intros Hm Hx Hy Hx' Hy' HW HS Dx Dy Dw.
  assert (P : 0 < x * y) by nra. assert (P' : 0 < x' * y') by nra. set (s := sqrt (x * y)). set (s' := sqrt (x' * y')).
  assert (S0 : 0 < s) by (apply sqrt_lt_R0; exact P). assert (S0' : 0 < s') by (apply sqrt_lt_R0; exact P').
  assert (SS : s * s = x * y) by (apply sqrt_sqrt; lra). assert (SS' : s' * s' = x' * y') by (apply sqrt_sqrt; lra).
  assert (SL : s' <= s) by (apply sqrt_le_1_alt; exact HS). assert (Sm : m <= s) by nra.
  assert (R1 : Rabs (w' / s') <= 1).
  { apply Rabs_le. assert (W : Rabs w' <= s') by (apply Rsqr_incr_0_var; [unfold Rsqr; rewrite <- Rabs_mult, (Rabs_right (w' * w')) by nra; rewrite SS'; exact HW|lra]).
    apply Rabs_le_inv in W. split; [apply le_div_iff|apply div_le_iff]; lra. }
  assert (K : m * Rabs (s - s') <= 2 * d * s).
  { rewrite Rabs_right by lra. assert (D0 : 0 <= d) by (eapply Rle_trans; [apply Rabs_pos|exact Dx]). apply Rabs_le_inv in Dx, Dy.
    assert (E : (s - s') * (s + s') = x * y - x' * y') by (rewrite <- SS, <- SS'; ring).
    assert (G : m * (x * y - x' * y') <= 2 * d * (x * y)).
    { destruct (Rle_or_lt y' y) as [H|H].
      - replace (x * y - x' * y') with (x * (y - y') + y' * (x - x')) by ring.
        assert (m * (x * (y - y')) <= d * (x * y)). { apply Rle_trans with (m * (x * d)); [apply Rmult_le_compat_l; [lra|apply Rmult_le_compat_l; lra]|]. replace (m * (x * d)) with (d * (x * m)) by ring. apply Rmult_le_compat_l; [exact D0|]. apply Rmult_le_compat_l; lra. }
        assert (m * (y' * (x - x')) <= d * (x * y)). { apply Rle_trans with (m * (y' * d)); [apply Rmult_le_compat_l; [lra|apply Rmult_le_compat_l; lra]|]. replace (m * (y' * d)) with (d * (m * y')) by ring. apply Rmult_le_compat_l; [exact D0|]. apply Rmult_le_compat; lra. }
        lra.
      - assert (X : x' <= x) by nra. replace (x * y - x' * y') with (y * (x - x') + x' * (y - y')) by ring.
        assert (m * (y * (x - x')) <= d * (x * y)). { apply Rle_trans with (m * (y * d)); [apply Rmult_le_compat_l; [lra|apply Rmult_le_compat_l; lra]|]. replace (m * (y * d)) with (d * (m * y)) by ring. apply Rmult_le_compat_l; [exact D0|]. apply Rmult_le_compat_r; lra. }
        assert (m * (x' * (y - y')) <= d * (x * y)). { apply Rle_trans with (m * (x' * d)); [apply Rmult_le_compat_l; [lra|apply Rmult_le_compat_l; lra]|]. replace (m * (x' * d)) with (d * (x' * m)) by ring. apply Rmult_le_compat_l; [exact D0|]. apply Rmult_le_compat; lra. }
        lra. }
    rewrite <- E, <- SS in G. apply (Rmult_le_reg_r s); [exact S0|].
    apply Rle_trans with (m * ((s - s') * (s + s'))); [|lra]. rewrite Rmult_assoc. apply Rmult_le_compat_l; [lra|]. apply Rmult_le_compat_l; lra. }
  replace (w / s - w' / s') with ((w - w') / s - w' / s' * ((s - s') / s)) by (field; lra).
  eapply Rle_trans; [apply Rabs_triang|]. rewrite Rabs_Ropp, Rabs_mult. unfold Rdiv at 1 3. rewrite !Rabs_mult, (Rabs_right (/ s)) by (apply Rle_ge, Rlt_le, Rinv_0_lt_compat; exact S0).
  assert (IS : 0 < / s) by (apply Rinv_0_lt_compat; exact S0).
  assert (B1 : Rabs (w - w') * / s <= d / m). { apply Rle_trans with (d * / s); [apply Rmult_le_compat_r; lra|]. apply Rmult_le_compat_l; [eapply Rle_trans; [apply Rabs_pos|exact Dx]|]. apply Rinv_le_contravar; lra. }
  assert (B2 : Rabs (s - s') * / s <= 2 * d / m). { apply le_div_iff; [exact Hm|]. replace (Rabs (s - s') * / s * m) with (m * Rabs (s - s') * / s) by ring. apply div_le_iff; [exact S0|]. exact K. }
  assert (B3 : Rabs (w' / s') * (Rabs (s - s') * / s) <= 1 * (2 * d / m)) by (apply Rmult_le_compat; [apply Rabs_pos|apply Rmult_le_pos; [apply Rabs_pos|lra]|exact R1|exact B2]).
  unfold Rdiv in *. lra.
Qed.
Lemma corr_lipschitz Q Q' m d : 0 < m -> pd Q -> pd Q' -> m <= fst (fst Q) -> m <= snd Q -> m <= fst (fst Q') -> m <= snd Q' ->
  Rabs (fst (fst Q) - fst (fst Q')) <= d -> Rabs (snd (fst Q) - snd (fst Q')) <= d -> Rabs (snd Q - snd Q') <= d -> Rabs (corr_of Q - corr_of Q') <= 3 * d / m.
Proof.
  destruct Q as [[x w] y], Q' as [[x' w'] y']. cbn [fst snd corr_of pd]. intros Hm (_ & _ & HP) (_ & _ & HP') H1 H2 H3 H4 D1 D2 D3.
  destruct (Rle_or_lt (x' * y') (x * y)) as [H|H]; [apply corr_lipschitz_one; assumption|]. rewrite Rabs_minus_sym in D1, D2, D3. rewrite Rabs_minus_sym. apply corr_lipschitz_one; try assumption. lra.
Qed.
Lemma past_split b u k x : past b (u + k) x = b ^ k * past b u x + past b k (fun j => x (u + j)%nat).
Proof.
  revert x. induction u as [|u IH]; intros x; [cbn [plus]; replace (past b 0 x) with 0 by reflexivity; rewrite Rmult_0_r, Rplus_0_l; apply past_ext; reflexivity|]. cbn [plus]. rewrite !past_S, IH, pow_add. ring.
Qed.
Lemma past_recent b u t x M : 0 <= b < 1 -> (u <= t)%nat -> (forall j, (j < u)%nat -> Rabs (x j) <= M) -> (forall j, (u <= j)%nat -> x j = 0) -> 0 <= M ->
  Rabs (past b t x) <= M * b ^ (t - u) / (1 - b).
Proof.
  intros Hb Hu HM H0 M0. replace t with (u + (t - u))%nat by lia. rewrite past_split. replace (u + (t - u) - u)%nat with (t - u)%nat by lia. set (k := (t - u)%nat).
  rewrite (past_ext b k _ (fun _ => 0 * 1)) by (intros j _; rewrite H0 by lia; ring). rewrite past_mult, Rmult_0_l, Rplus_0_r.
  assert (BK := pow_le b k (proj1 Hb)). rewrite Rabs_mult, (Rabs_right (b ^ k)) by lra.
  assert (P := past_abs b u x (fun _ => M * 1) (proj1 Hb)). rewrite past_mult in P. specialize (P ltac:(intros j Hj; rewrite Rmult_1_r; apply HM; exact Hj)).
  assert (PO := past_ones b u). assert (BU := pow_le b u (proj1 Hb)). assert (PL : past b u (fun _ => 1) <= / (1 - b)).
  { apply (Rmult_le_reg_l (1 - b)); [lra|]. rewrite Rinv_r by lra. lra. }
  replace (M * b ^ k / (1 - b)) with (b ^ k * (M * / (1 - b))) by (unfold Rdiv; ring). apply Rmult_le_compat_l; [exact BK|]. eapply Rle_trans; [exact P|]. apply Rmult_le_compat_l; assumption.
Qed.
Lemma average_difference a b u t c c' x y e M : 0 <= a -> 0 <= b -> a + b < 1 -> (u <= t)%nat -> Rabs (c - c') <= e -> (forall j, (j < u)%nat -> Rabs (x j - y j) <= M) -> (forall j, (u <= j)%nat -> x j = y j) -> 0 <= M ->
  Rabs (weighted_average a b t c x - weighted_average a b t c' y) <= e + a * (M * b ^ (t - u) / (1 - b)).
Proof.
  intros Ha Hb Hab Hu Hc HM H0 M0. unfold weighted_average.
  replace (long_run_weight a b t * c + a * past b t x - (long_run_weight a b t * c' + a * past b t y)) with (long_run_weight a b t * (c - c') + a * (past b t x - past b t y)) by ring.
  rewrite past_minus. assert (P := past_recent b u t (fun j => x j - y j) M ltac:(lra) Hu HM ltac:(intros j Hj; cbv beta; rewrite (H0 j Hj); ring) M0).
  assert (PN := past_nonneg b t (fun _ => 1) Hb ltac:(intros; lra)). assert (PO := past_ones b t). assert (BT := pow_le b t Hb).
  assert (W : 0 <= long_run_weight a b t <= 1) by (unfold long_run_weight; nra).
  eapply Rle_trans; [apply Rabs_triang|]. rewrite !Rabs_mult, (Rabs_right a), (Rabs_right (long_run_weight a b t)) by lra. apply Rplus_le_compat; [|apply Rmult_le_compat_l; [exact Ha|exact P]].
  apply Rle_trans with (1 * Rabs (c - c')); [apply Rmult_le_compat_r; [apply Rabs_pos|lra]|lra].
Qed.
Lemma average_lower a b t c x l : 0 <= a -> 0 <= b -> a + b < 1 -> l <= c -> 0 <= l -> (forall j, 0 <= x j) -> l * ((1 - a - b) / (1 - b)) <= weighted_average a b t c x.
Proof.
  intros Ha Hb Hab Hl L0 Hx. unfold weighted_average. assert (PX := past_nonneg b t x Hb ltac:(intros; apply Hx)). assert (PN := past_nonneg b t (fun _ => 1) Hb ltac:(intros; lra)). assert (PO := past_ones b t). assert (BT := pow_le b t Hb).
  assert (PL : past b t (fun _ => 1) <= / (1 - b)) by (apply (Rmult_le_reg_l (1 - b)); [lra|]; rewrite Rinv_r by lra; lra).
  assert (W : (1 - a - b) / (1 - b) <= long_run_weight a b t).
  { unfold long_run_weight. replace ((1 - a - b) / (1 - b)) with (1 - a * / (1 - b)) by (field; lra). assert (a * past b t (fun _ => 1) <= a * / (1 - b)) by (apply Rmult_le_compat_l; assumption). lra. }
  assert (W0 : 0 <= (1 - a - b) / (1 - b)) by (apply Rmult_le_pos; [lra|apply Rlt_le, Rinv_0_lt_compat; lra]).
  assert (l * ((1 - a - b) / (1 - b)) <= c * long_run_weight a b t) by (apply Rmult_le_compat; assumption). assert (0 <= a * past b t x) by (apply Rmult_le_pos; assumption). lra.
Qed.
(** Two data sets whose standardized residuals agree from day u on: the conditional correlations of the later days differ by at most a multiple of
    the difference of the long-run matrices plus a term that decays like b^(t-u). *)
Theorem C143_forgetting : forall cpp a b r1 r2 s1 s2 r1' r2' s1' s2' u M e c,
  length r1 = length s1 -> length r2 = length s2 -> length r1 = length r2 -> positive s1 -> positive s2 ->
  length r1' = length s1' -> length r2' = length s2' -> length r1' = length r2' -> positive s1' -> positive s2' ->
  0 <= a -> 0 <= b -> a + b < 1 ->
  let z1 := zscores r1 s1 in let z2 := zscores r2 s2 in let z1' := zscores r1' s1' in let z2' := zscores r2' s2' in
  non_constant z1 -> non_constant z2 -> non_constant z1' -> non_constant z2' ->
  (forall j, (u <= j)%nat -> nth j z1 0 = nth j z1' 0 /\ nth j z2 0 = nth j z2' 0) ->
  (forall j, (j < u)%nat -> Rabs (nth j z1 0 ^ 2 - nth j z1' 0 ^ 2) <= M /\ Rabs (nth j z1 0 * nth j z2 0 - nth j z1' 0 * nth j z2' 0) <= M /\ Rabs (nth j z2 0 ^ 2 - nth j z2' 0 ^ 2) <= M) -> 0 <= M ->
  (let '(c11, c12, c22) := long_run cpp z1 z2 in let '(d11, d12, d22) := long_run cpp z1' z2' in
   0 < c /\ c <= c11 /\ c <= c22 /\ c <= d11 /\ c <= d22 /\ Rabs (c11 - d11) <= e /\ Rabs (c12 - d12) <= e /\ Rabs (c22 - d22) <= e) ->
  exists rho rho' : list R,
    cond_corr XRA cpp (Fin a) (Fin b) (map Fin r1) (map Fin r2) (map Fin s1) (map Fin s2) = Ok (map Fin rho) /\
    cond_corr XRA cpp (Fin a) (Fin b) (map Fin r1') (map Fin r2') (map Fin s1') (map Fin s2') = Ok (map Fin rho') /\
    length rho = length r1 /\ length rho' = length r1' /\
    forall t, (u <= t)%nat -> (t < length r1)%nat -> (t < length r1')%nat ->
      Rabs (nth t rho 0 - nth t rho' 0) <= 3 * ((1 - b) * e + a * M * b ^ (t - u)) / (c * (1 - a - b)).
Proof.
  intros cpp a b r1 r2 s1 s2 r1' r2' s1' s2' u M e c L1 L2 L12 P1 P2 L1' L2' L12' P1' P2' Ha Hb Hab z1 z2 z1' z2' N1 N2 N1' N2' HZ HM M0 HC.
  assert (HA : admissible a b) by (repeat split; auto; lra).
  assert (HL : length z1 = length z2) by (unfold z1, z2; rewrite !zscores_length by auto; auto). assert (HL1 : length z1 = length r1) by (unfold z1; apply zscores_length; auto).
  assert (HL' : length z1' = length z2') by (unfold z1', z2'; rewrite !zscores_length by auto; auto). assert (HL1' : length z1' = length r1') by (unfold z1'; apply zscores_length; auto).
  destruct (value cpp a b r1 r2 s1 s2 L1 L2 L12 P1 P2 HA N1 N2) as [HP E]. destruct (value cpp a b r1' r2' s1' s2' L1' L2' L12' P1' P2' HA N1' N2') as [HP' E']. fold z1 z2 in HP, E. fold z1' z2' in HP', E'.
  assert (HN : z1 <> []) by (intros X; apply non_constant_length in N1; rewrite X in N1; cbn in N1; lia). assert (HN' : z1' <> []) by (intros X; apply non_constant_length in N1'; rewrite X in N1'; cbn in N1'; lia).
  eexists _, _. split; [exact E|]. split; [exact E'|]. split; [rewrite dcc_correlations_length by auto; exact HL1|]. split; [rewrite dcc_correlations_length by auto; exact HL1'|].
  intros t Hu Ht Ht'. rewrite !path_at by (auto; lia).
  assert (HQ := matrix_pd a b _ z1 z2 t HL ltac:(lia) HA HP). assert (HQ' := matrix_pd a b _ z1' z2' t HL' ltac:(lia) HA HP').
  destruct (long_run cpp z1 z2) as [[c11 c12] c22], (long_run cpp z1' z2') as [[d11 d12] d22]. destruct HC as (C0 & C1 & C2 & C3 & C4 & D1 & D2 & D3).
  assert (E0 : 0 <= e) by (eapply Rle_trans; [apply Rabs_pos|exact D1]).
  assert (MP : 0 < c * ((1 - a - b) / (1 - b))) by (apply Rmult_lt_0_compat; [exact C0|apply Rmult_lt_0_compat; [lra|apply Rinv_0_lt_compat; lra]]).
  replace (3 * ((1 - b) * e + a * M * b ^ (t - u)) / (c * (1 - a - b))) with (3 * (e + a * (M * b ^ (t - u) / (1 - b))) / (c * ((1 - a - b) / (1 - b)))) by (field; lra).
  apply corr_lipschitz; [exact MP|exact HQ|exact HQ'| | | | | | |]; unfold matrix_at; cbn [fst snd];
    first [apply average_lower; auto; try lra; intros; apply pow2_ge_0 | apply average_difference; auto; intros j Hj; try (apply HM; exact Hj); destruct (HZ j Hj) as [Z1 Z2]; rewrite ?Z1, ?Z2; reflexivity].
Qed.
(** The Python backend, whose long-run matrix is the sample correlation matrix: the old days act through the sample correlation, which is shared
    by all days, and otherwise fade. *)
Corollary C143_python : forall a b r1 r2 s1 s2 r1' r2' s1' s2' u M,
  length r1 = length s1 -> length r2 = length s2 -> length r1 = length r2 -> positive s1 -> positive s2 ->
  length r1' = length s1' -> length r2' = length s2' -> length r1' = length r2' -> positive s1' -> positive s2' ->
  0 <= a -> 0 <= b -> a + b < 1 ->
  let z1 := zscores r1 s1 in let z2 := zscores r2 s2 in let z1' := zscores r1' s1' in let z2' := zscores r2' s2' in
  non_constant z1 -> non_constant z2 -> non_constant z1' -> non_constant z2' ->
  (forall j, (u <= j)%nat -> nth j z1 0 = nth j z1' 0 /\ nth j z2 0 = nth j z2' 0) ->
  (forall j, (j < u)%nat -> Rabs (nth j z1 0 ^ 2 - nth j z1' 0 ^ 2) <= M /\ Rabs (nth j z1 0 * nth j z2 0 - nth j z1' 0 * nth j z2' 0) <= M /\ Rabs (nth j z2 0 ^ 2 - nth j z2' 0 ^ 2) <= M) -> 0 <= M ->
  exists rho rho' : list R,
    cond_corr XRA false (Fin a) (Fin b) (map Fin r1) (map Fin r2) (map Fin s1) (map Fin s2) = Ok (map Fin rho) /\
    cond_corr XRA false (Fin a) (Fin b) (map Fin r1') (map Fin r2') (map Fin s1') (map Fin s2') = Ok (map Fin rho') /\
    forall t, (u <= t)%nat -> (t < length r1)%nat -> (t < length r1')%nat ->
      Rabs (nth t rho 0 - nth t rho' 0) <= 3 * ((1 - b) * Rabs (pearson z1 z2 - pearson z1' z2') + a * M * b ^ (t - u)) / (1 - a - b).
Proof.
  intros a b r1 r2 s1 s2 r1' r2' s1' s2' u M L1 L2 L12 P1 P2 L1' L2' L12' P1' P2' Ha Hb Hab z1 z2 z1' z2' N1 N2 N1' N2' HZ HM M0.
  destruct (C143_forgetting false a b r1 r2 s1 s2 r1' r2' s1' s2' u M (Rabs (pearson z1 z2 - pearson z1' z2')) 1 L1 L2 L12 P1 P2 L1' L2' L12' P1' P2' Ha Hb Hab N1 N2 N1' N2' HZ HM M0) as (rho & rho' & E & E' & _ & _ & H).
  - cbn [long_run]. assert (A := Rabs_pos (pearson z1 z2 - pearson z1' z2')). replace (1 - 1) with 0 by ring. rewrite Rabs_R0. repeat split; first [lra|apply Rle_refl].
  - exists rho, rho'. split; [exact E|]. split; [exact E'|]. intros t H1 H2 H3. assert (X := H t H1 H2 H3). rewrite Rmult_1_l in X. exact X.
Qed.
(** non-vacuity: five days, an outlier on the first one *)
Example C143_case : let s := [1; 1; 1; 1; 1] in let r1 := [1; -1; 2; 0; 1] in let r2 := [2; 1; -1; 0; 1] in let r1' := [4; -1; 2; 0; 1] in
  length r1 = length s /\ length r2 = length s /\ length r1' = length s /\ positive s /\
  non_constant (zscores r1 s) /\ non_constant (zscores r2 s) /\ non_constant (zscores r1' s) /\
  (forall j, (1 <= j)%nat -> nth j (zscores r1 s) 0 = nth j (zscores r1' s) 0 /\ nth j (zscores r2 s) 0 = nth j (zscores r2 s) 0) /\
  (forall j, (j < 1)%nat -> Rabs (nth j (zscores r1 s) 0 ^ 2 - nth j (zscores r1' s) 0 ^ 2) <= 15 /\ Rabs (nth j (zscores r1 s) 0 * nth j (zscores r2 s) 0 - nth j (zscores r1' s) 0 * nth j (zscores r2 s) 0) <= 15 /\
    Rabs (nth j (zscores r2 s) 0 ^ 2 - nth j (zscores r2 s) 0 ^ 2) <= 15) /\
  weighted_average (1/10) (8/10) 3 0 (fun j => nth j (zscores r1 s) 0 * nth j (zscores r2 s) 0) = 1/10 * ((8/10)^2 * 2 + 8/10 * -1 + -2).
Proof.
  cbn zeta. rewrite (zscores_unit [1; -1; 2; 0; 1] 5 eq_refl : zscores [1; -1; 2; 0; 1] [1; 1; 1; 1; 1] = _), (zscores_unit [2; 1; -1; 0; 1] 5 eq_refl : zscores [2; 1; -1; 0; 1] [1; 1; 1; 1; 1] = _), (zscores_unit [4; -1; 2; 0; 1] 5 eq_refl : zscores [4; -1; 2; 0; 1] [1; 1; 1; 1; 1] = _). split; [reflexivity|]. split; [reflexivity|]. split; [reflexivity|]. split; [repeat constructor; lra|].
  split; [exists 1, (-1); cbn; repeat split; auto; lra|]. split; [exists 2, 1; cbn; repeat split; auto; lra|]. split; [exists 4, (-1); cbn; repeat split; auto; lra|].
  split; [|split].
  - intros [|[|[|[|[|j]]]]] H; try lia; cbn; auto.
  - intros j H. assert (J : j = 0%nat) by lia. rewrite J. cbn. repeat split; apply Rabs_le; lra.
  - unfold weighted_average, past. cbn. ring.
Qed.
