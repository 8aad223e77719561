(** * Property C102: the interest-rate interpolation of ModMertonEmpirical_unobsbookF.m *)
From Coq Require Import Reals ZArith List Bool Arith Lia Lra.
From Verif Require Import Arith XR RealAux Model_garch Model_option Model_merton Model_simulation Model_matlab Model_matlab2 Props_ar Props_fftsmooth.
Import ListNotations.
Local Open Scope R_scope.

(** the a-th rate of the grid, a = 1, 2, ... *)
Definition grid_rate (minr h : R) (a : nat) : R := minr + INR (a - 1) * h.
(** a tent of width h around the grid rate, with its tip missing *)
Definition tent (minr h : R) (a : nat) (r : R) : R :=
  let t := Rabs (grid_rate minr h a - r) / h in if Req_EM_T (grid_rate minr h a) r then 0 else Rmax 0 (1 - t).

Theorem C102_weight : forall minr h a r, 0 < h -> m_weight XRA (Fin minr) (Fin h) a (Fin r) = Fin (tent minr h a r).
Proof.
  intros minr h a r Hh. unfold m_weight. rewrite ofN_fin. cbn [nadd nmul nsub ndiv nltb nleb ofZ nopp XRA xmul xadd xsub xopp]. rewrite xdiv_fin by lra.
  set (d := (minr + INR (a - 1) * h - r) / h). unfold tent, grid_rate. set (g := minr + INR (a - 1) * h) in *. cbv zeta.
  assert (Ed : g - r = d * h) by (unfold d; field; lra). rewrite Ed. rewrite Rabs_mult, (Rabs_right h) by lra. replace (Rabs d * h / h) with (Rabs d) by (field; lra).
  cbn [xltb xadd xsub]. unfold xleb; cbn. destruct (Req_EM_T g r) as [E|E].
  - assert (D0 : d = 0) by (unfold d; rewrite E; unfold Rdiv; rewrite Rminus_diag_eq by reflexivity; ring). rewrite D0.
    repeat match goal with |- context [Rlt_dec ?u ?v] => destruct (Rlt_dec u v); try (exfalso; lra) | |- context [Req_EM_T ?u ?v] => destruct (Req_EM_T u v); try (exfalso; lra) end. reflexivity.
  - assert (D0 : d <> 0) by (intros C; rewrite C in Ed; lra).
    repeat match goal with |- context [Rlt_dec ?u ?v] => destruct (Rlt_dec u v) | |- context [Req_EM_T ?u ?v] => destruct (Req_EM_T u v) end; cbn [xadd xsub orb]; try (exfalso; lra);
      f_equal; unfold Rmax; destruct (Rle_dec 0 (1 - Rabs d)) as [Q|Q]; unfold Rabs in *; destruct (Rcase_abs d); try (exfalso; lra); lra.
Qed.

Lemma interpolate_fin minr h vs r : 0 < h ->
  m_interpolate XRA (Fin minr) (Fin h) (length vs) (map Fin vs) (Fin r) = Fin (Rsum (map (fun i => nth i vs 0 * tent minr h (S i) r) (seq 0 (length vs)))).
Proof.
  intros Hh. unfold m_interpolate.
  assert (E : forall vs s, map2 (fun (v : xr) a => xmul v (m_weight XRA (Fin minr) (Fin h) a (Fin r))) (map Fin vs) (seq (S s) (length vs)) = map Fin (map (fun i => nth i vs 0 * tent minr h (S (s + i)) r) (seq 0 (length vs)))).
  { induction vs0 as [|v l IH]; intros s; [reflexivity|]. cbn [length seq map map2]. rewrite C102_weight by exact Hh. cbn [xmul nth]. rewrite Nat.add_0_r. f_equal. rewrite (IH (S s)). f_equal.
    rewrite <- seq_shift, map_map. apply map_ext. intros i. cbn [nth]. replace (S s + i)%nat with (s + S i)%nat by lia. reflexivity. }
  cbn [nmul XRA]. change (num XRA) with xr in *. rewrite (E vs 0%nat). rewrite asum_fin. reflexivity.
Qed.
Lemma sum_at (g : nat -> R) n k : (k < n)%nat -> (forall i, (i < n)%nat -> i <> k -> g i = 0) -> Rsum (map g (seq 0 n)) = g k.
Proof.
  intros Hk H0. rewrite <- (Rsum_delta g n k Hk). apply Rsum_map_ext. intros i Hi. apply in_seq in Hi. unfold delta. destruct (Nat.eqb_spec k i) as [->|N]; [ring|]. rewrite (H0 i) by (auto; lia). ring.
Qed.
Lemma grid_next minr h a : (1 <= a)%nat -> grid_rate minr h (S a) = grid_rate minr h a + h.
Proof. intros Ha. unfold grid_rate. replace (S a - 1)%nat with (S (a - 1)) by lia. rewrite S_INR. ring. Qed.
Lemma grid_far minr h a b : 0 < h -> (1 <= a)%nat -> (a < b)%nat -> grid_rate minr h a + h <= grid_rate minr h b.
Proof. intros Hh Ha Hb. unfold grid_rate. assert (INR (b - 1) >= INR (a - 1) + 1) by (rewrite <- S_INR; apply Rle_ge, le_INR; lia). nra. Qed.
Lemma tent_far minr h a r : 0 < h -> h <= Rabs (grid_rate minr h a - r) -> tent minr h a r = 0.
Proof.
  intros Hh H. unfold tent. destruct (Req_EM_T _ _); [reflexivity|]. cbv zeta. assert (1 <= Rabs (grid_rate minr h a - r) / h) by (apply Rmult_le_reg_r with h; [lra|]; replace (Rabs (grid_rate minr h a - r) / h * h) with (Rabs (grid_rate minr h a - r)) by (field; lra); lra).
  unfold Rmax. destruct (Rle_dec _ _); lra.
Qed.
Lemma tent_near minr h a r : 0 < h -> grid_rate minr h a <> r -> Rabs (grid_rate minr h a - r) <= h -> tent minr h a r = 1 - Rabs (grid_rate minr h a - r) / h.
Proof.
  intros Hh HN H. unfold tent. destruct (Req_EM_T _ _); [congruence|]. cbv zeta. assert (Rabs (grid_rate minr h a - r) / h <= 1) by (apply Rmult_le_reg_r with h; [lra|]; replace (Rabs (grid_rate minr h a - r) / h * h) with (Rabs (grid_rate minr h a - r)) by (field; lra); lra).
  unfold Rmax. destruct (Rle_dec _ _); lra.
Qed.
(** *** C102: strictly between two neighbouring grid rates the result is the linear interpolation of their two values *)
Theorem C102_between : forall minr h vs r a, 0 < h -> (1 <= a < length vs)%nat -> grid_rate minr h a < r < grid_rate minr h (S a) ->
  let t := (r - grid_rate minr h a) / h in
  0 < t < 1 /\ m_interpolate XRA (Fin minr) (Fin h) (length vs) (map Fin vs) (Fin r) = Fin ((1 - t) * nth (a - 1) vs 0 + t * nth a vs 0).
Proof.
  intros minr h vs r a Hh Ha Hr t. assert (GN := grid_next minr h a ltac:(lia)). assert (Ht : r - grid_rate minr h a = t * h) by (unfold t; field; lra). assert (T0 : 0 < t) by (unfold t; apply Rdiv_lt_0_compat; lra). assert (T1 : t < 1) by nra.
  split; [split; assumption|]. rewrite interpolate_fin by exact Hh. f_equal.
  assert (Z : forall i, (i < length vs)%nat -> i <> (a - 1)%nat -> i <> a -> tent minr h (S i) r = 0).
  { intros i Hi N1 N2. apply tent_far; [exact Hh|]. destruct (Nat.lt_ge_cases (S i) a) as [L|L].
    - assert (GF := grid_far minr h (S i) a Hh ltac:(lia) L). rewrite Rabs_left by lra. lra.
    - assert (GF := grid_far minr h (S a) (S i) Hh ltac:(lia) ltac:(lia)). rewrite Rabs_right by lra. lra. }
  assert (W1 : tent minr h (S (a - 1)) r = 1 - t).
  { replace (S (a - 1)) with a by lia. rewrite tent_near; [|exact Hh|lra|rewrite Rabs_left by lra; lra]. rewrite Rabs_left by lra. f_equal. unfold t. f_equal. ring. }
  assert (W2 : tent minr h (S a) r = t).
  { rewrite tent_near; [|exact Hh|lra|rewrite Rabs_right by lra; lra]. rewrite Rabs_right by lra. rewrite GN. unfold t. field. lra. }
  set (f := fun i => nth i vs 0 * tent minr h (S i) r).
  rewrite (Rsum_map_ext f (fun i => (if Nat.eqb i (a - 1) then f i else 0) + (if Nat.eqb i a then f i else 0))).
  - rewrite Rsum_plus. rewrite (sum_at _ _ (a - 1)%nat) by first [lia | intros i Hi Hn; cbv beta; destruct (Nat.eqb_spec i (a - 1)); [contradiction|reflexivity]].
    rewrite (sum_at _ _ a) by first [lia | intros i Hi Hn; cbv beta; destruct (Nat.eqb_spec i a); [contradiction|reflexivity]]. cbv beta. rewrite !Nat.eqb_refl. unfold f. rewrite W1, W2. ring.
  - intros i Hi. apply in_seq in Hi. unfold f. destruct (Nat.eqb_spec i (a - 1)) as [E1|N1], (Nat.eqb_spec i a) as [E2|N2]; try lia; try ring. rewrite (Z i) by (auto; lia). ring.
Qed.
(** hence an affine function of the rate is reproduced, in particular the weights add up to one *)
Corollary C102_affine : forall minr h n r a p s, 0 < h -> (1 <= a < n)%nat -> grid_rate minr h a < r < grid_rate minr h (S a) ->
  m_interpolate XRA (Fin minr) (Fin h) n (map (fun i => Fin (p + s * grid_rate minr h i)) (seq 1 n)) (Fin r) = Fin (p + s * r).
Proof.
  intros minr h n r a p s Hh Ha Hr. set (vs := map (fun i => p + s * grid_rate minr h i) (seq 1 n)). assert (LV : length vs = n) by (unfold vs; rewrite map_length, seq_length; reflexivity).
  assert (E : map (fun i => Fin (p + s * grid_rate minr h i)) (seq 1 n) = map Fin vs) by (unfold vs; rewrite map_map; reflexivity). change (num XRA) with xr in *. rewrite E, <- LV.
  destruct (C102_between minr h vs r a Hh ltac:(lia) Hr) as [_ ->]. f_equal.
  assert (NV : forall i, (i < n)%nat -> nth i vs 0 = p + s * grid_rate minr h (S i)).
  { intros i Hi. unfold vs. rewrite (nth_indep _ 0 ((fun i => p + s * grid_rate minr h i) 0%nat)) by (rewrite map_length, seq_length; exact Hi). rewrite (map_nth (fun i => p + s * grid_rate minr h i)), seq_nth by exact Hi. reflexivity. }
  rewrite !NV by lia. replace (S (a - 1)) with a by lia. rewrite (grid_next minr h a) by lia. field. lra.
Qed.
(** *** C102: AT a grid rate the result should be that rate's value; it is zero, whatever the values *)
Theorem C102_on_grid_refuted : forall minr h vs a, 0 < h -> (1 <= a)%nat ->
  m_interpolate XRA (Fin minr) (Fin h) (length vs) (map Fin vs) (Fin (grid_rate minr h a)) = Fin 0.
Proof.
  intros minr h vs a Hh Ha. rewrite interpolate_fin by exact Hh. f_equal. apply Rsum_zero_map. intros i Hi. apply in_seq in Hi.
  destruct (Nat.eq_dec (S i) a) as [E|N].
  - rewrite E. unfold tent. destruct (Req_EM_T _ _); [ring|congruence].
  - rewrite tent_far; [ring|exact Hh|]. destruct (Nat.lt_ge_cases (S i) a) as [L|L].
    + assert (GF := grid_far minr h (S i) a Hh ltac:(lia) L). rewrite Rabs_left by lra. lra.
    + assert (GF := grid_far minr h a (S i) Hh ltac:(lia) ltac:(lia)). rewrite Rabs_right by lra. lra.
Qed.
(** *** C102: outside the grid the results fade to zero within one step instead of being extrapolated *)
Theorem C102_below : forall minr h vs r, 0 < h -> vs <> [] -> r < minr ->
  m_interpolate XRA (Fin minr) (Fin h) (length vs) (map Fin vs) (Fin r) = Fin (Rmax 0 (1 - (minr - r) / h) * nth 0 vs 0).
Proof.
  intros minr h vs r Hh Hv Hr. rewrite interpolate_fin by exact Hh. f_equal. assert (G1 : grid_rate minr h 1 = minr) by (unfold grid_rate; simpl; ring).
  rewrite (sum_at _ _ 0%nat).
  - rewrite Rmult_comm. f_equal. unfold tent. rewrite G1. destruct (Req_EM_T minr r); [lra|]. cbv zeta. rewrite Rabs_right by lra. reflexivity.
  - destruct vs; [congruence|cbn; lia].
  - intros i Hi Hn. rewrite tent_far; [ring|exact Hh|]. assert (GF := grid_far minr h 1 (S i) Hh ltac:(lia) ltac:(lia)). rewrite Rabs_right by lra. lra.
Qed.
Theorem C102_above : forall minr h vs r, 0 < h -> vs <> [] -> let maxr := grid_rate minr h (length vs) in maxr < r ->
  m_interpolate XRA (Fin minr) (Fin h) (length vs) (map Fin vs) (Fin r) = Fin (Rmax 0 (1 - (r - maxr) / h) * last vs 0).
Proof.
  intros minr h vs r Hh Hv maxr Hr. rewrite interpolate_fin by exact Hh. f_equal. assert (LP : (0 < length vs)%nat) by (destruct vs; [congruence|cbn; lia]).
  rewrite (sum_at _ _ (length vs - 1)%nat).
  - rewrite Rmult_comm. f_equal.
    + unfold tent. replace (S (length vs - 1)) with (length vs) by lia. fold maxr. destruct (Req_EM_T maxr r); [lra|]. cbv zeta. rewrite Rabs_left by lra. do 2 f_equal. f_equal. ring.
    + clear -Hv. induction vs as [|v l IH]; [congruence|]. destruct l as [|v' l]; [reflexivity|]. change (last (v :: v' :: l) 0) with (last (v' :: l) 0). rewrite <- IH by discriminate. cbn [length]. replace (S (S (length l)) - 1)%nat with (S (S (length l) - 1)) by lia. reflexivity.
  - lia.
  - intros i Hi Hn. rewrite tent_far; [ring|exact Hh|]. assert (GF := grid_far minr h (S i) (length vs) Hh ltac:(lia) ltac:(lia)). fold maxr in GF. rewrite Rabs_left by lra. lra.
Qed.
(** *** C102: a NaN at ANY grid rate - also one without weight - makes the result NaN (the inversion returns NaN outside the convex hull) *)
Theorem C102_nan : forall minr h (vs : list xr) n r, length vs = n -> In NaN vs -> m_interpolate XRA minr h n vs r = NaN.
Proof.
  intros minr h vs n r HL HI. unfold m_interpolate. cbn [asum nmul XRA].
  assert (AN : forall l a, fold_left xadd l a = NaN \/ (~ In NaN l /\ a <> NaN)).
  { induction l as [|x l IH]; intros a; cbn [fold_left].
    - destruct a; try (right; split; [intros []|discriminate]). left. reflexivity.
    - destruct (IH (xadd a x)) as [E|[N1 N2]]; [left; exact E|]. right. split.
      + intros [->|H]; [|contradiction]. apply N2. destruct a; reflexivity.
      + intros ->. apply N2. reflexivity. }
  match goal with |- fold_left _ ?l ?a = _ => destruct (AN l a) as [E|[N _]]; [exact E|exfalso; apply N] end. clear AN N.
  subst n. generalize 1%nat. induction vs as [|v l IH]; [destruct HI|]. intros s. cbn [length seq map2]. destruct HI as [->|HI]; [left; reflexivity|right; apply IH; exact HI].
Qed.
(** 21 rates from 0 to 10%: at 1% with all values 5 the answer is 0, at 1.1% it is 5, and below zero it fades *)
Example C102_case : let vs := repeat 5 21 in
  m_interpolate XRA (Fin 0) (Fin (5/1000)) 21 (map Fin vs) (Fin (grid_rate 0 (5/1000) 3)) = Fin 0 /\ grid_rate 0 (5/1000) 3 = 1/100 /\
  m_interpolate XRA (Fin 0) (Fin (5/1000)) 21 (map Fin vs) (Fin (11/1000)) = Fin 5.
Proof.
  cbv zeta. split; [|split].
  - apply (C102_on_grid_refuted 0 (5/1000) (repeat 5 21) 3); [lra|lia].
  - unfold grid_rate. simpl. lra.
  - destruct (C102_between 0 (5/1000) (repeat 5 21) (11/1000) 3) as [_ E]; [lra|cbn; lia|unfold grid_rate; simpl; lra|].
    change (length (repeat 5 21)) with 21%nat in E. rewrite E. f_equal. cbn [repeat nth Nat.sub]. ring.
Qed.
