(** * Theorems: units, signs and order of the two series in the CCC and DCC models (C121) *)
From Coq Require Import Reals Lra ZArith List Bool Arith Lia Psatz.
From Verif Require Import Arith XR RealAux Model_garch Spec_garch Proofs_garch2 Proofs_garch3 Model_ar Props_ar Model_mgarch Props_mgarch Props_garch3.
Import ListNotations.
Local Open Scope R_scope.

(** the sign of a unit: +1 or -1 *)
Definition sg (c : R) : R := if Rlt_dec c 0 then -1 else 1.
Lemma sg_sq c : sg c * sg c = 1.
Proof. unfold sg. destruct (Rlt_dec c 0); ring. Qed.
Lemma sg_abs c : c = sg c * Rabs c.
Proof. unfold sg. destruct (Rlt_dec c 0); [rewrite Rabs_left by lra|rewrite Rabs_right by lra]; ring. Qed.
(** multiplying residuals by c and variances by c^2 multiplies the standardized residuals by the sign of c *)
Lemma zscores_scale c r s : c <> 0 -> positive s -> zscores (scale c r) (scale (c ^ 2) s) = scale (sg c) (zscores r s).
Proof.
  intros Hc. revert s. induction r as [|x r IH]; intros [|v s] HP; try reflexivity. inversion HP; subst.
  unfold zscores, scale in *. cbn [map map2]. f_equal; [|apply IH; auto].
  assert (Q : 0 < sqrt v) by (apply sqrt_lt_R0; auto).
  assert (E : sqrt (c ^ 2 * v) = Rabs c * sqrt v).
  { rewrite sqrt_mult by (try lra; apply pow2_ge_0). f_equal. replace (c ^ 2) with (Rsqr c) by (unfold Rsqr; ring). apply sqrt_Rsqr_abs. }
  rewrite E. assert (A : 0 < Rabs c) by (apply Rabs_pos_lt; auto). rewrite (sg_abs c) at 1. field. lra.
Qed.
Lemma scale_positive c s : c <> 0 -> positive s -> positive (scale (c ^ 2) s).
Proof.
  intros Hc H. unfold positive, scale. apply Forall_map. eapply Forall_impl; [|exact H]. intros v Hv. cbv beta in *.
  apply Rmult_lt_0_compat; auto. apply pow2_pos; auto.
Qed.
Lemma combine_scale e f z1 z2 : combine (scale e z1) (scale f z2) = map (fun z => (e * fst z, f * snd z)) (combine z1 z2).
Proof. revert z2. induction z1 as [|x z1 IH]; intros [|y z2]; try reflexivity. unfold scale in *. cbn [map combine fst snd]. f_equal. apply IH. Qed.
(** the recursion under a change of signs *)
Definition flip (e f : R) (Q : Q3) : Q3 := let '(q11, q12, q22) := Q in (q11, e * f * q12, q22).
Lemma Qpath_flip a b e f Qb zs : e * e = 1 -> f * f = 1 -> forall Q,
  Qpath a b (flip e f Qb) (flip e f Q) (map (fun z => (e * fst z, f * snd z)) zs) = map (flip e f) (Qpath a b Qb Q zs).
Proof.
  intros He Hf. induction zs as [|[x y] zs IH]; intros Q; [reflexivity|]. cbn [map Qpath fst snd].
  assert (E : Qnext a b (flip e f Qb) (flip e f Q) (e * x, f * y) = flip e f (Qnext a b Qb Q (x, y))).
  { destruct Qb as [[b11 b12] b22], Q as [[q11 q12] q22]. cbn [flip Qnext].
    replace ((e * x) ^ 2) with (e * e * x ^ 2) by ring. replace ((f * y) ^ 2) with (f * f * y ^ 2) by ring. rewrite He, Hf.
    f_equal; [f_equal|]; ring. }
  rewrite E, IH. reflexivity.
Qed.
Lemma corr_flip e f Q : corr_of (flip e f Q) = e * f * corr_of Q.
Proof. destruct Q as [[q11 q12] q22]. cbn. unfold Rdiv. ring. Qed.
Lemma dcc_flip a b e f Qb z1 z2 : e * e = 1 -> f * f = 1 ->
  dcc_correlations a b (flip e f Qb) (scale e z1) (scale f z2) = scale (e * f) (dcc_correlations a b Qb z1 z2).
Proof.
  intros He Hf. unfold dcc_correlations, scale at 3. rewrite combine_scale, (removelast_map (fun z : R * R => (e * fst z, f * snd z))), Qpath_flip by auto.
  cbn [map]. rewrite corr_flip. f_equal. rewrite !map_map. apply map_ext. apply corr_flip.
Qed.
(** targets *)
Lemma moment2_scale e f x y : moment2 (scale e x) (scale f y) = e * f * moment2 x y.
Proof.
  unfold moment2. rewrite scale_length. replace (Rsum (map2 Rmult (scale e x) (scale f y))) with (e * f * Rsum (map2 Rmult x y)); [unfold Rdiv; ring|].
  revert y. induction x as [|u x IH]; intros [|v y]; unfold scale in *; cbn [map map2 Rsum]; try ring. rewrite <- IH. ring.
Qed.
Lemma covar_scale e f x y : covar (scale e x) (scale f y) = e * f * covar x y.
Proof.
  unfold covar. rewrite scale_length, !Rmean_scale.
  set (m := Rmean x). set (n := Rmean y). clearbody m n.
  match goal with |- Rsum ?L / ?N = _ * (Rsum ?K / _) => replace (Rsum L) with (e * f * Rsum K); [unfold Rdiv; ring|] end.
  revert y. induction x as [|u x IH]; intros [|v y]; unfold scale in *; cbn [map map2 Rsum]; try ring. rewrite <- IH. ring.
Qed.
Lemma pearson_flip e f x y : e * e = 1 -> f * f = 1 -> pearson (scale e x) (scale f y) = e * f * pearson x y.
Proof. intros He Hf. unfold pearson. rewrite !covar_scale, He, Hf, !Rmult_1_l. unfold Rdiv. ring. Qed.
Lemma non_constant_scale c x : c <> 0 -> non_constant x -> non_constant (scale c x).
Proof.
  intros Hc (a & b & Ha & Hb & Hne). exists (c * a), (c * b). split; [apply in_map_iff; eauto|]. split; [apply in_map_iff; eauto|].
  intros E. apply Hne. apply (Rmult_eq_reg_l c); auto.
Qed.
Lemma sg_nz c : sg c <> 0.
Proof. unfold sg. destruct (Rlt_dec c 0); lra. Qed.

(** ** C121: conditional correlations do not depend on the units of the residuals; a negative unit reflects them *)
Theorem C121_correlations_unit_free : forall cpp a b r1 r2 s1 s2 c1 c2,
  length r1 = length s1 -> length r2 = length s2 -> length r1 = length r2 -> positive s1 -> positive s2 ->
  0 <= a -> 0 <= b -> a + b <= 1 -> ~ (a = 1 /\ b = 0) ->
  non_constant (zscores r1 s1) -> non_constant (zscores r2 s2) -> c1 <> 0 -> c2 <> 0 ->
  exists rho : list R,
    cond_corr XRA cpp (Fin a) (Fin b) (map Fin r1) (map Fin r2) (map Fin s1) (map Fin s2) = Ok (map Fin rho) /\
    cond_corr XRA cpp (Fin a) (Fin b) (map Fin (scale c1 r1)) (map Fin (scale c2 r2)) (map Fin (scale (c1 ^ 2) s1)) (map Fin (scale (c2 ^ 2) s2))
      = Ok (map Fin (scale (sg c1 * sg c2) rho)).
Proof.
  intros cpp a b r1 r2 s1 s2 c1 c2 L1 L2 L12 P1 P2 Ha Hb Hab Hne N1 N2 H1 H2. assert (HA : Props_mgarch.admissible a b) by (repeat split; auto).
  assert (Z1 := zscores_scale c1 r1 s1 H1 P1). assert (Z2 := zscores_scale c2 r2 s2 H2 P2).
  assert (M1 : non_constant (zscores (scale c1 r1) (scale (c1 ^ 2) s1))) by (rewrite Z1; apply non_constant_scale; auto; apply sg_nz).
  assert (M2 : non_constant (zscores (scale c2 r2) (scale (c2 ^ 2) s2))) by (rewrite Z2; apply non_constant_scale; auto; apply sg_nz).
  assert (Q1 := scale_positive c1 s1 H1 P1). assert (Q2 := scale_positive c2 s2 H2 P2).
  assert (S1 := sg_sq c1). assert (S2 := sg_sq c2).
  assert (K1 : length (scale c1 r1) = length (scale (c1 ^ 2) s1)) by (rewrite !scale_length; auto).
  assert (K2 : length (scale c2 r2) = length (scale (c2 ^ 2) s2)) by (rewrite !scale_length; auto).
  assert (K12 : length (scale c1 r1) = length (scale c2 r2)) by (rewrite !scale_length; auto).
  destruct cpp; cbn [cond_corr].
  - destruct (cond_corr_cpp_value a b r1 r2 s1 s2 L1 L2 L12 P1 P2 HA (non_constant_non_zero _ N1) (non_constant_non_zero _ N2)) as (_ & E).
    destruct (cond_corr_cpp_value a b _ _ _ _ K1 K2 K12 Q1 Q2 HA (non_constant_non_zero _ M1) (non_constant_non_zero _ M2)) as (_ & F).
    eexists. split; [exact E|]. change (num XRA) with xr in *. rewrite F, Z1, Z2. f_equal. f_equal. rewrite !moment2_scale, S1, S2, !Rmult_1_l.
    apply (dcc_flip a b (sg c1) (sg c2) (moment2 (zscores r1 s1) (zscores r1 s1), moment2 (zscores r1 s1) (zscores r2 s2), moment2 (zscores r2 s2) (zscores r2 s2))); auto.
  - destruct (cond_corr_py_value a b r1 r2 s1 s2 L1 L2 L12 P1 P2 HA N1 N2) as (_ & E).
    destruct (cond_corr_py_value a b _ _ _ _ K1 K2 K12 Q1 Q2 HA M1 M2) as (_ & F).
    eexists. split; [exact E|]. change (num XRA) with xr in *. rewrite F, Z1, Z2. f_equal. f_equal. rewrite pearson_flip by auto.
    apply (dcc_flip a b (sg c1) (sg c2) (1, pearson (zscores r1 s1) (zscores r2 s2), 1)); auto.
Qed.

(** ** C121: nor on which series comes first *)
Definition swap (Q : Q3) : Q3 := let '(q11, q12, q22) := Q in (q22, q12, q11).
Lemma combine_swap {X Y} (x : list X) (y : list Y) : combine y x = map (fun z => (snd z, fst z)) (combine x y).
Proof. revert y. induction x as [|u x IH]; intros [|v y]; cbn [combine map fst snd]; auto. f_equal. apply IH. Qed.
Lemma Qpath_swap a b Qb zs : forall Q, Qpath a b (swap Qb) (swap Q) (map (fun z => (snd z, fst z)) zs) = map swap (Qpath a b Qb Q zs).
Proof.
  induction zs as [|[x y] zs IH]; intros Q; [reflexivity|]. cbn [map Qpath fst snd].
  assert (E : Qnext a b (swap Qb) (swap Q) (y, x) = swap (Qnext a b Qb Q (x, y))).
  { destruct Qb as [[b11 b12] b22], Q as [[q11 q12] q22]. cbn [swap Qnext]. apply f_equal2; [apply f_equal2|]; ring. }
  rewrite E, IH. reflexivity.
Qed.
Lemma dcc_swap a b Qb z1 z2 : dcc_correlations a b (swap Qb) z2 z1 = dcc_correlations a b Qb z1 z2.
Proof.
  assert (C : forall Q, corr_of (swap Q) = corr_of Q) by (intros [[q11 q12] q22]; cbn; rewrite (Rmult_comm q22); reflexivity).
  unfold dcc_correlations. rewrite (combine_swap z1 z2), (removelast_map (fun z : R * R => (snd z, fst z))), Qpath_swap.
  cbn [map]. rewrite C. f_equal. rewrite map_map. apply map_ext. apply C.
Qed.
Lemma moment2_sym x y : length x = length y -> moment2 x y = moment2 y x.
Proof. intros H. unfold moment2. rewrite H. f_equal. revert y H. induction x as [|u x IH]; intros [|v y] H; cbn in *; try discriminate; auto. rewrite IH by lia. ring. Qed.
Lemma pearson_sym x y : length x = length y -> pearson x y = pearson y x.
Proof.
  intros H. unfold pearson. rewrite (Rmult_comm (covar y y)). f_equal. unfold covar. rewrite H. f_equal.
  generalize (Rmean x), (Rmean y). intros m n. revert y H. induction x as [|u x IH]; intros [|v y] H; cbn in *; try discriminate; auto. rewrite IH by lia. ring.
Qed.
Theorem C121_correlations_symmetric : forall cpp a b r1 r2 s1 s2,
  length r1 = length s1 -> length r2 = length s2 -> length r1 = length r2 -> positive s1 -> positive s2 ->
  0 <= a -> 0 <= b -> a + b <= 1 -> ~ (a = 1 /\ b = 0) ->
  non_constant (zscores r1 s1) -> non_constant (zscores r2 s2) ->
  cond_corr XRA cpp (Fin a) (Fin b) (map Fin r2) (map Fin r1) (map Fin s2) (map Fin s1) =
  cond_corr XRA cpp (Fin a) (Fin b) (map Fin r1) (map Fin r2) (map Fin s1) (map Fin s2).
Proof.
  intros cpp a b r1 r2 s1 s2 L1 L2 L12 P1 P2 Ha Hb Hab Hne N1 N2. assert (HA : Props_mgarch.admissible a b) by (repeat split; auto).
  assert (HL : length (zscores r1 s1) = length (zscores r2 s2)) by (rewrite !zscores_length by auto; auto).
  destruct cpp; cbn [cond_corr].
  - destruct (cond_corr_cpp_value a b r1 r2 s1 s2 L1 L2 L12 P1 P2 HA (non_constant_non_zero _ N1) (non_constant_non_zero _ N2)) as (_ & E).
    destruct (cond_corr_cpp_value a b r2 r1 s2 s1 L2 L1 (eq_sym L12) P2 P1 HA (non_constant_non_zero _ N2) (non_constant_non_zero _ N1)) as (_ & F).
    change (num XRA) with xr in *. rewrite E, F. f_equal. f_equal. rewrite (moment2_sym (zscores r2 s2) (zscores r1 s1)) by auto.
    apply (dcc_swap a b (moment2 (zscores r1 s1) (zscores r1 s1), moment2 (zscores r1 s1) (zscores r2 s2), moment2 (zscores r2 s2) (zscores r2 s2))).
  - destruct (cond_corr_py_value a b r1 r2 s1 s2 L1 L2 L12 P1 P2 HA N1 N2) as (_ & E).
    destruct (cond_corr_py_value a b r2 r1 s2 s1 L2 L1 (eq_sym L12) P2 P1 HA N2 N1) as (_ & F).
    change (num XRA) with xr in *. rewrite E, F. f_equal. f_equal. rewrite (pearson_sym (zscores r2 s2) (zscores r1 s1)) by auto.
    apply (dcc_swap a b (1, pearson (zscores r1 s1) (zscores r2 s2), 1)).
Qed.

(** ** C121: likelihoods *)
Lemma bivariate_scale c1 c2 v w rho x y : c1 <> 0 -> c2 <> 0 -> 0 < v -> 0 < w -> rho * rho < 1 ->
  ln (bivariate_density (c1 ^ 2 * v) (c2 ^ 2 * w) (sg c1 * sg c2 * rho) (c1 * x) (c2 * y)) = ln (bivariate_density v w rho x y) - ln (Rabs c1) - ln (Rabs c2).
Proof.
  intros H1 H2 Hv Hw Hr. assert (G1 := pow2_pos c1 H1). assert (G2 := pow2_pos c2 H2).
  assert (S1 := sg_sq c1). assert (S2 := sg_sq c2).
  assert (RR : sg c1 * sg c2 * rho * (sg c1 * sg c2 * rho) = rho * rho).
  { replace (sg c1 * sg c2 * rho * (sg c1 * sg c2 * rho)) with (sg c1 * sg c1 * (sg c2 * sg c2) * (rho * rho)) by ring. rewrite S1, S2. ring. }
  rewrite !ln_bivariate by (auto; try (apply Rmult_lt_0_compat; auto); rewrite ?RR; auto).
  assert (A1 : 0 < Rabs c1) by (apply Rabs_pos_lt; auto). assert (A2 : 0 < Rabs c2) by (apply Rabs_pos_lt; auto).
  assert (SQ : forall c v, c <> 0 -> 0 < v -> sqrt (c ^ 2 * v) = Rabs c * sqrt v).
  { clear. intros c v Hc Hv. rewrite sqrt_mult by (try lra; apply pow2_ge_0). f_equal. replace (c ^ 2) with (Rsqr c) by (unfold Rsqr; ring). apply sqrt_Rsqr_abs. }
  assert (Qv : 0 < sqrt v) by (apply sqrt_lt_R0; auto). assert (Qw : 0 < sqrt w) by (apply sqrt_lt_R0; auto).
  rewrite !SQ by auto.
  replace (c1 * x / (Rabs c1 * sqrt v)) with (sg c1 * (x / sqrt v)) by (rewrite (sg_abs c1) at 2; field; lra).
  replace (c2 * y / (Rabs c2 * sqrt w)) with (sg c2 * (y / sqrt w)) by (rewrite (sg_abs c2) at 2; field; lra).
  rewrite RR.
  replace (c1 ^ 2 * v * (c2 ^ 2 * w) * (1 - rho * rho)) with ((Rabs c1 * Rabs c1) * (Rabs c2 * Rabs c2) * (v * w * (1 - rho * rho))).
  2:{ replace (c1 ^ 2) with (Rabs c1 * Rabs c1) by (rewrite <- Rabs_mult, Rabs_right; [ring|apply Rle_ge; nra]).
      replace (c2 ^ 2) with (Rabs c2 * Rabs c2) by (rewrite <- Rabs_mult, Rabs_right; [ring|apply Rle_ge; nra]). ring. }
  assert (HD : 0 < v * w * (1 - rho * rho)) by (apply Rmult_lt_0_compat; [apply Rmult_lt_0_compat; auto|lra]).
  rewrite (ln_mult (Rabs c1 * Rabs c1 * (Rabs c2 * Rabs c2))), (ln_mult (Rabs c1 * Rabs c1)), (ln_mult (Rabs c1)), (ln_mult (Rabs c2)) by (auto; repeat apply Rmult_lt_0_compat; auto).
  set (X := x / sqrt v). set (Y := y / sqrt w).
  replace (sg c1 * X * (sg c1 * X) + sg c2 * Y * (sg c2 * Y) - 2 * (sg c1 * sg c2 * rho) * (sg c1 * X) * (sg c2 * Y))
    with (sg c1 * sg c1 * (X * X) + sg c2 * sg c2 * (Y * Y) - 2 * (sg c1 * sg c1) * (sg c2 * sg c2) * rho * X * Y) by ring.
  rewrite S1, S2. field. lra.
Qed.
Lemma sum4_scale c1 c2 rho r1 s1 r2 s2 : c1 <> 0 -> c2 <> 0 -> rho * rho < 1 ->
  length r1 = length s1 -> length r2 = length s2 -> length r1 = length r2 -> positive s1 -> positive s2 ->
  sum4 (fun x v y w => ln (bivariate_density v w (sg c1 * sg c2 * rho) x y)) (scale c1 r1) (scale (c1 ^ 2) s1) (scale c2 r2) (scale (c2 ^ 2) s2) =
  sum4 (fun x v y w => ln (bivariate_density v w rho x y)) r1 s1 r2 s2 - INR (length r1) * (ln (Rabs c1) + ln (Rabs c2)).
Proof.
  intros H1 H2 Hr. unfold sum4. revert s1 r2 s2. induction r1 as [|x r1 IH]; intros [|v s1] [|y r2] [|w s2] L1 L2 L12 P1 P2; cbn [length] in *; try discriminate; [cbn; ring|].
  inversion P1; inversion P2; subst. rewrite S_INR. unfold scale in *. cbn [map combine map2 Rsum fst snd].
  rewrite bivariate_scale by auto. rewrite IH by (auto; lia). ring.
Qed.
(** the CCC log-likelihood: the constant of a change of variables, whatever the correlation *)
Theorem C121_ccc_likelihood_units : forall rho r1 s1 r2 s2 c1 c2,
  length r1 = length s1 -> length r2 = length s2 -> length r1 = length r2 -> positive s1 -> positive s2 -> -1 < rho < 1 -> c1 <> 0 -> c2 <> 0 ->
  exists l, ccc_loglikelihood XRA (map Fin r1) (map Fin s1) (map Fin r2) (map Fin s2) (Fin rho) = Fin l /\
  ccc_loglikelihood XRA (map Fin (scale c1 r1)) (map Fin (scale (c1 ^ 2) s1)) (map Fin (scale c2 r2)) (map Fin (scale (c2 ^ 2) s2)) (Fin (sg c1 * sg c2 * rho))
    = Fin (l - INR (length r1) * (ln (Rabs c1) + ln (Rabs c2))).
Proof.
  intros rho r1 s1 r2 s2 c1 c2 L1 L2 L12 P1 P2 Hr H1 H2. assert (HR : rho * rho < 1) by nra.
  assert (RR : sg c1 * sg c2 * rho * (sg c1 * sg c2 * rho) < 1).
  { replace (sg c1 * sg c2 * rho * (sg c1 * sg c2 * rho)) with (sg c1 * sg c1 * (sg c2 * sg c2) * (rho * rho)) by ring. rewrite !sg_sq. lra. }
  eexists. split; [apply ccc_fin; auto|]. rewrite ccc_fin by (auto using scale_positive). f_equal. apply sum4_scale; auto.
Qed.
(** the two-step DCC log-likelihood, at the correlations of either unit *)
Lemma clip99_sign e c : e * e = 1 -> clip99 (e * c) = e * clip99 c.
Proof.
  intros He. assert (D : e = 1 \/ e = -1) by (assert ((e - 1) * (e + 1) = 0) by lra; apply Rmult_integral in H as [H|H]; lra).
  unfold clip99, Rmax, Rmin. destruct D as [-> | ->]; repeat destruct (Rle_dec _ _); lra.
Qed.
Lemma sum5_scale c1 c2 rho r1 s1 r2 s2 : c1 <> 0 -> c2 <> 0 ->
  length r1 = length s1 -> length r2 = length s2 -> length r1 = length r2 -> length rho = length r1 -> positive s1 -> positive s2 ->
  sum5 (fun c x v y w => ln (bivariate_density v w (clip99 c) x y)) (scale (sg c1 * sg c2) rho) (scale c1 r1) (scale (c1 ^ 2) s1) (scale c2 r2) (scale (c2 ^ 2) s2) =
  sum5 (fun c x v y w => ln (bivariate_density v w (clip99 c) x y)) rho r1 s1 r2 s2 - INR (length r1) * (ln (Rabs c1) + ln (Rabs c2)).
Proof.
  intros H1 H2. unfold sum5. revert rho s1 r2 s2.
  induction r1 as [|x r1 IH]; intros [|c rho] [|v s1] [|y r2] [|w s2] L1 L2 L12 LR P1 P2; cbn [length] in *; try discriminate; [cbn; ring|].
  inversion P1; inversion P2; subst. rewrite S_INR. unfold scale in *. cbn [map combine map2 Rsum fst snd].
  rewrite clip99_sign by (replace (sg c1 * sg c2 * (sg c1 * sg c2)) with (sg c1 * sg c1 * (sg c2 * sg c2)) by ring; rewrite !sg_sq; ring).
  rewrite bivariate_scale by (auto; apply clip99_range). rewrite IH by (auto; lia). ring.
Qed.
Theorem C121_dcc_objective_units : forall cpp a b r1 r2 s1 s2 c1 c2,
  length r1 = length s1 -> length r2 = length s2 -> length r1 = length r2 -> positive s1 -> positive s2 ->
  0 <= a -> 0 <= b -> a + b <= 1 -> ~ (a = 1 /\ b = 0) ->
  non_constant (zscores r1 s1) -> non_constant (zscores r2 s2) -> c1 <> 0 -> c2 <> 0 ->
  let objective (r1 r2 s1 s2 : list R) :=
    do rho <- cond_corr XRA cpp (Fin a) (Fin b) (map Fin r1) (map Fin r2) (map Fin s1) (map Fin s2);
    Ok (dcc_negative_loglik XRA (loglikelihood XRA (map Fin r1) (map Fin s1)) (loglikelihood XRA (map Fin r2) (map Fin s2)) rho
          (standardize XRA (map Fin r1) (map Fin s1)) (standardize XRA (map Fin r2) (map Fin s2))) in
  exists l, objective r1 r2 s1 s2 = Ok (Fin l) /\
  objective (scale c1 r1) (scale c2 r2) (scale (c1 ^ 2) s1) (scale (c2 ^ 2) s2) = Ok (Fin (l + INR (length r1) * (ln (Rabs c1) + ln (Rabs c2)))).
Proof.
  intros cpp a b r1 r2 s1 s2 c1 c2 L1 L2 L12 P1 P2 Ha Hb Hab Hne N1 N2 H1 H2. cbn zeta.
  destruct (C121_correlations_unit_free cpp a b r1 r2 s1 s2 c1 c2 L1 L2 L12 P1 P2 Ha Hb Hab Hne N1 N2 H1 H2) as (rho & E & F).
  destruct (C15_conditional_correlations_in_range cpp a b r1 r2 s1 s2 L1 L2 L12 P1 P2 Ha Hb Hab Hne N1 N2) as (rho' & E' & LR & _).
  change (num XRA) with xr in *. rewrite E in E'. injection E' as E'.
  assert (LR' : length rho = length r1) by (rewrite <- LR, <- (map_length Fin rho), E', map_length; reflexivity).
  rewrite E, F. cbn [bind].
  eexists. split; [f_equal; apply C18_two_step_loglik_is_the_bivariate_one; auto|].
  f_equal. refine (eq_trans (C18_two_step_loglik_is_the_bivariate_one _ _ _ _ _ _ _ _ _ _ _) _);
    rewrite ?scale_length; auto using scale_positive.
  f_equal. rewrite sum5_scale by auto. ring.
Qed.
(** so a different unit never changes which (a, b) the optimizer prefers *)
Corollary C121_same_preference : forall cpp a b a' b' r1 r2 s1 s2 c1 c2,
  length r1 = length s1 -> length r2 = length s2 -> length r1 = length r2 -> positive s1 -> positive s2 ->
  0 <= a -> 0 <= b -> a + b <= 1 -> ~ (a = 1 /\ b = 0) -> 0 <= a' -> 0 <= b' -> a' + b' <= 1 -> ~ (a' = 1 /\ b' = 0) ->
  non_constant (zscores r1 s1) -> non_constant (zscores r2 s2) -> c1 <> 0 -> c2 <> 0 ->
  let objective (a b : R) (r1 r2 s1 s2 : list R) :=
    do rho <- cond_corr XRA cpp (Fin a) (Fin b) (map Fin r1) (map Fin r2) (map Fin s1) (map Fin s2);
    Ok (dcc_negative_loglik XRA (loglikelihood XRA (map Fin r1) (map Fin s1)) (loglikelihood XRA (map Fin r2) (map Fin s2)) rho
          (standardize XRA (map Fin r1) (map Fin s1)) (standardize XRA (map Fin r2) (map Fin s2))) in
  exists l l' m m', objective a b r1 r2 s1 s2 = Ok (Fin l) /\ objective a' b' r1 r2 s1 s2 = Ok (Fin l') /\
    objective a b (scale c1 r1) (scale c2 r2) (scale (c1 ^ 2) s1) (scale (c2 ^ 2) s2) = Ok (Fin m) /\
    objective a' b' (scale c1 r1) (scale c2 r2) (scale (c1 ^ 2) s1) (scale (c2 ^ 2) s2) = Ok (Fin m') /\
    (l < l' <-> m < m').
Proof.
  intros cpp a b a' b' r1 r2 s1 s2 c1 c2 L1 L2 L12 P1 P2 Ha Hb Hab Hne Ha' Hb' Hab' Hne' N1 N2 H1 H2. cbn zeta.
  destruct (C121_dcc_objective_units cpp a b r1 r2 s1 s2 c1 c2) as (l & E1 & E2); auto.
  destruct (C121_dcc_objective_units cpp a' b' r1 r2 s1 s2 c1 c2) as (l' & E3 & E4); auto.
  exists l, l'. do 2 eexists. split; [exact E1|]. split; [exact E3|]. split; [exact E2|]. split; [exact E4|]. lra.
Qed.
(** the hypotheses are met; the second series in percent, the first with its sign changed *)
Example C121_case : let r1 := [1; -1; 2] in let r2 := [1; 1; -1] in let s := [1; 4; 1] in
  length r1 = length s /\ length r1 = length r2 /\ positive s /\ non_constant (zscores r1 s) /\ non_constant (zscores r2 s) /\ sg (-1) * sg 100 = -1 /\
  0 <= 1 / 10 /\ 0 <= 8 / 10 /\ 1 / 10 + 8 / 10 <= 1.
Proof.
  cbn zeta. split; [reflexivity|]. split; [reflexivity|]. split; [repeat constructor; lra|].
  assert (Q : sqrt 1 = 1) by apply sqrt_1.
  split; [exists (1 / sqrt 1), (2 / sqrt 1); split; [left; auto|]; split; [right; right; left; auto|rewrite Q; lra]|].
  split; [exists (1 / sqrt 1), (- (1) / sqrt 1); split; [left; auto|]; split; [right; right; left; auto|rewrite Q; lra]|].
  split; [unfold sg; destruct (Rlt_dec (-1) 0), (Rlt_dec 100 0); lra|lra].
Qed.
