(** * The Gaussian integral and the standard normal distribution function

    [Phi] of XR.v is defined by an integral; here: derivative, monotonicity, symmetry, range (0,1) and the tail bound
    Phi(-x) <= exp(-x^2/2)/2, which rests on the value of the Gaussian integral. *)
From Coq Require Import Reals Lra.
From Coquelicot Require Import Coquelicot.
From Verif Require Import XR.
Local Open Scope R_scope.

Ltac sc := repeat match goal with |- context [@scal ?K ?V ?a ?b] => change (@scal K V a b) with (Rmult a b) end; try match goal with |- @eq ?T ?a ?b => change (@eq R a b) end.
Definition gauss (t : R) : R := exp (- t ^ 2 / 2).
Definition erfA (x : R) : R := RInt gauss 0 x.
Definition kern (x t : R) : R := exp (- x ^ 2 * (1 + t ^ 2) / 2) / (1 + t ^ 2).
Definition hint (x : R) : R := RInt (fun t => kern x t) 0 1.

Lemma gauss_pos (t : R) : 0 < gauss t.
Proof. apply exp_pos. Qed.
Lemma gauss_cont (t : R) : continuous gauss t.
Proof. apply (ex_derive_continuous gauss). unfold gauss. auto_derive. auto. Qed.
Lemma gauss_ex a b : ex_RInt gauss a b.
Proof. apply (ex_RInt_continuous (V := R_CompleteNormedModule)). intros; apply gauss_cont. Qed.
Lemma erfA_derive (x : R) : is_derive erfA x (gauss x).
Proof.
  apply (is_derive_RInt gauss erfA 0 x); [|apply gauss_cont].
  exists (mkposreal 1 Rlt_0_1). intros y _. apply (RInt_correct (V := R_CompleteNormedModule)). apply gauss_ex.
Qed.
Lemma one_sq_pos (t : R) : 0 < 1 + t ^ 2.
Proof. assert (0 <= t ^ 2) by apply pow2_ge_0. lra. Qed.
Lemma kern_dx (x t : R) : is_derive (fun u => kern u t) x (- x * exp (- x ^ 2 * (1 + t ^ 2) / 2)).
Proof. assert (H := one_sq_pos t). unfold kern. auto_derive; [lra|].
  replace (- (x * (x * 1)) * (1 + t * (t * 1)) * / 2) with (- x ^ 2 * (1 + t ^ 2) / 2) by (cbn; field). generalize (exp (- x ^ 2 * (1 + t ^ 2) / 2)). intros e. cbn in H. field. lra. Qed.
Lemma kern_cont (x t : R) : continuous (kern x) t.
Proof. assert (H := one_sq_pos t). apply (ex_derive_continuous (kern x)). unfold kern. auto_derive. lra. Qed.
Lemma kern_ex x a b : ex_RInt (kern x) a b.
Proof. apply (ex_RInt_continuous (V := R_CompleteNormedModule)). intros; apply kern_cont. Qed.

Lemma Derive_kern u t : Derive (fun z => kern z t) u = - u * exp (- u ^ 2 * (1 + t ^ 2) / 2).
Proof. apply is_derive_unique. apply kern_dx. Qed.
Lemma hint_derive (x : R) : is_derive hint x (- gauss x * erfA x).
Proof.
  assert (H : is_derive hint x (RInt (fun t => Derive (fun u => kern u t) x) 0 1)).
  { apply (is_derive_RInt_param kern 0 1 x).
    - exists (mkposreal 1 Rlt_0_1). intros y _ t _. eexists. apply kern_dx.
    - intros t _. apply (continuity_2d_pt_ext (fun u v => - u * exp (- u ^ 2 * (1 + v ^ 2) / 2))).
      + intros u v. symmetry. apply Derive_kern.
      + apply (continuity_2d_pt_mult (fun u v => - u) (fun u v => exp (- u ^ 2 * (1 + v ^ 2) / 2))).
        * apply continuity_2d_pt_opp, continuity_2d_pt_id1.
        * apply (continuity_1d_2d_pt_comp exp (fun u v => - u ^ 2 * (1 + v ^ 2) / 2)).
          -- apply derivable_continuous_pt, derivable_pt_exp.
          -- apply (continuity_2d_pt_ext (fun u v => (- (u * u)) * (1 + v * v) * / 2)); [intros; field|].
             apply continuity_2d_pt_mult; [|apply continuity_2d_pt_const].
             apply continuity_2d_pt_mult.
             ++ apply continuity_2d_pt_opp, continuity_2d_pt_mult; apply continuity_2d_pt_id1.
             ++ apply continuity_2d_pt_plus; [apply continuity_2d_pt_const|]. apply continuity_2d_pt_mult; apply continuity_2d_pt_id2.
    - exists (mkposreal 1 Rlt_0_1). intros y _. apply kern_ex. }
  replace (- gauss x * erfA x) with (RInt (fun t => Derive (fun u => kern u t) x) 0 1); [exact H|].
  rewrite (RInt_ext _ (fun t => scal (- gauss x) (scal x (gauss (x * t + 0))))).
  2:{ intros t _. rewrite Derive_kern. sc. unfold gauss.
      replace (- x ^ 2 * (1 + t ^ 2) / 2) with (- x ^ 2 / 2 + - (x * t + 0) ^ 2 / 2) by field. rewrite exp_plus. ring. }
  rewrite (RInt_scal (V := R_CompleteNormedModule)).
  2:{ apply (ex_RInt_comp_lin (V := R_NormedModule) gauss x 0 0 1). apply gauss_ex. }
  rewrite (RInt_comp_lin (V := R_CompleteNormedModule)) by apply gauss_ex.
  sc. unfold erfA. replace (x * 0 + 0) with 0 by ring. replace (x * 1 + 0) with x by ring. reflexivity.
Qed.
Lemma hint_0 : hint 0 = PI / 4.
Proof.
  unfold hint. rewrite (RInt_ext _ (fun t => / (1 + t²))).
  2:{ intros t _. unfold kern. replace (- 0 ^ 2 * (1 + t ^ 2) / 2) with 0 by field. rewrite exp_0. unfold Rsqr. assert (H := one_sq_pos t). sc. field. cbn in H. nra. }
  apply is_RInt_unique. rewrite <- atan_1. replace (atan 1) with (minus (atan 1) (atan 0)).
  2:{ unfold minus, plus, opp; cbn. sc. rewrite atan_0. ring. }
  apply (is_RInt_derive atan (fun t => / (1 + t²))).
  - intros t _. apply is_derive_atan.
  - intros t _. apply (ex_derive_continuous (fun t => / (1 + t²))). unfold Rsqr. auto_derive. assert (H := one_sq_pos t). cbn in H. nra.
Qed.
Lemma erfA_0 : erfA 0 = 0.
Proof. unfold erfA. rewrite RInt_point. reflexivity. Qed.
(** the invariant of the classical proof *)
Lemma gauss_invariant (x : R) : 0 <= x -> erfA x * erfA x + 2 * hint x = PI / 2.
Proof.
  intros Hx. set (F := fun x => erfA x * erfA x + 2 * hint x).
  assert (F0 : F 0 = PI / 2) by (unfold F; rewrite erfA_0, hint_0; field).
  destruct (Req_dec x 0) as [->|Hn]; [exact F0|].
  rewrite <- F0. symmetry. change (F 0 = F x). apply (eq_is_derive (V := R_NormedModule) F 0 x); [|lra].
  intros t _. replace (@zero R_NormedModule) with ((gauss t * erfA t + erfA t * gauss t) + 2 * (- gauss t * erfA t)).
  2:{ change (@zero R_NormedModule) with 0. ring. }
  apply (is_derive_plus (V := R_NormedModule) (fun x => erfA x * erfA x) (fun x => 2 * hint x)).
  - apply (is_derive_mult erfA erfA t (gauss t) (gauss t)); try apply erfA_derive. intros; apply Rmult_comm.
  - apply (is_derive_scal hint t 2). apply hint_derive.
Qed.
Lemma hint_bounds (x : R) : 0 < hint x <= exp (- x ^ 2 / 2) * (PI / 4).
Proof.
  split.
  - apply RInt_gt_0; [lra| |intros; apply kern_cont]. intros t _. unfold kern. apply Rdiv_lt_0_compat; [apply exp_pos|apply one_sq_pos].
  - rewrite <- hint_0. unfold hint.
    change (exp (- x ^ 2 / 2) * RInt (fun t => kern 0 t) 0 1) with (scal (exp (- x ^ 2 / 2)) (RInt (fun t => kern 0 t) 0 1)).
    rewrite <- (RInt_scal (V := R_CompleteNormedModule)) by apply kern_ex.
    apply RInt_le; [lra|apply kern_ex| |].
    + apply (ex_RInt_scal (V := R_NormedModule)). apply kern_ex.
    + intros t _. sc. unfold kern. assert (H := one_sq_pos t).
      replace (- 0 ^ 2 * (1 + t ^ 2) / 2) with 0 by field. rewrite exp_0.
      replace (- x ^ 2 * (1 + t ^ 2) / 2) with (- x ^ 2 / 2 + - (x ^ 2 * t ^ 2) / 2) by field. rewrite exp_plus.
      unfold Rdiv. rewrite Rmult_1_l. apply Rmult_le_compat_r; [left; apply Rinv_0_lt_compat; auto|].
      rewrite <- (Rmult_1_r (exp (- x ^ 2 * / 2))) at 2. apply Rmult_le_compat_l; [left; apply exp_pos|].
      change 1 with (IZR 1). rewrite <- exp_0. assert (0 <= x ^ 2 * t ^ 2) by (apply Rmult_le_pos; apply pow2_ge_0).
      destruct (Req_dec (x ^ 2 * t ^ 2) 0) as [E|E]; [rewrite E; right; f_equal; field|]. left. apply exp_increasing. lra.
Qed.
(** [0 <= A(x) < sqrt(pi/2)] and [A(x) >= sqrt(pi/2) (1 - exp(-x^2/2))] *)
Lemma erfA_nonneg (x : R) : 0 <= x -> 0 <= erfA x.
Proof.
  intros [H| <-]; [|rewrite erfA_0; lra]. left. apply RInt_gt_0; [auto|intros; apply gauss_pos|intros; apply gauss_cont].
Qed.
Lemma sqrt_half_pi : sqrt (2 * PI) / 2 * (sqrt (2 * PI) / 2) = PI / 2.
Proof. assert (H := PI_RGT_0). replace (sqrt (2 * PI) / 2 * (sqrt (2 * PI) / 2)) with (sqrt (2 * PI) * sqrt (2 * PI) / 4) by field. rewrite sqrt_sqrt by lra. field. Qed.
Lemma erfA_upper (x : R) : 0 <= x -> erfA x < sqrt (2 * PI) / 2.
Proof.
  intros Hx. assert (E := gauss_invariant x Hx). destruct (hint_bounds x) as [HB _]. assert (HA := erfA_nonneg x Hx). rewrite <- sqrt_half_pi in E.
  assert (0 < sqrt (2 * PI)) by (apply sqrt_lt_R0; assert (H := PI_RGT_0); lra).
  apply Rsqr_incrst_0; [unfold Rsqr; lra|lra|lra].
Qed.
Lemma erfA_lower (x : R) : 0 <= x -> sqrt (2 * PI) / 2 * (1 - exp (- x ^ 2 / 2)) <= erfA x.
Proof.
  intros Hx. assert (E := gauss_invariant x Hx). destruct (hint_bounds x) as [_ HB]. assert (HA := erfA_nonneg x Hx). assert (SP := sqrt_half_pi).
  assert (HS : 0 < sqrt (2 * PI)) by (apply sqrt_lt_R0; assert (H := PI_RGT_0); lra).
  set (e := exp (- x ^ 2 / 2)) in *. assert (0 < e) by apply exp_pos.
  assert (He : e <= 1). { unfold e. rewrite <- exp_0. destruct Hx as [Hx| <-]; [left; apply exp_increasing; assert (0 < x ^ 2) by (apply pow_lt; auto); lra|right; f_equal; field]. }
  apply Rsqr_incr_0; [unfold Rsqr|apply Rmult_le_pos; lra|auto].
  replace (sqrt (2 * PI) / 2 * (1 - e) * (sqrt (2 * PI) / 2 * (1 - e))) with (sqrt (2 * PI) / 2 * (sqrt (2 * PI) / 2) * ((1 - e) * (1 - e))) by ring.
  rewrite SP. assert (HPI := PI_RGT_0). assert (PI / 2 * (e * (1 - e)) >= 0) by (apply Rle_ge, Rmult_le_pos; [lra|apply Rmult_le_pos; lra]). nra.
Qed.

(** ** The distribution function *)
Lemma sqrt_2pi_pos : 0 < sqrt (2 * PI).
Proof. apply sqrt_lt_R0. assert (H := PI_RGT_0). lra. Qed.
Lemma phi_gauss (t : R) : phi t = gauss t / sqrt (2 * PI).
Proof. reflexivity. Qed.
Lemma phi_pos (t : R) : 0 < phi t.
Proof. rewrite phi_gauss. apply Rdiv_lt_0_compat; [apply gauss_pos|apply sqrt_2pi_pos]. Qed.
Lemma phi_cont (t : R) : continuous phi t.
Proof. assert (H := sqrt_2pi_pos). apply (ex_derive_continuous phi). unfold phi. auto_derive. auto. Qed.
Lemma phi_even (t : R) : phi (- t) = phi t.
Proof. unfold phi. f_equal. f_equal. field. Qed.
Lemma Phi_erf (x : R) : Phi x = 1 / 2 + erfA x / sqrt (2 * PI).
Proof.
  unfold Phi, erfA. f_equal. assert (H := sqrt_2pi_pos).
  rewrite (RInt_ext _ (fun t => scal (/ sqrt (2 * PI)) (gauss t))).
  - rewrite (RInt_scal (V := R_CompleteNormedModule)) by apply gauss_ex. sc. field. lra.
  - intros t _. sc. rewrite phi_gauss. field. lra.
Qed.
Lemma Phi_derive (x : R) : is_derive Phi x (phi x).
Proof.
  assert (H := sqrt_2pi_pos). apply (is_derive_ext (fun x => 1 / 2 + / sqrt (2 * PI) * erfA x)).
  { intros t. rewrite Phi_erf. sc. field. lra. }
  replace (phi x) with (plus (@zero R_NormedModule) (/ sqrt (2 * PI) * gauss x)).
  2:{ rewrite plus_zero_l. rewrite phi_gauss. sc. field. lra. }
  apply (is_derive_plus (V := R_NormedModule)); [apply is_derive_const|]. apply is_derive_scal. apply erfA_derive.
Qed.
Lemma Phi_increasing x y : x < y -> Phi x < Phi y.
Proof.
  intros H. destruct (MVT_gen Phi x y phi) as (c & _ & E).
  - intros t _. apply Phi_derive.
  - intros t _. apply derivable_continuous_pt. exists (phi t). apply is_derive_Reals. apply Phi_derive.
  - assert (0 < phi c * (y - x)) by (apply Rmult_lt_0_compat; [apply phi_pos|lra]). lra.
Qed.
Lemma Phi_nondecreasing x y : x <= y -> Phi x <= Phi y.
Proof. intros [H| ->]; [left; apply Phi_increasing; auto|lra]. Qed.
Lemma erfA_odd (x : R) : erfA (- x) = - erfA x.
Proof.
  unfold erfA. assert (E := RInt_comp_lin (V := R_CompleteNormedModule) gauss (-1) 0 0 x).
  replace (-1 * 0 + 0) with 0 in E by ring. replace (-1 * x + 0) with (- x) in E by ring. rewrite <- E by apply gauss_ex.
  rewrite (RInt_ext _ (fun t => scal (-1) (gauss t))).
  - rewrite (RInt_scal (V := R_CompleteNormedModule)) by apply gauss_ex. sc. ring.
  - intros t _. sc. unfold gauss. f_equal. f_equal. field.
Qed.
Lemma Phi_symmetric (x : R) : Phi (- x) = 1 - Phi x.
Proof. rewrite !Phi_erf, erfA_odd. assert (H := sqrt_2pi_pos). field. lra. Qed.
Lemma Phi_0 : Phi 0 = 1 / 2.
Proof. rewrite Phi_erf, erfA_0. assert (H := sqrt_2pi_pos). field. lra. Qed.
Lemma Phi_range (x : R) : 0 < Phi x < 1.
Proof.
  assert (G : forall x, 0 <= x -> 1/2 <= Phi x < 1).
  { intros y Hy. rewrite Phi_erf. assert (H := sqrt_2pi_pos). assert (U := erfA_upper y Hy). assert (L := erfA_nonneg y Hy). split.
    - assert (0 <= erfA y / sqrt (2 * PI)) by (apply Rdiv_le_0_compat; lra). lra.
    - assert (erfA y / sqrt (2 * PI) < 1 / 2); [|lra]. apply (Rmult_lt_reg_r (sqrt (2 * PI))); [auto|]. unfold Rdiv at 1. rewrite Rmult_assoc, Rinv_l by lra. lra. }
  destruct (Rle_dec 0 x) as [H|H]; [specialize (G x H); lra|].
  assert (G1 := G (- x) ltac:(lra)). rewrite Phi_symmetric in G1. lra.
Qed.
Lemma Phi_tail (x : R) : 0 <= x -> Phi (- x) <= exp (- x ^ 2 / 2) / 2.
Proof.
  intros Hx. rewrite Phi_symmetric, Phi_erf. assert (H := sqrt_2pi_pos). assert (L := erfA_lower x Hx).
  assert (1 / 2 * (1 - exp (- x ^ 2 / 2)) <= erfA x / sqrt (2 * PI)); [|lra].
  apply (Rmult_le_reg_r (sqrt (2 * PI))); [auto|]. replace (erfA x / sqrt (2 * PI) * sqrt (2 * PI)) with (erfA x) by (field; lra). lra.
Qed.
(** the lower tail vanishes *)
Lemma Phi_small eps : 0 < eps -> exists x, Phi x < eps.
Proof.
  intros He. set (x := 1 + 2 / eps). assert (Hx : 1 < x) by (unfold x; assert (0 < 2 / eps) by (apply Rdiv_lt_0_compat; lra); lra).
  exists (- x). eapply Rle_lt_trans; [apply Phi_tail; lra|].
  (* exp(-x^2/2)/2 <= exp(-x/2)/2 and exp(x/2) >= 1 + x/2 > 1/eps *)
  assert (E1 : exp (- x ^ 2 / 2) <= exp (- (x / 2))).
  { left. apply exp_increasing. assert (x < x ^ 2) by (cbn; nra). lra. }
  assert (E2 : 1 + x / 2 < exp (x / 2)) by (apply exp_ineq1; lra).
  rewrite exp_Ropp in E1. assert (E3 : / exp (x / 2) < eps).
  { assert (HP := exp_pos (x / 2)). apply (Rmult_lt_reg_r (exp (x / 2))); [auto|]. rewrite Rinv_l by lra.
    assert (1 < eps * (1 + x / 2)). { unfold x. replace (eps * (1 + (1 + 2 / eps) / 2)) with (eps * 3 / 2 + 1) by (field; lra). lra. }
    apply (Rlt_trans _ (eps * (1 + x / 2))); [auto|]. apply Rmult_lt_compat_l; auto. }
  assert (0 < exp (- x ^ 2 / 2)) by apply exp_pos. lra.
Qed.
