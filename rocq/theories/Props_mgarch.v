(** * Theorems: multivariate GARCH (C15-C18) *)
From Coq Require Import Reals Lra ZArith List Bool Arith Lia Psatz.
From Verif Require Import Arith XR RealAux Model_garch Spec_garch Proofs_garch2 Proofs_garch3 Model_ar Props_ar Model_mgarch.
Import ListNotations.
Local Open Scope R_scope.

(** ** Specification *)
(** standardized residuals *)
Definition zscores (r s : list R) : list R := map2 (fun r s => r / sqrt s) r s.
(** Pearson correlation and uncentered second moments *)
Definition pearson (x y : list R) : R := covar x y / sqrt (covar x x * covar y y).
Definition moment2 (x y : list R) : R := Rsum (map2 Rmult x y) / INR (length x).
Definition non_constant (x : list R) : Prop := exists a b, In a x /\ In b x /\ a <> b.
Definition non_zero (x : list R) : Prop := exists a, In a x /\ a <> 0.
(** The DCC recursion Q_t = (1-a-b) Qbar + a z z' + b Q_{t-1} from Q_0 = Qbar, and its correlations. *)
Definition Q3 := (R * R * R)%type.                          (* q11, q12, q22 *)
Definition Qnext (a b : R) (Qb Q : Q3) (z : R * R) : Q3 :=
  let '(b11, b12, b22) := Qb in let '(q11, q12, q22) := Q in let '(z1, z2) := z in
  ((1 - a - b) * b11 + a * z1 ^ 2 + b * q11, (1 - a - b) * b12 + a * (z1 * z2) + b * q12, (1 - a - b) * b22 + a * z2 ^ 2 + b * q22).
Fixpoint Qpath (a b : R) (Qb Q : Q3) (zs : list (R * R)) : list Q3 :=
  match zs with [] => [] | z :: zs' => Qnext a b Qb Q z :: Qpath a b Qb (Qnext a b Qb Q z) zs' end.
Definition corr_of (Q : Q3) : R := let '(q11, q12, q22) := Q in q12 / sqrt (q11 * q22).
(** Correlations at times 0 .. T-1: the last residual is not used. *)
Definition dcc_correlations (a b : R) (Qb : Q3) (z1 z2 : list R) : list R :=
  map corr_of (Qb :: Qpath a b Qb Qb (removelast (combine z1 z2))).

(** ** Positive definiteness of 2x2 matrices *)
Definition pd (Q : Q3) : Prop := let '(q11, q12, q22) := Q in 0 < q11 /\ 0 < q22 /\ q12 * q12 <= q11 * q22.
Definition spd (Q : Q3) : Prop := let '(q11, q12, q22) := Q in 0 < q11 /\ 0 < q22 /\ q12 * q12 < q11 * q22.
Definition form (Q : Q3) (x y : R) : R := let '(q11, q12, q22) := Q in q11 * (x * x) + 2 * q12 * (x * y) + q22 * (y * y).
Lemma form_nonneg Q x y : pd Q -> 0 <= form Q x y.
Proof.
  destruct Q as [[q11 q12] q22]. intros (H1 & H2 & H3). cbn.
  apply (Rmult_le_reg_l q11); [auto|]. rewrite Rmult_0_r.
  replace (q11 * (q11 * (x * x) + 2 * q12 * (x * y) + q22 * (y * y))) with ((q11 * x + q12 * y) * (q11 * x + q12 * y) + (q11 * q22 - q12 * q12) * (y * y)) by ring.
  assert (A1 := sqr_nonneg (q11 * x + q12 * y)). assert (A2 := sqr_nonneg y).
  assert (0 <= (q11 * q22 - q12 * q12) * (y * y)) by (apply Rmult_le_pos; lra). lra.
Qed.
Lemma form_pos Q x y : spd Q -> y <> 0 -> 0 < form Q x y.
Proof.
  destruct Q as [[q11 q12] q22]. intros (H1 & H2 & H3) Hy. cbn.
  apply (Rmult_lt_reg_l q11); [auto|]. rewrite Rmult_0_r.
  replace (q11 * (q11 * (x * x) + 2 * q12 * (x * y) + q22 * (y * y))) with ((q11 * x + q12 * y) * (q11 * x + q12 * y) + (q11 * q22 - q12 * q12) * (y * y)) by ring.
  assert (A1 := sqr_nonneg (q11 * x + q12 * y)). assert (A2 : 0 < y * y) by (apply Rsqr_pos_lt; auto).
  assert (0 < (q11 * q22 - q12 * q12) * (y * y)) by (apply Rmult_lt_0_compat; lra). lra.
Qed.
Lemma form_next a b Qb Q z x y : form (Qnext a b Qb Q z) x y =
  (1 - a - b) * form Qb x y + a * ((fst z * x + snd z * y) * (fst z * x + snd z * y)) + b * form Q x y.
Proof. destruct Qb as [[? ?] ?], Q as [[? ?] ?], z as [? ?]. cbn. ring. Qed.
Definition admissible (a b : R) : Prop := 0 <= a /\ 0 <= b /\ a + b <= 1 /\ ~ (a = 1 /\ b = 0).
Lemma diag_next a b Qb Q z : admissible a b -> pd Qb -> pd Q ->
  let '(q11, q12, q22) := Qnext a b Qb Q z in 0 < q11 /\ 0 < q22.
Proof.
  destruct Qb as [[b11 b12] b22], Q as [[q11 q12] q22], z as [z1 z2]. intros (Ha & Hb & Hab & Hne) (B1 & B2 & _) (P1 & P2 & _). cbn [Qnext].
  assert (G : forall B P u, 0 < B -> 0 < P -> 0 < (1 - a - b) * B + a * u ^ 2 + b * P).
  { intros B P u HB HP. assert (0 <= a * u ^ 2) by (apply Rmult_le_pos; [auto|apply pow2_ge_0]).
    destruct (Rlt_dec 0 (1 - a - b)) as [h|h].
    - assert (0 < (1 - a - b) * B) by (apply Rmult_lt_0_compat; auto). assert (0 <= b * P) by (apply Rmult_le_pos; lra). lra.
    - assert (E : 1 - a - b = 0) by lra. rewrite E. assert (0 < b) by (destruct (Rlt_dec 0 b); [auto|]; exfalso; apply Hne; split; lra).
      assert (0 < b * P) by (apply Rmult_lt_0_compat; auto). lra. }
  split; apply G; auto.
Qed.
Lemma pd_next a b Qb Q z : admissible a b -> pd Qb -> pd Q -> pd (Qnext a b Qb Q z).
Proof.
  intros HA HB HQ. assert (HD := diag_next a b Qb Q z HA HB HQ). assert (HF := form_next a b Qb Q z).
  destruct HA as (Ha & Hb & Hab & _).
  destruct (Qnext a b Qb Q z) as [[q11 q12] q22]. destruct HD as [D1 D2]. split; [auto|]. split; [auto|].
  specialize (HF (- q12) q11). cbn [form] in HF.
  assert (N : 0 <= q11 * (- q12 * - q12) + 2 * q12 * (- q12 * q11) + q22 * (q11 * q11)).
  { rewrite HF. assert (F1 := form_nonneg Qb (- q12) q11 HB). assert (F2 := form_nonneg Q (- q12) q11 HQ).
    assert (S := sqr_nonneg (fst z * - q12 + snd z * q11)).
    assert (0 <= (1 - a - b) * form Qb (- q12) q11) by (apply Rmult_le_pos; lra).
    assert (0 <= b * form Q (- q12) q11) by (apply Rmult_le_pos; lra).
    assert (0 <= a * ((fst z * - q12 + snd z * q11) * (fst z * - q12 + snd z * q11))) by (apply Rmult_le_pos; lra). lra. }
  apply (Rmult_le_reg_l q11); [auto|]. lra.
Qed.
Lemma spd_pd Q : spd Q -> pd Q.
Proof. destruct Q as [[? ?] ?]. cbn. lra. Qed.
Lemma spd_next a b Qb Q z : admissible a b -> a + b < 1 -> spd Qb -> pd Q -> spd (Qnext a b Qb Q z).
Proof.
  intros HA Hlt HB HQ. assert (HD := diag_next a b Qb Q z HA (spd_pd _ HB) HQ). assert (HF := form_next a b Qb Q z).
  destruct HA as (Ha & Hb & Hab & _).
  destruct (Qnext a b Qb Q z) as [[q11 q12] q22]. destruct HD as [D1 D2]. split; [auto|]. split; [auto|].
  specialize (HF (- q12) q11). cbn [form] in HF.
  assert (N : 0 < q11 * (- q12 * - q12) + 2 * q12 * (- q12 * q11) + q22 * (q11 * q11)).
  { rewrite HF. assert (F1 := form_pos Qb (- q12) q11 HB ltac:(lra)). assert (F2 := form_nonneg Q (- q12) q11 HQ).
    assert (S := sqr_nonneg (fst z * - q12 + snd z * q11)).
    assert (0 < (1 - a - b) * form Qb (- q12) q11) by (apply Rmult_lt_0_compat; lra).
    assert (0 <= b * form Q (- q12) q11) by (apply Rmult_le_pos; lra).
    assert (0 <= a * ((fst z * - q12 + snd z * q11) * (fst z * - q12 + snd z * q11))) by (apply Rmult_le_pos; lra). lra. }
  apply (Rmult_lt_reg_l q11); [auto|]. lra.
Qed.
Lemma corr_range Q : pd Q -> -1 <= corr_of Q <= 1.
Proof.
  destruct Q as [[q11 q12] q22]. intros (H1 & H2 & H3). cbn [corr_of].
  assert (HP : 0 < q11 * q22) by (apply Rmult_lt_0_compat; auto).
  assert (HS : 0 < sqrt (q11 * q22)) by (apply sqrt_lt_R0; auto).
  assert (HA : Rabs q12 <= sqrt (q11 * q22)).
  { rewrite <- sqrt_Rsqr_abs. apply sqrt_le_1_alt. auto. }
  assert (HA2 := Rle_abs q12). assert (HA3 := Rle_abs (- q12)). rewrite Rabs_Ropp in HA3. split; [apply le_div_iff|apply div_le_iff]; lra.
Qed.
Lemma corr_range_strict Q : spd Q -> -1 < corr_of Q < 1.
Proof.
  destruct Q as [[q11 q12] q22]. intros (H1 & H2 & H3). cbn [corr_of].
  assert (HP : 0 < q11 * q22) by (apply Rmult_lt_0_compat; auto).
  assert (HS : 0 < sqrt (q11 * q22)) by (apply sqrt_lt_R0; auto).
  assert (HA : Rabs q12 < sqrt (q11 * q22)).
  { rewrite <- sqrt_Rsqr_abs. apply sqrt_lt_1_alt. split; [apply Rle_0_sqr|auto]. }
  apply Rabs_def2 in HA. split; [apply lt_div_iff|apply div_lt_iff]; lra.
Qed.
Lemma Qpath_pd a b Qb zs : admissible a b -> pd Qb -> forall Q, pd Q -> Forall pd (Qpath a b Qb Q zs).
Proof. intros HA HB. induction zs as [|z zs IH]; intros Q HQ; cbn [Qpath]; constructor; [|apply IH]; apply pd_next; auto. Qed.
Lemma Qpath_spd a b Qb zs : admissible a b -> a + b < 1 -> spd Qb -> forall Q, pd Q -> Forall spd (Qpath a b Qb Q zs).
Proof. intros HA Hl HB. induction zs as [|z zs IH]; intros Q HQ; cbn [Qpath]; constructor; [|apply IH; apply spd_pd]; apply spd_next; auto. Qed.
Lemma dcc_loop_fin a b Qb zs : admissible a b -> pd Qb -> forall Q, pd Q ->
  let '(b11, b12, b22) := Qb in let '(q11, q12, q22) := Q in
  dcc_loop XRA (Fin a) (Fin b) (Fin b11) (Fin b12) (Fin b22) (Fin q11) (Fin q12) (Fin q22) (map (fun z => (Fin (fst z), Fin (snd z))) zs)
  = map (fun Q => Fin (corr_of Q)) (Qpath a b Qb Q zs).
Proof.
  intros HA HB. induction zs as [|[z1 z2] zs IH]; intros Q HQ.
  - destruct Qb as [[? ?] ?], Q as [[? ?] ?]. reflexivity.
  - assert (HN := pd_next a b Qb Q (z1, z2) HA HB HQ). specialize (IH _ HN).
    destruct Qb as [[b11 b12] b22], Q as [[q11 q12] q22]. cbn [map dcc_loop Qpath].
    cbn [nadd nsub nmul ofZ XRA nsq xsub xopp xmul xadd xsq fst snd].
    remember (Qnext a b (b11, b12, b22) (q11, q12, q22) (z1, z2)) as N eqn:EN. cbn [Qnext] in EN.
    destruct N as [[n11 n12] n22]. injection EN as E1 E2 E3.
    replace ((1 - a - b) * b11 + a * (z1 * z1) + b * q11) with n11 by (rewrite E1; ring).
    replace ((1 - a - b) * b12 + a * z1 * z2 + b * q12) with n12 by (rewrite E2; ring).
    replace ((1 - a - b) * b22 + a * (z2 * z2) + b * q22) with n22 by (rewrite E3; ring).
    rewrite <- IH. f_equal. cbn [corr_of]. destruct HN as (P1 & P2 & P3).
    assert (HP : 0 < n11 * n22) by (apply Rmult_lt_0_compat; auto).
    cbn [nsqrt ndiv XRA]. rewrite xsqrt_fin by lra. apply xdiv_fin. assert (0 < sqrt (n11 * n22)) by (apply sqrt_lt_R0; auto). lra.
Qed.
Lemma combine_fin z1 z2 : combine (map Fin z1) (map Fin z2) = map (fun z => (Fin (fst z), Fin (snd z))) (combine z1 z2).
Proof. revert z2. induction z1 as [|x z1 IH]; intros [|y z2]; cbn; f_equal; auto. Qed.
Lemma removelast_map {X Y} (f : X -> Y) l : removelast (map f l) = map f (removelast l).
Proof. induction l as [|x [|y l] IH]; [reflexivity|reflexivity|]. cbn [map removelast] in *. f_equal. exact IH. Qed.
Lemma dcc_path_fin a b b11 b12 b22 z1 z2 : admissible a b -> pd (b11, b12, b22) ->
  dcc_path XRA (Fin a) (Fin b) (Fin b11) (Fin b12) (Fin b22) (map Fin z1) (map Fin z2) = map Fin (dcc_correlations a b (b11, b12, b22) z1 z2).
Proof.
  intros HA HB. unfold dcc_path, dcc_correlations. cbn [map]. rewrite map_map. f_equal.
  - destruct HB as (P1 & P2 & P3). assert (HP : 0 < b11 * b22) by (apply Rmult_lt_0_compat; auto).
    cbn [nsqrt ndiv nmul XRA xmul]. rewrite xsqrt_fin by lra. apply xdiv_fin. assert (0 < sqrt (b11 * b22)) by (apply sqrt_lt_R0; auto). lra.
  - rewrite <- (dcc_loop_fin a b (b11, b12, b22) _ HA HB (b11, b12, b22) HB). f_equal.
    change (num XRA) with xr. rewrite combine_fin. apply removelast_map.
Qed.
Lemma removelast_length {X} (l : list X) : length (removelast l) = (length l - 1)%nat.
Proof. induction l as [|x [|y l] IH]; [reflexivity|reflexivity|]. cbn [removelast length] in *. lia. Qed.
Lemma Qpath_length a b Qb zs : forall Q, length (Qpath a b Qb Q zs) = length zs.
Proof. induction zs as [|z zs IH]; intros Q; [reflexivity|]. cbn [Qpath length]. rewrite IH. reflexivity. Qed.
Lemma dcc_correlations_length a b Qb z1 z2 : length z1 = length z2 -> z1 <> [] -> length (dcc_correlations a b Qb z1 z2) = length z1.
Proof.
  intros HL Hn. unfold dcc_correlations. rewrite map_length. cbn [length]. rewrite Qpath_length, removelast_length, combine_length, <- HL.
  destruct z1; [tauto|]. cbn [length]. lia.
Qed.
(** The path stays in [-1,1]; strictly inside when a+b<1 and the target is strictly inside. *)
Lemma dcc_correlations_range a b Qb z1 z2 : admissible a b -> pd Qb -> Forall (fun r => -1 <= r <= 1) (dcc_correlations a b Qb z1 z2).
Proof.
  intros HA HB. apply Forall_map. constructor; [apply corr_range; auto|].
  eapply Forall_impl; [|apply (Qpath_pd a b Qb _ HA HB Qb HB)]. intros Q. apply corr_range.
Qed.
Lemma dcc_correlations_strict a b Qb z1 z2 : admissible a b -> a + b < 1 -> spd Qb -> Forall (fun r => -1 < r < 1) (dcc_correlations a b Qb z1 z2).
Proof.
  intros HA HL HB. apply Forall_map. constructor; [apply corr_range_strict; auto|].
  eapply Forall_impl; [|apply (Qpath_spd a b Qb _ HA HL HB Qb (spd_pd _ HB))]. intros Q. apply corr_range_strict.
Qed.

(** ** Inputs *)
Definition positive (s : list R) : Prop := Forall (fun v => 0 < v) s.
Lemma standardize_fin r s : length r = length s -> positive s -> standardize XRA (map Fin r) (map Fin s) = map Fin (zscores r s).
Proof.
  revert s. induction r as [|x r IH]; intros [|v s] HL HP; cbn in HL; try discriminate; [reflexivity|].
  inversion HP; subst. change (standardize XRA (map Fin (x :: r)) (map Fin (v :: s))) with
    (xdiv (Fin x) (xsqrt (Fin v)) :: standardize XRA (map Fin r) (map Fin s)).
  rewrite IH by (auto; lia). cbn [zscores map2 map]. f_equal. rewrite xsqrt_fin by lra. apply xdiv_fin. assert (0 < sqrt v) by (apply sqrt_lt_R0; auto). lra.
Qed.
Lemma zscores_length r s : length r = length s -> length (zscores r s) = length r.
Proof. intros H. unfold zscores. rewrite map2_length, <- H. apply Nat.min_id. Qed.

Lemma covar_self x : covar x x = Rsum (map (fun a => (a - Rmean x) * (a - Rmean x)) x) / (INR (length x) - 1).
Proof.
  unfold covar. f_equal. f_equal. generalize (Rmean x). intros m. induction x as [|a x IH]; [reflexivity|]. cbn [map2 map]. f_equal. exact IH.
Qed.
Lemma non_constant_length x : non_constant x -> (2 <= length x)%nat.
Proof.
  intros (a & b & Ha & Hb & Hne). destruct x as [|u [|v x]]; cbn in *; [tauto| |lia].
  exfalso. destruct Ha as [<-|[]], Hb as [<-|[]]. auto.
Qed.
Lemma covar_pos x : non_constant x -> 0 < covar x x.
Proof.
  intros H. assert (HL := non_constant_length x H). assert (Hn : x <> []) by (intros ->; cbn in HL; lia).
  assert (V : 0 < Rvar x) by (apply Rvar_pos_iff; auto).
  rewrite covar_self. unfold Rvar, Rmean at 1 in V. rewrite map_length in V.
  assert (1 < INR (length x)) by (apply (lt_INR 1); lia). apply lt_div_iff in V; [|lra]. apply lt_div_iff; lra.
Qed.
Lemma map2_map_combine (f g : R -> R) (x y : list R) : length x = length y -> 
  map2 (fun a b => f a * g b) x y = map (fun p => f (fst p) * g (snd p)) (combine x y).
Proof. intros _. rewrite map2_combine. apply map_ext. intros [a b]. reflexivity. Qed.
Lemma map_fst_combine {X Y Z} (f : X -> Z) (x : list X) (y : list Y) : length x = length y -> map (fun p => f (fst p)) (combine x y) = map f x.
Proof. revert y. induction x as [|a x IH]; intros [|b y] H; cbn in *; try discriminate; [reflexivity|]. f_equal. apply IH. lia. Qed.
Lemma map_snd_combine {X Y Z} (f : Y -> Z) (x : list X) (y : list Y) : length x = length y -> map (fun p => f (snd p)) (combine x y) = map f y.
Proof. revert y. induction x as [|a x IH]; intros [|b y] H; cbn in *; try discriminate; [reflexivity|]. f_equal. apply IH. lia. Qed.
Lemma covar_cs x y : length x = length y -> (2 <= length x)%nat -> covar x y * covar x y <= covar x x * covar y y.
Proof.
  intros HL H2. rewrite (covar_self x), (covar_self y). unfold covar. rewrite <- HL.
  set (N := INR (length x) - 1). assert (HN : 0 < N) by (assert (1 < INR (length x)) by (apply (lt_INR 1); lia); unfold N; lra).
  assert (CS := cauchy_schwarz (fun p : R * R => fst p - Rmean x) (fun p => snd p - Rmean y) (combine x y)). cbv beta in CS.
  rewrite (map_fst_combine (fun a => (a - Rmean x) * (a - Rmean x))) in CS by auto.
  rewrite (map_snd_combine (fun a => (a - Rmean y) * (a - Rmean y))) in CS by auto.
  rewrite (map2_map_combine (fun a => a - Rmean x) (fun b => b - Rmean y)) by auto. unfold Rsqr in CS.
  match goal with |- ?S0 / N * (?S0 / N) <= ?U0 / N * (?V0 / N) => set (S := S0) in *; set (U := U0) in *; set (V := V0) in * end.
  replace (S / N * (S / N)) with (S * S * (/ N * / N)) by (field; lra). replace (U / N * (V / N)) with (U * V * (/ N * / N)) by (field; lra).
  apply Rmult_le_compat_r; [|auto]. apply sqr_nonneg.
Qed.
Lemma pearson_sq x y : length x = length y -> non_constant x -> non_constant y -> pearson x y * pearson x y <= 1.
Proof.
  intros HL Hx Hy. assert (Px := covar_pos x Hx). assert (Py := covar_pos y Hy).
  assert (CS := covar_cs x y HL (non_constant_length x Hx)). unfold pearson.
  assert (HP : 0 < covar x x * covar y y) by (apply Rmult_lt_0_compat; auto).
  assert (HS : 0 < sqrt (covar x x * covar y y)) by (apply sqrt_lt_R0; auto).
  replace (covar x y / sqrt (covar x x * covar y y) * (covar x y / sqrt (covar x x * covar y y)))
    with (covar x y * covar x y / (sqrt (covar x x * covar y y) * sqrt (covar x x * covar y y))) by (field; lra).
  rewrite sqrt_sqrt by lra. apply div_le_iff; lra.
Qed.
Lemma pearson_range x y : length x = length y -> non_constant x -> non_constant y -> -1 <= pearson x y <= 1.
Proof. intros HL Hx Hy. assert (H := pearson_sq x y HL Hx Hy). split; nra. Qed.
Lemma npclip_fin x lo hi : lo <= x <= hi -> npclip XRA (Fin x) (Fin lo) (Fin hi) = Fin x.
Proof. intros H. unfold npclip. rewrite npmax_fin, npmin_fin, Rmax_left, Rmin_left by lra. reflexivity. Qed.
Lemma corr_entry_fin z1 z2 : length z1 = length z2 -> non_constant z1 -> non_constant z2 ->
  corr_entry XRA (map Fin z1) (map Fin z2) 0 0 = Fin 1 /\
  corr_entry XRA (map Fin z1) (map Fin z2) 0 1 = Fin (pearson z1 z2) /\
  corr_entry XRA (map Fin z1) (map Fin z2) 1 0 = Fin (pearson z1 z2) /\
  corr_entry XRA (map Fin z1) (map Fin z2) 1 1 = Fin 1.
Proof.
  intros HL H1 H2. assert (P1 := covar_pos z1 H1). assert (P2 := covar_pos z2 H2). assert (L2 := non_constant_length z1 H1).
  assert (HM : returns_matrix [z1; z2] (length z1)).
  { split; [cbn; lia|]. split; [auto|]. intros x [<-|[<-|[]]]; auto. }
  assert (EC := np_cov_fin [z1; z2] (length z1) HM). cbn [map] in EC.
  unfold corr_entry. change (num XRA) with xr in *. rewrite EC. cbn [nth].
  assert (Q1 : 0 < sqrt (covar z1 z1)) by (apply sqrt_lt_R0; auto). assert (Q2 : 0 < sqrt (covar z2 z2)) by (apply sqrt_lt_R0; auto).
  assert (Sym : covar z2 z1 = covar z1 z2).
  { rewrite (covar_seq z2 z1 (length z1)), (covar_seq z1 z2 (length z1)) by auto. f_equal. apply Rsum_map_ext. intros; ring. }
  cbn [ndiv nsqrt nopp ofZ XRA xopp]. rewrite !xsqrt_fin by lra. rewrite !xdiv_fin by lra. rewrite Sym.
  assert (D1 : covar z1 z1 / sqrt (covar z1 z1) / sqrt (covar z1 z1) = 1).
  { replace (covar z1 z1) with (sqrt (covar z1 z1) * sqrt (covar z1 z1)) at 1 by (apply sqrt_sqrt; lra). field. lra. }
  assert (D2 : covar z2 z2 / sqrt (covar z2 z2) / sqrt (covar z2 z2) = 1).
  { replace (covar z2 z2) with (sqrt (covar z2 z2) * sqrt (covar z2 z2)) at 1 by (apply sqrt_sqrt; lra). field. lra. }
  assert (D3 : covar z1 z2 / sqrt (covar z1 z1) / sqrt (covar z2 z2) = pearson z1 z2) by (unfold pearson; rewrite sqrt_mult by lra; field; lra).
  assert (D4 : covar z1 z2 / sqrt (covar z2 z2) / sqrt (covar z1 z1) = pearson z1 z2) by (unfold pearson; rewrite sqrt_mult by lra; field; lra).
  rewrite D1, D2, D3, D4. assert (PR := pearson_range z1 z2 HL H1 H2).
  rewrite !npclip_fin by lra. auto.
Qed.

(** What the two backends compute. *)
Lemma cond_corr_py_value a b r1 r2 s1 s2 : length r1 = length s1 -> length r2 = length s2 -> length r1 = length r2 ->
  positive s1 -> positive s2 -> admissible a b ->
  let z1 := zscores r1 s1 in let z2 := zscores r2 s2 in non_constant z1 -> non_constant z2 ->
  pd (1, pearson z1 z2, 1) /\
  cond_corr_py XRA (Fin a) (Fin b) (map Fin r1) (map Fin r2) (map Fin s1) (map Fin s2) = Ok (map Fin (dcc_correlations a b (1, pearson z1 z2, 1) z1 z2)).
Proof.
  intros L1 L2 L12 P1 P2 HA z1 z2 N1 N2.
  assert (HL : length z1 = length z2) by (unfold z1, z2; rewrite !zscores_length by auto; auto).
  assert (HP : pd (1, pearson z1 z2, 1)) by (cbn; assert (X := pearson_sq z1 z2 HL N1 N2); lra).
  split; [auto|]. unfold cond_corr_py. change (num XRA) with xr. rewrite !standardize_fin by auto. fold z1 z2.
  destruct (corr_entry_fin z1 z2 HL N1 N2) as (E1 & E2 & _ & E4). change (num XRA) with xr in *. rewrite E1, E2, E4.
  assert (HN : z1 <> []) by (intros E; apply non_constant_length in N1; rewrite E in N1; cbn in N1; lia).
  rewrite (dcc_path_fin a b _ _ _ z1 z2 HA HP). destruct z1; [tauto|]. reflexivity.
Qed.
Lemma moment_fin (f : R -> R -> R) (g : xr -> xr -> xr) z1 z2 : (forall x y, g (Fin x) (Fin y) = Fin (f x y)) -> z1 <> [] ->
  xdiv (fold_left xadd (map2 g (map Fin z1) (map Fin z2)) (Fin 0)) (Fin (IZR (Z.of_nat (length z1)))) = Fin (Rsum (map2 f z1 z2) / INR (length z1)).
Proof.
  intros H Hn. rewrite map2_map. rewrite (map2_ext _ (fun x y => Fin (f x y))) by auto. rewrite <- (map_map2 Fin f).
  rewrite xsum_fin_acc, <- INR_IZR_INZ. rewrite Rplus_0_l. apply xdiv_fin. assert (X := INR_len_pos z1 Hn). lra.
Qed.
Lemma map2_const_l {X Y Z} (f : X -> Z) (x : list X) (y : list Y) : length x = length y -> map2 (fun a _ => f a) x y = map f x.
Proof. revert y. induction x as [|a x IH]; intros [|b y] H; cbn in *; try discriminate; [reflexivity|]. f_equal. apply IH. lia. Qed.
Lemma map2_const_r {X Y Z} (f : Y -> Z) (x : list X) (y : list Y) : length x = length y -> map2 (fun _ b => f b) x y = map f y.
Proof. revert y. induction x as [|a x IH]; intros [|b y] H; cbn in *; try discriminate; [reflexivity|]. f_equal. apply IH. lia. Qed.
Lemma moment2_self x : moment2 x x = Rsum (map (fun a => a * a) x) / INR (length x).
Proof. unfold moment2. f_equal. f_equal. induction x as [|a x IH]; [reflexivity|]. cbn [map2 map]. f_equal. exact IH. Qed.
Lemma moment2_pos x : non_zero x -> 0 < moment2 x x.
Proof.
  intros (a & Ha & Hne). rewrite moment2_self. assert (Hn : x <> []) by (intros ->; destruct Ha). assert (P := INR_len_pos x Hn).
  apply lt_div_iff; [auto|]. rewrite Rmult_0_l. apply (Rsum_pos _ (a * a)).
  - intros y Hy. apply in_map_iff in Hy. destruct Hy as (v & <- & _). apply sqr_nonneg.
  - apply in_map_iff. eauto.
  - apply Rsqr_pos_lt; auto.
Qed.
Lemma moment2_cs x y : length x = length y -> x <> [] -> moment2 x y * moment2 x y <= moment2 x x * moment2 y y.
Proof.
  intros HL Hn. rewrite !moment2_self. unfold moment2. rewrite <- HL. assert (P := INR_len_pos x Hn). set (N := INR (length x)) in *.
  assert (CS := cauchy_schwarz (fun p : R * R => fst p) (fun p => snd p) (combine x y)). cbv beta in CS.
  rewrite (map_fst_combine (fun a => a * a)) in CS by auto. rewrite (map_snd_combine (fun a => a * a)) in CS by auto.
  assert (E : map2 Rmult x y = map (fun p => fst p * snd p) (combine x y)) by (apply (map2_map_combine (fun a => a) (fun a => a) x y HL)).
  cbv beta. rewrite E. unfold Rsqr in CS.
  match goal with |- ?S0 / N * (?S0 / N) <= ?U0 / N * (?V0 / N) => set (S := S0) in *; set (U := U0) in *; set (V := V0) in * end.
  replace (S / N * (S / N)) with (S * S * (/ N * / N)) by (field; lra). replace (U / N * (V / N)) with (U * V * (/ N * / N)) by (field; lra).
  apply Rmult_le_compat_r; [|auto]. apply sqr_nonneg.
Qed.
Lemma cond_corr_cpp_value a b r1 r2 s1 s2 : length r1 = length s1 -> length r2 = length s2 -> length r1 = length r2 ->
  positive s1 -> positive s2 -> admissible a b ->
  let z1 := zscores r1 s1 in let z2 := zscores r2 s2 in non_zero z1 -> non_zero z2 ->
  pd (moment2 z1 z1, moment2 z1 z2, moment2 z2 z2) /\
  cond_corr_cpp XRA (Fin a) (Fin b) (map Fin r1) (map Fin r2) (map Fin s1) (map Fin s2) =
    Ok (map Fin (dcc_correlations a b (moment2 z1 z1, moment2 z1 z2, moment2 z2 z2) z1 z2)).
Proof.
  intros L1 L2 L12 P1 P2 HA z1 z2 N1 N2.
  assert (HL : length z1 = length z2) by (unfold z1, z2; rewrite !zscores_length by auto; auto).
  assert (HN : z1 <> []) by (intros E; destruct N1 as (? & X & _); rewrite E in X; destruct X).
  assert (HP : pd (moment2 z1 z1, moment2 z1 z2, moment2 z2 z2)).
  { cbn. split; [apply moment2_pos; auto|]. split; [apply moment2_pos; auto|apply moment2_cs; auto]. }
  split; [auto|]. unfold cond_corr_cpp. change (num XRA) with xr. rewrite !standardize_fin by auto. fold z1 z2.
  rewrite map_length. cbn [nadd ofZ ndiv nmul XRA].
  rewrite (moment_fin (fun x _ => x * x)), (moment_fin (fun x y => x * y)), (moment_fin (fun _ y => y * y)) by auto.
  rewrite (map2_const_l (fun x => x * x)), (map2_const_r (fun x => x * x)) by auto.
  rewrite <- moment2_self. replace (Rsum (map (fun x => x * x) z2) / INR (length z1)) with (moment2 z2 z2) by (rewrite HL; apply moment2_self).
  replace (Rsum (map2 (fun x y => x * y) z1 z2) / INR (length z1)) with (moment2 z1 z2) by reflexivity.
  rewrite (dcc_path_fin a b _ _ _ z1 z2 HA HP). destruct z1; [tauto|]. reflexivity.
Qed.

(** ** C15: conditional correlations lie in [-1,1] *)
Lemma non_constant_non_zero x : non_constant x -> non_zero x.
Proof.
  intros (a & b & Ha & Hb & Hne). destruct (Req_dec a 0) as [E|E]; [|exists a; auto]. exists b. split; [auto|]. lra.
Qed.
(** The correlation of the targeted unconditional matrix: sample correlation (Python), uncentered one (C++). *)
Definition target_correlation (cpp : bool) (z1 z2 : list R) : R :=
  if cpp then moment2 z1 z2 / sqrt (moment2 z1 z1 * moment2 z2 z2) else pearson z1 z2.
Lemma spd_of_corr b11 b12 b22 : 0 < b11 -> 0 < b22 -> -1 < b12 / sqrt (b11 * b22) < 1 -> spd (b11, b12, b22).
Proof.
  intros H1 H2 H. split; [auto|]. split; [auto|]. assert (HP : 0 < b11 * b22) by (apply Rmult_lt_0_compat; auto).
  assert (HS : 0 < sqrt (b11 * b22)) by (apply sqrt_lt_R0; auto). destruct H as [HA HB].
  apply lt_div_iff in HA; [|auto]. apply div_lt_iff in HB; [|auto]. rewrite <- (sqrt_sqrt (b11 * b22)) by lra. nra.
Qed.
Theorem C15_conditional_correlations_in_range : forall cpp a b r1 r2 s1 s2,
  length r1 = length s1 -> length r2 = length s2 -> length r1 = length r2 -> positive s1 -> positive s2 ->
  0 <= a -> 0 <= b -> a + b <= 1 -> ~ (a = 1 /\ b = 0) ->
  non_constant (zscores r1 s1) -> non_constant (zscores r2 s2) ->
  exists rho : list R,
    cond_corr XRA cpp (Fin a) (Fin b) (map Fin r1) (map Fin r2) (map Fin s1) (map Fin s2) = Ok (map Fin rho) /\
    length rho = length r1 /\
    Forall (fun r => -1 <= r <= 1) rho /\
    (a + b < 1 -> -1 < target_correlation cpp (zscores r1 s1) (zscores r2 s2) < 1 -> Forall (fun r => -1 < r < 1) rho).
Proof.
  intros cpp a b r1 r2 s1 s2 L1 L2 L12 P1 P2 Ha Hb Hab Hne N1 N2. assert (HA : admissible a b) by (repeat split; auto).
  assert (HL : length (zscores r1 s1) = length (zscores r2 s2)) by (rewrite !zscores_length by auto; auto).
  assert (HN : zscores r1 s1 <> []) by (intros E; apply non_constant_length in N1; rewrite E in N1; cbn in N1; lia).
  destruct cpp; cbn [cond_corr].
  - destruct (cond_corr_cpp_value a b r1 r2 s1 s2 L1 L2 L12 P1 P2 HA (non_constant_non_zero _ N1) (non_constant_non_zero _ N2)) as (HP & E).
    eexists. split; [exact E|]. split; [rewrite dcc_correlations_length by auto; apply zscores_length; auto|].
    split; [apply dcc_correlations_range; auto|]. intros Hlt Ht. apply dcc_correlations_strict; auto. cbn [target_correlation] in Ht.
    apply spd_of_corr; [| |exact Ht]; apply HP.
  - destruct (cond_corr_py_value a b r1 r2 s1 s2 L1 L2 L12 P1 P2 HA N1 N2) as (HP & E).
    eexists. split; [exact E|]. split; [rewrite dcc_correlations_length by auto; apply zscores_length; auto|].
    split; [apply dcc_correlations_range; auto|]. intros Hlt Ht. apply dcc_correlations_strict; auto. cbn [target_correlation] in Ht.
    repeat split; [lra|lra|nra].
Qed.
(** The excluded corner a = 1, b = 0: each step looks at one residual pair only; it is +1 or -1, and NaN (not a
    number in the range) as soon as a standardized residual is exactly zero. *)
Theorem C15_corner : forall b11 b12 b22 q11 q12 q22 z1 z2 zs,
  exists rest, dcc_loop XRA (Fin 1) (Fin 0) (Fin b11) (Fin b12) (Fin b22) (Fin q11) (Fin q12) (Fin q22) ((Fin z1, Fin z2) :: zs)
    = (if Req_EM_T (z1 * z2) 0 then NaN else if Rlt_dec 0 (z1 * z2) then Fin 1 else Fin (-1)) :: rest.
Proof.
  intros. cbn [dcc_loop]. eexists. f_equal.
  cbn [nadd nsub nmul ofZ XRA nsq xsub xopp xmul xadd xsq fst snd nsqrt ndiv].
  replace ((1 + - (1) + - 0) * b12 + 1 * z1 * z2 + 0 * q12) with (z1 * z2) by ring.
  replace (((1 + - (1) + - 0) * b11 + 1 * (z1 * z1) + 0 * q11) * ((1 + - (1) + - 0) * b22 + 1 * (z2 * z2) + 0 * q22)) with ((z1 * z2) * (z1 * z2)) by ring.
  replace ((1 - 1 - 0) * b12 + 1 * z1 * z2 + 0 * q12) with (z1 * z2) by ring.
  replace (((1 - 1 - 0) * b11 + 1 * (z1 * z1) + 0 * q11) * ((1 - 1 - 0) * b22 + 1 * (z2 * z2) + 0 * q22)) with ((z1 * z2) * (z1 * z2)) by ring.
  set (p := z1 * z2). rewrite xsqrt_fin by apply sqr_nonneg. change (p * p) with (Rsqr p). rewrite sqrt_Rsqr_abs.
  destruct (Req_EM_T p 0) as [E|E].
  - rewrite E, Rabs_R0. rewrite xdiv_0. apply xsgn_inf_0.
  - rewrite xdiv_fin by (apply Rabs_no_R0; auto). destruct (Rlt_dec 0 p) as [h|h]; f_equal.
    + rewrite Rabs_right by lra. field. lra.
    + rewrite Rabs_left by lra. field. lra.
Qed.
Lemma zscores_unit r n : length r = n -> zscores r (repeat 1 n) = r.
Proof. intros <-. unfold zscores. induction r as [|x r IH]; [reflexivity|]. cbn [length repeat map2]. rewrite IH, sqrt_1. f_equal. field. Qed.
(** The whole series at that corner, both backends. *)
Lemma combine_map_fin (z1 z2 : list R) : combine (map Fin z1) (map Fin z2) = map (fun p => (Fin (fst p), Fin (snd p))) (combine z1 z2).
Proof. revert z2. induction z1 as [|x z1 IH]; intros [|y z2]; cbn [map combine]; auto. f_equal. apply IH. Qed.
Lemma removelast_map_fin (l : list (R * R)) (f : R * R -> xr * xr) : removelast (map f l) = map f (removelast l).
Proof. induction l as [|x l IH]; auto. destruct l as [|y l]; auto. change (f x :: removelast (map f (y :: l)) = f x :: map f (removelast (y :: l))). f_equal. exact IH. Qed.
Definition one_day_sign (p : R * R) : xr :=
  if Req_EM_T (fst p * snd p) 0 then NaN else if Rlt_dec 0 (fst p * snd p) then Fin 1 else Fin (-1).
Lemma corner_loop b11 b12 b22 zs : forall q11 q12 q22,
  dcc_loop XRA (Fin 1) (Fin 0) (Fin b11) (Fin b12) (Fin b22) (Fin q11) (Fin q12) (Fin q22) (map (fun p => (Fin (fst p), Fin (snd p))) zs)
  = map one_day_sign zs.
Proof.
  induction zs as [|[z1 z2] zs IH]; intros q11 q12 q22; [reflexivity|]. cbn [map fst snd].
  destruct (C15_corner b11 b12 b22 q11 q12 q22 z1 z2 (map (fun p => (Fin (fst p), Fin (snd p))) zs)) as (rest & E).
  assert (E2 := E). cbn [dcc_loop] in E2. injection E2 as _ ER. refine (eq_trans E _). f_equal. rewrite <- ER.
  cbn [nadd nsub nmul ofZ XRA nsq xsub xopp xmul xadd xsq fst snd]. apply IH.
Qed.
Theorem C15_corner_series : forall cpp r1 r2 s1 s2,
  length r1 = length s1 -> length r2 = length s2 -> length r1 = length r2 -> positive s1 -> positive s2 ->
  let z1 := zscores r1 s1 in let z2 := zscores r2 s2 in
  non_constant z1 -> non_constant z2 ->
  cond_corr XRA cpp (Fin 1) (Fin 0) (map Fin r1) (map Fin r2) (map Fin s1) (map Fin s2) =
  Ok (Fin (target_correlation cpp z1 z2) :: map one_day_sign (removelast (combine z1 z2))).
Proof.
  intros cpp r1 r2 s1 s2 L1 L2 L12 P1 P2 z1 z2 N1 N2.
  assert (HL : length z1 = length z2) by (unfold z1, z2; rewrite !zscores_length by auto; auto).
  assert (HN : z1 <> []) by (intros E; apply non_constant_length in N1; rewrite E in N1; cbn in N1; lia).
  assert (G : forall b11 b12 b22, 0 < b11 -> 0 < b22 ->
    dcc_path XRA (Fin 1) (Fin 0) (Fin b11) (Fin b12) (Fin b22) (map Fin z1) (map Fin z2)
    = Fin (b12 / sqrt (b11 * b22)) :: map one_day_sign (removelast (combine z1 z2))).
  { intros b11 b12 b22 B1 B2. unfold dcc_path. assert (0 < b11 * b22) by (apply Rmult_lt_0_compat; auto).
    cbn [ndiv nsqrt nmul XRA xmul]. rewrite xsqrt_fin by lra. rewrite xdiv_fin by (assert (X := sqrt_lt_R0 _ H); lra).
    f_equal. refine (eq_trans _ (corner_loop b11 b12 b22 (removelast (combine z1 z2)) b11 b12 b22)). f_equal.
    refine (eq_trans (f_equal (@removelast _) (combine_map_fin z1 z2)) _). apply removelast_map_fin. }
  destruct cpp; cbn [cond_corr target_correlation].
  - unfold cond_corr_cpp. change (num XRA) with xr. rewrite !standardize_fin by auto. fold z1 z2.
    rewrite map_length. cbn [nadd ofZ ndiv nmul XRA].
    rewrite (moment_fin (fun x _ => x * x)), (moment_fin (fun x y => x * y)), (moment_fin (fun _ y => y * y)) by auto.
    rewrite (map2_const_l (fun x => x * x)), (map2_const_r (fun x => x * x)) by auto.
    rewrite <- moment2_self. replace (Rsum (map (fun x => x * x) z2) / INR (length z1)) with (moment2 z2 z2) by (rewrite HL; apply moment2_self).
    replace (Rsum (map2 (fun x y => x * y) z1 z2) / INR (length z1)) with (moment2 z1 z2) by reflexivity.
    assert (M1 := moment2_pos z1 (non_constant_non_zero _ N1)). assert (M2 := moment2_pos z2 (non_constant_non_zero _ N2)).
    rewrite G by auto. destruct z1; [tauto|]. reflexivity.
  - unfold cond_corr_py. change (num XRA) with xr. rewrite !standardize_fin by auto. fold z1 z2.
    destruct (corr_entry_fin z1 z2 HL N1 N2) as (E1 & E2 & _ & E4). change (num XRA) with xr in *. rewrite E1, E2, E4.
    rewrite G by lra. rewrite Rmult_1_r, sqrt_1. replace (pearson z1 z2 / 1) with (pearson z1 z2) by field.
    destruct z1; [tauto|]. reflexivity.
Qed.
Example C15_case : let r1 := [1; -1; 2; 0] in let s := [1; 1; 1; 1] in let r2 := [2; 1; -1; 0] in
  length r1 = length s /\ positive s /\ non_constant (zscores r1 s) /\ non_constant (zscores r2 s) /\ -1 < target_correlation true (zscores r1 s) (zscores r2 s) < 1.
Proof.
  cbn zeta. assert (Z1 : zscores [1; -1; 2; 0] [1; 1; 1; 1] = [1; -1; 2; 0]) by exact (zscores_unit _ _ eq_refl).
  assert (Z2 : zscores [2; 1; -1; 0] [1; 1; 1; 1] = [2; 1; -1; 0]) by exact (zscores_unit _ _ eq_refl).
  rewrite Z1, Z2. split; [reflexivity|]. split; [repeat constructor; lra|]. split; [exists 1, (-1); cbn; repeat split; auto; lra|].
  split; [exists 2, 1; cbn; repeat split; auto; lra|]. cbn [target_correlation].
  assert (M11 : moment2 [1; -1; 2; 0] [1; -1; 2; 0] = 6/4) by (unfold moment2; cbn; field).
  assert (M22 : moment2 [2; 1; -1; 0] [2; 1; -1; 0] = 6/4) by (unfold moment2; cbn; field).
  assert (M12 : moment2 [1; -1; 2; 0] [2; 1; -1; 0] = -1/4) by (unfold moment2; cbn; field).
  rewrite M11, M22, M12, sqrt_square by lra. lra.
Qed.

(** ** C16: the two backends *)
Lemma moment2_mean_zero x y : length x = length y -> (2 <= length x)%nat -> Rmean x = 0 -> Rmean y = 0 ->
  covar x y = INR (length x) / (INR (length x) - 1) * moment2 x y.
Proof.
  intros HL H2 Mx My. unfold covar, moment2. rewrite Mx, My. assert (1 < INR (length x)) by (apply (lt_INR 1); lia).
  rewrite (map2_ext _ Rmult) by (intros; ring). field. lra.
Qed.
Lemma pearson_mean_zero x y : length x = length y -> Rmean x = 0 -> Rmean y = 0 -> non_constant x -> non_constant y ->
  pearson x y = moment2 x y / (sqrt (moment2 x x) * sqrt (moment2 y y)).
Proof.
  intros HL Mx My Nx Ny. assert (H2 := non_constant_length x Nx). unfold pearson. rewrite !moment2_mean_zero by (auto; lia).
  assert (H : 1 < INR (length x)) by (apply (lt_INR 1); lia). rewrite <- HL. set (c := INR (length x) / (INR (length x) - 1)).
  assert (Hc : 0 < c) by (apply Rdiv_lt_0_compat; lra).
  assert (Px := moment2_pos x (non_constant_non_zero x Nx)). assert (Py := moment2_pos y (non_constant_non_zero y Ny)).
  assert (Qx : 0 < sqrt (moment2 x x)) by (apply sqrt_lt_R0; auto). assert (Qy : 0 < sqrt (moment2 y y)) by (apply sqrt_lt_R0; auto).
  replace (c * moment2 x x * (c * moment2 y y)) with ((c * c) * (moment2 x x * moment2 y y)) by ring.
  rewrite sqrt_mult by nra. rewrite sqrt_square by lra. rewrite sqrt_mult by lra. field. repeat split; lra.
Qed.
Theorem C16_backends_agree_on_standardized_series : forall a b r1 r2 s1 s2,
  length r1 = length s1 -> length r2 = length s2 -> length r1 = length r2 -> positive s1 -> positive s2 ->
  0 <= a -> 0 <= b -> a + b <= 1 -> ~ (a = 1 /\ b = 0) ->
  let z1 := zscores r1 s1 in let z2 := zscores r2 s2 in
  non_constant z1 -> non_constant z2 ->
  Rmean z1 = 0 -> Rmean z2 = 0 -> moment2 z1 z1 = 1 -> moment2 z2 z2 = 1 ->
  cond_corr_py XRA (Fin a) (Fin b) (map Fin r1) (map Fin r2) (map Fin s1) (map Fin s2) =
  cond_corr_cpp XRA (Fin a) (Fin b) (map Fin r1) (map Fin r2) (map Fin s1) (map Fin s2).
Proof.
  intros a b r1 r2 s1 s2 L1 L2 L12 P1 P2 Ha Hb Hab Hne z1 z2 N1 N2 M1 M2 V1 V2. assert (HA : admissible a b) by (repeat split; auto).
  assert (HL : length z1 = length z2) by (unfold z1, z2; rewrite !zscores_length by auto; auto).
  destruct (cond_corr_cpp_value a b r1 r2 s1 s2 L1 L2 L12 P1 P2 HA (non_constant_non_zero _ N1) (non_constant_non_zero _ N2)) as (_ & E1).
  destruct (cond_corr_py_value a b r1 r2 s1 s2 L1 L2 L12 P1 P2 HA N1 N2) as (_ & E2).
  rewrite E1, E2. fold z1 z2. rewrite V1, V2. rewrite (pearson_mean_zero z1 z2) by auto. rewrite V1, V2, sqrt_1.
  replace (moment2 z1 z2 / (1 * 1)) with (moment2 z1 z2) by field. reflexivity.
Qed.
(** With mean zero but any second moments: the C++ result is the Python result for the rescaled residuals. *)
Lemma dcc_correlations_scale a b c d b11 b12 b22 z1 z2 : 0 < c -> 0 < d ->
  dcc_correlations a b (c * c * b11, c * d * b12, d * d * b22) (map (fun x => c * x) z1) (map (fun x => d * x) z2) = dcc_correlations a b (b11, b12, b22) z1 z2.
Proof.
  intros Hc Hd. unfold dcc_correlations.
  assert (EC : combine (map (fun x => c * x) z1) (map (fun x => d * x) z2) = map (fun p => (c * fst p, d * snd p)) (combine z1 z2)).
  { revert z2. induction z1 as [|x z1 IH]; intros [|y z2]; cbn; f_equal; auto. }
  rewrite EC, removelast_map. generalize (removelast (combine z1 z2)). intros zs.
  assert (CS : forall q11 q12 q22, corr_of (c * c * q11, c * d * q12, d * d * q22) = corr_of (q11, q12, q22)).
  { intros. cbn [corr_of]. replace (c * c * q11 * (d * d * q22)) with ((c * d) * (c * d) * (q11 * q22)) by ring.
    assert (0 < c * d) by (apply Rmult_lt_0_compat; auto). rewrite sqrt_mult_alt by (apply sqr_nonneg). rewrite sqrt_square by lra.
    unfold Rdiv. rewrite Rinv_mult. transitivity (c * d * / (c * d) * (q12 * / sqrt (q11 * q22))); [ring|]. rewrite Rinv_r by lra. ring. }
  cbn [map]. f_equal; [apply CS|].
  assert (G : forall q11 q12 q22, map corr_of (Qpath a b (c * c * b11, c * d * b12, d * d * b22) (c * c * q11, c * d * q12, d * d * q22) (map (fun p => (c * fst p, d * snd p)) zs))
     = map corr_of (Qpath a b (b11, b12, b22) (q11, q12, q22) zs)).
  { induction zs as [|[u v] zs IH]; intros; [reflexivity|]. cbn [map Qpath fst snd].
    assert (EN : Qnext a b (c * c * b11, c * d * b12, d * d * b22) (c * c * q11, c * d * q12, d * d * q22) (c * u, d * v) =
       (c * c * ((1 - a - b) * b11 + a * u ^ 2 + b * q11), c * d * ((1 - a - b) * b12 + a * (u * v) + b * q12), d * d * ((1 - a - b) * b22 + a * v ^ 2 + b * q22))).
    { cbn [Qnext]. f_equal; [f_equal|]; ring. }
    rewrite EN. cbn [Qnext]. rewrite CS, IH. reflexivity. }
  apply G.
Qed.
Lemma zscores_scale c r s : zscores (map (fun x => c * x) r) s = map (fun x => c * x) (zscores r s).
Proof. unfold zscores. revert s. induction r as [|x r IH]; intros [|v s]; cbn; try reflexivity. f_equal; [unfold Rdiv; ring|apply IH]. Qed.
Theorem C16_cpp_is_python_on_rescaled_residuals : forall a b r1 r2 s1 s2,
  length r1 = length s1 -> length r2 = length s2 -> length r1 = length r2 -> positive s1 -> positive s2 ->
  0 <= a -> 0 <= b -> a + b <= 1 -> ~ (a = 1 /\ b = 0) ->
  let z1 := zscores r1 s1 in let z2 := zscores r2 s2 in
  non_constant z1 -> non_constant z2 -> Rmean z1 = 0 -> Rmean z2 = 0 ->
  cond_corr_cpp XRA (Fin a) (Fin b) (map Fin r1) (map Fin r2) (map Fin s1) (map Fin s2) =
  cond_corr_py XRA (Fin a) (Fin b) (map Fin (map (fun x => / sqrt (moment2 z1 z1) * x) r1)) (map Fin (map (fun x => / sqrt (moment2 z2 z2) * x) r2)) (map Fin s1) (map Fin s2).
Proof.
  intros a b r1 r2 s1 s2 L1 L2 L12 P1 P2 Ha Hb Hab Hne z1 z2 N1 N2 M1 M2. assert (HA : admissible a b) by (repeat split; auto).
  assert (HL : length z1 = length z2) by (unfold z1, z2; rewrite !zscores_length by auto; auto).
  assert (V1 := moment2_pos z1 (non_constant_non_zero _ N1)). assert (V2 := moment2_pos z2 (non_constant_non_zero _ N2)).
  assert (Q1 : 0 < sqrt (moment2 z1 z1)) by (apply sqrt_lt_R0; auto). assert (Q2 : 0 < sqrt (moment2 z2 z2)) by (apply sqrt_lt_R0; auto).
  assert (I1 := Rinv_0_lt_compat _ Q1). assert (I2 := Rinv_0_lt_compat _ Q2).
  set (c := / sqrt (moment2 z1 z1)) in *. set (d := / sqrt (moment2 z2 z2)) in *.
  assert (NS : forall e x, 0 < e -> non_constant x -> non_constant (map (fun t => e * t) x)).
  { intros e x He (u & v & Hu & Hv & Huv). exists (e * u), (e * v). split; [apply in_map_iff; eauto|]. split; [apply in_map_iff; eauto|]. intros E. apply Huv. apply (Rmult_eq_reg_l e); lra. }
  destruct (cond_corr_cpp_value a b r1 r2 s1 s2 L1 L2 L12 P1 P2 HA (non_constant_non_zero _ N1) (non_constant_non_zero _ N2)) as (_ & E1).
  assert (E2 := cond_corr_py_value a b (map (fun x => c * x) r1) (map (fun x => d * x) r2) s1 s2).
  rewrite !map_length, !zscores_scale in E2. fold z1 z2 in E2. destruct (E2 L1 L2 L12 P1 P2 HA (NS c z1 I1 N1) (NS d z2 I2 N2)) as (_ & E3).
  rewrite E1, E3. fold z1 z2. f_equal. f_equal.
  rewrite <- (dcc_correlations_scale a b c d (moment2 z1 z1) (moment2 z1 z2) (moment2 z2 z2) z1 z2) by auto. f_equal.
  assert (S1 : c * c * moment2 z1 z1 = 1).
  { unfold c. rewrite <- (sqrt_sqrt (moment2 z1 z1)) at 3 by lra. field. lra. }
  assert (S2 : d * d * moment2 z2 z2 = 1).
  { unfold d. rewrite <- (sqrt_sqrt (moment2 z2 z2)) at 3 by lra. field. lra. }
  assert (HM : forall e x, Rmean x = 0 -> Rmean (map (fun t => e * t) x) = 0) by (intros e x Hx; rewrite Rmean_scal, Hx; ring).
  assert (MS : forall e f x y, moment2 (map (fun t => e * t) x) (map (fun t => f * t) y) = e * f * moment2 x y).
  { intros. unfold moment2. rewrite map2_map, map_length. unfold Rdiv. rewrite <- Rmult_assoc. f_equal. rewrite <- Rsum_scal, map_map2. f_equal. apply map2_ext. intros; ring. }
  rewrite (pearson_mean_zero (map (fun x => c * x) z1) (map (fun x => d * x) z2)); [|rewrite !map_length; auto|auto|auto|auto|auto].
  rewrite !MS, S1, S2, sqrt_1. f_equal. f_equal. field.
Qed.
(** The first period shows each backend's target: they differ there exactly when the targets differ. *)
Theorem C16_first_period : forall cpp a b r1 r2 s1 s2,
  length r1 = length s1 -> length r2 = length s2 -> length r1 = length r2 -> positive s1 -> positive s2 ->
  0 <= a -> 0 <= b -> a + b <= 1 -> ~ (a = 1 /\ b = 0) ->
  let z1 := zscores r1 s1 in let z2 := zscores r2 s2 in
  non_constant z1 -> non_constant z2 ->
  exists later, cond_corr XRA cpp (Fin a) (Fin b) (map Fin r1) (map Fin r2) (map Fin s1) (map Fin s2)
    = Ok (map Fin (target_correlation cpp z1 z2 :: later)).
Proof.
  intros cpp a b r1 r2 s1 s2 L1 L2 L12 P1 P2 Ha Hb Hab Hne z1 z2 N1 N2. assert (HA : admissible a b) by (repeat split; auto).
  destruct cpp; cbn [cond_corr].
  - destruct (cond_corr_cpp_value a b r1 r2 s1 s2 L1 L2 L12 P1 P2 HA (non_constant_non_zero _ N1) (non_constant_non_zero _ N2)) as (_ & E).
    eexists. rewrite E. unfold dcc_correlations. cbn [map corr_of]. reflexivity.
  - destruct (cond_corr_py_value a b r1 r2 s1 s2 L1 L2 L12 P1 P2 HA N1 N2) as (_ & E).
    eexists. rewrite E. unfold dcc_correlations. cbn [map corr_of]. rewrite Rmult_1_r, sqrt_1. fold z1 z2.
    replace (pearson z1 z2 / 1) with (pearson z1 z2) by field. reflexivity.
Qed.
Corollary C16_first_period_differs : forall a b r1 r2 s1 s2 py cpp,
  length r1 = length s1 -> length r2 = length s2 -> length r1 = length r2 -> positive s1 -> positive s2 ->
  0 <= a -> 0 <= b -> a + b <= 1 -> ~ (a = 1 /\ b = 0) ->
  let z1 := zscores r1 s1 in let z2 := zscores r2 s2 in
  non_constant z1 -> non_constant z2 ->
  cond_corr_py XRA (Fin a) (Fin b) (map Fin r1) (map Fin r2) (map Fin s1) (map Fin s2) = Ok (map Fin py) ->
  cond_corr_cpp XRA (Fin a) (Fin b) (map Fin r1) (map Fin r2) (map Fin s1) (map Fin s2) = Ok (map Fin cpp) ->
  (nth 0 py 0 = nth 0 cpp 0 <-> moment2 z1 z2 / sqrt (moment2 z1 z1 * moment2 z2 z2) = covar z1 z2 / sqrt (covar z1 z1 * covar z2 z2)).
Proof.
  intros a b r1 r2 s1 s2 py cpp L1 L2 L12 P1 P2 Ha Hb Hab Hne z1 z2 N1 N2 E1 E2.
  destruct (C16_first_period false a b r1 r2 s1 s2 L1 L2 L12 P1 P2 Ha Hb Hab Hne N1 N2) as (l1 & F1).
  destruct (C16_first_period true a b r1 r2 s1 s2 L1 L2 L12 P1 P2 Ha Hb Hab Hne N1 N2) as (l2 & F2).
  cbn [cond_corr] in F1, F2. rewrite E1 in F1. rewrite E2 in F2. injection F1 as F1. injection F2 as F2.
  destruct py as [|p py]; [discriminate F1|]. destruct cpp as [|c cpp]; [discriminate F2|].
  cbn [map] in F1, F2. injection F1 as -> _. injection F2 as -> _. cbn [nth target_correlation].
  fold z1 z2. unfold pearson. split; intros ->; reflexivity.
Qed.
(** Otherwise they can differ: centred and uncentred correlation already at time 0 ... *)
Theorem C16_differ_when_mean_is_not_zero : exists r1 r2 s rho_py rho_cpp,
  cond_corr_py XRA (Fin (1/10)) (Fin (8/10)) (map Fin r1) (map Fin r2) (map Fin s) (map Fin s) = Ok (map Fin rho_py) /\
  cond_corr_cpp XRA (Fin (1/10)) (Fin (8/10)) (map Fin r1) (map Fin r2) (map Fin s) (map Fin s) = Ok (map Fin rho_cpp) /\
  nth 0 rho_py 0 = 1 /\ nth 0 rho_cpp 0 < 1.
Proof.
  assert (Z1 : zscores [1; 2] [1; 1] = [1; 2]) by exact (zscores_unit _ _ eq_refl).
  assert (Z2 : zscores [1; 3] [1; 1] = [1; 3]) by exact (zscores_unit _ _ eq_refl).
  assert (N1 : non_constant [1; 2]) by (exists 1, 2; cbn; repeat split; auto; lra).
  assert (N2 : non_constant [1; 3]) by (exists 1, 3; cbn; repeat split; auto; lra).
  assert (HA : admissible (1/10) (8/10)) by (unfold admissible; lra).
  assert (P : positive [1; 1]) by (repeat constructor; lra).
  exists [1; 2], [1; 3], [1; 1].
  assert (V1 := cond_corr_py_value (1/10) (8/10) [1; 2] [1; 3] [1; 1] [1; 1] eq_refl eq_refl eq_refl P P HA). cbv zeta in V1. rewrite Z1, Z2 in V1.
  destruct (V1 N1 N2) as (_ & E1).
  assert (V2 := cond_corr_cpp_value (1/10) (8/10) [1; 2] [1; 3] [1; 1] [1; 1] eq_refl eq_refl eq_refl P P HA). cbv zeta in V2. rewrite Z1, Z2 in V2.
  destruct (V2 (non_constant_non_zero _ N1) (non_constant_non_zero _ N2)) as (_ & E2).
  do 2 eexists. split; [exact E1|]. split; [exact E2|]. unfold dcc_correlations. cbn [map nth corr_of]. split.
  - assert (C11 : covar [1; 2] [1; 2] = 1/2) by (unfold covar, Rmean; cbn; field).
    assert (C22 : covar [1; 3] [1; 3] = 2) by (unfold covar, Rmean; cbn; field).
    assert (C12 : covar [1; 2] [1; 3] = 1) by (unfold covar, Rmean; cbn; field).
    unfold pearson. rewrite C11, C12, C22. replace (1/2*2) with 1 by field. rewrite Rmult_1_r, sqrt_1. field.
  - assert (C11 : moment2 [1; 2] [1; 2] = 5/2) by (unfold moment2; cbn; field).
    assert (C22 : moment2 [1; 3] [1; 3] = 5) by (unfold moment2; cbn; field).
    assert (C12 : moment2 [1; 2] [1; 3] = 7/2) by (unfold moment2; cbn; field).
    rewrite C11, C12, C22. assert (HS : 7/2 < sqrt (5/2*5)) by (rewrite <- (sqrt_square (7/2)) by lra; apply sqrt_lt_1_alt; lra).
    apply div_lt_iff; lra.
Qed.
(** ... and a different scale matters from time 1 on. *)
Theorem C16_differ_when_variance_is_not_one : exists r1 r2 s rho_py rho_cpp,
  Rmean (zscores r1 s) = 0 /\ Rmean (zscores r2 s) = 0 /\
  cond_corr_py XRA (Fin (1/2)) (Fin 0) (map Fin r1) (map Fin r2) (map Fin s) (map Fin s) = Ok (map Fin rho_py) /\
  cond_corr_cpp XRA (Fin (1/2)) (Fin 0) (map Fin r1) (map Fin r2) (map Fin s) (map Fin s) = Ok (map Fin rho_cpp) /\
  nth 0 rho_py 0 = nth 0 rho_cpp 0 /\ nth 1 rho_py 0 < nth 1 rho_cpp 0.
Proof.
  assert (Z1 : zscores [2; -2; 0] [1; 1; 1] = [2; -2; 0]) by exact (zscores_unit _ _ eq_refl).
  assert (Z2 : zscores [1/2; 1/2; -1] [1; 1; 1] = [1/2; 1/2; -1]) by exact (zscores_unit _ _ eq_refl).
  assert (N1 : non_constant [2; -2; 0]) by (exists 2, 0; cbn; repeat split; auto; lra).
  assert (N2 : non_constant [1/2; 1/2; -1]) by (exists (1/2), (-1); cbn; repeat split; auto; lra).
  assert (HA : admissible (1/2) 0) by (unfold admissible; lra).
  assert (P : positive [1; 1; 1]) by (repeat constructor; lra).
  exists [2; -2; 0], [1/2; 1/2; -1], [1; 1; 1].
  assert (V1 := cond_corr_py_value (1/2) 0 [2; -2; 0] [1/2; 1/2; -1] [1; 1; 1] [1; 1; 1] eq_refl eq_refl eq_refl P P HA). cbv zeta in V1. rewrite Z1, Z2 in V1.
  destruct (V1 N1 N2) as (_ & E1).
  assert (V2 := cond_corr_cpp_value (1/2) 0 [2; -2; 0] [1/2; 1/2; -1] [1; 1; 1] [1; 1; 1] eq_refl eq_refl eq_refl P P HA). cbv zeta in V2. rewrite Z1, Z2 in V2.
  destruct (V2 (non_constant_non_zero _ N1) (non_constant_non_zero _ N2)) as (_ & E2).
  do 2 eexists. rewrite Z1, Z2. split; [unfold Rmean; cbn; field|]. split; [unfold Rmean; cbn; field|].
  split; [exact E1|]. split; [exact E2|]. unfold dcc_correlations. cbn [combine removelast map Qpath nth Qnext corr_of].
  assert (C12 : covar [2; -2; 0] [1/2; 1/2; -1] = 0) by (unfold covar, Rmean; cbn; field).
  assert (M11 : moment2 [2; -2; 0] [2; -2; 0] = 8/3) by (unfold moment2; cbn; field).
  assert (M22 : moment2 [1/2; 1/2; -1] [1/2; 1/2; -1] = 1/2) by (unfold moment2; cbn; field).
  assert (M12 : moment2 [2; -2; 0] [1/2; 1/2; -1] = 0) by (unfold moment2; cbn; field).
  unfold pearson. rewrite C12, M11, M12, M22. split; [unfold Rdiv; rewrite !Rmult_0_l; reflexivity|].
  replace (((1 - 1/2 - 0) * 1 + 1/2 * 2 ^ 2 + 0 * 1) * ((1 - 1/2 - 0) * 1 + 1/2 * (1/2) ^ 2 + 0 * 1)) with (5/4 * (5/4)) by field.
  rewrite sqrt_square by lra.
  replace (((1 - 1/2 - 0) * (8/3) + 1/2 * 2 ^ 2 + 0 * (8/3)) * ((1 - 1/2 - 0) * (1/2) + 1/2 * (1/2) ^ 2 + 0 * (1/2))) with (5/4) by field.
  set (U := covar _ _). set (W := covar _ _). replace (0 / sqrt (U * W)) with 0 by (unfold Rdiv; ring).
  assert (HS : sqrt (5/4) < 5/4) by (rewrite <- (sqrt_square (5/4)) at 2 by lra; apply sqrt_lt_1_alt; lra).
  assert (HQ : 0 < sqrt (5/4)) by (apply sqrt_lt_R0; lra).
  apply lt_div_iff; [auto|]. nra.
Qed.

(** ** C17: the CCC log-likelihood *)
(** The bivariate normal density with zero means, variances [v], [w] and correlation [rho]. *)
Definition bivariate_density (v w rho x y : R) : R :=
  exp (- (x ^ 2 / v + y ^ 2 / w - 2 * rho * x * y / sqrt (v * w)) / (2 * (1 - rho ^ 2))) / (2 * PI * sqrt (v * w * (1 - rho ^ 2))).
Definition sum4 (f : R -> R -> R -> R -> R) (r1 s1 r2 s2 : list R) : R :=
  Rsum (map2 (fun p q => f (fst p) (snd p) (fst q) (snd q)) (combine r1 s1) (combine r2 s2)).
Lemma ln_bivariate v w rho x y : 0 < v -> 0 < w -> rho * rho < 1 ->
  ln (bivariate_density v w rho x y) =
  - (1/2) * (2 * ln (2 * PI) + ln (v * w * (1 - rho * rho)) + ((x / sqrt v) * (x / sqrt v) + (y / sqrt w) * (y / sqrt w) - 2 * rho * (x / sqrt v) * (y / sqrt w)) / (1 - rho * rho)).
Proof.
  intros Hv Hw Hr. unfold bivariate_density. assert (HPI := PI_RGT_0).
  assert (Qv : 0 < sqrt v) by (apply sqrt_lt_R0; auto). assert (Qw : 0 < sqrt w) by (apply sqrt_lt_R0; auto).
  assert (HP : 0 < v * w) by (apply Rmult_lt_0_compat; auto).
  replace (1 - rho ^ 2) with (1 - rho * rho) by ring.
  assert (HD : 0 < v * w * (1 - rho * rho)) by (apply Rmult_lt_0_compat; lra).
  assert (HS : 0 < sqrt (v * w * (1 - rho * rho))) by (apply sqrt_lt_R0; auto).
  rewrite ln_div by (try apply exp_pos; apply Rmult_lt_0_compat; lra). rewrite ln_exp, ln_mult, ln_sqrt by lra.
  rewrite sqrt_mult by lra.
  replace (x ^ 2 / v) with ((x / sqrt v) * (x / sqrt v)).
  2:{ rewrite <- (sqrt_sqrt v) at 3 by lra. field. lra. }
  replace (y ^ 2 / w) with ((y / sqrt w) * (y / sqrt w)).
  2:{ rewrite <- (sqrt_sqrt w) at 3 by lra. field. lra. }
  field. repeat split; lra.
Qed.
Lemma ccc_term_fin rho x v y w : 0 < v -> 0 < w -> rho * rho < 1 ->
  ccc_term XRA (Fin rho) (Fin x) (Fin v) (Fin y) (Fin w) = Fin (ln (bivariate_density v w rho x y)).
Proof.
  intros Hv Hw Hr. assert (HPI := PI_RGT_0).
  assert (Qv : 0 < sqrt v) by (apply sqrt_lt_R0; auto). assert (Qw : 0 < sqrt w) by (apply sqrt_lt_R0; auto).
  assert (HD : 0 < v * w * (1 - rho * rho)) by (repeat apply Rmult_lt_0_compat; lra).
  rewrite ln_bivariate by auto. unfold ccc_term.
  cbn [nopp lit nmul nlog nadd nsub ndiv nsq nsqrt ofZ npi XRA xopp xmul xsq]. rewrite !xsqrt_fin by lra. rewrite !xdiv_fin by lra.
  cbn [xmul xsub xadd xsq xopp]. rewrite xlog_fin by lra.
  rewrite xlog_fin by (exact HD). rewrite xdiv_fin by lra. cbn [xadd xmul]. f_equal. field. repeat split; lra.
Qed.
Lemma ccc_fin rho r1 s1 r2 s2 : positive s1 -> positive s2 -> rho * rho < 1 ->
  ccc_loglikelihood XRA (map Fin r1) (map Fin s1) (map Fin r2) (map Fin s2) (Fin rho) =
  Fin (sum4 (fun x v y w => ln (bivariate_density v w rho x y)) r1 s1 r2 s2).
Proof.
  intros P1 P2 Hr. unfold ccc_loglikelihood, sum4. change (num XRA) with xr. rewrite !combine_fin, map2_map. rewrite <- asum_fin, map_map2. f_equal.
  apply map2_ext_in. intros [x v] [y w] Hin. cbn [fst snd]. apply ccc_term_fin; auto.
  - apply in_combine_l in Hin. apply in_combine_r in Hin. unfold positive in P1. rewrite Forall_forall in P1. auto.
  - apply in_combine_r in Hin. apply in_combine_r in Hin. unfold positive in P2. rewrite Forall_forall in P2. auto.
Qed.
Theorem C17_bivariate_normal_loglik : forall rho r1 s1 r2 s2,
  length r1 = length s1 -> length r2 = length s2 -> length r1 = length r2 -> positive s1 -> positive s2 -> -1 < rho < 1 ->
  ccc_loglikelihood XRA (map Fin r1) (map Fin s1) (map Fin r2) (map Fin s2) (Fin rho) =
  Fin (sum4 (fun x v y w => ln (bivariate_density v w rho x y)) r1 s1 r2 s2).
Proof. intros. apply ccc_fin; auto. nra. Qed.
Lemma bivariate_independent v w x y : 0 < v -> 0 < w -> bivariate_density v w 0 x y = normal_density v x * normal_density w y.
Proof.
  intros Hv Hw. assert (HPI := PI_RGT_0). unfold bivariate_density, normal_density.
  assert (HP : 0 < v * w) by (apply Rmult_lt_0_compat; auto).
  replace (v * w * (1 - 0 ^ 2)) with (v * w) by ring.
  replace (exp (- x ^ 2 / (2 * v)) / sqrt (2 * PI * v) * (exp (- y ^ 2 / (2 * w)) / sqrt (2 * PI * w)))
     with (exp (- x ^ 2 / (2 * v)) * exp (- y ^ 2 / (2 * w)) / (sqrt (2 * PI * v) * sqrt (2 * PI * w))).
  2:{ assert (0 < sqrt (2 * PI * v)) by (apply sqrt_lt_R0; apply Rmult_lt_0_compat; lra). assert (0 < sqrt (2 * PI * w)) by (apply sqrt_lt_R0; apply Rmult_lt_0_compat; lra). field. lra. }
  rewrite <- exp_plus, <- sqrt_mult by (apply Rmult_le_pos; lra). f_equal.
  - f_equal. assert (0 < sqrt (v * w)) by (apply sqrt_lt_R0; auto). field. repeat split; lra.
  - f_equal. replace (2 * PI * v * (2 * PI * w)) with ((2 * PI) * (2 * PI) * (v * w)) by ring.
    rewrite (sqrt_mult (2 * PI * (2 * PI))) by nra. rewrite sqrt_square by lra. reflexivity.
Qed.
Lemma sum4_plus f g r1 s1 r2 s2 : length r1 = length s1 -> length r2 = length s2 -> length r1 = length r2 ->
  sum4 (fun x v y w => f x v + g y w) r1 s1 r2 s2 = Rsum (map2 f r1 s1) + Rsum (map2 g r2 s2).
Proof.
  unfold sum4. revert s1 r2 s2. induction r1 as [|x r1 IH]; intros [|v s1] [|y r2] [|w s2] H1 H2 H3; cbn in *; try discriminate; [ring|].
  rewrite IH by lia. ring.
Qed.
Lemma sum4_ext f g r1 s1 r2 s2 : positive s1 -> positive s2 -> (forall x v y w, 0 < v -> 0 < w -> f x v y w = g x v y w) ->
  sum4 f r1 s1 r2 s2 = sum4 g r1 s1 r2 s2.
Proof.
  intros P1 P2 H. unfold sum4. f_equal. apply map2_ext_in. intros [x v] [y w] Hin. cbn [fst snd]. apply H.
  - apply in_combine_l in Hin. apply in_combine_r in Hin. unfold positive in P1. rewrite Forall_forall in P1. auto.
  - apply in_combine_r in Hin. apply in_combine_r in Hin. unfold positive in P2. rewrite Forall_forall in P2. auto.
Qed.
Lemma normal_density_pos v x : 0 < v -> 0 < normal_density v x.
Proof. intros Hv. assert (HPI := PI_RGT_0). unfold normal_density. apply Rdiv_lt_0_compat; [apply exp_pos|]. apply sqrt_lt_R0. apply Rmult_lt_0_compat; lra. Qed.
Theorem C17_zero_correlation_is_the_sum_of_the_univariate_ones : forall r1 s1 r2 s2,
  length r1 = length s1 -> length r2 = length s2 -> length r1 = length r2 -> positive s1 -> positive s2 ->
  ccc_loglikelihood XRA (map Fin r1) (map Fin s1) (map Fin r2) (map Fin s2) (Fin 0) =
  xadd (loglikelihood XRA (map Fin r1) (map Fin s1)) (loglikelihood XRA (map Fin r2) (map Fin s2)).
Proof.
  intros r1 s1 r2 s2 L1 L2 L12 P1 P2. rewrite ccc_fin, !loglik_fin by (auto; lra). cbn [xadd]. f_equal.
  rewrite <- sum4_plus by auto. apply sum4_ext; auto. intros x v y w Hv Hw. rewrite bivariate_independent by auto.
  apply ln_mult; apply normal_density_pos; auto.
Qed.
Theorem C17_symmetric : forall rho r1 s1 r2 s2,
  length r1 = length s1 -> length r2 = length s2 -> length r1 = length r2 -> positive s1 -> positive s2 -> -1 < rho < 1 ->
  ccc_loglikelihood XRA (map Fin r1) (map Fin s1) (map Fin r2) (map Fin s2) (Fin rho) =
  ccc_loglikelihood XRA (map Fin r2) (map Fin s2) (map Fin r1) (map Fin s1) (Fin rho).
Proof.
  intros rho r1 s1 r2 s2 L1 L2 L12 P1 P2 Hr. rewrite !ccc_fin by (auto; nra). f_equal.
  unfold sum4. clear P1 P2. revert s1 r2 s2 L1 L2 L12. induction r1 as [|x r1 IH]; intros [|v s1] [|y r2] [|w s2] H1 H2 H3; cbn in *; try discriminate; [ring|].
  rewrite IH by lia. f_equal. f_equal. unfold bivariate_density. rewrite (Rmult_comm w v). do 4 f_equal. rewrite (Rplus_comm (y ^ 2 / w)). f_equal. f_equal. ring.
Qed.

(** ** C18: the two-step likelihood *)
Definition clip99 (r : R) : R := Rmax (-99/100) (Rmin r (99/100)).
Lemma clip99_range r : -1 < clip99 r < 1 /\ clip99 r * clip99 r < 1.
Proof.
  unfold clip99. assert (H : -99/100 <= Rmax (-99/100) (Rmin r (99/100)) <= 99/100).
  { split; [apply Rmax_l|]. apply Rmax_lub; [lra|apply Rmin_r]. }
  split; [lra|nra].
Qed.
Definition sum5 (f : R -> R -> R -> R -> R -> R) (rho r1 s1 r2 s2 : list R) : R :=
  Rsum (map2 (fun c pq => f c (fst (fst pq)) (snd (fst pq)) (fst (snd pq)) (snd (snd pq))) rho (combine (combine r1 s1) (combine r2 s2))).
Lemma dcc_term_fin rho x y : rho * rho < 1 ->
  dcc_term XRA (Fin rho) (Fin x) (Fin y) = Fin (- (1/2) * (- (x * x + y * y) + ln (1 - rho * rho) + (x * x + y * y - 2 * rho * x * y) / (1 - rho * rho))).
Proof.
  intros Hr. unfold dcc_term. cbn [nopp lit nmul nlog nadd nsub ndiv nsq ofZ XRA xopp xmul xsq xadd xsub].
  rewrite xlog_fin by lra. rewrite xdiv_fin by lra. cbn [xadd xmul]. f_equal. field. lra.
Qed.
Lemma clip_fin r : npclip XRA (Fin r) (nopp (lit 99 100)) (lit 99 100) = Fin (clip99 r).
Proof.
  unfold npclip. cbn [nopp lit XRA xopp]. rewrite npmax_fin, npmin_fin. f_equal. unfold clip99.
  unfold Rmax, Rmin. repeat destruct (Rle_dec _ _); lra.
Qed.
Theorem C18_two_step_loglik_is_the_bivariate_one : forall rho r1 s1 r2 s2,
  length r1 = length s1 -> length r2 = length s2 -> length r1 = length r2 -> length rho = length r1 -> positive s1 -> positive s2 ->
  dcc_negative_loglik XRA (loglikelihood XRA (map Fin r1) (map Fin s1)) (loglikelihood XRA (map Fin r2) (map Fin s2)) (map Fin rho)
    (standardize XRA (map Fin r1) (map Fin s1)) (standardize XRA (map Fin r2) (map Fin s2)) =
  Fin (- sum5 (fun c x v y w => ln (bivariate_density v w (clip99 c) x y)) rho r1 s1 r2 s2).
Proof.
  intros rho r1 s1 r2 s2 L1 L2 L12 LR P1 P2. unfold dcc_negative_loglik. rewrite !loglik_fin by auto. change (num XRA) with xr.
  rewrite !standardize_fin by auto. rewrite combine_fin, map_map, map2_map. cbn [fst snd].
  rewrite (map2_ext _ (fun c p => Fin (- (1/2) * (- (fst p * fst p + snd p * snd p) + ln (1 - clip99 c * clip99 c) + (fst p * fst p + snd p * snd p - 2 * clip99 c * fst p * snd p) / (1 - clip99 c * clip99 c))))).
  2:{ intros c p. rewrite clip_fin. apply dcc_term_fin. apply clip99_range. }
  rewrite <- (map_map2 Fin (fun c p => - (1/2) * (- (fst p * fst p + snd p * snd p) + ln (1 - clip99 c * clip99 c) + (fst p * fst p + snd p * snd p - 2 * clip99 c * fst p * snd p) / (1 - clip99 c * clip99 c)))).
  rewrite asum_fin. cbn [nadd nopp XRA xadd xopp]. f_equal. f_equal.
  unfold sum5, zscores. revert s1 r2 s2 rho L1 L2 L12 LR P1 P2.
  induction r1 as [|x r1 IH]; intros [|v s1] [|y r2] [|w s2] [|c rho] H1 H2 H3 H4 P1 P2; cbn [length] in *; try discriminate; [cbn; ring|].
  inversion P1; inversion P2; subst. cbn [map2 combine Rsum fst snd]. rewrite <- (IH s1 r2 s2 rho) by (auto; lia).
  destruct (clip99_range c) as [_ HC]. rewrite ln_bivariate by auto.
  assert (HP : 0 < v * w) by (apply Rmult_lt_0_compat; auto).
  assert (HD : 0 < 1 - clip99 c * clip99 c) by lra. rewrite (ln_mult (v * w)) by auto. rewrite (ln_mult v w) by auto.
  assert (Hn : forall x v, 0 < v -> ln (normal_density v x) = - (1/2) * (ln (2 * PI) + ln v + (x / sqrt v) * (x / sqrt v))).
  { clear. intros x v Hv. assert (HPI := PI_RGT_0). unfold normal_density. assert (0 < 2 * PI * v) by (apply Rmult_lt_0_compat; lra).
    rewrite ln_div by (try apply exp_pos; apply sqrt_lt_R0; auto). rewrite ln_exp, ln_sqrt, ln_mult by lra.
    replace ((x / sqrt v) * (x / sqrt v)) with (x ^ 2 / v); [field; lra|]. rewrite <- (sqrt_sqrt v) at 1 by lra. assert (0 < sqrt v) by (apply sqrt_lt_R0; auto). field. lra. }
  rewrite !Hn by auto. field. repeat split; try lra; apply Rgt_not_eq, sqrt_lt_R0; auto.
Qed.
(** Inside the clipping band nothing is clipped. *)
Theorem C18_clipping_is_inactive_inside : forall r, -99/100 <= r <= 99/100 -> clip99 r = r.
Proof. intros r H. unfold clip99. rewrite Rmin_left, Rmax_right by lra. reflexivity. Qed.
Example C17_case : ccc_loglikelihood XRA [Fin 1] [Fin 1] [Fin 0] [Fin 1] (Fin (1/2)) = Fin (ln (bivariate_density 1 1 (1/2) 1 0)).
Proof.
  change [Fin 1] with (map Fin [1]). change [Fin 0] with (map Fin [0]).
  rewrite (C17_bivariate_normal_loglik (1/2) [1] [1] [0] [1]); try reflexivity; [|repeat constructor; lra|repeat constructor; lra|lra].
  unfold sum4. cbn [combine map2 Rsum fst snd]. f_equal. ring.
Qed.
