(** * Theorems: the simulated draws of the distress insurance premium (C93-C95) *)
From Coq Require Import Reals Lra ZArith List Bool Arith Lia.
From Coquelicot Require Import Coquelicot.
From Verif Require Import Arith XR RealAux Gauss Model_dip Model_dipdraws Props_dip Props_ar Cholesky.
Import ListNotations.
Local Open Scope R_scope.

Notation fmat M := (map (map Fin) M).

(** ** C93: the Cholesky factor *)
Theorem C93_succeeds_iff_positive_definite : forall C, square C ->
  ((exists L, cholesky XRA (fmat C) = Ok L) <-> positive_definite (length C) (lower_sym (mat C))).
Proof.
  intros C Sq. destruct (cholesky_fin C Sq) as [(L & E & Ln & SL & F)|(E & N)]; split; intros H.
  - exact (factor_positive _ _ _ F).
  - eauto.
  - destruct H as [L H]. rewrite E in H. discriminate.
  - contradiction.
Qed.
Theorem C93_result_is_the_factor : forall C X, square C -> cholesky XRA (fmat C) = Ok X ->
  exists L, X = fmat L /\ length L = length C /\ square L /\ cholesky_factor (length C) (mat C) (mat L) /\
    (forall L', cholesky_factor (length C) (mat C) L' -> forall i j, (i < length C)%nat -> (j < length C)%nat -> L' i j = mat L i j).
Proof.
  intros C X Sq H. destruct (cholesky_fin C Sq) as [(L & E & Ln & SL & F)|(E & N)]; rewrite E in H; [|discriminate].
  injection H as <-. exists L. repeat split; auto; try apply F. intros L' F' i j Hi Hj. exact (factor_unique _ _ _ _ F' F i j Hi Hj).
Qed.
Lemma chol_row_err A rows a e : chol_row A rows a = Err e -> e = LinAlgError.
Proof. unfold chol_row, check. destruct (nltb _ _); intros H; inversion H; auto. Qed.
Lemma chol_rows_err A todo : forall rows e, chol_rows A rows todo = Err e -> e = LinAlgError.
Proof.
  induction todo as [|a todo IH]; intros rows e; cbn [chol_rows]; [discriminate|]. destruct (chol_row A rows a) eqn:E; cbn [bind].
  - apply IH.
  - intros H. injection H as <-. eapply chol_row_err; eauto.
Qed.
(** any arithmetic: the only exception is LinAlgError *)
Theorem C93_only_linalgerror : forall (A : Arith) C e, cholesky A C = Err e -> e = LinAlgError.
Proof.
  intros A C e. unfold cholesky, check. destruct (forallb _ C); [|intros H; inversion H; auto].
  destruct (chol_rows A [] C) eqn:E; cbn [bind]; [discriminate|]. intros H. injection H as <-. eapply chol_rows_err; eauto.
Qed.
Theorem C93_not_square : forall (A : Arith) C r, In r C -> length r <> length C -> cholesky A C = Err LinAlgError.
Proof.
  intros A C r Hr Hl. unfold cholesky, check. destruct (forallb _ C) eqn:E; auto.
  rewrite forallb_forall in E. specialize (E r Hr). apply Nat.eqb_eq in E. contradiction.
Qed.
(** any arithmetic: what is above the diagonal is never read *)
Lemma solve_firstn A rows : forall acc a a', (forall j d, (j < length rows)%nat -> nth j a d = nth j a' d) -> length a = length a' ->
  solve A acc rows a = solve A acc rows a'.
Proof.
  induction rows as [|r rows IH]; intros acc a a' H Hl; [reflexivity|]. destruct a as [|x a], a' as [|x' a']; try discriminate; [reflexivity|].
  cbn [solve]. assert (E := H 0%nat x ltac:(cbn; lia)). cbn in E. subst x'. apply IH; [|cbn in Hl; lia].
  intros j d Hj. apply (H (S j) d). cbn. lia.
Qed.
Lemma chol_rows_lower A : forall todo todo' rows, Forall2 (fun a a' => length a = length a') todo todo' ->
  (forall i j d, (i < length todo)%nat -> (j <= length rows + i)%nat -> nth j (nth i todo []) d = nth j (nth i todo' []) d) ->
  chol_rows A rows todo = chol_rows A rows todo'.
Proof.
  intros todo todo' rows F. revert rows. induction F as [|a a' todo todo' Hl F IH]; intros rows H; [reflexivity|]. cbn [chol_rows].
  assert (E : chol_row A rows a = chol_row A rows a').
  { unfold chol_row. rewrite (solve_firstn A rows [] a a'); auto.
    - rewrite (H 0%nat (length rows)) by (cbn; lia). reflexivity.
    - intros j d Hj. apply (H 0%nat j d); cbn; lia. }
  rewrite E. destruct (chol_row A rows a') as [l|]; cbn [bind]; auto. apply IH. intros i j d Hi Hj. apply (H (S i) j d); cbn [length]; [lia|].
  rewrite app_length in Hj. cbn [length] in Hj. lia.
Qed.
Lemma same_lengths {X} n : forall (C C' : list (list X)), length C = length C' ->
  (forall r, In r C -> length r = n) -> (forall r, In r C' -> length r = n) -> Forall2 (fun a a' => length a = length a') C C'.
Proof.
  induction C as [|a C IH]; intros [|a' C'] Hl H1 H2; try discriminate; constructor.
  - rewrite H1, H2; cbn; auto.
  - cbn in Hl. apply IH; try lia; intros; [apply H1 | apply H2]; cbn; auto.
Qed.
Theorem C93_upper_triangle_ignored : forall (A : Arith) C C', length C = length C' ->
  (forall r, In r C -> length r = length C) -> (forall r, In r C' -> length r = length C) ->
  (forall i j d, (i < length C)%nat -> (j <= i)%nat -> nth j (nth i C []) d = nth j (nth i C' []) d) ->
  cholesky A C = cholesky A C'.
Proof.
  intros A C C' Hl S1 S2 H. unfold cholesky.
  assert (F1 : forallb (fun r => Nat.eqb (length r) (length C)) C = true) by (apply forallb_forall; intros; apply Nat.eqb_eq; auto).
  assert (F2 : forallb (fun r => Nat.eqb (length r) (length C)) C' = true) by (apply forallb_forall; intros; apply Nat.eqb_eq; auto).
  rewrite <- Hl, F1, F2. unfold check.
  rewrite (chol_rows_lower A C C' []); [reflexivity | apply (same_lengths (length C)); auto | intros i j d Hi Hj; apply H; auto].
Qed.

(** a matrix with two equal columns (two banks with identical asset returns) has no Cholesky factor: LinAlgError *)
Theorem C93_perfect_correlation : forall C i j, square C -> (i < length C)%nat -> (j < length C)%nat -> i <> j ->
  (forall k, (k < length C)%nat -> lower_sym (mat C) k i = lower_sym (mat C) k j) ->
  cholesky XRA (fmat C) = Err LinAlgError.
Proof.
  intros C i j Sq Hi Hj Hij E. destruct (cholesky XRA (fmat C)) as [X|e] eqn:HX.
  - exfalso. assert (PD := proj1 (C93_succeeds_iff_positive_definite C Sq) (ex_intro _ X HX)).
    specialize (PD (fun k => delta i k - delta j k)).
    assert (Z : quad (length C) (lower_sym (mat C)) (fun k => delta i k - delta j k) = 0).
    { unfold quad. apply inner_zero. intros k Hk.
      assert (Eq : inner (length C) (lower_sym (mat C) k) (fun k0 => delta i k0 - delta j k0) = inner (length C) (delta i) (lower_sym (mat C) k) - inner (length C) (delta j) (lower_sym (mat C) k)).
      { rewrite inner_comm. unfold inner. rewrite <- Rsum_minus. apply Rsum_map_ext. intros. ring. }
      rewrite Eq. unfold inner at 1 2. rewrite !Rsum_delta by auto. rewrite (E k Hk). ring. }
    rewrite Z in PD. apply (Rlt_irrefl 0). apply PD. exists i. split; auto. unfold delta. rewrite Nat.eqb_refl.
    replace (Nat.eqb j i) with false by (symmetry; apply Nat.eqb_neq; auto). lra.
  - rewrite (C93_only_linalgerror _ _ _ HX). reflexivity.
Qed.
Example C93_case : square [[1; 7]; [1/2; 1]] /\ cholesky_factor 2 (mat [[1; 7]; [1/2; 1]]) (mat [[1; 0]; [1/2; sqrt (3/4)]]) /\
  (exists L, cholesky XRA (fmat [[1; 7]; [1/2; 1]]) = Ok L) /\ cholesky XRA (fmat [[1; 1]; [1; 1]]) = Err LinAlgError.
Proof.
  assert (S1 : square [[1; 7]; [1/2; 1]]) by (intros r [<-|[<-|[]]]; reflexivity).
  assert (F : cholesky_factor 2 (mat [[1; 7]; [1/2; 1]]) (mat [[1; 0]; [1/2; sqrt (3/4)]])).
  { repeat split.
    - intros [|[|i]] [|[|j]]; intros; try lia; reflexivity.
    - intros [|[|i]]; intros; try lia; cbn; [lra | apply sqrt_lt_R0; lra].
    - intros [|[|i]] [|[|j]]; intros; try lia; unfold inner, mat; cbn; try lra. rewrite sqrt_sqrt; lra. }
  split; [auto|split; [auto|split]].
  - apply (proj2 (C93_succeeds_iff_positive_definite _ S1)). exact (factor_positive _ _ _ F).
  - apply (C93_perfect_correlation [[1; 1]; [1; 1]] 0 1); cbn; try lia.
    + intros r [<-|[<-|[]]]; reflexivity.
    + intros [|[|k]] Hk; try lia; reflexivity.
Qed.

(** ** C94: thresholds, correlated returns, joint defaults *)
(** [q] is an exact quantile function of the standard normal *)
Definition exact_quantile (q : xr -> xr) : Prop := forall p, 0 < p < 1 -> exists x, q (Fin p) = Fin x /\ Phi x = p.
Lemma quantile_exists p : 0 < p < 1 -> exists x, Phi x = p.
Proof.
  intros Hp. destruct (Phi_small p ltac:(lra)) as [a Ha]. destruct (Phi_small (1 - p) ltac:(lra)) as [b Hb].
  assert (Hc : continuity (fun x => Phi x - p)).
  { intros x. apply continuity_pt_minus; [|apply continuity_pt_const; intros u v; reflexivity].
    apply continuity_pt_filterlim. apply (ex_derive_continuous Phi). exists (phi x). apply Phi_derive. }
  assert (Hb' : p < Phi (- b)) by (rewrite Phi_symmetric; lra).
  assert (Hab : a < - b). { destruct (Rlt_le_dec a (- b)) as [|H]; auto. apply Phi_nondecreasing in H. lra. }
  destruct (IVT (fun x => Phi x - p) a (- b) Hc Hab ltac:(lra) ltac:(lra)) as (x & _ & Hx). exists x. lra.
Qed.
Lemma quantile_bound p : 0 < p < 1 -> bound (fun x => Phi x <= p).
Proof.
  intros Hp. destruct (quantile_exists p Hp) as [x Hx]. exists x. intros y Hy. destruct (Rle_lt_dec y x) as [|H]; auto.
  apply Phi_increasing in H. lra.
Qed.
Lemma quantile_inhabited p : 0 < p < 1 -> exists x, Phi x <= p.
Proof. intros Hp. destruct (quantile_exists p Hp) as [x Hx]. exists x. lra. Qed.
Definition normal_quantile (x : xr) : xr :=
  match x with
  | Fin p => match Rlt_dec 0 p with
             | left H0 => match Rlt_dec p 1 with
                          | left H1 => Fin (proj1_sig (completeness _ (quantile_bound p (conj H0 H1)) (quantile_inhabited p (conj H0 H1))))
                          | _ => NaN end
             | _ => NaN end
  | _ => NaN
  end.
Theorem C94_quantile_exists : exact_quantile normal_quantile.
Proof.
  intros p Hp. unfold normal_quantile. destruct (Rlt_dec 0 p) as [H0|]; [|lra]. destruct (Rlt_dec p 1) as [H1|]; [|lra].
  destruct (completeness _ _ _) as [m Hm]. cbn [proj1_sig]. exists m. split; auto.
  destruct (quantile_exists p Hp) as [x Hx]. replace m with x; auto. destruct Hm as [U M]. apply Rle_antisym.
  - apply U. lra.
  - apply M. intros y Hy. destruct (Rle_lt_dec y x) as [|H]; auto. apply Phi_increasing in H. lra.
Qed.

(** inv_cdf refuses exactly the probabilities outside (0,1) *)
Lemma inv_cdf_fin q p : inv_cdf XRA q (Fin p) = if Rle_dec p 0 then Err ValueError else if Rle_dec 1 p then Err ValueError else Ok (q (Fin p)).
Proof.
  unfold inv_cdf. change (@nleb XRA) with xleb. change (@ofZ XRA 0) with (Fin 0). change (@ofZ XRA 1) with (Fin 1).
  destruct (Rle_dec p 0); [rewrite xleb_true by auto; reflexivity|]. rewrite xleb_false by lra.
  destruct (Rle_dec 1 p); [rewrite xleb_true by auto; reflexivity|]. rewrite xleb_false by lra. reflexivity.
Qed.
Theorem C94_thresholds : forall q ps,
  ((forall p, In p ps -> 0 < p < 1) -> default_thresholds XRA q (map Fin ps) = Ok (map (fun p => q (Fin p)) ps)) /\
  ((exists p, In p ps /\ ~ 0 < p < 1) -> default_thresholds XRA q (map Fin ps) = Err ValueError).
Proof.
  intros q ps. induction ps as [|p ps [IH1 IH2]]; cbn [map default_thresholds].
  - split; [reflexivity|]. intros (p & [] & _).
  - rewrite inv_cdf_fin. split.
    + intros H. assert (Hp := H p (or_introl eq_refl)). destruct (Rle_dec p 0); [lra|]. destruct (Rle_dec 1 p); [lra|].
      cbn [bind]. rewrite IH1 by (intros; apply H; cbn; auto). reflexivity.
    + intros (p' & [<-|Hin] & Hp').
      * destruct (Rle_dec p 0); [reflexivity|]. destruct (Rle_dec 1 p); [reflexivity|]. exfalso. apply Hp'. lra.
      * destruct (Rle_dec p 0); [reflexivity|]. destruct (Rle_dec 1 p); [reflexivity|]. cbn [bind]. rewrite IH2 by eauto. reflexivity.
Qed.
(** a NaN probability is not refused *)
Theorem C94_nan_probability_accepted : forall q, default_thresholds XRA q [NaN] = Ok [q NaN].
Proof. reflexivity. Qed.

(** *** Correlated returns *)
Definition zval (L : list (list R)) (e : list R) (i : nat) : R := Rsum (map2 Rmult e (nth i L [])).
Lemma correlate_fin L normals : correlate XRA (fmat L) (fmat normals) = fmat (map (fun e => map (fun l => Rsum (map2 Rmult e l)) L) normals).
Proof.
  unfold correlate. rewrite !map_map. apply map_ext. intros e. rewrite !map_map. apply map_ext. intros l.
  rewrite map2_fin_mul, asum_fin. reflexivity.
Qed.
Lemma zval_inner L e i n : length e = n -> length (nth i L []) = n -> zval L e i = inner n (vec e) (mat L i).
Proof. intros He Hl. unfold zval. rewrite (dot_inner e (nth i L []) n) by lia. reflexivity. Qed.

(** mean and second moment of a list of weighted scenarios *)
Definition wmean (ws : list R) (f : list R -> R) (es : list (list R)) : R := Rsum (map2 (fun w e => w * f e) ws es).
Lemma wmean_plus ws f g es : wmean ws (fun e => f e + g e) es = wmean ws f es + wmean ws g es.
Proof. unfold wmean. revert es. induction ws as [|w ws IH]; intros [|e es]; cbn [map2 Rsum]; try lra. rewrite IH. ring. Qed.
Lemma wmean_scal c ws f es : wmean ws (fun e => c * f e) es = c * wmean ws f es.
Proof. unfold wmean. revert es. induction ws as [|w ws IH]; intros [|e es]; cbn [map2 Rsum]; try lra. rewrite IH. ring. Qed.
Lemma wmean_0 ws es : wmean ws (fun _ => 0) es = 0.
Proof. unfold wmean. revert es. induction ws as [|w ws IH]; intros [|e es]; cbn [map2 Rsum]; try lra. rewrite IH. ring. Qed.
Lemma wmean_ext ws f g es : (forall e, In e es -> f e = g e) -> wmean ws f es = wmean ws g es.
Proof.
  unfold wmean. revert es. induction ws as [|w ws IH]; intros [|e es] H; cbn [map2 Rsum]; auto.
  rewrite (H e (or_introl eq_refl)), IH; auto. intros. apply H. cbn; auto.
Qed.
Lemma wmean_inner ws n (f : nat -> list R -> R) c es : wmean ws (fun e => inner n (fun k => f k e) c) es = inner n (fun k => wmean ws (f k) es) c.
Proof.
  induction n. { unfold inner. cbn [seq map Rsum]. apply wmean_0. }
  rewrite inner_S, <- IHn.
  rewrite (wmean_ext ws (fun e => inner (S n) (fun k => f k e) c) (fun e => inner n (fun k => f k e) c + c n * f n e)) by (intros; rewrite inner_S; ring).
  rewrite wmean_plus, wmean_scal. ring.
Qed.
(** Correlated returns reproduce the correlation matrix: if, over any weighted set of scenarios, the generator's
    normals have means 0 and the identity as second moments, then the simulated returns have means 0 and second
    moments exactly the given matrix (its lower triangle). *)
Theorem C94_returns_have_given_covariance : forall C X ws normals, square C -> cholesky XRA (fmat C) = Ok X ->
  (forall e, In e normals -> length e = length C) ->
  (forall k, (k < length C)%nat -> wmean ws (fun e => nth k e 0) normals = 0) ->
  (forall k l, (k < length C)%nat -> (l < length C)%nat -> wmean ws (fun e => nth k e 0 * nth l e 0) normals = delta k l) ->
  exists Z, correlate XRA X (fmat normals) = fmat Z /\ length Z = length normals /\
    (forall i, (i < length C)%nat -> wmean ws (fun z => nth i z 0) Z = 0) /\
    (forall i j, (i < length C)%nat -> (j <= i)%nat -> wmean ws (fun z => nth i z 0 * nth j z 0) Z = mat C i j).
Proof.
  intros C X ws normals Sq H Hlen M1 M2. destruct (C93_result_is_the_factor C X Sq H) as (L & -> & Ln & SL & F & _).
  exists (map (fun e => map (fun l => Rsum (map2 Rmult e l)) L) normals). rewrite correlate_fin. split; [reflexivity|]. split; [apply map_length|].
  assert (Zi : forall e i, (i < length C)%nat -> nth i (map (fun l => Rsum (map2 Rmult e l)) L) 0 = zval L e i).
  { intros e i Hi. unfold zval. rewrite (nth_indep _ 0 (Rsum (map2 Rmult e []))) by (rewrite map_length; lia).
    exact (map_nth (fun l => Rsum (map2 Rmult e l)) L [] i). }
  assert (Zv : forall e i, In e normals -> (i < length C)%nat -> zval L e i = inner (length C) (vec e) (mat L i)).
  { intros e i He Hi. apply zval_inner; [apply Hlen; auto|]. rewrite <- Ln. apply SL. apply nth_In. lia. }
  assert (W : forall f, wmean ws f (map (fun e => map (fun l => Rsum (map2 Rmult e l)) L) normals) = wmean ws (fun e => f (map (fun l => Rsum (map2 Rmult e l)) L)) normals).
  { intros f. unfold wmean. clear. revert normals. induction ws as [|w ws IH]; intros [|e es]; cbn [map map2 Rsum]; auto. rewrite IH. reflexivity. }
  split.
  - intros i Hi. rewrite W. rewrite (wmean_ext ws _ (fun e => inner (length C) (fun k => nth k e 0) (mat L i))).
    + rewrite (wmean_inner ws (length C) (fun k e => nth k e 0)). rewrite inner_comm. apply inner_zero. intros k Hk. apply M1; auto.
    + intros e He. rewrite Zi by auto. apply Zv; auto.
  - intros i j Hi Hj. rewrite W.
    rewrite (wmean_ext ws _ (fun e => inner (length C) (fun k => inner (length C) (fun l => nth l e 0 * nth k e 0) (mat L j)) (mat L i))).
    + rewrite (wmean_inner ws (length C) (fun k e => inner (length C) (fun l => nth l e 0 * nth k e 0) (mat L j))).
      rewrite (inner_ext (length C) _ (mat L i) (mat L j) (mat L i)).
      * destruct F as (_ & _ & F). rewrite inner_comm. apply F; auto.
      * intros k Hk. rewrite (wmean_inner ws (length C) (fun l e => nth l e 0 * nth k e 0)).
        rewrite (inner_ext (length C) _ (mat L j) (delta k) (mat L j)); auto.
        -- unfold inner. apply Rsum_delta. auto.
        -- intros l Hl. rewrite M2 by auto. unfold delta. rewrite Nat.eqb_sym. reflexivity.
      * auto.
    + intros e He. rewrite !Zi, !Zv by (auto; lia).
      rewrite (inner_ext (length C) (fun k => inner (length C) (fun l => nth l e 0 * nth k e 0) (mat L j)) (mat L i) (fun k => inner (length C) (vec e) (mat L j) * vec e k) (mat L i)).
      * rewrite inner_scal. ring.
      * intros k Hk. rewrite (inner_ext (length C) (fun l => nth l e 0 * nth k e 0) (mat L j) (fun l => vec e k * vec e l) (mat L j)) by (intros; unfold vec; auto; ring).
        rewrite inner_scal. ring.
      * auto.
Qed.
(** [zval] of a scenario has the square norm of its row of L: unit variance iff the diagonal of the matrix is 1 *)
Theorem C94_row_norms : forall C X, square C -> cholesky XRA (fmat C) = Ok X ->
  exists L, X = fmat L /\ forall i, (i < length C)%nat -> inner (length C) (mat L i) (mat L i) = mat C i i /\ 0 < mat C i i.
Proof.
  intros C X Sq H. destruct (C93_result_is_the_factor C X Sq H) as (L & -> & Ln & SL & F & _). exists L. split; auto.
  intros i Hi. destruct F as (_ & P & F). rewrite F by auto. split; auto. rewrite <- (F i i Hi (le_n i)).
  assert (D : 0 < mat L i i) by auto. assert (N := inner_self_nonneg (length C) (mat L i)).
  destruct (Rle_lt_or_eq_dec _ _ N) as [|E]; auto. assert (Z := inner_self_zero _ _ (eq_sym E) i Hi). lra.
Qed.

(** *** Joint defaults *)
Definition defaults (ps zs : list R) : nat := length (filter (fun b => b) (map2 (fun p z => if Rlt_dec (Phi z) p then true else false) ps zs)).
Lemma Phi_lt_iff x y : Phi x < Phi y <-> x < y.
Proof.
  split; [|apply Phi_increasing]. intros H. destruct (Rlt_le_dec x y) as [|H']; auto. apply Phi_nondecreasing in H'. lra.
Qed.
(** bank i defaults in a scenario exactly when the normal cdf of its return is below its default probability *)
Theorem C94_default_iff : forall q, exact_quantile q -> forall p z, 0 < p < 1 ->
  (@nltb XRA (Fin z) (q (Fin p)) = true <-> Phi z < p).
Proof.
  intros q Hq p z Hp. destruct (Hq p Hp) as (x & -> & Hx). rewrite (xltb_iff z x : @nltb XRA (Fin z) (Fin x) = true <-> _).
  rewrite <- Hx. symmetry. apply Phi_lt_iff.
Qed.
Theorem C94_number_of_defaults : forall q, exact_quantile q -> forall ps zs, (forall p, In p ps -> 0 < p < 1) ->
  n_defaults XRA (map (fun p => q (Fin p)) ps) (map Fin zs) = defaults ps zs.
Proof.
  intros q Hq ps zs H. unfold n_defaults, defaults. f_equal. f_equal. revert zs. induction ps as [|p ps IH]; intros [|z zs]; cbn [map map2]; try reflexivity.
  - f_equal.
    + assert (D := C94_default_iff q Hq p z (H p (or_introl eq_refl))). destruct (Rlt_dec (Phi z) p) as [L|L].
      * apply D; auto.
      * destruct (nltb _ _); auto. exfalso. apply L, D. reflexivity.
    + apply IH. intros. apply H. cbn; auto.
Qed.

(** more default-prone banks default in more scenarios; in particular P(at least k defaults) never falls *)
Lemma defaults_mono ps ps' zs : Forall2 Rle ps ps' -> (defaults ps zs <= defaults ps' zs)%nat.
Proof.
  intros F. revert zs. induction F as [|p p' ps ps' Hp F IH]; intros [|z zs]; unfold defaults; cbn [map2 filter length]; try lia.
  specialize (IH zs). unfold defaults in IH. destruct (Rlt_dec (Phi z) p), (Rlt_dec (Phi z) p'); cbn [length]; lia || lra.
Qed.
Lemma tail_freq th z k : z <> [] -> (k <= length th)%nat ->
  Rsum (map (freq th z) (seq k (length th + 1 - k))) = INR (length (filter (fun row => (k <=? n_defaults XRA th row)%nat) z)) / INR (length z).
Proof.
  intros Hz Hk. unfold freq, Rdiv. rewrite <- (map_map (fun i => INR (times th z i)) (fun x => x * / INR (length z))), Rsum_scal_r. f_equal.
  clear Hz. induction z as [|row z IH].
  - unfold times. cbn [filter length]. rewrite Rsum_const. cbn. lra.
  - cbn [filter]. assert (B := n_defaults_le th row). set (d := n_defaults XRA th row) in *.
    assert (E : Rsum (map (fun i => INR (times th (row :: z) i)) (seq k (length th + 1 - k))) = Rsum (map (fun i => INR (times th z i)) (seq k (length th + 1 - k))) + Rsum (map (fun i => if Nat.eqb d i then 1 else 0) (seq k (length th + 1 - k)))).
    { rewrite <- Rsum_plus. apply Rsum_map_ext. intros i _. unfold times. cbn [filter]. fold d. destruct (Nat.eqb d i); cbn [length]; rewrite ?S_INR; lra. }
    rewrite E, IH. clear E IH.
    assert (P : forall c s, Rsum (map (fun i => if Nat.eqb d i then 1 else 0) (seq s c)) = if (s <=? d)%nat && (d <? s + c)%nat then 1 else 0).
    { clear. induction c as [|c IH]; intros s; cbn [seq map Rsum].
      - destruct (Nat.leb_spec s d), (Nat.ltb_spec d (s + 0)); cbn [andb]; auto; lia.
      - rewrite IH. destruct (Nat.eqb_spec d s), (Nat.leb_spec (S s) d), (Nat.leb_spec s d), (Nat.ltb_spec d (S s + c)), (Nat.ltb_spec d (s + S c)); cbn [andb]; try lia; lra. }
    rewrite P. destruct (Nat.leb_spec k d), (Nat.ltb_spec d (k + (length th + 1 - k))); cbn [andb length]; change (num XRA) with xr in *; rewrite ?S_INR; try lia; lra.
Qed.
Theorem C94_joint_defaults_monotone : forall q, exact_quantile q -> forall ps ps' zs k, Forall2 Rle ps ps' ->
  (forall p, In p ps -> 0 < p < 1) -> (forall p, In p ps' -> 0 < p < 1) -> zs <> [] -> (k <= length ps)%nat ->
  Rsum (map (freq (map (fun p => q (Fin p)) ps) (fmat zs)) (seq k (length ps + 1 - k))) <=
  Rsum (map (freq (map (fun p => q (Fin p)) ps') (fmat zs)) (seq k (length ps + 1 - k))).
Proof.
  intros q Hq ps ps' zs k F H H' Hz Hk. assert (Ln : length ps' = length ps) by (clear - F; induction F; cbn; congruence).
  assert (T := tail_freq (map (fun p => q (Fin p)) ps) (fmat zs) k). assert (T' := tail_freq (map (fun p => q (Fin p)) ps') (fmat zs) k).
  rewrite map_length in T, T'. rewrite Ln in T'. assert (Hz' : fmat zs <> []) by (destruct zs; [exfalso; apply Hz; reflexivity|discriminate]). rewrite (T Hz' Hk), (T' Hz' Hk).
  rewrite map_length. apply Rmult_le_compat_r.
  { left. apply Rinv_0_lt_compat, lt_0_INR. destruct zs; [contradiction|cbn; lia]. }
  apply le_INR. clear T T' Hz Hz'. induction zs as [|z zs IH]; [cbn; lia|]. cbn [map filter].
  rewrite !C94_number_of_defaults by auto. assert (M := defaults_mono ps ps' z F).
  change (num XRA) with xr in *. destruct (Nat.leb_spec k (defaults ps z)), (Nat.leb_spec k (defaults ps' z)); cbn [length]; lia.
Qed.
(** the average number of simultaneous defaults is the sum over the banks of the fraction of scenarios in which the
    bank defaults: it equals the sum of the default probabilities exactly when the sampled marginals do *)
Definition bank_fraction (p : R) (i : nat) (zs : list (list R)) : R :=
  INR (length (filter (fun z => if Rlt_dec (Phi (nth i z 0)) p then true else false) zs)) / INR (length zs).
Lemma defaults_sum ps z : length z = length ps ->
  INR (defaults ps z) = Rsum (map (fun i => if Rlt_dec (Phi (nth i z 0)) (nth i ps 0) then 1 else 0) (seq 0 (length ps))).
Proof.
  revert z. induction ps as [|p ps IH]; intros [|x z] H; try discriminate; [reflexivity|]. cbn [length] in H.
  unfold defaults. cbn [map2 filter]. cbn [length seq map Rsum nth]. rewrite <- seq_shift, map_map. cbn [nth].
  rewrite <- (IH z) by lia. unfold defaults. destruct (Rlt_dec (Phi x) p); cbn [length]; rewrite ?S_INR; lra.
Qed.
Theorem C94_mean_number_of_defaults : forall q, exact_quantile q -> forall ps zs, (forall p, In p ps -> 0 < p < 1) -> zs <> [] ->
  (forall z, In z zs -> length z = length ps) ->
  Rsum (map (fun k => INR k * freq (map (fun p => q (Fin p)) ps) (fmat zs) k) (seq 0 (length ps + 1))) =
  Rsum (map (fun i => bank_fraction (nth i ps 0) i zs) (seq 0 (length ps))).
Proof.
  intros q Hq ps zs H Hz Hl. set (th := map (fun p => q (Fin p)) ps).
  assert (P0 : 0 < INR (length zs)) by (apply lt_0_INR; destruct zs; [contradiction|cbn; lia]).
  assert (E1 : Rsum (map (fun k => INR k * freq th (fmat zs) k) (seq 0 (length ps + 1))) = Rsum (map (fun k => INR k * INR (times th (fmat zs) k)) (seq 0 (length ps + 1))) * / INR (length zs)).
  { rewrite <- Rsum_scal_r, map_map. apply Rsum_map_ext. intros k _. unfold freq. rewrite map_length. unfold Rdiv. ring. }
  assert (E2 : Rsum (map (fun i => bank_fraction (nth i ps 0) i zs) (seq 0 (length ps))) = Rsum (map (fun i => INR (length (filter (fun z => if Rlt_dec (Phi (nth i z 0)) (nth i ps 0) then true else false) zs))) (seq 0 (length ps))) * / INR (length zs)).
  { rewrite <- Rsum_scal_r, map_map. reflexivity. }
  rewrite E1, E2. f_equal. clear E1 E2 P0 Hz. induction zs as [|z zs IH].
  - unfold times. cbn [map filter length]. rewrite (Rsum_map_ext _ (fun _ => 0)) by (intros; cbn; ring). rewrite !Rsum_const. cbn. ring.
  - assert (D := C94_number_of_defaults q Hq ps z H). fold th in D.
    transitivity (Rsum (map (fun k => INR k * INR (times th (fmat zs) k)) (seq 0 (length ps + 1))) + INR (defaults ps z)).
    + assert (B := n_defaults_le th (map Fin z)). rewrite D in B. unfold th in B. rewrite map_length in B.
      transitivity (Rsum (map (fun k => INR k * INR (times th (fmat zs) k)) (seq 0 (length ps + 1))) + Rsum (map (fun k => delta (defaults ps z) k * INR k) (seq 0 (length ps + 1)))).
      * rewrite <- Rsum_plus. apply Rsum_map_ext. intros k _. unfold times, delta. cbn [map filter]. rewrite D.
        destruct (Nat.eqb (defaults ps z) k); cbn [length]; rewrite ?S_INR; lra.
      * f_equal. apply Rsum_delta. lia.
    + rewrite IH by (intros; apply Hl; cbn; auto). rewrite (defaults_sum ps z) by (apply Hl; cbn; auto). rewrite <- Rsum_plus.
      apply Rsum_map_ext. intros i _. cbn [filter]. destruct (Rlt_dec _ _); cbn [length]; rewrite ?S_INR; lra.
Qed.
(** A covariance matrix in place of a correlation matrix is accepted silently and changes the default probabilities:
    bank i then defaults when its unit-variance return x = z/sd satisfies Phi x < Phi (q/sd), and that level is the
    given probability only if the variance is 1 or the probability is 1/2. *)
Theorem C94_covariance_matrix_changes_probabilities : forall q, exact_quantile q -> forall p sd, 0 < p < 1 -> 0 < sd ->
  exists p', (forall x, @nltb XRA (Fin (sd * x)) (q (Fin p)) = true <-> Phi x < p') /\ (p' = p <-> sd = 1 \/ p = 1/2).
Proof.
  intros q Hq p sd Hp Hs. destruct (Hq p Hp) as (t & Et & Ht). exists (Phi (t / sd)). split.
  - intros x. rewrite Et, (xltb_iff (sd * x) t : @nltb XRA _ (Fin t) = true <-> _), Phi_lt_iff.
    rewrite (Rmult_comm sd x). symmetry. apply (lt_div_iff t sd x Hs).
  - assert (Inj : forall a b, Phi a = Phi b -> a = b).
    { intros a b E. destruct (Rtotal_order a b) as [L|[L|L]]; auto; apply Phi_increasing in L; lra. }
    rewrite <- Ht. rewrite <- Phi_0. split.
    + intros E. apply Inj in E. assert (E' : t * (1 - sd) = 0). { assert (E2 : t = t / sd * sd) by (field; lra). rewrite E in E2. lra. }
      apply Rmult_integral in E'. destruct E' as [->|E']; [right; reflexivity | left; lra].
    + intros [->|E]; [f_equal; field|]. apply Inj in E. rewrite E. f_equal. field. lra.
Qed.
Example C94_case : exact_quantile normal_quantile /\
  default_thresholds XRA normal_quantile (map Fin [1/10; 1/2]) = Ok [normal_quantile (Fin (1/10)); normal_quantile (Fin (1/2))] /\
  default_thresholds XRA normal_quantile (map Fin [1/10; 1]) = Err ValueError /\
  defaults [1/10; 1/2] [3; -1] = 1%nat /\
  (* two scenarios +-1 for one bank have mean 0 and second moment 1 *)
  wmean [1/2; 1/2] (fun e => nth 0 e 0) [[1]; [-1]] = 0 /\ wmean [1/2; 1/2] (fun e => nth 0 e 0 * nth 0 e 0) [[1]; [-1]] = delta 0 0 /\
  correlate XRA (fmat [[2]]) (fmat [[1]; [-1]]) = fmat [[2]; [-2]].
Proof.
  split; [exact C94_quantile_exists|]. split.
  { apply (proj1 (C94_thresholds normal_quantile [1/10; 1/2])). intros p [<-|[<-|[]]]; lra. }
  split. { apply (proj2 (C94_thresholds normal_quantile [1/10; 1])). exists 1. split; [cbn; auto|lra]. }
  split.
  { unfold defaults. cbn [map2 filter]. assert (A1 := Phi_increasing 0 3 ltac:(lra)). assert (A2 := Phi_increasing (-1) 0 ltac:(lra)). rewrite Phi_0 in *.
    destruct (Rlt_dec (Phi 3) (1/10)); [lra|]. destruct (Rlt_dec (Phi (-1)) (1/2)); [reflexivity|lra]. }
  split; [unfold wmean; cbn; lra|]. split; [unfold wmean, delta; cbn; lra|].
  rewrite correlate_fin. cbn [map map2 Rsum]. do 2 f_equal; [|f_equal]; f_equal; f_equal; ring.
Qed.

(** ** C95: loss draws and the outcome of the whole method *)
(** the triangular distribution on [0.1, 1] with mode 0.55: distribution function, and the draw for a uniform U *)
Definition tri_cdf (x : R) : R := if Rle_dec x (55/100) then (x - 1/10) ^ 2 / (81/200) else 1 - (1 - x) ^ 2 / (81/200).
Definition lgd (U : R) : R := if Rle_dec U (1/2) then 1/10 + sqrt (U * (81/200)) else 1 - sqrt ((1 - U) * (81/200)).
Lemma lgd_fin U : 0 <= U <= 1 -> lgd_draw XRA (Fin U) = Fin (lgd U).
Proof.
  intros H. unfold lgd_draw, triangular, lgd. change (@lit XRA 1 10) with (Fin (1/10)). change (@lit XRA 55 100) with (Fin (55/100)).
  change (@ofZ XRA 1) with (Fin 1). change (@nsub XRA) with xsub. change (@nmul XRA) with xmul. change (@nadd XRA) with xadd.
  change (@nsqrt XRA) with xsqrt. change (@nleb XRA) with xleb. change (@ndiv XRA) with xdiv. cbn [xsub xadd xopp xmul].
  rewrite xdiv_fin by lra. replace ((55/100 - 1/10) / (1 - 1/10)) with (1/2) by field.
  replace ((55/100 - 1/10) * (1 - 1/10)) with (81/200) by field. replace ((1 - 55/100) * (1 - 1/10)) with (81/200) by field.
  destruct (Rle_dec U (1/2)).
  - rewrite xleb_true by auto. rewrite xsqrt_fin by nra. reflexivity.
  - rewrite xleb_false by lra. rewrite xsqrt_fin by nra. reflexivity.
Qed.
Lemma sqrt_left U : 0 <= U <= 1/2 -> 0 <= sqrt (U * (81/200)) <= 45/100.
Proof.
  intros H. split; [apply sqrt_pos|]. rewrite <- (sqrt_square (45/100)) by lra. apply sqrt_le_1_alt. lra.
Qed.
Lemma lgd_left U : 0 <= U <= 1/2 -> 1/10 <= lgd U <= 55/100.
Proof. intros H. unfold lgd. destruct (Rle_dec U (1/2)); [|lra]. assert (S := sqrt_left U H). lra. Qed.
Lemma lgd_right U : 1/2 < U < 1 -> 55/100 < lgd U < 1.
Proof.
  intros H. unfold lgd. destruct (Rle_dec U (1/2)); [lra|].
  assert (0 < sqrt ((1 - U) * (81/200))) by (apply sqrt_lt_R0; lra).
  assert (sqrt ((1 - U) * (81/200)) < 45/100); [|lra]. rewrite <- (sqrt_square (45/100)) by lra. apply sqrt_lt_1_alt. lra.
Qed.
(** every draw is a number in [0.1, 1), and its distribution function value is the uniform it was made from *)
Theorem C95_draws : forall U, 0 <= U < 1 -> exists x, lgd_draw XRA (Fin U) = Fin x /\ 1/10 <= x < 1 /\ tri_cdf x = U.
Proof.
  intros U H. exists (lgd U). split; [apply lgd_fin; lra|]. destruct (Rle_lt_dec U (1/2)) as [L|L].
  - assert (B := lgd_left U ltac:(lra)). split; [lra|]. unfold tri_cdf. destruct (Rle_dec (lgd U) (55/100)); [|lra].
    unfold lgd. destruct (Rle_dec U (1/2)); [|lra]. replace (1/10 + sqrt (U * (81/200)) - 1/10) with (sqrt (U * (81/200))) by ring.
    cbn [pow]. rewrite Rmult_1_r, sqrt_sqrt by lra. field.
  - assert (B := lgd_right U ltac:(lra)). split; [lra|]. unfold tri_cdf. destruct (Rle_dec (lgd U) (55/100)); [lra|].
    unfold lgd. destruct (Rle_dec U (1/2)); [lra|]. replace (1 - (1 - sqrt ((1 - U) * (81/200)))) with (sqrt ((1 - U) * (81/200))) by ring.
    cbn [pow]. rewrite Rmult_1_r, sqrt_sqrt by lra. field.
Qed.
(** the draw is at most x exactly when the uniform is at most F(x) *)
Theorem C95_triangular_law : forall U x, 0 <= U < 1 -> 1/10 <= x < 1 ->
  (exists y, lgd_draw XRA (Fin U) = Fin y /\ (y <= x <-> U <= tri_cdf x)).
Proof.
  intros U x HU Hx. destruct (C95_draws U HU) as (y & E & By & Fy). exists y. split; auto. rewrite <- Fy.
  assert (M : forall a b, 1/10 <= a < 1 -> 1/10 <= b < 1 -> a < b -> tri_cdf a < tri_cdf b).
  { clear. intros a b Ha Hb H. unfold tri_cdf. destruct (Rle_dec a (55/100)), (Rle_dec b (55/100)); try lra; unfold Rdiv.
    - apply Rmult_lt_compat_r; [lra|]. nra.
    - assert ((a - 1/10) ^ 2 <= (45/100) ^ 2) by (apply pow_incr; lra). assert ((1 - b) ^ 2 < (45/100) ^ 2) by nra. lra.
    - assert ((1 - b) ^ 2 < (1 - a) ^ 2) by nra. lra. }
  split; intros H.
  - destruct (Rle_lt_or_eq_dec _ _ H) as [L|L]; [left; auto|subst; lra].
  - destruct (Rle_lt_dec y x) as [|L]; auto. assert (C := M x y Hx By L). lra.
Qed.
(** antithetic uniforms give draws symmetric about the mean 0.55 *)
Theorem C95_symmetric : forall U, 0 < U < 1 -> U <> 1/2 -> exists x y, lgd_draw XRA (Fin U) = Fin x /\ lgd_draw XRA (Fin (1 - U)) = Fin y /\ x + y = 11/10.
Proof.
  intros U H Hn. exists (lgd U), (lgd (1 - U)). rewrite !lgd_fin by lra. repeat split.
  unfold lgd. destruct (Rle_dec U (1/2)), (Rle_dec (1 - U) (1/2)); replace (1 - (1 - U)) with U by ring; lra.
Qed.

(** *** Everything [estimate] can do *)
Definition lgds (Us : nat -> list (list R)) (i : nat) : list (list R) := map (map lgd) (Us i).
(** the arrays of uniforms have the shapes requested on l.61 *)
Definition uniforms_ok (n m : nat) (Us : nat -> list (list R)) : Prop :=
  forall i, (i < n)%nat -> length (Us i) = S i /\ forall row, In row (Us i) -> length row = m /\ forall U, In U row -> 0 <= U < 1.
Definition full q ps C thr normals m Us u : res xr :=
  estimate_full XRA xceil xtrunc q (map Fin ps) (fmat C) (Fin thr) (fmat normals) m (fun i => fmat (Us i)) u.
Lemma estimate_dip_tri_ext th thr z m t1 t2 u : (forall i, (i < length th)%nat -> t1 i = t2 i) ->
  estimate_dip XRA xceil xtrunc th thr z m t1 u = estimate_dip XRA xceil xtrunc th thr z m t2 u.
Proof.
  intros H. unfold estimate_dip. replace (loss_given_default XRA (length th) m t1 u) with (loss_given_default XRA (length th) m t2 u); auto.
  unfold loss_given_default.
  assert (F : forall l v, (forall i, In i l -> (i < length th)%nat) -> fold_left (fun rows i => assign_from rows i (lgd_row XRA m (t2 i))) l v = fold_left (fun rows i => assign_from rows i (lgd_row XRA m (t1 i))) l v).
  { induction l as [|i l IH]; intros v Hl; [reflexivity|]. cbn [fold_left]. rewrite (H i) by (apply Hl; cbn; auto). apply IH. intros; apply Hl; cbn; auto. }
  apply F. intros i Hi. apply in_seq in Hi. lia.
Qed.
Theorem C95_bad_probability : forall q ps C thr normals m Us u, (exists p, In p ps /\ ~ 0 < p < 1) ->
  full q ps C thr normals m Us u = Err ValueError.
Proof. intros q ps C thr normals m Us u H. unfold full, estimate_full. rewrite (proj2 (C94_thresholds q ps) H). reflexivity. Qed.
Theorem C95_bad_correlations : forall q ps C thr normals m Us u, (forall p, In p ps -> 0 < p < 1) ->
  ~ (square C /\ positive_definite (length C) (lower_sym (mat C))) -> full q ps C thr normals m Us u = Err LinAlgError.
Proof.
  intros q ps C thr normals m Us u H HC. unfold full, estimate_full. rewrite (proj1 (C94_thresholds q ps) H). cbn [bind].
  assert (E : cholesky XRA (fmat C) = Err LinAlgError).
  { destruct (forallb (fun r => Nat.eqb (length r) (length C)) C) eqn:Sq.
    - assert (S1 : square C). { rewrite forallb_forall in Sq. intros r Hr. apply Nat.eqb_eq. auto. }
      destruct (cholesky XRA (fmat C)) as [X|e] eqn:EX; [|rewrite (C93_only_linalgerror _ _ _ EX); reflexivity].
      exfalso. apply HC. split; auto. apply (C93_succeeds_iff_positive_definite C S1). eauto.
    - assert (N : exists r, In r C /\ length r <> length C).
      { clear - Sq. revert Sq. generalize (length C) as n. induction C as [|r C IH]; intros n Sq; [discriminate|]. cbn [forallb] in Sq.
        apply andb_false_iff in Sq. destruct Sq as [Sq|Sq].
        - apply Nat.eqb_neq in Sq. exists r. cbn. auto.
        - destruct (IH n Sq) as (r' & H1 & H2). exists r'. cbn. auto. }
      destruct N as (r & Hr & Nr). apply (C93_not_square XRA (fmat C) (map Fin r)); [apply in_map; auto|]. change (num XRA) with xr. rewrite !map_length. auto. }
  rewrite E. reflexivity.
Qed.
Theorem C95_outcome : forall q ps C thr normals m Us u, exact_quantile q ->
  (forall p, In p ps -> 0 < p < 1) -> square C -> positive_definite (length C) (lower_sym (mat C)) ->
  (length ps <> length C -> full q ps C thr normals m Us u = Err ValueError) /\
  (length ps = length C -> (1 <= length ps)%nat -> normals <> [] -> (1 <= m)%nat -> length u = length ps -> 0 <= thr -> uniforms_ok (length ps) m Us ->
   exists L, cholesky XRA (fmat C) = Ok (fmat L) /\
   let th := map (fun p => q (Fin p)) ps in
   let z := fmat (map (fun e => map (fun l => Rsum (map2 Rmult e l)) L) normals) in
   let s := (Rtrunc (thr * 100) * Z.of_nat (length ps))%Z in
   let overrun := exists j, (j < m)%nat /\ INR (length ps) - 1/100 < loss (lgds Us) (length ps - 1) j in
   (overrun -> full q ps C thr normals m Us u = Err IndexError) /\
   (~ overrun -> tail_mass th z m (lgds Us) s = 0 -> full q ps C thr normals m Us u = Ok NaN) /\
   (~ overrun -> tail_mass th z m (lgds Us) s <> 0 -> full q ps C thr normals m Us u = Ok (Fin (tail_loss th z m (lgds Us) s)) /\
      0 <= tail_loss th z m (lgds Us) s <= INR (length ps) - 1/100)).
Proof.
  intros q ps C thr normals m Us u Hq Hp Sq PD.
  destruct (proj2 (C93_succeeds_iff_positive_definite C Sq) PD) as [X EX].
  destruct (C93_result_is_the_factor C X Sq EX) as (L & -> & Ln & SL & F & _).
  assert (E0 : full q ps C thr normals m Us u = check (Nat.eqb (length ps) (length C)) ValueError
    (estimate_dip XRA xceil xtrunc (map (fun p => q (Fin p)) ps) (Fin thr) (correlate XRA (fmat L) (fmat normals)) m (fun i => map (map (lgd_draw XRA)) (fmat (Us i))) u)).
  { unfold full, estimate_full. rewrite (proj1 (C94_thresholds q ps) Hp). cbn [bind]. change (num XRA) with xr in *. rewrite EX. cbn [bind]. rewrite !map_length. reflexivity. }
  split.
  - intros Hne. rewrite E0. unfold check. rewrite (proj2 (Nat.eqb_neq _ _) Hne). reflexivity.
  - intros Heq Hn Hnm Hm Hu Ht HU. exists L. split; [exact EX|]. intros th z s overrun.
    assert (E1 : full q ps C thr normals m Us u = dip th z m (lgds Us) thr u).
    { rewrite E0, Heq, Nat.eqb_refl. unfold check. rewrite correlate_fin. unfold dip. fold th. fold z. apply estimate_dip_tri_ext.
      intros i Hi. unfold th in Hi. rewrite map_length in Hi. unfold lgds. destruct (HU i Hi) as [_ HR]. rewrite !map_map. apply map_ext_in. intros row Hr.
      rewrite !map_map. apply map_ext_in. intros U HUr. apply lgd_fin. assert (B := proj2 (HR row Hr) U HUr). lra. }
    assert (Lth : length th = length ps) by (unfold th; apply map_length).
    assert (Hz : z <> []) by (unfold z; destruct normals; [exfalso; apply Hnm; reflexivity|discriminate]).
    assert (HR : forall U, 0 <= U < 1 -> 0 <= lgd U <= 1).
    { intros U B. destruct (Rle_lt_dec U (1/2)); [assert (X := lgd_left U ltac:(lra)) | assert (X := lgd_right U ltac:(lra))]; lra. }
    assert (HT : forall i, (i < length th)%nat -> length (lgds Us i) = S i /\ forall row x, In row (lgds Us i) -> In x row -> 0 <= x <= 1).
    { intros i Hi. rewrite Lth in Hi. destruct (HU i Hi) as [H1 H2]. unfold lgds. rewrite map_length. split; auto. intros row x Hr Hx.
      apply in_map_iff in Hr. destruct Hr as (row' & <- & Hr'). apply in_map_iff in Hx. destruct Hx as (U & <- & HUr). apply HR, (H2 row' Hr'); auto. }
    assert (HW : forall i row, (i < length th)%nat -> In row (lgds Us i) -> length row = m).
    { intros i row Hi Hr. rewrite Lth in Hi. unfold lgds in Hr. apply in_map_iff in Hr. destruct Hr as (row' & <- & Hr'). rewrite map_length. apply (proj2 (HU i Hi) row' Hr'). }
    assert (HN : forall i j, (i < length th)%nat -> (j < m)%nat -> 0 <= loss (lgds Us) i j).
    { intros i j Hi Hj. unfold loss. apply Rsum_nonneg. intros x Hx. apply in_map_iff in Hx. destruct Hx as (row & <- & Hr).
      apply (proj2 (HT i Hi) row); auto. apply nth_In. rewrite (HW i row); auto. }
    assert (HIn : ~ overrun -> losses_in_range (length th) m (lgds Us)).
    { intros No. apply C42_only_full_default; auto. intros j Hj. rewrite Lth. destruct (Rle_lt_dec (loss (lgds Us) (length ps - 1) j) (INR (length ps) - 1/100)); auto.
      exfalso. apply No. exists j. auto. }
    assert (Hu' : length u = length th) by exact (eq_trans Hu (eq_sym Lth)).
    rewrite E1. split; [|split].
    + intros (j & Hj & HL). apply (C42_index_error th z m (lgds Us) thr u Hz); [exact Hu' | exact HN |]. exists (length ps - 1)%nat, j. rewrite Lth. repeat split; auto. lia.
    + intros No T0. assert (A := C42_nan_iff_no_tail_mass th z m (lgds Us) thr u Hz Hm Hu' Ht (HIn No)). cbn zeta in A. rewrite Lth in A. fold s in A. apply A, T0.
    + intros No T1. assert (HI := HIn No). split.
      * assert (P : 0 <= tail_mass th z m (lgds Us) s).
        { unfold tail_mass. apply Rmult_le_pos; [|left; apply Rinv_0_lt_compat, lt_0_INR; lia]. apply Rsum_nonneg. intros x Hx. apply in_map_iff in Hx.
          destruct Hx as (qq & <- & _). destruct (s <=? _)%Z; [apply freq_nonneg; auto|lra]. }
        assert (A := C41_premium_is_expected_tail_loss th z m (lgds Us) thr u Hz Hm Hu' Ht HI). cbn zeta in A. rewrite Lth in A. fold s in A. apply A. lra.
      * assert (A := C41_premium_bounds th z m (lgds Us) s Hz Hm ltac:(rewrite Lth; exact Hn) HI). rewrite Lth in A. exact A.
Qed.
(** one bank: a uniform above 1 - 1e-4/0.405 (draw above 0.99) raises, whatever the default probability *)
Theorem C95_single_bank_index_error : forall q p c thr e U u, exact_quantile q -> 0 < p < 1 -> 0 < c -> 0 <= thr -> length u = 1%nat -> 0 <= U < 1 ->
  (full q [p] [[c]] thr [[e]] 1 (fun _ => [[U]]) u = Err IndexError <-> 1 - 1/4050 < U).
Proof.
  intros q p c thr e U u Hq Hp Hc Ht Hu HU.
  assert (PD : positive_definite 1 (lower_sym (mat [[c]]))).
  { intros v (i & Hi & Hv). destruct i; [|lia]. unfold quad, inner, lower_sym, mat. cbn. assert (0 < v 0%nat * v 0%nat) by (apply (Rsqr_pos_lt _ Hv)). nra. }
  destruct (C95_outcome q [p] [[c]] thr [[e]] 1 (fun _ => [[U]]) u Hq) as [_ H].
  - intros x [<-|[]]. auto.
  - intros r [<-|[]]. reflexivity.
  - exact PD.
  - destruct (H eq_refl (le_n 1) ltac:(discriminate) (le_n 1) Hu Ht) as (L & _ & H1 & H2 & H3).
    + intros i Hi. cbn in Hi. replace i with 0%nat by lia. split; [reflexivity|]. intros row [<-|[]]. split; [reflexivity|]. intros V [<-|[]]. auto.
    + cbn zeta in H1, H2, H3. set (over := exists j, (j < 1)%nat /\ INR (length [p]) - 1/100 < loss (lgds (fun _ => [[U]])) (length [p] - 1) j) in *.
      assert (OV : over <-> 99/100 < lgd U).
      { unfold over. split.
        - intros (j & Hj & Hl). replace j with 0%nat in Hl by lia. unfold loss, lgds in Hl. cbn in Hl. lra.
        - intros Hl. exists 0%nat. split; [lia|]. unfold loss, lgds. cbn. lra. }
      assert (LU : 99/100 < lgd U <-> 1 - 1/4050 < U).
      { destruct (Rle_lt_dec U (1/2)) as [B|B].
        - assert (X := lgd_left U ltac:(lra)). lra.
        - unfold lgd. destruct (Rle_dec U (1/2)); [lra|]. split; intros X.
          + assert (Y : sqrt ((1 - U) * (81/200)) < 1/100) by lra. rewrite <- (sqrt_square (1/100)) in Y by lra. apply sqrt_lt_0_alt in Y. lra.
          + assert (Y : sqrt ((1 - U) * (81/200)) < sqrt (1/100 * (1/100))) by (apply sqrt_lt_1_alt; lra). rewrite sqrt_square in Y by lra. lra. }
      rewrite <- LU, <- OV. split; [|exact H1]. intros E. destruct (Rlt_dec (99/100) (lgd U)) as [X|X]; [apply OV; auto|].
      exfalso. assert (No : ~ over) by (rewrite OV; auto).
      match type of H2 with _ -> ?t = 0 -> _ => destruct (Req_dec t 0) as [T|T] end.
      * rewrite (H2 No T) in E. discriminate.
      * rewrite (proj1 (H3 No T)) in E. discriminate.
Qed.
Example C95_case : full normal_quantile [1/2] [[1]] (15/100) [[-1]] 1 (fun _ => [[1/2]]) [[NaN]] <> Err IndexError /\
  full normal_quantile [1/2] [[1]] (15/100) [[-1]] 1 (fun _ => [[9999/10000]]) [[NaN]] = Err IndexError /\
  full normal_quantile [0] [[1]] (15/100) [[-1]] 1 (fun _ => [[1/2]]) [[NaN]] = Err ValueError /\
  full normal_quantile [1/2] [[-1]] (15/100) [[-1]] 1 (fun _ => [[1/2]]) [[NaN]] = Err LinAlgError.
Proof.
  split; [|split; [|split]].
  - intros E. apply C95_single_bank_index_error in E; try lra; try reflexivity. exact C94_quantile_exists.
  - apply C95_single_bank_index_error; try lra; try reflexivity. exact C94_quantile_exists.
  - apply C95_bad_probability. exists 0. split; [cbn; auto|lra].
  - apply C95_bad_correlations; [intros p [<-|[]]; lra|]. intros [_ PD]. specialize (PD (fun _ => 1)).
    assert (0 < quad 1 (lower_sym (mat [[-1]])) (fun _ => 1)) by (apply PD; exists 0%nat; split; [cbn; lia|exact R1_neq_R0]).
    unfold quad, inner, lower_sym, mat in H. cbn in H. lra.
Qed.
