(** * Auxiliary facts about finite sums of reals and list operations *)
From Coq Require Import Reals Lra List ZArith Lia Permutation Morphisms.
From Verif Require Import Arith XR.
Import ListNotations.
Local Open Scope R_scope.

Lemma map2_length {X Y Z} (f : X -> Y -> Z) l m :
  length (map2 f l m) = Nat.min (length l) (length m).
Proof. revert m; induction l; destruct m; simpl; auto. Qed.

Lemma map2_map {X Y Z X' Y'} (f : X' -> Y' -> Z) (g : X -> X') (h : Y -> Y') l m :
  map2 f (map g l) (map h m) = map2 (fun x y => f (g x) (h y)) l m.
Proof. revert m; induction l; destruct m; simpl; f_equal; auto. Qed.

Lemma map_map2 {X Y Z W} (g : Z -> W) (f : X -> Y -> Z) l m :
  map g (map2 f l m) = map2 (fun x y => g (f x y)) l m.
Proof. revert m; induction l; destruct m; simpl; f_equal; auto. Qed.

Lemma map2_ext {X Y Z} (f g : X -> Y -> Z) l m :
  (forall x y, f x y = g x y) -> map2 f l m = map2 g l m.
Proof. intros E; revert m; induction l; destruct m; simpl; f_equal; auto. Qed.

Lemma map2_ext_in {X Y Z} (f g : X -> Y -> Z) l m :
  (forall x y, In (x, y) (combine l m) -> f x y = g x y) -> map2 f l m = map2 g l m.
Proof.
  revert m; induction l; destruct m; simpl; intros E; f_equal; auto.
Qed.

Lemma map2_combine {X Y Z} (f : X -> Y -> Z) l m :
  map2 f l m = map (fun p => f (fst p) (snd p)) (combine l m).
Proof. revert m; induction l; destruct m; simpl; f_equal; auto. Qed.

Lemma map2_nil_r {X Y Z} (f : X -> Y -> Z) l : map2 f l [] = [].
Proof. destruct l; reflexivity. Qed.

Lemma map2_nth {X Y Z} (f : X -> Y -> Z) l m n dx dy dz :
  (n < length l)%nat -> (n < length m)%nat ->
  nth n (map2 f l m) dz = f (nth n l dx) (nth n m dy).
Proof.
  revert m n; induction l; destruct m; simpl; intros n H1 H2; try lia.
  destruct n; auto. apply IHl; lia.
Qed.

Lemma Rsum_app l m : Rsum (l ++ m) = Rsum l + Rsum m.
Proof. induction l; simpl; lra. Qed.
Lemma Rsum_perm l m : Permutation l m -> Rsum l = Rsum m.
Proof. induction 1; simpl; lra. Qed.
Lemma Rsum_scal c l : Rsum (map (fun x => c * x) l) = c * Rsum l.
Proof. induction l; simpl; lra. Qed.
Lemma Rsum_scal_r c l : Rsum (map (fun x => x * c) l) = Rsum l * c.
Proof. induction l; simpl; lra. Qed.
Lemma Rsum_plus {X} (f g : X -> R) l :
  Rsum (map (fun x => f x + g x) l) = Rsum (map f l) + Rsum (map g l).
Proof. induction l; simpl; lra. Qed.
Lemma Rsum_minus {X} (f g : X -> R) l :
  Rsum (map (fun x => f x - g x) l) = Rsum (map f l) - Rsum (map g l).
Proof. induction l; simpl; lra. Qed.
Lemma Rsum_mult_l {X} c (f : X -> R) l :
  Rsum (map (fun x => c * f x) l) = c * Rsum (map f l).
Proof. induction l; simpl; lra. Qed.
Lemma Rsum_const {X} c (l : list X) : Rsum (map (fun _ => c) l) = INR (length l) * c.
Proof.
  induction l; cbn [map Rsum length]; [simpl; lra|]. rewrite S_INR, IHl; lra.
Qed.
Lemma Rsum_opp l : Rsum (map Ropp l) = - Rsum l.
Proof. induction l; simpl; lra. Qed.
Lemma Rsum_nonneg l : (forall x, In x l -> 0 <= x) -> 0 <= Rsum l.
Proof.
  induction l; simpl; intros H; [lra|].
  assert (0 <= a) by auto. assert (0 <= Rsum l) by auto. lra.
Qed.
Lemma Rsum_le {X} (f g : X -> R) l :
  (forall x, In x l -> f x <= g x) -> Rsum (map f l) <= Rsum (map g l).
Proof.
  induction l; simpl; intros H; [lra|].
  assert (f a <= g a) by auto. assert (Rsum (map f l) <= Rsum (map g l)) by auto. lra.
Qed.
Lemma Rsum_lt {X} (f g : X -> R) l :
  l <> [] -> (forall x, In x l -> f x < g x) -> Rsum (map f l) < Rsum (map g l).
Proof.
  intros Hn H. destruct l as [|a l]; [tauto|]. simpl.
  assert (f a < g a) by (apply H; simpl; auto).
  assert (Rsum (map f l) <= Rsum (map g l)).
  { apply Rsum_le; intros; apply Rlt_le, H; simpl; auto. }
  lra.
Qed.
Lemma Rsum_ge_elem l x : (forall y, In y l -> 0 <= y) -> In x l -> x <= Rsum l.
Proof.
  induction l; simpl; intros H Hx; [tauto|].
  destruct Hx as [->|Hx].
  - assert (0 <= Rsum l) by (apply Rsum_nonneg; auto). lra.
  - assert (0 <= a) by auto. assert (x <= Rsum l) by auto. lra.
Qed.
Lemma Rsum_pos l x : (forall y, In y l -> 0 <= y) -> In x l -> 0 < x -> 0 < Rsum l.
Proof. intros H1 H2 H3. pose proof (Rsum_ge_elem l x H1 H2). lra. Qed.
Lemma Rsum_zero_all l : (forall y, In y l -> 0 <= y) -> Rsum l = 0 -> forall x, In x l -> x = 0.
Proof.
  intros H1 H2 x Hx. pose proof (Rsum_ge_elem l x H1 Hx). specialize (H1 x Hx). lra.
Qed.
Lemma Rsum_abs {X} (f : X -> R) l : Rabs (Rsum (map f l)) <= Rsum (map (fun x => Rabs (f x)) l).
Proof.
  induction l; simpl. { rewrite Rabs_R0; lra. }
  eapply Rle_trans; [apply Rabs_triang|lra].
Qed.
Lemma Rsum_map_ext {X} (f g : X -> R) l :
  (forall x, In x l -> f x = g x) -> Rsum (map f l) = Rsum (map g l).
Proof. intros H. f_equal. apply map_ext_in; auto. Qed.

(** Mean *)
Lemma Rmean_bounds l lo hi :
  l <> [] -> (forall x, In x l -> lo <= x <= hi) -> lo <= Rmean l <= hi.
Proof.
  intros Hn H. unfold Rmean. pose proof (INR_len_pos l Hn) as Hp.
  assert (INR (length l) * lo <= Rsum l).
  { rewrite <- Rsum_const. rewrite <- (map_id l) at 2. apply Rsum_le. intros x Hx; apply H; auto. }
  assert (Rsum l <= INR (length l) * hi).
  { rewrite <- Rsum_const. rewrite <- (map_id l) at 1. apply Rsum_le. intros x Hx; apply H; auto. }
  split.
  - apply Rmult_le_reg_r with (INR (length l)); auto. unfold Rdiv.
    rewrite Rmult_assoc, Rinv_l by lra. lra.
  - apply Rmult_le_reg_r with (INR (length l)); auto. unfold Rdiv.
    rewrite Rmult_assoc, Rinv_l by lra. lra.
Qed.
Lemma Rmean_perm l m : Permutation l m -> Rmean l = Rmean m.
Proof. intros H; unfold Rmean; rewrite (Rsum_perm _ _ H), (Permutation_length H); auto. Qed.
Lemma Rmean_scal c l : Rmean (map (fun x => c * x) l) = c * Rmean l.
Proof. unfold Rmean; rewrite Rsum_scal, map_length; unfold Rdiv; ring. Qed.
Lemma Rmean_plus {X} (f g : X -> R) l :
  Rmean (map (fun x => f x + g x) l) = Rmean (map f l) + Rmean (map g l).
Proof. unfold Rmean; rewrite Rsum_plus, !map_length; unfold Rdiv; ring. Qed.
Lemma Rmean_minus {X} (f g : X -> R) l :
  Rmean (map (fun x => f x - g x) l) = Rmean (map f l) - Rmean (map g l).
Proof. unfold Rmean; rewrite Rsum_minus, !map_length; unfold Rdiv; ring. Qed.
Lemma Rmean_const {X} c (l : list X) : l <> [] -> Rmean (map (fun _ => c) l) = c.
Proof.
  intros H; unfold Rmean; rewrite Rsum_const, map_length.
  pose proof (INR_len_pos l H); field; lra.
Qed.
Lemma Rmean_le {X} (f g : X -> R) l :
  (forall x, In x l -> f x <= g x) -> Rmean (map f l) <= Rmean (map g l).
Proof.
  intros H. unfold Rmean. rewrite !map_length.
  destruct l as [|a l]. { simpl; lra. }
  pose proof (INR_len_pos (a :: l) ltac:(discriminate)).
  apply Rmult_le_compat_r. { left; apply Rinv_0_lt_compat; lra. }
  apply Rsum_le; auto.
Qed.
Lemma Rmean_map_ext {X} (f g : X -> R) l :
  (forall x, In x l -> f x = g x) -> Rmean (map f l) = Rmean (map g l).
Proof. intros H. f_equal. apply map_ext_in; auto. Qed.

(** Weighted sums *)
Definition Rdot (w x : list R) : R := Rsum (map2 Rmult w x).
Lemma Rdot_bounds w x lo hi :
  length w = length x ->
  (forall a, In a w -> 0 <= a) -> (forall a, In a x -> lo <= a <= hi) ->
  Rsum w * lo <= Rdot w x <= Rsum w * hi.
Proof.
  unfold Rdot; revert x; induction w as [|a w IH]; destruct x as [|b x];
    cbn [length map2 Rsum]; intros HL Hw Hx; try discriminate; [lra|].
  assert (0 <= a) by (apply Hw; simpl; auto).
  assert (lo <= b <= hi) by (apply Hx; simpl; auto).
  destruct (IH x) as [h1 h2].
  { lia. } { intros; apply Hw; simpl; auto. } { intros; apply Hx; simpl; auto. }
  assert (a * lo <= a * b) by (apply Rmult_le_compat_l; lra).
  assert (a * b <= a * hi) by (apply Rmult_le_compat_l; lra).
  lra.
Qed.

(** Cauchy-Schwarz for lists of pairs *)
Lemma cauchy_schwarz {X} (f g : X -> R) l :
  (Rsum (map (fun x => f x * g x) l))² <=
  Rsum (map (fun x => f x * f x) l) * Rsum (map (fun x => g x * g x) l).
Proof.
  set (A := Rsum (map (fun x => f x * f x) l)).
  set (B := Rsum (map (fun x => f x * g x) l)).
  set (C := Rsum (map (fun x => g x * g x) l)).
  assert (HA : 0 <= A).
  { apply Rsum_nonneg; intros y Hy; apply in_map_iff in Hy as (x & <- & _).
    pose proof (Rle_0_sqr (f x)); unfold Rsqr in *; lra. }
  assert (H : forall s t, 0 <= s * s * A - 2 * s * t * B + t * t * C).
  { intros s t.
    replace (s * s * A - 2 * s * t * B + t * t * C)
      with (Rsum (map (fun x => (s * f x - t * g x) * (s * f x - t * g x)) l)).
    { apply Rsum_nonneg; intros y Hy; apply in_map_iff in Hy as (x & <- & _).
      pose proof (Rle_0_sqr (s * f x - t * g x)); unfold Rsqr in *; lra. }
    unfold A, B, C. clear. induction l; simpl; [lra|]. rewrite IHl. ring. }
  destruct (Req_dec A 0) as [E|E].
  - specialize (H (C + 1) B). unfold Rsqr. rewrite E in *.
    assert (B = 0).
    { assert (Hz : forall x, In x l -> f x = 0).
      { intros x Hx.
        assert (f x * f x = 0).
        { apply (Rsum_zero_all (map (fun x => f x * f x) l)).
          - intros y Hy; apply in_map_iff in Hy as (z & <- & _).
            pose proof (Rle_0_sqr (f z)); unfold Rsqr in *; lra.
          - exact E.
          - apply in_map_iff; eauto. }
        apply Rmult_integral in H0; tauto. }
      unfold B. transitivity (Rsum (map (fun _ => 0) l)).
      - apply Rsum_map_ext; intros x Hx; rewrite (Hz x Hx); ring.
      - rewrite Rsum_const; ring. }
    rewrite H0; lra.
  - specialize (H B A). unfold Rsqr.
    replace (B * B * A - 2 * B * A * B + A * A * C) with (A * (A * C - B * B)) in H by ring.
    assert (0 < A) by lra.
    destruct (Rle_dec (B * B) (A * C)); auto.
    exfalso. assert (A * C - B * B < 0) by lra.
    assert (A * (A * C - B * B) < 0) by (rewrite <- (Rmult_0_r A); apply Rmult_lt_compat_l; lra).
    lra.
Qed.

(** Population variance *)
Definition Rvar (l : list R) : R :=
  Rmean (map (fun x => (x - Rmean l) * (x - Rmean l)) l).
Lemma avar_fin l : l <> [] -> avar XRA (map Fin l) = Fin (Rvar l).
Proof.
  intros H. unfold avar. rewrite amean_fin by auto.
  rewrite map_map. cbn [nsq nsub XRA xsub xsq].
  rewrite <- (map_map (fun x => (x - Rmean l) * (x - Rmean l)) Fin).
  rewrite amean_fin; [reflexivity|]. destruct l; simpl; [tauto|discriminate].
Qed.
Lemma Rvar_nonneg l : 0 <= Rvar l.
Proof.
  unfold Rvar, Rmean at 1. destruct l as [|a l]. { simpl; unfold Rdiv; lra. }
  assert (0 < INR (length (map (fun x => (x - Rmean (a :: l)) * (x - Rmean (a :: l))) (a :: l)))).
  { apply INR_len_pos; discriminate. }
  apply Rmult_le_pos; [|left; apply Rinv_0_lt_compat; auto].
  apply Rsum_nonneg; intros y Hy; apply in_map_iff in Hy as (x & <- & _).
  pose proof (Rle_0_sqr (x - Rmean (a :: l))); unfold Rsqr in *; lra.
Qed.
Lemma Rvar_zero_iff l : l <> [] -> (Rvar l = 0 <-> forall x, In x l -> x = Rmean l).
Proof.
  intros Hn. set (g := fun x => (x - Rmean l) * (x - Rmean l)).
  assert (Hg : forall y, In y (map g l) -> 0 <= y).
  { intros y Hy; apply in_map_iff in Hy as (x & <- & _); unfold g.
    pose proof (Rle_0_sqr (x - Rmean l)); unfold Rsqr in *; lra. }
  pose proof (INR_len_pos l Hn) as Hp.
  unfold Rvar, Rmean at 1. rewrite map_length. fold g. split; intros H.
  - assert (HS : Rsum (map g l) = 0).
    { apply Rmult_eq_reg_r with (/ INR (length l)).
      - rewrite Rmult_0_l; exact H.
      - apply Rinv_neq_0_compat; lra. }
    intros x Hx. assert (g x = 0).
    { apply (Rsum_zero_all (map g l)); auto. apply in_map; auto. }
    unfold g in H0. apply Rmult_integral in H0; lra.
  - assert (HS : Rsum (map g l) = 0).
    { transitivity (Rsum (map (fun _ => 0) l)).
      - apply Rsum_map_ext; intros x Hx; unfold g; rewrite <- (H x Hx); ring.
      - rewrite Rsum_const; ring. }
    rewrite HS; unfold Rdiv; ring.
Qed.
Lemma Rvar_pos_iff l : l <> [] -> (0 < Rvar l <-> exists x y, In x l /\ In y l /\ x <> y).
Proof.
  intros Hn. pose proof (Rvar_nonneg l). split.
  - intros H1. destruct l as [|a l]; [tauto|].
    destruct (List.Forall_Exists_dec (fun x => x = a) (fun x => Req_EM_T x a) (a :: l)) as [F|F].
    + exfalso. rewrite Forall_forall in F.
      assert (Rmean (a :: l) = a).
      { transitivity (Rmean (map (fun _ => a) (a :: l))).
        - rewrite <- (map_id (a :: l)) at 1. apply Rmean_map_ext; intros; apply F; auto.
        - apply Rmean_const; discriminate. }
      assert (Rvar (a :: l) = 0).
      { apply Rvar_zero_iff; auto. intros x Hx; rewrite H0; auto. }
      lra.
    + apply Exists_exists in F as (x & Hx & Hne). exists x, a; repeat split; simpl; auto.
  - intros (x & y & Hx & Hy & Hne).
    destruct (Req_dec (Rvar l) 0) as [E|E]; [|lra].
    exfalso. pose proof (proj1 (Rvar_zero_iff l Hn) E) as E2. clear E. rename E2 into E. apply Hne.
    rewrite (E x Hx), (E y Hy); auto.
Qed.

Lemma div_le_iff a b c : 0 < b -> (a / b <= c <-> a <= c * b).
Proof.
  intros Hb; split; intros H.
  - apply Rmult_le_compat_r with (r := b) in H; [|lra]. unfold Rdiv in H.
    rewrite Rmult_assoc, Rinv_l in H by lra. lra.
  - apply Rmult_le_reg_r with b; auto. unfold Rdiv. rewrite Rmult_assoc, Rinv_l by lra. lra.
Qed.
Lemma le_div_iff a b c : 0 < b -> (c <= a / b <-> c * b <= a).
Proof.
  intros Hb; split; intros H.
  - apply Rmult_le_compat_r with (r := b) in H; [|lra]. unfold Rdiv in H.
    rewrite Rmult_assoc, Rinv_l in H by lra. lra.
  - apply Rmult_le_reg_r with b; auto. unfold Rdiv. rewrite Rmult_assoc, Rinv_l by lra. lra.
Qed.
Lemma div_lt_iff a b c : 0 < b -> (a / b < c <-> a < c * b).
Proof.
  intros Hb; split; intros H.
  - apply Rmult_lt_compat_r with (r := b) in H; [|lra]. unfold Rdiv in H.
    rewrite Rmult_assoc, Rinv_l in H by lra. lra.
  - apply Rmult_lt_reg_r with b; auto. unfold Rdiv. rewrite Rmult_assoc, Rinv_l by lra. lra.
Qed.
Lemma lt_div_iff a b c : 0 < b -> (c < a / b <-> c * b < a).
Proof.
  intros Hb; split; intros H.
  - apply Rmult_lt_compat_r with (r := b) in H; [|lra]. unfold Rdiv in H.
    rewrite Rmult_assoc, Rinv_l in H by lra. lra.
  - apply Rmult_lt_reg_r with b; auto. unfold Rdiv. rewrite Rmult_assoc, Rinv_l by lra. lra.
Qed.
Lemma ln_le_sub1 x : 0 < x -> ln x <= x - 1.
Proof.
  intros Hx. destruct (Req_dec x 1) as [->|Hne]; [rewrite ln_1; lra|].
  pose proof (exp_ineq1 (ln x)) as H.
  assert (ln x <> 0). { intros E. apply Hne. rewrite <- (exp_ln x Hx), E. apply exp_0. }
  specialize (H H0). rewrite exp_ln in H by auto. lra.
Qed.
Lemma ln_lt_sub1 x : 0 < x -> x <> 1 -> ln x < x - 1.
Proof.
  intros Hx Hne.
  pose proof (exp_ineq1 (ln x)) as H.
  assert (ln x <> 0). { intros E. apply Hne. rewrite <- (exp_ln x Hx), E. apply exp_0. }
  specialize (H H0). rewrite exp_ln in H by auto. lra.
Qed.
Lemma ln_ge_0 x : 1 <= x -> 0 <= ln x.
Proof. intros H. destruct (Req_dec x 1) as [->|]; [rewrite ln_1; lra|]. left. rewrite <- ln_1. apply ln_increasing; lra. Qed.
Lemma ln_le x y : 0 < x -> x <= y -> ln x <= ln y.
Proof. intros H1 [H2| ->]; [left; apply ln_increasing; auto|lra]. Qed.
Lemma sqr_nonneg x : 0 <= x * x.
Proof. pose proof (Rle_0_sqr x); unfold Rsqr in *; auto. Qed.
Lemma ln_div x y : 0 < x -> 0 < y -> ln (x / y) = ln x - ln y.
Proof.
  intros Hx Hy. unfold Rdiv. rewrite ln_mult; auto. 2: apply Rinv_0_lt_compat; auto.
  rewrite ln_Rinv by auto. lra.
Qed.
Lemma ln_sqrt x : 0 < x -> ln (sqrt x) = ln x / 2.
Proof. intros Hx. rewrite <- Rpower_sqrt by auto. unfold Rpower. rewrite ln_exp. lra. Qed.
