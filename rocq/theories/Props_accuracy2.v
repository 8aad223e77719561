(** * Property C126: rounding errors in the conditional variances grow linearly *)
From Coq Require Import Reals ZArith List Bool Arith Lia Lra.
From Flocq Require Import Core BinarySingleNaN.
From Verif Require Import Arith XR RealAux Float64 Float64b Float64c Model_garch Props_garch Props_float5 Props_accuracy.
Import ListNotations.
Local Open Scope R_scope.

(** ** Specification *)
(** the exact counterpart of a double *)
Definition exact (x : b64) : xr := Fin (B2R x).
Definition exact_row (b : b64 * b64) : xr * xr := (exact (fst b), exact (snd b)).
(** parameters, backcasts: 0 or between 2^-100 and 2^100 ([volume64]); residuals: so is their absolute value *)
Definition resid64 (x : b64) : Prop := is_finite x = true /\ (B2R x = 0 \/ bpow radix2 (-100) <= Rabs (B2R x) <= bpow radix2 100).
(** a row of variance bounds: both between 2^-300 and 2^300 *)
Definition row64 (b : b64 * b64) : Prop :=
  (is_finite (fst b) = true /\ bpow radix2 (-300) <= B2R (fst b) <= bpow radix2 300) /\
  (is_finite (snd b) = true /\ bpow radix2 (-300) <= B2R (snd b) <= bpow radix2 300).
(** numpy's x**2 and the C++ kernel multiply *)
Definition square_is_product (lm : libm) : Prop := forall x, l_sq lm x = fmul x x.
(** the variance at time t stays at or below half its upper bound (which is a million times an EWMA estimate) *)
Definition below_upper (vs : list R) (bs : list (b64 * b64)) : Prop :=
  forall t, (1 <= t < length vs)%nat -> nth t vs 0 <= B2R (snd (nth t bs (fofZ 0, fofZ 0))) / 2.
(** roundings up to time t *)
Definition roundings (k : kind) (t : nat) : nat := match k with KGarch => 3 + 2 * t | KGjr => 5 + 3 * t end.

(** the variances of the compiled kernels (garch.hpp) for the same inputs *)
Definition kernel_variances (lm : libm) (k : kind) (params resids : list b64) (backcast : b64) (bs : list (b64 * b64)) : list b64 :=
  let r := fun i => nth i resids B754_nan in let vb := flat2 (B64 lm) B754_nan bs in
  match k, params with
  | KGarch, [omega; alpha; beta] => cpp_garch (B64 lm) omega alpha beta backcast r vb (length resids)
  | KGjr, [omega; alpha; gamma; beta] => cpp_gjr (B64 lm) omega alpha gamma beta backcast r vb (length resids)
  | _, _ => []
  end.

(** ** Proofs *)
Lemma span_add e a b : span e a -> span e b -> span (e + 1) (a + b).
Proof.
  intros Ha Hb. assert (D := bpow_double e). assert (L : bpow radix2 (- (e + 1)) <= bpow radix2 (- e)) by (apply bpow_le; lia). assert (PE := bpow_gt_0 radix2 e). assert (PN := bpow_gt_0 radix2 (- e)).
  unfold span in *. destruct Ha as [-> | Ha], Hb as [-> | Hb]; [left; lra|right; lra|right; lra|right; lra].
Qed.
Lemma sized_add e j k n x y a b : (0 <= e <= 900)%Z -> (j <= n)%nat -> (k <= n)%nat -> (Z.of_nat n <= 2 ^ 52)%Z -> sized e j x a -> sized e k y b -> sized (e + 1) (S n) (fadd x y) (a + b).
Proof.
  intros He Hj Hk Hn [Cx Sx] [Cy Sy]. assert (S1 := span_add e a b Sx Sy). split; [|exact S1].
  apply (close_add j k n); auto. apply (bpow1000 (e + 1)); [lia|exact S1].
Qed.
Lemma volume_sized x : volume64 x -> sized 100 0 x (B2R x).
Proof. intros H. destruct (volume_val x H) as [E S]. apply sized_exact; assumption. Qed.
Lemma square_sized lm x : square_is_product lm -> resid64 x -> sized 200 1 (l_sq lm x) (B2R x * B2R x).
Proof.
  intros HS [F H]. assert (SP : span 100 (Rabs (B2R x))) by (destruct H as [H | H]; [left; rewrite H; apply Rabs_R0|right; exact H]).
  assert (S2 := span_mul 100 100 _ _ SP SP). rewrite <- Rabs_mult, (Rabs_right (B2R x * B2R x)) in S2 by (apply Rle_ge, Rle_0_sqr). change (100 + 100)%Z with 200%Z in S2.
  split; [|exact S2]. rewrite HS. apply (close_round 0 _ _ (B2R x * B2R x) 1000); [simpl; lia|apply val_mul; apply val_fin; exact F|apply rel_refl|apply Rle_0_sqr|apply (span_up 200); [lia|exact S2]|apply (bpow1000 200); [lia|exact S2]|lia].
Qed.
Lemma half_sized x : volume64 x -> sized 150 1 (fdiv x (fofZ 2)) (B2R x / 2).
Proof. intros H. exact (sized_div 100 50 0 0 _ _ _ _ ltac:(lia) ltac:(simpl; lia) (volume_sized x H) (sized_ofZ 2 ltac:(lia)) ltac:(lra)). Qed.

Lemma start_garch o a b c : volume64 o -> volume64 a -> volume64 b -> volume64 c ->
  sized 500 3 (fadd o (fmul (fadd a b) c)) (B2R o + (B2R a + B2R b) * B2R c).
Proof.
  intros Ho Ha Hb Hc.
  assert (S1 := sized_add 100 0 0 0 _ _ _ _ ltac:(lia) ltac:(lia) ltac:(lia) ltac:(simpl; lia) (volume_sized _ Ha) (volume_sized _ Hb)).
  assert (S2 := sized_mul 101 100 1 0 _ _ _ _ ltac:(lia) ltac:(simpl; lia) S1 (volume_sized _ Hc)).
  assert (S3 := sized_add 201 0 2 2 _ _ _ _ ltac:(lia) ltac:(lia) ltac:(lia) ltac:(simpl; lia) (sized_weaken 100 201 0 0 _ _ ltac:(lia) ltac:(lia) (volume_sized _ Ho)) S2).
  apply (sized_weaken 202 500 3 3); [lia|lia|exact S3].
Qed.
Lemma start_gjr o a g b c : volume64 o -> volume64 a -> volume64 g -> volume64 b -> volume64 c ->
  sized 500 5 (fadd o (fmul (fadd (fadd a (fdiv g (fofZ 2))) b) c)) (B2R o + (B2R a + B2R g / 2 + B2R b) * B2R c).
Proof.
  intros Ho Ha Hg Hb Hc.
  assert (S0 := sized_add 150 0 1 1 _ _ _ _ ltac:(lia) ltac:(lia) ltac:(lia) ltac:(simpl; lia) (sized_weaken 100 150 0 0 _ _ ltac:(lia) ltac:(lia) (volume_sized _ Ha)) (half_sized _ Hg)).
  assert (S1 := sized_add 151 2 0 2 _ _ _ _ ltac:(lia) ltac:(lia) ltac:(lia) ltac:(simpl; lia) S0 (sized_weaken 100 151 0 0 _ _ ltac:(lia) ltac:(lia) (volume_sized _ Hb))).
  assert (S2 := sized_mul 152 100 3 0 _ _ _ _ ltac:(lia) ltac:(simpl; lia) S1 (volume_sized _ Hc)).
  assert (S3 := sized_add 252 0 4 4 _ _ _ _ ltac:(lia) ltac:(lia) ltac:(lia) ltac:(simpl; lia) (sized_weaken 100 252 0 0 _ _ ltac:(lia) ltac:(lia) (volume_sized _ Ho)) S2).
  apply (sized_weaken 253 500 5 5); [lia|lia|exact S3].
Qed.
Lemma step_garch lm o a b k p q r : square_is_product lm -> volume64 o -> volume64 a -> volume64 b -> resid64 r -> (2 <= k)%nat -> (Z.of_nat k + 8 <= 2 ^ 52)%Z -> sized 500 k p q ->
  sized 700 (k + 2) (garch_step (B64 lm) o a b p r) (B2R o + B2R a * (B2R r * B2R r) + B2R b * q).
Proof.
  intros HS Ho Ha Hb Hr Hk HK HP.
  assert (S1 := sized_mul 100 200 0 1 _ _ _ _ ltac:(lia) ltac:(simpl; lia) (volume_sized _ Ha) (square_sized lm r HS Hr)).
  assert (S2 := sized_add 300 0 2 2 _ _ _ _ ltac:(lia) ltac:(lia) ltac:(lia) ltac:(simpl; lia) (sized_weaken 100 300 0 0 _ _ ltac:(lia) ltac:(lia) (volume_sized _ Ho)) S1).
  assert (S3 := sized_mul 100 500 0 k _ _ _ _ ltac:(lia) ltac:(lia) (volume_sized _ Hb) HP).
  assert (S4 := sized_add 600 3 (S (0 + k)) (S k) _ _ _ _ ltac:(lia) ltac:(lia) ltac:(lia) ltac:(lia) (sized_weaken 301 600 3 3 _ _ ltac:(lia) ltac:(lia) S2) S3).
  apply (sized_weaken 601 700 (S (S k)) (k + 2)); [lia|lia|exact S4].
Qed.
Lemma step_gjr lm o a g b k p q r : square_is_product lm -> volume64 o -> volume64 a -> volume64 g -> volume64 b -> resid64 r -> (2 <= k)%nat -> (Z.of_nat k + 8 <= 2 ^ 52)%Z -> sized 500 k p q ->
  sized 800 (k + 3) (gjr_step (B64 lm) o a g b p r) (B2R o + B2R a * (B2R r * B2R r) + B2R b * q + (if Rlt_dec (B2R r) 0 then B2R g * (B2R r * B2R r) else 0)).
Proof.
  intros HS Ho Ha Hg Hb Hr Hk HK HP. assert (S1 := step_garch lm o a b k p q r HS Ho Ha Hb Hr Hk HK HP).
  assert (V0 : val (fofZ 0) = Fin 0) by (apply val_ofZ_small; simpl; lia).
  assert (EL : Bltb r (fofZ 0) = if Rlt_dec (B2R r) 0 then true else false).
  { rewrite val_ltb, V0, (val_fin r) by apply Hr. reflexivity. }
  assert (S2 : sized 700 2 (if Bltb r (fofZ 0) then fmul g (l_sq lm r) else fofZ 0) (if Rlt_dec (B2R r) 0 then B2R g * (B2R r * B2R r) else 0)).
  { rewrite EL. destruct (Rlt_dec (B2R r) 0).
    - apply (sized_weaken 300 700 2 2); [lia|lia|]. exact (sized_mul 100 200 0 1 _ _ _ _ ltac:(lia) ltac:(simpl; lia) (volume_sized _ Hg) (square_sized lm r HS Hr)).
    - apply (sized_weaken 700 700 0 2); [lia|lia|]. apply sized_exact; [exact V0|left; reflexivity]. }
  assert (S3 := sized_add 700 (k + 2) 2 (k + 2) _ _ _ _ ltac:(lia) ltac:(lia) ltac:(lia) ltac:(lia) S1 S2).
  apply (sized_weaken 701 800 (S (k + 2)) (k + 3)); [lia|lia|exact S3].
Qed.
Lemma rel_max k v r l : 0 <= l -> rel k v r -> rel k (Rmax l v) (Rmax l r).
Proof.
  intros Hl [H1 H2]. assert (U := up_ge1 k). assert (LU : l <= l * up k) by nra. unfold rel. split.
  - apply Rmax_lub; [apply (Rle_trans _ (l * up k)); [exact LU|apply Rmult_le_compat_r; [lra|apply Rmax_l]]|eapply Rle_trans; [exact H1|apply Rmult_le_compat_r; [lra|apply Rmax_r]]].
  - apply Rmax_lub; [apply (Rle_trans _ (l * up k)); [exact LU|apply Rmult_le_compat_r; [lra|apply Rmax_l]]|eapply Rle_trans; [exact H2|apply Rmult_le_compat_r; [lra|apply Rmax_r]]].
Qed.
Lemma pymax_val lm x y a b : val x = Fin a -> val y = Fin b -> val (pymax (B64 lm) x y) = Fin (Rmax a b).
Proof.
  intros Ex Ey. unfold pymax. cbn [nltb B64]. rewrite val_ltb, Ex, Ey. unfold Rmax. destruct (Rlt_dec a b), (Rle_dec a b); try (rewrite xltb_true by lra); try (rewrite xltb_false by lra); rewrite ?Ex, ?Ey; try reflexivity; f_equal; lra.
Qed.
Lemma pymax_x a b : pymax XRA (Fin a) (Fin b) = Fin (Rmax a b).
Proof.
  unfold pymax. cbn [nltb XRA]. unfold Rmax. destruct (Rlt_dec a b), (Rle_dec a b); try (rewrite xltb_true by lra); try (rewrite xltb_false by lra); try reflexivity; f_equal; lra.
Qed.
Lemma bounds_x raw l u v : 0 < u -> bounds_check_py XRA (Fin raw) (Fin l, Fin u) = Fin v -> v <= u / 2 -> v = Rmax l raw.
Proof.
  intros Hu E Hv. unfold bounds_check_py in E. cbn [fst snd] in E. rewrite pymax_x in E. cbn [nltb XRA isinf xisinf negb] in E.
  destruct (Rlt_dec u (Rmax l raw)) as [L | L].
  - rewrite xltb_true in E by exact L. exfalso. cbn [nadd ndiv nlog XRA] in E. rewrite xdiv_fin in E by lra.
    assert (R1 : 1 < Rmax l raw / u) by (apply (Rmult_lt_reg_r u); [lra|]; unfold Rdiv; rewrite Rmult_assoc, Rinv_l by lra; lra).
    rewrite xlog_fin in E by lra. injection E as E. assert (0 < ln (Rmax l raw / u)) by (rewrite <- ln_1; apply ln_increasing; lra). lra.
  - rewrite xltb_false in E by lra. injection E as E. symmetry. exact E.
Qed.
Lemma bounds_64 lm j s raw b v : (Z.of_nat j <= 2 ^ 52)%Z -> row64 b -> close j s raw -> bounds_check_py XRA (Fin raw) (exact_row b) = Fin v -> v <= B2R (snd b) / 2 ->
  sized 500 j (bounds_check_py (B64 lm) s b) v.
Proof.
  intros Hj [[FL HL] [FU HU]] C E Hv. destruct b as [l u]. cbn [fst snd] in *. assert (P := bpow_gt_0 radix2 (-300)).
  assert (EV := bounds_x raw (B2R l) (B2R u) v ltac:(lra) E Hv). destruct C as (w & Ew & Hw & HR).
  assert (RM := rel_max j w raw (B2R l) ltac:(lra) HR). rewrite <- EV in RM.
  assert (M := pymax_val lm l s _ _ (val_fin l FL) Ew).
  assert (V0 : 0 < v) by (rewrite EV; assert (Q := Rmax_l (B2R l) raw); lra).
  assert (LE : Rmax (B2R l) w <= B2R u). { destruct RM as [_ RM]. assert (U := up_le2 j Hj). nra. }
  assert (EB : bounds_check_py (B64 lm) s (l, u) = pymax (B64 lm) l s).
  { unfold bounds_check_py. cbn [fst snd]. change (@nltb (B64 lm)) with (fun x y : b64 => Bltb x y). cbv beta. rewrite val_ltb, M, (val_fin u FU). rewrite xltb_false by exact LE. reflexivity. }
  rewrite EB. split.
  - exists (Rmax (B2R l) w). split; [exact M|]. split; [assert (Q := Rmax_l (B2R l) w); lra|exact RM].
  - right. split; [apply (Rle_trans _ (bpow radix2 (-300))); [apply bpow_le; lia|]; rewrite EV; assert (Q := Rmax_l (B2R l) raw); lra|].
    apply (Rle_trans _ (bpow radix2 300)); [lra|apply bpow_le; lia].
Qed.
(** the two recursions side by side *)
Lemma loop_accuracy lm d (step64 : b64 -> b64 -> b64) (stepR : R -> R -> R)
  (HX : forall (k : nat) p q r, (2 <= k)%nat -> (Z.of_nat k + 8 <= 2 ^ 52)%Z -> resid64 r -> sized 500 k p q -> close (k + d) (step64 p r) (stepR q (B2R r)))
  (stepX : xr -> xr -> xr) (HE : forall q r, stepX (Fin q) (Fin r) = Fin (stepR q r)) :
  forall rs bs k p q vs, Forall resid64 rs -> Forall row64 bs -> (2 <= k)%nat -> (Z.of_nat (k + d * length rs) + 8 <= 2 ^ 52)%Z -> sized 500 k p q ->
  var_loop XRA stepX (Fin q) (map exact rs) (map exact_row bs) = Ok (map Fin vs) ->
  (forall t, (t < length vs)%nat -> nth t vs 0 <= B2R (snd (nth t bs (fofZ 0, fofZ 0))) / 2) ->
  exists xs, var_loop (B64 lm) step64 p rs bs = Ok xs /\ length xs = length vs /\ forall t, (t < length vs)%nat -> sized 500 (k + d * S t) (nth t xs (fofZ 0)) (nth t vs 0).
Proof.
  induction rs as [|r rs IH]; intros bs k p q vs HR HB Hk HK HP E HV.
  - cbn in E. injection E as E. destruct vs; [|discriminate]. exists []. split; [reflexivity|]. split; [reflexivity|]. cbn. lia.
  - destruct bs as [|b bs]; [discriminate E|]. cbn [map var_loop] in E. change (exact r) with (Fin (B2R r)) in E. rewrite HE in E.
    inversion HR as [|r' rs' Hr HRs]; subst r' rs'. inversion HB as [|b' bs' Hb HBs]; subst b' bs'.
    cbn [length] in HK. rewrite Nat.mul_succ_r in HK.
    destruct (bounds_check_py XRA (Fin (stepR q (B2R r))) (exact_row b)) as [v| | |] eqn:EB;
      (match type of E with bind ?z _ = _ => destruct z as [rest|] eqn:EV end; [|discriminate E]); cbn [bind] in E; injection E as E; (destruct vs as [|v0 vs]; [discriminate E|]); cbn [map] in E;
      (match type of E with ?a :: ?b = ?c :: ?d => assert (E1 : a = c) by exact (f_equal (fun l => hd a l) E); assert (E2 : b = d) by exact (f_equal (@tl xr) E) end); try discriminate E1.
    injection E1 as E1. subst v0 rest.
    assert (H0 := HV 0%nat ltac:(cbn [length]; lia)). cbn [nth] in H0.
    assert (SZ := bounds_64 lm (k + d) (step64 p r) _ b v ltac:(lia) Hb (HX k p q r Hk ltac:(lia) Hr HP) EB H0).
    destruct (IH bs (k + d)%nat _ v vs HRs HBs ltac:(lia) ltac:(lia) SZ EV) as (xs & EX & LX & HXs).
    { intros t Ht. exact (HV (S t) ltac:(cbn [length]; lia)). }
    exists (bounds_check_py (B64 lm) (step64 p r) b :: xs). split; [cbn [var_loop]; rewrite EX; reflexivity|]. split; [cbn [length]; lia|].
    intros [|t] Ht; cbn [nth].
    + replace (k + d * 1)%nat with (k + d)%nat by lia. exact SZ.
    + replace (k + d * S (S t))%nat with (k + d + d * S t)%nat by lia. apply HXs. cbn [length] in Ht. lia.
Qed.

Lemma removelast_map {X Y} (f : X -> Y) l : removelast (map f l) = map f (removelast l).
Proof. induction l as [|x [|y l] IH]; [reflexivity|reflexivity|]. cbn [map] in *. change (removelast (f x :: f y :: map f l)) with (f x :: removelast (f y :: map f l)). rewrite IH. reflexivity. Qed.
Lemma Forall_removelast {X} (P : X -> Prop) l : Forall P l -> Forall P (removelast l).
Proof. induction 1 as [|x [|y l] Hx H IH]; [constructor|constructor|]. change (removelast (x :: y :: l)) with (x :: removelast (y :: l)). constructor; assumption. Qed.
Lemma len_removelast {X} (l : list X) : length (removelast l) = Nat.pred (length l).
Proof. induction l as [|x [|y l] IH]; [reflexivity|reflexivity|]. change (removelast (x :: y :: l)) with (x :: removelast (y :: l)). cbn [length] in *. rewrite IH. reflexivity. Qed.
Lemma cons_map_fin (a : R) l vs : @cons xr (Fin a) l = map Fin vs -> exists vs', vs = a :: vs' /\ l = map Fin vs'.
Proof. destruct vs as [|v vs']; [discriminate|]. cbn [map]. intros E. injection E as -> E. eauto. Qed.
Lemma tl_map {X Y} (f : X -> Y) l : tl (map f l) = map f (tl l). Proof. destruct l; reflexivity. Qed.
Lemma nth_tl {X} (l : list X) t d : nth t (tl l) d = nth (S t) l d. Proof. destruct l; [destruct t; reflexivity|reflexivity]. Qed.
Lemma Forall_tl {X} (P : X -> Prop) l : Forall P l -> Forall P (tl l). Proof. intros H; destruct H; [constructor|assumption]. Qed.

Theorem variances_sized lm k params resids bc bs vs :
  square_is_product lm -> Forall volume64 params -> volume64 bc -> Forall resid64 resids -> Forall row64 bs -> (Z.of_nat (length resids) <= 2 ^ 50)%Z ->
  compute_variance XRA k (map exact params) (map exact resids) (exact bc) (map exact_row bs) = Ok (map Fin vs) -> below_upper vs bs ->
  exists xs, compute_variance (B64 lm) k params resids bc bs = Ok xs /\ length xs = length vs /\ forall t, (t < length vs)%nat -> sized 500 (roundings k t) (nth t xs (fofZ 0)) (nth t vs 0).
Proof.
  intros HS HP HB HR HW HN E HU.
  assert (RL : forall rs : list b64, (Z.of_nat (length (removelast rs)) <= Z.of_nat (length rs))%Z) by (intros; rewrite len_removelast; lia).
  destruct k; cbn [compute_variance] in *.
  - (* GARCH *)
    destruct params as [|o [|a [|b [|x params]]]]; try discriminate E. destruct resids as [|r0 rs]; [discriminate E|].
    assert (Ho : volume64 o) by (inversion HP; assumption). assert (Ha : volume64 a) by (inversion HP as [|? ? ? HP1]; inversion HP1; assumption).
    assert (Hb : volume64 b) by (inversion HP as [|? ? ? HP1]; inversion HP1 as [|? ? ? HP2]; inversion HP2; assumption).
    cbn [garch_variance_py map] in E. cbv zeta in E. rewrite <- (map_cons exact r0 rs), removelast_map, tl_map in E.
    match type of E with bind ?z _ = _ => destruct z as [rest|] eqn:EV end; [|discriminate E]. cbn [bind] in E.
    change (@Ok (list xr) (Fin (B2R o + (B2R a + B2R b) * B2R bc) :: rest) = Ok (map Fin vs)) in E. injection E as E. apply cons_map_fin in E as (vs' & -> & ->).
    assert (LL := RL (r0 :: rs)).
    destruct (loop_accuracy lm 2 (garch_step (B64 lm) o a b) (fun q r => B2R o + B2R a * (r * r) + B2R b * q)
      (fun k p q r Hk HK Hr HPq => proj1 (step_garch lm o a b k p q r HS Ho Ha Hb Hr Hk HK HPq))
      (garch_step XRA (exact o) (exact a) (exact b)) (fun q r => eq_refl) (removelast (r0 :: rs)) (tl bs) 3%nat (fadd o (fmul (fadd a b) bc)) _ vs'
      (Forall_removelast _ _ HR) (Forall_tl _ _ HW) ltac:(lia) ltac:(lia) (start_garch o a b bc Ho Ha Hb HB) EV) as (xs & EX & LX & HX).
    { intros t Ht. rewrite nth_tl. exact (HU (S t) ltac:(cbn [length]; lia)). }
    exists (fadd o (fmul (fadd a b) bc) :: xs). split; [|split; [cbn [length]; lia|]].
    + cbn [garch_variance_py]. cbv zeta. change (num (B64 lm)) with b64. 
      match goal with |- bind ?z _ = _ => change z with (var_loop (B64 lm) (garch_step (B64 lm) o a b) (fadd o (fmul (fadd a b) bc)) (removelast (r0 :: rs)) (tl bs)) end. rewrite EX. reflexivity.
    + intros [|t] Ht; cbn [nth]; [exact (start_garch o a b bc Ho Ha Hb HB)|]. cbn [length] in Ht. change (roundings KGarch (S t)) with (3 + 2 * S t)%nat. apply HX. lia.
  - (* GJR *)
    destruct params as [|o [|a [|g [|b [|x params]]]]]; try discriminate E. destruct resids as [|r0 rs]; [discriminate E|].
    assert (Ho : volume64 o) by (inversion HP; assumption). assert (Ha : volume64 a) by (inversion HP as [|? ? ? HP1]; inversion HP1; assumption).
    assert (Hg : volume64 g) by (inversion HP as [|? ? ? HP1]; inversion HP1 as [|? ? ? HP2]; inversion HP2; assumption).
    assert (Hb : volume64 b) by (inversion HP as [|? ? ? HP1]; inversion HP1 as [|? ? ? HP2]; inversion HP2 as [|? ? ? HP3]; inversion HP3; assumption).
    cbn [gjr_variance_py map] in E. cbv zeta in E. rewrite <- (map_cons exact r0 rs), removelast_map, tl_map in E.
    match type of E with bind ?z _ = _ => destruct z as [rest|] eqn:EV end; [|discriminate E]. cbn [bind] in E.
    assert (E0 : xadd (exact o) (xmul (xadd (xadd (exact a) (xdiv (exact g) (Fin 2))) (exact b)) (exact bc)) = Fin (B2R o + (B2R a + B2R g / 2 + B2R b) * B2R bc)).
    { unfold exact. rewrite xdiv_fin by lra. reflexivity. }
    change (@Ok (list xr) (xadd (exact o) (xmul (xadd (xadd (exact a) (xdiv (exact g) (Fin 2))) (exact b)) (exact bc)) :: rest) = Ok (map Fin vs)) in E.
    change (var_loop XRA (gjr_step XRA (exact o) (exact a) (exact g) (exact b)) (xadd (exact o) (xmul (xadd (xadd (exact a) (xdiv (exact g) (Fin 2))) (exact b)) (exact bc))) (map exact (removelast (r0 :: rs))) (map exact_row (tl bs)) = Ok rest) in EV.
    rewrite E0 in E, EV. injection E as E. apply cons_map_fin in E as (vs' & -> & ->).
    assert (LL := RL (r0 :: rs)).
    destruct (loop_accuracy lm 3 (gjr_step (B64 lm) o a g b) (fun q r => B2R o + B2R a * (r * r) + B2R b * q + (if Rlt_dec r 0 then B2R g * (r * r) else 0))
      (fun k p q r Hk HK Hr HPq => proj1 (step_gjr lm o a g b k p q r HS Ho Ha Hg Hb Hr Hk HK HPq))
      (gjr_step XRA (exact o) (exact a) (exact g) (exact b)) ltac:(intros q r; unfold gjr_step; cbn [nltb XRA xltb ofZ]; destruct (Rlt_dec r 0); reflexivity) (removelast (r0 :: rs)) (tl bs) 5%nat (fadd o (fmul (fadd (fadd a (fdiv g (fofZ 2))) b) bc)) _ vs'
      (Forall_removelast _ _ HR) (Forall_tl _ _ HW) ltac:(lia) ltac:(lia) (start_gjr o a g b bc Ho Ha Hg Hb HB) EV) as (xs & EX & LX & HX).
    { intros t Ht. rewrite nth_tl. exact (HU (S t) ltac:(cbn [length]; lia)). }
    exists (fadd o (fmul (fadd (fadd a (fdiv g (fofZ 2))) b) bc) :: xs). split; [|split; [cbn [length]; lia|]].
    + cbn [gjr_variance_py]. cbv zeta. change (num (B64 lm)) with b64. 
      match goal with |- bind ?z _ = _ => change z with (var_loop (B64 lm) (gjr_step (B64 lm) o a g b) (fadd o (fmul (fadd (fadd a (fdiv g (fofZ 2))) b) bc)) (removelast (r0 :: rs)) (tl bs)) end. rewrite EX. reflexivity.
    + intros [|t] Ht; cbn [nth]; [exact (start_gjr o a g b bc Ho Ha Hg Hb HB)|]. cbn [length] in Ht. change (roundings KGjr (S t)) with (5 + 3 * S t)%nat. apply HX. lia.
Qed.

(** *** C126 *)
Lemma row_positive b : row64 b -> positive_row b.
Proof. intros [[F H] _]. unfold positive_row. rewrite (val_fin _ F). apply xltb_true. assert (P := bpow_gt_0 radix2 (-300)). lra. Qed.
Lemma close_not_nan k x r : close k x r -> val x <> NaN.
Proof. intros (v & E & _). rewrite E. discriminate. Qed.
Lemma nth_val {X} (P : X -> Prop) l t d : Forall P l -> (t < length l)%nat -> P (nth t l d).
Proof. intros H Ht. rewrite Forall_forall in H. apply H, nth_In, Ht. Qed.

Theorem C126_variances : forall lm k params resids bc bs vs,
  square_is_product lm -> Forall volume64 params -> volume64 bc -> Forall resid64 resids -> Forall row64 bs -> (Z.of_nat (length resids) <= 2 ^ 50)%Z ->
  compute_variance XRA k (map exact params) (map exact resids) (exact bc) (map exact_row bs) = Ok (map Fin vs) -> below_upper vs bs ->
  exists xs, compute_variance (B64 lm) k params resids bc bs = Ok xs /\ kernel_variances lm k params resids bc bs = xs /\ length xs = length resids /\
    forall t, (t < length resids)%nat -> exists v, val (nth t xs (fofZ 0)) = Fin v /\ relative_error (roundings k t) v (nth t vs 0).
Proof.
  intros lm k params resids bc bs vs HS HP HB HR HW HN E HU.
  destruct (variances_sized lm k params resids bc bs vs HS HP HB HR HW HN E HU) as (xs & EX & LX & HX).
  assert (LR : length xs = length resids /\ (length resids <= length bs \/ length resids = 1%nat)%nat).
  { assert (D : exists s, compute_variance (B64 lm) k params resids bc bs = Ok s) by eauto. apply C02_defined in D as (_ & DN & D). split; [|destruct bs; cbn in D |- *; destruct resids; cbn in *; try congruence; lia].
    destruct k; cbn [compute_variance] in EX.
    - destruct params as [|o [|a [|b [|x params]]]]; try discriminate EX. exact (proj1 (C02_garch_recursion (B64 lm) _ _ _ _ _ _ _ B754_nan (B754_nan, B754_nan) EX)).
    - destruct params as [|o [|a [|g [|b [|x params]]]]]; try discriminate EX. exact (proj1 (C02_gjr_recursion (B64 lm) _ _ _ _ _ _ _ _ B754_nan (B754_nan, B754_nan) EX)). }
  destruct LR as [LR LB]. rewrite LR in LX.
  assert (HA : forall t, (t < length resids)%nat -> sized 500 (roundings k t) (nth t xs B754_nan) (nth t vs 0)).
  { intros t Ht. rewrite (nth_indep xs B754_nan (fofZ 0)) by lia. apply HX. lia. }
  exists xs. split; [exact EX|]. split; [|split; [exact LR|]].
  2:{ intros t Ht. apply (sized_relative 500 (roundings k t)); [destruct k; unfold roundings; lia|]. apply HX. lia. }
  assert (RB : forall t, (S t < length resids)%nat -> exists l u, nth (S t) bs (B754_nan, B754_nan) = (l, u) /\ positive_row (l, u) /\
     flat2 (B64 lm) B754_nan bs (S t * 2) = l /\ flat2 (B64 lm) B754_nan bs (S t * 2 + 1) = u).
  { intros t Ht. destruct (nth (S t) bs (B754_nan, B754_nan)) as [l u] eqn:EB. exists l, u. split; [reflexivity|]. destruct (flat2_row (B754_nan : b64) bs (S t)) as [R1 R2].
    split; [|split; [exact (eq_trans R1 (f_equal fst EB))|exact (eq_trans R2 (f_equal snd EB))]]. rewrite <- EB. apply row_positive. apply nth_val; [exact HW|lia]. }
  destruct k; cbn [compute_variance] in EX; unfold kernel_variances.
  - destruct params as [|o [|a [|b [|x params]]]]; try discriminate EX.
    assert (Ho : volume64 o) by (inversion HP; assumption). assert (Ha : volume64 a) by (inversion HP as [|? ? ? HP1]; inversion HP1; assumption).
    assert (Hb : volume64 b) by (inversion HP as [|? ? ? HP1]; inversion HP1 as [|? ? ? HP2]; inversion HP2; assumption).
    destruct (C02_garch_recursion (B64 lm) _ _ _ _ _ _ _ B754_nan (B754_nan, B754_nan) EX) as (_ & X0 & XS).
    symmetry. unfold cpp_garch. refine (list_as_seq xs _ _ (B754_nan : b64) LR _).
    induction t as [|t IH]; intros Ht; [exact X0|]. specialize (IH ltac:(lia)). destruct (RB t Ht) as (l & u & EB & PB & F1 & F2).
    assert (SG := step_garch lm o a b (roundings KGarch t) _ _ (nth t resids B754_nan) HS Ho Ha Hb (nth_val resid64 resids t B754_nan HR ltac:(lia)) ltac:(unfold roundings; lia) ltac:(unfold roundings; lia) (HA t ltac:(lia))).
    refine (eq_trans (XS t Ht) _). cbn [cpp_garch_at]. change (num (B64 lm)) with b64 in *. rewrite EB, F1, F2, <- IH.
    apply C03_binary64_bounds_check; [exact PB|]. exact (close_not_nan _ _ _ (proj1 SG)).
  - destruct params as [|o [|a [|g [|b [|x params]]]]]; try discriminate EX.
    assert (Ho : volume64 o) by (inversion HP; assumption). assert (Ha : volume64 a) by (inversion HP as [|? ? ? HP1]; inversion HP1; assumption).
    assert (Hg : volume64 g) by (inversion HP as [|? ? ? HP1]; inversion HP1 as [|? ? ? HP2]; inversion HP2; assumption).
    assert (Hb : volume64 b) by (inversion HP as [|? ? ? HP1]; inversion HP1 as [|? ? ? HP2]; inversion HP2 as [|? ? ? HP3]; inversion HP3; assumption).
    destruct (C02_gjr_recursion (B64 lm) _ _ _ _ _ _ _ _ B754_nan (B754_nan, B754_nan) EX) as (_ & X0 & XS).
    symmetry. unfold cpp_gjr. refine (list_as_seq xs _ _ (B754_nan : b64) LR _).
    induction t as [|t IH]; intros Ht; [exact X0|]. specialize (IH ltac:(lia)). destruct (RB t Ht) as (l & u & EB & PB & F1 & F2).
    assert (SG := step_garch lm o a b (roundings KGjr t) _ _ (nth t resids B754_nan) HS Ho Ha Hb (nth_val resid64 resids t B754_nan HR ltac:(lia)) ltac:(unfold roundings; lia) ltac:(unfold roundings; lia) (HA t ltac:(lia))).
    assert (SJ := step_gjr lm o a g b (roundings KGjr t) _ _ (nth t resids B754_nan) HS Ho Ha Hg Hb (nth_val resid64 resids t B754_nan HR ltac:(lia)) ltac:(unfold roundings; lia) ltac:(unfold roundings; lia) (HA t ltac:(lia))).
    refine (eq_trans (XS t Ht) _). cbn [cpp_gjr_at]. cbv zeta. change (num (B64 lm)) with b64 in *. rewrite EB, F1, F2, <- IH.
    refine (eq_trans (C03_binary64_bounds_check lm _ l u PB (close_not_nan _ _ _ (proj1 SJ))) _).
    unfold gjr_step, garch_step in *. cbn [nltb nadd nmul nsq ofZ B64] in SG |- *. destruct (Bltb (nth t resids B754_nan) (fofZ 0)); [reflexivity|].
    match goal with |- context [fadd ?x (fofZ 0)] => destruct (check_add_zero lm x l u PB) as [G | G]; [exact G|exfalso; exact (close_not_nan _ _ _ (proj1 SG) G)] end.
Qed.

(** the exponentially weighted moving averages behind the bounds *)
Lemma ewma_accuracy (lm : libm) (lam : b64) : price64 lam -> B2R lam <= 1 -> forall (xs : list b64) (rs : list R) k p q, Forall2 (sized 200 1) xs rs -> (2 <= k)%nat -> (Z.of_nat (k + 2 * length xs) + 8 <= 2 ^ 52)%Z -> sized 300 k p q -> forall vs,
  ewma_loop XRA (exact lam) (Fin q) (map Fin rs) = map Fin vs -> Forall (fun v => v = 0 \/ bpow radix2 (-300) <= v <= bpow radix2 300) vs ->
  length (ewma_loop (B64 lm) lam p xs) = length vs /\ forall t, (t < length vs)%nat -> sized 300 (k + 2 * S t) (nth t (ewma_loop (B64 lm) lam p xs) (fofZ 0)) (nth t vs 0).
Proof.
  intros HL H1. induction xs as [|x xs IH]; intros rs k p q HF Hk HK HP vs E HV; inversion HF as [|x' r xs' rs' Hx HFs]; subst; cbn [ewma_loop map] in E.
  - destruct vs; [|discriminate E]. split; [reflexivity|]. cbn; lia.
  - destruct vs as [|v vs]; [discriminate E|]. cbn [map] in E.
    assert (E1 : B2R lam * q + (1 - B2R lam) * r = v) by (injection E; auto).
    assert (E2 : ewma_loop XRA (exact lam) (Fin (B2R lam * q + (1 - B2R lam) * r)) (map Fin rs') = map Fin vs) by exact (f_equal (@tl xr) E). rewrite E1 in E2. clear E.
    inversion HV as [|v' vs' Hv HVs]; subst v' vs'. cbn [length] in HK.
    assert (EL := proj1 (price_val lam HL)). assert (ONE : val (fofZ 1) = Fin 1) by (apply val_ofZ_small; simpl; lia).
    assert (P1 : bpow radix2 (-100) <= 1 <= bpow radix2 100) by (split; [apply (Rle_trans _ (bpow radix2 0)); [apply bpow_le; lia|simpl; lra]|apply (Rle_trans _ (bpow radix2 0)); [simpl; lra|apply bpow_le; lia]]).
    assert (PB : bpow radix2 100 <= bpow radix2 1000) by (apply bpow_le; lia). assert (P0 := p100). destruct HL as [FL BL].
    assert (SD : sized 152 1 (fsub (fofZ 1) lam) (1 - B2R lam)).
    { split; [apply close_sub; auto; lra|]. assert (G := gap _ _ _ _ ONE EL P1 BL). rewrite Rabs_right in G by lra. exact G. }
    assert (M1 := sized_mul 100 300 0 k _ _ _ _ ltac:(lia) ltac:(lia) (sized_exact 100 _ _ EL (or_intror BL)) HP).
    assert (M2 := sized_mul 152 200 1 1 _ _ _ _ ltac:(lia) ltac:(simpl; lia) SD Hx).
    assert (M3 := sized_add 400 (S (0 + k)) 3 (S k) _ _ _ _ ltac:(lia) ltac:(lia) ltac:(lia) ltac:(lia) M1 (sized_weaken 352 400 3 3 _ _ ltac:(lia) ltac:(lia) M2)).
    assert (SZ : sized 300 (k + 2) (fadd (fmul lam p) (fmul (fsub (fofZ 1) lam) x)) v).
    { rewrite E1 in M3. split; [replace (k + 2)%nat with (S (S k)) by lia; exact (proj1 M3)|exact Hv]. }
    destruct (IH rs' (k + 2)%nat _ v HFs ltac:(lia) ltac:(lia) SZ vs E2 HVs) as [LN HN].
    change (ewma_loop (B64 lm) lam p (x :: xs)) with (fadd (fmul lam p) (fmul (fsub (fofZ 1) lam) x) :: ewma_loop (B64 lm) lam (fadd (fmul lam p) (fmul (fsub (fofZ 1) lam) x)) xs).
    split; [cbn [length]; lia|]. intros [|t] Ht; cbn [nth].
    + replace (k + 2 * 1)%nat with (k + 2)%nat by lia. exact SZ.
    + replace (k + 2 * S (S t))%nat with (k + 2 + 2 * S t)%nat by lia. apply HN. cbn [length] in Ht. lia.
Qed.
Theorem C126_ewma : forall lm resids v0 lam vs,
  square_is_product lm -> Forall resid64 resids -> volume64 v0 -> price64 lam -> B2R lam <= 1 -> (Z.of_nat (length resids) <= 2 ^ 50)%Z ->
  ewma_py XRA (map exact resids) (exact v0) (exact lam) = Ok (map Fin vs) -> Forall (fun v => v = 0 \/ bpow radix2 (-300) <= v <= bpow radix2 300) vs ->
  exists xs, ewma_py (B64 lm) resids v0 lam = Ok xs /\ cpp_ewma (B64 lm) (fun i => nth i resids B754_nan) v0 lam (length resids) = xs /\ length xs = length resids /\
    forall t, (t < length resids)%nat -> exists v, val (nth t xs (fofZ 0)) = Fin v /\ relative_error (2 + 2 * t) v (nth t vs 0).
Proof.
  intros lm resids v0 lam vs HS HR H0 HL H1 HN E HV. destruct resids as [|r0 rs]; [discriminate E|]. set (RS := r0 :: rs) in *.
  assert (EQ := C03_binary64_ewma lm RS v0 lam HS ltac:(discriminate)). rewrite EQ.
  assert (SQ : Forall2 (sized 200 1) (removelast (map (l_sq lm) RS)) (removelast (map (fun r => B2R r * B2R r) RS))).
  { rewrite !removelast_map. apply Forall2_map. intros x Hx. apply square_sized; [exact HS|]. assert (F := Forall_removelast _ _ HR). rewrite Forall_forall in F. apply F. exact Hx. }
  assert (E' : ewma_py XRA (map exact RS) (exact v0) (exact lam) = Ok (Fin (B2R v0) :: ewma_loop XRA (exact lam) (Fin (B2R v0)) (map Fin (removelast (map (fun r => B2R r * B2R r) RS))))).
  { assert (EM : removelast (map xsq (map exact RS)) = map Fin (removelast (map (fun r => B2R r * B2R r) RS))) by (rewrite <- removelast_map, !map_map; reflexivity).
    rewrite <- EM. reflexivity. }
  assert (EE : Fin (B2R v0) :: ewma_loop XRA (exact lam) (Fin (B2R v0)) (map Fin (removelast (map (fun r => B2R r * B2R r) RS))) = map Fin vs).
  { exact (f_equal (fun z => match z with Ok l => l | Err _ => [] end) (eq_trans (eq_sym E') E)). }
  apply cons_map_fin in EE as (vs' & EV & EE). subst vs. inversion HV as [|v' vs'' Hv HVs]; subst v' vs''.
  assert (LQ : length (removelast (map (l_sq lm) RS)) = length rs) by (rewrite len_removelast, map_length; reflexivity).
  assert (LRS : length RS = S (length rs)) by reflexivity.
  assert (S0 : sized 300 2 v0 (B2R v0)) by (apply (sized_weaken 100 300 0 2); [lia|lia|apply volume_sized; exact H0]).
  destruct (ewma_accuracy lm lam HL H1 _ _ 2%nat v0 _ SQ ltac:(lia) ltac:(rewrite LQ; lia) S0 vs' EE HVs) as [LN HA].
  assert (EX : cpp_ewma (B64 lm) (fun i => nth i RS B754_nan) v0 lam (length RS) = v0 :: ewma_loop (B64 lm) lam v0 (removelast (map (l_sq lm) RS))).
  { assert (G := eq_trans (eq_sym EQ) (eq_refl : ewma_py (B64 lm) RS v0 lam = Ok (v0 :: ewma_loop (B64 lm) lam v0 (removelast (map (l_sq lm) RS))))). exact (f_equal (fun z => match z with Ok l => l | Err _ => [] end) G). }
  rewrite EX. exists (v0 :: ewma_loop (B64 lm) lam v0 (removelast (map (l_sq lm) RS))). split; [reflexivity|]. split; [reflexivity|].
  assert (LE : length (ewma_loop (B64 lm) lam v0 (removelast (map (l_sq lm) RS))) = length rs) by (refine (eq_trans (ewma_loop_length (B64 lm) lam _ v0) _); exact LQ).
  split; [exact (f_equal S LE)|]. intros [|t] Ht; cbn [nth].
  - apply (sized_relative 300 2); [simpl; lia|exact S0].
  - apply (sized_relative 300 (2 + 2 * S t)); [lia|]. apply HA. assert (LV := eq_trans (eq_sym LN) LE). change (num (B64 lm)) with b64 in *. lia.
Qed.


(** non-vacuity: a GARCH and a GJR recursion over three residuals and their moving average *)
Definition case_resids : list b64 := [fofZ 1; fofZ (-2); fofZ 3].
Definition case_bounds : list (b64 * b64) := [(fofZ 1, fofZ 8); (fofZ 1, fofZ 32); (fofZ 12, fofZ 64)].
Lemma B2R_ofZ n : (Z.abs n <= 2 ^ 50)%Z -> is_finite (fofZ n) = true /\ B2R (fofZ n) = IZR n.
Proof. intros H. apply (val_finite_inv (fofZ n) (IZR n)). apply val_ofZ_small. lia. Qed.
Lemma small_volume n : (0 <= n <= 2 ^ 50)%Z -> volume64 (fofZ n).
Proof.
  intros H. destruct (Z.eq_dec n 0) as [-> | N]; [destruct (B2R_ofZ 0 ltac:(lia)) as [F E]; split; [exact F|left; exact E]|].
  destruct (small_price n ltac:(lia)) as [[F B] _]. split; [exact F|right; exact B].
Qed.
Lemma small_resid n : (1 <= Z.abs n <= 2 ^ 50)%Z -> resid64 (fofZ n).
Proof.
  intros H. destruct (B2R_ofZ n ltac:(lia)) as [F E]. split; [exact F|right]. rewrite E, <- abs_IZR. destruct (small_price (Z.abs n) ltac:(lia)) as [[_ B] EB]. rewrite EB in B. exact B.
Qed.
Lemma small_row l u : (1 <= l <= 2 ^ 50)%Z -> (1 <= u <= 2 ^ 50)%Z -> row64 (fofZ l, fofZ u).
Proof.
  intros Hl Hu. destruct (small_price l Hl) as [[Fl Bl] _], (small_price u Hu) as [[Fu Bu] _]. assert (P1 : bpow radix2 (-300) <= bpow radix2 (-100)) by (apply bpow_le; lia). assert (P2 : bpow radix2 100 <= bpow radix2 300) by (apply bpow_le; lia).
  split; cbn [fst snd]; (split; [assumption|lra]).
Qed.
Lemma exact_Z n : (Z.abs n <= 2 ^ 50)%Z -> exact (fofZ n) = Fin (IZR n).
Proof. intros H. unfold exact. rewrite (proj2 (B2R_ofZ n H)). reflexivity. Qed.
Example C126_case : Forall resid64 case_resids /\ Forall row64 case_bounds /\
  garch_variance_py XRA (map exact [fofZ 1; fofZ 1; fofZ 1]) (map exact case_resids) (exact (fofZ 1)) (map exact_row case_bounds) = Ok (map Fin [3; 5; 12]) /\
  below_upper [3; 5; 12] case_bounds /\ square_is_product times_libm.
Proof.
  split; [constructor; [apply small_resid; cbn; lia|]; constructor; [apply small_resid; cbn; lia|]; constructor; [apply small_resid; cbn; lia|]; constructor|]. split; [constructor; [apply small_row; lia|]; constructor; [apply small_row; lia|]; constructor; [apply small_row; lia|]; constructor|]. split; [|split; [|intros x; reflexivity]].
  - cbn [map case_resids case_bounds exact_row]. unfold exact_row. cbn [fst snd]. rewrite !exact_Z by (cbn; lia).
    cbn [garch_variance_py removelast tl var_loop]. unfold garch_step, bounds_check_py. cbn [fst snd]. cbn [nadd nmul nsq XRA xadd xmul xsq ofZ]. rewrite !pymax_x. cbn [nltb XRA].
    rewrite (Rmax_right 1 _) by lra. cbn [xadd xmul]. rewrite (xltb_false 32) by lra. rewrite pymax_x. replace (1 + 1 * (-2 * -2) + 1 * (1 + 1 * (1 * 1) + 1 * (1 + (1 + 1) * 1))) with 10 by ring. rewrite (Rmax_left 12) by lra. rewrite (xltb_false 64) by lra. cbn [bind]. repeat f_equal; lra.
  - intros t Ht. cbn [length] in Ht. destruct t as [|[|[|t]]]; try lia; cbn [nth snd case_bounds]; [rewrite (proj2 (B2R_ofZ 32 ltac:(cbn; lia))); lra|rewrite (proj2 (B2R_ofZ 64 ltac:(cbn; lia))); lra].
Qed.
