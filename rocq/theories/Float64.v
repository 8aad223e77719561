(** * IEEE-754 binary64: the arithmetic the code really runs on

    An instance of [Arith] built from Flocq's formalisation of IEEE-754 (round to nearest, ties to even): addition, subtraction,
    multiplication, division, square root, comparisons and integer conversion are the IEEE ones.
    What IEEE-754 does not fix is a parameter [libm]: log, exp, x**2, x**y, the normal cdf, the decimal constant pi, and the order in which
    numpy adds up an array.  Theorems about this instance state what they need of these (e.g. log x >= 0 for x >= 1). *)
From Coq Require Import Reals ZArith List Lia Lra Psatz Bool.
From Flocq Require Import Core BinarySingleNaN.
From Verif Require Import Arith XR.
Import ListNotations.
Local Open Scope R_scope.

Definition b64 : Type := binary_float 53 1024.
#[global] Instance prec53 : Prec_gt_0 53 := eq_refl.
#[global] Instance prec53_emax : Prec_lt_emax 53 1024 := eq_refl.

Definition fadd : b64 -> b64 -> b64 := Bplus mode_NE.
Definition fsub : b64 -> b64 -> b64 := Bminus mode_NE.
Definition fmul : b64 -> b64 -> b64 := Bmult mode_NE.
Definition fdiv : b64 -> b64 -> b64 := Bdiv mode_NE.
Definition fsqrt : b64 -> b64 := Bsqrt mode_NE.
Definition fofZ (z : Z) : b64 := binary_normalize 53 1024 _ _ mode_NE z 0 false.
Definition fisinf (x : b64) : bool := match x with B754_infinity _ => true | _ => false end.

(** the order in which an array is added up: a binary tree whose leaves are the elements from left to right (numpy's pairwise summation,
    a plain loop, a SIMD reduction, ...), or 0 for the empty array *)
Inductive shape := One | Join (l r : shape).
Fixpoint leaves (s : shape) : nat := match s with One => 1 | Join l r => leaves l + leaves r end.
Fixpoint tree_sum (s : shape) (l : list b64) : b64 :=
  match s with
  | One => match l with x :: _ => x | [] => fofZ 0 end
  | Join a b => fadd (tree_sum a (firstn (leaves a) l)) (tree_sum b (skipn (leaves a) l))
  end.
Record libm := mkLibm {
  l_log : b64 -> b64; l_exp : b64 -> b64; l_sq : b64 -> b64; l_pow : b64 -> b64 -> b64; l_cdf : b64 -> b64; l_pi : b64;
  l_order : nat -> shape;                          (* the summation tree for an array of that length *)
  l_order_ok : forall n, (0 < n)%nat -> leaves (l_order n) = n
}.
Definition fsum (lm : libm) (l : list b64) : b64 := match l with [] => fofZ 0 | _ => tree_sum (l_order lm (length l)) l end.
Definition B64 (lm : libm) : Arith := {|
  num := b64; nadd := fadd; nsub := fsub; nmul := fmul; ndiv := fdiv; nopp := @Bopp 53 1024; nabs := @Babs 53 1024; nsqrt := fsqrt;
  nlog := l_log lm; nexp := l_exp lm; nsq := l_sq lm; npow := l_pow lm;
  nltb := @Bltb 53 1024; nleb := @Bleb 53 1024; neqb := @Beqb 53 1024; isnan := @is_nan 53 1024; isinf := fisinf;
  npinf := B754_infinity false; nnan := B754_nan; npi := l_pi lm;
  ofZ := fofZ; lit := fun z d => fdiv (fofZ z) (fofZ (Zpos d)); ncdf := l_cdf lm; asum := fsum lm |}.

(** ** The value of a binary64 number, as an extended real *)
Definition val (x : b64) : xr :=
  match x with B754_nan => NaN | B754_infinity false => PInf | B754_infinity true => MInf | _ => Fin (B2R x) end.
Notation fexp64 := (SpecFloat.fexp 53 1024).
Definition rnd (r : R) : R := round radix2 fexp64 ZnearestE r.
(** rounding to the nearest binary64 value, overflowing to an infinity *)
Definition RN (r : R) : xr := if Rlt_bool (Rabs (rnd r)) (bpow radix2 1024) then Fin (rnd r) else if Rlt_bool r 0 then MInf else PInf.

Lemma val_fin x : is_finite x = true -> val x = Fin (B2R x).
Proof. destruct x as [|[]| |]; simpl; auto; discriminate. Qed.
Lemma val_finite_inv x r : val x = Fin r -> is_finite x = true /\ B2R x = r.
Proof. destruct x as [|[]| |]; simpl; intros H; try discriminate; injection H as <-; auto. Qed.
Lemma val_nan x : val x = NaN <-> is_nan x = true.
Proof. destruct x as [|[]| |]; simpl; split; congruence. Qed.
Lemma val_inf x : fisinf x = true <-> (val x = PInf \/ val x = MInf).
Proof. destruct x as [|[]| |]; simpl; split; try tauto; try congruence; intros [|]; congruence. Qed.

Lemma bsign_neg (x : b64) : Bsign x = true -> B2R x <= 0.
Proof. destruct x as [|[]| |[]]; simpl; try lra; try discriminate. intros _. apply Rlt_le, F2R_lt_0. reflexivity. Qed.
Lemma bsign_pos (x : b64) : Bsign x = false -> 0 <= B2R x.
Proof. destruct x as [|[]| |[]]; simpl; try lra; try discriminate. intros _. apply Rlt_le, F2R_gt_0. reflexivity. Qed.
Lemma overflow_val (z : b64) s : B2SF z = binary_overflow 53 1024 mode_NE s -> val z = if s then MInf else PInf.
Proof. unfold binary_overflow. simpl. destruct z as [|[]| |]; simpl; intros H; try discriminate; injection H as <-; auto. Qed.
Lemma rnd_0 : rnd 0 = 0.
Proof. apply round_0, valid_rnd_round_mode with (m := mode_NE). Qed.
Lemma overflow_nonzero r : Rlt_bool (Rabs (rnd r)) (bpow radix2 1024) = false -> r <> 0.
Proof. intros H E. rewrite E, rnd_0, Rabs_R0, Rlt_bool_true in H; [discriminate|apply bpow_gt_0]. Qed.

Lemma val_add x y a b : val x = Fin a -> val y = Fin b -> val (fadd x y) = RN (a + b).
Proof.
  intros Hx Hy. apply val_finite_inv in Hx. apply val_finite_inv in Hy. destruct Hx as [Fx <-], Hy as [Fy <-].
  generalize (Bplus_correct 53 1024 _ _ mode_NE x y Fx Fy). unfold RN, rnd, fadd. simpl round_mode.
  destruct (Rlt_bool (Rabs _) _) eqn:E.
  - intros (H1 & H2 & _). rewrite val_fin by auto. rewrite H1. reflexivity.
  - intros (H1 & H2). rewrite (overflow_val _ _ H1). assert (N := overflow_nonzero _ E). destruct (Bsign x) eqn:Sx; symmetry in H2.
    + assert (A := bsign_neg x Sx). assert (B := bsign_neg y H2). rewrite Rlt_bool_true by lra. reflexivity.
    + assert (A := bsign_pos x Sx). assert (B := bsign_pos y H2). rewrite Rlt_bool_false by lra. reflexivity.
Qed.
Lemma val_sub x y a b : val x = Fin a -> val y = Fin b -> val (fsub x y) = RN (a - b).
Proof.
  intros Hx Hy. apply val_finite_inv in Hx. apply val_finite_inv in Hy. destruct Hx as [Fx <-], Hy as [Fy <-].
  generalize (Bminus_correct 53 1024 _ _ mode_NE x y Fx Fy). unfold RN, rnd, fsub. simpl round_mode.
  destruct (Rlt_bool (Rabs _) _) eqn:E.
  - intros (H1 & H2 & _). rewrite val_fin by auto. rewrite H1. reflexivity.
  - intros (H1 & H2). rewrite (overflow_val _ _ H1). assert (N := overflow_nonzero _ E). destruct (Bsign x) eqn:Sx; symmetry in H2.
    + apply negb_true_iff in H2. assert (A := bsign_neg x Sx). assert (B := bsign_pos y H2). rewrite Rlt_bool_true by lra. reflexivity.
    + apply negb_false_iff in H2. assert (A := bsign_pos x Sx). assert (B := bsign_neg y H2). rewrite Rlt_bool_false by lra. reflexivity.
Qed.
Lemma val_mul x y a b : val x = Fin a -> val y = Fin b -> val (fmul x y) = RN (a * b).
Proof.
  intros Hx Hy. apply val_finite_inv in Hx. apply val_finite_inv in Hy. destruct Hx as [Fx <-], Hy as [Fy <-].
  generalize (Bmult_correct 53 1024 _ _ mode_NE x y). unfold RN, rnd, fmul. simpl round_mode.
  destruct (Rlt_bool (Rabs _) _) eqn:E.
  - rewrite Fx, Fy. intros (H1 & H2 & _). rewrite val_fin by auto. rewrite H1. reflexivity.
  - intros H1. rewrite (overflow_val _ _ H1). assert (N := overflow_nonzero _ E). destruct (Bsign x) eqn:Sx, (Bsign y) eqn:Sy; simpl.
    + assert (A := bsign_neg x Sx). assert (B := bsign_neg y Sy). rewrite Rlt_bool_false by nra. reflexivity.
    + assert (A := bsign_neg x Sx). assert (B := bsign_pos y Sy). rewrite Rlt_bool_true by nra. reflexivity.
    + assert (A := bsign_pos x Sx). assert (B := bsign_neg y Sy). rewrite Rlt_bool_true by nra. reflexivity.
    + assert (A := bsign_pos x Sx). assert (B := bsign_pos y Sy). rewrite Rlt_bool_false by nra. reflexivity.
Qed.
Lemma val_div x y a b : val x = Fin a -> val y = Fin b -> b <> 0 -> val (fdiv x y) = RN (a / b).
Proof.
  intros Hx Hy Hb. apply val_finite_inv in Hx. apply val_finite_inv in Hy. destruct Hx as [Fx <-], Hy as [Fy <-].
  generalize (Bdiv_correct 53 1024 _ _ mode_NE x y Hb). unfold RN, rnd, fdiv. simpl round_mode.
  destruct (Rlt_bool (Rabs _) _) eqn:E.
  - rewrite Fx. intros (H1 & H2 & _). rewrite val_fin by auto. rewrite H1. reflexivity.
  - intros H1. rewrite (overflow_val _ _ H1). assert (N := overflow_nonzero _ E).
    assert (I : / B2R y <> 0) by (apply Rinv_neq_0_compat; auto). unfold Rdiv in *.
    assert (IP : 0 < B2R y -> 0 < / B2R y) by apply Rinv_0_lt_compat. assert (IN : B2R y < 0 -> / B2R y < 0) by apply Rinv_lt_0_compat.
    destruct (Bsign x) eqn:Sx, (Bsign y) eqn:Sy; simpl.
    + assert (A := bsign_neg x Sx). assert (B := bsign_neg y Sy). assert (/ B2R y < 0) by (apply IN; lra). rewrite Rlt_bool_false by nra. reflexivity.
    + assert (A := bsign_neg x Sx). assert (B := bsign_pos y Sy). assert (0 < / B2R y) by (apply IP; lra). rewrite Rlt_bool_true by nra. reflexivity.
    + assert (A := bsign_pos x Sx). assert (B := bsign_neg y Sy). assert (/ B2R y < 0) by (apply IN; lra). rewrite Rlt_bool_true by nra. reflexivity.
    + assert (A := bsign_pos x Sx). assert (B := bsign_pos y Sy). assert (0 < / B2R y) by (apply IP; lra). rewrite Rlt_bool_false by nra. reflexivity.
Qed.
Lemma val_ofZ z : val (fofZ z) = RN (IZR z).
Proof.
  generalize (binary_normalize_correct 53 1024 _ _ mode_NE z 0 false). cbv zeta. unfold RN, rnd, fofZ. simpl round_mode.
  replace (F2R (Float radix2 z 0)) with (IZR z) by (unfold F2R; simpl; ring).
  destruct (Rlt_bool (Rabs _) _) eqn:E.
  - intros (H1 & H2 & _). rewrite val_fin by auto. rewrite H1. reflexivity.
  - intros H1. rewrite (overflow_val _ _ H1). reflexivity.
Qed.

(** ** Comparisons are those of the values *)
Lemma val_ltb x y : Bltb x y = xltb (val x) (val y).
Proof.
  destruct (is_finite x) eqn:Fx, (is_finite y) eqn:Fy.
  - rewrite Bltb_correct, !val_fin by auto. simpl. destruct (Rlt_dec (B2R x) (B2R y)); [apply Rlt_bool_true|apply Rlt_bool_false]; lra.
  - rewrite (val_fin x Fx). destruct y as [|[]| |]; try discriminate; destruct x as [|[]| |[]]; try discriminate; reflexivity.
  - rewrite (val_fin y Fy). destruct x as [|[]| |]; try discriminate; destruct y as [|[]| |[]]; try discriminate; reflexivity.
  - destruct x as [|[]| |], y as [|[]| |]; try discriminate; reflexivity.
Qed.
Lemma val_eqb x y : Beqb x y = xeqb (val x) (val y).
Proof.
  destruct (is_finite x) eqn:Fx, (is_finite y) eqn:Fy.
  - rewrite Beqb_correct, !val_fin by auto. simpl. destruct (Req_EM_T (B2R x) (B2R y)); [apply Req_bool_true|apply Req_bool_false]; auto.
  - rewrite (val_fin x Fx). destruct y as [|[]| |]; try discriminate; destruct x as [|[]| |[]]; try discriminate; reflexivity.
  - rewrite (val_fin y Fy). destruct x as [|[]| |]; try discriminate; destruct y as [|[]| |[]]; try discriminate; reflexivity.
  - destruct x as [|[]| |], y as [|[]| |]; try discriminate; reflexivity.
Qed.
Lemma val_leb x y : Bleb x y = xleb (val x) (val y).
Proof.
  destruct (is_finite x) eqn:Fx, (is_finite y) eqn:Fy.
  - rewrite Bleb_correct, !val_fin by auto. destruct (Rle_dec (B2R x) (B2R y)).
    + rewrite Rle_bool_true, xleb_true; auto.
    + rewrite Rle_bool_false, xleb_false; auto; lra.
  - rewrite (val_fin x Fx). destruct y as [|[]| |]; try discriminate; destruct x as [|[]| |[]]; try discriminate; reflexivity.
  - rewrite (val_fin y Fy). destruct x as [|[]| |]; try discriminate; destruct y as [|[]| |[]]; try discriminate; reflexivity.
  - destruct x as [|[]| |], y as [|[]| |]; try discriminate; reflexivity.
Qed.

(** ** Binary64 operations are the extended-real ones followed by rounding *)
Definition xrn (v : xr) : xr := match v with Fin r => RN r | _ => v end.
Definition fzero (x : b64) : bool := match x with B754_zero _ => true | _ => false end.
Lemma fzero_val x : val x = Fin 0 <-> fzero x = true.
Proof.
  split; [|destruct x; try discriminate; reflexivity].
  destruct x as [|[]| |[] m e h]; simpl; intros H; try discriminate; auto; injection H as H.
  - assert (N : F2R (Float radix2 (Z.neg m) e) < 0) by (apply F2R_lt_0; reflexivity). simpl in *; lra.
  - assert (N : 0 < F2R (Float radix2 (Z.pos m) e)) by (apply F2R_gt_0; reflexivity). simpl in *; lra.
Qed.
Lemma val_fadd x y : val (fadd x y) = xrn (xadd (val x) (val y)).
Proof.
  destruct (is_finite x) eqn:Fx, (is_finite y) eqn:Fy.
  - rewrite (val_add x y (B2R x) (B2R y)) by (apply val_fin; auto). rewrite !val_fin by auto. reflexivity.
  - rewrite (val_fin x Fx). destruct y as [|[]| |]; try discriminate; destruct x as [|[]| |[]]; try discriminate; reflexivity.
  - rewrite (val_fin y Fy). destruct x as [|[]| |]; try discriminate; destruct y as [|[]| |[]]; try discriminate; reflexivity.
  - destruct x as [|[]| |], y as [|[]| |]; try discriminate; reflexivity.
Qed.
Lemma val_fsub x y : val (fsub x y) = xrn (xsub (val x) (val y)).
Proof.
  destruct (is_finite x) eqn:Fx, (is_finite y) eqn:Fy.
  - rewrite (val_sub x y (B2R x) (B2R y)) by (apply val_fin; auto). rewrite !val_fin by auto. reflexivity.
  - rewrite (val_fin x Fx). destruct y as [|[]| |]; try discriminate; destruct x as [|[]| |[]]; try discriminate; reflexivity.
  - rewrite (val_fin y Fy). destruct x as [|[]| |]; try discriminate; destruct y as [|[]| |[]]; try discriminate; reflexivity.
  - destruct x as [|[]| |], y as [|[]| |]; try discriminate; reflexivity.
Qed.
Lemma fin_sign s m e h : B2R (B754_finite s m e h : b64) <> 0 /\ (s = false -> 0 < B2R (B754_finite s m e h : b64)) /\ (s = true -> B2R (B754_finite s m e h : b64) < 0).
Proof.
  destruct s; simpl.
  - assert (N : F2R (Float radix2 (Z.neg m) e) < 0) by (apply F2R_lt_0; reflexivity). simpl in *. split; [lra|]. split; [discriminate|auto].
  - assert (N : 0 < F2R (Float radix2 (Z.pos m) e)) by (apply F2R_gt_0; reflexivity). simpl in *. split; [lra|]. split; [auto|discriminate].
Qed.
Lemma val_fmul x y : val (fmul x y) = xrn (xmul (val x) (val y)).
Proof.
  destruct (is_finite x) eqn:Fx, (is_finite y) eqn:Fy.
  - rewrite (val_mul x y (B2R x) (B2R y)) by (apply val_fin; auto). rewrite !val_fin by auto. reflexivity.
  - rewrite (val_fin x Fx). destruct y as [|[]| |]; try discriminate; destruct x as [s|[]| |[] m e h]; try discriminate;
      try (simpl; rewrite xsgn_inf_0; reflexivity); try reflexivity;
      try (destruct (fin_sign true m e h) as (_ & _ & N); unfold xmul, val; rewrite xsgn_inf_neg by auto; reflexivity);
      destruct (fin_sign false m e h) as (_ & N & _); unfold xmul, val; rewrite xsgn_inf_pos by auto; reflexivity.
  - rewrite (val_fin y Fy). destruct x as [|[]| |]; try discriminate; destruct y as [s|[]| |[] m e h]; try discriminate;
      try (simpl; rewrite xsgn_inf_0; reflexivity); try reflexivity;
      try (destruct (fin_sign true m e h) as (_ & _ & N); unfold xmul, val; rewrite xsgn_inf_neg by auto; reflexivity);
      destruct (fin_sign false m e h) as (_ & N & _); unfold xmul, val; rewrite xsgn_inf_pos by auto; reflexivity.
  - destruct x as [|[]| |], y as [|[]| |]; try discriminate; reflexivity.
Qed.
(** for a divisor that is not zero; the sign of a zero divisor is visible in binary64 but not in [xr] *)
Lemma RN_0 : RN 0 = Fin 0.
Proof. unfold RN. rewrite rnd_0, Rabs_R0, Rlt_bool_true; [reflexivity|apply bpow_gt_0]. Qed.
Lemma val_fdiv x y : val y <> Fin 0 -> val (fdiv x y) = xrn (xdiv (val x) (val y)).
Proof.
  intros Hy.
  destruct (is_finite x) eqn:Fx, (is_finite y) eqn:Fy.
  - assert (B2R y <> 0) by (intros E; apply Hy; rewrite val_fin by auto; congruence).
    rewrite (val_div x y (B2R x) (B2R y)) by (auto; apply val_fin; auto). rewrite !val_fin, xdiv_fin by auto. reflexivity.
  - rewrite (val_fin x Fx). destruct y as [|[]| |]; try discriminate; destruct x as [|[]| |[]]; try discriminate; simpl; rewrite ?RN_0; reflexivity.
  - rewrite (val_fin y Fy). destruct x as [|[]| |]; try discriminate; destruct y as [s|[]| |[] m e h]; try discriminate; try reflexivity;
      try (exfalso; apply Hy; reflexivity); unfold xdiv, val;
      destruct (fin_sign true m e h) as (_ & _ & N); destruct (fin_sign false m e h) as (_ & N' & _); specialize (N eq_refl); specialize (N' eq_refl);
      destruct (Rlt_dec _ 0) as [L|L]; try reflexivity; exfalso; solve [apply L; exact N | clear N; simpl in N', L; simpl in *; lra].
  - destruct x as [|[]| |], y as [|[]| |]; try discriminate; reflexivity.
Qed.
Lemma val_abs x : val (Babs x) = xabs (val x).
Proof.
  destruct x as [|[]| |s m e h]; simpl; rewrite ?Rabs_R0; auto. f_equal.
  rewrite <- F2R_Zabs. simpl. destruct s; reflexivity.
Qed.
Lemma val_opp x : val (Bopp x) = xopp (val x).
Proof. destruct x as [|[]| |s m e h]; simpl; rewrite ?Ropp_0; auto. rewrite <- F2R_Zopp. destruct s; reflexivity. Qed.
Lemma val_isnan x : is_nan x = xisnan (val x).
Proof. destruct x as [|[]| |]; reflexivity. Qed.
Lemma val_isinf x : fisinf x = xisinf (val x).
Proof. destruct x as [|[]| |]; reflexivity. Qed.

(** ** Rounding is monotone and exact on representable numbers *)
Notation fmt := (generic_format radix2 fexp64).
#[global] Instance fexp64_valid : Valid_exp fexp64 := fexp_correct 53 1024 prec53.
Lemma rnd_mono a b : a <= b -> rnd a <= rnd b.
Proof. apply round_le; typeclasses eauto. Qed.
Lemma rnd_fmt a : fmt a -> rnd a = a.
Proof. apply round_generic; typeclasses eauto. Qed.
Lemma fmt_rnd a : fmt (rnd a).
Proof. apply generic_format_round; typeclasses eauto. Qed.
Lemma val_fmt x a : val x = Fin a -> fmt a /\ Rabs a < bpow radix2 1024.
Proof. intros H. apply val_finite_inv in H as [F <-]. split; [apply generic_format_B2R|apply abs_B2R_lt_emax]. Qed.
Lemma RN_fmt a : fmt a -> Rabs a < bpow radix2 1024 -> RN a = Fin a.
Proof. intros F H. unfold RN. rewrite rnd_fmt by auto. rewrite Rlt_bool_true by auto. reflexivity. Qed.
Lemma RN_not_nan a : RN a <> NaN.
Proof. unfold RN. destruct (Rlt_bool _ _); [discriminate|]. destruct (Rlt_bool _ _); discriminate. Qed.
Lemma RN_inv a r : RN a = Fin r -> r = rnd a /\ fmt r /\ Rabs r < bpow radix2 1024.
Proof.
  unfold RN. destruct (Rlt_bool_spec (Rabs (rnd a)) (bpow radix2 1024)).
  - intros H'. injection H' as <-. split; auto. split; auto. apply fmt_rnd.
  - destruct (Rlt_bool a 0); discriminate.
Qed.
Lemma RN_mono a b : a <= b -> xleb (RN a) (RN b) = true.
Proof.
  intros H. assert (M := rnd_mono a b H). unfold RN.
  assert (Z1 : forall r, 0 <= r -> 0 <= rnd r) by (intros r Hr; rewrite <- rnd_0; apply rnd_mono; auto).
  assert (Z2 : forall r, r < 0 -> rnd r <= 0) by (intros r Hr; rewrite <- rnd_0; apply rnd_mono; lra).
  destruct (Rlt_bool_spec (Rabs (rnd a)) (bpow radix2 1024)) as [A|A], (Rlt_bool_spec (Rabs (rnd b)) (bpow radix2 1024)) as [B|B].
  - apply xleb_true; auto.
  - destruct (Rlt_bool_spec b 0); [|reflexivity]. exfalso. specialize (Z2 b ltac:(auto)). rewrite Rabs_left1 in B by auto. apply Rabs_def2 in A. lra.
  - destruct (Rlt_bool_spec a 0); [reflexivity|]. exfalso. specialize (Z1 a ltac:(auto)). rewrite Rabs_right in A by lra. apply Rabs_def2 in B. lra.
  - destruct (Rlt_bool_spec a 0), (Rlt_bool_spec b 0); try reflexivity. lra.
Qed.
Lemma RN_le a c : fmt c -> Rabs c < bpow radix2 1024 -> a <= c -> xleb (RN a) (Fin c) = true.
Proof. intros F B H. rewrite <- (RN_fmt c F B). apply RN_mono; auto. Qed.
Lemma RN_ge a c : fmt c -> Rabs c < bpow radix2 1024 -> c <= a -> xleb (Fin c) (RN a) = true.
Proof. intros F B H. rewrite <- (RN_fmt c F B). apply RN_mono; auto. Qed.
Lemma fmt_Z z : (Z.abs z <= 2 ^ 53)%Z -> fmt (IZR z) /\ Rabs (IZR z) < bpow radix2 1024.
Proof.
  intros H. split.
  - destruct (Z.eq_dec (Z.abs z) (2 ^ 53)) as [E|E].
    + assert (fmt (bpow radix2 53)) by (apply generic_format_bpow; vm_compute; discriminate).
      replace (bpow radix2 53) with (IZR (2 ^ 53)) in H0 by reflexivity.
      destruct (Z.abs_eq_or_opp z) as [A|A].
      * replace z with (2 ^ 53)%Z by lia. auto.
      * replace z with (- 2 ^ 53)%Z by lia. rewrite opp_IZR. apply generic_format_opp; auto.
    + replace (IZR z) with (F2R (Float radix2 z 0)) by (unfold F2R; simpl; ring).
      apply generic_format_FLT with (emin := (3 - 1024 - 53)%Z) (prec := 53%Z). exists (Float radix2 z 0); simpl; auto; lia.
  - rewrite <- abs_IZR. apply Rle_lt_trans with (IZR (2 ^ 53)); [apply IZR_le; auto|].
    replace (IZR (2 ^ 53)) with (bpow radix2 53) by reflexivity. apply bpow_lt. reflexivity.
Qed.
Lemma val_ofZ_small z : (Z.abs z <= 2 ^ 53)%Z -> val (fofZ z) = Fin (IZR z).
Proof. intros H. destruct (fmt_Z z H). rewrite val_ofZ. apply RN_fmt; auto. Qed.
