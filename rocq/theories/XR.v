(** * Extended reals: the exact-arithmetic instance of [Arith]

    Finite numbers are Coq reals; [PInf], [MInf], [NaN] follow the IEEE-754 rules.
    Simplifications: no rounding, no overflow, a single unsigned zero
    (so x/0 has the sign of x).  *)
From Coq Require Import Reals Lra List ZArith Lia.
From Coquelicot Require Import Coquelicot.
From Verif Require Import Arith.
Import ListNotations.
Local Open Scope R_scope.

(** Standard normal cdf by its integral. *)
Definition phi (t : R) : R := exp (- t ^ 2 / 2) / sqrt (2 * PI).
Definition Phi (x : R) : R := 1 / 2 + RInt phi 0 x.

Inductive xr : Type := Fin (r : R) | PInf | MInf | NaN.

Definition xsgn_inf (r : R) : xr :=   (* r * (+inf) *)
  match total_order_T r 0 with
  | inleft (left _) => MInf
  | inleft (right _) => NaN
  | inright _ => PInf
  end.
Definition xopp (x : xr) : xr :=
  match x with Fin r => Fin (- r) | PInf => MInf | MInf => PInf | NaN => NaN end.
Definition xadd (x y : xr) : xr :=
  match x, y with
  | Fin a, Fin b => Fin (a + b)
  | NaN, _ | _, NaN => NaN
  | PInf, MInf | MInf, PInf => NaN
  | PInf, _ | _, PInf => PInf
  | MInf, _ | _, MInf => MInf
  end.
Definition xsub (x y : xr) : xr :=
  match x, y with Fin a, Fin b => Fin (a - b) | _, _ => xadd x (xopp y) end.
Definition xmul (x y : xr) : xr :=
  match x, y with
  | Fin a, Fin b => Fin (a * b)
  | NaN, _ | _, NaN => NaN
  | PInf, PInf | MInf, MInf => PInf
  | PInf, MInf | MInf, PInf => MInf
  | Fin a, PInf | PInf, Fin a => xsgn_inf a
  | Fin a, MInf | MInf, Fin a => xopp (xsgn_inf a)
  end.
Definition xdiv (x y : xr) : xr :=
  match x, y with
  | Fin a, Fin b => if Req_EM_T b 0 then xsgn_inf a else Fin (a / b)
  | NaN, _ | _, NaN => NaN
  | Fin _, _ => Fin 0
  | PInf, Fin b => if Rlt_dec b 0 then MInf else PInf
  | MInf, Fin b => if Rlt_dec b 0 then PInf else MInf
  | _, _ => NaN
  end.
Definition xabs (x : xr) : xr :=
  match x with Fin r => Fin (Rabs r) | NaN => NaN | _ => PInf end.
Definition xsqrt (x : xr) : xr :=
  match x with
  | Fin r => if Rlt_dec r 0 then NaN else Fin (sqrt r)
  | PInf => PInf | _ => NaN end.
Definition xlog (x : xr) : xr :=
  match x with
  | Fin r => match total_order_T r 0 with
             | inleft (left _) => NaN
             | inleft (right _) => MInf
             | inright _ => Fin (ln r)
             end
  | PInf => PInf | _ => NaN end.
Definition xexp (x : xr) : xr :=
  match x with Fin r => Fin (exp r) | PInf => PInf | MInf => Fin 0 | NaN => NaN end.
Definition xsq (x : xr) : xr :=
  match x with Fin r => Fin (r * r) | NaN => NaN | _ => PInf end.
(** x**y; only bases >= 0 with finite exponents are used by the modelled code, every other
    combination is NaN here (a simplification of IEEE pow). *)
Definition xpow (x y : xr) : xr :=
  match x, y with
  | Fin a, Fin b =>
      match total_order_T a 0 with
      | inright _ => Fin (Rpower a b)
      | inleft (right _) =>
          match total_order_T b 0 with
          | inleft (left _) => PInf
          | inleft (right _) => Fin 1
          | inright _ => Fin 0
          end
      | inleft (left _) => NaN
      end
  | _, _ => NaN
  end.
Definition xltb (x y : xr) : bool :=
  match x, y with
  | Fin a, Fin b => if Rlt_dec a b then true else false
  | NaN, _ | _, NaN => false
  | MInf, MInf => false | MInf, _ => true
  | _, PInf => match x with PInf => false | _ => true end
  | _, _ => false
  end.
Definition xeqb (x y : xr) : bool :=
  match x, y with
  | Fin a, Fin b => if Req_EM_T a b then true else false
  | PInf, PInf | MInf, MInf => true
  | _, _ => false
  end.
Definition xleb (x y : xr) : bool := orb (xltb x y) (xeqb x y).
Definition xisnan (x : xr) : bool := match x with NaN => true | _ => false end.
Definition xisinf (x : xr) : bool := match x with PInf | MInf => true | _ => false end.
Definition xncdf (x : xr) : xr :=
  match x with Fin r => Fin (Phi r) | PInf => Fin 1 | MInf => Fin 0 | NaN => NaN end.

Definition XRA : Arith := {|
  num := xr; nadd := xadd; nsub := xsub; nmul := xmul; ndiv := xdiv; nopp := xopp; nabs := xabs;
  nsqrt := xsqrt; nlog := xlog; nexp := xexp; nsq := xsq; npow := xpow;
  nltb := xltb; nleb := xleb; neqb := xeqb; isnan := xisnan; isinf := xisinf;
  npinf := PInf; nnan := NaN; npi := Fin PI;
  ofZ := fun z => Fin (IZR z);
  lit := fun m d => Fin (IZR m / IZR (Zpos d));
  ncdf := xncdf;
  asum := fun l => fold_left xadd l (Fin 0)
|}.

Definition fin_val (x : xr) : R := match x with Fin r => r | _ => 0 end.
Definition is_fin (x : xr) : Prop := match x with Fin _ => True | _ => False end.

(** ** Rewriting lemmas for finite arguments *)
Lemma xsgn_inf_pos a : 0 < a -> xsgn_inf a = PInf.
Proof. unfold xsgn_inf; destruct (total_order_T a 0) as [[|]|]; auto; lra. Qed.
Lemma xsgn_inf_neg a : a < 0 -> xsgn_inf a = MInf.
Proof. unfold xsgn_inf; destruct (total_order_T a 0) as [[|]|]; auto; lra. Qed.
Lemma xsgn_inf_0 : xsgn_inf 0 = NaN.
Proof. unfold xsgn_inf; destruct (total_order_T 0 0) as [[|]|]; auto; lra. Qed.
Lemma xdiv_fin a b : b <> 0 -> xdiv (Fin a) (Fin b) = Fin (a / b).
Proof. intros; simpl; destruct (Req_EM_T b 0); tauto. Qed.
Lemma xdiv_0 a : xdiv (Fin a) (Fin 0) = xsgn_inf a.
Proof. simpl; destruct (Req_EM_T 0 0); tauto. Qed.
Lemma xsqrt_fin a : 0 <= a -> xsqrt (Fin a) = Fin (sqrt a).
Proof. intros; simpl; destruct (Rlt_dec a 0); auto; lra. Qed.
Lemma xsqrt_neg a : a < 0 -> xsqrt (Fin a) = NaN.
Proof. intros; simpl; destruct (Rlt_dec a 0); auto; lra. Qed.
Lemma xlog_fin a : 0 < a -> xlog (Fin a) = Fin (ln a).
Proof. intros; simpl; destruct (total_order_T a 0) as [[|]|]; auto; lra. Qed.
Lemma xlog_0 : xlog (Fin 0) = MInf.
Proof. intros; simpl; destruct (total_order_T 0 0) as [[|]|]; auto; lra. Qed.
Lemma xlog_neg a : a < 0 -> xlog (Fin a) = NaN.
Proof. intros; simpl; destruct (total_order_T a 0) as [[|]|]; auto; lra. Qed.
Lemma xpow_fin a b : 0 < a -> xpow (Fin a) (Fin b) = Fin (Rpower a b).
Proof. intros; simpl; destruct (total_order_T a 0) as [[|]|]; auto; lra. Qed.
Lemma xltb_true a b : a < b -> xltb (Fin a) (Fin b) = true.
Proof. intros; simpl; destruct (Rlt_dec a b); auto; lra. Qed.
Lemma xltb_false a b : b <= a -> xltb (Fin a) (Fin b) = false.
Proof. intros; simpl; destruct (Rlt_dec a b); auto; lra. Qed.
Lemma xltb_iff a b : xltb (Fin a) (Fin b) = true <-> a < b.
Proof. simpl; destruct (Rlt_dec a b); split; intros; auto; try lra; discriminate. Qed.
Lemma xeqb_iff a b : xeqb (Fin a) (Fin b) = true <-> a = b.
Proof. simpl; destruct (Req_EM_T a b); split; intros; auto; try lra; discriminate. Qed.
Lemma xeqb_false a b : a <> b -> xeqb (Fin a) (Fin b) = false.
Proof. intros; simpl; destruct (Req_EM_T a b); tauto. Qed.
Lemma xeqb_refl a : xeqb (Fin a) (Fin a) = true.
Proof. simpl; destruct (Req_EM_T a a); tauto. Qed.
Lemma xleb_iff a b : xleb (Fin a) (Fin b) = true <-> a <= b.
Proof.
  unfold xleb; rewrite Bool.orb_true_iff, xltb_iff, xeqb_iff; split; intros; lra.
Qed.
Lemma xleb_true a b : a <= b -> xleb (Fin a) (Fin b) = true.
Proof. apply xleb_iff. Qed.
Lemma xleb_false a b : b < a -> xleb (Fin a) (Fin b) = false.
Proof. intros; destruct (xleb (Fin a) (Fin b)) eqn:E; auto; apply xleb_iff in E; lra. Qed.

(** ** Sums *)
Fixpoint Rsum (l : list R) : R := match l with [] => 0 | x :: l' => x + Rsum l' end.
Definition Rmean (l : list R) : R := Rsum l / INR (length l).

Lemma xsum_fin_acc l a : fold_left xadd (map Fin l) (Fin a) = Fin (a + Rsum l).
Proof.
  revert a; induction l as [|x l IH]; intros a; simpl.
  - f_equal; lra.
  - rewrite IH; f_equal; lra.
Qed.
Lemma asum_fin l : asum (a:=XRA) (map Fin l) = Fin (Rsum l).
Proof. simpl; rewrite xsum_fin_acc; f_equal; lra. Qed.
Lemma ofZ_len {X} (l : list X) : ofZ (a:=XRA) (Z.of_nat (length l)) = Fin (INR (length l)).
Proof. simpl; rewrite INR_IZR_INZ; reflexivity. Qed.
Lemma INR_len_pos {X} (l : list X) : l <> [] -> 0 < INR (length l).
Proof. destruct l; [tauto|]. intros _; apply lt_0_INR; simpl; lia. Qed.
Lemma amean_fin l : l <> [] -> amean XRA (map Fin l) = Fin (Rmean l).
Proof.
  intros H; unfold amean. rewrite asum_fin, ofZ_len, map_length.
  assert (0 < INR (length l)) by (apply INR_len_pos; auto).
  cbn [ndiv XRA]; rewrite xdiv_fin by lra; reflexivity.
Qed.
Lemma amean_nil : amean XRA [] = NaN.
Proof. unfold amean; simpl. destruct (Req_EM_T 0 0); [apply xsgn_inf_0|tauto]. Qed.
