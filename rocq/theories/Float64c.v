(** * Relative accuracy of binary64 computations with non-negative numbers *)
From Coq Require Import Reals ZArith List Lia Lra Psatz Bool Arith.
From Flocq Require Import Core Relative Plus_error BinarySingleNaN.
From Verif Require Import Arith XR RealAux Float64 Float64b.
Import ListNotations.
Local Open Scope R_scope.

(** the unit roundoff 2^-53 and the accumulated factor of k roundings *)
Definition uro : R := bpow radix2 (-53).
Definition up (k : nat) : R := (1 + uro) ^ k.
(** [v] and [r] differ by at most the factor (1 + 2^-53)^k *)
Definition rel (k : nat) (v r : R) : Prop := r <= v * up k /\ v <= r * up k.

Lemma uro_pos : 0 < uro. Proof. apply bpow_gt_0. Qed.
Lemma uro_eq : uro = / 9007199254740992. Proof. reflexivity. Qed.
Lemma up_ge1 k : 1 <= up k.
Proof. apply pow_R1_Rle. assert (H := uro_pos). lra. Qed.
Lemma up_pos k : 0 < up k. Proof. assert (H := up_ge1 k). lra. Qed.
Lemma up_add j k : up (j + k) = up j * up k.
Proof. apply pow_add. Qed.
Lemma up_mono j k : (j <= k)%nat -> up j <= up k.
Proof. intros H. apply Rle_pow; [assert (P := uro_pos); lra|exact H]. Qed.
(** up to 2^52 roundings the accumulated relative error is at most k * 2^-52 *)
Lemma pow_linear x k : 0 <= x -> INR k * x <= 1/2 -> (1 + x) ^ k <= 1 + 2 * (INR k * x).
Proof.
  intros Hx. induction k as [|k IH]; intros HK; [simpl; lra|].
  rewrite S_INR in HK. assert (K0 := pos_INR k). assert (Hk : INR k * x <= 1/2) by nra. specialize (IH Hk).
  cbn [pow]. rewrite S_INR. assert (0 <= (1 + x) ^ k) by (apply pow_le; lra). nra.
Qed.
Lemma up_linear k : (Z.of_nat k <= 2 ^ 52)%Z -> up k <= 1 + INR k * (2 * uro).
Proof.
  intros H. assert (P := uro_pos). unfold up. eapply Rle_trans; [apply pow_linear; [lra|]|lra].
  rewrite INR_IZR_INZ, uro_eq. apply IZR_le in H. change (IZR (2 ^ 52)) with 4503599627370496 in H. lra.
Qed.
Lemma up_le2 k : (Z.of_nat k <= 2 ^ 52)%Z -> up k <= 2.
Proof.
  intros H. eapply Rle_trans; [apply up_linear; exact H|]. rewrite INR_IZR_INZ, uro_eq. apply IZR_le in H. change (IZR (2 ^ 52)) with 4503599627370496 in H. lra.
Qed.
Lemma rel_error k v r : (Z.of_nat k <= 2 ^ 52)%Z -> 0 <= r -> rel k v r -> Rabs (v - r) <= INR k * bpow radix2 (-52) * r.
Proof.
  intros Hk Hr [H1 H2]. assert (P := uro_pos). assert (U := up_linear k Hk). assert (G := up_ge1 k). assert (T := up_le2 k Hk).
  replace (bpow radix2 (-52)) with (2 * uro) by (rewrite uro_eq; replace (bpow radix2 (-52)) with (/ 4503599627370496) by reflexivity; lra).
  assert (V0 : 0 <= v) by (destruct (Rle_lt_dec 0 v); [assumption|exfalso; assert (v * up k < 0) by nra; lra]).
  set (e := INR k * (2 * uro)) in *. assert (0 <= e) by (unfold e; apply Rmult_le_pos; [apply pos_INR|lra]).
  apply Rabs_le. split; [|nra].
  (* r <= v (1+e)  ->  v >= r/(1+e) >= r (1-e) *)
  assert (r <= v * (1 + e)) by nra. assert (0 <= r * (e * e)) by nra. assert (r * (1 - e) * (1 + e) <= v * (1 + e)) by nra. assert (r * (1 - e) <= v) by (apply (Rmult_le_reg_r (1 + e)); lra). lra.
Qed.

Lemma rel_refl v : rel 0 v v.
Proof. unfold rel, up. simpl. lra. Qed.
Lemma rel_0 k : rel k 0 0. Proof. unfold rel. lra. Qed.
Lemma rel_weaken j k v r : (j <= k)%nat -> 0 <= v -> 0 <= r -> rel j v r -> rel k v r.
Proof. intros H Hv Hr [H1 H2]. assert (M := up_mono j k H). split; nra. Qed.
Lemma rel_trans j k a b c : 0 <= a -> 0 <= c -> rel j a b -> rel k b c -> rel (k + j) a c.
Proof.
  intros Ha Hc [H1 H2] [H3 H4]. assert (U1 := up_pos j). assert (U2 := up_pos k). unfold rel. rewrite up_add. split.
  - apply (Rle_trans _ (b * up k)); [assumption|]. replace (a * (up k * up j)) with (a * up j * up k) by ring. apply Rmult_le_compat_r; lra.
  - apply (Rle_trans _ (b * up j)); [assumption|]. replace (c * (up k * up j)) with (c * up k * up j) by ring. apply Rmult_le_compat_r; lra.
Qed.
Lemma rel_add k a b c d : rel k a c -> rel k b d -> rel k (a + b) (c + d).
Proof. intros [H1 H2] [H3 H4]. split; lra. Qed.
Lemma rel_mul j k a b c d : 0 <= a -> 0 <= b -> 0 <= c -> 0 <= d -> rel j a c -> rel k b d -> rel (j + k) (a * b) (c * d).
Proof.
  intros Ha Hb Hc Hd [H1 H2] [H3 H4]. unfold rel. rewrite up_add. split.
  - replace (a * b * (up j * up k)) with ((a * up j) * (b * up k)) by ring. apply Rmult_le_compat; assumption.
  - replace (c * d * (up j * up k)) with ((c * up j) * (d * up k)) by ring. apply Rmult_le_compat; assumption.
Qed.
Lemma rel_inv k b d : 0 < b -> 0 < d -> rel k b d -> rel k (/ b) (/ d).
Proof.
  intros Hb Hd [H1 H2]. assert (U := up_pos k). assert (IB := Rinv_0_lt_compat b Hb). assert (ID := Rinv_0_lt_compat d Hd). split.
  - apply (Rmult_le_reg_r (b * d)); [apply Rmult_lt_0_compat; assumption|]. replace (/ d * (b * d)) with b by (field; lra). replace (/ b * up k * (b * d)) with (d * up k) by (field; lra). exact H2.
  - apply (Rmult_le_reg_r (b * d)); [apply Rmult_lt_0_compat; assumption|]. replace (/ b * (b * d)) with d by (field; lra). replace (/ d * up k * (b * d)) with (b * up k) by (field; lra). exact H1.
Qed.
Lemma rel_div j k a b c d : 0 <= a -> 0 < b -> 0 <= c -> 0 < d -> rel j a c -> rel k b d -> rel (j + k) (a / b) (c / d).
Proof.
  intros Ha Hb Hc Hd H1 H2. unfold Rdiv. apply rel_mul; auto; [apply Rlt_le, Rinv_0_lt_compat; exact Hb|apply Rlt_le, Rinv_0_lt_compat; exact Hd|apply rel_inv; assumption].
Qed.

(** ** One rounding *)
Lemma rel_of_eps r v eps : 0 <= r -> Rabs eps <= uro / (1 + uro) -> v = r * (1 + eps) -> rel 1 v r.
Proof.
  intros Hr He ->. assert (P := uro_pos). unfold rel, up. simpl. rewrite Rmult_1_r. apply Rabs_le_inv in He.
  set (q := uro / (1 + uro)) in *. assert (Q : q * (1 + uro) = uro) by (unfold q; field; lra).
  assert (0 <= q) by (apply Rmult_le_pos; [lra|apply Rlt_le, Rinv_0_lt_compat; lra]).
  assert (q <= uro) by nra. split.
  - assert (1 <= (1 + eps) * (1 + uro)) by nra. rewrite Rmult_assoc. nra.
  - apply Rmult_le_compat_l; lra.
Qed.
Lemma u_ro_uro : u_ro radix2 53 = uro. Proof. unfold u_ro. rewrite uro_eq. change (- (53) + 1)%Z with (-52)%Z. replace (bpow radix2 (-52)) with (/ 4503599627370496) by reflexivity. lra. Qed.
(** a sum or difference never underflows *)
Lemma rel_rnd_add a b : fmt a -> fmt b -> 0 <= a + b -> rel 1 (rnd (a + b)) (a + b).
Proof.
  intros Fa Fb H. destruct (FLT_plus_error_N_ex radix2 (3 - 1024 - 53) 53 (fun t => negb (Z.even t)) a b Fa Fb) as (eps & He & E). rewrite u_ro_uro in He.
  apply (rel_of_eps _ _ eps H He). exact E.
Qed.
(** any other result does not underflow if it is 0 or at least 2^-1022 *)
Definition no_underflow (r : R) : Prop := r = 0 \/ bpow radix2 (-1022) <= r.
Lemma nu_nonneg r : no_underflow r -> 0 <= r.
Proof. intros [-> | H]; [lra|]. assert (P := bpow_gt_0 radix2 (-1022)). lra. Qed.
Lemma rel_rnd r : no_underflow r -> rel 1 (rnd r) r.
Proof.
  intros [-> | H]; [rewrite rnd_0; apply rel_0|]. assert (P := bpow_gt_0 radix2 (-1022)).
  destruct (relative_error_N_FLX'_ex radix2 53 eq_refl (fun t => negb (Z.even t)) r) as (eps & He & E). rewrite u_ro_uro in He.
  assert (R0 : 0 <= r) by lra. apply (rel_of_eps _ _ eps R0 He). rewrite <- E.
  apply (round_FLT_FLX radix2 (3 - 1024 - 53) 53). rewrite Rabs_right by lra. exact H.
Qed.

(** ** Computed numbers close to exact ones *)
(** the number [x] is finite, at least 0 and within k roundings of [r] *)
Definition close (k : nat) (x : b64) (r : R) : Prop := exists v, val x = Fin v /\ 0 <= v /\ rel k v r.
Lemma close_nonneg k x r : close k x r -> 0 <= r.
Proof. intros (v & _ & Hv & [H1 H2]). assert (U := up_pos k). destruct (Rle_lt_dec 0 r); [assumption|]. exfalso. assert (r * up k < 0) by nra. lra. Qed.
Lemma close_exact x r : val x = Fin r -> 0 <= r -> close 0 x r.
Proof. intros E H. exists r. split; [exact E|]. split; [exact H|apply rel_refl]. Qed.
Lemma close_weaken j k x r : (j <= k)%nat -> close j x r -> close k x r.
Proof. intros H C. assert (R0 := close_nonneg _ _ _ C). destruct C as (v & E & Hv & HR). exists v. split; [exact E|]. split; [exact Hv|]. apply (rel_weaken j); assumption. Qed.
Lemma bpow_double n : bpow radix2 n * 2 = bpow radix2 (n + 1).
Proof. rewrite bpow_plus. reflexivity. Qed.
Lemma RN_in_range r m : 0 <= r <= bpow radix2 m -> (-1000 <= m < 1024)%Z -> RN r = Fin (rnd r) /\ 0 <= rnd r.
Proof.
  intros H Hm. assert (A : Rabs r = r) by (apply Rabs_right; lra). destruct (RN_finite r m) as (v & E); [rewrite A; lra|exact Hm|].
  destruct (RN_inv _ _ E) as (-> & _). split; [exact E|]. rewrite <- rnd_0. apply rnd_mono. lra.
Qed.
(** the value of a close number is at most twice the exact one *)
Lemma close_le2 k x r : (Z.of_nat k <= 2 ^ 52)%Z -> close k x r -> exists v, val x = Fin v /\ 0 <= v <= 2 * r /\ r <= 2 * v /\ rel k v r.
Proof.
  intros Hk C. assert (R0 := close_nonneg _ _ _ C). destruct C as (v & E & Hv & HR). exists v. split; [exact E|]. assert (U := up_le2 k Hk). destruct HR as [H1 H2].
  split; [split; [exact Hv|nra]|]. split; [nra|]. split; assumption.
Qed.
Lemma close_add j k n x y a b : (j <= n)%nat -> (k <= n)%nat -> (Z.of_nat n <= 2 ^ 52)%Z -> close j x a -> close k y b -> a + b <= bpow radix2 1000 -> close (S n) (fadd x y) (a + b).
Proof.
  intros Hj Hk Hn Cx Cy HB. apply (close_weaken j n x a Hj) in Cx. apply (close_weaken k n y b Hk) in Cy.
  assert (A0 := close_nonneg _ _ _ Cx). assert (B0 := close_nonneg _ _ _ Cy).
  destruct (close_le2 n x a Hn Cx) as (v & Ev & Hv & _ & Rv). destruct (close_le2 n y b Hn Cy) as (w & Ew & Hw & _ & Rw).
  destruct (RN_in_range (v + w) 1001) as [E P]; [assert (D := bpow_double 1000); change (1000 + 1)%Z with 1001%Z in D; lra|lia|].
  exists (rnd (v + w)). rewrite (val_add _ _ _ _ Ev Ew). split; [exact E|]. split; [exact P|]. replace (S n) with (n + 1)%nat by lia.
  apply (rel_trans 1 n _ (v + w)); [exact P|lra| |apply rel_add; assumption].
  apply rel_rnd_add; [apply (val_fmt _ _ Ev)|apply (val_fmt _ _ Ew)|lra].
Qed.
Lemma close_round j x r s m : (Z.of_nat j <= 2 ^ 52)%Z -> val x = RN s -> rel j s r -> 0 <= r -> (r = 0 \/ bpow radix2 (-1000) <= r) -> r <= bpow radix2 m -> (-1000 <= m <= 1000)%Z -> close (S j) x r.
Proof.
  intros Hj Ex HR Hr HU HO Hm. assert (U := up_le2 j Hj). assert (U1 := up_ge1 j). destruct HR as [H1 H2].
  assert (S0 : 0 <= s) by (destruct (Rle_lt_dec 0 s); [assumption|exfalso; assert (s * up j < 0) by nra; lra]).
  destruct (RN_in_range s (m + 1)) as [E P]; [split; [exact S0|]; rewrite <- bpow_double; nra|lia|].
  exists (rnd s). split; [rewrite Ex; exact E|]. split; [exact P|]. replace (S j) with (j + 1)%nat by lia.
  apply (rel_trans 1 j _ s); [exact P|exact Hr| |split; assumption]. apply rel_rnd. destruct HU as [-> | HU]; [left; nra|right].
  apply (Rle_trans _ (bpow radix2 (-1001))); [apply bpow_le; lia|].
  assert (D := bpow_double (-1001)). change (-1001 + 1)%Z with (-1000)%Z in D. nra.
Qed.
Lemma close_mul j k x y a b : (Z.of_nat (j + k) <= 2 ^ 52)%Z -> close j x a -> close k y b -> (a * b = 0 \/ bpow radix2 (-1000) <= a * b) -> a * b <= bpow radix2 1000 -> close (S (j + k)) (fmul x y) (a * b).
Proof.
  intros Hn Cx Cy HU HO. assert (A0 := close_nonneg _ _ _ Cx). assert (B0 := close_nonneg _ _ _ Cy). destruct Cx as (v & Ev & Hv & Rv), Cy as (w & Ew & Hw & Rw).
  apply (close_round (j + k) _ _ (v * w) 1000); auto; [apply val_mul; assumption|apply rel_mul; assumption|nra|lia].
Qed.
Lemma rel_pos k v r : 0 < r -> rel k v r -> 0 < v.
Proof. intros Hr [H1 H2]. assert (U := up_pos k). destruct (Rle_lt_dec v 0); [|assumption]. exfalso. nra. Qed.
Lemma close_div j k x y a b : (Z.of_nat (j + k) <= 2 ^ 52)%Z -> close j x a -> close k y b -> 0 < b -> (a = 0 \/ bpow radix2 (-1000) <= a / b) -> a / b <= bpow radix2 1000 -> close (S (j + k)) (fdiv x y) (a / b).
Proof.
  intros Hn Cx Cy HB HU HO. assert (A0 := close_nonneg _ _ _ Cx). destruct Cx as (v & Ev & Hv & Rv), Cy as (w & Ew & Hw & Rw). assert (W0 := rel_pos _ _ _ HB Rw).
  apply (close_round (j + k) _ _ (v / w) 1000); auto; [apply val_div; auto; lra|apply rel_div; assumption| | |lia].
  - apply Rmult_le_pos; [exact A0|apply Rlt_le, Rinv_0_lt_compat; exact HB].
  - destruct HU as [-> | HU]; [left; unfold Rdiv; ring|right; exact HU].
Qed.
(** a difference of exact numbers *)
Lemma close_sub x y a b : val x = Fin a -> val y = Fin b -> 0 <= b <= a -> a <= bpow radix2 1000 -> close 1 (fsub x y) (a - b).
Proof.
  intros Ex Ey H HB. destruct (RN_in_range (a - b) 1000) as [E P]; [lra|lia|]. exists (rnd (a - b)). rewrite (val_sub _ _ _ _ Ex Ey). split; [exact E|]. split; [exact P|].
  apply rel_rnd_add; [apply (val_fmt _ _ Ex)|apply generic_format_opp; apply (val_fmt _ _ Ey)|lra].
Qed.
Lemma close_abs_sub x y a b : val x = Fin a -> val y = Fin b -> 0 <= a <= bpow radix2 1000 -> 0 <= b <= bpow radix2 1000 -> close 1 (Babs (fsub x y)) (Rabs (a - b)).
Proof.
  intros Ex Ey Ha Hb. destruct (Rle_lt_dec b a) as [L|L].
  - rewrite (Rabs_right (a - b)) by lra. destruct (close_sub x y a b Ex Ey) as (v & E & Hv & HR); [lra|lra|]. exists v. rewrite val_abs, E. simpl. rewrite Rabs_right by lra. auto.
  - rewrite (Rabs_left (a - b)) by lra. destruct (close_sub y x b a Ey Ex) as (v & E & Hv & HR); [lra|lra|]. exists v. split; [|split; [exact Hv|replace (- (a - b)) with (b - a) by ring; exact HR]].
    rewrite val_abs, (val_sub _ _ _ _ Ex Ey). rewrite (val_sub _ _ _ _ Ey Ex) in E. destruct (RN_inv _ _ E) as (-> & _).
    destruct (RN_in_range (b - a) 1000) as [EB P]; [lra|lia|].
    assert (O : rnd (a - b) = - rnd (b - a)). { replace (a - b) with (- (b - a)) by ring. unfold rnd. rewrite round_NE_opp. reflexivity. }
    assert (EN : RN (a - b) = Fin (rnd (a - b))). { destruct (RN_finite (a - b) 1000) as (z & Z1); [rewrite Rabs_left by lra; lra|lia|]. destruct (RN_inv _ _ Z1) as (-> & _). exact Z1. }
    rewrite EN. simpl. rewrite O, Rabs_Ropp, Rabs_right by lra. reflexivity.
Qed.

(** ** Sums in any order *)
Fixpoint depth (s : shape) : nat := match s with One => 0 | Join l r => S (Nat.max (depth l) (depth r)) end.
Lemma depth_lt s : (depth s < leaves s)%nat.
Proof. induction s; simpl; lia. Qed.
Lemma Forall2_len {X Y} (P : X -> Y -> Prop) l m : Forall2 P l m -> length l = length m.
Proof. induction 1; simpl; congruence. Qed.
Lemma Rsum_ge0 l : (forall x, In x l -> 0 <= x) -> 0 <= Rsum l.
Proof. induction l as [|x l IH]; simpl; intros H; [lra|]. assert (0 <= x) by (apply H; auto). assert (0 <= Rsum l) by (apply IH; intros; apply H; auto). lra. Qed.
Lemma Forall2_firstn {X Y} (P : X -> Y -> Prop) n l m : Forall2 P l m -> Forall2 P (firstn n l) (firstn n m).
Proof. intros H. revert n. induction H; intros [|n]; simpl; constructor; auto. Qed.
Lemma Forall2_skipn {X Y} (P : X -> Y -> Prop) n l m : Forall2 P l m -> Forall2 P (skipn n l) (skipn n m).
Proof. intros H. revert n. induction H; intros [|n]; simpl; auto. Qed.
Lemma close_tree k s : forall l m, leaves s = length l -> Forall2 (close k) l m -> Rsum m <= bpow radix2 1000 -> (Z.of_nat (k + depth s) <= 2 ^ 52)%Z -> close (k + depth s) (tree_sum s l) (Rsum m).
Proof.
  induction s as [|a IHa b IHb]; intros l m HL HF HB HD; simpl in HL.
  - destruct HF as [|x r l' m' Hx HF]; [discriminate|]. destruct HF; [|discriminate]. simpl. rewrite Nat.add_0_r, Rplus_0_r. exact Hx.
  - cbn [tree_sum depth] in *. assert (LM := Forall2_len _ _ _ HF).
    assert (NN : forall z, In z m -> 0 <= z). { intros z Hz. clear - HF Hz. induction HF as [|x r l' m' Hx HF IH]; [destruct Hz|]. destruct Hz as [<-|Hz]; [apply (close_nonneg _ _ _ Hx)|auto]. }
    assert (SP : Rsum m = Rsum (firstn (leaves a) m) + Rsum (skipn (leaves a) m)) by (rewrite <- Rsum_app, firstn_skipn; reflexivity).
    assert (N1 : 0 <= Rsum (firstn (leaves a) m)). { apply Rsum_ge0. intros z Hz. apply NN. rewrite <- (firstn_skipn (leaves a) m). apply in_or_app; auto. }
    assert (N2 : 0 <= Rsum (skipn (leaves a) m)). { apply Rsum_ge0. intros z Hz. apply NN. rewrite <- (firstn_skipn (leaves a) m). apply in_or_app; auto. }
    rewrite SP. replace (k + S (Nat.max (depth a) (depth b)))%nat with (S (k + Nat.max (depth a) (depth b))) by lia.
    apply (close_add (k + depth a) (k + depth b)); [lia|lia|lia| | |rewrite <- SP; exact HB].
    + apply IHa; [rewrite firstn_length; lia|apply Forall2_firstn; exact HF|lra|lia].
    + apply IHb; [rewrite skipn_length; lia|apply Forall2_skipn; exact HF|lra|lia].
Qed.
(** the number of levels of the summation tree for n terms *)
Definition levels (lm : libm) (n : nat) : nat := depth (l_order lm n).
Lemma levels_lt lm n : (0 < n)%nat -> (levels lm n < n)%nat.
Proof. intros H. unfold levels. assert (D := depth_lt (l_order lm n)). rewrite l_order_ok in D by exact H. exact D. Qed.
Lemma close_fsum lm k l m : Forall2 (close k) l m -> Rsum m <= bpow radix2 1000 -> (Z.of_nat (k + levels lm (length l)) <= 2 ^ 52)%Z -> close (k + levels lm (length l)) (fsum lm l) (Rsum m).
Proof.
  intros HF HB HD. destruct l as [|x l'] eqn:EL.
  - inversion HF; subst. exists 0. split; [exact (eq_trans (val_ofZ 0) RN_0)|]. split; [lra|apply rel_0].
  - rewrite <- EL in *. replace (fsum lm l) with (tree_sum (l_order lm (length l)) l) by (rewrite EL; reflexivity).
    apply close_tree; auto. apply l_order_ok. rewrite EL. simpl. lia.
Qed.

(** ** The same with the range of the exact value: 0, or between 2^-e and 2^e *)
Definition span (e : Z) (r : R) : Prop := r = 0 \/ bpow radix2 (- e) <= r <= bpow radix2 e.
Definition sized (e : Z) (k : nat) (x : b64) (r : R) : Prop := close k x r /\ span e r.
Lemma span_weaken e f r : (e <= f)%Z -> span e r -> span f r.
Proof. intros H [-> | [H1 H2]]; [left; reflexivity|right]. split; [eapply Rle_trans; [apply bpow_le|exact H1]; lia|eapply Rle_trans; [exact H2|apply bpow_le; lia]]. Qed.
Lemma span_nonneg e r : span e r -> 0 <= r.
Proof. intros [-> | [H _]]; [lra|]. assert (P := bpow_gt_0 radix2 (- e)). lra. Qed.
Lemma span_pos e r : span e r -> 0 < r -> bpow radix2 (- e) <= r <= bpow radix2 e.
Proof. intros [-> | H] P; [lra|exact H]. Qed.
Lemma span_le e r : (0 <= e)%Z -> span e r -> r <= bpow radix2 e.
Proof. intros He [-> | H]; [apply bpow_ge_0|apply H]. Qed.
Lemma span_mul e f a b : span e a -> span f b -> span (e + f) (a * b).
Proof.
  intros [-> | [H1 H2]] [-> | [H3 H4]]; try (left; ring). right. assert (P1 := bpow_gt_0 radix2 (- e)). assert (P2 := bpow_gt_0 radix2 (- f)).
  replace (- (e + f))%Z with (- e + - f)%Z by lia. rewrite !bpow_plus. split; apply Rmult_le_compat; lra.
Qed.
Lemma span_inv e b : 0 < b -> span e b -> span e (/ b).
Proof.
  intros HB [-> | [H1 H2]]; [lra|]. right. assert (P1 := bpow_gt_0 radix2 (- e)). split.
  - rewrite bpow_opp. apply Rinv_le; lra.
  - replace (bpow radix2 e) with (/ bpow radix2 (- e)) by (rewrite bpow_opp, Rinv_inv; reflexivity). apply Rinv_le; lra.
Qed.
Lemma span_div e f a b : 0 < b -> span e a -> span f b -> span (e + f) (a / b).
Proof. intros HB Ha Hb. unfold Rdiv. apply span_mul; [exact Ha|apply span_inv; assumption]. Qed.
Lemma span_Z n : (1 <= n <= 2 ^ 50)%Z -> span 50 (IZR n).
Proof. intros [H1 H2]. right. split; [apply (Rle_trans _ (bpow radix2 0)); [apply bpow_le; lia|simpl; apply IZR_le; lia]|change (bpow radix2 50) with (IZR (2 ^ 50)); apply IZR_le; lia]. Qed.
Lemma span_sum e l : (0 <= e)%Z -> (Z.of_nat (length l) <= 2 ^ 50)%Z -> (forall x, In x l -> span e x) -> span (e + 50) (Rsum l).
Proof.
  intros He HL H.
  assert (G : Rsum l = 0 \/ bpow radix2 (- e) <= Rsum l <= INR (length l) * bpow radix2 e).
  { clear HL. assert (P := bpow_gt_0 radix2 e). induction l as [|x l IH]; [left; reflexivity|]. cbn [Rsum length]. rewrite S_INR.
    assert (N := pos_INR (length l)). assert (NP : 0 <= INR (length l) * bpow radix2 e) by (apply Rmult_le_pos; lra).
    assert (Px := bpow_gt_0 radix2 (- e)).
    destruct (H x ltac:(left; reflexivity)) as [-> | Hx]; (destruct IH as [-> | IH]; [intros; apply H; right; assumption| |]).
    - left; lra.
    - right; lra.
    - right; lra.
    - right; lra. }
  destruct G as [-> | G]; [left; reflexivity|right]. split.
  - eapply Rle_trans; [apply bpow_le|apply G]; lia.
  - eapply Rle_trans; [apply G|]. rewrite bpow_plus, Rmult_comm. apply Rmult_le_compat_l; [apply bpow_ge_0|]. rewrite INR_IZR_INZ. change (bpow radix2 50) with (IZR (2 ^ 50)). apply IZR_le; exact HL.
Qed.
Lemma span_up e r : (-1000 <= - e)%Z -> span e r -> r = 0 \/ bpow radix2 (-1000) <= r.
Proof. intros He [-> | [H _]]; [left; reflexivity|right]. eapply Rle_trans; [apply bpow_le; exact He|exact H]. Qed.
Lemma bpow1000 e r : (0 <= e <= 1000)%Z -> span e r -> r <= bpow radix2 1000.
Proof. intros He H. eapply Rle_trans; [apply (span_le e); [lia|exact H]|apply bpow_le; lia]. Qed.

Lemma sized_close e k x r : sized e k x r -> close k x r. Proof. intros [H _]; exact H. Qed.
Lemma sized_weaken e f j k x r : (e <= f)%Z -> (j <= k)%nat -> sized e j x r -> sized f k x r.
Proof. intros H1 H2 [C S]. split; [apply (close_weaken j); assumption|apply (span_weaken e); assumption]. Qed.
Lemma sized_exact e x r : val x = Fin r -> span e r -> sized e 0 x r.
Proof. intros E S. split; [apply close_exact; [exact E|apply (span_nonneg e); exact S]|exact S]. Qed.
Lemma sized_ofZ n : (1 <= n <= 2 ^ 50)%Z -> sized 50 0 (fofZ n) (IZR n).
Proof. intros H. apply sized_exact; [apply val_ofZ_small; lia|apply span_Z; exact H]. Qed.
Lemma sized_mul e f j k x y a b : (0 <= e + f <= 1000)%Z -> (Z.of_nat (j + k) <= 2 ^ 52)%Z -> sized e j x a -> sized f k y b -> sized (e + f) (S (j + k)) (fmul x y) (a * b).
Proof.
  intros He Hn [Cx Sx] [Cy Sy]. assert (S := span_mul _ _ _ _ Sx Sy). split; [|exact S]. apply close_mul; auto; [apply (span_up (e + f)); [lia|exact S]|apply (bpow1000 (e + f)); [lia|exact S]].
Qed.
Lemma sized_div e f j k x y a b : (0 <= e + f <= 1000)%Z -> (Z.of_nat (j + k) <= 2 ^ 52)%Z -> sized e j x a -> sized f k y b -> 0 < b -> sized (e + f) (S (j + k)) (fdiv x y) (a / b).
Proof.
  intros He Hn [Cx Sx] [Cy Sy] HB. assert (S := span_div _ _ _ _ HB Sx Sy). split; [|exact S]. apply close_div; auto; [|apply (bpow1000 (e + f)); [lia|exact S]].
  destruct Sx as [-> | Hx]; [left; reflexivity|]. destruct (span_up (e + f) _ ltac:(lia) S) as [Z | H]; [|right; exact H].
  exfalso. assert (P := bpow_gt_0 radix2 (- e)). assert (0 < a / b) by (apply Rdiv_lt_0_compat; lra). lra.
Qed.
Lemma sized_sum lm e k l m : (0 <= e <= 900)%Z -> (Z.of_nat (length l) <= 2 ^ 50)%Z -> (Z.of_nat (k + levels lm (length l)) <= 2 ^ 52)%Z -> Forall2 (sized e k) l m ->
  sized (e + 50) (k + levels lm (length l)) (fsum lm l) (Rsum m).
Proof.
  intros He HL HD HF. assert (LM := Forall2_len _ _ _ HF).
  assert (S : span (e + 50) (Rsum m)).
  { apply span_sum; [lia|lia|]. intros x Hx. clear - HF Hx. induction HF as [|y r l m [_ Hy] HF IH]; [destruct Hx|]. destruct Hx as [<-|Hx]; auto. }
  split; [|exact S]. apply close_fsum; [|apply (bpow1000 (e + 50)); [lia|exact S]|exact HD]. clear - HF. induction HF as [|y r l m [Hy _] HF IH]; constructor; auto.
Qed.
Lemma sized_mean lm e k l m : (0 <= e <= 800)%Z -> l <> [] -> (Z.of_nat (length l) <= 2 ^ 50)%Z -> (Z.of_nat (k + levels lm (length l)) <= 2 ^ 52)%Z -> Forall2 (sized e k) l m ->
  sized (e + 100) (S (k + levels lm (length l))) (amean (B64 lm) l) (Rmean m).
Proof.
  intros He HN HL HD HF. assert (LM := Forall2_len _ _ _ HF). assert (LP : (1 <= length l)%nat) by (destruct l; [congruence|simpl; lia]).
  assert (C := sized_sum lm e k l m ltac:(lia) HL HD HF).
  unfold amean, Rmean. cbn [asum ndiv ofZ B64]. change (num (B64 lm)) with b64. rewrite <- LM, INR_IZR_INZ.
  replace (e + 100)%Z with (e + 50 + 50)%Z by lia. rewrite <- (Nat.add_0_r (k + levels lm (length l))).
  apply sized_div; [lia|lia|exact C|apply sized_ofZ; lia|apply IZR_lt; lia].
Qed.
(** numbers of at least 2^-100 are multiples of 2^-152, so two of them are equal or at least that far apart *)
Lemma on_grid x : fmt x -> bpow radix2 (-100) <= x -> exists m, x = IZR m * bpow radix2 (-152).
Proof.
  intros F H. assert (P := bpow_gt_0 radix2 (-100)).
  assert (M : (-99 <= mag radix2 x)%Z) by (apply (mag_ge_bpow radix2 x (-99)); rewrite Rabs_right by lra; exact H).
  assert (C : (-152 <= cexp radix2 fexp64 x)%Z) by (unfold cexp, SpecFloat.fexp, SpecFloat.emin; lia).
  exists (Ztrunc (scaled_mantissa radix2 fexp64 x) * 2 ^ (cexp radix2 fexp64 x + 152))%Z.
  rewrite F at 1. unfold F2R. cbn [Fnum Fexp]. rewrite mult_IZR, Rmult_assoc. f_equal.
  replace (IZR (2 ^ (cexp radix2 fexp64 x + 152))) with (bpow radix2 (cexp radix2 fexp64 x + 152)) by (symmetry; apply (IZR_Zpower radix2); lia).
  rewrite <- bpow_plus. f_equal. lia.
Qed.
Lemma gap x y a b : val x = Fin a -> val y = Fin b -> bpow radix2 (-100) <= a <= bpow radix2 100 -> bpow radix2 (-100) <= b <= bpow radix2 100 -> span 152 (Rabs (a - b)).
Proof.
  intros Ex Ey Ha Hb. destruct (on_grid a (proj1 (val_fmt _ _ Ex)) (proj1 Ha)) as (m & Em). destruct (on_grid b (proj1 (val_fmt _ _ Ey)) (proj1 Hb)) as (n & En).
  assert (E : a - b = IZR (m - n) * bpow radix2 (-152)) by (rewrite minus_IZR, Em, En; ring).
  assert (P := bpow_gt_0 radix2 (-152)). assert (PL := bpow_gt_0 radix2 (-100)).
  destruct (Z.eq_dec (m - n) 0) as [Z | NZ]; [left; rewrite E, Z, Rmult_0_l; apply Rabs_R0|right]. split.
  - rewrite E, Rabs_mult, (Rabs_right (bpow radix2 (-152))) by lra. change (- (152))%Z with (-152)%Z.
    assert (1 <= Rabs (IZR (m - n))) by (rewrite <- abs_IZR; apply IZR_le; lia). nra.
  - apply (Rle_trans _ (bpow radix2 100)); [apply Rabs_le; lra|apply bpow_le; lia].
Qed.
