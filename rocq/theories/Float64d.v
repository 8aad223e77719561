(** * Absolute accuracy of binary64 computations with numbers of any sign *)
From Coq Require Import Reals ZArith List Lia Lra Psatz Bool Arith.
From Flocq Require Import Core Relative Plus_error BinarySingleNaN.
From Verif Require Import Arith XR RealAux Float64 Float64b Float64c.
Import ListNotations.
Local Open Scope R_scope.

(** the number [x] is finite and differs from [r] by at most what k roundings of numbers of size [a] can do; |r| <= a *)
Definition near (k : nat) (x : b64) (r a : R) : Prop := exists v, val x = Fin v /\ Rabs (v - r) <= (up k - 1) * a /\ Rabs r <= a.

Lemma near_size k x r a : near k x r a -> 0 <= a. Proof. intros (v & _ & _ & H). assert (P := Rabs_pos r). lra. Qed.
Lemma near_exact x r a : val x = Fin r -> Rabs r <= a -> near 0 x r a.
Proof. intros E H. exists r. split; [exact E|]. split; [|exact H]. replace (r - r) with 0 by ring. rewrite Rabs_R0. unfold up. simpl. lra. Qed.
Lemma near_weaken j k x r a : (j <= k)%nat -> near j x r a -> near k x r a.
Proof. intros H N. assert (A0 := near_size _ _ _ _ N). destruct N as (v & E & D & B). exists v. split; [exact E|]. split; [|exact B]. assert (M := up_mono j k H). nra. Qed.
Lemma near_value k x r a : near k x r a -> exists v, val x = Fin v /\ Rabs (v - r) <= (up k - 1) * a /\ Rabs v <= up k * a.
Proof. intros (v & E & D & B). exists v. split; [exact E|]. split; [exact D|]. replace v with (v - r + r) by ring. eapply Rle_trans; [apply Rabs_triang|]. lra. Qed.
Lemma near_opp k x r a : near k x r a -> near k (Bopp x) (- r) a.
Proof.
  intros (v & E & D & B). exists (- v). split; [rewrite val_opp, E; reflexivity|]. split; [replace (- v - - r) with (- (v - r)) by ring; rewrite Rabs_Ropp; exact D|rewrite Rabs_Ropp; exact B].
Qed.
Lemma RN_val r m : Rabs r <= bpow radix2 m -> (-1000 <= m < 1024)%Z -> RN r = Fin (rnd r).
Proof. intros H Hm. destruct (RN_finite r m H Hm) as (v & E). destruct (RN_inv _ _ E) as (-> & _). exact E. Qed.
(** one rounding of a sum *)
Lemma rnd_add_error a b : fmt a -> fmt b -> Rabs (rnd (a + b) - (a + b)) <= uro * Rabs (a + b).
Proof.
  intros Fa Fb. destruct (FLT_plus_error_N_ex radix2 (3 - 1024 - 53) 53 (fun t => negb (Z.even t)) a b Fa Fb) as (eps & He & E). rewrite u_ro_uro in He.
  assert (E' : rnd (a + b) = (a + b) * (1 + eps)) by exact E. rewrite E'.
  replace ((a + b) * (1 + eps) - (a + b)) with (eps * (a + b)) by ring. rewrite Rabs_mult. apply Rmult_le_compat_r; [apply Rabs_pos|]. eapply Rle_trans; [exact He|].
  assert (P := uro_pos). apply (Rmult_le_reg_r (1 + uro)); [lra|]. replace (uro / (1 + uro) * (1 + uro)) with uro by (field; lra). nra.
Qed.
(** one rounding of anything *)
Definition eta : R := bpow radix2 (-1075).
Lemma rnd_error r : Rabs (rnd r - r) <= uro * Rabs r + eta.
Proof.
  destruct (error_N_FLT radix2 (-1074) 53 eq_refl (fun t => negb (Z.even t)) r) as (e & h & He & Hh & _ & E). assert (E' : rnd r = r * (1 + e) + h) by exact E.
  rewrite E'. replace (r * (1 + e) + h - r) with (e * r + h) by ring. eapply Rle_trans; [apply Rabs_triang|]. rewrite Rabs_mult.
  apply Rplus_le_compat.
  - apply Rmult_le_compat_r; [apply Rabs_pos|]. eapply Rle_trans; [exact He|]. apply Req_le. unfold uro. change (- (53) + 1)%Z with (-52)%Z. replace (bpow radix2 (-52)) with (2 * bpow radix2 (-53)); [lra|]. rewrite Rmult_comm. apply (bpow_double (-53)).
  - eapply Rle_trans; [exact Hh|]. apply Req_le. unfold eta. replace (bpow radix2 (-1074)) with (2 * bpow radix2 (-1075)); [lra|]. rewrite Rmult_comm. apply (bpow_double (-1075)).
Qed.
Lemma near_add j k n x y r s a b : (j <= n)%nat -> (k <= n)%nat -> (Z.of_nat n <= 2 ^ 52)%Z -> near j x r a -> near k y s b -> a + b <= bpow radix2 1000 -> near (S n) (fadd x y) (r + s) (a + b).
Proof.
  intros Hj Hk Hn Nx Ny HB. apply (near_weaken j n _ _ _ Hj) in Nx. apply (near_weaken k n _ _ _ Hk) in Ny. assert (A0 := near_size _ _ _ _ Nx). assert (B0 := near_size _ _ _ _ Ny).
  assert (RA : Rabs r <= a) by (destruct Nx as (? & _ & _ & H); exact H). assert (SB : Rabs s <= b) by (destruct Ny as (? & _ & _ & H); exact H).
  destruct (near_value _ _ _ _ Nx) as (v & Ev & Dv & Bv). destruct (near_value _ _ _ _ Ny) as (w & Ew & Dw & Bw). assert (U := up_le2 n Hn). assert (U1 := up_ge1 n). assert (P := uro_pos).
  assert (VW : Rabs (v + w) <= up n * (a + b)) by (eapply Rle_trans; [apply Rabs_triang|]; lra).
  exists (rnd (v + w)). rewrite (val_add _ _ _ _ Ev Ew). split; [apply (RN_val _ 1001); [|lia]; assert (D := bpow_double 1000); change (1000 + 1)%Z with 1001%Z in D; nra|].
  split; [|eapply Rle_trans; [apply Rabs_triang|]; lra].
  assert (E1 := rnd_add_error v w (proj1 (val_fmt _ _ Ev)) (proj1 (val_fmt _ _ Ew))).
  replace (rnd (v + w) - (r + s)) with ((rnd (v + w) - (v + w)) + ((v - r) + (w - s))) by ring. eapply Rle_trans; [apply Rabs_triang|]. eapply Rle_trans; [apply Rplus_le_compat_l, Rabs_triang|].
  replace (up (S n)) with (up n * (1 + uro)) by (unfold up; simpl; ring). nra.
Qed.
Lemma fsub_add x y : val (fsub x y) = val (fadd x (Bopp y)) \/ val x = NaN \/ val y = NaN \/ ~ (exists a b, val x = Fin a /\ val y = Fin b).
Proof.
  destruct (val x) as [a| | |] eqn:Ex; [|right; right; right; intros (? & ? & H & _); discriminate ..|right; left; reflexivity].
  destruct (val y) as [b| | |] eqn:Ey; [|right; right; right; intros (? & ? & _ & H); discriminate ..|right; right; left; reflexivity].
  left. rewrite (val_sub _ _ _ _ Ex Ey). assert (EO : val (Bopp y) = Fin (- b)) by (rewrite val_opp, Ey; reflexivity). rewrite (val_add _ _ _ _ Ex EO). reflexivity.
Qed.
Lemma near_sub j k n x y r s a b : (j <= n)%nat -> (k <= n)%nat -> (Z.of_nat n <= 2 ^ 52)%Z -> near j x r a -> near k y s b -> a + b <= bpow radix2 1000 -> near (S n) (fsub x y) (r - s) (a + b).
Proof.
  intros Hj Hk Hn Nx Ny HB. assert (N := near_add j k n x (Bopp y) r (- s) a b Hj Hk Hn Nx (near_opp _ _ _ _ Ny) HB). destruct N as (v & E & D). exists v. split; [|exact D]. rewrite <- E.
  destruct Nx as (p & Ep & _). destruct Ny as (q & Eq & _). destruct (fsub_add x y) as [H | [H | [H | H]]]; [exact H|congruence|congruence|exfalso; apply H; exists p, q; auto].
Qed.
(** sums in any order *)
Lemma near_tree k s : forall l m, leaves s = length l -> Forall2 (fun x r => near k x r (Rabs r)) l m -> Rsum (map Rabs m) <= bpow radix2 1000 -> (Z.of_nat (k + depth s) <= 2 ^ 52)%Z ->
  near (k + depth s) (tree_sum s l) (Rsum m) (Rsum (map Rabs m)).
Proof.
  induction s as [|a IHa b IHb]; intros l m HL HF HB HD; simpl in HL.
  - destruct HF as [|x r l' m' Hx HF]; [discriminate|]. destruct HF; [|discriminate]. simpl. rewrite Nat.add_0_r, !Rplus_0_r. exact Hx.
  - cbn [tree_sum depth] in *. assert (LM := Forall2_len _ _ _ HF).
    assert (SP : Rsum m = Rsum (firstn (leaves a) m) + Rsum (skipn (leaves a) m)) by (rewrite <- Rsum_app, firstn_skipn; reflexivity).
    assert (SQ : Rsum (map Rabs m) = Rsum (map Rabs (firstn (leaves a) m)) + Rsum (map Rabs (skipn (leaves a) m))) by (rewrite <- Rsum_app, <- map_app, firstn_skipn; reflexivity).
    assert (NN : forall q : list R, 0 <= Rsum (map Rabs q)) by (intros q; apply Rsum_ge0; intros z Hz; apply in_map_iff in Hz as (y & <- & _); apply Rabs_pos).
    assert (N1 := NN (firstn (leaves a) m)). assert (N2 := NN (skipn (leaves a) m)).
    rewrite SP, SQ. replace (k + S (Nat.max (depth a) (depth b)))%nat with (S (k + Nat.max (depth a) (depth b))) by lia.
    apply (near_add (k + depth a) (k + depth b)); [lia|lia|lia| | |rewrite <- SQ; exact HB].
    + apply IHa; [rewrite firstn_length; lia|apply Forall2_firstn; exact HF|lra|lia].
    + apply IHb; [rewrite skipn_length; lia|apply Forall2_skipn; exact HF|lra|lia].
Qed.
Lemma near_fsum lm k l m : Forall2 (fun x r => near k x r (Rabs r)) l m -> Rsum (map Rabs m) <= bpow radix2 1000 -> (Z.of_nat (k + levels lm (length l)) <= 2 ^ 52)%Z ->
  near (k + levels lm (length l)) (fsum lm l) (Rsum m) (Rsum (map Rabs m)).
Proof.
  intros HF HB HD. destruct l as [|x l'] eqn:EL.
  - inversion HF; subst. eapply near_weaken; [|apply near_exact]; [lia|exact (eq_trans (val_ofZ 0) RN_0)|simpl; rewrite Rabs_R0; lra].
  - rewrite <- EL in *. replace (fsum lm l) with (tree_sum (l_order lm (length l)) l) by (rewrite EL; reflexivity). apply near_tree; auto. apply l_order_ok. rewrite EL. simpl. lia.
Qed.
(** division by a whole number *)
Lemma near_divZ k x r a n : (Z.of_nat (S k) <= 2 ^ 52)%Z -> (1 <= n <= 2 ^ 53)%Z -> near k x r a -> a <= bpow radix2 1000 -> (a = 0 \/ bpow radix2 (-1000) <= a / IZR n) -> near (S (S k)) (fdiv x (fofZ n)) (r / IZR n) (a / IZR n).
Proof.
  intros Hk Hn N HA HT. assert (A0 := near_size _ _ _ _ N). assert (RA : Rabs r <= a) by (destruct N as (? & _ & _ & H); exact H). destruct (near_value _ _ _ _ N) as (v & Ev & Dv & Bv).
  assert (N1 : 1 <= IZR n) by (apply IZR_le; lia). assert (EN : val (fofZ n) = Fin (IZR n)) by (apply val_ofZ_small; lia).
  assert (U := up_le2 k ltac:(lia)). assert (U1 := up_ge1 k). assert (P := uro_pos). assert (IN : 0 < / IZR n <= 1) by (split; [apply Rinv_0_lt_compat; lra|rewrite <- Rinv_1; apply Rinv_le_contravar; lra]).
  assert (AD : forall z, Rabs (z / IZR n) = Rabs z / IZR n) by (intros z; unfold Rdiv; rewrite Rabs_mult, (Rabs_right (/ IZR n)) by lra; reflexivity).
  exists (rnd (v / IZR n)). rewrite (val_div _ _ _ _ Ev EN) by lra. split.
  { apply (RN_val _ 1001); [|lia]. rewrite AD. assert (D := bpow_double 1000). change (1000 + 1)%Z with 1001%Z in D. unfold Rdiv. assert (0 <= Rabs v) by apply Rabs_pos. nra. }
  split; [|rewrite AD; unfold Rdiv; nra].
  assert (EV : Rabs (v / IZR n) <= up k * (a / IZR n)) by (rewrite AD; unfold Rdiv; nra). assert (ED : Rabs (v / IZR n - r / IZR n) <= (up k - 1) * (a / IZR n)) by (replace (v / IZR n - r / IZR n) with ((v - r) / IZR n) by (field; lra); rewrite AD; unfold Rdiv; nra).
  set (b := a / IZR n) in *. assert (B0 : 0 <= b) by (unfold b, Rdiv; nra).
  replace (up (S (S k))) with (up k * (1 + uro) * (1 + uro)) by (unfold up; simpl; ring).
  destruct HT as [-> | HT].
  - assert (B00 : b = 0) by (unfold b; field; lra). rewrite B00 in *. rewrite Rmult_0_r in *. assert (VZ : v / IZR n = 0) by (destruct (Req_dec (v / IZR n) 0) as [E | N0]; [exact E|exfalso; apply Rabs_pos_lt in N0; lra]).
    rewrite VZ in *. rewrite rnd_0. exact ED.
  - assert (ER := rnd_error (v / IZR n)). assert (ET : eta <= uro * b).
    { apply (Rle_trans _ (uro * bpow radix2 (-1000))); [|apply Rmult_le_compat_l; lra]. unfold uro, eta. rewrite <- bpow_plus. apply bpow_le. lia. }
    replace (rnd (v / IZR n) - r / IZR n) with ((rnd (v / IZR n) - v / IZR n) + (v / IZR n - r / IZR n)) by ring. eapply Rle_trans; [apply Rabs_triang|].
    set (c := up k * b) in *. assert (BC : b <= c) by (unfold c; nra). assert (C1 : uro * Rabs (v / IZR n) <= uro * c) by (apply Rmult_le_compat_l; lra). assert (C2 : uro * b <= uro * c) by (apply Rmult_le_compat_l; lra).
    assert (C3 : 0 <= uro * (uro * c)) by (apply Rmult_le_pos; [lra|apply Rmult_le_pos; lra]).
    replace ((up k * (1 + uro) * (1 + uro) - 1) * b) with (c + 2 * (uro * c) + uro * (uro * c) - b) by (unfold c; ring). replace ((up k - 1) * b) with (c - b) in ED by (unfold c; ring). lra.
Qed.
(** the mean of an array *)
Lemma near_mean lm k l m : l <> [] -> (Z.of_nat (length l) <= 2 ^ 50)%Z -> (Z.of_nat (k + S (levels lm (length l))) <= 2 ^ 52)%Z -> Forall2 (fun x r => near k x r (Rabs r)) l m ->
  Rsum (map Rabs m) <= bpow radix2 1000 -> (Rmean (map Rabs m) = 0 \/ bpow radix2 (-1000) <= Rmean (map Rabs m)) ->
  near (S (S (k + levels lm (length l)))) (amean (B64 lm) l) (Rmean m) (Rmean (map Rabs m)).
Proof.
  intros HN HL HD HF HB HT. assert (LM := Forall2_len _ _ _ HF). assert (LP : (1 <= length l)%nat) by (destruct l; [congruence|simpl; lia]).
  assert (C := near_fsum lm k l m HF HB ltac:(lia)). unfold amean, Rmean in *. cbn [asum ndiv ofZ B64]. change (num (B64 lm)) with b64. rewrite map_length in *. rewrite <- LM, INR_IZR_INZ in *.
  assert (N0 : 0 < IZR (Z.of_nat (length l))) by (apply IZR_lt; lia).
  apply near_divZ; [lia|lia|exact C|exact HB|]. destruct HT as [HT | HT]; [left|right; exact HT].
  replace (Rsum (map Rabs m)) with (Rsum (map Rabs m) / IZR (Z.of_nat (length l)) * IZR (Z.of_nat (length l))) by (field; lra). rewrite HT. ring.
Qed.
Lemma near_error k x r a : (Z.of_nat k <= 2 ^ 52)%Z -> near k x r a -> exists v, val x = Fin v /\ Rabs (v - r) <= INR k * bpow radix2 (-52) * a.
Proof.
  intros Hk N. assert (A0 := near_size _ _ _ _ N). destruct N as (v & E & D & _). exists v. split; [exact E|]. eapply Rle_trans; [exact D|]. apply Rmult_le_compat_r; [exact A0|]. assert (U := up_linear k Hk).
  replace (bpow radix2 (-52)) with (2 * uro) by (rewrite uro_eq; replace (bpow radix2 (-52)) with (/ 4503599627370496) by reflexivity; lra). lra.
Qed.

(** ** Square roots *)
Lemma val_sqrt x r : val x = Fin r -> 0 <= r -> val (fsqrt x) = Fin (rnd (sqrt r)) /\ rel 1 (rnd (sqrt r)) (sqrt r).
Proof.
  intros E H. destruct (val_finite_inv _ _ E) as [F BR]. destruct (Bsqrt_correct 53 1024 _ _ mode_NE x) as (C1 & C2 & _). fold fsqrt in C1, C2. rewrite BR in C1. 
  assert (C1' : B2R (fsqrt x) = rnd (sqrt r)) by exact C1. assert (FS : is_finite (fsqrt x) = true).
  { rewrite C2. destruct x as [s|s| |s m e h]; try discriminate F; [reflexivity|]. destruct s; [|reflexivity]. exfalso. destruct (fin_sign true m e h) as (_ & _ & G). specialize (G eq_refl). cbn in BR. cbn in G. lra. }
  split; [rewrite (val_fin _ FS), C1'; reflexivity|]. apply rel_rnd. destruct (Req_dec r 0) as [-> | N]; [left; exact sqrt_0|right].
  destruct (pos_range x r E ltac:(lra)) as [P _]. apply (Rle_trans _ (bpow radix2 (-537))); [apply bpow_le; lia|]. rewrite <- (sqrt_square (bpow radix2 (-537))) by apply bpow_ge_0. apply sqrt_le_1_alt. rewrite <- bpow_plus. exact P.
Qed.

(** ** Root mean squares *)
Definition rms {X} (f : X -> R) (l : list X) : R := sqrt (Rmean (map (fun x => f x * f x) l)).
Lemma Rmean_le {X} (f g : X -> R) l : l <> [] -> (forall x, In x l -> f x <= g x) -> Rmean (map f l) <= Rmean (map g l).
Proof.
  intros N H. unfold Rmean. rewrite !map_length. apply Rmult_le_compat_r; [apply Rlt_le, Rinv_0_lt_compat, INR_len_pos; exact N|]. apply Rsum_le. exact H.
Qed.
Lemma Rmean_mult_l {X} c (f : X -> R) l : Rmean (map (fun x => c * f x) l) = c * Rmean (map f l).
Proof. unfold Rmean. rewrite Rsum_mult_l, !map_length. unfold Rdiv. ring. Qed.
Lemma Rmean_sq_nonneg {X} (f : X -> R) l : l <> [] -> 0 <= Rmean (map (fun x => f x * f x) l).
Proof. intros N. rewrite <- (Rmean_const 0 l N). apply Rmean_le; [exact N|]. intros x _. nra. Qed.
Lemma rms_sq {X} (f : X -> R) l : l <> [] -> rms f l * rms f l = Rmean (map (fun x => f x * f x) l).
Proof. intros N. apply sqrt_sqrt, Rmean_sq_nonneg, N. Qed.
Lemma rms_nonneg {X} (f : X -> R) l : 0 <= rms f l. Proof. apply sqrt_pos. Qed.
Lemma mean_abs_rms {X} (f : X -> R) l : l <> [] -> Rmean (map (fun x => Rabs (f x)) l) <= rms f l.
Proof.
  intros N. set (m := Rmean (map (fun x => Rabs (f x)) l)). assert (M0 : 0 <= m) by (unfold m; rewrite <- (Rmean_const 0 l N); apply Rmean_le; [exact N|intros; apply Rabs_pos]).
  assert (V := Rmean_sq_nonneg (fun x => Rabs (f x) - m) l N).
  assert (E : Rmean (map (fun x => (Rabs (f x) - m) * (Rabs (f x) - m)) l) = Rmean (map (fun x => f x * f x) l) - m * m).
  { transitivity (Rmean (map (fun x => (f x * f x - 2 * m * Rabs (f x)) + m * m) l)).
    - unfold Rmean. rewrite !map_length. f_equal. apply Rsum_map_ext. intros x _. assert (A : Rabs (f x) * Rabs (f x) = f x * f x) by (rewrite <- Rabs_mult; apply Rabs_right; nra). lra.
    - rewrite (Rmean_plus (fun x => f x * f x - 2 * m * Rabs (f x)) (fun _ => m * m)), (Rmean_minus (fun x => f x * f x) (fun x => 2 * m * Rabs (f x))), (Rmean_mult_l (2 * m) (fun x => Rabs (f x))), (Rmean_const (m * m) l N). fold m. ring. }
  cbv beta in V. rewrite E in V. unfold rms. rewrite <- (sqrt_square m M0). apply sqrt_le_1_alt. lra.
Qed.
(** changing every term by at most d changes the root mean square by at most d *)
Lemma rms_shift {X} (f g : X -> R) l d : l <> [] -> 0 <= d -> (forall x, In x l -> Rabs (f x - g x) <= d) -> rms f l <= rms g l + d.
Proof.
  intros N D H. assert (G0 := rms_nonneg g l). assert (MA := mean_abs_rms g l N). assert (GS := rms_sq g l N).
  rewrite <- (sqrt_square (rms g l + d)) by lra. apply sqrt_le_1_alt.
  apply (Rle_trans _ (Rmean (map (fun x => (g x * g x + 2 * d * Rabs (g x)) + d * d) l))).
  - apply Rmean_le; [exact N|]. intros x Hx. specialize (H x Hx). assert (F : Rabs (f x) <= Rabs (g x) + d) by (replace (f x) with (g x + (f x - g x)) by ring; eapply Rle_trans; [apply Rabs_triang|]; lra).
    assert (A : forall z, Rabs z * Rabs z = z * z) by (intros z; rewrite <- Rabs_mult; apply Rabs_right; nra). rewrite <- (A (f x)), <- (A (g x)). assert (P1 := Rabs_pos (f x)). assert (P2 := Rabs_pos (g x)). nra.
  - rewrite (Rmean_plus (fun x => g x * g x + 2 * d * Rabs (g x)) (fun _ => d * d)), (Rmean_plus (fun x => g x * g x) (fun x => 2 * d * Rabs (g x))), (Rmean_mult_l (2 * d) (fun x => Rabs (g x))), (Rmean_const (d * d) l N). nra.
Qed.
Lemma rms_bound {X} (f : X -> R) l b : l <> [] -> 0 <= b -> (forall x, In x l -> Rabs (f x) <= b) -> rms f l <= b.
Proof.
  intros N B H. rewrite <- (sqrt_square b B). apply sqrt_le_1_alt. rewrite <- (Rmean_const (b * b) l N). apply Rmean_le; [exact N|]. intros x Hx. specialize (H x Hx). 
  assert (A : Rabs (f x) * Rabs (f x) = f x * f x) by (rewrite <- Rabs_mult; apply Rabs_right; nra). assert (P := Rabs_pos (f x)). nra.
Qed.
(** the standard deviation is at most the root mean square *)
Lemma std_rms {X} (f : X -> R) l : l <> [] -> rms (fun x => f x - Rmean (map f l)) l <= rms f l.
Proof.
  intros N. set (m := Rmean (map f l)). apply sqrt_le_1_alt.
  assert (E : Rmean (map (fun x => (f x - m) * (f x - m)) l) = Rmean (map (fun x => f x * f x) l) - m * m).
  { transitivity (Rmean (map (fun x => (f x * f x - 2 * m * f x) + m * m) l)).
    - unfold Rmean. rewrite !map_length. f_equal. apply Rsum_map_ext. intros x _. ring.
    - rewrite (Rmean_plus (fun x => f x * f x - 2 * m * f x) (fun _ => m * m)), (Rmean_minus (fun x => f x * f x) (fun x => 2 * m * f x)), (Rmean_mult_l (2 * m) f), (Rmean_const (m * m) l N). fold m. ring. }
  rewrite E. nra.
Qed.

(** ** The standard deviation *)
Definition tau : R := bpow radix2 (-537).
Lemma tau_sq : tau * tau = 2 * eta.
Proof. unfold tau, eta. rewrite <- bpow_plus. change (-537 + -537)%Z with (-1075 + 1)%Z. rewrite bpow_plus. change (bpow radix2 1) with 2. ring. Qed.
Lemma sqrt_up k a : 0 <= a -> sqrt (up k * (a + 2 * eta)) <= up k * (sqrt a + tau).
Proof.
  intros A. assert (U := up_ge1 k). assert (T : 0 <= tau) by apply bpow_ge_0. assert (S0 := sqrt_pos a). assert (SS := sqrt_sqrt a A).
  rewrite <- (sqrt_square (up k * (sqrt a + tau))) by (apply Rmult_le_pos; lra). apply sqrt_le_1_alt. rewrite <- tau_sq.
  set (s := sqrt a) in *. rewrite <- SS. replace (up k * (s + tau) * (up k * (s + tau))) with (up k * (up k * ((s + tau) * (s + tau)))) by ring. apply Rmult_le_compat_l; [lra|].
  assert (0 <= s * tau) by (apply Rmult_le_pos; assumption). assert (Q : 0 <= (s + tau) * (s + tau)) by (apply Rmult_le_pos; lra). nra.
Qed.
Lemma up_S k : up (S k) = up k * (1 + uro). Proof. unfold up. simpl. ring. Qed.

Section Std.
Context (lm : libm) (l : list b64) (B : R).
Hypothesis sq_mul : forall x, l_sq lm x = fmul x x.
Hypothesis ne : l <> [].
Hypothesis len : (Z.of_nat (length l) <= 2 ^ 50)%Z.
Hypothesis HB : bpow radix2 (-100) <= B <= bpow radix2 100.
Hypothesis elems : forall x, In x l -> is_finite x = true /\ (B2R x = 0 \/ bpow radix2 (-100) <= Rabs (B2R x)) /\ Rabs (B2R x) <= B.
Let L := levels lm (length l).
Let m := Rmean (map (fun x => B2R x) l).
Let A1 := Rmean (map Rabs (map (fun x => B2R x) l)).
Let mh := amean (B64 lm) l.

Lemma L_small : (Z.of_nat L < 2 ^ 50)%Z.
Proof. assert (H := levels_lt lm (length l)). fold L in H. assert (0 < length l)%nat by (destruct l; [congruence|simpl; lia]). lia. Qed.
Lemma B_pos : 0 < B. Proof. assert (P := bpow_gt_0 radix2 (-100)). lra. Qed.
Lemma A1_bound : 0 <= A1 <= B.
Proof.
  unfold A1. rewrite map_map. split.
  - rewrite <- (Rmean_const 0 l ne). apply Rmean_le; [exact ne|]. intros; apply Rabs_pos.
  - rewrite <- (Rmean_const B l ne). apply Rmean_le; [exact ne|]. intros x Hx. apply (elems x Hx).
Qed.
Lemma A1_floor : A1 = 0 \/ bpow radix2 (-1000) <= A1.
Proof.
  assert (LP : (1 <= length l)%nat) by (destruct l; [congruence|simpl; lia]). assert (NP : 0 < INR (length l) <= bpow radix2 50).
  { split; [apply (INR_len_pos l ne)|]. rewrite INR_IZR_INZ. apply (Rle_trans _ (IZR (2 ^ 50))); [apply IZR_le; exact len|]. apply Req_le. exact (IZR_Zpower radix2 50 ltac:(lia)). }
  destruct (Forall_Exists_dec (fun x => B2R x = 0) (fun x => Req_EM_T (B2R x) 0) l) as [H | H].
  - left. unfold A1. rewrite map_map. rewrite <- (Rmean_const 0 l ne). unfold Rmean. rewrite !map_length. f_equal. apply Rsum_map_ext. intros x Hx. rewrite Forall_forall in H. rewrite (H x Hx). apply Rabs_R0.
  - right. apply Exists_exists in H as (x & Hx & N0). destruct (elems x Hx) as (_ & [E | E] & _); [congruence|].
    unfold A1, Rmean. rewrite !map_length, map_map. assert (G : Rabs (B2R x) <= Rsum (map (fun y => Rabs (B2R y)) l)).
    { apply Rsum_ge_elem; [intros y Hy; apply in_map_iff in Hy as (z & <- & _); apply Rabs_pos|]. apply in_map_iff. exists x. auto. }
    apply (Rmult_le_reg_r (INR (length l))); [lra|]. unfold Rdiv. rewrite Rmult_assoc, Rinv_l, Rmult_1_r by lra.
    apply (Rle_trans _ (bpow radix2 (-1000) * bpow radix2 50)); [apply Rmult_le_compat_l; [apply bpow_ge_0|lra]|]. rewrite <- bpow_plus. apply (Rle_trans _ (bpow radix2 (-100))); [apply bpow_le; lia|lra].
Qed.
Lemma mean_near : near (S (S L)) mh m A1.
Proof.
  assert (HS := L_small). unfold mh, m, A1, L. apply (near_mean lm 0 l (map (fun x => B2R x) l)).
  - exact ne.
  - exact len.
  - fold L. lia.
  - assert (G : forall q : list b64, (forall x, In x q -> is_finite x = true) -> Forall2 (fun x r => near 0 x r (Rabs r)) q (map (fun x => B2R x) q)).
    { induction q as [|x q IH]; intros H; constructor; [apply near_exact; [apply val_fin; apply H; left; reflexivity|lra]|apply IH; intros; apply H; right; assumption]. }
    apply G. intros x Hx. apply (elems x Hx).
  - assert (AB := A1_bound). unfold A1, Rmean in AB. rewrite !map_length in AB. assert (NP : 0 < INR (length l)) by apply (INR_len_pos l ne).
    assert (NL : INR (length l) <= bpow radix2 50) by (rewrite INR_IZR_INZ; apply (Rle_trans _ (IZR (2 ^ 50))); [apply IZR_le; exact len|apply Req_le; exact (IZR_Zpower radix2 50 ltac:(lia))]).
    replace (Rsum (map Rabs (map (fun x => B2R x) l))) with (Rsum (map Rabs (map (fun x => B2R x) l)) / INR (length l) * INR (length l)) by (field; lra).
    apply (Rle_trans _ (bpow radix2 100 * bpow radix2 50)); [apply Rmult_le_compat; [exact (proj1 AB)|lra|exact (Rle_trans _ _ _ (proj2 AB) (proj2 HB))|exact NL]|]. rewrite <- bpow_plus. apply bpow_le. lia.
  - exact A1_floor.
Qed.
(** the deviations *)
Let dev (x : b64) : R := match val (fsub x mh) with Fin v => v | _ => 0 end.
Let K := S (S (S L)).
Let del := (up K - 1) * (2 * B).
Lemma del_small : 0 <= del <= B.
Proof.
  assert (HS := L_small). assert (P := B_pos). unfold del. assert (U1 := up_ge1 K). assert (U := up_linear K ltac:(unfold K; lia)). rewrite INR_IZR_INZ, uro_eq in U. split; [nra|].
  assert (KB : IZR (Z.of_nat K) <= 1125899906842627) by (apply IZR_le; unfold K; lia). nra.
Qed.
Lemma dev_spec x : In x l -> val (fsub x mh) = Fin (dev x) /\ Rabs (dev x - (B2R x - m)) <= del /\ Rabs (dev x) <= 3 * B.
Proof.
  intros Hx. destruct (elems x Hx) as (F & _ & XB). assert (HS := L_small). assert (AB := A1_bound). assert (P := B_pos). assert (DS := del_small).
  assert (N : near K (fsub x mh) (B2R x - m) (Rabs (B2R x) + A1)).
  { apply (near_sub 0 (S (S L)) (S (S L))); [lia|lia|lia|apply near_exact; [apply val_fin; exact F|lra]|exact mean_near|]. apply (Rle_trans _ (bpow radix2 100 + bpow radix2 100)); [lra|]. replace (bpow radix2 100 + bpow radix2 100) with (bpow radix2 100 * 2) by ring. rewrite bpow_double. apply bpow_le. lia. }
  assert (U1 := up_ge1 K). destruct N as (v & E & D & R1). assert (ED : dev x = v) by (unfold dev; rewrite E; reflexivity). rewrite ED. split; [exact E|]. assert (D' : Rabs (v - (B2R x - m)) <= del) by (eapply Rle_trans; [exact D|]; unfold del; apply Rmult_le_compat_l; lra).
  split; [exact D'|]. replace v with ((v - (B2R x - m)) + (B2R x - m)) by ring. eapply Rle_trans; [apply Rabs_triang|]. lra.
Qed.
Let q (x : b64) : R := rnd (dev x * dev x).
Lemma q_spec x : In x l -> val (l_sq lm (fsub x mh)) = Fin (q x) /\ 0 <= q x <= bpow radix2 300 /\ Rabs (q x - dev x * dev x) <= uro * (dev x * dev x) + eta.
Proof.
  intros Hx. destruct (dev_spec x Hx) as (E & _ & D). assert (D2 : 0 <= dev x * dev x) by nra. assert (P := B_pos).
  assert (DB : dev x * dev x <= bpow radix2 204).
  { assert (A : Rabs (dev x) * Rabs (dev x) = dev x * dev x) by (rewrite <- Rabs_mult; apply Rabs_right; lra). rewrite <- A. assert (P2 := Rabs_pos (dev x)).
    apply (Rle_trans _ ((bpow radix2 100 * bpow radix2 2) * (bpow radix2 100 * bpow radix2 2))).
    - change (bpow radix2 2) with 4. apply Rmult_le_compat; lra.
    - rewrite <- !bpow_plus. apply bpow_le. lia. }
  rewrite sq_mul, (val_mul _ _ _ _ E E). destruct (RN_in_range (dev x * dev x) 204 ltac:(lra) ltac:(lia)) as [R1 R2]. split; [exact R1|]. split.
  - split; [exact R2|]. unfold q. rewrite <- (rnd_fmt (bpow radix2 300)); [apply rnd_mono; apply (Rle_trans _ (bpow radix2 204)); [exact DB|apply bpow_le; lia]|]. apply generic_format_bpow. vm_compute. discriminate.
  - assert (R3 := rnd_error (dev x * dev x)). rewrite (Rabs_right (dev x * dev x)) in R3 by lra. exact R3.
Qed.
Let S1 := Rmean (map q l).
Let D2 := Rmean (map (fun x => dev x * dev x) l).
Lemma S1_D2 : S1 <= (1 + uro) * D2 + eta /\ (1 - uro) * D2 - eta <= S1.
Proof.
  unfold S1, D2. split.
  - rewrite <- (Rmean_mult_l (1 + uro)), <- (Rmean_const eta l ne), <- Rmean_plus. apply Rmean_le; [exact ne|]. intros x Hx. destruct (q_spec x Hx) as (_ & _ & H). apply Rabs_le_inv in H. lra.
  - rewrite <- (Rmean_mult_l (1 - uro)), <- (Rmean_const eta l ne), <- Rmean_minus. apply Rmean_le; [exact ne|]. intros x Hx. destruct (q_spec x Hx) as (_ & _ & H). apply Rabs_le_inv in H. lra.
Qed.
Lemma var_spec : exists V, val (avar (B64 lm) l) = Fin V /\ 0 <= V /\ V <= up (L + 2) * (D2 + 2 * eta) /\ D2 <= up (L + 4) * (V + 2 * eta).
Proof.
  assert (HS := L_small). assert (P := uro_pos). assert (E0 : 0 < eta) by apply bpow_gt_0. assert (LP : (1 <= length l)%nat) by (destruct l; [congruence|simpl; lia]).
  assert (NP : 0 < INR (length l)) by apply (INR_len_pos l ne). assert (N1 : 1 <= INR (length l)) by (apply (le_INR 1); exact LP).
  assert (NL : INR (length l) <= bpow radix2 50) by (rewrite INR_IZR_INZ; apply (Rle_trans _ (IZR (2 ^ 50))); [apply IZR_le; exact len|apply Req_le; exact (IZR_Zpower radix2 50 ltac:(lia))]).
  set (ql := map (fun x => l_sq lm (fsub x mh)) l).
  assert (C : close L (fsum lm ql) (Rsum (map q l))).
  { replace L with (0 + levels lm (length ql))%nat by (unfold ql; rewrite map_length; reflexivity). apply close_fsum.
    - assert (G : forall z : list b64, (forall x, In x z -> In x l) -> Forall2 (close 0) (map (fun x => l_sq lm (fsub x mh)) z) (map q z)).
      { induction z as [|x z IH]; intros H; constructor; [|apply IH; intros; apply H; right; assumption]. destruct (q_spec x (H x (or_introl eq_refl))) as (E & Q & _). apply close_exact; [exact E|lra]. }
      apply G. auto.
    - apply (Rle_trans _ (Rsum (map (fun _ : b64 => bpow radix2 300) l))); [apply Rsum_le; intros x Hx; apply (q_spec x Hx)|]. rewrite Rsum_const. apply (Rle_trans _ (bpow radix2 50 * bpow radix2 300)); [apply Rmult_le_compat_r; [apply bpow_ge_0|exact NL]|]. rewrite <- bpow_plus. apply bpow_le. lia.
    - unfold ql. rewrite map_length. fold L. lia. }
  destruct C as (s & Es & S0 & R1 & R2). assert (EN : val (fofZ (Z.of_nat (length ql))) = Fin (INR (length l))) by (unfold ql; rewrite map_length, INR_IZR_INZ; apply val_ofZ_small; lia).
  assert (SN : 0 <= s / INR (length l)) by (apply Rmult_le_pos; [exact S0|apply Rlt_le, Rinv_0_lt_compat; exact NP]).
  assert (EV : val (avar (B64 lm) l) = RN (s / INR (length l))).
  { unfold avar. fold mh. unfold amean. cbn [asum ndiv ofZ nsq nsub B64]. change (num (B64 lm)) with b64. fold ql. apply (val_div _ _ _ _ Es EN). lra. }
  assert (U := up_le2 L ltac:(lia)). assert (U1 := up_ge1 L).
  assert (R1' : S1 <= s / INR (length l) * up L).
  { unfold S1, Rmean. rewrite map_length. replace (s / INR (length l) * up L) with ((s * up L) / INR (length l)) by (field; lra). apply Rmult_le_compat_r; [apply Rlt_le, Rinv_0_lt_compat; exact NP|exact R1]. }
  assert (R2' : s / INR (length l) <= S1 * up L).
  { unfold S1, Rmean. rewrite map_length. replace (Rsum (map q l) / INR (length l) * up L) with ((Rsum (map q l) * up L) / INR (length l)) by (field; lra). apply Rmult_le_compat_r; [apply Rlt_le, Rinv_0_lt_compat; exact NP|exact R2]. }
  assert (SB : 0 <= S1 <= bpow radix2 300).
  { unfold S1. split; [rewrite <- (Rmean_const 0 l ne)|rewrite <- (Rmean_const (bpow radix2 300) l ne)]; apply Rmean_le; try exact ne; intros x Hx; apply (q_spec x Hx). }
  set (v := s / INR (length l)) in *. destruct (RN_in_range v 301) as [V1 V2]; [split; [exact SN|]; assert (D := bpow_double 300); change (300 + 1)%Z with 301%Z in D; nra|lia|].
  exists (rnd v). rewrite EV. split; [exact V1|]. split; [exact V2|]. assert (ER := rnd_error v). rewrite (Rabs_right v) in ER by lra. apply Rabs_le_inv in ER. destruct S1_D2 as [H1 H2].
  assert (D0 : 0 <= D2) by (unfold D2; apply Rmean_sq_nonneg; exact ne).
  replace (L + 2)%nat with (S (S L)) by lia. replace (L + 4)%nat with (S (S (S (S L)))) by lia. rewrite !up_S. set (u := uro) in *. set (W := up L) in *. split.
  - apply (Rle_trans _ (v * (1 + u) + eta)); [lra|]. apply (Rle_trans _ (((1 + u) * D2 + eta) * W * (1 + u) + eta)).
    + apply Rplus_le_compat_r, Rmult_le_compat_r; [lra|]. eapply Rle_trans; [exact R2'|]. apply Rmult_le_compat_r; lra.
    + assert (1 <= W * (1 + u)) by nra. assert (eta <= W * (1 + u) * eta) by nra. assert (0 <= u * (W * (1 + u) * eta)) by (apply Rmult_le_pos; nra). nra.
  - assert (US : u <= 1 / 4) by (unfold u; rewrite uro_eq; lra). assert (I : 1 <= (1 - u) * ((1 + u) * (1 + u))) by nra.
    (* D2 <= (1+u)^2 (S1 + eta);  v <= (1+u)^2 (V + eta) *)
    assert (X1 : D2 <= (1 + u) * (1 + u) * (S1 + eta)) by (assert (0 <= (1 + u) * (1 + u)) by nra; assert ((1 + u) * (1 + u) * ((1 - u) * D2) <= (1 + u) * (1 + u) * (S1 + eta)) by (apply Rmult_le_compat_l; lra); nra).
    assert (X2 : v <= (1 + u) * (1 + u) * (rnd v + eta)) by (assert (0 <= (1 + u) * (1 + u)) by nra; assert ((1 + u) * (1 + u) * ((1 - u) * v) <= (1 + u) * (1 + u) * (rnd v + eta)) by (apply Rmult_le_compat_l; lra); nra).
    set (c := (1 + u) * (1 + u)) in *. assert (C1 : 1 <= c) by (unfold c; nra).
    replace (W * (1 + u) * (1 + u) * (1 + u) * (1 + u) * (rnd v + 2 * eta)) with (c * (c * W * (rnd v + 2 * eta))) by (unfold c; ring).
    apply (Rle_trans _ (c * (S1 + eta))); [exact X1|]. apply Rmult_le_compat_l; [lra|].
    assert (S1 <= c * (rnd v + eta) * W) by (eapply Rle_trans; [exact R1'|]; apply Rmult_le_compat_r; lra). assert (1 <= c * W) by nra. nra.
Qed.
Let sigma := rms (fun x => B2R x - m) l.
(** the error of the standard deviation is a small multiple of the size of the data *)
Lemma std_error : exists s, val (fsqrt (avar (B64 lm) l)) = Fin s /\ 0 <= s /\ Rabs (s - sigma) <= 5 * (INR L + 5) * bpow radix2 (-52) * B.
Proof.
  destruct var_spec as (V & EV & V0 & VU & VL). destruct (val_sqrt _ _ EV V0) as [ES [R1 R2]]. set (s := rnd (sqrt V)) in *. assert (Q0 := sqrt_pos V). exists s. split; [exact ES|].
  assert (S0 : 0 <= s) by (unfold s; rewrite <- rnd_0; apply rnd_mono; exact Q0). split; [exact S0|].
  assert (HS := L_small). assert (BP := B_pos). assert (DS := del_small). assert (P := uro_pos). assert (T0 : 0 < tau) by apply bpow_gt_0. assert (SG0 : 0 <= sigma) by apply rms_nonneg.
  assert (D0 : 0 <= D2) by (unfold D2; apply Rmean_sq_nonneg; exact ne).
  assert (SG : sigma <= B).
  { unfold sigma, m. eapply Rle_trans; [exact (std_rms (fun x => B2R x) l ne)|]. apply rms_bound; [exact ne|lra|]. intros x Hx. apply (elems x Hx). }
  assert (F1 : sqrt D2 <= sigma + del) by (apply (rms_shift dev (fun x => B2R x - m)); [exact ne|lra|]; intros x Hx; apply (dev_spec x Hx)).
  assert (F2 : sigma <= sqrt D2 + del) by (apply (rms_shift (fun x => B2R x - m) dev); [exact ne|lra|]; intros x Hx; rewrite Rabs_minus_sym; apply (dev_spec x Hx)).
  assert (G1 : sqrt V <= up (L + 2) * (sigma + del + tau)).
  { eapply Rle_trans; [apply sqrt_le_1_alt; exact VU|]. eapply Rle_trans; [apply sqrt_up; exact D0|]. apply Rmult_le_compat_l; [assert (H := up_ge1 (L + 2)); lra|lra]. }
  assert (G2 : sigma <= up (L + 4) * (sqrt V + tau) + del).
  { eapply Rle_trans; [exact F2|]. apply Rplus_le_compat_r. eapply Rle_trans; [apply sqrt_le_1_alt; exact VL|]. apply sqrt_up. exact V0. }
  unfold up in R1, R2. simpl in R1, R2. rewrite Rmult_1_r in R1, R2.
  assert (H1 : s <= up (S (L + 2)) * (sigma + del + tau)).
  { rewrite up_S. eapply Rle_trans; [exact R2|]. replace (up (L + 2) * (1 + uro) * (sigma + del + tau)) with (up (L + 2) * (sigma + del + tau) * (1 + uro)) by ring. apply Rmult_le_compat_r; lra. }
  assert (H2 : sigma <= up (S (L + 4)) * (s + tau) + del).
  { eapply Rle_trans; [exact G2|]. apply Rplus_le_compat_r. rewrite up_S, Rmult_assoc. apply Rmult_le_compat_l; [assert (H := up_ge1 (L + 4)); lra|]. nra. }
  assert (U2 := up_linear (S (L + 2)) ltac:(lia)). assert (U3 := up_linear (S (L + 4)) ltac:(lia)). assert (U4 := up_linear K ltac:(unfold K; lia)).
  assert (W2 := up_le2 (S (L + 2)) ltac:(lia)). assert (W3 := up_le2 (S (L + 4)) ltac:(lia)). assert (G3 := up_ge1 (S (L + 2))). assert (G4 := up_ge1 (S (L + 4))). assert (G5 := up_ge1 K).
  assert (TB : tau <= uro * B / 8).
  { apply (Rle_trans _ (bpow radix2 (-53) * bpow radix2 (-100) / 8)); [|unfold uro; unfold Rdiv; apply Rmult_le_compat_r; [lra|]; apply Rmult_le_compat_l; [apply bpow_ge_0|lra]].
    change 8 with (bpow radix2 3). unfold tau, Rdiv. rewrite <- bpow_opp, <- !bpow_plus. apply bpow_le. lia. }
  replace (bpow radix2 (-52)) with (2 * uro) by (rewrite uro_eq; replace (bpow radix2 (-52)) with (/ 4503599627370496) by reflexivity; lra).
  assert (IL : INR (S (L + 2)) = INR L + 3) by (rewrite S_INR, plus_INR; simpl; lra). assert (IM : INR (S (L + 4)) = INR L + 5) by (rewrite S_INR, plus_INR; simpl; lra). assert (IK : INR K = INR L + 3) by (unfold K; rewrite !S_INR; lra).
  rewrite IL in U2. rewrite IM in U3. rewrite IK in U4. assert (L0 := pos_INR L). set (lam := INR L) in *. set (w := 2 * uro) in *. assert (w0 : 0 < w) by (unfold w; lra).
  assert (LW : (lam + 5) * w <= 1 / 3). { unfold w, lam. rewrite INR_IZR_INZ, uro_eq. assert (Z1 : IZR (Z.of_nat L) <= 1125899906842624) by (apply IZR_le; lia). lra. }
  assert (DL : del <= 2 * ((lam + 3) * w * B)) by (unfold del; assert (up K - 1 <= (lam + 3) * w) by lra; nra).
  assert (TW : tau <= w * B / 16) by (unfold w; lra).
  set (wb := w * B) in *. assert (WB0 : 0 < wb) by (unfold wb; nra).
  replace ((lam + 3) * w * B) with ((lam + 3) * wb) in DL by (unfold wb; ring). replace (5 * (lam + 5) * w * B) with (5 * (lam + 5) * wb) by (unfold wb; ring).
  assert (LB : (lam + 5) * wb <= B / 3) by (unfold wb; rewrite <- Rmult_assoc; nra).
  assert (X : s - sigma <= (lam + 3) * w * sigma + 2 * (del + tau)).
  { eapply Rle_trans; [apply Rplus_le_compat_r; exact H1|]. assert ((up (S (L + 2)) - 1) * sigma <= (lam + 3) * w * sigma) by (apply Rmult_le_compat_r; lra). assert (up (S (L + 2)) * (del + tau) <= 2 * (del + tau)) by (apply Rmult_le_compat_r; lra). lra. }
  assert (X' : (lam + 3) * w * sigma <= (lam + 3) * wb) by (unfold wb; rewrite <- Rmult_assoc; apply Rmult_le_compat_l; [apply Rmult_le_pos; lra|exact SG]).
  assert (SB : s <= 3 * B) by lra.
  assert (Y : sigma - s <= (lam + 5) * w * s + 2 * tau + del).
  { assert ((up (S (L + 4)) - 1) * s <= (lam + 5) * w * s) by (apply Rmult_le_compat_r; lra). assert (up (S (L + 4)) * tau <= 2 * tau) by (apply Rmult_le_compat_r; lra). lra. }
  assert (Y' : (lam + 5) * w * s <= 3 * ((lam + 5) * wb)) by (unfold wb; replace (3 * ((lam + 5) * (w * B))) with ((lam + 5) * w * (3 * B)) by ring; apply Rmult_le_compat_l; [apply Rmult_le_pos; lra|exact SB]).
  apply Rabs_le. split; lra.
Qed.
End Std.
