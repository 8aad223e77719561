(** * The discrete Fourier transform over C and the circular convolution theorem
    (what [np.fft.ifft(np.multiply(np.fft.fft(x), np.fft.fft(k)))] computes in exact arithmetic) *)
From Coq Require Import Reals Lra List ZArith Lia.
From Coquelicot Require Import Complex.
From Verif Require Import Arith XR RealAux.
Import ListNotations.
Local Open Scope R_scope.

Definition cis (t : R) : C := (cos t, sin t).                      (* e^{it} *)
Fixpoint Csum (n : nat) (f : nat -> C) : C := match n with O => RtoC 0 | S m => Cplus (Csum m f) (f m) end.
(** numpy's conventions: forward transform with e^{-2 pi i k n / N}, inverse with e^{+...} and 1/N *)
Definition fft (x : list R) : list C :=
  let N := length x in
  map (fun k => Csum N (fun a => Cmult (RtoC (nth a x 0)) (cis (- (2 * PI * INR k * INR a / INR N))))) (seq 0 N).
Definition ifft (X : list C) : list C :=
  let N := length X in
  map (fun m => Cmult (RtoC (/ INR N)) (Csum N (fun k => Cmult (nth k X (RtoC 0)) (cis (2 * PI * INR k * INR m / INR N))))) (seq 0 N).
Definition spectral_product (x k : list R) : list R := map Re (ifft (map2 Cmult (fft x) (fft k))).
Definition circular_convolution (x k : list R) : list R :=
  let N := length x in
  map (fun m => Rsum (map (fun a => nth a x 0 * nth ((m + N - a) mod N) k 0) (seq 0 N))) (seq 0 N).

Lemma cis_plus s t : cis (s + t) = Cmult (cis s) (cis t).
Proof. unfold cis, Cmult. cbn [fst snd]. rewrite cos_plus, sin_plus. f_equal. ring. Qed.
Lemma cis_0 : cis 0 = RtoC 1.
Proof. unfold cis. rewrite cos_0, sin_0. reflexivity. Qed.
Lemma cis_period t n : cis (t + 2 * INR n * PI) = cis t.
Proof. unfold cis. rewrite cos_period, sin_period. reflexivity. Qed.
Lemma Csum_ext n f g : (forall i, (i < n)%nat -> f i = g i) -> Csum n f = Csum n g.
Proof. induction n; intros H; [reflexivity|]. cbn [Csum]. rewrite IHn, H; auto. Qed.
Lemma Csum_mult_l c n f : Cmult c (Csum n f) = Csum n (fun i => Cmult c (f i)).
Proof. induction n; cbn [Csum]; [ring|]. rewrite <- IHn. ring. Qed.
Lemma Csum_mult_r c n f : Cmult (Csum n f) c = Csum n (fun i => Cmult (f i) c).
Proof. induction n; cbn [Csum]; [ring|]. rewrite <- IHn. ring. Qed.
Lemma Csum_plus n f g : Csum n (fun i => Cplus (f i) (g i)) = Cplus (Csum n f) (Csum n g).
Proof. induction n; cbn [Csum]; [ring|]. rewrite IHn. ring. Qed.
Lemma Csum_zero n : Csum n (fun _ => RtoC 0) = RtoC 0.
Proof. induction n; cbn [Csum]; [reflexivity|]. rewrite IHn. ring. Qed.
Lemma Csum_swap n m f : Csum n (fun i => Csum m (fun j => f i j)) = Csum m (fun j => Csum n (fun i => f i j)).
Proof.
  induction n; cbn [Csum]; [symmetry; apply Csum_zero|]. rewrite IHn, <- Csum_plus. reflexivity.
Qed.
Lemma Csum_single n k f : (k < n)%nat -> (forall i, (i < n)%nat -> i <> k -> f i = RtoC 0) -> Csum n f = f k.
Proof.
  induction n; intros Hk H; [lia|]. cbn [Csum]. destruct (Nat.eq_dec k n) as [->|].
  - rewrite (Csum_ext n f (fun _ => RtoC 0)), Csum_zero; [ring|]. intros i Hi. apply H; lia.
  - rewrite (H n) by lia. rewrite IHn; [ring|lia|]. intros i Hi. apply H; lia.
Qed.
Lemma Csum_RtoC n f : Csum n (fun i => RtoC (f i)) = RtoC (Rsum (map f (seq 0 n))).
Proof.
  induction n; [reflexivity|]. cbn [Csum]. rewrite IHn, seq_S, map_app, Rsum_app. cbn [map Rsum Nat.add]. rewrite <- RtoC_plus. f_equal. ring.
Qed.

Lemma cos_1_zero t : 0 < t < 2 * PI -> cos t <> 1.
Proof.
  intros Ht E. assert (S : sin (t / 2) = 0).
  { assert (H := cos_2a_sin (t / 2)). replace (2 * (t / 2)) with t in H by field. rewrite E in H. nra. }
  assert (0 < sin (t / 2)) by (apply sin_gt_0; lra). lra.
Qed.
(** the N-th roots of unity sum to zero *)
Lemma roots_sum N d : (0 < d < N)%nat -> Csum N (fun k => cis (2 * PI * INR k * INR d / INR N)) = RtoC 0.
Proof.
  intros Hd. assert (HN : 0 < INR N) by (apply lt_0_INR; lia). assert (HD : 0 < INR d) by (apply lt_0_INR; lia).
  set (t := 2 * PI * INR d / INR N). set (S := Csum N _).
  assert (E : forall k, cis (2 * PI * INR k * INR d / INR N) = cis (INR k * t)) by (intros k; f_equal; unfold t; field; lra).
  assert (G : forall n, Cmult (Cplus (cis t) (RtoC (-1))) (Csum n (fun k => cis (INR k * t))) = Cplus (cis (INR n * t)) (RtoC (-1))).
  { induction n as [|n IH]; cbn [Csum].
    - cbn [INR]. replace (0 * t) with 0 by ring. rewrite cis_0. unfold RtoC, Cplus, Cmult. cbn. f_equal; ring.
    - assert (X : Cmult (Cplus (cis t) (RtoC (-1))) (Cplus (Csum n (fun k => cis (INR k * t))) (cis (INR n * t))) =
                  Cplus (Cmult (Cplus (cis t) (RtoC (-1))) (Csum n (fun k => cis (INR k * t)))) (Cmult (Cplus (cis t) (RtoC (-1))) (cis (INR n * t)))) by ring.
      rewrite X, IH. rewrite S_INR. replace ((INR n + 1) * t) with (t + INR n * t) by ring. rewrite cis_plus.
      replace (RtoC (-1)) with (Copp (RtoC 1)) by (unfold Copp, RtoC; cbn; f_equal; ring). ring. }
  assert (Z : Cmult (Cplus (cis t) (RtoC (-1))) S = RtoC 0).
  { unfold S. rewrite (Csum_ext N _ (fun k => cis (INR k * t))) by auto. rewrite G.
    replace (INR N * t) with (0 + 2 * INR d * PI) by (unfold t; field; lra). rewrite cis_period, cis_0. unfold RtoC, Cplus. cbn. f_equal; ring. }
  assert (NZ : Cplus (cis t) (RtoC (-1)) <> RtoC 0).
  { intros H. apply (f_equal fst) in H. unfold cis, RtoC, Cplus in H. cbn in H.
    apply (cos_1_zero t); [|lra]. unfold t. assert (P := PI_RGT_0). split.
    - apply Rdiv_lt_0_compat; [|auto]. apply Rmult_lt_0_compat; [lra|auto].
    - apply div_lt_iff; [auto|]. assert (INR d < INR N) by (apply lt_INR; lia). nra. }
  destruct (Ceq_dec S (RtoC 0)) as [|NS]; [auto|]. exfalso. exact (Cmult_neq_0 _ _ NZ NS Z).
Qed.
Lemma Csum_const n c : Csum n (fun _ => c) = Cmult (RtoC (INR n)) c.
Proof.
  induction n; [cbn [Csum INR]; ring|]. cbn [Csum]. rewrite IHn, S_INR, RtoC_plus. ring.
Qed.
(** orthogonality of the characters *)
Lemma characters N m a b : (0 < N)%nat -> (m < N)%nat -> (a < N)%nat -> (b < N)%nat ->
  Csum N (fun k => cis (2 * PI * INR k * (INR m - INR a - INR b) / INR N)) =
  if Nat.eqb b ((m + N - a) mod N) then RtoC (INR N) else RtoC 0.
Proof.
  intros HN Hm Ha Hb. assert (HNR : 0 < INR N) by (apply lt_0_INR; lia).
  set (d := ((m + N - a + (N - b)) mod N)%nat).
  assert (EQ : exists q, (m + N - a + (N - b) = N * q + d)%nat) by (exists ((m + N - a + (N - b)) / N)%nat; unfold d; apply Nat.div_mod; lia).
  destruct EQ as (q & EQ). assert (Hd : (d < N)%nat) by (apply Nat.mod_upper_bound; lia).
  assert (EC : forall k, (k < N)%nat -> cis (2 * PI * INR k * (INR m - INR a - INR b) / INR N) = cis (2 * PI * INR k * INR d / INR N)).
  { intros k Hk. rewrite <- (cis_period _ (2 * k)). rewrite <- (cis_period (2 * PI * INR k * INR d / INR N) (k * q)). f_equal.
    assert (R : INR m + INR N - INR a + (INR N - INR b) = INR N * INR q + INR d).
    { apply (f_equal INR) in EQ. rewrite !plus_INR, mult_INR, !minus_INR, plus_INR in EQ by lia. lra. }
    rewrite !mult_INR. replace (INR m - INR a - INR b) with (INR N * INR q + INR d - 2 * INR N) by lra. simpl (INR 2). field. lra. }
  rewrite (Csum_ext N _ (fun k => cis (2 * PI * INR k * INR d / INR N))) by auto.
  assert (HB : b = ((m + N - a) mod N)%nat <-> d = 0%nat).
  { unfold d. assert (X : ((m + N - a) mod N < N)%nat) by (apply Nat.mod_upper_bound; lia).
    assert (EQ2 := Nat.div_mod (m + N - a) N ltac:(lia)). set (c := ((m + N - a) mod N)%nat) in *. set (p := ((m + N - a) / N)%nat) in *.
    split; intros HE.
    - subst b. apply Nat.mod_divide; [lia|]. exists (p + 1)%nat. nia.
    - apply Nat.mod_divide in HE; [|lia]. destruct HE as (z & HE). assert (N * p + c + N = N * z + b)%nat by nia.
      destruct (Nat.lt_trichotomy (p + 1) z) as [L|[L|L]]; nia. }
  destruct (Nat.eqb_spec b ((m + N - a) mod N)) as [E|E].
  - apply HB in E. rewrite E. rewrite (Csum_ext N _ (fun _ => RtoC 1)), Csum_const; [ring|]. intros k _.
    replace (2 * PI * INR k * INR 0 / INR N) with 0 by (simpl; field; lra). apply cis_0.
  - apply roots_sum. destruct d; [exfalso; apply E, HB; reflexivity|lia].
Qed.
Lemma fft_length x : length (fft x) = length x.
Proof. unfold fft. rewrite map_length, seq_length. reflexivity. Qed.
Lemma nth_map_seq {X} (f : nat -> X) N m d : (m < N)%nat -> nth m (map f (seq 0 N)) d = f m.
Proof. intros H. rewrite (nth_indep _ d (f 0%nat)) by (rewrite map_length, seq_length; auto). rewrite map_nth. rewrite seq_nth by auto. reflexivity. Qed.

(** The convolution theorem *)
Theorem spectral_product_is_convolution x k : length x = length k -> spectral_product x k = circular_convolution x k.
Proof.
  intros HL. set (N := length x). destruct (Nat.eq_dec N 0) as [Z|NZ].
  { unfold N in Z. destruct x; [|discriminate]. destruct k; [|discriminate]. reflexivity. }
  unfold spectral_product, circular_convolution, ifft. rewrite map2_length, !fft_length, <- HL, Nat.min_id. fold N. rewrite map_map. apply map_ext_in. intros m Hm.
  apply in_seq in Hm. assert (HNR : 0 < INR N) by (apply lt_0_INR; lia).
  rewrite (Csum_ext N _ (fun j => Csum N (fun a => Csum N (fun b =>
     Cmult (RtoC (nth a x 0 * nth b k 0)) (cis (2 * PI * INR j * (INR m - INR a - INR b) / INR N)))))).
  2:{ intros j Hj. rewrite (map2_nth _ _ _ _ (RtoC 0) (RtoC 0)) by (rewrite fft_length; lia). unfold fft. rewrite <- HL. fold N.
      rewrite !nth_map_seq by lia. rewrite Csum_mult_r, Csum_mult_r. apply Csum_ext. intros a Ha. rewrite Csum_mult_l, Csum_mult_r. apply Csum_ext. intros b Hb.
      replace (2 * PI * INR j * (INR m - INR a - INR b) / INR N) with
        (- (2 * PI * INR j * INR a / INR N) + - (2 * PI * INR j * INR b / INR N) + 2 * PI * INR j * INR m / INR N) by (field; lra).
      rewrite !cis_plus, RtoC_mult. ring. }
  rewrite Csum_swap. rewrite (Csum_ext N _ (fun a => RtoC (INR N * (nth a x 0 * nth ((m + N - a) mod N) k 0)))).
  2:{ intros a Ha. rewrite Csum_swap.
      assert (HB : ((m + N - a) mod N < N)%nat) by (apply Nat.mod_upper_bound; lia).
      rewrite (Csum_single N ((m + N - a) mod N)); [|auto|].
      - rewrite <- Csum_mult_l, characters by lia. rewrite Nat.eqb_refl, <- RtoC_mult. f_equal. ring.
      - intros b Hb Hne. rewrite <- Csum_mult_l, characters by lia. apply Nat.eqb_neq in Hne. rewrite Hne. ring. }
  rewrite Csum_RtoC, <- RtoC_mult. unfold Re, RtoC. cbn [fst]. rewrite Rsum_mult_l. field. lra.
Qed.
