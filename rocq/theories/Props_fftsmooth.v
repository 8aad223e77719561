(** * Property C66: the FFT smoother *)
From Coq Require Import Reals Lra List ZArith Lia Bool.
From Coquelicot Require Import Complex.
From Verif Require Import Arith XR RealAux Fourier Model_merton.
Import ListNotations.
Local Open Scope R_scope.

(** ** Specification *)
(** np.real(ifft(fft(x) * fft(k))) in exact arithmetic (Fourier.v); any NaN or infinity spoils every entry *)
Definition value (x : xr) : R := match x with Fin r => r | _ => 0 end.
Definition finite (x : xr) : bool := match x with Fin _ => true | _ => false end.
Definition exact_spectral (x k : list xr) : list xr :=
  if forallb finite (x ++ k) then map Fin (spectral_product (map value x) (map value k)) else map (fun _ => NaN) x.
(** mean of x[m-h+1], ..., x[m+h] *)
Definition moving_average (x : list R) (h m : nat) : R := Rsum (map (fun p => nth p x 0) (seq (m + 1 - h) (2 * h))) / INR (2 * h).
(** the smoothed series: moving average inside, straight lines through the two outermost averages at both ends *)
Definition smoothed (x : list R) (h m : nat) : R :=
  let n := length x in let avg := moving_average x h in
  if Nat.ltb m h then avg h - INR (h - m) * (avg (h + 1)%nat - avg h)
  else if Nat.ltb m (n - h) then avg m
  else avg (n - h - 1)%nat + INR (m - (n - h - 1)) * (avg (n - h - 1)%nat - avg (n - h - 2)%nat).

(** ** Proof *)
Lemma forallb_finite l : forallb finite (map Fin l) = true.
Proof. induction l; [reflexivity|exact IHl]. Qed.
Lemma map_value l : map value (map Fin l) = l.
Proof. rewrite map_map. apply map_id. Qed.
Lemma exact_spectral_fin x k : exact_spectral (map Fin x) (map Fin k) = map Fin (spectral_product x k).
Proof. unfold exact_spectral. rewrite <- map_app, forallb_finite, !map_value. reflexivity. Qed.
Lemma map_repeat' {X Y} (f : X -> Y) x n : map f (repeat x n) = repeat (f x) n.
Proof. induction n; [reflexivity|]. cbn [repeat map]. rewrite IHn. reflexivity. Qed.
Lemma nth_repeat' {X} (x d : X) n i : nth i (repeat x n) d = if Nat.ltb i n then x else d.
Proof.
  revert i. induction n as [|n IH]; intros [|i]; cbn [repeat nth]; auto. rewrite IH. reflexivity.
Qed.
Definition kernel (n h : nat) : list R := repeat 0 (n - h) ++ repeat (1 / INR (2 * h)) (2 * h) ++ repeat 0 (n - h).
Lemma kernel_nth n h i : (h <= n)%nat -> nth i (kernel n h) 0 = if Nat.leb (n - h) i && Nat.ltb i (n + h) then 1 / INR (2 * h) else 0.
Proof.
  intros H. unfold kernel. destruct (Nat.ltb_spec i (n - h)) as [L|L].
  - rewrite app_nth1 by (rewrite repeat_length; lia). rewrite nth_repeat'. destruct (Nat.ltb_spec i (n - h)); [|lia]. destruct (Nat.leb_spec (n - h) i); [lia|]. reflexivity.
  - rewrite app_nth2 by (rewrite repeat_length; lia). rewrite repeat_length. destruct (Nat.leb_spec (n - h) i); [|lia]. cbn [andb].
    destruct (Nat.ltb_spec i (n + h)) as [L2|L2].
    + rewrite app_nth1 by (rewrite repeat_length; lia). rewrite nth_repeat'. destruct (Nat.ltb_spec (i - (n - h)) (2 * h)); [reflexivity|lia].
    + rewrite app_nth2 by (rewrite repeat_length; lia). rewrite nth_repeat'. destruct (Nat.ltb_spec (i - (n - h) - length (repeat (1 / INR (2 * h)) (2 * h))) (n - h)); reflexivity.
Qed.
Lemma kernel_length n h : (h <= n)%nat -> length (kernel n h) = (2 * n)%nat.
Proof. intros H. unfold kernel. rewrite !app_length, !repeat_length. lia. Qed.
Lemma Rsum_zero_map {X} (f : X -> R) l : (forall x, In x l -> f x = 0) -> Rsum (map f l) = 0.
Proof. intros H. rewrite (Rsum_map_ext f (fun _ => 0)) by auto. rewrite Rsum_const. ring. Qed.
Lemma seq_shift_map a n : seq a n = map (fun p => (a + p)%nat) (seq 0 n).
Proof. revert a. induction n; intros a; [reflexivity|]. cbn [seq map]. rewrite (IHn (S a)), (IHn 1%nat). rewrite map_map. f_equal; [lia|]. apply map_ext. intros; lia. Qed.
(** the convolution at an interior point *)
Lemma convolution_interior x h m : let n := length x in
  (1 <= h)%nat -> (h <= m)%nat -> (m + h < n)%nat ->
  nth m (circular_convolution (repeat 0 n ++ x) (kernel n h)) 0 = moving_average x h m.
Proof.
  intros n Hh Hm Hn. unfold circular_convolution. rewrite app_length, repeat_length. fold n. rewrite nth_map_seq by lia.
  replace (seq 0 (n + n)) with (seq 0 n ++ seq n n) by (rewrite <- seq_app; reflexivity). rewrite map_app, Rsum_app.
  rewrite (Rsum_zero_map _ (seq 0 n)).
  2:{ intros a Ha. apply in_seq in Ha. rewrite app_nth1 by (rewrite repeat_length; lia). rewrite nth_repeat'. destruct (Nat.ltb a n); ring. }
  rewrite Rplus_0_l, (seq_shift_map n n), map_map.
  rewrite (Rsum_map_ext _ (fun p => nth p x 0 * (if Nat.leb (m + 1 - h) p && Nat.ltb p (m + 1 - h + 2 * h) then 1 / INR (2 * h) else 0))).
  2:{ intros p Hp. apply in_seq in Hp. rewrite app_nth2 by (rewrite repeat_length; lia). rewrite repeat_length. replace (n + p - n)%nat with p by lia. f_equal.
      rewrite Nat.mod_small by lia. rewrite kernel_nth by lia.
      replace (Nat.leb (n - h) (m + (n + n) - (n + p)) && Nat.ltb (m + (n + n) - (n + p)) (n + h)) with (Nat.leb (m + 1 - h) p && Nat.ltb p (m + 1 - h + 2 * h)); [reflexivity|].
      apply eq_true_iff_eq. rewrite !andb_true_iff, !Nat.leb_le, !Nat.ltb_lt. lia. }
  replace n with ((m + 1 - h) + (2 * h + (n - (m + 1 - h) - 2 * h)))%nat at 1 by lia. rewrite !seq_app, !map_app, !Rsum_app. cbn [Nat.add].
  rewrite (Rsum_zero_map _ (seq 0 _)), (Rsum_zero_map _ (seq (m + 1 - h + 2 * h) _)).
  - unfold moving_average, Rdiv. rewrite (Rsum_map_ext _ (fun p => / INR (2 * h) * nth p x 0)).
    + rewrite Rsum_mult_l. ring.
    + intros p Hp. apply in_seq in Hp. destruct (Nat.leb_spec (m + 1 - h) p); [|lia]. destruct (Nat.ltb_spec p (m + 1 - h + 2 * h)); [|lia]. cbn [andb]. unfold Rdiv. ring.
  - intros p Hp. apply in_seq in Hp. destruct (Nat.leb_spec (m + 1 - h) p); [|lia]. destruct (Nat.ltb_spec p (m + 1 - h + 2 * h)); [lia|]. cbn [andb]. ring.
  - intros p Hp. apply in_seq in Hp. destruct (Nat.leb_spec (m + 1 - h) p); [lia|]. cbn [andb]. ring.
Qed.
Lemma py_index_nth {X} (l : list X) i d : (i < length l)%nat -> py_index l (Z.of_nat i) = Ok (nth i l d).
Proof.
  intros H. unfold py_index. destruct (Z.ltb_spec (Z.of_nat i) 0); [lia|]. destruct (Z.ltb_spec (Z.of_nat i) 0); [lia|]. rewrite Nat2Z.id.
  rewrite (nth_error_nth' l d H). reflexivity.
Qed.
Lemma ofN_fin n : ofN XRA n = Fin (INR n).
Proof. unfold ofN. cbn [ofZ XRA]. rewrite INR_IZR_INZ. reflexivity. Qed.
Lemma fin_repeat r n : repeat (Fin r) n = map Fin (repeat r n).
Proof. symmetry. apply map_repeat'. Qed.
Lemma kernel_model n h : (1 <= h)%nat ->
  repeat (ofZ (a:=XRA) 0) (n - h) ++ repeat (ndiv (a:=XRA) (ofZ 1) (ofN XRA (2 * h))) (2 * h) ++ repeat (ofZ (a:=XRA) 0) (n - h) = map Fin (kernel n h).
Proof.
  intros Hh. rewrite ofN_fin. cbn [ofZ ndiv XRA]. assert (0 < INR (2 * h)) by (apply lt_0_INR; lia). rewrite xdiv_fin by lra.
  unfold kernel. rewrite !map_app, !map_repeat'. reflexivity.
Qed.
Lemma map_firstn_skipn {X} (l : list X) a c d : (a + c <= length l)%nat -> firstn c (skipn a l) = map (fun t => nth t l d) (seq a c).
Proof.
  revert a l. induction c as [|c IH]; intros a l H; [reflexivity|]. cbn [seq map].
  assert (E : skipn a l = nth a l d :: skipn (S a) l).
  { clear IH. revert l H. induction a; intros [|y l] H; cbn [length] in H; try lia; [reflexivity|]. cbn [skipn nth]. apply (IHa l). lia. }
  rewrite E. cbn [firstn]. f_equal. apply IH. lia.
Qed.

(** ** C66: moving average with linearly extrapolated edges *)
Theorem C66_moving_average : forall x h, let n := length x in
  Nat.even n = true -> (1 <= h)%nat -> (2 * h + 2 <= n)%nat ->
  fftsmooth XRA exact_spectral (map Fin x) (2 * h) = Ok (map Fin (map (smoothed x h) (seq 0 n))).
Proof.
  intros x h n He Hh Hn. unfold fftsmooth. rewrite map_length. fold n. rewrite He. cbn [check].
  assert (EW : Nat.even (2 * h) = true) by (rewrite Nat.even_mul; reflexivity). rewrite EW. cbn [check].
  replace (Nat.div (2 * h) 2) with h by (rewrite Nat.mul_comm, Nat.div_mul; lia).
  destruct (Nat.leb_spec h n); [|lia]. cbn [check]. destruct (Nat.eqb_spec n 0); [lia|]. cbn [negb check].
  rewrite kernel_model by auto. change (repeat (ofZ (a:=XRA) 0) n) with (repeat (Fin 0) n). rewrite fin_repeat.
  change (num XRA) with xr. rewrite <- map_app, exact_spectral_fin.
  assert (HL : length (repeat 0 n ++ x) = length (kernel n h)) by (rewrite app_length, repeat_length, kernel_length by lia; fold n; lia).
  rewrite spectral_product_is_convolution by auto.
  set (xk := circular_convolution (repeat 0 n ++ x) (kernel n h)).
  assert (LK : length xk = (2 * n)%nat). { unfold xk, circular_convolution. rewrite map_length, seq_length, app_length, repeat_length. fold n. lia. }
  assert (HX : forall m, (h <= m)%nat -> (m + h < n)%nat -> nth m xk 0 = moving_average x h m) by (intros; apply convolution_interior; auto).
  assert (HI : forall m, (h <= m)%nat -> (m + h < n)%nat -> py_index (map Fin xk) (Z.of_nat m) = Ok (Fin (moving_average x h m))).
  { intros m H1 H2. rewrite (py_index_nth _ m (Fin 0)) by (rewrite map_length; lia). rewrite map_nth, HX by auto. reflexivity. }
  replace (Z.of_nat h + 1)%Z with (Z.of_nat (h + 1)) by lia. rewrite !HI by lia. cbn [bind].
  replace (Z.of_nat n - Z.of_nat h - 1)%Z with (Z.of_nat (n - h - 1)) by lia. replace (Z.of_nat n - Z.of_nat h - 2)%Z with (Z.of_nat (n - h - 2)) by lia.
  rewrite !HI by lia. cbn [bind]. f_equal.
  replace (seq 0 n) with (seq 0 h ++ seq h (n - h - h) ++ seq (n - h) h).
  2:{ replace n with (h + ((n - h - h) + h))%nat at 3 by lia. rewrite !seq_app. do 3 f_equal. lia. }
  rewrite !map_app. f_equal; [|f_equal].
  - rewrite map_map. apply map_ext_in. intros t Ht. apply in_seq in Ht. rewrite ofN_fin. cbn [nsub nmul XRA xsub xmul]. unfold smoothed. fold n.
    destruct (Nat.ltb_spec t h); [|lia]. reflexivity.
  - rewrite (map_firstn_skipn _ _ _ (Fin 0)) by (rewrite map_length; lia). rewrite map_map. apply map_ext_in. intros t Ht. apply in_seq in Ht.
    rewrite map_nth, HX by lia. unfold smoothed. fold n. destruct (Nat.ltb_spec t h); [lia|]. destruct (Nat.ltb_spec t (n - h)); [|lia]. reflexivity.
  - rewrite map_map. rewrite (seq_shift_map (n - h) h), map_map. apply map_ext_in. intros t Ht. apply in_seq in Ht. rewrite ofN_fin.
    cbn [nadd nsub nmul XRA xsub xmul xadd]. unfold smoothed. fold n. destruct (Nat.ltb_spec (n - h + t) h); [lia|]. destruct (Nat.ltb_spec (n - h + t) (n - h)); [lia|].
    replace (n - h + t - (n - h - 1))%nat with (t + 1)%nat by lia. reflexivity.
Qed.
(** the assertions: exactly the even lengths and windows are accepted; a window of 0 silently returns zeros *)
Theorem C66_odd_rejected : forall (A : Arith) spectral x w, Nat.even (length x) = false \/ Nat.even w = false ->
  fftsmooth A spectral x w = Err AssertionError.
Proof. intros A sp x w H. unfold fftsmooth. destruct (Nat.even (length x)), (Nat.even w), H; try discriminate; reflexivity. Qed.
Theorem C66_window_too_wide : forall (A : Arith) spectral x w, Nat.even (length x) = true -> Nat.even w = true -> (length x < Nat.div w 2)%nat ->
  fftsmooth A spectral x w = Err ValueError.
Proof. intros A sp x w H1 H2 H3. unfold fftsmooth. rewrite H1, H2. cbn [check]. destruct (Nat.leb_spec (Nat.div w 2) (length x)); [lia|reflexivity]. Qed.
Lemma repeat_seq (c : R) a n : repeat c n = map (fun _ : nat => c) (seq a n).
Proof. revert a. induction n as [|n IH]; intros a; [reflexivity|]. cbn [seq map repeat]. f_equal. apply IH. Qed.
Theorem C66_zero_window_returns_zeros : forall x, let n := length x in Nat.even n = true -> n <> 0%nat ->
  fftsmooth XRA exact_spectral (map Fin x) 0 = Ok (repeat (Fin 0) n).
Proof.
  intros x n He Hn. unfold fftsmooth. rewrite map_length. fold n. rewrite He. cbn [check Nat.even Nat.div Nat.divmod fst Nat.sub]. destruct (Nat.leb_spec 0 n); [|lia]. cbn [check].
  destruct (Nat.eqb_spec n 0); [lia|]. cbn [negb check]. rewrite Nat.sub_0_r. cbn [repeat app seq map].
  change (repeat (ofZ (a:=XRA) 0) n) with (repeat (Fin 0) n). rewrite fin_repeat. change (num XRA) with xr. rewrite <- !map_app, exact_spectral_fin.
  assert (HL : length (repeat 0 n ++ x) = length (repeat 0 n ++ repeat 0 n)) by (rewrite !app_length, !repeat_length; reflexivity).
  rewrite spectral_product_is_convolution by auto.
  assert (EZ : circular_convolution (repeat 0 n ++ x) (repeat 0 n ++ repeat 0 n) = repeat 0 (2 * n)).
  { unfold circular_convolution. rewrite <- repeat_app. rewrite app_length, repeat_length. fold n. replace (n + n)%nat with (2 * n)%nat by lia.
    transitivity (map (fun _ : nat => 0) (seq 0 (2 * n))); [|symmetry; apply repeat_seq]. apply map_ext. intros m. apply Rsum_zero_map. intros a _. rewrite nth_repeat'. destruct (Nat.ltb _ _); ring. }
  rewrite EZ. rewrite map_repeat'.
  assert (PI : forall i, (i < 2 * n)%nat -> py_index (repeat (Fin 0) (2 * n)) (Z.of_nat i) = Ok (Fin 0)).
  { intros i Hi. rewrite (py_index_nth _ i (Fin 0)) by (rewrite repeat_length; auto). rewrite nth_repeat'. destruct (Nat.ltb i (2 * n)); reflexivity. }
  assert (N2 : (2 <= n)%nat). { destruct n as [|[|n']]; [lia|discriminate|lia]. }
  change (Z.of_nat 0 + 1)%Z with (Z.of_nat 1). rewrite (PI 0%nat), (PI 1%nat) by lia. cbn [bind].
  replace (Z.of_nat n - Z.of_nat 0 - 1)%Z with (Z.of_nat (n - 1)) by lia. replace (Z.of_nat n - Z.of_nat 0 - 2)%Z with (Z.of_nat (n - 2)) by lia.
  rewrite !PI by lia. cbn [bind]. rewrite app_nil_r. cbn [skipn]. f_equal. rewrite ?Nat.sub_0_r. replace (2 * n)%nat with (n + n)%nat by lia. rewrite repeat_app, firstn_app, repeat_length, Nat.sub_diag.
  cbn [firstn]. rewrite app_nil_r. rewrite map_repeat'. rewrite <- (repeat_length (Fin 0) n) at 1. apply firstn_all.
Qed.

(** ** Consequences *)
Lemma moving_average_linear a b x y h m : length x = length y ->
  moving_average (map2 (fun u v => a * u + b * v) x y) h m = a * moving_average x h m + b * moving_average y h m.
Proof.
  intros HL. unfold moving_average, Rdiv.
  rewrite (Rsum_map_ext _ (fun p => a * nth p x 0 + b * nth p y 0)).
  - rewrite Rsum_plus, !Rsum_mult_l. ring.
  - intros p _. destruct (Nat.ltb_spec p (length x)) as [L|L].
    + rewrite (map2_nth _ _ _ _ 0 0) by lia. reflexivity.
    + rewrite !nth_overflow; [ring|lia|lia|]. rewrite map2_length. lia.
Qed.
(** linear in the data *)
Lemma smoothed_linear : forall a b x y h m, length x = length y ->
  smoothed (map2 (fun u v => a * u + b * v) x y) h m = a * smoothed x h m + b * smoothed y h m.
Proof.
  intros a b x y h m HL. unfold smoothed. rewrite map2_length, <- HL, Nat.min_id. rewrite !moving_average_linear by auto.
  destruct (Nat.ltb m h); [ring|]. destruct (Nat.ltb m (length x - h)); ring.
Qed.
Lemma Rsum_seq_affine a b s c : Rsum (map (fun p => a + b * INR p) (seq s c)) = INR c * (a + b * (INR s + (INR c - 1) / 2)).
Proof.
  revert s. induction c as [|c IH]; intros s; [cbn; ring|]. cbn [seq map Rsum]. rewrite IH, !S_INR. field.
Qed.
Lemma moving_average_ramp a b n h m : (1 <= h)%nat -> (h <= m)%nat -> (m + h < n)%nat ->
  moving_average (map (fun p => a + b * INR p) (seq 0 n)) h m = a + b * (INR m + 1 / 2).
Proof.
  intros Hh Hm Hn. unfold moving_average. rewrite (Rsum_map_ext _ (fun p => a + b * INR p)).
  2:{ intros p Hp. apply in_seq in Hp. apply (nth_map_seq (fun p => a + b * INR p)). lia. }
  rewrite Rsum_seq_affine. assert (0 < INR (2 * h)) by (apply lt_0_INR; lia).
  replace (INR (m + 1 - h)) with (INR m + 1 - INR h) by (rewrite minus_INR, plus_INR by lia; cbn; ring).
  rewrite mult_INR in *. simpl (INR 2) in *. field. lra.
Qed.
(** a straight line comes back shifted by half a step, everywhere including the edges; constants are reproduced (b = 0) *)
Lemma smoothed_ramp : forall a b n h m, (1 <= h)%nat -> (2 * h + 2 <= n)%nat -> (m < n)%nat ->
  smoothed (map (fun p => a + b * INR p) (seq 0 n)) h m = a + b * (INR m + 1 / 2).
Proof.
  intros a b n h m Hh Hn Hm. unfold smoothed. rewrite map_length, seq_length. destruct (Nat.ltb_spec m h) as [L|L].
  - rewrite !moving_average_ramp by lia. rewrite minus_INR, plus_INR by lia. simpl (INR 1). ring.
  - destruct (Nat.ltb_spec m (n - h)) as [L2|L2]; [apply moving_average_ramp; lia|].
    rewrite !moving_average_ramp by lia. rewrite !minus_INR by lia. simpl (INR 1). simpl (INR 2). ring.
Qed.
(** the first observation never matters: x[0] is in no window *)
Lemma smoothed_first_entry_ignored : forall u v x h m, (1 <= h)%nat -> (2 * h + 2 <= length (u :: x))%nat -> (m < length (u :: x))%nat ->
  smoothed (u :: x) h m = smoothed (v :: x) h m.
Proof.
  intros u v x h m Hh Hn Hm.
  assert (E : forall q, (h <= q)%nat -> moving_average (u :: x) h q = moving_average (v :: x) h q).
  { intros q Hq. unfold moving_average. f_equal. apply Rsum_map_ext. intros p Hp. apply in_seq in Hp. destruct p; [lia|]. reflexivity. }
  unfold smoothed. cbn [length] in *. destruct (Nat.ltb_spec m h); [rewrite !E by lia; reflexivity|].
  destruct (Nat.ltb_spec m (S (length x) - h)); [apply E; lia|]. rewrite !E by lia. reflexivity.
Qed.
(** interior values stay in the range of the data, the extrapolated edges need not *)
Lemma smoothed_interior_in_range : forall x h m lo hi, (1 <= h)%nat -> (h <= m)%nat -> (m + h < length x)%nat ->
  (forall v, In v x -> lo <= v <= hi) -> lo <= smoothed x h m <= hi.
Proof.
  intros x h m lo hi Hh Hm Hn HB. unfold smoothed. destruct (Nat.ltb_spec m h); [lia|]. destruct (Nat.ltb_spec m (length x - h)); [|lia].
  unfold moving_average. assert (HP : 0 < INR (2 * h)) by (apply lt_0_INR; lia).
  assert (HS : INR (2 * h) * lo <= Rsum (map (fun p => nth p x 0) (seq (m + 1 - h) (2 * h))) <= INR (2 * h) * hi).
  { assert (forall p, In p (seq (m + 1 - h) (2 * h)) -> lo <= nth p x 0 <= hi) by (intros p Hp; apply in_seq in Hp; apply HB, nth_In; lia).
    pose proof (Rsum_const lo (seq (m + 1 - h) (2 * h))) as C1. pose proof (Rsum_const hi (seq (m + 1 - h) (2 * h))) as C2. rewrite seq_length in C1, C2. rewrite <- C1, <- C2.
    split; apply Rsum_le; intros p Hp; apply H1; auto. }
  split; [apply le_div_iff|apply div_le_iff]; lra.
Qed.
(** increasing data give an increasing result, edges included *)
Lemma moving_average_step x h m : (1 <= h)%nat -> (h <= m)%nat -> (m + h + 1 < length x)%nat ->
  (forall p, (p + 1 < length x)%nat -> nth p x 0 <= nth (p + 1) x 0) -> moving_average x h m <= moving_average x h (m + 1).
Proof.
  intros Hh Hm Hn HI. unfold moving_average, Rdiv. apply Rmult_le_compat_r; [left; apply Rinv_0_lt_compat, lt_0_INR; lia|].
  replace (m + 1 + 1 - h)%nat with (S (m + 1 - h)) by lia. rewrite <- seq_shift, map_map. apply Rsum_le. intros p Hp. apply in_seq in Hp.
  replace (S p) with (p + 1)%nat by lia. apply HI. lia.
Qed.
Lemma smoothed_monotone : forall x h m, (1 <= h)%nat -> (2 * h + 2 <= length x)%nat -> (m + 1 < length x)%nat ->
  (forall p, (p + 1 < length x)%nat -> nth p x 0 <= nth (p + 1) x 0) -> smoothed x h m <= smoothed x h (m + 1).
Proof.
  intros x h m Hh Hn Hm HI. set (n := length x) in *. assert (ST := fun q H1 H2 => moving_average_step x h q Hh H1 H2 HI). fold n in ST.
  assert (SL := ST h ltac:(lia) ltac:(lia)). assert (SU := ST (n - h - 2)%nat ltac:(lia) ltac:(lia)). replace (n - h - 2 + 1)%nat with (n - h - 1)%nat in SU by lia.
  unfold smoothed. fold n. destruct (Nat.ltb_spec m h) as [L|L].
  - replace (INR (h - m)) with (INR (h - (m + 1)) + 1) by (rewrite <- S_INR; f_equal; lia).
    destruct (Nat.ltb_spec (m + 1) h) as [L2|L2]; [lra|]. destruct (Nat.ltb_spec (m + 1) (n - h)) as [L3|L3]; [|lia].
    replace (m + 1)%nat with h by lia. replace (h - h)%nat with 0%nat by lia. cbn [INR]. lra.
  - destruct (Nat.ltb_spec (m + 1) h) as [L2|L2]; [lia|]. destruct (Nat.ltb_spec m (n - h)) as [L3|L3].
    + destruct (Nat.ltb_spec (m + 1) (n - h)) as [L4|L4]; [apply ST; lia|].
      replace m with (n - h - 1)%nat by lia. replace (n - h - 1 + 1 - (n - h - 1))%nat with 1%nat by lia. cbn [INR]. lra.
    + destruct (Nat.ltb_spec (m + 1) (n - h)) as [L4|L4]; [lia|]. replace (INR (m + 1 - (n - h - 1))) with (INR (m - (n - h - 1)) + 1); [lra|].
      rewrite <- S_INR. f_equal. lia.
Qed.
(** nonnegative payoffs can be smoothed to negative ones at the edge *)
(** the same facts about the arrays returned: [smooths x h o] is a call that returned o *)
Definition smooths (x : list R) (h : nat) (o : list R) : Prop := fftsmooth XRA exact_spectral (map Fin x) (2 * h) = Ok (map Fin o).
Definition smoothable (n h : nat) : Prop := Nat.even n = true /\ (1 <= h)%nat /\ (2 * h + 2 <= n)%nat.
Lemma fin_inj_list a : forall b, map Fin a = map Fin b -> a = b.
Proof. induction a as [|x a IH]; intros [|y b] H; try discriminate; auto. cbn [map] in H. injection H as -> H. f_equal. apply IH. exact H. Qed.
Lemma smooths_is x h o : smoothable (length x) h -> smooths x h o -> o = map (smoothed x h) (seq 0 (length x)).
Proof. intros (H1 & H2 & H3) E. unfold smooths in E. rewrite C66_moving_average in E by auto. injection E as E. apply fin_inj_list. congruence. Qed.
Lemma smooths_nth x h o m : smoothable (length x) h -> smooths x h o -> (m < length x)%nat -> nth m o 0 = smoothed x h m.
Proof. intros HS E Hm. rewrite (smooths_is x h o HS E). apply nth_map_seq. exact Hm. Qed.
Theorem C66_linear : forall a b x y h o p, length x = length y -> smoothable (length x) h -> smooths x h o -> smooths y h p ->
  smooths (map2 (fun u v => a * u + b * v) x y) h (map2 (fun u v => a * u + b * v) o p).
Proof.
  intros a b x y h o p HL HS Ho Hp. apply smooths_is in Ho; [|auto]. apply smooths_is in Hp; [|rewrite <- HL; auto]. subst o p. rewrite <- HL.
  assert (LM : length (map2 (fun u v => a * u + b * v) x y) = length x) by (rewrite map2_length, <- HL; apply Nat.min_id).
  unfold smooths. destruct HS as (H1 & H2 & H3). rewrite C66_moving_average by (rewrite ?LM; auto). rewrite LM. do 2 f_equal.
  assert (G : forall l, map (smoothed (map2 (fun u v => a * u + b * v) x y) h) l = map2 (fun u v => a * u + b * v) (map (smoothed x h) l) (map (smoothed y h) l)).
  { induction l as [|m l IH]; [reflexivity|]. cbn [map map2]. f_equal; [apply smoothed_linear; auto|exact IH]. }
  apply G.
Qed.
Theorem C66_ramp : forall a b n h o, smoothable n h -> smooths (map (fun p => a + b * INR p) (seq 0 n)) h o -> o = map (fun m => a + b * (INR m + 1 / 2)) (seq 0 n).
Proof.
  intros a b n h o HS Ho. apply smooths_is in Ho; [|rewrite map_length, seq_length; auto]. subst o. rewrite map_length, seq_length. apply map_ext_in. intros m Hm. apply in_seq in Hm.
  destruct HS as (_ & H2 & H3). apply smoothed_ramp; auto; lia.
Qed.
Theorem C66_first_entry_ignored : forall u v x h o, smoothable (S (length x)) h -> smooths (u :: x) h o -> smooths (v :: x) h o.
Proof.
  intros u v x h o HS Ho. apply smooths_is in Ho; [|exact HS]. subst o. unfold smooths. destruct HS as (H1 & H2 & H3). rewrite C66_moving_average by (cbn [length]; auto).
  do 2 f_equal. cbn [length]. apply map_ext_in. intros m Hm. apply in_seq in Hm. apply smoothed_first_entry_ignored; cbn [length]; auto; lia.
Qed.
Theorem C66_interior_in_range : forall x h o m lo hi, smoothable (length x) h -> smooths x h o -> (h <= m)%nat -> (m + h < length x)%nat ->
  (forall v, In v x -> lo <= v <= hi) -> lo <= nth m o 0 <= hi.
Proof. intros x h o m lo hi HS Ho H1 H2 HB. rewrite (smooths_nth x h o m HS Ho) by lia. destruct HS as (_ & HS & _). apply smoothed_interior_in_range; auto. Qed.
Theorem C66_monotone : forall x h o m, smoothable (length x) h -> smooths x h o -> (m + 1 < length x)%nat ->
  (forall p, (p + 1 < length x)%nat -> nth p x 0 <= nth (p + 1) x 0) -> nth m o 0 <= nth (m + 1) o 0.
Proof. intros x h o m HS Ho Hm HI. rewrite !(smooths_nth x h o) by (auto; lia). destruct HS as (_ & H1 & H2). apply smoothed_monotone; auto. Qed.
Theorem C66_edge_range_refuted : exists x h, Nat.even (length x) = true /\ (1 <= h)%nat /\ (2 * h + 2 <= length x)%nat /\
  (forall v, In v x -> 0 <= v) /\ exists l, fftsmooth XRA exact_spectral (map Fin x) (2 * h) = Ok (map Fin l) /\ Exists (fun v => v < 0) l.
Proof.
  exists [0; 0; 0; 4]. exists 1%nat. split; [reflexivity|]. split; [lia|]. split; [cbn; lia|].
  split. { intros v [<-|[<-|[<-|[<-|[]]]]]; lra. }
  eexists. split; [apply (C66_moving_average [0; 0; 0; 4] 1); [reflexivity|lia|cbn; lia]|]. cbn [length seq map].
  apply Exists_cons_hd. unfold smoothed, moving_average. cbn [length Nat.ltb Nat.leb Nat.add Nat.sub Nat.mul seq map nth Rsum INR]. lra.
Qed.
Example C66_case : fftsmooth XRA exact_spectral (map Fin [7; 2; 4; 8; 10; 12]) 2 = Ok (map Fin [0; 3; 6; 9; 11; 13]).
Proof.
  change 2%nat with (2 * 1)%nat. rewrite (C66_moving_average [7; 2; 4; 8; 10; 12] 1); [|reflexivity|lia|cbn; lia]. do 2 f_equal. cbn [length seq map].
  unfold smoothed, moving_average. cbn [length Nat.ltb Nat.leb Nat.add Nat.sub Nat.mul seq map nth Rsum INR]. repeat f_equal; lra.
Qed.
