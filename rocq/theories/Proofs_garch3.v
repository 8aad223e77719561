(** EWMA, backcast and variance bounds *)
From Coq Require Import Reals Lra List ZArith Lia Bool Arith.
From Verif Require Import Arith XR RealAux Model_garch Spec_garch Proofs_garch Proofs_garch2.
Import ListNotations.
Local Open Scope R_scope.

(** ** EWMA *)
Fixpoint ewR (lam prev : R) (l : list R) : list R :=
  match l with [] => [] | x :: l' => let v := lam * prev + (1 - lam) * x in v :: ewR lam v l' end.
Lemma ewma_loop_fin lam prev l :
  ewma_loop XRA (Fin lam) (Fin prev) (map Fin l) = map Fin (ewR lam prev l).
Proof. revert prev; induction l; intros; simpl; auto. f_equal. apply IHl. Qed.
Definition ewmaR lam v0 (rs : list R) : list R := v0 :: ewR lam v0 (removelast (map (fun r => r * r) rs)).
Lemma map_sq_fin rs : map (nsq (a:=XRA)) (map Fin rs) = map Fin (map (fun r => r * r) rs).
Proof. rewrite !map_map; reflexivity. Qed.
Lemma ewma_fin rs v0 lam : rs <> [] ->
  ewma_py XRA (map Fin rs) (Fin v0) (Fin lam) = Ok (map Fin (ewmaR lam v0 rs)).
Proof.
  intros H. unfold ewma_py, ewmaR. rewrite map_sq_fin, removelast_map, ewma_loop_fin.
  destruct rs; [tauto|]. reflexivity.
Qed.
Lemma ewR_length lam prev l : length (ewR lam prev l) = length l.
Proof. revert prev; induction l; intros; simpl; auto. Qed.
Lemma ewmaR_length lam v0 rs : rs <> [] -> length (ewmaR lam v0 rs) = length rs.
Proof.
  intros H. unfold ewmaR. simpl. rewrite ewR_length, removelast_length, map_length.
  destruct rs; simpl; [tauto|lia].
Qed.
Lemma ewR_step lam l : forall prev t, (t < length l)%nat ->
  nth t (ewR lam prev l) 0 = lam * nth t (prev :: ewR lam prev l) 0 + (1 - lam) * nth t l 0.
Proof.
  induction l as [|x l IH]; intros prev t Ht; simpl in *; [lia|].
  destruct t; auto. apply IH; lia.
Qed.
Lemma ewmaR_step lam v0 rs t : (S t < length rs)%nat ->
  nth (S t) (ewmaR lam v0 rs) 0 = lam * nth t (ewmaR lam v0 rs) 0 + (1 - lam) * (nth t rs 0) ^ 2.
Proof.
  intros H. unfold ewmaR. change (nth (S t) (v0 :: ?l) 0) with (nth t l 0).
  rewrite ewR_step by (rewrite removelast_length, map_length; lia).
  rewrite removelast_nth by (rewrite map_length; lia).
  f_equal. f_equal. 
  change 0 with ((fun r => r * r) 0) at 1 || idtac.
  rewrite (nth_indep _ 0 ((fun r => r * r) 0)) by (rewrite map_length; lia).
  rewrite (map_nth (fun r => r * r)). simpl. ring.
Qed.
Lemma Rsum_seq_S f n : Rsum (map f (seq 0 (S n))) = Rsum (map f (seq 0 n)) + f n.
Proof. rewrite seq_S, map_app, Rsum_app. simpl. lra. Qed.
Lemma ewmaR_closed lam v0 rs t : (t < length rs)%nat ->
  nth t (ewmaR lam v0 rs) 0 =
  lam ^ t * v0 + (1 - lam) * Rsum (map (fun i => lam ^ (t - 1 - i) * (nth i rs 0) ^ 2) (seq 0 t)).
Proof.
  induction t as [|t IH]; intros Ht.
  - simpl. lra.
  - rewrite ewmaR_step by auto. rewrite IH by lia. rewrite Rsum_seq_S.
    replace (S t - 1 - t)%nat with 0%nat by lia.
    replace (Rsum (map (fun i => lam ^ (S t - 1 - i) * nth i rs 0 ^ 2) (seq 0 t)))
      with (lam * Rsum (map (fun i => lam ^ (t - 1 - i) * nth i rs 0 ^ 2) (seq 0 t))).
    { simpl. ring. }
    rewrite <- Rsum_mult_l. apply Rsum_map_ext. intros i Hi. apply in_seq in Hi.
    replace (S t - 1 - i)%nat with (S (t - 1 - i)) by lia. simpl. ring.
Qed.
Lemma ewmaR_range lam v0 rs lo hi t : (t < length rs)%nat -> 0 <= lam <= 1 ->
  lo <= v0 <= hi -> (forall i, (i < t)%nat -> lo <= (nth i rs 0) ^ 2 <= hi) ->
  lo <= nth t (ewmaR lam v0 rs) 0 <= hi.
Proof.
  induction t as [|t IH]; intros Ht Hl H0 Hr; [simpl; lra|].
  rewrite ewmaR_step by auto.
  assert (lo <= nth t (ewmaR lam v0 rs) 0 <= hi) by (apply IH; auto; lia).
  assert (lo <= nth t rs 0 ^ 2 <= hi) by (apply Hr; lia).
  set (a := nth t (ewmaR lam v0 rs) 0) in *. set (b := nth t rs 0 ^ 2) in *.
  assert (lam * lo <= lam * a) by (apply Rmult_le_compat_l; lra).
  assert (lam * a <= lam * hi) by (apply Rmult_le_compat_l; lra).
  assert ((1 - lam) * lo <= (1 - lam) * b) by (apply Rmult_le_compat_l; lra).
  assert ((1 - lam) * b <= (1 - lam) * hi) by (apply Rmult_le_compat_l; lra).
  lra.
Qed.

(** ** decay weights *)
Lemma decay_fin n : decay_weights XRA n = map Fin (map ew_weight (seq 0 n)).
Proof.
  unfold decay_weights. rewrite map_map. apply map_ext. intros i.
  cbn [npow lit ofZ XRA]. rewrite xpow_fin by lra.
  rewrite <- INR_IZR_INZ, Rpower_pow by lra. reflexivity.
Qed.
Lemma ew_weight_pos i : 0 < ew_weight i.
Proof. apply pow_lt; lra. Qed.
Lemma ew_weight_decr i : ew_weight (S i) < ew_weight i.
Proof. unfold ew_weight; simpl. pose proof (ew_weight_pos i). unfold ew_weight in *. lra. Qed.
Lemma ew_total_pos n : (0 < n)%nat -> 0 < Rsum (map ew_weight (seq 0 n)).
Proof.
  intros H. apply Rsum_pos with (x := ew_weight 0).
  - intros y Hy; apply in_map_iff in Hy as (i & <- & _). left; apply ew_weight_pos.
  - apply in_map. apply in_seq; lia.
  - apply ew_weight_pos.
Qed.
Lemma pysum_fin l : pysum XRA (map Fin l) = Fin (Rsum l).
Proof. unfold pysum. cbn [nadd ofZ XRA]. rewrite xsum_fin_acc. f_equal. lra. Qed.

Lemma map2_seq {Y} (f : nat -> R -> Y) n m (rs : list R) :
  length rs = n ->
  map2 f (seq m n) rs = map (fun i => f (m + i)%nat (nth i rs 0)) (seq 0 n).
Proof.
  revert m rs; induction n; intros m rs HL; destruct rs; simpl in *; try lia; auto.
  f_equal; [f_equal; lia|]. rewrite IHn by lia. rewrite <- seq_shift, map_map.
  apply map_ext; intros; f_equal; lia.
Qed.
Lemma nth_firstn {X} (l : list X) n i d : (i < n)%nat -> nth i (firstn n l) d = nth i l d.
Proof.
  revert l i; induction n; intros l i H; [lia|]. destruct l; simpl; auto.
  destruct i; auto. apply IHn; lia.
Qed.
Lemma weighted_sq n rs (W : R) : (n <= length rs)%nat -> W <> 0 ->
  Rsum (map2 Rmult (map (fun x => x / W) (map ew_weight (seq 0 n)))
                   (map (fun r => r * r) (firstn n rs)))
  = Rsum (map (fun i => ew_weight i * nth i rs 0 ^ 2) (seq 0 n)) / W.
Proof.
  intros HL HW. rewrite map_map, map2_map.
  rewrite (map2_seq (fun i r => ew_weight i / W * (r * r))) by (rewrite firstn_length; lia).
  unfold Rdiv. rewrite <- Rsum_scal_r, map_map. apply Rsum_map_ext.
  intros i Hi. apply in_seq in Hi. rewrite nth_firstn by lia. simpl. ring.
Qed.
Lemma map_div_fin l c : c <> 0 -> map (fun x => xdiv x (Fin c)) (map Fin l) = map Fin (map (fun x => x / c) l).
Proof. intros H. rewrite !map_map. apply map_ext; intros; apply xdiv_fin; auto. Qed.
Lemma map2_mul_fin l m : map2 xmul (map Fin l) (map Fin m) = map Fin (map2 Rmult l m).
Proof. rewrite map2_map, map_map2. reflexivity. Qed.
Lemma map2_comm (l m : list R) : map2 Rmult l m = map2 Rmult m l.
Proof. revert m; induction l; destruct m; simpl; auto. f_equal; auto. ring. Qed.
Lemma firstn_map' {X Y} (f : X -> Y) n l : firstn n (map f l) = map f (firstn n l).
Proof. revert l; induction n; destruct l; simpl; auto. f_equal; auto. Qed.

Lemma backcast_fin rs : rs <> [] ->
  backcast_py XRA (map Fin rs) = Fin (ew_average (Nat.min 75 (length rs)) rs).
Proof.
  intros Hn. unfold backcast_py. rewrite map_length.
  set (n := Nat.min 75 (length rs)).
  assert (0 < n)%nat by (destruct rs; [tauto|]; subst n; simpl; lia).
  pose proof (ew_total_pos n H) as HP.
  rewrite decay_fin, pysum_fin. cbn [ndiv XRA]. rewrite map_div_fin by lra.
  rewrite firstn_map', map_sq_fin. cbn [nmul XRA]. rewrite map2_mul_fin, asum_fin.
  rewrite map2_comm, weighted_sq; [reflexivity|subst n; lia|lra].
Qed.

Lemma ew_average_range n rs lo hi : (0 < n)%nat ->
  (forall i, (i < n)%nat -> lo <= nth i rs 0 ^ 2 <= hi) -> lo <= ew_average n rs <= hi.
Proof.
  intros Hn H. unfold ew_average. pose proof (ew_total_pos n Hn).
  split; [apply le_div_iff|apply div_le_iff]; auto.
  - rewrite <- Rsum_mult_l. apply Rsum_le. intros i Hi. apply in_seq in Hi.
    rewrite Rmult_comm. apply Rmult_le_compat_l. left; apply ew_weight_pos. apply H; lia.
  - rewrite <- Rsum_mult_l. apply Rsum_le. intros i Hi. apply in_seq in Hi.
    rewrite (Rmult_comm hi). apply Rmult_le_compat_l. left; apply ew_weight_pos. apply H; lia.
Qed.
Lemma ew_average_nonneg n rs : (0 < n)%nat -> 0 <= ew_average n rs.
Proof.
  intros Hn. unfold ew_average. pose proof (ew_total_pos n Hn).
  apply Rmult_le_pos; [|left; apply Rinv_0_lt_compat; auto].
  apply Rsum_nonneg. intros y Hy; apply in_map_iff in Hy as (i & <- & _).
  apply Rmult_le_pos; [left; apply ew_weight_pos|]. simpl. rewrite Rmult_1_r. apply sqr_nonneg.
Qed.
Lemma ew_average_pos n rs i : (i < n)%nat -> nth i rs 0 <> 0 -> 0 < ew_average n rs.
Proof.
  intros Hn Hi. unfold ew_average. pose proof (ew_total_pos n ltac:(lia)).
  apply Rdiv_lt_0_compat; auto.
  apply Rsum_pos with (x := ew_weight i * nth i rs 0 ^ 2).
  - intros y Hy; apply in_map_iff in Hy as (j & <- & _).
    apply Rmult_le_pos; [left; apply ew_weight_pos|]. simpl. rewrite Rmult_1_r. apply sqr_nonneg.
  - apply in_map_iff. exists i; split; auto. apply in_seq; lia.
  - apply Rmult_lt_0_compat; [apply ew_weight_pos|]. simpl. rewrite Rmult_1_r.
    pose proof (sqr_nonneg (nth i rs 0)).
    destruct (Req_dec (nth i rs 0 * nth i rs 0) 0) as [E|E]; [|lra].
    apply Rmult_integral in E; tauto.
Qed.

(** ** variance bounds *)
Lemma npmax_fin a b : npmax XRA (Fin a) (Fin b) = Fin (Rmax a b).
Proof.
  unfold npmax. cbn. unfold Rmax. destruct (Rlt_dec a b), (Rle_dec a b); auto; try lra.
  f_equal; lra.
Qed.
Lemma npmin_fin a b : npmin XRA (Fin a) (Fin b) = Fin (Rmin a b).
Proof.
  unfold npmin. cbn. unfold Rmin. destruct (Rlt_dec b a), (Rle_dec a b); auto; lra.
Qed.
Lemma fold_npmax_fin l a : fold_left (npmax XRA) (map Fin l) (Fin a) = Fin (fold_left Rmax l a).
Proof. revert a; induction l; intros; cbn [map fold_left]; auto. rewrite npmax_fin; apply IHl. Qed.
Lemma amax_fin l : l <> [] -> amax XRA (map Fin l) = Ok (Fin (Rmaxl l)).
Proof. destruct l; [tauto|]. intros _. simpl. rewrite fold_npmax_fin. reflexivity. Qed.
Lemma fold_Rmax_ge l : forall a x, In x (a :: l) -> x <= fold_left Rmax l a.
Proof.
  induction l as [|b l IH]; intros a x H; simpl in *; [destruct H; [lra|tauto]|].
  destruct H as [->|[->|H]].
  - eapply Rle_trans; [apply Rmax_l|]. apply IH; left; reflexivity.
  - eapply Rle_trans; [apply Rmax_r|]. apply IH; left; reflexivity.
  - apply IH; right; auto.
Qed.
Lemma Rmaxl_ge l x : In x l -> x <= Rmaxl l.
Proof. destruct l; [simpl; tauto|]. apply fold_Rmax_ge. Qed.
Lemma fold_Rmax_in l : forall a, In (fold_left Rmax l a) (a :: l).
Proof.
  induction l as [|b l IH]; intros a; simpl; [auto|].
  destruct (IH (Rmax a b)) as [E|E]; [|auto].
  rewrite <- E. unfold Rmax. destruct (Rle_dec a b); auto.
Qed.
Lemma Rmaxl_in l : l <> [] -> In (Rmaxl l) l.
Proof. destruct l; [tauto|]. intros _; apply fold_Rmax_in. Qed.

Lemma Rvar_le_max_sq rs : rs <> [] -> Rvar rs <= Rmaxl (map (fun r => r * r) rs).
Proof.
  intros Hn. assert (Rvar rs <= Rmean (map (fun r => r * r) rs)).
  { unfold Rvar.
    rewrite (Rmean_map_ext _ (fun x => (x * x - 2 * Rmean rs * x) + Rmean rs * Rmean rs))
      by (intros; ring).
    rewrite Rmean_plus, Rmean_minus, Rmean_const by auto.
    rewrite (Rmean_scal (2 * Rmean rs)).
    pose proof (sqr_nonneg (Rmean rs)). lra. }
  eapply Rle_trans; [exact H|].
  apply (Rmean_bounds _ 0).
  - destruct rs; [tauto|discriminate].
  - intros x Hx. split; [|apply Rmaxl_ge; auto].
    apply in_map_iff in Hx as (r & <- & _). apply sqr_nonneg.
Qed.

Definition vbR (rs : list R) (t : nat) : R :=
  Rmax (nth t (ewmaR (94/100) (ew_average (Nat.min 75 (length rs)) rs) rs) 0) (Rvar rs / 100000000).

Lemma variance_bounds_fin rs : rs <> [] ->
  variance_bounds XRA (map Fin rs) =
  Ok (map finrow (map (fun t => (vbR rs t / 1000000, vbR rs t * 1000000)) (seq 0 (length rs)))).
Proof.
  intros Hn. unfold variance_bounds. rewrite map_length.
  set (n := Nat.min 75 (length rs)).
  assert (Hn0 : (0 < n)%nat) by (destruct rs; [tauto|]; subst n; simpl; lia).
  pose proof (ew_total_pos n Hn0) as HP.
  rewrite decay_fin, asum_fin. cbn [ndiv XRA]. rewrite map_div_fin by lra.
  rewrite firstn_map', map_sq_fin. cbn [nmul XRA]. rewrite map2_mul_fin, asum_fin.
  rewrite weighted_sq; [|subst n; lia|lra].
  fold (ew_average n rs).
  change (lit (a:=XRA) 94 100) with (Fin (94 / 100)).
  rewrite ewma_fin by auto. cbn [bind].
  rewrite avar_fin by auto.
  rewrite map_sq_fin, amax_fin. 2:{ destruct rs; [tauto|discriminate]. }
  cbn [bind]. f_equal.
  set (M := Rmaxl (map (fun r => r * r) rs)).
  assert (HM : forall i, (i < length rs)%nat -> nth i rs 0 ^ 2 <= M).
  { intros i Hi. apply Rmaxl_ge. apply in_map_iff. exists (nth i rs 0). split; [simpl; ring|].
    apply nth_In; auto. }
  assert (HM0 : 0 <= M).
  { eapply Rle_trans; [apply Rvar_nonneg|]. apply Rvar_le_max_sq; auto. }
  assert (HE : forall t, (t < length rs)%nat ->
     nth t (ewmaR (94/100) (ew_average n rs) rs) 0 <= M).
  { intros t Ht. apply (ewmaR_range (94/100) (ew_average n rs) rs 0 M t); auto; try lra.
    - split; [apply ew_average_nonneg; auto|]. apply (ew_average_range n rs 0 M); auto.
      intros i Hi. split; [simpl; rewrite Rmult_1_r; apply sqr_nonneg|]. apply HM; subst n; lia.
    - intros i Hi. split; [simpl; rewrite Rmult_1_r; apply sqr_nonneg|]. apply HM; lia. }
  rewrite !map_map.
  assert (HL : length (ewmaR (94/100) (ew_average n rs) rs) = length rs) by (apply ewmaR_length; auto).
  set (E := ewmaR (94/100) (ew_average n rs) rs) in *.
  assert (HV : forall t, (t < length rs)%nat ->
     npclip XRA (Fin (nth t E 0)) (xdiv (Fin (Rvar rs)) (Fin 100000000)) (xmul (Fin 10000000) (xadd (Fin 1) (Fin M)))
     = Fin (vbR rs t)).
  { intros t Ht. unfold npclip. cbn [xmul xadd]. rewrite xdiv_fin by lra.
    rewrite npmax_fin, npmin_fin. f_equal. unfold vbR. fold n. fold E.
    apply Rmin_left. apply Rmax_lub.
    - specialize (HE t Ht). lra.
    - pose proof (Rvar_le_max_sq rs Hn). fold M in H. pose proof (Rvar_nonneg rs). lra. }
  assert (HEQ : forall (l : list R) k, (forall j, (j < length l)%nat -> nth j l 0 = nth (k + j) E 0) -> (k + length l = length rs)%nat ->
    map (fun x => finrow (fin_val (npclip XRA (Fin x) (xdiv (Fin (Rvar rs)) (Fin 100000000)) (xmul (Fin 10000000) (xadd (Fin 1) (Fin M)))) / 1000000,
       fin_val (npclip XRA (Fin x) (xdiv (Fin (Rvar rs)) (Fin 100000000)) (xmul (Fin 10000000) (xadd (Fin 1) (Fin M)))) * 1000000)) l
    = map (fun t => finrow (vbR rs t / 1000000, vbR rs t * 1000000)) (seq k (length l))).
  { induction l as [|x l IH]; intros k H1 H2; cbn [length map seq] in *; auto.
    assert (Ex : x = nth k E 0). { specialize (H1 0%nat). rewrite Nat.add_0_r in H1. apply H1. lia. }
    f_equal.
    - rewrite Ex. rewrite HV by lia. reflexivity.
    - apply IH; [|lia]. intros j Hj. specialize (H1 (S j) ltac:(lia)). simpl nth in H1. rewrite H1. replace (k + S j)%nat with (S k + j)%nat by lia. reflexivity. }
  rewrite <- HL.
  rewrite <- (HEQ E 0%nat); [|intros; reflexivity|exact HL].
  apply map_ext_in. intros x Hx.
  destruct (In_nth E x 0 Hx) as (t & Ht & <-).
  assert (Ht2 : (t < length rs)%nat) by (rewrite <- HL; exact Ht). rewrite !(HV t Ht2). cbn [fin_val].
  transitivity (xdiv (Fin (vbR rs t)) (Fin 1000000), xmul (Fin (vbR rs t)) (Fin 1000000)).
  { rewrite <- (HV t Ht2). reflexivity. }
  rewrite xdiv_fin by lra. reflexivity.
Qed.

Lemma vbR_pos rs t : (exists x, In x rs /\ x <> 0) -> (t < length rs)%nat -> 0 < vbR rs t.
Proof.
  intros (x & Hx & Hx0) Ht. unfold vbR.
  assert (Hn : rs <> []) by (destruct rs; [simpl in Hx; tauto|discriminate]).
  destruct (Req_dec (Rvar rs) 0) as [E|E].
  - (* constant, non-zero *)
    pose proof (proj1 (Rvar_zero_iff rs Hn) E) as HC.
    assert (Hc : Rmean rs <> 0) by (rewrite <- (HC x Hx); auto).
    eapply Rlt_le_trans; [|apply Rmax_l].
    assert (Hsq : 0 < Rmean rs ^ 2).
    { simpl. rewrite Rmult_1_r. pose proof (sqr_nonneg (Rmean rs)).
      destruct (Req_dec (Rmean rs * Rmean rs) 0) as [E2|E2]; [|lra]. apply Rmult_integral in E2; tauto. }
    eapply Rlt_le_trans; [exact Hsq|].
    assert (HI : forall i, (i < length rs)%nat -> nth i rs 0 ^ 2 = Rmean rs ^ 2).
    { intros i Hi. rewrite (HC (nth i rs 0)); auto. apply nth_In; auto. }
    eapply (ewmaR_range (94/100) _ rs (Rmean rs ^ 2) (Rmean rs ^ 2) t); auto; try lra.
    + apply ew_average_range.
      * destruct rs; [tauto|]; simpl; lia.
      * intros i Hi. rewrite HI by lia. lra.
    + intros i Hi. rewrite HI by lia. lra.
  - pose proof (Rvar_nonneg rs). eapply Rlt_le_trans; [|apply Rmax_r]. lra.
Qed.
