(** * Theorems: distress insurance premium (C41-C43) *)
From Coq Require Import Reals Lra ZArith List Bool Arith Lia.
From Verif Require Import Arith XR RealAux Model_dip.
Import ListNotations.
Local Open Scope R_scope.

(** math.ceil and int() on real numbers *)
Definition Rfloor (r : R) : Z := Int_part r.
Definition Rceil (r : R) : Z := (- Int_part (- r))%Z.
Definition Rtrunc (r : R) : Z := if Rle_dec 0 r then Rfloor r else Rceil r.
Definition xceil (x : xr) : Z := match x with Fin r => Rceil r | _ => 0%Z end.
Definition xtrunc (x : xr) : Z := match x with Fin r => Rtrunc r | _ => 0%Z end.
Lemma Rfloor_spec r : IZR (Rfloor r) <= r < IZR (Rfloor r) + 1.
Proof. unfold Rfloor. destruct (base_Int_part r). lra. Qed.
Lemma Rfloor_unique r z : IZR z <= r < IZR z + 1 -> Rfloor r = z.
Proof.
  intros H. assert (H' := Rfloor_spec r). assert (A1 : (z < Rfloor r + 1)%Z) by (apply lt_IZR; rewrite plus_IZR; lra).
  assert (A2 : (Rfloor r < z + 1)%Z) by (apply lt_IZR; rewrite plus_IZR; lra). lia.
Qed.
Lemma Rceil_spec r : r <= IZR (Rceil r) < r + 1.
Proof. unfold Rceil. rewrite opp_IZR. destruct (base_Int_part (- r)). lra. Qed.
Lemma Rceil_le r z : (Rceil r <= z)%Z <-> r <= IZR z.
Proof.
  assert (H := Rceil_spec r). split; intros Hz.
  - apply IZR_le in Hz. lra.
  - assert ((Rceil r < z + 1)%Z); [|lia]. apply lt_IZR. rewrite plus_IZR. lra.
Qed.
Lemma Rceil_ge r z : (z <= Rceil r)%Z <-> IZR z - 1 < r.
Proof.
  assert (H := Rceil_spec r). split; intros Hz.
  - apply IZR_le in Hz. lra.
  - assert ((z < Rceil r + 1)%Z); [|lia]. apply lt_IZR. rewrite plus_IZR. lra.
Qed.

(** ** The simulated quantities, as real numbers *)
Section Sim.
(** [n] banks, [N] joint-default simulations, [m] loss simulations *)
Variables (thresholds : list xr) (z : list (list xr)) (m : nat) (T : nat -> list (list R)).
Let n := length thresholds.
(** number of simulated states of the world with exactly i defaults, and its frequency *)
Definition times (i : nat) : nat := length (filter (fun row => Nat.eqb (n_defaults XRA thresholds row) i) z).
Definition freq (i : nat) : R := INR (times i) / INR (length z).
(** total loss given i+1 defaults in loss simulation j, and its slot (percent, rounded up) *)
Definition loss (i j : nat) : R := Rsum (map (fun row => nth j row 0) (T i)).
Definition slot (i j : nat) : Z := Rceil (loss i j * 100).
Definition pairs : list (nat * nat) := flat_map (fun i => map (fun j => (i, j)) (seq 0 m)) (seq 0 n).
(** average over the simulations of (slot in percent) * P(i+1 defaults), restricted to slots >= s *)
Definition tail_mass (s : Z) : R :=
  Rsum (map (fun q => if (s <=? slot (fst q) (snd q))%Z then freq (fst q + 1) else 0) pairs) / INR m.
Definition tail_loss (s : Z) : R :=
  Rsum (map (fun q => if (s <=? slot (fst q) (snd q))%Z then IZR (slot (fst q) (snd q)) / 100 * freq (fst q + 1) else 0) pairs) / INR m.
Definition dip (thr : R) (uninit : list (list xr)) : res xr :=
  estimate_dip XRA xceil xtrunc thresholds (Fin thr) z m (fun i => map (map Fin) (T i)) uninit.
End Sim.

(** ** Joint default frequencies *)
Lemma n_defaults_le th row : (n_defaults XRA th row <= length th)%nat.
Proof.
  unfold n_defaults. assert (H : forall {X} (p : X -> bool) l, (length (filter p l) <= length l)%nat) by (intros; induction l; cbn; auto; destruct (p a); cbn; lia).
  eapply Nat.le_trans; [apply H|]. rewrite map2_length. lia.
Qed.
Lemma times_total {X} (f : X -> nat) (l : list X) k : (forall x, In x l -> f x <= k)%nat ->
  list_sum (map (fun i => length (filter (fun x => Nat.eqb (f x) i) l)) (seq 0 (k + 1))) = length l.
Proof.
  induction l as [|x l IH]; intros H.
  - cbn [filter length]. induction (seq 0 (k + 1)); cbn in *; auto.
  - assert (E : forall s len, (list_sum (map (fun i => length (filter (fun x0 => Nat.eqb (f x0) i) (x :: l))) (seq s len))
         = (if (s <=? f x) && (f x <? s + len) then 1 else 0) + list_sum (map (fun i => length (filter (fun x0 => Nat.eqb (f x0) i) l)) (seq s len)))%nat).
    { intros s len. revert s. induction len as [|len IHl]; intros s.
      - cbn [seq map list_sum fold_right]. replace (s + 0)%nat with s by lia. destruct (s <=? f x) eqn:E1, (f x <? s) eqn:E2; cbn [andb]; auto.
        apply Nat.leb_le in E1. apply Nat.ltb_lt in E2. lia.
      - unfold list_sum in *. cbn [seq map fold_right]. rewrite IHl. cbn [filter]. destruct (f x =? s) eqn:E0; cbn [length].
        + apply Nat.eqb_eq in E0. replace (S s <=? f x) with false by (symmetry; apply Nat.leb_gt; lia).
          replace (s <=? f x) with true by (symmetry; apply Nat.leb_le; lia).
          replace (f x <? s + S len) with true by (symmetry; apply Nat.ltb_lt; lia). cbn [andb]. lia.
        + apply Nat.eqb_neq in E0. 
          replace ((S s <=? f x) && (f x <? S s + len)) with ((s <=? f x) && (f x <? s + S len)); [lia|].
          apply eq_true_iff_eq. rewrite !andb_true_iff, !Nat.leb_le, !Nat.ltb_lt. lia. }
    rewrite E, IH by (intros; apply H; right; auto).
    specialize (H x ltac:(left; auto)). replace (0 <=? f x)%nat with true by reflexivity.
    replace (f x <? 0 + (k + 1))%nat with true by (symmetry; apply Nat.ltb_lt; lia). reflexivity.
Qed.
Theorem C41_frequencies_sum_to_one : forall thresholds z, z <> [] ->
  Rsum (map (freq thresholds z) (seq 0 (length thresholds + 1))) = 1 /\ forall i, 0 <= freq thresholds z i <= 1.
Proof.
  intros th z Hz. assert (HN := INR_len_pos z Hz). split.
  - unfold freq, Rdiv. rewrite (Rsum_map_ext _ (fun i => / INR (length z) * INR (times th z i))) by (intros; ring).
    rewrite (Rsum_mult_l (/ INR (length z)) (fun i => INR (times th z i))).
    assert (E : Rsum (map (fun i => INR (times th z i)) (seq 0 (length th + 1))) = INR (length z)); [|rewrite E; field; lra].
    assert (ET := times_total (X:=list xr) (n_defaults XRA th) z (length th) ltac:(intros; apply n_defaults_le)).
    rewrite <- ET at 1. fold (times th z). clear ET. generalize (seq 0 (length th + 1)). induction l as [|a l IH]; [reflexivity|].
    unfold list_sum in *. cbn [map Rsum fold_right]. rewrite plus_INR, IH. reflexivity.
  - intros i. unfold freq. assert (H := pos_INR (times th z i)). split; [apply Rmult_le_pos; auto; left; apply Rinv_0_lt_compat; auto|].
    apply div_le_iff; auto. rewrite Rmult_1_l. apply le_INR. unfold times.
    assert (HF : forall {X} (p : X -> bool) l, (length (filter p l) <= length l)%nat) by (intros; induction l; cbn; auto; destruct (p a); cbn; lia). apply HF.
Qed.
Lemma dist_fin th z : z <> [] -> dist_joint_defaults XRA (length th) th z = map (fun i => Fin (freq th z i)) (seq 0 (length th + 1)).
Proof.
  intros Hz. unfold dist_joint_defaults. apply map_ext. intros i. cbn [ofZ ndiv XRA]. rewrite <- !INR_IZR_INZ.
  rewrite xdiv_fin by (apply Rgt_not_eq, INR_len_pos; auto). reflexivity.
Qed.
(** ** Loss rows: the block assignment leaves row i with its own draws *)
Lemma assign_from_length {X} (l : list X) i v : length (assign_from l i v) = length l.
Proof. revert i; induction l; intros [|i]; cbn; auto. Qed.
Lemma assign_from_nth {X} (l : list X) i v j d : (j < length l)%nat -> nth j (assign_from l i v) d = if (i <=? j)%nat then v else nth j l d.
Proof.
  revert i j; induction l as [|x l IH]; intros i j Hj; cbn [length] in Hj; [lia|].
  destruct i, j; cbn [assign_from nth Nat.leb]; auto; rewrite IH by lia; auto.
Qed.
Lemma lgd_block {X} (rowf : nat -> X) n (u : list X) : length u = n ->
  fold_left (fun rows i => assign_from rows i (rowf i)) (seq 0 n) u = map rowf (seq 0 n).
Proof.
  intros Hl.
  assert (G : forall k, (k <= n)%nat -> let rows := fold_left (fun rows i => assign_from rows i (rowf i)) (seq 0 k) u in
            length rows = n /\ forall j d, (j < k)%nat -> nth j rows d = rowf j).
  { induction k as [|k IH]; intros Hk; cbn zeta.
    - split; auto. intros; lia.
    - rewrite seq_S, fold_left_app. cbn [fold_left plus]. destruct IH as [IH1 IH2]; [lia|].
      split; [rewrite assign_from_length; auto|]. intros j d Hj. rewrite assign_from_nth by lia.
      destruct (k <=? j)%nat eqn:E; [apply Nat.leb_le in E; f_equal; lia|apply Nat.leb_gt in E; apply IH2; lia]. }
  destruct (G n (Nat.le_refl n)) as [H1 H2]. destruct n as [|n].
  - destruct u; [reflexivity|discriminate].
  - apply (nth_ext _ _ (rowf 0%nat) (rowf 0%nat)); [rewrite map_length, seq_length; auto|].
    rewrite H1. intros j Hj. rewrite H2 by auto. rewrite map_nth, seq_nth by auto. reflexivity.
Qed.
Lemma lgd_row_fin m T i : lgd_row XRA m (map (map Fin) (T i)) = map (fun j => Fin (loss T i j)) (seq 0 m).
Proof.
  unfold lgd_row. apply map_ext. intros j. rewrite map_map. unfold loss.
  rewrite <- asum_fin. f_equal. rewrite map_map. apply map_ext. intros row. cbn [ofZ XRA].
  change (Fin 0) with (Fin (IZR 0)). exact (map_nth Fin row 0 j).
Qed.
Lemma losses_fin n m T u : length u = n ->
  loss_given_default XRA n m (fun i => map (map Fin) (T i)) u = map (fun i => map (fun j => Fin (loss T i j)) (seq 0 m)) (seq 0 n).
Proof.
  intros Hu. unfold loss_given_default. rewrite (lgd_block (fun i => lgd_row XRA m (map (map Fin) (T i)))) by auto.
  apply map_ext. intros i. apply lgd_row_fin.
Qed.
(** ** Filling the slots *)
Definition bump (l : list R) (ev : list (Z * R)) : list R :=
  map (fun k => nth k l 0 + Rsum (map (fun e => if (fst e =? Z.of_nat k)%Z then snd e else 0) ev)) (seq 0 (length l)).
Lemma bump_length l ev : length (bump l ev) = length l.
Proof. unfold bump. rewrite map_length, seq_length. reflexivity. Qed.
Lemma map_seq_nth {X Y} (f : X -> Y) l d : map (fun k => f (nth k l d)) (seq 0 (length l)) = map f l.
Proof. induction l as [|x l IH]; auto. cbn [length seq map nth]. rewrite <- seq_shift, map_map. f_equal. exact IH. Qed.
Lemma add_at_fin l i p : add_at XRA (map Fin l) i (Fin p) = map Fin (bump l [(Z.of_nat i, p)]).
Proof.
  assert (H : forall l i, add_at XRA (map Fin l) i (Fin p) = map Fin (map (fun k => nth k l 0 + (if (i =? k)%nat then p else 0)) (seq 0 (length l)))).
  { clear. induction l as [|x l IH]; intros i; [destruct i; reflexivity|]. cbn [length seq map]. rewrite <- seq_shift, !map_map.
    destruct i as [|i]; cbn [add_at map nth Nat.eqb].
    - f_equal. rewrite <- (map_seq_nth Fin l 0). apply map_ext. intros k. f_equal. lra.
    - rewrite (IH i), map_map. f_equal. f_equal. lra. }
  rewrite H. unfold bump. f_equal. apply map_ext. intros k. cbn [map Rsum fst snd].
  destruct (i =? k)%nat eqn:E.
  - apply Nat.eqb_eq in E. subst. rewrite Z.eqb_refl. lra.
  - replace (Z.of_nat i =? Z.of_nat k)%Z with false; [lra|]. symmetry. apply Z.eqb_neq. apply Nat.eqb_neq in E. lia.
Qed.
Lemma bump_bump l ev ev' : bump (bump l ev) ev' = bump l (ev ++ ev').
Proof.
  unfold bump at 1 3. rewrite bump_length. apply map_ext_in. intros k Hk. apply in_seq in Hk.
  rewrite map_app, Rsum_app. unfold bump.
  rewrite (nth_indep _ 0 ((fun k => nth k l 0 + Rsum (map (fun e => if (fst e =? Z.of_nat k)%Z then snd e else 0) ev)) 0%nat)) by (rewrite map_length, seq_length; lia).
  rewrite (map_nth (fun k => nth k l 0 + Rsum (map (fun e => if (fst e =? Z.of_nat k)%Z then snd e else 0) ev))), seq_nth by lia.
  cbn [plus]. lra.
Qed.
Lemma fill_ok l ev : (forall e, In e ev -> (0 <= fst e < Z.of_nat (length l))%Z) ->
  fill XRA (map Fin l) (map (fun e => (fst e, Fin (snd e))) ev) = Ok (map Fin (bump l ev)).
Proof.
  revert l. induction ev as [|[i p] ev IH]; intros l H.
  - cbn [map fill]. do 2 f_equal. unfold bump. cbn [map Rsum].
    rewrite <- (map_id l) at 1. rewrite <- (map_seq_nth (fun x => x) l 0). apply map_ext. intros k. lra.
  - cbn [map fst snd fill]. unfold increment. rewrite map_length. destruct (H (i, p)) as [H1 H2]; [left; auto|]. cbn [fst] in *.
    replace (0 <=? i)%Z with true by (symmetry; apply Z.leb_le; auto). replace (i <? Z.of_nat (length l))%Z with true by (symmetry; apply Z.ltb_lt; auto).
    cbn [andb bind]. rewrite add_at_fin, Z2Nat.id by auto. rewrite IH.
    + rewrite bump_bump. reflexivity.
    + intros e He. rewrite bump_length. apply H. right; auto.
Qed.
Lemma increment_err l i p : (Z.of_nat (length l) <= i)%Z -> increment XRA l i p = Err IndexError.
Proof.
  intros H. unfold increment. replace (i <? Z.of_nat (length l))%Z with false by (symmetry; apply Z.ltb_ge; auto).
  rewrite andb_false_r. replace (i <? 0)%Z with false by (symmetry; apply Z.ltb_ge; lia). rewrite andb_false_r. reflexivity.
Qed.
Lemma add_at_length l i p : length (add_at XRA l i p) = length l.
Proof. revert i; induction l; intros [|i]; cbn; auto. Qed.
Lemma fill_err l ev : (forall e, In e ev -> (0 <= fst e)%Z) -> (exists e, In e ev /\ (Z.of_nat (length l) <= fst e)%Z) ->
  fill XRA l ev = Err IndexError.
Proof.
  revert l. induction ev as [|[i p] ev IH]; intros l H (e&He&Hb); [destruct He|].
  cbn [fill]. destruct (Z_lt_le_dec i (Z.of_nat (length l))) as [Hi|Hi].
  - assert (Hi0 := H (i, p) ltac:(left; auto)). cbn [fst] in Hi0. unfold increment.
    replace (0 <=? i)%Z with true by (symmetry; apply Z.leb_le; auto). replace (i <? Z.of_nat (length l))%Z with true by (symmetry; apply Z.ltb_lt; auto).
    cbn [andb bind]. apply IH; [intros; apply H; right; auto|]. destruct He as [<-|He]; [cbn [fst] in Hb; lia|].
    exists e. rewrite add_at_length. auto.
  - rewrite increment_err by auto. reflexivity.
Qed.
(** ** Assembly *)
Definition events (th : list xr) (z : list (list xr)) (m : nat) (T : nat -> list (list R)) : list (Z * R) :=
  map (fun q => (slot T (fst q) (snd q), freq th z (fst q + 1))) (pairs th m).
Lemma nth_map_seq_fin (f : nat -> R) len i d : (i < len)%nat -> nth i (map (fun i => Fin (f i)) (seq 0 len)) d = Fin (f i).
Proof.
  intros H. rewrite (nth_indep _ d ((fun i => Fin (f i)) 0%nat)) by (rewrite map_length, seq_length; auto).
  rewrite (map_nth (fun i => Fin (f i))), seq_nth by auto. reflexivity.
Qed.
Lemma slots_fin th z m T : z <> [] ->
  slots_of XRA xceil (map (fun i => Fin (freq th z i)) (seq 0 (length th + 1)))
    (map (fun i => map (fun j => Fin (loss T i j)) (seq 0 m)) (seq 0 (length th)))
  = map (fun e => (fst e, Fin (snd e))) (events th z m T).
Proof.
  intros Hz. unfold slots_of, events, pairs. rewrite map_length, seq_length.
  assert (G : forall s k, (s + k <= length th)%nat ->
     concat (map2 (fun i row => map (fun x => (xceil (xmul x (Fin 100)), nth (i + 1) (map (fun i => Fin (freq th z i)) (seq 0 (length th + 1))) (Fin 0))) row)
       (seq s k) (map (fun i => map (fun j => Fin (loss T i j)) (seq 0 m)) (seq s k)))
     = map (fun e => (fst e, Fin (snd e))) (map (fun q => (slot T (fst q) (snd q), freq th z (fst q + 1))) (flat_map (fun i => map (fun j => (i, j)) (seq 0 m)) (seq s k)))).
  { intros s k; revert s. induction k as [|k IH]; intros s Hk; auto.
    cbn [seq map map2 concat flat_map]. rewrite IH by lia. rewrite !map_app. f_equal.
    rewrite !map_map. apply map_ext. intros j. cbn [fst snd].
    rewrite nth_map_seq_fin by lia. reflexivity. }
  apply G. lia.
Qed.
Lemma slots_nonneg_ok th z m T : (forall i j, (i < length th)%nat -> (j < m)%nat -> 0 <= loss T i j <= INR (length th) - 1/100) ->
  forall e, In e (events th z m T) -> (0 <= fst e < Z.of_nat (length th * 100))%Z.
Proof.
  intros H e He. unfold events, pairs in He. apply in_map_iff in He. destruct He as ([i j]&<-&Hq).
  apply in_flat_map in Hq. destruct Hq as (i'&Hi&Hq). apply in_map_iff in Hq. destruct Hq as (j'&E&Hj). injection E as -> ->.
  apply in_seq in Hi, Hj. cbn [fst snd]. unfold slot. assert (HH := H i j ltac:(lia) ltac:(lia)). split.
  - apply Rceil_ge. lra.
  - assert ((Rceil (loss T i j * 100) <= Z.of_nat (length th * 100) - 1)%Z); [|lia].
    apply Rceil_le. rewrite minus_IZR, <- INR_IZR_INZ, mult_INR. replace (INR 100) with 100 by (simpl; lra). lra.
Qed.
Lemma repeat_fin k : repeat (Fin 0) k = map Fin (repeat 0 k).
Proof. induction k; cbn; f_equal; auto. Qed.
Lemma Rsum_swap {X Y} (f : X -> Y -> R) l k :
  Rsum (map (fun x => Rsum (map (f x) k)) l) = Rsum (map (fun y => Rsum (map (fun x => f x y) l)) k).
Proof.
  induction l as [|x l IH]; cbn [map Rsum].
  - rewrite (Rsum_const 0 k). lra.
  - rewrite IH, <- Rsum_plus. reflexivity.
Qed.
Lemma pick_sum (w : Z -> R) p idx s len : 
  Rsum (map (fun k => w (Z.of_nat k) * (if (idx =? Z.of_nat k)%Z then p else 0)) (seq s len))
  = if (Z.of_nat s <=? idx)%Z && (idx <? Z.of_nat (s + len))%Z then w idx * p else 0.
Proof.
  revert s. induction len as [|len IH]; intros s; cbn [seq map Rsum].
  - replace (s + 0)%nat with s by lia. destruct (Z.leb_spec (Z.of_nat s) idx), (Z.ltb_spec idx (Z.of_nat s)); cbn [andb]; auto; lia.
  - rewrite IH. destruct (Z.eqb_spec idx (Z.of_nat s)) as [E|E].
    + replace (Z.of_nat (S s) <=? idx)%Z with false by (symmetry; apply Z.leb_gt; lia). cbn [andb].
      replace (Z.of_nat s <=? idx)%Z with true by (symmetry; apply Z.leb_le; lia).
      replace (idx <? Z.of_nat (s + S len))%Z with true by (symmetry; apply Z.ltb_lt; lia). cbn [andb]. subst. lra.
    + replace ((Z.of_nat (S s) <=? idx)%Z && (idx <? Z.of_nat (S s + len))%Z) with ((Z.of_nat s <=? idx)%Z && (idx <? Z.of_nat (s + S len))%Z);
        [lra|]. apply eq_true_iff_eq. rewrite !andb_true_iff, !Z.leb_le, !Z.ltb_lt. lia.
Qed.
Lemma skipn_map_seq {X} (f : nat -> X) s len : skipn s (map f (seq 0 len)) = map f (seq s (len - s)).
Proof.
  rewrite skipn_map. f_equal. revert s. induction len as [|len IH]; intros s; [destruct s; reflexivity|].
  destruct s as [|s]; [reflexivity|]. cbn [seq skipn]. rewrite <- seq_shift, skipn_map, IH. rewrite seq_shift. f_equal.
Qed.
Lemma tail_events (w : Z -> R) m ev s len : 
  Rsum (map (fun k => w (Z.of_nat k) * (Rsum (map (fun e => if (fst e =? Z.of_nat k)%Z then snd e else 0) ev) / INR m)) (seq s len))
  = Rsum (map (fun e => if (Z.of_nat s <=? fst e)%Z && (fst e <? Z.of_nat (s + len))%Z then w (fst e) * snd e else 0) ev) / INR m.
Proof.
  rewrite (Rsum_map_ext _ (fun k => / INR m * Rsum (map (fun e => w (Z.of_nat k) * (if (fst e =? Z.of_nat k)%Z then snd e else 0)) ev))).
  - rewrite (Rsum_mult_l (/ INR m) (fun k => Rsum (map (fun e => w (Z.of_nat k) * (if (fst e =? Z.of_nat k)%Z then snd e else 0)) ev))).
    rewrite (Rsum_swap (fun k e => w (Z.of_nat k) * (if (fst e =? Z.of_nat k)%Z then snd e else 0))).
    rewrite (Rsum_map_ext _ (fun e : Z * R => if (Z.of_nat s <=? fst e)%Z && (fst e <? Z.of_nat (s + len))%Z then w (fst e) * snd e else 0)).
    + unfold Rdiv; ring.
    + intros e _. apply pick_sum.
  - intros k _. rewrite (Rsum_mult_l (w (Z.of_nat k))). unfold Rdiv; ring.
Qed.
(** the premium of filled slots *)
Definition losses_in_range (n m : nat) (T : nat -> list (list R)) : Prop :=
  forall i j, (i < n)%nat -> (j < m)%nat -> 0 <= loss T i j <= INR n - 1/100.
Lemma dip_general th z m T thr u : z <> [] -> (1 <= m)%nat -> length u = length th -> 0 <= thr ->
  losses_in_range (length th) m T ->
  let s := (Rtrunc (thr * 100) * Z.of_nat (length th))%Z in
  dip th z m T thr u = Ok (xmul (xdiv (Fin (100 * tail_loss th z m T s)) (xmul (Fin 100) (Fin (tail_mass th z m T s)))) (Fin (tail_mass th z m T s))).
Proof.
  intros Hz Hm Hu Hthr HR s. unfold dip, estimate_dip.
  assert (H0 : 0 < INR m) by (apply lt_0_INR; lia).
  rewrite (dist_fin th z Hz), (losses_fin _ _ _ _ Hu).
  etransitivity; [apply (f_equal (fun x => bind (fill XRA (repeat (ofZ 0) (length th * 100)) x) _) (slots_fin th z m T Hz))|].
  cbn [ofZ XRA]. rewrite repeat_fin.
  etransitivity; [apply (f_equal (fun x => bind x _) (fill_ok (repeat 0 (length th * 100)) (events th z m T)
      ltac:(rewrite repeat_length; apply slots_nonneg_ok; auto)))|].
  cbn [bind]. set (n := length th) in *. set (ev := events th z m T).
  assert (EB : bump (repeat 0 (n * 100)) ev = map (fun k => Rsum (map (fun e => if (fst e =? Z.of_nat k)%Z then snd e else 0) ev)) (seq 0 (n * 100))).
  { unfold bump. rewrite repeat_length. apply map_ext. intros k. rewrite nth_repeat. lra. }
  unfold premium. rewrite EB. cbn [nmul ndiv XRA ofZ].
  change (xtrunc (xmul (Fin thr) (Fin 100))) with (Rtrunc (thr * 100)).
  change (num XRA) with xr. fold n. fold s.
  assert (Hpct : (0 <= Rtrunc (thr * 100))%Z).
  { unfold Rtrunc. destruct (Rle_dec 0 (thr * 100)); [|lra]. assert (Hf := Rfloor_spec (thr * 100)).
    assert ((-1 < Rfloor (thr * 100))%Z); [|lia]. apply lt_IZR. lra. }
  assert (Hs : (0 <= s)%Z) by (unfold s; nia).
  rewrite !map_map.
  assert (ET : python_slice_from XRA (map (fun x => xdiv (Fin (Rsum (map (fun e => if (fst e =? Z.of_nat x)%Z then snd e else 0) ev))) (Fin (IZR (Z.of_nat m)))) (seq 0 (n * 100))) s
     = map Fin (map (fun k => 1 * (Rsum (map (fun e => if (fst e =? Z.of_nat k)%Z then snd e else 0) ev) / INR m)) (seq (Z.to_nat s) (n * 100 - Z.to_nat s)))).
  { unfold python_slice_from. replace (s <? 0)%Z with false by (symmetry; apply Z.ltb_ge; auto).
    rewrite skipn_map_seq, map_map. apply map_ext. intros k. rewrite <- INR_IZR_INZ, xdiv_fin by lra. f_equal. lra. }
  change (num XRA) with xr in *. rewrite ET.
  assert (EZ : zrange s (100 * Z.of_nat n) = map (fun k => Z.of_nat k) (seq (Z.to_nat s) (n * 100 - Z.to_nat s))).
  { unfold zrange. replace (Z.to_nat (100 * Z.of_nat n - s)) with (n * 100 - Z.to_nat s)%nat by lia.
    assert (EZ' : forall len a, map (fun k => (Z.of_nat a + Z.of_nat k)%Z) (seq 0 len) = map (fun k => Z.of_nat k) (seq a len)).
    { clear. induction len as [|len IH]; intros a; auto. cbn [seq map]. f_equal; [lia|].
      rewrite <- (IH (S a)), <- (seq_shift len 0), map_map. apply map_ext. intros; lia. }
    rewrite <- EZ'. apply map_ext. intros k. rewrite Z2Nat.id by auto. reflexivity. }
  rewrite EZ, !map_length, seq_length, Nat.eqb_refl. cbn [check].
  set (ks := seq (Z.to_nat s) (n * 100 - Z.to_nat s)).
  assert (ED : map2 (fun k p => xmul (Fin (IZR k)) p) (map (fun k => Z.of_nat k) ks) (map Fin (map (fun k => 1 * (Rsum (map (fun e => if (fst e =? Z.of_nat k)%Z then snd e else 0) ev) / INR m)) ks))
     = map Fin (map (fun k => IZR (Z.of_nat k) * (Rsum (map (fun e => if (fst e =? Z.of_nat k)%Z then snd e else 0) ev) / INR m)) ks)).
  { clear. induction ks as [|k ks IH]; auto. cbn [map map2]. rewrite IH. f_equal. cbn. f_equal. lra. }
  rewrite ED. etransitivity; [apply (f_equal (fun v => Ok (xmul (xdiv v _) _)) (asum_fin _))|].
  etransitivity; [apply (f_equal (fun v => Ok (xmul (xdiv _ (xmul _ v)) v)) (asum_fin _))|].
  unfold ks. rewrite (tail_events (fun _ => 1)), (tail_events IZR).
  assert (HE : forall e, In e ev -> (0 <= fst e < Z.of_nat (n * 100))%Z) by (apply slots_nonneg_ok; auto).
  assert (C : forall (w : Z -> R), Rsum (map (fun e : Z * R => if ((Z.of_nat (Z.to_nat s) <=? fst e) && (fst e <? Z.of_nat (Z.to_nat s + (n * 100 - Z.to_nat s))))%Z then w (fst e) * snd e else 0) ev)
      = Rsum (map (fun e => if (s <=? fst e)%Z then w (fst e) * snd e else 0) ev)).
  { intros w. apply Rsum_map_ext. intros e He. specialize (HE e He). rewrite Z2Nat.id by auto.
    destruct (Z.leb_spec s (fst e)); cbn [andb]; auto.
    replace (fst e <? Z.of_nat (Z.to_nat s + (n * 100 - Z.to_nat s)))%Z with true; auto. symmetry. apply Z.ltb_lt. lia. }
  rewrite (C (fun _ => 1)), (C IZR). unfold ev, events. rewrite !map_map. cbn [fst snd].
  unfold tail_mass, tail_loss.
  assert (E1 : Rsum (map (fun q => if (s <=? slot T (fst q) (snd q))%Z then 1 * freq th z (fst q + 1) else 0) (pairs th m))
             = Rsum (map (fun q => if (s <=? slot T (fst q) (snd q))%Z then freq th z (fst q + 1) else 0) (pairs th m))).
  { apply Rsum_map_ext. intros q _. destruct (s <=? _)%Z; lra. }
  assert (E2 : Rsum (map (fun q => if (s <=? slot T (fst q) (snd q))%Z then IZR (slot T (fst q) (snd q)) * freq th z (fst q + 1) else 0) (pairs th m))
             = 100 * Rsum (map (fun q => if (s <=? slot T (fst q) (snd q))%Z then IZR (slot T (fst q) (snd q)) / 100 * freq th z (fst q + 1) else 0) (pairs th m))).
  { rewrite <- Rsum_scal, map_map. apply Rsum_map_ext. intros q _. destruct (s <=? _)%Z; lra. }
  rewrite E1, E2. unfold Rdiv. rewrite Rmult_assoc. reflexivity.
Qed.

(** ** C41: the value *)
Lemma freq_nonneg th z i : z <> [] -> 0 <= freq th z i.
Proof. intros Hz. apply (proj2 (C41_frequencies_sum_to_one th z Hz)). Qed.
Theorem C41_premium_is_expected_tail_loss : forall th z m T thr u,
  z <> [] -> (1 <= m)%nat -> length u = length th -> 0 <= thr -> losses_in_range (length th) m T ->
  let s := (Rtrunc (thr * 100) * Z.of_nat (length th))%Z in
  0 < tail_mass th z m T s -> dip th z m T thr u = Ok (Fin (tail_loss th z m T s)).
Proof.
  intros th z m T thr u Hz Hm Hu Ht HR s Hpos. rewrite dip_general by auto. cbn zeta. fold s. cbn [xmul].
  rewrite xdiv_fin by lra. cbn [xmul]. do 2 f_equal. field. lra.
Qed.
Lemma pairs_in th m i j : In (i, j) (pairs th m) <-> (i < length th)%nat /\ (j < m)%nat.
Proof.
  unfold pairs. rewrite in_flat_map. split.
  - intros (x&Hx&H). apply in_map_iff in H. destruct H as (y&E&Hy). injection E as -> ->. apply in_seq in Hx, Hy. lia.
  - intros [Hi Hj]. exists i. split; [apply in_seq; lia|]. apply in_map_iff. exists j. split; auto. apply in_seq; lia.
Qed.
Lemma slot_range (th : list xr) m T i j : losses_in_range (length th) m T -> (i < length th)%nat -> (j < m)%nat ->
  0 <= IZR (slot T i j) <= 100 * INR (length th) - 1.
Proof.
  intros HR Hi Hj. specialize (HR i j Hi Hj). unfold slot. split.
  - apply (IZR_le 0). apply Rceil_ge. lra.
  - assert (H : (Rceil (loss T i j * 100) <= 100 * Z.of_nat (length th) - 1)%Z).
    { apply Rceil_le. rewrite minus_IZR, mult_IZR, <- INR_IZR_INZ. lra. }
    apply IZR_le in H. rewrite minus_IZR, mult_IZR, <- INR_IZR_INZ in H. lra.
Qed.
Lemma pairs_freq_sum th z m : z <> [] -> Rsum (map (fun q => freq th z (fst q + 1)) (pairs th m)) <= INR m.
Proof.
  intros Hz. destruct (C41_frequencies_sum_to_one th z Hz) as [H1 H2].
  assert (E : Rsum (map (fun q => freq th z (fst q + 1)) (pairs th m)) = INR m * Rsum (map (fun i => freq th z (i + 1)) (seq 0 (length th)))).
  { unfold pairs. induction (seq 0 (length th)) as [|i l IH]; cbn [flat_map map Rsum]; [lra|].
    rewrite map_app, Rsum_app, IH, map_map. cbn [fst]. rewrite (Rsum_const (freq th z (i + 1))), seq_length. lra. }
  rewrite E. rewrite Nat.add_comm in H1. cbn [plus seq map Rsum] in H1. rewrite <- seq_shift, map_map in H1.
  assert (E' : map (fun i => freq th z (i + 1)) (seq 0 (length th)) = map (fun i => freq th z (S i)) (seq 0 (length th))).
  { apply map_ext. intros; f_equal; lia. }
  rewrite E'. specialize (H2 0%nat). assert (0 <= INR m) by apply pos_INR.
  rewrite <- (Rmult_1_r (INR m)) at 2. apply Rmult_le_compat_l; auto. lra.
Qed.
(** non-negative and below the number of banks *)
Theorem C41_premium_bounds : forall th z m T s, z <> [] -> (1 <= m)%nat -> (1 <= length th)%nat ->
  losses_in_range (length th) m T -> 0 <= tail_loss th z m T s <= INR (length th) - 1/100.
Proof.
  intros th z m T s Hz Hm Hn HR. assert (H0 : 0 < INR m) by (apply lt_0_INR; lia).
  assert (Hn' : 1 <= INR (length th)) by (apply (le_INR 1); auto).
  unfold tail_loss. split.
  - apply Rmult_le_pos; [|left; apply Rinv_0_lt_compat; auto]. apply Rsum_nonneg. intros x Hx.
    apply in_map_iff in Hx. destruct Hx as ([i j]&<-&Hq). apply pairs_in in Hq. cbn [fst snd].
    assert (Hs := slot_range th m T i j HR (proj1 Hq) (proj2 Hq)). assert (Hf := freq_nonneg th z (i + 1) Hz).
    destruct (s <=? _)%Z; [|lra]. apply Rmult_le_pos; lra.
  - apply div_le_iff; auto.
    apply Rle_trans with ((INR (length th) - 1/100) * Rsum (map (fun q => freq th z (fst q + 1)) (pairs th m))).
    + rewrite <- (Rsum_mult_l (INR (length th) - 1/100) (fun q => freq th z (fst q + 1))). apply Rsum_le. intros [i j] Hq. apply pairs_in in Hq. cbn [fst snd].
      assert (Hs := slot_range th m T i j HR (proj1 Hq) (proj2 Hq)). assert (Hf := freq_nonneg th z (i + 1) Hz).
      destruct (s <=? _)%Z; [apply Rmult_le_compat_r; lra|apply Rmult_le_pos; lra].
    + apply Rmult_le_compat_l; [lra|]. apply pairs_freq_sum; auto.
Qed.
(** a higher threshold never raises the premium *)
Lemma Rtrunc_mono x y : 0 <= x <= y -> (Rtrunc x <= Rtrunc y)%Z.
Proof.
  intros H. unfold Rtrunc. destruct (Rle_dec 0 x), (Rle_dec 0 y); try lra.
  assert (H1 := Rfloor_spec x). assert (H2 := Rfloor_spec y).
  assert ((Rfloor x < Rfloor y + 1)%Z); [|lia]. apply lt_IZR. rewrite plus_IZR. lra.
Qed.
Theorem C41_antitone_in_threshold : forall th z m T thr thr' u p p',
  z <> [] -> (1 <= m)%nat -> length u = length th -> 0 <= thr <= thr' -> losses_in_range (length th) m T ->
  dip th z m T thr u = Ok (Fin p) -> dip th z m T thr' u = Ok (Fin p') -> p' <= p.
Proof.
  intros th z m T thr thr' u p p' Hz Hm Hu Ht HR.
  set (s := (Rtrunc (thr * 100) * Z.of_nat (length th))%Z). set (s' := (Rtrunc (thr' * 100) * Z.of_nat (length th))%Z).
  assert (Hss : (s <= s')%Z) by (unfold s, s'; generalize (Rtrunc_mono (thr * 100) (thr' * 100)); intros HH; apply Z.mul_le_mono_nonneg_r; [lia|apply HH; lra]).
  assert (H0 : 0 < INR m) by (apply lt_0_INR; lia).
  assert (Q : forall t thr0, t = (Rtrunc (thr0 * 100) * Z.of_nat (length th))%Z -> 0 <= thr0 -> forall p, dip th z m T thr0 u = Ok (Fin p) -> p = tail_loss th z m T t).
  { intros t thr0 Et Ht0 q. rewrite dip_general by (auto; lra). cbn zeta. rewrite <- Et. cbn [xmul].
    assert (HM : 0 <= tail_mass th z m T t).
    { unfold tail_mass. apply Rmult_le_pos; [|left; apply Rinv_0_lt_compat; auto]. apply Rsum_nonneg. intros x Hx.
      apply in_map_iff in Hx. destruct Hx as (q'&<-&_). destruct (_ <=? _)%Z; [apply freq_nonneg; auto|lra]. }
    destruct (Req_dec (tail_mass th z m T t) 0) as [E|E].
    - rewrite E, Rmult_0_r, xdiv_0. unfold xsgn_inf. destruct (total_order_T _ 0) as [[|]|]; cbn [xmul]; rewrite ?xsgn_inf_0; discriminate.
    - rewrite xdiv_fin by lra. cbn [xmul]. intros H. injection H as <-. field. lra. }
  intros H H'. rewrite (Q s thr eq_refl ltac:(lra) p H), (Q s' thr' eq_refl ltac:(lra) p' H').
  unfold tail_loss. apply Rmult_le_compat_r; [left; apply Rinv_0_lt_compat; auto|]. apply Rsum_le.
  intros [i j] Hq. apply pairs_in in Hq. cbn [fst snd]. assert (Hs := slot_range th m T i j HR (proj1 Hq) (proj2 Hq)). assert (Hf := freq_nonneg th z (i + 1) Hz).
  assert (0 <= IZR (slot T i j) / 100 * freq th z (i + 1)) by (apply Rmult_le_pos; lra).
  destruct (Z.leb_spec s' (slot T i j)), (Z.leb_spec s (slot T i j)); try lra; lia.
Qed.
(** ** C42: the two ways of not returning a number *)
Theorem C42_nan_iff_no_tail_mass : forall th z m T thr u,
  z <> [] -> (1 <= m)%nat -> length u = length th -> 0 <= thr -> losses_in_range (length th) m T ->
  let s := (Rtrunc (thr * 100) * Z.of_nat (length th))%Z in
  (dip th z m T thr u = Ok NaN <-> tail_mass th z m T s = 0) /\
  (tail_mass th z m T s <> 0 -> exists r, dip th z m T thr u = Ok (Fin r)).
Proof.
  intros th z m T thr u Hz Hm Hu Ht HR s. assert (H0 : 0 < INR m) by (apply lt_0_INR; lia).
  assert (D := dip_general th z m T thr u Hz Hm Hu Ht HR). cbn zeta in D. fold s in D. rewrite D. cbn [xmul].
  assert (HMT : tail_mass th z m T s = 0 -> tail_loss th z m T s = 0).
  { unfold tail_mass, tail_loss. intros E. apply Rmult_integral in E. destruct E as [E|E]; [|exfalso; revert E; apply Rinv_neq_0_compat; lra].
    assert (Hnn : forall y, In y (map (fun q => if (s <=? slot T (fst q) (snd q))%Z then freq th z (fst q + 1) else 0) (pairs th m)) -> 0 <= y).
    { intros y Hy. apply in_map_iff in Hy. destruct Hy as (q'&<-&_). destruct (s <=? _)%Z; [apply freq_nonneg; auto|lra]. }
    assert (Hall := Rsum_zero_all _ Hnn E).
    rewrite (Rsum_map_ext _ (fun _ => 0)); [rewrite (Rsum_const 0); lra|].
    intros q Hq. assert (Hz0 := Hall _ (in_map _ _ _ Hq)). cbn beta in Hz0. destruct (s <=? _)%Z; [rewrite Hz0; lra|auto]. }
  split.
  - split.
    + destruct (Req_dec (tail_mass th z m T s) 0) as [E|E]; auto. rewrite xdiv_fin by lra. cbn [xmul]. discriminate.
    + intros E. rewrite E, (HMT E), !Rmult_0_r, xdiv_0, xsgn_inf_0. reflexivity.
  - intros E. rewrite xdiv_fin by lra. eexists. reflexivity.
Qed.
(** a total loss beyond n - 0.01 overruns the array *)
Theorem C42_index_error : forall th z m T thr u, z <> [] -> length u = length th ->
  (forall i j, (i < length th)%nat -> (j < m)%nat -> 0 <= loss T i j) ->
  (exists i j, (i < length th)%nat /\ (j < m)%nat /\ INR (length th) - 1/100 < loss T i j) ->
  dip th z m T thr u = Err IndexError.
Proof.
  intros th z m T thr u Hz Hu HR (i&j&Hi&Hj&HL). unfold dip, estimate_dip. 
  rewrite (dist_fin th z Hz), (losses_fin _ _ _ _ Hu).
  etransitivity; [apply (f_equal (fun x => bind (fill XRA (repeat (ofZ 0) (length th * 100)) x) _) (slots_fin th z m T Hz))|].
  rewrite fill_err; [reflexivity| |].
  - intros e He. apply in_map_iff in He. destruct He as (e'&<-&He). cbn [fst].
    unfold events in He. apply in_map_iff in He. destruct He as ([a b]&<-&Hq). cbn [fst snd].
    apply pairs_in in Hq. assert (H1 := HR a b (proj1 Hq) (proj2 Hq)). unfold slot. apply Rceil_ge. lra.
  - exists (slot T i j, Fin (freq th z (i + 1))). split.
    + apply in_map_iff. exists (slot T i j, freq th z (i + 1)). split; auto. unfold events. apply in_map_iff.
      exists (i, j). split; auto. apply pairs_in. auto.
    + cbn [fst]. rewrite repeat_length. unfold slot. apply Rceil_ge. rewrite <- INR_IZR_INZ, mult_INR.
      replace (INR 100) with 100 by (simpl; lra). lra.
Qed.
(** triangular draws lie in [0.1, 1], so with i+1 < n of them the array is never overrun: only n simultaneous
    defaults with an average loss beyond 1 - 0.01/n can raise *)
Theorem C42_only_full_default : forall (th : list xr) m T,
  (forall i, (i < length th)%nat -> length (T i) = S i /\ forall row x, In row (T i) -> In x row -> 0 <= x <= 1) ->
  (forall j, (j < m)%nat -> loss T (length th - 1) j <= INR (length th) - 1/100) ->
  (forall i row, (i < length th)%nat -> In row (T i) -> length row = m) ->
  losses_in_range (length th) m T.
Proof.
  intros th m T HT Hlast Hrow i j Hi Hj. destruct (HT i Hi) as [HL HX].
  assert (HB : forall x, In x (map (fun row => nth j row 0) (T i)) -> 0 <= x <= 1).
  { intros x Hx. apply in_map_iff in Hx. destruct Hx as (row&<-&Hr). apply (HX row); auto. apply nth_In. rewrite (Hrow i row); auto. }
  split.
  - unfold loss. apply Rsum_nonneg. intros x Hx. apply HB; auto.
  - destruct (Nat.eq_dec i (length th - 1)) as [->|Hne]; [apply Hlast; auto|].
    assert (HS : loss T i j <= INR (S i)).
    { unfold loss. rewrite <- HL, <- (map_length (fun row => nth j row 0) (T i)). revert HB. generalize (map (fun row => nth j row 0) (T i)).
      clear. induction l as [|x l IH]; intros HB; [cbn; lra|]. cbn [Rsum length]. rewrite S_INR.
      assert (H := HB x (or_introl eq_refl)). assert (H' := IH (fun y Hy => HB y (or_intror Hy))). lra. }
    assert (INR (S i) <= INR (length th) - 1).
    { assert (E : INR (length th - 1) = INR (length th) - 1) by (rewrite minus_INR by lia; simpl; lra). rewrite <- E. apply le_INR. lia. }
    lra.
Qed.
(** ** C43: only the integer percentage of the threshold matters (any arithmetic) *)
Theorem C43_truncated : forall (A : Arith) ceilZ truncZ th thr thr' z m tri u,
  truncZ (nmul thr (ofZ 100)) = truncZ (nmul thr' (ofZ 100)) ->
  estimate_dip A ceilZ truncZ th thr z m tri u = estimate_dip A ceilZ truncZ th thr' z m tri u.
Proof. intros A c t th thr thr' z m tri u H. unfold estimate_dip, premium. rewrite H. reflexivity. Qed.
Corollary C43_same_percent : forall th z m T u (k : nat) thr thr', 
  INR k / 100 <= thr < (INR k + 1) / 100 -> INR k / 100 <= thr' < (INR k + 1) / 100 ->
  dip th z m T thr u = dip th z m T thr' u.
Proof.
  intros th z m T u k thr thr' H H'. unfold dip; apply (C43_truncated XRA). cbn [nmul ofZ XRA xmul xtrunc].
  assert (Hk := pos_INR k).
  assert (E : forall t, INR k / 100 <= t < (INR k + 1) / 100 -> Rtrunc (t * 100) = Z.of_nat k).
  { intros t Ht. unfold Rtrunc. destruct (Rle_dec 0 (t * 100)) as [|n]; [|exfalso; apply n; lra].
    apply Rfloor_unique. rewrite <- INR_IZR_INZ. lra. }
  rewrite !E by auto. reflexivity.
Qed.
(** ** A concrete case: two banks, four states of the world, one loss simulation *)
Definition case_T (i : nat) : list (list R) := match i with O => [[1/2]] | _ => [[1/2]; [3/4]] end.
Definition case_z : list (list xr) := [[Fin (-2); Fin 0]; [Fin (-2); Fin (-2)]; [Fin 0; Fin 0]; [Fin 1; Fin 1]].
Definition case_th : list xr := [Fin (-1); Fin (-1)].
Lemma Rceil_int k : Rceil (IZR k) = k.
Proof. apply Z.le_antisymm; [apply Rceil_le; lra|apply Rceil_ge; lra]. Qed.
Example C41_case : losses_in_range 2 1 case_T /\ slot case_T 0 0 = 50%Z /\ slot case_T 1 0 = 125%Z /\
  freq case_th case_z 1 = 1/4 /\ freq case_th case_z 2 = 1/4 /\
  tail_loss case_th case_z 1 case_T (Rtrunc (15/100 * 100) * Z.of_nat (length case_th)) = 7/16 /\
  0 < tail_mass case_th case_z 1 case_T (Rtrunc (15/100 * 100) * Z.of_nat (length case_th)).
Proof.
  assert (S1 : slot case_T 0 0 = 50%Z) by (unfold slot, loss; cbn; replace ((1/2 + 0) * 100) with 50 by lra; apply Rceil_int).
  assert (S2 : slot case_T 1 0 = 125%Z) by (unfold slot, loss; cbn; replace ((1/2 + (3/4 + 0)) * 100) with 125 by lra; apply Rceil_int).
  assert (L : xltb (Fin (-2)) (Fin (-1)) = true) by (apply xltb_true; lra).
  assert (L0 : xltb (Fin 0) (Fin (-1)) = false) by (apply xltb_false; lra).
  assert (L1 : xltb (Fin 1) (Fin (-1)) = false) by (apply xltb_false; lra).
  assert (F1 : freq case_th case_z 1 = 1/4).
  { unfold freq, times, case_z, case_th, n_defaults. cbn [map2 nltb XRA filter]. rewrite L, L0, L1. cbn. lra. }
  assert (F2 : freq case_th case_z 2 = 1/4).
  { unfold freq, times, case_z, case_th, n_defaults. cbn [map2 nltb XRA filter]. rewrite L, L0, L1. cbn. lra. }
  assert (ET : (Rtrunc (15/100 * 100) * Z.of_nat (length case_th))%Z = 30%Z).
  { replace (15/100 * 100) with (IZR 15) by lra. unfold Rtrunc. destruct (Rle_dec 0 15) as [|n]; [|exfalso; apply n; lra].
    rewrite (Rfloor_unique _ 15) by lra. reflexivity. }
  split; [|split; [|split; [|split; [|split; [|split]]]]]; auto.
  - intros [|[|i]] [|j] Hi Hj; try lia; unfold loss; cbn; lra.
  - rewrite ET. unfold tail_loss, pairs. cbn [length case_th flat_map seq map app fst snd Rsum plus]. rewrite S1, S2, F1, F2. cbn [Z.leb Z.compare Pos.compare Pos.compare_cont INR]. lra.
  - rewrite ET. unfold tail_mass, pairs. cbn [length case_th flat_map seq map app fst snd Rsum plus]. rewrite S1, S2, F1, F2. cbn [Z.leb Z.compare Pos.compare Pos.compare_cont INR]. lra.
Qed.
(** In binary64 the nearest double to 0.29 is 5224175567749775 / 2^54, and multiplying it by 100 (round to
    nearest even) gives 8162774324609023 / 2^48 < 29: the threshold 0.29 is treated as 28 percent. *)
From Coq Require SpecFloat.
Theorem C43_float_029 :
  (2 * Z.abs (5224175567749775 * 100 - 29 * 2 ^ 54) <= 100)%Z /\
  SpecFloat.SFmul 53 1024 (SpecFloat.S754_finite false 5224175567749775 (-54)) (SpecFloat.S754_finite false (100 * 2 ^ 46) (-46))
  = SpecFloat.S754_finite false 8162774324609023 (-48) /\
  (28 * 2 ^ 48 <= 8162774324609023 < 29 * 2 ^ 48)%Z.
Proof. vm_compute. repeat split; discriminate. Qed.
