(** * Theorems: limit-order-book slopes and depth difference (C49-C51) *)
From Coq Require Import Reals Lra List ZArith Lia Bool Arith Permutation.
From Verif Require Import Arith XR RealAux Model_micro Spec_micro Proofs_micro.
Import ListNotations.
Local Open Scope R_scope.

(** A quote: sizes at the k levels, price at the highest level, midpoint. *)
Record quote := mkQuote { q_sizes : list R; q_price : R; q_mid : R }.
Definition depth (q : quote) : R := Rsum (q_sizes q).
Definition sizes_array (k : nat) (b : list quote) : ndarray XRA :=
  Dim2 (A:=XRA) (mkArray2 (A:=XRA) k (map (fun q => map Fin (q_sizes q)) b)).
Definition prices (b : list quote) : list xr := map (fun q => Fin (q_price q)) b.
Definition mids (b : list quote) : ndarray XRA := Dim1 (A:=XRA) (map (fun q => Fin (q_mid q)) b).
Inductive side := Ask | Bid.
Definition distance (s : side) (q : quote) : R :=
  match s with Ask => q_price q - q_mid q | Bid => Rabs (q_price q - q_mid q) end.
Definition slope_of_book (s : side) (k : nat) (b : list quote) : res xr :=
  match s with
  | Ask => ask_slope XRA (sizes_array k b) (prices b) (mids b)
  | Bid => bid_slope XRA (sizes_array k b) (prices b) (mids b)
  end.

Lemma slope_general s k b : (2 <= k)%nat ->
  slope_of_book s k b = Ok (nanmean XRA (map (fun q => xdiv (Fin (depth q)) (Fin (distance s q))) b)).
Proof.
  intros Hk.
  assert (HK : (1 <? k)%nat = true) by (apply Nat.ltb_lt; lia).
  destruct s; cbn [slope_of_book]; unfold ask_slope, bid_slope, lob_slope, sizes_array, mids, prices, check; cbn [cols rows];
    rewrite HK, !map_length, Nat.eqb_refl;
    (etransitivity; [apply (f_equal (fun r => bind r _) (bcast_same xsub (fun q => Fin (q_price q)) (fun q => Fin (q_mid q)) b))|]);
    cbn [bind]; change (num XRA) with xr; rewrite ?(map_map (C:=xr)); cbn [xsub].
  - etransitivity; [apply (f_equal (fun r => bind r _) (bcast_same xdiv (fun q => asum (a:=XRA) (map Fin (q_sizes q))) (fun q => Fin (q_price q - q_mid q)) b))|].
    cbn [bind]. do 2 f_equal. apply map_ext. intros q. f_equal. apply asum_fin.
  - etransitivity; [apply (f_equal (fun r => bind r _) (bcast_same xdiv (fun q => asum (a:=XRA) (map Fin (q_sizes q))) (fun q => Fin (Rabs (q_price q - q_mid q))) b))|].
    cbn [bind]. do 2 f_equal. apply map_ext. intros q. f_equal. apply asum_fin.
Qed.
Lemma nanmean_partial {X} (f : X -> xr) (g : X -> R) (ok : X -> bool) l :
  (forall x, In x l -> f x = if ok x then Fin (g x) else NaN) ->
  nanmean XRA (map f l) = match filter ok l with [] => NaN | l' => Fin (Rmean (map g l')) end.
Proof.
  intros H. rewrite nanmean_nan_drop.
  assert (E : filter (fun x => negb (xisnan x)) (map f l) = map Fin (map g (filter ok l))).
  { clear - H. induction l as [|x l IH]; auto. cbn [map filter]. rewrite (H x) by (left; auto).
    assert (IH' := IH ltac:(intros; apply H; right; auto)).
    destruct (ok x); cbn [xisnan negb map]; [f_equal|]; exact IH'. }
  change (num XRA) with xr. rewrite E. destruct (filter ok l) as [|x l']; [apply nanmean_nil|].
  apply nanmean_fin. discriminate.
Qed.

(** ** C49.  A quote is counted when its distance is non-zero; a quote with no depth at distance
    zero (0/0) is ignored. *)
Definition regular (s : side) (q : quote) : bool := if Req_EM_T (distance s q) 0 then false else true.
Theorem C49_value : forall s k b, (2 <= k)%nat ->
  (forall q, In q b -> distance s q = 0 -> depth q = 0) ->
  slope_of_book s k b = Ok (match filter (regular s) b with
                            | [] => NaN
                            | b' => Fin (Rmean (map (fun q => depth q / distance s q) b')) end).
Proof.
  intros s k b Hk H. rewrite slope_general by auto. f_equal. apply nanmean_partial.
  intros q Hq. unfold regular. destruct (Req_EM_T (distance s q) 0) as [e|e].
  - rewrite e, (H q Hq e). rewrite xdiv_0. apply xsgn_inf_0.
  - apply xdiv_fin; auto.
Qed.
Corollary C49_value_regular : forall s k b, (2 <= k)%nat -> b <> [] -> (forall q, In q b -> distance s q <> 0) ->
  slope_of_book s k b = Ok (Fin (Rmean (map (fun q => depth q / distance s q) b))).
Proof.
  intros s k b Hk Hn H. rewrite C49_value by (auto; intros q Hq E; destruct (H q Hq E)).
  rewrite (proj2 (filter_ext_in_iff _ (fun _ => true) b)).
  - replace (filter (fun _ : quote => true) b) with b by (clear; induction b; simpl; f_equal; auto). destruct b; [tauto|]. reflexivity.
  - intros q Hq. unfold regular. destruct (Req_EM_T (distance s q) 0); auto. destruct (H q Hq); auto.
Qed.
Theorem C49_positive : forall s k b, (2 <= k)%nat -> b <> [] ->
  (forall q, In q b -> 0 < distance s q /\ 0 < depth q) ->
  exists v, slope_of_book s k b = Ok (Fin v) /\ 0 < v.
Proof.
  intros s k b Hk Hn H. rewrite C49_value_regular; auto.
  - eexists; split; [reflexivity|]. unfold Rmean. rewrite map_length.
    apply Rdiv_lt_0_compat; [|apply INR_len_pos; auto].
    destruct b as [|q b]; [tauto|]. apply Rsum_pos with (depth q / distance s q).
    + intros y Hy. apply in_map_iff in Hy as (q' & <- & Hq'). destruct (H q' Hq'). left. apply Rdiv_lt_0_compat; auto.
    + left; auto.
    + destruct (H q (or_introl eq_refl)). apply Rdiv_lt_0_compat; auto.
  - intros q Hq E. destruct (H q Hq). lra.
Qed.
Lemma asum_pinf l : In PInf l -> (forall x, In x l -> x = PInf \/ exists r, x = Fin r) -> asum (a:=XRA) l = PInf.
Proof.
  intros HI H. cbn [asum XRA]. assert (G : forall l a, (forall x, In x l -> x = PInf \/ exists r, x = Fin r) ->
     (a = PInf \/ (exists r, a = Fin r) /\ In PInf l) -> fold_left xadd l a = PInf).
  { clear. induction l as [|x l IH]; intros a H [Ha|[(r & Ha) Hin]]; simpl.
    - auto. - destruct Hin.
    - apply IH; [intros; apply H; right; auto|]. left. subst. destruct (H x (or_introl eq_refl)) as [->|(r & ->)]; reflexivity.
    - apply IH; [intros; apply H; right; auto|]. subst. destruct Hin as [->|Hin]; [left; reflexivity|].
      destruct (H x (or_introl eq_refl)) as [->|(r' & ->)]; [left; reflexivity|]. right. split; eauto. exists (r + r'); reflexivity. }
  apply G; auto. right. split; eauto.
Qed.
Theorem C49_locked_quote : forall s k b, (2 <= k)%nat ->
  (forall q, In q b -> 0 < depth q) -> (exists q, In q b /\ distance s q = 0) ->
  slope_of_book s k b = Ok PInf.
Proof.
  intros s k b Hk H (q & Hq & Eq). rewrite slope_general by auto. f_equal.
  assert (K : forall x, In x (map (fun q => xdiv (Fin (depth q)) (Fin (distance s q))) b) -> x = PInf \/ exists r, x = Fin r).
  { intros x Hx. apply in_map_iff in Hx as (q' & <- & Hq'). destruct (Req_EM_T (distance s q') 0) as [e|e].
    - left. rewrite e, xdiv_0. apply xsgn_inf_pos; auto.
    - right. eexists. apply xdiv_fin; auto. }
  assert (HI : In PInf (map (fun q => xdiv (Fin (depth q)) (Fin (distance s q))) b)).
  { apply in_map_iff. exists q. split; auto. rewrite Eq, xdiv_0. apply xsgn_inf_pos; auto. }
  set (l := map (fun q => xdiv (Fin (depth q)) (Fin (distance s q))) b) in *.
  assert (EF : filter (fun x => negb (isnan (a:=XRA) x)) l = l).
  { clear - K. induction l as [|x l IH]; auto. cbn [filter]. rewrite IH by (intros; apply K; right; auto).
    destruct (K x (or_introl eq_refl)) as [->|(r & ->)]; reflexivity. }
  unfold nanmean. etransitivity; [apply (f_equal (amean XRA) EF)|]. unfold amean.
  rewrite asum_pinf by auto.
  assert (HL : l <> []) by (intros E; rewrite E in HI; destruct HI). pose proof (INR_len_pos l HL) as HP.
  rewrite ofZ_len. change (num XRA) with xr. cbn [ndiv XRA xdiv]. destruct (Rlt_dec (INR (length l)) 0); [lra|reflexivity].
Qed.
Theorem C49_linear_in_sizes : forall s k b c, (2 <= k)%nat -> b <> [] -> (forall q, In q b -> distance s q <> 0) ->
  exists v, slope_of_book s k b = Ok (Fin v) /\
    slope_of_book s k (map (fun q => mkQuote (map (Rmult c) (q_sizes q)) (q_price q) (q_mid q)) b) = Ok (Fin (c * v)).
Proof.
  intros s k b c Hk Hn H. eexists. split; [apply C49_value_regular; auto|].
  rewrite C49_value_regular; auto.
  - do 2 f_equal. rewrite <- Rmean_scal, !map_map. apply Rmean_map_ext. intros q Hq.
    unfold depth at 1; cbn [q_sizes]. rewrite Rsum_scal. fold (depth q).
    replace (distance s {| q_sizes := map (Rmult c) (q_sizes q); q_price := q_price q; q_mid := q_mid q |}) with (distance s q) by (destruct s; reflexivity).
    unfold Rdiv; ring.
  - destruct b; [tauto|discriminate].
  - intros q Hq. apply in_map_iff in Hq as (q' & <- & Hq'). specialize (H q' Hq'). destruct s; exact H.
Qed.
Theorem C49_price_unit : forall s k b c, (2 <= k)%nat -> b <> [] -> (forall q, In q b -> distance s q <> 0) -> 0 < c ->
  exists v, slope_of_book s k b = Ok (Fin v) /\
    slope_of_book s k (map (fun q => mkQuote (q_sizes q) (c * q_price q) (c * q_mid q)) b) = Ok (Fin (v / c)).
Proof.
  intros s k b c Hk Hn H Hc. eexists. split; [apply C49_value_regular; auto|].
  assert (HD : forall q, distance s (mkQuote (q_sizes q) (c * q_price q) (c * q_mid q)) = c * distance s q).
  { intros q. destruct s; cbn [distance q_price q_mid].
    - ring. - replace (c * q_price q - c * q_mid q) with (c * (q_price q - q_mid q)) by ring. rewrite Rabs_mult, (Rabs_right c); lra. }
  rewrite C49_value_regular; auto.
  - do 2 f_equal. rewrite map_map. unfold Rdiv at 2. rewrite Rmult_comm, <- Rmean_scal, map_map. apply Rmean_map_ext.
    intros q Hq. rewrite HD. unfold depth at 1; cbn [q_sizes]. fold (depth q). field. split; [auto|lra].
  - destruct b; [tauto|discriminate].
  - intros q Hq. apply in_map_iff in Hq as (q' & <- & Hq'). rewrite HD. specialize (H q' Hq').
    intros E. apply Rmult_integral in E as [E|E]; [lra|auto].
Qed.
(** mirroring an ask book around its midpoints gives a bid book with the same slope *)
Theorem C49_sides_agree : forall k b, (2 <= k)%nat -> (forall q, In q b -> q_mid q < q_price q) ->
  slope_of_book Bid k (map (fun q => mkQuote (q_sizes q) (2 * q_mid q - q_price q) (q_mid q)) b) = slope_of_book Ask k b.
Proof.
  intros k b Hk H. rewrite !slope_general by auto. rewrite map_map. do 2 f_equal. apply map_ext_in. intros q Hq.
  specialize (H q Hq). unfold depth; cbn [q_sizes distance q_price q_mid]. do 2 f_equal.
  rewrite Rabs_left; lra.
Qed.
Theorem C49_errors : forall A (dist : num A -> num A) price,
  (forall l m, lob_slope A dist (Dim1 l) price m = Err AssertionError) /\
  (forall m, lob_slope A dist Dim3plus price m = Err ValueError) /\
  (forall s m, (cols s < 2)%nat -> lob_slope A dist (Dim2 s) price m = Err AssertionError) /\
  (forall s m, (2 <= cols s)%nat -> length (rows s) <> length m -> lob_slope A dist (Dim2 s) price (Dim1 m) = Err AssertionError) /\
  (forall s m, (2 <= cols s)%nat -> lob_slope A dist (Dim2 s) price (Dim2 m) = Err AssertionError).
Proof.
  intros. unfold lob_slope, check. repeat split; auto.
  - intros s m H. destruct (1 <? cols s)%nat eqn:E; auto. apply Nat.ltb_lt in E; lia.
  - intros s m H HL. destruct (1 <? cols s)%nat eqn:E; auto. destruct (Nat.eqb_spec (length (rows s)) (length m)); tauto.
  - intros s m H. destruct (1 <? cols s)%nat eqn:E; auto.
Qed.
Theorem C49_stubs : forall A f, call_stub A f = Err NotImplementedError.
Proof. reflexivity. Qed.
Example C49_case : slope_of_book Ask 2 [mkQuote [1;2] 3 2; mkQuote [4;1] 7 2] = Ok (Fin 2).
Proof.
  rewrite C49_value_regular; auto; try discriminate.
  - do 2 f_equal. unfold Rmean, depth; cbn. field.
  - intros q [<-|[<-|[]]]; cbn; lra.
Qed.

(** ** C50 *)
Theorem C50_too_few_levels : forall A (s : array2 A) p,
  ((cols s < 2)%nat -> bid_side_slope_difference A (Dim2 s) p = Err AssertionError) /\
  ((2 <= cols s <= 4)%nat -> bid_side_slope_difference A (Dim2 s) p = Err IndexError).
Proof.
  intros A s p. unfold bid_side_slope_difference, check. split; intros H.
  - destruct (1 <? cols s)%nat eqn:E; auto. apply Nat.ltb_lt in E; lia.
  - replace (1 <? cols s)%nat with true by (symmetry; apply Nat.ltb_lt; lia).
    unfold segment, column. replace (4 <? cols s)%nat with false by (symmetry; apply Nat.ltb_ge; lia). reflexivity.
Qed.
Theorem C50_wrong_dimensions : forall A p,
  (forall l, bid_side_slope_difference A (Dim1 l) p = Err AssertionError) /\
  bid_side_slope_difference A Dim3plus p = Err ValueError.
Proof. intros. split; intros; reflexivity. Qed.
Theorem C50_few_price_levels : forall A (s p : array2 A), (5 <= cols s)%nat -> (cols p <= 4)%nat ->
  bid_side_slope_difference A (Dim2 s) p = Err IndexError.
Proof.
  intros A s p Hs Hp. unfold bid_side_slope_difference, check.
  replace (1 <? cols s)%nat with true by (symmetry; apply Nat.ltb_lt; lia).
  unfold segment, column. replace (4 <? cols s)%nat with true by (symmetry; apply Nat.ltb_lt; lia).
  replace (2 <? cols s)%nat with true by (symmetry; apply Nat.ltb_lt; lia).
  replace (4 <? cols p)%nat with false by (symmetry; apply Nat.ltb_ge; lia). cbn [bind].
  unfold bcast. rewrite !map_length, Nat.eqb_refl. reflexivity.
Qed.
(** Row-wise formula, for any arithmetic: levels 1, 3 and 5 only (indices 0, 2, 4). *)
Definition slope_gap (A : Arith) (sz pr : nat -> num A) : num A :=
  nsub (ndiv (nsub (sz 4%nat) (sz 2%nat)) (nabs (nsub (pr 4%nat) (pr 2%nat))))
       (ndiv (nsub (sz 2%nat) (sz 0%nat)) (nabs (nsub (pr 2%nat) (pr 0%nat)))).
Theorem C50_value : forall A k k' (book : list (list (num A) * list (num A))), (5 <= k)%nat -> (5 <= k')%nat ->
  bid_side_slope_difference A (Dim2 (mkArray2 k (map fst book))) (mkArray2 k' (map snd book)) =
  Ok (nanmean A (map (fun r => slope_gap A (fun j => nth j (fst r) nnan) (fun j => nth j (snd r) nnan)) book)).
Proof.
  intros A k k' book Hk Hk'. unfold bid_side_slope_difference, check, segment, column. cbn [cols rows].
  replace (1 <? k)%nat with true by (symmetry; apply Nat.ltb_lt; lia).
  replace (4 <? k)%nat with true by (symmetry; apply Nat.ltb_lt; lia).
  replace (2 <? k)%nat with true by (symmetry; apply Nat.ltb_lt; lia).
  replace (0 <? k)%nat with true by (symmetry; apply Nat.ltb_lt; lia).
  replace (4 <? k')%nat with true by (symmetry; apply Nat.ltb_lt; lia).
  replace (2 <? k')%nat with true by (symmetry; apply Nat.ltb_lt; lia).
  replace (0 <? k')%nat with true by (symmetry; apply Nat.ltb_lt; lia).
  assert (B : forall f (g h : list (num A) * list (num A) -> num A), bcast A f (map g book) (map h book) = Ok (map (fun r => f (g r) (h r)) book)).
  { intros. unfold bcast. rewrite !map_length, Nat.eqb_refl. f_equal. apply map2_diag. }
  repeat (cbn [bind]; rewrite ?map_map, ?B).
  reflexivity.
Qed.
(** the documented two levels are not enough: every k from 2 to 4 fails, and other levels are never used *)
Theorem C50_two_levels_refuted : exists (s p : array2 XRA), cols s = 2%nat /\ cols p = 2%nat /\
  bid_side_slope_difference XRA (Dim2 s) p = Err IndexError.
Proof. exists (mkArray2 (A:=XRA) 2 [[Fin 1; Fin 2]]), (mkArray2 (A:=XRA) 2 [[Fin 1; Fin 2]]). repeat split. Qed.
Theorem C50_only_levels_1_3_5 : forall A k k' (book book' : list (list (num A) * list (num A))), (5 <= k)%nat -> (5 <= k')%nat ->
  Forall2 (fun r r' => forall j, In j [0;2;4]%nat -> nth j (fst r) nnan = nth j (fst r') nnan /\ nth j (snd r) nnan = nth j (snd r') nnan) book book' ->
  bid_side_slope_difference A (Dim2 (mkArray2 k (map fst book))) (mkArray2 k' (map snd book)) =
  bid_side_slope_difference A (Dim2 (mkArray2 k (map fst book'))) (mkArray2 k' (map snd book')).
Proof.
  intros A k k' book book' Hk Hk' H. rewrite !C50_value by auto. do 2 f_equal.
  induction H as [|r r' l l' H HF IH]; cbn [map]; auto. f_equal; auto.
  unfold slope_gap. destruct (H 0%nat) as [-> ->]; [simpl; auto|]. destruct (H 2%nat) as [-> ->]; [simpl; auto|].
  destruct (H 4%nat) as [-> ->]; [simpl; auto|]. reflexivity.
Qed.
Theorem C50_ask_is_bid : forall A s p, ask_side_slope_difference A s p = bid_side_slope_difference A s p.
Proof. reflexivity. Qed.
(** over the reals, with distinct prices at levels 1, 3, 5: the mean difference of the segment slopes *)
Theorem C50_real_value : forall k k' (book : list (list R * list R)), (5 <= k)%nat -> (5 <= k')%nat -> book <> [] ->
  (forall s p, In (s, p) book -> length s = k /\ length p = k' /\ nth 4 p 0 <> nth 2 p 0 /\ nth 2 p 0 <> nth 0 p 0) ->
  bid_side_slope_difference XRA (Dim2 (A:=XRA) (mkArray2 (A:=XRA) k (map (fun r => map Fin (fst r)) book)))
     (mkArray2 (A:=XRA) k' (map (fun r => map Fin (snd r)) book)) =
  Ok (Fin (Rmean (map (fun r => let s := fun j => nth j (fst r) 0 in let p := fun j => nth j (snd r) 0 in
      (s 4%nat - s 2%nat) / Rabs (p 4%nat - p 2%nat) - (s 2%nat - s 0%nat) / Rabs (p 2%nat - p 0%nat)) book))).
Proof.
  intros k k' book Hk Hk' Hn H.
  assert (E1 : map (fun r : list R * list R => map Fin (fst r)) book = map fst (map (fun r : list R * list R => (map Fin (fst r), map Fin (snd r))) book)) by (rewrite map_map; reflexivity).
  assert (E2 : map (fun r : list R * list R => map Fin (snd r)) book = map snd (map (fun r : list R * list R => (map Fin (fst r), map Fin (snd r))) book)) by (rewrite map_map; reflexivity).
  rewrite E1, E2. etransitivity; [apply (C50_value XRA k k' (map (fun r : list R * list R => (map Fin (fst r), map Fin (snd r))) book)); auto|].
  f_equal. rewrite map_map. cbn [fst snd].
  set (g := fun r : list R * list R => let s := fun j => nth j (fst r) 0 in let p := fun j => nth j (snd r) 0 in
      (s 4%nat - s 2%nat) / Rabs (p 4%nat - p 2%nat) - (s 2%nat - s 0%nat) / Rabs (p 2%nat - p 0%nat)).
  etransitivity; [|apply (nanmean_fin (map g book)); destruct book; [tauto|discriminate]].
  f_equal. rewrite map_map. apply map_ext_in. intros (s & p) Hr. destruct (H s p Hr) as (Ls & Lp & N1 & N2).
  cbn [fst snd]. subst g. cbv zeta. cbn [fst snd].
  assert (NT : forall (l : list R) j, (j < length l)%nat -> nth j (map Fin l) NaN = Fin (nth j l 0)).
  { intros l j Hj. rewrite (nth_indep _ NaN (Fin 0)) by (rewrite map_length; auto). apply map_nth. }
  unfold slope_gap. change (@nnan XRA) with NaN. change (num XRA) with xr. rewrite !NT by lia.
  cbn [nsub ndiv nabs XRA xsub xabs]. rewrite !xdiv_fin.
  - reflexivity.
  - apply Rabs_no_R0. lra.
  - apply Rabs_no_R0. lra.
Qed.
Example C50_case : exists v, bid_side_slope_difference XRA (Dim2 (A:=XRA) (mkArray2 (A:=XRA) 5 [map Fin [10;0;20;0;60]]))
   (mkArray2 (A:=XRA) 5 [map Fin [5;0;4;0;2]]) = Ok (Fin v) /\ v = 10.
Proof.
  eexists. split.
  - apply (C50_real_value 5 5 [([10;0;20;0;60],[5;0;4;0;2])]); try lia; try discriminate.
    intros s p [E|[]]. injection E as <- <-. cbn. repeat split; try reflexivity; lra.
  - unfold Rmean; cbn. rewrite !Rabs_left by lra. field.
Qed.

(** ** C51.  A book is a list of (bid sizes, ask sizes), k levels each. *)
Definition sdd (k : nat) (b : list (list R * list R)) : res xr :=
  scaled_depth_difference XRA (mkArray2 (A:=XRA) k (map (fun r => map Fin (fst r)) b))
                              (mkArray2 (A:=XRA) k (map (fun r => map Fin (snd r)) b)).
Definition has_depth (r : list R * list R) : bool := if Req_EM_T (Rsum (fst r) + Rsum (snd r)) 0 then false else true.
Definition imbalance (r : list R * list R) : R := 2 * ((Rsum (snd r) - Rsum (fst r)) / (Rsum (snd r) + Rsum (fst r))).
Definition nonneg_depth (b : list (list R * list R)) : Prop := forall r, In r b -> 0 <= Rsum (fst r) /\ 0 <= Rsum (snd r).
Theorem C51_value : forall k b, nonneg_depth b ->
  sdd k b = Ok (match filter has_depth b with [] => NaN | b' => Fin (Rmean (map imbalance b')) end).
Proof.
  intros k b H. unfold sdd, scaled_depth_difference, check. cbn [cols rows]. rewrite !map_length, !Nat.eqb_refl. cbn [andb]. cbv zeta.
  f_equal. 
  assert (E1 : map (asum (a:=XRA)) (map (fun r => map Fin (fst r)) b) = map (fun r : list R * list R => Fin (Rsum (fst r))) b).
  { rewrite map_map. apply map_ext. intros r. apply asum_fin. }
  assert (E2 : map (asum (a:=XRA)) (map (fun r => map Fin (snd r)) b) = map (fun r : list R * list R => Fin (Rsum (snd r))) b).
  { rewrite map_map. apply map_ext. intros r. apply asum_fin. }
  change (num XRA) with xr in *. rewrite E1, E2. rewrite !(map2_diag (X:=xr) (Y:=xr) (Z:=xr)), (map_map (C:=xr)), (map2_diag (X:=xr) (Y:=xr) (Z:=xr)).
  apply nanmean_partial. intros r Hr. destruct (H r Hr) as [H1 H2]. cbn [nmul nsub nadd ndiv ofZ XRA xsub xadd xmul].
  unfold has_depth. destruct (Req_EM_T (Rsum (fst r) + Rsum (snd r)) 0) as [e|e].
  - replace (Rsum (snd r) + Rsum (fst r)) with 0 by lra. replace (Rsum (snd r) - Rsum (fst r)) with 0 by lra.
    rewrite Rmult_0_r, xdiv_0. apply xsgn_inf_0.
  - rewrite xdiv_fin by lra. f_equal. unfold imbalance. field. lra.
Qed.
Lemma imbalance_range r : 0 <= Rsum (fst r) -> 0 <= Rsum (snd r) -> has_depth r = true -> -2 <= imbalance r <= 2.
Proof.
  intros H1 H2 H. unfold has_depth in H. destruct (Req_EM_T _ 0); [discriminate|].
  unfold imbalance. assert (HP : 0 < Rsum (snd r) + Rsum (fst r)) by lra.
  assert (-1 <= (Rsum (snd r) - Rsum (fst r)) / (Rsum (snd r) + Rsum (fst r))) by (apply le_div_iff; lra).
  assert ((Rsum (snd r) - Rsum (fst r)) / (Rsum (snd r) + Rsum (fst r)) <= 1) by (apply div_le_iff; lra). lra.
Qed.
Theorem C51_range : forall k b v, nonneg_depth b -> sdd k b = Ok v -> v = NaN \/ exists r, v = Fin r /\ -2 <= r <= 2.
Proof.
  intros k b v H E. rewrite C51_value in E by auto. injection E as <-.
  destruct (filter has_depth b) as [|x l] eqn:EF; [left; auto|right]. eexists; split; [reflexivity|].
  apply (Rmean_bounds (map imbalance (x :: l))); [discriminate|].
  intros y Hy. apply in_map_iff in Hy as (r & <- & Hr). rewrite <- EF in Hr. apply filter_In in Hr as [Hr1 Hr2].
  destruct (H r Hr1). apply imbalance_range; auto.
Qed.
Theorem C51_nan_iff_empty_book : forall k b, nonneg_depth b ->
  (sdd k b = Ok NaN <-> forall r, In r b -> Rsum (fst r) = 0 /\ Rsum (snd r) = 0).
Proof.
  intros k b H. rewrite C51_value by auto. split.
  - intros E r Hr. destruct (filter has_depth b) eqn:EF; [|discriminate].
    destruct (has_depth r) eqn:EH.
    + assert (In r []) by (rewrite <- EF; apply filter_In; auto). destruct H0.
    + unfold has_depth in EH. destruct (Req_EM_T _ 0); [|discriminate]. destruct (H r Hr). lra.
  - intros HZ. replace (filter has_depth b) with (@nil (list R * list R)); auto.
    symmetry. clear H. induction b as [|r b IH]; auto. cbn [filter].
    destruct (HZ r (or_introl eq_refl)) as [E1 E2]. unfold has_depth at 1. rewrite E1, E2.
    destruct (Req_EM_T (0 + 0) 0) as [|n]; [apply IH; intros; apply HZ; right; auto|destruct n; lra].
Qed.
Theorem C51_antisymmetric : forall k b, nonneg_depth b ->
  exists v, sdd k b = Ok v /\ sdd k (map (fun r => (snd r, fst r)) b) = Ok (xopp v).
Proof.
  intros k b H. eexists. split; [apply C51_value; auto|].
  rewrite C51_value.
  2:{ intros r Hr. apply in_map_iff in Hr as (r' & <- & Hr'). cbn [fst snd]. destruct (H r' Hr'). auto. }
  f_equal.
  assert (EF : filter has_depth (map (fun r : list R * list R => (snd r, fst r)) b) = map (fun r => (snd r, fst r)) (filter has_depth b)).
  { clear. induction b as [|r b IH]; auto. cbn [map filter]. 
    replace (has_depth (snd r, fst r)) with (has_depth r).
    2:{ unfold has_depth. cbn [fst snd]. rewrite Rplus_comm. reflexivity. }
    destruct (has_depth r); cbn [map]; rewrite IH; auto. }
  rewrite EF. destruct (filter has_depth b) as [|r l] eqn:E2; [reflexivity|]. cbn [map]. cbn [xopp]. f_equal.
  change (Rmean (map imbalance (map (fun r => (snd r, fst r)) (r :: l))) = - Rmean (map imbalance (r :: l))).
  rewrite map_map. replace (- Rmean (map imbalance (r :: l))) with ((-1) * Rmean (map imbalance (r :: l))) by ring.
  rewrite <- Rmean_scal, map_map. apply Rmean_map_ext. intros r' Hr'. unfold imbalance. cbn [fst snd].
  assert (HH : has_depth r' = true) by (rewrite <- E2 in Hr'; apply filter_In in Hr'; tauto).
  unfold has_depth in HH. destruct (Req_EM_T (Rsum (fst r') + Rsum (snd r')) 0); [discriminate|].
  field. lra.
Qed.
Theorem C51_size_unit : forall k b c, nonneg_depth b -> 0 < c ->
  sdd k (map (fun r => (map (Rmult c) (fst r), map (Rmult c) (snd r))) b) = sdd k b.
Proof.
  intros k b c H Hc. rewrite !C51_value; auto.
  2:{ intros r Hr. apply in_map_iff in Hr as (r' & <- & Hr'). cbn [fst snd]. destruct (H r' Hr').
      split; rewrite Rsum_scal; apply Rmult_le_pos; lra. }
  f_equal.
  assert (EF : filter has_depth (map (fun r : list R * list R => (map (Rmult c) (fst r), map (Rmult c) (snd r))) b) = map (fun r => (map (Rmult c) (fst r), map (Rmult c) (snd r))) (filter has_depth b)).
  { clear - Hc. induction b as [|r b IH]; auto. cbn [map filter].
    replace (has_depth (map (Rmult c) (fst r), map (Rmult c) (snd r))) with (has_depth r).
    2:{ unfold has_depth. cbn [fst snd]. rewrite !Rsum_scal.
        destruct (Req_EM_T _ 0) as [e|e], (Req_EM_T (c * Rsum (fst r) + c * Rsum (snd r)) 0) as [e'|e']; auto; exfalso.
        - apply e'. rewrite <- Rmult_plus_distr_l, e. ring.
        - rewrite <- Rmult_plus_distr_l in e'. apply Rmult_integral in e' as [|]; [lra|auto]. }
    destruct (has_depth r); cbn [map]; rewrite IH; auto. }
  rewrite EF. destruct (filter has_depth b) as [|r l] eqn:E2; [reflexivity|]. cbn [map]. f_equal.
  change (Rmean (map imbalance (map (fun r => (map (Rmult c) (fst r), map (Rmult c) (snd r))) (r :: l))) = Rmean (map imbalance (r :: l))).
  rewrite map_map. apply Rmean_map_ext. intros r' Hr'. unfold imbalance. cbn [fst snd]. rewrite !Rsum_scal.
  assert (HH : has_depth r' = true) by (rewrite <- E2 in Hr'; apply filter_In in Hr'; tauto).
  unfold has_depth in HH. destruct (Req_EM_T (Rsum (fst r') + Rsum (snd r')) 0); [discriminate|].
  replace (c * Rsum (snd r') - c * Rsum (fst r')) with (c * (Rsum (snd r') - Rsum (fst r'))) by ring.
  replace (c * Rsum (snd r') + c * Rsum (fst r')) with (c * (Rsum (snd r') + Rsum (fst r'))) by ring.
  field. split; lra.
Qed.
Theorem C51_balanced : forall k b, nonneg_depth b -> (forall r, In r b -> Rsum (fst r) = Rsum (snd r)) ->
  (exists r, In r b /\ 0 < Rsum (fst r)) -> sdd k b = Ok (Fin 0).
Proof.
  intros k b H HB (r & Hr & Hp). rewrite C51_value by auto. f_equal.
  assert (HI : In r (filter has_depth b)).
  { apply filter_In. split; auto. unfold has_depth. destruct (Req_EM_T _ 0); auto. rewrite <- (HB r Hr) in e. lra. }
  destruct (filter has_depth b) as [|x l] eqn:EF; [destruct HI|]. f_equal.
  rewrite (Rmean_map_ext imbalance (fun _ => 0)); [apply Rmean_const; discriminate|].
  intros r' Hr'. rewrite <- EF in Hr'. apply filter_In in Hr' as [Hr' _]. unfold imbalance. rewrite (HB r' Hr').
  unfold Rdiv. ring.
Qed.
Theorem C51_shape_mismatch : forall A (b a : array2 A), (cols b <> cols a \/ length (rows b) <> length (rows a)) ->
  scaled_depth_difference A b a = Err AssertionError.
Proof.
  intros A b a H. unfold scaled_depth_difference, check.
  destruct (Nat.eqb_spec (cols b) (cols a)), (Nat.eqb_spec (length (rows b)) (length (rows a))); cbn; auto. tauto.
Qed.
Example C51_case : nonneg_depth [([1;2],[5;4]);([0;0],[0;0])] /\ sdd 2 [([1;2],[5;4]);([0;0],[0;0])] = Ok (Fin 1).
Proof.
  assert (H : nonneg_depth [([1;2],[5;4]);([0;0],[0;0])]) by (intros r [<-|[<-|[]]]; cbn; lra).
  split; auto. rewrite C51_value by auto. f_equal. cbn [filter]. unfold has_depth; cbn [fst snd Rsum].
  destruct (Req_EM_T (1 + (2 + 0) + (5 + (4 + 0))) 0); [lra|]. destruct (Req_EM_T (0 + (0 + 0) + (0 + (0 + 0))) 0); [|lra].
  f_equal. unfold Rmean, imbalance; cbn. field.
Qed.
