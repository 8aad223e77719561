(** * Property C140: rounding errors in the limit-order-book slopes and depth differences *)
From Coq Require Import Reals ZArith List Bool Arith Lia Lra.
From Flocq Require Import Core BinarySingleNaN.
From Verif Require Import Arith XR RealAux Float64 Float64b Float64c Float64d Float64e Model_micro Spec_micro Proofs_micro Props_float4 Props_lob Props_accuracy Props_accuracy2 Props_averages Props_loglik64 Props_dcc64.
Import ListNotations.
Local Open Scope R_scope.

(** ** Specification: a quote in double precision and the exact quote its numbers stand for *)
Record quote64 := mkQuote64 { s_sizes : list b64; s_price : b64; s_mid : b64 }.
Definition real_quote (q : quote64) : quote := mkQuote (reals (s_sizes q)) (B2R (s_price q)) (B2R (s_mid q)).
(** k sizes, each 0 or between 2^-100 and 2^100, prices between 2^-100 and 2^100, and the price away from the midpoint (above it, for the ask side) *)
Definition good_quote (s : side) (k : nat) (q : quote64) : Prop :=
  length (s_sizes q) = k /\ Forall volume64 (s_sizes q) /\ price64 (s_price q) /\ price64 (s_mid q) /\
  match s with Ask => B2R (s_mid q) < B2R (s_price q) | Bid => B2R (s_mid q) <> B2R (s_price q) end.
Definition slope64 (lm : libm) (s : side) (k : nat) (b : list quote64) : res b64 :=
  let sizes := Dim2 (A:=B64 lm) (mkArray2 (A:=B64 lm) k (map s_sizes b)) in
  let mids := Dim1 (A:=B64 lm) (map s_mid b) in
  match s with Ask => ask_slope (B64 lm) sizes (map s_price b) mids | Bid => bid_slope (B64 lm) sizes (map s_price b) mids end.

Lemma p100' : 0 < bpow radix2 (-100). Proof. apply bpow_gt_0. Qed.
Lemma depth_sized lm l : (Z.of_nat (length l) <= 2 ^ 50)%Z -> Forall volume64 l -> sized 150 (levels lm (length l)) (fsum lm l) (Rsum (reals l)).
Proof.
  intros HL HV. destruct l as [|x l'] eqn:EL.
  - cbn [reals map Rsum]. split; [|left; reflexivity]. apply (close_weaken 0); [lia|]. apply close_exact; [exact (eq_trans (val_ofZ 0) RN_0)|lra].
  - rewrite <- EL in *. assert (LV := levels_lt lm (length l) ltac:(rewrite EL; cbn; lia)).
    apply (sized_sum lm 100 0 l (reals l)); [lia|exact HL|lia|]. clear - HV. unfold reals. induction HV; cbn [map]; constructor; [apply volume_sized; assumption|assumption].
Qed.
Lemma distance_sized s k q : good_quote s k q -> exists d, d = distance s (real_quote q) /\ 0 < d /\
  sized 152 1 (match s with Ask => fsub (s_price q) (s_mid q) | Bid => Babs (fsub (s_price q) (s_mid q)) end) d.
Proof.
  intros (_ & _ & Hp & Hm & Hd). destruct (price_val _ Hp) as (Ep & Bp & _), (price_val _ Hm) as (Em & Bm & _). assert (P := p100').
  assert (G := gap _ _ _ _ Ep Em Bp Bm). assert (W : bpow radix2 100 <= bpow radix2 1000) by (apply bpow_le; lia).
  eexists. split; [reflexivity|]. destruct s; unfold distance; cbn [real_quote q_price q_mid].
  - split; [lra|]. rewrite Rabs_pos_eq in G by lra. split; [apply close_sub; [exact Ep|exact Em|lra|lra]|exact G].
  - split; [apply Rabs_pos_lt; lra|]. split; [apply close_abs_sub; [exact Ep|exact Em|lra|lra]|exact G].
Qed.
Lemma slope_model lm s k b : (2 <= k)%nat ->
  slope64 lm s k b = Ok (nanmean (B64 lm) (map (fun q => fdiv (fsum lm (s_sizes q)) (match s with Ask => fsub (s_price q) (s_mid q) | Bid => Babs (fsub (s_price q) (s_mid q)) end)) b)).
Proof.
  intros Hk. assert (HK : (1 <? k)%nat = true) by (apply Nat.ltb_lt; lia).
  assert (B : forall (f : b64 -> b64 -> b64) (g h : quote64 -> b64), bcast (B64 lm) f (map g b) (map h b) = Ok (map (fun r => f (g r) (h r)) b)).
  { intros. unfold bcast. rewrite !map_length, Nat.eqb_refl. f_equal. apply map2_diag. }
  destruct s; unfold slope64, ask_slope, bid_slope, lob_slope, check; cbv zeta; cbn [cols rows]; rewrite HK, !map_length, Nat.eqb_refl;
    cbn [nsub nabs ndiv asum B64]; change (num (B64 lm)) with b64; rewrite B; cbn [bind]; rewrite !map_map; change (num (B64 lm)) with b64; rewrite B; reflexivity.
Qed.
Lemma nanmean_total lm (l : list b64) : (forall x, In x l -> exists v, val x = Fin v) -> nanmean (B64 lm) l = amean (B64 lm) l.
Proof.
  intros H. unfold nanmean. cbn [isnan B64]. change (num (B64 lm)) with b64. f_equal. apply filter_whole. intros x Hx. destruct (H x Hx) as (v & E). rewrite val_isnan, E. reflexivity.
Qed.

(** ** The slopes: the error is relative to the slope itself, however close the prices are to the midpoint *)
Theorem C140_slope : forall lm s k b, (2 <= k)%nat -> (Z.of_nat k <= 2 ^ 50)%Z -> b <> [] -> (Z.of_nat (length b) <= 2 ^ 50)%Z -> (forall q, In q b -> good_quote s k q) ->
  exists x v r, slope64 lm s k b = Ok x /\ val x = Fin v /\ slope_of_book s k (map real_quote b) = Ok (Fin r) /\
    r = Rmean (map (fun q => depth (real_quote q) / distance s (real_quote q)) b) /\ relative_error (levels lm k + levels lm (length b) + 3) v r.
Proof.
  intros lm s k b Hk HK HN HL HG.
  assert (LV := levels_lt lm k ltac:(lia)). assert (LN := levels_lt lm (length b) ltac:(destruct b; [congruence|cbn; lia])).
  set (f := fun q => fdiv (fsum lm (s_sizes q)) (match s with Ask => fsub (s_price q) (s_mid q) | Bid => Babs (fsub (s_price q) (s_mid q)) end)).
  set (g := fun q => depth (real_quote q) / distance s (real_quote q)).
  assert (HF : Forall2 (sized 302 (levels lm k + 2)) (map f b) (map g b)).
  { apply Forall2_map. intros q Hq. destruct (distance_sized s k q (HG q Hq)) as (d & Ed & Pd & Sd). destruct (HG q Hq) as (Lq & Vq & _).
    assert (D := depth_sized lm (s_sizes q) ltac:(lia) Vq). rewrite Lq in D. assert (Q := sized_div 150 152 (levels lm k) 1 _ _ _ _ ltac:(lia) ltac:(lia) D Sd Pd).
    unfold f, g. rewrite <- Ed. apply (sized_weaken (150 + 152) 302 (S (levels lm k + 1)) (levels lm k + 2)); [lia|lia|exact Q]. }
  assert (C := sized_mean lm 302 (levels lm k + 2) (map f b) (map g b) ltac:(lia) ltac:(destruct b; [congruence|discriminate]) ltac:(rewrite map_length; lia) ltac:(rewrite map_length; lia) HF). rewrite map_length in C.
  replace (S (levels lm k + 2 + levels lm (length b)))%nat with (levels lm k + levels lm (length b) + 3)%nat in C by lia.
  destruct (sized_relative _ (levels lm k + levels lm (length b) + 3) _ _ ltac:(lia) C) as (v & Ev & HR).
  exists (amean (B64 lm) (map f b)), v, (Rmean (map g b)). split; [|split; [exact Ev|split; [|split; [reflexivity|exact HR]]]].
  - rewrite slope_model by exact Hk. fold f. f_equal. apply nanmean_total. intros x Hx. apply in_map_iff in Hx as (q & <- & Hq).
    destruct (distance_sized s k q (HG q Hq)) as (d & Ed & Pd & Sd). destruct (HG q Hq) as (Lq & Vq & _). assert (D := depth_sized lm (s_sizes q) ltac:(lia) Vq). rewrite Lq in D.
    assert (Q := sized_div 150 152 (levels lm k) 1 _ _ _ _ ltac:(lia) ltac:(lia) D Sd Pd). destruct Q as [(w & E & _) _]. exists w. exact E.
  - assert (HD : forall q, In q (map real_quote b) -> distance s q <> 0).
    { intros q Hq. apply in_map_iff in Hq as (q' & <- & Hq'). destruct (distance_sized s k q' (HG q' Hq')) as (d & Ed & Pd & _). rewrite <- Ed. lra. }
    etransitivity; [apply C49_value; [exact Hk|intros q Hq Z; exfalso; exact (HD q Hq Z)]|].
    assert (FI : filter (regular s) (map real_quote b) = map real_quote b).
    { apply filter_whole. intros q Hq. unfold regular. destruct (Req_EM_T (distance s q) 0) as [e|e]; [exfalso; exact (HD q Hq e)|reflexivity]. }
    rewrite FI. destruct (map real_quote b) as [|q0 b0] eqn:EB; [destruct b; [congruence|discriminate]|]. rewrite <- EB. rewrite map_map. reflexivity.
Qed.

(** ** The slope difference: relative to the two segment slopes it subtracts *)
Definition level64 (l : list b64) (j : nat) : R := B2R (nth j l (fofZ 0)).
Definition segment_slope (sizes prices : list b64) (j i : nat) : R := (level64 sizes j - level64 sizes i) / Rabs (level64 prices j - level64 prices i).
Definition good_levels (k k' : nat) (r : list b64 * list b64) : Prop :=
  length (fst r) = k /\ length (snd r) = k' /\ Forall volume64 (fst r) /\ Forall price64 (snd r) /\
  level64 (snd r) 4 <> level64 (snd r) 2 /\ level64 (snd r) 2 <> level64 (snd r) 0.
Lemma volume_gap x y : volume64 x -> volume64 y -> near 1 (fsub x y) (B2R x - B2R y) (Rabs (B2R x - B2R y)) /\ span 152 (Rabs (B2R x - B2R y)).
Proof.
  intros Hx Hy. destruct (volume_val _ Hx) as [Ex Sx], (volume_val _ Hy) as [Ey Sy]. assert (P := p100'). assert (W : bpow radix2 100 <= bpow radix2 1000) by (apply bpow_le; lia).
  assert (Nx := span_nonneg _ _ Sx). assert (Ny := span_nonneg _ _ Sy). assert (Lx := span_le 100 _ ltac:(lia) Sx). assert (Ly := span_le 100 _ ltac:(lia) Sy).
  split.
  - destruct (Rle_lt_dec (B2R y) (B2R x)) as [L|L].
    + rewrite Rabs_pos_eq by lra. apply close_near. apply close_sub; [exact Ex|exact Ey|lra|lra].
    + assert (SB : val (fsub x y) = RN (B2R x - B2R y)).
      { apply val_sub; assumption. }
      assert (RV := RN_val (B2R x - B2R y) 101 ltac:(rewrite Rabs_left by lra; assert (D := bpow_double 100); change (100 + 1)%Z with 101%Z in D; lra) ltac:(lia)).
      exists (rnd (B2R x - B2R y)). split; [rewrite SB; exact RV|]. split; [|lra].
      assert (E := rnd_add_error (B2R x) (- B2R y)). unfold Rminus. eapply Rle_trans; [apply E; [apply (val_fmt _ _ Ex)|apply generic_format_opp, (val_fmt _ _ Ey)]|]. apply Rmult_le_compat_r; [apply Rabs_pos|]. unfold up. simpl. lra.
  - destruct Sx as [Zx|Bx]; destruct Sy as [Zy|By].
    + left. rewrite Zx, Zy, Rminus_0_r, Rabs_R0. reflexivity.
    + rewrite Zx, Rminus_0_l, Rabs_Ropp, Rabs_pos_eq by lra. right. split; [eapply Rle_trans; [|apply By]; apply bpow_le; lia|eapply Rle_trans; [apply By|]; apply bpow_le; lia].
    + rewrite Zy, Rminus_0_r, Rabs_pos_eq by lra. right. split; [eapply Rle_trans; [|apply Bx]; apply bpow_le; lia|eapply Rle_trans; [apply Bx|]; apply bpow_le; lia].
    + apply (gap _ _ _ _ Ex Ey Bx By).
Qed.

Lemma price_distance x y : price64 x -> price64 y -> B2R x <> B2R y -> sized 152 1 (Babs (fsub x y)) (Rabs (B2R x - B2R y)) /\ 0 < Rabs (B2R x - B2R y).
Proof.
  intros Hx Hy HN. destruct (price_val _ Hx) as (Ex & Bx & _), (price_val _ Hy) as (Ey & By & _). assert (P := p100'). assert (W : bpow radix2 100 <= bpow radix2 1000) by (apply bpow_le; lia).
  split; [|apply Rabs_pos_lt; lra]. split; [apply close_abs_sub; [exact Ex|exact Ey|lra|lra]|apply (gap _ _ _ _ Ex Ey Bx By)].
Qed.
Lemma segment_near s1 s0 p1 p0 : volume64 s1 -> volume64 s0 -> price64 p1 -> price64 p0 -> B2R p1 <> B2R p0 ->
  let r := (B2R s1 - B2R s0) / Rabs (B2R p1 - B2R p0) in near 4 (fdiv (fsub s1 s0) (Babs (fsub p1 p0))) r (Rabs r) /\ span 304 (Rabs r).
Proof.
  intros H1 H0 P1 P0 HN r. destruct (volume_gap _ _ H1 H0) as [Nn Sn]. destruct (price_distance _ _ P1 P0 HN) as [[Cd Sd] Pd].
  assert (ER : Rabs r = Rabs (B2R s1 - B2R s0) / Rabs (B2R p1 - B2R p0)) by (unfold r, Rdiv; rewrite Rabs_mult, Rabs_inv, Rabs_Rabsolu; reflexivity).
  assert (SR := span_div 152 152 _ _ Pd Sn Sd). rewrite <- ER in SR. split; [|exact SR].
  rewrite ER. apply (near_div 1 1); [simpl; lia|exact Nn|exact Cd|exact Pd| |]; rewrite <- ER; [apply (bpow1000 304); [lia|exact SR]|apply (span_up 304); [lia|exact SR]].
Qed.
Lemma span_plus e a b : (0 <= e)%Z -> span e a -> span e b -> span (e + 1) (a + b).
Proof. intros He Ha Hb. exact (span_add e a b Ha Hb). Qed.
Lemma nth_Forall {X} (P : X -> Prop) l j d : Forall P l -> (j < length l)%nat -> P (nth j l d).
Proof. intros H Hj. rewrite Forall_forall in H. apply H, nth_In, Hj. Qed.
Theorem C140_slope_difference : forall lm k k' (book : list (list b64 * list b64)), (5 <= k)%nat -> (5 <= k')%nat -> book <> [] -> (Z.of_nat (length book) <= 2 ^ 50)%Z -> (forall r, In r book -> good_levels k k' r) ->
  exists x v, bid_side_slope_difference (B64 lm) (Dim2 (A:=B64 lm) (mkArray2 (A:=B64 lm) k (map fst book))) (mkArray2 (A:=B64 lm) k' (map snd book)) = Ok x /\ val x = Fin v /\
    bid_side_slope_difference XRA (Dim2 (A:=XRA) (mkArray2 (A:=XRA) k (map (fun r => map exact (fst r)) book))) (mkArray2 (A:=XRA) k' (map (fun r => map exact (snd r)) book)) =
      Ok (Fin (Rmean (map (fun r => segment_slope (fst r) (snd r) 4 2 - segment_slope (fst r) (snd r) 2 0) book))) /\
    Rabs (v - Rmean (map (fun r => segment_slope (fst r) (snd r) 4 2 - segment_slope (fst r) (snd r) 2 0) book))
      <= INR (levels lm (length book) + 7) * bpow radix2 (-52) * Rmean (map (fun r => Rabs (segment_slope (fst r) (snd r) 4 2) + Rabs (segment_slope (fst r) (snd r) 2 0)) book).
Proof.
  intros lm k k' book Hk Hk' HN HL HG. assert (LN := levels_lt lm (length book) ltac:(destruct book; [congruence|cbn; lia])).
  set (hi := fun r => segment_slope (fst r) (snd r) 4 2). set (lo := fun r => segment_slope (fst r) (snd r) 2 0).
  set (ms := map (fun r => (hi r - lo r, Rabs (hi r) + Rabs (lo r))) book).
  set (xs := map (fun r => slope_gap (B64 lm) (fun j => nth (A := num (B64 lm)) j (fst r) nnan) (fun j => nth (A := num (B64 lm)) j (snd r) nnan)) book).
  assert (LX : length (A := b64) xs = length book) by apply map_length. assert (LM : length ms = length book) by apply map_length.
  assert (ROW : forall r, In r book -> near 5 (slope_gap (B64 lm) (fun j => nth (A := num (B64 lm)) j (fst r) nnan) (fun j => nth (A := num (B64 lm)) j (snd r) nnan)) (hi r - lo r) (Rabs (hi r) + Rabs (lo r)) /\ span 305 (Rabs (hi r) + Rabs (lo r))).
  { intros r Hr. destruct (HG r Hr) as (Ls & Lp & Vs & Ps & N1 & N2).
    assert (NS : forall j, (j < 5)%nat -> nth (A := b64) j (fst r) (@nnan (B64 lm)) = nth j (fst r) (fofZ 0)) by (intros j Hj; apply (nth_indep (A := b64)); lia).
    assert (NP : forall j, (j < 5)%nat -> nth (A := b64) j (snd r) (@nnan (B64 lm)) = nth j (snd r) (fofZ 0)) by (intros j Hj; apply (nth_indep (A := b64)); lia).
    assert (V : forall j, (j < 5)%nat -> volume64 (nth j (fst r) (fofZ 0))) by (intros j Hj; apply nth_Forall; [exact Vs|lia]).
    assert (P : forall j, (j < 5)%nat -> price64 (nth j (snd r) (fofZ 0))) by (intros j Hj; apply nth_Forall; [exact Ps|lia]).
    unfold slope_gap. cbn [nsub ndiv nabs B64]. change (num (B64 lm)) with b64 in *. rewrite !NS, !NP by lia.
    destruct (segment_near _ _ _ _ (V 4%nat ltac:(lia)) (V 2%nat ltac:(lia)) (P 4%nat ltac:(lia)) (P 2%nat ltac:(lia)) N1) as [A1 S1].
    destruct (segment_near _ _ _ _ (V 2%nat ltac:(lia)) (V 0%nat ltac:(lia)) (P 2%nat ltac:(lia)) (P 0%nat ltac:(lia)) N2) as [A2 S2].
    assert (S3 := span_plus 304 _ _ ltac:(lia) S1 S2). split; [|exact S3].
    apply (near_sub 4 4); [lia|lia|simpl; lia|exact A1|exact A2|apply (bpow1000 305); [lia|exact S3]]. }
  assert (F2 : Forall2 (fun x p => near 5 x (fst p) (snd p)) xs ms).
  { unfold xs, ms. apply Forall2_map. intros r Hr. cbn [fst snd]. apply ROW, Hr. }
  assert (SM : forall y, In y (map snd ms) -> span 305 y).
  { intros y Hy. unfold ms in Hy. rewrite map_map in Hy. apply in_map_iff in Hy as (r & <- & Hr). cbn [snd]. apply ROW, Hr. }
  assert (NE : map snd ms <> []) by (unfold ms; rewrite map_map; destruct book; [congruence|discriminate]).
  assert (LS : length (map snd ms) = length book) by (rewrite map_length; exact LM).
  assert (MS : span 355 (Rsum (map snd ms) / INR (length book))) by (rewrite <- LS; apply (mean_span 305); [lia|exact NE|lia|exact SM]).
  assert (SS : span 355 (Rsum (map snd ms))) by (apply (span_sum 305); [lia|lia|exact SM]).
  assert (NM := near_fsum_sizes lm 5 xs ms F2 ltac:(apply (bpow1000 355); [lia|exact SS]) ltac:(rewrite LX; lia)). rewrite LX in NM.
  assert (BP : (0 < length book)%nat) by (destruct book; [congruence|cbn; lia]).
  assert (IP : 0 < INR (length book)) by (apply lt_0_INR; exact BP).
  assert (ND := near_divZ (5 + levels lm (length book)) _ _ _ (Z.of_nat (length book)) ltac:(lia) ltac:(lia) NM ltac:(apply (bpow1000 355); [lia|exact SS])
    ltac:(rewrite <- INR_IZR_INZ; destruct (span_up 355 _ ltac:(lia) MS) as [Z | Z]; [left; replace (Rsum (map snd ms)) with (Rsum (map snd ms) / INR (length book) * INR (length book)) by (field; lra); rewrite Z; ring|right; exact Z])).
  destruct (near_error (S (S (5 + levels lm (length book)))) _ _ _ ltac:(lia) ND) as (v & Ev & HR).
  assert (RM : forall f : list b64 * list b64 -> R, Rmean (map f book) = Rsum (map f book) / IZR (Z.of_nat (length book))) by (intros f; unfold Rmean; rewrite map_length, INR_IZR_INZ; reflexivity).
  exists (amean (B64 lm) xs), v. split; [|split; [|split]].
  - rewrite C50_value by assumption. f_equal. apply nanmean_total. intros x Hx. apply in_map_iff in Hx as (r & <- & Hr). destruct (ROW r Hr) as [(w & E & _) _]. exists w. exact E.
  - unfold amean. cbn [asum ndiv ofZ B64]. change (num (B64 lm)) with b64. rewrite LX. exact Ev.
  - assert (CR := C50_real_value k k' (map (fun r => (reals (fst r), reals (snd r))) book) Hk Hk' ltac:(destruct book; [congruence|discriminate])).
    rewrite !map_map in CR. cbn [fst snd] in CR.
    assert (EX : forall (g : list b64 * list b64 -> list b64), map (fun r => map Fin (reals (g r))) book = map (fun r => map exact (g r)) book) by (intros g; apply map_ext; intros r; unfold reals; rewrite map_map; reflexivity).
    rewrite !EX in CR. etransitivity; [apply CR|].
    + intros s p Hsp. apply in_map_iff in Hsp as (r & E & Hr). injection E as <- <-. destruct (HG r Hr) as (Ls & Lp & _ & _ & N1 & N2). unfold reals. rewrite !map_length. split; [exact Ls|]. split; [exact Lp|].
      assert (Z0 : B2R (fofZ 0) = 0) by (apply (val_finite_inv _ _ (eq_trans (val_ofZ 0) RN_0))).
      assert (NT : forall j, nth j (map (fun x : b64 => B2R x) (snd r)) 0 = level64 (snd r) j) by (intros j; unfold level64; rewrite <- Z0 at 1; apply (map_nth (fun x : b64 => B2R x))).
      rewrite !NT. split; assumption.
    + do 2 f_equal. f_equal. apply map_ext. intros r. unfold hi, lo, segment_slope.
      assert (Z0 : B2R (fofZ 0) = 0) by (apply (val_finite_inv _ _ (eq_trans (val_ofZ 0) RN_0))).
      assert (NT : forall j l, nth j (reals l) 0 = level64 l j) by (intros j l; unfold level64, reals; rewrite <- Z0 at 1; apply (map_nth (fun x : b64 => B2R x))).
      cbv zeta. rewrite !NT. reflexivity.
  - fold hi lo. rewrite !RM. unfold ms in HR. rewrite !map_map in HR. cbn [fst snd] in HR. fold ms in HR.
    replace (levels lm (length book) + 7)%nat with (S (S (5 + levels lm (length book)))) by lia.
    unfold Rdiv in *. eapply Rle_trans; [exact HR|]. right. reflexivity.
Qed.

(** ** The scaled depth difference: an absolute error, on a scale from -2 to 2.  Quotes without any depth are left out of the average, in both. *)
Definition has_depth64 (r : list b64 * list b64) : bool := has_depth (reals (fst r), reals (snd r)).
Definition imbalance64 (r : list b64 * list b64) : R := imbalance (reals (fst r), reals (snd r)).
Definition good_book (k : nat) (r : list b64 * list b64) : Prop := length (fst r) = k /\ length (snd r) = k /\ Forall volume64 (fst r) /\ Forall volume64 (snd r).
Definition sdd64 (lm : libm) (k : nat) (b : list (list b64 * list b64)) : res b64 :=
  scaled_depth_difference (B64 lm) (mkArray2 (A:=B64 lm) k (map fst b)) (mkArray2 (A:=B64 lm) k (map snd b)).
Definition entry64 lm (r : list b64 * list b64) : b64 :=
  fdiv (fmul (fofZ 2) (fsub (fsum lm (snd r)) (fsum lm (fst r)))) (fadd (fsum lm (snd r)) (fsum lm (fst r))).
Lemma entry_near lm k r : (1 <= k)%nat -> (Z.of_nat k <= 2 ^ 50)%Z -> good_book k r -> has_depth64 r = true -> near (2 * levels lm k + 6) (entry64 lm r) (imbalance64 r) 2.
Proof.
  intros H1 HK (L1 & L2 & V1 & V2) HD. assert (LV := levels_lt lm k ltac:(lia)).
  assert (D1 := depth_sized lm (fst r) ltac:(lia) V1). assert (D2 := depth_sized lm (snd r) ltac:(lia) V2). rewrite L1 in D1. rewrite L2 in D2.
  set (B := Rsum (reals (fst r))) in *. set (A := Rsum (reals (snd r))) in *. set (L := levels lm k) in *.
  assert (NB := span_nonneg _ _ (proj2 D1)). assert (NA := span_nonneg _ _ (proj2 D2)).
  assert (PS : 0 < A + B). { unfold has_depth64, has_depth in HD. cbn [fst snd] in HD. fold A B in HD. destruct (Req_EM_T (B + A) 0); [discriminate|]. lra. }
  assert (SA : span 151 (A + B)) by (apply (span_add 150); [exact (proj2 D2)|exact (proj2 D1)]).
  assert (BA := bpow1000 151 _ ltac:(lia) SA).
  assert (NS := near_sub L L L _ _ _ _ _ _ (le_n _) (le_n _) ltac:(lia) (close_near _ _ _ (proj1 D2)) (close_near _ _ _ (proj1 D1)) BA).
  assert (CS := close_add L L L _ _ _ _ (le_n _) (le_n _) ltac:(lia) (proj1 D2) (proj1 D1) BA).
  assert (S2 : span 2 2) by (right; split; [apply (Rle_trans _ (bpow radix2 0)); [apply bpow_le; lia|simpl; lra]|simpl; lra]).
  assert (N2 : near 0 (fofZ 2) 2 2) by (apply near_exact; [apply val_ofZ_small; simpl; lia|rewrite Rabs_pos_eq; lra]).
  assert (SM := span_mul 2 151 _ _ S2 SA).
  assert (NP := near_mul 0 (S L) _ _ _ _ _ _ ltac:(lia) N2 NS ltac:(apply (bpow1000 153); [lia|exact SM]) ltac:(apply (span_up 153); [lia|exact SM])).
  assert (Q2 : 2 * (A + B) / (A + B) = 2) by (field; lra).
  assert (NQ := near_div (S (S (0 + S L))) (S L) _ _ _ _ _ ltac:(lia) NP CS PS ltac:(rewrite Q2; apply (bpow1000 2); [lia|exact S2]) ltac:(rewrite Q2; apply (span_up 2); [lia|exact S2])).
  rewrite Q2 in NQ. unfold entry64. replace (2 * L + 6)%nat with (S (S (S (S (0 + S L)) + S L))) by lia.
  replace (imbalance64 r) with (2 * (A - B) / (A + B)); [exact NQ|]. unfold imbalance64, imbalance. cbn [fst snd]. fold A B. field. lra.
Qed.
Lemma entry_empty lm k r : (1 <= k)%nat -> (Z.of_nat k <= 2 ^ 50)%Z -> good_book k r -> has_depth64 r = false -> val (entry64 lm r) = NaN.
Proof.
  intros H1 HK (L1 & L2 & V1 & V2) HD.
  assert (D1 := depth_sized lm (fst r) ltac:(lia) V1). assert (D2 := depth_sized lm (snd r) ltac:(lia) V2).
  assert (NB := span_nonneg _ _ (proj2 D1)). assert (NA := span_nonneg _ _ (proj2 D2)).
  unfold has_depth64, has_depth in HD. cbn [fst snd] in HD. destruct (Req_EM_T _ 0) as [Z|Z]; [|discriminate].
  assert (ZB : Rsum (reals (fst r)) = 0) by lra. assert (ZA : Rsum (reals (snd r)) = 0) by lra. rewrite ZB in D1. rewrite ZA in D2.
  assert (E0 : forall n x, close n x 0 -> val x = Fin 0) by (intros n x (v & E & N & R1 & R2); rewrite Rmult_0_l in R2; replace 0 with v by lra; exact E).
  assert (EB := E0 _ _ (proj1 D1)). assert (EA := E0 _ _ (proj1 D2)).
  assert (ES : val (fsub (fsum lm (snd r)) (fsum lm (fst r))) = Fin 0) by (rewrite (val_sub _ _ _ _ EA EB), Rminus_0_r; exact RN_0).
  assert (EP : val (fadd (fsum lm (snd r)) (fsum lm (fst r))) = Fin 0) by (rewrite (val_add _ _ _ _ EA EB), Rplus_0_r; exact RN_0).
  assert (E2 : val (fofZ 2) = Fin 2) by (apply val_ofZ_small; simpl; lia).
  assert (EM : val (fmul (fofZ 2) (fsub (fsum lm (snd r)) (fsum lm (fst r)))) = Fin 0) by (rewrite (val_mul _ _ _ _ E2 ES), Rmult_0_r; exact RN_0).
  unfold entry64. apply val_finite_inv in EM, EP. destruct EM as [FM RM], EP as [FP RP].
  destruct (fmul (fofZ 2) (fsub (fsum lm (snd r)) (fsum lm (fst r)))) as [s1| | |s1 m1 e1 B1]; try discriminate FM; [|exfalso; apply (proj1 (fin_sign s1 m1 e1 B1)); exact RM].
  destruct (fadd (fsum lm (snd r)) (fsum lm (fst r))) as [s2| | |s2 m2 e2 B2]; try discriminate FP; [|exfalso; apply (proj1 (fin_sign s2 m2 e2 B2)); exact RP]. reflexivity.
Qed.
Lemma map2_fst_snd {X Y} (f : X -> X -> Y) (g : X * X -> Y) l : (forall p, g p = f (snd p) (fst p)) -> map2 f (map snd l) (map fst l) = map g l.
Proof. intros H. induction l as [|p l IH]; [reflexivity|]. cbn [map map2]. rewrite H. f_equal. exact IH. Qed.
Theorem C140_depth_difference : forall lm k (b : list (list b64 * list b64)), (1 <= k)%nat -> (Z.of_nat k <= 2 ^ 50)%Z -> (Z.of_nat (length b) <= 2 ^ 50)%Z -> (forall r, In r b -> good_book k r) ->
  let used := filter has_depth64 b in
  exists x, sdd64 lm k b = Ok x /\
    (used = [] -> val x = NaN /\ sdd k (map (fun r => (reals (fst r), reals (snd r))) b) = Ok NaN) /\
    (used <> [] -> exists v, val x = Fin v /\ sdd k (map (fun r => (reals (fst r), reals (snd r))) b) = Ok (Fin (Rmean (map imbalance64 used))) /\
      Rabs (v - Rmean (map imbalance64 used)) <= INR (2 * levels lm k + levels lm (length used) + 8) * bpow radix2 (-51)).
Proof.
  intros lm k b H1 HK HL HG used. assert (LV := levels_lt lm k ltac:(lia)).
  assert (UI : forall r, In r used -> good_book k r /\ has_depth64 r = true) by (intros r Hr; apply filter_In in Hr as [Hr D]; split; [apply HG, Hr|exact D]).
  assert (UL : (length used <= length b)%nat) by apply filter_le.
  assert (MODEL : sdd64 lm k b = Ok (amean (B64 lm) (map (entry64 lm) used))).
  { unfold sdd64, scaled_depth_difference, check. cbn [cols rows]. rewrite !map_length, !Nat.eqb_refl. cbn [andb]. cbv zeta. cbn [asum nsub nadd nmul ndiv ofZ B64]. change (num (B64 lm)) with b64.
    rewrite !map_map. rewrite !(map2_diag (X:=b64) (Y:=b64) (Z:=b64)), map_map, (map2_diag (X:=b64) (Y:=b64) (Z:=b64)).
    unfold nanmean. cbn [isnan B64]. change (num (B64 lm)) with b64. do 2 f_equal. unfold used. clear - HG H1 HK. induction b as [|r b IH]; [reflexivity|]. cbn [map filter].
    fold (entry64 lm r). rewrite IH by (intros r' Hr'; apply HG; right; exact Hr'). rewrite val_isnan. destruct (has_depth64 r) eqn:ED.
    - destruct (entry_near lm k r H1 HK (HG r (or_introl eq_refl)) ED) as (w & -> & _). reflexivity.
    - rewrite (entry_empty lm k r H1 HK (HG r (or_introl eq_refl)) ED). reflexivity. }
  assert (EXACT := C51_value k (map (fun r => (reals (fst r), reals (snd r))) b)).
  assert (ND : nonneg_depth (map (fun r => (reals (fst r), reals (snd r))) b)).
  { intros r Hr. apply in_map_iff in Hr as (r' & <- & Hr'). destruct (HG r' Hr') as (L1 & L2 & V1 & V2). cbn [fst snd]. split; [apply (span_nonneg 150), (depth_sized lm (fst r') ltac:(lia) V1)|apply (span_nonneg 150), (depth_sized lm (snd r') ltac:(lia) V2)]. }
  specialize (EXACT ND).
  assert (FE : filter has_depth (map (fun r => (reals (fst r), reals (snd r))) b) = map (fun r => (reals (fst r), reals (snd r))) used).
  { unfold used. clear. induction b as [|r b IH]; [reflexivity|]. cbn [map filter]. unfold has_depth64 at 1. destruct (has_depth (reals (fst r), reals (snd r))); cbn [map]; rewrite IH; reflexivity. }
  rewrite FE in EXACT.
  exists (amean (B64 lm) (map (entry64 lm) used)). split; [exact MODEL|]. split.
  - intros E0. rewrite E0 in *. split; [|exact EXACT]. unfold amean. cbn [asum ndiv ofZ B64 map length]. reflexivity.
  - intros NE. assert (UP : (0 < length used)%nat) by (destruct used; [congruence|cbn; lia]). assert (LN := levels_lt lm (length used) UP).
    assert (IP : 0 < INR (length used)) by (apply lt_0_INR; exact UP).
    set (ms := map (fun r => (imbalance64 r, 2)) used). set (xs := map (entry64 lm) used).
    assert (LX : length xs = length used) by apply map_length.
    assert (F2 : Forall2 (fun x p => near (2 * levels lm k + 6) x (fst p) (snd p)) xs ms).
    { unfold xs, ms. apply Forall2_map. intros r Hr. cbn [fst snd]. destruct (UI r Hr). apply entry_near; assumption. }
    assert (S2 : Rsum (map snd ms) = 2 * INR (length used)).
    { unfold ms. rewrite map_map. cbn [snd]. rewrite Rsum_const. ring. }
    assert (IB : INR (length used) <= bpow radix2 50) by (rewrite INR_IZR_INZ; change (bpow radix2 50) with (IZR (2 ^ 50)); apply IZR_le; lia).
    assert (BB : 2 * INR (length used) <= bpow radix2 1000).
    { apply (Rle_trans _ (bpow radix2 51)); [assert (D := bpow_double 50); change (50 + 1)%Z with 51%Z in D; lra|apply bpow_le; lia]. }
    assert (NM := near_fsum_sizes lm (2 * levels lm k + 6) xs ms F2 ltac:(rewrite S2; exact BB) ltac:(rewrite LX; lia)). rewrite LX, S2 in NM.
    assert (Q2 : 2 * INR (length used) / IZR (Z.of_nat (length used)) = 2) by (rewrite <- INR_IZR_INZ; field; lra).
    assert (SM2 : bpow radix2 (-1000) <= 2) by (apply (Rle_trans _ (bpow radix2 0)); [apply bpow_le; lia|simpl; lra]).
    assert (NDZ := near_divZ (2 * levels lm k + 6 + levels lm (length used)) _ _ _ (Z.of_nat (length used)) ltac:(lia) ltac:(lia) NM BB ltac:(rewrite Q2; right; exact SM2)).
    rewrite Q2 in NDZ.
    destruct (near_error (S (S (2 * levels lm k + 6 + levels lm (length used)))) _ _ _ ltac:(lia) NDZ) as (v & Ev & HR).
    exists v. split; [|split].
    + unfold amean. cbn [asum ndiv ofZ B64]. change (num (B64 lm)) with b64. fold xs. rewrite LX. exact Ev.
    + rewrite EXACT. destruct (map (fun r => (reals (fst r), reals (snd r))) used) as [|q0 l0] eqn:EB; [destruct used; [congruence|discriminate]|]. rewrite <- EB, map_map. reflexivity.
    + unfold ms in HR. rewrite map_map in HR. cbn [fst] in HR. rewrite <- INR_IZR_INZ in HR. unfold Rmean. rewrite map_length.
      replace (2 * levels lm k + levels lm (length used) + 8)%nat with (S (S (2 * levels lm k + 6 + levels lm (length used)))) by lia.
      assert (D := bpow_double (-52)). change (-52 + 1)%Z with (-51)%Z in D. rewrite <- D. eapply Rle_trans; [exact HR|]. right. ring.
Qed.

(** non-vacuity: a quote for either side, one with five levels, and a book with an empty quote *)
Definition case_quote : quote64 := mkQuote64 [fofZ 7; fofZ 0; fofZ 3] (fofZ 101) (fofZ 100).
Definition case_prices : list b64 := map fofZ [100; 101; 102; 103; 105]%Z.
Definition case_sizes : list b64 := map fofZ [7; 1; 3; 0; 9]%Z.
Definition case_book : list (list b64 * list b64) := [([fofZ 7; fofZ 1], [fofZ 3; fofZ 0]); ([fofZ 0; fofZ 0], [fofZ 0; fofZ 0])].
Lemma zero_volume : volume64 (fofZ 0).
Proof. assert (E : val (fofZ 0) = Fin 0) by (apply val_ofZ_small; simpl; lia). destruct (val_finite_inv _ _ E) as [F E0]. split; [exact F|left; exact E0]. Qed.
Example C140_case : good_quote Ask 3 case_quote /\ good_quote Bid 3 case_quote /\ good_levels 5 5 (case_sizes, case_prices) /\
  (forall r, In r case_book -> good_book 2 r) /\ length (filter has_depth64 case_book) = 1%nat /\
  segment_slope case_sizes case_prices 4 2 = 2 /\ segment_slope case_sizes case_prices 2 0 = -2.
Proof.
  assert (VZ : forall n, (0 <= n <= 2 ^ 50)%Z -> volume64 (fofZ n)) by (intros n Hn; apply small_volume; exact Hn).
  assert (PZ : forall n, (1 <= n <= 2 ^ 50)%Z -> price64 (fofZ n)) by (intros n Hn; apply small_price; exact Hn).
  assert (BZ : forall n, (Z.abs n <= 2 ^ 50)%Z -> B2R (fofZ n) = IZR n) by (intros n Hn; apply B2R_ofZ; exact Hn).
  assert (L : B2R (fofZ 100) < B2R (fofZ 101)) by (rewrite !BZ by (simpl; lia); lra).
  split; [|split; [|split; [|split; [|split; [|split]]]]].
  - unfold good_quote, case_quote. cbn [s_sizes s_price s_mid]. split; [reflexivity|]. split; [repeat (apply Forall_cons; [apply VZ; lia|]); apply Forall_nil|]. split; [apply PZ; lia|]. split; [apply PZ; lia|exact L].
  - unfold good_quote, case_quote. cbn [s_sizes s_price s_mid]. split; [reflexivity|]. split; [repeat (apply Forall_cons; [apply VZ; lia|]); apply Forall_nil|]. split; [apply PZ; lia|]. split; [apply PZ; lia|lra].
  - unfold good_levels, case_sizes, case_prices, level64. cbn [fst snd map nth]. split; [reflexivity|]. split; [reflexivity|]. split; [repeat (apply Forall_cons; [apply VZ; lia|]); apply Forall_nil|]. split; [repeat (apply Forall_cons; [apply PZ; lia|]); apply Forall_nil|].
    rewrite !BZ by (simpl; lia). split; lra.
  - intros r [<- | [<- | []]]; unfold good_book; cbn [fst snd]; (split; [reflexivity|]); (split; [reflexivity|]); split; repeat (apply Forall_cons; [apply VZ; lia|]); apply Forall_nil.
  - unfold case_book. cbn [filter]. unfold has_depth64, has_depth, reals. cbn [fst snd map Rsum].
    destruct (Req_EM_T _ 0) as [e|e]; [rewrite !BZ in e by (simpl; lia); lra|]. destruct (Req_EM_T _ 0) as [e'|e']; [reflexivity|]. exfalso. apply e'. rewrite !BZ by (simpl; lia). lra.
  - unfold segment_slope, level64, case_sizes, case_prices. cbn [map nth]. rewrite !BZ by (simpl; lia). rewrite Rabs_pos_eq by lra. lra.
  - unfold segment_slope, level64, case_sizes, case_prices. cbn [map nth]. rewrite !BZ by (simpl; lia). rewrite Rabs_pos_eq by lra. lra.
Qed.
