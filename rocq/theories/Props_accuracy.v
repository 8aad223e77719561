(** * Property C125: how accurate the spread measures are in double precision *)
From Coq Require Import Reals ZArith List Bool Arith Lia Lra.
From Flocq Require Import Core BinarySingleNaN.
From Verif Require Import Props_float4.
From Verif Require Import Arith XR RealAux Float64 Float64b Float64c Model_micro Spec_micro Proofs_micro Props_spread.
Import ListNotations.
Local Open Scope R_scope.

(** the exact quotes, prices and volumes: the real numbers the doubles stand for (Flocq's B2R) *)
Definition real_quotes (qs : list (b64 * b64)) : list (R * R) := map (fun q => (B2R (fst q), B2R (snd q))) qs.
(** a price is a double between 2^-100 and 2^100 *)
Definition price64 (x : b64) : Prop := is_finite x = true /\ bpow radix2 (-100) <= B2R x <= bpow radix2 100.
(** a volume is such a number, or 0 *)
Definition volume64 (x : b64) : Prop := is_finite x = true /\ (B2R x = 0 \/ bpow radix2 (-100) <= B2R x <= bpow radix2 100).
(** relative error: [v] differs from [s] by at most k * 2^-52 times s *)
Definition relative_error (k : nat) (v s : R) : Prop := Rabs (v - s) <= INR k * bpow radix2 (-52) * s.

Lemma sized_relative e k x r : (Z.of_nat k <= 2 ^ 52)%Z -> sized e k x r -> exists v, val x = Fin v /\ relative_error k v r.
Proof. intros Hk [C S]. destruct C as (v & E & Hv & HR). exists v. split; [exact E|]. apply rel_error; [exact Hk|apply (span_nonneg e); exact S|exact HR]. Qed.
Lemma price_val x : price64 x -> val x = Fin (B2R x) /\ bpow radix2 (-100) <= B2R x <= bpow radix2 100 /\ span 100 (B2R x).
Proof. intros [F H]. split; [apply val_fin; exact F|]. split; [exact H|right; exact H]. Qed.
Lemma volume_val x : volume64 x -> val x = Fin (B2R x) /\ span 100 (B2R x).
Proof. intros [F H]. split; [apply val_fin; exact F|exact H]. Qed.
Lemma Forall2_map {X Y Z} (P : Y -> Z -> Prop) (f : X -> Y) (g : X -> Z) l : (forall x, In x l -> P (f x) (g x)) -> Forall2 P (map f l) (map g l).
Proof. induction l as [|x l IH]; simpl; intros H; constructor; auto. Qed.
Lemma filter_whole {X} (f : X -> bool) l : (forall x, In x l -> f x = true) -> filter f l = l.
Proof. induction l as [|x l IH]; intros H; [reflexivity|]. cbn. rewrite (H x) by (left; auto). f_equal. apply IH. intros; apply H; right; auto. Qed.
Lemma p100 : 0 < bpow radix2 (-100). Proof. apply bpow_gt_0. Qed.

(** *** C125: the percentage quoted spread *)
Lemma quote_sized b a : price64 b -> price64 a -> B2R b <= B2R a ->
  sized 305 4 (fdiv (fsub a b) (fdiv (fadd b a) (fofZ 2))) ((B2R a - B2R b) / ((B2R b + B2R a) / 2)).
Proof.
  intros Hb Ha HL. destruct (price_val b Hb) as (Eb & Rb & Sb), (price_val a Ha) as (Ea & Ra & Sa). assert (P := p100).
  assert (B1 : bpow radix2 100 <= bpow radix2 1000) by (apply bpow_le; lia).
  assert (D : sized 152 1 (fsub a b) (B2R a - B2R b)).
  { split; [apply close_sub; auto; lra|]. assert (G := gap a b _ _ Ea Eb Ra Rb). rewrite Rabs_right in G by lra. exact G. }
  assert (M : sized 101 1 (fadd b a) (B2R b + B2R a)).
  { split; [apply (close_add 0 0 0); auto; try lia; try (apply close_exact; auto; lra); assert (D2 := bpow_double 100); assert (bpow radix2 (100 + 1) <= bpow radix2 1000) by (apply bpow_le; lia); lra|].
    right. split; [apply (Rle_trans _ (bpow radix2 (-100))); [apply bpow_le; lia|lra]|]. rewrite <- (bpow_double 100 : _ = bpow radix2 101). lra. }
  assert (H2 : sized 2 0 (fofZ 2) 2).
  { apply sized_exact; [apply val_ofZ_small; simpl; lia|]. right. split; [apply (Rle_trans _ (bpow radix2 0)); [apply bpow_le; lia|simpl; lra]|simpl; lra]. }
  assert (M2 := sized_div 101 2 1 0 _ _ _ _ ltac:(lia) ltac:(lia) M H2 ltac:(lra)).
  assert (Q := sized_div 152 103 1 2 _ _ _ _ ltac:(lia) ltac:(lia) D M2 ltac:(lra)).
  apply (sized_weaken (152 + 103) 305 4 4); [lia|lia|exact Q].
Qed.
Theorem C125_quoted_spread : forall lm qs, qs <> [] -> (Z.of_nat (length qs) <= 2 ^ 50)%Z ->
  (forall b a, In (b, a) qs -> price64 b /\ price64 a /\ B2R b <= B2R a) ->
  exists x v s, quoted_spread (B64 lm) (map fst qs) (map snd qs) true = Ok x /\ val x = Fin v /\
    quoted_spread XRA (bids (real_quotes qs)) (asks (real_quotes qs)) true = Ok (Fin s) /\
    relative_error (levels lm (length qs) + 6) v s.
Proof.
  intros lm qs HN HL HQ.
  assert (EX : quoted_spread XRA (bids (real_quotes qs)) (asks (real_quotes qs)) true = Ok (Fin (Rmean (map pct_spread_of (real_quotes qs))))).
  { apply C44_pct_value; [unfold real_quotes; destruct qs; [congruence|discriminate]|]. intros b a H. unfold real_quotes in H. apply in_map_iff in H as ((b' & a') & E & H). injection E as <- <-. cbn [fst snd].
    destruct (HQ _ _ H) as (Hb & Ha & L). assert (P := p100). destruct Hb as [_ Hb]. lra. }
  set (l := map (fun q : b64 * b64 => fdiv (fsub (snd q) (fst q)) (fdiv (fadd (fst q) (snd q)) (fofZ 2))) qs).
  set (m := map (fun q : b64 * b64 => (B2R (snd q) - B2R (fst q)) / ((B2R (fst q) + B2R (snd q)) / 2)) qs).
  assert (LL : length l = length qs) by apply map_length. assert (LP : (0 < length qs)%nat) by (destruct qs; [congruence|simpl; lia]).
  assert (LV := levels_lt lm (length qs) LP).
  assert (HF : Forall2 (sized 305 4) l m).
  { apply Forall2_map. intros (b & a) H. cbn [fst snd]. destruct (HQ _ _ H) as (Hb & Ha & L). apply quote_sized; assumption. }
  assert (C := sized_mean lm 305 4 l m ltac:(lia) ltac:(unfold l; destruct qs; [congruence|discriminate]) ltac:(lia) ltac:(rewrite LL; lia) HF). rewrite LL in C.
  assert (C2 := sized_mul (305 + 100) 50 (S (4 + levels lm (length qs))) 0 _ _ _ _ ltac:(lia) ltac:(lia) C (sized_ofZ 100 ltac:(lia))).
  assert (EM : Rmean m * 100 = Rmean (map pct_spread_of (real_quotes qs))).
  { unfold real_quotes, m. rewrite map_map. cbn [fst snd]. rewrite Rmult_comm, <- Rmean_scal, map_map. reflexivity. }
  rewrite EM in C2. replace (S (S (4 + levels lm (length qs)) + 0)) with (levels lm (length qs) + 6)%nat in C2 by lia.
  destruct (sized_relative _ (levels lm (length qs) + 6) _ _ ltac:(lia) C2) as (v & Ev & HR).
  exists (fmul (amean (B64 lm) l) (fofZ 100)), v, (Rmean (map pct_spread_of (real_quotes qs))). split; [|split; [exact Ev|split; [exact EX|exact HR]]].
  unfold quoted_spread, check. rewrite !map_length, Nat.eqb_refl. cbv zeta. change (num (B64 lm)) with b64. rewrite !(map2_diag (X:=b64) (Y:=b64) (Z:=b64)). reflexivity.
Qed.

(** *** C125: the percentage effective spread, realized spread and price impact *)
Record ticket := mkTicket { k_price : b64; k_later : b64; k_mid : b64; k_vol : b64 }.
Definition real_trade (k : ticket) : trade := mkTrade (B2R (k_price k)) (B2R (k_later k)) (B2R (k_mid k)) (B2R (k_vol k)) 1.
Definition run64 (lm : libm) (m : measure) (ks : list ticket) : res b64 :=
  let p := map k_price ks in let l := map k_later ks in let q := map k_mid ks in let v := map k_vol ks in
  match m with
  | Effective => effective_spread (B64 lm) p q v DirNone true
  | Realized => realized_spread (B64 lm) p l q v DirNone true
  | Impact => simple_price_impact (B64 lm) p l q v DirNone true
  end.
Definition good_ticket (k : ticket) : Prop := price64 (k_price k) /\ price64 (k_later k) /\ price64 (k_mid k) /\ volume64 (k_vol k).
(** the two prices whose difference the measure takes *)
Definition k_from (m : measure) (k : ticket) : b64 := match m with Effective | Realized => k_price k | Impact => k_later k end.
Definition k_to (m : measure) (k : ticket) : b64 := match m with Effective | Impact => k_mid k | Realized => k_later k end.
Definition leg64 (m : measure) (k : ticket) : b64 := fmul (fdiv (fmul (fofZ 2) (Babs (fsub (k_from m k) (k_to m k)))) (k_mid k)) (fofZ 100).

Lemma leg_sized m k : good_ticket k -> sized 352 4 (leg64 m k) (Rabs (leg m true (real_trade k))).
Proof.
  intros (Hp & Hl & Hq & _). assert (P := p100).
  assert (HA : price64 (k_from m k)) by (destruct m; assumption). assert (HB : price64 (k_to m k)) by (destruct m; assumption).
  destruct (price_val _ HA) as (Ea & Ra & Sa), (price_val _ HB) as (Eb & Rb & Sb), (price_val _ Hq) as (Eq & Rq & Sq).
  assert (B1 : bpow radix2 100 <= bpow radix2 1000) by (apply bpow_le; lia).
  assert (D : sized 152 1 (Babs (fsub (k_from m k) (k_to m k))) (Rabs (B2R (k_from m k) - B2R (k_to m k)))).
  { split; [apply close_abs_sub; auto; lra|]. apply (gap _ _ _ _ Ea Eb Ra Rb). }
  assert (D2 := sized_mul 50 152 0 1 _ _ _ _ ltac:(lia) ltac:(lia) (sized_ofZ 2 ltac:(lia)) D).
  assert (Q := sized_div (50 + 152) 100 2 0 _ _ _ _ ltac:(lia) ltac:(lia) D2 (sized_exact 100 _ _ Eq Sq) ltac:(lra)).
  assert (Q2 := sized_mul (50 + 152 + 100) 50 3 0 _ _ _ _ ltac:(lia) ltac:(lia) Q (sized_ofZ 100 ltac:(lia))).
  replace (Rabs (leg m true (real_trade k))) with (2 * Rabs (B2R (k_from m k) - B2R (k_to m k)) / B2R (k_mid k) * 100).
  - exact Q2.
  - transitivity (200 * (Rabs (B2R (k_from m k) - B2R (k_to m k)) / B2R (k_mid k))); [unfold Rdiv; ring|].
    assert (EA : Rabs (B2R (k_from m k) - B2R (k_to m k)) / B2R (k_mid k) = Rabs ((B2R (k_from m k) - B2R (k_to m k)) / B2R (k_mid k))).
    { unfold Rdiv. rewrite Rabs_mult. f_equal. symmetry. apply Rabs_right. apply Rle_ge, Rlt_le, Rinv_0_lt_compat. lra. }
    rewrite EA. rewrite <- (Rabs_right 200) at 1 by lra. rewrite <- Rabs_mult. destruct m; reflexivity.
Qed.
Definition weight64 (k : ticket) : b64 := fmul (k_vol k) (k_price k).
Lemma weight_sized k : good_ticket k -> sized 200 1 (weight64 k) (t_weight (real_trade k)).
Proof.
  intros (Hp & _ & _ & Hv). destruct (price_val _ Hp) as (Ep & _ & Sp), (volume_val _ Hv) as (Ev & Sv).
  exact (sized_mul 100 100 0 0 _ _ _ _ ltac:(lia) ltac:(lia) (sized_exact 100 _ _ Ev Sv) (sized_exact 100 _ _ Ep Sp)).
Qed.
(** which branch is taken does not depend on rounding *)
Lemma sized_zero e k x r : (Z.of_nat k <= 2 ^ 52)%Z -> sized e k x r -> Beqb x (fofZ 0) = true <-> r = 0.
Proof.
  intros Hk [C _]. destruct (close_le2 k x r Hk C) as (v & E & Hv & Hr & _). rewrite val_eqb, E, val_ofZ_small by (simpl; lia). split.
  - intros H. apply xeqb_iff in H. lra.
  - intros ->. replace v with 0 by lra. apply xeqb_refl.
Qed.
Theorem C125_trade_measures : forall lm m ks, ks <> [] -> (Z.of_nat (length ks) <= 2 ^ 50)%Z -> (forall k, In k ks -> good_ticket k) ->
  exists x v s, run64 lm m ks = Ok x /\ val x = Fin v /\ run m (map real_trade ks) undirected true = Ok (Fin s) /\
    relative_error (2 * levels lm (length ks) + 8) v s.
Proof.
  intros lm m ks HN HL HG. assert (LP : (0 < length ks)%nat) by (destruct ks; [congruence|simpl; lia]). assert (LV := levels_lt lm (length ks) LP). assert (P := p100).
  assert (PQ : positive_quotes (map real_trade ks)).
  { intros t Ht. apply in_map_iff in Ht as (k & <- & Hk). destruct (HG k Hk) as ((_ & H1) & (_ & H2) & (_ & H3) & _). cbn [real_trade t_price t_later t_mid]. lra. }
  set (S := map (leg64 m) ks). set (W := map weight64 ks).
  set (RS := map (fun k => Rabs (leg m true (real_trade k))) ks). set (RW := map (fun k => t_weight (real_trade k)) ks).
  assert (FS : Forall2 (sized 352 4) S RS) by (apply Forall2_map; intros k Hk; apply leg_sized; auto).
  assert (FW : Forall2 (sized 200 1) W RW) by (apply Forall2_map; intros k Hk; apply weight_sized; auto).
  assert (FP : Forall2 (sized 552 6) (map2 fmul S W) (map (fun k => Rabs (leg m true (real_trade k)) * t_weight (real_trade k)) ks)).
  { unfold S, W. rewrite (map2_diag (X:=b64) (Y:=b64) (Z:=b64)). apply Forall2_map. intros k Hk. exact (sized_mul 352 200 4 1 _ _ _ _ ltac:(lia) ltac:(lia) (leg_sized m k (HG k Hk)) (weight_sized k (HG k Hk))). }
  assert (ER : run64 lm m ks = dollar_average (B64 lm) S (map k_vol ks) (map k_price ks)).
  { destruct m; unfold run64, effective_spread, realized_spread, simple_price_impact, check; cbv zeta; rewrite !map_length, !Nat.eqb_refl; cbn [andb]; unfold pct_abs; change (num (B64 lm)) with b64;
      rewrite !(map2_diag (X:=b64) (Y:=b64) (Z:=b64)), (map_map (C:=b64)), !(map2_diag (X:=b64) (Y:=b64) (Z:=b64)), (map_map (C:=b64)); reflexivity. }
  rewrite ER. unfold dollar_average. assert (EB : bcast (B64 lm) nmul (map k_vol ks) (map k_price ks) = Ok W).
  { unfold bcast. rewrite !map_length, Nat.eqb_refl. change (num (B64 lm)) with b64. rewrite (map2_diag (X:=b64) (Y:=b64) (Z:=b64)). reflexivity. }
  rewrite EB. cbn [bind]. change (num (B64 lm)) with b64 in *.
  assert (LS : length S = length ks) by apply map_length. assert (LW : length W = length ks) by apply map_length.
  destruct (forallb (fun x : b64 => Beqb x (fofZ 0)) W) eqn:EZ; match goal with |- context [if ?c then _ else _] => change c with (forallb (fun x : b64 => Beqb x (fofZ 0)) W) end; rewrite EZ.
  - (* no trade has a volume *)
    assert (ZW : forall t, In t (map real_trade ks) -> t_weight t = 0).
    { intros t Ht. apply in_map_iff in Ht as (k & <- & Hk). assert (Q := proj1 (forallb_forall _ W) EZ (weight64 k) (in_map weight64 _ _ Hk)).
      apply (sized_zero 200 1 _ _ ltac:(simpl; lia) (weight_sized k (HG k Hk))). exact Q. }
    assert (EX : run m (map real_trade ks) undirected true = Ok (Fin (Rmean RS))).
    { etransitivity; [apply (run_davg m false true _ PQ)|]. etransitivity; [apply (davg_zero (value_of false m true)); [destruct ks; [congruence|discriminate]|exact ZW]|]. rewrite map_map. reflexivity. }
    assert (NF : filter (fun x : b64 => negb (is_nan x)) S = S).
    { apply filter_whole. intros x Hx. unfold S in Hx. apply in_map_iff in Hx as (k & <- & Hk). destruct (leg_sized m k (HG k Hk)) as [(v & E & _) _]. rewrite val_isnan, E. reflexivity. }
    assert (C := sized_mean lm 352 4 S RS ltac:(lia) ltac:(unfold S; destruct ks; [congruence|discriminate]) ltac:(lia) ltac:(rewrite LS; lia) FS). rewrite LS in C.
    assert (C2 := sized_weaken (352 + 100) (352 + 100) (Datatypes.S (4 + levels lm (length ks))) (2 * levels lm (length ks) + 8) _ _ (Z.le_refl _) ltac:(lia) C).
    destruct (sized_relative _ (2 * levels lm (length ks) + 8) _ _ ltac:(lia) C2) as (v & Ev & HR).
    exists (amean (B64 lm) S), v, (Rmean RS). split; [|split; [exact Ev|split; [exact EX|exact HR]]].
    exact (f_equal (fun l => Ok (amean (B64 lm) l)) NF).
  - assert (NW : Rsum RW <> 0).
    { intros Z0. apply Bool.not_true_iff_false in EZ. apply EZ. apply forallb_forall. intros x Hx. unfold W in Hx. apply in_map_iff in Hx as (k & <- & Hk).
      apply (proj2 (sized_zero 200 1 _ _ ltac:(simpl; lia) (weight_sized k (HG k Hk)))).
      refine (Rsum_zero_all RW _ Z0 _ (in_map (fun k => t_weight (real_trade k)) _ _ Hk)). intros y Hy. unfold RW in Hy. apply in_map_iff in Hy as (k' & <- & Hk'). destruct (weight_sized k' (HG k' Hk')) as [_ SP]. apply (span_nonneg _ _ SP). }
    assert (EX : run m (map real_trade ks) undirected true = Ok (Fin (wmean (fun t => Rabs (leg m true t)) (map real_trade ks)))).
    { etransitivity; [apply (run_davg m false true _ PQ)|]. apply (davg_pos (value_of false m true)). rewrite map_map. exact NW. }
    assert (CW := sized_sum lm 200 1 W RW ltac:(lia) ltac:(lia) ltac:(rewrite LW; lia) FW). rewrite LW in CW.
    assert (LPm : length (map2 fmul S W) = length ks) by (unfold S, W; rewrite (map2_diag (X:=b64) (Y:=b64) (Z:=b64)); apply map_length).
    assert (CP := sized_sum lm 552 6 (map2 fmul S W) _ ltac:(lia) ltac:(lia) ltac:(rewrite LPm; lia) FP). rewrite LPm in CP.
    assert (WP : 0 < Rsum RW). { destruct CW as [_ SP]. assert (Q := span_nonneg _ _ SP). lra. }
    assert (C := sized_div (552 + 50) (200 + 50) (6 + levels lm (length ks)) (1 + levels lm (length ks)) _ _ _ _ ltac:(lia) ltac:(lia) CP CW WP).
    replace (Datatypes.S (6 + levels lm (length ks) + (1 + levels lm (length ks))))%nat with (2 * levels lm (length ks) + 8)%nat in C by lia.
    destruct (sized_relative _ (2 * levels lm (length ks) + 8) _ _ ltac:(lia) C) as (v & Ev & HR).
    exists (fdiv (fsum lm (map2 fmul S W)) (fsum lm W)), v, (wmean (fun t => Rabs (leg m true t)) (map real_trade ks)). split; [|split; [exact Ev|split; [exact EX|]]].
    + unfold waverage, check. match goal with |- context [Nat.eqb ?a ?b] => change a with (length S); change b with (length W) end. rewrite LS, LW, Nat.eqb_refl. cbn [asum neqb ofZ nmul ndiv B64].
      assert (NZ : Beqb (fsum lm W) (fofZ 0) = false). { apply Bool.not_true_iff_false. intros Q. apply (sized_zero _ (1 + levels lm (length ks)) _ _ ltac:(lia) CW) in Q. lra. }
      rewrite NZ. reflexivity.
    + unfold wmean. rewrite !map_map. exact HR.
Qed.

(** *** C125: the log spread has no such accuracy.  Even with a correctly rounded logarithm there are a bid and a higher ask (about 4.3e9) whose log
    quoted spread is computed as exactly 0; the percentage spread of the same quotes is accurate *)
Definition tick64 (i : Z) : b64 := of_R (bpow radix2 32 + IZR i * bpow radix2 (-20)).
Lemma tick_val i : (0 <= i <= 8)%Z -> val (tick64 i) = Fin (bpow radix2 32 + IZR i * bpow radix2 (-20)).
Proof.
  intros Hi. unfold tick64. rewrite val_of_R.
  assert (E : bpow radix2 32 + IZR i * bpow radix2 (-20) = IZR (2 ^ 52 + i) * bpow radix2 (-20)).
  { rewrite plus_IZR, Rmult_plus_distr_r. f_equal. change (IZR (2 ^ 52)) with (bpow radix2 52). rewrite <- bpow_plus. reflexivity. }
  rewrite E. apply RN_fmt.
  - replace (IZR (2 ^ 52 + i) * bpow radix2 (-20)) with (F2R (Float radix2 (2 ^ 52 + i) (-20))) by reflexivity.
    apply generic_format_FLT with (emin := (3 - 1024 - 53)%Z) (prec := 53%Z). exists (Float radix2 (2 ^ 52 + i) (-20)); cbn [Fnum Fexp]; [reflexivity|change (radix2 ^ 53)%Z with (2 ^ 53)%Z; lia|lia].
  - rewrite <- E. rewrite Rabs_right.
    + apply (Rle_lt_trans _ (bpow radix2 34)); [|apply bpow_lt; lia]. change (bpow radix2 34) with 17179869184. change (bpow radix2 32) with 4294967296.
      assert (bpow radix2 (-20) <= 1) by (apply (Rle_trans _ (bpow radix2 0)); [apply bpow_le; lia|simpl; lra]). assert (0 < bpow radix2 (-20)) by apply bpow_gt_0.
      assert (IZR i <= 8) by (apply (IZR_le i 8); lia). assert (0 <= IZR i) by (apply (IZR_le 0 i); lia). nra.
    + apply Rle_ge, Rplus_le_le_0_compat; [apply bpow_ge_0|apply Rmult_le_pos; [apply (IZR_le 0 i); lia|apply bpow_ge_0]].
Qed.
Lemma log_tick i : (0 <= i <= 8)%Z -> let r := ln (bpow radix2 32 + IZR i * bpow radix2 (-20)) in
  exists m, rnd r = IZR m * bpow radix2 (-48) /\ Rabs (rnd r - r) <= bpow radix2 (-48) /\ val (l_log perfect_libm (tick64 i)) = Fin (rnd r).
Proof.
  intros Hi r. assert (P32 := bpow_gt_0 radix2 32). assert (P20 := bpow_gt_0 radix2 (-20)).
  assert (I0 : 0 <= IZR i <= 8) by (split; [apply (IZR_le 0 i)|apply (IZR_le i 8)]; lia).
  assert (X0 : bpow radix2 32 <= bpow radix2 32 + IZR i * bpow radix2 (-20)) by nra.
  assert (X1 : bpow radix2 32 + IZR i * bpow radix2 (-20) <= bpow radix2 33).
  { rewrite <- (bpow_double 32 : _ = bpow radix2 33). assert (bpow radix2 (-20) <= 1) by (apply (Rle_trans _ (bpow radix2 0)); [apply bpow_le; lia|simpl; lra]). change (bpow radix2 32) with 4294967296. nra. }
  assert (L2 := ln2_bounds). assert (LH := Props_float4.ln2_half).
  assert (RL : 16 <= r).
  { apply (Rle_trans _ (ln (bpow radix2 32))); [rewrite ln_bpow; lra|]. unfold r. destruct X0 as [X0 | X0]; [apply Rlt_le, ln_increasing; lra|rewrite <- X0; lra]. }
  assert (RU : r <= 33).
  { apply (Rle_trans _ (ln (bpow radix2 33))); [|rewrite ln_bpow; lra]. unfold r. destruct X1 as [X1 | X1]; [apply Rlt_le, ln_increasing; lra|rewrite X1; lra]. }
  assert (M : (5 <= mag radix2 r <= 6)%Z).
  { split; [apply (mag_ge_bpow radix2 r 5); rewrite Rabs_right by lra; simpl; lra|apply (mag_le_bpow radix2 r 6); [lra|rewrite Rabs_right by lra; simpl; lra]]. }
  assert (C : cexp radix2 fexp64 r = (mag radix2 r - 53)%Z) by (unfold cexp, SpecFloat.fexp, SpecFloat.emin; lia).
  exists (ZnearestE (scaled_mantissa radix2 fexp64 r) * 2 ^ (cexp radix2 fexp64 r + 48))%Z. split; [|split].
  - unfold rnd, round, F2R. cbn [Fnum Fexp]. rewrite mult_IZR, Rmult_assoc. f_equal.
    replace (IZR (2 ^ (cexp radix2 fexp64 r + 48))) with (bpow radix2 (cexp radix2 fexp64 r + 48)) by (symmetry; apply (IZR_Zpower radix2); lia).
    rewrite <- bpow_plus. f_equal. lia.
  - eapply Rle_trans; [apply (error_le_half_ulp radix2 fexp64)|]. rewrite ulp_neq_0 by lra.
    apply (Rle_trans _ (/ 2 * bpow radix2 (-47))); [apply Rmult_le_compat_l; [lra|apply bpow_le; lia]|]. rewrite <- (bpow_double (-48) : _ = bpow radix2 (-47)). lra.
  - cbn [l_log perfect_libm]. rewrite tick_val by exact Hi. rewrite xlog_fin by lra. cbn [of_xr]. rewrite val_of_R. fold r. apply (RN_in_range r 10); [|lia]. split; [lra|]. simpl. lra.
Qed.
Theorem C125_log_quoted_spread_refuted : exists b a x s, price64 b /\ price64 a /\ B2R b < B2R a /\
  quoted_spread (B64 perfect_libm) [b] [a] false = Ok x /\ val x = Fin 0 /\
  quoted_spread XRA [Fin (B2R b)] [Fin (B2R a)] false = Ok (Fin s) /\ 0 < s.
Proof.
  assert (P48 := bpow_gt_0 radix2 (-48)). assert (P20 := bpow_gt_0 radix2 (-20)). assert (P32 := bpow_gt_0 radix2 32).
  set (X := fun i => bpow radix2 32 + IZR i * bpow radix2 (-20)). set (L := fun i => rnd (ln (X i))).
  assert (XI : forall i j, (i < j)%Z -> X i < X j) by (intros i j H; unfold X; apply IZR_lt in H; nra).
  assert (XP : forall i, (0 <= i)%Z -> 0 < X i) by (intros i H; unfold X; apply IZR_le in H; nra).
  assert (LM : forall i j, (0 <= i)%Z -> (i < j)%Z -> L i <= L j) by (intros i j H0 H; apply rnd_mono, Rlt_le, ln_increasing; auto).
  (* three steps of at least 2^-48 do not fit into a rise of the logarithm of at most 3 * 2^-52 *)
  assert (EQ : exists i, (0 <= i < 3)%Z /\ L i = L (i + 1)%Z).
  { destruct (log_tick 0 ltac:(lia)) as (m0 & E0 & B0 & _), (log_tick 1 ltac:(lia)) as (m1 & E1 & B1 & _), (log_tick 2 ltac:(lia)) as (m2 & E2 & B2 & _), (log_tick 3 ltac:(lia)) as (m3 & E3 & B3 & _).
    fold (X 0%Z) (X 1%Z) (X 2%Z) (X 3%Z) in *. fold (L 0%Z) (L 1%Z) (L 2%Z) (L 3%Z) in *.
    destruct (Req_dec (L 0%Z) (L 1%Z)) as [E | N0]; [exists 0%Z; split; [lia|exact E]|].
    destruct (Req_dec (L 1%Z) (L 2%Z)) as [E | N1]; [exists 1%Z; split; [lia|exact E]|].
    destruct (Req_dec (L 2%Z) (L 3%Z)) as [E | N2]; [exists 2%Z; split; [lia|exact E]|]. exfalso.
    assert (S : forall i j m n, L i = IZR m * bpow radix2 (-48) -> L j = IZR n * bpow radix2 (-48) -> L i <= L j -> L i <> L j -> L i + bpow radix2 (-48) <= L j).
    { intros i j m n Ei Ej LE NE. rewrite Ei, Ej in *. assert (H : (m < n)%Z). { apply lt_IZR. destruct (Rle_lt_dec (IZR n) (IZR m)); [|assumption]. exfalso. apply NE. apply Rle_antisym; [exact LE|]. apply Rmult_le_compat_r; lra. }
      assert (IZR m + 1 <= IZR n) by (rewrite <- (plus_IZR m 1); apply IZR_le; lia). nra. }
    assert (S0 := S _ _ _ _ E0 E1 (LM 0%Z 1%Z ltac:(lia) ltac:(lia)) N0). assert (S1 := S _ _ _ _ E1 E2 (LM 1%Z 2%Z ltac:(lia) ltac:(lia)) N1). assert (S2 := S _ _ _ _ E2 E3 (LM 2%Z 3%Z ltac:(lia) ltac:(lia)) N2).
    apply Rabs_le_inv in B0. apply Rabs_le_inv in B3.
    assert (D : ln (X 3%Z) - ln (X 0%Z) <= 3 * bpow radix2 (-52)).
    { rewrite <- ln_div by (apply XP; lia). apply (Rle_trans _ (X 3%Z / X 0%Z - 1)).
      - assert (H := exp_ineq1_le (ln (X 3%Z / X 0%Z))). rewrite exp_ln in H by (apply Rdiv_lt_0_compat; apply XP; lia). lra.
      - unfold X. rewrite Rmult_0_l, Rplus_0_r. replace ((bpow radix2 32 + 3 * bpow radix2 (-20)) / bpow radix2 32 - 1) with (3 * (bpow radix2 (-20) * / bpow radix2 32)) by (field; lra).
        apply Rmult_le_compat_l; [lra|]. rewrite <- bpow_opp, <- bpow_plus. apply Rle_refl. }
    assert (H52 : 3 * bpow radix2 (-52) < bpow radix2 (-48)). { replace (bpow radix2 (-48)) with (16 * bpow radix2 (-52)) by (change 16 with (bpow radix2 4); rewrite <- bpow_plus; reflexivity). assert (Q := bpow_gt_0 radix2 (-52)). lra. }
    lra. }
  destruct EQ as (i & Hi & EQ).
  assert (Vb := tick_val i ltac:(lia)). assert (Va := tick_val (i + 1) ltac:(lia)). fold (X i) in Vb. fold (X (i + 1)%Z) in Va.
  destruct (val_finite_inv _ _ Vb) as [Fb Rb]. destruct (val_finite_inv _ _ Va) as [Fa Ra].
  destruct (log_tick i ltac:(lia)) as (_ & _ & _ & Lb). destruct (log_tick (i + 1) ltac:(lia)) as (_ & _ & _ & La). fold (X i) in Lb. fold (L i) in Lb. fold (X (i + 1)%Z) in La. fold (L (i + 1)%Z) in La.
  assert (PR : forall j, (0 <= j <= 8)%Z -> bpow radix2 (-100) <= X j <= bpow radix2 100).
  { intros j Hj. assert (J : 0 <= IZR j <= 8) by (split; [apply (IZR_le 0 j)|apply (IZR_le j 8)]; lia). assert (Q : bpow radix2 (-20) <= 1) by (apply (Rle_trans _ (bpow radix2 0)); [apply bpow_le; lia|simpl; lra]). unfold X. split.
    - apply (Rle_trans _ (bpow radix2 32)); [apply bpow_le; lia|nra].
    - apply (Rle_trans _ (bpow radix2 33)); [|apply bpow_le; lia]. rewrite <- (bpow_double 32 : _ = bpow radix2 33). change (bpow radix2 32) with 4294967296. nra. }
  exists (tick64 i), (tick64 (i + 1)), (fdiv (fsub (l_log perfect_libm (tick64 (i + 1))) (l_log perfect_libm (tick64 i))) (fofZ 1)), (ln (X (i + 1)%Z / X i)).
  unfold price64. rewrite Rb, Ra. split; [split; [exact Fb|apply PR; lia]|]. split; [split; [exact Fa|apply PR; lia]|]. split; [apply XI; lia|]. split; [reflexivity|]. split.
  - assert (E1 : val (fofZ 1) = Fin 1) by (apply val_ofZ_small; simpl; lia).
    assert (E0 : val (fsub (l_log perfect_libm (tick64 (i + 1))) (l_log perfect_libm (tick64 i))) = Fin 0) by (rewrite (val_sub _ _ _ _ La Lb), EQ, Rminus_diag_eq by reflexivity; apply RN_0).
    rewrite (val_div _ _ _ _ E0 E1) by lra. replace (0 / 1) with 0 by lra. apply RN_0.
  - assert (XL := XI i (i + 1)%Z ltac:(lia)). assert (X0 := XP i ltac:(lia)). split.
    + etransitivity; [apply (C44_log_value [(X i, X (i + 1)%Z)]); [discriminate|]|].
      * intros b a [H | []]. injection H as <- <-. lra.
      * unfold Rmean. cbn [map Rsum length fst snd INR]. do 2 f_equal. field.
    + rewrite <- ln_1. apply ln_increasing; [lra|]. apply (Rmult_lt_reg_r (X i)); [lra|]. unfold Rdiv. rewrite Rmult_assoc, Rinv_l by lra. lra.
Qed.

(** non-vacuity: three quotes of different widths and three trades, one of them without a volume, meet the hypotheses *)
Lemma small_price n : (1 <= n <= 2 ^ 50)%Z -> price64 (fofZ n) /\ B2R (fofZ n) = IZR n.
Proof.
  intros Hn. assert (E : val (fofZ n) = Fin (IZR n)) by (apply val_ofZ_small; lia). destruct (val_finite_inv _ _ E) as [F Rn]. split; [|exact Rn]. split; [exact F|]. rewrite Rn.
  destruct (span_Z n Hn) as [Z0 | [H1 H2]]; [apply (eq_IZR n 0) in Z0; lia|]. split; [eapply Rle_trans; [|exact H1]; apply bpow_le; lia|eapply Rle_trans; [exact H2|]; apply bpow_le; lia].
Qed.
Definition case_quotes : list (b64 * b64) := [(fofZ 99, fofZ 101); (fofZ 98, fofZ 103); (fofZ 100, fofZ 100)].
Definition case_tickets : list ticket := [mkTicket (fofZ 101) (fofZ 102) (fofZ 100) (fofZ 5); mkTicket (fofZ 98) (fofZ 97) (fofZ 99) (fofZ 0); mkTicket (fofZ 100) (fofZ 100) (fofZ 103) (fofZ 7)].
Example C125_case : (forall b a, In (b, a) case_quotes -> price64 b /\ price64 a /\ B2R b <= B2R a) /\ (forall k, In k case_tickets -> good_ticket k) /\
  (forall lm, exists x v s, quoted_spread (B64 lm) (map fst case_quotes) (map snd case_quotes) true = Ok x /\ val x = Fin v /\
     quoted_spread XRA (bids (real_quotes case_quotes)) (asks (real_quotes case_quotes)) true = Ok (Fin s) /\ relative_error 8 v s).
Proof.
  assert (Q : forall b a, In (b, a) case_quotes -> price64 b /\ price64 a /\ B2R b <= B2R a).
  { intros b a H. unfold case_quotes in H. cbn [In] in H.
    destruct H as [H | [H | [H | []]]]; apply pair_equal_spec in H as [<- <-];
      match goal with |- price64 (fofZ ?x) /\ price64 (fofZ ?y) /\ _ => destruct (small_price x ltac:(lia)) as [P1 E1], (small_price y ltac:(lia)) as [P2 E2]; rewrite ?E1, ?E2; split; [exact P1|]; split; [exact P2|]; apply IZR_le; lia end. }
  split; [exact Q|]. split.
  - intros k H. unfold case_tickets in H. cbn [In] in H.
    assert (PP : forall n, (1 <= n <= 2 ^ 50)%Z -> price64 (fofZ n)) by (intros n Hn; apply small_price; exact Hn).
    assert (VV : forall n, (1 <= n <= 2 ^ 50)%Z -> volume64 (fofZ n)) by (intros n Hn; destruct (PP n Hn) as [F B]; split; [exact F|right; exact B]).
    assert (V0 : volume64 (fofZ 0)). { assert (E : val (fofZ 0) = Fin 0) by (apply val_ofZ_small; simpl; lia). destruct (val_finite_inv _ _ E) as [F E0]. split; [exact F|left; exact E0]. }
    destruct H as [H | [H | [H | []]]]; subst k; unfold good_ticket; cbn [k_price k_later k_mid k_vol]; (split; [apply PP; lia|]); (split; [apply PP; lia|]); (split; [apply PP; lia|]); first [exact V0|apply VV; lia].
  - intros lm. destruct (C125_quoted_spread lm case_quotes ltac:(discriminate) ltac:(simpl; lia) Q) as (x & v & s & E1 & E2 & E3 & HR). exists x, v, s. split; [exact E1|]. split; [exact E2|]. split; [exact E3|].
    assert (L := levels_lt lm 3 ltac:(lia)). change (length case_quotes) with 3%nat in HR. unfold relative_error in *. eapply Rle_trans; [exact HR|].
    assert (S0 : 0 <= s).
    { destruct (Rle_lt_dec 0 s) as [S0 | S0]; [exact S0|]. exfalso. assert (A := Rabs_pos (v - s)). assert (I : 0 < INR (levels lm 3 + 6)) by (apply lt_0_INR; lia). assert (B := bpow_gt_0 radix2 (-52)).
      assert (C : 0 < INR (levels lm 3 + 6) * bpow radix2 (-52)) by (apply Rmult_lt_0_compat; assumption). nra. }
    apply Rmult_le_compat_r; [exact S0|]. apply Rmult_le_compat_r; [apply bpow_ge_0|]. apply le_INR. lia.
Qed.
