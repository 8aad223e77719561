(** * C44: the log quoted spread in percent is never below the percentage quoted spread *)
From Coq Require Import Reals List Lia Lra Psatz.
From Coquelicot Require Import Coquelicot.
From Verif Require Import Arith XR RealAux Model_micro Spec_measures Props_spread.
Import ListNotations.
Local Open Scope R_scope.

Lemma ln_above_ratio x : 1 < x -> 2 * (x - 1) / (x + 1) < ln x.
Proof.
  intros H. destruct (MVT_cor2 (fun x => ln x - 2 * (x - 1) / (x + 1)) (fun x => (x - 1) ^ 2 / (x * (x + 1) ^ 2)) 1 x H) as (c & E & Hc).
  - intros c Hc. apply is_derive_Reals. auto_derive; [split; [lra|split; [lra|exact I]]|]. field. lra.
  - rewrite ln_1 in E. replace (2 * (1 - 1) / (1 + 1)) with 0 in E by field. assert (0 < (c - 1) ^ 2 / (c * (c + 1) ^ 2) * (x - 1)); [|lra].
    apply Rmult_lt_0_compat; [|lra]. apply Rmult_lt_0_compat; [apply pow_lt; lra|]. apply Rinv_0_lt_compat, Rmult_lt_0_compat; [lra|apply pow_lt; lra].
Qed.
Lemma quote_dominated b a : 0 < b -> b <= a -> pct_spread_of (b, a) <= 100 * ln (a / b) /\ (b < a -> pct_spread_of (b, a) < 100 * ln (a / b)).
Proof.
  intros Hb Hba. unfold pct_spread_of; cbn [fst snd]. destruct (Rle_lt_or_eq_dec b a Hba) as [L|E].
  - assert (Hx : 1 < a / b) by (apply (Rmult_lt_reg_r b); auto; replace (a / b * b) with a by (field; lra); lra).
    assert (R := ln_above_ratio _ Hx). replace (2 * (a / b - 1) / (a / b + 1)) with ((a - b) / ((b + a) / 2)) in R by (field; lra). lra.
  - subst a. replace (b / b) with 1 by (field; lra). rewrite ln_1. replace ((b - b) / ((b + b) / 2)) with 0 by (field; lra). lra.
Qed.
Lemma mean_scale k l : k * Rmean l = Rmean (map (Rmult k) l).
Proof. unfold Rmean. rewrite map_length. replace (Rsum (map (Rmult k) l)) with (k * Rsum l); [unfold Rdiv; ring|]. induction l as [|x l IH]; cbn [Rsum map]; [ring|rewrite <- IH; ring]. Qed.
Lemma Rsum_dominated {X} (f g : X -> R) l : (forall x, In x l -> f x <= g x) -> Rsum (map f l) <= Rsum (map g l) /\ (forall x, In x l -> f x < g x -> Rsum (map f l) < Rsum (map g l)).
Proof.
  induction l as [|y l IH]; intros H; cbn [Rsum map]; [split; [lra|intros x []]|].
  assert (Hy := H y (or_introl eq_refl)). destruct (IH (fun x Hx => H x (or_intror Hx))) as [I1 I2]. split; [lra|]. intros x [-> | Hx] L; [lra|]. specialize (I2 x Hx L). lra.
Qed.
Theorem C44_log_dominates : forall qs, qs <> [] -> proper_quotes qs -> exists p l,
  quoted_spread XRA (bids qs) (asks qs) true = Ok (Fin p) /\ quoted_spread XRA (bids qs) (asks qs) false = Ok (Fin l) /\
  p <= 100 * l /\ (p = 100 * l <-> forall b a, In (b, a) qs -> b = a).
Proof.
  intros qs Hn HQ. exists (Rmean (map pct_spread_of qs)), (Rmean (map (fun q => ln (snd q / fst q)) qs)).
  split; [apply C44_pct_value; auto|]. split; [apply C44_log_value; auto|]. rewrite mean_scale, map_map. unfold Rmean. rewrite !map_length. cbn beta.
  assert (HP : 0 < INR (length qs)) by (apply INR_len_pos; auto).
  destruct (Rsum_dominated pct_spread_of (fun q => 100 * ln (snd q / fst q)) qs) as [I1 I2].
  { intros [b a] Hin. specialize (HQ b a Hin). cbn [fst snd]. exact (proj1 (quote_dominated b a ltac:(lra) ltac:(lra))). }
  assert (HI := Rinv_0_lt_compat _ HP). split; [apply Rmult_le_compat_r; lra|]. split.
  - intros E b a Hin. destruct (Req_dec b a) as [|N]; auto. exfalso. specialize (I2 (b, a) Hin). cbn [fst snd] in I2. specialize (HQ b a Hin).
    assert (L : pct_spread_of (b, a) < 100 * ln (a / b)) by (apply (proj2 (quote_dominated b a ltac:(lra) ltac:(lra))); lra). specialize (I2 L). apply Rmult_eq_reg_r in E; lra.
  - intros HE. f_equal. f_equal. apply map_ext_in. intros [b a] Hin. assert (E := HE b a Hin). specialize (HQ b a Hin). subst a. unfold pct_spread_of; cbn [fst snd].
    replace (b / b) with 1 by (field; lra). rewrite ln_1. replace (b - b) with 0 by ring. unfold Rdiv. ring.
Qed.
Example C44_log_dominates_case : proper_quotes [(1, 1); (2, 3)] /\ exists p l, quoted_spread XRA (bids [(1, 1); (2, 3)]) (asks [(1, 1); (2, 3)]) true = Ok (Fin p) /\
  quoted_spread XRA (bids [(1, 1); (2, 3)]) (asks [(1, 1); (2, 3)]) false = Ok (Fin l) /\ p < 100 * l.
Proof.
  destruct C44_case as [HQ _]. split; [exact HQ|]. destruct (C44_log_dominates [(1, 1); (2, 3)] ltac:(discriminate) HQ) as (p & l & E1 & E2 & L & I).
  exists p, l. split; [exact E1|]. split; [exact E2|]. destruct (Req_dec p (100 * l)) as [E|N]; [|lra]. exfalso. assert (H := proj1 I E 2 3 ltac:(right; left; reflexivity)). lra.
Qed.
