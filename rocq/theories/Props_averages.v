(** * Property C128: how accurate means, MES and the z-score are in double precision *)
From Coq Require Import Reals ZArith List Bool Arith Lia Lra.
From Flocq Require Import Core BinarySingleNaN.
From Verif Require Import Props_float4.
From Verif Require Import Arith XR RealAux Float64 Float64b Float64c Float64d Model_measures Spec_measures.
Import ListNotations.
Local Open Scope R_scope.

(** a return (of either sign): a double that is zero or of absolute value between 2^-100 and 2^100 *)
Definition return64 (x : b64) : Prop := is_finite x = true /\ (B2R x = 0 \/ bpow radix2 (-100) <= Rabs (B2R x) <= bpow radix2 100).
(** the real numbers the doubles stand for *)
Definition reals (l : list b64) : list R := map (fun x => B2R x) l.
(** the rounding error allowed: k times 2^-52 times the size of the data *)
Definition slack (k : nat) (size : R) : R := INR k * bpow radix2 (-52) * size.

Lemma return_le x : return64 x -> Rabs (B2R x) <= bpow radix2 100.
Proof. intros [_ [-> | H]]; [rewrite Rabs_R0; apply bpow_ge_0|lra]. Qed.
Lemma return_low x : return64 x -> B2R x = 0 \/ bpow radix2 (-100) <= Rabs (B2R x).
Proof. intros [_ [H | H]]; [left; exact H|right; lra]. Qed.
Lemma big_bound : bpow radix2 (-100) <= bpow radix2 100. Proof. apply bpow_le. lia. Qed.

(** *** The mean *)
Theorem C128_mean : forall lm l, l <> [] -> (Z.of_nat (length l) <= 2 ^ 50)%Z -> (forall x, In x l -> return64 x) ->
  exists v, val (amean (B64 lm) l) = Fin v /\
    Rabs (v - Rmean (reals l)) <= slack (levels lm (length l) + 2) (Rmean (map Rabs (reals l))).
Proof.
  intros lm l N HL H. assert (BB := big_bound).
  assert (E : forall x, In x l -> is_finite x = true /\ (B2R x = 0 \/ bpow radix2 (-100) <= Rabs (B2R x)) /\ Rabs (B2R x) <= bpow radix2 100).
  { intros x Hx. split; [apply (H x Hx)|]. split; [apply return_low|apply return_le]; apply H; exact Hx. }
  assert (M := mean_near lm l (bpow radix2 100) N HL (conj BB (Rle_refl _)) E).
  assert (LV := levels_lt lm (length l) ltac:(destruct l; [congruence|simpl; lia])).
  destruct (near_error (S (S (levels lm (length l)))) _ _ _ ltac:(lia) M) as (v & Ev & D). exists v. split; [exact Ev|]. unfold slack. replace (levels lm (length l) + 2)%nat with (S (S (levels lm (length l)))) by lia. exact D.
Qed.

(** *** MES.  The days are those whose market return compares below the threshold np.percentile returned. *)
Definition tail_days (thr : b64) (firm market : list b64) : list b64 := map fst (filter (fun d => Bltb (snd d) thr) (combine firm market)).
Lemma select_days lm thr : forall firm market, select (B64 lm) (fun m => nltb m thr) market firm = tail_days thr firm market.
Proof.
  unfold tail_days. induction firm as [|f firm IH]; intros [|m market]; try reflexivity. cbn [select combine filter map fst snd nltb B64].
  destruct (Bltb m thr); cbn [map fst]; rewrite <- IH; reflexivity.
Qed.
Lemma tail_in thr firm market x : In x (tail_days thr firm market) -> In x firm.
Proof. unfold tail_days. intros H. apply in_map_iff in H as ((f & m) & <- & H). apply filter_In in H as [H _]. apply in_combine_l in H. exact H. Qed.
Lemma filter_le {X} (f : X -> bool) l : (length (filter f l) <= length l)%nat.
Proof. induction l as [|x l IH]; [constructor|]. cbn. destruct (f x); cbn; lia. Qed.
Lemma tail_len thr firm market : (length (tail_days thr firm market) <= length firm)%nat.
Proof. unfold tail_days. rewrite map_length. eapply Nat.le_trans; [apply filter_le|]. rewrite combine_length. lia. Qed.
Theorem C128_mes : forall lm firm market q x, (Z.of_nat (length firm) <= 2 ^ 50)%Z -> (forall f, In f firm -> return64 f) ->
  mes (B64 lm) firm market q = Ok x ->
  exists thr, percentile (B64 lm) market (fmul q (fofZ 100)) = Ok thr /\
    let days := tail_days thr firm market in
    let k := (levels lm (length days) + 2)%nat in
    (days = [] -> val x = NaN) /\
    (days <> [] -> exists v, val x = Fin v /\
       Rabs (v - Rmean (reals days)) <= slack k (Rmean (map Rabs (reals days))) /\
       forall lo hi, (forall f, In f days -> lo <= B2R f <= hi) ->
         lo - slack k (Rmax (Rabs lo) (Rabs hi)) <= v <= hi + slack k (Rmax (Rabs lo) (Rabs hi))).
Proof.
  intros lm firm market q x HL HF HM. unfold mes, check in HM. match type of HM with (if ?c then _ else _) = _ => destruct c eqn:EL; [|discriminate HM] end.
  match type of HM with (if ?c then _ else _) = _ => destruct c eqn:EQ; [|discriminate HM] end.
  destruct (percentile (B64 lm) market (nmul q (ofZ 100))) as [thr|e] eqn:EP; [|discriminate HM]. cbn [bind] in HM. exists thr. split; [exact EP|]. cbv zeta.
  assert (SD := select_days lm thr firm market). assert (Ex : x = amean (B64 lm) (tail_days thr firm market)) by (rewrite <- SD; injection HM as HM; symmetry; exact HM). clear HM SD.
  set (days := tail_days thr firm market) in *. split.
  - intros E. rewrite Ex, E. unfold amean. cbn [asum ndiv ofZ B64 length]. change (val (fdiv (fsum lm []) (fofZ 0)) = NaN). apply fdiv_0_0; apply val_ofZ_small; simpl; lia.
  - intros N. assert (DL : (Z.of_nat (length days) <= 2 ^ 50)%Z) by (assert (T := tail_len thr firm market); fold days in T; lia).
    destruct (C128_mean lm days N DL) as (v & Ev & D); [intros y Hy; apply HF, (tail_in thr firm market y Hy)|].
    exists v. rewrite Ex. split; [exact Ev|]. split; [exact D|]. intros lo hi HB. set (k := (levels lm (length days) + 2)%nat) in *.
    assert (NR : reals days <> []) by (unfold reals; destruct days; [congruence|discriminate]).
    assert (NB : lo <= Rmean (reals days) <= hi). { apply Rmean_bounds; [exact NR|]. intros r Hr. apply in_map_iff in Hr as (f & <- & Hf). apply HB. exact Hf. }
    assert (NA : 0 <= Rmean (map Rabs (reals days)) <= Rmax (Rabs lo) (Rabs hi)).
    { apply Rmean_bounds; [destruct (reals days); [congruence|discriminate]|]. intros r Hr. apply in_map_iff in Hr as (r0 & <- & Hr). apply in_map_iff in Hr as (f & <- & Hf). split; [apply Rabs_pos|].
      specialize (HB f Hf). assert (M1 := Rmax_l (Rabs lo) (Rabs hi)). assert (M2 := Rmax_r (Rabs lo) (Rabs hi)). set (mx := Rmax (Rabs lo) (Rabs hi)) in *. clearbody mx. revert M1 M2. unfold Rabs. destruct (Rcase_abs lo), (Rcase_abs hi), (Rcase_abs (B2R f)); intros; lra. }
    assert (SL : slack k (Rmean (map Rabs (reals days))) <= slack k (Rmax (Rabs lo) (Rabs hi))).
    { unfold slack. apply Rmult_le_compat_l; [apply Rmult_le_pos; [apply pos_INR|apply bpow_ge_0]|apply NA]. }
    apply Rabs_le_inv in D. lra.
Qed.

(** *** The z-score *)
Lemma return_grid x : return64 x -> exists m, B2R x = IZR m * bpow radix2 (-152).
Proof.
  intros [F H]. assert (V := val_fin x F). destruct (val_fmt _ _ V) as [Fm _]. destruct H as [H | [H _]]; [exists 0%Z; rewrite H; ring|].
  destruct (Rle_or_lt 0 (B2R x)) as [P | P]; [rewrite Rabs_right in H by lra; apply on_grid; assumption|].
  rewrite Rabs_left in H by lra. destruct (on_grid (- B2R x)) as (m & E); [apply generic_format_opp; exact Fm|exact H|]. exists (- m)%Z. rewrite opp_IZR. lra.
Qed.
Lemma sum_gap x y : return64 x -> return64 y -> B2R x + B2R y = 0 \/ bpow radix2 (-152) <= Rabs (B2R x + B2R y).
Proof.
  intros Hx Hy. destruct (return_grid x Hx) as (m & Em), (return_grid y Hy) as (n & En). assert (P := bpow_gt_0 radix2 (-152)).
  assert (E : B2R x + B2R y = IZR (m + n) * bpow radix2 (-152)) by (rewrite plus_IZR, Em, En; ring). rewrite E.
  destruct (Z.eq_dec (m + n) 0) as [Z | NZ]; [left; rewrite Z; ring|right]. rewrite Rabs_mult, (Rabs_right (bpow radix2 (-152))) by lra.
  assert (1 <= Rabs (IZR (m + n))) by (rewrite <- abs_IZR; apply IZR_le; lia). nra.
Qed.
Lemma add_val x y : return64 x -> return64 y -> exists n, val (fadd x y) = Fin n /\ Rabs (n - (B2R x + B2R y)) <= uro * Rabs (B2R x + B2R y).
Proof.
  intros Hx Hy. assert (Vx := val_fin x (proj1 Hx)). assert (Vy := val_fin y (proj1 Hy)). exists (rnd (B2R x + B2R y)). split.
  - rewrite (val_add _ _ _ _ Vx Vy). apply (RN_val _ 101); [|lia]. rewrite <- (bpow_double 100 : _ = bpow radix2 101). assert (A := return_le x Hx). assert (B := return_le y Hy). eapply Rle_trans; [apply Rabs_triang|]. lra.
  - apply rnd_add_error; [apply (proj1 (val_fmt _ _ Vx))|apply (proj1 (val_fmt _ _ Vy))].
Qed.
Lemma rnd_rel r : r = 0 \/ bpow radix2 (-1000) <= Rabs r -> Rabs (rnd r - r) <= 2 * uro * Rabs r.
Proof.
  intros [-> | H]; [rewrite rnd_0; replace (0 - 0) with 0 by ring; rewrite Rabs_R0; lra|]. eapply Rle_trans; [apply rnd_error|]. assert (E : eta <= uro * Rabs r); [|lra].
  apply (Rle_trans _ (uro * bpow radix2 (-1000))); [unfold eta, uro; rewrite <- bpow_plus; apply bpow_le; lia|]. apply Rmult_le_compat_l; [apply Rlt_le, uro_pos|exact H].
Qed.
Lemma rms_Rstd l : rms (fun x : b64 => B2R x - Rmean (map (fun x => B2R x) l)) l = Rstd (reals l).
Proof. unfold rms, Rstd, reals. rewrite map_map. f_equal. apply Rmean_map_ext. intros x _. ring. Qed.
(** how far the computed standard deviation of a history of size B can be from the exact one *)
Definition std_slack lm (n : nat) (B : R) : R := 5 * (INR (levels lm n) + 5) * bpow radix2 (-52) * B.
Definition sized_history (past : list b64) (B : R) : Prop :=
  past <> [] /\ (Z.of_nat (length past) <= 2 ^ 50)%Z /\ bpow radix2 (-100) <= B <= bpow radix2 100 /\ forall x, In x past -> return64 x /\ Rabs (B2R x) <= B.
Theorem C128_standard_deviation : forall lm past B, sq_exact lm -> sized_history past B ->
  exists s, val (astd (B64 lm) past) = Fin s /\ 0 <= s /\ Rabs (s - Rstd (reals past)) <= std_slack lm (length past) B.
Proof.
  intros lm past B SQ (N & HL & HB & H).
  assert (E : forall x, In x past -> is_finite x = true /\ (B2R x = 0 \/ bpow radix2 (-100) <= Rabs (B2R x)) /\ Rabs (B2R x) <= B) by (intros x Hx; destruct (H x Hx) as [R1 R2]; split; [apply R1|split; [apply return_low; exact R1|exact R2]]).
  destruct (std_error lm past B SQ N HL HB E) as (s & Es & S0 & D). rewrite rms_Rstd in D. exists s. split; [exact Es|]. split; [exact S0|exact D].
Qed.
Lemma p52 : bpow radix2 (-52) = 2 * uro. Proof. rewrite uro_eq. replace (bpow radix2 (-52)) with (/ 4503599627370496) by reflexivity. lra. Qed.

(** accuracy of the z-score: the error of the standard deviation relative to the standard deviation, twice, plus two roundings *)
Theorem C128_zscore : forall lm roa cr past B, sq_exact lm -> return64 roa -> return64 cr -> sized_history past B ->
  0 < Rstd (reals past) -> 4 * std_slack lm (length past) B <= Rstd (reals past) ->
  exists v, val (z_score (B64 lm) roa cr past) = Fin v /\
    let z := (B2R roa + B2R cr) / Rstd (reals past) in
    Rabs (v - z) <= (2 * (std_slack lm (length past) B / Rstd (reals past)) + 2 * bpow radix2 (-52)) * Rabs z.
Proof.
  intros lm roa cr past B SQ HR HC HS SP SMALL. destruct (C128_standard_deviation lm past B SQ HS) as (s & Es & S0 & D). destruct (add_val roa cr HR HC) as (n & En & DN). assert (G := sum_gap roa cr HR HC).
  destruct HS as (N & HL & HB & H). set (sg := Rstd (reals past)) in *. set (E := std_slack lm (length past) B) in *. assert (P := uro_pos). assert (UE := uro_eq). assert (PB := bpow_gt_0 radix2 (-100)).
  assert (E0 : bpow radix2 (-52) * bpow radix2 (-100) <= E).
  { unfold E, std_slack. apply (Rle_trans _ (bpow radix2 (-52) * B)); [apply Rmult_le_compat_l; [apply bpow_ge_0|lra]|]. apply Rmult_le_compat_r; [lra|]. assert (PL := pos_INR (levels lm (length past))). assert (B5 := bpow_ge_0 radix2 (-52)). nra. }
  rewrite <- bpow_plus in E0. change (-52 + -100)%Z with (-152)%Z in E0. assert (PE := bpow_gt_0 radix2 (-152)). apply Rabs_le_inv in D.
  assert (NB : Rabs (B2R roa + B2R cr) <= bpow radix2 101). { rewrite <- (bpow_double 100 : _ = bpow radix2 101). assert (A := return_le roa HR). assert (A' := return_le cr HC). eapply Rle_trans; [apply Rabs_triang|]. lra. }
  assert (SB : sg <= 2 * B).
  { assert (X : sg <= B). { unfold sg. rewrite <- rms_Rstd. eapply Rle_trans; [exact (std_rms (fun x : b64 => B2R x) past N)|]. apply rms_bound; [exact N|lra|]. intros x Hx. apply (H x Hx). } lra. }
  set (t := B2R roa + B2R cr) in *. assert (s1 : 3 / 4 * sg <= s <= 5 / 4 * sg) by lra.
  assert (SN : s <> 0) by lra. assert (VZ := val_div _ _ _ _ En Es SN). set (r := n / s) in *.
  assert (AN : Rabs n <= (1 + uro) * Rabs t /\ (1 - uro) * Rabs t <= Rabs n). { assert (T1 := Rabs_triang_inv n t). assert (T2 := Rabs_triang_inv t n). rewrite (Rabs_minus_sym t n) in T2. lra. }
  assert (AR : Rabs r = Rabs n / s) by (unfold r, Rdiv; rewrite Rabs_mult, Rabs_inv, (Rabs_right s) by lra; reflexivity).
  assert (s2 : bpow radix2 (-152) <= s <= bpow radix2 102). { split; [lra|]. apply (Rle_trans _ (bpow radix2 100 * 2 * 2)); [lra|]. rewrite !bpow_double. apply bpow_le. lia. }
  assert (RU : Rabs r <= bpow radix2 254).
  { rewrite AR. apply (Rmult_le_reg_r s); [lra|]. unfold Rdiv. rewrite Rmult_assoc, Rinv_l, Rmult_1_r by exact SN. apply (Rle_trans _ (bpow radix2 254 * bpow radix2 (-152))); [|apply Rmult_le_compat_l; [apply bpow_ge_0|lra]].
    rewrite <- bpow_plus. change (254 + -152)%Z with (101 + 1)%Z. rewrite <- bpow_double. assert (0 <= Rabs t) by apply Rabs_pos. nra. }
  assert (RL : r = 0 \/ bpow radix2 (-1000) <= Rabs r).
  { destruct G as [G | G]; [left; unfold r; rewrite G, Rabs_R0 in AN; assert (n = 0) by (destruct (Req_dec n 0) as [Z|Z]; [exact Z|apply Rabs_pos_lt in Z; lra]); subst n; unfold Rdiv; ring|right].
    rewrite AR. apply (Rmult_le_reg_r s); [lra|]. unfold Rdiv. rewrite Rmult_assoc, Rinv_l, Rmult_1_r by exact SN. apply (Rle_trans _ (bpow radix2 (-1000) * bpow radix2 102)); [apply Rmult_le_compat_l; [apply bpow_ge_0|lra]|].
    rewrite <- bpow_plus. apply (Rle_trans _ (bpow radix2 (-153))); [apply bpow_le; lia|]. assert (B2 := bpow_double (-153)). change (-153 + 1)%Z with (-152)%Z in B2. assert (0 <= Rabs t) by apply Rabs_pos. nra. }
  exists (rnd r). split; [unfold z_score; cbn [nadd ndiv B64]; change (val (fdiv (fadd roa cr) (astd (B64 lm) past)) = Fin (rnd r)); rewrite VZ; apply (RN_val _ 254); [exact RU|lia]|].
  cbv zeta. rewrite p52. set (z := t / sg). set (e := E / sg).
  assert (ee : E = e * sg) by (unfold e; field; lra). assert (e0 : 0 < e <= 1 / 4) by (split; [unfold e; apply Rdiv_lt_0_compat; lra|apply (Rmult_le_reg_r sg); [exact SP|]; lra]).
  assert (tz : t = z * sg) by (unfold z; field; lra).
  (* s = sg (1 + d), n = t (1 + b) up to sign *)
  set (d := (s - sg) / sg). assert (sd : s = sg * (1 + d)) by (unfold d; field; lra). assert (dd : Rabs d <= e).
  { apply Rabs_le. split; apply (Rmult_le_reg_r sg); try exact SP; rewrite ?Ropp_mult_distr_l_reverse; replace (d * sg) with (s - sg) by (unfold d; field; lra); lra. }
  apply Rabs_le_inv in dd.
  assert (R1 : Rabs (r - z) <= (4 / 3) * (e + uro) * Rabs z).
  { assert (EQ : r - z = ((n - t) - d * t) / (sg * (1 + d))) by (unfold r, z; rewrite sd; field; split; lra). rewrite EQ. unfold Rdiv. rewrite Rabs_mult, Rabs_inv, (Rabs_right (sg * (1 + d))) by (apply Rle_ge, Rmult_le_pos; lra).
    apply (Rmult_le_reg_r (sg * (1 + d))); [apply Rmult_lt_0_compat; lra|]. rewrite Rmult_assoc, Rinv_l, Rmult_1_r by (apply Rgt_not_eq, Rmult_lt_0_compat; lra).
    apply (Rle_trans _ ((uro + e) * Rabs t)).
    - unfold Rminus at 1. eapply Rle_trans; [apply Rabs_triang|]. rewrite Rabs_Ropp, Rabs_mult. assert (Rabs d <= e) by (apply Rabs_le; lra). assert (0 <= Rabs t) by apply Rabs_pos. nra.
    - rewrite tz, Rabs_mult, (Rabs_right sg) by lra. assert (0 <= Rabs z) by apply Rabs_pos. assert (0 <= Rabs z * sg * (e + uro)) by (apply Rmult_le_pos; [apply Rmult_le_pos; lra|lra]). nra. }
  assert (RR := rnd_rel r RL). assert (AZ : Rabs r <= (1 + 4 / 3 * (e + uro)) * Rabs z) by (assert (T := Rabs_triang_inv r z); lra).
  replace (rnd r - z) with ((rnd r - r) + (r - z)) by ring. eapply Rle_trans; [apply Rabs_triang|]. assert (0 <= Rabs z) by apply Rabs_pos. assert (X : 2 * uro * Rabs r <= 2 * uro * ((1 + 4 / 3 * (e + uro)) * Rabs z)) by (apply Rmult_le_compat_l; lra).
  apply (Rle_trans _ ((2 * uro * (1 + 4 / 3 * (e + uro)) + 4 / 3 * (e + uro)) * Rabs z)); [lra|]. apply Rmult_le_compat_r; [lra|]. nra.
Qed.

(** *** A constant history.  The exact standard deviation is zero; the computed one is zero (and then the z-score is infinite or NaN) or rounding noise,
    and then the z-score is enormous: at least |roa + capital ratio| over twice the noise. *)
Theorem C128_constant_history : forall lm roa cr past c, sq_exact lm -> return64 roa -> return64 cr -> return64 c -> B2R c <> 0 ->
  past <> [] -> (Z.of_nat (length past) <= 2 ^ 50)%Z -> (forall x, In x past -> x = c) ->
  Rstd (reals past) = 0 /\
  match val (z_score (B64 lm) roa cr past) with
  | Fin v => Rabs (B2R roa + B2R cr) <= 2 * std_slack lm (length past) (Rabs (B2R c)) * Rabs v
  | _ => True
  end.
Proof.
  intros lm roa cr past c SQ HR HC Hc C0 N HL HP.
  assert (BC : bpow radix2 (-100) <= Rabs (B2R c) <= bpow radix2 100) by (destruct Hc as [_ [H | H]]; [contradiction|exact H]).
  assert (HS : sized_history past (Rabs (B2R c))) by (split; [exact N|]; split; [exact HL|]; split; [exact BC|]; intros x Hx; rewrite (HP x Hx); split; [exact Hc|lra]).
  assert (Z : Rstd (reals past) = 0).
  { assert (M : Rmean (reals past) = B2R c).
    { rewrite <- (Rmean_const (B2R c) past N). unfold reals. apply Rmean_map_ext. intros x Hx. rewrite (HP x Hx). reflexivity. }
    unfold Rstd. rewrite M. rewrite <- sqrt_0. f_equal. rewrite <- (Rmean_const 0 past N). unfold reals. rewrite map_map. apply Rmean_map_ext. intros x Hx. rewrite (HP x Hx). ring. }
  split; [exact Z|]. destruct (C128_standard_deviation lm past _ SQ HS) as (s & Es & S0 & D). rewrite Z in D. set (E := std_slack lm (length past) (Rabs (B2R c))) in *.
  destruct (add_val roa cr HR HC) as (n & En & DN). assert (G := sum_gap roa cr HR HC). set (t := B2R roa + B2R cr) in *. assert (P := uro_pos). assert (UE := uro_eq).
  rewrite Rminus_0_r, (Rabs_right s) in D by lra.
  unfold z_score. cbn [nadd ndiv B64]. change (match val (fdiv (fadd roa cr) (astd (B64 lm) past)) with Fin v => Rabs t <= 2 * E * Rabs v | _ => True end).
  destruct (Req_dec s 0) as [Es0 | SN].
  { rewrite Es0 in Es. destruct (val_fdiv_0 (fadd roa cr) _ Es) as [-> | [-> | ->]]; exact I. }
  rewrite (val_div _ _ _ _ En Es SN). destruct (RN (n / s)) as [v| | |] eqn:ER; try exact I. destruct (RN_inv _ _ ER) as (-> & _). set (r := n / s) in *.
  assert (AN : (1 - uro) * Rabs t <= Rabs n) by (assert (T2 := Rabs_triang_inv t n); rewrite (Rabs_minus_sym t n) in T2; lra).
  assert (AR : Rabs r * s = Rabs n) by (unfold r, Rdiv; rewrite Rabs_mult, Rabs_inv, (Rabs_right s) by lra; field; exact SN).
  assert (EB : E <= bpow radix2 152).
  { unfold E, std_slack. assert (LV := levels_lt lm (length past) ltac:(destruct past; [congruence|simpl; lia])). assert (INR (levels lm (length past)) <= 1125899906842624) by (rewrite INR_IZR_INZ; apply IZR_le; lia).
    apply (Rle_trans _ (bpow radix2 52 * bpow radix2 100)); [|rewrite <- bpow_plus; apply bpow_le; lia]. apply Rmult_le_compat; [|apply Rabs_pos| |apply BC].
    - apply Rmult_le_pos; [|apply bpow_ge_0]. assert (PL := pos_INR (levels lm (length past))). lra.
    - rewrite p52, UE. replace (bpow radix2 52) with 4503599627370496 by (simpl; lra). assert (PL := pos_INR (levels lm (length past))). lra. }
  assert (RL : r = 0 \/ bpow radix2 (-1000) <= Rabs r).
  { destruct (Req_dec r 0) as [Zr | Zr]; [left; exact Zr|right]. assert (T0 : t <> 0). { intros T. rewrite T, Rabs_R0, Rmult_0_r, Rminus_0_r in DN. assert (n = 0) by (destruct (Req_dec n 0) as [Y | Y]; [exact Y|apply Rabs_pos_lt in Y; lra]). apply Zr. unfold r. subst n. unfold Rdiv. ring. }
    destruct G as [G | G]; [contradiction|]. apply (Rmult_le_reg_r s); [lra|]. rewrite AR. apply (Rle_trans _ (bpow radix2 (-1000) * bpow radix2 152)); [apply Rmult_le_compat_l; [apply bpow_ge_0|lra]|]. rewrite <- bpow_plus.
    apply (Rle_trans _ (bpow radix2 (-153))); [apply bpow_le; lia|]. assert (B2 := bpow_double (-153)). change (-153 + 1)%Z with (-152)%Z in B2. assert (PE := bpow_gt_0 radix2 (-152)). nra. }
  assert (RR := rnd_rel r RL). assert (T := Rabs_triang_inv r (rnd r)). rewrite (Rabs_minus_sym r (rnd r)) in T. assert (V : (1 - 2 * uro) * Rabs r <= Rabs (rnd r)) by lra.
  assert (A0 := Rabs_pos r). assert (At := Rabs_pos t). assert (Av := Rabs_pos (rnd r)).
  assert (X : Rabs r * s <= Rabs r * E) by (apply Rmult_le_compat_l; lra). assert (Y : (1 - 2 * uro) * Rabs r * E <= Rabs (rnd r) * E) by (apply Rmult_le_compat_r; lra). nra.
Qed.

(** *** What does not hold.  With numpy's order for three numbers (left to right), the mean of three equal numbers can be larger than they are: the MES can
    leave the range of the firm's returns, and a constant history can give a finite z-score instead of an infinite one. *)
Definition tenth : b64 := fdiv (fofZ 1) (fofZ 10).
Definition above_tenth : b64 := @B754_finite 53 1024 false 7205759403792795 (-56) eq_refl.
Definition three_in_order (lm : libm) : Prop := l_order lm 3 = left_to_right 3.
Lemma mean_tenths lm : three_in_order lm -> amean (B64 lm) [tenth; tenth; tenth] = above_tenth.
Proof.
  intros H. unfold amean, fsum. cbn [asum ndiv ofZ B64 fsum length]. unfold fsum. change (length [tenth; tenth; tenth]) with 3%nat. rewrite H. apply SF_eq. vm_compute. reflexivity.
Qed.
Lemma tenth_lt : B2R tenth < B2R above_tenth.
Proof.
  assert (E : tenth = @B754_finite 53 1024 false 7205759403792794 (-56) eq_refl) by (apply SF_eq; vm_compute; reflexivity). rewrite E. unfold above_tenth, B2R, F2R. simpl. lra.
Qed.
Lemma SF_list : forall l m : list b64, map B2SF l = map B2SF m -> l = m.
Proof. induction l as [|x l IH]; intros [|y m] H; try discriminate H; [reflexivity|]. cbn [map] in H. injection H as H1 H2. f_equal; [apply SF_eq, H1|apply IH, H2]. Qed.
Theorem C128_mes_range_refuted : forall lm, three_in_order lm ->
  let firm := repeat tenth 7 in let market := map fofZ [1; 2; 3; 4; 5; 6; 7]%Z in
  exists x v, mes (B64 lm) firm market (fdiv (fofZ 1) (fofZ 2)) = Ok x /\ val x = Fin v /\ forall f, In f firm -> B2R f < v.
Proof.
  intros lm H firm market. exists above_tenth, (B2R above_tenth). split; [|split; [apply val_fin; reflexivity|]].
  - unfold mes. change (Nat.eqb (length firm) (length market)) with true. cbn [check].
    assert (C : @nleb (B64 lm) (ofZ 0) (fdiv (fofZ 1) (fofZ 2)) && @nleb (B64 lm) (fdiv (fofZ 1) (fofZ 2)) (ofZ 1) = true) by (vm_compute; reflexivity). rewrite C. cbn [check].
    assert (P : percentile (B64 lm) market (@nmul (B64 lm) (fdiv (fofZ 1) (fofZ 2)) (ofZ 100)) = Ok (fofZ 4)).
    { set (p := percentile _ _ _). assert (Q : match p with Ok x => Some (B2SF x) | Err _ => None end = Some (B2SF (fofZ 4))) by (vm_compute; reflexivity).
      destruct p as [x|e]; [|discriminate Q]. f_equal. apply SF_eq. injection Q as Q. exact Q. }
    rewrite P. cbn [bind].
    assert (S : select (B64 lm) (fun m => @nltb (B64 lm) m (fofZ 4)) market firm = [tenth; tenth; tenth]).
    { apply SF_list. vm_compute. reflexivity. }
    rewrite S. f_equal. apply mean_tenths. exact H.
  - intros f Hf. apply repeat_spec in Hf. subst f. apply tenth_lt.
Qed.
Theorem C128_constant_history_refuted : forall lm, three_in_order lm -> sq_exact lm ->
  exists v, val (z_score (B64 lm) tenth tenth [tenth; tenth; tenth]) = Fin v /\ v = 14411518807585588.
Proof.
  intros lm H SQ. set (z := z_score (B64 lm) tenth tenth [tenth; tenth; tenth]).
  assert (E : z = fdiv (fadd tenth tenth) (fsqrt (fdiv (tree_sum (left_to_right 3) (map (fun x => fmul (fsub x above_tenth) (fsub x above_tenth)) [tenth; tenth; tenth])) (fofZ 3)))).
  { unfold z, z_score, astd, avar. rewrite (mean_tenths lm H). unfold amean. cbn [asum ndiv ofZ B64 nsqrt nsub nsq nadd map length]. rewrite !SQ. unfold fsum. cbn [length]. rewrite H. reflexivity. }
  assert (E' : B2SF z = B2SF (@B754_finite 53 1024 false 7205759403792794 (1) eq_refl)) by (rewrite E; vm_compute; reflexivity).
  apply SF_eq in E'. rewrite E'. eexists. split; [apply val_fin; reflexivity|]. unfold B2R, F2R. simpl. lra.
Qed.

(** the hypotheses can be met: a library, a history with a standard deviation of 2, and the returns used above *)
Example C128_case : sq_exact squaring_libm /\ three_in_order squaring_libm /\ return64 tenth /\
  sized_history (map fofZ [3; 7]%Z) 7 /\ Rstd (reals (map fofZ [3; 7]%Z)) = 2 /\ 4 * std_slack squaring_libm 2 7 <= 2.
Proof.
  assert (V : forall z, (1 <= z <= 7)%Z -> return64 (fofZ z) /\ B2R (fofZ z) = IZR z).
  { intros z Hz. assert (E := val_ofZ_small z ltac:(simpl; lia)). destruct (val_finite_inv _ _ E) as [F EB]. split; [|exact EB]. split; [exact F|]. right. rewrite EB, Rabs_right by (apply Rle_ge, IZR_le; lia). split.
    - apply (Rle_trans _ (bpow radix2 0)); [apply bpow_le; lia|]. simpl. apply (IZR_le 1). lia.
    - apply (Rle_trans _ (bpow radix2 3)); [simpl; apply IZR_le; lia|apply bpow_le; lia]. }
  split; [intros x; reflexivity|]. split; [reflexivity|]. split.
  { assert (E : tenth = @B754_finite 53 1024 false 7205759403792794 (-56) eq_refl) by (apply SF_eq; vm_compute; reflexivity). split; [rewrite E; reflexivity|]. right.
    assert (VB : B2R tenth = 7205759403792794 / 72057594037927936) by (rewrite E; unfold B2R, F2R; simpl; lra). rewrite VB, Rabs_right by lra. split; [apply (Rle_trans _ (bpow radix2 (-4))); [apply bpow_le; lia|simpl; lra]|apply (Rle_trans _ (bpow radix2 0)); [simpl; lra|apply bpow_le; lia]]. }
  split; [|split].
  - split; [discriminate|]. split; [cbn; lia|]. split; [split; [apply (Rle_trans _ (bpow radix2 0)); [apply bpow_le; lia|simpl; lra]|apply (Rle_trans _ (bpow radix2 3)); [simpl; lra|apply bpow_le; lia]]|].
    intros x Hx. cbn [map In] in Hx. destruct Hx as [<- | [<- | []]]; [destruct (V 3%Z ltac:(lia)) as [R1 R2]|destruct (V 7%Z ltac:(lia)) as [R1 R2]]; (split; [exact R1|rewrite R2, Rabs_right; lra]).
  - destruct (V 3%Z ltac:(lia)) as [_ R1], (V 7%Z ltac:(lia)) as [_ R2]. unfold reals. cbn [map]. rewrite R1, R2. unfold Rstd, Rmean. cbn [map length Rsum]. replace (INR 2) with 2 by (simpl; lra).
    match goal with |- sqrt ?e = _ => replace e with (2 * 2) by (simpl; field) end. apply sqrt_square. lra.
  - unfold std_slack, levels. change (depth (l_order squaring_libm 2)) with 1%nat. rewrite p52, uro_eq. simpl. lra.
Qed.
