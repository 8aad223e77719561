(** * Property C101: the table of the simulation program against ModMertonSimulation.m *)
From Coq Require Import Reals ZArith List Bool Arith Lia Lra.
From Verif Require Import Arith XR RealAux Model_garch Model_option Model_merton Model_simulation Model_matlab Model_matlab2 Props_modmerton Props_simulation Props_matlab.
Import ListNotations.

Section General.
Context (A : Arith).
Notation num := (num A).
(** distance of a mean borrower asset value from exp(r*T/2) *)
Definition distance (r T m : num) : num := nabs (nsub m (nexp (ndiv (nmul r T) (ofZ 2)))).

Lemma argmin_from_same l : (forall x, In x l -> isnan x = false) -> forall best at_ i, isnan best = false ->
  m_argmin_from A best (Z.of_nat at_ + 1) (Z.of_nat i + 1) l = (Z.of_nat (argmin_from A best at_ i l) + 1)%Z.
Proof.
  induction l as [|x l IH]; intros Hl best at_ i Hb; [reflexivity|]. cbn [m_argmin_from argmin_from]. rewrite Hb, (Hl x) by (cbn; auto). cbn [orb].
  assert (HI : forall x, In x l -> isnan x = false) by (intros; apply Hl; cbn; auto). replace (Z.of_nat i + 1 + 1)%Z with (Z.of_nat (S i) + 1)%Z by lia.
  destruct (nltb x best); apply IH; auto. apply Hl. cbn. auto.
Qed.
(** *** C101: the same central state, counted from 1 instead of 0, if no distance is NaN *)
Theorem C101_central_state r T mFt : mFt <> [] -> (forall m, In m mFt -> isnan (distance r T m) = false) ->
  exists j, central_state A r T mFt = Ok j /\ m_central_state A r T mFt = Ok (Z.of_nat j + 1)%Z /\ (j < length mFt)%nat.
Proof.
  intros Hn HD. unfold central_state, m_central_state. fold (distance r T). destruct mFt as [|m l]; [congruence|]. cbn [map argmin m_argmin].
  fold (distance r T m).
  exists (argmin_from A (distance r T m) 0 1 (map (distance r T) l)). split; [reflexivity|]. split.
  - f_equal. apply (argmin_from_same (map (distance r T) l)) with (at_ := 0%nat) (i := 1%nat); [|apply HD; cbn; auto]. intros x Hx. apply in_map_iff in Hx. destruct Hx as (m' & <- & Hm). apply HD. cbn. auto.
  - assert (G : forall l best at_ i, (at_ < i)%nat -> (argmin_from A best at_ i l < i + length l)%nat).
    { clear. induction l as [|x l IH]; intros best at_ i H; cbn [argmin_from length]; [lia|]. destruct (isnan best); [lia|]. destruct (isnan x); [lia|]. destruct (nltb x best).
      - assert (IH' := IH x i (S i) ltac:(lia)). lia.
      - assert (IH' := IH best at_ (S i) ltac:(lia)). lia. }
    assert (G' := G (map (distance r T) l) (distance r T m) 0%nat 1%nat ltac:(lia)). rewrite map_length in G'. cbn [length]. lia.
Qed.
(** *** C101: no states at all: both stop *)
Theorem C101_no_states r T : central_state A r T [] = Err ValueError /\ m_central_state A r T [] = Err RuntimeError.
Proof. split; reflexivity. Qed.

(** *** C101: one standard Merton fit: from the same root with a volatility that is a number both programs report the same six figures *)
Theorem C101_fit fsolve fsolve' g r y H D Et sigEt : isnan (@lit A 1 10000) = false ->
  let start := (nadd Et (nmul D (nexp (nmul (nopp r) H))), ndiv sigEt (ofZ 2)) in
  let root := fsolve (fun a s => merton_solution A a s Et D r y H sigEt) (fst start) (snd start) in
  fsolve' (fun a s => m_merton_solution A a s Et D r y H sigEt) (fst start) (snd start) = root -> isnan (snd root) = false ->
  m_fit_merton A fsolve' g r y H D Et sigEt = fit_merton A fsolve g r y H D Et sigEt.
Proof.
  intros HL start root HR HN. unfold m_fit_merton, fit_merton. cbv zeta. cbn [fst snd start] in HR, HN. fold root. change (fsolve' (fun a s => m_merton_solution A a s Et D r y H sigEt) (nadd Et (nmul D (nexp (nmul (nopp r) H)))) (ndiv sigEt (ofZ 2)) = root) in HR. rewrite HR.
  unfold m_max, pymax. rewrite HN, HL. reflexivity.
Qed.
(** *** C101: a NaN volatility becomes 0.0001 in MATLAB and stays NaN in Python *)
Theorem C101_nan_volatility fsolve fsolve' g r y H D Et sigEt : (forall x, @nltb A x (@lit A 1 10000) = true -> isnan x = false) ->
  isnan (snd (fsolve (fun a s => merton_solution A a s Et D r y H sigEt) (nadd Et (nmul D (nexp (nmul (nopp r) H)))) (ndiv sigEt (ofZ 2)))) = true ->
  isnan (snd (fsolve' (fun a s => m_merton_solution A a s Et D r y H sigEt) (nadd Et (nmul D (nexp (nmul (nopp r) H)))) (ndiv sigEt (ofZ 2)))) = true ->
  e_s A (m_fit_merton A fsolve' g r y H D Et sigEt) = @lit A 1 10000 /\ isnan (e_s A (fit_merton A fsolve g r y H D Et sigEt)) = true.
Proof.
  intros HC H1 H2. unfold m_fit_merton, fit_merton. cbv zeta. cbn [e_s]. unfold m_max, pymax. rewrite H2. split; [reflexivity|].
  destruct (nltb _ _) eqn:E; [|exact H1]. apply HC in E. congruence.
Qed.

(** ** The table *)
(** K states: every column the table reads has K entries *)
Definition columns (K : nat) (m : merton_result A) : Prop :=
  let b := m_bank A m in length (m_mFt A m) = K /\ length (b_Lt A b) = K /\ length (b_Et A b) = K /\ length (b_Bt A b) = K /\ length (b_mdef A b) = K /\ length (b_sigEt A b) = K.
(** the two solvers find the same root for every state, with a volatility that is a number *)
Definition same_roots (fsolve fsolve' : (num -> num -> num * num) -> num -> num -> num * num) (r y H D : num) (m : merton_result A) : Prop :=
  forall E s a0 s0, In (E, s) (combine (b_Et A (m_bank A m)) (b_sigEt A (m_bank A m))) ->
    let root := fsolve (fun a v => merton_solution A a v E D r y H s) a0 s0 in
    fsolve' (fun a v => m_merton_solution A a v E D r y H s) a0 s0 = root /\ isnan (snd root) = false.
(** MATLAB prints a separator row of -9999 between the modified and the standard model *)
Definition with_separator (t : list (num * num * num)) : list (num * num * num) := firstn 5 t ++ [(ofZ (-9999), ofZ (-9999), ofZ (-9999))] ++ skipn 5 t.

Lemma map2_same {X Y Z} (f g : X -> Y -> Z) : forall a b, (forall x y, In (x, y) (combine a b) -> f x y = g x y) -> map2 f a b = map2 g a b.
Proof. induction a as [|x a IH]; intros [|y b] H; try reflexivity. cbn [map2]. rewrite (H x y) by (cbn; auto). f_equal. apply IH. intros. apply H. cbn. auto. Qed.

Theorem C101_table fsolve fsolve' g r y H D m K j0 : isnan (@lit A 1 10000) = false -> columns K m -> same_roots fsolve fsolve' r y H D m -> (j0 < K)%nat ->
  let python := table_columns A (Model_simulation.table_rows A fsolve g r y H D m) j0 in
  let matlab := m_table A fsolve' g r y H D m (Z.of_nat j0 + 1) in
  (* eight states on either side of the central one: the same figures *)
  ((8 <= j0)%nat -> (j0 + 8 < K)%nat -> exists t, python = Ok t /\ matlab = Ok (with_separator t)) /\
  (* too few above: both stop *)
  ((K <= j0 + 8)%nat -> python = Err IndexError /\ matlab = Err RuntimeError) /\
  (* too few below: MATLAB stops, Python silently takes a state from the other end *)
  ((j0 < 8)%nat -> (j0 + 8 < K)%nat -> (exists t, python = Ok t) /\ matlab = Err RuntimeError).
Proof.
  intros HL (H1 & H2 & H3 & H4 & H5 & H6) HR HK. cbv zeta.
  assert (EF : map2 (m_fit_merton A fsolve' g r y H D) (b_Et A (m_bank A m)) (b_sigEt A (m_bank A m)) = map2 (fit_merton A fsolve g r y H D) (b_Et A (m_bank A m)) (b_sigEt A (m_bank A m))).
  { apply map2_same. intros E s Hin. destruct (HR E s (nadd E (nmul D (nexp (nmul (nopp r) H)))) (ndiv s (ofZ 2)) Hin) as [R1 R2]. apply C101_fit; auto. }
  assert (HF : Forall (fun row : list num => length row = K) (Model_simulation.table_rows A fsolve g r y H D m)).
  { unfold Model_simulation.table_rows. cbv zeta. repeat constructor; rewrite ?map_length, ?map2_length; lia. }
  destruct (C87_columns A K j0 (Model_simulation.table_rows A fsolve g r y H D m) (ofZ 0) HK ltac:(unfold Model_simulation.table_rows; cbv zeta; discriminate) HF) as (C1 & C2 & C3).
  unfold m_table. cbv zeta. rewrite EF. clear EF HR HF.
  set (fits := map2 (fit_merton A fsolve g r y H D) (b_Et A (m_bank A m)) (b_sigEt A (m_bank A m))) in *.
  assert (LF : length fits = K) by (unfold fits; rewrite map2_length; lia).
  split; [|split].
  - intros H8 HU. rewrite C2 by assumption. eexists. split; [reflexivity|].
    assert (AT : forall row : list num, length row = K -> bind (idx1 row (Z.of_nat j0 + 1)) (fun a => bind (idx1 row (Z.of_nat j0 + 1 + 8)) (fun u => bind (idx1 row (Z.of_nat j0 + 1 - 8)) (fun d => Ok (a, u, d)))) = Ok (nth j0 row (ofZ 0), nth (j0 + 8) row (ofZ 0), nth (j0 - 8) row (ofZ 0))).
    { intros row Hrow. rewrite !(idx1_ok row _ (ofZ 0)) by lia. cbn [bind]. repeat f_equal; lia. }
    rewrite !AT by (rewrite ?map_length, ?map2_length; lia). cbn [bind]. unfold with_separator, Model_simulation.table_rows. cbv zeta. fold fits. cbn [map firstn skipn app].
    f_equal.
    assert (NM : forall {X} (f : X -> num) (h : num -> num) l k d, (k < length l)%nat -> nth k (map (fun x => h (f x)) l) d = h (nth k (map f l) d)).
    { intros X f h l. induction l as [|x l IH]; intros k d Hk; cbn [length] in Hk; [lia|]. destruct k; cbn [map nth]; [reflexivity|apply IH; lia]. }
    rewrite !(NM _ (credit_spread A r H D) (fun z => nmul z (ofZ 100))) by lia. rewrite !(NM _ (e_sp A) (fun z => nmul z (ofZ 100))) by lia. reflexivity.
  - intros HU. rewrite C1 by assumption. split; [reflexivity|]. rewrite (idx1_ok _ _ (ofZ 0)) by lia. cbn [bind]. rewrite idx1_err by lia. reflexivity.
  - intros H8 HU. split; [destruct (C3 H8 HU) as (_ & ->); eauto|]. rewrite !(idx1_ok _ _ (ofZ 0)) by lia. cbn [bind]. rewrite idx1_err by lia. reflexivity.
Qed.

(** *** C101: the two programs from the valuation of the bank to the table *)
Theorem C101_simulation compute compute' fsolve fsolve' fs r T bookF H D rho ltv sig d y g K m : isnan (@lit A 1 10000) = false ->
  compute fs [r; T; bookF; H; D; rho; ltv; sig; d; y; g] = Ok m -> compute' fs [r; T; bookF; H; D; rho; ltv; sig; d; y; g] = Ok m ->
  columns K m -> (0 < K)%nat -> same_roots fsolve fsolve' r y H D m -> (forall x, In x (m_mFt A m) -> isnan (distance r T x) = false) ->
  let python := simulate_table A compute fsolve fs r T bookF H D rho ltv sig d y g in
  let matlab := m_simulate_table A compute' fsolve' fs r T bookF H D rho ltv sig d y g in
  exists j, central_state A r T (m_mFt A m) = Ok j /\ (j < K)%nat /\
    ((8 <= j)%nat -> (j + 8 < K)%nat -> exists t, python = Ok t /\ matlab = Ok (with_separator t)) /\
    ((K <= j + 8)%nat -> python = Err IndexError /\ matlab = Err RuntimeError) /\
    ((j < 8)%nat -> (j + 8 < K)%nat -> (exists t, python = Ok t) /\ matlab = Err RuntimeError).
Proof.
  intros HL HP HM HC HK HR HD. cbv zeta. assert (LM := proj1 HC). destruct (C101_central_state r T (m_mFt A m)) as (j & EJ & EJ' & HJ); [destruct (m_mFt A m); [cbn in LM; lia|discriminate]|exact HD|].
  exists j. rewrite LM in HJ. split; [exact EJ|]. split; [exact HJ|]. unfold simulate_table, m_simulate_table. rewrite HP, HM. cbn [bind]. rewrite EJ, EJ'. cbn [bind].
  exact (C101_table fsolve fsolve' g r y H D m K j HL HC HR HJ).
Qed.
(** either program stopping in the valuation stops the table *)
Theorem C101_no_valuation compute compute' fsolve fsolve' fs r T bookF H D rho ltv sig d y g e e' :
  compute fs [r; T; bookF; H; D; rho; ltv; sig; d; y; g] = Err e -> compute' fs [r; T; bookF; H; D; rho; ltv; sig; d; y; g] = Err e' ->
  simulate_table A compute fsolve fs r T bookF H D rho ltv sig d y g = Err e /\ m_simulate_table A compute' fsolve' fs r T bookF H D rho ltv sig d y g = Err e'.
Proof. intros H1 H2. unfold simulate_table, m_simulate_table. rewrite H1, H2. split; reflexivity. Qed.
End General.

(** ** In exact arithmetic *)
(** *** C101: with NaN distances MATLAB takes the first state that is closest among the others; Python the first NaN (C87_nan_state) *)
Lemma m_argmin_from_spec (f : nat -> xr) l : forall best at_ i, (forall k, (k < length l)%nat -> nth k l NaN = f (i + k)%nat) -> (at_ < i)%nat -> best = f at_ ->
  (xisnan best = true -> at_ = 0%nat /\ forall k, (k < i)%nat -> xisnan (f k) = true) ->
  (xisnan best = false -> (forall k, (k < i)%nat -> xisnan (f k) = false -> xltb (f k) best = false) /\ (forall k, (k < at_)%nat -> xisnan (f k) = false -> xltb best (f k) = true)) ->
  exists j, m_argmin_from XRA best (Z.of_nat at_ + 1) (Z.of_nat i + 1) l = (Z.of_nat j + 1)%Z /\ (j < i + length l)%nat /\
    (xisnan (f j) = true -> j = 0%nat /\ forall k, (k < i + length l)%nat -> xisnan (f k) = true) /\
    (xisnan (f j) = false -> (forall k, (k < i + length l)%nat -> xisnan (f k) = false -> xltb (f k) (f j) = false) /\ (forall k, (k < j)%nat -> xisnan (f k) = false -> xltb (f j) (f k) = true)).
Proof.
  assert (T1 : forall a b c : xr, xisnan a = false -> xisnan b = false -> xltb a b = false -> xltb c b = true -> xltb c a = true).
  { intros [a| | |] [b| | |] [c| | |]; cbn [xltb xisnan]; try discriminate; try reflexivity; repeat match goal with |- context [Rlt_dec ?u ?v] => destruct (Rlt_dec u v) end; try discriminate; try reflexivity; intros; exfalso; lra. }
  assert (T2 : forall a b : xr, xltb a b = true -> xltb b a = false).
  { intros [a| | |] [b| | |]; cbn [xltb]; try discriminate; try reflexivity; repeat match goal with |- context [Rlt_dec ?u ?v] => destruct (Rlt_dec u v) end; try discriminate; try reflexivity; intros; exfalso; lra. }
  assert (T0 : forall a : xr, xltb a a = false).
  { intros [a| | |]; cbn [xltb]; try reflexivity. destruct (Rlt_dec a a); [exfalso; lra|reflexivity]. }
  induction l as [|x l IH]; intros best at_ i HF Ha Hb HN HL.
  - exists at_. cbn [m_argmin_from length]. rewrite Nat.add_0_r, <- Hb. auto.
  - cbn [m_argmin_from isnan nltb XRA]. assert (Hx := HF 0%nat ltac:(cbn; lia)). cbn [nth] in Hx. rewrite Nat.add_0_r in Hx.
    assert (HF' : forall k, (k < length l)%nat -> nth k l NaN = f (S i + k)%nat).
    { intros k Hk. assert (H := HF (S k) ltac:(cbn; lia)). cbn [nth] in H. rewrite H. f_equal. lia. }
    replace (Z.of_nat i + 1 + 1)%Z with (Z.of_nat (S i) + 1)%Z by lia. replace (i + length (x :: l))%nat with (S i + length l)%nat by (cbn; lia).
    destruct (xisnan x) eqn:EX; [|destruct (xisnan best) eqn:EB; [|destruct (xltb x best) eqn:EL]]; cbn [orb].
    + apply IH; auto; try lia.
      * intros E. destruct (HN E) as [E0 E1]. split; [exact E0|]. intros k Hk. destruct (Nat.eq_dec k i) as [->|]; [congruence|apply E1; lia].
      * intros E. destruct (HL E) as [E0 E1]. split; [|exact E1]. intros k Hk Ek. destruct (Nat.eq_dec k i) as [->|]; [congruence|apply E0; auto; lia].
    + apply IH; auto; try lia; [intros E; congruence|]. intros _. destruct (HN eq_refl) as [E0 E1]. split.
      * intros k Hk Ek. destruct (Nat.eq_dec k i) as [->|]; [rewrite Hx; apply T0|]. rewrite E1 in Ek by lia. discriminate.
      * intros k Hk Ek. rewrite E1 in Ek by lia. discriminate.
    + apply IH; auto; try lia; [intros E; congruence|]. intros _. destruct (HL eq_refl) as [E0 E1]. split.
      * intros k Hk Ek. destruct (Nat.eq_dec k i) as [->|]; [rewrite Hx; apply T0|]. apply T2. apply (T1 (f k) best x); auto. apply E0; auto. lia.
      * intros k Hk Ek. apply (T1 (f k) best x); auto.
    + apply IH; auto; try lia; [intros E; congruence|]. intros _. destruct (HL eq_refl) as [E0 E1]. split; [|exact E1].
      intros k Hk Ek. destruct (Nat.eq_dec k i) as [->|]; [rewrite <- Hx; exact EL|]. apply E0; auto. lia.
Qed.
Theorem C101_nan_states : forall r T (mFt : list xr), mFt <> [] ->
  let dist k := distance XRA r T (nth k mFt NaN) in
  exists j, m_central_state XRA r T mFt = Ok (Z.of_nat j + 1)%Z /\ (j < length mFt)%nat /\
    (* every distance NaN: the first state *)
    (xisnan (dist j) = true -> j = 0%nat /\ forall k, (k < length mFt)%nat -> xisnan (dist k) = true) /\
    (* otherwise the first closest among the numbers *)
    (xisnan (dist j) = false -> (forall k, (k < length mFt)%nat -> xisnan (dist k) = false -> xltb (dist k) (dist j) = false) /\
                                (forall k, (k < j)%nat -> xisnan (dist k) = false -> xltb (dist j) (dist k) = true)).
Proof.
  intros r T mFt Hn dist. destruct mFt as [|m l]; [congruence|]. unfold m_central_state. cbn [map m_argmin].
  destruct (m_argmin_from_spec dist (map (distance XRA r T) l) (distance XRA r T m) 0 1) as (j & EJ & HJ).
  - intros k Hk. rewrite map_length in Hk. unfold dist. cbn [Nat.add nth]. rewrite (nth_indep _ NaN (distance XRA r T NaN)) by (rewrite map_length; auto). apply map_nth.
  - lia.
  - reflexivity.
  - intros E. split; [reflexivity|]. intros k Hk. assert (k = 0)%nat by lia. subst k. exact E.
  - intros E. split; [|lia]. intros k Hk Ek. assert (k = 0)%nat by lia. subst k. unfold dist. cbn [nth]. destruct (distance XRA r T m) as [u| | |]; cbn [xltb]; try reflexivity. destruct (Rlt_dec u u); [exfalso; lra|reflexivity].
  - rewrite map_length in HJ. exists j. split; [f_equal; exact EJ|]. exact HJ.
Qed.

(** *** C101: a root finder that looks at the equations only where asset value and volatility are non-negative finds the same roots in both programs (C99_feasible_residuals) *)
Definition looks_only_at_feasible (fsolve : (xr -> xr -> xr * xr) -> xr -> xr -> xr * xr) : Prop :=
  forall f g a0 s0, (forall a s, (0 <= a)%R -> (0 <= s)%R -> f (Fin a) (Fin s) = g (Fin a) (Fin s)) -> fsolve f a0 s0 = fsolve g a0 s0.
Theorem C101_same_roots fsolve r y H D m : looks_only_at_feasible fsolve ->
  (forall f a0 s0, xisnan (snd (fsolve f a0 s0)) = false) -> same_roots XRA fsolve fsolve r y H D m.
Proof.
  intros HF HN E s a0 s0 _. cbv zeta. split; [|apply HN]. apply HF. intros a v Ha Hv. apply C99_feasible_residuals; auto.
Qed.
