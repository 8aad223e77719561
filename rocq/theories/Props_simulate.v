(** * Property C100: simulate(Nsim) as a whole - which numbers of paths it accepts and what it returns *)
From Coq Require Import Reals ZArith List Bool Arith Lia Lra Permutation.
From Verif Require Import Arith XR RealAux Fourier Model_option Model_merton Model_simulation Model_simulate Props_fftsmooth Props_modmerton Props_modmerton2 Props_modmerton3 Props_dip Props_simulation Props_matlab.
Import ListNotations.

(** a smoothing of n scenarios with a window of a twentieth of them is possible *)
Definition smoothable (n : nat) : bool := Nat.even n && Nat.even (Nat.div n 20).
(** the numbers of paths that simulate() can handle with its 33 and 69 factor states *)
Definition good_paths (Nsim : nat) : Prop := In (Nat.modulo Nsim 40) [0; 24; 30; 36]%nat.

Section General.
Context (A : Arith).
Notation num := (num A).
Notation zero := (@ofZ A 0).

Lemma smooth_outcome spectral round9 keys vals n : transform A spectral -> length keys = n ->
  (n = 0%nat -> smooth_by A round9 (fun l => fftsmooth A spectral l (Nat.div n 20)) keys vals = Err ValueError) /\
  (n <> 0%nat -> if smoothable n then exists s, smooth_by A round9 (fun l => fftsmooth A spectral l (Nat.div n 20)) keys vals = Ok s
                 else smooth_by A round9 (fun l => fftsmooth A spectral l (Nat.div n 20)) keys vals = Err AssertionError).
Proof.
  intros HS HL. split; intros E0.
  - subst n. destruct keys; [|discriminate E0]. reflexivity.
  - unfold smoothable. destruct (Nat.even n) eqn:E1; cbn [andb].
    + destruct (Nat.even (Nat.div n 20)) eqn:E2.
      * destruct (smooth_accepts A spectral round9 keys vals n HS HL E1 E2 ltac:(lia)) as (s & E & _). eauto.
      * unfold smooth_by. cbv zeta. unfold fftsmooth. rewrite map_length, (Permutation_length (argsort_perm A (map round9 keys))), seq_length, map_length, HL, E1, E2. reflexivity.
    + unfold smooth_by. cbv zeta. unfold fftsmooth. rewrite map_length, (Permutation_length (argsort_perm A (map round9 keys))), seq_length, map_length, HL, E1. reflexivity.
Qed.
Definition sized (K : nat) (m : merton_result A) : Prop :=
  let b := m_bank A m in length (m_mFt A m) = K /\ length (b_Lt A b) = K /\ length (b_Bt A b) = K /\ length (b_Et A b) = K /\ length (b_mdef A b) = K /\
  length (b_sigEt A b) = K /\ length (b_sigLt A b) = K.
Lemma settled_sizes szfs r H D y g LH mFt' face FH mu F : sized szfs (mk_result A (settle A szfs r H D y g LH) (firstn szfs (mean_axis0 A (3 * szfs) mFt')) face FH mu F).
Proof.
  unfold sized. cbn [m_bank m_mFt settle b_Lt b_Bt b_Et b_mdef b_sigEt b_sigLt]. unfold numeric_vol, mean_axis0. rewrite !firstn_length, !map_length, !seq_length. lia.
Qed.
(** the outcome of the two valuations on arrays of the right shape depends on the number of scenarios only *)
Lemma cohorts_outcome spectral round9 as_int solve fs params N w p HN : transform A spectral -> (0 < N)%nat -> read_param A params = Ok p -> neqb (p_T A p) zero = false ->
  horizon_is A as_int N p HN -> (0 <= HN < Z.of_nat N)%Z -> fs <> [] ->
  let n := (length w * (3 * length fs))%nat in
  match w with
  | [] => mod_merton_computation A spectral round9 as_int solve fs params N w = Err ValueError
  | _ => if smoothable n then exists m, mod_merton_computation A spectral round9 as_int solve fs params N w = Ok m /\ sized (length fs) m
         else mod_merton_computation A spectral round9 as_int solve fs params N w = Err AssertionError
  end.
Proof.
  intros HS HN0 Ep ET EH HH Hf n.
  assert (E : forall e, smoothable n = true \/ (forall keys vals, length keys = n -> smooth_by A round9 (fun l => fftsmooth A spectral l (Nat.div n 20)) keys vals = Err e) ->
     (w <> [] -> smoothable n = true -> exists m, mod_merton_computation A spectral round9 as_int solve fs params N w = Ok m /\ sized (length fs) m) /\
     ((forall keys vals, length keys = n -> smooth_by A round9 (fun l => fftsmooth A spectral l (Nat.div n 20)) keys vals = Err e) -> mod_merton_computation A spectral round9 as_int solve fs params N w = Err e)).
  { intros e _. unfold mod_merton_computation. rewrite Ep. cbn [bind]. unfold horizon. rewrite ET. unfold horizon_is in EH. rewrite EH. cbn [bind].
    destruct (proj2 (proj1 (C71_accepts A N HN (proj1 HH))) (proj2 HH)) as (aH & ->). cbn [bind]. unfold value_bank. cbv zeta. rewrite map_length. fold n. split.
    - intros Hw Hn. apply andb_true_iff in Hn. destruct Hn as [He H20].
      match goal with |- context [mapM ?f (seq 0 N)] => destruct (mapM_all f (seq 0 N)) as (L & EL) end; [|rewrite EL; cbn [bind]; eexists; split; [reflexivity|apply settled_sizes]].
      intros j _. match goal with |- context [smooth_by A round9 ?sm ?ks ?vs] => destruct (smooth_accepts A spectral round9 ks vs n HS) as (s & E & _) end;
        [rewrite !map_length, seq_length; reflexivity|exact He|exact H20|unfold n; destruct w; [contradiction|destruct fs; [contradiction|cbn; lia]]|]. rewrite E. cbn [bind]. eauto.
    - intros HE. rewrite (mapM_err _ _ e); [reflexivity|destruct N; [lia|discriminate]|]. intros j _. rewrite HE by (rewrite !map_length, seq_length; reflexivity). reflexivity. }
  destruct w as [|row w].
  - apply (proj2 (E ValueError (or_intror (fun keys vals HL => proj1 (smooth_outcome spectral round9 keys vals 0 HS HL) eq_refl)))). intros keys vals HL. exact (proj1 (smooth_outcome spectral round9 keys vals 0 HS HL) eq_refl).
  - assert (Hn : n <> 0%nat) by (unfold n; destruct fs; [contradiction|cbn; lia]). destruct (smoothable n) eqn:ES.
    + apply (proj1 (E ValueError (or_introl eq_refl))); [discriminate|reflexivity].
    + assert (HB : forall keys vals, length keys = n -> smooth_by A round9 (fun l => fftsmooth A spectral l (Nat.div n 20)) keys vals = Err AssertionError).
      { intros keys vals HL. assert (G := proj2 (smooth_outcome spectral round9 keys vals n HS HL) Hn). rewrite ES in G. exact G. }
      exact (proj2 (E AssertionError (or_intror HB)) HB).
Qed.
Lemma single_outcome spectral round9 as_int solve fs params N w p HN : transform A spectral -> read_param A params = Ok p -> neqb (p_T A p) zero = false ->
  horizon_is A as_int N p HN -> (0 <= HN)%Z -> fs <> [] -> (forall row, In row w -> N <= length row)%nat -> (forall row, In row w -> HN <= Z.of_nat (length row))%Z ->
  let n := (length w * (3 * length fs))%nat in
  match w with
  | [] => mod_single_cohort_computation A spectral round9 as_int solve fs params N w = Err ValueError
  | _ => if smoothable n then exists m, mod_single_cohort_computation A spectral round9 as_int solve fs params N w = Ok m
         else mod_single_cohort_computation A spectral round9 as_int solve fs params N w = Err AssertionError
  end.
Proof.
  intros HS Ep ET EH H0 Hf Hrow Hrow' n.
  assert (E : exists f1 fH, mapM (fun f => py_index f (Z.of_nat N)) (map (factor_path A p N) w) = Ok f1 /\ mapM (fun f => py_index f HN) (map (factor_path A p N) w) = Ok fH).
  { destruct (mapM_all (fun f => py_index f (Z.of_nat N)) (map (factor_path A p N) w)) as (f1 & E1).
    { intros f Hf'. apply in_map_iff in Hf'. destruct Hf' as (row & <- & Hr). rewrite (py_index_nth _ _ zero) by (rewrite factor_len; specialize (Hrow row Hr); lia). eauto. }
    destruct (mapM_all (fun f => py_index f HN) (map (factor_path A p N) w)) as (fH & E2).
    { intros f Hf'. apply in_map_iff in Hf'. destruct Hf' as (row & <- & Hr). rewrite (py_index_nth _ _ zero) by (rewrite factor_len; specialize (Hrow' row Hr); lia). eauto. }
    eauto. }
  destruct E as (f1 & fH & E1 & E2). unfold mod_single_cohort_computation. rewrite Ep. cbn [bind]. unfold horizon. rewrite ET. unfold horizon_is in EH. rewrite EH. cbn [bind]. cbv zeta. rewrite E1, E2. cbn [bind]. fold n.
  match goal with |- context [smooth_by A round9 ?sm ?ks ?vs] => assert (G := smooth_outcome spectral round9 ks vs n HS ltac:(rewrite map_length, seq_length; reflexivity)) end.
  destruct w as [|row w].
  - rewrite (proj1 G eq_refl). reflexivity.
  - assert (Hn : n <> 0%nat) by (unfold n; destruct fs; [contradiction|cbn; lia]). apply proj2 in G. specialize (G Hn). destruct (smoothable n); [destruct G as (s & ->); cbn [bind]; eauto|rewrite G; reflexivity].
Qed.
Lemma lookup_outcome compute fs d y T H bookD rho ltv Q xr xF xsig : (0 < Q)%nat ->
  (forall e, (forall q, (q < Q)%nat -> compute fs (lookup_params A d y T H bookD rho ltv (xr 0 0 q) (xF 0 0 q) (xsig 0 0 q))%nat = Err e) ->
     create_lookup A compute fs d y T H bookD rho ltv 1 1 Q xr xF xsig = Err e) /\
  ((forall q, (q < Q)%nat -> exists m, compute fs (lookup_params A d y T H bookD rho ltv (xr 0 0 q) (xF 0 0 q) (xsig 0 0 q))%nat = Ok m) ->
     exists lk, create_lookup A compute fs d y T H bookD rho ltv 1 1 Q xr xF xsig = Ok lk).
Proof.
  intros HQ. unfold create_lookup. split.
  - intros e HE. cbn [seq mapM]. rewrite (mapM_err _ (seq 0 Q) e); [reflexivity|destruct Q; [lia|discriminate]|]. intros q Hq. apply in_seq in Hq. rewrite HE by lia. reflexivity.
  - intros HO. cbn [seq mapM]. match goal with |- context [mapM ?f (seq 0 Q)] => destruct (mapM_all f (seq 0 Q)) as (l & ->) end; [|cbn [bind]; eauto].
    intros q Hq. apply in_seq in Hq. destruct (HO q ltac:(lia)) as (m & ->). cbn [bind]. eauto.
Qed.

(** what the program needs of its environment: grids of the intended sizes and whole numbers of steps *)
Definition environment (as_int : num -> option Z) (ceil : num -> Z) (shocks : nat -> list (list num)) : Prop :=
  length (s_states A ceil) = 33%nat /\ length (s_wide_states A ceil) = 69%nat /\ length (s_loans A ceil) = 105%nat /\
  as_int (nmul (s_H A) (ndiv (ofN A 10) (s_T A))) = Some 5%Z /\ as_int (nmul (s_H A) (ndiv (ofN A 10) (ofZ 5))) = Some 10%Z /\
  neqb (s_T A) zero = false /\ neqb (ofZ 5) zero = false /\
  (forall n, length (shocks n) = n /\ forall row, In row (shocks n) -> length row = 30%nat).

Lemma paths_mod Nsim : (smoothable (Nsim * (3 * 33)) && smoothable (Nsim * (3 * 69)) = true) <-> good_paths Nsim.
Proof.
  unfold smoothable, good_paths. assert (HM := Nat.mod_upper_bound Nsim 40 ltac:(lia)). assert (HD := Nat.div_mod Nsim 40 ltac:(lia)).
  set (q := Nat.div Nsim 40) in *. set (x := Nat.modulo Nsim 40) in *. clearbody q x. subst Nsim.
  assert (R : forall c, Nat.even ((40 * q + x) * (3 * c)) && Nat.even (Nat.div ((40 * q + x) * (3 * c)) 20) = Nat.even (x * (3 * c)) && Nat.even (Nat.div (x * (3 * c)) 20)).
  { intros c. replace ((40 * q + x) * (3 * c))%nat with (x * (3 * c) + (2 * (3 * c) * q) * 20)%nat by lia. rewrite Nat.div_add by lia. f_equal.
    - rewrite Nat.even_add. replace (Nat.even (2 * (3 * c) * q * 20)) with true; [destruct (Nat.even _); reflexivity|]. symmetry. apply Nat.even_spec. exists (2 * (3 * c) * q * 10)%nat. lia.
    - rewrite Nat.even_add. replace (Nat.even (2 * (3 * c) * q)) with true; [destruct (Nat.even _); reflexivity|]. symmetry. apply Nat.even_spec. exists ((3 * c) * q)%nat. lia. }
  rewrite !R. clear R. do 40 (destruct x as [|x]; [vm_compute; split; [intros H; try discriminate H; tauto|intros H; repeat (destruct H as [H|H]; try discriminate H); try contradiction; reflexivity]|]). lia.
Qed.

Section Program.
Context (spectral : list num -> list num -> list num) (round9 : num -> num) (as_int : num -> option Z) (solve : (num -> num) -> num -> num)
  (fsolve : (num -> num -> num * num) -> num -> num -> num * num) (ceil : num -> Z)
  (griddata : list (num * num) -> list num -> list (num * num) -> res (list num)) (shocks : nat -> list (list num)).
Notation sim := (simulate A spectral round9 as_int solve fsolve ceil griddata shocks).
(** the valuation of the bank of the table *)
Definition main_bank (Nsim : nat) : res (merton_result A) :=
  mod_merton_computation A spectral round9 as_int solve (s_states A ceil) [s_r A; s_T A; s_bookF A; s_H A; s_D A; lit 5 10; s_ltv A; lit 2 10; s_d A; s_y A; s_g A] 10 (shocks Nsim).

Lemma main_outcome Nsim : transform A spectral -> environment as_int ceil shocks ->
  match Nsim with
  | O => main_bank Nsim = Err ValueError
  | _ => if smoothable (Nsim * (3 * 33)) then exists m, main_bank Nsim = Ok m /\ sized 33 m else main_bank Nsim = Err AssertionError
  end.
Proof.
  intros HS (L1 & _ & _ & I1 & _ & T1 & _ & HW). destruct (HW Nsim) as [LW _]. unfold main_bank.
  set (ps := [s_r A; s_T A; s_bookF A; s_H A; s_D A; lit 5 10; s_ltv A; lit 2 10; s_d A; s_y A; s_g A]).
  assert (G := cohorts_outcome spectral round9 as_int solve (s_states A ceil) ps 10 (shocks Nsim) (mk_param A (s_r A) (s_T A) (s_bookF A) (s_H A) (s_D A) (lit 5 10) (s_ltv A) (lit 2 10) (s_d A) (s_y A) (s_g A)) 5%Z
    HS ltac:(lia) eq_refl T1 I1 ltac:(lia) ltac:(destruct (s_states A ceil); [discriminate L1|discriminate])).
  cbv zeta in G. rewrite LW, L1 in G. destruct (shocks Nsim) as [|row w]; destruct Nsim as [|n]; try discriminate LW; exact G.
Qed.
Lemma alt_outcome compute Nsim T rho sig queries : environment as_int ceil shocks ->
  (forall F, let params := lookup_params A (s_d A) (s_y A) T (s_H A) (s_bookD1 A) rho (s_ltv A) (s_r A) F sig in
     if smoothable (Nsim * (3 * 69)) then exists m, compute (s_wide_states A ceil) params = Ok m else compute (s_wide_states A ceil) params = Err AssertionError) ->
  if smoothable (Nsim * (3 * 69)) then (forall p v q, exists out, griddata p v q = Ok out) -> exists r, alternative A compute griddata (s_wide_states A ceil) (s_loans A ceil) T rho sig queries = Ok r
  else alternative A compute griddata (s_wide_states A ceil) (s_loans A ceil) T rho sig queries = Err AssertionError.
Proof.
  intros (_ & _ & L3 & _) HC. unfold alternative.
  destruct (lookup_outcome compute (s_wide_states A ceil) (s_d A) (s_y A) T (s_H A) (s_bookD1 A) rho (s_ltv A) (length (s_loans A ceil)) (fun _ _ _ => s_r A) (fun _ _ q => nth q (s_loans A ceil) zero) (fun _ _ _ => sig) ltac:(lia)) as [G1 G2].
  destruct (smoothable (Nsim * (3 * 69))).
  - intros HG. destruct G2 as (lk & ->); [intros q _; apply HC|]. cbn [bind]. edestruct HG as (o1 & ->). cbn [bind]. edestruct HG as (o2 & ->). cbn [bind]. eauto.
  - rewrite (G1 AssertionError); [reflexivity|]. intros q _. apply HC.
Qed.
Lemma cohorts_alt Nsim T rho sig F : transform A spectral -> environment as_int ceil shocks -> T = s_T A -> (0 < Nsim)%nat ->
  let params := lookup_params A (s_d A) (s_y A) T (s_H A) (s_bookD1 A) rho (s_ltv A) (s_r A) F sig in
  if smoothable (Nsim * (3 * 69)) then exists m, mod_merton_computation A spectral round9 as_int solve (s_wide_states A ceil) params 10 (shocks Nsim) = Ok m
  else mod_merton_computation A spectral round9 as_int solve (s_wide_states A ceil) params 10 (shocks Nsim) = Err AssertionError.
Proof.
  intros HS (_ & L2 & _ & I1 & _ & T1 & _ & HW) -> HN params. destruct (HW Nsim) as [LW _].
  assert (G := cohorts_outcome spectral round9 as_int solve (s_wide_states A ceil) params 10 (shocks Nsim) (mk_param A (s_r A) (s_T A) F (s_H A) (nmul (s_bookD1 A) (nexp (nmul (s_r A) (s_H A)))) rho (s_ltv A) sig (s_d A) (s_y A) zero) 5%Z
    HS ltac:(lia) eq_refl T1 I1 ltac:(lia) ltac:(destruct (s_wide_states A ceil); [discriminate L2|discriminate])).
  cbv zeta in G. rewrite LW, L2 in G. destruct (shocks Nsim) as [|row w]; [cbn in LW; lia|]. destruct (smoothable _); [destruct G as (m & E & _); eauto|exact G].
Qed.
Lemma single_alt Nsim rho sig F : transform A spectral -> environment as_int ceil shocks -> (0 < Nsim)%nat ->
  let params := lookup_params A (s_d A) (s_y A) (ofZ 5) (s_H A) (s_bookD1 A) rho (s_ltv A) (s_r A) F sig in
  if smoothable (Nsim * (3 * 69)) then exists m, mod_single_cohort_computation A spectral round9 as_int solve (s_wide_states A ceil) params 10 (shocks Nsim) = Ok m
  else mod_single_cohort_computation A spectral round9 as_int solve (s_wide_states A ceil) params 10 (shocks Nsim) = Err AssertionError.
Proof.
  intros HS (_ & L2 & _ & _ & I2 & _ & T2 & HW) HN params. destruct (HW Nsim) as [LW LR].
  assert (G := single_outcome spectral round9 as_int solve (s_wide_states A ceil) params 10 (shocks Nsim) (mk_param A (s_r A) (ofZ 5) F (s_H A) (nmul (s_bookD1 A) (nexp (nmul (s_r A) (s_H A)))) rho (s_ltv A) sig (s_d A) (s_y A) zero) 10%Z
    HS eq_refl T2 I2 ltac:(lia) ltac:(destruct (s_wide_states A ceil); [discriminate L2|discriminate]) ltac:(intros row Hr; rewrite (LR row Hr); lia) ltac:(intros row Hr; rewrite (LR row Hr); lia)).
  cbv zeta in G. rewrite LW, L2 in G. destruct (shocks Nsim) as [|row w]; [cbn in LW; lia|]. exact G.
Qed.
Lemma argmin_from_bound l : forall best at_ i, (at_ < i)%nat -> (argmin_from A best at_ i l < i + length l)%nat.
Proof.
  induction l as [|x l IH]; intros best at_ i H; cbn [argmin_from length]; [lia|]. destruct (isnan best); [lia|]. destruct (isnan x); [lia|].
  destruct (nltb x best); [specialize (IH x i (S i) ltac:(lia))|specialize (IH best at_ (S i) ltac:(lia))]; lia.
Qed.
Lemma central_exists r T mFt : mFt <> [] -> exists j, central_state A r T mFt = Ok j /\ (j < length mFt)%nat.
Proof.
  intros H. destruct mFt as [|m l]; [contradiction|]. unfold central_state. cbn [map argmin]. eexists. split; [reflexivity|].
  cbn [length]. rewrite <- (map_length (fun m => nabs (nsub m (nexp (ndiv (nmul r T) (ofZ 2))))) l). apply (argmin_from_bound _ _ 0%nat 1%nat). lia.
Qed.
Lemma table_rows_sized m : sized 33 m -> Forall (fun row : list num => length row = 33%nat) (Model_simulation.table_rows A fsolve (s_g A) (s_r A) (s_y A) (s_H A) (s_D A) m).
Proof.
  intros (H1 & H2 & H3 & H4 & H5 & H6 & H7). unfold Model_simulation.table_rows. repeat constructor; rewrite ?map_length, ?map2_length; lia.
Qed.

(** *** C100: simulate(Nsim) runs to the end exactly for Nsim congruent to 0, 24, 30 or 36 modulo 40, any interpolation that succeeds given, unless the
    central state is one of the last eight (IndexError); otherwise it stops with AssertionError, for Nsim = 0 with ValueError *)
Theorem C100_paths Nsim : transform A spectral -> environment as_int ceil shocks ->
  (Nsim = 0%nat -> sim Nsim = Err ValueError) /\
  ((0 < Nsim)%nat -> ~ good_paths Nsim -> sim Nsim = Err AssertionError) /\
  ((0 < Nsim)%nat -> good_paths Nsim -> (forall p v q, exists out, griddata p v q = Ok out) ->
     exists m j0, main_bank Nsim = Ok m /\ central_state A (s_r A) (s_T A) (m_mFt A m) = Ok j0 /\ (j0 < 33)%nat /\
       ((j0 < 25)%nat -> exists s, sim Nsim = Ok s) /\ ((25 <= j0)%nat -> sim Nsim = Err IndexError)).
Proof.
  intros HS HE. assert (HM := main_outcome Nsim HS HE). unfold main_bank in *. unfold simulate. cbv zeta. split; [|split].
  - intros ->. rewrite HM. reflexivity.
  - intros H0 HG. rewrite <- paths_mod in HG. destruct Nsim as [|k]; [lia|]. set (Nsim := S k) in *. destruct (smoothable (Nsim * (3 * 33))); cbn [andb] in HG; [|rewrite HM; reflexivity].
    destruct HM as (m & -> & HZ). cbn [bind]. destruct (central_exists (s_r A) (s_T A) (m_mFt A m)) as (j0 & -> & _); [destruct HZ as [HZ _]; destruct (m_mFt A m); [discriminate HZ|discriminate]|]. cbn [bind].
    match goal with |- context [alternative A ?c griddata ?a ?b ?T ?rho ?sig ?q] => assert (G := alt_outcome c Nsim T rho sig q HE (fun F => cohorts_alt Nsim T rho sig F HS HE eq_refl H0)) end.
    destruct (smoothable (Nsim * (3 * 69))); [destruct (HG eq_refl)|]. rewrite G. reflexivity.
  - intros H0 HG HD. rewrite <- paths_mod in HG. destruct Nsim as [|k]; [lia|]. set (Nsim := S k) in *. apply andb_true_iff in HG. destruct HG as [HG1 HG2]. rewrite HG1 in HM.
    destruct HM as (m & -> & HZ). exists m. cbn [bind]. destruct (central_exists (s_r A) (s_T A) (m_mFt A m)) as (j0 & EJ & HJ); [destruct HZ as [HZ _]; destruct (m_mFt A m); [discriminate HZ|discriminate]|].
    exists j0. rewrite EJ. cbn [bind]. split; [reflexivity|]. split; [reflexivity|]. assert (HJ' : (j0 < 33)%nat) by (destruct HZ as [HZ _]; lia). split; [exact HJ'|].
    match goal with |- context [alternative A (fun fs p => mod_merton_computation A _ _ _ _ fs p _ _) griddata ?a ?b ?T ?rho ?sig ?q] => assert (G := alt_outcome (fun fs p => mod_merton_computation A spectral round9 as_int solve fs p 10 (shocks Nsim)) Nsim T rho sig q HE (fun F => cohorts_alt Nsim T rho sig F HS HE eq_refl H0)) end.
    rewrite HG2 in G. destruct (G HD) as (a1 & ->). clear G. cbn [bind].
    assert (G : forall rho sig q, exists a, alternative A (fun fs p => mod_single_cohort_computation A spectral round9 as_int solve fs p 10 (shocks Nsim)) griddata (s_wide_states A ceil) (s_loans A ceil) (ofZ 5) rho sig q = Ok a).
    { intros rho sig q. assert (G := alt_outcome (fun fs p => mod_single_cohort_computation A spectral round9 as_int solve fs p 10 (shocks Nsim)) Nsim (ofZ 5) rho sig q HE (fun F => single_alt Nsim rho sig F HS HE H0)). rewrite HG2 in G. exact (G HD). }
    edestruct G as (a2 & ->). cbn [bind]. edestruct G as (a3 & ->). cbn [bind].
    destruct (C87_columns A 33 j0 (Model_simulation.table_rows A fsolve (s_g A) (s_r A) (s_y A) (s_H A) (s_D A) m) zero HJ' ltac:(discriminate) (table_rows_sized m HZ)) as (C1 & C2 & C3). split.
    + intros HJ2. destruct (le_lt_dec 8 j0) as [H8|H8]; [rewrite C2 by lia|destruct (C3 ltac:(lia) ltac:(lia)) as (_ & ->)]; cbn [bind]; eauto.
    + intros HJ2. rewrite C1 by lia. reflexivity.
Qed.
(** *** C100: what it returns: Table 1 of C87 and one entry per factor state of the standard Merton fits and of alternative model (4) *)
Theorem C100_results Nsim s m : transform A spectral -> environment as_int ceil shocks -> sim Nsim = Ok s -> main_bank Nsim = Ok m ->
  simulate_table A (fun fs p => mod_merton_computation A spectral round9 as_int solve fs p 10 (shocks Nsim)) fsolve (s_states A ceil)
    (s_r A) (s_T A) (s_bookF A) (s_H A) (s_D A) (lit 5 10) (s_ltv A) (lit 2 10) (s_d A) (s_y A) (s_g A) = Ok (sim_table A s) /\
  length (sim_table A s) = 7%nat /\ length (sim_merton A s) = 33%nat /\ length (sim_alt4 A s) = 33%nat /\
  forall k z e, (k < 33)%nat ->
    nth k (sim_merton A s) e = fit_merton A fsolve (s_g A) (s_r A) (s_y A) (s_H A) (s_D A) (nth k (b_Et A (m_bank A m)) z) (nth k (b_sigEt A (m_bank A m)) z) /\
    nth k (sim_alt4 A s) (z, z) = (merton_dd A (nth k (b_Lt A (m_bank A m)) z) (nth k (b_sigLt A (m_bank A m)) z) (s_D A) (s_r A) (s_y A) (s_H A),
                                   merton_default A (nth k (b_Lt A (m_bank A m)) z) (nth k (b_sigLt A (m_bank A m)) z) (s_D A) (s_r A) (s_y A) (s_H A)).
Proof.
  intros HS HE HR HM. assert (HO := main_outcome Nsim HS HE). assert (HZ : sized 33 m).
  { destruct Nsim as [|k]; [rewrite HO in HM; discriminate|]. destruct (smoothable _); [destruct HO as (m' & E & HZ); rewrite E in HM; injection HM as <-; exact HZ|rewrite HO in HM; discriminate]. }
  unfold simulate in HR. cbv zeta in HR. unfold simulate_table. cbv beta. unfold main_bank in HM. rewrite HM in HR. rewrite HM. cbn [bind] in HR. cbn [bind].
  destruct (central_state A (s_r A) (s_T A) (m_mFt A m)) as [j0|e]; cbn [bind] in HR; [|discriminate]. cbn [bind].
  destruct (alternative A _ griddata _ _ (s_T A) _ _ _) as [a1|e]; cbn [bind] in HR; [|discriminate].
  destruct (alternative A _ griddata _ _ (ofZ 5) (lit 5 10) _ _) as [a2|e]; cbn [bind] in HR; [|discriminate].
  destruct (alternative A _ griddata _ _ (ofZ 5) (lit 99 100) _ _) as [a3|e]; cbn [bind] in HR; [|discriminate].
  destruct (table_columns A _ j0) as [t|e] eqn:ET; cbn [bind] in HR; [|discriminate]. injection HR as <-. cbn [sim_table sim_merton sim_alt4].
  destruct HZ as (H1 & H2 & H3 & H4 & H5 & H6 & H7). split; [reflexivity|]. split.
  - unfold table_columns in ET. destruct (mapM_ok_each _ _ _ ET) as [L _]. rewrite L. reflexivity.
  - rewrite !map2_length. repeat split; try lia.
    + rewrite (map2_nth _ _ _ _ z z) by lia. reflexivity.
    + rewrite (map2_nth _ _ _ _ z z) by lia. reflexivity.
Qed.
End Program.
End General.

(** ** In exact arithmetic *)
Local Open Scope R_scope.
Lemma ok_inj {X} (a b : X) : Ok a = Ok b -> a = b.
Proof. intros H. injection H. auto. Qed.
Lemma exact_transform : transform XRA exact_spectral.
Proof.
  intros x k H. unfold exact_spectral. change (num XRA) with xr in *. destruct (forallb finite (x ++ k)); rewrite map_length; [|reflexivity].
  rewrite spectral_product_is_convolution by (rewrite !map_length; auto). unfold circular_convolution. rewrite map_length, seq_length, map_length. reflexivity.
Qed.
Lemma Rceil_int z : Rceil (IZR z) = z.
Proof. assert (H1 := proj2 (Rceil_le (IZR z) z) ltac:(lra)). assert (H2 := proj2 (Rceil_ge (IZR z) z) ltac:(lra)). lia. Qed.
Lemma arange_exact a b c n : c <> 0 -> (b - a) / c = INR n ->
  np_arange XRA xceil (Fin a) (Fin b) (Fin c) = map (fun i => Fin (a + INR i * c)) (seq 0 n).
Proof.
  intros Hc Hn. unfold np_arange. cbn [nsub ndiv XRA xsub]. rewrite xdiv_fin by auto. rewrite Hn. cbn [xceil]. rewrite INR_IZR_INZ, Rceil_int, Nat2Z.id. apply map_ext. intros i.
  destruct i as [|[|i]]; cbn [nadd nmul nsub XRA xadd xsub xmul].
  - f_equal. cbn [INR]. ring.
  - f_equal. cbn [INR]. ring.
  - rewrite ofN_fin. cbn [xmul xadd]. f_equal. ring.
Qed.
Lemma scale_pos : 0 < 2 / 10 * sqrt (5 / 10) * sqrt 10.
Proof. assert (0 < sqrt (5 / 10)) by (apply sqrt_lt_R0; lra). assert (0 < sqrt 10) by (apply sqrt_lt_R0; lra). apply Rmult_lt_0_compat; [apply Rmult_lt_0_compat; lra|auto]. Qed.
Lemma scale_exact : s_scale XRA = Fin (2 / 10 * sqrt (5 / 10) * sqrt 10).
Proof.
  unfold s_scale. cbn [lit ofZ nsqrt nmul XRA]. unfold xsqrt. destruct (Rlt_dec (5 / 10) 0) as [C|_]; [exfalso; lra|]. destruct (Rlt_dec 10 0) as [C|_]; [exfalso; lra|]. reflexivity.
Qed.
Definition wide_states : list R := map (fun i => (- (26 / 10) + INR i * (5 / 100)) / (2 / 10 * sqrt (5 / 10) * sqrt 10)) (seq 0 69).
Definition loan_grid : list R := map (fun i => 4 / 10 + INR i * (1 / 100)) (seq 0 105).
(** the grids of the program: exactly the intended 33, 69 and 105 points, each end point included once *)
Theorem C100_grids : s_states XRA xceil = map Fin (shipped_states 33) /\ s_wide_states XRA xceil = map Fin wide_states /\ s_loans XRA xceil = map Fin loan_grid.
Proof.
  assert (HI : INR 33 = 33 /\ INR 69 = 69 /\ INR 105 = 105) by (rewrite !INR_IZR_INZ; repeat split; reflexivity). destruct HI as (I33 & I69 & I105).
  assert (SP := scale_pos). repeat split.
  - unfold s_states. rewrite scale_exact. cbn [lit nopp XRA xopp]. rewrite (arange_exact _ _ _ 33) by (rewrite ?I33; lra).
    unfold shipped_states. rewrite !map_map. apply map_ext. intros i. cbn [ndiv XRA]. rewrite xdiv_fin by lra. f_equal.
    replace (5 / 10) with (1 / 2) by lra. f_equal. lra.
  - unfold s_wide_states. rewrite scale_exact. cbn [lit nopp XRA xopp]. rewrite (arange_exact _ _ _ 69) by (rewrite ?I69; lra).
    unfold wide_states. rewrite !map_map. apply map_ext. intros i. cbn [ndiv XRA]. rewrite xdiv_fin by lra. reflexivity.
  - unfold s_loans. cbn [lit XRA]. rewrite (arange_exact _ _ _ 105) by (rewrite ?I105; lra). unfold loan_grid. rewrite map_map. reflexivity.
Qed.
Definition shaped (shocks : nat -> list (list R)) : Prop := forall n, length (shocks n) = n /\ forall row, In row (shocks n) -> length row = 30%nat.
Lemma exact_environment shocks : shaped shocks -> environment XRA exact_int xceil (fun n => map (map Fin) (shocks n)).
Proof.
  intros HW. destruct C100_grids as (G1 & G2 & G3). unfold environment. change (num XRA) with xr in *. rewrite G1, G2, G3. unfold shipped_states, wide_states, loan_grid. rewrite !map_length, !seq_length.
  repeat split; try reflexivity.
  - unfold s_H, s_T. rewrite ofN_fin. cbn [ofZ ndiv nmul XRA]. rewrite xdiv_fin by lra. cbn [xmul]. replace (5 * (INR 10 / 10)) with (IZR 5) by (rewrite INR_IZR_INZ; cbn [Z.of_nat Pos.of_succ_nat Pos.succ]; lra). apply exact_int_IZR.
  - unfold s_H. rewrite ofN_fin. cbn [ofZ ndiv nmul XRA]. rewrite xdiv_fin by lra. cbn [xmul]. replace (5 * (INR 10 / 5)) with (IZR 10) by (rewrite INR_IZR_INZ; cbn [Z.of_nat Pos.of_succ_nat Pos.succ]; lra). apply exact_int_IZR.
  - cbn [s_T ofZ neqb XRA]. apply xeqb_false. lra.
  - cbn [ofZ neqb XRA]. apply xeqb_false. lra.
  - rewrite map_length. apply HW.
  - intros row Hr. apply in_map_iff in Hr. destruct Hr as (row' & <- & Hr). rewrite map_length. exact (proj2 (HW n) row' Hr).
Qed.
(** the debt face value of l.72 *)
Definition debt_face : R := 63 / 100 * exp (1 / 100 * 5) * Rmean (map (fun t => exp (1 / 100 * INR t)) (seq 1 10)).
Lemma debt_face_exact : s_D XRA = Fin debt_face.
Proof.
  unfold s_D, s_growth. assert (E : map (fun t => @nexp XRA (@nmul XRA (s_r XRA) (ofN XRA t))) (seq 1 10) = map Fin (map (fun t => exp (1 / 100 * INR t)) (seq 1 10))).
  { rewrite map_map. apply map_ext. intros t. unfold s_r. rewrite ofN_fin. reflexivity. }
  change (num XRA) with xr in *. rewrite E. rewrite amean_fin by discriminate. reflexivity.
Qed.
Lemma params_exact : [s_r XRA; s_T XRA; s_bookF XRA; s_H XRA; s_D XRA; @lit XRA 5 10; s_ltv XRA; @lit XRA 2 10; s_d XRA; s_y XRA; s_g XRA] = as_list (shipped debt_face).
Proof.
  rewrite debt_face_exact. unfold as_list, shipped. cbn [map i_r i_T i_bookF i_H i_D i_rho i_ltv i_sig i_d i_y i_g].
  unfold s_r, s_T, s_bookF, s_H, s_ltv, s_d, s_y, s_g. cbn [lit ofZ nadd nmul XRA xmul xadd].
  replace (6 / 10 + 3 * (2 / 100)) with (66 / 100) by lra. replace (5 / 10) with (1 / 2) by lra. reflexivity.
Qed.
(** *** C100: with an exact solver the central state is the eighteenth, so that for every admissible number of paths simulate returns Table 1 at the states 17, 25 and 9 *)
Theorem C100_exact : forall round9 solve fsolve griddata shocks Nsim mu, shaped shocks -> (0 < Nsim)%nat -> good_paths Nsim ->
  (forall p v q, exists out, griddata p v q = Ok out) ->
  solve (yield_equation (shipped debt_face)) (Fin (1 / 100 + 1 / 100)) = Fin mu ->
  exists s m, simulate XRA exact_spectral round9 exact_int solve fsolve xceil griddata (fun n => map (map Fin) (shocks n)) Nsim = Ok s /\
    mod_merton_computation XRA exact_spectral round9 exact_int solve (map Fin (shipped_states 33)) (as_list (shipped debt_face)) 10 (map (map Fin) (shocks Nsim)) = Ok m /\
    sim_central XRA s = 17%nat /\
    sim_table XRA s = map (fun row : list xr => (nth 17 row NaN, nth 25 row NaN, nth 9 row NaN))
      (Model_simulation.table_rows XRA fsolve (Fin (1/2)) (Fin (1/100)) (Fin (2/1000)) (Fin 5) (Fin debt_face) m).
Proof.
  intros round9 solve fsolve griddata shocks Nsim mu HW HN HG HD Hs.
  assert (HP : smoothable (Nsim * (3 * 33)) && smoothable (Nsim * (3 * 69)) = true) by (apply paths_mod; exact HG).
  apply andb_true_iff in HP. destruct HP as [HP _]. unfold smoothable in HP. apply andb_true_iff in HP. destruct HP as [He H20].
  assert (LW := proj1 (HW Nsim)).
  assert (HC : valid_call (shipped debt_face) 10 5 (shipped_states 33) (shocks Nsim)).
  { unfold valid_call, valid_inputs, shipped. cbn [i_T i_rho i_sig i_bookF i_ltv i_H]. rewrite !inr_z. cbn [Z.of_nat Pos.of_succ_nat Pos.succ]. repeat split; try lra; try lia; try discriminate.
    - intros E. rewrite E in LW. cbn in LW. lia.
    - apply Forall_forall. intros row Hr. exact (proj2 (HW Nsim) row Hr). }
  assert (Hs' : solve (yield_equation (shipped debt_face)) (Fin (i_r (shipped debt_face) + 1 / 100)) = Fin mu) by exact Hs.
  destruct (C87_shipped round9 solve debt_face 33 (shocks Nsim) mu ltac:(lia) HC Hs') as (m & EM & _ & EJ & _); rewrite ?LW; try assumption; try lia.
  destruct (proj2 (proj2 (C100_paths XRA exact_spectral round9 exact_int solve fsolve xceil griddata (fun n => map (map Fin) (shocks n)) Nsim exact_transform (exact_environment shocks HW))) HN HG HD) as (m' & j0 & EM' & EJ' & _ & HO & _).
  unfold main_bank in EM'. destruct C100_grids as (G1 & _). rewrite G1, params_exact in EM'. change (num XRA) with xr in *. rewrite EM in EM'. injection EM' as <-.
  assert (j0 = 17)%nat by (change (s_r XRA) with (Fin (i_r (shipped debt_face))) in EJ'; change (s_T XRA) with (Fin (i_T (shipped debt_face))) in EJ'; rewrite EJ in EJ'; injection EJ'; auto). subst j0.
  destruct (HO ltac:(lia)) as (s & ES). clear HO. exists s, m. split; [exact ES|]. split; [exact EM|].
  assert (HB : main_bank XRA exact_spectral round9 exact_int solve xceil (fun n => map (map Fin) (shocks n)) Nsim = Ok m) by (unfold main_bank; rewrite G1, params_exact; exact EM).
  destruct (C100_results XRA exact_spectral round9 exact_int solve fsolve xceil griddata (fun n => map (map Fin) (shocks n)) Nsim s m exact_transform (exact_environment shocks HW) ES HB) as (ET & _).
  assert (HZ : sized XRA 33 m).
  { assert (HO := main_outcome XRA exact_spectral round9 exact_int solve xceil (fun n => map (map Fin) (shocks n)) Nsim exact_transform (exact_environment shocks HW)).
    change (num XRA) with xr in *. rewrite HB in HO. destruct Nsim; [discriminate|]. destruct (smoothable _); [destruct HO as (m' & E & HZ); injection E as <-; exact HZ|discriminate]. }
  unfold simulate in ES. cbv zeta in ES. unfold main_bank in HB. change (num XRA) with xr in *. rewrite HB in ES. cbn [bind] in ES. rewrite EJ' in ES. cbn [bind] in ES.
  match type of ES with bind ?x _ = _ => destruct x; cbn [bind] in ES; [|discriminate] end. match type of ES with bind ?x _ = _ => destruct x; cbn [bind] in ES; [|discriminate] end.
  match type of ES with bind ?x _ = _ => destruct x; cbn [bind] in ES; [|discriminate] end.
  destruct (C87_columns XRA 33 17 (Model_simulation.table_rows XRA fsolve (s_g XRA) (s_r XRA) (s_y XRA) (s_H XRA) (s_D XRA) m) NaN ltac:(lia) ltac:(discriminate) (table_rows_sized XRA fsolve m HZ)) as (_ & C2 & _).
  rewrite (C2 ltac:(lia) ltac:(lia)) in ES. cbn [bind] in ES. apply ok_inj in ES. rewrite <- ES. cbn [sim_central sim_table]. split; [reflexivity|]. rewrite debt_face_exact. unfold s_g, s_r, s_y, s_H. cbn [lit ofZ XRA].
  replace (5 / 10) with (1 / 2) by lra. reflexivity.
Qed.
