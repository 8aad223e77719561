(** * Property C103: simulate(Nsim), the alternative models (1) to (4) *)
From Coq Require Import Reals ZArith List Bool Arith Lia Lra.
From Verif Require Import Arith XR RealAux Fourier Model_option Model_merton Model_simulation Model_simulate Props_fftsmooth Props_modmerton Props_modmerton2 Props_modmerton3 Props_dip Props_simulation Props_matlab Props_modmerton4 Props_simulate.
Import ListNotations.

(** ** Specification *)
Section Spec.
Context (A : Arith).
Notation num := (num A).
(** the debt 0.63 of the bank, grossed up by the mean growth factor of its ten cohorts and compounded over the five years of the debt *)
Definition alternative_debt : num :=
  nmul (nmul (lit 63 100) (amean A (map (fun t => nexp (nmul (lit 1 100) (ofN A t))) [1; 2; 3; 4; 5; 6; 7; 8; 9; 10]%nat))) (nexp (nmul (lit 1 100) (ofZ 5))).
(** one valuation of the alternative bank per face value of the loans *)
Definition valued (compute : list num -> list num -> res (merton_result A)) (states loans : list num) (maturity rho sigma : num) (banks : list (merton_result A)) : Prop :=
  Forall2 (fun F m => compute states [lit 1 100; maturity; F; ofZ 5; alternative_debt; rho; lit 66 100; sigma; lit 5 1000; lit 2 1000] = Ok m) loans banks.
(** the table [state, bank] of a quantity, read row by row *)
Definition by_state (n : nat) (quantity : merton_result A -> list num) (banks : list (merton_result A)) : list num :=
  flat_map (fun k => map (fun m => nth k (quantity m) (ofZ 0)) banks) (seq 0 n).
(** the default probability and the borrower asset value read off the alternative model at the equity value and equity volatility of the true bank *)
Definition read_off (griddata : list (num * num) -> list num -> list (num * num) -> res (list num)) (n : nat) (banks : list (merton_result A)) (true_bank : merton_result A)
    (result : list num * list num) : Prop :=
  let Et m := b_Et A (m_bank A m) in let sigEt m := b_sigEt A (m_bank A m) in let points := combine (by_state n Et banks) (by_state n sigEt banks) in
  griddata points (by_state n (fun m => b_mdef A (m_bank A m)) banks) (combine (Et true_bank) (sigEt true_bank)) = Ok (fst result) /\
  griddata points (by_state n (m_mFt A) banks) (combine (Et true_bank) (sigEt true_bank)) = Ok (snd result).
End Spec.

Section General.
Context (A : Arith).
Notation num := (num A).
Notation zero := (@ofZ A 0).
Section Program.
Context (spectral : list num -> list num -> list num) (round9 : num -> num) (as_int : num -> option Z) (solve : (num -> num) -> num -> num)
  (fsolve : (num -> num -> num * num) -> num -> num -> num * num) (ceil : num -> Z)
  (griddata : list (num * num) -> list num -> list (num * num) -> res (list num)) (shocks : nat -> list (list num)).

Lemma mapM_Forall2 {X Y} (f : X -> res Y) l : forall out, mapM f l = Ok out -> Forall2 (fun x y => f x = Ok y) l out.
Proof.
  induction l as [|x l IH]; intros out H; cbn [mapM] in H; [injection H as <-; constructor|]. destruct (f x) as [y|] eqn:E; [|discriminate]. cbn [bind] in H.
  destruct (mapM f l) as [ys|] eqn:E2; [|discriminate]. cbn [bind] in H. injection H as <-. constructor; auto.
Qed.
Lemma alternative_spec compute sfs Fs T rho sig b r :
  alternative A compute griddata sfs Fs T rho sig (combine (b_Et A (m_bank A b)) (b_sigEt A (m_bank A b))) = Ok r ->
  exists ms, valued A compute sfs Fs T rho sig ms /\ length ms = length Fs /\ read_off A griddata (length sfs) ms b r.
Proof.
  intros H. unfold alternative in H. destruct (create_lookup _ _ _ _ _ _ _ _ _ _ _ _ _ _ _ _) as [lk|] eqn:EL; [|discriminate]. cbn [bind] in H.
  unfold create_lookup in EL. cbn [seq mapM bind] in EL.
  destruct (mapM _ (seq 0 (length Fs))) as [es|] eqn:ES; [|discriminate]. cbn [bind] in EL. injection EL as <-.
  assert (G : exists ms, valued A compute sfs Fs T rho sig ms /\ map (l_Et A) es = map (fun m => b_Et A (m_bank A m)) ms /\ map (l_sigEt A) es = map (fun m => b_sigEt A (m_bank A m)) ms /\
     map (l_mdef A) es = map (fun m => b_mdef A (m_bank A m)) ms /\ map (l_Ft A) es = map (m_mFt A) ms).
  { clear H. apply mapM_Forall2 in ES.
    assert (G : forall l, Forall2 (fun q e => (do m <- compute sfs (lookup_params A (s_d A) (s_y A) T (s_H A) (s_bookD1 A) rho (s_ltv A) (s_r A) (nth q Fs zero) sig);
        let b := m_bank A m in Ok {| l_Lt := b_Lt A b; l_Bt := b_Bt A b; l_Et := b_Et A b; l_Ft := m_mFt A m; l_mdef := b_mdef A b; l_sigEt := b_sigEt A b |}) = Ok e) l es ->
        exists ms, valued A compute sfs (map (fun q => nth q Fs zero) l) T rho sig ms /\ map (l_Et A) es = map (fun m => b_Et A (m_bank A m)) ms /\ map (l_sigEt A) es = map (fun m => b_sigEt A (m_bank A m)) ms /\
     map (l_mdef A) es = map (fun m => b_mdef A (m_bank A m)) ms /\ map (l_Ft A) es = map (m_mFt A) ms).
    { clear ES. induction es as [|e es IH]; intros l HF; inversion HF as [|q e' l' es' Hq Hl]; subst; [exists []; repeat split; constructor|].
      destruct (IH _ Hl) as (ms & V & E1 & E2 & E3 & E4). destruct (compute sfs _) as [m|] eqn:EM; [|discriminate Hq]. cbn [bind] in Hq. injection Hq as <-.
      exists (m :: ms). cbn [map]. rewrite E1, E2, E3, E4. repeat split; auto. constructor; [exact EM|exact V]. }
    destruct (G _ ES) as (ms & V & GG). exists ms. split; [|exact GG]. replace (map (fun q => nth q Fs zero) (seq 0 (length Fs))) with Fs in V; [exact V|].
    clear. apply (nth_ext _ _ zero zero); [rewrite map_length, seq_length; reflexivity|]. intros i Hi. rewrite (nth_indep (map _ _) zero (nth 0 Fs zero)) by (rewrite map_length, seq_length; exact Hi).
    rewrite (map_nth (fun q => nth q Fs zero)), seq_nth by exact Hi. reflexivity. }
  destruct G as (ms & V & E1 & E2 & E3 & E4). exists ms. split; [exact V|]. split; [clear - V; unfold valued in V; induction V; cbn [length]; congruence|].
  assert (R : forall (f : lookup_entry A -> list num) (g : merton_result A -> list num), map f es = map g ms -> ravel A (length sfs) f [[es]] = by_state A (length sfs) g ms).
  { intros f g E. unfold ravel, by_state. rewrite flat_map_concat_map. f_equal. apply map_ext. intros k. cbn [nth].
    rewrite <- (map_map f (fun l => nth k l zero)), E, map_map. reflexivity. }
  rewrite !(R _ _ E1), !(R _ _ E2), !(R _ _ E3), !(R _ _ E4) in H. unfold read_off. cbv zeta.
  destruct (griddata _ (by_state _ _ (fun m => b_mdef A (m_bank A m)) _) _) as [md|] eqn:E5; [|discriminate]. cbn [bind] in H.
  destruct (griddata _ (by_state _ _ (m_mFt A) _) _) as [mF|] eqn:E6; [|discriminate]. cbn [bind] in H. injection H as <-. cbn [fst snd]. split; first [exact E5|exact E6|reflexivity].
Qed.

(** *** C103: each of the alternative models (1)-(3) is a table of valuations with its own maturity, correlation, volatility and cohort structure over the same
    states and face values and with the same shocks as the true bank, read off at the true bank's equity value and equity volatility *)
Theorem C103_alternatives Nsim s b :
  simulate A spectral round9 as_int solve fsolve ceil griddata shocks Nsim = Ok s -> main_bank A spectral round9 as_int solve ceil shocks Nsim = Ok b ->
  let states := s_wide_states A ceil in let loans := s_loans A ceil in
  let cohorts fs p := mod_merton_computation A spectral round9 as_int solve fs p 10 (shocks Nsim) in
  let single fs p := mod_single_cohort_computation A spectral round9 as_int solve fs p 10 (shocks Nsim) in
  let borrower_vol := nmul (lit 20 100) (nsqrt (lit 5 10)) in
  (exists banks, valued A cohorts states loans (ofZ 10) (lit 99 100) borrower_vol banks /\ length banks = length loans /\ read_off A griddata (length states) banks b (sim_alt1 A s)) /\
  (exists banks, valued A single states loans (ofZ 5) (lit 5 10) (lit 2 10) banks /\ length banks = length loans /\ read_off A griddata (length states) banks b (sim_alt2 A s)) /\
  (exists banks, valued A single states loans (ofZ 5) (lit 99 100) borrower_vol banks /\ length banks = length loans /\ read_off A griddata (length states) banks b (sim_alt3 A s)).
Proof.
  intros HR HM. cbv zeta. unfold simulate in HR. cbv zeta in HR. unfold main_bank in HM. rewrite HM in HR. cbn [bind] in HR.
  destruct (central_state A (s_r A) (s_T A) (m_mFt A b)) as [j0|e]; cbn [bind] in HR; [|discriminate].
  destruct (alternative A _ griddata _ _ (s_T A) _ _ _) as [a1|e] eqn:E1; cbn [bind] in HR; [|discriminate].
  destruct (alternative A _ griddata _ _ (ofZ 5) (lit 5 10) _ _) as [a2|e] eqn:E2; cbn [bind] in HR; [|discriminate].
  destruct (alternative A _ griddata _ _ (ofZ 5) (lit 99 100) _ _) as [a3|e] eqn:E3; cbn [bind] in HR; [|discriminate].
  destruct (table_columns A _ j0) as [t|e] eqn:ET; cbn [bind] in HR; [|discriminate]. injection HR as <-. cbn [sim_alt1 sim_alt2 sim_alt3].
  apply alternative_spec in E1. apply alternative_spec in E2. apply alternative_spec in E3. split; [exact E1|]. split; [exact E2|exact E3].
Qed.
End Program.
End General.

(** ** In exact arithmetic *)
Local Open Scope R_scope.
(** *** C103: the alternative models are run in exact arithmetic at the intended parameters: interest 1%, maturity 10 or 5, correlation 0.99 or 0.5, volatility 0.2 sqrt(1/2) or 0.2,
    on 69 states and 105 face values 0.40, 0.41, ..., 1.44, whose table has 69 * 105 = 7245 points, and each returned curve has been interpolated at the 33 states of the true bank *)
Theorem C103_exact : forall round9 solve fsolve griddata shocks Nsim s,
  shaped shocks -> simulate XRA exact_spectral round9 exact_int solve fsolve xceil griddata (fun n => map (map Fin) (shocks n)) Nsim = Ok s ->
  exists b, main_bank XRA exact_spectral round9 exact_int solve xceil (fun n => map (map Fin) (shocks n)) Nsim = Ok b /\
  forall i, (i < 3)%nat ->
  let compute := nth i [mod_merton_computation XRA; mod_single_cohort_computation XRA; mod_single_cohort_computation XRA] (mod_merton_computation XRA) in
  let T := nth i [10; 5; 5] 0 in let rho := nth i [99/100; 1/2; 99/100] 0 in let sigma := nth i [2/10 * sqrt (1/2); 2/10; 2/10 * sqrt (1/2)] 0 in
  let result := nth i [sim_alt1 XRA s; sim_alt2 XRA s; sim_alt3 XRA s] ([], []) in
  exists banks : list (merton_result XRA), length banks = 105%nat /\
    (forall j e, (j < 105)%nat -> compute exact_spectral round9 exact_int solve (map Fin wide_states)
        (map Fin [1/100; T; 4/10 + INR j * (1/100); 5; debt_face; rho; 66/100; sigma; 5/1000; 2/1000]) 10%nat (map (map Fin) (shocks Nsim)) = Ok (nth j banks e)) /\
    read_off XRA griddata 69 banks b result /\
    length (by_state XRA 69 (m_mFt XRA) banks) = (69 * 105)%nat /\
    (forall k j f e, (k < 69)%nat -> (j < 105)%nat -> nth (k * 105 + j) (by_state XRA 69 f banks) NaN = nth k (f (nth j banks e)) (Fin 0)) /\
    length (combine (b_Et XRA (m_bank XRA b)) (b_sigEt XRA (m_bank XRA b))) = 33%nat.
Proof.
  intros round9 solve fsolve griddata shocks Nsim s HW HR.
  assert (HM := main_outcome XRA exact_spectral round9 exact_int solve xceil (fun n => map (map Fin) (shocks n)) Nsim exact_transform (exact_environment shocks HW)).
  assert (HB : exists b, main_bank XRA exact_spectral round9 exact_int solve xceil (fun n => map (map Fin) (shocks n)) Nsim = Ok b /\ sized XRA 33 b).
  { unfold main_bank in *. unfold simulate in HR. cbv zeta in HR. change (num XRA) with xr in *.
    match type of HR with bind ?x _ = _ => destruct x as [b|e] eqn:E; cbn [bind] in HR; [|discriminate] end.
    destruct Nsim as [|k]; [discriminate HM|]. destruct (smoothable _); [|discriminate HM]. destruct HM as (m & Em & HZ). injection Em as <-. exists b. split; [reflexivity|exact HZ]. }
  destruct HB as (b & HB & HZ). exists b. split; [exact HB|].
  assert (G := C103_alternatives XRA exact_spectral round9 exact_int solve fsolve xceil griddata (fun n => map (map Fin) (shocks n)) Nsim s b HR HB). cbv zeta in G.
  destruct C100_grids as (_ & G2 & G3). change (num XRA) with xr in *. rewrite G2, G3 in G.
  assert (LW : length (map Fin wide_states) = 69%nat) by (unfold wide_states; rewrite !map_length, seq_length; reflexivity).
  assert (LL : length (map Fin loan_grid) = 105%nat) by (unfold loan_grid; rewrite !map_length, seq_length; reflexivity).
  rewrite LW, LL in G.
  assert (ED : alternative_debt XRA = Fin debt_face).
  { rewrite <- debt_face_exact. unfold alternative_debt, s_D. change [1; 2; 3; 4; 5; 6; 7; 8; 9; 10]%nat with (seq 1 10). fold (s_r XRA). change (amean XRA (map (fun t => @nexp XRA (@nmul XRA (s_r XRA) (ofN XRA t))) (seq 1 10))) with (s_growth XRA).
    change (@nexp XRA (@nmul XRA (s_r XRA) (ofZ 5))) with (@nexp XRA (@nmul XRA (s_r XRA) (s_H XRA))).
    assert (EG : exists g, s_growth XRA = Fin g).
    { unfold s_growth. assert (E : map (fun t => @nexp XRA (@nmul XRA (s_r XRA) (ofN XRA t))) (seq 1 10) = map Fin (map (fun t => exp (1 / 100 * INR t)) (seq 1 10))).
      { rewrite map_map. apply map_ext. intros t. unfold s_r. rewrite ofN_fin. reflexivity. }
      change (num XRA) with xr in *. rewrite E, amean_fin by discriminate. eauto. }
    destruct EG as (g & ->). unfold s_bookD, s_r, s_H. cbn [lit ofZ nmul nexp XRA xmul xexp]. f_equal. ring. }
  assert (ES : @nsqrt XRA (@lit XRA 5 10) = Fin (sqrt (1/2))).
  { cbn [lit nsqrt XRA]. unfold xsqrt. destruct (Rlt_dec (5/10) 0) as [C|_]; [exfalso; lra|]. f_equal. f_equal. lra. }
  assert (EV : @nmul XRA (@lit XRA 20 100) (@nsqrt XRA (@lit XRA 5 10)) = Fin (2/10 * sqrt (1/2))) by (rewrite ES; cbn [lit nmul XRA xmul]; f_equal; lra).
  rewrite EV in G.
  assert (K : forall (compute : list xr -> list xr -> res (merton_result XRA)) T rho sigma (T' rho' sigma' : num XRA) result, T' = Fin T -> rho' = Fin rho -> sigma' = Fin sigma ->
     (exists banks, valued XRA compute (map Fin wide_states) (map Fin loan_grid) T' rho' sigma' banks /\ length banks = 105%nat /\ read_off XRA griddata 69 banks b result) ->
     exists banks : list (merton_result XRA), length banks = 105%nat /\
    (forall j e, (j < 105)%nat -> compute (map Fin wide_states) (map Fin [1/100; T; 4/10 + INR j * (1/100); 5; debt_face; rho; 66/100; sigma; 5/1000; 2/1000]) = Ok (nth j banks e)) /\
    read_off XRA griddata 69 banks b result /\
    length (by_state XRA 69 (m_mFt XRA) banks) = (69 * 105)%nat /\
    (forall k j f e, (k < 69)%nat -> (j < 105)%nat -> nth (k * 105 + j) (by_state XRA 69 f banks) NaN = nth k (f (nth j banks e)) (Fin 0)) /\
    length (combine (b_Et XRA (m_bank XRA b)) (b_sigEt XRA (m_bank XRA b))) = 33%nat).
  { clear G HR. intros compute T rho sigma T' rho' sigma' result -> -> -> (banks & V & LB & RO). exists banks. split; [exact LB|]. split; [|split; [exact RO|split; [|split]]].
    - intros j e Hj. unfold valued in V. rewrite ED in V. clear - V Hj LL.
      assert (GG : forall l out j d e, Forall2 (fun F m => compute (map Fin wide_states) [@lit XRA 1 100; Fin T; F; @ofZ XRA 5; Fin debt_face; Fin rho; @lit XRA 66 100; Fin sigma; @lit XRA 5 1000; @lit XRA 2 1000] = Ok m) l out -> (j < length l)%nat ->
         compute (map Fin wide_states) [@lit XRA 1 100; Fin T; nth j l d; @ofZ XRA 5; Fin debt_face; Fin rho; @lit XRA 66 100; Fin sigma; @lit XRA 5 1000; @lit XRA 2 1000] = Ok (nth j out e)).
      { clear. intros l out j d e H. revert j. induction H as [|F m l out H1 H2 IH]; intros j Hj; [cbn in Hj; lia|]. destruct j; [exact H1|]. cbn [nth]. apply IH. cbn [length] in Hj. apply Nat.succ_lt_mono. exact Hj. }
      specialize (GG _ _ j (Fin 0) e V ltac:(eapply Nat.lt_le_trans; [exact Hj|exact (Nat.eq_le_incl _ _ (eq_sym LL))])). rewrite <- GG. f_equal. cbn [map lit ofZ XRA]. do 2 (apply f_equal2; [reflexivity|]). apply f_equal2; [|reflexivity].
      refine (eq_trans _ (eq_sym (map_nth Fin loan_grid 0 j))). f_equal. unfold loan_grid. assert (E := map_nth (fun i => 4 / 10 + INR i * (1 / 100)) (seq 0 105) 0%nat j). rewrite (nth_indep _ 0 (4 / 10 + INR 0 * (1 / 100))) by (rewrite map_length, seq_length; lia). rewrite E, seq_nth by lia. reflexivity.
    - unfold by_state. rewrite flat_map_concat_map. rewrite <- LB. assert (forall l : list nat, length (concat (map (fun k => map (fun m => nth k (m_mFt XRA m) (Fin 0)) banks) l)) = (length l * length banks)%nat).
      { induction l as [|k l IH]; [reflexivity|]. cbn [map concat length]. rewrite app_length, IH, map_length. lia. }
      change (@ofZ XRA 0) with (Fin 0). rewrite H, seq_length. reflexivity.
    - intros k j f e Hk Hj. unfold by_state. change (@ofZ XRA 0) with (Fin 0). rewrite <- LB in Hj.
      assert (GG : forall n0 n k, (k < n)%nat -> nth (k * length banks + j) (flat_map (fun k => map (fun m => nth k (f m) (Fin 0)) banks) (seq n0 n)) NaN = nth (n0 + k) (f (nth j banks e)) (Fin 0)).
      { clear k Hk. intros n0 n. revert n0. induction n as [|n IH]; intros n0 k Hk; [lia|]. cbn [seq flat_map]. destruct k as [|k].
        - cbn [Nat.mul Nat.add]. rewrite app_nth1 by (rewrite map_length; exact Hj). rewrite (nth_indep _ NaN (nth n0 (f e) (Fin 0))) by (rewrite map_length; exact Hj). rewrite (map_nth (fun m => nth n0 (f m) (Fin 0))). f_equal. lia.
        - replace (S k * length banks + j)%nat with (length banks + (k * length banks + j))%nat by (cbn [Nat.mul]; lia). rewrite app_nth2; rewrite map_length; [|apply Nat.le_add_r]. rewrite Nat.add_comm, Nat.add_sub, IH by lia. f_equal. lia. }
      rewrite <- LB. apply (GG 0%nat 69%nat k Hk).
    - destruct HZ as (_ & _ & _ & H4 & _ & H6 & _). rewrite combine_length. change (num XRA) with xr in *. rewrite H4, H6. reflexivity. }
  destruct G as (A1 & A2 & A3). intros i Hi. destruct i as [|[|[|i]]]; [| | |lia]; cbn [nth]; cbv zeta.
  - refine (K _ _ _ _ _ _ _ _ eq_refl eq_refl eq_refl A1).
  - refine (K _ _ _ _ _ _ _ _ eq_refl _ eq_refl A2). cbn [lit XRA]. f_equal. lra.
  - refine (K _ _ _ _ _ _ _ _ eq_refl eq_refl eq_refl A3).
Qed.
(** a run that succeeds: 40 paths of zero shocks, an exact solver and an interpolation that returns its values at the first points *)
Example C103_case : forall mu, exists s,
  simulate XRA exact_spectral (fun x => x) exact_int (fun _ _ => Fin mu) (fun _ a s => (a, s)) xceil (fun _ v q => Ok (firstn (length q) v)) (fun n => map (map Fin) (repeat (repeat 0 30) n)) 40 = Ok s /\
  shaped (fun n => repeat (repeat 0 30) n) /\ exists b banks,
  main_bank XRA exact_spectral (fun x => x) exact_int (fun _ _ => Fin mu) xceil (fun n => map (map Fin) (repeat (repeat 0 30) n)) 40 = Ok b /\
  read_off XRA (fun _ v q => Ok (firstn (length q) v)) 69 banks b (sim_alt2 XRA s) /\ length (fst (sim_alt2 XRA s)) = 33%nat.
Proof.
  intros mu. assert (HW : shaped (fun n => repeat (repeat 0 30) n)).
  { intros n. split; [apply repeat_length|]. intros row Hr. apply repeat_spec in Hr. subst. apply repeat_length. }
  destruct (C100_exact (fun x => x) (fun _ _ => Fin mu) (fun _ a s => (a, s)) (fun _ v q => Ok (firstn (length q) v)) (fun n => repeat (repeat 0 30) n) 40 mu HW ltac:(lia) ltac:(left; reflexivity) ltac:(intros; eauto) eq_refl) as (s & m & ES & _).
  exists s. split; [exact ES|]. split; [exact HW|].
  destruct (C103_exact _ _ _ _ _ _ _ HW ES) as (b & EB & H). destruct (H 1%nat ltac:(lia)) as (banks & LB & _ & RO & LN & _ & LQ). cbn [nth] in RO. exists b, banks. split; [exact EB|]. split; [exact RO|].
  unfold read_off in RO. cbv zeta in RO. destruct RO as [RO _]. injection RO as RO. refine (eq_trans (eq_sym (f_equal (@length xr) RO)) _). rewrite firstn_length. change (num XRA) with xr in *. rewrite LQ.
  assert (L : forall f : merton_result XRA -> list xr, length (by_state XRA 69 f banks) = (69 * 105)%nat).
  { intros f. rewrite <- LN. unfold by_state. generalize (seq 0 69). induction l as [|k l IH]; [reflexivity|]. cbn [flat_map]. rewrite !app_length, IH, !map_length. reflexivity. }
  change (num XRA) with xr in *. rewrite L. reflexivity.
Qed.
