(** * Property C101, continued: from the inputs to the table, in exact arithmetic *)
From Coq Require Import Reals ZArith List Bool Arith Lia Lra.
From Verif Require Import Arith XR RealAux Gauss Fourier Props_dip Props_fftsmooth Props_loans Model_garch Model_option Model_merton Model_simulation Model_simulate Model_matlab Model_matlab2 Props_modmerton Props_modmerton2 Props_modmerton3 Props_simulation
  Props_matlab Props_simulate Props_matlab2.
Import ListNotations.

Lemma firstn_means cols s (M M' : list (list xr)) : (s <= cols)%nat -> map (firstn s) M = map (firstn s) M' -> firstn s (mean_axis0 XRA cols M) = firstn s (mean_axis0 XRA cols M').
Proof.
  intros Hs HM. unfold mean_axis0. rewrite !firstn_map_seq by exact Hs. apply map_ext_in. intros k Hk. apply in_seq in Hk. f_equal.
  assert (NF : forall row : list xr, nth k (firstn s row) (Fin 0) = nth k row (Fin 0)) by (intros row; rewrite <- (firstn_skipn s row) at 2; destruct (le_lt_dec (length row) k); [rewrite firstn_skipn; rewrite !nth_overflow; auto; rewrite firstn_length; lia|rewrite app_nth1; [reflexivity|rewrite firstn_length; lia]]).
  assert (G : forall N : list (list xr), map (fun row => nth k row (Fin 0)) N = map (fun row => nth k row (Fin 0)) (map (firstn s) N)).
  { intros N. rewrite map_map. apply map_ext. intros row. symmetry. apply NF. }
  change (@ofZ XRA 0) with (Fin 0). change (num XRA) with xr in *. rewrite (G M), (G M'), HM. reflexivity.
Qed.
(** *** C101: the two banks are the same as soon as none of the REPORTED loan values is NaN *)
Theorem C101_same_bank p szfs LH m D y H : p_D XRA p = Fin D -> p_y XRA p = Fin y -> p_H XRA p = Fin H ->
  from_loan_values XRA p szfs LH m -> (forall row l, In row (b_LH XRA (m_bank XRA m)) -> In l row -> xisnan l = false) ->
  matlab_bank XRA p szfs LH = m_bank XRA m.
Proof.
  intros ED Ey EH HF HN. unfold from_loan_values in HF. rewrite HF in *. assert (EL : b_LH XRA (settle XRA szfs (p_r XRA p) (p_H XRA p) (p_D XRA p) (p_y XRA p) (p_g XRA p) LH) = map (firstn szfs) LH) by reflexivity. rewrite EL in HN.
  destruct (C99_nan p szfs LH D y H ED Ey EH) as (E1 & E2 & E3 & E4 & E5 & E6 & E7 & E8 & E9 & E10 & E11 & _).
  rewrite ED, Ey, EH. change (num XRA) with xr in *.
  set (S := settle XRA szfs (p_r XRA p) (Fin H) (Fin D) (Fin y) (p_g XRA p) LH) in *. set (B := matlab_bank XRA p szfs LH) in *.
  assert (AG : forall f g : xr -> xr, (forall l, xisnan l = false -> f l = g l) -> map (firstn szfs) (map (map f) LH) = map (firstn szfs) (map (map g) LH)).
  { intros f g Hfg. rewrite !map_map. apply map_ext_in. intros row Hr. rewrite !firstn_map. apply map_ext_in. intros l Hl. apply Hfg. apply (HN (firstn szfs row) l); [|exact Hl]. apply in_map. exact Hr. }
  assert (AD := AG (debt_ignoring_nan D y H) (bank_debt XRA (Fin D) (Fin y) (Fin H)) ltac:(intros l El; unfold debt_ignoring_nan; rewrite El; reflexivity)).
  assert (AU := AG (guarantee_ignoring_nan (p_g XRA p) D y H) (guarantee XRA (p_g XRA p) (Fin D) (Fin y) (Fin H)) ltac:(intros l El; unfold guarantee_ignoring_nan; rewrite El; reflexivity)).
  assert (BT : b_Bt XRA B = b_Bt XRA S).
  { rewrite E10. unfold S, settle. cbv zeta. cbn [b_Bt]. rewrite !firstn_map. match goal with |- map ?f ?a = map ?g ?b => change (map f a = map f b); apply (f_equal (map f)) end. apply firstn_means; [lia|exact AD]. }
  assert (GT : b_Gt XRA B = b_Gt XRA S).
  { rewrite E11. unfold S, settle. cbv zeta. cbn [b_Gt]. rewrite !firstn_map. match goal with |- map ?f ?a = map ?g ?b => change (map f a = map f b); apply (f_equal (map f)) end. apply firstn_means; [lia|exact AU]. }
  assert (BH : b_BH XRA B = b_BH XRA S) by (rewrite E9; exact AD).
  destruct B as [B1 B2 B3 B4 B5 B6 B7 B8 B9 B10 B11], S as [S1 S2 S3 S4 S5 S6 S7 S8 S9 S10 S11]. cbn [b_Lt b_Bt b_Et b_Gt b_LH b_BH b_EH b_default b_mdef b_sigEt b_sigLt] in *. congruence.
Qed.

(** *** C101: every valid call with a scenario count divisible by 40: the two valuations return the same result *)
Theorem C101_exact_valuation : forall round9 solve q N HN fs w mu, valid_call q N HN fs w -> (2 <= N)%nat -> (2 <= length w)%nat ->
  solve (yield_equation q) (Fin (i_r q + 1 / 100)) = Fin mu -> Nat.modulo (length w * (3 * length fs)) 40 = 0%nat ->
  exists m, mod_merton_computation XRA exact_spectral round9 exact_int solve (map Fin fs) (as_list q) N (map (map Fin) w) = Ok m /\
    m_mod_merton_computation XRA exact_spectral round9 exact_int solve (map Fin fs) true (as_list q) N (length w) (map (map Fin) w) = Ok m.
Proof.
  intros round9 solve q N HN fs w mu HC H2 Hw2 Hs H40. set (n := (length w * (3 * length fs))%nat) in *.
  assert (HC' := HC). destruct HC' as (HV & HH & HE & Hw & HF & Hfs).
  apply Nat.mod_divides in H40; [|lia]. destruct H40 as (c & Hc).
  assert (Hn0 : (0 < n)%nat) by (unfold n; destruct fs; [congruence|cbn [length]; nia]).
  assert (He : Nat.even n = true) by (apply Nat.even_spec; exists (20 * c)%nat; lia).
  assert (H20 : Nat.even (Nat.div n 20) = true) by (apply Nat.even_spec; exists c; rewrite Hc; replace (40 * c)%nat with (2 * c * 20)%nat by lia; rewrite Nat.div_mul by lia; lia).
  assert (EP := C70_computation round9 solve q N HN fs w mu HC Hs He H20 ltac:(lia)). cbv zeta in EP.
  assert (GC := C99_computation XRA exact_spectral round9 exact_int solve (map Fin fs) true (as_list q) N (map (map Fin) w) exact_transform (or_introl eq_refl) H2).
  assert (LW : length (map (map Fin) w) = length w) by apply map_length. assert (LF : length (map Fin fs) = length fs) by apply map_length.
  change (num XRA) with xr in *. rewrite LW, LF in GC. rewrite EP in GC.
  assert (HR : forall p, read_param XRA (as_list q) = Ok p -> p = as_param q) by (intros p Hp; rewrite read_as_list in Hp; injection Hp; auto).
  destruct GC as (p & LH & Ep & HFL & EM).
  - exact Hw2.
  - intros row Hr. apply in_map_iff in Hr. destruct Hr as (row' & <- & Hr). rewrite map_length. rewrite Forall_forall in HF. rewrite (HF row' Hr). lia.
  - fold n. rewrite Hc. rewrite Nat.mul_comm. apply Nat.mod_mul. lia.
  - intros p Hp HT. exfalso. rewrite (HR p Hp) in HT. destruct HV as (HT0 & _). unfold as_param, params_of in HT. cbn [p_T neqb ofZ XRA] in HT. rewrite xeqb_false in HT by lra. discriminate.
  - intros p z Hp Hz. rewrite (HR p Hp) in Hz. unfold horizon_is in Hz. assert (HZ := horizon_valid q N HN fs w HC). unfold horizon in HZ.
    destruct (neqb (p_T XRA (as_param q)) (@ofZ XRA 0)); [discriminate|]. change (num XRA) with xr in *. rewrite Hz in HZ. injection HZ as ->. lia.
  - eexists. split; [exact EP|]. rewrite EM. f_equal. rewrite (HR p Ep) in *.
    unfold with_bank. rewrite (C101_same_bank (as_param q) (length fs) LH _ (i_D q) (i_y q) (i_H q) eq_refl eq_refl eq_refl HFL); [reflexivity|].
    cbn [m_bank]. unfold settle. cbv zeta. cbn [b_LH]. intros row l Hr Hl. apply in_map_iff in Hr. destruct Hr as (row' & <- & Hr). apply in_map_iff in Hr. destruct Hr as (row'' & <- & _).
    rewrite firstn_map in Hl. apply in_map_iff in Hl. destruct Hl as (x & <- & _). reflexivity.
Qed.

(** *** C101: the path counts ModMertonSimulation.m accepts: the positive multiples of 40, all of which simulate accepts too *)
Theorem C101_paths (A : Arith) spectral round9 as_int solve ceil shocks Nsim : transform A spectral -> environment A as_int ceil shocks ->
  let params := [s_r A; s_T A; s_bookF A; s_H A; s_D A; lit 5 10; s_ltv A; lit 2 10; s_d A; s_y A; s_g A] in
  ((exists m, m_mod_merton_computation A spectral round9 as_int solve (s_states A ceil) true params 10 Nsim (shocks Nsim) = Ok m) <-> (0 < Nsim)%nat /\ Nat.modulo Nsim 40 = 0%nat) /\
  (Nat.modulo Nsim 40 = 0%nat -> good_paths Nsim).
Proof.
  intros HS (L1 & _ & _ & I1 & _ & _ & _ & HW). cbv zeta. destruct (HW Nsim) as [LW HR].
  assert (M : (Nat.modulo (Nsim * (3 * 33)) 40 = 0 <-> Nat.modulo Nsim 40 = 0)%nat).
  { split; intros H.
    - apply Nat.mod_divides in H; [|lia]. destruct H as (c & Hc). apply Nat.mod_divides; [lia|]. exists (19 * c - 47 * Nsim)%nat. nia.
    - apply Nat.mod_divides in H; [|lia]. destruct H as (c & ->). apply Nat.mod_divides; [lia|]. exists (99 * c)%nat. lia. }
  split; [|intros H; unfold good_paths; rewrite H; cbn; auto].
  rewrite (C99_matlab_accepts A spectral round9 as_int solve (s_states A ceil) true _ 10 Nsim (shocks Nsim) HS ltac:(lia)). rewrite L1, M. split.
  - intros (_ & H2 & _ & H40 & _). split; [lia|exact H40].
  - intros [H0 H40]. split; [exact LW|]. split; [destruct Nsim as [|[|k]]; [lia|discriminate H40|lia]|]. split; [destruct (s_states A ceil); [discriminate L1|discriminate]|]. split; [exact H40|]. split.
    + intros row Hr. rewrite (HR row Hr). lia.
    + exists (mk_param A (s_r A) (s_T A) (s_bookF A) (s_H A) (s_D A) (lit 5 10) (s_ltv A) (lit 2 10) (s_d A) (s_y A) (s_g A)), 5%Z. split; [reflexivity|]. split; [exact I1|lia].
Qed.

(** *** C101: Table 1 of the shipped configuration: the same figures from both programs, for every multiple of 40 paths and any shocks *)
Theorem C101_shipped : forall round9 solve fsolve griddata shocks Nsim mu, shaped shocks -> (0 < Nsim)%nat -> Nat.modulo Nsim 40 = 0%nat ->
  (forall p v q, exists out, griddata p v q = Ok out) ->
  solve (yield_equation (shipped debt_face)) (Fin (1 / 100 + 1 / 100)) = Fin mu ->
  looks_only_at_feasible fsolve -> (forall f a0 s0, xisnan (snd (fsolve f a0 s0)) = false) ->
  exists s, simulate XRA exact_spectral round9 exact_int solve fsolve xceil griddata (fun n => map (map Fin) (shocks n)) Nsim = Ok s /\
    m_simulate_table XRA (fun fs p => m_mod_merton_computation XRA exact_spectral round9 exact_int solve fs true p 10 Nsim (map (map Fin) (shocks Nsim))) fsolve
      (map Fin (shipped_states 33)) (Fin (1/100)) (Fin 10) (Fin (66/100)) (Fin 5) (Fin debt_face) (Fin (1/2)) (Fin (66/100)) (Fin (2/10)) (Fin (5/1000)) (Fin (2/1000)) (Fin (1/2))
    = Ok (with_separator XRA (sim_table XRA s)).
Proof.
  intros round9 solve fsolve griddata shocks Nsim mu HW HN H40 HD Hs HF HV.
  assert (HG : good_paths Nsim) by (unfold good_paths; rewrite H40; cbn; auto).
  destruct (C100_exact round9 solve fsolve griddata shocks Nsim mu HW HN HG HD Hs) as (s & m & ES & EM & EC & ET). exists s. split; [exact ES|].
  assert (LW := proj1 (HW Nsim)).
  assert (LS : length (shipped_states 33) = 33%nat) by (unfold shipped_states; rewrite map_length, seq_length; reflexivity).
  assert (HC : valid_call (shipped debt_face) 10 5 (shipped_states 33) (shocks Nsim)).
  { unfold valid_call, valid_inputs, shipped. cbn [i_T i_rho i_sig i_bookF i_ltv i_H]. rewrite !inr_z. cbn [Z.of_nat Pos.of_succ_nat Pos.succ]. repeat split; try lra; try lia; try discriminate.
    - intros E. rewrite E in LW. cbn in LW. lia.
    - apply Forall_forall. intros row Hr. exact (proj2 (HW Nsim) row Hr). }
  assert (H2 : (2 <= length (shocks Nsim))%nat) by (rewrite LW; destruct Nsim as [|[|k]]; [lia|discriminate H40|lia]).
  assert (HM : Nat.modulo (length (shocks Nsim) * (3 * length (shipped_states 33))) 40 = 0%nat).
  { rewrite LW, LS. apply Nat.mod_divides in H40; [|lia]. destruct H40 as (c & ->). apply Nat.mod_divides; [lia|]. exists (99 * c)%nat. lia. }
  destruct (C101_exact_valuation round9 solve (shipped debt_face) 10 5 (shipped_states 33) (shocks Nsim) mu HC ltac:(lia) H2 Hs HM) as (m' & EP & EX).
  rewrite EM in EP. injection EP as <-. rewrite LW in EX.
  assert (EJ : central_state XRA (Fin (1/100)) (Fin 10) (m_mFt XRA m) = Ok 17%nat /\ columns XRA 33 m /\ forall x, In x (m_mFt XRA m) -> xisnan (distance XRA (Fin (1/100)) (Fin 10) x) = false).
  { apply Nat.mod_divides in HM; [|lia]. destruct HM as (c & Hc).
    assert (He : Nat.even (length (shocks Nsim) * (3 * length (shipped_states 33))) = true) by (apply Nat.even_spec; exists (20 * c)%nat; lia).
    assert (H20 : Nat.even (Nat.div (length (shocks Nsim) * (3 * length (shipped_states 33))) 20) = true) by (apply Nat.even_spec; exists c; rewrite Hc; replace (40 * c)%nat with (2 * c * 20)%nat by lia; rewrite Nat.div_mul by lia; lia).
    assert (Hn : (20 <= length (shocks Nsim) * (3 * length (shipped_states 33)))%nat) by (rewrite LW, LS; lia).
    split; [|split].
    - assert (He' := He). assert (H20' := H20). assert (Hn' := Hn). rewrite LS in He', H20', Hn'.
      destruct (C87_shipped round9 solve debt_face 33 (shocks Nsim) mu ltac:(lia) HC Hs He' H20' Hn') as (m2 & E2 & _ & E3 & _). rewrite EM in E2. injection E2 as <-. exact E3.
    - assert (EC7 := C70_computation round9 solve (shipped debt_face) 10 5 (shipped_states 33) (shocks Nsim) mu HC Hs He H20 Hn). cbv zeta in EC7.
      change (num XRA) with xr in *. rewrite EM in EC7. apply ok_inj in EC7. rewrite EC7. rewrite LS. unfold columns. cbv zeta. cbn [m_bank m_mFt]. unfold settle. cbv zeta. cbn [b_Lt b_Bt b_Et b_mdef b_sigEt].
      unfold numeric_vol, mean_axis0. rewrite !firstn_length, !map_length, !seq_length. repeat split; reflexivity.
    - assert (EC7 := C70_computation round9 solve (shipped debt_face) 10 5 (shipped_states 33) (shocks Nsim) mu HC Hs He H20 Hn). cbv zeta in EC7.
      change (num XRA) with xr in *. rewrite EM in EC7. apply ok_inj in EC7. rewrite EC7. cbn [m_mFt]. intros x Hx. apply in_map_iff in Hx. destruct Hx as (k & <- & _).
      unfold distance. cbn [nmul ndiv ofZ nexp nsub nabs XRA xmul]. rewrite xdiv_fin by lra. reflexivity. }
  destruct EJ as (EJ & HCo & HNa).
  destruct (C101_simulation XRA (fun fs p => mod_merton_computation XRA exact_spectral round9 exact_int solve fs p 10 (map (map Fin) (shocks Nsim)))
    (fun fs p => m_mod_merton_computation XRA exact_spectral round9 exact_int solve fs true p 10 Nsim (map (map Fin) (shocks Nsim))) fsolve fsolve
    (map Fin (shipped_states 33)) (Fin (1/100)) (Fin 10) (Fin (66/100)) (Fin 5) (Fin debt_face) (Fin (1/2)) (Fin (66/100)) (Fin (2/10)) (Fin (5/1000)) (Fin (2/1000)) (Fin (1/2)) 33 m eq_refl EM EX HCo ltac:(lia)
    (C101_same_roots fsolve _ _ _ _ m HF HV) HNa) as (j & EJ' & _ & HT & _).
  change (num XRA) with xr in *. rewrite EJ in EJ'. injection EJ' as <-. destruct (HT ltac:(lia) ltac:(lia)) as (t & TP & TM). rewrite TM. do 2 f_equal.
  unfold simulate_table in TP. change (num XRA) with xr in *. match type of TP with bind ?x _ = _ => change x with (mod_merton_computation XRA exact_spectral round9 exact_int solve (map Fin (shipped_states 33)) (as_list (shipped debt_face)) 10 (map (map Fin) (shocks Nsim))) in TP end.
  change (num XRA) with xr in *. rewrite EM in TP. cbn [bind] in TP. rewrite EJ in TP. cbn [bind] in TP.
  destruct HCo as (K1 & K2 & K3 & K4 & K5 & K6). change (num XRA) with xr in *.
  destruct (C87_columns XRA 33 17 (Model_simulation.table_rows XRA fsolve (Fin (1/2)) (Fin (1/100)) (Fin (2/1000)) (Fin 5) (Fin debt_face) m) NaN ltac:(lia) ltac:(discriminate)) as (_ & C2 & _).
  { unfold Model_simulation.table_rows. cbv zeta. repeat constructor; rewrite ?map_length, ?map2_length; change (num XRA) with xr; lia. }
  rewrite (C2 ltac:(lia) ltac:(lia)) in TP. apply ok_inj in TP. rewrite <- TP. symmetry. exact ET.
Qed.

(** a solver that always answers (1, 1/2) meets the premises *)
Example C101_case : let fsolve := fun (_ : xr -> xr -> xr * xr) (_ _ : xr) => (Fin 1, Fin (1 / 2)) in
  looks_only_at_feasible fsolve /\ (forall f a0 s0, xisnan (snd (fsolve f a0 s0)) = false) /\ shaped (fun n => repeat (repeat 0%R 30) n) /\ Nat.modulo 10000 40 = 0%nat /\
  good_paths 24 /\ Nat.modulo 24 40 <> 0%nat.
Proof.
  cbv zeta. split; [intros f g a0 s0 _; reflexivity|]. split; [reflexivity|]. split; [|split; [reflexivity|split; [vm_compute; tauto|discriminate]]].
  intros n. split; [apply repeat_length|]. intros row Hr. apply repeat_spec in Hr. subst row. reflexivity.
Qed.
