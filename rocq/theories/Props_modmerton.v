(** * Properties C70-C74 of the modified Merton model: sorting, cohorts, horizon, balance sheet, mutation of the caller's list *)
From Coq Require Import Reals Lra List ZArith Lia Bool Permutation Sorted.
From Verif Require Import Arith XR RealAux Fourier Model_option Model_merton Props_fftsmooth.
Import ListNotations.
Local Open Scope R_scope.

(** ** C73: sorting and un-sorting *)
Section Sorting.
Context (A : Arith).
Lemma insert_perm key x l : Permutation (insert_idx A key x l) (x :: l).
Proof.
  induction l as [|y l IH]; cbn [insert_idx]; [reflexivity|]. destruct (key_lt A (key y) (key x)); [|reflexivity].
  rewrite IH. apply perm_swap.
Qed.
Lemma fold_insert_perm key l : Permutation (fold_right (insert_idx A key) [] l) l.
Proof. induction l as [|x l IH]; [reflexivity|]. cbn [fold_right]. rewrite insert_perm. apply perm_skip. exact IH. Qed.
Lemma argsort_perm keys : Permutation (argsort A keys) (seq 0 (length keys)).
Proof. apply fold_insert_perm. Qed.
End Sorting.
Lemma set_nth_length {X} (l : list X) i v : length (set_nth l i v) = length l.
Proof. revert i. induction l as [|x l IH]; intros [|i]; cbn [set_nth length]; auto. Qed.
Lemma set_nth_same {X} (l : list X) i v d : (i < length l)%nat -> nth i (set_nth l i v) d = v.
Proof. revert i. induction l as [|x l IH]; intros [|i] H; cbn [set_nth length nth] in *; try lia; auto. apply IH. lia. Qed.
Lemma set_nth_other {X} (l : list X) i j v d : i <> j -> nth j (set_nth l i v) d = nth j l d.
Proof. revert i j. induction l as [|x l IH]; intros [|i] [|j] H; cbn [set_nth nth] in *; try lia; auto. Qed.
Lemma scatter_other ind : forall a acc p, ~ In p ind ->
  nth p (fold_left (fun acc tp => set_nth acc (snd tp) (fst tp)) (combine (seq a (length ind)) ind) acc) 0%nat = nth p acc 0%nat.
Proof.
  induction ind as [|q ind IH]; intros a acc p Hp; [reflexivity|]. cbn [length seq combine fold_left fst snd]. rewrite IH.
  - apply set_nth_other. intros ->. apply Hp. left. reflexivity.
  - intros H. apply Hp. right. exact H.
Qed.
Lemma scatter_at ind : forall a acc t, NoDup ind -> (forall p, In p ind -> (p < length acc)%nat) -> (t < length ind)%nat ->
  nth (nth t ind 0%nat) (fold_left (fun acc tp => set_nth acc (snd tp) (fst tp)) (combine (seq a (length ind)) ind) acc) 0%nat = (a + t)%nat.
Proof.
  induction ind as [|q ind IH]; intros a acc t HN HB Ht; [cbn in Ht; lia|]. inversion HN as [|? ? H1 H2]; subst.
  cbn [length seq combine fold_left fst snd]. destruct t as [|t].
  - cbn [nth]. rewrite scatter_other by auto. rewrite set_nth_same; [lia|]. apply HB. left. reflexivity.
  - cbn [nth]. rewrite IH; [lia|auto| |cbn [length] in Ht; lia]. intros p Hp. rewrite set_nth_length. apply HB. right. exact Hp.
Qed.
Lemma inverse_index_at n ind t : Permutation ind (seq 0 n) -> (t < n)%nat -> nth (nth t ind 0%nat) (inverse_index ind) 0%nat = t.
Proof.
  intros HP Ht. assert (HL := Permutation_length HP). rewrite seq_length in HL. unfold inverse_index. rewrite scatter_at; [reflexivity| | |lia].
  - apply (Permutation_NoDup (Permutation_sym HP)), seq_NoDup.
  - intros p Hp. apply (Permutation_in _ HP) in Hp. apply in_seq in Hp. rewrite repeat_length. lia.
Qed.
Lemma perm_position n ind p : Permutation ind (seq 0 n) -> (p < n)%nat -> exists t, (t < n)%nat /\ nth t ind 0%nat = p.
Proof.
  intros HP Hp. assert (HI : In p ind) by (apply (Permutation_in _ (Permutation_sym HP)), in_seq; lia).
  apply (In_nth _ _ 0%nat) in HI. destruct HI as (t & Ht & E). exists t. rewrite (Permutation_length HP), seq_length in Ht. auto.
Qed.
(** every smoothed value goes back to the scenario it was computed for: there is an ordering [ind] of the scenarios by which the
    values were sorted before smoothing, and scenario ind[t] receives the t-th smoothed value *)
Theorem C73_unsort : forall (A : Arith) round9 smoother keys vals out, length vals = length keys ->
  smooth_by A round9 smoother keys vals = Ok out ->
  exists ind s, Permutation ind (seq 0 (length keys)) /\ ind = argsort A (map round9 keys) /\
    smoother (map (fun p => nth p vals (ofZ 0)) ind) = Ok s /\ length out = length keys /\
    forall t, (t < length keys)%nat -> nth (nth t ind 0%nat) out (ofZ 0) = nth t s (ofZ 0).
Proof.
  intros A r9 sm keys vals out HL H. unfold smooth_by in H. set (ind := argsort A (map r9 keys)) in *.
  assert (HP : Permutation ind (seq 0 (length keys))) by (unfold ind; rewrite <- (map_length r9 keys); apply argsort_perm).
  destruct (sm _) as [s|] eqn:ES; [|discriminate]. cbn [bind] in H. injection H as <-. exists ind, s. repeat split; auto.
  - rewrite map_length, seq_length. reflexivity.
  - intros t Ht. assert (HI : (nth t ind 0 < length keys)%nat).
    { assert (HX : In (nth t ind 0%nat) ind) by (apply nth_In; rewrite (Permutation_length HP), seq_length; auto). apply (Permutation_in _ HP) in HX. apply in_seq in HX. lia. }
    set (g := fun p => nth (nth p (inverse_index ind) 0%nat) s (ofZ 0)). change (nth (nth t ind 0%nat) (map g (seq 0 (length keys))) (ofZ 0) = nth t s (ofZ 0)).
    rewrite (nth_indep _ _ (g 0%nat)) by (rewrite map_length, seq_length; auto). rewrite map_nth, seq_nth by auto. unfold g. cbn [Nat.add].
    rewrite (inverse_index_at (length keys)) by auto. reflexivity.
Qed.
(** without smoothing the original vector comes back, bit for bit *)
Theorem C73_lossless : forall (A : Arith) round9 keys vals, length vals = length keys -> smooth_by A round9 (@Ok _) keys vals = Ok vals.
Proof.
  intros A r9 keys vals HL. destruct (smooth_by A r9 (@Ok _) keys vals) as [out|e] eqn:E; [|discriminate].
  destruct (C73_unsort A r9 (@Ok _) keys vals out HL E) as (ind & s & HP & _ & ES & HO & HV). injection ES as <-. f_equal.
  apply (nth_ext _ _ (ofZ 0) (ofZ 0)); [lia|]. intros p Hp. rewrite HO in Hp. destruct (perm_position _ _ p HP Hp) as (t & Ht & <-). rewrite HV by auto.
  set (g := fun p => nth p vals (ofZ 0)). rewrite (nth_indep _ _ (g 0%nat)) by (rewrite map_length, (Permutation_length HP), seq_length; auto). rewrite map_nth. reflexivity.
Qed.
(** the order is increasing in the rounded key, ties in order of position (NaN last) *)
Definition before (keys : list xr) (p q : nat) : Prop :=
  key_lt XRA (nth p keys (Fin 0)) (nth q keys (Fin 0)) = true \/ (key_lt XRA (nth q keys (Fin 0)) (nth p keys (Fin 0)) = false /\ (p < q)%nat).
Lemma key_lt_neg_trans (x y z : xr) : key_lt XRA z x = true -> key_lt XRA z y = true \/ key_lt XRA y x = true.
Proof.
  unfold key_lt. cbn [nltb isnan XRA]. destruct x, y, z; cbn; auto; try discriminate.
  destruct (Rlt_dec r1 r); [|discriminate]. destruct (Rlt_dec r1 r0); [auto|]. destruct (Rlt_dec r0 r); [auto|lra].
Qed.
Lemma key_lt_asym (x y : xr) : key_lt XRA x y = true -> key_lt XRA y x = false.
Proof.
  unfold key_lt. cbn [nltb isnan XRA]. destruct x, y; cbn; auto; try discriminate.
  destruct (Rlt_dec r r0); [|discriminate]. destruct (Rlt_dec r0 r); [lra|reflexivity].
Qed.
Lemma insert_sorted keys x l : (forall y, In y l -> (x < y)%nat) -> StronglySorted (before keys) l ->
  StronglySorted (before keys) (insert_idx XRA (fun i => nth i keys (Fin 0)) x l).
Proof.
  induction l as [|y l IH]; intros HX HS; cbn [insert_idx]; [repeat constructor|]. inversion HS as [|? ? HS' HF]; subst.
  destruct (key_lt XRA (nth y keys (Fin 0)) (nth x keys (Fin 0))) eqn:E.
  - constructor; [apply IH; [intros; apply HX; right; auto|auto]|].
    rewrite Forall_forall in *. intros z Hz. apply (Permutation_in _ (insert_perm XRA _ x l)) in Hz. destruct Hz as [<-|Hz]; [left; exact E|auto].
  - constructor; [exact HS|]. constructor; [right; split; [exact E|apply HX; left; reflexivity]|].
    rewrite Forall_forall in *. intros z Hz. right. split; [|apply HX; right; auto].
    destruct (key_lt XRA (nth z keys (Fin 0)) (nth x keys (Fin 0))) eqn:EZ; [|reflexivity]. exfalso.
    destruct (key_lt_neg_trans _ (nth y keys (Fin 0)) _ EZ) as [H|H]; [|congruence].
    destruct (HF z Hz) as [H1|(H1 & _)]; [apply key_lt_asym in H1|]; congruence.
Qed.
Theorem C73_stable_order : forall keys, StronglySorted (before keys) (argsort XRA keys).
Proof.
  intros keys. unfold argsort. generalize (length keys). assert (G : forall n a, StronglySorted (before keys) (fold_right (insert_idx XRA (fun i => nth i keys (ofZ (a:=XRA) 0))) [] (seq a n))); [|intros; apply G].
  induction n as [|n IH]; intros a; [constructor|]. cbn [seq fold_right]. apply insert_sorted; [|apply IH].
  intros y Hy. apply (Permutation_in _ (fold_insert_perm XRA _ _)) in Hy. apply in_seq in Hy. lia.
Qed.
(** np.reshape(..., order="F"): scenario (i, k) is at position i + Nsim2*k, and back *)
Lemma reshape_positions : forall Nsim2 i k, (i < Nsim2)%nat ->
  Nat.modulo (i + Nsim2 * k) Nsim2 = i /\ Nat.div (i + Nsim2 * k) Nsim2 = k /\ (forall Nsim1, (k < Nsim1 -> i + Nsim2 * k < Nsim2 * Nsim1)%nat).
Proof.
  intros N2 i k Hi. rewrite (Nat.mul_comm N2 k). split; [rewrite Nat.mod_add by lia; apply Nat.mod_small; auto|]. split; [rewrite Nat.div_add by lia; rewrite Nat.div_small by auto; lia|].
  intros N1 Hk. nia.
Qed.
(** a call that smooths the (path, state) table, column by column of states, and reads it back returns scenario (i, k) at (i, k) *)
Theorem C73_reshape : forall (A : Arith) round9 (f g : nat -> nat -> num A) Nsim2 Nsim1 i k, (i < Nsim2)%nat -> (k < Nsim1)%nat ->
  let ravel h := map (fun q => h (Nat.modulo q Nsim2) (Nat.div q Nsim2)) (seq 0 (Nsim2 * Nsim1)) in
  exists out, smooth_by A round9 (@Ok _) (ravel f) (ravel g) = Ok out /\ nth (i + Nsim2 * k) out (ofZ 0) = g i k.
Proof.
  intros A r9 f g N2 N1 i k Hi Hk ravel. exists (ravel g). split; [apply C73_lossless; unfold ravel; rewrite !map_length; reflexivity|].
  destruct (reshape_positions N2 i k Hi) as (E1 & E2 & E3). unfold ravel. rewrite nth_map_seq by auto. rewrite E1, E2. reflexivity.
Qed.
Example C73_case : argsort XRA [Fin 3; Fin 1; NaN; Fin 3; Fin 0] = [4; 1; 0; 3; 2]%nat.
Proof.
  assert (K : forall a b, key_lt XRA (Fin a) (Fin b) = xltb (Fin a) (Fin b)) by (intros; unfold key_lt; cbn [nltb isnan XRA xisnan andb]; apply orb_false_r).
  assert (K1 : forall a, key_lt XRA (Fin a) NaN = true) by reflexivity. assert (K2 : forall a, key_lt XRA NaN (Fin a) = false) by reflexivity.
  unfold argsort. cbn [length seq fold_right].
  repeat first [rewrite K1 | rewrite K2 | rewrite K | rewrite xltb_true by lra | rewrite xltb_false by lra | progress cbn [insert_idx nth]]. reflexivity.
Qed.

(** ** C71: loan cohorts *)
Lemma arange_down_length a b : length (arange_down a b) = Z.to_nat (a - b).
Proof. unfold arange_down. rewrite map_length, seq_length. reflexivity. Qed.
Lemma arange_down_nth a b t : (t < Z.to_nat (a - b))%nat -> nth t (arange_down a b) 0%Z = (a - Z.of_nat t)%Z.
Proof. intros H. unfold arange_down. apply (nth_map_seq (fun t => (a - Z.of_nat t)%Z)). exact H. Qed.
(** every cohort is of exactly one kind, and the cohorts at the boundary go to the first kind *)
Lemma rolled_iff : forall HN j, rolled HN j = true <-> (Z.of_nat j < HN)%Z.
Proof. intros. apply Z.ltb_lt. Qed.
(** A cohort with j >= HN is valued as its first loan alone (at the promised size, whatever happens to the loan that follows), one with j < HN as the second loan alone
    (whatever the borrowers of the first loan would own at t+H). *)
Theorem C71_partition : forall (A : Arith) p N HN ival mu F aH sh f1 f2 ft fH1 fH2 f2' fH1' fH2' j,
  let cell := fun c => cohort_cell A p N HN ival mu F aH sh c j in
  ((HN <= Z.of_nat j)%Z -> cell (mk_cf A f1 f2 ft fH1 fH2) = cell (mk_cf A f1 f2' ft fH1 fH2') /\ x_sc A (cell (mk_cf A f1 f2 ft fH1 fH2)) = ofZ 1) /\
  ((Z.of_nat j < HN)%Z -> cell (mk_cf A f1 f2 ft fH1 fH2) = cell (mk_cf A f1 f2 ft fH1' fH2) /\
     x_sc A (cell (mk_cf A f1 f2 ft fH1 fH2)) = ndiv (loan_payoff A F (nadd f1 sh) ival (p_rho A p) (p_sig A p) (p_T A p)) (p_bookF A p)).
Proof.
  intros A p N HN ival mu F aH sh f1 f2 ft fH1 fH2 f2' fH1' fH2' j cell. unfold cell, cohort_cell. cbn [c_f1 c_f2 c_ft c_fH1 c_fH2].
  split; intros Hj; destruct (rolled HN j) eqn:ER; try (apply rolled_iff in ER; lia); try (assert (~ (Z.of_nat j < HN)%Z) by (rewrite <- rolled_iff; congruence); lia); split; reflexivity.
Qed.
(** for a nonnegative horizon the array has the right size exactly when the bank debt matures strictly before the loans; otherwise the call raises *)
Theorem C71_accepts : forall (A : Arith) N HN, (0 <= HN)%Z -> ((exists l, aHmat A N HN = Ok l) <-> (HN < Z.of_nat N)%Z) /\ ((Z.of_nat N <= HN)%Z -> aHmat A N HN = Err ValueError).
Proof.
  intros A N HN H0. unfold aHmat. rewrite map_length, app_length, !arange_down_length.
  assert (E : ((Z.to_nat (HN - -1) + Z.to_nat (Z.of_nat N - 1 - HN)) =? N)%nat = (HN <? Z.of_nat N)%Z).
  { apply eq_true_iff_eq. rewrite Nat.eqb_eq, Z.ltb_lt. lia. }
  rewrite E. destruct (Z.ltb_spec HN (Z.of_nat N)) as [L|L]; cbn [check]; (split; [split; [intros|intros]|intros]); try lia; eauto. destruct H as (l & H). discriminate.
Qed.
(** the accumulated life at t+H: (HN-j)/N for cohorts rolled over since t, (N-(j-HN))/N for the others except the boundary cohort j = HN,
    whose loans are just maturing (life 1) but get 0 *)
Theorem C71_accumulated_life : forall (A : Arith) N HN j, (0 <= HN < Z.of_nat N)%Z -> (j < N)%nat -> exists l,
  aHmat A N HN = Ok l /\ length l = N /\
  nth j l (ofZ 0) = (if (Z.of_nat j <=? HN)%Z then ndiv (ofZ (HN - Z.of_nat j)) (ofZ (Z.of_nat N)) else ndiv (ofZ (Z.of_nat N - (Z.of_nat j - HN))) (ofZ (Z.of_nat N))) /\
  (Z.of_nat j = HN -> nth j l (ofZ 0) = ndiv (ofZ 0) (ofZ (Z.of_nat N))).
Proof.
  intros A N HN j HH Hj. destruct (proj2 (proj1 (C71_accepts A N HN (proj1 HH))) (proj2 HH)) as (l & HL). exists l. split; [exact HL|].
  unfold aHmat in HL. rewrite map_length, app_length, !arange_down_length in HL. destruct (Nat.eqb_spec (Z.to_nat (HN - -1) + Z.to_nat (Z.of_nat N - 1 - HN)) N) as [E|E]; [|discriminate].
  cbn [check] in HL. injection HL as HL. assert (LL : length l = N). { rewrite <- HL, map_length, app_length, !arange_down_length. lia. }
  split; [exact LL|]. assert (G : nth j l (ofZ 0) = (if (Z.of_nat j <=? HN)%Z then ndiv (ofZ (HN - Z.of_nat j)) (ofZ (Z.of_nat N)) else ndiv (ofZ (Z.of_nat N - (Z.of_nat j - HN))) (ofZ (Z.of_nat N)))).
  { rewrite <- HL. set (g := fun z : Z => ndiv (ofZ z) (ofN A N)). rewrite (nth_indep _ _ (g 0%Z)) by (rewrite map_length, app_length, !arange_down_length; lia).
    rewrite (map_nth g). unfold g, ofN. destruct (Z.leb_spec (Z.of_nat j) HN) as [L|L].
    - rewrite app_nth1 by (rewrite arange_down_length; lia). rewrite arange_down_nth by lia. reflexivity.
    - rewrite app_nth2 by (rewrite arange_down_length; lia). rewrite arange_down_length. rewrite arange_down_nth by lia. do 2 f_equal. lia. }
  split; [exact G|]. intros EH. rewrite G, EH, Z.leb_refl, Z.sub_diag. reflexivity.
Qed.
Theorem C71_boundary_refuted : exists N HN j l, (0 <= HN < Z.of_nat N)%Z /\ aHmat XRA N HN = Ok l /\ rolled HN j = false /\
  (* the first loan of cohort j, started N - j periods before t, has lived N periods at t + H *) (Z.of_nat N - Z.of_nat j + HN = Z.of_nat N)%Z /\ nth j l NaN = Fin 0.
Proof.
  exists 10%nat, 5%Z, 5%nat. destruct (C71_accumulated_life XRA 10 5 5 ltac:(lia) ltac:(lia)) as (l & HL & LL & _ & HB). exists l.
  repeat split; auto; try lia. specialize (HB eq_refl). change (num XRA) with xr in *.
  rewrite (nth_indep _ NaN (ofZ (a:=XRA) 0)) by (rewrite LL; lia). etransitivity; [exact HB|]. cbn [ndiv ofZ XRA]. rewrite xdiv_fin by (simpl; lra). f_equal. unfold Rdiv. ring.
Qed.

(** ** C72: the horizon is a whole number of periods *)
Definition exact_int (x : xr) : option Z :=
  match x with Fin r => if Req_EM_T r (IZR (Int_part r)) then Some (Int_part r) else None | _ => None end.
Definition params_of (r T bookF H D rho ltv sig d y g : R) : param XRA :=
  mk_param XRA (Fin r) (Fin T) (Fin bookF) (Fin H) (Fin D) (Fin rho) (Fin ltv) (Fin sig) (Fin d) (Fin y) (Fin g).
Lemma exact_int_IZR z : exact_int (Fin (IZR z)) = Some z.
Proof.
  unfold exact_int. assert (E : Int_part (IZR z) = z). { destruct (base_Int_part (IZR z)) as (H1 & H2). apply le_IZR in H1. assert (H3 : (z - 1 < Int_part (IZR z))%Z) by (apply lt_IZR; rewrite minus_IZR; lra). lia. }
  rewrite E. destruct (Req_EM_T (IZR z) (IZR z)); [reflexivity|congruence].
Qed.
Theorem C72_horizon : forall (p : param XRA) N h t, p_H XRA p = Fin h -> p_T XRA p = Fin t -> t <> 0 ->
  (forall z, h * (INR N / t) = IZR z -> horizon XRA exact_int N p = Ok z) /\
  ((forall z, h * (INR N / t) <> IZR z) -> horizon XRA exact_int N p = Err AssertionError).
Proof.
  intros p N h t HH HT Ht. unfold horizon. rewrite HH, HT. cbn [neqb ofZ XRA]. rewrite xeqb_false by auto. rewrite ofN_fin. cbn [ndiv nmul XRA]. rewrite xdiv_fin by auto. cbn [xmul]. split.
  - intros z Hz. rewrite Hz, exact_int_IZR. reflexivity.
  - intros HN. unfold exact_int. destruct (Req_EM_T (h * (INR N / t)) (IZR (Int_part (h * (INR N / t))))) as [E|]; [|reflexivity]. exfalso. exact (HN _ E).
Qed.
(** and the whole computation raises AssertionError then, before anything else *)
Theorem C72_computations_raise : forall (A : Arith) spectral round9 as_int solve fs params N w p,
  read_param A params = Ok p -> neqb (p_T A p) (ofZ 0) = false -> as_int (nmul (p_H A p) (ndiv (ofN A N) (p_T A p))) = None ->
  mod_merton_computation A spectral round9 as_int solve fs params N w = Err AssertionError /\
  mod_single_cohort_computation A spectral round9 as_int solve fs params N w = Err AssertionError.
Proof.
  intros A sp r9 ai so fs params N w p HP HT HI. unfold mod_merton_computation, mod_single_cohort_computation. rewrite HP. cbn [bind]. unfold horizon. rewrite HT, HI. split; reflexivity.
Qed.
Example C72_case : horizon XRA exact_int 10 (params_of 0 10 1 5 1 0 1 1 0 0 0) = Ok 5%Z /\ horizon XRA exact_int 10 (params_of 0 10 1 (11/2) 1 0 1 1 0 0 0) = Err AssertionError.
Proof.
  split.
  - apply (C72_horizon _ 10 5 10); try reflexivity; [lra|]. simpl. lra.
  - apply (C72_horizon _ 10 (11/2) 10); try reflexivity; [lra|]. intros z Hz. simpl INR in Hz. assert (E : 11 / 2 = IZR z) by lra.
    assert (H1 : (5 < z)%Z) by (apply lt_IZR; lra). assert (H2 : (z < 6)%Z) by (apply lt_IZR; lra). lia.
Qed.

(** ** C70: the bank's balance sheet *)
(** the specification, one simulated state at a time: [l] is the loan portfolio at the horizon *)
Section State.
Variables (D y H g : R).
Definition after_payout (l : R) : R := l * exp (- y * H).
Definition debt_payoff (l : R) : R := Rmin D (after_payout l).
Definition equity_payoff (l : R) : R := l - debt_payoff l.
Definition guarantee_payoff (l : R) : R := g * Rmax (D - after_payout l) 0.
Definition defaulted (l : R) : R := if Rle_dec (after_payout l) D then 1 else 0.
End State.
Lemma payout_fin y H l : payout_value XRA (Fin y) (Fin H) (Fin l) = Fin (after_payout y H l).
Proof. reflexivity. Qed.
Lemma bank_debt_fin D y H l : bank_debt XRA (Fin D) (Fin y) (Fin H) (Fin l) = Fin (debt_payoff D y H l).
Proof.
  unfold bank_debt. rewrite payout_fin. unfold np_minimum, debt_payoff. cbn [isnan nltb XRA xisnan]. unfold Rmin.
  destruct (Rle_dec D (after_payout y H l)); [rewrite xltb_false by auto|rewrite xltb_true by lra]; reflexivity.
Qed.
Lemma bank_equity_fin D y H l : bank_equity XRA (Fin D) (Fin y) (Fin H) (Fin l) = Fin (equity_payoff D y H l).
Proof. unfold bank_equity. rewrite bank_debt_fin. reflexivity. Qed.
Lemma guarantee_fin g D y H l : guarantee XRA (Fin g) (Fin D) (Fin y) (Fin H) (Fin l) = Fin (guarantee_payoff D y H g l).
Proof.
  unfold guarantee. rewrite payout_fin. unfold np_maximum, guarantee_payoff. cbn [isnan nltb nsub nmul ofZ XRA xisnan xsub]. unfold Rmax.
  destruct (Rle_dec (D - after_payout y H l) 0) as [L|L].
  - destruct (Rlt_dec (D - after_payout y H l) 0); [rewrite xltb_true by auto; reflexivity|]. rewrite xltb_false by lra. cbn [xmul]. do 2 f_equal. lra.
  - rewrite xltb_false by lra. reflexivity.
Qed.
Lemma default_fin D y H l : default_flag XRA (Fin D) (Fin y) (Fin H) (Fin l) = Fin (defaulted D y H l).
Proof.
  unfold default_flag, bank_equity_ex. rewrite bank_debt_fin, payout_fin. cbn [nsub nltb ofZ XRA xsub]. unfold defaulted, debt_payoff, Rmin.
  destruct (Rle_dec D (after_payout y H l)), (Rle_dec (after_payout y H l) D); try lra; [rewrite xltb_false by lra|rewrite xltb_true by lra|rewrite xltb_false by lra]; reflexivity.
Qed.
(** columns of a finite matrix *)
Definition column (k : nat) (M : list (list R)) : list R := map (fun row => nth k row 0) M.
Lemma mean_axis0_fin cols (f : R -> R) (fx : xr -> xr) M : (forall l, fx (Fin l) = Fin (f l)) -> M <> [] -> Forall (fun row => length row = cols) M ->
  mean_axis0 XRA cols (map (map fx) (map (map Fin) M)) = map (fun k => Fin (Rmean (map f (column k M)))) (seq 0 cols).
Proof.
  intros Hf HM HF. unfold mean_axis0. apply map_ext_in. intros k Hk. apply in_seq in Hk. unfold column. rewrite !map_map.
  rewrite (map_ext_in _ (fun row => Fin (f (nth k row 0)))).
  2:{ intros row Hrow. rewrite Forall_forall in HF. specialize (HF row Hrow). rewrite !map_map.
      rewrite (map_ext _ (fun l => Fin (f l))) by auto. change (num XRA) with xr. rewrite (nth_indep _ _ (Fin (f 0))) by (rewrite map_length; lia).
      rewrite (map_nth (fun l => Fin (f l))). reflexivity. }
  rewrite <- (map_map (fun row => f (nth k row 0)) Fin). rewrite amean_fin; [reflexivity|]. destruct M; [congruence|discriminate].
Qed.
Lemma firstn_map_seq {X} (f : nat -> X) a n : (a <= n)%nat -> firstn a (map f (seq 0 n)) = map f (seq 0 a).
Proof. intros H. rewrite firstn_map. f_equal. replace n with (a + (n - a))%nat by lia. rewrite seq_app, firstn_app, seq_length, Nat.sub_diag. cbn [firstn]. rewrite app_nil_r. rewrite <- (seq_length a 0) at 1. apply firstn_all. Qed.
Lemma Rmean_map_plus {X} (f g : X -> R) l : Rmean (map (fun x => f x + g x) l) = Rmean (map f l) + Rmean (map g l).
Proof. unfold Rmean. rewrite Rsum_plus, !map_length. unfold Rdiv. ring. Qed.

(** in every simulated state *)
Lemma payoff_states : forall D y H g l,
  debt_payoff D y H l + equity_payoff D y H l = l /\
  debt_payoff D y H l <= D /\ debt_payoff D y H l <= after_payout y H l /\ (debt_payoff D y H l = D \/ debt_payoff D y H l = after_payout y H l) /\
  guarantee_payoff D y H g l = g * (D - debt_payoff D y H l) /\
  (defaulted D y H l = 1 <-> after_payout y H l <= D) /\ (defaulted D y H l = 0 <-> D < after_payout y H l) /\
  (0 <= y * H -> 0 <= l -> 0 <= equity_payoff D y H l).
Proof.
  intros D y H g l. unfold equity_payoff, guarantee_payoff, defaulted, debt_payoff.
  assert (Hm : Rmax (D - after_payout y H l) 0 = D - Rmin D (after_payout y H l)) by (unfold Rmax, Rmin; destruct (Rle_dec (D - after_payout y H l) 0), (Rle_dec D (after_payout y H l)); lra).
  repeat split.
  - lra.
  - apply Rmin_l.
  - apply Rmin_r.
  - unfold Rmin. destruct (Rle_dec D (after_payout y H l)); auto.
  - rewrite Hm. reflexivity.
  - destruct (Rle_dec (after_payout y H l) D); [auto|lra].
  - destruct (Rle_dec (after_payout y H l) D); [auto|lra].
  - destruct (Rle_dec (after_payout y H l) D); lra.
  - destruct (Rle_dec (after_payout y H l) D); lra.
  - intros Hy Hl. assert (HM := Rmin_r D (after_payout y H l)). assert (after_payout y H l <= l); [|lra]. unfold after_payout.
    assert (exp (- y * H) <= 1). { replace 1 with (exp 0) by apply exp_0. destruct (Req_dec (y * H) 0) as [E|E]; [right; f_equal; lra|left; apply exp_increasing; lra]. } nra.
Qed.
(** the outputs of the settlement code, for every finite matrix of simulated portfolio values (one row per path, 3 blocks of szfs columns) *)
Theorem C70_settlement : forall szfs r H D y g M, M <> [] -> Forall (fun row => length row = (3 * szfs)%nat) M ->
  let b := settle XRA szfs (Fin r) (Fin H) (Fin D) (Fin y) (Fin g) (map (map Fin) M) in
  let avg f k := Rmean (map f (column k M)) * exp (- r * H) in
  b_Lt XRA b = map (fun k => Fin (avg (fun l => l) k)) (seq 0 szfs) /\
  b_Bt XRA b = map (fun k => Fin (avg (debt_payoff D y H) k)) (seq 0 szfs) /\
  b_Et XRA b = map (fun k => Fin (avg (equity_payoff D y H) k)) (seq 0 szfs) /\
  b_Gt XRA b = map (fun k => Fin (avg (guarantee_payoff D y H g) k)) (seq 0 szfs) /\
  b_mdef XRA b = map (fun k => Fin (Rmean (map (defaulted D y H) (column k M)))) (seq 0 szfs) /\
  b_BH XRA b = map (fun row => map (fun l => Fin (debt_payoff D y H l)) (firstn szfs row)) M /\
  b_EH XRA b = map (fun row => map (fun l => Fin (equity_payoff D y H l)) (firstn szfs row)) M /\
  b_default XRA b = map (fun row => map (fun l => Fin (defaulted D y H l)) (firstn szfs row)) M /\
  (forall k, (k < szfs)%nat -> 0 < avg (equity_payoff D y H) (szfs + k)%nat -> 0 < avg (equity_payoff D y H) (2 * szfs + k)%nat ->
     nth k (b_sigEt XRA b) NaN = Fin (5 * (ln (avg (equity_payoff D y H) (szfs + k)%nat) - ln (avg (equity_payoff D y H) (2 * szfs + k)%nat)))).
Proof.
  intros szfs r H D y g M HM HF b avg.
  assert (A0 : forall fx f, (forall l, fx (Fin l) = Fin (f l)) ->
    map (fun m => nmul (a:=XRA) m (nexp (a:=XRA) (nmul (a:=XRA) (nopp (a:=XRA) (Fin r)) (Fin H)))) (mean_axis0 XRA (3 * szfs) (map (map fx) (map (map Fin) M))) = map (fun k => Fin (avg f k)) (seq 0 (3 * szfs))).
  { intros fx f Hf. rewrite (mean_axis0_fin (3 * szfs) f fx M Hf HM HF). rewrite map_map. reflexivity. }
  assert (A1 : map (fun m => nmul (a:=XRA) m (nexp (a:=XRA) (nmul (a:=XRA) (nopp (a:=XRA) (Fin r)) (Fin H)))) (mean_axis0 XRA (3 * szfs) (map (map Fin) M)) = map (fun k => Fin (avg (fun l => l) k)) (seq 0 (3 * szfs))).
  { rewrite <- (A0 (fun x => x)) by auto. do 2 f_equal. rewrite (map_ext _ (fun row : list xr => row)), map_id by (intros; apply map_id). reflexivity. }
  assert (A2 : forall (fx : xr -> xr) (f : R -> R), (forall l, fx (Fin l) = Fin (f l)) ->
     map (firstn szfs) (map (map fx) (map (map Fin) M)) = map (fun row => map (fun l => Fin (f l)) (firstn szfs row)) M).
  { intros fx f Hf. rewrite !map_map. apply map_ext. intros row. rewrite map_map, firstn_map. apply map_ext. auto. }
  unfold b, settle. cbn [b_Lt b_Bt b_Et b_Gt b_mdef b_BH b_EH b_default b_sigEt]. change (num XRA) with xr in *.
  rewrite A1, (A0 _ _ (bank_debt_fin D y H)), (A0 _ _ (bank_equity_fin D y H)), (A0 _ _ (guarantee_fin g D y H)).
  rewrite (mean_axis0_fin _ _ _ M (default_fin D y H) HM HF). rewrite (A2 _ _ (bank_debt_fin D y H)), (A2 _ _ (bank_equity_fin D y H)), (A2 _ _ (default_fin D y H)).
  rewrite !firstn_map_seq by lia. repeat split; try reflexivity.
  intros k Hk P1 P2. unfold numeric_vol. rewrite nth_map_seq by auto.
  set (G := fun k => Fin (avg (equity_payoff D y H) k)).
  assert (NG : forall q, (q < 3 * szfs)%nat -> nth q (map G (seq 0 (3 * szfs))) (ofZ (a:=XRA) 0) = G q).
  { intros q Hq. apply nth_map_seq. exact Hq. }
  change (num XRA) with xr in *. rewrite !NG by lia. unfold G. cbn [nlog XRA]. rewrite !xlog_fin by auto. reflexivity.
Qed.
(** the identities after averaging and discounting *)
Lemma averaged_identities : forall r H D y g M k, M <> [] ->
  let avg f := Rmean (map f (column k M)) * exp (- r * H) in
  let Lt := avg (fun l => l) in let Bt := avg (debt_payoff D y H) in let Et := avg (equity_payoff D y H) in
  let Gt := avg (guarantee_payoff D y H g) in let mdef := Rmean (map (defaulted D y H) (column k M)) in
  Lt = Bt + Et /\ Bt <= D * exp (- r * H) /\ Gt = g * (D * exp (- r * H) - Bt) /\ 0 <= mdef <= 1 /\
  (0 <= y * H -> Forall (fun row => 0 <= nth k row 0) M -> 0 <= Et) /\
  (mdef = 0 -> Bt = D * exp (- r * H)).
Proof.
  intros r H D y g M k HM avg Lt Bt Et Gt mdef. assert (HE := exp_pos (- r * H)). set (c := column k M) in *.
  assert (HC : c <> []) by (unfold c, column; destruct M; [congruence|discriminate]). assert (HI := INR_len_pos c HC).
  assert (HLc : forall f : R -> R, Rmean (map f c) = Rsum (map f c) / INR (length c)) by (intros; unfold Rmean; rewrite map_length; reflexivity).
  assert (HB : Rmean (map (debt_payoff D y H) c) <= D).
  { rewrite HLc. apply div_le_iff; [auto|]. rewrite Rmult_comm, <- Rsum_const. apply Rsum_le. intros x _. apply (payoff_states D y H g x). }
  repeat split.
  - unfold Lt, Bt, Et, avg. rewrite <- Rmult_plus_distr_r, <- Rmean_map_plus. do 2 f_equal. apply map_ext. intros l. symmetry. apply (payoff_states D y H g l).
  - unfold Bt, avg. apply Rmult_le_compat_r; lra.
  - unfold Gt, Bt, avg. rewrite (map_ext _ (fun l => g * (D - debt_payoff D y H l))) by (intros l; apply (payoff_states D y H g l)).
    rewrite !HLc. rewrite Rsum_mult_l, Rsum_minus, Rsum_const. field. lra.
  - unfold mdef. rewrite HLc. apply le_div_iff; [auto|]. rewrite Rmult_0_l. apply Rsum_nonneg. intros x Hx. apply in_map_iff in Hx as (l & <- & _). unfold defaulted. destruct (Rle_dec _ _); lra.
  - unfold mdef. rewrite HLc. apply div_le_iff; [auto|]. rewrite Rmult_comm, <- Rsum_const. apply Rsum_le. intros x _. unfold defaulted. destruct (Rle_dec _ _); lra.
  - intros Hy HP. unfold Et, avg. apply Rmult_le_pos; [|lra]. rewrite HLc. apply le_div_iff; [auto|]. rewrite Rmult_0_l. apply Rsum_nonneg. intros x Hx. apply in_map_iff in Hx as (l & <- & Hl).
    apply (payoff_states D y H g l); auto. unfold c, column in Hl. apply in_map_iff in Hl as (row & <- & Hr). rewrite Forall_forall in HP. auto.
  - intros HZ. unfold Bt, avg. f_equal. unfold mdef in HZ. rewrite HLc in *. assert (Z : Rsum (map (defaulted D y H) c) = 0).
    { apply (f_equal (fun z => z * INR (length c))) in HZ. replace (Rsum (map (defaulted D y H) c) / INR (length c) * INR (length c)) with (Rsum (map (defaulted D y H) c)) in HZ by (field; lra). lra. }
    assert (ZN : forall v, In v (map (defaulted D y H) c) -> 0 <= v) by (intros v Hv; apply in_map_iff in Hv as (l & <- & _); unfold defaulted; destruct (Rle_dec _ _); lra).
    assert (ZA := Rsum_zero_all _ ZN Z).
    rewrite (Rsum_map_ext _ (fun _ => D)); [rewrite Rsum_const; field; lra|]. intros l Hl. assert (HD : defaulted D y H l = 0) by (apply ZA, in_map; auto).
    apply (payoff_states D y H g l) in HD. unfold debt_payoff. apply Rmin_left. lra.
Qed.
(** the identities between the outputs: state by state they are numbers with L = B + E, B <= D e^(-rH), G = g (D e^(-rH) - B), a default frequency in [0,1],
    and B = D e^(-rH) when no path defaults *)
Theorem C70_identities : forall szfs r H D y g M k, M <> [] -> Forall (fun row => length row = (3 * szfs)%nat) M -> (k < szfs)%nat ->
  let b := settle XRA szfs (Fin r) (Fin H) (Fin D) (Fin y) (Fin g) (map (map Fin) M) in
  exists Lt Bt Et Gt mdef, nth k (b_Lt XRA b) NaN = Fin Lt /\ nth k (b_Bt XRA b) NaN = Fin Bt /\ nth k (b_Et XRA b) NaN = Fin Et /\ nth k (b_Gt XRA b) NaN = Fin Gt /\ nth k (b_mdef XRA b) NaN = Fin mdef /\
  Lt = Bt + Et /\ Bt <= D * exp (- r * H) /\ Gt = g * (D * exp (- r * H) - Bt) /\ 0 <= mdef <= 1 /\
  (0 <= y * H -> Forall (fun row => 0 <= nth k row 0) M -> 0 <= Et) /\ (mdef = 0 -> Bt = D * exp (- r * H)).
Proof.
  intros szfs r H D y g M k HM HF Hk b. destruct (C70_settlement szfs r H D y g M HM HF) as (E1 & E2 & E3 & E4 & E5 & _). fold b in E1, E2, E3, E4, E5. change (num XRA) with xr in *.
  rewrite E1, E2, E3, E4, E5, !nth_map_seq by auto. do 5 eexists. do 5 (split; [reflexivity|]). apply averaged_identities. exact HM.
Qed.
Lemma nth_firstn_in {X} (l : list X) n k d : (k < n)%nat -> nth k (firstn n l) d = nth k l d.
Proof. revert n k. induction l as [|x l IH]; intros [|n] [|k] H; try lia; cbn [firstn nth]; auto. apply IH. lia. Qed.
(** path by path: debt and equity add up to the portfolio, the debt holders get the smaller of the face value and what is left after the pay-out, and the flag says which *)
Theorem C70_states : forall szfs r H D y g M i k, M <> [] -> Forall (fun row => length row = (3 * szfs)%nat) M -> (i < length M)%nat -> (k < szfs)%nat ->
  let b := settle XRA szfs (Fin r) (Fin H) (Fin D) (Fin y) (Fin g) (map (map Fin) M) in let l := nth k (nth i M []) 0 in
  exists B E d, nth k (nth i (b_BH XRA b) []) NaN = Fin B /\ nth k (nth i (b_EH XRA b) []) NaN = Fin E /\ nth k (nth i (b_default XRA b) []) NaN = Fin d /\
    B + E = l /\ B = Rmin D (after_payout y H l) /\ (d = 1 <-> after_payout y H l <= D) /\ (d = 0 <-> D < after_payout y H l) /\ (0 <= y * H -> 0 <= l -> 0 <= E).
Proof.
  intros szfs r H D y g M i k HM HF Hi Hk b l. destruct (C70_settlement szfs r H D y g M HM HF) as (_ & _ & _ & _ & _ & E1 & E2 & E3 & _). fold b in E1, E2, E3. change (num XRA) with xr in *. rewrite E1, E2, E3.
  assert (LI : length (nth i M []) = (3 * szfs)%nat) by (rewrite Forall_forall in HF; apply HF, nth_In; auto).
  assert (G : forall f : R -> R, nth k (nth i (map (fun row => map (fun l => Fin (f l)) (firstn szfs row)) M) []) NaN = Fin (f l)).
  { intros f. rewrite (nth_indep _ [] ((fun row => map (fun l => Fin (f l)) (firstn szfs row)) [])) by (rewrite map_length; auto). rewrite (map_nth (fun row => map (fun l => Fin (f l)) (firstn szfs row))).
    rewrite (nth_indep _ NaN (Fin (f 0))) by (rewrite map_length, firstn_length, LI; lia). rewrite (map_nth (fun l => Fin (f l))). do 2 f_equal. apply nth_firstn_in. exact Hk. }
  rewrite !G. do 3 eexists. do 3 (split; [reflexivity|]). destruct (payoff_states D y H g l) as (P1 & _ & _ & _ & _ & P2 & P3 & P4). auto.
Qed.
