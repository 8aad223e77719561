(** * Property C99: the Python modified Merton model against the MATLAB programs it is translated from *)
From Coq Require Import Reals ZArith List Bool Arith Lia Permutation.
From Verif Require Import Arith XR RealAux Model_option Model_merton Model_matlab Props_modmerton.
Import ListNotations.

(** ** Indexing from 1 *)
Lemma idx1_ok {X} (l : list X) (i : Z) d : (1 <= i <= Z.of_nat (length l))%Z -> idx1 l i = Ok (nth (Z.to_nat (i - 1)) l d).
Proof.
  intros H. unfold idx1. destruct (Z.ltb_spec i 1); [lia|]. rewrite (nth_error_nth' l d) by lia. reflexivity.
Qed.
Lemma idx1_err {X} (l : list X) (i : Z) : ~ (1 <= i <= Z.of_nat (length l))%Z -> idx1 l i = Err RuntimeError.
Proof.
  intros H. unfold idx1. destruct (Z.ltb_spec i 1); [reflexivity|]. destruct (nth_error l _) eqn:E; [|reflexivity].
  assert (nth_error l (Z.to_nat (i - 1)) <> None) by congruence. apply nth_error_Some in H1. lia.
Qed.
Lemma idx1_only {X} (l : list X) (i : Z) e : idx1 l i = Err e -> e = RuntimeError.
Proof. unfold idx1. destruct (_ <? _)%Z; [intros H; injection H; auto|]. destruct (nth_error _ _); [discriminate|intros H; injection H; auto]. Qed.
Lemma mapM_good {X Y} (f : X -> res Y) (g : X -> Y) l : (forall x, In x l -> f x = Ok (g x)) -> mapM f l = Ok (map g l).
Proof.
  induction l as [|x l IH]; intros H; [reflexivity|]. cbn [mapM map]. rewrite H by (left; auto). cbn [bind]. rewrite IH by (intros; apply H; right; auto). reflexivity.
Qed.
Lemma mapM_bad {X Y} (f : X -> res Y) l x : In x l -> f x = Err RuntimeError -> (forall y e, In y l -> f y = Err e -> e = RuntimeError) -> mapM f l = Err RuntimeError.
Proof.
  induction l as [|y l IH]; intros Hin Hx Ho; [destruct Hin|]. cbn [mapM]. destruct (f y) as [v|e] eqn:Ey; cbn [bind].
  - destruct Hin as [->|Hin]; [congruence|]. rewrite IH; auto. intros z e Hz. apply Ho. right; auto.
  - f_equal. exact (Ho y e (or_introl eq_refl) Ey).
Qed.
Lemma mapM_only {X Y} (f : X -> res Y) l : (forall y e, In y l -> f y = Err e -> e = RuntimeError) -> forall e, mapM f l = Err e -> e = RuntimeError.
Proof.
  induction l as [|y l IH]; intros Ho e; cbn [mapM]; [discriminate|]. destruct (f y) as [v|e'] eqn:Ey; cbn [bind].
  - destruct (mapM f l) as [vs|e']; cbn [bind]; [discriminate|]. intros H. injection H as ->. apply (IH (fun z e0 Hz => Ho z e0 (or_intror Hz)) e eq_refl).
  - intros H. injection H as ->. exact (Ho y e (or_introl eq_refl) Ey).
Qed.
Lemma mapM_all {X Y} (f : X -> res Y) l : (forall x, In x l -> exists y, f x = Ok y) -> exists ys, mapM f l = Ok ys.
Proof.
  induction l as [|x l IH]; intros H; cbn [mapM]; [eauto|]. destruct (H x (or_introl eq_refl)) as (y & ->). cbn [bind].
  destruct IH as (ys & ->); [intros z Hz; apply H; right; exact Hz|]. cbn [bind]. eauto.
Qed.
Lemma mapM_map {X Y Z} (f : Y -> res Z) (g : X -> Y) l : mapM f (map g l) = mapM (fun x => f (g x)) l.
Proof. induction l as [|x l IH]; [reflexivity|]. cbn [map mapM]. rewrite IH. reflexivity. Qed.
Lemma mapM_same {X Y} (f g : X -> res Y) l : (forall x, In x l -> f x = g x) -> mapM f l = mapM g l.
Proof. induction l as [|x l IH]; intros H; [reflexivity|]. cbn [mapM]. rewrite H by (left; auto). rewrite IH by (intros; apply H; right; auto). reflexivity. Qed.
Lemma seq_1 n : seq 1 n = map S (seq 0 n).
Proof. symmetry. apply seq_shift. Qed.
Lemma nth_skip {X} (l : list X) h t d : nth t (skipn h l) d = nth (h + t) l d.
Proof. revert l. induction h as [|h IH]; intros l; [reflexivity|]. destruct l as [|y l]; [destruct t; reflexivity|]. cbn [plus nth skipn]. apply IH. Qed.
Lemma nth_first {X} (l : list X) m t d : (t < m)%nat -> nth t (firstn m l) d = nth t l d.
Proof. revert l t. induction m as [|m IH]; intros l t H; [lia|]. destruct l as [|y l]; [destruct t; reflexivity|]. destruct t as [|t]; [reflexivity|]. cbn [nth firstn]. apply IH. lia. Qed.
Lemma at_map_seq {X} (g : nat -> X) n j d : (j < n)%nat -> nth j (map g (seq 0 n)) d = g j.
Proof. intros H. rewrite (nth_indep _ d (g 0%nat)) by (rewrite map_length, seq_length; lia). rewrite map_nth, seq_nth by lia. reflexivity. Qed.
Lemma slice_map {X} (xk : list X) h m d : (h + m <= length xk)%nat -> map (fun t => nth (h + t) xk d) (seq 0 m) = firstn m (skipn h xk).
Proof.
  intros H. assert (L : length (firstn m (skipn h xk)) = m) by (rewrite firstn_length, skipn_length; lia).
  apply (nth_ext _ _ d d); [rewrite map_length, seq_length, L; reflexivity|]. intros t Ht. rewrite map_length, seq_length in Ht.
  rewrite (nth_indep _ d (nth (h + 0) xk d)) by (rewrite map_length, seq_length; lia). rewrite (map_nth (fun t => nth (h + t) xk d)), seq_nth by lia.
  rewrite nth_first, nth_skip by lia. reflexivity.
Qed.

Section Port.
Context (A : Arith).
Notation num := (num A).
Notation zero := (@ofZ A 0).
Local Open Scope num_scope.

(** the discrete transform keeps the length *)
Definition transform (spectral : list num -> list num -> list num) : Prop := forall x k, length k = length x -> length (spectral x k) = length x.

(** *** C99: loan pay-offs and the face-value equation are the same expressions *)
Theorem C99_loan_payoff F f ival rho sig T : m_loan_payoff A F f ival rho sig T = loan_payoff A F f ival rho sig T.
Proof. reflexivity. Qed.
Theorem C99_face_value mu F ival sig T r d : fst (fst (m_find_face_value A mu F ival sig T r d)) = find_face_value_indiv A mu F ival sig T r d.
Proof. reflexivity. Qed.

(** *** C99: smoothing.  [w] observations; MATLAB also accepts an odd number of values, Python also accepts h+1 >= n (by wrapping
    around), everything else is the same *)
Lemma m_fftsmooth_value spectral x wd h : transform spectral -> (wd <> 0)%nat -> (h + 2 <= length x)%nat ->
  let n := length x in
  let xk := spectral (repeat zero n ++ x) (repeat zero (n - h) ++ repeat (ofZ 1 ⊘ ofN A (2 * h)) (2 * h) ++ repeat zero (n - h)) in
  let at_ t := nth t xk zero in
  m_fftsmooth A spectral x (2 * h * wd) wd =
  Ok (map (fun t => at_ h ⊖ ofN A (h - t) ⊗ (at_ (h + 1)%nat ⊖ at_ h)) (seq 0 h) ++ firstn (n - h - h) (skipn h xk)
      ++ map (fun t => at_ (n - h - 1)%nat ⊕ ofN A (t + 1) ⊗ (at_ (n - h - 1)%nat ⊖ at_ (n - h - 2)%nat)) (seq 0 h)).
Proof.
  intros HS Hwd Hh n xk at_. unfold m_fftsmooth.
  replace (2 * h * wd)%nat with (h * (2 * wd))%nat by lia. rewrite Nat.mod_mul by lia. cbn [Nat.eqb check]. rewrite Nat.div_mul by lia.
  destruct (Z.leb_spec (Z.of_nat h) (Z.of_nat (length x))) as [_|C]; [cbn [check]|lia]. fold n. fold xk. cbv zeta.
  assert (LX : length xk = (2 * n)%nat).
  { unfold xk. rewrite HS; [rewrite app_length, repeat_length; fold n; lia|]. rewrite !app_length, !repeat_length. fold n. lia. }
  fold n in Hh.
  rewrite (idx1_ok xk (Z.of_nat h + 2) zero) by lia. cbn [bind]. rewrite (idx1_ok xk (Z.of_nat h + 1) zero) by lia. cbn [bind].
  rewrite (idx1_ok xk (Z.of_nat n - Z.of_nat h) zero) by lia. cbn [bind]. rewrite (idx1_ok xk (Z.of_nat n - Z.of_nat h - 1) zero) by lia. cbn [bind].
  replace (Z.to_nat (Z.of_nat h + 2 - 1)) with (h + 1)%nat by lia. replace (Z.to_nat (Z.of_nat h + 1 - 1)) with h by lia.
  replace (Z.to_nat (Z.of_nat n - Z.of_nat h - 1)) with (n - h - 1)%nat by lia. replace (Z.to_nat (Z.of_nat n - Z.of_nat h - 1 - 1)) with (n - h - 2)%nat by lia.
  rewrite (mapM_good _ (fun z => nth (Z.to_nat (z - 1)) xk zero)).
  2: { unfold colon. intros z Hz. apply in_map_iff in Hz. destruct Hz as (t & <- & Ht). apply in_seq in Ht. apply idx1_ok. lia. }
  cbn [bind]. unfold colon_down, colon. rewrite !map_map. f_equal. f_equal; [|f_equal].
  - replace (Z.to_nat (Z.of_nat h - 1 + 1)) with h by lia. apply map_ext_in. intros t Ht. apply in_seq in Ht. unfold at_, ofN. replace (Z.of_nat h - Z.of_nat t)%Z with (Z.of_nat (h - t)) by lia. reflexivity.
  - replace (Z.to_nat (Z.of_nat n - Z.of_nat h - (Z.of_nat h + 1) + 1)) with (n - h - h)%nat by lia.
    rewrite (map_ext_in _ (fun t => nth (h + t) xk zero)).
    2: { intros t Ht. f_equal. lia. }
    apply slice_map. rewrite LX. lia.
  - replace (Z.to_nat (Z.of_nat h - 1 + 1)) with h by lia. apply map_ext_in. intros t Ht. apply in_seq in Ht. unfold at_, ofN. replace (1 + Z.of_nat t)%Z with (Z.of_nat (t + 1)) by lia. reflexivity.
Qed.
Lemma fftsmooth_value spectral x h : transform spectral -> Nat.even (length x) = true -> (h + 2 <= length x)%nat ->
  let n := length x in
  let xk := spectral (repeat zero n ++ x) (repeat zero (n - h) ++ repeat (ofZ 1 ⊘ ofN A (2 * h)) (2 * h) ++ repeat zero (n - h)) in
  let at_ t := nth t xk zero in
  fftsmooth A spectral x (2 * h) =
  Ok (map (fun t => at_ h ⊖ ofN A (h - t) ⊗ (at_ (h + 1)%nat ⊖ at_ h)) (seq 0 h) ++ firstn (n - h - h) (skipn h xk)
      ++ map (fun t => at_ (n - h - 1)%nat ⊕ ofN A (t + 1) ⊗ (at_ (n - h - 1)%nat ⊖ at_ (n - h - 2)%nat)) (seq 0 h)).
Proof.
  intros HS He Hh n xk at_. unfold fftsmooth. rewrite He. cbn [check]. replace (Nat.even (2 * h)) with true by (symmetry; apply Nat.even_spec; exists h; reflexivity). cbn [check].
  rewrite (Nat.mul_comm 2 h), Nat.div_mul, (Nat.mul_comm h 2) by lia. destruct (Nat.leb_spec h (length x)); [cbn [check]|lia]. destruct (Nat.eqb_spec (length x) 0); [lia|]. cbn [negb check].
  fold n. fold xk.
  assert (LX : length xk = (2 * n)%nat).
  { unfold xk. rewrite HS; [rewrite app_length, repeat_length; fold n; lia|]. rewrite !app_length, !repeat_length. fold n. lia. }
  fold n in Hh, He.
  assert (PI : forall z, (0 <= z < Z.of_nat (length xk))%Z -> py_index xk z = Ok (at_ (Z.to_nat z))).
  { intros z Hz. unfold py_index. destruct (Z.ltb_spec z 0); [lia|]. destruct (Z.ltb_spec z 0); [lia|]. rewrite (nth_error_nth' xk zero) by lia. reflexivity. }
  rewrite !PI by lia. cbn [bind]. replace (Z.to_nat (Z.of_nat h + 1)) with (h + 1)%nat by lia. rewrite Nat2Z.id.
  replace (Z.to_nat (Z.of_nat n - Z.of_nat h - 1)) with (n - h - 1)%nat by lia. replace (Z.to_nat (Z.of_nat n - Z.of_nat h - 2)) with (n - h - 2)%nat by lia. reflexivity.
Qed.
Theorem C99_fftsmooth spectral x wd h : transform spectral -> (wd <> 0)%nat -> Nat.even (length x) = true -> (h + 2 <= length x)%nat ->
  m_fftsmooth A spectral x (2 * h * wd) wd = fftsmooth A spectral x (2 * h).
Proof. intros HS Hw He Hh. rewrite m_fftsmooth_value, fftsmooth_value by auto. reflexivity. Qed.
(** an odd number of values: MATLAB goes ahead, Python refuses *)
Theorem C99_odd_count spectral x wd h : transform spectral -> (wd <> 0)%nat -> Nat.odd (length x) = true -> (h + 2 <= length x)%nat ->
  (exists s, m_fftsmooth A spectral x (2 * h * wd) wd = Ok s /\ length s = Nat.max (length x) (2 * h)) /\ fftsmooth A spectral x (2 * h) = Err AssertionError.
Proof.
  intros HS Hw Ho Hh. split.
  - rewrite m_fftsmooth_value by auto. eexists. split; [reflexivity|]. rewrite !app_length, !map_length, !seq_length, firstn_length, skipn_length.
    rewrite HS; [|rewrite !app_length, !repeat_length; lia]. rewrite app_length, repeat_length. lia.
  - unfold fftsmooth. rewrite <- Nat.negb_odd, Ho. reflexivity.
Qed.
(** a window that is not an even whole number of observations is an error in MATLAB *)
Theorem C99_window spectral x wn wd : Nat.modulo wn (2 * wd) <> 0%nat -> m_fftsmooth A spectral x wn wd = Err RuntimeError.
Proof. intros H. unfold m_fftsmooth. destruct (Nat.eqb_spec (Nat.modulo wn (2 * wd)) 0); [contradiction|]. reflexivity. Qed.
(** a window (nearly) twice as wide as the data: an index below 1 in MATLAB, index -1 or -2 (the other end) in Python *)
Theorem C99_wide_window spectral x wd h : transform spectral -> (wd <> 0)%nat -> Nat.even (length x) = true -> (0 < length x)%nat -> (h = length x \/ h = length x - 1)%nat ->
  m_fftsmooth A spectral x (2 * h * wd) wd = Err RuntimeError /\ exists s, fftsmooth A spectral x (2 * h) = Ok s.
Proof.
  intros HS Hwd He H0 Hh. assert (H2 : (2 <= length x)%nat) by (destruct (length x) as [|[|n]]; [lia|discriminate|lia]).
  set (n := length x) in *. set (xk := spectral (repeat zero n ++ x) (repeat zero (n - h) ++ repeat (ofZ 1 ⊘ ofN A (2 * h)) (2 * h) ++ repeat zero (n - h))).
  assert (LX : length xk = (2 * n)%nat).
  { unfold xk. rewrite HS; [rewrite app_length, repeat_length; fold n; lia|]. rewrite !app_length, !repeat_length. fold n. lia. }
  split.
  - unfold m_fftsmooth. replace (2 * h * wd)%nat with (h * (2 * wd))%nat by lia. rewrite Nat.mod_mul by lia. cbn [Nat.eqb check]. rewrite Nat.div_mul by lia.
    fold n. destruct (Z.leb_spec (Z.of_nat h) (Z.of_nat n)) as [_|C]; [cbn [check]|lia]. fold xk. cbv zeta.
    destruct (idx1 xk (Z.of_nat h + 2)) as [a|e] eqn:E1; cbn [bind]; [|f_equal; exact (idx1_only _ _ _ E1)].
    destruct (idx1 xk (Z.of_nat h + 1)) as [b|e] eqn:E2; cbn [bind]; [|f_equal; exact (idx1_only _ _ _ E2)].
    destruct (idx1 xk (Z.of_nat n - Z.of_nat h)) as [c|e] eqn:E3; cbn [bind]; [|f_equal; exact (idx1_only _ _ _ E3)].
    rewrite idx1_err by lia. reflexivity.
  - unfold fftsmooth. fold n. rewrite He. cbn [check]. replace (Nat.even (2 * h)) with true by (symmetry; apply Nat.even_spec; exists h; reflexivity). cbn [check].
    rewrite (Nat.mul_comm 2 h), Nat.div_mul, (Nat.mul_comm h 2) by lia. destruct (Nat.leb_spec h n); [cbn [check]|lia]. destruct (Nat.eqb_spec n 0); [lia|]. cbn [negb check]. fold xk.
    assert (PI : forall z, (- 2 <= z < Z.of_nat (length xk))%Z -> exists v, py_index xk z = Ok v).
    { intros z Hz. unfold py_index. cbv zeta. set (p := if (z <? 0)%Z then (z + Z.of_nat (length xk))%Z else z).
      assert (Hp : (0 <= p < Z.of_nat (length xk))%Z) by (unfold p; destruct (Z.ltb_spec z 0); lia). destruct (Z.ltb_spec p 0); [lia|]. rewrite (nth_error_nth' xk zero) by lia. eauto. }
    destruct (PI (Z.of_nat h + 1)%Z ltac:(lia)) as (v1 & ->). destruct (PI (Z.of_nat h) ltac:(lia)) as (v2 & ->).
    destruct (PI (Z.of_nat n - Z.of_nat h - 1)%Z ltac:(lia)) as (v3 & ->). destruct (PI (Z.of_nat n - Z.of_nat h - 2)%Z ltac:(lia)) as (v4 & ->). cbn [bind]. eauto.
Qed.

(** *** C99: sorting, smoothing with a window of a twentieth of the scenarios, and undoing the permutation *)
Lemma scatter_any {X} (d : X) ind : forall vals acc t, NoDup ind -> (forall p, In p ind -> (p < length acc)%nat) -> length vals = length ind -> (t < length ind)%nat ->
  nth (nth t ind 0%nat) (fold_left (fun acc tp => set_nth acc (snd tp) (fst tp)) (combine vals ind) acc) d = nth t vals d.
Proof.
  assert (O : forall ind vals acc p, ~ In p ind -> nth p (fold_left (fun acc tp => set_nth acc (snd tp) (fst tp)) (combine vals ind) acc) d = nth p acc d).
  { clear. induction ind as [|q ind IH]; intros vals acc p Hp; destruct vals as [|v vals]; try reflexivity. cbn [combine fold_left fst snd]. rewrite IH.
    - apply set_nth_other. intros ->. apply Hp. left. reflexivity.
    - intros H. apply Hp. right. exact H. }
  induction ind as [|q ind IH]; intros vals acc t HN HB HL Ht; [cbn in Ht; lia|]. inversion HN as [|? ? H1 H2]; subst.
  destruct vals as [|v vals]; [discriminate|]. cbn [combine fold_left fst snd]. destruct t as [|t].
  - cbn [nth]. rewrite O by auto. rewrite set_nth_same; [reflexivity|]. apply HB. left. reflexivity.
  - cbn [nth]. apply IH; auto; [|cbn [length] in Ht; lia]. intros p Hp. rewrite set_nth_length. apply HB. right. exact Hp.
Qed.
Lemma scatter_length {X} pairs : forall acc : list X, length (fold_left (fun acc tp => set_nth acc (snd tp) (fst tp)) pairs acc) = length acc.
Proof. induction pairs as [|q l IH]; intros acc; [reflexivity|]. cbn [fold_left]. rewrite IH. apply set_nth_length. Qed.
Lemma fold_set1 {X} pairs : forall acc : list X,
  fold_left (fun acc tq => set1 acc (snd tq) (fst tq)) (map (fun vp => (fst vp, Z.of_nat (snd vp) + 1)%Z) pairs) acc =
  fold_left (fun acc tp => set_nth acc (snd tp) (fst tp)) pairs acc.
Proof.
  induction pairs as [|q l IH]; intros acc; [reflexivity|]. cbn [map fold_left fst snd]. rewrite IH. f_equal. unfold set1. f_equal. lia.
Qed.
Lemma combine_map_r {X Y Z} (g : Y -> Z) (l : list X) (l' : list Y) : combine l (map g l') = map (fun vp => (fst vp, g (snd vp))) (combine l l').
Proof. revert l'. induction l as [|x l IH]; intros [|y l']; try reflexivity. cbn [map combine fst snd]. f_equal. apply IH. Qed.
Lemma inverse_matlab n ind : Permutation ind (seq 0 n) ->
  fold_left (fun acc tq => set1 acc (snd tq) (fst tq)) (combine (colon 1 (Z.of_nat n)) (map (fun q => Z.of_nat q + 1)%Z ind)) (repeat 0%Z n)
  = map (fun p => Z.of_nat (nth p (inverse_index ind) 0%nat) + 1)%Z (seq 0 n).
Proof.
  intros HP. assert (HL := Permutation_length HP). rewrite seq_length in HL. rewrite combine_map_r. rewrite fold_set1.
  assert (LC : length (colon 1 (Z.of_nat n)) = n) by (unfold colon; rewrite map_length, seq_length; lia).
  apply (nth_ext _ _ 0%Z 0%Z); [rewrite scatter_length, repeat_length, map_length, seq_length; reflexivity|].
  intros p Hp. rewrite scatter_length, repeat_length in Hp. destruct (perm_position n ind p HP Hp) as (t & Ht & <-).
  rewrite scatter_any; [| | |lia|lia].
  - assert (Hq : (nth t ind 0 < n)%nat) by exact Hp. rewrite (at_map_seq _ n _ 0%Z Hq). rewrite (inverse_index_at n) by auto.
    unfold colon. replace (Z.to_nat (Z.of_nat n - 1 + 1)) with n by lia. rewrite (at_map_seq _ n t 0%Z Ht). lia.
  - apply (Permutation_NoDup (Permutation_sym HP)), seq_NoDup.
  - intros q Hq. apply (Permutation_in _ HP) in Hq. apply in_seq in Hq. rewrite repeat_length. lia.
Qed.
Theorem C99_sort_smooth spectral round9 keys vals : transform spectral -> length vals = length keys -> Nat.modulo (length keys) 40 = 0%nat -> (0 < length keys)%nat ->
  exists s, m_smooth A spectral (map round9 keys) vals = Ok s /\ length s = length keys /\
            smooth_by A round9 (fun l => fftsmooth A spectral l (Nat.div (length keys) 20)) keys vals = Ok s.
Proof.
  intros HS HV H40 H0. set (n := length keys) in *. set (h := Nat.div n 40).
  assert (Hn : n = (40 * h)%nat) by (unfold h; rewrite (Nat.div_mod n 40) at 1 by lia; lia). assert (Hh : (0 < h)%nat) by lia.
  unfold m_smooth, smooth_by. cbv zeta. rewrite map_length. fold n. set (ind := argsort A (map round9 keys)).
  assert (HP : Permutation ind (seq 0 n)) by (unfold ind, n; rewrite <- (map_length round9 keys); apply argsort_perm).
  assert (LI : length ind = n) by (rewrite (Permutation_length HP); apply seq_length).
  rewrite mapM_map. rewrite (mapM_good _ (fun q => nth q vals zero)).
  2: { intros q Hq. apply (Permutation_in _ HP) in Hq. apply in_seq in Hq. rewrite (idx1_ok vals _ zero) by lia. f_equal. f_equal. lia. }
  cbn [bind]. set (sorted := map (fun q => nth q vals zero) ind). assert (LS : length sorted = n) by (unfold sorted; rewrite map_length; exact LI).
  assert (EN : m_fftsmooth A spectral sorted n 20 = m_fftsmooth A spectral sorted (2 * h * 20) 20) by (f_equal; lia). rewrite EN. clear EN. replace (Nat.div n 20) with (2 * h)%nat by (rewrite Hn; replace (40 * h)%nat with (2 * h * 20)%nat by lia; rewrite Nat.div_mul by lia; reflexivity).
  assert (EV : Nat.even (length sorted) = true) by (rewrite LS, Hn; apply Nat.even_spec; exists (20 * h)%nat; lia).
  rewrite (C99_fftsmooth spectral sorted 20 h) by (auto; lia).
  destruct (fftsmooth A spectral sorted (2 * h)) as [LHs|e] eqn:EF; [|rewrite fftsmooth_value in EF by (auto; lia); discriminate]. cbn [bind].
  assert (LL : length LHs = n).
  { rewrite fftsmooth_value in EF by (auto; lia). injection EF as <-. rewrite !app_length, !map_length, !seq_length, firstn_length, skipn_length.
    rewrite HS; [|rewrite !app_length, !repeat_length; lia]. rewrite !app_length, !repeat_length. lia. }
  rewrite inverse_matlab by exact HP. rewrite mapM_map.
  rewrite (mapM_good _ (fun p => nth (nth p (inverse_index ind) 0%nat) LHs zero)).
  2: { intros p Hp. apply in_seq in Hp. destruct (perm_position n ind p HP ltac:(lia)) as (t & Ht & <-). rewrite (inverse_index_at n) by auto.
       rewrite (idx1_ok LHs _ zero) by lia. f_equal. f_equal. lia. }
  eexists. split; [reflexivity|]. split; [rewrite map_length, seq_length; reflexivity|reflexivity].
Qed.
(** the number of scenarios must be a multiple of 40 for the MATLAB program *)
Lemma m_fftsmooth_only spectral x wn wd e : m_fftsmooth A spectral x wn wd = Err e -> e = RuntimeError.
Proof.
  unfold m_fftsmooth, check. destruct (_ =? 0)%nat; [|intros H; injection H; auto]. destruct (_ <=? _)%Z; [|intros H; injection H; auto]. cbv zeta.
  repeat match goal with |- context [bind (idx1 ?l ?i) _] => let E := fresh in destruct (idx1 l i) eqn:E; cbn [bind]; [|intros HH; injection HH as ->; exact (idx1_only _ _ _ E)] end.
  match goal with |- bind ?m _ = _ -> _ => destruct m eqn:EM end; cbn [bind]; [discriminate|]. intros HQ. injection HQ as ->. revert EM. apply mapM_only. intros y e0 _. apply idx1_only.
Qed.
Lemma m_smooth_only spectral keys vals e : m_smooth A spectral keys vals = Err e -> e = RuntimeError.
Proof.
  unfold m_smooth. cbv zeta. destruct (mapM (idx1 vals) _) as [sl|e0] eqn:E1; cbn [bind].
  - destruct (m_fftsmooth A spectral sl _ 20) as [L|e0] eqn:E2; cbn [bind]; [apply mapM_only; intros y e1 _; apply idx1_only|].
    intros H. injection H as ->. exact (m_fftsmooth_only _ _ _ _ _ E2).
  - intros H. injection H as ->. revert E1. apply mapM_only. intros y e1 _. apply idx1_only.
Qed.
Theorem C99_scenarios spectral keys vals : Nat.modulo (length keys) 40 <> 0%nat -> m_smooth A spectral keys vals = Err RuntimeError.
Proof.
  intros H. destruct (m_smooth A spectral keys vals) as [s|e] eqn:E; [|f_equal; exact (m_smooth_only _ _ _ _ E)]. exfalso. revert E.
  unfold m_smooth. cbv zeta. destruct (mapM (idx1 vals) _) as [sl|e0] eqn:E1; cbn [bind]; [|discriminate]. rewrite C99_window by exact H. discriminate.
Qed.

(** ** The whole valuation *)
Lemma read_param_same column l : column = true \/ (length l <= 10)%nat ->
  match read_param A l with Ok p => m_read_param A column l = Ok p | Err _ => m_read_param A column l = Err RuntimeError end.
Proof.
  intros H. do 10 (destruct l as [|? l]; [reflexivity|]). unfold m_read_param, idx1. cbn [Z.ltb Z.compare Pos.compare Pos.compare_cont Z.sub Z.add Z.opp Z.pos_sub Pos.pred_double Z.to_nat Pos.to_nat Pos.iter_op nth_error Nat.add bind read_param].
  destruct l as [|g l].
  - rewrite andb_false_r. reflexivity.
  - destruct H as [->|H]; [|cbn in H; lia]. reflexivity.
Qed.
Lemma read_param_only column l e : m_read_param A column l = Err e -> e = RuntimeError.
Proof.
  unfold m_read_param.
  repeat match goal with |- context [bind (idx1 ?l ?i) _] => let E := fresh in destruct (idx1 l i) eqn:E; cbn [bind]; [|intros HH; injection HH as ->; exact (idx1_only _ _ _ E)] end.
  destruct (_ && _); cbn [bind]; [|discriminate]. destruct (idx1 l 11) eqn:E; cbn [bind]; [discriminate|]. intros HH; injection HH as ->. exact (idx1_only _ _ _ E).
Qed.
Lemma m_cumsum_from_same acc l : m_cumsum_from A acc l = cumsum_from A acc l.
Proof. reflexivity. Qed.
Lemma m_f_same p N row : m_f A p N row = factor_path A p N row.
Proof. reflexivity. Qed.
Lemma m_fw_same p N row : m_fw A p N row = removed_path A p N row.
Proof. reflexivity. Qed.
Lemma cumsum_len l : length (np_cumsum A l) = length l.
Proof. destruct l as [|x l]; [reflexivity|]. cbn [np_cumsum length]. f_equal. generalize x. induction l as [|y l IH]; intros a; [reflexivity|]. cbn [cumsum_from length]. f_equal. apply IH. Qed.
Lemma factor_len p N row : length (factor_path A p N row) = S (length row).
Proof. unfold factor_path. cbn [length]. rewrite cumsum_len, map_length. reflexivity. Qed.
Lemma removed_len p N row : length (removed_path A p N row) = S (length row).
Proof. unfold removed_path. cbn [length]. rewrite cumsum_len, map_length. reflexivity. Qed.
Lemma m_cohort_same p N HN row j : (0 <= HN < Z.of_nat N)%Z -> (3 * N - 1 <= length row)%nat -> (j < N)%nat ->
  m_cohort A p N HN row (Z.of_nat (S j)) = Ok (cohort_of A p N (Z.to_nat HN) row j).
Proof.
  intros HH Hr Hj. unfold m_cohort. rewrite m_f_same, m_fw_same. cbv zeta. assert (LF := factor_len p N row). assert (LW := removed_len p N row).
  rewrite (idx1_ok (factor_path A p N row) (Z.of_nat N + 1) zero) by lia. cbn [bind]. rewrite (idx1_ok (removed_path A p N row) (Z.of_nat N + 1) zero) by lia. cbn [bind].
  rewrite (idx1_ok (removed_path A p N row) (Z.of_nat (S j)) zero) by lia. cbn [bind]. rewrite (idx1_ok (factor_path A p N row) (Z.of_nat (S j)) zero) by lia. cbn [bind].
  rewrite (idx1_ok (factor_path A p N row) (Z.of_nat N + Z.of_nat (S j)) zero) by lia. cbn [bind]. rewrite (idx1_ok (factor_path A p N row) (2 * Z.of_nat N + Z.of_nat (S j)) zero) by lia. cbn [bind].
  rewrite (idx1_ok (factor_path A p N row) (Z.of_nat N + 1 + HN) zero) by lia. cbn [bind]. unfold cohort_of. cbv zeta.
  replace (Z.to_nat (Z.of_nat N + 1 - 1)) with N by lia. replace (Z.to_nat (Z.of_nat (S j) - 1)) with j by lia. replace (Z.to_nat (Z.of_nat N + Z.of_nat (S j) - 1)) with (N + j)%nat by lia.
  replace (Z.to_nat (2 * Z.of_nat N + Z.of_nat (S j) - 1)) with (2 * N + j)%nat by lia. replace (Z.to_nat (Z.of_nat N + 1 + HN - 1)) with (N + Z.to_nat HN)%nat by lia. reflexivity.
Qed.
Lemma m_cohort_only p N HN row j e : m_cohort A p N HN row j = Err e -> e = RuntimeError.
Proof.
  unfold m_cohort. cbv zeta.
  repeat match goal with |- context [bind (idx1 ?l ?i) _] => let E := fresh in destruct (idx1 l i) eqn:E; cbn [bind]; [|intros HH; injection HH as ->; exact (idx1_only _ _ _ E)] end. discriminate.
Qed.
Lemma m_shock_same p N fs j k : (k < 3 * length fs)%nat -> m_shock A p N (length fs) (fs ++ fs ++ fs) (Z.of_nat (S j)) (S k) = shock A p N (length fs) fs j k.
Proof.
  intros Hk. unfold m_shock, shock, atmat. replace (S k - 1)%nat with k by lia. replace (Z.of_nat N - (Z.of_nat (S j) - 1))%Z with (Z.of_nat N - Z.of_nat j)%Z by lia.
  cbv zeta. f_equal. f_equal. destruct (Nat.ltb_spec k (length fs)).
  - rewrite app_nth1 by (rewrite repeat_length; lia). apply nth_repeat.
  - rewrite app_nth2 by (rewrite repeat_length; lia). rewrite repeat_length. destruct (Nat.ltb_spec k (2 * length fs)).
    + rewrite app_nth1 by (rewrite repeat_length; lia). rewrite (nth_indep _ zero (ofZ 1)) by (rewrite repeat_length; lia). apply nth_repeat.
    + rewrite app_nth2 by (rewrite repeat_length; lia). rewrite repeat_length. rewrite (nth_indep _ zero (nopp (ofZ 1))) by (rewrite repeat_length; lia). apply nth_repeat.
Qed.
Lemma m_cell_same p N HN ival mu F aH sh c j : m_cell A p N HN ival mu F aH sh c (Z.of_nat (S j)) = cohort_cell A p N HN ival mu F aH sh c j.
Proof.
  unfold m_cell, cohort_cell, rolled, atmat. replace (Z.of_nat (S j) - 1)%Z with (Z.of_nat j) by lia. rewrite (Z.leb_antisym (Z.of_nat j) HN).
  destruct (Z.of_nat j <? HN)%Z; reflexivity.
Qed.
Lemma m_rows_same Nsim2 Nsim1 g g' : (forall i k, (i < Nsim2)%nat -> (k < Nsim1)%nat -> g (S i) (S k) = g' i k) ->
  m_rows A Nsim2 Nsim1 g = map (fun i => map (fun k => g' i k) (seq 0 Nsim1)) (seq 0 Nsim2).
Proof.
  intros H. unfold m_rows. rewrite (seq_1 Nsim2), map_map. apply map_ext_in. intros i Hi. apply in_seq in Hi. rewrite seq_1, map_map. apply map_ext_in. intros k Hk. apply in_seq in Hk. apply H; lia.
Qed.
Definition with_bank (m : merton_result A) (b : bank A) : merton_result A := mk_result A b (m_mFt A m) (m_face A m) (m_FH A m) (m_mu A m) (m_F A m).
(** [m] comes from loan values [LH] at the bank's debt maturity (one row per path, three columns per factor value) *)
Definition from_loan_values (p : param A) (szfs : nat) (LH : list (list num)) (m : merton_result A) : Prop :=
  m_bank A m = settle A szfs (p_r A p) (p_H A p) (p_D A p) (p_y A p) (p_g A p) LH.
Definition matlab_bank (p : param A) (szfs : nat) (LH : list (list num)) : bank A := m_settle A szfs (p_r A p) (p_H A p) (p_D A p) (p_y A p) (p_g A p) LH.

Lemma m_value_same spectral round9 solve p N HN fs aH cf : transform spectral -> (2 <= length cf)%nat -> Nat.modulo (length cf * (3 * length fs)) 40 = 0%nat -> fs <> [] ->
  exists m LH, value_bank A spectral round9 solve p N HN fs aH cf = Ok m /\ from_loan_values p (length fs) LH m /\
    (length LH = length cf /\ forall row, In row LH -> length row = 3 * length fs)%nat /\
    m_value A spectral round9 solve p N (length cf) HN fs aH cf = Ok (with_bank m (matlab_bank p (length fs) LH)).
Proof.
  intros HS H2 H40 Hfs. assert (Hf : (0 < length fs)%nat) by (destruct fs; [contradiction|cbn; lia]).
  unfold value_bank, m_value. cbv zeta. replace (length (fs ++ fs ++ fs)) with (3 * length fs)%nat by (rewrite !app_length; lia).
  set (Nsim2 := length cf) in *. set (Nsim1 := (3 * length fs)%nat) in *. set (n := (Nsim2 * Nsim1)%nat) in *.
  set (ival := nlog (p_bookF A p) ⊖ nlog (p_ltv A p)).
  set (mu := solve (fun mu => find_face_value_indiv A mu (p_bookF A p ⊗ nexp (mu ⊗ p_T A p)) ival (p_sig A p) (p_T A p) (p_r A p) (p_d A p)) (p_r A p ⊕ lit 1 100)).
  change (solve (fun mu => fst (fst (m_find_face_value A mu (p_bookF A p ⊗ nexp (mu ⊗ p_T A p)) ival (p_sig A p) (p_T A p) (p_r A p) (p_d A p)))) (p_r A p ⊕ lit 1 100)) with mu.
  set (F := p_bookF A p ⊗ nexp (mu ⊗ p_T A p)).
  set (cellof := fun i j k => cohort_cell A p N HN ival mu F (nth j aH zero) (shock A p N (length fs) fs j k) (nth j (nth i cf []) (mk_cf A zero zero zero zero zero)) j).
  set (at_ := fun i j k => m_cell A p N HN ival mu F (nth (j - 1) aH zero) (m_shock A p N (length fs) (fs ++ fs ++ fs) (Z.of_nat j) k)
                     (nth (j - 1) (nth (i - 1) cf []) (mk_cf A zero zero zero zero zero)) (Z.of_nat j)).
  assert (CE : forall i j k, (k < Nsim1)%nat -> at_ (S i) (S j) (S k) = cellof i j k).
  { intros i j k Hk. unfold at_, cellof. rewrite m_cell_same, m_shock_same by exact Hk. replace (S j - 1)%nat with j by lia. replace (S i - 1)%nat with i by lia. reflexivity. }
  assert (N0 : (0 < n)%nat) by (unfold n, Nsim1; nia).
  set (column := fun j => map (fun q => cellof (Nat.modulo q Nsim2) j (Nat.div q Nsim2)) (seq 0 n)).
  assert (CC : forall j, map (fun q => at_ (Nat.modulo (q - 1) Nsim2 + 1)%nat (S j) (Nat.div (q - 1) Nsim2 + 1)%nat) (seq 1 n) = column j).
  { intros j. rewrite seq_1, map_map. apply map_ext_in. intros q Hq. apply in_seq in Hq. replace (S q - 1)%nat with q by lia. rewrite !Nat.add_1_r. apply CE.
    apply Nat.div_lt_upper_bound; [lia|]. unfold n in Hq. lia. }
  assert (LC : forall j, length (column j) = n) by (intros j; unfold column; rewrite map_length, seq_length; reflexivity).
  set (f := fun j => do s <- smooth_by A round9 (fun l => fftsmooth A spectral l (Nat.div n 20)) (map (x_FHr A) (column j)) (map (x_Lr A) (column j)); Ok (map2 (fun v c => v ⊗ x_sc A c) s (column j))).
  assert (EX : forall j, exists s, m_smooth A spectral (map (fun c => round9 (x_FHr A c)) (column j)) (map (x_Lr A) (column j)) = Ok s /\
                                   smooth_by A round9 (fun l => fftsmooth A spectral l (Nat.div n 20)) (map (x_FHr A) (column j)) (map (x_Lr A) (column j)) = Ok s).
  { intros j. destruct (C99_sort_smooth spectral round9 (map (x_FHr A) (column j)) (map (x_Lr A) (column j)) HS) as (s & E1 & _ & E2);
      rewrite ?map_length, ?LC; auto. rewrite map_length, LC in E2. rewrite map_map in E1. exists s. auto. }
  assert (EM : mapM (fun j => do s <- m_smooth A spectral (map (fun c => round9 (x_FHr A c)) (map (fun q => at_ (Nat.modulo (q - 1) Nsim2 + 1)%nat j (Nat.div (q - 1) Nsim2 + 1)%nat) (seq 1 n)))
                                   (map (x_Lr A) (map (fun q => at_ (Nat.modulo (q - 1) Nsim2 + 1)%nat j (Nat.div (q - 1) Nsim2 + 1)%nat) (seq 1 n)));
                              Ok (map2 (fun v c => v ⊗ x_sc A c) s (map (fun q => at_ (Nat.modulo (q - 1) Nsim2 + 1)%nat j (Nat.div (q - 1) Nsim2 + 1)%nat) (seq 1 n)))) (seq 1 N) = mapM f (seq 0 N)).
  { rewrite (seq_1 N), mapM_map. apply mapM_same. intros j _. rewrite CC. unfold f. destruct (EX j) as (s & -> & ->). reflexivity. }
  match type of EM with ?a = _ => match goal with |- context [mapM ?g (seq 1 N)] => change (mapM g (seq 1 N)) with a end end.
  match goal with |- context [mapM ?g (seq 0 N)] => change (mapM g (seq 0 N)) with (mapM f (seq 0 N)) end.
  rewrite EM. destruct (mapM f (seq 0 N)) as [LHc|e] eqn:EF.
  2: { exfalso. clear EM. revert EF. generalize (seq 0 N). intros l. revert e. induction l as [|j l IH]; intros e; cbn [mapM]; [discriminate|]. unfold f at 1. destruct (EX j) as (s & _ & ->). cbn [bind].
       destruct (mapM f l) as [v|e']; cbn [bind]; [discriminate|]. intros _. exact (IH e' eq_refl). }
  cbn [bind]. destruct (Nat.leb_spec 2 Nsim2); [cbn [check]|lia].
  eexists. eexists. split; [reflexivity|]. split; [reflexivity|].
  split; [split; [rewrite map_length, seq_length; reflexivity|intros row Hrow; apply in_map_iff in Hrow; destruct Hrow as (i & <- & _); rewrite map_length, seq_length; reflexivity]|].
  unfold with_bank, matlab_bank. cbn [m_mFt m_face m_FH m_mu m_F]. f_equal.
  assert (MC : forall (g : nat -> num) g', (forall j, g (S j) = g' j) -> amean A (map g (seq 1 N)) = amean A (map g' (seq 0 N))).
  { intros g g' Hg. f_equal. rewrite seq_1, map_map. apply map_ext. exact Hg. }
  f_equal.
  - f_equal. apply m_rows_same. intros i k Hi Hk. apply MC. intros j. replace (Z.of_nat (S j) - 1)%Z with (Z.of_nat j) by lia. unfold rolled. rewrite (Z.leb_antisym (Z.of_nat j) HN).
    replace (S i + (S k - 1) * Nsim2 - 1)%nat with (i + Nsim2 * k)%nat by (rewrite (Nat.mul_comm Nsim2); lia). replace (S j - 1)%nat with j by lia. destruct (Z.of_nat j <? HN)%Z; reflexivity.
  - f_equal. f_equal. apply m_rows_same. intros i k Hi Hk. apply MC. intros j. exact (f_equal (x_Ft A) (CE i j k Hk)).
  - f_equal. apply m_rows_same. intros i k Hi Hk. apply MC. intros j. exact (f_equal (x_face A) (CE i j k Hk)).
  - f_equal. apply m_rows_same. intros i k Hi Hk. apply MC. intros j. exact (f_equal (x_FHr A) (CE i j k Hk)).
Qed.

Lemma aH_same N HN : (-1 <= HN < Z.of_nat N)%Z ->
  aHmat A N HN = Ok (map (fun z => ofZ z ⊘ ofN A N) (colon_down HN 0 ++ colon_down (Z.of_nat N - 1) (HN + 1))) /\
  length (colon_down HN 0 ++ colon_down (Z.of_nat N - 1) (HN + 1)) = N.
Proof.
  intros H. assert (E : arange_down HN (-1) ++ arange_down (Z.of_nat N - 1) HN = colon_down HN 0 ++ colon_down (Z.of_nat N - 1) (HN + 1)).
  { unfold arange_down, colon_down. replace (HN - -1)%Z with (HN - 0 + 1)%Z by lia. replace (Z.of_nat N - 1 - HN)%Z with (Z.of_nat N - 1 - (HN + 1) + 1)%Z by lia. reflexivity. }
  assert (L : length (colon_down HN 0 ++ colon_down (Z.of_nat N - 1) (HN + 1)) = N) by (unfold colon_down; rewrite app_length, !map_length, !seq_length; lia).
  split; [|exact L]. unfold aHmat. rewrite E. cbv zeta. rewrite map_length, L, Nat.eqb_refl. reflexivity.
Qed.
Lemma aH_wrong N HN : ~ (-1 <= HN < Z.of_nat N)%Z -> aHmat A N HN = Err ValueError /\ length (colon_down HN 0 ++ colon_down (Z.of_nat N - 1) (HN + 1)) <> N.
Proof.
  intros H. unfold aHmat, arange_down, colon_down. cbv zeta. split; [|rewrite app_length, !map_length, !seq_length; lia].
  match goal with |- check (Nat.eqb ?a ?b) _ _ = _ => destruct (Nat.eqb_spec a b) as [E|E] end; [|reflexivity].
  exfalso. rewrite map_length, app_length, !map_length, !seq_length in E. lia.
Qed.
Lemma m_value_only spectral round9 solve p N Nsim2 HN fs aH cf e : m_value A spectral round9 solve p N Nsim2 HN fs aH cf = Err e -> e = RuntimeError.
Proof.
  unfold m_value. cbv zeta. match goal with |- bind ?m _ = _ -> _ => destruct m as [L|e0] eqn:E end; cbn [bind].
  - unfold check. destruct (_ <=? _)%nat; [discriminate|intros H; injection H; auto].
  - intros H. injection H as ->. revert E. apply mapM_only. intros j e0 _ HH.
    match type of HH with bind ?m _ = _ => destruct m as [s|e1] eqn:E1 end; cbn [bind] in HH; [discriminate|]. injection HH as ->. exact (m_smooth_only _ _ _ _ E1).
Qed.
Lemma m_computation_only spectral round9 as_int solve fs column params N Nsim2 w e : m_mod_merton_computation A spectral round9 as_int solve fs column params N Nsim2 w = Err e -> e = RuntimeError.
Proof.
  unfold m_mod_merton_computation. destruct (m_read_param A column params) as [p|e0] eqn:Ep; cbn [bind]; [|intros H; injection H as ->; exact (read_param_only _ _ _ Ep)].
  destruct (as_int _) as [HN|]; [|intros H; injection H; auto]. cbv zeta. unfold check. destruct (_ =? N)%nat; [|intros H; injection H; auto]. destruct (_ =? Nsim2)%nat; [|intros H; injection H; auto].
  destruct (mapM _ w) as [cf|e0] eqn:Ec; cbn [bind]; [apply m_value_only|]. intros H. injection H as ->. revert Ec. apply mapM_only. intros row e0 _. apply mapM_only. intros j e1 _. apply m_cohort_only.
Qed.
Definition horizon_is (as_int : num -> option Z) (N : nat) (p : param A) (HN : Z) : Prop := as_int (p_H A p ⊗ (ofN A N ⊘ p_T A p)) = Some HN.

(** *** C99: on the same shocks the Python valuation and the MATLAB valuation come from the same loan values, or both fail *)
Theorem C99_computation spectral round9 as_int solve fs column params N w : transform spectral -> column = true \/ (length params <= 10)%nat ->
  (2 <= N)%nat -> (2 <= length w)%nat -> (forall row, In row w -> 3 * N - 1 <= length row)%nat -> Nat.modulo (length w * (3 * length fs)) 40 = 0%nat ->
  (forall p, read_param A params = Ok p -> neqb (p_T A p) zero = true -> forall HN, ~ horizon_is as_int N p HN) ->   (* no integer after a division by zero *)
  (forall p HN, read_param A params = Ok p -> horizon_is as_int N p HN -> (0 <= HN)%Z) ->
  match mod_merton_computation A spectral round9 as_int solve fs params N w with
  | Ok m => exists p LH, read_param A params = Ok p /\ from_loan_values p (length fs) LH m /\
      m_mod_merton_computation A spectral round9 as_int solve fs column params N (length w) w = Ok (with_bank m (matlab_bank p (length fs) LH))
  | Err _ => m_mod_merton_computation A spectral round9 as_int solve fs column params N (length w) w = Err RuntimeError
  end.
Proof.
  intros HS Hcol HN2 Hw2 Hrows H40 Hz Hpos. unfold mod_merton_computation, m_mod_merton_computation. assert (HP := read_param_same column params Hcol).
  destruct (read_param A params) as [p|e] eqn:Ep; rewrite HP; cbn [bind]; [|reflexivity]. unfold horizon. specialize (Hz p eq_refl). unfold horizon_is in *.
  destruct (p_T A p =? zero) eqn:ET.
  - cbn [bind]. destruct (as_int _) as [HN|] eqn:EH; [destruct (Hz eq_refl HN eq_refl)|reflexivity].
  - clear Hz. destruct (as_int _) as [HN|] eqn:EH; [|reflexivity]. cbn [bind]. assert (H0 := Hpos p HN eq_refl EH). cbv zeta.
    destruct (Z_lt_dec HN (Z.of_nat N)) as [HL|HL].
    + destruct (aH_same N HN ltac:(lia)) as [EA LA]. rewrite EA. cbn [bind]. rewrite map_length, LA, !Nat.eqb_refl. cbn [check].
      rewrite (mapM_good _ (fun wrow => map (cohort_of A p N (Z.to_nat HN) wrow) (seq 0 N))).
      2: { intros row Hrow. unfold colon. rewrite mapM_map. replace (Z.to_nat (Z.of_nat N - 1 + 1)) with N by lia. apply mapM_good. intros j Hj. apply in_seq in Hj.
           replace (1 + Z.of_nat j)%Z with (Z.of_nat (S j)) by lia. apply m_cohort_same; [lia|apply Hrows; exact Hrow|lia]. }
      cbn [bind]. set (cf := map _ w). assert (LC : length cf = length w) by (unfold cf; apply map_length). rewrite <- LC.
      destruct fs as [|f0 fs].
      * unfold value_bank, m_value. cbv zeta. replace (length cf * (3 * length []))%nat with 0%nat by (cbn; lia). replace (length cf * length (@nil num ++ [] ++ []))%nat with 0%nat by (cbn; lia).
        destruct N as [|N]; [lia|]. cbn [seq mapM map]. unfold smooth_by at 1. cbn [map argsort length seq fold_right fftsmooth Nat.even Nat.div Nat.divmod fst Nat.sub Nat.leb check Nat.eqb negb bind].
        unfold m_smooth at 1. cbn [map argsort length seq fold_right mapM bind]. 
        destruct (m_fftsmooth A spectral [] 0 20) as [s|e] eqn:E0; [|rewrite (m_fftsmooth_only _ _ _ _ _ E0); reflexivity]. exfalso. revert E0. unfold m_fftsmooth. cbn [length Nat.modulo Nat.mul Nat.add Nat.divmod fst snd Nat.sub Nat.eqb check Z.of_nat Nat.div Z.leb Z.compare repeat app].
        set (xk := spectral _ _). assert (LX : length xk = 0%nat) by (unfold xk; apply HS; reflexivity). rewrite idx1_err by (rewrite LX; cbn; lia). discriminate.
      * destruct (m_value_same spectral round9 solve p N HN (f0 :: fs) (map (fun z => ofZ z ⊘ ofN A N) (colon_down HN 0 ++ colon_down (Z.of_nat N - 1) (HN + 1))) cf HS) as (m & LH & E1 & E2 & _ & E3);
          [lia|rewrite LC; exact H40|discriminate|]. rewrite E1. exists p, LH. auto.
    + destruct (aH_wrong N HN ltac:(lia)) as [EA LA]. rewrite EA. cbn [bind]. rewrite map_length. destruct (Nat.eqb_spec (length (colon_down HN 0 ++ colon_down (Z.of_nat N - 1) (HN + 1))) N); [contradiction|]. reflexivity.
Qed.
(** when no loan value is NaN the two banks are the same *)
Theorem C99_no_nan p szfs LH : isnan zero = false -> isnan (p_D A p) = false ->
  (forall row l, In row LH -> In l row -> isnan (payout_value A (p_y A p) (p_H A p) l) = false /\ isnan (p_D A p ⊖ payout_value A (p_y A p) (p_H A p) l) = false) ->
  matlab_bank p szfs LH = settle A szfs (p_r A p) (p_H A p) (p_D A p) (p_y A p) (p_g A p) LH.
Proof.
  intros H0 HD HL. unfold matlab_bank, m_settle, settle. cbv zeta.
  assert (MM : forall f g : num -> num, (forall row l, In row LH -> In l row -> f l = g l) -> map (map f) LH = map (map g) LH).
  { intros f g H. apply map_ext_in. intros row Hr. apply map_ext_in. intros l Hl. exact (H row l Hr Hl). }
  assert (Hd : forall row l, In row LH -> In l row -> m_min A (p_D A p) (l ⊗ nexp (nopp (p_y A p) ⊗ p_H A p)) = bank_debt A (p_D A p) (p_y A p) (p_H A p) l).
  { intros row l Hr Hl. destruct (HL row l Hr Hl) as [H1 _]. unfold m_min, bank_debt, np_minimum, payout_value in *. rewrite HD, H1. reflexivity. }
  rewrite (MM (fun l => m_min A (p_D A p) (l ⊗ nexp (nopp (p_y A p) ⊗ p_H A p))) (bank_debt A (p_D A p) (p_y A p) (p_H A p))) by exact Hd.
  rewrite (MM (fun l => l ⊖ m_min A (p_D A p) (l ⊗ nexp (nopp (p_y A p) ⊗ p_H A p))) (bank_equity A (p_D A p) (p_y A p) (p_H A p))) by (intros row l Hr Hl; rewrite (Hd row l Hr Hl); reflexivity).
  rewrite (MM (fun l => p_g A p ⊗ m_max A (p_D A p ⊖ l ⊗ nexp (nopp (p_y A p) ⊗ p_H A p)) zero) (guarantee A (p_g A p) (p_D A p) (p_y A p) (p_H A p))).
  2: { intros row l Hr Hl. destruct (HL row l Hr Hl) as [_ H2]. unfold guarantee, m_max, np_maximum, payout_value in *. rewrite H2, H0. reflexivity. }
  rewrite (MM (fun l => if zero <? (l ⊗ nexp (nopp (p_y A p) ⊗ p_H A p) ⊖ m_min A (p_D A p) (l ⊗ nexp (nopp (p_y A p) ⊗ p_H A p))) then zero else ofZ 1) (default_flag A (p_D A p) (p_y A p) (p_H A p))) by (intros row l Hr Hl; rewrite (Hd row l Hr Hl); reflexivity).
  reflexivity.
Qed.
(** *** C99: exactly which inputs the MATLAB program accepts *)
Lemma m_cohort_ok p N HN row j : (-1 <= HN < Z.of_nat N)%Z -> (3 * N - 1 <= length row)%nat -> (j < N)%nat -> exists c, m_cohort A p N HN row (Z.of_nat (S j)) = Ok c.
Proof.
  intros HH Hr Hj. unfold m_cohort. rewrite m_f_same, m_fw_same. cbv zeta. assert (LF := factor_len p N row). assert (LW := removed_len p N row).
  rewrite (idx1_ok (factor_path A p N row) (Z.of_nat N + 1) zero) by lia. cbn [bind]. rewrite (idx1_ok (removed_path A p N row) (Z.of_nat N + 1) zero) by lia. cbn [bind].
  rewrite (idx1_ok (removed_path A p N row) (Z.of_nat (S j)) zero) by lia. cbn [bind]. rewrite (idx1_ok (factor_path A p N row) (Z.of_nat (S j)) zero) by lia. cbn [bind].
  rewrite (idx1_ok (factor_path A p N row) (Z.of_nat N + Z.of_nat (S j)) zero) by lia. cbn [bind]. rewrite (idx1_ok (factor_path A p N row) (2 * Z.of_nat N + Z.of_nat (S j)) zero) by lia. cbn [bind].
  rewrite (idx1_ok (factor_path A p N row) (Z.of_nat N + 1 + HN) zero) by lia. cbn [bind]. eauto.
Qed.
Lemma mapM_ok_each {X Y} (f : X -> res Y) l ys : mapM f l = Ok ys -> length ys = length l /\ forall x, In x l -> exists y, f x = Ok y.
Proof.
  revert ys. induction l as [|x l IH]; intros ys; cbn [mapM]; [intros H; injection H as <-; split; [reflexivity|intros x []]|].
  destruct (f x) as [y|e] eqn:E; cbn [bind]; [|discriminate]. destruct (mapM f l) as [zs|e]; cbn [bind]; [|discriminate]. intros H. injection H as <-.
  destruct (IH zs eq_refl) as [L I]. split; [cbn [length]; f_equal; exact L|]. intros z [<-|Hz]; eauto.
Qed.
Lemma m_params_length column l p : m_read_param A column l = Ok p -> (10 <= length l)%nat.
Proof.
  intros H. destruct (le_lt_dec 10 (length l)) as [L|L]; [exact L|exfalso]. revert H. unfold m_read_param.
  repeat (match goal with |- context [bind (idx1 ?l ?i) _] => let E := fresh in destruct (idx1 l i) eqn:E; cbn [bind]; [|discriminate] end).
  assert (K : forall i v, idx1 l i = Ok v -> (i <= Z.of_nat (length l))%Z).
  { intros i v Hv. destruct (Z_le_dec i (Z.of_nat (length l))) as [|C]; [assumption|]. rewrite idx1_err in Hv by lia. discriminate. }
  match goal with E : idx1 l 10 = Ok _ |- _ => apply K in E; lia end.
Qed.
Theorem C99_matlab_accepts spectral round9 as_int solve fs column params N Nsim2 w : transform spectral -> (2 <= N)%nat ->
  (exists m, m_mod_merton_computation A spectral round9 as_int solve fs column params N Nsim2 w = Ok m) <->
  length w = Nsim2 /\ (2 <= Nsim2)%nat /\ fs <> [] /\ Nat.modulo (Nsim2 * (3 * length fs)) 40 = 0%nat /\
  (forall row, In row w -> 3 * N - 1 <= length row)%nat /\
  exists p HN, m_read_param A column params = Ok p /\ horizon_is as_int N p HN /\ (-1 <= HN < Z.of_nat N)%Z.
Proof.
  intros HS HN2. unfold m_mod_merton_computation, horizon_is. split.
  - intros [m H]. destruct (m_read_param A column params) as [p|e] eqn:Ep; cbn [bind] in H; [|discriminate]. destruct (as_int _) as [HN|] eqn:EH; [|discriminate]. cbv zeta in H.
    rewrite map_length in H. destruct (Nat.eqb_spec (length (colon_down HN 0 ++ colon_down (Z.of_nat N - 1) (HN + 1))) N) as [LA|]; [cbn [check] in H|discriminate].
    destruct (Nat.eqb_spec (length w) Nsim2) as [LW|]; [cbn [check] in H|discriminate].
    assert (HH : (-1 <= HN < Z.of_nat N)%Z) by (destruct (Z_lt_dec HN (-1)); [destruct (aH_wrong N HN ltac:(lia)); contradiction|]; destruct (Z_lt_dec HN (Z.of_nat N)); [lia|destruct (aH_wrong N HN ltac:(lia)); contradiction]).
    destruct (mapM _ w) as [cf|e] eqn:Ec; cbn [bind] in H; [|discriminate]. destruct (mapM_ok_each _ _ _ Ec) as [LC IC].
    unfold m_value in H. cbv zeta in H. match type of H with bind ?m _ = _ => destruct m as [L|e0] eqn:EL end; cbn [bind] in H; [|discriminate].
    destruct (Nat.leb_spec 2 Nsim2) as [H2|]; [|discriminate].
    destruct (mapM_ok_each _ _ _ EL) as [_ IL]. destruct (IL 1%nat ltac:(apply in_seq; lia)) as (y & Hy). clear IL EL H.
    match type of Hy with bind (m_smooth A spectral ?ks ?vs) _ = _ => destruct (m_smooth A spectral ks vs) as [sm|e0] eqn:ES end; cbn [bind] in Hy; [|discriminate]. clear Hy.
    assert (Hn : (Nsim2 * length (fs ++ fs ++ fs))%nat = (Nsim2 * (3 * length fs))%nat) by (rewrite !app_length; lia).
    split; [exact LW|]. split; [exact H2|]. split; [|split; [|split; [|exists p, HN; auto]]].
    + intros ->. revert ES. replace (Nsim2 * length ([] ++ [] ++ @nil num))%nat with 0%nat by (cbn; lia). cbn [seq map]. unfold m_smooth. cbn [map argsort length seq fold_right mapM bind]. 
      destruct (m_fftsmooth A spectral [] 0 20) as [s|e0] eqn:E0; cbn [bind]; [|discriminate]. intros _. revert E0. unfold m_fftsmooth. cbn [length Nat.modulo Nat.mul Nat.add Nat.divmod fst snd Nat.sub Nat.eqb check Z.of_nat Nat.div Z.leb Z.compare repeat app].
      set (xk := spectral _ _). assert (LX : length xk = 0%nat) by (unfold xk; apply HS; reflexivity). rewrite idx1_err by (rewrite LX; cbn; lia). discriminate.
    + destruct (Nat.eq_dec (Nat.modulo (Nsim2 * (3 * length fs)) 40) 0) as [E|E]; [exact E|exfalso]. rewrite C99_scenarios in ES; [discriminate|]. rewrite !map_length, seq_length, Hn. exact E.
    + intros row Hrow. destruct (IC row Hrow) as (cs & Hcs). destruct (mapM_ok_each _ _ _ Hcs) as [_ IJ].
      destruct (IJ (Z.of_nat N)) as (c & Hc). { unfold colon. apply in_map_iff. exists (N - 1)%nat. split; [lia|]. apply in_seq. lia. }
      destruct (le_lt_dec (3 * N - 1) (length row)) as [L3|L3]; [exact L3|exfalso]. revert Hc. unfold m_cohort. rewrite m_f_same, m_fw_same. cbv zeta.
      repeat (match goal with |- context [bind (idx1 ?l ?i) _] => let E := fresh in destruct (idx1 l i) eqn:E; cbn [bind]; [|discriminate] end).
      match goal with E : idx1 _ (2 * Z.of_nat N + Z.of_nat N) = Ok _ |- _ => rewrite idx1_err in E; [discriminate|rewrite factor_len; lia] end.
  - intros (LW & H2 & Hf & H40 & Hrows & p & HN & Ep & EH & HH). rewrite Ep. cbn [bind]. rewrite EH. cbv zeta. destruct (aH_same N HN HH) as [_ LA]. rewrite map_length, LA, Nat.eqb_refl, LW, Nat.eqb_refl. cbn [check].
    destruct (mapM (fun wrow => mapM (m_cohort A p N HN wrow) (colon 1 (Z.of_nat N))) w) as [cf|e] eqn:Ec.
    + cbn [bind]. destruct (mapM_ok_each _ _ _ Ec) as [LC _]. assert (LC' : length cf = Nsim2) by lia. rewrite <- LC'.
      destruct (m_value_same spectral round9 solve p N HN fs (map (fun z => ofZ z ⊘ ofN A N) (colon_down HN 0 ++ colon_down (Z.of_nat N - 1) (HN + 1))) cf HS) as (m & LH & _ & _ & _ & E3); [lia| |exact Hf|].
      * replace (length cf) with Nsim2 by lia. exact H40.
      * eexists. exact E3.
    + exfalso. revert Ec. clear -Hrows HH. induction w as [|row w IH]; cbn [mapM]; [discriminate|].
      destruct (mapM (m_cohort A p N HN row) (colon 1 (Z.of_nat N))) as [c|e0] eqn:E0; cbn [bind].
      * destruct (mapM _ w) as [cs|e1]; cbn [bind]; [discriminate|]. intros Q. refine (IH _ Q). intros r Hr. apply Hrows. right; auto.
      * exfalso. revert E0. unfold colon. rewrite mapM_map. replace (Z.to_nat (Z.of_nat N - 1 + 1)) with N by lia.
        assert (K : forall l, (forall j, In j l -> (j < N)%nat) -> mapM (fun x => m_cohort A p N HN row (1 + Z.of_nat x)) l <> Err e0).
        { induction l as [|j l IHl]; intros Hl; cbn [mapM]; [discriminate|]. replace (1 + Z.of_nat j)%Z with (Z.of_nat (S j)) by lia.
          destruct (m_cohort_ok p N HN row j HH (Hrows row (or_introl eq_refl)) (Hl j (or_introl eq_refl))) as (c & ->). cbn [bind].
          destruct (mapM _ l) as [v|e1]; cbn [bind]; [discriminate|]. intros Q. injection Q as ->. apply IHl; auto. intros j' Hj'. apply Hl. right; auto. }
        apply K. intros j Hj. apply in_seq in Hj. lia.
Qed.

(** *** C99: the Python program accepts more: any even number of scenarios whose twentieth, rounded down, is even; one path is enough *)
Lemma smooth_accepts spectral round9 keys vals n : transform spectral -> length keys = n -> Nat.even n = true -> Nat.even (Nat.div n 20) = true -> (0 < n)%nat ->
  exists s, smooth_by A round9 (fun l => fftsmooth A spectral l (Nat.div n 20)) keys vals = Ok s /\ length s = n.
Proof.
  intros HS HL He Hw H0. unfold smooth_by. cbv zeta. set (sorted := map _ (argsort A _)).
  assert (LS : length sorted = n) by (unfold sorted; rewrite map_length, (Permutation_length (argsort_perm A (map round9 keys))), seq_length, map_length; exact HL).
  apply Nat.even_spec in Hw. destruct Hw as [h Hh]. rewrite Hh. rewrite fftsmooth_value; [cbn [bind]|exact HS|rewrite LS; exact He|].
  - eexists. split; [reflexivity|]. rewrite map_length, seq_length. exact HL.
  - rewrite LS. apply Nat.even_spec in He. destruct He as [m Hm]. assert (Hd := Nat.mul_div_le n 20 ltac:(lia)). lia.
Qed.
Theorem C99_python_accepts spectral round9 as_int solve fs params N w p HN : transform spectral -> read_param A params = Ok p -> neqb (p_T A p) zero = false ->
  horizon_is as_int N p HN -> (-1 <= HN < Z.of_nat N)%Z -> w <> [] -> fs <> [] ->
  Nat.even (length w * (3 * length fs)) = true -> Nat.even (Nat.div (length w * (3 * length fs)) 20) = true ->
  exists m, mod_merton_computation A spectral round9 as_int solve fs params N w = Ok m.
Proof.
  intros HS Ep ET EH HH Hw Hf He H20. unfold mod_merton_computation. rewrite Ep. cbn [bind]. unfold horizon. rewrite ET, EH. cbn [bind]. destruct (aH_same N HN HH) as [-> _]. cbn [bind].
  unfold value_bank. cbv zeta. rewrite map_length.
  match goal with |- context [mapM ?f (seq 0 N)] => destruct (mapM_all f (seq 0 N)) as (L & EL) end; [|rewrite EL; cbn [bind]; eauto].
  intros j _.
  match goal with |- context [smooth_by A round9 ?sm ?ks ?vs] => destruct (smooth_accepts spectral round9 ks vs (length w * (3 * length fs)) HS) as (s & E & _) end;
    [rewrite !map_length, seq_length; reflexivity|exact He|exact H20|destruct w; [contradiction|destruct fs; [contradiction|cbn; lia]]|]. rewrite E. cbn [bind]. eauto.
Qed.
(** *** C99: a government guarantee g passed as the eleventh entry of a ROW vector is ignored by the MATLAB program *)
Theorem C99_row_of_parameters l : (10 <= length l)%nat -> m_read_param A false l = read_param A (firstn 10 l).
Proof. intros H. do 10 (destruct l as [|? l]; [cbn in H; lia|]). reflexivity. Qed.

(** *** C99: the default shocks are the same numbers if the two generators deliver the same stream of uniforms *)
Theorem C99_default_shocks invcdf u Nsim2 N : py_default_shocks A invcdf u Nsim2 N = m_default_shocks A invcdf u Nsim2 N.
Proof.
  unfold py_default_shocks, m_default_shocks, transpose, np_rand. rewrite map_map. rewrite (seq_1 Nsim2), map_map. apply map_ext_in. intros i Hi. apply in_seq in Hi.
  rewrite map_map. rewrite seq_1, map_map. apply map_ext_in. intros t Ht. apply in_seq in Ht. f_equal.
  rewrite at_map_seq by lia. rewrite at_map_seq by lia. f_equal. lia.
Qed.

(** *** C99: one cohort.  MATLAB sorts the unrounded asset values *)
Lemma m_single_only spectral as_int solve fs column params N Nsim2 w e : m_single_cohort A spectral as_int solve fs column params N Nsim2 w = Err e -> e = RuntimeError.
Proof.
  unfold m_single_cohort. destruct (m_read_param A column params) as [p|e0] eqn:Ep; cbn [bind]; [|intros H; injection H as ->; exact (read_param_only _ _ _ Ep)].
  cbv zeta. unfold check. destruct (_ =? Nsim2)%nat; [|intros H; injection H; auto].
  destruct (mapM (fun wrow => idx1 (m_f A p N wrow) (Z.of_nat N + 1)) w) as [f1|e0] eqn:E1; cbn [bind].
  2: { intros H. injection H as ->. revert E1. apply mapM_only. intros row e0 _. apply idx1_only. }
  destruct (as_int _) as [HN|]; cbn [bind]; [|intros H; injection H; auto].
  destruct (mapM (fun wrow => idx1 (m_f A p N wrow) (1 + HN)) w) as [fH|e0] eqn:E2; cbn [bind].
  2: { intros H. injection H as ->. revert E2. apply mapM_only. intros row e0 _. apply idx1_only. }
  match goal with |- bind ?m _ = _ -> _ => destruct m as [s|e0] eqn:E3 end; cbn [bind].
  - destruct (2 <=? Nsim2)%nat; [discriminate|intros H; injection H; auto].
  - intros H. injection H as ->. exact (m_smooth_only _ _ _ _ E3).
Qed.
Lemma py_idx1 {X} (l : list X) (i : Z) : (0 <= i)%Z -> match py_index l i with Ok x => idx1 l (1 + i) = Ok x | Err _ => idx1 l (1 + i) = Err RuntimeError end.
Proof.
  intros H. unfold py_index, idx1. destruct (Z.ltb_spec i 0); [lia|]. destruct (Z.ltb_spec i 0); [lia|]. destruct (Z.ltb_spec (1 + i) 1); [lia|]. replace (1 + i - 1)%Z with i by lia.
  destruct (nth_error l (Z.to_nat i)); reflexivity.
Qed.
Lemma mapM_py_idx1 {X Y} (g : X -> list Y) l i : (0 <= i)%Z ->
  match mapM (fun x => py_index (g x) i) l with Ok v => mapM (fun x => idx1 (g x) (1 + i)) l = Ok v | Err _ => mapM (fun x => idx1 (g x) (1 + i)) l = Err RuntimeError end.
Proof.
  intros H. induction l as [|x l IH]; cbn [mapM]; [reflexivity|]. assert (P := py_idx1 (g x) i H). destruct (py_index (g x) i) as [y|e]; rewrite P; cbn [bind]; [|reflexivity].
  destruct (mapM (fun x => py_index (g x) i) l) as [v|e]; rewrite IH; reflexivity.
Qed.
Theorem C99_single_cohort spectral as_int solve fs column params N w : transform spectral -> column = true \/ (length params <= 10)%nat ->
  (2 <= length w)%nat -> Nat.modulo (length w * (3 * length fs)) 40 = 0%nat ->
  (forall p, read_param A params = Ok p -> neqb (p_T A p) zero = true -> forall HN, ~ horizon_is as_int N p HN) ->
  (forall p HN, read_param A params = Ok p -> horizon_is as_int N p HN -> (0 <= HN)%Z) ->
  match mod_single_cohort_computation A spectral (fun x => x) as_int solve fs params N w with
  | Ok m => exists p LH, read_param A params = Ok p /\ from_loan_values p (length fs) LH m /\
      m_single_cohort A spectral as_int solve fs column params N (length w) w = Ok (with_bank m (matlab_bank p (length fs) LH))
  | Err _ => m_single_cohort A spectral as_int solve fs column params N (length w) w = Err RuntimeError
  end.
Proof.
  intros HS Hcol Hw2 H40 Hz Hpos. assert (HE : forall m e, m_single_cohort A spectral as_int solve fs column params N (length w) w = m -> m = Err e -> m_single_cohort A spectral as_int solve fs column params N (length w) w = Err RuntimeError).
  { intros m e <- E. rewrite E. f_equal. exact (m_single_only _ _ _ _ _ _ _ _ _ _ E). }
  unfold mod_single_cohort_computation. assert (HP := read_param_same column params Hcol). unfold m_single_cohort in *.
  destruct (read_param A params) as [p|e] eqn:Ep; rewrite HP in *; cbn [bind] in *; [|reflexivity]. cbv zeta in *. rewrite Nat.eqb_refl in *. cbn [check] in *.
  unfold horizon. specialize (Hz p eq_refl). specialize (Hpos p). unfold horizon_is in *.
  destruct (p_T A p =? zero) eqn:ET.
  { cbn [bind]. destruct (as_int _) as [HN|] eqn:EH; [destruct (Hz eq_refl HN eq_refl)|].
    destruct (mapM (fun wrow => idx1 (m_f A p N wrow) (Z.of_nat N + 1)) w) eqn:E1; cbn [bind] in *; [reflexivity|]. exact (HE _ _ eq_refl eq_refl). }
  clear Hz. destruct (as_int _) as [HN|] eqn:EH.
  2: { cbn [bind]. destruct (mapM (fun wrow => idx1 (m_f A p N wrow) (Z.of_nat N + 1)) w) eqn:E1; cbn [bind] in *; [reflexivity|]. exact (HE _ _ eq_refl eq_refl). }
  specialize (Hpos HN eq_refl eq_refl). cbn [bind]. rewrite !mapM_map. 
  assert (P1 := mapM_py_idx1 (m_f A p N) w (Z.of_nat N) ltac:(lia)). rewrite (mapM_same (fun x => idx1 (m_f A p N x) (1 + Z.of_nat N)) (fun wrow => idx1 (m_f A p N wrow) (Z.of_nat N + 1))) in P1 by (intros; f_equal; lia).
  assert (P2 := mapM_py_idx1 (m_f A p N) w HN Hpos).
  change (fun x => py_index (factor_path A p N x) (Z.of_nat N)) with (fun x => py_index (m_f A p N x) (Z.of_nat N)). change (fun x => py_index (factor_path A p N x) HN) with (fun x => py_index (m_f A p N x) HN).
  destruct (mapM (fun x => py_index (m_f A p N x) (Z.of_nat N)) w) as [f1|e]; rewrite P1; cbn [bind]; [|reflexivity].
  destruct (mapM (fun x => py_index (m_f A p N x) HN) w) as [fH|e]; rewrite P2; cbn [bind]; [|reflexivity]. clear HE P1 P2.
  replace (length (fs ++ fs ++ fs)) with (3 * length fs)%nat by (rewrite !app_length; lia).
  set (Nsim2 := length w) in *. set (Nsim1 := (3 * length fs)%nat) in *. set (n := (Nsim2 * Nsim1)%nat) in *.
  set (ival := nlog (p_bookF A p) ⊖ nlog (p_ltv A p)).
  set (mu := solve (fun mu => find_face_value_indiv A mu (p_bookF A p ⊗ nexp (mu ⊗ p_T A p)) ival (p_sig A p) (p_T A p) (p_r A p) (p_d A p)) (p_r A p ⊕ lit 1 100)).
  change (solve (fun mu => fst (fst (m_find_face_value A mu (p_bookF A p ⊗ nexp (mu ⊗ p_T A p)) ival (p_sig A p) (p_T A p) (p_r A p) (p_d A p)))) (p_r A p ⊕ lit 1 100)) with mu.
  set (F := p_bookF A p ⊗ nexp (mu ⊗ p_T A p)).
  set (sigf := nsqrt (p_rho A p) ⊗ p_sig A p).
  set (sh := fun k => nth k (fs ++ fs ++ fs) zero ⊗ sigf ⊗ nsqrt (p_T A p) ⊕ sigf ⊘ ofZ 10 ⊗ (if Nat.ltb k (length fs) then zero else if Nat.ltb k (2 * length fs) then ofZ 1 else nopp (ofZ 1))).
  set (fsa := fun k => nth (k - 1) (fs ++ fs ++ fs) zero ⊗ sigf ⊗ nsqrt (p_T A p) ⊕ sigf ⊘ ofZ 10 ⊗ nth (k - 1) (repeat zero (length fs) ++ repeat (ofZ 1) (length fs) ++ repeat (nopp (ofZ 1)) (length fs)) zero).
  assert (SH : forall k, (k < Nsim1)%nat -> fsa (S k) = sh k).
  { intros k Hk. unfold fsa, sh. replace (S k - 1)%nat with k by lia. f_equal. f_equal. destruct (Nat.ltb_spec k (length fs)).
    - rewrite app_nth1 by (rewrite repeat_length; lia). apply nth_repeat.
    - rewrite app_nth2 by (rewrite repeat_length; lia). rewrite repeat_length. destruct (Nat.ltb_spec k (2 * length fs)).
      + rewrite app_nth1 by (rewrite repeat_length; lia). rewrite (nth_indep _ zero (ofZ 1)) by (rewrite repeat_length; lia). apply nth_repeat.
      + rewrite app_nth2 by (rewrite repeat_length; lia). rewrite repeat_length. rewrite (nth_indep _ zero (nopp (ofZ 1))) by (rewrite repeat_length; unfold Nsim1 in *; lia). apply nth_repeat. }
  set (L1 := fun i k => loan_payoff A F (nth i f1 zero ⊕ sh k) ival (p_rho A p) (p_sig A p) (p_T A p)).
  set (FH1 := fun i k => nexp (nth i fH zero ⊕ sh k ⊕ ival) ⊗ nexp (lit 5 10 ⊗ (ofZ 1 ⊖ p_rho A p) ⊗ p_H A p ⊗ nsq (p_sig A p))).
  assert (FL : forall g g' : nat -> nat -> num, (forall i k, (k < Nsim1)%nat -> g (S i) (S k) = g' i k) ->
     map (fun q => g (Nat.modulo (q - 1) Nsim2 + 1)%nat (Nat.div (q - 1) Nsim2 + 1)%nat) (seq 1 n) = map (fun q => g' (Nat.modulo q Nsim2) (Nat.div q Nsim2)) (seq 0 n)).
  { intros g g' Hg. rewrite seq_1, map_map. apply map_ext_in. intros q Hq. apply in_seq in Hq. replace (S q - 1)%nat with q by lia. rewrite !Nat.add_1_r. apply Hg.
    apply Nat.div_lt_upper_bound; [lia|]. unfold n in Hq. lia. }
  assert (G1 : forall i k, (k < Nsim1)%nat -> nexp (nth (S i - 1) fH zero ⊕ fsa (S k) ⊕ ival) ⊗ nexp (lit 5 10 ⊗ (ofZ 1 ⊖ p_rho A p) ⊗ p_H A p ⊗ nsq (p_sig A p)) = FH1 i k).
  { intros i k Hk. rewrite (SH k Hk). replace (S i - 1)%nat with i by lia. reflexivity. }
  assert (K1 : map (fun q => nexp (nth (Nat.modulo (q - 1) Nsim2 + 1 - 1) fH zero ⊕ fsa (Nat.div (q - 1) Nsim2 + 1)%nat ⊕ ival) ⊗ nexp (lit 5 10 ⊗ (ofZ 1 ⊖ p_rho A p) ⊗ p_H A p ⊗ nsq (p_sig A p))) (seq 1 n)
               = map (fun q => FH1 (Nat.modulo q Nsim2) (Nat.div q Nsim2)) (seq 0 n)).
  { exact (FL (fun i k => nexp (nth (i - 1) fH zero ⊕ fsa k ⊕ ival) ⊗ nexp (lit 5 10 ⊗ (ofZ 1 ⊖ p_rho A p) ⊗ p_H A p ⊗ nsq (p_sig A p))) FH1 G1). }
  assert (K2 : map (fun q => m_loan_payoff A F (nth (Nat.modulo (q - 1) Nsim2 + 1 - 1) f1 zero ⊕ fsa (Nat.div (q - 1) Nsim2 + 1)%nat) ival (p_rho A p) (p_sig A p) (p_T A p)) (seq 1 n)
               = map (fun q => L1 (Nat.modulo q Nsim2) (Nat.div q Nsim2)) (seq 0 n)).
  { refine (FL (fun i k => m_loan_payoff A F (nth (i - 1) f1 zero ⊕ fsa k) ival (p_rho A p) (p_sig A p) (p_T A p)) L1 _). intros i k Hk. rewrite (SH k Hk). replace (S i - 1)%nat with i by lia. reflexivity. }
  match goal with |- context [m_smooth A spectral ?a ?b] => change (m_smooth A spectral a b) with (m_smooth A spectral
     (map (fun q => nexp (nth (Nat.modulo (q - 1) Nsim2 + 1 - 1) fH zero ⊕ fsa (Nat.div (q - 1) Nsim2 + 1)%nat ⊕ ival) ⊗ nexp (lit 5 10 ⊗ (ofZ 1 ⊖ p_rho A p) ⊗ p_H A p ⊗ nsq (p_sig A p))) (seq 1 n))
     (map (fun q => m_loan_payoff A F (nth (Nat.modulo (q - 1) Nsim2 + 1 - 1) f1 zero ⊕ fsa (Nat.div (q - 1) Nsim2 + 1)%nat) ival (p_rho A p) (p_sig A p) (p_T A p)) (seq 1 n))) end.
  rewrite K1, K2.
  match goal with |- context [smooth_by A ?r ?sm ?a ?b] => change (smooth_by A r sm a b) with (smooth_by A r sm (map (fun q => FH1 (Nat.modulo q Nsim2) (Nat.div q Nsim2)) (seq 0 n)) (map (fun q => L1 (Nat.modulo q Nsim2) (Nat.div q Nsim2)) (seq 0 n))) end.
  set (keys := map (fun q => FH1 (Nat.modulo q Nsim2) (Nat.div q Nsim2)) (seq 0 n)). set (vals := map (fun q => L1 (Nat.modulo q Nsim2) (Nat.div q Nsim2)) (seq 0 n)).
  assert (LK : length keys = n) by (unfold keys; rewrite map_length, seq_length; reflexivity). assert (LV : length vals = n) by (unfold vals; rewrite map_length, seq_length; reflexivity).
  destruct (Nat.eq_dec n 0) as [N0|N0].
  { assert (EK : keys = []) by (apply length_zero_iff_nil; lia). assert (EV : vals = []) by (apply length_zero_iff_nil; lia). rewrite EK, EV, N0.
    unfold smooth_by at 1. cbn [map argsort length seq fold_right fftsmooth Nat.even Nat.div Nat.divmod fst Nat.sub Nat.leb check Nat.eqb negb bind].
    unfold m_smooth at 1. cbn [map argsort length seq fold_right mapM bind].
    destruct (m_fftsmooth A spectral [] 0 20) as [s|e] eqn:E0; [|rewrite (m_fftsmooth_only _ _ _ _ _ E0); reflexivity]. exfalso. revert E0. unfold m_fftsmooth. cbn [length Nat.modulo Nat.mul Nat.add Nat.divmod fst snd Nat.sub Nat.eqb check Z.of_nat Nat.div Z.leb Z.compare repeat app].
    set (xk := spectral _ _). assert (LX : length xk = 0%nat) by (unfold xk; apply HS; reflexivity). rewrite idx1_err by (rewrite LX; cbn; lia). discriminate. }
  destruct (C99_sort_smooth spectral (fun x => x) keys vals HS) as (s & E1 & _ & E2); [lia|rewrite LK; exact H40|lia|]. rewrite map_id in E1. rewrite LK in E2. rewrite E1, E2. cbn [bind].
  destruct (Nat.leb_spec 2 Nsim2); [cbn [check]|lia].
  eexists p. eexists. split; [reflexivity|]. split; [reflexivity|]. unfold with_bank, matlab_bank. cbn [m_mFt m_face m_FH m_mu m_F]. f_equal. f_equal.
  - f_equal. apply m_rows_same. intros i k Hi Hk. replace (S i + (S k - 1) * Nsim2 - 1)%nat with (i + Nsim2 * k)%nat by (rewrite (Nat.mul_comm Nsim2); lia). reflexivity.
  - f_equal. f_equal. apply m_rows_same. intros i k Hi Hk. exact (f_equal (fun x => nexp (x ⊕ ival)) (SH k Hk)).
  - f_equal. apply m_rows_same. intros i k Hi Hk. reflexivity.
  - f_equal. apply m_rows_same. intros i k Hi Hk. exact (G1 i k Hk).
Qed.

(** rounding the sort keys is invisible when it does not change their order *)
Lemma insert_idx_ext key key' x l : (forall y, In y l -> key_lt A (key y) (key x) = key_lt A (key' y) (key' x)) -> insert_idx A key x l = insert_idx A key' x l.
Proof.
  induction l as [|y l IH]; intros H; [reflexivity|]. cbn [insert_idx]. rewrite (H y (or_introl eq_refl)). destruct (key_lt A (key' y) (key' x)); [|reflexivity].
  f_equal. apply IH. intros z Hz. apply H. right. exact Hz.
Qed.
Lemma argsort_order r keys : (forall a b, In a keys -> In b keys -> key_lt A (r a) (r b) = key_lt A a b) -> argsort A (map r keys) = argsort A keys.
Proof.
  intros H. unfold argsort. rewrite map_length.
  assert (K : forall l, (forall x, In x l -> (x < length keys)%nat) -> fold_right (insert_idx A (fun i => nth i (map r keys) zero)) [] l = fold_right (insert_idx A (fun i => nth i keys zero)) [] l).
  { induction l as [|x l IH]; intros Hl; [reflexivity|]. cbn [fold_right]. rewrite IH by (intros z Hz; apply Hl; right; exact Hz). apply insert_idx_ext.
    intros y Hy. assert (Hy' : (y < length keys)%nat). { apply Hl. right. revert Hy. apply Permutation_in. apply fold_insert_perm. }
    assert (Hx : (x < length keys)%nat) by (apply Hl; left; reflexivity).
    rewrite (nth_indep (map r keys) zero (r zero)) by (rewrite map_length; lia). rewrite (nth_indep (map r keys) zero (r zero)) by (rewrite map_length; lia). rewrite !map_nth. apply H; apply nth_In; lia. }
  apply K. intros x Hx. apply in_seq in Hx. lia.
Qed.
Lemma smooth_by_order r sm keys vals : (forall a b, In a keys -> In b keys -> key_lt A (r a) (r b) = key_lt A a b) -> smooth_by A r sm keys vals = smooth_by A (fun x => x) sm keys vals.
Proof. intros H. unfold smooth_by. rewrite (argsort_order r keys H). rewrite map_id. reflexivity. Qed.
(** the borrower assets at t+H in the scenarios of the one-cohort model: path [wrow], factor value k *)
Definition single_assets (p : param A) (N : nat) (HN : Z) (fs : list num) (wrow : list num) (k : nat) : num :=
  let sigf := nsqrt (p_rho A p) ⊗ p_sig A p in
  let shock := nth k (fs ++ fs ++ fs) zero ⊗ sigf ⊗ nsqrt (p_T A p) ⊕ sigf ⊘ ofZ 10 ⊗ (if Nat.ltb k (length fs) then zero else if Nat.ltb k (2 * length fs) then ofZ 1 else nopp (ofZ 1)) in
  nexp (nth (Z.to_nat HN) (factor_path A p N wrow) zero ⊕ shock ⊕ (nlog (p_bookF A p) ⊖ nlog (p_ltv A p))) ⊗ nexp (lit 5 10 ⊗ (ofZ 1 ⊖ p_rho A p) ⊗ p_H A p ⊗ nsq (p_sig A p)).
Theorem C99_single_rounding spectral round9 as_int solve fs params N w p HN : read_param A params = Ok p -> horizon_is as_int N p HN -> (0 <= HN)%Z ->
  (forall row row' k k', In row w -> In row' w -> (k < 3 * length fs)%nat -> (k' < 3 * length fs)%nat ->
     key_lt A (round9 (single_assets p N HN fs row k)) (round9 (single_assets p N HN fs row' k')) = key_lt A (single_assets p N HN fs row k) (single_assets p N HN fs row' k')) ->
  mod_single_cohort_computation A spectral round9 as_int solve fs params N w = mod_single_cohort_computation A spectral (fun x => x) as_int solve fs params N w.
Proof.
  intros Ep EH H0 HO. unfold mod_single_cohort_computation. rewrite Ep. cbn [bind]. unfold horizon. rewrite EH. destruct (p_T A p =? zero); [reflexivity|]. cbn [bind]. cbv zeta.
  destruct (mapM (fun f => py_index f (Z.of_nat N)) _) as [f1|e]; cbn [bind]; [|reflexivity].
  destruct (mapM (fun f => py_index f HN) _) as [fH|e] eqn:E2; cbn [bind]; [|reflexivity].
  rewrite (smooth_by_order round9); [reflexivity|].
  assert (FH : forall i, (i < length w)%nat -> nth i fH zero = nth (Z.to_nat HN) (factor_path A p N (nth i w [])) zero).
  { rewrite mapM_map in E2. clear HO. revert fH E2. induction w as [|row w' IH]; intros fH E2 i Hi; [cbn in Hi; lia|]. cbn [mapM] in E2.
    destruct (py_index (factor_path A p N row) HN) as [v|e] eqn:EV; cbn [bind] in E2; [|discriminate]. destruct (mapM _ w') as [vs|e] eqn:EW; cbn [bind] in E2; [|discriminate]. injection E2 as <-.
    destruct i as [|i]; cbn [nth]; [|apply IH; [reflexivity|cbn [length] in Hi; lia]]. unfold py_index in EV. destruct (Z.ltb_spec HN 0); [lia|]. destruct (Z.ltb_spec HN 0); [lia|].
    destruct (nth_error _ _) eqn:EN; [|discriminate]. injection EV as ->. symmetry. apply nth_error_nth. exact EN. }
  intros a b Ha Hb. apply in_map_iff in Ha, Hb. destruct Ha as (q & <- & Hq), Hb as (q' & <- & Hq'). apply in_seq in Hq, Hq'.
  assert (W : (0 < length w)%nat) by (destruct (length w); [lia|lia]).
  rewrite (FH (Nat.modulo q (length w))) by (apply Nat.mod_upper_bound; lia). rewrite (FH (Nat.modulo q' (length w))) by (apply Nat.mod_upper_bound; lia).
  apply (HO (nth (Nat.modulo q (length w)) w []) (nth (Nat.modulo q' (length w)) w []) (Nat.div q (length w)) (Nat.div q' (length w))).
  - apply nth_In. apply Nat.mod_upper_bound. lia.
  - apply nth_In. apply Nat.mod_upper_bound. lia.
  - apply Nat.div_lt_upper_bound; lia.
  - apply Nat.div_lt_upper_bound; lia.
Qed.
(** a negative horizon: MATLAB has no such column, Python counts from the last one *)
Theorem C99_single_negative_horizon spectral round9 as_int solve fs params N Nsim2 w p HN : transform spectral -> read_param A params = Ok p -> neqb (p_T A p) zero = false -> horizon_is as_int N p HN ->
  (HN < 0)%Z -> w <> [] -> fs <> [] -> (forall row, In row w -> N <= length row)%nat -> (forall row, In row w -> - HN <= Z.of_nat (length row) + 1)%Z ->
  Nat.even (length w * (3 * length fs)) = true -> Nat.even (Nat.div (length w * (3 * length fs)) 20) = true ->
  (exists m, mod_single_cohort_computation A spectral round9 as_int solve fs params N w = Ok m) /\
  m_single_cohort A spectral as_int solve fs true params N Nsim2 w = Err RuntimeError.
Proof.
  intros HS Ep ET EH HN0 Hw Hf Hrow Hrow' He H20. split.
  - unfold mod_single_cohort_computation. rewrite Ep. cbn [bind]. unfold horizon. rewrite ET, EH. cbn [bind]. cbv zeta.
    destruct (mapM_all (fun f => py_index f (Z.of_nat N)) (map (factor_path A p N) w)) as (f1 & ->).
    { intros f Hf'. apply in_map_iff in Hf'. destruct Hf' as (row & <- & Hr). unfold py_index. destruct (Z.ltb_spec (Z.of_nat N) 0); [lia|]. destruct (Z.ltb_spec (Z.of_nat N) 0); [lia|].
      rewrite Nat2Z.id. rewrite (nth_error_nth' _ zero) by (rewrite factor_len; specialize (Hrow row Hr); lia). eauto. }
    destruct (mapM_all (fun f => py_index f HN) (map (factor_path A p N) w)) as (fH & ->).
    { intros f Hf'. apply in_map_iff in Hf'. destruct Hf' as (row & <- & Hr). unfold py_index. destruct (Z.ltb_spec HN 0); [|lia]. cbv zeta. rewrite factor_len. specialize (Hrow' row Hr).
      destruct (Z.ltb_spec (HN + Z.of_nat (S (length row))) 0); [lia|]. rewrite (nth_error_nth' _ zero) by (rewrite factor_len; lia). eauto. }
    cbn [bind]. match goal with |- context [smooth_by A round9 ?sm ?ks ?vs] => destruct (smooth_accepts spectral round9 ks vs (length w * (3 * length fs)) HS) as (s & E & _) end;
      [rewrite !map_length, seq_length; reflexivity|exact He|exact H20|destruct w; [contradiction|destruct fs; [contradiction|cbn; lia]]|]. rewrite E. cbn [bind]. eauto.
  - destruct (m_single_cohort A spectral as_int solve fs true params N Nsim2 w) as [m|e] eqn:E; [|f_equal; exact (m_single_only _ _ _ _ _ _ _ _ _ _ E)]. exfalso. revert E.
    unfold m_single_cohort. assert (HP := read_param_same true params (or_introl eq_refl)). rewrite Ep in HP. rewrite HP. cbn [bind]. cbv zeta. unfold horizon_is in EH. rewrite EH. unfold check. destruct (_ =? Nsim2)%nat; [|discriminate].
    destruct (mapM _ w); cbn [bind]; [|discriminate]. destruct w as [|row w]; [contradiction|]. cbn [mapM]. rewrite idx1_err by lia. discriminate.
Qed.
(** the residuals handed to the root finder (one shock, one bank) *)
Theorem C99_single_solution compute compute' b1 b2 params E sigE : (forall q, compute' [b1] q = compute [b1] q) ->
  (forall q m, compute [b1] q = Ok m -> length (b_Et A (m_bank A m)) = 1%nat /\ length (b_sigEt A (m_bank A m)) = 1%nat) ->
  snd (mod_single_cohort_solution A compute (Vector A [b1]) b2 params [E] [sigE]) =
  (if (length params <=? 2)%nat then Err IndexError else m_single_solution A compute' b1 b2 params E sigE).
Proof.
  intros HC HL. unfold mod_single_cohort_solution, m_single_solution. destruct (Nat.ltb_spec 2 (length params)) as [H|H]; destruct (Nat.leb_spec (length params) 2) as [H'|H']; try lia; [|reflexivity].
  cbn [check snd]. rewrite HC. change (set1 params 3 b2) with (set_nth params 2 b2). destruct (compute [b1] (set_nth params 2 b2)) as [m|e] eqn:EC; cbn [bind]; [|reflexivity].
  destruct (HL _ _ EC) as [H1 H2]. destruct (b_Et A (m_bank A m)) as [|x [|? ?]]; try discriminate. destruct (b_sigEt A (m_bank A m)) as [|z [|? ?]]; try discriminate. reflexivity.
Qed.
(** lookup tables: the same grid point by grid point *)
Theorem C99_lookup compute compute' fs d y T H bookD rho ltv J K Q xr xF xsig xr' xF' xsig' :
  (forall j k q, (j < J)%nat -> (k < K)%nat -> (q < Q)%nat -> xr' (S j) (S k) (S q) = xr j k q /\ xF' (S j) (S k) (S q) = xF j k q /\ xsig' (S j) (S k) (S q) = xsig j k q) ->
  (forall j k q, (j < J)%nat -> (k < K)%nat -> (q < Q)%nat -> compute' fs (lookup_params A d y T H bookD rho ltv (xr j k q) (xF j k q) (xsig j k q)) =
                                                        compute fs (lookup_params A d y T H bookD rho ltv (xr j k q) (xF j k q) (xsig j k q))) ->
  m_create_lookup A compute' fs d y T H bookD rho ltv J K Q xr' xF' xsig' = create_lookup A compute fs d y T H bookD rho ltv J K Q xr xF xsig.
Proof.
  intros HG HC. unfold m_create_lookup, create_lookup. rewrite (seq_1 J), mapM_map. apply mapM_same. intros j Hj. apply in_seq in Hj.
  rewrite (seq_1 K), mapM_map. apply mapM_same. intros k Hk. apply in_seq in Hk. rewrite (seq_1 Q), mapM_map. apply mapM_same. intros q Hq. apply in_seq in Hq.
  destruct (HG j k q ltac:(lia) ltac:(lia) ltac:(lia)) as (-> & -> & ->). fold (lookup_params A d y T H bookD rho ltv (xr j k q) (xF j k q) (xsig j k q)). rewrite HC by lia. reflexivity.
Qed.
End Port.

(** *** C99: the Merton residuals.  MATLAB's penalty is effective, Python's (C69) is always zero *)
Definition residual_penalty (a s : R) : R := (if Rlt_dec s 0 then 9999999 * (s * s) else 0) + (if Rlt_dec a 0 then 9999999 * (a * a) else 0).
Theorem C99_merton_residuals a s E D r d T sigE :
  m_merton_solution XRA (Fin a) (Fin s) E D r d T sigE =
  (xadd (fst (merton_solution XRA (Fin a) (Fin s) E D r d T sigE)) (Fin (residual_penalty a s)),
   xadd (snd (merton_solution XRA (Fin a) (Fin s) E D r d T sigE)) (Fin (residual_penalty a s))).
Proof.
  assert (P : forall e x y, xadd (xadd e (Fin x)) (Fin y) = xadd (xadd e (Fin 0)) (Fin (x + y))) by (intros [u| | |] x y; cbn [xadd]; try reflexivity; f_equal; ring).
  unfold m_merton_solution, merton_solution, residual_penalty. cbn [nltb ofZ XRA]. unfold xltb.
  destruct (Rlt_dec s 0), (Rlt_dec a 0); cbn [fst snd nadd nmul nsq XRA xsq xmul]; f_equal; rewrite P; f_equal; cbn [xadd]; try (f_equal; ring); f_equal; f_equal; ring.
Qed.
Corollary C99_feasible_residuals a s E D r d T sigE : (0 <= a)%R -> (0 <= s)%R ->
  m_merton_solution XRA (Fin a) (Fin s) E D r d T sigE = merton_solution XRA (Fin a) (Fin s) E D r d T sigE.
Proof.
  intros Ha Hs. rewrite C99_merton_residuals. unfold residual_penalty. destruct (Rlt_dec s 0) as [C|_]; [exfalso; exact (Rlt_not_le _ _ C Hs)|]. destruct (Rlt_dec a 0) as [C|_]; [exfalso; exact (Rlt_not_le _ _ C Ha)|].
  assert (Q : forall e, xadd e (Fin (0 + 0)) = e) by (intros [u| | |]; cbn [xadd]; try reflexivity; f_equal; ring). rewrite !Q. symmetry. apply surjective_pairing.
Qed.

(** *** C99: scenarios in which the loan value is NaN.  MATLAB's min and max ignore NaN, NumPy's do not *)
Definition debt_ignoring_nan (D y H : R) (l : xr) : xr := if xisnan l then Fin D else bank_debt XRA (Fin D) (Fin y) (Fin H) l.
Definition guarantee_ignoring_nan (g : xr) (D y H : R) (l : xr) : xr := if xisnan l then xmul g (Fin 0) else guarantee XRA g (Fin D) (Fin y) (Fin H) l.
Theorem C99_nan p szfs LH D y H : p_D XRA p = Fin D -> p_y XRA p = Fin y -> p_H XRA p = Fin H ->
  let python := settle XRA szfs (p_r XRA p) (Fin H) (Fin D) (Fin y) (p_g XRA p) LH in
  let matlab := matlab_bank XRA p szfs LH in
  let today M := firstn szfs (map (fun m => xmul m (xexp (xmul (xopp (p_r XRA p)) (Fin H)))) (mean_axis0 XRA (3 * szfs) M)) in
  (* the same in both *)
  b_Lt XRA matlab = b_Lt XRA python /\ b_Et XRA matlab = b_Et XRA python /\ b_LH XRA matlab = b_LH XRA python /\ b_EH XRA matlab = b_EH XRA python /\
  b_default XRA matlab = b_default XRA python /\ b_mdef XRA matlab = b_mdef XRA python /\ b_sigEt XRA matlab = b_sigEt XRA python /\ b_sigLt XRA matlab = b_sigLt XRA python /\
  (* MATLAB counts such a scenario as full repayment and no guarantee payment *)
  b_BH XRA matlab = map (firstn szfs) (map (map (debt_ignoring_nan D y H)) LH) /\ b_Bt XRA matlab = today (map (map (debt_ignoring_nan D y H)) LH) /\
  b_Gt XRA matlab = today (map (map (guarantee_ignoring_nan (p_g XRA p) D y H)) LH) /\
  (* in NumPy it makes the whole average NaN *)
  b_Bt XRA python = today (map (map (bank_debt XRA (Fin D) (Fin y) (Fin H))) LH) /\ bank_debt XRA (Fin D) (Fin y) (Fin H) NaN = NaN.
Proof.
  intros ED Ey EH. cbv zeta. unfold matlab_bank, m_settle, settle. rewrite ED, Ey, EH. cbv zeta. cbn [b_Lt b_Bt b_Et b_Gt b_LH b_BH b_EH b_default b_mdef b_sigEt b_sigLt].
  assert (PN : forall l, xisnan (xmul l (xexp (xmul (xopp (Fin y)) (Fin H)))) = xisnan l).
  { intros l. cbn [xopp xmul xexp]. assert (E := exp_pos (- y * H)). assert (SG : xsgn_inf (exp (- y * H)) = PInf) by (unfold xsgn_inf; destruct (total_order_T (exp (- y * H)) 0) as [[C|C]|C]; [exfalso; exact (Rlt_asym _ _ C E)|exfalso; rewrite C in E; exact (Rlt_irrefl _ E)|reflexivity]).
    destruct l as [u| | |]; cbn [xmul]; rewrite ?SG; reflexivity. }
  assert (M0 : forall f g : num XRA -> num XRA, (forall l, f l = g l) -> map (map f) LH = map (map g) LH) by (intros f g HF; apply map_ext; intros row; apply map_ext; exact HF).
  assert (Hd : forall l, m_min XRA (Fin D) (@nmul XRA l (@nexp XRA (@nmul XRA (@nopp XRA (Fin y)) (Fin H)))) = debt_ignoring_nan D y H l).
  { intros l. unfold m_min, debt_ignoring_nan, bank_debt, np_minimum, payout_value. cbn [isnan nmul nexp nopp XRA]. change (xisnan (Fin D)) with false. cbv iota. rewrite PN. destruct (xisnan l); reflexivity. }
  assert (Hg : forall l, @nmul XRA (p_g XRA p) (m_max XRA (@nsub XRA (Fin D) (@nmul XRA l (@nexp XRA (@nmul XRA (@nopp XRA (Fin y)) (Fin H))))) (@ofZ XRA 0)) = guarantee_ignoring_nan (p_g XRA p) D y H l).
  { intros l. unfold m_max, guarantee_ignoring_nan, guarantee, np_maximum, payout_value. cbn [isnan nmul nexp nopp nsub ofZ XRA].
    assert (E : xisnan (xsub (Fin D) (xmul l (xexp (xmul (xopp (Fin y)) (Fin H))))) = xisnan l).
    { transitivity (xisnan (xmul l (xexp (xmul (xopp (Fin y)) (Fin H))))); [|apply PN]. destruct (xmul l (xexp (xmul (xopp (Fin y)) (Fin H)))); reflexivity. }
    rewrite E. destruct (xisnan l); [reflexivity|]. change (xisnan (Fin 0)) with false. reflexivity. }
  assert (He : forall l, @nsub XRA l (m_min XRA (Fin D) (@nmul XRA l (@nexp XRA (@nmul XRA (@nopp XRA (Fin y)) (Fin H))))) = bank_equity XRA (Fin D) (Fin y) (Fin H) l).
  { intros l. rewrite Hd. unfold debt_ignoring_nan, bank_equity. destruct (xisnan l) eqn:E; [|reflexivity]. destruct l; try discriminate. reflexivity. }
  assert (Hf : forall l, (if @nltb XRA (@ofZ XRA 0) (@nsub XRA (@nmul XRA l (@nexp XRA (@nmul XRA (@nopp XRA (Fin y)) (Fin H)))) (m_min XRA (Fin D) (@nmul XRA l (@nexp XRA (@nmul XRA (@nopp XRA (Fin y)) (Fin H)))))) then @ofZ XRA 0 else @ofZ XRA 1) = default_flag XRA (Fin D) (Fin y) (Fin H) l).
  { intros l. rewrite Hd. unfold debt_ignoring_nan, default_flag, bank_equity_ex. destruct (xisnan l) eqn:E; [|reflexivity]. destruct l; try discriminate. reflexivity. }
  rewrite (M0 _ _ Hd), (M0 _ _ Hg), (M0 _ _ He), (M0 _ _ Hf). repeat split.
Qed.

(** the hypotheses are met: 20 factor values and 2 paths give 120 scenarios (accepted by both); one factor value and 14 paths give 42
    scenarios, which the Python program values and the MATLAB program refuses *)
Definition no_transform (x k : list (num XRA)) : list (num XRA) := x.
Definition one_step (x : num XRA) : option Z := Some 1%Z.
Lemma no_transform_length : transform XRA no_transform.
Proof. intros x k _. reflexivity. Qed.
Example C99_case : forall solve round9, let params := repeat (Fin 1 : num XRA) 10 in
  (exists m, m_mod_merton_computation XRA no_transform round9 one_step solve (repeat (Fin 0 : num XRA) 20) true params 2 2 (repeat (repeat (Fin 0 : num XRA) 6) 2) = Ok m) /\
  (exists m, mod_merton_computation XRA no_transform round9 one_step solve [Fin 0 : num XRA] params 2 (repeat (repeat (Fin 0 : num XRA) 6) 14) = Ok m) /\
  ~ (exists m, m_mod_merton_computation XRA no_transform round9 one_step solve [Fin 0 : num XRA] true params 2 14 (repeat (repeat (Fin 0 : num XRA) 6) 14) = Ok m).
Proof.
  intros solve round9 params. split; [|split].
  - apply (C99_matlab_accepts XRA no_transform round9 one_step solve _ true params 2 2 _ no_transform_length ltac:(lia)).
    repeat split; [lia|discriminate| |].
    + intros row Hr. apply repeat_spec in Hr. subst row. cbn. lia.
    + exists (mk_param XRA (Fin 1) (Fin 1) (Fin 1) (Fin 1) (Fin 1) (Fin 1) (Fin 1) (Fin 1) (Fin 1) (Fin 1) (Fin 0)), 1%Z. repeat split; lia.
  - apply (C99_python_accepts XRA no_transform round9 one_step solve _ params 2 _ (mk_param XRA (Fin 1) (Fin 1) (Fin 1) (Fin 1) (Fin 1) (Fin 1) (Fin 1) (Fin 1) (Fin 1) (Fin 1) (Fin 0)) 1%Z no_transform_length); try reflexivity; try discriminate; try lia.
    cbn [p_T neqb ofZ XRA]. unfold xeqb. destruct (Req_EM_T 1 0) as [E|E]; [exfalso; exact (R1_neq_R0 E)|reflexivity].
  - intros H. apply (C99_matlab_accepts XRA no_transform round9 one_step solve _ true params 2 14 _ no_transform_length ltac:(lia)) in H.
    destruct H as (_ & _ & _ & H40 & _). discriminate H40.
Qed.
