(** * Model of src/frds/measures/modified_merton/*.py

    Arrays of shape (Nsim2, N, Nsim1) are modelled cell by cell: i = simulated path, j = loan cohort, k = factor-shock value.
    Not modelled: the random generator (the shocks [w] are an arbitrary matrix), scipy's fsolve (an oracle returning a number),
    np.round(.,9) (an arbitrary function [round9]), the plots and the griddata interpolations of mod_merton_simulation.py. *)
From Coq Require Import ZArith List Bool Arith.
From Verif Require Import Arith Model_option.
Import ListNotations.
Local Open Scope num_scope.

(** Python indexing xs[i] with negative indices *)
Definition py_index {X} (l : list X) (i : Z) : res X :=
  let len := Z.of_nat (length l) in
  let p := if (i <? 0)%Z then (i + len)%Z else i in
  if (p <? 0)%Z then Err IndexError
  else match nth_error l (Z.to_nat p) with Some x => Ok x | None => Err IndexError end.
Fixpoint set_nth {X} (l : list X) (i : nat) (v : X) : list X :=
  match l, i with [], _ => [] | _ :: l', O => v :: l' | x :: l', S i' => x :: set_nth l' i' v end.
Fixpoint mapM {X Y} (f : X -> res Y) (l : list X) : res (list Y) :=
  match l with [] => Ok [] | x :: l' => do y <- f x; do ys <- mapM f l'; Ok (y :: ys) end.
(** np.arange(a, b, -1) *)
Definition arange_down (a b : Z) : list Z := map (fun t => (a - Z.of_nat t)%Z) (seq 0 (Z.to_nat (a - b))).

Section Merton.
Context (A : Arith).
Notation num := (num A).
Notation zero := (@ofZ A 0).
Notation one := (@ofZ A 1).
Notation half := (@lit A 5 10).
Definition ofN (n : nat) : num := ofZ (Z.of_nat n).

(** ** fftsmooth.py, l.4-37.  [spectral xpad k] is np.real(np.fft.ifft(np.multiply(np.fft.fft(xpad), np.fft.fft(k)))), l.23-28.
    The window w is a nonnegative int. *)
Definition fftsmooth (spectral : list num -> list num -> list num) (x : list num) (w : nat) : res (list num) :=
  let n := length x in
  let h := Nat.div w 2 in
  check (Nat.even n) AssertionError (
  check (Nat.even w) AssertionError (
  check (Nat.leb h n) ValueError (                                     (* np.zeros((n - w // 2,)) *)
  check (negb (Nat.eqb n 0)) ValueError (                              (* np.fft.fft of an empty array *)
  let xpad := repeat zero n ++ x in                                    (* l.18 *)
  let k := repeat zero (n - h) ++ repeat (one ⊘ ofN w) w ++ repeat zero (n - h) in   (* l.20-22 *)
  let xk := spectral xpad k in
  do a1 <- py_index xk (Z.of_nat h + 1);
  do a0 <- py_index xk (Z.of_nat h);
  let dl := a1 ⊖ a0 in                                                 (* l.31 *)
  let lex := map (fun t => a0 ⊖ ofN (h - t) ⊗ dl) (seq 0 h) in         (* l.32: np.flip(np.arange(w//2)+1) *)
  do b1 <- py_index xk (Z.of_nat n - Z.of_nat h - 1);
  do b0 <- py_index xk (Z.of_nat n - Z.of_nat h - 2);
  let ul := b1 ⊖ b0 in                                                 (* l.33 *)
  let uex := map (fun t => b1 ⊕ ofN (t + 1) ⊗ ul) (seq 0 h) in         (* l.34 *)
  Ok (lex ++ firstn (n - h - h) (skipn h xk) ++ uex))))).              (* l.36 *)

(** ** loan_payoff.py, l.22-30 (one element) *)
Definition loan_payoff (F f ival rho sig T : num) : num :=
  let EA := nexp (f ⊕ ival ⊕ half ⊗ (one ⊖ rho) ⊗ T ⊗ nsq sig) in
  let s := sig ⊗ nsqrt T ⊗ nsqrt (one ⊖ rho) in
  let a := (nlog F ⊖ f ⊖ ival) ⊘ s in
  EA ⊗ (one ⊖ ncdf (s ⊖ a)) ⊕ ncdf (nopp a) ⊗ F.

(** ** find_face_value_indiv.py, l.25-35 *)
Definition find_face_value_indiv (mu F ival sig T r d : num) : num :=
  let P := snd (blsprice A (nexp ival) F r T sig d) in
  let L := F ⊗ nexp (nopp r ⊗ T) ⊖ P in
  let newmu := (one ⊘ T) ⊗ nlog (F ⊘ L) in
  mu ⊖ newmu.

(** ** merton_solution.py, l.33-59 *)
Definition merton_solution (A0 sig0 E D r d T sigE : num) : num * num :=
  let '(sig, esig) := if sig0 <? zero then (zero, ofZ 9999999) else (sig0, zero) in
  let '(As, eA) := if A0 <? zero then (zero, ofZ 9999999) else (A0, zero) in
  let C := fst (blsprice A As D r T sig d) in
  let PVd := As ⊗ (one ⊖ nexp (nopp d ⊗ T)) in
  let C := C ⊕ PVd in
  let d1 := (nlog As ⊖ nlog D ⊕ (r ⊖ d ⊕ nsq sig ⊘ ofZ 2) ⊗ T) ⊘ (sig ⊗ nsqrt T) in
  let v := (nexp (nopp d ⊗ T) ⊗ ncdf d1 ⊕ (one ⊖ nexp (nopp d ⊗ T))) ⊗ (As ⊘ E) ⊗ sig in
  let penalty := esig ⊗ nsq sig ⊕ eA ⊗ nsq As in
  (E ⊖ C ⊕ penalty, sigE ⊖ v ⊕ penalty).

(** ** Sorting (mod_merton_computation.py l.244-250, mod_single_cohort_computation.py l.91-99) *)
(** numpy orders NaN after every number *)
Definition key_lt (a b : num) : bool := (a <? b) || (isnan b && negb (isnan a)).
Fixpoint insert_idx (key : nat -> num) (x : nat) (l : list nat) : list nat :=
  match l with [] => [x] | y :: l' => if key_lt (key y) (key x) then y :: insert_idx key x l' else x :: l end.
(** argsort(kind="stable") *)
Definition argsort (keys : list num) : list nat :=
  fold_right (insert_idx (fun i => nth i keys zero)) [] (seq 0 (length keys)).
(** newInd = zeros; newInd[ind] = arange(n) *)
Definition inverse_index (ind : list nat) : list nat :=
  fold_left (fun acc tp => set_nth acc (snd tp) (fst tp)) (combine (seq 0 (length ind)) ind) (repeat 0%nat (length ind)).
(** sort the values by the rounded key, smooth, and put every smoothed value back *)
Definition smooth_by (round9 : num -> num) (smoother : list num -> res (list num)) (keys vals : list num) : res (list num) :=
  let ind := argsort (map round9 keys) in
  let sorted := map (fun p => nth p vals zero) ind in
  do s <- smoother sorted;
  let newInd := inverse_index ind in
  Ok (map (fun p => nth (nth p newInd 0%nat) s zero) (seq 0 (length keys))).

(** ** The bank's balance sheet (mod_merton_computation.py l.272-316, mod_single_cohort_computation.py l.105-135).
    [LH] has one row per path and 3*szfs columns. *)
Definition np_minimum (a b : num) : num := if isnan a then a else if isnan b then b else if b <? a then b else a.
Definition np_maximum (a b : num) : num := if isnan a then a else if isnan b then b else if a <? b then b else a.
Definition payout_value (y H l : num) : num := l ⊗ nexp (nopp y ⊗ H).
Definition bank_debt (D y H l : num) : num := np_minimum D (payout_value y H l).          (* BH *)
Definition bank_equity_ex (D y H l : num) : num := payout_value y H l ⊖ bank_debt D y H l.   (* EHex *)
Definition bank_equity (D y H l : num) : num := l ⊖ bank_debt D y H l.                    (* EH *)
Definition guarantee (g D y H l : num) : num := g ⊗ np_maximum (D ⊖ payout_value y H l) zero.   (* GH *)
Definition default_flag (D y H l : num) : num := if zero <? bank_equity_ex D y H l then zero else one.
(** np.mean(M, axis=0) over the paths *)
Definition mean_axis0 (cols : nat) (M : list (list num)) : list num :=
  map (fun k => amean A (map (fun row => nth k row zero) M)) (seq 0 cols).
(** (dstep / 2) * (log(V[szfs:2*szfs]) - log(V[2*szfs:3*szfs])), dstep = 10 *)
Definition numeric_vol (szfs : nat) (V : list num) : list num :=
  map (fun k => ofZ 5 ⊗ (nlog (nth (szfs + k) V zero) ⊖ nlog (nth (2 * szfs + k) V zero))) (seq 0 szfs).
Record bank := mk_bank {
  b_Lt : list num; b_Bt : list num; b_Et : list num; b_Gt : list num;
  b_LH : list (list num); b_BH : list (list num); b_EH : list (list num);
  b_default : list (list num); b_mdef : list num; b_sigEt : list num; b_sigLt : list num }.
Definition settle (szfs : nat) (r H D y g : num) (LH : list (list num)) : bank :=
  let BH := map (map (bank_debt D y H)) LH in
  let EH := map (map (bank_equity D y H)) LH in
  let GH := map (map (guarantee g D y H)) LH in
  let default := map (map (default_flag D y H)) LH in
  let disc := nexp (nopp r ⊗ H) in
  let avg M := map (fun m => m ⊗ disc) (mean_axis0 (3 * szfs) M) in
  let Lt := avg LH in let Bt := avg BH in let Et := avg EH in let Gt := avg GH in
  let mdef := mean_axis0 (3 * szfs) default in
  mk_bank (firstn szfs Lt) (firstn szfs Bt) (firstn szfs Et) (firstn szfs Gt)
    (map (firstn szfs) LH) (map (firstn szfs) BH) (map (firstn szfs) EH)
    (map (firstn szfs) default) (firstn szfs mdef) (numeric_vol szfs Et) (numeric_vol szfs Lt).

(** ** Parameters: the list [r, T, bookF, H, D, rho, ltv, sig, d, y, g] (l.16-32); g = 0 when absent *)
Record param := mk_param { p_r : num; p_T : num; p_bookF : num; p_H : num; p_D : num; p_rho : num; p_ltv : num; p_sig : num; p_d : num; p_y : num; p_g : num }.
Definition read_param (l : list num) : res param :=
  match l with
  | r :: T :: bookF :: H :: D :: rho :: ltv :: sig :: d :: y :: rest =>
      Ok (mk_param r T bookF H D rho ltv sig d y (match rest with g :: _ => g | [] => zero end))
  | _ => Err IndexError
  end.
(** HN = H * (N / T), l.46-49; [as_int x] is Some z when x.is_integer() and int(x) = z *)
Definition horizon (as_int : num -> option Z) (N : nat) (p : param) : res Z :=
  if p_T p =? zero then Err ZeroDivisionError
  else match as_int (p_H p ⊗ (ofN N ⊘ p_T p)) with Some z => Ok z | None => Err AssertionError end.
(** accumulated life at t+H, l.78-79 (the reshape fails unless there are N entries) *)
Definition aHmat (N : nat) (HN : Z) : res (list num) :=
  let l := map (fun z => ofZ z ⊘ ofN N) (arange_down HN (-1) ++ arange_down (Z.of_nat N - 1) HN) in
  check (Nat.eqb (length l) N) ValueError (Ok l).
Definition atmat (N j : nat) : num := ofZ (Z.of_nat N - Z.of_nat j) ⊘ ofN N.                 (* l.82 *)
(** np.concatenate((zeros, np.cumsum(...)), axis=1) for one path, l.97-114 *)
Fixpoint cumsum_from (acc : num) (l : list num) : list num :=
  match l with [] => [] | x :: l' => (acc ⊕ x) :: cumsum_from (acc ⊕ x) l' end.
Definition np_cumsum (l : list num) : list num := match l with [] => [] | x :: l' => x :: cumsum_from x l' end.
Definition factor_path (p : param) (N : nat) (wrow : list num) : list num :=
  let dt := p_T p ⊘ ofN N in
  let sigf := nsqrt (p_rho p) ⊗ p_sig p in
  zero :: np_cumsum (map (fun w => (p_r p ⊖ p_d p ⊖ half ⊗ nsq (p_sig p)) ⊗ dt ⊕ sigf ⊗ nsqrt dt ⊗ w) wrow).
Definition removed_path (p : param) (N : nat) (wrow : list num) : list num :=
  let dt := p_T p ⊘ ofN N in
  let sigf := nsqrt (p_rho p) ⊗ p_sig p in
  zero :: np_cumsum (map (fun w => nopp half ⊗ p_rho p ⊗ nsq (p_sig p) ⊗ dt ⊕ sigf ⊗ nsqrt dt ⊗ w) wrow).

(** the factor realisations of one path that enter the valuation, l.131-135, 198-211: one entry per cohort *)
Record cohort_factors := mk_cf { c_f1 : num; c_f2 : num; c_ft : num; c_fH1 : num; c_fH2 : num }.
Definition cohort_of (p : param) (N HN : nat) (wrow : list num) (j : nat) : cohort_factors :=
  let f := factor_path p N wrow in
  let fw := removed_path p N wrow in
  let at_ l i := nth i l zero in
  let f0w := at_ fw N ⊖ at_ fw j in
  mk_cf (at_ f (N + j)%nat ⊖ f0w ⊖ at_ f j)
        (at_ f (2 * N + j)%nat ⊖ at_ f (N + j)%nat)
        (at_ f N ⊖ f0w ⊖ at_ f j)
        (at_ f (N + HN)%nat ⊖ f0w ⊖ at_ f j)
        (at_ f (N + HN)%nat ⊖ at_ f (N + j)%nat).

(** the cohort cell (i, j, k): everything l.137-239 computes before smoothing *)
Record cell := mk_cell { x_sc : num; x_FHr : num; x_Lr : num; x_face : num; x_Ft : num }.
Definition rolled (HN : Z) (j : nat) : bool := (Z.of_nat j <? HN)%Z.                          (* ind2; ind1 is its negation *)
Definition shock (p : param) (N szfs : nat) (fs : list num) (j k : nat) : num :=               (* fsa, l.141-151 *)
  let sigf := nsqrt (p_rho p) ⊗ p_sig p in
  let fsk := nth k (fs ++ fs ++ fs) zero in
  let bump := if Nat.ltb k szfs then zero else if Nat.ltb k (2 * szfs) then one else nopp one in
  fsk ⊗ sigf ⊗ nsqrt (p_T p) ⊗ atmat N j ⊕ sigf ⊘ ofZ 10 ⊗ bump.
Definition cohort_cell (p : param) (N : nat) (HN : Z) (ival mu F : num) (aH : num) (sh : num) (c : cohort_factors) (j : nat) : cell :=
  let L1 := loan_payoff F (c_f1 c ⊕ sh) ival (p_rho p) (p_sig p) (p_T p) in                    (* l.174 *)
  let ival2 := nlog (L1 ⊘ p_ltv p) in                                                          (* l.181 *)
  let F2 := L1 ⊗ nexp (mu ⊗ p_T p) in
  let L2 := loan_payoff F2 (c_f2 c) ival2 (p_rho p) (p_sig p) (p_T p) in
  let face1 := if rolled HN j then zero else one ⊗ F in                                          (* l.186 *)
  let face2 := if rolled HN j then F2 else zero in                                             (* l.185 *)
  let ft := c_ft c ⊕ sh ⊕ ival in
  let fH1j := c_fH1 c ⊕ sh ⊕ ival in
  let fH2j := c_fH2 c ⊕ ival2 in
  let jensen a := nexp (half ⊗ (one ⊖ p_rho p) ⊗ (p_T p ⊗ a) ⊗ nsq (p_sig p)) in
  let FH1j := nexp fH1j ⊗ jensen aH in
  let FH2j := nexp fH2j ⊗ jensen aH in
  let Ft := nexp ft ⊗ jensen (atmat N j) in                                                    (* l.222 *)
  let sc := if rolled HN j then L1 ⊘ p_bookF p else one in                                     (* l.230-231 *)
  let FHr1 := if rolled HN j then zero else FH1j in
  let FHr2 := if rolled HN j then FH2j ⊘ sc else zero in
  let Lr1 := if rolled HN j then zero else L1 in
  let Lr2 := if rolled HN j then L2 ⊘ sc else zero in
  let dt := p_T p ⊘ ofN N in
  let d1 := nexp (nopp (p_r p) ⊗ ofZ (Z.of_nat j - HN) ⊗ dt) in
  let d2 := nexp (nopp (p_r p) ⊗ ofZ (Z.of_nat j - HN + Z.of_nat N) ⊗ dt) in
  mk_cell sc (FHr1 ⊕ FHr2) (Lr1 ⊕ Lr2) (face1 ⊗ d1 ⊕ face2 ⊗ d2) Ft.
Record merton_result := mk_result { m_bank : bank; m_mFt : list num; m_face : list (list num); m_FH : list (list num); m_mu : num; m_F : num }.

(** all outputs from the factor realisations [cf] (one row of N entries per path), l.137-319.
    [solve f x0] is fsolve(f, x0)[0], l.160-165. *)
Definition value_bank (spectral : list num -> list num -> list num) (round9 : num -> num) (solve : (num -> num) -> num -> num)
    (p : param) (N : nat) (HN : Z) (fs : list num) (aH : list num) (cf : list (list cohort_factors)) : res merton_result :=
  let szfs := length fs in
  let Nsim1 := (3 * szfs)%nat in
  let Nsim2 := length cf in
  let n := (Nsim2 * Nsim1)%nat in
  let ival := nlog (p_bookF p) ⊖ nlog (p_ltv p) in
  let mu := solve (fun mu => find_face_value_indiv mu (p_bookF p ⊗ nexp (mu ⊗ p_T p)) ival (p_sig p) (p_T p) (p_r p) (p_d p))
                  (p_r p ⊕ lit 1 100) in
  let F := p_bookF p ⊗ nexp (mu ⊗ p_T p) in
  let dflt := mk_cf zero zero zero zero zero in
  let cellof i j k := cohort_cell p N HN ival mu F (nth j aH zero) (shock p N szfs fs j k) (nth j (nth i cf []) dflt) j in
  let column j := map (fun q => cellof (Nat.modulo q Nsim2) j (Nat.div q Nsim2)) (seq 0 n) in   (* order="F": q = i + Nsim2*k *)
  let win := Nat.div n 20 in                                                                    (* int(n / 20) *)
  do LHc <- mapM (fun j =>
        let cs := column j in
        do s <- smooth_by round9 (fun l => fftsmooth spectral l win) (map x_FHr cs) (map x_Lr cs);
        Ok (map2 (fun v c => v ⊗ x_sc c) s cs)) (seq 0 N);                                      (* l.242-253 *)
  let dt := p_T p ⊘ ofN N in
  let LHcell i j k := nth (i + Nsim2 * k) (nth j LHc []) zero in
  let disc1 j := nexp (nopp (p_r p) ⊗ ofZ (Z.of_nat j - HN) ⊗ dt) in
  let disc2 j := nexp (nopp (p_r p) ⊗ ofZ (Z.of_nat j - HN + Z.of_nat N) ⊗ dt) in
  let mean_cohorts f := amean A (map f (seq 0 N)) in
  let rows f := map (fun i => map (fun k => f i k) (seq 0 Nsim1)) (seq 0 Nsim2) in
  let LH := rows (fun i k => mean_cohorts (fun j =>
              (if rolled HN j then zero else LHcell i j k) ⊗ disc1 j ⊕ (if rolled HN j then LHcell i j k else zero) ⊗ disc2 j)) in  (* l.261-264 *)
  let FH := rows (fun i k => mean_cohorts (fun j => x_FHr (cellof i j k))) in
  let face := rows (fun i k => mean_cohorts (fun j => x_face (cellof i j k))) in
  let Ft := rows (fun i k => mean_cohorts (fun j => x_Ft (cellof i j k))) in
  Ok (mk_result (settle szfs (p_r p) (p_H p) (p_D p) (p_y p) (p_g p) LH)
        (firstn szfs (mean_axis0 Nsim1 Ft)) (map (firstn szfs) face) (map (firstn szfs) FH) mu F).
(** mod_merton_computation, l.10-319, with the shocks w given (one row of 3N entries per path); Nsim2 = number of rows.
    A horizon of -1 periods (negative H) passes the reshape in the code and is not modelled ([Z.to_nat]). *)
Definition mod_merton_computation (spectral : list num -> list num -> list num) (round9 : num -> num) (as_int : num -> option Z)
    (solve : (num -> num) -> num -> num) (fs : list num) (params : list num) (N : nat) (w : list (list num)) : res merton_result :=
  do p <- read_param params;
  do HN <- horizon as_int N p;
  do aH <- aHmat N HN;
  let cf := map (fun wrow => map (cohort_of p N (Z.to_nat HN) wrow) (seq 0 N)) w in
  value_bank spectral round9 solve p N HN fs aH cf.

(** ** mod_single_cohort_computation.py l.11-137: one cohort, no roll-over *)
Definition mod_single_cohort_computation (spectral : list num -> list num -> list num) (round9 : num -> num) (as_int : num -> option Z)
    (solve : (num -> num) -> num -> num) (fs : list num) (params : list num) (N : nat) (w : list (list num)) : res merton_result :=
  do p <- read_param params;
  do HN <- horizon as_int N p;
  let szfs := length fs in
  let Nsim1 := (3 * szfs)%nat in
  let Nsim2 := length w in
  let n := (Nsim2 * Nsim1)%nat in
  let ival := nlog (p_bookF p) ⊖ nlog (p_ltv p) in
  let sigf := nsqrt (p_rho p) ⊗ p_sig p in
  let paths := map (factor_path p N) w in
  do f1 <- mapM (fun f => py_index f (Z.of_nat N)) paths;                                       (* f[:, N] *)
  let sh k := nth k (fs ++ fs ++ fs) zero ⊗ sigf ⊗ nsqrt (p_T p)
              ⊕ sigf ⊘ ofZ 10 ⊗ (if Nat.ltb k szfs then zero else if Nat.ltb k (2 * szfs) then one else nopp one) in
  let mu := solve (fun mu => find_face_value_indiv mu (p_bookF p ⊗ nexp (mu ⊗ p_T p)) ival (p_sig p) (p_T p) (p_r p) (p_d p))
                  (p_r p ⊕ lit 1 100) in
  let F := p_bookF p ⊗ nexp (mu ⊗ p_T p) in
  do fH <- mapM (fun f => py_index f HN) paths;                                                 (* f[:, HN] *)
  let L1 i k := loan_payoff F (nth i f1 zero ⊕ sh k) ival (p_rho p) (p_sig p) (p_T p) in
  let FH1 i k := nexp (nth i fH zero ⊕ sh k ⊕ ival) ⊗ nexp (half ⊗ (one ⊖ p_rho p) ⊗ p_H p ⊗ nsq (p_sig p)) in
  let flat g := map (fun q => g (Nat.modulo q Nsim2) (Nat.div q Nsim2)) (seq 0 n) in
  do s <- smooth_by round9 (fun l => fftsmooth spectral l (Nat.div n 20)) (flat FH1) (flat L1);
  let rows g := map (fun i => map (fun k => g i k) (seq 0 Nsim1)) (seq 0 Nsim2) in
  let disc := nexp (nopp (p_r p) ⊗ (p_T p ⊖ p_H p)) in
  let LH := rows (fun i k => nth (i + Nsim2 * k) s zero ⊗ disc) in
  let face := rows (fun _ _ => one ⊗ F ⊗ disc) in
  let Ft := rows (fun _ k => nexp (sh k ⊕ ival)) in
  Ok (mk_result (settle szfs (p_r p) (p_H p) (p_D p) (p_y p) (p_g p) LH)
        (firstn szfs (mean_axis0 Nsim1 Ft)) (map (firstn szfs) face) (map (firstn szfs) (rows FH1)) mu F).

(** ** mod_single_cohort_solution.py, l.6-15: returns the caller's list after the call and the result.
    b[0] must be an array: a scalar has no shape[0]. *)
Inductive first_arg := Scalar (x : num) | Vector (l : list num).
Definition mod_single_cohort_solution (compute : list num -> list num -> res merton_result)
    (b0 : first_arg) (b1 : num) (params : list num) (E sigE : list num) : list num * res (list num * list num) :=
  if Nat.ltb 2 (length params) then
    let params' := set_nth params 2 b1 in
    (params',
     match b0 with
     | Scalar _ => do _ <- read_param params'; Err IndexError          (* np.float64: shape is () *)
     | Vector fs => do m <- compute fs params'; Ok (map2 nsub E (b_Et (m_bank m)), map2 nsub sigE (b_sigEt (m_bank m)))
     end)
  else (params, Err IndexError).

(** ** create_lookup (both versions), l.8-43: one computation per grid point (j, k, q) with common shocks *)
Record lookup_entry := { l_Lt : list num; l_Bt : list num; l_Et : list num; l_Ft : list num; l_mdef : list num; l_sigEt : list num }.
Definition lookup_params (d y T H bookD rho ltv xr xF xsig : num) : list num :=
  [xr; T; xF; H; bookD ⊗ nexp (xr ⊗ H); rho; ltv; xsig; d; y].
Definition create_lookup (compute : list num -> list num -> res merton_result) (fs : list num) (d y T H bookD rho ltv : num)
    (J K Q : nat) (xr xF xsig : nat -> nat -> nat -> num) : res (list (list (list lookup_entry))) :=
  mapM (fun j => mapM (fun k => mapM (fun q =>
    do m <- compute fs (lookup_params d y T H bookD rho ltv (xr j k q) (xF j k q) (xsig j k q));
    let b := m_bank m in
    Ok {| l_Lt := b_Lt b; l_Bt := b_Bt b; l_Et := b_Et b; l_Ft := m_mFt m; l_mdef := b_mdef b; l_sigEt := b_sigEt b |})
    (seq 0 Q)) (seq 0 K)) (seq 0 J).
End Merton.
