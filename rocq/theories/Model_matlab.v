(** * The MATLAB programs the Python code is translated from (src/frds/measures/modified_merton/matlab/)

    fftsmooth.m, LoanPayoff.m, FindFaceValueIndiv.m, MertonSolution.m, ModMertonComputation.m, ModSingleCohortComputation.m,
    ModSingleCohortSolution.m, ModMertonCreateLookup.m and ModSingleMertonCreateLookup.m.  Indices start at 1 and an index
    outside 1..length is an error; every MATLAB error is [Err RuntimeError].  Counts and indices are integers held in doubles:
    arithmetic on them is exact and is done in Z.  As in Model_merton.v arrays of shape (Nsim2, N, Nsim1) are treated cell by
    cell, and fsolve ([solve]), ifft(fft.*fft) ([spectral]), round(.,9) ([round9]) and sums are those the Python model uses.
    MATLAB's implicit expansion is not modelled where it would need a single cohort (N = 1): the theorems assume N >= 2. *)
From Coq Require Import ZArith List Bool Arith.
From Verif Require Import Arith Model_option Model_merton.
Import ListNotations.
Local Open Scope num_scope.

(** x(i) *)
Definition idx1 {X} (l : list X) (i : Z) : res X :=
  if (i <? 1)%Z then Err RuntimeError else match nth_error l (Z.to_nat (i - 1)) with Some x => Ok x | None => Err RuntimeError end.
(** x(i) = v for i within the vector *)
Definition set1 {X} (l : list X) (i : Z) (v : X) : list X := set_nth l (Z.to_nat (i - 1)) v.
(** a:b and a:-1:b *)
Definition colon (a b : Z) : list Z := map (fun t => (a + Z.of_nat t)%Z) (seq 0 (Z.to_nat (b - a + 1))).
Definition colon_down (a b : Z) : list Z := map (fun t => (a - Z.of_nat t)%Z) (seq 0 (Z.to_nat (a - b + 1))).

Section Matlab.
Context (A : Arith).
Notation num := (num A).
Notation zero := (@ofZ A 0).
Notation one := (@ofZ A 1).
Notation half := (@lit A 5 10).
Notation ofN := (ofN A).

(** fftsmooth.m l.1-23.  The window is the fraction [wn/wd]: ones(w,1) and zeros(n-w/2,1) are errors unless w/2 is an integer;
    for w/2 > n the two factors of Fx .* Fk have different lengths.  There is no check that n is even. *)
Definition m_fftsmooth (spectral : list num -> list num -> list num) (x : list num) (wn wd : nat) : res (list num) :=
  let n := Z.of_nat (length x) in
  check (Nat.eqb (Nat.modulo wn (2 * wd)) 0) RuntimeError (
  let half_w := Nat.div wn (2 * wd) in
  let h := Z.of_nat half_w in
  let w := (2 * half_w)%nat in
  check (h <=? n)%Z RuntimeError (
  let xpad := repeat zero (length x) ++ x in                                                       (* l.10 *)
  let k := repeat zero (length x - half_w) ++ repeat (one ⊘ ofN w) w ++ repeat zero (length x - half_w) in  (* l.11 *)
  let xk := spectral xpad k in                                                                     (* l.12-15 *)
  do a2 <- idx1 xk (h + 2);
  do a1 <- idx1 xk (h + 1);
  let dl := a2 ⊖ a1 in                                                                             (* l.18 *)
  let lex := map (fun t => a1 ⊖ ofZ t ⊗ dl) (colon_down h 1) in                                    (* l.19 *)
  do b1 <- idx1 xk (n - h);
  do b0 <- idx1 xk (n - h - 1);
  let ul := b1 ⊖ b0 in                                                                             (* l.20 *)
  let uex := map (fun t => b1 ⊕ ofZ t ⊗ ul) (colon 1 h) in                                         (* l.21 *)
  do mid <- mapM (idx1 xk) (colon (h + 1) (n - h));
  Ok (lex ++ mid ++ uex))).                                                                        (* l.23 *)

(** LoanPayoff.m l.11-14 *)
Definition m_loan_payoff (F f ival rho sig T : num) : num :=
  let EA := nexp (f ⊕ ival ⊕ half ⊗ (one ⊖ rho) ⊗ T ⊗ nsq sig) in
  let s := sig ⊗ nsqrt T ⊗ nsqrt (one ⊖ rho) in
  let a := (nlog F ⊖ f ⊖ ival) ⊘ s in
  EA ⊗ (one ⊖ ncdf (s ⊖ a)) ⊕ ncdf (nopp a) ⊗ F.

(** FindFaceValueIndiv.m l.1-8: three results, of which fsolve uses the first *)
Definition m_find_face_value (mu F ival sig T r d : num) : num * num * num :=
  let P := snd (blsprice A (nexp ival) F r T sig d) in
  let L := F ⊗ nexp (nopp r ⊗ T) ⊖ P in
  let newmu := (one ⊘ T) ⊗ nlog (F ⊘ L) in
  (mu ⊖ newmu, newmu, L).

(** MertonSolution.m l.1-31: the penalty multiplies the squares of the ORIGINAL b(2) and b(1) *)
Definition m_merton_solution (b1 b2 E D r d T sigE : num) : num * num :=
  let '(sig, esig) := if b2 <? zero then (zero, ofZ 9999999) else (b2, zero) in
  let '(As, eA) := if b1 <? zero then (zero, ofZ 9999999) else (b1, zero) in
  let C := fst (blsprice A As D r T sig d) in
  let PVd := As ⊗ (one ⊖ nexp (nopp d ⊗ T)) in
  let C := C ⊕ PVd in
  let d1 := (nlog As ⊖ nlog D ⊕ (r ⊖ d ⊕ nsq sig ⊘ ofZ 2) ⊗ T) ⊘ (sig ⊗ nsqrt T) in
  let v := (nexp (nopp d ⊗ T) ⊗ ncdf d1 ⊕ (one ⊖ nexp (nopp d ⊗ T))) ⊗ (As ⊘ E) ⊗ sig in
  let pen e := e ⊕ esig ⊗ nsq b2 ⊕ eA ⊗ nsq b1 in                                                  (* l.31 *)
  (pen (E ⊖ C), pen (sigE ⊖ v)).

(** ModMertonComputation.m l.192-207, ModSingleCohortComputation.m l.84-95: sort (stable, NaN last), smooth with window n/20,
    undo the permutation.  [argsort] is 0-based, MATLAB's [ind] is 1-based. *)
Definition m_smooth (spectral : list num -> list num -> list num) (keys vals : list num) : res (list num) :=
  let n := length keys in
  let ind := map (fun q => Z.of_nat q + 1)%Z (argsort A keys) in                                   (* [sortF, ind] = sort(.) *)
  do sortL <- mapM (idx1 vals) ind;
  do LHs <- m_fftsmooth spectral sortL n 20;
  let newInd := fold_left (fun acc tq => set1 acc (snd tq) (fst tq)) (combine (colon 1 (Z.of_nat n)) ind) (repeat 0%Z n) in
  mapM (idx1 LHs) newInd.

(** min and max ignore NaN *)
Definition m_min (a b : num) : num := if isnan a then b else if isnan b then a else if b <? a then b else a.
Definition m_max (a b : num) : num := if isnan a then b else if isnan b then a else if a <? b then b else a.
(** ModMertonComputation.m l.217-252, ModSingleCohortComputation.m l.101-133; [LH] is Nsim2 x 3*szfs.
    For Nsim2 = 1 mean(LH) averages the single row to a scalar and Et(szfs+1:2*szfs,1) is an error. *)
Definition m_settle (szfs : nat) (r H D y g : num) (LH : list (list num)) : bank A :=
  let pay l := l ⊗ nexp (nopp y ⊗ H) in
  let debt l := m_min D (pay l) in
  let BH := map (map debt) LH in
  let EH := map (map (fun l => l ⊖ debt l)) LH in
  let GH := map (map (fun l => g ⊗ m_max (D ⊖ pay l) zero)) LH in
  let def := map (map (fun l => if zero <? (pay l ⊖ debt l) then zero else one)) LH in
  let disc := nexp (nopp r ⊗ H) in
  let mean M := mean_axis0 A (3 * szfs) M in
  let avg M := map (fun m => m ⊗ disc) (mean M) in
  let Lt := avg LH in let Bt := avg BH in let Et := avg EH in let Gt := avg GH in
  let mdef := mean def in
  let vol V := map (fun k => ofZ 5 ⊗ (nlog (nth (szfs + k) V zero) ⊖ nlog (nth (2 * szfs + k) V zero))) (seq 0 szfs) in
  mk_bank A (firstn szfs Lt) (firstn szfs Bt) (firstn szfs Et) (firstn szfs Gt) (map (firstn szfs) LH) (map (firstn szfs) BH) (map (firstn szfs) EH)
    (map (firstn szfs) def) (firstn szfs mdef) (vol Et) (vol Lt).

(** l.4-24 of both computations: g is read from a parameter vector with more than ten ROWS *)
Definition m_read_param (column : bool) (l : list num) : res (param A) :=
  do r <- idx1 l 1; do T <- idx1 l 2; do bookF <- idx1 l 3; do H <- idx1 l 4; do D <- idx1 l 5; do rho <- idx1 l 6; do ltv <- idx1 l 7;
  do sig <- idx1 l 8; do d <- idx1 l 9; do y <- idx1 l 10;
  do g <- (if column && Nat.ltb 10 (length l) then idx1 l 11 else Ok zero);
  Ok (mk_param A r T bookF H D rho ltv sig d y g).

(** f and fw, l.74 and 79: one path *)
Fixpoint m_cumsum_from (acc : num) (l : list num) : list num :=
  match l with [] => [] | x :: l' => (acc ⊕ x) :: m_cumsum_from (acc ⊕ x) l' end.
Definition m_cumsum (l : list num) : list num := match l with [] => [] | x :: l' => x :: m_cumsum_from x l' end.
Definition m_f (p : param A) (N : nat) (wrow : list num) : list num :=
  let sigf := nsqrt (p_rho A p) ⊗ p_sig A p in let dt := p_T A p ⊘ ofN N in
  zero :: m_cumsum (map (fun x => (p_r A p ⊖ p_d A p ⊖ half ⊗ nsq (p_sig A p)) ⊗ dt ⊕ sigf ⊗ nsqrt dt ⊗ x) wrow).
Definition m_fw (p : param A) (N : nat) (wrow : list num) : list num :=
  let sigf := nsqrt (p_rho A p) ⊗ p_sig A p in let dt := p_T A p ⊘ ofN N in
  zero :: m_cumsum (map (fun x => nopp half ⊗ p_rho A p ⊗ nsq (p_sig A p) ⊗ dt ⊕ sigf ⊗ nsqrt dt ⊗ x) wrow).

(** ModMertonComputation.m l.91-95, 148-153: the factor realisations of one path for cohort j = 1..N *)
Definition m_cohort (p : param A) (N : nat) (HN : Z) (wrow : list num) (j : Z) : res (cohort_factors A) :=
  let f := m_f p N wrow in let fw := m_fw p N wrow in let n := Z.of_nat N in
  do f_N1 <- idx1 f (n + 1);
  do fw_N1 <- idx1 fw (n + 1);
  do fw_j <- idx1 fw j;
  do f_j <- idx1 f j;
  do f_Nj <- idx1 f (n + j);
  do f_2Nj <- idx1 f (2 * n + j);
  do f_NH <- idx1 f (n + 1 + HN);
  let f0w := fw_N1 ⊖ fw_j in
  Ok (mk_cf A (f_Nj ⊖ f0w ⊖ f_j) (f_2Nj ⊖ f_Nj) (f_N1 ⊖ f0w ⊖ f_j) (f_NH ⊖ f0w ⊖ f_j) (f_NH ⊖ f_Nj)).

(** l.97-108: the shock of cohort j at factor value k = 1..Nsim1; [fs3] = [fs; fs; fs] *)
Definition m_shock (p : param A) (N szfs : nat) (fs3 : list num) (j : Z) (k : nat) : num :=
  let sigf := nsqrt (p_rho A p) ⊗ p_sig A p in
  let df := sigf ⊘ ofZ 10 in
  let atmat := ofZ (Z.of_nat N - (j - 1)) ⊘ ofN N in                                               (* l.58 *)
  nth (k - 1) fs3 zero ⊗ sigf ⊗ nsqrt (p_T A p) ⊗ atmat ⊕ df ⊗ nth (k - 1) (repeat zero szfs ++ repeat one szfs ++ repeat (nopp one) szfs) zero.

(** l.126-190 and 215: everything computed for the cell (i, j, k) before smoothing *)
Definition m_cell (p : param A) (N : nat) (HN : Z) (ival mu F aHmat fsa : num) (c : cohort_factors A) (j : Z) : cell A :=
  let rmat := (j - 1)%Z in                                                                         (* l.47 *)
  let ind1 := (HN <=? rmat)%Z in let ind2 := (rmat <? HN)%Z in
  let atmat := ofZ (Z.of_nat N - rmat) ⊘ ofN N in
  let T := p_T A p in let rho := p_rho A p in let sig := p_sig A p in
  let f1j := c_f1 A c ⊕ fsa in
  let f2j := c_f2 A c in
  let L1 := m_loan_payoff F f1j ival rho sig T in
  let face1 := one ⊗ F in
  let ival2 := nlog (L1 ⊘ p_ltv A p) in
  let F2 := L1 ⊗ nexp (mu ⊗ T) in
  let L2 := m_loan_payoff F2 f2j ival2 rho sig T in
  let face2 := F2 in
  let face2 := if ind1 then zero else face2 in
  let face1 := if ind2 then zero else face1 in
  let ft := c_ft A c ⊕ fsa ⊕ ival in
  let fH1j := c_fH1 A c ⊕ fsa ⊕ ival in
  let fH2j := c_fH2 A c ⊕ ival2 in
  let FH1j := nexp fH1j ⊗ nexp (half ⊗ (one ⊖ rho) ⊗ (T ⊗ aHmat) ⊗ nsq sig) in
  let FH2j := nexp fH2j ⊗ nexp (half ⊗ (one ⊖ rho) ⊗ (T ⊗ aHmat) ⊗ nsq sig) in
  let Ft := nexp ft ⊗ nexp (half ⊗ (one ⊖ rho) ⊗ (T ⊗ atmat) ⊗ nsq sig) in
  let sc := L1 ⊘ p_bookF A p in
  let sc := if ind1 then one else sc in
  let FHr1 := FH1j in
  let FHr1 := if ind2 then zero else FHr1 in
  let FHr2 := FH2j ⊘ sc in
  let FHr2 := if ind1 then zero else FHr2 in
  let Lr1 := L1 in
  let Lr1 := if ind2 then zero else Lr1 in
  let Lr2 := L2 ⊘ sc in
  let Lr2 := if ind1 then zero else Lr2 in
  let disc1 := nexp (nopp (p_r A p) ⊗ ofZ (rmat - HN) ⊗ (T ⊘ ofN N)) in
  let disc2 := nexp (nopp (p_r A p) ⊗ ofZ (rmat - HN + Z.of_nat N) ⊗ (T ⊘ ofN N)) in
  mk_cell A sc (FHr1 ⊕ FHr2) (Lr1 ⊕ Lr2) (face1 ⊗ disc1 ⊕ face2 ⊗ disc2) Ft.

(** rows i = 1..Nsim2, columns k = 1..Nsim1 of a matrix *)
Definition m_rows (Nsim2 Nsim1 : nat) (g : nat -> nat -> num) : list (list num) := map (fun i => map (g i) (seq 1 Nsim1)) (seq 1 Nsim2).

(** ModMertonComputation.m l.97-255 from the factor realisations on *)
Definition m_value (spectral : list num -> list num -> list num) (round9 : num -> num) (solve : (num -> num) -> num -> num)
    (p : param A) (N Nsim2 : nat) (HN : Z) (fs : list num) (aH : list num) (cf : list (list (cohort_factors A))) : res (merton_result A) :=
  let szfs := length fs in
  let fs3 := fs ++ fs ++ fs in
  let Nsim1 := length fs3 in
  let n := (Nsim2 * Nsim1)%nat in
  let T := p_T A p in let r := p_r A p in
  let ival := nlog (p_bookF A p) ⊖ nlog (p_ltv A p) in
  let mu := solve (fun mu => fst (fst (m_find_face_value mu (p_bookF A p ⊗ nexp (mu ⊗ T)) ival (p_sig A p) T r (p_d A p)))) (r ⊕ lit 1 100) in
  let F := p_bookF A p ⊗ nexp (mu ⊗ T) in
  let at_ i j k := m_cell p N HN ival mu F (nth (j - 1) aH zero) (m_shock p N szfs fs3 (Z.of_nat j) k)
                     (nth (j - 1) (nth (i - 1) cf []) (mk_cf A zero zero zero zero zero)) (Z.of_nat j) in
  (* reshape(M(:,j,:), Nsim2*Nsim1, 1): element q is (i, k) with q = i + (k-1)*Nsim2 *)
  let column j := map (fun q => at_ (Nat.modulo (q - 1) Nsim2 + 1)%nat j (Nat.div (q - 1) Nsim2 + 1)%nat) (seq 1 n) in
  do LHj <- mapM (fun j =>
        do s <- m_smooth spectral (map (fun c => round9 (x_FHr A c)) (column j)) (map (x_Lr A) (column j));
        Ok (map2 (fun v c => v ⊗ x_sc A c) s (column j))) (seq 1 N);
  let LHat i j k := nth (i + (k - 1) * Nsim2 - 1) (nth (j - 1) LHj []) zero in
  let disc1 j := nexp (nopp r ⊗ ofZ (Z.of_nat j - 1 - HN) ⊗ (T ⊘ ofN N)) in
  let disc2 j := nexp (nopp r ⊗ ofZ (Z.of_nat j - 1 - HN + Z.of_nat N) ⊗ (T ⊘ ofN N)) in
  let mean2 g := amean A (map g (seq 1 N)) in
  let LH := m_rows Nsim2 Nsim1 (fun i k => mean2 (fun j =>
              (if (Z.of_nat j - 1 <? HN)%Z then zero else LHat i j k) ⊗ disc1 j ⊕ (if (HN <=? Z.of_nat j - 1)%Z then zero else LHat i j k) ⊗ disc2 j)) in
  let FH := m_rows Nsim2 Nsim1 (fun i k => mean2 (fun j => x_FHr A (at_ i j k))) in
  let face := m_rows Nsim2 Nsim1 (fun i k => mean2 (fun j => x_face A (at_ i j k))) in
  let Ft := m_rows Nsim2 Nsim1 (fun i k => mean2 (fun j => x_Ft A (at_ i j k))) in
  check (Nat.leb 2 Nsim2) RuntimeError (
  Ok (mk_result A (m_settle szfs r (p_H A p) (p_D A p) (p_y A p) (p_g A p) LH)
        (firstn szfs (mean_axis0 A Nsim1 Ft)) (map (firstn szfs) face) (map (firstn szfs) FH) mu F)).

(** ModMertonComputation.m l.1-255 with the shocks [w] given.  [as_int x] is Some z when the double x is the integer z: any other
    horizon is not a valid index in f(:,N+1+HN).  Unless [HN:-1:0 N-1:-1:HN+1] has N entries the array sizes do not match (N >= 2). *)
Definition m_mod_merton_computation (spectral : list num -> list num -> list num) (round9 : num -> num) (as_int : num -> option Z)
    (solve : (num -> num) -> num -> num) (fs : list num) (column : bool) (params : list num) (N Nsim2 : nat) (w : list (list num)) : res (merton_result A) :=
  do p <- m_read_param column params;
  match as_int (p_H A p ⊗ (ofN N ⊘ p_T A p)) with
  | None => Err RuntimeError
  | Some HN =>
    let aH := map (fun z => ofZ z ⊘ ofN N) (colon_down HN 0 ++ colon_down (Z.of_nat N - 1) (HN + 1)) in
    check (Nat.eqb (length aH) N) RuntimeError (
    check (Nat.eqb (length w) Nsim2) RuntimeError (                                                (* [zeros(Nsim2,1) cumsum(.)] *)
    do cf <- mapM (fun wrow => mapM (m_cohort p N HN wrow) (colon 1 (Z.of_nat N))) w;
    m_value spectral round9 solve p N Nsim2 HN fs aH cf))
  end.

(** ModSingleCohortComputation.m l.1-136 with the shocks given: the sort keys are not rounded *)
Definition m_single_cohort (spectral : list num -> list num -> list num) (as_int : num -> option Z)
    (solve : (num -> num) -> num -> num) (fs : list num) (column : bool) (params : list num) (N Nsim2 : nat) (w : list (list num)) : res (merton_result A) :=
  do p <- m_read_param column params;
  let T := p_T A p in let r := p_r A p in let H := p_H A p in let rho := p_rho A p in let sig := p_sig A p in
  let ival := nlog (p_bookF A p) ⊖ nlog (p_ltv A p) in
  let sigf := nsqrt rho ⊗ sig in
  let szfs := length fs in
  let fs3 := fs ++ fs ++ fs in
  let Nsim1 := length fs3 in
  let n := (Nsim2 * Nsim1)%nat in
  check (Nat.eqb (length w) Nsim2) RuntimeError (
  do f1 <- mapM (fun wrow => idx1 (m_f p N wrow) (Z.of_nat N + 1)) w;                              (* l.49 *)
  let fsa k := nth (k - 1) fs3 zero ⊗ sigf ⊗ nsqrt T ⊕ sigf ⊘ ofZ 10 ⊗ nth (k - 1) (repeat zero szfs ++ repeat one szfs ++ repeat (nopp one) szfs) zero in
  let mu := solve (fun mu => fst (fst (m_find_face_value mu (p_bookF A p ⊗ nexp (mu ⊗ T)) ival sig T r (p_d A p)))) (r ⊕ lit 1 100) in
  let F := p_bookF A p ⊗ nexp (mu ⊗ T) in
  let L1 i k := m_loan_payoff F (nth (i - 1) f1 zero ⊕ fsa k) ival rho sig T in
  do fH1 <- (match as_int (H ⊗ (ofN N ⊘ T)) with
             | None => Err RuntimeError
             | Some HN => mapM (fun wrow => idx1 (m_f p N wrow) (1 + HN)) w end);                   (* l.75 *)
  let FH1j i k := nexp (nth (i - 1) fH1 zero ⊕ fsa k ⊕ ival) ⊗ nexp (half ⊗ (one ⊖ rho) ⊗ H ⊗ nsq sig) in
  let flat g := map (fun q => g (Nat.modulo (q - 1) Nsim2 + 1)%nat (Nat.div (q - 1) Nsim2 + 1)%nat) (seq 1 n) in
  do s <- m_smooth spectral (flat FH1j) (flat L1);
  let disc := nexp (nopp r ⊗ (T ⊖ H)) in
  let LH := m_rows Nsim2 Nsim1 (fun i k => nth (i + (k - 1) * Nsim2 - 1) s zero ⊗ disc) in
  let face := m_rows Nsim2 Nsim1 (fun _ _ => one ⊗ F ⊗ disc) in
  let Ft := m_rows Nsim2 Nsim1 (fun _ k => nexp (fsa k ⊕ ival)) in
  check (Nat.leb 2 Nsim2) RuntimeError (
  Ok (mk_result A (m_settle szfs r H (p_D A p) (p_y A p) (p_g A p) LH)
        (firstn szfs (mean_axis0 A Nsim1 Ft)) (map (firstn szfs) face) (map (firstn szfs) (m_rows Nsim2 Nsim1 FH1j)) mu F))).

(** ModSingleCohortSolution.m l.1-26: b(1) is the scalar shock, param(3) = b(2) is assigned in the function's own copy *)
Definition m_single_solution (compute : list num -> list num -> res (merton_result A)) (b1 b2 : num) (params : list num) (E sigE : num) : res (list num * list num) :=
  check (Nat.ltb 2 (length params)) RuntimeError (
  do m <- compute [b1] (set1 params 3 b2);
  Ok (map (nsub E) (b_Et A (m_bank A m)), map (nsub sigE) (b_sigEt A (m_bank A m)))).

(** ModMertonCreateLookup.m / ModSingleMertonCreateLookup.m l.13-46: grids indexed (1, j, k, q) *)
Definition m_create_lookup (compute : list num -> list num -> res (merton_result A)) (fs : list num) (d y T H bookD rho ltv : num)
    (J K Q : nat) (xr xF xsig : nat -> nat -> nat -> num) : res (list (list (list (lookup_entry A)))) :=
  mapM (fun j => mapM (fun k => mapM (fun q =>
    do m <- compute fs [xr j k q; T; xF j k q; H; bookD ⊗ nexp (xr j k q ⊗ H); rho; ltv; xsig j k q; d; y];
    let b := m_bank A m in
    Ok {| l_Lt := b_Lt A b; l_Bt := b_Bt A b; l_Et := b_Et A b; l_Ft := m_mFt A m; l_mdef := b_mdef A b; l_sigEt := b_sigEt A b |})
    (seq 1 Q)) (seq 1 K)) (seq 1 J).

(** default shocks: ModMertonComputation.m l.26-36 norminv(rand(Nsim2, 3*N)); rand fills the matrix column by column from the
    stream [u] of the generator.  mod_merton_computation.py l.39: norm.ppf(rng.rand(3*N, Nsim2).T); numpy fills row by row. *)
Definition m_default_shocks (invcdf : num -> num) (u : nat -> num) (Nsim2 N : nat) : list (list num) :=
  map (fun i => map (fun t => invcdf (u ((i - 1) + (t - 1) * Nsim2)%nat)) (seq 1 (3 * N))) (seq 1 Nsim2).
Definition np_rand (u : nat -> num) (rows cols : nat) : list (list num) := map (fun a => map (fun b => u (a * cols + b)%nat) (seq 0 cols)) (seq 0 rows).
Definition transpose (rows cols : nat) (M : list (list num)) : list (list num) := map (fun i => map (fun t => nth i (nth t M []) zero) (seq 0 rows)) (seq 0 cols).
Definition py_default_shocks (invcdf : num -> num) (u : nat -> num) (Nsim2 N : nat) : list (list num) :=
  map (map invcdf) (transpose (3 * N) Nsim2 (np_rand u (3 * N) Nsim2)).
End Matlab.
