(** * mod_merton_computation.py line by line on numpy arrays

    Model_merton.v computes one cell at a time; here every statement of l.10-356 is an operation on whole arrays, with
    numpy's shape rules.  The shocks [w] are an arbitrary matrix.  The functions fftsmooth, loan_payoff and
    find_face_value_indiv, the root finder and rounding are those of Model_merton.v. *)
From Coq Require Import ZArith List Bool Arith.
From Verif Require Import Arith Model_option Model_merton Model_ndarray.
Import ListNotations.

Section Arrays.
Context (A : Arith).
Notation num := (num A).
Notation zero := (@ofZ A 0).
Notation one := (@ofZ A 1).
Notation half := (@lit A 5 10).
Local Open Scope num_scope.

(** np.cumsum(a, axis=1) of a matrix *)
Definition cumsum1 (a : nd num) : nd num :=
  mkNd (shape a) (fun idx => nth (nth 1 idx 0%nat) (np_cumsum A (map (fun t => get a [nth 0 idx 0%nat; t]) (seq 0 (nth 1 (shape a) 0%nat)))) zero).
(** np.mean(a, axis=1) of a 3-d array and np.mean(a, axis=0) of a matrix *)
Definition mean1 (a : nd num) : nd num :=
  mkNd [nth 0 (shape a) 0%nat; nth 2 (shape a) 0%nat] (fun idx => amean A (map (fun j => get a [nth 0 idx 0%nat; j; nth 1 idx 0%nat]) (seq 0 (nth 1 (shape a) 0%nat)))).
Definition mean0 (a : nd num) : nd num :=
  mkNd [nth 1 (shape a) 0%nat] (fun idx => amean A (map (fun i => get a [i; nth 0 idx 0%nat]) (seq 0 (nth 0 (shape a) 0%nat)))).
(** v[lo:hi] of a vector *)
Definition slice (a : nd num) (lo hi : nat) : nd num :=
  let n := nth 0 (shape a) 0%nat in
  mkNd [Nat.min hi n - Nat.min lo n]%nat (fun idx => get a [lo + nth 0 idx 0%nat]%nat).

(** loan_payoff.py l.22-30 on arrays: F and ival scalars (first generation) or arrays (second) *)
Definition loan_payoff_scalar (F : num) (f : nd num) (ival rho sig T : num) : nd num := amap (fun x => loan_payoff A F x ival rho sig T) f.
Definition loan_payoff_array (F f ival : nd num) (rho sig T : num) : res (nd num) :=
  do fi <- zip nadd f ival;
  let EA := amap (fun x => nexp (x ⊕ half ⊗ (one ⊖ rho) ⊗ T ⊗ nsq sig)) fi in
  let s := sig ⊗ nsqrt T ⊗ nsqrt (one ⊖ rho) in
  do lf <- zip nsub (amap nlog F) f;
  do lfi <- zip nsub lf ival;
  let a := amap (fun x => x ⊘ s) lfi in
  do p <- zip nmul EA (amap (fun x => one ⊖ ncdf (s ⊖ x)) a);
  do q <- zip nmul (amap (fun x => ncdf (nopp x)) a) F;
  zip nadd p q.

Record outputs := mk_out {
  o_Lt : nd num; o_Bt : nd num; o_Et : nd num; o_LH : nd num; o_BH : nd num; o_EH : nd num; o_sigEt : nd num; o_mFt : nd num;
  o_default : nd num; o_mdef : nd num; o_face : nd num; o_FH : nd num; o_Gt : nd num; o_mu : num; o_F : num; o_sigLt : nd num }.

(** l.272-319 (also mod_single_cohort_computation.py l.105-137): the bank's balance sheet from LH, FH, face and Ft *)
Definition settle_arrays (r H D y g mu F : num) (szfs : nat) (LH FH face Ft : nd num) : res outputs :=
  let LHy := amap (fun x => x ⊗ nexp (nopp y ⊗ H)) LH in
  let BH := amap (fun x => np_minimum A D x) LHy in
  do EHex <- zip nsub LHy BH;
  do EH <- zip nsub LH BH;
  let GH := amap (fun x => g ⊗ np_maximum A (D ⊖ x) zero) LHy in
  let tmp := nexp (nopp r ⊗ H) in
  let avg M := amap (fun m => m ⊗ tmp) (mean0 M) in
  let Lt := avg LH in let Bt := avg BH in let Et := avg EH in let Gt := avg GH in
  let mFt := mean0 Ft in
  do default <- mask_set (full (shape EHex) one) (amap (fun x => zero <? x) EHex) zero;
  let mdef := mean0 default in
  let vol V := do v <- zip nsub (amap nlog (slice V szfs (2 * szfs))) (amap nlog (slice V (2 * szfs) (3 * szfs))); Ok (amap (fun x => ofZ 5 ⊗ x) v) in
  do sigEt <- vol Et;
  do sigLt <- vol Lt;
  let cut M := columns M 0 szfs in
  Ok (mk_out (slice Lt 0 szfs) (slice Bt 0 szfs) (slice Et 0 szfs) (cut LH) (cut BH) (cut EH) sigEt (slice mFt 0 szfs)
        (cut default) (slice mdef 0 szfs) (cut face) (cut FH) (slice Gt 0 szfs) mu F sigLt).

(** l.241-250: sort one cohort by its rounded asset values, smooth, put back; [FHr] and [Lr] are (Nsim2*Nsim1, 1) *)
Definition smooth_cohort (spectral : list num -> list num -> list num) (round9 : num -> num) (FHr Lr : nd num) (n win : nat) : res (nd num) :=
  let keys := flat FHr in
  let ind := argsort A (map round9 keys) in
  let sortL := map (fun q => get Lr [q; 0]%nat) ind in                                       (* Lr[ind].flatten() *)
  do LHs <- fftsmooth A spectral sortL win;
  let newInd := inverse_index ind in
  Ok (vec zero (map (fun q => nth (nth q newInd 0%nat) LHs zero) (seq 0 n))).                (* LHs[newInd] *)

(** l.137-319, from the factor realisations on; [fs] is already tripled, [f] has the accumulated factor shocks *)
Definition value_arrays (spectral : list num -> list num -> list num) (round9 : num -> num) (solve : (num -> num) -> num -> num)
    (p : param A) (N Nsim2 : nat) (HN : Z) (szfs : nat) (fs : nd num) (rmat : nd Z) (aHmat atmat f f0w f1 f2 : nd num) : res outputs :=
  let r := p_r A p in let T := p_T A p in let bookF := p_bookF A p in let H := p_H A p in let D := p_D A p in
  let rho := p_rho A p in let ltv := p_ltv A p in let sig := p_sig A p in let d := p_d A p in let y := p_y A p in let g := p_g A p in
  let ival := nlog bookF ⊖ nlog ltv in
  let sigf := nsqrt rho ⊗ sig in
  let dt := T ⊘ ofN A N in
  let Nsim1 := nth 0 (shape fs) 0%nat in
  let ind1 := amap (fun z => (HN <=? z)%Z) rmat in                                            (* l.74-75 *)
  let ind2 := amap (fun z => (z <? HN)%Z) rmat in
  do fsa <- reshape (amap (fun x => x ⊗ sigf ⊗ nsqrt T) fs) [1; 1; Nsim1]%nat;                (* l.141 *)
  let df := sigf ⊘ ofZ 10 in
  do bumps <- concat3 2 (full [Nsim2; N; szfs] zero) (full [Nsim2; N; szfs] one) (full [Nsim2; N; szfs] (nopp one));
  do t2 <- zip nmul (repeat1 fsa N) atmat;
  do fsa <- zip nadd t2 (amap (fun x => df ⊗ x) bumps);                                       (* l.144-151 *)
  do f1s <- dstack f1 Nsim1;
  do f1j <- zip nadd f1s fsa;                                                                 (* l.153 *)
  do f2j <- dstack f2 Nsim1;
  let mu := solve (fun mu => find_face_value_indiv A mu (bookF ⊗ nexp (mu ⊗ T)) ival sig T r d) (r ⊕ lit 1 100) in
  let F := bookF ⊗ nexp (mu ⊗ T) in
  let L1 := loan_payoff_scalar F f1j ival rho sig T in                                        (* l.174 *)
  let face1 := full (shape f1j) (one ⊗ F) in
  let ival2 := amap (fun x => nlog (x ⊘ ltv)) L1 in
  let F2 := amap (fun x => x ⊗ nexp (mu ⊗ T)) L1 in
  do L2 <- loan_payoff_array F2 f2j ival2 rho sig T;                                          (* l.183 *)
  do face2 <- mask_set F2 ind1 zero;
  do face1 <- mask_set face1 ind2 zero;
  do fN <- column f (Z.of_nat N);
  do fN <- reshape fN [nth 0 (shape fN) 0; 1]%nat;
  do ft <- zip nsub (tile fN [1; N]%nat) f0w;
  do ft <- zip nsub ft (columns f 0 N);
  do ft <- dstack ft Nsim1;
  do ft <- zip nadd ft fsa;
  let ft := amap (fun x => x ⊕ ival) ft in                                                    (* l.197-199 *)
  do fNH <- column f (Z.of_nat N + HN);
  do fNH <- reshape fNH [nth 0 (shape fNH) 0; 1]%nat;
  let tmp := tile fNH [1; N]%nat in                                                           (* l.202-203 *)
  do fH1 <- zip nsub tmp f0w;
  do fH1 <- zip nsub fH1 (columns f 0 N);
  do fH2 <- zip nsub tmp (columns f N (2 * N));
  do fH1j <- dstack fH1 Nsim1;
  do fH1j <- zip nadd fH1j fsa;
  let fH1j := amap (fun x => x ⊕ ival) fH1j in                                                (* l.208 *)
  do fH2j <- dstack fH2 Nsim1;
  do fH2j <- zip nadd fH2j ival2;                                                             (* l.209 *)
  let jensen a := amap (fun x => nexp (half ⊗ (one ⊖ rho) ⊗ (T ⊗ x) ⊗ nsq sig)) a in
  do FH1j <- zip nmul (amap nexp fH1j) (jensen aHmat);
  do FH2j <- zip nmul (amap nexp fH2j) (jensen aHmat);
  do Ftc <- zip nmul (amap nexp ft) (jensen atmat);
  let Ft := mean1 Ftc in                                                                      (* l.217 *)
  do sc <- mask_set (amap (fun x => x ⊘ bookF) L1) ind1 one;
  do FHr1 <- mask_set FH1j ind2 zero;
  do FHr2 <- zip ndiv FH2j sc;
  do FHr2 <- mask_set FHr2 ind1 zero;
  do Lr1 <- mask_set L1 ind2 zero;
  do Lr2 <- zip ndiv L2 sc;
  do Lr2 <- mask_set Lr2 ind1 zero;                                                           (* l.228-237 *)
  let n := (Nsim2 * Nsim1)%nat in
  do cols <- mapM (fun j =>
      do FHr <- zip nadd (plane FHr1 j) (plane FHr2 j);
      do FHr <- reshapeF FHr [n; 1]%nat;
      do Lr <- zip nadd (plane Lr1 j) (plane Lr2 j);
      do Lr <- reshapeF Lr [n; 1]%nat;
      do LHs <- smooth_cohort spectral round9 FHr Lr n (Nat.div n 20);
      do LHsn <- reshapeF LHs [Nsim2; Nsim1];
      zip nmul LHsn (plane sc j)) (seq 0 N);                                                  (* l.240-252 *)
  let LHj := mkNd [Nsim2; N; Nsim1] (fun idx => get (nth (nth 1 idx 0%nat) cols (full [] zero)) [nth 0 idx 0; nth 2 idx 0]%nat) in
  do LH1j <- mask_set LHj ind2 zero;
  do LH2j <- mask_set LHj ind1 zero;
  let disc1 := amap (fun z => nexp (nopp r ⊗ ofZ (z - HN) ⊗ dt)) rmat in
  let disc2 := amap (fun z => nexp (nopp r ⊗ ofZ (z - HN + Z.of_nat N) ⊗ dt)) rmat in
  let discounted a b := do x <- zip nmul a disc1; do y <- zip nmul b disc2; zip nadd x y in
  do LHc <- discounted LH1j LH2j;
  let LH := mean1 LHc in                                                                      (* l.260-263 *)
  do FHc <- zip nadd FHr1 FHr2;
  let FH := mean1 FHc in
  do facec <- discounted face1 face2;
  let face := mean1 facec in
  settle_arrays r H D y g mu F szfs LH FH face Ft.
(** l.10-319.  [fs] is a vector or a column, [w] a matrix; [HN] is int(HN) *)
Definition mod_merton_arrays (spectral : list num -> list num -> list num) (round9 : num -> num) (as_int : num -> option Z)
    (solve : (num -> num) -> num -> num) (fs : nd num) (params : list num) (N Nsim2 : nat) (w : nd num) : res outputs :=
  do p <- read_param A params;
  let r := p_r A p in let T := p_T A p in let rho := p_rho A p in let sig := p_sig A p in let d := p_d A p in
  let sigf := nsqrt rho ⊗ sig in
  do HN <- horizon A as_int N p;
  let szfs := nth 0 (shape fs) 0%nat in
  do fs <- concat3 0 fs fs fs;                                                                (* l.52 *)
  let Nsim1 := nth 0 (shape fs) 0%nat in
  do rmat <- reshape (mkNd [N] (fun idx => Z.of_nat (nth 0 idx 0%nat))) [N; 1]%nat;
  let rmat := tile rmat [Nsim2; 1; Nsim1]%nat in                                              (* l.73 *)
  let aH := map (fun z => ofZ z ⊘ ofN A N) (arange_down HN (-1) ++ arange_down (Z.of_nat N - 1) HN) in
  do aHmat <- reshape (vec zero aH) [N; 1]%nat;
  let aHmat := tile aHmat [Nsim2; 1; Nsim1]%nat in                                            (* l.78-79 *)
  do atmat <- reshape (mkNd [N] (fun idx => ofZ (Z.of_nat N - Z.of_nat (nth 0 idx 0%nat)) ⊘ ofN A N)) [N; 1]%nat;
  let atmat := tile atmat [Nsim2; 1; Nsim1]%nat in                                            (* l.82-83 *)
  let dt := T ⊘ ofN A N in
  do f <- concat2 1 (full [Nsim2; 1]%nat zero)
            (cumsum1 (amap (fun x => (r ⊖ d ⊖ half ⊗ nsq sig) ⊗ dt ⊕ sigf ⊗ nsqrt dt ⊗ x) w));  (* l.97-103 *)
  do fw <- concat2 1 (full [Nsim2; 1]%nat zero)
            (cumsum1 (amap (fun x => nopp half ⊗ rho ⊗ nsq sig ⊗ dt ⊕ sigf ⊗ nsqrt dt ⊗ x) w));  (* l.108-114 *)
  do fwN <- column fw (Z.of_nat N);
  do fwN <- reshape fwN [nth 0 (shape fwN) 0; 1]%nat;
  do f0w <- zip nsub (tile fwN [1; N]%nat) (columns fw 0 N);                                  (* l.131 *)
  do t1 <- zip nsub (columns f N (2 * N)) f0w;
  do f1 <- zip nsub t1 (columns f 0 N);                                                       (* l.133 *)
  do f2 <- zip nsub (columns f (2 * N) (3 * N)) (columns f N (2 * N));                        (* l.135 *)
  value_arrays spectral round9 solve p N Nsim2 HN szfs fs rmat aHmat atmat f f0w f1 f2.
End Arrays.
