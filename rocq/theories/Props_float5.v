(** * C03 bit for bit: the two back-ends on IEEE-754 binary64

    Same log and same square in both back-ends (the parameter [lm]); the sum of GJR's Python path adds an explicit 0 for non-negative
    residuals, which is only visible on a negative zero. *)
From Coq Require Import Reals ZArith List Lia Lra Psatz Bool Arith.
From Flocq Require Import Core BinarySingleNaN.
From Verif Require Import Arith XR Float64 Float64b Model_garch Spec_garch Proofs_garch Props_garch Props_float.
Import ListNotations.
Local Open Scope R_scope.
#[local] Opaque fadd fsub fmul fdiv fsqrt fofZ val.

(** a row of bounds with a positive lower bound *)
Definition positive_row (b : b64 * b64) : Prop := xltb (Fin 0) (val (fst b)) = true.
(** two numbers of the same non-zero value are the same number *)
Lemma val_inj x y : val x = val y -> val x <> Fin 0 -> val x <> NaN -> x = y.
Proof.
  intros E NZ NN. destruct (val x) as [r| | |] eqn:Ex; try congruence; symmetry in E.
  - apply val_finite_inv in Ex as [Fx Rx]. apply val_finite_inv in E as [Fy Ry]. apply B2R_inj; try congruence.
    + destruct x as [| | |]; try discriminate; auto. exfalso; apply NZ. cbn in Rx. congruence.
    + destruct y as [| | |]; try discriminate; auto. exfalso; apply NZ. cbn in Ry. congruence.
  - Local Transparent val. destruct x as [|[]| |]; try discriminate; destruct y as [|[]| |]; try discriminate; reflexivity.
  - destruct x as [|[]| |]; try discriminate; destruct y as [|[]| |]; try discriminate; reflexivity.
Qed.
Lemma trichotomy x y : x <> NaN -> y <> NaN -> xltb x y = false -> xltb y x = false -> x = y.
Proof.
  destruct x as [a| | |], y as [b| | |]; try congruence; try (cbn; discriminate). intros _ _ H1 H2. f_equal.
  destruct (Rtotal_order a b) as [H|[H|H]]; auto; [rewrite (proj2 (xltb_iff a b) H) in H1|rewrite (proj2 (xltb_iff b a) H) in H2]; discriminate.
Qed.
Lemma xltb_irrefl_sym x y : xltb x y = true -> xltb y x = false.
Proof. destruct x as [a| | |], y as [b| | |]; try (cbn; congruence). intros H. apply xltb_iff in H. apply xltb_false. lra. Qed.
Lemma max_bits (l s : b64) : xltb (Fin 0) (val l) = true -> val s <> NaN -> (if Bltb l s then s else l) = (if Bltb s l then l else s).
Proof.
  intros HL HS. rewrite !val_ltb. assert (NL : val l <> NaN) by (intros E; rewrite E in HL; discriminate).
  destruct (xltb (val l) (val s)) eqn:E1; [rewrite (xltb_irrefl_sym _ _ E1); reflexivity|].
  destruct (xltb (val s) (val l)) eqn:E2; [reflexivity|].
  apply val_inj; auto; [apply trichotomy; auto|]. intros E. rewrite E in HL. apply xltb_iff in HL. lra.
Qed.
Lemma bounds_check_cpp_nan64 lm s l u : val s = NaN -> val (bounds_check_cpp (B64 lm) s l u) = NaN.
Proof.
  intros HS. unfold bounds_check_cpp. cbn [nltb B64 num isinf]. change (@Bltb 53 1024 s l) with (Bltb s l).
  rewrite (val_ltb s l), HS. cbn [xltb]. rewrite (val_ltb u s), HS. replace (xltb (val u) NaN) with false by (destruct (val u); reflexivity). exact HS.
Qed.
(** the two versions of bounds_check return the same bits *)
Theorem C03_binary64_bounds_check lm s l u : positive_row (l, u) -> val s <> NaN ->
  bounds_check_py (B64 lm) s (l, u) = bounds_check_cpp (B64 lm) s l u.
Proof.
  intros HL HS. unfold bounds_check_py, bounds_check_cpp, pymax. cbn [fst snd nltb B64 num].
  change (let m := if Bltb l s then s else l in if Bltb u m then if negb (fisinf m) then fadd u (l_log lm (fdiv m u)) else fadd u (fofZ 1000) else m) with
    ((fun m => if Bltb u m then if negb (fisinf m) then fadd u (l_log lm (fdiv m u)) else fadd u (fofZ 1000) else m) (if Bltb l s then s else l)).
  rewrite (max_bits l s HL HS). reflexivity.
Qed.
(** adding a zero only changes a negative zero, which the bounds check then raises *)
Lemma add_zero_bits x : val x <> Fin 0 -> val x <> NaN -> fadd x (fofZ 0) = x.
Proof.
  intros NZ NN. assert (EV : val (fadd x (fofZ 0)) = val x).
  { rewrite val_fadd, val_ofZ, RN_0. destruct (val x) as [r| | |] eqn:E; try reflexivity; try congruence. cbn [xadd xrn]. rewrite Rplus_0_r.
    destruct (val_fmt x r E). apply RN_fmt; auto. }
  symmetry. apply val_inj; auto.
Qed.
Lemma check_add_zero lm x l u : positive_row (l, u) -> bounds_check_cpp (B64 lm) (fadd x (fofZ 0)) l u = bounds_check_cpp (B64 lm) x l u \/ val x = NaN.
Proof.
  intros HL. destruct (val x) as [r| | |] eqn:E; try (left; rewrite add_zero_bits by congruence; reflexivity); auto.
  destruct (Req_dec r 0) as [->|NZ]; [|left; rewrite add_zero_bits by congruence; reflexivity]. left.
  assert (E0 : val (fadd x (fofZ 0)) = Fin 0) by (rewrite val_fadd, val_ofZ, RN_0, E; cbn [xadd xrn]; rewrite Rplus_0_r; apply RN_0).
  unfold bounds_check_cpp. cbn [nltb B64 num isinf].
  change (@Bltb 53 1024 (fadd x (fofZ 0)) l) with (Bltb (fadd x (fofZ 0)) l). change (@Bltb 53 1024 x l) with (Bltb x l). rewrite !val_ltb, E0, E.
  unfold positive_row in HL. cbn [fst] in HL. rewrite HL. reflexivity.
Qed.

Lemma flat2_row {X} (d : X) (bs : list (X * X)) t : (let p := nth ((t * 2) / 2) bs (d, d) in if Nat.even (t * 2) then fst p else snd p) = fst (nth t bs (d, d)) /\
  (let p := nth ((t * 2 + 1) / 2) bs (d, d) in if Nat.even (t * 2 + 1) then fst p else snd p) = snd (nth t bs (d, d)).
Proof.
  cbv zeta. split.
  - rewrite Nat.div_mul by lia. replace (Nat.even (t * 2)) with true by (symmetry; apply Nat.even_spec; exists t; lia). reflexivity.
  - replace ((t * 2 + 1) / 2)%nat with t by (rewrite Nat.add_comm, Nat.div_add by lia; reflexivity).
    replace (Nat.even (t * 2 + 1)) with false; [reflexivity|]. symmetry. rewrite Nat.add_1_r, Nat.even_succ, <- Nat.negb_even.
    replace (Nat.even (t * 2)) with true by (symmetry; apply Nat.even_spec; exists t; lia). reflexivity.
Qed.
Lemma nth_cpp {X} (f : nat -> X) n t d : (t < n)%nat -> nth t (map f (seq 0 n)) d = f t.
Proof. intros H. rewrite (nth_indep _ d (f 0%nat)) by (rewrite map_length, seq_length; auto). rewrite map_nth, seq_nth by auto. reflexivity. Qed.
Lemma list_as_seq {X} (l : list X) (f : nat -> X) n d : length l = n -> (forall t, (t < n)%nat -> nth t l d = f t) -> l = map f (seq 0 n).
Proof.
  intros HL HF. apply nth_ext with (d := d) (d' := d); [rewrite map_length, seq_length; auto|]. intros t Ht. rewrite nth_cpp by lia. apply HF. lia.
Qed.
Lemma row_at bs t (d : b64) : Forall positive_row (tl bs) -> (S t < length bs)%nat -> positive_row (nth (S t) bs (d, d)).
Proof. intros HB Ht. destruct bs as [|b0 bs]; cbn in *; [lia|]. rewrite Forall_forall in HB. apply HB, nth_In. lia. Qed.

(** compute_variance returns the same bits from both back-ends whenever the C++ result contains no NaN *)
Theorem C03_binary64_garch lm (omega alpha beta bc : b64) (rs : list b64) (bs : list (b64 * b64)) :
  let cpp := cpp_garch (B64 lm) omega alpha beta bc (fun i => nth i rs B754_nan) (flat2 (B64 lm) B754_nan bs) (length rs) in
  rs <> [] -> (length rs <= length bs)%nat -> Forall positive_row (tl bs) -> Forall (fun x => val x <> NaN) cpp ->
  garch_variance_py (B64 lm) [omega; alpha; beta] rs bc bs = Ok cpp.
Proof.
  intros cpp HR HL HB HN. set (r := fun i => nth i rs B754_nan : b64) in *. set (vb := flat2 (B64 lm) B754_nan bs) in *.
  destruct (proj2 (C02_defined (B64 lm) KGarch [omega; alpha; beta] rs bc bs)) as (s & E).
  { split; [reflexivity|]. split; [exact HR|]. destruct bs; cbn in *; lia. }
  cbn [compute_variance] in E. destruct (C02_garch_recursion (B64 lm) _ _ _ _ _ _ _ B754_nan (B754_nan, B754_nan) E) as (LS & E0 & ER).
  rewrite E. f_equal. unfold cpp, cpp_garch. refine (list_as_seq s _ _ (B754_nan : b64) LS _).
  assert (NN : forall t, (t < length rs)%nat -> val (cpp_garch_at (B64 lm) omega alpha beta bc r vb t) <> NaN).
  { intros t Ht. rewrite Forall_forall in HN. apply HN. unfold cpp, cpp_garch. apply in_map. apply in_seq. lia. }
  induction t as [|t IH]; intros Ht; [exact E0|].
  specialize (IH ltac:(lia)). refine (eq_trans (ER t Ht) _). specialize (NN (S t) Ht). clear ER.
  destruct (flat2_row (B754_nan : b64) bs (S t)) as [R1 R2]. change (num (B64 lm)) with b64 in *. assert (PR := row_at bs t B754_nan HB ltac:(lia)).
  assert (V1 : vb (S t * 2)%nat = fst (nth (S t) bs (B754_nan, B754_nan))) by exact R1. assert (V2 : vb (S t * 2 + 1)%nat = snd (nth (S t) bs (B754_nan, B754_nan))) by exact R2. clear R1 R2.
  cbn [cpp_garch_at] in NN |- *. change (num (B64 lm)) with b64 in *. rewrite IH in *.
  rewrite (surjective_pairing (nth (S t) bs (B754_nan, B754_nan))), <- V1, <- V2. set (l := vb (S t * 2)%nat) in *. set (u := vb (S t * 2 + 1)%nat) in *.
  assert (PR' : positive_row (l, u)) by (unfold positive_row; cbn [fst]; rewrite V1; exact PR). clear PR.
  apply C03_binary64_bounds_check; [exact PR'|]. intros EN. apply NN. apply bounds_check_cpp_nan64. exact EN.
Qed.
Theorem C03_binary64_gjr lm (omega alpha gamma beta bc : b64) (rs : list b64) (bs : list (b64 * b64)) :
  let cpp := cpp_gjr (B64 lm) omega alpha gamma beta bc (fun i => nth i rs B754_nan) (flat2 (B64 lm) B754_nan bs) (length rs) in
  rs <> [] -> (length rs <= length bs)%nat -> Forall positive_row (tl bs) -> Forall (fun x => val x <> NaN) cpp ->
  gjr_variance_py (B64 lm) [omega; alpha; gamma; beta] rs bc bs = Ok cpp.
Proof.
  intros cpp HR HL HB HN. set (r := fun i => nth i rs B754_nan : b64) in *. set (vb := flat2 (B64 lm) B754_nan bs) in *.
  destruct (proj2 (C02_defined (B64 lm) KGjr [omega; alpha; gamma; beta] rs bc bs)) as (s & E).
  { split; [reflexivity|]. split; [exact HR|]. destruct bs; cbn in *; lia. }
  cbn [compute_variance] in E. destruct (C02_gjr_recursion (B64 lm) _ _ _ _ _ _ _ _ B754_nan (B754_nan, B754_nan) E) as (LS & E0 & ER).
  rewrite E. f_equal. unfold cpp, cpp_gjr. refine (list_as_seq s _ _ (B754_nan : b64) LS _).
  assert (NN : forall t, (t < length rs)%nat -> val (cpp_gjr_at (B64 lm) omega alpha gamma beta bc r vb t) <> NaN).
  { intros t Ht. rewrite Forall_forall in HN. apply HN. unfold cpp, cpp_gjr. apply in_map. apply in_seq. lia. }
  induction t as [|t IH]; intros Ht; [exact E0|].
  specialize (IH ltac:(lia)). refine (eq_trans (ER t Ht) _). specialize (NN (S t) Ht). clear ER.
  destruct (flat2_row (B754_nan : b64) bs (S t)) as [R1 R2]. change (num (B64 lm)) with b64 in *. assert (PR := row_at bs t B754_nan HB ltac:(lia)).
  assert (V1 : vb (S t * 2)%nat = fst (nth (S t) bs (B754_nan, B754_nan))) by exact R1. assert (V2 : vb (S t * 2 + 1)%nat = snd (nth (S t) bs (B754_nan, B754_nan))) by exact R2. clear R1 R2.
  cbn [cpp_gjr_at] in NN |- *. cbv zeta in NN |- *. change (num (B64 lm)) with b64 in *. rewrite IH in *.
  rewrite (surjective_pairing (nth (S t) bs (B754_nan, B754_nan))), <- V1, <- V2. set (l := vb (S t * 2)%nat) in *. set (u := vb (S t * 2 + 1)%nat) in *.
  assert (PR' : positive_row (l, u)) by (unfold positive_row; cbn [fst]; rewrite V1; exact PR). clear PR.
  cbn [nltb nadd nmul nsq ofZ B64] in NN |- *. change (nth t rs B754_nan) with (r t) in *.
  destruct (Bltb (r t) (fofZ 0)).
  - apply C03_binary64_bounds_check; [exact PR'|]. intros EN. apply NN. apply bounds_check_cpp_nan64. exact EN.
  - set (x := fadd _ (fmul beta _)) in *. 
    assert (NX : val x <> NaN) by (intros EN; apply NN; apply bounds_check_cpp_nan64; exact EN).
    rewrite C03_binary64_bounds_check; [|exact PR'|].
    + destruct (check_add_zero lm x l u PR') as [G|G]; [exact G|contradiction].
    + rewrite val_fadd, val_ofZ, RN_0. destruct (val x); try congruence; try discriminate. cbn [xadd xrn]. apply RN_not_nan.
Qed.
(** the exponentially weighted averages agree bit for bit when the square of numpy is x * x, NaN included *)
Lemma nth_firstn_b {X} (l : list X) : forall n i d, (i < n)%nat -> nth i (firstn n l) d = nth i l d.
Proof. induction l as [|x l IH]; intros [|n] [|i] d H; try lia; try reflexivity. cbn. apply IH. lia. Qed.
Lemma ewma_loop_nth (A : Arith) (lam : num A) (l : list (num A)) : forall prev t d, (t < length l)%nat ->
  nth t (ewma_loop A lam prev l) d = nadd (nmul lam (nth t (prev :: ewma_loop A lam prev l) d)) (nmul (nsub (ofZ 1) lam) (nth t l d)).
Proof.
  induction l as [|x l IH]; intros prev t d Ht; [cbn in Ht; lia|]. destruct t as [|t]; [reflexivity|]. cbn [ewma_loop nth]. cbn [length] in Ht. refine (eq_trans (IH _ t d ltac:(lia)) _). reflexivity.
Qed.
Lemma ewma_loop_length (A : Arith) (lam : num A) (l : list (num A)) : forall prev, length (ewma_loop A lam prev l) = length l.
Proof. induction l as [|x l IH]; intros prev; [reflexivity|]. cbn [ewma_loop length]. rewrite IH. reflexivity. Qed.
Theorem C03_binary64_ewma lm (rs : list b64) (v0 lam : b64) : (forall x, l_sq lm x = fmul x x) -> rs <> [] ->
  ewma_py (B64 lm) rs v0 lam = Ok (cpp_ewma (B64 lm) (fun i => nth i rs B754_nan) v0 lam (length rs)).
Proof.
  intros HQ HR. destruct rs as [|r0 rs']; [congruence|]. set (rs := r0 :: rs') in *. change (ewma_py (B64 lm) rs v0 lam) with (@Ok (list b64) (v0 :: ewma_loop (B64 lm) lam v0 (removelast (map (l_sq lm) rs)))).
  f_equal. set (sq := removelast (map (l_sq lm) rs)).
  assert (LQ : length sq = length rs').
  { unfold sq. rewrite removelast_firstn_len, firstn_length, map_length. unfold rs. cbn. lia. }
  unfold cpp_ewma. apply (list_as_seq _ _ _ (B754_nan : b64)).
  - cbn [length]. rewrite (ewma_loop_length (B64 lm)). unfold rs. cbn [length]. f_equal. exact LQ.
  - induction t as [|t IH]; intros Ht; [reflexivity|]. cbn [length] in Ht. cbn [nth]. 
    refine (eq_trans (ewma_loop_nth (B64 lm) lam sq v0 t B754_nan ltac:(unfold rs in Ht; cbn [length] in Ht; change (num (B64 lm)) with b64; lia)) _).
    change (num (B64 lm)) with b64 in *. rewrite IH by lia. cbn [cpp_ewma_at]. do 2 f_equal.
    cbn [nmul B64]. rewrite <- HQ. unfold sq. rewrite removelast_firstn_len. 
    assert (Hf : (t < Nat.pred (length (map (l_sq lm) rs)))%nat) by (rewrite map_length; unfold rs in *; cbn [length] in *; lia).
    rewrite nth_firstn_b by exact Hf. rewrite (nth_indep _ _ (l_sq lm B754_nan)) by lia. apply map_nth.
Qed.
(** the hypotheses are met: two residuals, unit parameters, bounds 1 and 8, a library that squares by multiplying; both back-ends give 3 and 5 *)
Definition times_libm : libm := mkLibm (l_log perfect_libm) (l_exp perfect_libm) (fun x => fmul x x) (l_pow perfect_libm) (l_cdf perfect_libm) (l_pi perfect_libm) left_to_right left_to_right_ok.
Definition case_rows : list (b64 * b64) := [(fofZ 1, fofZ 8); (fofZ 1, fofZ 8)].
Local Transparent fadd fmul fofZ.
Example C03_binary64_case :
  let cpp := cpp_garch (B64 times_libm) (fofZ 1) (fofZ 1) (fofZ 1) (fofZ 1) (fun i => nth i [fofZ 1; fofZ (-2)] B754_nan) (flat2 (B64 times_libm) B754_nan case_rows) 2 in
  (forall x, l_sq times_libm x = fmul x x) /\ Forall positive_row (tl case_rows) /\ Forall (fun x => val x <> NaN) cpp /\ cpp = [fofZ 3; fofZ 5].
Proof.
  assert (E : cpp_garch (B64 times_libm) (fofZ 1) (fofZ 1) (fofZ 1) (fofZ 1) (fun i => nth i [fofZ 1; fofZ (-2)] B754_nan) (flat2 (B64 times_libm) B754_nan case_rows) 2 = [fofZ 3; fofZ 5]).
  { cbn [cpp_garch cpp_garch_at seq map]. unfold bounds_check_cpp. cbn [nltb nadd nmul nsq B64 isinf l_sq times_libm ofZ num].
    apply f_equal2; [|apply f_equal2; [|reflexivity]]; apply (B2SF_inj 53 1024); vm_compute; reflexivity. }
  cbv zeta. split; [reflexivity|]. split; [|split; [|exact E]].
  - constructor; [|constructor]. unfold positive_row. cbn [fst case_rows]. rewrite val_ofZ. destruct (fmt_Z 1) as [F B]; [cbn; lia|]. rewrite RN_fmt by auto. apply xltb_iff. lra.
  - change (num (B64 times_libm)) with b64 in *. rewrite E. repeat constructor; rewrite val_ofZ; apply RN_not_nan.
Qed.
