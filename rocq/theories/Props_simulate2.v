(** * Property C100 in IEEE-754 double precision: the grids have the intended sizes and the horizons are whole numbers *)
From Coq Require Import Reals ZArith List Bool Lia Lra.
From Flocq Require Import Core BinarySingleNaN.
From Verif Require Import Arith XR Float64 Model_option Model_merton Model_simulation Model_simulate Props_matlab Props_simulate.
Import ListNotations.
Local Open Scope R_scope.

(** ceil of a double *)
Definition fceil (x : b64) : Z :=
  match x with
  | B754_finite s m e _ => let z := cond_Zopp s (Zpos m) in if (0 <=? e)%Z then (z * 2 ^ e)%Z else (- ((- z) / 2 ^ (- e)))%Z
  | _ => 0%Z
  end.
(** x.is_integer(), int(x) *)
Definition fint (x : b64) : option Z :=
  match x with
  | B754_finite s m e _ => let z := cond_Zopp s (Zpos m) in
      if (0 <=? e)%Z then Some (z * 2 ^ e)%Z else if (z mod 2 ^ (- e) =? 0)%Z then Some (z / 2 ^ (- e))%Z else None
  | B754_zero _ => Some 0%Z
  | _ => None
  end.
Lemma scaled z e : (0 <= e)%Z -> F2R (Float radix2 z e) = IZR (z * 2 ^ e).
Proof. intros H. unfold F2R. cbn [Fnum Fexp]. rewrite mult_IZR. f_equal. rewrite <- IZR_Zpower by auto. reflexivity. Qed.
Lemma scaled_down z e : (e < 0)%Z -> F2R (Float radix2 z e) * IZR (2 ^ (- e)) = IZR z /\ 0 < IZR (2 ^ (- e)).
Proof.
  intros H. assert (P : 0 < IZR (2 ^ (- e))) by (apply IZR_lt, Z.pow_pos_nonneg; lia). split; [|exact P]. unfold F2R. cbn [Fnum Fexp]. rewrite Rmult_assoc.
  change (2 ^ (- e))%Z with (radix2 ^ (- e))%Z. rewrite IZR_Zpower by lia. rewrite <- bpow_plus. replace (e + - e)%Z with 0%Z by lia. cbn. ring.
Qed.
Theorem C100_ceil x : is_finite x = true -> IZR (fceil x) - 1 < B2R x <= IZR (fceil x).
Proof.
  destruct x as [s|s| |s m e Hb]; intros H; try discriminate; cbn [fceil B2R].
  - lra.
  - destruct (Z.leb_spec 0 e) as [He|He].
    + rewrite scaled by auto. lra.
    + set (z := cond_Zopp s (Zpos m)). destruct (scaled_down z e He) as [E P]. assert (P' : (0 < 2 ^ (- e))%Z) by (apply Z.pow_pos_nonneg; lia).
      set (k := (2 ^ (- e))%Z) in *. set (v := F2R (Float radix2 z e)) in *. rewrite opp_IZR.
      assert (D := Z.div_mod (- z) k ltac:(lia)). assert (M := Z.mod_pos_bound (- z) k P'). set (q := (- z / k)%Z) in *.
      assert (L1 : IZR q * IZR k <= - IZR z) by (rewrite <- mult_IZR, <- opp_IZR; apply IZR_le; lia).
      assert (L2 : - IZR z < (IZR q + 1) * IZR k) by (rewrite <- plus_IZR, <- mult_IZR, <- opp_IZR; apply IZR_lt; lia).
      rewrite <- E in L1, L2. split.
      * apply (Rmult_lt_reg_r (IZR k)); [exact P|]. lra.
      * apply (Rmult_le_reg_r (IZR k)); [exact P|]. lra.
Qed.
Theorem C100_is_integer x z : fint x = Some z <-> is_finite x = true /\ B2R x = IZR z.
Proof.
  destruct x as [s|s| |s m e Hb]; cbn [fint is_finite B2R]; try (split; [discriminate|intros [H _]; discriminate]).
  - split; [intros H; injection H as <-; auto|]. intros [_ H]. f_equal. apply eq_IZR. exact H.
  - set (y := cond_Zopp s (Zpos m)). destruct (Z.leb_spec 0 e) as [He|He].
    + rewrite scaled by auto. split; [intros H; injection H as <-; auto|]. intros [_ H]. f_equal. apply eq_IZR. exact H.
    + destruct (scaled_down y e He) as [E P]. assert (P' : (0 < 2 ^ (- e))%Z) by (apply Z.pow_pos_nonneg; lia). set (k := (2 ^ (- e))%Z) in *. set (v := F2R (Float radix2 y e)) in *.
      destruct (Z.eqb_spec (y mod k) 0) as [M|M].
      * assert (D : y = (k * (y / k))%Z) by (rewrite (Z.div_mod y k) at 1; lia). assert (EV : v = IZR (y / k)).
        { apply (Rmult_eq_reg_r (IZR k)); [|lra]. rewrite E, D at 1. rewrite mult_IZR. ring. }
        rewrite EV. split; [intros H; injection H as <-; auto|]. intros [_ H]. f_equal. apply eq_IZR. exact H.
      * split; [discriminate|]. intros [_ H]. exfalso. apply M. rewrite H, <- mult_IZR in E. apply eq_IZR in E. rewrite <- E. apply Z.mod_mul. lia.
Qed.
(** *** C100: in double precision the three grids have 33, 69 and 105 points and both horizons are whole, whatever the accuracy of exp, log and sqrt *)
Theorem C100_binary64 : forall (lm : libm) (shocks : nat -> list (list b64)), (forall n, length (shocks n) = n /\ forall row, In row (shocks n) -> length row = 30%nat) ->
  environment (B64 lm) fint fceil shocks.
Proof.
  intros lm shocks HW. unfold environment. split; [|split; [|split; [|split; [|split; [|split; [|split]]]]]].
  - unfold s_states, np_arange. rewrite !map_length, seq_length. cbn [num nopp nsub ndiv lit B64]. vm_compute. reflexivity.
  - unfold s_wide_states, np_arange. rewrite !map_length, seq_length. cbn [num nopp nsub ndiv lit B64]. vm_compute. reflexivity.
  - unfold s_loans, np_arange. rewrite !map_length, seq_length. cbn [num nopp nsub ndiv lit B64]. vm_compute. reflexivity.
  - vm_compute. reflexivity.
  - vm_compute. reflexivity.
  - vm_compute. reflexivity.
  - vm_compute. reflexivity.
  - exact HW.
Qed.
(** ... and so simulate in double precision accepts exactly the same numbers of paths *)
Corollary C100_binary64_paths : forall (lm : libm) spectral round9 solve fsolve griddata shocks Nsim, transform (B64 lm) spectral ->
  (forall n, length (shocks n) = n /\ forall row, In row (shocks n) -> length row = 30%nat) -> (0 < Nsim)%nat ->
  (~ good_paths Nsim -> simulate (B64 lm) spectral round9 fint solve fsolve fceil griddata shocks Nsim = Err AssertionError) /\
  (good_paths Nsim -> (forall p v q, exists out, griddata p v q = Ok out) ->
     (exists s, simulate (B64 lm) spectral round9 fint solve fsolve fceil griddata shocks Nsim = Ok s) \/
     simulate (B64 lm) spectral round9 fint solve fsolve fceil griddata shocks Nsim = Err IndexError).
Proof.
  intros lm spectral round9 solve fsolve griddata shocks Nsim HS HW HN.
  destruct (C100_paths (B64 lm) spectral round9 fint solve fsolve fceil griddata shocks Nsim HS (C100_binary64 lm shocks HW)) as (_ & H2 & H3). split; [intros H; exact (H2 HN H)|].
  intros HG HD. destruct (H3 HN HG HD) as (m & j0 & _ & _ & _ & H4 & H5). destruct (Compare_dec.le_lt_dec 25 j0); [right; auto|left; auto].
Qed.
(** hundred, fifty or two paths are refused; forty, sixty-four and the default ten thousand are fine *)
Example C100_case : ~ good_paths 100 /\ ~ good_paths 50 /\ ~ good_paths 2 /\ ~ good_paths 22 /\ good_paths 40 /\ good_paths 64 /\ good_paths 10000 /\
  (forall n, length (repeat (repeat 0 30) n) = n /\ forall row, In row (repeat (repeat 0 30) n) -> length row = 30%nat).
Proof.
  unfold good_paths.
  repeat split; try (vm_compute; tauto); try (vm_compute; intros H; repeat (destruct H as [H|H]; [discriminate H|]); exact H).
  - apply repeat_length.
  - intros row Hr. apply repeat_spec in Hr. subst row. reflexivity.
Qed.
