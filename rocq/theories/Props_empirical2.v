(** * Property C102 in IEEE-754 double precision: a zero interest rate *)
From Coq Require Import Reals ZArith List Bool Lia Lra.
From Flocq Require Import Core BinarySingleNaN.
From Verif Require Import Arith XR Float64 Float64b Model_option Model_merton Model_matlab Model_matlab2.
Import ListNotations.
Local Open Scope R_scope.

(** *** C102: the grid of the program starts at 0; an observed rate of exactly 0 gets weight 0 at EVERY grid rate also in double precision *)
Theorem C102_zero_rate : forall (lm : libm) (minr rstep r : b64) (a : nat) h, val minr = Fin 0 -> val r = Fin 0 -> val rstep = Fin h -> 0 < h ->
  val (m_weight (B64 lm) minr rstep a r) = Fin 0.
Proof.
  intros lm minr rstep r a h Hm Hr Hs Hh. unfold m_weight. cbn [nadd nsub nmul ndiv nltb nleb nopp ofZ B64]. unfold ofN. cbn [ofZ B64].
  destruct (val_fmt rstep h Hs) as [Fh Bh]. assert (V0 : val (fofZ 0) = Fin 0) by (apply (val_ofZ_small 0); cbn; lia). assert (V1 : val (fofZ 1) = Fin 1) by (apply (val_ofZ_small 1); cbn; lia).
  set (dr := fdiv (fsub (fadd minr (fmul (fofZ (Z.of_nat (a - 1))) rstep)) r) rstep).
  assert (D : val dr = Fin 0 \/ xleb (Fin 1) (val dr) = true).
  { unfold dr. rewrite val_fdiv by (rewrite Hs; intros E; injection E; lra). rewrite val_fsub, val_fadd, val_fmul, Hm, Hr, Hs.
    destruct (Nat.eq_dec (a - 1) 0) as [E|E].
    - left. rewrite E. cbn [Z.of_nat]. rewrite V0. cbn [xmul xrn]. rewrite Rmult_0_l, RN_0. cbn [xadd xrn]. rewrite Rplus_0_l, RN_0. cbn [xsub xrn]. rewrite Rminus_0_r, RN_0. rewrite xdiv_fin by lra. cbn [xrn]. unfold Rdiv. rewrite Rmult_0_l. apply RN_0.
    - right. assert (G := ofZ_ge1 (Z.of_nat (a - 1)) ltac:(lia)).
      assert (P : exists v, xrn (xmul (val (fofZ (Z.of_nat (a - 1)))) (Fin h)) = v /\ xleb (Fin h) v = true /\ (v = PInf \/ exists x, v = Fin x /\ fmt x /\ Rabs x < bpow radix2 1024)).
      { eexists. split; [reflexivity|]. destruct (val (fofZ (Z.of_nat (a - 1)))) as [z| | |]; try discriminate G.
        - apply xleb_iff in G. cbn [xmul xrn]. split; [apply RN_ge; auto; nra|]. assert (N := RN_not_nan (z * h)). destruct (RN (z * h)) as [x| | |] eqn:ER.
          + right. exists x. split; [reflexivity|]. destruct (RN_inv _ _ ER) as (_ & ? & ?). auto.
          + left. reflexivity.
          + exfalso. assert (C := RN_ge (z * h) h Fh Bh ltac:(nra)). rewrite ER in C. discriminate.
          + congruence.
        - assert (SG : xmul PInf (Fin h) = PInf) by (cbn; unfold xsgn_inf; destruct (total_order_T h 0) as [[C|C]|C]; [exfalso; lra|exfalso; lra|reflexivity]). rewrite SG. cbn [xrn]. split; [reflexivity|left; reflexivity]. }
      destruct P as (v & -> & PL & PC). destruct PC as [->|(x & -> & Fx & Bx)].
      + cbn. destruct (Rlt_dec h 0); [exfalso; lra|]. reflexivity.
      + apply xleb_iff in PL. cbn [xadd xrn]. rewrite Rplus_0_l, (RN_fmt x Fx Bx). cbn [xsub xrn]. rewrite Rminus_0_r, (RN_fmt x Fx Bx). rewrite xdiv_fin by lra. cbn [xrn].
        destruct (fmt_Z 1 ltac:(cbn; lia)) as [F1 B1]. apply RN_ge; auto. apply Rmult_le_reg_r with h; [lra|]. replace (x / h * h) with x by (field; lra). lra. }
  clearbody dr. destruct (Bleb (fofZ 1) dr) eqn:E1; [exact V0|]. destruct (Bleb dr (Bopp (fofZ 1))) eqn:E2; [exact V0|].
  destruct D as [D|D].
  - rewrite !val_ltb, V0, D, !xltb_false by lra. exact V0.
  - rewrite val_leb, V1 in E1. congruence.
Qed.
(** ... so that loans, debt, default probability, book value and factor are all reported as 0 *)
Theorem C102_zero_rate_result : forall (lm : libm) (minr rstep r : b64) (values : list b64) h, val minr = Fin 0 -> val r = Fin 0 -> val rstep = Fin h -> 0 < h ->
  (forall v, In v values -> exists x, val v = Fin x) -> val (m_interpolate (B64 lm) minr rstep (length values) values r) = Fin 0.
Proof.
  intros lm minr rstep r values h Hm Hr Hs Hh HV. unfold m_interpolate. cbn [asum nmul B64]. apply (fsum_ind lm (fun _ v => v = Fin 0)).
  - reflexivity.
  - assert (G : forall l s x, (forall v, In v l -> exists x, val v = Fin x) -> In x (map2 (fun v a => fmul v (m_weight (B64 lm) minr rstep a r)) l (seq s (length l))) -> val x = Fin 0).
    { induction l as [|v l IH]; intros s x HL; cbn [length seq map2]; [intros []|]. intros [<-|Hx].
      - destruct (HL v (or_introl eq_refl)) as (z & Ez). rewrite val_fmul, Ez, (C102_zero_rate lm minr rstep r s h) by assumption. cbn [xmul xrn]. rewrite Rmult_0_r. apply RN_0.
      - apply (IH (S s) x); [|exact Hx]. intros u Hu. apply HL. right. exact Hu. }
    intros x Hx. exact (G values 1%nat x HV Hx).
  - intros n m x y _ _ _ Hx Hy. rewrite val_fadd, Hx, Hy. cbn [xadd xrn]. rewrite Rplus_0_l. apply RN_0.
Qed.
