(** * Property C122: the reported values of ModMertonEmpirical_unobsbookF.m *)
From Coq Require Import Reals ZArith List Bool Arith Lia Lra.
From Verif Require Import Arith XR RealAux Model_garch Model_option Model_merton Model_simulation Model_matlab Model_matlab2 Model_empirical Props_ar Props_fftsmooth Props_modmerton Props_modmerton2 Props_modmerton3
  Props_modmerton4 Props_matlab Props_matlab2 Props_matlab3 Props_empirical.
Import ListNotations.
Local Open Scope R_scope.

(** ** Specification *)
(** a point of the value surface with finite values; its equity volatility may be NaN or infinite *)
Record cell := mk_cell { c_fs : R; c_sig : R; c_F : R; c_L : R; c_B : R; c_E : R; c_def : R; c_vol : xr }.
Definition point_of (c : cell) : grid_point XRA :=
  mk_point XRA (Fin (c_fs c)) (Fin (c_sig c)) (Fin (c_F c)) (Fin (c_L c)) (Fin (c_B c)) (Fin (c_E c)) (Fin (c_def c)) (c_vol c).
(** where the point lies: equity value, equity volatility (99 if it is not a number), asset volatility *)
Definition vol_used (v : xr) : R := match v with Fin v => v | _ => 99 end.
Definition location (c : cell) : R * R * R := (c_E c, vol_used (c_vol c), c_sig c).
Definition fin3 (p : R * R * R) : xr * xr * xr := match p with (x, y, z) => (Fin x, Fin y, Fin z) end.
(** the linear interpolant at a query inside the triangulation: a convex combination of the values, with weights that do not depend on the
    values and reproduce the query *)
Definition combine_with (w vals : list R) : R := Rsum (map2 Rmult w vals).
Definition interpolates (itp : list (xr * xr * xr) -> list xr -> xr * xr * xr -> xr) (pts : list (R * R * R)) (q : R * R * R) (w : list R) : Prop :=
  length w = length pts /\ Forall (fun x => 0 <= x) w /\ Rsum w = 1 /\
  combine_with w (map (fun p => fst (fst p)) pts) = fst (fst q) /\ combine_with w (map (fun p => snd (fst p)) pts) = snd (fst q) /\ combine_with w (map snd pts) = snd q /\
  forall vals, length vals = length pts -> itp (map fin3 pts) (map Fin vals) (fin3 q) = Fin (combine_with w vals).
(** at the other rates the interpolant only has to return numbers *)
Definition finite_at (itp : list (xr * xr * xr) -> list xr -> xr * xr * xr -> xr) (pts : list (R * R * R)) (q : R * R * R) : Prop :=
  forall vals, length vals = length pts -> exists v, itp (map fin3 pts) (map Fin vals) (fin3 q) = Fin v.
(** what the valuation guarantees at every point: loans = debt + equity, debt at most its book value, a default probability *)
Definition sound (bookD : R) (c : cell) : Prop := c_L c = c_B c + c_E c /\ c_B c <= bookD /\ 0 <= c_def c <= 1.

(** ** Convex combinations *)
Lemma Rsum_cons x l : Rsum (x :: l) = x + Rsum l.
Proof. reflexivity. Qed.
Lemma combine_length_nil w : combine_with w [] = 0.
Proof. destruct w; reflexivity. Qed.
Lemma combine_plus w : forall u v, length u = length w -> length v = length w -> combine_with w (map2 Rplus u v) = combine_with w u + combine_with w v.
Proof.
  unfold combine_with. induction w as [|a w IH]; intros [|x u] [|y v] Hu Hv; try discriminate; [cbn; ring|]. cbn [map2] in *. rewrite !Rsum_cons. rewrite IH by (cbn in *; lia). ring.
Qed.
Lemma combine_bounds lo hi w : forall v, length v = length w -> Forall (fun x => 0 <= x) w -> Forall (fun x => lo <= x <= hi) v -> lo * Rsum w <= combine_with w v <= hi * Rsum w.
Proof.
  unfold combine_with. induction w as [|a w IH]; intros [|x v] HL HW HV; try discriminate; [cbn; lra|]. cbn [map2]. rewrite !Rsum_cons.
  inversion HW; subst. inversion HV; subst. assert (B := IH v ltac:(cbn in *; lia) ltac:(auto) ltac:(auto)). nra.
Qed.
Lemma map2_maps {X} (f g : X -> R) l : map2 Rplus (map f l) (map g l) = map (fun x => f x + g x) l.
Proof. induction l; [reflexivity|]. cbn [map map2]. f_equal. auto. Qed.

Lemma coords_fin cs : map (m_coords XRA) (map point_of cs) = map fin3 (map location cs).
Proof.
  rewrite !map_map. apply map_ext. intros c. unfold m_coords, location, point_of, m_clean. cbn [g_Et g_sigEt g_sig isnan isinf XRA ofZ fin3].
  destruct (c_vol c); reflexivity.
Qed.
Lemma field_fin (field : grid_point XRA -> num XRA) (f : cell -> R) cs : (forall c, field (point_of c) = Fin (f c)) -> map field (map point_of cs) = map Fin (map f cs).
Proof. intros H. rewrite !map_map. apply map_ext. exact H. Qed.

Section Observation.
Context (itp : list (xr * xr * xr) -> list xr -> xr * xr * xr -> xr).
Context (surface : list (list cell)) (minr h : R) (a : nat) (E sE vol r : R) (w1 w2 : list R).
Hypothesis Hh : 0 < h.
Hypothesis Ha : (1 <= a < length surface)%nat.
Hypothesis Hr : grid_rate minr h a < r < grid_rate minr h (S a).
Hypothesis H1 : interpolates itp (map location (nth (a - 1) surface [])) (E, sE, vol) w1.
Hypothesis H2 : interpolates itp (map location (nth a surface [])) (E, sE, vol) w2.
Hypothesis HF : Forall (fun cs => finite_at itp (map location cs) (E, sE, vol)) surface.
Let t := (r - grid_rate minr h a) / h.
Let lo := nth (a - 1) surface [].
Let hi := nth a surface [].
Definition blend (f : cell -> R) : R := (1 - t) * combine_with w1 (map f lo) + t * combine_with w2 (map f hi).

Lemma t_range : 0 < t < 1.
Proof using Ha Hh Hr.
  assert (GN := grid_next minr h a ltac:(lia)). unfold t. split; [apply Rdiv_lt_0_compat; lra|]. apply Rmult_lt_reg_r with h; [lra|]. unfold Rdiv. rewrite Rmult_assoc, Rinv_l by lra. lra.
Qed.
Lemma column_fin (f : cell -> R) : exists vs, length vs = length surface /\
  map (fun cs => itp (map fin3 (map location cs)) (map Fin (map f cs)) (fin3 (E, sE, vol))) surface = map Fin vs /\
  nth (a - 1) vs 0 = combine_with w1 (map f lo) /\ nth a vs 0 = combine_with w2 (map f hi).
Proof using Ha H1 H2 HF.
  set (val := fun cs => itp (map fin3 (map location cs)) (map Fin (map f cs)) (fin3 (E, sE, vol))).
  assert (FV : Forall (fun cs => exists v, val cs = Fin v) surface).
  { eapply Forall_impl; [|exact HF]. intros cs Hc. apply Hc. rewrite !map_length. reflexivity. }
  assert (G : exists vs, length vs = length surface /\ map val surface = map Fin vs).
  { clear -FV. induction FV as [|cs l (v & Ev) _ (vs & L & IH)]; [exists []; split; reflexivity|]. exists (v :: vs). split; [cbn; lia|]. cbn [map]. rewrite Ev, IH. reflexivity. }
  destruct G as (vs & L & EV). exists vs. split; [exact L|]. split; [exact EV|].
  assert (NV : forall i, (i < length surface)%nat -> Fin (nth i vs 0) = val (nth i surface [])).
  { intros i Hi. rewrite <- (map_nth Fin vs 0 i), <- EV. rewrite (nth_indep _ (Fin 0) (val [])) by (rewrite map_length; exact Hi). apply map_nth. }
  assert (FI : forall x y : R, Fin x = Fin y -> x = y) by congruence.
  split; apply FI; rewrite NV by lia; unfold val.
  - apply H1. rewrite !map_length. reflexivity.
  - apply H2. rewrite !map_length. reflexivity.
Qed.
Lemma output_fin (field : grid_point XRA -> num XRA) (f : cell -> R) : (forall c, field (point_of c) = Fin (f c)) ->
  m_interpolate XRA (Fin minr) (Fin h) (length surface) (map (fun sl => itp (map (m_coords XRA) sl) (map field sl) (Fin E, Fin sE, Fin vol)) (map (map point_of) surface)) (Fin r) = Fin (blend f).
Proof using Ha H1 H2 HF Hh Hr.
  intros Hf. rewrite map_map. destruct (column_fin f) as (vs & L & EV & N1 & N2).
  rewrite (map_ext _ (fun cs => itp (map fin3 (map location cs)) (map Fin (map f cs)) (fin3 (E, sE, vol)))).
  - change (num XRA) with xr in *. rewrite EV. rewrite <- L. destruct (C102_between minr h vs r a Hh ltac:(lia) Hr) as [_ ->]. unfold blend. rewrite N1, N2. reflexivity.
  - intros cs. assert (E1 := coords_fin cs). assert (E2 := field_fin field f cs Hf). change (num XRA) with xr in *. rewrite E1. apply (f_equal (fun v => itp _ v _)). exact E2.
Qed.
Definition grid_top : R := minr + INR (length surface - 1) * h.
Lemma step_fin : ndiv (nsub (Fin grid_top : num XRA) (Fin minr)) (nsub (ofN XRA (length surface)) (ofZ 1)) = Fin h.
Proof using Ha.
  rewrite ofN_fin. cbn [nsub ndiv ofZ XRA xsub xadd xopp]. unfold grid_top. assert (P : 0 < INR (length surface - 1)) by (apply lt_0_INR; lia).
  assert (EL : INR (length surface) = INR (length surface - 1) + 1) by (rewrite <- S_INR; f_equal; lia). rewrite EL. rewrite xdiv_fin by lra. f_equal. field. lra.
Qed.
Lemma observation_fin : m_observation XRA itp (map (map point_of) surface) (Fin minr) (Fin grid_top) (Fin E) (Fin sE) (Fin vol) (Fin r) =
  mk_reported XRA (Fin (blend c_L)) (Fin (blend c_B)) (Fin (blend c_def)) (Fin (blend c_F)) (Fin (blend c_fs)).
Proof using Ha H1 H2 HF Hh Hr.
  unfold m_observation. rewrite map_length. change (num XRA) with xr in *. 
  assert (S := step_fin). change (num XRA) with xr in *. rewrite S. 
  f_equal; apply output_fin; intros; reflexivity.
Qed.
(** an average of the points around *)
Lemma blend_bounds f l u : (forall c, In c lo \/ In c hi -> l <= f c <= u) -> l <= blend f <= u.
Proof using Ha H1 H2 Hh Hr.
  intros HB. assert (T := t_range). destruct H1 as (L1 & P1 & S1 & _), H2 as (L2 & P2 & S2 & _). rewrite map_length in L1, L2.
  assert (B1 := combine_bounds l u w1 (map f lo) ltac:(rewrite map_length; auto) P1 ltac:(apply Forall_forall; intros x Hx; apply in_map_iff in Hx as (c & <- & Hc); auto)).
  assert (B2 := combine_bounds l u w2 (map f hi) ltac:(rewrite map_length; auto) P2 ltac:(apply Forall_forall; intros x Hx; apply in_map_iff in Hx as (c & <- & Hc); auto)).
  rewrite S1 in B1. rewrite S2 in B2. unfold blend. nra.
Qed.
Lemma blend_plus f g : blend (fun c => f c + g c) = blend f + blend g.
Proof using H1 H2.
  destruct H1 as (L1 & _), H2 as (L2 & _). rewrite map_length in L1, L2. unfold blend. rewrite <- !map2_maps, !combine_plus by (rewrite map_length; auto). ring.
Qed.
Lemma blend_ext f g : (forall c, In c lo \/ In c hi -> f c = g c) -> blend f = blend g.
Proof using. intros HE. unfold blend. rewrite (map_ext_in f g lo), (map_ext_in f g hi) by auto. reflexivity. Qed.
Lemma blend_E : blend c_E = E.
Proof using H1 H2.
  destruct H1 as (_ & _ & _ & E1 & _), H2 as (_ & _ & _ & E2 & _). rewrite map_map in E1, E2. cbn [location fst] in E1, E2. unfold blend. change (combine_with w1 (map c_E lo) = E) in E1. change (combine_with w2 (map c_E hi) = E) in E2. rewrite E1, E2. ring.
Qed.
Lemma blend_sig : blend c_sig = vol.
Proof using H1 H2.
  destruct H1 as (_ & _ & _ & _ & _ & E1 & _), H2 as (_ & _ & _ & _ & _ & E2 & _). rewrite map_map in E1, E2. cbn [location snd] in E1, E2. unfold blend. change (combine_with w1 (map c_sig lo) = vol) in E1. change (combine_with w2 (map c_sig hi) = vol) in E2. rewrite E1, E2. ring.
Qed.
End Observation.

(** *** C122: between two grid rates, for an observation inside the two triangulations: the reported loan value is the reported debt value plus
    the OBSERVED equity value, debt is at most its book value, the default probability is one, and every output lies within the range of the
    points of the two neighbouring rates *)
Theorem C122_balance_sheet : forall itp surface minr h a E sE vol r w1 w2 bookD, 0 < h -> (1 <= a < length surface)%nat ->
  grid_rate minr h a < r < grid_rate minr h (S a) ->
  interpolates itp (map location (nth (a - 1) surface [])) (E, sE, vol) w1 -> interpolates itp (map location (nth a surface [])) (E, sE, vol) w2 ->
  Forall (fun cs => finite_at itp (map location cs) (E, sE, vol)) surface ->
  let neighbours := nth (a - 1) surface [] ++ nth a surface [] in
  exists L B mdef bookF f,
    m_observation XRA itp (map (map point_of) surface) (Fin minr) (Fin (grid_rate minr h (length surface))) (Fin E) (Fin sE) (Fin vol) (Fin r) =
      mk_reported XRA (Fin L) (Fin B) (Fin mdef) (Fin bookF) (Fin f) /\
    (Forall (sound bookD) neighbours -> L = B + E /\ B <= bookD /\ 0 <= mdef <= 1) /\
    (forall l u, Forall (fun c => l <= c_L c <= u) neighbours -> l <= L <= u) /\ (forall l u, Forall (fun c => l <= c_B c <= u) neighbours -> l <= B <= u) /\
    (forall l u, Forall (fun c => l <= c_def c <= u) neighbours -> l <= mdef <= u) /\ (forall l u, Forall (fun c => l <= c_F c <= u) neighbours -> l <= bookF <= u) /\
    (forall l u, Forall (fun c => l <= c_fs c <= u) neighbours -> l <= f <= u).
Proof.
  intros itp surface minr h a E sE vol r w1 w2 bookD Hh Ha Hr H1 H2 HF nb.
  assert (EO := observation_fin itp surface minr h a E sE vol r w1 w2 Hh Ha Hr H1 H2 HF). do 5 eexists. split; [exact EO|].
  assert (BB := fun f l u => blend_bounds itp surface minr h a E sE vol r w1 w2 Hh Ha Hr H1 H2 f l u).
  assert (IN : forall (P : cell -> Prop), Forall P nb -> forall c, In c (nth (a - 1) surface []) \/ In c (nth a surface []) -> P c).
  { intros P HP c Hc. rewrite Forall_forall in HP. apply HP. unfold nb. apply in_or_app. exact Hc. }
  split; [|split; [|split; [|split; [|split]]]]; try (intros l u HB; apply (BB _ l u (IN _ HB))).
  intros HS. specialize (IN _ HS). split; [|split].
  - rewrite (blend_ext surface minr h a r w1 w2 c_L (fun c => c_B c + c_E c)) by (intros c Hc; apply (IN c Hc)).
    rewrite (blend_plus itp surface minr h a E sE vol r w1 w2 H1 H2), (blend_E itp surface minr h a E sE vol r w1 w2 H1 H2). reflexivity.
  - assert (M : forall cs : list cell, exists m, forall c, In c cs -> m <= c_B c).
    { induction cs as [|c cs (m & IH)]; [exists 0; intros c []|]. exists (Rmin (c_B c) m). intros c' [<-|Hc]; [apply Rmin_l|]. eapply Rle_trans; [apply Rmin_r|auto]. }
    destruct (M nb) as (m & Hm). apply (BB c_B m bookD). intros c Hc. split; [apply Hm; unfold nb; apply in_or_app; auto|apply (IN c Hc)].
  - apply (BB c_def 0 1). intros c Hc. apply (IN c Hc).
Qed.

(** *** C122: at a rate that is on the grid every output is zero, so the balance sheet is lost and every bank looks default-free *)
Theorem C122_grid_rate_refuted : forall itp surface minr h a E sE vol, 0 < h -> (1 <= a)%nat -> (2 <= length surface)%nat ->
  Forall (fun cs => finite_at itp (map location cs) (E, sE, vol)) surface ->
  m_observation XRA itp (map (map point_of) surface) (Fin minr) (Fin (grid_rate minr h (length surface))) (Fin E) (Fin sE) (Fin vol) (Fin (grid_rate minr h a)) =
    mk_reported XRA (Fin 0) (Fin 0) (Fin 0) (Fin 0) (Fin 0).
Proof.
  intros itp surface minr h a E sE vol Hh Ha HL HF. unfold m_observation. rewrite map_length.
  assert (ST : ndiv (nsub (Fin (grid_rate minr h (length surface)) : num XRA) (Fin minr)) (nsub (ofN XRA (length surface)) (ofZ 1)) = Fin h) by (apply (step_fin surface minr h 1); lia).
  change (num XRA) with xr in *. rewrite ST.
  assert (G : forall (field : grid_point XRA -> num XRA) (f : cell -> R), (forall c, field (point_of c) = Fin (f c)) ->
    m_interpolate XRA (Fin minr) (Fin h) (length surface) (map (fun sl => itp (map (m_coords XRA) sl) (map field sl) (Fin E, Fin sE, Fin vol)) (map (map point_of) surface)) (Fin (grid_rate minr h a)) = Fin 0).
  { intros field f Hf. rewrite map_map.
    assert (V : exists vs, length vs = length surface /\ map (fun cs => itp (map (m_coords XRA) (map point_of cs)) (map field (map point_of cs)) (Fin E, Fin sE, Fin vol)) surface = map Fin vs).
    { clear -HF Hf. induction HF as [|cs l Hc _ (vs & L & IH)]; [exists []; split; reflexivity|]. destruct (Hc (map f cs)) as (v & Ev); [rewrite !map_length; reflexivity|].
      exists (v :: vs). split; [cbn; lia|]. cbn [map]. rewrite <- IH. f_equal. rewrite <- Ev. assert (E1 := coords_fin cs). assert (E2 := field_fin field f cs Hf). change (num XRA) with xr in *. rewrite E1. apply (f_equal (fun v => itp _ v _)). exact E2. }
    destruct V as (vs & L & EV). change (num XRA) with xr in *. rewrite EV, <- L. apply C102_on_grid_refuted; auto. }
  f_equal; eapply G; intros; reflexivity.
Qed.

(** *** C122: "with linear interpol this does not affect other observations" (l.100).  Points whose equity volatility is not a number are moved
    to volatility 99; if no volatility is negative their total weight is at most sE/99, and no less in general: replacing their default
    probabilities by arbitrary ones moves the reported default probability by at most sE/99 *)
Definition same_but_replaced (c c' : cell) : Prop :=
  location c = location c' /\ c_vol c = c_vol c' /\ 0 <= c_def c <= 1 /\ 0 <= c_def c' <= 1 /\ (forall v, c_vol c = Fin v -> 0 <= v /\ c_def c = c_def c').
Lemma replaced_weight w : forall cs cs', length w = length cs -> Forall (fun x => 0 <= x) w -> Forall2 same_but_replaced cs cs' ->
  Rabs (combine_with w (map c_def cs) - combine_with w (map c_def cs')) <= combine_with w (map (fun c => vol_used (c_vol c)) cs) / 99.
Proof.
  induction w as [|x w IH]; intros cs cs' HL HW H2.
  - destruct cs; [|discriminate]. inversion H2; subst. cbn. rewrite Rminus_diag_eq, Rabs_R0 by reflexivity. lra.
  - destruct cs as [|c cs]; [discriminate|]. inversion H2 as [|? c' ? cs0 HC HR]; subst. inversion HW; subst. assert (B := IH cs cs0 ltac:(cbn in *; lia) ltac:(auto) HR).
    unfold combine_with in *. cbn [map map2]. rewrite !Rsum_cons. destruct HC as (_ & _ & D & D' & HC).
    set (p := Rsum (map2 Rmult w (map c_def cs))) in *. set (p' := Rsum (map2 Rmult w (map c_def cs0))) in *. set (v := Rsum (map2 Rmult w (map (fun c => vol_used (c_vol c)) cs))) in *.
    assert (K : Rabs (x * c_def c - x * c_def c') <= x * vol_used (c_vol c) / 99).
    { replace (x * c_def c - x * c_def c') with (x * (c_def c - c_def c')) by ring. rewrite Rabs_mult, (Rabs_right x) by lra. unfold Rdiv. rewrite Rmult_assoc. apply Rmult_le_compat_l; [lra|].
      destruct (c_vol c) as [u| | |] eqn:EV; cbn [vol_used]; [destruct (HC u eq_refl) as [HU ->]; rewrite Rminus_diag_eq, Rabs_R0 by reflexivity; lra| | |]; apply Rabs_le; lra. }
    replace (x * c_def c + p - (x * c_def c' + p')) with ((x * c_def c - x * c_def c') + (p - p')) by ring.
    eapply Rle_trans; [apply Rabs_triang|]. lra.
Qed.
Lemma Rabs_def2' x y : Rabs x <= y -> - y <= x <= y.
Proof. unfold Rabs. destruct (Rcase_abs x); lra. Qed.
Lemma Forall2_nth_nil {X} (P : list X -> list X -> Prop) : P [] [] -> forall l l' i, Forall2 P l l' -> P (nth i l []) (nth i l' []).
Proof. intros H0 l l' i H. revert i. induction H as [|? ? ? ? H H' IH]; intros [|i]; cbn [nth]; auto. Qed.
Theorem C122_replaced_points : forall itp surface surface' minr h a E sE vol r w1 w2, 0 < h -> (1 <= a < length surface)%nat ->
  grid_rate minr h a < r < grid_rate minr h (S a) ->
  interpolates itp (map location (nth (a - 1) surface [])) (E, sE, vol) w1 -> interpolates itp (map location (nth a surface [])) (E, sE, vol) w2 ->
  Forall (fun cs => finite_at itp (map location cs) (E, sE, vol)) surface -> Forall2 (Forall2 same_but_replaced) surface surface' ->
  let report s := o_mdef XRA (m_observation XRA itp (map (map point_of) s) (Fin minr) (Fin (grid_rate minr h (length s))) (Fin E) (Fin sE) (Fin vol) (Fin r)) in
  exists mdef mdef', report surface = Fin mdef /\ report surface' = Fin mdef' /\ Rabs (mdef - mdef') <= sE / 99.
Proof.
  intros itp surface surface' minr h a E sE vol r w1 w2 Hh Ha Hr H1 H2 HF HS report.
  assert (LOC : forall cs cs', Forall2 same_but_replaced cs cs' -> map location cs = map location cs').
  { intros cs cs' H. induction H as [|c c' ? ? (HL & _) _ IH]; [reflexivity|]. cbn [map]. rewrite HL, IH. reflexivity. }
  assert (LS : length surface = length surface') by (clear -HS; induction HS; cbn; auto).
  assert (N1 := Forall2_nth_nil (Forall2 same_but_replaced) (Forall2_nil _) _ _ (a - 1)%nat HS). assert (N2 := Forall2_nth_nil (Forall2 same_but_replaced) (Forall2_nil _) _ _ a HS).
  assert (H1' : interpolates itp (map location (nth (a - 1) surface' [])) (E, sE, vol) w1) by (rewrite <- (LOC _ _ N1); exact H1).
  assert (H2' : interpolates itp (map location (nth a surface' [])) (E, sE, vol) w2) by (rewrite <- (LOC _ _ N2); exact H2).
  assert (HF' : Forall (fun cs => finite_at itp (map location cs) (E, sE, vol)) surface').
  { clear -HF HS LOC. induction HS as [|cs cs' ? ? Hc HS IH]; constructor; inversion HF; subst; auto. rewrite <- (LOC _ _ Hc). assumption. }
  assert (O := observation_fin itp surface minr h a E sE vol r w1 w2 Hh Ha Hr H1 H2 HF).
  assert (O' := observation_fin itp surface' minr h a E sE vol r w1 w2 Hh ltac:(lia) Hr H1' H2' HF').
  exists (blend surface minr h a r w1 w2 c_def), (blend surface' minr h a r w1 w2 c_def). unfold report. split; [|split].
  - exact (f_equal (o_mdef XRA) O).
  - exact (f_equal (o_mdef XRA) O').
  - assert (T := t_range surface minr h a r Hh Ha Hr). unfold blend. set (t := (r - grid_rate minr h a) / h) in *.
    destruct H1 as (L1 & P1 & _ & _ & V1 & _), H2 as (L2 & P2 & _ & _ & V2 & _). rewrite map_length in L1, L2. rewrite map_map in V1, V2. cbn [location fst snd] in V1, V2.
    assert (B1 := replaced_weight w1 _ _ L1 P1 N1). assert (B2 := replaced_weight w2 _ _ L2 P2 N2). rewrite V1 in B1. rewrite V2 in B2.
    clearbody t. revert B1 B2. generalize (combine_with w1 (map c_def (nth (a - 1) surface []))), (combine_with w1 (map c_def (nth (a - 1) surface' []))), (combine_with w2 (map c_def (nth a surface []))), (combine_with w2 (map c_def (nth a surface' []))).
    intros x x' z z' B1 B2. apply Rabs_def2' in B1. apply Rabs_def2' in B2. apply Rabs_le. nra.
Qed.

(** ** The surface the program computes *)
Definition point_inputs (d y T H bookD rho ltv r F sig : R) : bank_inputs :=
  {| i_r := r; i_T := T; i_bookF := F; i_H := H; i_D := bookD * exp (r * H); i_rho := rho; i_ltv := ltv; i_sig := sig; i_d := d; i_y := y; i_g := 0 |}.
Section Surface.
Context (round9 : xr -> xr) (solve : (xr -> xr) -> xr -> xr) (column : bool) (N HN : nat) (fs : list R) (w : list (list R)).
Context (d y T H bookD rho ltv : R) (J K Q : nat) (xsig xr_ xF : nat -> nat -> nat -> R).
(** the MATLAB valuation with the common shocks *)
Definition valuation (f p : list xr) : res (merton_result XRA) :=
  m_mod_merton_computation XRA exact_spectral round9 exact_int solve f column p N (length w) (map (map Fin) w).
(** every grid point is a valid call whose yield equation is solved *)
Definition valid_grid : Prop := (2 <= N)%nat /\ (2 <= length w)%nat /\ Nat.modulo (length w * (3 * length fs)) 40 = 0%nat /\
  forall j k q, (1 <= j <= J)%nat -> (1 <= k <= K)%nat -> (1 <= q <= Q)%nat ->
    let p := point_inputs d y T H bookD rho ltv (xr_ j k q) (xF j k q) (xsig j k q) in
    valid_call p N HN fs w /\ exists mu, solve (yield_equation p) (Fin (i_r p + 1 / 100)) = Fin mu.
Let fin3d (g : nat -> nat -> nat -> R) := fun j k q => Fin (g j k q).
Let params j k q : list xr := [Fin (xr_ j k q); Fin T; Fin (xF j k q); Fin H; xmul (Fin bookD) (xexp (xmul (Fin (xr_ j k q)) (Fin H))); Fin rho; Fin ltv; Fin (xsig j k q); Fin d; Fin y].

(** a cell of the slice *)
Definition cell_at (j a q : nat) (c : cell) : Prop := In (c_fs c) fs /\ c_sig c = xsig j a q /\ c_F c = xF j a q /\ sound bookD c.
Lemma value_point j k q : valid_grid -> (1 <= j <= J)%nat -> (1 <= k <= K)%nat -> (1 <= q <= Q)%nat ->
  exists m, valuation (map Fin fs) (params j k q) = Ok m /\ forall i, (i < length fs)%nat -> exists L B E def,
    nth i (b_Lt XRA (m_bank XRA m)) NaN = Fin L /\ nth i (b_Bt XRA (m_bank XRA m)) NaN = Fin B /\ nth i (b_Et XRA (m_bank XRA m)) NaN = Fin E /\ nth i (b_mdef XRA (m_bank XRA m)) NaN = Fin def /\
    L = B + E /\ B <= bookD /\ 0 <= def <= 1.
Proof using.
  intros (HN2 & Hw & H40 & HV) Hj Hk Hq. destruct (HV j k q Hj Hk Hq) as (VC & mu & Hs). set (p := point_inputs _ _ _ _ _ _ _ _ _ _) in *.
  destruct (C101_exact_valuation round9 solve p N HN fs w mu VC HN2 Hw Hs H40) as (m & EP & EM). exists m. split.
  - rewrite <- EM. unfold valuation, m_mod_merton_computation, params, p, as_list, point_inputs. cbn [xmul xexp map i_r i_T i_bookF i_H i_D i_rho i_ltv i_sig i_d i_y i_g].
    replace (m_read_param XRA column _) with (m_read_param XRA true [Fin (xr_ j k q); Fin T; Fin (xF j k q); Fin H; Fin (bookD * exp (xr_ j k q * H)); Fin rho; Fin ltv; Fin (xsig j k q); Fin d; Fin y; Fin 0]); [reflexivity|].
    unfold m_read_param. cbn. destruct column; reflexivity.
  - intros i Hi. set (n := (length w * (3 * length fs))%nat) in *. apply Nat.mod_divides in H40; [|lia]. destruct H40 as (c & Hc).
    assert (HFS : (0 < length fs)%nat) by lia. assert (Hn0 : (0 < n)%nat) by (unfold n; nia).
    assert (He : Nat.even n = true) by (apply Nat.even_spec; exists (20 * c)%nat; lia).
    assert (H20 : Nat.even (Nat.div n 20) = true) by (apply Nat.even_spec; exists c; rewrite Hc; replace (40 * c)%nat with (2 * c * 20)%nat by lia; rewrite Nat.div_mul by lia; lia).
    destruct (C70_balance_sheet round9 solve p N HN fs w mu i VC Hs He H20 ltac:(lia) Hi) as (m' & L & B & E & G & def & EP' & E1 & E2 & E3 & _ & E5 & I1 & I2 & _ & I4 & _).
    rewrite EP in EP'. injection EP' as <-. exists L, B, E, def. repeat (split; [assumption|]).
    split; [|exact I4]. eapply Rle_trans; [exact I2|]. right. unfold p, point_inputs. cbn [i_D i_r i_H]. rewrite Rmult_assoc, <- exp_plus. replace (xr_ j k q * H + - xr_ j k q * H) with 0 by ring. rewrite exp_0. ring.
Qed.
Lemma mapM_ok {X Y} (f : X -> res Y) l : (forall x, In x l -> exists y, f x = Ok y) -> exists out, mapM f l = Ok out.
Proof using.
  induction l as [|x l IH]; intros Hx; [exists []; reflexivity|]. destruct (Hx x (or_introl eq_refl)) as (v & Ev). destruct IH as (ys & Eys); [intros; apply Hx; right; auto|].
  exists (v :: ys). cbn [mapM]. rewrite Ev. cbn [bind]. rewrite Eys. reflexivity.
Qed.
Lemma flat_cells {X} (P : cell -> Prop) (g : X -> list (grid_point XRA)) l : (forall x, In x l -> exists cs, g x = map point_of cs /\ Forall P cs) ->
  exists cs, flat_map g l = map point_of cs /\ Forall P cs.
Proof using.
  induction l as [|x l IH]; intros Hx; [exists []; split; [reflexivity|constructor]|]. destruct (Hx x (or_introl eq_refl)) as (c1 & E1 & F1). destruct IH as (c2 & E2 & F2); [intros; apply Hx; right; auto|].
  exists (c1 ++ c2). cbn [flat_map]. rewrite E1, E2, map_app. split; [reflexivity|]. apply Forall_app. auto.
Qed.
Lemma map_cells {X} (P : cell -> Prop) (g : X -> grid_point XRA) l : (forall x, In x l -> exists c, g x = point_of c /\ P c) -> exists cs, map g l = map point_of cs /\ Forall P cs.
Proof using.
  induction l as [|x l IH]; intros Hx; [exists []; split; [reflexivity|constructor]|]. destruct (Hx x (or_introl eq_refl)) as (c1 & E1 & F1). destruct IH as (c2 & E2 & F2); [intros; apply Hx; right; auto|].
  exists (c1 :: c2). cbn [map]. rewrite E1, E2. split; [reflexivity|]. constructor; auto.
Qed.
Let lookup := m_create_lookup XRA valuation (map Fin fs) (Fin d) (Fin y) (Fin T) (Fin H) (Fin bookD) (Fin rho) (Fin ltv) J K Q (fin3d xr_) (fin3d xF) (fin3d xsig).
Lemma lookup_entries : valid_grid -> exists table, lookup = Ok table /\ forall j k q, (1 <= j <= J)%nat -> (1 <= k <= K)%nat -> (1 <= q <= Q)%nat ->
  forall i, (i < length fs)%nat -> let e := nth (q - 1) (nth (k - 1) (nth (j - 1) table []) []) (no_entry XRA) in exists L B E def,
    nth i (l_Lt XRA e) NaN = Fin L /\ nth i (l_Bt XRA e) NaN = Fin B /\ nth i (l_Et XRA e) NaN = Fin E /\ nth i (l_mdef XRA e) NaN = Fin def /\ L = B + E /\ B <= bookD /\ 0 <= def <= 1.
Proof using.
  intros HV. destruct (mapM_ok (fun j => mapM (fun k => mapM (fun q => do m <- valuation (map Fin fs) (params j k q); let b := m_bank XRA m in
    Ok (Build_lookup_entry XRA (b_Lt XRA b) (b_Bt XRA b) (b_Et XRA b) (m_mFt XRA m) (b_mdef XRA b) (b_sigEt XRA b))) (seq 1 Q)) (seq 1 K)) (seq 1 J)) as (table & ET).
  { intros j Hj. apply in_seq in Hj. apply mapM_ok. intros k Hk. apply in_seq in Hk. apply mapM_ok. intros q Hq. apply in_seq in Hq.
    destruct (value_point j k q HV ltac:(lia) ltac:(lia) ltac:(lia)) as (m & Em & _). change (num XRA) with xr in *. rewrite Em. cbn [bind]. eauto. }
  exists table. split; [exact ET|]. intros j k q Hj Hk Hq i Hi.
  destruct (mapM_nth _ _ _ (j - 1)%nat 0%nat [] ET) as (_ & E1). rewrite seq_length in E1. specialize (E1 ltac:(lia)). rewrite seq_nth in E1 by lia. replace (1 + (j - 1))%nat with j in E1 by lia.
  destruct (mapM_nth _ _ _ (k - 1)%nat 0%nat [] E1) as (_ & E2). rewrite seq_length in E2. specialize (E2 ltac:(lia)). rewrite seq_nth in E2 by lia. replace (1 + (k - 1))%nat with k in E2 by lia.
  destruct (mapM_nth _ _ _ (q - 1)%nat 0%nat (no_entry XRA) E2) as (_ & E3). rewrite seq_length in E3. specialize (E3 ltac:(lia)). rewrite seq_nth in E3 by lia. replace (1 + (q - 1))%nat with q in E3 by lia.
  destruct (value_point j k q HV Hj Hk Hq) as (m & Em & G). change (num XRA) with xr in *. rewrite Em in E3. cbn [bind] in E3. injection E3 as E3. rewrite <- E3. apply G. exact Hi.
Qed.
Lemma surface_exists : valid_grid -> exists table, lookup = Ok table /\ forall a, (1 <= a <= K)%nat ->
  exists cs, m_slice XRA (map Fin fs) table (fin3d xsig) (fin3d xF) J Q a = map point_of cs /\ Forall (fun c => exists j q, (1 <= j <= J)%nat /\ (1 <= q <= Q)%nat /\ cell_at j a q c) cs.
Proof using.
  intros HV. destruct (lookup_entries HV) as (table & ET & G). exists table. split; [exact ET|]. intros a Ha. unfold m_slice.
  apply flat_cells. intros q Hq. apply in_seq in Hq. apply flat_cells. intros j Hj. apply in_seq in Hj. cbv zeta. apply map_cells. intros i Hi. apply in_seq in Hi. rewrite map_length in Hi.
  destruct (G j a q ltac:(lia) Ha ltac:(lia) i ltac:(lia)) as (L & B & E & def & E1 & E2 & E3 & E4 & I1 & I2 & I3). cbv zeta in *.
  set (e := nth (q - 1) _ (no_entry XRA)) in *.
  exists (mk_cell (nth i fs 0) (xsig j a q) (xF j a q) L B E def (nth i (l_sigEt XRA e) NaN)). split.
  - unfold point_of. cbn [c_fs c_sig c_F c_L c_B c_E c_def c_vol]. change (@nnan XRA) with NaN. change (num XRA) with xr in *. rewrite E1, E2, E3, E4. f_equal.
    rewrite (nth_indep _ NaN (Fin 0)) by (rewrite map_length; lia). apply map_nth.
  - exists j, q. split; [lia|]. split; [lia|]. unfold cell_at, sound. cbn [c_fs c_sig c_F c_L c_B c_E c_def]. split; [apply nth_In; lia|]. auto.
Qed.
End Surface.

(** *** C122: the whole program.  For every grid of valid points and every bank file, the program succeeds with one row per bank, and every row whose
    interest rate is strictly between two grid rates and whose (E, sE, 0.2) lies inside the two triangulations satisfies the balance sheet *)
Definition inside_row (itp : list (xr * xr * xr) -> list xr -> xr * xr * xr -> xr) (surface : list (list cell)) (minr h E sE r : R) : Prop :=
  exists a w1 w2, (1 <= a < length surface)%nat /\ grid_rate minr h a < r < grid_rate minr h (S a) /\
    interpolates itp (map location (nth (a - 1) surface [])) (E, sE, 2 / 10) w1 /\ interpolates itp (map location (nth a surface [])) (E, sE, 2 / 10) w2 /\
    Forall (fun cs => finite_at itp (map location cs) (E, sE, 2 / 10)) surface.
Theorem C122_program : forall round9 solve column N HN fs w d y T H bookD rho ltv J K Q sigs minr h Fs,
  let xsig := fun j _ _ => nth (j - 1) sigs 0 in let rate := fun _ k _ => grid_rate minr h k in let xF := fun _ _ q => nth (q - 1) Fs 0 in
  0 < h -> (1 <= J)%nat -> (2 <= K)%nat -> (1 <= Q)%nat -> J = length sigs -> Q = length Fs ->
  valid_grid solve N HN fs w d y T H bookD rho ltv J K Q xsig rate xF ->
  exists surface, length surface = K /\
    Forall (Forall (fun c => In (c_fs c) fs /\ In (c_sig c) sigs /\ In (c_F c) Fs /\ sound bookD c)) surface /\
    forall itp data, exists out,
      m_empirical XRA itp (valuation round9 solve column N w) (map Fin fs) (Fin d) (Fin y) (Fin T) (Fin H) (Fin bookD) (Fin rho) (Fin ltv) J K Q
        (fun j k q => Fin (xsig j k q)) (fun j k q => Fin (rate j k q)) (fun j k q => Fin (xF j k q)) data = Ok out /\
      length out = length data /\
      forall n E r sE dflt dflt', (n < length data)%nat -> nth n data dflt = mk_row XRA (Fin E) (Fin r) (Fin sE) -> inside_row itp surface minr h E sE r ->
        exists L B mdef bookF f, nth n out dflt' = mk_reported XRA (Fin L) (Fin B) (Fin mdef) (Fin bookF) (Fin f) /\
          L = B + E /\ B <= bookD /\ 0 <= mdef <= 1 /\ (forall l u, Forall (fun x => l <= x <= u) Fs -> l <= bookF <= u) /\ (forall l u, Forall (fun x => l <= x <= u) fs -> l <= f <= u).
Proof.
  intros round9 solve column N HN fs w d y T H bookD rho ltv J K Q sigs minr h Fs xsig rate xF Hh HJ HK HQ EJ EQ HV.
  destruct (surface_exists round9 solve column N HN fs w d y T H bookD rho ltv J K Q xsig rate xF HV) as (table & ET & HSL).
  set (slice := m_slice XRA (map Fin fs) table (fun j k q => Fin (xsig j k q)) (fun j k q => Fin (xF j k q)) J Q) in *.
  set (P := fun c => In (c_fs c) fs /\ In (c_sig c) sigs /\ In (c_F c) Fs /\ sound bookD c).
  assert (GS : forall ks, (forall a, In a ks -> (1 <= a <= K)%nat) -> exists surface, length surface = length ks /\ map slice ks = map (map point_of) surface /\ Forall (Forall P) surface).
  { induction ks as [|a ks IH]; intros Hk; [exists []; repeat split; constructor|]. destruct IH as (s & L & E & F); [intros; apply Hk; right; auto|].
    destruct (HSL a (Hk a (or_introl eq_refl))) as (cs & Ec & Fc). exists (cs :: s). split; [cbn; lia|]. cbn [map]. rewrite E. split; [f_equal; exact Ec|]. constructor; [|exact F].
    eapply Forall_impl; [|exact Fc]. intros c (j & q & Hj & Hq & I1 & I2 & I3 & I4). unfold P. split; [exact I1|]. rewrite I2, I3. split; [apply nth_In; lia|]. split; [apply nth_In; lia|exact I4]. }
  destruct (GS (seq 1 K)) as (surface & LS & ES & FS); [intros a Ha; apply in_seq in Ha; lia|]. rewrite seq_length in LS.
  exists surface. split; [exact LS|]. split; [exact FS|]. intros itp data. eexists. split; [|split].
  - unfold m_empirical. cbv zeta. change (num XRA) with xr in *. rewrite ET. cbn [bind]. replace (Nat.ltb 0 J && Nat.ltb 0 K && Nat.ltb 0 Q) with true by (symmetry; rewrite !andb_true_iff; repeat split; apply Nat.ltb_lt; lia). cbn [check].
    reflexivity.
  - apply map_length.
  - intros n E r sE dflt dflt' Hn ED (a & w1 & w2 & Ha & Hr & H1 & H2 & HF).
    erewrite (nth_indep _ dflt') by (rewrite map_length; exact Hn). rewrite (map_nth (fun o => _) data dflt n). rewrite ED. cbn [d_E d_r d_sE].
    destruct (C122_balance_sheet itp surface minr h a E sE (2 / 10) r w1 w2 bookD Hh Ha Hr H1 H2 HF) as (L & B & mdef & bookF & f & EO & HB & _ & _ & _ & HFB & Hf).
    exists L, B, mdef, bookF, f.
    assert (NB : Forall P (nth (a - 1) surface [] ++ nth a surface [])).
    { rewrite Forall_forall in FS. apply Forall_app. split; apply FS, nth_In; lia. }
    split; [|split; [|split; [|split; [|split]]]].
    + change (num XRA) with xr in *. fold slice. rewrite ES. unfold rate. replace (grid_rate minr h 1) with minr by (unfold grid_rate; cbn; ring). rewrite <- LS. exact EO.
    + apply HB. eapply Forall_impl; [|exact NB]. unfold P. tauto.
    + apply HB. eapply Forall_impl; [|exact NB]. unfold P. tauto.
    + apply HB. eapply Forall_impl; [|exact NB]. unfold P. tauto.
    + intros l u Hl. apply HFB. eapply Forall_impl; [|exact NB]. intros c (_ & _ & Hc & _). rewrite Forall_forall in Hl. auto.
    + intros l u Hl. apply Hf. eapply Forall_impl; [|exact NB]. intros c (Hc & _). rewrite Forall_forall in Hl. auto.
Qed.

(** *** A concrete case: two rates, two points each, one of the points with an infinite volatility; and a valid grid of four points *)
Definition case_itp (pts : list (xr * xr * xr)) (vals : list xr) (q : xr * xr * xr) : xr := match vals with [Fin x; Fin z] => Fin (9 / 10 * x + 1 / 10 * z) | _ => NaN end.
Definition case_slice (def : R) : list cell :=
  [mk_cell 0 (2/10) (6/10) (11/10) 1 (1/10) 0 (Fin (1/10)); mk_cell (-1) (2/10) (6/10) (9/10) (8/10) (1/10) def PInf].
Example C122_case :
  let surface := [case_slice (1/2); case_slice (1/4)] in let q := (1/10, 999/100, 2/10) in let w := [9/10; 1/10] in
  interpolates case_itp (map location (nth 0 surface [])) q w /\ interpolates case_itp (map location (nth 1 surface [])) q w /\
  Forall (fun cs => finite_at case_itp (map location cs) q) surface /\ Forall (Forall (sound 1)) surface /\ grid_rate 0 (5/1000) 1 < 2/1000 < grid_rate 0 (5/1000) 2 /\
  Forall2 (Forall2 same_but_replaced) surface [case_slice 1; case_slice (1/4)] /\
  valid_grid (fun _ _ => Fin (1/50)) 2 1 [0] (repeat [1; -1; 1/2; 0; 2; -1/2] 40) (1/200) (2/1000) 2 1 1 (1/2) (66/100) 1 2 2
    (fun j _ _ => nth (j - 1) [2/10] 0) (fun _ k _ => grid_rate 0 (5/1000) k) (fun _ _ q => nth (q - 1) [6/10; 7/10] 0).
Proof.
  cbv zeta. split; [|split; [|split; [|split; [|split; [|split]]]]].
  1-2: unfold interpolates, combine_with; cbn [nth map location case_slice c_E c_vol c_sig vol_used fst snd length map2 Rsum fold_right];
    repeat split; try lra; [repeat constructor; lra|]; intros [|x [|z [|? ?]]] HL; try discriminate; cbn; f_equal; unfold combine_with; cbn; lra.
  - repeat constructor; intros [|x [|z [|? ?]]] HL; try discriminate; cbn; eauto.
  - unfold sound. repeat constructor; cbn; lra.
  - unfold grid_rate. cbn. lra.
  - assert (G : forall x y, 0 <= x <= 1 -> 0 <= y <= 1 -> Forall2 same_but_replaced (case_slice x) (case_slice y)).
    { intros x z Hx Hz. unfold case_slice. apply Forall2_cons; [|apply Forall2_cons; [|apply Forall2_nil]]; unfold same_but_replaced; cbn [c_vol c_def];
        (split; [reflexivity|split; [reflexivity|split; [lra|split; [lra|]]]]); intros v Ev; [injection Ev as <-; split; lra|discriminate Ev]. }
    apply Forall2_cons; [apply G; lra|]. apply Forall2_cons; [apply G; lra|]. apply Forall2_nil.
  - unfold valid_grid. split; [lia|]. split; [rewrite repeat_length; lia|]. split; [reflexivity|]. intros j k q Hj Hk Hq. cbv zeta. split; [|eexists; reflexivity].
    assert (Ej : j = 1%nat) by lia. subst j. unfold valid_call, valid_inputs, point_inputs. cbn [i_T i_rho i_sig i_bookF i_ltv i_H Nat.sub nth].
    split; [|split; [lia|split; [cbn; lra|split; [discriminate|split; [|discriminate]]]]].
    + assert (Eq : q = 1%nat \/ q = 2%nat) by lia. destruct Eq as [-> | ->]; cbn [Nat.sub nth]; lra.
    + apply Forall_forall. intros row Hrow. apply repeat_spec in Hrow. subst. reflexivity.
Qed.
