(** * Theorems: SRISK (C24-C27) and SES (C31) *)
From Coq Require Import String Reals Lra List ZArith Lia Bool Arith Permutation Sorting.Sorted.
From Verif Require Import Arith XR RealAux Model_garch Model_measures Spec_garch Spec_measures
  Proofs_garch Proofs_garch2 Proofs_garch3 Proofs_measures.
Import ListNotations.
Local Open Scope R_scope.

Lemma srisk_formula_fin k w d l : w <> 0 ->
  srisk_formula XRA (Fin k) (Fin w) (Fin d) (Fin l) = Fin (shortfall k w d l).
Proof.
  intros Hw. unfold srisk_formula. cbn [nadd nsub nmul ndiv ofZ XRA xadd xsub xmul].
  rewrite xdiv_fin by auto. cbn [xmul xadd xsub]. f_equal. unfold shortfall. field. auto.
Qed.
Lemma srisk_formula_w0 k d l : srisk_formula XRA (Fin k) (Fin 0) (Fin d) (Fin l) = NaN.
Proof.
  unfold srisk_formula. cbn [nadd nsub nmul ndiv ofZ XRA xadd xsub].
  rewrite xdiv_0. unfold xsgn_inf.
  destruct (total_order_T (d + 0) 0) as [[|]|]; cbn [xmul xadd xsub xopp]; auto;
    unfold xsgn_inf; repeat (destruct (total_order_T _ _) as [[|]|]; cbn [xmul xadd xsub xopp]; auto; try lra;
    unfold xsgn_inf).
Qed.

(** ** C24 *)
Definition number_of (v : pyval XRA) : xr := match v with PyFloat x | NpFloat x => x | _ => NaN end.
Theorem C24_value : forall LR firm market W D k w d l t,
  is_float XRA W = true -> is_float XRA D = true ->
  number_of W = Fin w -> number_of D = Fin d -> w <> 0 ->
  LR firm market = Ok (t, Fin l) ->
  exists t', srisk_estimate_one XRA LR firm market W D (Fin k) false = Ok (t', Fin (k * d - (1 - k) * w * (1 - l))).
Proof.
  intros LR firm market W D k w d l t HW HD EW ED Hw EL.
  unfold srisk_estimate_one, srisk_one. rewrite EL. cbn [bind].
  unfold srisk_single.
  assert (E1 : snd (to_scalar XRA W) = Fin w) by (destruct W; simpl in *; congruence).
  assert (E2 : snd (to_scalar XRA D) = Fin d) by (destruct D; simpl in *; congruence).
  rewrite E1, E2. cbn [neqb ofZ XRA snd fst]. rewrite xeqb_false by auto. rewrite andb_false_r. cbn [bind].
  eexists. f_equal. f_equal. etransitivity; [apply srisk_formula_fin; auto|]. f_equal. unfold shortfall. ring.
Qed.
(** the returned number is the capital shortfall, increasing in debt and in LRMES, decreasing in equity,
    and zero exactly at the break-even debt *)
Lemma shortfall_value : forall k w d l, k * d - (1 - k) * w * (1 - l) = shortfall k w d l.
Proof. intros; unfold shortfall; ring. Qed.
Lemma shortfall_increasing_in_debt : forall k w d d' l, 0 < k -> (shortfall k w d l < shortfall k w d' l <-> d < d').
Proof.
  intros k w d d' l Hk. unfold shortfall. split; intros H.
  - apply Rmult_lt_reg_l with k; auto. lra.
  - pose proof (Rmult_lt_compat_l k _ _ Hk H). lra.
Qed.
Lemma shortfall_increasing_in_lrmes : forall k w d l l', k < 1 -> 0 < w -> (shortfall k w d l < shortfall k w d l' <-> l < l').
Proof.
  intros k w d l l' Hk Hw. assert (HP : 0 < (1 - k) * w) by (apply Rmult_lt_0_compat; lra).
  replace (shortfall k w d l) with (k * d - (1 - k) * w + (1 - k) * w * l) by (unfold shortfall; ring).
  replace (shortfall k w d l') with (k * d - (1 - k) * w + (1 - k) * w * l') by (unfold shortfall; ring).
  split; intros H.
  - apply Rmult_lt_reg_l with ((1 - k) * w); auto. lra.
  - pose proof (Rmult_lt_compat_l _ _ _ HP H). lra.
Qed.
Lemma shortfall_decreasing_in_equity : forall k w w' d l, k < 1 -> l < 1 -> (shortfall k w' d l < shortfall k w d l <-> w < w').
Proof.
  intros k w w' d l Hk Hl. assert (HP : 0 < (1 - k) * (1 - l)) by (apply Rmult_lt_0_compat; lra).
  replace (shortfall k w d l) with (k * d - (1 - k) * (1 - l) * w) by (unfold shortfall; ring).
  replace (shortfall k w' d l) with (k * d - (1 - k) * (1 - l) * w') by (unfold shortfall; ring).
  split; intros H.
  - apply Rmult_lt_reg_l with ((1 - k) * (1 - l)); auto. lra.
  - pose proof (Rmult_lt_compat_l _ _ _ HP H). lra.
Qed.
Lemma shortfall_break_even : forall k w d l, k <> 0 -> (shortfall k w d l = 0 <-> d = (1 - k) / k * w * (1 - l)).
Proof.
  intros k w d l Hk. unfold shortfall. split; intros H.
  - apply (Rmult_eq_reg_l k); auto. replace (k * ((1 - k) / k * w * (1 - l))) with ((1 - k) * w * (1 - l)) by (field; auto). lra.
  - subst. field. auto.
Qed.
(** The same facts about the estimates themselves: [srisk_of W D k l v] is a call with LRMES l that returned the number v. *)
Definition srisk_of (W D k l v : R) : Prop := exists (LR : list xr -> list xr -> res (bool * xr)) firm market t t', LR firm market = Ok (t, Fin l) /\
  srisk_estimate_one XRA LR firm market (PyFloat XRA (Fin W)) (PyFloat XRA (Fin D)) (Fin k) false = Ok (t', Fin v).
Lemma srisk_of_shortfall W D k l v : srisk_of W D k l v -> W <> 0 /\ v = shortfall k W D l.
Proof.
  intros (LR & firm & market & t & t' & EL & E). destruct (Req_dec W 0) as [->|HW].
  - exfalso. unfold srisk_estimate_one, srisk_one in E. rewrite EL in E. cbn [bind to_scalar] in E. unfold srisk_single in E. cbn [fst snd negb andb orb] in E. cbn [neqb ofZ XRA] in E. rewrite xeqb_refl in E. discriminate.
  - split; [exact HW|]. destruct (C24_value LR firm market (PyFloat XRA (Fin W)) (PyFloat XRA (Fin D)) k W D l t eq_refl eq_refl eq_refl eq_refl HW EL) as (t2 & E2).
    rewrite E2 in E. injection E as _ E. rewrite <- E. apply shortfall_value.
Qed.
Theorem C24_increasing_in_debt : forall W D D' k l v v', srisk_of W D k l v -> srisk_of W D' k l v' -> 0 < k -> (v < v' <-> D < D').
Proof. intros W D D' k l v v' H H' Hk. apply srisk_of_shortfall in H as [_ ->]. apply srisk_of_shortfall in H' as [_ ->]. apply shortfall_increasing_in_debt; auto. Qed.
Theorem C24_increasing_in_lrmes : forall W D k l l' v v', srisk_of W D k l v -> srisk_of W D k l' v' -> k < 1 -> 0 < W -> (v < v' <-> l < l').
Proof. intros W D k l l' v v' H H' Hk HW. apply srisk_of_shortfall in H as [_ ->]. apply srisk_of_shortfall in H' as [_ ->]. apply shortfall_increasing_in_lrmes; auto. Qed.
Theorem C24_decreasing_in_equity : forall W W' D k l v v', srisk_of W D k l v -> srisk_of W' D k l v' -> k < 1 -> l < 1 -> (v' < v <-> W < W').
Proof. intros W W' D k l v v' H H' Hk Hl. apply srisk_of_shortfall in H as [_ ->]. apply srisk_of_shortfall in H' as [_ ->]. apply shortfall_decreasing_in_equity; auto. Qed.
Theorem C24_break_even : forall W D k l v, srisk_of W D k l v -> k <> 0 -> (v = 0 <-> D = (1 - k) / k * W * (1 - l)).
Proof. intros W D k l v H Hk. apply srisk_of_shortfall in H as [_ ->]. apply shortfall_break_even; auto. Qed.
(** zero equity: Python floats raise, numpy floats give NaN *)
Theorem C24_zero_equity : forall LR firm market k d l t,
  LR firm market = Ok (t, Fin l) ->
  srisk_estimate_one XRA LR firm market (PyFloat XRA (Fin 0)) (PyFloat XRA (Fin d)) (Fin k) false = Err ZeroDivisionError /\
  srisk_estimate_one XRA LR firm market (NpFloat XRA (Fin 0)) (NpFloat XRA (Fin d)) (Fin k) false = Ok (true, NaN).
Proof.
  intros LR firm market k d l t E. unfold srisk_estimate_one, srisk_one. rewrite E. cbn [bind to_scalar].
  unfold srisk_single. cbn [fst snd negb andb orb]. cbn [neqb ofZ XRA]. rewrite xeqb_refl. split; [reflexivity|].
  cbn [bind]. f_equal. f_equal. apply srisk_formula_w0.
Qed.
Example C24_case : exists t, srisk_estimate_one XRA (fun _ _ => Ok (true, Fin (1/4))) [] [] (PyFloat XRA (Fin 10)) (PyFloat XRA (Fin 100))
   (Fin (8/100)) false = Ok (t, Fin (11/10)).
Proof.
  destruct (C24_value (fun _ _ => Ok (true, Fin (1/4))) [] [] (PyFloat XRA (Fin 10)) (PyFloat XRA (Fin 100))
   (8/100) 10 100 (1/4) true) as (t & E); auto; try lra.
  exists t. rewrite E. do 3 f_equal. field.
Qed.

(** ** C25 *)
Lemma clip0_fin x : clip0 XRA (Fin x) = Fin (Rmax x 0).
Proof.
  unfold clip0, npmax. cbn [isnan ofZ XRA xisnan orb nltb]. 
  unfold Rmax. destruct (Rle_dec x 0) as [h|h]; cbn; destruct (Rlt_dec _ _); try reflexivity; try lra; f_equal; lra.
Qed.
Definition firm_value (k : R) (t : R * R * R) : R := let '(w, d, l) := t in k * d - (1 - k) * w * (1 - l).
Lemma collect_ok {X Y} (f : Y -> res X) (g : Y -> X) l : (forall y, In y l -> f y = Ok (g y)) -> collect (map f l) = Ok (map g l).
Proof.
  induction l as [|y l IH]; intros H; simpl; auto. rewrite (H y) by (left; auto). cbn [bind].
  rewrite IH by (intros; apply H; right; auto). reflexivity.
Qed.
Lemma srisk_many_fin LR market k (firms : list (list xr * (R * R * R))) :
  (forall c w d l, In (c, (w, d, l)) firms -> w <> 0 /\ exists t, LR c market = Ok (t, Fin l)) ->
  srisk_estimate_many XRA LR (map fst firms) market (map (fun f => Fin (fst (fst (snd f)))) firms)
     (map (fun f => Fin (snd (fst (snd f)))) firms) (Fin k) = Ok (map Fin (map (fun f => firm_value k (snd f)) firms)).
Proof.
  intros H. unfold srisk_estimate_many, srisk_many.
  induction firms as [|(c & (w & d) & l) firms IH]; [reflexivity|].
  destruct (H c w d l) as (Hw & t & E); [left; auto|].
  specialize (IH (fun c' w' d' l' Hin => H c' w' d' l' (or_intror Hin))).
  cbn [map fst snd collect]. rewrite E. cbn [bind].
  unfold scalar in *. change (num XRA) with xr in *.
  destruct (collect (map (fun c0 => LR c0 market) (map fst firms))) as [ls|e] eqn:EC; cbn [bind] in *; [|discriminate].
  cbn [combine map2]. cbn [fst snd].
  assert (EQ : srisk_formula XRA (Fin k) (Fin w) (Fin d) (Fin l) = Fin (firm_value k (w, d, l))).
  { etransitivity; [apply srisk_formula_fin; auto|]. f_equal. unfold shortfall, firm_value. ring. }
  f_equal. cbn [map]. f_equal; [exact EQ|]. 
  assert (IH' := f_equal (fun r => match r with Ok x => x | Err _ => [] end) IH). cbn in IH'. exact IH'.
Qed.
Theorem C25_aggregate : forall LR market k (firms : list (list xr * (R * R * R))),
  (forall c w d l, In (c, (w, d, l)) firms -> w <> 0 /\ exists t, LR c market = Ok (t, Fin l)) ->
  exists s,
    srisk_estimate_many_aggregate XRA LR (map fst firms) market (map (fun f => Fin (fst (fst (snd f)))) firms)
     (map (fun f => Fin (snd (fst (snd f)))) firms) (Fin k) = Ok (Fin s) /\
    s = Rsum (map (fun f => Rmax (firm_value k (snd f)) 0) firms) /\
    0 <= s /\ (forall f, In f firms -> firm_value k (snd f) <= s) /\
    Rsum (map (fun f => firm_value k (snd f)) firms) <= s.
Proof.
  intros LR market k firms H. exists (Rsum (map (fun f => Rmax (firm_value k (snd f)) 0) firms)).
  assert (HP : forall y, In y (map (fun f : list xr * (R * R * R) => Rmax (firm_value k (snd f)) 0) firms) -> 0 <= y).
  { intros y Hy. apply in_map_iff in Hy as (f & <- & Hf). apply Rmax_r. }
  split; [|split; [reflexivity|split; [apply Rsum_nonneg; auto|split]]].
  - pose proof (srisk_many_fin LR market k firms H) as E.
    unfold srisk_estimate_many_aggregate, srisk_many_aggregate. unfold srisk_estimate_many in E.
    etransitivity; [apply (f_equal (fun r => bind r (fun s => Ok (asum (a:=XRA) (map (clip0 XRA) s)))) E)|]. cbn [bind].
    f_equal. rewrite !map_map.
    rewrite (map_ext (fun x => clip0 XRA (Fin (firm_value k (snd x)))) (fun x => Fin (Rmax (firm_value k (snd x)) 0))).
    2: intros; apply clip0_fin.
    rewrite <- (map_map (fun x => Rmax (firm_value k (snd x)) 0) Fin). apply asum_fin.
  - intros f Hf. eapply Rle_trans; [apply Rmax_l|]. apply Rsum_ge_elem; auto.
    apply (in_map (fun f : list xr * (R * R * R) => Rmax (firm_value k (snd f)) 0)); auto.
  - apply Rsum_le. intros; apply Rmax_l.
Qed.
(** one firm: the documented aggregate option raises AttributeError exactly when the shortfall is a
    plain Python float, i.e. W, D and the LRMES value are all Python floats; any arithmetic. *)
Theorem C25_single_firm_aggregate : forall A LR firm market W D k t l,
  is_float A W = true -> is_float A D = true -> LR firm market = Ok (t, l) ->
  (srisk_estimate_one A LR firm market W D k true = Err AttributeError <->
   (exists w d, W = PyFloat A w /\ D = PyFloat A d /\ neqb w (ofZ 0) = false) /\ t = false).
Proof.
  intros A LR firm market W D k t l HW HD E. unfold srisk_estimate_one, srisk_one. rewrite E. cbn [bind].
  unfold srisk_single.
  destruct W as [w|w|w|w]; destruct D as [d|d|d|d]; cbn in HW, HD; try discriminate; cbn [to_scalar fst snd negb andb orb].
  - destruct (neqb w (ofZ 0)) eqn:EZ; cbn [bind fst orb].
    + split; [discriminate|]. intros [(w' & d' & EW & _ & EN) _]. injection EW as <-. congruence.
    + destruct t; cbn [bind fst snd]; split; intros H; try discriminate; try reflexivity.
      * destruct H; discriminate.
      * split; auto. exists w, d; auto.
  - cbn [bind fst]. rewrite ?andb_false_r. cbn. split; [discriminate|]. intros [(w' & d' & _ & ED & _) _]; discriminate.
  - cbn [bind fst]. split; [discriminate|]. intros [(w' & d' & EW & _ & _) _]; discriminate.
  - cbn [bind fst]. split; [discriminate|]. intros [(w' & d' & EW & _ & _) _]; discriminate.
Qed.
(** Therefore the documented promise "a single float for aggregate SRISK" is false for one firm. *)
Theorem C25_single_firm_aggregate_refuted :
  exists LR firm market W D k, srisk_init XRA [2%nat] [2%nat] W D = Ok (1%nat, 2%nat) /\
    srisk_estimate_one XRA LR firm market W D k false = Ok (false, Fin 1) /\
    srisk_estimate_one XRA LR firm market W D k true = Err AttributeError.
Proof.
  exists (fun _ _ => Ok (false, Fin 0)), [Fin 0; Fin 1], [Fin 1; Fin 0], (PyFloat XRA (Fin 1)), (PyFloat XRA (Fin 3)), (Fin (1/2)).
  split; [reflexivity|]. split.
  - unfold srisk_estimate_one, srisk_one. cbn [bind]. unfold srisk_single. cbn [to_scalar fst snd negb andb orb].
    cbn [neqb ofZ XRA]. rewrite xeqb_false by lra. cbn [bind]. do 2 f_equal.
    etransitivity; [apply srisk_formula_fin; lra|]. f_equal. unfold shortfall. lra.
  - apply (C25_single_firm_aggregate XRA _ _ _ _ _ _ false (Fin 0)); auto. split; auto. exists (Fin 1), (Fin 3).
    repeat split. cbn [neqb ofZ XRA]. apply xeqb_false. lra.
Qed.
(** one firm with a numpy float among W, D and LRMES: max(shortfall, 0) *)
Theorem C25_single_firm_numpy : forall LR firm market W D k w d t l,
  is_float XRA W = true -> is_float XRA D = true -> number_of W = Fin w -> number_of D = Fin d -> w <> 0 ->
  LR firm market = Ok (t, Fin l) ->
  W = NpFloat XRA (Fin w) \/ D = NpFloat XRA (Fin d) \/ t = true ->
  srisk_estimate_one XRA LR firm market W D (Fin k) true = Ok (true, Fin (Rmax (k * d - (1 - k) * w * (1 - l)) 0)).
Proof.
  intros LR firm market W D k w d t l HW HD EW ED Hw EL HT.
  unfold srisk_estimate_one, srisk_one. rewrite EL. cbn [bind]. unfold srisk_single.
  assert (E1 : snd (to_scalar XRA W) = Fin w) by (destruct W; simpl in *; congruence).
  assert (E2 : snd (to_scalar XRA D) = Fin d) by (destruct D; simpl in *; congruence).
  assert (E3 : fst (to_scalar XRA W) || fst (to_scalar XRA D) || t = true).
  { destruct HT as [-> | [-> | ->]]; cbn [to_scalar fst orb]; rewrite ?orb_true_r; reflexivity. }
  rewrite E1, E2. cbn [neqb ofZ XRA snd fst]. rewrite xeqb_false by auto. rewrite andb_false_r. cbn [bind fst snd].
  rewrite E3. f_equal. f_equal. 
  rewrite (srisk_formula_fin k w d l Hw). rewrite clip0_fin. etransitivity; [apply (asum_fin [_])|]. f_equal. cbn [Rsum].
  rewrite Rplus_0_r. f_equal. unfold shortfall. ring.
Qed.
(** zero equity, Python floats: ZeroDivisionError, with or without aggregation *)
Theorem C25_single_firm_zero_equity : forall (A : Arith) LR firm market w d k t l aggregate,
  LR firm market = Ok (t, l) -> neqb w (ofZ 0) = true ->
  srisk_estimate_one A LR firm market (PyFloat A w) (PyFloat A d) k aggregate = Err ZeroDivisionError.
Proof.
  intros A LR firm market w d k t l ag EL HZ. unfold srisk_estimate_one, srisk_one. rewrite EL. cbn [bind]. unfold srisk_single.
  cbn [to_scalar fst snd negb andb]. rewrite HZ. reflexivity.
Qed.
Example C25_case : forall LR market, (forall c, LR c market = Ok (true, Fin (1/2))) ->
  exists s, srisk_estimate_many_aggregate XRA LR [[Fin 1];[Fin 2]] market [Fin 1; Fin 4] [Fin 10; Fin 1] (Fin (1/2)) = Ok (Fin s) /\ s = 19/4.
Proof.
  intros LR market H.
  destruct (C25_aggregate LR market (1/2) [([Fin 1], (1, 10, 1/2)); ([Fin 2], (4, 1, 1/2))]) as (s & E & ES & _).
  - intros c w d l [Hc|[Hc|[]]]; injection Hc as <- <- <- <-; split; try lra; exists true; auto.
  - exists s. split; [exact E|]. rewrite ES. cbn [map snd firm_value Rsum].
    rewrite Rmax_left by lra. rewrite Rmax_right by lra. lra.
Qed.

(** ** C26 *)
(** The two accepted configurations. *)
Definition one_firm_input A (firm_shape market_shape : list nat) (W D : pyval A) (n_days : nat) : Prop :=
  firm_shape = [n_days] /\ market_shape = [n_days] /\ is_float A W = true /\ is_float A D = true.
Definition many_firms_input A (firm_shape market_shape : list nat) (W D : pyval A) (n_days n_firms : nat) : Prop :=
  firm_shape = [n_days; n_firms] /\ (1 < n_firms)%nat /\ (exists rest, market_shape = n_days :: rest) /\
  (exists w, W = NpArray A [n_firms] w) /\ (exists d, D = NpArray A [n_firms] d).
Lemma shape_eqb_iff a b : shape_eqb a b = true <-> a = b.
Proof. unfold shape_eqb. destruct (list_eq_dec Nat.eq_dec a b); split; intros; auto; discriminate. Qed.
Theorem C26_accepts : forall A firm_shape market_shape W D n_firms n_days,
  srisk_init A firm_shape market_shape W D = Ok (n_firms, n_days) <->
  (n_firms = 1%nat /\ one_firm_input A firm_shape market_shape W D n_days) \/
  many_firms_input A firm_shape market_shape W D n_days n_firms.
Proof.
  intros A fs ms W D nf nd. unfold srisk_init, one_firm_input, many_firms_input, check. split.
  - destruct fs as [|d0 [|f0 [|? ?]]]; try discriminate.
    + destruct (shape_eqb [d0] ms) eqn:E; [|discriminate]. apply shape_eqb_iff in E. subst ms.
      destruct (is_float A D) eqn:ED, (is_float A W) eqn:EW; cbn; try discriminate.
      intros H; injection H as <- <-. left. repeat split; auto.
    + destruct (1 <? f0)%nat eqn:E1; [|discriminate]. destruct ms as [|m0 ms']; [discriminate|].
      destruct (Nat.eqb_spec m0 d0); [|discriminate]. subst m0.
      destruct D as [|? |?|sd dd]; try discriminate; destruct W as [|?|?|sw dw]; try discriminate.
      cbn [is_array andb vshape]. destruct (shape_eqb sd sw) eqn:E2; [|discriminate].
      destruct (shape_eqb sd [f0]) eqn:E3; [|discriminate]. apply shape_eqb_iff in E2, E3. subst.
      intros H; injection H as <- <-. right. apply Nat.ltb_lt in E1. repeat split; eauto.
  - intros [(-> & -> & -> & HW & HD)|(-> & H1 & (rest & ->) & (w & ->) & (d & ->))].
    + replace (shape_eqb [nd] [nd]) with true by (symmetry; apply shape_eqb_iff; auto). rewrite HW, HD. reflexivity.
    + apply Nat.ltb_lt in H1. rewrite H1, Nat.eqb_refl. cbn [is_array andb vshape].
      replace (shape_eqb [nf] [nf]) with true by (symmetry; apply shape_eqb_iff; auto). reflexivity.
Qed.
Theorem C26_rejects : forall A firm_shape market_shape W D,
  (forall n, ~ one_firm_input A firm_shape market_shape W D n) ->
  (forall n m, ~ many_firms_input A firm_shape market_shape W D n m) ->
  srisk_init A firm_shape market_shape W D =
    Err (match firm_shape with
         | [_] => AssertionError
         | [_; n_firms] => if (1 <? n_firms)%nat then match market_shape with [] => IndexError | _ => AssertionError end
                           else AssertionError
         | _ => ValueError end).
Proof.
  intros A fs ms W D H1 H2.
  destruct (srisk_init A fs ms W D) as [[nf nd]|e] eqn:E.
  - apply C26_accepts in E as [[_ E]|E]; [destruct (H1 _ E)|destruct (H2 _ _ E)].
  - unfold srisk_init, check in E. destruct fs as [|d0 [|f0 [|? ?]]]; try congruence.
    + destruct (shape_eqb [d0] ms); [|congruence]. destruct (is_float A D && is_float A W); congruence.
    + destruct (1 <? f0)%nat; [|congruence]. destruct ms; [congruence|].
      destruct (_ =? _)%nat; [|congruence]. destruct (is_array A D && is_array A W); [|congruence].
      destruct (shape_eqb (vshape A D) _); [|congruence]. destruct (shape_eqb _ [f0]); congruence.
Qed.
Corollary C26_integers_rejected : forall A n z D, srisk_init A [n] [n] (PyInt A z) D = Err AssertionError.
Proof.
  intros. rewrite C26_rejects; auto.
  - intros m (_ & _ & H & _). discriminate.
  - intros m p (H & _). discriminate.
Qed.
Example C26_case : many_firms_input XRA [500;2]%nat [500]%nat (NpArray XRA [2%nat] [Fin 1; Fin 2]) (NpArray XRA [2%nat] [Fin 3; Fin 4]) 500 2
  /\ one_firm_input XRA [500]%nat [500]%nat (PyFloat XRA (Fin 1)) (NpFloat XRA (Fin 2)) 500.
Proof. unfold many_firms_input, one_firm_input. repeat split; eauto. Qed.

(** ** C27 *)
Lemma collect_nth {X} (l : list (res X)) xs : collect l = Ok xs ->
  length xs = length l /\ forall i d d', (i < length l)%nat -> nth i l d' = Ok (nth i xs d).
Proof.
  revert xs. induction l as [|r l IH]; intros xs H; simpl in H.
  - injection H as <-. split; auto. intros; simpl in *; lia.
  - destruct r as [x|]; cbn [bind] in H; [|discriminate]. destruct (collect l) as [ys|]; cbn [bind] in H; [|discriminate].
    injection H as <-. destruct (IH ys eq_refl) as [HL HN]. split; [simpl; auto|].
    intros [|i] d d' Hi; simpl; auto. apply HN. simpl in Hi; lia.
Qed.
Lemma collect_err {X} (l : list (res X)) e : collect l = Err e <-> exists l1 l2, l = l1 ++ Err e :: l2 /\ forall r, In r l1 -> exists x, r = Ok x.
Proof.
  induction l as [|r l IH]; simpl.
  - split; [discriminate|]. intros ([|] & l2 & E & _); discriminate.
  - destruct r as [x|e']; cbn [bind].
    + destruct (collect l) as [ys|e0]; cbn [bind].
      * split; [discriminate|]. intros ([|r l1] & l2 & E & H); [discriminate|]. injection E as _ ->.
        assert (Ok ys = Err e) by (apply IH; exists l1, l2; split; auto; intros; apply H; right; auto). discriminate.
      * split.
        -- intros E. injection E as ->. destruct IH as [IH _]. destruct (IH eq_refl) as (l1 & l2 & -> & H).
           exists (Ok x :: l1), l2. split; auto. intros r [<-|Hr]; eauto.
        -- intros ([|r l1] & l2 & E & H); [discriminate|]. injection E as _ ->.
           apply IH. exists l1, l2. split; auto. intros; apply H; right; auto.
    + split.
      * intros E. injection E as ->. exists [], l. split; auto. intros r [].
      * intros ([|r l1] & l2 & E & H); [injection E as -> _; auto|]. injection E as <- _.
        destruct (H (Err e') (or_introl eq_refl)) as (x & Hx). discriminate.
Qed.
Theorem C27_columnwise : forall A LR columns market W D k out,
  length W = length columns -> length D = length columns ->
  srisk_estimate_many A LR columns market W D k = Ok out ->
  length out = length columns /\
  forall i, (i < length columns)%nat ->
    srisk_estimate_one A LR (nth i columns []) market (NpFloat A (nth i W nnan)) (NpFloat A (nth i D nnan)) k false
      = Ok (true, nth i out nnan).
Proof.
  intros A LR columns market W D k out HW HD E. unfold srisk_estimate_many, srisk_many in E.
  destruct (collect (map (fun c => LR c market) columns)) as [ls|] eqn:EC; cbn [bind] in E; [|discriminate].
  injection E as <-. destruct (collect_nth _ _ EC) as [HL HN]. rewrite map_length in HL, HN.
  assert (HC : length (combine W D) = length columns) by (rewrite combine_length; lia).
  unfold scalar in *.   split; [rewrite map2_length; lia|].
  intros i Hi. unfold srisk_estimate_one, srisk_one.
  specialize (HN i (false, nnan) (LR [] market) Hi).
  change (LR [] market) with ((fun c => LR c market) []) in HN. rewrite map_nth in HN.
  rewrite HN. cbn [bind to_scalar]. unfold srisk_single. cbn [fst snd negb andb orb bind].
  f_equal. f_equal. rewrite (map2_nth _ _ _ _ (nnan, nnan) (false, nnan)) by lia.
  rewrite combine_nth by lia. reflexivity.
Qed.
(** succeeds exactly when every LRMES does; otherwise the first failing firm's exception *)
Theorem C27_errors : forall A LR columns market W D k e,
  srisk_estimate_many A LR columns market W D k = Err e <->
  exists before c after, columns = before ++ c :: after /\ LR c market = Err e /\
     forall b, In b before -> exists v, LR b market = Ok v.
Proof.
  intros A LR columns market W D k e. unfold srisk_estimate_many, srisk_many. split.
  - destruct (collect (map (fun c => LR c market) columns)) as [ls|e'] eqn:EC; cbn [bind]; [discriminate|].
    intros H; injection H as ->. apply collect_err in EC as (l1 & l2 & E & H).
    apply map_eq_app in E as (b & r & -> & <- & E). destruct r as [|c a]; [discriminate|].
    injection E as E1 <-. exists b, c, a. split; auto. split; auto. intros x Hx. apply H.
    apply (in_map (fun c => LR c market)); auto.
  - intros (b & c & a & -> & E & H). replace (collect _) with (@Err (list (scalar A)) e); [reflexivity|].
    symmetry. apply collect_err. exists (map (fun c => LR c market) b), (map (fun c => LR c market) a).
    rewrite map_app. cbn [map]. rewrite E. split; auto. intros r Hr. apply in_map_iff in Hr as (x & <- & Hx). auto.
Qed.
(** entry i is a function of column i, W[i], D[i] (and the market) only *)
Theorem C27_independent_of_other_firms : forall A LR market k columns W D out columns' W' D' out' i j,
  length W = length columns -> length D = length columns -> length W' = length columns' -> length D' = length columns' ->
  srisk_estimate_many A LR columns market W D k = Ok out ->
  srisk_estimate_many A LR columns' market W' D' k = Ok out' ->
  (i < length columns)%nat -> (j < length columns')%nat ->
  nth i columns [] = nth j columns' [] -> nth i W nnan = nth j W' nnan -> nth i D nnan = nth j D' nnan ->
  nth i out nnan = nth j out' nnan.
Proof.
  intros until j. intros HW HD HW' HD' E E' Hi Hj Ec EW ED.
  destruct (C27_columnwise _ _ _ _ _ _ _ _ HW HD E) as [_ H]. destruct (C27_columnwise _ _ _ _ _ _ _ _ HW' HD' E') as [_ H'].
  specialize (H i Hi). specialize (H' j Hj). rewrite Ec, EW, ED in H. rewrite H in H'. congruence.
Qed.
Example C27_case : exists out, srisk_estimate_many XRA (fun c _ => Ok (true, nth 0 c NaN)) [[Fin 1];[Fin 2]] [] [Fin 1; Fin 4] [Fin 10; Fin 1] (Fin (1/2)) = Ok out
  /\ length out = 2%nat.
Proof. eexists. split; [reflexivity|reflexivity]. Qed.

(** ** C31 *)
Definition lstsq3_ok (ls : list xr -> list xr -> list xr -> xr * xr * xr) : Prop :=
  forall x1 x2 y, length x1 = length x2 -> length x1 = length y ->
    exists a b c, ls (map Fin x1) (map Fin x2) (map Fin y) = (Fin a, Fin b, Fin c) /\ minimises3 x1 x2 y a b c.

Lemma sse3_mid x1 x2 y a b c a' b' c' : length (combine x1 x2) = length y ->
  sse3 x1 x2 y ((a+a')/2) ((b+b')/2) ((c+c')/2) =
  (sse3 x1 x2 y a b c + sse3 x1 x2 y a' b' c') / 2
   - Rsum (map (fun u => ((a - a') + (b - b') * fst u + (c - c') * snd u) ^ 2) (combine x1 x2)) / 4.
Proof.
  unfold sse3. generalize (combine x1 x2) as m. intros m; revert y. induction m as [|u m IH]; intros [|v y] H; try discriminate.
  - cbn. lra.
  - cbn [map2 map Rsum]. rewrite IH by (simpl in H; lia). field.
Qed.
Lemma minimiser_unique x1 x2 y a b c a' b' c' : length (combine x1 x2) = length y -> full_rank3 x1 x2 ->
  minimises3 x1 x2 y a b c -> minimises3 x1 x2 y a' b' c' -> a = a' /\ b = b' /\ c = c'.
Proof.
  intros HL HR H H'. pose proof (sse3_mid x1 x2 y a b c a' b' c' HL) as E.
  set (S := map (fun u => ((a - a') + (b - b') * fst u + (c - c') * snd u) ^ 2) (combine x1 x2)) in *.
  assert (HP : forall s, In s S -> 0 <= s).
  { intros s Hs. apply in_map_iff in Hs as (u & <- & _). apply pow2_ge_0. }
  assert (HS : Rsum S = 0).
  { pose proof (H ((a+a')/2) ((b+b')/2) ((c+c')/2)). pose proof (H' ((a+a')/2) ((b+b')/2) ((c+c')/2)).
    pose proof (Rsum_nonneg S HP). lra. }
  destruct (HR (a - a') (b - b') (c - c')) as (E1 & E2 & E3).
  - intros u v Hu. pose proof (Rsum_zero_all S HP HS) as HZ.
    specialize (HZ (((a - a') + (b - b') * u + (c - c') * v) ^ 2)). cbn [pow] in HZ.
    assert (HI : ((a - a') + (b - b') * u + (c - c') * v) * (((a - a') + (b - b') * u + (c - c') * v) * 1) = 0).
    { apply HZ. apply in_map_iff. exists (u, v). split; auto. }
    rewrite Rmult_1_r in HI. apply Rmult_integral in HI. tauto.
  - lra.
Qed.
Theorem C31_value : forall ls mes lvg ses m l a b c,
  lstsq3_ok ls -> length mes = length lvg -> length mes = length ses -> full_rank3 mes lvg ->
  minimises3 mes lvg ses a b c -> b + c <> 0 ->
  ses_estimate XRA ls (map Fin mes) (map Fin lvg) (map Fin ses) (Fin m) (Fin l) "BFLV2012" =
    Ok (Fin ((b * m + c * l) / (b + c))).
Proof.
  intros ls x1 x2 y m l a b c H HL1 HL2 HR HM Hbc. unfold ses_estimate, check. rewrite !map_length, HL1, <- HL2, HL1, !Nat.eqb_refl.
  cbn [String.eqb Ascii.eqb Bool.eqb orb]. simpl (_ || _)%bool. cbv iota.
  destruct (H x1 x2 y HL1 HL2) as (a' & b' & c' & E & HM').
  unfold ses_bflv. rewrite E.
  destruct (minimiser_unique x1 x2 y a b c a' b' c') as (<- & <- & <-); auto.
  { rewrite combine_length; lia. }
  cbn [nadd nmul ndiv XRA xadd xmul]. rewrite xdiv_fin by auto. reflexivity.
Qed.
Theorem C31_equal_inputs : forall ls mes lvg ses x a b c,
  lstsq3_ok ls -> length mes = length lvg -> length mes = length ses -> full_rank3 mes lvg ->
  minimises3 mes lvg ses a b c -> b + c <> 0 ->
  ses_estimate XRA ls (map Fin mes) (map Fin lvg) (map Fin ses) (Fin x) (Fin x) "BFLV2012" = Ok (Fin x).
Proof. intros. erewrite C31_value; eauto. do 2 f_equal. field. auto. Qed.
Theorem C31_between : forall ls mes lvg ses m l a b c,
  lstsq3_ok ls -> length mes = length lvg -> length mes = length ses -> full_rank3 mes lvg ->
  minimises3 mes lvg ses a b c -> 0 < b -> 0 < c ->
  exists v, ses_estimate XRA ls (map Fin mes) (map Fin lvg) (map Fin ses) (Fin m) (Fin l) "BFLV2012" = Ok (Fin v) /\
    Rmin m l <= v <= Rmax m l.
Proof.
  intros ls x1 x2 y m l a b c H H1 H2 H3 H4 Hb Hc. erewrite C31_value; eauto; [|lra].
  eexists; split; [reflexivity|].
  pose proof (Rmin_l m l). pose proof (Rmin_r m l). pose proof (Rmax_l m l). pose proof (Rmax_r m l).
  split.
  - apply le_div_iff; [lra|].
    assert (Rmin m l * b <= m * b) by (apply Rmult_le_compat_r; lra).
    assert (Rmin m l * c <= l * c) by (apply Rmult_le_compat_r; lra). lra.
  - apply div_le_iff; [lra|].
    assert (m * b <= Rmax m l * b) by (apply Rmult_le_compat_r; lra).
    assert (l * c <= Rmax m l * c) by (apply Rmult_le_compat_r; lra). lra.
Qed.
Lemma sse3_affine x1 x2 y s t a b c : length (combine x1 x2) = length y ->
  sse3 x1 x2 (map (fun v => s * v + t) y) (s * a + t) (s * b) (s * c) = s * s * sse3 x1 x2 y a b c.
Proof.
  unfold sse3. generalize (combine x1 x2) as m. intros m; revert y. induction m as [|u m IH]; intros [|v y] H; try discriminate.
  - cbn. lra.
  - cbn [map map2 Rsum]. rewrite IH by (simpl in H; lia). ring.
Qed.
Theorem C31_affine_invariant : forall ls mes lvg ses m l a b c s t,
  lstsq3_ok ls -> length mes = length lvg -> length mes = length ses -> full_rank3 mes lvg ->
  minimises3 mes lvg ses a b c -> b + c <> 0 -> s <> 0 ->
  ses_estimate XRA ls (map Fin mes) (map Fin lvg) (map Fin (map (fun v => s * v + t) ses)) (Fin m) (Fin l) "BFLV2012" =
  ses_estimate XRA ls (map Fin mes) (map Fin lvg) (map Fin ses) (Fin m) (Fin l) "BFLV2012".
Proof.
  intros ls x1 x2 y m l a b c s t H H1 H2 H3 H4 Hbc Hs.
  assert (HLC : length (combine x1 x2) = length y) by (rewrite combine_length; lia).
  rewrite (C31_value ls x1 x2 y m l a b c) by auto.
  assert (HN : s * b + s * c <> 0).
  { intros E. assert (E2 : s * (b + c) = 0) by lra. apply Rmult_integral in E2; tauto. }
  rewrite (C31_value ls x1 x2 _ m l (s * a + t) (s * b) (s * c)); auto.
  - do 2 f_equal. field. split; auto.
  - rewrite map_length; auto.
  - intros a' b' c'. rewrite sse3_affine by auto.
    replace a' with (s * ((a' - t) / s) + t) by (field; auto). replace b' with (s * (b' / s)) by (field; auto).
    replace c' with (s * (c' / s)) by (field; auto). rewrite sse3_affine by auto.
    apply Rmult_le_compat_l; [apply sqr_nonneg|]. apply H4.
Qed.
(** offsetting slopes: the weights do not exist and the division yields an infinity or NaN *)
Theorem C31_offsetting_slopes : forall ls mes lvg ses m l a b c,
  lstsq3_ok ls -> length mes = length lvg -> length mes = length ses -> full_rank3 mes lvg ->
  minimises3 mes lvg ses a b c -> b + c = 0 ->
  exists v, ses_estimate XRA ls (map Fin mes) (map Fin lvg) (map Fin ses) (Fin m) (Fin l) "BFLV2012" = Ok v /\
    (forall r, v <> Fin r) /\ (v = NaN <-> b * (m - l) = 0).
Proof.
  intros ls x1 x2 y m l a b c H HL1 HL2 HR HM Hbc. unfold ses_estimate, check. rewrite !map_length, HL1, <- HL2, HL1, !Nat.eqb_refl.
  simpl (_ || _)%bool. cbv iota.
  destruct (H x1 x2 y HL1 HL2) as (a' & b' & c' & E & HM').
  unfold ses_bflv. cbn [String.eqb Ascii.eqb Bool.eqb]. rewrite E.
  destruct (minimiser_unique x1 x2 y a b c a' b' c') as (<- & <- & <-); auto.
  { rewrite combine_length; lia. }
  eexists. split; [reflexivity|]. cbn [nadd nmul ndiv XRA xadd xmul]. rewrite Hbc, xdiv_0.
  replace (b * m + c * l) with (b * (m - l)) by (replace c with (- b) by lra; ring).
  unfold xsgn_inf. destruct (total_order_T (b * (m - l)) 0) as [[|]|]; split; try (intros; discriminate); split; intros; auto; try discriminate; try lra.
Qed.
Theorem C31_errors : forall A ls mes lvg ses m l version,
  ses_estimate A ls mes lvg ses m l version =
    (if negb (Nat.eqb (length mes) (length lvg) && Nat.eqb (length mes) (length ses)) then Err AssertionError
     else if String.eqb version "BFLV2012" then Ok (ses_bflv A ls mes lvg ses m l)
     else if String.eqb version "APPR2017" then Err NotImplementedError
     else Err AssertionError).
Proof.
  intros. unfold ses_estimate, check. destruct (length mes =? length lvg)%nat, (length mes =? length ses)%nat; cbn; auto.
  destruct (String.eqb version "BFLV2012"), (String.eqb version "APPR2017"); reflexivity.
Qed.
(** the least-squares hypotheses are satisfiable: an exact plane through four points *)
Example C31_case : full_rank3 [0;1;0;1] [0;0;1;1] /\ minimises3 [0;1;0;1] [0;0;1;1] [1;3;4;6] 1 2 3.
Proof.
  split.
  - intros a b c H. pose proof (H 0 0 ltac:(simpl; auto)). pose proof (H 1 0 ltac:(simpl; auto)).
    pose proof (H 0 1 ltac:(simpl; auto)). lra.
  - intros a b c. replace (sse3 [0;1;0;1] [0;0;1;1] [1;3;4;6] 1 2 3) with 0 by (unfold sse3; cbn; ring).
    unfold sse3. apply Rsum_nonneg. intros x Hx. rewrite map2_combine in Hx. apply in_map_iff in Hx as (p & <- & _).
    apply pow2_ge_0.
Qed.
