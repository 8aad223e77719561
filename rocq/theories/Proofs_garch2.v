(** GARCH proofs over the extended reals *)
From Coq Require Import Reals Lra List ZArith Lia Bool Arith.
From Verif Require Import Arith XR RealAux Model_garch Spec_garch Proofs_garch.
Import ListNotations.
Local Open Scope R_scope.

Lemma bounds_check_fin s lo up : 0 < lo <= up ->
  bounds_check_py XRA (Fin s) (Fin lo, Fin up) = Fin (clip_log s lo up).
Proof.
  intros [H1 H2]. unfold bounds_check_py, pymax, clip_log. cbn [fst snd nltb XRA].
  destruct (Rle_dec s lo) as [h|h].
  - rewrite xltb_false by lra. rewrite xltb_false by lra. reflexivity.
  - rewrite xltb_true by lra. destruct (Rle_dec s up) as [g|g].
    + rewrite xltb_false by lra. reflexivity.
    + rewrite xltb_true by lra. cbn [isinf XRA xisinf negb nlog ndiv nadd].
      rewrite xdiv_fin by lra. rewrite xlog_fin; [reflexivity|].
      apply Rdiv_lt_0_compat; lra.
Qed.

Lemma clip_log_ge_lo s lo up : 0 < lo <= up -> lo <= clip_log s lo up.
Proof.
  intros H. unfold clip_log. destruct (Rle_dec s lo); [lra|]. destruct (Rle_dec s up); [lra|].
  assert (0 <= ln (s / up)); [|lra]. apply ln_ge_0. apply le_div_iff; lra.
Qed.
Lemma clip_log_pos s lo up : 0 < lo <= up -> 0 < clip_log s lo up.
Proof. intros H; pose proof (clip_log_ge_lo s lo up H); lra. Qed.
Lemma clip_log_mono s s' lo up : 0 < lo <= up -> s <= s' -> clip_log s lo up <= clip_log s' lo up.
Proof.
  intros H Hs. unfold clip_log.
  destruct (Rle_dec s lo), (Rle_dec s' lo); try lra;
  destruct (Rle_dec s' up); try lra.
  - assert (0 <= ln (s' / up)); [|lra]. apply ln_ge_0. apply le_div_iff; lra.
  - destruct (Rle_dec s up); lra.
  - destruct (Rle_dec s up).
    + assert (0 <= ln (s' / up)); [|lra]. apply ln_ge_0. apply le_div_iff; lra.
    + apply Rplus_le_compat_l. apply ln_le.
      * apply Rdiv_lt_0_compat; lra.
      * apply Rmult_le_compat_r; [left; apply Rinv_0_lt_compat; lra|lra].
Qed.
Lemma clip_log_id s lo up : lo <= s <= up -> clip_log s lo up = s.
Proof.
  intros H. unfold clip_log. destruct (Rle_dec s lo); [lra|]. destruct (Rle_dec s up); lra.
Qed.

(** real loop *)
Fixpoint loopR (step : R -> R -> R) (prev : R) (rs : list R) (bs : list (R * R)) : list R :=
  match rs, bs with
  | r :: rs', b :: bs' => let s := clip_log (step prev r) (fst b) (snd b) in s :: loopR step s rs' bs'
  | _, _ => []
  end.
Definition lifts (stepX : xr -> xr -> xr) (step : R -> R -> R) :=
  forall p r, stepX (Fin p) (Fin r) = Fin (step p r).

Lemma var_loop_fin stepX step : lifts stepX step ->
  forall rs bs prev, (length rs <= length bs)%nat -> Forall good_row bs ->
  var_loop XRA stepX (Fin prev) (map Fin rs) (map finrow bs) = Ok (map Fin (loopR step prev rs bs)).
Proof.
  intros HS rs; induction rs as [|r rs IH]; intros bs prev HL HB; [destruct bs; reflexivity|].
  destruct bs as [|b bs]; [simpl in HL; lia|].
  inversion HB as [|? ? Hb HB']; subst. simpl map. cbn [var_loop].
  assert (E : bounds_check_py XRA (stepX (Fin prev) (Fin r)) (finrow b)
              = Fin (clip_log (step prev r) (fst b) (snd b))).
  { rewrite HS. unfold finrow. apply bounds_check_fin. exact Hb. }
  rewrite E. rewrite IH; [reflexivity|simpl in HL; lia|auto].
Qed.

Lemma lifts_garch omega alpha beta :
  lifts (garch_step XRA (Fin omega) (Fin alpha) (Fin beta)) (garch_update omega alpha beta).
Proof. intros p r. unfold garch_step, garch_update. simpl. f_equal. ring. Qed.
Lemma lifts_gjr omega alpha gamma beta :
  lifts (gjr_step XRA (Fin omega) (Fin alpha) (Fin gamma) (Fin beta)) (gjr_update omega alpha gamma beta).
Proof.
  intros p r. unfold gjr_step, gjr_update. cbn.
  destruct (Rlt_dec r 0); cbn; f_equal; ring.
Qed.

Lemma loopR_spec step rs : forall bs prev, (length rs <= length bs)%nat ->
  length (loopR step prev rs bs) = length rs /\
  forall t, (t < length rs)%nat ->
   nth t (loopR step prev rs bs) 0 =
   clip_log (step (nth t (prev :: loopR step prev rs bs) 0) (nth t rs 0))
            (fst (nth t bs (0,0))) (snd (nth t bs (0,0))).
Proof.
  induction rs as [|r rs IH]; intros bs prev HL; [destruct bs; simpl; split; auto; intros; lia|].
  destruct bs as [|b bs]; [simpl in HL; lia|]. simpl.
  destruct (IH bs (clip_log (step prev r) (fst b) (snd b))) as [h1 h2]; [simpl in HL; lia|].
  split; [lia|]. intros [|t] Ht; auto. apply h2; lia.
Qed.

Lemma removelast_map {X Y} (f : X -> Y) l : removelast (map f l) = map f (removelast l).
Proof. induction l as [|a [|b l] IH]; auto. simpl in *. f_equal; auto. Qed.
Lemma tl_map {X Y} (f : X -> Y) l : tl (map f l) = map f (tl l).
Proof. destruct l; auto. Qed.
Lemma Forall_tl {X} (P : X -> Prop) l : Forall P l -> Forall P (tl l).
Proof. destruct 1; simpl; auto. Qed.

Definition s0R_garch omega alpha beta bc : R := omega + (alpha + beta) * bc.
Definition s0R_gjr omega alpha gamma beta bc : R := omega + (alpha + gamma / 2 + beta) * bc.

Definition garchR omega alpha beta bc rs bs : list R :=
  s0R_garch omega alpha beta bc ::
  loopR (garch_update omega alpha beta) (s0R_garch omega alpha beta bc) (removelast rs) (tl bs).
Definition gjrR omega alpha gamma beta bc rs bs : list R :=
  s0R_gjr omega alpha gamma beta bc ::
  loopR (gjr_update omega alpha gamma beta) (s0R_gjr omega alpha gamma beta bc) (removelast rs) (tl bs).

Lemma garch_fin omega alpha beta bc rs bs :
  rs <> [] -> (length rs <= length bs)%nat -> Forall good_row (tl bs) ->
  garch_variance_py XRA [Fin omega; Fin alpha; Fin beta] (map Fin rs) (Fin bc) (map finrow bs)
  = Ok (map Fin (garchR omega alpha beta bc rs bs)).
Proof.
  intros Hn HL HB.
  pose proof (cv_unfold XRA KGarch [Fin omega; Fin alpha; Fin beta] (map Fin rs) (Fin bc) (map finrow bs)) as E.
  change (compute_variance XRA KGarch) with (garch_variance_py XRA) in E. rewrite E; auto.
  2:{ destruct rs; [tauto|discriminate]. }
  cbn [step_of s0_of nadd nmul XRA xadd xmul].
  rewrite removelast_map, tl_map.
  rewrite (var_loop_fin _ _ (lifts_garch omega alpha beta)); auto.
  - rewrite removelast_length, tl_length. lia.
Qed.
Lemma gjr_fin omega alpha gamma beta bc rs bs :
  rs <> [] -> (length rs <= length bs)%nat -> Forall good_row (tl bs) ->
  gjr_variance_py XRA [Fin omega; Fin alpha; Fin gamma; Fin beta] (map Fin rs) (Fin bc) (map finrow bs)
  = Ok (map Fin (gjrR omega alpha gamma beta bc rs bs)).
Proof.
  intros Hn HL HB.
  pose proof (cv_unfold XRA KGjr [Fin omega; Fin alpha; Fin gamma; Fin beta] (map Fin rs) (Fin bc) (map finrow bs)) as E.
  change (compute_variance XRA KGjr) with (gjr_variance_py XRA) in E. rewrite E; auto.
  2:{ destruct rs; [tauto|discriminate]. }
  cbn [step_of s0_of nadd nmul ndiv ofZ XRA xadd xmul].
  rewrite xdiv_fin by lra. cbn [xadd xmul].
  rewrite removelast_map, tl_map.
  rewrite (var_loop_fin _ _ (lifts_gjr omega alpha gamma beta)); auto.
  - rewrite removelast_length, tl_length. lia.
Qed.

Lemma path_of_loop step s0 rs bs :
  rs <> [] -> (length rs <= length bs)%nat ->
  variance_path step s0 rs bs (s0 :: loopR step s0 (removelast rs) (tl bs)).
Proof.
  intros Hn HL. unfold variance_path.
  destruct (loopR_spec step (removelast rs) (tl bs) s0) as [h1 h2].
  { rewrite removelast_length, tl_length; lia. }
  rewrite removelast_length in *.
  assert (length rs <> 0)%nat by (destruct rs; simpl; [tauto|lia]).
  split; [simpl; lia|]. split; [reflexivity|].
  intros t Ht. change (nth (S t) (s0 :: ?l) 0) with (nth t l 0).
  rewrite h2 by lia. rewrite removelast_nth, tl_nth by auto. reflexivity.
Qed.

Lemma path_bounds step s0 rs bs s :
  variance_path step s0 rs bs s -> (length rs <= length bs)%nat -> Forall good_row (tl bs) ->
  0 < s0 ->
  (forall t, (t < length rs)%nat -> 0 < nth t s 0) /\
  (forall t, (S t < length rs)%nat -> fst (nth (S t) bs (0,0)) <= nth (S t) s 0).
Proof.
  intros (HL & H0 & HS) HLb HB Hs0.
  assert (HG : forall t, (S t < length rs)%nat -> good_row (nth (S t) bs (0,0))).
  { intros t Ht. rewrite <- tl_nth. rewrite Forall_forall in HB. apply HB. apply nth_In.
    rewrite tl_length; lia. }
  split.
  - intros [|t] Ht; [rewrite H0; auto|]. rewrite HS by auto. apply clip_log_pos. apply HG; auto.
  - intros t Ht. rewrite HS by auto. apply clip_log_ge_lo. apply HG; auto.
Qed.

(** ** loglikelihood *)
Lemma loglik_term_fin r s : 0 < s ->
  loglik_term XRA (Fin r) (Fin s) = Fin (ln (normal_density s r)).
Proof.
  intros Hs. unfold loglik_term. cbn [nopp lit nmul nlog nadd ndiv nsq ofZ npi XRA xopp xmul xsq].
  pose proof PI_RGT_0.
  rewrite xlog_fin by lra. rewrite xlog_fin by lra. rewrite xdiv_fin by lra. cbn [xadd xmul].
  f_equal. unfold normal_density.
  assert (0 < 2 * PI * s) by (apply Rmult_lt_0_compat; lra).
  rewrite ln_div. 2: apply exp_pos. 2: apply sqrt_lt_R0; auto.
  rewrite ln_exp. rewrite <- Rpower_sqrt by auto. unfold Rpower. rewrite ln_exp.
  rewrite (ln_mult (2 * PI) s) by lra. field. lra.
Qed.
Lemma loglik_fin rs s : Forall (fun x => 0 < x) s ->
  loglikelihood XRA (map Fin rs) (map Fin s) =
  Fin (Rsum (map2 (fun r v => ln (normal_density v r)) rs s)).
Proof.
  intros H. unfold loglikelihood. rewrite map2_map.
  rewrite (map2_ext_in _ (fun x y => Fin (ln (normal_density y x)))).
  - rewrite <- map_map2 with (g := Fin) (f := fun x y => ln (normal_density y x)).
    apply asum_fin.
  - intros x y Hin. apply loglik_term_fin. apply in_combine_r in Hin.
    rewrite Forall_forall in H; auto.
Qed.
