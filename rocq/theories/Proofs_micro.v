From Coq Require Import Reals Lra List ZArith Lia Bool Arith Permutation.
From Verif Require Import Arith XR RealAux Model_micro Spec_micro.
Import ListNotations.
Local Open Scope R_scope.

Lemma map2_diag {T X Y Z} (f : X -> Y -> Z) (g : T -> X) (h : T -> Y) ts :
  map2 f (map g ts) (map h ts) = map (fun t => f (g t) (h t)) ts.
Proof. induction ts; simpl; f_equal; auto. Qed.
Lemma nanmean_fin l : l <> [] -> nanmean XRA (map Fin l) = Fin (Rmean l).
Proof.
  intros H. unfold nanmean.
  assert (E : filter (fun x => negb (isnan (a:=XRA) x)) (map Fin l) = map Fin l).
  { clear. induction l; simpl; f_equal; auto. }
  etransitivity; [apply (f_equal (amean XRA) E)|]. apply amean_fin; auto.
Qed.
Lemma nanmean_nil : nanmean XRA [] = NaN.
Proof. exact amean_nil. Qed.
Lemma nanmean_nan_drop l : nanmean XRA l = nanmean XRA (filter (fun x => negb (xisnan x)) l).
Proof.
  unfold nanmean. f_equal. induction l as [|x l IH]; simpl; auto. destruct x; simpl; auto; f_equal; auto.
Qed.

Definition col (f : trade -> R) (ts : list trade) : list xr := map (fun t => Fin (f t)) ts.

(** dollar-volume average of (value, weight) pairs over the reals *)
Definition all_zero (fw : list (R * R)) : Prop := forall v w, In (v, w) fw -> w = 0.
Definition wsum (fw : list (R * R)) := Rsum (map snd fw).
Definition wprod (fw : list (R * R)) := Rsum (map (fun p => fst p * snd p) fw).
Lemma all_zero_dec fw : {all_zero fw} + {~ all_zero fw}.
Proof.
  induction fw as [|(v & w) fw IH].
  - left. intros v w [].
  - destruct IH as [IH|IH].
    + destruct (Req_EM_T w 0) as [E|E].
      * left. intros v' w' [H|H]; [injection H as <- <-; auto|eapply IH; eauto].
      * right. intros H. apply E. apply (H v). left; auto.
    + right. intros H. apply IH. intros v' w' Hin. eapply H. right; eauto.
Qed.
Definition davg (fw : list (R * R)) : res xr :=
  if all_zero_dec fw then Ok (match fw with [] => NaN | _ => Fin (Rmean (map fst fw)) end)
  else if Req_EM_T (wsum fw) 0 then Err ZeroDivisionError else Ok (Fin (wprod fw / wsum fw)).

Lemma bcast_same {T} (f : xr -> xr -> xr) (g h : T -> xr) ts :
  bcast XRA f (map g ts) (map h ts) = Ok (map (fun t => f (g t) (h t)) ts).
Proof. unfold bcast. rewrite !map_length, Nat.eqb_refl. f_equal. apply (map2_diag (X:=num XRA) (Y:=num XRA)). Qed.

Lemma dollar_average_fin (f : trade -> R) ts :
  dollar_average XRA (map (fun t => Fin (f t)) ts) (col t_vol ts) (col t_price ts) =
  davg (map (fun t => (f t, t_weight t)) ts).
Proof.
  unfold dollar_average, col.
  etransitivity; [apply (f_equal (fun r => bind r _) (bcast_same xmul (fun t => Fin (t_vol t)) (fun t => Fin (t_price t)) ts))|].
  cbn [bind xmul]. change (fun t : trade => Fin (t_vol t * t_price t)) with (fun t : trade => Fin (t_weight t)).
  assert (EA : forallb (fun x => neqb (a:=XRA) x (ofZ 0)) (map (fun t : trade => Fin (t_weight t)) ts) =
    (if all_zero_dec (map (fun t => (f t, t_weight t)) ts) then true else false)).
  { destruct (all_zero_dec _) as [H|H].
    - apply forallb_forall. intros x Hx. apply in_map_iff in Hx as (t & <- & Ht). cbn [neqb ofZ XRA].
      apply xeqb_iff. apply (H (f t)). apply in_map_iff. exists t; auto.
    - destruct (forallb _ _) eqn:E; auto. exfalso. apply H. intros v w Hin. apply in_map_iff in Hin as (t & Et & Ht).
      injection Et as <- <-. rewrite forallb_forall in E. specialize (E (Fin (t_weight t))).
      cbn [neqb ofZ XRA] in E. apply xeqb_iff. apply E. apply (in_map (fun t => Fin (t_weight t))); auto. }
  etransitivity; [apply (f_equal (fun b : bool => if b then _ else _) EA)|].
  unfold davg. destruct (all_zero_dec _) as [H|H].
  - destruct ts as [|t ts]; [cbn [map]; f_equal; apply nanmean_nil|]. cbn [map]. f_equal.
    rewrite map_map. cbn [fst].
    change (nanmean XRA (map (fun t => Fin (f t)) (t :: ts)) = Fin (Rmean (map f (t :: ts)))).
    rewrite <- (map_map f Fin). apply nanmean_fin. discriminate.
  - unfold waverage, check. rewrite !map_length, Nat.eqb_refl. cbv zeta.
    change (num XRA) with xr in *. rewrite (map2_diag (X:=xr) (Y:=xr) (Z:=xr)).
    cbn [nmul XRA xmul].
    assert (ES : asum (a:=XRA) (map (fun t => Fin (t_weight t)) ts) = Fin (wsum (map (fun t => (f t, t_weight t)) ts))).
    { unfold wsum. rewrite map_map. cbn [snd]. rewrite <- (map_map t_weight Fin). apply asum_fin. }
    rewrite ES. cbn [neqb ofZ]. 
    assert (EP : asum (a:=XRA) (map (fun t => Fin (f t * t_weight t)) ts) = Fin (wprod (map (fun t => (f t, t_weight t)) ts))).
    { unfold wprod. rewrite map_map. cbn [fst snd]. rewrite <- (map_map (fun t => f t * t_weight t) Fin). apply asum_fin. }
    rewrite EP. cbn [neqb ndiv XRA ofZ].
    destruct (Req_EM_T (wsum (map (fun t => (f t, t_weight t)) ts)) 0) as [e|e].
    + rewrite e, xeqb_refl. reflexivity.
    + rewrite xeqb_false by auto. rewrite xdiv_fin by auto. reflexivity.
Qed.
Lemma wsum_map f ts : wsum (map (fun t => (f t, t_weight t)) ts) = Rsum (map t_weight ts).
Proof. unfold wsum. rewrite map_map. reflexivity. Qed.
Lemma wprod_map f ts : wprod (map (fun t => (f t, t_weight t)) ts) = Rsum (map (fun t => f t * t_weight t) ts).
Proof. unfold wprod. rewrite map_map. reflexivity. Qed.
Lemma davg_pos f ts : Rsum (map t_weight ts) <> 0 -> davg (map (fun t => (f t, t_weight t)) ts) = Ok (Fin (wmean f ts)).
Proof.
  intros H. unfold davg. destruct (all_zero_dec _) as [Z|Z].
  - exfalso. apply H. clear H. induction ts as [|t ts IH]; simpl; auto.
    rewrite IH by (intros v w Hin; eapply Z; right; eauto). rewrite (Z (f t) (t_weight t)) by (left; auto). lra.
  - rewrite wsum_map, wprod_map. destruct (Req_EM_T _ 0); [tauto|]. reflexivity.
Qed.
Lemma davg_zero f ts : ts <> [] -> (forall t, In t ts -> t_weight t = 0) ->
  davg (map (fun t => (f t, t_weight t)) ts) = Ok (Fin (Rmean (map f ts))).
Proof.
  intros Hn H. unfold davg. destruct (all_zero_dec _) as [Z|Z].
  - destruct ts; [tauto|]. cbn [map]. rewrite map_map. cbn [fst]. reflexivity.
  - exfalso. apply Z. intros v w Hin. apply in_map_iff in Hin as (t & E & Ht). injection E as <- <-. auto.
Qed.
Lemma davg_cancel f ts : (exists t, In t ts /\ t_weight t <> 0) -> Rsum (map t_weight ts) = 0 ->
  davg (map (fun t => (f t, t_weight t)) ts) = Err ZeroDivisionError.
Proof.
  intros (t & Ht & Hw) H. unfold davg. destruct (all_zero_dec _) as [Z|Z].
  - exfalso. apply Hw. apply (Z (f t)). apply in_map_iff. exists t; auto.
  - rewrite wsum_map. destruct (Req_EM_T _ 0); tauto.
Qed.
Lemma davg_perm fw fw' : Permutation fw fw' -> davg fw = davg fw'.
Proof.
  intros H. unfold davg.
  assert (HA : all_zero fw <-> all_zero fw').
  { split; intros Z v w Hin; eapply Z; eapply Permutation_in; [|eauto| |eauto]; auto. apply Permutation_sym; auto. }
  unfold wsum, wprod. rewrite (Rsum_perm _ _ (Permutation_map snd H)), (Rsum_perm _ _ (Permutation_map _ H)).
  destruct (all_zero_dec fw), (all_zero_dec fw'); try tauto.
  destruct fw as [|p fw]; [apply Permutation_nil in H; subst; auto|].
  destruct fw' as [|p' fw']; [apply Permutation_sym, Permutation_nil in H; discriminate|].
  do 2 f_equal. apply Rmean_perm. apply Permutation_map; auto.
Qed.
Lemma davg_scale c fw : c <> 0 -> davg (map (fun p => (fst p, c * snd p)) fw) = davg fw.
Proof.
  intros Hc. unfold davg.
  assert (HA : all_zero (map (fun p => (fst p, c * snd p)) fw) <-> all_zero fw).
  { split; intros Z v w Hin.
    - assert (c * w = 0). { apply (Z v). apply in_map_iff. exists (v, w); auto. }
      apply Rmult_integral in H; tauto.
    - apply in_map_iff in Hin as ((v' & w') & E & Hin). injection E as <- <-. cbn [snd]. rewrite (Z v' w' Hin). ring. }
  assert (E1 : wsum (map (fun p => (fst p, c * snd p)) fw) = c * wsum fw).
  { unfold wsum. rewrite map_map. cbn [snd]. rewrite <- Rsum_mult_l. reflexivity. }
  assert (E2 : wprod (map (fun p => (fst p, c * snd p)) fw) = c * wprod fw).
  { unfold wprod. rewrite map_map. cbn [fst snd]. rewrite <- Rsum_mult_l. apply Rsum_map_ext. intros; ring. }
  rewrite E1, E2.
  destruct (all_zero_dec (map _ fw)), (all_zero_dec fw); try tauto.
  - destruct fw; auto. rewrite map_map. reflexivity.
  - destruct (Req_EM_T (c * wsum fw) 0) as [e|e], (Req_EM_T (wsum fw) 0) as [e'|e']; auto.
    + apply Rmult_integral in e; tauto.
    + exfalso. apply e. rewrite e'. ring.
    + do 2 f_equal. field. auto.
Qed.
