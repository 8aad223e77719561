(** * Averages over equally likely draws

    [sequences l h] lists every sequence of [h] elements of [l] once (drawing [h] times with replacement). *)
From Coq Require Import Reals Lra Lia List Bool.
From Verif Require Import Arith XR RealAux Spec_garch.
Import ListNotations.
Local Open Scope R_scope.

Fixpoint sequences {T} (l : list T) (h : nat) : list (list T) :=
  match h with O => [[]] | S h' => flat_map (fun x => map (cons x) (sequences l h')) l end.
(** the mean of [f] when every element of [l] is equally likely, and the share of the elements with a property *)
Definition average {T} (l : list T) (f : T -> R) : R := Rsum (map f l) / INR (length l).
Definition share {T} (l : list T) (P : T -> bool) : R := average l (fun x => if P x then 1 else 0).

(** ** What is listed *)
Theorem sequences_spec {T} (l : list T) h s : In s (sequences l h) <-> length s = h /\ (forall x, In x s -> In x l).
Proof.
  revert s. induction h as [|h IH]; intros s; cbn [sequences].
  - split; [intros [<- | []]; split; [reflexivity|intros x []]|intros [H _]; destruct s; [left; reflexivity|discriminate]].
  - rewrite in_flat_map. split.
    + intros (x & Hx & Hs). apply in_map_iff in Hs. destruct Hs as (s' & <- & Hs'). apply IH in Hs'. destruct Hs' as [L F]. split; [cbn; lia|].
      intros y [<- | Hy]; auto.
    + intros [L F]. destruct s as [|x s]; [discriminate|]. exists x. split; [apply F; left; reflexivity|]. apply in_map. apply IH. split; [cbn in L; lia|]. intros y Hy. apply F. right. exact Hy.
Qed.
Theorem sequences_once {T} (l : list T) h : NoDup l -> NoDup (sequences l h).
Proof.
  intros HN. induction h as [|h IH]; cbn [sequences]; [constructor; [intros []|constructor]|].
  set (q := sequences l h) in *. clearbody q. induction HN as [|x l Hx HN IHl]; cbn [flat_map]; [constructor|].
  assert (Hxm : NoDup (map (cons x) q)).
  { clear -IH. induction IH as [|s q Hs HN IHq]; cbn [map]; constructor; auto. intros Hin. apply in_map_iff in Hin. destruct Hin as (s' & E & Hs'). injection E as ->. auto. }
  revert Hxm. assert (HD : forall s, In s (map (cons x) q) -> ~ In s (flat_map (fun y => map (cons y) q) l)).
  { intros s Hs Hf. apply in_map_iff in Hs. destruct Hs as (s' & <- & _). apply in_flat_map in Hf. destruct Hf as (y & Hy & Hf). apply in_map_iff in Hf. destruct Hf as (s'' & E & _). injection E as -> _. auto. }
  generalize (map (cons x) q) HD. intros m. clear -IHl. induction m as [|s m IHm]; intros HD HM; cbn [app]; [exact IHl|].
  inversion HM; subst. constructor; [|apply IHm; auto; intros s' Hs'; apply HD; right; auto].
  intros Hin. apply in_app_or in Hin. destruct Hin as [Hin|Hin]; [auto|]. apply (HD s); [left; reflexivity|exact Hin].
Qed.
Lemma sequences_length {T} (l : list T) h : length (sequences l h) = (length l ^ h)%nat.
Proof.
  induction h as [|h IH]; [reflexivity|]. cbn [sequences Nat.pow]. rewrite <- IH. generalize (sequences l h). intros q. clear IH.
  induction l as [|x l IHl]; [reflexivity|]. cbn [flat_map]. rewrite app_length, map_length, IHl. cbn [length]. lia.
Qed.
Lemma sequences_nonempty {T} (l : list T) h : l <> [] -> sequences l h <> [].
Proof. intros H E. assert (L := sequences_length l h). rewrite E in L. cbn in L. symmetry in L. apply Nat.pow_nonzero in L; auto. destruct l; [tauto|discriminate]. Qed.

(** ** Averages *)
Lemma len_pos {T} (l : list T) : l <> [] -> 0 < INR (length l).
Proof. intros H. apply lt_0_INR. destruct l; [tauto|cbn; lia]. Qed.
Lemma average_ext {T} (l : list T) f g : (forall x, In x l -> f x = g x) -> average l f = average l g.
Proof. intros H. unfold average. f_equal. f_equal. apply map_ext_in. exact H. Qed.
Lemma average_plus {T} (l : list T) f g : average l (fun x => f x + g x) = average l f + average l g.
Proof. unfold average. rewrite Rsum_plus. unfold Rdiv. ring. Qed.
Lemma average_scal {T} (l : list T) c f : average l (fun x => c * f x) = c * average l f.
Proof. unfold average. rewrite (Rsum_mult_l c f l). unfold Rdiv. ring. Qed.
Lemma average_scal_r {T} (l : list T) c f : average l (fun x => f x * c) = average l f * c.
Proof. rewrite <- (Rmult_comm c), <- average_scal. apply average_ext. intros. ring. Qed.
Lemma average_const {T} (l : list T) c : l <> [] -> average l (fun _ => c) = c.
Proof. intros H. unfold average. rewrite Rsum_const. field. apply Rgt_not_eq, len_pos, H. Qed.
Lemma average_le {T} (l : list T) f g : (forall x, In x l -> f x <= g x) -> average l f <= average l g.
Proof.
  intros H. unfold average, Rdiv. destruct l as [|x l]; [cbn; lra|]. apply Rmult_le_compat_r; [left; apply Rinv_0_lt_compat, len_pos; discriminate|]. apply Rsum_le. exact H.
Qed.
Lemma average_nonneg {T} (l : list T) f : (forall x, In x l -> 0 <= f x) -> 0 <= average l f.
Proof.
  intros H. destruct l as [|x l]; [unfold average; cbn; unfold Rdiv; lra|]. rewrite <- (average_const (x :: l) 0) by discriminate. apply average_le. exact H.
Qed.
Lemma average_bounds {T} (l : list T) f lo hi : l <> [] -> (forall x, In x l -> lo <= f x <= hi) -> lo <= average l f <= hi.
Proof.
  intros N H. split; [rewrite <- (average_const l lo N)|rewrite <- (average_const l hi N)]; apply average_le; intros x Hx; apply (H x Hx).
Qed.
Lemma average_flat {T U} (l : list T) (m : T -> list U) (f : U -> R) k : (forall x, In x l -> length (m x) = k) -> (0 < k)%nat ->
  average (flat_map m l) f = average l (fun x => average (m x) f).
Proof.
  intros HL HK. destruct l as [|x0 l0] eqn:EL; [unfold average; cbn; unfold Rdiv; ring|]. rewrite <- EL in *. assert (NE : l <> []) by (rewrite EL; discriminate). clear EL x0 l0.
  assert (K : 0 < INR k) by (apply lt_0_INR; lia). assert (P := len_pos l NE).
  assert (E1 : INR (length (flat_map m l)) = INR (length l) * INR k).
  { rewrite <- mult_INR. f_equal. clear -HL. induction l as [|x l IH]; [reflexivity|]. cbn [flat_map]. rewrite app_length, HL by (left; reflexivity). rewrite IH by (intros y Hy; apply HL; right; auto). cbn. lia. }
  assert (E2 : Rsum (map f (flat_map m l)) = INR k * Rsum (map (fun x => average (m x) f) l)).
  { clear E1 P NE. induction l as [|x l IH]; [cbn; ring|]. cbn [flat_map map Rsum]. rewrite map_app, Rsum_app, IH by (intros y Hy; apply HL; right; auto).
    unfold average at 2. rewrite (HL x) by (left; reflexivity). field. lra. }
  unfold average at 1 2. rewrite E1, E2. field. lra.
Qed.
Lemma average_map {T U} (g : T -> U) l f : average (map g l) f = average l (fun x => f (g x)).
Proof. unfold average. rewrite map_map, map_length. reflexivity. Qed.
(** drawing h + 1 times is drawing once and then h times *)
Lemma average_next {T} (l : list T) h f : l <> [] -> average (sequences l (S h)) f = average l (fun x => average (sequences l h) (fun s => f (x :: s))).
Proof.
  intros H. cbn [sequences]. rewrite (average_flat l _ f (length (sequences l h))).
  - apply average_ext. intros x _. apply average_map.
  - intros x _. apply map_length.
  - destruct (sequences l h) eqn:E; [destruct (sequences_nonempty l h H E)|cbn; lia].
Qed.
Lemma average_none {T} (l : list T) f : average (sequences l 0) f = f [].
Proof. unfold average. cbn. field. Qed.

(** ** Sums over independent draws *)
Lemma average_swap {T U} (l : list T) (m : list U) (f : T -> U -> R) : average l (fun x => average m (f x)) = average m (fun y => average l (fun x => f x y)).
Proof.
  unfold average. assert (E : Rsum (map (fun x => Rsum (map (f x) m) / INR (length m)) l) = Rsum (map (fun x => Rsum (map (f x) m)) l) / INR (length m)).
  { unfold Rdiv. rewrite <- Rsum_scal_r, map_map. reflexivity. }
  assert (E' : Rsum (map (fun y => Rsum (map (fun x => f x y) l) / INR (length l)) m) = Rsum (map (fun y => Rsum (map (fun x => f x y) l)) m) / INR (length l)).
  { unfold Rdiv. rewrite <- Rsum_scal_r, map_map. reflexivity. }
  rewrite E, E'. assert (S : Rsum (map (fun x => Rsum (map (f x) m)) l) = Rsum (map (fun y => Rsum (map (fun x => f x y) l)) m)).
  { clear E E'. induction l as [|x l IH]; cbn [map Rsum].
    - symmetry. rewrite (Rsum_const 0 m). ring.
    - rewrite IH, <- Rsum_plus. reflexivity. }
  rewrite S. unfold Rdiv. ring.
Qed.
Theorem average_of_sum {T} (l : list T) g S : l <> [] -> average (sequences l S) (fun s => Rsum (map g s)) = INR S * average l g.
Proof.
  intros H. induction S as [|S IH]; [rewrite average_none; cbn; ring|].
  rewrite average_next by auto. rewrite (average_ext l _ (fun x => g x + INR S * average l g)).
  - rewrite average_plus, average_const by auto. rewrite S_INR. ring.
  - intros x _. cbn [map Rsum]. rewrite average_plus, average_const, IH by (apply sequences_nonempty; auto). reflexivity.
Qed.
Theorem average_of_square {T} (l : list T) g S : l <> [] -> average l g = 0 ->
  average (sequences l S) (fun s => Rsum (map g s) ^ 2) = INR S * average l (fun x => g x ^ 2).
Proof.
  intros H Z. induction S as [|S IH]; [rewrite average_none; cbn; ring|].
  rewrite average_next by auto. rewrite (average_ext l _ (fun x => g x ^ 2 + INR S * average l (fun x => g x ^ 2))).
  - rewrite average_plus, average_const by auto. rewrite S_INR. ring.
  - intros x _. cbn [map Rsum]. rewrite (average_ext _ _ (fun s => (g x ^ 2 + (2 * g x) * Rsum (map g s)) + Rsum (map g s) ^ 2)) by (intros; ring).
    rewrite !average_plus, average_scal, average_of_sum, IH, average_const by (auto; apply sequences_nonempty; auto). rewrite Z. ring.
Qed.
Theorem share_of_all {T} (l : list T) P S : l <> [] -> share (sequences l S) (forallb P) = share l P ^ S.
Proof.
  intros H. unfold share. induction S as [|S IH]; [rewrite average_none; reflexivity|].
  rewrite average_next by auto. cbn [pow]. rewrite <- IH, <- average_scal_r. apply average_ext. intros x _. cbn [forallb].
  destruct (P x); cbn [andb]; [rewrite Rmult_1_l; reflexivity|]. rewrite average_const by (apply sequences_nonempty; auto). ring.
Qed.

(** ** Shares *)
Lemma share_range {T} (l : list T) P : 0 <= share l P <= 1.
Proof.
  destruct l as [|x l]; [unfold share, average; cbn; unfold Rdiv; lra|]. apply average_bounds; [discriminate|]. intros y _. destruct (P y); lra.
Qed.
Lemma share_le {T} (l : list T) P Q : (forall x, In x l -> P x = true -> Q x = true) -> share l P <= share l Q.
Proof. intros H. apply average_le. intros x Hx. specialize (H x Hx). destruct (P x); [rewrite H by auto; lra|destruct (Q x); lra]. Qed.
Lemma share_or {T} (l : list T) P Q : share l (fun x => P x || Q x) <= share l P + share l Q.
Proof. unfold share. rewrite <- average_plus. apply average_le. intros x _. destruct (P x), (Q x); cbn [orb]; lra. Qed.
Lemma share_not {T} (l : list T) P : l <> [] -> share l (fun x => negb (P x)) = 1 - share l P.
Proof.
  intros H. unfold share. replace (1 - average l (fun x => if P x then 1 else 0)) with (1 + (-1) * average l (fun x => if P x then 1 else 0)) by ring.
  rewrite <- average_scal, <- (average_const l 1 H) at 1. rewrite <- average_plus. apply average_ext. intros x _. destruct (P x); cbn [negb]; ring.
Qed.
(** Chebyshev's inequality *)
Theorem share_far {T} (l : list T) g c : 0 < c -> share l (fun x => if Rlt_dec c (Rabs (g x)) then true else false) <= average l (fun x => g x ^ 2) / c ^ 2.
Proof.
  intros Hc. assert (C2 : 0 < c ^ 2) by nra. unfold share, Rdiv. rewrite <- average_scal_r. apply average_le. intros x _. assert (P := pow2_ge_0 (g x)).
  destruct (Rlt_dec c (Rabs (g x))) as [H|H].
  - apply (Rmult_le_reg_r (c ^ 2)); [auto|]. rewrite Rmult_assoc, Rinv_l by lra. rewrite <- (pow2_abs (g x)). nra.
  - apply Rmult_le_pos; [auto|]. left. apply Rinv_0_lt_compat. auto.
Qed.
