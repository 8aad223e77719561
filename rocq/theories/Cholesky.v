(** * Cholesky factors of real matrices: existence, uniqueness, and the row-by-row algorithm *)
From Coq Require Import Reals Lra ZArith List Bool Arith Lia.
From Verif Require Import Arith XR RealAux Model_dipdraws Props_ar.
Import ListNotations.
Local Open Scope R_scope.

(** a matrix is read through its lower triangle only *)
Definition lower_sym (C : nat -> nat -> R) (i j : nat) : R := C (max i j) (min i j).
(** L is the Cholesky factor of C: lower triangular, positive diagonal, L L^T = C *)
Definition cholesky_factor (n : nat) (C L : nat -> nat -> R) : Prop :=
  (forall i j, (i < n)%nat -> (j < n)%nat -> (i < j)%nat -> L i j = 0) /\
  (forall i, (i < n)%nat -> 0 < L i i) /\
  (forall i j, (i < n)%nat -> (j <= i)%nat -> inner n (L i) (L j) = C i j).
Definition positive_definite (n : nat) (C : nat -> nat -> R) : Prop :=
  forall v, (exists i, (i < n)%nat /\ v i <> 0) -> 0 < quad n C v.
Definition mat (M : list (list R)) (i j : nat) : R := nth j (nth i M []) 0.
Definition square (M : list (list R)) : Prop := forall r, In r M -> length r = length M.

Lemma inner_S n v w : inner (S n) v w = inner n v w + v n * w n.
Proof. unfold inner. rewrite seq_S, map_app, Rsum_app. cbn. lra. Qed.
Lemma inner_cut n m v w : (m <= n)%nat -> (forall k, (m <= k < n)%nat -> w k = 0) -> inner n v w = inner m v w.
Proof.
  intros H Hz. induction H as [|n H IH]; auto. rewrite inner_S, (Hz n) by lia. rewrite IH by (intros; apply Hz; lia). ring.
Qed.
Lemma inner_plus n v w u : inner n v (fun i => w i + u i) = inner n v w + inner n v u.
Proof. induction n; [unfold inner; cbn; lra|]. rewrite !inner_S, IHn. ring. Qed.
Lemma inner_scal_r n c v w : inner n v (fun i => c * w i) = c * inner n v w.
Proof. rewrite inner_comm, inner_scal, inner_comm. reflexivity. Qed.
Lemma inner_zero n v w : (forall i, (i < n)%nat -> w i = 0) -> inner n v w = 0.
Proof. intros H. induction n; [reflexivity|]. rewrite inner_S, IHn, H by (intros; try apply H; lia). ring. Qed.
Lemma inner_self_nonneg n v : 0 <= inner n v v.
Proof. induction n; [unfold inner; cbn; lra|]. rewrite inner_S. nra. Qed.
Lemma inner_self_zero n v : inner n v v = 0 -> forall i, (i < n)%nat -> v i = 0.
Proof.
  induction n; [lia|]. rewrite inner_S. intros H i Hi. assert (H1 := inner_self_nonneg n v).
  assert (E : v n * v n = 0) by nra. assert (E2 : inner n v v = 0) by nra.
  destruct (Nat.eq_dec i n) as [->|]; [nra|]. apply IHn; auto; lia.
Qed.
Lemma inner_swap n m (f : nat -> nat -> R) v w :
  inner n v (fun i => inner m (f i) w) = inner m (fun k => inner n (fun i => f i k) v) w.
Proof.
  induction n.
  - symmetry. rewrite inner_comm. apply inner_zero. intros. reflexivity.
  - rewrite inner_S, IHn.
    rewrite (inner_ext m (fun k => inner (S n) (fun i => f i k) v) w (fun k => inner n (fun i => f i k) v + f n k * v n) w) by (intros; rewrite ?inner_S; auto).
    rewrite (inner_comm m (fun k => _ + _)), inner_plus. rewrite (inner_comm m w (fun k => inner n _ _)).
    rewrite (inner_ext m w (fun k => f n k * v n) w (fun k => v n * f n k)) by (intros; ring).
    rewrite inner_scal_r, (inner_comm m w). ring.
Qed.

(** ** Triangular matrices *)
Section Tri.
Variables (L : nat -> nat -> R).
Definition lower n := forall i j, (i < n)%nat -> (j < n)%nat -> (i < j)%nat -> L i j = 0.
Definition posdiag n := forall i, (i < n)%nat -> 0 < L i i.
Lemma row_cut n i j : lower n -> (i < n)%nat -> (j < n)%nat -> inner n (L i) (L j) = inner (S j) (L i) (L j).
Proof. intros H Hi Hj. apply inner_cut; [lia|]. intros k Hk. apply H; lia. Qed.
Lemma back_subst n : lower n -> posdiag n -> forall b, exists y, forall j, (j < n)%nat -> inner n (fun i => L i j) y = b j.
Proof.
  induction n as [|n IH]; intros Hl Hp b. { exists (fun _ => 0). lia. }
  destruct (IH (fun i j A B C => Hl i j (Nat.lt_lt_succ_r _ _ A) (Nat.lt_lt_succ_r _ _ B) C) (fun i A => Hp i (Nat.lt_lt_succ_r _ _ A)) (fun j => b j - L n j * (b n / L n n))) as [y Hy].
  exists (fun i => if Nat.eqb i n then b n / L n n else y i). intros j Hj. rewrite inner_S, Nat.eqb_refl.
  rewrite (inner_ext n (fun i => L i j) _ (fun i => L i j) y); [| auto | intros i Hi; replace (Nat.eqb i n) with false; auto; symmetry; apply Nat.eqb_neq; lia ].
  destruct (Nat.eq_dec j n) as [->|].
  - rewrite inner_comm. rewrite (inner_zero n y (fun i => L i n)) by (intros; apply Hl; lia).
    assert (0 < L n n) by (apply Hp; lia). field. lra.
  - rewrite Hy by lia. ring.
Qed.
Lemma transpose_injective n v : lower n -> posdiag n -> (forall k, (k < n)%nat -> inner n (fun i => L i k) v = 0) -> forall i, (i < n)%nat -> v i = 0.
Proof.
  induction n as [|n IH]; intros Hl Hp H i Hi; [lia|].
  assert (En : v n = 0).
  { assert (E := H n ltac:(lia)). rewrite inner_S in E. rewrite inner_comm, inner_zero in E by (intros; apply Hl; lia).
    assert (0 < L n n) by (apply Hp; lia). assert (L n n * v n = 0) by lra. nra. }
  destruct (Nat.eq_dec i n) as [->|]; auto.
  apply IH; try lia; [intros a c; intros; apply Hl; lia | intros a Ha; apply Hp; lia |].
  intros k Hk. assert (E := H k ltac:(lia)). rewrite inner_S, En in E. lra.
Qed.
End Tri.

Lemma factor_sym n C L : cholesky_factor n C L -> forall i j, (i < n)%nat -> (j < n)%nat -> lower_sym C i j = inner n (L i) (L j).
Proof.
  intros (Hl & Hp & H) i j Hi Hj. unfold lower_sym. destruct (Nat.le_gt_cases j i).
  - rewrite Nat.max_l, Nat.min_r by lia. symmetry. apply H; auto.
  - rewrite Nat.max_r, Nat.min_l by lia. rewrite inner_comm. symmetry. apply H; auto. lia.
Qed.
Lemma factor_quad n C L v : cholesky_factor n C L ->
  quad n (lower_sym C) v = inner n (fun k => inner n (fun i => L i k) v) (fun k => inner n (fun i => L i k) v).
Proof.
  intros H. unfold quad.
  rewrite (inner_ext n v _ v (fun i => inner n (L i) (fun k => inner n (fun j => L j k) v))); [apply inner_swap | auto |].
  intros i Hi.
  rewrite (inner_ext n (lower_sym C i) v (fun j => inner n (L i) (L j)) v) by (intros; auto using (factor_sym n C L H)).
  rewrite inner_comm.
  rewrite (inner_ext n v (fun j => inner n (L i) (L j)) v (fun j => inner n (L j) (L i))) by (intros; auto using inner_comm).
  rewrite inner_swap. apply inner_comm.
Qed.
Lemma factor_positive n C L : cholesky_factor n C L -> positive_definite n (lower_sym C).
Proof.
  intros H v (i & Hi & Hv). rewrite (factor_quad n C L v H).
  destruct (Rle_lt_or_eq_dec _ _ (inner_self_nonneg n (fun k => inner n (fun i => L i k) v))) as [|E]; auto.
  exfalso. apply Hv. destruct H as (Hl & Hp & _). apply (transpose_injective L n v Hl Hp); auto.
  intros k Hk. apply (inner_self_zero n _ (eq_sym E)); auto.
Qed.
Lemma factor_unique n C L L' : cholesky_factor n C L -> cholesky_factor n C L' -> forall i j, (i < n)%nat -> (j < n)%nat -> L i j = L' i j.
Proof.
  intros (Hl & Hp & H) (Hl' & Hp' & H').
  assert (Main : forall i, (i < n)%nat -> forall j, (j <= i)%nat -> L i j = L' i j).
  { induction i as [i IHi] using lt_wf_ind. intros Hi. induction j as [j IHj] using lt_wf_ind. intros Hj.
    assert (E : inner (S j) (L i) (L j) = inner (S j) (L' i) (L' j)).
    { rewrite <- (row_cut L n), <- (row_cut L' n) by (auto; lia). rewrite H, H' by (auto; lia). reflexivity. }
    rewrite !inner_S in E.
    assert (E2 : inner j (L i) (L j) = inner j (L' i) (L' j)).
    { apply inner_ext; intros k Hk; [apply IHj; lia|]. destruct (Nat.eq_dec j i) as [->|]; [apply IHj; lia | apply IHi; lia]. }
    assert (Pj := Hp j ltac:(lia)). assert (Pj' := Hp' j ltac:(lia)).
    destruct (Nat.eq_dec j i) as [->|].
    - assert (E3 : L i i * L i i = L' i i * L' i i) by lra. nra.
    - rewrite <- (IHi j ltac:(lia) ltac:(lia) j (le_n j)) in E. apply (Rmult_eq_reg_r (L j j)); lra. }
  intros i j Hi Hj. destruct (Nat.le_gt_cases j i); [apply Main; auto|]. rewrite Hl, Hl'; auto.
Qed.
Lemma factor_ext n C C' L : (forall i j, (i < n)%nat -> (j <= i)%nat -> C i j = C' i j) -> cholesky_factor n C L -> cholesky_factor n C' L.
Proof. intros E (A & B & D). repeat split; auto. intros. rewrite D, E; auto. Qed.

(** quadratic form of a bordered vector *)
Lemma quad_S n C v : quad (S n) C v = quad n C v + v n * inner n (fun i => C i n) v + v n * inner n (C n) v + v n * v n * C n n.
Proof.
  unfold quad. rewrite inner_S, inner_S.
  rewrite (inner_ext n v (fun i => inner (S n) (C i) v) v (fun i => inner n (C i) v + v n * C i n)) by (intros; rewrite ?inner_S; auto; ring).
  rewrite inner_plus, inner_scal_r, (inner_comm n v (fun i => C i n)). ring.
Qed.
Lemma quad_cut n m C v : (m <= n)%nat -> (forall k, (m <= k < n)%nat -> v k = 0) -> quad n C v = quad m C v.
Proof.
  intros H Hz. induction H as [|n H IH]; auto. rewrite quad_S, (Hz n) by lia. rewrite IH by (intros; apply Hz; lia). ring.
Qed.
Lemma pivot_positive n k C L l : (k < n)%nat -> positive_definite n (lower_sym C) -> cholesky_factor k C L ->
  (forall j, (j < k)%nat -> inner k (L j) l = C k j) -> 0 < C k k - inner k l l.
Proof.
  intros Hk PD F Hl. destruct (back_subst L k (proj1 F) (proj1 (proj2 F)) l) as [y Hy].
  set (v := fun i => if Nat.ltb i k then - y i else if Nat.eqb i k then 1 else 0).
  assert (Vk : v k = 1) by (unfold v; rewrite Nat.ltb_irrefl, Nat.eqb_refl; reflexivity).
  assert (P : 0 < quad n (lower_sym C) v). { apply PD. exists k. split; auto. lra. }
  rewrite (quad_cut n (S k)) in P; [| lia |].
  2:{ intros i Hi. unfold v. replace (Nat.ltb i k) with false by (symmetry; apply Nat.ltb_ge; lia). replace (Nat.eqb i k) with false by (symmetry; apply Nat.eqb_neq; lia). reflexivity. }
  rewrite quad_S, Vk in P.
  assert (E0 : quad k (lower_sym C) v = inner k l l).
  { rewrite (factor_quad k C L v F).
    assert (Ei : forall j, (j < k)%nat -> inner k (fun i => L i j) v = - l j).
    { intros j Hj. rewrite <- (Hy j Hj). rewrite (inner_ext k (fun i => L i j) v (fun i => L i j) (fun i => (-1) * y i)).
      - rewrite inner_scal_r. ring.
      - auto.
      - intros i Hi. unfold v. replace (Nat.ltb i k) with true by (symmetry; apply Nat.ltb_lt; lia). ring. }
    rewrite (inner_ext k _ _ (fun j => (-1) * l j) (fun j => (-1) * l j)) by (intros j Hj; rewrite (Ei j Hj); ring).
    rewrite inner_scal, inner_scal_r. ring. }
  assert (E1 : inner k (lower_sym C k) v = - inner k l l).
  { rewrite (inner_ext k (lower_sym C k) v (fun j => inner k (L j) l) (fun i => (-1) * y i)).
    - rewrite inner_scal_r, inner_comm, inner_swap.
      rewrite (inner_ext k _ l l l) by (intros j Hj; auto; apply Hy; auto). ring.
    - intros j Hj. unfold lower_sym. rewrite Nat.max_l, Nat.min_r by lia. symmetry. apply Hl; auto.
    - intros i Hi. unfold v. replace (Nat.ltb i k) with true by (symmetry; apply Nat.ltb_lt; lia). ring. }
  assert (E2 : inner k (fun i => lower_sym C i k) v = inner k (lower_sym C k) v).
  { apply inner_ext; auto. intros i Hi. unfold lower_sym. rewrite Nat.max_comm, Nat.min_comm. reflexivity. }
  assert (E3 : lower_sym C k k = C k k) by (unfold lower_sym; rewrite Nat.max_id, Nat.min_id; reflexivity).
  rewrite E0, E2, E1, E3 in P. lra.
Qed.

(** ** The algorithm *)
Definition vec (l : list R) (i : nat) : R := nth i l 0.
Lemma dot_inner l r k : length l = k -> (k <= length r)%nat -> Rsum (map2 Rmult l r) = inner k (vec l) (vec r).
Proof.
  intros <-. revert r. induction l as [|x l IH]; intros r H; [reflexivity|]. destruct r as [|y r]; cbn in H; [lia|].
  cbn [map2 Rsum length]. rewrite IH by lia. unfold inner. cbn [seq map Rsum]. rewrite <- seq_shift, map_map. cbn. reflexivity.
Qed.
Lemma map2_fin_mul l r : map2 (@nmul XRA) (map Fin l) (map Fin r) = map Fin (map2 Rmult l r).
Proof. rewrite map2_map, map_map2. reflexivity. Qed.
Fixpoint Rsolve (acc : list R) (rows : list (list R)) (a : list R) : list R :=
  match rows, a with
  | r :: rows', x :: a' => Rsolve (acc ++ [(x - Rsum (map2 Rmult acc r)) / nth (length acc) r 0]) rows' a'
  | _, _ => acc
  end.
Lemma nth_fin i l : nth i (map Fin l) (Fin 0) = Fin (nth i l 0).
Proof. exact (map_nth Fin l 0 i). Qed.
Lemma solve_fin rows : forall acc a, (forall j, (j < length rows)%nat -> nth (length acc + j) (nth j rows []) 0 <> 0) ->
  solve XRA (map Fin acc) (map (map Fin) rows) (map Fin a) = map Fin (Rsolve acc rows a).
Proof.
  induction rows as [|r rows IH]; intros acc a H; [reflexivity|]. destruct a as [|x a]; [reflexivity|].
  cbn [map solve Rsolve]. rewrite map2_fin_mul, asum_fin. change (@ofZ XRA 0) with (Fin 0). rewrite map_length.
  assert (H0 := H 0%nat ltac:(cbn; lia)). cbn [nth] in H0. rewrite Nat.add_0_r in H0.
  replace (map Fin acc ++ _) with (map Fin (acc ++ [(x - Rsum (map2 Rmult acc r)) / nth (length acc) r 0])).
  - apply IH. intros j Hj. rewrite app_length. cbn [length]. replace (length acc + 1 + j)%nat with (length acc + S j)%nat by lia.
    apply (H (S j)). cbn. lia.
  - rewrite map_app. cbn [map]. f_equal. f_equal. change (num XRA) with xr. rewrite (nth_fin (length acc) r). symmetry. apply (f_equal (fun e => [e])). exact (xdiv_fin _ _ H0).
Qed.
Lemma Rsolve_spec rows : forall acc a, (length rows <= length a)%nat ->
  (forall j, (j < length rows)%nat -> (length acc + j < length (nth j rows []))%nat /\ nth (length acc + j) (nth j rows []) 0 <> 0) ->
  length (Rsolve acc rows a) = (length acc + length rows)%nat /\
  (forall i, (i < length acc)%nat -> nth i (Rsolve acc rows a) 0 = nth i acc 0) /\
  (forall j, (j < length rows)%nat -> inner (S (length acc + j)) (vec (nth j rows [])) (vec (Rsolve acc rows a)) = nth j a 0).
Proof.
  induction rows as [|r rows IH]; intros acc a Ha H. { cbn. repeat split; auto; lia. }
  destruct a as [|x a]; [cbn in Ha; lia|]. cbn [Rsolve length] in *.
  set (e := (x - Rsum (map2 Rmult acc r)) / nth (length acc) r 0) in *.
  destruct (IH (acc ++ [e]) a ltac:(lia)) as (I1 & I2 & I3).
  { intros j Hj. rewrite app_length. cbn [length]. replace (length acc + 1 + j)%nat with (length acc + S j)%nat by lia. apply (H (S j)). lia. }
  rewrite app_length in *. cbn [length] in *. split; [lia|]. split.
  - intros i Hi. rewrite I2 by lia. apply app_nth1. auto.
  - intros [|j] Hj; cbn [nth].
    + rewrite Nat.add_0_r. destruct (H 0%nat ltac:(lia)) as [H1 H2]. cbn [nth] in H1, H2. rewrite Nat.add_0_r in H1, H2.
      rewrite inner_S. unfold vec at 4. rewrite I2 by lia. rewrite app_nth2, Nat.sub_diag by lia. cbn [nth].
      rewrite (inner_comm (length acc)), (inner_ext _ (vec (Rsolve _ _ _)) (vec r) (vec acc) (vec r)).
      2:{ intros i Hi. unfold vec. rewrite I2 by lia. apply app_nth1. auto. } 2: auto.
      rewrite <- dot_inner by (auto; lia). unfold e, vec. field. exact H2.
    + replace (S (length acc + S j)) with (S (length acc + 1 + j)) by lia. apply I3. lia.
Qed.

(** the rows computed so far are the Cholesky factor of the leading block *)
Definition good_rows (C : nat -> nat -> R) (rows : list (list R)) : Prop :=
  (forall i, (i < length rows)%nat -> length (nth i rows []) = S i) /\ cholesky_factor (length rows) C (mat rows).
Lemma mat_app_old rows l i j : (i < length rows)%nat -> mat (rows ++ [l]) i j = mat rows i j.
Proof. intros. unfold mat. rewrite app_nth1; auto. Qed.
Lemma mat_app_new rows l j : mat (rows ++ [l]) (length rows) j = nth j l 0.
Proof. intros. unfold mat. rewrite app_nth2, Nat.sub_diag; auto. Qed.
Lemma good_row C rows a : good_rows C rows -> (length rows < length a)%nat -> (forall j, (j <= length rows)%nat -> nth j a 0 = C (length rows) j) ->
  let l := Rsolve [] rows a in
  let pivot := C (length rows) (length rows) - inner (length rows) (vec l) (vec l) in
  (forall j, (j < length rows)%nat -> inner (length rows) (mat rows j) (vec l) = C (length rows) j) /\
  chol_row XRA (map (map Fin) rows) (map Fin a) = (if Rlt_dec 0 pivot then Ok (map Fin (l ++ [sqrt pivot])) else Err LinAlgError) /\
  (0 < pivot -> good_rows C (rows ++ [l ++ [sqrt pivot]])).
Proof.
  intros (Hlen & Hl & Hp & HC) Ha HaC l pivot.
  assert (Hdiag : forall j, (j < length rows)%nat -> (length (@nil R) + j < length (nth j rows []))%nat /\ nth (length (@nil R) + j) (nth j rows []) 0 <> 0).
  { intros j Hj. cbn [length Nat.add]. rewrite Hlen by auto. split; [lia|]. assert (P := Hp j Hj). unfold mat in P. lra. }
  destruct (Rsolve_spec rows [] a ltac:(lia) Hdiag) as (L1 & _ & L3). fold l in L1, L3. cbn [length Nat.add] in L1, L3.
  assert (HL : forall j, (j < length rows)%nat -> inner (length rows) (mat rows j) (vec l) = C (length rows) j).
  { intros j Hj. rewrite <- HaC, <- L3 by lia. rewrite inner_comm, (inner_cut (length rows) (S j)) by (try lia; intros k Hk; unfold mat; apply nth_overflow; rewrite Hlen; lia).
    rewrite inner_comm. reflexivity. }
  split; [exact HL|]. split.
  - unfold chol_row. change (map Fin a) with (map Fin a : list xr).
    assert (S0 : solve XRA [] (map (map Fin) rows) (map Fin a) = map Fin l) by (apply (solve_fin rows [] a); intros; apply Hdiag; auto).
    rewrite S0, map2_fin_mul, asum_fin, map_length. change (@ofZ XRA 0) with (Fin 0). change (num XRA) with xr. rewrite (nth_fin (length rows) a), HaC by lia.
    rewrite (dot_inner l l (length rows)) by lia.
    change (@nsub XRA (Fin (C (length rows) (length rows))) (Fin (inner (length rows) (vec l) (vec l)))) with (Fin pivot).
    change (@nltb XRA) with xltb. unfold check. destruct (Rlt_dec 0 pivot) as [P|P].
    + rewrite xltb_true by auto. rewrite map_app. cbn [map]. f_equal. f_equal. f_equal. exact (xsqrt_fin pivot ltac:(lra)).
    + rewrite xltb_false by lra. reflexivity.
  - intros P. set (k := length rows) in *. split.
    + intros i Hi. rewrite app_length in Hi. cbn in Hi. destruct (Nat.eq_dec i k) as [->|].
      * unfold k at 1. rewrite app_nth2, Nat.sub_diag by lia. cbn. rewrite app_length. cbn. lia.
      * rewrite app_nth1 by lia. apply Hlen. unfold k. lia.
    + rewrite app_length. cbn [length]. rewrite Nat.add_1_r. fold k. split; [|split].
      * intros i j Hi Hj Hij. rewrite mat_app_old by (unfold k in *; lia). destruct (Nat.eq_dec j k) as [->|].
        -- unfold mat. apply nth_overflow. rewrite Hlen; lia.
        -- apply Hl; lia.
      * intros i Hi. destruct (Nat.eq_dec i k) as [->|].
        -- unfold k. rewrite mat_app_new. rewrite app_nth2 by (rewrite L1; lia). rewrite L1, Nat.sub_diag. cbn. apply sqrt_lt_R0. auto.
        -- rewrite mat_app_old by (unfold k in *; lia). apply Hp. lia.
      * assert (New : forall j, (j < k)%nat -> mat (rows ++ [l ++ [sqrt pivot]]) k j = vec l j).
        { intros j Hj. unfold k. rewrite mat_app_new. unfold vec. apply app_nth1. lia. }
        assert (Newk : mat (rows ++ [l ++ [sqrt pivot]]) k k = sqrt pivot).
        { unfold k. rewrite mat_app_new, app_nth2, L1, Nat.sub_diag by (rewrite L1; lia). reflexivity. }
        intros i j Hi Hj. rewrite inner_S. destruct (Nat.eq_dec i k) as [->|Hik].
        -- destruct (Nat.eq_dec j k) as [->|Hjk].
           ++ rewrite Newk. rewrite (inner_ext k _ _ (vec l) (vec l)) by (intros; apply New; auto).
              rewrite sqrt_sqrt by lra. unfold pivot. ring.
           ++ rewrite (inner_ext k _ _ (vec l) (mat rows j)) by (intros; try apply New; auto; apply mat_app_old; unfold k in *; lia).
              rewrite (mat_app_old rows _ j k) by (unfold k in *; lia).
              replace (mat rows j k) with 0 by (unfold mat; symmetry; apply nth_overflow; rewrite Hlen; lia).
              rewrite inner_comm, HL by lia. ring.
        -- rewrite (inner_ext k _ _ (mat rows i) (mat rows j)) by (intros; apply mat_app_old; unfold k in *; lia).
           rewrite (mat_app_old rows _ j k) by (unfold k in *; lia).
           replace (mat rows j k) with 0 by (unfold mat; symmetry; apply nth_overflow; rewrite Hlen; lia).
           rewrite HC by lia. ring.
Qed.

Lemma chol_rows_spec C n todo : forall rows, good_rows C rows -> (length rows + length todo = n)%nat ->
  (forall i j, (i < length todo)%nat -> (length (nth i todo []) = n) /\ ((j < n)%nat -> nth j (nth i todo []) 0 = C (length rows + i)%nat j)) ->
  (exists L, chol_rows XRA (map (map Fin) rows) (map (map Fin) todo) = Ok (map (map Fin) L) /\ length L = n /\ good_rows C L) \/
  (chol_rows XRA (map (map Fin) rows) (map (map Fin) todo) = Err LinAlgError /\ ~ positive_definite n (lower_sym C)).
Proof.
  induction todo as [|a todo IH]; intros rows G Hn HC.
  { left. exists rows. cbn in *. repeat split; try apply G. lia. }
  cbn [map chol_rows length] in *.
  destruct (HC 0%nat 0%nat ltac:(lia)) as [La _]. cbn [nth] in La.
  destruct (good_row C rows a G ltac:(lia)) as (HL & E & G').
  { intros j Hj. destruct (HC 0%nat j ltac:(lia)) as [_ HH]. cbn [nth] in HH. rewrite Nat.add_0_r in HH. apply HH. lia. }
  rewrite E. clear E. destruct (Rlt_dec 0 _) as [P|P].
  - cbn [bind]. specialize (G' P).
    replace (map (map Fin) rows ++ _) with (map (map Fin) (rows ++ [Rsolve [] rows a ++ [sqrt (C (length rows) (length rows) - inner (length rows) (vec (Rsolve [] rows a)) (vec (Rsolve [] rows a)))]])) by (rewrite map_app; reflexivity).
    apply IH; auto.
    + rewrite app_length. cbn. lia.
    + intros i j Hi. destruct (HC (S i) j ltac:(lia)) as [H1 H2]. cbn [nth] in H1, H2. split; auto. intros Hj. rewrite app_length. cbn [length].
      replace (length rows + 1 + i)%nat with (length rows + S i)%nat by lia. auto.
  - right. split; [reflexivity|]. intros PD. apply P. apply (pivot_positive n (length rows) C (mat rows)); auto; try lia. apply G.
Qed.

Lemma square_fin M : square M -> forallb (fun r => Nat.eqb (length r) (length (map (map Fin) M))) (map (map Fin) M) = true.
Proof.
  intros H. apply forallb_forall. intros r Hr. apply in_map_iff in Hr. destruct Hr as (r' & <- & Hr'). rewrite !map_length. apply Nat.eqb_eq. auto.
Qed.
Lemma cholesky_fin C : square C ->
  (exists L, cholesky XRA (map (map Fin) C) = Ok (map (map Fin) L) /\ length L = length C /\ square L /\ cholesky_factor (length C) (mat C) (mat L)) \/
  (cholesky XRA (map (map Fin) C) = Err LinAlgError /\ ~ positive_definite (length C) (lower_sym (mat C))).
Proof.
  intros Sq. unfold cholesky. change (num XRA) with xr in *. rewrite (square_fin C Sq). unfold check.
  destruct (chol_rows_spec (mat C) (length C) C []) as [(L & E & Ln & GL & F)|(E & N)].
  - split; [cbn; lia|]. repeat split; cbn; try lia; intros; lia.
  - reflexivity.
  - intros i j Hi. split; [apply Sq; apply nth_In; auto | reflexivity].
  - left. exists (map (fun l => l ++ repeat 0 (length C - length l)) L). cbn [map] in E. rewrite E. cbn [bind].
    assert (Lg : forall i, (i < length L)%nat -> length (nth i L [] ++ repeat 0 (length C - length (nth i L []))) = length C).
    { intros i Hi. rewrite app_length, repeat_length, GL by auto. lia. }
    split; [|split; [|split]].
    + f_equal. rewrite !map_map. apply map_ext. intros l. rewrite map_app, !map_length. f_equal.
      change (@ofZ XRA 0) with (Fin 0). clear. induction (length C - length l)%nat as [|k IH]; [reflexivity|]. cbn [repeat map]. rewrite IH. reflexivity.
    + rewrite map_length. auto.
    + intros r Hr. rewrite map_length. apply in_map_iff in Hr. destruct Hr as (l & <- & Hl).
      destruct (In_nth _ _ [] Hl) as (i & Hi & <-). rewrite Lg; auto.
    + rewrite Ln in F.
      assert (Em : forall i j, (i < length C)%nat -> mat (map (fun l => l ++ repeat 0 (length C - length l)) L) i j = mat L i j).
      { intros i j Hi. unfold mat. pose (pad := fun l : list R => l ++ repeat 0 (length C - length l)). change (fun l => l ++ repeat 0 (length C - length l)) with pad.
        rewrite (nth_indep _ [] (pad [])) by (rewrite map_length; lia).
        rewrite map_nth. unfold pad. destruct (Nat.lt_ge_cases j (length (nth i L []))).
        - apply app_nth1; auto.
        - rewrite app_nth2 by auto. rewrite nth_repeat. symmetry. apply nth_overflow. auto. }
      destruct F as (F1 & F2 & F3). repeat split.
      * intros. rewrite Em by auto. auto.
      * intros. rewrite Em by auto. auto.
      * intros i j Hi Hj. rewrite (inner_ext _ _ _ (mat L i) (mat L j)) by (intros; apply Em; lia). auto.
  - right. split; auto. cbn [map] in E. rewrite E. reflexivity.
Qed.
