(** * Theorems: interrupted estimations (C119) *)
From Coq Require Import ZArith List Bool Lia.
From Verif Require Import Arith Model_garch Model_mgarch Model_pin Model_crash XR.
Import ListNotations.

(** ** programs and their complete runs *)
Definition complete {S X} (m : prog S X) (s : S) : res (X * S) :=
  match snd (m s) with Ok x => Ok (x, end_state m s) | Err e => Err e end.
Lemma last_app {X} (a b : list X) d : last (a ++ b) d = last b (last a d).
Proof.
  revert d. induction a as [|x a IH]; intros d; [reflexivity|]. cbn [app]. destruct a as [|y a].
  - cbn [app last]. destruct b as [|z b]; [reflexivity|]. clear. revert z x d. induction b as [|w b IH]; intros z x d; [reflexivity|]. cbn [last]. apply (IH w x d).
  - change (last ((y :: a) ++ b) d = last b (last (y :: a) d)). apply IH.
Qed.
Lemma last_map {X Y} (f : X -> Y) t d : last (map f t) (f d) = f (last t d).
Proof. induction t as [|x t IH]; [reflexivity|]. destruct t; [reflexivity|]. exact IH. Qed.
Lemma complete_seq {S X Y} (m : prog S X) (k : X -> prog S Y) s :
  complete (seqp m k) s = bind (complete m s) (fun p => complete (k (fst p)) (snd p)).
Proof.
  unfold complete, seqp, end_state. destruct (m s) as [t [x|e]]; cbn [fst snd bind]; [|reflexivity].
  destruct (k x (last t s)) as [t' [y|e']]; cbn [fst snd]; [|reflexivity]. rewrite last_app. reflexivity.
Qed.
Lemma complete_within {S T X} (view : S -> T) upd (m : prog T X) s : upd (view s) s = s ->
  complete (within view upd m) s = bind (complete m (view s)) (fun p => Ok (fst p, upd (snd p) s)).
Proof.
  intros H. unfold complete, within, end_state. destruct (m (view s)) as [t [x|e]]; cbn [fst snd bind]; [|reflexivity].
  pose proof (last_map (fun x => upd x s) t (view s)) as L. cbv beta in L. rewrite H in L. rewrite L. reflexivity.
Qed.
Lemma complete_ret {S X} (x : X) (s : S) : complete (ret x) s = Ok (x, s). Proof. reflexivity. Qed.
Lemma complete_get {S X} (f : S -> X) (s : S) : complete (get f) s = Ok (f s, s). Proof. reflexivity. Qed.
Lemma complete_raise {S X} e (s : S) : complete (@raise S X e) s = Err e. Proof. reflexivity. Qed.
Lemma complete_assign {S} f (s : S) : complete (assign f) s = Ok (tt, f s). Proof. reflexivity. Qed.
Lemma complete_lift {S X} (r : res X) (s : S) : complete (lift r) s = bind r (fun x => Ok (x, s)).
Proof. destruct r; reflexivity. Qed.
Lemma bind_assoc {X Y Z} (r : res X) (f : X -> res Y) (g : Y -> res Z) : bind (bind r f) g = bind r (fun x => bind (f x) g).
Proof. destruct r; reflexivity. Qed.
Lemma bind_ext {X Y} (r : res X) (f g : X -> res Y) : (forall x, f x = g x) -> bind r f = bind r g.
Proof. intros H. destruct r; cbn; auto. Qed.
(** what every recorded state, and the last one, satisfy *)
Definition triple {S X} (P W : S -> Prop) (Q : X -> S -> Prop) (m : prog S X) : Prop :=
  forall s, P s -> (forall s', In s' (fst (m s)) -> W s') /\ (forall x, snd (m s) = Ok x -> Q x (end_state m s)).
Lemma triple_seq {S X Y} P W Q R (m : prog S X) (k : X -> prog S Y) :
  triple P W Q m -> (forall x, triple (Q x) W R (k x)) -> triple P W R (seqp m k).
Proof.
  intros Hm Hk s Hs. destruct (Hm s Hs) as [H1 H2]. unfold seqp, end_state in *. destruct (m s) as [t [x|e]]; cbn [fst snd] in *.
  - destruct (Hk x _ (H2 x eq_refl)) as [K1 K2]. unfold end_state in K2. destruct (k x (last t s)) as [t' r']. cbn [fst snd] in *. split.
    + intros s' Hin. apply in_app_or in Hin. destruct Hin; auto.
    + intros y Hy. rewrite last_app. auto.
  - split; [auto|discriminate].
Qed.
Lemma triple_get {S X} (P W : S -> Prop) (f : S -> X) : triple P W (fun x s => P s /\ x = f s) (get f).
Proof. intros s Hs. split; [intros s' []|]. intros x [= <-]. auto. Qed.
Lemma triple_lift {S X} (P W : S -> Prop) (r : res X) : triple P W (fun x s => P s /\ r = Ok x) (lift r).
Proof. intros s Hs. split; [intros s' []|]. intros x Hx. auto. Qed.
Lemma triple_weaken {S X} (P P' W W' : S -> Prop) (Q Q' : X -> S -> Prop) m : triple P W Q m -> (forall s, P' s -> P s) -> (forall s, W s -> W' s) ->
  (forall x s, Q x s -> Q' x s) -> triple P' W' Q' m.
Proof. intros H H1 H2 H3 s Hs. destruct (H s (H1 s Hs)). split; eauto. Qed.

Section T.
Context {A : Arith}.
Notation num := (num A).
Notation state := (state A).
Notation fit := (fit A).

(** ** complete runs are the functions of Model_garch, Model_mgarch and Model_pin *)
Lemma complete_evaluations k pts s : complete (evaluation_steps A k pts) s =
  bind (run_evals A k s pts (st_sigma2 A s)) (fun s2 => Ok (tt, set_sigma2 A s2 s)).
Proof.
  revert s. induction pts as [|x pts IH]; intros s.
  - cbn [evaluation_steps run_evals bind]. rewrite complete_ret. destruct s; reflexivity.
  - cbn [evaluation_steps run_evals]. rewrite complete_seq, complete_get. cbn [bind fst snd]. rewrite complete_seq, complete_lift.
    rewrite !bind_assoc. apply bind_ext. intros [f s2]. cbn [bind fst snd]. rewrite complete_seq, complete_assign. cbn [bind fst snd].
    rewrite IH. cbn [st_sigma2 set_sigma2].
    assert (R : forall pts v, run_evals A k (set_sigma2 A s2 s) pts v = run_evals A k s pts v).
    { clear. induction pts as [|x pts IH]; intros v; [reflexivity|]. cbn [run_evals]. apply bind_ext. intros r. apply IH. }
    rewrite R. reflexivity.
Qed.
Lemma complete_preparation k s : complete (preparation_steps A k) s = preparation A k s.
Proof.
  unfold preparation_steps, preparation. rewrite complete_seq, complete_get. cbn [bind fst snd]. rewrite complete_seq, complete_get. cbn [bind fst snd]. cbv zeta.
  set (rs := if st_zero_mean A s then _ else _). rewrite complete_seq, complete_assign. cbn [bind fst snd]. rewrite complete_seq, complete_lift, bind_assoc.
  apply bind_ext. intros vb. cbn [bind fst snd]. rewrite complete_seq, complete_assign. cbn [bind fst snd]. rewrite complete_seq, complete_lift, bind_assoc.
  apply bind_ext. intros vp. cbn [bind fst snd]. rewrite complete_ret. reflexivity.
Qed.
Theorem C119_complete_fit : forall k m s, complete (fit_steps A k m) s = fit k m s.
Proof.
  intros k m s. unfold fit_steps, Model_garch.fit. rewrite complete_seq, complete_get. cbn [bind fst snd].
  assert (G : complete (seqp (preparation_steps A k) (fun starting_vals => seqp (get (st_zero_mean A)) (fun zero_mean =>
      let opt := m starting_vals (fit_bounds A k zero_mean) in
      seqp (evaluation_steps A k (o_evals A opt)) (fun _ =>
      if o_success A opt then
        seqp (assign (set_success A true)) (fun _ =>
        let xs := if (zero_mean : bool) then ofZ 0 :: o_x A opt else o_x A opt in
        seqp (lift (make_params A k xs (nopp (o_fun A opt)))) (fun ps =>
        seqp (assign (set_params A ps)) (fun _ => seqp (get (st_returns A)) (fun returns =>
        seqp (assign (set_resids A (demean A returns (p_mu A ps)))) (fun _ => ret (Some ps))))))
      else seqp (get (st_params A)) (fun ps => ret (Some ps)))))) s =
      bind (preparation A k s) (fun prep =>
        let opt := m (fst prep) (fit_bounds A k (st_zero_mean A s)) in
        bind (run_evals A k (snd prep) (o_evals A opt) (st_sigma2 A (snd prep))) (fun s2 =>
        if o_success A opt then
          bind (make_params A k (if st_zero_mean A s then ofZ 0 :: o_x A opt else o_x A opt) (nopp (o_fun A opt))) (fun ps =>
          Ok (Some ps, {| st_returns := st_returns A (snd prep); st_zero_mean := st_zero_mean A (snd prep); st_success := true;
             st_ll_final := st_ll_final A (snd prep); st_params := ps; st_resids := demean A (st_returns A (snd prep)) (p_mu A ps);
             st_sigma2 := s2; st_backcast := st_backcast A (snd prep); st_bounds := st_bounds A (snd prep) |}))
        else Ok (Some (st_params A (snd prep)), {| st_returns := st_returns A (snd prep); st_zero_mean := st_zero_mean A (snd prep); st_success := st_success A (snd prep);
             st_ll_final := st_ll_final A (snd prep); st_params := st_params A (snd prep); st_resids := st_resids A (snd prep);
             st_sigma2 := s2; st_backcast := st_backcast A (snd prep); st_bounds := st_bounds A (snd prep) |})))).
  { rewrite complete_seq, complete_preparation.
    destruct (preparation A k s) as [[sv s1]|e] eqn:E; [|reflexivity]. cbn [bind fst snd].
    assert (Z : st_zero_mean A s1 = st_zero_mean A s).
    { unfold preparation in E. destruct (variance_bounds A _); [|discriminate]. cbn [bind] in E. destruct (Model_garch.starting_values A k _ _ _ _); [|discriminate].
      cbn [bind] in E. injection E as _ <-. reflexivity. }
    rewrite complete_seq, complete_get. cbn [bind fst snd]. rewrite Z. cbv zeta. rewrite complete_seq, complete_evaluations, bind_assoc.
    apply bind_ext. intros s2. cbn [bind fst snd]. destruct (o_success A _).
    - rewrite complete_seq, complete_assign. cbn [bind fst snd]. rewrite complete_seq, complete_lift, bind_assoc. apply bind_ext. intros ps.
      cbn [bind fst snd]. rewrite complete_seq, complete_assign. cbn [bind fst snd]. rewrite complete_seq, complete_get. cbn [bind fst snd].
      rewrite complete_seq, complete_assign. cbn [bind fst snd]. rewrite complete_ret, <- Z. reflexivity.
    - rewrite complete_seq, complete_get. cbn [bind fst snd]. rewrite complete_ret, <- Z. reflexivity. }
  destruct k; [|exact G]. destruct (st_success A s) eqn:S; [rewrite complete_ret; reflexivity|exact G].
Qed.

(** ** GARCHModel.fit and GJRGARCHModel.fit *)
(** two objects that differ at most in the conditional variances, the backcast value and the variance bounds *)
Definition agrees (s s' : state) : Prop :=
  st_returns A s' = st_returns A s /\ st_zero_mean A s' = st_zero_mean A s /\ st_success A s' = st_success A s /\
  st_ll_final A s' = st_ll_final A s /\ st_params A s' = st_params A s /\ st_resids A s' = st_resids A s.
Lemma agrees_refl s : agrees s s. Proof. repeat split. Qed.
Lemma agrees_trans s1 s2 s3 : agrees s1 s2 -> agrees s2 s3 -> agrees s1 s3.
Proof. unfold agrees. intuition congruence. Qed.
Lemma in_seq {S X Y} (m : prog S X) (f : X -> prog S Y) s s' : In s' (fst (seqp m f s)) ->
  In s' (fst (m s)) \/ exists x, snd (m s) = Ok x /\ In s' (fst (f x (end_state m s))).
Proof.
  unfold seqp, end_state. destruct (m s) as [t [x|e]]; cbn [fst snd]; [|auto].
  destruct (f x (last t s)) as [t' r'] eqn:E. cbn [fst]. intros H. apply in_app_or in H. destruct H as [H|H]; [auto|].
  right. exists x. rewrite E. auto.
Qed.
Lemma complete_ok {S X} (m : prog S X) s x : snd (m s) = Ok x -> complete m s = Ok (x, end_state m s).
Proof. unfold complete. intros ->. reflexivity. Qed.
Definition resids_of (s : state) : list num := if st_zero_mean A s then st_returns A s else demean A (st_returns A s) (amean A (st_returns A s)).
Lemma preparation_result k s sv s1 : preparation A k s = Ok (sv, s1) ->
  agrees s s1 /\ st_sigma2 A s1 = st_sigma2 A s.
Proof.
  unfold preparation. destruct (variance_bounds A _) as [vb|]; [|discriminate]. cbn [bind].
  destruct (Model_garch.starting_values A k _ _ _ _) as [vp|]; [|discriminate]. cbn [bind]. intros [= _ <-]. repeat split.
Qed.
Lemma preparation_trace k s s' : In s' (fst (preparation_steps A k s)) -> agrees s s' /\ st_sigma2 A s' = st_sigma2 A s.
Proof.
  unfold preparation_steps. intros H. apply in_seq in H. destruct H as [[]|(x & _ & H)]. unfold end_state in H. cbn [get fst last] in H.
  apply in_seq in H. destruct H as [[]|(z & _ & H)]. unfold end_state in H. cbn [get fst last] in H. cbv zeta in H.
  apply in_seq in H. destruct H as [[<-|[]]|(u & _ & H)]; [repeat split|]. unfold end_state in H. cbn [assign fst last] in H.
  apply in_seq in H. destruct H as [[]|(vb & _ & H)]. unfold end_state in H. cbn [lift fst last] in H.
  apply in_seq in H. destruct H as [[<-|[]]|(u2 & _ & H)]; [repeat split|]. unfold end_state in H. cbn [assign fst last] in H.
  apply in_seq in H. destruct H as [[]|(vp & _ & H)]. destruct H.
Qed.
Lemma evaluations_trace k pts s s' : In s' (fst (evaluation_steps A k pts s)) -> agrees s s' /\ pts <> [].
Proof.
  revert s. induction pts as [|x pts IH]; intros s; [intros []|]. cbn [evaluation_steps]. intros H. split; [|discriminate].
  apply in_seq in H. destruct H as [[]|(q & _ & H)]. unfold end_state in H. cbn [get fst last] in H.
  apply in_seq in H. destruct H as [[]|(r & _ & H)]. unfold end_state in H. cbn [lift fst last] in H.
  apply in_seq in H. destruct H as [[<-|[]]|(u & _ & H)]; [repeat split|]. unfold end_state in H. cbn [assign fst last] in H.
  destruct (IH _ H) as [K _]. exact K.
Qed.
(** the three states in which the flag is already set *)
Definition flag_set (s2 : list num) (s1 : state) : state := set_success A true (set_sigma2 A s2 s1).
Definition opt_of (k : kind) (m : solver A) (s : state) (sv : list num) : opt_run A := m sv (fit_bounds A k (st_zero_mean A s)).
Definition params_of (k : kind) (s : state) (opt : opt_run A) : res (Params A) :=
  make_params A k (if st_zero_mean A s then ofZ 0 :: o_x A opt else o_x A opt) (nopp (o_fun A opt)).
Lemma fit_cases k m s s' : interrupted (fit_steps A k m) s s' ->
  (agrees s s' /\ (forall sv s1, preparation A k s = Ok (sv, s1) -> o_evals A (opt_of k m s sv) = [] -> st_sigma2 A s' = st_sigma2 A s)) \/
  exists sv s1 s2, (k = KGjr \/ st_success A s = false) /\ preparation A k s = Ok (sv, s1) /\
    run_evals A k s1 (o_evals A (opt_of k m s sv)) (st_sigma2 A s1) = Ok s2 /\ o_success A (opt_of k m s sv) = true /\
    (s' = flag_set s2 s1 \/ exists ps, params_of k s (opt_of k m s sv) = Ok ps /\
       (s' = set_params A ps (flag_set s2 s1) \/
        s' = set_resids A (demean A (st_returns A s1) (p_mu A ps)) (set_params A ps (flag_set s2 s1)))).
Proof.
  unfold interrupted. intros [<- |H]; [left; split; [apply agrees_refl|auto]|].
  unfold fit_steps in H. apply in_seq in H. destruct H as [[]|(b & Eb & H)]. cbn [get snd] in Eb. injection Eb as <-. unfold end_state in H. cbn [get fst last] in H.
  assert (C : k = KGjr \/ st_success A s = false).
  { destruct k; [|auto]. destruct (st_success A s); [destruct H|auto]. }
  assert (G : In s' (fst (seqp (preparation_steps A k) (fun starting_vals => seqp (get (st_zero_mean A)) (fun zero_mean =>
      let opt := m starting_vals (fit_bounds A k zero_mean) in
      seqp (evaluation_steps A k (o_evals A opt)) (fun _ =>
      if o_success A opt then
        seqp (assign (set_success A true)) (fun _ =>
        let xs := if (zero_mean : bool) then ofZ 0 :: o_x A opt else o_x A opt in
        seqp (lift (make_params A k xs (nopp (o_fun A opt)))) (fun ps =>
        seqp (assign (set_params A ps)) (fun _ => seqp (get (st_returns A)) (fun returns =>
        seqp (assign (set_resids A (demean A returns (p_mu A ps)))) (fun _ => ret (Some ps))))))
      else seqp (get (st_params A)) (fun ps => ret (Some ps))))) s))).
  { destruct k; [|exact H]. destruct C as [?|C]; [discriminate|]. rewrite C in H. exact H. }
  clear H. apply in_seq in G. destruct G as [G|(sv & Esv & G)].
  { destruct (preparation_trace k s s' G) as [K1 K2]. left. split; [exact K1|auto]. }
  pose proof (complete_ok _ _ _ Esv) as P. rewrite complete_preparation in P. set (s1 := end_state (preparation_steps A k) s) in *.
  destruct (preparation_result k s sv s1 P) as [P1 P2]. pose proof P1 as (R1 & R2 & R3 & R4 & R5 & R6).
  apply in_seq in G. destruct G as [[]|(zm & Ezm & G)]. cbn [get snd] in Ezm. injection Ezm as <-. unfold end_state in G. cbn [get fst last] in G.
  rewrite R2 in G. cbv zeta in G. fold (opt_of k m s sv) in G. fold (params_of k s (opt_of k m s sv)) in G. set (opt := opt_of k m s sv) in *.
  apply in_seq in G. destruct G as [G|(u & Eu & G)].
  { destruct (evaluations_trace k _ s1 s' G) as [K1 K2]. left. split; [exact (agrees_trans _ _ _ P1 K1)|].
    intros sv' s1' P'. rewrite P in P'. injection P' as <- <-. intros E. fold opt in E. contradiction. }
  pose proof (complete_ok _ _ _ Eu) as Q. rewrite complete_evaluations in Q.
  destruct (run_evals A k s1 (o_evals A opt) (st_sigma2 A s1)) as [s2|] eqn:Ev; [|discriminate]. cbn [bind] in Q. injection Q as _ Q. rewrite <- Q in G. clear Q.
  destruct (o_success A opt) eqn:Es.
  - right. exists sv, s1, s2. fold opt. do 4 (split; [assumption|]).
    apply in_seq in G. destruct G as [[<-|[]]|(u2 & _ & G)]; [left; reflexivity|]. unfold end_state in G. cbn [assign fst last] in G.
    apply in_seq in G. destruct G as [[]|(ps & Eps & G)]. unfold end_state in G. cbn [lift fst snd last] in G, Eps.
    right. exists ps. split; [exact Eps|].
    apply in_seq in G. destruct G as [[<-|[]]|(u3 & _ & G)]; [left; reflexivity|]. unfold end_state in G. cbn [assign fst last] in G.
    apply in_seq in G. destruct G as [[]|(rs & Ers & G)]. cbn [get snd] in Ers. injection Ers as <-. unfold end_state in G. cbn [get fst last] in G.
    apply in_seq in G. destruct G as [[<-|[]]|(u4 & _ & G)]; [right; reflexivity|]. destruct G.
  - apply in_seq in G. destruct G as [[]|(ps & _ & G)]. destruct G.
Qed.
(** what a fit depends on *)
Lemma fit_agrees k m s s' : agrees s s' -> (k = KGjr \/ st_success A s = false) -> fit k m s' = fit k m (set_sigma2 A (st_sigma2 A s') s).
Proof.
  destruct s, s'. unfold agrees. cbn. intros (-> & -> & -> & -> & -> & ->) C. destruct k; [|reflexivity]. destruct C as [C|C]; [discriminate|]. cbn in C. subst. reflexivity.
Qed.
Lemma run_evals_any k s pts v v' : pts <> [] -> run_evals A k s pts v = run_evals A k s pts v'.
Proof. destruct pts; [congruence|reflexivity]. Qed.
Lemma run_evals_sigma2 k s w pts v : run_evals A k (set_sigma2 A w s) pts v = run_evals A k s pts v.
Proof. revert v. induction pts as [|x pts IH]; intros v; [reflexivity|]. cbn [run_evals]. apply bind_ext. intros r. apply IH. Qed.
Lemma fit_sigma2 k m s w : (forall sv s1, preparation A k s = Ok (sv, s1) -> o_evals A (opt_of k m s sv) = [] -> w = st_sigma2 A s) ->
  (k = KGarch -> st_success A s = true -> w = st_sigma2 A s) -> fit k m (set_sigma2 A w s) = fit k m s.
Proof.
  intros H Hs. unfold Model_garch.fit.
  assert (P : preparation A k (set_sigma2 A w s) = bind (preparation A k s) (fun p => Ok (fst p, set_sigma2 A w (snd p)))).
  { unfold preparation. cbn [set_sigma2 st_returns st_zero_mean]. rewrite !bind_assoc. apply bind_ext. intros vb. rewrite bind_assoc. apply bind_ext. intros vp. reflexivity. }
  rewrite P. cbn [set_sigma2 st_success st_zero_mean]. rewrite bind_assoc.
  assert (G : forall F F' : list num * state -> res (option (Params A) * state),
    (forall p, preparation A k s = Ok p -> F (fst p, set_sigma2 A w (snd p)) = F' p) ->
    bind (preparation A k s) (fun x => bind (Ok (fst x, set_sigma2 A w (snd x))) F) = bind (preparation A k s) F').
  { intros F F' HF. destruct (preparation A k s) as [p|e]; [|reflexivity]. cbn [bind]. apply HF. reflexivity. }
  assert (E : forall p, preparation A k s = Ok p ->
    run_evals A k (set_sigma2 A w (snd p)) (o_evals A (opt_of k m s (fst p))) w =
    run_evals A k (snd p) (o_evals A (opt_of k m s (fst p))) (st_sigma2 A (snd p))).
  { intros [sv s1] Hp. cbn [fst snd]. rewrite run_evals_sigma2. destruct (o_evals A (opt_of k m s sv)) eqn:Eo; [|reflexivity].
    cbn [run_evals]. f_equal. destruct (preparation_result _ _ _ _ Hp) as [_ ->]. eapply H; eauto. }
  destruct k; [destruct (st_success A s) eqn:S|].
  - rewrite Hs by auto. destruct s. reflexivity.
  - apply G. intros p Hp. cbn [fst snd]. pose proof (E p Hp) as Ep. unfold opt_of in Ep. cbv zeta. cbn [set_sigma2 st_sigma2] in Ep |- *. rewrite Ep. reflexivity.
  - apply G. intros p Hp. cbn [fst snd]. pose proof (E p Hp) as Ep. unfold opt_of in Ep. cbv zeta. cbn [set_sigma2 st_sigma2] in Ep |- *. rewrite Ep. reflexivity.
Qed.

(** C119: a fit cut off before it reports success leaves the estimates as they were *)
Theorem C119_nothing_changed_before_success : forall k m s s', interrupted (fit_steps A k m) s s' -> st_success A s' = false ->
  st_returns A s' = st_returns A s /\ st_zero_mean A s' = st_zero_mean A s /\ st_success A s = false /\
  st_params A s' = st_params A s /\ st_resids A s' = st_resids A s.
Proof.
  intros k m s s' H F. destruct (fit_cases k m s s' H) as [[(R1 & R2 & R3 & R4 & R5 & R6) _]|(sv & s1 & s2 & _ & _ & _ & _ & [-> |(ps & _ & [-> | ->])])];
    [|discriminate F..]. repeat split; auto. congruence.
Qed.
Lemma cut_off_agrees k ms s s' : cut_off A k ms s s' -> st_success A s' = false -> agrees s s'.
Proof.
  intros H. induction H as [s|m ms s s1 s2 H1 H2 IH]; intros F; [apply agrees_refl|]. specialize (IH F).
  apply agrees_trans with s1; [|exact IH]. assert (F1 : st_success A s1 = false) by (destruct IH as (_ & _ & X & _); congruence).
  destruct (fit_cases k m s s1 H1) as [[K _]|(sv & s1' & s2' & _ & _ & _ & _ & [E|(ps & _ & [E|E])])]; [exact K|rewrite E in F1; discriminate F1..].
Qed.
(** C119: after any number of fits, each cut off at any place before it reports success, the next fit does exactly what it
    would have done on the untouched object (with the variances the cut-off calls left behind in sigma2) *)
Theorem C119_next_fit : forall k ms s s' m, cut_off A k ms s s' -> st_success A s' = false ->
  fit k m s' = fit k m (set_sigma2 A (st_sigma2 A s') s).
Proof.
  intros k ms s s' m H F. pose proof (cut_off_agrees k ms s s' H F) as K. apply fit_agrees; [exact K|]. right. destruct K as (_ & _ & X & _). congruence.
Qed.
(** if the optimizer evaluates the objective at all, not even sigma2 shows that there was an interruption *)
Theorem C119_next_fit_same : forall k ms s s' m, cut_off A k ms s s' -> st_success A s' = false -> (forall sv b, o_evals A (m sv b) <> []) ->
  fit k m s' = fit k m s.
Proof.
  intros k ms s s' m H F E. rewrite (C119_next_fit k ms s s' m H F). pose proof (cut_off_agrees k ms s s' H F) as (_ & _ & X & _).
  apply fit_sigma2; [|congruence]. intros sv s1 _ Ev. destruct (E _ _ Ev).
Qed.
(** the fit of a fresh or failed object, spelled out *)
Lemma fit_success_form k m s ps s1 : fit k m s = Ok (Some ps, s1) -> st_success A s = false -> st_success A s1 = true ->
  exists sv s0 s2, preparation A k s = Ok (sv, s0) /\ run_evals A k s0 (o_evals A (opt_of k m s sv)) (st_sigma2 A s0) = Ok s2 /\
    o_success A (opt_of k m s sv) = true /\ params_of k s (opt_of k m s sv) = Ok ps /\
    s1 = set_resids A (demean A (st_returns A s0) (p_mu A ps)) (set_params A ps (flag_set s2 s0)).
Proof.
  unfold Model_garch.fit. intros H F T. rewrite F in H.
  assert (G : bind (preparation A k s) (fun prep =>
      let starting_vals := fst prep in
      let st1 := snd prep in
      let opt := m starting_vals (fit_bounds A k (st_zero_mean A s)) in
      bind (run_evals A k st1 (o_evals A opt) (st_sigma2 A st1)) (fun s2 =>
      if o_success A opt then
        let xs := if st_zero_mean A s then ofZ 0 :: o_x A opt else o_x A opt in
        bind (make_params A k xs (nopp (o_fun A opt))) (fun ps =>
        Ok (Some ps, {| st_returns := st_returns A st1; st_zero_mean := st_zero_mean A st1; st_success := true;
             st_ll_final := st_ll_final A st1; st_params := ps; st_resids := demean A (st_returns A st1) (p_mu A ps);
             st_sigma2 := s2; st_backcast := st_backcast A st1; st_bounds := st_bounds A st1 |}))
      else
        Ok (Some (st_params A st1), {| st_returns := st_returns A st1; st_zero_mean := st_zero_mean A st1; st_success := st_success A st1;
             st_ll_final := st_ll_final A st1; st_params := st_params A st1; st_resids := st_resids A st1;
             st_sigma2 := s2; st_backcast := st_backcast A st1; st_bounds := st_bounds A st1 |}))) = Ok (Some ps, s1)) by (destruct k; exact H).
  clear H. destruct (preparation A k s) as [[sv s0]|] eqn:P; [|discriminate]. cbn [bind fst snd] in G. cbv zeta in G.
  fold (opt_of k m s sv) in G. fold (params_of k s (opt_of k m s sv)) in G.
  destruct (run_evals A k s0 _ _) as [s2|] eqn:Ev; [|discriminate]. cbn [bind] in G. destruct (o_success A (opt_of k m s sv)) eqn:Es.
  - destruct (params_of k s (opt_of k m s sv)) as [q|] eqn:Ep; [|discriminate]. cbn [bind] in G. injection G as -> <-.
    exists sv, s0, s2. repeat split; auto.
  - injection G as _ <-. cbn [st_success] in T. destruct (preparation_result k s sv s0 P) as [(_ & _ & X & _) _]. congruence.
Qed.
(** C119: with the flag already set there are exactly three places: nothing but the flag is new (the estimates are the old
    ones), the estimates are new but the residuals are the old ones, or the fit is complete *)
Theorem C119_after_success_flag : forall k m s s', st_success A s = false -> interrupted (fit_steps A k m) s s' -> st_success A s' = true ->
  (st_params A s' = st_params A s /\ st_resids A s' = st_resids A s) \/
  (exists ps s1, fit k m s = Ok (Some ps, s1) /\ st_params A s' = ps /\ (st_resids A s' = st_resids A s \/ s' = s1)).
Proof.
  intros k m s s' F H T. destruct (fit_cases k m s s' H) as [[(R1 & R2 & R3 & R4 & R5 & R6) _]|(sv & s1 & s2 & _ & P & Ev & Es & C)]; [congruence|].
  destruct (preparation_result k s sv s1 P) as [(X1 & X2 & X3 & X4 & X5 & X6) _].
  destruct C as [-> |(ps & Ep & C)]; [left; split; [exact X5|exact X6]|]. right.
  exists ps, (set_resids A (demean A (st_returns A s1) (p_mu A ps)) (set_params A ps (flag_set s2 s1))). split.
  - unfold Model_garch.fit. rewrite F. rewrite P. cbn [bind fst snd]. fold (opt_of k m s sv). cbv zeta. fold (params_of k s (opt_of k m s sv)).
    rewrite Ev. cbn [bind]. rewrite Es, Ep. cbn [bind]. destruct k; reflexivity.
  - destruct C as [-> | ->]; (split; [reflexivity|]); [left; exact X6|right; reflexivity].
Qed.
(** "a model that reports success holds its estimates" is false: every fit that succeeds passes through a state in which
    success is reported with the old (NaN) estimates; cut off there, GARCHModel.fit returns None for ever and nothing is ever estimated *)
Theorem C119_success_without_estimates_refuted : forall m s ps s1, st_success A s = false -> fit KGarch m s = Ok (Some ps, s1) -> st_success A s1 = true ->
  exists s', interrupted (fit_steps A KGarch m) s s' /\ st_success A s' = true /\ st_params A s' = st_params A s /\ st_resids A s' = st_resids A s /\
    forall ms, fits A KGarch ms s' = Ok (map (fun _ => None) ms, s').
Proof.
  intros m s ps s1 F H T. destruct (fit_success_form KGarch m s ps s1 H F T) as (sv & s0 & s2 & P & Ev & Es & Ep & _).
  destruct (preparation_result KGarch s sv s0 P) as [(X1 & X2 & X3 & X4 & X5 & X6) _].
  exists (flag_set s2 s0). split; [|split; [reflexivity|split; [exact X5|split; [exact X6|]]]].
  - right. unfold fit_steps. unfold seqp at 1. cbn [get]. rewrite F. cbn [last app]. unfold seqp at 1. pose proof (complete_preparation KGarch s) as CP. rewrite P in CP.
    unfold complete in CP. unfold end_state in CP. destruct (preparation_steps A KGarch s) as [t r]. cbn [fst snd] in *. destruct r as [sv'|]; [|discriminate]. injection CP as -> CP.
    rewrite CP. unfold seqp at 1. cbn [get last]. rewrite X2. cbv zeta. fold (opt_of KGarch m s sv). unfold seqp at 1.
    pose proof (complete_evaluations KGarch (o_evals A (opt_of KGarch m s sv)) s0) as CE. rewrite Ev in CE. cbn [bind] in CE. unfold complete, end_state in CE.
    destruct (evaluation_steps A KGarch (o_evals A (opt_of KGarch m s sv)) s0) as [t2 r2]. cbn [fst snd] in *. destruct r2 as [u|]; [|discriminate]. injection CE as _ CE. rewrite CE, Es.
    unfold seqp at 1. cbn [assign last]. match goal with |- context [let (t', r') := ?z in ([_] ++ t', r')] => destruct z as [t3 r3] end.
    cbn [app fst]. apply in_or_app. right. apply in_or_app. right. left. reflexivity.
  - assert (N : forall m', fit KGarch m' (flag_set s2 s0) = Ok (None, flag_set s2 s0)) by reflexivity.
    induction ms as [|m' ms IH]; [reflexivity|]. cbn [fits]. rewrite N. cbn [bind fst snd]. rewrite IH. reflexivity.
Qed.
(** C119: a GJR model recovers from every interruption, also after the flag: when the next fit succeeds it ends in the same
    state, whatever came before *)
Theorem C119_gjr_recovers : forall ms s s' m, cut_off A KGjr ms s s' -> (forall sv b, o_evals A (m sv b) <> [] /\ o_success A (m sv b) = true) ->
  fit KGjr m s' = fit KGjr m s.
Proof.
  intros ms s s' m H E.
  assert (R : st_returns A s' = st_returns A s /\ st_zero_mean A s' = st_zero_mean A s /\ st_ll_final A s' = st_ll_final A s).
  { clear E. induction H as [s|m0 ms s s1 s2 H1 H2 IH]; [auto|].
    assert (K : st_returns A s1 = st_returns A s /\ st_zero_mean A s1 = st_zero_mean A s /\ st_ll_final A s1 = st_ll_final A s).
    { destruct (fit_cases _ _ _ _ H1) as [[(R1 & R2 & R3 & R4 & R5 & R6) _]|(sv & s0 & s2' & _ & P & _ & _ & C)]; [auto|].
      destruct (preparation_result _ _ _ _ P) as [(X1 & X2 & X3 & X4 & X5 & X6) _]. destruct C as [-> |(ps & _ & [-> | ->])]; auto. }
    destruct K as (-> & -> & ->) in IH. intuition congruence. }
  destruct R as (R1 & R2 & R3). unfold Model_garch.fit. unfold preparation. rewrite R1, R2, R3. rewrite !bind_assoc. apply bind_ext. intros vb. rewrite !bind_assoc. apply bind_ext. intros vp.
  cbn [bind fst snd]. set (sv := if st_zero_mean A s then vp else amean A (st_returns A s) :: vp). destruct (E sv (fit_bounds A KGjr (st_zero_mean A s))) as [E1 E2]. cbv zeta. rewrite E2.
  assert (RE : forall pts v sA sB, st_zero_mean A sA = st_zero_mean A sB -> st_returns A sA = st_returns A sB -> st_backcast A sA = st_backcast A sB -> st_bounds A sA = st_bounds A sB ->
     run_evals A KGjr sA pts v = run_evals A KGjr sB pts v).
  { clear. induction pts as [|x pts IH]; intros v sA sB H1 H2 H3 H4; [reflexivity|]. cbn [run_evals]. unfold Model_garch.objective. rewrite H1, H2, H3, H4.
    apply bind_ext. intros r. apply IH; auto. }
  match goal with |- bind (run_evals A KGjr ?sA ?pts ?v) _ = bind (run_evals A KGjr ?sB ?pts ?v') _ =>
    rewrite (RE pts v sA sB eq_refl eq_refl eq_refl eq_refl), (run_evals_any KGjr sB pts v v' E1) end.
  apply bind_ext. intros s2. apply bind_ext. intros ps. reflexivity.
Qed.
(** C119: deterministic restart. Cut off anywhere but in the two places between the flag and the residuals, a fit that is simply
    run again (same optimizer behaviour) ends in the state it would have reached without the interruption *)
Definition final_state (r : res (option (Params A) * state)) : res state := bind r (fun p => Ok (snd p)).
Theorem C119_restart : forall k m s s', interrupted (fit_steps A k m) s s' -> (k = KGarch -> st_success A s' = true -> exists r, fit k m s = Ok (r, s')) ->
  final_state (fit k m s') = final_state (fit k m s).
Proof.
  intros k m s s' H W. destruct (fit_cases k m s s' H) as [[K Z]|(sv & s1 & s2 & C & P & Ev & Es & D)].
  - assert (C : k = KGjr \/ k = KGarch /\ st_success A s' = true \/ k = KGarch /\ st_success A s' = false) by (destruct k, (st_success A s'); auto).
    destruct C as [-> |[[-> C]|[-> C]]].
    + rewrite (fit_agrees KGjr m s s' K) by auto. rewrite fit_sigma2; [reflexivity| |discriminate]. exact Z.
    + destruct (W eq_refl C) as [r Hr]. rewrite Hr. cbn [final_state bind snd]. unfold Model_garch.fit. rewrite C. reflexivity.
    + assert (F : st_success A s = false) by (destruct K as (_ & _ & X & _); congruence).
      rewrite (fit_agrees KGarch m s s' K) by auto. rewrite fit_sigma2; [reflexivity|exact Z|congruence].
  - assert (T : st_success A s' = true) by (destruct D as [-> |(ps & _ & [-> | ->])]; reflexivity).
    destruct k.
    + destruct (W eq_refl T) as [r Hr]. rewrite Hr. cbn [final_state bind snd]. unfold Model_garch.fit. rewrite T. reflexivity.
    + clear C W. destruct (preparation_result _ _ _ _ P) as [(X1 & X2 & X3 & X4 & X5 & X6) X7].
      assert (RR : st_returns A s' = st_returns A s1 /\ st_zero_mean A s' = st_zero_mean A s1 /\ st_ll_final A s' = st_ll_final A s1 /\ st_sigma2 A s' = s2).
      { destruct D as [-> |(ps & _ & [-> | ->])]; repeat split. }
      destruct RR as (Y1 & Y2 & Y3 & Y4).
      assert (P' : exists s1', preparation A KGjr s' = Ok (sv, s1') /\ st_returns A s1' = st_returns A s1 /\ st_zero_mean A s1' = st_zero_mean A s1 /\
         st_ll_final A s1' = st_ll_final A s1 /\ st_backcast A s1' = st_backcast A s1 /\ st_bounds A s1' = st_bounds A s1 /\ st_sigma2 A s1' = s2).
      { unfold preparation in P |- *. rewrite Y1, Y2, Y3, Y4, X1, X2, X4. destruct (variance_bounds A _) as [vb|]; [|discriminate]. cbn [bind] in P |- *.
        destruct (Model_garch.starting_values A KGjr _ _ _ _) as [vp|]; [|discriminate]. cbn [bind] in P |- *. injection P as <- <-. eexists. split; [reflexivity|]. repeat split. }
      destruct P' as (s1' & P' & Q1 & Q2 & Q3 & Q4 & Q5 & Q6).
      assert (RE : forall pts v sA sB, st_zero_mean A sA = st_zero_mean A sB -> st_returns A sA = st_returns A sB -> st_backcast A sA = st_backcast A sB -> st_bounds A sA = st_bounds A sB ->
        run_evals A KGjr sA pts v = run_evals A KGjr sB pts v).
      { clear. induction pts as [|x pts IH]; intros v sA sB H1 H2 H3 H4; [reflexivity|]. cbn [run_evals]. unfold Model_garch.objective. rewrite H1, H2, H3, H4.
        apply bind_ext. intros r. apply IH; auto. }
      unfold opt_of in Ev, Es. unfold Model_garch.fit. rewrite P, P'. cbn [bind fst snd]. cbv zeta. rewrite Y2, X2. rewrite Es.
      replace (run_evals A KGjr s1' (o_evals A (m sv (fit_bounds A KGjr (st_zero_mean A s)))) (st_sigma2 A s1')) with (@Ok (list num) s2).
      2:{ symmetry. rewrite (RE _ _ s1' s1) by auto. destruct (o_evals A _) eqn:Eo; [cbn; congruence|]. rewrite <- Ev. apply run_evals_any. discriminate. }
      rewrite Ev. cbn [bind]. destruct (make_params A KGjr _ _) as [ps|]; [|reflexivity]. cbn [bind final_state snd]. rewrite Q1, Q2, Q3, Q4, Q5, X2. reflexivity.
Qed.
End T.
