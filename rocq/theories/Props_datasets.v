(** * Theorems: the stock-returns dataset (C65) *)
From Coq Require Import List Bool Arith Lia.
From Verif Require Import Arith Model_datasets.
Import ListNotations.

Section T.
Context {table : Type}.
Notation run := (run table).
Notation import_module := (import_module table).
(** the accesses of a history, in order *)
Definition accesses (ops : list (op table)) : list (res table) :=
  flat_map (fun o => match o with Access f => [f] | Construct => [] end) ops.
(** specification: the first successful read decides the answer of it and all later accesses; accesses
    before it fail with their own error *)
Fixpoint answers (files : list (res table)) : list (res table) :=
  match files with
  | [] => []
  | Ok t :: rest => Ok t :: map (fun _ => Ok t) rest
  | Err e :: rest => Err e :: answers rest
  end.
Fixpoint reads_needed (files : list (res table)) : nat :=
  match files with [] => 0 | Ok _ :: _ => 1 | Err _ :: rest => S (reads_needed rest) end.
Definition got (xs : list (obs table)) : list (res table) :=
  flat_map (fun x => match x with Got r => [r] | Built _ => [] end) xs.
Definition built (xs : list (obs table)) : list nat :=
  flat_map (fun x => match x with Built a => [a] | Got _ => [] end) xs.

Lemma run_cached ops w t : cached w = Some t -> instance w <> None ->
  file_reads (fst (run w ops)) = file_reads w /\ cached (fst (run w ops)) = Some t /\
  got (snd (run w ops)) = map (fun _ => Ok t) (accesses ops).
Proof.
  revert w. induction ops as [|o ops IH]; intros w Hc Hi; [cbn; auto|]. destruct o as [|f]; cbn [Model_datasets.run step].
  - unfold construct. destruct (instance w) eqn:E; [|congruence].
    destruct (IH w Hc ltac:(congruence)) as (H1&H2&H3). destruct (run w ops). cbn [fst snd] in *. auto.
  - unfold stocks_us. rewrite Hc. destruct (IH w Hc Hi) as (H1&H2&H3). destruct (run w ops). cbn [fst snd] in *.
    repeat split; auto. cbn. f_equal. auto.
Qed.
Lemma run_uncached ops w : cached w = None -> instance w <> None ->
  file_reads (fst (run w ops)) = file_reads w + reads_needed (accesses ops) /\
  got (snd (run w ops)) = answers (accesses ops).
Proof.
  revert w. induction ops as [|o ops IH]; intros w Hc Hi; [cbn; auto|]. destruct o as [|f]; cbn [Model_datasets.run step].
  - unfold construct. destruct (instance w) eqn:E; [|congruence].
    destruct (IH w Hc ltac:(congruence)) as (H1&H2). destruct (run w ops). cbn [fst snd] in *. auto.
  - unfold stocks_us. rewrite Hc. cbn zeta. destruct f as [t|e]; cbn [cached instance next_address file_reads].
    + set (w' := mkWorld _ _ _ _). destruct (run_cached ops w' t eq_refl Hi) as (H1&H2&H3). destruct (run w' ops). cbn [fst snd] in *.
      split; [rewrite H1; cbn; lia|]. cbn. f_equal. auto.
    + set (w' := mkWorld _ _ _ _). destruct (IH w' eq_refl Hi) as (H1&H2). destruct (run w' ops). cbn [fst snd] in *.
      change (accesses (Access (Err e) :: ops)) with (Err e :: accesses ops). cbn [reads_needed answers].
      split; [rewrite H1; cbn [file_reads w']; lia|]. change (Err e :: got l = Err e :: answers (accesses ops)). f_equal. auto.
Qed.
(** C65: answers and number of file reads, for every history of constructions and accesses *)
Theorem C65_answers : forall ops, got (snd (run import_module ops)) = answers (accesses ops).
Proof. intros ops. apply run_uncached; [reflexivity|discriminate]. Qed.
Theorem C65_number_of_reads : forall ops, file_reads (fst (run import_module ops)) = reads_needed (accesses ops).
Proof. intros ops. apply (run_uncached ops import_module); [reflexivity|discriminate]. Qed.
(** after a successful access: no further read, always the same table *)
Theorem C65_loaded_once : forall ops1 t ops2,
  cached (fst (run import_module (ops1 ++ [Access (Ok t)]))) <> None /\
  file_reads (fst (run import_module (ops1 ++ Access (Ok t) :: ops2))) = file_reads (fst (run import_module (ops1 ++ [Access (Ok t)]))) /\
  exists t', forall r, In r (got (snd (run (fst (run import_module (ops1 ++ [Access (Ok t)]))) ops2))) -> r = Ok t'.
Proof.
  intros ops1 t ops2.
  assert (R : forall a b w, fst (run w (a ++ b)) = fst (run (fst (run w a)) b)).
  { induction a as [|o a IH]; intros b w; auto. cbn [app Model_datasets.run]. destruct (step table w o) as [w1 x].
    specialize (IH b w1). destruct (run w1 (a ++ b)), (run w1 a). cbn [fst] in *. auto. }
  assert (Hinst : forall ops w, instance w <> None -> instance (fst (run w ops)) <> None).
  { induction ops as [|o ops IH]; intros w Hw; auto. cbn [Model_datasets.run]. destruct (step table w o) as [w1 x] eqn:E.
    assert (H1 : instance w1 <> None).
    { destruct o as [|f]; cbn in E.
      - unfold construct in E. destruct (instance w) eqn:E'; [|congruence]. injection E as <- <-. congruence.
      - unfold stocks_us in E. destruct (cached w); [injection E as <- <-; auto|]. destruct f; injection E as <- <-; auto. }
    specialize (IH w1 H1). destruct (run w1 ops). auto. }
  set (w := fst (run import_module ops1)).
  assert (Hw : instance w <> None) by (apply Hinst; discriminate).
  assert (E1 : fst (run import_module (ops1 ++ [Access (Ok t)])) = fst (stocks_us table w (Ok t))).
  { rewrite R. fold w. cbn [Model_datasets.run step]. destruct (stocks_us table w (Ok t)). reflexivity. }
  set (w' := fst (stocks_us table w (Ok t))) in *.
  assert (Hc : exists t', cached w' = Some t').
  { unfold w', stocks_us. destruct (cached w) as [t'|] eqn:E; [exists t'; auto|exists t; auto]. }
  destruct Hc as [t' Hc].
  assert (Hi' : instance w' <> None) by (unfold w', stocks_us; destruct (cached w); auto).
  rewrite E1. destruct (run_cached ops2 w' t' Hc Hi') as (H1&H2&H3).
  split; [congruence|]. split.
  - replace (ops1 ++ Access (Ok t) :: ops2) with ((ops1 ++ [Access (Ok t)]) ++ ops2) by (rewrite <- app_assoc; auto).
    rewrite R, E1. auto.
  - exists t'. rewrite H3. intros r Hr. apply in_map_iff in Hr. destruct Hr as (x&<-&_). auto.
Qed.
(** all constructions return the object created at import *)
Theorem C65_single_instance : forall ops a, In a (built (snd (run import_module ops))) -> a = 0.
Proof.
  intros ops.
  assert (H : forall ops w, instance w = Some 0 -> forall a, In a (built (snd (run w ops))) -> a = 0).
  { clear. induction ops as [|o ops IH]; intros w Hw a; [intros []|]. cbn [Model_datasets.run].
    destruct o as [|f]; cbn [step].
    - unfold construct. rewrite Hw. specialize (IH w Hw). destruct (run w ops) as [w2 xs]. cbn. intros [<-|Hin]; auto.
    - unfold stocks_us. destruct (cached w) as [t|].
      + specialize (IH w Hw). destruct (run w ops). cbn in *. auto.
      + cbn zeta. destruct f as [t|e]; match goal with |- context [run ?w' ops] => specialize (IH w' Hw); destruct (run w' ops) end; cbn in *; auto. }
  apply H. reflexivity.
Qed.
End T.
Example C65_case : got (snd (run nat (import_module nat) [Access (Err FileError); Construct; Access (Ok 7); Access (Ok 8); Construct; Access (Err FileError)]))
  = [Err FileError; Ok 7; Ok 7; Ok 7] /\
  file_reads (fst (run nat (import_module nat) [Access (Err FileError); Construct; Access (Ok 7); Access (Ok 8)])) = 2.
Proof. split; reflexivity. Qed.
