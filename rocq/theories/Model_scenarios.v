(** * Model of the drawing of scenarios in src/frds/measures/_long_run_mes.py

    numpy's Generator is an abstract state machine: [choice g n h] is rng.choice(n, size=h, replace=True) in state [g],
    returning the indices and the next state; [seeded] is np.random.default_rng. What numpy computes inside is not modelled. *)
From Coq Require Import ZArith List Bool.
From Verif Require Import Arith Model_garch Model_mgarch Model_lrmes.
Import ListNotations.

Record generator := { gstate : Type; seeded : Z -> gstate; choice : gstate -> nat -> nat -> list nat * gstate }.
(** the loop over scenarios, l.76-81: one call of rng.choice per scenario, in order. The rows of [sample] are filled from these indices
    (Model_lrmes.bootstrap); a fresh generator is made in every call of estimate, l.50. *)
Fixpoint draw_loop (G : generator) (g : gstate G) (n h S : nat) : list (list nat) * gstate G :=
  match S with
  | O => ([], g)
  | Datatypes.S S' => let r := choice G g n h in let q := draw_loop G (snd r) n h S' in (fst r :: fst q, snd q)
  end.
Definition scenario_draws (G : generator) (seed : Z) (h S n : nat) : list (list nat) := fst (draw_loop G (seeded G seed) n h S).
(** estimate(h, S, C, random_seed), l.39-134 *)
Definition estimate_call (A : Arith) (G : generator) (cpp1 cpp2 : bool) (mini1 mini2 : solver A) (mini : list (num A) -> opt_run A)
    (h S : nat) (C : num A) (seed : Z) (o : dcc A) : res (num A * dcc A) :=
  estimate A cpp1 cpp2 mini1 mini2 mini (scenario_draws G seed h S) C o.
