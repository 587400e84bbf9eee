(** Independent specification for the reduction of pushdown systems: runs as lists of weighted rules. *)
From Coq Require Import List ZArith.
From Verif Require Import Spec ShortSpec.
Import ListNotations.

(** The rules of the list can be applied one after the other, from [c] to [c']. *)
Inductive chain : config -> list (srule * Z) -> config -> Prop :=
| ch_nil : forall c, chain c [] c
| ch_cons : forall c s c' ss c'', step_by (fst s) c c' -> chain c' ss c'' -> chain c (s :: ss) c''.
(** A run of a weighted pushdown system. *)
Definition wrun (R : wpds) (c : config) (ss : list (srule * Z)) (c' : config) : Prop :=
  chain c ss c' /\ forall s, In s ss -> R (fst s) (snd s).
(** The run does not leave state [term]: it ends when it gets there for the first time. *)
Definition first_visit (term : nat) (ss : list (srule * Z)) : Prop := forall s, In s ss -> s_from (fst s) <> term.
(** All rules but the first and the last are applied to stacks higher than the initial one. *)
Definition stays_above (c : config) (ss : list (srule * Z)) : Prop :=
  forall ss1 s ss2 c', ss = ss1 ++ s :: ss2 -> ss1 <> [] -> ss2 <> [] -> chain c ss1 c' -> length (snd c) < length (snd c').
(** After every rule, unless it pops or goes to [term], there is a rule for the new top of the stack. *)
Definition no_dead_end (R : wpds) (term : nat) : Prop :=
  forall s w, R s w -> s_to s <> term ->
    let next g := exists y v, R y v /\ s_from y = s_to s /\ s_pre y = g in
    match s_op s with SPop => True | SPush g | SSwap g => next g | SNoop => next (s_pre s) end.
(** The graph of the states: there is a rule from [p] to [q]. *)
Definition rule_edge (R : wpds) (p q : nat) : Prop := exists s w, R s w /\ s_from s = p /\ s_to s = q.
