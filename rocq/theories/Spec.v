(** Independent specification: pushdown systems, configurations, runs and automata languages.
    Nothing in this file depends on the model of the code. *)
From Coq Require Import List Arith Lia.
Import ListNotations.

(** A stack is a list of labels, top first. *)
Definition config := (nat * list nat)%type.

Inductive sop := SPush (l : nat) | SPop | SSwap (l : nat) | SNoop.

(** One transition of a pushdown system: in control state [s_from] with [s_pre] on top of the stack,
    go to [s_to] and apply [s_op]. *)
Record srule := mk_srule { s_from : nat; s_pre : nat; s_to : nat; s_op : sop }.

(** Effect of an operation on the stack [l :: w]. *)
Definition apply_op (o : sop) (l : nat) (w : list nat) : list nat :=
  match o with
  | SPush l' => l' :: l :: w
  | SPop => w
  | SSwap l' => l' :: w
  | SNoop => l :: w
  end.

Inductive step_by (r : srule) : config -> config -> Prop :=
| step_by_intro : forall w, step_by r (s_from r, s_pre r :: w) (s_to r, apply_op (s_op r) (s_pre r) w).

(** A pushdown system is a set of transitions. *)
Definition pds := srule -> Prop.

Definition step (R : pds) (c c' : config) : Prop := exists r, R r /\ step_by r c c'.

Inductive reach (R : pds) : config -> config -> Prop :=
| reach_refl : forall c, reach R c c
| reach_step : forall c1 c2 c3, step R c1 c2 -> reach R c2 c3 -> reach R c1 c3.

(** A run is a non-empty list of configurations, consecutive ones related by [step]. *)
Fixpoint is_run (R : pds) (cs : list config) : Prop :=
  match cs with
  | [] => False
  | c :: cs' => match cs' with [] => True | c' :: _ => step R c c' /\ is_run R cs' end
  end.

(** Applying a list of rules, in order. *)
Inductive run_rules (R : pds) : config -> list srule -> config -> Prop :=
| rr_nil : forall c, run_rules R c [] c
| rr_cons : forall c r c' rs c'', R r -> step_by r c c' -> run_rules R c' rs c'' -> run_rules R c (r :: rs) c''.

(** Automata: a set of edges [q --l--> q'], [None] is the empty word. *)
Definition edgeset := nat -> option nat -> nat -> Prop.

Inductive apath (E : edgeset) : nat -> list nat -> nat -> Prop :=
| ap_nil : forall q, apath E q [] q
| ap_lab : forall q l q1 w q2, E q (Some l) q1 -> apath E q1 w q2 -> apath E q (l :: w) q2
| ap_eps : forall q q1 w q2, E q None q1 -> apath E q1 w q2 -> apath E q w q2.

(** Paths that use no epsilon edge. *)
Inductive npath (E : edgeset) : nat -> list nat -> nat -> Prop :=
| np_nil : forall q, npath E q [] q
| np_cons : forall q l q1 w q2, E q (Some l) q1 -> npath E q1 w q2 -> npath E q (l :: w) q2.

(** The language of a P-automaton over [n] control states. *)
Definition lang (n : nat) (E : edgeset) (F : nat -> Prop) (c : config) : Prop :=
  fst c < n /\ exists f, apath E (fst c) (snd c) f /\ F f.

(** "Some configuration of L1 can reach some configuration of L2." *)
Definition can_reach (R : pds) (L1 L2 : config -> Prop) : Prop :=
  exists c1 c2, L1 c1 /\ L2 c2 /\ reach R c1 c2.

(** A path written as the list of its states and the list of its labels. *)
Inductive spath (E : edgeset) : list nat -> list (option nat) -> Prop :=
| sp_one : forall q, spath E [q] []
| sp_cons : forall q l q' qs ls, E q l q' -> spath E (q' :: qs) ls -> spath E (q :: q' :: qs) (l :: ls).

(** The word spelt by a list of labels. *)
Definition word (ls : list (option nat)) : list nat :=
  flat_map (fun l => match l with Some x => [x] | None => [] end) ls.
