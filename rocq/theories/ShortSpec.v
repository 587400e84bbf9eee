(** Independent specification of weighted pushdown systems: runs with the sum of their rule weights, and least weights. *)
From Coq Require Import List ZArith.
From Verif Require Import Spec.
Import ListNotations.

(** A weighted pushdown system: transitions with a weight. *)
Definition wpds := srule -> Z -> Prop.

(** [wreach R c v c']: some run from [c] to [c'] has total weight [v]. *)
Inductive wreach (R : wpds) : config -> Z -> config -> Prop :=
| wr_refl : forall c, wreach R c 0%Z c
| wr_step : forall c1 r w c2 v c3, R r w -> step_by r c1 c2 -> wreach R c2 v c3 -> wreach R c1 (w + v)%Z c3.

(** The runs from [L1] to [L2] have weights; [v] is the least of them. *)
Definition run_weight (R : wpds) (L1 L2 : config -> Prop) (v : Z) : Prop := exists c1 c2, L1 c1 /\ L2 c2 /\ wreach R c1 v c2.
Definition least_weight (R : wpds) (L1 L2 : config -> Prop) (v : Z) : Prop :=
  run_weight R L1 L2 v /\ forall v', run_weight R L1 L2 v' -> (v <= v')%Z.

(** Paths of an automaton whose edges have weights. *)
Inductive wpath (E : edgeset) (wt : nat -> option nat -> nat -> Z) : nat -> list nat -> Z -> nat -> Prop :=
| wp_nil : forall q, wpath E wt q [] 0%Z q
| wp_cons : forall q l q1 w v q2, E q l q1 -> wpath E wt q1 w v q2 ->
    wpath E wt q (match l with Some x => x :: w | None => w end) (wt q l q1 + v)%Z q2.
