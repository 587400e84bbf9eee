(** Specification of weights that can be infinite: paths through automata with infinite weights, best weights, and weights that can be
    improved for ever. [mx] tells whether larger weights are better. *)
From Coq Require Import List ZArith.
From Verif Require Import Spec ShortSpec.
Import ListNotations.

(** None is the infinite weight that is better than every number. *)
Definition iplus (a b : option Z) : option Z := match a, b with Some x, Some y => Some (x + y)%Z | _, _ => None end.
Inductive ipath (E : edgeset) (wt : nat -> option nat -> nat -> option Z) : nat -> list nat -> option Z -> nat -> Prop :=
| ip_nil : forall q, ipath E wt q [] (Some 0%Z) q
| ip_cons : forall q l q1 w v q2, E q l q1 -> ipath E wt q1 w v q2 ->
    ipath E wt q (match l with Some x => x :: w | None => w end) (iplus (wt q l q1) v) q2.

Definition as_good (mx : bool) (v : option Z) (x : Z) : Prop := match v with None => True | Some z => if mx then (x <= z)%Z else (z <= x)%Z end.
Definition better (mx : bool) (x y : Z) : Prop := if mx then (y < x)%Z else (x < y)%Z.
(** The least (greatest) weight of the runs, and runs without one. *)
Definition best_weight (mx : bool) (R : wpds) (L1 L2 : config -> Prop) (v : Z) : Prop :=
  run_weight R L1 L2 v /\ forall v', run_weight R L1 L2 v' -> as_good mx (Some v) v'.
Definition unbounded (mx : bool) (R : wpds) (L1 L2 : config -> Prop) : Prop := forall b, exists v, run_weight R L1 L2 v /\ better mx v b.
(** The best weight of the paths of a word that end in a state of F. *)
Definition best_path (mx : bool) (E : edgeset) (wt : nat -> option nat -> nat -> option Z) (q : nat) (w : list nat) (F : nat -> Prop) (v : option Z) : Prop :=
  (exists f, ipath E wt q w v f /\ F f) /\
  forall v' f, ipath E wt q w v' f -> F f -> match v' with None => v = None | Some x => as_good mx v x end.

(** A list of configurations along a run, with the sum of the weights of the rules that lead from one to the next. *)
Inductive wtrace (R : wpds) : list config -> Z -> Prop :=
| wt_one : forall c, wtrace R [c] 0%Z
| wt_cons : forall c1 r w c2 cs v, R r w -> step_by r c1 c2 -> wtrace R (c2 :: cs) v -> wtrace R (c1 :: c2 :: cs) (w + v)%Z.
