(** Model of the solver entry points that only saturate (src/include/pdaaal/Solver.h). *)
From Coq Require Import List Arith Lia Bool ZArith.
From Verif Require Import Base Spec PdaModel AutModel PreStarModel PostStarModel.
Import ListNotations.

(** Results: [None] = undefined behaviour, [Some None] = fuel exhausted, [Some (Some r)] = returned [r]. *)
Definition done {A} (r : A) : option (option A) := Some (Some r).

(** Solver::pre_star with early termination callback, Solver.h 196-214. *)
Definition pre_star_et (P : pda) (X : Type) et (fuel : nat) (A : aut) (x : X) : option (option (pre_st X * bool)) :=
  st <- pre_init P X et A x ;; pre_run P X et fuel st.

(** Solver::pre_star without early termination (ET = false), Solver.h 196-214: the automaton is saturated in place. *)
Definition pre_star (P : pda) (fuel : nat) (A : aut) : option (option aut) :=
  match pre_star_et P unit None fuel A tt with
  | None => None
  | Some None => Some None
  | Some (Some (st, _)) => done (p_aut st)
  end.

(** Solver::post_star with early termination callback, Solver.h 238-256. *)
Definition post_star_et (P : pda) (X : Type) et (fuel : nat) (A : aut) (x : X) : option (option (post_st X * bool)) :=
  st <- post_init P X A x ;; post_run P X et fuel st.

(** Solver::post_star without early termination, Solver.h 238-256. *)
Definition post_star (P : pda) (fuel : nat) (A : aut) : option (option aut) :=
  match post_star_et P unit None fuel A tt with
  | None => None
  | Some None => Some None
  | Some (Some (st, _)) => done (q_aut st)
  end.

(** Every call ends, has no undefined behaviour, and gives an answer with [Q]. *)
Definition answers {R} (f : nat -> option (option R)) (Q : R -> Prop) : Prop :=
  (forall fuel, f fuel = Some None \/ exists r, f fuel = done r /\ Q r) /\ exists bound, forall fuel, bound <= fuel -> f fuel <> Some None.
