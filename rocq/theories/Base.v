(** Generic helpers: the option monad used for "defined / undefined behaviour" and folds over lists.
    No definition here models code of /repo; the model files use them. *)
From Coq Require Import List Arith Lia Bool ZArith.
Import ListNotations.

(** [None] stands for undefined behaviour (out-of-range index, missing entry, ...). *)
Definition obind {A B} (m : option A) (f : A -> option B) : option B :=
  match m with Some a => f a | None => None end.
Notation "x <- m ;; k" := (obind m (fun x => k)) (at level 61, m at next level, right associativity).

(** A [for] loop whose body may be undefined. *)
Fixpoint ofold {S A} (f : S -> A -> option S) (l : list A) (s : S) : option S :=
  match l with
  | [] => Some s
  | a :: l' => s' <- f s a ;; ofold f l' s'
  end.

(** A [for] loop that may leave the enclosing function early ([inr] = returned value). *)
Fixpoint eloop {S A R} (f : S -> A -> option (S + R)) (l : list A) (s : S) : option (S + R) :=
  match l with
  | [] => Some (inl s)
  | a :: l' => match f s a with
               | None => None
               | Some (inr r) => Some (inr r)
               | Some (inl s') => eloop f l' s'
               end
  end.

(** enumerate [a0;a1;...] = [(i,a0);(i+1,a1);...] *)
Fixpoint enum_from {A} (i : nat) (l : list A) : list (nat * A) :=
  match l with [] => [] | a :: l' => (i, a) :: enum_from (S i) l' end.
Definition enum {A} (l : list A) := enum_from 0 l.

Fixpoint drop_while {A} (f : A -> bool) (l : list A) : list A :=
  match l with [] => [] | a :: l' => if f a then drop_while f l' else l end.
Fixpoint take_while {A} (f : A -> bool) (l : list A) : list A :=
  match l with [] => [] | a :: l' => if f a then a :: take_while f l' else [] end.

(** Replace the [i]-th element (out of range: no change). *)
Fixpoint upd {A} (l : list A) (i : nat) (x : A) : list A :=
  match l, i with
  | [], _ => []
  | _ :: l', 0 => x :: l'
  | a :: l', S i' => a :: upd l' i' x
  end.

Fixpoint memb (x : nat) (l : list nat) : bool :=
  match l with [] => false | y :: l' => Nat.eqb x y || memb x l' end.

(** Keep comparisons folded in proofs. *)
#[global] Arguments Nat.ltb : simpl never.
#[global] Arguments Nat.leb : simpl never.
#[global] Arguments Nat.max : simpl never.
#[global] Arguments Nat.sub : simpl never.
