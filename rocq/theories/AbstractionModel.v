(** Model of src/include/pdaaal/cegar/AbstractionPDA.h and AbstractionPAutomaton.h: sets of labels and NFAs under a label
    abstraction. None = an assertion fails. *)
From Coq Require Import List Arith Bool.
From Verif Require Import Base PdaModel AutModel NfaModel ContainersModel TrieModel RefineModel.
Import ListNotations.

(** std::includes (the loop of the C++ standard) for sorted ranges: every element of the second range is in the first. *)
Fixpoint includes (a : list nat) : list nat -> bool :=
  fun b =>
  match b with
  | [] => true
  | y :: b' =>
      match a with
      | [] => false
      | x :: a' => if Nat.ltb y x then false else if Nat.ltb x y then includes a' b else includes a' b'
      end
  end.
(** The predicate of std::remove_if, AbstractionPDA.h 65-69. *)
Definition covered (m : rmap) (labels : list nat) (a : nat) : option bool :=
  c <- rm_concrete m a ;; Some (includes labels (sort_nat c)).
Fixpoint remove_if (f : nat -> option bool) (l : list nat) : option (list nat) :=
  match l with [] => Some [] | x :: l' => b <- f x ;; r <- remove_if f l' ;; Some (if b then r else x :: r) end.
(** encode_labels, 60-72 (labels are ids on both sides; the narrowing to uint32_t in line 71 is not modelled). *)
Definition encode_labels (m : rmap) (labels : list nat) (negated : bool) : option (list nat) :=
  if is_sorted Nat.ltb labels then
    a <- rm_encode_many m labels ;;
    if negated then remove_if (covered m labels) a else Some a
  else None.
(** The constructor of AbstractionPAutomaton, AbstractionPAutomaton.h 40-45. The labels of every edge are encoded first;
    the code encodes them when it comes to the edge (so it does not notice a failing assertion on an unreachable edge). The
    map from automaton states to NFA states is left out. *)
Definition abstraction_aut (m : rmap) (addr : nat -> nat) (P : pda) (ord : nat -> list nat -> list nat) (N : nfa) (states : list nat) : option aut :=
  if forallb (fun st => forallb (fun e => negb (is_none (encode_labels m (ne_sym e) (ne_neg e)))) (ns_edges st)) (n_states N)
  then aut_of_nfa addr P ord N (fun e => match encode_labels m (ne_sym e) (ne_neg e) with Some l => l | None => [] end) states
  else None.
