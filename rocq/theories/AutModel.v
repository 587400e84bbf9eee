(** Model of internal::PAutomaton (src/include/pdaaal/internal/PAutomaton.h), the parts used by the solvers. *)
From Coq Require Import List Arith Lia Bool.
From Verif Require Import Base Spec PdaModel.
Import ListNotations.

(** trace_t, internal/PAutomaton.h 60-103, as a tagged value: null, pre* (rule id, intermediate state for PUSH),
    post* (state, rule id, label), post* epsilon (state). The packed encoding is the subject of UtilModel. *)
Inductive trace :=
| TNull
| TPre (rule_id : nat) (temp : option nat)
| TPost (state rule_id label : nat)
| TEps (state : nat).

(** An edge (from, label, to); [None] is epsilon (168). *)
Record edge := mk_edge { e_src : nat; e_lab : option nat; e_dst : nat }.

Definition lab_eqb (a b : option nat) : bool :=
  match a, b with Some x, Some y => Nat.eqb x y | None, None => true | _, _ => false end.
(** Order of label ids; epsilon is the largest uint32. *)
Definition lab_ltb (a b : option nat) : bool :=
  match a, b with Some x, Some y => Nat.ltb x y | Some _, None => true | None, _ => false end.
Definition edge_eqb (a b : edge) : bool :=
  Nat.eqb (e_src a) (e_src b) && lab_eqb (e_lab a) (e_lab b) && Nat.eqb (e_dst a) (e_dst b).

(** PAutomaton, 892-896, with state_t 170-183. [a_acc] is the vector of states with their accepting flag (ids are
    positions, 701-711); the first [pd_n] states are the PDA states and are exactly the initial ones. [a_edges] lists all
    edges with their annotation, newest first: together they are the per-state tables to -> (label -> annotation).
    [a_ord] is the unspecified iteration order of the hash tables: given a state and its distinct successors in order of
    insertion it returns the order in which they are visited. *)
Record aut := mk_aut { a_acc : list bool; a_edges : list (edge * trace); a_ord : nat -> list nat -> list nat }.

Definition a_size (A : aut) : nat := length (a_acc A).

Fixpoint find_edge (e : edge) (l : list (edge * trace)) : option trace :=
  match l with
  | [] => None
  | (e', t) :: l' => if edge_eqb e' e then Some t else find_edge e l'
  end.

(** states()[q]->_accepting; None = index out of range. *)
Definition accepting (A : aut) (q : nat) : option bool := nth_error (a_acc A) q.

(** emplace_edge, 760-762: no overwrite; the flag tells whether the edge is new. None = state index out of range. *)
Definition emplace_edge (A : aut) (e : edge) (t : trace) : option (aut * bool) :=
  if Nat.ltb (e_src e) (a_size A) then
    match find_edge e (a_edges A) with
    | Some _ => Some (A, false)
    | None => Some (mk_aut (a_acc A) ((e, t) :: a_edges A) (a_ord A), true)
    end
  else None.

(** add_state(false, accepting), 701-711 (non-initial states only; the initial ones are made by the constructors). *)
Definition a_add_state (A : aut) (acc : bool) : aut := mk_aut (a_acc A ++ [acc]) (a_edges A) (a_ord A).

(** add_edge / add_epsilon_edge, 723-729. *)
Definition a_add_edge (A : aut) (from : nat) (l : option nat) (to : nat) (t : trace) : option aut :=
  match emplace_edge A (mk_edge from l to) t with Some (A', _) => Some A' | None => None end.

(** Distinct elements in order of first occurrence. *)
Fixpoint dedup (seen l : list nat) : list nat :=
  match l with
  | [] => []
  | x :: l' => if memb x seen then dedup seen l' else x :: dedup (x :: seen) l'
  end.

(** Keys of states()[q]->_edges in iteration order. *)
Definition tos (A : aut) (q : nat) : list nat :=
  a_ord A q (dedup [] (map (fun et => e_dst (fst et)) (filter (fun et => Nat.eqb (e_src (fst et)) q) (rev (a_edges A))))).

Fixpoint lab_insert (l : option nat) (ls : list (option nat)) : list (option nat) :=
  match ls with
  | [] => [l]
  | x :: ls' => if lab_ltb x l then x :: lab_insert l ls' else if lab_eqb x l then ls else l :: ls
  end.

(** Keys of states()[q]->_edges[t] (a sorted vector_map). *)
Definition labels_between (A : aut) (q t : nat) : list (option nat) :=
  fold_right lab_insert []
    (map (fun et => e_lab (fst et)) (filter (fun et => Nat.eqb (e_src (fst et)) q && Nat.eqb (e_dst (fst et)) t) (a_edges A))).

(** The relation an automaton stands for, in the terms of the specification. *)
Definition edges_of (l : list (edge * trace)) : edgeset := fun q lb q' => In (mk_edge q lb q') (map fst l).
Definition aut_edges (A : aut) : edgeset := edges_of (a_edges A).
Definition aut_final (A : aut) : nat -> Prop := fun q => nth_error (a_acc A) q = Some true.
(** The configurations an automaton over [n] PDA states accepts (epsilon edges included). *)
Definition aut_lang (n : nat) (A : aut) : config -> Prop := lang n (aut_edges A) (aut_final A).
