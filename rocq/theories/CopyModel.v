(** Model of the copies of automata with their states in a heap: the copy constructor of PAutomaton, internal/PAutomaton.h 225-237, and
    NFA::operator=(const NFA&), NFA.h 293-315, with the copy constructor 175-177. *)
From Coq Require Import List Arith Bool.
From Verif Require Import Base Spec AutModel NfaModel.
Import ListNotations.

(** ** Heap *)
(** What is allocated at each address; None: nothing. *)
Definition heap (C : Type) := nat -> option C.
Definition write {C} (h : heap C) (a : nat) (c : option C) : heap C := fun b => if Nat.eqb b a then c else h b.
(** make_unique<state_t>(c): the allocator [alloc] gives an address; None (std::bad_alloc) if that address is in use. *)
Definition new_cell {C} (alloc : heap C -> nat) (h : heap C) (c : C) : option (heap C * nat) :=
  let a := alloc h in match h a with None => Some (write h a (Some c), a) | Some _ => None end.

(** An automaton object: the vectors of pointers _states (unique_ptr), _initial and _accepting. None: nullptr. *)
Record obj := mk_obj { o_states : list nat; o_init : list (option nat); o_accs : list (option nat) }.
Definition no_obj : obj := mk_obj [] [] [].

(** The map indir; operator[] of a missing key gives nullptr. *)
Fixpoint indir (m : list (nat * nat)) (a : nat) : option nat :=
  match m with [] => None | (x, y) :: m' => if Nat.eqb x a then Some y else indir m' a end.
(** The first loop, PAutomaton.h 227-230 and NFA.h 295-298: the heap, the new states, and indir with its newest entry first. *)
Definition copy_state {C} (alloc : heap C -> nat) (st : heap C * (list nat * list (nat * nat))) (s : nat) : option (heap C * (list nat * list (nat * nat))) :=
  c <- fst st s ;;
  r <- new_cell alloc (fst st) c ;;
  Some (fst r, (fst (snd st) ++ [snd r], (s, snd r) :: snd (snd st))).
(** indir[p] of a stored pointer; the key nullptr is never set. *)
Definition indir_ptr (m : list (nat * nat)) (p : option nat) : option nat := match p with Some a => indir m a | None => None end.

(** PAutomaton(const PAutomaton&), PAutomaton.h 225-237. state_t has no pointers, 170-183. *)
Definition pa_copy {C} (alloc : heap C -> nat) (h : heap C) (other : obj) : option (heap C * obj) :=
  r <- ofold (copy_state alloc) (o_states other) (h, ([], [])) ;;
  let m := snd (snd r) in
  Some (fst r, mk_obj (fst (snd r)) (map (indir_ptr m) (o_init other)) (map (indir_ptr m) (o_accs other))).

(** ** NFA *)
(** NFA::state_t in the heap, NFA.h 49-86; _backedges is left out as in NfaModel. *)
Record hedge := mk_hedge { he_eps : bool; he_neg : bool; he_sym : list nat; he_dst : option nat }.
Record hstate := mk_hstate { hs_edges : list hedge; hs_acc : bool }.
(** 301-303. *)
Definition relink (m : list (nat * nat)) (c : hstate) : hstate :=
  mk_hstate (map (fun e => mk_hedge (he_eps e) (he_neg e) (he_sym e) (indir_ptr m (he_dst e))) (hs_edges c)) (hs_acc c).
(** NFA::operator=, 293-315; [this] and [other] are different objects (otherwise the first loop appends to the vector it runs over,
    which is undefined). The second loop runs over all states of this object, also over those it had before. *)
Definition nfa_assign (alloc : heap hstate -> nat) (h : heap hstate) (this other : obj) : option (heap hstate * obj) :=
  r <- ofold (copy_state alloc) (o_states other) (h, (o_states this, [])) ;;
  let m := snd (snd r) in
  h2 <- ofold (fun h s => c <- h s ;; Some (write h s (Some (relink m c)))) (fst (snd r)) (fst r) ;;
  Some (h2, mk_obj (fst (snd r)) (o_init this ++ map (indir_ptr m) (o_init other)) (o_accs this ++ map (indir_ptr m) (o_accs other))).
(** NFA(const NFA&), 175-177. *)
Definition nfa_copy (alloc : heap hstate -> nat) (h : heap hstate) (other : obj) : option (heap hstate * obj) := nfa_assign alloc h no_obj other.
(** NFA(bool), 148-154, as an object in the heap. *)
Definition nfa_new (alloc : heap hstate -> nat) (h : heap hstate) (acc : bool) : option (heap hstate * obj) :=
  r <- new_cell alloc h (mk_hstate [] acc) ;; Some (fst r, mk_obj [snd r] [Some (snd r)] (if acc then [Some (snd r)] else [])).

(** ** What an object stands for *)
(** The position of a pointer among the states. *)
Fixpoint index (sts : list nat) (a : nat) : option nat :=
  match sts with [] => None | x :: l => if Nat.eqb x a then Some 0 else option_map S (index l a) end.
Definition index_ptr (sts : list nat) (p : option nat) : option nat := match p with Some a => index sts a | None => None end.
Fixpoint omap {A B} (f : A -> option B) (l : list A) : option (list B) :=
  match l with [] => Some [] | x :: l' => y <- f x ;; ys <- omap f l' ;; Some (y :: ys) end.
(** The NFA of NfaModel; None if a pointer is null or dangling. *)
Definition read_edge (sts : list nat) (e : hedge) : option nedge := d <- index_ptr sts (he_dst e) ;; Some (mk_nedge (he_eps e) (he_neg e) (he_sym e) d).
Definition read_state (sts : list nat) (c : hstate) : option nstate := es <- omap (read_edge sts) (hs_edges c) ;; Some (mk_nstate es (hs_acc c)).
Definition read_nfa (h : heap hstate) (o : obj) : option nfa :=
  ss <- omap (fun a => c <- h a ;; read_state (o_states o) c) (o_states o) ;;
  is <- omap (index_ptr (o_states o)) (o_init o) ;; fs <- omap (index_ptr (o_states o)) (o_accs o) ;;
  Some (mk_nfa ss is fs).
(** PAutomaton::state_t, 170-183: _accepting and the edges with their annotations; the automaton of AutModel, with the positions of the
    initial and the accepting states. [ord] is the order of iteration of its hash tables. *)
Record pstate_t := mk_pst { st_acc : bool; st_edges : list (edge * trace) }.
Definition read_aut (ord : nat -> list nat -> list nat) (h : heap pstate_t) (o : obj) : option (aut * (list nat * list nat)) :=
  cs <- omap h (o_states o) ;;
  is <- omap (index_ptr (o_states o)) (o_init o) ;; fs <- omap (index_ptr (o_states o)) (o_accs o) ;;
  Some (mk_aut (map st_acc cs) (concat (map st_edges cs)) ord, (is, fs)).

(** ** What can be done through an object afterwards *)
(** Any change of one of its states, a new state, any change of the vectors of pointers, and the destructor. *)
Inductive mop (C : Type) := MMod (i : nat) (f : list nat -> C -> C) | MNew (c : list nat -> C) | MLists (i a : list nat -> list (option nat)) | MFree.
Arguments MMod {C} i f. Arguments MNew {C} c. Arguments MLists {C} i a. Arguments MFree {C}.
Definition do_mop {C} (alloc : heap C -> nat) (st : heap C * obj) (m : mop C) : option (heap C * obj) :=
  let h := fst st in let o := snd st in
  match m with
  | MMod i f => a <- nth_error (o_states o) i ;; c <- h a ;; Some (write h a (Some (f (o_states o) c)), o)
  | MNew c => r <- new_cell alloc h (c (o_states o)) ;; Some (fst r, mk_obj (o_states o ++ [snd r]) (o_init o) (o_accs o))
  | MLists i a => Some (h, mk_obj (o_states o) (i (o_states o)) (a (o_states o)))
  | MFree => Some (fold_left (fun h a => write h a None) (o_states o) h, no_obj)
  end.
Definition do_mops {C} (alloc : heap C -> nat) (ms : list (mop C)) (st : heap C * obj) : option (heap C * obj) := ofold (do_mop alloc) ms st.
