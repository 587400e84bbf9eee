(** Model of NFA<T> (src/include/pdaaal/NFA.h) and of the construction of a P-automaton from an NFA
    (src/include/pdaaal/internal/PAutomaton.h). *)
From Coq Require Import List Arith Lia Bool.
From Verif Require Import Base Spec PdaModel AutModel.
Import ListNotations.

(** NFA::edge_t, NFA.h 49-81. The symbols are natural numbers (T = uint32_t; only < and == of T are used). States are
    numbered in order of creation, so a pointer is a number; see [addr] below for the order of the pointers. *)
Record nedge := mk_nedge { ne_eps : bool; ne_neg : bool; ne_sym : list nat; ne_dst : nat }.
(** NFA::state_t, 83-144; _backedges (only used by prelabels, which nothing calls) is left out. *)
Record nstate := mk_nstate { ns_edges : list nedge; ns_acc : bool }.
(** NFA, 432-434. *)
Record nfa := mk_nfa { n_states : list nstate; n_init : list nat; n_accs : list nat }.

(** edge_t(dest, source, id, true), 60-63. *)
Definition eps_edge (to : nat) : nedge := mk_nedge true false [] to.
(** The symbols of an unordered_set, sorted (55-59). *)
Definition sort_set (l : list nat) : list nat := fold_right vs_emplace [] l.

(** edge_t::contains, 71-75. *)
Definition ne_contains (e : nedge) (x : nat) : bool := Bool.eqb (ne_neg e) (negb (sorted_mem x (ne_sym e))).
(** state_t::has_non_epsilon, 89-96. *)
Definition has_non_epsilon (s : nstate) : bool :=
  existsb (fun e => ne_neg e || match ne_sym e with [] => false | _ => true end) (ns_edges s).

(** NFA(bool), 148-154. *)
Definition nfa_unit (acc : bool) : nfa := mk_nfa [mk_nstate [] acc] [0] (if acc then [0] else []).
(** NFA(unordered_set&&, bool), 156-164. *)
Definition nfa_set (neg : bool) (syms : list nat) : nfa :=
  if negb (match syms with [] => true | _ => false end) || neg
  then mk_nfa [mk_nstate [mk_nedge false neg (sort_set syms) 1] false; mk_nstate [] true] [0] [1]
  else mk_nfa [] [] [].

(** Dereferencing a state pointer and changing the state. *)
Definition st_mod (sts : list nstate) (i : nat) (f : nstate -> nstate) : list nstate :=
  match nth_error sts i with Some s => upd sts i (f s) | None => sts end.

(** The states of another NFA after they have been moved behind [k] states (320-322, 369-371). *)
Definition shift_edge (k : nat) (e : nedge) : nedge := mk_nedge (ne_eps e) (ne_neg e) (ne_sym e) (k + ne_dst e).
Definition shift_state (k : nat) (s : nstate) : nstate := mk_nstate (map (shift_edge k) (ns_edges s)) (ns_acc s).
Definition shift_nfa (k : nat) (N : nfa) : nfa :=
  mk_nfa (map (shift_state k) (n_states N)) (map (Nat.add k) (n_init N)) (map (Nat.add k) (n_accs N)).

(** NFA::concat, 319-330. *)
Definition nfa_concat (a b : nfa) : nfa :=
  let b' := shift_nfa (length (n_states a)) b in
  mk_nfa (fold_left (fun sts sa => st_mod sts sa (fun s => mk_nstate (ns_edges s ++ map eps_edge (n_init b')) false))
                    (n_accs a) (n_states a ++ n_states b'))
         (n_init a) (n_accs b').

(** NFA::question_extend, 332-339. *)
Definition nfa_question (N : nfa) : nfa :=
  let r := fold_left (fun (p : list nstate * list nat) s =>
             match nth_error (fst p) s with
             | Some st => if ns_acc st then p else (upd (fst p) s (mk_nstate (ns_edges st) true), snd p ++ [s])
             | None => p end) (n_init N) (n_states N, n_accs N) in
  mk_nfa (fst r) (n_init N) (snd r).

(** Body of the inner loop of plus_extend, 343-354. *)
Definition plus_edge (s : nstate) (si : nat) : nstate :=
  mk_nstate
    (if existsb (fun e => Nat.eqb (ne_dst e) si) (ns_edges s)
     then map (fun e => if Nat.eqb (ne_dst e) si then mk_nedge true (ne_neg e) (ne_sym e) (ne_dst e) else e) (ns_edges s)
     else ns_edges s ++ [eps_edge si])
    (ns_acc s).
(** NFA::plus_extend, 341-356. *)
Definition nfa_plus (N : nfa) : nfa :=
  mk_nfa (fold_left (fun sts s => fold_left (fun sts si => st_mod sts s (fun st => plus_edge st si)) (n_init N) sts)
                    (n_accs N) (n_states N))
         (n_init N) (n_accs N).

(** NFA::star_extend, 358-361. *)
Definition nfa_star (N : nfa) : nfa := nfa_question (nfa_plus N).

(** NFA::or_extend, 368-382. *)
Definition nfa_or (a b : nfa) : nfa :=
  let b' := shift_nfa (length (n_states a)) b in
  let k := length (n_states a) + length (n_states b') in
  mk_nfa (n_states a ++ n_states b' ++ [mk_nstate (map eps_edge (n_init a) ++ map eps_edge (n_init b')) false])
         [k] (n_accs a ++ n_accs b').

(** The order of the state pointers is the order of their addresses, which the program does not control: [addr] is an
    arbitrary function that gives the address of each state (the theorems assume only that it is injective). *)
Definition addr_ltb (addr : nat -> nat) (i j : nat) : bool := Nat.ltb (addr i) (addr j).

(** lower_bound on a vector of pointers and insert if absent (194-198, 213-216); the flag tells whether it was absent. *)
Fixpoint addr_insert (addr : nat -> nat) (x : nat) (l : list nat) : list nat * bool :=
  match l with
  | [] => ([x], true)
  | y :: l' => if addr_ltb addr y x then let r := addr_insert addr x l' in (y :: fst r, snd r)
               else if Nat.eqb y x then (l, false) else (x :: l, true)
  end.
(** std::sort on a vector of pointers (167-168). *)
Fixpoint addr_ins (addr : nat -> nat) (x : nat) (l : list nat) : list nat :=
  match l with [] => [x] | y :: l' => if addr_ltb addr y x then y :: addr_ins addr x l' else x :: l end.
Definition addr_sort (addr : nat -> nat) (l : list nat) : list nat := fold_right (addr_ins addr) [] l.

(** follow_epsilon, 185-204: one round of the loop 189-201 handles the last waiting state (the head of [wait]). *)
Definition fe_edge (addr : nat -> nat) (p : list nat * list nat) (e : nedge) : list nat * list nat :=
  if ne_eps e then
    let r := addr_insert addr (ne_dst e) (fst p) in
    if snd r then (fst r, ne_dst e :: snd p) else p
  else p.
Fixpoint fe_loop (addr : nat -> nat) (N : nfa) (fuel : nat) (sts wait : list nat) : option (list nat) :=
  match wait with
  | [] => Some sts
  | s :: wait' =>
      match fuel with
      | 0 => None
      | S fuel' =>
          st <- nth_error (n_states N) s ;;
          let p := fold_left (fe_edge addr) (ns_edges st) (sts, wait') in
          fe_loop addr N fuel' (fst p) (snd p)
      end
  end.
(** 202-203. *)
Definition fe_keep (N : nfa) (s : nat) : bool :=
  match nth_error (n_states N) s with Some st => ns_acc st || has_non_epsilon st | None => false end.
(** The number of rounds is bounded by the length of the vector plus the number of states (NfaProof shows that this many
    rounds always suffice), so [None] can only mean a dangling pointer. *)
Definition follow_epsilon (addr : nat -> nat) (N : nfa) (sts : list nat) : option (list nat) :=
  r <- fe_loop addr N (length sts + length (n_states N)) sts (rev sts) ;;
  Some (filter (fe_keep N) r).

(** compile, 166-171. Sorting the vector that owns the states (170) changes no pointer, so it has no counterpart. *)
Definition nfa_compile (addr : nat -> nat) (N : nfa) : option nfa :=
  i <- follow_epsilon addr N (addr_sort addr (n_init N)) ;;
  Some (mk_nfa (n_states N) i (addr_sort addr (n_accs N))).

(** std::is_sorted. *)
Fixpoint is_sorted (ltb : nat -> nat -> bool) (l : list nat) : bool :=
  match l with
  | [] => true
  | x :: l' => match l' with [] => true | y :: _ => negb (ltb y x) && is_sorted ltb l' end
  end.

(** empty_accept, 179-183. None: the assertion 180 fails. *)
Definition empty_accept (addr : nat -> nat) (N : nfa) : option bool :=
  if is_sorted (addr_ltb addr) (n_init N)
  then Some (existsb (fun s => match nth_error (n_states N) s with Some st => ns_acc st | None => false end) (n_init N))
  else None.

(** PAutomaton(pda, special_initial_states, special_accepting), internal/PAutomaton.h 207-218: the loop from state [i] on,
    [sp] is the part of the vector from position j on. *)
Fixpoint special_acc (cnt i : nat) (sp : list nat) (acc : bool) : list bool :=
  match cnt with
  | 0 => []
  | S cnt' => match sp with
              | s :: sp' => if Nat.eqb s i then acc :: special_acc cnt' (S i) sp' acc else false :: special_acc cnt' (S i) sp acc
              | [] => false :: special_acc cnt' (S i) [] acc
              end
  end.
(** None: the assertion 208 fails. *)
Definition aut_special (P : pda) (ord : nat -> list nat -> list nat) (sp : list nat) (acc : bool) : option aut :=
  if is_sorted Nat.ltb sp then Some (mk_aut (special_acc (pd_n P) 0 sp acc) [] ord) else None.

(** The labels visited by the loops of add_edges for a negated edge, 783-793: [i] is the counter. *)
Fixpoint neg_labels (i : nat) (ls : list nat) (max : nat) : list nat :=
  match ls with
  | [] => seq i (max - i)
  | l :: ls' => seq i (l - i) ++ neg_labels (S (Nat.max i l)) ls' max
  end.
Definition edge_labels (P : pda) (neg : bool) (ls : list nat) : list nat := if neg then neg_labels 0 ls (pd_nlab P) else ls.
(** add_edges(from, to, negated, labels), 779-799. None: the assertion 781 fails. *)
Definition add_edges (P : pda) (A : aut) (from to : nat) (neg : bool) (ls : list nat) : option aut :=
  if neg && negb (is_sorted Nat.ltb ls) then None
  else ofold (fun A l => a_add_edge A from (Some l) to TNull) (edge_labels P neg ls) A.
(** add_edges(vector of from, to, negated, labels), 800-826: label by label if negated, state by state otherwise. None: the
    assertion 802 fails. *)
Definition add_edges_from (P : pda) (A : aut) (froms : list nat) (to : nat) (neg : bool) (ls : list nat) : option aut :=
  if neg && negb (is_sorted Nat.ltb ls) then None
  else if neg
  then ofold (fun A l => ofold (fun A f => a_add_edge A f (Some l) to TNull) froms A) (edge_labels P neg ls) A
  else ofold (fun A f => ofold (fun A l => a_add_edge A f (Some l) to TNull) ls A) froms A.

(** construct, 841-890: the automaton under construction, nfastate_to_id and the vector of waiting states (last first). *)
Record cons_st := mk_cons { co_aut : aut; co_map : list (nat * nat); co_wait : list (nat * nat) }.
Fixpoint co_find (n : nat) (l : list (nat * nat)) : option nat :=
  match l with [] => None | (k, v) :: l' => if Nat.eqb k n then Some v else co_find n l' end.
(** get_nfastate_id, 847-862. *)
Definition get_id (N : nfa) (c : cons_st) (n : nat) : option (cons_st * nat) :=
  match co_find n (co_map c) with
  | Some i => Some (c, i)
  | None => st <- nth_error (n_states N) n ;;
            let i := a_size (co_aut c) in
            Some (mk_cons (a_add_state (co_aut c) (ns_acc st)) ((n, i) :: co_map c) ((n, i) :: co_wait c), i)
  end.
Definition co_set (c : cons_st) (A : aut) : cons_st := mk_cons A (co_map c) (co_wait c).
(** One edge: 866-873 and 880-887, without new_state_action; [add] is the call of add_edges. *)
Definition co_edge (addr : nat -> nat) (N : nfa) (add : aut -> nat -> nedge -> option aut) (c : cons_st) (e : nedge) : option cons_st :=
  ns <- follow_epsilon addr N [ne_dst e] ;;
  ofold (fun c n => ci <- get_id N c n ;; A <- add (co_aut (fst ci)) (snd ci) e ;; Some (co_set (fst ci) A)) ns c.
(** 864-875. *)
Definition co_initial (addr : nat -> nat) (P : pda) (N : nfa) (map_edge : nedge -> list nat) (states : list nat) (c : cons_st) : option cons_st :=
  ofold (fun c i => st <- nth_error (n_states N) i ;;
           ofold (co_edge addr N (fun A to e => add_edges_from P A states to (ne_neg e) (map_edge e))) (ns_edges st) c)
        (n_init N) c.
(** 876-889. *)
Fixpoint co_loop (addr : nat -> nat) (P : pda) (N : nfa) (map_edge : nedge -> list nat) (fuel : nat) (c : cons_st) : option cons_st :=
  match co_wait c with
  | [] => Some c
  | (top, id) :: w =>
      match fuel with
      | 0 => None
      | S fuel' =>
          st <- nth_error (n_states N) top ;;
          c' <- ofold (co_edge addr N (fun A to e => add_edges P A id to (ne_neg e) (map_edge e))) (ns_edges st)
                      (mk_cons (co_aut c) (co_map c) w) ;;
          co_loop addr P N map_edge fuel' c'
      end
  end.
(** Every NFA state waits at most once, so the number of states bounds the number of rounds. *)
Definition construct (addr : nat -> nat) (P : pda) (N : nfa) (map_edge : nedge -> list nat) (states : list nat) (A : aut) : option aut :=
  c1 <- co_initial addr P N map_edge states (mk_cons A [] []) ;;
  c2 <- co_loop addr P N map_edge (length (n_states N)) c1 ;;
  Some (co_aut c2).

(** PAutomaton(pda, nfa, states), internal/PAutomaton.h 202-205 (symbols are label ids; [map_edge] is [ne_sym]), and
    PAutomaton.h 53-56, where [map_edge] is encode_pre. *)
Definition aut_of_nfa (addr : nat -> nat) (P : pda) (ord : nat -> list nat -> list nat) (N : nfa) (map_edge : nedge -> list nat)
  (states : list nat) : option aut :=
  b <- empty_accept addr N ;; A <- aut_special P ord states b ;; construct addr P N map_edge states A.

(** PAutomaton(pda, state, stack), internal/PAutomaton.h 187-199. *)
Definition single_acc (n initial_state : nat) (stack : list nat) : list bool :=
  map (fun i => Nat.eqb i (match stack with [] => initial_state | _ => n end)) (seq 0 n).
Fixpoint single_loop (A : aut) (last : nat) (stack : list nat) : option aut :=
  match stack with
  | [] => Some A
  | l :: stack' =>
      let s := a_size A in
      A' <- a_add_edge (a_add_state A (match stack' with [] => true | _ => false end)) last (Some l) s TNull ;;
      single_loop A' s stack'
  end.
Definition aut_single (P : pda) (ord : nat -> list nat -> list nat) (state : nat) (stack : list nat) : option aut :=
  single_loop (mk_aut (single_acc (pd_n P) state stack) [] ord) state stack.

(** PAutomaton::or_extend, internal/PAutomaton.h 260-286. The edges of each state of [other] are inserted in the order in
    which the hash table yields them. None: one of the size assertions fails or an index is out of range. *)
Definition oe_state (n off : nat) (B : aut) (A : aut) (i : nat) : option aut :=
  acc <- nth_error (a_acc B) i ;;
  p <- (if Nat.leb n i then Some (a_add_state A acc, a_size A)
        else acc0 <- nth_error (a_acc A) i ;;
             Some (if negb acc0 && acc then mk_aut (upd (a_acc A) i true) (a_edges A) (a_ord A) else A, i)) ;;
  ofold (fun A to => ofold (fun A l => t <- find_edge (mk_edge i l to) (a_edges B) ;;
                                       a_add_edge A (snd p) l (if Nat.ltb to n then to else to + off) t)
                           (labels_between B i to) A) (tos B i) (fst p).
Definition a_or_extend (n : nat) (A B : aut) : option aut :=
  if Nat.leb n (a_size A) && Nat.leb n (a_size B)
  then ofold (oe_state n (a_size A - n) B) (seq 0 (a_size B)) A
  else None.

(** The labelled graph and the language an NFA stands for, in the terms of the specification. *)
Definition sym_ok (e : nedge) (x : nat) : Prop := if ne_neg e then ~ In x (ne_sym e) else In x (ne_sym e).
Definition sts_edges (sts : list nstate) : edgeset := fun q l q' =>
  exists st e, nth_error sts q = Some st /\ In e (ns_edges st) /\ ne_dst e = q' /\
    match l with None => ne_eps e = true | Some x => sym_ok e x end.
Definition sts_acc (sts : list nstate) (q : nat) : Prop := exists st, nth_error sts q = Some st /\ ns_acc st = true.
Definition nfa_lang (N : nfa) (w : list nat) : Prop :=
  exists i f, In i (n_init N) /\ apath (sts_edges (n_states N)) i w f /\ sts_acc (n_states N) f.
