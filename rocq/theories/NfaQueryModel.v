(** Model of the queries on NFA states used by the refinement code: successor, has_as_successor, leads_to_by_epsilon and
    intersect_edge_labels (src/include/pdaaal/NFA.h). *)
From Coq Require Import List Arith Lia Bool.
From Verif Require Import Base PdaModel NfaModel.
Import ListNotations.

(** The edges of a vector of states in the order of the two loops (210-211, 262-263). None: dangling pointer. *)
Fixpoint edges_from (N : nfa) (sts : list nat) : option (list nedge) :=
  match sts with
  | [] => Some []
  | s :: sts' => st <- nth_error (n_states N) s ;; es <- edges_from N sts' ;; Some (ns_edges st ++ es)
  end.

(** successor, NFA.h 206-222. *)
Definition successor (addr : nat -> nat) (N : nfa) (sts : list nat) (l : nat) : option (list nat) :=
  es <- edges_from N sts ;;
  follow_epsilon addr N (fold_left (fun next e => if ne_contains e l then fst (addr_insert addr (ne_dst e) next) else next) es []).
(** has_as_successor, 224-233; the binary search is modelled by the search for the first pointer not below the goal. *)
Definition has_as_successor (addr : nat -> nat) (N : nfa) (sts : list nat) (l goal : nat) : option bool :=
  r <- successor addr N sts l ;;
  Some (match drop_while (fun s => addr_ltb addr s goal) r with s :: _ => Nat.eqb s goal | [] => false end).

(** leads_to_by_epsilon, 234-253. The loop over the edges of one state (241-250): None means "return true". *)
Fixpoint lte_edges (addr : nat -> nat) (to : nat) (es : list nedge) (seen wait : list nat) : option (list nat * list nat) :=
  match es with
  | [] => Some (seen, wait)
  | e :: es' =>
      if ne_eps e then
        if Nat.eqb (ne_dst e) to then None
        else let r := addr_insert addr (ne_dst e) seen in
             lte_edges addr to es' (fst r) (if snd r then ne_dst e :: wait else wait)
      else lte_edges addr to es' seen wait
  end.
(** 238-252; the head of [wait] is the back of the vector. Every state waits at most once, so the number of states bounds
    the rounds; None = dangling pointer (NfaQueryProof shows that it is not returned for lack of fuel). *)
Fixpoint lte_loop (addr : nat -> nat) (N : nfa) (to fuel : nat) (seen wait : list nat) : option bool :=
  match wait with
  | [] => Some false
  | s :: wait' =>
      match fuel with
      | 0 => None
      | S fuel' =>
          st <- nth_error (n_states N) s ;;
          match lte_edges addr to (ns_edges st) seen wait' with
          | None => Some true
          | Some (seen', wait'') => lte_loop addr N to fuel' seen' wait''
          end
      end
  end.
Definition leads_to_by_epsilon (addr : nat -> nat) (N : nfa) (from to : nat) : option bool :=
  if Nat.eqb from to then Some true else lte_loop addr N to (S (length (n_states N))) [from] [from].

(** std::set_intersection and std::set_difference: the loops of the C++ standard, which take the smaller head. *)
Fixpoint set_inter (a : list nat) : list nat -> list nat :=
  match a with
  | [] => fun _ => []
  | x :: a' =>
      fix go (b : list nat) : list nat :=
        match b with
        | [] => []
        | y :: b' => if Nat.ltb x y then set_inter a' b else if Nat.ltb y x then go b' else x :: set_inter a' b'
        end
  end.
Fixpoint set_diff (a : list nat) : list nat -> list nat :=
  match a with
  | [] => fun _ => []
  | x :: a' =>
      fix go (b : list nat) : list nat :=
        match b with
        | [] => a
        | y :: b' => if Nat.ltb x y then x :: set_diff a' b else if Nat.ltb y x then go b' else set_diff a' b'
        end
  end.

(** The loop of intersect_edge_labels, 262-286. [temp] is declared outside the loop and never cleared (261). The range
    passed to std::set_union (279) may therefore be unsorted, which the standard does not allow; the model takes the
    loop of std::set_union (PdaModel.set_union) as it is, that is, what the common implementations do. *)
Fixpoint iel_loop (addr : nat -> nat) (N : nfa) (to : nat) (labels : list nat) (es : list nedge) (result temp : list nat)
  : option (list nat) :=
  match es with
  | [] => Some result
  | e :: es' =>
      b <- leads_to_by_epsilon addr N (ne_dst e) to ;;
      if negb b then iel_loop addr N to labels es' result temp
      else if ne_neg e && (match ne_sym e with [] => true | _ => false end) then Some labels
      else
        let temp' := temp ++ (if ne_neg e then set_diff labels (ne_sym e) else set_inter labels (ne_sym e)) in
        let result' := set_union result temp' in
        if Nat.eqb (length result') (length labels) then Some result' else iel_loop addr N to labels es' result' temp'
  end.
(** intersect_edge_labels, 254-290. None: the assertion of line 258 fails, or a dangling pointer. *)
Definition intersect_edge_labels (addr : nat -> nat) (N : nfa) (sts : list nat) (to : nat) (labels : list nat) : option (list nat) :=
  if is_sorted Nat.ltb labels then es <- edges_from N sts ;; iel_loop addr N to labels es [] [] else None.
