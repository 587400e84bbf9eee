(** Model of the queries on P-automata (internal/PAutomaton.h) and of AutomatonPath.h. *)
From Coq Require Import List Arith Lia Bool.
From Verif Require Import Base Spec PdaModel AutModel SolverModel.
Import ListNotations.

(** AutomatonPath, AutomatonPath.h 38-149. [ap_edges] is the vector _edges back to front: its head is the front edge
    (_edges.back()). The null path (_end = max, 47, 70-76) is [None] of the option type used by the callers; state and
    label ids are below the maxima of their types. *)
Record apth (S : Type) := mk_apth { ap_end : S; ap_edges : list (option nat * S) }.
Arguments mk_apth {S}. Arguments ap_end {S}. Arguments ap_edges {S}.

(** AutomatonPath(path, stack), 59-68. None: path.back() of an empty vector, or the assertion on the sizes. *)
Definition ap_make {S} (path : list S) (stack : list (option nat)) : option (apth S) :=
  match rev path with
  | [] => None
  | e :: _ => if Nat.eqb (length path) (1 + length stack) then Some (mk_apth e (combine stack path)) else None
  end.
(** front_state, 83-85. *)
Definition ap_front {S} (p : apth S) : S := match ap_edges p with [] => ap_end p | (_, s) :: _ => s end.
(** front_edge, 86-89. *)
Definition ap_front_edge {S} (p : apth S) : option (S * option nat * S) :=
  match ap_edges p with
  | [] => None
  | (l, s) :: es => Some (s, l, match es with [] => ap_end p | (_, s') :: _ => s' end)
  end.
(** pop, 90-93. *)
Definition ap_pop {S} (p : apth S) : option (apth S) :=
  match ap_edges p with [] => None | _ :: es => Some (mk_apth (ap_end p) es) end.
(** emplace, 94-97. *)
Definition ap_emplace {S} (p : apth S) (from : S) (l : option nat) : apth S := mk_apth (ap_end p) ((l, from) :: ap_edges p).
(** stack, 98-105. *)
Definition ap_stack {S} (p : apth S) : list (option nat) := map fst (ap_edges p).
(** get_path_and_stack, 106-119: epsilon edges are skipped. *)
Definition ap_path_and_stack {S} (p : apth S) : list S * list nat :=
  (flat_map (fun e => match fst e with Some _ => [snd e] | None => [] end) (ap_edges p) ++ [ap_end p],
   flat_map (fun e => match fst e with Some l => [l] | None => [] end) (ap_edges p)).
(** split, 121-134. The loop runs over _edges from the bottom, emplacing in front each time. *)
Definition ap_split (p : apth (nat * nat)) : apth nat * apth nat :=
  fold_left (fun ab (e : option nat * (nat * nat)) =>
      (ap_emplace (fst ab) (fst (snd e)) (fst e), ap_emplace (snd ab) (snd (snd e)) (fst e)))
    (rev (ap_edges p)) (mk_apth (fst (ap_end p)) [], mk_apth (snd (ap_end p)) []).
(** remove_epsilon, 135-140; None: the assertion 137. *)
Definition ap_remove_epsilon (p : apth nat) : option (apth nat) :=
  match ap_front_edge p with
  | Some (a, None, b) => if Nat.eqb a b then ap_pop p else None
  | _ => Some p
  end.

(** labels.contains(l) on states()[q]->_edges[t], 519. *)
Definition has_label (A : aut) (q t : nat) (l : option nat) : bool := existsb (lab_eqb l) (labels_between A q t).

(** accepts, 508-533: the loop 515-531. The search stack has its top at the head. *)
Definition accepts_body (A : aut) (stack : list nat) (q i l : nat) (ws : list (nat * nat)) (t : nat) : option (list (nat * nat) + bool) :=
  if has_label A q t (Some l) then
    if Nat.ltb (i + 1) (length stack) then Some (inl ((t, i + 1) :: ws))
    else b <- accepting A t ;; if (b : bool) then Some (inr true) else Some (inl ws)
  else Some (inl ws).
Fixpoint accepts_loop (A : aut) (stack : list nat) (fuel : nat) (ws : list (nat * nat)) : option (option bool) :=
  match ws with
  | [] => done false
  | (q, i) :: ws' =>
      match fuel with
      | 0 => Some None
      | S f =>
          if Nat.ltb q (a_size A) then
            l <- nth_error stack i ;;
            r <- eloop (accepts_body A stack q i l) (tos A q) ws' ;;
            match r with inr b => done b | inl ws'' => accepts_loop A stack f ws'' end
          else None
      end
  end.
Definition accepts (A : aut) (fuel state : nat) (stack : list nat) : option (option bool) :=
  match stack with
  | [] => b <- accepting A state ;; done b
  | _ => accepts_loop A stack fuel [(state, 0)]
  end.

(** accept_path for Trace_Type::Any, 535-540 and 610-645. *)
Definition accept_path_body (A : aut) (stack : list nat) (q i l : nat) (path : list nat) (ws : list (nat * nat)) (t : nat)
    : option (list (nat * nat) + list nat) :=
  if has_label A q t (Some l) then
    if Nat.ltb (i + 1) (length stack) then Some (inl ((t, i + 1) :: ws))
    else b <- accepting A t ;; if (b : bool) then Some (inr (upd path (i + 1) t)) else Some (inl ws)
  else Some (inl ws).
Fixpoint accept_path_loop (A : aut) (stack : list nat) (fuel : nat) (path : list nat) (ws : list (nat * nat)) : option (option (list nat)) :=
  match ws with
  | [] => done []
  | (q, i) :: ws' =>
      match fuel with
      | 0 => Some None
      | S f =>
          if Nat.ltb q (a_size A) then
            l <- nth_error stack i ;;
            let path' := upd path i q in
            r <- eloop (accept_path_body A stack q i l path') (tos A q) ws' ;;
            match r with inr p => done p | inl ws'' => accept_path_loop A stack f path' ws'' end
          else None
      end
  end.
Definition accept_path (A : aut) (fuel state : nat) (stack : list nat) : option (option (list nat)) :=
  match stack with
  | [] => b <- accepting A state ;; done (if (b : bool) then [state] else [])
  | _ => accept_path_loop A stack fuel (repeat 0 (length stack + 1)) [(state, 0)]
  end.

(** std::vector::resize with a default value. *)
Definition vresize {A} (d : A) (k : nat) (l : list A) : list A := firstn k l ++ repeat d (k - length l).

(** find_path, 391-432. [state_map] is applied when the result is built instead of at each write to the path buffer
    (states are written and never read in between). The waiting vector has its back at the head; the label of an entry
    with stack_index 0 is unused. [n] is the number of PDA states. *)
Definition find_path_body (A : aut) (q i : nat) (path : list nat) (lst : list (option nat))
    (s : list (nat * nat * option nat) * list nat) (t : nat)
    : option ((list (nat * nat * option nat) * list nat) + (list nat * list (option nat))) :=
  match labels_between A q t with
  | [] => Some (inl s)
  | l :: _ =>
      if memb t (snd s) then Some (inl s)
      else b <- accepting A t ;;
           if (b : bool) then Some (inr (upd path (i + 1) t, upd lst i l))
           else Some (inl ((t, i + 1, l) :: fst s, t :: snd s))
  end.
Fixpoint find_path_loop (A : aut) (fuel : nat) (path : list nat) (lst : list (option nat))
    (ws : list (nat * nat * option nat)) (seen : list nat) : option (option (option (list nat * list (option nat)))) :=
  match ws with
  | [] => done None
  | (q, i, ll) :: ws' =>
      match fuel with
      | 0 => Some None
      | S f =>
          if Nat.ltb q (a_size A) then
            let path' := upd (vresize 0 (i + 2) path) i q in
            let lst0 := vresize None (i + 1) lst in
            let lst' := if Nat.ltb 0 i then upd lst0 (i - 1) ll else lst0 in
            r <- eloop (find_path_body A q i path' lst') (tos A q) (ws', seen) ;;
            match r with
            | inr p => done (Some p)
            | inl (ws'', seen') => find_path_loop A f path' lst' ws'' seen'
            end
          else None
      end
  end.
(** The initial loop 403-408: the first accepting initial state is returned. *)
Definition first_accepting (A : aut) (n : nat) : option (option nat) :=
  r <- eloop (fun (_ : unit) i => b <- accepting A i ;; Some (if (b : bool) then inr i else inl tt)) (seq 0 n) tt ;;
  match r with inr i => Some (Some i) | inl _ => Some None end.
Definition find_path {S} (n : nat) (A : aut) (state_map : nat -> S) (fuel : nat) : option (option (option (apth S))) :=
  fa <- first_accepting A n ;;
  match fa with
  | Some i => done (Some (mk_apth (state_map i) []))
  | None =>
      match find_path_loop A fuel [] [] (rev (map (fun i => (i, 0, None)) (seq 0 n))) [] with
      | None => None
      | Some None => Some None
      | Some (Some None) => done None
      | Some (Some (Some (path, lst))) => p <- ap_make (map state_map path) lst ;; done (Some p)
      end
  end.
