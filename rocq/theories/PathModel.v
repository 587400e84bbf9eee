(** Model of AutomatonPath (src/include/pdaaal/AutomatonPath.h) with its real layout: _edges is a vector whose back is the
    front of the path. QueryModel works with the reversed layout; PathProof relates the two. *)
From Coq Require Import List Arith Lia Bool.
From Verif Require Import Base QueryModel.
Import ListNotations.

(** Members, 42-43. A null path is represented by [None] at the users, so [vp_end] is a proper state. *)
Record vpath (S : Type) := mk_vpath { vp_end : S; vp_edges : list (option nat * S) }.
Arguments mk_vpath {S}. Arguments vp_end {S}. Arguments vp_edges {S}.

(** std::vector::back and pop_back; None on an empty vector. *)
Definition vback {A} (l : list A) : option A := nth_error l (length l - 1).
Definition vpop_back {A} (l : list A) : option (list A) :=
  match l with [] => None | _ => Some (firstn (length l - 1) l) end.

(** AutomatonPath(end), 52-59. *)
Definition vp_single {S} (e : S) : vpath S := mk_vpath e [].

(** AutomatonPath(path, stack), 60-68: two reverse iterators in step; [crbegin()+1] skips the last state. *)
Fixpoint vp_fill {S} (stack_r : list (option nat)) (path_r : list S) (acc : list (option nat * S)) : option (list (option nat * S)) :=
  match stack_r with
  | [] => Some acc
  | l :: stack_r' => match path_r with [] => None | s :: path_r' => vp_fill stack_r' path_r' (acc ++ [(l, s)]) end
  end.
Definition vp_make {S} (path : list S) (stack : list (option nat)) : option (vpath S) :=
  e <- vback path ;;
  if Nat.eqb (length path) (length stack + 1) then es <- vp_fill (rev stack) (tl (rev path)) [] ;; Some (mk_vpath e es) else None.

(** empty, edges_size, 77-82. *)
Definition vp_empty {S} (p : vpath S) : bool := match vp_edges p with [] => true | _ => false end.
(** front_state, 83-85. *)
Definition vp_front {S} (p : vpath S) : S := match vback (vp_edges p) with None => vp_end p | Some e => snd e end.
(** front_edge, 86-89; None: the assertion. *)
Definition vp_front_edge {S} (p : vpath S) : option (S * option nat * S) :=
  e <- vback (vp_edges p) ;;
  if Nat.ltb 1 (length (vp_edges p))
  then e' <- nth_error (vp_edges p) (length (vp_edges p) - 2) ;; Some (snd e, fst e, snd e')
  else Some (snd e, fst e, vp_end p).
(** pop, 90-93. *)
Definition vp_pop {S} (p : vpath S) : option (vpath S) := es <- vpop_back (vp_edges p) ;; Some (mk_vpath (vp_end p) es).
(** emplace, 94-97. *)
Definition vp_emplace {S} (p : vpath S) (from : S) (l : option nat) : vpath S := mk_vpath (vp_end p) (vp_edges p ++ [(l, from)]).
(** stack, 98-105. *)
Definition vp_stack {S} (p : vpath S) : list (option nat) := fold_left (fun st e => st ++ [fst e]) (rev (vp_edges p)) [].
(** get_path_and_stack, 106-119. *)
Definition vp_path_and_stack {S} (p : vpath S) : list S * list nat :=
  let ps := fold_left (fun (ps : list S * list nat) (e : option nat * S) =>
              match fst e with Some l => (fst ps ++ [snd e], snd ps ++ [l]) | None => ps end) (rev (vp_edges p)) ([], []) in
  (fst ps ++ [vp_end p], snd ps).
(** split, 121-134. *)
Definition vp_split (p : vpath (nat * nat)) : vpath nat * vpath nat :=
  fold_left (fun ab (e : option nat * (nat * nat)) =>
      (vp_emplace (fst ab) (fst (snd e)) (fst e), vp_emplace (snd ab) (snd (snd e)) (fst e)))
    (vp_edges p) (vp_single (fst (vp_end p)), vp_single (snd (vp_end p))).
(** remove_epsilon, 135-140; None: the assertion 137. *)
Definition vp_remove_epsilon (p : vpath nat) : option (vpath nat) :=
  if vp_empty p then Some p
  else fe <- vp_front_edge p ;;
       match fe with
       | (a, None, b) => if Nat.eqb a b then vp_pop p else None
       | _ => Some p
       end.

(** A client's sequence of modifications. *)
Inductive pop_call (S : Type) := PEmplace (from : S) (l : option nat) | PPop.
Arguments PEmplace {S}. Arguments PPop {S}.
Definition vp_call {S} (p : vpath S) (c : pop_call S) : option (vpath S) :=
  match c with PEmplace f l => Some (vp_emplace p f l) | PPop => vp_pop p end.
