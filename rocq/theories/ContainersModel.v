(** Model of the sorted vector containers (utils/vector_set.h, utils/fut_set.h), of the set operations of labels_t
    (internal/PDA.cpp) and of is_disjoint (utils/more_algorithms.h). *)
From Coq Require Import List Arith Lia Bool.
From Verif Require Import Base PdaModel.
Import ListNotations.

(** The loop of std::lower_bound on the positions [first, first+len): halve the range, looking at the middle element.
    [p] is "element < key". The fuel is the length of the range, which shrinks in every round; None = read past the end. *)
Fixpoint lb_loop {A} (p : A -> bool) (l : list A) (fuel first len : nat) : option nat :=
  match fuel with
  | 0 => Some first
  | S fuel' =>
      if Nat.eqb len 0 then Some first
      else let half := Nat.div2 len in
           x <- nth_error l (first + half) ;;
           if p x then lb_loop p l fuel' (first + half + 1) (len - half - 1)
           else lb_loop p l fuel' first half
  end.
Definition lower_bound {A} (p : A -> bool) (l : list A) : option nat := lb_loop p l (length l) 0 (length l).
(** std::lower_bound(begin + i, end, key). *)
Definition lower_bound_from {A} (p : A -> bool) (l : list A) (i : nat) : option nat :=
  lb_loop p l (length l - i) i (length l - i).

(** std::vector::insert at position [i]. *)
Definition insert_at {A} (l : list A) (i : nat) (x : A) : list A := firstn i l ++ x :: skipn i l.

Section Keyed.
  (** Key type with operator< and operator==. *)
  Variables (K V : Type) (ltb eqb : K -> K -> bool).

  (** vector_map::elems, vector_set.h 160. *)
  Definition vmap := list (K * V).

  (** vector_map::find, 133-146, as the position found (None inside: end()). *)
  Definition vm_find (m : vmap) (k : K) : option (option nat) :=
    i <- lower_bound (fun e => ltb (fst e) k) m ;;
    Some (match nth_error m i with
          | None => None
          | Some e => if eqb (fst e) k then Some i else None
          end).
  (** The value a caller reads through find (fut_set::get, fut_set.h 135-142). *)
  Definition vm_get (m : vmap) (k : K) : option (option V) :=
    r <- vm_find m k ;;
    match r with
    | None => Some None
    | Some i => e <- nth_error m i ;; Some (Some (snd e))
    end.
  (** vector_map::contains, 128-131. *)
  Definition vm_contains (m : vmap) (k : K) : option bool :=
    i <- lower_bound (fun e => ltb (fst e) k) m ;;
    Some (match nth_error m i with Some e => eqb (fst e) k | None => false end).
  (** vector_map::emplace, 85-102: position of the entry and whether it was inserted. *)
  Definition vm_emplace (m : vmap) (k : K) (v : V) : option (vmap * (nat * bool)) :=
    i <- lower_bound (fun e => ltb (fst e) k) m ;;
    Some (match nth_error m i with
          | Some e => if eqb (fst e) k then (m, (i, false)) else (insert_at m i (k, v), (i, true))
          | None => (insert_at m i (k, v), (i, true))
          end).
  (** vector_map::insert_or_assign, 107-126. *)
  Definition vm_assign (m : vmap) (k : K) (v : V) : option (vmap * (nat * bool)) :=
    i <- lower_bound (fun e => ltb (fst e) k) m ;;
    Some (match nth_error m i with
          | Some e => if eqb (fst e) k then (upd m i (fst e, v), (i, false)) else (insert_at m i (k, v), (i, true))
          | None => (insert_at m i (k, v), (i, true))
          end).
  (** vector_map::resize, 149-152 (None: the assertion fails). *)
  Definition vm_resize (m : vmap) (n : nat) : option vmap := if Nat.leb n (length m) then Some (firstn n m) else None.

  (** vector_map(const std::unordered_map&), 62-69: the entries in the order of the hash table, sorted by key. *)
  Fixpoint vm_ins (e : K * V) (l : vmap) : vmap :=
    match l with
    | [] => [e]
    | e' :: l' => if ltb (fst e') (fst e) then e' :: vm_ins e l' else e :: l
    end.
  Definition vm_of_unordered (l : list (K * V)) : vmap := fold_right vm_ins [] l.

  (** The calls that change a vector_map. *)
  Inductive vm_call := VEmplace (k : K) (v : V) | VAssign (k : K) (v : V) | VResize (n : nat) | VClear.
  Definition vm_do (m : vmap) (c : vm_call) : option vmap :=
    match c with
    | VEmplace k v => r <- vm_emplace m k v ;; Some (fst r)
    | VAssign k v => r <- vm_assign m k v ;; Some (fst r)
    | VResize n => vm_resize m n
    | VClear => Some []
    end.
  Definition vm_run (cs : list vm_call) : option vmap := ofold vm_do cs [].
End Keyed.
Arguments vm_find {K V}. Arguments vm_get {K V}. Arguments vm_contains {K V}. Arguments vm_emplace {K V}.
Arguments vm_assign {K V}. Arguments vm_resize {K V}. Arguments vm_of_unordered {K V}. Arguments vm_ins {K V}.
Arguments vm_do {K V}. Arguments vm_run {K V}.
Arguments VEmplace {K V}. Arguments VAssign {K V}. Arguments VResize {K V}. Arguments VClear {K V}.

(** vector_set, vector_set.h 163-234: the same functions on bare keys. *)
Section SetKeyed.
  Variables (K : Type) (ltb eqb : K -> K -> bool).
  (** contains, 201-204. *)
  Definition vset_contains (s : list K) (k : K) : option bool :=
    i <- lower_bound (fun x => ltb x k) s ;;
    Some (match nth_error s i with Some x => eqb x k | None => false end).
  (** emplace, 190-199. *)
  Definition vset_emplace (s : list K) (k : K) : option (list K * (nat * bool)) :=
    i <- lower_bound (fun x => ltb x k) s ;;
    Some (match nth_error s i with
          | Some x => if eqb x k then (s, (i, false)) else (insert_at s i k, (i, true))
          | None => (insert_at s i k, (i, true))
          end).
  (** A sequence of emplace calls on an empty set, with the flags they return. *)
  Fixpoint vset_run (s : list K) (ks : list K) : option (list K * list bool) :=
    match ks with
    | [] => Some (s, [])
    | k :: ks' => r <- vset_emplace s k ;; q <- vset_run (fst r) ks' ;; Some (fst q, snd (snd r) :: snd q)
    end.
End SetKeyed.
Arguments vset_contains {K}. Arguments vset_emplace {K}. Arguments vset_run {K}.

(** fut::set<tuple<H,K,V>, hash, vector>, fut_set.h 54-143: a hash table from H to vector_maps from K to V. The hash
    table is a list of buckets with distinct keys in an order nothing depends on. *)
Section Fut.
  Variables (H K V : Type) (heqb : H -> H -> bool) (ltb eqb : K -> K -> bool).
  Definition fut := list (H * list (K * V)).
  (** std::unordered_map::find. *)
  Fixpoint h_find (t : fut) (h : H) : option (list (K * V)) :=
    match t with [] => None | (h', m) :: t' => if heqb h' h then Some m else h_find t' h end.
  (** try_emplace(head).first->second = f(...): a new bucket starts with an empty vector_map. *)
  Fixpoint h_with (t : fut) (h : H) (f : list (K * V) -> option (list (K * V) * bool)) : option (fut * bool) :=
    match t with
    | [] => r <- f [] ;; Some ([(h, fst r)], snd r)
    | (h', m) :: t' => if heqb h' h then r <- f m ;; Some ((h', fst r) :: t', snd r)
                       else r <- h_with t' h f ;; Some ((h', m) :: fst r, snd r)
    end.
  (** emplace, fut_set.h 78-86. *)
  Definition fut_emplace (t : fut) (h : H) (k : K) (v : V) : option (fut * bool) :=
    h_with t h (fun m => r <- vm_emplace ltb eqb m k v ;; Some (fst r, snd (snd r))).
  (** insert_or_assign, 87-94. *)
  Definition fut_assign (t : fut) (h : H) (k : K) (v : V) : option (fut * bool) :=
    h_with t h (fun m => r <- vm_assign ltb eqb m k v ;; Some (fst r, snd (snd r))).
  (** contains, 96-100. *)
  Definition fut_contains (t : fut) (h : H) (k : K) : option bool :=
    match h_find t h with None => Some false | Some m => vm_contains ltb eqb m k end.
  (** get, 102-111. *)
  Definition fut_get (t : fut) (h : H) (k : K) : option (option V) :=
    match h_find t h with None => Some None | Some m => vm_get ltb eqb m k end.

  Inductive fut_call := FEmplace (h : H) (k : K) (v : V) | FAssign (h : H) (k : K) (v : V) | FClear.
  Definition fut_do (t : fut) (c : fut_call) : option fut :=
    match c with
    | FEmplace h k v => r <- fut_emplace t h k v ;; Some (fst r)
    | FAssign h k v => r <- fut_assign t h k v ;; Some (fst r)
    | FClear => Some []
    end.
  Definition fut_run (cs : list fut_call) : option fut := ofold fut_do cs [].
End Fut.
Arguments h_find {H K V}. Arguments h_with {H K V}. Arguments fut_emplace {H K V}. Arguments fut_assign {H K V}.
Arguments fut_contains {H K V}. Arguments fut_get {H K V}. Arguments fut_do {H K V}. Arguments fut_run {H K V}.
Arguments FEmplace {H K V}. Arguments FAssign {H K V}. Arguments FClear {H K V}.

(** *** labels_t *)

(** labels_t::contains with the binary search itself, internal/PDA.h 72-76. *)
Definition contains_bin (ls : labels) (l : nat) : option bool :=
  if wild ls then Some true else vset_contains Nat.ltb Nat.eqb (labs ls) l.

(** The in-place loop of intersect, PDA.cpp 66-76: [fit] is the rest of [other]; the kept prefix is the result. *)
Fixpoint keep_common (ls fit : list nat) : list nat :=
  match ls with
  | [] => []
  | x :: ls' =>
      match drop_while (fun y => Nat.ltb y x) fit with
      | [] => []
      | (y :: _) as fit' => if Nat.eqb y x then x :: keep_common ls' fit' else keep_common ls' fit'
      end
  end.
(** labels_t::intersect, PDA.cpp 52-80: new value and returned flag. None: the assertion of line 77 fails. *)
Definition intersect (ls : labels) (other : list nat) (all : nat) : option (labels * bool) :=
  if Nat.eqb (length other) all then Some (ls, negb (labels_empty ls))
  else if wild ls then let ls' := mk_labels false other in Some (ls', negb (labels_empty ls'))
  else let ls' := mk_labels false (keep_common (labs ls) other) in
       if Nat.eqb (length (labs ls')) all then None else Some (ls', negb (labels_empty ls')).

(** The loop of noop_pre_filter, PDA.cpp 89-102; unlike [keep_common] it does not stop when [usefull] is used up. *)
Fixpoint keep_useful (ls uit : list nat) : list nat :=
  match ls with
  | [] => []
  | x :: ls' =>
      let uit' := drop_while (fun y => Nat.ltb y x) uit in
      match uit' with
      | y :: _ => if Nat.eqb y x then x :: keep_useful ls' uit' else keep_useful ls' uit'
      | [] => keep_useful ls' uit'
      end
  end.
(** labels_t::noop_pre_filter, PDA.cpp 82-109; [usefull] is a std::set, given in increasing order. *)
Definition noop_pre_filter (ls : labels) (useful : list nat) : labels * bool :=
  if wild ls then (mk_labels false (useful ++ labs ls), true)
  else let ks := keep_useful (labs ls) useful in
       if Nat.eqb (length ks) (length (labs ls)) then (ls, false) else (mk_labels false ks, true).

(** The calls that change a labels_t (clear: internal/PDA.h 78-81). *)
Inductive lcall := LMerge (w : bool) (other : list nat) | LIntersect (other : list nat) | LFilter (useful : list nat) | LClear.
Definition do_lcall (all : nat) (ls : labels) (c : lcall) : option labels :=
  match c with
  | LMerge w other => Some (merge ls w other)
  | LIntersect other => r <- intersect ls other all ;; Some (fst r)
  | LFilter useful => Some (fst (noop_pre_filter ls useful))
  | LClear => Some no_labels
  end.
Definition do_lcalls (all : nat) (cs : list lcall) : option labels := ofold (do_lcall all) cs no_labels.

(** *** is_disjoint, utils/more_algorithms.h 39-56 (T = U, operator<) and 58-75 (comparator over both element types).
    Positions ia, ib; every round moves one of them forward, so length a + length b rounds are enough.
    None = read past the end. *)
Section Disjoint.
  Variables (T U : Type) (lt_tu : T -> U -> bool) (lt_ut : U -> T -> bool).
  Fixpoint disj_loop (a : list T) (b : list U) (fuel ia ib : nat) : option (option bool) :=
    match fuel with
    | 0 => Some None
    | S fuel' =>
        if Nat.ltb ia (length a) && Nat.ltb ib (length b) then
          x <- nth_error a ia ;;
          y <- nth_error b ib ;;
          if lt_tu x y then ia' <- lower_bound_from (fun z => lt_tu z y) a (S ia) ;; disj_loop a b fuel' ia' ib
          else if lt_ut y x then ib' <- lower_bound_from (fun z => lt_ut z x) b (S ib) ;; disj_loop a b fuel' ia ib'
          else Some (Some false)
        else Some (Some true)
    end.
  Definition is_disjoint (a : list T) (b : list U) : option (option bool) := disj_loop a b (S (length a + length b)) 0 0.
End Disjoint.
Arguments disj_loop {T U}. Arguments is_disjoint {T U}.
