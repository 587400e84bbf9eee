(** Model of ptrie_set and ptrie_map, src/include/pdaaal/utils/ptrie_interface.h 264-319. The classes ptrie::set_stable and
    ptrie::map they inherit from belong to an external library which is not in /repo; the model takes what its users in the
    library rely on: keys get consecutive ids in the order of their first insertion, and get_data gives access to the data of
    an id. A set is the list of its keys by id, a map the list of its keys and data by id. *)
From Coq Require Import List Arith Bool.
From Verif Require Import Base.
Import ListNotations.

Section Trie.
  Variables (K : Type) (eqb : K -> K -> bool).
  Fixpoint tr_index (l : list K) (k : K) : option nat :=
    match l with [] => None | x :: l' => if eqb x k then Some 0 else option_map S (tr_index l' k) end.
  (** ptrie_set::insert, 276-278: whether the key is new, and its id. *)
  Definition ts_insert (l : list K) (k : K) : list K * (bool * nat) :=
    match tr_index l k with Some i => (l, (false, i)) | None => (l ++ [k], (true, length l)) end.
  (** ptrie_set::exists, 279-281; None: not found (the second component of the result has no meaning then). *)
  Definition ts_exists (l : list K) (k : K) : option nat := tr_index l k.
  (** ptrie_set::at, 285-287 *)
  Definition ts_at (l : list K) (i : nat) : option K := nth_error l i.

  Variable D : Type.
  Definition tmap := list (K * D).
  (** ptrie_map::insert, 304-306; [d] is the value of the new data. *)
  Definition tm_insert (m : tmap) (k : K) (d : D) : tmap * (bool * nat) :=
    match tr_index (map fst m) k with Some i => (m, (false, i)) | None => (m ++ [(k, d)], (true, length m)) end.
  (** ptrie_map::exists, 307-309 *)
  Definition tm_exists (m : tmap) (k : K) : option nat := tr_index (map fst m) k.
  (** ptrie_map::at, 313-315, and get_data, 301 (read and write). *)
  Definition tm_at (m : tmap) (i : nat) : option K := option_map fst (nth_error m i).
  Definition tm_data (m : tmap) (i : nat) : option D := option_map snd (nth_error m i).
  Definition tm_set (m : tmap) (i : nat) (d : D) : option tmap :=
    e <- nth_error m i ;; Some (upd m i (fst e, d)).
End Trie.
Arguments tr_index {K}. Arguments ts_insert {K}. Arguments ts_exists {K}. Arguments ts_at {K}.
Arguments tm_insert {K} _ {D}. Arguments tm_exists {K} _ {D}. Arguments tm_at {K D}. Arguments tm_data {K D}. Arguments tm_set {K D}.
