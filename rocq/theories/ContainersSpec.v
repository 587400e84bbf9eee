(** Specification of the containers: finite maps and sets as unsorted lists, label sets as predicates. *)
From Coq Require Import List Arith Lia Bool.
From Verif Require Import Base PdaModel ContainersModel.
Import ListNotations.

(** A strict total order with its equality test. *)
Record total_order {K : Type} (ltb eqb : K -> K -> bool) : Prop := mk_total_order {
  to_eq : forall a b, eqb a b = true <-> a = b;
  to_irrefl : forall a, ltb a a = false;
  to_trans : forall a b c, ltb a b = true -> ltb b c = true -> ltb a c = true;
  to_total : forall a b, ltb a b = true \/ a = b \/ ltb b a = true
}.

Section FiniteMap.
  Variables (K V : Type) (ltb eqb : K -> K -> bool).
  (** A finite map as a list of entries in no particular order. *)
  Fixpoint assoc (l : list (K * V)) (k : K) : option V :=
    match l with [] => None | (k', v) :: l' => if eqb k' k then Some v else assoc l' k end.
  Definition without (l : list (K * V)) (k : K) : list (K * V) := filter (fun e => negb (eqb (fst e) k)) l.
  Definition smaller_keys (l : list (K * V)) (k : K) : nat := length (filter (fun e => ltb (fst e) k) l).
  (** emplace keeps the first value, insert_or_assign the last; resize keeps the n smallest keys. *)
  Definition fm_do (l : list (K * V)) (c : vm_call K V) : option (list (K * V)) :=
    match c with
    | VEmplace k v => Some (match assoc l k with Some _ => l | None => (k, v) :: l end)
    | VAssign k v => Some ((k, v) :: without l k)
    | VResize n => if Nat.leb n (length l) then Some (filter (fun e => Nat.ltb (smaller_keys l (fst e)) n) l) else None
    | VClear => Some []
    end.
  Definition fm_run (cs : list (vm_call K V)) : option (list (K * V)) := ofold fm_do cs [].
End FiniteMap.
Arguments assoc {K V}. Arguments without {K V}. Arguments smaller_keys {K V}. Arguments fm_do {K V}. Arguments fm_run {K V}.

(** Maps with two keys, as functions. *)
Section TwoKeys.
  Variables (H K V : Type) (heqb : H -> H -> bool) (eqb : K -> K -> bool).
  Definition tk_do (m : H -> K -> option V) (c : fut_call H K V) : H -> K -> option V :=
    match c with
    | FEmplace h k v => fun h' k' => if heqb h h' && eqb k k' then (match m h k with Some w => Some w | None => Some v end) else m h' k'
    | FAssign h k v => fun h' k' => if heqb h h' && eqb k k' then Some v else m h' k'
    | FClear => fun _ _ => None
    end.
  Definition tk_run (cs : list (fut_call H K V)) : H -> K -> option V := fold_left tk_do cs (fun _ _ => None).
End TwoKeys.
Arguments tk_do {H K V}. Arguments tk_run {H K V}.

(** Label sets over the alphabet 0..all-1. *)
Definition lset := nat -> Prop.
Definition lspec_do (all : nat) (s : lset) (c : lcall) : lset :=
  match c with
  | LMerge true _ => fun l => l < all
  | LMerge false other => fun l => s l \/ In l other
  | LIntersect other => fun l => s l /\ In l other
  | LFilter useful => fun l => s l /\ In l useful
  | LClear => fun _ => False
  end.
Definition lspec (all : nat) (cs : list lcall) : lset := fold_left (lspec_do all) cs (fun _ => False).
(** What the callers pass: strictly increasing vectors of labels of the alphabet. *)
Definition label_vec (all : nat) (v : list nat) : Prop :=
  (forall i j a b, i < j -> nth_error v i = Some a -> nth_error v j = Some b -> a < b) /\ (forall l, In l v -> l < all).
Definition lcall_ok (all : nat) (c : lcall) : Prop :=
  match c with
  | LMerge _ v | LIntersect v | LFilter v => label_vec all v
  | LClear => True
  end.
