(** Model of internal::PDA, labels_t and pda_rule_t (src/include/pdaaal/internal/PDA.h, PDA.cpp). *)
From Coq Require Import List Arith Lia Bool ZArith.
From Verif Require Import Base Spec.
Import ListNotations.

(** op_t, internal/PDA.h 43-48; the numbers give the order used when rules are compared. *)
Inductive op := PUSH | POP | SWAP | NOOP.
Definition op_num (o : op) : nat := match o with PUSH => 1 | POP => 2 | SWAP => 4 | NOOP => 8 end.
Definition op_eqb (a b : op) : bool :=
  match a, b with PUSH,PUSH | POP,POP | SWAP,SWAP | NOOP,NOOP => true | _,_ => false end.

(** pda_rule_t, internal/PDA.h 97-143. The weight is a [Z]; for unweighted PDAs it is 0 in every rule, and then
    the weighted comparison below coincides with the unweighted one (105). *)
Record rule := mk_rule { r_to : nat; r_op : op; r_opl : nat; r_w : Z }.

(** pda_rule_t::operator<, internal/PDA.h 127-130: lexicographic on (_to, _op_label, _operation, _weight). *)
Definition rule_cmp (a b : rule) : comparison :=
  match Nat.compare (r_to a) (r_to b) with
  | Eq => match Nat.compare (r_opl a) (r_opl b) with
          | Eq => match Nat.compare (op_num (r_op a)) (op_num (r_op b)) with
                  | Eq => Z.compare (r_w a) (r_w b)
                  | c => c end
          | c => c end
  | c => c end.
Definition rule_ltb (a b : rule) : bool := match rule_cmp a b with Lt => true | _ => false end.

(** pda_rule_t::operator==, internal/PDA.h 132-135. *)
Definition rule_eqb (a b : rule) : bool :=
  Nat.eqb (r_to a) (r_to b) && Nat.eqb (r_opl a) (r_opl b) && op_eqb (r_op a) (r_op b) && Z.eqb (r_w a) (r_w b).

(** labels_t, internal/PDA.h 52-88. *)
Record labels := mk_labels { wild : bool; labs : list nat }.

(** labels_t(), 58. *)
Definition no_labels : labels := mk_labels false [].

(** labels_t::empty, 68-70. *)
Definition labels_empty (ls : labels) : bool := negb (wild ls) && match labs ls with [] => true | _ => false end.

(** std::lower_bound followed by "lb != end && *lb == x" on a sorted vector of numbers (used in contains, 74-75).
    The binary search is modelled by a linear one; ContainersProof shows that both agree on sorted vectors. *)
Definition sorted_mem (x : nat) (l : list nat) : bool :=
  match drop_while (fun y => Nat.ltb y x) l with y :: _ => Nat.eqb y x | [] => false end.

(** labels_t::contains, 72-76. *)
Definition contains (ls : labels) (l : nat) : bool := if wild ls then true else sorted_mem l (labs ls).

(** contains applied to an edge label; epsilon is the uint32 maximum, which no label vector holds, so only the
    wildcard contains it. *)
Definition contains_lab (ls : labels) (l : option nat) : bool :=
  match l with Some x => contains ls x | None => wild ls end.

(** std::set_union on sorted ranges (used in merge, PDA.cpp 46-48). *)
Fixpoint set_union (a b : list nat) {struct a} : list nat :=
  let fix aux (b : list nat) : list nat :=
    match a, b with
    | [], _ => b
    | _, [] => a
    | x :: a', y :: b' =>
        if Nat.ltb x y then x :: set_union a' b
        else if Nat.ltb y x then y :: aux b'
        else x :: set_union a' b'
    end in aux b.

(** labels_t::merge, PDA.cpp 33-50. *)
Definition merge (ls : labels) (w : bool) (other : list nat) : labels :=
  if wild ls then ls
  else if w then mk_labels true []
  else mk_labels false (set_union (labs ls) other).

(** internal::PDA::state_t, internal/PDA.h 219-225: rules sorted by rule, predecessor states sorted. *)
Record pstate := mk_pstate { ps_rules : list (rule * labels); ps_pre : list nat }.
Definition empty_pstate := mk_pstate [] [].

(** internal::PDA with the label count that the derived class reports (258). *)
Record pda := mk_pda { pd_states : list pstate; pd_nlab : nat }.
Definition pd_n (P : pda) : nat := length (pd_states P).

(** vector_map::emplace(k, v).first->second = f(...), utils/vector_set.h 85-93 with the use in internal/PDA.h 305:
    find the lower bound; if the key is absent insert (k,v) there; then apply f to the stored value. *)
Fixpoint vm_emplace_mod (k : rule) (v : labels) (f : labels -> labels) (l : list (rule * labels)) : list (rule * labels) :=
  match l with
  | [] => [(k, f v)]
  | (k', v') :: l' =>
      if rule_ltb k' k then (k', v') :: vm_emplace_mod k v f l'
      else if rule_eqb k' k then (k', f v') :: l'
      else (k, f v) :: l
  end.

(** vector_set::emplace, utils/vector_set.h 190-199. *)
Fixpoint vs_emplace (k : nat) (l : list nat) : list nat :=
  match l with
  | [] => [k]
  | k' :: l' => if Nat.ltb k' k then k' :: vs_emplace k l'
                else if Nat.eqb k' k then l else k :: l
  end.

(** internal::PDA::add_state, internal/PDA.h 292-296. *)
Definition add_state (P : pda) (s : nat) : pda :=
  if Nat.leb (pd_n P) s
  then mk_pda (pd_states P ++ repeat empty_pstate (S s - pd_n P)) (pd_nlab P)
  else P.

(** internal::PDA::add_untyped_rule_impl, internal/PDA.h 303-307. *)
Definition add_rule_impl (P : pda) (from : nat) (r : rule) (w : bool) (pre : list nat) : pda :=
  let P1 := add_state P (Nat.max from (r_to r)) in
  let s := nth from (pd_states P1) empty_pstate in
  let s' := mk_pstate (vm_emplace_mod r no_labels (fun ls => merge ls w pre) (ps_rules s)) (ps_pre s) in
  let sts := upd (pd_states P1) from s' in
  let t := nth (r_to r) sts empty_pstate in
  mk_pda (upd sts (r_to r) (mk_pstate (ps_rules t) (vs_emplace from (ps_pre t)))) (pd_nlab P1).

(** A user-level rule: from, operation with target, wildcard flag, precondition labels. add_rule (282-284) is the case
    [false, [pre]], add_wildcard_rule (285-288) the case [true, []]; the typed PDA passes sorted label vectors. *)
Record urule := mk_urule { u_from : nat; u_rule : rule; u_wild : bool; u_pre : list nat }.

Definition add_urule (P : pda) (u : urule) : pda := add_rule_impl P (u_from u) (u_rule u) (u_wild u) (u_pre u).

(** The PDA obtained by a sequence of API calls, over an alphabet of [nlab] labels. *)
Definition build (nlab : nat) (us : list urule) : pda := fold_left add_urule us (mk_pda [] nlab).

(** Interpretation of rule operations in the specification. *)
Definition sop_of (r : rule) : sop :=
  match r_op r with PUSH => SPush (r_opl r) | POP => SPop | SWAP => SSwap (r_opl r) | NOOP => SNoop end.

(** Which labels a precondition stands for: a wildcard means every label of the alphabet. *)
Definition matches (nlab : nat) (ls : labels) (l : nat) : Prop := if wild ls then l < nlab else In l (labs ls).

(** The pushdown system a stored PDA stands for. *)
Definition pda_rules (P : pda) : pds := fun sr =>
  exists s r ls, nth_error (pd_states P) (s_from sr) = Some s /\ In (r, ls) (ps_rules s) /\
    matches (pd_nlab P) ls (s_pre sr) /\ s_to sr = r_to r /\ s_op sr = sop_of r.

(** The pushdown system that a list of API calls describes (independent of the stored representation). *)
Definition user_rules (nlab : nat) (us : list urule) : pds := fun sr =>
  exists u, In u us /\ s_from sr = u_from u /\ s_to sr = r_to (u_rule u) /\ s_op sr = sop_of (u_rule u) /\
    (if u_wild u then s_pre sr < nlab else In (s_pre sr) (u_pre u)).

(** internal::PDA::clear_state, internal/PDA.h 265-280. None: state index out of range. The copy loop 269-276 keeps the
    rules with another target in their order. *)
Definition clear_rules_to (s : nat) (sts : list pstate) (p : nat) : option (list pstate) :=
  sp <- nth_error sts p ;;
  Some (upd sts p (mk_pstate (filter (fun x => negb (Nat.eqb (r_to (fst x)) s)) (ps_rules sp)) (ps_pre sp))).
Definition clear_state (P : pda) (s : nat) : option pda :=
  ss <- nth_error (pd_states P) s ;;
  sts <- ofold (clear_rules_to s) (ps_pre ss) (upd (pd_states P) s (mk_pstate [] (ps_pre ss))) ;;
  ss' <- nth_error sts s ;;
  Some (mk_pda (upd sts s (mk_pstate (ps_rules ss') [])) (pd_nlab P)).

(** A sequence of API calls that change the rule store. *)
Inductive pcall := CAdd (u : urule) | CClear (s : nat).
Definition do_call (P : pda) (c : pcall) : option pda :=
  match c with CAdd u => Some (add_urule P u) | CClear s => clear_state P s end.
Definition do_calls (nlab : nat) (cs : list pcall) : option pda := ofold do_call cs (mk_pda [] nlab).
