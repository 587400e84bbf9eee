(** What a JSON document for a pushdown automaton says, written without reference to the parser: the rules it lists, by the
    names of states and labels. Only the type of JSON values is taken from the model. *)
From Coq Require Import List Arith Bool ZArith String.
From Verif Require Import Base RefineModel JsonModel.
Import ListNotations.
Open Scope string_scope.

(** A state is given by its name, or by its number if states have no names. *)
Inductive sref := SName (s : string) | SNum (n : nat).
Inductive dop := DPop | DSwap (l : string) | DPush (l : string).
Record drule := mk_drule { d_to : sref; d_op : dop; d_w : list Z }.
(** For each state the labels and the rules under them. *)
Definition doc := list (sref * list (string * list drule)).

Section Doc.
  (** Whether states have names, the weight type, and whether the value of "pop" has to be empty. *)
  Variables (names : bool) (wk : wkind) (strict : bool).
  Definition member (k : string) (m : list (string * json)) : list json := map snd (filter (fun e => String.eqb (fst e) k) m).
  (** The integers that a number type with the given limits can be read from. *)
  Definition in_range (sg : bool) (lo hi z : Z) : bool := Z.ltb z hi && (Z.leb 0 z || sg && Z.ltb lo z).
  Definition num_in (sg : bool) (lo hi : Z) (j : json) : option Z :=
    match j with JNum z => if in_range sg lo hi z then Some z else None | _ => None end.
  Definition weight_of (j : json) : option (list Z) :=
    match wk, j with
    | WNum sg lo hi, _ => z <- num_in sg lo hi j ;; Some [z]
    | WVec sg lo hi, JArr l => omap (num_in sg lo hi) l
    | _, _ => None
    end.
  Definition to_of (j : json) : option sref :=
    match j with
    | JStr s => if names then Some (SName s) else None
    | JNum z => if names then None else if Z.ltb z 0 then None else Some (SNum (Z.to_nat z))
    | _ => None
    end.
  (** A rule object: "to", one of "pop", "swap" and "push", and "weight" if rules have weights; nothing else, nothing twice. *)
  Definition rule_of (m : list (string * json)) : option drule :=
    to <- (match member "to" m with [j] => to_of j | _ => None end) ;;
    o <- (match member "pop" m, member "swap" m, member "push" m with
          | [JStr s], [], [] => if strict && negb (String.eqb s "") then None else Some DPop
          | [], [JStr l], [] => Some (DSwap l)
          | [], [], [JStr l] => Some (DPush l)
          | _, _, _ => None
          end) ;;
    match wk with
    | WVoid => if Nat.eqb (length m) 2 then Some (mk_drule to o []) else None
    | _ => w <- (match member "weight" m with [j] => weight_of j | _ => None end) ;;
           if Nat.eqb (length m) 3 then Some (mk_drule to o w) else None
    end.
  (** Under a label: one rule object or an array of rule objects. *)
  Definition rules_of (j : json) : option (list drule) :=
    match j with
    | JObj m => r <- rule_of m ;; Some [r]
    | JArr l => omap (fun j => match j with JObj m => rule_of m | _ => None end) l
    | _ => None
    end.
  Definition state_of (j : json) : option (list (string * list drule)) :=
    match j with JObj m => omap (fun e => rs <- rules_of (snd e) ;; Some (fst e, rs)) m | _ => None end.
  Definition states_of (j : json) : option doc :=
    match j with
    | JObj m => if names then omap (fun e => s <- state_of (snd e) ;; Some (SName (fst e), s)) m else None
    | JArr l => if names then None else omap (fun e => s <- state_of (snd e) ;; Some (SNum (fst e), s)) (enum l)
    | _ => None
    end.
  (** The value of "pda", and the document. Other members are ignored. *)
  Definition pda_of (j : json) : option doc :=
    match j with JObj m => match member "states" m with [s] => states_of s | _ => None end | _ => None end.
  Definition doc_of (j : json) : option doc :=
    match j with JObj m => match member "pda" m with [p] => pda_of p | _ => None end | _ => None end.
End Doc.

(** Restrictions under which the parser is shown to read exactly these documents. A value that is skipped has at most one leaf. *)
Fixpoint small (j : json) : Prop :=
  match j with
  | JArr l => match l with [] => True | [x] => small x | _ => False end
  | JObj m => match m with [] => True | [(_, x)] => small x | _ => False end
  | _ => True
  end.
Definition is_array (j : json) : Prop := match j with JArr _ => True | _ => False end.
Definition no_arrays (l : list json) : Prop := Forall (fun j => ~ is_array j) l.
Section Regular.
  Variable wk : wkind.
  (** Vector weights are given by arrays of values which are not arrays. *)
  Definition regular_rule (m : list (string * json)) : Prop :=
    match wk with WVec _ _ _ => Forall (fun j => exists l, j = JArr l /\ no_arrays l) (member "weight" m) | _ => True end.
  Definition regular_obj (j : json) : Prop := match j with JObj m => regular_rule m | _ => True end.
  Definition regular_rules (j : json) : Prop :=
    match j with JArr l => no_arrays l /\ Forall regular_obj l | _ => regular_obj j end.
  Definition regular_state (j : json) : Prop := match j with JObj m => Forall (fun e => regular_rules (snd e)) m | _ => True end.
  Definition regular_states (j : json) : Prop :=
    match j with JObj m => Forall (fun e => regular_state (snd e)) m | JArr l => no_arrays l /\ Forall regular_state l | _ => True end.
  Definition regular_members (k : string) (P : json -> Prop) (j : json) : Prop :=
    match j with JObj m => Forall (fun e => if String.eqb (fst e) k then P (snd e) else small (snd e)) m | _ => True end.
  Definition regular_pda (j : json) : Prop := regular_members "states" regular_states j.
  Definition regular (j : json) : Prop := regular_members "pda" regular_pda j.
End Regular.

(** The labels of a document: those before rules and those swapped in or pushed. Under "*", which stands for all labels, swapping in "*" stands
    for keeping the label. *)
Definition op_labels (pre : string) (o : dop) : list string :=
  match o with DPop => [] | DSwap l => if String.eqb pre "*" && String.eqb l "*" then [] else [l] | DPush l => [l] end.
Definition pre_labels (pre : string) : list string := if String.eqb pre "*" then [] else [pre].
Definition doc_labels (d : doc) : list string :=
  flat_map (fun s => flat_map (fun e => (pre_labels (fst e) ++ flat_map (fun r => op_labels (fst e) (d_op r)) (snd e))%list) (snd s)) d.

(** A rule for one label: from, label, to, operation, weight. *)
Record nrule := mk_nrule { n_from : sref; n_pre : string; n_to : sref; n_op : dop; n_w : list Z }.
Definition written_over (labels : list string) (d : doc) (r : nrule) : Prop :=
  exists ms l rs x, In (n_from r, ms) d /\ In (l, rs) ms /\ In x rs /\ n_to r = d_to x /\ n_w r = d_w x /\
    (if String.eqb l "*"
     then In (n_pre r) labels /\ n_op r = (match d_op x with DSwap k => if String.eqb k "*" then DSwap (n_pre r) else DSwap k | o => o end)
     else n_pre r = l /\ n_op r = d_op x).
Definition written (d : doc) (r : nrule) : Prop := written_over (doc_labels d) d r.
