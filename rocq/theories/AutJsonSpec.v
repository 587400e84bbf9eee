(** What a JSON document for a P-automaton says, written without reference to the parser: its accepting states and its edges, by the names
    (or numbers) of states and by labels. Only the type of JSON values is taken from the model; states are written as in JsonSpec. *)
From Coq Require Import List Arith Bool ZArith String.
From Verif Require Import Base RefineModel JsonModel JsonSpec.
Import ListNotations.
Open Scope string_scope.

(** Accepting states; edges with their label, the empty string for none. *)
Record adoc := mk_adoc { ad_acc : list sref; ad_edges : list (sref * string * sref) }.

(** Words from one state to another, and the acceptance of a word from a state. *)
Inductive dpath (E : list (sref * string * sref)) : sref -> list string -> sref -> Prop :=
| dp_nil : forall s, dpath E s [] s
| dp_label : forall s l s1 w s2, In (s, l, s1) E -> l <> "" -> dpath E s1 w s2 -> dpath E s (l :: w) s2
| dp_empty : forall s s1 w s2, In (s, "", s1) E -> dpath E s1 w s2 -> dpath E s w s2.
Definition daccepts (D : adoc) (s : sref) (w : list string) : Prop := exists f, In f (ad_acc D) /\ dpath (ad_edges D) s w f.
Definition adoc_labels (D : adoc) : list string := filter (fun l => negb (String.eqb l "")) (map (fun e => snd (fst e)) (ad_edges D)).

Section Doc.
  (** Whether the states of the pushdown automaton have names, which states it has, and whether "initial" may be missing. *)
  Variables (names : bool) (known : sref -> bool) (optional_initial : bool).
  (** A state: a name, if states have names, or a number; numbers next to names are further states. *)
  Definition ref_of (j : json) : option sref :=
    match j with
    | JStr s => if names then Some (SName s) else None
    | JNum z => if Z.ltb z 0 then None else Some (SNum (Z.to_nat z))
    | _ => None
    end.
  Definition edge_of (j : json) : option (sref * string * sref) :=
    match j with JArr [a; JStr l; b] => s <- ref_of a ;; s' <- ref_of b ;; Some (s, l, s') | _ => None end.
  (** Every state listed as initial is one of the pushdown automaton. *)
  Definition initial_ok (j : json) : bool :=
    match j with
    | JArr l => forallb (fun x => match x with
                                  | JStr s => names && known (SName s)
                                  | JNum z => negb names && Z.leb 0 z && known (SNum (Z.to_nat z))
                                  | _ => false
                                  end) l
    | _ => false
    end.
  (** The value of "P-automaton": "accepting", "edges" and "initial", nothing else; "accepting" and "edges" once, and so "initial" where it is required. *)
  Definition padoc_of (j : json) : option adoc :=
    match j with
    | JObj m =>
        if forallb (fun e => String.eqb (fst e) "accepting" || String.eqb (fst e) "edges" || String.eqb (fst e) "initial") m then
          acc <- (match member "accepting" m with [JArr l] => omap ref_of l | _ => None end) ;;
          es <- (match member "edges" m with [JArr l] => omap edge_of l | _ => None end) ;;
          if forallb initial_ok (member "initial" m) && (optional_initial || Nat.eqb (length (member "initial" m)) 1)
          then Some (mk_adoc acc es) else None
        else None
    | _ => None
    end.
  (** The document. *)
  Definition adoc_of (j : json) : option adoc := match j with JObj [(k, p)] => if String.eqb k "P-automaton" then padoc_of p else None | _ => None end.

  (** * Restrictions under which the parser is shown to read exactly these documents *)
  (** States that are not in the pushdown automaton all have names, or all have numbers ([mode]). *)
  Definition ref_mode (mode : bool) (j : json) : Prop :=
    match j with
    | JNum z => names = true -> mode = false
    | JStr s => mode = true \/ known (SName s) = true
    | JArr _ => False
    | _ => True
    end.
  (** Edges have at least three elements, none of which is an array. *)
  Definition regular_edge (mode : bool) (j : json) : Prop :=
    match j with
    | JArr l => match l with a :: b :: c :: r => ref_mode mode a /\ ~ is_array b /\ ref_mode mode c /\ no_arrays r | _ => False end
    | _ => True
    end.
  Definition regular_member (mode : bool) (e : string * json) : Prop :=
    match snd e with
    | JArr l => if String.eqb (fst e) "accepting" then Forall (ref_mode mode) l
                else if String.eqb (fst e) "edges" then Forall (regular_edge mode) l
                else if String.eqb (fst e) "initial" then no_arrays l else True
    | _ => True
    end.
  Definition regular_pa (j : json) : Prop := exists mode, match j with JObj m => Forall (regular_member mode) m | _ => True end.
  Definition regular_adoc (j : json) : Prop :=
    match j with JNum _ => False | JObj m => Forall (fun e => String.eqb (fst e) "P-automaton" = true -> regular_pa (snd e)) m | _ => True end.
End Doc.
