(** What a JSON document for a solver instance says, written without reference to the parser: a pushdown automaton and two automata by the names of
    states and labels, and whether a configuration of the first automaton reaches one of the second. Only the type of JSON values and the weight
    types are taken from the model. *)
From Coq Require Import List Arith Bool ZArith String.
From Verif Require Import Base RefineModel JsonModel JsonSpec AutJsonSpec.
Import ListNotations.
Open Scope string_scope.

(** * Configurations *)
Definition dconfig : Type := sref * list string.
Definition apply_dop (o : dop) (l : string) (w : list string) : list string :=
  match o with DPop => w | DSwap k => k :: w | DPush k => k :: l :: w end.
(** One step: a rule of the document, for the alphabet [L], which "*" stands for. *)
Inductive dstep (L : list string) (d : doc) : dconfig -> dconfig -> Prop :=
| dstep_rule : forall r w, written_over L d r -> dstep L d (n_from r, n_pre r :: w) (n_to r, apply_dop (n_op r) (n_pre r) w).
Inductive dreach (L : list string) (d : doc) : dconfig -> dconfig -> Prop :=
| dr_refl : forall c, dreach L d c c
| dr_step : forall c1 c2 c3, dstep L d c1 c2 -> dreach L d c2 c3 -> dreach L d c1 c3.

(** The states of a document. With names: those that have a member in "states", and the targets of rules. Without: the numbers below the length
    of "states", and those up to a target of a rule. *)
Definition drules (d : doc) : list (sref * drule) := flat_map (fun s => flat_map (fun e => map (fun r => (fst s, r)) (snd e)) (snd s)) d.
Definition is_name (x : string) (s : sref) : bool := match s with SName y => String.eqb x y | SNum _ => false end.
Definition is_up_to (v : nat) (s : sref) : bool := match s with SName _ => false | SNum t => Nat.leb v t end.
Definition doc_state (names : bool) (d : doc) (s : sref) : bool :=
  match s with
  | SName x => names && (existsb (fun e => is_name x (fst e)) d || existsb (fun r => is_name x (d_to (snd r))) (drules d))
  | SNum v => negb names && (Nat.ltb v (List.length d) || existsb (fun r => is_up_to v (d_to (snd r))) (drules d))
  end.

(** * Instances *)
Record idoc := mk_idoc { id_names : bool; id_weight : wkind; id_pda : doc; id_first : adoc; id_second : adoc }.
Definition id_labels (i : idoc) : list string := (doc_labels (id_pda i) ++ adoc_labels (id_first i) ++ adoc_labels (id_second i))%list.
Definition inst_reach (i : idoc) : Prop :=
  exists s w s' w', doc_state (id_names i) (id_pda i) s = true /\ daccepts (id_first i) s w /\
    dreach (id_labels i) (id_pda i) (s, w) (s', w') /\ daccepts (id_second i) s' w'.

(** Weight types: "none", "uint" (32 bits), "int" (32 bits), and vectors of the latter two, with or without a length. *)
Definition number_kind (vec : bool) (s : string) : option wkind :=
  if String.eqb s "uint" then Some ((if vec then WVec else WNum) false 0%Z 4294967295%Z)
  else if String.eqb s "int" then Some ((if vec then WVec else WNum) true (-2147483648)%Z 2147483647%Z)
  else None.
Definition weight_type (j : json) : option wkind :=
  match j with
  | JStr s => if String.eqb s "none" then Some WVoid else number_kind false s
  | JArr [JStr s] => number_kind true s
  | JArr [JStr s; JNum z] => if Z.ltb z 0 then None else number_kind true s
  | _ => None
  end.
Definition type_of (j : json) : option (bool * wkind) :=
  match j with
  | JObj [(k1, a); (k2, b)] =>
      if String.eqb k1 "state-names" && String.eqb k2 "weight-type" then match a with JBool n => w <- weight_type b ;; Some (n, w) | _ => None end
      else if String.eqb k1 "weight-type" && String.eqb k2 "state-names" then match b with JBool n => w <- weight_type a ;; Some (n, w) | _ => None end
      else None
  | _ => None
  end.

Section Doc.
  (** Whether the value of "pop" has to be empty. *)
  Variable strict : bool.
  (** The parts of an instance. *)
  Definition parts_of (names : bool) (wk : wkind) (pda : option doc) (aut1 aut2 : (sref -> bool) -> option adoc) : option idoc :=
    d <- pda ;;
    a <- aut1 (doc_state names d) ;;
    b <- aut2 (doc_state names d) ;;
    Some (mk_idoc names wk d a b).
  (** {"instance": [type, pda, automaton, automaton]}. *)
  Definition inst_of (j : json) : option idoc :=
    match j with
    | JObj [(k, JArr [t; p; a1; a2])] =>
        if String.eqb k "instance" then
          ty <- type_of t ;;
          parts_of (fst ty) (snd ty) (pda_of (fst ty) (snd ty) strict p) (fun known => padoc_of (fst ty) known true a1) (fun known => padoc_of (fst ty) known true a2)
        else None
    | _ => None
    end.
  (** Three documents. *)
  Definition files_of (names : bool) (wk : wkind) (jp j1 j2 : json) : option idoc :=
    parts_of names wk (doc_of names wk strict jp) (fun known => adoc_of names known false j1) (fun known => adoc_of names known false j2).
End Doc.

(** * Restrictions under which the parser is shown to read exactly these documents *)
(** Without names, every state has a number up to one in a rule. *)
Definition numbered (names : bool) (d : doc) : Prop :=
  names = false -> forall v, v < List.length d -> existsb (fun r => is_up_to v (fst r) || is_up_to v (d_to (snd r))) (drules d) = true.
(** The weight type is a known one, vectors have no length. *)
Definition regular_weight (j : json) : Prop :=
  match j with
  | JStr s => weight_type j <> None
  | JArr l => exists s, l = [JStr s] /\ weight_type j <> None
  | _ => True
  end.
Definition regular_type (j : json) : Prop :=
  match j with JNum z => (z < 0)%Z | JObj m => Forall (fun e => String.eqb (fst e) "weight-type" = true -> regular_weight (snd e)) m | _ => True end.
(** Elements after the fourth are not arrays. *)
Definition regular_inst (strict : bool) (j : json) : Prop :=
  match j with
  | JObj ((k, JArr (t :: l)) :: _) =>
      String.eqb k "instance" = true ->
      regular_type t /\ forall names wk, type_of t = Some (names, wk) ->
        match l with
        | p :: l =>
            regular_pda wk p /\
            forall d, pda_of names wk strict p = Some d -> numbered names d /\
              match l with
              | a1 :: l =>
                  regular_pa names (doc_state names d) a1 /\
                  match l with a2 :: l => regular_pa names (doc_state names d) a2 /\ no_arrays l | [] => True end
              | [] => True
              end
        | [] => True
        end
  | _ => True
  end.
Definition regular_files (strict names : bool) (wk : wkind) (jp j1 j2 : json) : Prop :=
  regular wk jp /\ forall d, doc_of names wk strict jp = Some d ->
    numbered names d /\ regular_adoc names (doc_state names d) j1 /\ regular_adoc names (doc_state names d) j2.
