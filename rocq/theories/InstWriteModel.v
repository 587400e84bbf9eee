(** Model of the writing of P-automata and solver instances as JSON: to_json of PAutomaton (src/include/pdaaal/PAutomaton.h 68-72, 98-113, 137-186), of
    PAutomatonProduct (src/include/pdaaal/PAutomatonProduct.h 213-217, 519-528) and the type of an instance (src/include/pdaaal/PDA.h 386-430), for string
    labels. JSON objects are those of JsonModel. *)
From Coq Require Import List Arith Bool ZArith String.
From Verif Require Import Base PdaModel TrieModel RefineModel TypedModel AutModel NfaModel JsonModel.
Import ListNotations.
Open Scope string_scope.

(** operator[] followed by emplace_back on the value. None: the value is not an array (json::type_error). *)
Definition obj_push (m : list (string * json)) (k : string) (v : json) : option (list (string * json)) :=
  match obj_get m k with
  | None => Some (obj_set m k (JArr [v]))
  | Some (JArr l) => Some (obj_set m k (JArr (l ++ [v])%list))
  | Some _ => None
  end.

Section Aut.
  (** [names] is the negation of skip_state_mapping. A typed automaton is the PDA, the internal automaton and the names of its further states, _state_map. *)
  Variables (names : bool) (T : tpda string string) (A : aut) (m : list string).
  (** get_state_optional, 98-113. The outer None: get_state of an unnamed state of the PDA. *)
  Definition state_optional (id : nat) : option (option string) :=
    if Nat.ltb id (pd_n (t_rules T)) then n <- get_state T id ;; Some (Some n) else Some (ts_at m (id - pd_n (t_rules T))).
  (** j_from and j_to, 144-153 and 163-172. *)
  Definition state_value (id : nat) : option json :=
    if names then x <- state_optional id ;; Some (match x with Some s => JStr s | None => JNum (Z.of_nat id) end) else Some (JNum (Z.of_nat id)).
  (** The label of an edge, 176. None: get_symbol of an unknown label. *)
  Definition label_value (l : option nat) : option json :=
    match l with None => Some (JStr "") | Some x => n <- get_symbol T x ;; Some (JStr n) end.
  (** to_json_impl, 138-182. The states in order of their ids; the edges of a state in the order of the hash table, their labels sorted. *)
  Definition edges_value (q : nat) (from : json) (es : list json) : option (list json) :=
    ofold (fun es t =>
      to <- state_value t ;;
      ofold (fun es l => x <- label_value l ;; Some (es ++ [JArr [from; x; to]])%list) (labels_between A q t) es)
      (tos A q) es.
  Definition state_out (with_initial : bool) (acc : list (string * json) * list json) (q : nat) : option (list (string * json) * list json) :=
    from <- state_value q ;;
    o <- (if with_initial && Nat.ltb q (pd_n (t_rules T)) then obj_push (fst acc) "initial" from else Some (fst acc)) ;;
    b <- accepting A q ;;
    o <- (if b : bool then obj_push o "accepting" from else Some o) ;;
    es <- edges_value q from (snd acc) ;;
    Some (o, es).
  Definition aut_value (with_initial : bool) : option json :=
    x <- ofold (state_out with_initial) (seq 0 (a_size A)) ([], []) ;;
    Some (JObj (obj_set (fst x) "edges" (JArr (snd x)))).
  (** PAutomaton::to_json, 68-72, with the default name, and 183-186. *)
  Definition aut_to_json : option json := j <- aut_value true ;; Some (JObj [("P-automaton", j)]).
End Aut.

(** The weight types of params_weight_type, PDA.h 395-428: none, numbers, vectors and arrays of a fixed length. *)
Inductive wtype := TNone | TNum (sg : bool) | TVec (sg : bool) | TArr (sg : bool) (n : nat).
Definition number_name (sg : bool) : json := JStr (if sg then "int" else "uint").
Definition weight_value (t : wtype) : json :=
  match t with
  | TNone => JStr "none"
  | TNum sg => number_name sg
  | TVec sg => JArr [number_name sg]
  | TArr sg n => JArr [number_name sg; JNum (Z.of_nat n)]
  end.
(** params_state_names, 387-394, then params_weight_type. *)
Definition type_value (names : bool) (t : wtype) : json := JObj (obj_set (obj_set [] "state-names" (JBool names)) "weight-type" (weight_value t)).
(** to_json, PAutomatonProduct.h 519-528, and PAutomatonProduct::to_json, 213-217. *)
Definition inst_to_json (wjson : option (Z -> json)) (names : bool) (t : wtype) (T : tpda string string) (A1 : aut) (m1 : list string) (A2 : aut) (m2 : list string) : option json :=
  p <- pda_value wjson names T ;;
  a1 <- aut_value names T A1 m1 false ;;
  a2 <- aut_value names T A2 m2 false ;;
  Some (JObj [("instance", JArr [type_value names t; p; a1; a2])]).
