(** Model of the reading of P-automata from JSON: PAutomatonSaxHandler and PAutomatonJsonParser, src/pdaaal-bin/parsing/PAutomatonJsonParser.h
    35-417, with the state names of the typed PAutomaton, src/include/pdaaal/PAutomaton.h 74-96. JSON values and the context stack are those
    of JsonModel. Error messages are left out. *)
From Coq Require Import List Arith Bool ZArith String.
From Verif Require Import Base PdaModel TrieModel RefineModel TypedModel AutModel NfaModel JsonModel.
Import ListNotations.
Open Scope string_scope.
Notation length := List.length.

(** PAutomatonSaxHelper::keys, 36, and context_type, 57. *)
Inductive akey := ak_none | ak_aut | ak_initial | ak_accepting | ak_edges.
Inductive actx := ax_initial | ax_aut | ax_initial_array | ax_accepting_array | ax_edges_array | ax_edge.

Section Aut.
  (** The states of the PDA have names (pda_state_t is std::string), or they are numbers without a mapping (size_t, skip_state_mapping; the
      PDAs that PdaJsonParser makes are of these two types). [embedded]: embedded_parser; require_initial is its negation (112).
      [asserts]: whether assertions are compiled in. *)
  Variables (names embedded asserts : bool).

  (** The contexts, 121-126; p_automaton needs "initial" if it is required. *)
  Definition a_initial_context := (ax_initial, CObj [1]).
  Definition a_aut_context := (ax_aut, CObj (if embedded then [1; 2] else [1; 2; 3])).
  Definition a_initial_array := (ax_initial_array, CArr 0).
  Definition a_accepting_array := (ax_accepting_array, CArr 0).
  Definition a_edges_array := (ax_edges_array, CArr 0).
  Definition a_edge_context := (ax_edge, CArr 0).

  (** The members of the handler, 128-135: the PDA (a reference; labels are inserted into it), the automaton with its _state_map (names of the
      states that are not in the PDA), extra_state_map, and the current edge. None stands for the size_t maximum. *)
  Record ah := mk_ah { h_sb : sbase actx akey; h_pda : tpda string string; h_aut : aut; h_map : list string; h_extra : list (nat * nat);
    h_label : string; h_from : option nat; h_to : option nat }.
  Definition h_set_sb (h : ah) (b : sbase actx akey) : ah := mk_ah b (h_pda h) (h_aut h) (h_map h) (h_extra h) (h_label h) (h_from h) (h_to h).
  Definition h_set_pda (h : ah) (T : tpda string string) : ah := mk_ah (h_sb h) T (h_aut h) (h_map h) (h_extra h) (h_label h) (h_from h) (h_to h).
  Definition h_set_aut (h : ah) (A : aut) : ah := mk_ah (h_sb h) (h_pda h) A (h_map h) (h_extra h) (h_label h) (h_from h) (h_to h).
  Definition h_set_edge (h : ah) (l : string) (from to : option nat) : ah := mk_ah (h_sb h) (h_pda h) (h_aut h) (h_map h) (h_extra h) l from to.
  (** The constructors, 191-192, with init 137-142. None: does not happen (the list of special states is empty). *)
  Definition ah0 (ord : nat -> list nat -> list nat) (T : tpda string string) : option ah :=
    A <- aut_special (t_rules T) ord [] true ;;
    Some (mk_ah (if embedded then mk_sb [a_initial_context] ak_aut else mk_sb [] ak_none) T A [] [] "" (Some 0) (Some 0)).

  (** The number of states of the PDA, pda.states().size(). *)
  Definition h_n (h : ah) : nat := pd_n (t_rules (h_pda h)).
  Fixpoint extra_find (m : list (nat * nat)) (k : nat) : option nat :=
    match m with [] => None | (k', v) :: m' => if Nat.eqb k' k then Some v else extra_find m' k end.
  (** number_state, 144-170: the first branch. *)
  Definition number_state (h : ah) (v : nat) : ah * nat :=
    if negb names && Nat.ltb v (h_n h) then (h, v)
    else match extra_find (h_extra h) v with
         | Some i => (h, i)
         | None => let id := a_size (h_aut h) in
                   (mk_ah (h_sb h) (h_pda h) (a_add_state (h_aut h) false) (h_map h) ((v, id) :: h_extra h) (h_label h) (h_from h) (h_to h), id)
         end.
  (** PAutomaton::exists_state, PAutomaton.h 74-89, with names. *)
  Definition aut_exists_state (h : ah) (s : string) : option nat :=
    match exists_state String.eqb (h_pda h) s with
    | Some i => Some i
    | None => option_map (fun i => i + h_n h) (ts_exists String.eqb (h_map h) s)
    end.
  (** string_state, 171-187, with PAutomaton::insert_state, PAutomaton.h 90-96. None: the assertion 180 fails. Some None: an error. *)
  Definition string_state (h : ah) (s : string) : option (option (ah * nat)) :=
    if names then
      match aut_exists_state h s with
      | Some i => Some (Some (h, i))
      | None =>
          let id := a_size (h_aut h) in
          let (m, r) := ts_insert String.eqb (h_map h) s in
          if asserts && negb (Nat.eqb id (snd r + h_n h)) then None
          else Some (Some (mk_ah (h_sb h) (h_pda h) (a_add_state (h_aut h) false) m (h_extra h) (h_label h) (h_from h) (h_to h), id))
      end
    else Some None.
  (** set_state_accepting, internal/PAutomaton.h 712-718. None: no such state. *)
  Definition set_accepting (h : ah) (q : nat) : option ah :=
    if Nat.ltb q (a_size (h_aut h)) then Some (h_set_aut h (mk_aut (upd (a_acc (h_aut h)) q true) (a_edges (h_aut h)) (a_ord (h_aut h)))) else None.

  Definition ah_done (h : ah) : option (hres ah) := Some (Go (h_set_sb h (element_done ak_none (h_sb h)))).
  Definition ah_handle (flag : nat) (k : akey) (h : ah) : option (hres ah) :=
    match handle_key flag k (h_sb h) with None => None | Some (Go b) => Some (Go (h_set_sb h b)) | Some _ => Some Fail end.
  Definition ah_push (h : ah) (c : actx * cval) : option (hres ah) := Some (Go (h_set_sb h (push_context c (h_sb h)))).

  (** number_unsigned, 201-234. None: there is no context (202). *)
  Definition ah_unsigned (h : ah) (z : Z) : option (hres ah) :=
    let v := Z.to_nat z in
    t <- cur_type (h_sb h) ;;
    match t with
    | ax_initial_array => if names then Some Fail else if Nat.ltb v (h_n h) then ah_done h else Some Fail
    | ax_accepting_array => let (h', q) := number_state h v in h'' <- set_accepting h' q ;; ah_done h''
    | ax_edge =>
        i <- cur_index (h_sb h) ;;
        match i with
        | 0 => let (h', q) := number_state h v in ah_done (h_set_edge h' (h_label h') (Some q) (h_to h'))
        | 2 => let (h', q) := number_state h v in ah_done (h_set_edge h' (h_label h') (h_from h') (Some q))
        | _ => Some Fail
        end
    | _ => Some Fail
    end.
  (** string, 238-282. *)
  Definition ah_string (h : ah) (s : string) : option (hres ah) :=
    if no_context (h_sb h) then Some Fail
    else t <- cur_type (h_sb h) ;;
    match t with
    | ax_initial_array => if names then match exists_state String.eqb (h_pda h) s with Some _ => ah_done h | None => Some Fail end else Some Fail
    | ax_accepting_array => x <- string_state h s ;; match x with None => Some Fail | Some (h', q) => h'' <- set_accepting h' q ;; ah_done h'' end
    | ax_edge =>
        i <- cur_index (h_sb h) ;;
        match i with
        | 0 => x <- string_state h s ;; match x with None => Some Fail | Some (h', q) => ah_done (h_set_edge h' (h_label h') (Some q) (h_to h')) end
        | 1 => ah_done (h_set_edge h s (h_from h) (h_to h))
        | 2 => x <- string_state h s ;; match x with None => Some Fail | Some (h', q) => ah_done (h_set_edge h' (h_label h') (h_from h') (Some q)) end
        | _ => Some Fail
        end
    | _ => Some Fail
    end.
  (** start_object, 286-296. *)
  Definition ah_start_object (h : ah) : option (hres ah) :=
    if no_context (h_sb h) then ah_push h a_initial_context
    else match sb_key (h_sb h) with ak_aut => ah_push h a_aut_context | _ => Some Fail end.
  (** key, 297-328. *)
  Definition ah_key (h : ah) (k : string) : option (hres ah) :=
    if no_context (h_sb h) then Some Fail
    else t <- cur_type (h_sb h) ;;
    match t with
    | ax_initial => if String.eqb k "P-automaton" then ah_handle 1 ak_aut h else Some Fail
    | ax_aut =>
        if String.eqb k "accepting" then ah_handle 1 ak_accepting h
        else if String.eqb k "edges" then ah_handle 2 ak_edges h
        else if String.eqb k "initial" then
          if embedded then Some (Go (h_set_sb h (set_key ak_initial (h_sb h)))) else ah_handle 3 ak_initial h
        else Some Fail
    | _ => Some Fail
    end.
  (** end_object, 329-344. *)
  Definition ah_end_object (h : ah) : option (hres ah) :=
    if no_context (h_sb h) then Some Fail
    else m <- missing (h_sb h) ;;
    if m : bool then Some Fail
    else b <- pop_context (h_sb h) ;;
    let h := h_set_sb h b in
    if embedded then
      t <- cur_type (h_sb h) ;;
      match t with ax_initial => Some (Halt h) | _ => ah_done h end
    else ah_done h.
  (** start_array, 345-372. *)
  Definition ah_start_array (h : ah) : option (hres ah) :=
    if no_context (h_sb h) then Some Fail
    else t <- cur_type (h_sb h) ;;
    match t with
    | ax_edges_array => ah_push (h_set_edge h "" None None) a_edge_context
    | _ => match sb_key (h_sb h) with
           | ak_initial => ah_push h a_initial_array
           | ak_accepting => ah_push h a_accepting_array
           | ak_edges => ah_push h a_edges_array
           | _ => Some Fail
           end
    end.
  (** The end of an edge, 380-386. None: the assertions 380 and 381; without assertions the edge would start or end in a state that does
      not exist, which is not modelled further. *)
  Definition ah_edge (h : ah) : option ah :=
    from <- h_from h ;;
    to <- h_to h ;;
    if String.eqb (h_label h) "" then A <- a_add_edge (h_aut h) from None to TNull ;; Some (h_set_aut h A)
    else let (T, l) := insert_label String.eqb (h_pda h) (h_label h) in
         A <- a_add_edge (h_aut h) from (Some l) to TNull ;; Some (h_set_pda (h_set_aut h A) T).
  (** end_array, 373-393. *)
  Definition ah_end_array (h : ah) : option (hres ah) :=
    if no_context (h_sb h) then Some Fail
    else t <- cur_type (h_sb h) ;;
    h <- (match t with ax_edge => ah_edge h | _ => Some h end) ;;
    b <- pop_context (h_sb h) ;; ah_done (h_set_sb h b).

  (** null, boolean, number_integer, number_float and binary, 198-200, 235-237, 283-285, report an error. *)
  Definition ah_step (h : ah) (e : event) : option (hres ah) :=
    match e with
    | ENull | EBool _ | EFloat | EBinary | EInt _ => Some Fail
    | EUns z => ah_unsigned h z
    | EStr s => ah_string h s
    | EStartObj => ah_start_object h
    | EKey k => ah_key h k
    | EEndObj => ah_end_object h
    | EStartArr => ah_start_array h
    | EEndArr => ah_end_array h
    end.
  (** PAutomatonJsonParser::parse, 409-416: the PDA and the automaton, or an exception (inner None). *)
  Definition parse_aut (ord : nat -> list nat -> list nat) (T : tpda string string) (j : json) : option (option (tpda string string * aut)) :=
    h <- ah0 ord T ;;
    match run ah_step (events j) h with
    | None => None
    | Some (Go h) => Some (Some (h_pda h, h_aut h))
    | Some _ => Some None
    end.
End Aut.
