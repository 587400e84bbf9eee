(** Model of the reading of pushdown automata from JSON: the context stack shared by the SAX handlers
    (src/include/pdaaal/utils/SaxHandlerHelpers.h) and PdaSaxHandler (src/pdaaal-bin/parsing/PdaJsonParser.h), and of the writing
    of pushdown automata as JSON (src/include/pdaaal/PDA.h 279-384).
    The JSON library (nlohmann::json) is not in /repo. A JSON value is a tree; [events] gives the calls sax_parse makes for it.
    The text is not modelled. Values that JSON text cannot hold (binary data) and floating point values are one constructor. *)
From Coq Require Import List Arith Bool ZArith String.
From Verif Require Import Base PdaModel TrieModel RefineModel TypedModel.
Import ListNotations.
Open Scope string_scope.
Notation length := List.length.
Notation concat := List.concat.

(** JSON values. An object is the list of its members in the order of the text; a key can occur more than once.
    Numbers are integers; the text "-0", for which the library calls number_integer(0), is left out. *)
Inductive json := JNull | JBool (b : bool) | JNum (z : Z) | JFloat | JStr (s : string) | JArr (l : list json) | JObj (m : list (string * json)).
Inductive event := ENull | EBool (b : bool) | EInt (z : Z) | EUns (z : Z) | EFloat | EStr (s : string) | EBinary
  | EStartObj | EKey (k : string) | EEndObj | EStartArr | EEndArr.
(** The calls of nlohmann::json::sax_parse: number_unsigned for numbers without a sign, number_integer for negative ones. *)
Fixpoint events (j : json) : list event :=
  match j with
  | JNull => [ENull]
  | JBool b => [EBool b]
  | JNum z => [if Z.ltb z 0 then EInt z else EUns z]
  | JFloat => [EFloat]
  | JStr s => [EStr s]
  | JArr l => EStartArr :: flat_map events l ++ [EEndArr]
  | JObj m => EStartObj :: flat_map (fun e => EKey (fst e) :: events (snd e)) m ++ [EEndObj]
  end.

(** * SAXHandlerBase and SAXHandlerContextStack, SaxHandlerHelpers.h *)

(** What a handler function returns: true; false without use of the error stream (38-59); false after an error.
    The error messages are not modelled. *)
Inductive hres (S : Type) := Go (s : S) | Halt (s : S) | Fail.
Arguments Go {S}. Arguments Halt {S}. Arguments Fail {S}.

(** JsonParserContext, 61-91: an object with the flags still needed (flag_mask, utils/flags.h 85-112: a bit mask, here the list of
    the numbers of its bits) or an array with the current index. *)
Inductive cval := CObj (need : list nat) | CArr (i : nat).
Section Stack.
  Variables (T K : Type) (knone : K).
  (** _context_stack (239) and last_key (230). *)
  Record sbase := mk_sb { sb_stack : list (T * cval); sb_key : K }.
  (** push_context 129-130, no_context 131, pop_context 128 and current_context_type 134 (None: std::stack is empty, undefined). *)
  Definition push_context (c : T * cval) (b : sbase) : sbase := mk_sb (c :: sb_stack b) (sb_key b).
  Definition no_context (b : sbase) : bool := match sb_stack b with [] => true | _ => false end.
  Definition pop_context (b : sbase) : option sbase := match sb_stack b with [] => None | _ :: s => Some (mk_sb s (sb_key b)) end.
  Definition cur_type (b : sbase) : option T := match sb_stack b with [] => None | (t, _) :: _ => Some t end.
  Definition set_key (k : K) (b : sbase) : sbase := mk_sb (sb_stack b) k.
  (** has_missing_flags, 81 (None: std::get<0> of an array context). *)
  Definition missing (b : sbase) : option bool :=
    match sb_stack b with (_, CObj need) :: _ => Some (match need with [] => false | _ => true end) | _ => None end.
  (** get_index, 84 (None: std::get<1> of an object context). *)
  Definition cur_index (b : sbase) : option nat := match sb_stack b with (_, CArr i) :: _ => Some i | _ => None end.
  (** increment_index, 85. *)
  Definition increment (b : sbase) : option sbase :=
    match sb_stack b with (t, CArr i) :: s => Some (mk_sb ((t, CArr (S i)) :: s) (sb_key b)) | _ => None end.
  (** handle_key, 136-150. None: the assertion that the context is an object. *)
  Definition handle_key (flag : nat) (k : K) (b : sbase) : option (hres sbase) :=
    match sb_stack b with
    | (t, CObj need) :: s =>
        if memb flag need then Some (Go (mk_sb ((t, CObj (filter (fun f => negb (Nat.eqb f flag)) need)) :: s) k)) else Some Fail
    | _ => None
    end.
  (** element_done, 152-159. *)
  Definition element_done (b : sbase) : sbase :=
    match sb_stack b with (t, CArr i) :: s => mk_sb ((t, CArr (S i)) :: s) (sb_key b) | s => mk_sb s knone end.
End Stack.
Arguments mk_sb {T K}. Arguments sb_stack {T K}. Arguments sb_key {T K}. Arguments push_context {T K}. Arguments no_context {T K}.
Arguments pop_context {T K}. Arguments cur_type {T K}. Arguments set_key {T K}. Arguments missing {T K}. Arguments cur_index {T K}.
Arguments increment {T K}. Arguments handle_key {T K}. Arguments element_done {T K}.

(** sax_parse: the events are handled until a function returns false. *)
Section Run.
  Variables (S : Type) (step : S -> event -> option (hres S)).
  Fixpoint run (es : list event) (s : S) : option (hres S) :=
    match es with
    | [] => Some (Go s)
    | e :: es' => match step s e with Some (Go s') => run es' s' | r => r end
    end.
End Run.
Arguments run {S}.

(** * PdaSaxHandler, PdaJsonParser.h 153-495 *)
(** PdaSaxHelper::keys, 45. *)
Inductive pkey := k_none | k_unknown | k_pda | k_states | k_state_name | k_from_label | k_to | k_pop | k_swap | k_push | k_weight.
(** PdaSaxHelper::context_type, 84. *)
Inductive pctx := x_unknown | x_initial | x_pda | x_state_array | x_states_object | x_state | x_rule_array | x_rule | x_weight_array.

(** The weight type W (src/include/pdaaal/Weight.h): weight<void>; a number type with its limits; a vector of such numbers. *)
Inductive wkind := WVoid | WNum (sg : bool) (lo hi : Z) | WVec (sg : bool) (lo hi : Z).
(** The template parameters of PdaSaxHandler (153), whether assertions are compiled in, and the uint32 maximum.
    The rules of the model carry one number as weight; [cf_wenc] turns a vector into a number (any injective function). *)
Record jcfg := mk_jcfg { cf_names : bool; cf_w : wkind; cf_embedded : bool; cf_asserts : bool; cf_no_opl : nat; cf_wenc : list Z -> Z }.

Section Pda.
  Variable cf : jcfg.
  (** expect_weight, 165. *)
  Definition expect_weight : bool := match cf_w cf with WVoid => false | _ => true end.
  (** The contexts, 167-175. *)
  Definition unknown_context := (x_unknown, CObj []).
  Definition initial_context := (x_initial, CObj [1]).
  Definition pda_context := (x_pda, CObj [1]).
  Definition state_array := (x_state_array, CArr 0).
  Definition states_object := (x_states_object, CObj []).
  Definition state_context := (x_state, CObj []).
  Definition rule_array := (x_rule_array, CArr 0).
  Definition rule_context := (x_rule, CObj (if expect_weight then [1; 2; 3] else [1; 2])).
  Definition weight_array := (x_weight_array, CArr 0).

  (** rule_t with a weight that is a list of numbers: empty if unweighted or the default of a vector, one number if not a vector.
      The defaults are those of pda_rule_t, internal/PDA.h 121-124. *)
  Record crule := mk_crule { cr_to : nat; cr_op : op; cr_opl : nat; cr_w : list Z }.
  Definition crule0 : crule := mk_crule 0 PUSH 0 (match cf_w cf with WNum _ _ _ => [0%Z] | _ => [] end).
  Definition wval (w : list Z) : Z := match cf_w cf with WVoid => 0%Z | WNum _ _ _ => hd 0%Z w | WVec _ _ _ => cf_wenc cf w end.
  (** The members of the handler, 177-182. build_pda uses a hash map for its rules; the model uses the sorted map that get_pda (195-197) turns it into. *)
  Record ph := mk_ph { p_sb : sbase pctx pkey; p_pda : tpda string string; p_from : nat; p_pre : list nat; p_wc : bool; p_rule : crule }.
  Definition set_sb (h : ph) (b : sbase pctx pkey) : ph := mk_ph b (p_pda h) (p_from h) (p_pre h) (p_wc h) (p_rule h).
  Definition set_pda (h : ph) (P : tpda string string) : ph := mk_ph (p_sb h) P (p_from h) (p_pre h) (p_wc h) (p_rule h).
  Definition set_from (h : ph) (s : nat) : ph := mk_ph (p_sb h) (p_pda h) s (p_pre h) (p_wc h) (p_rule h).
  Definition set_pre (h : ph) (pre : list nat) (wc : bool) : ph := mk_ph (p_sb h) (p_pda h) (p_from h) pre wc (p_rule h).
  Definition set_rule (h : ph) (r : crule) : ph := mk_ph (p_sb h) (p_pda h) (p_from h) (p_pre h) (p_wc h) r.
  Definition set_to (h : ph) (s : nat) : ph := set_rule h (mk_crule s (cr_op (p_rule h)) (cr_opl (p_rule h)) (cr_w (p_rule h))).
  Definition set_op (h : ph) (o : op) (l : nat) : ph := set_rule h (mk_crule (cr_to (p_rule h)) o l (cr_w (p_rule h))).
  Definition set_weight (h : ph) (w : list Z) : ph := set_rule h (mk_crule (cr_to (p_rule h)) (cr_op (p_rule h)) (cr_opl (p_rule h)) w).
  (** The constructor with init, 184-193. *)
  Definition ph0 : ph := mk_ph (if cf_embedded cf then mk_sb [initial_context] k_pda else mk_sb [] k_none) tp_empty 0 [] false crule0.

  Definition ph_done (h : ph) : option (hres ph) := Some (Go (set_sb h (element_done k_none (p_sb h)))).
  Definition ph_handle (flag : nat) (k : pkey) (h : ph) : option (hres ph) :=
    match handle_key flag k (p_sb h) with None => None | Some (Go b) => Some (Go (set_sb h b)) | Some _ => Some Fail end.
  Definition in_weight_array (h : ph) : bool := match cur_type (p_sb h) with Some x_weight_array => true | _ => false end.

  (** null 199-201, boolean 202-204, number_float 277-279, binary 319-321. *)
  Definition ph_other (h : ph) : option (hres ph) := match sb_key (p_sb h) with k_unknown => ph_done h | _ => Some Fail end.
  (** number_integer, 205-240. *)
  Definition ph_integer (h : ph) (z : Z) : option (hres ph) :=
    let rest := match sb_key (p_sb h) with
      | k_unknown => ph_done h
      | k_weight => match cf_w cf with
                    | WNum true lo hi => if Z.leb hi z then Some Fail else if Z.leb z lo then Some Fail else ph_done (set_weight h [z])
                    | _ => Some Fail
                    end
      | _ => Some Fail
      end in
    match cf_w cf with
    | WVec true lo hi =>
        if in_weight_array h
        then if Z.leb hi z then Some Fail else if Z.leb z lo then Some Fail else ph_done (set_weight h (cr_w (p_rule h) ++ [z])%list)
        else rest
    | _ => rest
    end.
  (** number_unsigned, 241-276. *)
  Definition ph_unsigned (h : ph) (z : Z) : option (hres ph) :=
    let rest := match sb_key (p_sb h) with
      | k_to => if cf_names cf then Some Fail else ph_done (set_to h (Z.to_nat z))
      | k_weight => match cf_w cf with
                    | WNum _ _ hi => if Z.leb hi z then Some Fail else ph_done (set_weight h [z])
                    | _ => ph_done h
                    end
      | k_unknown => ph_done h
      | _ => Some Fail
      end in
    match cf_w cf with
    | WVec _ _ hi =>
        if in_weight_array h then if Z.leb hi z then Some Fail else ph_done (set_weight h (cr_w (p_rule h) ++ [z])%list) else rest
    | _ => rest
    end.
  (** string, 280-318. None: the assertion that the value of "pop" is empty (294). *)
  Definition ph_string (h : ph) (v : string) : option (hres ph) :=
    if no_context (p_sb h) then Some Fail
    else match sb_key (p_sb h) with
    | k_to => if cf_names cf then let (P, i) := insert_state String.eqb (p_pda h) v in ph_done (set_to (set_pda h P) i) else Some Fail
    | k_pop => if cf_asserts cf && negb (String.eqb v "") then None else ph_done (set_op h POP (cf_no_opl cf))
    | k_swap => if p_wc h && String.eqb v "*" then ph_done (set_op h NOOP (cf_no_opl cf))
                else let (P, i) := insert_label String.eqb (p_pda h) v in ph_done (set_op (set_pda h P) SWAP i)
    | k_push => let (P, i) := insert_label String.eqb (p_pda h) v in ph_done (set_op (set_pda h P) PUSH i)
    | k_unknown => ph_done h
    | _ => Some Fail
    end.
  Definition ph_push (h : ph) (c : pctx * cval) : option (hres ph) := Some (Go (set_sb h (push_context c (p_sb h)))).
  (** start_object, 322-363. *)
  Definition ph_start_object (h : ph) : option (hres ph) :=
    if no_context (p_sb h) then ph_push h initial_context
    else t <- cur_type (p_sb h) ;;
    match t with
    | x_state_array => ph_push h state_context
    | x_rule_array => ph_push h rule_context
    | _ => match sb_key (p_sb h) with
           | k_pda => ph_push h pda_context
           | k_states => if cf_names cf then ph_push h states_object else Some Fail
           | k_state_name => ph_push h state_context
           | k_from_label => ph_push h rule_context
           | k_unknown => ph_push h unknown_context
           | _ => Some Fail
           end
    end.
  Definition ph_set_key (h : ph) (k : pkey) : ph := set_sb h (set_key k (p_sb h)).
  (** key, 364-426. *)
  Definition ph_key (h : ph) (k : string) : option (hres ph) :=
    if no_context (p_sb h) then Some Fail
    else t <- cur_type (p_sb h) ;;
    match t with
    | x_initial => if String.eqb k "pda" then ph_handle 1 k_pda h else Some (Go (ph_set_key h k_unknown))
    | x_pda => if String.eqb k "states" then ph_handle 1 k_states h else Some (Go (ph_set_key h k_unknown))
    | x_states_object =>
        if cf_names cf
        then let (P, i) := insert_state String.eqb (p_pda h) k in Some (Go (set_from (set_pda (ph_set_key h k_state_name) P) i))
        else Some Fail
    | x_state =>
        let h := ph_set_key h k_from_label in
        if String.eqb k "*" then Some (Go (set_pre h [] true))
        else let (P, i) := insert_label String.eqb (p_pda h) k in Some (Go (set_pre (set_pda h P) [i] false))
    | x_rule =>
        if String.eqb k "to" then ph_handle 1 k_to h
        else if String.eqb k "pop" then ph_handle 2 k_pop h
        else if String.eqb k "swap" then ph_handle 2 k_swap h
        else if String.eqb k "push" then ph_handle 2 k_push h
        else if expect_weight && String.eqb k "weight" then ph_handle 3 k_weight h
        else Some Fail
    | x_unknown => Some (Go h)
    | _ => Some Fail
    end.
  (** add_rule_detail (PDA.h 209-211) with the current rule, and current_rule = {}; 442-443. The assertion of merge that the labels
      are sorted holds, as there is at most one. *)
  Definition ph_add_rule (h : ph) : ph :=
    let r := p_rule h in
    let T := p_pda h in
    set_rule (set_pda h (mk_tpda (add_rule_impl (t_rules T) (p_from h) (mk_rule (cr_to r) (cr_op r) (cr_opl r) (wval (cr_w r))) (p_wc h) (p_pre h))
                                 (t_labels T) (t_states T))) crule0.
  (** end_object, 427-455. *)
  Definition ph_end_object (h : ph) : option (hres ph) :=
    if no_context (p_sb h) then Some Fail
    else m <- missing (p_sb h) ;;
    if m : bool then Some Fail
    else t <- cur_type (p_sb h) ;;
    let h := match t with
             | x_state => if cf_names cf then h else set_from h (S (p_from h))
             | x_rule => ph_add_rule h
             | _ => h
             end in
    b <- pop_context (p_sb h) ;;
    let h := set_sb h b in
    if cf_embedded cf then
      t' <- cur_type (p_sb h) ;;
      match t' with x_initial => Some (Halt h) | _ => ph_done h end
    else ph_done h.
  (** start_array, 456-486. *)
  Definition ph_start_array (h : ph) : option (hres ph) :=
    if no_context (p_sb h) then Some Fail
    else match sb_key (p_sb h) with
    | k_states => if cf_names cf then Some Fail else ph_push (set_from h 0) state_array
    | k_from_label => ph_push h rule_array
    | k_unknown => ph_push h unknown_context
    | k_weight => match cf_w cf with WVec _ _ _ => ph_push h weight_array | _ => Some Fail end
    | _ => Some Fail
    end.
  (** end_array, 487-494. *)
  Definition ph_end_array (h : ph) : option (hres ph) :=
    if no_context (p_sb h) then Some Fail else b <- pop_context (p_sb h) ;; ph_done (set_sb h b).

  Definition ph_step (h : ph) (e : event) : option (hres ph) :=
    match e with
    | ENull | EBool _ | EFloat | EBinary => ph_other h
    | EInt z => ph_integer h z
    | EUns z => ph_unsigned h z
    | EStr s => ph_string h s
    | EStartObj => ph_start_object h
    | EKey k => ph_key h k
    | EEndObj => ph_end_object h
    | EStartArr => ph_start_array h
    | EEndArr => ph_end_array h
    end.
  (** PdaJsonParser::parse, 497-509: the automaton, or an exception (inner None). *)
  Definition parse_pda (j : json) : option (option (tpda string string)) :=
    match run ph_step (events j) ph0 with
    | None => None
    | Some (Go h) => Some (Some (p_pda h))
    | Some _ => Some None
    end.
End Pda.

(** * Writing: PDA.h 279-384, for string labels *)
(** nlohmann::json objects are std::maps: sorted by key, without repetition. operator[] with assignment. *)
Fixpoint obj_set (m : list (string * json)) (k : string) (v : json) : list (string * json) :=
  match m with
  | [] => [(k, v)]
  | (k', v') :: m' => match String.compare k k' with
                      | Lt => (k, v) :: m
                      | Eq => (k, v) :: m'
                      | Gt => (k', v') :: obj_set m' k v
                      end
  end.
Fixpoint obj_get (m : list (string * json)) (k : string) : option json :=
  match m with [] => None | (k', v) :: m' => if String.eqb k' k then Some v else obj_get m' k end.

Section Write.
  (** W::is_weight with the value as JSON; None for unweighted automata. *)
  Variable wjson : option (Z -> json).
  Variable names : bool.
  (** pda_rule_to_json, 292-325; [j_rule] holds "to". None: get_symbol of an unknown label. *)
  Definition rule_json (T : tpda string string) (pre_label : string) (r : rule) (to : json) : option (list (string * json)) :=
    m <- (match r_op r with
          | POP => Some [("pop", JStr "")]
          | SWAP => l <- get_symbol T (r_opl r) ;; Some [("swap", JStr l)]
          | NOOP => Some [("swap", JStr pre_label)]
          | PUSH => l <- get_symbol T (r_opl r) ;; Some [("push", JStr l)]
          end) ;;
    let m := fold_left (fun acc e => obj_set acc (fst e) (snd e)) m [("to", to)] in
    Some (match wjson with Some f => obj_set m "weight" (f (r_w r)) | None => m end).
  Definition add_rule_json (j_state : list (string * json)) (pre_label : string) (j_rule : json) : list (string * json) :=
    match obj_get j_state pre_label with
    | Some (JArr l) => obj_set j_state pre_label (JArr (l ++ [j_rule])%list)
    | Some v => obj_set j_state pre_label (JArr [v; j_rule])
    | None => obj_set j_state pre_label j_rule
    end.
  (** The value of "to": rule._to (336, 341) or the name of the state (358-367). None: get_state of an unnamed state. *)
  Definition to_value (T : tpda string string) (s : nat) : option json :=
    if names then n <- get_state T s ;; Some (JStr n) else Some (JNum (Z.of_nat s)).
  (** The rules of one state, 333-345 and 357-371. *)
  Definition state_json (T : tpda string string) (s : pstate) : option (list (string * json)) :=
    ofold (fun acc e =>
      to <- to_value T (r_to (fst e)) ;;
      if wild (snd e) then m <- rule_json T "*" (fst e) to ;; Some (add_rule_json acc "*" (JObj m))
      else ofold (fun acc l => n <- get_symbol T l ;; m <- rule_json T n (fst e) to ;; Some (add_rule_json acc n (JObj m))) (labs (snd e)) acc)
      (ps_rules s) [].
  (** to_json, 327-349 (states without names) and 350-384 (with names). *)
  Definition pda_value (T : tpda string string) : option json :=
    ss <- omap (state_json T) (pd_states (t_rules T)) ;;
    js <- (if names then
             m <- ofold (fun acc e => n <- get_state T (fst e) ;; Some (obj_set acc n (JObj (snd e)))) (enum ss) [] ;;
             m <- ofold (fun acc i => n <- get_state T i ;; Some (obj_set acc n (JObj [])))
                    (seq (length ss) (length (t_states T) - length ss)) m ;;
             Some (JObj m)
           else Some (JArr (map JObj ss))) ;;
    Some (JObj [("states", js)]).
  (** PDA::to_json, 213-217. *)
  Definition to_json (T : tpda string string) : option json := p <- pda_value T ;; Some (JObj [("pda", p)]).
End Write.
