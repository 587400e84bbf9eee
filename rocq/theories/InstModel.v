(** Model of the reading of whole solver instances: PdaTypeSaxHandler (src/pdaaal-bin/parsing/PdaJsonParser.h 510-741), SAXHandlerDispatch
    (SaxHandlerDispatch.h 34-131), SolverInstanceSaxHandler and SolverInstanceJsonParser (SolverInstanceJsonParser.h 51-248), and the branch of
    Parsing::parse_instance (Parsing.h 73-89) that reads three JSON files. Error messages are left out. *)
From Coq Require Import List Arith Bool ZArith String.
From Verif Require Import Base PdaModel TrieModel RefineModel TypedModel AutModel NfaModel JsonModel AutJsonModel.
Import ListNotations.
Open Scope string_scope.

(** * PdaTypeSaxHandler *)
(** PdaTypeSaxHelper::keys, PdaJsonParser.h 513, and context_type, 528. *)
Inductive tkey := tk_none | tk_state_names | tk_weight_type.
Inductive tctx := tx_initial | tx_weight_array.
(** The contexts, 564-565, and the members, 625-628; weight_array_size is only ever tested in a switch whose cases all do the same (606-619) and
    is left out. *)
Definition t_initial_context := (tx_initial, CObj [1; 2]).
Definition t_weight_array := (tx_weight_array, CArr 0).
Record th := mk_th { th_sb : sbase tctx tkey; th_weight : string; th_names : bool; th_array : bool }.
Definition th0 : th := mk_th (mk_sb [] tk_none) "" false false.
Definition th_set_sb (h : th) (b : sbase tctx tkey) : th := mk_th b (th_weight h) (th_names h) (th_array h).
Definition th_done (h : th) : option (hres th) := Some (Go (th_set_sb h (element_done tk_none (th_sb h)))).
Definition th_handle (flag : nat) (k : tkey) (h : th) : option (hres th) :=
  match handle_key flag k (th_sb h) with None => None | Some (Go b) => Some (Go (th_set_sb h b)) | Some _ => Some Fail end.
(** handle_index, 567-576, followed by element_done. *)
Definition th_index (i : nat) (h : th) : option (hres th) :=
  k <- cur_index (th_sb h) ;;
  if Nat.eqb k i then b <- increment (th_sb h) ;; th_done (th_set_sb h b) else Some Fail.
(** boolean, 647-654. *)
Definition th_boolean (h : th) (v : bool) : option (hres th) :=
  match sb_key (th_sb h) with tk_state_names => th_done (mk_th (th_sb h) (th_weight h) v (th_array h)) | _ => Some Fail end.
(** number_unsigned, 658-665. None: there is no context. *)
Definition th_unsigned (h : th) : option (hres th) :=
  t <- cur_type (th_sb h) ;;
  match t with tx_weight_array => th_index 1 h | _ => Some Fail end.
(** string, 669-683. *)
Definition th_string (h : th) (s : string) : option (hres th) :=
  if no_context (th_sb h) then Some Fail
  else t <- cur_type (th_sb h) ;;
  match t with
  | tx_weight_array => th_index 0 (mk_th (th_sb h) s (th_names h) (th_array h))
  | _ => match sb_key (th_sb h) with tk_weight_type => th_done (mk_th (th_sb h) s (th_names h) (th_array h)) | _ => Some Fail end
  end.
(** start_object, 687-693. *)
Definition th_start_object (h : th) : option (hres th) :=
  if no_context (th_sb h) then Some (Go (th_set_sb h (push_context t_initial_context (th_sb h)))) else Some Fail.
(** key, 694-706. *)
Definition th_key (h : th) (k : string) : option (hres th) :=
  if no_context (th_sb h) then Some Fail
  else t <- cur_type (th_sb h) ;;
  match t with
  | tx_initial => if String.eqb k "state-names" then th_handle 1 tk_state_names h
                  else if String.eqb k "weight-type" then th_handle 2 tk_weight_type h else Some Fail
  | _ => Some Fail
  end.
(** end_object, 707-720. *)
Definition th_end_object (h : th) : option (hres th) :=
  if no_context (th_sb h) then Some Fail
  else m <- missing (th_sb h) ;;
  if m : bool then Some Fail
  else b <- pop_context (th_sb h) ;;
  let h := th_set_sb h b in
  if no_context (th_sb h) then Some (Halt h) else th_done h.
(** start_array, 721-732. *)
Definition th_start_array (h : th) : option (hres th) :=
  if no_context (th_sb h) then Some Fail
  else match sb_key (th_sb h) with
       | tk_weight_type => Some (Go (mk_th (push_context t_weight_array (th_sb h)) (th_weight h) (th_names h) true))
       | _ => Some Fail
       end.
(** end_array, 733-740. *)
Definition th_end_array (h : th) : option (hres th) :=
  if no_context (th_sb h) then Some Fail else b <- pop_context (th_sb h) ;; th_done (th_set_sb h b).
(** null, number_integer, number_float and binary, 644-646, 655-657, 666-668, 684-686, report an error. *)
Definition th_step (h : th) (e : event) : option (hres th) :=
  match e with
  | ENull | EFloat | EBinary | EInt _ => Some Fail
  | EBool v => th_boolean h v
  | EUns _ => th_unsigned h
  | EStr s => th_string h s
  | EStartObj => th_start_object h
  | EKey k => th_key h k
  | EEndObj => th_end_object h
  | EStartArr => th_start_array h
  | EEndArr => th_end_array h
  end.
(** get_pda_sax_handler, 634-642, with get_pda_sax_handler_a, 603-623: the weight type. *)
Definition th_kind (h : th) : wkind :=
  if String.eqb (th_weight h) "uint" then (if th_array h then WVec else WNum) false 0%Z 4294967295%Z
  else if String.eqb (th_weight h) "int" then (if th_array h then WVec else WNum) true (-2147483648)%Z 2147483647%Z
  else WVoid.

(** * SolverInstanceSaxHandler behind SAXHandlerDispatch *)
(** SolverInstanceSaxHelper::keys, SolverInstanceJsonParser.h 52, and context_type, 64. *)
Inductive ikey := ik_none | ik_instance.
Inductive ictx := ix_initial | ix_instance.
(** The handler that the dispatch functions call. *)
Inductive current := CurSelf | CurType | CurPda | CurFirst | CurSecond.

Section Inst.
  (** As in jcfg: whether assertions are compiled in, the uint32 maximum, the coding of vectors; and the order of the hash tables of the automata. *)
  Variables (asserts : bool) (no_opl : nat) (wenc : list Z -> Z) (ord : nat -> list nat -> list nat).
  Definition i_initial_context := (ix_initial, CObj [1]).
  Definition i_instance_context := (ix_instance, CArr 0).
  (** The members, 112-117, with the dispatch. The automaton handlers hold a reference to the PDA of pda_variant, [i_T] is its current value;
      what is chosen by the types of the variants is here [i_names] and the configuration of the PDA handler. *)
  Record ih := mk_ih { i_sb : sbase ictx ikey; i_cur : current; i_type : th; i_pda : option ph; i_T : option (tpda string string);
    i_first : option ah; i_second : option ah }.
  Definition i_set_sb (h : ih) (b : sbase ictx ikey) : ih := mk_ih b (i_cur h) (i_type h) (i_pda h) (i_T h) (i_first h) (i_second h).
  Definition ih0 : ih := mk_ih (mk_sb [] ik_none) CurSelf th0 None None None None.
  (** The PDA handler for the type, PdaJsonParser.h 595-602: embedded. *)
  Definition i_cf (t : th) : jcfg := mk_jcfg (th_names t) (th_kind t) true asserts no_opl wenc.

  Definition i_done (h : ih) : option (hres ih) := Some (Go (i_set_sb h (element_done ik_none (i_sb h)))).
  (** callback, 143-173. None: there is no array context (get_index), or an empty optional (value() of the results of the elements before, which
      does not happen). *)
  Definition callback (h : ih) : option (hres ih) :=
    i <- cur_index (i_sb h) ;;
    match i with
    | 0 => i_done (mk_ih (i_sb h) CurType (i_type h) (i_pda h) (i_T h) (i_first h) (i_second h))
    | 1 => i_done (mk_ih (i_sb h) CurPda (i_type h) (Some (ph0 (i_cf (i_type h)))) (i_T h) (i_first h) (i_second h))
    | 2 => p <- i_pda h ;;
           a <- ah0 true ord (p_pda p) ;;
           i_done (mk_ih (i_sb h) CurFirst (i_type h) (i_pda h) (Some (p_pda p)) (Some a) (i_second h))
    | 3 => T <- i_T h ;;
           a <- ah0 true ord T ;;
           i_done (mk_ih (i_sb h) CurSecond (i_type h) (i_pda h) (i_T h) (i_first h) (Some a))
    | 4 => i_done (mk_ih (i_sb h) CurSelf (i_type h) (i_pda h) (i_T h) (i_first h) (i_second h))
    | _ => Some Fail
    end.
  (** The handler's own functions, 175-229. *)
  Definition self_step (h : ih) (e : event) : option (hres ih) :=
    match e with
    | EStartObj => if no_context (i_sb h) then Some (Go (i_set_sb h (push_context i_initial_context (i_sb h)))) else Some Fail
    | EKey k =>
        if no_context (i_sb h) then Some Fail
        else t <- cur_type (i_sb h) ;;
        match t with
        | ix_initial => if String.eqb k "instance"
                        then match handle_key 1 ik_instance (i_sb h) with None => None | Some (Go b) => Some (Go (i_set_sb h b)) | Some _ => Some Fail end
                        else Some Fail
        | _ => Some Fail
        end
    | EEndObj =>
        if no_context (i_sb h) then Some Fail
        else m <- missing (i_sb h) ;;
        if m : bool then Some Fail else b <- pop_context (i_sb h) ;; i_done (i_set_sb h b)
    | EStartArr =>
        if no_context (i_sb h) then Some Fail
        else match sb_key (i_sb h) with
             | ik_instance => Some (Halt (i_set_sb h (push_context i_instance_context (i_sb h))))
             | _ => Some Fail
             end
    | EEndArr => if no_context (i_sb h) then Some Fail else b <- pop_context (i_sb h) ;; i_done (i_set_sb h b)
    | _ => Some Fail
    end.
  (** SAXHandlerDispatch, 73-111: the function of the current handler, and the callback if it returned false without an error. *)
  Definition dispatch {A} (put : A -> ih) (r : option (hres A)) : option (hres ih) :=
    match r with
    | None => None
    | Some (Go a) => Some (Go (put a))
    | Some (Halt a) => callback (put a)
    | Some Fail => Some Fail
    end.
  Definition i_step (h : ih) (e : event) : option (hres ih) :=
    match i_cur h with
    | CurSelf => dispatch (fun a => a) (self_step h e)
    | CurType => dispatch (fun a => mk_ih (i_sb h) (i_cur h) a (i_pda h) (i_T h) (i_first h) (i_second h)) (th_step (i_type h) e)
    | CurPda =>
        p <- i_pda h ;;
        dispatch (fun a => mk_ih (i_sb h) (i_cur h) (i_type h) (Some a) (i_T h) (i_first h) (i_second h)) (ph_step (i_cf (i_type h)) p e)
    | CurFirst =>
        p <- i_first h ;;
        dispatch (fun a => mk_ih (i_sb h) (i_cur h) (i_type h) (i_pda h) (Some (h_pda a)) (Some a) (i_second h)) (ah_step (th_names (i_type h)) true asserts p e)
    | CurSecond =>
        p <- i_second h ;;
        dispatch (fun a => mk_ih (i_sb h) (i_cur h) (i_type h) (i_pda h) (Some (h_pda a)) (i_first h) (Some a)) (ah_step (th_names (i_type h)) true asserts p e)
    end.
  (** SolverInstanceJsonParser::parse, 235-247, with get_solver_instance, 128-141 (None: its assertions): the arguments of the SolverInstance, or
      an exception (inner None). *)
  Definition parse_inst (j : json) : option (option (tpda string string * aut * aut)) :=
    match run i_step (events j) ih0 with
    | None => None
    | Some (Go h) => T <- i_T h ;; a <- i_first h ;; b <- i_second h ;; Some (Some (T, h_aut a, h_aut b))
    | Some _ => Some None
    end.
End Inst.

(** Parsing::parse_instance, Parsing.h 74-87, with json_automata: a PDA and two automata from three files. *)
Definition parse_files (cf : jcfg) (ord : nat -> list nat -> list nat) (jp j1 j2 : json) : option (option (tpda string string * aut * aut)) :=
  x <- parse_pda cf jp ;;
  match x with
  | None => Some None
  | Some T =>
      y <- parse_aut (cf_names cf) false (cf_asserts cf) ord T j1 ;;
      match y with
      | None => Some None
      | Some (T1, A1) =>
          z <- parse_aut (cf_names cf) false (cf_asserts cf) ord T1 j2 ;;
          match z with None => Some None | Some (T2, A2) => Some (Some (T2, A1, A2)) end
      end
  end.
