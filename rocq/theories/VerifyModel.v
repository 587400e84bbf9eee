(** Model of src/pdaaal-bin/Verifier.h for PDAs without weights, and of the part of main.cpp and parsing/Parsing.h that reads a query from two texts.
    None: an assertion fails (with NDEBUG an exception is thrown instead). Some None: out of fuel. *)
From Coq Require Import Ascii String List Arith Bool.
From Verif Require Import Base Spec PdaModel AutModel ProductModel SolverModel VerdictModel TraceModel QTextModel.
Import ListNotations.
Local Open Scope list_scope.

(** Trace_Type *)
Inductive ttype := TyNone | TyAny | TyShortest | TyLongest | TyFixed.
(** operator>>, 37-54, for the token that was read; None: failbit. *)
Definition read_ttype (s : string) : option ttype :=
  if String.eqb s "0" then Some TyNone
  else if String.eqb s "1" then Some TyAny
  else if String.eqb s "2" then Some TyShortest
  else if String.eqb s "3" then Some TyLongest
  else if String.eqb s "4" then Some TyFixed
  else None.
(** operator<<, 55-74 *)
Definition write_ttype (t : ttype) : string :=
  match t with TyNone => "0" | TyAny => "1" | TyShortest => "2" | TyLongest => "3" | TyFixed => "4" end%string.
(** needs_trace_info_pair, 86-88 *)
Definition needs_pair (t : ttype) : bool := match t with TyLongest | TyFixed => true | _ => false end.

(** What verify does: nothing, an exception, or the entries "engine", "result" and "trace" (null if the list is empty). The time
    is left out. *)
Inductive vres := VNothing | VThrow | VOut (engine : string) (result : bool) (trace : list config).

(** The calls of the switch for an engine in {1, 2, 3}: 102-134, 135-169, 170-202. *)
Definition v_accepts (engine : nat) (P : pda) (fuel : nat) (I : inst) : option (option (bool * inst)) :=
  match engine with 1 => post_star_accepts P fuel I | 2 => pre_star_accepts P fuel I | _ => dual_search_accepts P fuel I end.
Definition v_trace (engine : nat) (P : pda) (fuel : nat) (I : inst) : option (option (list config)) :=
  match engine with 1 => get_trace_post P fuel I | 2 => get_trace_pre P fuel I | _ => get_trace_dual P fuel I end.
(** 95-96 *)
Definition v_name (engine : nat) : string := match engine with 1 => "post*" | 2 => "pre*" | 3 => "dual*" | _ => "" end%string.

(** verify, 90-337, for an instance with pda_t::has_weight = false; [k1] and [k2] are the fuel of the search and of the trace.
    The second parameter of the template is chosen by main.cpp 119-123. *)
Definition verify (engine : nat) (t : ttype) (P : pda) (k1 k2 : nat) (I : inst) : option (option vres) :=
  if Nat.eqb engine 0 then done VNothing
  else if Nat.ltb 3 engine then done VThrow
  else if needs_pair t then None
  else match t with
       | TyNone =>
           v <- v_accepts engine P k1 I ;;
           match v with None => Some None | Some (b, _) => done (VOut (v_name engine) b []) end
       | TyAny =>
           v <- v_accepts engine P k1 I ;;
           match v with
           | None => Some None
           | Some (false, _) => done (VOut (v_name engine) false [])
           | Some (true, J) =>
               tr <- v_trace engine P k2 J ;;
               match tr with None => Some None | Some tr => done (VOut (v_name engine) true tr) end
           end
       | _ => None
       end.

(** parse_instance, Parsing.h 73-88, without json-automata, and run, main.cpp 77-86, without its output options: the PDA has the labels [tab] and the rules [us] (C57-C59 are about its
    text), the two files have the contents [s1] and [s2]; [sl] is the mapping of state names. *)
Definition run_query (addr : nat -> nat) (ord : nat -> list nat -> list nat) (sl : list ascii -> slook) (tab : list (list ascii)) (us : list urule)
    (s1 s2 : list ascii) (engine : nat) (t : ttype) (k1 k2 : nat) : option (option vres) :=
  r1 <- parse_query addr ord (build (List.length tab) us) sl tab s1 ;;
  match r1 with
  | QThrow => done VThrow
  | QGo (A1, tab1) =>
      r2 <- parse_query addr ord (build (List.length tab1) us) sl tab1 s2 ;;
      match r2 with
      | QThrow => done VThrow
      | QGo (A2, tab2) =>
          let P := build (List.length tab2) us in
          J <- new_inst P ord A1 A2 ;;
          verify engine t P k1 k2 J
      end
  end.
