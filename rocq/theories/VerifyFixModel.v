(** Model of the branch of src/pdaaal-bin/Verifier.h for a PDA with signed weights, engine 2 (pre) and trace types Longest and ShortestFixedPoint, together with
    the part of main.cpp and parsing/Parsing.h that reads a query from two texts. None: an assertion fails or the behaviour is undefined. Some None: out of fuel. *)
From Coq Require Import Ascii String List Arith Bool ZArith.
From Verif Require Import Base Spec PdaModel AutModel ProductModel QueryModel SolverModel ShortModel FixModel FixSolveModel TraceModel FixTraceModel QTextModel.
Import ListNotations.
Local Open Scope list_scope.

(** The value of the entry "weight". *)
Inductive wentry := WNum (d : Z) | WText (s : string).
(** What verify does: an exception, or the entries "engine", "weight" (None: the entry is not written), "result" and "trace". *)
Inductive fvres := FThrow | FOut (engine : string) (weight : option wentry) (result : bool) (trace : list config).

(** Verifier.h 255-259 (Longest, [mx] = true) and 268-272 (ShortestFixedPoint, [mx] = false, W::is_signed): the weight of get_trace is bottom or a number. None
    is max(), a number of the machine that Z does not have. *)
Definition weight_entry (mx : bool) (w : option fwt) : option wentry :=
  match w with
  | None => None
  | Some None => Some (WText (if mx then "infinity" else "negative infinity"))
  | Some (Some d) => Some (WNum d)
  end.

(** verify, Verifier.h 90-98, 246-274 and 326-336: get_trace is called only if the result is true. *)
Definition verify_fix (P : pda) (mx : bool) (k1 k2 : nat) (ord : nat -> list nat -> list nat) (init fin : faut) : option (option fvres) :=
  v <- pre_star_fixed_point_accepts P mx k1 ord init fin ;;
  match v with
  | None => Some None
  | Some (false, _) => done (FOut "pre*" None false [])
  | Some (true, (A, wp)) =>
      tw <- get_trace_fixed_point P mx k2 A wp ;;
      match tw with None => Some None | Some (tr, w) => done (FOut "pre*" (weight_entry mx w) true tr) end
  end.

(** parse_instance<Pair>, Parsing.h 73-88, without json-automata, and run, main.cpp 77-86 and 119-123: the edges of the automata of the query have the default annotation. *)
Definition run_query_fix (addr : nat -> nat) (ord : nat -> list nat -> list nat) (sl : list ascii -> slook) (tab : list (list ascii)) (us : list urule) (s1 s2 : list ascii)
    (mx : bool) (k1 k2 : nat) : option (option fvres) :=
  r1 <- parse_query addr ord (build (List.length tab) us) sl tab s1 ;;
  match r1 with
  | QThrow => done FThrow
  | QGo (A1, tab1) =>
      r2 <- parse_query addr ord (build (List.length tab1) us) sl tab1 s2 ;;
      match r2 with
      | QThrow => done FThrow
      | QGo (A2, tab2) => verify_fix (build (List.length tab2) us) mx k1 k2 ord (mk_faut A1 [] []) (mk_faut A2 [] [])
      end
  end.
