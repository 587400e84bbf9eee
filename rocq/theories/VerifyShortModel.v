(** Model of the branch of src/pdaaal-bin/Verifier.h for a PDA with weights, engine 1 (post) and trace type Shortest, together with the part of main.cpp and
    parsing/Parsing.h that reads a query from two texts. None: an assertion fails or the behaviour is undefined. Some None: out of fuel. *)
From Coq Require Import Ascii String List Arith Bool ZArith.
From Verif Require Import Base Spec PdaModel AutModel ProductModel QueryModel SolverModel ShortModel TraceModel ShortTraceModel QTextModel.
Import ListNotations.
Local Open Scope list_scope.

(** What verify does: an exception, or the entries "engine", "weight" (None: the entry is not written), "result" and "trace". *)
Inductive wvres := WThrow | WOut (engine : string) (weight : option Z) (result : bool) (trace : list config).

(** verify, Verifier.h 90-104, 113-126 and 326-336. The weight of a null path is max() in the code and None here; get_trace is called only if the
    result is true. *)
Definition verify_short (P : pda) (top : list (Z * nat) -> nat) (ptop : nat -> list (Z * (edge * trace)) -> nat) (k1 k2 : nat) (I : sinst) : option (option wvres) :=
  v <- post_star_short P top ptop k1 I ;;
  match v with
  | None => Some None
  | Some (false, _) => done (WOut "post*" None false [])
  | Some (true, J) =>
      tw <- get_trace_post_shortest P k2 J ;;
      match tw with None => Some None | Some (tr, w) => done (WOut "post*" w true tr) end
  end.

(** parse_instance, Parsing.h 73-88, without json-automata, and run, main.cpp 77-86, as in VerifyModel.v: the edges of the automata of the query have weight zero. *)
Definition run_query_short (addr : nat -> nat) (ord : nat -> list nat -> list nat) (top : list (Z * nat) -> nat) (ptop : nat -> list (Z * (edge * trace)) -> nat)
    (sl : list ascii -> slook) (tab : list (list ascii)) (us : list urule) (s1 s2 : list ascii) (k1 k2 : nat) : option (option wvres) :=
  r1 <- parse_query addr ord (build (List.length tab) us) sl tab s1 ;;
  match r1 with
  | QThrow => done WThrow
  | QGo (A1, tab1) =>
      r2 <- parse_query addr ord (build (List.length tab1) us) sl tab1 s2 ;;
      match r2 with
      | QThrow => done WThrow
      | QGo (A2, tab2) =>
          let P := build (List.length tab2) us in
          J <- new_sinst P ord (mk_waut A1 []) (mk_waut A2 []) ;;
          verify_short P top ptop k1 k2 J
      end
  end.
