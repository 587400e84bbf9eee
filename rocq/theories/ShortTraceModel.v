(** Model of the trace queries with Trace_Type::Shortest: get_trace of Solver.h 261-280 (the branch 274-276), which asks
    PAutomatonProduct::find_path<Shortest,false> (PAutomatonProduct.h 193-207) for a path and reconstructs the trace with _get_trace. *)
From Coq Require Import List Arith ZArith.
From Verif Require Import Base Spec PdaModel AutModel SolverModel QueryModel ProductModel ShortModel TraceModel.
Import ListNotations.

(** state_map of get_path_shortest, internal/PAutomaton.h 679-698, applied to the end state and to the state of every edge. *)
Definition ap_map (f : nat -> nat) (p : apth nat) : apth nat := mk_apth (f (ap_end p)) (map (fun e => (fst e, f (snd e))) (ap_edges p)).

(** get_trace<Shortest>, Solver.h 274-276; [A] is instance.automaton(). The null path gives an empty trace (_get_trace, 377-379) and the
    weight max(), here None. *)
Definition get_trace_shortest (P : pda) (fuel : nat) (A : waut) (sp : sprod) : option (option (list config * option Z)) :=
  o <- path_shortest sp ;;
  match o with
  | None => done ([], None)
  | Some (p, d) =>
      match get_trace_path P (wa_aut A) fuel (ap_map (fun id => fst (orig_pair P (sp_pr sp) id)) p) with
      | None => None
      | Some None => Some None
      | Some (Some tr) => done (tr, Some d)
      end
  end.
Definition get_trace_post_shortest (P : pda) (fuel : nat) (I : sinst) := get_trace_shortest P fuel (si_init I) (si_prod I).
(** post_star_accepts<Shortest>(instance) followed by get_trace<Shortest>(instance) (Verifier.h 115-118, where the second call is made only if the first
    returns true). *)
Definition post_shortest_trace (P : pda) (top : list (Z * nat) -> nat) (ptop : nat -> list (Z * (edge * trace)) -> nat) (fuel : nat) (I : sinst)
    : option (option (list config * option Z)) :=
  match post_star_short P top ptop fuel I with
  | None => None
  | Some None => Some None
  | Some (Some (_, I')) => get_trace_post_shortest P fuel I'
  end.
