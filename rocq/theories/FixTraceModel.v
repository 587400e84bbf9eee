(** Model of the paths and traces of the fixed-point queries: PAutomatonFixedPoint::get_path and get_path_with_loop
    (src/include/pdaaal/internal/PAutomatonAlgorithms.h 121-218), find_path_fixed_point (PAutomatonProduct.h 173-193), TraceBack for
    TraceInfoType::Pair (internal/PdaSaturation.h 1075-1090) and get_trace (Solver.h 260-276). None = undefined behaviour or a failing assertion. *)
From Coq Require Import List Arith Bool ZArith.
From Verif Require Import Base Spec PdaModel AutModel PreStarModel QueryModel SolverModel ProductModel TraceModel FixModel FixSolveModel.
Import ListNotations.

Section Paths.
  Variable states : list sinfo.
  (** state_map *)
  Variable sm : nat -> nat.

  (** get_path, 127-138. The assertion 132 excludes the label epsilon, the assertion 135 bounds the number of edges, so the loop needs no fuel
      of its own. An uninitialized predecessor has no label either. *)
  Fixpoint z_back (fuel : nat) (s : nat) (p : apth nat) : option (apth nat) :=
    i <- nth_error states s ;;
    match si_pred i with
    | None => None
    | Some None => Some p
    | Some (Some (c, None)) => None
    | Some (Some (c, Some l)) =>
        match fuel with
        | 0 => None
        | S f => z_back f c (ap_emplace p (sm c) (Some l))
        end
    end.
  Definition z_get_path (m : nat) : option (apth nat) := z_back (length states) m (mk_apth (sm m) []).

  (** AutomatonTraceBack, 141-177: its state is _current_state and _path. next<avoid_loop>, 155-170: None in the result is no_state. *)
  Definition t_next (avoid : bool) (c : nat) (p : apth nat) : option (option (nat * apth nat)) :=
    i <- nth_error states c ;;
    match (if avoid then si_first i else si_pred i) with
    | None => None
    | Some None => Some None
    | Some (Some (_, None)) => None
    | Some (Some (c', Some l)) => Some (Some (c', ap_emplace p (sm c') (Some l)))
    end.
  (** The loops of get_path_with_loop, 191-218: until a state is seen twice (198-203), once more round the loop (207-213), to the end by the first
      predecessors (215). *)
  Fixpoint t_find (fuel : nat) (seen : list nat) (c : nat) (p : apth nat) : option (option (option nat * apth nat)) :=
    match fuel with
    | 0 => Some None
    | S f =>
        r <- t_next false c p ;;
        match r with
        | None => done (None, p)
        | Some (c', p') => if memb c' seen then done (Some c', p') else t_find f (c' :: seen) c' p'
        end
    end.
  Fixpoint t_loop (fuel : nat) (e c : nat) (p : apth nat) : option (option (apth nat)) :=
    match fuel with
    | 0 => Some None
    | S f =>
        r <- t_next false c p ;;
        match r with
        | None => None
        | Some (c', p') => if Nat.eqb c' e then done p' else t_loop f e c' p'
        end
    end.
  Fixpoint t_end (fuel : nat) (c : nat) (p : apth nat) : option (option (apth nat)) :=
    match fuel with
    | 0 => Some None
    | S f =>
        r <- t_next true c p ;;
        match r with
        | None => done p
        | Some (c', p') => t_end f c' p'
        end
    end.
  Definition z_get_path_with_loop (fuel : nat) (m : nat) : option (option (apth nat)) :=
    match t_find fuel [m] m (mk_apth (sm m) []) with
    | None => None
    | Some None => Some None
    | Some (Some (None, p)) => done p
    | Some (Some (Some e, p)) =>
        match t_loop fuel e e p with
        | None => None
        | Some None => Some None
        | Some (Some p') => t_end fuel e p'
        end
    end.
End Paths.

(** What TraceBack<W,Pair>::next<false> reads: the second traces (to_trace_label, PdaSaturation.h 1075-1090). *)
Definition fa_view (A : faut) : aut := mk_aut (a_acc (fa_aut A)) (map (fun x => (fst x, fa_trace2 A (fst x))) (a_edges (fa_aut A))) (a_ord (fa_aut A)).

Section FixTrace.
  Variable P : pda.
  Variable mx : bool.

  (** find_path_fixed_point, PAutomatonProduct.h 173-193: the path (None is AutomatonPath()) and the weight. *)
  Definition find_path_fixed_point (fuel : nat) (wp : wprod) : option (option (option (apth nat) * option fwt)) :=
    match fixed_point_paths (pd_n P) mx (wp_faut wp) fuel with
    | None => None
    | Some None => Some None
    | Some (Some d) =>
        let sm := fun id => fst (orig_pair P (wp_pr wp) id) in
        match z_min d with
        | None => done (None, None)
        | Some m =>
            w <- z_weight d ;;
            match w with
            | Some None =>
                match z_get_path_with_loop (z_states d) sm fuel m with
                | None => None
                | Some None => Some None
                | Some (Some p) => done (Some p, w)
                end
            | _ => p <- z_get_path (z_states d) sm m ;; done (Some p, w)
            end
        end
    end.
  (** get_trace, Solver.h 262-275: the trace is empty if there is no path or the weight is bottom. [A] is instance.automaton(). *)
  Definition get_trace_fixed_point (fuel : nat) (A : faut) (wp : wprod) : option (option (list config * option fwt)) :=
    match find_path_fixed_point fuel wp with
    | None => None
    | Some None => Some None
    | Some (Some (_, Some None)) => done ([], Some None)
    | Some (Some (None, w)) => done ([], w)
    | Some (Some (Some p, w)) =>
        match get_trace_path P (fa_view A) fuel p with
        | None => None
        | Some None => Some None
        | Some (Some tr) => done (tr, w)
        end
    end.
  (** pre_star_fixed_point_accepts, then get_trace. *)
  Definition solve_fixed_point_trace (fuel : nat) (ord : nat -> list nat -> list nat) (init fin : faut) : option (option (bool * (list config * option fwt))) :=
    match pre_star_fixed_point_accepts P mx fuel ord init fin with
    | None => None
    | Some None => Some None
    | Some (Some r) =>
        match get_trace_fixed_point fuel (fst (snd r)) (snd (snd r)) with
        | None => None
        | Some None => Some None
        | Some (Some tw) => done (fst r, tw)
        end
    end.
End FixTrace.
