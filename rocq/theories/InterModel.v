(** Model of the queries with trace types ShortestFixedPoint and Longest by post* and by interleaving pre* and post*:
    post_star_fixed_point_accepts and interleaving_fixed_point_accepts (src/include/pdaaal/Solver.h 52-82), the copy of the instance
    (PAutomatonProduct.h 79-83) and the engines 1 and 3 of Verifier.h (src/pdaaal-bin, 211-244 and 281-317) without their output; get_trace is called
    for a negative verdict as well, which Verifier.h leaves out.
    None = undefined behaviour or a failing assertion. *)
From Coq Require Import List Arith Bool ZArith.
From Verif Require Import Base Spec PdaModel AutModel PreStarModel QueryModel SolverModel ProductModel UtilModel ShortModel FixModel FixSolveModel TraceModel FixTraceModel.
Import ListNotations.

Section Inter.
  Variable P : pda.
  Variable mx : bool.

  (** initialize_product<false,false>() of an instance whose product is [pr] and whose automaton() is now [A]; [S] is the other automaton. *)
  Definition inst_accepts (pr : prod_st) (A S : faut) : option (option (bool * (faut * wprod))) :=
    r <- wp_initialize (pd_n P) A S (mk_wprod pr []) ;; done (fst r, (A, snd r)).

  (** post_star_fixed_point_accepts, Solver.h 52-56: the first automaton is the initial one. *)
  Definition post_star_fixed_point_accepts (fuel : nat) (ord : nat -> list nat -> list nat) (init fin : faut) : option (option (bool * (faut * wprod))) :=
    pr <- pr_new (pd_n P) ord (fa_aut init) (fa_aut fin) ;;
    match post_star_fixed_point P mx fuel init with
    | None => None
    | Some None => Some None
    | Some (Some A) => inst_accepts pr A fin
    end.
  (** Engine 1, Verifier.h 211-244: get_trace (Solver.h 260-276). *)
  Definition solve_post_fixed_point_trace (fuel : nat) (ord : nat -> list nat -> list nat) (init fin : faut) : option (option (bool * (list config * option fwt))) :=
    match post_star_fixed_point_accepts fuel ord init fin with
    | None => None
    | Some None => Some None
    | Some (Some r) =>
        match get_trace_fixed_point P mx fuel (fst (snd r)) (snd (snd r)) with
        | None => None
        | Some None => Some None
        | Some (Some tw) => done (fst r, tw)
        end
    end.

  (** The loop 70-73. *)
  Fixpoint inter_loop (fuel : nat) (pre : fwst xd edge) (post : fwst yd edge) : option (option (fwst xd edge * fwst yd edge)) :=
    if fw_is_done xd edge pre || fw_is_done yd edge post then done (pre, post)
    else match fuel with
         | 0 => Some None
         | S f =>
             post' <- fw_step yd edge sort_edges (y_step_with P mx) false post ;;
             pre' <- fw_step xd edge sort_edges (x_step_with P mx) false pre ;;
             inter_loop f pre' post'
         end.
  (** interleaving_fixed_point_accepts, 63-82. The instance has the automata [init] and [fin] and the product [pr], its copy [initc], [finc] and [prc];
      only the orders of iteration may differ. The second component of the result is used_pre_star. *)
  Definition interleaving_fixed_point_accepts (fuel : nat) (ord : nat -> list nat -> list nat) (init fin initc finc : faut)
    : option (option ((bool * bool) * (faut * wprod))) :=
    pr <- pr_new (pd_n P) ord (fa_aut init) (fa_aut fin) ;;
    prc <- pr_new (pd_n P) ord (fa_aut initc) (fa_aut finc) ;;
    pre <- x_init P mx finc ;;
    post <- y_init P init ;;
    match inter_loop fuel pre post with
    | None => None
    | Some None => Some None
    | Some (Some (pre', post')) =>
        if fw_is_done xd edge pre' then
          match fw_finalize xd edge sort_edges (x_step_with P mx) fuel pre' with
          | None => None
          | Some None => Some None
          | Some (Some s) => r <- inst_accepts prc (x_aut (fw_d s)) initc ;; match r with None => Some None | Some r => done ((fst r, true), snd r) end
          end
        else if fw_is_done yd edge post' then
          match fw_finalize yd edge sort_edges (y_step_with P mx) fuel post' with
          | None => None
          | Some None => Some None
          | Some (Some s) => r <- inst_accepts pr (y_aut (fw_d s)) fin ;; match r with None => Some None | Some r => done ((fst r, false), snd r) end
          end
        else None
    end.
  (** Engine 3, Verifier.h 281-317: get_trace of the copy if pre* was used and of the instance otherwise (289, 303). *)
  Definition solve_interleaving_trace (fuel : nat) (ord : nat -> list nat -> list nat) (init fin initc finc : faut)
    : option (option ((bool * bool) * (list config * option fwt))) :=
    match interleaving_fixed_point_accepts fuel ord init fin initc finc with
    | None => None
    | Some None => Some None
    | Some (Some r) =>
        match get_trace_fixed_point P mx fuel (fst (snd r)) (snd (snd r)) with
        | None => None
        | Some None => Some None
        | Some (Some tw) => done (fst r, tw)
        end
    end.
End Inter.
