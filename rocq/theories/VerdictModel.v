(** Model of the solver entry points that answer reachability questions (src/include/pdaaal/Solver.h 84-262), for Trace_Type Any/None. *)
From Coq Require Import List Arith Lia Bool.
From Verif Require Import Base Spec PdaModel AutModel PreStarModel PostStarModel SolverModel QueryModel ProductModel.
Import ListNotations.

(** Members of PAutomatonProduct (PAutomatonProduct.h 489-501): _initial, _final and the product. The flag _swap_initial_final is not
    stored: pre* calls enable_pre_star() and each function below uses the automata in the order that automaton()/other() then yield. *)
Record inst := mk_inst { in_init : aut; in_fin : aut; in_prod : prod_st }.

Section Verdict.
  Variable P : pda.
  Let n := pd_n P.

  (** PAutomatonProduct(pda, initial, final), PAutomatonProduct.h 69-76. *)
  Definition new_inst (ord : nat -> list nat -> list nat) (init fin : aut) : option inst :=
    pr <- pr_new n ord init fin ;; Some (mk_inst init fin pr).

  (** The callback of post_star_accepts (Solver.h 229-231) and pre_star_accepts (186-192): add_edge_product, PAutomatonProduct.h 103-112,
      that is add_edge<true,false,true>(automaton(), other()). *)
  Definition cb_product (other : aut) (A : aut) (pr : prod_st) (e : edge) (_ : trace) : option (bool * prod_st) :=
    pr_add_component_edge n true false true A other pr e.

  (** pre_star_accepts(instance), Solver.h 181-194. *)
  Definition pre_star_accepts (fuel : nat) (I : inst) : option (option (bool * inst)) :=
    r <- initialize_product n false true (in_fin I) (in_init I) (in_prod I) ;;
    if fst r then done (true, mk_inst (in_init I) (in_fin I) (snd r))
    else match pre_star_et P prod_st (Some (cb_product (in_init I))) fuel (in_fin I) (snd r) with
         | None => None
         | Some None => Some None
         | Some (Some (st, b)) => done (b, mk_inst (in_init I) (p_aut st) (p_x st))
         end.

  (** post_star_accepts(instance), Solver.h 216-236. *)
  Definition post_star_accepts (fuel : nat) (I : inst) : option (option (bool * inst)) :=
    r <- initialize_product n false true (in_init I) (in_fin I) (in_prod I) ;;
    if fst r then done (true, mk_inst (in_init I) (in_fin I) (snd r))
    else match post_star_et P prod_st (Some (cb_product (in_fin I))) fuel (in_init I) (snd r) with
         | None => None
         | Some None => Some None
         | Some (Some (st, b)) => done (b, mk_inst (q_aut st) (in_fin I) (q_x st))
         end.

  (** post_star_accepts_no_ET, Solver.h 258-262. (pre_star_accepts_no_ET, 252-257, passes a type as the Trace_Type argument of pre_star
      and cannot be instantiated.) *)
  Definition post_star_accepts_no_ET (fuel : nat) (I : inst) : option (option (bool * inst)) :=
    match post_star P fuel (in_init I) with
    | None => None
    | Some None => Some None
    | Some (Some A) =>
        r <- initialize_product n false false A (in_fin I) (in_prod I) ;;
        done (fst r, mk_inst A (in_fin I) (snd r))
    end.

  (** ** dual_search, Solver.h 84-119, 147-166 *)
  (** The callbacks share the product and see the other automaton as it currently is: the callback state is the pair of both. *)
  Definition cb_final (A : aut) (x : prod_st * aut) (e : edge) (_ : trace) : option (bool * (prod_st * aut)) :=
    r <- pr_add_component_edge n false true true (snd x) A (fst x) e ;; Some (fst r, (snd r, snd x)).
  Definition cb_initial (A : aut) (x : prod_st * aut) (e : edge) (_ : trace) : option (bool * (prod_st * aut)) :=
    r <- pr_add_component_edge n true true true A (snd x) (fst x) e ;; Some (fst r, (snd r, snd x)).

  Definition DX := (prod_st * aut)%type.
  Definition p_set_x (st : pre_st DX) (x : DX) : pre_st DX :=
    mk_pre (p_aut st) (p_ws st) (p_rel st) (p_delta st) (p_popped st) (p_found st) x.
  Definition q_set_x (st : post_st DX) (x : DX) : post_st DX :=
    mk_post (q_aut st) (q_nQ st) (q_qp st) (q_ws st) (q_rel1 st) (q_rel2 st) (q_found st) x.

  Definition is_nil {A} (l : list A) : bool := match l with [] => true | _ => false end.

  (** The while loop, 156-165. The product lives in the callback state of whichever saturation ran last. *)
  Fixpoint dual_loop (fuel : nat) (pre : pre_st DX) (post : post_st DX) (pr : prod_st) : option (option (bool * inst)) :=
    if negb (is_nil (p_ws pre)) && negb (is_nil (q_ws post)) then
      match fuel with
      | 0 => Some None
      | S f =>
          post' <- post_step P DX (Some cb_initial) (q_set_x post (pr, p_aut pre)) ;;
          if q_found post' then done (true, mk_inst (q_aut post') (p_aut pre) (fst (q_x post')))
          else
            pre' <- pre_step P DX (Some cb_final) (p_set_x pre (fst (q_x post'), q_aut post')) ;;
            if p_found pre' then done (true, mk_inst (q_aut post') (p_aut pre') (fst (p_x pre')))
            else dual_loop f pre' post' (fst (p_x pre'))
      end
    else done (p_found pre || q_found post, mk_inst (q_aut post) (p_aut pre) pr).

  Definition dual_search_accepts (fuel : nat) (I : inst) : option (option (bool * inst)) :=
    r <- initialize_product n true true (in_init I) (in_fin I) (in_prod I) ;;
    if fst r then done (true, mk_inst (in_init I) (in_fin I) (snd r))
    else
      pre <- pre_init P DX (Some cb_final) (in_fin I) (snd r, in_init I) ;;
      post <- post_init P DX (in_init I) (fst (p_x pre), p_aut pre) ;;
      if p_found pre || q_found post then done (true, mk_inst (q_aut post) (p_aut pre) (fst (p_x pre)))
      else dual_loop fuel pre post (fst (p_x pre)).

  (** pre_star_accepts(automaton, state, stack), Solver.h 167-179. *)
  Definition cb_single (state l : nat) (A : aut) (x : unit) (e : edge) (_ : trace) : option (bool * unit) :=
    if Nat.eqb (e_src e) state && lab_eqb (e_lab e) (Some l)
    then b <- accepting A (e_dst e) ;; Some (b, x)
    else Some (false, x).
  Definition pre_star_accepts_config (fuel : nat) (A : aut) (state : nat) (stack : list nat) : option (option (bool * aut)) :=
    match stack with
    | [l] =>
        match accepts A fuel state stack with
        | None => None
        | Some None => Some None
        | Some (Some true) => done (true, A)
        | Some (Some false) =>
            match pre_star_et P unit (Some (cb_single state l)) fuel A tt with
            | None => None
            | Some None => Some None
            | Some (Some (st, b)) => done (b, p_aut st)
            end
        end
    | _ =>
        match pre_star_et P unit None fuel A tt with
        | None => None
        | Some None => Some None
        | Some (Some (st, true)) => done (true, p_aut st)
        | Some (Some (st, false)) =>
            match accepts (p_aut st) fuel state stack with
            | None => None
            | Some None => Some None
            | Some (Some b) => done (b, p_aut st)
            end
        end
    end.
End Verdict.
