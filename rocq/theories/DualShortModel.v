(** Model of the dual search for shortest traces: dual_search_accepts<Shortest> with dual_short_search (src/include/pdaaal/Solver.h 83-144) and
    get_trace_dual_search<Shortest> (282-299), with the is_dual variants of PAutomatonProduct::add_edge and construct_reachable
    (PAutomatonProduct.h 219-390) for Shortest. The two saturations are those of PreShortModel and ShortModel. Weights are Z with exact addition.
    None = undefined behaviour, a failing assertion or an exception. *)
From Coq Require Import List Arith Bool ZArith.
From Verif Require Import Base Spec PdaModel AutModel PreStarModel PostStarModel SolverModel QueryModel ProductModel UtilModel TraceModel ShortModel ShortTraceModel PreShortModel.
Import ListNotations.

Section DualProduct.
  Variable n : nat.
  (** The choice of the priority queue inside priority_set (see UtilModel). *)
  Variable top : list (Z * nat) -> nat.

  (** One target of the epsilon loop, 298-325: as in ShortModel, but with the second lookup table (get_product_state<true>). *)
  Definition dp_eps_body (flip : bool) (F S : waut) (etp : option Z) (from i_from f_from : nat) (s : sploop) (to : nat) : option (sploop + sprod) :=
    let A := if flip then F else S in
    let q := if flip then i_from else f_from in
    if has_label (wa_aut A) q to None then
      gp <- get_product_state n true (wa_aut F) (wa_aut S) (sp_pr (fst s)) (if flip then to else i_from) (if flip then f_from else to) ;;
      pr1 <- pr_add_edge (fst gp) from None (snd (snd gp)) ;;
      sp_finish n etp (mk_sprod pr1 (sp_best (fst s))) (snd s) (fst (snd gp)) from None (snd (snd gp)) (w_of A (mk_edge q None to))
    else Some (inl s).

  (** One pair of targets, 328-382. The merge 331-346 finds the common labels, each with the sum of both weights (339). *)
  Definition dp_pair_body (F S : waut) (etp : option Z) (from i_from f_from i_to : nat) (s : sploop) (f_to : nat) : option (sploop + sprod) :=
    let ls := label_inter (labels_between (wa_aut F) i_from i_to) (labels_between (wa_aut S) f_from f_to) in
    if has_proper_label ls then
      gp <- get_product_state n true (wa_aut F) (wa_aut S) (sp_pr (fst s)) i_to f_to ;;
      pr1 <- pr_add_labels (fst gp) from (snd (snd gp)) ls ;;
      match filter (fun l => match l with Some _ => true | None => false end) ls with
      | [] => None
      | l0 :: ls' =>
          let wf := fun l => (w_of F (mk_edge i_from l i_to) + w_of S (mk_edge f_from l f_to))%Z in
          let ml := min_label wf l0 ls' in
          sp_finish n etp (mk_sprod pr1 (sp_best (fst s))) (snd s) (fst (snd gp)) from ml (snd (snd gp)) (wf ml)
      end
    else Some (inl s).

  (** Body of the while loop, 296-383. *)
  Definition dp_expand (F S : waut) (etp : option Z) (from : nat) (s : sploop) : option (sploop + sprod) :=
    ab <- pr_pair n (sp_pr (fst s)) from ;;
    if Nat.ltb (fst ab) (a_size (wa_aut F)) && Nat.ltb (snd ab) (a_size (wa_aut S)) then
      r1 <- eloop (dp_eps_body true F S etp from (fst ab) (snd ab)) (tos (wa_aut F) (fst ab)) s ;;
      match r1 with
      | inr sp => Some (inr sp)
      | inl s1 =>
          r2 <- eloop (dp_eps_body false F S etp from (fst ab) (snd ab)) (tos (wa_aut S) (snd ab)) s1 ;;
          match r2 with
          | inr sp => Some (inr sp)
          | inl s2 =>
              eloop (fun s i_to => eloop (dp_pair_body F S etp from (fst ab) (snd ab) i_to) (tos (wa_aut S) (snd ab)) s) (tos (wa_aut F) (fst ab)) s2
          end
      end
    else None.

  (** construct_reachable<true,true,Shortest>, 292-390; [fuel] as in ShortModel.sp_construct. *)
  Fixpoint dp_construct (fuel : nat) (F S : waut) (etp : option Z) (sp : sprod) (waiting : pset Z) : option (bool * sprod) :=
    if ps_empty waiting then b <- good_enough sp etp ;; Some (b, sp)
    else match fuel with
         | 0 => None
         | S f =>
             x <- ps_top top waiting ;;
             waiting' <- ps_pop top waiting ;;
             r <- dp_expand F S etp (snd x) (sp, waiting') ;;
             match r with
             | inr sp' => Some (true, sp')
             | inl (sp', w') => dp_construct f F S etp sp' w'
             end
         end.

  (** One product target of add_edge, 254-285; [x] is a target in the other automaton with the weight of the product edge. *)
  Definition dp_target_body (in_first : bool) (F S : waut) (etp : option Z) (l : option nat) (to : nat) (from : nat) (s : sploop) (x : nat * Z)
      : option (sploop + sprod) :=
    gp <- get_product_state n true (wa_aut F) (wa_aut S) (sp_pr (fst s)) (if in_first then to else fst x) (if in_first then fst x else to) ;;
    pr1 <- pr_add_edge (fst gp) from l (snd (snd gp)) ;;
    sp_finish n etp (mk_sprod pr1 (sp_best (fst s))) (snd s) (fst (snd gp)) from l (snd (snd gp)) (snd x).

  (** other_tos, 236-252: with an epsilon edge the other component stays; with a label both weights are added (244-246). *)
  Definition dp_targets (other : waut) (l : option nat) (w : Z) (q : nat) : list (nat * Z) :=
    match l with
    | None => [(q, w)]
    | Some _ => map (fun t => (t, (w + w_of other (mk_edge q l t))%Z)) (filter (fun t => has_label (wa_aut other) q t l) (tos (wa_aut other) q))
    end.

  (** add_edge<edge_in_first,true,true,Shortest>, 219-288. *)
  Definition dp_add_edge (in_first : bool) (F S : waut) (sp : sprod) (e : edge) (w : Z) (etp : option Z) : option (bool * sprod) :=
    let from := e_src e in
    let other := if in_first then S else F in
    let from_states := nth from (if in_first then pr_fast (sp_pr sp) else pr_back (sp_pr sp)) [] ++ (if Nat.ltb from n then [(from, from)] else []) in
    r <- eloop (fun s (x : nat * nat) =>
           if Nat.ltb (fst x) (a_size (wa_aut other)) then
             eloop (dp_target_body in_first F S etp (e_lab e) (e_dst e) (snd x)) (dp_targets other (e_lab e) w (fst x)) s
           else None) from_states (sp, mk_pset [] []) ;;
    match r with
    | inr sp' => Some (true, sp')
    | inl (sp', wt) => dp_construct (sp_fuel n F S) F S etp sp' wt
    end.
End DualProduct.

Section DualShort.
  Variable P : pda.
  Variable top : list (Z * nat) -> nat.
  (** The priority queues of pre* and of post*, and what pre* reads behind the end of _popped (see PreShortModel). *)
  Variables ptopk ptoph : nat -> list (Z * (edge * trace)) -> nat.
  Variable oob : nat -> option bool.

  (** The callbacks, Solver.h 96-107: add_final_edge<Shortest> and add_initial_edge<Shortest> (PAutomatonProduct.h 111-120). [other] is the automaton
      of the other saturation. *)
  Definition cb_dual_pre (other : waut) (A : waut) (sp : sprod) (e : edge) (_ : trace) (w : Z) (etp : option Z) : option (bool * sprod) :=
    dp_add_edge (pd_n P) top false other A sp e w etp.
  Definition cb_dual_post (other : waut) (A : waut) (sp : sprod) (e : edge) (_ : trace) (w etp : Z) : option (bool * sprod) :=
    dp_add_edge (pd_n P) top true A other sp e w (Some etp).

  (** Both saturations work on the product of the instance. *)
  Definition k_with (st : pk_st sprod) (sp : sprod) : pk_st sprod :=
    mk_pk (k_aut st) (k_ws st) (k_rel st) (k_delta st) (k_popped st) (k_min st) (k_found st) (k_pops st) sp.
  Definition h_with (st : ps_st sprod) (sp : sprod) : ps_st sprod :=
    mk_ps (h_aut st) (h_nQ st) (h_qp st) (h_min st) (h_ew st) (h_ws st) (h_rel1 st) (h_rel2 st) (h_found st) (h_pops st) sp.

  (** The loop of dual_short_search, Solver.h 133-142, with the final result 143; the current product is in [hs]. *)
  Fixpoint dual_loop (fuel : nat) (ks : pk_st sprod) (hs : ps_st sprod) : option (option (bool * (pk_st sprod * ps_st sprod))) :=
    if (match k_ws ks, h_ws hs with _ :: _, _ :: _ => true | _, _ => false end) then
      match fuel with
      | 0 => Some None
      | S f =>
          hs1 <- h_step P sprod (Some (cb_dual_post (k_aut ks))) ptoph hs ;;
          if h_found hs1 then done (true, (ks, hs1))
          else
            ks1 <- k_step P sprod (Some (cb_dual_pre (h_aut hs1))) ptopk oob (k_with ks (h_x hs1)) ;;
            if k_found ks1 then done (true, (ks1, h_with hs1 (k_x ks1)))
            else dual_loop f ks1 (h_with hs1 (k_x ks1))
      end
    else done (k_found ks || h_found hs, (ks, hs)).

  (** dual_search_accepts<Shortest>, Solver.h 83-109, with the constructors and the first test of dual_short_search 128-132. initialize_product<true>()
      is called without the trace type (86), so it builds the product as for Trace_Type::None. *)
  Definition dual_short (fuel : nat) (I : sinst) : option (option (bool * sinst)) :=
    r <- initialize_product (pd_n P) true true (wa_aut (si_init I)) (wa_aut (si_fin I)) (sp_pr (si_prod I)) ;;
    let sp := mk_sprod (snd r) (sp_best (si_prod I)) in
    if fst r then done (true, mk_sinst (si_init I) (si_fin I) sp)
    else
      ks <- k_init P sprod (si_fin I) sp ;;
      hs <- h_init P sprod (Some (cb_dual_post (k_aut ks))) (si_init I) (k_x ks) ;;
      if k_found ks || h_found hs then done (true, mk_sinst (h_aut hs) (k_aut ks) (h_x hs))
      else match dual_loop fuel ks hs with
           | None => None
           | Some None => Some None
           | Some (Some (b, (ks', hs'))) => done (b, mk_sinst (h_aut hs') (k_aut ks') (h_x hs'))
           end.

  (** The state map of find_path_shortest<true>, PAutomatonProduct.h 193-196. *)
  Definition ap_pairs (pr : prod_st) (p : apth nat) : apth (nat * nat) :=
    mk_apth (orig_pair P pr (ap_end p)) (map (fun e => (fst e, orig_pair P pr (snd e))) (ap_edges p)).
  (** get_trace_dual_search<Shortest>, Solver.h 282-299. The null path gives an empty trace and the weight zero (288-290). The assertions 295-296 are
      checked; trace2.begin() + 1 needs a non-empty trace2. *)
  Definition get_trace_dual_short (fuel : nat) (I : sinst) : option (option (list config * Z)) :=
    o <- path_shortest (si_prod I) ;;
    match o with
    | None => done ([], 0%Z)
    | Some (p, d) =>
        let pp := ap_pairs (sp_pr (si_prod I)) p in
        f_path <- ap_remove_epsilon (snd (ap_split pp)) ;;
        match get_trace_path P (wa_aut (si_init I)) fuel (fst (ap_split pp)), get_trace_path P (wa_aut (si_fin I)) fuel f_path with
        | Some (Some t1), Some (Some t2) =>
            match rev t1, t2 with
            | c1 :: _, c2 :: t2' =>
                if Nat.eqb (fst c1) (fst c2) && Nat.eqb (length (snd c1)) (length (snd c2)) then done (t1 ++ t2', d) else None
            | _, _ => None
            end
        | None, _ | _, None => None
        | _, _ => Some None
        end
    end.
  (** dual_search_accepts<Shortest> and, if it says yes, get_trace_dual_search<Shortest> (Verifier.h 181-189). *)
  Definition dual_short_trace (fuel : nat) (I : sinst) : option (option (option (list config * Z))) :=
    match dual_short fuel I with
    | None => None
    | Some None => Some None
    | Some (Some (b, I')) =>
        if (b : bool) then match get_trace_dual_short fuel I' with None => None | Some None => Some None | Some (Some r) => done (Some r) end
        else done None
    end.
End DualShort.
