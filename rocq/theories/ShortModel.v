(** Model of the search for shortest traces with post*: PostStarShortestSaturation (src/include/pdaaal/internal/PdaSaturation.h 494-714), the
    Shortest variants of PAutomatonProduct (PAutomatonProduct.h), make_back_edge_shortest, min_accepting_weight and get_path_shortest
    (internal/PAutomaton.h), and post_star_accepts<Shortest> (Solver.h). Weights are Z with exact addition (no overflow, see WeightModel for
    the built-in types). None = undefined behaviour, a failing assertion, or an exception. *)
From Coq Require Import List Arith Lia Bool ZArith.
From Verif Require Import Base Spec PdaModel AutModel PreStarModel PostStarModel SolverModel QueryModel ProductModel UtilModel.
Import ListNotations.

(** An automaton whose edge annotations carry weights (edge_annotation, internal/PAutomaton.h 127-157): the weights are kept beside the
    automaton; an edge without entry has weight zero (make_default, 134-140). *)
Record waut := mk_waut { wa_aut : aut; wa_w : list (edge * Z) }.
Fixpoint w_find {V} (e : edge) (l : list (edge * V)) : option V :=
  match l with [] => None | (e', v) :: l' => if edge_eqb e' e then Some v else w_find e l' end.
Definition w_of (A : waut) (e : edge) : Z := match w_find e (wa_w A) with Some w => w | None => 0%Z end.
(** add_edge / add_epsilon_edge with an annotation, internal/PAutomaton.h 723-729: no overwrite. *)
Definition wa_add_edge (A : waut) (e : edge) (t : trace) (w : Z) : option waut :=
  af <- emplace_edge (wa_aut A) e t ;;
  Some (if snd af then mk_waut (fst af) ((e, w) :: wa_w A) else A).

(** ** The product automaton *)
(** _back_edge_state, _back_edge_label and _best_weight of the product states (internal/PAutomaton.h 176-178), newest entry first; no entry:
    no back edge, and the weight is uninitialised. Edge annotations of the product are not modelled: nothing reads them for Shortest. *)
Record sprod := mk_sprod { sp_pr : prod_st; sp_best : list (nat * (nat * option nat * Z)) }.
Fixpoint b_find (q : nat) (l : list (nat * (nat * option nat * Z))) : option (nat * option nat * Z) :=
  match l with [] => None | (q', v) :: l' => if Nat.eqb q' q then Some v else b_find q l' end.
Definition best (sp : sprod) (q : nat) : option Z := match b_find q (sp_best sp) with Some (_, _, w) => Some w | None => None end.

Section ShortProduct.
  Variable n : nat.
  (** The choice of the priority queue inside priority_set (see UtilModel). *)
  Variable top : list (Z * nat) -> nat.

  (** make_back_edge_shortest, internal/PAutomaton.h 739-756. None: the weight of [from] is uninitialised. *)
  Definition make_back_edge (sp : sprod) (from : nat) (l : option nat) (to : nat) (w : Z) : option (sprod * option Z) :=
    if Nat.ltb to n then Some (sp, None)
    else
      nw <- (if Nat.ltb from n then Some w else b <- best sp from ;; Some (b + w)%Z) ;;
      if (match best sp to with None => true | Some b => Z.ltb nw b end)
      then Some (mk_sprod (sp_pr sp) ((to, (from, l, nw)) :: sp_best sp), Some nw)
      else Some (sp, None).

  (** _accepting in order. *)
  Definition accepting_ids (A : aut) : list nat := map fst (filter (fun x => snd x) (enum (a_acc A))).
  (** std::min_element over states with their weights: the first of the smallest. *)
  Fixpoint min_state (sp : sprod) (cur : nat * Z) (l : list nat) : option (nat * Z) :=
    match l with
    | [] => Some cur
    | q :: l' => w <- best sp q ;; min_state sp (if Z.ltb w (snd cur) then (q, w) else cur) l'
    end.
  (** The state chosen by min_accepting_weight, 662-674, and get_path_shortest, 683-685. None: uninitialised weight (or no accepting
      state, which callers exclude). *)
  Definition min_accepting (sp : sprod) : option (nat * Z) :=
    match accepting_ids (pr_aut (sp_pr sp)) with
    | [] => None
    | q :: l => w <- best sp q ;; min_state sp (q, w) l
    end.
  (** "has_accepting_state() && !less(et_param, min_accepting_weight())", PAutomatonProduct.h 265, 307, 364, 386. [etp] = None: et_param is max(). *)
  Definition good_enough (sp : sprod) (etp : option Z) : option bool :=
    if has_accepting (sp_pr sp) then m <- min_accepting sp ;; Some (match etp with Some z => negb (Z.ltb z (snd m)) | None => true end) else Some false.

  Definition sploop := (sprod * pset Z)%type.
  (** Common end of the loop bodies (with ET = true), for example 262-274: relax, assert, early return, enqueue. *)
  Definition sp_finish (etp : option Z) (sp : sprod) (waiting : pset Z) (fresh : bool) (from : nat) (l : option nat) (to : nat) (w : Z)
      : option (sploop + sprod) :=
    so <- make_back_edge sp from l to w ;;
    if fresh && (match snd so with None => true | Some _ => false end) then None
    else
      g <- good_enough (fst so) etp ;;
      Some (if (g : bool) then inr (fst so)
            else inl (fst so, match snd so with Some nw => ps_emplace waiting nw to | None => waiting end)).

  (** One target of the epsilon loop, 298-325. *)
  Definition sp_eps_body (flip : bool) (F S : waut) (etp : option Z) (from i_from f_from : nat) (s : sploop) (to : nat) : option (sploop + sprod) :=
    let A := if flip then F else S in
    let q := if flip then i_from else f_from in
    if has_label (wa_aut A) q to None then
      gp <- get_product_state n false (wa_aut F) (wa_aut S) (sp_pr (fst s)) (if flip then to else i_from) (if flip then f_from else to) ;;
      pr1 <- pr_add_edge (fst gp) from None (snd (snd gp)) ;;
      sp_finish etp (mk_sprod pr1 (sp_best (fst s))) (snd s) (fst (snd gp)) from None (snd (snd gp)) (w_of A (mk_edge q None to))
    else Some (inl s).

  (** std::min_element over the labels except epsilon, 358-360; the annotation is that of the first automaton. *)
  Fixpoint min_label (wf : option nat -> Z) (cur : option nat) (ls : list (option nat)) : option nat :=
    match ls with [] => cur | l :: ls' => min_label wf (if Z.ltb (wf l) (wf cur) then l else cur) ls' end.
  (** One pair of targets, 328-382. *)
  Definition sp_pair_body (F S : waut) (etp : option Z) (from i_from f_from i_to : nat) (s : sploop) (f_to : nat) : option (sploop + sprod) :=
    let ls := label_inter (labels_between (wa_aut F) i_from i_to) (labels_between (wa_aut S) f_from f_to) in
    if has_proper_label ls then
      gp <- get_product_state n false (wa_aut F) (wa_aut S) (sp_pr (fst s)) i_to f_to ;;
      pr1 <- pr_add_labels (fst gp) from (snd (snd gp)) ls ;;
      match filter (fun l => match l with Some _ => true | None => false end) ls with
      | [] => None
      | l0 :: ls' =>
          let wf := fun l => w_of F (mk_edge i_from l i_to) in
          let ml := min_label wf l0 ls' in
          sp_finish etp (mk_sprod pr1 (sp_best (fst s))) (snd s) (fst (snd gp)) from ml (snd (snd gp)) (wf ml)
      end
    else Some (inl s).

  (** Body of the while loop, 296-383. *)
  Definition sp_expand (F S : waut) (etp : option Z) (from : nat) (s : sploop) : option (sploop + sprod) :=
    ab <- pr_pair n (sp_pr (fst s)) from ;;
    if Nat.ltb (fst ab) (a_size (wa_aut F)) && Nat.ltb (snd ab) (a_size (wa_aut S)) then
      r1 <- eloop (sp_eps_body true F S etp from (fst ab) (snd ab)) (tos (wa_aut F) (fst ab)) s ;;
      match r1 with
      | inr sp => Some (inr sp)
      | inl s1 =>
          r2 <- eloop (sp_eps_body false F S etp from (fst ab) (snd ab)) (tos (wa_aut S) (snd ab)) s1 ;;
          match r2 with
          | inr sp => Some (inr sp)
          | inl s2 =>
              eloop (fun s i_to => eloop (sp_pair_body F S etp from (fst ab) (snd ab) i_to) (tos (wa_aut S) (snd ab)) s) (tos (wa_aut F) (fst ab)) s2
          end
      end
    else None.

  (** construct_reachable<false,true,Shortest>, 292-390. Every state is taken from [waiting] at most once (priority_set), which bounds the
      number of rounds; running out of [fuel] is reported as undefined. *)
  Fixpoint sp_construct (fuel : nat) (F S : waut) (etp : option Z) (sp : sprod) (waiting : pset Z) : option (bool * sprod) :=
    if ps_empty waiting then b <- good_enough sp etp ;; Some (b, sp)
    else match fuel with
         | 0 => None
         | S f =>
             x <- ps_top top waiting ;;
             waiting' <- ps_pop top waiting ;;
             r <- sp_expand F S etp (snd x) (sp, waiting') ;;
             match r with
             | inr sp' => Some (true, sp')
             | inl (sp', w') => sp_construct f F S etp sp' w'
             end
         end.
  Definition sp_fuel (F S : waut) : nat := n + a_size (wa_aut F) * a_size (wa_aut S).

  (** initialize_product<false,true,Shortest>, 86-101. *)
  Definition sp_initialize (F S : waut) (sp : sprod) : option (bool * sprod) :=
    sp_construct (sp_fuel F S) F S (Some 0%Z) sp
      (fold_left (fun w i => ps_emplace w 0%Z i) (seq 0 (a_size (pr_aut (sp_pr sp)))) (mk_pset [] [])).

  (** One product target of add_edge, 254-285; the annotation of the product edge is that of the new edge. *)
  Definition sp_target_body (F S : waut) (etp : option Z) (l : option nat) (to : nat) (w : Z) (from : nat) (s : sploop) (other_to : nat)
      : option (sploop + sprod) :=
    gp <- get_product_state n false (wa_aut F) (wa_aut S) (sp_pr (fst s)) to other_to ;;
    pr1 <- pr_add_edge (fst gp) from l (snd (snd gp)) ;;
    sp_finish etp (mk_sprod pr1 (sp_best (fst s))) (snd s) (fst (snd gp)) from l (snd (snd gp)) w.

  (** add_edge<true,false,true,Shortest>, 221-288. *)
  Definition sp_add_edge (F S : waut) (sp : sprod) (e : edge) (w : Z) (etp : option Z) : option (bool * sprod) :=
    let from := e_src e in
    let from_states := nth from (pr_fast (sp_pr sp)) [] ++ (if Nat.ltb from n then [(from, from)] else []) in
    r <- eloop (fun s (x : nat * nat) =>
           if Nat.ltb (fst x) (a_size (wa_aut S)) then
             eloop (sp_target_body F S etp (e_lab e) (e_dst e) w (snd x))
               (match e_lab e with
                | None => [fst x]
                | Some l => filter (fun t => has_label (wa_aut S) (fst x) t (Some l)) (tos (wa_aut S) (fst x))
                end) s
           else None) from_states (sp, mk_pset [] []) ;;
    match r with
    | inr sp' => Some (true, sp')
    | inl (sp', wt) => sp_construct (sp_fuel F S) F S etp sp' wt
    end.

  (** get_path_shortest, internal/PAutomaton.h 679-698: follow the back edges. [fuel] bounds the number of edges. *)
  Fixpoint back_path (fuel : nat) (sp : sprod) (q : nat) (p : apth nat) : option (apth nat) :=
    match b_find q (sp_best sp) with
    | None => Some p
    | Some (from, l, _) =>
        match fuel with
        | 0 => None
        | S f => back_path f sp from (ap_emplace p from l)
        end
    end.
  (** The path in product states; the caller maps them with get_original_ids. None of the result: not accepting (weight max). *)
  Definition path_shortest (sp : sprod) : option (option (apth nat * Z)) :=
    if has_accepting (sp_pr sp) then
      m <- min_accepting sp ;;
      p <- back_path (a_size (pr_aut (sp_pr sp))) sp (fst m) (mk_apth (fst m) []) ;;
      Some (Some (p, snd m))
    else Some None.
End ShortProduct.

(** ** The saturation *)
Section PostShort.
  Variable P : pda.
  Variable X : Type.
  (** The callback (518, 586, 650): automaton, callback state, edge, trace, edge weight, et_param. *)
  Variable et : option (waut -> X -> edge -> trace -> Z -> Z -> option (bool * X)).
  (** The element that the priority queue returns as top when [k] elements have been popped; any element with the least weight. *)
  Variable ptop : nat -> list (Z * (edge * trace)) -> nat.

  (** Members, 526-541. [h_ew] is _edge_weights (newest entry first), [h_min] is _minpath (None = max()), [h_pops] counts pops. *)
  Record ps_st := mk_ps {
    h_aut : waut;
    h_nQ : nat;
    h_qp : list ((nat * nat) * nat);
    h_min : list (option Z);
    h_ew : list (edge * (Z * Z));
    h_ws : list (Z * (edge * trace));
    h_rel1 : list edge;
    h_rel2 : list (nat * nat);
    h_found : bool;
    h_pops : nat;
    h_x : X }.

  Definition h_size (st : ps_st) : nat := a_size (wa_aut (h_aut st)).

  (** insert_rel, 616-623. *)
  Definition h_insert_rel (st : ps_st) (e : edge) : option ps_st :=
    r1 <- (if Nat.leb (pd_n P) (e_src e)
           then if Nat.ltb (e_src e) (h_size st) then Some (e :: h_rel1 st) else None
           else Some (h_rel1 st)) ;;
    r2 <- (match e_lab e with
           | None => if Nat.leb (h_nQ st) (e_dst e)
                     then if Nat.ltb (e_dst e) (h_size st) then Some ((e_dst e, e_src e) :: h_rel2 st) else None
                     else Some (h_rel2 st)
           | Some _ => Some (h_rel2 st)
           end) ;;
    Some (mk_ps (h_aut st) (h_nQ st) (h_qp st) (h_min st) (h_ew st) (h_ws st) r1 r2 (h_found st) (h_pops st) (h_x st)).

  Definition h_push (st : ps_st) (w : Z) (e : edge) (t : trace) : ps_st :=
    mk_ps (h_aut st) (h_nQ st) (h_qp st) (h_min st) (h_ew st) (h_ws st ++ [(w, (e, t))]) (h_rel1 st) (h_rel2 st) (h_found st) (h_pops st) (h_x st).
  Definition h_set_ew (st : ps_st) (e : edge) (v : Z * Z) : ps_st :=
    mk_ps (h_aut st) (h_nQ st) (h_qp st) (h_min st) ((e, v) :: h_ew st) (h_ws st) (h_rel1 st) (h_rel2 st) (h_found st) (h_pops st) (h_x st).
  Definition h_set_min (st : ps_st) (i : nat) (w : Z) : ps_st :=
    mk_ps (h_aut st) (h_nQ st) (h_qp st) (upd (h_min st) i (Some w)) (h_ew st) (h_ws st) (h_rel1 st) (h_rel2 st) (h_found st) (h_pops st) (h_x st).
  Definition h_set_aut (st : ps_st) (A : waut) : ps_st :=
    mk_ps A (h_nQ st) (h_qp st) (h_min st) (h_ew st) (h_ws st) (h_rel1 st) (h_rel2 st) (h_found st) (h_pops st) (h_x st).

  (** "_found |= _early_termination(...)" (586, 650); the callback is called even if _found is set. *)
  Definition h_et (st : ps_st) (e : edge) (t : trace) (w etp : Z) : option ps_st :=
    match et with
    | None => Some st
    | Some f => bx <- f (h_aut st) (h_x st) e t w etp ;;
        Some (mk_ps (h_aut st) (h_nQ st) (h_qp st) (h_min st) (h_ew st) (h_ws st) (h_rel1 st) (h_rel2 st) (h_found st || fst bx) (h_pops st) (snd bx))
    end.

  (** The edges of one state in the loop 574-591; the assertion 576 (no epsilon edge) is modelled as undefined. The automaton's own
      annotation is passed to the callback. *)
  Definition h_init_edge (st : ps_st) (e : edge) : option ps_st :=
    match e_lab e with
    | None => None
    | Some _ =>
        (* emplace keeps an existing entry; every edge occurs once *)
        let st1 := match w_find e (h_ew st) with None => h_set_ew st e (0%Z, 0%Z) | Some _ => st end in
        if Nat.ltb (e_src e) (pd_n P) then Some (h_push st1 0%Z e TNull)
        else
          st2 <- h_insert_rel st1 e ;;
          tr <- find_edge e (a_edges (wa_aut (h_aut st))) ;;
          h_et st2 e tr (w_of (h_aut st) e) 0%Z
    end.
  Definition h_init_state (st : ps_st) (q : nat) : option ps_st :=
    ofold (fun st t => ofold (fun st l => h_init_edge st (mk_edge q l t)) (labels_between (wa_aut (h_aut st)) q t) st) (tos (wa_aut (h_aut st)) q) st.

  (** has_negative_weight, 543-550 (for the automaton: 240-254 of PAutomaton.h). *)
  Definition negative_rules : bool := existsb (fun s => existsb (fun x => Z.ltb (r_w (fst x)) 0) (ps_rules s)) (pd_states P).
  Definition negative_edges (A : waut) : bool := existsb (fun et => Z.ltb (w_of A (fst et)) 0) (a_edges (wa_aut A)).

  (** Constructor and initialize, 515-524, 553-592. The exception of line 521 is None. *)
  Definition h_init (A : waut) (x : X) : option ps_st :=
    if negative_rules || negative_edges A then None
    else
      let am := qp_init P (wa_aut A) in
      if Nat.leb (pd_n P) (a_size (fst am)) then
        ofold h_init_state (seq 0 (a_size (fst am)))
          (mk_ps (mk_waut (fst am) (wa_w A)) (a_size (wa_aut A)) (snd am) (repeat None (a_size (fst am) - a_size (wa_aut A))) [] [] [] [] false 0 x)
      else None.

  (** update_edge_, 594-609: new state and the two flags. *)
  Definition h_update_ (st : ps_st) (e : edge) (ew ww : Z) : ps_st * (bool * bool) :=
    match w_find e (h_ew st) with
    | None => (h_set_ew st e (ew, ww), (true, true))
    | Some (b, d) =>
        let fb := Z.ltb ew b in
        let fd := Z.ltb ww d in
        (h_set_ew st e (if fb then ew else b, if fd then ww else d), (fb, fd))
    end.
  (** _minpath[q - _n_Q]; the outer None is an index out of range. *)
  Definition h_minpath (st : ps_st) (q : nat) : option (option Z) := if Nat.leb (h_nQ st) q then nth_error (h_min st) (q - h_nQ st) else None.
  (** update_edge, 610-615. _minpath[to] = max() would be absorbed by add; that never happens (see the proofs) and is modelled as undefined. *)
  Definition h_update (st : ps_st) (e : edge) (ew : Z) (t : trace) : option ps_st :=
    ww <- (if Nat.ltb (e_dst e) (h_nQ st) then Some ew
           else mo <- h_minpath st (e_dst e) ;; m <- mo ;; Some (m + ew)%Z) ;;
    let sf := h_update_ st e ew ww in
    Some (if snd (snd sf) then h_push (fst sf) ww e t else fst sf).

  (** _rel1[q - n_pda] and _rel2[q - n_Q]. *)
  Definition h_rel1_of (st : ps_st) (q : nat) : option (list edge) :=
    if Nat.leb (pd_n P) q && Nat.ltb q (h_size st) then Some (rev (filter (fun e => Nat.eqb (e_src e) q) (h_rel1 st))) else None.
  Definition h_rel2_of (st : ps_st) (q : nat) : option (list nat) :=
    if Nat.leb (h_nQ st) q && Nat.ltb q (h_size st) then Some (rev (map snd (filter (fun x => Nat.eqb (fst x) q) (h_rel2 st)))) else None.
  (** _automaton.get_edge(...)->second; None: the assertion that the edge exists (657, 693). *)
  Definition h_weight (st : ps_st) (e : edge) : option Z :=
    match find_edge e (a_edges (wa_aut (h_aut st))) with Some _ => Some (w_of (h_aut st) e) | None => None end.

  (** One rule of the loop 666-689. [wt] is t_weight, [we] is elem._weight. *)
  Definition h_rule (t : edge) (l : nat) (wt we : Z) (st : ps_st) (x : nat * (rule * labels)) : option ps_st :=
    let id := fst x in let r := fst (snd x) in let ls := snd (snd x) in
    if contains ls l then
      let tr := TPost (e_src t) id l in
      let wd := (we + r_w r)%Z in
      let wb := (wt + r_w r)%Z in
      match r_op r with
      | POP => h_update st (mk_edge (r_to r) None (e_dst t)) wb tr
      | SWAP => h_update st (mk_edge (r_to r) (Some (r_opl r)) (e_dst t)) wb tr
      | NOOP => h_update st (mk_edge (r_to r) (Some l) (e_dst t)) wb tr
      | PUSH =>
          qn <- qp_find (r_to r, r_opl r) (h_qp st) ;;
          let e1 := mk_edge (r_to r) (Some (r_opl r)) qn in
          let sf := h_update_ st e1 0%Z wd in
          mo <- h_minpath st qn ;;
          let st2 := if (match mo with None => true | Some m => Z.ltb wd m end)
                     then let st1 := h_set_min (fst sf) (qn - h_nQ st) wd in
                          if snd (snd sf) then h_push st1 wd e1 tr else st1
                     else fst sf in
          h_update st2 (mk_edge qn (Some l) (e_dst t)) wb tr
      end
    else Some st.

  (** step, 626-698. *)
  Definition h_step (st : ps_st) : option ps_st :=
    x <- nth_error (h_ws st) (ptop (h_pops st) (h_ws st)) ;;
    let we := fst x in let t := fst (snd x) in let tr := snd (snd x) in
    let st0 := mk_ps (h_aut st) (h_nQ st) (h_qp st) (h_min st) (h_ew st) (remove_at (ptop (h_pops st) (h_ws st)) (h_ws st))
                 (h_rel1 st) (h_rel2 st) (h_found st) (S (h_pops st)) (h_x st) in
    bd <- w_find t (h_ew st) ;;
    if Z.ltb (snd bd) we then Some st0
    else
      let wt := fst bd in
      if Nat.ltb (e_dst t) (pd_n P) then None
      else
        st1 <- h_insert_rel st0 t ;;
        A <- wa_add_edge (h_aut st1) t tr wt ;;
        st2 <- h_et (h_set_aut st1 A) t tr wt we ;;
        if Nat.leb (pd_n P) (e_src t) then
          if Nat.ltb (e_src t) (h_nQ st) then None
          else
            fs <- h_rel2_of st2 (e_src t) ;;
            ofold (fun st f => w <- h_weight st (mk_edge f None (e_src t)) ;;
                     h_update st (mk_edge f (e_lab t) (e_dst t)) (wt + w)%Z (TEps (e_src t))) fs st2
        else
          match e_lab t with
          | Some l =>
              s <- nth_error (pd_states P) (e_src t) ;;
              ofold (h_rule t l wt we) (enum (ps_rules s)) st2
          | None =>
              es <- h_rel1_of st2 (e_dst t) ;;
              ofold (fun st e => w <- h_weight st e ;;
                       if Nat.ltb (e_dst e) (pd_n P) then None
                       else h_update st (mk_edge (e_src t) (e_lab e) (e_dst e)) (w + wt)%Z (TEps (e_dst t))) es st2
          end.

  (** run, 705-713, with fuel. *)
  Fixpoint h_run (fuel : nat) (st : ps_st) : option (option (ps_st * bool)) :=
    match h_ws st with
    | [] => Some (Some (st, h_found st))
    | _ :: _ =>
        if (match et with Some _ => h_found st | None => false end) then Some (Some (st, true))
        else match fuel with
             | 0 => Some None
             | S f => match h_step st with None => None | Some st' => h_run f st' end
             end
    end.
End PostShort.
Arguments mk_ps {X}.
Arguments h_aut {X}. Arguments h_nQ {X}. Arguments h_qp {X}. Arguments h_min {X}. Arguments h_ew {X}. Arguments h_ws {X}.
Arguments h_rel1 {X}. Arguments h_rel2 {X}. Arguments h_found {X}. Arguments h_pops {X}. Arguments h_x {X}. Arguments h_size {X}.

(** ** Solver *)
Section ShortSolver.
  Variable P : pda.
  Variable top : list (Z * nat) -> nat.
  Variable ptop : nat -> list (Z * (edge * trace)) -> nat.

  (** A PAutomatonProduct with weights: _initial, _final, _product. *)
  Record sinst := mk_sinst { si_init : waut; si_fin : waut; si_prod : sprod }.
  Definition new_sinst (ord : nat -> list nat -> list nat) (init fin : waut) : option sinst :=
    pr <- pr_new (pd_n P) ord (wa_aut init) (wa_aut fin) ;; Some (mk_sinst init fin (mk_sprod pr [])).

  (** The callback, Solver.h 221-223: add_edge_product<true,Shortest>. *)
  Definition cb_short (other : waut) (A : waut) (sp : sprod) (e : edge) (_ : trace) (w etp : Z) : option (bool * sprod) :=
    sp_add_edge (pd_n P) top A other sp e w (Some etp).

  (** post_star_accepts<Shortest>, Solver.h 215-224. *)
  Definition post_star_short (fuel : nat) (I : sinst) : option (option (bool * sinst)) :=
    r <- sp_initialize (pd_n P) top (si_init I) (si_fin I) (si_prod I) ;;
    if fst r then done (true, mk_sinst (si_init I) (si_fin I) (snd r))
    else
      st <- h_init P sprod (Some (cb_short (si_fin I))) (si_init I) (snd r) ;;
      match h_run P sprod (Some (cb_short (si_fin I))) ptop fuel st with
      | None => None
      | Some None => Some None
      | Some (Some (st', b)) => done (b, mk_sinst (h_aut st') (si_fin I) (h_x st'))
      end.

  (** post_star<Shortest> without early termination, Solver.h 235-240. *)
  Definition post_star_short_only (fuel : nat) (A : waut) : option (option waut) :=
    st <- h_init P unit None A tt ;;
    match h_run P unit None ptop fuel st with
    | None => None
    | Some None => Some None
    | Some (Some (st', _)) => done (h_aut st')
    end.
End ShortSolver.
