(** Model of internal::PreStarSaturation<W,ET,SHORTEST=false> (src/include/pdaaal/internal/PdaSaturation.h 65-337). *)
From Coq Require Import List Arith Lia Bool ZArith.
From Verif Require Import Base Spec PdaModel AutModel.
Import ListNotations.

Section PreStar.
  (** The PDA (constant during saturation), and the state type of the early-termination callback. *)
  Variable P : pda.
  Variable X : Type.
  (** The callback (60-63, 205): gets the automaton (it captures references to it), its own state, the new edge and its
      trace. None as a whole: ET = false. None as a result: undefined behaviour inside the callback. *)
  Variable et : option (aut -> X -> edge -> trace -> option (bool * X)).

  (** Members of the class, 115-126. _rel[q] and _delta_prime[q] are the entries of [p_rel] and [p_delta] with source q,
      newest first. [p_N] is _n_automaton_states. *)
  Record pre_st := mk_pre {
    p_aut : aut;
    p_ws : list edge;                       (* std::stack: top = head *)
    p_rel : list edge;
    p_delta : list (nat * (nat * nat));     (* automaton state, (pda state, rule id) *)
    p_popped : list bool;
    p_found : bool;
    p_x : X }.

  Definition p_N (st : pre_st) : nat := a_size (p_aut st).

  (** insert_edge, 184-209 (branch 202-207). *)
  Definition pre_insert (st : pre_st) (e : edge) (t : trace) : option pre_st :=
    af <- emplace_edge (p_aut st) e t ;;
    if snd af then
      let st1 := mk_pre (fst af) (e :: p_ws st) (p_rel st) (p_delta st) (p_popped st) (p_found st) (p_x st) in
      match et with
      | None => Some st1
      | Some f =>
          if p_found st then Some st1
          else bx <- f (fst af) (p_x st) e t ;;
               Some (mk_pre (p_aut st1) (p_ws st1) (p_rel st1) (p_delta st1) (p_popped st1) (fst bx) (snd bx))
      end
    else Some st.

  (** The labels insert_edge_bulk (211-221) ranges over. *)
  Definition bulk_labels (ls : labels) : list nat := if wild ls then seq 0 (pd_nlab P) else labs ls.

  (** insert_edge_bulk, 211-221. *)
  Definition pre_bulk (st : pre_st) (from : nat) (ls : labels) (to : nat) (t : trace) : option pre_st :=
    ofold (fun st l => pre_insert st (mk_edge from (Some l) to) t) (bulk_labels ls) st.

  (** pda_rule_t<W>{state}: the default member values of internal/PDA.h 99-101 / 122-125. *)
  Definition key (q : nat) : rule := mk_rule q PUSH 0 0%Z.

  (** The rules visited by "lb = rules.lower_bound(pda_rule_t<W>{q}); while (lb != end && lb->first._to == q)" with their
      index, 141-147 and 268-273. *)
  Definition visited (rs : list (rule * labels)) (q : nat) : list (nat * (rule * labels)) :=
    take_while (fun x => Nat.eqb (r_to (fst (snd x))) q)
      (drop_while (fun x => rule_ltb (fst (snd x)) (key q)) (enum rs)).

  Definition set_popped (st : pre_st) (q : nat) : pre_st :=
    mk_pre (p_aut st) (p_ws st) (p_rel st) (p_delta st) (upd (p_popped st) q true) (p_found st) (p_x st).

  (** add_pop, 137-157. *)
  Definition add_pop (st : pre_st) (q : nat) : option pre_st :=
    if Nat.leb (pd_n P) q then Some st
    else
      pq <- nth_error (p_popped st) q ;;
      if (pq : bool) then Some st
      else
        s <- nth_error (pd_states P) q ;;
        st1 <- ofold (fun st pre =>
                 s' <- nth_error (pd_states P) pre ;;
                 ofold (fun st (x : nat * (rule * labels)) =>
                   match r_op (fst (snd x)) with
                   | POP => pre_bulk st pre (snd (snd x)) q (TPre (fst x) None)
                   | _ => Some st
                   end) (visited (ps_rules s') q) st) (ps_pre s) st ;;
        Some (set_popped st1 q).

  Definition push_ws (st : pre_st) (e : edge) : pre_st :=
    mk_pre (p_aut st) (e :: p_ws st) (p_rel st) (p_delta st) (p_popped st) (p_found st) (p_x st).

  (** initialize, 159-181 (SHORTEST = false): for every automaton state its edges are pushed, then add_pop if accepting. *)
  Definition pre_init_state (st : pre_st) (q : nat) : option pre_st :=
    let st1 := fold_left (fun st t =>
                 fold_left (fun st l => push_ws st (mk_edge q l t)) (labels_between (p_aut st) q t) st)
               (tos (p_aut st) q) st in
    b <- accepting (p_aut st1) q ;;
    if (b : bool) then add_pop st1 q else Some st1.

  (** Constructor, 103-109. *)
  Definition pre_init (A : aut) (x : X) : option pre_st :=
    ofold pre_init_state (seq 0 (a_size A))
      (mk_pre A [] [] [] (repeat false (pd_n P)) false x).

  (** _rel[q] and _delta_prime[q] in order of insertion; None = index out of range. *)
  Definition rel_of (st : pre_st) (q : nat) : option (list edge) :=
    if Nat.ltb q (p_N st) then Some (rev (filter (fun e => Nat.eqb (e_src e) q) (p_rel st))) else None.
  Definition delta_of (st : pre_st) (q : nat) : option (list (nat * nat)) :=
    if Nat.ltb q (p_N st) then Some (rev (map snd (filter (fun d => Nat.eqb (fst d) q) (p_delta st)))) else None.

  (** _pda_states[p]._rules[id], 254. *)
  Definition get_rule (p id : nat) : option (rule * labels) :=
    s <- nth_error (pd_states P) p ;; nth_error (ps_rules s) id.

  Definition add_rel (st : pre_st) (e : edge) : pre_st :=
    mk_pre (p_aut st) (p_ws st) (e :: p_rel st) (p_delta st) (p_popped st) (p_found st) (p_x st).
  Definition add_delta (st : pre_st) (d : nat * (nat * nat)) : pre_st :=
    mk_pre (p_aut st) (p_ws st) (p_rel st) (d :: p_delta st) (p_popped st) (p_found st) (p_x st).

  (** Loop over _delta_prime[t._from], 253-263. *)
  Definition pre_delta_loop (st : pre_st) (t : edge) : option pre_st :=
    ds <- delta_of st (e_src t) ;;
    ofold (fun st (d : nat * nat) =>
      rl <- get_rule (fst d) (snd d) ;;
      if contains_lab (snd rl) (e_lab t)
      then pre_insert st (mk_edge (fst d) (e_lab t) (e_dst t)) (TPre (snd d) (Some (e_src t)))
      else Some st) ds st.

  (** One rule in the loop over \Delta, 270-318. [pre] is pre_state. *)
  Definition pre_rule (t : edge) (pre : nat) (st : pre_st) (x : nat * (rule * labels)) : option pre_st :=
    let id := fst x in let r := fst (snd x) in let ls := snd (snd x) in
    match r_op r with
    | POP =>
        pq <- nth_error (p_popped st) (e_src t) ;;
        if (pq : bool) then Some st else pre_bulk st pre ls (e_src t) (TPre id None)
    | SWAP =>
        if lab_eqb (Some (r_opl r)) (e_lab t) then pre_bulk st pre ls (e_dst t) (TPre id None) else Some st
    | NOOP =>
        if contains_lab ls (e_lab t) then pre_insert st (mk_edge pre (e_lab t) (e_dst t)) (TPre id None) else Some st
    | PUSH =>
        if lab_eqb (Some (r_opl r)) (e_lab t) then
          let st1 := add_delta st (e_dst t, (pre, id)) in
          rs <- rel_of st1 (e_dst t) ;;
          ofold (fun st e =>
            if contains_lab ls (e_lab e)
            then pre_insert st (mk_edge pre (e_lab e) (e_dst e)) (TPre id (Some (e_dst t)))
            else Some st) rs st1
        else Some st
    end.

  (** step, 233-328 (SHORTEST = false). None = undefined behaviour, also for top() of an empty stack. *)
  Definition pre_step (st : pre_st) : option pre_st :=
    match p_ws st with
    | [] => None
    | t :: ws =>
        let st0 := mk_pre (p_aut st) ws (p_rel st) (p_delta st) (p_popped st) (p_found st) (p_x st) in
        if Nat.ltb (e_src t) (p_N st0) then
          let st1 := add_rel st0 t in
          st2 <- pre_delta_loop st1 t ;;
          if Nat.leb (pd_n P) (e_src t) then Some st2
          else
            s <- nth_error (pd_states P) (e_src t) ;;
            st3 <- ofold (fun st pre =>
                     s' <- nth_error (pd_states P) pre ;;
                     ofold (pre_rule t pre) (visited (ps_rules s') (e_src t)) st) (ps_pre s) st2 ;;
            Some (set_popped st3 (e_src t))
        else None
    end.

  (** The loop of Solver::pre_star, Solver.h 200-212 (with the check of found() only if ET). [None] in the outer option:
      undefined behaviour; inner [None]: out of fuel. Result: final state and the returned boolean. *)
  Fixpoint pre_run (fuel : nat) (st : pre_st) : option (option (pre_st * bool)) :=
    match p_ws st with
    | [] => Some (Some (st, p_found st))
    | _ :: _ =>
        if (match et with Some _ => p_found st | None => false end) then Some (Some (st, true))
        else match fuel with
             | 0 => Some None
             | S f => match pre_step st with None => None | Some st' => pre_run f st' end
             end
    end.
End PreStar.
Arguments mk_pre {X}.
Arguments p_aut {X}. Arguments p_ws {X}. Arguments p_rel {X}. Arguments p_delta {X}.
Arguments p_popped {X}. Arguments p_found {X}. Arguments p_x {X}. Arguments p_N {X}.
