(** Model of the search for shortest traces with pre*: internal::PreStarSaturation<W,ET,SHORTEST=true>
    (src/include/pdaaal/internal/PdaSaturation.h 65-337) and pre_star<Shortest>, pre_star_accepts<Shortest> (Solver.h 182-213).
    Weights are Z with exact addition (see WeightModel for the built-in types). None = undefined behaviour, a failing assertion or an exception. *)
From Coq Require Import List Arith Lia Bool ZArith.
From Verif Require Import Base Spec PdaModel AutModel PreStarModel PostStarModel SolverModel QueryModel ProductModel TraceModel UtilModel ShortModel.
Import ListNotations.

Section PreShort.
  Variable P : pda.
  Variable X : Type.
  (** The callback (62-63, 247, 325): automaton, callback state, edge, trace, edge weight, et_param (None = max()).
      None as a whole: ET = false. *)
  Variable et : option (waut -> X -> edge -> trace -> Z -> option Z -> option (bool * X)).
  (** The element that the priority queue returns as top when [k] elements have been popped; any element with the least weight. *)
  Variable ptop : nat -> list (Z * (edge * trace)) -> nat.
  (** What reading _popped[q] outside of the vector gives (line 242 reads it for every automaton state, but the vector has one entry for
      each PDA state, 108). None: undefined behaviour, as in C++. *)
  Variable oob : nat -> option bool.

  (** Members, 115-126. [k_min] is _minpath (None = max()), [k_pops] counts pops. _rel[q] and _delta_prime[q] are the entries of [k_rel]
      and [k_delta] with source q, newest first. *)
  Record pk_st := mk_pk {
    k_aut : waut;
    k_ws : list (Z * (edge * trace));
    k_rel : list edge;
    k_delta : list (nat * (nat * nat));
    k_popped : list bool;
    k_min : list (option Z);
    k_found : bool;
    k_pops : nat;
    k_x : X }.

  Definition k_size (st : pk_st) : nat := a_size (wa_aut (k_aut st)).
  Definition k_push (st : pk_st) (w : Z) (e : edge) (t : trace) : pk_st :=
    mk_pk (k_aut st) (k_ws st ++ [(w, (e, t))]) (k_rel st) (k_delta st) (k_popped st) (k_min st) (k_found st) (k_pops st) (k_x st).
  Definition k_set_aut (st : pk_st) (A : waut) : pk_st :=
    mk_pk A (k_ws st) (k_rel st) (k_delta st) (k_popped st) (k_min st) (k_found st) (k_pops st) (k_x st).
  (** _minpath[q] = w; an index out of range is excluded by the callers. *)
  Definition k_set_min (st : pk_st) (q : nat) (w : Z) : pk_st :=
    mk_pk (k_aut st) (k_ws st) (k_rel st) (k_delta st) (k_popped st) (upd (k_min st) q (Some w)) (k_found st) (k_pops st) (k_x st).
  Definition k_set_popped (st : pk_st) (q : nat) : pk_st :=
    mk_pk (k_aut st) (k_ws st) (k_rel st) (k_delta st) (upd (k_popped st) q true) (k_min st) (k_found st) (k_pops st) (k_x st).
  Definition k_set_found (st : pk_st) (b : bool) (x : X) : pk_st :=
    mk_pk (k_aut st) (k_ws st) (k_rel st) (k_delta st) (k_popped st) (k_min st) b (k_pops st) x.
  Definition k_add_rel (st : pk_st) (e : edge) : pk_st :=
    mk_pk (k_aut st) (k_ws st) (e :: k_rel st) (k_delta st) (k_popped st) (k_min st) (k_found st) (k_pops st) (k_x st).
  Definition k_add_delta (st : pk_st) (d : nat * (nat * nat)) : pk_st :=
    mk_pk (k_aut st) (k_ws st) (k_rel st) (d :: k_delta st) (k_popped st) (k_min st) (k_found st) (k_pops st) (k_x st).

  (** insert_edge, 184-201. The assertions 188-189 fail if _minpath[to] is max(). An existing edge gets the smaller weight, its trace is kept
      (197-198). *)
  Definition k_insert (st : pk_st) (e : edge) (t : trace) (w : Z) : option pk_st :=
    mo <- nth_error (k_min st) (e_dst e) ;;
    m <- mo ;;
    let res := (w + m)%Z in
    af <- emplace_edge (wa_aut (k_aut st)) e t ;;
    if snd af then
      fo <- nth_error (k_min st) (e_src e) ;;
      let st1 := k_set_aut st (mk_waut (fst af) ((e, w) :: wa_w (k_aut st))) in
      let st2 := if (match fo with None => true | Some f => Z.ltb res f end) then k_set_min st1 (e_src e) res else st1 in
      Some (k_push st2 res e t)
    else if Z.ltb w (w_of (k_aut st) e)
    then Some (k_push (k_set_aut st (mk_waut (wa_aut (k_aut st)) ((e, w) :: wa_w (k_aut st)))) res e t)
    else Some st.

  (** insert_edge_bulk, 211-221. *)
  Definition k_bulk (st : pk_st) (from : nat) (ls : labels) (to : nat) (t : trace) (w : Z) : option pk_st :=
    ofold (fun st l => k_insert st (mk_edge from (Some l) to) t w) (bulk_labels P ls) st.

  (** add_pop, 137-157. *)
  Definition k_add_pop (st : pk_st) (q : nat) : option pk_st :=
    if Nat.leb (pd_n P) q then Some st
    else
      pq <- nth_error (k_popped st) q ;;
      if (pq : bool) then Some st
      else
        s <- nth_error (pd_states P) q ;;
        st1 <- ofold (fun st pre =>
                 s' <- nth_error (pd_states P) pre ;;
                 ofold (fun st (x : nat * (rule * labels)) =>
                   match r_op (fst (snd x)) with
                   | POP => k_bulk st pre (snd (snd x)) q (TPre (fst x) None) (r_w (fst (snd x)))
                   | _ => Some st
                   end) (visited (ps_rules s') q) st) (ps_pre s) st ;;
        Some (k_set_popped st1 q).

  (** initialize, 159-181. The loop runs over the current edges of every state, also over those that add_pop inserted before. *)
  Definition k_init_edge (st : pk_st) (e : edge) : option pk_st :=
    if Nat.ltb (e_src e) (length (k_min st)) && Nat.ltb (e_dst e) (length (k_min st))
    then Some (k_push (k_set_min (k_set_min st (e_src e) 0%Z) (e_dst e) 0%Z) 0%Z e TNull) else None.
  Definition k_init_state (st : pk_st) (q : nat) : option pk_st :=
    st1 <- ofold (fun st t => ofold (fun st l => k_init_edge st (mk_edge q l t)) (labels_between (wa_aut (k_aut st)) q t) st)
             (tos (wa_aut (k_aut st)) q) st ;;
    b <- accepting (wa_aut (k_aut st1)) q ;;
    if (b : bool) then k_add_pop st1 q else Some st1.
  (** Constructor, 103-109. *)
  Definition k_init (A : waut) (x : X) : option pk_st :=
    ofold k_init_state (seq 0 (a_size (wa_aut A)))
      (mk_pk A [] [] [] (repeat false (pd_n P)) (repeat None (a_size (wa_aut A))) false 0 x).

  (** _automaton.get_edge(...)->second. None: no such edge. *)
  Definition k_stored (st : pk_st) (e : edge) : option Z :=
    match find_edge e (a_edges (wa_aut (k_aut st))) with Some _ => Some (w_of (k_aut st) e) | None => None end.
  (** get_pautomata_edge_weight, 223-228: weight_t{} without early termination. *)
  Definition k_weight (st : pk_st) (e : edge) : option Z := match et with Some _ => k_stored st e | None => Some 0%Z end.

  Definition k_rel_of (st : pk_st) (q : nat) : option (list edge) :=
    if Nat.ltb q (k_size st) then Some (rev (filter (fun e => Nat.eqb (e_src e) q) (k_rel st))) else None.
  Definition k_delta_of (st : pk_st) (q : nat) : option (list (nat * nat)) :=
    if Nat.ltb q (k_size st) then Some (rev (map snd (filter (fun d => Nat.eqb (fst d) q) (k_delta st)))) else None.

  (** Loop over _delta_prime[t._from], 253-263. [w] is the weight of t. *)
  Definition k_delta_loop (st : pk_st) (t : edge) (w : Z) : option pk_st :=
    ds <- k_delta_of st (e_src t) ;;
    ofold (fun st (d : nat * nat) =>
      rl <- get_rule P (fst d) (snd d) ;;
      if contains_lab (snd rl) (e_lab t) then
        w1 <- k_stored st (mk_edge (r_to (fst rl)) (Some (r_opl (fst rl))) (e_src t)) ;;
        k_insert st (mk_edge (fst d) (e_lab t) (e_dst t)) (TPre (snd d) (Some (e_src t))) (r_w (fst rl) + w1 + w)%Z
      else Some st) ds st.

  (** One rule in the loop over \Delta, 270-318. [pre] is pre_state. *)
  Definition k_rule (t : edge) (w : Z) (pre : nat) (st : pk_st) (x : nat * (rule * labels)) : option pk_st :=
    let id := fst x in let r := fst (snd x) in let ls := snd (snd x) in
    match r_op r with
    | POP =>
        pq <- nth_error (k_popped st) (e_src t) ;;
        if (pq : bool) then Some st else k_bulk st pre ls (e_src t) (TPre id None) (r_w r)
    | SWAP =>
        if lab_eqb (Some (r_opl r)) (e_lab t) then k_bulk st pre ls (e_dst t) (TPre id None) (w + r_w r)%Z else Some st
    | NOOP =>
        if contains_lab ls (e_lab t) then k_insert st (mk_edge pre (e_lab t) (e_dst t)) (TPre id None) (w + r_w r)%Z else Some st
    | PUSH =>
        if lab_eqb (Some (r_opl r)) (e_lab t) then
          let st1 := k_add_delta st (e_dst t, (pre, id)) in
          rs <- k_rel_of st1 (e_dst t) ;;
          ofold (fun st e =>
            if contains_lab ls (e_lab e) then
              w2 <- k_stored st e ;;
              k_insert st (mk_edge pre (e_lab e) (e_dst e)) (TPre id (Some (e_dst t))) (w2 + w + r_w r)%Z
            else Some st) rs st1
        else Some st
    end.

  (** The two calls of the callback: "_found = _early_termination(...) || _found" (247) and the final "_found = _early_termination(..., max())" (323-325). *)
  Definition k_call (st : pk_st) (e : edge) (t : trace) (w key : Z) : option pk_st :=
    match et with
    | None => Some st
    | Some f => bx <- f (k_aut st) (k_x st) e t w (Some key) ;; Some (k_set_found st (fst bx || k_found st) (snd bx))
    end.
  Definition k_flush (st : pk_st) (e : edge) (t : trace) (w : Z) : option pk_st :=
    match et, k_ws st with
    | Some f, [] => bx <- f (k_aut st) (k_x st) e t w None ;; Some (k_set_found st (fst bx) (snd bx))
    | _, _ => Some st
    end.

  (** _popped[q] in line 242. *)
  Definition k_popped_at (st : pk_st) (q : nat) : option bool :=
    if Nat.ltb q (length (k_popped st)) then nth_error (k_popped st) q else oob q.

  (** step, 233-328. *)
  Definition k_step (st : pk_st) : option pk_st :=
    x <- nth_error (k_ws st) (ptop (k_pops st) (k_ws st)) ;;
    let key := fst x in let t := fst (snd x) in let tr := snd (snd x) in
    let st0 := mk_pk (k_aut st) (remove_at (ptop (k_pops st) (k_ws st)) (k_ws st)) (k_rel st) (k_delta st) (k_popped st) (k_min st)
                 (k_found st) (S (k_pops st)) (k_x st) in
    w <- k_weight st0 t ;;
    pq <- k_popped_at st0 (e_src t) ;;
    if Nat.ltb (e_src t) (length (k_min st0)) then
      let st1 := if (pq : bool) then st0 else k_set_min st0 (e_src t) key in
      mo <- nth_error (k_min st1) (e_dst t) ;;
      if (match mo with Some m => Z.ltb (w + m) key | None => false end) then Some st1
      else
        st2 <- k_call st1 t tr w key ;;
        st3 <- k_delta_loop (k_add_rel st2 t) t w ;;
        if Nat.leb (pd_n P) (e_src t) then Some st3
        else
          s <- nth_error (pd_states P) (e_src t) ;;
          st4 <- ofold (fun st pre =>
                   s' <- nth_error (pd_states P) pre ;;
                   ofold (k_rule t w pre) (visited (ps_rules s') (e_src t)) st) (ps_pre s) st3 ;;
          k_flush (k_set_popped st4 (e_src t)) t tr w
    else None.

  (** The loop of Solver::pre_star, Solver.h 200-212. *)
  Fixpoint k_run (fuel : nat) (st : pk_st) : option (option (pk_st * bool)) :=
    match k_ws st with
    | [] => Some (Some (st, k_found st))
    | _ :: _ =>
        if (match et with Some _ => k_found st | None => false end) then Some (Some (st, true))
        else match fuel with
             | 0 => Some None
             | S f => match k_step st with None => None | Some st' => k_run f st' end
             end
    end.
End PreShort.
Arguments mk_pk {X}.
Arguments k_aut {X}. Arguments k_ws {X}. Arguments k_rel {X}. Arguments k_delta {X}. Arguments k_popped {X}. Arguments k_min {X}.
Arguments k_found {X}. Arguments k_pops {X}. Arguments k_x {X}. Arguments k_size {X}.

(** ** Solver *)
Section PreShortSolver.
  Variable P : pda.
  Variable top : list (Z * nat) -> nat.
  Variable ptop : nat -> list (Z * (edge * trace)) -> nat.
  Variable oob : nat -> option bool.

  (** pre_star<Shortest,W,ET=false>, Solver.h 196-213. *)
  Definition pre_star_short_only (fuel : nat) (A : waut) : option (option waut) :=
    st <- k_init P unit A tt ;;
    match k_run P unit None ptop oob fuel st with
    | None => None
    | Some None => Some None
    | Some (Some (st', _)) => done (k_aut st')
    end.

  (** pre_star<Shortest,W,ET=true> with a callback that never stops the search. *)
  Definition cb_never (_ : waut) (x : unit) (_ : edge) (_ : trace) (_ : Z) (_ : option Z) : option (bool * unit) := Some (false, x).
  Definition pre_star_short_full (fuel : nat) (A : waut) : option (option waut) :=
    st <- k_init P unit A tt ;;
    match k_run P unit (Some cb_never) ptop oob fuel st with
    | None => None
    | Some None => Some None
    | Some (Some (st', _)) => done (k_aut st')
    end.

  (** The callback of pre_star_accepts<Shortest>, Solver.h 185-188: add_edge_product<true,Shortest>. *)
  Definition cb_pre_short (other : waut) (A : waut) (sp : sprod) (e : edge) (_ : trace) (w : Z) (etp : option Z) : option (bool * sprod) :=
    sp_add_edge (pd_n P) top A other sp e w etp.
  (** pre_star_accepts<Shortest>(product), Solver.h 181-194. initialize_product() is called without the trace type (184), so it builds the
      product as for Trace_Type::None. *)
  Definition pre_star_short (fuel : nat) (I : sinst) : option (option (bool * sinst)) :=
    r <- initialize_product (pd_n P) false true (wa_aut (si_fin I)) (wa_aut (si_init I)) (sp_pr (si_prod I)) ;;
    let sp := mk_sprod (snd r) (sp_best (si_prod I)) in
    if fst r then done (true, mk_sinst (si_init I) (si_fin I) sp)
    else
      st <- k_init P sprod (si_fin I) sp ;;
      match k_run P sprod (Some (cb_pre_short (si_init I))) ptop oob fuel st with
      | None => None
      | Some None => Some None
      | Some (Some (st', b)) => done (b, mk_sinst (si_init I) (k_aut st') (k_x st'))
      end.

  (** pre_star_accepts<Shortest>(automaton, state, stack), Solver.h 168-179. pre_star<Shortest,W> in 177 has ET = false, its found() is false. *)
  Definition cb_single_short (state l : nat) (A : waut) (x : unit) (e : edge) (_ : trace) (_ : Z) (_ : option Z) : option (bool * unit) :=
    if Nat.eqb (e_src e) state && lab_eqb (e_lab e) (Some l)
    then b <- accepting (wa_aut A) (e_dst e) ;; Some (b, x)
    else Some (false, x).
  Definition pre_star_short_config (fuel : nat) (A : waut) (state : nat) (stack : list nat) : option (option (bool * waut)) :=
    match stack with
    | [l] =>
        match accepts (wa_aut A) fuel state stack with
        | None => None
        | Some None => Some None
        | Some (Some true) => done (true, A)
        | Some (Some false) =>
            st <- k_init P unit A tt ;;
            match k_run P unit (Some (cb_single_short state l)) ptop oob fuel st with
            | None => None
            | Some None => Some None
            | Some (Some (st', b)) => done (b, k_aut st')
            end
        end
    | _ =>
        match pre_star_short_only fuel A with
        | None => None
        | Some None => Some None
        | Some (Some A') =>
            match accepts (wa_aut A') fuel state stack with
            | None => None
            | Some None => Some None
            | Some (Some b) => done (b, A')
            end
        end
    end.
End PreShortSolver.
