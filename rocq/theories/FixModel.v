(** Model of the fixed-point computations for trace types ShortestFixedPoint and Longest: fixed_point_workset
    (src/include/pdaaal/utils/workset.h), PreStarFixedPointSaturation and PostStarFixedPointSaturation (internal/PdaSaturation.h 716-1060),
    PAutomatonFixedPoint (internal/PAutomatonAlgorithms.h 35-127) and pre_star_fixed_point, post_star_fixed_point (Solver.h 46-61).
    Weights are Z with exact addition and the value bottom (see WeightModel for the built-in types).
    None = undefined behaviour or a failing assertion. *)
From Coq Require Import List Arith Lia Bool ZArith.
From Verif Require Import Base Spec PdaModel AutModel PreStarModel PostStarModel SolverModel ProductModel UtilModel ShortModel.
Import ListNotations.

(** ** fixed_point_workset, workset.h 36-90 *)
(** Members, 38-42. [fw_ws] is _workset with its back first, [fw_next] is _next_workset in order; [fw_d] holds the members of the derived class. *)
Record fwst (D E : Type) := mk_fw { fw_done : bool; fw_limit : nat; fw_rounds : nat; fw_ws : list E; fw_next : list E; fw_d : D }.
Arguments mk_fw {D E}. Arguments fw_done {D E}. Arguments fw_limit {D E}. Arguments fw_rounds {D E}. Arguments fw_ws {D E}. Arguments fw_next {D E}. Arguments fw_d {D E}.

Section Workset.
  Variables D E : Type.
  (** std::sort and std::unique for enforce_set (54-57), nothing otherwise. *)
  Variable norm : list E -> list E.
  (** step_with<change_is_bottom> of the derived class. *)
  Variable step_with : bool -> fwst D E -> E -> option (fwst D E * bool).

  Definition fw_set_done (st : fwst D E) : fwst D E := mk_fw true (fw_limit st) (fw_rounds st) (fw_ws st) (fw_next st) (fw_d st).
  (** The part of step after a refill of the workset, 61-68. *)
  Definition fw_go (b : bool) (st : fwst D E) : option (fwst D E) :=
    match fw_ws st with
    | [] => None
    | c :: ws =>
        r <- step_with b (mk_fw (fw_done st) (fw_limit st) (fw_rounds st) ws (fw_next st) (fw_d st)) c ;;
        Some (if (snd r : bool) then fst r else fw_set_done (fst r))
    end.
  (** step, 46-69. *)
  Definition fw_step (b : bool) (st : fwst D E) : option (fwst D E) :=
    match fw_ws st with
    | [] =>
        match fw_next st with
        | [] => Some (mk_fw true (fw_limit st) (S (fw_rounds st)) [] [] (fw_d st))
        | _ => fw_go b (mk_fw (fw_done st) (fw_limit st) (S (fw_rounds st)) (rev (norm (fw_next st))) [] (fw_d st))
        end
    | _ => fw_go b st
    end.
  (** done, 76-78. *)
  Definition fw_is_done (st : fwst D E) : bool := fw_done st || Nat.eqb (fw_rounds st) (fw_limit st).
  (** The loops of finalize (72-74) and run (80-82). *)
  Fixpoint fw_loop (b : bool) (fuel : nat) (st : fwst D E) : option (option (fwst D E)) :=
    if fw_is_done st then Some (Some st)
    else match fuel with
         | 0 => Some None
         | S f => match fw_step b st with None => None | Some st' => fw_loop b f st' end
         end.
  (** finalize, 70-75, and run, 79-84. *)
  Definition fw_finalize (fuel : nat) (st : fwst D E) : option (option (fwst D E)) :=
    fw_loop true fuel (mk_fw (fw_done st) (fw_limit st) 0 (fw_ws st) (fw_next st) (fw_d st)).
  Definition fw_run (fuel : nat) (st : fwst D E) : option (option (fwst D E)) :=
    match fw_loop false fuel st with
    | Some (Some st') => fw_finalize fuel st'
    | r => r
    end.
End Workset.

(** ** Weights: solver_weight<W,trace_type>, Weight.h. None is bottom(); [mx] tells whether larger is better (Longest). max() does not occur in the saturations. *)
Definition fwt := option Z.
Definition f_add (a b : fwt) : fwt := match a, b with Some x, Some y => Some (x + y)%Z | _, _ => None end.
Definition f_less (mx : bool) (a b : fwt) : bool :=
  match a, b with
  | None, Some _ => true
  | Some x, Some y => if mx then Z.ltb y x else Z.ltb x y
  | _, None => false
  end.

(** PAutomaton<W,TraceInfoType::Pair>: edges carry a pair of traces and a weight. The first traces are those of [fa_aut]; the second traces and the
    weights are kept beside it, newest entry first. An edge without entry has the default trace and weight zero. *)
Record faut := mk_faut { fa_aut : aut; fa_w : list (edge * fwt); fa_snd : list (edge * trace) }.
Definition fa_weight (A : faut) (e : edge) : fwt := match w_find e (fa_w A) with Some w => w | None => Some 0%Z end.
Definition fa_trace2 (A : faut) (e : edge) : trace := match w_find e (fa_snd A) with Some t => t | None => TNull end.
(** get_edge(...)->second. None as a whole: no such edge. *)
Definition fa_get (A : faut) (e : edge) : option fwt := match find_edge e (a_edges (fa_aut A)) with Some _ => Some (fa_weight A e) | None => None end.

(** temp_edge_t::operator<, PdaSaturation.h 46-48, and std::sort with std::unique for it. *)
Definition edge_ltb (a b : edge) : bool :=
  Nat.ltb (e_src a) (e_src b) || (Nat.eqb (e_src a) (e_src b) && (lab_ltb (e_lab a) (e_lab b) || (lab_eqb (e_lab a) (e_lab b) && Nat.ltb (e_dst a) (e_dst b)))).
Fixpoint edge_insert (e : edge) (l : list edge) : list edge :=
  match l with
  | [] => [e]
  | x :: l' => if edge_eqb x e then l else if edge_ltb x e then x :: edge_insert e l' else e :: l
  end.
Definition sort_edges (l : list edge) : list edge := fold_right edge_insert [] l.

Section PreFix.
  Variable P : pda.
  Variable mx : bool.

  (** Members, 782-793. _rel[q] and _delta_prime[q] are the entries of [x_rel] (newest first) and [x_delta] (in order) with source q. *)
  Record xd := mk_xd { x_aut : faut; x_rel : list edge; x_delta : list (nat * (nat * nat)); x_added : list bool; x_count : nat }.
  Notation xst := (fwst xd edge).
  Definition x_set (st : xst) (d : xd) : xst := mk_fw (fw_done st) (fw_limit st) (fw_rounds st) (fw_ws st) (fw_next st) d.
  (** emplace, workset.h 86-89. *)
  Definition x_emplace (st : xst) (e : edge) : xst := mk_fw (fw_done st) (fw_limit st) (fw_rounds st) (fw_ws st) (fw_next st ++ [e]) (fw_d st).
  Definition x_set_limit (st : xst) (k : nat) : xst := mk_fw (fw_done st) k (fw_rounds st) (fw_ws st) (fw_next st) (fw_d st).

  (** update_edge, 726-754. [b] is change_is_bottom: then the edge must exist (731-732). *)
  Definition x_update (b : bool) (st : xst) (e : edge) (w : fwt) (t : trace) : option xst :=
    let d := fw_d st in let A := x_aut d in
    if b then
      old <- fa_get A e ;;
      if f_less mx w old
      then Some (x_emplace (x_set st (mk_xd (mk_faut (fa_aut A) ((e, None) :: fa_w A) ((e, t) :: fa_snd A)) (x_rel d) (x_delta d) (x_added d) (x_count d))) e)
      else Some st
    else
      af <- emplace_edge (fa_aut A) e t ;;
      if snd af then
        Some (x_emplace (x_set_limit (x_set st (mk_xd (mk_faut (fst af) ((e, w) :: fa_w A) ((e, t) :: fa_snd A)) (e :: x_rel d) (x_delta d) (x_added d) (S (x_count d))))
                          (S (x_count d))) e)
      else if f_less mx w (fa_weight A e)
      then Some (x_emplace (x_set st (mk_xd (mk_faut (fa_aut A) ((e, w) :: fa_w A) ((e, t) :: fa_snd A)) (x_rel d) (x_delta d) (x_added d) (x_count d))) e)
      else Some st.
  (** update_edge_bulk, 755-766. *)
  Definition x_bulk (b : bool) (st : xst) (from : nat) (ls : labels) (to : nat) (w : fwt) (t : trace) : option xst :=
    ofold (fun st l => x_update b st (mk_edge from (Some l) to) w t) (bulk_labels P ls) st.

  Definition x_set_added (st : xst) (q : nat) : xst :=
    let d := fw_d st in x_set st (mk_xd (x_aut d) (x_rel d) (x_delta d) (upd (x_added d) q true) (x_count d)).
  (** add_pop, 795-815. *)
  Definition x_add_pop (st : xst) (q : nat) : option xst :=
    if Nat.leb (pd_n P) q then Some st
    else
      aq <- nth_error (x_added (fw_d st)) q ;;
      if (aq : bool) then Some st
      else
        s <- nth_error (pd_states P) q ;;
        ofold (fun st pre =>
          s' <- nth_error (pd_states P) pre ;;
          ofold (fun st (x : nat * (rule * labels)) =>
            match r_op (fst (snd x)) with
            | POP => x_bulk false st pre (snd (snd x)) q (Some (r_w (fst (snd x)))) (TPre (fst x) None)
            | _ => Some st
            end) (visited (ps_rules s') q) st) (ps_pre s) (x_set_added st q).

  (** initialize, 817-833. The assertion 821: the automaton has default traces and weights zero. *)
  Definition x_init_edge (st : xst) (e : edge) : option xst :=
    let d := fw_d st in
    match find_edge e (a_edges (fa_aut (x_aut d))), fa_trace2 (x_aut d) e, fa_weight (x_aut d) e with
    | Some TNull, TNull, Some 0%Z =>
        if Nat.ltb (e_src e) (a_size (fa_aut (x_aut d)))
        then Some (x_emplace (x_set st (mk_xd (x_aut d) (e :: x_rel d) (x_delta d) (x_added d) (S (x_count d)))) e) else None
    | _, _, _ => None
    end.
  Definition x_init_state (st : xst) (q : nat) : option xst :=
    ofold (fun st t => ofold (fun st l => x_init_edge st (mk_edge q l t)) (labels_between (fa_aut (x_aut (fw_d st))) q t) st) (tos (fa_aut (x_aut (fw_d st))) q) st.
  (** Constructor, 768-774: the round limit given to the base class is replaced at the end of initialize (832). *)
  Definition x_init (A : faut) : option xst :=
    st1 <- ofold x_init_state (seq 0 (a_size (fa_aut A))) (mk_fw false 0 0 [] [] (mk_xd A [] [] (repeat false (pd_n P)) 0)) ;;
    st2 <- ofold (fun st q => b <- accepting (fa_aut (x_aut (fw_d st))) q ;; if (b : bool) then x_add_pop st q else Some st) (seq 0 (a_size (fa_aut A))) st1 ;;
    Some (x_set_limit st2 (x_count (fw_d st2))).

  Definition x_size (st : xst) : nat := a_size (fa_aut (x_aut (fw_d st))).
  Definition x_rel_of (st : xst) (q : nat) : option (list edge) :=
    if Nat.ltb q (x_size st) then Some (rev (filter (fun e => Nat.eqb (e_src e) q) (x_rel (fw_d st)))) else None.
  Definition x_delta_of (st : xst) (q : nat) : option (list (nat * nat)) :=
    if Nat.ltb q (x_size st) then Some (map snd (filter (fun d => Nat.eqb (fst d) q) (x_delta (fw_d st)))) else None.
  (** _delta_prime[q].emplace(pre, id) (vector_set): sorted, without duplicates. *)
  Definition d_ltb (a b : nat * (nat * nat)) : bool :=
    Nat.ltb (fst a) (fst b) || (Nat.eqb (fst a) (fst b) && (Nat.ltb (fst (snd a)) (fst (snd b)) ||
      (Nat.eqb (fst (snd a)) (fst (snd b)) && Nat.ltb (snd (snd a)) (snd (snd b))))).
  Definition d_eqb (a b : nat * (nat * nat)) : bool := Nat.eqb (fst a) (fst b) && Nat.eqb (fst (snd a)) (fst (snd b)) && Nat.eqb (snd (snd a)) (snd (snd b)).
  Fixpoint d_insert (e : nat * (nat * nat)) (l : list (nat * (nat * nat))) : list (nat * (nat * nat)) :=
    match l with
    | [] => [e]
    | x :: l' => if d_eqb x e then l else if d_ltb x e then x :: d_insert e l' else e :: l
    end.
  Definition x_add_delta (st : xst) (e : nat * (nat * nat)) : xst :=
    let d := fw_d st in x_set st (mk_xd (x_aut d) (x_rel d) (d_insert e (x_delta d)) (x_added d) (x_count d)).

  (** Loop over _delta_prime[t._from], 841-850. [w] is the weight of t. *)
  Definition x_delta_loop (b : bool) (st : xst) (t : edge) (w : fwt) : option xst :=
    ds <- x_delta_of st (e_src t) ;;
    ofold (fun st (d : nat * nat) =>
      rl <- get_rule P (fst d) (snd d) ;;
      if contains_lab (snd rl) (e_lab t) then
        w1 <- fa_get (x_aut (fw_d st)) (mk_edge (r_to (fst rl)) (Some (r_opl (fst rl))) (e_src t)) ;;
        x_update b st (mk_edge (fst d) (e_lab t) (e_dst t)) (f_add (f_add (Some (r_w (fst rl))) w1) w) (TPre (snd d) (Some (e_src t)))
      else Some st) ds st.
  (** One rule, 855-895. *)
  Definition x_rule (b : bool) (t : edge) (w : fwt) (pre : nat) (st : xst) (x : nat * (rule * labels)) : option xst :=
    let id := fst x in let r := fst (snd x) in let ls := snd (snd x) in
    match r_op r with
    | POP =>
        aq <- nth_error (x_added (fw_d st)) (e_src t) ;;
        if (aq : bool) then Some st else x_bulk false st pre ls (e_src t) (Some (r_w r)) (TPre id None)
    | SWAP =>
        if lab_eqb (Some (r_opl r)) (e_lab t) then x_bulk b st pre ls (e_dst t) (f_add (Some (r_w r)) w) (TPre id None) else Some st
    | NOOP =>
        if contains_lab ls (e_lab t) then x_update b st (mk_edge pre (e_lab t) (e_dst t)) (f_add (Some (r_w r)) w) (TPre id None) else Some st
    | PUSH =>
        if lab_eqb (Some (r_opl r)) (e_lab t) then
          let wt := f_add (Some (r_w r)) w in
          let st1 := x_add_delta st (e_dst t, (pre, id)) in
          rs <- x_rel_of st1 (e_dst t) ;;
          ofold (fun st e =>
            if contains_lab ls (e_lab e) then
              w2 <- fa_get (x_aut (fw_d st)) e ;;
              x_update b st (mk_edge pre (e_lab e) (e_dst e)) (f_add wt w2) (TPre id (Some (e_dst t)))
            else Some st) rs st1
        else Some st
    end.
  (** step_with, 836-899. *)
  Definition x_step_with (b : bool) (st : xst) (t : edge) : option (xst * bool) :=
    w <- fa_get (x_aut (fw_d st)) t ;;
    st1 <- x_delta_loop b st t w ;;
    if Nat.leb (pd_n P) (e_src t) then Some (st1, true)
    else
      s <- nth_error (pd_states P) (e_src t) ;;
      st2 <- ofold (fun st pre =>
               s' <- nth_error (pd_states P) pre ;;
               ofold (x_rule b t w pre) (visited (ps_rules s') (e_src t)) st) (ps_pre s) st1 ;;
      Some (x_set_added st2 (e_src t), true).

  (** Solver::pre_star_fixed_point, Solver.h 46-50. *)
  Definition pre_star_fixed_point (fuel : nat) (A : faut) : option (option faut) :=
    st <- x_init A ;;
    match fw_run xd edge sort_edges x_step_with fuel st with
    | None => None
    | Some None => Some None
    | Some (Some st') => done (x_aut (fw_d st'))
    end.
End PreFix.

Section PostFix.
  Variable P : pda.
  Variable mx : bool.

  (** Members, 924-935. [y_rel1] and [y_rel2] as in PostStarModel. *)
  Record yd := mk_yd { y_aut : faut; y_nQ : nat; y_qp : list ((nat * nat) * nat); y_rel1 : list edge; y_rel2 : list (nat * nat); y_count : nat }.
  Notation yst := (fwst yd edge).
  Definition y_set (st : yst) (d : yd) : yst := mk_fw (fw_done st) (fw_limit st) (fw_rounds st) (fw_ws st) (fw_next st) d.
  Definition y_emplace (st : yst) (e : edge) : yst := mk_fw (fw_done st) (fw_limit st) (fw_rounds st) (fw_ws st) (fw_next st ++ [e]) (fw_d st).
  Definition y_set_limit (st : yst) (k : nat) : yst := mk_fw (fw_done st) k (fw_rounds st) (fw_ws st) (fw_next st) (fw_d st).

  (** insert_rel, 973-980. *)
  Definition y_insert_rel (d : yd) (e : edge) : option yd :=
    r1 <- (if Nat.leb (pd_n P) (e_src e)
           then if Nat.ltb (e_src e) (a_size (fa_aut (y_aut d))) then Some (e :: y_rel1 d) else None
           else Some (y_rel1 d)) ;;
    r2 <- (match e_lab e with
           | None => if Nat.leb (y_nQ d) (e_dst e)
                     then if Nat.ltb (e_dst e) (a_size (fa_aut (y_aut d))) then Some ((e_dst e, e_src e) :: y_rel2 d) else None
                     else Some (y_rel2 d)
           | Some _ => Some (y_rel2 d)
           end) ;;
    Some (mk_yd (y_aut d) (y_nQ d) (y_qp d) r1 r2 (y_count d)).

  (** update_edge, 982-1009; the flag tells whether the edge changed. Only edges from PDA states enter the workset. *)
  Definition y_update (b : bool) (st : yst) (e : edge) (w : fwt) (t : trace) : option (yst * bool) :=
    let d := fw_d st in let A := y_aut d in
    let queue st := if Nat.ltb (e_src e) (pd_n P) then y_emplace st e else st in
    if b then
      old <- fa_get A e ;;
      if f_less mx w old
      then Some (queue (y_set st (mk_yd (mk_faut (fa_aut A) ((e, None) :: fa_w A) ((e, t) :: fa_snd A)) (y_nQ d) (y_qp d) (y_rel1 d) (y_rel2 d) (y_count d))), true)
      else Some (st, false)
    else
      af <- emplace_edge (fa_aut A) e t ;;
      if snd af then
        d' <- y_insert_rel (mk_yd (mk_faut (fst af) ((e, w) :: fa_w A) ((e, t) :: fa_snd A)) (y_nQ d) (y_qp d) (y_rel1 d) (y_rel2 d) (S (y_count d))) e ;;
        Some (queue (y_set_limit (y_set st d') (S (y_count d))), true)
      else if f_less mx w (fa_weight A e)
      then Some (queue (y_set st (mk_yd (mk_faut (fa_aut A) ((e, w) :: fa_w A) ((e, t) :: fa_snd A)) (y_nQ d) (y_qp d) (y_rel1 d) (y_rel2 d) (y_count d))), true)
      else Some (st, false).

  (** initialize, 937-971. The states of _q_prime are added as in PostStarModel (qp_init); edges from PDA states enter the workset. *)
  Definition y_init_state (st : yst) (q : nat) : option yst :=
    ofold (fun st t =>
      ofold (fun st l =>
        match l with
        | None => None
        | Some _ =>
            if Nat.ltb q (pd_n P)
            then let d := fw_d st in Some (y_emplace (y_set st (mk_yd (y_aut d) (y_nQ d) (y_qp d) (y_rel1 d) (y_rel2 d) (S (y_count d)))) (mk_edge q l t))
            else d' <- y_insert_rel (fw_d st) (mk_edge q l t) ;; Some (y_set st d')
        end) (labels_between (fa_aut (y_aut (fw_d st))) q t) st) (tos (fa_aut (y_aut (fw_d st))) q) st.
  Definition y_init (A : faut) : option yst :=
    let am := qp_init P (fa_aut A) in
    if Nat.leb (pd_n P) (a_size (fst am)) then
      st <- ofold y_init_state (seq 0 (a_size (fst am))) (mk_fw false 0 0 [] [] (mk_yd (mk_faut (fst am) (fa_w A) (fa_snd A)) (a_size (fa_aut A)) (snd am) [] [] 0)) ;;
      Some (y_set_limit st (y_count (fw_d st)))
    else None.

  Definition y_rel1_of (st : yst) (q : nat) : option (list edge) :=
    if Nat.leb (pd_n P) q && Nat.ltb q (a_size (fa_aut (y_aut (fw_d st))))
    then Some (rev (filter (fun e => Nat.eqb (e_src e) q) (y_rel1 (fw_d st)))) else None.
  Definition y_rel2_of (st : yst) (q : nat) : option (list nat) :=
    if Nat.leb (y_nQ (fw_d st)) q && Nat.ltb q (a_size (fa_aut (y_aut (fw_d st))))
    then Some (rev (map snd (filter (fun x => Nat.eqb (fst x) q) (y_rel2 (fw_d st))))) else None.

  (** One rule, 1022-1051. [l] is t._label, [w] the weight of t. In the loop 1043-1046 the weight wb is used for the edge from q_new, also
      when the update before has set that edge to bottom. *)
  Definition y_rule (b : bool) (t : edge) (l : nat) (w : fwt) (st : yst) (x : nat * (rule * labels)) : option yst :=
    let id := fst x in let r := fst (snd x) in let ls := snd (snd x) in
    if contains ls l then
      let tr := TPost (e_src t) id l in
      let wb := f_add w (Some (r_w r)) in
      match r_op r with
      | POP => u <- y_update b st (mk_edge (r_to r) None (e_dst t)) wb tr ;; Some (fst u)
      | SWAP => u <- y_update b st (mk_edge (r_to r) (Some (r_opl r)) (e_dst t)) wb tr ;; Some (fst u)
      | NOOP => u <- y_update b st (mk_edge (r_to r) (Some l) (e_dst t)) wb tr ;; Some (fst u)
      | PUSH =>
          qn <- qp_find (r_to r, r_opl r) (y_qp (fw_d st)) ;;
          u1 <- y_update b st (mk_edge (r_to r) (Some (r_opl r)) qn) (Some 0%Z) tr ;;
          u2 <- y_update b (fst u1) (mk_edge qn (Some l) (e_dst t)) wb tr ;;
          if snd u2 then
            fs <- y_rel2_of (fst u2) qn ;;
            ofold (fun st f =>
              w1 <- fa_get (y_aut (fw_d st)) (mk_edge f None qn) ;;
              u <- y_update b st (mk_edge f (Some l) (e_dst t)) (f_add wb w1) (TEps qn) ;; Some (fst u)) fs (fst u2)
          else Some (fst u2)
      end
    else Some st.
  (** step_with, 1012-1059. The assertions 1014-1015. *)
  Definition y_step_with (b : bool) (st : yst) (t : edge) : option (yst * bool) :=
    if Nat.ltb (e_src t) (pd_n P) && Nat.leb (pd_n P) (e_dst t) then
      w <- fa_get (y_aut (fw_d st)) t ;;
      st' <- match e_lab t with
             | Some l => s <- nth_error (pd_states P) (e_src t) ;; ofold (y_rule b t l w) (enum (ps_rules s)) st
             | None =>
                 es <- y_rel1_of st (e_dst t) ;;
                 ofold (fun st e =>
                   w1 <- fa_get (y_aut (fw_d st)) e ;;
                   u <- y_update b st (mk_edge (e_src t) (e_lab e) (e_dst e)) (f_add w1 w) (TEps (e_dst t)) ;; Some (fst u)) es st
             end ;;
      Some (st', true)
    else None.

  (** Solver::post_star_fixed_point, Solver.h 57-61. *)
  Definition post_star_fixed_point (fuel : nat) (A : faut) : option (option faut) :=
    st <- y_init A ;;
    match fw_run yd edge sort_edges y_step_with fuel st with
    | None => None
    | Some None => Some None
    | Some (Some st') => done (y_aut (fw_d st'))
    end.
End PostFix.

(** ** PAutomatonFixedPoint: least weight of an accepted path *)
Section PathFix.
  Variable n : nat.
  Variable mx : bool.
  Variable A : faut.

  (** state_info, PAutomatonAlgorithms.h 42-49. A weight of None is max(). The pairs (state, label) are (first_)predecessor and (first_)label;
      None as a whole: uninitialized_state; Some None: no_state. *)
  Record sinfo := mk_si { si_w : option fwt; si_first : option (option (nat * option nat)); si_pred : option (option (nat * option nat)); si_inq : bool }.
  (** Members, 50-52. *)
  Record zd := mk_zd { z_states : list sinfo; z_min : option nat }.
  Notation zst := (fwst zd nat).
  Definition z_set (st : zst) (d : zd) : zst := mk_fw (fw_done st) (fw_limit st) (fw_rounds st) (fw_ws st) (fw_next st) d.

  (** solverW::less with max(), and solverW::add(current_weight, w) for a weight that is not max(). *)
  Definition z_less (a : fwt) (b : option fwt) : bool := match b with None => true | Some b => f_less mx a b end.

  (** initialize, 61-69, and the constructor, 54-58. *)
  Definition z_init : option zst :=
    if Nat.leb n (a_size (fa_aut A)) then
      Some (mk_fw false (a_size (fa_aut A)) 0 [] (seq 0 n)
             (mk_zd (repeat (mk_si (Some (Some 0%Z)) (Some None) (Some None) true) n ++ repeat (mk_si None None None false) (a_size (fa_aut A) - n)) None))
    else None.

  (** std::min_element over the labels of one target, 87: the first label of least weight. *)
  Fixpoint min_lab (best : option nat * fwt) (q t : nat) (ls : list (option nat)) : option nat * fwt :=
    match ls with
    | [] => best
    | l :: ls' => let w := fa_weight A (mk_edge q l t) in min_lab (if f_less mx w (snd best) then (l, w) else best) q t ls'
    end.
  (** One target of the loop 85-107. [current_weight] is a reference, so it is read again. *)
  Definition z_target (b : bool) (c : nat) (st : zst) (t : nat) : option zst :=
    match labels_between (fa_aut A) c t with
    | [] => Some st
    | l :: ls =>
        let lw := min_lab (l, fa_weight A (mk_edge c l t)) c t ls in
        sc <- nth_error (z_states (fw_d st)) c ;;
        cw <- si_w sc ;;
        sto <- nth_error (z_states (fw_d st)) t ;;
        let tw := f_add cw (snd lw) in
        if z_less tw (si_w sto) then
          let s' := mk_si (Some (if b then None else tw))
                          (match si_first sto with None => Some (Some (c, fst lw)) | f => f end)
                          (Some (Some (c, fst lw))) true in
          let st1 := z_set st (mk_zd (upd (z_states (fw_d st)) t s') (z_min (fw_d st))) in
          Some (if si_inq sto then st1 else mk_fw (fw_done st1) (fw_limit st1) (fw_rounds st1) (fw_ws st1) (fw_next st1 ++ [t]) (fw_d st1))
        else Some st
    end.
  (** step_with, 72-109. A state in the workset has a weight that is not max(). *)
  Definition z_step_with (b : bool) (st : zst) (c : nat) : option (zst * bool) :=
    sc <- nth_error (z_states (fw_d st)) c ;;
    cw <- si_w sc ;;
    acc <- accepting (fa_aut A) c ;;
    let st1 := z_set st (mk_zd (upd (z_states (fw_d st)) c (mk_si (si_w sc) (si_first sc) (si_pred sc) false)) (z_min (fw_d st))) in
    let loop st := st' <- ofold (z_target b c) (tos (fa_aut A) c) st ;; Some (st', true) in
    if (acc : bool) then
      match cw with
      | None => Some (z_set st1 (mk_zd (z_states (fw_d st1)) (Some c)), false)
      | Some _ =>
          better <- match z_min (fw_d st1) with
                    | None => Some true
                    | Some m => sm <- nth_error (z_states (fw_d st1)) m ;; Some (z_less cw (si_w sm))
                    end ;;
          loop (if (better : bool) then z_set st1 (mk_zd (z_states (fw_d st1)) (Some c)) else st1)
      end
    else loop st1.

  Definition fixed_point_paths (fuel : nat) : option (option zd) :=
    st <- z_init ;;
    match fw_run zd nat (fun l => l) z_step_with fuel st with
    | None => None
    | Some None => Some None
    | Some (Some st') => done (fw_d st')
    end.
  (** not_accepting, 110-112, and get_weight, 113-116: None: no accepting state was reached; Some None: bottom (is_infinite, 117-119). *)
  Definition z_weight (d : zd) : option (option fwt) :=
    match z_min d with
    | None => Some None
    | Some m => s <- nth_error (z_states d) m ;; w <- si_w s ;; Some (Some w)
    end.
End PathFix.
