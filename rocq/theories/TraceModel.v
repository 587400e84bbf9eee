(** Model of trace reconstruction: TraceBack (src/include/pdaaal/internal/PdaSaturation.h 1055-1158) and the trace functions of Solver.h
    262-520, for TraceInfoType::Single (Trace_Type Any). *)
From Coq Require Import List Arith Lia Bool.
From Verif Require Import Base Spec PdaModel AutModel PreStarModel SolverModel QueryModel ProductModel VerdictModel.
Import ListNotations.

(** user_rule_t(from, pre, rule): what next() returns. *)
Record rstep := mk_rstep { rs_from : nat; rs_lab : option nat; rs_rule : rule }.

(** One iteration of the loop in next(): nullopt, a rule with the new path and whether it is a post* rule, or go on (epsilon). *)
Inductive tb_res := TBNone | TBRule (post : bool) (s : rstep) (p : apth nat) | TBMore (p : apth nat).

Section TraceBack.
  Variable P : pda.
  Variable A : aut.

  (** get_trace_label, internal/PAutomaton.h 650-655; None: the edge does not exist, assert(false). *)
  Definition trace_label (e : nat * option nat * nat) : option trace :=
    find_edge (mk_edge (fst (fst e)) (snd (fst e)) (snd e)) (a_edges A).

  (** PdaSaturation.h 1104-1153. In the PUSH case of a post* rule only the state and label of the second annotation are read; an
      annotation of another kind holds no such state and label and is reported as None, as is the assertion 1151. *)
  Definition tb_body (p : apth nat) : option tb_res :=
    match ap_front_edge p with
    | None => Some TBNone
    | Some (from, l, to) =>
        t <- trace_label (from, l, to) ;;
        match t with
        | TNull => Some TBNone
        | TPre id tmp =>
            p1 <- ap_pop p ;;
            rl <- get_rule P from id ;;
            let r := fst rl in
            p2 <- match r_op r with
                  | POP => Some p1
                  | SWAP => Some (ap_emplace p1 (r_to r) (Some (r_opl r)))
                  | NOOP => Some (ap_emplace p1 (r_to r) l)
                  | PUSH => s <- tmp ;; Some (ap_emplace (ap_emplace p1 s l) (r_to r) (Some (r_opl r)))
                  end ;;
            Some (TBRule false (mk_rstep from l r) p2)
        | TEps s => p1 <- ap_pop p ;; Some (TBMore (ap_emplace (ap_emplace p1 s l) from None))
        | TPost s id lab =>
            p1 <- ap_pop p ;;
            rl <- get_rule P s id ;;
            let r := fst rl in
            if Nat.eqb from (r_to r) then
              match r_op r with
              | PUSH =>
                  e2 <- ap_front_edge p1 ;;
                  p2 <- ap_pop p1 ;;
                  t2 <- trace_label e2 ;;
                  match t2 with
                  | TPost s2 _ l2 => Some (TBRule true (mk_rstep s2 (Some l2) r) (ap_emplace p2 s2 (Some l2)))
                  | _ => None
                  end
              | _ => Some (TBRule true (mk_rstep s (Some lab) r) (ap_emplace p1 s (Some lab)))
              end
            else None
        end
    end.

  (** next(), the whole loop: nullopt or a rule, and the path as next() leaves it. *)
  Fixpoint tb_next (fuel : nat) (p : apth nat) : option (option (option (bool * rstep) * apth nat)) :=
    match fuel with
    | 0 => Some None
    | S f =>
        r <- tb_body p ;;
        match r with
        | TBNone => done (None, p)
        | TBRule post s p' => done (Some (post, s), p')
        | TBMore p' => tb_next f p'
        end
    end.

  (** The loops "while (tb.next())" of Solver.h 383-385, 428-430, 510-512: the rules with the path after each, the last path, tb.post(). *)
  Fixpoint tb_run (fuel : nat) (p : apth nat) (post : bool) (acc : list (rstep * apth nat))
      : option (option (list (rstep * apth nat) * apth nat * bool)) :=
    match fuel with
    | 0 => Some None
    | S f =>
        match tb_next fuel p with
        | None => None
        | Some None => Some None
        | Some (Some (None, p')) => done (acc, p', post)
        | Some (Some (Some (b, s), p')) => tb_run f p' (post || b) (acc ++ [(s, p')])
        end
    end.

  (** _decode_edges, Solver.h 357-369; get_symbol is the identity on label ids here. *)
  Definition decode_edges (p : apth nat) : config :=
    (ap_front p, flat_map (fun l => match l with Some x => if Nat.ltb x (pd_nlab P) then [x] else [] | None => [] end) (ap_stack p)).

  (** _get_trace, Solver.h 371-391. *)
  Definition get_trace_path (fuel : nat) (p : apth nat) : option (option (list config)) :=
    match tb_run fuel p false [] with
    | None => None
    | Some None => Some None
    | Some (Some (steps, _, post)) =>
        let tr := decode_edges p :: map (fun x => decode_edges (snd x)) steps in
        done (if (post : bool) then rev tr else tr)
    end.

  (** _get_trace_stack_path, Solver.h 505-520. *)
  Definition get_trace_stack_path (fuel : nat) (p : apth nat) : option (option (list rstep * list nat * list nat)) :=
    match tb_run fuel p false [] with
    | None => None
    | Some None => Some None
    | Some (Some (steps, p', post)) =>
        let tr := map fst steps in
        let ps := ap_path_and_stack p' in
        done (if (post : bool) then rev tr else tr, snd ps, fst ps)
    end.
End TraceBack.

Section Solver.
  Variable P : pda.
  Let n := pd_n P.

  (** get_original_ids, PAutomatonProduct.h 412-419. *)
  Definition orig_pair (pr : prod_st) (id : nat) : nat * nat := match pr_pair n pr id with Some ab => ab | None => (0, 0) end.

  (** get_trace(instance), Solver.h 261-280 (Trace_Type::Any); [A] is instance.automaton(): final after pre*, initial after post*. *)
  Definition get_trace (fuel : nat) (A : aut) (pr : prod_st) : option (option (list config)) :=
    match find_path n (pr_aut pr) (fun id => fst (orig_pair pr id)) fuel with
    | None => None
    | Some None => Some None
    | Some (Some None) => done []
    | Some (Some (Some p)) => get_trace_path P A fuel p
    end.
  Definition get_trace_pre (fuel : nat) (I : inst) := get_trace fuel (in_fin I) (in_prod I).
  Definition get_trace_post (fuel : nat) (I : inst) := get_trace fuel (in_init I) (in_prod I).

  (** get_trace_dual_search, Solver.h 282-317 (Any). The assertions 310-311 are checked; trace2.begin() + 1 needs a non-empty trace2. *)
  Definition get_trace_dual (fuel : nat) (I : inst) : option (option (list config)) :=
    match find_path n (pr_aut (in_prod I)) (orig_pair (in_prod I)) fuel with
    | None => None
    | Some None => Some None
    | Some (Some None) => done []
    | Some (Some (Some p)) =>
        f_path <- ap_remove_epsilon (snd (ap_split p)) ;;
        match get_trace_path P (in_init I) fuel (fst (ap_split p)), get_trace_path P (in_fin I) fuel f_path with
        | Some (Some t1), Some (Some t2) =>
            match rev t1, t2 with
            | c1 :: _, c2 :: t2' =>
                if Nat.eqb (fst c1) (fst c2) && Nat.eqb (length (snd c1)) (length (snd c2)) then done (t1 ++ t2') else None
            | _, _ => None
            end
        | None, _ | _, None => None
        | _, _ => Some None
        end
    end.

  (** get_trace(pda, automaton, state, stack), Solver.h 336-348. None also for path.back() of an empty path. *)
  Definition get_trace_config (fuel : nat) (A : aut) (state : nat) (stack : list nat) : option (option (list config)) :=
    match accept_path A fuel state stack with
    | None => None
    | Some None => Some None
    | Some (Some path) => p <- ap_make path (map Some stack) ;; get_trace_path P A fuel p
    end.

  (** Result of get_rule_trace_and_paths: state, rules, initial stack, final stack, path in the initial automaton, path in the final one. *)
  Definition rtrace := (nat * list rstep * list nat * list nat * list nat * list nat)%type.
  (** _get_rule_trace_and_paths, Solver.h 401-446; the outer None of the result value stands for the tuple with state max (411-413).
      The undefined trace[0] of an empty vector cannot occur there because post() is only true after a rule was found. *)
  Definition rule_trace_paths (fuel : nat) (A : aut) (p : apth (nat * nat)) : option (option rtrace) :=
    let goal := ap_path_and_stack (snd (ap_split p)) in
    match tb_run P A fuel (fst (ap_split p)) false [] with
    | None => None
    | Some None => Some None
    | Some (Some (steps, p', post)) =>
        let ps := ap_path_and_stack p' in
        if (post : bool) then
          match rev (map fst steps) with
          | [] => None
          | s :: _ => done (rs_from s, rev (map fst steps), snd ps, snd goal, fst ps, fst goal)
          end
        else done (fst (ap_front p), map fst steps, snd goal, snd ps, fst goal, fst ps)
    end.
  Definition get_rule_trace (fuel : nat) (A : aut) (pr : prod_st) : option (option (option rtrace)) :=
    match find_path n (pr_aut pr) (orig_pair pr) fuel with
    | None => None
    | Some None => Some None
    | Some (Some None) => done None
    | Some (Some (Some p)) =>
        match rule_trace_paths fuel A p with None => None | Some None => Some None | Some (Some r) => done (Some r) end
    end.
  Definition get_rule_trace_pre (fuel : nat) (I : inst) := get_rule_trace fuel (in_fin I) (in_prod I).
  Definition get_rule_trace_post (fuel : nat) (I : inst) := get_rule_trace fuel (in_init I) (in_prod I).

  (** The dual variant, Solver.h 448-490: its argument is a std::optional made from an AutomatonPath, so it always has a value; a null path
      is then split and looked up, which is undefined. trace[0] of an empty trace is undefined as well. *)
  Definition get_rule_trace_dual (fuel : nat) (I : inst) : option (option rtrace) :=
    match find_path n (pr_aut (in_prod I)) (orig_pair (in_prod I)) fuel with
    | None => None
    | Some None => Some None
    | Some (Some None) => None
    | Some (Some (Some p)) =>
        f_path <- ap_remove_epsilon (snd (ap_split p)) ;;
        match get_trace_stack_path P (in_init I) fuel (fst (ap_split p)), get_trace_stack_path P (in_fin I) fuel f_path with
        | Some (Some (t1, st1, pa1)), Some (Some (t2, st2, pa2)) =>
            match t1 ++ t2 with
            | [] => None
            | s :: _ => done (rs_from s, t1 ++ t2, st1, st2, pa1, pa2)
            end
        | None, _ | _, None => None
        | _, _ => Some None
        end
    end.
End Solver.
