(** Model of the removal of useless rules: src/include/pdaaal/internal/Reducer.h and Reducer.cpp. None = undefined behaviour or a
    failing assertion; Some None = the fuel of a loop is used up. *)
From Coq Require Import List Arith Bool ZArith.
From Verif Require Import Base PdaModel ContainersModel SolverModel.
Import ListNotations.

(** Sequencing of computations with fuel. *)
Definition lbind {A B} (m : option (option A)) (f : A -> option (option B)) : option (option B) :=
  match m with None => None | Some None => Some None | Some (Some x) => f x end.

(** ** Approximation of the stacks at a state *)

(** tos_t, Reducer.h 38-62: _tos, _stack and the two bits TOS, BOS of _in_waiting (NOT_IN_STACK: neither, BOTH: both). *)
Record tos_t := mk_tos { t_tos : list nat; t_stk : list nat; t_wt : bool; t_wb : bool }.
Definition tos0 : tos_t := mk_tos [] [] false false.

(** update_state, Reducer.cpp 33-51. *)
Definition update_state (t : tos_t) (c : bool * bool) : tos_t * bool :=
  if t_wt t && t_wb t then (t, false)
  else let wt := t_wt t || fst c in let wb := t_wb t || snd c in
       (mk_tos (t_tos t) (t_stk t) wt wb, negb (Bool.eqb wt (t_wt t) && Bool.eqb wb (t_wb t))).

(** The merge loop of forward_stack, Reducer.cpp 65-79: [lid] and [pid] are what is left of the two vectors from the iterators on, and
    the result is the new content from [lid] on. [pid] advances in every round, so its length is enough fuel. *)
Fixpoint fs_loop (fuel : nat) (lid pid : list nat) : list nat :=
  match fuel, pid with
  | _, [] => lid
  | 0, _ => lid
  | S f, p :: pid' =>
      take_while (fun x => Nat.ltb x p) lid ++
      match drop_while (fun x => Nat.ltb x p) lid with
      | [] => pid
      | (y :: _) as lid' =>
          if Nat.eqb y p then fs_loop f lid' pid'
          else fs_loop f (take_while (fun x => Nat.ltb x y) pid ++ lid') (drop_while (fun x => Nat.ltb x y) pid)
      end
  end.
(** forward_stack, Reducer.cpp 57-82: new _stack and whether its size changed. *)
Definition forward_stack (stk prev : list nat) (all : nat) : list nat * bool :=
  let stk' := if Nat.eqb (length stk) all then stk
              else if Nat.eqb (length prev) all then prev
              else fs_loop (length prev) stk prev in
  (stk', negb (Nat.eqb (length stk') (length stk))).

(** active, Reducer.cpp 84-104. [rit] is what is left of the labels. *)
Fixpoint active_loop (tos rit : list nat) : bool :=
  match tos with
  | [] => false
  | s :: tos' =>
      match drop_while (fun x => Nat.ltb x s) rit with
      | [] => false
      | (y :: _) as rit' => if Nat.eqb y s then true else active_loop tos' rit'
      end
  end.
Definition active (prev : tos_t) (ls : labels) : bool :=
  if labels_empty ls then false else if wild ls then true else active_loop (t_tos prev) (labs ls).

(** The insertion loops 131-138 (merge_pop) and 201-207 (merge_push): [it] is what is left from the iterator on. *)
Fixpoint ins_loop (it ss : list nat) : list nat * bool :=
  match ss with
  | [] => (it, false)
  | s :: ss' =>
      let pre := take_while (fun x => Nat.ltb x s) it in
      match drop_while (fun x => Nat.ltb x s) it with
      | y :: it' => if Nat.eqb y s then let r := ins_loop (y :: it') ss' in (pre ++ fst r, snd r)
                    else let r := ins_loop (s :: y :: it') ss' in (pre ++ fst r, true)
      | [] => let r := ins_loop [s] ss' in (pre ++ fst r, true)
      end
  end.
(** The insertion loop of merge_noop, 150-160, which also steps over the element. *)
Fixpoint noop_loop (it ss : list nat) : list nat * bool :=
  match ss with
  | [] => (it, false)
  | s :: ss' =>
      let pre := take_while (fun x => Nat.ltb x s) it in
      match drop_while (fun x => Nat.ltb x s) it with
      | y :: it' => if Nat.eqb y s then let r := noop_loop it' ss' in (pre ++ y :: fst r, snd r)
                    else let r := noop_loop (y :: it') ss' in (pre ++ s :: fst r, true)
      | [] => let r := noop_loop [] ss' in (pre ++ s :: fst r, true)
      end
  end.

(** merge_pop, Reducer.cpp 106-141; [ds] is dual_stack. New value of this object and the two flags. The argument [prev] may be the same
    object as [this]; only merge_push reads a member of [prev] that was changed before. *)
Definition merge_pop (this prev : tos_t) (ls : labels) (ds : bool) (all : nat) : tos_t * (bool * bool) :=
  if active prev ls then
    if ds then
      let fs := forward_stack (t_stk this) (t_stk prev) all in
      let ts := if Nat.eqb (length (t_tos this)) all then (t_tos this, false)
                else if Nat.eqb (length (t_stk prev)) all then (t_stk prev, true)
                else ins_loop (t_tos this) (t_stk prev) in
      (mk_tos (fst ts) (fst fs) (t_wt this) (t_wb this), (snd ts, snd fs))
    else if Nat.eqb (length (t_tos this)) all then (this, (false, false))
    else (mk_tos (seq 0 all) (t_stk this) (t_wt this) (t_wb this), (true, false))
  else (this, (false, false)).
(** merge_noop, Reducer.cpp 143-165. *)
Definition merge_noop (this prev : tos_t) (ls : labels) (ds : bool) (all : nat) : tos_t * (bool * bool) :=
  if labels_empty ls then (this, (false, false))
  else
    let ts := noop_loop (t_tos this) (if wild ls then t_tos prev else labs ls) in
    let fs := if ds then forward_stack (t_stk this) (t_stk prev) all else (t_stk this, false) in
    (mk_tos (fst ts) (fst fs) (t_wt this) (t_wb this), (snd ts, snd fs)).
(** merge_swap, Reducer.cpp 167-185. *)
Definition merge_swap (this prev : tos_t) (opl : nat) (ls : labels) (ds : bool) (all : nat) : option (tos_t * (bool * bool)) :=
  if active prev ls then
    r <- vset_emplace Nat.ltb Nat.eqb (t_tos this) opl ;;
    let fs := if ds then forward_stack (t_stk this) (t_stk prev) all else (t_stk this, false) in
    Some (mk_tos (fst r) (fst fs) (t_wt this) (t_wb this), (snd (snd r), snd fs))
  else Some (this, (false, false)).
(** merge_push, Reducer.cpp 187-211; [same] tells whether [prev] is the same object as [this]. *)
Definition merge_push (same : bool) (this prev : tos_t) (opl : nat) (ls : labels) (ds : bool) (all : nat) : option (tos_t * (bool * bool)) :=
  r <- merge_swap this prev opl ls ds all ;;
  let this1 := fst r in
  let ptos := if same then t_tos this1 else t_tos prev in
  if ds then
    if Nat.eqb (length (t_stk this1)) all then Some r
    else
      let st := if Nat.eqb (length ptos) all then (ptos, true) else ins_loop (t_stk this1) ptos in
      Some (mk_tos (t_tos this1) (fst st) (t_wt this1) (t_wb this1), (fst (snd r), snd (snd r) || snd st))
  else Some r.

(** ** Pruning by reachability in the graph of states *)

(** The states reached: the loops of forwards_prune, Reducer.h 172-185, and backwards_prune, 195-209, which differ in the neighbours
    of a state. Every state enters the queue at most once, so [pd_n P] is enough fuel; None if it is not or an index is out of range. *)
Fixpoint visit (waiting : list nat) (seen : list bool) (ns : list nat) : option (list nat * list bool) :=
  match ns with
  | [] => Some (waiting, seen)
  | q :: ns' => b <- nth_error seen q ;; if (b : bool) then visit waiting seen ns' else visit (waiting ++ [q]) (upd seen q true) ns'
  end.
Fixpoint graph_loop (neigh : nat -> option (list nat)) (fuel : nat) (waiting : list nat) (seen : list bool) : option (list bool) :=
  match waiting with
  | [] => Some seen
  | el :: waiting' =>
      match fuel with
      | 0 => None
      | S f => ns <- neigh el ;; ws <- visit waiting' seen ns ;; graph_loop neigh f (fst ws) (snd ws)
      end
  end.
Definition graph_search (neigh : nat -> option (list nat)) (n start : nat) : option (list bool) :=
  if Nat.ltb start n then graph_loop neigh n [start] (upd (repeat false n) start true) else None.
(** "for s: if (!seen[s]) clear_state(s)", 186-190, 210-214. *)
Definition clear_unseen (seen : list bool) (P : pda) : option pda :=
  ofold (fun P s => b <- nth_error seen s ;; if (b : bool) then Some P else clear_state P s) (seq 0 (pd_n P)) P.
(** The targets of the rules with labels, 179-184. *)
Definition succs (P : pda) (s : nat) : option (list nat) :=
  x <- nth_error (pd_states P) s ;; Some (map (fun y => r_to (fst y)) (filter (fun y => negb (labels_empty (snd y))) (ps_rules x))).
Definition pres (P : pda) (s : nat) : option (list nat) := x <- nth_error (pd_states P) s ;; Some (ps_pre x).
(** forwards_prune, 171-191. *)
Definition forwards_prune (P : pda) (init : nat) : option pda := seen <- graph_search (succs P) (pd_n P) init ;; clear_unseen seen P.
(** backwards_prune, 194-215. *)
Definition backwards_prune (P : pda) (term : nat) : option pda := seen <- graph_search (pres P) (pd_n P) term ;; clear_unseen seen P.

(** ** target_tos_prune, Reducer.h 218-279 *)

(** std::set::insert of one element, and of a range. *)
Definition set_insert (l : list nat) (xs : list nat) : list nat := fold_left (fun l x => vs_emplace x l) xs l.
(** The labels on which a state can continue, 231-246; None of the result: all of them ("cont"). *)
Fixpoint useful_loop (nlab : nat) (rules : list (rule * labels)) (acc : list nat) : option (list nat) :=
  match rules with
  | [] => Some acc
  | (_, ls) :: rules' =>
      if wild ls then None
      else let acc' := set_insert acc (labs ls) in
           if Nat.eqb (length acc') nlab then None else useful_loop nlab rules' acc'
  end.
(** One rule of a predecessor, 250-275: the new labels and whether they changed. clear() is internal/PDA.h 78-81. *)
Definition filter_rule (s : nat) (useful : list nat) (x : rule * labels) : (rule * labels) * bool :=
  if Nat.eqb (r_to (fst x)) s then
    match r_op (fst x) with
    | SWAP | PUSH =>
        if negb (labels_empty (snd x)) && negb (memb (r_opl (fst x)) useful) then ((fst x, no_labels), true) else (x, false)
    | NOOP => let r := noop_pre_filter (snd x) useful in ((fst x, fst r), snd r)
    | POP => (x, false)
    end
  else (x, false).
(** The rules of one predecessor, 248-276. The queue gets the predecessor at the first change unless it is in it. *)
Definition filter_pre (s : nat) (useful : list nat) (st : pda * (list nat * list bool)) (p : nat) : option (pda * (list nat * list bool)) :=
  let P := fst st in
  x <- nth_error (pd_states P) p ;;
  let rs := map (filter_rule s useful) (ps_rules x) in
  let P' := mk_pda (upd (pd_states P) p (mk_pstate (map fst rs) (ps_pre x))) (pd_nlab P) in
  if existsb snd rs then
    w <- visit (fst (snd st)) (snd (snd st)) [p] ;; Some (P', w)
  else Some (P', snd st).
(** The body of the while loop, 227-277; [visit] with the single state is "if (!in_waiting[p]) push; in_waiting[p] = true". *)
Definition target_step (term : nat) (P : pda) (s : nat) (waiting : list nat) (inw : list bool) : option (pda * (list nat * list bool)) :=
  if Nat.eqb s term then Some (P, (waiting, inw))
  else
    x <- nth_error (pd_states P) s ;;
    let inw' := upd inw s false in
    match useful_loop (pd_nlab P) (ps_rules x) [] with
    | None => Some (P, (waiting, inw'))
    | Some useful => ofold (filter_pre s useful) (ps_pre x) (P, (waiting, inw'))
    end.
Fixpoint target_loop (term : nat) (fuel : nat) (P : pda) (waiting : list nat) (inw : list bool) : option (option pda) :=
  match waiting with
  | [] => done P
  | s :: waiting' =>
      match fuel with
      | 0 => Some None
      | S f => match target_step term P s waiting' inw with
               | None => None
               | Some (P', (w', i')) => target_loop term f P' w' i'
               end
      end
  end.
Definition target_tos_prune (fuel : nat) (P : pda) (term : nat) : option (option pda) :=
  target_loop term fuel P (seq 0 (pd_n P)) (repeat true (pd_n P)).

(** ** reduce, Reducer.h 66-168 *)

(** size, 283-299. *)
Definition rule_size (P : pda) (term : nat) (x : rule * labels) : nat :=
  if Nat.eqb (r_to (fst x)) term then 1
  else if labels_empty (snd x) then 0 else if wild (snd x) then pd_nlab P else length (labs (snd x)).
Definition pda_size (P : pda) (init term : nat) : option nat :=
  x <- nth_error (pd_states P) init ;;
  Some (1 + length (ps_rules x) + list_sum (map (rule_size P term) (concat (map ps_rules (tl (pd_states P)))))).

(** approximation and waiting. *)
Definition rstate := (list tos_t * list nat)%type.
(** The rules of the initial state, 77-90. None: the assertion that the operation is PUSH. *)
Definition init_rule (term : nat) (st : rstate) (x : rule * labels) : option rstate :=
  let r := fst x in
  if Nat.eqb (r_to r) term then Some st
  else if labels_empty (snd x) then Some st
  else
    ss <- nth_error (fst st) (r_to r) ;;
    let fresh := negb (t_wt ss) && negb (t_wb ss) in
    let ss1 := if fresh then fst (update_state ss (true, true)) else ss in
    let w1 := if fresh then snd st ++ [r_to r] else snd st in
    match r_op r with
    | PUSH => e <- vset_emplace Nat.ltb Nat.eqb (t_tos ss1) (r_opl r) ;;
              Some (upd (fst st) (r_to r) (mk_tos (fst e) (t_stk ss1) (t_wt ss1) (t_wb ss1)), w1)
    | _ => None
    end.
(** One rule in the saturation, 103-136; [el] is the state. *)
Definition sat_rule (term : nat) (ds : bool) (all el : nat) (st : rstate) (x : rule * labels) : option rstate :=
  let r := fst x in let ls := snd x in
  if Nat.eqb (r_to r) term then Some st
  else if labels_empty ls then Some st
  else
    ss <- nth_error (fst st) el ;;
    to <- nth_error (fst st) (r_to r) ;;
    c <- (match r_op r with
          | POP => Some (merge_pop to ss ls ds all)
          | NOOP => Some (merge_noop to ss ls ds all)
          | PUSH => merge_push (Nat.eqb (r_to r) el) to ss (r_opl r) ls ds all
          | SWAP => merge_swap to ss (r_opl r) ls ds all
          end) ;;
    let u := update_state (fst c) (snd c) in
    Some (upd (fst st) (r_to r) (fst u), if snd u then snd st ++ [r_to r] else snd st).
(** One round of the loop 96-137. *)
Definition sat_step (P : pda) (term : nat) (ds : bool) (app : list tos_t) (el : nat) (waiting : list nat) : option rstate :=
  ss <- nth_error app el ;;
  x <- nth_error (pd_states P) el ;;
  ofold (sat_rule term ds (pd_nlab P) el) (ps_rules x) (upd app el (mk_tos (t_tos ss) (t_stk ss) false false), waiting).
Fixpoint saturate (P : pda) (term : nat) (ds : bool) (fuel : nat) (app : list tos_t) (waiting : list nat) : option (option (list tos_t)) :=
  match waiting with
  | [] => done app
  | el :: waiting' =>
      match fuel with
      | 0 => Some None
      | S f => match sat_step P term ds app el waiting' with None => None | Some (app', w') => saturate P term ds f app' w' end
      end
  end.

(** The rules of one state, 143-154: the kept rules (the swaps keep their order), with the labels cut by intersect. *)
Fixpoint prune_rules (term : nat) (ts : list nat) (all : nat) (rules : list (rule * labels)) : option (list (rule * labels)) :=
  match rules with
  | [] => Some []
  | (r, ls) :: rules' =>
      if Nat.eqb (r_to r) term then k <- prune_rules term ts all rules' ;; Some ((r, ls) :: k)
      else
        i <- intersect ls ts all ;;
        k <- prune_rules term ts all rules' ;;
        Some (if (snd i : bool) then (r, fst i) :: k else k)
  end.
(** The loop 139-158. *)
Definition prune_state (init term : nat) (app : list tos_t) (P : pda) (i : nat) : option pda :=
  if Nat.eqb i init then Some P
  else
    t <- nth_error app i ;;
    x <- nth_error (pd_states P) i ;;
    rs <- prune_rules term (t_tos t) (pd_nlab P) (ps_rules x) ;;
    let P' := mk_pda (upd (pd_states P) i (mk_pstate rs (ps_pre x))) (pd_nlab P) in
    match rs with [] => clear_state P' i | _ => Some P' end.
Definition prune_all (init term : nat) (app : list tos_t) (P : pda) : option pda :=
  ofold (prune_state init term app) (seq 1 (pd_n P - 1)) P.

(** reduce: the PDA afterwards and the pair returned. *)
Definition reduce (fuel : nat) (P : pda) (aggr init term : nat) : option (option (pda * (nat * nat))) :=
  cnt <- pda_size P init term ;;
  if Nat.eqb aggr 0 then done (P, (cnt, cnt))
  else
    P1 <- forwards_prune P init ;;
    P2 <- backwards_prune P1 term ;;
    let ds := Nat.eqb aggr 2 || Nat.eqb aggr 4 in
    x <- nth_error (pd_states P2) init ;;
    st <- ofold (init_rule term) (ps_rules x) (repeat tos0 (pd_n P2), []) ;;
    lbind (if Nat.leb 3 aggr then target_tos_prune fuel P2 term else done P2) (fun P3 =>
    lbind (saturate P3 term ds fuel (fst st) (snd st)) (fun app =>
    P4 <- prune_all init term app P3 ;;
    P5 <- backwards_prune P4 term ;;
    lbind (if Nat.leb 3 aggr then target_tos_prune fuel P5 term else done P5) (fun P6 =>
    cnt' <- pda_size P6 init term ;;
    done (P6, (cnt, cnt'))))).
