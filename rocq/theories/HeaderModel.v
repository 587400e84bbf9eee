(** Model of the concrete reconstruction of src/include/pdaaal/cegar/CegarPdaFactory.h: headers (partially known stacks), their
    updates and finalisation, and the depth-first search of reconstruct_trace. None = an assertion fails or undefined behaviour. *)
From Coq Require Import List Arith Bool.
From Verif Require Import Base PdaModel NfaModel NfaQueryModel ContainersModel TrieModel RefineModel.
Import ListNotations.

(** Header, 75-106: count_wildcards and concrete_part (a vector whose back is the top of the stack). *)
Record header := mk_header { h_wild : nat; h_conc : list nat }.
(** size, 79-81; top_is_concrete, 82-84; empty, 85-87; is_concrete, 88-90 *)
Definition h_size (h : header) : nat := h_wild h + length (h_conc h).
Definition h_top_is_concrete (h : header) : bool := negb (is_nil (h_conc h)).
Definition h_empty (h : header) : bool := Nat.eqb (h_wild h) 0 && is_nil (h_conc h).
Definition h_is_concrete (h : header) : bool := Nat.eqb (h_wild h) 0.
(** concrete_part.back() *)
Definition h_back (h : header) : option nat := match rev (h_conc h) with [] => None | x :: _ => Some x end.
(** pop, 91-102 *)
Definition h_pop (h : header) : option header :=
  if is_nil (h_conc h) then match h_wild h with 0 => None | S k => Some (mk_header k (h_conc h)) end
  else Some (mk_header (h_wild h) (removelast (h_conc h))).
(** append, 103-105 *)
Definition h_append (h : header) (ls : list nat) : header := mk_header (h_wild h) (h_conc h ++ ls).

(** The members of CegarPdaReconstruction, 432-440, and what of the instance is used: the label abstraction. *)
Record recon := mk_recon { rc_addr : nat -> nat; rc_map : rmap; rc_infa : nfa; rc_fnfa : nfa; rc_ipath : list nat; rc_fpath : list nat; rc_iabs : list nat; rc_fabs : list nat }.

(** check_nfa_path, 421-425, and intersect_edge_labels, 426-430. *)
Definition path_from (N : nfa) (path : list nat) (i : nat) : option (list nat) :=
  match i with 0 => Some (n_init N) | S j => p <- nth_error path j ;; Some [p] end.
Definition check_nfa_path (addr : nat -> nat) (N : nfa) (path : list nat) (label i : nat) : option bool :=
  q <- nth_error path i ;; sts <- path_from N path i ;; has_as_successor addr N sts label q.
Definition intersect_path_labels (addr : nat -> nat) (N : nfa) (path : list nat) (labels : list nat) (i : nat) : option (list nat) :=
  q <- nth_error path i ;; sts <- path_from N path i ;; NfaQueryModel.intersect_edge_labels addr N sts q labels.
(** "_initial_path.size() - header.count_wildcards"; a difference below zero wraps and is then out of range. *)
Definition wild_pos (path : list nat) (k : nat) : option nat := if Nat.leb k (length path) then Some (length path - k) else None.

(** initial_header, 272-274 *)
Definition initial_header (R : recon) : header := mk_header (length (rc_ipath R)) [].
(** find_wildcard_specialization, 324-334: the first label of the abstract label that the edge accepts. *)
Fixpoint first_ok (f : nat -> option bool) (l : list nat) : option nat :=
  match l with [] => None | x :: l' => b <- f x ;; if b then Some x else first_ok f l' end.
Definition find_wildcard_specialization (R : recon) (h : header) : option nat :=
  if h_empty h || h_top_is_concrete h then None
  else
    i <- wild_pos (rc_ipath R) (h_wild h) ;;
    a <- nth_error (rc_iabs R) i ;;
    ls <- rm_concrete (rc_map R) a ;;
    first_ok (fun l => check_nfa_path (rc_addr R) (rc_infa R) (rc_ipath R) l i) ls.
(** update_header_wildcard_pre, 307-323: the loop and the append. *)
Fixpoint pop_loop (R : recon) (pops : nat) (h : header) (pre : list nat) : option (header * list nat) :=
  match pops with
  | 0 => Some (h, pre)
  | S p =>
      if h_empty h then None
      else
        pre' <- (if h_top_is_concrete h then Some pre else x <- find_wildcard_specialization R h ;; Some (pre ++ [x])) ;;
        h' <- h_pop h ;;
        pop_loop R p h' pre'
  end.
Definition update_wildcard_pre (R : recon) (h : header) (post : list nat) (pops : nat) : option (header * list nat) :=
  if Nat.leb pops (h_size h) then r <- pop_loop R pops h [] ;; Some (h_append (fst r) post, snd r) else None.
(** update_header, 285-298; the inner option is the std::optional of the result. *)
Definition update_header (R : recon) (h : header) (pre : nat) (post : list nat) (pops : nat) : option (option (header * list nat)) :=
  if Nat.leb (1 + pops) (h_size h) then
    ok <- (if h_top_is_concrete h then x <- h_back h ;; Some (Nat.eqb x pre)
           else i <- wild_pos (rc_ipath R) (h_wild h) ;; check_nfa_path (rc_addr R) (rc_infa R) (rc_ipath R) pre i) ;;
    if ok then h' <- h_pop h ;; r <- update_wildcard_pre R h' post pops ;; Some (Some r)
    else Some None
  else None.
(** pre_labels, 337-344 *)
Definition pre_labels (R : recon) (h : header) : option (list nat) :=
  if h_empty h then Some []
  else if h_top_is_concrete h then x <- h_back h ;; Some [x]
  else
    i <- wild_pos (rc_ipath R) (h_wild h) ;;
    a <- nth_error (rc_iabs R) i ;;
    ls <- rm_concrete (rc_map R) a ;;
    intersect_path_labels (rc_addr R) (rc_infa R) (rc_ipath R) (sort_nat ls) i.

(** concreterize_wildcards, 384-419. The loop 394-407 over the labels: either a label that is fine for both, or the two lists. *)
Fixpoint scan_labels (fi ff : nat -> option bool) (ls ini fin : list nat) : option (nat + (list nat * list nat)) :=
  match ls with
  | [] => Some (inr (ini, fin))
  | l :: ls' =>
      bi <- fi l ;; bf <- ff l ;;
      if bi && bf then Some (inl l)
      else scan_labels fi ff ls' (if bi then ini ++ [l] else ini) (if bf then fin ++ [l] else fin)
  end.
(** The loop 388-417; [k] is header.count_wildcards, [acc] is concrete_stack. *)
Fixpoint concreterize (R : recon) (k : nat) (acc : list nat) : option (header + refinement) :=
  match k with
  | 0 => Some (inl (mk_header 0 (rev acc)))
  | S k' =>
      ia <- wild_pos (rc_iabs R) k ;; fa <- wild_pos (rc_fabs R) k ;;
      a <- nth_error (rc_iabs R) ia ;; a' <- nth_error (rc_fabs R) fa ;;
      if negb (Nat.eqb a a') then None
      else
        ip <- wild_pos (rc_ipath R) k ;; fp <- wild_pos (rc_fpath R) k ;;
        ls <- rm_concrete (rc_map R) a ;;
        r <- scan_labels (fun l => check_nfa_path (rc_addr R) (rc_infa R) (rc_ipath R) l ip) (fun l => check_nfa_path (rc_addr R) (rc_fnfa R) (rc_fpath R) l fp) ls [] [] ;;
        match r with
        | inl l => concreterize R k' (acc ++ [l])
        | inr (ini, fin) => if is_nil ini || is_nil fin then None else r <- ref_two ini fin a ;; Some (inr r)
        end
  end.
(** finalize_header, 348-369. The loop 352-362 over the concrete part from its back; [i] counts the popped labels. Some (inl
    tt): the loop ends; Some (inr r): the refinement is returned. *)
Fixpoint final_loop (R : recon) (top_first : list nat) (i : nat) : option (unit + refinement) :=
  match top_first with
  | [] => Some (inl tt)
  | x :: rest =>
      b <- check_nfa_path (rc_addr R) (rc_fnfa R) (rc_fpath R) x i ;;
      if b then final_loop R rest (S i)
      else
        a <- nth_error (rc_fabs R) i ;;
        ls <- rm_concrete (rc_map R) a ;;
        good <- intersect_path_labels (rc_addr R) (rc_fnfa R) (rc_fpath R) (sort_nat ls) i ;;
        r <- ref_two [x] good a ;; Some (inr r)
  end.
Definition finalize_header (R : recon) (h : header) : option (header + refinement) :=
  if negb (Nat.eqb (h_size h) (length (rc_fpath R))) then None
  else
    r <- final_loop R (rev (h_conc h)) 0 ;;
    match r with
    | inr x => Some (inr x)
    | inl _ =>
        c <- concreterize R (h_wild h) [] ;;
        Some (match c with inl h' => inl (h_append h' (h_conc h)) | inr x => inr x end)
    end.

(** *** reconstruct_trace, 134-258 *)
(** The search 160-228 over the virtual functions: [init] is initial_concrete_rules(trace[0]), [next d c] is
    search_concrete_rules(trace[d], c), [fin c] is finalize_header(get_header(c)). A range is a list; the abstract trace has [n]
    rules. A level of search_stack is the list of the configurations from _it on and _trace_id. *)
Section Search.
  Variables (conf : Type) (n : nat) (next : nat -> conf -> list conf) (fin : conf -> option (header + refinement)).
  Record search := mk_search { se_stack : list (list conf * nat); se_max : nat; se_deep : list conf; se_ref : list refinement; se_final : option header }.
  (** One round of the loop 190-228. The head of se_stack is the back of the vector. *)
  Definition search_step (s : search) : option search :=
    match se_stack s with
    | [] => None
    | ([], _) :: rest =>
        Some (mk_search (match rest with [] => [] | (l, d) :: rest' => (tl l, d) :: rest' end) (se_max s) (se_deep s) (se_ref s) None)
    | (c :: cs, d) :: rest =>
        let nd := S d in
        let '(mx, deep) := if Nat.ltb (se_max s) nd then (nd, []) else (se_max s, se_deep s) in
        let deep := if Nat.eqb nd mx then deep ++ [c] else deep in
        if Nat.ltb nd n then Some (mk_search ((next nd c, nd) :: se_stack s) mx deep (se_ref s) None)
        else
          r <- fin c ;;
          match r with
          | inl h => Some (mk_search (se_stack s) mx deep (se_ref s) (Some h))
          | inr x => hr <- header_combine (se_ref s) x ;; Some (mk_search ((cs, d) :: rest) mx deep hr None)
          end
    end.
  (** Some None: out of fuel. *)
  Fixpoint search_loop (fuel : nat) (s : search) : option (option search) :=
    match se_final s, se_stack s with
    | Some _, _ | _, [] => Some (Some s)
    | None, _ => match fuel with 0 => Some None | S f => s' <- search_step s ;; search_loop f s' end
    end.
  (** The results, 230-257: find_initial_refinement, find_refinement(trace[d], configurations), the concrete trace (from
      the bottom of the search stack) with the final header, or the refinements for the header. *)
  Inductive outcome := OInitial | ORefine (d : nat) (deepest : list conf) | OTrace (t : list conf) (stack : list nat) | OHeader (r : list refinement).
  Definition outcome_of (s : search) : option outcome :=
    if Nat.ltb (se_max s) n then Some (if Nat.eqb (se_max s) 0 then OInitial else ORefine (se_max s) (se_deep s))
    else match se_final s with
    | Some h => if Nat.eqb (h_wild h) 0 then t <- omap (fun e => hd_error (fst e)) (rev (se_stack s)) ;; Some (OTrace t (h_conc h)) else None
    | None => if is_nil (se_ref s) then None else Some (OHeader (se_ref s))
    end.
  (** [init] is only used for a non-empty trace (177-187); [fin0] is finalize_header(initial_header()). *)
  Definition reconstruct (fuel : nat) (init : list conf) (fin0 : option (header + refinement)) : option (option outcome) :=
    s0 <- match n with
          | 0 => r <- fin0 ;; match r with
                              | inl h => Some (mk_search [] 0 [] [] (Some h))
                              | inr x => hr <- header_combine [] x ;; Some (mk_search [] 0 [] hr None)
                              end
          | S _ => Some (mk_search [(init, 0)] 0 [] [] None)
          end ;;
    s <- search_loop fuel s0 ;;
    match s with None => Some None | Some s => o <- outcome_of s ;; Some (Some o) end.
End Search.
Arguments mk_search {conf}. Arguments se_stack {conf}. Arguments se_max {conf}. Arguments se_deep {conf}. Arguments se_ref {conf}. Arguments se_final {conf}.
Arguments search_step {conf}. Arguments search_loop {conf}. Arguments outcome_of {conf}. Arguments reconstruct {conf}.
Arguments OInitial {conf}. Arguments ORefine {conf}. Arguments OTrace {conf}. Arguments OHeader {conf}.
