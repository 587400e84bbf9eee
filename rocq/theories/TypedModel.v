(** Model of the typed pushdown automaton, src/include/pdaaal/PDA.h 44-281: maps of labels and states to ids, and the typed ways
    to add and list rules. Labels are elements of [K], states of [ST]; both are kept in ptrie_sets (TrieModel). *)
From Coq Require Import List Arith Bool ZArith.
From Verif Require Import Base PdaModel TrieModel RefineModel.
Import ListNotations.

Section Typed.
  Variables (K : Type) (keqb : K -> K -> bool) (kdef : K).
  Variables (ST : Type) (seqb : ST -> ST -> bool).
  (** The op_label of rules without one: the uint32 maximum (249); only compared, so any number. *)
  Variable no_opl : nat.

  (** PDA: the rules (internal::PDA), _label_map (276) and _state_map (54). number_of_labels (144-146) is the size of the label map. *)
  Record tpda := mk_tpda { t_rules : pda; t_labels : list K; t_states : list ST }.
  (** PDA(), 139. *)
  Definition tp_empty : tpda := mk_tpda (mk_pda [] 0) [] [].

  (** insert_label, 196-198. *)
  Definition insert_label (T : tpda) (l : K) : tpda * nat :=
    let (ls, r) := ts_insert keqb (t_labels T) l in (mk_tpda (mk_pda (pd_states (t_rules T)) (length ls)) ls (t_states T), snd r).
  (** exists_label, 186-188; get_symbol, 148-151 (None: assertion). *)
  Definition exists_label (T : tpda) (l : K) : option nat := ts_exists keqb (t_labels T) l.
  Definition get_symbol (T : tpda) (id : nat) : option K := ts_at (t_labels T) id.
  (** insert_state with a state mapping, 199-208; exists_state, 189-195; get_state, 46-49. *)
  Definition insert_state (T : tpda) (s : ST) : tpda * nat :=
    let (ss, r) := ts_insert seqb (t_states T) s in (mk_tpda (add_state (t_rules T) (snd r)) (t_labels T) ss, snd r).
  Definition exists_state (T : tpda) (s : ST) : option nat := ts_exists seqb (t_states T) s.
  Definition get_state (T : tpda) (id : nat) : option ST := ts_at (t_states T) id.

  (** PDA(all_labels), 127-138: [sorted] is the list of the labels of the set in increasing order. None: the assertion that each is new. *)
  Definition tp_new (sorted : list K) : option tpda :=
    ofold (fun T l => if (match exists_label T l with Some _ => true | None => false end) then None else Some (fst (insert_label T l))) sorted tp_empty.

  (** encode_pre, 174-183. None: the assertion that the label exists fails. *)
  Fixpoint encode_pre (T : tpda) (pre : list K) : option (list nat) :=
    match pre with [] => Some [] | p :: pre' => i <- exists_label T p ;; is <- encode_pre T pre' ;; Some (i :: is) end.
  (** find_labelid, 240-250. None: an exception is thrown. *)
  Definition find_labelid (T : tpda) (o : op) (l : K) : option nat :=
    match o with POP | NOOP => Some no_opl | _ => exists_label T l end.

  (** std::is_sorted on numbers. *)
  Fixpoint is_sorted (l : list nat) : bool :=
    match l with x :: ((y :: _) as l') => Nat.leb x y && is_sorted l' | _ => true end.
  (** Whether the rule is already stored with a wildcard, in which case merge returns before its assertions (internal/PDA.cpp 34). *)
  Definition stored_wild (P : pda) (from : nat) (r : rule) : bool :=
    existsb (fun e => rule_eqb (fst e) r && wild (snd e)) (ps_rules (nth from (pd_states P) empty_pstate)).
  (** add_rule_(from, to, op, op_label, wildcard, pre_labels, weight), 254-262, with add_untyped_rule_impl. The assertion of merge
      (internal/PDA.cpp 42) that the new labels are sorted is checked if [asserts] is set, as in builds without NDEBUG. *)
  Definition t_add_rule (asserts : bool) (T : tpda) (from to : nat) (o : op) (opl : K) (wc : bool) (pre : list K) (w : Z) : option tpda :=
    lid <- find_labelid T o opl ;;
    ids <- encode_pre T pre ;;
    let r := mk_rule to o lid w in
    if asserts && negb (stored_wild (t_rules T) from r) && negb wc && negb (is_sorted ids) then None
    else Some (mk_tpda (add_rule_impl (t_rules T) from r wc ids) (t_labels T) (t_states T)).

  (** rule_t_ with a weight, 90-110: from, pre, to, op, op_label, weight. *)
  Record trule := mk_trule { tr_from : nat; tr_pre : K; tr_to : nat; tr_op : op; tr_opl : K; tr_w : Z }.
  (** The constructor of a rule_t from an internal rule, 102-105. *)
  Definition to_trule (T : tpda) (from pre : nat) (r : rule) : option trule :=
    p <- get_symbol T pre ;;
    o <- (match r_op r with POP | NOOP => Some kdef | _ => get_symbol T (r_opl r) end) ;;
    Some (mk_trule from p (r_to r) (r_op r) o (r_w r)).
  (** add_rule(rule_t), 153-159, and add_wildcard_rule(rule_t), 160-167. *)
  Definition t_add_rule1 (asserts : bool) (T : tpda) (r : trule) : option tpda :=
    t_add_rule asserts T (tr_from r) (tr_to r) (tr_op r) (tr_opl r) false [tr_pre r] (tr_w r).
  Definition t_add_wildcard (asserts : bool) (T : tpda) (r : trule) : option tpda :=
    t_add_rule asserts T (tr_from r) (tr_to r) (tr_op r) (tr_opl r) true [] (tr_w r).

  (** all_rules, 219-237. *)
  Definition rules_of_entry (T : tpda) (from : nat) (e : rule * labels) : option (list trule) :=
    omap (fun pre => to_trule T from pre (fst e)) (if wild (snd e) then seq 0 (length (t_labels T)) else labs (snd e)).
  Definition all_rules (T : tpda) : option (list trule) :=
    ls <- omap (fun i => es <- omap (rules_of_entry T i) (ps_rules (nth i (pd_states (t_rules T)) empty_pstate)) ;; Some (concat es))
            (seq 0 (pd_n (t_rules T))) ;;
    Some (concat ls).

  (** A sequence of calls. *)
  Inductive tcall :=
  | TLabel (l : K)
  | TState (s : ST)
  | TRule (from to : nat) (o : op) (opl : K) (wc : bool) (pre : list K) (w : Z).
  Definition do_tcall (asserts : bool) (T : tpda) (c : tcall) : option tpda :=
    match c with
    | TLabel l => Some (fst (insert_label T l))
    | TState s => Some (fst (insert_state T s))
    | TRule from to o opl wc pre w => t_add_rule asserts T from to o opl wc pre w
    end.
  Definition do_tcalls (asserts : bool) (cs : list tcall) (T : tpda) : option tpda := ofold (do_tcall asserts) cs T.
End Typed.
Arguments mk_tpda {K ST}. Arguments t_rules {K ST}. Arguments t_labels {K ST}. Arguments t_states {K ST}.
Arguments tp_empty {K ST}. Arguments insert_label {K} _ {ST}. Arguments exists_label {K} _ {ST}. Arguments get_symbol {K ST}.
Arguments insert_state {K ST}. Arguments exists_state {K ST}. Arguments get_state {K ST}. Arguments tp_new {K} _ {ST}.
Arguments encode_pre {K} _ {ST}. Arguments find_labelid {K} _ {ST}. Arguments t_add_rule {K} _ {ST}.
Arguments mk_trule {K}. Arguments tr_from {K}. Arguments tr_pre {K}. Arguments tr_to {K}. Arguments tr_op {K}. Arguments tr_opl {K}. Arguments tr_w {K}.
Arguments to_trule {K} _ {ST}. Arguments rules_of_entry {K} _ {ST}. Arguments all_rules {K} _ {ST}.
Arguments TLabel {K ST}. Arguments TState {K ST}. Arguments TRule {K ST}. Arguments do_tcall {K} _ {ST}. Arguments do_tcalls {K} _ {ST}.
