(** Model of the PDA factories (src/include/pdaaal/PDAFactory.h): rules are first collected in a PDA whose states keep their rules
    in hash tables, which is then converted to the PDA with sorted vectors used by the solver; DFS_PDAFactory finds the rules by a
    search from the initial states. *)
From Coq Require Import List Arith Bool ZArith.
From Verif Require Import Base Spec PdaModel ContainersModel AutModel NfaModel NfaQueryModel ProductModel RefineModel VerdictModel.
Import ListNotations.

(** * PDA<W, fut::type::hash>, internal/PDA.h 208-323 with fut_set.h 117-143 *)

(** internal::PDA<W, hash>::state_t, internal/PDA.h 219-225: an unordered_map of rules (its entries in some order), and the vector_set of
    predecessors. *)
Record hstate := mk_hstate { hs_rules : list (rule * labels); hs_pre : list nat }.
Definition empty_hstate := mk_hstate [] [].
Record hpda := mk_hpda { hp_states : list hstate; hp_nlab : nat }.
Definition hp_n (H : hpda) : nat := length (hp_states H).

(** std::unordered_map::emplace(k, v).first->second = f(...), used in internal/PDA.h 305. *)
Fixpoint um_emplace_mod (k : rule) (v : labels) (f : labels -> labels) (l : list (rule * labels)) : list (rule * labels) :=
  match l with
  | [] => [(k, f v)]
  | (k', v') :: l' => if rule_eqb k' k then (k', f v') :: l' else (k', v') :: um_emplace_mod k v f l'
  end.

(** add_state, internal/PDA.h 292-296. *)
Definition h_add_state (H : hpda) (s : nat) : hpda :=
  if Nat.leb (hp_n H) s
  then mk_hpda (hp_states H ++ repeat empty_hstate (S s - hp_n H)) (hp_nlab H)
  else H.
(** add_untyped_rule_impl, internal/PDA.h 303-307. *)
Definition h_add_rule_impl (H : hpda) (from : nat) (r : rule) (w : bool) (pre : list nat) : hpda :=
  let H1 := h_add_state H (Nat.max from (r_to r)) in
  let s := nth from (hp_states H1) empty_hstate in
  let s' := mk_hstate (um_emplace_mod r no_labels (fun ls => merge ls w pre) (hs_rules s)) (hs_pre s) in
  let sts := upd (hp_states H1) from s' in
  let t := nth (r_to r) sts empty_hstate in
  mk_hpda (upd sts (r_to r) (mk_hstate (hs_rules t) (vs_emplace from (hs_pre t)))) (hp_nlab H1).
Definition h_add_urule (H : hpda) (u : urule) : hpda := h_add_rule_impl H (u_from u) (u_rule u) (u_wild u) (u_pre u).
Definition hbuild (nlab : nat) (us : list urule) : hpda := fold_left h_add_urule us (mk_hpda [] nlab).

(** PDA(PDA<W, OtherContainer>&&), internal/PDA.h 243-246, state_t(hash state_t&&), 222-223, and vector_map(unordered_map&&), vector_set.h 66-69:
    [perm i] is the order in which the hash table of state i yields its entries. The label map moves along (PDA.h 114-121). *)
Fixpoint convert_from (perm : nat -> list (rule * labels) -> list (rule * labels)) (i : nat) (sts : list hstate) : list pstate :=
  match sts with
  | [] => []
  | s :: sts' => mk_pstate (vm_of_unordered rule_ltb (perm i (hs_rules s))) (hs_pre s) :: convert_from perm (S i) sts'
  end.
Definition convert (perm : nat -> list (rule * labels) -> list (rule * labels)) (H : hpda) : pda :=
  mk_pda (convert_from perm 0 (hp_states H)) (hp_nlab H).

(** PAutomatonProduct(pda, initial_nfa, initial_states, final_nfa, final_states), PAutomatonProduct.h 62-67, with intersect_vector, 480-487: the states
    of the product that accept are computed from the two lists of states and not from the automata. None: an assertion fails. *)
Definition new_inst_nfa (addr : nat -> nat) (ord : nat -> list nat -> list nat) (P : pda) (N1 : nfa) (s1 : list nat) (N2 : nfa) (s2 : list nat) : option inst :=
  A1 <- aut_of_nfa addr P ord N1 ne_sym s1 ;;
  A2 <- aut_of_nfa addr P ord N2 ne_sym s2 ;;
  if is_sorted Nat.ltb s1 && is_sorted Nat.ltb s2 then
    e1 <- empty_accept addr N1 ;;
    e2 <- empty_accept addr N2 ;;
    pa <- aut_special P ord (NfaQueryModel.set_inter s1 s2) (e1 && e2) ;;
    Some (mk_inst A1 A2 (mk_prod pa [] [] []))
  else None.

(** * DFS_PDAFactory, PDAFactory.h 88-134 *)

(** rule_t of the typed PDA, PDA.h 64-110. A label of the label set is its id: the constructor 127-138 inserts them in increasing order.
    Numbers from [nlab] on are labels outside the set. *)
Record frule := mk_frule { f_from : nat; f_pre : nat; f_to : nat; f_op : op; f_opl : nat; f_w : Z }.

(** The functions a derived class supplies: initial (65), accepting(size_t) (127), rules (128), and the wildcard label (130). *)
Record factory := mk_factory { fa_init : list nat; fa_acc : nat -> bool; fa_rules : nat -> list frule; fa_wild : nat }.

Section Factory.
  Variable F : factory.
  (** The op_label of rules without one: the uint32 maximum (PDA.h 249). *)
  Variable no_opl : nat.

  (** find_labelid, PDA.h 240-250. None: an exception is thrown. *)
  Definition f_labelid (nlab : nat) (o : op) (l : nat) : option nat :=
    match o with POP | NOOP => Some no_opl | _ => if Nat.ltb l nlab then Some l else None end.
  (** add_rule(rule_t), PDA.h 153-159, 254-276 with encode_pre 174-183 (None: assertion), or add_wildcard_rule(rule_t), 160-167, as selected in
      PDAFactory.h 109-113. *)
  Definition f_add (H : hpda) (r : frule) : option hpda :=
    lid <- f_labelid (hp_nlab H) (f_op r) (f_opl r) ;;
    let ir := mk_rule (f_to r) (f_op r) lid (f_w r) in
    if Nat.eqb (f_pre r) (fa_wild F) then Some (h_add_rule_impl H (f_from r) ir true [])
    else if Nat.ltb (f_pre r) (hp_nlab H) then Some (h_add_rule_impl H (f_from r) ir false [f_pre r]) else None.

  (** The local variables of build_pda, 96-123, and the member _accepting_states (132): the back of [waiting] is the head of the list here; the hash set
      [seen] is only asked for membership. *)
  Record fstate := mk_fstate { fs_pda : hpda; fs_wait : list nat; fs_seen : list nat; fs_acc : list nat }.
  (** The body of the loop over the rules, 107-119. None: the assertion 108 fails or the rule cannot be added. *)
  Definition f_rule (from : nat) (st : fstate) (r : frule) : option fstate :=
    if Nat.eqb from (f_from r)
    then H <- f_add (fs_pda st) r ;;
         Some (if existsb (Nat.eqb (f_to r)) (fs_seen st) then mk_fstate H (fs_wait st) (fs_seen st) (fs_acc st)
               else mk_fstate H (f_to r :: fs_wait st) (f_to r :: fs_seen st) (fs_acc st))
    else None.
  (** The loop 101-120; Some None: out of fuel. *)
  Fixpoint f_loop (fuel : nat) (st : fstate) : option (option fstate) :=
    match fs_wait st with
    | [] => Some (Some st)
    | from :: w =>
        match fuel with
        | 0 => Some None
        | S fuel' =>
            st' <- ofold (f_rule from) (fa_rules F from)
                     (mk_fstate (fs_pda st) w (fs_seen st) (if fa_acc F from then fs_acc st ++ [from] else fs_acc st)) ;;
            f_loop fuel' st'
        end
    end.
  (** build_pda, 96-123: the PDA and the sorted accepting states. *)
  Definition f_build (nlab fuel : nat) : option (option (hpda * list nat)) :=
    match f_loop fuel (mk_fstate (mk_hpda [] nlab) (rev (fa_init F)) (fa_init F) []) with
    | None => None
    | Some None => Some None
    | Some (Some st) => Some (Some (fs_pda st, sort_nat (fs_acc st)))
    end.

  (** BasePDAFactory::compile, 57-61, with the constructors SolverInstance.h 45-48 and PAutomatonProduct.h 62-67: the PDA and the instance. [addr] is the
      order of NFA states in memory, [ord] that of the hash tables of the automata. *)
  Definition f_compile (addr : nat -> nat) (ord : nat -> list nat -> list nat) (perm : nat -> list (rule * labels) -> list (rule * labels))
    (nlab fuel : nat) (N1 N2 : nfa) : option (option (pda * inst)) :=
    match f_build nlab fuel with
    | None => None
    | Some None => Some None
    | Some (Some (H, acc)) =>
        let P := convert perm H in
        I <- new_inst_nfa addr ord P N1 (fa_init F) N2 acc ;;
        Some (Some (P, I))
    end.

  (** The pushdown system the derived class describes, for a label set of [nlab] labels. *)
  Definition factory_pds (nlab : nat) : pds := fun sr =>
    exists r, In r (fa_rules F (s_from sr)) /\ s_to sr = f_to r /\
      s_op sr = (match f_op r with PUSH => SPush (f_opl r) | POP => SPop | SWAP => SSwap (f_opl r) | NOOP => SNoop end) /\
      (if Nat.eqb (f_pre r) (fa_wild F) then s_pre sr < nlab else s_pre sr = f_pre r).
End Factory.
