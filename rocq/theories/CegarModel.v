(** Model of the refinement loop CEGAR::cegar_solve (src/include/pdaaal/cegar/CegarPdaFactory.h 445-490) with
    CegarPdaFactory::reset_pda (60-62), BasePDAFactory::compile (PDAFactory.h 57-61) and AbstractionSolverInstance (AbstractionSolverInstance.h 42-61).
    None: an assertion fails or the behaviour is undefined. Some None: out of fuel. *)
From Coq Require Import List Arith Bool.
From Verif Require Import Base PdaModel ContainersModel AutModel NfaModel NfaQueryModel ProductModel TrieModel RefineModel AbstractionModel SolverModel VerdictModel FactoryModel.
Import ListNotations.

(** The constructor of AbstractionSolverInstance, AbstractionSolverInstance.h 42-45, with PAutomatonProduct.h 62-67 for automata
    AbstractionPAutomaton: as [new_inst_nfa], but the labels of the NFAs are encoded by the mapping of the PDA. *)
Definition new_inst_abs (m : rmap) (addr : nat -> nat) (ord : nat -> list nat -> list nat) (P : pda) (N1 : nfa) (s1 : list nat) (N2 : nfa) (s2 : list nat) : option inst :=
  A1 <- abstraction_aut m addr P ord N1 s1 ;;
  A2 <- abstraction_aut m addr P ord N2 s2 ;;
  if is_sorted Nat.ltb s1 && is_sorted Nat.ltb s2 then
    e1 <- empty_accept addr N1 ;;
    e2 <- empty_accept addr N2 ;;
    pa <- aut_special P ord (NfaQueryModel.set_inter s1 s2) (e1 && e2) ;;
    Some (mk_inst A1 A2 (mk_prod pa [] [] []))
  else None.

Section Cegar.
  (** [F]: the members of the class derived from CegarPdaFactory, except the mapping of labels (in _temp_pda). [T]: concrete_trace_t. *)
  Variables F T : Type.

  (** The result of reconstruct_trace, 130-133: the variant of a concrete trace, refinement_t (123: a refinement of the states and one of the
      labels, or an abstract rule that has no concrete one) and HeaderRefinement (a list of refinements of the labels). *)
  Inductive cres := RTrace (t : T) | RSplit (s r : refinement) | RRule (u : urule) | RHeader (rs : list refinement).

  (** What the derived class supplies. build_pda (PDAFactory.h 63) may ask for the abstraction of labels, add rules and change the members;
      initial and accepting (64-65) are called after the PDA has been moved out; refine follows reset_pda. *)
  Record cfactory := mk_cfactory {
    cf_build : F -> rmap -> F * list urule;
    cf_init : F -> list nat;
    cf_acc : F -> list nat;
    cf_refine : F -> rmap -> cres -> F }.

  Variable C : cfactory.
  (** The template parameter Reconstruction: what its reconstruct_trace returns (CegarPdaFactory.h 470-472). *)
  Variable rec : F -> rmap -> pda -> inst -> option cres.
  (** The template parameters of cegar_solve, 453. *)
  Variables use_pre use_dual : bool.
  (** Orders of NFA states in memory and of hash tables; the fuel for the saturation of an instance. *)
  Variables (addr : nat -> nat) (ord : nat -> list nat -> list nat) (perm : nat -> list (rule * labels) -> list (rule * labels)).
  Variable fu : pda -> inst -> nat.
  Variables N1 N2 : nfa.

  (** compile, PDAFactory.h 57-61: the rules are collected in a PDA with hash tables ([hbuild]) and converted; rm_size is number_of_labels
      (AbstractionPDA.h 52-54). The instance keeps the mapping. *)
  Definition cg_compile (f : F) (m : rmap) : option (F * pda * inst) :=
    let '(f', us) := cf_build C f m in
    let P := convert perm (hbuild (rm_size m) us) in
    I <- new_inst_abs m addr ord P N1 (cf_init C f') N2 (cf_acc C f') ;;
    Some (f', P, I).
  (** Lines 458-465. *)
  Definition cg_engine (P : pda) (fuel : nat) (I : inst) : option (option (bool * inst)) :=
    if use_pre then pre_star_accepts P fuel I
    else if use_dual then dual_search_accepts P fuel I
    else post_star_accepts P fuel I.
  (** move_pda_refinement_mapping, AbstractionSolverInstance.h 47-61, as selected in lines 477-481 and 485. *)
  Definition cg_mapping (m : rmap) (x : cres) : option rmap :=
    match x with
    | RTrace _ | RRule _ => Some m
    | RSplit _ r => rm_refine m r
    | RHeader rs => ofold rm_refine rs m
    end.
  (** cegar_solve, 453-489: [rounds] bounds the iterations of the loop. *)
  Fixpoint cegar_solve (rounds : nat) (f : F) (m : rmap) : option (option (option T)) :=
    match rounds with
    | 0 => Some None
    | S rounds' =>
        c <- cg_compile f m ;;
        let '(f', P, J) := c in
        v <- cg_engine P (fu P J) J ;;
        match v with
        | None => Some None
        | Some (false, _) => done None
        | Some (true, J') =>
            x <- rec f' m P J' ;;
            match x with
            | RTrace t => done (Some t)
            | _ => m' <- cg_mapping m x ;; cegar_solve rounds' (cf_refine C f' m' x) m'
            end
        end
    end.
End Cegar.
Arguments RTrace {T}. Arguments RSplit {T}. Arguments RRule {T}. Arguments RHeader {T}.
Arguments mk_cfactory {F T}. Arguments cf_build {F T}. Arguments cf_init {F T}. Arguments cf_acc {F T}. Arguments cf_refine {F T}.
Arguments cg_mapping {T}. Arguments cg_compile {F T}. Arguments cegar_solve {F T}.
