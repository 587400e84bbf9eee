(** Model of the queries with trace types ShortestFixedPoint and Longest by pre*: pre_star_fixed_point_accepts (src/include/pdaaal/Solver.h
    40-45), the product with the weights of its edges (PAutomatonProduct.h 86-101, 306-408 with ET = false and needs_back_lookup = false) and
    the weight that find_path_fixed_point (PAutomatonProduct.h 173-193) and get_trace (Solver.h 260-276) return. The path and the trace are
    not modelled. None = undefined behaviour or a failing assertion. *)
From Coq Require Import List Arith Bool ZArith.
From Verif Require Import Base PdaModel AutModel PreStarModel QueryModel SolverModel ProductModel UtilModel ShortModel FixModel.
Import ListNotations.

(** The product and the weights of its edges, newest entry first. *)
Record wprod := mk_wprod { wp_pr : prod_st; wp_w : list (edge * fwt) }.

Section WProduct.
  (** _pda_size *)
  Variable n : nat.

  (** _product.add_edge / add_epsilon_edge with a trace, internal/PAutomaton.h 723-729: emplace keeps the annotation of an edge that exists. *)
  Definition wp_add (wp : wprod) (from : nat) (l : option nat) (to : nat) (w : fwt) : option wprod :=
    pr <- pr_add_edge (wp_pr wp) from l to ;;
    Some (mk_wprod pr (if has_label (pr_aut (wp_pr wp)) from to l then wp_w wp else (mk_edge from l to, w) :: wp_w wp)).
  Definition wp_set (wp : wprod) (pr : prod_st) : wprod := mk_wprod pr (wp_w wp).
  Definition wloop := (wprod * list nat)%type.

  (** One target of the epsilon loop, PAutomatonProduct.h 313-343: the product edge gets the annotation of the epsilon edge. *)
  Definition wp_eps_body (flip : bool) (F S : faut) (top i_from f_from : nat) (s : wloop) (to : nat) : option wloop :=
    let A := if flip then F else S in
    let from := if flip then i_from else f_from in
    if has_label (fa_aut A) from to None then
      gp <- get_product_state n false (fa_aut F) (fa_aut S) (wp_pr (fst s)) (if flip then to else i_from) (if flip then f_from else to) ;;
      wp1 <- wp_add (wp_set (fst s) (fst gp)) top None (snd (snd gp)) (fa_weight A (mk_edge from None to)) ;;
      Some (wp1, if (fst (snd gp) : bool) then snd (snd gp) :: snd s else snd s)
    else Some s.

  (** One pair of targets, 345-397: std::set_intersection (365) copies the elements of its first range, the labels of the first automaton with
      their annotations. *)
  Definition wp_pair_body (F S : faut) (top i_from f_from i_to : nat) (s : wloop) (f_to : nat) : option wloop :=
    let ls := label_inter (labels_between (fa_aut F) i_from i_to) (labels_between (fa_aut S) f_from f_to) in
    if has_proper_label ls then
      gp <- get_product_state n false (fa_aut F) (fa_aut S) (wp_pr (fst s)) i_to f_to ;;
      wp1 <- ofold (fun wp l => match l with None => Some wp | Some _ => wp_add wp top l (snd (snd gp)) (fa_weight F (mk_edge i_from l i_to)) end)
               ls (wp_set (fst s) (fst gp)) ;;
      Some (wp1, if (fst (snd gp) : bool) then snd (snd gp) :: snd s else snd s)
    else Some s.

  (** Body of the while loop, 309-399. *)
  Definition wp_expand (F S : faut) (top : nat) (s : wloop) : option wloop :=
    ab <- pr_pair n (wp_pr (fst s)) top ;;
    if Nat.ltb (fst ab) (a_size (fa_aut F)) && Nat.ltb (snd ab) (a_size (fa_aut S)) then
      s1 <- ofold (wp_eps_body true F S top (fst ab) (snd ab)) (tos (fa_aut F) (fst ab)) s ;;
      s2 <- ofold (wp_eps_body false F S top (fst ab) (snd ab)) (tos (fa_aut S) (snd ab)) s1 ;;
      ofold (fun s i_to => ofold (wp_pair_body F S top (fst ab) (snd ab) i_to) (tos (fa_aut S) (snd ab)) s) (tos (fa_aut F) (fst ab)) s2
    else None.
  (** construct_reachable<false,false>, 306-408, with the bound of ProductModel. *)
  Fixpoint wp_construct (fuel : nat) (F S : faut) (wp : wprod) (waiting : list nat) : option (bool * wprod) :=
    match waiting with
    | [] => Some (has_accepting (wp_pr wp), wp)
    | top :: waiting' =>
        match fuel with
        | 0 => None
        | S f => r <- wp_expand F S top (wp, waiting') ;; wp_construct f F S (fst r) (snd r)
        end
    end.
  (** initialize_product<false,false>, 86-101. *)
  Definition wp_initialize (F S : faut) (wp : wprod) : option (bool * wprod) :=
    let w := rev (seq 0 (a_size (pr_aut (wp_pr wp)))) in wp_construct (pr_fuel (fa_aut F) (fa_aut S) w) F S wp w.
End WProduct.

Section FixSolve.
  Variable P : pda.
  Variable mx : bool.

  (** PAutomatonProduct(pda, initial, final), 71-74, then Solver::pre_star_fixed_point_accepts, Solver.h 40-45: enable_pre_star makes the final
      automaton the first one (133-140, 165-167). *)
  Definition pre_star_fixed_point_accepts (fuel : nat) (ord : nat -> list nat -> list nat) (init fin : faut) : option (option (bool * (faut * wprod))) :=
    pr <- pr_new (pd_n P) ord (fa_aut init) (fa_aut fin) ;;
    match pre_star_fixed_point P mx fuel fin with
    | None => None
    | Some None => Some None
    | Some (Some A) =>
        r <- wp_initialize (pd_n P) A init (mk_wprod pr []) ;;
        done (fst r, (A, snd r))
    end.
  Definition wp_faut (wp : wprod) : faut := mk_faut (pr_aut (wp_pr wp)) (wp_w wp) [].
  (** The weight that find_path_fixed_point returns, 173-193: None is max(), Some None is bottom. *)
  Definition fixed_point_weight (fuel : nat) (wp : wprod) : option (option (option fwt)) :=
    match fixed_point_paths (pd_n P) mx (wp_faut wp) fuel with
    | None => None
    | Some None => Some None
    | Some (Some d) => w <- z_weight d ;; done w
    end.
  (** Verdict and weight. *)
  Definition solve_fixed_point (fuel : nat) (ord : nat -> list nat -> list nat) (init fin : faut) : option (option (bool * option fwt)) :=
    match pre_star_fixed_point_accepts fuel ord init fin with
    | None => None
    | Some None => Some None
    | Some (Some r) =>
        match fixed_point_weight fuel (snd (snd r)) with
        | None => None
        | Some None => Some None
        | Some (Some w) => done (fst r, w)
        end
    end.
End FixSolve.
