(** Model of PAutomatonProduct (src/include/pdaaal/PAutomatonProduct.h) for Trace_Type other than Shortest. The weights and trace
    annotations of product edges are not modelled (they are [TNull]): for these trace types nothing reads them. *)
From Coq Require Import List Arith Lia Bool.
From Verif Require Import Base Spec PdaModel AutModel SolverModel QueryModel.
Import ListNotations.

(** Members _product, _id_map, _id_fast_lookup, _id_fast_lookup_back, 495-501. [pr_ids] lists the pairs stored in _id_map; the pair at
    position i is the product state n + i. *)
Record prod_st := mk_prod {
  pr_aut : aut;
  pr_ids : list (nat * nat);
  pr_fast : list (list (nat * nat));
  pr_back : list (list (nat * nat)) }.

Section Product.
  (** _pda_size *)
  Variable n : nat.

  (** get_original_ids, 411-418. None: unpack of an id that was never inserted. *)
  Definition pr_pair (pr : prod_st) (id : nat) : option (nat * nat) :=
    if Nat.ltb id n then Some (id, id) else nth_error (pr_ids pr) (id - n).

  (** Position of a pair in _id_map (ptrie_set::insert returns it, with a flag, 439). *)
  Fixpoint id_find (k : nat * nat) (l : list (nat * nat)) (i : nat) : option nat :=
    match l with
    | [] => None
    | k' :: l' => if Nat.eqb (fst k') (fst k) && Nat.eqb (snd k') (snd k) then Some i else id_find k l' (S i)
    end.

  (** "if (a >= v.size()) v.resize(a + 1); v[a].emplace_back(b, id)", 443-452. *)
  Definition fast_add (v : list (list (nat * nat))) (a : nat) (x : nat * nat) : list (list (nat * nat)) :=
    let v1 := if Nat.leb (length v) a then vresize [] (a + 1) v else v in
    upd v1 a (nth a v1 [] ++ [x]).

  (** get_product_state<needs_back_lookup>, 430-456. Result: new product, fresh, id. None: a state id outside of an automaton (the
      pointers would be invalid), or the assertion 442. *)
  Definition get_product_state (back : bool) (F S : aut) (pr : prod_st) (a b : nat) : option (prod_st * (bool * nat)) :=
    acc_a <- accepting F a ;;
    acc_b <- accepting S b ;;
    if Nat.eqb a b && Nat.ltb a n then Some (pr, (false, a))
    else match id_find (a, b) (pr_ids pr) 0 with
         | Some i => Some (pr, (false, i + n))
         | None =>
             let id := a_size (pr_aut pr) in
             if Nat.eqb id (length (pr_ids pr) + n) then
               Some (mk_prod (a_add_state (pr_aut pr) (acc_a && acc_b)) (pr_ids pr ++ [(a, b)])
                       (fast_add (pr_fast pr) a (b, id))
                       (if back then fast_add (pr_back pr) b (a, id) else pr_back pr), (true, id))
             else None
         end.

  (** _product.add_edge / add_epsilon_edge. *)
  Definition pr_add_edge (pr : prod_st) (from : nat) (l : option nat) (to : nat) : option prod_st :=
    A <- a_add_edge (pr_aut pr) from l to TNull ;; Some (mk_prod A (pr_ids pr) (pr_fast pr) (pr_back pr)).

  (** _product.has_accepting_state(), internal/PAutomaton.h 659-661. *)
  Definition has_accepting (pr : prod_st) : bool := existsb (fun b => b) (a_acc (pr_aut pr)).

  (** Loop state: the product and the waiting vector (back at the head). Early return carries the product ("return true"). *)
  Definition ploop := (prod_st * list nat)%type.

  (** Common end of the loop bodies, for example 333-341: return early if ET and an accepting state exists, else push if fresh. *)
  Definition pr_finish (ET : bool) (pr : prod_st) (waiting : list nat) (fresh : bool) (id : nat) : ploop + prod_st :=
    if ET && has_accepting pr then inr pr else inl (pr, if fresh then id :: waiting else waiting).

  (** One target of the epsilon loop 316-344. *)
  Definition pr_eps_body (back ET flip : bool) (F S : aut) (top i_from f_from : nat) (s : ploop) (to : nat) : option (ploop + prod_st) :=
    if has_label (if flip then F else S) (if flip then i_from else f_from) to None then
      gp <- get_product_state back F S (fst s) (if flip then to else i_from) (if flip then f_from else to) ;;
      pr1 <- pr_add_edge (fst gp) top None (snd (snd gp)) ;;
      Some (pr_finish ET pr1 (snd s) (fst (snd gp)) (snd (snd gp)))
    else Some (inl s).

  (** std::set_intersection on the label vectors, 367. *)
  Fixpoint set_inter (fuel : nat) (a b : list (option nat)) : list (option nat) :=
    match fuel with
    | 0 => []
    | S f =>
        match a, b with
        | x :: a', y :: b' =>
            if lab_ltb x y then set_inter f a' b
            else if lab_ltb y x then set_inter f a b'
            else x :: set_inter f a' b'
        | _, _ => []
        end
    end.
  Definition label_inter (a b : list (option nat)) : list (option nat) := set_inter (length a + length b) a b.
  (** "!labels.empty() && labels.size() > (labels.back() == epsilon ? 1 : 0)", 369. *)
  Definition has_proper_label (ls : list (option nat)) : bool :=
    match rev ls with
    | [] => false
    | None :: _ => Nat.ltb 1 (length ls)
    | Some _ :: _ => Nat.ltb 0 (length ls)
    end.

  (** Loop 371-375. *)
  Definition pr_add_labels (pr : prod_st) (top id : nat) (ls : list (option nat)) : option prod_st :=
    ofold (fun pr l => match l with None => Some pr | Some _ => pr_add_edge pr top l id end) ls pr.

  (** One pair of targets, 347-397. *)
  Definition pr_pair_body (back ET : bool) (F S : aut) (top i_from f_from i_to : nat) (s : ploop) (f_to : nat) : option (ploop + prod_st) :=
    let ls := label_inter (labels_between F i_from i_to) (labels_between S f_from f_to) in
    if has_proper_label ls then
      gp <- get_product_state back F S (fst s) i_to f_to ;;
      pr1 <- pr_add_labels (fst gp) top (snd (snd gp)) ls ;;
      Some (pr_finish ET pr1 (snd s) (fst (snd gp)) (snd (snd gp)))
    else Some (inl s).

  (** Body of the while loop, 309-399. None also if a component state is out of range. *)
  Definition pr_expand (back ET : bool) (F S : aut) (top : nat) (s : ploop) : option (ploop + prod_st) :=
    ab <- pr_pair (fst s) top ;;
    if Nat.ltb (fst ab) (a_size F) && Nat.ltb (snd ab) (a_size S) then
      r1 <- eloop (pr_eps_body back ET true F S top (fst ab) (snd ab)) (tos F (fst ab)) s ;;
      match r1 with
      | inr pr => Some (inr pr)
      | inl s1 =>
          r2 <- eloop (pr_eps_body back ET false F S top (fst ab) (snd ab)) (tos S (snd ab)) s1 ;;
          match r2 with
          | inr pr => Some (inr pr)
          | inl s2 =>
              eloop (fun s i_to => eloop (pr_pair_body back ET F S top (fst ab) (snd ab) i_to) (tos S (snd ab)) s) (tos F (fst ab)) s2
          end
      end
    else None.

  (** construct_reachable, 306-408. The number of iterations is bounded by [fuel]; running out is reported as undefined. Callers pass
      [pr_fuel], which is proved to be sufficient. *)
  Fixpoint pr_construct (fuel : nat) (back ET : bool) (F S : aut) (pr : prod_st) (waiting : list nat) : option (bool * prod_st) :=
    match waiting with
    | [] => Some (has_accepting pr, pr)
    | top :: waiting' =>
        match fuel with
        | 0 => None
        | S f =>
            r <- pr_expand back ET F S top (pr, waiting') ;;
            match r with
            | inr pr' => Some (true, pr')
            | inl (pr', w') => pr_construct f back ET F S pr' w'
            end
        end
    end.
  (** Every state waits at most once: the waiting ones plus all pairs that can still be created. *)
  Definition pr_fuel (F S : aut) (waiting : list nat) : nat := length waiting + a_size F * a_size S.

  (** initialize_product<needs_back_lookup,ET>, 86-101. *)
  Definition initialize_product (back ET : bool) (F S : aut) (pr : prod_st) : option (bool * prod_st) :=
    let w := rev (seq 0 (a_size (pr_aut pr))) in pr_construct (pr_fuel F S w) back ET F S pr w.

  (** One product target of add_edge, 257-286. *)
  Definition pr_target_body (in_first back ET : bool) (F S : aut) (l : option nat) (to product_from : nat) (s : ploop) (other_to : nat)
      : option (ploop + prod_st) :=
    gp <- get_product_state back F S (fst s) (if in_first then to else other_to) (if in_first then other_to else to) ;;
    pr1 <- pr_add_edge (fst gp) product_from l (snd (snd gp)) ;;
    Some (pr_finish ET pr1 (snd s) (fst (snd gp)) (snd (snd gp))).

  (** add_edge<edge_in_first,is_dual,ET>, 221-288. *)
  Definition pr_add_component_edge (in_first dual ET : bool) (F S : aut) (pr : prod_st) (e : edge) : option (bool * prod_st) :=
    let from := e_src e in
    let other := if in_first then S else F in
    let from_states := nth from (if in_first then pr_fast pr else pr_back pr) [] ++ (if Nat.ltb from n then [(from, from)] else []) in
    r <- eloop (fun s (x : nat * nat) =>
           if Nat.ltb (fst x) (a_size other) then
             eloop (pr_target_body in_first dual ET F S (e_lab e) (e_dst e) (snd x))
               (match e_lab e with
                | None => [fst x]
                | Some l => filter (fun t => has_label other (fst x) t (Some l)) (tos other (fst x))
                end) s
           else None) from_states (pr, []) ;;
    match r with
    | inr pr' => Some (true, pr')
    | inl (pr', w) => pr_construct (pr_fuel F S w) dual ET F S pr' w
    end.

  (** The product of PAutomatonProduct(pda, initial, final), 69-76, 400-409: the PDA states, accepting if accepting in both; the order
      oracle of its hash tables is [ord]. None: one of the automata has fewer states than the PDA. *)
  Definition pr_new (ord : nat -> list nat -> list nat) (F S : aut) : option prod_st :=
    if Nat.leb n (a_size F) && Nat.leb n (a_size S) then
      Some (mk_prod (mk_aut (map (fun ab => fst ab && snd ab) (combine (firstn n (a_acc F)) (firstn n (a_acc S)))) [] ord) [] [] [])
    else None.
End Product.
