(** Model of src/include/pdaaal/cegar/Refinement.h (partitions used to refine an abstraction) and of
    src/include/pdaaal/cegar/AbstractionMapping.h (the abstraction itself). The templates are over ordered types; here the
    elements are natural numbers. None = an assertion fails or undefined behaviour. *)
From Coq Require Import List Arith Bool.
From Verif Require Import Base PdaModel NfaModel NfaQueryModel ContainersModel TrieModel.
Import ListNotations.

(** *** Standard algorithms *)
(** std::sort on numbers and on pairs. *)
Fixpoint ins_nat (x : nat) (l : list nat) : list nat :=
  match l with [] => [x] | y :: l' => if Nat.ltb y x then y :: ins_nat x l' else x :: l end.
Definition sort_nat (l : list nat) : list nat := fold_right ins_nat [] l.
Definition pair_ltb (p q : nat * nat) : bool := Nat.ltb (fst p) (fst q) || (Nat.eqb (fst p) (fst q) && Nat.ltb (snd p) (snd q)).
Fixpoint ins_pair (x : nat * nat) (l : list (nat * nat)) : list (nat * nat) :=
  match l with [] => [x] | y :: l' => if pair_ltb y x then y :: ins_pair x l' else x :: l end.
Definition sort_pairs (l : list (nat * nat)) : list (nat * nat) := fold_right ins_pair [] l.
Fixpoint pairs_sorted (l : list (nat * nat)) : bool :=
  match l with x :: ((y :: _) as l') => negb (pair_ltb y x) && pairs_sorted l' | _ => true end.
(** std::inplace_merge of two sorted ranges. *)
Fixpoint merge_nat (a : list nat) : list nat -> list nat :=
  match a with
  | [] => fun b => b
  | x :: a' => fix go (b : list nat) : list nat :=
      match b with [] => a | y :: b' => if Nat.ltb y x then y :: go b' else x :: merge_nat a' b end
  end.
(** Appending an element only if it differs from the last one (Refinement.h 204, 219, 299, 304); also std::unique, 308. *)
Fixpoint uniq (prev : option nat) (l : list nat) : list nat :=
  match l with
  | [] => []
  | x :: l' => if match prev with Some y => Nat.eqb y x | None => false end then uniq prev l' else x :: uniq (Some x) l'
  end.
(** is_disjoint for two ranges of numbers (ContainersModel). *)
Definition disj (a b : list nat) : option bool := r <- is_disjoint Nat.ltb Nat.ltb a b ;; r.
Definition is_nil {A} (l : list A) : bool := match l with [] => true | _ => false end.

(** *** Refinement, Refinement.h 41-173 *)
Record refinement := mk_ref { rf_parts : list (list nat); rf_id : nat }.
(** The constructor for two parts, 49-57. *)
Definition ref_two (first second : list nat) (id : nat) : option refinement :=
  if is_nil first || is_nil second then None
  else b <- disj (sort_nat first) (sort_nat second) ;; if b then Some (mk_ref [sort_nat first; sort_nat second] id) else None.

(** Arrays of two elements, indexed by 0 (false) and 1 (true). *)
Definition get2 {A} (i : bool) (p : A * A) : A := if i then snd p else fst p.
Definition set2 {A} (i : bool) (p : A * A) (x : A) : A * A := if i then (fst p, x) else (x, snd p).
(** The state of the main loop of combine: _partitions, already_in_partitions (74), ok_partition_id (80; None is the maximal
    value of size_t). *)
Record cmb := mk_cmb { cm_parts : list (list nat); cm_in : list nat * list nat; cm_ok : option nat * option nat }.
Definition same_id (o : option nat) (i : nat) : bool := match o with Some j => Nat.eqb j i | None => false end.
Definition is_none {A} (o : option A) : bool := match o with None => true | _ => false end.
(** Body of the loop 88-102 for partition number i with elements p; the last component is empty_intersection_found. *)
Definition cm_inter (Q : list nat * list nat) (i : nat) (p : list nat)
  (st : (list nat * list nat) * (option nat * option nat) * bool) (o : bool) : (list nat * list nat) * (option nat * option nat) * bool :=
  let '(al, ok, em) := st in
  let s := set_inter p (get2 o Q) in
  let al' := set2 o al (get2 o al ++ s) in
  if is_nil s
  then (al', (if is_none (get2 (negb o) ok) && negb (same_id (get2 o ok) i) then set2 (negb o) ok (Some i) else ok), true)
  else (al', ok, em).
(** One round of the main loop, 85-124. *)
Definition cm_round (Q : list nat * list nat) (c : cmb) (i : nat) : option cmb :=
  p <- nth_error (cm_parts c) i ;;
  let '(al, ok, em) := fold_left (cm_inter Q i p) [false; true] (cm_in c, cm_ok c, false) in
  if em then Some (mk_cmb (cm_parts c) al ok)
  else
    let size o := length (get2 o al) - length (get2 o (cm_in c)) in
    let mv := if Nat.ltb (size false) (size true) then false else true in
    let ok' o := match get2 o ok with None => None | Some _ => Some (if Bool.eqb mv o then length (cm_parts c) else i) end in
    let part := skipn (length (get2 mv (cm_in c))) (get2 mv al) in
    Some (mk_cmb (upd (cm_parts c ++ [part]) i (set_diff p part)) al (ok' false, ok' true)).
(** Lines 126-151 for one of the two parts. *)
Definition cm_rest (Q : list nat * list nat) (al : list nat * list nat) (ok : option nat * option nat) (parts : list (list nat)) (o : bool)
  : option (list (list nat)) :=
  if Nat.eqb (length (get2 o al)) (length (get2 o Q)) then Some parts
  else
    let rest := set_diff (get2 o Q) (sort_nat (get2 o al)) in
    match get2 o ok with
    | Some k => p <- nth_error parts k ;; Some (upd parts k (merge_nat p rest))
    | None => Some (parts ++ [rest])
    end.
(** The assertions 152-159. *)
Fixpoint disj_all (p : list nat) (l : list (list nat)) : option bool :=
  match l with [] => Some true | q :: l' => b <- disj p q ;; if b then disj_all p l' else Some false end.
Fixpoint pairwise_disj (l : list (list nat)) : option bool :=
  match l with [] => Some true | p :: l' => b <- disj_all p l' ;; if b then pairwise_disj l' else Some false end.
(** combine, 59-160 *)
Definition ref_combine (r other : refinement) : option refinement :=
  if negb (Nat.eqb (rf_id r) (rf_id other)) then None
  else if is_nil (rf_parts r) then Some (mk_ref (rf_parts other) (rf_id r))
  else if Nat.ltb (length (rf_parts r)) 2 then None
  else match rf_parts other with
  | [q0; q1] =>
      if is_nil q0 || is_nil q1 || negb (is_sorted Nat.ltb q0) || negb (is_sorted Nat.ltb q1) then None
      else
        c <- ofold (cm_round (q0, q1)) (seq 0 (length (rf_parts r))) (mk_cmb (rf_parts r) ([], []) (None, None)) ;;
        ps <- ofold (cm_rest (q0, q1) (cm_in c) (cm_ok c)) [false; true] (cm_parts c) ;;
        b <- pairwise_disj ps ;;
        if b then Some (mk_ref ps (rf_id r)) else None
  | _ => None
  end.

(** *** HeaderRefinement::combine, 179-187 *)
Fixpoint header_combine (h : list refinement) (r : refinement) : option (list refinement) :=
  match h with
  | [] => Some [r]
  | r' :: h' => if Nat.eqb (rf_id r') (rf_id r) then (x <- ref_combine r' r ;; Some (x :: h'))
                else x <- header_combine h' r ;; Some (r' :: x)
  end.

(** *** Refinement of pairs, 198-377 *)
(** BmatchA, 198-209. std::equal_range on a range sorted by the first component is the sublist with that first component. *)
Definition BmatchA (input : list (nat * nat)) (a : nat) : option (list nat) :=
  if pairs_sorted input then Some (uniq None (map snd (filter (fun e => Nat.eqb (fst e) a) input))) else None.
(** AmatchB_bucket, 211-235; the loop 224-231 starts each search where the last one ended. *)
Fixpoint ab_loop (bm : list (nat * nat)) (set : list nat) (lb : nat) : option (list nat) :=
  match set with
  | [] => Some []
  | a :: set' =>
      i <- lower_bound_from (fun e => Nat.ltb (fst e) a) bm lb ;;
      e <- nth_error bm i ;;
      if Nat.eqb (fst e) a then r <- ab_loop bm set' (S i) ;; Some (snd e :: r) else None
  end.
Definition AmatchB_bucket (input : list (nat * nat)) (b : nat) (bm : list (nat * nat)) : option (list nat) :=
  if pairs_sorted input && is_sorted Nat.ltb (map fst bm) then
    r <- ab_loop bm (uniq None (map fst (filter (fun e => Nat.eqb (snd e) b) input))) 0 ;; Some (sort_set r)
  else None.
(** assign_to_bucket, 237-273: buckets, Z_X, Z_Y and the number of the bucket. *)
Fixpoint assign_to_bucket (parts zx zy : list (list nat)) (Xs Ys : list nat) (elem : nat)
  : option (list (list nat) * list (list nat) * list (list nat) * nat) :=
  match parts with
  | [] => Some ([[elem]], zx ++ [Xs], zy ++ [Ys], 0)
  | p :: ps =>
      match zx, zy with
      | x :: zx', y :: zy' =>
          d1 <- disj y Xs ;;
          d2 <- (if d1 then disj x Ys else Some false) ;;
          if d2 then Some ((p ++ [elem]) :: ps, set_union x Xs :: zx', set_union y Ys :: zy', 0)
          else r <- assign_to_bucket ps zx' zy' Xs Ys elem ;;
               let '(ps', zx'', zy'', k) := r in Some (p :: ps', x :: zx'', y :: zy'', S k)
      | _, _ => None
      end
  end.
(** The loops 315-317 and 324-326; [fX], [fY] compute the sets for an element. *)
Fixpoint assign_all (fX fY : nat -> option (list nat)) (elems : list nat) (parts zx zy : list (list nat))
  : option (list (list nat) * list (nat * nat)) :=
  match elems with
  | [] => Some (parts, [])
  | e :: es =>
      xs <- fX e ;; ys <- fY e ;;
      r <- assign_to_bucket parts zx zy xs ys e ;;
      let '(parts', zx', zy', k) := r in
      r' <- assign_all fX fY es parts' zx' zy' ;; Some (fst r', (e, k) :: snd r')
  end.
(** make_pair_refinement, 276-338. The order in which the unordered set Bs (297) is traversed is arbitrary: [ordB]. *)
Definition pair_refine (ordB : list nat -> list nat) (X Y : list (nat * nat)) (Yw : list nat) (A_id B_id : nat)
  : option (refinement * refinement) :=
  if is_nil X || (is_nil Y && is_nil Yw) then None
  else
    let X := sort_pairs X in let Y := sort_pairs Y in
    if negb (is_sorted Nat.ltb Yw) then None
    else
      d1 <- is_disjoint (fun p a => Nat.ltb (fst p) a) (fun a p => Nat.ltb a (fst p)) Y Yw ;;
      d2 <- is_disjoint (fun p a => Nat.ltb (fst p) a) (fun a p => Nat.ltb a (fst p)) X Yw ;;
      match d1, d2 with
      | Some true, Some true =>
          let ax := uniq None (map fst X) in
          let ay := uniq (last (map Some ax) None) (map fst Y) in
          let As := uniq None (merge_nat ax ay) in
          let Bs := ordB (sort_set (map snd X ++ map snd Y)) in
          ra <- assign_all (BmatchA X) (BmatchA Y) As [[]] [[]] [[]] ;;
          let bm := snd ra in
          rb <- assign_all (fun b => AmatchB_bucket X b bm) (fun b => AmatchB_bucket Y b bm) Bs [[]] [[]] [[]] ;;
          let pa := if is_nil Yw then fst ra else fst ra ++ [Yw] in
          if Nat.leb 2 (length pa) || Nat.leb 2 (length (fst rb)) then Some (mk_ref pa A_id, mk_ref (fst rb) B_id) else None
      | _, _ => None
      end.
(** make_simple_pair_refinement, 341-377. *)
Definition simple_pair_refine (X Y : list (nat * nat)) (Yw : list nat) (A_id B_id : nat) : option (refinement * refinement) :=
  match X with
  | [] => None
  | (xa, xb) :: _ =>
      r <- match Yw with
           | ya :: _ => if Nat.eqb xa ya then None else Some ([[xa]; [ya]], [])
           | [] => match Y with
                   | (ya, yb) :: _ => Some (if Nat.eqb xa ya then [] else [[xa]; [ya]], if Nat.eqb xb yb then [] else [[xb]; [yb]])
                   | [] => None
                   end
           end ;;
      if Nat.leb 2 (length (fst r)) || Nat.leb 2 (length (snd r)) then Some (mk_ref (fst r) A_id, mk_ref (snd r) B_id) else None
  end.

(** *** RefinementMapping, AbstractionMapping.h 43-152: _many_to_one_map and _one_to_many_ids. *)
Record rmap := mk_rmap { rm_map : list (nat * nat); rm_ids : list (list nat) }.
(** exists, 86-89 (None: not found), and maps_to, 91-94. *)
Definition rm_exists (m : rmap) (x : nat) : option nat := k <- tm_exists Nat.eqb (rm_map m) x ;; tm_data (rm_map m) k.
Definition rm_maps_to (m : rmap) (x id : nat) : bool := match rm_exists m x with Some i => Nat.eqb i id | None => false end.
(** size, 145-147 *)
Definition rm_size (m : rmap) : nat := length (rm_ids m).
(** get_concrete_values, 109-118, and get_concrete_values_range, 138-143 (the same values in the same order). *)
Fixpoint omap {A B} (f : A -> option B) (l : list A) : option (list B) :=
  match l with [] => Some [] | x :: l' => y <- f x ;; r <- omap f l' ;; Some (y :: r) end.
Definition rm_concrete (m : rmap) (a : nat) : option (list nat) :=
  match nth_error (rm_ids m) a with Some ks => omap (tm_at (rm_map m)) ks | None => Some [] end.
(** encode_many, 96-106: the values of an unordered set, sorted. *)
Definition rm_encode_many (m : rmap) (xs : list nat) : option (list nat) :=
  r <- omap (rm_exists m) xs ;; Some (sort_set r).
(** std::max_element by size, 57-58: the first largest part. *)
Fixpoint max_index (l : list (list nat)) (i best len : nat) : nat :=
  match l with [] => best | p :: l' => if Nat.ltb len (length p) then max_index l' (S i) i (length p) else max_index l' (S i) best len end.
Definition max_part (l : list (list nat)) : nat := match l with [] => 0 | p :: l' => max_index l' 1 0 (length p) end.
(** Lines 68-73: moving one value to the class new_id. *)
Definition rf_move (new_id : nat) (s : rmap * list nat) (x : nat) : option (rmap * list nat) :=
  let '(m, moved) := s in
  k <- tm_exists Nat.eqb (rm_map m) x ;;
  mp <- tm_set (rm_map m) k new_id ;;
  b <- nth_error (rm_ids m) new_id ;;
  Some (mk_rmap mp (upd (rm_ids m) new_id (b ++ [k])), moved ++ [k]).
(** Lines 60-74 for one part. *)
Definition rf_part (id mx : nat) (s : rmap * list nat) (ip : nat * list nat) : option (rmap * list nat) :=
  let '(m, moved) := s in
  let '(i, p) := ip in
  if is_nil p || negb (forallb (fun x => rm_maps_to m x id) p) then None
  else if Nat.eqb i mx then Some (m, moved)
  else ofold (rf_move (length (rm_ids m))) p (mk_rmap (rm_map m) (rm_ids m ++ [[]]), moved).
(** refine, 54-84 *)
Definition rm_refine (m : rmap) (r : refinement) : option rmap :=
  if Nat.leb (length (rf_parts r)) 1 then Some m
  else
    s <- ofold (rf_part (rf_id r) (max_part (rf_parts r))) (enum (rf_parts r)) (m, []) ;;
    let '(m', moved) := s in
    b <- nth_error (rm_ids m') (rf_id r) ;;
    Some (mk_rmap (rm_map m') (upd (rm_ids m') (rf_id r) (set_diff (sort_nat b) (sort_nat moved)))).

(** *** AbstractionMapping, 158-237: additionally the abstract values. [f] is _map_fn. *)
Record amap := mk_amap { am_rm : rmap; am_abs : list nat }.
Definition am_empty : amap := mk_amap (mk_rmap [] []) [].
Definition resize_ids (ids : list (list nat)) (v : nat) : list (list nat) :=
  if Nat.leb (length ids) v then ids ++ repeat [] (S v - length ids) else ids.
(** insert, 179-195: the result is the new mapping, whether the abstract value is new and its id. *)
Definition am_insert (f : nat -> nat) (m : amap) (x : nat) (ignore : bool) : option (amap * (bool * nat)) :=
  let '(mp, (fresh, kid)) := if ignore then (rm_map (am_rm m), (true, 0)) else tm_insert Nat.eqb (rm_map (am_rm m)) x 0 in
  if negb fresh then d <- tm_data mp kid ;; Some (m, (false, d))
  else
    let '(abs, (fresh_value, v)) := ts_insert Nat.eqb (am_abs m) (f x) in
    let ids := resize_ids (rm_ids (am_rm m)) v in
    if ignore then Some (mk_amap (mk_rmap mp ids) abs, (fresh_value, v))
    else
      mp' <- tm_set mp kid v ;;
      b <- nth_error ids v ;;
      Some (mk_amap (mk_rmap mp' (upd ids v (b ++ [kid]))) abs, (fresh_value, v)).
(** insert_abstract, 197-203 *)
Definition am_insert_abstract (m : amap) (a : nat) : amap * (bool * nat) :=
  let '(abs, (fresh_value, v)) := ts_insert Nat.eqb (am_abs m) a in
  (mk_amap (mk_rmap (rm_map (am_rm m)) (resize_ids (rm_ids (am_rm m)) v)) abs, (fresh_value, v)).
(** The constructor from a range of values, 170-175. *)
Definition am_of (f : nat -> nat) (xs : list nat) : option amap :=
  ofold (fun m x => r <- am_insert f m x false ;; Some (fst r)) xs am_empty.
(** exists, 205-211 (None: not found). *)
Definition am_exists (f : nat -> nat) (m : amap) (x : nat) (ignore : bool) : option nat :=
  if ignore then ts_exists Nat.eqb (am_abs m) (f x)
  else _ <- tm_exists Nat.eqb (rm_map (am_rm m)) x ;; ts_exists Nat.eqb (am_abs m) (f x).
(** The constructor of RefinementMapping from an AbstractionMapping, 47-52. *)
Definition rm_of (m : amap) : option rmap := if forallb (fun b => negb (is_nil b)) (rm_ids (am_rm m)) then Some (am_rm m) else None.
