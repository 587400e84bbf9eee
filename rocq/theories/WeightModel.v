(** Model of src/include/pdaaal/Weight.h: the built-in weights (integers, arrays and vectors of integers) for minimising and
    maximising. Numbers are Z; a C++ integer type is given by its width and signedness. None = undefined behaviour. Floating point
    weights are not modelled. *)
From Coq Require Import List ZArith Bool.
From Verif Require Import Base.
Import ListNotations.
Local Open Scope Z_scope.

(** std::numeric_limits of an integer type with [it_bits] bits. *)
Record ity := mk_ity { it_signed : bool; it_bits : Z }.
Definition t_min (T : ity) : Z := if it_signed T then - 2 ^ (it_bits T - 1) else 0.
Definition t_max (T : ity) : Z := if it_signed T then 2 ^ (it_bits T - 1) - 1 else 2 ^ it_bits T - 1.
Definition in_ty (T : ity) (v : Z) : Prop := t_min T <= v <= t_max T.
(** "lhs + rhs" in the type: unsigned wraps, signed overflow is undefined. (For types shorter than int the sum of a signed type is
    computed in int and then converted; the model also gives None there.) *)
Definition t_add (T : ity) (a b : Z) : option Z :=
  if it_signed T then (if (t_min T <=? a + b) && (a + b <=? t_max T) then Some (a + b) else None) else Some ((a + b) mod 2 ^ it_bits T).

(** weight_impl for arithmetic types, 109-140: bottom_val and max_val, 116-119; less, 123-133; add, 134-140. *)
Definition w_bottom (T : ity) (mx : bool) : Z := if mx then t_max T - (if it_signed T then 0 else 1) else t_min T.
Definition w_max (T : ity) (mx : bool) : Z := if mx && it_signed T then t_min T else t_max T.
Definition w_less (T : ity) (mx : bool) (a b : Z) : bool :=
  if mx then
    if negb (it_signed T) && (a =? w_max T mx) then false
    else if negb (it_signed T) && (b =? w_max T mx) then true
    else b <? a
  else a <? b.
Definition w_add (T : ity) (mx : bool) (a b : Z) : option Z :=
  if (a =? w_max T mx) || (b =? w_max T mx) then Some (w_max T mx)
  else if negb (w_bottom T mx =? 0) && ((a =? w_bottom T mx) || (b =? w_bottom T mx)) then Some (w_bottom T mx)
  else t_add T a b.

(** weight_impl for arrays, 142-163: bottom and max, 148-149; less, 150-155; add, 156-162. std::lexicographical_compare (the loop of the C++ standard). *)
Definition a_zero (n : nat) : list Z := repeat 0 n.
Definition a_max (T : ity) (mx : bool) (n : nat) : list Z := repeat (w_max T mx) n.
Definition a_bottom (T : ity) (mx : bool) (n : nat) : list Z := repeat (w_bottom T mx) n.
Fixpoint lex (lt : Z -> Z -> bool) (a b : list Z) : bool :=
  match a, b with
  | _, [] => false
  | [], _ :: _ => true
  | x :: a', y :: b' => if lt x y then true else if lt y x then false else lex lt a' b'
  end.
Definition a_less (T : ity) (mx : bool) : list Z -> list Z -> bool := lex (w_less T mx).
Fixpoint a_add (T : ity) (mx : bool) (a b : list Z) : option (list Z) :=
  match a, b with
  | [], [] => Some []
  | x :: a', y :: b' => z <- w_add T mx x y ;; r <- a_add T mx a' b' ;; Some (z :: r)
  | _, _ => None
  end.

(** weight_impl for vectors, 164-198: bottom and max, 171-172. *)
Definition v_max (T : ity) (mx : bool) : list Z := [w_max T mx].
Definition v_bottom (T : ity) (mx : bool) : list Z := [w_bottom T mx].
(** The loop 181-187 of less. i1, i2 are the positions of the iterators f1, f2. "++f1" is undefined at the end of the vector, so
    is "*f1" there. The number of rounds is bounded by the lengths because an iterator cannot pass the end. *)
Fixpoint v_loop (lt : Z -> Z -> bool) (fuel : nat) (a b : list Z) (i1 i2 : nat) (ex1 ex2 : bool) : option bool :=
  if ex1 && ex2 then Some false
  else match fuel with
  | O => None
  | S fuel' =>
      v1 <- (if ex1 then Some 0 else nth_error a i1) ;;
      v2 <- (if ex2 then Some 0 else nth_error b i2) ;;
      if lt v1 v2 then Some true
      else if lt v2 v1 then Some false
      else if Nat.ltb i1 (length a) && Nat.ltb i2 (length b)
           then v_loop lt fuel' a b (S i1) (S i2) (Nat.eqb (S i1) (length a)) (Nat.eqb (S i2) (length b))
           else None
  end.
(** less, 173-190; line 175 is operator< of std::vector. *)
Definition v_less (T : ity) (mx : bool) (a b : list Z) : option bool :=
  if negb mx && negb (it_signed T) then Some (lex Z.ltb a b)
  else v_loop (w_less T mx) (S (length a + length b)) a b 0 0 (Nat.eqb 0 (length a)) (Nat.eqb 0 (length b)).
(** add, 191-197: std::transform of the smaller vector with the larger one into a copy of the larger one. *)
Fixpoint v_zip (T : ity) (mx : bool) (small large : list Z) : option (list Z) :=
  match small, large with
  | [], _ => Some large
  | x :: s, y :: l => z <- w_add T mx x y ;; r <- v_zip T mx s l ;; Some (z :: r)
  | _, [] => None
  end.
Definition v_add (T : ity) (mx : bool) (a b : list Z) : option (list Z) :=
  if Nat.ltb (length b) (length a) then v_zip T mx b a else v_zip T mx a b.

(** linear_weight_function, 206-229, and ordered_weight_function, 234-250, for unsigned W and fixed arguments: a function is given
    by its value. The start value 0 of std::accumulate (225) is an int, so every partial sum is converted to int. *)
Inductive linfun := LFun (v : Z) | LComb (l : list (Z * linfun)).
Definition to_int (v : Z) : Z := (v + 2 ^ 31) mod 2 ^ 32 - 2 ^ 31.
Fixpoint lin_eval (bits : Z) (f : linfun) : Z :=
  match f with
  | LFun v => v
  | LComb l => fold_left (fun acc p => to_int ((acc mod 2 ^ bits + fst p * lin_eval bits (snd p)) mod 2 ^ bits)) l 0 mod 2 ^ bits
  end.
Definition ord_eval (bits : Z) (fs : list linfun) : list Z := map (lin_eval bits) fs.
