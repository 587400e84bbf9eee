(** Model of the byte encodings of map keys, src/include/pdaaal/utils/ptrie_interface.h 103-257: fixed_byte_size,
    byte_vector_converter and the ptrie_interface that uses it, and the two interfaces for keys that are taken byte by byte
    (71-99). Bytes are numbers below 256. The byte iterators of the ptrie library (external) are modelled for unsigned integers of
    [k] bytes, least significant byte first. A value of a key type is an element of [val]; [has_type] says of which type. *)
From Coq Require Import List Arith NArith Bool.
From Verif Require Import Base.
Import ListNotations.

(** Key types: integers of [k] bytes, std::tuple, std::vector, std::variant. *)
Inductive ty :=
| TInt (k : nat)
| TTuple (ts : list ty)
| TVec (t : ty)
| TVariant (ts : list ty).
Inductive val :=
| VInt (x : N)
| VTuple (vs : list val)
| VVec (vs : list val)
| VVariant (i : nat) (v : val).

(** ptrie::byte_iterator<KEY>::const_access, element_size: the [k] bytes of an integer. *)
Fixpoint int_bytes (k : nat) (x : N) : list N :=
  match k with 0 => [] | S k' => (x mod 256)%N :: int_bytes k' (x / 256)%N end.
(** byte_iterator<KEY>::access for all bytes: the integer that has the given bytes. *)
Fixpoint bytes_int (l : list N) : N := match l with [] => 0%N | b :: l' => (b + 256 * bytes_int l')%N end.

(** sizeof(std::vector::size_type), and the index type of a variant with [m] alternatives, 195: one byte if m <= 255. *)
Definition size_bytes : nat := 8.
Definition index_bytes (m : nat) : nat := if Nat.leb m 255 then 1 else 8.


(** byte_vector_converter<T>::push_back_bytes, 140-144 (integers), 158-160 (tuples), 174-179 (vectors), 206-218 (variants);
    the bytes appended to the result. None: the value does not have the type. A variant with one alternative stores no index. *)
Fixpoint push_back_bytes (t : ty) (v : val) {struct t} : option (list N) :=
  match t, v with
  | TInt k, VInt x => Some (int_bytes k x)
  | TTuple ts, VTuple vs =>
      (fix tuple (ts : list ty) (vs : list val) : option (list N) :=
         match ts, vs with
         | [], [] => Some []
         | t :: ts', v :: vs' => a <- push_back_bytes t v ;; b <- tuple ts' vs' ;; Some (a ++ b)
         | _, _ => None
         end) ts vs
  | TVec t, VVec vs =>
      b <- (fix elems (vs : list val) : option (list N) :=
              match vs with [] => Some [] | v :: vs' => a <- push_back_bytes t v ;; b <- elems vs' ;; Some (a ++ b) end) vs ;;
      Some (int_bytes size_bytes (N.of_nat (length vs)) ++ b)
  | TVariant ts, VVariant i v =>
      b <- (fix alternative (ts : list ty) (i : nat) : option (list N) :=
              match ts, i with
              | t :: _, 0 => push_back_bytes t v
              | _ :: ts', S i' => alternative ts' i'
              | [], _ => None
              end) ts i ;;
      Some ((if Nat.eqb (length ts) 1 then [] else int_bytes (index_bytes (length ts)) (N.of_nat i)) ++ b)
  | _, _ => None
  end.

(** Reading [k] bytes; None: read past the end of the vector. *)
Fixpoint take_bytes (k : nat) (l : list N) : option (list N * list N) :=
  match k with
  | 0 => Some ([], l)
  | S k' => match l with [] => None | b :: l' => p <- take_bytes k' l' ;; Some (b :: fst p, snd p) end
  end.
Definition read_int (k : nat) (l : list N) : option (N * list N) := p <- take_bytes k l ;; Some (bytes_int (fst p), snd p).

(** byte_vector_converter<T>::from_bytes, 145-149, 161-163, 180-187, 219-229: the value and the bytes that are left. None: read past
    the end (undefined), or a variant index that is out of range (mp_with_index asserts). The loop over the elements of a vector has
    as fuel the number of elements. *)
Fixpoint from_bytes (t : ty) (l : list N) {struct t} : option (val * list N) :=
  match t with
  | TInt k => p <- read_int k l ;; Some (VInt (fst p), snd p)
  | TTuple ts =>
      p <- (fix tuple (ts : list ty) (l : list N) : option (list val * list N) :=
              match ts with
              | [] => Some ([], l)
              | t :: ts' => p <- from_bytes t l ;; q <- tuple ts' (snd p) ;; Some (fst p :: fst q, snd q)
              end) ts l ;;
      Some (VTuple (fst p), snd p)
  | TVec t =>
      n <- read_int size_bytes l ;;
      p <- (fix elems (n : nat) (l : list N) : option (list val * list N) :=
              match n with
              | 0 => Some ([], l)
              | S n' => p <- from_bytes t l ;; q <- elems n' (snd p) ;; Some (fst p :: fst q, snd q)
              end) (N.to_nat (fst n)) (snd n) ;;
      Some (VVec (fst p), snd p)
  | TVariant ts =>
      n <- (if Nat.eqb (length ts) 1 then Some (0%N, l) else read_int (index_bytes (length ts)) l) ;;
      p <- (fix alternative (ts : list ty) (i : nat) : option (val * list N) :=
              match ts, i with
              | t :: _, 0 => from_bytes t (snd n)
              | _ :: ts', S i' => alternative ts' i'
              | [], _ => None
              end) ts (N.to_nat (fst n)) ;;
      Some (VVariant (N.to_nat (fst n)) (fst p), snd p)
  end.

(** fixed_byte_size, 117-132. None: the type has none. *)
Fixpoint fixed_byte_size (t : ty) : option nat :=
  match t with
  | TInt k => Some k
  | TTuple ts => (fix sum (ts : list ty) : option nat :=
      match ts with [] => Some 0 | t :: ts' => a <- fixed_byte_size t ;; b <- sum ts' ;; Some (a + b) end) ts
  | _ => None
  end.
(** byte_vector_converter<T>::size, 137-139, 155-157, 171-173, 196-205: what is reserved. *)
Fixpoint byte_size (t : ty) (v : val) {struct t} : option nat :=
  match t, v with
  | TInt k, VInt _ => Some k
  | TTuple ts, VTuple vs =>
      (fix tuple (ts : list ty) (vs : list val) : option nat :=
         match ts, vs with
         | [], [] => Some 0
         | t :: ts', v :: vs' => a <- byte_size t v ;; b <- tuple ts' vs' ;; Some (a + b)
         | _, _ => None
         end) ts vs
  | TVec t, VVec vs => s <- fixed_byte_size t ;; Some (size_bytes + s * length vs)
  | TVariant ts, VVariant i v =>
      b <- (fix alternative (ts : list ty) (i : nat) : option nat :=
              match ts, i with
              | t :: _, 0 => byte_size t v
              | _ :: ts', S i' => alternative ts' i'
              | [], _ => None
              end) ts i ;;
      Some ((if Nat.eqb (length ts) 1 then 0 else index_bytes (length ts)) + b)
  | _, _ => None
  end.

(** ptrie_interface<KEY>, 238-257: to_ptrie, and unpack applied to the bytes kept by the trie. *)
Definition to_ptrie (t : ty) (v : val) : option (list N) := push_back_bytes t v.
Definition unpack (t : ty) (l : list N) : option val := option_map fst (from_bytes t l).

(** ptrie_interface<std::vector<KEY>>, 73-86, for integers of [k] bytes: the elements one after another (the trie library does this);
    std::string is the case k = 1. *)
Definition vector_bytes (k : nat) (xs : list N) : list N := flat_map (int_bytes k) xs.
