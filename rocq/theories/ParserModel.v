(** Model of the regular-expression parser: the grammar and the actions of src/include/pdaaal/parsing/NfaParserGrammar.h
    with parse() of NfaParser.cpp. *)
From Coq Require Import List Arith Lia Bool Ascii.
From Verif Require Import Base Spec PdaModel AutModel NfaModel.
Import ListNotations.

(** The calls of NfaBuilder made by the grammar actions, 171-237. *)
Inductive act :=
| ALabel (s : list ascii)   (* add_label, 173-177 *)
| ALabelSet                 (* use_label_set, 178-182 *)
| AWildcard                 (* emplace_nfa({}, true), 183-187 *)
| AOpen                     (* open, 188-192 *)
| AClose                    (* close, 193-197 *)
| ANegation                 (* set_negation, 198-202 *)
| AStar | APlus | AQuestion (* current_nfa()...., 203-217 *)
| AUnary                    (* push_op(CONCAT), 218-222 *)
| ASeq                      (* reduce<CONCAT>, 223-227 *)
| AOr                       (* push_op(OR), 228-232 *)
| AExpr.                    (* reduce<OR>, 233-237 *)

(** nfa_op_tag, 75. *)
Inductive op_tag := TBracket | TOr | TConcat.
Definition tag_eqb (a b : op_tag) : bool :=
  match a, b with TBracket,TBracket | TOr,TOr | TConcat,TConcat => true | _,_ => false end.

(** NfaBuilder, 164-168; stacks with the top first. *)
Record bst := mk_bst { b_neg : bool; b_set : list nat; b_nfas : list nfa; b_ops : list op_tag }.
Definition b_init : bst := mk_bst false [] [] [].

(** pop_op<op>, 147-162 (op is never BRACKET). None: an assertion fails. *)
Definition pop_op (op : op_tag) (b : bst) : option bst :=
  match b_ops b, b_nfas b with
  | o :: ops, t :: x :: ns =>
      if tag_eqb o op
      then match op with
           | TOr => Some (mk_bst (b_neg b) (b_set b) (nfa_or x t :: ns) ops)
           | TConcat => Some (mk_bst (b_neg b) (b_set b) (nfa_concat x t :: ns) ops)
           | TBracket => None
           end
      else None
  | _, _ => None
  end.
(** The loop of close, 97-104, and of reduce, 131-133; the operator stack gets shorter in every round. *)
Fixpoint close_loop (n : nat) (b : bst) : option bst :=
  match b_ops b with
  | [] => None
  | TBracket :: ops => Some (mk_bst (b_neg b) (b_set b) (b_nfas b) ops)
  | o :: _ => match n with 0 => None | S n' => b' <- pop_op o b ;; close_loop n' b' end
  end.
Fixpoint reduce_loop (op : op_tag) (n : nat) (b : bst) : option bst :=
  match b_ops b with
  | o :: _ => if tag_eqb o op then match n with 0 => None | S n' => b' <- pop_op op b ;; reduce_loop op n' b' end else Some b
  | [] => Some b
  end.
(** current_nfa().f(), 122-124. *)
Definition on_top (f : nfa -> nfa) (b : bst) : option bst :=
  match b_nfas b with x :: ns => Some (mk_bst (b_neg b) (b_set b) (f x :: ns) (b_ops b)) | [] => None end.
Definition push_nfa (x : nfa) (b : bst) : bst := mk_bst (b_neg b) (b_set b) (x :: b_nfas b) (b_ops b).
Definition push_tag (o : op_tag) (b : bst) : bst := mk_bst (b_neg b) (b_set b) (b_nfas b) (o :: b_ops b).
(** The builder actions; [lf] is _label_function. *)
Definition do_act (lf : list ascii -> nat) (b : bst) (a : act) : option bst :=
  match a with
  | ALabel s => Some (mk_bst (b_neg b) (b_set b ++ [lf s]) (b_nfas b) (b_ops b))
  | ALabelSet => Some (mk_bst false [] (nfa_set (b_neg b) (b_set b) :: b_nfas b) (b_ops b))
  | AWildcard => Some (push_nfa (nfa_set true []) b)
  | AOpen => Some (push_tag TBracket b)
  | AClose => close_loop (length (b_ops b)) b
  | ANegation => Some (mk_bst true (b_set b) (b_nfas b) (b_ops b))
  | AStar => on_top nfa_star b
  | APlus => on_top nfa_plus b
  | AQuestion => on_top nfa_question b
  | AUnary => Some (push_tag TConcat b)
  | ASeq => match b_ops b with
            | TConcat :: ops => reduce_loop TConcat (length ops) (mk_bst (b_neg b) (b_set b) (b_nfas b) ops)
            | _ => None end
  | AOr => Some (push_tag TOr b)
  | AExpr => reduce_loop TOr (length (b_ops b)) b
  end.
(** get_nfa, 138-144. *)
Definition get_nfa (b : bst) : option nfa :=
  match b_nfas b with [] => Some (nfa_unit true) | [x] => Some x | _ => None end.

(** The outcome of matching a grammar rule: success with the rest of the input and the calls made, local failure (the input
    is rewound, but the calls made so far stay made), or a parse_error exception (from a must<...>). *)
Inductive out := OOk (rest : list ascii) (acts : list act) | OFail (acts : list act) | OErr.

Definition c_is (a b : ascii) : bool := Ascii.eqb a b.
(** pegtl::space: blank, \n, \r, \t, \v, \f. *)
Definition is_space (c : ascii) : bool :=
  let n := nat_of_ascii c in Nat.eqb n 32 || (Nat.leb 9 n && Nat.leb n 13).
(** pegtl::identifier_other: letters, digits and underscore. *)
Definition is_ident (c : ascii) : bool :=
  let n := nat_of_ascii c in
  (Nat.leb 48 n && Nat.leb n 57) || (Nat.leb 65 n && Nat.leb n 90) || Nat.eqb n 95 || (Nat.leb 97 n && Nat.leb n 122).
Definition nl : ascii := ascii_of_nat 10.

(** comment, 69, after the '#': until<eolf>. *)
Fixpoint skip_line (s : list ascii) : list ascii :=
  match s with [] => [] | c :: s' => if c_is c nl then s' else skip_line s' end.
(** star<ignored>, 45-46 (no actions). [n] bounds the number of rounds by the length of the input. *)
Fixpoint skip_ign (n : nat) (s : list ascii) : list ascii :=
  match n, s with
  | S n', c :: s' => if is_space c then skip_ign n' s'
                     else if c_is c "#" then skip_ign n' (skip_line s')
                     else s
  | _, _ => s
  end.
Definition skip (s : list ascii) : list ascii := skip_ign (length s) s.

(** must<R>: a failure becomes a parse_error. *)
Definition must (o : out) : out := match o with OFail _ => OErr | _ => o end.
(** label, 68. *)
Definition p_label (s : list ascii) : out :=
  match take_while is_ident s with
  | [] => OFail []
  | l => OOk (drop_while is_ident s) [ALabel l]
  end.
(** The repetition of list_must<Label, one<','>, ignored>, 64: star<seq<pad<one<','>, ignored>, must<Label>>>. *)
Fixpoint p_labels_rest (n : nat) (s : list ascii) (acts : list act) : out :=
  match n with
  | 0 => OOk s acts
  | S n' => match skip s with
            | c :: s1 => if c_is c "," then
                           match must (p_label (skip s1)) with
                           | OOk s2 a2 => p_labels_rest n' s2 (acts ++ a2)
                           | o => o end
                         else OOk s acts
            | [] => OOk s acts
            end
  end.
(** label_set, 63-64, after the '['; everything is a must here. *)
Definition p_set (s : list ascii) : out :=
  let neg := match s with c :: s1 => if c_is c "^" then Some s1 else None | [] => None end in
  let s0 := match neg with Some s1 => s1 | None => s end in
  let a0 := match neg with Some _ => [ANegation] | None => [] end in
  match must (p_label s0) with
  | OOk s1 a1 =>
      match p_labels_rest (length s1) s1 (a0 ++ a1) with
      | OOk (c :: s2) a2 => if c_is c "]" then OOk s2 (a2 ++ [ALabelSet]) else OErr
      | _ => OErr
      end
  | _ => OErr
  end.
(** value_expr, 51-52, with bracket, 49-50; [expr] is nfa_expr. *)
Definition p_value (expr : list ascii -> out) (s : list ascii) : out :=
  match s with
  | [] => OFail []
  | c :: s1 =>
      if c_is c "." then OOk s1 [AWildcard]
      else if c_is c "(" then
        match must (expr (skip s1)) with
        | OOk s2 a2 => match skip s2 with
                       | c2 :: s3 => if c_is c2 ")" then OOk s3 (AOpen :: a2 ++ [AClose]) else OErr
                       | [] => OErr end
        | _ => OErr
        end
      else if c_is c "[" then p_set s1
      else OFail []
  end.
(** unary_expr, 53-54. *)
Definition p_unary (expr : list ascii -> out) (s : list ascii) : out :=
  match p_value expr s with
  | OOk (c :: s1) a =>
      if c_is c "*" then OOk s1 (a ++ [AStar; AUnary])
      else if c_is c "+" then OOk s1 (a ++ [APlus; AUnary])
      else if c_is c "?" then OOk s1 (a ++ [AQuestion; AUnary])
      else OOk (c :: s1) (a ++ [AUnary])
  | OOk [] a => OOk [] (a ++ [AUnary])
  | o => o
  end.
(** seq_expr, 55-56: the repetition star<seq<star<ignored>, unary_expr>>. *)
Fixpoint p_seq_rest (expr : list ascii -> out) (n : nat) (s : list ascii) (acts : list act) : out :=
  match n with
  | 0 => OOk s acts
  | S n' => match p_unary expr (skip s) with
            | OOk s1 a1 => p_seq_rest expr n' s1 (acts ++ a1)
            | OFail a1 => OOk s (acts ++ a1)
            | OErr => OErr
            end
  end.
Definition p_seq (expr : list ascii -> out) (s : list ascii) : out :=
  match p_unary expr s with
  | OOk s1 a1 => match p_seq_rest expr (length s1) s1 a1 with OOk s2 a2 => OOk s2 (a2 ++ [ASeq]) | o => o end
  | o => o
  end.
(** nfa_expr, 57-58: list<seq_expr, or_symbol, ignored>; the repetition is star<seq<pad<or_symbol, ignored>, seq_expr>>. *)
Fixpoint p_expr_rest (expr : list ascii -> out) (n : nat) (s : list ascii) (acts : list act) : out :=
  match n with
  | 0 => OOk s acts
  | S n' => match skip s with
            | c :: s1 => if c_is c "|" then
                           match p_seq expr (skip s1) with
                           | OOk s2 a2 => p_expr_rest expr n' s2 (acts ++ AOr :: a2)
                           | OFail a2 => OOk s (acts ++ AOr :: a2)
                           | OErr => OErr end
                         else OOk s acts
            | [] => OOk s acts
            end
  end.
(** [fuel] bounds the nesting depth of brackets; the length of the input suffices. *)
Fixpoint p_expr (fuel : nat) (s : list ascii) : out :=
  match fuel with
  | 0 => OErr
  | S f =>
      match p_seq (p_expr f) s with
      | OOk s1 a1 => match p_expr_rest (p_expr f) (length s1) s1 a1 with OOk s2 a2 => OOk s2 (a2 ++ [AExpr]) | o => o end
      | o => o
      end
  end.
(** nfa_file, 71-72 with nfa_expr_or_empty, 59-60: must<pad<opt<nfa_expr>, ignored>, eof>. *)
Definition p_file (s : list ascii) : out :=
  match p_expr (S (length s)) (skip s) with
  | OOk s1 a1 => match skip s1 with [] => OOk [] a1 | _ => OErr end
  | OFail a1 => match skip (skip s) with [] => OOk [] a1 | _ => OErr end
  | OErr => OErr
  end.
(** parse, NfaParser.cpp 34-48. The result of parsing: an NFA, or a thrown error; None = an assertion fails. *)
Inductive presult := PNfa (N : nfa) | PThrow.
Definition parse (lf : list ascii -> nat) (s : list ascii) : option presult :=
  match p_file s with
  | OOk _ acts => b <- ofold (do_act lf) acts b_init ;; N <- get_nfa b ;; Some (PNfa N)
  | _ => Some PThrow
  end.
