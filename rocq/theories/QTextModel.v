(** Model of the text reader for queries, src/pdaaal-bin/parsing/PAutomatonParser.h: the grammar (36-65), the builder (67-115), the
    actions (126-142) and parse (159-182), on top of the expression grammar of ParserModel. *)
From Coq Require Import List Arith Bool Ascii NArith.
From Verif Require Import Base Spec PdaModel AutModel NfaModel ParserModel AtomModel.
Import ListNotations.

(** The calls made by the actions of 131-142, and by the two pegtl::state rules. *)
Inductive qact :=
| QState (s : list ascii)     (* p_automaton_state_1: add_state or parse_error, 131-137 *)
| QString (s : list ascii)    (* string_state::success: accept_string, 43-46 and 86-88 *)
| QNfa (acts : list act)      (* the calls of the NfaBuilder of 58, then accept_nfa, 92-95 *)
| QAtom.                      (* p_automaton_atom: finish_atom, 138-142 *)
(** Success with the rest of the input, local failure, or a parse_error. A local failure of the rules below always ends in the
    must of p_automaton_file (65), so the calls made before it have no effect on the result. *)
Inductive qout := QOk (rest : list ascii) (acts : list qact) | QFail | QErr.
Definition qmust (o : qout) : qout := match o with QFail => QErr | _ => o end.

(** pegtl::digit; pegtl::identifier starts with a letter or underscore. *)
Definition is_digit (c : ascii) : bool := let n := nat_of_ascii c in Nat.leb 48 n && Nat.leb n 57.
Definition quote : ascii := ascii_of_nat 34.
Definition backslash : ascii := ascii_of_nat 92.

(** pegtl::utf8::range<0x20, 0x10FFFF>, 39: the number of bytes of the code point at the start of the text, if it is well formed
    and in the range. *)
Definition is_cont (c : ascii) : bool := let n := nat_of_ascii c in Nat.leb 128 n && Nat.leb n 191.
Definition utf8_len (s : list ascii) : option nat :=
  match s with
  | [] => None
  | c :: t =>
      let n := nat_of_ascii c in
      if Nat.ltb n 128 then (if Nat.leb 32 n then Some 1 else None)
      else match t with
           | c1 :: t1 =>
               if negb (is_cont c1) then None
               else if Nat.leb 194 n && Nat.leb n 223 then Some 2
               else match t1 with
                    | c2 :: t2 =>
                        if negb (is_cont c2) then None
                        else if (Nat.leb 225 n && Nat.leb n 236) || Nat.eqb n 238 || Nat.eqb n 239 then Some 3
                        else if Nat.eqb n 224 then (if Nat.leb 160 (nat_of_ascii c1) then Some 3 else None)
                        else if Nat.eqb n 237 then (if Nat.ltb (nat_of_ascii c1) 160 then Some 3 else None)
                        else match t2 with
                             | c3 :: _ =>
                                 if negb (is_cont c3) then None
                                 else if Nat.leb 241 n && Nat.leb n 243 then Some 4
                                 else if Nat.eqb n 240 then (if Nat.leb 144 (nat_of_ascii c1) then Some 4 else None)
                                 else if Nat.eqb n 244 then (if Nat.ltb (nat_of_ascii c1) 144 then Some 4 else None)
                                 else None
                             | [] => None
                             end
                    | [] => None
                    end
           | [] => None
           end
  end.
(** string_literal after the opening quote, 38-48, with the unescape actions 129-130: characters until the next quote. [n] bounds the
    number of characters by the length of the input. *)
Fixpoint p_string (n : nat) (s acc : list ascii) : qout :=
  match n, s with
  | S n', c :: s1 =>
      if c_is c quote then QOk s1 [QString acc]
      else if c_is c backslash then
        match s1 with
        | d :: s2 => if c_is d quote || c_is d backslash then p_string n' s2 (acc ++ [d]) else QFail
        | [] => QFail
        end
      else match utf8_len s with
           | Some k => p_string n' (skipn k s) (acc ++ firstn k s)
           | None => QFail
           end
  | _, _ => QFail
  end.
(** p_automaton_state, 62-63. *)
Definition p_state (s : list ascii) : qout :=
  match s with
  | [] => QFail
  | c :: s1 =>
      if is_digit c then QOk (drop_while is_digit s) [QState (take_while is_digit s)]
      else if is_ident c then QOk (drop_while is_ident s) [QState (take_while is_ident s)]
      else if c_is c quote then p_string (length s1) s1 []
      else QFail
  end.
(** The repetition of list_must<State, one<','>, ignored<comment>>, 53. *)
Fixpoint p_states_rest (n : nat) (s : list ascii) (acts : list qact) : qout :=
  match n with
  | 0 => QOk s acts
  | S n' => match skip s with
            | c :: s1 => if c_is c "," then
                           match qmust (p_state (skip s1)) with
                           | QOk s2 a2 => p_states_rest n' s2 (acts ++ a2)
                           | o => o end
                         else QOk s acts
            | [] => QOk s acts
            end
  end.
(** p_automaton_initial, 50-55; after '[' everything is a must. *)
Definition p_initial (s : list ascii) : qout :=
  match s with
  | c :: s1 =>
      if c_is c "[" then
        match qmust (p_state s1) with
        | QOk s2 a2 => match p_states_rest (length s2) s2 a2 with
                       | QOk (d :: s3) a3 => if c_is d "]" then QOk s3 a3 else QErr
                       | _ => QErr end
        | _ => QErr
        end
      else p_state s
  | [] => QFail
  end.
(** nfa_expr_default (NfaParserGrammar.h 73) in pegtl::state<NfaBuilder>, 58. *)
Definition p_nfa (s : list ascii) : qout :=
  match p_expr (S (length s)) (skip s) with
  | OOk s1 a1 => QOk (skip s1) [QNfa a1]
  | OFail a1 => QOk (skip (skip s)) [QNfa a1]
  | OErr => QErr
  end.
(** p_automaton_atom, 57-58. *)
Definition p_atom (s : list ascii) : qout :=
  match s with
  | c :: s1 =>
      if c_is c "<" then
        match p_initial (skip s1) with
        | QOk s2 a2 =>
            match skip s2 with
            | d :: s3 =>
                if c_is d "," then
                  match p_nfa s3 with
                  | QOk (e :: s4) a4 => if c_is e ">" then QOk s4 (a2 ++ a4 ++ [QAtom]) else QFail
                  | QOk [] _ => QFail
                  | o => o
                  end
                else QFail
            | [] => QFail
            end
        | o => o
        end
      else QFail
  | [] => QFail
  end.
(** p_automaton_expr, 59-60: list_must<p_automaton_atom, p_automaton_or_symbol, ignored<comment>>. *)
Fixpoint p_atoms_rest (n : nat) (s : list ascii) (acts : list qact) : qout :=
  match n with
  | 0 => QOk s acts
  | S n' => match skip s with
            | c :: s1 => if c_is c "|" then
                           match qmust (p_atom (skip s1)) with
                           | QOk s2 a2 => p_atoms_rest n' s2 (acts ++ a2)
                           | o => o end
                         else QOk s acts
            | [] => QOk s acts
            end
  end.
(** p_automaton_file, 65. *)
Definition p_query (s : list ascii) : qout :=
  match qmust (p_atom (skip s)) with
  | QOk s1 a1 => match p_atoms_rest (length s1) s1 a1 with
                 | QOk s2 a2 => match skip s2 with [] => QOk [] a2 | _ => QErr end
                 | o => o end
  | o => o
  end.

(** ** The builder *)
(** A lookup of a state by its text: _state_mapping, then exists_state (PDA.h 189-195). *)
Inductive slook := SFound (id : nat) | SUnknown | SThrow.

(** The label map: the names in the order of their ids (utils/ptrie_interface.h; insert_label, PDA.h 196-198). *)
Fixpoint text_eqb (a b : list ascii) : bool :=
  match a, b with [], [] => true | x :: a', y :: b' => Ascii.eqb x y && text_eqb a' b' | _, _ => false end.
Fixpoint tab_id (tab : list (list ascii)) (s : list ascii) : nat :=
  match tab with [] => 0 | t :: tab' => if text_eqb t s then 0 else S (tab_id tab' s) end.
Definition tab_insert (tab : list (list ascii)) (s : list ascii) : list (list ascii) :=
  if Nat.ltb (tab_id tab s) (length tab) then tab else tab ++ [s].

(** One call of the NfaBuilder; its _label_function is _label_mapping of 75, which inserts the label. *)
Definition do_act_ins (st : list (list ascii) * bst) (a : act) : option (list (list ascii) * bst) :=
  let tab := match a with ALabel s => tab_insert (fst st) s | _ => fst st end in
  b <- do_act (tab_id tab) (snd st) a ;; Some (tab, b).

(** PAutomatonBuilder, 107-114: the label map of the PDA, _states, _current_nfa and _current_p_automaton. *)
Record qst := mk_qst { q_tab : list (list ascii); q_states : list nat; q_nfa : nfa; q_cur : option aut }.
(** The result of one call: go on, or an exception (parse_error, or the one of std::stoul). *)
Inductive qres A := QGo (x : A) | QThrow.
Arguments QGo {A}. Arguments QThrow {A}.

Section Builder.
  Variable addr : nat -> nat.
  Variable ord : nat -> list nat -> list nat.
  Variable P : pda.
  Variable sl : list ascii -> slook.

  Definition push_state (st : qst) (id : nat) : qst := mk_qst (q_tab st) (q_states st ++ [id]) (q_nfa st) (q_cur st).
  Definition do_qact (st : qst) (a : qact) : option (qres qst) :=
    match a with
    | QState s => Some (match sl s with SFound id => QGo (push_state st id) | _ => QThrow end)
    | QString s => Some (match sl s with SFound id => QGo (push_state st id) | SUnknown => QGo st | SThrow => QThrow end)
    | QNfa acts =>
        tb <- ofold do_act_ins acts (q_tab st, b_init) ;;
        N <- get_nfa (snd tb) ;;
        Some (QGo (mk_qst (fst tb) (q_states st) N (q_cur st)))
    | QAtom =>
        c <- finish_atom addr ord P (q_cur st) (mk_atom (q_states st) (q_nfa st) (length (q_tab st))) ;;
        Some (QGo (mk_qst (q_tab st) [] (q_nfa st) c))
    end.
  Fixpoint do_qacts (acts : list qact) (st : qst) : option (qres qst) :=
    match acts with
    | [] => Some (QGo st)
    | a :: acts' => r <- do_qact st a ;; match r with QGo st' => do_qacts acts' st' | QThrow => Some QThrow end
    end.
  (** parse, 168-182: the automaton and the label map of the PDA afterwards; [tab] is the label map before. *)
  Definition parse_query (tab : list (list ascii)) (s : list ascii) : option (qres (aut * list (list ascii))) :=
    match p_query s with
    | QOk _ acts =>
        r <- do_qacts acts (mk_qst tab [] (nfa_unit true) None) ;;
        match r with QGo st => A <- q_cur st ;; Some (QGo (A, q_tab st)) | QThrow => Some QThrow end
    | _ => Some QThrow
    end.
End Builder.

(** ** The two state mappings, 160-167 *)
(** States named by strings: the mapping is the identity and exists_state looks the name up. *)
Definition sl_names (names : list (list ascii)) (s : list ascii) : slook :=
  if Nat.ltb (tab_id names s) (length names) then SFound (tab_id names s) else SUnknown.
(** std::stoul in base 10 for a 64-bit unsigned long: white space, a sign, digits; the rest of the text is not looked at. None: an
    exception (invalid_argument or out_of_range). *)
Definition digits_val (s : list ascii) : N := fold_left (fun v c => (v * 10 + N.of_nat (nat_of_ascii c - 48))%N) s 0%N.
Definition stoul (s : list ascii) : option N :=
  let s0 := drop_while is_space s in
  let neg := match s0 with c :: _ => c_is c "-" | [] => false end in
  let s1 := match s0 with c :: s1 => if c_is c "-" || c_is c "+" then s1 else s0 | [] => [] end in
  match take_while is_digit s1 with
  | [] => None
  | ds => let v := digits_val ds in
          if N.ltb v (2 ^ 64) then Some (if neg then (if N.eqb v 0 then 0 else 2 ^ 64 - v)%N else v) else None
  end.
(** States that are numbers: std::stoul, then exists_state; with skip_state_mapping the state exists if it is below the number
    [n] of states. *)
Definition sl_nums (n : nat) (s : list ascii) : slook :=
  match stoul s with
  | None => SThrow
  | Some v => if N.ltb v (N.of_nat n) then SFound (N.to_nat v) else SUnknown
  end.
