(** Model of PAutomatonBuilder (src/pdaaal-bin/parsing/PAutomatonParser.h): a query automaton is given by atoms
    [<states, expression>], one automaton is built for each and they are united. *)
From Coq Require Import List Arith Bool Ascii.
From Verif Require Import Base Spec PdaModel AutModel NfaModel ParserModel.
Import ListNotations.

(** The labels are inserted into the PDA while the text is parsed (_label_mapping, 75; insert_label, PDA.h 196-198), so the
    number of labels known when an atom is finished is part of the atom. The states are those collected by add_state,
    79-85, in the order of the text; duplicates are possible. *)
Record atom := mk_atom { at_states : list nat; at_nfa : nfa; at_nlab : nat }.
Definition with_nlab (P : pda) (k : nat) : pda := mk_pda (pd_states P) k.

(** accept_nfa, 92-95, and finish_atom, 96-106; std::sort and std::unique on the states are [sort_set]. *)
Definition finish_atom (addr : nat -> nat) (ord : nat -> list nat -> list nat) (P : pda) (cur : option aut) (a : atom) : option (option aut) :=
  N <- nfa_compile addr (at_nfa a) ;;
  B <- aut_of_nfa addr (with_nlab P (at_nlab a)) ord N ne_sym (sort_set (at_states a)) ;;
  match cur with
  | None => Some (Some B)
  | Some A => C <- a_or_extend (pd_n P) A B ;; Some (Some C)
  end.
(** The actions for a whole text, 138-142, and get_p_automaton, 76-78. None also if there is no atom (bad optional access; the
    grammar requires one). *)
Definition build_atoms (addr : nat -> nat) (ord : nat -> list nat -> list nat) (P : pda) (l : list atom) : option aut :=
  c <- ofold (finish_atom addr ord P) l None ;; c.

(** Atoms with the text of their expression: the parsed expression is given to accept_nfa by NfaBuilder::success,
    NfaParserGrammar.h 85-88. None: a text has a syntax error or an assertion fails. *)
Record tatom := mk_tatom { ta_states : list nat; ta_text : list ascii; ta_nlab : nat }.
Fixpoint parse_atoms (lf : list ascii -> nat) (l : list tatom) : option (list atom) :=
  match l with
  | [] => Some []
  | a :: l' =>
      match parse lf (ta_text a) with
      | Some (PNfa N) => r <- parse_atoms lf l' ;; Some (mk_atom (ta_states a) N (ta_nlab a) :: r)
      | _ => None
      end
  end.
