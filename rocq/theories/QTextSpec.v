(** Independent specification of the concrete syntax of query texts and of the configurations they describe. *)
From Coq Require Import List Arith Ascii NArith.
From Verif Require Import Spec RegexSpec GrammarSpec.
Import ListNotations.

(** A reference to a state: written as a number or identifier, or as a quoted string. *)
Record sref := mk_sref { sr_quoted : bool; sr_name : list ascii }.
Definition digit_char (c : ascii) : Prop := 48 <= nat_of_ascii c <= 57.
Definition is_number (s : list ascii) : Prop := s <> [] /\ Forall digit_char s.
Definition is_identifier (s : list ascii) : Prop :=
  Forall ident_char s /\ match s with c :: _ => ~ digit_char c | [] => False end.

(** The UTF-8 encoding of a code point. *)
Definition utf8 (v : N) : list N :=
  (if v <? 0x80 then [v]
   else if v <? 0x800 then [0xC0 + v / 0x40; 0x80 + v mod 0x40]
   else if v <? 0x10000 then [0xE0 + v / 0x1000; 0x80 + (v / 0x40) mod 0x40; 0x80 + v mod 0x40]
   else [0xF0 + v / 0x40000; 0x80 + (v / 0x1000) mod 0x40; 0x80 + (v / 0x40) mod 0x40; 0x80 + v mod 0x40])%N.
(** A printable code point: no control character and no surrogate. *)
Definition code_point (u : list ascii) : Prop :=
  exists v : N, (0x20 <= v /\ v <= 0x10FFFF /\ ~ (0xD800 <= v /\ v <= 0xDFFF))%N /\ map N_of_ascii u = utf8 v.

Definition dquote : ascii := """"%char.
Definition escape : ascii := "\"%char.
(** The text between the quotes and the name it stands for. *)
Inductive gstring : list ascii -> list ascii -> Prop :=
| gstr_nil : gstring [] []
| gstr_esc : forall c n t, c = dquote \/ c = escape -> gstring n t -> gstring (c :: n) (escape :: c :: t)
| gstr_char : forall u n t, code_point u -> u <> [dquote] -> u <> [escape] -> gstring n t -> gstring (u ++ n) (u ++ t).

Inductive gstate : sref -> list ascii -> Prop :=
| gst_number : forall s, is_number s -> gstate (mk_sref false s) s
| gst_ident : forall s, is_identifier s -> gstate (mk_sref false s) s
| gst_string : forall n t, gstring n t -> gstate (mk_sref true n) (dquote :: t ++ [dquote]).
Inductive gstates : list sref -> list ascii -> Prop :=
| gss_one : forall r s, gstate r s -> gstates [r] s
| gss_cons : forall r s i1 i2 rs s', gstate r s -> ign i1 -> ign i2 -> gstates rs s' -> gstates (r :: rs) (s ++ i1 ++ ","%char :: i2 ++ s').
Inductive ginitial : list sref -> list ascii -> Prop :=
| gi_one : forall r s, gstate r s -> ginitial [r] s
| gi_list : forall rs s, gstates rs s -> ginitial rs ("["%char :: s ++ ["]"%char]).

(** An atom <states, expression>; the expression may be empty. *)
Record qatom := mk_qatom { qa_refs : list sref; qa_re : regex }.
Section Grammar.
  Variable lf : list ascii -> nat.
  Inductive gbody : regex -> list ascii -> Prop :=
  | gb_empty : forall i, ign i -> gbody REps i
  | gb_expr : forall r i1 s i2, ign i1 -> gexpr lf r s -> ign i2 -> gbody r (i1 ++ s ++ i2).
  Inductive gatom : qatom -> list ascii -> Prop :=
  | ga_intro : forall rs r i1 s1 i2 s2, ign i1 -> ginitial rs s1 -> ign i2 -> gbody r s2 ->
      gatom (mk_qatom rs r) ("<"%char :: i1 ++ s1 ++ i2 ++ ","%char :: s2 ++ [">"%char]).
  Inductive gatoms : list qatom -> list ascii -> Prop :=
  | gas_one : forall a s, gatom a s -> gatoms [a] s
  | gas_cons : forall a s i1 i2 q s', gatom a s -> ign i1 -> ign i2 -> gatoms q s' -> gatoms (a :: q) (s ++ i1 ++ "|"%char :: i2 ++ s').
  Inductive gquery : list qatom -> list ascii -> Prop :=
  | gq_intro : forall i q s i', ign i -> gatoms q s -> ign_end i' -> gquery q (i ++ s ++ i').
End Grammar.

(** [lf] numbers the labels of a table by their position. *)
Definition numbering (lf : list ascii -> nat) (tab : list (list ascii)) : Prop :=
  (forall i t, nth_error tab i = Some t -> lf t = i) /\ forall t, ~ In t tab -> length tab <= lf t.
(** How many labels are known after each atom, if [k] are known before: labels get the next free number when they are first read. *)
Definition known1 (k : nat) (r : regex) : nat := fold_right Nat.max k (map S (rlabels r)).
Fixpoint known (k : nat) (q : list qatom) : list nat :=
  match q with [] => [] | a :: q' => known1 k (qa_re a) :: known (known1 k (qa_re a)) q' end.
(** The configurations described by a query, with [st n s] if state [s] has the name [n]: each atom stands for its states with the
    stacks over the labels known after it that match its expression. *)
Definition q_configs (st : list ascii -> nat -> Prop) (k : nat) (q : list qatom) (c : config) : Prop :=
  exists i a m, nth_error q i = Some a /\ nth_error (known k q) i = Some m /\
    (exists r, In r (qa_refs a) /\ st (sr_name r) (fst c)) /\ rmatch (qa_re a) (snd c) /\ Forall (fun x => x < m) (snd c).
