(** Independent specification of the concrete syntax of regular expressions: which expression a text denotes.
    [lf] gives the meaning of a label name. *)
From Coq Require Import List Arith Ascii.
From Verif Require Import RegexSpec.
Import ListNotations.

Definition newline : ascii := ascii_of_nat 10.
Definition space_char (c : ascii) : Prop := let n := nat_of_ascii c in n = 32 \/ 9 <= n <= 13.
Definition ident_char (c : ascii) : Prop :=
  let n := nat_of_ascii c in 48 <= n <= 57 \/ 65 <= n <= 90 \/ n = 95 \/ 97 <= n <= 122.

(** White space and comments; a comment runs from '#' to the end of the line. *)
Inductive ign : list ascii -> Prop :=
| ign_nil : ign []
| ign_space : forall c s, space_char c -> ign s -> ign (c :: s)
| ign_comment : forall b s, ~ In newline b -> ign s -> ign ("#"%char :: b ++ newline :: s).
(** At the end of the text the last comment need not end with a newline. *)
Inductive ign_end : list ascii -> Prop :=
| ie_ign : forall s, ign s -> ign_end s
| ie_comment : forall s b, ign s -> ~ In newline b -> ign_end (s ++ "#"%char :: b).

Section Grammar.
  Variable lf : list ascii -> nat.

  Definition is_label (s : list ascii) : Prop := s <> [] /\ Forall ident_char s.

  Inductive glabels : list nat -> list ascii -> Prop :=
  | gl_one : forall s, is_label s -> glabels [lf s] s
  | gl_cons : forall s i1 i2 ls s', is_label s -> ign i1 -> ign i2 -> glabels ls s' ->
      glabels (lf s :: ls) (s ++ i1 ++ ","%char :: i2 ++ s').

  Inductive gvalue : regex -> list ascii -> Prop :=
  | gv_any : gvalue (RSet true []) ["."%char]
  | gv_set : forall ls s, glabels ls s -> gvalue (RSet false ls) ("["%char :: s ++ ["]"%char])
  | gv_neg : forall ls s, glabels ls s -> gvalue (RSet true ls) ("["%char :: "^"%char :: s ++ ["]"%char])
  | gv_bracket : forall r s i1 i2, ign i1 -> ign i2 -> gexpr r s -> gvalue r ("("%char :: i1 ++ s ++ i2 ++ [")"%char])
  with gunary : regex -> list ascii -> Prop :=
  | gu_value : forall r s, gvalue r s -> gunary r s
  | gu_star : forall r s, gvalue r s -> gunary (RStar r) (s ++ ["*"%char])
  | gu_plus : forall r s, gvalue r s -> gunary (RPlus r) (s ++ ["+"%char])
  | gu_question : forall r s, gvalue r s -> gunary (ROpt r) (s ++ ["?"%char])
  with gseq : regex -> list ascii -> Prop :=
  | gs_one : forall r s, gunary r s -> gseq r s
  | gs_cat : forall r s i r' s', gunary r s -> ign i -> gseq r' s' -> gseq (RCat r r') (s ++ i ++ s')
  with gexpr : regex -> list ascii -> Prop :=
  | ge_one : forall r s, gseq r s -> gexpr r s
  | ge_or : forall r s i1 i2 r' s', gseq r s -> ign i1 -> ign i2 -> gexpr r' s' -> gexpr (RAlt r r') (s ++ i1 ++ "|"%char :: i2 ++ s').

  Inductive gfile : regex -> list ascii -> Prop :=
  | gf_empty : forall s, ign_end s -> gfile REps s
  | gf_expr : forall i s i' r, ign i -> gexpr r s -> ign_end i' -> gfile r (i ++ s ++ i').
End Grammar.
