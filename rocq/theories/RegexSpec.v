(** Independent specification of regular expressions over labels, as written in query files. *)
From Coq Require Import List Arith.
Import ListNotations.

(** [RSet neg ls] is one label that is (not) among [ls]; the wildcard is [RSet true []]. *)
Inductive regex :=
| REps
| RSet (neg : bool) (ls : list nat)
| RCat (a b : regex)
| RAlt (a b : regex)
| ROpt (a : regex)
| RPlus (a : regex)
| RStar (a : regex).

Inductive rmatch : regex -> list nat -> Prop :=
| rm_eps : rmatch REps []
| rm_set : forall (neg : bool) (ls : list nat) (x : nat), (if neg then ~ In x ls else In x ls) -> rmatch (RSet neg ls) [x]
| rm_cat : forall a b w1 w2, rmatch a w1 -> rmatch b w2 -> rmatch (RCat a b) (w1 ++ w2)
| rm_alt1 : forall a b w, rmatch a w -> rmatch (RAlt a b) w
| rm_alt2 : forall a b w, rmatch b w -> rmatch (RAlt a b) w
| rm_opt0 : forall a, rmatch (ROpt a) []
| rm_opt1 : forall a w, rmatch a w -> rmatch (ROpt a) w
| rm_plus1 : forall a w, rmatch a w -> rmatch (RPlus a) w
| rm_plus2 : forall a w1 w2, rmatch a w1 -> rmatch (RPlus a) w2 -> rmatch (RPlus a) (w1 ++ w2)
| rm_star0 : forall a, rmatch (RStar a) []
| rm_star1 : forall a w1 w2, rmatch a w1 -> rmatch (RStar a) w2 -> rmatch (RStar a) (w1 ++ w2).

(** The labels an expression mentions, from left to right. *)
Fixpoint rlabels (r : regex) : list nat :=
  match r with
  | REps => []
  | RSet _ ls => ls
  | RCat a b | RAlt a b => rlabels a ++ rlabels b
  | ROpt a | RPlus a | RStar a => rlabels a
  end.
