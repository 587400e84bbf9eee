(** Lemmas about the PDA model: rule order, label sets, well-formedness of everything built through the API. *)
From Coq Require Import List Arith Lia Bool ZArith Sorted.
From Verif Require Import Base BaseFacts Spec PdaModel.
Import ListNotations.

(** * Rule order *)
Definition rlt (a b : rule) : Prop :=
  r_to a < r_to b \/ (r_to a = r_to b /\
   (r_opl a < r_opl b \/ (r_opl a = r_opl b /\
     (op_num (r_op a) < op_num (r_op b) \/ (op_num (r_op a) = op_num (r_op b) /\ (r_w a < r_w b)%Z))))).

Lemma rule_ltb_spec : forall a b, rule_ltb a b = true <-> rlt a b.
Proof.
  intros a b. unfold rule_ltb, rule_cmp, rlt.
  destruct (Nat.compare_spec (r_to a) (r_to b)) as [E1|E1|E1];
  [destruct (Nat.compare_spec (r_opl a) (r_opl b)) as [E2|E2|E2];
   [destruct (Nat.compare_spec (op_num (r_op a)) (op_num (r_op b))) as [E3|E3|E3];
    [destruct (Z.compare_spec (r_w a) (r_w b))|..]|..]|..]; split; intros; try discriminate; auto; try lia.
Qed.

Lemma op_num_inj : forall a b, op_num a = op_num b -> a = b.
Proof. destruct a, b; cbn; intros; auto; lia. Qed.

Lemma op_eqb_eq : forall a b, op_eqb a b = true <-> a = b.
Proof. destruct a, b; cbn; split; intros; try discriminate; auto. Qed.

Lemma rule_eqb_eq : forall a b, rule_eqb a b = true <-> a = b.
Proof.
  intros [] []; unfold rule_eqb; cbn. rewrite !andb_true_iff, !Nat.eqb_eq, op_eqb_eq, Z.eqb_eq.
  split; [intros [[[? ?] ?] ?]|intros H; injection H; intros]; subst; auto.
Qed.

Lemma rule_eq_dec : forall a b : rule, {a = b} + {a <> b}.
Proof. repeat decide equality. Defined.

Lemma pr_eq_dec : forall (p : nat) (r : rule) p' r', (p = p' /\ r = r') \/ ~ (p = p' /\ r = r').
Proof. intros. destruct (Nat.eq_dec p p'), (rule_eq_dec r r'); tauto. Qed.

Lemma rlt_irrefl : forall a, ~ rlt a a.
Proof. unfold rlt; intros; lia. Qed.
Lemma rlt_trans : forall a b c, rlt a b -> rlt b c -> rlt a c.
Proof. unfold rlt; intros; lia. Qed.
Lemma rlt_total : forall a b, rlt a b \/ a = b \/ rlt b a.
Proof.
  intros a b. unfold rlt.
  destruct (Nat.lt_trichotomy (r_to a) (r_to b)) as [?|[?|?]]; try lia.
  destruct (Nat.lt_trichotomy (r_opl a) (r_opl b)) as [?|[?|?]]; try lia.
  destruct (Nat.lt_trichotomy (op_num (r_op a)) (op_num (r_op b))) as [?|[?|?]]; try lia.
  destruct (Z.lt_trichotomy (r_w a) (r_w b)) as [?|[?|?]]; try lia.
  right; left. apply op_num_inj in H1. destruct a, b; cbn in *; subst; auto.
Qed.

Lemma rule_ltb_false : forall a b, rule_ltb a b = false <-> a = b \/ rlt b a.
Proof.
  intros. split.
  - intros H. destruct (rlt_total a b) as [L|[E|L]]; auto.
    apply rule_ltb_spec in L. congruence.
  - intros H. destruct (rule_ltb a b) eqn:E; auto. apply rule_ltb_spec in E. exfalso.
    destruct H as [->|H]; [eapply rlt_irrefl|eapply rlt_irrefl, rlt_trans]; eauto.
Qed.

(** * Sorted vectors *)
Definition ssorted (l : list nat) : Prop := StronglySorted lt l.

Lemma ssorted_cons : forall x l, ssorted (x :: l) <-> ssorted l /\ (forall y, In y l -> x < y).
Proof.
  intros; unfold ssorted; split.
  - intros H; inversion H; subst; split; auto. apply Forall_forall; auto.
  - intros [H1 H2]; constructor; auto. apply Forall_forall; auto.
Qed.

Lemma sorted_mem_In : forall x l, ssorted l -> (sorted_mem x l = true <-> In x l).
Proof.
  unfold sorted_mem. induction l as [|y l IH]; intros Hs; cbn.
  - split; [discriminate|tauto].
  - apply ssorted_cons in Hs. destruct Hs as [Hs Hy].
    destruct (Nat.ltb y x) eqn:E.
    + rewrite IH by auto. apply Nat.ltb_lt in E. split; auto. intros [->|?]; auto; lia.
    + rewrite Nat.eqb_eq. apply Nat.ltb_ge in E. split; auto.
      intros [->|H]; auto. apply Hy in H. lia.
Qed.

Lemma set_union_nil_r : forall a, set_union a [] = a.
Proof. destruct a; reflexivity. Qed.
Lemma set_union_cons : forall x a y b, set_union (x :: a) (y :: b) =
  if Nat.ltb x y then x :: set_union a (y :: b)
  else if Nat.ltb y x then y :: set_union (x :: a) b else x :: set_union a b.
Proof. intros; cbn. destruct (x <? y); auto. Qed.

Lemma set_union_ind : forall P : list nat -> list nat -> Prop,
  (forall b, P [] b) -> (forall a, P a []) ->
  (forall x a y b, P a (y :: b) -> P (x :: a) b -> P a b -> P (x :: a) (y :: b)) ->
  forall a b, P a b.
Proof.
  intros P H1 H2 H3. induction a as [|x a IHa]; auto.
  induction b as [|y b IHb]; auto.
Qed.

Lemma set_union_In : forall a b z, In z (set_union a b) <-> In z a \/ In z b.
Proof.
  intros a b z. revert a b. apply set_union_ind.
  - intros; cbn. destruct b; tauto.
  - intros; rewrite set_union_nil_r; cbn; tauto.
  - intros x a y b I1 I2 I3. rewrite set_union_cons.
    destruct (x <? y) eqn:E1; [|destruct (y <? x) eqn:E2].
    + cbn [In] in *. tauto.
    + cbn [In] in *. tauto.
    + apply Nat.ltb_ge in E1, E2. assert (x = y) by lia. subst. cbn [In] in *. tauto.
Qed.

Lemma set_union_ssorted : forall a b, ssorted a -> ssorted b -> ssorted (set_union a b).
Proof.
  apply (set_union_ind (fun a b => ssorted a -> ssorted b -> ssorted (set_union a b))).
  - intros; destruct b; auto.
  - intros; rewrite set_union_nil_r; auto.
  - intros x a y b I1 I2 I3 Ha Hb. rewrite set_union_cons.
    pose proof Ha as Ha'. pose proof Hb as Hb'.
    apply ssorted_cons in Ha. apply ssorted_cons in Hb. destruct Ha as [Sa La], Hb as [Sb Lb].
    destruct (x <? y) eqn:E1; [|destruct (y <? x) eqn:E2]; apply ssorted_cons; split; auto; intros z Hz;
    apply set_union_In in Hz; cbn in Hz; rewrite ?Nat.ltb_lt, ?Nat.ltb_ge in E1;
    try rewrite ?Nat.ltb_lt, ?Nat.ltb_ge in E2.
    + destruct Hz as [Hz|[->|Hz]]; auto. apply Lb in Hz; lia.
    + destruct Hz as [[->|Hz]|Hz]; auto. apply La in Hz; lia.
    + destruct Hz as [Hz|Hz]; auto. apply Lb in Hz; lia.
Qed.

Lemma vs_emplace_In : forall k l x, In x (vs_emplace k l) <-> x = k \/ In x l.
Proof.
  induction l as [|y l IH]; intros x; cbn; [intuition|].
  destruct (y <? k) eqn:E1; cbn; [rewrite IH; intuition|].
  destruct (Nat.eqb y k) eqn:E2; cbn; [apply Nat.eqb_eq in E2; subst; intuition|intuition].
Qed.

Lemma vs_emplace_ssorted : forall k l, ssorted l -> ssorted (vs_emplace k l).
Proof.
  induction l as [|y l IH]; intros Hs; cbn.
  - apply ssorted_cons; split; auto. intros ? [].
  - pose proof Hs as Hs'. apply ssorted_cons in Hs. destruct Hs as [Hs Hy].
    destruct (y <? k) eqn:E1.
    + apply Nat.ltb_lt in E1. apply ssorted_cons; split; auto. intros z Hz. apply vs_emplace_In in Hz. destruct Hz as [->|?]; auto.
    + apply Nat.ltb_ge in E1. destruct (Nat.eqb y k) eqn:E2; auto. apply Nat.eqb_neq in E2.
      apply ssorted_cons; split; auto. intros z [->|Hz]; [lia|]. apply Hy in Hz; lia.
Qed.

(** * Label sets *)
Definition wf_labels (nlab : nat) (ls : labels) : Prop :=
  ssorted (labs ls) /\ (forall l, In l (labs ls) -> l < nlab).

Lemma contains_spec : forall nlab ls l, wf_labels nlab ls -> l < nlab -> (contains ls l = true <-> matches nlab ls l).
Proof.
  intros nlab ls l [Hs Hl] Hn. unfold contains, matches. destruct (wild ls); [tauto|].
  apply sorted_mem_In; auto.
Qed.

Lemma matches_lt : forall nlab ls l, wf_labels nlab ls -> matches nlab ls l -> l < nlab.
Proof. intros nlab ls l [Hs Hl] H. unfold matches in H. destruct (wild ls); auto. Qed.

Lemma merge_matches : forall nlab ls w other l,
  matches nlab (merge ls w other) l <->
  if wild ls then l < nlab else if w then l < nlab else In l (labs ls) \/ In l other.
Proof.
  intros. unfold merge, matches. destruct (wild ls) eqn:E; [rewrite E; tauto|].
  destruct w; cbn; [tauto|]. apply set_union_In.
Qed.

Lemma merge_wf : forall nlab ls w other, wf_labels nlab ls -> ssorted other -> (forall l, In l other -> l < nlab) ->
  wf_labels nlab (merge ls w other).
Proof.
  intros nlab ls w other [Hs Hl] Ho1 Ho2. unfold merge. destruct (wild ls); [split; auto|].
  destruct w; split; cbn; try constructor; try tauto.
  - apply set_union_ssorted; auto.
  - intros l H. apply set_union_In in H. destruct H; auto.
Qed.

(** * Rule tables *)
Definition rsorted (l : list (rule * labels)) : Prop := StronglySorted (fun a b => rlt (fst a) (fst b)) l.

Lemma rsorted_cons : forall x l, rsorted (x :: l) <-> rsorted l /\ (forall y, In y l -> rlt (fst x) (fst y)).
Proof.
  intros; unfold rsorted; split.
  - intros H; inversion H; subst; split; auto. apply Forall_forall; auto.
  - intros [H1 H2]; constructor; auto. apply Forall_forall; auto.
Qed.

Lemma rsorted_key_inj : forall l r a b, rsorted l -> In (r,a) l -> In (r,b) l -> a = b.
Proof.
  induction l as [|x l IH]; cbn; [tauto|]. intros r a b Hs Ha Hb.
  apply rsorted_cons in Hs. destruct Hs as [Hs Hx].
  destruct Ha as [->|Ha], Hb as [Hb|Hb]; eauto.
  - congruence.
  - apply Hx in Hb. cbn in Hb. destruct (rlt_irrefl r Hb).
  - subst x. apply Hx in Ha. cbn in Ha. destruct (rlt_irrefl r Ha).
Qed.

Section Emplace.
  Variables (k : rule) (v : labels) (f : labels -> labels).

  Lemma vm_emplace_mod_In : forall l, rsorted l -> forall r ls,
    In (r, ls) (vm_emplace_mod k v f l) <->
      (r <> k /\ In (r, ls) l) \/
      (r = k /\ ((exists old, In (k, old) l /\ ls = f old) \/ ((forall old, ~ In (k, old) l) /\ ls = f v))).
  Proof.
    induction l as [|[k' v'] l IH]; intros Hs r ls.
    - cbn. split.
      + intros [H|[]]. injection H as <- <-. right. split; auto.
      + intros [[_ []]|[-> [[old [[] _]]|[_ ->]]]]. auto.
    - pose proof Hs as Hs'. apply rsorted_cons in Hs. destruct Hs as [Hs Hx]. cbn [fst] in Hx.
      cbn [vm_emplace_mod]. destruct (rule_ltb k' k) eqn:E1.
      + apply rule_ltb_spec in E1. assert (Hne: k' <> k) by (intros ->; eapply rlt_irrefl; eauto).
        cbn [In]. rewrite IH by auto. split.
        * intros [H|[[H1 H2]|[-> [[old [H1 ->]]|[H1 ->]]]]].
          -- injection H as <- <-. left; auto.
          -- left; auto.
          -- right. split; auto. left. exists old; auto.
          -- right. split; auto. right. split; auto. intros old [Ho|Ho]; [injection Ho; intros; congruence|eapply H1; eauto].
        * intros [[H1 [H2|H2]]|[-> [[old [[Ho|Ho] ->]]|[H1 ->]]]].
          -- injection H2 as <- <-; auto.
          -- right; left; auto.
          -- injection Ho; intros; congruence.
          -- right; right. split; auto. left; eauto.
          -- right; right. split; auto. right. split; auto. intros old Ho. eapply H1; cbn; eauto.
      + destruct (rule_eqb k' k) eqn:E2.
        * apply rule_eqb_eq in E2. subst k'. cbn [In]. split.
          -- intros [H|H].
             ++ injection H as <- <-. right. split; auto. left. exists v'; auto.
             ++ left. split; auto. intros ->. apply Hx in H. eapply rlt_irrefl; eauto.
          -- intros [[H1 [H2|H2]]|[-> [[old [[Ho|Ho] ->]]|[H1 ->]]]]; auto.
             ++ injection H2; intros; congruence.
             ++ injection Ho; intros; subst; auto.
             ++ apply Hx in Ho. destruct (rlt_irrefl _ Ho).
             ++ exfalso. eapply H1. left; reflexivity.
        * assert (Hlt: rlt k k').
          { apply rule_ltb_false in E1. destruct E1 as [->|]; auto. exfalso. assert (rule_eqb k k = true) by (apply rule_eqb_eq; auto). congruence. }
          assert (Hall: forall y, In y ((k',v')::l) -> rlt k (fst y)).
          { intros y [<-|Hy]; auto. eapply rlt_trans; eauto. }
          cbn [In]. split.
          -- intros [H|H].
             ++ injection H as <- <-. right. split; auto. right. split; auto. intros old Ho. apply Hall in Ho. eapply rlt_irrefl; eauto.
             ++ left. split; auto. intros ->. apply Hall in H. eapply rlt_irrefl; eauto.
          -- intros [[H1 H2]|[-> [[old [Ho ->]]|[H1 ->]]]]; auto.
             apply Hall in Ho. destruct (rlt_irrefl _ Ho).
  Qed.

  Lemma vm_emplace_mod_sorted : forall l, rsorted l -> rsorted (vm_emplace_mod k v f l).
  Proof.
    induction l as [|[k' v'] l IH]; intros Hs; cbn [vm_emplace_mod].
    - apply rsorted_cons; split; auto. intros ? [].
    - pose proof Hs as Hs'. apply rsorted_cons in Hs. destruct Hs as [Hs Hx]. cbn [fst] in Hx.
      destruct (rule_ltb k' k) eqn:E1.
      + apply rule_ltb_spec in E1. apply rsorted_cons; split; auto.
        intros [r ls] Hy. cbn. apply vm_emplace_mod_In in Hy; auto.
        destruct Hy as [[_ H]|[-> _]]; auto. apply Hx in H; auto.
      + destruct (rule_eqb k' k) eqn:E2.
        * apply rsorted_cons; split; auto.
        * assert (Hlt: rlt k k').
          { apply rule_ltb_false in E1. destruct E1 as [->|]; auto. exfalso. assert (rule_eqb k k = true) by (apply rule_eqb_eq; auto). congruence. }
          apply rsorted_cons; split; auto. intros y [<-|Hy]; auto. cbn. eapply rlt_trans; eauto.
  Qed.
End Emplace.

(** * Well-formed PDAs *)
Record wf_pda (P : pda) : Prop := {
  wf_to : forall p s r ls, nth_error (pd_states P) p = Some s -> In (r, ls) (ps_rules s) -> r_to r < pd_n P;
  wf_pre : forall q s p s' r ls, nth_error (pd_states P) q = Some s ->
     nth_error (pd_states P) p = Some s' -> In (r, ls) (ps_rules s') -> r_to r = q -> In p (ps_pre s);
  wf_pre_lt : forall q s p, nth_error (pd_states P) q = Some s -> In p (ps_pre s) -> p < pd_n P;
  wf_rules : forall p s, nth_error (pd_states P) p = Some s -> rsorted (ps_rules s);
  wf_pre_sorted : forall p s, nth_error (pd_states P) p = Some s -> ssorted (ps_pre s);
  wf_labs : forall p s r ls, nth_error (pd_states P) p = Some s -> In (r, ls) (ps_rules s) -> wf_labels (pd_nlab P) ls;
  wf_opl : forall p s r ls, nth_error (pd_states P) p = Some s -> In (r, ls) (ps_rules s) ->
     (r_op r = PUSH \/ r_op r = SWAP) -> r_opl r < pd_nlab P }.

(** What the API requires of one call: sorted precondition labels inside the alphabet, operation label inside the alphabet. *)
Definition wf_urule (nlab : nat) (u : urule) : Prop :=
  ssorted (u_pre u) /\ (forall l, In l (u_pre u) -> l < nlab) /\
  ((r_op (u_rule u) = PUSH \/ r_op (u_rule u) = SWAP) -> r_opl (u_rule u) < nlab).

(** The rules of state [p] ([] when there is no such state). *)
Definition rules_at (P : pda) (p : nat) : list (rule * labels) := ps_rules (nth p (pd_states P) empty_pstate).
Definition pres_at (P : pda) (p : nat) : list nat := ps_pre (nth p (pd_states P) empty_pstate).

Lemma nth_error_nth_default : forall A (l : list A) i a d, nth_error l i = Some a -> nth i l d = a.
Proof. intros. apply nth_error_nth; auto. Qed.

Lemma add_state_n : forall P s, pd_n (add_state P s) = Nat.max (pd_n P) (S s).
Proof.
  intros. unfold add_state, pd_n. destruct (Nat.leb_spec (length (pd_states P)) s); cbn; [|lia].
  rewrite app_length, repeat_length. lia.
Qed.

Lemma add_state_nth : forall P s p, nth p (pd_states (add_state P s)) empty_pstate = nth p (pd_states P) empty_pstate.
Proof.
  intros. unfold add_state, pd_n. destruct (Nat.leb_spec (length (pd_states P)) s); cbn; auto.
  destruct (Nat.lt_ge_cases p (length (pd_states P))).
  - rewrite app_nth1; auto.
  - rewrite app_nth2 by auto. rewrite (nth_overflow (pd_states P)) by auto.
    destruct (Nat.lt_ge_cases (p - length (pd_states P)) (S s - length (pd_states P))).
    + apply nth_repeat.
    + rewrite nth_overflow; auto. rewrite repeat_length; lia.
Qed.

Lemma nth_upd : forall A (l : list A) i j x d, nth j (upd l i x) d = if Nat.eqb i j then (if Nat.ltb i (length l) then x else d) else nth j l d.
Proof.
  induction l as [|a l IH]; intros; cbn.
  - destruct i, j; cbn; auto; destruct (Nat.eqb i j); auto.
  - destruct i, j; cbn; auto. rewrite IH. auto.
Qed.

Lemma add_rule_n : forall P from r w pre, pd_n (add_rule_impl P from r w pre) = Nat.max (pd_n P) (S (Nat.max from (r_to r))).
Proof. intros. unfold add_rule_impl. unfold pd_n at 1; cbn. rewrite !upd_length. apply add_state_n. Qed.

Lemma add_rule_rules_at : forall P from r w pre p, rules_at (add_rule_impl P from r w pre) p =
  if Nat.eqb from p then vm_emplace_mod r no_labels (fun ls => merge ls w pre) (rules_at P from) else rules_at P p.
Proof.
  intros. unfold rules_at, add_rule_impl; cbn.
  assert (Hf: from < length (pd_states (add_state P (Nat.max from (r_to r))))).
  { change (from < pd_n (add_state P (Nat.max from (r_to r)))). rewrite add_state_n; lia. }
  assert (Ht: r_to r < length (pd_states (add_state P (Nat.max from (r_to r))))).
  { change (r_to r < pd_n (add_state P (Nat.max from (r_to r)))). rewrite add_state_n; lia. }
  rewrite nth_upd, upd_length. apply Nat.ltb_lt in Ht. rewrite Ht.
  destruct (Nat.eqb (r_to r) p) eqn:E1; cbn; rewrite nth_upd; apply Nat.ltb_lt in Hf; rewrite Hf.
  - apply Nat.eqb_eq in E1. subst p. destruct (Nat.eqb from (r_to r)); cbn; rewrite add_state_nth; auto.
  - destruct (Nat.eqb from p); cbn; rewrite add_state_nth; auto.
Qed.

Lemma add_rule_pres_at : forall P from r w pre p, pres_at (add_rule_impl P from r w pre) p =
  if Nat.eqb (r_to r) p then vs_emplace from (pres_at P p) else pres_at P p.
Proof.
  intros. unfold pres_at, add_rule_impl; cbn.
  assert (Hf: from < length (pd_states (add_state P (Nat.max from (r_to r))))).
  { change (from < pd_n (add_state P (Nat.max from (r_to r)))). rewrite add_state_n; lia. }
  assert (Ht: r_to r < length (pd_states (add_state P (Nat.max from (r_to r))))).
  { change (r_to r < pd_n (add_state P (Nat.max from (r_to r)))). rewrite add_state_n; lia. }
  rewrite nth_upd, upd_length. apply Nat.ltb_lt in Ht. rewrite Ht.
  destruct (Nat.eqb (r_to r) p) eqn:E1; cbn; rewrite nth_upd; apply Nat.ltb_lt in Hf; rewrite Hf.
  - apply Nat.eqb_eq in E1. subst p. destruct (Nat.eqb from (r_to r)) eqn:E; cbn; rewrite add_state_nth; auto; apply Nat.eqb_eq in E; subst from; auto.
  - destruct (Nat.eqb from p) eqn:E; cbn; rewrite add_state_nth; auto; apply Nat.eqb_eq in E; subst; auto.
Qed.

Lemma rules_at_overflow : forall P p, pd_n P <= p -> rules_at P p = [].
Proof. intros. unfold rules_at. rewrite nth_overflow; auto. Qed.
Lemma pres_at_overflow : forall P p, pd_n P <= p -> pres_at P p = [].
Proof. intros. unfold pres_at. rewrite nth_overflow; auto. Qed.

Lemma In_rules_lt : forall P p x, In x (rules_at P p) -> p < pd_n P.
Proof. intros. destruct (Nat.lt_ge_cases p (pd_n P)); auto. rewrite rules_at_overflow in H; auto. destruct H. Qed.

(** The same conditions in terms of [rules_at] / [pres_at]. *)
Record wf_pda' (P : pda) : Prop := {
  wf'_to : forall p r ls, In (r, ls) (rules_at P p) -> r_to r < pd_n P;
  wf'_pre : forall p r ls, In (r, ls) (rules_at P p) -> In p (pres_at P (r_to r));
  wf'_pre_lt : forall q p, In p (pres_at P q) -> p < pd_n P;
  wf'_rules : forall p, rsorted (rules_at P p);
  wf'_pre_sorted : forall p, ssorted (pres_at P p);
  wf'_labs : forall p r ls, In (r, ls) (rules_at P p) -> wf_labels (pd_nlab P) ls;
  wf'_opl : forall p r ls, In (r, ls) (rules_at P p) -> (r_op r = PUSH \/ r_op r = SWAP) -> r_opl r < pd_nlab P }.

Lemma nth_error_rules_at : forall P p s, nth_error (pd_states P) p = Some s -> ps_rules s = rules_at P p.
Proof. intros. unfold rules_at. erewrite nth_error_nth_default; eauto. Qed.
Lemma nth_error_pres_at : forall P p s, nth_error (pd_states P) p = Some s -> ps_pre s = pres_at P p.
Proof. intros. unfold pres_at. erewrite nth_error_nth_default; eauto. Qed.

Lemma wf_pda'_wf : forall P, wf_pda' P -> wf_pda P.
Proof.
  intros P [H1 H2 H2' H3 H4 H5 H6]. constructor; intros.
  - rewrite (nth_error_rules_at _ _ _ H) in H0. eauto.
  - rewrite (nth_error_pres_at _ _ _ H). rewrite (nth_error_rules_at _ _ _ H0) in H7. subst q. eauto.
  - rewrite (nth_error_pres_at _ _ _ H) in H0. eauto.
  - rewrite (nth_error_rules_at _ _ _ H). auto.
  - rewrite (nth_error_pres_at _ _ _ H). auto.
  - rewrite (nth_error_rules_at _ _ _ H) in H0. eauto.
  - rewrite (nth_error_rules_at _ _ _ H) in H0. eauto.
Qed.

Lemma wf_wf_pda' : forall P, wf_pda P -> wf_pda' P.
Proof.
  intros P [H1 H2 H2' H3 H4 H5 H6].
  assert (G: forall p x, In x (rules_at P p) -> exists s, nth_error (pd_states P) p = Some s /\ In x (ps_rules s)).
  { intros p x Hin. pose proof (In_rules_lt _ _ _ Hin) as L. destruct (nth_error_ex _ _ _ L) as [s Es].
    exists s; split; auto. rewrite (nth_error_rules_at _ _ _ Es); auto. }
  constructor; intros.
  - destruct (G _ _ H) as [s [? ?]]; eauto.
  - destruct (G _ _ H) as [s [Es Hin']]. pose proof (H1 _ _ _ _ Es Hin') as L. destruct (nth_error_ex _ _ _ L) as [s' Es'].
    rewrite <- (nth_error_pres_at _ _ _ Es'). eapply H2; eauto.
  - destruct (Nat.lt_ge_cases q (pd_n P)) as [L|L]; [|rewrite pres_at_overflow in H; auto; destruct H].
    destruct (nth_error_ex _ _ _ L) as [s Es]. rewrite <- (nth_error_pres_at _ _ _ Es) in H. eauto.
  - destruct (Nat.lt_ge_cases p (pd_n P)) as [L|L]; [|rewrite rules_at_overflow; auto; constructor].
    destruct (nth_error_ex _ _ _ L) as [s Es]. rewrite <- (nth_error_rules_at _ _ _ Es). eauto.
  - destruct (Nat.lt_ge_cases p (pd_n P)) as [L|L]; [|rewrite pres_at_overflow; auto; constructor].
    destruct (nth_error_ex _ _ _ L) as [s Es]. rewrite <- (nth_error_pres_at _ _ _ Es). eauto.
  - destruct (G _ _ H) as [s [? ?]]; eauto.
  - destruct (G _ _ H) as [s [? ?]]; eauto.
Qed.

Lemma pda_rules_at : forall P sr, pda_rules P sr <->
  exists r ls, In (r, ls) (rules_at P (s_from sr)) /\ matches (pd_nlab P) ls (s_pre sr) /\ s_to sr = r_to r /\ s_op sr = sop_of r.
Proof.
  intros; split.
  - intros [s [r [ls [Es [Hin H]]]]]. exists r, ls. rewrite <- (nth_error_rules_at _ _ _ Es). auto.
  - intros [r [ls [Hin H]]]. pose proof (In_rules_lt _ _ _ Hin) as L. destruct (nth_error_ex _ _ _ L) as [s Es].
    exists s, r, ls. rewrite (nth_error_rules_at _ _ _ Es). auto.
Qed.

Lemma wf_labels_no : forall nlab, wf_labels nlab no_labels.
Proof. intros; split; cbn; [constructor|tauto]. Qed.

(** The rules of a state after one more API call. *)
Lemma add_urule_In : forall P u p r ls, rsorted (rules_at P (u_from u)) ->
  In (r, ls) (rules_at (add_urule P u) p) <->
     (~ (p = u_from u /\ r = u_rule u) /\ In (r, ls) (rules_at P p)) \/
     (p = u_from u /\ r = u_rule u /\ ((exists old, In (r, old) (rules_at P p) /\ ls = merge old (u_wild u) (u_pre u)) \/
        ((forall old, ~ In (r, old) (rules_at P p)) /\ ls = merge no_labels (u_wild u) (u_pre u)))).
Proof.
  intros P u p r ls HS. unfold add_urule. rewrite add_rule_rules_at. destruct (Nat.eqb (u_from u) p) eqn:E.
  - apply Nat.eqb_eq in E. subst p. rewrite vm_emplace_mod_In by auto. split.
    + intros [[Ha Hb]|[-> Hc]]; [left|right]; tauto.
    + intros [[Ha Hb]|[_ [-> Hc]]]; [left|right]; tauto.
  - apply Nat.eqb_neq in E. split; [intros; left; split; auto; intros [-> _]; auto|intros [[_ ?]|[-> _]]; tauto].
Qed.

(** The keys of the rule tables: exactly the added rules. *)
Lemma add_urule_keys : forall P u p r, rsorted (rules_at P (u_from u)) ->
  (exists ls, In (r, ls) (rules_at (add_urule P u) p)) <->
  (p = u_from u /\ r = u_rule u) \/ (exists ls, In (r, ls) (rules_at P p)).
Proof.
  intros P u p r HS. split.
  - intros [ls H]. apply add_urule_In in H; auto. destruct H as [[_ H]|[-> [-> _]]]; eauto.
  - intros H. destruct (pr_eq_dec p r (u_from u) (u_rule u)) as [[-> ->]|Hne].
    + destruct (in_dec rule_eq_dec (u_rule u) (map fst (rules_at P (u_from u)))) as [Hi|Hi].
      * apply in_map_iff in Hi. destruct Hi as [[r0 ls0] [E0 Hi]]. cbn in E0; subst.
        eexists. apply add_urule_In; auto. right. split; auto. split; auto. left. exists ls0; split; auto.
      * eexists. apply add_urule_In; auto. right. split; auto. split; auto. right. split; auto.
        intros old Ho. apply Hi. apply in_map_iff. exists (u_rule u, old); auto.
    + destruct H as [H|[ls H]]; [contradiction|]. exists ls. apply add_urule_In; auto.
Qed.

Lemma add_urule_wf : forall P u, wf_pda' P -> wf_urule (pd_nlab P) u -> wf_pda' (add_urule P u).
Proof.
  intros P u W [U1 [U2 U3]].
  assert (HR := fun p r ls => add_urule_In P u p r ls (wf'_rules _ W (u_from u))).
  assert (HQ: forall q, pres_at (add_urule P u) q = if Nat.eqb (r_to (u_rule u)) q then vs_emplace (u_from u) (pres_at P q) else pres_at P q)
    by (intros; apply add_rule_pres_at).
  assert (HN: forall p, rules_at (add_urule P u) p =
    if Nat.eqb (u_from u) p then vm_emplace_mod (u_rule u) no_labels (fun ls => merge ls (u_wild u) (u_pre u)) (rules_at P (u_from u)) else rules_at P p)
    by (intros; apply add_rule_rules_at).
  unfold add_urule in *.
  set (P' := add_rule_impl P (u_from u) (u_rule u) (u_wild u) (u_pre u)) in *.
  assert (Hn: pd_nlab P' = pd_nlab P).
  { unfold P', add_rule_impl, add_state; cbn. destruct (pd_n P <=? _); auto. }
  assert (Hn2: pd_n P <= pd_n P' /\ r_to (u_rule u) < pd_n P' /\ u_from u < pd_n P').
  { unfold P'. rewrite add_rule_n. lia. }
  destruct W as [H1 H2 H2' H3 H4 H5 H6].
  constructor; intros.
  - apply HR in H. destruct H as [[_ H]|[_ [-> _]]]; [apply H1 in H|]; lia.
  - rewrite HQ. apply HR in H. destruct (Nat.eqb (r_to (u_rule u)) (r_to r)) eqn:E.
    + rewrite vs_emplace_In. destruct H as [[_ H]|[-> _]]; eauto.
    + destruct H as [[_ H]|[-> [-> _]]]; eauto. apply Nat.eqb_neq in E. congruence.
  - rewrite HQ in H. destruct (Nat.eqb (r_to (u_rule u)) q); [apply vs_emplace_In in H; destruct H as [->|H]; [lia|]|]; apply H2' in H; lia.
  - rewrite HN. destruct (Nat.eqb (u_from u) p); auto. apply vm_emplace_mod_sorted; auto.
  - rewrite HQ. destruct (Nat.eqb (r_to (u_rule u)) p); auto. apply vs_emplace_ssorted; auto.
  - rewrite Hn. apply HR in H. destruct H as [[_ H]|[_ [_ [[old [H ->]]|[_ ->]]]]]; eauto using merge_wf, wf_labels_no.
  - rewrite Hn. apply HR in H. destruct H as [[_ H]|[_ [-> _]]]; eauto.
Qed.

Lemma add_urule_nlab : forall P u, pd_nlab (add_urule P u) = pd_nlab P.
Proof. intros. unfold add_urule, add_rule_impl, add_state; cbn. destruct (pd_n P <=? _); auto. Qed.

Lemma empty_wf : forall nlab, wf_pda' (mk_pda [] nlab).
Proof.
  intros. assert (R: forall p, rules_at (mk_pda [] nlab) p = []) by (intros [|p]; reflexivity).
  assert (Q: forall p, pres_at (mk_pda [] nlab) p = []) by (intros [|p]; reflexivity).
  constructor; intros; rewrite ?R, ?Q in *; cbn in *; try tauto; try constructor; try tauto.
Qed.

Lemma build_gen : forall us P, wf_pda' P -> Forall (wf_urule (pd_nlab P)) us ->
  wf_pda' (fold_left add_urule us P) /\ pd_nlab (fold_left add_urule us P) = pd_nlab P.
Proof.
  induction us as [|u us IH]; intros P W HF; cbn; auto.
  inversion HF; subst. destruct (IH (add_urule P u)) as [A B].
  - apply add_urule_wf; auto.
  - rewrite add_urule_nlab; auto.
  - split; auto. rewrite B. apply add_urule_nlab.
Qed.

Lemma build_wf : forall nlab us, Forall (wf_urule nlab) us -> wf_pda (build nlab us).
Proof. intros. apply wf_pda'_wf. apply build_gen; auto. apply empty_wf. Qed.

Lemma build_nlab : forall nlab us, pd_nlab (build nlab us) = nlab.
Proof.
  intros nlab us. unfold build. assert (G: forall us P, pd_nlab (fold_left add_urule us P) = pd_nlab P).
  { induction us0; intros; cbn; auto. rewrite IHus0. apply add_urule_nlab. }
  rewrite G; auto.
Qed.

(** Adding one rule adds exactly its transitions. *)
Lemma add_urule_rules : forall P u sr, wf_pda' P -> wf_urule (pd_nlab P) u ->
  (pda_rules (add_urule P u) sr <-> pda_rules P sr \/ user_rules (pd_nlab P) [u] sr).
Proof.
  intros P u sr W [U1 [U2 U3]]. rewrite !pda_rules_at, add_urule_nlab. unfold add_urule. rewrite add_rule_rules_at.
  unfold user_rules.
  assert (HU: (exists u0, In u0 [u] /\ s_from sr = u_from u0 /\ s_to sr = r_to (u_rule u0) /\ s_op sr = sop_of (u_rule u0) /\
     (if u_wild u0 then s_pre sr < pd_nlab P else In (s_pre sr) (u_pre u0))) <->
     (s_from sr = u_from u /\ s_to sr = r_to (u_rule u) /\ s_op sr = sop_of (u_rule u) /\
     (if u_wild u then s_pre sr < pd_nlab P else In (s_pre sr) (u_pre u)))).
  { split; [intros [u0 [[<-|[]] H]]; auto|intros H; exists u; cbn; auto]. }
  rewrite HU. clear HU.
  pose proof (wf'_rules _ W) as Hs. pose proof (wf'_labs _ W) as Hl.
  destruct (Nat.eqb (u_from u) (s_from sr)) eqn:E.
  - apply Nat.eqb_eq in E. rewrite E.
    set (k := u_rule u).
    split.
    + intros [r [ls [Hin [Hm [H H']]]]]. apply vm_emplace_mod_In in Hin; auto.
      destruct Hin as [[_ Hin]|[-> [[old [Hin ->]]|[_ ->]]]].
      * left; exists r, ls; auto.
      * apply merge_matches in Hm. destruct (wild old) eqn:Eo.
        -- left. exists k, old. split; auto. split; auto. unfold matches; rewrite Eo; auto.
        -- destruct (u_wild u) eqn:Eu; [right; auto|].
           destruct Hm as [Hm|Hm]; [left; exists k, old; unfold matches; rewrite Eo; auto|right; auto].
      * apply merge_matches in Hm. cbn in Hm. right. destruct (u_wild u); auto. tauto.
    + intros [[r [ls [Hin [Hm H]]]]|[_ [H1 [H2 H3]]]].
      * destruct (rule_eq_dec r k) as [->|Hne].
        -- exists k, (merge ls (u_wild u) (u_pre u)). split.
           ++ apply vm_emplace_mod_In; auto. right. split; auto. left; exists ls; auto.
           ++ split; auto. apply merge_matches. pose proof (matches_lt _ _ _ (Hl _ _ _ Hin) Hm).
              unfold matches in Hm. destruct (wild ls); auto. destruct (u_wild u); auto.
        -- exists r, ls. split; auto. apply vm_emplace_mod_In; auto.
      * destruct (in_dec rule_eq_dec k (map fst (rules_at P (s_from sr)))) as [Hi|Hi].
        -- apply in_map_iff in Hi. destruct Hi as [[r0 ls0] [E0 Hi]]. cbn in E0; subst r0.
           exists k, (merge ls0 (u_wild u) (u_pre u)). split.
           ++ apply vm_emplace_mod_In; auto. right. split; auto. left; exists ls0; auto.
           ++ split; auto. apply merge_matches. destruct (wild ls0), (u_wild u); auto.
        -- exists k, (merge no_labels (u_wild u) (u_pre u)). split.
           ++ apply vm_emplace_mod_In; auto. right. split; auto. right. split; auto.
              intros old Ho. apply Hi. apply in_map_iff. exists (k, old); auto.
           ++ split; auto. apply merge_matches. cbn. destruct (u_wild u); auto.
  - apply Nat.eqb_neq in E. split; [intros H; left; auto|intros [H|[H _]]; [auto|congruence]].
Qed.

(** The stored PDA stands for exactly the transitions of the API calls. *)
Lemma build_rules : forall nlab us, Forall (wf_urule nlab) us ->
  forall sr, pda_rules (build nlab us) sr <-> user_rules nlab us sr.
Proof.
  intros nlab us HF sr. unfold build.
  assert (G: forall us P, wf_pda' P -> Forall (wf_urule (pd_nlab P)) us ->
    (pda_rules (fold_left add_urule us P) sr <-> pda_rules P sr \/ user_rules (pd_nlab P) us sr)).
  { clear us HF. induction us as [|u us IH]; intros P W HF; cbn.
    - split; auto. intros [H|[u [[] _]]]; auto.
    - inversion HF; subst. rewrite IH; [|apply add_urule_wf; auto|rewrite add_urule_nlab; auto].
      rewrite add_urule_rules, add_urule_nlab; auto. unfold user_rules. split.
      + intros [[H|[u0 [[<-|[]] H]]]|[u0 [Hi H]]]; auto; right; eexists; split; eauto; cbn; auto.
      + intros [H|[u0 [[<-|Hi] H]]]; auto; [left; right; exists u; cbn; auto|right; exists u0; auto]. }
  rewrite G; [|apply empty_wf|auto]. cbn [pd_nlab]. split; auto. intros [H|]; auto.
  apply pda_rules_at in H. destruct H as [r [ls [H _]]]. unfold rules_at in H. destruct (s_from sr); destruct H.
Qed.

(** Keys of the rule tables and the predecessor index of a PDA built through the API. *)
Lemma build_snoc : forall nlab us u, build nlab (us ++ [u]) = add_urule (build nlab us) u.
Proof. intros. unfold build. rewrite fold_left_app. reflexivity. Qed.

Lemma build_keys : forall nlab us, Forall (wf_urule nlab) us -> forall p r,
  (exists ls, In (r, ls) (rules_at (build nlab us) p)) <-> exists u, In u us /\ u_from u = p /\ u_rule u = r.
Proof.
  intros nlab us. induction us as [|u us IH] using rev_ind; intros W p r.
  - split; [intros [ls H]; destruct p; destruct H|intros [u [[] _]]].
  - apply Forall_app in W. destruct W as [W1 W2]. rewrite build_snoc, add_urule_keys.
    2:{ apply (wf_wf_pda' _ (build_wf _ _ W1)). }
    rewrite IH by auto. split.
    + intros [[-> ->]|[u' [H1 [H2 H3]]]]; [exists u|exists u']; ands; auto; apply in_or_app; cbn; auto.
    + intros [u' [H1 [H2 H3]]]. apply in_app_or in H1. destruct H1 as [H1|[<-|[]]]; [right|left]; eauto.
Qed.

Lemma build_pres : forall nlab us q p, In p (pres_at (build nlab us) q) <-> exists u, In u us /\ u_from u = p /\ r_to (u_rule u) = q.
Proof.
  intros nlab us. induction us as [|u us IH] using rev_ind; intros q p.
  - split; [intros H; destruct q; destruct H|intros [u [[] _]]].
  - rewrite build_snoc. unfold add_urule. rewrite add_rule_pres_at. split.
    + destruct (Nat.eqb (r_to (u_rule u)) q) eqn:E.
      * rewrite vs_emplace_In, IH. apply Nat.eqb_eq in E.
        intros [->|[u' [H1 [H2 H3]]]]; [exists u|exists u']; ands; auto; apply in_or_app; cbn; auto.
      * rewrite IH. intros [u' [H1 [H2 H3]]]; exists u'; ands; auto; apply in_or_app; cbn; auto.
    + intros [u' [H1 [H2 H3]]]. apply in_app_or in H1.
      assert (K: In u' us -> In p (pres_at (build nlab us) q)) by (intros; apply IH; eauto).
      destruct (Nat.eqb (r_to (u_rule u)) q) eqn:E.
      * rewrite vs_emplace_In. destruct H1 as [H1|[<-|[]]]; auto.
      * apply Nat.eqb_neq in E. destruct H1 as [H1|[<-|[]]]; auto. congruence.
Qed.

Lemma build_n : forall nlab us p, p < pd_n (build nlab us) <-> exists u, In u us /\ (p <= u_from u \/ p <= r_to (u_rule u)).
Proof.
  intros nlab us. induction us as [|u us IH] using rev_ind; intros p.
  - split; [intros H; inversion H|intros [u [[] _]]].
  - rewrite build_snoc. unfold add_urule. rewrite add_rule_n. split.
    + intros H. destruct (Nat.lt_ge_cases p (pd_n (build nlab us))) as [L|L].
      * apply IH in L. destruct L as [u' [H1 H2]]. exists u'. split; auto. apply in_or_app; auto.
      * exists u. split; [apply in_or_app; cbn; auto|lia].
    + intros [u' [H1 H2]]. apply in_app_or in H1. destruct H1 as [H1|[<-|[]]]; [|lia].
      assert (p < pd_n (build nlab us)) by (apply IH; eauto). lia.
Qed.

Lemma rsorted_nodup : forall l, rsorted l -> NoDup (map fst l).
Proof.
  induction l as [|x l IH]; intros H; cbn; constructor; apply rsorted_cons in H; destruct H as [H1 H2]; auto.
  intros Hi. apply in_map_iff in Hi. destruct Hi as [y [E Hy]]. specialize (H2 _ Hy). rewrite E in H2.
  apply (rlt_irrefl _ H2).
Qed.
