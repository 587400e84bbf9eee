(** The regular-expression parser accepts exactly the texts of the grammar and builds the NFA of their expression. *)
From Coq Require Import List Arith Lia Bool Ascii.
From Verif Require Import Base BaseFacts Spec RegexSpec GrammarSpec PdaModel AutModel NfaModel NfaProof RegexProof ParserModel.
Import ListNotations.

(** ** Characters, white space *)
Lemma c_is_eq : forall a b, c_is a b = true <-> a = b.
Proof. intros. unfold c_is. apply Ascii.eqb_eq. Qed.
Lemma c_is_refl : forall a, c_is a a = true.
Proof. intros. apply c_is_eq; auto. Qed.
Lemma c_is_neq : forall a b, a <> b -> c_is a b = false.
Proof. intros a b H. destruct (c_is a b) eqn:E; auto. apply c_is_eq in E; tauto. Qed.
Lemma is_space_spec : forall c, is_space c = true <-> space_char c.
Proof.
  intros c. unfold is_space, space_char. rewrite orb_true_iff, andb_true_iff, Nat.eqb_eq, !Nat.leb_le. tauto.
Qed.
Lemma is_ident_spec : forall c, is_ident c = true <-> ident_char c.
Proof.
  intros c. unfold is_ident, ident_char. rewrite !orb_true_iff, !andb_true_iff, Nat.eqb_eq, !Nat.leb_le. tauto.
Qed.
Definition ignb (c : ascii) : bool := is_space c || c_is c "#".

Lemma skip_line_spec : forall s, (exists b, ~ In newline b /\ s = b ++ newline :: skip_line s) \/ (skip_line s = [] /\ ~ In newline s).
Proof.
  induction s as [|c s IH]; cbn [skip_line].
  - right. split; auto.
  - destruct (c_is c nl) eqn:E.
    + apply c_is_eq in E. left. exists []. rewrite E. split; auto.
    + assert (Hc: c <> newline) by (intros ->; unfold newline, nl in E; rewrite c_is_refl in E; discriminate).
      destruct IH as [[b [Hb ->]]|[E2 Hn]].
      * left. exists (c :: b). split; [intros [K|K]; auto|]. cbn. f_equal. f_equal. f_equal.
        clear -Hb. induction b as [|x b IHb]; cbn.
        -- reflexivity.
        -- rewrite c_is_neq; [|intros ->; apply Hb; left; reflexivity]. apply IHb. intros K; apply Hb; right; auto.
      * right. split; auto. intros [K|K]; auto.
Qed.
Lemma skip_line_app : forall b s, ~ In newline b -> skip_line (b ++ newline :: s) = s.
Proof.
  induction b as [|c b IH]; intros s H; cbn [app skip_line].
  - unfold newline, nl. rewrite c_is_refl. auto.
  - rewrite c_is_neq; [|intros ->; apply H; left; reflexivity]. apply IH. intros K; apply H; right; auto.
Qed.
Lemma skip_line_end : forall b, ~ In newline b -> skip_line b = [].
Proof.
  induction b as [|c b IH]; intros H; cbn [skip_line]; auto.
  rewrite c_is_neq; [|intros ->; apply H; left; reflexivity]. apply IH. intros K; apply H; right; auto.
Qed.
Lemma skip_line_length : forall s, length (skip_line s) <= length s.
Proof. induction s as [|c s IH]; cbn [skip_line]; auto. destruct (c_is c nl); cbn; lia. Qed.

Definition starts (s : list ascii) : Prop := match s with [] => True | c :: _ => ignb c = false end.
Lemma skip_ign_spec : forall n s, length s <= n -> starts (skip_ign n s) /\
  exists i, s = i ++ skip_ign n s /\ (ign i \/ (skip_ign n s = [] /\ ign_end i)).
Proof.
  induction n as [|n IH]; intros s Hn.
  - destruct s; cbn in Hn; [|lia]. cbn. split; auto. exists []. split; auto. left. constructor.
  - destruct s as [|c s]; cbn [skip_ign]. { cbn. split; auto. exists []. split; auto. left. constructor. }
    cbn in Hn. destruct (is_space c) eqn:E1; [|destruct (c_is c "#") eqn:E2].
    + destruct (IH s) as [I1 [i [I2 I3]]]; [lia|]. split; auto. exists (c :: i). cbn. split; [f_equal; auto|].
      apply is_space_spec in E1. destruct I3 as [I3|[I3 I4]]; [left; constructor; auto|]. right. split; auto.
      inversion I4; subst; [apply ie_ign; constructor; auto|]. apply (ie_comment (c :: s0)); auto. constructor; auto.
    + apply c_is_eq in E2. subst c. destruct (IH (skip_line s)) as [I1 [i [I2 I3]]]; [pose proof (skip_line_length s); lia|]. split; auto.
      destruct (skip_line_spec s) as [[b [Hb Es]]|[Es Hb]].
      * exists ("#"%char :: b ++ newline :: i). split; [cbn; f_equal; rewrite Es at 1; rewrite <- app_assoc; cbn; f_equal; f_equal; auto|].
        destruct I3 as [I3|[I3 I4]]; [left; apply ign_comment; auto|]. right. split; auto.
        inversion I4; subst; [apply ie_ign; apply ign_comment; auto|].
        replace ("#"%char :: b ++ newline :: s0 ++ "#"%char :: b0) with (("#"%char :: b ++ newline :: s0) ++ "#"%char :: b0) by (cbn; rewrite <- app_assoc; auto).
        apply ie_comment; auto. apply ign_comment; auto.
      * assert (EN: skip_ign n (skip_line s) = []) by (rewrite Es; destruct n; auto). exists ("#"%char :: s). rewrite EN. split; [rewrite app_nil_r; auto|].
        right. split; auto. apply (ie_comment []); auto. constructor.
    + split; [cbn; unfold ignb; rewrite E1, E2; auto|]. exists []. split; auto. left; constructor.
Qed.
Lemma skip_spec : forall s, starts (skip s) /\ exists i, s = i ++ skip s /\ (ign i \/ (skip s = [] /\ ign_end i)).
Proof. intros s. apply skip_ign_spec. auto. Qed.
Lemma skip_ne : forall s c s', skip s = c :: s' -> ignb c = false /\ exists i, ign i /\ s = i ++ c :: s'.
Proof.
  intros s c s' E. destruct (skip_spec s) as [H1 [i [H2 H3]]]. rewrite E in *. split; auto. exists i. split; auto. destruct H3 as [H3|[H3 _]]; [auto|discriminate].
Qed.
Lemma skip_nil : forall s, skip s = [] -> ign_end s.
Proof. intros s E. destruct (skip_spec s) as [_ [i [H2 H3]]]. rewrite E, app_nil_r in H2. subst. destruct H3 as [H3|[_ H3]]; auto. apply ie_ign; auto. Qed.

Lemma skip_ign_app : forall i, ign i -> forall s n, starts s -> length (i ++ s) <= n -> skip_ign n (i ++ s) = s.
Proof.
  intros i H. induction H as [|c i Hc H IH|b i Hb H IH]; intros s n Hs Hn.
  - cbn. destruct n, s as [|c s]; cbn [skip_ign]; auto. cbn in Hs. unfold ignb in Hs. apply orb_false_iff in Hs. destruct Hs as [-> ->]. auto.
  - destruct n; cbn in Hn; [lia|]. cbn [app skip_ign]. apply is_space_spec in Hc. rewrite Hc. apply IH; auto; lia.
  - destruct n; cbn in Hn; [lia|]. cbn [app skip_ign]. assert (is_space "#" = false) by reflexivity. rewrite H0, c_is_refl. rewrite <- app_assoc. cbn [app].
    rewrite skip_line_app; auto. apply IH; auto. repeat (rewrite app_length in Hn; cbn in Hn). rewrite app_length. lia.
Qed.
Lemma skip_app : forall i s, ign i -> starts s -> skip (i ++ s) = s.
Proof. intros. unfold skip. apply skip_ign_app; auto. Qed.
Lemma skip_start : forall s, starts s -> skip s = s.
Proof. intros s H. apply (skip_app [] s); auto. constructor. Qed.
Lemma ign_app : forall a, ign a -> forall b, ign b -> ign (a ++ b).
Proof. intros a H. induction H; intros; cbn; auto; [constructor; auto|]. rewrite <- app_assoc. cbn. apply ign_comment; auto. Qed.
Lemma skip_end : forall s, ign_end s -> skip s = [].
Proof.
  intros s H. inversion H as [i Hi|i b Hi Hb]; subst.
  - rewrite <- (app_nil_r s). apply skip_app; auto. exact Logic.I.
  - unfold skip. assert (G: forall n, length (i ++ "#"%char :: b) <= n -> skip_ign n (i ++ "#"%char :: b) = []).
    { clear H. induction Hi as [|c i Hc Hi IH|b' i Hb' Hi IH]; intros n Hn.
      - destruct n; cbn in Hn; [lia|]. cbn [app skip_ign]. assert (E: is_space "#" = false) by reflexivity. rewrite E, c_is_refl, skip_line_end; auto. destruct n; auto.
      - destruct n; cbn in Hn; [lia|]. cbn [app skip_ign]. apply is_space_spec in Hc. rewrite Hc. apply IH; lia.
      - destruct n; cbn in Hn; [lia|]. cbn [app skip_ign]. assert (E: is_space "#" = false) by reflexivity. rewrite E, c_is_refl. rewrite <- app_assoc. cbn [app].
        rewrite skip_line_app; auto. apply IH. repeat (rewrite app_length in Hn; cbn in Hn). rewrite app_length. cbn. lia. }
    apply G. auto.
Qed.

(** ** Effects of the actions on the builder *)
Lemma ofold_app : forall S A (f : S -> A -> option S) l1 l2 s, ofold f (l1 ++ l2) s = (s' <- ofold f l1 s ;; ofold f l2 s').
Proof. intros S A f l1. induction l1 as [|a l1 IH]; intros; cbn; auto. destruct (f s a); cbn; auto. Qed.

Definition top_not (o : op_tag) (ops : list op_tag) : Prop := match ops with [] => True | o' :: _ => o' <> o end.

Section Parser.
  Variable lf : list ascii -> nat.
  Notation go := (ofold (do_act lf)).

  (** The labels named by a sequence of calls, in order. *)
  Fixpoint alabs (acts : list act) : list (list ascii) :=
    match acts with [] => [] | ALabel s :: a => s :: alabs a | _ :: a => alabs a end.
  Lemma alabs_app : forall a b, alabs (a ++ b) = alabs a ++ alabs b.
  Proof. induction a as [|[] a IH]; intros b; cbn; auto. rewrite IH. auto. Qed.
  Definition labs (acts : list act) : list nat := map lf (alabs acts).
  Lemma labs_app : forall a b, labs (a ++ b) = labs a ++ labs b.
  Proof. intros. unfold labs. rewrite alabs_app, map_app. auto. Qed.

  Definition val_eff (acts : list act) (r : regex) : Prop := labs acts = rlabels r /\
    forall ns ops, go acts (mk_bst false [] ns ops) = Some (mk_bst false [] (nfa_of r :: ns) ops).
  Definition un_eff (acts : list act) (r : regex) : Prop := labs acts = rlabels r /\
    forall ns ops, go acts (mk_bst false [] ns ops) = Some (mk_bst false [] (nfa_of r :: ns) (TConcat :: ops)).
  Definition seq_eff (acts : list act) (r : regex) : Prop := labs acts = rlabels r /\
    forall ns ops, top_not TConcat ops -> go acts (mk_bst false [] ns ops) = Some (mk_bst false [] (nfa_of r :: ns) ops).
  Definition exp_eff (acts : list act) (r : regex) : Prop := labs acts = rlabels r /\
    forall ns ops, top_not TConcat ops -> top_not TOr ops -> go acts (mk_bst false [] ns ops) = Some (mk_bst false [] (nfa_of r :: ns) ops).

  (** Right-nested expressions. *)
  Fixpoint nest (op : regex -> regex -> regex) (r : regex) (rs : list regex) : regex :=
    match rs with [] => r | r' :: rs' => op r (nest op r' rs') end.

  Lemma nest_labels : forall op, (forall a b, rlabels (op a b) = rlabels a ++ rlabels b) -> forall rs r, rlabels (nest op r rs) = rlabels r ++ concat (map rlabels rs).
  Proof. intros op H. induction rs as [|r' rs IH]; intros r; cbn; [rewrite app_nil_r; auto|]. rewrite H, IH. auto. Qed.

  Lemma reduce_nest : forall tag op nop, (tag = TConcat /\ nop = nfa_concat \/ tag = TOr /\ nop = nfa_or) -> (forall a b, nfa_of (op a b) = nop (nfa_of a) (nfa_of b)) ->
    forall rs r ns ops n, length rs <= n -> top_not tag ops ->
    reduce_loop tag n (mk_bst false [] (rev (map nfa_of (r :: rs)) ++ ns) (repeat tag (length rs) ++ ops)) =
    Some (mk_bst false [] (nfa_of (nest op r rs) :: ns) ops).
  Proof.
    intros tag op nop Htag Hop.
    assert (G: forall l t ns ops n, length l <= n -> top_not tag ops ->
      reduce_loop tag n (mk_bst false [] (t :: l ++ ns) (repeat tag (length l) ++ ops)) = Some (mk_bst false [] (fold_left (fun t x => nop x t) l t :: ns) ops)).
    { induction l as [|x l IH]; intros t ns ops n Hn Ht; cbn [length repeat app fold_left] in *.
      - destruct n; cbn [reduce_loop b_ops]; destruct ops as [|o ops]; auto; cbn in Ht; destruct (tag_eqb o tag) eqn:E; auto; destruct o, tag; try discriminate; congruence.
      - destruct n; [lia|]. cbn [reduce_loop b_ops]. assert (E: tag_eqb tag tag = true) by (destruct tag; auto). rewrite E.
        assert (E2: pop_op tag (mk_bst false [] (t :: x :: l ++ ns) (tag :: repeat tag (length l) ++ ops)) = Some (mk_bst false [] (nop x t :: l ++ ns) (repeat tag (length l) ++ ops))).
        { unfold pop_op. cbn [b_ops b_nfas b_neg b_set]. rewrite E. destruct Htag as [[-> ->]|[-> ->]]; auto. }
        rewrite E2. cbn [obind]. apply IH; auto; lia. }
    assert (N: forall xs last r rs, r :: rs = xs ++ [last] -> fold_left (fun t x => nop x t) (rev (map nfa_of xs)) (nfa_of last) = nfa_of (nest op r rs)).
    { induction xs as [|x xs IH]; intros last r rs E; cbn in E.
      - injection E as -> ->. auto.
      - injection E as -> E. destruct rs as [|r' rs]; [destruct xs; discriminate|]. cbn [nest map rev]. rewrite fold_left_app. cbn [fold_left]. rewrite (IH last r' rs E). auto. }
    intros rs r ns ops n Hn Ht. destruct (exists_last (l := r :: rs)) as [xs [last E]]; [discriminate|].
    rewrite E. rewrite map_app, rev_app_distr. cbn [map rev app]. rewrite <- (N xs last r rs E).
    assert (L: length rs = length (rev (map nfa_of xs))). { rewrite rev_length, map_length. apply (f_equal (@length _)) in E. rewrite app_length in E. cbn in E. lia. }
    rewrite L. apply G; auto. lia.
  Qed.

  (** ** Labels and label sets *)
  Lemma take_drop_ident : forall s, s = take_while is_ident s ++ drop_while is_ident s /\ Forall ident_char (take_while is_ident s).
  Proof.
    induction s as [|c s [IH1 IH2]]; cbn [take_while drop_while]; auto. destruct (is_ident c) eqn:E; cbn; auto. split; [f_equal; auto|].
    constructor; auto. apply is_ident_spec; auto.
  Qed.
  Lemma p_label_sound : forall s rest acts, p_label s = OOk rest acts -> exists l, s = l ++ rest /\ is_label l /\ acts = [ALabel l].
  Proof.
    intros s rest acts H. unfold p_label in H. destruct (take_drop_ident s) as [H1 H2]. destruct (take_while is_ident s) as [|c l] eqn:E; [discriminate|].
    injection H as <- <-. exists (c :: l). ands; auto. split; auto. discriminate.
  Qed.
  Lemma p_label_no_fail : forall s, must (p_label s) = OErr \/ exists rest acts, p_label s = OOk rest acts.
  Proof. intros s. unfold p_label. destruct (take_while is_ident s); cbn; eauto. Qed.
  Lemma p_label_complete : forall l rest, is_label l -> match rest with [] => True | c :: _ => is_ident c = false end -> p_label (l ++ rest) = OOk rest [ALabel l].
  Proof.
    intros l rest [Hn Hf] Hr. assert (T: take_while is_ident (l ++ rest) = l /\ drop_while is_ident (l ++ rest) = rest).
    { clear Hn. induction Hf as [|c l Hc Hf IH]; cbn.
      - destruct rest as [|c rest]; cbn; auto. rewrite Hr. auto.
      - apply is_ident_spec in Hc. rewrite Hc. destruct IH as [-> ->]. auto. }
    unfold p_label. destruct T as [-> ->]. destruct l; [congruence|auto].
  Qed.
  Definition lab_eff (acts : list act) (ls : list nat) : Prop := labs acts = ls /\
    forall neg l0 ns ops, go acts (mk_bst neg l0 ns ops) = Some (mk_bst neg (l0 ++ ls) ns ops).
  Lemma lab_eff_one : forall l, lab_eff [ALabel l] [lf l].
  Proof. intros l. split; [reflexivity|]. intros neg l0 ns ops. reflexivity. Qed.
  Lemma lab_eff_app : forall a1 l1 a2 l2, lab_eff a1 l1 -> lab_eff a2 l2 -> lab_eff (a1 ++ a2) (l1 ++ l2).
  Proof.
    intros a1 l1 a2 l2 [L1 H1] [L2 H2]. split; [rewrite labs_app, L1, L2; auto|]. intros neg l0 ns ops. rewrite ofold_app, H1. cbn. rewrite H2, app_assoc. auto.
  Qed.

  (** The part of a label list after its first label. *)
  Inductive gltail : list nat -> list ascii -> Prop :=
  | glt_nil : gltail [] []
  | glt_cons : forall i1 i2 s ls t, ign i1 -> ign i2 -> is_label s -> gltail ls t -> gltail (lf s :: ls) (i1 ++ ","%char :: i2 ++ s ++ t).
  Lemma glabels_list : forall ls s, glabels lf ls s <-> exists l ls' t, ls = lf l :: ls' /\ s = l ++ t /\ is_label l /\ gltail ls' t.
  Proof.
    intros ls s. split.
    - intros H. induction H as [s Hs|s i1 i2 ls s' Hs Hi1 Hi2 H IH].
      + exists s, [], []. rewrite app_nil_r. ands; auto. constructor.
      + destruct IH as [l [ls' [t [-> [-> [Hl Ht]]]]]]. exists s, (lf l :: ls'), (i1 ++ ","%char :: i2 ++ l ++ t). ands; auto. constructor; auto.
    - intros [l [ls' [t [-> [-> [Hl Ht]]]]]]. revert l Hl. induction Ht; intros l Hl; [rewrite app_nil_r; constructor; auto|]. constructor; auto.
  Qed.
  Lemma p_labels_rest_sound : forall n s acts rest acts', p_labels_rest n s acts = OOk rest acts' ->
    exists ls t a', s = t ++ rest /\ gltail ls t /\ acts' = acts ++ a' /\ lab_eff a' ls.
  Proof.
    assert (B: forall s acts, exists ls t a', s = t ++ s /\ gltail ls t /\ acts = acts ++ a' /\ lab_eff a' ls).
    { intros s acts. exists [], [], []. ands; auto; [constructor|rewrite app_nil_r; auto|]. split; [reflexivity|]. intros neg l0 ns ops. cbn. rewrite app_nil_r. auto. }
    induction n as [|n IH]; intros s acts rest acts' H; cbn [p_labels_rest] in H.
    - injection H as <- <-. apply B.
    - destruct (skip s) as [|c s1] eqn:E; [injection H as <- <-; apply B|]. destruct (c_is c ",") eqn:Ec; [|injection H as <- <-; apply B].
      apply c_is_eq in Ec. subst c. destruct (p_label_no_fail (skip s1)) as [E1|[s2 [a2 E1]]]; [rewrite E1 in H; discriminate|]. rewrite E1 in H. cbn [must] in H.
      apply IH in H. destruct H as [ls [t [a' [-> [Ht [-> He]]]]]]. apply p_label_sound in E1. destruct E1 as [l [E1 [Hl ->]]].
      apply skip_ne in E. destruct E as [_ [i1 [Hi1 ->]]]. destruct l as [|c l]; [destruct Hl; congruence|]. cbn [app] in E1. apply skip_ne in E1. destruct E1 as [_ [i2 [Hi2 ->]]].
      exists (lf (c :: l) :: ls), (i1 ++ ","%char :: i2 ++ (c :: l) ++ t), ([ALabel (c :: l)] ++ a'). ands.
      + repeat (cbn; rewrite <- app_assoc). auto.
      + constructor; auto.
      + rewrite <- app_assoc. auto.
      + apply (lab_eff_app [ALabel (c :: l)] [lf (c :: l)]); auto. apply lab_eff_one.
  Qed.
  Lemma label_starts : forall l t, is_label l -> starts (l ++ t).
  Proof.
    intros [|c l] t [H1 H2]; [congruence|]. cbn. inversion H2 as [|c' l' Hc Hl]; subst. unfold ignb. apply is_ident_spec in Hc.
    destruct (is_space c) eqn:E1; [|destruct (c_is c "#") eqn:E2; auto; apply c_is_eq in E2; subst; discriminate].
    exfalso. unfold is_space, is_ident in *. apply orb_true_iff in E1. rewrite andb_true_iff, Nat.eqb_eq, !Nat.leb_le in E1.
    rewrite !orb_true_iff, !andb_true_iff, Nat.eqb_eq, !Nat.leb_le in Hc. lia.
  Qed.
  Lemma ign_not_ident : forall i c t, ign i -> is_ident c = false -> match i ++ c :: t with [] => True | x :: _ => is_ident x = false end.
  Proof.
    intros i c t H Hc. destruct H as [|x s Hx H|b s Hb H]; cbn; auto.
    apply is_space_spec in Hx. destruct (is_ident x) eqn:E; auto. exfalso. unfold is_space, is_ident in *. apply orb_true_iff in Hx. rewrite andb_true_iff, Nat.eqb_eq, !Nat.leb_le in Hx.
    rewrite !orb_true_iff, !andb_true_iff, Nat.eqb_eq, !Nat.leb_le in E. lia.
  Qed.
  Lemma gltail_follow : forall ls t rest, gltail ls t -> match t ++ "]"%char :: rest with [] => True | x :: _ => is_ident x = false end.
  Proof.
    intros ls t rest H. destruct H; cbn; auto. rewrite <- app_assoc. cbn [app]. apply ign_not_ident; auto.
  Qed.
  Lemma p_labels_rest_complete : forall ls t, gltail ls t -> forall n rest acts, length ls <= n ->
    exists a', p_labels_rest n (t ++ "]"%char :: rest) acts = OOk ("]"%char :: rest) (acts ++ a') /\ lab_eff a' ls.
  Proof.
    intros ls t H. induction H as [|i1 i2 s ls t Hi1 Hi2 Hs Ht IH]; intros n rest acts Hn.
    - exists []. rewrite app_nil_r. split; [|split; [reflexivity|]; intros neg l0 ns ops; cbn; rewrite app_nil_r; auto]. destruct n; auto.
    - destruct n; [cbn in Hn; lia|]. cbn [p_labels_rest]. rewrite <- app_assoc. cbn [app]. rewrite skip_app; auto; [|reflexivity]. rewrite c_is_refl.
      rewrite <- app_assoc. rewrite skip_app; auto; [|rewrite <- app_assoc; apply label_starts; auto]. rewrite <- app_assoc. rewrite p_label_complete; auto; [|eapply gltail_follow; eauto]. cbn [must].
      cbn in Hn. destruct (IH n rest (acts ++ [ALabel s])) as [a' [E He]]; [lia|]. exists ([ALabel s] ++ a'). rewrite E, <- app_assoc. split; auto.
      apply (lab_eff_app [ALabel s] [lf s]); auto. apply lab_eff_one.
  Qed.
  Lemma gltail_length : forall ls t, gltail ls t -> length ls <= length t.
  Proof. intros ls t H. induction H; cbn; auto. rewrite app_length. cbn. rewrite !app_length. lia. Qed.

  Lemma p_set_sound : forall s rest acts, p_set s = OOk rest acts -> exists r t, s = t ++ rest /\ gvalue lf r ("["%char :: t) /\ val_eff acts r.
  Proof.
    assert (G: forall (neg : bool) s0 a0 rest acts, a0 = (if neg then [ANegation] else []) ->
      match must (p_label s0) with
      | OOk s1 a1 => match p_labels_rest (length s1) s1 (a0 ++ a1) with OOk (c :: s2) a2 => if c_is c "]" then OOk s2 (a2 ++ [ALabelSet]) else OErr | _ => OErr end
      | _ => OErr end = OOk rest acts ->
      exists ls t, s0 = t ++ "]"%char :: rest /\ glabels lf ls t /\ val_eff acts (RSet neg ls)).
    { intros neg s0 a0 rest acts Ha H. destruct (p_label_no_fail s0) as [E|[s1 [a1 E]]]; [rewrite E in H; discriminate|]. rewrite E in H. cbn [must] in H.
      apply p_label_sound in E. destruct E as [l [-> [Hl ->]]].
      destruct (p_labels_rest (length s1) s1 (a0 ++ [ALabel l])) as [[|c s2] a2|a2|] eqn:E2; try discriminate. destruct (c_is c "]") eqn:Ec; [|discriminate].
      apply c_is_eq in Ec. subst c. injection H as <- <-. apply p_labels_rest_sound in E2. destruct E2 as [ls [t [a' [-> [Ht [-> He]]]]]].
      exists (lf l :: ls), (l ++ t). ands; [rewrite app_assoc; auto| |].
      - apply glabels_list. exists l, ls, t. auto.
      - destruct He as [HL He]. split.
        { subst a0. rewrite !labs_app, HL. destruct neg; cbn; rewrite app_nil_r; auto. }
        intros ns ops. rewrite <- !app_assoc. subst a0. rewrite ofold_app.
        assert (E0: go (if neg then [ANegation] else []) (mk_bst false [] ns ops) = Some (mk_bst neg [] ns ops)) by (destruct neg; auto). rewrite E0. cbn [obind].
        rewrite ofold_app. rewrite (proj2 (lab_eff_one l)). cbn [obind]. rewrite ofold_app, He. cbn. auto. }
    intros s rest acts H. unfold p_set in H. destruct s as [|c s1]; [discriminate|]. destruct (c_is c "^") eqn:Ec.
    - apply c_is_eq in Ec. subst c. apply (G true) in H; auto. destruct H as [ls [t [-> [Hl He]]]]. exists (RSet true ls), ("^"%char :: t ++ ["]"%char]). ands; auto.
      + cbn. rewrite <- app_assoc. auto.
      + apply (gv_neg lf ls t). auto.
    - apply (G false) in H; auto. destruct H as [ls [t [-> [Hl He]]]]. exists (RSet false ls), (t ++ ["]"%char]). ands; auto.
      + rewrite <- app_assoc. auto.
      + apply gv_set; auto.
  Qed.
  Lemma p_set_complete : forall (neg : bool) ls t rest, glabels lf ls t ->
    exists acts, p_set ((if neg then ["^"%char] else []) ++ t ++ "]"%char :: rest) = OOk rest acts /\ val_eff acts (RSet neg ls).
  Proof.
    intros neg ls t rest H. apply glabels_list in H. destruct H as [l [ls' [t' [-> [-> [Hl Ht]]]]]].
    destruct (p_labels_rest_complete ls' t' Ht (length (t' ++ "]"%char :: rest)) rest ((if neg then [ANegation] else []) ++ [ALabel l])) as [a' [E He]].
    { rewrite app_length. apply gltail_length in Ht. lia. }
    exists ((((if neg then [ANegation] else []) ++ [ALabel l]) ++ a') ++ [ALabelSet]). split.
    - unfold p_set. rewrite <- app_assoc. assert (EL: p_label (l ++ t' ++ "]"%char :: rest) = OOk (t' ++ "]"%char :: rest) [ALabel l]) by (apply p_label_complete; auto; eapply gltail_follow; eauto).
      destruct neg; cbn [app].
      + rewrite c_is_refl, EL. cbn [must app] in *. rewrite E, c_is_refl. auto.
      + destruct l as [|c l]; [destruct Hl; congruence|]. assert (c_is c "^" = false).
        { apply c_is_neq. intros ->. destruct Hl as [_ Hl]. inversion Hl as [|x y Hx Hy]; subst. apply is_ident_spec in Hx. discriminate. }
        cbn [app] in *. rewrite H, EL. cbn [must app]. rewrite E, c_is_refl. auto.
    - destruct He as [HL He]. split.
      { rewrite !labs_app, HL. destruct neg; cbn; rewrite app_nil_r; auto. }
      intros ns ops. rewrite <- !app_assoc. rewrite ofold_app.
      assert (E0: go (if neg then [ANegation] else []) (mk_bst false [] ns ops) = Some (mk_bst neg [] ns ops)) by (destruct neg; auto). rewrite E0. cbn [obind].
      rewrite ofold_app. rewrite (proj2 (lab_eff_one l)). cbn [obind]. rewrite ofold_app, He. cbn. auto.
  Qed.

  (** ** Soundness *)
  Definition sound_for (expr : list ascii -> out) : Prop := forall s rest acts, expr s = OOk rest acts ->
    (exists s', skip rest = "|"%char :: s') \/ exists r t, s = t ++ rest /\ gexpr lf r t /\ exp_eff acts r.
  Definition value_start (s : list ascii) : bool := match s with [] => false | c :: _ => c_is c "." || c_is c "(" || c_is c "[" end.

  Lemma p_set_no_fail : forall s a, p_set s <> OFail a.
  Proof.
    intros s a. unfold p_set. destruct (must _); try discriminate. destruct (p_labels_rest _ _ _) as [[|c s2] a2|a2|]; try discriminate. destruct (c_is c "]"); discriminate.
  Qed.
  Lemma p_value_fail : forall expr s a, p_value expr s = OFail a -> a = [] /\ value_start s = false.
  Proof.
    intros expr s a H. unfold p_value in H. destruct s as [|c s]; [injection H as <-; auto|]. cbn [value_start].
    destruct (c_is c "."); [discriminate|]. destruct (c_is c "(").
    - destruct (must _); try discriminate. destruct (skip rest); [discriminate|]. destruct (c_is _ ")"); discriminate.
    - destruct (c_is c "["); [exfalso; eapply p_set_no_fail; eauto|]. injection H as <-. auto.
  Qed.
  Lemma p_value_nostart : forall expr s, value_start s = false -> p_value expr s = OFail [].
  Proof.
    intros expr s H. destruct s as [|c s]; auto. cbn in H. apply orb_false_iff in H. destruct H as [H H3]. apply orb_false_iff in H. destruct H as [H1 H2]. cbn. rewrite H1, H2, H3. auto.
  Qed.
  Lemma close_eff : forall x ns ops, close_loop (length (TBracket :: ops)) (mk_bst false [] (x :: ns) (TBracket :: ops)) = Some (mk_bst false [] (x :: ns) ops).
  Proof. reflexivity. Qed.
  Lemma bracket_eff : forall acts r, exp_eff acts r -> val_eff (AOpen :: acts ++ [AClose]) r.
  Proof.
    intros acts r [HL H]. split; [change (labs (acts ++ [AClose]) = rlabels r); rewrite labs_app, HL; apply app_nil_r|]. intros ns ops. transitivity (go (acts ++ [AClose]) (mk_bst false [] ns (TBracket :: ops))); [reflexivity|]. rewrite ofold_app, H; cbn; auto; discriminate.
  Qed.
  Lemma p_value_sound : forall expr, sound_for expr -> forall s rest acts, p_value expr s = OOk rest acts ->
    exists r t, s = t ++ rest /\ gvalue lf r t /\ val_eff acts r.
  Proof.
    intros expr Hs s rest acts H. unfold p_value in H. destruct s as [|c s]; [discriminate|].
    destruct (c_is c ".") eqn:E1.
    - apply c_is_eq in E1. subst c. injection H as <- <-. exists (RSet true []), ["."%char]. ands; auto; [constructor|]. split; [reflexivity|]. intros ns ops. reflexivity.
    - destruct (c_is c "(") eqn:E2.
      + apply c_is_eq in E2. subst c. destruct (expr (skip s)) as [s2 a2| |] eqn:E; try discriminate. cbn [must] in H.
        destruct (skip s2) as [|c s3] eqn:E3; [discriminate|]. destruct (c_is c ")") eqn:E4; [|discriminate]. apply c_is_eq in E4. subst c. injection H as <- <-.
        apply Hs in E. destruct E as [[s' E]|[r [t [E [Hg He]]]]]; [congruence|].
        apply skip_ne in E3. destruct E3 as [_ [i2 [Hi2 ->]]].
        assert (X: exists i1, ign i1 /\ s = i1 ++ t ++ i2 ++ ")"%char :: s3).
        { destruct (skip_spec s) as [_ [i1 [X1 X2]]]. rewrite E in X1, X2. exists i1. split; auto. destruct X2 as [X2|[X2 _]]; auto. destruct t; [destruct i2|]; discriminate. }
        destruct X as [i1 [Hi1 ->]]. exists r, ("("%char :: i1 ++ t ++ i2 ++ [")"%char]). ands.
        * cbn. rewrite <- !app_assoc. auto.
        * constructor; auto.
        * apply bracket_eff; auto.
      + destruct (c_is c "[") eqn:E3; [|discriminate]. apply c_is_eq in E3. subst c. apply p_set_sound in H. destruct H as [r [t [-> [Hg He]]]].
        exists r, ("["%char :: t). ands; auto.
  Qed.
  Lemma un_eff_value : forall a r, val_eff a r -> un_eff (a ++ [AUnary]) r.
  Proof. intros a r [HL H]. split; [rewrite labs_app, HL; apply app_nil_r|]. intros ns ops. rewrite ofold_app, H. reflexivity. Qed.
  Lemma un_eff_op : forall a r o f r', val_eff a r -> alabs [o] = [] -> rlabels r' = rlabels r -> (forall b, do_act lf b o = on_top f b) -> nfa_of r' = f (nfa_of r) -> un_eff (a ++ [o; AUnary]) r'.
  Proof.
    intros a r o f r' [HL H] Hl Hr Ho Hf. split.
    { change [o; AUnary] with ([o] ++ [AUnary]). rewrite !labs_app, HL, Hr. unfold labs. rewrite Hl. apply app_nil_r. }
    intros ns ops. rewrite ofold_app, H. cbn [obind ofold]. rewrite Ho, Hf. reflexivity.
  Qed.
  Lemma p_unary_sound : forall expr, sound_for expr -> forall s rest acts, p_unary expr s = OOk rest acts ->
    exists r t, s = t ++ rest /\ gunary lf r t /\ un_eff acts r.
  Proof.
    intros expr Hs s rest acts H. unfold p_unary in H. destruct (p_value expr s) as [s1 a| |] eqn:E; try discriminate.
    apply (p_value_sound _ Hs) in E. destruct E as [r [t [-> [Hg He]]]]. destruct s1 as [|c s1].
    - injection H as <- <-. exists r, t. ands; auto; [constructor; auto|]. apply un_eff_value; auto.
    - destruct (c_is c "*") eqn:E1; [|destruct (c_is c "+") eqn:E2; [|destruct (c_is c "?") eqn:E3]].
      + apply c_is_eq in E1. subst c. injection H as <- <-. exists (RStar r), (t ++ ["*"%char]). ands; [rewrite <- app_assoc; auto|apply gu_star; auto|].
        eapply un_eff_op; eauto; reflexivity.
      + apply c_is_eq in E2. subst c. injection H as <- <-. exists (RPlus r), (t ++ ["+"%char]). ands; [rewrite <- app_assoc; auto|apply gu_plus; auto|].
        eapply un_eff_op; eauto; reflexivity.
      + apply c_is_eq in E3. subst c. injection H as <- <-. exists (ROpt r), (t ++ ["?"%char]). ands; [rewrite <- app_assoc; auto|apply gu_question; auto|].
        eapply un_eff_op; eauto; reflexivity.
      + injection H as <- <-. exists r, t. ands; auto; [constructor; auto|]. apply un_eff_value; auto.
  Qed.
  Lemma p_unary_fail : forall expr s a, p_unary expr s = OFail a -> a = [] /\ value_start s = false.
  Proof.
    intros expr s a H. unfold p_unary in H. destruct (p_value expr s) as [[|c s1] a1| |] eqn:E; try discriminate.
    - destruct (c_is c "*"), (c_is c "+"), (c_is c "?"); discriminate.
    - injection H as <-. eapply p_value_fail; eauto.
  Qed.

  (** The part of a sequence after its first factor. *)
  Inductive gstail : list regex -> list ascii -> Prop :=
  | gst_nil : gstail [] []
  | gst_cons : forall i r s rs t, ign i -> gunary lf r s -> gstail rs t -> gstail (r :: rs) (i ++ s ++ t).
  Lemma gseq_list1 : forall rs t, gstail rs t -> forall r s, gunary lf r s -> gseq lf (nest RCat r rs) (s ++ t).
  Proof.
    intros rs t H. induction H as [|i r' s' rs t Hi Hu H IH]; intros r s Hr; cbn [nest].
    - rewrite app_nil_r. constructor; auto.
    - apply gs_cat; auto.
  Qed.
  Lemma gseq_list2 : forall r s, gseq lf r s -> exists r1 rs s1 t, r = nest RCat r1 rs /\ s = s1 ++ t /\ gunary lf r1 s1 /\ gstail rs t.
  Proof.
    fix G 3. intros r s H. destruct H as [r s H|r s i r' s' H Hi H2].
    - exists r, [], s, []. ands; auto; [rewrite app_nil_r; auto|constructor].
    - apply G in H2. destruct H2 as [r1 [rs [s1 [t [-> [-> [Hu Ht]]]]]]]. exists r, (r1 :: rs), s, (i ++ s1 ++ t). ands; auto. constructor; auto.
  Qed.
  Definition tail_eff (tag : op_tag) (acts : list act) (rs : list regex) : Prop := labs acts = concat (map rlabels rs) /\
    forall ns ops, (tag = TOr -> top_not TConcat ops) -> go acts (mk_bst false [] ns ops) = Some (mk_bst false [] (rev (map nfa_of rs) ++ ns) (repeat tag (length rs) ++ ops)).
  Lemma tail_eff_nil : forall tag, tail_eff tag [] [].
  Proof. intros tag. split; [reflexivity|]. intros ns ops _. reflexivity. Qed.
  Lemma repeat_snoc : forall A (x : A) n l, repeat x n ++ x :: l = x :: repeat x n ++ l.
  Proof. intros A x n l. induction n as [|n IH]; cbn; auto. rewrite IH. auto. Qed.
  Lemma tail_eff_seq : forall a r a' rs, un_eff a r -> tail_eff TConcat a' rs -> tail_eff TConcat (a ++ a') (r :: rs).
  Proof.
    intros a r a' rs [L1 H1] [L2 H2]. split; [rewrite labs_app, L1, L2; auto|]. intros ns ops Ht. rewrite ofold_app, H1. cbn [obind]. rewrite H2; [|discriminate]. cbn [map rev length repeat]. rewrite <- app_assoc. cbn [app].
    rewrite repeat_snoc. auto.
  Qed.
  Lemma tail_eff_or : forall a r a' rs, seq_eff a r -> tail_eff TOr a' rs -> tail_eff TOr (AOr :: a ++ a') (r :: rs).
  Proof.
    intros a r a' rs [L1 H1] [L2 H2]. split; [change (labs (a ++ a') = concat (map rlabels (r :: rs))); rewrite labs_app, L1, L2; auto|].
    intros ns ops Ht. transitivity (go (a ++ a') (mk_bst false [] ns (TOr :: ops))); [reflexivity|]. rewrite ofold_app, H1; [|discriminate]. cbn [obind]. rewrite H2; [|discriminate]. cbn [map rev length repeat]. rewrite <- app_assoc. cbn [app].
    rewrite repeat_snoc. auto.
  Qed.
  Lemma seq_eff_intro : forall a r a' rs, un_eff a r -> tail_eff TConcat a' rs -> seq_eff ((a ++ a') ++ [ASeq]) (nest RCat r rs).
  Proof.
    intros a r a' rs H1 H2. pose proof (tail_eff_seq _ _ _ _ H1 H2) as [HL H]. split; [rewrite labs_app, HL, (nest_labels RCat); auto; apply app_nil_r|].
    intros ns ops Ht. rewrite ofold_app. rewrite H; [|discriminate].
    cbn [obind ofold do_act b_ops length repeat app b_neg b_set b_nfas].
    rewrite (reduce_nest TConcat RCat nfa_concat); auto. rewrite app_length, repeat_length. lia.
  Qed.
  Lemma exp_eff_intro : forall a r a' rs, seq_eff a r -> tail_eff TOr a' rs -> exp_eff ((a ++ a') ++ [AExpr]) (nest RAlt r rs).
  Proof.
    intros a r a' rs [L1 H1] [L2 H2]. split; [rewrite !labs_app, L1, L2, (nest_labels RAlt); auto; apply app_nil_r|].
    intros ns ops Ht To. rewrite ofold_app, ofold_app, H1; auto. cbn [obind]. rewrite H2; auto. cbn [obind ofold do_act b_ops].
    pose proof (reduce_nest TOr RAlt nfa_or (or_intror (conj eq_refl eq_refl)) (fun a b => eq_refl) rs r ns ops (length (repeat TOr (length rs) ++ ops))) as E.
    cbn [map rev] in E. rewrite <- app_assoc in E. cbn [app] in E. rewrite E; auto. rewrite app_length, repeat_length. lia.
  Qed.

  Lemma p_seq_rest_sound : forall expr, sound_for expr -> forall n s acts rest acts', p_seq_rest expr n s acts = OOk rest acts' ->
    exists rs t a', s = t ++ rest /\ gstail rs t /\ acts' = acts ++ a' /\ tail_eff TConcat a' rs.
  Proof.
    intros expr Hs.
    assert (B: forall s acts, exists rs t a', s = t ++ s /\ gstail rs t /\ acts = acts ++ a' /\ tail_eff TConcat a' rs).
    { intros s acts. exists [], [], []. ands; auto; [constructor|rewrite app_nil_r; auto|apply tail_eff_nil]. }
    induction n as [|n IH]; intros s acts rest acts' H; cbn [p_seq_rest] in H.
    - injection H as <- <-. apply B.
    - destruct (p_unary expr (skip s)) as [s1 a1|a1|] eqn:E; [| |discriminate].
      + apply IH in H. destruct H as [rs [t [a' [-> [Ht [-> He]]]]]]. apply (p_unary_sound _ Hs) in E. destruct E as [r [u [E [Hu He1]]]].
        destruct (skip_spec s) as [_ [i [X1 X2]]]. assert (Hi: ign i).
        { destruct X2 as [X2|[X2 _]]; auto. rewrite X2 in E. destruct u; [|discriminate]. exfalso. inversion Hu as [? ? Hv| | |]; subst; [inversion Hv|destruct s0; discriminate..]. }
        exists (r :: rs), (i ++ u ++ t), (a1 ++ a'). ands.
        * rewrite X1, E. rewrite <- !app_assoc. auto.
        * constructor; auto.
        * rewrite app_assoc. auto.
        * apply tail_eff_seq; auto.
      + injection H as <- <-. apply p_unary_fail in E. destruct E as [-> _]. rewrite app_nil_r. apply B.
  Qed.
  Lemma p_seq_sound : forall expr, sound_for expr -> forall s rest acts, p_seq expr s = OOk rest acts ->
    exists r t, s = t ++ rest /\ gseq lf r t /\ seq_eff acts r.
  Proof.
    intros expr Hs s rest acts H. unfold p_seq in H. destruct (p_unary expr s) as [s1 a1| |] eqn:E; try discriminate.
    destruct (p_seq_rest expr (length s1) s1 a1) as [s2 a2| |] eqn:E2; try discriminate. injection H as <- <-.
    apply (p_seq_rest_sound _ Hs) in E2. destruct E2 as [rs [t [a' [-> [Ht [-> He]]]]]]. apply (p_unary_sound _ Hs) in E. destruct E as [r [u [-> [Hu He1]]]].
    exists (nest RCat r rs), (u ++ t). ands; [rewrite app_assoc; auto|apply gseq_list1; auto|]. apply seq_eff_intro; auto.
  Qed.
  Lemma p_seq_rest_no_fail : forall expr n s acts a, p_seq_rest expr n s acts <> OFail a.
  Proof. intros expr n. induction n as [|n IH]; intros s acts a; cbn; try discriminate. destruct (p_unary expr (skip s)); try discriminate. apply IH. Qed.
  Lemma p_seq_fail : forall expr s a, p_seq expr s = OFail a -> a = [] /\ value_start s = false.
  Proof.
    intros expr s a H. unfold p_seq in H. destruct (p_unary expr s) as [s1 a1| |] eqn:E; try discriminate.
    - destruct (p_seq_rest expr (length s1) s1 a1) eqn:E2; try discriminate. exfalso. eapply p_seq_rest_no_fail; eauto.
    - injection H as <-. eapply p_unary_fail; eauto.
  Qed.

  (** The part of an alternative after its first branch. *)
  Inductive gotail : list regex -> list ascii -> Prop :=
  | got_nil : gotail [] []
  | got_cons : forall i1 i2 r s rs t, ign i1 -> ign i2 -> gseq lf r s -> gotail rs t -> gotail (r :: rs) (i1 ++ "|"%char :: i2 ++ s ++ t).
  Lemma gexpr_list1 : forall rs t, gotail rs t -> forall r s, gseq lf r s -> gexpr lf (nest RAlt r rs) (s ++ t).
  Proof.
    intros rs t H. induction H as [|i1 i2 r' s' rs t Hi1 Hi2 Hu H IH]; intros r s Hr; cbn [nest].
    - rewrite app_nil_r. constructor; auto.
    - apply ge_or; auto.
  Qed.
  Lemma gexpr_list2 : forall r s, gexpr lf r s -> exists r1 rs s1 t, r = nest RAlt r1 rs /\ s = s1 ++ t /\ gseq lf r1 s1 /\ gotail rs t.
  Proof.
    fix G 3. intros r s H. destruct H as [r s H|r s i1 i2 r' s' H Hi1 Hi2 H2].
    - exists r, [], s, []. ands; auto; [rewrite app_nil_r; auto|constructor].
    - apply G in H2. destruct H2 as [r1 [rs [s1 [t [-> [-> [Hu Ht]]]]]]]. exists r, (r1 :: rs), s, (i1 ++ "|"%char :: i2 ++ s1 ++ t). ands; auto. constructor; auto.
  Qed.
  Lemma gvalue_start : forall r s t, gvalue lf r s -> value_start (s ++ t) = true.
  Proof. intros r s t H. destruct H; cbn; reflexivity. Qed.
  Lemma gunary_start : forall r s t, gunary lf r s -> value_start (s ++ t) = true.
  Proof. intros r s t H. destruct H; try rewrite <- app_assoc; eapply gvalue_start; eauto. Qed.
  Lemma gseq_start : forall r s t, gseq lf r s -> value_start (s ++ t) = true.
  Proof. intros r s t H. destruct H; try rewrite <- app_assoc; eapply gunary_start; eauto. Qed.
  Lemma gexpr_start : forall r s t, gexpr lf r s -> value_start (s ++ t) = true.
  Proof. intros r s t H. destruct H; try rewrite <- app_assoc; eapply gseq_start; eauto. Qed.
  Lemma value_starts : forall s, value_start s = true -> starts s /\ s <> [].
  Proof.
    intros [|c s] H; cbn in H; [discriminate|]. split; [|discriminate]. cbn. apply orb_true_iff in H. destruct H as [H|H]; [apply orb_true_iff in H; destruct H as [H|H]|]; apply c_is_eq in H; subst; reflexivity.
  Qed.

  Lemma p_expr_rest_sound : forall expr, sound_for expr -> forall n s acts rest acts', p_expr_rest expr n s acts = OOk rest acts' ->
    (exists s', skip rest = "|"%char :: s') \/
    exists rs t a', s = t ++ rest /\ gotail rs t /\ acts' = acts ++ a' /\ tail_eff TOr a' rs.
  Proof.
    intros expr Hs.
    assert (B: forall s acts, exists rs t a', s = t ++ s /\ gotail rs t /\ acts = acts ++ a' /\ tail_eff TOr a' rs).
    { intros s acts. exists [], [], []. ands; auto; [constructor|rewrite app_nil_r; auto|apply tail_eff_nil]. }
    induction n as [|n IH]; intros s acts rest acts' H; cbn [p_expr_rest] in H.
    - injection H as <- <-. right. apply B.
    - destruct (skip s) as [|c s1] eqn:E; [injection H as <- <-; right; apply B|]. destruct (c_is c "|") eqn:Ec; [|injection H as <- <-; right; apply B].
      apply c_is_eq in Ec. subst c. destruct (p_seq expr (skip s1)) as [s2 a2|a2|] eqn:E2; [| |discriminate].
      + apply IH in H. destruct H as [H|[rs [t [a' [-> [Ht [-> He]]]]]]]; [left; auto|right].
        apply (p_seq_sound _ Hs) in E2. destruct E2 as [r [u [E2 [Hu He1]]]]. apply skip_ne in E. destruct E as [_ [i1 [Hi1 ->]]].
        destruct (skip_spec s1) as [_ [i [X1 X2]]]. assert (Hi: ign i).
        { destruct X2 as [X2|[X2 _]]; auto. rewrite X2 in E2. pose proof (gseq_start r u (t ++ rest) Hu) as K. rewrite <- E2 in K. discriminate. }
        exists (r :: rs), (i1 ++ "|"%char :: i ++ u ++ t), (AOr :: a2 ++ a'). ands.
        * rewrite X1, E2. rewrite <- !app_assoc. cbn. rewrite <- !app_assoc. auto.
        * constructor; auto.
        * rewrite <- app_assoc. auto.
        * apply tail_eff_or; auto.
      + injection H as <- <-. left. exists s1. auto.
  Qed.
  Lemma p_expr_sound : forall f, sound_for (p_expr f).
  Proof.
    induction f as [|f IH]; intros s rest acts H; [discriminate|]. cbn [p_expr] in H.
    destruct (p_seq (p_expr f) s) as [s1 a1| |] eqn:E; try discriminate.
    destruct (p_expr_rest (p_expr f) (length s1) s1 a1) as [s2 a2| |] eqn:E2; try discriminate. injection H as <- <-.
    apply (p_expr_rest_sound _ IH) in E2. destruct E2 as [E2|[rs [t [a' [-> [Ht [-> He]]]]]]]; [left; auto|right].
    apply (p_seq_sound _ IH) in E. destruct E as [r [u [-> [Hu He1]]]].
    exists (nest RAlt r rs), (u ++ t). ands; [rewrite app_assoc; auto|apply gexpr_list1; auto|]. apply exp_eff_intro; auto.
  Qed.
  Lemma p_expr_rest_no_fail : forall expr n s acts a, p_expr_rest expr n s acts <> OFail a.
  Proof. intros expr n. induction n as [|n IH]; intros s acts a; cbn; try discriminate. destruct (skip s); try discriminate. destruct (c_is _ _); try discriminate. destruct (p_seq expr _); try discriminate. apply IH. Qed.
  Lemma p_expr_fail : forall f s a, p_expr f s = OFail a -> a = [] /\ value_start s = false.
  Proof.
    intros [|f] s a H; [discriminate|]. cbn [p_expr] in H. destruct (p_seq (p_expr f) s) as [s1 a1| |] eqn:E; try discriminate.
    - destruct (p_expr_rest (p_expr f) (length s1) s1 a1) eqn:E2; try discriminate. exfalso. eapply p_expr_rest_no_fail; eauto.
    - injection H as <-. eapply p_seq_fail; eauto.
  Qed.

  (** ** Completeness *)
  Definition post_op (s : list ascii) : bool := match s with [] => false | c :: _ => c_is c "*" || c_is c "+" || c_is c "?" end.
  Definition fol_seq (s : list ascii) : Prop := post_op s = false /\ value_start (skip s) = false.
  Definition fol_expr (s : list ascii) : Prop := fol_seq s /\ match skip s with [] => True | c :: _ => c_is c "|" = false end.
  Definition complete_for (expr : list ascii -> out) (m : nat) : Prop := forall r t rest, gexpr lf r t -> length t < m -> fol_expr rest ->
    exists acts, expr (t ++ rest) = OOk rest acts /\ exp_eff acts r.

  Lemma ign_post_op : forall i s, ign i -> post_op s = false -> post_op (i ++ s) = false.
  Proof.
    intros i s H Hs. destruct H as [|c i Hc H|b i Hb H]; auto. cbn. apply is_space_spec in Hc.
    destruct (c_is c "*") eqn:E1; [apply c_is_eq in E1; subst; discriminate|]. destruct (c_is c "+") eqn:E2; [apply c_is_eq in E2; subst; discriminate|].
    destruct (c_is c "?") eqn:E3; [apply c_is_eq in E3; subst; discriminate|]. auto.
  Qed.
  Lemma value_post : forall s, value_start s = true -> post_op s = false.
  Proof. intros [|c s] H; cbn in H; [discriminate|]. apply orb_true_iff in H. destruct H as [H|H]; [apply orb_true_iff in H; destruct H as [H|H]|]; apply c_is_eq in H; subst; reflexivity. Qed.
  Lemma fol_close : forall i c s, ign i -> ignb c = false -> c_is c "*" || c_is c "+" || c_is c "?" = false -> c_is c "." || c_is c "(" || c_is c "[" = false -> c_is c "|" = false ->
    fol_expr (i ++ c :: s).
  Proof.
    intros i c s Hi H1 H2 H3 H4. unfold fol_expr, fol_seq. rewrite skip_app; auto. ands; auto. apply ign_post_op; auto.
  Qed.

  Lemma p_value_complete : forall expr m, complete_for expr m -> forall r t rest, gvalue lf r t -> length t <= m ->
    exists acts, p_value expr (t ++ rest) = OOk rest acts /\ val_eff acts r.
  Proof.
    intros expr m Hc r t rest H Hl. destruct H as [|ls s H|ls s H|r s i1 i2 Hi1 Hi2 H].
    - exists [AWildcard]. split; auto. split; [reflexivity|]. intros ns ops. reflexivity.
    - destruct (p_set_complete false ls s rest H) as [acts [E He]]. exists acts. split; auto. cbn. rewrite <- app_assoc. cbn in E. rewrite <- E. auto.
    - destruct (p_set_complete true ls s rest H) as [acts [E He]]. exists acts. split; auto. cbn [app]. rewrite <- app_assoc. cbn in E. rewrite <- E. auto.
    - cbn in Hl. repeat (rewrite app_length in Hl; cbn in Hl).
      destruct (Hc r s (i2 ++ ")"%char :: rest) H) as [acts [E He]]; [lia|apply fol_close; auto|].
      exists (AOpen :: acts ++ [AClose]). split; [|apply bracket_eff; auto].
      cbn [app p_value]. rewrite <- !app_assoc. cbn [app]. change (c_is "(" ".") with false. change (c_is "(" "(") with true. cbv iota.
      rewrite skip_app; auto; [|apply value_starts; eapply gexpr_start; eauto]. rewrite E. cbn [must]. rewrite skip_app; auto. cbn. auto.
  Qed.
  Lemma p_unary_complete : forall expr m, complete_for expr m -> forall r t rest, gunary lf r t -> length t <= m -> post_op rest = false ->
    exists acts, p_unary expr (t ++ rest) = OOk rest acts /\ un_eff acts r.
  Proof.
    intros expr m Hc r t rest H Hl Hp. destruct H as [r s H|r s H|r s H|r s H]; try (rewrite app_length in Hl; cbn in Hl).
    - destruct (p_value_complete _ _ Hc r s rest H Hl) as [acts [E He]]. exists (acts ++ [AUnary]). split; [|apply un_eff_value; auto]. unfold p_unary. rewrite E.
      destruct rest as [|c rest]; auto. cbn in Hp. apply orb_false_iff in Hp. destruct Hp as [Hp H3]. apply orb_false_iff in Hp. destruct Hp as [H1 H2]. rewrite H1, H2, H3. auto.
    - destruct (p_value_complete _ _ Hc r s ("*"%char :: rest) H) as [acts [E He]]; [lia|]. exists (acts ++ [AStar; AUnary]). split; [|eapply un_eff_op; eauto; reflexivity].
      unfold p_unary. rewrite <- app_assoc. cbn [app]. rewrite E. auto.
    - destruct (p_value_complete _ _ Hc r s ("+"%char :: rest) H) as [acts [E He]]; [lia|]. exists (acts ++ [APlus; AUnary]). split; [|eapply un_eff_op; eauto; reflexivity].
      unfold p_unary. rewrite <- app_assoc. cbn [app]. rewrite E. auto.
    - destruct (p_value_complete _ _ Hc r s ("?"%char :: rest) H) as [acts [E He]]; [lia|]. exists (acts ++ [AQuestion; AUnary]). split; [|eapply un_eff_op; eauto; reflexivity].
      unfold p_unary. rewrite <- app_assoc. cbn [app]. rewrite E. auto.
  Qed.
  Lemma p_unary_nostart : forall expr s, value_start s = false -> p_unary expr s = OFail [].
  Proof. intros expr s H. unfold p_unary. rewrite p_value_nostart; auto. Qed.
  Lemma gstail_post : forall rs t rest, gstail rs t -> post_op rest = false -> post_op (t ++ rest) = false.
  Proof.
    intros rs t rest H Hp. destruct H; auto. rewrite <- app_assoc. apply ign_post_op; auto. rewrite <- app_assoc. apply value_post. eapply gunary_start; eauto.
  Qed.
  Lemma p_seq_rest_complete : forall expr m, complete_for expr m -> forall rs t, gstail rs t -> forall n rest acts, length t <= m -> length rs <= n -> fol_seq rest ->
    exists a', p_seq_rest expr n (t ++ rest) acts = OOk rest (acts ++ a') /\ tail_eff TConcat a' rs.
  Proof.
    intros expr m Hc rs t H. induction H as [|i r s rs t Hi Hu Ht IH]; intros n rest acts Hm Hn Hf.
    - exists []. rewrite app_nil_r. split; [|apply tail_eff_nil]. destruct n; auto. cbn [p_seq_rest app]. rewrite p_unary_nostart; [|apply Hf]. rewrite app_nil_r. auto.
    - destruct n; [cbn in Hn; lia|]. cbn in Hn. rewrite !app_length in Hm. cbn [p_seq_rest]. rewrite <- !app_assoc.
      rewrite skip_app; auto; [|apply value_starts; eapply gunary_start; eauto].
      destruct (p_unary_complete _ _ Hc r s (t ++ rest) Hu) as [a [E He]]; [lia|eapply gstail_post; eauto; apply Hf|]. rewrite E.
      destruct (IH n rest (acts ++ a)) as [a' [E' He']]; [lia|lia|auto|]. exists (a ++ a'). rewrite E', <- app_assoc. split; auto. apply tail_eff_seq; auto.
  Qed.
  Lemma gunary_nonempty : forall r s, gunary lf r s -> 1 <= length s.
  Proof. intros r s H. apply (gunary_start r s []) in H. rewrite app_nil_r in H. destruct s; [discriminate|cbn; lia]. Qed.
  Lemma gstail_length : forall rs t, gstail rs t -> length rs <= length t.
  Proof. intros rs t H. induction H as [|i r s rs t Hi Hu Ht IH]; auto. apply gunary_nonempty in Hu. cbn. rewrite !app_length. lia. Qed.
  Lemma p_seq_complete : forall expr m, complete_for expr m -> forall r t rest, gseq lf r t -> length t <= m -> fol_seq rest ->
    exists acts, p_seq expr (t ++ rest) = OOk rest acts /\ seq_eff acts r.
  Proof.
    intros expr m Hc r t rest H Hl Hf. apply gseq_list2 in H. destruct H as [r1 [rs [s1 [t' [-> [-> [Hu Ht]]]]]]]. rewrite app_length in Hl.
    destruct (p_unary_complete _ _ Hc r1 s1 (t' ++ rest) Hu) as [a [E He]]; [lia|eapply gstail_post; eauto; apply Hf|].
    destruct (p_seq_rest_complete _ _ Hc rs t' Ht (length (t' ++ rest)) rest a) as [a' [E' He']]; [lia|apply gstail_length in Ht; rewrite app_length; lia|auto|].
    exists ((a ++ a') ++ [ASeq]). split; [|apply seq_eff_intro; auto]. unfold p_seq. rewrite <- app_assoc, E, E'. auto.
  Qed.
  Lemma gotail_fol : forall rs t rest, gotail rs t -> fol_expr rest -> fol_seq (t ++ rest).
  Proof.
    intros rs t rest H Hf. destruct H as [|i1 i2 r s rs t Hi1 Hi2 Hs Ht]; [apply Hf|]. rewrite <- app_assoc. cbn [app]. split.
    - apply ign_post_op; auto.
    - rewrite skip_app; auto. reflexivity.
  Qed.
  Lemma gotail_length : forall rs t, gotail rs t -> length rs <= length t.
  Proof. intros rs t H. induction H as [|i1 i2 r s rs t Hi1 Hi2 Hu Ht IH]; auto. cbn. rewrite app_length. cbn. rewrite !app_length. lia. Qed.
  Lemma p_expr_rest_complete : forall expr m, complete_for expr m -> forall rs t, gotail rs t -> forall n rest acts, length t <= m -> length rs <= n -> fol_expr rest ->
    exists a', p_expr_rest expr n (t ++ rest) acts = OOk rest (acts ++ a') /\ tail_eff TOr a' rs.
  Proof.
    intros expr m Hc rs t H. induction H as [|i1 i2 r s rs t Hi1 Hi2 Hu Ht IH]; intros n rest acts Hm Hn Hf.
    - exists []. rewrite app_nil_r. split; [|apply tail_eff_nil]. destruct n; auto. cbn [p_expr_rest app]. destruct Hf as [_ Hf]. destruct (skip rest) as [|c s]; auto. rewrite Hf. auto.
    - destruct n; [cbn in Hn; lia|]. cbn in Hn. repeat (rewrite app_length in Hm; cbn in Hm). cbn [p_expr_rest]. rewrite <- !app_assoc. cbn [app].
      rewrite skip_app; auto; [|reflexivity]. rewrite c_is_refl. rewrite <- !app_assoc. rewrite skip_app; auto; [|apply value_starts; eapply gseq_start; eauto].
      destruct (p_seq_complete _ _ Hc r s (t ++ rest) Hu) as [a [E He]]; [lia|eapply gotail_fol; eauto|]. rewrite E.
      destruct (IH n rest (acts ++ AOr :: a)) as [a' [E' He']]; [lia|lia|auto|]. exists (AOr :: a ++ a'). rewrite E', <- app_assoc. split; auto. apply tail_eff_or; auto.
  Qed.
  Lemma p_expr_complete : forall f, complete_for (p_expr f) f.
  Proof.
    induction f as [|f IH]; intros r t rest H Hl Hf; [lia|]. apply gexpr_list2 in H. destruct H as [r1 [rs [s1 [t' [-> [-> [Hu Ht]]]]]]]. rewrite app_length in Hl.
    destruct (p_seq_complete _ _ IH r1 s1 (t' ++ rest) Hu) as [a [E He]]; [lia|eapply gotail_fol; eauto|].
    destruct (p_expr_rest_complete _ _ IH rs t' Ht (length (t' ++ rest)) rest a) as [a' [E' He']]; [lia|apply gotail_length in Ht; rewrite app_length; lia|auto|].
    exists ((a ++ a') ++ [AExpr]). split; [|apply exp_eff_intro; auto]. cbn [p_expr]. rewrite <- app_assoc, E, E'. auto.
  Qed.

  (** ** The whole parser *)
  Lemma skip_skip : forall s, skip (skip s) = skip s.
  Proof. intros s. apply skip_start. apply skip_spec. Qed.
  Theorem parse_sound : forall s N, parse lf s = Some (PNfa N) -> exists r, gfile lf r s /\ N = nfa_of r.
  Proof.
    intros s N H. unfold parse, p_file, b_init in H. destruct (p_expr (S (length s)) (skip s)) as [s1 a1|a1|] eqn:E; [| |discriminate].
    - destruct (skip s1) as [|c s2] eqn:E1; [|discriminate]. pose proof (p_expr_sound _ _ _ _ E) as [[s' K]|[r [t [Et [Hg He]]]]]; [congruence|].
      rewrite (proj2 He [] []) in H; [|exact Logic.I..]. cbn in H. injection H as <-. exists r. split; auto.
      destruct (skip_spec s) as [_ [i [X1 X2]]]. pose proof (gexpr_start r t s1 Hg) as K. rewrite <- Et in K.
      destruct X2 as [X2|[X2 _]]; [|rewrite X2 in K; discriminate]. rewrite X1, Et. constructor; auto. apply skip_nil; auto.
    - rewrite skip_skip in H. destruct (skip s) as [|c s2] eqn:E1; [|discriminate]. apply p_expr_fail in E. destruct E as [-> _]. cbn in H. injection H as <-.
      exists REps. split; auto. constructor. apply skip_nil; auto.
  Qed.
  Lemma ign_end_post : forall s, ign_end s -> post_op s = false.
  Proof.
    intros s H. destruct H as [s H|s b H Hb].
    - rewrite <- (app_nil_r s). apply ign_post_op; auto.
    - apply ign_post_op; auto.
  Qed.
  Theorem parse_complete : forall s r, gfile lf r s -> parse lf s = Some (PNfa (nfa_of r)).
  Proof.
    intros s r H. unfold parse, p_file, b_init. destruct H as [s H|i s i' r Hi Hg Hi'].
    - rewrite (skip_end s H). cbn. auto.
    - rewrite skip_app; auto; [|apply value_starts; eapply gexpr_start; eauto].
      assert (HF: fol_expr i'). { unfold fol_expr, fol_seq. rewrite skip_end; auto. ands; auto. apply ign_end_post; auto. }
      destruct (p_expr_complete (S (length (i ++ s ++ i'))) r s i' Hg) as [acts [E He]]; auto; [rewrite !app_length; lia|].
      rewrite E, (skip_end i' Hi'). rewrite (proj2 He [] []); [|exact Logic.I..]. reflexivity.
  Qed.
  Theorem parse_total : forall s, parse lf s = Some PThrow \/ exists r, gfile lf r s /\ parse lf s = Some (PNfa (nfa_of r)).
  Proof.
    intros s. assert (K: (exists N, parse lf s = Some (PNfa N)) \/ parse lf s = Some PThrow).
    { unfold parse, p_file, b_init. destruct (p_expr (S (length s)) (skip s)) as [s1 a1|a1|] eqn:E; auto.
      - destruct (skip s1) as [|c s2] eqn:E1; auto. pose proof (p_expr_sound _ _ _ _ E) as [[s' K]|[r [t [Et [Hg He]]]]]; [congruence|].
        rewrite (proj2 He [] []); [|exact Logic.I..]. cbn. eauto.
      - destruct (skip (skip s)); auto. apply p_expr_fail in E. destruct E as [-> _]. cbn. eauto. }
    destruct K as [[N K]|K]; auto. right. destruct (parse_sound s N K) as [r [Hr ->]]. eauto.
  Qed.
End Parser.
