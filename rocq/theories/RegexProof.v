(** Regular expressions: the NFA operations used for them, and which expressions they treat correctly. *)
From Coq Require Import List Arith Lia Bool Sorted Permutation.
From Verif Require Import Base BaseFacts Spec SpecFacts RegexSpec PdaModel PdaProof AutModel NfaModel NfaProof.
Import ListNotations.

(** The NFA the parser actions build for an expression (see ParserModel for the actions themselves). *)
Fixpoint nfa_of (r : regex) : nfa :=
  match r with
  | REps => nfa_unit true
  | RSet neg ls => nfa_set neg ls
  | RCat a b => nfa_concat (nfa_of a) (nfa_of b)
  | RAlt a b => nfa_or (nfa_of a) (nfa_of b)
  | ROpt a => nfa_question (nfa_of a)
  | RPlus a => nfa_plus (nfa_of a)
  | RStar a => nfa_star (nfa_of a)
  end.

(** No word except the empty one leads back to the initial state. *)
Fixpoint noloop (r : regex) : bool :=
  match r with
  | REps | RSet _ _ | RAlt _ _ => true
  | RCat a _ => noloop a
  | ROpt a => noloop a
  | RPlus _ | RStar _ => false
  end.
(** [?] and [*] are applied only to expressions that do not begin with a repetition followed by something else. *)
Fixpoint loopok (r : regex) : bool :=
  match r with
  | RCat a _ => noloop a
  | RPlus a => loopok a
  | _ => true
  end.
Fixpoint rsafe (r : regex) : bool :=
  match r with
  | REps | RSet _ _ => true
  | RCat a b | RAlt a b => rsafe a && rsafe b
  | RPlus a => rsafe a
  | ROpt a | RStar a => rsafe a && loopok a
  end.
(** Label sets are not empty (the grammar does not allow [\[\]]). *)
Fixpoint rproper (r : regex) : Prop :=
  match r with
  | REps => True
  | RSet neg ls => neg = true \/ ls <> []
  | RCat a b | RAlt a b => rproper a /\ rproper b
  | ROpt a | RPlus a | RStar a => rproper a
  end.

Lemma sort_set_In : forall x l, In x (sort_set l) <-> In x l.
Proof. induction l as [|y l IH]; cbn; [tauto|]. rewrite vs_emplace_In, IH. split; intros [H|H]; auto. Qed.
Lemma sort_set_ssorted : forall l, ssorted (sort_set l).
Proof. induction l as [|y l IH]; cbn; [constructor|]. apply vs_emplace_ssorted; auto. Qed.

Lemma unit_wf : forall b, nfa_wf (nfa_unit b).
Proof.
  intros b. constructor.
  - intros [|[|q]] st e H He; cbn in H; try discriminate. injection H as <-. destruct He.
  - intros i [<-|[]]. cbn. lia.
  - intros q. unfold sts_acc. destruct b; cbn; split.
    + intros [<-|[]]. exists (mk_nstate [] true). auto.
    + intros [st [H1 H2]]. destruct q as [|[|q]]; cbn in H1; try discriminate. auto.
    + intros [].
    + intros [st [H1 H2]]. destruct q as [|[|q]]; cbn in H1; try discriminate. injection H1 as <-. discriminate.
Qed.
Lemma unit_edges : forall b q l q', ~ nE (nfa_unit b) q l q'.
Proof. intros b q l q' [st [e [H [He _]]]]. destruct q as [|[|q]]; cbn in H; try discriminate. injection H as <-. destruct He. Qed.
Lemma unit_lang : forall w, nfa_lang (nfa_unit true) w <-> w = [].
Proof.
  intros w. split.
  - intros [i [f [_ [H _]]]]. inversion H; auto; exfalso; eapply unit_edges; eauto.
  - intros ->. exists 0, 0. cbn. ands; auto; [constructor|]. exists (mk_nstate [] true). auto.
Qed.
Lemma unit_loops : forall w, loops (nfa_unit true) w -> w = [].
Proof. intros w [i [f [_ [_ H]]]]. inversion H; auto; exfalso; eapply unit_edges; eauto. Qed.

Lemma set_proper : forall neg ls, neg = true \/ ls <> [] ->
  nfa_set neg ls = mk_nfa [mk_nstate [mk_nedge false neg (sort_set ls) 1] false; mk_nstate [] true] [0] [1].
Proof. intros neg ls H. unfold nfa_set. destruct ls, neg; cbn; auto. destruct H; congruence. Qed.
Lemma set_wf : forall neg ls, nfa_wf (nfa_set neg ls).
Proof.
  intros neg ls. destruct (negb match ls with [] => true | _ => false end || neg) eqn:E.
  - rewrite set_proper; [|destruct ls, neg; cbn in E; auto; right; congruence]. constructor.
    + intros [|[|[|q]]] st e H He; cbn in H; try discriminate; injection H as <-; [|destruct He]. destruct He as [<-|[]]. cbn. split; [lia|apply sort_set_ssorted].
    + intros i [<-|[]]. cbn. lia.
    + intros q. unfold sts_acc. cbn. split.
      * intros [<-|[]]. exists (mk_nstate [] true). auto.
      * intros [st [H1 H2]]. destruct q as [|[|[|q]]]; cbn in H1; try discriminate; auto. injection H1 as <-. discriminate.
  - unfold nfa_set. rewrite E. constructor; cbn.
    + intros [|q] st e H; discriminate.
    + intros i [].
    + intros q. split; [intros []|]. intros [st [H _]]. destruct q; discriminate.
Qed.
Lemma set_edges : forall neg ls, neg = true \/ ls <> [] -> forall q l q', nE (nfa_set neg ls) q l q' <->
  q = 0 /\ q' = 1 /\ exists x, l = Some x /\ if neg then ~ In x ls else In x ls.
Proof.
  intros neg ls H q l q'. rewrite set_proper; auto. split.
  - intros [st [e [H1 [H2 [H3 H4]]]]]. destruct q as [|[|[|q]]]; cbn in H1; try discriminate; injection H1 as <-; [|destruct H2]. destruct H2 as [<-|[]].
    cbn in H3. ands; auto. destruct l as [x|]; [|discriminate]. exists x. split; auto. unfold sym_ok in H4. cbn in H4. destruct neg; rewrite sort_set_In in H4; auto.
  - intros [-> [-> [x [-> Hx]]]]. eexists _, _. cbn. ands; [reflexivity|left; reflexivity|auto|]. unfold sym_ok. cbn. destruct neg; rewrite sort_set_In; auto.
Qed.
Lemma set_lang : forall neg ls, neg = true \/ ls <> [] -> forall w, nfa_lang (nfa_set neg ls) w <-> exists x, w = [x] /\ if neg then ~ In x ls else In x ls.
Proof.
  intros neg ls H w. split.
  - intros [i [f [Hi [Hp Hf]]]]. assert (i = 0) by (rewrite set_proper in Hi; auto; destruct Hi as [<-|[]]; auto). subst.
    assert (f = 1). { destruct Hf as [st [H1 H2]]. rewrite set_proper in H1; auto. destruct f as [|[|[|f]]]; cbn in H1; try discriminate; auto. injection H1 as <-. discriminate. }
    subst. inversion Hp as [|q l q1 w' q2 H1 H2|q q1 w' q2 H1 H2]; subst.
    + apply set_edges in H1; auto. destruct H1 as [_ [-> [x [E Hx]]]]. injection E as <-. exists l. split; auto.
      inversion H2 as [|q l' q1' w'' q2 H3 H4|q q1' w'' q2 H3 H4]; subst; auto; apply set_edges in H3; auto; destruct H3; discriminate.
    + apply set_edges in H1; auto. destruct H1 as [_ [-> [x [E Hx]]]]. discriminate.
  - intros [x [-> Hx]]. exists 0, 1. rewrite set_proper at 1; auto. ands; [left; auto| |].
    + eapply ap_lab; [|constructor]. apply set_edges; auto. ands; auto. exists x; auto.
    + rewrite set_proper; auto. exists (mk_nstate [] true). auto.
Qed.
Lemma set_loops : forall neg ls w, loops (nfa_set neg ls) w -> w = [].
Proof.
  intros neg ls w [i [j [Hi [Hj Hp]]]]. destruct (negb match ls with [] => true | _ => false end || neg) eqn:E.
  - assert (P: neg = true \/ ls <> []) by (destruct ls, neg; cbn in E; auto; right; congruence). rewrite set_proper in Hi, Hj; auto.
    destruct Hi as [<-|[]], Hj as [<-|[]]. inversion Hp as [|q l q1 w' q2 H1 H2|q q1 w' q2 H1 H2]; subst; auto; apply set_edges in H1; auto; destruct H1 as [_ [-> [x [Ex Hx]]]]; [|discriminate].
    inversion H2 as [|q l' q1' w'' q2 H3 H4|q q1' w'' q2 H3 H4]; subst; apply set_edges in H3; auto; destruct H3; discriminate.
  - unfold nfa_set in Hi. rewrite E in Hi. destruct Hi.
Qed.

Lemma lstar_rstar : forall a (L : list nat -> Prop), (forall w, L w <-> rmatch a w) -> forall w, lstar L w <-> rmatch (RStar a) w.
Proof.
  intros a L H w. split.
  - intros K. induction K as [|w1 w2 K1 K2 IH]; [constructor|]. constructor; auto. apply H; auto.
  - intros K. remember (RStar a) as r eqn:E. induction K; try discriminate; injection E as ->; [constructor|]. constructor; auto. apply H; auto.
Qed.
Lemma rplus_split : forall a w, rmatch (RPlus a) w <-> exists w1 w2, w = w1 ++ w2 /\ rmatch a w1 /\ rmatch (RStar a) w2.
Proof.
  intros a w. split.
  - intros K. remember (RPlus a) as r eqn:E. induction K; try discriminate; injection E as ->.
    + exists w, []. rewrite app_nil_r. ands; auto. constructor.
    + destruct (IHK2 eq_refl) as [v1 [v2 [-> [H1 H2]]]]. exists w1, (v1 ++ v2). ands; auto. constructor; auto.
  - intros [w1 [w2 [-> [H1 H2]]]]. revert w1 H1. remember (RStar a) as r eqn:E. induction H2; try discriminate; injection E as ->; intros v Hv.
    + rewrite app_nil_r. constructor; auto.
    + apply rm_plus2; auto.
Qed.

Lemma init_nonempty : forall r, rproper r -> exists i, In i (n_init (nfa_of r)).
Proof.
  induction r; cbn [rproper nfa_of nfa_unit nfa_concat nfa_or nfa_question nfa_plus nfa_star n_init]; intros H; auto.
  - exists 0; left; auto.
  - rewrite set_proper; auto. exists 0; left; auto.
  - destruct H; auto.
  - eexists; left; reflexivity.
Qed.
Lemma loops_nil : forall r, rproper r -> loops (nfa_of r) [].
Proof. intros r H. destruct (init_nonempty r H) as [i Hi]. exists i, i. ands; auto. constructor. Qed.

Lemma nfa_of_wf : forall r, nfa_wf (nfa_of r).
Proof. induction r; cbn [nfa_of]; auto using unit_wf, set_wf, concat_wf, or_wf, question_wf, plus_wf. unfold nfa_star. auto using question_wf, plus_wf. Qed.

Lemma noloop_loops : forall r, noloop r = true -> forall w, loops (nfa_of r) w -> w = [].
Proof.
  induction r; cbn [noloop nfa_of]; intros H w Hw; try discriminate.
  - apply unit_loops; auto.
  - eapply set_loops; eauto.
  - apply (concat_loops _ _ (nfa_of_wf r1) (nfa_of_wf r2)) in Hw. apply IHr1; auto.
  - apply (or_loops _ _ (nfa_of_wf r1) (nfa_of_wf r2)) in Hw. auto.
  - apply (question_loops _ (nfa_of_wf r)) in Hw. apply IHr; auto.
Qed.

Lemma loopok_loops : forall r, loopok r = true -> forall w, loops (nfa_of r) w -> w = [] \/ nfa_lang (nfa_of r) w.
Proof.
  assert (NL: forall r, noloop r = true -> forall w, loops (nfa_of r) w -> w = [] \/ nfa_lang (nfa_of r) w) by (intros; left; eapply noloop_loops; eauto).
  induction r; intros HL w Hw; try (apply NL; auto; fail); cbn [nfa_of] in *.
  - right. apply (question_loops _ (nfa_of_wf r)) in Hw. apply question_lang; [apply nfa_of_wf|auto].
  - apply plus_loops in Hw; [|apply nfa_of_wf]. assert (P := plus_lang _ (nfa_of_wf r)). cbn in HL. destruct Hw as [Hw|[w1 [w2 [w3 [-> [H1 [H2 H3]]]]]]].
    + destruct (IHr HL _ Hw) as [->|H]; auto. right. apply P. exists w, []. rewrite app_nil_r. ands; auto. constructor.
    + right. apply P. exists w1, (w2 ++ w3). ands; auto. apply lstar_app; auto. destruct (IHr HL _ H3) as [->|H]; [constructor|].
      rewrite <- (app_nil_r w3). constructor; auto. constructor.
  - right. unfold nfa_star in *. assert (W := plus_wf _ (nfa_of_wf r)). apply (question_loops _ W) in Hw. apply (question_lang _ W). auto.
Qed.

Theorem nfa_of_lang : forall r, rsafe r = true -> rproper r -> forall w, nfa_lang (nfa_of r) w <-> rmatch r w.
Proof.
  induction r; cbn [rsafe rproper nfa_of]; intros HS HP w.
  - rewrite unit_lang. split; [intros ->; constructor|intros H; inversion H; auto].
  - rewrite set_lang; auto. split; [intros [x [-> Hx]]; constructor; auto|intros H; inversion H; subst; eauto].
  - apply andb_true_iff in HS. destruct HS as [S1 S2], HP as [P1 P2]. rewrite concat_lang by apply nfa_of_wf. split.
    + intros [w1 [w2 [-> [H1 H2]]]]. constructor; [apply IHr1|apply IHr2]; auto.
    + intros H. inversion H; subst. exists w1, w2. ands; auto; [apply IHr1|apply IHr2]; auto.
  - apply andb_true_iff in HS. destruct HS as [S1 S2], HP as [P1 P2]. rewrite or_lang by apply nfa_of_wf. rewrite IHr1, IHr2; auto. split.
    + intros [H|H]; [apply rm_alt1|apply rm_alt2]; auto.
    + intros H. inversion H; subst; auto.
  - apply andb_true_iff in HS. destruct HS as [S1 S2]. rewrite question_lang by apply nfa_of_wf. split.
    + intros [H|H]; [apply rm_opt1; apply IHr; auto|]. destruct (loopok_loops r S2 _ H) as [->|H']; [constructor|apply rm_opt1; apply IHr; auto].
    + intros H. inversion H; subst; [right; apply loops_nil; auto|left; apply IHr; auto].
  - rewrite plus_lang by apply nfa_of_wf. rewrite rplus_split. assert (K := lstar_rstar r _ (IHr HS HP)).
    split; intros [w1 [w2 [-> [H1 H2]]]]; exists w1, w2; ands; auto; try (apply IHr; auto); apply K; auto.
  - apply andb_true_iff in HS. destruct HS as [S1 S2]. assert (K := lstar_rstar r _ (IHr S1 HP)). assert (W := plus_wf _ (nfa_of_wf r)).
    unfold nfa_star. rewrite question_lang by auto. rewrite plus_lang by apply nfa_of_wf. rewrite <- K. split.
    + intros [[w1 [w2 [-> [H1 H2]]]]|H]; [constructor; auto|]. apply plus_loops in H; [|apply nfa_of_wf].
      assert (LL: forall v, loops (nfa_of r) v -> lstar (nfa_lang (nfa_of r)) v).
      { intros v Hv. destruct (loopok_loops r S2 _ Hv) as [->|Hv']; [constructor|]. rewrite <- (app_nil_r v). constructor; auto. constructor. }
      destruct H as [H|[w1 [w2 [w3 [-> [H1 [H2 H3]]]]]]]; auto. constructor; auto. apply lstar_app; auto.
    + intros H. inversion H as [|w1 w2 H1 H2]; subst; [right; apply (loops_nil (RPlus r)); auto|]. left. exists w1, w2. auto.
Qed.

Lemma star_sub : forall a (L : list nat -> Prop), (forall w, rmatch a w -> L w) -> forall w, rmatch (RStar a) w -> lstar L w.
Proof. intros a L H w K. remember (RStar a) as r eqn:E. induction K; try discriminate; injection E as ->; [constructor|]. constructor; auto. Qed.

(** Without the restriction nothing is lost: the NFA accepts at least the words of the expression. *)
Lemma nfa_of_complete : forall r, rproper r -> forall w, rmatch r w -> nfa_lang (nfa_of r) w.
Proof.
  induction r; cbn [rproper nfa_of]; intros HP w H.
  - inversion H; subst. apply unit_lang; auto.
  - inversion H; subst. apply set_lang; eauto.
  - inversion H; subst. destruct HP. apply concat_lang; try apply nfa_of_wf. exists w1, w2. auto.
  - destruct HP. apply or_lang; try apply nfa_of_wf. inversion H; subst; auto.
  - apply question_lang; try apply nfa_of_wf. inversion H; subst; auto. right. apply loops_nil; auto.
  - apply rplus_split in H. destruct H as [w1 [w2 [-> [H1 H2]]]]. apply plus_lang; try apply nfa_of_wf. exists w1, w2. ands; auto.
    apply (star_sub r (nfa_lang (nfa_of r))); auto.
  - unfold nfa_star. assert (W := plus_wf _ (nfa_of_wf r)). apply question_lang; auto. inversion H; subst; [right; apply (loops_nil (RPlus r)); auto|].
    left. apply plus_lang; try apply nfa_of_wf. exists w1, w2. ands; auto. apply (star_sub r (nfa_lang (nfa_of r))); auto.
Qed.
