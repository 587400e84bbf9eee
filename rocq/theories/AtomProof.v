(** The automaton of a query text: symbols of an expression, and the language of a list of atoms. *)
From Coq Require Import List Arith Lia Bool Sorted Permutation Ascii.
From Verif Require Import Base BaseFacts Spec SpecFacts RegexSpec GrammarSpec PdaModel PdaProof AutModel AutProof PreStarLang PostStarLang NfaModel NfaProof
  RegexProof ConstructProof AtomModel.
Import ListNotations.

(** ** Symbols *)
Section Syms.
  Variable Q : nat -> Prop.
  Definition e_syms (es : list nedge) : Prop := forall e x, In e es -> In x (ne_sym e) -> Q x.
  Definition s_syms (sts : list nstate) : Prop := forall st, In st sts -> e_syms (ns_edges st).
  Lemma e_syms_app : forall a b, e_syms a -> e_syms b -> e_syms (a ++ b).
  Proof. intros a b H1 H2 e x H. apply in_app_or in H. destruct H; eauto. Qed.
  Lemma s_syms_app : forall a b, s_syms a -> s_syms b -> s_syms (a ++ b).
  Proof. intros a b H1 H2 st H. apply in_app_or in H. destruct H; eauto. Qed.
  Lemma e_syms_eps : forall l, e_syms (map eps_edge l).
  Proof. intros l e x H. apply in_map_iff in H. destruct H as [i [<- _]]. cbn. tauto. Qed.
  Lemma s_syms_upd : forall sts i s, s_syms sts -> e_syms (ns_edges s) -> s_syms (upd sts i s).
  Proof.
    intros sts. induction sts as [|a sts IH]; intros i s H Hs st Hi; destruct i; cbn in Hi; try tauto; destruct Hi as [<-|Hi]; auto.
    - apply H; right; auto.
    - apply H; left; auto.
    - apply (IH i s); auto. intros t Ht. apply H; right; auto.
  Qed.
  Lemma s_syms_mod : forall sts i f, s_syms sts -> (forall s, e_syms (ns_edges s) -> e_syms (ns_edges (f s))) -> s_syms (st_mod sts i f).
  Proof.
    intros sts i f H Hf. unfold st_mod. destruct (nth_error sts i) as [s|] eqn:E; auto. apply s_syms_upd; auto. apply Hf. apply H. eapply nth_error_In; eauto.
  Qed.
  Lemma s_syms_fold : forall X (f : list nstate -> X -> list nstate) l sts, s_syms sts -> (forall s x, s_syms s -> s_syms (f s x)) -> s_syms (fold_left f l sts).
  Proof. intros X f l. induction l as [|x l IH]; intros sts H Hf; cbn; auto. Qed.
  Lemma s_syms_shift : forall k sts, s_syms sts -> s_syms (map (shift_state k) sts).
  Proof.
    intros k sts H st Hi e x He Hx. apply in_map_iff in Hi. destruct Hi as [s [<- Hs]]. cbn in He. apply in_map_iff in He. destruct He as [e0 [<- He]]. cbn in Hx. eapply H; eauto.
  Qed.
  Lemma question_syms : forall N, s_syms (n_states N) -> s_syms (n_states (nfa_question N)).
  Proof.
    intros N H. unfold nfa_question. cbn [n_states]. generalize (n_accs N) as acc. generalize (n_states N) H. induction (n_init N) as [|i l IH]; intros sts Hs acc; cbn [fold_left]; auto.
    cbn [fst snd]. destruct (nth_error sts i) as [st|] eqn:E; [|apply IH; auto]. destruct (ns_acc st); [apply IH; auto|]. apply IH. apply s_syms_upd; auto. cbn. apply Hs. eapply nth_error_In; eauto.
  Qed.
  Lemma plus_syms : forall N, s_syms (n_states N) -> s_syms (n_states (nfa_plus N)).
  Proof.
    intros N H. unfold nfa_plus. cbn [n_states]. apply s_syms_fold; auto. intros sts i Hs. apply s_syms_fold; auto. intros sts' si Hs'. apply s_syms_mod; auto.
    intros s Hes. unfold plus_edge. cbn [ns_edges]. destruct (existsb _ _).
    - intros e x He Hx. apply in_map_iff in He. destruct He as [e0 [<- He]]. apply (Hes e0); auto. destruct (ne_dst e0 =? si); auto.
    - apply e_syms_app; auto. intros e x [<-|[]]. cbn. tauto.
  Qed.
  Lemma nfa_of_s_syms : forall r, (forall x, In x (rlabels r) -> Q x) -> s_syms (n_states (nfa_of r)).
  Proof.
    induction r; cbn [rlabels nfa_of]; intros H.
    - intros st [<-|[]] e x [].
    - unfold nfa_set. destruct (_ || _); intros st Hi; [|destruct Hi]. destruct Hi as [<-|[<-|[]]]; intros e x He Hx; [|destruct He]. destruct He as [<-|[]]. cbn in Hx. apply H. apply sort_set_In; auto.
    - unfold nfa_concat. cbn [n_states]. apply s_syms_fold.
      + apply s_syms_app; [apply IHr1; intros; apply H, in_or_app; auto|]. apply s_syms_shift. apply IHr2; intros; apply H, in_or_app; auto.
      + intros sts i Hs. apply s_syms_mod; auto. intros s Hes. cbn. apply e_syms_app; auto. apply e_syms_eps.
    - unfold nfa_or. cbn [n_states]. apply s_syms_app; [apply IHr1; intros; apply H, in_or_app; auto|]. apply s_syms_app.
      + apply s_syms_shift. apply IHr2; intros; apply H, in_or_app; auto.
      + intros st [<-|[]]. cbn. apply e_syms_app; apply e_syms_eps.
    - apply question_syms; auto.
    - apply plus_syms; auto.
    - apply question_syms. apply plus_syms; auto.
  Qed.
End Syms.

Lemma nfa_of_syms_lt : forall r k, (forall x, In x (rlabels r) -> x < k) -> nfa_syms_lt (nfa_of r) k.
Proof. intros r k H q e x [st [E1 E2]] Hx. eapply (nfa_of_s_syms (fun x => x < k)); eauto. eapply nth_error_In; eauto. Qed.

(** What the grammar guarantees about an expression. *)
Section Grammar.
  Variable lf : list ascii -> nat.
  Lemma glabels_image : forall ls s, glabels lf ls s -> ls <> [] /\ forall x, In x ls -> exists t, is_label t /\ x = lf t.
  Proof.
    intros ls s H. induction H as [s H|s i1 i2 ls s' H H1 H2 H3 [_ IH]]; (split; [discriminate|]); intros x [<-|Hx]; eauto. destruct Hx.
  Qed.
  Definition rok (r : regex) : Prop := rproper r /\ forall x, In x (rlabels r) -> exists t, is_label t /\ x = lf t.
  Lemma rok2 : forall a b, rok a -> rok b -> rok (RCat a b) /\ rok (RAlt a b).
  Proof. intros a b [A1 A2] [B1 B2]. split; (split; [cbn; auto|intros x Hx; cbn in Hx; apply in_app_or in Hx; destruct Hx; auto]). Qed.
  Lemma gexpr_rok : forall r s, gexpr lf r s -> rok r.
  Proof.
    fix G 3. assert (GV: forall r s, gvalue lf r s -> rok r).
    { fix GV 3. intros r s H. destruct H as [|ls s H|ls s H|r s i1 i2 H1 H2 H].
      - split; [cbn; auto|intros x []].
      - apply glabels_image in H. destruct H. split; [cbn; auto|auto].
      - apply glabels_image in H. destruct H. split; [cbn; auto|auto].
      - exact (G _ _ H). }
    assert (GU: forall r s, gunary lf r s -> rok r). { intros r s H. destruct H as [r s H|r s H|r s H|r s H]; exact (GV _ _ H). }
    assert (GS: forall r s, gseq lf r s -> rok r).
    { fix GS 3. intros r s H. destruct H as [r s H|r s i r' s' H Hi H']; [exact (GU _ _ H)|]. apply rok2; [exact (GU _ _ H)|exact (GS _ _ H')]. }
    intros r s H. destruct H as [r s H|r s i1 i2 r' s' H H1 H2 H']; [exact (GS _ _ H)|]. apply rok2; [exact (GS _ _ H)|exact (G _ _ H')].
  Qed.
  Lemma gfile_rok : forall r s, gfile lf r s -> rok r.
  Proof. intros r s H. destruct H as [s H|i s i' r Hi H Hi']; [split; [exact Logic.I|intros x []]|eapply gexpr_rok; eauto]. Qed.
End Grammar.

(** ** Atoms *)
Section Atoms.
  Variable addr : nat -> nat.
  Hypothesis addr_inj : forall i j, addr i = addr j -> i = j.
  Variable ord : nat -> list nat -> list nat.
  Hypothesis Hord : forall q l, Permutation (ord q l) l.
  Variable P : pda.

  Definition atom_ok (a : atom) : Prop :=
    nfa_wf (at_nfa a) /\ nfa_syms_lt (at_nfa a) (at_nlab a) /\ (forall s, In s (at_states a) -> s < pd_n P) /\ at_nlab a <= pd_nlab P.
  Definition atom_lang (a : atom) (c : config) : Prop :=
    In (fst c) (at_states a) /\ nfa_lang (at_nfa a) (snd c) /\ Forall (fun x => x < at_nlab a) (snd c).

  Lemma post_ok_nlab : forall k A, k <= pd_nlab P -> post_ok (with_nlab P k) A -> post_ok P A.
  Proof.
    intros k A Hk [H1 H2 H3 H4]. constructor; auto. intros q l t H. destruct (H4 _ _ _ H) as [K1 [K2 [x [-> Hx]]]]. ands; auto; try apply K2. exists x. split; auto. cbn in Hx. lia.
  Qed.
  Lemma post_ok_Inside : forall A, post_ok P A -> Inside A.
  Proof. intros A [H1 H2 H3 H4]. constructor; auto. intros q l t H. destruct (H4 _ _ _ H) as [K1 [K2 _]]. split; auto. apply K2. Qed.

  Lemma atom_aut : forall a, atom_ok a -> exists N B, nfa_compile addr (at_nfa a) = Some N /\
    aut_of_nfa addr (with_nlab P (at_nlab a)) ord N ne_sym (sort_set (at_states a)) = Some B /\ post_ok P B /\ forall c, aut_lang (pd_n P) B c <-> atom_lang a c.
  Proof.
    intros a [W [Hs [Hst Hk]]]. destruct (nfa_compile_spec addr (at_nfa a) addr_inj W) as [N [E [WN [HC [HE HL]]]]].
    destruct (aut_of_nfa_lang addr (with_nlab P (at_nlab a)) ord N (sort_set (at_states a)) addr_inj WN HC) as [B [EB [OB LB]]]; auto.
    - intros q e x [st [E1 E2]] Hx. rewrite HE in E1. apply (Hs q e x); auto. exists st. auto.
    - apply sort_set_ssorted.
    - intros s Hi. rewrite sort_set_In in Hi. apply Hst; auto.
    - exists N, B. ands; auto; [eapply post_ok_nlab; eauto|]. intros [q w]. rewrite (LB q w), sort_set_In, HL. unfold atom_lang. cbn. tauto.
  Qed.

  Lemma build_from : forall l A, post_ok P A -> Forall atom_ok l ->
    exists C, ofold (finish_atom addr ord P) l (Some A) = Some (Some C) /\ post_ok P C /\ forall c, aut_lang (pd_n P) C c <-> aut_lang (pd_n P) A c \/ exists a, In a l /\ atom_lang a c.
  Proof.
    induction l as [|a l IH]; intros A HA Hl; cbn [ofold].
    - exists A. ands; auto. intros c. split; auto. intros [H|[a [[] _]]]; auto.
    - inversion Hl as [|a' l' H1 H2]; subst. destruct (atom_aut a H1) as [N [B [E1 [E2 [OB LB]]]]].
      destruct (a_or_extend_lang (pd_n P) A B (post_ok_Inside _ HA) (post_ok_Inside _ OB) (qk_n _ _ HA) (qk_n _ _ OB) (qk_nd _ _ HA)) as [C [EC LC]].
      { intros q l0 t H. apply (qk_range _ _ HA) in H. lia. } { intros q l0 t H. apply (qk_range _ _ OB) in H. lia. }
      unfold finish_atom at 1. rewrite E1. cbn [obind]. rewrite E2. cbn [obind]. rewrite EC. cbn [obind].
      destruct (IH C) as [D [ED [OD LD]]]; auto. { exact (a_or_extend_post_ok P A B C HA OB EC). }
      exists D. ands; auto. intros c. rewrite LD, LC, LB. split.
      + intros [[H|H]|[b [Hb H]]]; auto; right; [exists a|exists b]; split; cbn; auto.
      + intros [H|[b [[<-|Hb] H]]]; eauto.
  Qed.
  Theorem build_atoms_lang : forall l, l <> [] -> Forall atom_ok l ->
    exists C, build_atoms addr ord P l = Some C /\ post_ok P C /\ forall c, aut_lang (pd_n P) C c <-> exists a, In a l /\ atom_lang a c.
  Proof.
    intros [|a l] Hn Hl; [congruence|]. inversion Hl as [|a' l' H1 H2]; subst. destruct (atom_aut a H1) as [N [B [E1 [E2 [OB LB]]]]].
    destruct (build_from l B OB H2) as [C [EC [OC LC]]]. exists C. unfold build_atoms. cbn [ofold]. unfold finish_atom at 1. rewrite E1. cbn [obind]. rewrite E2. cbn [obind].
    rewrite EC. ands; auto. intros c. rewrite LC, LB. split.
    - intros [H|[b [Hb H]]]; [exists a|exists b]; split; cbn; auto.
    - intros [b [[<-|Hb] H]]; eauto.
  Qed.
End Atoms.
