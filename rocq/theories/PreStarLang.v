(** Language-level soundness and completeness of pre*. *)
From Coq Require Import List Arith Lia Bool ZArith Permutation Sorted.
From Verif Require Import Base BaseFacts Spec SpecFacts PdaModel PdaProof AutModel AutProof PreStarModel PreStarProof.
Import ListNotations.

(** Input requirements on the automaton (those the code asserts or silently relies on). *)
Record pre_ok (P : pda) (A : aut) : Prop := {
  po_n : pd_n P <= a_size A;
  po_ord : wf_ord A;
  po_nd : NoDup (map fst (a_edges A));
  po_range : forall q l q', aut_edges A q l q' -> q < a_size A /\ q' < a_size A /\ exists x, l = Some x /\ x < pd_nlab P }.

Definition no_in (P : pda) (A : aut) : Prop := forall q l q', aut_edges A q l q' -> pd_n P <= q'.

Lemma pre_ok_range : forall P A, pre_ok P A -> forall e, In e (map fst (a_edges A)) -> in_range P A e.
Proof.
  intros P A H e He. destruct e as [q l q']. destruct (po_range _ _ H q l q' He) as [H1 [H2 [x [H3 H4]]]].
  unfold in_range; cbn; ands; auto. eauto.
Qed.

Section Sound.
  Variable P : pda.
  Hypothesis WP : wf_pda P.
  Let n := pd_n P.
  Let R := pda_rules P.
  Variable E0 : list (edge * trace).
  Hypothesis E0_in : forall q l q', edges_of E0 q l q' -> n <= q'.

  Definition Dest (q : nat) (c : config) : Prop :=
    if Nat.ltb q n then reach R c (q, [])
    else exists p' w', p' < n /\ reach R c (p', w') /\ npath (edges_of E0) p' w' q.

  Definition edge_sound (es : list (edge * trace)) : Prop := forall a l b, edges_of es a (Some l) b ->
    if Nat.ltb a n then Dest b (a, [l]) else edges_of E0 a (Some l) b.

  Lemma Dest_ctx : forall q c w, Dest q c -> if Nat.ltb q n then reach R (fst c, snd c ++ w) (q, w) else True.
  Proof. intros q c w H. unfold Dest in H. destruct (Nat.ltb q n); auto. apply (reach_ctx R c (q,[]) w H). Qed.

  Lemma outer_path : forall es, edge_sound es -> forall q w q', npath (edges_of es) q w q' -> n <= q ->
    n <= q' /\ npath (edges_of E0) q w q'.
  Proof.
    intros es HS q w q' H; induction H; intros Hq.
    - split; auto. constructor.
    - assert (K := HS _ _ _ H). destruct (Nat.ltb_spec q n); [lia|].
      destruct IHnpath as [I1 I2]; [eapply E0_in; eauto|]. split; auto. econstructor; eauto.
  Qed.

  Lemma path_sound : forall es, edge_sound es -> forall p w q, npath (edges_of es) p w q -> p < n -> Dest q (p, w).
  Proof.
    intros es HS p w q H; induction H as [p|p l q1 w q He Hp IH]; intros Hn.
    - unfold Dest. apply Nat.ltb_lt in Hn. rewrite Hn. apply reach_refl.
    - assert (K := HS _ _ _ He). apply Nat.ltb_lt in Hn. rewrite Hn in K. unfold Dest in K.
      destruct (Nat.ltb_spec q1 n) as [L|L].
      + apply (reach_ctx' R _ _ _ _ w) in K. cbn in K. specialize (IH L). unfold Dest in *.
        destruct (Nat.ltb q n).
        * eapply reach_trans; eauto.
        * destruct IH as [p' [w' [I1 [I2 I3]]]]. exists p', w'. ands; auto. eapply reach_trans; eauto.
      + destruct K as [p' [w' [K1 [K2 K3]]]]. destruct (outer_path es HS _ _ _ Hp L) as [O1 O2].
        unfold Dest. destruct (Nat.ltb_spec q n); [lia|]. exists p', (w' ++ w). ands; auto.
        * apply (reach_ctx' R _ _ _ _ w) in K2. auto.
        * eapply npath_app; eauto.
  Qed.

  Lemma Dest_step : forall q c c', step R c c' -> Dest q c' -> Dest q c.
  Proof.
    intros q c c' Hs H. unfold Dest in *. destruct (Nat.ltb q n).
    - eapply reach_step; eauto.
    - destruct H as [p' [w' [I1 [I2 I3]]]]. exists p', w'. ands; auto. eapply reach_step; eauto.
  Qed.

  Lemma rule_step : forall p id r ls l w, get_rule P p id = Some (r, ls) -> matches (pd_nlab P) ls l ->
    step R (p, l :: w) (r_to r, apply_op (sop_of r) l w).
  Proof.
    intros p id r ls l w G M. exists (mk_srule p l (r_to r) (sop_of r)). split.
    - apply pda_rules_at. exists r, ls. cbn. ands; auto. apply get_rule_at in G. eapply nth_error_In; eauto.
    - apply (step_by_intro (mk_srule p l (r_to r) (sop_of r))).
  Qed.

  Lemma wj_sound : forall es, wj_pre P E0 es -> (forall p l q, edges_of E0 p (Some l) q -> p < n -> Dest q (p, [l])) ->
    edge_sound es.
  Proof.
    intros es H H0. induction H as [|older e tr Hw IH HJ].
    - intros a l b He. destruct (Nat.ltb_spec a n); auto.
    - intros a l b He. unfold edges_of in He. cbn in He. destruct He as [He|He]; [|apply IH; auto].
      subst e. destruct HJ as [id [tmp [r [ls [l' [J1 [J2 [J3 [J4 J5]]]]]]]]]. cbn in J2, J3, J5. injection J3 as <-.
      destruct (get_rule_facts P WP _ _ _ _ J2) as [G1 [G2 G3]].
      assert (G1' := G1). apply Nat.ltb_lt in G1'. fold n in G1'. rewrite G1'.
      assert (S1 := rule_step a id r ls l [] J2 J4). eapply Dest_step; [exact S1|]. unfold sop_of.
      destruct (r_op r).
      + destruct J5 as [s [_ [J6 J7]]]. cbn. eapply (path_sound older IH); auto.
        econstructor; eauto. econstructor; eauto. constructor.
      + destruct J5 as [_ ->]. cbn. unfold Dest. apply Nat.ltb_lt in G2. fold n in G2. rewrite G2. apply reach_refl.
      + destruct J5 as [_ J5]. cbn. eapply (path_sound older IH); auto. econstructor; eauto. constructor.
      + destruct J5 as [_ J5]. cbn. eapply (path_sound older IH); auto. econstructor; eauto. constructor.
  Qed.

  Lemma wj_sound' : forall es, wj_pre P E0 es -> edge_sound es.
  Proof.
    intros es H. apply wj_sound; auto. intros p l q He Hp. unfold Dest. assert (K := E0_in _ _ _ He).
    destruct (Nat.ltb_spec q n); [lia|]. exists p, [l]. ands; auto. apply reach_refl. econstructor; eauto. constructor.
  Qed.
End Sound.

Lemma wj_noeps : forall P E0 es, wj_pre P E0 es -> (forall q q', ~ edges_of E0 q None q') -> forall q q', ~ edges_of es q None q'.
Proof.
  intros P E0 es H H0. induction H as [|older e tr Hw IH HJ]; auto.
  intros q q' [He|He]; [|eapply IH; eauto]. cbn in He. subst e. destruct HJ as [id [tmp [r [ls [l' [_ [_ [J3 _]]]]]]]]. discriminate.
Qed.

(** Every configuration the saturated automaton accepts reaches one the input automaton accepts. *)
Theorem wj_lang_sound : forall P A0 A, wf_pda P -> pre_ok P A0 -> no_in P A0 ->
  wj_pre P (a_edges A0) (a_edges A) -> a_acc A = a_acc A0 ->
  forall c, aut_lang (pd_n P) A c -> exists c', reach (pda_rules P) c c' /\ aut_lang (pd_n P) A0 c'.
Proof.
  intros P A0 A WP OK NI WJ EA [p w] [Hp [f [Hpath Hf]]]. cbn in *.
  assert (NE0: forall q q', ~ edges_of (a_edges A0) q None q').
  { intros q q' H. apply (po_range _ _ OK) in H. destruct H as [_ [_ [x [H _]]]]. discriminate. }
  apply apath_npath in Hpath; [|eapply wj_noeps; eauto].
  assert (D := path_sound P (a_edges A0) NI (a_edges A) (wj_sound' P WP _ NI _ WJ) _ _ _ Hpath Hp).
  unfold Dest in D. unfold aut_final in Hf. rewrite EA in Hf.
  destruct (Nat.ltb_spec f (pd_n P)) as [L|L].
  - exists (f, []). split; auto. split; auto. exists f; split; auto. constructor.
  - destruct D as [p' [w' [D1 [D2 D3]]]]. exists (p', w'). split; auto. split; auto. exists f; split; auto. apply npath_apath; auto.
Qed.

Section Complete.
  Variable P : pda.
  Hypothesis WP : wf_pda P.
  Hypothesis LK : lookup_ok P.
  Variable X : Type.
  Variable et : option (aut -> X -> edge -> trace -> option (bool * X)).
  Variable A0 : aut.
  Hypothesis OK : pre_ok P A0.
  Variable J : aut -> X -> bool -> Prop.
  Variable st : pre_st X.
  Hypothesis SI : sat_inv P X et A0 J st.
  Hypothesis WS : p_ws st = [].
  Let n := pd_n P.

  Let in_rel : forall q l q', aut_edges (p_aut st) q l q' -> In (mk_edge q l q') (p_rel st).
  Proof. intros q l q' H. destruct (si_cov _ _ _ _ _ _ SI _ H) as [K|K]; auto. rewrite WS in K. destruct K. Qed.

  Lemma noeps : forall q q', ~ aut_edges (p_aut st) q None q'.
  Proof.
    intros q q' H. pose proof (si_base _ _ _ _ _ _ SI) as B. destruct (b_range _ _ _ _ _ _ B _ H) as [_ [_ [l [E _]]]]. discriminate.
  Qed.

  Lemma step_back : forall c c', step (pda_rules P) c c' -> aut_lang n (p_aut st) c' -> aut_lang n (p_aut st) c.
  Proof.
    intros c c' [sr [HR HS]] [Hn [f [Hpath Hf]]]. inversion HS as [w Ec Ec']; subst c c'. cbn in *.
    apply pda_rules_at in HR. destruct HR as [r [ls [Hin [Hm [Eto Eop]]]]].
    assert (Hp := In_rules_lt _ _ _ Hin). destruct (In_nth_error _ _ Hin) as [id Hid].
    split; auto. cbn. apply apath_npath in Hpath; [|apply noeps].
    assert (V: In (id, (r, ls)) (visited (rules_at P (s_from sr)) (s_to sr))) by (apply visited_complete; auto).
    assert (G: get_rule P (s_from sr) id = Some (r, ls)) by (apply get_rule_at; auto).
    assert (Wl: wf_labels (pd_nlab P) ls) by (eapply (wf'_labs _ (wf_wf_pda' _ WP)); eauto).
    assert (Hl := matches_lt _ _ _ Wl Hm).
    rewrite Eop in Hpath. unfold sop_of in Hpath.
    assert (Done: forall t, In t (p_rel st) -> e_src t = s_to sr -> rule_done P X st t (s_from sr) id r ls).
    { intros t Ht Es. eapply (si_rules _ _ _ _ _ _ SI); eauto. rewrite Es; auto. }
    exists f. split; auto. destruct (r_op r) eqn:Er; cbn in Hpath.
    - inversion Hpath as [|q0 l0 q1 w0 q2 H1 H2]; subst. inversion H2 as [|q0 l0 q3 w0 q2 H3 H4]; subst.
      apply in_rel in H1. apply in_rel in H3. assert (D := Done _ H1 eq_refl). unfold rule_done in D. rewrite Er in D. cbn in D.
      specialize (D eq_refl). eapply ap_lab; [|apply npath_apath; eauto].
      assert (K := si_delta _ _ _ _ _ _ SI _ _ _ r ls _ D G H3 eq_refl). cbn in K. apply K. eapply contains_spec; eauto.
    - eapply ap_lab; [|apply npath_apath; eauto]. inversion Hpath as [q0 E1 E2 E3|q0 l0 q1 w0 q2 H1 H2]; subst.
      + eapply (si_popped _ _ _ _ _ _ SI); eauto. apply (si_acc _ _ _ _ _ _ SI); auto.
        unfold aut_final in Hf. rewrite (b_acc _ _ _ _ _ _ (si_base _ _ _ _ _ _ SI)) in Hf. auto.
      + apply in_rel in H1. assert (D := Done _ H1 eq_refl). unfold rule_done in D. rewrite Er in D. cbn in D.
        apply D; auto.
    - inversion Hpath as [|q0 l0 q1 w0 q2 H1 H2]; subst. apply in_rel in H1. assert (D := Done _ H1 eq_refl). unfold rule_done in D.
      rewrite Er in D. cbn in D. eapply ap_lab; [|apply npath_apath; eauto]. apply D; auto.
    - inversion Hpath as [|q0 l0 q1 w0 q2 H1 H2]; subst. apply in_rel in H1. assert (D := Done _ H1 eq_refl). unfold rule_done in D.
      rewrite Er in D. cbn in D. eapply ap_lab; [|apply npath_apath; eauto]. apply D; auto. eapply contains_spec; eauto.
  Qed.

  Theorem sat_lang_complete : forall c c', reach (pda_rules P) c c' -> aut_lang n A0 c' -> aut_lang n (p_aut st) c.
  Proof.
    intros c c' H; induction H; intros HL.
    - destruct c as [p w]. destruct HL as [H1 [f [H2 H3]]]. split; auto. exists f. split.
      + eapply apath_mono; [|exact H2]. intros a l b Hab. eapply wj_incl; eauto. apply SI.
      + unfold aut_final. rewrite (b_acc _ _ _ _ _ _ (si_base _ _ _ _ _ _ SI)). auto.
    - eapply step_back; eauto.
  Qed.
End Complete.
