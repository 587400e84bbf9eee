(** Language-level soundness and completeness of post*. *)
From Coq Require Import List Arith Lia Bool ZArith Permutation Sorted.
From Verif Require Import Base BaseFacts Spec SpecFacts PdaModel PdaProof AutModel AutProof PreStarModel PreStarProof PreStarLang
  PostStarModel PostStarProof.
Import ListNotations.

Definition olist (l : option nat) : list nat := match l with Some x => [x] | None => [] end.

Section Sound.
  Variable P : pda.
  Hypothesis WP : wf_pda P.
  Let n := pd_n P.
  Let R := pda_rules P.
  Variable E0 : list (edge * trace).
  Variable nQ : nat.
  Variable qp : nat * nat -> option nat.
  Hypothesis HnQ : n <= nQ.
  Hypothesis E0_ok : forall q l q', edges_of E0 q l q' -> q < nQ /\ n <= q' < nQ /\ l <> None.
  Hypothesis qp_r : forall k v, qp k = Some v -> nQ <= v.
  Hypothesis qp_i : forall k1 k2 v, qp k1 = Some v -> qp k2 = Some v -> k1 = k2.

  (** Where a configuration whose remaining stack starts in [q] came from. *)
  Definition Src (q : nat) (c : config) : Prop :=
    if Nat.ltb q nQ then exists p0 w0, p0 < n /\ npath (edges_of E0) p0 w0 q /\ reach R (p0, w0) c
    else exists p' g, qp (p', g) = Some q /\ reach R (p', [g]) c.

  Lemma Src_reach : forall q c c', Src q c -> reach R c c' -> Src q c'.
  Proof.
    intros q c c' H Hr. unfold Src in *. destruct (Nat.ltb q nQ).
    - destruct H as [p0 [w0 [H1 [H2 H3]]]]. exists p0, w0; ands; auto. eapply reach_trans; eauto.
    - destruct H as [p' [g [H1 H2]]]. exists p', g; ands; auto. eapply reach_trans; eauto.
  Qed.

  Definition edge_orig (es : list (edge * trace)) : Prop := forall a l b, edges_of es a l b ->
    n <= b /\ (a < n -> Src b (a, olist l)) /\ (n <= a < nQ -> edges_of E0 a l b) /\
    (nQ <= a -> exists x, l = Some x /\ forall p' g, qp (p', g) = Some a -> Src b (p', [g; x])).

  Lemma Src_extend : forall es, edge_orig es -> forall s p u l b, n <= s -> Src s (p, u) -> edges_of es s (Some l) b -> Src b (p, u ++ [l]).
  Proof.
    intros es HE s p u l b Hs HS He. destruct (HE _ _ _ He) as [_ [_ [E1 E2]]]. unfold Src in HS.
    destruct (Nat.ltb_spec s nQ) as [L|L].
    - specialize (E1 (conj Hs L)). destruct (E0_ok _ _ _ E1) as [_ [Hb _]]. unfold Src. destruct (Nat.ltb_spec b nQ); [|lia].
      destruct HS as [p0 [w0 [H1 [H2 H3]]]]. exists p0, (w0 ++ [l]). ands; auto.
      + eapply npath_app; eauto. econstructor; eauto. constructor.
      + apply reach_ctx'; auto.
    - destruct (E2 L) as [x [Ex H]]. injection Ex as <-. destruct HS as [p' [g [H1 H2]]].
      eapply Src_reach; [apply (H p' g H1)|]. apply (reach_ctx' R _ _ _ _ [l]) in H2. exact H2.
  Qed.

  Lemma Src_path : forall es, edge_orig es -> forall s w q, apath (edges_of es) s w q -> n <= s -> forall p u, Src s (p, u) -> Src q (p, u ++ w).
  Proof.
    intros es HE s w q H. induction H as [s|s l s1 w q He Hp IH|s s1 w q He Hp IH]; intros Hs p u HS.
    - rewrite app_nil_r; auto.
    - replace (u ++ l :: w) with ((u ++ [l]) ++ w) by (rewrite <- app_assoc; auto).
      apply IH; [apply (HE _ _ _ He)|]. eapply Src_extend; eauto.
    - exfalso. destruct (HE _ _ _ He) as [_ [_ [E1 E2]]]. destruct (Nat.lt_ge_cases s nQ) as [L|L].
      + specialize (E1 (conj Hs L)). apply E0_ok in E1. tauto.
      + destruct (E2 L) as [x [Ex _]]. discriminate.
  Qed.

  Lemma path_orig : forall es, edge_orig es -> forall p w q, apath (edges_of es) p w q -> p < n ->
    (q = p /\ w = []) \/ (n <= q /\ Src q (p, w)).
  Proof.
    intros es HE p w q H Hp. inversion H as [a E1 E2 E3|a l q1 w' b He Hq|a q1 w' b He Hq]; subst; auto.
    - right. destruct (HE _ _ _ He) as [E1 [E2 _]]. specialize (E2 Hp). split.
      + clear - HE Hq E1. induction Hq; auto. apply IHHq; apply (HE _ _ _ H). apply IHHq; apply (HE _ _ _ H).
      + apply (Src_path es HE _ _ _ Hq E1 p [l]); auto.
    - right. destruct (HE _ _ _ He) as [E1 [E2 _]]. specialize (E2 Hp). split.
      + clear - HE Hq E1. induction Hq; auto. apply IHHq; apply (HE _ _ _ H). apply IHHq; apply (HE _ _ _ H).
      + apply (Src_path es HE _ _ _ Hq E1 p []); auto.
  Qed.

  Lemma wjp_orig : forall es, wj_post P qp E0 es -> edge_orig es.
  Proof.
    intros es H. induction H as [|older e tr Hw IH HJ].
    - intros a l b He. destruct (E0_ok _ _ _ He) as [H1 [H2 H3]]. ands; auto; try lia.
      intros Ha. unfold Src. destruct (Nat.ltb_spec b nQ); [|lia]. destruct l as [l|]; [|congruence]. exists a, [l]. ands; auto.
      + econstructor; eauto. constructor.
      + apply reach_refl.
    - intros a l b He. unfold edges_of in He. cbn in He. destruct He as [He|He]; [|apply IH; auto].
      destruct HJ as [HJ|HJ].
      + destruct HJ as [p [id [l0 [r [ls [q [_ [J2 [J3 [J4 J5]]]]]]]]]].
        destruct (get_rule_facts P WP _ _ _ _ J2) as [G1 [G2 G3]]. fold n in G1, G2.
        destruct (IH _ _ _ J4) as [Q1 [Q2 _]]. specialize (Q2 G1). cbn in Q2.
        assert (S1 := rule_step P p id r ls l0 [] J2 J3). apply reach_one in S1. fold R in S1.
        assert (HS := Src_reach _ _ _ Q2 S1). unfold sop_of in HS. destruct (r_op r) eqn:Er; cbn in HS.
        * destruct J5 as [qn [J5 [J6|[J6 J7]]]].
          -- rewrite J6 in He. injection He as <- <- <-. assert (K := qp_r _ _ J5). ands; try lia.
             intros _. unfold Src. destruct (Nat.ltb_spec qn nQ); [lia|]. exists (r_to r), (r_opl r). split; auto. apply reach_refl.
          -- rewrite J6 in He. injection He as <- <- <-. assert (K := qp_r _ _ J5). ands; try lia. intros _.
             exists l0. split; auto. intros p' g Hk. assert (E := qp_i _ _ _ Hk J5). injection E as -> ->. auto.
        * rewrite J5 in He. injection He as <- <- <-. ands; try lia. auto.
        * rewrite J5 in He. injection He as <- <- <-. ands; try lia. auto.
        * rewrite J5 in He. injection He as <- <- <-. ands; try lia. auto.
      + destruct HJ as [s [x [_ [J2 [J3 J4]]]]]. subst e. cbn in J2, J3, J4. subst l.
        destruct (IH _ _ _ J3) as [Q1 [Q2 [Q3 Q4]]]. destruct (IH _ _ _ J4) as [Q5 _].
        assert (Ha: a < n).
        { destruct (Nat.lt_ge_cases a n); auto. exfalso. destruct (Nat.lt_ge_cases a nQ) as [L|L].
          - specialize (Q3 (conj H L)). apply E0_ok in Q3. tauto.
          - destruct (Q4 L) as [y [Ey _]]. discriminate. }
        ands; auto; try lia. intros _. apply (Src_extend older IH s a [] x b); auto.
  Qed.
End Sound.

(** Input requirements of post*. *)
Record post_ok (P : pda) (A : aut) : Prop := {
  qk_n : pd_n P <= a_size A;
  qk_ord : wf_ord A;
  qk_nd : NoDup (map fst (a_edges A));
  qk_range : forall q l q', aut_edges A q l q' -> q < a_size A /\ pd_n P <= q' < a_size A /\ exists x, l = Some x /\ x < pd_nlab P }.

Lemma post_ok_pre_ok : forall P A, post_ok P A <-> pre_ok P A /\ no_in P A.
Proof.
  intros P A; split.
  - intros [H1 H2 H3 H4]. split; [constructor; auto|].
    + intros q l q' H. destruct (H4 q l q' H) as [K1 [K2 K3]]. ands; auto. lia.
    + intros q l q' H. destruct (H4 q l q' H) as [K1 [K2 K3]]. lia.
  - intros [[H1 H2 H3 H4] H5]. constructor; auto. intros q l q' H. destruct (H4 q l q' H) as [K1 [K2 K3]]. specialize (H5 q l q' H). ands; auto.
Qed.

Definition post_qp (P : pda) (A0 : aut) (k : nat * nat) := qp_find k (snd (qp_init P A0)).

Theorem wjp_lang_sound : forall P A0 A, wf_pda P -> post_ok P A0 ->
  wj_post P (post_qp P A0) (a_edges A0) (a_edges A) -> a_acc A = a_acc (fst (qp_init P A0)) ->
  forall c, aut_lang (pd_n P) A c -> exists c', reach (pda_rules P) c' c /\ aut_lang (pd_n P) A0 c'.
Proof.
  intros P A0 A WP OK WJ EA [p w] [Hp [f [Hpath Hf]]]. cbn in *.
  pose proof (proj1 (qp_init_ok P A0)) as QO.
  assert (HE: edge_orig P (a_edges A0) (a_size A0) (post_qp P A0) (a_edges A)).
  { apply wjp_orig; auto; try apply OK.
    - intros q l q' H. destruct (qk_range _ _ OK _ _ _ H) as [H1 [H2 [x [H3 _]]]]. ands; auto; try lia. congruence.
    - intros k v H. apply qp_find_In in H. apply (qo_range _ _ QO) in H. lia.
    - intros k1 k2 v H1 H2. eapply qp_inj; eauto. }
  assert (HF: f < a_size A0 /\ nth_error (a_acc A0) f = Some true).
  { unfold aut_final in Hf. rewrite EA in Hf. destruct (qo_acc _ _ QO) as [k E]. rewrite E in Hf.
    destruct (Nat.lt_ge_cases f (a_size A0)) as [L|L].
    - split; auto. unfold a_size in L. rewrite nth_error_app1 in Hf; auto.
    - exfalso. unfold a_size in L. rewrite nth_error_app2 in Hf by auto. apply nth_error_In in Hf. apply repeat_spec in Hf. discriminate. }
  destruct HF as [F1 F2].
  destruct (path_orig P (a_edges A0) (a_size A0) (post_qp P A0) (qk_n _ _ OK)) with (es := a_edges A) (p := p) (w := w) (q := f) as [[-> ->]|[L HS]]; auto.
  - intros q l q' H. destruct (qk_range _ _ OK _ _ _ H) as [H1 [H2 [x [H3 _]]]]. ands; auto; try lia. congruence.
  - exists (p, []). split; [apply reach_refl|]. split; auto. exists p; split; [constructor|auto].
  - unfold Src in HS. destruct (Nat.ltb_spec f (a_size A0)); [|lia]. destruct HS as [p0 [w0 [H1 [H2 H3]]]].
    exists (p0, w0). split; auto. split; auto. exists f. split; auto. apply npath_apath; auto.
Qed.

Section Complete.
  Variable P : pda.
  Hypothesis WP : wf_pda P.
  Variable X : Type.
  Variable et : option (aut -> X -> edge -> trace -> option (bool * X)).
  Variable A0 : aut.
  Hypothesis OK : post_ok P A0.
  Variable J : aut -> X -> bool -> Prop.
  Variable st : post_st X.
  Hypothesis SI : kinv P X et A0 J st None None.
  Hypothesis WS : q_ws st = [].
  Let n := pd_n P.
  Let A := q_aut st.
  Let B := k_base _ _ _ _ _ _ _ _ SI.

  Lemma q_dst : forall q l q', aut_edges A q l q' -> n <= q'.
  Proof. intros q l q' H. apply (c_range _ _ _ _ _ _ B) in H. destruct H as [_ [H _]]. cbn in H. unfold n. lia. Qed.

  Lemma first_edge : forall p l w f, p < n -> apath (aut_edges A) p (l :: w) f -> exists q, aut_edges A p (Some l) q /\ apath (aut_edges A) q w f.
  Proof.
    intros p l w f Hp H. inversion H as [|a l' q1 w' b He Hq|a q1 w' b He Hq]; subst; eauto.
    assert (Hq1 := q_dst _ _ _ He). inversion Hq as [|a l' q2 w' b He2 Hq2|a q2 w' b He2 Hq2]; subst.
    - exists q2. split; auto. destruct (k_eps _ _ _ _ _ _ _ _ SI p q1 He) as [H0|[H0|[_ H0]]]; [rewrite WS in H0; destruct H0|discriminate|].
      destruct (H0 _ _ He2) as [H1|H1]; [discriminate|exact H1].
    - exfalso. apply (c_range _ _ _ _ _ _ B) in He2. destruct He2 as [_ [_ He2]]. cbn in He2. unfold n in Hq1. lia.
  Qed.

  (** Epsilon edges are only needed for the empty stack. *)
  Lemma post_npath : forall p l w f, p < n -> apath (aut_edges A) p (l :: w) f -> npath (aut_edges A) p (l :: w) f.
  Proof.
    intros p l w f Hp H. destruct (first_edge _ _ _ _ Hp H) as [q [He Hq]]. econstructor; eauto.
    assert (Hn := q_dst _ _ _ He). clear He H. induction Hq as [q|q l1 q1 w f He Hq IH|q q1 w f He Hq IH]; [constructor| |].
    - econstructor; eauto. apply IH. eapply q_dst; eauto.
    - exfalso. apply (c_range _ _ _ _ _ _ B) in He. destruct He as [_ [_ He]]. cbn in He. unfold n in Hn. lia.
  Qed.

  Lemma step_forward : forall c c', step (pda_rules P) c c' -> aut_lang n A c -> aut_lang n A c'.
  Proof.
    intros c c' [sr [HR HS]] [Hn [f [Hpath Hf]]]. inversion HS as [w Ec Ec']; subst c c'. cbn in *.
    apply pda_rules_at in HR. destruct HR as [r [ls [Hin [Hm [Eto Eop]]]]].
    destruct (In_nth_error _ _ Hin) as [id Hid].
    assert (G: get_rule P (s_from sr) id = Some (r, ls)) by (apply get_rule_at; auto).
    destruct (get_rule_facts P WP _ _ _ _ G) as [G1 [G2 G3]].
    destruct (first_edge _ _ _ _ Hn Hpath) as [q [He Hq]].
    assert (HF: rule_fired P X A0 st r (s_pre sr) q).
    { destruct (k_lab _ _ _ _ _ _ _ _ SI _ _ _ Hn He) as [H0|[H0|H0]]; [rewrite WS in H0; destruct H0|discriminate|].
      eapply H0; eauto. eapply contains_spec; eauto. eapply matches_lt; eauto. }
    split; cbn; [rewrite Eto; auto|]. exists f. split; auto. rewrite Eto, Eop. unfold sop_of, rule_fired in *.
    destruct (r_op r); cbn.
    - destruct HF as [qn [_ [H1 H2]]]. eapply ap_lab; [exact H1|]. eapply ap_lab; [exact H2|]. auto.
    - eapply ap_eps; eauto.
    - eapply ap_lab; eauto.
    - eapply ap_lab; eauto.
  Qed.

  Theorem post_lang_complete : forall c0 c, reach (pda_rules P) c0 c -> aut_lang n A0 c0 -> aut_lang n A c.
  Proof.
    intros c0 c H H0. assert (G: aut_lang n A c0).
    { destruct c0 as [p w]. destruct H0 as [H1 [f [H2 H3]]]. split; auto. exists f. split.
      - eapply apath_mono; [|exact H2]. intros a l b Hab. eapply wjp_incl; [apply B|exact Hab].
      - unfold aut_final, A. rewrite (c_acc _ _ _ _ _ _ B). destruct (qo_acc _ _ (proj1 (qp_init_ok P A0))) as [k E]. rewrite E.
        rewrite nth_error_app1; auto. eapply nth_error_lt; eauto. }
    clear H0. induction H; auto. apply IHreach. eapply step_forward; eauto.
  Qed.
End Complete.
