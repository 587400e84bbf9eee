(** Trace reconstruction: every step undoes one rule, the annotations always lead back to the original edges. *)
From Coq Require Import List Arith Lia Bool ZArith Permutation.
From Verif Require Import Base BaseFacts Spec SpecFacts PdaModel PdaProof AutModel AutProof PreStarModel PreStarProof PreStarLang
  PostStarModel PostStarProof PostStarLang SolverModel QueryModel QueryProof ProductModel VerdictModel VerdictProof TraceModel.
Import ListNotations.

(** ** Paths *)
Definition pfront (e : nat) (es : list (option nat * nat)) : nat := match es with [] => e | (_, s) :: _ => s end.
Fixpoint pvalid (E : edgeset) (e : nat) (es : list (option nat * nat)) : Prop :=
  match es with [] => True | (l, s) :: es' => E s l (pfront e es') /\ pvalid E e es' end.
Definition valid (E : edgeset) (p : apth nat) : Prop := pvalid E (ap_end p) (ap_edges p).
Definition pconf (p : apth nat) : config := (ap_front p, word (ap_stack p)).

Lemma ap_front_pfront : forall p, ap_front p = pfront (ap_end p) (ap_edges p).
Proof. intros [e [|[l s] es]]; auto. Qed.

Lemma pvalid_apath : forall E e es, pvalid E e es -> apath E (pfront e es) (word (map fst es)) e.
Proof.
  intros E e es. induction es as [|[l s] es IH]; cbn; intros H; [constructor|]. destruct H as [H1 H2]. destruct l as [l|]; cbn.
  - eapply ap_lab; eauto. - eapply ap_eps; eauto.
Qed.
Lemma pvalid_mono : forall (E E' : edgeset) e es, (forall x y z, E x y z -> E' x y z) -> pvalid E e es -> pvalid E' e es.
Proof. intros E E' e es H. induction es as [|[l s] es IH]; cbn; auto. intros [H1 H2]. auto. Qed.

(** ** Ages *)
Fixpoint age (es : list (edge * trace)) (e : edge) : nat :=
  match es with [] => 0 | x :: older => if edge_eqb (fst x) e then S (length older) else age older e end.

Lemma edge_eqb_refl : forall e, edge_eqb e e = true.
Proof. intros e. apply edge_eqb_eq; auto. Qed.

Lemma age_new : forall new e t older, NoDup (map fst (new ++ (e, t) :: older)) -> age (new ++ (e, t) :: older) e = S (length older).
Proof.
  induction new as [|x new IH]; intros e t older ND; cbn.
  - rewrite edge_eqb_refl; auto.
  - cbn in ND. inversion ND; subst. destruct (edge_eqb (fst x) e) eqn:E; [|apply IH; auto]. apply edge_eqb_eq in E. exfalso. apply H1.
    rewrite E, map_app. apply in_or_app. right. left. auto.
Qed.
Lemma age_le : forall es e, age es e <= length es.
Proof. induction es as [|x es IH]; intros e; cbn; auto. destruct (edge_eqb (fst x) e); auto. Qed.
Lemma age_old : forall new older e, NoDup (map fst (new ++ older)) -> In e (map fst older) -> age (new ++ older) e <= length older.
Proof.
  induction new as [|x new IH]; intros older e ND H; cbn.
  - apply age_le.
  - cbn in ND. inversion ND; subst. destruct (edge_eqb (fst x) e) eqn:E; [|apply IH; auto]. apply edge_eqb_eq in E. exfalso. apply H2.
    rewrite E, map_app. apply in_or_app. auto.
Qed.

Definition emeas (es : list (edge * trace)) (s : nat) (l : option nat) (t : nat) : nat := Nat.pow 3 (age es (mk_edge s l t)).
Fixpoint pmeas (es : list (edge * trace)) (e : nat) (p : list (option nat * nat)) : nat :=
  match p with [] => 0 | (l, s) :: p' => emeas es s l (pfront e p') + pmeas es e p' end.
Definition meas (A : aut) (p : apth nat) : nat := pmeas (a_edges A) (ap_end p) (ap_edges p).

Lemma pow3 : forall a b, a <= b -> Nat.pow 3 a <= Nat.pow 3 b.
Proof. intros; apply Nat.pow_le_mono_r; auto. Qed.

(** ** Annotations *)
Definition all_null (A : aut) : Prop := forall e t, In (e, t) (a_edges A) -> t = TNull.

Lemma find_edge_In : forall e es t, find_edge e es = Some t -> In (e, t) es.
Proof.
  intros e es. induction es as [|[e' t'] es IH]; cbn; intros t H; [discriminate|]. destruct (edge_eqb e' e) eqn:E; auto. apply edge_eqb_eq in E. left. congruence.
Qed.
Lemma find_edge_ex : forall e es, In e (map fst es) -> exists t, find_edge e es = Some t.
Proof.
  intros e es. induction es as [|[e' t'] es IH]; cbn; intros H; [tauto|]. destruct (edge_eqb e' e) eqn:E; eauto. destruct H as [H|H]; auto. subst. rewrite edge_eqb_refl in E. discriminate.
Qed.

Lemma wj_pre_find : forall P b es, wj_pre P b es -> forall e t, find_edge e es = Some t ->
  find_edge e b = Some t \/ exists new older, es = new ++ (e, t) :: older /\ justified_pre P older e t.
Proof.
  intros P b es H. induction H as [|older e' tr Hw IH HJ]; intros e t F; auto. cbn in F. destruct (edge_eqb e' e) eqn:E.
  - apply edge_eqb_eq in E. subst e'. right. exists [], older. inversion F; subst. auto.
  - destruct (IH e t F) as [K|[new [o [K1 K2]]]]; auto. right. exists ((e', tr) :: new), o. rewrite K1. auto.
Qed.
Lemma wj_post_find : forall P qp b es, wj_post P qp b es -> forall e t, find_edge e es = Some t ->
  find_edge e b = Some t \/ exists new older, es = new ++ (e, t) :: older /\ justified_post P qp older e t.
Proof.
  intros P qp b es H. induction H as [|older e' tr Hw IH HJ]; intros e t F; auto. cbn in F. destruct (edge_eqb e' e) eqn:E.
  - apply edge_eqb_eq in E. subst e'. right. exists [], older. inversion F; subst. auto.
  - destruct (IH e t F) as [K|[new [o [K1 K2]]]]; auto. right. exists ((e', tr) :: new), o. rewrite K1. auto.
Qed.

(** The specification-level rule of a reported rule. *)
Definition rs_srule (s : rstep) : option srule :=
  match rs_lab s with Some l => Some (mk_srule (rs_from s) l (r_to (rs_rule s)) (sop_of (rs_rule s))) | None => None end.
(** A reported rule is one of the PDA and turns [c] into [c']. *)
Definition rs_step (P : pda) (s : rstep) (c c' : config) : Prop := exists sr, rs_srule s = Some sr /\ pda_rules P sr /\ step_by sr c c'.

Lemma get_rule_pda : forall P p id r ls l, get_rule P p id = Some (r, ls) -> matches (pd_nlab P) ls l -> pda_rules P (mk_srule p l (r_to r) (sop_of r)).
Proof. intros P p id r ls l G M. apply pda_rules_at. exists r, ls. cbn. ands; auto. apply get_rule_at in G. eapply nth_error_In; eauto. Qed.

Section Pre.
  Variable P : pda.
  Hypothesis WP : wf_pda P.
  Let n := pd_n P.
  Variables A0 A : aut.
  Hypothesis OK : pre_ok P A0.
  Hypothesis NI : no_in P A0.
  Hypothesis NU : all_null A0.
  Hypothesis SD : pre_side P A0 A.
  Let E := aut_edges A.

  Lemma outer_orig : forall q l q', E q l q' -> n <= q -> aut_edges A0 q l q'.
  Proof.
    unfold E, aut_edges. generalize (ps_wj _ _ _ SD). generalize (a_edges A). intros es H. induction H as [|older e tr Hw IH HJ]; auto.
    intros q l q' [K|K] Hq; [|apply IH; auto]. cbn in K. subst e. destruct HJ as [id [tmp [r [ls [l' [_ [J2 _]]]]]]]. cbn in J2.
    destruct (get_rule_facts P WP _ _ _ _ J2) as [G1 _]. unfold n in Hq. lia.
  Qed.
  Lemma outer_valid : forall e es, pvalid E e es -> n <= pfront e es -> pvalid (aut_edges A0) e es.
  Proof.
    intros e es. induction es as [|[l s] es IH]; cbn; auto. intros [H1 H2] Hn. assert (K := outer_orig _ _ _ H1 Hn). split; auto.
    apply IH; auto. apply (NI _ _ _ K).
  Qed.

  (** One iteration: the end was reached in the original automaton, or one rule is undone. *)
  Lemma pre_body : forall p, valid E p -> ap_front p < n ->
    (tb_body P A p = Some TBNone /\ valid (aut_edges A0) p) \/
    (exists s p', tb_body P A p = Some (TBRule false s p') /\ valid E p' /\ ap_front p' < n /\ ap_end p' = ap_end p /\
       rs_step P s (pconf p) (pconf p') /\ meas A p' < meas A p).
  Proof.
    intros [e [|[l s] es]] HV Hn; unfold valid in HV; cbn in *.
    { left. auto. }
    destruct HV as [H1 H2]. unfold tb_body, ap_front_edge, ap_pop, ap_emplace, trace_label; cbn [ap_edges ap_end fst snd obind].
    fold (pfront e es). destruct (find_edge_ex _ _ H1) as [t Ht]. cbn [ap_front ap_edges] in *. unfold ap_front_edge. rewrite Ht. cbn [obind].
    destruct (wj_pre_find _ _ _ (ps_wj _ _ _ SD) _ _ Ht) as [K|[new [older [K1 K2]]]].
    - apply find_edge_In in K. assert (t = TNull) by (eapply NU; eauto). subst t. left. split; auto. unfold valid. cbn.
      apply (in_map fst) in K. cbn in K. split; auto. apply outer_valid; auto. apply (NI s l (pfront e es)). auto.
    - destruct K2 as [id [tmp [r [ls [l' [-> [J2 [J3 [J4 J5]]]]]]]]]. cbn in J2, J3, J5. subst l. rewrite J2. cbn [obind fst].
      destruct (get_rule_facts P WP _ _ _ _ J2) as [G1 [G2 G3]]. assert (HR := get_rule_pda _ _ _ _ _ _ J2 J4).
      assert (ND := ps_nd _ _ _ SD). rewrite K1 in ND. assert (AN := age_new _ _ _ _ ND).
      assert (EK: a_edges A = (new ++ [(mk_edge s (Some l') (pfront e es), TPre id tmp)]) ++ older) by (rewrite K1, <- app_assoc; auto).
      assert (IN: forall a b c, edges_of older a b c -> E a b c /\ age (a_edges A) (mk_edge a b c) <= length older).
      { intros a b c H. unfold edges_of in H. split.
        - unfold E, aut_edges, edges_of. rewrite EK, map_app. apply in_or_app. auto.
        - rewrite EK. apply age_old; auto. rewrite <- EK. apply SD. }
      rewrite <- K1 in AN. right.
      assert (FIN: forall p' o, sop_of r = o -> pconf p' = (r_to r, apply_op o l' (word (map fst es))) -> rs_step P (mk_rstep s (Some l') r) (s, l' :: word (map fst es)) (pconf p')).
      { intros p' o Ho Hp. eexists. split; [reflexivity|]. split; [exact HR|]. rewrite Hp, <- Ho. apply (step_by_intro (mk_srule s l' (r_to r) (sop_of r))). }
      unfold meas. cbn [ap_edges ap_end pmeas]. unfold emeas at 1. rewrite AN. pose proof (Nat.pow_nonzero 3 (length older)).
      destruct (r_op r) eqn:Er.
      + destruct J5 as [z [-> [J6 J7]]]. cbn [obind]. destruct (IN _ _ _ J6) as [I1 I2]. destruct (IN _ _ _ J7) as [I3 I4].
        eexists _, _. split; [reflexivity|]. ands; auto.
        * unfold valid; cbn; auto.
        * cbn. apply (FIN (mk_apth e ((Some (r_opl r), r_to r) :: (Some l', z) :: es)) (SPush (r_opl r))); auto. unfold sop_of; rewrite Er; auto.
        * cbn [ap_edges ap_end pmeas pfront]. unfold emeas. apply pow3 in I2, I4. cbn [Nat.pow]. lia.
      + destruct J5 as [-> J5]. eexists _, _. split; [reflexivity|]. ands; auto.
        * rewrite ap_front_pfront. cbn. rewrite J5. auto.
        * apply (FIN (mk_apth e es) SPop). { unfold sop_of; rewrite Er; auto. } unfold pconf. rewrite ap_front_pfront. cbn. rewrite J5; auto.
        * cbn [ap_edges ap_end Nat.pow]. lia.
      + destruct J5 as [-> J5]. destruct (IN _ _ _ J5) as [I1 I2]. eexists _, _. split; [reflexivity|]. ands; auto.
        * unfold valid; cbn; auto.
        * apply (FIN (mk_apth e ((Some (r_opl r), r_to r) :: es)) (SSwap (r_opl r))); auto. unfold sop_of; rewrite Er; auto.
        * cbn [ap_edges ap_end pmeas pfront]. unfold emeas. apply pow3 in I2. cbn [Nat.pow]. lia.
      + destruct J5 as [-> J5]. destruct (IN _ _ _ J5) as [I1 I2]. eexists _, _. split; [reflexivity|]. ands; auto.
        * unfold valid; cbn; auto.
        * apply (FIN (mk_apth e ((Some l', r_to r) :: es)) SNoop); auto. unfold sop_of; rewrite Er; auto.
        * cbn [ap_edges ap_end pmeas pfront]. unfold emeas. apply pow3 in I2. cbn [Nat.pow]. lia.
  Qed.
End Pre.

Section Post.
  Variable P : pda.
  Hypothesis WP : wf_pda P.
  Let n := pd_n P.
  Variables A0 A : aut.
  Hypothesis OK : post_ok P A0.
  Hypothesis NU : all_null A0.
  Hypothesis SD : post_side P A0 A.
  Let E := aut_edges A.
  Let nQ := a_size A0.
  Let qp := post_qp P A0.

  Lemma pqp_r : forall k v, qp k = Some v -> nQ <= v.
  Proof. intros k v H. apply qp_find_In in H. apply (qo_range _ _ (proj1 (qp_init_ok P A0))) in H. unfold nQ. lia. Qed.
  Lemma pqp_i : forall k1 k2 v, qp k1 = Some v -> qp k2 = Some v -> k1 = k2.
  Proof. intros k1 k2 v H1 H2. eapply qp_inj; eauto. apply qp_init_ok. Qed.

  (** Where the source of a new edge lies. *)
  Lemma just_src : forall older e tr, justified_post P qp older e tr -> (forall q q', edges_of older q None q' -> q < n) ->
    e_src e < n \/ nQ <= e_src e.
  Proof.
    intros older e tr [H|H] EP.
    - destruct H as [p [id [l [r [ls [q [-> [G [M [He J]]]]]]]]]]. destruct (get_rule_facts P WP _ _ _ _ G) as [G1 [G2 G3]]. fold n in G2.
      destruct (r_op r); try (subst e; cbn; auto; fail). destruct J as [qn [J1 [->|[-> J2]]]]; cbn; auto. apply pqp_r in J1. auto.
    - destruct H as [s [l [-> [H1 [H2 H3]]]]]. left. eauto.
  Qed.

  Lemma post_outer_orig : forall q l q', E q l q' -> n <= q < nQ -> aut_edges A0 q l q'.
  Proof.
    assert (EP: forall q q', edges_of (a_edges A) q None q' -> q < n). { intros q q' H. apply (qs_range _ _ _ SD) in H. destruct H as [_ [_ H]]. auto. }
    unfold E, aut_edges. revert EP. generalize (qs_wj _ _ _ SD). generalize (a_edges A). intros es H. induction H as [|older e tr Hw IH HJ]; auto.
    intros EP q l q' [K|K] Hq.
    - cbn in K. subst e. apply just_src in HJ; [cbn in HJ; lia|]. intros a a' Ha. eapply EP. right. eauto.
    - apply IH; auto. intros a a' Ha. eapply EP. right. eauto.
  Qed.
  Lemma post_outer_valid : forall e es, pvalid E e es -> n <= pfront e es < nQ -> pvalid (aut_edges A0) e es.
  Proof.
    intros e es. induction es as [|[l s] es IH]; cbn; auto. intros [H1 H2] Hn. assert (K := post_outer_orig _ _ _ H1 Hn). split; auto.
    apply IH; auto. destruct (qk_range _ _ OK _ _ _ K) as [_ [K2 _]]. auto.
  Qed.

  Lemma post_body : forall p, valid E p -> ap_front p < n -> ap_end p < nQ ->
    (tb_body P A p = Some TBNone /\ valid (aut_edges A0) p) \/
    (exists s p', tb_body P A p = Some (TBRule true s p') /\ valid E p' /\ ap_front p' < n /\ ap_end p' = ap_end p /\
       rs_step P s (pconf p') (pconf p) /\ meas A p' < meas A p) \/
    (exists p', tb_body P A p = Some (TBMore p') /\ valid E p' /\ ap_front p' < n /\ ap_end p' = ap_end p /\ pconf p' = pconf p /\ meas A p' < meas A p).
  Proof.
    intros [e [|[l s] es]] HV Hn Hend; unfold valid in HV; cbn in *.
    { left. auto. }
    destruct HV as [H1 H2]. unfold tb_body, ap_front_edge, ap_pop, ap_emplace, trace_label; cbn [ap_edges ap_end fst snd obind].
    fold (pfront e es). destruct (find_edge_ex _ _ H1) as [t Ht]. cbn [ap_front ap_edges] in *. unfold ap_front_edge. rewrite Ht. cbn [obind].
    assert (EP: forall q q', E q None q' -> q < n). { intros q q' H. apply (qs_range _ _ _ SD) in H. destruct H as [_ [_ H]]. auto. }
    assert (HP: n <= nQ) by apply OK.
    assert (FACT: forall e t, find_edge e (a_edges A) = Some t -> ~ (t = TNull /\ In e (map fst (a_edges A0))) ->
      exists older, justified_post P qp older e t /\ age (a_edges A) e = S (length older) /\
      (forall a b c, edges_of older a b c -> E a b c /\ age (a_edges A) (mk_edge a b c) <= length older)).
    { intros e0 t0 F0 N0. destruct (wj_post_find _ _ _ _ (qs_wj _ _ _ SD) _ _ F0) as [K|[new [older [K1 K2]]]].
      - exfalso. apply N0. apply find_edge_In in K. split; [eapply NU; eauto|]. apply (in_map fst) in K. auto.
      - exists older. assert (ND := qs_nd _ _ _ SD). split; auto. split. { rewrite K1 in *. apply age_new; auto. }
        assert (EK: a_edges A = (new ++ [(e0, t0)]) ++ older) by (rewrite K1, <- app_assoc; auto).
        intros a b c H. unfold edges_of in H. split.
        + unfold E, aut_edges, edges_of. rewrite EK, map_app. apply in_or_app. auto.
        + rewrite EK. apply age_old; auto. rewrite <- EK. auto. }
    unfold meas. cbn [ap_edges ap_end pmeas]. unfold emeas at 1 2.
    destruct (In_dec (fun a b => match Bool.bool_dec (edge_eqb a b) true with left h => left (proj1 (edge_eqb_eq a b) h) | right h => right (fun k => h (proj2 (edge_eqb_eq a b) k)) end)
       (mk_edge s l (pfront e es)) (map fst (a_edges A0))) as [K|K].
    - left. assert (T: t = TNull).
      { destruct (wj_post_find _ _ _ _ (qs_wj _ _ _ SD) _ _ Ht) as [K'|[new [older [K1 K2]]]]; [apply find_edge_In in K'; eapply NU; eauto|].
        exfalso. assert (ND := qs_nd _ _ _ SD). assert (WJ := qs_wj _ _ _ SD).
        assert (GG: forall b es0, wj_post P (post_qp P A0) b es0 -> forall new' older', es0 = new' ++ (mk_edge s l (pfront e es), t) :: older' -> NoDup (map fst es0) ->
             In (mk_edge s l (pfront e es)) (map fst b) -> ~ justified_post P qp older' (mk_edge s l (pfront e es)) t \/ exists o x, b = o ++ (mk_edge s l (pfront e es), t) :: x).
        { intros b es0 W0. induction W0 as [|o e' tr W0 IH HJ]; intros new' older' EQ ND' IN.
          - right. eauto.
          - destruct new' as [|x new']; cbn in EQ.
            + inversion EQ; subst. cbn in ND'. inversion ND'; subst. exfalso. apply H3. eapply wjp_incl; eauto.
            + inversion EQ; subst. inversion ND'; subst. eapply IH; eauto. }
        destruct (GG _ _ WJ _ _ K1 ND K) as [G|[o [x G]]]; [apply G; auto|]. assert (t = TNull). { eapply NU. rewrite G. apply in_or_app. right. left. eauto. }
        subst t. destruct K2 as [K2|K2]. { destruct K2 as [p [id [l0 [r [ls [q [K2 _]]]]]]]. discriminate. } destruct K2 as [z [l0 [K2 _]]]. discriminate. }
      subst t. split; auto. unfold valid. cbn. split; auto. apply post_outer_valid; auto. destruct (qk_range _ _ OK _ _ _ K) as [_ [K2 _]]. auto.
    - destruct (FACT _ _ Ht) as [older [HJ [AN IN]]]. { intros [_ K']. auto. }
      rewrite AN. pose proof (Nat.pow_nonzero 3 (length older)). right. destruct HJ as [HJ|HJ].
      + left. destruct HJ as [p [id [lab [r [ls [q [-> [G [M [He J]]]]]]]]]]. rewrite G. cbn [obind fst].
        destruct (get_rule_facts P WP _ _ _ _ G) as [G1 [G2 G3]]. assert (HR := get_rule_pda _ _ _ _ _ _ G M). destruct (IN _ _ _ He) as [I1 I2]. apply pow3 in I2.
        assert (ST: forall w, rs_step P (mk_rstep p (Some lab) r) (p, lab :: w) (r_to r, apply_op (sop_of r) lab w)).
        { intros w. eexists. split; [reflexivity|]. split; [exact HR|]. apply (step_by_intro (mk_srule p lab (r_to r) (sop_of r))). }
        unfold sop_of in ST. destruct (r_op r) eqn:Er.
        * destruct J as [qn [J1 [J|[J J2]]]]; inversion J; subst; [|apply pqp_r in J1; lia]. rewrite Nat.eqb_refl.
          destruct es as [|[l2 s2] es]; cbn in *. { exfalso. apply pqp_r in J1. subst. lia. }
          destruct H2 as [H2 H3]. destruct (find_edge_ex _ _ H2) as [t2 Ht2]. fold (pfront e es). rewrite Ht2. cbn [obind].
          destruct (FACT _ _ Ht2) as [older2 [HJ2 [AN2 IN2]]].
          { intros [_ K2]. destruct (qk_range _ _ OK _ _ _ K2) as [K3 _]. apply pqp_r in J1. unfold nQ in *. lia. }
          destruct HJ2 as [HJ2|HJ2].
          -- destruct HJ2 as [p2 [id2 [lab2 [r2 [ls2 [q2 [-> [G' [M' [He' J']]]]]]]]]].
             destruct (get_rule_facts P WP _ _ _ _ G') as [G1' [G2' G3']]. apply pqp_r in J1 as J1'.
             assert (B: r_op r2 = PUSH /\ r_to r2 = r_to r /\ r_opl r2 = r_opl r /\ l2 = Some lab2 /\ q2 = pfront e es).
             { unfold n in *. destruct (r_op r2); try (inversion J'; subst; lia). destruct J' as [qn2 [J3 [J4|[J4 J5]]]]; inversion J4; subst; [lia|].
               assert (KK := pqp_i _ _ _ J1 J3). inversion KK. auto. }
             destruct B as [B1 [B2 [B3 [-> ->]]]]. destruct (IN2 _ _ _ He') as [I1' I2']. apply pow3 in I2'.
             eexists _, _. split; [reflexivity|]. ands; auto.
             ++ unfold valid; cbn; auto.
             ++ unfold pconf. cbn. eexists. split; [reflexivity|]. split.
                ** assert (HR' := get_rule_pda _ _ _ _ _ _ G' M'). unfold sop_of in HR'. rewrite B1, B2, B3 in HR'. unfold sop_of. cbn. rewrite Er. exact HR'.
                ** cbn. unfold sop_of. rewrite Er. apply (step_by_intro (mk_srule p2 lab2 (r_to r) (SPush (r_opl r)))).
             ++ cbn [ap_edges ap_end pmeas pfront]. unfold emeas at 1 2. rewrite AN2. cbn [Nat.pow]. lia.
          -- exfalso. destruct HJ2 as [z [l0 [-> [H5 [H6 H7]]]]]. cbn in H6. apply IN2 in H6. destruct H6 as [H6 _]. apply EP in H6. apply pqp_r in J1. lia.
        * inversion J; subst. rewrite Nat.eqb_refl. eexists _, _. split; [reflexivity|]. ands; auto.
          -- unfold valid; cbn; auto.
          -- unfold pconf. cbn. apply ST.
          -- cbn [ap_edges ap_end pmeas pfront]. unfold emeas. cbn [Nat.pow]. lia.
        * inversion J; subst. rewrite Nat.eqb_refl. eexists _, _. split; [reflexivity|]. ands; auto.
          -- unfold valid; cbn; auto.
          -- unfold pconf. cbn. apply ST.
          -- cbn [ap_edges ap_end pmeas pfront]. unfold emeas. cbn [Nat.pow]. lia.
        * inversion J; subst. rewrite Nat.eqb_refl. eexists _, _. split; [reflexivity|]. ands; auto.
          -- unfold valid; cbn; auto.
          -- unfold pconf. cbn. apply ST.
          -- cbn [ap_edges ap_end pmeas pfront]. unfold emeas. cbn [Nat.pow]. lia.
      + right. destruct HJ as [z [l0 [-> [H3 [H4 H5]]]]]. cbn in H3, H4, H5. subst l. destruct (IN _ _ _ H4) as [I1 I2]. destruct (IN _ _ _ H5) as [I3 I4]. apply pow3 in I2, I4.
        eexists. split; [reflexivity|]. ands; auto.
        * unfold valid; cbn; auto.
        * cbn [ap_edges ap_end pmeas pfront]. unfold emeas. cbn [Nat.pow]. lia.
  Qed.
End Post.

(** ** Whole runs of TraceBack *)
Section Run.
  Variable P : pda.
  Variable A : aut.
  Variable b : bool.
  Variables Inv Fin : apth nat -> Prop.

  (** In pre* (b = false) the rule leads from the old path to the new one, in post* the other way round. *)
  Definition dstep (s : rstep) (c c' : config) : Prop := if b then rs_step P s c' c else rs_step P s c c'.

  Hypothesis body : forall p, Inv p ->
    (tb_body P A p = Some TBNone /\ Fin p) \/
    (exists s p', tb_body P A p = Some (TBRule b s p') /\ Inv p' /\ ap_end p' = ap_end p /\ dstep s (pconf p) (pconf p') /\ meas A p' < meas A p) \/
    (exists p', tb_body P A p = Some (TBMore p') /\ Inv p' /\ ap_end p' = ap_end p /\ pconf p' = pconf p /\ meas A p' < meas A p).

  Fixpoint chain (c : config) (steps : list (rstep * apth nat)) (c' : config) : Prop :=
    match steps with [] => c = c' | (s, p1) :: steps' => dstep s c (pconf p1) /\ Inv p1 /\ chain (pconf p1) steps' c' end.

  Lemma next_spec : forall fuel p, Inv p ->
    (tb_next P A fuel p = Some None /\ fuel <= meas A p) \/
    (exists p', tb_next P A fuel p = done (None, p') /\ Inv p' /\ Fin p' /\ ap_end p' = ap_end p /\ pconf p' = pconf p) \/
    (exists s p', tb_next P A fuel p = done (Some (b, s), p') /\ Inv p' /\ ap_end p' = ap_end p /\ dstep s (pconf p) (pconf p') /\ meas A p' < meas A p).
  Proof.
    induction fuel as [|f IH]; intros p HI; cbn [tb_next]; [left; split; auto; lia|].
    destruct (body p HI) as [[E1 E2]|[[s [p' [E1 [E2 [E3 [E4 E5]]]]]]|[p' [E1 [E2 [E3 [E4 E5]]]]]]]; rewrite E1; cbn [obind].
    - right; left. exists p. auto.
    - right; right. exists s, p'. auto.
    - destruct (IH p' E2) as [[K1 K2]|[[p2 [K1 [K2 [K3 [K4 K5]]]]]|[s [p2 [K1 [K2 [K3 [K4 K5]]]]]]]].
      + left. split; auto. lia.
      + right; left. exists p2. ands; auto; congruence.
      + right; right. exists s, p2. rewrite E4 in K4. ands; auto; try congruence; lia.
  Qed.

  Lemma run_spec : forall fuel p post acc, Inv p ->
    (tb_run P A fuel p post acc = Some None /\ fuel <= meas A p) \/
    exists steps p', tb_run P A fuel p post acc = done (acc ++ steps, p', post || (b && negb (is_nil steps))) /\
      Inv p' /\ Fin p' /\ ap_end p' = ap_end p /\ chain (pconf p) steps (pconf p').
  Proof.
    induction fuel as [|f IH]; intros p post acc HI; [left; split; auto; lia|]. cbn [tb_run].
    destruct (next_spec (S f) p HI) as [[K1 K2]|[[p' [K1 [K2 [K3 [K4 K5]]]]]|[s [p' [K1 [K2 [K3 [K4 K5]]]]]]]]; rewrite K1.
    - auto.
    - right. exists [], p'. cbn. rewrite app_nil_r, andb_false_r, orb_false_r. ands; auto.
    - cbv beta iota delta [done]. destruct (IH p' (post || b) (acc ++ [(s, p')]) K2) as [[H1 H2]|[steps [p2 [H1 [H2 [H3 [H4 H5]]]]]]].
      + left. split; auto. lia.
      + right. exists ((s, p') :: steps), p2. ands; auto; try congruence.
        * rewrite H1, <- app_assoc. cbn. rewrite andb_true_r. f_equal. f_equal. f_equal. destruct post, b; cbn; auto.
        * cbn. auto.
  Qed.
End Run.

(** Chains as runs. *)
Lemma is_run_app : forall R cs c, cs <> [] -> is_run R cs -> step R (last cs c) c -> is_run R (cs ++ [c]).
Proof.
  intros R cs c. induction cs as [|a cs IH]; [congruence|]. intros _ H HS. destruct cs as [|a' cs]; cbn in *; auto. destruct H as [H1 H2]. split; auto. apply IH; auto; congruence.
Qed.
Lemma rs_step_step : forall P s c c', rs_step P s c c' -> step (pda_rules P) c c'.
Proof. intros P s c c' [sr [H1 [H2 H3]]]. exists sr; auto. Qed.

Lemma chain_pre_run : forall P Inv c steps c', chain P false Inv c steps c' ->
  is_run (pda_rules P) (c :: map (fun x => pconf (snd x)) steps) /\ last (c :: map (fun x => pconf (snd x)) steps) c = c'.
Proof.
  intros P Inv c steps. revert c. induction steps as [|[s p] steps IH]; intros c c' H; cbn in *; auto. destruct H as [H1 [H2 H3]].
  destruct (IH _ _ H3) as [I1 I2]. split; [split|].
  - eapply rs_step_step; eauto.
  - apply I1.
  - rewrite <- I2. cbn. destruct steps; auto. cbn. clear. generalize (pconf (snd p0)). generalize (map (fun x : rstep * apth nat => pconf (snd x)) steps). 
    induction l; intros; auto. cbn. destruct l; auto. 
Qed.
Lemma chain_post_run : forall P Inv c steps c', chain P true Inv c steps c' ->
  is_run (pda_rules P) (rev (c :: map (fun x => pconf (snd x)) steps)) /\ hd c (rev (c :: map (fun x => pconf (snd x)) steps)) = c'.
Proof.
  intros P Inv c steps. revert c. induction steps as [|[s p] steps IH]; intros c c' H; cbn [map snd chain] in *; [cbn; auto|]. destruct H as [H1 [H2 H3]].
  destruct (IH _ _ H3) as [I1 I2]. change (rev (c :: pconf p :: map (fun x => pconf (snd x)) steps)) with (rev (pconf p :: map (fun x => pconf (snd x)) steps) ++ [c]).
  assert (NE: rev (pconf p :: map (fun x => pconf (snd x)) steps) <> []) by (cbn; intros K; apply app_eq_nil in K; destruct K; discriminate). split.
  - apply is_run_app; auto. cbn. rewrite last_last. eapply rs_step_step; eauto.
  - destruct (rev (pconf p :: map (fun x => pconf (snd x)) steps)) as [|y ys] eqn:Er; [congruence|]. cbn in *. auto.
Qed.
