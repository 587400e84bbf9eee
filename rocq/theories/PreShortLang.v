(** The language and the weights of the automaton that the shortest pre* saturation ends with. *)
From Coq Require Import List Arith Lia Bool ZArith Permutation Sorted.
From Verif Require Import Base BaseFacts Spec SpecFacts PdaModel PdaProof AutModel AutProof PreStarModel PreStarProof PreStarLang
  PostStarModel SolverModel QueryModel ProductModel UtilModel UtilProof ShortSpec ShortModel PostShortProof PreShortModel PreShortProof.
Import ListNotations.
Local Open Scope Z_scope.

Definition kwedge (A : waut) : nat -> option nat -> nat -> Z := fun x y z => w_of A (mk_edge x y z).

Section PreShortLang.
  Variable P : pda.
  Hypothesis WP : wf_pda P.
  Variable X : Type.
  Variable A0 : waut.
  Let n := pd_n P.
  Let Rw := pda_wrules P.
  Let E0 := map fst (a_edges (wa_aut A0)).
  Hypothesis HnN : (n <= a_size (wa_aut A0))%nat.
  Hypothesis HO : wf_ord (wa_aut A0).
  Hypothesis NN : forall p id r ls, get_rule P p id = Some (r, ls) -> 0 <= r_w r.
  Hypothesis NI : no_in P (wa_aut A0).

  (** *** Soundness *)
  Definition WDest (q : nat) (c : config) (v : Z) : Prop :=
    if Nat.ltb q n then wreach Rw c v (q, [])
    else exists p' w', (p' < n)%nat /\ wreach Rw c v (p', w') /\ apath (aut_edges (wa_aut A0)) p' w' q.

  Lemma wrule_step : forall p id r ls l w, get_rule P p id = Some (r, ls) -> matches (pd_nlab P) ls l ->
    exists sr, Rw sr (r_w r) /\ step_by sr (p, l :: w) (r_to r, apply_op (sop_of r) l w).
  Proof.
    intros p id r ls l w G M. exists (mk_srule p l (r_to r) (sop_of r)). split.
    - apply pda_wrules_at. exists r, ls. cbn. ands; auto. apply get_rule_at in G. eapply nth_error_In; eauto.
    - apply (step_by_intro (mk_srule p l (r_to r) (sop_of r))).
  Qed.
  Lemma WDest_rule : forall q p id r ls l v, get_rule P p id = Some (r, ls) -> matches (pd_nlab P) ls l ->
    WDest q (r_to r, apply_op (sop_of r) l []) v -> WDest q (p, [l]) (r_w r + v).
  Proof.
    intros q p id r ls l v G M H. destruct (wrule_step p id r ls l [] G M) as (sr & S1 & S2). unfold WDest in *. destruct (Nat.ltb q n).
    - eapply wr_step; eauto.
    - destruct H as (p' & w' & H1 & H2 & H3). exists p', w'. ands; auto. eapply wr_step; eauto.
  Qed.
  Lemma WDest_app : forall q1 q c v1 v2 w, WDest q1 c v1 ->
    ((q1 < n)%nat -> WDest q (q1, w) v2) -> ((n <= q1)%nat -> v2 = 0 /\ (n <= q)%nat /\ apath (aut_edges (wa_aut A0)) q1 w q) ->
    WDest q (fst c, snd c ++ w) (v1 + v2).
  Proof.
    intros q1 q [p u] v1 v2 w H1 H2 H3. cbn [fst snd]. unfold WDest in H1. destruct (Nat.ltb_spec q1 n) as [L|L].
    - specialize (H2 L). unfold WDest in *. apply (wreach_ctx _ _ _ _ _ _ w) in H1. cbn [app] in H1. destruct (Nat.ltb q n).
      + eapply wreach_trans; eauto.
      + destruct H2 as (p' & w' & K1 & K2 & K3). exists p', w'. ands; auto. eapply wreach_trans; eauto.
    - destruct (H3 L) as (-> & K1 & K2). rewrite Z.add_0_r. destruct H1 as (p' & w' & Q1 & Q2 & Q3).
      unfold WDest. destruct (Nat.ltb_spec q n); [lia|]. exists p', (w' ++ w). ands; auto; [apply wreach_ctx; auto|]. eapply apath_app; eauto.
  Qed.
  Lemma deriv_sound : forall e w, kderiv P E0 e w -> (forall x, In x E0 -> exists l, e_lab x = Some l) ->
    exists l, e_lab e = Some l /\ ((e_src e < n)%nat -> WDest (e_dst e) (e_src e, [l]) w) /\ ((n <= e_src e)%nat -> In e E0 /\ w = 0).
  Proof.
    intros e w H HL. induction H as [e He|p id r ls l G Ho M|p id r ls l q w G Ho M Hd IH|p id r ls l q w G Ho M Hd IH|p id r ls l s q w1 w2 G Ho M Hd1 IH1 Hd2 IH2];
      [|destruct (get_rule_facts P WP _ _ _ _ G) as [G1 [G2 G3]]; exists l; ands; auto; cbn [e_src e_dst]; [intros _|intros H; fold n in G1; lia]..].
    - destruct (HL e He) as [l El]. exists l. ands; auto. intros Hs. unfold WDest. destruct e as [a l' c]. cbn [e_src e_dst e_lab] in *. subst l'.
      assert (K := NI a (Some l) c He). destruct (Nat.ltb_spec c n); [fold n in K; lia|]. exists a, [l]. ands; auto; [constructor|]. eapply ap_lab; [exact He|]. constructor.
    - rewrite <- (Z.add_0_r (r_w r)). eapply WDest_rule; eauto. unfold sop_of. rewrite Ho. cbn. unfold WDest. fold n in G2. apply Nat.ltb_lt in G2. rewrite G2. constructor.
    - destruct IH as (l' & E1 & I1 & _). cbn [e_lab e_src e_dst] in *. injection E1 as <-. rewrite Z.add_comm. eapply WDest_rule; eauto. unfold sop_of. rewrite Ho. cbn. auto.
    - destruct IH as (l' & E1 & I1 & _). cbn [e_lab e_src e_dst] in *. injection E1 as <-. rewrite Z.add_comm. eapply WDest_rule; eauto. unfold sop_of. rewrite Ho. cbn. auto.
    - destruct IH1 as (l1 & E1 & I1 & _). destruct IH2 as (l2 & E2 & I2 & I3). cbn [e_lab e_src e_dst] in *. injection E1 as <-. injection E2 as <-.
      replace (r_w r + w1 + w2) with (r_w r + (w1 + w2)) by lia. eapply WDest_rule; eauto. unfold sop_of. rewrite Ho. cbn.
      apply (WDest_app s q (r_to r, [r_opl r]) w1 w2 [l]); auto. intros L. destruct (I3 L) as [J1 J2]. ands; auto.
      + apply (NI s (Some l) q). exact J1.
      + eapply ap_lab; [exact J1|constructor].
  Qed.

  Variable C : edge -> Prop.
  Variable k : Z.
  Variable st : pk_st X.
  Hypothesis KI : kinv P X A0 C k st.
  Let A := k_aut st.
  Let EA := aut_edges (wa_aut A).

  Let B := co_base _ _ _ _ _ _ _ (ki_core _ _ _ _ _ _ KI).
  Lemma kl_lab : forall x, In x E0 -> exists l, e_lab x = Some l.
  Proof. intros x H. destruct (kb_range _ _ _ _ B x (proj1 (kb_E0 _ _ _ _ B x H))) as [_ [_ [l [H1 _]]]]. eauto. Qed.
  Lemma kl_edge : forall a l c, EA a l c -> exists x, l = Some x /\ ((a < n)%nat -> WDest c (a, [x]) (kwedge A a l c)) /\
    ((n <= a)%nat -> (n <= c)%nat /\ aut_edges (wa_aut A0) a l c /\ kwedge A a l c = 0).
  Proof.
    intros a l c H. assert (D := kb_der _ _ _ _ B (mk_edge a l c) H). destruct (deriv_sound _ _ D kl_lab) as (x & E1 & E2 & E3). cbn [e_lab e_src e_dst] in *.
    exists x. ands; auto. intros L. destruct (E3 L) as [J1 J2]. ands; auto. apply (NI a l c). exact J1.
  Qed.
  Lemma kl_outer : forall q w v f, wpath EA (kwedge A) q w v f -> (n <= q)%nat -> v = 0 /\ (n <= f)%nat /\ apath (aut_edges (wa_aut A0)) q w f.
  Proof.
    intros q w v f H. induction H as [q|q l q1 w v f He Hp IH]; intros L; [ands; auto; constructor|].
    destruct (kl_edge _ _ _ He) as (x & -> & _ & K). destruct (K L) as (K1 & K2 & K3). destruct (IH K1) as (-> & J2 & J3). rewrite K3. ands; auto. eapply ap_lab; eauto.
  Qed.
  Lemma kl_path : forall p w v f, wpath EA (kwedge A) p w v f -> (p < n)%nat -> WDest f (p, w) v.
  Proof.
    intros p w v f H. induction H as [p|p l q1 w v f He Hp IH]; intros L.
    - unfold WDest. apply Nat.ltb_lt in L. rewrite L. constructor.
    - destruct (kl_edge _ _ _ He) as (x & -> & K & _). specialize (K L). apply (WDest_app q1 f (p, [x]) _ v w K); auto.
      intros L1. apply (kl_outer _ _ _ _ Hp); auto.
  Qed.
  Theorem kl_sound : forall p w v f, (p < n)%nat -> wpath EA (kwedge A) p w v f -> aut_final (wa_aut A) f ->
    run_weight Rw (eq (p, w)) (aut_lang n (wa_aut A0)) v.
  Proof.
    intros p w v f Hp Hw Hf. assert (D := kl_path _ _ _ _ Hw Hp). unfold WDest in D. unfold aut_final in Hf. unfold A in Hf. rewrite (kb_acc _ _ _ _ B) in Hf.
    exists (p, w). destruct (Nat.ltb_spec f n) as [L|L].
    - exists (f, []). ands; auto. split; auto. exists f. split; auto. constructor.
    - destruct D as (p' & w' & D1 & D2 & D3). exists (p', w'). ands; auto. split; auto. exists f. split; auto.
  Qed.

  (** *** Completeness *)
  Hypothesis WS : k_ws st = [].
  Lemma kl_C : forall a l c, EA a l c -> C (mk_edge a l c).
  Proof.
    intros a l c H. destruct (co_pend _ _ _ _ _ _ _ (ki_core _ _ _ _ _ _ KI) _ H) as [(t & m & _ & K)|K]; auto. rewrite WS in K. destruct K.
  Qed.
  Lemma kl_step : forall c c' sr rw, Rw sr rw -> step_by sr c c' -> forall f v, (fst c' < n)%nat -> wpath EA (kwedge A) (fst c') (snd c') v f -> aut_final (wa_aut A) f ->
    (fst c < n)%nat /\ exists v', wpath EA (kwedge A) (fst c) (snd c) v' f /\ v' <= rw + v.
  Proof.
    intros c c' sr rw HR HS f v Hn Hp Hf. inversion HS as [w Ec Ec']; subst c c'. cbn [fst snd] in *.
    apply pda_wrules_at in HR. destruct HR as (r & ls & Hin & Hm & Eto & Eop & ->).
    assert (Hp0 := In_rules_lt _ _ _ Hin). destruct (In_nth_error _ _ Hin) as [id Hid]. split; auto.
    assert (V : In (id, (r, ls)) (visited (rules_at P (s_from sr)) (s_to sr))) by (apply visited_complete; auto; apply (LK P NN)).
    assert (G : get_rule P (s_from sr) id = Some (r, ls)) by (apply get_rule_at; auto).
    assert (Wl : wf_labels (pd_nlab P) ls) by (eapply (wf'_labs _ (wf_wf_pda' _ WP)); eauto).
    assert (CT : contains_lab ls (Some (s_pre sr)) = true) by (eapply contains_spec; eauto; eapply matches_lt; eauto).
    assert (CONS : forall q v1 v2, cov X st (mk_edge (s_from sr) (Some (s_pre sr)) q) v1 -> wpath EA (kwedge A) q w v2 f ->
      exists v', wpath EA (kwedge A) (s_from sr) (s_pre sr :: w) v' f /\ v' <= v1 + v2).
    { intros q v1 v2 [K1 K2] Hw. exists (kwedge A (s_from sr) (Some (s_pre sr)) q + v2). split; [apply (wp_cons _ _ (s_from sr) (Some (s_pre sr)) q w v2 f); auto|].
      unfold kwedge. unfold kW in K2. fold A in K2. lia. }
    assert (DONE : forall l c, EA (s_to sr) l c -> krule_done P X st (mk_edge (s_to sr) l c) (kwedge A (s_to sr) l c) (s_from sr) id r ls).
    { intros l c H. apply (ki_rules _ _ _ _ _ _ KI); auto. apply kl_C; auto. }
    assert (INV : forall q l u v, wpath EA (kwedge A) q (l :: u) v f -> exists c v2, EA q (Some l) c /\ wpath EA (kwedge A) c u v2 f /\ v = kwedge A q (Some l) c + v2).
    { intros q l u v0 H. inversion H as [|q0 l0 c0 w0 v2 q2 H1 H2 E1 E2 E3 E4]; subst.
      destruct (kl_edge _ _ _ H1) as (x & -> & _). injection E2 as -> ->. exists c0, v2. ands; auto. }
    rewrite Eop in Hp. unfold sop_of in Hp. destruct (r_op r) eqn:Er; cbn [apply_op] in Hp.
    - destruct (INV _ _ _ _ Hp) as (s & v1 & H1 & H2 & ->). destruct (INV _ _ _ _ H2) as (q & v2 & H3 & H4 & ->).
      assert (D := DONE _ _ H1). unfold krule_done in D. rewrite Er in D. cbn [e_lab e_dst] in D. specialize (D eq_refl).
      assert (K := ki_delta _ _ _ _ _ _ KI s (s_from sr) id r ls (mk_edge s (Some (s_pre sr)) q) D G). cbn [e_src e_lab e_dst] in K.
      rewrite <- Eto in K. specialize (K (kl_C _ _ _ H1) (kl_C _ _ _ H3) eq_refl). assert (K' := K CT).
      destruct (CONS _ _ _ K' H4) as (v' & J1 & J2). exists v'. split; auto. unfold kwedge in *. unfold kW in J2. fold A in J2. lia.
    - inversion Hp as [q0 E1 E2 E3|q0 l0 c0 w0 v2 q2 H1 H2 E1 E2 E3 E4]; subst.
      + assert (K := ki_popped _ _ _ _ _ _ KI (s_to sr) (s_from sr) id r ls (s_pre sr)). destruct (CONS (s_to sr) (r_w r) 0) as (v' & J1 & J2).
        * apply K; auto. apply (ki_acc _ _ _ _ _ _ KI); auto. unfold aut_final, A in Hf. rewrite (kb_acc _ _ _ _ B) in Hf. exact Hf.
        * constructor.
        * exists v'. auto.
      + assert (D := DONE _ _ H1). unfold krule_done in D. rewrite Er in D. cbn [e_src] in D.
        destruct (CONS (s_to sr) (r_w r) (kwedge A (s_to sr) l0 c0 + v2)) as (v' & J1 & J2); auto. exists v'. auto.
    - destruct (INV _ _ _ _ Hp) as (s & v1 & H1 & H2 & ->).
      assert (D := DONE _ _ H1). unfold krule_done in D. rewrite Er in D. cbn [e_lab e_dst] in D. specialize (D eq_refl (s_pre sr) Hm).
      destruct (CONS _ _ _ D H2) as (v' & J1 & J2). exists v'. split; auto. lia.
    - destruct (INV _ _ _ _ Hp) as (s & v1 & H1 & H2 & ->).
      assert (D := DONE _ _ H1). unfold krule_done in D. rewrite Er in D. cbn [e_lab e_dst] in D.
      destruct (CONS _ _ _ (D CT) H2) as (v' & J1 & J2). exists v'. split; auto. lia.
  Qed.
  Lemma kl_init : forall q w f, apath (aut_edges (wa_aut A0)) q w f -> wpath EA (kwedge A) q w 0 f.
  Proof.
    intros q w f H. assert (K0 : forall a l c, aut_edges (wa_aut A0) a l c -> EA a l c /\ kwedge A a l c = 0) by (intros a l c H'; exact (kb_E0 _ _ _ _ B (mk_edge a l c) H')).
    induction H as [q|q l q1 w f He Hp IH|q q1 w f He Hp IH]; [constructor|..]; destruct (K0 _ _ _ He) as [H1 H2].
    - rewrite <- (Z.add_0_r 0). rewrite <- H2 at 1. apply (wp_cons _ _ q (Some l) q1 w 0 f); auto.
    - rewrite <- (Z.add_0_r 0). rewrite <- H2 at 1. apply (wp_cons _ _ q None q1 w 0 f); auto.
  Qed.
  Theorem kl_complete : forall c v, run_weight Rw (eq c) (aut_lang n (wa_aut A0)) v ->
    exists f v', wpath EA (kwedge A) (fst c) (snd c) v' f /\ aut_final (wa_aut A) f /\ v' <= v.
  Proof.
    intros c v (c1 & c2 & <- & [Hn (f & Hp & Hf)] & HR).
    assert (K : (fst c < n)%nat /\ exists v', wpath EA (kwedge A) (fst c) (snd c) v' f /\ v' <= v).
    { assert (Hf' : aut_final (wa_aut A) f) by (unfold aut_final, A; rewrite (kb_acc _ _ _ _ B); auto).
      induction HR as [c|c r w c2 v c3 Hr Hs HR IH].
      - split; auto. exists 0. split; [apply kl_init; auto|lia].
      - destruct (IH Hn Hp) as (I1 & v' & I2 & I3). destruct (kl_step _ _ _ _ Hr Hs f v' I1 I2 Hf') as (J1 & v2 & J2 & J3). split; auto. exists v2. split; auto. lia. }
    destruct K as (_ & v' & K1 & K2). exists f, v'. ands; auto. unfold aut_final, A. rewrite (kb_acc _ _ _ _ B). auto.
  Qed.
End PreShortLang.
