(** The fixed-point saturation of post*: initialisation, the two phases of the workset, and what the result says. *)
From Coq Require Import List Arith Lia Bool ZArith Permutation.
From Verif Require Import Base BaseFacts Spec SpecFacts PdaModel PdaProof AutModel AutProof PreStarModel PreStarProof PreStarLang
  PostStarModel PostStarProof PostStarLang SolverModel ProductModel UtilModel ShortSpec ShortModel PostShortProof FixSpec FixModel FixPre1 FixPre2 FixPost1.
Import ListNotations.

Lemma ofold_sim : forall S T A (f : S -> A -> option S) (g : T -> A -> option T) (R : S -> T -> Prop) (l : list A),
  (forall a s t s', R s t -> f s a = Some s' -> exists t', g t a = Some t' /\ R s' t') ->
  forall s t s', R s t -> ofold f l s = Some s' -> exists t', ofold g l t = Some t' /\ R s' t'.
Proof.
  intros S T A f g R l H. induction l as [|a l IH]; intros s t s' HR E; cbn in E |- *; [injection E as <-; eauto|].
  destruct (f s a) as [s1|] eqn:E1; [|discriminate]. cbn in E. destruct (H a s t s1 HR E1) as (t1 & G1 & R1). rewrite G1. cbn. eauto.
Qed.

Definition emp (l : list edge) : Prop := forall e, ~ In e l.

Section Run.
  Variable P : pda.
  Hypothesis WP : wf_pda P.
  Variable mx : bool.
  Variable A0f : faut.
  Let A0 := fa_aut A0f.
  Hypothesis OK : post_ok P A0.
  Hypothesis Z0 : forall e, In e (map fst (a_edges A0)) -> fa_weight A0f e = Some 0%Z.
  Hypothesis T0 : forall e, In e (map fst (a_edges A0)) -> fa_trace2 A0f e = TNull.
  Let n := pd_n P.
  Let nQ := a_size A0.
  Let A0w := mk_waut A0 [].
  Notation yst := (fwst yd edge).

  Record BI (st : yst) (U : list edge) : Prop := {
    b_k : KI P A0 (fw_d st) U None None;
    b_w : WI P A0 (fw_d st);
    b_lim : fw_limit st = y_count (fw_d st);
    b_r2 : forall f s, In (mk_edge f None s) (YS (fw_d st)) -> nQ <= s -> In (s, f) (y_rel2 (fw_d st)) }.

  Lemma step_outer : forall b st t st' k U, BI st U -> y_step_with P mx b st t = Some (st', k) -> k = true /\ exists U', BI st' U' /\ yshift st st' /\
    y_count (fw_d st) <= y_count (fw_d st') /\ (forall e, In e U' -> (In e U /\ e <> t) \/ In e (fw_next st')) /\
    (y_count (fw_d st') = y_count (fw_d st) -> forall e, In e U' -> In e U /\ e <> t) /\ (b = true -> y_count (fw_d st') = y_count (fw_d st)).
  Proof.
    intros b st t st' k U0 [K W L R2] H.
    set (B := remove edge_eq_dec t U0). set (old := YS (fw_d st)). set (c0 := y_count (fw_d st)).
    assert (NL : newlow P old (fw_d st) = []).
    { destruct (newlow P old (fw_d st)) as [|e l] eqn:E; auto. exfalso. assert (He : In e (newlow P old (fw_d st))) by (rewrite E; left; auto). apply (newlow_In P A0) in He. unfold old in He. tauto. }
    assert (S : SI P A0 b B old c0 (Some t) None st).
    { constructor; auto; try (unfold c0; lia).
      - unfold FixPost1.U. rewrite NL, app_nil_r. destruct K as [K0 K1 K2 K3].
        assert (RM : forall e, In e U0 -> In e B \/ e = t) by (intros e He; destruct (edge_eq_dec e t); auto; left; apply in_in_remove; auto).
        constructor; auto.
        + destruct K0. constructor; auto. intros e He. apply in_remove in He. apply c_ws. apply He.
        + intros f s Hf. destruct (K2 f s Hf) as [X|[X|X]]; auto; [|discriminate]. destruct (RM _ X) as [Y|Y]; auto. right; left. congruence.
        + intros p l q Hp Hf. destruct (K3 p l q Hp Hf) as [X|[X|X]]; auto; [|discriminate]. destruct (RM _ X) as [Y|Y]; auto. right; left. congruence.
      - rewrite NL. intros e [].
      - intros e He; auto. }
    destruct (step_body P WP mx A0 OK b B old c0 t st st' k S H) as (K1 & S1 & L1 & _). split; auto.
    exists (FixPost1.U P B old (fw_d st')). destruct S1 as [k1 w1 nx oi rf l1 c1 e1 b1]. ands; auto.
    - constructor; auto.
    - intros e He. apply in_app_or in He. destruct He as [He|He]; auto. apply in_remove in He. auto.
    - intros Hc e He. apply in_app_or in He. destruct He as [He|He]; [apply in_remove in He; auto|]. apply (newlow_In P A0) in He. rewrite (e1 Hc) in He. tauto.
  Qed.

  (** ** First phase *)
  Definition J1 (st : yst) : Prop := fw_rounds st <= fw_limit st /\ exists U, BI st U /\ (fw_done st = true -> emp U) /\ (forall e, In e U -> In e (fw_ws st) \/ In e (fw_next st)) /\
    (fw_limit st <= 1 -> emp U \/ (fw_limit st = 1 /\ fw_rounds st = 0 /\ fw_ws st = [] /\ exists e, fw_next st = [e])).
  Definition F1 (st : yst) : Prop := exists U, BI st U /\ (fw_done st = true -> emp U) /\ (forall e, In e U -> In e (fw_ws st) \/ In e (fw_next st)) /\ (fw_limit st <= 1 -> emp U).

  Lemma BI_fields : forall st st' U, BI st U -> fw_limit st' = fw_limit st -> fw_d st' = fw_d st -> BI st' U.
  Proof. intros st st' U [K W L R2] H1 H2. constructor; rewrite ?H1, ?H2; auto. Qed.

  Lemma go1 : forall st st' U, BI st U -> fw_done st = false -> 1 <= fw_limit st -> fw_rounds st <= fw_limit st -> (forall e, In e U -> In e (fw_ws st) \/ In e (fw_next st)) ->
    (fw_limit st <= 1 -> emp U \/ exists e, fw_ws st = [e] /\ fw_next st = []) ->
    fw_go yd edge (y_step_with P mx) false st = Some st' -> J1 st'.
  Proof.
    intros st st' U HB HD HL HR HU H1 E. unfold fw_go in E. destruct (fw_ws st) as [|c ws] eqn:EW; [discriminate|].
    destruct (y_step_with P mx false _ c) as [[s k]|] eqn:ES; [|discriminate]. cbn [obind fst snd] in E.
    apply (step_outer _ _ _ _ _ U) in ES; [|eapply BI_fields; eauto]. cbn [fw_d] in ES. destruct ES as (-> & U' & B' & (S1 & S2 & S3 & S4) & C1 & C2 & C3 & _). injection E as <-. cbn [fw_ws fw_rounds fw_done fw_next] in *.
    assert (L1 := b_lim _ _ HB). assert (L2 := b_lim _ _ B'). split; [lia|]. exists U'. ands; auto.
    - intros D. congruence.
    - intros e He. rewrite S1. destruct (C2 e He) as [[X Y]|X]; auto. destruct (HU e X) as [[Z|Z]|Z]; auto. congruence.
    - intros L. left. intros e He. destruct (C3 ltac:(lia) e He) as [X Y]. destruct H1 as [H1|(e1 & H1 & H2)]; [lia|eapply H1; eauto|].
      injection H1 as -> ->. rewrite H2 in HU. destruct (HU e X) as [[Z|[]]|[]]. congruence.
  Qed.

  Lemma step1 : forall st st', J1 st -> fw_is_done yd edge st = false -> fw_step yd edge sort_edges (y_step_with P mx) false st = Some st' -> J1 st'.
  Proof.
    intros st st' (HR & U & HB & HD & HU & H1) ND E. unfold fw_is_done in ND. apply orb_false_iff in ND. destruct ND as [D0 NR]. apply Nat.eqb_neq in NR.
    unfold fw_step in E. destruct (fw_ws st) as [|c ws] eqn:EW.
    - destruct (fw_next st) as [|a nx] eqn:EN.
      + injection E as <-. split; [cbn; lia|]. exists U. cbn [fw_done fw_ws fw_next fw_limit fw_rounds].
        assert (EU : emp U) by (intros e He; destruct (HU e He) as [[]|[]]). ands; auto. eapply BI_fields; eauto.
      + rewrite <- EN in E. eapply (go1 (mk_fw _ _ _ _ _ _) st' U); [eapply BI_fields; eauto| | | | | |exact E]; cbn [fw_done fw_limit fw_rounds fw_ws fw_next]; auto; try lia.
        * intros e He. left. rewrite <- in_rev, sort_edges_In. rewrite EN. destruct (HU e He) as [[]|X]; auto.
        * intros L. destruct (H1 L) as [X|(_ & _ & _ & e & X)]; auto. right. exists e. split; auto. rewrite EN, X. reflexivity.
    - eapply (go1 st st' U); auto; try lia.
      + intros e He. rewrite EW. auto.
      + intros L. destruct (H1 L) as [X|(_ & _ & X & _)]; auto. discriminate.
  Qed.

  Lemma loop1 : forall fuel st st', J1 st -> fw_loop yd edge sort_edges (y_step_with P mx) false fuel st = Some (Some st') -> F1 st'.
  Proof.
    assert (FIN : forall st, J1 st -> fw_is_done yd edge st = true -> F1 st).
    { intros st (HR & U & HB & HD & HU & H1) D. exists U. ands; auto. intros L. unfold fw_is_done in D. apply orb_true_iff in D. destruct D as [D|D]; auto. apply Nat.eqb_eq in D.
      destruct (H1 L) as [X|(X1 & X2 & _)]; auto. lia. }
    intros fuel. induction fuel as [|f IH]; intros st st' HJ H; cbn in H; destruct (fw_is_done yd edge st) eqn:D; try (injection H as <-; auto; fail); [discriminate|].
    destruct (fw_step yd edge sort_edges (y_step_with P mx) false st) as [s|] eqn:ES; [|discriminate]. eapply IH; [|exact H]. eapply step1; eauto.
  Qed.

  (** ** Second phase *)
  Definition J2 (st : yst) : Prop := exists U, BI st U /\ (fw_done st = true -> emp U) /\ (fw_limit st <= 1 -> emp U) /\ (fw_rounds st = 0 -> forall e, In e U -> In e (fw_ws st) \/ In e (fw_next st)) /\
    (fw_rounds st = 1 -> forall e, In e U -> In e (fw_ws st)) /\ (2 <= fw_rounds st -> emp U).

  Lemma go2 : forall st st', J2 st -> fw_done st = false -> fw_go yd edge (y_step_with P mx) true st = Some st' -> J2 st'.
  Proof.
    intros st st' (U & HB & HD & HL & H0 & H1 & H2) D0 E. unfold fw_go in E. destruct (fw_ws st) as [|c ws] eqn:EW; [discriminate|].
    destruct (y_step_with P mx true _ c) as [[s k]|] eqn:ES; [|discriminate]. cbn [obind fst snd] in E.
    apply (step_outer _ _ _ _ _ U) in ES; [|eapply BI_fields; eauto]. cbn [fw_d] in ES. destruct ES as (-> & U' & B' & (S1 & S2 & S3 & S4) & _ & _ & C3 & C4). injection E as <-. cbn [fw_ws fw_rounds fw_done fw_next] in *.
    specialize (C4 eq_refl). specialize (C3 C4). assert (L1 := b_lim _ _ HB). assert (L2 := b_lim _ _ B'). exists U'. rewrite S1, S2, S3. ands; auto; try congruence.
    - intros L e He. apply (HL ltac:(lia) e). apply C3; auto.
    - intros R e He. destruct (C3 e He) as [X Y]. destruct (H0 R e X) as [[Z|Z]|Z]; auto. congruence.
    - intros R e He. destruct (C3 e He) as [X Y]. destruct (H1 R e X) as [Z|Z]; auto. congruence.
    - intros R e He. apply (H2 R e). apply C3; auto.
  Qed.

  Lemma step2 : forall st st', J2 st -> fw_is_done yd edge st = false -> fw_step yd edge sort_edges (y_step_with P mx) true st = Some st' -> J2 st'.
  Proof.
    intros st st' HJ ND E. unfold fw_is_done in ND. apply orb_false_iff in ND. destruct ND as [D0 _]. unfold fw_step in E. destruct (fw_ws st) as [|c ws] eqn:EW; [|eapply go2; eauto].
    destruct HJ as (U & HB & HD & HL & H0 & H1 & H2).
    assert (RR : fw_rounds st = 0 \/ fw_rounds st = 1 \/ 2 <= fw_rounds st) by lia.
    assert (HE : fw_rounds st <> 0 -> emp U). { intros R. destruct RR as [X|[X|X]]; auto; try lia. intros e He. specialize (H1 X e He). rewrite EW in H1. destruct H1. }
    destruct (fw_next st) as [|a nx] eqn:EN.
    - injection E as <-. assert (EU : emp U). { intros e He. destruct RR as [X|X]; [|apply (HE ltac:(lia) e He)]. destruct (H0 X e He) as [Y|Y]; [rewrite EW in Y|]; destruct Y. }
      exists U. cbn [fw_done fw_ws fw_next fw_limit fw_rounds]. ands; auto; try (intros; exfalso; eapply EU; eauto; fail). eapply BI_fields; eauto.
    - rewrite <- EN in E. eapply go2; [|idtac|exact E]; auto. exists U. cbn [fw_done fw_ws fw_next fw_limit fw_rounds]. ands; auto; try lia.
      + eapply BI_fields; eauto.
      + intros R e He. rewrite <- in_rev, sort_edges_In, EN. destruct (H0 ltac:(lia) e He) as [Y|Y]; auto. rewrite EW in Y. destruct Y.
      + intros R. apply HE. lia.
  Qed.

  Lemma loop2 : forall fuel st st', J2 st -> fw_loop yd edge sort_edges (y_step_with P mx) true fuel st = Some (Some st') -> BI st' [].
  Proof.
    assert (FIN : forall st, J2 st -> fw_is_done yd edge st = true -> BI st []).
    { intros st (U & HB & HD & HL & H0 & H1 & H2) D. assert (EU : emp U).
      { unfold fw_is_done in D. apply orb_true_iff in D. destruct D as [D|D]; auto. apply Nat.eqb_eq in D. destruct (Nat.le_gt_cases (fw_limit st) 1) as [L|L]; auto. apply H2. lia. }
      destruct U as [|e U]; auto. exfalso. apply (EU e). left; auto. }
    intros fuel. induction fuel as [|f IH]; intros st st' HJ H; cbn in H; destruct (fw_is_done yd edge st) eqn:D; try (injection H as <-; auto; fail); [discriminate|].
    destruct (fw_step yd edge sort_edges (y_step_with P mx) true st) as [s|] eqn:ES; [|discriminate]. eapply IH; [|exact H]. eapply step2; eauto.
  Qed.
  Lemma finalize_part : forall fuel st st', F1 st -> fw_finalize yd edge sort_edges (y_step_with P mx) fuel st = Some (Some st') -> BI st' [].
  Proof.
    intros fuel st st' (U & HB & HD & HU & HL) H. unfold fw_finalize in H. eapply loop2; [|exact H]. exists U. cbn [fw_done fw_ws fw_next fw_limit fw_rounds]. ands; auto; try lia. eapply BI_fields; eauto.
  Qed.

  (** ** Initialisation *)
  Let A1f := mk_faut (fst (qp_init P A0)) (fa_w A0f) (fa_snd A0f).
  Definition IR (st : yst) (s : post_st unit) : Prop := s = mir (fw_d st) (fw_next st) /\ y_aut (fw_d st) = A1f /\ fw_ws st = [] /\ fw_rounds st = 0 /\ fw_done st = false /\ y_count (fw_d st) = length (fw_next st).

  Lemma init_sim : forall q st s st', IR st s -> y_init_state P st q = Some st' -> exists s', post_init_state P unit s q = Some s' /\ IR st' s'.
  Proof.
    intros q st s st' HR. unfold y_init_state, post_init_state. assert (EA : q_aut s = fa_aut (y_aut (fw_d st))) by (destruct HR as [-> _]; auto). rewrite EA.
    eapply ofold_sim; [|exact HR]. clear st s st' HR EA. intros t st s st' HR. assert (EA : q_aut s = fa_aut (y_aut (fw_d st))) by (destruct HR as [-> _]; auto). rewrite EA.
    eapply ofold_sim; [|exact HR]. clear st s st' HR EA. intros [l|] st s st' (-> & H1 & H2 & H3 & H4 & H5) E; [|discriminate].
    destruct (Nat.ltb_spec q (pd_n P)) as [Lq|Lq].
    - injection E as <-. eexists. split; [reflexivity|]. unfold IR. cbn. ands; auto. rewrite app_length. cbn. lia.
    - unfold y_insert_rel in E. unfold insert_rel. cbn [q_aut mir q_rel1 q_rel2 q_nQ e_src e_lab e_dst] in *.
      destruct (if pd_n P <=? q then _ else _) as [r1|]; [|discriminate]. cbn [obind] in *. injection E as <-. eexists. split; [reflexivity|]. unfold IR. cbn. ands; auto.
  Qed.

  Lemma A1_in : forall e, In e (map fst (a_edges (fa_aut A1f))) <-> In e (map fst (a_edges A0)).
  Proof. intros e. cbn. rewrite (qo_edges _ _ (proj1 (qp_init_ok P A0))). tauto. Qed.

  Lemma init_part : forall st, y_init P A0f = Some st -> J1 st.
  Proof.
    intros st H. unfold y_init in H. fold A0 in H. destruct (pd_n P <=? a_size (fst (qp_init P A0))) eqn:EL; [|discriminate].
    destruct (ofold _ _ _) as [s|] eqn:EF; [|discriminate]. cbn [obind] in H. injection H as <-.
    destruct (post_init_spec P unit None A0 (qk_n _ _ OK) (qk_ord _ _ OK) (fun _ _ _ => True) tt I (qk_nd _ _ OK)) as (sp & E1 & K).
    { intros [q l t] He. destruct (qk_range _ _ OK q l t He) as (X1 & X2 & x & X3 & X4). cbn. ands; auto; try lia. exists x. auto. }
    unfold post_init in E1. rewrite EL in E1.
    eapply (ofold_sim _ _ _ _ (post_init_state P unit) IR) in EF; [|intros a s1 t1 s1'; apply init_sim|]; [|unfold IR; cbn; ands; reflexivity].
    destruct EF as (s' & E2 & -> & H1 & H2 & H3 & H4 & H5). cbn [mir fw_d fw_next y_aut y_nQ y_qp y_rel1 y_rel2 fa_aut] in E2. unfold mir in E2 at 1. cbn [fw_d fw_next y_aut y_nQ y_qp y_rel1 y_rel2 fa_aut] in E2.
    rewrite E1 in E2. injection E2 as ->.
    assert (SRC : forall e, In e (map fst (a_edges A0)) -> wsrc P A0w e 0).
    { intros [q l t] He. destruct (qk_range _ _ OK q l t He) as (X1 & X2 & x & -> & X4). assert (Ln := qk_n _ _ OK). unfold wsrc. cbn [e_src e_lab e_dst]. change (wa_aut A0w) with A0. ands; auto; try (intros; lia).
      intros Hq. unfold WSrc. change (wa_aut A0w) with A0. destruct (Nat.ltb_spec t (a_size A0)); [|lia]. exists q, [x]. ands; auto; [|constructor]. cbn. econstructor; [exact He|constructor]. }
    split; [cbn; rewrite H3; lia|]. exists (fw_next s). cbn [y_set_limit fw_done fw_ws fw_next fw_limit fw_rounds]. ands; auto; try congruence.
    - constructor; cbn [y_set_limit fw_d fw_limit]; auto.
      + split; [|intros e He; unfold YS in He; rewrite H1 in He |- *; apply A1_in in He; left; split; auto; exact (T0 e He)].
        intros e v He Hv. unfold YS in He. rewrite H1 in He, Hv. apply A1_in in He. assert (Z := Z0 e He). change (fa_weight A1f e) with (fa_weight A0f e) in Hv. rewrite Z in Hv. injection Hv as <-. apply SRC; auto.
      + intros f q Hf. exfalso. unfold YS in Hf. rewrite H1 in Hf. apply A1_in in Hf. destruct (qk_range _ _ OK _ _ _ Hf) as (_ & _ & x & X & _). discriminate.
    - rewrite H5. intros L. destruct (fw_next s) as [|e [|e2 l]]; cbn [length] in *; [left; intros e []| |lia]. right. ands; auto. exists e; auto.
  Qed.

  (** ** What the result says *)
  Lemma run_part : forall fuel A, post_star_fixed_point P mx fuel A0f = done A -> exists st, BI st [] /\ A = y_aut (fw_d st).
  Proof.
    intros fuel A H. unfold post_star_fixed_point in H. destruct (y_init P A0f) as [st|] eqn:E; [|discriminate]. cbn [obind] in H. unfold fw_run in H. apply init_part in E.
    destruct (fw_loop yd edge sort_edges (y_step_with P mx) false fuel st) as [[s1|]|] eqn:E1; try discriminate. apply loop1 in E1; auto.
    destruct (fw_finalize yd edge sort_edges (y_step_with P mx) fuel s1) as [[s2|]|] eqn:E2; try discriminate. apply finalize_part in E2; auto. injection H as <-. eauto.
  Qed.

  Lemma lang_exact : forall st, BI st [] -> forall c, aut_lang n (fa_aut (y_aut (fw_d st))) c <-> exists c0, aut_lang n A0 c0 /\ reach (pda_rules P) c0 c.
  Proof.
    intros st HB c. assert (K := b_k _ _ HB). assert (BQ := k_base _ _ _ _ _ _ _ _ K). split.
    - intros HL. destruct (wjp_lang_sound P A0 (fa_aut (y_aut (fw_d st))) WP OK) with (c := c) as (c0 & X & Y); auto.
      + exact (c_wj _ _ _ _ _ _ BQ). + exact (c_acc _ _ _ _ _ _ BQ). + eauto.
    - intros (c0 & H1 & H2). exact (post_lang_complete P WP unit None A0 _ _ K eq_refl c0 c H2 H1).
  Qed.

  Definition wtA (A : faut) : nat -> option nat -> nat -> option Z := fun x y z => fa_weight A (mk_edge x y z).
  Lemma path_src : forall st, BI st [] -> forall s w v q, ipath (aut_edges (fa_aut (y_aut (fw_d st)))) (wtA (y_aut (fw_d st))) s w v q -> forall v1, v = Some v1 -> n <= s ->
    forall p u v0, WSrc P A0w s (p, u) v0 -> WSrc P A0w q (p, u ++ w) (v0 + v1)%Z.
  Proof.
    intros st HB s w v q H. assert (BQ := k_base _ _ _ _ _ _ _ _ (b_k _ _ HB)). induction H as [q|q l q1 w v q2 He Hp IH]; intros v1 Ev Hs p u v0 HS.
    - injection Ev as <-. rewrite app_nil_r, Z.add_0_r. auto.
    - unfold wtA in Ev. destruct (fa_weight (y_aut (fw_d st)) (mk_edge q l q1)) as [a|] eqn:Ew; [|discriminate]. destruct v as [a2|]; [|discriminate]. injection Ev as <-.
      assert (RG := c_range _ _ _ _ _ _ BQ _ He). destruct RG as (_ & R2 & R3). cbn in R2, R3. fold n in R2, R3. destruct l as [l|]; [|lia].
      assert (X := WSrc_extend P A0w OK (mk_edge q (Some l) q1) a l p u v0 (proj1 (b_w _ _ HB) _ _ He Ew) eq_refl Hs HS). cbn [e_dst] in X.
      assert (Y := IH a2 eq_refl (proj1 R2) p (u ++ [l]) _ X). rewrite <- app_assoc in Y. cbn in Y. replace (v0 + (a + a2))%Z with (v0 + a + a2)%Z by lia. exact Y.
  Qed.

  Lemma weight_sound : forall st, BI st [] -> forall p w v f, p < n -> ipath (aut_edges (fa_aut (y_aut (fw_d st)))) (wtA (y_aut (fw_d st))) p w (Some v) f -> aut_final (fa_aut (y_aut (fw_d st))) f ->
    exists c0, aut_lang n A0 c0 /\ wreach (pda_wrules P) c0 v (p, w).
  Proof.
    intros st HB p w v f Hp H Hf. assert (BQ := k_base _ _ _ _ _ _ _ _ (b_k _ _ HB)).
    assert (HF: f < nQ /\ aut_final A0 f).
    { assert (CA := c_acc _ _ _ _ _ _ BQ). cbn in CA. unfold aut_final in *. rewrite CA in Hf. destruct (qo_acc _ _ (proj1 (qp_init_ok P A0))) as [k E]. rewrite E in Hf.
      destruct (Nat.lt_ge_cases f (a_size A0)) as [L|L].
      - split; auto. unfold a_size in L. rewrite nth_error_app1 in Hf; auto.
      - exfalso. unfold a_size in L. rewrite nth_error_app2 in Hf by auto. apply nth_error_In in Hf. apply repeat_spec in Hf. discriminate. }
    destruct HF as [F1' F2].
    inversion H as [q0 E1 E2 E3|q0 l q1 w' v' q2 He Hq E1 E2 E3 E4]; subst.
    - exists (f, []). split; [|constructor]. split; auto. exists f. split; auto. constructor.
    - unfold wtA in E3. destruct (fa_weight (y_aut (fw_d st)) (mk_edge p l q1)) as [a|] eqn:Ew; [|discriminate]. destruct v' as [a2|]; [|discriminate]. injection E3 as <-.
      assert (RG := c_range _ _ _ _ _ _ BQ _ He). destruct RG as (_ & R2 & _). cbn in R2. fold n in R2.
      assert (X := proj1 (proj1 (b_w _ _ HB) _ _ He Ew) Hp). cbn [e_src e_lab e_dst] in X.
      assert (Y := path_src st HB _ _ _ _ Hq a2 eq_refl (proj1 R2) p (olist l) a X). unfold WSrc in Y. change (wa_aut A0w) with A0 in Y. fold nQ in Y. destruct (Nat.ltb_spec f nQ); [|lia].
      destruct Y as (p0 & w0 & Y1 & Y2 & Y3). exists (p0, w0). split.
      + split; auto. exists f. split; auto. apply npath_apath; auto.
      + destruct l; exact Y3.
  Qed.
End Run.
