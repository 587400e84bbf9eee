(** The fixed-point saturation of post* ends: the first phase has at most as many rounds as there are possible edges. *)
From Coq Require Import List Arith Lia Bool ZArith Permutation.
From Verif Require Import Base BaseFacts Spec SpecFacts PdaModel PdaProof AutModel AutProof PreStarModel PreStarProof PreStarLang
  PostStarModel PostStarProof PostStarLang SolverModel ProductModel UtilModel ShortSpec ShortModel PostShortProof FixSpec FixModel FixPre1 FixPre2 FixPost1 FixPost2 InterModel InterProof.
Import ListNotations.

Lemma fw_loop_fail : forall D E norm (sw : bool -> fwst D E -> E -> option (fwst D E * bool)) b f st f', fw_loop D E norm sw b f st = None -> f <= f' -> fw_loop D E norm sw b f' st = None.
Proof.
  intros D E norm sw b. induction f as [|f IH]; intros st f' H L; cbn in H; destruct (fw_is_done D E st) eqn:X; try discriminate. destruct f' as [|f']; [lia|]. cbn. rewrite X.
  destruct (fw_step D E norm sw b st) as [s|]; auto. apply IH; auto. lia.
Qed.

Section Ends.
  Variable P : pda.
  Hypothesis WP : wf_pda P.
  Variable mx : bool.
  Variable A0f : faut.
  Hypothesis OK : post_ok P (fa_aut A0f).
  Hypothesis Z0 : forall e, In e (map fst (a_edges (fa_aut A0f))) -> fa_weight A0f e = Some 0%Z.
  Hypothesis T0 : forall e, In e (map fst (a_edges (fa_aut A0f))) -> fa_trace2 A0f e = TNull.
  Notation yst := (fwst yd edge).
  Definition ne (st : yst) : nat := length (a_edges (fa_aut (y_aut (fw_d st)))).

  (** Every new edge is counted. *)
  Definition cr (st st' : yst) : Prop := fw_ws st' = fw_ws st /\ fw_rounds st' = fw_rounds st /\ y_count (fw_d st') + ne st = y_count (fw_d st) + ne st'.
  Lemma cr_refl : forall st, cr st st.
  Proof. intros; repeat split; auto. Qed.
  Lemma cr_trans : forall a b c, cr a b -> cr b c -> cr a c.
  Proof. intros a b c (A1 & A2 & A3) (B1 & B2 & B3). repeat split; try congruence. lia. Qed.
  Lemma y_update_cr : forall b st e w t r, y_update P mx b st e w t = Some r -> cr st (fst r).
  Proof.
    intros b st e w t r H. unfold y_update in H. destruct b.
    - destruct (fa_get _ e) as [old|]; [|discriminate]. cbn [obind] in H. destruct (f_less mx w old); injection H as <-; cbn [fst]; [|apply cr_refl]. destruct (Nat.ltb (e_src e) (pd_n P)); repeat split.
    - destruct (emplace_edge _ e t) as [[A f]|] eqn:EE; [|discriminate]. cbn [obind fst snd] in H. unfold emplace_edge in EE. destruct (Nat.ltb (e_src e) (a_size _)); [|discriminate].
      destruct (find_edge e _); injection EE as <- <-.
      + destruct (f_less mx w _); injection H as <-; cbn [fst]; [|apply cr_refl]. destruct (Nat.ltb (e_src e) (pd_n P)); repeat split.
      + destruct (y_insert_rel P _ e) as [d'|] eqn:IR; [|discriminate]. cbn [obind] in H. injection H as <-. cbn [fst].
        assert (D : y_count d' = S (y_count (fw_d st)) /\ length (a_edges (fa_aut (y_aut d'))) = S (ne st)).
        { unfold y_insert_rel in IR. destruct (if Nat.leb (pd_n P) (e_src e) then _ else _) as [r1|]; [|discriminate]. cbn [obind] in IR. destruct (match e_lab e with None => _ | Some _ => _ end) as [r2|]; [|discriminate]. injection IR as <-. auto. }
        destruct D as [D1 D2]. destruct (Nat.ltb (e_src e) (pd_n P)); (split; [reflexivity|split; [reflexivity|]]); unfold ne; cbn; rewrite D1, D2; unfold ne; lia.
  Qed.
  Lemma cr_fold : forall (X : Type) (f : yst -> X -> option yst) l st st', (forall s x s', f s x = Some s' -> cr s s') -> ofold f l st = Some st' -> cr st st'.
  Proof. intros X f l st st' H K. revert st K. induction l as [|x l IH]; intros st K; cbn in K; [injection K as <-; apply cr_refl|]. destruct (f st x) as [s|] eqn:F; [|discriminate]. cbn in K. eapply cr_trans; eauto. Qed.
  Lemma y_rule_cr : forall b t l w st x st', y_rule P mx b t l w st x = Some st' -> cr st st'.
  Proof.
    intros b t l w st x st' H. unfold y_rule in H. destruct (contains _ l); [|injection H as <-; apply cr_refl].
    assert (U1 : forall st e w tr st', (u <- y_update P mx b st e w tr ;; Some (fst u)) = Some st' -> cr st st').
    { intros s e w0 tr s' K. destruct (y_update P mx b s e w0 tr) eqn:U; [|discriminate]. injection K as <-. eapply y_update_cr; eauto. }
    destruct (r_op (fst (snd x))); eauto.
    destruct (qp_find _ _) as [qn|]; [|discriminate]. cbn [obind] in H.
    destruct (y_update P mx b st _ _ _) as [u1|] eqn:V1; [|discriminate]. cbn [obind] in H. apply y_update_cr in V1.
    destruct (y_update P mx b (fst u1) _ _ _) as [u2|] eqn:V2; [|discriminate]. cbn [obind] in H. apply y_update_cr in V2.
    assert (V := cr_trans _ _ _ V1 V2). destruct (snd u2); [|injection H as <-; auto].
    destruct (y_rel2_of (fst u2) qn) as [fs|]; [|discriminate]. cbn [obind] in H. eapply cr_trans; [exact V|]. eapply cr_fold; [|exact H].
    intros s f s' K. cbv beta in K. destruct (fa_get (y_aut (fw_d s)) (mk_edge f None qn)); [|discriminate]. cbn [obind] in K. eauto.
  Qed.
  Lemma y_step_cr : forall b st c st' r, y_step_with P mx b st c = Some (st', r) -> cr st st'.
  Proof.
    intros b st c st' r H. unfold y_step_with in H. destruct (_ && _); [|discriminate]. destruct (fa_get _ c) as [w|]; [|discriminate]. cbn [obind] in H.
    destruct (e_lab c) as [l|].
    - destruct (nth_error (pd_states P) (e_src c)) as [s|]; [|discriminate]. cbn [obind] in H. destruct (ofold _ _ st) as [s'|] eqn:F; [|discriminate]. injection H as <- _.
      eapply cr_fold; [|exact F]. intros; eapply y_rule_cr; eauto.
    - destruct (y_rel1_of P st (e_dst c)) as [es|]; [|discriminate]. cbn [obind] in H. destruct (ofold _ es st) as [s'|] eqn:F; [|discriminate]. injection H as <- _.
      eapply cr_fold; [|exact F]. intros s x s2 K. cbv beta in K. destruct (fa_get _ x); [|discriminate]. cbn [obind] in K. destruct (y_update P mx b s _ _ _) eqn:U; [|discriminate]. injection K as <-. eapply y_update_cr; eauto.
  Qed.
  Lemma go_cr : forall st st', fw_go yd edge (y_step_with P mx) false st = Some st' -> fw_rounds st' = fw_rounds st /\ length (fw_ws st') < length (fw_ws st) /\ y_count (fw_d st') + ne st = y_count (fw_d st) + ne st'.
  Proof.
    intros st st' H. unfold fw_go in H. destruct (fw_ws st) as [|c ws] eqn:W; [discriminate|]. destruct (y_step_with P mx false _ c) as [[s r]|] eqn:S; [|discriminate]. cbn [obind fst snd] in H.
    apply y_step_cr in S. destruct S as (S1 & S2 & S3). cbn in S1, S2, S3. destruct r; injection H as <-; cbn; rewrite S1; ands; auto.
  Qed.
  Lemma step_cr : forall st st', fw_step yd edge sort_edges (y_step_with P mx) false st = Some st' -> y_count (fw_d st') + ne st = y_count (fw_d st) + ne st' /\
    (fw_rounds st' = S (fw_rounds st) \/ (fw_rounds st' = fw_rounds st /\ length (fw_ws st') < length (fw_ws st))).
  Proof.
    intros st st' H. unfold fw_step in H. destruct (fw_ws st) as [|c ws] eqn:W.
    - destruct (fw_next st) as [|x l]; [injection H as <-; auto|]. apply go_cr in H. cbn [fw_rounds fw_ws fw_d] in H. destruct H as (H1 & _ & H3). auto.
    - apply go_cr in H. rewrite W in H. destruct H as (H1 & H2 & H3). auto.
  Qed.

  Lemma loop1_ends : forall c0 e0 st, J1 P A0f st -> y_count (fw_d st) + e0 = c0 + ne st -> exists bound, forall fuel, bound <= fuel -> fw_loop yd edge sort_edges (y_step_with P mx) false fuel st <> Some None.
  Proof.
    intros c0 e0. set (N := a_size (fst (qp_init P (fa_aut A0f)))). set (M := c0 + N * S (pd_nlab P) * N).
    assert (LM : forall st, J1 P A0f st -> y_count (fw_d st) + e0 = c0 + ne st -> fw_limit st <= M).
    { intros st (_ & U & HB & _) HC. assert (BQ := k_base _ _ _ _ _ _ _ _ (b_k _ _ _ _ HB)). assert (X := qbase_bound P unit None (fa_aut A0f) (qk_n _ _ OK) _ _ BQ). cbn in X. rewrite (b_lim _ _ _ _ HB). fold (ne st) in X. unfold M, N. lia. }
    assert (K : forall k j st, M - fw_rounds st <= k -> length (fw_ws st) <= j -> J1 P A0f st -> y_count (fw_d st) + e0 = c0 + ne st ->
      exists bound, forall fuel, bound <= fuel -> fw_loop yd edge sort_edges (y_step_with P mx) false fuel st <> Some None).
    { induction k as [|k IHk]; induction j as [j IHj] using lt_wf_ind; intros st K1 K2 HJ HC; assert (HL := LM st HJ HC); destruct (fw_is_done yd edge st) eqn:X;
        try (exists 0; intros [|f] _; cbn; rewrite X; discriminate);
        (assert (LT : fw_rounds st < fw_limit st); [unfold fw_is_done in X; apply orb_false_iff in X; destruct X as [_ X]; apply Nat.eqb_neq in X; destruct HJ as [HR _]; lia|]); [lia|].
      destruct (fw_step yd edge sort_edges (y_step_with P mx) false st) as [st'|] eqn:S.
      - assert (R : exists bound, forall fuel, bound <= fuel -> fw_loop yd edge sort_edges (y_step_with P mx) false fuel st' <> Some None).
        { assert (HJ' : J1 P A0f st') by (eapply step1; eauto). destruct (step_cr _ _ S) as [C [R|[R L2]]].
          - apply (IHk (length (fw_ws st'))); auto; lia.
          - apply (IHj (length (fw_ws st'))); auto; lia. }
        destruct R as [bd R]. exists (1 + bd). intros [|f] L; [lia|]. cbn. rewrite X, S. apply R. lia.
      - exists 1. intros [|f] L; [lia|]. cbn. rewrite X, S. discriminate. }
    intros st HJ HC. eapply K; eauto.
  Qed.

  Theorem post_fixed_ends : exists bound, forall fuel, bound <= fuel -> post_star_fixed_point P mx fuel A0f <> Some None.
  Proof.
    unfold post_star_fixed_point. destruct (y_init P A0f) as [st|] eqn:E; [|exists 0; discriminate]. cbn [obind]. unfold fw_run. assert (HJ := init_part P A0f OK Z0 T0 st E).
    destruct (loop1_ends (y_count (fw_d st)) (ne st) st HJ eq_refl) as [b1 H1].
    destruct (fw_loop yd edge sort_edges (y_step_with P mx) false b1 st) as [[s1|]|] eqn:E1; [|exfalso; apply (H1 b1); auto|].
    - destruct (post_finalize_ends P mx s1) as [b2 H2]. exists (b1 + b2). intros fuel L. rewrite (fw_loop_mono _ _ _ _ false b1 st s1 fuel E1) by lia. specialize (H2 fuel).
      destruct (fw_finalize yd edge sort_edges (y_step_with P mx) fuel s1) as [[s2|]|]; try discriminate. exfalso. apply H2; auto. lia.
    - exists b1. intros fuel L. rewrite (fw_loop_fail _ _ _ _ _ _ _ fuel E1 L). discriminate.
  Qed.
End Ends.
