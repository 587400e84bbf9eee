(** Interleaving pre* and post*: the saturation that ends first has done what it does alone. *)
From Coq Require Import List Arith Lia Bool ZArith Permutation.
From Verif Require Import Base BaseFacts Spec SpecFacts PdaModel AutModel AutProof PreStarModel PreStarLang PostStarModel SolverModel QueryModel ProductModel UtilModel ShortModel
  FixModel FixPre2 FixSolveModel FixSolveProof TraceModel FixTraceModel InterModel.
Import ListNotations.

(** ** Loops with a fixed number of rounds end *)
Section Ends.
  Variables D E : Type.
  Variable norm : list E -> list E.
  Variable step_with : bool -> fwst D E -> E -> option (fwst D E * bool).
  Variable b : bool.
  Definition same_rounds (st st' : fwst D E) : Prop := fw_ws st' = fw_ws st /\ fw_rounds st' = fw_rounds st /\ fw_limit st' = fw_limit st.
  Hypothesis SW : forall st c st' r, step_with b st c = Some (st', r) -> same_rounds st st'.

  Lemma fw_go_less : forall st st', fw_go D E step_with b st = Some st' -> fw_rounds st' = fw_rounds st /\ fw_limit st' = fw_limit st /\ length (fw_ws st') < length (fw_ws st).
  Proof.
    intros st st' H. unfold fw_go in H. destruct (fw_ws st) as [|c ws] eqn:W; [discriminate|].
    destruct (step_with b _ c) as [[s r]|] eqn:S; [|discriminate]. cbn [obind fst snd] in H. destruct (SW _ _ _ _ S) as (S1 & S2 & S3). cbn [fw_ws fw_rounds fw_limit] in S1, S2, S3.
    destruct r; injection H as <-; cbn [fw_ws fw_rounds fw_limit fw_set_done]; rewrite S1; cbn [length]; auto.
  Qed.
  Lemma fw_step_less : forall st st', fw_step D E norm step_with b st = Some st' -> fw_limit st' = fw_limit st /\
    ((fw_rounds st' = S (fw_rounds st)) \/ (fw_rounds st' = fw_rounds st /\ length (fw_ws st') < length (fw_ws st))).
  Proof.
    intros st st' H. unfold fw_step in H. destruct (fw_ws st) as [|c ws] eqn:W.
    - destruct (fw_next st) as [|x l]; [injection H as <-; auto|]. apply fw_go_less in H. cbn [fw_rounds fw_limit] in H. destruct H as (H1 & H2 & _). auto.
    - apply fw_go_less in H. destruct H as (H1 & H2 & H3). rewrite W in H3. auto.
  Qed.
  Lemma fw_fixed_ends : forall st, fw_rounds st <= fw_limit st -> exists bound, forall fuel, bound <= fuel -> fw_loop D E norm step_with b fuel st <> Some None.
  Proof.
    assert (K : forall k j st, fw_limit st - fw_rounds st <= k -> length (fw_ws st) <= j -> fw_rounds st <= fw_limit st ->
      exists bound, forall fuel, bound <= fuel -> fw_loop D E norm step_with b fuel st <> Some None).
    { induction k as [|k IHk].
      - intros j st K1 K2 K3. exists 0. intros fuel _. assert (X : fw_is_done D E st = true) by (unfold fw_is_done; replace (fw_rounds st) with (fw_limit st) by lia; rewrite Nat.eqb_refl; apply orb_true_r).
        destruct fuel; cbn; rewrite X; discriminate.
      - induction j as [j IHj] using lt_wf_ind. intros st K1 K2 K3. destruct (fw_is_done D E st) eqn:X.
        { exists 0. intros [|f] _; cbn; rewrite X; discriminate. }
        assert (LT : fw_rounds st < fw_limit st). { unfold fw_is_done in X. apply orb_false_iff in X. destruct X as [_ X]. apply Nat.eqb_neq in X. lia. }
        destruct (fw_step D E norm step_with b st) as [st'|] eqn:S.
        + assert (R : exists bound, forall fuel, bound <= fuel -> fw_loop D E norm step_with b fuel st' <> Some None).
          { destruct (fw_step_less _ _ S) as [L [R|[R L2]]]; [apply (IHk (length (fw_ws st'))); lia|]. apply (IHj (length (fw_ws st'))); lia. }
          destruct R as [bd R]. exists (1 + bd). intros [|f] L; [lia|]. cbn. rewrite X, S. apply R. lia.
        + exists 1. intros [|f] L; [lia|]. cbn. rewrite X, S. discriminate. }
    intros st H. eapply K; eauto.
  Qed.
End Ends.

Section Inter.
  Variable P : pda.
  Variable mx : bool.
  Notation xloop := (fw_loop xd edge sort_edges (x_step_with P mx)).
  Notation yloop := (fw_loop yd edge sort_edges (y_step_with P mx)).
  Notation xdone := (fw_is_done xd edge).
  Notation ydone := (fw_is_done yd edge).

  (** ** The loop runs both saturations *)
  Lemma inter_pre : forall fuel pre post pre' post', inter_loop P mx fuel pre post = done (pre', post') -> xdone pre' = true -> xloop false fuel pre = done pre'.
  Proof.
    induction fuel as [|f IH]; intros pre post pre' post' H X; cbn in H |- *; destruct (xdone pre || ydone post) eqn:O.
    - injection H as <- <-. rewrite X. auto.
    - discriminate.
    - injection H as <- <-. rewrite X. auto.
    - apply orb_false_iff in O. destruct O as [O1 O2]. rewrite O1. destruct (fw_step yd edge _ _ false post) as [q|]; [|discriminate]. cbn [obind] in H.
      destruct (fw_step xd edge _ _ false pre) as [p|]; [|discriminate]. cbn [obind] in H. eauto.
  Qed.
  Lemma inter_post : forall fuel pre post pre' post', inter_loop P mx fuel pre post = done (pre', post') -> ydone post' = true -> yloop false fuel post = done post'.
  Proof.
    induction fuel as [|f IH]; intros pre post pre' post' H X; cbn in H |- *; destruct (xdone pre || ydone post) eqn:O.
    - injection H as <- <-. rewrite X. auto.
    - discriminate.
    - injection H as <- <-. rewrite X. auto.
    - apply orb_false_iff in O. destruct O as [O1 O2]. rewrite O2. destruct (fw_step yd edge _ _ false post) as [q|]; [|discriminate]. cbn [obind] in H.
      destruct (fw_step xd edge _ _ false pre) as [p|]; [|discriminate]. cbn [obind] in H. eauto.
  Qed.
  Lemma inter_done : forall fuel pre post pre' post', inter_loop P mx fuel pre post = done (pre', post') -> xdone pre' || ydone post' = true.
  Proof.
    induction fuel as [|f IH]; intros pre post pre' post' H; cbn in H; destruct (xdone pre || ydone post) eqn:O; try discriminate.
    - injection H as <- <-. auto.
    - injection H as <- <-. auto.
    - destruct (fw_step yd edge _ _ false post) as [q|]; [|discriminate]. cbn [obind] in H. destruct (fw_step xd edge _ _ false pre) as [p|]; [|discriminate]. cbn [obind] in H. eauto.
  Qed.
  Lemma inter_mono : forall fuel fuel' pre post r, inter_loop P mx fuel pre post = done r -> fuel <= fuel' -> inter_loop P mx fuel' pre post = done r.
  Proof.
    induction fuel as [|f IH]; intros fuel' pre post r H L; cbn in H.
    - destruct (xdone pre || ydone post) eqn:O; [|discriminate]. destruct fuel'; cbn; rewrite O; auto.
    - destruct fuel' as [|f']; [lia|]. cbn. destruct (xdone pre || ydone post); auto. destruct (fw_step yd edge _ _ false post) as [q|]; [|discriminate]. cbn [obind] in H |- *.
      destruct (fw_step xd edge _ _ false pre) as [p|]; [|discriminate]. cbn [obind] in H |- *. apply IH; auto. lia.
  Qed.
  Lemma inter_fail_mono : forall fuel fuel' pre post, inter_loop P mx fuel pre post = None -> fuel <= fuel' -> inter_loop P mx fuel' pre post = None.
  Proof.
    induction fuel as [|f IH]; intros fuel' pre post H L; cbn in H; destruct (xdone pre || ydone post) eqn:O; try discriminate.
    destruct fuel' as [|f']; [lia|]. cbn. rewrite O. destruct (fw_step yd edge _ _ false post) as [q|]; [|auto]. cbn [obind] in H |- *.
    destruct (fw_step xd edge _ _ false pre) as [p|]; [|auto]. cbn [obind] in H |- *. apply IH; auto. lia.
  Qed.
  Lemma inter_ends : forall fuel pre post s, xloop false fuel pre = Some (Some s) -> inter_loop P mx fuel pre post <> Some None.
  Proof.
    induction fuel as [|f IH]; intros pre post s H; cbn in H |- *; destruct (xdone pre) eqn:O; cbn [orb]; try discriminate.
    destruct (ydone post); [discriminate|]. destruct (fw_step yd edge _ _ false post) as [q|]; [|discriminate]. cbn [obind].
    destruct (fw_step xd edge _ _ false pre) as [p|]; [|discriminate]. cbn [obind]. eauto.
  Qed.

  (** ** The second phase changes neither the workset nor the number of rounds *)
  Notation sr := (same_rounds yd edge).
  Lemma sr_refl : forall st, sr st st.
  Proof. intros; repeat split; auto. Qed.
  Lemma sr_trans : forall a b c, sr a b -> sr b c -> sr a c.
  Proof. intros a b c (A1 & A2 & A3) (B1 & B2 & B3). repeat split; congruence. Qed.
  Lemma y_update_sr : forall st e w t r, y_update P mx true st e w t = Some r -> sr st (fst r).
  Proof.
    intros st e w t r H. unfold y_update in H. destruct (fa_get _ e) as [old|]; [|discriminate]. cbn [obind] in H.
    destruct (f_less mx w old); injection H as <-; cbn [fst]; [|apply sr_refl]. destruct (Nat.ltb (e_src e) (pd_n P)); repeat split.
  Qed.
  Lemma sr_fold : forall (X : Type) (f : fwst yd edge -> X -> option (fwst yd edge)) l st st', (forall s x s', f s x = Some s' -> sr s s') -> ofold f l st = Some st' -> sr st st'.
  Proof. intros X f l st st' H K. revert st K. induction l as [|x l IH]; intros st K; cbn in K; [injection K as <-; apply sr_refl|]. destruct (f st x) as [s|] eqn:F; [|discriminate]. cbn in K. eapply sr_trans; eauto. Qed.
  Lemma y_rule_sr : forall t l w st x st', y_rule P mx true t l w st x = Some st' -> sr st st'.
  Proof.
    intros t l w st x st' H. unfold y_rule in H. destruct (contains _ l); [|injection H as <-; apply sr_refl].
    assert (U1 : forall st e w tr st', (u <- y_update P mx true st e w tr ;; Some (fst u)) = Some st' -> sr st st').
    { intros s e w0 tr s' K. destruct (y_update P mx true s e w0 tr) eqn:U; [|discriminate]. injection K as <-. eapply y_update_sr; eauto. }
    destruct (r_op (fst (snd x))); eauto.
    destruct (qp_find _ _) as [qn|]; [|discriminate]. cbn [obind] in H.
    destruct (y_update P mx true st _ _ _) as [u1|] eqn:V1; [|discriminate]. cbn [obind] in H. apply y_update_sr in V1.
    destruct (y_update P mx true (fst u1) _ _ _) as [u2|] eqn:V2; [|discriminate]. cbn [obind] in H. apply y_update_sr in V2.
    assert (V := sr_trans _ _ _ V1 V2). destruct (snd u2); [|injection H as <-; auto].
    destruct (y_rel2_of (fst u2) qn) as [fs|]; [|discriminate]. cbn [obind] in H. eapply sr_trans; [exact V|]. eapply sr_fold; [|exact H].
    intros s f s' K. cbv beta in K. destruct (fa_get (y_aut (fw_d s)) (mk_edge f None qn)); [|discriminate]. cbn [obind] in K. eauto.
  Qed.
  Lemma y_step_sr : forall st c st' r, y_step_with P mx true st c = Some (st', r) -> sr st st'.
  Proof.
    intros st c st' r H. unfold y_step_with in H. destruct (_ && _); [|discriminate]. destruct (fa_get _ c) as [w|]; [|discriminate]. cbn [obind] in H.
    destruct (e_lab c) as [l|].
    - destruct (nth_error (pd_states P) (e_src c)) as [s|]; [|discriminate]. cbn [obind] in H. destruct (ofold _ _ st) as [s'|] eqn:F; [|discriminate]. injection H as <- _.
      eapply sr_fold; [|exact F]. intros; eapply y_rule_sr; eauto.
    - destruct (y_rel1_of P st (e_dst c)) as [es|]; [|discriminate]. cbn [obind] in H. destruct (ofold _ es st) as [s'|] eqn:F; [|discriminate]. injection H as <- _.
      eapply sr_fold; [|exact F]. intros s x s2 K. cbv beta in K. destruct (fa_get _ x); [|discriminate]. cbn [obind] in K. destruct (y_update P mx true s _ _ _) eqn:U; [|discriminate]. injection K as <-. eapply y_update_sr; eauto.
  Qed.
  Lemma post_finalize_ends : forall st, exists bound, forall fuel, bound <= fuel -> fw_finalize yd edge sort_edges (y_step_with P mx) fuel st <> Some None.
  Proof. intros st. apply fw_fixed_ends; [apply y_step_sr|]. cbn. lia. Qed.
End Inter.
