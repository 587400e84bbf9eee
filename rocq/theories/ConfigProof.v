(** pre_star_accepts for a single configuration. *)
From Coq Require Import List Arith Lia Bool Permutation.
From Verif Require Import Base BaseFacts Spec SpecFacts PdaModel PdaProof AutModel AutProof PreStarModel PreStarProof PreStarLang
  PostStarModel SolverModel SolverProof QueryModel QueryProof VerdictModel VerdictProof.
Import ListNotations.

Section Config.
  Variable P : pda.
  Hypothesis WP : wf_pda P.
  Let n := pd_n P.
  Let R := pda_rules P.
  Variable A0 : aut.
  Hypothesis OK : pre_ok P A0.
  Variable state : nat.
  Hypothesis Hs : state < n.

  Let W0 : aut_wf A0 := pre_ok_wf P A0 OK.

  Lemma lang_npath : forall A w, (forall q q', ~ aut_edges A q None q') ->
    aut_lang n A (state, w) <-> exists f, npath (aut_edges A) state w f /\ aut_final A f.
  Proof.
    intros A w NE. split.
    - intros [_ [f [H1 H2]]]. exists f. split; auto. apply apath_npath; auto.
    - intros [f [H1 H2]]. split; auto. exists f. split; auto. apply npath_apath; auto.
  Qed.

  Definition one_step (A : aut) (l : nat) : Prop := exists q, aut_edges A state (Some l) q /\ aut_final A q.
  Lemma npath_one : forall A l, (exists f, npath (aut_edges A) state [l] f /\ aut_final A f) <-> one_step A l.
  Proof.
    intros A l. split.
    - intros [f [H1 H2]]. inversion H1 as [|q l' q1 w q2 He Hp]; subst. inversion Hp; subst. exists f; auto.
    - intros [q [H1 H2]]. exists q. split; auto. econstructor; eauto. constructor.
  Qed.

  Definition JC (l : nat) (A : aut) (_ : unit) (b : bool) : Prop := (b = true -> one_step A l) /\ (b = false -> one_step A l -> one_step A0 l).

  Lemma one_step_new : forall l A e t A', emplace_edge A e t = Some (A', true) -> one_step A' l <->
    one_step A l \/ (e_src e = state /\ e_lab e = Some l /\ aut_final A (e_dst e)).
  Proof.
    intros l A e t A' E. assert (EE := emplace_edges _ _ _ _ E). destruct (emplace_true _ _ _ _ E) as [E1 _]. unfold one_step, aut_final. rewrite E1. split.
    - intros [q [H1 H2]]. apply EE in H1. destruct H1 as [H1|[-> [-> ->]]]; eauto.
    - intros [[q [H1 H2]]|[H1 [H2 H3]]].
      + exists q. split; auto. apply EE; auto.
      + exists (e_dst e). split; auto. apply EE. auto.
  Qed.

  Lemma JC_true : forall l A x e t A', JC l A x true -> emplace_edge A e t = Some (A', true) -> JC l A' x true.
  Proof. intros l A x e t A' [H1 H2] E. split; [|discriminate]. intros _. eapply one_step_new; eauto. Qed.

  Lemma JC_call : forall l f A x e t A', Some (cb_single state l) = Some f -> JC l A x false -> a_acc A = a_acc A0 -> a_ord A = a_ord A0 ->
    (forall e', In e' (map fst (a_edges A)) -> in_range P A0 e') -> in_range P A0 e -> emplace_edge A e t = Some (A', true) ->
    exists b x', f A' x e t = Some (b, x') /\ JC l A' x' b.
  Proof.
    intros l f A x e t A' Hf [H1 H2] EA EO HR He E. inversion Hf; subst f. unfold cb_single. destruct (emplace_true _ _ _ _ E) as [E1 _].
    assert (NE := one_step_new l A e t A' E). destruct (Nat.eqb_spec (e_src e) state) as [Es|Es]; cbn [andb].
    - destruct (lab_eqb (e_lab e) (Some l)) eqn:El.
      + apply lab_eqb_eq in El. destruct He as [_ [He _]]. destruct (nth_error_ex _ (a_acc A') (e_dst e)) as [b Eb]. { unfold a_size in He. rewrite E1, EA. auto. }
        unfold accepting. rewrite Eb. cbn [obind]. exists b, x. split; auto. rewrite E1 in Eb. split; intros ->.
        * apply NE. right. auto.
        * intros K. apply NE in K. destruct K as [K|[_ [_ K]]]; auto. unfold aut_final in K. congruence.
      + exists false, x. split; auto. split; [discriminate|]. intros _ K. apply NE in K. destruct K as [K|[_ [K _]]]; auto. apply lab_eqb_eq in K. congruence.
    - exists false, x. split; auto. split; [discriminate|]. intros _ K. apply NE in K. destruct K as [K|[K _]]; auto.
  Qed.

  Definition cfg_out (w : list nat) (A : aut) (b : bool) : Prop :=
    pre_side P A0 A /\ (b = true <-> exists f, npath (aut_edges A) state w f /\ aut_final A f) /\
    (b = false -> lookup_ok P -> ~ can_reach R (fun c => c = (state, w)) (aut_lang n A0)).

  Lemma side_noeps : forall A, pre_side P A0 A -> forall q q', ~ aut_edges A q None q'.
  Proof. intros A H q q' K. apply (ps_range _ _ _ H) in K. destruct K as [_ [_ [l [K _]]]]. discriminate. Qed.

  Lemma config_one : forall l, (forall fuel, pre_star_accepts_config P fuel A0 state [l] = Some None \/
       exists b A, pre_star_accepts_config P fuel A0 state [l] = done (b, A) /\ cfg_out [l] A b) /\
    exists bound, forall fuel, bound <= fuel -> pre_star_accepts_config P fuel A0 state [l] <> Some None.
  Proof.
    intros l. assert (Hs': state < a_size A0) by (pose proof (po_n _ _ OK); unfold n in *; lia).
    destruct (pre_init_spec P WP unit (Some (cb_single state l)) A0 (po_n _ _ OK) (po_ord _ _ OK) (JC l)) with (x0 := tt) as [st0 [E0 S0]].
    { discriminate. } { apply JC_true. } { apply JC_call. } { split; [discriminate|auto]. } { apply OK. } { apply pre_ok_range; auto. }
    assert (G: forall fuel, pre_run P unit (Some (cb_single state l)) fuel st0 = Some None \/
       exists st b, pre_run P unit (Some (cb_single state l)) fuel st0 = done (st, b) /\ (~ one_step A0 l -> cfg_out [l] (p_aut st) b)).
    { intros fuel. destruct (pre_run_any P WP unit (Some (cb_single state l)) A0 (po_n _ _ OK) (JC l)) with (fuel := fuel) (st := st0)
        as [K|[st [b [K [SI [Eb Hw]]]]]]; auto. { discriminate. } { apply JC_true. } { apply JC_call. }
      right. exists st, b. split; auto. intros NA. pose proof (b_J _ _ _ _ _ _ (si_base _ _ _ _ _ _ SI)) as [J1 J2]. rewrite <- Eb in J1, J2.
      assert (SD := sat_side _ _ _ _ _ _ (po_ord _ _ OK) SI). split; auto. split.
      - rewrite npath_one. split; auto. intros K1. destruct b; auto.
      - intros -> LK [c1 [c2 [-> [H2 H3]]]]. destruct Hw as [Hw|[Hw _]]; [|congruence]. apply NA. apply J2; auto. apply npath_one.
        apply lang_npath; [apply side_noeps; auto|]. eapply sat_lang_complete; eauto. }
    assert (NE0 : forall q q', ~ aut_edges A0 q None q') by (apply side_noeps; apply pre_side_refl; auto).
    unfold pre_star_accepts_config, pre_star_et. rewrite E0. cbn [obind]. split.
    - intros fuel. destruct (accepts_spec A0 W0 fuel state [l] Hs') as [[K|[b [K Hb]]] _]; rewrite K; auto. cbv beta iota delta [done].
      rewrite npath_one in Hb. destruct b.
      + right. exists true, A0. split; auto. split; [apply pre_side_refl; auto|]. rewrite npath_one. split; [exact Hb|discriminate].
      + assert (NA: ~ one_step A0 l) by (intros H; apply Hb in H; discriminate).
        destruct (G fuel) as [K1|[st [b [K1 HO]]]]; rewrite K1; auto. right. exists b, (p_aut st). auto.
    - exists (Nat.pow (S (a_size A0)) (length [l]) + (length (p_ws st0) + (a_size A0 * pd_nlab P * a_size A0 - length (a_edges (p_aut st0))))). intros fuel Hf.
      destruct (accepts_spec A0 W0 fuel state [l] Hs') as [[K|[b [K Hb]]] Hn]; [exfalso; apply Hn; auto; lia|]. rewrite K. cbv beta iota delta [done].
      destruct b; [discriminate|].
      destruct (pre_run_spec P WP unit (Some (cb_single state l)) A0 (po_n _ _ OK) (JC l)) with (fuel := fuel) (st := st0) as [st [b [K' _]]]; auto.
      { discriminate. } { apply JC_true. } { apply JC_call. } { lia. } rewrite K'. discriminate.
  Qed.

  Lemma config_many : forall w, length w <> 1 -> (forall fuel, pre_star_accepts_config P fuel A0 state w = Some None \/
       exists b A, pre_star_accepts_config P fuel A0 state w = done (b, A) /\ cfg_out w A b) /\
    exists bound, forall fuel, bound <= fuel -> pre_star_accepts_config P fuel A0 state w <> Some None.
  Proof.
    intros w Hw. set (J := fun (_ : aut) (_ : unit) (_ : bool) => True).
    destruct (pre_init_spec P WP unit None A0 (po_n _ _ OK) (po_ord _ _ OK) J) with (x0 := tt) as [st0 [E0 S0]]; unfold J; auto.
    { discriminate. } { apply OK. } { apply pre_ok_range; auto. }
    assert (EQ: forall fuel, pre_star_accepts_config P fuel A0 state w =
      match pre_star_et P unit None fuel A0 tt with
        | None => None | Some None => Some None
        | Some (Some (st, true)) => done (true, p_aut st)
        | Some (Some (st, false)) =>
            match accepts (p_aut st) fuel state w with None => None | Some None => Some None | Some (Some b) => done (b, p_aut st) end
      end). { intros fuel. destruct w as [|x [|y w]]; auto. cbn in Hw. lia. }
    assert (G: forall fuel st b, pre_run P unit None fuel st0 = done (st, b) -> b = false /\ pre_side P A0 (p_aut st) /\ state < a_size (p_aut st) /\
              (forall b', (b' = true <-> exists f, npath (aut_edges (p_aut st)) state w f /\ aut_final (p_aut st) f) -> cfg_out w (p_aut st) b')).
    { intros fuel st b E. destruct (pre_run_any P WP unit None A0 (po_n _ _ OK) J) with (fuel := fuel) (st := st0) as [K|[st' [b' [K [SI [Eb Hws]]]]]]; unfold J; auto.
      { discriminate. } { rewrite E in K. discriminate. } rewrite E in K. unfold done in K. assert (st = st') by congruence. assert (b = b') by congruence. subst st' b'.
      pose proof (b_et _ _ _ _ _ _ (si_base _ _ _ _ _ _ SI) eq_refl) as F. assert (SD := sat_side _ _ _ _ _ _ (po_ord _ _ OK) SI).
      ands; auto; try congruence. { pose proof (po_n _ _ OK). unfold a_size in *. rewrite (ps_acc _ _ _ SD). unfold n in *. lia. }
      intros b' Hb'. split; auto. split; auto. intros -> LK [c1 [c2 [-> [H2 H3]]]]. destruct Hws as [Hws|[_ Hws]]; [|contradiction].
      assert (K': false = true); [|discriminate]. apply Hb'. apply lang_npath; [apply side_noeps; auto|]. eapply sat_lang_complete; eauto. }
    split.
    - intros fuel. rewrite EQ. unfold pre_star_et. rewrite E0. cbn [obind].
      destruct (pre_run_any P WP unit None A0 (po_n _ _ OK) J) with (fuel := fuel) (st := st0) as [K|[st [b [K _]]]]; unfold J; auto. { discriminate. } { rewrite K; auto. }
      destruct (G fuel st b K) as [-> [SD [L HO]]]. rewrite K.
      destruct (accepts_spec (p_aut st) (ps_wf _ _ _ SD) fuel state w L) as [[K1|[b [K1 Hb]]] _]; rewrite K1; auto. right. exists b, (p_aut st). auto.
    - exists (Nat.pow (S (a_size A0)) (length w) + (length (p_ws st0) + (a_size A0 * pd_nlab P * a_size A0 - length (a_edges (p_aut st0))))). intros fuel Hf. rewrite EQ.
      unfold pre_star_et. rewrite E0. cbn [obind].
      destruct (pre_run_spec P WP unit None A0 (po_n _ _ OK) J) with (fuel := fuel) (st := st0) as [st [b [K _]]]; unfold J; auto. { discriminate. } { lia. }
      destruct (G fuel st b K) as [-> [SD [L HO]]]. rewrite K.
      destruct (accepts_spec (p_aut st) (ps_wf _ _ _ SD) fuel state w L) as [[K1|[b [K1 Hb]]] Hn].
      + exfalso. apply Hn; auto. unfold a_size at 1. rewrite (ps_acc _ _ _ SD). unfold a_size in Hf. lia.
      + rewrite K1. discriminate.
  Qed.

  Lemma config_spec : forall w, (forall fuel, pre_star_accepts_config P fuel A0 state w = Some None \/
       exists b A, pre_star_accepts_config P fuel A0 state w = done (b, A) /\ cfg_out w A b) /\
    exists bound, forall fuel, bound <= fuel -> pre_star_accepts_config P fuel A0 state w <> Some None.
  Proof.
    intros w. destruct (Nat.eq_dec (length w) 1) as [E|E]; [|apply config_many; auto]. destruct w as [|l [|l' w]]; try discriminate. apply config_one.
  Qed.

  Lemma cfg_verdict : forall w A b, cfg_out w A b -> no_in P A0 -> lookup_ok P ->
    (b = true <-> can_reach R (fun c => c = (state, w)) (aut_lang n A0)).
  Proof.
    intros w A b [SD [Hb Hn]] NI LK. split.
    - intros K. apply Hb in K. apply lang_npath in K; [|apply side_noeps; auto]. destruct (pre_side_lang P WP _ _ SD OK NI _ K) as [c' [H1 H2]]. exists (state, w), c'. auto.
    - intros K. destruct b; auto. exfalso. eapply Hn; eauto.
  Qed.
End Config.
