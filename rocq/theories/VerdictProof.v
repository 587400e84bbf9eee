(** The reachability verdicts: pre*, post* and dual search with the product construction on the fly. *)
From Coq Require Import List Arith Lia Bool Permutation.
From Verif Require Import Base BaseFacts Spec SpecFacts PdaModel PdaProof AutModel AutProof PreStarModel PreStarProof PreStarLang
  PostStarModel PostStarProof PostStarLang SolverModel SolverProof QueryModel QueryProof ProductModel ProductProof VerdictModel.
Import ListNotations.

Lemma emplace_true : forall A e t A', emplace_edge A e t = Some (A', true) ->
  a_acc A' = a_acc A /\ a_ord A' = a_ord A /\ a_edges A' = (e, t) :: a_edges A.
Proof.
  intros A e t A' H. unfold emplace_edge in H. destruct (Nat.ltb (e_src e) (a_size A)); [|discriminate].
  destruct (find_edge e (a_edges A)); [discriminate|]. inversion H; subst; auto.
Qed.
Lemma emplace_edges : forall A e t A', emplace_edge A e t = Some (A', true) ->
  forall x y z, aut_edges A' x y z <-> aut_edges A x y z \/ (x = e_src e /\ y = e_lab e /\ z = e_dst e).
Proof.
  intros A e t A' H x y z. apply emplace_true in H. destruct H as [_ [_ H]]. unfold aut_edges, edges_of. rewrite H. cbn. destruct e as [s l d]; cbn. split.
  - intros [K|K]; auto. inversion K; auto.
  - intros [K|[-> [-> ->]]]; auto.
Qed.

(** The product [pr] of [F] and [S]: it is a product, and unless an accepting state was found it is complete. *)
Definition PJ (n : nat) (F S : aut) (back : bool) (pr : prod_st) (b : bool) : Prop :=
  n <= a_size F /\ n <= a_size S /\ pbase n F S back pr /\ b = has_accepting pr /\
  (b = false -> forall id, id < psz pr -> closed_at n F S pr id).

Lemma PJ_true_first : forall n F S back pr e t F', PJ n F S back pr true -> emplace_edge F e t = Some (F', true) -> PJ n F' S back pr true.
Proof.
  intros n F S back pr e t F' [H1 [H2 [H3 [H4 H5]]]] E. assert (EE := emplace_edges _ _ _ _ E). destruct (emplace_true _ _ _ _ E) as [E1 [E2 E3]].
  unfold PJ, a_size in *. rewrite E1. ands; auto; [|discriminate]. eapply pbase_mono; eauto.
  - intros. apply EE; auto. - unfold a_size. rewrite E1; auto. - intros; rewrite E1; auto.
Qed.
Lemma PJ_true_second : forall n F S back pr e t S', PJ n F S back pr true -> emplace_edge S e t = Some (S', true) -> PJ n F S' back pr true.
Proof.
  intros n F S back pr e t S' [H1 [H2 [H3 [H4 H5]]]] E. assert (EE := emplace_edges _ _ _ _ E). destruct (emplace_true _ _ _ _ E) as [E1 [E2 E3]].
  unfold PJ, a_size in *. rewrite E1. ands; auto; [|discriminate]. eapply pbase_mono; eauto.
  - intros. apply EE; auto. - unfold a_size. rewrite E1; auto. - intros; rewrite E1; auto.
Qed.

Lemma PJ_first : forall n F S back pr e t F', aut_wf F' -> aut_wf S -> PJ n F S back pr false -> emplace_edge F e t = Some (F', true) ->
  exists b pr', pr_add_component_edge n true back true F' S pr e = Some (b, pr') /\ PJ n F' S back pr' b.
Proof.
  intros n F S back pr e t F' W1 W2 [H1 [H2 [H3 [H4 H5]]]] E. assert (EE := emplace_edges _ _ _ _ E). destruct (emplace_true _ _ _ _ E) as [E1 [E2 E3]].
  assert (HF: n <= a_size F') by (unfold a_size in *; rewrite E1; auto).
  destruct (add_component_spec n F' S back W1 W2 HF H2 true true pr e (aut_edges F) (aut_edges S)) as [b [pr' [K1 [K2 [K3 [K4 K5]]]]]].
  - eapply pbase_mono; eauto. + intros; apply EE; auto. + unfold a_size; rewrite E1; auto. + intros; rewrite E1; auto.
  - discriminate.
  - intros _. ands; auto. + apply EE; auto. + intros x y z K. apply EE; auto.
  - discriminate.
  - intros id a b l a' b' HP HJ. eapply H5; eauto. apply (pair_lt n F S back H1 H2 pr id); [apply H3|eauto].
  - exists b, pr'. split; auto. unfold PJ. ands; auto.
Qed.
Lemma PJ_second : forall n F S pr e t S', aut_wf F -> aut_wf S' -> PJ n F S true pr false -> emplace_edge S e t = Some (S', true) ->
  exists b pr', pr_add_component_edge n false true true F S' pr e = Some (b, pr') /\ PJ n F S' true pr' b.
Proof.
  intros n F S pr e t S' W1 W2 [H1 [H2 [H3 [H4 H5]]]] E. assert (EE := emplace_edges _ _ _ _ E). destruct (emplace_true _ _ _ _ E) as [E1 [E2 E3]].
  assert (HF: n <= a_size S') by (unfold a_size in *; rewrite E1; auto).
  destruct (add_component_spec n F S' true W1 W2 H1 HF false true pr e (aut_edges F) (aut_edges S)) as [b [pr' [K1 [K2 [K3 [K4 K5]]]]]].
  - eapply pbase_mono; eauto. + intros; apply EE; auto. + unfold a_size; rewrite E1; auto. + intros; rewrite E1; auto.
  - auto.
  - discriminate.
  - intros _. ands; auto. + apply EE; auto. + intros x y z K. apply EE; auto.
  - intros id a b l a' b' HP HJ. eapply H5; eauto. apply (pair_lt n F S true H1 H2 pr id); [apply H3|eauto].
  - exists b, pr'. split; auto. unfold PJ. ands; auto.
Qed.

(** New states without edges do not matter. *)
Lemma PJ_more_states : forall n F S back pr b F', PJ n F S back pr b -> a_edges F' = a_edges F -> (exists k, a_acc F' = a_acc F ++ k) -> PJ n F' S back pr b.
Proof.
  intros n F S back pr b F' [H1 [H2 [H3 [H4 H5]]]] EE [k EK]. assert (L: a_size F <= a_size F') by (unfold a_size; rewrite EK, app_length; lia).
  assert (E: forall x y z, aut_edges F' x y z <-> aut_edges F x y z) by (intros; unfold aut_edges; rewrite EE; tauto).
  unfold PJ. ands; auto; try lia.
  - eapply pbase_mono; eauto. + intros; apply E; auto. + intros q Hq. rewrite EK. apply nth_error_app1. auto.
  - intros Hb id Hid a b0 l a' b' HP HJ. eapply (H5 Hb id Hid); eauto. destruct l; cbn in *; rewrite !E in HJ; auto.
Qed.

Lemma PJ_init : forall n F S back pr, aut_wf F -> aut_wf S -> n <= a_size F -> n <= a_size S -> pbase n F S back pr ->
  exists b pr', initialize_product n back true F S pr = Some (b, pr') /\ PJ n F S back pr' b.
Proof.
  intros n F S back pr W1 W2 L1 L2 B. destruct (initialize_spec n F S back W1 W2 L1 L2 true pr B) as [b [pr' [E [K1 [K2 [K3 K4]]]]]].
  exists b, pr'. split; auto. unfold PJ. ands; auto.
Qed.

Lemma pr_new_swap : forall n ord F S, pr_new n ord F S = pr_new n ord S F.
Proof.
  intros n ord F S. unfold pr_new. rewrite andb_comm.
  assert (G: forall l m : list bool, map (fun ab => fst ab && snd ab) (combine l m) = map (fun ab => fst ab && snd ab) (combine m l)).
  { induction l as [|x l IH]; intros [|y m]; cbn; auto. rewrite andb_comm, IH. auto. }
  rewrite G. auto.
Qed.

Lemma pre_ok_wf : forall P A, pre_ok P A -> aut_wf A.
Proof. intros P A OK. constructor; [apply OK|]. intros q l q' H. apply (po_range _ _ OK) in H. tauto. Qed.

Section Verdict.
  Variable P : pda.
  Hypothesis WP : wf_pda P.
  Let n := pd_n P.
  Let R := pda_rules P.

  Lemma wf_in_range : forall A0 A, wf_ord A0 -> a_acc A = a_acc A0 -> a_ord A = a_ord A0 -> (forall e, In e (map fst (a_edges A)) -> in_range P A0 e) -> aut_wf A.
  Proof.
    intros A0 A HO EA EO HR. constructor.
    - intros q l. rewrite EO. apply HO.
    - intros q l q' H. apply HR in H. destruct H as [H1 [H2 _]]. cbn in *. unfold a_size in *. rewrite EA. auto.
  Qed.
  Lemma wf_q_range : forall A0 A, wf_ord A0 -> a_acc A = a_acc (fst (qp_init P A0)) -> a_ord A = a_ord A0 ->
    (forall e, In e (map fst (a_edges A)) -> q_range P A0 e) -> aut_wf A.
  Proof.
    intros A0 A HO EA EO HR. constructor.
    - intros q l. rewrite EO. apply HO.
    - intros q l q' H. apply HR in H. destruct H as [H1 [H2 _]]. cbn in *. unfold a_size in *. rewrite EA. lia.
  Qed.
  Lemma new_range : forall (Q : edge -> Prop) A e t A', emplace_edge A e t = Some (A', true) -> (forall e', In e' (map fst (a_edges A)) -> Q e') -> Q e ->
    forall e', In e' (map fst (a_edges A')) -> Q e'.
  Proof. intros Q A e t A' E H He e' H'. destruct (emplace_true _ _ _ _ E) as [_ [_ E3]]. rewrite E3 in H'. destruct H' as [<-|H']; auto. Qed.

  (** What is known about the component automata at the end. *)
  Record pre_side (A0 A : aut) : Prop := {
    ps_wj : wj_pre P (a_edges A0) (a_edges A);
    ps_acc : a_acc A = a_acc A0;
    ps_nd : NoDup (map fst (a_edges A));
    ps_range : forall e, In e (map fst (a_edges A)) -> in_range P A0 e;
    ps_wf : aut_wf A }.
  Record post_side (A0 A : aut) : Prop := {
    qs_wj : wj_post P (post_qp P A0) (a_edges A0) (a_edges A);
    qs_acc : exists k, a_acc A = a_acc A0 ++ repeat false k;
    qs_nd : NoDup (map fst (a_edges A));
    qs_range : forall e, In e (map fst (a_edges A)) -> q_range P A0 e;
    qs_wf : aut_wf A }.

  Lemma pre_side_refl : forall A, pre_ok P A -> pre_side A A.
  Proof.
    intros A OK. constructor; auto; try apply OK. - apply wj_base. - apply pre_ok_range; auto. - eapply pre_ok_wf; eauto.
  Qed.
  Lemma post_side_refl : forall A, post_ok P A -> post_side A A.
  Proof.
    intros A OK. assert (OK' := OK). apply post_ok_pre_ok in OK'. destruct OK' as [OK1 OK2]. constructor; try apply OK.
    - apply wjp_base. - exists 0. cbn. rewrite app_nil_r; auto.
    - intros [q l q'] H. destruct (qk_range _ _ OK _ _ _ H) as [H1 [H2 [x [-> H3]]]]. unfold q_range. cbn.
      pose proof (nQ_N P A). ands; auto; lia.
    - eapply pre_ok_wf; eauto.
  Qed.
  Lemma sat_side : forall X et A J st, wf_ord A -> sat_inv P X et A J st -> pre_side A (p_aut st).
  Proof.
    intros X et A J st HO SI. pose proof (si_base _ _ _ _ _ _ SI) as B. constructor; try apply B. eapply wf_in_range; eauto; apply B.
  Qed.
  Lemma kinv_side : forall X et A J st, wf_ord A -> kinv P X et A J st None None -> post_side A (q_aut st).
  Proof.
    intros X et A J st HO SI. pose proof (k_base _ _ _ _ _ _ _ _ SI) as B. constructor; try apply B.
    - rewrite (c_acc _ _ _ _ _ _ B). apply (qo_acc _ _ (proj1 (qp_init_ok P A))).
    - eapply wf_q_range; eauto; apply B.
  Qed.
  Lemma pre_side_lang : forall A0 A, pre_side A0 A -> pre_ok P A0 -> no_in P A0 -> forall c, aut_lang n A c -> exists c', reach R c c' /\ aut_lang n A0 c'.
  Proof. intros A0 A H OK NI c Hc. apply (wj_lang_sound P A0 A WP OK NI (ps_wj _ _ H) (ps_acc _ _ H) c Hc). Qed.
  Lemma pre_side_incl : forall A0 A, pre_side A0 A -> forall c, aut_lang n A0 c -> aut_lang n A c.
  Proof.
    intros A0 A H c [H1 [f [H2 H3]]]. split; auto. exists f. split.
    - eapply apath_mono; [|exact H2]. intros a l b Hab. eapply wj_incl; [apply H|exact Hab].
    - unfold aut_final. rewrite (ps_acc _ _ H). auto.
  Qed.
  Lemma post_side_lang : forall A0 A, post_side A0 A -> post_ok P A0 -> forall c, aut_lang n A c -> exists c', reach R c' c /\ aut_lang n A0 c'.
  Proof.
    intros A0 A H OK c [H1 [f [H2 H3]]]. pose proof (qo_acc _ _ (proj1 (qp_init_ok P A0))) as [k Ek]. destruct (qs_acc _ _ H) as [k' Ek'].
    apply (wjp_lang_sound P A0 (mk_aut (a_acc (fst (qp_init P A0))) (a_edges A) (a_ord A))); auto. { apply H. }
    split; auto. exists f. split; auto. unfold aut_final in *. cbn. rewrite Ek. rewrite Ek' in H3.
    destruct (Nat.lt_ge_cases f (length (a_acc A0))).
    - rewrite nth_error_app1 in * by auto. auto.
    - rewrite nth_error_app2 in H3 by auto. apply nth_error_In in H3. apply repeat_spec in H3. discriminate.
  Qed.
  Lemma post_side_incl : forall A0 A, post_side A0 A -> forall c, aut_lang n A0 c -> aut_lang n A c.
  Proof.
    intros A0 A H c [H1 [f [H2 H3]]]. split; auto. exists f. split.
    - eapply apath_mono; [|exact H2]. intros a l b Hab. eapply wjp_incl; [apply H|exact Hab].
    - unfold aut_final. destruct (qs_acc _ _ H) as [k ->]. apply nth_error_app1_some. auto.
  Qed.

  (** ** pre* on an instance *)
  Definition Jp (S : aut) (A : aut) (x : prod_st) (b : bool) : Prop := PJ n A S false x b.

  Section PrePost.
    Variables (A0 S : aut).
    Hypothesis WS : aut_wf S.
    Hypothesis LS : n <= a_size S.

    Lemma Jp_call_pre : wf_ord A0 -> forall f A x e t A', Some (cb_product P S) = Some f -> Jp S A x false -> a_acc A = a_acc A0 -> a_ord A = a_ord A0 ->
      (forall e', In e' (map fst (a_edges A)) -> in_range P A0 e') -> in_range P A0 e -> emplace_edge A e t = Some (A', true) ->
      exists b x', f A' x e t = Some (b, x') /\ Jp S A' x' b.
    Proof.
      intros HO f A x e t A' Hf HJ EA EO HR He E. inversion Hf; subst f. unfold cb_product. eapply PJ_first; eauto.
      destruct (emplace_true _ _ _ _ E) as [E1 [E2 E3]]. eapply wf_in_range; eauto; try congruence. eapply new_range; eauto.
    Qed.
    Lemma Jp_call_post : wf_ord A0 -> forall f A x e t A', Some (cb_product P S) = Some f -> Jp S A x false -> a_acc A = a_acc (fst (qp_init P A0)) -> a_ord A = a_ord A0 ->
      (forall e', In e' (map fst (a_edges A)) -> q_range P A0 e') -> q_range P A0 e -> emplace_edge A e t = Some (A', true) ->
      exists b x', f A' x e t = Some (b, x') /\ Jp S A' x' b.
    Proof.
      intros HO f A x e t A' Hf HJ EA EO HR He E. inversion Hf; subst f. unfold cb_product. eapply PJ_first; eauto.
      destruct (emplace_true _ _ _ _ E) as [E1 [E2 E3]]. eapply wf_q_range; eauto; try congruence. eapply new_range; eauto.
    Qed.
    Lemma Jp_true : forall A x e t A', Jp S A x true -> emplace_edge A e t = Some (A', true) -> Jp S A' x true.
    Proof. intros. eapply PJ_true_first; eauto. Qed.
  End PrePost.

  Lemma new_inst_base : forall ord init fin I, (forall q l, Permutation (ord q l) l) -> new_inst P ord init fin = Some I -> n <= a_size init -> n <= a_size fin ->
    in_init I = init /\ in_fin I = fin /\ forall back, pbase n init fin back (in_prod I) /\ pbase n fin init back (in_prod I).
  Proof.
    intros ord init fin I HO E L1 L2. unfold new_inst in E. destruct (pr_new_spec n init fin false L1 L2 ord HO) as [pr [E1 _]]. fold n in E. rewrite E1 in E. cbn in E.
    inversion E; subst I; cbn. ands; auto. intros back. split.
    - destruct (pr_new_spec n init fin back L1 L2 ord HO) as [pr' [E2 [B _]]]. congruence.
    - destruct (pr_new_spec n fin init back L2 L1 ord HO) as [pr' [E2 [B _]]]. rewrite pr_new_swap in E2. congruence.
  Qed.

  Section Instance.
    Variable ord : nat -> list nat -> list nat.
    Hypothesis HO : forall q l, Permutation (ord q l) l.
    Variables (init fin : aut) (I : inst).
    Hypothesis HI : new_inst P ord init fin = Some I.

    Section Pre.
      Hypothesis WI : aut_wf init.
      Hypothesis LI : n <= a_size init.
      Hypothesis OK : pre_ok P fin.

      Record pre_out (I' : inst) (b : bool) : Prop := {
        pu_init : in_init I' = init;
        pu_side : pre_side fin (in_fin I');
        pu_base : pbase n (in_fin I') init false (in_prod I');
        pu_acc : b = has_accepting (in_prod I');
        pu_none : b = false -> lookup_ok P -> ~ can_reach R (aut_lang n init) (aut_lang n fin) }.

      Lemma pre_run_out : forall x0, Jp init fin x0 false -> exists st0, pre_init P prod_st (Some (cb_product P init)) fin x0 = Some st0 /\
        (forall fuel, pre_run P prod_st (Some (cb_product P init)) fuel st0 = Some None \/
          exists st b, pre_run P prod_st (Some (cb_product P init)) fuel st0 = done (st, b) /\ pre_out (mk_inst init (p_aut st) (p_x st)) b) /\
        (forall fuel, length (p_ws st0) + (a_size fin * pd_nlab P * a_size fin - length (a_edges (p_aut st0))) <= fuel ->
          pre_run P prod_st (Some (cb_product P init)) fuel st0 <> Some None).
      Proof.
        intros x0 HJ. assert (Jc := Jp_call_pre fin init WI (po_ord _ _ OK)).
        destruct (pre_init_spec P WP prod_st (Some (cb_product P init)) fin (po_n _ _ OK) (po_ord _ _ OK) (Jp init)) with (x0 := x0) as [st0 [E SI]]; auto.
        { discriminate. } { intros; eapply Jp_true; eauto. } { apply OK. } { apply pre_ok_range; auto. }
        exists st0. split; auto. split.
        - intros fuel. destruct (pre_run_any P WP prod_st (Some (cb_product P init)) fin (po_n _ _ OK) (Jp init)) with (fuel := fuel) (st := st0)
            as [K|[st [b [K [SI' [Eb Hw]]]]]]; auto. { discriminate. } { intros; eapply Jp_true; eauto. }
          right. exists st, b. split; auto. pose proof (si_base _ _ _ _ _ _ SI') as B. pose proof (b_J _ _ _ _ _ _ B) as [J1 [J2 [J3 [J4 J5]]]].
          constructor; cbn; auto.
          + eapply sat_side; eauto. apply OK.
          + congruence.
          + intros Hb LK [c1 [c2 [H1 [H2 H3]]]]. subst b. destruct Hw as [Hw|[Hw _]]; [|congruence].
            assert (K1: has_accepting (p_x st) = true); [|congruence]. apply (has_accepting_complete n (p_aut st) init false); auto.
            exists c1. split; auto. eapply sat_lang_complete; eauto.
        - intros fuel Hf K. destruct (pre_run_spec P WP prod_st (Some (cb_product P init)) fin (po_n _ _ OK) (Jp init)) with (fuel := fuel) (st := st0) as [st [b [K' _]]]; auto.
          { discriminate. } { intros; eapply Jp_true; eauto. } rewrite K in K'. discriminate.
      Qed.

      Lemma pre_accepts_out : (forall fuel, pre_star_accepts P fuel I = Some None \/ exists b I', pre_star_accepts P fuel I = done (b, I') /\ pre_out I' b) /\
        exists bound, forall fuel, bound <= fuel -> pre_star_accepts P fuel I <> Some None.
      Proof.
        destruct (new_inst_base _ _ _ _ HO HI LI (po_n _ _ OK)) as [E1 [E2 HB]]. unfold pre_star_accepts. rewrite E1, E2. fold n.
        destruct (PJ_init n fin init false (in_prod I)) as [b [pr' [EI HJ]]]; auto. { eapply pre_ok_wf; eauto. } { apply OK. } { apply HB. }
        rewrite EI. cbn [obind fst snd]. destruct b.
        - split; [|exists 0; discriminate]. intros fuel. right. eexists _, _. split; [reflexivity|]. destruct HJ as [J1 [J2 [J3 [J4 J5]]]]. constructor; cbn; auto.
          + apply pre_side_refl; auto. + discriminate.
        - destruct (pre_run_out pr' HJ) as [st0 [E0 [Ha Hb]]]. unfold pre_star_et. rewrite E0. cbn [obind]. split.
          + intros fuel. destruct (Ha fuel) as [K|[st [b [K KO]]]]; rewrite K; auto. right. exists b, (mk_inst init (p_aut st) (p_x st)). auto.
          + eexists. intros fuel Hf. specialize (Hb fuel Hf). destruct (Ha fuel) as [K|[st [b [K KO]]]]; [congruence|]. rewrite K. discriminate.
      Qed.

      Lemma pre_out_verdict : forall I' b, pre_out I' b -> no_in P fin -> lookup_ok P -> (b = true <-> can_reach R (aut_lang n init) (aut_lang n fin)).
      Proof.
        intros I' b H NI LK. split.
        - intros Hb. assert (K := pu_acc _ _ H). rewrite Hb in K. symmetry in K.
          destruct (has_accepting_sound n (in_fin I') init false (in_prod I') (pu_base _ _ H) K) as [c [K1 K2]].
          destruct (pre_side_lang _ _ (pu_side _ _ H) OK NI c K1) as [c' [K3 K4]]. exists c, c'. auto.
        - intros Hc. destruct b; auto. exfalso. eapply pu_none; eauto.
      Qed.
    End Pre.

    Section Post.
      Hypothesis WF : aut_wf fin.
      Hypothesis LF : n <= a_size fin.
      Hypothesis OK : post_ok P init.

      Record post_out (I' : inst) (b : bool) : Prop := {
        qu_fin : in_fin I' = fin;
        qu_side : post_side init (in_init I');
        qu_base : pbase n (in_init I') fin false (in_prod I');
        qu_acc : b = has_accepting (in_prod I');
        qu_none : b = false -> ~ can_reach R (aut_lang n init) (aut_lang n fin) }.

      Lemma post_run_out : forall x0, Jp fin init x0 false -> exists st0, post_init P prod_st init x0 = Some st0 /\
        (forall fuel, post_run P prod_st (Some (cb_product P fin)) fuel st0 = Some None \/
          exists st b, post_run P prod_st (Some (cb_product P fin)) fuel st0 = done (st, b) /\ post_out (mk_inst (q_aut st) fin (q_x st)) b) /\
        (exists bound, forall fuel, bound <= fuel -> post_run P prod_st (Some (cb_product P fin)) fuel st0 <> Some None).
      Proof.
        intros x0 HJ. assert (Jc := Jp_call_post init fin WF (qk_ord _ _ OK)).
        pose proof (proj1 (qp_init_ok P init)) as QO.
        assert (HJ1: Jp fin (fst (qp_init P init)) x0 false).
        { eapply PJ_more_states; eauto. - apply QO. - destruct (qo_acc _ _ QO) as [k Ek]. eauto. }
        destruct (post_init_spec P prod_st (Some (cb_product P fin)) init (qk_n _ _ OK) (qk_ord _ _ OK) (Jp fin)) with (x0 := x0) as [st0 [E SI]]; auto.
        { apply OK. } { intros [q l q'] He. destruct (qk_range _ _ OK q l q' He) as [H1 [H2 H3]]. cbn. auto. }
        exists st0. split; auto. split.
        - intros fuel. destruct (post_run_any P WP prod_st (Some (cb_product P fin)) init (qk_n _ _ OK) (Jp fin)) with (fuel := fuel) (st := st0)
            as [K|[st [b [K [SI' [Eb Hw]]]]]]; auto. { discriminate. } { intros; eapply Jp_true; eauto. }
          right. exists st, b. split; auto. pose proof (k_base _ _ _ _ _ _ _ _ SI') as B. pose proof (c_J _ _ _ _ _ _ B) as [J1 [J2 [J3 [J4 J5]]]].
          constructor; cbn; auto.
          + eapply kinv_side; eauto. apply OK.
          + congruence.
          + intros Hb [c1 [c2 [H1 [H2 H3]]]]. subst b. destruct Hw as [Hw|[Hw _]]; [|congruence].
            assert (K1: has_accepting (q_x st) = true); [|congruence]. apply (has_accepting_complete n (q_aut st) fin false); auto.
            exists c2. split; auto. eapply post_lang_complete; eauto.
        - eexists. intros fuel Hf K. destruct (post_run_spec P WP prod_st (Some (cb_product P fin)) init (qk_n _ _ OK) (Jp fin)) with (fuel := fuel) (st := st0) as [st [b [K' _]]]; auto.
          { discriminate. } { intros; eapply Jp_true; eauto. } { exact Hf. } rewrite K in K'. discriminate.
      Qed.

      Lemma post_accepts_out : (forall fuel, post_star_accepts P fuel I = Some None \/ exists b I', post_star_accepts P fuel I = done (b, I') /\ post_out I' b) /\
        exists bound, forall fuel, bound <= fuel -> post_star_accepts P fuel I <> Some None.
      Proof.
        destruct (new_inst_base _ _ _ _ HO HI (qk_n _ _ OK) LF) as [E1 [E2 HB]]. unfold post_star_accepts. rewrite E1, E2. fold n.
        assert (OK' := OK). apply post_ok_pre_ok in OK'. destruct OK' as [OK' NI].
        destruct (PJ_init n init fin false (in_prod I)) as [b [pr' [EI HJ]]]; auto. { eapply pre_ok_wf; eauto. } { apply OK. } { apply HB. }
        rewrite EI. cbn [obind fst snd]. destruct b.
        - split; [|exists 0; discriminate]. intros fuel. right. eexists _, _. split; [reflexivity|]. destruct HJ as [J1 [J2 [J3 [J4 J5]]]]. constructor; cbn; auto.
          + apply post_side_refl; auto. + discriminate.
        - destruct (post_run_out pr' HJ) as [st0 [E0 [Ha [bound Hb]]]]. unfold post_star_et. rewrite E0. cbn [obind]. split.
          + intros fuel. destruct (Ha fuel) as [K|[st [b [K KO]]]]; rewrite K; auto. right. exists b, (mk_inst (q_aut st) fin (q_x st)). auto.
          + exists bound. intros fuel Hf. specialize (Hb fuel Hf). destruct (Ha fuel) as [K|[st [b [K KO]]]]; [congruence|]. rewrite K. discriminate.
      Qed.

      Lemma post_out_verdict : forall I' b, post_out I' b -> (b = true <-> can_reach R (aut_lang n init) (aut_lang n fin)).
      Proof.
        intros I' b H. split.
        - intros Hb. assert (K := qu_acc _ _ H). rewrite Hb in K. symmetry in K.
          destruct (has_accepting_sound n (in_init I') fin false (in_prod I') (qu_base _ _ H) K) as [c [K1 K2]].
          destruct (post_side_lang _ _ (qu_side _ _ H) OK c K1) as [c' [K3 K4]]. exists c', c. auto.
        - intros Hc. destruct b; auto. exfalso. eapply qu_none; eauto.
      Qed.

      (** Without early termination. *)
      Lemma post_no_ET_out : (forall fuel, post_star_accepts_no_ET P fuel I = Some None \/ exists b I', post_star_accepts_no_ET P fuel I = done (b, I') /\ post_out I' b) /\
        exists bound, forall fuel, bound <= fuel -> post_star_accepts_no_ET P fuel I <> Some None.
      Proof.
        destruct (new_inst_base _ _ _ _ HO HI (qk_n _ _ OK) LF) as [E1 [E2 HB]]. unfold post_star_accepts_no_ET. rewrite E1, E2. fold n.
        assert (G: forall fuel, post_star P fuel init = Some None \/ exists A, post_star P fuel init = done A /\
                  exists b pr', initialize_product n false false A fin (in_prod I) = Some (b, pr') /\ post_out (mk_inst A fin pr') b).
        { intros fuel. destruct (post_star_any P WP init OK fuel) as [K|[st [K [SI Hw]]]]; auto. right. exists (q_aut st). split; auto.
          pose proof (kinv_side _ _ _ _ _ (qk_ord _ _ OK) SI) as SD. destruct (qs_acc _ _ SD) as [k Ek].
          assert (L: n <= a_size (q_aut st)) by (unfold a_size; rewrite Ek, app_length; pose proof (qk_n _ _ OK); unfold a_size in *; fold n in H; lia).
          destruct (initialize_spec n (q_aut st) fin false (qs_wf _ _ SD) WF L LF false (in_prod I)) as [b [pr' [EI [B [_ [Hb Hc]]]]]].
          { eapply (pbase_mono n false init fin); [apply HB|..]; auto; try lia.
            - intros. eapply wjp_incl; [apply SD|eauto]. - unfold a_size. rewrite Ek, app_length. lia.
            - intros q Hq. rewrite Ek. apply nth_error_app1; auto. - apply OK. }
          exists b, pr'. split; auto. constructor; cbn; auto. intros Hf [c1 [c2 [H1 [H2 H3]]]].
          assert (K1: has_accepting pr' = true); [|congruence]. apply (has_accepting_complete n (q_aut st) fin false); auto.
          exists c2. split; auto. eapply post_lang_complete; eauto. }
        split.
        - intros fuel. destruct (G fuel) as [K|[A [K [b [pr' [EI HOut]]]]]]; rewrite K; auto. cbv beta iota delta [done]. rewrite EI. cbn. right. eexists _, _. split; [reflexivity|auto].
        - destruct (post_star_terminates P WP init OK) as [bound Hb]. exists bound. intros fuel Hf. destruct (G fuel) as [K|[A [K [b [pr' [EI HOut]]]]]].
          + destruct (Hb fuel Hf) as [A' K']. rewrite K in K'. discriminate.
          + rewrite K. cbv beta iota delta [done]. rewrite EI. cbn. discriminate.
      Qed.
    End Post.

    (** ** Dual search *)
    Section Dual.
      Hypothesis OKI : post_ok P init.
      Hypothesis OKF : pre_ok P fin.

      (** The callback state holds the product and the other automaton [O]. *)
      Definition JF (O : aut) (A : aut) (x : DX) (b : bool) : Prop := PJ n O A true (fst x) b /\ aut_wf O /\ snd x = O.
      Definition JI (O : aut) (A : aut) (x : DX) (b : bool) : Prop := PJ n A O true (fst x) b /\ aut_wf O /\ snd x = O.

      Lemma JF_true : forall O A x e t A', JF O A x true -> emplace_edge A e t = Some (A', true) -> JF O A' x true.
      Proof. intros O A x e t A' [H1 H2] E. split; auto. eapply PJ_true_second; eauto. Qed.
      Lemma JI_true : forall O A x e t A', JI O A x true -> emplace_edge A e t = Some (A', true) -> JI O A' x true.
      Proof. intros O A x e t A' [H1 H2] E. split; auto. eapply PJ_true_first; eauto. Qed.
      Lemma JF_call : forall O f A x e t A', Some (cb_final P) = Some f -> JF O A x false -> a_acc A = a_acc fin -> a_ord A = a_ord fin ->
        (forall e', In e' (map fst (a_edges A)) -> in_range P fin e') -> in_range P fin e -> emplace_edge A e t = Some (A', true) ->
        exists b x', f A' x e t = Some (b, x') /\ JF O A' x' b.
      Proof.
        intros O f A x e t A' Hf [HJ [HW HX]] EA EO HR He E. inversion Hf; subst f. unfold cb_final. rewrite HX.
        destruct (PJ_second n O A (fst x) e t A') as [b [pr' [K1 K2]]]; auto.
        - destruct (emplace_true _ _ _ _ E) as [E1 [E2 E3]]. eapply (wf_in_range fin); eauto; try congruence; [apply OKF|]. eapply new_range; eauto.
        - fold n. rewrite K1. cbn [obind]. eexists _, _. split; [reflexivity|]. split; auto.
      Qed.
      Lemma JI_call : forall O f A x e t A', Some (cb_initial P) = Some f -> JI O A x false -> a_acc A = a_acc (fst (qp_init P init)) -> a_ord A = a_ord init ->
        (forall e', In e' (map fst (a_edges A)) -> q_range P init e') -> q_range P init e -> emplace_edge A e t = Some (A', true) ->
        exists b x', f A' x e t = Some (b, x') /\ JI O A' x' b.
      Proof.
        intros O f A x e t A' Hf [HJ [HW HX]] EA EO HR He E. inversion Hf; subst f. unfold cb_initial. rewrite HX.
        destruct (PJ_first n A O true (fst x) e t A') as [b [pr' [K1 K2]]]; auto.
        - destruct (emplace_true _ _ _ _ E) as [E1 [E2 E3]]. eapply (wf_q_range init); eauto; try congruence; [apply OKI|]. eapply new_range; eauto.
        - fold n. rewrite K1. cbn [obind]. eexists _, _. split; [reflexivity|]. split; auto.
      Qed.

      Let JT (A : aut) (x : DX) (b : bool) := True.
      Let satJ J st := sat_inv P DX (Some (cb_final P)) fin J st.
      Let kinJ J st := kinv P DX (Some (cb_initial P)) init J st None None.
      Let sat := satJ JT.
      Let kin := kinJ JT.

      Lemma sat_set_x : forall (J J' : aut -> DX -> bool -> Prop) st x, satJ J st -> J' (p_aut st) x (p_found st) -> satJ J' (p_set_x st x).
      Proof. intros J J' st x [B H1 H2 H3 H4 H5] HJ. constructor; auto. destruct B. constructor; auto. Qed.
      Lemma kin_set_x : forall (J J' : aut -> DX -> bool -> Prop) st x, kinJ J st -> J' (q_aut st) x (q_found st) -> kinJ J' (q_set_x st x).
      Proof. intros J J' st x [B H1 H2 H3] HJ. constructor; auto. destruct B. constructor; auto. Qed.
      Lemma sat_weak : forall J st, satJ J st -> sat st.
      Proof. intros J st [B H1 H2 H3 H4 H5]. constructor; auto. destruct B. constructor; auto. exact Logic.I. Qed.
      Lemma kin_weak : forall J st, kinJ J st -> kin st.
      Proof. intros J st [B H1 H2 H3]. constructor; auto. destruct B. constructor; auto. exact Logic.I. Qed.

      Record dual_out (I' : inst) (b : bool) : Prop := {
        du_init : post_side init (in_init I');
        du_fin : pre_side fin (in_fin I');
        du_base : pbase n (in_init I') (in_fin I') true (in_prod I');
        du_acc : b = has_accepting (in_prod I');
        du_none : b = false -> lookup_ok P -> ~ can_reach R (aut_lang n init) (aut_lang n fin) }.

      Definition dual_meas (pre : pre_st DX) : nat := length (p_ws pre) + (a_size fin * pd_nlab P * a_size fin - length (a_edges (p_aut pre))).

      Lemma dual_loop_out : forall fuel pre post pr, sat pre -> kin post -> p_found pre = false -> q_found post = false ->
        PJ n (q_aut post) (p_aut pre) true pr false ->
        (dual_loop P fuel pre post pr = Some None /\ ~ dual_meas pre <= fuel) \/ exists b I', dual_loop P fuel pre post pr = done (b, I') /\ dual_out I' b.
      Proof.
        induction fuel as [|fuel IH]; intros pre post pr S0 K0 F1 F2 HJ; cbn [dual_loop].
        all: pose proof (sat_side _ _ _ _ _ (po_ord _ _ OKF) S0) as SD1; pose proof (kinv_side _ _ _ _ _ (qk_ord _ _ OKI) K0) as SD2.
        all: assert (FIN: p_ws pre = [] \/ q_ws post = [] -> dual_out (mk_inst (q_aut post) (p_aut pre) pr) (p_found pre || q_found post)).
        1,3: intros Hws; destruct HJ as [J1 [J2 [J3 [J4 J5]]]]; constructor; cbn; auto; [rewrite F1, F2; auto|];
          intros _ LK [c1 [c2 [H1 [H2 H3]]]]; assert (K1: has_accepting pr = true); [|congruence];
          apply (has_accepting_complete n (q_aut post) (p_aut pre) true); auto;
          destruct Hws as [Hws|Hws]; [exists c1; split; [eapply post_side_incl; eauto|eapply sat_lang_complete; eauto]
                                     |exists c2; split; [eapply post_lang_complete; eauto|eapply pre_side_incl; eauto]].
        all: destruct (p_ws pre) as [|t1 w1] eqn:Ew1; cbn [is_nil negb andb]; [right; eexists _, _; split; [reflexivity|auto]|].
        all: destruct (q_ws post) as [|t2 w2] eqn:Ew2; cbn [is_nil negb andb]; [right; eexists _, _; split; [reflexivity|auto]|].
        { left. split; auto. unfold dual_meas. rewrite Ew1. cbn. lia. }
        assert (K1: kinJ (JI (p_aut pre)) (q_set_x post (pr, p_aut pre))). { eapply kin_set_x; eauto. rewrite F2. split; auto. split; auto. apply SD1. }
        destruct (post_step_spec P WP DX (Some (cb_initial P)) init (qk_n _ _ OKI) (JI (p_aut pre))) with (st := q_set_x post (pr, p_aut pre)) (t := t2) (ws := w2)
          as [post' [E2 [K2 _]]]; auto. { discriminate. } { apply JI_true. } { apply JI_call. }
        rewrite E2. cbn [obind]. pose proof (kinv_side _ _ _ _ _ (qk_ord _ _ OKI) K2) as SD2'. pose proof (c_J _ _ _ _ _ _ (k_base _ _ _ _ _ _ _ _ K2)) as [HJ2 [HW2 X2]].
        destruct (q_found post') eqn:F2'.
        { right. eexists _, _. split; [reflexivity|]. destruct HJ2 as [J1 [J2 [J3 [J4 J5]]]]. constructor; cbn; auto. discriminate. }
        assert (S1: satJ (JF (q_aut post')) (p_set_x pre (fst (q_x post'), q_aut post'))). { eapply sat_set_x; eauto. rewrite F1. split; auto. split; auto. apply SD2'. }
        destruct (pre_step_spec P WP DX (Some (cb_final P)) fin (po_n _ _ OKF) (JF (q_aut post'))) with (st := p_set_x pre (fst (q_x post'), q_aut post')) (t := t1) (ws := w1)
          as [pre' [E1 [S2 [new [EN1 EN2]]]]]; auto. { discriminate. } { apply JF_true. } { apply JF_call. }
        rewrite E1. cbn [obind]. pose proof (sat_side _ _ _ _ _ (po_ord _ _ OKF) S2) as SD1'. pose proof (b_J _ _ _ _ _ _ (si_base _ _ _ _ _ _ S2)) as [HJ1 [HW1 X1]].
        destruct (p_found pre') eqn:F1'.
        { right. eexists _, _. split; [reflexivity|]. destruct HJ1 as [J1 [J2 [J3 [J4 J5]]]]. constructor; cbn; auto. discriminate. }
        destruct (IH pre' post' (fst (p_x pre'))) as [[K Hm]|K]; eauto using sat_weak, kin_weak. left. split; auto. intros Hm'. apply Hm. unfold dual_meas in *.
        cbn [p_set_x p_aut] in EN1. rewrite EN1, EN2, !app_length, map_length. rewrite Ew1 in Hm'. cbn [length] in Hm'.
        assert (Kb : length (a_edges (p_aut pre')) <= a_size fin * pd_nlab P * a_size fin) by (eapply base_bound; [apply OKF|eapply si_base; exact S2]). rewrite EN1, app_length in Kb. lia.
      Qed.

      Lemma dual_accepts_out : (forall fuel, dual_search_accepts P fuel I = Some None \/ exists b I', dual_search_accepts P fuel I = done (b, I') /\ dual_out I' b) /\
        exists bound, forall fuel, bound <= fuel -> dual_search_accepts P fuel I <> Some None.
      Proof.
        destruct (new_inst_base _ _ _ _ HO HI (qk_n _ _ OKI) (po_n _ _ OKF)) as [E1 [E2 HB]]. unfold dual_search_accepts. rewrite E1, E2. fold n.
        assert (OK' := OKI). apply post_ok_pre_ok in OK'. destruct OK' as [OK' NI].
        destruct (PJ_init n init fin true (in_prod I)) as [b [pr' [EI HJ]]]; try (eapply pre_ok_wf; eauto). { apply OKI. } { apply OKF. } { apply HB. }
        rewrite EI. cbn [obind fst snd]. destruct b.
        - split; [|exists 0; discriminate]. intros fuel. right. eexists _, _. split; [reflexivity|]. destruct HJ as [J1 [J2 [J3 [J4 J5]]]]. constructor; cbn; auto.
          + apply post_side_refl; auto. + apply pre_side_refl; auto. + discriminate.
        - destruct (pre_init_spec P WP DX (Some (cb_final P)) fin (po_n _ _ OKF) (po_ord _ _ OKF) (JF init)) with (x0 := (pr', init)) as [pre [E0 S0]].
          { discriminate. } { apply JF_true. } { apply JF_call. } { split; cbn; auto. split; auto. eapply pre_ok_wf; eauto. } { apply OKF. } { apply pre_ok_range; auto. }
          rewrite E0. cbn [obind]. pose proof (sat_side _ _ _ _ _ (po_ord _ _ OKF) S0) as SD1. pose proof (b_J _ _ _ _ _ _ (si_base _ _ _ _ _ _ S0)) as [HJ1 [HW1 X1]].
          pose proof (proj1 (qp_init_ok P init)) as QO.
          assert (HJ2: PJ n (fst (qp_init P init)) (p_aut pre) true (fst (p_x pre)) (p_found pre)).
          { eapply PJ_more_states; eauto. - apply QO. - destruct (qo_acc _ _ QO) as [k Ek]. eauto. }
          set (J0 := fun (A : aut) (x : DX) (b : bool) => A = fst (qp_init P init) /\ b = false).
          destruct (post_init_spec P DX (Some (cb_initial P)) init (qk_n _ _ OKI) (qk_ord _ _ OKI) J0) with (x0 := (fst (p_x pre), p_aut pre)) as [post [EP KP]].
          { unfold J0; auto. } { apply OKI. } { intros [q l q'] He. destruct (qk_range _ _ OKI q l q' He) as [H1 [H2 H3]]. cbn. auto. }
          pose proof (kinv_side _ _ _ _ _ (qk_ord _ _ OKI) KP) as SD2. pose proof (c_J _ _ _ _ _ _ (k_base _ _ _ _ _ _ _ _ KP)) as [Q1 Q2]. rewrite <- Q1 in HJ2.
          rewrite EP. cbn [obind]. rewrite Q2, orb_false_r. destruct (p_found pre) eqn:F1.
          + split; [|exists 0; discriminate]. intros fuel. right. eexists _, _. split; [reflexivity|]. destruct HJ2 as [J1 [J2 [J3 [J4 J5]]]]. constructor; cbn; auto. discriminate.
          + assert (S' := sat_weak _ _ S0). assert (K' := kin_weak _ _ KP). split.
            * intros fuel. destruct (dual_loop_out fuel pre post (fst (p_x pre))) as [[K _]|K]; auto.
            * exists (dual_meas pre). intros fuel Hf K. destruct (dual_loop_out fuel pre post (fst (p_x pre))) as [[_ K'']|[b [I' [K'' _]]]]; auto. rewrite K in K''. discriminate.
      Qed.

      Lemma dual_out_verdict : forall I' b, dual_out I' b -> no_in P fin -> lookup_ok P -> (b = true <-> can_reach R (aut_lang n init) (aut_lang n fin)).
      Proof.
        intros I' b H NI LK. split.
        - intros Hb. assert (K := du_acc _ _ H). rewrite Hb in K. symmetry in K.
          destruct (has_accepting_sound n _ _ true (in_prod I') (du_base _ _ H) K) as [c [K1 K2]].
          destruct (post_side_lang _ _ (du_init _ _ H) OKI c K1) as [c1 [K3 K4]]. destruct (pre_side_lang _ _ (du_fin _ _ H) OKF NI c K2) as [c2 [K5 K6]].
          exists c1, c2. ands; auto. eapply reach_trans; eauto.
        - intros Hc. destruct b; auto. exfalso. eapply du_none; eauto.
      Qed.
    End Dual.
  End Instance.
End Verdict.
