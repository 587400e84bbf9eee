(** pre_star and post_star end to end, for PDAs built through the API. *)
From Coq Require Import List Arith Lia Bool ZArith.
From Verif Require Import Base BaseFacts Spec SpecFacts PdaModel PdaProof AutModel AutProof PreStarModel PreStarProof PreStarLang
  PostStarModel PostStarProof PostStarLang SolverModel.
Import ListNotations.


Lemma reach_iff : forall R R' c c', (forall sr, R sr <-> R' sr) -> reach R c c' <-> reach R' c c'.
Proof. intros R R' c c' H; split; intros K; (eapply reach_mono; [|exact K]); intros; apply H; auto. Qed.

Section Pre.
  Variable P : pda.
  Hypothesis WP : wf_pda P.
  Variable A : aut.
  Hypothesis OK : pre_ok P A.
  Let J : aut -> unit -> bool -> Prop := fun _ _ _ => True.

  Lemma pre_star_init : exists st, pre_init P unit None A tt = Some st /\ sat_inv P unit None A J st.
  Proof.
    apply pre_init_spec; unfold J; auto.
    - apply OK. - apply OK. - discriminate. - apply OK.
    - apply pre_ok_range; auto.
  Qed.

  Lemma pre_star_any : forall fuel, pre_star P fuel A = Some None \/
    exists st, pre_star P fuel A = done (p_aut st) /\ sat_inv P unit None A J st /\ p_ws st = [].
  Proof.
    intros fuel. destruct pre_star_init as [st0 [E HI]]. unfold pre_star, pre_star_et. rewrite E; cbn [obind].
    destruct (pre_run_any P WP unit None A (po_n _ _ OK) J) with (fuel := fuel) (st := st0) as [K|[st' [b [K [H1 [H2 H3]]]]]]; unfold J; auto.
    - discriminate.
    - rewrite K; auto.
    - rewrite K. right. exists st'. ands; auto. destruct H3 as [|[_ H3]]; auto. contradiction.
  Qed.

  Lemma pre_star_terminates : exists bound, forall fuel, bound <= fuel -> exists A', pre_star P fuel A = done A'.
  Proof.
    destruct pre_star_init as [st0 [E HI]].
    exists (length (p_ws st0) + (a_size A * pd_nlab P * a_size A - length (a_edges (p_aut st0)))).
    intros fuel Hf. unfold pre_star, pre_star_et. rewrite E; cbn [obind].
    destruct (pre_run_spec P WP unit None A (po_n _ _ OK) J) with (fuel := fuel) (st := st0) as [st' [b [K _]]]; unfold J; auto.
    { discriminate. }
    rewrite K. eexists; reflexivity.
  Qed.
End Pre.

Section Post.
  Variable P : pda.
  Hypothesis WP : wf_pda P.
  Variable A : aut.
  Hypothesis OK : post_ok P A.
  Let J : aut -> unit -> bool -> Prop := fun _ _ _ => True.

  Lemma post_star_init : exists st, post_init P unit A tt = Some st /\ kinv P unit None A J st None None.
  Proof.
    apply post_init_spec; unfold J; auto.
    - apply OK. - apply OK. - apply OK.
    - intros [q l q'] He. destruct (qk_range _ _ OK q l q' He) as [H1 [H2 H3]]. cbn. auto.
  Qed.

  Lemma post_star_any : forall fuel, post_star P fuel A = Some None \/
    exists st, post_star P fuel A = done (q_aut st) /\ kinv P unit None A J st None None /\ q_ws st = [].
  Proof.
    intros fuel. destruct post_star_init as [st0 [E HI]]. unfold post_star, post_star_et. rewrite E; cbn [obind].
    destruct (post_run_any P WP unit None A (qk_n _ _ OK) J) with (fuel := fuel) (st := st0) as [K|[st' [b [K [H1 [H2 H3]]]]]]; unfold J; auto.
    - discriminate.
    - rewrite K; auto.
    - rewrite K. right. exists st'. ands; auto. destruct H3 as [|[_ H3]]; auto. contradiction.
  Qed.

  Lemma post_star_terminates : exists bound, forall fuel, bound <= fuel -> exists A', post_star P fuel A = done A'.
  Proof.
    destruct post_star_init as [st0 [E HI]]. eexists. intros fuel Hf. unfold post_star, post_star_et. rewrite E; cbn [obind].
    destruct (post_run_spec P WP unit None A (qk_n _ _ OK) J) with (fuel := fuel) (st := st0) as [st' [b [K _]]]; unfold J; auto.
    { discriminate. }
    { exact Hf. }
    rewrite K. eexists; reflexivity.
  Qed.
End Post.

(** No PUSH rule with label 0 and negative weight: condition under which the rule look-up by lower_bound is complete. *)
Definition lookup_safe (us : list urule) : Prop :=
  forall u, In u us -> r_op (u_rule u) = PUSH -> r_opl (u_rule u) = 0 -> (0 <= r_w (u_rule u))%Z.

Section Built.
  Variables (nlab : nat) (us : list urule).
  Hypothesis W : Forall (wf_urule nlab) us.
  Let P := build nlab us.
  Let R := user_rules nlab us.

  Lemma built_reach : forall c c', reach (pda_rules P) c c' <-> reach R c c'.
  Proof. intros. apply reach_iff. intros. apply build_rules; auto. Qed.

  Lemma built_pre_sound : forall A fuel A', pre_ok P A -> no_in P A -> pre_star P fuel A = done A' ->
    forall c, aut_lang (pd_n P) A' c -> exists c', reach R c c' /\ aut_lang (pd_n P) A c'.
  Proof.
    intros A fuel A' OK NI E c Hc. destruct (pre_star_any P (build_wf _ _ W) A OK fuel) as [K|[st [K [SI WS]]]]; rewrite E in K; [discriminate|].
    inversion K; subst. destruct (wj_lang_sound P A (p_aut st) (build_wf _ _ W) OK NI) with (c := c) as [c' [H1 H2]]; auto.
    - apply SI. - apply SI. - exists c'. split; auto. apply built_reach; auto.
  Qed.

  Lemma built_pre_complete : forall A fuel A', lookup_ok P -> pre_ok P A -> pre_star P fuel A = done A' ->
    forall c c', reach R c c' -> aut_lang (pd_n P) A c' -> aut_lang (pd_n P) A' c.
  Proof.
    intros A fuel A' LK OK E c c' H Hc. destruct (pre_star_any P (build_wf _ _ W) A OK fuel) as [K|[st [K [SI WS]]]]; rewrite E in K; [discriminate|].
    inversion K; subst. eapply sat_lang_complete; eauto. apply build_wf; auto. apply built_reach; eauto.
  Qed.

  Lemma built_post_sound : forall A fuel A', pre_ok P A -> no_in P A -> post_star P fuel A = done A' ->
    forall c, aut_lang (pd_n P) A' c -> exists c', reach R c' c /\ aut_lang (pd_n P) A c'.
  Proof.
    intros A fuel A' OK1 NI E c Hc. assert (OK: post_ok P A) by (apply post_ok_pre_ok; auto).
    destruct (post_star_any P (build_wf _ _ W) A OK fuel) as [K|[st [K [SI WS]]]]; rewrite E in K; [discriminate|].
    inversion K; subst. destruct (wjp_lang_sound P A (q_aut st) (build_wf _ _ W) OK) with (c := c) as [c' [H1 H2]]; auto.
    - apply SI. - apply SI. - exists c'. split; auto. apply built_reach; auto.
  Qed.

  Lemma built_post_complete : forall A fuel A', pre_ok P A -> no_in P A -> post_star P fuel A = done A' ->
    forall c c', reach R c' c -> aut_lang (pd_n P) A c' -> aut_lang (pd_n P) A' c.
  Proof.
    intros A fuel A' OK1 NI E c c' H Hc. assert (OK: post_ok P A) by (apply post_ok_pre_ok; auto).
    destruct (post_star_any P (build_wf _ _ W) A OK fuel) as [K|[st [K [SI WS]]]]; rewrite E in K; [discriminate|].
    inversion K; subst. eapply post_lang_complete; eauto. apply build_wf; auto. apply built_reach; eauto.
  Qed.
End Built.
