(** C01-C06, C20, C35, C36, C47: the rule store and the two saturation procedures. *)
From Coq Require Import List Arith Lia Bool ZArith Permutation.
From Verif Require Import Base BaseFacts Spec SpecFacts PdaModel PdaProof StoreProof AutModel AutProof PreStarModel PreStarProof
  PreStarLang PostStarModel PostStarProof PostStarLang SolverModel SolverProof ExHelp.
Import ListNotations.

(** * A concrete instance used as a witness that hypotheses are met *)
(** 0 --[a]--> 1 push b; 1 --[b]--> 1 swap c; 1 --[c]--> 2 pop; 2 --*--> 0 noop; the last rule is a rule cycle. *)
Definition ex_rules : list urule :=
  [ mk_urule 0 (mk_rule 1 PUSH 1 0%Z) false [0]; mk_urule 1 (mk_rule 1 SWAP 2 0%Z) false [1];
    mk_urule 1 (mk_rule 2 POP 0 0%Z) false [2]; mk_urule 2 (mk_rule 0 NOOP 0 0%Z) true [];
    mk_urule 0 (mk_rule 1 PUSH 1 0%Z) false [1; 2] ].
Definition ex_pda := build 3 ex_rules.
(** Accepts exactly (2, [a]) ... *)
Definition ex_target : aut := mk_ex [false; false; false; true] [(2, 0, 3)].
(** ... and exactly (0, [a]). *)
Definition ex_start : aut := mk_ex [false; false; false; true] [(0, 0, 3)].

Example ex_rules_wf : Forall (wf_urule 3) ex_rules.
Proof. apply wf_urulesb_ok. reflexivity. Qed.
Example ex_lookup : lookup_safe ex_rules.
Proof. apply lookup_safeb_ok. reflexivity. Qed.
Example ex_target_ok : pre_ok ex_pda ex_target /\ no_in ex_pda ex_target.
Proof. split; [apply autb_ok|apply no_inb_ok]; reflexivity. Qed.
Example ex_start_ok : pre_ok ex_pda ex_start /\ no_in ex_pda ex_start.
Proof. split; [apply autb_ok|apply no_inb_ok]; reflexivity. Qed.

(** * C01, C02, C03: pre* *)
Theorem C01_pre_star_sound : forall nlab us A fuel A', Forall (wf_urule nlab) us ->
  pre_ok (build nlab us) A -> no_in (build nlab us) A -> pre_star (build nlab us) fuel A = done A' ->
  forall c, aut_lang (pd_n (build nlab us)) A' c ->
  exists c', reach (user_rules nlab us) c c' /\ aut_lang (pd_n (build nlab us)) A c'.
Proof. intros; eapply built_pre_sound; eauto. Qed.
Print Assumptions C01_pre_star_sound.

Lemma lookup_safe_ok : forall nlab us, Forall (wf_urule nlab) us -> lookup_safe us -> lookup_ok (build nlab us).
Proof.
  intros nlab us W L p r ls Hin. assert (K: exists ls, In (r, ls) (rules_at (build nlab us) p)) by eauto.
  apply build_keys in K; auto. destruct K as [u [K1 [_ <-]]]. eauto.
Qed.

Theorem C02_pre_star_complete : forall nlab us A fuel A', Forall (wf_urule nlab) us -> lookup_safe us ->
  pre_ok (build nlab us) A -> pre_star (build nlab us) fuel A = done A' ->
  forall c c', reach (user_rules nlab us) c c' -> aut_lang (pd_n (build nlab us)) A c' ->
  aut_lang (pd_n (build nlab us)) A' c.
Proof. intros nlab us A fuel A' W L. intros. eapply built_pre_complete; eauto. apply lookup_safe_ok; auto. Qed.
Print Assumptions C02_pre_star_complete.

Theorem C03_pre_star_terminates : forall nlab us A, Forall (wf_urule nlab) us -> pre_ok (build nlab us) A ->
  (exists bound, forall fuel, bound <= fuel -> exists A', pre_star (build nlab us) fuel A = done A') /\
  (forall fuel, pre_star (build nlab us) fuel A <> None).
Proof.
  intros nlab us A W OK. split.
  - apply pre_star_terminates; auto. apply build_wf; auto.
  - intros fuel. destruct (pre_star_any _ (build_wf _ _ W) A OK fuel) as [K|[st [K _]]]; rewrite K; discriminate.
Qed.
Print Assumptions C03_pre_star_terminates.

(** The saturated automaton of the example accepts (0, [a]), which needs four rule applications. *)
Example C01_C02_C03_example : exists A', pre_star ex_pda 100 ex_target = done A' /\ aut_lang 3 A' (0, [0]) /\
  ~ aut_lang 3 ex_target (0, [0]) /\ reach (user_rules 3 ex_rules) (0, [0]) (2, [0]).
Proof.
  destruct (pre_star ex_pda 100 ex_target) as [[A'|]|] eqn:E; try (vm_compute in E; discriminate).
  exists A'. split; auto. assert (H: aut_lang 3 A' (0, [0])).
  { vm_compute in E. inversion E; subst A'. split; [cbn; lia|]. exists 3. split; [|reflexivity].
    eapply ap_lab with (q1 := 3); [|constructor]. cbv -[In]. cbn. repeat (try (left; reflexivity); right). }
  split; auto. split.
  - intros [_ [f [Hp Hf]]]. cbn in *. inversion Hp as [|q l q1 w q2 He _|q q1 w q2 He _]; subst; destruct He as [He|[]]; inversion He.
  - destruct (C01_pre_star_sound 3 ex_rules ex_target 100 A' ex_rules_wf (proj1 ex_target_ok) (proj2 ex_target_ok) E _ H) as [c' [Hr [Hl [f [Hp Hf]]]]].
    destruct c' as [p w]. assert (f = 3). { unfold aut_final in Hf. cbn in Hf. do 4 (destruct f as [|f]; [try discriminate Hf|]); auto. destruct f; discriminate. }
    subst f. cbn in *. inversion Hp as [q|q l q1 w1 q2 He Hq|q q1 w1 q2 He Hq]; subst.
    + exfalso. revert Hl. vm_compute. lia.
    + destruct He as [He|[]]. inversion He; subst. inversion Hq as [q|q l q1 w2 q2 He' Hq'|q q1 w2 q2 He' Hq']; subst; auto; destruct He' as [He'|[]]; inversion He'.
    + destruct He as [He|[]]; inversion He.
Qed.

(** * C04, C05, C06: post* *)
Theorem C04_post_star_sound : forall nlab us A fuel A', Forall (wf_urule nlab) us ->
  pre_ok (build nlab us) A -> no_in (build nlab us) A -> post_star (build nlab us) fuel A = done A' ->
  forall c, aut_lang (pd_n (build nlab us)) A' c ->
  exists c', reach (user_rules nlab us) c' c /\ aut_lang (pd_n (build nlab us)) A c'.
Proof. intros; eapply built_post_sound; eauto. Qed.
Print Assumptions C04_post_star_sound.

Theorem C05_post_star_complete : forall nlab us A fuel A', Forall (wf_urule nlab) us ->
  pre_ok (build nlab us) A -> no_in (build nlab us) A -> post_star (build nlab us) fuel A = done A' ->
  forall c c', reach (user_rules nlab us) c' c -> aut_lang (pd_n (build nlab us)) A c' ->
  aut_lang (pd_n (build nlab us)) A' c.
Proof. intros; eapply built_post_complete; eauto. Qed.
Print Assumptions C05_post_star_complete.

Theorem C06_post_star_terminates : forall nlab us A, Forall (wf_urule nlab) us ->
  pre_ok (build nlab us) A -> no_in (build nlab us) A ->
  (exists bound, forall fuel, bound <= fuel -> exists A', post_star (build nlab us) fuel A = done A') /\
  (forall fuel, post_star (build nlab us) fuel A <> None).
Proof.
  intros nlab us A W OK NI. assert (PO: post_ok (build nlab us) A) by (apply post_ok_pre_ok; auto). split.
  - apply post_star_terminates; auto. apply build_wf; auto.
  - intros fuel. destruct (post_star_any _ (build_wf _ _ W) A PO fuel) as [K|[st [K _]]]; rewrite K; discriminate.
Qed.
Print Assumptions C06_post_star_terminates.

(** Run of the example: (0,[a]) -> (1,[b;a]) -> (1,[c;a]) -> (2,[a]) -> (0,[a]). *)
Example ex_run : reach (user_rules 3 ex_rules) (0, [0]) (2, [0]).
Proof.
  assert (R: forall u p q o l, In u ex_rules -> u_from u = p -> r_to (u_rule u) = q -> sop_of (u_rule u) = o ->
             (if u_wild u then l < 3 else In l (u_pre u)) -> user_rules 3 ex_rules (mk_srule p l q o)).
  { intros u p q o l H1 H2 H3 H4 H5. exists u. cbn. auto. }
  eapply reach_step. { exists (mk_srule 0 0 1 (SPush 1)). split; [eapply R; [left; reflexivity|..]; cbn; auto|apply (step_by_intro (mk_srule 0 0 1 (SPush 1)))]. }
  eapply reach_step. { exists (mk_srule 1 1 1 (SSwap 2)). split; [eapply R; [right; left; reflexivity|..]; cbn; auto|apply (step_by_intro (mk_srule 1 1 1 (SSwap 2)))]. }
  eapply reach_step. { exists (mk_srule 1 2 2 SPop). split; [eapply R; [right; right; left; reflexivity|..]; cbn; auto|apply (step_by_intro (mk_srule 1 2 2 SPop))]. }
  apply reach_refl.
Qed.
Example C04_C05_C06_example : exists A', post_star ex_pda 100 ex_start = done A' /\ aut_lang 3 A' (2, [0]) /\ ~ aut_lang 3 ex_start (2, [0]).
Proof.
  destruct (post_star ex_pda 100 ex_start) as [[A'|]|] eqn:E; try (vm_compute in E; discriminate).
  exists A'. split; auto. split.
  - eapply (C05_post_star_complete 3 ex_rules ex_start 100 A'); eauto using ex_rules_wf, ex_run; try apply ex_start_ok.
    split; [apply Nat.ltb_lt; reflexivity|]. exists 3. split; [|reflexivity]. eapply ap_lab; [left; reflexivity|constructor].
  - intros [_ [f [Hp Hf]]]. cbn in *. inversion Hp as [|q l q1 w q2 He _|q q1 w q2 He _]; subst; destruct He as [He|[]]; inversion He.
Qed.

(** * C20, C35, C36: the rule store *)
(** Exactly the transitions of the calls, for every order of calls; same-key rules have one entry. *)
Theorem C20_rule_store : forall nlab us, Forall (wf_urule nlab) us ->
  (forall sr, pda_rules (build nlab us) sr <-> user_rules nlab us sr) /\
  (forall p r, (exists ls, In (r, ls) (rules_at (build nlab us) p)) <-> exists u, In u us /\ u_from u = p /\ u_rule u = r) /\
  (forall p, NoDup (map fst (rules_at (build nlab us) p))) /\
  (forall p, p < pd_n (build nlab us) <-> exists u, In u us /\ (p <= u_from u \/ p <= r_to (u_rule u))).
Proof.
  intros nlab us W. ands.
  - intros; apply build_rules; auto.
  - apply build_keys; auto.
  - intros p. apply rsorted_nodup. apply (wf_wf_pda' _ (build_wf _ _ W)).
  - apply build_n.
Qed.
Print Assumptions C20_rule_store.
(** In the example the two calls with key (1, PUSH b) are merged: preconditions {a} and {b,c} become {a,b,c}. *)
Example C20_example : rules_at ex_pda 0 = [(mk_rule 1 PUSH 1 0%Z, mk_labels false [0; 1; 2])] /\
  user_rules 3 ex_rules (mk_srule 0 2 1 (SPush 1)).
Proof. split; [reflexivity|]. exists (mk_urule 0 (mk_rule 1 PUSH 1 0%Z) false [1; 2]). cbn. ands; auto 10. Qed.

(** clear_state after any sequence of calls: what is left is what was added and not cleared since. *)
Theorem C35_clear_state : forall nlab cs P, Forall (wf_call nlab) cs -> do_calls nlab cs = Some P ->
  (forall sr, pda_rules P sr <-> live_rules nlab cs sr) /\
  (forall s, s < pd_n P -> exists P', clear_state P s = Some P' /\ pd_n P' = pd_n P /\
     (forall sr, pda_rules P' sr <-> pda_rules P sr /\ s_from sr <> s /\ s_to sr <> s) /\
     (forall p r ls, In (r, ls) (rules_at P' p) <-> In (r, ls) (rules_at P p) /\ p <> s /\ r_to r <> s)).
Proof.
  intros nlab cs P W E. destruct (calls_spec nlab cs P W E) as [WP [Hl HR]]. split; auto.
  intros s Hs. destruct (clear_state_spec P s WP Hs) as [P' [E' [Hn [Hl' [HA HP]]]]]. exists P'.
  assert (HI: forall p r ls, In (r, ls) (rules_at P' p) <-> In (r, ls) (rules_at P p) /\ p <> s /\ r_to r <> s).
  { intros p r ls. rewrite HA. destruct (Nat.eqb_spec p s); [cbn; tauto|]. rewrite filter_In. unfold keep.
    rewrite negb_true_iff, Nat.eqb_neq. cbn. tauto. }
  ands; auto. intros sr. rewrite !pda_rules_at, Hl'. split.
  - intros [r [ls [H1 [H2 [H3 H4]]]]]. apply HI in H1. destruct H1 as [H1 [H5 H6]]. ands; [exists r, ls; auto|auto|congruence].
  - intros [[r [ls [H1 [H2 [H3 H4]]]]] [H5 H6]]. exists r, ls. ands; auto. apply HI. ands; auto. congruence.
Qed.
Print Assumptions C35_clear_state.
Example C35_example : exists P, do_calls 3 (map CAdd ex_rules ++ [CClear 2]) = Some P /\
  rules_at P 1 = [(mk_rule 1 SWAP 2 0%Z, mk_labels false [1])] /\ rules_at P 2 = [] /\ pres_at P 2 = [].
Proof. eexists. split; [vm_compute; reflexivity|]. ands; reflexivity. Qed.

(** Predecessor index: exact for PDAs built by adding rules; complete (nothing missing) also after clear_state. *)
Theorem C36_predecessors : forall nlab us, Forall (wf_urule nlab) us -> forall s t,
  In s (pres_at (build nlab us) t) <-> exists r ls, In (r, ls) (rules_at (build nlab us) s) /\ r_to r = t.
Proof.
  intros nlab us W s t. rewrite build_pres. split.
  - intros [u [H1 [H2 H3]]]. assert (K: exists u, In u us /\ u_from u = s /\ u_rule u = u_rule u) by (exists u; auto).
    destruct (proj2 (build_keys nlab us W s (u_rule u))) as [ls H]; eauto.
  - intros [r [ls [H1 H2]]]. destruct (proj1 (build_keys nlab us W s r)) as [u [K1 [K2 K3]]]; eauto. exists u. subst; auto.
Qed.
Print Assumptions C36_predecessors.
Theorem C36_predecessors_after_clear_partial : forall nlab cs P, Forall (wf_call nlab) cs -> do_calls nlab cs = Some P ->
  forall s r ls, In (r, ls) (rules_at P s) -> In s (pres_at P (r_to r)).
Proof. intros nlab cs P W E s r ls H. destruct (calls_spec nlab cs P W E) as [WP _]. eapply (wf'_pre _ WP); eauto. Qed.
Print Assumptions C36_predecessors_after_clear_partial.
(** ... but not exact after clear_state: the cleared state stays in the index of its former successors. *)
Theorem C36_predecessors_after_clear_refuted : exists P, do_calls 3 (map CAdd ex_rules ++ [CClear 2]) = Some P /\
  In 2 (pres_at P 0) /\ rules_at P 2 = [].
Proof. eexists. split; [vm_compute; reflexivity|]. split; [cbv; auto|reflexivity]. Qed.
Print Assumptions C36_predecessors_after_clear_refuted.
Example C36_example : pres_at ex_pda 1 = [0; 1].
Proof. reflexivity. Qed.

(** * C47: the look-up of rules by target in pre* *)
Theorem C47_rule_lookup : forall nlab us, Forall (wf_urule nlab) us -> lookup_safe us -> forall p q id r ls,
  In (id, (r, ls)) (visited (rules_at (build nlab us) p) q) <-> nth_error (rules_at (build nlab us) p) id = Some (r, ls) /\ r_to r = q.
Proof.
  intros nlab us W L p q id r ls. split.
  - intros H. apply visited_In in H. exact H.
  - intros [H1 H2]. eapply visited_complete; eauto using build_wf, lookup_safe_ok.
Qed.
Print Assumptions C47_rule_lookup.
Example C47_example : visited (rules_at ex_pda 1) 2 = [(1, (mk_rule 2 POP 0 0%Z, mk_labels false [2]))].
Proof. reflexivity. Qed.

(** With a negative weight on a PUSH of label 0 the rule is skipped, and pre* misses a reachable configuration. *)
Definition neg_rules : list urule := [ mk_urule 0 (mk_rule 1 PUSH 0 (-1)%Z) false [0] ].
Definition neg_target : aut := mk_ex [false; false; false; true] [(1, 0, 2); (2, 0, 3)].
Theorem C47_rule_lookup_refuted : exists r ls,
  Forall (wf_urule 1) neg_rules /\ In (r, ls) (rules_at (build 1 neg_rules) 0) /\ r_to r = 1 /\ visited (rules_at (build 1 neg_rules) 0) 1 = [].
Proof. eexists _, _. split; [apply wf_urulesb_ok; reflexivity|]. split; [left; reflexivity|]. split; reflexivity. Qed.
Print Assumptions C47_rule_lookup_refuted.
Theorem C02_pre_star_complete_negative_weight_refuted : exists A', 
  Forall (wf_urule 1) neg_rules /\ pre_ok (build 1 neg_rules) neg_target /\ no_in (build 1 neg_rules) neg_target /\
  pre_star (build 1 neg_rules) 100 neg_target = done A' /\
  reach (user_rules 1 neg_rules) (0, [0]) (1, [0; 0]) /\ aut_lang 2 neg_target (1, [0; 0]) /\ ~ aut_lang 2 A' (0, [0]).
Proof.
  destruct (pre_star (build 1 neg_rules) 100 neg_target) as [[A'|]|] eqn:E; try (vm_compute in E; discriminate).
  exists A'. ands; auto.
  - apply wf_urulesb_ok; reflexivity.
  - apply autb_ok; reflexivity.
  - apply no_inb_ok; reflexivity.
  - apply reach_one. exists (mk_srule 0 0 1 (SPush 0)). split; [|apply (step_by_intro (mk_srule 0 0 1 (SPush 0)) [])].
    eexists. split; [left; reflexivity|]. cbn. auto.
  - split; [cbn; lia|]. exists 3. split; [|reflexivity].
    eapply ap_lab; [left; reflexivity|]. eapply ap_lab; [right; left; reflexivity|constructor].
  - vm_compute in E. inversion E; subst A'. intros [_ [f [Hp _]]]. cbn in Hp.
    inversion Hp as [|q l q1 w q2 He _|q q1 w q2 He _]; subst; cbn in He; unfold aut_edges, edges_of in He; cbn in He;
      repeat destruct He as [He|He]; try inversion He.
Qed.
Print Assumptions C02_pre_star_complete_negative_weight_refuted.
