(** C17, C18, C19, C37 and the part of C05 about accepts(): queries on P-automata. *)
From Coq Require Import List Arith Lia Bool ZArith Permutation.
From Verif Require Import Base BaseFacts Spec SpecFacts PdaModel PdaProof AutModel AutProof PreStarModel PreStarProof PreStarLang
  PostStarModel PostStarProof PostStarLang SolverModel SolverProof QueryModel QueryProof PathModel PathProof ExHelp PropsSaturation.
Import ListNotations.

(** An automaton with a cycle, two accepting states, an epsilon edge and two labels between the same states. PDA states: 0, 1. *)
Definition qex : aut :=
  mk_aut [false; false; false; true; true]
    [(mk_edge 0 (Some 7) 2, TNull); (mk_edge 2 (Some 5) 2, TNull); (mk_edge 2 (Some 6) 3, TNull); (mk_edge 2 (Some 4) 3, TNull);
     (mk_edge 1 None 2, TNull); (mk_edge 3 (Some 6) 4, TNull)] (fun _ l => rev l).
Example qex_wf : aut_wf qex.
Proof.
  constructor.
  - intros q l. apply Permutation_sym, Permutation_rev.
  - intros q l q' H. cbn in H. unfold aut_edges, edges_of in H. cbn in H. repeat (destruct H as [H|H]; [inversion H; subst; cbn; lia|]). destruct H.
Qed.

(** * C18 *)
(** The answer, when the loop ends, is epsilon-free membership; it ends within (N+1)^|stack| iterations and no access is out of range. *)
Theorem C18_accepts : forall A q w, aut_wf A -> q < a_size A ->
  (forall fuel b, accepts A fuel q w = done b -> (b = true <-> exists f, npath (aut_edges A) q w f /\ aut_final A f)) /\
  (forall fuel, Nat.pow (S (a_size A)) (length w) <= fuel -> exists b, accepts A fuel q w = done b) /\
  (forall fuel, accepts A fuel q w <> None).
Proof.
  intros A q w W Hq. split; [|split]; intros fuel; [intros b E|intros Hf|]; destruct (accepts_spec A W fuel q w Hq) as [[H|[b' [H H1]]] H2].
  - rewrite E in H. discriminate.
  - rewrite E in H. inversion H; subst. auto.
  - destruct (H2 Hf H).
  - eauto.
  - rewrite H. discriminate.
  - rewrite H. discriminate.
Qed.
Print Assumptions C18_accepts.
Example C18_example : accepts qex 100 0 [7; 5; 5; 6] = done true /\ accepts qex 100 0 [7; 5] = done false /\ accepts qex 100 1 [6] = done false /\
  accepts qex 100 3 [] = done true.
Proof. repeat split; vm_compute; reflexivity. Qed.
(** The query ignores epsilon edges: (1,[6]) is in the language but not accepted. *)
Theorem C18_accepts_with_epsilon_refuted : exists A q w, aut_wf A /\ q < a_size A /\ (exists f, apath (aut_edges A) q w f /\ aut_final A f) /\
  forall fuel, 100 <= fuel -> accepts A fuel q w = done false.
Proof.
  exists qex, 1, [6]. ands; [apply qex_wf|cbn; lia| |].
  - exists 3. split; [|reflexivity]. eapply ap_eps with (q1 := 2); [cbn; tauto|]. eapply ap_lab; [|constructor]. cbn; tauto.
  - intros fuel Hf. destruct (C18_accepts qex 1 [6] qex_wf) as [H1 [H2 _]]; [cbn; lia|].
    destruct (H2 fuel) as [b Eb]; [cbn; lia|]. rewrite Eb. destruct b; auto. exfalso.
    destruct (proj1 (H1 _ _ Eb) eq_refl) as [f [Hn _]]. inversion Hn as [|? ? ? ? ? He]; subst. unfold aut_edges, edges_of in He. cbn in He.
    repeat (destruct He as [He|He]; [discriminate|]). destruct He.
Qed.
Print Assumptions C18_accepts_with_epsilon_refuted.

(** * C19 *)
(** accept_path returns the states of a path from [q] that reads [w] and ends accepting; it is empty exactly when accepts is
    false (for the same number of iterations). *)
Theorem C19_accept_path : forall A q w, aut_wf A -> q < a_size A ->
  (forall fuel p, accept_path A fuel q w = done p ->
     (p <> [] -> spath (aut_edges A) p (map Some w) /\ length p = length w + 1 /\ hd_error p = Some q /\ aut_final A (last p 0)) /\
     (p = [] <-> ~ exists f, npath (aut_edges A) q w f /\ aut_final A f)) /\
  (forall fuel p, accept_path A fuel q w = done p -> accepts A fuel q w = done (match p with [] => false | _ => true end)) /\
  (forall fuel, Nat.pow (S (a_size A)) (length w) <= fuel -> exists p, accept_path A fuel q w = done p) /\
  (forall fuel, accept_path A fuel q w <> None).
Proof.
  intros A q w W Hq. ands.
  - intros fuel p E. destruct (accept_path_spec A W fuel q w Hq) as [[H|[p' [H H1]]] H2]; rewrite E in H; [discriminate|]. inversion H; subst p'.
    destruct H1 as [[K1 [K2 K3]]|[-> K]].
    + assert (Kp: p <> []) by (intros ->; inversion K1). split.
      * intros _. ands; auto. { apply spath_length in K1. rewrite map_length in K1. lia. } destruct p; [contradiction|]. cbn in *. congruence.
      * split; [contradiction|]. intros K. exfalso. apply K. exists (last p 0). split; auto. rewrite <- K2. apply spath_npath; auto.
    + split; [contradiction|]. tauto.
  - intros fuel p E. rewrite accepts_is_accept_path, E. reflexivity.
  - intros fuel Hf. destruct (accept_path_spec A W fuel q w Hq) as [[H|[b' [H H1]]] H2]; [destruct (H2 Hf H)|eauto].
  - intros fuel. destruct (accept_path_spec A W fuel q w Hq) as [[H|[b' [H H1]]] H2]; rewrite H; discriminate.
Qed.
Print Assumptions C19_accept_path.
Example C19_example : accept_path qex 100 0 [7; 5; 5; 6] = done [0; 2; 2; 2; 3] /\ accept_path qex 100 0 [7; 5] = done [].
Proof. split; vm_compute; reflexivity. Qed.

(** * C17 *)
(** [sm] is the state_map (identity for a PAutomaton, get_original_ids for a product). A returned path has the states [map sm qs] and
    the labels [ls] of a path from an initial state to an accepting state; the null path is returned only if there is none. *)
Theorem C17_find_path : forall S (sm : nat -> S) A n, aut_wf A -> n <= a_size A ->
  (forall fuel p, find_path n A sm fuel = done (Some p) ->
     exists qs ls, ap_states p = map sm qs /\ ap_stack p = ls /\ spath (aut_edges A) qs ls /\ hd 0 qs < n /\ aut_final A (last qs 0)) /\
  (forall fuel, find_path n A sm fuel = done None -> forall c, ~ aut_lang n A c) /\
  (forall fuel, n + a_size A <= fuel -> exists r, find_path n A sm fuel = done r) /\
  (forall fuel, find_path n A sm fuel <> None).
Proof.
  intros S sm A n W Hn. ands.
  - intros fuel p E. destruct (find_path_spec A W n Hn S sm fuel) as [[H|[[qs [ls [H [H1 [H2 H3]]]]]|[H _]]] _]; rewrite E in H; try discriminate.
    exists qs, ls. assert (L := spath_length _ _ _ H1). inversion H; subst p.
    destruct (make_states S (map sm qs) ls (sm 0)) as [M1 M2]; [rewrite map_length; lia|]. ands; auto.
  - intros fuel E c [Hc [f [Hp Hf]]]. destruct (find_path_spec A W n Hn S sm fuel) as [[H|[[qs [ls [H _]]]|[_ H]]] _]; try (rewrite E in H; discriminate).
    eapply H; eauto.
  - intros fuel Hf. destruct (find_path_spec A W n Hn S sm fuel) as [[H|[[qs [ls [H _]]]|[H _]]] H2]; eauto. destruct (H2 Hf H).
  - intros fuel. destruct (find_path_spec A W n Hn S sm fuel) as [[H|[[qs [ls [H _]]]|[H _]]] _]; rewrite H; discriminate.
Qed.
Print Assumptions C17_find_path.
(** The path spells a configuration of the language. *)
Theorem C17_find_path_language : forall A n fuel, aut_wf A -> n <= a_size A -> forall p, find_path n A (fun q => q) fuel = done (Some p) ->
  aut_lang n A (hd 0 (ap_states p), word (ap_stack p)).
Proof.
  intros A n fuel W Hn p E. destruct (C17_find_path _ (fun q => q) A n W Hn) as [H _]. destruct (H fuel p E) as [qs [ls [E1 [E2 [E3 [E4 E5]]]]]].
  rewrite map_id in E1. rewrite E1, E2. split; auto. exists (last qs 0). split; auto. cbn [fst snd]. apply spath_apath; auto.
Qed.
Print Assumptions C17_find_path_language.
Example C17_example : find_path 2 qex (fun q => q) 20 = done (Some (mk_apth 3 [(None, 1); (Some 4, 2)])) /\
  find_path 2 (mk_ex [false; false; false; true] [(0, 1, 2); (2, 1, 2); (1, 4, 2); (3, 0, 2)]) (fun q => q) 20 = done None.
Proof. split; vm_compute; reflexivity. Qed.

(** * C05, second half: after post*, accepts() answers true for every reachable configuration with a non-empty stack (and false for
    unreachable ones). *)
Lemma post_aut_wf : forall P A, wf_pda P -> post_ok P A -> forall st J, kinv P unit None A J st None None -> aut_wf (q_aut st) /\ pd_n P <= a_size (q_aut st).
Proof.
  intros P A WP OK st J SI. assert (B := k_base _ _ _ _ _ _ _ _ SI). assert (Es := qbase_size _ _ _ _ _ _ B).
  split; [constructor|].
  - intros q l. rewrite (c_ord _ _ _ _ _ _ B). apply (qk_ord _ _ OK).
  - intros q l q' H. apply (c_range _ _ _ _ _ _ B) in H. destruct H as [H1 [H2 _]]. cbn in *. rewrite Es. split; auto. lia.
  - rewrite Es. pose proof (qo_acc _ _ (proj1 (qp_init_ok P A))) as [k E]. assert (K := qk_n _ _ OK). unfold a_size in *. rewrite E, app_length. lia.
Qed.

Theorem C05_post_star_accepts : forall nlab us A fuel A', Forall (wf_urule nlab) us ->
  pre_ok (build nlab us) A -> no_in (build nlab us) A -> post_star (build nlab us) fuel A = done A' ->
  forall p l w fuel', p < pd_n (build nlab us) -> Nat.pow (S (a_size A')) (length (l :: w)) <= fuel' ->
  (accepts A' fuel' p (l :: w) = done true <-> exists c, aut_lang (pd_n (build nlab us)) A c /\ reach (user_rules nlab us) c (p, l :: w)).
Proof.
  intros nlab us A fuel A' W OK NI E p l w fuel' Hp Hf.
  assert (PO: post_ok (build nlab us) A) by (apply post_ok_pre_ok; auto).
  destruct (post_star_any _ (build_wf _ _ W) A PO fuel) as [K|[st [K [SI WS]]]]; rewrite E in K; [discriminate|]. inversion K; subst A'.
  destruct (post_aut_wf _ _ (build_wf _ _ W) PO _ _ SI) as [AW AN].
  destruct (C18_accepts (q_aut st) p (l :: w) AW) as [H1 [H2 _]]; [lia|]. destruct (H2 fuel' Hf) as [b Eb]. specialize (H1 _ _ Eb). rewrite Eb.
  split.
  - intros Hb. inversion Hb; subst b. destruct (proj1 H1 eq_refl) as [f [Hn Hfin]].
    destruct (C04_post_star_sound nlab us A fuel (q_aut st) W OK NI E (p, l :: w)) as [c [R1 R2]].
    + split; auto. exists f. split; auto. apply npath_apath; auto.
    + eauto.
  - intros [c [R1 R2]]. replace b with true; auto. symmetry. apply H1.
    destruct (C05_post_star_complete nlab us A fuel (q_aut st) W OK NI E (p, l :: w) c R2 R1) as [_ [f [Hpa Hfin]]].
    exists f. split; auto. eapply post_npath; eauto.
Qed.
Print Assumptions C05_post_star_accepts.
(** With an empty stack the query can miss a reachable configuration. *)
Definition popex_rules := [mk_urule 0 (mk_rule 1 POP 0 0%Z) false [0]].
Theorem C05_post_star_accepts_empty_stack_refuted : exists nlab us A A', Forall (wf_urule nlab) us /\ pre_ok (build nlab us) A /\ no_in (build nlab us) A /\
  post_star (build nlab us) 100 A = done A' /\ aut_lang (pd_n (build nlab us)) A' (1, []) /\ forall fuel, accepts A' fuel 1 [] = done false.
Proof.
  exists 1, popex_rules, (mk_ex [false; false; true] [(0, 0, 2)]). destruct (post_star (build 1 popex_rules) 100 (mk_ex [false; false; true] [(0, 0, 2)])) as [[A'|]|] eqn:E;
    try (vm_compute in E; discriminate). exists A'. ands; auto.
  - apply wf_urulesb_ok; reflexivity. - apply autb_ok; reflexivity. - apply no_inb_ok; reflexivity.
  - vm_compute in E. inversion E; subst. split; [vm_compute; lia|]. exists 2. split; [|reflexivity]. eapply ap_eps; [|constructor]. cbv -[In]. left; reflexivity.
  - intros fuel. vm_compute in E. inversion E; subst. reflexivity.
Qed.
Print Assumptions C05_post_star_accepts_empty_stack_refuted.
Example C05_example : exists A', post_star ex_pda 100 ex_start = done A' /\ accepts A' 400 1 [2; 0] = done true /\ accepts A' 400 1 [2; 2] = done false.
Proof. eexists. ands; [vm_compute; reflexivity| |]; vm_compute; reflexivity. Qed.

(** * C37 *)
(** Constructor, emplace, pop and the observers agree with the list of states and the list of labels, for every path and hence after
    every sequence of calls; equal observations mean equal paths. *)
Theorem C37_path_container : forall S,
  (forall e : S, vp_states (vp_single e) = [e] /\ vp_labels (vp_single e) = []) /\
  (forall qs ls, length qs = length ls + 1 -> exists p : vpath S, vp_make qs ls = Some p /\ vp_states p = qs /\ vp_labels p = ls) /\
  (forall (p : vpath S) f l, vp_states (vp_emplace p f l) = f :: vp_states p /\ vp_labels (vp_emplace p f l) = l :: vp_labels p) /\
  (forall p : vpath S, match vp_pop p with
     | Some p' => tl (vp_states p) = vp_states p' /\ tl (vp_labels p) = vp_labels p' | None => vp_labels p = [] end) /\
  (forall p : vpath S, hd_error (vp_states p) = Some (vp_front p)) /\
  (forall p : vpath S, vp_front_edge p = match vp_states p, vp_labels p with q :: q' :: _, l :: _ => Some (q, l, q') | _, _ => None end) /\
  (forall p : vpath S, vp_empty p = match vp_labels p with [] => true | _ => false end) /\
  (forall p : vpath S, vp_stack p = vp_labels p /\ length (vp_states p) = length (vp_labels p) + 1) /\
  (forall p p' : vpath S, vp_states p = vp_states p' -> vp_labels p = vp_labels p' -> p = p').
Proof.
  intros S. ands.
  - intros e. split; reflexivity.
  - apply vp_make_spec.
  - apply vp_emplace_spec.
  - intros p. destruct (vp_cases _ p) as [E|[p' [f [l ->]]]].
    + unfold vp_pop, vp_labels. rewrite E. reflexivity.
    + rewrite vp_pop_emplace. destruct (vp_emplace_spec S p' f l) as [-> ->]. auto.
  - apply vp_front_spec.
  - intros p. destruct (vp_cases _ p) as [E|[p' [f [l ->]]]].
    + unfold vp_front_edge, vp_states, vp_labels. rewrite E. reflexivity.
    + rewrite vp_front_edge_emplace. destruct (vp_emplace_spec S p' f l) as [-> ->]. assert (K := vp_front_spec S p').
      destruct (vp_states p'); [discriminate|]. cbn in K. congruence.
  - intros p. unfold vp_empty, vp_labels. rewrite map_rev. destruct (vp_edges p) as [|x es _] using rev_ind; auto.
    rewrite map_app, rev_app_distr. cbn. destruct es; auto.
  - intros p. split; [apply vp_stack_spec|]. unfold vp_states, vp_labels. rewrite app_length, !map_length. reflexivity.
  - apply vp_ext.
Qed.
Print Assumptions C37_path_container.

(** Derived observers: get_path_and_stack drops epsilon edges, split projects, remove_epsilon drops a leading epsilon self-edge. *)
Theorem C37_path_observers :
  (forall S (p : vpath S) path stack, vp_path_and_stack p = (path, stack) -> stack = word (vp_labels p) /\
     (~ In None (vp_labels p) -> path = vp_states p /\ map Some stack = vp_labels p)) /\
  (forall p, vp_states (fst (vp_split p)) = map fst (vp_states p) /\ vp_labels (fst (vp_split p)) = vp_labels p /\
             vp_states (snd (vp_split p)) = map snd (vp_states p) /\ vp_labels (snd (vp_split p)) = vp_labels p) /\
  (forall p q qs l ls, vp_states p = q :: qs -> vp_labels p = l :: ls ->
     vp_remove_epsilon p = match l with Some _ => Some p | None => if Nat.eqb q (hd 0 qs) then vp_pop p else None end).
Proof.
  ands.
  - intros S p path stack E. rewrite vp_path_and_stack_spec in E. inversion E; subst. split; auto. intros Hn.
    unfold vp_states, vp_labels, keep_states in *. rewrite removelast_last. revert Hn. generalize (rev (vp_edges p)).
    induction l as [|[[x|] s] l IH]; cbn; intros Hn; [auto| |exfalso; apply Hn; auto].
    destruct IH as [I1 I2]; [tauto|]. split; [f_equal; exact I1|f_equal; exact I2].
  - apply vp_split_spec.
  - intros p q qs l ls H1 H2. unfold vp_remove_epsilon. destruct (C37_path_container nat) as [_ [_ [_ [_ [_ [F [V _]]]]]]].
    rewrite F, V, H1, H2. assert (L: exists q' qs', qs = q' :: qs').
    { assert (K: length (vp_states p) = length (vp_labels p) + 1) by (unfold vp_states, vp_labels; rewrite app_length, !map_length; reflexivity).
      rewrite H1, H2 in K. destruct qs as [|q' qs']; [cbn in K; lia|eauto]. }
    destruct L as [q' [qs' ->]]. cbn [obind hd]. destruct l; auto.
Qed.
Print Assumptions C37_path_observers.
Example C37_example : exists p, vp_make [(0, 4); (2, 5); (3, 3)] [None; Some 9] = Some p /\ vp_front_edge p = Some ((0, 4), None, (2, 5)) /\
  vp_path_and_stack p = ([(2, 5); (3, 3)], [9]) /\ vp_states (snd (vp_split p)) = [4; 5; 3].
Proof. eexists. ands; vm_compute; reflexivity. Qed.
