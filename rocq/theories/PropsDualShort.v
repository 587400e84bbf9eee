(** Property C70: dual_search_accepts<Trace_Type::Shortest> and get_trace_dual_search<Trace_Type::Shortest>. *)
From Coq Require Import List Arith Lia Bool ZArith Permutation.
From Verif Require Import Base BaseFacts Spec SpecFacts PdaModel PdaProof AutModel AutProof PreStarModel PreStarProof PreStarLang PostStarModel PostStarProof PostStarLang
  PathModel QueryModel QueryProof SolverModel SolverProof ProductModel TraceModel UtilModel ShortSpec ShortModel ShortProdProof PostShortProof ShortProof StoreProof ExHelp PropsShort
  PreShortModel PreShortProof PreShortLang ShortTraceModel DualShortModel DualShortProof DualSatProof.
Import ListNotations.

(** * C70: whatever the hash tables and queues do, if the search says yes then the second automaton is reachable from the first, and the
   weight that the shortest path of the product has is the weight of a run. Missing: that the search is defined, that it says yes
   whenever there is a run, that the weight is the least one, and that the trace is that run; the theorems below refute the first, the second and, for
   overlapping languages, the last. *)
Theorem C70_dual_shortest_partial : forall nlab us top ptopk ptoph oob ord init fin J fuel b J', let P := build nlab us in let n := pd_n P in
  Forall (wf_urule nlab) us -> (forall q l, Permutation (ord q l) l) ->
  pre_ok P (wa_aut init) -> no_in P (wa_aut init) -> pre_ok P (wa_aut fin) -> no_in P (wa_aut fin) ->
  (forall e, w_of init e = 0%Z) -> (forall e, w_of fin e = 0%Z) ->
  new_sinst P ord init fin = Some J -> dual_short P top ptopk ptoph oob fuel J = done (b, J') ->
  (b = true -> exists v, run_weight (user_wrules nlab us) (aut_lang n (wa_aut init)) (aut_lang n (wa_aut fin)) v) /\
  (forall p v, path_shortest (si_prod J') = Some (Some (p, v)) -> run_weight (user_wrules nlab us) (aut_lang n (wa_aut init)) (aut_lang n (wa_aut fin)) v).
Proof.
  intros nlab us top ptopk ptoph oob ord init fin J fuel b J' P n W HO PI NI PF NF ZI ZF HJ E.
  assert (OI : post_ok P (wa_aut init)) by (apply post_ok_pre_ok; auto). assert (OF : post_ok P (wa_aut fin)) by (apply post_ok_pre_ok; auto).
  assert (HB : forall sr w, pda_wrules P sr w <-> user_wrules nlab us sr w) by (apply build_wrules; auto).
  destruct (dual_short_sound P (build_wf _ _ W) top ptopk ptoph oob init fin OI OF ZI ZF ord J fuel b J' HO HJ E) as [H1 H2]. split.
  - intros Hb. destruct (H1 Hb) as [v Hv]. exists v. apply (run_weight_iff _ _ _ _ _ HB). auto.
  - intros p v Hp. apply (run_weight_iff _ _ _ _ _ HB). eauto.
Qed.
Print Assumptions C70_dual_shortest_partial.

(** The weight that get_trace_dual_search returns with a trace. *)
Theorem C70_trace_weight_partial : forall nlab us top ptopk ptoph oob ord init fin J fuel t v, let P := build nlab us in let n := pd_n P in
  Forall (wf_urule nlab) us -> (forall q l, Permutation (ord q l) l) ->
  pre_ok P (wa_aut init) -> no_in P (wa_aut init) -> pre_ok P (wa_aut fin) -> no_in P (wa_aut fin) ->
  (forall e, w_of init e = 0%Z) -> (forall e, w_of fin e = 0%Z) ->
  new_sinst P ord init fin = Some J -> dual_short_trace P top ptopk ptoph oob fuel J = done (Some (t, v)) -> t <> [] ->
  run_weight (user_wrules nlab us) (aut_lang n (wa_aut init)) (aut_lang n (wa_aut fin)) v.
Proof.
  intros nlab us top ptopk ptoph oob ord init fin J fuel t v P n W HO PI NI PF NF ZI ZF HJ E Ht. unfold dual_short_trace in E.
  destruct (dual_short P top ptopk ptoph oob fuel J) as [[[b J']|]|] eqn:Ed; try discriminate. destruct b; [|discriminate].
  destruct (get_trace_dual_short P fuel J') as [[[t' v']|]|] eqn:Et; try discriminate. injection E as -> ->.
  destruct (C70_dual_shortest_partial nlab us top ptopk ptoph oob ord init fin J fuel true J' W HO PI NI PF NF ZI ZF HJ Ed) as [_ H2].
  unfold get_trace_dual_short in Et. destruct (path_shortest (si_prod J')) as [[[p d]|]|] eqn:Ep; [| |discriminate]; cbn [obind] in Et.
  - destruct (ap_remove_epsilon _) as [fp|]; [|discriminate]. cbn [obind] in Et.
    repeat match type of Et with context [match get_trace_path P ?A fuel ?x with _ => _ end] => destruct (get_trace_path P A fuel x) as [[?|]|]; try discriminate end.
    match type of Et with context [rev ?x] => destruct (rev x); [discriminate|] end. match type of Et with context [match ?x with [] => _ | _ => _ end] => destruct x; [discriminate|] end. destruct (_ && _); [|discriminate]. injection Et as _ <-. eauto.
  - injection Et as <- <-. contradiction.
Qed.
Print Assumptions C70_trace_weight_partial.

Definition c70_oob (_ : nat) : option bool := Some true.
(** The verdict and the weight of the shortest path in the product (inner None: there is no path; outer None: undefined). *)
Definition run_dual (nlab : nat) (us : list urule) (init fin : waut) : option (option (bool * option (option Z))) :=
  let P := build nlab us in
  J <- new_sinst P (fun _ l => l) init fin ;;
  match dual_short P first_least (fun _ => first_least) (fun _ => first_least) c70_oob 200 J with
  | None => None
  | Some None => Some None
  | Some (Some (b, J2)) => done (b, match path_shortest (si_prod J2) with Some (Some (_, w)) => Some (Some w) | Some None => Some None | None => None end)
  end.
Definition run_dual_trace (nlab : nat) (us : list urule) (init fin : waut) : option (option (option (list config * Z))) :=
  let P := build nlab us in
  J <- new_sinst P (fun _ l => l) init fin ;;
  dual_short_trace P first_least (fun _ => first_least) (fun _ => first_least) c70_oob 200 J.

(** The search meets the hypotheses of C70 and finds the least weights, with traces. *)
Example C70_run15 : run_dual 4 c30_rules c30_init c30_fin = done (true, Some (Some 15%Z)) /\
  run_dual_trace 4 c30_rules c30_init c30_fin = done (Some ([(0, [1]); (1, [2; 1]); (2, [3; 1])], 15%Z)).
Proof. split; vm_compute; reflexivity. Qed.
Example C70_run5 : exists t, run_dual_trace 4 c30_rules c30_init c30_fin0 = done (Some (t, 5%Z)) /\ t <> [].
Proof. eexists. split; [vm_compute; reflexivity|discriminate]. Qed.
(** A path of length two that is completed while the product is extended. *)
Example C70_run7 : run_dual 4 [mk_urule 0 (mk_rule 1 SWAP 2 7%Z) false [1]] (mk_waut (mk_ex [false; false; false; true] [(0, 1, 2); (2, 1, 3)]) [])
  (mk_waut (mk_ex [false; false; false; true] [(1, 2, 2); (2, 1, 3)]) []) = done (true, Some (Some 7%Z)).
Proof. vm_compute. reflexivity. Qed.
Example C70_unreachable : run_dual 4 c30_rules c30_init (mk_waut (mk_ex [false; false; false; true] [(2, 1, 3)]) []) = done (false, Some None).
Proof. vm_compute. reflexivity. Qed.

(** The hypotheses of C70 about the inputs, as used for the counterexamples: also no PDA state is accepting. *)
Definition c70_ok (nlab : nat) (us : list urule) (init fin : waut) : Prop := let P := build nlab us in
  Forall (wf_urule nlab) us /\ (forall u, In u us -> (0 <= r_w (u_rule u))%Z) /\
  pre_ok P (wa_aut init) /\ no_in P (wa_aut init) /\ pre_ok P (wa_aut fin) /\ no_in P (wa_aut fin) /\
  (forall e, w_of init e = 0%Z) /\ (forall e, w_of fin e = 0%Z) /\
  (forall p, p < pd_n P -> ~ aut_final (wa_aut init) p) /\ (forall p, p < pd_n P -> ~ aut_final (wa_aut fin) p).
Lemma c70_nofinal : forall k A, forallb (fun p => match nth_error (a_acc A) p with Some true => false | _ => true end) (seq 0 k) = true -> forall p, p < k -> ~ aut_final A p.
Proof.
  intros k A H p Hp Hf. rewrite forallb_forall in H. specialize (H p). unfold aut_final in Hf. rewrite Hf in H. assert (In p (seq 0 k)) by (apply in_seq; lia). intuition discriminate.
Qed.
Lemma c70_ok_intro : forall nlab us acc1 es1 acc2 es2, let P := build nlab us in
  forallb (wf_uruleb nlab) us = true -> forallb (fun u => Z.leb 0 (r_w (u_rule u))) us = true ->
  autb (pd_n P) (pd_nlab P) (mk_ex acc1 es1) = true -> no_inb (pd_n P) (mk_ex acc1 es1) = true ->
  autb (pd_n P) (pd_nlab P) (mk_ex acc2 es2) = true -> no_inb (pd_n P) (mk_ex acc2 es2) = true ->
  forallb (fun p => match nth_error acc1 p with Some true => false | _ => true end) (seq 0 (pd_n P)) = true ->
  forallb (fun p => match nth_error acc2 p with Some true => false | _ => true end) (seq 0 (pd_n P)) = true ->
  c70_ok nlab us (mk_waut (mk_ex acc1 es1) []) (mk_waut (mk_ex acc2 es2) []).
Proof.
  intros nlab us acc1 es1 acc2 es2 P H1 H2 H3 H4 H5 H6 H7 H8. unfold c70_ok. cbv zeta. fold P. split; [apply wf_urulesb_ok; auto|].
  split; [intros u Hu; rewrite forallb_forall in H2; apply Z.leb_le; auto|]. cbn [wa_aut].
  split; [apply autb_ok; auto|]. split; [apply no_inb_ok; auto|]. split; [apply autb_ok; auto|]. split; [apply no_inb_ok; auto|].
  split; [apply w_of_nil|]. split; [apply w_of_nil|]. split; apply c70_nofinal; auto.
Qed.

Definition c70_rules : list urule :=
  [mk_urule 0 (mk_rule 1 PUSH 2 10%Z) false [1]; mk_urule 0 (mk_rule 1 PUSH 2 0%Z) false [0]; mk_urule 1 (mk_rule 2 SWAP 3 5%Z) false [2];
   mk_urule 3 (mk_rule 2 NOOP 0 0%Z) false [3];
   mk_urule 3 (mk_rule 2 SWAP 3 0%Z) false [0]; mk_urule 3 (mk_rule 2 SWAP 3 0%Z) false [1]; mk_urule 3 (mk_rule 2 SWAP 3 0%Z) false [2];
   mk_urule 4 (mk_rule 3 SWAP 3 0%Z) false [0]; mk_urule 4 (mk_rule 3 SWAP 3 0%Z) false [1]; mk_urule 4 (mk_rule 3 SWAP 3 0%Z) false [2];
   mk_urule 4 (mk_rule 3 SWAP 3 0%Z) false [3]].
Definition c70_init : waut := mk_waut (mk_ex [false; false; false; false; false; true] [(0, 0, 5); (0, 1, 5)]) [].
Definition c70_fin : waut := mk_waut (mk_ex [false; false; false; false; false; false; true] [(2, 3, 5); (5, 1, 6)]) [].

(** The verdict can be no although there is a run, and although the product has a path for it: when post* runs out of edges, the path found has only
   been compared with the lower bounds of the queues. *)
Theorem C70_verdict_refuted : exists nlab us init fin, let P := build nlab us in let n := pd_n P in c70_ok nlab us init fin /\
  run_weight (user_wrules nlab us) (aut_lang n (wa_aut init)) (aut_lang n (wa_aut fin)) 15%Z /\
  run_dual nlab us init fin = done (false, Some (Some 15%Z)).
Proof.
  exists 4, c70_rules, c70_init, c70_fin. cbv zeta. split; [apply c70_ok_intro; vm_compute; reflexivity|]. split; [|vm_compute; reflexivity].
  exists (0, [1]), (2, [3; 1]). split; [|split].
  - split; [vm_compute; lia|]. exists 5. split; [|reflexivity]. eapply ap_lab; [|constructor]. cbn. auto.
  - split; [vm_compute; lia|]. exists 6. split; [|reflexivity]. eapply ap_lab; [cbn; auto|]. eapply ap_lab; [cbn; auto|]. constructor.
  - change 15%Z with (10 + (5 + 0))%Z. eapply wr_step with (r := mk_srule 0 1 1 (SPush 2)) (c2 := (1, [2; 1])).
    + exists (mk_urule 0 (mk_rule 1 PUSH 2 10%Z) false [1]). cbn. ands; auto.
    + apply (step_by_intro (mk_srule 0 1 1 (SPush 2)) []).
    + eapply wr_step with (r := mk_srule 1 2 2 (SSwap 3)) (c2 := (2, [3; 1])); [|apply (step_by_intro (mk_srule 1 2 2 (SSwap 3)) [1])|apply wr_refl].
      exists (mk_urule 1 (mk_rule 2 SWAP 3 5%Z) false [2]). cbn. ands; auto.
Qed.
Print Assumptions C70_verdict_refuted.

(** Languages that overlap: the verdict is yes, but the product was built without back edges, so that reading the trace reads a weight that was never written. *)
Theorem C70_overlap_refuted : exists nlab us init fin, let P := build nlab us in let n := pd_n P in c70_ok nlab us init fin /\
  run_weight (user_wrules nlab us) (aut_lang n (wa_aut init)) (aut_lang n (wa_aut fin)) 0%Z /\
  run_dual nlab us init fin = done (true, None) /\ run_dual_trace nlab us init fin = None.
Proof.
  exists 4, c30_rules, (mk_waut (mk_ex [false; false; false; true] [(0, 1, 3)]) []), (mk_waut (mk_ex [false; false; false; true] [(0, 1, 3)]) []). cbv zeta.
  split; [apply c70_ok_intro; vm_compute; reflexivity|]. split; [|split; vm_compute; reflexivity].
  assert (H : aut_lang (pd_n (build 4 c30_rules)) (mk_ex [false; false; false; true] [(0, 1, 3)]) (0, [1])).
  { split; [vm_compute; lia|]. exists 3. split; [|reflexivity]. eapply ap_lab; [|constructor]. cbn. auto. }
  exists (0, [1]), (0, [1]). split; [|split]; auto. constructor.
Qed.
Print Assumptions C70_overlap_refuted.

(** Languages that do not overlap, but whose words have a common beginning of length two: the product states on it got no back edges from
   initialize_product, and the search itself reads their weights. *)
Theorem C70_undefined_refuted : exists nlab us init fin, let P := build nlab us in let n := pd_n P in c70_ok nlab us init fin /\
  (forall c, aut_lang n (wa_aut init) c -> aut_lang n (wa_aut fin) c -> False) /\
  run_weight (user_wrules nlab us) (aut_lang n (wa_aut init)) (aut_lang n (wa_aut fin)) 8%Z /\ run_dual nlab us init fin = None.
Proof.
  exists 2, [mk_urule 0 (mk_rule 1 SWAP 0 5%Z) false [0]; mk_urule 1 (mk_rule 2 SWAP 0 3%Z) false [0]],
    (mk_waut (mk_ex [false; false; false; false; false; true] [(0, 0, 3); (3, 1, 4); (4, 1, 5)]) []),
    (mk_waut (mk_ex [false; false; false; false; false; false; false; true] [(0, 0, 3); (3, 1, 4); (4, 0, 7); (2, 0, 5); (5, 1, 6); (6, 1, 7)]) []).
  cbv zeta. split; [apply c70_ok_intro; vm_compute; reflexivity|]. split; [|split; [|vm_compute; reflexivity]].
  - intros [p w] [Hp (f1 & H1 & F1)] [_ (f2 & H2 & F2)]. cbn [wa_aut fst snd] in *. assert (Hp' : p < 3) by (vm_compute in Hp; lia). clear Hp.
    destruct p as [|[|[|p]]]; [| | |lia];
    repeat match goal with
      | H : aut_edges _ _ _ _ |- _ => unfold aut_edges, edges_of in H; cbn in H;
          repeat (destruct H as [H|H]; [try discriminate H; injection H; clear H; intros; subst|]); try contradiction H
      | H : apath _ _ _ _ |- _ => inversion H; subst; clear H
      end; discriminate.
  - exists (0, [0; 1; 1]), (2, [0; 1; 1]). split; [|split].
    + split; [vm_compute; lia|]. exists 5. split; [|reflexivity]. do 3 (eapply ap_lab; [cbn; auto|]). constructor.
    + split; [vm_compute; lia|]. exists 7. split; [|reflexivity]. do 3 (eapply ap_lab; [cbn; auto 10|]). constructor.
    + change 8%Z with (5 + (3 + 0))%Z. eapply wr_step with (r := mk_srule 0 0 1 (SSwap 0)) (c2 := (1, [0; 1; 1])).
      * exists (mk_urule 0 (mk_rule 1 SWAP 0 5%Z) false [0]). cbn. ands; auto.
      * apply (step_by_intro (mk_srule 0 0 1 (SSwap 0)) [1; 1]).
      * eapply wr_step with (r := mk_srule 1 0 2 (SSwap 0)) (c2 := (2, [0; 1; 1])); [|apply (step_by_intro (mk_srule 1 0 2 (SSwap 0)) [1; 1])|apply wr_refl].
        exists (mk_urule 1 (mk_rule 2 SWAP 0 3%Z) false [0]). cbn. ands; auto.
Qed.
Print Assumptions C70_undefined_refuted.
