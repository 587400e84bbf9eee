(** C62: the traces of the least-weight queries by post*. *)
From Coq Require Import List Arith Lia Bool ZArith Permutation.
From Verif Require Import Base BaseFacts Spec SpecFacts PdaModel PdaProof AutModel AutProof PreStarModel PreStarProof PreStarLang PostStarModel PostStarProof
  PostStarLang PathModel QueryModel QueryProof SolverModel SolverProof ProductModel ProductProof TraceModel TraceProof UtilModel UtilProof ShortSpec ShortModel ShortProdProof PostShortProof ShortProof StoreProof ExHelp
  FixSpec PropsShort PropsFixTrace ShortTraceModel ShortTrace1 ShortTrace2 ShortTrace3.
Import ListNotations.

(** What a trace query reports: nothing, or configurations and a weight. *)
Definition reports_trace (R : wpds) (L1 L2 : config -> Prop) (r : list config * option Z) : Prop :=
  match snd r with
  | None => fst r = [] /\ forall v, ~ run_weight R L1 L2 v
  | Some d => least_weight R L1 L2 d /\ wtrace R (fst r) d /\ L1 (hd (0, []) (fst r)) /\ L2 (last (fst r) (0, []))
  end.

Lemma wtrace_hd_last : forall R tr v, wtrace R tr v -> wreach R (hd (0, []) tr) v (last tr (0, [])).
Proof.
  intros R tr v H. assert (K := wtrace_run R tr v H). destruct tr as [|c tr]; [inversion H|]. specialize (K c eq_refl). cbn [hd].
  assert (L : forall (l : list config) a b c, last (c :: l) a = last (c :: l) b).
  { clear. intros l. induction l as [|c' l IH]; intros a b c; auto. change (last (c' :: l) a = last (c' :: l) b). apply IH. }
  rewrite (L tr (0, []) c c). auto.
Qed.

(** * C62: post_star_accepts<Trace_Type::Shortest>(product), then get_trace<Trace_Type::Shortest>(product). The configurations returned are
   a run from the first automaton to the second, the weights of its rules add up to the weight returned, and no run has a smaller weight;
   the trace is empty only if there is no run. *)
Theorem C62_shortest_trace : forall nlab us top ptop ord init fin J, let P := build nlab us in let n := pd_n P in
  Forall (wf_urule nlab) us -> (forall u, In u us -> (0 <= r_w (u_rule u))%Z) ->
  top_max Z zcomp top -> top_push Z top -> least_top ptop -> (forall q l, Permutation (ord q l) l) ->
  pre_ok P (wa_aut init) -> no_in P (wa_aut init) -> all_null (wa_aut init) ->
  aut_wf (wa_aut fin) -> n <= a_size (wa_aut fin) -> (forall q q', ~ aut_edges (wa_aut fin) q None q') ->
  (forall e, w_of init e = 0%Z) -> (forall e, w_of fin e = 0%Z) ->
  (forall p, p < n -> aut_final (wa_aut init) p -> aut_final (wa_aut fin) p -> False) ->
  new_sinst P ord init fin = Some J ->
  answers (fun fuel => post_shortest_trace P top ptop fuel J)
    (reports_trace (user_wrules nlab us) (aut_lang n (wa_aut init)) (aut_lang n (wa_aut fin))).
Proof.
  intros nlab us top ptop ord init fin J P n W NN TM TP PT HO OK NI NU WF LF NE ZI ZF NA HJ.
  assert (PO: post_ok P (wa_aut init)) by (apply post_ok_pre_ok; auto). assert (WP := build_wf _ _ W). assert (NG := built_nonneg _ _ W NN).
  destruct (short_spec P WP top TM TP ptop PT init fin PO WF LF ZI ZF NG NA ord HO J HJ) as (fuel0 & b & J' & E & _ & o & Eo & HA & Hb).
  assert (HB : forall sr w, pda_wrules P sr w <-> user_wrules nlab us sr w) by (apply build_wrules; auto).
  assert (AF := short_after P WP top TM TP ptop PT init fin PO WF LF ZI ZF NG NA ord HO J HJ fuel0 b J' (E fuel0 (Nat.le_refl _))).
  assert (SA := short_answers P top ptop J b J' (ex_intro _ fuel0 E)). unfold answer in HA. destruct o as [[p d]|].
  - destruct (trace_spec P WP init fin PO LF NU NE J' AF p d Eo) as (tr & v & bd & T1 & T2 & T3 & T4 & T5).
    destruct HA as ((HA1 & HA2) & HA3 & _).
    assert (T6 : aut_lang n (wa_aut fin) (last tr (0, []))) by (rewrite T5; exact HA3).
    assert (v = d). { assert (d <= v)%Z; [|lia]. apply HA2. exists (hd (0, []) tr), (last tr (0, [])). ands; auto. apply wtrace_hd_last. auto. } subst v.
    split.
    + intros fuel. unfold post_shortest_trace. destruct (SA fuel) as [K|K]; rewrite K; auto. unfold done at 1. destruct (T1 fuel) as [[K1 _]|K1]; rewrite K1; auto.
      right. exists (tr, Some d). split; auto. unfold reports_trace. cbn [fst snd]. split; [split|split; [|split; auto]].
      * apply (run_weight_iff _ _ _ _ _ HB); auto.
      * intros v' Hv. apply HA2. apply (run_weight_iff _ _ _ _ _ HB); auto.
      * eapply wtrace_iff; [|exact T2]. intros; apply HB; auto.
    + exists (fuel0 + S bd). intros fuel L. unfold post_shortest_trace. rewrite E by lia. unfold done at 1. destruct (T1 fuel) as [[_ K]|K]; [lia|rewrite K; discriminate].
  - assert (G : forall fuel, get_trace_post_shortest P fuel J' = done ([], None)) by (intros fuel; unfold get_trace_post_shortest, get_trace_shortest; rewrite Eo; auto).
    split.
    + intros fuel. unfold post_shortest_trace. destruct (SA fuel) as [K|K]; rewrite K; auto. cbv beta iota delta [done]. rewrite G. right. exists ([], None). split; auto. unfold reports_trace. cbn [fst snd]. split; auto.
      intros v Hv. apply (HA v). apply (run_weight_iff _ _ _ _ _ HB); auto.
    + exists fuel0. intros fuel L. unfold post_shortest_trace. rewrite E by lia. cbv beta iota delta [done]. rewrite G. discriminate.
Qed.
Print Assumptions C62_shortest_trace.

(** The queries of C30: the cheaper of two runs through a PUSH and a SWAP, and one with a POP. *)
Definition run_short_trace (nlab : nat) (us : list urule) (init fin : waut) : option (option (list config * option Z)) :=
  match new_sinst (build nlab us) (fun _ l => l) init fin with
  | None => None
  | Some J => post_shortest_trace (build nlab us) first_least (fun _ => first_least) 100 J
  end.
(** <0, 0 1> reaches <2, 1>: by POP at weight 9, or by PUSH, POP, POP at weight 1 + 2 + 3. *)
Definition c62_rules : list urule :=
  [mk_urule 0 (mk_rule 2 POP 0 9%Z) false [0]; mk_urule 0 (mk_rule 1 PUSH 2 1%Z) false [0]; mk_urule 1 (mk_rule 1 POP 0 2%Z) false [2]; mk_urule 1 (mk_rule 2 POP 0 3%Z) false [0];
   mk_urule 2 (mk_rule 2 NOOP 0 0%Z) false [1]].
Definition c62_init : waut := mk_waut (mk_ex [false; false; false; false; true] [(0, 0, 3); (3, 1, 4)]) [].
Definition c62_fin : waut := mk_waut (mk_ex [false; false; false; true] [(2, 1, 3)]) [].

Example C62_case : exists J, new_sinst (build 3 c62_rules) (fun _ l => l) c62_init c62_fin = Some J /\
  answers (fun fuel => post_shortest_trace (build 3 c62_rules) first_least (fun _ => first_least) fuel J)
    (reports_trace (user_wrules 3 c62_rules) (aut_lang 3 (wa_aut c62_init)) (aut_lang 3 (wa_aut c62_fin))).
Proof.
  destruct (new_sinst (build 3 c62_rules) (fun _ l => l) c62_init c62_fin) as [J|] eqn:E; [|discriminate E]. exists J. split; auto.
  eapply (C62_shortest_trace 3 c62_rules first_least (fun _ => first_least) (fun _ l => l) c62_init c62_fin J).
  - apply wf_urulesb_ok. reflexivity.
  - intros u Hu. cbn in Hu. destruct Hu as [<-|[<-|[<-|[<-|[<-|[]]]]]]; cbn; lia.
  - apply first_least_max.
  - apply first_least_push.
  - apply first_least_ok.
  - intros; apply Permutation_refl.
  - apply autb_ok. reflexivity.
  - apply no_inb_ok. reflexivity.
  - intros e t H. cbn in H. destruct H as [H|[H|[]]]; congruence.
  - apply (pre_ok_wf (build 3 c62_rules)). apply autb_ok. reflexivity.
  - vm_compute. lia.
  - intros q q' H. cbn in H. destruct H as [H|[]]; congruence.
  - apply w_of_nil.
  - apply w_of_nil.
  - intros p Hp. change (p < 3) in Hp. unfold aut_final. cbn. destruct p as [|[|[|p]]]; cbn; try discriminate. lia.
  - auto.
Qed.
Example C62_run : run_short_trace 3 c62_rules c62_init c62_fin = done ([(0, [0; 1]); (1, [2; 0; 1]); (1, [0; 1]); (2, [1])], Some 6%Z).
Proof. vm_compute. reflexivity. Qed.
Example C62_run15 : run_short_trace 4 c30_rules c30_init c30_fin = done ([(0, [1]); (1, [2; 1]); (2, [3; 1])], Some 15%Z).
Proof. vm_compute. reflexivity. Qed.
Example C62_unreachable : run_short_trace 3 c62_rules c62_init (mk_waut (mk_ex [false; false; false; true] [(2, 0, 3)]) []) = done ([], None).
Proof. vm_compute. reflexivity. Qed.

(** Without the hypothesis that the second automaton has no epsilon edges the claim is false: the weight is found, but the path has an
   epsilon edge of the second automaton, and looking up its trace in the first fails (the assertion of internal/PAutomaton.h 653). *)
Theorem C62_epsilon_refuted : exists nlab us init fin, let P := build nlab us in let n := pd_n P in
  Forall (wf_urule nlab) us /\ (forall u, In u us -> (0 <= r_w (u_rule u))%Z) /\
  pre_ok P (wa_aut init) /\ no_in P (wa_aut init) /\ all_null (wa_aut init) /\ aut_wf (wa_aut fin) /\ n <= a_size (wa_aut fin) /\
  (forall e, w_of init e = 0%Z) /\ (forall e, w_of fin e = 0%Z) /\
  (forall p, p < n -> ~ aut_final (wa_aut init) p) /\
  run_short nlab us init fin = done (true, Some 6%Z) /\ run_short_trace nlab us init fin = None.
Proof.
  exists 3, c62_rules, c62_init, (mk_waut (mk_aut [false; false; false; false; true] [(mk_edge 2 None 3, TNull); (mk_edge 3 (Some 1) 4, TNull)] (fun _ l => l)) []). cbv zeta.
  change (pd_n (build 3 c62_rules)) with 3.
  split; [apply wf_urulesb_ok; reflexivity|]. split; [intros u Hu; cbn in Hu; destruct Hu as [<-|[<-|[<-|[<-|[<-|[]]]]]]; cbn; lia|].
  split; [apply autb_ok; reflexivity|]. split; [apply no_inb_ok; reflexivity|]. split; [intros e t H; cbn in H; destruct H as [H|[H|[]]]; congruence|].
  split. { constructor; [intros q l; cbn; apply Permutation_refl|]. intros q l q' H. cbn in H. destruct H as [H|[H|[]]]; injection H as <- <- <-; cbn; lia. }
  split; [cbn; lia|]. split; [apply w_of_nil|]. split; [apply w_of_nil|]. split.
  - intros p Hp. unfold aut_final. cbn. destruct p as [|[|[|p]]]; cbn; try discriminate. lia.
  - split; vm_compute; reflexivity.
Qed.
Print Assumptions C62_epsilon_refuted.
