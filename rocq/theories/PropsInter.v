(** C69: fixed-point queries by interleaving pre* and post* (engine 3). *)
From Coq Require Import List Arith Lia Bool ZArith Permutation.
From Verif Require Import Base BaseFacts Spec SpecFacts PdaModel PdaProof AutModel AutProof PreStarModel PreStarProof PreStarLang PostStarModel PostStarProof
  PathModel QueryModel QueryProof SolverModel SolverProof ProductModel ProductProof VerdictModel VerdictProof UtilModel ShortSpec ShortModel PostShortProof ShortProof StoreProof ExHelp PropsSaturation PropsShort
  TraceModel TraceProof TraceSolver FixSpec FixModel FixChain FixPre1 FixPre2 FixPre3 FixPre4 FixPre5 FixPre6 FixPath FixPath2 FixSolveModel FixSolveProof PropsFix PropsFixSolve
  FixTraceModel FixTrace1 FixTrace2 FixTrace3 FixTrace4 FixTrace5 PropsFixTrace InterModel InterProof.
Import ListNotations.

(** The copy of an automaton: only the order of iteration may differ. *)
Definition copy_of (A A' : faut) : Prop :=
  a_acc (fa_aut A') = a_acc (fa_aut A) /\ a_edges (fa_aut A') = a_edges (fa_aut A) /\ fa_w A' = fa_w A /\ fa_snd A' = fa_snd A /\ wf_ord (fa_aut A').
Lemma copy_edges : forall A A' q l t, copy_of A A' -> aut_edges (fa_aut A') q l t <-> aut_edges (fa_aut A) q l t.
Proof. intros A A' q l t (_ & E & _). unfold aut_edges. rewrite E. tauto. Qed.
Lemma copy_size : forall A A', copy_of A A' -> a_size (fa_aut A') = a_size (fa_aut A).
Proof. intros A A' (E & _). unfold a_size. rewrite E. auto. Qed.
Lemma copy_lang : forall n A A', copy_of A A' -> aut_lang n (fa_aut A') = aut_lang n (fa_aut A).
Proof. intros n A A' (E1 & E2 & _). unfold aut_lang, aut_edges, aut_final. rewrite E1, E2. reflexivity. Qed.
Lemma copy_pre_ok : forall P A A', copy_of A A' -> pre_ok P (fa_aut A) -> pre_ok P (fa_aut A').
Proof.
  intros P A A' C [H1 H2 H3 H4]. constructor.
  - rewrite (copy_size _ _ C). auto.
  - apply C.
  - destruct C as (_ & E & _). rewrite E. auto.
  - intros q l q' He. apply (copy_edges _ _ _ _ _ C) in He. rewrite (copy_size _ _ C). eauto.
Qed.
Lemma copy_wf : forall A A', copy_of A A' -> aut_wf (fa_aut A) -> aut_wf (fa_aut A').
Proof. intros A A' C [H1 H2]. constructor; [apply C|]. intros q l q' He. apply (copy_edges _ _ _ _ _ C) in He. rewrite (copy_size _ _ C). eauto. Qed.

Lemma pre_fin : forall P mx fuel A s0 s1 s2, x_init P mx A = Some s0 -> fw_loop xd edge sort_edges (x_step_with P mx) false fuel s0 = done s1 ->
  fw_finalize xd edge sort_edges (x_step_with P mx) fuel s1 = Some (Some s2) -> pre_star_fixed_point P mx fuel A = done (x_aut (fw_d s2)).
Proof. intros P mx fuel A s0 s1 s2 H0 H1 H2. unfold pre_star_fixed_point, fw_run. rewrite H0. cbn [obind]. unfold done in H1. rewrite H1, H2. reflexivity. Qed.
Lemma post_fin : forall P mx fuel A s0 s1 s2, y_init P A = Some s0 -> fw_loop yd edge sort_edges (y_step_with P mx) false fuel s0 = done s1 ->
  fw_finalize yd edge sort_edges (y_step_with P mx) fuel s1 = Some (Some s2) -> post_star_fixed_point P mx fuel A = done (y_aut (fw_d s2)).
Proof. intros P mx fuel A s0 s1 s2 H0 H1 H2. unfold post_star_fixed_point, fw_run. rewrite H0. cbn [obind]. unfold done in H1. rewrite H1, H2. reflexivity. Qed.

(** Whichever saturation ends first, the result is that of its own query. *)
Lemma inter_sim : forall P mx fuel ord init fin initc finc b u r, interleaving_fixed_point_accepts P mx fuel ord init fin initc finc = done ((b, u), r) ->
  if u then pre_star_fixed_point_accepts P mx fuel ord initc finc = done (b, r) else post_star_fixed_point_accepts P mx fuel ord init fin = done (b, r).
Proof.
  intros P mx fuel ord init fin initc finc b u r H. unfold interleaving_fixed_point_accepts in H.
  destruct (pr_new _ _ (fa_aut init) _) as [pr|] eqn:E1; [|discriminate]. cbn [obind] in H. destruct (pr_new _ _ (fa_aut initc) _) as [prc|] eqn:E2; [|discriminate]. cbn [obind] in H.
  destruct (x_init P mx finc) as [pre|] eqn:E3; [|discriminate]. cbn [obind] in H. destruct (y_init P init) as [post|] eqn:E4; [|discriminate]. cbn [obind] in H.
  destruct (inter_loop P mx fuel pre post) as [[[pre' post']|]|] eqn:E5; try discriminate.
  destruct (fw_is_done xd edge pre') eqn:X.
  - destruct (fw_finalize xd edge _ _ fuel pre') as [[s|]|] eqn:E6; try discriminate.
    destruct (inst_accepts P prc _ initc) as [[x|]|] eqn:E7; try discriminate. cbn [obind] in H. injection H as <- <- <-.
    assert (K := pre_fin _ _ _ _ _ _ _ E3 (inter_pre _ _ _ _ _ _ _ E5 X) E6). unfold pre_star_fixed_point_accepts. rewrite E2. cbn [obind]. rewrite K. unfold done at 1. unfold inst_accepts in E7. rewrite E7. destruct x; reflexivity.
  - destruct (fw_is_done yd edge post') eqn:Y; [|discriminate].
    destruct (fw_finalize yd edge _ _ fuel post') as [[s|]|] eqn:E6; try discriminate.
    destruct (inst_accepts P pr _ fin) as [[x|]|] eqn:E7; try discriminate. cbn [obind] in H. injection H as <- <- <-.
    assert (K := post_fin _ _ _ _ _ _ _ E4 (inter_post _ _ _ _ _ _ _ E5 Y) E6). unfold post_star_fixed_point_accepts. rewrite E1. cbn [obind]. rewrite K. unfold done at 1. rewrite E7. destruct x; reflexivity.
Qed.

(** The search ends if pre* alone does. *)
Lemma inter_total : forall P mx ord init fin initc finc b1, (forall fuel, b1 <= fuel -> exists A, pre_star_fixed_point P mx fuel finc = done A) ->
  exists b, forall fuel, b <= fuel -> interleaving_fixed_point_accepts P mx fuel ord init fin initc finc <> Some None.
Proof.
  intros P mx ord init fin initc finc b1 T. unfold interleaving_fixed_point_accepts.
  destruct (pr_new _ _ (fa_aut init) _) as [pr|]; [|exists 0; discriminate]. cbn [obind]. destruct (pr_new _ _ (fa_aut initc) _) as [prc|]; [|exists 0; discriminate]. cbn [obind].
  destruct (x_init P mx finc) as [pre|] eqn:E3; [|exists 0; discriminate]. cbn [obind]. destruct (y_init P init) as [post|]; [|exists 0; discriminate]. cbn [obind].
  assert (TL : forall fuel, b1 <= fuel -> exists s, fw_loop xd edge sort_edges (x_step_with P mx) false fuel pre = Some (Some s) /\ fw_finalize xd edge sort_edges (x_step_with P mx) fuel s <> Some None).
  { intros fuel L. destruct (T fuel L) as [A H]. unfold pre_star_fixed_point, fw_run in H. rewrite E3 in H. cbn [obind] in H. destruct (fw_loop xd edge _ _ false fuel pre) as [[s|]|]; try discriminate.
    exists s. split; auto. intros K. rewrite K in H. discriminate. }
  destruct (TL b1 (le_n _)) as (s & Hs & _). assert (N := inter_ends P mx b1 pre post s Hs).
  destruct (inter_loop P mx b1 pre post) as [[[pre' post']|]|] eqn:E5; [|congruence|].
  - assert (IA : forall prx A S v, (r <- inst_accepts P prx A S ;; match r with None => Some None | Some r => done (fst r, v : bool, snd r) end) <> Some None).
    { intros prx A S v. unfold inst_accepts. destruct (wp_initialize _ A S _) as [x|]; cbn [obind]; discriminate. }
    destruct (fw_is_done xd edge pre') eqn:X.
    + exists b1. intros fuel L. rewrite (inter_mono P mx b1 fuel pre post _ E5 L). unfold done at 1. rewrite X. destruct (TL fuel L) as (s' & F1 & F2).
      assert (K := inter_pre P mx fuel pre post pre' post' (inter_mono P mx b1 fuel pre post _ E5 L) X). rewrite K in F1. injection F1 as <-.
      destruct (fw_finalize xd edge _ _ fuel pre') as [[q|]|]; try congruence. apply IA.
    + destruct (fw_is_done yd edge post') eqn:Y.
      * destruct (post_finalize_ends P mx post') as [b2 T2]. exists (b1 + b2). intros fuel L. rewrite (inter_mono P mx b1 fuel pre post _ E5) by lia. unfold done at 1. rewrite X, Y.
        assert (L2 : b2 <= fuel) by lia. specialize (T2 fuel L2). destruct (fw_finalize yd edge _ _ fuel post') as [[q|]|]; try congruence. apply IA.
      * exfalso. apply inter_done in E5. rewrite X, Y in E5. discriminate.
  - exists b1. intros fuel L. rewrite (inter_fail_mono P mx b1 fuel pre post E5 L). discriminate.
Qed.

(** * C69: engine 3 with trace type ShortestFixedPoint ([mx] = false) or Longest ([mx] = true) on an instance and its copy. For automata as in C61 the
   interleaved search ends. If pre* ends first, verdict, weight and trace are right; if post* ends first they are those of engine 1.
   Missing: that post* is right (C69_post_first_refuted) and that no step of post* is undefined (C69_post_fails_refuted). *)
Theorem C69_interleaving_partial : forall nlab us mx ord init fin initc finc, let P := build nlab us in let n := pd_n P in
  Forall (wf_urule nlab) us -> lookup_safe us -> (forall q l, Permutation (ord q l) l) ->
  aut_wf (fa_aut init) -> n <= a_size (fa_aut init) -> (forall q t, ~ aut_edges (fa_aut init) q None t) ->
  pre_ok P (fa_aut fin) -> no_in P (fa_aut fin) ->
  (forall e t, In (e, t) (a_edges (fa_aut fin)) -> t = TNull /\ fa_trace2 fin e = TNull /\ fa_weight fin e = Some 0%Z) ->
  2 <= length (a_edges (fa_aut fin)) -> copy_of init initc -> copy_of fin finc ->
  let R := user_wrules nlab us in let L1 := aut_lang n (fa_aut init) in let L2 := aut_lang n (fa_aut fin) in
  (forall fuel b u tr o, solve_interleaving_trace P mx fuel ord init fin initc finc = done ((b, u), (tr, o)) ->
    if u then fix_answer mx R L1 L2 b o /\ trace_answer R L1 L2 tr o else solve_post_fixed_point_trace P mx fuel ord init fin = done (b, (tr, o))) /\
  exists bound, forall fuel, bound <= fuel -> interleaving_fixed_point_accepts P mx fuel ord init fin initc finc <> Some None.
Proof.
  intros nlab us mx ord init fin initc finc P n W LS HO WI HI NE OK NI DF TWO CI CF R L1 L2.
  assert (WI' := copy_wf _ _ CI WI). assert (HI' : n <= a_size (fa_aut initc)) by (rewrite (copy_size _ _ CI); auto).
  assert (NE' : forall q t, ~ aut_edges (fa_aut initc) q None t) by (intros q t H; apply (copy_edges _ _ _ _ _ CI) in H; apply (NE _ _ H)).
  assert (OK' := copy_pre_ok P _ _ CF OK). assert (NI' : no_in P (fa_aut finc)) by (intros q l q' H; apply (copy_edges _ _ _ _ _ CF) in H; eauto).
  assert (DF' : forall e t, In (e, t) (a_edges (fa_aut finc)) -> t = TNull /\ fa_trace2 finc e = TNull /\ fa_weight finc e = Some 0%Z).
  { intros e t H. destruct CF as (_ & F2 & F3 & F4 & _). unfold fa_trace2, fa_weight. rewrite F3, F4. rewrite F2 in H. apply (DF e t H). }
  assert (TWO' : 2 <= length (a_edges (fa_aut finc))) by (destruct CF as (_ & F2 & _); rewrite F2; auto).
  split.
  - intros fuel b u tr o H. unfold solve_interleaving_trace in H. destruct (interleaving_fixed_point_accepts P mx fuel ord init fin initc finc) as [[[[b' u'] r]|]|] eqn:E; try discriminate.
    cbn [fst snd] in H. destruct (get_trace_fixed_point P mx fuel (fst r) (snd r)) as [[tw|]|] eqn:G; try discriminate. injection H as -> -> ->. apply inter_sim in E. destruct u.
    + destruct (proj1 (C61_fixed_point_trace nlab us mx ord initc finc W LS HO WI' HI' NE' OK' NI' DF' TWO') fuel) as [K|(r' & K & Q)]; unfold solve_fixed_point_trace in K; fold P in K;
        rewrite E in K; unfold done at 1 in K; cbn [fst snd] in K; rewrite G in K; [discriminate|]. injection K as <-. cbn [fst snd] in Q.
      unfold L1, L2, R. rewrite <- (copy_lang n _ _ CI), <- (copy_lang n _ _ CF). exact Q.
    + unfold solve_post_fixed_point_trace. rewrite E. unfold done at 1. cbn [fst snd]. rewrite G. reflexivity.
  - assert (WP : wf_pda P) by (apply build_wf; auto). assert (LK : lookup_ok P) by (apply lookup_safe_ok; auto).
    assert (RG : forall e, In e (map fst (a_edges (fa_aut finc))) -> in_range P (fa_aut finc) e) by (intros e He; eapply pre_ok_range; eauto).
    assert (T2 : 2 <= length (map fst (a_edges (fa_aut finc)))) by (rewrite map_length; auto).
    destruct (pre_fix_run P WP LK mx finc (po_n _ _ OK') (po_ord _ _ OK') NI' (po_nd _ _ OK') RG DF' T2) as [H1 [b1 H2]].
    apply (inter_total P mx ord init fin initc finc b1). intros fuel L. destruct (H1 fuel) as [K|(A & K & _)]; [destruct (H2 fuel L K)|eauto].
Qed.
Print Assumptions C69_interleaving_partial.

(** The rules of C32 from (0, [0]): for the least weight post* ends first, for the greatest pre*; a copy with the targets of a state in the other order. *)
Definition c69 (mx : bool) := solve_interleaving_trace (build 2 c32_rules) mx 100 (fun _ l => l) (c61_init [(0, 0, 4)]) c32_target
  (c61_init [(0, 0, 4)]) (mk_faut (mk_aut (a_acc (fa_aut c32_target)) (a_edges (fa_aut c32_target)) (fun _ l => rev l)) [] []).
Example C69_example : c69 false = done ((true, false), ([(0, [0]); (1, [1; 0]); (2, [0])], Some (Some 2%Z))) /\ c69 true = done ((true, true), ([(0, [0]); (2, [1])], Some (Some 4%Z))).
Proof. vm_compute. auto. Qed.
Example C69_example_hyps : copy_of c32_target (mk_faut (mk_aut (a_acc (fa_aut c32_target)) (a_edges (fa_aut c32_target)) (fun _ l => rev l)) [] []) /\ copy_of (c61_init [(0, 0, 4)]) (c61_init [(0, 0, 4)]).
Proof. split; unfold copy_of; ands; auto; intros q l; [apply Permutation_sym, Permutation_rev|apply Permutation_refl]. Qed.

(** The hypotheses of C69 for the two refutations. *)
Definition c69_ok (nlab : nat) (us : list urule) (init fin : faut) : Prop := let P := build nlab us in let n := pd_n P in
  Forall (wf_urule nlab) us /\ lookup_safe us /\ aut_wf (fa_aut init) /\ n <= a_size (fa_aut init) /\ (forall q t, ~ aut_edges (fa_aut init) q None t) /\
  pre_ok P (fa_aut fin) /\ no_in P (fa_aut fin) /\
  (forall e t, In (e, t) (a_edges (fa_aut fin)) -> t = TNull /\ fa_trace2 fin e = TNull /\ fa_weight fin e = Some 0%Z) /\
  2 <= length (a_edges (fa_aut fin)).
Lemma c69_okb : forall nlab us acc es acc' es', let P := build nlab us in
  forallb (wf_uruleb nlab) us = true -> lookup_safeb us = true -> autb (pd_n P) (pd_nlab P) (mk_ex acc es) = true ->
  autb (pd_n P) (pd_nlab P) (mk_ex acc' es') = true -> no_inb (pd_n P) (mk_ex acc' es') = true -> 2 <= length es' -> c69_ok nlab us (fa_ex acc es) (fa_ex acc' es').
Proof.
  intros nlab us acc es acc' es' P H1 H2 H3 H4 H5 H6. apply autb_ok in H3. unfold c69_ok. split; [apply wf_urulesb_ok; auto|]. split; [apply lookup_safeb_ok; auto|].
  split; [constructor; [apply (po_ord _ _ H3)|intros q l q' H; destruct (po_range _ _ H3 q l q' H) as (K1 & K2 & _); auto]|]. split; [apply (po_n _ _ H3)|].
  split; [intros q t H; destruct (po_range _ _ H3 q None t H) as (_ & _ & x & K & _); discriminate|].
  split; [apply autb_ok; auto|]. split; [apply no_inb_ok; auto|]. split.
  - intros e t H. apply fa_ex_default; auto. cbn in H. apply in_map_iff in H. destruct H as ((x & y) & H & _). congruence.
  - cbn. rewrite map_length. auto.
Qed.

(** post* ends first with weight 0, although pre* alone finds that the weight can be lowered for ever: the answer of engine 3 depends on which saturation is
   faster. The edges of the final automaton to the states 3, ..., 10 accept nothing, they only delay pre*. *)
Definition c69_fin : faut := fa_ex [false; false; true; false; false; false; false; false; false; false; false]
  [(1, 0, 2); (0, 0, 3); (0, 1, 3); (1, 0, 4); (1, 1, 4); (0, 0, 5); (1, 1, 5); (1, 1, 6); (1, 1, 7); (1, 1, 8); (1, 1, 9); (1, 1, 10)].
Theorem C69_post_first_refuted : exists nlab us init fin, let P := build nlab us in let n := pd_n P in c69_ok nlab us init fin /\
  solve_interleaving_trace P false 2000 (fun _ l => l) init fin init fin = done ((true, false), ([(1, [1]); (1, [0])], Some (Some 0%Z))) /\
  solve_fixed_point_trace P false 2000 (fun _ l => l) init fin = done (true, ([], Some None)) /\
  unbounded false (user_wrules nlab us) (aut_lang n (fa_aut init)) (aut_lang n (fa_aut fin)).
Proof.
  exists 2, c32_post_rules, c32_post_init, c69_fin. cbv zeta. split; [apply c69_okb; try reflexivity; cbn; lia|]. split; [vm_compute; reflexivity|].
  assert (S : solve_fixed_point_trace (build 2 c32_post_rules) false 2000 (fun _ l => l) c32_post_init c69_fin = done (true, ([], Some None))) by (vm_compute; reflexivity). split; [exact S|].
  assert (O : c69_ok 2 c32_post_rules c32_post_init c69_fin) by (apply c69_okb; try reflexivity; cbn; lia).
  destruct O as (O1 & O2 & O3 & O4 & O5 & O6 & O7 & O8 & O9).
  destruct (proj1 (C61_fixed_point_trace 2 c32_post_rules false (fun _ l => l) c32_post_init c69_fin O1 O2 (fun q l => Permutation_refl l) O3 O4 O5 O6 O7 O8 O9) 2000) as [K|(r & K & Q & _)];
    pose proof (eq_trans (eq_sym S) K) as K'; [discriminate|]. injection K' as <-. cbn [fst snd fix_answer] in Q. apply Q.
Qed.
Print Assumptions C69_post_first_refuted.

(** A step of post* in the second phase looks for an edge that does not exist, although pre* alone answers the query. *)
Theorem C69_post_fails_refuted : exists nlab us init fin, let P := build nlab us in c69_ok nlab us init fin /\
  interleaving_fixed_point_accepts P false 100 (fun _ l => l) init fin init fin = None /\
  solve_fixed_point_trace P false 100 (fun _ l => l) init fin = done (true, ([], Some None)).
Proof.
  exists 2, [ru 0 POP 0 0 0 0; ru 0 NOOP 0 0 (-1) 1; ru 0 SWAP 0 0 0 1], (fa_ex [false; true] [(0, 1, 1)]), (fa_ex [false; true; false; false; false] [(0, 0, 1); (0, 0, 2); (0, 0, 3); (0, 1, 4)]).
  cbv zeta. split; [apply c69_okb; try reflexivity; cbn; lia|]. vm_compute. auto.
Qed.
Print Assumptions C69_post_fails_refuted.
