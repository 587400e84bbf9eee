(** C77: the trace of a fixed-point query by post*. *)
From Coq Require Import List Arith Lia Bool ZArith Permutation.
From Verif Require Import Base BaseFacts Spec SpecFacts PdaModel PdaProof AutModel AutProof PreStarModel PreStarProof PreStarLang PostStarModel PostStarProof PostStarLang
  PathModel QueryModel QueryProof SolverModel SolverProof ProductModel TraceModel TraceProof TraceSolver UtilModel ShortSpec ShortModel ShortProdProof PostShortProof ShortProof StoreProof ExHelp PropsSaturation PropsShort
  ProductProof VerdictModel VerdictProof FixSpec FixModel FixPre1 FixPre2 FixPath FixPath2 FixPost1 FixPost2 FixPost3 FixPost4 PropsFix FixSolveModel FixSolveProof PropsFixSolve FixTraceModel
  FixTrace1 FixTrace2 FixTrace3 FixTrace4 FixTrace5 PropsFixTrace InterModel InterProof PropsInter PropsTrace PropsFixPost.
Import ListNotations.

(** A trace is the configurations of a run, one rule after the other, from [L1] to [L2]. *)
Definition trace_sound (Ru : pds) (L1 L2 : config -> Prop) (tr : list config) (o : option (option Z)) : Prop :=
  match o with
  | Some (Some _) => exists c, hd_error tr = Some c /\ L1 c /\ L2 (last tr c) /\ is_run Ru tr
  | _ => tr = []
  end.

(** * C77: when engine 1 gives a finite weight, its trace is a run from an initial to a final configuration; for bottom and max() there is no trace. The
   weight of this run is not claimed: weights by post* need not be best (C32_post_star_refuted). *)
Theorem C77_post_trace : forall nlab us mx fuel ord init fin b tr o, let P := build nlab us in let n := pd_n P in
  Forall (wf_urule nlab) us -> (forall q l, Permutation (ord q l) l) ->
  pre_ok P (fa_aut init) -> no_in P (fa_aut init) ->
  (forall e t, In (e, t) (a_edges (fa_aut init)) -> t = TNull /\ fa_trace2 init e = TNull /\ fa_weight init e = Some 0%Z) ->
  aut_wf (fa_aut fin) -> n <= a_size (fa_aut fin) -> (forall q t, ~ aut_edges (fa_aut fin) q None t) ->
  solve_post_fixed_point_trace P mx fuel ord init fin = done (b, (tr, o)) ->
  trace_sound (user_rules nlab us) (aut_lang n (fa_aut init)) (aut_lang n (fa_aut fin)) tr o.
Proof.
  intros nlab us mx fuel ord init fin b tr o P n W HO OK NI DF WF HF NEF H. set (L1 := aut_lang n (fa_aut init)). set (L2 := aut_lang n (fa_aut fin)).
  assert (WP : wf_pda P) by (apply build_wf; auto). assert (OK2 : post_ok P (fa_aut init)) by (apply post_ok_pre_ok; auto).
  assert (Z0 : forall e, In e (map fst (a_edges (fa_aut init))) -> fa_weight init e = Some 0%Z). { intros e He. apply in_map_iff in He. destruct He as ([e' t] & <- & He). apply (DF e' t He). }
  assert (T0 : forall e, In e (map fst (a_edges (fa_aut init))) -> fa_trace2 init e = TNull). { intros e He. apply in_map_iff in He. destruct He as ([e' t] & <- & He). apply (DF e' t He). }
  unfold solve_post_fixed_point_trace, post_star_fixed_point_accepts in H. fold n in H. destruct (pr_new n ord (fa_aut init) (fa_aut fin)) as [pr|] eqn:EP0; [|discriminate]. cbn [obind] in H.
  destruct (post_star_fixed_point P mx fuel init) as [[A|]|] eqn:ES; try discriminate.
  destruct (run_part P WP mx init OK2 Z0 T0 fuel A ES) as (st & BS & EA). assert (BQ := k_base _ _ _ _ _ _ _ _ (b_k _ _ _ _ BS)).
  assert (CA := c_acc _ _ _ _ _ _ BQ). assert (CO := c_ord _ _ _ _ _ _ BQ). assert (CR := c_range _ _ _ _ _ _ BQ). assert (CS := qbase_size _ _ _ _ _ _ BQ). cbn in CA, CO, CS. rewrite <- EA in CA, CO, CS.
  destruct (qo_acc _ _ (proj1 (qp_init_ok P (fa_aut init)))) as [k EK]. rewrite EK in CA. assert (HI := qk_n _ _ OK2). fold n in HI.
  assert (LA : n <= a_size (fa_aut A)) by (unfold a_size in *; rewrite CA, app_length; lia).
  assert (WA : aut_wf (fa_aut A)).
  { constructor; [unfold wf_ord; rewrite CO; apply (qk_ord _ _ OK2)|]. intros q l t He. rewrite EA in He. assert (X := CR _ He). destruct X as (X1 & X2 & _). cbn in X1, X2. rewrite CS. split; auto. apply X2. }
  destruct (pr_new_spec n (fa_aut A) (fa_aut fin) false LA HF ord HO) as (pr' & E0 & PB & _).
  assert (pr' = pr).
  { revert E0 EP0. unfold pr_new. rewrite (proj2 (Nat.leb_le _ _) LA), (proj2 (Nat.leb_le _ _) HF), (proj2 (Nat.leb_le _ _) HI). cbn [andb]. rewrite CA. rewrite firstn_app. unfold a_size in HI. replace (n - length (a_acc (fa_aut init))) with 0 by lia.
    cbn [firstn]. rewrite app_nil_r. congruence. } subst pr'.
  assert (EE : a_edges (pr_aut pr) = []). { unfold pr_new in E0. destruct (Nat.leb n (a_size (fa_aut A)) && Nat.leb n (a_size (fa_aut fin))); [|discriminate]. injection E0 as <-. reflexivity. }
  destruct (wp_initialize_spec n A fin WA WF LA HF pr PB EE) as (b' & wp & E2 & O & Hb). unfold inst_accepts in H. fold n in H. rewrite E2 in H. cbn [obind fst snd] in H. cbv beta iota delta [done] in H. cbn [fst snd] in H.
  destruct (get_trace_fixed_point P mx fuel A wp) as [[tw|]|] eqn:G; try discriminate. injection H as -> ->. subst b.
  assert (PS := pb_size _ _ _ _ _ (pb_0 _ _ _ _ _ (wo_b _ _ _ _ O))). unfold psz in PS.
  assert (C1 : n <= a_size (pr_aut (wp_pr wp))) by lia. assert (C2 := pb_ord _ _ _ _ _ (pb_0 _ _ _ _ _ (wo_b _ _ _ _ O))).
  assert (C3 : forall q l t, aut_edges (pr_aut (wp_pr wp)) q l t -> q < a_size (pr_aut (wp_pr wp)) /\ t < a_size (pr_aut (wp_pr wp))).
  { intros q l t He. destruct (pb_edges _ _ _ _ _ (pb_0 _ _ _ _ _ (wo_b _ _ _ _ O)) _ _ _ He) as (a & b1 & a' & b2 & P1 & P2 & _).
    split; apply (pair_lt n (fa_aut A) (fa_aut fin) false LA HF (wp_pr wp) _ (pb_0 _ _ _ _ _ (wo_b _ _ _ _ O))); eauto. }
  unfold get_trace_fixed_point, find_path_fixed_point in G. fold n in G. destruct (fixed_point_paths n mx (wp_faut wp) fuel) as [[d|]|] eqn:D; try discriminate.
  destruct (paths_zinv _ _ _ _ _ D) as (r & r1 & B & Z).
  destruct (proj1 (paths_run n mx (wp_faut wp) C1 C2 C3) fuel) as [D'|(d' & D' & sz & FI & Ed)]; rewrite D in D'; [discriminate|]. injection D' as <-.
  destruct (z_min d) as [m|] eqn:Em; [|cbn in G; injection G as <- <-; reflexivity].
  destruct FI as (_ & F2 & _). rewrite Ed in Em. destruct (F2 m Em) as [Fm Vm]. rewrite <- Ed in Em. unfold V in Vm. change (zs sz) with (z_states (fw_d sz)) in Vm. rewrite <- Ed in Vm.
  destruct (nth_error (z_states d) m) as [i|] eqn:Ei; [|congruence]. destruct (si_w i) as [w|] eqn:Ew; [|congruence].
  assert (ZW : z_weight d = Some (Some w)) by (unfold z_weight; rewrite Em, Ei; cbn; rewrite Ew; auto). rewrite ZW in G. cbn [obind] in G. cbv zeta in G.
  set (sm := fun id => fst (orig_pair P (wp_pr wp) id)) in G. destruct w as [v|].
  2:{ destruct (z_get_path_with_loop (z_states d) sm fuel m) as [[q|]|]; try discriminate. unfold done at 1 in G. cbv beta iota in G. injection G as <- <-. reflexivity. }
  destruct (z_get_path (z_states d) sm m) as [p|] eqn:EG; [|discriminate]. cbn [obind] in G. unfold done at 1 in G. cbv beta iota in G.
  destruct (get_trace_path P (fa_view A) fuel p) as [[t|]|] eqn:ET; try discriminate. injection G as <- <-. cbn.
  unfold z_get_path in EG. destruct (z_back_part n mx (wp_faut wp) (z_states d) r r1 B Z sm m _ _ _ _ _ (pt_start (wp_faut wp) sm m) (ex_intro _ i Ei) EG) as (q & u & (qs & ls & Ep & Q1 & Q2 & Q3 & Q4) & Hq).
  assert (EP1 : p = p1 P (wp_pr wp) qs ls) by (assert (LM := last_map _ _ sm qs 0); rewrite Q3 in LM; rewrite Ep, <- LM; reflexivity).
  assert (Hq' : hd 0 qs < n) by (rewrite Q2; auto). assert (Hf : aut_final (pr_aut (wp_pr wp)) (last qs 0)) by (rewrite Q3; exact Fm).
  destruct (p1_spec P _ _ _ _ LA HF (wo_b _ _ _ _ O) qs ls Q1 Hq' Hf NEF) as (V1 & V2 & V3). destruct (langs P _ _ _ _ (wo_b _ _ _ _ O) qs ls Q1 Hq' Hf) as [_ LI]. rewrite <- EP1 in V1, V2, V3.
  assert (HFr : ap_front p < n) by (assert (X := f_equal fst V2); cbn in X; rewrite X; auto). rewrite EA in V1, V3, ET.
  destruct (bi_trace P WP init OK2 st BS fuel p t V1 V3 HFr ET) as (T1 & T2 & T3 & T4).
  exists (hd (pconf p) t). ands; auto.
  - apply hd_error_hd; auto.
  - rewrite (last_indep _ _ _ (pconf p)), T3, V2 by auto. exact LI.
  - eapply is_run_iff; [|exact T1]. intros sr. apply build_rules; auto.
Qed.
Print Assumptions C77_post_trace.

Lemma wtrace_is_run : forall nlab us tr v, wtrace (user_wrules nlab us) tr v -> is_run (user_rules nlab us) tr.
Proof.
  intros nlab us tr v H. induction H as [c|c1 r w c2 cs v HR HS _ IH]; cbn; auto. split; auto. exists r. split; auto. destruct HR as (u & H1 & H2 & H3 & H4 & H5 & _). exists u. auto.
Qed.

(** Engine 3: whichever saturation ends first, the trace is a run. *)
Theorem C77_interleaving_trace : forall nlab us mx fuel ord init fin initc finc b u tr o, let P := build nlab us in let n := pd_n P in
  Forall (wf_urule nlab) us -> lookup_safe us -> (forall q l, Permutation (ord q l) l) ->
  pre_ok P (fa_aut init) -> no_in P (fa_aut init) ->
  (forall e t, In (e, t) (a_edges (fa_aut init)) -> t = TNull /\ fa_trace2 init e = TNull /\ fa_weight init e = Some 0%Z) ->
  pre_ok P (fa_aut fin) -> no_in P (fa_aut fin) ->
  (forall e t, In (e, t) (a_edges (fa_aut fin)) -> t = TNull /\ fa_trace2 fin e = TNull /\ fa_weight fin e = Some 0%Z) ->
  2 <= length (a_edges (fa_aut fin)) -> copy_of init initc -> copy_of fin finc ->
  solve_interleaving_trace P mx fuel ord init fin initc finc = done ((b, u), (tr, o)) ->
  trace_sound (user_rules nlab us) (aut_lang n (fa_aut init)) (aut_lang n (fa_aut fin)) tr o.
Proof.
  intros nlab us mx fuel ord init fin initc finc b u tr o P n W LS HO OKI NII DFI OKF NIF DFF TWO CI CF H.
  assert (WF : forall A, pre_ok P A -> aut_wf A /\ n <= a_size A /\ forall q t, ~ aut_edges A q None t).
  { intros A K. split; [constructor; [apply (po_ord _ _ K)|]; intros q l q' He; destruct (po_range _ _ K q l q' He) as (X1 & X2 & _); auto|]. split; [apply (po_n _ _ K)|].
    intros q t He. destruct (po_range _ _ K _ _ _ He) as (_ & _ & x & X & _). discriminate. }
  destruct (WF _ OKI) as (I1 & I2 & I3). destruct (WF _ OKF) as (F1 & F2 & F3).
  destruct (C69_interleaving_partial nlab us mx ord init fin initc finc W LS HO I1 I2 I3 OKF NIF DFF TWO CI CF) as [C _]. specialize (C fuel b u tr o H). destruct u.
  - destruct C as [_ C]. fold P n in C. destruct o as [[v|]|]; cbn in C |- *; auto. destruct C as (c & C1 & C2 & C3 & C4). exists c. ands; auto. eapply wtrace_is_run; eauto.
  - apply (C77_post_trace nlab us mx fuel ord init fin b tr o W HO OKI NII DFI F1 F2 F3 C).
Qed.
Print Assumptions C77_interleaving_trace.

(** A run that pushes and pops: the traces of an epsilon edge and of both edges of a PUSH are read. The hypotheses hold. *)
Definition c77_rules : list urule := [ru 0 PUSH 1 1 1 0; ru 1 SWAP 1 0 1 1; ru 1 POP 2 0 (-1) 0; ru 0 NOOP 2 0 5 0; ru 2 SWAP 1 0 2 1].
Definition c77_init : faut := fa_ex [false; false; false; false; true] [(0, 0, 3); (3, 1, 4)].
Definition c77_fin (p l : nat) : faut := fa_ex [false; false; false; false; true] [(p, l, 3); (3, 1, 4)].
Example C77_example_hyps : Forall (wf_urule 2) c77_rules /\ lookup_safe c77_rules /\ pre_ok (build 2 c77_rules) (fa_aut c77_init) /\ no_in (build 2 c77_rules) (fa_aut c77_init) /\
  (forall e t, In (e, t) (a_edges (fa_aut c77_init)) -> t = TNull /\ fa_trace2 c77_init e = TNull /\ fa_weight c77_init e = Some 0%Z) /\
  pre_ok (build 2 c77_rules) (fa_aut (c77_fin 2 0)) /\ no_in (build 2 c77_rules) (fa_aut (c77_fin 2 0)).
Proof.
  split; [apply wf_urulesb_ok; reflexivity|]. split; [apply lookup_safeb_ok; reflexivity|]. split; [apply autb_ok; reflexivity|]. split; [apply no_inb_ok; reflexivity|].
  split; [intros e t H; apply c76_default; auto|]. split; [apply autb_ok; reflexivity|apply no_inb_ok; reflexivity].
Qed.
Definition c77 (mx : bool) (init fin : faut) := solve_post_fixed_point_trace (build 2 c77_rules) mx 200 (fun _ l => l) init fin.
Example C77_example : c77 false c77_init (c77_fin 2 0) = done (true, ([(0, [0; 1]); (1, [1; 0; 1]); (1, [0; 0; 1]); (2, [0; 1])], Some (Some 1%Z))) /\
  c77 true c77_init (c77_fin 2 0) = done (true, ([(0, [0; 1]); (2, [0; 1])], Some (Some 5%Z))) /\ c77 true c77_init (c77_fin 1 1) = done (false, ([], None)).
Proof. vm_compute. auto. Qed.

(** That the query returns is a premise of C77, and needed: for a final configuration with the empty stack, reached by a POP, the saturation ends, the verdict is
   right, but the only accepting path of the product reads the epsilon edge made for the POP, and get_path fails its assertion on the label (PAutomatonAlgorithms.h
   132). Both automata meet the hypotheses of C77, so do all rules. *)
Definition c77_pop : list urule := [ru 0 POP 1 0 1 0].
Definition c77_pop_init : faut := fa_ex [false; false; false; true] [(0, 0, 3)].
Definition c77_empty : faut := fa_ex [false; true; false] [].
Theorem C77_empty_stack_refuted : exists nlab us ord init fin, let P := build nlab us in let n := pd_n P in
  Forall (wf_urule nlab) us /\ (forall q l, Permutation (ord q l) l) /\ pre_ok P (fa_aut init) /\ no_in P (fa_aut init) /\
  (forall e t, In (e, t) (a_edges (fa_aut init)) -> t = TNull /\ fa_trace2 init e = TNull /\ fa_weight init e = Some 0%Z) /\
  aut_wf (fa_aut fin) /\ n <= a_size (fa_aut fin) /\ (forall q t, ~ aut_edges (fa_aut fin) q None t) /\
  can_reach (user_rules nlab us) (aut_lang n (fa_aut init)) (aut_lang n (fa_aut fin)) /\
  forall mx, (exists r, post_star_fixed_point_accepts P mx 100 ord init fin = done (true, r)) /\ solve_post_fixed_point_trace P mx 100 ord init fin = None.
Proof.
  exists 1, c77_pop, (fun _ l => l), c77_pop_init, c77_empty. cbv zeta.
  assert (H1 : Forall (wf_urule 1) c77_pop) by (apply wf_urulesb_ok; reflexivity).
  assert (H3 : pre_ok (build 1 c77_pop) (fa_aut c77_pop_init)) by (apply autb_ok; reflexivity). assert (H4 : no_in (build 1 c77_pop) (fa_aut c77_pop_init)) by (apply no_inb_ok; reflexivity).
  assert (H5 : forall e t, In (e, t) (a_edges (fa_aut c77_pop_init)) -> t = TNull /\ fa_trace2 c77_pop_init e = TNull /\ fa_weight c77_pop_init e = Some 0%Z) by (intros e t H; apply c76_default; auto).
  assert (H6 : aut_wf (fa_aut c77_empty)) by (constructor; [intros q l; apply Permutation_refl|intros q l q' []]).
  assert (H7 : pd_n (build 1 c77_pop) <= a_size (fa_aut c77_empty)) by (vm_compute; lia).
  assert (E : forall mx, (exists r, post_star_fixed_point_accepts (build 1 c77_pop) mx 100 (fun _ l => l) c77_pop_init c77_empty = done (true, r)) /\
    solve_post_fixed_point_trace (build 1 c77_pop) mx 100 (fun _ l => l) c77_pop_init c77_empty = None).
  { intros mx. split; [destruct mx; eexists; vm_compute; reflexivity|destruct mx; vm_compute; reflexivity]. }
  ands; auto.
  destruct (E false) as [[r Er] _].
  apply (C76_post_accepts 1 c77_pop false 100 (fun _ l => l) c77_pop_init c77_empty true r H1 (fun _ l => Permutation_refl l) H3 H4 H5 H6 H7 Er). reflexivity.
Qed.
Print Assumptions C77_empty_stack_refuted.
