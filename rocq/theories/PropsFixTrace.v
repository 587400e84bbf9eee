(** C61: the trace of a fixed-point query by pre*. *)
From Coq Require Import List Arith Lia Bool ZArith Permutation.
From Verif Require Import Base BaseFacts Spec SpecFacts PdaModel PdaProof AutModel AutProof PreStarModel PreStarProof PreStarLang PostStarModel PostStarProof
  PathModel QueryModel QueryProof SolverModel SolverProof ProductModel ProductProof VerdictModel VerdictProof UtilModel ShortSpec ShortModel PostShortProof ShortProof StoreProof ExHelp PropsSaturation PropsShort
  TraceModel TraceProof TraceSolver FixSpec FixModel FixChain FixPre1 FixPre2 FixPre3 FixPre4 FixPre5 FixPre6 FixPath FixPath2 FixSolveModel FixSolveProof PropsFix PropsFixSolve
  FixTraceModel FixTrace1 FixTrace2 FixTrace3 FixTrace4 FixTrace5.
Import ListNotations.

(** The trace that belongs to a weight: a run with that weight, and no trace for bottom and max(). *)
Definition trace_answer (R : wpds) (L1 L2 : config -> Prop) (tr : list config) (o : option (option Z)) : Prop :=
  match o with
  | Some (Some v) => exists c, hd_error tr = Some c /\ L1 c /\ L2 (last tr c) /\ wtrace R tr v
  | _ => tr = []
  end.

Lemma last_cons : forall (cs : list config) c d d', last (c :: cs) d = last (c :: cs) d'.
Proof. induction cs as [|x cs IH]; intros c d d'; auto. apply (IH x). Qed.
Lemma wtrace_run : forall R tr v, wtrace R tr v -> forall c, hd_error tr = Some c -> wreach R c v (last tr c).
Proof.
  intros R tr v H. induction H as [c0|c1 r w c2 cs v HR HS Ht IH]; intros c E; injection E as <-; [constructor|].
  econstructor; eauto. specialize (IH c2 eq_refl). rewrite (last_cons cs c2 c2 c1) in IH. exact IH.
Qed.
Lemma wtrace_iff : forall (R R' : wpds) tr v, (forall r w, R r w -> R' r w) -> wtrace R tr v -> wtrace R' tr v.
Proof. intros R R' tr v H T. induction T; econstructor; eauto. Qed.

(** Saturation and trace one after the other, each with its own fuel. *)
Lemma fixed_trace_parts : forall nlab us mx ord init fin, let P := build nlab us in let n := pd_n P in
  Forall (wf_urule nlab) us -> lookup_safe us -> (forall q l, Permutation (ord q l) l) ->
  aut_wf (fa_aut init) -> n <= a_size (fa_aut init) -> (forall q t, ~ aut_edges (fa_aut init) q None t) ->
  pre_ok P (fa_aut fin) -> no_in P (fa_aut fin) ->
  (forall e t, In (e, t) (a_edges (fa_aut fin)) -> t = TNull /\ fa_trace2 fin e = TNull /\ fa_weight fin e = Some 0%Z) ->
  2 <= length (a_edges (fa_aut fin)) ->
  let R := user_wrules nlab us in let L1 := aut_lang n (fa_aut init) in let L2 := aut_lang n (fa_aut fin) in
  exists A wp o b1 b3, (forall fuel, (pre_star_fixed_point P mx fuel fin = Some None /\ fuel < b1) \/ pre_star_fixed_point P mx fuel fin = done A) /\
    (forall fuel, pre_star_fixed_point P mx fuel fin = done A -> pre_star_fixed_point_accepts P mx fuel ord init fin = done (has_accepting (wp_pr wp), (A, wp))) /\
    fix_answer mx R L1 L2 (has_accepting (wp_pr wp)) o /\
    forall fuel, (get_trace_fixed_point P mx fuel A wp = Some None /\ fuel < b3) \/ exists tr, get_trace_fixed_point P mx fuel A wp = done (tr, o) /\ trace_answer R L1 L2 tr o.
Proof.
  intros nlab us mx ord init fin P n W LS HO WI0 HI NEI OK NI DF TWO R L1 L2.
  assert (HB : forall sr w, pda_wrules P sr w <-> user_wrules nlab us sr w) by (apply build_wrules; auto).
  assert (WP : wf_pda P) by (apply build_wf; auto).
  assert (LK : lookup_ok P) by (apply lookup_safe_ok; auto).
  assert (RG : forall e, In e (map fst (a_edges (fa_aut fin))) -> in_range P (fa_aut fin) e) by (intros e He; eapply pre_ok_range; eauto).
  assert (T2 : 2 <= length (map fst (a_edges (fa_aut fin)))) by (rewrite map_length; auto).
  assert (ZI : forall q t, aut_edges (fa_aut init) q None t -> fa_weight init (mk_edge q None t) = Some 0%Z) by (intros q t Hq; destruct (NEI _ _ Hq)).
  destruct (answers_det _ _ _ (pre_fix_run P WP LK mx fin (po_n _ _ OK) (po_ord _ _ OK) NI (po_nd _ _ OK) RG DF T2) (pre_fix_mono P mx fin)) as (A & b1 & (st & FI & ->) & EA & D).
  destruct (fixed_query_prod nlab us mx ord init fin W LS HO WI0 HI ZI OK NI TWO st FI) as (wp & O & E & C1 & C2 & C3 & C4).
  set (A := x_aut (fw_d st)) in *. fold P n in O, E, C1, C4. fold L1 L2 R in C4. assert (B := f_base _ _ _ _ FI).
  assert (HS : a_size (fa_aut A) = a_size (fa_aut fin)) by (unfold a_size, A; rewrite (xb_acc _ _ _ B); auto).
  assert (LA : n <= a_size (fa_aut A)) by (rewrite HS; apply (po_n _ _ OK)).
  assert (NEA : forall q t, ~ aut_edges (fa_aut A) q None t). { intros q t He. destruct (xb_range _ _ _ B _ He) as (_ & _ & l & X & _). discriminate. }
  assert (TI : tinv P mx (map fst (a_edges (fa_aut fin))) A).
  { apply (pre_fix_tinv P WP mx _ b1 fin A); auto; [intros e He; destruct (RG e He) as (_ & _ & l & X1 & X2); eauto|apply incl_refl]. }
  destruct (find_path_fix P mx wp C1 C2 C3 (prod_noeps P A init NEA NEI wp O)) as (d & o & b0 & b2 & Ed & Zo & FP). fold n in Ed.
  assert (BO : fix_answer mx R L1 L2 (has_accepting (wp_pr wp)) o).
  { apply C4. destruct (proj1 (C59_path_fixed_point n mx (wp_faut wp) C1 C2 C3) b0) as [K|(d' & K & o' & K1 & K2)]; rewrite Ed in K; [discriminate|]. injection K as <-. rewrite Zo in K1. injection K1 as <-. auto. }
  assert (G : exists b3, forall fuel, (get_trace_fixed_point P mx fuel A wp = Some None /\ fuel < b3) \/ exists tr, get_trace_fixed_point P mx fuel A wp = done (tr, o) /\ trace_answer R L1 L2 tr o).
  { unfold get_trace_fixed_point. destruct o as [[v|]|].
    - destruct FP as (qs & ls & (SP & Hq & Hf) & HV & FP). set (p := apt P wp qs ls) in *.
      destruct (p1_spec P _ _ _ _ LA HI (wo_b _ _ _ _ O) qs ls SP Hq Hf NEI) as (V1 & V2 & V3). destruct (langs P _ _ _ _ (wo_b _ _ _ _ O) qs ls SP Hq Hf) as [_ LI].
      change (p1 P (wp_pr wp) qs ls) with p in V1, V2, V3.
      assert (TV : tInv P st v p). { split; auto. split; [assert (X := f_equal fst V2); cbn in X; rewrite X; auto|]. rewrite <- HV. exact (apt_weight P A init NEA NEI wp O qs ls SP). }
      assert (FE : aut_final (fa_aut fin) (ap_end p)) by (unfold aut_final in *; rewrite <- (xb_acc _ _ _ B); auto).
      exists (b2 + S (pm st p)). intros fuel. destruct (FP fuel) as [[H L]|H]; rewrite H; [left; split; auto; lia|]. cbv beta iota delta [done].
      destruct (fix_trace P WP mx fin NI st FI TI v p TV FE fuel) as [[H' L]|(tr & u & H' & T1 & T3 & T4 & T5)]; fold A in H'; rewrite H'; [left; split; auto; lia|].
      right. exists tr. split; auto. cbn. exists (pconf p). rewrite V2 in *. ands; auto.
      assert (u = v); [|subst u; eapply wtrace_iff; [|exact T4]; intros; apply HB; auto].
      destruct BO as [_ [_ BW]]. assert (RW : run_weight R L1 L2 u). { exists (hd 0 qs, Spec.word ls), (last tr (hd 0 qs, Spec.word ls)). ands; auto. eapply wtrace_run; [|exact T1]. eapply wtrace_iff; [|exact T4]. intros; apply HB; auto. }
      specialize (BW u RW). unfold as_good, sg in *. destruct mx; lia.
    - exists b2. intros fuel. destruct (FP fuel) as [[H L]|(qs & ls & _ & H)]; rewrite H; auto. right. exists []. split; reflexivity.
    - exists b2. intros fuel. destruct (FP fuel) as [[H L]|H]; rewrite H; auto. right. exists []. split; reflexivity. }
  destruct G as (b3 & G). exists A, wp, o, b1, b3. ands; auto.
Qed.

(** For the automata of C60, the initial one without epsilon edges: the query ends without undefined behaviour, verdict and weight are as in C60, and
   with a finite weight the trace is a run from an initial to a final configuration whose rules have exactly this weight. *)
Theorem C61_fixed_point_trace : forall nlab us mx ord init fin, let P := build nlab us in let n := pd_n P in
  Forall (wf_urule nlab) us -> lookup_safe us -> (forall q l, Permutation (ord q l) l) ->
  aut_wf (fa_aut init) -> n <= a_size (fa_aut init) -> (forall q t, ~ aut_edges (fa_aut init) q None t) ->
  pre_ok P (fa_aut fin) -> no_in P (fa_aut fin) ->
  (forall e t, In (e, t) (a_edges (fa_aut fin)) -> t = TNull /\ fa_trace2 fin e = TNull /\ fa_weight fin e = Some 0%Z) ->
  2 <= length (a_edges (fa_aut fin)) ->
  let R := user_wrules nlab us in let L1 := aut_lang n (fa_aut init) in let L2 := aut_lang n (fa_aut fin) in
  answers (fun fuel => solve_fixed_point_trace P mx fuel ord init fin)
    (fun r => fix_answer mx R L1 L2 (fst r) (snd (snd r)) /\ trace_answer R L1 L2 (fst (snd r)) (snd (snd r))).
Proof.
  intros nlab us mx ord init fin P n W LS HO WI0 HI NEI OK NI DF TWO R L1 L2.
  destruct (fixed_trace_parts nlab us mx ord init fin W LS HO WI0 HI NEI OK NI DF TWO) as (A & wp & o & b1 & b3 & D & E & BO & G). fold P n R in D, E, G, BO. fold L1 L2 in G, BO.
  assert (SN : forall fuel, pre_star_fixed_point P mx fuel fin = Some None -> solve_fixed_point_trace P mx fuel ord init fin = Some None).
  { intros fuel H. unfold solve_fixed_point_trace, pre_star_fixed_point_accepts. destruct (pr_new_spec n (fa_aut init) (fa_aut fin) false HI (po_n _ _ OK) ord HO) as (pr & E0 & _). fold n. rewrite E0. cbn [obind]. rewrite H. reflexivity. }
  assert (SE : forall fuel, pre_star_fixed_point P mx fuel fin = done A -> solve_fixed_point_trace P mx fuel ord init fin =
    match get_trace_fixed_point P mx fuel A wp with Some (Some tw) => done (has_accepting (wp_pr wp), tw) | Some None => Some None | None => None end).
  { intros fuel H. unfold solve_fixed_point_trace. rewrite (E fuel H). cbv beta iota delta [done]. cbn [fst snd]. destruct (get_trace_fixed_point P mx fuel A wp) as [[tw|]|]; auto. }
  split.
  - intros fuel. destruct (D fuel) as [[H _]|H]; [left; auto|]. rewrite (SE fuel H). destruct (G fuel) as [[K _]|(tr & K & T)]; rewrite K; auto.
    right. exists (has_accepting (wp_pr wp), (tr, o)). split; [reflexivity|]. cbn [fst snd]. auto.
  - exists (b1 + b3). intros fuel L. destruct (D fuel) as [[H L']|H]; [lia|]. rewrite (SE fuel H). destruct (G fuel) as [[K L']|(tr & K & T)]; [lia|]. rewrite K. discriminate.
Qed.
Print Assumptions C61_fixed_point_trace.

(** The rules of C32 from (0, [0]): the least weight 2 is that of the trace by PUSH and SWAP, the greatest 4 that of the trace by the SWAP. *)
Definition c61 (mx : bool) (init : faut) : option (option (bool * (list config * option fwt))) :=
  solve_fixed_point_trace (build 2 c32_rules) mx 100 (fun _ l => l) init c32_target.
Definition c61_init (es : list (nat * nat * nat)) : faut := fa_ex [false; false; false; false; true] es.
Example C61_example_hyps : aut_wf (fa_aut (c61_init [(0, 0, 4); (1, 0, 4)])) /\ pd_n (build 2 c32_rules) <= a_size (fa_aut (c61_init [(0, 0, 4); (1, 0, 4)])) /\
  forall q t, ~ aut_edges (fa_aut (c61_init [(0, 0, 4); (1, 0, 4)])) q None t.
Proof. split; [apply C60_example_hyps|]. split; [vm_compute; lia|]. intros q t H. cbn in H. destruct H as [H|[H|[]]]; discriminate. Qed.
Example C61_example : c61 false (c61_init [(0, 0, 4)]) = done (true, ([(0, [0]); (1, [1; 0]); (2, [0])], Some (Some 2%Z))) /\
  c61 true (c61_init [(0, 0, 4)]) = done (true, ([(0, [0]); (2, [1])], Some (Some 4%Z))) /\
  c61 false (c61_init [(0, 0, 4); (1, 0, 4)]) = done (true, ([], Some None)) /\ c61 false (c61_init [(2, 0, 3); (3, 0, 4)]) = done (false, ([], None)).
Proof. vm_compute. auto 10. Qed.

(** Without the restriction on epsilon edges the claim is false: with an initial automaton as in C60 whose epsilon edge has weight zero, verdict and weight
   are found, but get_path fails its assertion on the label of the epsilon edge of the product. *)
Definition c61_eps : faut := mk_faut (mk_aut [false; false; false; false; true; false] [(mk_edge 0 (Some 0) 5, TNull); (mk_edge 5 None 4, TNull)] (fun _ l => l)) [] [].
Theorem C61_epsilon_refuted : exists nlab us mx ord init fin, let P := build nlab us in let n := pd_n P in
  Forall (wf_urule nlab) us /\ lookup_safe us /\ (forall q l, Permutation (ord q l) l) /\
  aut_wf (fa_aut init) /\ n <= a_size (fa_aut init) /\ (forall q t, aut_edges (fa_aut init) q None t -> fa_weight init (mk_edge q None t) = Some 0%Z) /\
  pre_ok P (fa_aut fin) /\ no_in P (fa_aut fin) /\
  (forall e t, In (e, t) (a_edges (fa_aut fin)) -> t = TNull /\ fa_trace2 fin e = TNull /\ fa_weight fin e = Some 0%Z) /\ 2 <= length (a_edges (fa_aut fin)) /\
  exists fuel, solve_fixed_point P mx fuel ord init fin = done (true, Some (Some 2%Z)) /\ solve_fixed_point_trace P mx fuel ord init fin = None.
Proof.
  exists 2, c32_rules, false, (fun _ l => l), c61_eps, c32_target. destruct C32_example_hyps as (H1 & H2 & H3 & H4 & H5 & H6). cbv zeta. split; auto. split; auto. split; [intros; apply Permutation_refl|].
  split; [constructor; [intros q l; apply Permutation_refl|]; intros q l q' H; cbn in H; destruct H as [H|[H|[]]]; injection H as <- <- <-; cbn; lia|].
  split; [vm_compute; lia|]. split; [intros q t H; cbn in H; destruct H as [H|[H|[]]]; [discriminate|]; injection H as <- <-; reflexivity|].
  split; auto. split; auto. split; auto. split; auto. exists 100. vm_compute. auto.
Qed.
Print Assumptions C61_epsilon_refuted.
