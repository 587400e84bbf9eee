(** C76: what post_star_fixed_point gives for trace types ShortestFixedPoint and Longest when no step is undefined. *)
From Coq Require Import List Arith Lia Bool ZArith Permutation.
From Verif Require Import Base BaseFacts Spec SpecFacts PdaModel PdaProof AutModel AutProof PreStarModel PreStarProof PreStarLang PostStarModel PostStarProof PostStarLang
  PathModel QueryModel QueryProof SolverModel SolverProof ProductModel TraceModel UtilModel ShortSpec ShortModel ShortProdProof PostShortProof ShortProof StoreProof ExHelp PropsSaturation PropsShort
  ProductProof VerdictModel VerdictProof FixSpec FixModel FixPre1 FixPre2 FixPost1 FixPost2 FixPost3 PropsFix FixSolveModel FixSolveProof PropsFixSolve FixTraceModel PropsFixTrace InterModel InterProof PropsInter.
Import ListNotations.

(** * C76: the automaton accepts exactly the configurations that runs from the given automaton reach, and a finite weight of an accepting path is the
   weight of such a run. There may be better runs (C32_post_star_refuted), and a step may be undefined (C32_post_star_fails_refuted), so both are not claimed. *)
Theorem C76_post_fixed_point : forall nlab us mx fuel A0 A, let P := build nlab us in let n := pd_n P in
  Forall (wf_urule nlab) us -> pre_ok P (fa_aut A0) -> no_in P (fa_aut A0) ->
  (forall e t, In (e, t) (a_edges (fa_aut A0)) -> t = TNull /\ fa_trace2 A0 e = TNull /\ fa_weight A0 e = Some 0%Z) ->
  post_star_fixed_point P mx fuel A0 = done A ->
  let L1 := aut_lang n (fa_aut A0) in
  (forall c, aut_lang n (fa_aut A) c <-> can_reach (user_rules nlab us) L1 (eq c)) /\
  (forall p w v f, p < n -> ipath (aut_edges (fa_aut A)) (fa_wt A) p w (Some v) f -> aut_final (fa_aut A) f -> run_weight (user_wrules nlab us) L1 (eq (p, w)) v).
Proof.
  intros nlab us mx fuel A0 A P n W OK NI DF H L1.
  assert (HB : forall sr w, pda_wrules P sr w <-> user_wrules nlab us sr w) by (apply build_wrules; auto).
  assert (WP : wf_pda P) by (apply build_wf; auto).
  assert (OK2 : post_ok P (fa_aut A0)) by (apply post_ok_pre_ok; auto).
  assert (Z0 : forall e, In e (map fst (a_edges (fa_aut A0))) -> fa_weight A0 e = Some 0%Z). { intros e He. apply in_map_iff in He. destruct He as ([e' t] & <- & He). apply (DF e' t He). }
  assert (T0 : forall e, In e (map fst (a_edges (fa_aut A0))) -> fa_trace2 A0 e = TNull). { intros e He. apply in_map_iff in He. destruct He as ([e' t] & <- & He). apply (DF e' t He). }
  destruct (run_part P WP mx A0 OK2 Z0 T0 fuel A H) as (st & B & ->). split.
  - intros c. assert (LE := lang_exact P WP A0 OK2 st B c). unfold can_reach. fold n L1 in LE. rewrite LE. split.
    + intros (c0 & H1 & H2). exists c0, c. ands; auto. eapply reach_mono; [|exact H2]. intros r. apply build_rules; auto.
    + intros (c0 & c' & H1 & <- & H2). exists c0. split; auto. eapply reach_mono; [|exact H2]. intros r. apply build_rules; auto.
  - intros p w v f Hp Hi Hf. destruct (weight_sound P A0 OK2 st B p w v f Hp Hi Hf) as (c0 & H1 & H2). apply (run_weight_iff _ _ _ _ _ HB). exists c0, (p, w). auto.
Qed.
Print Assumptions C76_post_fixed_point.

(** The saturation does not run for ever; it may still fail. *)
Theorem C76_post_fixed_point_ends : forall nlab us mx A0, let P := build nlab us in
  Forall (wf_urule nlab) us -> pre_ok P (fa_aut A0) -> no_in P (fa_aut A0) ->
  (forall e t, In (e, t) (a_edges (fa_aut A0)) -> t = TNull /\ fa_trace2 A0 e = TNull /\ fa_weight A0 e = Some 0%Z) ->
  exists bound, forall fuel, bound <= fuel -> post_star_fixed_point P mx fuel A0 <> Some None.
Proof.
  intros nlab us mx A0 P W OK NI DF. apply post_fixed_ends; [apply build_wf; auto|apply post_ok_pre_ok; auto| |];
  intros e He; apply in_map_iff in He; destruct He as ([e' t] & <- & He); apply (DF e' t He).
Qed.
Print Assumptions C76_post_fixed_point_ends.

(** ** The query by post*: the product of the saturated initial automaton, which has epsilon edges, and the final automaton, which has none. *)
Section PostProd.
  Variable n : nat.
  Variables F S : faut.
  Notation EF := (aut_edges (fa_aut F)).
  Notation ES := (aut_edges (fa_aut S)).
  Hypothesis NES : forall q t, ~ ES q None t.

  Lemma post_product_path : forall wp, wprod_ok n F S wp -> forall q w v q', ipath (EP wp) (wP wp) q w v q' -> forall a b, pr_pair n (wp_pr wp) q = Some (a, b) ->
    exists a' b', pr_pair n (wp_pr wp) q' = Some (a', b') /\ ipath EF (wF F) a w v a' /\ apath ES b w b'.
  Proof.
    intros wp O q w v q' H. induction H as [q|q l q1 w v q2 He Hp IH]; intros a b HP; [exists a, b; ands; auto; constructor|].
    destruct (pb_edges _ _ _ _ _ (pb_0 _ _ _ _ _ (wo_b _ _ _ _ O)) _ _ _ He) as (a0 & b0 & a1 & b1 & P0 & P1 & J).
    destruct (wi_w _ _ _ _ (wo_w _ _ _ _ O) _ _ _ He) as (a2 & b2 & a3 & b3 & P2 & P3 & Hw). assert (Q : (a0, b0) = (a, b)) by congruence. injection Q as -> ->. assert (Q : (a2, b2) = (a, b)) by congruence. injection Q as -> ->.
    assert (Q : (a3, b3) = (a1, b1)) by congruence. injection Q as -> ->. destruct (IH a1 b1 P1) as (a' & b' & K1 & K2 & K3). exists a', b'. split; auto. destruct l as [x|].
    - cbn in J. destruct J as [J1 J2]. split; [|eapply ap_lab; eauto]. replace (wP wp q (Some x) q1) with (wF F a (Some x) a1) by (unfold wP, wF; auto). apply (ip_cons EF (wF F) a (Some x) a1 w v a'); auto.
    - destruct Hw as [(-> & H & H2)|(-> & H & H2)]; [|exfalso; eapply NES; eauto]. split; auto. replace (wP wp q None q1) with (wF F a None a1) by (unfold wP, wF; auto). apply (ip_cons EF (wF F) a None a1 w v a'); auto.
  Qed.
  Lemma post_product_weight : forall wp v, wprod_ok n F S wp -> path_weight n (wp_faut wp) v -> exists p w f, p < n /\ ipath EF (wF F) p w v f /\ aut_final (fa_aut F) f /\ aut_lang n (fa_aut S) (p, w).
  Proof.
    intros wp v O (p & w & q & Hp & Hi & Hf). assert (B := pb_0 _ _ _ _ _ (wo_b _ _ _ _ O)). assert (PP : pr_pair n (wp_pr wp) p = Some (p, p)) by (unfold pr_pair; apply Nat.ltb_lt in Hp; rewrite Hp; auto).
    destruct (post_product_path wp O _ _ _ _ Hi p p PP) as (a & b & K1 & K2 & K3). apply (pb_acc _ _ _ _ _ B _ _ _ K1) in Hf. destruct Hf as [F1 F2]. exists p, w, a. ands; auto. split; auto. exists b. auto.
  Qed.
End PostProd.

(** What the answer of engine 1 says: the verdict tells whether a run exists, and a finite weight is the weight of one. *)
Definition sound_answer (Ru : pds) (R : wpds) (L1 L2 : config -> Prop) (b : bool) (o : option (option Z)) : Prop :=
  (b = true <-> can_reach Ru L1 L2) /\
  match o with
  | None => b = false
  | Some None => b = true
  | Some (Some v) => b = true /\ run_weight R L1 L2 v
  end.

Theorem C76_post_query : forall nlab us mx fuel ord init fin b tr o, let P := build nlab us in let n := pd_n P in
  Forall (wf_urule nlab) us -> (forall q l, Permutation (ord q l) l) ->
  pre_ok P (fa_aut init) -> no_in P (fa_aut init) ->
  (forall e t, In (e, t) (a_edges (fa_aut init)) -> t = TNull /\ fa_trace2 init e = TNull /\ fa_weight init e = Some 0%Z) ->
  aut_wf (fa_aut fin) -> n <= a_size (fa_aut fin) -> (forall q t, ~ aut_edges (fa_aut fin) q None t) ->
  solve_post_fixed_point_trace P mx fuel ord init fin = done (b, (tr, o)) ->
  sound_answer (user_rules nlab us) (user_wrules nlab us) (aut_lang n (fa_aut init)) (aut_lang n (fa_aut fin)) b o.
Proof.
  intros nlab us mx fuel ord init fin b tr o P n W HO OK NI DF WF HF NEF H. set (L1 := aut_lang n (fa_aut init)). set (L2 := aut_lang n (fa_aut fin)).
  assert (WP : wf_pda P) by (apply build_wf; auto). assert (OK2 : post_ok P (fa_aut init)) by (apply post_ok_pre_ok; auto).
  assert (Z0 : forall e, In e (map fst (a_edges (fa_aut init))) -> fa_weight init e = Some 0%Z). { intros e He. apply in_map_iff in He. destruct He as ([e' t] & <- & He). apply (DF e' t He). }
  assert (T0 : forall e, In e (map fst (a_edges (fa_aut init))) -> fa_trace2 init e = TNull). { intros e He. apply in_map_iff in He. destruct He as ([e' t] & <- & He). apply (DF e' t He). }
  unfold solve_post_fixed_point_trace, post_star_fixed_point_accepts in H. fold n in H. destruct (pr_new n ord (fa_aut init) (fa_aut fin)) as [pr|] eqn:EP0; [|discriminate]. cbn [obind] in H.
  destruct (post_star_fixed_point P mx fuel init) as [[A|]|] eqn:ES; try discriminate.
  destruct (C76_post_fixed_point nlab us mx fuel init A W OK NI DF ES) as [LE WS]. fold P n in LE, WS. fold L1 in LE, WS.
  destruct (run_part P WP mx init OK2 Z0 T0 fuel A ES) as (st & BS & EA). assert (BQ := k_base _ _ _ _ _ _ _ _ (b_k _ _ _ _ BS)).
  assert (CA := c_acc _ _ _ _ _ _ BQ). assert (CO := c_ord _ _ _ _ _ _ BQ). assert (CR := c_range _ _ _ _ _ _ BQ). assert (CS := qbase_size _ _ _ _ _ _ BQ). cbn in CA, CO, CS. rewrite <- EA in CA, CO, CS.
  destruct (qo_acc _ _ (proj1 (qp_init_ok P (fa_aut init)))) as [k EK]. rewrite EK in CA. assert (HI := qk_n _ _ OK2). fold n in HI.
  assert (LA : n <= a_size (fa_aut A)) by (unfold a_size in *; rewrite CA, app_length; lia).
  assert (WA : aut_wf (fa_aut A)).
  { constructor; [unfold wf_ord; rewrite CO; apply (qk_ord _ _ OK2)|]. intros q l t He. rewrite EA in He. assert (X := CR _ He). destruct X as (X1 & X2 & _). cbn in X1, X2. rewrite CS. split; auto. apply X2. }
  destruct (pr_new_spec n (fa_aut A) (fa_aut fin) false LA HF ord HO) as (pr' & E0 & PB & _).
  assert (pr' = pr).
  { revert E0 EP0. unfold pr_new. rewrite (proj2 (Nat.leb_le _ _) LA), (proj2 (Nat.leb_le _ _) HF), (proj2 (Nat.leb_le _ _) HI). cbn [andb]. rewrite CA. rewrite firstn_app. unfold a_size in HI. replace (n - length (a_acc (fa_aut init))) with 0 by lia.
    cbn [firstn]. rewrite app_nil_r. congruence. } subst pr'.
  assert (EE : a_edges (pr_aut pr) = []). { unfold pr_new in E0. destruct (Nat.leb n (a_size (fa_aut A)) && Nat.leb n (a_size (fa_aut fin))); [|discriminate]. injection E0 as <-. reflexivity. }
  destruct (wp_initialize_spec n A fin WA WF LA HF pr PB EE) as (b' & wp & E2 & O & Hb). unfold inst_accepts in H. fold n in H. rewrite E2 in H. cbn [obind fst snd] in H. cbv beta iota delta [done] in H. cbn [fst snd] in H.
  destruct (get_trace_fixed_point P mx fuel A wp) as [[tw|]|] eqn:G; try discriminate. injection H as -> ->. subst b.
  assert (V : has_accepting (wp_pr wp) = true <-> can_reach (user_rules nlab us) L1 L2).
  { split.
    - intros X. destruct (has_accepting_sound n (fa_aut A) (fa_aut fin) false (wp_pr wp) (wo_b _ _ _ _ O) X) as (c & X1 & X2). apply LE in X1. destruct X1 as (c0 & c' & Y1 & <- & Y2). exists c0, c. auto.
    - intros (c0 & c & X1 & X2 & X3). apply (has_accepting_complete n (fa_aut A) (fa_aut fin) false LA HF (wp_pr wp) (wo_b _ _ _ _ O) (wo_c _ _ _ _ O)). exists c. split; auto. apply LE. exists c0, c. auto. }
  assert (RS : forall v, path_weight n (wp_faut wp) (Some v) -> run_weight (user_wrules nlab us) L1 L2 v).
  { intros v Hv. destruct (post_product_weight n A fin NEF wp (Some v) O Hv) as (p & w & f & Hp & Hi & Hf & Hl). destruct (WS p w v f Hp Hi Hf) as (c0 & c & Y1 & <- & Y2). exists c0, (p, w). auto. }
  assert (HA : forall v, path_weight n (wp_faut wp) v -> has_accepting (wp_pr wp) = true). { intros v (p & w & f & _ & _ & Hf). apply has_accepting_spec; eauto. }
  assert (PS := pb_size _ _ _ _ _ (pb_0 _ _ _ _ _ (wo_b _ _ _ _ O))). unfold psz in PS.
  assert (C1 : n <= a_size (pr_aut (wp_pr wp))) by lia. assert (C2 := pb_ord _ _ _ _ _ (pb_0 _ _ _ _ _ (wo_b _ _ _ _ O))).
  assert (C3 : forall q l t, aut_edges (pr_aut (wp_pr wp)) q l t -> q < a_size (pr_aut (wp_pr wp)) /\ t < a_size (pr_aut (wp_pr wp))).
  { intros q l t He. destruct (pb_edges _ _ _ _ _ (pb_0 _ _ _ _ _ (wo_b _ _ _ _ O)) _ _ _ He) as (a & b1 & a' & b2 & P1 & P2 & _).
    split; apply (pair_lt n (fa_aut A) (fa_aut fin) false LA HF (wp_pr wp) _ (pb_0 _ _ _ _ _ (wo_b _ _ _ _ O))); eauto. }
  assert (BO : best_of mx n (wp_faut wp) o).
  { unfold get_trace_fixed_point, find_path_fixed_point in G. fold n in G. destruct (proj1 (C59_path_fixed_point n mx (wp_faut wp) C1 C2 C3) fuel) as [D|(d & D & o' & O1 & O2)]; rewrite D in G; [discriminate|].
    unfold done at 1 in G. cbv beta iota zeta in G. enough (o' = o) by (subst; auto). assert (ZN : z_min d = None -> o' = None) by (intros Z; unfold z_weight in O1; rewrite Z in O1; congruence).
    destruct (z_min d) as [m|]; [|cbn in G; injection G as <- <-; auto]. rewrite O1 in G. cbn [obind] in G. 
    destruct o' as [[x|]|].
    - destruct (z_get_path _ _ m) as [q|]; [|discriminate]. cbn [obind] in G. unfold done at 1 in G. cbv beta iota in G. destruct (get_trace_path P (fa_view A) fuel q) as [[t|]|]; try discriminate. injection G as _ <-. auto.
    - destruct (z_get_path_with_loop _ _ fuel m) as [[q|]|]; try discriminate. unfold done at 1 in G. cbv beta iota in G. injection G as _ <-. auto.
    - destruct (z_get_path _ _ m) as [q|]; [|discriminate]. cbn [obind] in G. unfold done at 1 in G. cbv beta iota in G. destruct (get_trace_path P (fa_view A) fuel q) as [[t|]|]; try discriminate. injection G as _ <-. auto. }
  split; auto. destruct o as [[v|]|]; cbn in BO.
  - destruct BO as [BO _]. split; eauto.
  - destruct BO as [BO|BO]; eauto. destruct (BO 0%Z) as (x & Hx & _). eauto.
  - destruct (has_accepting (wp_pr wp)) eqn:Ea; auto. exfalso. apply has_accepting_spec in Ea; auto. destruct Ea as [id Hid].
    assert (Lid : id < psz (wp_pr wp)) by (apply nth_error_lt in Hid; auto). destruct (pb_reach _ _ _ _ _ (wo_b _ _ _ _ O) id Lid) as (p & w & Hp & Hw).
    assert (IP : exists v, ipath (aut_edges (fa_aut (wp_faut wp))) (fa_wt (wp_faut wp)) p w v id).
    { clear - Hw. induction Hw as [q|q l q1 w q2 He Hp' IH|q q1 w q2 He Hp' IH]; [exists (Some 0%Z); constructor|..]; destruct IH as [v Hv]; eexists; [apply (ip_cons _ _ q (Some l) q1 w v q2); eauto|apply (ip_cons _ _ q None q1 w v q2); eauto]. }
    destruct IP as [v Hv]. apply (BO v). exists p, w, id. auto.
Qed.
Print Assumptions C76_post_query.

(** The verdict alone, also when there is no trace because get_trace fails. *)
Theorem C76_post_accepts : forall nlab us mx fuel ord init fin b r, let P := build nlab us in let n := pd_n P in
  Forall (wf_urule nlab) us -> (forall q l, Permutation (ord q l) l) ->
  pre_ok P (fa_aut init) -> no_in P (fa_aut init) ->
  (forall e t, In (e, t) (a_edges (fa_aut init)) -> t = TNull /\ fa_trace2 init e = TNull /\ fa_weight init e = Some 0%Z) ->
  aut_wf (fa_aut fin) -> n <= a_size (fa_aut fin) ->
  post_star_fixed_point_accepts P mx fuel ord init fin = done (b, r) ->
  (b = true <-> can_reach (user_rules nlab us) (aut_lang n (fa_aut init)) (aut_lang n (fa_aut fin))).
Proof.
  intros nlab us mx fuel ord init fin b r P n W HO OK NI DF WF HF H. set (L1 := aut_lang n (fa_aut init)). set (L2 := aut_lang n (fa_aut fin)).
  assert (WP : wf_pda P) by (apply build_wf; auto). assert (OK2 : post_ok P (fa_aut init)) by (apply post_ok_pre_ok; auto).
  assert (Z0 : forall e, In e (map fst (a_edges (fa_aut init))) -> fa_weight init e = Some 0%Z). { intros e He. apply in_map_iff in He. destruct He as ([e' t] & <- & He). apply (DF e' t He). }
  assert (T0 : forall e, In e (map fst (a_edges (fa_aut init))) -> fa_trace2 init e = TNull). { intros e He. apply in_map_iff in He. destruct He as ([e' t] & <- & He). apply (DF e' t He). }
  unfold post_star_fixed_point_accepts in H. fold n in H. destruct (pr_new n ord (fa_aut init) (fa_aut fin)) as [pr|] eqn:EP0; [|discriminate]. cbn [obind] in H.
  destruct (post_star_fixed_point P mx fuel init) as [[A|]|] eqn:ES; try discriminate.
  destruct (C76_post_fixed_point nlab us mx fuel init A W OK NI DF ES) as [LE WS]. fold P n in LE, WS. fold L1 in LE, WS.
  destruct (run_part P WP mx init OK2 Z0 T0 fuel A ES) as (st & BS & EA). assert (BQ := k_base _ _ _ _ _ _ _ _ (b_k _ _ _ _ BS)).
  assert (CA := c_acc _ _ _ _ _ _ BQ). assert (CO := c_ord _ _ _ _ _ _ BQ). assert (CR := c_range _ _ _ _ _ _ BQ). assert (CS := qbase_size _ _ _ _ _ _ BQ). cbn in CA, CO, CS. rewrite <- EA in CA, CO, CS.
  destruct (qo_acc _ _ (proj1 (qp_init_ok P (fa_aut init)))) as [k EK]. rewrite EK in CA. assert (HI := qk_n _ _ OK2). fold n in HI.
  assert (LA : n <= a_size (fa_aut A)) by (unfold a_size in *; rewrite CA, app_length; lia).
  assert (WA : aut_wf (fa_aut A)).
  { constructor; [unfold wf_ord; rewrite CO; apply (qk_ord _ _ OK2)|]. intros q l t He. rewrite EA in He. assert (X := CR _ He). destruct X as (X1 & X2 & _). cbn in X1, X2. rewrite CS. split; auto. apply X2. }
  destruct (pr_new_spec n (fa_aut A) (fa_aut fin) false LA HF ord HO) as (pr' & E0 & PB & _).
  assert (pr' = pr).
  { revert E0 EP0. unfold pr_new. rewrite (proj2 (Nat.leb_le _ _) LA), (proj2 (Nat.leb_le _ _) HF), (proj2 (Nat.leb_le _ _) HI). cbn [andb]. rewrite CA. rewrite firstn_app. unfold a_size in HI. replace (n - length (a_acc (fa_aut init))) with 0 by lia.
    cbn [firstn]. rewrite app_nil_r. congruence. } subst pr'.
  assert (EE : a_edges (pr_aut pr) = []). { unfold pr_new in E0. destruct (Nat.leb n (a_size (fa_aut A)) && Nat.leb n (a_size (fa_aut fin))); [|discriminate]. injection E0 as <-. reflexivity. }
  destruct (wp_initialize_spec n A fin WA WF LA HF pr PB EE) as (b' & wp & E2 & O & Hb). unfold inst_accepts in H. fold n in H. rewrite E2 in H. cbn [obind fst snd] in H. injection H as <- <-. subst b'.
  split.
    - intros X. destruct (has_accepting_sound n (fa_aut A) (fa_aut fin) false (wp_pr wp) (wo_b _ _ _ _ O) X) as (c & X1 & X2). apply LE in X1. destruct X1 as (c0 & c' & Y1 & <- & Y2). exists c0, c. auto.
    - intros (c0 & c & X1 & X2 & X3). apply (has_accepting_complete n (fa_aut A) (fa_aut fin) false LA HF (wp_pr wp) (wo_b _ _ _ _ O) (wo_c _ _ _ _ O)). exists c. split; auto. apply LE. exists c0, c. auto.
Qed.
Print Assumptions C76_post_accepts.

(** Runs with and without weights. *)
Lemma wreach_reach : forall nlab us c v c', wreach (user_wrules nlab us) c v c' -> reach (user_rules nlab us) c c'.
Proof. intros nlab us c v c' H. induction H as [c|c1 r w c2 v c3 HR HS _ IH]; [constructor|]. apply (reach_step _ c1 c2 c3); auto. exists r. split; auto. destruct HR as (u & H1 & H2 & H3 & H4 & H5 & _). exists u. auto. Qed.
Lemma reach_wreach : forall nlab us c c', reach (user_rules nlab us) c c' -> exists v, wreach (user_wrules nlab us) c v c'.
Proof.
  intros nlab us c c' H. induction H as [c|c1 c2 c3 (r & HR & HS) _ [v IH]]; [exists 0%Z; constructor|]. destruct HR as (u & H1 & H2 & H3 & H4 & H5). exists (r_w (u_rule u) + v)%Z.
  apply (wr_step _ c1 r (r_w (u_rule u)) c2 v c3); auto. exists u. ands; auto.
Qed.

(** Engine 3: whichever saturation ends first, the verdict is right and a finite weight is that of a run. *)
Theorem C76_interleaving : forall nlab us mx fuel ord init fin initc finc b u tr o, let P := build nlab us in let n := pd_n P in
  Forall (wf_urule nlab) us -> lookup_safe us -> (forall q l, Permutation (ord q l) l) ->
  pre_ok P (fa_aut init) -> no_in P (fa_aut init) ->
  (forall e t, In (e, t) (a_edges (fa_aut init)) -> t = TNull /\ fa_trace2 init e = TNull /\ fa_weight init e = Some 0%Z) ->
  pre_ok P (fa_aut fin) -> no_in P (fa_aut fin) ->
  (forall e t, In (e, t) (a_edges (fa_aut fin)) -> t = TNull /\ fa_trace2 fin e = TNull /\ fa_weight fin e = Some 0%Z) ->
  2 <= length (a_edges (fa_aut fin)) -> copy_of init initc -> copy_of fin finc ->
  solve_interleaving_trace P mx fuel ord init fin initc finc = done ((b, u), (tr, o)) ->
  sound_answer (user_rules nlab us) (user_wrules nlab us) (aut_lang n (fa_aut init)) (aut_lang n (fa_aut fin)) b o.
Proof.
  intros nlab us mx fuel ord init fin initc finc b u tr o P n W LS HO OKI NII DFI OKF NIF DFF TWO CI CF H.
  assert (WF : forall A, pre_ok P A -> aut_wf A /\ n <= a_size A /\ forall q t, ~ aut_edges A q None t).
  { intros A K. split; [constructor; [apply (po_ord _ _ K)|]; intros q l q' He; destruct (po_range _ _ K q l q' He) as (X1 & X2 & _); auto|]. split; [apply (po_n _ _ K)|].
    intros q t He. destruct (po_range _ _ K _ _ _ He) as (_ & _ & x & X & _). discriminate. }
  destruct (WF _ OKI) as (I1 & I2 & I3). destruct (WF _ OKF) as (F1 & F2 & F3).
  destruct (C69_interleaving_partial nlab us mx ord init fin initc finc W LS HO I1 I2 I3 OKF NIF DFF TWO CI CF) as [C _]. specialize (C fuel b u tr o H). destruct u.
  - destruct C as [C _]. fold P n in C. assert (HB : forall v, run_weight (user_wrules nlab us) (aut_lang n (fa_aut init)) (aut_lang n (fa_aut fin)) v -> can_reach (user_rules nlab us) (aut_lang n (fa_aut init)) (aut_lang n (fa_aut fin))).
    { intros v (c1 & c2 & H1 & H2 & H3). exists c1, c2. ands; auto. eapply wreach_reach; eauto. }
    assert (HC : can_reach (user_rules nlab us) (aut_lang n (fa_aut init)) (aut_lang n (fa_aut fin)) -> exists v, run_weight (user_wrules nlab us) (aut_lang n (fa_aut init)) (aut_lang n (fa_aut fin)) v).
    { intros (c1 & c2 & H1 & H2 & H3). destruct (reach_wreach _ _ _ _ H3) as [v Hv]. exists v, c1, c2. auto. }
    unfold sound_answer. destruct o as [[v|]|]; cbn in C.
    + destruct C as [-> [C _]]. split; [|auto]. split; eauto.
    + destruct C as [-> C]. split; [|auto]. split; auto. intros _. destruct (C 0%Z) as (v & Hv & _). eauto.
    + destruct C as [-> C]. split; [|auto]. split; [discriminate|]. intros K. destruct (HC K) as (v & Hv). destruct (C v Hv).
  - apply (C76_post_query nlab us mx fuel ord init fin b tr o W HO OKI NII DFI F1 F2 F3 C).
Qed.
Print Assumptions C76_interleaving.

(** The runs of C32: an edge whose weight is improved and one whose weight can be lowered for ever; the hypotheses hold. *)
Definition c76_rules : list urule := [ru 0 SWAP 1 0 5 0; ru 0 SWAP 2 0 1 0; ru 2 SWAP 1 0 1 0; ru 1 PUSH 0 1 2 0; ru 1 NOOP 1 0 (-1) 0].
Definition c76_init : faut := fa_ex [false; false; false; false; true] [(0, 0, 3); (3, 1, 4)].
Definition c76_fin (p : nat) : faut := fa_ex [false; false; false; false; true] [(p, 0, 3); (3, 1, 4); (2, 1, 3)].
Lemma c76_default : forall acc es e t, In (e, t) (a_edges (fa_aut (fa_ex acc es))) -> t = TNull /\ fa_trace2 (fa_ex acc es) e = TNull /\ fa_weight (fa_ex acc es) e = Some 0%Z.
Proof. intros acc es e t H. apply fa_ex_default; auto. cbn in H. apply in_map_iff in H. destruct H as ((x & y) & H & _). congruence. Qed.
Example C76_example_hyps : Forall (wf_urule 2) c76_rules /\ lookup_safe c76_rules /\ pre_ok (build 2 c76_rules) (fa_aut c76_init) /\ no_in (build 2 c76_rules) (fa_aut c76_init) /\
  (forall e t, In (e, t) (a_edges (fa_aut c76_init)) -> t = TNull /\ fa_trace2 c76_init e = TNull /\ fa_weight c76_init e = Some 0%Z) /\
  forall p, p < 3 -> pre_ok (build 2 c76_rules) (fa_aut (c76_fin p)) /\ no_in (build 2 c76_rules) (fa_aut (c76_fin p)) /\
    (forall e t, In (e, t) (a_edges (fa_aut (c76_fin p))) -> t = TNull /\ fa_trace2 (c76_fin p) e = TNull /\ fa_weight (c76_fin p) e = Some 0%Z) /\ 2 <= length (a_edges (fa_aut (c76_fin p))).
Proof.
  split; [apply wf_urulesb_ok; reflexivity|]. split; [apply lookup_safeb_ok; reflexivity|]. split; [apply autb_ok; reflexivity|]. split; [apply no_inb_ok; reflexivity|].
  split; [intros e t H; apply c76_default; auto|]. intros p Hp. split; [|split; [|split; [intros e t H; apply c76_default; auto|cbn; lia]]];
    (destruct p as [|[|[|p]]]; [| | |lia]); try (apply autb_ok; reflexivity); apply no_inb_ok; reflexivity.
Qed.
(** Saturation; engine 1 from (0, [0; 1]) to (2, [0; 1]) with a finite weight, to (1, [0; 1]) with bottom, and to an automaton that accepts none of the reached configurations. *)
Example C76_example_saturation : fedges (post_star_fixed_point (build 2 c76_rules) true 100 c76_init) =
  Some (Some [(5, Some 0, 3, Some 7%Z); (0, Some 1, 5, Some 0%Z); (2, Some 0, 3, Some 1%Z); (1, Some 0, 3, Some 5%Z); (0, Some 0, 3, Some 0%Z); (3, Some 1, 4, Some 0%Z)]).
Proof. vm_compute. reflexivity. Qed.
Definition c76 (mx : bool) (fin : faut) := solve_post_fixed_point_trace (build 2 c76_rules) mx 100 (fun _ l => l) c76_init fin.
Example C76_example : c76 false (c76_fin 2) = done (true, ([(0, [0; 1]); (2, [0; 1])], Some (Some 1%Z))) /\ c76 true (c76_fin 1) = done (true, ([(0, [0; 1]); (1, [0; 1])], Some (Some 5%Z))) /\
  c76 false (c76_fin 1) = done (true, ([], Some None)) /\ c76 false (fa_ex [false; false; false; false; true] [(1, 1, 3); (3, 1, 4)]) = done (false, ([], None)).
Proof. vm_compute. auto 10. Qed.
(** Engine 3, where pre* ends first; in C69_example it is post* for the least weight. *)
Example C76_example_interleaving : solve_interleaving_trace (build 2 c76_rules) false 100 (fun _ l => l) c76_init (c76_fin 2) c76_init (c76_fin 2) = done (true, true, ([(0, [0; 1]); (2, [0; 1])], Some (Some 1%Z))).
Proof. vm_compute. reflexivity. Qed.
