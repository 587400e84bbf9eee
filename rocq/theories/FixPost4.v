(** The trace of a fixed-point query by post*: when TraceBack ends, the rules that it reads form a run. *)
From Coq Require Import List Arith Lia Bool ZArith Permutation.
From Verif Require Import Base BaseFacts Spec SpecFacts PdaModel PdaProof AutModel AutProof PreStarModel PreStarProof PreStarLang
  PostStarModel PostStarProof PostStarLang SolverModel QueryModel QueryProof ProductModel ProductProof UtilModel ShortSpec ShortModel PostShortProof TraceModel TraceProof TraceSolver VerdictModel
  PathModel FixSpec FixModel FixPre1 FixPre2 FixPath FixPath2 FixSolveModel FixTraceModel FixTrace2 FixTrace3 FixTrace4 FixTrace5 FixPost1 FixPost2.
Import ListNotations.

Lemma viewp_find : forall A e, In e (map fst (a_edges (fa_aut A))) -> find_edge e (a_edges (fa_view A)) = Some (fa_trace2 A e).
Proof.
  intros A e. unfold fa_view. cbn [a_edges]. induction (a_edges (fa_aut A)) as [|[x t] es IH]; cbn; intros H; [destruct H|]. destruct (edge_eqb x e) eqn:Q; [apply edge_eqb_eq in Q; subst; auto|].
  destruct H as [->|H]; auto. rewrite (proj2 (edge_eqb_eq e e) eq_refl) in Q. discriminate.
Qed.

Section Back.
  Variable P : pda.
  Hypothesis WP : wf_pda P.
  Variable A0f : faut.
  Let A0 := fa_aut A0f.
  Hypothesis OK : post_ok P A0.
  Variable st : fwst yd edge.
  Hypothesis HB : BI P A0f st [].
  Let n := pd_n P.
  Let nQ := a_size A0.
  Let A := y_aut (fw_d st).
  Let E := aut_edges (fa_aut A).
  Let qp := post_qp P A0.
  Let BQ := k_base _ _ _ _ _ _ _ _ (b_k _ _ _ _ HB).

  Lemma bi_range : forall e, In e (map fst (a_edges (fa_aut A))) -> q_range P A0 e.
  Proof. exact (c_range _ _ _ _ _ _ BQ). Qed.
  Lemma bi_acc : exists k, a_acc (fa_aut A) = a_acc A0 ++ repeat false k.
  Proof. assert (CA := c_acc _ _ _ _ _ _ BQ). cbn in CA. destruct (qo_acc _ _ (proj1 (qp_init_ok P A0))) as [k EK]. exists k. unfold A. rewrite CA. exact EK. Qed.
  Lemma bi_just : forall e, In e (map fst (a_edges (fa_aut A))) -> (fa_trace2 A e = TNull /\ In e (map fst (a_edges A0))) \/ justified_post P qp (a_edges (fa_aut A)) e (fa_trace2 A e).
  Proof. exact (proj2 (b_w _ _ _ _ HB)). Qed.
  Lemma bi_outer : forall q l q', E q l q' -> n <= q < nQ -> aut_edges A0 q l q'.
  Proof.
    assert (EP: forall q q', edges_of (a_edges (fa_aut A)) q None q' -> q < n). { intros q q' H. apply bi_range in H. destruct H as [_ [_ H]]. auto. }
    unfold E, aut_edges. revert EP. assert (WJ := c_wj _ _ _ _ _ _ BQ). change (q_aut (mir (fw_d st) [])) with (fa_aut A) in WJ. revert WJ. generalize (a_edges (fa_aut A)).
    intros es H.
    induction H as [|older e tr Hw IH HJ]; [auto|].
    intros EP q l q' [K|K] Hq.
    - cbn in K. subst e. apply (just_src P WP A0) in HJ; [cbn in HJ; fold n nQ in HJ; lia|]. intros a a' Ha. eapply EP. right. eauto.
    - apply IH; auto. intros a a' Ha. eapply EP. right. eauto.
  Qed.
  Lemma bi_outer_valid : forall e es, pvalid E e es -> n <= pfront e es < nQ -> pvalid (aut_edges A0) e es.
  Proof.
    intros e es. induction es as [|[l s] es IH]; cbn; auto. intros [H1 H2] Hn. assert (K := bi_outer _ _ _ H1 Hn). split; auto.
    apply IH; auto. destruct (qk_range _ _ OK _ _ _ K) as [_ [K2 _]]. auto.
  Qed.

  Definition bInv (p : apth nat) : Prop := valid E p /\ ap_front p < n /\ ap_end p < nQ.
  Lemma bi_body : forall p, bInv p ->
    (tb_body P (fa_view A) p = Some TBNone /\ valid (aut_edges A0) p) \/
    (exists s p', tb_body P (fa_view A) p = Some (TBRule true s p') /\ bInv p' /\ ap_end p' = ap_end p /\ rs_step P s (pconf p') (pconf p)) \/
    (exists p', tb_body P (fa_view A) p = Some (TBMore p') /\ bInv p' /\ ap_end p' = ap_end p /\ pconf p' = pconf p).
  Proof.
    intros [e [|[l s] es]] (HV & Hn & Hend); unfold valid in HV; cbn in HV, Hn, Hend.
    { left. unfold valid. cbn. auto. }
    destruct HV as [H1 H2]. unfold tb_body, ap_front_edge, ap_pop, ap_emplace, trace_label; cbn [ap_edges ap_end fst snd obind].
    fold (pfront e es). cbn [ap_front ap_edges] in *. unfold ap_front_edge. rewrite (viewp_find A _ H1). cbn [obind].
    assert (EP: forall q q', E q None q' -> q < n). { intros q q' H. apply bi_range in H. destruct H as [_ [_ H]]. auto. }
    assert (HP: n <= nQ) by apply OK.
    destruct (bi_just _ H1) as [[TN K]|HJ].
    - left. rewrite TN. split; auto. unfold valid. cbn. split; auto. apply bi_outer_valid; auto. destruct (qk_range _ _ OK _ _ _ K) as [_ [K2 _]]. auto.
    - right. destruct HJ as [HJ|HJ].
      + left. destruct HJ as [p [id [lab [r [ls [q [TE [G [M [He J]]]]]]]]]]. rewrite TE, G. cbn [obind fst].
        destruct (get_rule_facts P WP _ _ _ _ G) as [G1 [G2 G3]]. assert (HR := get_rule_pda _ _ _ _ _ _ G M).
        assert (ST: forall w, rs_step P (mk_rstep p (Some lab) r) (p, lab :: w) (r_to r, apply_op (sop_of r) lab w)).
        { intros w. eexists. split; [reflexivity|]. split; [exact HR|]. apply (step_by_intro (mk_srule p lab (r_to r) (sop_of r))). }
        unfold sop_of in ST. destruct (r_op r) eqn:Er.
        * destruct J as [qn [J1 [J|[J J2]]]]; inversion J; subst; [|apply (pqp_r P A0) in J1; fold nQ in J1; lia]. rewrite Nat.eqb_refl.
          destruct es as [|[l2 s2] es]; cbn -[fa_view] in *. { exfalso. apply (pqp_r P A0) in J1. fold nQ in J1. subst. lia. }
          destruct H2 as [H2 H3]. fold (pfront e es). rewrite (viewp_find A _ H2). cbn [obind].
          destruct (bi_just _ H2) as [[_ K2]|HJ2]. { exfalso. destruct (qk_range _ _ OK _ _ _ K2) as [K3 _]. apply (pqp_r P A0) in J1. unfold nQ in *. lia. }
          destruct HJ2 as [HJ2|HJ2].
          -- destruct HJ2 as [p2 [id2 [lab2 [r2 [ls2 [q2 [TE2 [G' [M' [He' J']]]]]]]]]]. rewrite TE2.
             destruct (get_rule_facts P WP _ _ _ _ G') as [G1' [G2' G3']]. apply (pqp_r P A0) in J1 as J1'. fold nQ in J1'.
             assert (B: r_op r2 = PUSH /\ r_to r2 = r_to r /\ r_opl r2 = r_opl r /\ l2 = Some lab2 /\ q2 = pfront e es).
             { unfold n in *. destruct (r_op r2); try (inversion J'; subst; lia). destruct J' as [qn2 [J3 [J4|[J4 J5]]]]; inversion J4; subst; [lia|].
               assert (KK := pqp_i P A0 _ _ _ J1 J3). inversion KK. auto. }
             destruct B as [B1 [B2 [B3 [-> ->]]]].
             eexists _, _. split; [reflexivity|]. ands; auto.
             ++ unfold bInv, valid; cbn; auto.
             ++ unfold pconf. cbn. eexists. split; [reflexivity|]. split.
                ** assert (HR' := get_rule_pda _ _ _ _ _ _ G' M'). unfold sop_of in HR'. rewrite B1, B2, B3 in HR'. unfold sop_of. cbn. rewrite Er. exact HR'.
                ** cbn. unfold sop_of. rewrite Er. apply (step_by_intro (mk_srule p2 lab2 (r_to r) (SPush (r_opl r)))).
          -- exfalso. destruct HJ2 as [z [l0 [_ [H5 [H6 H7]]]]]. cbn in H6. apply EP in H6. apply (pqp_r P A0) in J1. fold nQ in J1. lia.
        * inversion J; subst. rewrite Nat.eqb_refl. eexists _, _. split; [reflexivity|]. ands; auto; [unfold bInv, valid; cbn; auto|]. unfold pconf. cbn. apply ST.
        * inversion J; subst. rewrite Nat.eqb_refl. eexists _, _. split; [reflexivity|]. ands; auto; [unfold bInv, valid; cbn; auto|]. unfold pconf. cbn. apply ST.
        * inversion J; subst. rewrite Nat.eqb_refl. eexists _, _. split; [reflexivity|]. ands; auto; [unfold bInv, valid; cbn; auto|]. unfold pconf. cbn. apply ST.
      + right. destruct HJ as [z [l0 [TE [H3 [H4 H5]]]]]. cbn in H3, H4, H5. subst l. rewrite TE.
        eexists. split; [reflexivity|]. ands; auto. unfold bInv, valid; cbn; auto.
  Qed.

  Lemma bi_next : forall fuel p r, bInv p -> tb_next P (fa_view A) fuel p = done r ->
    match fst r with
    | None => bInv (snd r) /\ valid (aut_edges A0) (snd r) /\ ap_end (snd r) = ap_end p /\ pconf (snd r) = pconf p
    | Some (b, s) => b = true /\ bInv (snd r) /\ ap_end (snd r) = ap_end p /\ rs_step P s (pconf (snd r)) (pconf p)
    end.
  Proof.
    induction fuel as [|f IH]; intros p r HI H; cbn [tb_next] in H; [discriminate|].
    destruct (bi_body p HI) as [[E1 E2]|[(s & p' & E1 & E2 & E3 & E4)|(p' & E1 & E2 & E3 & E4)]]; rewrite E1 in H; cbn [obind] in H.
    - injection H as <-. cbn. auto.
    - injection H as <-. cbn. auto.
    - apply IH in H; auto. rewrite E3, E4 in H. exact H.
  Qed.
  Lemma bi_run : forall fuel p post acc r, bInv p -> tb_run P (fa_view A) fuel p post acc = done r ->
    exists steps, fst (fst r) = acc ++ steps /\ snd r = post || negb (is_nil steps) /\ bInv (snd (fst r)) /\ valid (aut_edges A0) (snd (fst r)) /\ ap_end (snd (fst r)) = ap_end p /\
      chain P true bInv (pconf p) steps (pconf (snd (fst r))).
  Proof.
    induction fuel as [|f IH]; intros p post acc r HI H; [discriminate|]. cbn [tb_run] in H.
    destruct (tb_next P (fa_view A) (S f) p) as [[[[[b s]|] p']|]|] eqn:EN; try discriminate; apply bi_next in EN; auto; cbn [fst snd] in EN.
    - destruct EN as (-> & E2 & E3 & E4). apply IH in H; auto. destruct H as (steps & H1 & H2 & H3 & H4 & H5 & H6). exists ((s, p') :: steps). rewrite H1, H2, <- app_assoc. ands; auto; try congruence.
      + cbn. destruct post; auto.
      + cbn. auto.
    - injection H as <-. cbn [fst snd]. destruct EN as (E1 & E2 & E3 & E4). exists []. cbn. rewrite app_nil_r, orb_false_r. ands; auto.
  Qed.

  Lemma bi_trace : forall fuel p tr, valid E p -> aut_final (fa_aut A) (ap_end p) -> ap_front p < n -> get_trace_path P (fa_view A) fuel p = done tr ->
    is_run (pda_rules P) tr /\ aut_lang n A0 (hd (pconf p) tr) /\ last tr (pconf p) = pconf p /\ tr <> [].
  Proof.
    intros fuel p tr HV HF Hn H. unfold get_trace_path in H. destruct (tb_run P (fa_view A) fuel p false []) as [[r|]|] eqn:ER; try discriminate.
    assert (HF': aut_final A0 (ap_end p)). { unfold aut_final in *. destruct bi_acc as [k Ek]. rewrite Ek in HF. eapply nth_error_final_app; eauto. }
    assert (LE: ap_end p < nQ) by (eapply nth_error_lt; exact HF').
    apply bi_run in ER; [|unfold bInv; auto]. destruct r as [[steps p'] b]. cbn [fst snd app orb] in ER. destruct ER as (steps' & -> & -> & R1 & R2 & R3 & R4). injection H as <-.
    eapply (trace_post P A0 (fa_aut A) p (steps', p', negb (is_nil steps'))); auto.
    - intros q l q' Hq. destruct (bi_range _ Hq) as [_ [_ H1]]. cbn in H1. auto.
    - constructor; cbn [fst snd andb]; auto.
      + exists bInv. split; auto. intros p0 H0. apply H0.
      + split; auto. rewrite R3. auto.
      + apply R1.
    - cbn [fst snd]. destruct (negb (is_nil steps')); auto.
  Qed.
End Back.

(** ** The path that get_path gives *)
Section Path.
  Variable n : nat.
  Variable mx : bool.
  Variable A : faut.
  Variable zs : list sinfo.
  Variables r r1 : nat -> nat.
  Variable B : nat.
  Hypothesis Z : zi n mx A zs r r1 B.
  Variable sm : nat -> nat.
  Variable m : nat.
  Lemma z_back_part : forall fuel s p p' w, pt A sm m s p w -> (exists i, nth_error zs s = Some i) -> z_back zs sm fuel s p = Some p' -> exists q u, pt A sm m q p' u /\ q < n.
  Proof.
    induction fuel as [|f IH]; intros s p p' w HP [i Hi] H; cbn [z_back] in H; rewrite Hi in H; cbn [obind] in H; destruct (si_pred i) as [[[c [l|]]|]|] eqn:Ep; try discriminate.
    - injection H as <-. destruct (zi_none _ _ _ _ _ _ _ Z s i Hi Ep) as [L W]. eauto.
    - destruct (zi_pred _ _ _ _ _ _ _ Z s i c (Some l) Hi Ep) as (He & ci & vc & K1 & K2 & K3). eapply IH; [|eauto|exact H]. eapply pt_step; eauto.
    - injection H as <-. destruct (zi_none _ _ _ _ _ _ _ Z s i Hi Ep) as [L W]. eauto.
  Qed.
End Path.
