(** TraceBack on the automaton of the fixed-point saturation of pre*: from a path with a finite weight it ends, and the rules it finds have together a
    weight that is at least as good. *)
From Coq Require Import List Arith Lia Bool ZArith Permutation.
From Verif Require Import Base BaseFacts Spec SpecFacts PdaModel PdaProof AutModel AutProof PreStarModel PreStarProof PreStarLang
  PostStarModel SolverModel QueryModel QueryProof ProductModel ProductProof UtilModel UtilProof ShortSpec ShortModel PostShortProof PreShortModel PreShortProof TraceModel TraceProof TraceSolver
  FixSpec FixModel FixChain FixPre1 FixPre2 FixPre3 FixPre4 FixPre5 FixPre6 FixSolveProof FixTraceModel FixTrace1.
Import ListNotations.

(** ** Runs of TraceBack with weights *)
Section WRun.
  Variable P : pda.
  Variable A : aut.
  Variable mx : bool.
  Variable Inv : Z -> apth nat -> Prop.
  Variable Fin : apth nat -> Prop.
  Variable mu : apth nat -> nat.
  Hypothesis body : forall v p, Inv v p ->
    (tb_body P A p = Some TBNone /\ Fin p /\ v = 0%Z) \/
    (exists s p' v', tb_body P A p = Some (TBRule false s p') /\ Inv v' p' /\ ap_end p' = ap_end p /\ (sg mx (r_w (rs_rule s) + v') <= sg mx v)%Z /\
       (exists sr, pda_wrules P sr (r_w (rs_rule s)) /\ step_by sr (pconf p) (pconf p')) /\ mu p' < mu p).
  Lemma wrun_spec : forall fuel v p acc, Inv v p ->
    (tb_run P A fuel p false acc = Some None /\ fuel <= mu p) \/
    exists steps p' u, tb_run P A fuel p false acc = done (acc ++ steps, p', false) /\ Fin p' /\ (exists v', Inv v' p') /\ ap_end p' = ap_end p /\
      (forall x, In x steps -> exists v', Inv v' (snd x)) /\ (sg mx u <= sg mx v)%Z /\
      wtrace (pda_wrules P) (pconf p :: map (fun x => pconf (snd x)) steps) u /\ last (pconf p :: map (fun x => pconf (snd x)) steps) (pconf p) = pconf p'.
  Proof.
    induction fuel as [|f IH]; intros v p acc HI; [left; split; auto; lia|]. cbn [tb_run tb_next].
    destruct (body v p HI) as [(E1 & E2 & ->)|(s & p' & v' & E1 & E2 & E3 & E4 & (sr & E5 & E6) & E7)]; rewrite E1; cbn [obind]; cbv beta iota delta [done].
    - right. exists [], p, 0%Z. rewrite app_nil_r. ands; auto; eauto; [intros x []|lia|constructor].
    - change (false || false) with false. destruct (IH v' p' (acc ++ [(s, p')]) E2) as [[H1 H2]|(steps & p2 & u & H1 & H2 & H3 & H4 & H5 & H6 & H7 & H8)]; [left; split; auto; lia|].
      right. exists ((s, p') :: steps), p2, (r_w (rs_rule s) + u)%Z. ands; auto.
      + rewrite H1, <- app_assoc. reflexivity.
      + congruence.
      + intros x [<-|Hx]; eauto.
      + rewrite !sg_add in *. lia.
      + cbn [map snd]. econstructor; eauto.
      + cbn [map snd]. rewrite <- H8. cbn [last]. destruct (map (fun x => pconf (snd x)) steps) as [|c cs]; auto. clear. revert c. induction cs as [|d cs IH]; intros c; auto. cbn. destruct cs; auto. apply (IH d).
  Qed.
End WRun.

Fixpoint pweight (V : edge -> fwt) (e : nat) (es : list (option nat * nat)) : fwt :=
  match es with [] => Some 0%Z | (l, s) :: es' => f_add (V (mk_edge s l (pfront e es'))) (pweight V e es') end.
Fixpoint rmeas (r : edge -> nat) (e : nat) (p : list (option nat * nat)) : nat :=
  match p with [] => 0 | (l, s) :: p' => Nat.pow 3 (r (mk_edge s l (pfront e p'))) + rmeas r e p' end.

Section FixTrace2.
  Variable P : pda.
  Hypothesis WP : wf_pda P.
  Variable mx : bool.
  Variable A0 : faut.
  Let n := pd_n P.
  Let E0 := map fst (a_edges (fa_aut A0)).
  Hypothesis NI : no_in P (fa_aut A0).
  Variable st : fwst xd edge.
  Hypothesis FI : final P mx A0 st.
  Let A := x_aut (fw_d st).
  Hypothesis TI : tinv P mx E0 A.
  Notation fle := (fle mx).
  Notation V := (fa_weight A).
  Notation E := (aut_edges (fa_aut A)).

  (** In the final automaton the weights are those of the traces, and the traces lead to older edges. *)
  Lemma trace_finite : forall e v, In e (ES A) -> V e = Some v ->
    (fa_trace2 A e = TNull /\ In e E0 /\ v = 0%Z) \/
    exists rw cs v', tder P e (fa_trace2 A e) rw cs /\ incl cs (ES A) /\ fsum V rw cs = Some v' /\ (sg mx v' <= sg mx v)%Z /\ forall c, In c cs -> rank A c < rank A e.
  Proof.
    intros e v He Hv. destruct (ti_just _ _ _ _ TI e He) as [(H1 & H2 & H3)|(rw & cs & H1 & H2 & H3)]; [left; ands; auto; congruence|]. right.
    destruct (H3 v Hv) as [L D]. clear H3. destruct H1 as (id & tmp & r & ls & l & T1 & T2 & T3 & T4 & T5 & T6).
    assert (C : cs = [] \/ fle (V e) (fsum V rw cs)).
    { destruct e as [a x z]. cbn [e_src e_lab e_dst] in *. subst x. destruct (r_op r) eqn:Er.
      - destruct T6 as (y & -> & ->). right. cbn [fsum].
        assert (R : R2 P (mk_edge a (Some l) z) (mk_edge (r_to r) (Some (r_opl r)) y) (mk_edge y (Some l) z) rw) by (exists a, id, r, ls, l; ands; auto).
        destruct (f_2 _ _ _ _ FI _ _ _ _ (H2 _ (or_introl eq_refl)) (H2 _ (or_intror (or_introl eq_refl))) R) as [_ K]. rewrite f_add_3 in K. exact K.
      - left. apply T6.
      - right. subst cs. cbn [fsum]. assert (R : R1 P (mk_edge a (Some l) z) (mk_edge (r_to r) (Some (r_opl r)) z) rw) by (exists a, id, r, ls, l; ands; auto).
        destruct (f_1 _ _ _ _ FI _ _ _ (H2 _ (or_introl eq_refl)) R) as [_ K]. rewrite f_add_c in K. exact K.
      - right. subst cs. cbn [fsum]. assert (R : R1 P (mk_edge a (Some l) z) (mk_edge (r_to r) (Some l) z) rw) by (exists a, id, r, ls, l; ands; auto).
        destruct (f_1 _ _ _ _ FI _ _ _ (H2 _ (or_introl eq_refl)) R) as [_ K]. rewrite f_add_c in K. exact K. }
    assert (S : exists v', fsum V rw cs = Some v').
    { destruct C as [->|C]; [cbn; eauto|]. destruct (fsum V rw cs) as [y|]; eauto. rewrite Hv in C. apply fle_None_eq in C. discriminate. }
    destruct S as [v' S]. exists rw, cs, v'. rewrite S in *. apply fle_spec in L. ands; auto.
    - exists id, tmp, r, ls, l. ands; auto.
    - destruct D as [D|D]; auto. destruct C as [->|C]; [intros c []|]. apply flt_spec in D. rewrite Hv in C. apply fle_spec in C. lia.
  Qed.

  Lemma outer_E0 : forall e, In e (ES A) -> n <= e_src e -> In e E0 /\ V e = Some 0%Z.
  Proof.
    intros e He Hn. destruct (ti_just _ _ _ _ TI e He) as [(H1 & H2 & H3)|(rw & cs & H1 & _)]; auto. exfalso. destruct H1 as (id & tmp & r & ls & l & _ & _ & G & _).
    destruct (get_rule_facts P WP _ _ _ _ G) as (K & _). unfold n in Hn. lia.
  Qed.
  Lemma outer_path : forall e es, pvalid E e es -> n <= pfront e es -> pvalid (aut_edges (fa_aut A0)) e es /\ pweight V e es = Some 0%Z.
  Proof.
    intros e es. induction es as [|[l s] es IH]; cbn; auto. intros [H1 H2] Hn. destruct (outer_E0 (mk_edge s l (pfront e es)) H1 Hn) as [K1 K2].
    destruct (IH H2 (NI _ _ _ K1)) as [I1 I2]. rewrite K2, I2. auto.
  Qed.

  Definition tInv (v : Z) (p : apth nat) : Prop := valid E p /\ ap_front p < n /\ pweight V (ap_end p) (ap_edges p) = Some v.
  Lemma view_find : forall e, In e (ES A) -> find_edge e (a_edges (fa_view A)) = Some (fa_trace2 A e).
  Proof.
    intros e. unfold ES, fa_view. cbn [a_edges]. induction (a_edges (fa_aut A)) as [|[x t] es IH]; cbn; intros H; [destruct H|]. destruct (edge_eqb x e) eqn:Q; [apply edge_eqb_eq in Q; subst; auto|].
    destruct H as [->|H]; auto. rewrite edge_eqb_refl in Q. discriminate.
  Qed.
  Lemma fix_body : forall v p, tInv v p ->
    (tb_body P (fa_view A) p = Some TBNone /\ valid (aut_edges (fa_aut A0)) p /\ v = 0%Z) \/
    (exists s p' v', tb_body P (fa_view A) p = Some (TBRule false s p') /\ tInv v' p' /\ ap_end p' = ap_end p /\ (sg mx (r_w (rs_rule s) + v') <= sg mx v)%Z /\
       (exists sr, pda_wrules P sr (r_w (rs_rule s)) /\ step_by sr (pconf p) (pconf p')) /\ rmeas (rank A) (ap_end p') (ap_edges p') < rmeas (rank A) (ap_end p) (ap_edges p)).
  Proof.
    intros v [e [|[l s] es]] (HV & Hn & HW); unfold valid in HV; cbn [ap_end ap_edges pvalid pweight ap_front] in *.
    { left. injection HW as <-. unfold valid. cbn. auto. }
    destruct HV as [H1 H2]. change (In (mk_edge s l (pfront e es)) (ES A)) in H1.
    destruct (V (mk_edge s l (pfront e es))) as [v1|] eqn:V1; [|discriminate]. destruct (pweight V e es) as [v2|] eqn:W2; [|discriminate]. injection HW as <-.
    unfold tb_body, ap_front_edge, ap_pop, ap_emplace, trace_label; cbn [ap_edges ap_end fst snd obind ap_front]. fold (pfront e es). rewrite (view_find _ H1). cbn [obind].
    destruct (trace_finite _ _ H1 V1) as [(T1 & T2 & ->)|(rw & cs & v' & T1 & T2 & T3 & T4 & T5)].
    - rewrite T1. left. assert (Ho := NI _ _ _ T2). destruct (outer_path e es H2 Ho) as [O1 O2]. ands; auto; [unfold valid; cbn; split; auto|]. assert (v2 = 0%Z) by congruence. lia.
    - right. destruct T1 as (id & tmp & r & ls & l' & D1 & D2 & D3 & D4 & D5 & D6). cbn [e_lab e_src e_dst] in *. subst l. rewrite D1, D3. cbn [obind fst].
      destruct (get_rule_facts P WP _ _ _ _ D3) as [G1 [G2 G3]].
      assert (HR : pda_wrules P (mk_srule s l' (r_to r) (sop_of r)) (r_w r)).
      { apply pda_wrules_at. exists r, ls. cbn. ands; auto. apply get_rule_at in D3. eapply nth_error_In; eauto. }
      assert (FIN: forall p' o, sop_of r = o -> pconf p' = (r_to r, apply_op o l' (Spec.word (map fst es))) -> exists sr, pda_wrules P sr (r_w r) /\ step_by sr (s, l' :: Spec.word (map fst es)) (pconf p')).
      { intros p' o Ho Hp. eexists. split; [exact HR|]. rewrite Hp, <- Ho. apply (step_by_intro (mk_srule s l' (r_to r) (sop_of r))). }
      assert (PW : forall a, Nat.pow 3 a <> 0) by (intros a; apply Nat.pow_nonzero; lia). subst rw. cbn [rmeas].
      assert (RB : forall c, In c cs -> 3 * Nat.pow 3 (rank A c) <= Nat.pow 3 (rank A (mk_edge s (Some l') (pfront e es)))).
      { intros c Hc. specialize (T5 c Hc). change (3 * Nat.pow 3 (rank A c)) with (Nat.pow 3 (S (rank A c))). apply pow3. exact T5. }
      destruct (r_op r) eqn:Er.
      + destruct D6 as (z & -> & ->). cbn [obind]. assert (R1 := RB _ (or_introl eq_refl)). assert (R2 := RB _ (or_intror (or_introl eq_refl))). specialize (PW (rank A (mk_edge s (Some l') (pfront e es)))).
        eexists _, _, (v' - r_w r + v2)%Z. split; [reflexivity|]. cbn [ap_end ap_edges rs_rule].
        assert (I1 := T2 _ (or_introl eq_refl)). assert (I2 := T2 _ (or_intror (or_introl eq_refl))). ands; auto.
        * unfold tInv, valid. cbn [ap_end ap_edges pvalid pfront pweight ap_front]. ands; auto. rewrite W2. cbn [fsum] in T3.
          destruct (V (mk_edge (r_to r) (Some (r_opl r)) z)) as [x1|]; [|discriminate]. destruct (V (mk_edge z (Some l') (pfront e es))) as [x2|]; [|discriminate]. cbn in T3 |- *. injection T3 as <-. f_equal. lia.
        * rewrite !sg_add in *. unfold sg in *. destruct mx; lia.
        * apply (FIN (mk_apth e ((Some (r_opl r), r_to r) :: (Some l', z) :: es)) (SPush (r_opl r))); auto. unfold sop_of; rewrite Er; auto.
        * cbn [rmeas pfront]. lia.
      + destruct D6 as [D6 ->]. eexists _, _, v2. split; [reflexivity|]. cbn [ap_end ap_edges rs_rule]. cbn [fsum] in T3. injection T3 as <-. ands; auto.
        * unfold tInv, valid. rewrite ap_front_pfront. cbn [ap_end ap_edges]. ands; auto. rewrite D6. auto.
        * rewrite !sg_add in *. lia.
        * apply (FIN (mk_apth e es) SPop). { unfold sop_of; rewrite Er; auto. } unfold pconf. rewrite ap_front_pfront. cbn. rewrite D6; auto.
        * specialize (PW (rank A (mk_edge s (Some l') (pfront e es)))). lia.
      + subst cs. assert (R1 := RB _ (or_introl eq_refl)). specialize (PW (rank A (mk_edge s (Some l') (pfront e es)))). eexists _, _, (v' - r_w r + v2)%Z. split; [reflexivity|]. cbn [ap_end ap_edges rs_rule].
        assert (I1 := T2 _ (or_introl eq_refl)). ands; auto.
        * unfold tInv, valid. cbn [ap_end ap_edges pvalid pfront pweight ap_front]. ands; auto. rewrite W2. cbn [fsum] in T3.
          destruct (V (mk_edge (r_to r) (Some (r_opl r)) (pfront e es))) as [x1|]; [|discriminate]. cbn in T3 |- *. injection T3 as <-. f_equal. lia.
        * rewrite !sg_add in *. unfold sg in *. destruct mx; lia.
        * apply (FIN (mk_apth e ((Some (r_opl r), r_to r) :: es)) (SSwap (r_opl r))); auto. unfold sop_of; rewrite Er; auto.
        * cbn [rmeas pfront]. lia.
      + subst cs. assert (R1 := RB _ (or_introl eq_refl)). specialize (PW (rank A (mk_edge s (Some l') (pfront e es)))). eexists _, _, (v' - r_w r + v2)%Z. split; [reflexivity|]. cbn [ap_end ap_edges rs_rule].
        assert (I1 := T2 _ (or_introl eq_refl)). ands; auto.
        * unfold tInv, valid. cbn [ap_end ap_edges pvalid pfront pweight ap_front]. ands; auto. rewrite W2. cbn [fsum] in T3.
          destruct (V (mk_edge (r_to r) (Some l') (pfront e es))) as [x1|]; [|discriminate]. cbn in T3 |- *. injection T3 as <-. f_equal. lia.
        * rewrite !sg_add in *. unfold sg in *. destruct mx; lia.
        * apply (FIN (mk_apth e ((Some l', r_to r) :: es)) SNoop); auto. unfold sop_of; rewrite Er; auto.
        * cbn [rmeas pfront]. lia.
  Qed.

  Definition pm (p : apth nat) : nat := rmeas (rank A) (ap_end p) (ap_edges p).
  (** The trace of configurations. *)
  Theorem fix_trace : forall v p, tInv v p -> aut_final (fa_aut A0) (ap_end p) -> forall fuel,
    (get_trace_path P (fa_view A) fuel p = Some None /\ fuel <= pm p) \/
    exists tr u, get_trace_path P (fa_view A) fuel p = done tr /\ hd_error tr = Some (pconf p) /\ aut_lang n (fa_aut A0) (last tr (pconf p)) /\ wtrace (pda_wrules P) tr u /\ (sg mx u <= sg mx v)%Z.
  Proof.
    intros v p HI HF fuel. unfold get_trace_path.
    destruct (wrun_spec P (fa_view A) mx tInv (valid (aut_edges (fa_aut A0))) pm fix_body fuel v p [] HI) as [[H1 H2]|(steps & p' & u & H1 & H2 & (v' & H3) & H4 & H5 & H6 & H7 & H8)].
    - left. rewrite H1. auto.
    - right. rewrite H1. cbn [app]. unfold done at 1.
      assert (LL : labs_lt P E). { intros q l q' He. destruct (ti_lab _ _ _ _ TI _ He) as (x & X1 & X2). cbn in X1. congruence. }
      assert (EQ : decode_edges P p :: map (fun x => decode_edges P (snd x)) steps = pconf p :: map (fun x => pconf (snd x)) steps).
      { f_equal; [apply (decode_valid P E); auto; apply HI|]. apply map_ext_in. intros x Hx. destruct (H5 x Hx) as [y Hy]. apply (decode_valid P E); auto. apply Hy. }
      eexists _, u. split; [reflexivity|]. rewrite EQ. ands; auto. rewrite H8. apply lang_path_lang; [split; auto; rewrite H4; auto|]. apply H3.
  Qed.
End FixTrace2.
