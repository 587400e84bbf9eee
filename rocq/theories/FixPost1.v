(** The fixed-point saturation of post*: closure under the rules and origin of the finite weights, one step of the workset. *)
From Coq Require Import List Arith Lia Bool ZArith Permutation.
From Verif Require Import Base BaseFacts Spec SpecFacts PdaModel PdaProof AutModel AutProof PreStarModel PreStarProof PreStarLang
  PostStarModel PostStarProof PostStarLang SolverModel ProductModel UtilModel ShortSpec ShortModel PostShortProof FixSpec FixModel FixPre1.
Import ListNotations.

Lemma ofold_part : forall S A (f : S -> A -> option S) (I : S -> Prop) (le : S -> S -> Prop) (Q : A -> S -> Prop) (l : list A) s s', ofold f l s = Some s' ->
  (forall s, le s s) -> (forall s1 s2 s3, le s1 s2 -> le s2 s3 -> le s1 s3) -> (forall a s s', Q a s -> le s s' -> Q a s') ->
  (forall a s s', In a l -> I s -> f s a = Some s' -> I s' /\ le s s' /\ Q a s') ->
  I s -> I s' /\ le s s' /\ (forall a, In a l -> Q a s').
Proof.
  intros S A f I le Q l s s' E Hr Ht HQ. revert s s' E. induction l as [|a l IH]; intros s s' E Hs HI; cbn in E.
  - injection E as <-. ands; auto. intros a [].
  - destruct (f s a) as [s1|] eqn:E1; [|discriminate]. cbn in E. destruct (Hs a s s1 (or_introl eq_refl) HI E1) as (A1 & A2 & A3).
    destruct (IH s1 s' E (fun x u u' Hx => Hs x u u' (or_intror Hx)) A1) as (B1 & B2 & B3). ands; eauto. intros x [<-|Hx]; eauto.
Qed.

Lemma fa_get_Some : forall A e w, fa_get A e = Some w -> In e (map fst (a_edges (fa_aut A))) /\ w = fa_weight A e.
Proof.
  intros A e w H. unfold fa_get in H. destruct (find_edge e (a_edges (fa_aut A))) eqn:F; [|discriminate]. injection H as <-. split; auto.
  apply find_edge_Some in F. apply (in_map fst) in F. exact F.
Qed.

Lemma fa_trace2_cons : forall a w e t ss x, fa_trace2 (mk_faut a w ((e, t) :: ss)) x = if edge_eq_dec e x then t else fa_trace2 (mk_faut a w ss) x.
Proof. intros a w e t ss x. unfold fa_trace2. cbn [fa_snd w_find]. destruct (edge_eqb e x) eqn:E, (edge_eq_dec e x) as [Q|Q]; auto; [apply edge_eqb_eq in E; congruence|subst; rewrite (proj2 (edge_eqb_eq x x) eq_refl) in E; discriminate]. Qed.

Section Post.
  Variable P : pda.
  Hypothesis WP : wf_pda P.
  Variable mx : bool.
  Variable A0 : aut.
  Hypothesis OK : post_ok P A0.
  Let n := pd_n P.
  Let nQ := a_size A0.
  Let N := a_size (fst (qp_init P A0)).
  Let qp (k : nat * nat) := qp_find k (snd (qp_init P A0)).
  Let A0w := mk_waut A0 [].
  Notation yst := (fwst yd edge).
  Notation range := (q_range P A0).
  Notation src_of := (wsrc P A0w).

  (** The state as one of the saturation without weights; [U] are the edges that wait. *)
  Definition mir (d : yd) (U : list edge) : post_st unit := mk_post (fa_aut (y_aut d)) (y_nQ d) (y_qp d) U (y_rel1 d) (y_rel2 d) false tt.
  Definition YS (d : yd) : list edge := map fst (a_edges (fa_aut (y_aut d))).
  Definition KI (d : yd) (U : list edge) (x ex : option edge) : Prop := kinv P unit None A0 (fun _ _ _ => True) (mir d U) x ex.
  (** Finite weights are weights of runs. *)
  Definition WI0 (d : yd) : Prop := forall e v, In e (YS d) -> fa_weight (y_aut d) e = Some v -> src_of e v.
  (** Traces are those of the given edges, or name a rule and edges that give the edge. *)
  Definition TI (d : yd) : Prop := forall e, In e (YS d) -> (fa_trace2 (y_aut d) e = TNull /\ In e (map fst (a_edges A0))) \/ justified_post P qp (a_edges (fa_aut (y_aut d))) e (fa_trace2 (y_aut d) e).
  Definition WI (d : yd) : Prop := WI0 d /\ TI d.

  Definition yshift (st st' : yst) : Prop := fw_ws st' = fw_ws st /\ fw_rounds st' = fw_rounds st /\ fw_done st' = fw_done st /\ (forall e, In e (fw_next st) -> In e (fw_next st')).

  Lemma y_cases : forall b st e w t st' k, e_src e < a_size (fa_aut (y_aut (fw_d st))) -> y_update P mx b st e w t = Some (st', k) ->
    let d := fw_d st in let d' := fw_d st' in
    yshift st st' /\ y_nQ d' = y_nQ d /\ y_qp d' = y_qp d /\ (forall x v, fa_weight (y_aut d') x = Some v -> fa_weight (y_aut d) x = Some v \/ (x = e /\ w = Some v)) /\
    (forall x, fa_trace2 (y_aut d') x = fa_trace2 (y_aut d) x \/ (x = e /\ fa_trace2 (y_aut d') x = t)) /\
    ((In e (YS d) /\ fa_aut (y_aut d') = fa_aut (y_aut d) /\ y_rel1 d' = y_rel1 d /\ y_rel2 d' = y_rel2 d /\ y_count d' = y_count d /\ fw_limit st' = fw_limit st) \/
     (~ In e (YS d) /\ b = false /\ k = true /\ fa_aut (y_aut d') = mk_aut (a_acc (fa_aut (y_aut d))) ((e, t) :: a_edges (fa_aut (y_aut d))) (a_ord (fa_aut (y_aut d))) /\
      y_rel1 d' = (if Nat.leb n (e_src e) then e :: y_rel1 d else y_rel1 d) /\
      y_rel2 d' = (match e_lab e with None => if Nat.leb (y_nQ d) (e_dst e) then (e_dst e, e_src e) :: y_rel2 d else y_rel2 d | Some _ => y_rel2 d end) /\
      y_count d' = S (y_count d) /\ fw_limit st' = S (y_count d) /\ (e_src e < n -> In e (fw_next st')) /\ fa_weight (y_aut d') e = w /\ fa_trace2 (y_aut d') e = t)).
  Proof.
    intros b st e w t st' k Hs H d d'. unfold y_update in H. fold d in H, Hs.
    assert (WC : forall a w1 s1 w0 x v, fa_weight (mk_faut a ((e, w1) :: fa_w (y_aut d)) s1) x = Some v -> (w1 = w0 \/ w1 = None) -> fa_weight (y_aut d) x = Some v \/ (x = e /\ w0 = Some v)).
    { intros a w1 s1 w0 x v Hx Hw. rewrite (fa_weight_cons (fa_aut (y_aut d))) in Hx. destruct (edge_eq_dec e x) as [->|Ne]; auto. right. split; auto. destruct Hw; congruence. }
    assert (TC : forall a w1 x, fa_trace2 (mk_faut a w1 ((e, t) :: fa_snd (y_aut d))) x = fa_trace2 (y_aut d) x \/ (x = e /\ fa_trace2 (mk_faut a w1 ((e, t) :: fa_snd (y_aut d))) x = t)).
    { intros a w1 x. rewrite fa_trace2_cons. destruct (edge_eq_dec e x) as [->|Ne]; auto. }
    destruct b.
    - destruct (fa_get (y_aut d) e) as [old|] eqn:G; [|discriminate]. cbn [obind] in H. apply fa_get_Some in G. destruct G as [G _].
      destruct (f_less mx w old).
      + injection H as <- <-. unfold d'. destruct (e_src e <? pd_n P); cbn [fw_d y_emplace y_set y_aut y_nQ y_qp y_rel1 y_rel2 y_count fw_limit fa_aut].
        * ands; auto; try (unfold yshift; cbn; ands; auto; intros; apply in_or_app; auto; fail); try (intros x v Hx; eapply WC; [exact Hx|auto]; fail); try (intros x; apply TC; fail); try (left; ands; auto; fail).
        * ands; auto; try (unfold yshift; cbn; ands; auto; intros; apply in_or_app; auto; fail); try (intros x v Hx; eapply WC; [exact Hx|auto]; fail); try (intros x; apply TC; fail); try (left; ands; auto; fail).
      + injection H as <- <-. unfold d'. ands; auto; [unfold yshift; ands; auto|left; ands; auto].
    - destruct (emplace_cases (fa_aut (y_aut d)) e t Hs) as [[F EM]|[F EM]]; rewrite EM in H; cbn [obind snd fst] in H.
      + destruct (f_less mx w (fa_weight (y_aut d) e)).
        * injection H as <- <-. unfold d'. destruct (e_src e <? pd_n P); cbn [fw_d y_emplace y_set y_aut y_nQ y_qp y_rel1 y_rel2 y_count fw_limit fa_aut].
          -- ands; auto; try (unfold yshift; cbn; ands; auto; intros; apply in_or_app; auto; fail); try (intros x v Hx; eapply WC; [exact Hx|auto]; fail); try (intros x; apply TC; fail); try (left; ands; auto; fail).
          -- ands; auto; try (unfold yshift; cbn; ands; auto; intros; apply in_or_app; auto; fail); try (intros x v Hx; eapply WC; [exact Hx|auto]; fail); try (intros x; apply TC; fail); try (left; ands; auto; fail).
        * injection H as <- <-. unfold d'. ands; auto; [unfold yshift; ands; auto|left; ands; auto].
      + unfold y_insert_rel in H. cbn [y_aut fa_aut y_nQ y_rel1 y_rel2 y_qp y_count] in H. fold n in H.
        set (A' := {| a_acc := _ |}) in *.
        destruct (if n <=? e_src e then _ else _) as [r1|] eqn:E1; [|discriminate]. cbn [obind] in H.
        destruct (match e_lab e with Some _ => _ | None => _ end) as [r2|] eqn:E2; [|discriminate]. cbn [obind] in H. injection H as <- <-.
        assert (R1 : r1 = if n <=? e_src e then e :: y_rel1 d else y_rel1 d). { destruct (n <=? e_src e); [destruct (e_src e <? _)|]; congruence. }
        assert (R2 : r2 = match e_lab e with None => if Nat.leb (y_nQ d) (e_dst e) then (e_dst e, e_src e) :: y_rel2 d else y_rel2 d | Some _ => y_rel2 d end).
        { destruct (e_lab e); [congruence|]. destruct (y_nQ d <=? e_dst e); [destruct (e_dst e <? _)|]; congruence. }
        assert (WE : forall s1, fa_weight (mk_faut A' ((e, w) :: fa_w (y_aut d)) s1) e = w) by (intros s1; rewrite (fa_weight_cons A'); destruct (edge_eq_dec e e); congruence).
        subst r1 r2. unfold d'.
        destruct (Nat.ltb_spec (e_src e) n); cbn [fw_d y_emplace y_set y_set_limit y_aut y_nQ y_qp y_rel1 y_rel2 y_count fw_limit fw_next fa_aut].
        * ands; auto; try (unfold yshift; cbn; ands; auto; intros; apply in_or_app; auto; fail); try (intros x v Hx; eapply WC; [exact Hx|auto]; fail); try (intros x; apply TC; fail); try (left; ands; auto; fail).
          right. ands; auto; try apply WE; try (rewrite fa_trace2_cons; destruct (edge_eq_dec e e); congruence); intros _; apply in_or_app; cbn; auto.
        * ands; auto; try (unfold yshift; cbn; ands; auto; intros; apply in_or_app; auto; fail); try (intros x v Hx; eapply WC; [exact Hx|auto]; fail); try (intros x; apply TC; fail); try (left; ands; auto; fail).
          right. ands; auto; try apply WE; try (rewrite fa_trace2_cons; destruct (edge_eq_dec e e); congruence); lia.
  Qed.

  (** ** The invariant during one step. [B] are the other edges that wait, [old] the edges and [c0] their number when the step began. *)
  Section Step.
    Variable b : bool.
    Variable B old : list edge.
    Variable c0 : nat.
    Definition newlow (d : yd) : list edge := filter (fun e => Nat.ltb (e_src e) n && negb (if in_dec edge_eq_dec e old then true else false)) (YS d).
    Lemma newlow_In : forall d e, In e (newlow d) <-> In e (YS d) /\ e_src e < n /\ ~ In e old.
    Proof. intros d e. unfold newlow. rewrite filter_In, andb_true_iff, Nat.ltb_lt, negb_true_iff. destruct (in_dec edge_eq_dec e old); split; intros; ands; try tauto; try discriminate. destruct H as (_ & _ & H); discriminate. Qed.
    Definition U (d : yd) := B ++ newlow d.
    Record SI (x ex : option edge) (st : yst) : Prop := {
      s_k : KI (fw_d st) (U (fw_d st)) x ex;
      s_w : WI (fw_d st);
      s_next : forall e, In e (newlow (fw_d st)) -> In e (fw_next st);
      s_old : incl old (YS (fw_d st));
      s_r2 : forall f s, In (mk_edge f None s) (YS (fw_d st)) -> nQ <= s -> In (s, f) (y_rel2 (fw_d st));
      s_lim : fw_limit st = y_count (fw_d st);
      s_c0 : c0 <= y_count (fw_d st);
      s_eq : y_count (fw_d st) = c0 -> YS (fw_d st) = old;
      s_b : b = true -> y_count (fw_d st) = c0 }.
    Definition yle (st st' : yst) : Prop := yshift st st' /\ exists new, a_edges (fa_aut (y_aut (fw_d st'))) = new ++ a_edges (fa_aut (y_aut (fw_d st))).
    Lemma yle_refl : forall st, yle st st.
    Proof. intros st. split; [unfold yshift; ands; auto|exists []; auto]. Qed.
    Lemma yle_trans : forall a b c, yle a b -> yle b c -> yle a c.
    Proof. intros s1 s2 s3 [(H1 & H2 & H3 & H4) [n1 H5]] [(K1 & K2 & K3 & K4) [n2 K5]]. split; [unfold yshift; ands; auto; congruence|]. exists (n2 ++ n1). rewrite K5, H5, app_assoc; auto. Qed.
    Lemma yle_YS : forall st st' e, yle st st' -> In e (YS (fw_d st)) -> In e (YS (fw_d st')).
    Proof. intros st st' e [_ [new H]] He. unfold YS. rewrite H, map_app. apply in_or_app; auto. Qed.
    Lemma yle_just : forall st st' e t, yle st st' -> justified_post P qp (a_edges (fa_aut (y_aut (fw_d st)))) e t -> justified_post P qp (a_edges (fa_aut (y_aut (fw_d st')))) e t.
    Proof. intros st st' e t [_ [new H]] J. rewrite H. apply justified_post_app; auto. Qed.

    Lemma SI_base : forall x ex st, SI x ex st -> qbase P unit None A0 (fun _ _ _ => True) (mir (fw_d st) (U (fw_d st))).
    Proof. intros x ex st S. apply (k_base _ _ _ _ _ _ _ _ (s_k _ _ _ S)). Qed.
    Lemma SI_size : forall x ex st, SI x ex st -> a_size (fa_aut (y_aut (fw_d st))) = N.
    Proof. intros x ex st S. apply (qbase_size _ _ _ _ _ _ (SI_base _ _ _ S)). Qed.

    (** An edge of the automaton: the closure does not see the change. *)
    Lemma SI_same : forall x ex st st', SI x ex st -> yshift st st' -> y_nQ (fw_d st') = y_nQ (fw_d st) -> y_qp (fw_d st') = y_qp (fw_d st) -> WI (fw_d st') ->
      fa_aut (y_aut (fw_d st')) = fa_aut (y_aut (fw_d st)) -> y_rel1 (fw_d st') = y_rel1 (fw_d st) -> y_rel2 (fw_d st') = y_rel2 (fw_d st) ->
      y_count (fw_d st') = y_count (fw_d st) -> fw_limit st' = fw_limit st -> SI x ex st'.
    Proof.
      intros x ex st st' [K W NX OI RF L C E Bb] (S1 & S2 & S3 & S4) H1 H2 HW H3 H4 H5 H6 H7.
      assert (EY : YS (fw_d st') = YS (fw_d st)) by (unfold YS; rewrite H3; auto).
      assert (EN : newlow (fw_d st') = newlow (fw_d st)) by (unfold newlow; rewrite EY; auto).
      constructor; auto; try lia.
      - unfold KI, mir, U. rewrite H1, H2, H3, H4, H5, EN. exact K.
      - intros e He. apply S4, NX. rewrite <- EN. auto.
      - rewrite EY; auto.
      - rewrite EY, H5; auto.
      - intros Hc. rewrite EY. apply E. lia.
      - intros Hb. rewrite H6. auto.
    Qed.

    Lemma upd_low : forall x ex st e w t st' k, SI x ex st -> y_update P mx b st e w t = Some (st', k) -> range e -> e_src e < n -> justified_post P qp (a_edges (fa_aut (y_aut (fw_d st)))) e t ->
      (forall v, w = Some v -> src_of e v) ->
      SI x ex st' /\ yle st st' /\ In e (YS (fw_d st')) /\ (e_lab e <> None -> y_rel2 (fw_d st') = y_rel2 (fw_d st)) /\
      (forall e', In e' (YS (fw_d st')) -> n <= e_src e' -> In e' (YS (fw_d st))).
    Proof.
      intros x ex st e w t st' k S H Hr Hs Hj Hw. assert (S0 := S). assert (BQ := SI_base _ _ _ S). assert (SZ := SI_size _ _ _ S).
      apply y_cases in H; [|rewrite SZ; apply Hr]. cbv zeta in H. destruct H as (Sh & H1 & H2 & H3 & HT & [(G1 & G2 & G3 & G4 & G5 & G6)|(G1 & G2 & G3 & G4 & G5 & G6 & G7 & G8 & G9 & G10 & G11)]).
      - assert (EY : YS (fw_d st') = YS (fw_d st)) by (unfold YS; rewrite G2; auto).
        assert (HW : WI (fw_d st')).
        { split.
          - intros e' v He Hv. rewrite EY in He. destruct (H3 _ _ Hv) as [Hv'|[-> ->]]; [eapply (proj1 (s_w _ _ _ S)); eauto|auto].
          - intros e' He. rewrite EY in He. rewrite G2. destruct (HT e') as [->|[-> ->]]; auto. apply (proj2 (s_w _ _ _ S)); auto. }
        ands; auto; try (rewrite EY; auto; fail).
        + eapply SI_same; eauto.
        + split; auto. exists []. rewrite G2. auto.
      - destruct S as [K W NX OI RF L C E Bb]. destruct K as [_ K1 K2 K3].
        assert (EY : YS (fw_d st') = e :: YS (fw_d st)) by (unfold YS; rewrite G4; auto).
        assert (EL : (n <=? e_src e) = false) by (apply Nat.leb_gt; auto). rewrite EL in G5.
        assert (NL : forall e', In e' (newlow (fw_d st')) <-> In e' (newlow (fw_d st)) \/ (e' = e /\ ~ In e old)).
        { intros e'. rewrite !newlow_In, EY. cbn [In]. split; [intros ([<-|X] & Y & Z); auto|]. intros [(X & Y & Z)|[-> Z]]; ands; auto. }
        assert (NO : ~ In e old) by (intros Ho; apply G1, OI, Ho).
        assert (UE : In e (U (fw_d st'))) by (apply in_or_app; right; apply NL; auto).
        assert (UM : forall e', In e' (U (fw_d st)) -> In e' (U (fw_d st'))).
        { unfold U. intros e' He. apply in_app_or in He. apply in_or_app. destruct He as [He|He]; auto. right. apply NL; auto. }
        assert (R2 : forall y, In y (y_rel2 (fw_d st)) -> In y (y_rel2 (fw_d st'))).
        { intros y Hy. rewrite G6. destruct (e_lab e); auto. destruct (_ <=? _); auto. right; auto. }
        assert (O : forall e', In e' (YS (fw_d st')) -> n <= e_src e' -> In e' (YS (fw_d st))).
        { intros e' He Hn. rewrite EY in He. destruct He as [<-|He]; auto. lia. }
        assert (IN : forall e', In e' (YS (fw_d st)) -> In e' (YS (fw_d st'))) by (intros; rewrite EY; right; auto).
        assert (BQ' : qbase P unit None A0 (fun _ _ _ => True) (mir (fw_d st') (U (fw_d st')))).
        { destruct BQ as [c1 c2 c3 c4 c5 c6 c7 c8 c9 c10 c11 c12]. unfold mir, QS in *. cbn [q_aut q_nQ q_qp q_ws q_rel1 q_rel2 q_found q_x] in *.
          constructor; unfold QS; cbn [q_aut q_nQ q_qp q_ws q_rel1 q_rel2 q_found q_x]; auto; try congruence.
          - rewrite G4. exact c1. - rewrite G4. exact c2.
          - rewrite G4. constructor; auto. - rewrite G4. constructor; auto.
          - rewrite G4. intros e' [<-|He]; auto.
          - intros e' He. apply in_app_or in He. destruct He as [He|He].
            + destruct (c8 e' (in_or_app _ _ _ (or_introl He))) as [X Y]. split; auto.
            + apply newlow_In in He. split; [apply He|apply He].
          - intros e' He. rewrite G5 in He. apply c9 in He. split; [apply IN|]; apply He.
          - intros s f Hf. rewrite G6 in Hf. destruct (e_lab e) as [l|] eqn:El; [apply c10 in Hf; split; [|apply IN]; apply Hf|].
            rewrite c3 in Hf. destruct (Nat.leb_spec (a_size A0) (e_dst e)) as [Ld|Ld]; [|apply c10 in Hf; split; [|apply IN]; apply Hf].
            destruct Hf as [Hf|Hf]; [|apply c10 in Hf; split; [|apply IN]; apply Hf]. injection Hf as <- <-. split; auto. rewrite <- El.
            change (In (mk_edge (e_src e) (e_lab e) (e_dst e)) (YS (fw_d st'))). rewrite EY. destruct e; left; auto. }
        ands; auto.
        + constructor; auto; try lia.
          * constructor; auto.
            -- intros e' He Hn. change (In e' (y_rel1 (fw_d st'))). rewrite G5. apply K1; auto.
            -- intros f s Hf. change (In (mk_edge f None s) (YS (fw_d st'))) in Hf. rewrite EY in Hf. destruct Hf as [Hf|Hf]; [left; change (In (mk_edge f None s) (U (fw_d st'))); rewrite <- Hf; exact UE|].
               destruct (K2 f s Hf) as [X|[X|[X1 X2]]]; auto; try (left; apply UM; exact X). right; right. split; [intros Hq; apply R2, X1, Hq|].
               intros l q Hq. assert (Hn : n <= s). { assert (RR := c_range _ _ _ _ _ _ BQ _ Hf). destruct RR as (_ & RR & _). cbn in RR. fold n in RR. lia. }
               destruct (X2 l q (O _ Hq Hn)) as [Y|Y]; auto.
            -- intros p l q Hp Hf. change (In (mk_edge p (Some l) q) (YS (fw_d st'))) in Hf. rewrite EY in Hf. destruct Hf as [Hf|Hf]; [left; change (In (mk_edge p (Some l) q) (U (fw_d st'))); rewrite <- Hf; exact UE|].
               destruct (K3 p l q Hp Hf) as [X|[X|X]]; auto; try (left; apply UM; exact X). right; right. intros id r ls G Cc. eapply rule_fired_mono; [|eapply X; eauto]. exact IN.
          * split.
            -- intros e' v He Hv. rewrite EY in He. destruct He as [<-|He]; [apply Hw; congruence|]. destruct (H3 _ _ Hv) as [Hv'|[-> ->]]; auto. apply W; auto.
            -- intros e' He. rewrite EY in He. rewrite G4. cbn [a_edges]. assert (MO := fun a b => justified_post_app P qp [(e, t)] (a_edges (fa_aut (y_aut (fw_d st)))) a b). cbn [app] in MO.
               destruct He as [<-|He]; [right; rewrite G11; auto|]. destruct (HT e') as [->|[-> ->]]; [|right; auto]. destruct (proj2 W e' He) as [X|X]; auto.
          * intros e' He. apply NL in He. destruct He as [He|[-> _]]; auto. apply Sh. auto.
          * intros e' He. apply IN. auto.
          * intros f s Hf Hq. rewrite EY in Hf. destruct Hf as [->|Hf]; [|apply R2; auto]. rewrite G6. cbn [e_lab e_dst e_src].
            assert (CN := c_nQ _ _ _ _ _ _ BQ). cbn in CN. rewrite CN. apply Nat.leb_le in Hq. unfold nQ in Hq. rewrite Hq. left; auto.
          * intros Hb. congruence.
        + split; auto. exists [(e, t)]. rewrite G4. auto.
        + rewrite EY. left; auto.
        + intros Hl. rewrite G6. destruct (e_lab e); congruence.
    Qed.

    Lemma SI_ex : forall x e st, SI x None st -> SI x (Some e) st.
    Proof.
      intros x e st [[K0 K1 K2 K3] W NX OI RF L C E Bb]. constructor; auto. constructor; auto.
      intros f s Hf. destruct (K2 f s Hf) as [X|[X|[X1 X2]]]; auto. right; right. split; auto. intros l q Hq. destruct (X2 l q Hq); auto. discriminate.
    Qed.

    Lemma upd_high : forall x st e l w t st' k, SI x None st -> y_update P mx b st e w t = Some (st', k) -> range e -> nQ <= e_src e -> e_lab e = Some l -> justified_post P qp (a_edges (fa_aut (y_aut (fw_d st)))) e t ->
      (forall v, w = Some v -> src_of e v) ->
      SI x (if k then Some e else None) st' /\ yle st st' /\ In e (YS (fw_d st')) /\ y_rel2 (fw_d st') = y_rel2 (fw_d st).
    Proof.
      intros x st e l w t st' k S H Hr Hs El Hj Hw. assert (S0 := S). assert (BQ := SI_base _ _ _ S). assert (SZ := SI_size _ _ _ S).
      assert (Hn : n <= e_src e) by (assert (Z := qk_n _ _ OK); unfold nQ in Hs; fold n in Z; lia).
      apply y_cases in H; [|rewrite SZ; apply Hr]. cbv zeta in H. destruct H as (Sh & H1 & H2 & H3 & HT & [(G1 & G2 & G3 & G4 & G5 & G6)|(G1 & G2 & G3 & G4 & G5 & G6 & G7 & G8 & G9 & G10 & G11)]).
      - assert (EY : YS (fw_d st') = YS (fw_d st)) by (unfold YS; rewrite G2; auto).
        assert (HW : WI (fw_d st')).
        { split.
          - intros e' v He Hv. rewrite EY in He. destruct (H3 _ _ Hv) as [Hv'|[-> ->]]; [eapply (proj1 (s_w _ _ _ S)); eauto|auto].
          - intros e' He. rewrite EY in He. rewrite G2. destruct (HT e') as [->|[-> ->]]; auto. apply (proj2 (s_w _ _ _ S)); auto. }
        assert (S' : SI x None st') by (eapply SI_same; eauto).
        ands; auto; try (rewrite EY; auto; fail).
        + destruct k; auto. apply SI_ex; auto.
        + split; auto. exists []. rewrite G2. auto.
      - subst k. destruct S as [K W NX OI RF L C E Bb]. destruct K as [_ K1 K2 K3].
        assert (EY : YS (fw_d st') = e :: YS (fw_d st)) by (unfold YS; rewrite G4; auto).
        assert (EL : (n <=? e_src e) = true) by (apply Nat.leb_le; auto). rewrite EL in G5. rewrite El in G6.
        assert (NL : newlow (fw_d st') = newlow (fw_d st)).
        { unfold newlow. rewrite EY. cbn [filter]. destruct (Nat.ltb_spec (e_src e) n); [lia|]. auto. }
        assert (IN : forall e', In e' (YS (fw_d st)) -> In e' (YS (fw_d st'))) by (intros; rewrite EY; right; auto).
        assert (BQ' : qbase P unit None A0 (fun _ _ _ => True) (mir (fw_d st') (U (fw_d st')))).
        { unfold U in *. rewrite NL. destruct BQ as [c1 c2 c3 c4 c5 c6 c7 c8 c9 c10 c11 c12]. unfold mir, QS in *. cbn [q_aut q_nQ q_qp q_ws q_rel1 q_rel2 q_found q_x] in *.
          constructor; unfold QS; cbn [q_aut q_nQ q_qp q_ws q_rel1 q_rel2 q_found q_x]; auto; try congruence.
          - rewrite G4. exact c1. - rewrite G4. exact c2.
          - rewrite G4. constructor; auto. - rewrite G4. constructor; auto.
          - rewrite G4. intros e' [<-|He]; auto.
          - intros e' He. destruct (c8 e' He) as [X Y]. split; auto.
          - intros e' He. rewrite G5 in He. destruct He as [<-|He]; [split; auto; change (In e (YS (fw_d st'))); rewrite EY; left; auto|]. apply c9 in He. split; [apply IN|]; apply He.
          - intros s f Hf. rewrite G6 in Hf. apply c10 in Hf. split; [|apply IN]; apply Hf. }
        ands; auto.
        + constructor; auto; try lia.
          * constructor; auto.
            -- intros e' He Hn'. change (In e' (y_rel1 (fw_d st'))). rewrite G5. change (In e' (YS (fw_d st'))) in He. rewrite EY in He. destruct He as [<-|He]; [left; auto|right; apply K1; auto].
            -- intros f s Hf. change (In (mk_edge f None s) (YS (fw_d st'))) in Hf. rewrite EY in Hf. destruct Hf as [Hf|Hf]; [rewrite Hf in El; discriminate|].
               destruct (K2 f s Hf) as [X|[X|[X1 X2]]]; auto; [left; unfold mir, U in *; cbn [q_ws] in *; rewrite NL; exact X|]. right; right. split; [intros Hq; cbn [q_rel2 mir]; rewrite G6; apply X1, Hq|].
               intros l0 q Hq. change (In (mk_edge s (Some l0) q) (YS (fw_d st'))) in Hq. rewrite EY in Hq. destruct Hq as [Hq|Hq]; [left; congruence|]. destruct (X2 l0 q Hq) as [Y|Y]; [discriminate|]. right. apply IN. exact Y.
            -- intros p l0 q Hp Hf. change (In (mk_edge p (Some l0) q) (YS (fw_d st'))) in Hf. rewrite EY in Hf. destruct Hf as [Hf|Hf]; [rewrite Hf in Hn; cbn in Hn; fold n in Hp; lia|].
               destruct (K3 p l0 q Hp Hf) as [X|[X|X]]; auto; [left; unfold mir, U in *; cbn [q_ws] in *; rewrite NL; exact X|]. right; right. intros id r ls G Cc. eapply rule_fired_mono; [|eapply X; eauto]. exact IN.
          * split.
            -- intros e' v He Hv. rewrite EY in He. destruct He as [<-|He]; [apply Hw; congruence|]. destruct (H3 _ _ Hv) as [Hv'|[-> ->]]; auto. apply W; auto.
            -- intros e' He. rewrite EY in He. rewrite G4. cbn [a_edges]. assert (MO := fun a b => justified_post_app P qp [(e, t)] (a_edges (fa_aut (y_aut (fw_d st)))) a b). cbn [app] in MO.
               destruct He as [<-|He]; [right; rewrite G11; auto|]. destruct (HT e') as [->|[-> ->]]; [|right; auto]. destruct (proj2 W e' He) as [X|X]; auto.
          * intros e' He. apply Sh. rewrite NL in He. auto.
          * intros e' He. apply IN. auto.
          * intros f s Hf Hq. rewrite EY in Hf. rewrite G6. destruct Hf as [->|Hf]; auto. discriminate.
          * intros Hb. congruence.
        + split; auto. exists [(e, t)]. rewrite G4. auto.
        + rewrite EY. left; auto.
    Qed.

    (** *** Origin of the weights *)
    Lemma low_src : forall p l q v, p < n -> WSrc P A0w q (p, olist l) v -> src_of (mk_edge p l q) v.
    Proof. intros p l q v Hp H. assert (Z := qk_n _ _ OK). fold n in Z. unfold wsrc. cbn [e_src e_lab e_dst]. fold n. change (wa_aut A0w) with A0. ands; auto; intros; lia. Qed.
    Lemma rule_src : forall t l id r ls v, src_of t v -> e_src t < n -> e_lab t = Some l -> get_rule P (e_src t) id = Some (r, ls) -> matches (pd_nlab P) ls l ->
      WSrc P A0w (e_dst t) (r_to r, apply_op (sop_of r) l []) (v + r_w r)%Z.
    Proof.
      intros t l id r ls v (S1 & _) Hs El G M. specialize (S1 Hs). rewrite El in S1. eapply WSrc_reach; [exact S1|]. eapply (wrule_step P A0w); eauto.
    Qed.
    Lemma eps_src_add : forall f s l q v1 v2, f < n -> n <= s -> src_of (mk_edge f None s) v1 -> src_of (mk_edge s (Some l) q) v2 -> src_of (mk_edge f (Some l) q) (v1 + v2)%Z.
    Proof.
      intros f s l q v1 v2 Hf Hs (S1 & _) S2. apply low_src; auto. exact (WSrc_extend P A0w OK (mk_edge s (Some l) q) v2 l f [] v1 S2 eq_refl Hs (S1 Hf)).
    Qed.

    Definition yfired (d : yd) (r : rule) (l q : nat) : Prop := rule_fired P unit A0 (mir d []) r l q.
    Lemma yfired_mono : forall st st' r l q, yle st st' -> yfired (fw_d st) r l q -> yfired (fw_d st') r l q.
    Proof. intros st st' r l q H. apply rule_fired_mono. intros e He. eapply yle_YS; eauto. Qed.

    Lemma SI_none : forall x e st, SI x (Some e) st ->
      (forall f, In (mk_edge f None (e_src e)) (YS (fw_d st)) -> In (e_src e, f) (y_rel2 (fw_d st)) -> In (mk_edge f (e_lab e) (e_dst e)) (YS (fw_d st))) ->
      nQ <= e_src e -> SI x None st.
    Proof.
      intros x e st [[K0 K1 K2 K3] W NX OI RF L C E Bb] H Hq. constructor; auto. constructor; auto.
      intros f s Hf. destruct (K2 f s Hf) as [X|[X|[X1 X2]]]; auto. right; right. split; auto. intros l q Hl. right. destruct (X2 l q Hl) as [Y|Y]; auto.
      injection Y as <-. cbn [e_src e_lab e_dst] in *. apply H; auto.
    Qed.

    Lemma rule_part : forall x t l w id r ls st st', SI x None st -> In t (YS (fw_d st)) -> e_src t < n -> e_lab t = Some l -> get_rule P (e_src t) id = Some (r, ls) ->
      (forall v, w = Some v -> src_of t v) -> y_rule P mx b t l w st (id, (r, ls)) = Some st' ->
      SI x None st' /\ yle st st' /\ (contains ls l = true -> yfired (fw_d st') r l (e_dst t)).
    Proof.
      intros x t l w id r ls st st' S Ht Hs El G Hw H. unfold y_rule in H. cbn [fst snd] in H.
      destruct (contains ls l) eqn:C; [|injection H as <-; ands; auto using yle_refl; discriminate].
      assert (BQ := SI_base _ _ _ S). assert (Rg := c_range _ _ _ _ _ _ BQ _ Ht). destruct Rg as [R1 [R2 R3]]. rewrite El in R3. fold n in R2.
      destruct (get_rule_facts P WP _ _ _ _ G) as [G1 [G2 G3]]. fold n in G1, G2.
      assert (HM: matches (pd_nlab P) ls l) by (eapply contains_spec; eauto).
      assert (Hopl: r_op r = PUSH \/ r_op r = SWAP -> r_opl r < pd_nlab P).
      { assert (G' := G). apply get_rule_at in G'. apply nth_error_In in G'. eapply (wf'_opl _ (wf_wf_pda' _ WP)); eauto. }
      assert (LN : nQ <= N) by (apply nQ_N; apply OK). assert (Ln := qk_n _ _ OK). fold n nQ in Ln.
      assert (Et: edges_of (a_edges (fa_aut (y_aut (fw_d st)))) (e_src t) (Some l) (e_dst t)).
      { unfold edges_of. rewrite <- El. destruct t; exact Ht. }
      assert (HS : forall v, f_add w (Some (r_w r)) = Some v -> WSrc P A0w (e_dst t) (r_to r, apply_op (sop_of r) l []) v).
      { intros v Hv. destruct w as [w|]; [|discriminate]. injection Hv as <-. eapply rule_src; eauto. }
      unfold yfired, rule_fired. unfold sop_of in HS. destruct (r_op r) eqn:Er; cbn [apply_op] in HS.
      - destruct (qp_find (r_to r, r_opl r) (y_qp (fw_d st))) as [qn|] eqn:Q; [|discriminate]. cbn [obind] in H.
        assert (Q1 : qp (r_to r, r_opl r) = Some qn). { assert (CQ := c_qp _ _ _ _ _ _ BQ). cbn in CQ. rewrite CQ in Q. exact Q. }
        assert (Q2 := qp_r P A0w _ _ Q1). change (wa_aut A0w) with A0 in Q2. fold nQ N in Q2.
        destruct (y_update P mx b st _ _ _) as [[st1 k1]|] eqn:U1 in H; [|discriminate]. cbn [obind fst] in H.
        destruct (upd_low x None st _ _ _ _ _ S U1) as (S1 & L1 & I1 & _ & _).
        { unfold q_range; cbn; ands; auto; fold n N; lia. }
        { auto. }
        { left. exists (e_src t), id, l, r, ls, (e_dst t). ands; auto. rewrite Er. exists qn; auto. }
        { intros v Hv. injection Hv as <-. apply low_src; auto. unfold WSrc. change (wa_aut A0w) with A0. fold nQ. destruct (Nat.ltb_spec qn nQ); [lia|]. exists (r_to r), (r_opl r). split; auto. constructor. }
        destruct (y_update P mx b st1 _ _ _) as [[st2 k2]|] eqn:U2 in H; [|discriminate]. cbn [obind fst snd] in H.
        destruct (upd_high x st1 (mk_edge qn (Some l) (e_dst t)) l _ _ _ _ S1 U2) as (S2 & L2 & I2 & RL2).
        { unfold q_range; cbn; ands; auto; fold n N; lia. }
        { cbn; lia. }
        { auto. }
        { left. exists (e_src t), id, l, r, ls, (e_dst t). ands; auto.
          - destruct L1 as [_ [new EE]]. rewrite EE. apply edges_of_app; auto.
          - rewrite Er. exists qn; split; auto. }
        { intros v Hv. apply HS in Hv. unfold wsrc. cbn [e_src e_lab e_dst]. change (wa_aut A0w) with A0. fold n nQ. ands; try (intros; lia). intros _. exists l. split; auto.
          intros p' g Hp. assert (E := qp_i P A0w _ _ _ Hp Q1). injection E as -> ->. exact Hv. }
        destruct k2.
        + destruct (y_rel2_of st2 qn) as [fs|] eqn:F; [|discriminate]. cbn [obind] in H. unfold y_rel2_of in F. destruct (_ && _); [|discriminate]. injection F as <-.
          set (fs := rev _) in H.
          assert (Hfs: forall f, In f fs <-> In (qn, f) (y_rel2 (fw_d st2))).
          { intros f. unfold fs. rewrite <- in_rev, in_map_iff. split.
            - intros [[a c] [E Hf]]. cbn in E; subst c. apply filter_In in Hf. destruct Hf as [Hf1 Hf2]. cbn in Hf2. apply Nat.eqb_eq in Hf2; subst; auto.
            - intros Hf. exists (qn, f); split; auto. apply filter_In; split; auto. cbn; apply Nat.eqb_refl. }
          destruct (ofold_part _ _ _ (fun s => SI x (Some (mk_edge qn (Some l) (e_dst t))) s /\ yle st2 s /\ y_rel2 (fw_d s) = y_rel2 (fw_d st2)) yle (fun f s => In (mk_edge f (Some l) (e_dst t)) (YS (fw_d s))) fs _ _ H yle_refl yle_trans) as ((S3 & L3 & RL3) & _ & I3).
          * intros f s s' Hf Hl. eapply yle_YS; eauto.
          * intros f s s' Hf (Sf & Lf & Rf) E. destruct (fa_get (y_aut (fw_d s)) (mk_edge f None qn)) as [w1|] eqn:F1; [|discriminate]. cbn [obind] in E.
            destruct (y_update P mx b s _ _ _) as [[s1 k1']|] eqn:U3 in E; [|discriminate]. cbn [obind fst] in E. injection E as <-.
            apply fa_get_Some in F1. destruct F1 as [F1 F2]. assert (BQs := SI_base _ _ _ Sf). assert (RF := c_range _ _ _ _ _ _ BQs _ F1). destruct RF as (RF1 & RF2 & RF3). cbn in RF1, RF2, RF3. fold n in RF3.
            destruct (upd_low x (Some (mk_edge qn (Some l) (e_dst t))) s _ _ _ _ _ Sf U3) as (S4 & L4 & I4 & RL4 & _).
            -- unfold q_range; cbn; ands; auto; fold n N; lia.
            -- auto.
            -- right. exists qn, l. cbn. ands; auto. apply (yle_YS st2 s); auto.
            -- intros v Hv. assert (E2 : exists a1 a2, f_add w (Some (r_w r)) = Some a1 /\ w1 = Some a2 /\ v = (a2 + a1)%Z).
               { destruct (f_add w (Some (r_w r))) as [a1|]; [|discriminate]. destruct w1 as [a2|]; [|discriminate]. injection Hv as <-. exists a1, a2. ands; auto. lia. }
               destruct E2 as (a1 & a2 & E2 & E3 & ->). apply (eps_src_add f qn); auto; [lia| |].
               ++ apply (proj1 (s_w _ _ _ Sf)); auto. congruence.
               ++ apply HS in E2. unfold wsrc. cbn [e_src e_lab e_dst]. change (wa_aut A0w) with A0. fold n nQ. ands; try (intros; lia). intros _. exists l. split; auto.
                  intros p' g Hp. assert (E := qp_i P A0w _ _ _ Hp Q1). injection E as -> ->. exact E2.
            -- ands; auto; [eapply yle_trans; eauto|]. rewrite RL4; auto. cbn; discriminate.
          * ands; auto using yle_refl.
          * ands.
            -- apply (SI_none x (mk_edge qn (Some l) (e_dst t))); auto; [|cbn; lia]. cbn [e_src e_lab e_dst]. intros f _ Hf. apply I3. apply Hfs. rewrite <- RL3. exact Hf.
            -- eapply yle_trans; [|eapply yle_trans]; eauto.
            -- intros _. exists qn. ands; auto; [|eapply yle_YS; eauto]. eapply yle_YS; [exact L3|]. eapply yle_YS; eauto.
        + injection H as <-. ands; auto; [eapply yle_trans; eauto|]. intros _. exists qn. ands; auto. eapply yle_YS; eauto.
      - destruct (y_update P mx b st _ _ _) as [[st1 k1]|] eqn:U1 in H; [|discriminate]. cbn [obind fst] in H. injection H as <-.
        destruct (upd_low x None st _ _ _ _ _ S U1) as (S1 & L1 & I1 & _ & _); auto.
        { unfold q_range; cbn; ands; auto; fold n N; lia. }
        { left. exists (e_src t), id, l, r, ls, (e_dst t). ands; auto. rewrite Er; auto. }
        { intros v Hv. apply low_src; auto. }
      - destruct (y_update P mx b st _ _ _) as [[st1 k1]|] eqn:U1 in H; [|discriminate]. cbn [obind fst] in H. injection H as <-.
        destruct (upd_low x None st _ _ _ _ _ S U1) as (S1 & L1 & I1 & _ & _); auto.
        { unfold q_range; cbn; ands; auto; fold n N; lia. }
        { left. exists (e_src t), id, l, r, ls, (e_dst t). ands; auto. rewrite Er; auto. }
        { intros v Hv. apply low_src; auto. }
      - destruct (y_update P mx b st _ _ _) as [[st1 k1]|] eqn:U1 in H; [|discriminate]. cbn [obind fst] in H. injection H as <-.
        destruct (upd_low x None st _ _ _ _ _ S U1) as (S1 & L1 & I1 & _ & _); auto.
        { unfold q_range; cbn; ands; auto; fold n N; lia. }
        { left. exists (e_src t), id, l, r, ls, (e_dst t). ands; auto. rewrite Er; auto. }
        { intros v Hv. apply low_src; auto. }
    Qed.

    Lemma step_body : forall t st st' k, SI (Some t) None st -> y_step_with P mx b st t = Some (st', k) -> k = true /\ SI None None st' /\ yle st st'.
    Proof.
      intros t st st' k S H. unfold y_step_with in H. destruct (Nat.ltb_spec (e_src t) (pd_n P)) as [Hs|]; [|discriminate]. fold n in Hs.
      destruct (Nat.leb_spec (pd_n P) (e_dst t)) as [Hd|]; [|discriminate]. fold n in Hd. cbn [andb] in H.
      destruct (fa_get (y_aut (fw_d st)) t) as [w|] eqn:G; [|discriminate]. cbn [obind] in H. apply fa_get_Some in G. destruct G as [Ht Ew].
      assert (Hw : forall v, w = Some v -> src_of t v) by (intros v Hv; apply (proj1 (s_w _ _ _ S)); auto; congruence).
      destruct (match e_lab t with Some _ => _ | None => _ end) as [st1|] eqn:E; [|discriminate]. cbn [obind] in H. injection H as <- <-. split; auto.
      destruct (e_lab t) as [l|] eqn:El.
      - destruct (nth_error (pd_states P) (e_src t)) as [sp|] eqn:Es; [|discriminate]. cbn [obind] in E.
        destruct (ofold_part _ _ _ (fun s => SI (Some t) None s /\ yle st s) yle (fun x s => contains (snd (snd x)) l = true -> yfired (fw_d s) (fst (snd x)) l (e_dst t)) _ _ _ E yle_refl yle_trans) as ((S1 & L1) & _ & F).
        + intros x s s' H1 H2 H3. eapply yfired_mono; eauto.
        + intros [id [r ls]] s s' Hx [Ss Ls] Hr. apply enum_In in Hx.
          destruct (rule_part (Some t) t l w id r ls s s') as (R1 & R2 & R3); auto.
          * eapply yle_YS; eauto.
          * apply get_rule_at. rewrite <- (nth_error_rules_at _ _ _ Es). auto.
          * ands; auto. eapply yle_trans; eauto.
        + split; auto using yle_refl.
        + split; auto. destruct S1 as [[K0 K1 K2 K3] W NX OI RF L C Eq Bb]. constructor; auto. constructor; auto.
          * intros f s Hf. destruct (K2 f s Hf) as [X|[X|X]]; auto. injection X as X. rewrite <- X in El. discriminate.
          * intros p l0 q Hp Hf. destruct (K3 p l0 q Hp Hf) as [X|[X|X]]; auto. right; right. injection X as X.
            rewrite <- X in El, Es, F. cbn in El, Es, F. injection El as ->. intros id r ls G Cc.
            apply (F (id, (r, ls))); auto. apply enum_In. rewrite (nth_error_rules_at _ _ _ Es). apply get_rule_at; auto.
      - destruct (y_rel1_of P st (e_dst t)) as [es|] eqn:F; [|discriminate]. cbn [obind] in E. unfold y_rel1_of in F. destruct (_ && _); [|discriminate]. injection F as <-.
        set (es := rev _) in E.
        assert (Hes: forall e, In e es <-> In e (y_rel1 (fw_d st)) /\ e_src e = e_dst t).
        { intros e. unfold es. rewrite <- in_rev, filter_In, Nat.eqb_eq. tauto. }
        assert (BQ := SI_base _ _ _ S). assert (RT := c_range _ _ _ _ _ _ BQ _ Ht). destruct RT as (RT1 & RT2 & _).
        destruct (ofold_part _ _ _ (fun s => SI (Some t) None s /\ yle st s /\ y_rel2 (fw_d s) = y_rel2 (fw_d st) /\ (forall e', In e' (YS (fw_d s)) -> n <= e_src e' -> In e' (YS (fw_d st)))) yle
          (fun e s => In (mk_edge (e_src t) (e_lab e) (e_dst e)) (YS (fw_d s))) es _ _ E yle_refl yle_trans) as ((S1 & L1 & RL1 & O1) & _ & F).
        + intros e s s' H1 H2. eapply yle_YS; eauto.
        + intros e s s' He (Ss & Ls & Rs & Os) Hr. apply Hes in He. destruct He as [He1 He2]. destruct (c_rel1 _ _ _ _ _ _ BQ _ He1) as [He3 He4]. fold n in He4.
          assert (RE := c_range _ _ _ _ _ _ BQ _ He3). destruct RE as (RE1 & RE2 & RE3). destruct (e_lab e) as [l|] eqn:Ele; [|fold n in RE3; lia].
          destruct (fa_get (y_aut (fw_d s)) e) as [w1|] eqn:F1; [|discriminate]. cbn [obind] in Hr. apply fa_get_Some in F1. destruct F1 as [F1 F2].
          destruct (y_update P mx b s _ _ _) as [[s1 k1]|] eqn:U3 in Hr; [|discriminate]. cbn [obind fst] in Hr. injection Hr as <-.
          destruct (upd_low (Some t) None s _ _ _ _ _ Ss U3) as (S4 & L4 & I4 & RL4 & O4); auto.
          * unfold q_range; cbn; ands; auto; fold n N; lia.
          * right. exists (e_dst t), l. cbn. ands; auto; unfold edges_of.
            -- rewrite <- El. destruct t; apply (yle_YS st s); auto.
            -- rewrite <- Ele, <- He2. destruct e; apply (yle_YS st s); auto.
          * intros v Hv. assert (E2 : exists a1 a2, w = Some a1 /\ w1 = Some a2 /\ v = (a1 + a2)%Z).
            { destruct w1 as [a2|]; [|discriminate]. destruct w as [a1|]; [|discriminate]. injection Hv as <-. exists a1, a2. ands; auto. lia. }
            destruct E2 as (a1 & a2 & E2 & E3 & ->). apply (eps_src_add (e_src t) (e_dst t)); auto.
            -- rewrite <- El. assert (X := Hw a1 E2). destruct t; exact X.
            -- rewrite <- Ele, <- He2. assert (X := proj1 (s_w _ _ _ Ss) e a2 F1). destruct e; apply X. congruence.
          * ands; auto; [eapply yle_trans; eauto|]. rewrite RL4; auto. cbn; discriminate.
        + ands; auto using yle_refl.
        + split; auto. destruct S1 as [[K0 K1 K2 K3] W NX OI RF L C Eq Bb]. constructor; auto. constructor; auto.
          * intros f s Hf. destruct (K2 f s Hf) as [X|[X|X]]; auto. right; right. injection X as X.
            assert (E1 : s = e_dst t) by (rewrite <- X; auto). assert (E2 : f = e_src t) by (rewrite <- X; auto). subst s f. split.
            -- intros Hq. cbn [q_rel2 mir]. rewrite RL1. apply (s_r2 _ _ _ S); auto. rewrite <- El. destruct t; exact Ht.
            -- intros l q Hq. right. assert (Hq' := O1 _ Hq). cbn [e_src] in Hq'. specialize (Hq' Hd).
               apply (F (mk_edge (e_dst t) (Some l) q)). apply Hes. split; auto. apply (PostStarProof.k_rel1 _ _ _ _ _ _ _ _ (s_k _ _ _ S)); auto.
          * intros p l0 q Hp Hf. destruct (K3 p l0 q Hp Hf) as [X|[X|X]]; auto. injection X as X. rewrite <- X in El. discriminate.
    Qed.
  End Step.
End Post.
