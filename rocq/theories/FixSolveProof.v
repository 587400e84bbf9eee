(** The product with weights, and the answer of the fixed-point query by pre*. *)
From Coq Require Import List Arith Lia Bool ZArith Permutation.
From Verif Require Import Base BaseFacts Spec SpecFacts PdaModel PdaProof AutModel AutProof PreStarModel PreStarProof PreStarLang
  QueryModel QueryProof SolverModel SolverProof ProductModel ProductProof UtilModel UtilProof ShortSpec ShortModel ShortProdProof PostShortProof
  FixSpec FixModel FixChain FixPre1 FixPre2 FixPath FixPath2 FixSolveModel.
Import ListNotations.

Lemma ofold_keep : forall S A (I : S -> Prop) (f : S -> A -> option S) l s s', (forall s x s', In x l -> I s -> f s x = Some s' -> I s') -> I s -> ofold f l s = Some s' -> I s'.
Proof.
  intros S A I f l. induction l as [|a l IH]; intros s s' H Hs E; cbn in E; [injection E as <-; auto|]. destruct (f s a) as [s1|] eqn:E1; [|discriminate]. cbn in E.
  apply (IH s1); auto; [|eapply H; eauto; left; auto]. intros x y z Hy. apply H. right; auto.
Qed.

Section WProd.
  Variable n : nat.
  Variables F S : faut.
  Notation FA := (fa_aut F).
  Notation SA := (fa_aut S).
  Definition er (s : wloop) : ploop := (wp_pr (fst s), snd s).

  (** *** Without the weights it is the product of ProductModel *)
  Lemma er_loop : forall X (g : wloop -> X -> option wloop) (f : ploop -> X -> option (ploop + prod_st)), (forall s x, f (er s) x = option_map (fun s => inl (er s)) (g s x)) ->
    forall l s, eloop f l (er s) = option_map (fun s => inl (er s)) (ofold g l s).
  Proof. intros X g f H l. induction l as [|x l IH]; intros s; cbn; auto. rewrite H. destruct (g s x) as [s1|]; cbn; auto. Qed.
  Lemma er_eps : forall flip top a b s to, pr_eps_body n false false flip FA SA top a b (er s) to = option_map (fun s => inl (er s)) (wp_eps_body n flip F S top a b s to).
  Proof.
    intros flip top a b s to. unfold pr_eps_body, wp_eps_body. cbn [er fst snd].
    replace (fa_aut (if flip then F else S)) with (if flip then FA else SA) by (destruct flip; auto).
    destruct (has_label (if flip then FA else SA) (if flip then a else b) to None); [|reflexivity].
    destruct (get_product_state n false FA SA (wp_pr (fst s)) (if flip then to else a) (if flip then b else to)) as [[pr [fr id]]|]; [|reflexivity]. cbn [obind fst snd].
    unfold wp_add. cbn [wp_set wp_pr]. destruct (pr_add_edge pr top None id); reflexivity.
  Qed.
  Lemma er_pair : forall top a b i_to s f_to, pr_pair_body n false false FA SA top a b i_to (er s) f_to = option_map (fun s => inl (er s)) (wp_pair_body n F S top a b i_to s f_to).
  Proof.
    intros top a b i_to s f_to. unfold pr_pair_body, wp_pair_body. cbn [er fst snd]. set (ls := label_inter _ _). destruct (has_proper_label ls); [|reflexivity].
    destruct (get_product_state n false FA SA (wp_pr (fst s)) i_to f_to) as [[pr [fr id]]|]; [|reflexivity]. cbn [obind fst snd].
    assert (Q : forall l wp, pr_add_labels (wp_pr wp) top id l =
      option_map wp_pr (ofold (fun wp l => match l with None => Some wp | Some _ => wp_add wp top l id (fa_weight F (mk_edge a l i_to)) end) l wp)).
    { intros l. induction l as [|[x|] l IH]; intros wp; cbn; auto; [|apply IH]. unfold wp_add. destruct (pr_add_edge (wp_pr wp) top (Some x) id); cbn; auto. rewrite <- IH. reflexivity. }
    change pr with (wp_pr (wp_set (fst s) pr)) at 1. rewrite Q. destruct (ofold _ ls (wp_set (fst s) pr)); reflexivity.
  Qed.
  Lemma er_expand : forall top s, pr_expand n false false FA SA top (er s) = option_map (fun s => inl (er s)) (wp_expand n F S top s).
  Proof.
    intros top s. unfold pr_expand, wp_expand. cbn [er fst]. destruct (pr_pair n (wp_pr (fst s)) top) as [[a b]|]; [|reflexivity]. cbn [obind fst snd].
    destruct (Nat.ltb a (a_size FA) && Nat.ltb b (a_size SA)); [|reflexivity].
    change (wp_pr (fst s), snd s) with (er s). rewrite (er_loop _ (wp_eps_body n true F S top a b)) by apply er_eps. destruct (ofold (wp_eps_body n true F S top a b) _ s) as [s1|]; [|reflexivity]. cbn [obind option_map].
    rewrite (er_loop _ (wp_eps_body n false F S top a b)) by apply er_eps. destruct (ofold (wp_eps_body n false F S top a b) _ s1) as [s2|]; [|reflexivity]. cbn [obind option_map].
    apply (er_loop _ (fun s i_to => ofold (wp_pair_body n F S top a b i_to) (tos SA b) s)). intros s3 x. apply er_loop. apply er_pair.
  Qed.
  Lemma er_construct : forall fuel wp w, pr_construct n fuel false false FA SA (wp_pr wp) w = option_map (fun r => (fst r, wp_pr (snd r))) (wp_construct n fuel F S wp w).
  Proof.
    intros fuel. induction fuel as [|f IH]; intros wp w; destruct w as [|t w]; cbn; auto. change (wp_pr wp, w) with (er (wp, w)). rewrite er_expand. destruct (wp_expand n F S t (wp, w)) as [[wp' w']|]; cbn; auto.
  Qed.

  (** *** The weights *)
  Notation pair := (pr_pair n).
  Definition edge_ok (wp : wprod) (q : nat) (l : option nat) (q' : nat) : Prop := exists a b a' b',
    pair (wp_pr wp) q = Some (a, b) /\ pair (wp_pr wp) q' = Some (a', b') /\
    match l with
    | Some x => fa_weight (wp_faut wp) (mk_edge q l q') = fa_weight F (mk_edge a l a')
    | None => (b' = b /\ aut_edges FA a None a' /\ fa_weight (wp_faut wp) (mk_edge q l q') = fa_weight F (mk_edge a None a')) \/
              (a' = a /\ aut_edges SA b None b' /\ fa_weight (wp_faut wp) (mk_edge q l q') = fa_weight S (mk_edge b None b'))
    end.
  Record WI (wp : wprod) : Prop := {
    wi_sz : a_size (pr_aut (wp_pr wp)) = length (pr_ids (wp_pr wp)) + n;
    wi_w : forall q l q', aut_edges (pr_aut (wp_pr wp)) q l q' -> edge_ok wp q l q' }.

  Lemma gps_pair : forall pr a b pr' fr id, get_product_state n false FA SA pr a b = Some (pr', (fr, id)) -> a_size (pr_aut pr) = length (pr_ids pr) + n ->
    pair pr' id = Some (a, b) /\ (forall q x, pair pr q = Some x -> pair pr' q = Some x) /\ a_edges (pr_aut pr') = a_edges (pr_aut pr) /\ a_size (pr_aut pr') = length (pr_ids pr') + n.
  Proof.
    intros pr a b pr' fr id H SZ. unfold get_product_state in H. destruct (accepting FA a) as [x|]; [|discriminate]. destruct (accepting SA b) as [y|]; [|discriminate]. cbn [obind] in H.
    destruct (Nat.eqb a b && Nat.ltb a n) eqn:E.
    - injection H as <- <- <-. apply andb_true_iff in E. destruct E as [E1 E2]. apply Nat.eqb_eq in E1. subst b. ands; auto. unfold pr_pair. rewrite E2. auto.
    - destruct (id_find (a, b) (pr_ids pr) 0) as [i|] eqn:Ei.
      + injection H as <- <- <-. apply id_find_Some in Ei. destruct Ei as [_ Ei]. rewrite Nat.sub_0_r in Ei. ands; auto. unfold pr_pair. destruct (Nat.ltb_spec (i + n) n); [lia|]. rewrite Nat.add_sub. auto.
      + destruct (Nat.eqb (a_size (pr_aut pr)) (length (pr_ids pr) + n)); [|discriminate]. injection H as <- <- <-. cbn [pr_ids pr_aut]. ands.
        * unfold pr_pair. rewrite SZ. destruct (Nat.ltb_spec (length (pr_ids pr) + n) n); [lia|]. cbn [pr_ids]. rewrite Nat.add_sub, nth_error_app2, Nat.sub_diag by lia. auto.
        * intros q z. unfold pr_pair. cbn [pr_ids]. destruct (Nat.ltb q n); auto. intros Hq. apply nth_error_app1_some. auto.
        * reflexivity.
        * unfold a_size, a_add_state in *. cbn. rewrite !app_length. cbn. lia.
  Qed.

  Lemma wt_other : forall wp pr e w e', e' <> e -> fa_weight (wp_faut (mk_wprod pr ((e, w) :: wp_w wp))) e' = fa_weight (wp_faut wp) e'.
  Proof. intros wp pr e w e' Ne. unfold fa_weight. cbn. destruct (edge_eqb e e') eqn:Q; auto. apply edge_eqb_eq in Q. congruence. Qed.
  Lemma wt_same : forall wp pr e w, fa_weight (wp_faut (mk_wprod pr ((e, w) :: wp_w wp))) e = w.
  Proof. intros wp pr e w. unfold fa_weight. cbn. assert (Q : edge_eqb e e = true) by (apply edge_eqb_eq; auto). rewrite Q. auto. Qed.
  Lemma pr_add_ids : forall pr q l q' pr', pr_add_edge pr q l q' = Some pr' -> pr_ids pr' = pr_ids pr /\ a_size (pr_aut pr') = a_size (pr_aut pr) /\
    (forall x y z, aut_edges (pr_aut pr') x y z <-> aut_edges (pr_aut pr) x y z \/ (x = q /\ y = l /\ z = q')).
  Proof.
    intros pr q l q' pr' H. unfold pr_add_edge in H. destruct (Nat.lt_ge_cases q (a_size (pr_aut pr))) as [L|L].
    - destruct (add_edge_edges (pr_aut pr) q l q' TNull L) as (A' & E1 & E2 & _ & E3). rewrite E1 in H. cbn in H. injection H as <-. cbn. ands; auto. unfold a_size. rewrite E2. auto.
    - unfold a_add_edge, emplace_edge in H. cbn [e_src] in H. apply Nat.ltb_ge in L. rewrite L in H. discriminate.
  Qed.

  Lemma edge_ok_mono : forall wp wp' q l q', edge_ok wp q l q' -> (forall q x, pair (wp_pr wp) q = Some x -> pair (wp_pr wp') q = Some x) ->
    fa_weight (wp_faut wp') (mk_edge q l q') = fa_weight (wp_faut wp) (mk_edge q l q') -> edge_ok wp' q l q'.
  Proof. intros wp wp' q l q' (a & b & a' & b' & H1 & H2 & H3) HP HW. exists a, b, a', b'. rewrite HW. auto. Qed.

  (** Adding one edge between two states whose components are known. *)
  Lemma wp_add_WI : forall wp q l q' w a b a' b' wp', WI wp -> wp_add wp q l q' w = Some wp' -> pair (wp_pr wp) q = Some (a, b) -> pair (wp_pr wp) q' = Some (a', b') ->
    match l with
    | Some x => w = fa_weight F (mk_edge a l a')
    | None => (b' = b /\ aut_edges FA a None a' /\ w = fa_weight F (mk_edge a None a')) \/ (a' = a /\ aut_edges SA b None b' /\ w = fa_weight S (mk_edge b None b'))
    end -> WI wp' /\ forall q x, pair (wp_pr wp) q = Some x -> pair (wp_pr wp') q = Some x.
  Proof.
    intros wp q l q' w a b a' b' wp' I H P1 P2 Hw. unfold wp_add in H. destruct (pr_add_edge (wp_pr wp) q l q') as [pr|] eqn:E; [|discriminate]. cbn [obind] in H. injection H as <-.
    destruct (pr_add_ids _ _ _ _ _ E) as (I1 & I2 & I3).
    assert (PP : forall q x, pair (wp_pr wp) q = Some x -> pair pr q = Some x) by (intros z x; unfold pr_pair; rewrite I1; auto).
    split; [|exact PP]. constructor; [cbn [wp_pr]; rewrite I1, I2; apply I|]. cbn [wp_pr]. intros x y z He. apply I3 in He.
    destruct (has_label (pr_aut (wp_pr wp)) q q' l) eqn:HL.
    - apply has_label_spec in HL. assert (He' : aut_edges (pr_aut (wp_pr wp)) x y z) by (destruct He as [He|(-> & -> & ->)]; auto).
      apply (edge_ok_mono wp); auto. apply I; auto.
    - destruct (edge_eqb (mk_edge q l q') (mk_edge x y z)) eqn:Q.
      + apply edge_eqb_eq in Q. injection Q as <- <- <-. exists a, b, a', b'. cbn [wp_pr]. split; auto. split; auto. rewrite wt_same. exact Hw.
      + assert (Ne : mk_edge x y z <> mk_edge q l q') by (intros K; rewrite K in Q; assert (edge_eqb (mk_edge q l q') (mk_edge q l q') = true) by (apply edge_eqb_eq; auto); congruence).
        destruct He as [He|(-> & -> & ->)]; [|congruence]. apply (edge_ok_mono wp); auto; [apply I; auto|]. apply wt_other; auto.
  Qed.
  Lemma gps_WI : forall wp a b pr' fr id, WI wp -> get_product_state n false FA SA (wp_pr wp) a b = Some (pr', (fr, id)) ->
    WI (wp_set wp pr') /\ pair pr' id = Some (a, b) /\ forall q x, pair (wp_pr wp) q = Some x -> pair pr' q = Some x.
  Proof.
    intros wp a b pr' fr id I H. destruct (gps_pair _ _ _ _ _ _ H (wi_sz _ I)) as (G1 & G2 & G3 & G4). ands; auto. constructor; [exact G4|].
    intros q l q' He. assert (He' : aut_edges (pr_aut (wp_pr wp)) q l q') by (unfold aut_edges in *; cbn in He; rewrite G3 in He; auto). apply (edge_ok_mono wp); auto. apply I; auto.
  Qed.

  Definition JI (top a b : nat) (s : wloop) : Prop := WI (fst s) /\ pair (wp_pr (fst s)) top = Some (a, b).
  Lemma eps_JI : forall flip top a b s to s', JI top a b s -> wp_eps_body n flip F S top a b s to = Some s' -> JI top a b s'.
  Proof.
    intros flip top a b s to s' [I PT] H. unfold wp_eps_body in H. destruct (has_label _ _ to None) eqn:HL; [|injection H as <-; split; auto].
    destruct (get_product_state n false FA SA (wp_pr (fst s)) (if flip then to else a) (if flip then b else to)) as [[pr [fr id]]|] eqn:G; [|discriminate]. cbn [obind fst snd] in H.
    destruct (gps_WI _ _ _ _ _ _ I G) as (I1 & P1 & P2). destruct (wp_add (wp_set (fst s) pr) top None id _) as [wp1|] eqn:W; [|discriminate]. cbn [obind] in H. injection H as <-. cbn [fst].
    apply has_label_spec in HL. destruct (wp_add_WI _ _ _ _ _ a b (if flip then to else a) (if flip then b else to) _ I1 W) as [I2 P3]; [apply P2; auto|exact P1| |split; auto].
    destruct flip; [left|right]; auto.
  Qed.
  Lemma pair_JI : forall top a b i_to s f_to s', JI top a b s -> wp_pair_body n F S top a b i_to s f_to = Some s' -> JI top a b s'.
  Proof.
    intros top a b i_to s f_to s' [I PT] H. unfold wp_pair_body in H. destruct (has_proper_label _); [|injection H as <-; split; auto].
    destruct (get_product_state n false FA SA (wp_pr (fst s)) i_to f_to) as [[pr [fr id]]|] eqn:G; [|discriminate]. cbn [obind fst snd] in H.
    destruct (gps_WI _ _ _ _ _ _ I G) as (I1 & P1 & P2). destruct (ofold _ _ (wp_set (fst s) pr)) as [wp1|] eqn:W; [|discriminate]. cbn [obind] in H. injection H as <-. cbn [fst].
    assert (J : WI wp1 /\ pair (wp_pr wp1) top = Some (a, b) /\ pair (wp_pr wp1) id = Some (i_to, f_to)).
    { revert W. apply (ofold_keep _ _ (fun wp => WI wp /\ pair (wp_pr wp) top = Some (a, b) /\ pair (wp_pr wp) id = Some (i_to, f_to))); [|split; [exact I1|]; split; [apply P2; auto|exact P1]].
      intros wp l wp' _ (J1 & J2 & J3) E. destruct l as [x|]; [|injection E as <-; auto]. destruct (wp_add_WI _ _ _ _ _ a b i_to f_to _ J1 E J2 J3 eq_refl) as [K1 K2]. auto. }
    split; apply J.
  Qed.
  Lemma expand_WI : forall top s s', WI (fst s) -> wp_expand n F S top s = Some s' -> WI (fst s').
  Proof.
    intros top s s' I H. unfold wp_expand in H. destruct (pair (wp_pr (fst s)) top) as [[a b]|] eqn:PT; [|discriminate]. cbn [obind fst snd] in H.
    destruct (Nat.ltb a (a_size FA) && Nat.ltb b (a_size SA)); [|discriminate].
    destruct (ofold (wp_eps_body n true F S top a b) _ s) as [s1|] eqn:E1; [|discriminate]. cbn [obind] in H.
    destruct (ofold (wp_eps_body n false F S top a b) _ s1) as [s2|] eqn:E2; [|discriminate]. cbn [obind] in H.
    assert (J0 : JI top a b s) by (split; auto).
    assert (J1 : JI top a b s1) by (revert J0 E1; apply ofold_keep; intros x y z _; apply eps_JI).
    assert (J2 : JI top a b s2) by (revert J1 E2; apply ofold_keep; intros x y z _; apply eps_JI).
    assert (J3 : JI top a b s'); [|apply J3]. revert J2 H. apply ofold_keep. intros x y z _ Jx. revert Jx. apply ofold_keep. intros u v t _. apply pair_JI.
  Qed.
  Lemma construct_WI : forall fuel wp w b wp', WI wp -> wp_construct n fuel F S wp w = Some (b, wp') -> WI wp'.
  Proof.
    intros fuel. induction fuel as [|f IH]; intros wp w b wp' I H; destruct w as [|t w]; cbn in H; try discriminate; try (injection H as <- <-; auto).
    destruct (wp_expand n F S t (wp, w)) as [s|] eqn:E; [|discriminate]. cbn in H. eapply IH; [|exact H]. eapply expand_WI; [|exact E]. exact I.
  Qed.

  (** *** The product with its weights *)
  Hypothesis WF : aut_wf FA.
  Hypothesis WS : aut_wf SA.
  Hypothesis HF : n <= a_size FA.
  Hypothesis HS : n <= a_size SA.
  Notation EF := (aut_edges FA).
  Notation ES := (aut_edges SA).
  Hypothesis NE : forall q t, ~ EF q None t.
  Hypothesis ZS : forall q t, ES q None t -> fa_weight S (mk_edge q None t) = Some 0%Z.
  Definition wF := fun x y z => fa_weight F (mk_edge x y z).
  Definition wP (wp : wprod) := fun x y z => fa_weight (wp_faut wp) (mk_edge x y z).
  Definition EP (wp : wprod) := aut_edges (pr_aut (wp_pr wp)).

  Record wprod_ok (wp : wprod) : Prop := {
    wo_b : pbase n FA SA false (wp_pr wp);
    wo_c : forall id, id < a_size (pr_aut (wp_pr wp)) -> closed_at n FA SA (wp_pr wp) id;
    wo_w : WI wp }.

  Lemma wp_initialize_spec : forall pr, pbase n FA SA false pr -> a_edges (pr_aut pr) = [] -> exists b wp', wp_initialize n F S (mk_wprod pr []) = Some (b, wp') /\ wprod_ok wp' /\ b = has_accepting (wp_pr wp').
  Proof.
    intros pr B E0. destruct (initialize_spec n FA SA false WF WS HF HS false pr B) as (b & pr' & E & B' & _ & Hb & C).
    unfold initialize_product in E. unfold wp_initialize. cbn [wp_pr]. assert (ER := er_construct (pr_fuel FA SA (rev (seq 0 (a_size (pr_aut pr))))) (mk_wprod pr []) (rev (seq 0 (a_size (pr_aut pr))))).
    cbn [wp_pr] in ER. rewrite E in ER. destruct (wp_construct n _ F S (mk_wprod pr []) _) as [[b' wp']|] eqn:Ew; [|discriminate]. cbn in ER. injection ER as <- ->. exists b, wp'. split; auto. split; auto. constructor; auto.
    eapply construct_WI; [|exact Ew]. constructor; [cbn; rewrite Nat.add_comm; apply (pb_size _ _ _ _ _ (pb_0 _ _ _ _ _ B))|]. intros q l q' He. unfold aut_edges in He. cbn in He. rewrite E0 in He. destruct He.
  Qed.

  Lemma EP_weight : forall wp q l q' a b, wprod_ok wp -> EP wp q l q' -> pair (wp_pr wp) q = Some (a, b) -> exists a' b', pair (wp_pr wp) q' = Some (a', b') /\
    match l with
    | Some x => EF a l a' /\ ES b l b' /\ wP wp q l q' = wF a l a'
    | None => a' = a /\ ES b None b' /\ wP wp q l q' = Some 0%Z
    end.
  Proof.
    intros wp q l q' a b O He HP. destruct (pb_edges _ _ _ _ _ (pb_0 _ _ _ _ _ (wo_b _ O)) _ _ _ He) as (a0 & b0 & a1 & b1 & P0 & P1 & J).
    destruct (wi_w _ (wo_w _ O) _ _ _ He) as (a2 & b2 & a3 & b3 & P2 & P3 & Hw). assert (Q : (a0, b0) = (a, b)) by congruence. injection Q as -> ->. assert (Q : (a2, b2) = (a, b)) by congruence. injection Q as -> ->.
    assert (Q : (a3, b3) = (a1, b1)) by congruence. injection Q as -> ->. exists a1, b1. split; auto. destruct l as [x|].
    - cbn in J. destruct J as [J1 J2]. ands; auto.
    - destruct Hw as [(-> & H & _)|(-> & H & H2)]; [exfalso; eapply NE; eauto|]. ands; auto. unfold wP. rewrite H2. apply ZS; auto.
  Qed.
  Lemma wproduct_path : forall wp, wprod_ok wp -> forall q w v q', ipath (EP wp) (wP wp) q w v q' -> forall a b, pair (wp_pr wp) q = Some (a, b) ->
    exists a' b', pair (wp_pr wp) q' = Some (a', b') /\ ipath EF wF a w v a' /\ apath ES b w b'.
  Proof.
    intros wp O q w v q' H. induction H as [q|q l q1 w v q2 He Hp IH]; intros a b HP; [exists a, b; ands; auto; constructor|].
    destruct (EP_weight _ _ _ _ _ _ O He HP) as (a1 & b1 & P1 & J). destruct (IH a1 b1 P1) as (a' & b' & K1 & K2 & K3). exists a', b'. split; auto. destruct l as [x|].
    - destruct J as (J1 & J2 & ->). split; [apply (ip_cons EF wF a (Some x) a1 w v a'); auto|]. eapply ap_lab; eauto.
    - destruct J as (-> & J2 & ->). split; [|eapply ap_eps; eauto]. replace (iplus (Some 0%Z) v) with v by (destruct v; auto). auto.
  Qed.
  Lemma wjoint_path : forall wp, wprod_ok wp -> forall a w v f, ipath EF wF a w v f -> forall b g, apath ES b w g -> forall q, pair (wp_pr wp) q = Some (a, b) ->
    exists q', pair (wp_pr wp) q' = Some (f, g) /\ ipath (EP wp) (wP wp) q w v q'.
  Proof.
    intros wp O.
    assert (ST : forall q a b l a' b', pair (wp_pr wp) q = Some (a, b) -> joint EF ES a b l a' b' -> exists q', pair (wp_pr wp) q' = Some (a', b') /\ EP wp q l q').
    { intros q a b l a' b' HP J. destruct (wo_c _ O q) with (2 := HP) (3 := J) as (q' & K1 & K2); [|eauto]. apply (pair_lt n FA SA false HF HS (wp_pr wp) q (pb_0 _ _ _ _ _ (wo_b _ O))); eauto. }
    assert (E0 : forall a b w g, apath ES b w g -> w = [] -> forall q, pair (wp_pr wp) q = Some (a, b) -> exists q', pair (wp_pr wp) q' = Some (a, g) /\ ipath (EP wp) (wP wp) q [] (Some 0%Z) q').
    { intros a b w g H. induction H as [b|b l b1 w g He Hp IH|b b1 w g He Hp IH]; intros Ew q HP; [exists q; split; auto; constructor|discriminate|].
      destruct (ST q a b None a b1 HP) as (q1 & P1 & E1); [right; auto|]. destruct (IH Ew q1 P1) as (q' & P' & I'). exists q'. split; auto.
      destruct (EP_weight _ _ _ _ _ _ O E1 HP) as (a1 & b2 & _ & _ & _ & Hw). assert (Q := ip_cons (EP wp) (wP wp) q None q1 [] (Some 0%Z) q' E1 I'). rewrite Hw in Q. exact Q. }
    intros a w v f H. induction H as [a|a l a1 w v f He Hp IH]; intros b g Hb q HP; [eapply E0; eauto|].
    destruct l as [x|]; [|exfalso; eapply NE; eauto]. remember (x :: w) as xw eqn:Ex. revert q HP. induction Hb as [b|b y b1 w' g Hbe Hbp _|b b1 w' g Hbe Hbp IHb]; intros q HP; [discriminate| |].
    - injection Ex as -> ->. destruct (ST q a b (Some x) a1 b1 HP) as (q1 & P1 & E1); [split; auto|]. destruct (IH b1 g Hbp q1 P1) as (q' & P' & I'). exists q'. split; auto.
      destruct (EP_weight _ _ _ _ _ _ O E1 HP) as (a2 & b2 & Q & _ & _ & Hw). assert (Q' : (a2, b2) = (a1, b1)) by congruence. injection Q' as -> ->.
      assert (R := ip_cons (EP wp) (wP wp) q (Some x) q1 w v q' E1 I'). rewrite Hw in R. exact R.
    - destruct (ST q a b None a b1 HP) as (q1 & P1 & E1); [right; auto|]. destruct (IHb Ex q1 P1) as (q' & P' & I'). exists q'. split; auto.
      destruct (EP_weight _ _ _ _ _ _ O E1 HP) as (a2 & b2 & _ & _ & _ & Hw). assert (R := ip_cons (EP wp) (wP wp) q None q1 w' _ q' E1 I'). rewrite Hw in R.
      replace (iplus (Some 0%Z) (iplus (wF a (Some x) a1) v)) with (iplus (wF a (Some x) a1) v) in R by (destruct (iplus (wF a (Some x) a1) v); auto). exact R.
  Qed.

  (** Accepting weighted paths of the product are pairs of accepting paths. *)
  Lemma wprod_accepting : forall wp v, wprod_ok wp -> (exists p w q, p < n /\ ipath (EP wp) (wP wp) p w v q /\ aut_final (pr_aut (wp_pr wp)) q) <->
    (exists p w f, p < n /\ ipath EF wF p w v f /\ aut_final FA f /\ lang n ES (aut_final SA) (p, w)).
  Proof.
    intros wp v O. assert (B := pb_0 _ _ _ _ _ (wo_b _ O)). assert (PP : forall p, p < n -> pair (wp_pr wp) p = Some (p, p)) by (intros p Hp; unfold pr_pair; apply Nat.ltb_lt in Hp; rewrite Hp; auto). split.
    - intros (p & w & q & Hp & Hi & Hf). destruct (wproduct_path wp O _ _ _ _ Hi p p (PP p Hp)) as (a & b & K1 & K2 & K3). apply (pb_acc _ _ _ _ _ B _ _ _ K1) in Hf. destruct Hf as [F1 F2].
      exists p, w, a. ands; auto. split; auto. exists b. auto.
    - intros (p & w & f & Hp & Hi & Hf & _ & g & Hg & Hgf). destruct (wjoint_path wp O _ _ _ _ Hi p g Hg p (PP p Hp)) as (q & K1 & K2). exists p, w, q. ands; auto. apply (pb_acc _ _ _ _ _ B _ _ _ K1). auto.
  Qed.
End WProd.
