(** What two query texts give to the solver: used by C75. *)
From Coq Require Import Ascii String List Arith Lia Bool ZArith Permutation.
From Verif Require Import Base BaseFacts Spec SpecFacts PdaModel PdaProof AutModel AutProof PreStarModel PreStarProof PreStarLang PostStarProof PostStarLang
  SolverModel QueryModel QueryProof NfaModel AtomModel GrammarSpec QTextSpec ParserModel QTextModel QTextProof QBuildProof NfaProof RegexSpec RegexProof ConstructProof AtomProof ParserProof
  PropsQText VerifyModel VerifyProof.
Import ListNotations.
Local Open Scope list_scope.

Lemma two_texts : forall addr ord sl tab us s1 s2, (forall i j, addr i = addr j -> i = j) -> (forall q l, Permutation (ord q l) l) ->
  (forall n id, sl n = SFound id -> id < pd_n (build (List.length tab) us)) -> NoDup tab -> Forall (wf_urule (List.length tab)) us ->
  ((parse_query addr ord (build (List.length tab) us) sl tab s1 = Some QThrow \/
    exists A1 tab1, parse_query addr ord (build (List.length tab) us) sl tab s1 = Some (QGo (A1, tab1)) /\ parse_query addr ord (build (List.length tab1) us) sl tab1 s2 = Some QThrow) /\
   forall lf q1 q2, gquery lf q1 s1 -> gquery lf q2 s2 -> ~ (states_ok sl q1 /\ states_ok sl q2)) \/
  exists A1 tab1 A2 tab2, parse_query addr ord (build (List.length tab) us) sl tab s1 = Some (QGo (A1, tab1)) /\ parse_query addr ord (build (List.length tab1) us) sl tab1 s2 = Some (QGo (A2, tab2)) /\
    (exists x, tab1 = tab ++ x) /\ (exists x, tab2 = tab1 ++ x) /\ NoDup tab2 /\ (exists lf q1 q2, numbering lf tab2 /\ gquery lf q1 s1 /\ gquery lf q2 s2) /\
    let PD := build (List.length tab2) us in
    pre_ok PD A1 /\ no_in PD A1 /\ untraced A1 /\ pre_ok PD A2 /\ no_in PD A2 /\ untraced A2 /\ Forall (wf_urule (List.length tab2)) us /\
    forall lf q1 q2, numbering lf tab2 -> gquery lf q1 s1 -> gquery lf q2 s2 -> states_ok sl q1 /\ states_ok sl q2 /\
      List.length tab1 = last (known (List.length tab) q1) 0 /\ List.length tab2 = last (known (List.length tab1) q2) 0 /\
      ((forall a, In a (q1 ++ q2) -> rsafe (qa_re a) = true) ->
        (forall c, aut_lang (pd_n PD) A1 c <-> q_configs (names_of sl) (List.length tab) q1 c) /\ (forall c, aut_lang (pd_n PD) A2 c <-> q_configs (names_of sl) (List.length tab1) q2 c)).
Proof.
  intros addr ord sl tab us s1 s2 Hi Ho Hs ND W.
  assert (EN: forall n m, pd_n (build n us) = pd_n (build m us)). { intros n m. rewrite <- (with_nlab_build n m). reflexivity. }
  destruct (parse_query_spec addr Hi ord Ho _ sl Hs tab s1 ND) as [[E1 X]|[A1 [tab1 [E1 [[n1 X1] [ND1 [_ [O1 L1]]]]]]]].
  { left. split; [left; exact E1|]. intros lf q1 q2 G1 _ [G _]. eapply X; eauto. }
  assert (Hs1: forall n id, sl n = SFound id -> id < pd_n (build (List.length tab1) us)) by (intros n id H; apply Hs in H; rewrite (EN _ (List.length tab)); auto).
  destruct (parse_query_spec addr Hi ord Ho _ sl Hs1 tab1 s2 ND1) as [[E2 X]|[A2 [tab2 [E2 [[n2 X2] [ND2 [[lf0 [q20 [Y1 Y2]]] [O2 L2]]]]]]]].
  { left. split; [right; eauto|]. intros lf q1 q2 _ G2 [_ G]. eapply X; eauto. }
  right. exists A1, tab1, A2, tab2. do 2 (split; [assumption|]). split; [eauto|]. split; [eauto|]. split; [exact ND2|]. split.
  { assert (G: exists q1, gquery lf0 q1 s1).
    { unfold parse_query in E1. destruct (p_query s1) as [rest acts| |] eqn:Ep; try discriminate. destruct (p_query_sound lf0 s1 rest acts Ep) as [q1 [G _]]. eauto. }
    destruct G as [q1 G]. exists lf0, q1, q20. auto. }
  set (PD := build (List.length tab2) us). rewrite with_nlab_build in O1, O2. fold PD in O2.
  assert (LE: List.length tab <= List.length tab2) by (rewrite X2, X1, !app_length; lia). assert (LE1: List.length tab1 <= List.length tab2) by (rewrite X2, app_length; lia).
  assert (O1': post_ok PD A1). { apply (post_ok_nlab PD (List.length tab1)). { unfold PD. rewrite <- (with_nlab_build 0 (List.length tab2)). exact LE1. } unfold PD. rewrite with_nlab_build. exact O1. }
  apply post_ok_pre_ok in O1', O2. destruct O1' as [P1 I1], O2 as [P2 I2].
  do 2 (split; [assumption|]). split; [eapply parse_query_untraced; eauto|]. do 2 (split; [assumption|]). split; [eapply parse_query_untraced; eauto|]. split.
  { eapply Forall_impl; [|exact W]. intros u [W1 [W3 W4]]. unfold wf_urule. ands; auto; [intros l Hl; specialize (W3 l Hl); lia|intros Hl; specialize (W4 Hl); lia]. }
  clear lf0 q20 Y1 Y2. intros lf q1 q2 Hn H1 H2.
  assert (Hn1: numbering lf tab1) by (subst tab2; eapply numbering_prefix; eauto).
  destruct (L1 lf q1 Hn1 H1) as [S1 [T1 [_ K1]]]. destruct (L2 lf q2 Hn H2) as [S2 [T2 [_ K2]]]. do 4 (split; [assumption|]). intros SF.
  assert (K1' := K1 (fun a Ha => SF a (in_or_app _ _ _ (or_introl Ha)))). assert (K2' := K2 (fun a Ha => SF a (in_or_app _ _ _ (or_intror Ha)))).
  rewrite (EN _ (List.length tab2)) in K1'. rewrite (EN _ (List.length tab2)) in K2'. fold PD in K1', K2'. split; assumption.
Qed.
