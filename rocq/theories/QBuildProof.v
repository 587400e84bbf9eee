(** The automaton that PAutomatonParser builds for a query text. *)
From Coq Require Import List Arith Bool Ascii NArith Lia Permutation.
From Verif Require Import Base BaseFacts Spec SpecFacts RegexSpec GrammarSpec QTextSpec PdaModel PdaProof AutModel AutProof PreStarLang PostStarLang NfaModel NfaProof
  RegexProof ParserModel ParserProof ConstructProof AtomModel AtomProof QTextModel QTextProof.
Import ListNotations.

(** The label map after the calls of a query. *)
Definition qtab (acts : list qact) (tab : list (list ascii)) : list (list ascii) :=
  fold_left (fun t a => match a with QNfa na => tab_add (alabs na) t | _ => t end) acts tab.
Lemma qtab_app : forall a b tab, qtab (a ++ b) tab = qtab b (qtab a tab).
Proof. intros. apply fold_left_app. Qed.
Lemma qtab_spec : forall acts tab, exists x, qtab acts tab = tab ++ x /\ (NoDup tab -> NoDup (qtab acts tab)).
Proof.
  induction acts as [|a acts IH]; intros tab.
  - exists []. rewrite app_nil_r. auto.
  - change (qtab (a :: acts) tab) with (qtab acts (match a with QNfa na => tab_add (alabs na) tab | _ => tab end)). destruct a as [s|s|na|]; auto.
    destruct (tab_add_spec (alabs na) tab) as [x [E [N _]]]. destruct (IH (tab_add (alabs na) tab)) as [x' [E' N']]. exists (x ++ x'). split; auto. rewrite E', E, app_assoc. auto.
Qed.
Lemma qtab_refs : forall rs tab, qtab (map ref_act rs) tab = tab.
Proof. induction rs as [|r rs IH]; intros tab; auto. cbn. unfold ref_act at 2. destruct (sr_quoted r); apply IH. Qed.

Lemma gbody_proper : forall lf r s, gbody lf r s -> rproper r.
Proof. intros lf r s [i Hi|r' i1 s' i2 H1 Hg H2]; cbn; auto. apply (gexpr_rok lf r' s' Hg). Qed.
Lemma gatom_proper : forall lf a s, gatom lf a s -> rproper (qa_re a).
Proof. intros lf a s H. destruct H. cbn. eapply gbody_proper; eauto. Qed.
Lemma gquery_proper : forall lf q s, gquery lf q s -> Forall (fun a => rproper (qa_re a)) q /\ q <> [].
Proof.
  intros lf q s H. destruct H as [i q s i' Hi Hq Hi']. induction Hq as [a s Ha|a s i1 i2 q s' Ha Hi1 Hi2 Hq IH]; (split; [|discriminate]).
  - constructor; [|constructor]. eapply gatom_proper; eauto.
  - constructor; [|apply IH]. eapply gatom_proper; eauto.
Qed.

Lemma do_acts_ext : forall lf lf' acts b, (forall s, In s (alabs acts) -> lf s = lf' s) -> ofold (do_act lf) acts b = ofold (do_act lf') acts b.
Proof.
  intros lf lf' acts b H. revert b. induction acts as [|a acts IH]; intros b; cbn [ofold]; auto. rewrite (do_act_label lf lf').
  - destruct (do_act lf' b a); cbn; auto. apply IH. intros s Hs. apply H. destruct a; cbn; auto.
  - intros s ->. apply H. cbn; auto.
Qed.

Section Build.
  Variable addr : nat -> nat.
  Hypothesis addr_inj : forall i j, addr i = addr j -> i = j.
  Variable ord : nat -> list nat -> list nat.
  Hypothesis Hord : forall q l, Permutation (ord q l) l.
  Variable P : pda.
  Variable sl : list ascii -> slook.
  Hypothesis Hsl : forall s id, sl s = SFound id -> id < pd_n P.

  Definition ref_okb (r : sref) : bool := match sl (sr_name r) with SFound _ => true | SUnknown => sr_quoted r | SThrow => false end.
  Definition found (rs : list sref) : list nat := flat_map (fun r => match sl (sr_name r) with SFound id => [id] | _ => [] end) rs.
  Lemma found_In : forall rs q, In q (found rs) <-> exists r, In r rs /\ sl (sr_name r) = SFound q.
  Proof.
    intros rs q. unfold found. rewrite in_flat_map. split; intros [r [H1 H2]]; exists r; split; auto.
    - destruct (sl (sr_name r)); cbn in H2; intuition congruence.
    - rewrite H2. cbn; auto.
  Qed.
  Lemma do_refs : forall rs acts tab ss nf cur, do_qacts addr ord P sl (map ref_act rs ++ acts) (mk_qst tab ss nf cur) =
    if forallb ref_okb rs then do_qacts addr ord P sl acts (mk_qst tab (ss ++ found rs) nf cur) else Some QThrow.
  Proof.
    induction rs as [|r rs IH]; intros acts tab ss nf cur; cbn [map app forallb found flat_map]; [rewrite app_nil_r; auto|].
    cbn [do_qacts]. unfold ref_act at 1, ref_okb at 1. destruct (sr_quoted r); cbn [do_qact obind]; destruct (sl (sr_name r)); cbn [andb obind]; auto;
      unfold push_state; cbn [q_tab q_states q_nfa q_cur]; rewrite IH; unfold found; rewrite <- ?app_assoc; auto.
  Qed.

  Section Cur.
    Variable K : nat.
    Notation P' := (with_nlab P K).
    Definition cur_ok (cur : option aut) : Prop := match cur with None => True | Some A => post_ok P' A end.
    Definition cur_lang (cur : option aut) (c : config) : Prop := match cur with None => False | Some A => aut_lang (pd_n P) A c end.
    Lemma finish_one : forall cur a, cur_ok cur -> atom_ok P' a ->
      exists C, finish_atom addr ord P cur a = Some (Some C) /\ post_ok P' C /\ forall c, aut_lang (pd_n P) C c <-> cur_lang cur c \/ atom_lang a c.
    Proof.
      intros [A|] a Hc Ha.
      - destruct (build_from addr addr_inj ord Hord P' [a] A Hc) as [C [E [O L]]]; [constructor; auto|]. cbn [ofold] in E.
        change (finish_atom addr ord P' (Some A) a) with (finish_atom addr ord P (Some A) a) in E. destruct (finish_atom addr ord P (Some A) a) as [c|]; [|discriminate].
        cbn [obind] in E. injection E as ->. exists C. ands; auto. intros c. cbn [cur_lang]. change (pd_n P) with (pd_n P'). rewrite L. split; intros [H|H]; auto.
        + destruct H as [b [[<-|[]] H]]; auto.
        + right. exists a. cbn; auto.
      - destruct (atom_aut addr addr_inj ord Hord P' a Ha) as [N [B [E1 [E2 [O L]]]]]. exists B. unfold finish_atom.
        change (with_nlab P (at_nlab a)) with (with_nlab P' (at_nlab a)). rewrite E1. cbn [obind]. rewrite E2. ands; auto. intros c. cbn [cur_lang]. change (pd_n P) with (pd_n P').
        rewrite L. tauto.
    Qed.

    (** The configurations of a query, with the automata of its expressions. *)
    Fixpoint qlang (k : nat) (q : list qatom) (c : config) : Prop :=
      match q with
      | [] => False
      | a :: q' => let m := known1 k (qa_re a) in
                   (In (fst c) (found (qa_refs a)) /\ nfa_lang (nfa_of (qa_re a)) (snd c) /\ Forall (fun x => x < m) (snd c)) \/ qlang m q' c
      end.
    Definition q_okb (q : list qatom) : bool := forallb (fun a => forallb ref_okb (qa_refs a)) q.
    Lemma known1_ge : forall k r, k <= known1 k r /\ forall x, In x (rlabels r) -> x < known1 k r.
    Proof. intros k r. unfold known1. induction (rlabels r) as [|y l [IH1 IH2]]; cbn; [split; auto; intros x []|]. split; [lia|]. intros x [<-|H]; [lia|]. specialize (IH2 x H). lia. Qed.
    Fixpoint known_end (k : nat) (q : list qatom) : nat := match q with [] => k | a :: q' => known_end (known1 k (qa_re a)) q' end.
    Lemma known_end_ge : forall q k, k <= known_end k q.
    Proof. induction q as [|a q IH]; intros k; cbn; auto. etransitivity; [|apply IH]. apply known1_ge. Qed.

    Lemma do_query : forall lf q acts, query_acts lf q acts -> forall tab y nf cur, (forall s, In s (qtab acts tab) -> lf s = tab_id (qtab acts tab ++ y) s) -> length (qtab acts tab) <= K -> cur_ok cur ->
      length (qtab acts tab) = known_end (length tab) q /\
      (q_okb q = false -> do_qacts addr ord P sl acts (mk_qst tab [] nf cur) = Some QThrow) /\
      (q_okb q = true -> exists nf' cur', do_qacts addr ord P sl acts (mk_qst tab [] nf cur) = Some (QGo (mk_qst (qtab acts tab) [] nf' cur')) /\ cur_ok cur' /\
         (cur <> None \/ q <> [] -> cur' <> None) /\ forall c, cur_lang cur' c <-> cur_lang cur c \/ qlang (length tab) q c).
    Proof.
      intros lf q acts H. induction H as [|a q acts acts' Ha Hq IH]; intros tab y nf cur Hlf HK Hc.
      - cbn [qtab fold_left known_end q_okb forallb]. ands; auto; [discriminate|]. intros _. exists nf, cur. cbn [do_qacts qlang]. ands; auto; [intros [H|H]; auto|]. intros c. tauto.
      - destruct Ha as [rs r na [HL [b [Hb HN]]]]. cbn [qa_re qa_refs].
        assert (E1: qtab (map ref_act rs ++ [QNfa na; QAtom]) tab = tab_add (alabs na) tab) by (rewrite qtab_app, qtab_refs; reflexivity).
        rewrite qtab_app, E1 in Hlf, HK |- *. destruct (qtab_spec acts' (tab_add (alabs na) tab)) as [x [EX _]].
        destruct (tab_add_spec (alabs na) tab) as [x0 [E0 [_ [I0 L0]]]].
        assert (I1: forall s, In s (alabs na) -> tab_id (tab_add (alabs na) tab ++ x ++ y) s = lf s).
        { intros s Hs. rewrite app_assoc, <- EX. symmetry. apply Hlf. rewrite EX. apply in_or_app. left; auto. }
        assert (E2: length (tab_add (alabs na) tab) = known1 (length tab) r).
        { rewrite (L0 (x ++ y)). unfold known1. rewrite <- HL. f_equal. f_equal. apply map_ext_in. auto. }
        assert (HK1: known1 (length tab) r <= K) by (rewrite EX, app_length, E2 in HK; lia).
        cbn [known_end q_okb forallb qa_re qa_refs qlang]. rewrite <- E2.
        split; [|rewrite <- app_assoc, do_refs; destruct (forallb ref_okb rs) eqn:ER; cbn [andb]; [|split; [auto|discriminate]]].
        { destruct (IH (tab_add (alabs na) tab) y nf cur) as [Z _]; auto. }
        cbn [app do_qacts do_qact obind q_tab q_states q_nfa q_cur].
        rewrite (do_acts_ins na tab b_init (x ++ y)). 
        assert (EG: ofold (do_act (tab_id (tab_add (alabs na) tab ++ x ++ y))) na b_init = Some b).
        { rewrite <- Hb. apply do_acts_ext. auto. }
        rewrite EG. cbn [obind fst snd]. rewrite HN. cbn [obind do_qact q_tab q_states q_nfa q_cur].
        destruct (finish_one cur (mk_atom (found rs) (nfa_of r) (length (tab_add (alabs na) tab))) Hc) as [C [EC [OC LC]]].
        { unfold atom_ok. cbn [at_nfa at_nlab at_states]. rewrite E2. ands; [apply nfa_of_wf|apply nfa_of_syms_lt; apply known1_ge| |exact HK1].
          intros s Hs. apply found_In in Hs. destruct Hs as [r0 [_ Hs]]. apply Hsl in Hs. exact Hs. }
        rewrite EC. cbn [obind].
        destruct (IH (tab_add (alabs na) tab) y (nfa_of r) (Some C)) as [_ [Z1 Z2]]; auto.
        split; [exact Z1|]. intros Hok. destruct (Z2 Hok) as [nf' [cur' [F1 [F2 [F3 F4]]]]]. exists nf', cur'. split; [exact F1|]. split; [exact F2|].
        split. { intros _. apply F3. left. discriminate. }
        intros c. rewrite F4. cbn [cur_lang]. rewrite LC. unfold atom_lang. cbn [at_states at_nfa at_nlab]. tauto.
    Qed.
  End Cur.

  Definition act_okb (a : qact) : bool :=
    match a with QState s => match sl s with SFound _ => true | _ => false end | QString s => match sl s with SThrow => false | _ => true end | _ => true end.
  Lemma q_okb_acts : forall lf q acts, query_acts lf q acts -> forallb act_okb acts = q_okb q.
  Proof.
    intros lf q acts H. induction H as [|a q acts acts' Ha Hq IH]; auto. cbn [q_okb forallb]. rewrite forallb_app, IH. unfold q_okb. f_equal. destruct Ha as [rs r na Hn]. cbn [qa_refs].
    rewrite forallb_app. cbn [forallb act_okb andb]. rewrite andb_true_r. clear. induction rs as [|r rs IH]; auto. cbn [map forallb]. rewrite IH. f_equal.
    unfold ref_act, ref_okb. destruct (sr_quoted r); cbn; destruct (sl (sr_name r)); auto.
  Qed.
  Definition refs_ok (q : list qatom) : Prop := forall a r, In a q -> In r (qa_refs a) ->
    (exists id, sl (sr_name r) = SFound id) \/ (sr_quoted r = true /\ sl (sr_name r) = SUnknown).
  Lemma q_okb_ok : forall q, q_okb q = true <-> refs_ok q.
  Proof.
    intros q. unfold q_okb, refs_ok. rewrite forallb_forall. split.
    - intros H a r Ha Hr. specialize (H a Ha). rewrite forallb_forall in H. specialize (H r Hr). unfold ref_okb in H. destruct (sl (sr_name r)) as [id| |]; [left; eauto|right; auto|discriminate].
    - intros H a Ha. apply forallb_forall. intros r Hr. unfold ref_okb. destruct (H a r Ha Hr) as [[id E]|[E1 E2]]; [rewrite E|rewrite E2]; auto.
  Qed.
  Lemma known_end_last : forall q k, q <> [] -> last (known k q) 0 = known_end k q.
  Proof. induction q as [|a q IH]; intros k H; [congruence|]. cbn [known known_end]. destruct q as [|b q]; auto. rewrite <- IH by discriminate. reflexivity. Qed.
  Lemma qlang_configs : forall q k c, Forall (fun a => rproper (qa_re a)) q -> q_configs (fun n s => sl n = SFound s) k q c -> qlang k q c.
  Proof.
    induction q as [|a q IH]; intros k c PR [i [b [m [H1 [H2 [[r [Hr Hs]] [H3 H4]]]]]]]; [destruct i; discriminate|]. inversion PR as [|a' q' PA PQ]; subst. destruct i as [|i].
    - cbn [nth_error known] in H1, H2. injection H1 as <-. injection H2 as <-. left. ands; auto; [apply found_In; eauto|apply nfa_of_complete; auto].
    - right. apply IH; auto. exists i, b, m. ands; auto. eauto.
  Qed.
  Lemma qlang_exact : forall q k c, Forall (fun a => rproper (qa_re a)) q -> (forall a, In a q -> rsafe (qa_re a) = true) -> qlang k q c -> q_configs (fun n s => sl n = SFound s) k q c.
  Proof.
    induction q as [|a q IH]; intros k c PR SF H; [destruct H|]. inversion PR as [|a' q' PA PQ]; subst. destruct H as [[H1 [H2 H3]]|H].
    - apply found_In in H1. exists 0, a, (known1 k (qa_re a)). ands; auto. apply nfa_of_lang; auto. apply SF. left; auto.
    - apply IH in H; auto; [|intros b Hb; apply SF; right; auto]. destruct H as [i [b [m H]]]. exists (S i), b, m. exact H.
  Qed.
  Lemma numbering_tab : forall lf tab s, NoDup tab -> numbering lf tab -> In s tab -> lf s = tab_id tab s.
  Proof. intros lf tab s ND [H _] Hs. apply In_nth_error in Hs. destruct Hs as [i Hi]. rewrite (H i s Hi). symmetry. apply tab_id_nth; auto. Qed.

  Theorem parse_query_spec : forall tab s, NoDup tab ->
    (parse_query addr ord P sl tab s = Some QThrow /\ forall lf q, gquery lf q s -> ~ refs_ok q) \/
    exists A tab', parse_query addr ord P sl tab s = Some (QGo (A, tab')) /\ (exists new, tab' = tab ++ new) /\ NoDup tab' /\ (exists lf q, numbering lf tab' /\ gquery lf q s) /\
      post_ok (with_nlab P (length tab')) A /\
      forall lf q, numbering lf tab' -> gquery lf q s -> refs_ok q /\ length tab' = last (known (length tab) q) 0 /\
        (forall c, q_configs (fun n s => sl n = SFound s) (length tab) q c -> aut_lang (pd_n P) A c) /\
        ((forall a, In a q -> rsafe (qa_re a) = true) -> forall c, aut_lang (pd_n P) A c <-> q_configs (fun n s => sl n = SFound s) (length tab) q c).
  Proof.
    intros tab s ND. unfold parse_query. destruct (p_query s) as [rest acts| |] eqn:E.
    2,3: left; split; auto; intros lf q Hq _; destruct (p_query_complete lf s q Hq) as [acts [E' _]]; congruence.
    set (tab' := qtab acts tab). destruct (qtab_spec acts tab) as [new [EN NN]]. fold tab' in EN, NN. specialize (NN ND).
    assert (G: forall lf q, numbering lf tab' -> gquery lf q s -> query_acts lf q acts /\ forall x, In x tab' -> lf x = tab_id (tab' ++ []) x).
    { intros lf q Hn Hq. destruct (p_query_complete lf s q Hq) as [acts' [E' Ha]]. assert (acts' = acts) by congruence. subst acts'. split; auto.
      intros x Hx. rewrite app_nil_r. apply numbering_tab; auto. }
    destruct (p_query_sound (tab_id tab') s rest acts E) as [q [Hq Ha]]. destruct (gquery_proper _ _ _ Hq) as [PR NE].
    destruct (do_query (length tab') (tab_id tab') q acts Ha tab [] (nfa_unit true) None) as [D1 [D2 D3]]; auto; [intros; rewrite app_nil_r; auto|exact Logic.I|]. fold tab' in D3.
    destruct (q_okb q) eqn:EO.
    - right. destruct (D3 eq_refl) as [nf' [cur' [F1 [F2 [F3 F4]]]]]. rewrite F1. cbn [obind q_cur q_tab]. destruct cur' as [A|]; [|exfalso; apply F3; auto].
      exists A, tab'. ands; auto; [eauto|exists (tab_id tab'), q; split; auto; apply tab_id_numbering; auto|].
      intros lf q' Hn' Hq'. destruct (G lf q' Hn' Hq') as [Ha' Hl']. destruct (gquery_proper _ _ _ Hq') as [PR' NE'].
      destruct (do_query (length tab') lf q' acts Ha' tab [] (nfa_unit true) None) as [D1' [D2' D3']]; auto; [exact Logic.I|]. fold tab' in D1', D3'.
      assert (EO': q_okb q' = true) by (rewrite <- (q_okb_acts lf q' acts Ha'), (q_okb_acts _ q acts Ha); auto).
      destruct (D3' EO') as [nf2 [cur2 [F1' [F2' [F3' F4']]]]]. rewrite F1 in F1'. injection F1' as <- <-. cbn [cur_lang] in F4'.
      ands; [apply q_okb_ok; auto|rewrite known_end_last; auto| |].
      + intros c Hc. apply F4'. right. apply qlang_configs; auto.
      + intros SF c. rewrite F4'. split; [intros [[]|H]; apply qlang_exact; auto|]. intros Hc. right. apply qlang_configs; auto.
    - left. rewrite (D2 eq_refl). cbn [obind]. split; auto. intros lf q' Hq' OK. apply q_okb_ok in OK. destruct (p_query_complete lf s q' Hq') as [acts' [E' Ha']].
      assert (acts' = acts) by congruence. subst acts'. rewrite <- (q_okb_acts lf q' acts Ha'), (q_okb_acts _ q acts Ha) in OK. congruence.
  Qed.
End Build.
