(** C71: the texts of a query. *)
From Coq Require Import Ascii String List Arith Lia Bool ZArith Permutation.
From Verif Require Import Base BaseFacts Spec SpecFacts RegexSpec GrammarSpec QTextSpec PdaModel PdaProof AutModel AutProof PreStarModel PreStarProof PreStarLang
  PostStarModel PostStarProof PostStarLang SolverModel SolverProof ProductModel ProductProof VerdictModel VerdictProof
  NfaModel NfaProof RegexProof ParserModel ParserProof ConstructProof AtomModel AtomProof QTextModel QTextProof QBuildProof ExHelp PropsSaturation PropsSolver PropsNfa.
Import ListNotations.
Local Open Scope list_scope.

(** The states of a text: each is found, or it is quoted and unknown. *)
Definition states_ok (sl : list ascii -> slook) (q : list qatom) : Prop := forall a r, In a q -> In r (qa_refs a) ->
  (exists id, sl (sr_name r) = SFound id) \/ (sr_quoted r = true /\ sl (sr_name r) = SUnknown).
Definition names_of (sl : list ascii -> slook) (n : list ascii) (s : nat) : Prop := sl n = SFound s.

Theorem C71_query_text : forall addr ord P sl tab s, (forall i j, addr i = addr j -> i = j) -> (forall q l, Permutation (ord q l) l) ->
  (forall n id, sl n = SFound id -> id < pd_n P) -> NoDup tab ->
  (parse_query addr ord P sl tab s = Some QThrow /\ forall lf q, gquery lf q s -> ~ states_ok sl q) \/
  exists A tab', parse_query addr ord P sl tab s = Some (QGo (A, tab')) /\ (exists new, tab' = tab ++ new) /\ NoDup tab' /\
    (exists lf q, numbering lf tab' /\ gquery lf q s) /\ pre_ok (with_nlab P (List.length tab')) A /\ no_in (with_nlab P (List.length tab')) A /\
    forall lf q, numbering lf tab' -> gquery lf q s -> states_ok sl q /\ List.length tab' = last (known (List.length tab) q) 0 /\
      (forall c, q_configs (names_of sl) (List.length tab) q c -> aut_lang (pd_n P) A c) /\
      ((forall a, In a q -> rsafe (qa_re a) = true) -> forall c, aut_lang (pd_n P) A c <-> q_configs (names_of sl) (List.length tab) q c).
Proof.
  intros addr ord P sl tab s Hi Ho Hs ND. destruct (parse_query_spec addr Hi ord Ho P sl Hs tab s ND) as [H|[A [tab' [E [N [ND' [X [O L]]]]]]]]; [left; exact H|right].
  exists A, tab'. apply post_ok_pre_ok in O. destruct O. ands; auto.
Qed.
Print Assumptions C71_query_text.

(** A text is accepted exactly if it is in the grammar and its states are known, and never undefined. *)
Theorem C71_accepted : forall addr ord P sl tab s, (forall i j, addr i = addr j -> i = j) -> (forall q l, Permutation (ord q l) l) ->
  (forall n id, sl n = SFound id -> id < pd_n P) -> NoDup tab ->
  ((exists r, parse_query addr ord P sl tab s = Some (QGo r)) <-> exists lf q, gquery lf q s /\ states_ok sl q) /\ parse_query addr ord P sl tab s <> None.
Proof.
  intros addr ord P sl tab s Hi Ho Hs ND. destruct (C71_query_text addr ord P sl tab s Hi Ho Hs ND) as [[E H]|[A [tab' [E [N [ND' [[lf [q [X Y]]] [O [_ L]]]]]]]]]; rewrite E; (split; [|discriminate]).
  - split; [intros [r Hr]; discriminate|]. intros [lf [q [H1 H2]]]. exfalso. eapply H; eauto.
  - split; [|eauto]. intros _. exists lf, q. split; auto. apply (L lf q X Y).
Qed.
Print Assumptions C71_accepted.

Lemma numbering_prefix : forall lf a b, NoDup (a ++ b) -> numbering lf (a ++ b) -> numbering lf a.
Proof.
  intros lf a b ND [H1 H2]. split.
  - intros i t H. apply H1. rewrite nth_error_app1; auto. apply nth_error_Some. congruence.
  - intros t Ht. destruct (in_dec (list_eq_dec ascii_dec) t (a ++ b)) as [Hb|Hb].
    + apply In_nth_error in Hb. destruct Hb as [i Hi]. rewrite (H1 i t Hi). destruct (le_lt_dec (List.length a) i); auto. exfalso. apply Ht. rewrite nth_error_app1 in Hi; auto. eapply nth_error_In; eauto.
    + apply H2 in Hb. rewrite app_length in Hb. lia.
Qed.
Lemma with_nlab_build : forall n m us, with_nlab (build n us) m = build m us.
Proof.
  intros n m us. unfold build.
  assert (G: forall us P, with_nlab (fold_left add_urule us P) m = fold_left add_urule us (with_nlab P m)); [|rewrite G; auto].
  clear. induction us as [|u us IH]; intros P; cbn [fold_left]; auto. rewrite IH. f_equal. unfold add_urule, add_rule_impl, add_state, with_nlab, pd_n. cbn [pd_states pd_nlab]. destruct (Nat.leb _ _); reflexivity.
Qed.

(** A query of two texts: the first one is read for the labels of the PDA, the second one for these and the new ones. The three engines
    decide whether a run leads from a configuration of the first text to one of the second text. *)
Theorem C71_verdict : forall addr ord sl tab us s1 s2 A1 tab1 A2 tab2, (forall i j, addr i = addr j -> i = j) -> (forall q l, Permutation (ord q l) l) ->
  (forall n id, sl n = SFound id -> id < pd_n (build (List.length tab) us)) -> NoDup tab -> Forall (wf_urule (List.length tab)) us -> lookup_safe us ->
  parse_query addr ord (build (List.length tab) us) sl tab s1 = Some (QGo (A1, tab1)) -> parse_query addr ord (build (List.length tab1) us) sl tab1 s2 = Some (QGo (A2, tab2)) ->
  let PD := build (List.length tab2) us in
  exists I, new_inst PD ord A1 A2 = Some I /\ (exists lf q1 q2, numbering lf tab2 /\ gquery lf q1 s1 /\ gquery lf q2 s2) /\
  forall lf q1 q2, numbering lf tab2 -> gquery lf q1 s1 -> gquery lf q2 s2 -> (forall a, In a (q1 ++ q2) -> rsafe (qa_re a) = true) ->
    let Q := fun r : bool * inst => fst r = true <->
      can_reach (user_rules (List.length tab2) us) (q_configs (names_of sl) (List.length tab) q1) (q_configs (names_of sl) (List.length tab1) q2) in
    answers (fun fuel => pre_star_accepts PD fuel I) Q /\ answers (fun fuel => post_star_accepts PD fuel I) Q /\ answers (fun fuel => dual_search_accepts PD fuel I) Q.
Proof.
  intros addr ord sl tab us s1 s2 A1 tab1 A2 tab2 Hi Ho Hs ND W LS E1 E2 PD.
  assert (EN: forall n, pd_n (build n us) = pd_n PD). { intros n. unfold PD. rewrite <- (with_nlab_build n (List.length tab2)). reflexivity. }
  destruct (parse_query_spec addr Hi ord Ho _ sl Hs tab s1 ND) as [[E _]|[A [t1 [E [[n1 X1] [ND1 [_ [O1 L1]]]]]]]]; rewrite E1 in E; [discriminate|]. injection E as <- <-.
  assert (Hs1: forall n id, sl n = SFound id -> id < pd_n (build (List.length tab1) us)) by (intros n id H; apply Hs in H; rewrite EN in *; auto).
  destruct (parse_query_spec addr Hi ord Ho _ sl Hs1 tab1 s2 ND1) as [[E _]|[A [t2 [E [[n2 X2] [ND2 [[lf [q2 [Y1 Y2]]] [O2 L2]]]]]]]]; rewrite E2 in E; [discriminate|]. injection E as <- <-.
  rewrite with_nlab_build in O1, O2. fold PD in O2.
  assert (LE: List.length tab <= List.length tab2) by (rewrite X2, X1, !app_length; lia). assert (LE1: List.length tab1 <= List.length tab2) by (rewrite X2, app_length; lia).
  assert (O1': post_ok PD A1). { apply (post_ok_nlab PD (List.length tab1)). { unfold PD. rewrite <- (with_nlab_build 0 (List.length tab2)). exact LE1. } unfold PD. rewrite with_nlab_build. exact O1. }
  assert (W2: Forall (wf_urule (List.length tab2)) us).
  { eapply Forall_impl; [|exact W]. intros u [W1 [W3 W4]]. unfold wf_urule. ands; auto; [intros l Hl; specialize (W3 l Hl); lia|intros Hl; specialize (W4 Hl); lia]. }
  apply post_ok_pre_ok in O1', O2. destruct O1' as [P1 I1], O2 as [P2 I2].
  assert (NI: exists I, new_inst PD ord A1 A2 = Some I).
  { unfold new_inst, pr_new. rewrite (proj2 (Nat.leb_le _ _) (po_n _ _ P1)), (proj2 (Nat.leb_le _ _) (po_n _ _ P2)). cbn. eauto. }
  destruct NI as [I HI]. exists I. split; [exact HI|]. split.
  { assert (G: exists q1, gquery lf q1 s1).
    { unfold parse_query in E1. destruct (p_query s1) as [rest acts| |] eqn:Ep; try discriminate. destruct (p_query_sound lf s1 rest acts Ep) as [q1 [G _]]. eauto. }
    destruct G as [q1 G]. exists lf, q1, q2. auto. }
  clear lf q2 Y1 Y2. intros lf q1 q2 Hn H1 H2 SF Q.
  assert (Hn1: numbering lf tab1) by (subst tab2; eapply numbering_prefix; eauto).
  destruct (L1 lf q1 Hn1 H1) as [_ [_ [_ K1]]]. destruct (L2 lf q2 Hn H2) as [_ [_ [_ K2]]].
  assert (K1' := K1 (fun a Ha => SF a (in_or_app _ _ _ (or_introl Ha)))). assert (K2' := K2 (fun a Ha => SF a (in_or_app _ _ _ (or_intror Ha)))). rewrite EN in K1', K2'.
  assert (M: forall f : nat -> option (option (bool * inst)), answers f (fun r => fst r = true <-> can_reach (user_rules (List.length tab2) us) (aut_lang (pd_n PD) A1) (aut_lang (pd_n PD) A2)) -> answers f Q).
  { intros f [F1 F2]. split; auto. intros fuel. destruct (F1 fuel) as [K|[r [K Hr]]]; auto. right. exists r. split; auto. unfold Q. rewrite Hr.
    unfold can_reach. split; intros [c1 [c2 [Z1 [Z2 Z3]]]]; exists c1, c2; ands; auto; try (apply K1' || apply K2'); auto. }
  split; [|split]; apply M.
  - eapply C08_pre_star_verdict; eauto; [eapply pre_ok_wf; eauto|apply (po_n _ _ P1)].
  - eapply C09_post_star_verdict; eauto; [eapply pre_ok_wf; eauto|apply (po_n _ _ P2)].
  - eapply C10_dual_search_verdict; eauto.
Qed.
Print Assumptions C71_verdict.

(** ** Concrete queries *)
(** States p and q; labels A and B; p goes to q with any label, q pops A. *)
Definition qt_names : list (list ascii) := [txt "p"; txt "q"].
Definition qt_tab : list (list ascii) := [txt "A"; txt "B"].
Definition qt_rules : list urule := [mk_urule 0 (mk_rule 1 NOOP 0 0%Z) true []; mk_urule 1 (mk_rule 1 POP 0 0%Z) false [0]].
Definition qt_run (s1 s2 : string) : option (qres (list (list ascii) * (option (option bool) * option (option bool) * option (option bool)))) :=
  r1 <- parse_query ex_addr ex_ord (build 2 qt_rules) (sl_names qt_names) qt_tab (txt s1) ;;
  match r1 with
  | QThrow => Some QThrow
  | QGo (A1, tab1) =>
      r2 <- parse_query ex_addr ex_ord (build (List.length tab1) qt_rules) (sl_names qt_names) tab1 (txt s2) ;;
      match r2 with
      | QThrow => Some QThrow
      | QGo (A2, tab2) =>
          let PD := build (List.length tab2) qt_rules in
          I <- new_inst PD ex_ord A1 A2 ;;
          Some (QGo (tab2, (verdict (pre_star_accepts PD 100 I), verdict (post_star_accepts PD 100 I), verdict (dual_search_accepts PD 100 I))))
      end
  end.
Definition yes3 : option (option bool) * option (option bool) * option (option bool) := (done true, done true, done true).
Definition no3 : option (option bool) * option (option bool) * option (option bool) := (done false, done false, done false).
Example C71_hypotheses : (forall n id, sl_names qt_names n = SFound id -> id < pd_n (build (List.length qt_tab) qt_rules)) /\ NoDup qt_tab /\
  Forall (wf_urule (List.length qt_tab)) qt_rules /\ lookup_safe qt_rules.
Proof.
  ands; [|repeat constructor; cbn; intuition discriminate|apply wf_urulesb_ok; reflexivity|apply lookup_safeb_ok; reflexivity].
  intros n id H. unfold sl_names in H. destruct (Nat.ltb (tab_id qt_names n) (List.length qt_names)) eqn:E; [|discriminate]. injection H as <-. apply Nat.ltb_lt in E. exact E.
Qed.
Example C71_runs :
  qt_run "< [p, ""q""] , [A] [B]? >" "<q,>" = Some (QGo (qt_tab, yes3)) /\
  qt_run "< p, [B]+ >" " # final
    <q,> | <[""p"" , q], [A]>  # end" = Some (QGo (qt_tab, no3)) /\
  qt_run "<p, [C] [^A]>" "<q, [C][B] | [D]>" = Some (QGo ([txt "A"; txt "B"; txt "C"; txt "D"], yes3)) /\
  qt_run "<r, .>" "<q, .>" = Some QThrow /\ qt_run "<p .>" "<q, .>" = Some QThrow /\ qt_run "<p, .> |" "<q, .>" = Some QThrow /\
  qt_run "<[p q], .>" "<q, .>" = Some QThrow /\ qt_run "" "<q, .>" = Some QThrow /\ qt_run "<""p, .>" "<q, .>" = Some QThrow.
Proof. ands; vm_compute; reflexivity. Qed.

(** A quoted name that is no state is accepted and ignored; the same name without quotes is an error. *)
Theorem C71_quoted_state_refuted : exists A, parse_query ex_addr ex_ord (build 2 qt_rules) (sl_names qt_names) qt_tab (txt "<""r"", .>") = Some (QGo (A, qt_tab)) /\
  (forall c, ~ aut_lang 2 A c) /\ sl_names qt_names (txt "r") = SUnknown /\
  parse_query ex_addr ex_ord (build 2 qt_rules) (sl_names qt_names) qt_tab (txt "<r, .>") = Some QThrow.
Proof.
  eexists. split; [vm_compute; reflexivity|]. ands; [|vm_compute; reflexivity|vm_compute; reflexivity].
  intros [p w] [Hp [f [Hr Hf]]]. cbn [fst snd] in *.
  inversion Hr as [q E1 E2 E3|q l q1 w0 q2 He Hq|q q1 w0 q2 He Hq]; subst; [|destruct He|destruct He].
  cbn in Hp, Hf. destruct f as [|[|f]]; cbn in Hf; try lia; discriminate.
Qed.
Print Assumptions C71_quoted_state_refuted.

(** If states are numbers, a quoted name is read by std::stoul, which ignores what follows the digits and wraps negative numbers. *)
Theorem C71_number_state_refuted :
  parse_query ex_addr ex_ord (build 2 qt_rules) (sl_nums 2) qt_tab (txt "<""1x"", [A]>") = parse_query ex_addr ex_ord (build 2 qt_rules) (sl_nums 2) qt_tab (txt "<1, [A]>") /\
  parse_query ex_addr ex_ord (build 2 qt_rules) (sl_nums 2) qt_tab (txt "<""-18446744073709551615"", [A]>") =
    parse_query ex_addr ex_ord (build 2 qt_rules) (sl_nums 2) qt_tab (txt "<1, [A]>") /\
  (exists A, parse_query ex_addr ex_ord (build 2 qt_rules) (sl_nums 2) qt_tab (txt "<1, [A]>") = Some (QGo (A, qt_tab)) /\ aut_lang 2 A (1, [0])) /\
  parse_query ex_addr ex_ord (build 2 qt_rules) (sl_nums 2) qt_tab (txt "<""x1"", [A]>") = Some QThrow.
Proof.
  ands; [vm_compute; reflexivity|vm_compute; reflexivity| |vm_compute; reflexivity]. eexists. split; [vm_compute; reflexivity|].
  split; [cbn; lia|]. exists 2. split; [|reflexivity]. apply ap_lab with (q1 := 2); [|constructor]. cbn; auto.
Qed.
Print Assumptions C71_number_state_refuted.

(** A label that only the second text mentions is not matched by [.] in the first text, although the solver runs with it. *)
Theorem C71_late_label_refuted : let tab2 := [txt "A"; txt "B"; txt "C"] in
  qt_run "<p,.>" "<q,[C]>" = Some (QGo (tab2, no3)) /\
  exists lf q1 q2, numbering lf tab2 /\ gquery lf q1 (txt "<p,.>") /\ gquery lf q2 (txt "<q,[C]>") /\ (forall a, In a (q1 ++ q2) -> rsafe (qa_re a) = true) /\
    can_reach (user_rules 3 qt_rules) (q_configs (names_of (sl_names qt_names)) 3 q1) (q_configs (names_of (sl_names qt_names)) 3 q2).
Proof.
  intros tab2. split; [vm_compute; reflexivity|].
  exists (tab_id tab2), [mk_qatom [mk_sref false (txt "p")] (RSet true [])], [mk_qatom [mk_sref false (txt "q")] (RSet false [2])]. ands.
  - apply tab_id_numbering. repeat constructor; cbn; intuition discriminate.
  - change (txt "<p,.>") with ([] ++ ("<"%char :: [] ++ txt "p" ++ [] ++ ","%char :: ([] ++ ["."%char] ++ []) ++ [">"%char]) ++ []).
    constructor; [apply ign_nil| |apply ie_ign, ign_nil]. apply gas_one. constructor; [apply ign_nil| |apply ign_nil|].
    + apply gi_one, gst_ident. split; [repeat constructor; unfold ident_char; cbn; lia|unfold digit_char; cbn; lia].
    + apply gb_expr; [apply ign_nil| |apply ign_nil]. apply ge_one, gs_one, gu_value, gv_any.
  - change (txt "<q,[C]>") with ([] ++ ("<"%char :: [] ++ txt "q" ++ [] ++ ","%char :: ([] ++ ("["%char :: txt "C" ++ ["]"%char]) ++ []) ++ [">"%char]) ++ []).
    constructor; [apply ign_nil| |apply ie_ign, ign_nil]. apply gas_one. constructor; [apply ign_nil| |apply ign_nil|].
    + apply gi_one, gst_ident. split; [repeat constructor; unfold ident_char; cbn; lia|unfold digit_char; cbn; lia].
    + apply gb_expr; [apply ign_nil| |apply ign_nil]. apply ge_one, gs_one, gu_value, gv_set. change 2 with (tab_id tab2 (txt "C")). apply gl_one. split; [discriminate|].
      repeat constructor; unfold ident_char; cbn; lia.
  - intros a [<-|[<-|[]]]; reflexivity.
  - exists (0, [2]), (1, [2]). ands.
    + exists 0. eexists. exists 3. ands; [reflexivity|reflexivity| | |repeat constructor].
      * eexists. split; [left; reflexivity|reflexivity].
      * apply rm_set. intros [].
    + exists 0. eexists. exists 3. ands; [reflexivity|reflexivity| | |repeat constructor].
      * eexists. split; [left; reflexivity|reflexivity].
      * apply rm_set. cbn; auto.
    + eapply reach_step; [|apply reach_refl]. exists (mk_srule 0 2 1 SNoop). split; [|apply (step_by_intro (mk_srule 0 2 1 SNoop) [])].
      eexists. split; [left; reflexivity|]. cbn. ands; auto.
Qed.
Print Assumptions C71_late_label_refuted.
