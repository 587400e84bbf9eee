(** C23-C28, C46: regular expressions, the automata built from them, and the query texts. *)
From Coq Require Import Ascii String List Arith Lia Bool ZArith Permutation Sorted.
From Verif Require Import Base BaseFacts Spec SpecFacts RegexSpec GrammarSpec PdaModel PdaProof AutModel AutProof PreStarModel PreStarProof PreStarLang
  PostStarModel PostStarProof PostStarLang SolverModel SolverProof ProductModel ProductProof VerdictModel VerdictProof
  NfaModel NfaProof RegexProof ParserModel ParserProof ConstructProof AtomModel AtomProof ExHelp PropsSaturation PropsSolver.
Import ListNotations.
Local Open Scope list_scope.

Definition txt (s : string) : list ascii := list_ascii_of_string s.
(** Label names of the examples: a, b and everything else. *)
Definition ex_lf (s : list ascii) : nat :=
  match s with [c] => if Ascii.eqb c "a" then 0 else if Ascii.eqb c "b" then 1 else 2 | _ => 2 end.
Definition ex_addr (i : nat) : nat := i.
Lemma ex_addr_inj : forall i j, ex_addr i = ex_addr j -> i = j.
Proof. auto. Qed.

(** ** C23 *)
(** One or more words of a language. *)
Definition lplus (L : list nat -> Prop) (w : list nat) : Prop := exists ws, ws <> [] /\ Forall L ws /\ w = concat ws.
Lemma lstar_concat : forall L w, lstar L w <-> exists ws, Forall L ws /\ w = concat ws.
Proof.
  intros L w. split.
  - intros H. induction H as [|w1 w2 H1 H [ws [I1 ->]]]; [exists []; auto|]. exists (w1 :: ws). auto.
  - intros [ws [H ->]]. induction H; cbn; constructor; auto.
Qed.

Theorem C23_concat : forall a b, nfa_wf a -> nfa_wf b -> nfa_wf (nfa_concat a b) /\
  forall w, nfa_lang (nfa_concat a b) w <-> exists w1 w2, w = w1 ++ w2 /\ nfa_lang a w1 /\ nfa_lang b w2.
Proof. intros a b Wa Wb. split; [apply concat_wf; auto|apply concat_lang; auto]. Qed.
Print Assumptions C23_concat.
Theorem C23_or : forall a b, nfa_wf a -> nfa_wf b -> nfa_wf (nfa_or a b) /\
  forall w, nfa_lang (nfa_or a b) w <-> nfa_lang a w \/ nfa_lang b w.
Proof. intros a b Wa Wb. split; [apply or_wf; auto|apply or_lang; auto]. Qed.
Print Assumptions C23_or.
Theorem C23_plus : forall a, nfa_wf a -> nfa_wf (nfa_plus a) /\ forall w, nfa_lang (nfa_plus a) w <-> lplus (nfa_lang a) w.
Proof.
  intros a W. split; [apply plus_wf; auto|]. intros w. rewrite plus_lang; auto. split.
  - intros [w1 [w2 [-> [H1 H2]]]]. apply lstar_concat in H2. destruct H2 as [ws [H2 ->]]. exists (w1 :: ws). ands; auto. discriminate.
  - intros [[|w1 ws] [H1 [H2 ->]]]; [congruence|]. inversion H2; subst. exists w1, (concat ws). ands; auto. apply lstar_concat. eauto.
Qed.
Print Assumptions C23_plus.
(** The atoms: a set of labels (not empty unless negated) and the empty expression. *)
Theorem C23_atoms : (forall neg ls, neg = true \/ ls <> [] -> nfa_wf (nfa_set neg ls) /\
    forall w, nfa_lang (nfa_set neg ls) w <-> exists x, w = [x] /\ if neg then ~ In x ls else In x ls) /\
  nfa_wf (nfa_unit true) /\ forall w, nfa_lang (nfa_unit true) w <-> w = [].
Proof.
  split; [|split; [apply unit_wf|apply unit_lang]]. intros neg ls H. split; [apply (nfa_of_wf (RSet neg ls))|]. intros w. apply set_lang; auto.
Qed.
Print Assumptions C23_atoms.
(** Every expression without ? and * gets the right automaton, whatever the nesting. *)
Fixpoint no_opt (r : regex) : bool :=
  match r with REps | RSet _ _ => true | RCat a b | RAlt a b => no_opt a && no_opt b | RPlus a => no_opt a | ROpt _ | RStar _ => false end.
Theorem C23_expressions : forall r, no_opt r = true -> rproper r -> forall w, nfa_lang (nfa_of r) w <-> rmatch r w.
Proof.
  intros r H. apply nfa_of_lang. induction r; cbn in *; auto; try discriminate; apply andb_true_iff in H; destruct H; rewrite IHr1, IHr2; auto.
Qed.
Print Assumptions C23_expressions.

(** ([a]+ | [^a] .)+ matches a a 3 1 and not the empty word. *)
Fixpoint nullable (r : regex) : bool :=
  match r with REps | ROpt _ | RStar _ => true | RSet _ _ => false | RCat a b => nullable a && nullable b | RAlt a b => nullable a || nullable b | RPlus a => nullable a end.
Lemma nullable_ok : forall r w, rmatch r w -> w = [] -> nullable r = true.
Proof.
  intros r w H. induction H; intros E; cbn; auto; try discriminate; try (rewrite IHrmatch; auto; apply orb_true_r).
  - apply app_eq_nil in E. destruct E. rewrite IHrmatch1, IHrmatch2; auto.
  - apply app_eq_nil in E. destruct E. auto.
Qed.
Definition ex_re : regex := RPlus (RAlt (RPlus (RSet false [0])) (RCat (RSet true [0]) (RSet true []))).
Example C23_example : no_opt ex_re = true /\ rproper ex_re /\ nfa_lang (nfa_of ex_re) [0; 0; 3; 1] /\ ~ nfa_lang (nfa_of ex_re) [].
Proof.
  assert (A: no_opt ex_re = true) by reflexivity. assert (B: rproper ex_re) by (cbn; intuition discriminate). ands; auto.
  - apply C23_expressions; auto. unfold ex_re. change [0; 0; 3; 1] with ([0; 0] ++ [3; 1]). apply rm_plus2.
    + apply rm_alt1. change [0; 0] with ([0] ++ [0]). apply rm_plus2; [|apply rm_plus1]; apply rm_set; cbn; auto.
    + apply rm_plus1. apply rm_alt2. change [3; 1] with ([3] ++ [1]). apply rm_cat; apply rm_set; cbn; auto. intros [H|[]]; discriminate.
  - intros H. apply C23_expressions in H; auto. apply nullable_ok in H; auto. discriminate.
Qed.

(** ** C24 *)
(** What question_extend does exactly: besides the words of the automaton, every word that leads from an initial state back to
    an initial state is accepted. *)
Theorem C24_option_exact : forall a, nfa_wf a -> nfa_wf (nfa_question a) /\
  forall w, nfa_lang (nfa_question a) w <-> nfa_lang a w \/ exists i j, In i (n_init a) /\ In j (n_init a) /\ apath (sts_edges (n_states a)) i w j.
Proof. intros a W. split; [apply question_wf; auto|]. intros w. rewrite question_lang; auto. reflexivity. Qed.
Print Assumptions C24_option_exact.
(** The expressions built with ? and *: nothing is lost ... *)
Theorem C24_star_option_complete : forall r, rproper r -> forall w, rmatch r w -> nfa_lang (nfa_of r) w.
Proof. apply nfa_of_complete. Qed.
Print Assumptions C24_star_option_complete.
(** ... and the language is exact when ? and * are not applied to a sequence that begins with a repetition. Missing for the full
    property: the other expressions, for which it is false (C24_refuted). *)
Theorem C24_star_option_partial : forall r, rsafe r = true -> rproper r -> forall w, nfa_lang (nfa_of r) w <-> rmatch r w.
Proof. apply nfa_of_lang. Qed.
Print Assumptions C24_star_option_partial.

Definition ex_safe : regex := RStar (RAlt (RCat (ROpt (RSet false [0])) (RSet false [1])) (RPlus (RStar (RSet false [2])))).
Example C24_example : rsafe ex_safe = true /\ rproper ex_safe /\ rmatch ex_safe [0; 1; 2; 1].
Proof.
  ands; try reflexivity; try (cbn; intuition discriminate). unfold ex_safe. change [0; 1; 2; 1] with ([0; 1] ++ [2] ++ [1] ++ []).
  repeat (apply rm_star1 || apply rm_star0).
  - apply rm_alt1. change [0; 1] with ([0] ++ [1]). apply rm_cat; [apply rm_opt1|]; apply rm_set; cbn; auto.
  - apply rm_alt2. apply rm_plus1. change [2] with ([2] ++ []). apply rm_star1; [apply rm_set; cbn; auto|apply rm_star0].
  - apply rm_alt1. change [1] with ([] ++ [1]). apply rm_cat; [apply rm_opt0|apply rm_set; cbn; auto].
Qed.

(** ( [a]* [b] )? and ( [a]* [b] )* accept the word a, which neither expression matches. *)
Lemma ex_star_b : forall w, rmatch (RCat (RStar (RSet false [0])) (RSet false [1])) w -> exists v, w = v ++ [1].
Proof. intros w H. inversion H as [ | |a b w1 w2 H1 H2| | | | | | | | ]; subst. inversion H2 as [ |neg ls x K| | | | | | | | | ]; subst. destruct K as [<-|[]]. eauto. Qed.
Theorem C24_refuted : exists s1 s2 r1 r2 N1 N2 w, gfile ex_lf r1 s1 /\ gfile ex_lf r2 s2 /\ (exists e, r1 = ROpt e /\ r2 = RStar e) /\
  parse ex_lf s1 = Some (PNfa N1) /\ parse ex_lf s2 = Some (PNfa N2) /\
  nfa_lang N1 w /\ nfa_lang N2 w /\ ~ rmatch r1 w /\ ~ rmatch r2 w.
Proof.
  set (e := RCat (RStar (RSet false [0])) (RSet false [1])).
  assert (P1: parse ex_lf (txt "([a]*[b])?") = Some (PNfa (nfa_of (ROpt e)))) by (vm_compute; reflexivity).
  assert (P2: parse ex_lf (txt "([a]*[b])*") = Some (PNfa (nfa_of (RStar e)))) by (vm_compute; reflexivity).
  assert (G: gvalue ex_lf e (txt "([a]*[b])")).
  { change (txt "([a]*[b])") with ("("%char :: [] ++ ((("["%char :: ["a"%char] ++ ["]"%char]) ++ ["*"%char]) ++ [] ++ ("["%char :: ["b"%char] ++ ["]"%char])) ++ [] ++ [")"%char]).
    assert (L: forall c x, ident_char c -> ex_lf [c] = x -> glabels ex_lf [x] [c]) by (intros c x H <-; apply gl_one; split; [discriminate|auto]).
    apply gv_bracket; try apply ign_nil. apply ge_one. apply gs_cat; [|apply ign_nil|apply gs_one].
    - apply gu_star. apply gv_set. apply L; auto. unfold ident_char. cbn. lia.
    - apply gu_value. apply gv_set. apply L; auto. unfold ident_char. cbn. lia. }
  assert (SB: forall w, rmatch e w -> exists v, w = v ++ [1]) by exact ex_star_b.
  assert (NL: ~ rmatch e [0]) by (intros H; apply ex_star_b in H; destruct H as [[|x [|y v]] H]; discriminate).
  exists (txt "([a]*[b])?"), (txt "([a]*[b])*"), (ROpt e), (RStar e), (nfa_of (ROpt e)), (nfa_of (RStar e)), [0]. ands; auto.
  - change (txt "([a]*[b])?") with ([] ++ (txt "([a]*[b])" ++ ["?"%char]) ++ []). apply gf_expr; [apply ign_nil|apply ge_one, gs_one, gu_question; auto|apply ie_ign, ign_nil].
  - change (txt "([a]*[b])*") with ([] ++ (txt "([a]*[b])" ++ ["*"%char]) ++ []). apply gf_expr; [apply ign_nil|apply ge_one, gs_one, gu_star; auto|apply ie_ign, ign_nil].
  - exists e. auto.
  - exists 0, 0. ands; [left; auto| |exists (mk_nstate [mk_nedge false false [0] 1; eps_edge 2] true); auto].
    apply (ap_lab _ 0 0 1). { eexists _, _. split; [reflexivity|]. split; [left; reflexivity|]. split; [reflexivity|]. left; auto. }
    apply (ap_eps _ 1 0). { eexists _, _. split; [reflexivity|]. split; [left; reflexivity|]. split; reflexivity. } constructor.
  - exists 0, 0. ands; [left; auto| |exists (mk_nstate [mk_nedge false false [0] 1; eps_edge 2] true); auto].
    apply (ap_lab _ 0 0 1). { eexists _, _. split; [reflexivity|]. split; [left; reflexivity|]. split; [reflexivity|]. left; auto. }
    apply (ap_eps _ 1 0). { eexists _, _. split; [reflexivity|]. split; [left; reflexivity|]. split; reflexivity. } constructor.
  - intros H. inversion H; subst; auto.
  - clear P1 P2 G. intros H. remember (RStar e) as r eqn:Er. remember [0] as w eqn:Ew. destruct H; try discriminate. injection Er as ->. apply SB in H. destruct H as [v ->]. destruct v as [|x v]; cbn in Ew; [discriminate|]. injection Ew as _ Ew. destruct v; discriminate.
Qed.
Print Assumptions C24_refuted.

(** ** C46 *)
Theorem C46_negated_edges : forall P A from to ls, ssorted ls -> (forall x, In x ls -> x < pd_nlab P) -> from < a_size A -> NoDup (map fst (a_edges A)) ->
  exists A', add_edges P A from to true ls = Some A' /\
    forall q l q', aut_edges A' q l q' <-> aut_edges A q l q' \/ (q = from /\ q' = to /\ exists x, l = Some x /\ x < pd_nlab P /\ ~ In x ls).
Proof.
  intros P A from to ls Hs Hl Hf Hn. destruct (add_edges_spec P A from to true ls) as [A' [E H]]; auto.
  { intros _. clear -Hs. induction ls as [|x [|y ls] IH]; auto. apply ssorted_cons in Hs. destruct Hs as [H1 H2].
    change (negb (Nat.ltb y x) && is_sorted Nat.ltb (y :: ls) = true). rewrite IH; auto. specialize (H2 y (or_introl eq_refl)). rewrite andb_true_r. apply negb_true_iff. apply Nat.ltb_ge. lia. }
  exists A'. split; auto. destruct H as [_ [_ [_ H]]]. intros q l q'. rewrite H. unfold edge_labels. split.
  - intros [K|[-> [-> [x [-> K]]]]]; auto. right. rewrite neg_labels_In in K; auto; [|intros y Hy; specialize (Hl y Hy); lia]. destruct K as [K1 K2]. ands; auto. exists x. ands; auto; lia.
  - intros [K|[-> [-> [x [-> [K1 K2]]]]]]; auto. right. ands; auto. exists x. split; auto. apply neg_labels_In; auto; [intros y Hy; specialize (Hl y Hy); lia|split; auto; lia].
Qed.
Print Assumptions C46_negated_edges.
(** The list must have no duplicates and be sorted: a duplicate is skipped together with the next label, and an unsorted list
    violates the assertion. *)
Theorem C46_negated_edges_refuted :
  (exists P A ls A' x, is_sorted Nat.ltb ls = true /\ add_edges P A 0 0 true ls = Some A' /\ x < pd_nlab P /\ ~ In x ls /\ ~ aut_edges A' 0 (Some x) 0) /\
  (exists P A ls, NoDup ls /\ (forall x, In x ls -> x < pd_nlab P) /\ add_edges P A 0 0 true ls = None).
Proof.
  split.
  - exists (mk_pda [] 3), (mk_aut [false] [] (fun _ l => l)), [0; 0], (mk_aut [false] [(mk_edge 0 (Some 2) 0, TNull)] (fun _ l => l)), 1.
    ands; try reflexivity; cbn; auto; [intuition discriminate|]. intros H. unfold aut_edges, edges_of in H. cbn in H. destruct H as [H|[]]. discriminate.
  - exists (mk_pda [] 3), (mk_aut [false] [] (fun _ l => l)), [1; 0]. ands; try reflexivity; cbn; [repeat constructor; cbn; intuition discriminate|]. intros x [<-|[<-|[]]]; lia.
Qed.
Print Assumptions C46_negated_edges_refuted.
Example C46_example : option_map (fun A => map (fun e => e_lab (fst e)) (a_edges A)) (add_edges (mk_pda [] 6) (mk_aut [false; false] [] (fun _ l => l)) 1 0 true [0; 2; 3]) =
  Some [Some 5; Some 4; Some 1].
Proof. reflexivity. Qed.

(** ** C25 *)
Theorem C25_automaton_of_nfa : forall addr P ord N states, (forall i j, addr i = addr j -> i = j) -> nfa_wf N -> nfa_syms_lt N (pd_nlab P) ->
  (forall q l, Permutation (ord q l) l) -> ssorted states -> (forall s, In s states -> s < pd_n P) ->
  exists N' A, nfa_compile addr N = Some N' /\ aut_of_nfa addr P ord N' ne_sym states = Some A /\ pre_ok P A /\ no_in P A /\
    forall q w, aut_lang (pd_n P) A (q, w) <-> In q states /\ nfa_lang N w /\ Forall (fun x => x < pd_nlab P) w.
Proof.
  intros addr P ord N states Hi W Hs Ho Hss Hst. destruct (nfa_compile_spec addr N Hi W) as [N' [E [WN [HC [HE HL]]]]].
  destruct (aut_of_nfa_lang addr P ord N' states Hi WN HC) as [A [EA [OA LA]]]; auto.
  { intros q e x [st [E1 E2]] Hx. rewrite HE in E1. apply (Hs q e x); auto. exists st. auto. }
  exists N', A. apply post_ok_pre_ok in OA. destruct OA. ands; auto. intros q w. rewrite LA, HL. tauto.
Qed.
Print Assumptions C25_automaton_of_nfa.
(** The query automata of the command line tool: a list of atoms, each with its own expression and states (in any order, with
    repetitions), united. *)
Theorem C25_atoms : forall addr ord P l, (forall i j, addr i = addr j -> i = j) -> (forall q l, Permutation (ord q l) l) -> l <> [] -> Forall (atom_ok P) l ->
  exists A, build_atoms addr ord P l = Some A /\ pre_ok P A /\ no_in P A /\
    forall q w, aut_lang (pd_n P) A (q, w) <-> exists a, In a l /\ In q (at_states a) /\ nfa_lang (at_nfa a) w /\ Forall (fun x => x < at_nlab a) w.
Proof.
  intros addr ord P l Hi Ho Hn Hl. destruct (build_atoms_lang addr Hi ord Ho P l Hn Hl) as [A [E [OA LA]]]. exists A. apply post_ok_pre_ok in OA. destruct OA. ands; auto.
  intros q w. rewrite LA. reflexivity.
Qed.
Print Assumptions C25_atoms.

(** Three states and labels; the first atom is <[1,0,1], ([a]|.)[^b]?>, the second one <[2], empty>. *)
Definition ex_pda3 : pda := mk_pda (repeat (mk_pstate [] []) 3) 3.
Definition ex_atom1 : atom := mk_atom [1; 0; 1] (nfa_of (RCat (RAlt (RSet false [0]) (RSet true [])) (ROpt (RSet true [1])))) 3.
Definition ex_atom2 : atom := mk_atom [2] (nfa_of REps) 3.
Example C25_example : Forall (atom_ok ex_pda3) [ex_atom1; ex_atom2] /\
  exists A, build_atoms ex_addr ex_ord ex_pda3 [ex_atom1; ex_atom2] = Some A /\ aut_lang 3 A (1, [2; 0]) /\ ~ aut_lang 3 A (1, [2; 1]) /\ aut_lang 3 A (2, []).
Proof.
  assert (OK: Forall (atom_ok ex_pda3) [ex_atom1; ex_atom2]).
  { apply Forall_forall. intros a [<-|[<-|[]]]; (split; [apply nfa_of_wf|]); (split; [apply nfa_of_syms_lt; cbn; intuition lia|]); split; try (cbn; lia); intros s H; cbn in H; intuition subst; cbn; lia. }
  split; auto. destruct (C25_atoms ex_addr ex_ord ex_pda3 [ex_atom1; ex_atom2]) as [A [E [_ [_ L]]]]; auto; [discriminate|].
  exists A. split; [exact E|]. clear E. assert (SF: rsafe (RCat (RAlt (RSet false [0]) (RSet true [])) (ROpt (RSet true [1]))) = true) by reflexivity.
  assert (PR: rproper (RCat (RAlt (RSet false [0]) (RSet true [])) (ROpt (RSet true [1])))) by (cbn; intuition discriminate).
  ands; auto.
  - apply L. exists ex_atom1. ands; cbn [at_states at_nfa at_nlab ex_atom1]; [left; auto|left; auto| |repeat constructor; lia].
    apply nfa_of_lang; auto. change [2; 0] with ([2] ++ [0]). apply rm_cat; [apply rm_alt2, rm_set; cbn; auto|apply rm_opt1, rm_set; cbn; intuition discriminate].
  - intros H. apply L in H. destruct H as [a [[<-|[<-|[]]] [H1 [H2 H3]]]]; cbn [at_states at_nfa at_nlab ex_atom1 ex_atom2] in *; [|cbn in H1; intuition discriminate].
    apply nfa_of_lang in H2; auto. remember [2; 1] as w eqn:Ew. inversion H2 as [ | |a b w1 w2 K1 K2 Ea Ewq| | | | | | | | ]; subst a b. rewrite Ew in Ewq. clear Ew H2 H3.
    assert (Z1: exists x, w1 = [x]). { inversion K1 as [ | | |a b w0 K|a b w0 K| | | | | | ]; subst; inversion K; subst; eauto. } destruct Z1 as [x ->].
    cbn in Ewq. injection Ewq as -> ->. inversion K2 as [ | | | | |a|a w0 K| | | | ]; subst. inversion K as [ |neg ls y Ky| | | | | | | | | ]; subst. apply Ky. left; auto.
  - apply L. exists ex_atom2. ands; cbn [at_states at_nfa at_nlab ex_atom2]; [right; left; auto|left; auto|apply unit_lang; auto|constructor].
Qed.

(** Without compile() the construction loses words: the automaton of [a]|[b] used as it comes from the parser accepts nothing. *)
Theorem C25_uncompiled_refuted : exists N w A, nfa_wf N /\ nfa_lang N w /\ aut_of_nfa ex_addr ex_pda3 ex_ord N ne_sym [0] = Some A /\ ~ aut_lang 3 A (0, w).
Proof.
  exists (nfa_of (RAlt (RSet false [0]) (RSet false [1]))), [0]. eexists. ands; [apply nfa_of_wf| |vm_compute; reflexivity|].
  - apply nfa_of_complete; [cbn; intuition discriminate|]. apply rm_alt1, rm_set. cbn; auto.
  - intros [_ [f [H _]]]. cbn [fst snd] in H. unfold aut_edges, edges_of in H. cbn in H. inversion H as [q|q l q1 w q2 He Hp|q q1 w q2 He Hp]; subst; cbn in He; intuition discriminate.
Qed.
Print Assumptions C25_uncompiled_refuted.
(** The constructor that takes a vector of states accepts a sorted vector with duplicates, and then forgets states. *)
Theorem C25_duplicate_states_refuted : exists N states A s, nfa_wf N /\ compiled ex_addr N /\ nfa_lang N [] /\ is_sorted Nat.ltb states = true /\ In s states /\ s < pd_n ex_pda3 /\
  aut_of_nfa ex_addr ex_pda3 ex_ord N ne_sym states = Some A /\ ~ aut_lang 3 A (s, []).
Proof.
  exists (nfa_unit true), [0; 0; 1]. eexists. exists 1. ands; [apply unit_wf| |apply unit_lang; auto|reflexivity|cbn; auto|cbn; lia|vm_compute; reflexivity|].
  - split; [unfold asorted; cbn; repeat constructor|]. intros i q [<-|[]] H _. left. inversion H; subst; auto. destruct H0 as [st [e [E1 [E2 _]]]]. injection E1 as <-. destruct E2.
  - intros [_ [f [H K]]]. cbn [fst snd] in H. unfold aut_edges, edges_of in H. cbn in H. inversion H as [q|q l q1 w q2 He Hp|q q1 w q2 He Hp]; subst; [discriminate|cbn in He; intuition discriminate].
Qed.
Print Assumptions C25_duplicate_states_refuted.
(** A wildcard means the labels known when its atom ends: in  <[0], .> | <[0], [c]>  the wildcard does not match c. *)
Theorem C25_wildcard_refuted : exists l A w, Forall (atom_ok ex_pda3) l /\ build_atoms ex_addr ex_ord ex_pda3 l = Some A /\
  (exists a, In a l /\ at_states a = [0] /\ at_nfa a = nfa_set true []) /\ List.length w = 1 /\ Forall (fun x => x < pd_nlab ex_pda3) w /\ ~ aut_lang 3 A (0, w).
Proof.
  set (l := [mk_atom [0] (nfa_set true []) 2; mk_atom [1] (nfa_set false [2]) 3]).
  assert (OK: Forall (atom_ok ex_pda3) l).
  { apply Forall_forall. intros a [<-|[<-|[]]].
    - split; [apply (nfa_of_wf (RSet true []))|]. split; [apply (nfa_of_syms_lt (RSet true [])); cbn; tauto|]. split; [|cbn; lia]. intros s [<-|[]]; cbn; lia.
    - split; [apply (nfa_of_wf (RSet false [2]))|]. split; [apply (nfa_of_syms_lt (RSet false [2])); cbn; intuition lia|]. split; [|cbn; lia]. intros s [<-|[]]; cbn; lia. }
  destruct (C25_atoms ex_addr ex_ord ex_pda3 l) as [A [E [_ [_ L]]]]; auto; [discriminate|].
  exists l, A, [2]. split; [exact OK|]. split; [exact E|]. clear E. ands; auto.
  - exists (mk_atom [0] (nfa_set true []) 2). cbn; auto.
  - intros H. apply L in H. destruct H as [a [[<-|[<-|[]]] [H1 [H2 H3]]]]; cbn in *; [inversion H3; lia|intuition discriminate].
Qed.
Print Assumptions C25_wildcard_refuted.
(** The typed constructor (PAutomaton.h 53-56) maps the labels of an edge to ids in label order; the ids are numbered by
    insertion. For a negated edge over two labels whose ids are in the other order the assertion in add_edges fails. *)
Theorem C25_typed_negated_refuted : exists N map_edge, nfa_wf N /\ compiled ex_addr N /\
  (forall e, List.length (map_edge e) = List.length (ne_sym e)) /\ (forall e x y, In x (map_edge e) -> In y (map_edge e) -> x < 3 /\ y < 3) /\
  aut_of_nfa ex_addr ex_pda3 ex_ord N map_edge [0] = None.
Proof.
  exists (nfa_of (RSet true [0; 1])), (fun e => map (fun x => match x with 0 => 1 | _ => 0 end) (ne_sym e)).
  ands; [apply nfa_of_wf| |intros; apply map_length| |vm_compute; reflexivity].
  - split; [unfold asorted; cbn; repeat constructor|]. intros i q [<-|[]] H _. left. inversion H; subst; auto. destruct H0 as [st [e [E1 [E2 [_ E3]]]]]. injection E1 as <-. destruct E2 as [<-|[]]. discriminate.
  - intros e x y Hx Hy. apply in_map_iff in Hx, Hy. destruct Hx as [[|a] [<- _]], Hy as [[|b] [<- _]]; lia.
Qed.
Print Assumptions C25_typed_negated_refuted.

(** ** C26 *)
Theorem C26_or_extend : forall P A B, pre_ok P A -> no_in P A -> pre_ok P B -> no_in P B ->
  exists C, a_or_extend (pd_n P) A B = Some C /\ pre_ok P C /\ no_in P C /\ forall c, aut_lang (pd_n P) C c <-> aut_lang (pd_n P) A c \/ aut_lang (pd_n P) B c.
Proof.
  intros P A B OA NA OB NB. assert (PA: post_ok P A) by (apply post_ok_pre_ok; auto). assert (PB: post_ok P B) by (apply post_ok_pre_ok; auto).
  destruct (a_or_extend_lang (pd_n P) A B (post_ok_Inside P _ PA) (post_ok_Inside P _ PB) (qk_n _ _ PA) (qk_n _ _ PB) (qk_nd _ _ PA)) as [C [EC LC]]; auto.
  exists C. assert (PC := a_or_extend_post_ok P A B C PA PB EC). apply post_ok_pre_ok in PC. destruct PC. ands; auto.
Qed.
Print Assumptions C26_or_extend.
(** (0, a b) in A, (0, b) and (2, []) in B; the states above the PDA states are renumbered. *)
Definition ex_orA : aut := mk_ex [false; false; false; false; true] [(0, 0, 3); (3, 1, 4)].
Definition ex_orB : aut := mk_ex [false; false; true; true] [(0, 1, 3)].
Example C26_example : pre_ok ex_pda3 ex_orA /\ no_in ex_pda3 ex_orA /\ pre_ok ex_pda3 ex_orB /\ no_in ex_pda3 ex_orB /\
  option_map (fun C => (a_acc C, map fst (a_edges C))) (a_or_extend 3 ex_orA ex_orB) =
  Some ([false; false; true; false; true; true], [mk_edge 0 (Some 1) 5; mk_edge 0 (Some 0) 3; mk_edge 3 (Some 1) 4]).
Proof. ands; try (apply autb_ok; reflexivity); try (apply no_inb_ok; reflexivity); reflexivity. Qed.
(** Without the condition that no edge leads into a PDA state the union accepts configurations neither automaton accepted. *)
Theorem C26_or_extend_refuted : exists A B C c, pre_ok ex_pda3 A /\ pre_ok ex_pda3 B /\ a_or_extend 3 A B = Some C /\ aut_lang 3 C c /\ ~ aut_lang 3 A c /\ ~ aut_lang 3 B c.
Proof.
  set (A := mk_ex [false; false; false] [(0, 0, 1)]). set (B := mk_ex [false; false; false; true] [(1, 1, 3)]).
  exists A, B. eexists. exists (0, [0; 1]). ands; [apply autb_ok; reflexivity|apply autb_ok; reflexivity|vm_compute; reflexivity| | |].
  - split; [cbn; lia|]. exists 3. split; [|reflexivity]. cbn [fst snd]. apply (ap_lab _ 0 0 1); [cbn; auto|]. apply (ap_lab _ 1 1 3); [cbn; auto|constructor].
  - intros [_ [f [H K]]]. cbn [fst snd] in H. unfold aut_final in K. cbn in K. destruct f as [|[|[|[|f]]]]; discriminate.
  - intros [_ [f [H K]]]. cbn [fst snd] in H. unfold aut_edges, edges_of in H. cbn in H. inversion H as [q|q l q1 w q2 He Hp|q q1 w q2 He Hp]; subst; cbn in He; intuition discriminate.
Qed.
Print Assumptions C26_or_extend_refuted.

(** ** C27 *)
Theorem C27_single_configuration : forall P ord state stack, (forall q l, Permutation (ord q l) l) -> state < pd_n P -> Forall (fun x => x < pd_nlab P) stack ->
  exists A, aut_single P ord state stack = Some A /\ pre_ok P A /\ no_in P A /\ forall c, aut_lang (pd_n P) A c <-> c = (state, stack).
Proof.
  intros P ord state stack Ho Hs Hl. destruct (aut_single_lang P ord state stack Ho Hs Hl) as [A [E [OA LA]]]. exists A. apply post_ok_pre_ok in OA. destruct OA. ands; auto.
  intros [q w]. rewrite LA. split; [intros [-> ->]; auto|intros K; injection K; auto].
Qed.
Print Assumptions C27_single_configuration.
Example C27_example : option_map (fun C => (a_acc C, map fst (a_edges C))) (aut_single ex_pda3 ex_ord 1 [2; 0]) =
  Some ([false; false; false; false; true], [mk_edge 3 (Some 0) 4; mk_edge 1 (Some 2) 3]) /\
  option_map a_acc (aut_single ex_pda3 ex_ord 1 []) = Some [false; true; false].
Proof. split; reflexivity. Qed.

(** ** C28 *)
(** The parser yields the automaton of the expression the text denotes, and throws exactly for the texts outside the grammar. *)
Theorem C28_parser : forall lf s,
  (forall r, gfile lf r s -> parse lf s = Some (PNfa (nfa_of r))) /\
  (forall N, parse lf s = Some (PNfa N) -> exists r, gfile lf r s /\ N = nfa_of r) /\
  ((forall r, ~ gfile lf r s) -> parse lf s = Some PThrow).
Proof.
  intros lf s. ands; [intros; apply parse_complete; auto|intros; apply parse_sound; auto|].
  intros H. destruct (parse_total lf s) as [K|[r [K _]]]; auto. exfalso. eapply H; eauto.
Qed.
Print Assumptions C28_parser.
(** No assertion of the builder can fail. *)
Theorem C28_parser_total : forall lf s, parse lf s <> None.
Proof. intros lf s H. destruct (parse_total lf s) as [K|[r [_ K]]]; congruence. Qed.
Print Assumptions C28_parser_total.
(** The language of an accepted text (for the expressions of C24). *)
Theorem C28_text_language : forall lf s N, parse lf s = Some (PNfa N) ->
  exists r, gfile lf r s /\ (forall w, rmatch r w -> nfa_lang N w) /\ (rsafe r = true -> forall w, nfa_lang N w -> rmatch r w).
Proof.
  intros lf s N H. apply parse_sound in H. destruct H as [r [H ->]]. exists r. destruct (gfile_rok lf r s H) as [PR _]. ands; auto.
  - apply nfa_of_complete; auto.
  - intros HS w. apply nfa_of_lang; auto.
Qed.
Print Assumptions C28_text_language.
Example C28_example :
  parse ex_lf (txt " [a] ([b] | [^a , b]+)* . ?  # comment") = Some PThrow /\
  parse ex_lf (txt " [a] ([b] | [^a , b]+)* .?  # comment") =
    Some (PNfa (nfa_of (RCat (RSet false [0]) (RCat (RStar (RAlt (RSet false [1]) (RPlus (RSet true [0; 1])))) (ROpt (RSet true [])))))) /\
  parse ex_lf (txt "[a][b]|[b][a]") = Some (PNfa (nfa_of (RAlt (RCat (RSet false [0]) (RSet false [1])) (RCat (RSet false [1]) (RSet false [0]))))) /\
  parse ex_lf (txt "[a]|") = Some PThrow /\ parse ex_lf (txt "[]") = Some PThrow /\ parse ex_lf (txt "") = Some (PNfa (nfa_of REps)).
Proof. ands; vm_compute; reflexivity. Qed.

(** ** From the texts of a query to the verdict *)
(** The configurations that a list of atoms with texts describes. *)
Definition text_configs (lf : list ascii -> nat) (l : list tatom) (c : config) : Prop :=
  exists a r, In a l /\ gfile lf r (ta_text a) /\ In (fst c) (ta_states a) /\ rmatch r (snd c) /\ Forall (fun x => x < ta_nlab a) (snd c).
(** Every text has an expression in the scope of C24; the label names are numbered below the label count of the atom. *)
Definition tatom_ok (P : pda) (lf : list ascii -> nat) (a : tatom) : Prop :=
  (exists r, gfile lf r (ta_text a) /\ rsafe r = true /\ forall x, In x (rlabels r) -> x < ta_nlab a) /\
  (forall s, In s (ta_states a) -> s < pd_n P) /\ ta_nlab a <= pd_nlab P.

Lemma text_automaton : forall addr ord P lf l, (forall i j, addr i = addr j -> i = j) -> (forall q l, Permutation (ord q l) l) -> l <> [] -> Forall (tatom_ok P lf) l ->
  exists ats A, parse_atoms lf l = Some ats /\ build_atoms addr ord P ats = Some A /\ pre_ok P A /\ no_in P A /\ forall c, aut_lang (pd_n P) A c <-> text_configs lf l c.
Proof.
  intros addr ord P lf l Hi Ho Hn Hl.
  assert (G: forall l, Forall (tatom_ok P lf) l -> exists ats, parse_atoms lf l = Some ats /\ (l <> [] -> ats <> []) /\ Forall (atom_ok P) ats /\
    forall q w, (exists a, In a ats /\ In q (at_states a) /\ nfa_lang (at_nfa a) w /\ Forall (fun x => x < at_nlab a) w) <-> text_configs lf l (q, w)).
  { clear. induction l as [|a l IH]; intros H.
    - exists []. ands; auto. intros q w. split; [intros [a [[] _]]|intros [a [r [[] _]]]].
    - inversion H as [|a' l' [[r [Hr [SF RL]]] [H2 H3]] Hl]; subst. destruct (IH Hl) as [ats [E [_ [OK L]]]]. cbn [parse_atoms]. rewrite (parse_complete lf _ _ Hr), E.
      eexists. split; [reflexivity|].  destruct (gfile_rok _ _ _ Hr) as [PR _]. ands; [discriminate| |].
      + constructor; auto. split; [apply nfa_of_wf|]. split; [apply nfa_of_syms_lt; auto|]. auto.
      + intros q w. split.
        * intros [b [[<-|Hb] Hw]].
          -- cbn [at_states at_nfa at_nlab] in Hw. destruct Hw as [K1 [K2 K3]]. exists a, r. ands; cbn; auto. apply nfa_of_lang; auto.
          -- destruct (proj1 (L q w)) as [b' [r' [K1 K]]]; [exists b; auto|]. exists b', r'. cbn; auto.
        * intros [b [r' [[<-|Hb] [Hr' [K1 [K2 K3]]]]]]; cbn [fst snd] in *.
          -- eexists. split; [left; reflexivity|]. cbn. ands; auto. destruct (gfile_rok _ _ _ Hr') as [PR' _].
             assert (EQ: nfa_of r = nfa_of r'). { pose proof (parse_complete lf _ _ Hr). pose proof (parse_complete lf _ _ Hr'). congruence. }
             rewrite EQ. apply nfa_of_complete; auto.
          -- destruct (proj2 (L q w)) as [b' [J1 J2]]; [exists b, r'; auto|]. exists b'. split; cbn; auto. }
  destruct (G l Hl) as [ats [E [HN [OK L]]]]. destruct (C25_atoms addr ord P ats Hi Ho) as [A [EA [OA [NA LA]]]]; auto.
  exists ats, A. ands; auto. intros [q w]. rewrite LA. apply L.
Qed.

Theorem C28_query_verdict : forall addr ord lf nlab us t1 t2, (forall i j, addr i = addr j -> i = j) -> (forall q l, Permutation (ord q l) l) ->
  Forall (wf_urule nlab) us -> lookup_safe us -> t1 <> [] -> t2 <> [] -> Forall (tatom_ok (build nlab us) lf) t1 -> Forall (tatom_ok (build nlab us) lf) t2 ->
  exists a1 a2 A1 A2 I, parse_atoms lf t1 = Some a1 /\ parse_atoms lf t2 = Some a2 /\
    build_atoms addr ord (build nlab us) a1 = Some A1 /\ build_atoms addr ord (build nlab us) a2 = Some A2 /\ new_inst (build nlab us) ord A1 A2 = Some I /\
    let Q := fun r : bool * inst => fst r = true <-> can_reach (user_rules nlab us) (text_configs lf t1) (text_configs lf t2) in
    answers (fun fuel => pre_star_accepts (build nlab us) fuel I) Q /\ answers (fun fuel => post_star_accepts (build nlab us) fuel I) Q /\
    answers (fun fuel => dual_search_accepts (build nlab us) fuel I) Q.
Proof.
  intros addr ord lf nlab us t1 t2 Hi Ho W LS N1 N2 T1 T2.
  destruct (text_automaton addr ord _ lf t1 Hi Ho N1 T1) as [a1 [A1 [P1 [B1 [O1 [I1 L1]]]]]]. destruct (text_automaton addr ord _ lf t2 Hi Ho N2 T2) as [a2 [A2 [P2 [B2 [O2 [I2 L2]]]]]].
  assert (NI: exists I, new_inst (build nlab us) ord A1 A2 = Some I).
  { unfold new_inst, pr_new. rewrite (proj2 (Nat.leb_le _ _) (po_n _ _ O1)), (proj2 (Nat.leb_le _ _) (po_n _ _ O2)). cbn. eauto. }
  destruct NI as [I HI]. exists a1, a2, A1, A2, I. ands; auto.
  assert (E: forall b : bool, (b = true <-> can_reach (user_rules nlab us) (aut_lang (pd_n (build nlab us)) A1) (aut_lang (pd_n (build nlab us)) A2)) ->
             (b = true <-> can_reach (user_rules nlab us) (text_configs lf t1) (text_configs lf t2))).
  { intros b Hb. rewrite Hb. unfold can_reach. split; intros [c1 [c2 [K1 [K2 K3]]]]; exists c1, c2; ands; auto; (apply L1 || apply L2); auto. }
  assert (M: forall f : nat -> option (option (bool * inst)), answers f (fun r => fst r = true <-> can_reach (user_rules nlab us) (aut_lang (pd_n (build nlab us)) A1) (aut_lang (pd_n (build nlab us)) A2)) ->
     answers f (fun r => fst r = true <-> can_reach (user_rules nlab us) (text_configs lf t1) (text_configs lf t2))).
  { intros f [H1 H2]. split; auto. intros fuel. destruct (H1 fuel) as [K|[r [K Hr]]]; auto. right. exists r. split; auto. }
  cbn zeta. split; [|split]; apply M.
  - eapply C08_pre_star_verdict; eauto; [eapply pre_ok_wf; eauto|apply (po_n _ _ O1)].
  - eapply C09_post_star_verdict; eauto; [eapply pre_ok_wf; eauto|apply (po_n _ _ O2)].
  - eapply C10_dual_search_verdict; eauto.
Qed.
Print Assumptions C28_query_verdict.
(** A query over the PDA of the solver examples: from <[0,2], [a][b]?> to <[2], .+>. *)
Example C28_query_example : let t1 := [mk_tatom [0; 2] (txt "[a][b]?") 2] in let t2 := [mk_tatom [2] (txt ".+") 2] in
  Forall (tatom_ok ex_pda ex_lf) t1 /\ Forall (tatom_ok ex_pda ex_lf) t2 /\
  (a1 <- parse_atoms ex_lf t1 ;; a2 <- parse_atoms ex_lf t2 ;; A1 <- build_atoms ex_addr ex_ord ex_pda a1 ;; A2 <- build_atoms ex_addr ex_ord ex_pda a2 ;;
   run_all A1 A2) = Some (repeat (Some (Some true)) 4).
Proof.
  cbn zeta. assert (L: forall c x, ident_char c -> ex_lf [c] = x -> gvalue ex_lf (RSet false [x]) ("["%char :: [c] ++ ["]"%char])) by (intros c x H <-; apply gv_set, gl_one; split; [discriminate|auto]).
  ands; [| |vm_compute; reflexivity]; (constructor; [|constructor]); (split; [|split; [intros s H; vm_compute in H; vm_compute; intuition lia|vm_compute; lia]]).
  - exists (RCat (RSet false [0]) (ROpt (RSet false [1]))). ands; [|reflexivity|cbn; intuition lia].
    change (gfile ex_lf (RCat (RSet false [0]) (ROpt (RSet false [1]))) ([] ++ (("["%char :: ["a"%char] ++ ["]"%char]) ++ [] ++ (("["%char :: ["b"%char] ++ ["]"%char]) ++ ["?"%char])) ++ [])).
    apply gf_expr; [apply ign_nil| |apply ie_ign, ign_nil]. apply ge_one. apply gs_cat; [apply gu_value; apply L; [unfold ident_char; cbn; lia|reflexivity]|apply ign_nil|].
    apply gs_one, gu_question. apply L; [unfold ident_char; cbn; lia|reflexivity].
  - exists (RPlus (RSet true [])). ands; [|reflexivity|cbn; tauto].
    change (gfile ex_lf (RPlus (RSet true [])) ([] ++ (["."%char] ++ ["+"%char]) ++ [])). apply gf_expr; [apply ign_nil| |apply ie_ign, ign_nil]. apply ge_one, gs_one, gu_plus, gv_any.
Qed.
