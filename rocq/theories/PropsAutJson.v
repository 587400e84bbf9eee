(** Reading P-automata from JSON: C64. *)
From Coq Require Import List Arith Lia Bool ZArith String Permutation.
From Verif Require Import Base BaseFacts Spec PdaModel PdaProof TrieModel RefineModel MappingProof TypedModel TypedProof AutModel AutProof PreStarLang PostStarLang NfaModel JsonModel JsonSpec JsonProof
  AutJsonModel AutJsonSpec AutJsonProof.
Import ListNotations.
Open Scope string_scope.
Open Scope nat_scope.

(** A pushdown automaton with distinct names and labels, the first states those with names. *)
Record named_pda (T : tpda string string) : Prop := {
  np_states : NoDup (t_states T);
  np_n : length (t_states T) <= pd_n (t_rules T);
  np_labels : NoDup (t_labels T);
  np_nlab : pd_nlab (t_rules T) = length (t_labels T) }.
(** The number of a state of the pushdown automaton. *)
Definition pda_state (names : bool) (T : tpda string string) (s : sref) (i : nat) : Prop :=
  match s with SName x => names = true /\ exists_state String.eqb T x = Some i | SNum v => names = false /\ v < pd_n (t_rules T) /\ i = v end.
Definition word_ids (T : tpda string string) (w : list string) (v : list nat) : Prop := Forall2 (fun l x => exists_label String.eqb T l = Some x) w v.

(** Reading a document adds the labels of the document to the pushdown automaton, and gives an automaton that accepts from a state of the
    pushdown automaton exactly the words that the document accepts. *)
Theorem C64_read : forall names asserts ord T j, named_pda T -> regular_adoc names (known_in T) j ->
  match adoc_of names (known_in T) false j with
  | Some D => exists T' A, parse_aut names false asserts ord T j = Some (Some (T', A)) /\
      named_pda T' /\ t_states T' = t_states T /\ pd_states (t_rules T') = pd_states (t_rules T) /\
      (exists new, t_labels T' = (t_labels T ++ new)%list) /\ (forall x, In x (t_labels T') <-> In x (t_labels T) \/ In x (adoc_labels D)) /\
      forall s i w v, pda_state names T s i -> word_ids T' w v -> (aut_lang (pd_n (t_rules T')) A (i, v) <-> daccepts D s w)
  | None => parse_aut names false asserts ord T j = Some None
  end.
Proof.
  intros names asserts ord T j [N1 N2 N3 N4] HR. assert (X := adoc_run names false asserts ord T N2 N3 N4 eq_refl j HR). destruct (adoc_of names (known_in T) false j) as [D|]; auto.
  destruct X as (T' & A & X1 & X2). exists T', A. destruct (ra_labels _ _ _ _ _ _ X2) as (new & L1 & L2). assert (SP := ra_pda _ _ _ _ _ _ X2). split; auto. split; [|split; [|split; [|split; [|split]]]].
  - constructor; [rewrite (sp_states _ _ SP); auto|rewrite (sp_states _ _ SP); unfold pd_n; rewrite (sp_rules _ _ SP); auto|apply SP|apply SP].
  - apply SP.
  - apply SP.
  - eauto.
  - intros x. split.
    + rewrite L1, in_app_iff. intros [K|K]; auto.
    + intros [K|K]; [rewrite L1, in_app_iff; auto|apply (ra_in _ _ _ _ _ _ X2); auto].
  - intros s i w v Hs Hw. replace (pd_n (t_rules T')) with (pd_n (t_rules T)) by (unfold pd_n; rewrite (sp_rules _ _ SP); auto). apply (ra_lang _ _ _ _ _ _ X2); auto.
Qed.
Print Assumptions C64_read.

(** The automaton can be given to the solvers: to pre* if no edge of the document has the empty label, to post* if also none ends in a state
    of the pushdown automaton. *)
Theorem C64_usable : forall names asserts ord T j D T' A, named_pda T -> regular_adoc names (known_in T) j -> (forall q l, Permutation (ord q l) l) ->
  adoc_of names (known_in T) false j = Some D -> parse_aut names false asserts ord T j = Some (Some (T', A)) ->
  (forall s l s', In (s, l, s') (ad_edges D) -> l <> "") ->
  pre_ok (t_rules T') A /\ ((forall s l s' i, In (s, l, s') (ad_edges D) -> ~ pda_state names T s' i) -> post_ok (t_rules T') A).
Proof.
  intros names asserts ord T j D T' A [N1 N2 N3 N4] HR HO HD HPA HE. assert (X := adoc_run names false asserts ord T N2 N3 N4 eq_refl j HR). rewrite HD in X.
  destruct X as (T1 & A1 & X1 & X2). assert (T1 = T' /\ A1 = A) as [-> ->] by (rewrite HPA in X1; injection X1 as -> ->; auto). assert (SP := ra_pda _ _ _ _ _ _ X2).
  assert (NN : pd_n (t_rules T') = pd_n (t_rules T)) by (unfold pd_n; rewrite (sp_rules _ _ SP); auto).
  assert (PO : pre_ok (t_rules T') A).
  { constructor.
    - rewrite NN. apply (ra_n _ _ _ _ _ _ X2).
    - intros q l. rewrite (ra_ord _ _ _ _ _ _ X2). auto.
    - apply (ra_nd _ _ _ _ _ _ X2).
    - intros q l q' He. destruct (ra_range _ _ _ _ _ _ X2 q l q' He) as (K1 & K2 & K3). split; auto. split; auto. destruct l as [x|]; [exists x; auto|]. exfalso. exact (ra_eps _ _ _ _ _ _ X2 HE q q' He). }
  split; auto. intros HI. apply post_ok_pre_ok. split; auto. intros q l q' He. rewrite NN. apply (ra_no_in _ _ _ _ _ _ X2 HI q l q' He).
Qed.
Print Assumptions C64_usable.

(** * Examples *)
Definition id_ord (q : nat) (l : list nat) : list nat := l.
(** A pushdown automaton with states p and q and label a. *)
Definition ex_T : tpda string string :=
  match do_tcalls String.eqb String.eqb 99 true [TState "p"; TState "q"; TLabel "a"; TRule 0 1 SWAP "a" false ["a"] 0%Z] tp_empty with Some T => T | None => tp_empty end.
Lemma ex_T_ok : named_pda ex_T.
Proof. constructor; vm_compute; repeat constructor; cbn; intuition discriminate. Qed.
Definition pa (m : list (string * json)) : json := JObj [("P-automaton", JObj m)].
Definition js3 (a b c : string) : json := JArr [JStr a; JStr b; JStr c].
(** p -a-> x -b-> f, x accepts a further label through the state q: q -b-> f; f is accepting; from x there is an empty edge to f. *)
Definition ex_aut : json := pa [("initial", JArr [JStr "p"; JStr "q"]); ("edges", JArr [js3 "p" "a" "x"; js3 "x" "b" "f"; js3 "q" "c" "x"; js3 "x" "" "g"]); ("accepting", JArr [JStr "f"; JStr "g"])].
Definition ex_D : adoc := mk_adoc [SName "f"; SName "g"]
  [(SName "p", "a", SName "x"); (SName "x", "b", SName "f"); (SName "q", "c", SName "x"); (SName "x", "", SName "g")].
Example C64_read_example : named_pda ex_T /\ regular_adoc true (known_in ex_T) ex_aut /\ adoc_of true (known_in ex_T) false ex_aut = Some ex_D /\
  daccepts ex_D (SName "p") ["a"; "b"] /\ daccepts ex_D (SName "q") ["c"] /\ ~ daccepts ex_D (SName "p") ["c"] /\
  (exists T' A, parse_aut true false true id_ord ex_T ex_aut = Some (Some (T', A)) /\ t_labels T' = ["a"; "b"; "c"] /\ length (a_edges A) = 4) /\
  regular_adoc true (known_in ex_T) (pa [("initial", JArr [JStr "x"]); ("edges", JArr []); ("accepting", JArr [])]) /\
  adoc_of true (known_in ex_T) false (pa [("initial", JArr [JStr "x"]); ("edges", JArr []); ("accepting", JArr [])]) = None.
Proof.
  split; [apply ex_T_ok|]. split.
  { repeat constructor. intros _. exists true. repeat constructor; cbn; auto; intros []. }
  split; [reflexivity|]. split.
  { exists (SName "f"). split; [cbn; auto|]. apply dp_label with (SName "x"); [cbn; auto|discriminate|]. apply dp_label with (SName "f"); [cbn; auto|discriminate|]. constructor. }
  split.
  { exists (SName "g"). split; [cbn; auto|]. apply dp_label with (SName "x"); [cbn; auto|discriminate|]. apply dp_empty with (SName "g"); [cbn; auto|]. constructor. }
  split.
  { intros (f & _ & H). inversion H as [|? ? ? ? ? H1 H2 H3|? ? ? ? H1 H3]; subst; cbn in H1; intuition congruence. }
  split; [eexists; eexists; vm_compute; auto|]. split; [|reflexivity]. repeat constructor. intros _. exists true. repeat constructor; cbn; auto; intros [].
Qed.
(** An automaton for the solvers, with numbers for the states that the pushdown automaton does not have. *)
Definition ex_aut2 : json := pa [("accepting", JArr [JNum 7]); ("initial", JArr []); ("edges", JArr [JArr [JStr "p"; JStr "a"; JNum 12]; JArr [JNum 12; JStr "b"; JNum 7]])].
Definition ex_D2 : adoc := mk_adoc [SNum 7] [(SName "p", "a", SNum 12); (SNum 12, "b", SNum 7)].
Example C64_usable_example : regular_adoc true (known_in ex_T) ex_aut2 /\ adoc_of true (known_in ex_T) false ex_aut2 = Some ex_D2 /\
  (forall s l s', In (s, l, s') (ad_edges ex_D2) -> l <> "") /\ (forall s l s' i, In (s, l, s') (ad_edges ex_D2) -> ~ pda_state true ex_T s' i) /\
  daccepts ex_D2 (SName "p") ["a"; "b"] /\ exists T' A, parse_aut true false true id_ord ex_T ex_aut2 = Some (Some (T', A)) /\ a_size A = 4.
Proof.
  split. { repeat constructor. intros _. exists false. repeat constructor; cbn; auto; try discriminate; intros []. }
  split; [reflexivity|]. split. { intros s l s' [H|[H|[]]]; injection H as <- <- <-; discriminate. }
  split. { intros s l s' i [H|[H|[]]]; injection H as <- <- <-; cbn; intros [K _]; discriminate. }
  split. { exists (SNum 7). split; [cbn; auto|]. apply dp_label with (SNum 12); [cbn; auto|discriminate|]. apply dp_label with (SNum 7); [cbn; auto|discriminate|]. constructor. }
  eexists; eexists; vm_compute; auto.
Qed.

(** States that are not in the pushdown automaton, one with a number and one with a name: the assertion in string_state fails, and without
    assertions the automaton accepts the word b instead of a. *)
Definition ex_mixed : json := pa [("initial", JArr []); ("edges", JArr [JArr [JStr "p"; JStr "b"; JNum 7]; js3 "p" "a" "f"]); ("accepting", JArr [JStr "f"])].
Definition ex_mixed_D : adoc := mk_adoc [SName "f"] [(SName "p", "b", SNum 7); (SName "p", "a", SName "f")].
Theorem C64_mixed_states_refuted : adoc_of true (known_in ex_T) false ex_mixed = Some ex_mixed_D /\ parse_aut true false true id_ord ex_T ex_mixed = None /\
  (exists T' A, parse_aut true false false id_ord ex_T ex_mixed = Some (Some (T', A)) /\ pda_state true ex_T (SName "p") 0 /\
    word_ids T' ["a"] [0] /\ daccepts ex_mixed_D (SName "p") ["a"] /\ ~ aut_lang (pd_n (t_rules T')) A (0, [0]) /\
    word_ids T' ["b"] [1] /\ ~ daccepts ex_mixed_D (SName "p") ["b"] /\ aut_lang (pd_n (t_rules T')) A (0, [1])).
Proof.
  split; [reflexivity|]. split; [vm_compute; reflexivity|]. eexists. eexists. split; [vm_compute; reflexivity|]. split; [split; vm_compute; reflexivity|].
  split; [repeat constructor|]. split.
  { exists (SName "f"). split; [cbn; auto|]. apply dp_label with (SName "f"); [cbn; auto|discriminate|]. constructor. }
  split.
  { intros (_ & f & H1 & H2). cbn [fst snd] in H1. inversion H1 as [|? ? q1 ? ? E1 P1|? q1 ? ? E1 P1]; subst.
    - destruct E1 as [E1|[E1|[]]]; inversion E1; subst. inversion P1 as [| |? ? ? ? E2 P2]; subst; [vm_compute in H2; discriminate|]. destruct E2 as [E2|[E2|[]]]; inversion E2.
    - destruct E1 as [E1|[E1|[]]]; inversion E1. }
  split; [repeat constructor|]. split.
  { intros (f & [<-|[]] & H). inversion H as [|? ? s1 ? ? H1 H2 H3|? s1 ? ? H1 H3]; subst; cbn in H1.
    - destruct H1 as [H1|[H1|[]]]; inversion H1; subst. inversion H3 as [|? ? ? ? ? K1|? ? ? ? K1]; subst. cbn in K1. intuition congruence.
    - intuition congruence. }
  split; [vm_compute; repeat constructor|]. exists 2. split; [|vm_compute; reflexivity]. cbn [fst snd]. apply ap_lab with 2; [vm_compute; auto|constructor].
Qed.
Print Assumptions C64_mixed_states_refuted.
(** An edge with two elements: the assertions at the end of an edge fail; without them the edge ends in a state that does not exist. *)
Theorem C64_short_edge_refuted : forall asserts, adoc_of true (known_in ex_T) false (pa [("initial", JArr []); ("accepting", JArr []); ("edges", JArr [JArr [JStr "p"; JStr "a"]])]) = None /\
  parse_aut true false asserts id_ord ex_T (pa [("initial", JArr []); ("accepting", JArr []); ("edges", JArr [JArr [JStr "p"; JStr "a"]])]) = None.
Proof. intros asserts. split; [reflexivity|]. vm_compute. reflexivity. Qed.
Print Assumptions C64_short_edge_refuted.
(** A document that is only a number: the top of the empty stack of contexts is read. *)
Theorem C64_number_refuted : forall names asserts ord T, named_pda T -> adoc_of names (known_in T) false (JNum 0) = None /\ parse_aut names false asserts ord T (JNum 0) = None.
Proof. intros. split; reflexivity. Qed.
Print Assumptions C64_number_refuted.
(** Arrays inside the arrays of states are accepted. *)
Definition ex_nested_aut : json := pa [("initial", JArr [JArr [JStr "p"]]); ("accepting", JArr [JStr "p"; JArr [JArr []; JStr "q"]]); ("edges", JArr [])].
Theorem C64_nested_refuted : adoc_of true (known_in ex_T) false ex_nested_aut = None /\
  exists T' A, parse_aut true false true id_ord ex_T ex_nested_aut = Some (Some (T', A)) /\ a_acc A = [true; true].
Proof. split; [reflexivity|]. eexists; eexists; vm_compute; auto. Qed.
Print Assumptions C64_nested_refuted.
