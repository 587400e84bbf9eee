(** Property C44: label sets and NFAs under a label abstraction. *)
From Coq Require Import List Arith Lia Bool Permutation Sorted.
From Verif Require Import Base BaseFacts Spec SpecFacts PdaModel PdaProof AutModel AutProof PreStarLang PostStarLang NfaModel NfaProof ConstructProof ContainersModel ContainersProof
  TrieModel RefineModel MappingProof RefineProof PairProof RegexProof AbstractionModel AbstractionProof.
Import ListNotations.

(** The label [a] of the abstract PDA stands for the concrete label [x]. *)
Notation class m x a := (rm_exists m x = Some a).
Definition all_known (m : rmap) (labels : list nat) : Prop := forall x, In x labels -> exists a, class m x a.
(** The labels below [n] that a negated or plain set denotes, as in PAutomaton::add_edges. *)
Definition denotes (n : nat) (neg : bool) (r : list nat) (a : nat) : Prop := a < n /\ if neg then ~ In a r else In a r.

(** A plain set is encoded exactly: its abstract labels are those of its members. *)
Theorem C44_positive_labels : forall m labels, RI m -> StronglySorted lt labels -> all_known m labels ->
  exists r, encode_labels m labels false = Some r /\ StronglySorted lt r /\
    forall a, denotes (rm_size m) false r a <-> exists x, In x labels /\ class m x a.
Proof.
  intros m labels R S K. destruct (encode_spec m labels false R S K) as (r & E & Sr & L & H). exists r. split; [auto|]. split; [auto|].
  intros a. unfold denotes. rewrite H. unfold touched. split; [tauto|]. intros T. assert (Ha: In a r) by (apply H; split; auto; discriminate). split; auto. split; auto. discriminate.
Qed.
Print Assumptions C44_positive_labels.
(** A negated set: the encoding denotes the abstract labels of which no member or every member is in the set. So a concrete
    label outside the set is covered unless the set contains another label of its class. *)
Theorem C44_negated_labels_partial : forall m labels, RI m -> StronglySorted lt labels -> all_known m labels ->
  exists r, encode_labels m labels true = Some r /\ StronglySorted lt r /\
    (forall a, denotes (rm_size m) true r a <-> a < rm_size m /\ ((forall x, class m x a -> ~ In x labels) \/ (forall x, class m x a -> In x labels))) /\
    (forall x a, class m x a -> ~ In x labels -> (forall y, class m y a -> ~ In y labels) -> denotes (rm_size m) true r a).
Proof.
  intros m labels R S K. destruct (encode_spec m labels true R S K) as (r & E & Sr & L & H). exists r. split; [auto|]. split; [auto|].
  assert (C: forall a, denotes (rm_size m) true r a <-> a < rm_size m /\ ((forall x, class m x a -> ~ In x labels) \/ (forall x, class m x a -> In x labels))).
  { intros a. unfold denotes. rewrite H. split.
    - intros [H1 H2]. split; auto. destruct (full_dec m labels a R) as [F|(x & Hx & Hn)]; auto. left. intros y Hy Hin. apply H2. split; [exists y; auto|].
      intros _ F. apply Hn, F; auto.
    - intros [H1 H2]. split; auto. intros [(x & Hx & Hc) F]. destruct H2 as [H2|H2]; [apply (H2 x); auto|]. apply F; auto. }
  split; auto. intros x a Hx Hn Hy. apply C. split; [|left; auto].
  apply rm_exists_iff in Hx; [|apply ri_keys; auto]. destruct Hx as (k & _ & Hx). apply (ri_lt m R k); auto.
Qed.
Print Assumptions C44_negated_labels_partial.

(** Abstracting a word letter by letter. *)
Definition word_class (m : rmap) (w aw : list nat) : Prop := Forall2 (fun x a => class m x a) w aw.
(** Over-approximation for NFAs whose negated edges never contain only a part of a class. *)
Theorem C44_automaton_partial : forall m addr P ord N states, (forall i j, addr i = addr j -> i = j) -> nfa_wf N -> compiled addr N -> RI m -> pd_nlab P = rm_size m ->
  (forall q l, Permutation (ord q l) l) -> StronglySorted lt states -> (forall s, In s states -> s < pd_n P) ->
  (forall q e, nfa_edge N q e -> all_known m (ne_sym e)) ->
  (forall q e x y a, nfa_edge N q e -> ne_neg e = true -> class m x a -> class m y a -> In x (ne_sym e) -> In y (ne_sym e)) ->
  exists A, abstraction_aut m addr P ord N states = Some A /\
    forall q w aw, In q states -> nfa_lang N w -> word_class m w aw -> aut_lang (pd_n P) A (q, aw).
Proof.
  intros m addr P ord N states Hi W C R HP Ho Ss Hs K Hn.
  destruct (abstraction_spec m addr P ord N states) as (A & E & _ & L); auto; [intros q e x He Hx; eapply K; eauto|].
  exists A. split; auto. intros q w aw Hq (i & f & H1 & H2 & H3) Hw. apply L. split; auto. exists i, f. split; auto. split; auto. clear L H1 H3.
  revert aw Hw. induction H2 as [q0|q0 l q1 w q2 (st & e & E1 & E2 & E3 & E4) H IH|q0 q1 w q2 (st & e & E1 & E2 & E3 & E4) H IH]; intros aw Hw.
  - inversion Hw; subst. constructor.
  - inversion Hw as [|? a ? aw' Hc Hw']; subst. apply ap_lab with (ne_dst e); [|apply IH; auto]. exists st, e. split; auto. split; auto. split; auto.
    assert (He: nfa_edge N q0 e) by (exists st; auto). split.
    + apply rm_exists_iff in Hc; [|apply ri_keys; auto]. destruct Hc as (k & _ & Hc). apply (ri_lt m R k); auto.
    + unfold sym_ok in E4. destruct (ne_neg e) eqn:En; [|exists l; auto]. left. intros (y & Hy & Hyc). apply E4. apply (Hn q0 e y l a); auto.
  - apply ap_eps with q1; [|apply IH; auto]. exists st, e. auto.
Qed.
Print Assumptions C44_automaton_partial.
(** Without negated edges (except ".", the negation of the empty set) the abstract automaton is exactly the image. *)
Theorem C44_automaton_exact : forall m addr P ord N states, (forall i j, addr i = addr j -> i = j) -> nfa_wf N -> compiled addr N -> RI m -> pd_nlab P = rm_size m ->
  (forall q l, Permutation (ord q l) l) -> StronglySorted lt states -> (forall s, In s states -> s < pd_n P) ->
  (forall q e, nfa_edge N q e -> all_known m (ne_sym e)) -> (forall a, a < rm_size m -> exists x, class m x a) ->
  (forall q e, nfa_edge N q e -> ne_neg e = true -> ne_sym e = []) ->
  exists A, abstraction_aut m addr P ord N states = Some A /\
    forall q aw, aut_lang (pd_n P) A (q, aw) <-> In q states /\ exists w, nfa_lang N w /\ word_class m w aw.
Proof.
  intros m addr P ord N states Hi W C R HP Ho Ss Hs K D Hn.
  destruct (abstraction_spec m addr P ord N states) as (A & E & _ & L); auto; [intros q e x He Hx; eapply K; eauto|].
  exists A. split; auto. intros q aw. split.
  - intros H. apply L in H. destruct H as [Hq (i & f & H1 & H2 & H3)]. split; auto.
    assert (G: exists w, apath (sts_edges (n_states N)) i w f /\ word_class m w aw).
    { clear - H2 D Hn. induction H2 as [q0|q0 a q1 w q2 (st & e & E1 & E2 & E3 & E4 & E5) H (w' & I1 & I2)|q0 q1 w q2 (st & e & E1 & E2 & E3 & E4) H (w' & I1 & I2)].
      - exists []. split; constructor.
      - assert (He: nfa_edge N q0 e) by (exists st; auto).
        assert (X: exists x, class m x a /\ sym_ok e x).
        { unfold sym_ok. destruct (ne_neg e) eqn:En.
          - destruct (D a E4) as [x Hx]. exists x. split; auto. rewrite (Hn q0 e He En). auto.
          - destruct E5 as (x & Hx & Hc). exists x. auto. }
        destruct X as (x & X1 & X2). exists (x :: w'). split; [|constructor; auto]. apply ap_lab with q1; auto. exists st, e. auto.
      - exists w'. split; auto. apply ap_eps with q1; auto. exists st, e. auto. }
    destruct G as (w & G1 & G2). exists w. split; auto. exists i, f. auto.
  - intros [Hq (w & Hl & Hw)].
    destruct (C44_automaton_partial m addr P ord N states) as (A' & E' & H'); auto.
    + intros q0 e x y a He En _ _ Hx. rewrite (Hn q0 e He En) in Hx. destruct Hx.
    + rewrite E in E'. injection E' as <-. eapply H'; eauto.
Qed.
Print Assumptions C44_automaton_exact.

(** *** What is false *)
(** Labels 1 and 2 in one class: the encoding of [^1] does not cover 2; the abstract automaton of the NFA for [^1] rejects
    the abstraction of the word 2. *)
Definition c44_m : rmap := mk_rmap [(1, 0); (2, 0)] [[0; 1]].
Lemma c44_RI : RI c44_m.
Proof.
  split.
  - cbn. repeat constructor; cbn; intuition discriminate.
  - intros [|[|a]] ks H; try discriminate. injection H as <-. split; [repeat constructor; cbn; intuition discriminate|].
    intros k. destruct k as [|[|k]]; cbn; intuition (try discriminate). destruct k; discriminate.
  - intros k a H. destruct k as [|[|k]]; cbn in H; try (injection H as <-; cbn; lia). destruct k; discriminate.
Qed.
Definition c44_pda (n : nat) : pda := mk_pda [mk_pstate [] []] n.
Definition c44_ord (_ : nat) (l : list nat) : list nat := l.
Theorem C44_negated_labels_refuted :
  (exists m labels x a r, RI m /\ StronglySorted lt labels /\ all_known m labels /\ class m x a /\ ~ In x labels /\
     encode_labels m labels true = Some r /\ ~ denotes (rm_size m) true r a) /\
  (exists m N w aw A, RI m /\ nfa_wf N /\ compiled (fun i => i) N /\ (forall q e, nfa_edge N q e -> all_known m (ne_sym e)) /\
     nfa_lang N w /\ word_class m w aw /\ abstraction_aut m (fun i => i) (c44_pda 1) c44_ord N [0] = Some A /\ ~ aut_lang 1 A (0, aw)).
Proof.
  assert (K: all_known c44_m [1]) by (intros x [<-|[]]; exists 0; reflexivity).
  split.
  - exists c44_m, [1], 2, 0, [0]. split; [apply c44_RI|]. split; [repeat constructor|]. split; [auto|]. split; [reflexivity|].
    split; [intros [H|[]]; discriminate|]. split; [reflexivity|]. intros [_ H]. apply H. cbn. auto.
  - exists c44_m, (nfa_set true [1]), [2], [0]. eexists. split; [apply c44_RI|]. split; [apply set_wf|].
    assert (Hc: compiled (fun i => i) (nfa_set true [1])).
    { destruct (nfa_compile_spec (fun i => i) (nfa_set true [1])) as (N' & E & _ & H & _); auto; [apply set_wf|]. assert (N' = nfa_set true [1]) by (assert (E2: nfa_compile (fun i => i) (nfa_set true [1]) = Some (nfa_set true [1])) by (vm_compute; reflexivity); rewrite E2 in E; congruence). subst. auto. }
    split; [exact Hc|]. split.
    { intros [|[|q]] e (st & E1 & E2); cbn in E1; [injection E1 as <-|injection E1 as <-|destruct q; discriminate]; [|destruct E2]. destruct E2 as [<-|[]]. exact K. }
    split.
    { exists 0, 1. split; [cbn; auto|]. split; [|exists (mk_nstate [] true); split; reflexivity]. apply ap_lab with 1; [|constructor].
      eexists _, _. split; [reflexivity|]. split; [left; reflexivity|]. split; [reflexivity|]. cbn. intros [H|[]]; discriminate. }
    split; [repeat constructor|]. split; [vm_compute; reflexivity|].
    intros [_ (f & H1 & H2)]. cbn in H1. inversion H1 as [|? ? q1 ? ? He H|? q1 ? ? He H]; subst; cbn in He; tauto.
Qed.
Print Assumptions C44_negated_labels_refuted.
(** Even the identity abstraction is not exact for negated sets: every class is fully covered, so nothing is excluded. *)
Theorem C44_negated_exact_refuted : exists m labels r a x, RI m /\ StronglySorted lt labels /\ all_known m labels /\ (forall y z b, class m y b -> class m z b -> y = z) /\
  encode_labels m labels true = Some r /\ denotes (rm_size m) true r a /\ class m x a /\ In x labels.
Proof.
  exists (mk_rmap [(1, 0); (2, 1)] [[0]; [1]]), [1], [], 0, 1. split.
  { split.
    - cbn. repeat constructor; cbn; intuition discriminate.
    - intros [|[|a]] ks H; try (injection H as <-); [| |destruct a; discriminate]; (split; [repeat constructor; cbn; intuition discriminate|]);
      intros k; destruct k as [|[|k]]; cbn; intuition (try discriminate); destruct k; discriminate.
    - intros k a H. destruct k as [|[|k]]; cbn in H; try (injection H as <-; cbn; lia). destruct k; discriminate. }
  split; [repeat constructor|]. split; [intros x [<-|[]]; exists 0; reflexivity|]. split.
  { assert (G: forall y b, class (mk_rmap [(1, 0); (2, 1)] [[0]; [1]]) y b -> y = S b).
    { intros y b H. unfold rm_exists, tm_exists in H. cbn in H. destruct y as [|[|[|y]]]; cbn in H; congruence. }
    intros y z b H1 H2. apply G in H1, H2. congruence. }
  split; [reflexivity|]. split; [split; [cbn; lia|intros []]|]. split; [reflexivity|cbn; auto].
Qed.
Print Assumptions C44_negated_exact_refuted.
(** The hypotheses of the theorems: numbers 0-5 modulo 2; the set {1,3,4}; the regular expression ([1] | .) [0]. *)
Example C44_example : exists m, option_map am_rm (am_of (fun x => x mod 2) [0; 1; 2; 3; 4; 5]) = Some m /\
  encode_labels m [1; 3; 4] false = Some [0; 1] /\ encode_labels m [1; 3] false = Some [1] /\ encode_labels m [1; 3] true = Some [1] /\ encode_labels m [1; 3; 5] true = Some [].
Proof. eexists. split; [vm_compute; reflexivity|]. repeat split. Qed.
