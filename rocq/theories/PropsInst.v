(** C65, C66: a solver instance read from JSON asks, and every engine answers, the reachability question that the document writes down. *)
From Coq Require Import List Arith Lia Bool ZArith String Permutation.
From Verif Require Import Base BaseFacts Spec SpecFacts PdaModel PdaProof TrieModel RefineModel MappingProof TypedModel TypedProof AutModel AutProof NfaModel RegexProof ConstructProof PreStarLang PostStarLang QueryProof ProductModel ProductProof
  PreStarProof SolverModel VerdictModel VerdictProof SolverProof PropsSolver JsonModel JsonSpec JsonProof AutJsonModel AutJsonSpec AutJsonProof InstModel InstSpec InstProof InstRun.
Import ListNotations.
Open Scope string_scope.
Open Scope nat_scope.

(** Edges without a label. *)
Definition no_empty (D : adoc) : Prop := forall s l s', In (s, l, s') (ad_edges D) -> l <> "".
(** Edges into states of the pushdown automaton. *)
Definition no_entry (i : idoc) (D : adoc) : Prop := forall s l s', In (s, l, s') (ad_edges D) -> doc_state (id_names i) (id_pda i) s' = false.
Definition no_negative_weight (wenc : list Z -> Z) (i : idoc) : Prop := forall f r, In (f, r) (drules (id_pda i)) ->
  match id_weight i with WVoid => True | WNum _ _ _ => (0 <= hd 0 (d_w r))%Z | WVec _ _ _ => (0 <= wenc (d_w r))%Z end.

(** The PDA and the automata of the solver instance, and the question of the document. *)
Definition asks (wenc : list Z -> Z) (ord : nat -> list nat -> list nat) (i : idoc) (T : tpda string string) (A1 A2 : aut) : Prop :=
  let P := t_rules T in
  (can_reach (pda_rules P) (aut_lang (pd_n P) A1) (aut_lang (pd_n P) A2) <-> inst_reach i) /\
  exists I, new_inst P ord A1 A2 = Some I /\
    (no_empty (id_first i) -> no_empty (id_second i) ->
     (no_entry i (id_first i) ->
        answers (fun fuel => post_star_accepts P fuel I) (fun v => fst v = true <-> inst_reach i) /\
        answers (fun fuel => post_star_accepts_no_ET P fuel I) (fun v => fst v = true <-> inst_reach i)) /\
     (no_negative_weight wenc i -> no_entry i (id_second i) ->
        answers (fun fuel => pre_star_accepts P fuel I) (fun v => fst v = true <-> inst_reach i)) /\
     (no_negative_weight wenc i -> no_entry i (id_first i) -> no_entry i (id_second i) ->
        answers (fun fuel => dual_search_accepts P fuel I) (fun v => fst v = true <-> inst_reach i))).

Lemma read_asks : forall asserts no_opl wenc ord i T A1 A2, (forall q l, Permutation (ord q l) l) -> inst_read asserts no_opl wenc ord i T A1 A2 -> asks wenc ord i T A1 A2.
Proof.
  intros asserts no_opl wenc ord i T2 A1 A2 HO (T & T1 & DS & HNum & HE & R1 & R2). destruct i as [names wk d D1 D2]. cbn [id_names id_weight id_pda id_first id_second] in *. set (cf := cf0 asserts no_opl wenc names wk) in *.
  assert (SM := inst_sem cf ord d T T1 T2 A1 A2 D1 D2 DS HE R1 R2 wk HNum). assert (W := both_wf cf ord d T T1 T2 A1 A2 D1 D2 HE R1 R2). unfold asks. cbv zeta. set (P := t_rules T2) in *. change (cf_names cf) with names in *. split; [exact SM|].
  assert (N1 : pd_n P <= a_size A1). { unfold P. assert (X := n_T cf ord T T1 T2 A1 A2 D1 D2 R1 R2). rewrite X. apply (ra_n _ _ _ _ _ _ R1). }
  assert (N2 : pd_n P <= a_size A2). { unfold P. assert (X := n_T1 cf ord T T1 T2 A1 A2 D1 D2 R1 R2). rewrite X. apply (ra_n _ _ _ _ _ _ R2). }
  destruct (pr_new_spec (pd_n P) A1 A2 false N1 N2 ord HO) as (pr & E0 & _). exists (mk_inst A1 A2 pr). assert (HI : new_inst P ord A1 A2 = Some (mk_inst A1 A2 pr)) by (unfold new_inst; rewrite E0; reflexivity). split; auto. clear E0. set (J := mk_inst A1 A2 pr) in *. clearbody J.
  intros NE1 NE2. cbn [id_first id_second] in NE1, NE2.
  assert (O1 : pre_ok P A1) by (apply (first_ok cf ord d T T1 T2 A1 A2 D1 D2 HE R1 R2 HO NE1)). assert (O2 : pre_ok P A2) by (apply (second_ok cf ord T T1 T2 A1 A2 D1 D2 R1 R2 HO NE2)).
  assert (I1 : no_entry (mk_idoc names wk d D1 D2) D1 -> no_in P A1) by (intros H; apply (first_no_in cf ord d T T1 T2 A1 A2 D1 D2 DS HE R1 R2 HNum H)).
  assert (I2 : no_entry (mk_idoc names wk d D1 D2) D2 -> no_in P A2) by (intros H; apply (second_no_in cf ord d T T1 T2 A1 A2 D1 D2 DS HE R1 R2 HNum H)).
  assert (LK : no_negative_weight wenc (mk_idoc names wk d D1 D2) -> lookup_ok P).
  { intros H. apply (no_negative cf ord d T T1 T2 A1 A2 D1 D2 HE R1 R2). intros f r Hr. specialize (H f r Hr). cbn [id_weight] in H. unfold wval, cf, cf0. cbn [cf_w cf_wenc]. destruct wk; auto. lia. }
  cbn [id_first id_second]. split; [|split].
  - intros NI. assert (PO : post_ok P A1) by (apply post_ok_pre_ok; auto). split.
    + destruct (post_accepts_out P W ord HO A1 A2 J HI (pre_ok_wf _ _ O2) N2 PO) as [H1 H2]. split; auto. intros fuel. destruct (H1 fuel) as [K|[b [J' [K KO]]]]; auto. right. exists (b, J'). split; auto. cbn [fst]. rewrite <- SM. eapply post_out_verdict; eauto.
    + destruct (post_no_ET_out P W ord HO A1 A2 J HI (pre_ok_wf _ _ O2) N2 PO) as [H1 H2]. split; auto. intros fuel. destruct (H1 fuel) as [K|[b [J' [K KO]]]]; auto. right. exists (b, J'). split; auto. cbn [fst]. rewrite <- SM. eapply post_out_verdict; eauto.
  - intros NW NI. destruct (pre_accepts_out P W ord HO A1 A2 J HI (pre_ok_wf _ _ O1) N1 O2) as [H1 H2]. split; auto. intros fuel. destruct (H1 fuel) as [K|[b [J' [K KO]]]]; auto. right. exists (b, J'). split; auto. cbn [fst]. rewrite <- SM. eapply pre_out_verdict; eauto.
  - intros NW NI1 NI2. assert (PO : post_ok P A1) by (apply post_ok_pre_ok; auto). destruct (dual_accepts_out P W ord HO A1 A2 J HI PO O2) as [H1 H2]. split; auto. intros fuel. destruct (H1 fuel) as [K|[b [J' [K KO]]]]; auto. right. exists (b, J'). split; auto. cbn [fst]. rewrite <- SM. eapply dual_out_verdict; eauto.
Qed.

(** * C65 *)
Theorem C65_instance_partial : forall asserts no_opl wenc ord j, (forall q l, Permutation (ord q l) l) -> regular_inst asserts j ->
  match inst_of asserts j with
  | Some i => exists T A1 A2, parse_inst asserts no_opl wenc ord j = Some (Some (T, A1, A2)) /\ asks wenc ord i T A1 A2
  | None => parse_inst asserts no_opl wenc ord j = Some None \/ (asserts = true /\ parse_inst asserts no_opl wenc ord j = None)
  end.
Proof.
  intros asserts no_opl wenc ord j HO HR. assert (X := inst_run asserts no_opl wenc ord j HR). destruct (inst_of asserts j) as [i|]; [|exact X]. destruct X as (T & A1 & A2 & X1 & X2). exists T, A1, A2. split; auto. eapply read_asks; eauto.
Qed.
Print Assumptions C65_instance_partial.

(** * C66 *)
Theorem C66_files_partial : forall asserts no_opl wenc ord names wk jp j1 j2, (forall q l, Permutation (ord q l) l) -> regular_files asserts names wk jp j1 j2 ->
  let cf := mk_jcfg names wk false asserts no_opl wenc in
  match files_of asserts names wk jp j1 j2 with
  | Some i => exists T A1 A2, parse_files cf ord jp j1 j2 = Some (Some (T, A1, A2)) /\ asks wenc ord i T A1 A2
  | None => parse_files cf ord jp j1 j2 = Some None \/ (asserts = true /\ parse_files cf ord jp j1 j2 = None)
  end.
Proof.
  intros asserts no_opl wenc ord names wk jp j1 j2 HO HR cf. assert (X := files_run asserts no_opl wenc ord names wk jp j1 j2 HR). destruct (files_of asserts names wk jp j1 j2) as [i|]; [|exact X]. destruct X as (T & A1 & A2 & X1 & X2). exists T, A1, A2. split; auto. eapply read_asks; eauto.
Qed.
Print Assumptions C66_files_partial.

(** ** Cases *)
Definition id_ord : nat -> list nat -> list nat := fun _ l => l.
Lemma id_ord_ok : forall q l, Permutation (id_ord q l) l.
Proof. intros. apply Permutation_refl. Qed.
Definition ex_type : json := JObj [("state-names", JBool true); ("weight-type", JStr "uint")].
Definition rl (to op x : string) (w : Z) : json := JObj [("to", JStr to); (op, JStr x); ("weight", JNum w)].
Definition ex_states : json := JObj [("states", JObj
  [("p0", JObj [("A", rl "p1" "pop" "" 1); ("B", rl "p0" "push" "A" 0)]);
   ("p1", JObj [("A", JArr [rl "p0" "swap" "A" 2; rl "p2" "push" "B" 1])]);
   ("p2", JObj [("B", rl "p2" "pop" "" 3)])])].
Definition ed (s : json) (l : string) (t : json) : json := JArr [s; JStr l; t].
Definition ex_first : list (string * json) := [("accepting", JArr [JNum 3]);
  ("edges", JArr [ed (JStr "p0") "A" (JNum 3); ed (JStr "p0") "B" (JNum 4); ed (JNum 4) "A" (JNum 3); ed (JStr "p1") "A" (JNum 3)])].
Definition ex_second : list (string * json) := [("accepting", JArr [JStr "p2"; JNum 3]); ("edges", JArr [ed (JStr "p2") "A" (JNum 3)])].
Definition inst (l : list json) : json := JObj [("instance", JArr l)].
(** examples/example-instance.json. *)
Definition ex_json : json := inst [ex_type; ex_states; JObj ex_first; JObj ex_second].
Definition ex_doc : doc :=
  [(SName "p0", [("A", [mk_drule (SName "p1") DPop [1%Z]]); ("B", [mk_drule (SName "p0") (DPush "A") [0%Z]])]);
   (SName "p1", [("A", [mk_drule (SName "p0") (DSwap "A") [2%Z]; mk_drule (SName "p2") (DPush "B") [1%Z]])]);
   (SName "p2", [("B", [mk_drule (SName "p2") DPop [3%Z]])])].
Definition ex_D1 : adoc := mk_adoc [SNum 3] [(SName "p0", "A", SNum 3); (SName "p0", "B", SNum 4); (SNum 4, "A", SNum 3); (SName "p1", "A", SNum 3)].
Definition ex_D2 : adoc := mk_adoc [SName "p2"; SNum 3] [(SName "p2", "A", SNum 3)].
Definition ex_i : idoc := mk_idoc true (WNum false 0 4294967295) ex_doc ex_D1 ex_D2.
(** The verdicts of post*, pre* and the dual search. *)
Definition verdicts (x : option (option (tpda string string * aut * aut))) : option (list (option (option bool))) :=
  match x with
  | Some (Some (T, A1, A2)) =>
      match new_inst (t_rules T) id_ord A1 A2 with
      | Some J => Some [verdict (post_star_accepts (t_rules T) 100 J); verdict (pre_star_accepts (t_rules T) 100 J); verdict (dual_search_accepts (t_rules T) 100 J)]
      | None => None
      end
  | _ => None
  end.
Definition read (j : json) := parse_inst true 99 (hd 0%Z) id_ord j.
Lemma ex_regular : regular_inst true ex_json.
Proof.
  cbn. intros _. split; [repeat constructor; cbn; intros H; try discriminate H; discriminate|]. intros names wk E. injection E as <- <-. split.
  - repeat constructor; intros [].
  - intros d E. vm_compute in E. injection E as <-. split; [intros K; discriminate|]. split.
    + exists false. repeat constructor; cbn; auto; try discriminate; intros [].
    + split; [|constructor]. exists false. repeat constructor; cbn; auto; try discriminate; intros [].
Qed.
Example C65_example : regular_inst true ex_json /\ inst_of true ex_json = Some ex_i /\ no_empty ex_D1 /\ no_empty ex_D2 /\ no_entry ex_i ex_D1 /\ no_entry ex_i ex_D2 /\
  no_negative_weight (hd 0%Z) ex_i /\ inst_reach ex_i /\ verdicts (read ex_json) = Some [Some (Some true); Some (Some true); Some (Some true)].
Proof.
  split; [apply ex_regular|]. split; [vm_compute; reflexivity|]. split. { intros s l s' H. cbn in H. intuition congruence. } split. { intros s l s' H. cbn in H. intuition congruence. }
  split. { intros s l s' H. cbn in H. intuition; match goal with K : (_, _, _) = _ |- _ => injection K as <- <- <-; reflexivity end. }
  split. { intros s l s' H. cbn in H. intuition; match goal with K : (_, _, _) = _ |- _ => injection K as <- <- <-; reflexivity end. }
  split. { intros f r H. cbn in H. cbn. intuition; match goal with K : (_, _) = _ |- _ => injection K as <- <-; cbn; lia end. }
  split; [|vm_compute; reflexivity].
  exists (SName "p1"), ["A"], (SName "p2"), ["A"]. split; [reflexivity|]. split. { exists (SNum 3). split; [cbn; auto|]. apply dp_label with (SNum 3); [cbn; auto|discriminate|constructor]. }
  split; [|exists (SNum 3); split; [cbn; auto|]; apply dp_label with (SNum 3); [cbn; auto|discriminate|constructor]].
  apply dr_step with (SName "p2", ["B"; "A"]).
  { apply (dstep_rule _ _ (mk_nrule (SName "p1") "A" (SName "p2") (DPush "B") [1%Z]) []). eexists; eexists; eexists; eexists. split; [right; left; reflexivity|]. split; [left; reflexivity|]. split; [right; left; reflexivity|]. repeat split. }
  apply dr_step with (SName "p2", ["A"]); [|constructor].
  apply (dstep_rule _ _ (mk_nrule (SName "p2") "B" (SName "p2") DPop [3%Z]) ["A"]). eexists; eexists; eexists; eexists. split; [right; right; left; reflexivity|]. split; [left; reflexivity|]. split; [left; reflexivity|]. repeat split.
Qed.
(** The same with an accepting automaton that needs another A on the stack: the answer is no. *)
Definition ex_json_no : json := inst [ex_type; ex_states; JObj ex_first; JObj [("edges", JArr [ed (JStr "p2") "A" (JNum 3); ed (JNum 3) "B" (JNum 4)]); ("accepting", JArr [JNum 4])]].
Example C65_no_example : verdicts (read ex_json_no) = Some [Some (Some false); Some (Some false); Some (Some false)] /\ inst_of true ex_json_no <> None.
Proof. split; [vm_compute; reflexivity|vm_compute; discriminate]. Qed.
(** Documents that are rejected, with the hypothesis of the theorem. *)
Example C65_reject_example : Forall (fun j => regular_inst true j /\ inst_of true j = None /\ read j = Some None)
  [inst []; inst [ex_type]; inst [ex_type; ex_states]; inst [ex_type; ex_states; JObj ex_first]; inst [ex_type; ex_states; JObj ex_first; JObj ex_second; JObj []];
   JObj [("instance", JArr [ex_type; ex_states; JObj ex_first; JObj ex_second]); ("instance", JNull)]; JObj []; JNull].
Proof.
  assert (R : forall l, no_arrays l -> regular_inst true (inst ([ex_type; ex_states; JObj ex_first; JObj ex_second] ++ l)%list)).
  { intros l Hl. assert (X := ex_regular). cbn in X |- *. intros E. destruct (X E) as [X1 X2]. split; auto. intros names wk H. destruct (X2 names wk H) as [X3 X4]. split; auto. intros d Hd. destruct (X4 d Hd) as (X5 & X6 & X7 & _). auto. }
  assert (X := ex_regular). cbn in X. destruct (X eq_refl) as [X1 X2].
  repeat apply Forall_cons; try apply Forall_nil; (split; [|split; [vm_compute; reflexivity|vm_compute; reflexivity]]).
  - cbn. auto.
  - cbn. intros _. split; auto.
  - cbn. intros _. split; auto. intros names wk H. destruct (X2 names wk H) as [X3 X4]. split; auto. intros d Hd. destruct (X4 d Hd) as (X5 & _). auto.
  - cbn. intros _. split; auto. intros names wk H. destruct (X2 names wk H) as [X3 X4]. split; auto. intros d Hd. destruct (X4 d Hd) as (X5 & X6 & _). auto.
  - apply (R [JObj []]). repeat constructor. intros [].
  - apply ex_regular.
  - exact Logic.I.
  - exact Logic.I.
Qed.

(** Three documents, without names and weights. *)
Definition ex_files_pda : json := JObj [("pda", JObj [("states", JArr [JObj [("a", JObj [("to", JNum 1); ("push", JStr "b")])]; JObj [("*", JObj [("to", JNum 2); ("pop", JStr "")])]; JObj []])])].
Definition ex_file1 : json := JObj [("P-automaton", JObj [("initial", JArr [JNum 0]); ("accepting", JArr [JNum 5]); ("edges", JArr [ed (JNum 0) "a" (JNum 5)])])].
Definition ex_file2 : json := JObj [("P-automaton", JObj [("accepting", JArr [JNum 9]); ("edges", JArr [ed (JNum 2) "a" (JNum 9)]); ("initial", JArr [JNum 2])])].
Definition ex_files_cf : jcfg := mk_jcfg false WVoid false true 99 (hd 0%Z).
Example C66_example : regular_files true false WVoid ex_files_pda ex_file1 ex_file2 /\
  (exists i, files_of true false WVoid ex_files_pda ex_file1 ex_file2 = Some i /\ no_empty (id_first i) /\ no_empty (id_second i) /\ no_entry i (id_first i) /\ no_entry i (id_second i) /\ no_negative_weight (hd 0%Z) i /\ inst_reach i) /\
  verdicts (parse_files ex_files_cf id_ord ex_files_pda ex_file1 ex_file2) = Some [Some (Some true); Some (Some true); Some (Some true)] /\
  verdicts (parse_files ex_files_cf id_ord ex_files_pda ex_file2 ex_file1) = Some [Some (Some false); Some (Some false); Some (Some false)].
Proof.
  split.
  { split; [repeat constructor; intros []|]. intros d E. vm_compute in E. injection E as <-. split.
    - intros _ v H. cbn in H. destruct v as [|[|[|v]]]; try reflexivity; lia.
    - split; cbn; constructor; try constructor; intros _; exists false; repeat constructor; cbn; auto; try discriminate; intros []. }
  split; [|split; vm_compute; reflexivity]. eexists. split; [vm_compute; reflexivity|]. cbn [id_first id_second].
  split. { intros s l s' H. cbn in H. intuition congruence. } split. { intros s l s' H. cbn in H. intuition congruence. }
  split. { intros s l s' H. cbn in H. intuition; match goal with K : (_, _, _) = _ |- _ => injection K as <- <- <-; reflexivity end. }
  split. { intros s l s' H. cbn in H. intuition; match goal with K : (_, _, _) = _ |- _ => injection K as <- <- <-; reflexivity end. }
  split. { intros f r H. exact Logic.I. }
  exists (SNum 0), ["a"], (SNum 2), ["a"]. split; [reflexivity|]. split. { exists (SNum 5). split; [cbn; auto|]. apply dp_label with (SNum 5); [cbn; auto|discriminate|constructor]. }
  split; [|exists (SNum 9); split; [cbn; auto|]; apply dp_label with (SNum 9); [cbn; auto|discriminate|constructor]].
  cbn [id_pda]. apply dr_step with (SNum 1, ["b"; "a"]).
  { apply (dstep_rule _ _ (mk_nrule (SNum 0) "a" (SNum 1) (DPush "b") []) []). eexists; eexists; eexists; eexists. split; [left; reflexivity|]. split; [left; reflexivity|]. split; [left; reflexivity|]. repeat split. }
  apply dr_step with (SNum 2, ["a"]); [|constructor].
  apply (dstep_rule _ _ (mk_nrule (SNum 1) "b" (SNum 2) DPop []) ["a"]). eexists; eexists; eexists; eexists. split; [right; left; reflexivity|]. split; [left; reflexivity|]. split; [left; reflexivity|]. repeat split. vm_compute. auto.
Qed.

(** ** Where the parser is wrong *)
Definition ty (n : bool) (w : json) : json := JObj [("state-names", JBool n); ("weight-type", w)].
(** A weight type that is an array with a length, as to_json (PDA.h 402-412) writes it, is never read. *)
Theorem C65_array_length_refuted : forall asserts no_opl wenc ord n s z l m,
  parse_inst asserts no_opl wenc ord (JObj (("instance", JArr (ty n (JArr [JStr s; JNum z]) :: l)) :: m)) = Some None.
Proof. intros. unfold parse_inst, ty. cbn [events flat_map fst snd app]. destruct (z <? 0)%Z; reflexivity. Qed.
Print Assumptions C65_array_length_refuted.
Definition no_states (names : bool) : json := JObj [("states", if names then JObj [] else JArr [])].
Definition none_aut : json := JObj [("accepting", JArr []); ("edges", JArr [])].
Example C65_array_length_instance : exists i, inst_of true (inst [ty true (JArr [JStr "uint"; JNum 2]); no_states true; none_aut; none_aut]) = Some i.
Proof. eexists. vm_compute. reflexivity. Qed.
(** Any other string for the weight type is read as no weights. *)
Theorem C65_unknown_weight_refuted : inst_of true (inst [ty true (JStr "double"); no_states true; none_aut; none_aut]) = None /\
  exists x, read (inst [ty true (JStr "double"); no_states true; none_aut; none_aut]) = Some (Some x).
Proof. split; [vm_compute; reflexivity|]. eexists. vm_compute. reflexivity. Qed.
Print Assumptions C65_unknown_weight_refuted.
(** Nested arrays for the weight type are read. *)
Theorem C65_nested_weight_refuted : inst_of true (inst [ty true (JArr [JArr [JStr "uint"]]); no_states true; none_aut; none_aut]) = None /\
  exists x, read (inst [ty true (JArr [JArr [JStr "uint"]]); no_states true; none_aut; none_aut]) = Some (Some x).
Proof. split; [vm_compute; reflexivity|]. eexists. vm_compute. reflexivity. Qed.
Print Assumptions C65_nested_weight_refuted.
(** A number for the type: the top of an empty stack is read. *)
Theorem C65_number_type_refuted : forall asserts no_opl wenc ord z l m, (0 <= z)%Z -> parse_inst asserts no_opl wenc ord (JObj (("instance", JArr (JNum z :: l)) :: m)) = None.
Proof. intros asserts no_opl wenc ord z l m H. unfold parse_inst. cbn [events flat_map fst snd app]. destruct (Z.ltb_spec z 0); [lia|reflexivity]. Qed.
Print Assumptions C65_number_type_refuted.
(** A fifth element that is an array starts the instance again: the parser reads the inner instance (for which the answer is yes) in place of the
    outer one (no). *)
Definition ex_twice : json := inst [ex_type; ex_states; JObj ex_first; none_aut; JArr [ex_type; ex_states; JObj ex_first; JObj ex_second]].
Theorem C65_fifth_element_refuted : inst_of true ex_twice = None /\ verdicts (read ex_twice) = Some [Some (Some true); Some (Some true); Some (Some true)] /\
  verdicts (read (inst [ex_type; ex_states; JObj ex_first; none_aut])) = Some [Some (Some false); Some (Some false); Some (Some false)].
Proof. split; [|split]; vm_compute; reflexivity. Qed.
Print Assumptions C65_fifth_element_refuted.
(** States without names exist only up to the largest number in a rule: here both automata accept the empty stack in state 0 of a PDA with one state
    and no rules, so the question has the answer yes, but the solvers answer no. *)
Definition ex_unruled : json := inst [ty false (JStr "none"); JObj [("states", JArr [JObj []])]; JObj [("accepting", JArr [JNum 0]); ("edges", JArr [])]; JObj [("accepting", JArr [JNum 0]); ("edges", JArr [])]].
Theorem C65_unruled_state_refuted : (exists i, inst_of true ex_unruled = Some i /\ inst_reach i) /\ verdicts (read ex_unruled) = Some [Some (Some false); Some (Some false); Some (Some false)].
Proof.
  split; [|vm_compute; reflexivity]. eexists. split; [vm_compute; reflexivity|]. exists (SNum 0), [], (SNum 0), []. split; [reflexivity|]. split; [exists (SNum 0); split; [cbn; auto|constructor]|]. split; [constructor|exists (SNum 0); split; [cbn; auto|constructor]].
Qed.
Print Assumptions C65_unruled_state_refuted.
