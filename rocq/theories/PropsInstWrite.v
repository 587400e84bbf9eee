(** C67, C68: P-automata and solver instances that were written as JSON are read back as the same automata and the same question. *)
From Coq Require Import List Arith Lia Bool ZArith String Permutation.
From Verif Require Import Base BaseFacts Spec SpecFacts PdaModel PdaProof TrieModel RefineModel MappingProof TypedModel TypedProof AutModel AutProof NfaModel ConstructProof PreStarLang PostStarLang QueryProof ProductModel
  SolverModel VerdictModel JsonModel JsonSpec JsonProof JsonWrite AutJsonModel AutJsonSpec AutJsonProof InstModel InstSpec InstProof InstRun InstWriteModel InstWriteProof PropsJson PropsAutJson PropsInst.
Import ListNotations.
Open Scope string_scope.
Open Scope nat_scope.

(** * C67 *)
(** What was written of an automaton is read back as an automaton with the same language, and leaves the PDA as it is. *)
Theorem C67_automaton_partial : forall names asserts ord T A m, named_pda T -> (names = true -> pd_n (t_rules T) = length (t_states T)) -> 0 < pd_n (t_rules T) -> aut_fits names T A m ->
  exists j T' A', aut_to_json names T A m = Some j /\ parse_aut names false asserts ord T j = Some (Some (T', A')) /\
    t_states T' = t_states T /\ t_labels T' = t_labels T /\ pd_states (t_rules T') = pd_states (t_rules T) /\
    forall c, aut_lang (pd_n (t_rules T')) A' c <-> aut_lang (pd_n (t_rules T)) A c.
Proof.
  intros names asserts ord T A m NP HN L0 HA. destruct NP as [N1 N2 N3 N4]. assert (HP : pda_fits names T) by (constructor; auto).
  assert (HK : forall q, q < pd_n (t_rules T) -> known_in T (ref_at names T m q) = true).
  { intros q L. unfold ref_at. destruct names; [|cbn; apply Nat.ltb_lt; auto]. assert (L' := L). apply Nat.ltb_lt in L'. rewrite L'. cbn.
    assert (E : exists_state String.eqb T (nth q (t_states T) "") = Some q) by (apply (tr_index_nth string String.eqb String.eqb_eq); auto; apply List.nth_error_nth'; rewrite <- HN; auto). rewrite E. auto. }
  destruct (aut_value names T A m true) as [p|] eqn:EV; [|rewrite (InstWriteProof.value_ok names T A m HP HA) in EV; discriminate].
  assert (R1 := written_read names T A m HP HA (known_in T) HK true false p EV (fun _ => conj eq_refl L0)). assert (R2 := written_regular names T A m HP HA (known_in T) HK true p EV).
  exists (JObj [("P-automaton", p)]). assert (X := adoc_run names false asserts ord T N2 N3 N4 eq_refl (JObj [("P-automaton", p)])).
  cbn [adoc_of] in X. change (String.eqb "P-automaton" "P-automaton") with true in X. cbn [andb] in X. rewrite R1 in X. destruct X as (T' & A' & X1 & X2); [repeat constructor; auto|]. exists T', A'. assert (SP := ra_pda _ _ _ _ _ _ X2).
  assert (EL : t_labels T' = t_labels T).
  { destruct (ra_labels _ _ _ _ _ _ X2) as (new & L1 & L2). destruct new as [|x new]; [rewrite app_nil_r in L1; auto|]. exfalso. assert (ND := sp_nd _ _ SP). rewrite L1 in ND. apply NoDup_remove_2 in ND. apply ND. apply in_or_app. left.
    apply (written_labels names T A m HA). apply L2. cbn. auto. }
  assert (NN : pd_n (t_rules T') = pd_n (t_rules T)) by (unfold pd_n; rewrite (sp_rules _ _ SP); auto).
  split; [unfold aut_to_json; rewrite EV; reflexivity|]. split; auto. split; [apply SP|]. split; auto. split; [apply SP|]. intros [q v]. rewrite NN.
  assert (G : (forall x, In x v -> x < length (t_labels T)) -> q < pd_n (t_rules T) -> (aut_lang (pd_n (t_rules T)) A' (q, v) <-> aut_lang (pd_n (t_rules T)) A (q, v))).
  { intros HV L. destruct (word_names T v N3 HV) as [w HW]. rewrite (written_lang names T A m HP HA q w v L HW). apply (ra_lang _ _ _ _ _ _ X2).
    - assert (K := HK q L). unfold ref_at in *. unfold state_id. destruct names eqn:EN; auto. assert (L' := L). apply Nat.ltb_lt in L'. rewrite L' in *. split; auto. apply (tr_index_nth string String.eqb String.eqb_eq); auto. apply List.nth_error_nth'. rewrite <- HN; auto.
    - unfold exists_label in *. rewrite EL. auto. }
  split; intros H; assert (H' := H); destruct H' as (L & f & P & _); cbn [fst snd] in *; apply G; auto; intros x Hx; destruct (apath_labels _ _ _ _ P x Hx) as (a & b & He).
  - assert (K : x < pd_nlab (t_rules T')) by (apply (ra_range _ _ _ _ _ _ X2 a (Some x) b He); auto). rewrite (sp_n _ _ SP), EL in K. auto.
  - apply (af_range _ _ _ _ HA a (Some x) b He). auto.
Qed.
Print Assumptions C67_automaton_partial.

(** * C68 *)
(** The weights that a weight type reads. *)
Definition kind (t : wtype) : wkind :=
  match t with
  | TNone => WVoid
  | TNum false => WNum false 0 4294967295
  | TNum true => WNum true (-2147483648) 2147483647
  | TVec false | TArr false _ => WVec false 0 4294967295
  | TVec true | TArr true _ => WVec true (-2147483648) 2147483647
  end.
Definition fixed_length (t : wtype) : Prop := match t with TArr _ _ => True | _ => False end.
Definition no_eps (A : aut) : Prop := forall q q', ~ aut_edges A q None q'.
Lemma type_ok : forall names t, ~ fixed_length t -> type_of (type_value names t) = Some (names, kind t) /\ regular_type (type_value names t).
Proof.
  intros names t H. destruct t as [|[]|[]|sg n]; [| | | | |destruct H; exact Logic.I]; (split; [reflexivity|]); repeat constructor; cbn; try discriminate; intros _; try discriminate; eexists; (split; [reflexivity|discriminate]).
Qed.
Theorem C68_instance_partial : forall asserts no_opl wenc wjson ord names t cs T A1 m1 A2 m2, (forall q l, Permutation (ord q l) l) ->
  let cf := mk_jcfg names (kind t) false asserts no_opl wenc in
  do_tcalls String.eqb String.eqb no_opl true cs tp_empty = Some T -> Forall (nodup_call string string) cs -> writable cf wjson cs T -> last_used names T -> ~ fixed_length t ->
  aut_fits names T A1 m1 -> aut_fits names T A2 m2 ->
  let P := t_rules T in let Q := can_reach (pda_rules P) (aut_lang (pd_n P) A1) (aut_lang (pd_n P) A2) in
  exists j T' A1' A2', inst_to_json wjson names t T A1 m1 A2 m2 = Some j /\ parse_inst asserts no_opl wenc ord j = Some (Some (T', A1', A2')) /\
    let P' := t_rules T' in
    (can_reach (pda_rules P') (aut_lang (pd_n P') A1') (aut_lang (pd_n P') A2') <-> Q) /\
    exists I, new_inst P' ord A1' A2' = Some I /\
      (no_eps A1 -> no_eps A2 ->
       (no_in P A1 -> answers (fun fuel => post_star_accepts P' fuel I) (fun v => fst v = true <-> Q) /\ answers (fun fuel => post_star_accepts_no_ET P' fuel I) (fun v => fst v = true <-> Q)) /\
       ((forall p e, In e (rules_at P p) -> (0 <= r_w (fst e))%Z) ->
        (no_in P A2 -> answers (fun fuel => pre_star_accepts P' fuel I) (fun v => fst v = true <-> Q)) /\
        (no_in P A1 -> no_in P A2 -> answers (fun fuel => dual_search_accepts P' fuel I) (fun v => fst v = true <-> Q)))).
Proof.
  intros asserts no_opl wenc wjson ord names t cs T A1 m1 A2 m2 HO cf E ND HWr HL HF F1 F2 P Q. assert (HWF : wf_pda P) by (eapply typed_wf; [apply String.eqb_eq|apply String.eqb_eq|exact ND|exact E]).
  destruct (writable_facts cf wjson true cs T E HWr) as (HI & HW & HT & HN & HS).
  destruct (inst_ok cf wjson cs T A1 A2 m1 m2 HI HWF HW HN HS HL F1 F2) as (p & d & J1 & J2 & J3 & J4 & J5 & J6 & J7). cbn [cf cf_names cf_w cf_asserts] in J1, J2, J3, J4, J5, J7. change (cf_names cf) with names in *.
  assert (HP : pda_fits names T) by (constructor; auto; apply HI). set (D1 := written_aut names T A1 m1) in *. set (D2 := written_aut names T A2 m2) in *.
  assert (HK : forall m q, q < pd_n (t_rules T) -> doc_state names d (ref_at names T m q) = true).
  { intros m q L. apply J4. exists q. split; auto. apply (ref_resolves cf cs T A1 A2 m1 m2 HI HN HL F1 F2); auto. }
  destruct (aut_value names T A1 m1 false) as [a1|] eqn:E1; [|rewrite (InstWriteProof.value_ok names T A1 m1 HP F1) in E1; discriminate].
  destruct (aut_value names T A2 m2 false) as [a2|] eqn:E2; [|rewrite (InstWriteProof.value_ok names T A2 m2 HP F2) in E2; discriminate].
  assert (O : true = false -> false = true /\ 0 < pd_n (t_rules T)) by discriminate.
  assert (R1 := written_read names T A1 m1 HP F1 _ (HK m1) false true a1 E1 O). assert (R2 := written_read names T A2 m2 HP F2 _ (HK m2) false true a2 E2 O).
  assert (S1 := written_regular names T A1 m1 HP F1 _ (HK m1) false a1 E1). assert (S2 := written_regular names T A2 m2 HP F2 _ (HK m2) false a2 E2).
  destruct (type_ok names t HF) as [Y1 Y2]. set (j := JObj [("instance", JArr [type_value names t; p; a1; a2])]).
  assert (RI : regular_inst asserts j).
  { cbn -[type_of regular_type]. intros _. split; auto. intros names' wk EQ. rewrite Y1 in EQ. injection EQ as <- <-. split; auto. intros d' Ed. rewrite J3 in Ed. injection Ed as <-. split; auto. split; auto. split; auto. constructor. }
  assert (IO : inst_of asserts j = Some (mk_idoc names (kind t) d D1 D2)).
  { unfold inst_of, j. change (String.eqb "instance" "instance") with true. cbv iota. rewrite Y1. cbn [obind fst snd]. unfold parts_of. rewrite J3. cbn [obind]. rewrite R1. cbn [obind]. rewrite R2. reflexivity. }
  assert (X := C65_instance_partial asserts no_opl wenc ord j HO RI). rewrite IO in X. destruct X as (T' & A1' & A2' & X1 & X2 & I & X3 & X4). exists j, T', A1', A2'.
  split; [unfold inst_to_json; rewrite J1, E1, E2; reflexivity|]. split; auto. cbv zeta. assert (EQ : inst_reach (mk_idoc names (kind t) d D1 D2) <-> Q) by (symmetry; exact J7).
  split; [rewrite X2; auto|]. exists I. split; auto. intros NE1 NE2. cbn [id_first id_second] in X4.
  assert (Z1 : forall A m, aut_fits names T A m -> no_eps A -> no_empty (written_aut names T A m)).
  { clear - HP. intros A m F N s l s' H. apply edge_In in H; auto. destruct H as (q & [x|] & q' & He & _ & -> & _); [|destruct (N _ _ He)]. cbn. assert (L := af_range _ _ _ _ F _ _ _ He). destruct L as (_ & _ & L). specialize (L x eq_refl). intros K.
    apply (af_label _ _ _ _ F _ _ _ He). unfold get_symbol, ts_at. rewrite (List.nth_error_nth' _ "" L), K. auto. }
  assert (Z2 : forall A m, aut_fits names T A m -> no_in P A -> no_entry (mk_idoc names (kind t) d D1 D2) (written_aut names T A m)).
  { intros A m F N s l s' H. apply edge_In in H; auto. destruct H as (q & x & q' & He & _ & _ & ->). specialize (N _ _ _ He). cbn [id_names id_pda]. destruct (doc_state names d (ref_at names T m q')) eqn:ES; auto. exfalso. apply J4 in ES. destruct ES as (i & Li & Hi).
    assert (EI : ref_at names T m q' = ref_at names T m i) by (apply (resolves_ref cf cs T A1 A2 m1 m2 HI HN HL F1 F2); auto). assert (q' = i) by (apply (ref_inj names T A m HP F); auto; [apply (af_range _ _ _ _ F _ _ _ He)|assert (U := af_n _ _ _ _ F); lia]). subst. unfold P in N. lia. }
  destruct (X4 (Z1 A1 m1 F1 NE1) (Z1 A2 m2 F2 NE2)) as (V1 & V2 & V3). clear X4.
  assert (AN : forall X (f : nat -> option (option (bool * X))), answers f (fun v => fst v = true <-> inst_reach (mk_idoc names (kind t) d D1 D2)) -> answers f (fun v => fst v = true <-> Q)).
  { intros X f [K1 K2]. split; auto. intros fuel. destruct (K1 fuel) as [K|(v & K & K3)]; auto. right. exists v. split; auto. rewrite <- EQ. auto. }
  split; [intros N; destruct (V1 (Z2 A1 m1 F1 N)); split; apply AN; auto|]. intros NW.
  assert (NN : no_negative_weight wenc (mk_idoc names (kind t) d D1 D2)).
  { intros f r Hr. cbn [id_weight id_pda] in *. destruct (J6 f r Hr) as (q & e & K1 & K2). apply NW in K1. rewrite <- K2 in K1. unfold wval, cf in K1. cbn [cf_w cf_wenc] in K1. destruct (kind t); auto. }
  split; [intros N2; apply AN; apply V2|intros N1 N2; apply AN; apply V3]; auto; apply Z2; auto.
Qed.
Print Assumptions C68_instance_partial.

(** ** Cases *)
Definition w_calls : list (tcall string string) :=
  [TState "p"; TState "q"; TLabel "a"; TLabel "b"; TRule 0 1 PUSH "b" false ["a"] 2; TRule 1 1 POP "" false ["b"] 1; TRule 1 0 SWAP "b" true [] 7].
Definition w_T : tpda string string := built w_calls.
Definition w_aut (acc : list bool) (es : list (nat * option nat * nat)) : aut := mk_aut acc (map (fun e => (mk_edge (fst (fst e)) (snd (fst e)) (snd e), TNull)) es) id_ord.
(** p -a-> x, x -b-> x, x accepting; and q -a-> 2, 2 accepting. *)
Definition w_A1 : aut := w_aut [false; false; true] [(0, Some 0, 2); (2, Some 1, 2)].
Definition w_A2 : aut := w_aut [false; false; true] [(1, Some 0, 2)].
Ltac in_cases := repeat match goal with K : _ \/ _ |- _ => destruct K as [K|K] | K : False |- _ => destruct K end.
Ltac fits_tac := constructor; [vm_compute; lia|intros q l; apply Permutation_refl
  |intros q l q' H; vm_compute in H; in_cases; injection H as <- <- <-; vm_compute; (split; [lia|split; [lia|]]); intros x K; try discriminate K; injection K as <-; lia
  |intros q x q' H; vm_compute in H; in_cases; injection H as <- <- <-; vm_compute; discriminate|exists 2; reflexivity|].
Lemma w_fits1 : aut_fits true w_T w_A1 ["x"].
Proof. fits_tac. intros _. split; [repeat constructor; intros []|]. split; [|right; vm_compute; lia]. vm_compute. intros s [<-|[]] K. in_cases; discriminate. Qed.
Lemma w_fits2 : aut_fits true w_T w_A2 [].
Proof. fits_tac. intros _. split; [constructor|]. split; [intros s []|auto]. Qed.
Lemma w_named : named_pda w_T.
Proof. constructor; vm_compute; repeat constructor; cbn; intuition discriminate. Qed.
Definition w_json : json := JObj [("P-automaton", JObj [("accepting", JArr [JStr "x"]); ("edges", JArr [js3 "p" "a" "x"; js3 "x" "b" "x"]); ("initial", JArr [JStr "p"; JStr "q"])])].
Example C67_example : named_pda w_T /\ pd_n (t_rules w_T) = length (t_states w_T) /\ 0 < pd_n (t_rules w_T) /\ aut_fits true w_T w_A1 ["x"] /\
  aut_to_json true w_T w_A1 ["x"] = Some w_json /\ aut_lang 2 w_A1 (0, [0; 1]) /\ ~ aut_lang 2 w_A1 (1, [0]).
Proof.
  split; [apply w_named|]. split; [reflexivity|]. split; [vm_compute; lia|]. split; [apply w_fits1|]. split; [reflexivity|]. split.
  - split; [cbn; lia|]. exists 2. split; [|reflexivity]. cbn [snd fst]. apply ap_lab with 2; [cbn; auto|]. apply ap_lab with 2; [cbn; auto|]. constructor.
  - intros (_ & f & H & _). cbn [fst snd] in H. inversion H as [|? ? ? ? ? H1|? ? ? ? H1]; subst; vm_compute in H1; in_cases; discriminate.
Qed.
Definition w_type : json := JObj [("state-names", JBool true); ("weight-type", JStr "uint")].
Definition wrote_inst (t : wtype) (T : tpda string string) (A1 A2 : aut) : json := match inst_to_json wj true t T A1 ["x"] A2 [] with Some j => j | None => JNull end.
Example C68_example : do_tcalls String.eqb String.eqb 99 true w_calls tp_empty = Some w_T /\ Forall (nodup_call string string) w_calls /\ writable (mk_jcfg true (kind (TNum false)) false true 99 (hd 0%Z)) wj w_calls w_T /\
  last_used true w_T /\ ~ fixed_length (TNum false) /\ aut_fits true w_T w_A1 ["x"] /\ aut_fits true w_T w_A2 [] /\ no_eps w_A1 /\ no_eps w_A2 /\ no_in (t_rules w_T) w_A1 /\ no_in (t_rules w_T) w_A2 /\
  (forall p e, In e (rules_at (t_rules w_T) p) -> (0 <= r_w (fst e))%Z) /\
  verdicts (read (wrote_inst (TNum false) w_T w_A1 w_A2)) = Some [Some (Some true); Some (Some true); Some (Some true)] /\
  verdicts (read (wrote_inst (TNum false) w_T w_A1 (w_aut [false; false; true] [(1, Some 1, 2)]))) = Some [Some (Some false); Some (Some false); Some (Some false)].
Proof.
  split; [vm_compute; reflexivity|]. split; [repeat constructor; cbn; intuition discriminate|]. split.
  { split; [cbn; intuition congruence|]. intros p to o opl wc pre w H. cbn in H. in_cases; try discriminate H; injection H as <- <- <- <- <- <- <-; (split; [eexists; split; [vm_compute; reflexivity|reflexivity]|intros _; vm_compute; split; repeat constructor]). }
  split; [discriminate|]. split; [intros []|]. split; [apply w_fits1|]. split; [apply w_fits2|].
  split. { intros q q' H. vm_compute in H. in_cases; discriminate. } split. { intros q q' H. vm_compute in H. in_cases; discriminate. }
  split. { intros q l q' H. vm_compute in H. in_cases; injection H as <- <- <-; vm_compute; lia. } split. { intros q l q' H. vm_compute in H. in_cases; injection H as <- <- <-; vm_compute; lia. }
  split; [|split; vm_compute; reflexivity]. intros p e H. destruct p as [|[|p]]; vm_compute in H; in_cases; subst; cbn; try lia. destruct p; destruct H.
Qed.

(** ** What is lost *)
(** Without accepting states there is no member "accepting", which the parsers require. *)
Definition w_dead : aut := w_aut [false; false; false] [(0, Some 0, 2)].
Theorem C67_no_accepting_refuted : (exists j, aut_to_json true w_T w_dead [] = Some j /\ parse_aut true false true id_ord w_T j = Some None) /\
  (exists j, inst_to_json wj true (TNum false) w_T w_dead [] w_A2 [] = Some j /\ read j = Some None).
Proof. split; eexists; (split; [reflexivity|vm_compute; reflexivity]). Qed.
Print Assumptions C67_no_accepting_refuted.
(** The automaton of a PDA without states has no member "initial", which the parser requires. *)
Theorem C67_no_states_refuted : exists j, aut_to_json true tp_empty (w_aut [true] []) [] = Some j /\ parse_aut true false true id_ord tp_empty j = Some None.
Proof. eexists. split; [reflexivity|vm_compute; reflexivity]. Qed.
Print Assumptions C67_no_states_refuted.
(** An edge with the empty label is read back as an edge without a label. *)
Definition w_Te : tpda string string := built [TState "p"; TLabel ""].
Definition w_Ae : aut := w_aut [false; true] [(0, Some 0, 1)].
Theorem C67_empty_label_refuted : exists j T' A', aut_to_json true w_Te w_Ae ["x"] = Some j /\ parse_aut true false true id_ord w_Te j = Some (Some (T', A')) /\
  aut_lang 1 w_Ae (0, [0]) /\ ~ aut_lang 1 w_Ae (0, []) /\ aut_lang 1 A' (0, []).
Proof.
  eexists. eexists. eexists. split; [reflexivity|]. split; [vm_compute; reflexivity|]. split; [|split].
  - split; [cbn; lia|]. exists 1. split; [|reflexivity]. cbn [fst snd]. apply ap_lab with 1; [cbn; auto|constructor].
  - intros (_ & f & H & HF). cbn [fst snd] in *. inversion H as [|? ? ? ? ? H1|? ? ? ? H1]; subst; [discriminate HF|]. vm_compute in H1. in_cases. discriminate.
  - split; [cbn; lia|]. exists 1. split; [|reflexivity]. cbn [fst snd]. apply ap_eps with 1; [vm_compute; auto|constructor].
Qed.
Print Assumptions C67_empty_label_refuted.
(** Further states of which some have names: with assertions the reader stops in string_state; without, it confuses states. *)
Definition w_Am : aut := w_aut [false; false; false; true; false] [(0, Some 0, 4); (1, Some 1, 2); (2, Some 0, 3); (4, Some 1, 4)].
Theorem C67_mixed_names_refuted : exists j T' A', aut_to_json true w_T w_Am ["x"] = Some j /\ parse_aut true false true id_ord w_T j = None /\
  parse_aut true false false id_ord w_T j = Some (Some (T', A')) /\ aut_lang 2 w_Am (1, [1; 0]) /\ forall v, ~ aut_lang 2 A' (1, v).
Proof.
  eexists. eexists. eexists. split; [reflexivity|]. split; [vm_compute; reflexivity|]. split; [vm_compute; reflexivity|]. split.
  - split; [cbn; lia|]. exists 3. split; [|reflexivity]. cbn [fst snd]. apply ap_lab with 2; [cbn; auto|]. apply ap_lab with 3; [cbn; auto|constructor].
  - intros v (_ & f & H & HF). cbn [fst snd] in *.
    assert (G : forall q w, q = 1 \/ q = 4 -> apath (aut_edges (mk_aut [false; false; true; false; false] [(mk_edge 3 (Some 1) 3, TNull); (mk_edge 2 (Some 0) 2, TNull); (mk_edge 1 (Some 1) 4, TNull); (mk_edge 0 (Some 0) 3, TNull)] id_ord)) q w f -> f = 1 \/ f = 4).
    { clear. intros q w HQ H. induction H as [q|q l q1 w q2 H1 H IH|q q1 w q2 H1 H IH]; auto; apply IH; vm_compute in H1; in_cases; try discriminate H1; injection H1; intros; subst; lia. }
    destruct (G 1 v (or_introl eq_refl) H) as [-> | ->]; discriminate HF.
Qed.
Print Assumptions C67_mixed_names_refuted.
(** Weights that are arrays of a fixed length: no instance that is written can be read. *)
Theorem C68_fixed_length_refuted : forall asserts no_opl wenc wjson ord names sg k T A1 m1 A2 m2 j,
  inst_to_json wjson names (TArr sg k) T A1 m1 A2 m2 = Some j -> parse_inst asserts no_opl wenc ord j = Some None.
Proof.
  intros asserts no_opl wenc wjson ord names sg k T A1 m1 A2 m2 j H. unfold inst_to_json in H. destruct (pda_value wjson names T) as [p|]; [|discriminate]. destruct (aut_value names T A1 m1 false) as [a1|]; [|discriminate]. destruct (aut_value names T A2 m2 false) as [a2|]; [|discriminate].
  cbn [obind] in H. apply some_inj in H. subst j. apply (C65_array_length_refuted asserts no_opl wenc ord names (if sg then "int" else "uint") (Z.of_nat k) [p; a1; a2] []).
Qed.
Print Assumptions C68_fixed_length_refuted.
Example C68_fixed_length_instance : exists j, inst_to_json (Some (fun w => JArr [JNum w; JNum w])) true (TArr false 2) w_T w_A1 ["x"] w_A2 [] = Some j.
Proof. eexists. reflexivity. Qed.
(** A state without a name and without rules (add_rule was called with no labels): both automata accept the empty stack in state 0, after writing and reading not. *)
Definition w_Tu : tpda string string := built [TLabel "a"; TRule 0 0 POP "" false [] 0].
Theorem C68_unruled_state_refuted : exists j, inst_to_json None false TNone w_Tu (w_aut [true] []) [] (w_aut [true] []) [] = Some j /\
  can_reach (pda_rules (t_rules w_Tu)) (aut_lang 1 (w_aut [true] [])) (aut_lang 1 (w_aut [true] [])) /\ verdicts (read j) = Some [Some (Some false); Some (Some false); Some (Some false)].
Proof.
  eexists. split; [reflexivity|]. split; [|vm_compute; reflexivity]. exists (0, []), (0, []). assert (L : aut_lang 1 (w_aut [true] []) (0, [])) by (split; [cbn; lia|]; exists 0; split; [constructor|reflexivity]). split; [exact L|split; [exact L|apply reach_refl]].
Qed.
Print Assumptions C68_unruled_state_refuted.
