(** Reading and writing pushdown automata as JSON: C54. *)
From Coq Require Import List Arith Lia Bool ZArith String.
From Verif Require Import Base BaseFacts PdaModel PdaProof TrieModel RefineModel MappingProof TypedModel TypedProof JsonModel JsonSpec JsonProof JsonSafe JsonWrite.
Import ListNotations.
Open Scope string_scope.

(** A state by its name or number; [denotes] relates a rule of a document to a rule of the automaton, see JsonProof. *)
Theorem C54_read : forall cf j, cf_embedded cf = false -> regular (cf_w cf) j ->
  match doc_of (cf_names cf) (cf_w cf) (cf_asserts cf) j with
  | Some d => exists T rs, parse_pda cf j = Some (Some T) /\ all_rules "" T = Some rs /\
      (forall r, In r rs -> exists n, written d n /\ denotes cf T n r) /\ (forall n, written d n -> exists r, In r rs /\ denotes cf T n r) /\
      (forall l, (exists i, exists_label String.eqb T l = Some i) <-> In l (doc_labels d)) /\
      (cf_names cf = true -> forall s, (exists i, exists_state String.eqb T s = Some i) <->
         (exists ms, In (SName s, ms) d) \/ exists f ms l rs x, In (f, ms) d /\ In (l, rs) ms /\ In x rs /\ d_to x = SName s)
  | None => parse_pda cf j = Some None \/ (cf_asserts cf = true /\ parse_pda cf j = None)
  end.
Proof.
  intros cf j HE HR. assert (H := doc_run cf HE j HR). destruct (doc_of _ _ _ j) as [d|]; auto. destruct H as (T & H1 & H2).
  destruct (doc_rules cf d T H2) as (rs & R1 & R2 & R3 & R4 & R5). exists T, rs. split; auto. split; auto. split; auto. split; auto. split; auto.
  intros HN s. rewrite R5. unfold doc_calls, state_calls, entry_calls. split.
  - intros ([f ms] & Hd & [(n & Hn & Hf)|([l xs] & Hm & [(x & X1 & X2)|(x & X1 & X2)])]); cbn [fst snd] in *.
    + injection Hn as <-. subst f. left. eauto.
    + discriminate.
    + right. exists f, ms, l, xs, x. destruct X2. auto.
  - intros [(ms & Hd)|(f & ms & l & xs & x & Hd & Hm & Hx & Ht)].
    + exists (SName s, ms). split; auto. left. eauto.
    + exists (f, ms). split; auto. right. exists (l, xs). split; auto. right. exists x. cbn. auto.
Qed.
Print Assumptions C54_read.

(** For every JSON document the parser stops with an automaton or an exception; only the assertion on "pop" can fail. *)
Theorem C54_total : forall cf j, cf_asserts cf = false -> parse_pda cf j <> None.
Proof.
  intros cf j HA. unfold parse_pda. assert (H : keeps (ph0 cf) (run (ph_step cf) (events j) (ph0 cf))).
  { apply safe_run; auto. intros E. unfold ph0, sh. cbn. rewrite E. discriminate. }
  destruct (run (ph_step cf) (events j) (ph0 cf)) as [[h|h|]|]; try discriminate. destruct H.
Qed.
Print Assumptions C54_total.

(** * Writing *)
(** Weights can be written: nothing for unweighted automata, else a value that is read as the weight. *)
Definition can_write (cf : jcfg) (wjson : option (Z -> json)) (w : Z) : Prop :=
  match wjson with
  | None => cf_w cf = WVoid /\ w = 0%Z
  | Some f => exists ws, weight_of (cf_w cf) (f w) = Some ws /\ wval cf ws = w
  end.
(** Calls that build an automaton which can be written: no label "*", and with named states all rules between states with names. *)
Definition writable (cf : jcfg) (wjson : option (Z -> json)) (cs : list (tcall string string)) (T : tpda string string) : Prop :=
  ~ In (TLabel "*") cs /\
  forall p to o opl wc pre w, In (TRule p to o opl wc pre w) cs ->
    can_write cf wjson w /\ (cf_names cf = true -> p < length (t_states T) /\ to < length (t_states T)).
Lemma writable_facts : forall cf wjson asserts cs T, do_tcalls String.eqb String.eqb (cf_no_opl cf) asserts cs tp_empty = Some T -> writable cf wjson cs T ->
  tinv string String.eqb string (cf_no_opl cf) cs T /\ (forall p e, In e (rules_at (t_rules T) p) -> can_write cf wjson (r_w (fst e))) /\
  (cf_names cf = true -> forall p e, In e (rules_at (t_rules T) p) -> r_to (fst e) < length (t_states T)) /\
  (cf_names cf = true -> pd_n (t_rules T) = length (t_states T)) /\ ~ In "*" (t_labels T).
Proof.
  intros cf wjson asserts cs T E [HS HB]. assert (HI := tcalls_inv string String.eqb string String.eqb (cf_no_opl cf) String.eqb_eq String.eqb_eq asserts cs T E).
  assert (HE : forall N, length (t_states T) <= N -> (forall p to o opl wc pre w, In (TRule p to o opl wc pre w) cs -> p < N /\ to < N) ->
    (forall p e, In e (rules_at (t_rules T) p) -> exists o opl wc pre, In (TRule p (r_to (fst e)) o opl wc pre (r_w (fst e))) cs) /\ pd_n (t_rules T) <= N).
  { intros N HL HN. apply (calls_entries_gen cf asserts N cs [] tp_empty T); auto.
    - apply empty_tinv.
    - intros p e He. unfold rules_at in He. cbn in He. destruct p; destruct He.
    - cbn. lia. }
  assert (HM : exists N, length (t_states T) <= N /\ forall p to o opl wc pre w, In (TRule p to o opl wc pre w) cs -> p < N /\ to < N).
  { clear. induction cs as [|c cs (N & N1 & N2)]; [exists (length (t_states T)); split; auto; intros p to o opl wc pre w []|].
    destruct c as [l|s|p0 t0 o0 opl0 wc0 pre0 w0]; [exists N| exists N|exists (N + S p0 + S t0)]; (split; [lia|]); intros p to o opl wc pre w [H|H]; try discriminate; eauto.
    - injection H as -> -> -> -> -> -> ->. lia.
    - apply N2 in H. lia. }
  destruct HM as (N & N1 & N2). destruct (HE N N1 N2) as [HE1 _].
  split; [auto|split; [|split; [|split]]].
  - intros p e He. destruct (HE1 p e He) as (o & opl & wc & pre & H). destruct (HB _ _ _ _ _ _ _ H) as [H1 _]. exact H1.
  - intros HN p e He. destruct (HE1 p e He) as (o & opl & wc & pre & H). destruct (HB _ _ _ _ _ _ _ H) as [_ H2]. apply H2. auto.
  - intros HN. apply Nat.le_antisymm; [|apply HI]. apply (HE (length (t_states T))); auto. intros p to o opl wc pre w H. apply (HB _ _ _ _ _ _ _ H). auto.
  - intros H. apply HS. apply (ti_labs _ _ _ _ _ _ HI). exact H.
Qed.
Theorem C54_write : forall cf wjson asserts cs T, do_tcalls String.eqb String.eqb (cf_no_opl cf) asserts cs tp_empty = Some T -> writable cf wjson cs T ->
  exists j d rs, to_json wjson (cf_names cf) T = Some j /\ regular (cf_w cf) j /\ doc_of (cf_names cf) (cf_w cf) (cf_asserts cf) j = Some d /\ all_rules "" T = Some rs /\
    (forall n, written_over (t_labels T) d n -> exists r, In r rs /\ denotes cf T n r) /\
    (forall r, In r rs -> exists n, written_over (t_labels T) d n /\ denotes cf T n r) /\
    (forall l, In l (doc_labels d) -> In l (t_labels T)).
Proof.
  intros cf wjson asserts cs T E H. destruct (writable_facts cf wjson asserts cs T E H) as (HI & HW & HT & HN & HS). apply (write_rules cf wjson cs T HI); auto.
Qed.
Print Assumptions C54_write.

(** States of two automata with the same name, or the same number if states have no names. *)
Definition same_state (names : bool) (T T' : tpda string string) (i i' : nat) : Prop :=
  if names then exists n, get_state T i = Some n /\ get_state T' i' = Some n else i = i'.
Definition same_op (r r' : trule string) : Prop :=
  match tr_op r, tr_op r' with
  | POP, POP | NOOP, NOOP => True
  | SWAP, SWAP | PUSH, PUSH => tr_opl r = tr_opl r'
  | NOOP, SWAP => tr_opl r' = tr_pre r'
  | SWAP, NOOP => tr_opl r = tr_pre r
  | _, _ => False
  end.
Definition same_rule (names : bool) (T T' : tpda string string) (r r' : trule string) : Prop :=
  same_state names T T' (tr_from r) (tr_from r') /\ tr_pre r = tr_pre r' /\ same_state names T T' (tr_to r) (tr_to r') /\ tr_w r = tr_w r' /\ same_op r r'.
Lemma resolves_same : forall cf T T' s i i', resolves cf T s i -> resolves cf T' s i' -> same_state (cf_names cf) T T' i i'.
Proof.
  intros cf T T' [n|n] i i'; cbn; intros [H1 H2] [H3 H4]; unfold same_state; rewrite H1; [|congruence]. exists n. split; apply (tr_index_Some string String.eqb String.eqb_eq); auto.
Qed.
Lemma denotes_same : forall cf T T' n r r', denotes cf T n r -> denotes cf T' n r' -> same_rule (cf_names cf) T T' r r'.
Proof.
  intros cf T T' n r r' (A1 & A2 & A3 & A4 & A5) (B1 & B2 & B3 & B4 & B5). split; [eapply resolves_same; eauto|]. split; [congruence|]. split; [eapply resolves_same; eauto|]. split; [congruence|].
  unfold same_op. destruct (n_op n) as [|l|l].
  - rewrite A5, B5. exact I.
  - destruct A5 as [[-> A5]|[-> A5]], B5 as [[-> B5]|[-> B5]]; congruence || exact I.
  - destruct A5 as [-> A5], B5 as [-> B5]. congruence.
Qed.
(** Reading what was written gives the same rules, if the document mentions all labels. *)
Theorem C54_roundtrip : forall cf wjson asserts cs T j, cf_embedded cf = false ->
  do_tcalls String.eqb String.eqb (cf_no_opl cf) asserts cs tp_empty = Some T -> writable cf wjson cs T -> to_json wjson (cf_names cf) T = Some j ->
  (forall d, doc_of (cf_names cf) (cf_w cf) (cf_asserts cf) j = Some d -> forall l, In l (t_labels T) -> In l (doc_labels d)) ->
  exists rs T' rs', all_rules "" T = Some rs /\ parse_pda cf j = Some (Some T') /\ all_rules "" T' = Some rs' /\
    (forall r, In r rs -> exists r', In r' rs' /\ same_rule (cf_names cf) T T' r r') /\ (forall r', In r' rs' -> exists r, In r rs /\ same_rule (cf_names cf) T T' r r').
Proof.
  intros cf wjson asserts cs T j HE E HW HJ HL. destruct (C54_write cf wjson asserts cs T E HW) as (j' & d & rs & J1 & J2 & J3 & J4 & J5 & J6 & J7). assert (j' = j) by congruence. subst j'.
  assert (R := C54_read cf j HE J2). rewrite J3 in R. destruct R as (T' & rs' & R1 & R2 & R3 & R4 & _). exists rs, T', rs'. split; auto. split; auto. split; auto.
  assert (EQ : forall n, written d n <-> written_over (t_labels T) d n).
  { intros n. split; intros (ms & l & xs & x & H1 & H2 & H3 & H4 & H5 & H6); exists ms, l, xs, x; (split; [auto|]); (split; [auto|]); (split; [auto|]); (split; [auto|]); (split; [auto|]);
      destruct (String.eqb l "*"); auto; destruct H6 as [H6 H7]; split; eauto. }
  split.
  - intros r Hr. destruct (J6 r Hr) as (n & N1 & N2). apply EQ in N1. destruct (R4 n N1) as (r' & N3 & N4). exists r'. split; auto. eapply denotes_same; eauto.
  - intros r' Hr. destruct (R3 r' Hr) as (n & N1 & N2). apply EQ in N1. destruct (J5 n N1) as (r & N3 & N4). exists r. split; auto. eapply denotes_same; eauto.
Qed.
Print Assumptions C54_roundtrip.

(** * Examples *)
Local Ltac reg := repeat (cbn; first [exact I | intros [] | constructor]).
Definition wnum : wkind := WNum false 0 4294967295.
Definition jc : jcfg := mk_jcfg true wnum false true 99 (fun l => hd 0%Z l).
Definition ex_rule (to k v : string) (w : Z) : json := JObj [("to", JStr to); (k, JStr v); ("weight", JNum w)].
Definition ex_states : json := JObj
  [("p", JObj [("a", ex_rule "q" "push" "b" 2); ("*", JArr [ex_rule "p" "pop" "" 0; ex_rule "q" "swap" "*" 1])]); ("q", JObj [])].
Definition ex_doc : json := JObj [("name", JStr "x"); ("pda", JObj [("states", ex_states)])].
Definition ex_bad : json := JObj [("pda", JObj [("states", JObj [("p", JObj [("a", JObj [("to", JStr "p"); ("pop", JStr ""); ("weight", JNum (-1))])])])])].
Example C54_read_example : regular (cf_w jc) ex_doc /\ (exists d, doc_of true wnum true ex_doc = Some d) /\
  (exists T, parse_pda jc ex_doc = Some (Some T) /\ all_rules "" T = Some
    [mk_trule 0 "a" 0 POP "" 0; mk_trule 0 "b" 0 POP "" 0; mk_trule 0 "a" 1 PUSH "b" 2; mk_trule 0 "a" 1 NOOP "" 1; mk_trule 0 "b" 1 NOOP "" 1]) /\
  regular (cf_w jc) ex_bad /\ doc_of true wnum true ex_bad = None /\ parse_pda jc ex_bad = Some None.
Proof.
  split; [reg|]. split; [eexists; vm_compute; reflexivity|]. split; [eexists; split; vm_compute; reflexivity|]. split; [reg|split; vm_compute; reflexivity].
Qed.

(** Other members are to be ignored, but one with two values in it makes the parser reject the document. *)
Theorem C54_skip_refuted : exists j d, doc_of true wnum true j = Some d /\ parse_pda jc j = Some None /\
  (forall j', In ("info", j') (match j with JObj m => m | _ => [] end) -> j' = JArr [JNum 1; JNum 2]) /\
  (exists T, parse_pda jc (match j with JObj m => JObj (filter (fun e => negb (String.eqb (fst e) "info")) m) | _ => j end) = Some (Some T)).
Proof.
  exists (JObj [("info", JArr [JNum 1; JNum 2]); ("pda", JObj [("states", ex_states)])]). eexists. split; [vm_compute; reflexivity|]. split; [vm_compute; reflexivity|]. split.
  - intros j' [H|[H|[]]]; [congruence|discriminate].
  - eexists. vm_compute. reflexivity.
Qed.
Print Assumptions C54_skip_refuted.
(** An array of states inside the array of states is accepted. *)
Definition jn : jcfg := mk_jcfg false WVoid false true 99 (fun l => hd 0%Z l).
Definition ex_nested : json := JObj [("pda", JObj [("states", JArr [JArr [JObj [("a", JObj [("to", JNum 0); ("pop", JStr "")])]]])])].
Theorem C54_nested_refuted : doc_of false WVoid true ex_nested = None /\
  exists T, parse_pda jn ex_nested = Some (Some T) /\ all_rules "" T = Some [mk_trule 0 "a" 0 POP "" 0].
Proof. split; [vm_compute; reflexivity|]. eexists. split; vm_compute; reflexivity. Qed.
Print Assumptions C54_nested_refuted.
(** With vectors as weights, a number is taken for a weight and dropped. *)
Definition jv : jcfg := mk_jcfg true (WVec false 0 4294967295) false true 99 (fun l => match l with [] => (-1)%Z | z :: _ => z end).
Definition ex_vec (w : json) : json := JObj [("pda", JObj [("states", JObj [("p", JObj [("a", JObj [("to", JStr "p"); ("pop", JStr ""); ("weight", w)])])])])].
Theorem C54_vector_weight_refuted : doc_of true (cf_w jv) true (ex_vec (JNum 5)) = None /\
  (exists T, parse_pda jv (ex_vec (JNum 5)) = Some (Some T) /\ all_rules "" T = Some [mk_trule 0 "a" 0 POP "" (cf_wenc jv [])]) /\
  (exists T, parse_pda jv (ex_vec (JArr [JNum 5])) = Some (Some T) /\ all_rules "" T = Some [mk_trule 0 "a" 0 POP "" (cf_wenc jv [5%Z])]).
Proof. split; [vm_compute; reflexivity|]. split; eexists; split; vm_compute; reflexivity. Qed.
Print Assumptions C54_vector_weight_refuted.
(** Builds with assertions stop on a value of "pop" that is not empty, instead of an exception. *)
Theorem C54_pop_assert_refuted : exists j, parse_pda jc j = None.
Proof. exists (JObj [("pda", JObj [("states", JObj [("p", JObj [("a", ex_rule "p" "pop" "x" 0)])])])]). vm_compute. reflexivity. Qed.
Print Assumptions C54_pop_assert_refuted.

(** ** Writing *)
Definition wj : option (Z -> json) := Some JNum.
Definition ex_calls : list (tcall string string) :=
  [TState "p"; TState "q"; TLabel "a"; TLabel "b"; TRule 0 1 PUSH "b" false ["a"] 2; TRule 0 0 POP "" true [] 0; TRule 1 1 NOOP "" false ["b"] 1; TRule 1 0 SWAP "a" false ["a"; "b"] 7].
Definition built (cs : list (tcall string string)) : tpda string string :=
  match do_tcalls String.eqb String.eqb 99 true cs tp_empty with Some T => T | None => tp_empty end.
Definition wrote (wjson : option (Z -> json)) (T : tpda string string) : json := match to_json wjson true T with Some j => j | None => JNull end.
Definition reread (cf : jcfg) (j : json) : tpda string string := match parse_pda cf j with Some (Some T) => T | _ => tp_empty end.
Example C54_roundtrip_example : do_tcalls String.eqb String.eqb 99 true ex_calls tp_empty = Some (built ex_calls) /\ writable jc wj ex_calls (built ex_calls) /\
  to_json wj true (built ex_calls) = Some (wrote wj (built ex_calls)) /\
  (forall d, doc_of true wnum true (wrote wj (built ex_calls)) = Some d -> forall l, In l (t_labels (built ex_calls)) -> In l (doc_labels d)) /\
  (exists rs, all_rules "" (reread jc (wrote wj (built ex_calls))) = Some rs /\ length rs = 6).
Proof.
  split; [vm_compute; reflexivity|]. split; [|split; [vm_compute; reflexivity|split]].
  - split; [cbn; intuition congruence|]. intros p to o opl wc pre w H. cbn in H. repeat match type of H with _ \/ _ => destruct H as [H|H] end; try discriminate H; try contradiction; injection H as <- <- <- <- <- <- <-;
      (split; [eexists; split; [vm_compute; reflexivity|reflexivity]|intros _; vm_compute; split; repeat constructor]).
  - intros d Hd. vm_compute in Hd. injection Hd as <-. intros l [<-|[<-|[]]]; vm_compute; auto.
  - eexists. split; vm_compute; reflexivity.
Qed.
(** A label that no rule mentions is lost, and with it the rules for it of a wildcard. *)
Theorem C54_unused_label_refuted : exists cs T j T' r rs rs', do_tcalls String.eqb String.eqb 99 true cs tp_empty = Some T /\ writable jc wj cs T /\ to_json wj true T = Some j /\
  parse_pda jc j = Some (Some T') /\ all_rules "" T = Some rs /\ all_rules "" T' = Some rs' /\ In r rs /\ forall r', In r' rs' -> tr_pre r' <> tr_pre r.
Proof.
  set (cs := [TState "p"; TLabel "a"; TLabel "b"; TRule 0 0 PUSH "a" true [] 0%Z]). exists cs, (built cs), (wrote wj (built cs)), (reread jc (wrote wj (built cs))), (mk_trule 0 "b" 0 PUSH "a" 0). eexists. eexists.
  split; [vm_compute; reflexivity|]. split.
  - split; [cbn; intuition congruence|]. intros p to o opl wc pre w H. cbn in H. repeat match type of H with _ \/ _ => destruct H as [H|H] end; try discriminate H; try contradiction; injection H as <- <- <- <- <- <- <-;
      (split; [eexists; split; [vm_compute; reflexivity|reflexivity]|intros _; vm_compute; split; repeat constructor]).
  - split; [vm_compute; reflexivity|]. split; [vm_compute; reflexivity|]. split; [vm_compute; reflexivity|]. split; [vm_compute; reflexivity|]. split; [right; left; reflexivity|].
    intros r' [<-|[]]. discriminate.
Qed.
Print Assumptions C54_unused_label_refuted.
(** A rule for the label "*" is read back as a rule for all labels. *)
Theorem C54_star_label_refuted : exists cs T j T' rs rs', do_tcalls String.eqb String.eqb 99 true cs tp_empty = Some T /\ to_json wj true T = Some j /\
  parse_pda jc j = Some (Some T') /\ all_rules "" T = Some rs /\ all_rules "" T' = Some rs' /\
  (forall r, In r rs -> tr_pre r = "*") /\ exists r', In r' rs' /\ tr_pre r' = "a".
Proof.
  set (cs := [TState "p"; TLabel "*"; TLabel "a"; TRule 0 0 PUSH "a" false ["*"] 0%Z]). exists cs, (built cs), (wrote wj (built cs)), (reread jc (wrote wj (built cs))). eexists. eexists.
  split; [vm_compute; reflexivity|]. split; [vm_compute; reflexivity|]. split; [vm_compute; reflexivity|]. split; [vm_compute; reflexivity|]. split; [vm_compute; reflexivity|]. split.
  - intros r [<-|[]]. reflexivity.
  - eexists. split; [left; reflexivity|reflexivity].
Qed.
Print Assumptions C54_star_label_refuted.
(** An automaton with a rule to a state that has no name cannot be written with names. *)
Theorem C54_unnamed_refuted : exists cs T, do_tcalls String.eqb String.eqb 99 true cs tp_empty = Some T /\ to_json wj true T = None.
Proof. set (cs := [TState "p"; TLabel "a"; TRule 0 1 PUSH "a" false ["a"] 0%Z]). exists cs, (built cs). split; vm_compute; reflexivity. Qed.
Print Assumptions C54_unnamed_refuted.
