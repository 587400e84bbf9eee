(** C12-C15, C51: the traces that the solver reports. *)
From Coq Require Import List Arith Lia Bool ZArith Permutation.
From Verif Require Import Base BaseFacts Spec SpecFacts PdaModel PdaProof AutModel AutProof PreStarModel PreStarProof PreStarLang
  PostStarModel PostStarProof PostStarLang SolverModel SolverProof QueryModel QueryProof ProductModel ProductProof VerdictModel VerdictProof
  ConfigProof TraceModel TraceProof TraceSolver ExHelp PropsSaturation PropsQuery PropsSolver.
Import ListNotations.

(** The automaton carries no annotations yet (every automaton built through the API). *)
Definition fresh (A : aut) : Prop := forall e t, In (e, t) (a_edges A) -> t = TNull.
Definition no_eps (A : aut) : Prop := forall q q', ~ aut_edges A q None q'.

(** What a rule trace must be: the rules, applied in order, lead from the configuration (state, initial stack), accepted by [init] along the
    reported path, to a configuration with the final stack that [fin] accepts along the other path. *)
Definition good_rule_trace (R : pds) (init fin : aut) (t : rtrace) : Prop :=
  match t with (q, rules, w1, w2, pa1, pa2) =>
    exists srs q2, map rs_srule rules = map Some srs /\ run_rules R (q, w1) srs (q2, w2) /\ accepting_path init q w1 pa1 /\ accepting_path fin q2 w2 pa2 end.

Lemma answers_imp : forall R f (Q Q' : R -> Prop), (forall r, Q r -> Q' r) -> answers f Q -> answers f Q'.
Proof. intros R f Q Q' H [H1 H2]. split; auto. intros fuel. destruct (H1 fuel) as [K|[r [K1 K2]]]; auto. right. eauto. Qed.
Lemma step_iff : forall (R R' : pds), (forall sr, R sr <-> R' sr) -> forall c c', step R c c' -> step R' c c'.
Proof. intros R R' H c c' [sr [H1 H2]]. exists sr. split; auto. apply H; auto. Qed.
Lemma is_run_iff : forall (R R' : pds), (forall sr, R sr <-> R' sr) -> forall cs, is_run R cs -> is_run R' cs.
Proof. intros R R' H. induction cs as [|c [|c' cs] IH]; cbn; auto. intros [H1 H2]. split; [eapply step_iff; eauto|]. apply IH; auto. Qed.
Lemma run_between_iff : forall (R R' : pds) L1 L2 tr, (forall sr, R sr <-> R' sr) -> run_between R L1 L2 tr -> run_between R' L1 L2 tr.
Proof. intros R R' L1 L2 tr H [H1 H2]. split; auto. eapply is_run_iff; eauto. Qed.
Lemma rule_run_rules : forall P (R : pds), (forall sr, pda_rules P sr <-> R sr) -> forall ss c c', rule_run P c ss c' -> exists srs, map rs_srule ss = map Some srs /\ run_rules R c srs c'.
Proof.
  intros P R H. induction ss as [|s ss IH]; cbn; intros c c' K.
  - subst. exists []. split; auto. constructor.
  - destruct K as [c1 [[sr [K1 [K2 K3]]] K4]]. destruct (IH _ _ K4) as [srs [I1 I2]]. exists (sr :: srs). cbn. split; [congruence|]. econstructor; eauto. apply H; auto.
Qed.
Lemma rtrace_good : forall P (R : pds) init fin t, (forall sr, pda_rules P sr <-> R sr) -> rtrace_ok P init fin t -> good_rule_trace R init fin t.
Proof. intros P R init fin [[[[[q rules] w1] w2] pa1] pa2] H [q2 [H1 [H2 H3]]]. destruct (rule_run_rules _ _ H _ _ _ H1) as [srs [K1 K2]]. exists srs, q2. auto. Qed.

Section Traces.
  Variables (nlab : nat) (us : list urule) (ord : nat -> list nat -> list nat) (init fin : aut) (I : inst).
  Hypothesis W : Forall (wf_urule nlab) us.
  Let P := build nlab us.
  Let n := pd_n P.
  Let R := user_rules nlab us.
  Hypothesis HO : forall q l, Permutation (ord q l) l.
  Hypothesis HI : new_inst P ord init fin = Some I.

  Lemma pre_call_out : forall fuel b I', aut_wf init -> n <= a_size init -> pre_ok P fin -> pre_star_accepts P fuel I = done (b, I') -> pre_out P init fin I' b.
  Proof.
    intros fuel b I' WI LI OK E. destruct (pre_accepts_out P (build_wf _ _ W) ord HO init fin I HI WI LI OK) as [H1 _]. destruct (H1 fuel) as [K|[b' [I2 [K KO]]]]; rewrite K in E; [discriminate|].
    inversion E; subst; auto.
  Qed.
  Lemma post_call_out : forall fuel b I', aut_wf fin -> n <= a_size fin -> post_ok P init ->
    (post_star_accepts P fuel I = done (b, I') \/ post_star_accepts_no_ET P fuel I = done (b, I')) -> post_out P init fin I' b.
  Proof.
    intros fuel b I' WF LF OK [E|E].
    - destruct (post_accepts_out P (build_wf _ _ W) ord HO init fin I HI WF LF OK) as [H1 _]. destruct (H1 fuel) as [K|[b' [I2 [K KO]]]]; rewrite K in E; [discriminate|]. inversion E; subst; auto.
    - destruct (post_no_ET_out P (build_wf _ _ W) ord HO init fin I HI WF LF OK) as [H1 _]. destruct (H1 fuel) as [K|[b' [I2 [K KO]]]]; rewrite K in E; [discriminate|]. inversion E; subst; auto.
  Qed.
  Lemma dual_call_out : forall fuel b I', post_ok P init -> pre_ok P fin -> dual_search_accepts P fuel I = done (b, I') -> dual_out P init fin I' b.
  Proof.
    intros fuel b I' OI OF E. destruct (dual_accepts_out P (build_wf _ _ W) ord HO init fin I HI OI OF) as [H1 _]. destruct (H1 fuel) as [K|[b' [I2 [K KO]]]]; rewrite K in E; [discriminate|].
    inversion E; subst; auto.
  Qed.
  Lemma good_built : forall (b : bool) tr L1 L2, (if b then run_between (pda_rules P) L1 L2 tr else tr = []) -> if b then run_between R L1 L2 tr else tr = [].
  Proof. intros [] tr L1 L2 H; auto. eapply run_between_iff; [|exact H]. intros; apply build_rules; auto. Qed.
End Traces.

(** * C12 *)
Theorem C12_pre_star_trace : forall nlab us ord init fin I fuel b I', Forall (wf_urule nlab) us ->
  (forall q l, Permutation (ord q l) l) -> new_inst (build nlab us) ord init fin = Some I ->
  aut_wf init -> pd_n (build nlab us) <= a_size init -> no_eps init -> pre_ok (build nlab us) fin -> no_in (build nlab us) fin -> fresh fin ->
  pre_star_accepts (build nlab us) fuel I = done (b, I') ->
  answers (fun fuel => get_trace_pre (build nlab us) fuel I')
    (fun tr => if b then run_between (user_rules nlab us) (aut_lang (pd_n (build nlab us)) init) (aut_lang (pd_n (build nlab us)) fin) tr else tr = []).
Proof.
  intros nlab us ord init fin I fuel b I' W HO HI WI LI NE OK NI NU E. eapply answers_imp; [intros tr H; apply good_built; [exact W|exact H]|].
  apply get_trace_pre_spec; auto. apply build_wf; auto. eapply pre_call_out; eauto.
Qed.
Print Assumptions C12_pre_star_trace.

(** * C13 *)
Theorem C13_post_star_trace : forall nlab us ord init fin I fuel b I', Forall (wf_urule nlab) us ->
  (forall q l, Permutation (ord q l) l) -> new_inst (build nlab us) ord init fin = Some I ->
  aut_wf fin -> pd_n (build nlab us) <= a_size fin -> no_eps fin -> pre_ok (build nlab us) init -> no_in (build nlab us) init -> fresh init ->
  (post_star_accepts (build nlab us) fuel I = done (b, I') \/ post_star_accepts_no_ET (build nlab us) fuel I = done (b, I')) ->
  answers (fun fuel => get_trace_post (build nlab us) fuel I')
    (fun tr => if b then run_between (user_rules nlab us) (aut_lang (pd_n (build nlab us)) init) (aut_lang (pd_n (build nlab us)) fin) tr else tr = []).
Proof.
  intros nlab us ord init fin I fuel b I' W HO HI WF LF NE OK NI NU E. eapply answers_imp; [intros tr H; apply good_built; [exact W|exact H]|].
  assert (PO: post_ok (build nlab us) init) by (apply post_ok_pre_ok; auto). apply get_trace_post_spec; auto. apply build_wf; auto. eapply post_call_out; eauto.
Qed.
Print Assumptions C13_post_star_trace.

(** * C14 *)
Theorem C14_dual_search_trace : forall nlab us ord init fin I fuel b I', Forall (wf_urule nlab) us ->
  (forall q l, Permutation (ord q l) l) -> new_inst (build nlab us) ord init fin = Some I ->
  pre_ok (build nlab us) init -> no_in (build nlab us) init -> fresh init -> pre_ok (build nlab us) fin -> no_in (build nlab us) fin -> fresh fin ->
  dual_search_accepts (build nlab us) fuel I = done (b, I') ->
  answers (fun fuel => get_trace_dual (build nlab us) fuel I')
    (fun tr => if b then run_between (user_rules nlab us) (aut_lang (pd_n (build nlab us)) init) (aut_lang (pd_n (build nlab us)) fin) tr else tr = []).
Proof.
  intros nlab us ord init fin I fuel b I' W HO HI OI NI UI OF NF UF E. eapply answers_imp; [intros tr H; apply good_built; [exact W|exact H]|].
  assert (PO: post_ok (build nlab us) init) by (apply post_ok_pre_ok; auto). apply get_trace_dual_spec; auto. apply build_wf; auto. eapply dual_call_out; eauto.
Qed.
Print Assumptions C14_dual_search_trace.

(** The traces of the running example: three different engines, each a run from (0, a) to (2, a). *)
Definition ex_traces (init fin : aut) : option (list (option (option (list config)))) :=
  I <- new_inst ex_pda ex_ord init fin ;;
  match pre_star_accepts ex_pda 200 I, post_star_accepts ex_pda 200 I, dual_search_accepts ex_pda 200 I with
  | Some (Some (_, I1)), Some (Some (_, I2)), Some (Some (_, I3)) =>
      Some [get_trace_pre ex_pda 200 I1; get_trace_post ex_pda 200 I2; get_trace_dual ex_pda 200 I3]
  | _, _, _ => None
  end.
Example C12_C14_example :
  ex_traces ex_start ex_target = Some (repeat (done [(0, [0]); (1, [1; 0]); (1, [2; 0]); (2, [0])]) 3) /\
  ex_traces ex_start2 ex_target = Some (repeat (done []) 3) /\ fresh ex_start /\ fresh ex_target /\ no_eps ex_start /\ no_eps ex_target.
Proof.
  ands; try (vm_compute; reflexivity).
  - intros e t [H|[]]. inversion H; auto.
  - intros e t [H|[]]. inversion H; auto.
  - intros q q' [H|[]]. discriminate.
  - intros q q' [H|[]]. discriminate.
Qed.

(** * C15: following the annotations always ends in the original automaton *)
(** For every saturated automaton, also when saturation was stopped early by the callback [et], and every accepting path in it. [A0] is the
    automaton before saturation. Each reported rule is a rule of the PDA and is applied in the stated direction. *)
Theorem C15_traceback_pre : forall nlab us X et fuel A0 x st b, Forall (wf_urule nlab) us -> pre_ok (build nlab us) A0 -> no_in (build nlab us) A0 -> fresh A0 ->
  total_cb et -> pre_star_et (build nlab us) X et fuel A0 x = done (st, b) ->
  forall p, lang_path (p_aut st) p -> ap_front p < pd_n (build nlab us) ->
  forall fuel', length (ap_edges p) * Nat.pow 3 (length (a_edges (p_aut st))) < fuel' ->
  exists steps p', tb_run (build nlab us) (p_aut st) fuel' p false [] = done (steps, p', false) /\ lang_path A0 p' /\ ap_front p' < pd_n (build nlab us) /\
    exists srs, map (fun s => rs_srule (fst s)) steps = map Some srs /\ run_rules (user_rules nlab us) (pconf p) srs (pconf p').
Proof.
  intros nlab us X et fuel A0 x st b W OK NI NU TC E p LP HF fuel' L. assert (WP := build_wf _ _ W).
  assert (SD := pre_et_side _ _ _ _ _ _ _ _ WP OK TC E). pose proof (meas_bound (p_aut st) p).
  destruct (pre_tb _ _ _ WP OK NI NU SD p LP HF fuel') as [[K KL]|[[[steps p'] bb] [K [[Inv [C1 _]] C3 C4 C5]]]]; [lia|]. cbn in C5, C3, C4, C1. subst bb.
  exists steps, p'. ands; auto. apply chain_pre_rules in C1. destruct (rule_run_rules _ (user_rules nlab us) (fun sr => build_rules nlab us W sr) _ _ _ C1) as [srs [K1 K2]].
  exists srs. split; auto. rewrite <- K1, map_map. auto.
Qed.
Print Assumptions C15_traceback_pre.
Theorem C15_traceback_post : forall nlab us X et fuel A0 x st b, Forall (wf_urule nlab) us -> pre_ok (build nlab us) A0 -> no_in (build nlab us) A0 -> fresh A0 ->
  total_cb et -> post_star_et (build nlab us) X et fuel A0 x = done (st, b) ->
  forall p, lang_path (q_aut st) p -> ap_front p < pd_n (build nlab us) ->
  forall fuel', length (ap_edges p) * Nat.pow 3 (length (a_edges (q_aut st))) < fuel' ->
  exists steps p', tb_run (build nlab us) (q_aut st) fuel' p false [] = done (steps, p', negb (is_nil steps)) /\ lang_path A0 p' /\ ap_front p' < pd_n (build nlab us) /\
    exists srs, map (fun s => rs_srule (fst s)) (rev steps) = map Some srs /\ run_rules (user_rules nlab us) (pconf p') srs (pconf p).
Proof.
  intros nlab us X et fuel A0 x st b W OK NI NU TC E p LP HF fuel' L. assert (WP := build_wf _ _ W). assert (PO: post_ok (build nlab us) A0) by (apply post_ok_pre_ok; auto).
  assert (SD := post_et_side _ _ _ _ _ _ _ _ WP PO TC E). pose proof (meas_bound (q_aut st) p).
  destruct (post_tb _ _ _ WP PO NU SD p LP HF fuel') as [[K KL]|[[[steps p'] bb] [K [[Inv [C1 _]] C3 C4 C5]]]]; [lia|]. cbn in C5, C3, C4, C1. subst bb.
  exists steps, p'. ands; auto. apply chain_post_rules in C1. destruct (rule_run_rules _ (user_rules nlab us) (fun sr => build_rules nlab us W sr) _ _ _ C1) as [srs [K1 K2]].
  exists srs. split; auto. rewrite <- K1, <- map_rev, map_map. auto.
Qed.
Print Assumptions C15_traceback_post.

(** get_trace for a single configuration: a run when the automaton accepts it ... *)
Theorem C15_config_trace_pre : forall nlab us X et fuel A0 x st b, Forall (wf_urule nlab) us -> pre_ok (build nlab us) A0 -> no_in (build nlab us) A0 -> fresh A0 ->
  total_cb et -> pre_star_et (build nlab us) X et fuel A0 x = done (st, b) ->
  forall q w, q < pd_n (build nlab us) ->
  (aut_lang (pd_n (build nlab us)) (p_aut st) (q, w) -> answers (fun fuel => get_trace_config (build nlab us) fuel (p_aut st) q w)
     (run_between (user_rules nlab us) (fun c => c = (q, w)) (aut_lang (pd_n (build nlab us)) A0))) /\
  (~ aut_lang (pd_n (build nlab us)) (p_aut st) (q, w) -> exists bound, forall fuel, bound <= fuel -> get_trace_config (build nlab us) fuel (p_aut st) q w = None).
Proof.
  intros nlab us X et fuel A0 x st b W OK NI NU TC E q w Hq. assert (WP := build_wf _ _ W). assert (SD := pre_et_side _ _ _ _ _ _ _ _ WP OK TC E).
  destruct (config_trace_pre _ _ _ WP OK NI NU SD q w Hq) as [H1 H2]. split; [|eauto]. intros H. eapply answers_imp; [|apply H1; auto]. intros tr. apply run_between_iff. intros; apply build_rules; auto.
Qed.
Print Assumptions C15_config_trace_pre.
Theorem C15_config_trace_post : forall nlab us X et fuel A0 x st b, Forall (wf_urule nlab) us -> pre_ok (build nlab us) A0 -> no_in (build nlab us) A0 -> fresh A0 ->
  total_cb et -> post_star_et (build nlab us) X et fuel A0 x = done (st, b) ->
  forall q w, q < pd_n (build nlab us) -> (exists f, npath (aut_edges (q_aut st)) q w f /\ aut_final (q_aut st) f) ->
  answers (fun fuel => get_trace_config (build nlab us) fuel (q_aut st) q w) (run_between (user_rules nlab us) (aut_lang (pd_n (build nlab us)) A0) (fun c => c = (q, w))).
Proof.
  intros nlab us X et fuel A0 x st b W OK NI NU TC E q w Hq H. assert (WP := build_wf _ _ W). assert (PO: post_ok (build nlab us) A0) by (apply post_ok_pre_ok; auto).
  assert (SD := post_et_side _ _ _ _ _ _ _ _ WP PO TC E).
  destruct (config_trace_post _ _ _ WP PO NU SD q w Hq) as [H1 _]. eapply answers_imp; [|apply H1; auto]. intros tr. apply run_between_iff. intros; apply build_rules; auto.
Qed.
Print Assumptions C15_config_trace_post.
(** ... and undefined otherwise: path.back() of an empty vector. After post* this also hits reachable configurations with an empty stack. *)
Theorem C15_config_trace_refuted : get_trace_config ex_pda 200 ex_target 2 [1] = None /\
  exists nlab us A A', Forall (wf_urule nlab) us /\ pre_ok (build nlab us) A /\ no_in (build nlab us) A /\ post_star (build nlab us) 100 A = done A' /\
    aut_lang (pd_n (build nlab us)) A' (1, []) /\ get_trace_config (build nlab us) 100 A' 1 [] = None.
Proof.
  split; [vm_compute; reflexivity|]. destruct C05_post_star_accepts_empty_stack_refuted as [nlab [us [A [A' [H1 [H2 [H3 [H4 [H5 H6]]]]]]]]]. exists nlab, us, A, A'. ands; auto.
  unfold get_trace_config. specialize (H6 100). rewrite accepts_is_accept_path in H6. destruct (accept_path A' 100 1 []) as [[[|x p]|]|]; try discriminate. reflexivity.
Qed.
Print Assumptions C15_config_trace_refuted.
Example C15_example : exists A A', pre_star ex_pda 200 ex_target = done A /\ post_star ex_pda 200 ex_start = done A' /\
  get_trace_config ex_pda 200 A 0 [0] = done [(0, [0]); (1, [1; 0]); (1, [2; 0]); (2, [0])] /\
  get_trace_config ex_pda 200 A 2 [0] = done [(2, [0])] /\
  get_trace_config ex_pda 200 A' 2 [0] = done [(0, [0]); (1, [1; 0]); (1, [2; 0]); (2, [0])] /\
  lang_path A (mk_apth 3 [(Some 0, 0)]) /\ @total_cb unit None.
Proof.
  eexists _, _. split; [vm_compute; reflexivity|]. split; [vm_compute; reflexivity|]. split; [vm_compute; reflexivity|]. split; [vm_compute; reflexivity|]. split; [vm_compute; reflexivity|]. split.
  - split; [|reflexivity]. split; [|exact Logic.I]. vm_compute. repeat (first [left; reflexivity | right]).
  - intros f H. discriminate.
Qed.

(** * C51 *)
Theorem C51_rule_trace_pre : forall nlab us ord init fin I fuel b I', Forall (wf_urule nlab) us ->
  (forall q l, Permutation (ord q l) l) -> new_inst (build nlab us) ord init fin = Some I ->
  aut_wf init -> pd_n (build nlab us) <= a_size init -> no_eps init -> pre_ok (build nlab us) fin -> no_in (build nlab us) fin -> fresh fin ->
  pre_star_accepts (build nlab us) fuel I = done (b, I') ->
  answers (fun fuel => get_rule_trace_pre (build nlab us) fuel I')
    (fun r => if b then exists t, r = Some t /\ good_rule_trace (user_rules nlab us) init fin t else r = None).
Proof.
  intros nlab us ord init fin I fuel b I' W HO HI WI LI NE OK NI NU E. assert (WP := build_wf _ _ W).
  eapply answers_imp; [|eapply (get_rule_trace_pre_spec (build nlab us) WP init fin I' b); eauto; eapply pre_call_out; eauto].
  intros r. destruct b; auto. intros [t [H1 H2]]. exists t. split; auto. eapply rtrace_good; eauto. intros; apply build_rules; auto.
Qed.
Print Assumptions C51_rule_trace_pre.
(** After post* the result is right if at least one rule is needed. *)
Theorem C51_rule_trace_post_partial : forall nlab us ord init fin I fuel b I', Forall (wf_urule nlab) us ->
  (forall q l, Permutation (ord q l) l) -> new_inst (build nlab us) ord init fin = Some I ->
  aut_wf fin -> pd_n (build nlab us) <= a_size fin -> no_eps fin -> pre_ok (build nlab us) init -> no_in (build nlab us) init -> fresh init ->
  (post_star_accepts (build nlab us) fuel I = done (b, I') \/ post_star_accepts_no_ET (build nlab us) fuel I = done (b, I')) ->
  answers (fun fuel => get_rule_trace_post (build nlab us) fuel I')
    (fun r => if b then exists t, r = Some t /\ match t with (q, rules, w1, w2, pa1, pa2) => good_rule_trace (user_rules nlab us) init fin (if is_nil rules then (q, rules, w1, w2, pa2, pa1) else t) end
              else r = None).
Proof.
  intros nlab us ord init fin I fuel b I' W HO HI WF LF NE OK NI NU E. assert (WP := build_wf _ _ W). assert (PO: post_ok (build nlab us) init) by (apply post_ok_pre_ok; auto).
  eapply answers_imp; [|eapply (get_rule_trace_post_spec (build nlab us) WP init fin I' b); eauto; eapply post_call_out; eauto].
  intros r. destruct b; auto. intros [t [H1 H2]]. exists t. split; auto. destruct t as [[[[[q rules] w1] w2] pa1] pa2]. eapply rtrace_good; eauto. intros; apply build_rules; auto.
Qed.
Print Assumptions C51_rule_trace_post_partial.
(** With no rule, the two paths are exchanged: [0; 4] is not a path of the initial automaton. *)
Definition sw_init : aut := mk_ex [false; false; false; true; false] [(0, 0, 3)].
Definition sw_fin : aut := mk_ex [false; false; false; false; true] [(0, 0, 4)].
Definition sw_result : option (option (option (option rtrace))) :=
  match new_inst ex_pda ex_ord sw_init sw_fin with
  | Some inst0 => match post_star_accepts ex_pda 200 inst0 with Some (Some (true, I')) => Some (get_rule_trace_post ex_pda 200 I') | _ => None end
  | None => None
  end.
Theorem C51_rule_trace_post_refuted : pre_ok ex_pda sw_init /\ no_in ex_pda sw_init /\ fresh sw_init /\ aut_wf sw_fin /\ no_eps sw_fin /\
  exists t, sw_result = Some (done (Some t)) /\ ~ good_rule_trace (user_rules 3 ex_rules) sw_init sw_fin t.
Proof.
  assert (OF: pre_ok ex_pda sw_fin) by (apply autb_ok; reflexivity).
  ands; [apply autb_ok; reflexivity|apply no_inb_ok; reflexivity|intros e t [H|[]]; inversion H; auto|eapply pre_ok_wf; eauto|intros q q' [H|[]]; discriminate|].
  eexists. split; [vm_compute; reflexivity|]. intros [srs [q2 [_ [_ [[H _] _]]]]]. inversion H as [|? ? ? ? ? He]; subst. destruct He as [He|[]]. discriminate.
Qed.
Print Assumptions C51_rule_trace_post_refuted.
(** After the dual search: a returned trace is right, but the call is undefined without a trace and when no rule is needed. *)
Theorem C51_rule_trace_dual_partial : forall nlab us ord init fin I fuel b I', Forall (wf_urule nlab) us ->
  (forall q l, Permutation (ord q l) l) -> new_inst (build nlab us) ord init fin = Some I ->
  pre_ok (build nlab us) init -> no_in (build nlab us) init -> fresh init -> pre_ok (build nlab us) fin -> no_in (build nlab us) fin -> fresh fin ->
  dual_search_accepts (build nlab us) fuel I = done (b, I') ->
  forall fuel', get_rule_trace_dual (build nlab us) fuel' I' = Some None \/
    (get_rule_trace_dual (build nlab us) fuel' I' = None /\ (b = false \/ exists c, aut_lang (pd_n (build nlab us)) init c /\ aut_lang (pd_n (build nlab us)) fin c)) \/
    exists t, get_rule_trace_dual (build nlab us) fuel' I' = done t /\ b = true /\ good_rule_trace (user_rules nlab us) init fin t.
Proof.
  intros nlab us ord init fin I fuel b I' W HO HI OI NI UI OF NF UF E fuel'. assert (WP := build_wf _ _ W). assert (PO: post_ok (build nlab us) init) by (apply post_ok_pre_ok; auto).
  destruct (get_rule_trace_dual_spec (build nlab us) WP init fin I' b PO UI OF NF UF (dual_call_out nlab us ord init fin I W HO HI fuel b I' PO OF E) fuel') as [K|[K|[t [K1 [K2 K3]]]]]; auto.
  right; right. exists t. ands; auto. eapply rtrace_good; eauto. intros; apply build_rules; auto.
Qed.
Print Assumptions C51_rule_trace_dual_partial.
Definition dual_result (init fin : aut) : option (bool * option (option rtrace)) :=
  match new_inst ex_pda ex_ord init fin with
  | Some inst0 => match dual_search_accepts ex_pda 200 inst0 with Some (Some (b, I')) => Some (b, get_rule_trace_dual ex_pda 200 I') | _ => None end
  | None => None
  end.
Theorem C51_rule_trace_dual_refuted : dual_result sw_init sw_fin = Some (true, None) /\ dual_result ex_start2 ex_target = Some (false, None).
Proof. split; vm_compute; reflexivity. Qed.
Print Assumptions C51_rule_trace_dual_refuted.
(** The rule traces of the running example: PUSH, SWAP, POP. *)
Definition ops (r : option (option (option rtrace))) : option (nat * list (option srule) * list nat * list nat * list nat * list nat) :=
  match r with Some (Some (Some (q, rs, w1, w2, p1, p2))) => Some (q, map rs_srule rs, w1, w2, p1, p2) | _ => None end.
Definition ex_ops : option _ :=
  I <- new_inst ex_pda ex_ord ex_start ex_target ;;
  match pre_star_accepts ex_pda 200 I, post_star_accepts ex_pda 200 I, dual_search_accepts ex_pda 200 I with
  | Some (Some (_, I1)), Some (Some (_, I2)), Some (Some (_, I3)) =>
      Some [ops (get_rule_trace_pre ex_pda 200 I1); ops (get_rule_trace_post ex_pda 200 I2); ops (match get_rule_trace_dual ex_pda 200 I3 with Some (Some t) => done (Some t) | _ => None end)]
  | _, _, _ => None
  end.
Example C51_example : ex_ops = Some (repeat (Some (0, [Some (mk_srule 0 0 1 (SPush 1)); Some (mk_srule 1 1 1 (SSwap 2)); Some (mk_srule 1 2 2 SPop)], [0], [0], [0; 3], [2; 3])) 3).
Proof. vm_compute. reflexivity. Qed.
