(** C73: what the program reports for a PDA without weights. *)
From Coq Require Import Ascii String List Arith Lia Bool ZArith Permutation.
From Verif Require Import Base BaseFacts Spec SpecFacts PdaModel PdaProof AutModel AutProof PreStarModel PreStarProof PreStarLang PostStarLang
  SolverModel QueryModel QueryProof ProductModel VerdictModel TraceModel TraceSolver NfaModel AtomModel GrammarSpec QTextSpec ParserModel QTextModel QTextProof QBuildProof
  PreStarModel PostStarModel SolverProof ProductProof VerdictProof NfaProof RegexSpec RegexProof ConstructProof AtomProof ParserProof ExHelp PropsSaturation PropsQuery PropsSolver PropsTrace PropsNfa PropsQText VerifyModel VerifyProof.
Import ListNotations.
Local Open Scope list_scope.

(** The engines of the help text. *)
Definition engine_name (e : nat) (s : string) : Prop := (e = 1 /\ s = "post*"%string) \/ (e = 2 /\ s = "pre*"%string) \/ (e = 3 /\ s = "dual*"%string).
(** The output: the name of the engine, whether a run exists, and, if a trace was asked for and there is one, a run. *)
Definition right_output (R : pds) (L1 L2 : config -> Prop) (e : nat) (traced : bool) (v : vres) : Prop :=
  exists s b tr, v = VOut s b tr /\ engine_name e s /\ (b = true <-> can_reach R L1 L2) /\ (if b && traced then run_between R L1 L2 tr else tr = []).
(** Every call with bounds ends, has no undefined behaviour and a result with [Q]; the bound of the second loop depends on the first. *)
Definition answers2 {T} (f : nat -> nat -> option (option T)) (Q : T -> Prop) : Prop :=
  (forall k1 k2, f k1 k2 = Some None \/ exists r, f k1 k2 = done r /\ Q r) /\ exists b1, forall k1, b1 <= k1 -> exists b2, forall k2, b2 <= k2 -> f k1 k2 <> Some None.

Lemma two_steps : forall (R : pds) L1 L2 e s (acc : nat -> option (option (bool * inst))) (tra : nat -> inst -> option (option (list config))), engine_name e s ->
  answers acc (fun r => fst r = true <-> can_reach R L1 L2) ->
  (forall k b J, acc k = done (b, J) -> answers (fun k2 => tra k2 J) (fun tr => if b then run_between R L1 L2 tr else tr = [])) ->
  answers2 (fun k1 k2 => v <- acc k1 ;; match v with None => Some None | Some (false, _) => done (VOut s false [])
      | Some (true, J) => tr <- tra k2 J ;; match tr with None => Some None | Some tr => done (VOut s true tr) end end) (right_output R L1 L2 e true) /\
  answers2 (fun k1 k2 : nat => v <- acc k1 ;; match v with None => Some None | Some (b, _) => done (VOut s b []) end) (right_output R L1 L2 e false).
Proof.
  intros R L1 L2 e s acc tra N [H1 [bd H2]] HT. split; split.
  - intros k1 k2. destruct (H1 k1) as [E|[[b J] [E Q]]]; rewrite E; cbn [obind]; auto. unfold done. cbn [obind]. destruct b.
    + destruct (HT k1 true J E) as [T1 _]. destruct (T1 k2) as [F|[tr [F G]]]; rewrite F; cbn [obind]; auto. right. eexists. split; [reflexivity|]. exists s, true, tr. cbn. ands; auto.
    + right. eexists. split; [reflexivity|]. exists s, false, []. cbn. ands; auto.
  - exists bd. intros k1 K. specialize (H2 k1 K). destruct (H1 k1) as [E|[[b J] [E Q]]]; [contradiction|]. rewrite E. unfold done. cbn [obind]. destruct b.
    + destruct (HT k1 true J E) as [T1 [b2 T2]]. exists b2. intros k2 K2. specialize (T2 k2 K2). destruct (T1 k2) as [F|[tr [F G]]]; [contradiction|]. rewrite F. discriminate.
    + exists 0. discriminate.
  - intros k1 k2. destruct (H1 k1) as [E|[[b J] [E Q]]]; rewrite E; unfold done; cbn [obind]; auto. right. eexists. split; [reflexivity|]. exists s, b, []. rewrite andb_false_r. ands; auto.
  - exists bd. intros k1 K. exists 0. intros k2 _. specialize (H2 k1 K). destruct (H1 k1) as [E|[[b J] [E Q]]]; [contradiction|]. rewrite E. discriminate.
Qed.

Theorem C73_verify : forall nlab us ord A1 A2 J e t, Forall (wf_urule nlab) us -> lookup_safe us -> (forall q l, Permutation (ord q l) l) ->
  let P := build nlab us in
  new_inst P ord A1 A2 = Some J -> pre_ok P A1 -> no_in P A1 -> fresh A1 -> pre_ok P A2 -> no_in P A2 -> fresh A2 -> 1 <= e <= 3 -> t = TyNone \/ t = TyAny ->
  answers2 (fun k1 k2 => verify e t P k1 k2 J)
    (right_output (user_rules nlab us) (aut_lang (pd_n P) A1) (aut_lang (pd_n P) A2) e (match t with TyAny => true | _ => false end)).
Proof.
  intros nlab us ord A1 A2 J e t W LS HO P HI P1 N1 F1 P2 N2 F2 He Ht.
  assert (W1 := pre_ok_wf _ _ P1). assert (W2 := pre_ok_wf _ _ P2). assert (Z1 := po_n _ _ P1). assert (Z2 := po_n _ _ P2).
  assert (NE1: no_eps A1) by (intros q q'; eapply pre_no_eps; eauto). assert (NE2: no_eps A2) by (intros q q'; eapply pre_no_eps; eauto).
  set (R := user_rules nlab us). set (L1 := aut_lang (pd_n P) A1). set (L2 := aut_lang (pd_n P) A2).
  assert (C: e = 1 \/ e = 2 \/ e = 3) by lia. destruct C as [C|[C|C]]; subst e.
  - destruct (two_steps R L1 L2 1 "post*" (fun k => post_star_accepts P k J) (fun k J => get_trace_post P k J)) as [Ta Tn].
    { left; auto. } { eapply C09_post_star_verdict; eauto. } { intros k b J' E. eapply C13_post_star_trace with (init := A1) (fin := A2); eauto. }
    destruct Ht as [-> | ->]; [exact Tn|exact Ta].
  - destruct (two_steps R L1 L2 2 "pre*" (fun k => pre_star_accepts P k J) (fun k J => get_trace_pre P k J)) as [Ta Tn].
    { right; left; auto. } { eapply C08_pre_star_verdict; eauto. } { intros k b J' E. eapply C12_pre_star_trace with (init := A1) (fin := A2); eauto. }
    destruct Ht as [-> | ->]; [exact Tn|exact Ta].
  - destruct (two_steps R L1 L2 3 "dual*" (fun k => dual_search_accepts P k J) (fun k J => get_trace_dual P k J)) as [Ta Tn].
    { right; right; auto. } { eapply C10_dual_search_verdict; eauto. } { intros k b J' E. eapply C14_dual_search_trace with (init := A1) (fin := A2); eauto. }
    destruct Ht as [-> | ->]; [exact Tn|exact Ta].
Qed.
Print Assumptions C73_verify.

(** The other options: no verification, an exception, or an assertion failure (an exception if assertions are off). *)
Theorem C73_other_options : forall e t P k1 k2 J,
  (e = 0 -> verify e t P k1 k2 J = done VNothing) /\ (3 < e -> verify e t P k1 k2 J = done VThrow) /\
  (1 <= e <= 3 -> t = TyShortest \/ t = TyLongest \/ t = TyFixed -> verify e t P k1 k2 J = None).
Proof.
  intros e t P k1 k2 J. unfold verify. ands.
  - intros ->. reflexivity.
  - intros H. destruct (Nat.eqb_spec e 0); [lia|]. apply Nat.ltb_lt in H. rewrite H. reflexivity.
  - intros H Ht. destruct (Nat.eqb_spec e 0); [lia|]. destruct (Nat.ltb_spec 3 e); [lia|]. destruct Ht as [-> |[-> | ->]]; reflexivity.
Qed.
Print Assumptions C73_other_options.

(** The option --trace is read as it is written. *)
Theorem C73_trace_option : forall s t, read_ttype s = Some t <-> s = write_ttype t.
Proof.
  intros s t. unfold read_ttype. split.
  - repeat match goal with |- context [String.eqb s ?x] => destruct (String.eqb_spec s x) as [->|] end; intros H; try discriminate; injection H as <-; reflexivity.
  - intros ->. destruct t; reflexivity.
Qed.
Print Assumptions C73_trace_option.

(** From two texts to the output. *)
Theorem C73_program : forall addr ord sl tab us s1 s2 e t, (forall i j, addr i = addr j -> i = j) -> (forall q l, Permutation (ord q l) l) ->
  (forall n id, sl n = SFound id -> id < pd_n (build (List.length tab) us)) -> NoDup tab -> Forall (wf_urule (List.length tab)) us -> lookup_safe us ->
  1 <= e <= 3 -> t = TyNone \/ t = TyAny ->
  ((forall k1 k2, run_query addr ord sl tab us s1 s2 e t k1 k2 = done VThrow) /\ forall lf q1 q2, gquery lf q1 s1 -> gquery lf q2 s2 -> ~ (states_ok sl q1 /\ states_ok sl q2)) \/
  exists tab1 tab2, (exists x, tab1 = tab ++ x) /\ (exists x, tab2 = tab1 ++ x) /\ NoDup tab2 /\ (exists lf q1 q2, numbering lf tab2 /\ gquery lf q1 s1 /\ gquery lf q2 s2) /\
  forall lf q1 q2, numbering lf tab2 -> gquery lf q1 s1 -> gquery lf q2 s2 -> states_ok sl q1 /\ states_ok sl q2 /\
    List.length tab1 = last (known (List.length tab) q1) 0 /\ List.length tab2 = last (known (List.length tab1) q2) 0 /\
    ((forall a, In a (q1 ++ q2) -> rsafe (qa_re a) = true) ->
     answers2 (fun k1 k2 => run_query addr ord sl tab us s1 s2 e t k1 k2)
      (right_output (user_rules (List.length tab2) us) (q_configs (names_of sl) (List.length tab) q1) (q_configs (names_of sl) (List.length tab1) q2) e
        (match t with TyAny => true | _ => false end))).
Proof.
  intros addr ord sl tab us s1 s2 e t Hi Ho Hs ND W LS He Ht. unfold run_query.
  assert (EN: forall n m, pd_n (build n us) = pd_n (build m us)). { intros n m. rewrite <- (with_nlab_build n m). reflexivity. }
  destruct (parse_query_spec addr Hi ord Ho _ sl Hs tab s1 ND) as [[E1 X]|[A1 [tab1 [E1 [[n1 X1] [ND1 [_ [O1 L1]]]]]]]].
  { left. rewrite E1. split; [reflexivity|]. intros lf q1 q2 G1 _ [G _]. eapply X; eauto. }
  assert (Hs1: forall n id, sl n = SFound id -> id < pd_n (build (List.length tab1) us)) by (intros n id H; apply Hs in H; rewrite (EN _ (List.length tab)); auto).
  destruct (parse_query_spec addr Hi ord Ho _ sl Hs1 tab1 s2 ND1) as [[E2 X]|[A2 [tab2 [E2 [[n2 X2] [ND2 [[lf0 [q20 [Y1 Y2]]] [O2 L2]]]]]]]].
  { left. rewrite E1. cbn [obind]. rewrite E2. split; [reflexivity|]. intros lf q1 q2 _ G2 [_ G]. eapply X; eauto. }
  right. exists tab1, tab2. split; [eauto|]. split; [eauto|]. split; [exact ND2|]. split.
  { assert (G: exists q1, gquery lf0 q1 s1).
    { unfold parse_query in E1. destruct (p_query s1) as [rest acts| |] eqn:Ep; try discriminate. destruct (p_query_sound lf0 s1 rest acts Ep) as [q1 [G _]]. eauto. }
    destruct G as [q1 G]. exists lf0, q1, q20. auto. }
  clear lf0 q20 Y1 Y2. intros lf q1 q2 Hn H1 H2.
  assert (Hn1: numbering lf tab1) by (subst tab2; eapply numbering_prefix; eauto).
  destruct (L1 lf q1 Hn1 H1) as [S1 [T1 [_ K1]]]. destruct (L2 lf q2 Hn H2) as [S2 [T2 [_ K2]]]. ands; auto. intros SF.
  set (PD := build (List.length tab2) us).
  assert (K1' := K1 (fun a Ha => SF a (in_or_app _ _ _ (or_introl Ha)))). assert (K2' := K2 (fun a Ha => SF a (in_or_app _ _ _ (or_intror Ha)))).
  rewrite (EN _ (List.length tab2)) in K1'. rewrite (EN _ (List.length tab2)) in K2'. fold PD in K1', K2'.
  rewrite with_nlab_build in O1, O2. fold PD in O2.
  assert (LE: List.length tab <= List.length tab2) by (rewrite X2, X1, !app_length; lia). assert (LE1: List.length tab1 <= List.length tab2) by (rewrite X2, app_length; lia).
  assert (O1': post_ok PD A1). { apply (post_ok_nlab PD (List.length tab1)). { unfold PD. rewrite <- (with_nlab_build 0 (List.length tab2)). exact LE1. } unfold PD. rewrite with_nlab_build. exact O1. }
  assert (W2: Forall (wf_urule (List.length tab2)) us).
  { eapply Forall_impl; [|exact W]. intros u [W1 [W3 W4]]. unfold wf_urule. ands; auto; [intros l Hl; specialize (W3 l Hl); lia|intros Hl; specialize (W4 Hl); lia]. }
  apply post_ok_pre_ok in O1', O2. destruct O1' as [P1 I1], O2 as [P2 I2].
  assert (NI: exists J, new_inst PD ord A1 A2 = Some J).
  { unfold new_inst, pr_new. rewrite (proj2 (Nat.leb_le _ _) (po_n _ _ P1)), (proj2 (Nat.leb_le _ _) (po_n _ _ P2)). cbn. eauto. }
  destruct NI as [J HJ].
  assert (U1 := parse_query_untraced _ _ _ _ _ _ _ _ E1). assert (U2 := parse_query_untraced _ _ _ _ _ _ _ _ E2).
  destruct (C73_verify (List.length tab2) us ord A1 A2 J e t W2 LS Ho HJ P1 I1 U1 P2 I2 U2 He Ht) as [V1 V2].
  assert (EQ: forall k1 k2, run_query addr ord sl tab us s1 s2 e t k1 k2 = verify e t PD k1 k2 J).
  { intros k1 k2. unfold run_query. rewrite E1. cbn [obind]. rewrite E2. cbn [obind]. fold PD. rewrite HJ. reflexivity. }
  unfold run_query in EQ. split.
  - intros k1 k2. rewrite EQ. destruct (V1 k1 k2) as [Z|[r [Z [s [b [tr [Z1 [Z2 [Z3 Z4]]]]]]]]]; [left; exact Z|right]. exists r. split; [exact Z|]. exists s, b, tr. ands; auto.
    + rewrite Z3. unfold can_reach. split; intros [c1 [c2 [Q1 [Q2 Q3]]]]; exists c1, c2; ands; auto; try (apply K1' || apply K2'); auto.
    + destruct (b && _); auto. destruct Z4 as [Q1 [c [Q2 [Q3 Q4]]]]. split; [exact Q1|]. exists c. ands; auto; try (apply K1' || apply K2'); auto.
  - destruct V2 as [b1 V2]. exists b1. intros k1 K. destruct (V2 k1 K) as [b2 V3]. exists b2. intros k2 K2''. rewrite EQ. apply V3; auto.
Qed.
Print Assumptions C73_program.

(** The PDA of C71: p goes to q with any label, q pops A. *)
Definition vf_run (e : nat) (t : ttype) (s1 s2 : string) : option (option vres) :=
  run_query ex_addr ex_ord (sl_names qt_names) qt_tab qt_rules (txt s1) (txt s2) e t 100 100.
Example C73_runs :
  (forall e, In e [1; 2; 3] -> exists s, vf_run e TyAny "<p, [A] [B]>" "<q, [B]>" = done (VOut s true [(0, [0; 1]); (1, [0; 1]); (1, [1])]) /\ engine_name e s) /\
  vf_run 1 TyNone "<p, [A] [B]>" "<q, [B]>" = done (VOut "post*" true []) /\
  vf_run 2 TyAny "<p, [B]>" "<q, >" = done (VOut "pre*" false []) /\
  vf_run 3 TyAny "<r, [B]>" "<q, >" = done VThrow /\ vf_run 4 TyAny "<p, [B]>" "<q, >" = done VThrow /\ vf_run 0 TyAny "<p, [B]>" "<q, >" = done VNothing /\
  vf_run 1 TyShortest "<p, [B]>" "<q, >" = None.
Proof.
  split; [intros e [<-|[<-|[<-|[]]]]; eexists; (split; [vm_compute; reflexivity|unfold engine_name; auto])|].
  ands; vm_compute; reflexivity.
Qed.
