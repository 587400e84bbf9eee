(** C75: what the program reports for a PDA with signed weights, engine pre* and the trace types Longest and ShortestFixedPoint. *)
From Coq Require Import Ascii String List Arith Lia Bool ZArith Permutation.
From Verif Require Import Base BaseFacts Spec SpecFacts PdaModel PdaProof AutModel AutProof PreStarModel PreStarProof PreStarLang PostStarModel PostStarProof
  PathModel QueryModel QueryProof SolverModel SolverProof ProductModel ProductProof VerdictModel VerdictProof UtilModel ShortSpec ShortModel PostShortProof ShortProof StoreProof ExHelp PropsSaturation PropsShort
  TraceModel TraceProof TraceSolver FixSpec FixModel FixChain FixPre1 FixPre2 FixPre3 FixPre4 FixPre5 FixPre6 FixPath FixPath2 FixSolveModel FixSolveProof PropsFix PropsFixSolve
  FixTraceModel FixTrace1 FixTrace2 FixTrace3 FixTrace4 FixTrace5
  NfaModel AtomModel GrammarSpec QTextSpec ParserModel QTextModel QTextProof QBuildProof NfaProof RegexSpec RegexProof VerifyModel VerifyProof VerifyText
  PropsSolver PropsNfa PropsQText PropsVerify PropsFixTrace VerifyFixModel.
Import ListNotations.
Local Open Scope list_scope.

(** The output: a run of best weight with its weight, the word for infinity if the runs can be improved for ever, or "false" if there is no run. *)
Definition fix_output (mx : bool) (R : wpds) (L1 L2 : config -> Prop) (v : fvres) : Prop :=
  (exists d tr c, v = FOut "pre*" (Some (WNum d)) true tr /\ best_weight mx R L1 L2 d /\ hd_error tr = Some c /\ L1 c /\ L2 (last tr c) /\ wtrace R tr d) \/
  (v = FOut "pre*" (Some (WText (if mx then "infinity" else "negative infinity"))) true [] /\ unbounded mx R L1 L2) \/
  (v = FOut "pre*" None false [] /\ forall d, ~ run_weight R L1 L2 d).

Theorem C75_verify : forall nlab us mx ord A1 A2, let P := build nlab us in let n := pd_n P in
  Forall (wf_urule nlab) us -> lookup_safe us -> (forall q l, Permutation (ord q l) l) ->
  pre_ok P A1 -> no_in P A1 -> pre_ok P A2 -> no_in P A2 -> untraced A2 -> 2 <= List.length (a_edges A2) ->
  answers2 (fun k1 k2 => verify_fix P mx k1 k2 ord (mk_faut A1 [] []) (mk_faut A2 [] [])) (fix_output mx (user_wrules nlab us) (aut_lang n A1) (aut_lang n A2)).
Proof.
  intros nlab us mx ord A1 A2 P n W LS HO OK1 NI1 OK NI UT TWO.
  set (init := mk_faut A1 [] []). set (fin := mk_faut A2 [] []). set (R := user_wrules nlab us).
  change (aut_lang n A1) with (aut_lang n (fa_aut init)). change (aut_lang n A2) with (aut_lang n (fa_aut fin)). set (L1 := aut_lang n (fa_aut init)). set (L2 := aut_lang n (fa_aut fin)).
  change (pre_ok P (fa_aut fin)) in OK. change (no_in P (fa_aut fin)) in NI. change (2 <= List.length (a_edges (fa_aut fin))) in TWO.
  assert (WI0: aut_wf (fa_aut init)) by (eapply pre_ok_wf; eauto). assert (HI: n <= a_size (fa_aut init)) by apply (po_n _ _ OK1).
  assert (NEI: forall q t, ~ aut_edges (fa_aut init) q None t) by (intros q t; eapply pre_no_eps; eauto).
  assert (DF: forall e t, In (e, t) (a_edges (fa_aut fin)) -> t = TNull /\ fa_trace2 fin e = TNull /\ fa_weight fin e = Some 0%Z) by (intros e t He; ands; auto; eapply UT; eauto).
  destruct (fixed_trace_parts nlab us mx ord init fin W LS HO WI0 HI NEI OK NI DF TWO) as (A & wp & o & b1 & b3 & D & E & BO & G). fold P n R in D, E, G, BO. fold L1 L2 in G, BO.
  assert (AN: forall k1, pre_star_fixed_point P mx k1 fin = Some None -> pre_star_fixed_point_accepts P mx k1 ord init fin = Some None).
  { intros k1 H. unfold pre_star_fixed_point_accepts. destruct (pr_new_spec n (fa_aut init) (fa_aut fin) false HI (po_n _ _ OK) ord HO) as (pr & E0 & _). fold n. rewrite E0. cbn [obind]. rewrite H. reflexivity. }
  split.
  - intros k1 k2. unfold verify_fix. destruct (D k1) as [[H _]|H]; [rewrite (AN k1 H); auto|]. rewrite (E k1 H). unfold done. cbn [obind].
    destruct (has_accepting (wp_pr wp)).
    + destruct (G k2) as [[K _]|(tr & K & T)]; rewrite K; unfold done; cbn [obind]; auto. right. eexists. split; [reflexivity|].
      destruct o as [[d|]|]; cbn [weight_entry] in *.
      * left. destruct T as (c & T1 & T2 & T3 & T4), BO as [_ BO]. exists d, tr, c. ands; auto.
      * right. left. cbn in T. subst tr. split; [reflexivity|apply BO].
      * destruct BO. discriminate.
    + right. eexists. split; [reflexivity|]. right. right. split; [reflexivity|]. destruct o as [[d|]|], BO; try discriminate. auto.
  - exists b1. intros k1 K1. exists b3. intros k2 K2. unfold verify_fix. destruct (D k1) as [[_ H]|H]; [lia|]. rewrite (E k1 H). unfold done. cbn [obind].
    destruct (has_accepting (wp_pr wp)); [|discriminate]. destruct (G k2) as [[_ K]|(tr & K & T)]; [lia|]. rewrite K. discriminate.
Qed.
Print Assumptions C75_verify.

(** More than one way to begin: the second set has a stack of at least two labels, or two different pairs of a state and a first label. *)
Definition two_starts (L : config -> Prop) : Prop :=
  (exists p x y w, L (p, x :: y :: w)) \/ exists p x w p' x' w', L (p, x :: w) /\ L (p', x' :: w') /\ (p, x) <> (p', x').

Lemma two_edges : forall P A, pre_ok P A -> no_in P A -> two_starts (aut_lang (pd_n P) A) -> 2 <= List.length (a_edges A).
Proof.
  intros P A OK NI H. assert (NE := pre_no_eps _ _ OK).
  assert (ST: forall q x w f, apath (aut_edges A) q (x :: w) f -> exists q1, In (mk_edge q (Some x) q1) (map fst (a_edges A)) /\ apath (aut_edges A) q1 w f).
  { intros q x w f Hp. inversion Hp; subst; [eauto|exfalso; eapply NE; eauto]. }
  assert (TW: forall e e', In e (map fst (a_edges A)) -> In e' (map fst (a_edges A)) -> e <> e' -> 2 <= List.length (a_edges A)).
  { intros e e' H1 H2 N. rewrite <- (map_length fst). destruct (map fst (a_edges A)) as [|a [|b l]]; cbn in *; [contradiction| |lia]. exfalso. destruct H1 as [<-|[]], H2 as [<-|[]]. apply N; reflexivity. }
  destruct H as [(p & x & y & w & [Hp [f [H _]]])|(p & x & w & p' & x' & w' & [_ [f [H _]]] & [_ [f' [H' _]]] & N)]; cbn [fst snd] in *.
  - destruct (ST _ _ _ _ H) as (q1 & I1 & K). destruct (ST _ _ _ _ K) as (q2 & I2 & _). apply (TW _ _ I1 I2). intros EQ. injection EQ as -> _ _. apply NI in I1. lia.
  - destruct (ST _ _ _ _ H) as (q1 & I1 & _). destruct (ST _ _ _ _ H') as (q2 & I2 & _). apply (TW _ _ I1 I2). intros EQ. injection EQ as -> -> _. apply N; reflexivity.
Qed.

Lemma fix_output_iff : forall mx R (L1 L1' L2 L2' : config -> Prop) v, (forall c, L1 c <-> L1' c) -> (forall c, L2 c <-> L2' c) -> fix_output mx R L1 L2 v -> fix_output mx R L1' L2' v.
Proof.
  intros mx R L1 L1' L2 L2' v H1 H2 H.
  assert (RW: forall d, run_weight R L1 L2 d <-> run_weight R L1' L2' d).
  { intros d. unfold run_weight. split; intros (c1 & c2 & Q1 & Q2 & Q3); exists c1, c2; ands; auto; (apply H1 || apply H2); auto. }
  destruct H as [(d & tr & c & E & [B1 B2] & T1 & T2 & T3 & T4)|[[E U]|[E N]]].
  - left. exists d, tr, c. ands; auto; [|apply H1; auto|apply H2; auto]. split; [apply RW; auto|]. intros v' Hv. apply B2, RW; auto.
  - right. left. split; auto. intros b. destruct (U b) as (d & Hd & Hb). exists d. split; auto. apply RW; auto.
  - right. right. split; auto. intros d Hd. apply (N d), RW; auto.
Qed.

(** From two texts to the output. *)
Theorem C75_program : forall addr ord sl tab us s1 s2 mx, (forall i j, addr i = addr j -> i = j) -> (forall q l, Permutation (ord q l) l) ->
  (forall n id, sl n = SFound id -> id < pd_n (build (List.length tab) us)) -> NoDup tab -> Forall (wf_urule (List.length tab)) us -> lookup_safe us ->
  ((forall k1 k2, run_query_fix addr ord sl tab us s1 s2 mx k1 k2 = done FThrow) /\ forall lf q1 q2, gquery lf q1 s1 -> gquery lf q2 s2 -> ~ (states_ok sl q1 /\ states_ok sl q2)) \/
  exists tab1 tab2, (exists x, tab1 = tab ++ x) /\ (exists x, tab2 = tab1 ++ x) /\ NoDup tab2 /\ (exists lf q1 q2, numbering lf tab2 /\ gquery lf q1 s1 /\ gquery lf q2 s2) /\
  forall lf q1 q2, numbering lf tab2 -> gquery lf q1 s1 -> gquery lf q2 s2 -> states_ok sl q1 /\ states_ok sl q2 /\
    List.length tab1 = last (known (List.length tab) q1) 0 /\ List.length tab2 = last (known (List.length tab1) q2) 0 /\
    ((forall a, In a (q1 ++ q2) -> rsafe (qa_re a) = true) -> two_starts (q_configs (names_of sl) (List.length tab1) q2) ->
     answers2 (fun k1 k2 => run_query_fix addr ord sl tab us s1 s2 mx k1 k2)
      (fix_output mx (user_wrules (List.length tab2) us) (q_configs (names_of sl) (List.length tab) q1) (q_configs (names_of sl) (List.length tab1) q2))).
Proof.
  intros addr ord sl tab us s1 s2 mx Hi Ho Hs ND W LS.
  destruct (two_texts addr ord sl tab us s1 s2 Hi Ho Hs ND W) as [[E X]|(A1 & tab1 & A2 & tab2 & E1 & E2 & X1 & X2 & ND2 & EX & P1 & I1 & U1 & P2 & I2 & U2 & W2 & L)].
  { left. split; [|exact X]. intros k1 k2. unfold run_query_fix. destruct E as [E|(A1 & tab1 & E1 & E2)]; [rewrite E; reflexivity|]. rewrite E1. cbn [obind]. rewrite E2. reflexivity. }
  right. exists tab1, tab2. do 4 (split; [assumption|]). intros lf q1 q2 Hn H1 H2. destruct (L lf q1 q2 Hn H1 H2) as (S1 & S2 & T1 & T2 & K). do 4 (split; [assumption|]). intros SF TS.
  destruct (K SF) as [K1 K2]. set (PD := build (List.length tab2) us) in *.
  assert (TW: 2 <= List.length (a_edges A2)).
  { apply (two_edges PD); auto. destruct TS as [(p & x & y & w & H)|(p & x & w & p' & x' & w' & H & H' & N)]; [left; exists p, x, y, w; apply K2; auto|right; exists p, x, w, p', x', w'; ands; auto; apply K2; auto]. }
  destruct (C75_verify (List.length tab2) us mx ord A1 A2 W2 LS Ho P1 I1 P2 I2 U2 TW) as [V1 V2].
  assert (EQ: forall k1 k2, run_query_fix addr ord sl tab us s1 s2 mx k1 k2 = verify_fix PD mx k1 k2 ord (mk_faut A1 [] []) (mk_faut A2 [] [])).
  { intros k1 k2. unfold run_query_fix. rewrite E1. cbn [obind]. rewrite E2. reflexivity. }
  split.
  - intros k1 k2. rewrite EQ. destruct (V1 k1 k2) as [Z|[r [Z Q]]]; [left; exact Z|right]. exists r. split; [exact Z|]. eapply fix_output_iff; [exact K1|exact K2|exact Q].
  - destruct V2 as [b1 V2]. exists b1. intros k1 K'. destruct (V2 k1 K') as [b2 V3]. exists b2. intros k2 K2'. rewrite EQ. apply V3; auto.
Qed.
Print Assumptions C75_program.

(** The PDA of C32 with names; from <q, [A]> the weights can be lowered for ever. *)
Definition vx_names : list (list ascii) := [txt "p"; txt "q"; txt "r"].
Definition vx_tab : list (list ascii) := [txt "A"; txt "B"].
Definition vx_run (mx : bool) (s1 s2 : string) : option (option fvres) :=
  run_query_fix ex_addr ex_ord (sl_names vx_names) vx_tab c32_rules (txt s1) (txt s2) mx 100 100.
Example C75_runs :
  vx_run false "<p, [A]>" "<r, [A]|[B]>" = done (FOut "pre*" (Some (WNum 2)) true [(0, [0]); (1, [1; 0]); (2, [0])]) /\
  vx_run true "<p, [A]>" "<r, [A]|[B]>" = done (FOut "pre*" (Some (WNum 4)) true [(0, [0]); (2, [1])]) /\
  vx_run false "<[p,q], [A]>" "<r, [A]|[B]>" = done (FOut "pre*" (Some (WText "negative infinity")) true []) /\
  vx_run true "<[p,q], [A]>" "<r, [A]|[B]>" = done (FOut "pre*" (Some (WNum 4)) true [(0, [0]); (2, [1])]) /\
  vx_run false "<r, [A][A]>" "<r, [A]|[B]>" = done (FOut "pre*" None false []) /\ vx_run true "<s, [A]>" "<r, [A]>" = done FThrow.
Proof. ands; vm_compute; reflexivity. Qed.
Lemma vx_states : forall nlab us, pd_n (build nlab us) = 3 -> forall n id, sl_names vx_names n = SFound id -> id < pd_n (build nlab us).
Proof.
  intros nlab us -> n id H. unfold sl_names in H. destruct (Nat.ltb (tab_id vx_names n) (List.length vx_names)) eqn:E; [|discriminate]. injection H as <-. apply Nat.ltb_lt in E. exact E.
Qed.
Lemma vx_label : forall tab s i, is_label s -> tab_id tab s = i -> gunary (tab_id tab) (RSet false [i]) ("["%char :: s ++ ["]"%char]).
Proof. intros tab s i Hs <-. apply gu_value, gv_set, gl_one, Hs. Qed.
Lemma vx_single : forall tab st c l, is_identifier [st] -> ident_char c -> tab_id tab [c] = l -> gquery (tab_id tab) [mk_qatom [mk_sref false [st]] (RSet false [l])] (txt "<" ++ [st] ++ txt ",[" ++ [c] ++ txt "]>").
Proof.
  intros tab st c l Hs Hc Hl. change (txt "<" ++ [st] ++ txt ",[" ++ [c] ++ txt "]>") with ([] ++ ("<"%char :: [] ++ [st] ++ [] ++ ","%char :: ([] ++ ("["%char :: [c] ++ ["]"%char]) ++ []) ++ [">"%char]) ++ []).
  constructor; [apply ign_nil| |apply ie_ign, ign_nil]. apply gas_one. constructor; [apply ign_nil|apply gi_one, gst_ident; auto|apply ign_nil|].
  apply gb_expr; [apply ign_nil| |apply ign_nil]. apply ge_one, gs_one, vx_label; auto. split; [discriminate|constructor; auto].
Qed.
(** The hypotheses of the theorem hold for such texts. *)
Example C75_case : exists q1 q2, gquery (tab_id vx_tab) q1 (txt "<p,[A]>") /\ gquery (tab_id vx_tab) q2 (txt "<r,[A]|[B]>") /\ (forall a, In a (q1 ++ q2) -> rsafe (qa_re a) = true) /\
  two_starts (q_configs (names_of (sl_names vx_names)) 2 q2) /\ numbering (tab_id vx_tab) vx_tab /\ NoDup vx_tab /\ Forall (wf_urule 2) c32_rules /\ lookup_safe c32_rules /\
  forall n id, sl_names vx_names n = SFound id -> id < pd_n (build 2 c32_rules).
Proof.
  assert (ND: NoDup vx_tab) by (repeat constructor; cbn; intuition discriminate).
  exists [mk_qatom [mk_sref false (txt "p")] (RSet false [0])], [mk_qatom [mk_sref false (txt "r")] (RAlt (RSet false [0]) (RSet false [1]))].
  split; [apply (vx_single vx_tab "p"%char "A"%char); [split; [repeat constructor; unfold ident_char; cbn; lia|unfold digit_char; cbn; lia]|unfold ident_char; cbn; lia|reflexivity]|]. split.
  { change (txt "<r,[A]|[B]>") with ([] ++ ("<"%char :: [] ++ txt "r" ++ [] ++ ","%char :: ([] ++ (("["%char :: txt "A" ++ ["]"%char]) ++ [] ++ "|"%char :: [] ++ ("["%char :: txt "B" ++ ["]"%char])) ++ []) ++ [">"%char]) ++ []).
    constructor; [apply ign_nil| |apply ie_ign, ign_nil]. apply gas_one. constructor; [apply ign_nil| |apply ign_nil|].
    - apply gi_one, gst_ident. split; [repeat constructor; unfold ident_char; cbn; lia|unfold digit_char; cbn; lia].
    - apply gb_expr; [apply ign_nil| |apply ign_nil]. apply ge_or; [apply gs_one, vx_label|apply ign_nil|apply ign_nil|apply ge_one, gs_one, vx_label]; try reflexivity; (split; [discriminate|repeat constructor; unfold ident_char; cbn; lia]). }
  split; [intros a [<-|[<-|[]]]; reflexivity|]. split.
  { right. exists 2, 0, [], 2, 1, []. ands; [| |discriminate]; (exists 0; eexists; exists 2; ands; [reflexivity|reflexivity|eexists; split; [left; reflexivity|reflexivity]| |repeat constructor]).
    - apply rm_alt1, rm_set. cbn; auto.
    - apply rm_alt2, rm_set. cbn; auto. }
  split; [apply tab_id_numbering; auto|]. split; [exact ND|]. split; [apply wf_urulesb_ok; reflexivity|]. split; [apply lookup_safeb_ok; reflexivity|]. apply vx_states. reflexivity.
Qed.

(** Without two_starts the claim is false: for the query from <p, [A]> to <r, [A]> and the PDA of C32_single_edge_refuted an assertion fails (Verifier.h 262), although
    every other hypothesis of C75_program holds and a run exists. *)
Theorem C75_single_refuted : exists sl tab us s1 s2 lf q1 q2,
  (forall n id, sl n = SFound id -> id < pd_n (build (List.length tab) us)) /\ NoDup tab /\ Forall (wf_urule (List.length tab)) us /\ lookup_safe us /\
  numbering lf tab /\ gquery lf q1 s1 /\ gquery lf q2 s2 /\ states_ok sl q1 /\ states_ok sl q2 /\
  List.length tab = last (known (List.length tab) q1) 0 /\ List.length tab = last (known (List.length tab) q2) 0 /\ (forall a, In a (q1 ++ q2) -> rsafe (qa_re a) = true) /\
  run_weight (user_wrules (List.length tab) us) (q_configs (names_of sl) (List.length tab) q1) (q_configs (names_of sl) (List.length tab) q2) 0%Z /\
  exists k, forall k1 k2, k <= k1 -> run_query_fix ex_addr ex_ord sl tab us s1 s2 false k1 k2 = None.
Proof.
  assert (ND: NoDup [txt "A"]) by (repeat constructor; cbn; intuition discriminate).
  exists (sl_names vx_names), [txt "A"], c32_bad, (txt "<p,[A]>"), (txt "<r,[A]>"), (tab_id [txt "A"]),
    [mk_qatom [mk_sref false (txt "p")] (RSet false [0])], [mk_qatom [mk_sref false (txt "r")] (RSet false [0])].
  split; [apply vx_states; reflexivity|]. split; [exact ND|]. split; [apply wf_urulesb_ok; reflexivity|]. split; [apply lookup_safeb_ok; reflexivity|]. split; [apply tab_id_numbering; auto|].
  split; [apply (vx_single [txt "A"] "p"%char "A"%char); [split; [repeat constructor; unfold ident_char; cbn; lia|unfold digit_char; cbn; lia]|unfold ident_char; cbn; lia|reflexivity]|].
  split; [apply (vx_single [txt "A"] "r"%char "A"%char); [split; [repeat constructor; unfold ident_char; cbn; lia|unfold digit_char; cbn; lia]|unfold ident_char; cbn; lia|reflexivity]|].
  split. { intros a r [<-|[]] [<-|[]]. left. eexists. vm_compute. reflexivity. }
  split. { intros a r [<-|[]] [<-|[]]. left. eexists. vm_compute. reflexivity. }
  split; [reflexivity|]. split; [reflexivity|]. split; [intros a [<-|[<-|[]]]; reflexivity|]. split.
  - exists (0, [0]), (2, [0]). split; [|split].
    + exists 0. eexists. exists 1. ands; [reflexivity|reflexivity|eexists; split; [left; reflexivity|reflexivity]|apply rm_set; cbn; auto|repeat constructor].
    + exists 0. eexists. exists 1. ands; [reflexivity|reflexivity|eexists; split; [left; reflexivity|reflexivity]|apply rm_set; cbn; auto|repeat constructor].
    + change 0%Z with (0 + (0 + 0))%Z. eapply wr_step with (r := mk_srule 0 0 1 (SSwap 0)) (c2 := (1, [0])); [exists (ru 0 SWAP 1 0 0 0); cbn; ands; auto|apply (step_by_intro (mk_srule 0 0 1 (SSwap 0)) [])|].
      eapply wr_step with (r := mk_srule 1 0 2 (SSwap 0)) (c2 := (2, [0])); [exists (ru 1 SWAP 2 0 0 0); cbn; ands; auto|apply (step_by_intro (mk_srule 1 0 2 (SSwap 0)) [])|apply wr_refl].
  - exists 30. intros k1 k2 K. do 30 (destruct k1 as [|k1]; [lia|]). clear K. vm_compute. reflexivity.
Qed.
Print Assumptions C75_single_refuted.
