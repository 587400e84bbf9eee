(** C74: what the program reports for a PDA with weights, engine post* and the trace type Shortest. *)
From Coq Require Import Ascii String List Arith Lia Bool ZArith Permutation.
From Verif Require TraceSolver.
From Verif Require Import Base BaseFacts Spec SpecFacts PdaModel PdaProof AutModel AutProof PreStarModel PreStarProof PreStarLang PostStarModel PostStarProof
  PostStarLang PathModel QueryModel QueryProof SolverModel SolverProof ProductModel ProductProof TraceModel TraceProof UtilModel UtilProof ShortSpec ShortModel ShortProdProof PostShortProof ShortProof StoreProof ExHelp
  FixSpec ShortTraceModel ShortTrace1 ShortTrace2 ShortTrace3
  NfaModel AtomModel GrammarSpec QTextSpec ParserModel QTextModel QTextProof QBuildProof NfaProof RegexSpec RegexProof ConstructProof AtomProof ParserProof VerifyModel VerifyProof
  PropsSolver PropsNfa PropsQText PropsVerify PropsShort PropsFixTrace PropsShortTrace VerifyShortModel.
Import ListNotations.
Local Open Scope list_scope.

(** The output: if the result is true, the weight written is the least weight of a run and the trace is a run of that weight; otherwise neither is written. *)
Definition short_output (R : wpds) (L1 L2 : config -> Prop) (v : wvres) : Prop :=
  (exists d tr, v = WOut "post*" (Some d) true tr /\ least_weight R L1 L2 d /\ wtrace R tr d /\ L1 (hd (0, []) tr) /\ L2 (last tr (0, []))) \/
  v = WOut "post*" None false [].

(** verify on an instance. What is missing: that the result is true whenever there is a run, which is false (C74_verdict_refuted). *)
Theorem C74_verify_partial : forall nlab us top ptop ord A1 A2 J, let P := build nlab us in let n := pd_n P in
  Forall (wf_urule nlab) us -> (forall u, In u us -> (0 <= r_w (u_rule u))%Z) ->
  top_max Z zcomp top -> top_push Z top -> least_top ptop -> (forall q l, Permutation (ord q l) l) ->
  pre_ok P A1 -> no_in P A1 -> all_null A1 -> pre_ok P A2 -> no_in P A2 ->
  (forall p, p < n -> aut_final A1 p -> aut_final A2 p -> False) ->
  new_sinst P ord (mk_waut A1 []) (mk_waut A2 []) = Some J ->
  answers2 (fun k1 k2 => verify_short P top ptop k1 k2 J) (short_output (user_wrules nlab us) (aut_lang n A1) (aut_lang n A2)).
Proof.
  intros nlab us top ptop ord A1 A2 J P n W NN TM TP PT HO OK NI NU OK2 NI2 NA HJ.
  set (init := mk_waut A1 []) in *. set (fin := mk_waut A2 []) in *.
  assert (PO: post_ok P (wa_aut init)) by (apply post_ok_pre_ok; auto). assert (WP := build_wf _ _ W). assert (NG := built_nonneg _ _ W NN).
  assert (WF: aut_wf (wa_aut fin)) by (eapply pre_ok_wf; eauto). assert (LF: n <= a_size (wa_aut fin)) by apply (po_n _ _ OK2).
  assert (NE: forall q q', ~ aut_edges (wa_aut fin) q None q') by (intros q q'; eapply TraceSolver.pre_no_eps; eauto).
  assert (ZI: forall e, w_of init e = 0%Z) by apply w_of_nil. assert (ZF: forall e, w_of fin e = 0%Z) by apply w_of_nil.
  destruct (short_spec P WP top TM TP ptop PT init fin PO WF LF ZI ZF NG NA ord HO J HJ) as (fuel0 & b & J' & E & _ & o & Eo & HA & Hb).
  assert (HB : forall sr w, pda_wrules P sr w <-> user_wrules nlab us sr w) by (apply build_wrules; auto).
  assert (AF := short_after P WP top TM TP ptop PT init fin PO WF LF ZI ZF NG NA ord HO J HJ fuel0 b J' (E fuel0 (Nat.le_refl _))).
  assert (SA := short_answers P top ptop J b J' (ex_intro _ fuel0 E)). unfold answer in HA.
  assert (G: b = true -> exists tr d bd, (forall k2, (get_trace_post_shortest P k2 J' = Some None /\ k2 < bd) \/ get_trace_post_shortest P k2 J' = done (tr, Some d)) /\
    least_weight (user_wrules nlab us) (aut_lang n A1) (aut_lang n A2) d /\ wtrace (user_wrules nlab us) tr d /\ aut_lang n A1 (hd (0, []) tr) /\ aut_lang n A2 (last tr (0, []))).
  { intros Eb. destruct o as [[p d]|]; [|exfalso; apply (Hb Eb); reflexivity].
    destruct (trace_spec P WP init fin PO LF NU NE J' AF p d Eo) as (tr & v & bd & T1 & T2 & T3 & T4 & T5).
    destruct HA as ((HA1 & HA2) & HA3 & _).
    assert (T6 : aut_lang n (wa_aut fin) (last tr (0, []))) by (rewrite T5; exact HA3).
    assert (v = d). { assert (d <= v)%Z; [|lia]. apply HA2. exists (hd (0, []) tr), (last tr (0, [])). ands; auto. apply wtrace_hd_last. auto. } subst v.
    exists tr, d, (S bd). split; [|split; [split|split; [|split; auto]]].
    - intros k2. destruct (T1 k2) as [[K1 K2]|K1]; [left; split; [auto|lia]|auto].
    - apply (run_weight_iff _ _ _ _ _ HB); auto.
    - intros v' Hv. apply HA2. apply (run_weight_iff _ _ _ _ _ HB); auto.
    - eapply wtrace_iff; [|exact T2]. intros; apply HB; auto. }
  split.
  - intros k1 k2. unfold verify_short. destruct (SA k1) as [K|K]; rewrite K; unfold done; cbn [obind]; auto. destruct b.
    + destruct (G eq_refl) as (tr & d & bd & T1 & T2 & T3 & T4 & T5). destruct (T1 k2) as [[K1 _]|K1]; rewrite K1; unfold done; cbn [obind]; auto.
      right. eexists. split; [reflexivity|]. left. exists d, tr. ands; auto.
    + right. eexists. split; [reflexivity|]. right. reflexivity.
  - exists fuel0. intros k1 K1. destruct b.
    + destruct (G eq_refl) as (tr & d & bd & T1 & _). exists bd. intros k2 K2. unfold verify_short. rewrite E by auto. unfold done. cbn [obind].
      destruct (T1 k2) as [[_ K]|K]; [lia|]. rewrite K. discriminate.
    + exists 0. intros k2 _. unfold verify_short. rewrite E by auto. discriminate.
Qed.
Print Assumptions C74_verify_partial.

(** From two texts to the output. A PDA state whose empty stack is in both sets is excluded (C30). *)
Theorem C74_program_partial : forall addr ord top ptop sl tab us s1 s2, (forall i j, addr i = addr j -> i = j) -> (forall q l, Permutation (ord q l) l) ->
  top_max Z zcomp top -> top_push Z top -> least_top ptop ->
  (forall n id, sl n = SFound id -> id < pd_n (build (List.length tab) us)) -> NoDup tab -> Forall (wf_urule (List.length tab)) us -> (forall u, In u us -> (0 <= r_w (u_rule u))%Z) ->
  ((forall k1 k2, run_query_short addr ord top ptop sl tab us s1 s2 k1 k2 = done WThrow) /\ forall lf q1 q2, gquery lf q1 s1 -> gquery lf q2 s2 -> ~ (states_ok sl q1 /\ states_ok sl q2)) \/
  exists tab1 tab2, (exists x, tab1 = tab ++ x) /\ (exists x, tab2 = tab1 ++ x) /\ NoDup tab2 /\ (exists lf q1 q2, numbering lf tab2 /\ gquery lf q1 s1 /\ gquery lf q2 s2) /\
  forall lf q1 q2, numbering lf tab2 -> gquery lf q1 s1 -> gquery lf q2 s2 -> states_ok sl q1 /\ states_ok sl q2 /\
    List.length tab1 = last (known (List.length tab) q1) 0 /\ List.length tab2 = last (known (List.length tab1) q2) 0 /\
    let L1 := q_configs (names_of sl) (List.length tab) q1 in let L2 := q_configs (names_of sl) (List.length tab1) q2 in
    ((forall a, In a (q1 ++ q2) -> rsafe (qa_re a) = true) -> (forall p, ~ (L1 (p, []) /\ L2 (p, []))) ->
     answers2 (fun k1 k2 => run_query_short addr ord top ptop sl tab us s1 s2 k1 k2) (short_output (user_wrules (List.length tab2) us) L1 L2)).
Proof.
  intros addr ord top ptop sl tab us s1 s2 Hi Ho TM TP PT Hs ND W NN. unfold run_query_short.
  assert (EN: forall n m, pd_n (build n us) = pd_n (build m us)). { intros n m. rewrite <- (with_nlab_build n m). reflexivity. }
  destruct (parse_query_spec addr Hi ord Ho _ sl Hs tab s1 ND) as [[E1 X]|[A1 [tab1 [E1 [[n1 X1] [ND1 [_ [O1 L1]]]]]]]].
  { left. rewrite E1. split; [reflexivity|]. intros lf q1 q2 G1 _ [G _]. eapply X; eauto. }
  assert (Hs1: forall n id, sl n = SFound id -> id < pd_n (build (List.length tab1) us)) by (intros n id H; apply Hs in H; rewrite (EN _ (List.length tab)); auto).
  destruct (parse_query_spec addr Hi ord Ho _ sl Hs1 tab1 s2 ND1) as [[E2 X]|[A2 [tab2 [E2 [[n2 X2] [ND2 [[lf0 [q20 [Y1 Y2]]] [O2 L2]]]]]]]].
  { left. rewrite E1. cbn [obind]. rewrite E2. split; [reflexivity|]. intros lf q1 q2 _ G2 [_ G]. eapply X; eauto. }
  right. exists tab1, tab2. split; [eauto|]. split; [eauto|]. split; [exact ND2|]. split.
  { assert (G: exists q1, gquery lf0 q1 s1).
    { unfold parse_query in E1. destruct (p_query s1) as [rest acts| |] eqn:Ep; try discriminate. destruct (p_query_sound lf0 s1 rest acts Ep) as [q1 [G _]]. eauto. }
    destruct G as [q1 G]. exists lf0, q1, q20. auto. }
  clear lf0 q20 Y1 Y2. intros lf q1 q2 Hn H1 H2.
  assert (Hn1: numbering lf tab1) by (subst tab2; eapply numbering_prefix; eauto).
  destruct (L1 lf q1 Hn1 H1) as [S1 [T1 [_ K1]]]. destruct (L2 lf q2 Hn H2) as [S2 [T2 [_ K2]]]. do 4 (split; [assumption|]). set (M1 := q_configs _ _ q1). set (M2 := q_configs _ _ q2). intros SF NB.
  set (PD := build (List.length tab2) us).
  assert (K1' := K1 (fun a Ha => SF a (in_or_app _ _ _ (or_introl Ha)))). assert (K2' := K2 (fun a Ha => SF a (in_or_app _ _ _ (or_intror Ha)))).
  rewrite (EN _ (List.length tab2)) in K1'. rewrite (EN _ (List.length tab2)) in K2'. fold PD in K1', K2'.
  rewrite with_nlab_build in O1, O2. fold PD in O2.
  assert (LE: List.length tab <= List.length tab2) by (rewrite X2, X1, !app_length; lia). assert (LE1: List.length tab1 <= List.length tab2) by (rewrite X2, app_length; lia).
  assert (O1': post_ok PD A1). { apply (post_ok_nlab PD (List.length tab1)). { unfold PD. rewrite <- (with_nlab_build 0 (List.length tab2)). exact LE1. } unfold PD. rewrite with_nlab_build. exact O1. }
  assert (W2: Forall (wf_urule (List.length tab2)) us).
  { eapply Forall_impl; [|exact W]. intros u [W1 [W3 W4]]. unfold wf_urule. ands; auto; [intros l Hl; specialize (W3 l Hl); lia|intros Hl; specialize (W4 Hl); lia]. }
  apply post_ok_pre_ok in O1', O2. destruct O1' as [P1 I1], O2 as [P2 I2].
  assert (NI: exists J, new_sinst PD ord (mk_waut A1 []) (mk_waut A2 []) = Some J).
  { unfold new_sinst, pr_new. cbn [wa_aut]. rewrite (proj2 (Nat.leb_le _ _) (po_n _ _ P1)), (proj2 (Nat.leb_le _ _) (po_n _ _ P2)). cbn. eauto. }
  destruct NI as [J HJ].
  assert (U1 := parse_query_untraced _ _ _ _ _ _ _ _ E1).
  assert (NA: forall p, p < pd_n PD -> aut_final A1 p -> aut_final A2 p -> False).
  { intros p Hp F1 F2. apply (NB p). split; [apply K1'|apply K2']; (split; [exact Hp|]); exists p; (split; [constructor|assumption]). }
  destruct (C74_verify_partial (List.length tab2) us top ptop ord A1 A2 J W2 NN TM TP PT Ho P1 I1 U1 P2 I2 NA HJ) as [V1 V2].
  assert (EQ: forall k1 k2, run_query_short addr ord top ptop sl tab us s1 s2 k1 k2 = verify_short PD top ptop k1 k2 J).
  { intros k1 k2. unfold run_query_short. rewrite E1. cbn [obind]. rewrite E2. cbn [obind]. fold PD. rewrite HJ. reflexivity. }
  assert (RW: forall d, run_weight (user_wrules (List.length tab2) us) (aut_lang (pd_n PD) A1) (aut_lang (pd_n PD) A2) d <-> run_weight (user_wrules (List.length tab2) us) M1 M2 d).
  { intros d. unfold run_weight. split; intros [c1 [c2 [Q1 [Q2 Q3]]]]; exists c1, c2; ands; auto; try (apply K1' || apply K2'); auto. }
  unfold run_query_short in EQ. split.
  - intros k1 k2. rewrite EQ. destruct (V1 k1 k2) as [Z|[r [Z [[d [tr [Z1 [[Z2 Z2'] [Z3 [Z4 Z5]]]]]]|Z1]]]]; [left; exact Z| |]; right; exists r; (split; [exact Z|]).
    + left. exists d, tr. ands; auto; [|apply K1'; auto|apply K2'; auto]. split; [apply RW; auto|]. intros v' Hv. apply Z2', RW; auto.
    + right. exact Z1.
  - destruct V2 as [b1 V2]. exists b1. intros k1 K. destruct (V2 k1 K) as [b2 V3]. exists b2. intros k2 K2''. rewrite EQ. apply V3; auto.
Qed.
Print Assumptions C74_program_partial.

(** The PDA of C30 with names: p pushes C on A for nothing and C on B for 10, q replaces C by D for 5 and goes to r. *)
Definition vs_names : list (list ascii) := [txt "p"; txt "q"; txt "r"].
Definition vs_tab : list (list ascii) := [txt "A"; txt "B"; txt "C"; txt "D"].
Definition vs_run (us : list urule) (s1 s2 : string) : option (option wvres) :=
  run_query_short ex_addr ex_ord first_least (fun _ => first_least) (sl_names vs_names) vs_tab us (txt s1) (txt s2) 100 100.
Example C74_runs :
  vs_run c30_rules "<p, [A] | [B]>" "<r, [D] [A]>" = done (WOut "post*" (Some 5%Z) true [(0, [0]); (1, [2; 0]); (2, [3; 0])]) /\
  vs_run c30_rules "<p, [A] | [B]>" "<r, [D] [B]>" = done (WOut "post*" None false []) /\
  vs_run c30_rules "<p, [A]>" "<r, [D] [B]>" = done (WOut "post*" None false []) /\
  vs_run c62_rules "<p, [A] [B]>" "<r, [B]>" = done (WOut "post*" (Some 6%Z) true [(0, [0; 1]); (1, [2; 0; 1]); (1, [0; 1]); (2, [1])]) /\
  vs_run c30_rules "<s, [A]>" "<r, [D] [B]>" = done WThrow.
Proof. ands; vm_compute; reflexivity. Qed.

(** The hypotheses of the theorem hold for these texts, for every fuel. *)
Lemma vs_hyps : (forall n id, sl_names vs_names n = SFound id -> id < pd_n (build (List.length vs_tab) c30_rules)) /\ NoDup vs_tab /\ Forall (wf_urule (List.length vs_tab)) c30_rules /\
  (forall u, In u c30_rules -> (0 <= r_w (u_rule u))%Z).
Proof.
  ands; [|repeat constructor; cbn; intuition discriminate|apply wf_urulesb_ok; reflexivity|].
  - intros n id H. unfold sl_names in H. destruct (Nat.ltb (tab_id vs_names n) (List.length vs_names)) eqn:E; [|discriminate]. injection H as <-. apply Nat.ltb_lt in E. exact E.
  - intros u Hu. cbn in Hu. destruct Hu as [<-|[<-|[<-|[]]]]; cbn; lia.
Qed.

(** The missing part is false: for the query from <p, [A]|[B]> to <r, [D][B]> the program answers "false" with no weight, although a run of weight 15 exists
    and all hypotheses of C74_program_partial hold. *)
Theorem C74_verdict_refuted : exists sl tab us s1 s2 lf q1 q2,
  (forall n id, sl n = SFound id -> id < pd_n (build (List.length tab) us)) /\ NoDup tab /\ Forall (wf_urule (List.length tab)) us /\ (forall u, In u us -> (0 <= r_w (u_rule u))%Z) /\
  numbering lf tab /\ gquery lf q1 s1 /\ gquery lf q2 s2 /\ states_ok sl q1 /\ states_ok sl q2 /\
  List.length tab = last (known (List.length tab) q1) 0 /\ List.length tab = last (known (List.length tab) q2) 0 /\
  (forall a, In a (q1 ++ q2) -> rsafe (qa_re a) = true) /\
  let L1 := q_configs (names_of sl) (List.length tab) q1 in let L2 := q_configs (names_of sl) (List.length tab) q2 in
  (forall p, ~ (L1 (p, []) /\ L2 (p, []))) /\ run_weight (user_wrules (List.length tab) us) L1 L2 15%Z /\
  exists k, forall k1 k2, k <= k1 -> run_query_short ex_addr ex_ord first_least (fun _ => first_least) sl tab us s1 s2 k1 k2 = done (WOut "post*" None false []).
Proof.
  exists (sl_names vs_names), vs_tab, c30_rules, (txt "<p,[A]|[B]>"), (txt "<r,[D][B]>"), (tab_id vs_tab),
    [mk_qatom [mk_sref false (txt "p")] (RAlt (RSet false [0]) (RSet false [1]))], [mk_qatom [mk_sref false (txt "r")] (RCat (RSet false [3]) (RSet false [1]))].
  destruct vs_hyps as (H1 & H2 & H3 & H4). do 4 (split; [assumption|]).
  assert (GV: forall s i, is_label s -> tab_id vs_tab s = i -> gunary (tab_id vs_tab) (RSet false [i]) ("["%char :: s ++ ["]"%char])).
  { intros s i Hs <-. apply gu_value, gv_set, gl_one, Hs. }
  assert (LB: forall c, ident_char c -> is_label [c]) by (intros c Hc; split; [discriminate|constructor; auto]).
  split; [apply tab_id_numbering; auto|]. split.
  { change (txt "<p,[A]|[B]>") with ([] ++ ("<"%char :: [] ++ txt "p" ++ [] ++ ","%char :: ([] ++ (("["%char :: txt "A" ++ ["]"%char]) ++ [] ++ "|"%char :: [] ++ ("["%char :: txt "B" ++ ["]"%char])) ++ []) ++ [">"%char]) ++ []).
    constructor; [apply ign_nil| |apply ie_ign, ign_nil]. apply gas_one. constructor; [apply ign_nil| |apply ign_nil|].
    - apply gi_one, gst_ident. split; [repeat constructor; unfold ident_char; cbn; lia|unfold digit_char; cbn; lia].
    - apply gb_expr; [apply ign_nil| |apply ign_nil]. apply ge_or; [apply gs_one, GV|apply ign_nil|apply ign_nil|apply ge_one, gs_one, GV]; try reflexivity; apply LB; unfold ident_char; cbn; lia. }
  split.
  { change (txt "<r,[D][B]>") with ([] ++ ("<"%char :: [] ++ txt "r" ++ [] ++ ","%char :: ([] ++ (("["%char :: txt "D" ++ ["]"%char]) ++ [] ++ ("["%char :: txt "B" ++ ["]"%char])) ++ []) ++ [">"%char]) ++ []).
    constructor; [apply ign_nil| |apply ie_ign, ign_nil]. apply gas_one. constructor; [apply ign_nil| |apply ign_nil|].
    - apply gi_one, gst_ident. split; [repeat constructor; unfold ident_char; cbn; lia|unfold digit_char; cbn; lia].
    - apply gb_expr; [apply ign_nil| |apply ign_nil]. apply ge_one, gs_cat; [apply GV|apply ign_nil|apply gs_one, GV]; try reflexivity; apply LB; unfold ident_char; cbn; lia. }
  split. { intros a r [<-|[]] [<-|[]]. left. eexists. vm_compute. reflexivity. }
  split. { intros a r [<-|[]] [<-|[]]. left. eexists. vm_compute. reflexivity. }
  split; [reflexivity|]. split; [reflexivity|]. split; [intros a [<-|[<-|[]]]; reflexivity|]. cbv zeta. split; [|split].
  - intros p [(i & a & m & Ea & _ & _ & M & _) _]. destruct i as [|[|i]]; cbn in Ea; try discriminate. injection Ea as <-. cbn in M. inversion M; subst; match goal with H : rmatch _ [] |- _ => inversion H end.
  - exists (0, [1]), (2, [3; 1]). split; [|split].
    + exists 0. eexists. exists 4. ands; [reflexivity|reflexivity| | |repeat constructor; lia].
      * eexists. split; [left; reflexivity|reflexivity].
      * apply rm_alt2, rm_set. cbn; auto.
    + exists 0. eexists. exists 4. ands; [reflexivity|reflexivity| | |repeat constructor; lia].
      * eexists. split; [left; reflexivity|reflexivity].
      * apply (rm_cat _ _ [3] [1]); apply rm_set; cbn; auto.
    + change 15%Z with (10 + (5 + 0))%Z. eapply wr_step with (r := mk_srule 0 1 1 (SPush 2)) (c2 := (1, [2; 1])).
      * exists (mk_urule 0 (mk_rule 1 PUSH 2 10%Z) false [1]). cbn. ands; auto.
      * apply (step_by_intro (mk_srule 0 1 1 (SPush 2)) []).
      * eapply wr_step with (r := mk_srule 1 2 2 (SSwap 3)) (c2 := (2, [3; 1])); [|apply (step_by_intro (mk_srule 1 2 2 (SSwap 3)) [1])|apply wr_refl].
        exists (mk_urule 1 (mk_rule 2 SWAP 3 5%Z) false [2]). cbn. ands; auto.
  - exists 20. intros k1 k2 K. do 20 (destruct k1 as [|k1]; [lia|]). clear K. vm_compute. reflexivity.
Qed.
Print Assumptions C74_verdict_refuted.
