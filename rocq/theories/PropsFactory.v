(** C63: a solver instance made by DFS_PDAFactory answers questions about the pushdown system that the derived class describes. *)
From Coq Require Import List Arith Lia Bool ZArith Sorted Permutation.
From Verif Require Import Base BaseFacts Spec SpecFacts PdaModel PdaProof AutModel AutProof RegexSpec NfaModel NfaProof RegexProof ConstructProof PropsNfa PreStarLang PostStarLang QueryProof MappingProof RefineModel SolverModel VerdictModel SolverProof PropsSolver
  FactoryModel FactoryProof.
Import ListNotations.

(** The rule store with hash tables, converted, is the one with sorted vectors, whatever the order of the tables. *)
Theorem C63_hash_store : forall nlab us perm, Forall (wf_urule nlab) us -> (forall i l, Permutation (perm i l) l) ->
  convert perm (hbuild nlab us) = build nlab us.
Proof. exact convert_build. Qed.
Print Assumptions C63_hash_store.

(** Configurations with a control state satisfying [S], and a stack of known labels in the language of [N]. *)
Definition headers (S : nat -> Prop) (N : nfa) (nlab : nat) : config -> Prop :=
  fun c => S (fst c) /\ nfa_lang N (snd c) /\ Forall (fun x => x < nlab) (snd c).

(** Every engine answers whether an initial configuration reaches an accepting one. *)
Definition reach_answers (P : pda) (I : inst) (Q : Prop) : Prop :=
  answers (fun fuel => post_star_accepts P fuel I) (fun v => fst v = true <-> Q) /\
  answers (fun fuel => post_star_accepts_no_ET P fuel I) (fun v => fst v = true <-> Q).
Definition reach_answers_pre (P : pda) (I : inst) (Q : Prop) : Prop :=
  answers (fun fuel => pre_star_accepts P fuel I) (fun v => fst v = true <-> Q) /\
  answers (fun fuel => dual_search_accepts P fuel I) (fun v => fst v = true <-> Q).

(** What the derived class must guarantee: finitely many reachable states ([U]), rules of the state asked for, with known labels; strictly increasing
    initial states, none of them larger than every state that occurs in a rule of a reachable state. *)
Record factory_ok (F : factory) (nlab : nat) (U : list nat) : Prop := {
  fo_fin : forall q, freach F q -> In q U;
  fo_rules : forall q r, freach F q -> In r (fa_rules F q) -> wf_frule F nlab q r;
  fo_init : ssorted (fa_init F);
  fo_init_lt : forall q, In q (fa_init F) -> exists p r, freach F p /\ In r (fa_rules F p) /\ (q <= p \/ q <= f_to r) }.

Theorem C63_factory : forall F no_opl nlab U addr ord perm N1 N2, factory_ok F nlab U ->
  (forall i j, addr i = addr j -> i = j) -> (forall q l, Permutation (ord q l) l) -> (forall i l, Permutation (perm i l) l) ->
  nfa_wf N1 -> nfa_syms_lt N1 nlab -> nfa_wf N2 -> nfa_syms_lt N2 nlab ->
  exists N1' N2', nfa_compile addr N1 = Some N1' /\ nfa_compile addr N2 = Some N2' /\
    answers (fun fuel => f_compile F no_opl addr ord perm nlab fuel N1' N2') (fun PI =>
      reach_answers (fst PI) (snd PI) (can_reach (factory_pds F nlab) (headers (fun q => In q (fa_init F)) N1 nlab) (headers (fun q => fa_acc F q = true) N2 nlab)) /\
      ((forall q r, freach F q -> In r (fa_rules F q) -> f_op r = PUSH -> f_opl r = 0 -> (0 <= f_w r)%Z) ->
       reach_answers_pre (fst PI) (snd PI) (can_reach (factory_pds F nlab) (headers (fun q => In q (fa_init F)) N1 nlab) (headers (fun q => fa_acc F q = true) N2 nlab)))).
Proof.
  intros F no_opl nlab U addr ord perm N1 N2 [FIN WF SI LI] Hi Ho Hp W1 S1 W2 S2.
  destruct (nfa_compile_spec addr N1 Hi W1) as [N1' [E1 [V1 [C1 [HE1 HL1]]]]]. destruct (nfa_compile_spec addr N2 Hi W2) as [N2' [E2 [V2 [C2 [HE2 HL2]]]]].
  exists N1', N2'. ands; auto.
  assert (ND: NoDup (fa_init F)). { clear -SI. induction SI as [|x l H IH Hx]; constructor; auto. intros Hi. rewrite Forall_forall in Hx. apply Hx in Hi. lia. }
  destruct (f_build_spec F no_opl nlab U FIN WF ND) as [B1 B2].
  assert (K: forall r, (exists D, NoDup D /\ (forall q, In q D <-> freach F q) /\ fst r = hbuild nlab (calls F no_opl D) /\ snd r = sort_nat (filter (fa_acc F) D)) ->
    exists I, new_inst_nfa addr ord (convert perm (fst r)) N1' (fa_init F) N2' (snd r) = Some I /\
      reach_answers (convert perm (fst r)) I (can_reach (factory_pds F nlab) (headers (fun q => In q (fa_init F)) N1 nlab) (headers (fun q => fa_acc F q = true) N2 nlab)) /\
      ((forall q r, freach F q -> In r (fa_rules F q) -> f_op r = PUSH -> f_opl r = 0 -> (0 <= f_w r)%Z) ->
       reach_answers_pre (convert perm (fst r)) I (can_reach (factory_pds F nlab) (headers (fun q => In q (fa_init F)) N1 nlab) (headers (fun q => fa_acc F q = true) N2 nlab)))).
  { intros [H acc] (D & DN & HD & -> & ->). cbn [fst snd]. set (us := calls F no_opl D).
    assert (WU: Forall (wf_urule nlab) us) by (apply calls_wf; auto; intros q Hq; apply HD; auto).
    rewrite (convert_build nlab us perm WU Hp). set (P := build nlab us).
    assert (NL: pd_nlab P = nlab) by (apply (build_gen us (mk_pda [] nlab) (empty_wf nlab) WU)).
    assert (IN: forall p r, freach F p -> In r (fa_rules F p) -> p < pd_n P /\ f_to r < pd_n P).
    { intros p r Hf Hr. destruct (WF p r Hf Hr) as [K _]. destruct (build_states nlab us (f_urule F no_opl r)) as [L1 L2]; [apply calls_In; exists p, r; ands; auto; apply HD; auto|].
      cbn in L1, L2. rewrite K in L1. auto. }
    assert (LI': forall q, In q (fa_init F) -> q < pd_n P). { intros q Hq. destruct (LI q Hq) as (p & r & H1 & H2 & H3). destruct (IN p r H1 H2). lia. }
    assert (LD: forall q, In q D -> q < pd_n P). { intros q Hq. apply HD in Hq. destruct Hq as [q Hq|q r Hq Hr]; auto. apply (IN q r); auto. }
    assert (SF: ssorted (sort_nat (filter (fa_acc F) D))) by (apply sort_nat_ssorted, NoDup_filter; auto).
    assert (LF: forall q, In q (sort_nat (filter (fa_acc F) D)) -> q < pd_n P). { intros q Hq. apply sort_nat_In, filter_In in Hq. apply LD; tauto. }
    assert (S1': nfa_syms_lt N1' (pd_nlab P)). { rewrite NL. intros q e x [st [K1 K2]] Hx. rewrite HE1 in K1. apply (S1 q e x); auto. exists st; auto. }
    assert (S2': nfa_syms_lt N2' (pd_nlab P)). { rewrite NL. intros q e x [st [K1 K2]] Hx. rewrite HE2 in K1. apply (S2 q e x); auto. exists st; auto. }
    destruct (new_inst_nfa_spec addr P ord N1' N2' (fa_init F) (sort_nat (filter (fa_acc F) D))) as (A1 & A2 & I & EA1 & EA2 & EI & EN); auto.
    destruct (aut_of_nfa_lang addr P ord N1' (fa_init F)) as [A1' [EA1' [PO1 L1]]]; auto. assert (A1' = A1) by congruence. subst A1'.
    destruct (aut_of_nfa_lang addr P ord N2' (sort_nat (filter (fa_acc F) D))) as [A2' [EA2' [PO2 L2]]]; auto. assert (A2' = A2) by congruence. subst A2'.
    apply post_ok_pre_ok in PO1. destruct PO1 as [PO1 NI1]. apply post_ok_pre_ok in PO2. destruct PO2 as [PO2 NI2].
    assert (AW: forall A, pre_ok P A -> aut_wf A). { intros A PO. constructor; [apply PO|]. intros q l q' He. destruct (po_range _ _ PO q l q' He) as [? [? _]]. auto. }
    assert (RQ: can_reach (user_rules nlab us) (aut_lang (pd_n P) A1) (aut_lang (pd_n P) A2) <->
      can_reach (factory_pds F nlab) (headers (fun q => In q (fa_init F)) N1 nlab) (headers (fun q => fa_acc F q = true) N2 nlab)).
    { unfold can_reach, headers. split.
      - intros ([q1 w1] & [q2 w2] & H1 & H2 & H3). apply L1 in H1. apply L2 in H2. rewrite HL1 in H1. rewrite HL2 in H2. rewrite NL in *. destruct H2 as [H2 H2']. apply sort_nat_In, filter_In in H2.
        exists (q1, w1), (q2, w2). cbn [fst snd]. ands; auto; try tauto. apply (calls_reach F no_opl nlab WF D HD); auto. cbn. apply HD, fr_init. tauto.
      - intros ([q1 w1] & [q2 w2] & H1 & H2 & H3). cbn [fst snd] in *. assert (D1: In q1 D) by (apply HD, fr_init; tauto).
        destruct (calls_reach F no_opl nlab WF D HD (q1, w1) (q2, w2)) as [R1 R2]; auto. exists (q1, w1), (q2, w2). ands; auto.
        + apply L1. rewrite HL1, NL. auto.
        + apply L2. rewrite HL2, NL. split; [|tauto]. apply sort_nat_In, filter_In. split; [|tauto]. apply (R2 H3).
        + apply R1. auto. }
    exists I. split; auto. unfold reach_answers, reach_answers_pre.
    assert (AI: forall (f : nat -> option (option (bool * inst))), answers f (fun r => fst r = true <-> can_reach (user_rules nlab us) (aut_lang (pd_n P) A1) (aut_lang (pd_n P) A2)) ->
      answers f (fun r => fst r = true <-> can_reach (factory_pds F nlab) (headers (fun q => In q (fa_init F)) N1 nlab) (headers (fun q => fa_acc F q = true) N2 nlab))).
    { intros f [H1 H2]. split; auto. intros fuel. destruct (H1 fuel) as [K1|[r [K1 K2]]]; auto. right. exists r. split; auto. rewrite K2. exact RQ. }
    split; [split; apply AI|intros LS; split; apply AI].
    - apply (C09_post_star_verdict nlab us ord A1 A2 I); auto; apply PO2.
    - apply (C09_post_star_no_ET_verdict nlab us ord A1 A2 I); auto; apply PO2.
    - apply (C08_pre_star_verdict nlab us ord A1 A2 I); auto; try apply PO1. intros u Hu. apply calls_In in Hu. destruct Hu as (q & r & H1 & H2 & ->). cbn. intros EO. rewrite EO. apply (LS q); auto. apply HD; auto.
    - apply (C10_dual_search_verdict nlab us ord A1 A2 I); auto. intros u Hu. apply calls_In in Hu. destruct Hu as (q & r & H1 & H2 & ->). cbn. intros EO. rewrite EO. apply (LS q); auto. apply HD; auto. }
  split.
  - intros fuel. unfold f_compile. destruct (B1 fuel) as [EB|[r [EB HB]]]; rewrite EB; auto. right. destruct (K r HB) as (I & EI & KI). destruct r as [H acc]. cbn [fst snd] in *. unfold done. rewrite EI. cbn [obind].
    exists (convert perm H, I). split; auto.
  - destruct B2 as [m B2]. exists m. intros fuel Hm. unfold f_compile. destruct (B1 fuel) as [EB|[r [EB HB]]]; [destruct (B2 fuel Hm EB)|]. rewrite EB. destruct (K r HB) as (I & EI & KI). destruct r as [H acc]. cbn [fst snd] in *. unfold done. rewrite EI. cbn [obind]. discriminate.
Qed.
Print Assumptions C63_factory.

(** ** Cases *)
(** Initial states 0 and 2; states below 6 push label 1 (wildcard, label 9 stands for every label) and go two states up, or pop label 0 and go one up. *)
Definition ex_factory : factory := mk_factory [0; 2] (fun q => Nat.eqb (q mod 3) 1)
  (fun q => if Nat.ltb q 6 then [mk_frule q 9 (q + 2) PUSH 1 1%Z; mk_frule q 0 (q + 1) POP 0 0%Z] else [mk_frule q 1 q POP 0 0%Z]) 9.
(** The verdicts of post*, pre* and the dual search on the instance made from the two expressions, with the number of PDA states. *)
Definition ex_verdicts (F : factory) (nlab : nat) (r1 r2 : regex) : option (nat * list (option (option bool))) :=
  match nfa_compile ex_addr (nfa_of r1), nfa_compile ex_addr (nfa_of r2) with
  | Some N1, Some N2 =>
      match f_compile F 99 ex_addr ex_ord (fun _ l => rev l) nlab 50 N1 N2 with
      | Some (Some (P, J)) => Some (pd_n P, [verdict (post_star_accepts P 100 J); verdict (pre_star_accepts P 100 J); verdict (dual_search_accepts P 100 J)])
      | _ => None
      end
  | _, _ => None
  end.

Lemma ex_factory_ok : factory_ok ex_factory 2 [0; 1; 2; 3; 4; 5; 6; 7].
Proof.
  assert (FIN: forall q, freach ex_factory q -> q < 8).
  { intros q H. induction H as [q H|q r H IH Hr]; [cbn in H; lia|]. cbn in Hr. destruct (Nat.ltb_spec q 6); cbn in Hr; destruct Hr as [<-|Hr]; cbn; try lia; try destruct Hr as [<-|[]]; cbn; lia. }
  constructor.
  - intros q H. apply FIN in H. cbn. lia.
  - intros q r H Hr. cbn in Hr. unfold wf_frule. destruct (Nat.ltb_spec q 6); cbn in Hr; intuition subst; cbn in *; auto; try discriminate; lia.
  - repeat constructor.
  - intros q Hq. exists 2, (mk_frule 2 9 4 PUSH 1 1%Z). split; [apply fr_init; cbn; auto|]. split; [left; reflexivity|]. cbn in Hq. lia.
Qed.
Example C63_case : ex_verdicts ex_factory 2 (RSet false [0]) (RSet false [1]) = Some (8, [Some (Some false); Some (Some false); Some (Some false)]) /\
  ex_verdicts ex_factory 2 (RSet false [0]) (RCat (RSet false [1]) (RSet false [0])) = Some (8, [Some (Some true); Some (Some true); Some (Some true)]) /\
  ex_verdicts ex_factory 2 (RSet false [0]) REps = Some (8, [Some (Some true); Some (Some true); Some (Some true)]).
Proof. vm_compute. auto. Qed.

(** ** The conditions on the initial states are needed *)
Definition one_label : nfa := nfa_of (RSet false [0]).
Lemma one_label_lang : forall w, nfa_lang one_label w <-> w = [0].
Proof.
  intros w. unfold one_label. rewrite nfa_of_lang; [|reflexivity|cbn; intuition discriminate]. split.
  - intros H. inversion H as [|neg ls x K| | | | | | | | | ]; subst. cbn in K. destruct K as [<-|[]]. auto.
  - intros ->. apply rm_set. cbn. auto.
Qed.
Definition two_labels : nfa := nfa_of (RCat (RSet false [0]) (RSet false [0])).
Lemma two_labels_lang : forall w, nfa_lang two_labels w <-> w = [0; 0].
Proof.
  intros w. unfold two_labels. rewrite nfa_of_lang; [|reflexivity|cbn; intuition discriminate]. split.
  - intros H. inversion H as [ | |a b w1 w2 K1 K2| | | | | | | | ]; subst. inversion K1 as [|neg ls x K| | | | | | | | | ]; subst. inversion K2 as [|neg ls y K'| | | | | | | | | ]; subst.
    cbn in K, K'. destruct K as [<-|[]]. destruct K' as [<-|[]]. auto.
  - intros ->. change [0; 0] with ([0] ++ [0]). apply rm_cat; apply rm_set; cbn; auto.
Qed.

(** State 0 has one rule, which does nothing; 1 has none. *)
Definition idle_factory (init : list nat) : factory := mk_factory init (fun q => Nat.eqb q 0) (fun q => if Nat.eqb q 0 then [mk_frule 0 0 0 NOOP 0 0%Z] else []) 9.
Lemma idle_reach : forall init c c', reach (factory_pds (idle_factory init) 1) c c' -> snd c' = snd c.
Proof.
  intros init c c' H. induction H as [|c1 c2 c3 [r [Hr Hs]] H IH]; auto. rewrite IH. inversion Hs; subst. cbn [snd].
  destruct Hr as (f & H1 & H2 & H3 & _). cbn in H1. destruct (Nat.eqb (s_from r) 0); [destruct H1 as [<-|[]]|destruct H1]. cbn in H3. rewrite H3. auto.
Qed.

(** An initial state without rules that is larger than all states with rules is not a state of the PDA. The automaton then mistakes it for a state of the
    NFA: with initial states 0 and 1 the stack [0 0] is accepted although the expression only has the word [0], and the verdict is wrong. A still
    larger state is outside the automaton. *)
Theorem C63_ruleless_initial_refuted :
  (exists F nlab U N1 N2 P J, (forall q, freach F q -> In q U) /\ (forall q r, freach F q -> In r (fa_rules F q) -> wf_frule F nlab q r) /\ ssorted (fa_init F) /\
    nfa_compile ex_addr one_label = Some N1 /\ nfa_compile ex_addr two_labels = Some N2 /\ f_compile F 99 ex_addr ex_ord (fun _ l => l) nlab 50 N1 N2 = done (P, J) /\
    verdict (post_star_accepts P 100 J) = Some (Some true) /\ verdict (pre_star_accepts P 100 J) = Some (Some true) /\
    ~ can_reach (factory_pds F nlab) (headers (fun q => In q (fa_init F)) one_label nlab) (headers (fun q => fa_acc F q = true) two_labels nlab)) /\
  (exists F nlab U N1 N2, (forall q, freach F q -> In q U) /\ (forall q r, freach F q -> In r (fa_rules F q) -> wf_frule F nlab q r) /\ ssorted (fa_init F) /\
    nfa_compile ex_addr one_label = Some N1 /\ nfa_compile ex_addr two_labels = Some N2 /\ f_compile F 99 ex_addr ex_ord (fun _ l => l) nlab 50 N1 N2 = None).
Proof.
  assert (FI: forall init q, freach (idle_factory init) q -> In q (0 :: init)).
  { intros init q H. induction H as [q H|q r H IH Hr]; [right; auto|]. cbn in Hr. destruct (Nat.eqb q 0); [destruct Hr as [<-|[]]|destruct Hr]. left; auto. }
  assert (FW: forall init q r, freach (idle_factory init) q -> In r (fa_rules (idle_factory init) q) -> wf_frule (idle_factory init) 1 q r).
  { intros init q r _ Hr. cbn in Hr. destruct (Nat.eqb_spec q 0); [destruct Hr as [<-|[]]|destruct Hr]. unfold wf_frule. cbn. intuition (auto; discriminate). }
  split.
  - exists (idle_factory [0; 1]), 1, (0 :: [0; 1]). do 4 eexists. ands; [apply FI|apply FW|repeat constructor|vm_compute; reflexivity|vm_compute; reflexivity|vm_compute; reflexivity|vm_compute; reflexivity|vm_compute; reflexivity|].
    intros (c1 & c2 & [_ [H1 _]] & [_ [H2 _]] & H3). apply idle_reach in H3. apply one_label_lang in H1. apply two_labels_lang in H2. congruence.
  - exists (idle_factory [0; 5]), 1, (0 :: [0; 5]). do 2 eexists. ands; [apply FI|apply FW|repeat constructor; auto with arith|vm_compute; reflexivity|vm_compute; reflexivity|vm_compute; reflexivity].
Qed.
Print Assumptions C63_ruleless_initial_refuted.

(** A state listed twice in initial() is searched twice and appears twice among the accepting states, of which the constructor of the automaton then only
    handles those up to the repetition: the answer is no although 0 with stack [0] reaches the accepting state 1 with the empty stack. *)
Definition pop_factory : factory := mk_factory [0; 0] (fun q => true) (fun q => if Nat.eqb q 0 then [mk_frule 0 0 1 POP 0 0%Z] else []) 9.
Theorem C63_duplicate_initial_refuted : exists N1 N2 P J, (forall q, freach pop_factory q -> In q [0; 1]) /\
  (forall q r, freach pop_factory q -> In r (fa_rules pop_factory q) -> wf_frule pop_factory 1 q r) /\ StronglySorted le (fa_init pop_factory) /\
  nfa_compile ex_addr one_label = Some N1 /\ nfa_compile ex_addr (nfa_of REps) = Some N2 /\ f_compile pop_factory 99 ex_addr ex_ord (fun _ l => l) 1 50 N1 N2 = done (P, J) /\
  verdict (post_star_accepts P 100 J) = Some (Some false) /\ verdict (pre_star_accepts P 100 J) = Some (Some false) /\
  can_reach (factory_pds pop_factory 1) (headers (fun q => In q (fa_init pop_factory)) one_label 1) (headers (fun q => fa_acc pop_factory q = true) (nfa_of REps) 1).
Proof.
  do 4 eexists. ands; [| |repeat constructor|vm_compute; reflexivity|vm_compute; reflexivity|vm_compute; reflexivity|vm_compute; reflexivity|vm_compute; reflexivity|].
  - intros q H. induction H as [q H|q r H IH Hr]; [cbn in H; cbn; tauto|]. cbn in Hr. destruct (Nat.eqb q 0); [destruct Hr as [<-|[]]|destruct Hr]. cbn. auto.
  - intros q r _ Hr. cbn in Hr. destruct (Nat.eqb_spec q 0); [destruct Hr as [<-|[]]|destruct Hr]. unfold wf_frule. cbn. intuition (auto; discriminate).
  - exists (0, [0]), (1, []). ands.
    + unfold headers. cbn. ands; auto. apply one_label_lang. auto.
    + unfold headers. cbn [fst snd]. ands; auto. apply nfa_of_lang; cbn; auto. constructor.
    + eapply reach_step; [|constructor]. exists (mk_srule 0 0 1 SPop). split.
      * exists (mk_frule 0 0 1 POP 0 0%Z). cbn. auto.
      * apply (step_by_intro (mk_srule 0 0 1 SPop) []).
Qed.
Print Assumptions C63_duplicate_initial_refuted.
