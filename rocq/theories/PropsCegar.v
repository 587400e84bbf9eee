(** C72: the refinement loop cegar_solve. *)
From Coq Require Import List Arith Lia Bool ZArith Sorted Permutation.
From Verif Require Import Base BaseFacts Spec SpecFacts PdaModel PdaProof AutModel AutProof NfaModel NfaProof ConstructProof PreStarLang PostStarLang QueryProof MappingProof TrieModel RefineModel RefineProof AbstractionModel AbstractionProof
  ProductModel SolverModel VerdictModel SolverProof PropsSolver PropsAbstraction PropsRefine PropsHeader FactoryModel FactoryProof CegarModel CegarProof.
Import ListNotations.

(** Configurations with a control state satisfying [S] and a stack of labels from [values] in the language of [N]. *)
Definition concrete_headers (S : nat -> Prop) (N : nfa) (values : list nat) : config -> Prop :=
  fun c => S (fst c) /\ nfa_lang N (snd c) /\ Forall (fun x => In x values) (snd c).
(** A negated set of [N] contains every label of a class or none. *)
Definition whole_classes (m : rmap) (N : nfa) : Prop :=
  forall q e x y a, nfa_edge N q e -> ne_neg e = true -> class m x a -> class m y a -> In x (ne_sym e) -> In y (ne_sym e).
Definition labels_in (N : nfa) (values : list nat) : Prop := forall q e x, nfa_edge N q e -> In x (ne_sym e) -> In x values.
(** The refinements of a result fit the mapping. *)
Definition fitting {T} (m : rmap) (x : cres T) : Prop :=
  match x with RTrace _ | RRule _ => True | RSplit _ r => fits m r | RHeader rs => fits_run m rs end.
(** A result splits a class of labels. *)
Definition splits {T} (x : cres T) : Prop :=
  match x with RTrace _ | RRule _ => False | RSplit _ r => 2 <= length (rf_parts r) | RHeader rs => exists r, In r rs /\ 2 <= length (rf_parts r) end.

Section Contract.
  Variables F T : Type.
  Variable C : cfactory F T.
  Variable rec : F -> rmap -> pda -> inst -> option (cres T).
  Variables use_pre use_dual : bool.
  Variables (addr : nat -> nat) (ord : nat -> list nat -> list nat) (perm : nat -> list (rule * labels) -> list (rule * labels)).
  Variable fu : pda -> inst -> nat.
  Variables N1 N2 : nfa.
  (** The concrete system: its rules, initial and final control states, and labels; which traces are acceptable answers. *)
  Variables (R : pds) (S1 S2 : nat -> Prop) (values : list nat) (valid : T -> Prop).
  (** An invariant of the factory and its mapping, and a measure. *)
  Variables (J : F -> rmap -> Prop) (mu : F -> nat).

  (** The contract of the derived class: rules with known labels and no weights, sorted lists of existing states; the abstract rules simulate
      the concrete ones, and the abstractions of initial (final) states are initial (accepting). *)
  Record factory_sound : Prop := {
    fs_wf : forall f m f' us, J f m -> cf_build C f m = (f', us) -> Forall (wf_urule (rm_size m)) us;
    fs_weight : forall f m f' us u, J f m -> cf_build C f m = (f', us) -> In u us -> r_w (u_rule u) = 0%Z;
    fs_init : forall f m f' us, J f m -> cf_build C f m = (f', us) -> StronglySorted lt (cf_init C f') /\ forall s, In s (cf_init C f') -> s < pd_n (build (rm_size m) us);
    fs_acc : forall f m f' us, J f m -> cf_build C f m = (f', us) -> StronglySorted lt (cf_acc C f') /\ forall s, In s (cf_acc C f') -> s < pd_n (build (rm_size m) us);
    fs_sim : forall f m f' us, J f m -> cf_build C f m = (f', us) -> exists ab,
      simulated m ab R (user_rules (rm_size m) us) /\ (forall s, S1 s -> In (ab s) (cf_init C f')) /\ (forall s, S2 s -> In (ab s) (cf_acc C f')) }.
  (** The contract of reconstruct_trace and refine: after a yes there is a result; a trace is valid; refinements fit and keep the invariant. *)
  Record reconstruct_sound : Prop := {
    rs_total : forall f m f' P I I', J f m -> cg_compile C addr ord perm N1 N2 f m = Some (f', P, I) -> cg_engine use_pre use_dual P (fu P I) I = done (true, I') ->
      exists x, rec f' m P I' = Some x /\ fitting m x /\ (forall t, x = RTrace t -> valid t) /\
        (forall m', (forall t, x <> RTrace t) -> cg_mapping m x = Some m' -> J (cf_refine C f' m' x) m') }.
  (** Progress: a result splits a class of labels, or the measure decreases. *)
  Definition reconstruct_progress : Prop :=
    forall f m f' P I I' x m', J f m -> cg_compile C addr ord perm N1 N2 f m = Some (f', P, I) -> cg_engine use_pre use_dual P (fu P I) I = done (true, I') ->
      rec f' m P I' = Some x -> (forall t, x <> RTrace t) -> cg_mapping m x = Some m' ->
      (splits x /\ mu (cf_refine C f' m' x) <= mu f) \/ mu (cf_refine C f' m' x) < mu f.
  (** Enough fuel for the saturations that end. *)
  Definition enough_fuel : Prop := forall f m f' P I, J f m -> cg_compile C addr ord perm N1 N2 f m = Some (f', P, I) -> cg_engine use_pre use_dual P (fu P I) I <> Some None.
  (** The answers of cegar_solve. *)
  Definition cegar_right (o : option T) : Prop :=
    match o with
    | Some t => valid t
    | None => ~ can_reach R (concrete_headers S1 N1 values) (concrete_headers S2 N2 values)
    end.
End Contract.

(** *** One round *)
Lemma no_merge : forall (m m' : rmap) x y a, (forall x y, rm_exists m x <> rm_exists m y -> rm_exists m' x <> rm_exists m' y) -> class m' x a -> class m' y a -> rm_exists m x = rm_exists m y.
Proof.
  intros m m' x y a H Hx Hy. assert (D: forall u v : option nat, {u = v} + {u <> v}) by (decide equality; apply Nat.eq_dec).
  destruct (D (rm_exists m x) (rm_exists m y)) as [|N]; auto. apply H in N. congruence.
Qed.
Definition mapping_ok (values : list nat) (N1 N2 : nfa) (m : rmap) : Prop :=
  RI m /\ is_partition m values /\ (forall a, a < rm_size m -> exists x, class m x a) /\ whole_classes m N1 /\ whole_classes m N2.

(** A round: the instance is made, every engine answers whether the abstract automata are connected by the abstract rules, and if not there
    is no concrete run. *)
Theorem C72_round : forall F T (C : cfactory F T) use_pre use_dual addr ord perm N1 N2 R S1 S2 values J f m,
  (forall i j, addr i = addr j -> i = j) -> (forall q l, Permutation (ord q l) l) -> (forall i l, Permutation (perm i l) l) ->
  nfa_wf N1 -> compiled addr N1 -> labels_in N1 values -> nfa_wf N2 -> compiled addr N2 -> labels_in N2 values ->
  factory_sound F T C R S1 S2 J -> J f m -> mapping_ok values N1 N2 m ->
  exists f' P I, cg_compile C addr ord perm N1 N2 f m = Some (f', P, I) /\
    answers (fun fuel => cg_engine use_pre use_dual P fuel I)
      (fun v => fst v = false -> ~ can_reach R (concrete_headers S1 N1 values) (concrete_headers S2 N2 values)).
Proof.
  intros F T C up ud addr ord perm N1 N2 R S1 S2 values J f m Hi Ho Hp W1 C1 V1 W2 C2 V2 FS HJ (RI' & PT & NE & WC1 & WC2).
  destruct (cf_build C f m) as [f' us] eqn:EB. pose proof (fs_wf _ _ _ _ _ _ _ FS f m f' us HJ EB) as WU. destruct (fs_init _ _ _ _ _ _ _ FS f m f' us HJ EB) as [SI LI].
  destruct (fs_acc _ _ _ _ _ _ _ FS f m f' us HJ EB) as [SA LA]. destruct (fs_sim _ _ _ _ _ _ _ FS f m f' us HJ EB) as (ab & SIM & B1 & B2).
  assert (LS: lookup_safe us). { intros u Hu _ _. rewrite (fs_weight _ _ _ _ _ _ _ FS f m f' us u HJ EB Hu). lia. }
  set (P := build (rm_size m) us). assert (NL: pd_nlab P = rm_size m) by (apply (build_gen us (mk_pda [] (rm_size m)) (empty_wf (rm_size m)) WU)).
  destruct PT as (P1 & P2 & P3).
  assert (KN: forall N, labels_in N values -> known m N). { intros N V q e x He Hx. apply P1. apply (V q e x); auto. }
  destruct (new_inst_abs_spec m addr P ord N1 N2 (cf_init C f') (cf_acc C f')) as (A1 & A2 & I & E1 & E2 & EI & EN); auto.
  exists f', P, I. split. { unfold cg_compile. rewrite EB, (convert_build _ _ _ WU Hp). fold P. rewrite EI. reflexivity. }
  destruct (abstraction_spec m addr P ord N1 (cf_init C f')) as (A1' & E1' & PO1 & _); auto. assert (A1' = A1) by congruence. subst A1'.
  destruct (abstraction_spec m addr P ord N2 (cf_acc C f')) as (A2' & E2' & PO2 & _); auto. assert (A2' = A2) by congruence. subst A2'.
  assert (AK1: forall q e, nfa_edge N1 q e -> all_known m (ne_sym e)) by (intros q e He x Hx; eapply (KN N1); eauto).
  destruct (C44_automaton_partial m addr P ord N1 (cf_init C f') Hi W1 C1 RI' NL Ho SI LI AK1 WC1) as (A1' & E1'' & L1). assert (A1' = A1) by congruence. subst A1'.
  assert (AK2: forall q e, nfa_edge N2 q e -> all_known m (ne_sym e)) by (intros q e He x Hx; eapply (KN N2); eauto).
  destruct (C44_automaton_partial m addr P ord N2 (cf_acc C f') Hi W2 C2 RI' NL Ho SA LA AK2 WC2) as (A2' & E2'' & L2). assert (A2' = A2) by congruence. subst A2'.
  apply post_ok_pre_ok in PO1. destruct PO1 as [PO1 NI1]. apply post_ok_pre_ok in PO2. destruct PO2 as [PO2 NI2].
  assert (AW: forall A, pre_ok P A -> aut_wf A). { intros A PO. constructor; [apply PO|]. intros q l q' He. destruct (po_range _ _ PO q l q' He) as [? [? _]]. auto. }
  assert (RQ: can_reach R (concrete_headers S1 N1 values) (concrete_headers S2 N2 values) -> can_reach (user_rules (rm_size m) us) (aut_lang (pd_n P) A1) (aut_lang (pd_n P) A2)).
  { intros ([q1 w1] & [q2 w2] & (H1 & H2 & H3) & (H4 & H5 & H6) & HR). cbn [fst snd] in *.
    assert (HW: exists aw, word_class m w1 aw).
    { clear -H3 P1. induction H3 as [|x w Hx H IH]; [exists []; constructor|]. destruct IH as [aw IH]. apply P1 in Hx. destruct Hx as [a Ha]. exists (a :: aw). constructor; auto. }
    destruct HW as [aw HW]. destruct (simulated_reach m ab R (user_rules (rm_size m) us) (q1, w1) (q2, w2) SIM HR aw HW) as (aw' & K1 & K2). cbn [fst snd] in *.
    exists (ab q1, aw), (ab q2, aw'). split; [apply (L1 (ab q1) w1 aw); auto|]. split; [apply (L2 (ab q2) w2 aw'); auto|]. exact K2. }
  assert (AI: forall (g : nat -> option (option (bool * inst))), answers g (fun r => fst r = true <-> can_reach (user_rules (rm_size m) us) (aut_lang (pd_n P) A1) (aut_lang (pd_n P) A2)) ->
      answers g (fun v => fst v = false -> ~ can_reach R (concrete_headers S1 N1 values) (concrete_headers S2 N2 values))).
  { intros g [H1 H2]. split; auto. intros fuel. destruct (H1 fuel) as [K1|[r [K1 K2]]]; auto. right. exists r. split; auto. intros Ef HR. apply RQ, K2 in HR. congruence. }
  unfold cg_engine. destruct up; [|destruct ud]; apply AI.
  - apply (C08_pre_star_verdict (rm_size m) us ord A1 A2 I); auto; apply PO1.
  - apply (C10_dual_search_verdict (rm_size m) us ord A1 A2 I); auto.
  - apply (C09_post_star_verdict (rm_size m) us ord A1 A2 I); auto; apply PO2.
Qed.
Print Assumptions C72_round.

(** The mapping after a result. *)
Lemma run_more : forall rs m values, RI m -> is_partition m values -> (forall a, a < rm_size m -> exists x, class m x a) -> fits_run m rs ->
  exists m', rm_run m rs = Some m' /\ rm_size m <= rm_size m' /\ ((exists r, In r rs /\ 2 <= length (rf_parts r)) -> rm_size m < rm_size m').
Proof.
  induction rs as [|r rs IH]; intros m values HR P D H.
  - exists m. split; auto. split; auto. intros (r & [] & _).
  - destruct H as [F1 F2]. destruct (C41_refine m values r HR P F1) as (m1 & E & R1 & P1 & Z & _ & _ & _ & _ & _ & D1).
    destruct (IH m1 values R1 P1 (D1 D) (F2 m1 E)) as (m' & E' & Z' & G'). exists m'. split; [unfold rm_run in *; cbn [ofold]; rewrite E; exact E'|]. split; [lia|].
    intros (r' & [->|Hr] & Hl).
    + destruct (C56_refine_grows m values r' HR P F1 Hl) as (m2 & E2 & G2). rewrite E in E2. injection E2 as <-. lia.
    + assert (rm_size m1 < rm_size m') by (apply G'; eauto). lia.
Qed.
Lemma mapping_step : forall T values N1 N2 m (x : cres T), mapping_ok values N1 N2 m -> fitting m x ->
  exists m', cg_mapping m x = Some m' /\ mapping_ok values N1 N2 m' /\ rm_size m <= rm_size m' /\ (splits x -> rm_size m < rm_size m').
Proof.
  intros T values N1 N2 m x MO HF. pose proof MO as (HR & P & D & WC1 & WC2).
  assert (G: forall rs, fits_run m rs -> exists m', rm_run m rs = Some m' /\ mapping_ok values N1 N2 m' /\ rm_size m <= rm_size m' /\ ((exists r, In r rs /\ 2 <= length (rf_parts r)) -> rm_size m < rm_size m')).
  { intros rs H. destruct (run_more rs m values HR P D H) as (m' & E & Z & G). destruct (run_spec rs m values HR P D H) as (m2 & E2 & R2 & P2 & M2 & D2). rewrite E in E2. injection E2 as <-.
    exists m'. split; auto. split; [|auto]. split; auto. split; auto. split; auto.
    assert (WC: forall N, whole_classes m N -> whole_classes m' N).
    { intros N WC q e u v a He Hn Hu Hv Hin. assert (exists b, class m u b) as [b Hb]. { apply P. apply P2. eauto. }
      apply (WC q e u v b); auto. rewrite <- Hb. symmetry. apply (no_merge m m' u v a); auto. }
    split; apply WC; auto. }
  destruct x as [t|s r|u|rs]; cbn [fitting cg_mapping splits] in *.
  - exists m. split; auto. split; auto. split; auto. tauto.
  - destruct (G [r]) as (m' & E & M' & Z & Gr); [split; auto; intros; exact I|]. exists m'. unfold rm_run in E. cbn [ofold] in E. destruct (rm_refine m r) as [m1|]; [|discriminate]. cbn [obind] in E. injection E as <-.
    split; auto. split; auto. split; auto. intros Hl. apply Gr. exists r. cbn. auto.
  - exists m. split; auto. split; auto. split; auto. tauto.
  - destruct (G rs HF) as (m' & E & M' & Z & Gr). exists m'. split; [exact E|]. auto.
Qed.

(** *** The loop *)
(** cegar_solve never fails; "no trace" is right, a trace is a valid one; with enough fuel it ends, and after at most as many rounds as the labels
    that the mapping does not yet separate and the measure allow. *)
Theorem C72_cegar : forall F T (C : cfactory F T) rec use_pre use_dual addr ord perm fu N1 N2 R S1 S2 values valid J mu,
  (forall i j, addr i = addr j -> i = j) -> (forall q l, Permutation (ord q l) l) -> (forall i l, Permutation (perm i l) l) ->
  nfa_wf N1 -> compiled addr N1 -> labels_in N1 values -> nfa_wf N2 -> compiled addr N2 -> labels_in N2 values ->
  factory_sound F T C R S1 S2 J -> reconstruct_sound F T C rec use_pre use_dual addr ord perm fu N1 N2 valid J ->
  forall rounds f m, J f m -> mapping_ok values N1 N2 m ->
    (cegar_solve C rec use_pre use_dual addr ord perm fu N1 N2 rounds f m = Some None \/
     exists o, cegar_solve C rec use_pre use_dual addr ord perm fu N1 N2 rounds f m = done o /\ cegar_right T N1 N2 R S1 S2 values valid o) /\
    (reconstruct_progress F T C rec use_pre use_dual addr ord perm fu N1 N2 J mu -> enough_fuel F T C use_pre use_dual addr ord perm fu N1 N2 J ->
     (length values - rm_size m) + mu f < rounds -> cegar_solve C rec use_pre use_dual addr ord perm fu N1 N2 rounds f m <> Some None).
Proof.
  intros F T C rec up ud addr ord perm fu N1 N2 R S1 S2 values valid J mu Hi Ho Hp W1 C1 V1 W2 C2 V2 FS RS.
  induction rounds as [|n IH]; intros f m HJ MO; [split; [left; reflexivity|lia]|].
  destruct (C72_round F T C up ud addr ord perm N1 N2 R S1 S2 values J f m) as (f' & P & I & EC & [A1 A2]); auto.
  cbn [cegar_solve]. rewrite EC. cbn [obind].
  destruct (A1 (fu P I)) as [EV|([b I'] & EV & HV)].
  { rewrite EV. cbn [obind]. split; [left; reflexivity|]. intros _ EF _. destruct (EF f m f' P I HJ EC EV). }
  rewrite EV. change (done (b, I')) with (Some (Some (b, I'))). cbn [obind]. cbn [fst] in HV. destruct b.
  - destruct (rs_total _ _ _ _ _ _ _ _ _ _ _ _ _ _ RS f m f' P I I' HJ EC EV) as (x & EX & FX & VX & JX). rewrite EX. cbn [obind].
    destruct (mapping_step T values N1 N2 m x MO FX) as (m' & EM & MO' & Z & G).
    assert (NT: (exists t, x = RTrace t) \/ forall t, x <> RTrace t) by (destruct x; [left; eauto|right; discriminate|right; discriminate|right; discriminate]).
    destruct NT as [[t ->]|NT]; [split; [right; exists (Some t); split; [reflexivity|]; apply VX; auto|intros ? ? ?; discriminate]|].
    specialize (JX m' NT EM). destruct (IH (cf_refine C f' m' x) m' JX MO') as [I1 I2].
    assert (ES: match x with RTrace t => done (Some t) | _ => m'0 <- cg_mapping m x ;; cegar_solve C rec up ud addr ord perm fu N1 N2 n (cf_refine C f' m'0 x) m'0 end =
      cegar_solve C rec up ud addr ord perm fu N1 N2 n (cf_refine C f' m' x) m').
    { rewrite EM. destruct x; [destruct (NT t); reflexivity| | |]; reflexivity. }
    rewrite ES. split; auto. intros PR EF HL. apply I2; auto.
    assert (Lm: rm_size m' <= length values) by (destruct MO' as (_ & Pm & Dm & _); apply (size_bound m'); auto).
    assert (Lm0: rm_size m <= length values) by (destruct MO as (_ & Pm & Dm & _); apply (size_bound m); auto).
    destruct (PR f m f' P I I' x m' HJ EC EV EX NT EM) as [[Hs Hm]|Hm]; [apply G in Hs|]; lia.
  - split; [|intros ? ? ?; discriminate]. right. exists None. split; [reflexivity|]. apply HV. reflexivity.
Qed.
Print Assumptions C72_cegar.

(** ** Cases *)
(** Labels 0-3 modulo 2. The system: in state 0, swap label 0 for 1 and go to 1, or swap 2 for 3 and go to 2. Is state 1 (2) with stack [1] ([3]) reached
    from state 0 with stack [2]? Both answers are yes for the first abstraction; the reconstruction then splits the class of 0 and 2. *)
Definition c72_m : rmap := mk_rmap [(0, 0); (1, 1); (2, 0); (3, 1)] [[0; 2]; [1; 3]].
Definition c72_m1 : rmap := mk_rmap [(0, 0); (1, 1); (2, 2); (3, 1)] [[0]; [1; 3]; [2]].
Definition c72_conc : list srule := [mk_srule 0 0 1 (SSwap 1); mk_srule 0 2 2 (SSwap 3)].
Definition c72_abs (m : rmap) (r : srule) : urule :=
  let ab x := match rm_exists m x with Some a => a | None => 0 end in
  mk_urule (s_from r) (mk_rule (s_to r) SWAP (ab (match s_op r with SSwap x => x | _ => 0 end)) 0%Z) false [ab (s_pre r)].
Definition c72_factory (fin : nat) : cfactory unit (list nat) := mk_cfactory (fun _ m => (tt, map (c72_abs m) c72_conc)) (fun _ => [0]) (fun _ => [fin]) (fun _ _ _ => tt).
Definition c72_rec (_ : unit) (m : rmap) (_ : pda) (_ : inst) : option (cres (list nat)) :=
  match rm_exists m 0, rm_exists m 2 with
  | Some a, Some b => Some (if Nat.eqb a b then RSplit (mk_ref [] 0) (mk_ref [[0]; [2]] a) else RTrace [0; 2])
  | _, _ => None
  end.
Definition c72_addr (i : nat) : nat := i.
Definition c72_perm (_ : nat) (l : list (rule * labels)) : list (rule * labels) := rev l.
Definition c72_fu (_ : pda) (_ : inst) : nat := 50.
Definition c72_pds : pds := fun r => In r c72_conc.
Definition c72_start : nfa := nfa_set false [2].
Definition c72_final (fin : nat) : nfa := nfa_set false [if Nat.eqb fin 1 then 1 else 3].
Definition c72_run (use_pre use_dual : bool) (fin rounds : nat) := cegar_solve (c72_factory fin) c72_rec use_pre use_dual c72_addr c44_ord c72_perm c72_fu c72_start (c72_final fin) rounds tt c72_m.
Definition c72_reach (fin : nat) : Prop := can_reach c72_pds (concrete_headers (fun s => s = 0) c72_start [0; 1; 2; 3]) (concrete_headers (fun s => s = fin) (c72_final fin) [0; 1; 2; 3]).
Definition c72_inv (_ : unit) (m : rmap) : Prop := m = c72_m \/ m = c72_m1.

Example C72_mapping : option_map am_rm (am_of (fun x => x mod 2) [0; 1; 2; 3]) = Some c72_m /\ rm_refine c72_m (mk_ref [[0]; [2]] 0) = Some c72_m1.
Proof. split; reflexivity. Qed.
Lemma compiled_set : forall neg ls, nfa_compile c72_addr (nfa_set neg ls) = Some (nfa_set neg ls) -> compiled c72_addr (nfa_set neg ls).
Proof.
  intros neg ls E. destruct (nfa_compile_spec c72_addr (nfa_set neg ls)) as (N' & E' & _ & H & _); [unfold c72_addr; auto|apply RegexProof.set_wf|]. rewrite E in E'. injection E' as <-. exact H.
Qed.
Lemma set_edges : forall neg x q e, nfa_edge (nfa_set neg [x]) q e -> e = mk_nedge false neg [x] 1.
Proof.
  intros neg x q e (st & H1 & H2). destruct q as [|[|q]]; cbn in H1; [injection H1 as <-; destruct H2 as [<-|[]]; auto|injection H1 as <-; destruct H2|destruct q; discriminate].
Qed.
Lemma set_labels_in : forall neg x values, In x values -> labels_in (nfa_set neg [x]) values.
Proof. intros neg x values H q e y He Hy. apply set_edges in He. subst e. destruct Hy as [<-|[]]; auto. Qed.
Lemma c72_RI : RI c72_m.
Proof.
  split.
  - cbn. repeat constructor; cbn; intuition discriminate.
  - intros [|[|a]] ks H; try (destruct a; discriminate); injection H as <-; (split; [repeat constructor; cbn; intuition discriminate|]);
      intros k; destruct k as [|[|[|[|k]]]]; cbn; intuition (try discriminate); destruct k; discriminate.
  - intros k a H. destruct k as [|[|[|[|k]]]]; cbn in H; try (injection H as <-; cbn; lia). destruct k; discriminate.
Qed.
Lemma c72_mapping_ok : forall fin, mapping_ok [0; 1; 2; 3] c72_start (c72_final fin) c72_m.
Proof.
  intros fin. split; [apply c72_RI|]. split; [apply RI_partition; [apply c72_RI|]; intros x; cbn; tauto|]. split.
  { intros [|[|a]] H; [exists 0; reflexivity|exists 1; reflexivity|cbn in H; lia]. }
  split; intros q e x y a He Hn; apply set_edges in He; subst e; discriminate.
Qed.
Lemma c72_factory_sound : forall fin, fin = 1 \/ fin = 2 -> factory_sound unit (list nat) (c72_factory fin) c72_pds (fun s => s = 0) (fun s => s = fin) c72_inv.
Proof.
  intros fin Hf. split.
  - intros f m f' us [->| ->] E; injection E as <- <-; apply ExHelp.wf_urulesb_ok; reflexivity.
  - intros f m f' us u [->| ->] E Hu; injection E as <- <-; cbn in Hu; destruct Hu as [<-|[<-|[]]]; reflexivity.
  - intros f m f' us [->| ->] E; injection E as <- <-; (split; [apply SSorted_cons; [apply SSorted_nil|apply Forall_nil]|]); intros s [<-|[]]; apply Nat.ltb_lt; reflexivity.
  - intros f m f' us [->| ->] E; injection E as <- <-; (split; [apply SSorted_cons; [apply SSorted_nil|apply Forall_nil]|]); intros s [<-|[]]; destruct Hf as [->| ->]; apply Nat.ltb_lt; reflexivity.
  - intros f m f' us J E. injection E as <- <-. exists (fun s => s). split; [|split; intros s ->; cbn; auto].
    intros r Hr a Ha. cbn in Hr. destruct J as [->| ->]; destruct Hr as [<-|[<-|[]]]; vm_compute in Ha; injection Ha as <-;
      (eexists; split; [apply oc_swap; reflexivity|]).
    + exists (c72_abs c72_m (mk_srule 0 0 1 (SSwap 1))). split; [left; reflexivity|]. vm_compute. auto 10.
    + exists (c72_abs c72_m (mk_srule 0 2 2 (SSwap 3))). split; [right; left; reflexivity|]. vm_compute. auto 10.
    + exists (c72_abs c72_m1 (mk_srule 0 0 1 (SSwap 1))). split; [left; reflexivity|]. vm_compute. auto 10.
    + exists (c72_abs c72_m1 (mk_srule 0 2 2 (SSwap 3))). split; [right; left; reflexivity|]. vm_compute. auto 10.
Qed.
Lemma c72_reconstruct_sound : forall use_pre use_dual fin, fin = 1 \/ fin = 2 ->
  reconstruct_sound unit (list nat) (c72_factory fin) c72_rec use_pre use_dual c72_addr c44_ord c72_perm c72_fu c72_start (c72_final fin) (fun t => t = [0; 2] /\ c72_reach fin) c72_inv.
Proof.
  intros up ud fin Hf. split. intros f m f' P J J' [->| ->] E V.
  - eexists. split; [reflexivity|]. split; [|split].
    + split; [repeat constructor; cbn; intuition discriminate|]. split; [cbn; intuition congruence|]. intros x Hx. cbn in Hx. destruct Hx as [<-|[<-|[]]]; reflexivity.
    + discriminate.
    + intros m' _ Em. right. vm_compute in Em. injection Em as <-. reflexivity.
  - eexists. split; [reflexivity|]. split; [exact I|]. split; [|intros m' K; destruct (K [0; 2]); reflexivity].
    intros t Et. injection Et as <-. split; auto. destruct Hf as [->| ->].
    + exfalso. vm_compute in E. injection E as <- <- <-. destruct up; [|destruct ud]; vm_compute in V; discriminate.
    + exists (0, [2]), (2, [3]). split; [|split].
      * split; [reflexivity|]. split; [apply RegexProof.set_lang; [right; discriminate|exists 2; cbn; auto]|]. apply Forall_cons; [cbn; auto 10|apply Forall_nil].
      * split; [reflexivity|]. split; [apply RegexProof.set_lang; [right; discriminate|exists 3; cbn; auto]|]. apply Forall_cons; [cbn; auto 10|apply Forall_nil].
      * apply reach_step with (2, [3]); [|constructor]. exists (mk_srule 0 2 2 (SSwap 3)). split; [right; left; reflexivity|]. apply (step_by_intro (mk_srule 0 2 2 (SSwap 3)) []).
Qed.
(** Both contracts and the progress hold here; the loop answers in two rounds, with every engine. *)
Example C72_case : forall use_pre use_dual,
  c72_run use_pre use_dual 1 1 = Some None /\ c72_run use_pre use_dual 1 2 = done None /\ c72_run use_pre use_dual 2 2 = done (Some [0; 2]) /\ ~ c72_reach 1 /\ c72_reach 2 /\
  (forall fin, fin = 1 \/ fin = 2 -> reconstruct_progress unit (list nat) (c72_factory fin) c72_rec use_pre use_dual c72_addr c44_ord c72_perm c72_fu c72_start (c72_final fin) c72_inv (fun _ => 0) /\
     enough_fuel unit (list nat) (c72_factory fin) use_pre use_dual c72_addr c44_ord c72_perm c72_fu c72_start (c72_final fin) c72_inv).
Proof.
  intros up ud. assert (E1: c72_run up ud 1 2 = done None) by (destruct up; [|destruct ud]; vm_compute; reflexivity).
  assert (E2: c72_run up ud 2 2 = done (Some [0; 2])) by (destruct up; [|destruct ud]; vm_compute; reflexivity).
  assert (G: forall fin o, fin = 1 \/ fin = 2 -> c72_run up ud fin 2 = done o -> cegar_right (list nat) c72_start (c72_final fin) c72_pds (fun s => s = 0) (fun s => s = fin) [0; 1; 2; 3] (fun t => t = [0; 2] /\ c72_reach fin) o).
  { intros fin o Hf E. destruct (C72_cegar unit (list nat) (c72_factory fin) c72_rec up ud c72_addr c44_ord c72_perm c72_fu c72_start (c72_final fin) c72_pds (fun s => s = 0) (fun s => s = fin) [0; 1; 2; 3]
      (fun t => t = [0; 2] /\ c72_reach fin) c72_inv (fun _ => 0)) with (rounds := 2) (f := tt) (m := c72_m) as [[H|(o' & H1 & H2)] _].
    - unfold c72_addr. auto.
    - intros q l. apply Permutation_refl.
    - intros i l. apply Permutation_sym, Permutation_rev.
    - apply RegexProof.set_wf.
    - apply compiled_set. reflexivity.
    - apply set_labels_in. cbn. auto.
    - apply RegexProof.set_wf.
    - apply compiled_set. destruct Hf as [->| ->]; reflexivity.
    - apply set_labels_in. destruct Hf as [->| ->]; cbn; auto.
    - apply c72_factory_sound; auto.
    - apply c72_reconstruct_sound; auto.
    - left. reflexivity.
    - apply c72_mapping_ok.
    - unfold c72_run in E. rewrite E in H. discriminate.
    - unfold c72_run in E. rewrite E in H1. injection H1 as <-. exact H2. }
  split; [destruct up; [|destruct ud]; vm_compute; reflexivity|]. split; auto. split; auto.
  split; [apply (G 1 None); auto|]. split; [apply (G 2 (Some [0; 2])); auto|].
  intros fin Hf. split.
  - intros f m f' P J J' x m' [->| ->] E V Ex NT Em; vm_compute in Ex; injection Ex as <-; [left; cbn; lia|]. destruct (NT [0; 2]). reflexivity.
  - intros f m f' P J [->| ->] E; destruct Hf as [->| ->]; vm_compute in E; injection E as <- <- <-; destruct up; try destruct ud; vm_compute; discriminate.
Qed.
(** *** What is false *)
(** A negated set that contains a part of a class: with the labels 1 and 2 in one class and initial stacks "any label but 1", cegar_solve answers that there
    is no trace to the stack 2, which is itself an initial stack. Everything else that C72_cegar asks for is met. *)
Definition c72_neg_factory : cfactory unit unit := mk_cfactory (fun _ _ => (tt, [mk_urule 0 (mk_rule 0 NOOP 0 0%Z) false [0]])) (fun _ => [0]) (fun _ => [0]) (fun _ _ _ => tt).
Theorem C72_negated_refuted : forall use_pre use_dual, exists F T (C : cfactory F T) rec addr ord perm fu N1 N2 R S1 S2 values valid J f m,
  ((forall i j, addr i = addr j -> i = j) /\ (forall q l, Permutation (ord q l) l) /\ (forall i l, Permutation (perm i l) l) /\
   nfa_wf N1 /\ compiled addr N1 /\ labels_in N1 values /\ nfa_wf N2 /\ compiled addr N2 /\ labels_in N2 values /\
   factory_sound F T C R S1 S2 J /\ reconstruct_sound F T C rec use_pre use_dual addr ord perm fu N1 N2 valid J /\ J f m /\
   RI m /\ is_partition m values /\ (forall a, a < rm_size m -> exists x, class m x a)) /\
  (forall rounds, 0 < rounds -> cegar_solve C rec use_pre use_dual addr ord perm fu N1 N2 rounds f m = done None) /\
  can_reach R (concrete_headers S1 N1 values) (concrete_headers S2 N2 values).
Proof.
  intros up ud. exists unit, unit, c72_neg_factory, (fun _ _ _ _ => None), c72_addr, c44_ord, c72_perm, c72_fu, (nfa_set true [1]), (nfa_set false [2]), (fun _ => False), (fun s => s = 0), (fun s => s = 0), [1; 2],
    (fun _ => True), (fun _ m => m = c44_m), tt, c44_m. split; [|split].
  - split; [unfold c72_addr; auto|]. split; [intros q l; apply Permutation_refl|]. split; [intros i l; apply Permutation_sym, Permutation_rev|].
    split; [apply RegexProof.set_wf|]. split; [apply compiled_set; reflexivity|]. split; [apply set_labels_in; cbn; auto|].
    split; [apply RegexProof.set_wf|]. split; [apply compiled_set; reflexivity|]. split; [apply set_labels_in; cbn; auto|].
    split. { split.
      - intros f m f' us -> E. injection E as <- <-. apply ExHelp.wf_urulesb_ok; reflexivity.
      - intros f m f' us u -> E Hu. injection E as <- <-. destruct Hu as [<-|[]]. reflexivity.
      - intros f m f' us -> E. injection E as <- <-. split; [apply SSorted_cons; [apply SSorted_nil|apply Forall_nil]|]. intros s [<-|[]]. apply Nat.ltb_lt. reflexivity.
      - intros f m f' us -> E. injection E as <- <-. split; [apply SSorted_cons; [apply SSorted_nil|apply Forall_nil]|]. intros s [<-|[]]. apply Nat.ltb_lt. reflexivity.
      - intros f m f' us -> E. injection E as <- <-. exists (fun s => s). split; [intros r []|]. split; intros s ->; cbn; auto. }
    split. { split. intros f m f' P J J' -> E V. exfalso. vm_compute in E. injection E as <- <- <-. destruct up; [|destruct ud]; vm_compute in V; discriminate. }
    split; auto. split; [apply c44_RI|]. split; [apply RI_partition; [apply c44_RI|]; intros x; cbn; tauto|]. intros [|a] H; [exists 1; reflexivity|cbn in H; lia].
  - intros [|n] H; [lia|]. destruct up; [|destruct ud]; vm_compute; reflexivity.
  - exists (0, [2]), (0, [2]). split; [|split; [|constructor]]; (split; [reflexivity|]; split; [|apply Forall_cons; [cbn; auto 10|apply Forall_nil]]).
    + apply RegexProof.set_lang; [left; reflexivity|]. exists 2. cbn. intuition discriminate.
    + apply RegexProof.set_lang; [right; discriminate|]. exists 2. cbn. auto.
Qed.
Print Assumptions C72_negated_refuted.
