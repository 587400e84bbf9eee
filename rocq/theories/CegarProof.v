(** Proofs about CegarModel.v: the product under an abstraction of labels, and the simulation of a pushdown system by an abstract one. *)
From Coq Require Import List Arith Lia Bool ZArith Sorted Permutation.
From Verif Require Import Base BaseFacts Spec SpecFacts PdaModel PdaProof ContainersModel AutModel AutProof PreStarLang PostStarLang NfaModel NfaProof NfaQueryModel ConstructProof ContainersProof
  ProductModel MappingProof TrieModel RefineModel RefineProof AbstractionModel AbstractionProof SolverModel VerdictModel FactoryModel FactoryProof CegarModel.
Import ListNotations.

(** * The product *)
Lemma abs_empty : forall m N, (exists i f, In i (n_init N) /\ apath (absE m N) i [] f /\ nF N f) <-> nfa_lang N [].
Proof.
  intros m N. assert (G1: forall i w f, apath (absE m N) i w f -> w = [] -> apath (sts_edges (n_states N)) i [] f).
  { intros i w f H. induction H as [q0|q0 l q1 w q2 He H IH|q0 q1 w q2 He H IH]; intros E; [constructor|discriminate|]. apply ap_eps with q1; [exact He|auto]. }
  assert (G2: forall i w f, apath (sts_edges (n_states N)) i w f -> w = [] -> apath (absE m N) i [] f).
  { intros i w f H. induction H as [q0|q0 l q1 w q2 He H IH|q0 q1 w q2 He H IH]; intros E; [constructor|discriminate|]. apply ap_eps with q1; [exact He|auto]. }
  split; intros (i & f & H1 & H2 & H3); exists i, f; ands; eauto.
Qed.

Lemma abs_acc : forall m addr P ord N states A b, (forall i j, addr i = addr j -> i = j) -> nfa_wf N -> compiled addr N -> RI m -> known m N -> pd_nlab P = rm_size m ->
  (forall q l, Permutation (ord q l) l) -> ssorted states -> (forall s, In s states -> s < pd_n P) ->
  abstraction_aut m addr P ord N states = Some A -> empty_accept addr N = Some b ->
  pd_n P <= a_size A /\ forall q, q < pd_n P -> nth_error (a_acc A) q = Some (b && memb q states).
Proof.
  intros m addr P ord N states A b Hi W HC R K HP Ho Hss Hst E Eb. destruct (abstraction_spec m addr P ord N states) as [A' [E' [PO L]]]; auto.
  assert (A' = A) by congruence. subst A'. apply post_ok_pre_ok in PO. destruct PO as [PO _]. pose proof (po_n _ _ PO) as LN. split; auto. intros q Hq.
  destruct (empty_accept_spec addr N HC) as [b' [E1 E2]]. assert (b' = b) by congruence. subst b'.
  assert (Hl: q < length (a_acc A)) by (unfold a_size in LN; lia). destruct (nth_error_ex _ _ _ Hl) as [x Ex]. rewrite Ex. f_equal.
  assert (HF: aut_lang (pd_n P) A (q, []) <-> x = true).
  { unfold aut_lang, lang. cbn [fst snd]. split.
    - intros [_ [f [H1 H2]]]. inversion H1 as [q0|q0 l q1 w q2 He|q0 q1 w q2 He]; subst; [unfold aut_final in H2; congruence|].
      destruct (po_range _ _ PO _ _ _ He) as [_ [_ [y [K' _]]]]. discriminate.
    - intros ->. split; auto. exists q. split; [constructor|]. unfold aut_final. auto. }
  rewrite L, abs_empty, <- E2 in HF. destruct x.
  - destruct (proj2 HF eq_refl) as [K1 ->]. symmetry. apply memb_In. auto.
  - destruct b; auto. cbn. destruct (memb q states) eqn:EM; auto. apply memb_In in EM. apply HF. auto.
Qed.

Theorem new_inst_abs_spec : forall m addr P ord N1 N2 s1 s2, (forall i j, addr i = addr j -> i = j) -> (forall q l, Permutation (ord q l) l) -> RI m -> pd_nlab P = rm_size m ->
  nfa_wf N1 -> compiled addr N1 -> known m N1 -> ssorted s1 -> (forall s, In s s1 -> s < pd_n P) ->
  nfa_wf N2 -> compiled addr N2 -> known m N2 -> ssorted s2 -> (forall s, In s s2 -> s < pd_n P) ->
  exists A1 A2 I, abstraction_aut m addr P ord N1 s1 = Some A1 /\ abstraction_aut m addr P ord N2 s2 = Some A2 /\
    new_inst_abs m addr ord P N1 s1 N2 s2 = Some I /\ new_inst P ord A1 A2 = Some I.
Proof.
  intros m addr P ord N1 N2 s1 s2 Hi Ho R HP W1 C1 S1 H1 L1 W2 C2 S2 H2 L2.
  destruct (abstraction_spec m addr P ord N1 s1) as [A1 [E1 _]]; auto. destruct (abstraction_spec m addr P ord N2 s2) as [A2 [E2 _]]; auto.
  destruct (empty_accept_spec addr N1 C1) as [b1 [B1 _]]. destruct (empty_accept_spec addr N2 C2) as [b2 [B2 _]].
  destruct (abs_acc m addr P ord N1 s1 A1 b1) as [Z1 Q1]; auto. destruct (abs_acc m addr P ord N2 s2 A2 b2) as [Z2 Q2]; auto.
  assert (T1: is_sorted Nat.ltb s1 = true) by (apply is_sorted_spec, ssorted_le; auto). assert (T2: is_sorted Nat.ltb s2 = true) by (apply is_sorted_spec, ssorted_le; auto).
  assert (T3: is_sorted Nat.ltb (NfaQueryModel.set_inter s1 s2) = true) by (apply is_sorted_spec, ssorted_le, set_inter_ssorted; auto).
  unfold new_inst_abs, aut_special. rewrite E1, E2, T1, T2, B1, B2, T3. cbn [obind andb]. unfold new_inst, pr_new.
  apply Nat.leb_le in Z1 as Z1', Z2 as Z2'. exists A1, A2. eexists. ands; try reflexivity. rewrite Z1', Z2'. cbn [obind andb]. symmetry.
  f_equal. f_equal. f_equal. f_equal. apply nth_error_ext. intros i. destruct (Nat.lt_ge_cases i (pd_n P)) as [Hl|Hl].
  - rewrite special_acc_nth; auto; [|apply set_inter_ssorted; auto|intros; lia].
    assert (G: forall (u v : list bool) m i x y, i < m -> nth_error u i = Some x -> nth_error v i = Some y ->
      nth_error (map (fun ab : bool * bool => fst ab && snd ab) (combine (firstn m u) (firstn m v))) i = Some (x && y)).
    { induction u as [|u0 u IH]; intros [|v0 v] [|k] [|j] x y Hj F1 F2; cbn in *; try lia; try discriminate. { congruence. } apply IH; auto. lia. }
    rewrite (G _ _ _ _ _ _ Hl (Q1 i Hl) (Q2 i Hl)). f_equal. cbn.
    assert (M: memb i (NfaQueryModel.set_inter s1 s2) = memb i s1 && memb i s2).
    { apply eq_true_iff_eq. rewrite andb_true_iff, !memb_In. apply MappingProof.set_inter_In; auto. }
    rewrite M. destruct b1, b2, (memb i s1), (memb i s2); auto.
  - rewrite !(proj2 (nth_error_None _ _)); auto.
    + rewrite map_length, combine_length, !firstn_length. lia.
    + rewrite special_acc_length. auto.
Qed.

(** * Simulation *)
(** An operation of the abstract system with the abstraction of the label. *)
Inductive op_class (m : rmap) : sop -> sop -> Prop :=
| oc_push : forall x a, rm_exists m x = Some a -> op_class m (SPush x) (SPush a)
| oc_pop : op_class m SPop SPop
| oc_swap : forall x a, rm_exists m x = Some a -> op_class m (SSwap x) (SSwap a)
| oc_noop : op_class m SNoop SNoop.
(** Every rule of [R] has an abstract one: states are abstracted by [ab], labels by [m]. *)
Definition simulated (m : rmap) (ab : nat -> nat) (R A : pds) : Prop :=
  forall r, R r -> forall a, rm_exists m (s_pre r) = Some a -> exists o, op_class m (s_op r) o /\ A (mk_srule (ab (s_from r)) a (ab (s_to r)) o).
Lemma simulated_reach : forall m ab R A c c', simulated m ab R A -> reach R c c' -> forall aw, Forall2 (fun x a => rm_exists m x = Some a) (snd c) aw ->
  exists aw', Forall2 (fun x a => rm_exists m x = Some a) (snd c') aw' /\ reach A (ab (fst c), aw) (ab (fst c'), aw').
Proof.
  intros m ab R A c c' HS H. induction H as [c|c1 c2 c3 [r [Hr Hb]] H IH]; intros aw Hw.
  - exists aw. split; auto. constructor.
  - destruct Hb as [w]. cbn [fst snd] in *. inversion Hw as [|? a ? aw1 Ha Hw1]; subst. destruct (HS r Hr a Ha) as (o & Ho & HA).
    destruct (IH (apply_op o a aw1)) as (aw' & K1 & K2).
    { destruct Ho as [x b Hx| |x b Hx|]; cbn; auto. }
    exists aw'. split; auto. eapply reach_step; [|exact K2]. exists (mk_srule (ab (s_from r)) a (ab (s_to r)) o). split; auto.
    apply (step_by_intro (mk_srule (ab (s_from r)) a (ab (s_to r)) o)).
Qed.
