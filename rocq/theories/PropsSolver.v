(** C07-C11, C16: the reachability queries of the solver and the product of two automata. *)
From Coq Require Import List Arith Lia Bool ZArith Permutation.
From Verif Require Import Base BaseFacts Spec SpecFacts PdaModel PdaProof AutModel AutProof PreStarModel PreStarProof PreStarLang
  PostStarModel PostStarProof PostStarLang SolverModel SolverProof QueryModel QueryProof ProductModel ProductProof VerdictModel VerdictProof
  ConfigProof ExHelp PropsSaturation.
Import ListNotations.

Lemma can_reach_iff : forall R R' L1 L2, (forall sr, R sr <-> R' sr) -> can_reach R L1 L2 <-> can_reach R' L1 L2.
Proof.
  intros R R' L1 L2 H. split; intros [c1 [c2 [H1 [H2 H3]]]]; exists c1, c2; ands; auto; eapply reach_iff; eauto. intros; symmetry; auto.
Qed.

Section Solver.
  Variables (nlab : nat) (us : list urule).
  Hypothesis W : Forall (wf_urule nlab) us.
  Let P := build nlab us.
  Let n := pd_n P.
  Let R := user_rules nlab us.

  Lemma verdict_built : forall L1 L2 b, (b = true <-> can_reach (pda_rules P) L1 L2) -> (b = true <-> can_reach R L1 L2).
  Proof. intros L1 L2 b H. rewrite H. apply can_reach_iff. intros; apply build_rules; auto. Qed.

  Lemma config_answers : forall A state stack, lookup_safe us -> pre_ok P A -> no_in P A -> state < n ->
    answers (fun fuel => pre_star_accepts_config P fuel A state stack) (fun r => fst r = true <-> can_reach R (fun c => c = (state, stack)) (aut_lang n A)).
  Proof.
    intros A state stack LS OK NI Hs. destruct (config_spec P (build_wf _ _ W) A OK state Hs stack) as [H1 H2]. split; auto.
    intros fuel. destruct (H1 fuel) as [K|[b [A' [K HO]]]]; auto. right. exists (b, A'). split; auto. apply verdict_built.
    eapply cfg_verdict; eauto. apply build_wf; auto. apply lookup_safe_ok; auto.
  Qed.

  Section Inst.
    Variables (ord : nat -> list nat -> list nat) (init fin : aut) (I : inst).
    Hypothesis HO : forall q l, Permutation (ord q l) l.
    Hypothesis HI : new_inst P ord init fin = Some I.
    Let Q := fun r : bool * inst => fst r = true <-> can_reach R (aut_lang n init) (aut_lang n fin).

    Lemma pre_answers : lookup_safe us -> aut_wf init -> n <= a_size init -> pre_ok P fin -> no_in P fin -> answers (fun fuel => pre_star_accepts P fuel I) Q.
    Proof.
      intros LS WI LI OK NI. destruct (pre_accepts_out P (build_wf _ _ W) ord HO init fin I HI WI LI OK) as [H1 H2]. split; auto.
      intros fuel. destruct (H1 fuel) as [K|[b [I' [K KO]]]]; auto. right. exists (b, I'). split; auto. apply verdict_built.
      eapply pre_out_verdict; eauto. apply build_wf; auto. apply lookup_safe_ok; auto.
    Qed.
    Lemma post_answers : aut_wf fin -> n <= a_size fin -> pre_ok P init -> no_in P init -> answers (fun fuel => post_star_accepts P fuel I) Q.
    Proof.
      intros WF LF OK NI. assert (PO: post_ok P init) by (apply post_ok_pre_ok; auto).
      destruct (post_accepts_out P (build_wf _ _ W) ord HO init fin I HI WF LF PO) as [H1 H2]. split; auto.
      intros fuel. destruct (H1 fuel) as [K|[b [I' [K KO]]]]; auto. right. exists (b, I'). split; auto. apply verdict_built.
      eapply post_out_verdict; eauto. apply build_wf; auto.
    Qed.
    Lemma post_no_ET_answers : aut_wf fin -> n <= a_size fin -> pre_ok P init -> no_in P init -> answers (fun fuel => post_star_accepts_no_ET P fuel I) Q.
    Proof.
      intros WF LF OK NI. assert (PO: post_ok P init) by (apply post_ok_pre_ok; auto).
      destruct (post_no_ET_out P (build_wf _ _ W) ord HO init fin I HI WF LF PO) as [H1 H2]. split; auto.
      intros fuel. destruct (H1 fuel) as [K|[b [I' [K KO]]]]; auto. right. exists (b, I'). split; auto. apply verdict_built.
      eapply post_out_verdict; eauto. apply build_wf; auto.
    Qed.
    Lemma dual_answers : lookup_safe us -> pre_ok P init -> no_in P init -> pre_ok P fin -> no_in P fin -> answers (fun fuel => dual_search_accepts P fuel I) Q.
    Proof.
      intros LS OKI NII OK NI. assert (PO: post_ok P init) by (apply post_ok_pre_ok; auto).
      destruct (dual_accepts_out P (build_wf _ _ W) ord HO init fin I HI PO OK) as [H1 H2]. split; auto.
      intros fuel. destruct (H1 fuel) as [K|[b [I' [K KO]]]]; auto. right. exists (b, I'). split; auto. apply verdict_built.
      eapply dual_out_verdict; eauto. apply build_wf; auto. apply lookup_safe_ok; auto.
    Qed.
  End Inst.
End Solver.

(** * C07 *)
Theorem C07_pre_star_accepts_config : forall nlab us A state stack, Forall (wf_urule nlab) us -> lookup_safe us ->
  pre_ok (build nlab us) A -> no_in (build nlab us) A -> state < pd_n (build nlab us) ->
  answers (fun fuel => pre_star_accepts_config (build nlab us) fuel A state stack)
    (fun r => fst r = true <-> exists c, reach (user_rules nlab us) (state, stack) c /\ aut_lang (pd_n (build nlab us)) A c).
Proof.
  intros nlab us A state stack W LS OK NI Hs. destruct (config_answers nlab us W A state stack LS OK NI Hs) as [H1 H2]. split; auto.
  intros fuel. destruct (H1 fuel) as [K|[r [K Hr]]]; auto. right. exists r. split; auto. rewrite Hr. split.
  - intros [c1 [c2 [-> [Ha Hb]]]]. eauto.
  - intros [c [Ha Hb]]. exists (state, stack), c. auto.
Qed.
Print Assumptions C07_pre_star_accepts_config.

Definition verdict {R} (r : option (option (bool * R))) : option (option bool) :=
  match r with None => None | Some None => Some None | Some (Some (b, _)) => Some (Some b) end.
(** (0, a) and (1, b a) reach (2, a); (2, b) does not. The stack lengths 1, 2 and 0 take both branches. *)
Example C07_example :
  verdict (pre_star_accepts_config ex_pda 100 ex_target 0 [0]) = Some (Some true) /\
  verdict (pre_star_accepts_config ex_pda 100 ex_target 2 [0]) = Some (Some true) /\
  verdict (pre_star_accepts_config ex_pda 100 ex_target 1 [1; 0]) = Some (Some true) /\
  verdict (pre_star_accepts_config ex_pda 100 ex_target 2 [1]) = Some (Some false) /\
  verdict (pre_star_accepts_config ex_pda 100 ex_target 0 []) = Some (Some false).
Proof. vm_compute. auto. Qed.

(** * C08, C09, C10, C11 *)
Theorem C08_pre_star_verdict : forall nlab us ord init fin I, Forall (wf_urule nlab) us -> lookup_safe us ->
  (forall q l, Permutation (ord q l) l) -> new_inst (build nlab us) ord init fin = Some I ->
  aut_wf init -> pd_n (build nlab us) <= a_size init -> pre_ok (build nlab us) fin -> no_in (build nlab us) fin ->
  answers (fun fuel => pre_star_accepts (build nlab us) fuel I)
    (fun r => fst r = true <-> can_reach (user_rules nlab us) (aut_lang (pd_n (build nlab us)) init) (aut_lang (pd_n (build nlab us)) fin)).
Proof. intros; eapply pre_answers; eauto. Qed.
Print Assumptions C08_pre_star_verdict.

Theorem C09_post_star_verdict : forall nlab us ord init fin I, Forall (wf_urule nlab) us ->
  (forall q l, Permutation (ord q l) l) -> new_inst (build nlab us) ord init fin = Some I ->
  aut_wf fin -> pd_n (build nlab us) <= a_size fin -> pre_ok (build nlab us) init -> no_in (build nlab us) init ->
  answers (fun fuel => post_star_accepts (build nlab us) fuel I)
    (fun r => fst r = true <-> can_reach (user_rules nlab us) (aut_lang (pd_n (build nlab us)) init) (aut_lang (pd_n (build nlab us)) fin)).
Proof. intros; eapply post_answers; eauto. Qed.
Print Assumptions C09_post_star_verdict.

(** The variant without early termination (post_star_accepts_no_ET). *)
Theorem C09_post_star_no_ET_verdict : forall nlab us ord init fin I, Forall (wf_urule nlab) us ->
  (forall q l, Permutation (ord q l) l) -> new_inst (build nlab us) ord init fin = Some I ->
  aut_wf fin -> pd_n (build nlab us) <= a_size fin -> pre_ok (build nlab us) init -> no_in (build nlab us) init ->
  answers (fun fuel => post_star_accepts_no_ET (build nlab us) fuel I)
    (fun r => fst r = true <-> can_reach (user_rules nlab us) (aut_lang (pd_n (build nlab us)) init) (aut_lang (pd_n (build nlab us)) fin)).
Proof. intros; eapply post_no_ET_answers; eauto. Qed.
Print Assumptions C09_post_star_no_ET_verdict.

Theorem C10_dual_search_verdict : forall nlab us ord init fin I, Forall (wf_urule nlab) us -> lookup_safe us ->
  (forall q l, Permutation (ord q l) l) -> new_inst (build nlab us) ord init fin = Some I ->
  pre_ok (build nlab us) init -> no_in (build nlab us) init -> pre_ok (build nlab us) fin -> no_in (build nlab us) fin ->
  answers (fun fuel => dual_search_accepts (build nlab us) fuel I)
    (fun r => fst r = true <-> can_reach (user_rules nlab us) (aut_lang (pd_n (build nlab us)) init) (aut_lang (pd_n (build nlab us)) fin)).
Proof. intros; eapply dual_answers; eauto. Qed.
Print Assumptions C10_dual_search_verdict.

Lemma bool_iff_eq : forall (Q : Prop) a b, (a = true <-> Q) -> (b = true <-> Q) -> a = b.
Proof. intros Q [] [] H1 H2; auto; [symmetry; apply H2, H1|apply H1, H2]; auto. Qed.

Theorem C11_engines_agree : forall nlab us ord init fin I, Forall (wf_urule nlab) us -> lookup_safe us ->
  (forall q l, Permutation (ord q l) l) -> new_inst (build nlab us) ord init fin = Some I ->
  pre_ok (build nlab us) init -> no_in (build nlab us) init -> pre_ok (build nlab us) fin -> no_in (build nlab us) fin ->
  exists b bound, forall fuel, bound <= fuel -> exists I1 I2 I3 I4,
    pre_star_accepts (build nlab us) fuel I = done (b, I1) /\ post_star_accepts (build nlab us) fuel I = done (b, I2) /\
    dual_search_accepts (build nlab us) fuel I = done (b, I3) /\ post_star_accepts_no_ET (build nlab us) fuel I = done (b, I4).
Proof.
  intros nlab us ord init fin I W LS HO HI O1 N1 O2 N2.
  destruct (pre_answers nlab us W ord init fin I HO HI LS (pre_ok_wf _ _ O1) (po_n _ _ O1) O2 N2) as [A1 [b1 B1]].
  destruct (post_answers nlab us W ord init fin I HO HI (pre_ok_wf _ _ O2) (po_n _ _ O2) O1 N1) as [A2 [b2 B2]].
  destruct (dual_answers nlab us W ord init fin I HO HI LS O1 N1 O2 N2) as [A3 [b3 B3]].
  destruct (post_no_ET_answers nlab us W ord init fin I HO HI (pre_ok_wf _ _ O2) (po_n _ _ O2) O1 N1) as [A4 [b4 B4]].
  set (bd := b1 + b2 + b3 + b4).
  assert (K: exists r, pre_star_accepts (build nlab us) bd I = done r /\ (fst r = true <-> can_reach (user_rules nlab us) (aut_lang (pd_n (build nlab us)) init) (aut_lang (pd_n (build nlab us)) fin))).
  { destruct (A1 bd) as [K|K]; auto. exfalso. apply (B1 bd); auto. unfold bd; lia. }
  destruct K as [[b I0] [_ Hb]]. cbn [fst] in Hb. exists b, bd. intros fuel Hf. unfold bd in Hf.
  destruct (A1 fuel) as [K1|[[c1 J1] [K1 Q1]]]; [exfalso; apply (B1 fuel); auto; lia|].
  destruct (A2 fuel) as [K2|[[c2 J2] [K2 Q2]]]; [exfalso; apply (B2 fuel); auto; lia|].
  destruct (A3 fuel) as [K3|[[c3 J3] [K3 Q3]]]; [exfalso; apply (B3 fuel); auto; lia|].
  destruct (A4 fuel) as [K4|[[c4 J4] [K4 Q4]]]; [exfalso; apply (B4 fuel); auto; lia|].
  exists J1, J2, J3, J4. cbn [fst] in *.
  rewrite (bool_iff_eq _ _ _ Hb Q1) at 1. rewrite (bool_iff_eq _ _ _ Hb Q2) at 1. rewrite (bool_iff_eq _ _ _ Hb Q3) at 1. rewrite (bool_iff_eq _ _ _ Hb Q4) at 1. auto.
Qed.
Print Assumptions C11_engines_agree.

(** From (0, a) the target (2, a) is reachable; from (2, b) it is not: there the NOOP rule loops between 2 and 0 and PUSH grows the stack. *)
Definition ex_start2 : aut := mk_ex [false; false; false; true] [(2, 1, 3)].
Definition ex_ord : nat -> list nat -> list nat := fun _ l => l.
Definition run_all (init fin : aut) : option (list (option (option bool))) :=
  I <- new_inst ex_pda ex_ord init fin ;;
  Some [verdict (pre_star_accepts ex_pda 200 I); verdict (post_star_accepts ex_pda 200 I); verdict (dual_search_accepts ex_pda 200 I);
        verdict (post_star_accepts_no_ET ex_pda 200 I)].
Example C08_C11_example : run_all ex_start ex_target = Some (repeat (Some (Some true)) 4) /\ run_all ex_start2 ex_target = Some (repeat (Some (Some false)) 4) /\
  pre_ok ex_pda ex_start2 /\ no_in ex_pda ex_start2.
Proof. split; [vm_compute; reflexivity|]. split; [vm_compute; reflexivity|]. split; [apply autb_ok|apply no_inb_ok]; reflexivity. Qed.

(** * C16 *)
(** A product in use: built for two automata (new_inst + initialize_product), then one edge at a time is added to a component and reported
    to the product. With ET (early termination) nothing is reported any more once an accepting state was found. Edges are reported for the
    second component only if the product keeps the back look-up table. *)
Inductive product_use (n : nat) (back ET : bool) : aut -> aut -> prod_st -> bool -> Prop :=
| pu_start : forall ord F S pr0 pr b, (forall q l, Permutation (ord q l) l) -> aut_wf F -> aut_wf S ->
    pr_new n ord F S = Some pr0 -> initialize_product n back ET F S pr0 = Some (b, pr) -> product_use n back ET F S pr b
| pu_first : forall F S pr b e t F' b' pr', product_use n back ET F S pr b -> emplace_edge F e t = Some (F', true) -> e_dst e < a_size F ->
    (if ET && b then Some (b, pr) else pr_add_component_edge n true back ET F' S pr e) = Some (b', pr') -> product_use n back ET F' S pr' b'
| pu_second : forall F S pr b e t S' b' pr', product_use n back ET F S pr b -> emplace_edge S e t = Some (S', true) -> e_dst e < a_size S ->
    back = true ->
    (if ET && b then Some (b, pr) else pr_add_component_edge n false back ET F S' pr e) = Some (b', pr') -> product_use n back ET F S' pr' b'.

Lemma emplace_wf : forall A e t A', aut_wf A -> emplace_edge A e t = Some (A', true) -> e_dst e < a_size A -> aut_wf A'.
Proof.
  intros A e t A' [W1 W2] E L. assert (EE := emplace_edges _ _ _ _ E). assert (L1: e_src e < a_size A). { unfold emplace_edge in E. destruct (Nat.ltb_spec (e_src e) (a_size A)); [auto|discriminate]. }
  destruct (emplace_true _ _ _ _ E) as [E1 [E2 E3]]. constructor.
  - intros q l. rewrite E2. apply W1.
  - intros q l q' H. unfold a_size in *. rewrite E1. apply EE in H. destruct H as [H|[-> [-> ->]]]; auto. apply W2 in H. auto.
Qed.

Definition PI (n : nat) (back ET : bool) (F S : aut) (pr : prod_st) (b : bool) : Prop :=
  aut_wf F /\ aut_wf S /\ n <= a_size F /\ n <= a_size S /\ pbase n F S back pr /\ b = has_accepting pr /\
  (b = false \/ ET = false -> forall id, id < psz pr -> closed_at n F S pr id).

Lemma pi_first : forall n back ET F S pr b e t F', PI n back ET F S pr b -> emplace_edge F e t = Some (F', true) -> e_dst e < a_size F ->
  exists b' pr', (if ET && b then Some (b, pr) else pr_add_component_edge n true back ET F' S pr e) = Some (b', pr') /\ PI n back ET F' S pr' b'.
Proof.
  intros n back ET F S pr b e t F' [H6 [H7 [H1 [H2 [H3 [H4 H5]]]]]] E L. assert (WF := emplace_wf _ _ _ _ H6 E L). assert (EE := emplace_edges _ _ _ _ E). destruct (emplace_true _ _ _ _ E) as [E1 [E2 E3]].
  assert (HF: n <= a_size F') by (unfold a_size in *; rewrite E1; auto).
  assert (B: pbase n F' S back pr). { eapply pbase_mono; eauto. + intros; apply EE; auto. + unfold a_size; rewrite E1; auto. + intros; rewrite E1; auto. }
  destruct (ET && b) eqn:EB.
  - apply andb_true_iff in EB. destruct EB as [-> ->]. exists true, pr. split; auto. unfold PI. ands; auto. intros [K|K]; discriminate.
  - assert (K: b = false \/ ET = false) by (destruct b, ET; auto; discriminate).
    destruct (add_component_spec n F' S back WF H7 HF H2 true ET pr e (aut_edges F) (aut_edges S)) as [b' [pr' [K1 [K2 [K3 [K4 K5]]]]]]; auto.
    + discriminate.
    + intros _. ands; auto. * apply EE; auto. * intros x y z Kx. apply EE; auto.
    + discriminate.
    + intros id a c l a' c' HP HJ. eapply H5; eauto. apply (pair_lt n F S back H1 H2 pr id); [apply H3|eauto].
    + exists b', pr'. split; auto. unfold PI. ands; auto.
Qed.

Lemma pi_second : forall n ET F S pr b e t S', PI n true ET F S pr b -> emplace_edge S e t = Some (S', true) -> e_dst e < a_size S ->
  exists b' pr', (if ET && b then Some (b, pr) else pr_add_component_edge n false true ET F S' pr e) = Some (b', pr') /\ PI n true ET F S' pr' b'.
Proof.
  intros n ET F S pr b e t S' [H6 [H7 [H1 [H2 [H3 [H4 H5]]]]]] E L. assert (WS := emplace_wf _ _ _ _ H7 E L). assert (EE := emplace_edges _ _ _ _ E). destruct (emplace_true _ _ _ _ E) as [E1 [E2 E3]].
  assert (HF: n <= a_size S') by (unfold a_size in *; rewrite E1; auto).
  assert (B: pbase n F S' true pr). { eapply pbase_mono; eauto. + intros; apply EE; auto. + unfold a_size; rewrite E1; auto. + intros; rewrite E1; auto. }
  destruct (ET && b) eqn:EB.
  - apply andb_true_iff in EB. destruct EB as [-> ->]. exists true, pr. split; auto. unfold PI. ands; auto. intros [K|K]; discriminate.
  - assert (K: b = false \/ ET = false) by (destruct b, ET; auto; discriminate).
    destruct (add_component_spec n F S' true H6 WS H1 HF false ET pr e (aut_edges F) (aut_edges S)) as [b' [pr' [K1 [K2 [K3 [K4 K5]]]]]]; auto.
    + discriminate.
    + intros _. ands; auto. * apply EE; auto. * intros x y z Kx. apply EE; auto.
    + intros id a c l a' c' HP HJ. eapply H5; eauto. apply (pair_lt n F S true H1 H2 pr id); [apply H3|eauto].
    + exists b', pr'. split; auto. unfold PI. ands; auto.
Qed.

Lemma product_use_inv : forall n back ET F S pr b, product_use n back ET F S pr b -> PI n back ET F S pr b.
Proof.
  induction 1 as [ord F S pr0 pr b HO WF WS E0 E|F S pr b e t F' b' pr' H IH E L K|F S pr b e t S' b' pr' H IH E L -> K].
  - assert (L: n <= a_size F /\ n <= a_size S). { unfold pr_new in E0. destruct (Nat.leb_spec n (a_size F)), (Nat.leb_spec n (a_size S)); try discriminate. auto. }
    destruct L as [L1 L2]. destruct (pr_new_spec n F S back L1 L2 ord HO) as [pr' [E1 [B _]]]. assert (pr' = pr0) by congruence. subst pr'.
    destruct (initialize_spec n F S back WF WS L1 L2 ET pr0 B) as [b' [pr' [E2 [K1 [K2 [K3 K4]]]]]]. assert (b' = b) by congruence. assert (pr' = pr) by congruence. subst.
    unfold PI. ands; auto.
  - destruct (pi_first _ _ _ _ _ _ _ _ _ _ IH E L) as [b1 [pr1 [K1 K2]]]. rewrite K in K1. inversion K1; subst; auto.
  - destruct (pi_second _ _ _ _ _ _ _ _ _ IH E L) as [b1 [pr1 [K1 K2]]]. rewrite K in K1. inversion K1; subst; auto.
Qed.

(** At any time the reported flag says whether a common configuration exists, and the product has an accepting state iff it does. *)
Theorem C16_product_is_intersection : forall n back ET F S pr b, product_use n back ET F S pr b ->
  (b = true <-> exists c, aut_lang n F c /\ aut_lang n S c) /\ (has_accepting pr = true <-> exists c, aut_lang n F c /\ aut_lang n S c).
Proof.
  intros n back ET F S pr b H. apply product_use_inv in H. destruct H as [H6 [H7 [H1 [H2 [H3 [H4 H5]]]]]].
  assert (K: has_accepting pr = true <-> exists c, aut_lang n F c /\ aut_lang n S c).
  { split; intros K.
    - eapply has_accepting_sound; eauto.
    - destruct (has_accepting pr) eqn:E; auto. rewrite <- E. eapply (has_accepting_complete n F S back); eauto. }
  split; auto. rewrite H4. auto.
Qed.
Print Assumptions C16_product_is_intersection.

(** No insertion has undefined behaviour. *)
Theorem C16_product_insert_defined : forall n back ET F S pr b e t, product_use n back ET F S pr b ->
  (forall F', emplace_edge F e t = Some (F', true) -> e_dst e < a_size F ->
     exists b' pr', (if ET && b then Some (b, pr) else pr_add_component_edge n true back ET F' S pr e) = Some (b', pr')) /\
  (forall S', emplace_edge S e t = Some (S', true) -> e_dst e < a_size S -> back = true ->
     exists b' pr', (if ET && b then Some (b, pr) else pr_add_component_edge n false back ET F S' pr e) = Some (b', pr')).
Proof.
  intros n back ET F S pr b e t H. apply product_use_inv in H. split.
  - intros F' E L. destruct (pi_first _ _ _ _ _ _ _ _ _ _ H E L) as [b1 [pr1 [K1 K2]]]. eauto.
  - intros S' E L ->. destruct (pi_second _ _ _ _ _ _ _ _ _ H E L) as [b1 [pr1 [K1 K2]]]. eauto.
Qed.
Print Assumptions C16_product_insert_defined.

(** F accepts (0, a b) via state 2, S first only (0, a a); adding the edge 2 -b-> 3 to S makes the intersection non-empty. *)
Example C16_example : exists F S S' pr pr', F = mk_ex [false; false; false; true] [(0, 0, 2); (2, 1, 3)] /\
  S = mk_ex [false; false; false; true] [(0, 0, 2); (2, 0, 3)] /\ emplace_edge S (mk_edge 2 (Some 1) 3) TNull = Some (S', true) /\
  product_use 2 true true F S pr false /\ product_use 2 true true F S' pr' true.
Proof.
  set (F := mk_ex [false; false; false; true] [(0, 0, 2); (2, 1, 3)]). set (S := mk_ex [false; false; false; true] [(0, 0, 2); (2, 0, 3)]).
  assert (Wf: forall es, forallb (fun e => Nat.ltb (fst (fst e)) 4 && Nat.ltb (snd e) 4) es = true -> aut_wf (mk_ex [false; false; false; true] es)).
  { intros es H. constructor; [intros q l; apply Permutation_refl|]. intros q l q' K. unfold aut_edges, edges_of, mk_ex in K. cbn [a_edges] in K. rewrite map_map in K.
    apply in_map_iff in K. destruct K as [e [K1 K2]]. cbn [fst] in K1. rewrite forallb_forall in H. specialize (H _ K2). apply andb_true_iff in H. destruct H as [H1 H2].
    apply Nat.ltb_lt in H1, H2. inversion K1; subst. cbn. auto. }
  assert (E0: exists pr0, pr_new 2 ex_ord F S = Some pr0) by (eexists; vm_compute; reflexivity). destruct E0 as [pr0 E0].
  destruct (initialize_product 2 true true F S pr0) as [[b pr]|] eqn:E1; [|vm_compute in E0; inversion E0; subst pr0; vm_compute in E1; discriminate].
  assert (Eb: b = false). { vm_compute in E0; inversion E0; subst pr0; vm_compute in E1. inversion E1; auto. } subst b.
  assert (U: product_use 2 true true F S pr false). { eapply pu_start; eauto; try (apply Wf; reflexivity). intros; apply Permutation_refl. }
  destruct (emplace_edge S (mk_edge 2 (Some 1) 3) TNull) as [[S' bb]|] eqn:E2; [|discriminate].
  assert (bb = true) by (cbn in E2; inversion E2; auto). subst bb.
  destruct (pi_second _ _ _ _ _ _ _ _ _ (product_use_inv _ _ _ _ _ _ _ U) E2) as [b1 [pr1 [K1 K2]]]; [cbn; lia|].
  assert (Hb: b1 = true).
  { vm_compute in E0; inversion E0; subst pr0; vm_compute in E1; inversion E1; subst pr. cbn in E2; inversion E2; subst S'. vm_compute in K1. inversion K1; auto. }
  subst b1. exists F, S, S', pr, pr1. ands; auto. eapply pu_second; eauto.
Qed.
