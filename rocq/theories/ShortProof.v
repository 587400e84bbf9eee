(** The search for shortest traces with post*: saturation and product automaton together. *)
From Coq Require Import List Arith Lia Bool ZArith Permutation.
From Verif Require Import Base BaseFacts Spec SpecFacts PdaModel PdaProof AutModel AutProof PreStarModel PreStarProof PreStarLang
  PostStarModel PostStarProof PostStarLang SolverModel QueryModel QueryProof ProductModel ProductProof UtilModel UtilProof TraceModel TraceProof
  ShortSpec ShortModel ShortProdProof PostShortProof.
Import ListNotations.

Lemma jpath_apath : forall EF ES wF wS p q w v a b, jpath EF ES wF wS p q w v a b -> apath EF p w a /\ apath ES q w b.
Proof.
  intros EF ES wF wS p q w v a b H. induction H as [|w v a1 b1 l v1 a2 b2 HJ [IH1 IH2] HS]; [split; constructor|].
  assert (X1 : forall E x y z, apath E x w y -> (E y l z \/ (l = None /\ z = y)) -> apath E x (w ++ olist l) z).
  { intros E x y z HA [HE|[-> ->]]; [|cbn; rewrite app_nil_r; auto]. eapply apath_app; [exact HA|]. destruct l as [l|]; cbn; [eapply ap_lab|eapply ap_eps]; eauto; constructor. }
  destruct l as [l|]; cbn in HS.
  - destruct HS as (H1 & H2 & _). split; eauto.
  - destruct HS as [(H1 & -> & _)|(H1 & -> & _)]; split; eauto.
Qed.
Lemma jpath_zero : forall EF ES wF wS p q w v a b, (forall e, wF e = 0%Z) -> (forall e, wS e = 0%Z) -> jpath EF ES wF wS p q w v a b -> v = 0%Z.
Proof.
  intros EF ES wF wS p q w v a b ZF ZS H. induction H as [|w v a1 b1 l v1 a2 b2 HJ IH HS]; auto. subst v. destruct l as [l|]; cbn in HS.
  - destruct HS as (_ & _ & ->). rewrite ZF. auto.
  - destruct HS as [(_ & _ & ->)|(_ & _ & ->)]; rewrite ?ZF, ?ZS; auto.
Qed.
Lemma jpath_mono : forall (EF EF' ES : edgeset) wF wF' wS p q w v a b, jpath EF ES wF wS p q w v a b ->
  (forall x y z, EF x y z -> EF' x y z /\ wF' (mk_edge x y z) = wF (mk_edge x y z)) -> jpath EF' ES wF' wS p q w v a b.
Proof.
  intros EF EF' ES wF wF' wS p q w v a b H HM. induction H as [|w v a1 b1 l v1 a2 b2 HJ IH HS]; [constructor|]. eapply jp_snoc; eauto. eapply jstep_mono; eauto.
Qed.

(** The weighted transitions a sequence of calls to add_rule declares. *)
Definition user_wrules (nlab : nat) (us : list urule) : wpds := fun sr w =>
  exists u, In u us /\ s_from sr = u_from u /\ s_to sr = r_to (u_rule u) /\ s_op sr = sop_of (u_rule u) /\
    (if u_wild u then s_pre sr < nlab else In (s_pre sr) (u_pre u)) /\ w = r_w (u_rule u).

Lemma add_urule_wrules : forall P u sr w, wf_pda' P -> wf_urule (pd_nlab P) u ->
  (pda_wrules (add_urule P u) sr w <-> pda_wrules P sr w \/ user_wrules (pd_nlab P) [u] sr w).
Proof.
  intros P u sr w W [U1 [U2 U3]]. rewrite !pda_wrules_at, add_urule_nlab. unfold add_urule. rewrite add_rule_rules_at.
  unfold user_wrules.
  assert (HU: (exists u0, In u0 [u] /\ s_from sr = u_from u0 /\ s_to sr = r_to (u_rule u0) /\ s_op sr = sop_of (u_rule u0) /\
     (if u_wild u0 then s_pre sr < pd_nlab P else In (s_pre sr) (u_pre u0)) /\ w = r_w (u_rule u0)) <->
     (s_from sr = u_from u /\ s_to sr = r_to (u_rule u) /\ s_op sr = sop_of (u_rule u) /\
     (if u_wild u then s_pre sr < pd_nlab P else In (s_pre sr) (u_pre u)) /\ w = r_w (u_rule u))).
  { split; [intros [u0 [[<-|[]] H]]; auto|intros H; exists u; cbn; auto]. }
  rewrite HU. clear HU.
  pose proof (wf'_rules _ W) as Hs. pose proof (wf'_labs _ W) as Hl.
  destruct (Nat.eqb (u_from u) (s_from sr)) eqn:E.
  - apply Nat.eqb_eq in E. rewrite E.
    set (k := u_rule u).
    split.
    + intros [r [ls [Hin [Hm [H [H' H'']]]]]]. apply vm_emplace_mod_In in Hin; auto.
      destruct Hin as [[_ Hin]|[-> [[old [Hin ->]]|[_ ->]]]].
      * left; exists r, ls; auto.
      * apply merge_matches in Hm. destruct (wild old) eqn:Eo.
        -- left. exists k, old. split; auto. split; auto. unfold matches; rewrite Eo; auto.
        -- destruct (u_wild u) eqn:Eu; [right; auto|].
           destruct Hm as [Hm|Hm]; [left; exists k, old; unfold matches; rewrite Eo; auto|right; auto].
      * apply merge_matches in Hm. cbn in Hm. right. destruct (u_wild u); auto. ands; auto. tauto.
    + intros [[r [ls [Hin [Hm H]]]]|[_ [H1 [H2 [H3 H4]]]]].
      * destruct (rule_eq_dec r k) as [->|Hne].
        -- exists k, (merge ls (u_wild u) (u_pre u)). split.
           ++ apply vm_emplace_mod_In; auto. right. split; auto. left; exists ls; auto.
           ++ split; auto. apply merge_matches. pose proof (matches_lt _ _ _ (Hl _ _ _ Hin) Hm).
              unfold matches in Hm. destruct (wild ls); auto. destruct (u_wild u); auto.
        -- exists r, ls. split; auto. apply vm_emplace_mod_In; auto.
      * destruct (in_dec rule_eq_dec k (map fst (rules_at P (s_from sr)))) as [Hi|Hi].
        -- apply in_map_iff in Hi. destruct Hi as [[r0 ls0] [E0 Hi]]. cbn in E0; subst r0.
           exists k, (merge ls0 (u_wild u) (u_pre u)). split.
           ++ apply vm_emplace_mod_In; auto. right. split; auto. left; exists ls0; auto.
           ++ split; auto. apply merge_matches. destruct (wild ls0), (u_wild u); auto.
        -- exists k, (merge no_labels (u_wild u) (u_pre u)). split.
           ++ apply vm_emplace_mod_In; auto. right. split; auto. right. split; auto.
              intros old Ho. apply Hi. apply in_map_iff. exists (k, old); auto.
           ++ split; auto. apply merge_matches. cbn. destruct (u_wild u); auto.
  - apply Nat.eqb_neq in E. split; [intros H; left; auto|intros [H|[H _]]; [auto|congruence]].
Qed.

Lemma build_wrules : forall nlab us, Forall (wf_urule nlab) us -> forall sr w, pda_wrules (build nlab us) sr w <-> user_wrules nlab us sr w.
Proof.
  intros nlab us HF sr w. unfold build.
  assert (G: forall us P, wf_pda' P -> Forall (wf_urule (pd_nlab P)) us ->
    (pda_wrules (fold_left add_urule us P) sr w <-> pda_wrules P sr w \/ user_wrules (pd_nlab P) us sr w)).
  { clear us HF. induction us as [|u us IH]; intros P W HF; cbn.
    - split; auto. intros [H|[u [[] _]]]; auto.
    - inversion HF; subst. rewrite IH; [|apply add_urule_wf; auto|rewrite add_urule_nlab; auto].
      rewrite add_urule_wrules, add_urule_nlab; auto. unfold user_wrules. split.
      + intros [[H|[u0 [[<-|[]] H]]]|[u0 [Hi H]]]; auto; right; eexists; split; eauto; cbn; auto.
      + intros [H|[u0 [[<-|Hi] H]]]; auto; [left; right; exists u; cbn; auto|right; exists u0; auto]. }
  rewrite G; [|apply empty_wf|auto]. cbn [pd_nlab]. split; auto. intros [H|]; auto.
  apply pda_wrules_at in H. destruct H as [r [ls [H _]]]. unfold rules_at in H. destruct (s_from sr); destruct H.
Qed.

Lemma wreach_iff : forall (R R' : wpds) c v c', (forall sr w, R sr w -> R' sr w) -> wreach R c v c' -> wreach R' c v c'.
Proof. intros R R' c v c' H HW. induction HW; econstructor; eauto. Qed.
Lemma run_weight_iff : forall (R R' : wpds) L1 L2 v, (forall sr w, R sr w <-> R' sr w) -> (run_weight R L1 L2 v <-> run_weight R' L1 L2 v).
Proof.
  intros R R' L1 L2 v H. split; intros (c1 & c2 & H1 & H2 & H3); exists c1, c2; ands; auto; eapply wreach_iff; try exact H3; intros sr w; apply H.
Qed.

(** Enough fuel changes nothing. *)
Lemma h_run_mono : forall P X et ptop f st k, h_run P X et ptop f st <> Some None -> h_run P X et ptop (f + k) st = h_run P X et ptop f st.
Proof.
  intros P X et ptop f. induction f as [|f IH]; intros st k H.
  - cbn [Nat.add]. cbn in H. destruct k; cbn; destruct (h_ws st); auto; destruct (match et with Some _ => h_found st | None => false end); auto; congruence.
  - cbn [Nat.add h_run] in *. destruct (h_ws st); auto. destruct (match et with Some _ => h_found st | None => false end); auto. destruct (h_step P X et ptop st); auto.
Qed.

Section Short.
  Variable P : pda.
  Hypothesis WP : wf_pda P.
  Variable top : list (Z * nat) -> nat.
  Hypothesis TM : top_max Z zcomp top.
  Hypothesis TP : top_push Z top.
  Variable ptop : nat -> list (Z * (edge * trace)) -> nat.
  Hypothesis PT : forall k l, l <> [] -> exists x, nth_error l (ptop k l) = Some x /\ forall y, In y l -> (fst x <= fst y)%Z.
  Variables init fin : waut.
  Hypothesis OK : post_ok P (wa_aut init).
  Hypothesis WS : aut_wf (wa_aut fin).
  Hypothesis HS : pd_n P <= a_size (wa_aut fin).
  Hypothesis ZI : forall e, w_of init e = 0%Z.
  Hypothesis ZF : forall e, w_of fin e = 0%Z.
  Hypothesis NN : forall p id r ls, get_rule P p id = Some (r, ls) -> (0 <= r_w r)%Z.
  Hypothesis NA : forall p, p < pd_n P -> aut_final (wa_aut init) p -> aut_final (wa_aut fin) p -> False.
  Let n := pd_n P.
  Let Rw := pda_wrules P.
  Let L1 := aut_lang n (wa_aut init).
  Let L2 := aut_lang n (wa_aut fin).
  Let A1w := mk_waut (fst (qp_init P (wa_aut init))) (wa_w init).

  Definition J (A : waut) (sp : sprod) : Prop := sbase n A fin sp /\ all_clean n A fin sp /\ ~ accepted_within sp (Some 0%Z).
  Definition JT (A : waut) (sp : sprod) (A' : waut) (sp' : sprod) (etp : Z) : Prop := sbase n A' fin sp' /\ sle n sp sp' /\ accepted_within sp' (Some etp).

  Lemma NSf : forall e, (0 <= w_of fin e)%Z.
  Proof. intros. rewrite ZF. lia. Qed.
  Lemma init_size : n <= a_size (wa_aut init).
  Proof. apply OK. Qed.
  Lemma init_wf : aut_wf (wa_aut init).
  Proof. constructor; [apply OK|]. intros q l q' H. destruct (qk_range _ _ OK _ _ _ H) as (K1 & K2 & _). split; auto. lia. Qed.
  Lemma A1_final : forall q, aut_final (fst (qp_init P (wa_aut init))) q -> aut_final (wa_aut init) q.
  Proof.
    intros q. unfold aut_final. destruct (qo_acc _ _ (proj1 (qp_init_ok P (wa_aut init)))) as [k Ek]. rewrite Ek. intros H.
    destruct (Nat.lt_ge_cases q (a_size (wa_aut init))) as [L|L]; [rewrite nth_error_app1 in H by exact L; auto|].
    rewrite nth_error_app2 in H by exact L. apply nth_error_In in H. apply repeat_spec in H. discriminate.
  Qed.

  Section Good.
    Variable A : waut.
    Hypothesis G : goodA P init A.
    Lemma good_size : a_size (wa_aut A) = a_size (fst (qp_init P (wa_aut init))).
    Proof. unfold a_size. rewrite (ga_acc _ _ _ G). auto. Qed.
    Lemma good_n : n <= a_size (wa_aut A).
    Proof. rewrite good_size. pose proof init_size. pose proof (nQ_N P (wa_aut init)) as Q. unfold n in *. specialize (Q (qk_n _ _ OK)). lia. Qed.
    Lemma good_wf : aut_wf (wa_aut A).
    Proof.
      constructor.
      - intros q l. rewrite (ga_ord _ _ _ G). apply OK.
      - intros q l q' H. destruct (ga_range _ _ _ G _ H) as (R1 & [_ R2] & _). cbn in *. rewrite good_size. auto.
    Qed.
    Lemma good_NA : forall p, p < n -> aut_final (wa_aut A) p -> aut_final (wa_aut fin) p -> False.
    Proof. intros p Hp H1 H2. unfold aut_final in H1. rewrite (ga_acc _ _ _ G) in H1. apply A1_final in H1. eapply NA; eauto. Qed.
  End Good.

  Lemma add_same : forall A e tr w A', wa_add_edge A e tr w = Some A' ->
    (forall x y z, aut_edges (wa_aut A) x y z -> aut_edges (wa_aut A') x y z /\ w_of A' (mk_edge x y z) = w_of A (mk_edge x y z)) /\
    (forall x y z, aut_edges (wa_aut A') x y z -> aut_edges (wa_aut A) x y z \/ (x = e_src e /\ y = e_lab e /\ z = e_dst e)).
  Proof.
    intros A e tr w A' H. unfold wa_add_edge in H. destruct (emplace_edge (wa_aut A) e tr) as [[B b]|] eqn:E; [|discriminate]. cbn in H. injection H as <-. destruct b; cbn [wa_aut]; [|split; auto].
    unfold emplace_edge in E. destruct (Nat.ltb (e_src e) (a_size (wa_aut A))); [|discriminate]. destruct (find_edge e (a_edges (wa_aut A))) eqn:F; [discriminate|]. injection E as <-. apply find_edge_None in F. split.
    - intros x y z H. split; [right; exact H|]. unfold w_of. cbn [wa_w]. rewrite w_find_cons. destruct (edge_eq_dec e (mk_edge x y z)) as [->|]; auto. contradiction.
    - intros x y z [H|H]; auto. right. cbn in H. rewrite H. auto.
  Qed.

  Lemma call_spec : forall A sp e tr w A' etp, J A sp -> goodA P init A -> goodA P init A' -> wa_add_edge A e tr w = Some A' -> w_of A' e = w -> (0 <= etp)%Z ->
    In e (map fst (a_edges (wa_aut A'))) -> exists b sp', cb_short P top fin A' sp e tr w etp = Some (b, sp') /\ if b then JT A sp A' sp' etp else J A' sp'.
  Proof.
    intros A sp e tr w A' etp (J1 & J2 & J3) G G' EA Hw Hetp Hin. destruct (add_same _ _ _ _ _ EA) as [S1 S2].
    assert (SB : sbase n A' fin sp).
    { eapply sbase_mono; [exact J1|apply good_n; auto|auto|auto|rewrite !good_size; auto|]. intros q _. rewrite (ga_acc _ _ _ G), (ga_acc _ _ _ G'). auto. }
    unfold cb_short. rewrite <- Hw. fold n.
    destruct (sp_add_edge_spec n top TM TP A' fin (good_wf _ G') WS (good_n _ G') HS (ga_nn _ _ _ G') NSf (good_NA _ G') (aut_edges (wa_aut A)) sp e (Some etp) SB) as (b & sp' & E & O1 & O2 & O3 & O4).
    - destruct e as [x y z]; exact Hin.
    - exact S2.
    - intros id Hid. eapply clean_ext; [apply J2; auto|]. intros x y z H. symmetry. apply S1; auto.
    - exists b, sp'. split; auto. destruct b.
      + split; auto. split; auto. apply O3. auto.
      + split; auto. split; auto. intros (q & d & K1 & K2 & K3). assert (false = true); [|discriminate]. apply O3. exists q, d. ands; auto. lia.
  Qed.

  (** Edges that were there from the beginning change nothing. *)
  Lemma call_again : forall A sp e tr, J A sp -> goodA P init A -> In e (map fst (a_edges (wa_aut A))) ->
    exists sp', cb_short P top fin A sp e tr (w_of A e) 0%Z = Some (false, sp') /\ J A sp'.
  Proof.
    intros A sp e tr (J1 & J2 & J3) G Hin. unfold cb_short. fold n.
    destruct (sp_add_edge_spec n top TM TP A fin (good_wf _ G) WS (good_n _ G) HS (ga_nn _ _ _ G) NSf (good_NA _ G) (aut_edges (wa_aut A)) sp e (Some 0%Z) J1) as (b & sp' & E & O1 & O2 & O3 & O4); auto.
    { destruct e as [x y z]; exact Hin. }
    assert (NAC : ~ accepted_within sp' (Some 0%Z)).
    { intros (q & d & K1 & K2 & K3). destruct (final_best n A fin (good_n _ G) HS (good_NA _ G) sp' q O1 K1) as [Lq _].
      assert (Hd : dist n sp' q = Some d) by (unfold dist; destruct (Nat.ltb_spec q n); [lia|auto]). pose proof (pb_0 _ _ _ _ _ (sb_base _ _ _ _ O1)) as B'. pose proof (pb_0 _ _ _ _ _ (sb_base _ _ _ _ J1)) as B.
      assert (Lq' : q < psz (sp_pr sp')) by (apply nth_error_lt in K1; auto). destruct (proj1 (pair_lt n _ _ _ (good_n _ G) HS (sp_pr sp') q B') Lq') as [[a b0] HP].
      destruct (sattained n A fin (good_n _ G) HS sp' q a b0 d O1 HP Hd) as (p & w & v & Hp & HJ & Lv).
      destruct (scomplete n A fin (good_n _ G) HS (aut_edges (wa_aut A)) sp J1 J2 p w v a b0 Hp HJ) as (id & d0 & P1 & P2 & P3). apply (pb_acc _ _ _ _ _ B' _ _ _ HP) in K1.
      assert (FI : aut_final (pr_aut (sp_pr sp)) id) by (apply (pb_acc _ _ _ _ _ B _ _ _ P1); auto). destruct (final_best n A fin (good_n _ G) HS (good_NA _ G) sp id J1 FI) as [Li _].
      apply J3. exists id, d0. ands; auto; [|lia]. unfold dist in P2. destruct (Nat.ltb_spec id n); [lia|auto]. }
    destruct b; [exfalso; apply NAC; apply O3; auto|]. exists sp'. split; auto. split; auto.
  Qed.

  Definition answer (o : option (apth nat * Z)) : Prop :=
    match o with
    | None => forall v, ~ run_weight Rw L1 L2 v
    | Some (p, d) => least_weight Rw L1 L2 d /\ L2 (ap_front p, word (ap_stack p)) /\ exists c, L1 c /\ wreach Rw c d (ap_front p, word (ap_stack p))
    end.

  (** What a product automaton with all small runs answers. [D]: below it every run is represented. *)
  Lemma answer_spec : forall D st sp, kst P sprod init D st -> sbase n (h_aut st) fin sp ->
    (forall v, run_weight Rw L1 L2 v -> (exists q d, aut_final (pr_aut (sp_pr sp)) q /\ best sp q = Some d /\ (d <= v)%Z)) ->
    exists o, path_shortest sp = Some o /\ answer o.
  Proof.
    intros D st sp K SB HC. assert (G := k_good _ _ _ _ _ K).
    destruct (path_shortest_spec n (h_aut st) fin (good_n _ G) HS (good_NA _ G) sp SB) as [[H1 H2]|(p & d & a & b & w & v & H1 & H2 & H3 & H4 & H5 & H6 & H7 & H8 & H9 & H10)].
    - exists None. split; auto. intros v Hv. destruct (HC v Hv) as (q & d & K1 & _). assert (has_accepting (sp_pr sp) = true) by (apply has_accepting_spec; eauto). congruence.
    - exists (Some (p, d)). split; auto. rewrite <- H7 in H8. destruct (jsound_run P sprod init OK D st (wa_aut fin) (w_of fin) _ _ v a b K ZF H3 H8 H5 H6) as [Q1 (c & Q2 & Q3)].
      assert (RW : run_weight Rw L1 L2 v) by (exists c, (ap_front p, word (ap_stack p)); auto). destruct (HC v RW) as (q & d' & K1 & K2 & K3). specialize (H10 q d' K1 K2). assert (d = v) by lia. subst d. cbn. split; [split; auto|split; [auto|exists c; auto]].
      + intros v' Hv'. destruct (HC v' Hv') as (q2 & d2 & M1 & M2 & M3). clear H10. destruct (path_shortest_spec n (h_aut st) fin (good_n _ G) HS (good_NA _ G) sp SB) as [[_ X]|(p2 & dd & a2 & b2 & w2 & v2 & X1 & _ & _ & _ & _ & _ & _ & _ & _ & X2)]; [congruence|].
        rewrite H1 in X1. injection X1 as <- <-. specialize (X2 q2 d2 M1 M2). lia.
  Qed.

  (** A run below [D] ends in an accepting product state. *)
  Lemma below_best : forall D st sp, kst P sprod init D st -> kcl P sprod init None st -> sbase n (h_aut st) fin sp -> all_clean n (h_aut st) fin sp ->
    forall v, run_weight Rw L1 L2 v -> (v < D)%Z -> exists q d, aut_final (pr_aut (sp_pr sp)) q /\ best sp q = Some d /\ (d <= v)%Z.
  Proof.
    intros D st sp K C SB AC v HR HD. assert (G := k_good _ _ _ _ _ K). destruct (below_jpath P WP sprod init OK NN D st K C (wa_aut fin) (w_of fin) v ZF HR HD) as (p & w & v' & a & b & Hp & HJ & Lv & Fa & Fb).
    destruct (scomplete n (h_aut st) fin (good_n _ G) HS (aut_edges (wa_aut (h_aut st))) sp SB AC p w v' a b Hp HJ) as (id & d0 & P1 & P2 & P3). pose proof (pb_0 _ _ _ _ _ (sb_base _ _ _ _ SB)) as B.
    assert (FI : aut_final (pr_aut (sp_pr sp)) id) by (apply (pb_acc _ _ _ _ _ B _ _ _ P1); auto). destruct (final_best n _ fin (good_n _ G) HS (good_NA _ G) sp id SB FI) as [Li _].
    exists id, d0. ands; auto; [|lia]. unfold dist in P2. destruct (Nat.ltb_spec id n); [lia|auto].
  Qed.

  Variable ord : nat -> list nat -> list nat.
  Hypothesis HO : forall q l, Permutation (ord q l) l.
  Variable inst : sinst.
  Hypothesis HI : new_sinst P ord init fin = Some inst.

  Lemma short_spec : exists fuel0 b I', (forall fuel, fuel0 <= fuel -> post_star_short P top ptop fuel inst = done (b, I')) /\ si_fin I' = fin /\
    exists o, path_shortest (si_prod I') = Some o /\ answer o /\ (b = true -> o <> None).
  Proof.
    unfold new_sinst in HI. destruct (pr_new_spec n (wa_aut init) (wa_aut fin) false init_size HS ord HO) as (pr & E1 & B & Hn). fold n in HI. rewrite E1 in HI. cbn in HI.
    assert (EI : inst = mk_sinst init fin (mk_sprod pr [])) by congruence. rewrite EI. clear HI EI.
    assert (SB0 : sbase n init fin (mk_sprod pr [])).
    { constructor; cbn; auto.
      - intros id H. lia.
      - intros id f l w H. discriminate.
      - intros id H. rewrite Hn in H. exists [id]. constructor. auto. }
    assert (NI : forall e, (0 <= w_of init e)%Z) by (intros; rewrite ZI; lia).
    destruct (sp_initialize_spec n top TM TP init fin init_wf WS init_size HS NI NSf NA (mk_sprod pr []) SB0 Hn) as (b & sp & Ei & O1 & O2 & O3 & O4).
    unfold post_star_short. cbn [si_init si_fin si_prod]. fold n. rewrite Ei. cbn [obind fst snd]. destruct b.
    - exists 0, true, (mk_sinst init fin sp). split; auto. split; auto. cbn [si_prod].
      destruct (proj1 O3 eq_refl) as (q & d & K1 & K2 & K3).
      destruct (path_shortest_spec n init fin init_size HS NA sp O1) as [[H1 H2]|(p & d1 & a & b & w & v & H1 & H2 & H3 & H4 & H5 & H6 & H7 & H8 & H9 & H10)].
      { assert (has_accepting (sp_pr sp) = true) by (apply has_accepting_spec; eauto). congruence. }
      exists (Some (p, d1)). split; auto. split; [|congruence]. assert (Ev := jpath_zero _ _ _ _ _ _ _ _ _ _ ZI ZF H8). subst v. specialize (H10 q d K1 K2). assert (d1 = 0)%Z by lia. subst d1. rewrite <- H7 in H8.
      destruct (jpath_apath _ _ _ _ _ _ _ _ _ _ H8) as [Q1 Q2]. assert (I1 : L1 (ap_front p, word (ap_stack p))) by (split; auto; exists a; auto). assert (I2 : L2 (ap_front p, word (ap_stack p))) by (split; auto; exists b; auto).
      cbn. split; [split|split; auto].
      + exists (ap_front p, word (ap_stack p)), (ap_front p, word (ap_stack p)). ands; auto. constructor.
      + intros v (c1 & c2 & _ & _ & HW). eapply wreach_nn; eauto.
      + exists (ap_front p, word (ap_stack p)). split; auto. constructor.
    - assert (JA : J A1w sp).
      { destruct (proj1 (qp_init_ok P (wa_aut init))) as [Q1 Q2 [k Q3] Q4 Q5]. assert (EE : aut_edges (wa_aut A1w) = aut_edges (wa_aut init)) by (unfold aut_edges; cbn; rewrite Q1; auto). split; [|split].
        - eapply sbase_mono; [exact O1|apply init_size|auto| | |].
          + intros x y z H. rewrite EE. auto.
          + cbn. unfold a_size. rewrite Q3, app_length. lia.
          + intros q Hq. cbn. rewrite Q3, nth_error_app1; auto.
        - intros id Hid. fold n. unfold all_clean in O4. eapply clean_ext; [rewrite EE; apply O4; auto|]. auto.
        - intros H. apply O3 in H. discriminate. }
      assert (GA : goodA P init A1w) by (apply A1w_good; auto).
      destruct (init_spec P sprod (Some (cb_short P top fin)) init OK ZI NN J JT) with (x := sp) as (st & E & K & C & HJ & Hf); auto.
      + discriminate.
      + intros f A x e tr w A' etp Ef. injection Ef as <-. apply call_spec.
      + intros f x e tr Ef. injection Ef as <-. intros HJ Hin _. apply call_again; auto. cbn. rewrite (qo_edges _ _ (proj1 (qp_init_ok P (wa_aut init)))). auto.
      + rewrite E. cbn [obind].
        destruct (run_spec P WP sprod (Some (cb_short P top fin)) ptop PT init OK NN J JT) with (k := pend P sprod init st) (m := length (h_ws st)) (D := 0%Z) (st := st) as (fuel0 & [st' b] & Ho & Hr); auto.
        * discriminate.
        * intros f A x e tr w A' etp Ef. injection Ef as <-. apply call_spec.
        * exists fuel0, b, (mk_sinst (h_aut st') fin (h_x st')). split; [intros fuel L; rewrite Hr by auto; auto|]. split; auto. cbn [si_prod]. unfold outcome in Ho. cbn [fst snd] in Ho. destruct b.
          -- destruct Ho as (stp & D & LD & Kp & Cp & Hq & (Jp1 & Jp2 & _) & K' & C' & _ & (T1 & T2 & T3)).
             destruct T3 as (qa & da & Fa & Ba & La).
             assert (HC : forall v, run_weight Rw L1 L2 v -> exists q d, aut_final (pr_aut (sp_pr (h_x st'))) q /\ best (h_x st') q = Some d /\ (d <= v)%Z).
             { intros v HR. destruct (Z.lt_ge_cases v D) as [L|L]; [|exists qa, da; ands; auto; lia].
               destruct (below_best D stp (h_x stp) Kp Cp Jp1 Jp2 v HR L) as (q & d & K1 & K2 & K3). destruct T2 as (T0 & _ & T2). assert (Gp := k_good _ _ _ _ _ Kp). assert (G' := k_good _ _ _ _ _ K').
               destruct (final_best n _ fin (good_n _ Gp) HS (good_NA _ Gp) _ q Jp1 K1) as [Lq _]. pose proof (pb_0 _ _ _ _ _ (sb_base _ _ _ _ Jp1)) as Bp. pose proof (pb_0 _ _ _ _ _ (sb_base _ _ _ _ T1)) as B'.
               assert (Lq' : q < psz (sp_pr (h_x stp))) by (apply nth_error_lt in K1; auto). destruct (proj1 (pair_lt n _ _ _ (good_n _ Gp) HS (sp_pr (h_x stp)) q Bp) Lq') as [[a b0] HP].
               apply (pb_acc _ _ _ _ _ Bp _ _ _ HP) in K1. destruct (T2 q d) as (d' & E' & Ld); [unfold dist; destruct (Nat.ltb_spec q n); [lia|auto]|]. exists q, d'. ands; [|unfold dist in E'; destruct (Nat.ltb_spec q n); [lia|auto]|lia].
               apply (pb_acc _ _ _ _ _ B' _ a b0); [eapply ext_pair; eauto|]. unfold aut_final in *. rewrite (ga_acc _ _ _ G'), <- (ga_acc _ _ _ Gp). auto. }
             destruct (answer_spec D st' (h_x st') K' T1 HC) as (o & Eo & Ao). exists o. ands; auto. intros _ ->. unfold path_shortest in Eo. assert (HA : has_accepting (sp_pr (h_x st')) = true) by (apply has_accepting_spec; eauto). rewrite HA in Eo.
             destruct (min_accepting (h_x st')) as [m|]; [cbn [obind] in Eo|discriminate]. destruct (back_path _ _ _ _); discriminate.
          -- destruct Ho as (D & K' & C' & Hw & (Jp1 & Jp2 & _)).
             assert (HC : forall v, run_weight Rw L1 L2 v -> exists q d, aut_final (pr_aut (sp_pr (h_x st'))) q /\ best (h_x st') q = Some d /\ (d <= v)%Z).
             { intros v HR. assert (K2 : kst P sprod init (Z.max D (v + 1)) st') by (apply (kst_raise P sprod init D); auto; [lia|rewrite Hw; intros ? []]). eapply below_best; eauto. lia. }
             destruct (answer_spec D st' (h_x st') K' Jp1 HC) as (o & Eo & Ao). exists o. ands; auto. discriminate.
  Qed.
End Short.
