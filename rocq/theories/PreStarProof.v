(** Correctness of the pre* saturation loop: invariants, termination, soundness and completeness. *)
From Coq Require Import List Arith Lia Bool ZArith Permutation Sorted.
From Verif Require Import Base BaseFacts Spec SpecFacts PdaModel PdaProof AutModel AutProof PreStarModel.
Import ListNotations.

(** An edge list obtained from [base] by adding edges one at a time, each justified by a rule and older edges. *)
Definition justified_pre (P : pda) (older : list (edge * trace)) (e : edge) (tr : trace) : Prop :=
  exists id tmp r ls l, tr = TPre id tmp /\ get_rule P (e_src e) id = Some (r, ls) /\ e_lab e = Some l /\
    matches (pd_nlab P) ls l /\
    match r_op r with
    | POP => tmp = None /\ e_dst e = r_to r
    | SWAP => tmp = None /\ edges_of older (r_to r) (Some (r_opl r)) (e_dst e)
    | NOOP => tmp = None /\ edges_of older (r_to r) (Some l) (e_dst e)
    | PUSH => exists s, tmp = Some s /\ edges_of older (r_to r) (Some (r_opl r)) s /\ edges_of older s (Some l) (e_dst e)
    end.

Inductive wj_pre (P : pda) (base : list (edge * trace)) : list (edge * trace) -> Prop :=
| wj_base : wj_pre P base base
| wj_cons : forall older e tr, wj_pre P base older -> justified_pre P older e tr -> wj_pre P base ((e, tr) :: older).

Lemma edges_of_app : forall new old q l q', edges_of old q l q' -> edges_of (new ++ old) q l q'.
Proof. intros. unfold edges_of in *. rewrite map_app. apply in_or_app; auto. Qed.

Lemma justified_pre_app : forall P new old e tr, justified_pre P old e tr -> justified_pre P (new ++ old) e tr.
Proof.
  intros P new old e tr [id [tmp [r [ls [l [H1 [H2 [H3 [H4 H5]]]]]]]]].
  exists id, tmp, r, ls, l. repeat split; auto.
  destruct (r_op r); auto.
  - destruct H5 as [s [? [? ?]]]. exists s; repeat split; auto using edges_of_app.
  - destruct H5; split; auto using edges_of_app.
  - destruct H5; split; auto using edges_of_app.
Qed.

(** The rule order makes the look-up by lower_bound complete, unless a rule pushes label 0 with negative weight. *)
Definition lookup_ok (P : pda) : Prop :=
  forall p r ls, In (r, ls) (rules_at P p) -> r_op r = PUSH -> r_opl r = 0 -> (0 <= r_w r)%Z.

Lemma visited_In : forall rs q id x, In (id, x) (visited rs q) -> nth_error rs id = Some x /\ r_to (fst x) = q.
Proof.
  intros rs q id x H. unfold visited in H. apply take_while_In in H. destruct H as [H1 H2]. cbn in H2.
  apply drop_while_In in H1. apply enum_In in H1. apply Nat.eqb_eq in H2. auto.
Qed.

Lemma key_least : forall r q, r_to r = q -> (r_op r = PUSH -> r_opl r = 0 -> (0 <= r_w r)%Z) -> rule_ltb r (key q) = false.
Proof.
  intros r q E H. destruct (rule_ltb r (key q)) eqn:L; auto. apply rule_ltb_spec in L. exfalso.
  unfold rlt, key in L; cbn in L. destruct L as [L|[_ [L|[E0 [L|[E1 L]]]]]]; try lia.
  - destruct (r_op r); cbn in L; lia.
  - assert (r_op r = PUSH) by (apply op_num_inj; auto). specialize (H H0 E0). lia.
Qed.

Lemma visited_gen : forall rs q i,
  rsorted rs -> (forall r ls, In (r, ls) rs -> r_to r = q -> r_op r = PUSH -> r_opl r = 0 -> (0 <= r_w r)%Z) ->
  take_while (fun x : nat * (rule * labels) => Nat.eqb (r_to (fst (snd x))) q)
      (drop_while (fun x => rule_ltb (fst (snd x)) (key q)) (enum_from i rs)) =
  filter (fun x => Nat.eqb (r_to (fst (snd x))) q) (enum_from i rs).
Proof.
  induction rs as [|[r ls] rs IH]; intros q i Hs Hn; cbn; auto.
  apply rsorted_cons in Hs. destruct Hs as [Hs Hr]. cbn in Hr.
  assert (IH' := IH q (S i) Hs (fun r' ls' Hin => Hn r' ls' (or_intror Hin))).
  destruct (rule_ltb r (key q)) eqn:L.
  - destruct (Nat.eqb (r_to r) q) eqn:E; auto. apply Nat.eqb_eq in E.
    rewrite key_least in L; try discriminate; auto. intros; eapply Hn; cbn; eauto.
  - cbn. assert (G: q <= r_to r).
    { apply rule_ltb_false in L. destruct L as [->|L]; [cbn; lia|]. unfold rlt, key in L; cbn in L. lia. }
    destruct (Nat.eqb (r_to r) q) eqn:E.
    + f_equal. rewrite <- IH'.
      assert (D: drop_while (fun x : nat * (rule * labels) => rule_ltb (fst (snd x)) (key q)) (enum_from (S i) rs) = enum_from (S i) rs).
      { destruct rs as [|[r' ls'] rs']; auto. cbn. assert (Hlt := Hr _ (or_introl eq_refl)); cbn in Hlt.
        assert (Z: rule_ltb r' (key q) = false).
        { apply rule_ltb_false. apply rule_ltb_false in L. right. destruct L as [->|L]; auto. eapply rlt_trans; eauto. }
        rewrite Z; auto. }
      rewrite D; auto.
    + apply Nat.eqb_neq in E. assert (G': q < r_to r) by lia. symmetry.
      assert (F: forall j l, (forall y, In y l -> rlt r (fst y)) -> filter (fun x : nat * (rule * labels) => Nat.eqb (r_to (fst (snd x))) q) (enum_from j l) = []).
      { intros j l; revert j. induction l as [|y l IHl]; intros j Hl; cbn; auto.
        assert (Hy := Hl _ (or_introl eq_refl)). unfold rlt in Hy.
        destruct (Nat.eqb (r_to (fst y)) q) eqn:Ey; [apply Nat.eqb_eq in Ey; lia|].
        apply IHl; intros; apply Hl; cbn; auto. }
      apply F; auto.
Qed.

(** The iteration by lower_bound visits exactly the rules into [q], in order. *)
Lemma visited_filter : forall P p q, wf_pda P -> lookup_ok P ->
  visited (rules_at P p) q = filter (fun x => Nat.eqb (r_to (fst (snd x))) q) (enum (rules_at P p)).
Proof.
  intros P p q W L. apply visited_gen.
  - apply (wf'_rules _ (wf_wf_pda' _ W)).
  - intros. eapply L; eauto.
Qed.

Lemma visited_complete : forall P p q id r ls, wf_pda P -> lookup_ok P ->
  nth_error (rules_at P p) id = Some (r, ls) -> r_to r = q -> In (id, (r, ls)) (visited (rules_at P p) q).
Proof.
  intros. rewrite visited_filter by auto. apply filter_In; split; [apply enum_In; auto|cbn; apply Nat.eqb_eq; auto].
Qed.

Lemma get_rule_at : forall P p id x, get_rule P p id = Some x <-> nth_error (rules_at P p) id = Some x.
Proof.
  intros. unfold get_rule, rules_at. destruct (nth_error (pd_states P) p) eqn:E; cbn.
  - rewrite (nth_error_nth_default _ _ _ _ empty_pstate E). tauto.
  - apply nth_error_None in E. rewrite nth_overflow by auto. cbn. destruct id; cbn; split; discriminate.
Qed.

Section Inv.
  Variable P : pda.
  Hypothesis WP : wf_pda P.
  Variable X : Type.
  Variable et : option (aut -> X -> edge -> trace -> option (bool * X)).
  Variable A0 : aut.
  Let N := a_size A0.
  Let n := pd_n P.
  Hypothesis HnN : n <= N.
  Hypothesis HO : wf_ord A0.

  Definition in_range (e : edge) : Prop :=
    e_src e < N /\ e_dst e < N /\ exists l, e_lab e = Some l /\ l < pd_nlab P.

  (** What the early-termination callback preserves. *)
  Variable J : aut -> X -> bool -> Prop.
  Hypothesis J_none : et = None -> forall A x e t A', J A x false -> emplace_edge A e t = Some (A', true) -> J A' x false.
  Hypothesis J_true : forall A x e t A', J A x true -> emplace_edge A e t = Some (A', true) -> J A' x true.
  Hypothesis J_call : forall f A x e t A', et = Some f -> J A x false -> a_acc A = a_acc A0 -> a_ord A = a_ord A0 ->
    (forall e', In e' (map fst (a_edges A)) -> in_range e') -> in_range e ->
    emplace_edge A e t = Some (A', true) ->
    exists b x', f A' x e t = Some (b, x') /\ J A' x' b.

  Definition ES (st : pre_st X) : list edge := map fst (a_edges (p_aut st)).

  Record base (st : pre_st X) : Prop := {
    b_acc : a_acc (p_aut st) = a_acc A0;
    b_ord : a_ord (p_aut st) = a_ord A0;
    b_wj : wj_pre P (a_edges A0) (a_edges (p_aut st));
    b_nd : NoDup (ES st);
    b_range : forall e, In e (ES st) -> in_range e;
    b_ws : forall e, In e (p_ws st) -> In e (ES st);
    b_rel : forall e, In e (p_rel st) -> In e (ES st);
    b_delta : forall s p id, In (s, (p, id)) (p_delta st) -> exists r ls, get_rule P p id = Some (r, ls) /\ r_op r = PUSH /\
        In (mk_edge (r_to r) (Some (r_opl r)) s) (ES st);
    b_pop : length (p_popped st) = n;
    b_J : J (p_aut st) (p_x st) (p_found st);
    b_et : et = None -> p_found st = false }.

  (** Progress inside one step: edges are only added, and each new one is pushed. *)
  Record lei (st st' : pre_st X) : Prop := {
    l_new : exists new, a_edges (p_aut st') = new ++ a_edges (p_aut st) /\ p_ws st' = map fst new ++ p_ws st;
    l_rel : p_rel st' = p_rel st;
    l_popped : p_popped st' = p_popped st;
    l_delta : p_delta st' = p_delta st }.

  Lemma lei_refl : forall st, lei st st.
  Proof. intros; constructor; auto. exists []; auto. Qed.
  Lemma lei_trans : forall a b c, lei a b -> lei b c -> lei a c.
  Proof.
    intros a b c [[n1 [A1 A2]] B1 C1 D1] [[n2 [A3 A4]] B2 C2 D2]. constructor; try congruence.
    exists (n2 ++ n1). rewrite A3, A1, A4, A2, map_app, !app_assoc. auto.
  Qed.
  Lemma lei_ES : forall st st' e, lei st st' -> In e (ES st) -> In e (ES st').
  Proof. intros st st' e [[new [A _]] _ _ _] H. unfold ES in *. rewrite A, map_app. apply in_or_app; auto. Qed.
  Lemma lei_just : forall st st' e t, lei st st' -> justified_pre P (a_edges (p_aut st)) e t -> justified_pre P (a_edges (p_aut st')) e t.
  Proof. intros st st' e t [[new [A _]] _ _ _] H. rewrite A. apply justified_pre_app; auto. Qed.
  Lemma base_acc_size : forall st, base st -> a_size (p_aut st) = N.
  Proof. intros st B. unfold a_size. rewrite (b_acc _ B). auto. Qed.

  Lemma pre_insert_spec : forall st e t, base st -> in_range e -> justified_pre P (a_edges (p_aut st)) e t ->
    exists st', pre_insert X et st e t = Some st' /\ base st' /\ lei st st' /\ In e (ES st').
  Proof.
    intros st e t B Hr Hj. unfold pre_insert.
    destruct (emplace_edge (p_aut st) e t) as [[A' fr]|] eqn:EM.
    2:{ unfold emplace_edge in EM. rewrite (base_acc_size _ B) in EM. destruct Hr as [Hr _]. apply Nat.ltb_lt in Hr. rewrite Hr in EM.
        destruct (find_edge e (a_edges (p_aut st))); discriminate. }
    pose proof EM as EM0. unfold emplace_edge in EM. destruct (Nat.ltb (e_src e) (a_size (p_aut st))); [|discriminate].
    cbn [obind fst snd]. destruct (find_edge e (a_edges (p_aut st))) eqn:F.
    - injection EM as <- <-. exists st. ands; auto using lei_refl.
      apply find_edge_Some in F. apply (in_map fst) in F. exact F.
    - injection EM as <- <-. apply find_edge_None in F.
      set (A' := mk_aut (a_acc (p_aut st)) ((e, t) :: a_edges (p_aut st)) (a_ord (p_aut st))) in *.
      assert (K: forall fnd x, J A' x fnd -> (et = None -> fnd = false) ->
         base (mk_pre A' (e :: p_ws st) (p_rel st) (p_delta st) (p_popped st) fnd x)).
      { intros fnd x HJ HE. destruct B. constructor; cbn; auto.
        - constructor; auto.
        - constructor; auto.
        - intros e' [<-|H]; auto.
        - intros e' [<-|H]; [left; auto|right; apply b_ws0; auto].
        - intros s p id H. destruct (b_delta0 _ _ _ H) as [r [ls [H1 [H2 H3]]]]. exists r, ls; ands; auto. }
      assert (Lx: forall fnd x, lei st (mk_pre A' (e :: p_ws st) (p_rel st) (p_delta st) (p_popped st) fnd x)).
      { intros; constructor; cbn; auto. exists [(e,t)]; auto. }
      pose proof (b_J _ B) as BJ. pose proof (b_et _ B) as BE.
      destruct et as [f|] eqn:Eet.
      + destruct (p_found st) eqn:Ef.
        * eexists; split; [reflexivity|]. ands; auto; [|left; auto].
          apply K; [|intros; discriminate]. eapply J_true; eauto.
        * destruct (J_call f (p_aut st) (p_x st) e t A' eq_refl) as [b [x' [F1 F2]]]; auto; try apply B.
          rewrite F1. cbn [obind fst snd]. eexists; split; [reflexivity|]. ands; auto; [|left; auto].
          apply K; auto. intros; discriminate.
      + eexists; split; [reflexivity|]. ands; auto; [|left; auto].
        rewrite (BE eq_refl) in *. apply K; auto. eapply J_none; eauto.
  Qed.

  Lemma bulk_labels_In : forall ls l, In l (bulk_labels P ls) <-> matches (pd_nlab P) ls l.
  Proof. intros. unfold bulk_labels, matches. destruct (wild ls); [rewrite in_seq; lia|tauto]. Qed.

  Lemma pre_bulk_spec : forall st p ls q t, base st -> p < N -> q < N -> wf_labels (pd_nlab P) ls ->
    (forall l, matches (pd_nlab P) ls l -> justified_pre P (a_edges (p_aut st)) (mk_edge p (Some l) q) t) ->
    exists st', pre_bulk P X et st p ls q t = Some st' /\ base st' /\ lei st st' /\
      (forall l, matches (pd_nlab P) ls l -> In (mk_edge p (Some l) q) (ES st')).
  Proof.
    intros st p ls q t B Hp Hq Wl Hj. unfold pre_bulk.
    destruct (ofold_rule _ _ (fun st l => pre_insert X et st (mk_edge p (Some l) q) t)
      (fun s => base s /\ lei st s) lei (fun l s => In (mk_edge p (Some l) q) (ES s)) (bulk_labels P ls)) with (s := st)
      as [st' [E1 [[E2 E3] [E4 E5]]]].
    - apply lei_refl.
    - apply lei_trans.
    - intros; eapply lei_ES; eauto.
    - intros l s Hl [Bs Ls]. apply bulk_labels_In in Hl.
      destruct (pre_insert_spec s (mk_edge p (Some l) q) t) as [s' [F1 [F2 [F3 F4]]]]; auto.
      + unfold in_range; ands; cbn; auto. exists l; split; auto. eapply matches_lt; eauto.
      + eapply lei_just; eauto.
      + exists s'. ands; auto. eapply lei_trans; eauto.
    - split; auto using lei_refl.
    - exists st'. ands; auto. intros l Hl. apply E5. apply bulk_labels_In; auto.
  Qed.

  (** The same with a growing delta'. *)
  Record led (st st' : pre_st X) : Prop := {
    d_new : exists new, a_edges (p_aut st') = new ++ a_edges (p_aut st) /\ p_ws st' = map fst new ++ p_ws st;
    d_rel : p_rel st' = p_rel st;
    d_popped : p_popped st' = p_popped st;
    d_delta : exists nd, p_delta st' = nd ++ p_delta st }.

  Lemma lei_led : forall a b, lei a b -> led a b.
  Proof. intros a b [? ? ? ?]; constructor; auto. exists []; auto. Qed.
  Lemma led_refl : forall st, led st st.
  Proof. intros; apply lei_led, lei_refl. Qed.
  Lemma led_trans : forall a b c, led a b -> led b c -> led a c.
  Proof.
    intros a b c [[n1 [A1 A2]] B1 C1 [d1 D1]] [[n2 [A3 A4]] B2 C2 [d2 D2]]. constructor; try congruence.
    - exists (n2 ++ n1). rewrite A3, A1, A4, A2, map_app, !app_assoc. auto.
    - exists (d2 ++ d1). rewrite D2, D1, app_assoc; auto.
  Qed.
  Lemma led_ES : forall st st' e, led st st' -> In e (ES st) -> In e (ES st').
  Proof. intros st st' e [[new [A _]] _ _ _] H. unfold ES in *. rewrite A, map_app. apply in_or_app; auto. Qed.
  Lemma led_just : forall st st' e t, led st st' -> justified_pre P (a_edges (p_aut st)) e t -> justified_pre P (a_edges (p_aut st')) e t.
  Proof. intros st st' e t [[new [A _]] _ _ _] H. rewrite A. apply justified_pre_app; auto. Qed.
  Lemma led_delta : forall st st' d, led st st' -> In d (p_delta st) -> In d (p_delta st').
  Proof. intros st st' d [_ _ _ [nd D]] H. rewrite D. apply in_or_app; auto. Qed.

  (** The double loop "for pre_state in _pre_states, for rules of pre_state into q". *)
  Lemma rules_loop : forall (g : nat -> pre_st X -> nat * (rule * labels) -> option (pre_st X)) q sq
      (I : pre_st X -> Prop) (le : pre_st X -> pre_st X -> Prop) (Q : nat -> nat * (rule * labels) -> pre_st X -> Prop),
    nth_error (pd_states P) q = Some sq ->
    (forall s, le s s) -> (forall a b c, le a b -> le b c -> le a c) ->
    (forall p x s s', Q p x s -> le s s' -> Q p x s') ->
    (forall p x s, p < n -> In x (visited (rules_at P p) q) -> I s -> exists s', g p s x = Some s' /\ I s' /\ le s s' /\ Q p x s') ->
    forall s, I s -> exists s',
      ofold (fun st pre => s' <- nth_error (pd_states P) pre ;; ofold (g pre) (visited (ps_rules s') q) st) (ps_pre sq) s = Some s' /\
      I s' /\ le s s' /\ (forall p x, In x (visited (rules_at P p) q) -> Q p x s').
  Proof.
    intros g q sq I le Q Eq Hr Ht HQ Hb s Hs.
    destruct (ofold_rule _ _ (fun st pre => s' <- nth_error (pd_states P) pre ;; ofold (g pre) (visited (ps_rules s') q) st)
       I le (fun p s => forall x, In x (visited (rules_at P p) q) -> Q p x s) (ps_pre sq)) with (s := s) as [s' [E1 [E2 [E3 E4]]]]; eauto.
    - intros p s0 Hp Hs0. apply (wf_pre_lt _ WP _ _ _ Eq) in Hp. destruct (nth_error_ex _ _ _ Hp) as [sp Ep].
      rewrite Ep; cbn. rewrite (nth_error_rules_at _ _ _ Ep).
      destruct (ofold_rule _ _ (g p) I le (Q p) (visited (rules_at P p) q)) with (s := s0) as [s' [E1 [E2 [E3 E4]]]]; eauto.
    - exists s'. ands; auto. intros p x Hx. apply E4; auto.
      destruct x as [id [r ls]]. apply visited_In in Hx. destruct Hx as [H1 H2]. cbn in H2.
      assert (Hin := nth_error_In _ _ H1). pose proof (In_rules_lt _ _ _ Hin) as L. destruct (nth_error_ex _ _ _ L) as [sp Es].
      eapply (wf_pre _ WP); eauto. rewrite (nth_error_rules_at _ _ _ Es). eauto.
  Qed.

  Lemma visited_facts : forall p q id r ls, In (id, (r, ls)) (visited (rules_at P p) q) ->
    p < n /\ q < n /\ r_to r = q /\ get_rule P p id = Some (r, ls) /\ wf_labels (pd_nlab P) ls.
  Proof.
    intros p q id r ls H. apply visited_In in H. destruct H as [H1 H2]. cbn in H2.
    assert (Hin := nth_error_In _ _ H1). pose proof (wf_wf_pda' _ WP) as W.
    ands; auto.
    - eapply In_rules_lt; eauto.
    - subst q. eapply (wf'_to _ W); eauto.
    - apply get_rule_at; auto.
    - eapply (wf'_labs _ W); eauto.
  Qed.

  (** Pop edges of a popped state are present. *)
  Definition popped_ok (st : pre_st X) : Prop := forall q p id r ls l,
    nth_error (p_popped st) q = Some true -> In (id, (r, ls)) (visited (rules_at P p) q) -> r_op r = POP ->
    matches (pd_nlab P) ls l -> In (mk_edge p (Some l) q) (ES st).

  Lemma pop_just : forall p q id r ls l es, get_rule P p id = Some (r, ls) -> r_to r = q -> r_op r = POP ->
    matches (pd_nlab P) ls l -> justified_pre P es (mk_edge p (Some l) q) (TPre id None).
  Proof. intros. exists id, None, r, ls, l. rewrite H1. cbn. ands; auto. Qed.

  Lemma base_set_popped : forall st q, base st -> base (set_popped X st q).
  Proof.
    intros st q B. destruct B. constructor; cbn; auto.
    rewrite upd_length; auto.
  Qed.

  Lemma popped_upd : forall l q q', nth_error (upd l q true) q' = Some true -> q' = q \/ nth_error l q' = Some true.
  Proof.
    intros l q q' H. destruct (Nat.eq_dec q q'); [auto|]. rewrite nth_error_upd_neq in H; auto.
  Qed.

  Lemma add_pop_spec : forall st q, base st -> popped_ok st ->
    exists st', add_pop P X et st q = Some st' /\ base st' /\ popped_ok st' /\
      (exists new, a_edges (p_aut st') = new ++ a_edges (p_aut st) /\ p_ws st' = map fst new ++ p_ws st) /\
      p_rel st' = p_rel st /\ p_delta st' = p_delta st /\
      (forall q', nth_error (p_popped st) q' = Some true -> nth_error (p_popped st') q' = Some true) /\
      (q < n -> nth_error (p_popped st') q = Some true).
  Proof.
    intros st q B HP. unfold add_pop. fold n. destruct (Nat.leb_spec n q) as [L|L].
    { exists st. ands; auto; [exists []; auto|lia]. }
    destruct (nth_error_ex _ (p_popped st) q) as [b Eb]; [rewrite (b_pop _ B); auto|].
    rewrite Eb; cbn. destruct b.
    { exists st. ands; auto. exists []; auto. }
    destruct (nth_error_ex _ (pd_states P) q L) as [sq Eq]. rewrite Eq; cbn.
    destruct (rules_loop (fun pre st (x : nat * (rule * labels)) => match r_op (fst (snd x)) with
                   | POP => pre_bulk P X et st pre (snd (snd x)) q (TPre (fst x) None)
                   | _ => Some st
                   end) q sq (fun s => base s) lei
        (fun p x s => r_op (fst (snd x)) = POP -> forall l, matches (pd_nlab P) (snd (snd x)) l -> In (mk_edge p (Some l) q) (ES s)))
      with (s := st) as [st1 [E1 [E2 [E3 E4]]]]; auto using lei_refl.
    - apply lei_trans.
    - intros. eapply lei_ES; eauto.
    - intros p [id [r ls]] s Hp Hx Bs. cbn. destruct (visited_facts _ _ _ _ _ Hx) as [V1 [V2 [V3 [V4 V5]]]].
      destruct (r_op r) eqn:Er; try (exists s; ands; auto using lei_refl; intros; discriminate).
      destruct (pre_bulk_spec s p ls q (TPre id None)) as [s' [F1 [F2 [F3 F4]]]]; auto; try lia.
      + intros; eapply pop_just; eauto.
      + exists s'. ands; auto.
    - rewrite E1; cbn. exists (set_popped X st1 q). destruct E3 as [E31 E32 E33 E34].
      ands; auto using base_set_popped.
      + intros q' p id r ls l Hq' Hv Ho Hm. cbn in Hq'. apply popped_upd in Hq'. destruct Hq' as [->|Hq'].
        * eapply (E4 p (id, (r, ls))); eauto.
        * rewrite E33 in Hq'. apply (lei_ES st st1); [constructor; eauto|]. eapply HP; eauto.
      + intros q' Hq'. cbn. rewrite E33. destruct (Nat.eq_dec q q'); [subst|].
        * rewrite nth_error_upd_eq; auto. eapply nth_error_lt; eauto.
        * rewrite nth_error_upd_neq; auto.
      + intros _. cbn. apply nth_error_upd_eq. rewrite E33, (b_pop _ B); auto.
  Qed.

  (** Every edge is waiting or processed. *)
  Definition covered (st : pre_st X) : Prop := forall e, In e (ES st) -> In e (p_ws st) \/ In e (p_rel st).

  Definition delta_ok (st : pre_st X) : Prop := forall s p id r ls t,
    In (s, (p, id)) (p_delta st) -> get_rule P p id = Some (r, ls) -> In t (p_rel st) -> e_src t = s ->
    contains_lab ls (e_lab t) = true -> In (mk_edge p (e_lab t) (e_dst t)) (ES st).

  Definition rule_done (st : pre_st X) (t : edge) (p id : nat) (r : rule) (ls : labels) : Prop :=
    match r_op r with
    | POP => forall l, matches (pd_nlab P) ls l -> In (mk_edge p (Some l) (e_src t)) (ES st)
    | SWAP => e_lab t = Some (r_opl r) -> forall l, matches (pd_nlab P) ls l -> In (mk_edge p (Some l) (e_dst t)) (ES st)
    | NOOP => contains_lab ls (e_lab t) = true -> In (mk_edge p (e_lab t) (e_dst t)) (ES st)
    | PUSH => e_lab t = Some (r_opl r) -> In (e_dst t, (p, id)) (p_delta st)
    end.

  Definition rules_ok (st : pre_st X) (L : list edge) : Prop := forall t p id r ls, In t L ->
    In (id, (r, ls)) (visited (rules_at P p) (e_src t)) -> rule_done st t p id r ls.

  Lemma rule_done_mono : forall st st' t p id r ls,
    (forall e, In e (ES st) -> In e (ES st')) -> (forall d, In d (p_delta st) -> In d (p_delta st')) ->
    rule_done st t p id r ls -> rule_done st' t p id r ls.
  Proof. intros st st' t p id r ls H1 H2. unfold rule_done. destruct (r_op r); auto. Qed.

  Record sat_inv (st : pre_st X) : Prop := {
    si_base : base st;
    si_popped : popped_ok st;
    si_cov : covered st;
    si_delta : delta_ok st;
    si_rules : rules_ok st (p_rel st);
    si_acc : forall q, q < n -> nth_error (a_acc A0) q = Some true -> nth_error (p_popped st) q = Some true }.

  Lemma contains_matches : forall ls e l, wf_labels (pd_nlab P) ls -> in_range e -> e_lab e = Some l ->
    contains_lab ls (e_lab e) = true -> matches (pd_nlab P) ls l.
  Proof.
    intros ls e l W [_ [_ [l' [E L]]]] El H. rewrite E in El. injection El as ->. rewrite E in H. cbn in H.
    eapply contains_spec; eauto.
  Qed.

  Lemma get_rule_facts : forall p id r ls, get_rule P p id = Some (r, ls) -> p < n /\ r_to r < n /\ wf_labels (pd_nlab P) ls.
  Proof.
    intros p id r ls H. apply get_rule_at in H. assert (Hin := nth_error_In _ _ H). pose proof (wf_wf_pda' _ WP) as W.
    ands; [eapply In_rules_lt|eapply (wf'_to _ W)|eapply (wf'_labs _ W)]; eauto.
  Qed.

  (** The loop over delta' for the edge [t]. *)
  Lemma pre_delta_loop_spec : forall st t, base st -> In t (ES st) ->
    exists st', pre_delta_loop P X et st t = Some st' /\ base st' /\ lei st st' /\
      (forall p id r ls, In (e_src t, (p, id)) (p_delta st) -> get_rule P p id = Some (r, ls) ->
         contains_lab ls (e_lab t) = true -> In (mk_edge p (e_lab t) (e_dst t)) (ES st')).
  Proof.
    intros st t B Ht. unfold pre_delta_loop, delta_of. unfold p_N. rewrite (base_acc_size _ B).
    pose proof (b_range _ B _ Ht) as Hr. destruct Hr as [R1 [R2 [l [R3 R4]]]].
    assert (R1b := R1). apply Nat.ltb_lt in R1b. rewrite R1b. cbn.
    set (ds := rev (map snd (filter (fun d => Nat.eqb (fst d) (e_src t)) (p_delta st)))).
    assert (Hds: forall p id, In (p, id) ds <-> In (e_src t, (p, id)) (p_delta st)).
    { intros p id. unfold ds. rewrite <- in_rev, in_map_iff. split.
      - intros [[s d] [E H]]. cbn in E; subst d. apply filter_In in H. destruct H as [H1 H2]. cbn in H2. apply Nat.eqb_eq in H2; subst; auto.
      - intros H. exists (e_src t, (p, id)); split; auto. apply filter_In; split; auto. cbn; apply Nat.eqb_refl. }
    destruct (ofold_rule _ _ (fun st (d : nat * nat) =>
      rl <- get_rule P (fst d) (snd d) ;;
      if contains_lab (snd rl) (e_lab t)
      then pre_insert X et st (mk_edge (fst d) (e_lab t) (e_dst t)) (TPre (snd d) (Some (e_src t)))
      else Some st) (fun s => base s /\ lei st s) lei
      (fun d s => forall r ls, get_rule P (fst d) (snd d) = Some (r, ls) -> contains_lab ls (e_lab t) = true ->
          In (mk_edge (fst d) (e_lab t) (e_dst t)) (ES s)) ds) with (s := st) as [st' [E1 [[E2 E3] [E4 E5]]]].
    - apply lei_refl.
    - apply lei_trans.
    - intros. eapply lei_ES; eauto.
    - intros [p id] s Hd [Bs Ls]. cbn. apply Hds in Hd. destruct (b_delta _ B _ _ _ Hd) as [r [ls [G1 [G2 G3]]]].
      rewrite G1; cbn. destruct (get_rule_facts _ _ _ _ G1) as [K1 [K2 K3]].
      destruct (contains_lab ls (e_lab t)) eqn:C.
      + destruct (pre_insert_spec s (mk_edge p (e_lab t) (e_dst t)) (TPre id (Some (e_src t)))) as [s' [F1 [F2 [F3 F4]]]]; auto.
        * unfold in_range; cbn; ands; auto; try lia. eauto.
        * eapply lei_just; eauto. exists id, (Some (e_src t)), r, ls, l; cbn. ands; auto.
          -- eapply contains_matches; eauto. unfold in_range; ands; eauto.
          -- rewrite G2. exists (e_src t). ands; auto. unfold edges_of. rewrite <- R3. destruct t; exact Ht.
        * exists s'. ands; auto. eapply lei_trans; eauto.
      + exists s. ands; auto using lei_refl. intros r' ls' G. injection G as <- <-. congruence.
    - split; auto using lei_refl.
    - exists st'. ands; auto. intros p id r ls Hd G C. eapply (E5 (p, id)); cbn; eauto. apply Hds; auto.
  Qed.

  Lemma base_add_rel : forall st t, base st -> In t (ES st) -> base (add_rel X st t).
  Proof. intros st t B Ht. destruct B. constructor; cbn; auto. intros e [<-|H]; auto. Qed.

  (** One rule in the loop over Delta. *)
  Lemma pre_rule_spec : forall t pre id r ls s, base s -> delta_ok s -> popped_ok s -> In t (p_rel s) ->
    In (id, (r, ls)) (visited (rules_at P pre) (e_src t)) ->
    exists s', pre_rule P X et t pre s (id, (r, ls)) = Some s' /\ base s' /\ delta_ok s' /\ popped_ok s' /\ led s s' /\
      rule_done s' t pre id r ls.
  Proof.
    intros t pre id r ls s B HD HP Ht Hv. destruct (visited_facts _ _ _ _ _ Hv) as [V1 [V2 [V3 [V4 V5]]]].
    assert (Ht' := b_rel _ B _ Ht). pose proof (b_range _ B _ Ht') as Hr. destruct Hr as [R1 [R2 [l [R3 R4]]]].
    assert (Gl: forall s', lei s s' -> base s' -> base s' /\ delta_ok s' /\ popped_ok s' /\ led s s').
    { intros s' L' B'. ands; auto using lei_led.
      - intros s0 p id0 r0 ls0 t0 H1 H2 H3 H4 H5. rewrite (l_delta _ _ L') in H1. rewrite (l_rel _ _ L') in H3.
        eapply lei_ES; eauto.
      - intros q p id0 r0 ls0 l0 H1 H2 H3 H4. rewrite (l_popped _ _ L') in H1. eapply lei_ES; eauto. }
    unfold pre_rule. cbn [fst snd]. unfold rule_done. destruct (r_op r) eqn:Er.
    - (* PUSH *)
      rewrite R3. cbn. destruct (Nat.eqb (r_opl r) l) eqn:El.
      2:{ exists s. ands; auto using led_refl. intros E; injection E as ->. rewrite Nat.eqb_refl in El; discriminate. }
      apply Nat.eqb_eq in El; subst l.
      set (s1 := add_delta X s (e_dst t, (pre, id))).
      assert (B1: base s1).
      { unfold s1. pose proof B as B'. destruct B'. constructor; cbn; auto. intros s0 p id0 [H|H].
        - injection H as <- <- <-. exists r, ls. ands; auto. rewrite V3, <- R3. destruct t; exact Ht'.
        - eauto. }
      assert (Ls1: led s s1). { constructor; cbn; auto; [exists []; auto|exists [(e_dst t, (pre, id))]; auto]. }
      unfold rel_of, p_N. rewrite (base_acc_size _ B1). assert (R2b := R2). apply Nat.ltb_lt in R2b. rewrite R2b. cbn [obind].
      set (rs := rev (filter (fun e => Nat.eqb (e_src e) (e_dst t)) (p_rel s1))).
      assert (Hrs: forall e, In e rs <-> In e (p_rel s) /\ e_src e = e_dst t).
      { intros e. unfold rs. rewrite <- in_rev, filter_In, Nat.eqb_eq. tauto. }
      destruct (ofold_rule _ _ (fun st e =>
            if contains_lab ls (e_lab e)
            then pre_insert X et st (mk_edge pre (e_lab e) (e_dst e)) (TPre id (Some (e_dst t)))
            else Some st) (fun s' => base s' /\ lei s1 s') lei
            (fun e s' => contains_lab ls (e_lab e) = true -> In (mk_edge pre (e_lab e) (e_dst e)) (ES s')) rs)
        with (s := s1) as [s' [E1 [[E2 E3] [E4 E5]]]].
      + apply lei_refl.
      + apply lei_trans.
      + intros. eapply lei_ES; eauto.
      + intros e s0 He [Bs Ls]. apply Hrs in He. destruct He as [He1 He2]. assert (He1' := b_rel _ B _ He1).
        destruct (contains_lab ls (e_lab e)) eqn:C; [|exists s0; ands; auto using lei_refl; discriminate].
        pose proof (b_range _ B _ He1') as Hr'. destruct Hr' as [Q1 [Q2 [l' [Q3 Q4]]]].
        destruct (pre_insert_spec s0 (mk_edge pre (e_lab e) (e_dst e)) (TPre id (Some (e_dst t)))) as [s' [F1 [F2 [F3 F4]]]]; auto.
        * unfold in_range; cbn; ands; auto; try lia. eauto.
        * eapply lei_just; eauto. exists id, (Some (e_dst t)), r, ls, l'; cbn. ands; auto.
          -- eapply (contains_matches ls e); eauto. unfold in_range; ands; eauto.
          -- rewrite Er. exists (e_dst t). ands; auto; unfold edges_of.
             ++ rewrite V3, <- R3. destruct t; exact Ht'.
             ++ rewrite <- Q3, <- He2. destruct e; exact He1'.
        * exists s'. ands; auto. eapply lei_trans; eauto.
      + split; auto using lei_refl.
      + exists s'. ands; auto.
        * intros s0 p0 id0 r0 ls0 t0 H1 H2 H3 H4 H5. rewrite (l_delta _ _ E3) in H1. rewrite (l_rel _ _ E3) in H3.
          cbn in H1, H3. destruct H1 as [H1|H1].
          -- injection H1 as <- <- <-. rewrite V4 in H2. injection H2 as <- <-. apply E5; auto. apply Hrs; auto.
          -- apply (lei_ES s1 s'); auto. change (In (mk_edge p0 (e_lab t0) (e_dst t0)) (ES s)). eapply HD; eauto.
        * intros q p id0 r0 ls0 l0 H1 H2 H3 H4. rewrite (l_popped _ _ E3) in H1. apply (lei_ES s1 s'); auto.
          change (In (mk_edge p (Some l0) q) (ES s)). eapply HP; eauto.
        * eapply led_trans; [exact Ls1|apply lei_led; auto].
        * intros _. rewrite (l_delta _ _ E3). left; auto.
    - (* POP *)
      destruct (nth_error_ex _ (p_popped s) (e_src t)) as [b Eb]; [rewrite (b_pop _ B); auto|].
      rewrite Eb; cbn. destruct b.
      + exists s. ands; auto using led_refl. intros. eapply HP; eauto.
      + destruct (pre_bulk_spec s pre ls (e_src t) (TPre id None)) as [s' [F1 [F2 [F3 F4]]]]; auto; try lia.
        * intros; eapply pop_just; eauto.
        * destruct (Gl s' F3 F2) as [G1 [G2 [G3 G4]]]. exists s'. ands; auto.
    - (* SWAP *)
      rewrite R3. cbn. destruct (Nat.eqb (r_opl r) l) eqn:El.
      2:{ exists s. ands; auto using led_refl. intros E; injection E as ->. rewrite Nat.eqb_refl in El; discriminate. }
      apply Nat.eqb_eq in El; subst l.
      destruct (pre_bulk_spec s pre ls (e_dst t) (TPre id None)) as [s' [F1 [F2 [F3 F4]]]]; auto; try lia.
      + intros l' Hl'. exists id, None, r, ls, l'. cbn. ands; auto. rewrite Er. split; auto.
        unfold edges_of. rewrite V3, <- R3. destruct t; exact Ht'.
      + destruct (Gl s' F3 F2) as [G1 [G2 [G3 G4]]]. exists s'. ands; auto.
    - (* NOOP *)
      destruct (contains_lab ls (e_lab t)) eqn:C.
      2:{ exists s. ands; auto using led_refl. discriminate. }
      destruct (pre_insert_spec s (mk_edge pre (e_lab t) (e_dst t)) (TPre id None)) as [s' [F1 [F2 [F3 F4]]]]; auto.
      + unfold in_range; cbn; ands; auto; try lia. eauto.
      + exists id, None, r, ls, l. cbn. ands; auto.
        * eapply (contains_matches ls t); eauto. unfold in_range; ands; eauto.
        * rewrite Er. split; auto. unfold edges_of. rewrite V3, <- R3. destruct t; exact Ht'.
      + destruct (Gl s' F3 F2) as [G1 [G2 [G3 G4]]]. exists s'. ands; auto.
  Qed.

  Lemma pre_step_spec : forall st t ws, sat_inv st -> p_ws st = t :: ws ->
    exists st', pre_step P X et st = Some st' /\ sat_inv st' /\
      (exists new, a_edges (p_aut st') = new ++ a_edges (p_aut st) /\ p_ws st' = map fst new ++ ws).
  Proof.
    intros st t ws [B HP HC HD HR HA] Ews. unfold pre_step. rewrite Ews.
    set (st0 := mk_pre (p_aut st) ws (p_rel st) (p_delta st) (p_popped st) (p_found st) (p_x st)).
    assert (Ht: In t (ES st)). { apply (b_ws _ B). rewrite Ews; left; auto. }
    assert (B0: base st0).
    { pose proof B as B'. destruct B'. constructor; cbn; auto. intros e He. apply b_ws0. rewrite Ews; right; auto. }
    unfold p_N at 1. rewrite (base_acc_size _ B0).
    pose proof (b_range _ B _ Ht) as Hr. destruct Hr as [R1 [R2 [l [R3 R4]]]].
    assert (R1b := R1). apply Nat.ltb_lt in R1b. rewrite R1b.
    set (st1 := add_rel X st0 t).
    assert (B1: base st1) by (apply base_add_rel; auto).
    destruct (pre_delta_loop_spec st1 t B1 Ht) as [st2 [D1 [D2 [D3 D4]]]].
    cbn [obind]. rewrite D1. cbn [obind].
    assert (L2: p_rel st2 = t :: p_rel st) by (rewrite (l_rel _ _ D3); auto).
    assert (HD2: delta_ok st2).
    { intros s p id r ls t0 H1 H2 H3 H4 H5. rewrite (l_delta _ _ D3) in H1. rewrite L2 in H3. destruct H3 as [<-|H3].
      - subst s. eapply D4; eauto.
      - apply (lei_ES st1 st2); auto. change (In (mk_edge p (e_lab t0) (e_dst t0)) (ES st)). eapply HD; eauto. }
    assert (HP2: popped_ok st2).
    { intros q p id r ls l0 H1 H2 H3 H4. rewrite (l_popped _ _ D3) in H1. apply (lei_ES st1 st2); auto.
      change (In (mk_edge p (Some l0) q) (ES st)). eapply HP; eauto. }
    assert (HC2: covered st2).
    { destruct (l_new _ _ D3) as [new [N1 N2]]. intros e He. unfold ES in He. rewrite N1, map_app in He. rewrite N2, L2.
      apply in_app_or in He. destruct He as [He|He]; [left; apply in_or_app; auto|].
      destruct (HC e He) as [H|H]; [|right; right; auto]. rewrite Ews in H. destruct H as [<-|H]; [right; left; auto|].
      left. apply in_or_app; right; auto. }
    assert (HR2: rules_ok st2 (p_rel st)).
    { intros t0 p id r ls H1 H2. eapply rule_done_mono; [| |eapply HR; eauto].
      - intros e He. apply (lei_ES st1 st2); auto.
      - intros d Hd. rewrite (l_delta _ _ D3). auto. }
    destruct (Nat.leb_spec (pd_n P) (e_src t)) as [Lq|Lq].
    - exists st2. split; auto. split.
      + constructor; auto.
        * rewrite L2. intros t0 p id r ls [<-|H1] H2; [|eauto]. apply visited_facts in H2. lia.
        * intros q Hq Ha. rewrite (l_popped _ _ D3). apply HA; auto.
      + destruct (l_new _ _ D3) as [new [N1 N2]]. exists new; auto.
    - destruct (nth_error_ex _ (pd_states P) (e_src t) Lq) as [sq Eq]. rewrite Eq; cbn [obind].
      destruct (rules_loop (fun pre => pre_rule P X et t pre) (e_src t) sq
         (fun s => base s /\ delta_ok s /\ popped_ok s /\ led st2 s) led
         (fun p x s => rule_done s t p (fst x) (fst (snd x)) (snd (snd x)))) with (s := st2)
        as [st3 [E1 [[E2 [E3 [E4 E5]]] [E6 E7]]]]; auto using led_refl.
      + apply led_trans.
      + intros p x s s' H1 H2. eapply (rule_done_mono s s'); [| |exact H1]; intros; [eapply led_ES; eauto|eapply led_delta; eauto].
      + intros p [id [r ls]] s Hp Hx [Bs [Ds [Ps Ls]]].
        destruct (pre_rule_spec t p id r ls s) as [s' [F1 [F2 [F3 [F4 [F5 F6]]]]]]; auto.
        * rewrite (d_rel _ _ Ls), L2; left; auto.
        * exists s'. ands; auto. eapply led_trans; eauto.
      + rewrite E1. cbn [obind]. exists (set_popped X st3 (e_src t)). split; auto.
        destruct (d_new _ _ E5) as [new [N1 N2]]. destruct (l_new _ _ D3) as [new0 [N3 N4]].
        assert (NN: exists new, a_edges (p_aut st3) = new ++ a_edges (p_aut st) /\ p_ws st3 = map fst new ++ ws).
        { exists (new ++ new0). rewrite N1, N3, N2, N4, map_app, !app_assoc. auto. }
        split; [|exact NN].
        assert (P3: p_popped st3 = p_popped st) by (rewrite (d_popped _ _ E5), (l_popped _ _ D3); auto).
        constructor; auto using base_set_popped.
        * intros q p id r ls l0 H1 H2 H3 H4. cbn in H1. apply popped_upd in H1. destruct H1 as [->|H1].
          -- assert (K := E7 p (id, (r, ls)) H2). unfold rule_done in K. cbn in K. rewrite H3 in K. apply K; auto.
          -- change (In (mk_edge p (Some l0) q) (ES st3)). eapply E4; eauto.
        * intros e He. change (In e (ES st3)) in He. cbn. unfold ES in He. rewrite N1, map_app in He.
          rewrite N2, (d_rel _ _ E5). apply in_app_or in He. destruct He as [He|He]; [left; apply in_or_app; auto|].
          destruct (HC2 e He); auto. left; apply in_or_app; auto.
        * intros t0 p id r ls H1 H2. change (p_rel (set_popped X st3 (e_src t))) with (p_rel st3) in H1.
          change (rule_done st3 t0 p id r ls). rewrite (d_rel _ _ E5), L2 in H1. destruct H1 as [<-|H1].
          -- apply (E7 p (id, (r, ls))); auto.
          -- eapply rule_done_mono; [| |eapply HR2; eauto]; intros; [eapply led_ES|eapply led_delta]; eauto.
        * intros q Hq Ha. cbn. rewrite P3. destruct (Nat.eq_dec (e_src t) q) as [<-|Hne].
          -- apply nth_error_upd_eq. rewrite (b_pop _ B); auto.
          -- rewrite nth_error_upd_neq; auto.
  Qed.

  Lemma wj_incl : forall es e, wj_pre P (a_edges A0) es -> In e (map fst (a_edges A0)) -> In e (map fst es).
  Proof. intros es e H; induction H; auto. intros; right; auto. Qed.

  (** The pushes of the edges of one state in [initialize]. *)
  Lemma push_all : forall A q ts (st : pre_st X), p_aut st = A -> exists W,
    fold_left (fun st t => fold_left (fun st l => push_ws X st (mk_edge q l t)) (labels_between (p_aut st) q t) st) ts st =
      mk_pre (p_aut st) (W ++ p_ws st) (p_rel st) (p_delta st) (p_popped st) (p_found st) (p_x st) /\
    (forall e, In e W <-> e_src e = q /\ In (e_dst e) ts /\ In (e_lab e) (labels_between A q (e_dst e))).
  Proof.
    intros A q. assert (G: forall t ls (st : pre_st X), exists W,
      fold_left (fun st l => push_ws X st (mk_edge q l t)) ls st =
        mk_pre (p_aut st) (W ++ p_ws st) (p_rel st) (p_delta st) (p_popped st) (p_found st) (p_x st) /\
      (forall e, In e W <-> e_src e = q /\ e_dst e = t /\ In (e_lab e) ls)).
    { intros t. induction ls as [|l ls IH]; intros st; cbn.
      - exists []. split; [destruct st; auto|]. cbn; tauto.
      - destruct (IH (push_ws X st (mk_edge q l t))) as [W [E1 E2]]. cbn in E1. exists (W ++ [mk_edge q l t]). split.
        + rewrite E1, <- app_assoc. auto.
        + intros e. rewrite in_app_iff, E2. cbn. split.
          * intros [H|[<-|[]]]; cbn; intuition.
          * intros [H1 [H2 [H3|H3]]]; [|left; auto]. right. left. destruct e; cbn in *; congruence. }
    induction ts as [|t ts IH]; intros st EA; cbn [fold_left].
    - exists []. split; [destruct st; auto|]. cbn; tauto.
    - destruct (G t (labels_between (p_aut st) q t) st) as [W1 [E1 E2]]. rewrite E1.
      destruct (IH (mk_pre (p_aut st) (W1 ++ p_ws st) (p_rel st) (p_delta st) (p_popped st) (p_found st) (p_x st)) EA) as [W2 [E3 E4]].
      cbn [p_aut p_ws p_rel p_delta p_popped p_found p_x] in E3. rewrite E3. exists (W2 ++ W1). split; [rewrite <- app_assoc; auto|].
      intros e. rewrite in_app_iff, E4, E2. cbn. subst A. split.
      + intros [H|[H1 [H2 H3]]]; [intuition|]. subst. auto.
      + intros [H1 [[H2|H2] H3]]; [right; subst; auto|left; auto].
  Qed.

  Lemma base_ws : forall st W, base st -> (forall e, In e W -> In e (ES st)) ->
    base (mk_pre (p_aut st) W (p_rel st) (p_delta st) (p_popped st) (p_found st) (p_x st)).
  Proof. intros st W B HW. destruct B. constructor; cbn; auto. Qed.

  Lemma pre_init_spec : forall x0, J A0 x0 false -> NoDup (map fst (a_edges A0)) ->
    (forall e, In e (map fst (a_edges A0)) -> in_range e) ->
    exists st, pre_init P X et A0 x0 = Some st /\ sat_inv st.
  Proof.
    intros x0 HJ Hnd Hrng. unfold pre_init. fold N.
    set (s0 := mk_pre A0 [] [] [] (repeat false (pd_n P)) false x0).
    assert (B0: base s0).
    { constructor; cbn; auto; try tauto. apply wj_base. apply repeat_length. }
    destruct (ofold_rule _ _ (pre_init_state P X et)
      (fun s => base s /\ popped_ok s /\ p_rel s = [] /\ p_delta s = [] /\
         (forall e, In e (ES s) -> In e (map fst (a_edges A0)) \/ In e (p_ws s)))
      (fun s s' => (forall e, In e (p_ws s) -> In e (p_ws s')) /\
         (forall q, nth_error (p_popped s) q = Some true -> nth_error (p_popped s') q = Some true))
      (fun q s => (forall e, In e (map fst (a_edges A0)) -> e_src e = q -> In e (p_ws s)) /\
         (q < n -> nth_error (a_acc A0) q = Some true -> nth_error (p_popped s) q = Some true))
      (seq 0 N)) with (s := s0) as [st [E1 [[E2 [E3 [E4 [E5 E6]]]] [_ E8]]]].
    - auto.
    - intros a b c [H1 H2] [H3 H4]; split; auto.
    - intros q s s' [H1 H2] [H3 H4]; split; auto.
    - intros q s Hq [B [HP [Hrel [Hdel Hcov]]]]. apply in_seq in Hq. unfold pre_init_state.
      destruct (push_all (p_aut s) q (tos (p_aut s) q) s eq_refl) as [W [F1 F2]]. rewrite F1.
      set (s1 := mk_pre (p_aut s) (W ++ p_ws s) (p_rel s) (p_delta s) (p_popped s) (p_found s) (p_x s)).
      assert (HW: forall e, In e W <-> In e (ES s) /\ e_src e = q).
      { intros e. rewrite F2, labels_between_In. unfold aut_edges, edges_of, ES. split.
        - intros [H1 [H2 H3]]. subst q. split; auto. destruct e; exact H3.
        - intros [H1 H2]. ands; auto.
          + apply tos_In; [unfold wf_ord; rewrite (b_ord _ B); auto|]. exists (e_lab e). unfold aut_edges, edges_of. subst q. destruct e; exact H1.
          + subst q. destruct e; exact H1. }
      assert (B1: base s1).
      { apply base_ws; auto. intros e He. apply in_app_or in He. destruct He as [He|He]; [apply HW in He; tauto|apply (b_ws _ B); auto]. }
      assert (Ha: exists b, nth_error (a_acc A0) q = Some b).
      { apply nth_error_ex. change (length (a_acc A0)) with N. lia. }
      destruct Ha as [b Hb]. unfold accepting. change (p_aut s1) with (p_aut s). rewrite (b_acc _ B), Hb. cbn [obind].
      assert (Q1: forall e, In e (map fst (a_edges A0)) -> e_src e = q -> In e (W ++ p_ws s)).
      { intros e He1 He2. apply in_or_app; left. apply HW; split; auto. eapply wj_incl; eauto. apply B. }
      destruct b.
      + destruct (add_pop_spec s1 q B1 HP) as [s2 [G1 [G2 [G3 [[new [G4 G4']] [G5 [G6 [G7 G8]]]]]]]].
        exists s2. ands; auto.
        * rewrite G5; auto.
        * rewrite G6; auto.
        * intros e He. rewrite G4'. unfold ES in He. rewrite G4, map_app in He. apply in_app_or in He.
          destruct He as [He|He]; [right; apply in_or_app; auto|]. destruct (Hcov e He); auto.
          right. apply in_or_app; right. apply in_or_app; auto.
        * intros e He. rewrite G4'. apply in_or_app; right. apply in_or_app; auto.
        * intros e He1 He2. rewrite G4'. apply in_or_app; right. apply Q1; auto.
      + exists s1. ands; auto.
        * intros e He. destruct (Hcov e He); auto. right. apply in_or_app; auto.
        * intros e He. apply in_or_app; auto.
        * congruence.
    - ands; auto. intros q p id r ls l H. cbn in H. exfalso.
      clear - H. revert q H. induction (pd_n P); intros [|q] H; cbn in H; try discriminate. eauto.
    - exists st. split; auto. constructor; auto.
      + intros e He. left. destruct (E6 e He) as [H|H]; auto. apply (E8 (e_src e)); auto.
        apply in_seq. destruct (Hrng e H) as [H1 _]. lia.
      + intros s p id r ls t H. rewrite E5 in H. destruct H.
      + rewrite E4. intros t p id r ls [].
      + intros q Hq Ha. apply (E8 q); auto. apply in_seq. lia.
  Qed.

  (** Universe of edges. *)
  Definition universe : list edge :=
    map (fun x => mk_edge (fst (fst x)) (Some (snd (fst x))) (snd x)) (list_prod (list_prod (seq 0 N) (seq 0 (pd_nlab P))) (seq 0 N)).
  Lemma universe_length : length universe = N * pd_nlab P * N.
  Proof. unfold universe. rewrite map_length, !prod_length, !seq_length. auto. Qed.
  Lemma in_range_universe : forall e, in_range e -> In e universe.
  Proof.
    intros [s lb d] [H1 [H2 [l [H3 H4]]]]. cbn in *. subst lb. unfold universe. apply in_map_iff.
    exists (s, l, d). split; auto. apply in_prod; [apply in_prod|]; apply in_seq; lia.
  Qed.
  Lemma base_bound : forall st, base st -> length (a_edges (p_aut st)) <= N * pd_nlab P * N.
  Proof.
    intros st B. rewrite <- universe_length. rewrite <- (map_length fst). apply NoDup_incl_length; [apply B|].
    intros e He. apply in_range_universe. apply B; auto.
  Qed.

  Lemma pre_run_spec : forall fuel st, sat_inv st ->
    length (p_ws st) + (N * pd_nlab P * N - length (a_edges (p_aut st))) <= fuel ->
    exists st' b, pre_run P X et fuel st = Some (Some (st', b)) /\ sat_inv st' /\ b = p_found st' /\
      (p_ws st' = [] \/ (p_found st' = true /\ et <> None)).
  Proof.
    induction fuel as [|fuel IH]; intros st HI Hm; cbn [pre_run].
    - destruct (p_ws st) eqn:Ew; [|cbn in Hm; lia]. exists st, (p_found st). ands; auto.
    - destruct (p_ws st) as [|t ws] eqn:Ew.
      { exists st, (p_found st). ands; auto. }
      destruct (match et with Some _ => p_found st | None => false end) eqn:EF.
      { exists st, true. destruct et; [|discriminate]. ands; auto. right; split; auto. discriminate. }
      destruct (pre_step_spec st t ws HI Ew) as [st1 [S1 [S2 [new [S3 S4]]]]]. rewrite S1.
      apply IH; auto. rewrite S3, S4, !app_length, map_length. cbn [length] in Hm.
      assert (K := base_bound _ (si_base _ S2)). rewrite S3, app_length in K. lia.
  Qed.

  Lemma pre_run_any : forall fuel st, sat_inv st ->
    pre_run P X et fuel st = Some None \/
    exists st' b, pre_run P X et fuel st = Some (Some (st', b)) /\ sat_inv st' /\ b = p_found st' /\
      (p_ws st' = [] \/ (p_found st' = true /\ et <> None)).
  Proof.
    induction fuel as [|fuel IH]; intros st HI; cbn [pre_run]; destruct (p_ws st) as [|t ws] eqn:Ew.
    1,3: right; exists st, (p_found st); ands; auto.
    all: destruct (match et with Some _ => p_found st | None => false end) eqn:EF.
    1,3: right; exists st, true; destruct et; [|discriminate]; ands; auto; right; split; auto; discriminate.
    - auto.
    - destruct (pre_step_spec st t ws HI Ew) as [st1 [S1 [S2 _]]]. rewrite S1. auto.
  Qed.
End Inv.
