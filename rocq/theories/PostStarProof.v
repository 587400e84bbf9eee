(** Correctness of the post* saturation loop: invariants, termination. *)
From Coq Require Import List Arith Lia Bool ZArith Permutation Sorted.
From Verif Require Import Base BaseFacts Spec SpecFacts PdaModel PdaProof AutModel AutProof PreStarModel PreStarProof PostStarModel.
Import ListNotations.

(** ** The states added for push rules *)
Lemma qp_find_In : forall k m v, qp_find k m = Some v -> In (k, v) m.
Proof.
  induction m as [|[k' v'] m IH]; cbn; [discriminate|]. intros v H.
  destruct (Nat.eqb (fst k') (fst k) && Nat.eqb (snd k') (snd k)) eqn:E; auto.
  apply andb_true_iff in E. rewrite !Nat.eqb_eq in E. injection H as ->. left. destruct k, k'; cbn in *. destruct E; congruence.
Qed.

Lemma qp_find_cons_neq : forall k k' v m, qp_find k m <> None -> qp_find k' m = None -> qp_find k ((k', v) :: m) = qp_find k m.
Proof.
  intros k k' v m H1 H2. cbn. destruct (Nat.eqb (fst k') (fst k) && Nat.eqb (snd k') (snd k)) eqn:E; auto.
  apply andb_true_iff in E. rewrite !Nat.eqb_eq in E. destruct k, k'; cbn in *. destruct E; subst. congruence.
Qed.

Record qp_ok (A : aut) (am : aut * list ((nat * nat) * nat)) : Prop := {
  qo_edges : a_edges (fst am) = a_edges A;
  qo_ord : a_ord (fst am) = a_ord A;
  qo_acc : exists k, a_acc (fst am) = a_acc A ++ repeat false k;
  qo_range : forall k v, In (k, v) (snd am) -> a_size A <= v < a_size (fst am);
  qo_nd : NoDup (map snd (snd am)) }.

Definition qp_le (am am' : aut * list ((nat * nat) * nat)) : Prop :=
  forall k v, qp_find k (snd am) = Some v -> qp_find k (snd am') = Some v.

Lemma qp_rule_ok : forall A am x, qp_ok A am -> qp_ok A (qp_rule am x) /\ qp_le am (qp_rule am x) /\
  (r_op (fst x) = PUSH -> qp_find (r_to (fst x), r_opl (fst x)) (snd (qp_rule am x)) <> None).
Proof.
  intros A am x H. unfold qp_rule. destruct (r_op (fst x)) eqn:Er; try (ands; auto; [intros k v Hk; auto|discriminate]).
  destruct (qp_find (r_to (fst x), r_opl (fst x)) (snd am)) eqn:F.
  - ands; auto. intros k v Hk; auto. congruence.
  - destruct H as [H1 H2 [k H3] H4 H5]. ands.
    + constructor; cbn; auto.
      * exists (S k). rewrite H3, <- app_assoc. f_equal. clear. induction k; cbn; auto. f_equal; auto.
      * intros k0 v [E|Hin].
        -- injection E as <- <-. unfold a_size; cbn. rewrite app_length; cbn. rewrite H3, app_length. lia.
        -- apply H4 in Hin. unfold a_size in *; cbn. rewrite app_length; cbn. lia.
      * constructor; auto. intros Hin. apply in_map_iff in Hin. destruct Hin as [[k0 v] [E Hin]]. cbn in E; subst v.
        apply H4 in Hin. lia.
    + intros k0 v Hk. cbn [snd]. rewrite qp_find_cons_neq; auto. congruence.
    + intros _. cbn. rewrite !Nat.eqb_refl. cbn. discriminate.
Qed.

Lemma qp_le_trans : forall a b c, qp_le a b -> qp_le b c -> qp_le a c.
Proof. intros a b c H1 H2 k v H. auto. Qed.

Lemma qp_rules_ok : forall A rs am, qp_ok A am -> qp_ok A (fold_left qp_rule rs am) /\ qp_le am (fold_left qp_rule rs am) /\
  (forall x, In x rs -> r_op (fst x) = PUSH -> exists v, qp_find (r_to (fst x), r_opl (fst x)) (snd (fold_left qp_rule rs am)) = Some v).
Proof.
  intros A. induction rs as [|x rs IH]; intros am H; cbn [fold_left].
  - ands; auto. intros k v Hk; auto. intros x [].
  - destruct (qp_rule_ok A am x H) as [R1 [R2 R3]]. destruct (IH _ R1) as [I1 [I2 I3]]. ands; auto.
    + eapply qp_le_trans; eauto.
    + intros y [<-|Hy] Hp; [|apply I3; auto]. specialize (R3 Hp).
      destruct (qp_find (r_to (fst x), r_opl (fst x)) (snd (qp_rule am x))) eqn:F; [|congruence]. eauto.
Qed.

Lemma qp_init_ok : forall P A, qp_ok A (qp_init P A) /\
  (forall s x, In s (pd_states P) -> In x (ps_rules s) -> r_op (fst x) = PUSH ->
     exists v, qp_find (r_to (fst x), r_opl (fst x)) (snd (qp_init P A)) = Some v).
Proof.
  intros P A. unfold qp_init.
  assert (G: forall ss am, qp_ok A am ->
    qp_ok A (fold_left (fun am s => fold_left qp_rule (ps_rules s) am) ss am) /\
    qp_le am (fold_left (fun am s => fold_left qp_rule (ps_rules s) am) ss am) /\
    (forall s x, In s ss -> In x (ps_rules s) -> r_op (fst x) = PUSH ->
      exists v, qp_find (r_to (fst x), r_opl (fst x)) (snd (fold_left (fun am s => fold_left qp_rule (ps_rules s) am) ss am)) = Some v)).
  { induction ss as [|s ss IH]; intros am H; cbn [fold_left].
    - ands; auto. intros k v Hk; auto. intros s x [].
    - destruct (qp_rules_ok A (ps_rules s) am H) as [R1 [R2 R3]]. destruct (IH _ R1) as [I1 [I2 I3]]. ands; auto.
      + eapply qp_le_trans; eauto.
      + intros s' x [<-|Hs] Hx Hp; [|eapply I3; eauto]. destruct (R3 x Hx Hp) as [v Hv]. exists v. apply I2; auto. }
  destruct (G (pd_states P) (A, [])) as [G1 [_ G3]]; [|auto].
  constructor; cbn; auto; [exists 0; cbn; rewrite app_nil_r; auto|tauto|constructor].
Qed.

Lemma qp_inj : forall A am k1 k2 v, qp_ok A am -> qp_find k1 (snd am) = Some v -> qp_find k2 (snd am) = Some v -> k1 = k2.
Proof.
  intros A am k1 k2 v H F1 F2. apply qp_find_In in F1. apply qp_find_In in F2. destruct H as [_ _ _ _ Hnd].
  revert F1 F2. induction (snd am) as [|[k w] m IH]; cbn in *; [tauto|]. inversion Hnd; subst.
  intros [E1|E1] [E2|E2]; try congruence; auto.
  - injection E1 as <- <-. exfalso. apply H1. apply (in_map snd) in E2. auto.
  - injection E2 as <- <-. exfalso. apply H1. apply (in_map snd) in E1. auto.
Qed.

(** ** Justified edge lists *)
(** [qp] is the map from (state, label) of push rules to added states. *)
Definition justified_post (P : pda) (qp : nat * nat -> option nat) (older : list (edge * trace)) (e : edge) (tr : trace) : Prop :=
  (exists p id l r ls q, tr = TPost p id l /\ get_rule P p id = Some (r, ls) /\ matches (pd_nlab P) ls l /\
     edges_of older p (Some l) q /\
     match r_op r with
     | POP => e = mk_edge (r_to r) None q
     | SWAP => e = mk_edge (r_to r) (Some (r_opl r)) q
     | NOOP => e = mk_edge (r_to r) (Some l) q
     | PUSH => exists qn, qp (r_to r, r_opl r) = Some qn /\
         (e = mk_edge (r_to r) (Some (r_opl r)) qn \/
          (e = mk_edge qn (Some l) q /\ edges_of older (r_to r) (Some (r_opl r)) qn))
     end) \/
  (exists s l, tr = TEps s /\ e_lab e = Some l /\ edges_of older (e_src e) None s /\ edges_of older s (Some l) (e_dst e)).

Inductive wj_post (P : pda) (qp : nat * nat -> option nat) (base : list (edge * trace)) : list (edge * trace) -> Prop :=
| wjp_base : wj_post P qp base base
| wjp_cons : forall older e tr, wj_post P qp base older -> justified_post P qp older e tr -> wj_post P qp base ((e, tr) :: older).

Lemma justified_post_app : forall P qp new old e tr, justified_post P qp old e tr -> justified_post P qp (new ++ old) e tr.
Proof.
  intros P qp new old e tr [H|H]; [left|right].
  - destruct H as [p [id [l [r [ls [q [H1 [H2 [H3 [H4 H5]]]]]]]]]]. exists p, id, l, r, ls, q. ands; auto using edges_of_app.
    destruct (r_op r); auto. destruct H5 as [qn [H5 H6]]. exists qn. split; auto. destruct H6 as [H6|[H6 H7]]; auto using edges_of_app.
  - destruct H as [s [l [H1 [H2 [H3 H4]]]]]. exists s, l. ands; auto using edges_of_app.
Qed.

Lemma wjp_incl : forall P qp b es e, wj_post P qp b es -> In e (map fst b) -> In e (map fst es).
Proof. intros P qp b es e H; induction H; auto. intros; right; auto. Qed.

Section Inv.
  Variable P : pda.
  Hypothesis WP : wf_pda P.
  Variable X : Type.
  Variable et : option (aut -> X -> edge -> trace -> option (bool * X)).
  Variable A0 : aut.
  Let nQ := a_size A0.
  Let A1 := fst (qp_init P A0).
  Let M := snd (qp_init P A0).
  Let N := a_size A1.
  Let n := pd_n P.
  Hypothesis HnQ : n <= nQ.
  Hypothesis HO : wf_ord A0.
  Let qp (k : nat * nat) := qp_find k M.

  (** Edges go to non-PDA states, and epsilon edges start in PDA states. *)
  Definition q_range (e : edge) : Prop :=
    e_src e < N /\ n <= e_dst e < N /\ match e_lab e with Some l => l < pd_nlab P | None => e_src e < n end.

  Variable J : aut -> X -> bool -> Prop.
  Hypothesis J_none : et = None -> forall A x e t A', J A x false -> emplace_edge A e t = Some (A', true) -> J A' x false.
  Hypothesis J_true : forall A x e t A', J A x true -> emplace_edge A e t = Some (A', true) -> J A' x true.
  Hypothesis J_call : forall f A x e t A', et = Some f -> J A x false -> a_acc A = a_acc A1 -> a_ord A = a_ord A0 ->
    (forall e', In e' (map fst (a_edges A)) -> q_range e') -> q_range e ->
    emplace_edge A e t = Some (A', true) ->
    exists b x', f A' x e t = Some (b, x') /\ J A' x' b.

  Let Hqp : qp_ok A0 (qp_init P A0) := proj1 (qp_init_ok P A0).

  Lemma nQ_N : nQ <= N.
  Proof. unfold N, A1, nQ, a_size. destruct (qo_acc _ _ Hqp) as [k E]. rewrite E, app_length. lia. Qed.

  Lemma qp_range : forall k v, qp k = Some v -> nQ <= v < N.
  Proof. intros k v H. apply qp_find_In in H. apply (qo_range _ _ Hqp _ _ H). Qed.

  Lemma qp_push : forall p id r ls, get_rule P p id = Some (r, ls) -> r_op r = PUSH -> exists v, qp (r_to r, r_opl r) = Some v.
  Proof.
    intros p id r ls H Hp. unfold get_rule in H. destruct (nth_error (pd_states P) p) as [s|] eqn:E; [|discriminate]. cbn in H.
    pose proof (proj2 (qp_init_ok P A0)) as K. eapply (K s (r, ls)); eauto using nth_error_In.
  Qed.

  Definition QS (st : post_st X) : list edge := map fst (a_edges (q_aut st)).

  Record qbase (st : post_st X) : Prop := {
    c_acc : a_acc (q_aut st) = a_acc A1;
    c_ord : a_ord (q_aut st) = a_ord A0;
    c_nQ : q_nQ st = nQ;
    c_qp : q_qp st = M;
    c_wj : wj_post P qp (a_edges A0) (a_edges (q_aut st));
    c_nd : NoDup (QS st);
    c_range : forall e, In e (QS st) -> q_range e;
    c_ws : forall e, In e (q_ws st) -> In e (QS st) /\ e_src e < n;
    c_rel1 : forall e, In e (q_rel1 st) -> In e (QS st) /\ n <= e_src e;
    c_rel2 : forall s f, In (s, f) (q_rel2 st) -> nQ <= s /\ In (mk_edge f None s) (QS st);
    c_J : J (q_aut st) (q_x st) (q_found st);
    c_et : et = None -> q_found st = false }.

  Lemma qbase_size : forall st, qbase st -> a_size (q_aut st) = N.
  Proof. intros st B. unfold a_size. rewrite (c_acc _ B). auto. Qed.

  (** Progress. *)
  Record ple (st st' : post_st X) : Prop := {
    pl_edges : exists new, a_edges (q_aut st') = new ++ a_edges (q_aut st);
    pl_ws : forall e, In e (q_ws st) -> In e (q_ws st');
    pl_meas : length (q_ws st') + length (a_edges (q_aut st)) <= length (q_ws st) + length (a_edges (q_aut st'));
    pl_rel1 : forall e, In e (q_rel1 st) -> In e (q_rel1 st');
    pl_rel2 : q_rel2 st' = q_rel2 st }.

  Lemma ple_refl : forall st, ple st st.
  Proof. intros; constructor; auto. exists []; auto. Qed.
  Lemma ple_trans : forall a b c, ple a b -> ple b c -> ple a c.
  Proof.
    intros a b c [[n1 A] B C D E] [[n2 A'] B' C' D' E']. constructor; auto; try congruence; try lia.
    exists (n2 ++ n1). rewrite A', A, app_assoc; auto.
  Qed.
  Lemma ple_QS : forall st st' e, ple st st' -> In e (QS st) -> In e (QS st').
  Proof. intros st st' e [[new A] _ _ _ _] H. unfold QS in *. rewrite A, map_app. apply in_or_app; auto. Qed.
  Lemma ple_just : forall st st' e t, ple st st' -> justified_post P qp (a_edges (q_aut st)) e t -> justified_post P qp (a_edges (q_aut st')) e t.
  Proof. intros st st' e t [[new A] _ _ _ _] H. rewrite A. apply justified_post_app; auto. Qed.

  (** The callback leaves everything but [found] and its own state alone. *)
  Lemma post_et_spec : forall A st e t, emplace_edge A e t = Some (q_aut st, true) -> J A (q_x st) (q_found st) ->
    (et = None -> q_found st = false) -> a_acc A = a_acc A1 -> a_ord A = a_ord A0 ->
    (forall e', In e' (map fst (a_edges A)) -> q_range e') -> q_range e ->
    exists fnd x', post_et X et st e t =
        Some (mk_post (q_aut st) (q_nQ st) (q_qp st) (q_ws st) (q_rel1 st) (q_rel2 st) fnd x') /\
      J (q_aut st) x' fnd /\ (et = None -> fnd = false).
  Proof.
    intros A st e t EM HJ HE H1 H2 H3 H4. unfold post_et. destruct et as [f|] eqn:Eet.
    - destruct (q_found st) eqn:Ef.
      + exists true, (q_x st). ands; [destruct st; cbn in *; subst; auto| |discriminate]. eapply J_true; eauto.
      + destruct (J_call f A (q_x st) e t (q_aut st) eq_refl) as [b [x' [F1 F2]]]; auto.
        rewrite F1. exists b, x'. ands; auto. discriminate.
    - exists false, (q_x st). rewrite (HE eq_refl) in *. ands; auto.
      + rewrite <- (HE eq_refl). destruct st; auto.
      + eapply J_none; eauto.
  Qed.

  Lemma emplace_cases : forall A e t, e_src e < a_size A ->
    (In e (map fst (a_edges A)) /\ emplace_edge A e t = Some (A, false)) \/
    (~ In e (map fst (a_edges A)) /\ emplace_edge A e t = Some (mk_aut (a_acc A) ((e, t) :: a_edges A) (a_ord A), true)).
  Proof.
    intros A e t H. unfold emplace_edge. apply Nat.ltb_lt in H. rewrite H. destruct (find_edge e (a_edges A)) eqn:F.
    - left. split; auto. apply find_edge_Some in F. apply (in_map fst) in F. exact F.
    - right. split; auto. apply find_edge_None; auto.
  Qed.

  Lemma post_insert_spec : forall st e t, qbase st -> q_range e -> e_src e < n -> justified_post P qp (a_edges (q_aut st)) e t ->
    exists st', post_insert X et st e t = Some st' /\ qbase st' /\ ple st st' /\ In e (QS st') /\
      q_rel1 st' = q_rel1 st /\ (forall e', In e' (QS st') -> In e' (QS st) \/ (e' = e /\ In e (q_ws st'))).
  Proof.
    intros st e t B Hr Hs Hj. unfold post_insert.
    destruct (emplace_cases (q_aut st) e t) as [[F EM]|[F EM]]; [rewrite (qbase_size _ B); apply Hr|..].
    - rewrite EM. cbn. exists st. ands; auto using ple_refl.
    - rewrite EM. cbn [obind snd fst].
      set (st1 := post_push X (post_set_aut X st {| a_acc := a_acc (q_aut st); a_edges := (e, t) :: a_edges (q_aut st); a_ord := a_ord (q_aut st) |}) e).
      destruct (post_et_spec (q_aut st) st1 e t EM (c_J _ B) (c_et _ B) (c_acc _ B) (c_ord _ B) (c_range _ B) Hr) as [fnd [x' [E1 [E2 E3]]]].
      rewrite E1. eexists; split; [reflexivity|]. ands.
      + pose proof B as B'. destruct B'. constructor; auto; try (cbn; auto; fail).
        * cbn. constructor; auto.
        * cbn. constructor; auto.
        * intros e' [<-|H]; auto.
        * cbn. intros e' H. apply in_app_or in H. destruct H as [H|[<-|[]]]; [apply c_ws0 in H; tauto|]; auto.
        * cbn. intros e' H. apply c_rel3 in H. tauto.
        * cbn. intros s f H. apply c_rel4 in H. tauto.
      + constructor; cbn; auto.
        * exists [(e, t)]; auto.
        * intros; apply in_or_app; auto.
        * rewrite app_length. cbn. lia.
      + left; auto.
      + auto.
      + cbn. intros e' [<-|H]; auto. right. split; auto. apply in_or_app; cbn; auto.
  Qed.

  Lemma post_insert_rel_spec : forall st e t, qbase st -> q_range e -> n <= e_src e -> justified_post P qp (a_edges (q_aut st)) e t ->
    exists st', post_insert_rel P X et st e t = Some st' /\ qbase st' /\ ple st st' /\ In e (QS st') /\
      q_ws st' = q_ws st /\ (forall e', In e' (QS st') <-> In e' (QS st) \/ e' = e) /\
      (forall e', In e' (q_rel1 st') <-> In e' (q_rel1 st) \/ (e' = e /\ ~ In e (QS st))).
  Proof.
    intros st e t B Hr Hs Hj. unfold post_insert_rel.
    destruct (emplace_cases (q_aut st) e t) as [[F EM]|[F EM]]; [rewrite (qbase_size _ B); apply Hr|..].
    - rewrite EM. cbn. exists st. ands; auto using ple_refl.
      + intros e'; split; auto. intros [H| ->]; auto.
      + intros e'; split; auto. intros [H|[-> H]]; auto. contradiction.
    - rewrite EM. cbn [obind snd fst].
      assert (HL: exists l, e_lab e = Some l).
      { destruct Hr as [_ [_ Hl]]. destruct (e_lab e); eauto. lia. }
      destruct HL as [l HL].
      set (A' := {| a_acc := a_acc (q_aut st); a_edges := (e, t) :: a_edges (q_aut st); a_ord := a_ord (q_aut st) |}) in *.
      assert (IR: insert_rel P X (post_set_aut X st A') e =
        Some (mk_post A' (q_nQ st) (q_qp st) (q_ws st) (e :: q_rel1 st) (q_rel2 st) (q_found st) (q_x st))).
      { unfold insert_rel. cbn [q_aut post_set_aut]. assert (SA: a_size A' = N) by apply (qbase_size _ B). rewrite SA.
        destruct Hr as [Hr1 _]. apply Nat.ltb_lt in Hr1. apply Nat.leb_le in Hs. unfold n in Hs. rewrite Hs, Hr1. cbn [obind].
        rewrite HL. auto. }
      rewrite IR. cbn [obind].
      set (st1 := mk_post A' (q_nQ st) (q_qp st) (q_ws st) (e :: q_rel1 st) (q_rel2 st) (q_found st) (q_x st)).
      destruct (post_et_spec (q_aut st) st1 e t EM (c_J _ B) (c_et _ B) (c_acc _ B) (c_ord _ B) (c_range _ B) Hr) as [fnd [x' [E1 [E2 E3]]]].
      rewrite E1. eexists; split; [reflexivity|]. ands.
      + pose proof B as B'. destruct B'. constructor; auto; try (cbn; auto; fail).
        * cbn. constructor; auto.
        * cbn. constructor; auto.
        * intros e' [<-|H]; auto.
        * cbn. intros e' H. apply c_ws0 in H; tauto.
        * cbn. intros e' [<-|H]; auto. apply c_rel3 in H. tauto.
        * cbn. intros s f H. apply c_rel4 in H. tauto.
      + constructor; cbn; auto; [exists [(e, t)]; auto|lia].
      + left; auto.
      + auto.
      + cbn. intros e'. intuition.
      + cbn. intros e'. intuition.
  Qed.

  (** ** Closure invariants *)
  Definition rel1_full (st : post_st X) : Prop := forall e, In e (QS st) -> n <= e_src e -> In e (q_rel1 st).

  (** Epsilon edges are waiting, being processed ([x]), or combined with every edge out of their target (but [ex]). *)
  Definition eps_ok (st : post_st X) (x ex : option edge) : Prop := forall f s, In (mk_edge f None s) (QS st) ->
    In (mk_edge f None s) (q_ws st) \/ Some (mk_edge f None s) = x \/
    ((nQ <= s -> In (s, f) (q_rel2 st)) /\
     forall l q, In (mk_edge s (Some l) q) (QS st) -> Some (mk_edge s (Some l) q) = ex \/ In (mk_edge f (Some l) q) (QS st)).

  Definition rule_fired (st : post_st X) (r : rule) (l q : nat) : Prop :=
    match r_op r with
    | POP => In (mk_edge (r_to r) None q) (QS st)
    | SWAP => In (mk_edge (r_to r) (Some (r_opl r)) q) (QS st)
    | NOOP => In (mk_edge (r_to r) (Some l) q) (QS st)
    | PUSH => exists qn, qp (r_to r, r_opl r) = Some qn /\ In (mk_edge (r_to r) (Some (r_opl r)) qn) (QS st) /\ In (mk_edge qn (Some l) q) (QS st)
    end.

  Definition lab_done (st : post_st X) (p l q : nat) : Prop := forall id r ls, get_rule P p id = Some (r, ls) ->
    contains ls l = true -> rule_fired st r l q.

  Definition lab_ok (st : post_st X) (x : option edge) : Prop := forall p l q, p < n -> In (mk_edge p (Some l) q) (QS st) ->
    In (mk_edge p (Some l) q) (q_ws st) \/ Some (mk_edge p (Some l) q) = x \/ lab_done st p l q.

  Lemma rule_fired_mono : forall st st' r l q, (forall e, In e (QS st) -> In e (QS st')) -> rule_fired st r l q -> rule_fired st' r l q.
  Proof. intros st st' r l q H. unfold rule_fired. destruct (r_op r); auto. intros [qn [H1 [H2 H3]]]; exists qn; auto. Qed.

  Record kinv (st : post_st X) (x ex : option edge) : Prop := {
    k_base : qbase st;
    k_rel1 : rel1_full st;
    k_eps : eps_ok st x ex;
    k_lab : lab_ok st x }.

  Lemma post_insert_keep : forall st e t x ex, kinv st x ex -> q_range e -> e_src e < n -> justified_post P qp (a_edges (q_aut st)) e t ->
    exists st', post_insert X et st e t = Some st' /\ kinv st' x ex /\ ple st st' /\ In e (QS st') /\
      (forall e', In e' (QS st') -> n <= e_src e' -> In e' (QS st)).
  Proof.
    intros st e t x ex [B K1 K2 K3] Hr Hs Hj.
    destruct (post_insert_spec st e t B Hr Hs Hj) as [st' [F1 [F2 [F3 [F4 [F5 F6]]]]]].
    assert (O: forall e', In e' (QS st') -> n <= e_src e' -> In e' (QS st)).
    { intros e' H1 H2. destruct (F6 e' H1) as [H|[-> _]]; auto. lia. }
    exists st'. ands; auto. constructor; auto.
    - intros e' H1 H2. rewrite F5. apply K1; auto.
    - intros f s H. destruct (F6 _ H) as [H1|[-> H1]]; auto. destruct (K2 f s H1) as [K|[K|[Ka Kb]]]; auto.
      + left. apply (pl_ws _ _ F3); auto.
      + right; right. rewrite (pl_rel2 _ _ F3). split; auto. intros l q Hq.
        assert (Hn: n <= s). { apply (c_range _ F2) in H. destruct H as [_ [H _]]. cbn in H. lia. }
        apply O in Hq; auto. destruct (Kb l q Hq); auto. right. eapply ple_QS; eauto.
    - intros p l q Hp H. destruct (F6 _ H) as [H1|[-> H1]]; auto. destruct (K3 p l q Hp H1) as [K|[K|K]]; auto.
      + left. apply (pl_ws _ _ F3); auto.
      + right; right. intros id r ls G C. eapply rule_fired_mono; [|eapply K; eauto]. intros; eapply ple_QS; eauto.
  Qed.

  (** A loop of insertions of edges out of PDA states. *)
  Lemma insert_loop : forall (B : Type) (g : B -> edge) (tr : B -> trace) (l : list B) st x ex, kinv st x ex ->
    (forall b, In b l -> q_range (g b) /\ e_src (g b) < n /\ justified_post P qp (a_edges (q_aut st)) (g b) (tr b)) ->
    exists st', ofold (fun st b => post_insert X et st (g b) (tr b)) l st = Some st' /\ kinv st' x ex /\ ple st st' /\
      (forall b, In b l -> In (g b) (QS st')) /\ (forall e', In e' (QS st') -> n <= e_src e' -> In e' (QS st)).
  Proof.
    intros B g tr l st x ex K Hb.
    destruct (ofold_rule _ _ (fun st b => post_insert X et st (g b) (tr b))
      (fun s => kinv s x ex /\ ple st s /\ (forall e', In e' (QS s) -> n <= e_src e' -> In e' (QS st))) ple
      (fun b s => In (g b) (QS s)) l) with (s := st) as [st' [E1 [[E2 [E3 E4]] [_ E5]]]].
    - apply ple_refl.
    - apply ple_trans.
    - intros; eapply ple_QS; eauto.
    - intros b s Hin [Ks [Ls Os]]. destruct (Hb b Hin) as [H1 [H2 H3]].
      destruct (post_insert_keep s (g b) (tr b) x ex Ks H1 H2) as [s' [F1 [F2 [F3 [F4 F5]]]]]; [eapply ple_just; eauto|].
      exists s'. ands; auto. eapply ple_trans; eauto.
    - ands; auto using ple_refl.
    - exists st'. ands; auto.
  Qed.

  Lemma post_rule_spec : forall t l id r ls st x, kinv st x None -> In t (QS st) -> e_src t < n -> e_lab t = Some l ->
    get_rule P (e_src t) id = Some (r, ls) ->
    exists st', post_rule P X et t l st (id, (r, ls)) = Some st' /\ kinv st' x None /\ ple st st' /\
      (contains ls l = true -> rule_fired st' r l (e_dst t)).
  Proof.
    intros t l id r ls st x K Ht Hs El G. unfold post_rule. cbn [fst snd].
    destruct (contains ls l) eqn:C; [|exists st; ands; auto using ple_refl; discriminate].
    pose proof (k_base _ _ _ K) as B. pose proof (c_range _ B _ Ht) as Rg. destruct Rg as [R1 [R2 R3]]. rewrite El in R3.
    destruct (get_rule_facts P WP _ _ _ _ G) as [G1 [G2 G3]]. fold n in G1, G2.
    assert (HM: matches (pd_nlab P) ls l) by (eapply contains_spec; eauto).
    assert (Hopl: r_op r = PUSH \/ r_op r = SWAP -> r_opl r < pd_nlab P).
    { apply get_rule_at in G. apply nth_error_In in G. eapply (wf'_opl _ (wf_wf_pda' _ WP)); eauto. }
    pose proof nQ_N as LN.
    assert (Et: edges_of (a_edges (q_aut st)) (e_src t) (Some l) (e_dst t)).
    { unfold edges_of. rewrite <- El. destruct t; exact Ht. }
    assert (Simple: forall e, q_range e -> e_src e < n -> justified_post P qp (a_edges (q_aut st)) e (TPost (e_src t) id l) ->
       exists st', post_insert X et st e (TPost (e_src t) id l) = Some st' /\ kinv st' x None /\ ple st st' /\ In e (QS st')).
    { intros e H1 H2 H3. destruct (post_insert_keep st e _ x None K H1 H2 H3) as [st' [F1 [F2 [F3 [F4 F5]]]]]. exists st'; ands; auto. }
    unfold rule_fired. destruct (r_op r) eqn:Er.
    - destruct (qp_push _ _ _ _ G Er) as [qn Q1]. pose proof (qp_range _ _ Q1) as Q2.
      rewrite (c_qp _ B). fold (qp (r_to r, r_opl r)). rewrite Q1. cbn [obind].
      destruct (post_insert_keep st (mk_edge (r_to r) (Some (r_opl r)) qn) (TPost (e_src t) id l) x None K) as [st1 [F1 [F2 [F3 [F4 F5]]]]].
      { unfold q_range; cbn. ands; auto; try lia. }
      { auto. }
      { left. exists (e_src t), id, l, r, ls, (e_dst t). ands; auto. rewrite Er. exists qn; auto. }
      rewrite F1; cbn [obind].
      pose proof F2 as [B1 K1 K2 K3].
      destruct (post_insert_rel_spec st1 (mk_edge qn (Some l) (e_dst t)) (TPost (e_src t) id l) B1) as [st2 [I1 [I2 [I3 [I4 [I5 [I6 I7]]]]]]].
      { unfold q_range; cbn. ands; auto; try lia. }
      { cbn; lia. }
      { left. exists (e_src t), id, l, r, ls, (e_dst t). ands; auto.
        - destruct (pl_edges _ _ F3) as [new EE]. rewrite EE. apply edges_of_app; auto.
        - rewrite Er. exists qn; split; auto. }
      rewrite I1; cbn [obind].
      assert (K': kinv st2 x (Some (mk_edge qn (Some l) (e_dst t)))).
      { constructor; auto.
        - intros e H1 H2. apply I6 in H1. apply I7. destruct H1 as [H1|H1]; [left; apply K1; auto|]. subst e.
          destruct (in_dec edge_eq_dec (mk_edge qn (Some l) (e_dst t)) (QS st1)); [left; apply K1; auto|right; auto].
        - intros f s H. apply I6 in H. destruct H as [H|H]; [|discriminate]. rewrite I5, (pl_rel2 _ _ I3).
          destruct (K2 f s H) as [K0|[K0|[Ka Kb]]]; auto. right; right. split; auto. intros l0 q H0. apply I6 in H0.
          destruct H0 as [H0|H0]; [|left; rewrite H0; auto]. destruct (Kb l0 q H0) as [E|E]; [discriminate|]. right. apply I6; auto.
        - intros p l0 q Hp H. apply I6 in H. destruct H as [H|H]; [|injection H as -> -> ->; lia]. rewrite I5.
          destruct (K3 p l0 q Hp H) as [K0|[K0|K0]]; auto. right; right. intros id0 r0 ls0 H1 H2.
          eapply rule_fired_mono; [|eapply K0; eauto]. intros; eapply ple_QS; eauto. }
      unfold rel2_of. rewrite (qbase_size _ I2), (c_nQ _ I2).
      assert (Q3: (nQ <=? qn) && (qn <? N) = true) by (apply andb_true_iff; rewrite Nat.leb_le, Nat.ltb_lt; lia).
      rewrite Q3. cbn [obind].
      set (fs := rev (map snd (filter (fun x0 => Nat.eqb (fst x0) qn) (q_rel2 st2)))).
      assert (Hfs: forall f, In f fs <-> In (qn, f) (q_rel2 st2)).
      { intros f. unfold fs. rewrite <- in_rev, in_map_iff. split.
        - intros [[a b] [E H]]. cbn in E; subst b. apply filter_In in H. destruct H as [H1 H2]. cbn in H2. apply Nat.eqb_eq in H2; subst; auto.
        - intros H. exists (qn, f); split; auto. apply filter_In; split; auto. cbn; apply Nat.eqb_refl. }
      destruct (insert_loop nat (fun f => mk_edge f (Some l) (e_dst t)) (fun _ => TEps qn) fs st2 x _ K') as [st3 [L1 [L2 [L3 [L4 L5]]]]].
      { intros f Hf. apply Hfs in Hf. destruct (c_rel2 _ I2 _ _ Hf) as [H1 H2]. pose proof (c_range _ I2 _ H2) as [H3 [H4 H5]]. cbn in H3, H4, H5.
        ands; cbn; auto.
        - unfold q_range; cbn; ands; auto; lia.
        - right. exists qn, l. cbn. ands; auto. }
      rewrite L1. exists st3. ands; auto.
      + destruct L2 as [M1 M2 M3 M4]. constructor; auto. intros f s H. destruct (M3 f s H) as [K0|[K0|[Ka Kb]]]; auto.
        right; right. split; auto. intros l0 q H0. destruct (Kb l0 q H0) as [E|E]; auto. right. injection E as -> -> ->.
        apply L4. apply Hfs. rewrite <- (pl_rel2 _ _ L3). apply Ka. lia.
      + eapply ple_trans; [|eapply ple_trans]; eauto.
      + intros _. exists qn. ands; auto; eapply ple_QS; eauto. eapply ple_QS; eauto.
    - destruct (Simple (mk_edge (r_to r) None (e_dst t))) as [st' [F1 [F2 [F3 F4]]]].
      { unfold q_range; cbn; ands; auto; lia. } { auto. }
      { left. exists (e_src t), id, l, r, ls, (e_dst t). ands; auto. rewrite Er; auto. }
      exists st'; ands; auto.
    - destruct (Simple (mk_edge (r_to r) (Some (r_opl r)) (e_dst t))) as [st' [F1 [F2 [F3 F4]]]].
      { unfold q_range; cbn; ands; auto; lia. } { auto. }
      { left. exists (e_src t), id, l, r, ls, (e_dst t). ands; auto. rewrite Er; auto. }
      exists st'; ands; auto.
    - destruct (Simple (mk_edge (r_to r) (Some l) (e_dst t))) as [st' [F1 [F2 [F3 F4]]]].
      { unfold q_range; cbn; ands; auto; lia. } { auto. }
      { left. exists (e_src t), id, l, r, ls, (e_dst t). ands; auto. rewrite Er; auto. }
      exists st'; ands; auto.
  Qed.

  Lemma post_step_spec : forall st t ws, kinv st None None -> q_ws st = t :: ws ->
    exists st', post_step P X et st = Some st' /\ kinv st' None None /\
      (exists new, a_edges (q_aut st') = new ++ a_edges (q_aut st)) /\
      S (length (q_ws st')) + length (a_edges (q_aut st)) <= length (q_ws st) + length (a_edges (q_aut st')).
  Proof.
    intros st t ws [B K1 K2 K3] Ews. unfold post_step. rewrite Ews.
    destruct (c_ws _ B t) as [Ht Hs]; [rewrite Ews; left; auto|].
    pose proof (c_range _ B _ Ht) as [R1 [R2 R3]]. pose proof nQ_N as LN.
    destruct (Nat.ltb_spec (e_dst t) (pd_n P)) as [L|_]; [fold n in L; lia|].
    set (st0 := mk_post (q_aut st) (q_nQ st) (q_qp st) ws (q_rel1 st) (q_rel2 st) (q_found st) (q_x st)).
    assert (IR: exists r2, insert_rel P X st0 t = Some (mk_post (q_aut st) (q_nQ st) (q_qp st) ws (q_rel1 st) r2 (q_found st) (q_x st)) /\
      (forall y, In y (q_rel2 st) -> In y r2) /\ (forall s f, In (s, f) r2 -> nQ <= s /\ In (mk_edge f None s) (QS st)) /\
      (e_lab t = None -> nQ <= e_dst t -> In (e_dst t, e_src t) r2)).
    { unfold insert_rel. destruct (Nat.leb_spec (pd_n P) (e_src t)) as [L|_]; [fold n in L; lia|]. cbn [obind].
      destruct (e_lab t) eqn:El.
      - exists (q_rel2 st). ands; auto; [apply (c_rel2 _ B)|discriminate].
      - change (q_nQ st0) with (q_nQ st). change (q_aut st0) with (q_aut st). rewrite (c_nQ _ B), (qbase_size _ B).
        destruct (Nat.leb_spec nQ (e_dst t)) as [L|L].
        + destruct (Nat.ltb_spec (e_dst t) N) as [_|L']; [|lia]. cbn [obind]. exists ((e_dst t, e_src t) :: q_rel2 st). ands; auto; try (cbn; auto; fail).
          intros s f [E|H]; [|apply (c_rel2 _ B); auto]. injection E as <- <-. split; auto. rewrite <- El. destruct t; exact Ht.
        + exists (q_rel2 st). ands; auto; [apply (c_rel2 _ B)|lia]. }
    destruct IR as [r2 [IR1 [IR2 [IR3 IR4]]]]. rewrite IR1. cbn [obind].
    set (st1 := mk_post (q_aut st) (q_nQ st) (q_qp st) ws (q_rel1 st) r2 (q_found st) (q_x st)).
    assert (K': kinv st1 (Some t) None).
    { constructor; auto.
      - destruct B. constructor; cbn; auto. intros e He. apply c_ws0. rewrite Ews; right; auto.
      - intros f s H. destruct (K2 f s H) as [H0|[H0|[Ha Hb]]]; [|discriminate|right; right; split; auto; intros; apply IR2; auto].
        rewrite Ews in H0. destruct H0 as [<-|H0]; auto.
      - intros p l q Hp H. destruct (K3 p l q Hp H) as [H0|[H0|H0]]; [|discriminate|right; right; auto].
        rewrite Ews in H0. destruct H0 as [<-|H0]; auto. }
    assert (Fin: forall st', ple st1 st' -> (exists new, a_edges (q_aut st') = new ++ a_edges (q_aut st)) /\
      S (length (q_ws st')) + length (a_edges (q_aut st)) <= length (t :: ws) + length (a_edges (q_aut st'))).
    { intros st' [L1 L2 L3 _ _]. split; auto. cbn in L3. cbn [length]. lia. }
    destruct (e_lab t) as [l|] eqn:El.
    - destruct (nth_error_ex _ (pd_states P) (e_src t) Hs) as [sp Es]. rewrite Es. cbn [obind].
      destruct (ofold_rule _ _ (post_rule P X et t l) (fun s => kinv s (Some t) None /\ ple st1 s) ple
        (fun x s => contains (snd (snd x)) l = true -> rule_fired s (fst (snd x)) l (e_dst t)) (enum (ps_rules sp)))
        with (s := st1) as [st' [E1 [[E2 E3] [_ E4]]]].
      + apply ple_refl.
      + apply ple_trans.
      + intros x s s' H1 H2 H3. eapply rule_fired_mono; [|apply H1; auto]. intros; eapply ple_QS; eauto.
      + intros [id [r ls]] s Hx [Ks Ls]. apply enum_In in Hx.
        destruct (post_rule_spec t l id r ls s (Some t) Ks) as [s' [F1 [F2 [F3 F4]]]]; auto.
        * eapply ple_QS; [exact Ls|]. exact Ht.
        * apply get_rule_at. rewrite <- (nth_error_rules_at _ _ _ Es). auto.
        * exists s'. ands; auto. eapply ple_trans; eauto.
      + split; auto using ple_refl.
      + exists st'. split; auto. split; [|apply Fin; auto]. destruct E2 as [M1 M2 M3 M4]. constructor; auto.
        * intros f s H. destruct (M3 f s H) as [H0|[H0|H0]]; auto. injection H0 as H0. rewrite <- H0 in El. discriminate.
        * intros p l0 q Hp H. destruct (M4 p l0 q Hp H) as [H0|[H0|H0]]; auto. right; right. injection H0 as H0.
          rewrite <- H0 in El, Es, E4. cbn in El, Es, E4. injection El as ->. intros id r ls G C.
          apply (E4 (id, (r, ls))); auto. apply enum_In. rewrite (nth_error_rules_at _ _ _ Es). apply get_rule_at; auto.
    - unfold rel1_of. change (q_aut st1) with (q_aut st). rewrite (qbase_size _ B).
      assert (Q3: (pd_n P <=? e_dst t) && (e_dst t <? N) = true) by (apply andb_true_iff; rewrite Nat.leb_le, Nat.ltb_lt; fold n; lia).
      rewrite Q3. cbn [obind].
      set (es := rev (filter (fun e => Nat.eqb (e_src e) (e_dst t)) (q_rel1 st1))).
      assert (Hes: forall e, In e es <-> In e (q_rel1 st) /\ e_src e = e_dst t).
      { intros e. unfold es. rewrite <- in_rev, filter_In, Nat.eqb_eq. tauto. }
      destruct (insert_loop edge (fun e => mk_edge (e_src t) (e_lab e) (e_dst e)) (fun _ => TEps (e_dst t)) es st1 (Some t) None K')
        as [st' [L1 [L2 [L3 [L4 L5]]]]].
      { intros e He. apply Hes in He. destruct He as [He1 He2]. destruct (c_rel1 _ B _ He1) as [He3 He4].
        pose proof (c_range _ B _ He3) as [H3 [H4 H5]]. destruct (e_lab e) as [l|] eqn:Ele; [|lia].
        ands; cbn; auto.
        - unfold q_range; cbn; ands; auto; lia.
        - right. exists (e_dst t), l. cbn. ands; auto; unfold edges_of.
          + rewrite <- El. destruct t; exact Ht.
          + rewrite <- Ele, <- He2. destruct e; exact He3. }
      rewrite L1. exists st'. split; auto. split; [|apply Fin; auto]. destruct L2 as [M1 M2 M3 M4]. constructor; auto.
      + intros f s H. destruct (M3 f s H) as [H0|[H0|H0]]; auto. right; right. injection H0 as H0.
        assert (Es: s = e_dst t) by (rewrite <- H0; auto). assert (Ef: f = e_src t) by (rewrite <- H0; auto). subst s f.
        rewrite (pl_rel2 _ _ L3). cbn. split; [apply IR4; auto|]. intros l q Hq. right.
        assert (Hq' := L5 _ Hq). cbn in Hq'. specialize (Hq' ltac:(lia)). change (In (mk_edge (e_dst t) (Some l) q) (QS st)) in Hq'.
        apply (L4 (mk_edge (e_dst t) (Some l) q)). apply Hes. split; auto. apply K1; auto. cbn; lia.
      + intros p l0 q Hp H. destruct (M4 p l0 q Hp H) as [H0|[H0|H0]]; auto. injection H0 as H0. rewrite <- H0 in El. discriminate.
  Qed.

  (** ** Initialisation *)
  Lemma post_init_spec : forall x0, J A1 x0 false -> NoDup (map fst (a_edges A0)) ->
    (forall e, In e (map fst (a_edges A0)) -> e_src e < nQ /\ n <= e_dst e < nQ /\ exists l, e_lab e = Some l /\ l < pd_nlab P) ->
    exists st, post_init P X A0 x0 = Some st /\ kinv st None None.
  Proof.
    intros x0 HJ Hnd Hrng. unfold post_init. fold A1. fold M. change (a_size A1) with N. change (a_size A0) with nQ.
    pose proof nQ_N as LN. assert (Ln: (pd_n P <=? N) = true) by (apply Nat.leb_le; fold n; lia). rewrite Ln.
    assert (EA: a_edges A1 = a_edges A0) by apply (qo_edges _ _ Hqp).
    assert (EO: a_ord A1 = a_ord A0) by apply (qo_ord _ _ Hqp).
    assert (WO: wf_ord A1) by (unfold wf_ord; rewrite EO; auto).
    set (I := fun s : post_st X => exists ws r1, s = mk_post A1 nQ M ws r1 [] false x0 /\
      (forall e, In e ws -> In e (map fst (a_edges A0)) /\ e_src e < n) /\
      (forall e, In e r1 -> In e (map fst (a_edges A0)) /\ n <= e_src e)).
    set (le := fun s s' : post_st X => (forall e, In e (q_ws s) -> In e (q_ws s')) /\ (forall e, In e (q_rel1 s) -> In e (q_rel1 s'))).
    set (have := fun e (s : post_st X) => In e (q_ws s) \/ (n <= e_src e /\ In e (q_rel1 s))).
    assert (le_refl: forall s, le s s) by (intros; split; auto).
    assert (le_trans: forall a b c, le a b -> le b c -> le a c) by (intros a b c [H1 H2] [H3 H4]; split; auto).
    assert (have_mono: forall e s s', have e s -> le s s' -> have e s').
    { intros e s s' [H|[H0 H]] [H1 H2]; [left|right]; auto. }
    assert (Main: exists st, ofold (post_init_state P X) (seq 0 N) (mk_post A1 nQ M [] [] [] false x0) = Some st /\ I st /\
      le (mk_post A1 nQ M [] [] [] false x0) st /\
      (forall q, In q (seq 0 N) -> forall t l, In (mk_edge q l t) (map fst (a_edges A0)) -> have (mk_edge q l t) st)).
    { apply (ofold_rule _ _ (post_init_state P X) I le (fun q s => forall t l, In (mk_edge q l t) (map fst (a_edges A0)) -> have (mk_edge q l t) s)); auto.
      - intros q s s' H1 H2 t l Hin. eapply have_mono; eauto.
      - intros q s Hq HI. unfold post_init_state.
        assert (Inner: exists s', ofold (fun st t =>
            ofold (fun st l => match l with None => None
              | Some _ => if Nat.ltb q (pd_n P) then Some (post_push X st (mk_edge q l t)) else insert_rel P X st (mk_edge q l t)
              end) (labels_between (q_aut st) q t) st) (tos (q_aut s) q) s = Some s' /\ I s' /\ le s s' /\
            (forall t, In t (tos (q_aut s) q) -> forall l, In (mk_edge q l t) (map fst (a_edges A0)) -> have (mk_edge q l t) s')).
        { apply (ofold_rule _ _ _ I le (fun t s => forall l, In (mk_edge q l t) (map fst (a_edges A0)) -> have (mk_edge q l t) s)); auto.
          - intros t s1 s2 H1 H2 l Hin. eapply have_mono; eauto.
          - intros t s1 _ HI1.
            assert (Inner2: exists s', ofold (fun st l => match l with None => None
              | Some _ => if Nat.ltb q (pd_n P) then Some (post_push X st (mk_edge q l t)) else insert_rel P X st (mk_edge q l t)
              end) (labels_between (q_aut s1) q t) s1 = Some s' /\ I s' /\ le s1 s' /\
              (forall l, In l (labels_between (q_aut s1) q t) -> have (mk_edge q l t) s')).
            { apply (ofold_rule _ _ _ I le (fun l s => have (mk_edge q l t) s)); auto.
              - intros; eapply have_mono; eauto.
              - intros l s2 Hl HI2. apply labels_between_In in Hl. destruct HI1 as [ws1 [r11 [E1 _]]].
                rewrite E1 in Hl. unfold aut_edges, edges_of in Hl. cbn in Hl. rewrite EA in Hl.
                destruct (Hrng _ Hl) as [G1 [G2 [l' [G3 G4]]]]. cbn in G1, G2, G3. subst l.
                destruct HI2 as [ws2 [r12 [E2 [H21 H22]]]]. fold n. destruct (Nat.ltb_spec q n) as [Lq|Lq].
                + exists (post_push X s2 (mk_edge q (Some l') t)). split; auto. subst s2. ands.
                  * exists (ws2 ++ [mk_edge q (Some l') t]), r12. ands; auto. intros e He. apply in_app_or in He. destruct He as [He|[<-|[]]]; auto.
                  * split; cbn; auto. intros; apply in_or_app; auto.
                  * left. cbn. apply in_or_app; cbn; auto.
                + unfold insert_rel. cbn [e_src e_lab]. subst s2. cbn [q_aut q_rel1 q_rel2 q_nQ q_qp q_ws q_found q_x].
                  fold n. assert (B1: (n <=? q) = true) by (apply Nat.leb_le; auto). rewrite B1.
                  change (a_size A1) with N. assert (B2: (q <? N) = true) by (apply Nat.ltb_lt; lia). rewrite B2. cbn [obind].
                  eexists; split; [reflexivity|]. ands.
                  * exists ws2, (mk_edge q (Some l') t :: r12). ands; auto. intros e [<-|He]; auto.
                  * split; cbn; auto.
                  * right. cbn; auto. }
            destruct Inner2 as [s' [F1 [F2 [F3 F4]]]]. exists s'. ands; auto. intros l Hl. apply F4. apply labels_between_In.
            destruct HI1 as [ws1 [r11 [E1 _]]]. subst s1. unfold aut_edges, edges_of; cbn. rewrite EA; auto. }
        destruct Inner as [s' [F1 [F2 [F3 F4]]]]. exists s'. ands; auto. intros t l Hl. apply F4; auto.
        destruct HI as [ws1 [r11 [E1 _]]]. subst s. cbn. apply tos_In; auto. exists l. unfold aut_edges, edges_of. rewrite EA; auto.
      - exists [], []. ands; auto; intros e []. }
    destruct Main as [st [M1 [[ws [r1 [E1 [E2 E3]]]] [_ M4]]]]. exists st. split; auto.
    assert (Hcov: forall e, In e (map fst (a_edges A0)) -> have e st).
    { intros [q l t] He. apply M4; auto. apply in_seq. destruct (Hrng _ He) as [H _]. cbn in H. lia. }
    clear M4 M1. subst st. constructor.
    - constructor; unfold QS; cbn [q_aut q_nQ q_qp q_ws q_rel1 q_rel2 q_found q_x]; rewrite ?EA; auto.
      + constructor.
      + intros e He. destruct (Hrng e He) as [H1 [H2 [l [H3 H4]]]]. unfold q_range. rewrite H3. ands; auto; lia.
      + intros s f [].
    - intros e He Hs. unfold QS in He. cbn in He. rewrite EA in He. cbn. destruct (Hcov e He) as [H|[_ H]]; auto.
      cbn in H. destruct (E2 e H). lia.
    - intros f s H. unfold QS in H. cbn in H. rewrite EA in H. destruct (Hrng _ H) as [_ [_ [l [H3 _]]]]. discriminate.
    - intros p l q Hp H. unfold QS in H. cbn in H. rewrite EA in H. destruct (Hcov _ H) as [H0|[H0 _]]; auto. cbn in H0; lia.
  Qed.

  (** ** Termination *)
  Definition q_universe : list edge :=
    map (fun x => mk_edge (fst (fst x)) (snd (fst x)) (snd x))
      (list_prod (list_prod (seq 0 N) (None :: map Some (seq 0 (pd_nlab P)))) (seq 0 N)).
  Lemma q_universe_length : length q_universe = N * S (pd_nlab P) * N.
  Proof. unfold q_universe. rewrite map_length, !prod_length. cbn [length]. rewrite map_length, !seq_length. auto. Qed.
  Lemma q_range_universe : forall e, q_range e -> In e q_universe.
  Proof.
    intros [s lb d] [H1 [H2 H3]]. cbn in *. unfold q_universe. apply in_map_iff.
    exists (s, lb, d). split; auto. apply in_prod; [apply in_prod|]; try (apply in_seq; lia).
    destruct lb; [right; apply in_map; apply in_seq; lia|left; auto].
  Qed.
  Lemma qbase_bound : forall st, qbase st -> length (a_edges (q_aut st)) <= N * S (pd_nlab P) * N.
  Proof.
    intros st B. rewrite <- q_universe_length. rewrite <- (map_length fst). apply NoDup_incl_length; [apply B|].
    intros e He. apply q_range_universe. apply B; auto.
  Qed.

  Lemma post_run_spec : forall fuel st, kinv st None None ->
    length (q_ws st) + (N * S (pd_nlab P) * N - length (a_edges (q_aut st))) <= fuel ->
    exists st' b, post_run P X et fuel st = Some (Some (st', b)) /\ kinv st' None None /\ b = q_found st' /\
      (q_ws st' = [] \/ (q_found st' = true /\ et <> None)).
  Proof.
    induction fuel as [|fuel IH]; intros st HI Hm; cbn [post_run].
    - destruct (q_ws st) eqn:Ew; [|cbn in Hm; lia]. exists st, (q_found st). ands; auto.
    - destruct (q_ws st) as [|t ws] eqn:Ew.
      { exists st, (q_found st). ands; auto. }
      destruct (match et with Some _ => q_found st | None => false end) eqn:EF.
      { exists st, true. destruct et; [|discriminate]. ands; auto. right; split; auto. discriminate. }
      destruct (post_step_spec st t ws HI Ew) as [st1 [S1 [S2 [_ S4]]]]. rewrite S1.
      apply IH; auto. rewrite Ew in S4.
      assert (Kb := qbase_bound _ (k_base _ _ _ S2)). cbn [length] in *. lia.
  Qed.

  Lemma post_run_any : forall fuel st, kinv st None None ->
    post_run P X et fuel st = Some None \/
    exists st' b, post_run P X et fuel st = Some (Some (st', b)) /\ kinv st' None None /\ b = q_found st' /\
      (q_ws st' = [] \/ (q_found st' = true /\ et <> None)).
  Proof.
    induction fuel as [|fuel IH]; intros st HI; cbn [post_run]; destruct (q_ws st) as [|t ws] eqn:Ew.
    1,3: right; exists st, (q_found st); ands; auto.
    all: destruct (match et with Some _ => q_found st | None => false end) eqn:EF.
    1,3: right; exists st, true; destruct et; [|discriminate]; ands; auto; right; split; auto; discriminate.
    - auto.
    - destruct (post_step_spec st t ws HI Ew) as [st1 [S1 [S2 _]]]. rewrite S1. auto.
  Qed.
End Inv.
