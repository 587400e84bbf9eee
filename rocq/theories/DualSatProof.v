(** The two saturations of the dual search for shortest traces: what holds of their edges whatever the callback does. *)
From Coq Require Import List Arith Lia Bool ZArith Permutation Sorted.
From Verif Require Import Base BaseFacts Spec SpecFacts PdaModel PdaProof AutModel AutProof PreStarModel PreStarProof PreStarLang
  PostStarModel PostStarProof PostStarLang SolverModel QueryModel QueryProof ProductModel ProductProof UtilModel UtilProof ShortSpec ShortModel ShortProdProof
  PostShortProof PreShortModel PreShortProof PreShortLang VerdictProof DualShortModel DualShortProof.
Import ListNotations.

Lemma emplace_cases : forall A e t A' b, emplace_edge A e t = Some (A', b) ->
  a_acc A' = a_acc A /\ forall x, In x (map fst (a_edges A')) -> (b = true /\ x = e) \/ In x (map fst (a_edges A)).
Proof.
  intros A e t A' b H. unfold emplace_edge in H. destruct (Nat.ltb _ _); [|discriminate].
  destruct (find_edge e (a_edges A)); injection H as <- <-; split; auto. cbn. intros x [H|H]; auto.
Qed.
Lemma found_in : forall A e t, find_edge e (a_edges A) = Some t -> In e (map fst (a_edges A)).
Proof.
  intros A e t H. destruct (in_dec edge_eq_dec e (map fst (a_edges A))) as [|N]; auto. apply find_edge_None in N. congruence.
Qed.

(** ** pre* *)
Section DPre.
  Variable P : pda.
  Hypothesis WP : wf_pda P.
  Variable X : Type.
  Variable f : waut -> X -> edge -> trace -> Z -> option Z -> option (bool * X).
  Variable ptop : nat -> list (Z * (edge * trace)) -> nat.
  Variable oob : nat -> option bool.
  Variable A0 : waut.
  Hypothesis OK : pre_ok P (wa_aut A0).
  Hypothesis Z0 : forall e, w_of A0 e = 0%Z.
  Let E0 := map fst (a_edges (wa_aut A0)).
  Notation deriv := (kderiv P E0).
  Variable Q : X -> Prop.
  Variable T : Prop.
  Definition kaut (A : waut) : Prop := a_acc (wa_aut A) = a_acc (wa_aut A0) /\ forall e, In e (map fst (a_edges (wa_aut A))) -> deriv e (w_of A e).
  Hypothesis CB : forall A x e t w etp b x', kaut A -> deriv e w -> Q x -> f A x e t w etp = Some (b, x') -> Q x' /\ (b = true -> T).

  Record kw (st : pk_st X) : Prop := {
    kw_aut : kaut (k_aut st);
    kw_delta : forall s p id, In (s, (p, id)) (k_delta st) -> exists r ls, get_rule P p id = Some (r, ls) /\ r_op r = PUSH;
    kw_Q : Q (k_x st);
    kw_T : k_found st = true -> T }.

  Lemma deriv_lab : forall e w, deriv e w -> exists l, e_lab e = Some l /\ l < pd_nlab P.
  Proof.
    intros e w H. destruct H as [e He|p id r ls l G Ho M|p id r ls l q w G Ho M Hd|p id r ls l q w G Ho M Hd|p id r ls l s q w1 w2 G Ho M Hd1 Hd2];
      [destruct e as [a l b]; destruct (po_range _ _ OK a l b He) as (_ & _ & x & H); exists x; auto|..];
      exists l; split; auto; eapply matches_lt; eauto; apply (get_rule_facts P WP _ _ _ _ G).
  Qed.
  Lemma deriv_contains : forall e w p id r ls, deriv e w -> get_rule P p id = Some (r, ls) -> contains_lab ls (e_lab e) = true ->
    exists l, e_lab e = Some l /\ matches (pd_nlab P) ls l.
  Proof.
    intros e w p id r ls D G H. destruct (deriv_lab _ _ D) as (l & El & Ll). exists l. split; auto. rewrite El in H. cbn in H. eapply contains_spec; eauto. apply (get_rule_facts P WP _ _ _ _ G).
  Qed.
  Lemma kw_ext : forall st st', kw st -> kaut (k_aut st') -> k_delta st' = k_delta st -> k_x st' = k_x st -> k_found st' = k_found st -> kw st'.
  Proof. intros st st' [H1 H2 H3 H4] K1 K2 K3 K4. constructor; auto; [rewrite K2|rewrite K3|rewrite K4]; auto. Qed.

  Lemma kw_insert : forall st e t w st', kw st -> deriv e w -> k_insert X st e t w = Some st' -> kw st'.
  Proof.
    intros st e t w st' K D E. unfold k_insert in E. destruct (nth_error (k_min st) (e_dst e)) as [mo|]; [|discriminate]. cbn [obind] in E. destruct mo as [m|]; [|discriminate]. cbn [obind] in E.
    destruct (emplace_edge (wa_aut (k_aut st)) e t) as [[A b]|] eqn:Ea; [|discriminate]. cbn [obind fst snd] in E. apply emplace_cases in Ea. destruct Ea as [Ea1 Ea2].
    assert (KA : forall A', a_acc A' = a_acc (wa_aut (k_aut st)) -> (forall x, In x (map fst (a_edges A')) -> x = e \/ In x (map fst (a_edges (wa_aut (k_aut st))))) -> kaut (mk_waut A' ((e, w) :: wa_w (k_aut st)))).
    { intros A' H1 H2. destruct (kw_aut _ K) as [K1 K2]. split; cbn [wa_aut]; [congruence|]. intros x Hx. rewrite w_of_cons. destruct (edge_eq_dec e x) as [<-|N]; auto.
      destruct (H2 x Hx) as [->|H]; [congruence|]. apply (K2 x H). }
    destruct b.
    - destruct (nth_error (k_min st) (e_src e)) as [fo|]; [|discriminate]. cbn [obind] in E. injection E as <-.
      assert (KA' := KA A Ea1 (fun x Hx => match Ea2 x Hx with or_introl H => or_introl (proj2 H) | or_intror H => or_intror H end)).
      destruct (match fo with None => true | Some f0 => Z.ltb (w + m) f0 end); apply (kw_ext st); auto.
    - destruct (Z.ltb w (w_of (k_aut st) e)); injection E as <-; auto. apply (kw_ext st); auto. cbn. apply KA; auto.
  Qed.
  Lemma kw_bulk : forall st from ls to t w st', kw st -> (forall l, matches (pd_nlab P) ls l -> deriv (mk_edge from (Some l) to) w) -> k_bulk P X st from ls to t w = Some st' -> kw st'.
  Proof.
    intros st from ls to t w st' K D E. unfold k_bulk in E. apply (ofold_inv _ _ _ kw) with (3 := E); auto. intros s l s' Hl Ks Es. eapply kw_insert; [exact Ks| |exact Es]. apply D.
    unfold bulk_labels in Hl. unfold matches. destruct (wild ls); auto. apply in_seq in Hl. lia.
  Qed.
  Lemma rule_of : forall p s id x q, nth_error (pd_states P) p = Some s -> In (id, x) (visited (ps_rules s) q) -> get_rule P p id = Some x /\ r_to (fst x) = q.
  Proof. intros p s id x q Es H. apply visited_In in H. destruct H as [H1 H2]. split; auto. unfold get_rule. rewrite Es. auto. Qed.
  Lemma kw_add_pop : forall st q st', kw st -> k_add_pop P X st q = Some st' -> kw st'.
  Proof.
    intros st q st' K E. unfold k_add_pop in E. destruct (Nat.leb (pd_n P) q); [injection E as <-; auto|]. destruct (nth_error (k_popped st) q) as [pq|]; [|discriminate]. cbn [obind] in E.
    destruct pq; [injection E as <-; auto|]. destruct (nth_error (pd_states P) q) as [s|]; [|discriminate]. cbn [obind] in E.
    match type of E with (obind ?x _) = _ => destruct x as [st1|] eqn:E1; [|discriminate] end. cbn [obind] in E. injection E as <-.
    assert (K1 : kw st1).
    { apply (ofold_inv _ _ _ kw) with (3 := E1); auto. intros s1 pre s2 _ Ks Es. destruct (nth_error (pd_states P) pre) as [s'|] eqn:Ep; [|discriminate]. cbn [obind] in Es.
      apply (ofold_inv _ _ _ kw) with (3 := Es); auto. intros s3 [id [r ls]] s4 Hin K3 E3. cbn [fst snd] in E3. destruct (rule_of _ _ _ _ _ Ep Hin) as [G Hr]. cbn in Hr.
      destruct (r_op r) eqn:Eo; try (injection E3 as <-; auto; fail). eapply kw_bulk; [exact K3| |exact E3]. intros l Hl. rewrite <- Hr. eapply kd_pop; eauto. }
    apply (kw_ext st1); auto. apply K1.
  Qed.
  Lemma kw_init : forall x st, Q x -> k_init P X A0 x = Some st -> kw st.
  Proof.
    intros x st HQ E. unfold k_init in E. apply (ofold_inv _ _ _ kw) with (3 := E).
    - intros s q s' _ Ks Es. unfold k_init_state in Es. match type of Es with (obind ?y _) = _ => destruct y as [st1|] eqn:E1; [|discriminate] end. cbn [obind] in Es.
      assert (K1 : kw st1).
      { apply (ofold_inv _ _ _ kw) with (3 := E1); auto. intros s1 t s2 _ K1 E2. apply (ofold_inv _ _ _ kw) with (3 := E2); auto. intros s3 l s4 _ K3 E3.
        unfold k_init_edge in E3. destruct (_ && _); [|discriminate]. injection E3 as <-. apply (kw_ext s3); auto. apply K3. }
      destruct (accepting _ q) as [b|]; [|discriminate]. cbn [obind] in Es. destruct b; [eapply kw_add_pop; eauto|injection Es as <-; auto].
    - constructor; cbn; auto; try discriminate; [|intros ? ? ? []]. split; auto. intros e He. rewrite Z0. apply kd_init. auto.
  Qed.

  Lemma k_stored_in : forall st e w, kw st -> k_stored X st e = Some w -> deriv e w.
  Proof.
    intros st e w K E. unfold k_stored in E. destruct (find_edge e _) eqn:Ef; [|discriminate]. injection E as <-. apply found_in in Ef. apply (kw_aut _ K). auto.
  Qed.
  Lemma kw_rule : forall t w pre s st id r ls st', kw st -> deriv t w -> nth_error (pd_states P) pre = Some s -> In (id, (r, ls)) (visited (ps_rules s) (e_src t)) ->
    k_rule P X t w pre st (id, (r, ls)) = Some st' -> kw st'.
  Proof.
    intros t w pre s st id r ls st' K D Ep Hin E. destruct (rule_of _ _ _ _ _ Ep Hin) as [G Hr]. cbn in Hr. unfold k_rule in E. cbn [fst snd] in E. cbv zeta in E.
    destruct t as [ts tl td]. cbn [e_src e_lab e_dst] in *. subst ts. destruct (r_op r) eqn:Eo.
    - destruct (lab_eqb (Some (r_opl r)) tl) eqn:El; [|injection E as <-; auto]. apply lab_eqb_eq in El. subst tl.
      assert (K1 : kw (k_add_delta X st (td, (pre, id)))). { destruct K as [H1 H2 H3 H4]. constructor; auto. cbn. intros s0 p0 id0 [H|H]; [injection H as <- <- <-; eauto|eauto]. }
      destruct (k_rel_of X _ td) as [rs|] eqn:Er; [|discriminate]. cbn [obind] in E.
      apply (ofold_inv _ _ _ kw) with (3 := E); auto. intros s1 e s2 He Ks Es. destruct (contains_lab ls (e_lab e)) eqn:Ec; [|injection Es as <-; auto].
      destruct (k_stored X s1 e) as [w2|] eqn:E2; [|discriminate]. cbn [obind] in Es. apply (k_stored_in _ _ _ Ks) in E2.
      destruct (deriv_contains _ _ _ _ _ _ E2 G Ec) as (l & El & Ml). eapply kw_insert; [exact Ks| |exact Es]. rewrite El. replace (w2 + w + r_w r)%Z with (r_w r + w + w2)%Z by lia.
      unfold k_rel_of in Er. destruct (Nat.ltb td _); [|discriminate]. injection Er as <-. apply in_rev in He. apply filter_In in He. destruct He as [_ He]. apply Nat.eqb_eq in He.
      eapply kd_push; eauto. destruct e as [a b c]. cbn in *. subst. auto.
    - destruct (nth_error (k_popped st) (r_to r)) as [pq|]; [|discriminate]. cbn [obind] in E. destruct pq; [injection E as <-; auto|]. eapply kw_bulk; [exact K| |exact E].
      intros l Hl. eapply kd_pop; eauto.
    - destruct (lab_eqb (Some (r_opl r)) tl) eqn:El; [|injection E as <-; auto]. apply lab_eqb_eq in El. subst tl. eapply kw_bulk; [exact K| |exact E]. intros l Hl. eapply kd_swap; eauto.
    - destruct (contains_lab ls tl) eqn:Ec; [|injection E as <-; auto]. destruct (deriv_contains _ _ _ _ _ _ D G Ec) as (l & El & Ml). cbn in El. subst tl. eapply kw_insert; [exact K| |exact E]. eapply kd_noop; eauto.
  Qed.
  Lemma kw_delta_loop : forall st t w st', kw st -> deriv t w -> k_delta_loop P X st t w = Some st' -> kw st'.
  Proof.
    intros st t w st' K D E. unfold k_delta_loop in E. destruct (k_delta_of X st (e_src t)) as [ds|] eqn:Ed; [|discriminate]. cbn [obind] in E.
    unfold k_delta_of in Ed. destruct (Nat.ltb _ _); [|discriminate]. injection Ed as <-.
    apply (ofold_inv _ _ _ kw) with (3 := E); auto. intros s1 [p id] s2 Hd Ks Es. cbn [fst snd] in Es. destruct (get_rule P p id) as [[r ls]|] eqn:G; [|discriminate]. cbn [obind fst snd] in Es.
    destruct (contains_lab ls (e_lab t)) eqn:Ec; [|injection Es as <-; auto]. destruct (k_stored X s1 _) as [w1|] eqn:E1; [|discriminate]. cbn [obind] in Es. apply (k_stored_in _ _ _ Ks) in E1.
    apply in_rev in Hd. apply in_map_iff in Hd. destruct Hd as ([s d] & Hd1 & Hd2). cbn in Hd1. subst d. apply filter_In in Hd2. destruct Hd2 as [Hd2 _].
    destruct (kw_delta _ K _ _ _ Hd2) as (r' & ls' & G' & Ho). rewrite G in G'. injection G' as <- <-. destruct (deriv_contains _ _ _ _ _ _ D G Ec) as (l & El & Ml).
    eapply kw_insert; [exact Ks| |exact Es]. destruct t as [a b c]. cbn in *. subst b. eapply kd_push; eauto.
  Qed.
  Lemma kw_step : forall st st', kw st -> k_step P X (Some f) ptop oob st = Some st' -> kw st'.
  Proof.
    intros st st' K E. unfold k_step in E. destruct (nth_error (k_ws st) _) as [[key [t tr]]|]; [|discriminate]. cbn [obind fst snd] in E. cbv zeta in E.
    set (st0 := mk_pk _ _ _ _ _ _ _ _ _) in E. assert (K0 : kw st0) by (apply (kw_ext st); auto; apply K).
    destruct (k_weight X (Some f) st0 t) as [w|] eqn:Ew; [|discriminate]. cbn [obind] in E. assert (D := k_stored_in _ _ _ K0 Ew).
    destruct (k_popped_at X oob st0 (e_src t)) as [pq|]; [|discriminate]. cbn [obind] in E. destruct (Nat.ltb (e_src t) _); [|discriminate].
    set (st1 := if pq then st0 else k_set_min X st0 (e_src t) key) in *. assert (K1 : kw st1) by (unfold st1; destruct pq; auto; apply (kw_ext st0); auto; apply K0). clearbody st1.
    destruct (nth_error (k_min st1) (e_dst t)) as [mo|]; [|discriminate]. cbn [obind] in E. destruct (match mo with Some m => Z.ltb (w + m) key | None => false end); [injection E as <-; auto|].
    unfold k_call in E. destruct (f (k_aut st1) (k_x st1) t tr w (Some key)) as [[b x]|] eqn:Ef; [|discriminate]. cbn [obind fst snd] in E.
    destruct (CB _ _ _ _ _ _ _ _ (kw_aut _ K1) D (kw_Q _ K1) Ef) as [C1 C2].
    destruct (k_delta_loop P X _ t w) as [st3|] eqn:E3; [|discriminate]. cbn [obind] in E.
    assert (K3 : kw st3).
    { eapply kw_delta_loop; [|exact D|exact E3]. destruct K1 as [H1 H2 H3 H4]. constructor; auto. cbn. intros H. apply orb_true_iff in H. destruct H; auto. }
    destruct (Nat.leb (pd_n P) (e_src t)); [injection E as <-; auto|]. destruct (nth_error (pd_states P) (e_src t)) as [s|]; [|discriminate]. cbn [obind] in E.
    match type of E with (obind ?y _) = _ => destruct y as [st4|] eqn:E4; [|discriminate] end. cbn [obind] in E.
    assert (K4 : kw st4).
    { apply (ofold_inv _ _ _ kw) with (3 := E4); auto. intros s1 pre s2 _ Ks Es. destruct (nth_error (pd_states P) pre) as [s'|] eqn:Ep; [|discriminate]. cbn [obind] in Es.
      apply (ofold_inv _ _ _ kw) with (3 := Es); auto. intros s3 [id [r ls]] s4 Hin K5 E5. eapply kw_rule; eauto. }
    unfold k_flush in E. cbn [k_ws k_set_popped] in E. assert (K5 : kw (k_set_popped X st4 (e_src t))) by (apply (kw_ext st4); auto; apply K4).
    destruct (k_ws st4); [|injection E as <-; auto]. destruct (f _ _ t tr w None) as [[b' x']|] eqn:Ef'; [|discriminate]. cbn [obind fst snd] in E. injection E as <-.
    destruct (CB _ _ _ _ _ _ _ _ (kw_aut _ K5) D (kw_Q _ K5) Ef') as [C3 C4]. destruct K5 as [H1 H2 H3 H4]. constructor; auto.
  Qed.
End DPre.

(** ** post* *)
Section DPost.
  Variable P : pda.
  Hypothesis WP : wf_pda P.
  Variable X : Type.
  Variable f : waut -> X -> edge -> trace -> Z -> Z -> option (bool * X).
  Variable ptop : nat -> list (Z * (edge * trace)) -> nat.
  Variable A0 : waut.
  Hypothesis OK : post_ok P (wa_aut A0).
  Hypothesis Z0 : forall e, w_of A0 e = 0%Z.
  Let n := pd_n P.
  Let nQ := a_size (wa_aut A0).
  Let A1 := fst (qp_init P (wa_aut A0)).
  Let M := snd (qp_init P (wa_aut A0)).
  Variable Q : X -> Prop.
  Variable T : Prop.
  Definition hedge (e : edge) (v : Z) : Prop := wsrc P A0 e v /\ n <= e_dst e /\ forall l, e_lab e = Some l -> l < pd_nlab P.
  Definition haut (A : waut) : Prop := a_acc (wa_aut A) = a_acc A1 /\ forall e, In e (map fst (a_edges (wa_aut A))) -> hedge e (w_of A e).
  Hypothesis CB : forall A x e t w etp b x', haut A -> hedge e w -> Q x -> f A x e t w etp = Some (b, x') -> Q x' /\ (b = true -> T).

  Record hw (st : ps_st X) : Prop := {
    hw_aut : haut (h_aut st);
    hw_nQ : h_nQ st = nQ;
    hw_qp : h_qp st = M;
    hw_ew : forall e b d, w_find e (h_ew st) = Some (b, d) -> hedge e b;
    hw_Q : Q (h_x st);
    hw_T : h_found st = true -> T }.

  Lemma hw_ext : forall st st', hw st -> haut (h_aut st') -> h_nQ st' = h_nQ st -> h_qp st' = h_qp st -> h_ew st' = h_ew st -> h_x st' = h_x st -> h_found st' = h_found st -> hw st'.
  Proof. intros st st' [H1 H2 H3 H4 H5 H6] K1 K2 K3 K4 K5 K6. constructor; auto; try congruence; [rewrite K4|rewrite K6]; auto. Qed.
  Lemma hw_set_ew : forall st e b d, hw st -> hedge e b -> hw (h_set_ew X st e (b, d)).
  Proof.
    intros st e b d [H1 H2 H3 H4 H5 H6] He. constructor; auto. cbn [h_set_ew h_ew]. intros e' b' d' H. rewrite w_find_cons in H. destruct (edge_eq_dec e e') as [<-|]; [injection H as <- <-; auto|eauto].
  Qed.
  Lemma hw_push : forall st w e t, hw st -> hw (h_push X st w e t).
  Proof. intros st w e t K. apply (hw_ext st); auto. apply K. Qed.
  Lemma hw_update_ : forall st e v ww, hw st -> hedge e v -> hw (fst (h_update_ X st e v ww)).
  Proof.
    intros st e v ww K He. unfold h_update_. destruct (w_find e (h_ew st)) as [[b d]|] eqn:Ew; cbn [fst]; apply hw_set_ew; auto. destruct (Z.ltb v b); auto. eapply hw_ew; eauto.
  Qed.
  Lemma hw_update : forall st e v t st', hw st -> hedge e v -> h_update X st e v t = Some st' -> hw st'.
  Proof.
    intros st e v t st' K He E. unfold h_update in E. match type of E with (obind ?y _) = _ => destruct y as [ww|]; [|discriminate] end. cbn [obind] in E. injection E as <-.
    assert (K1 := hw_update_ st e v ww K He). destruct (snd (snd _)); auto. apply hw_push. auto.
  Qed.
  Lemma hw_insert_rel : forall st e st', hw st -> h_insert_rel P X st e = Some st' -> hw st'.
  Proof.
    intros st e st' K E. unfold h_insert_rel in E. repeat match type of E with (_ <- ?x ;; _) = _ => destruct x as [?|]; [cbn [obind] in E|discriminate] end. injection E as <-. apply (hw_ext st); auto. apply K.
  Qed.
  Lemma hw_et : forall st e t w etp st', hw st -> hedge e w -> h_et X (Some f) st e t w etp = Some st' -> hw st'.
  Proof.
    intros st e t w etp st' K He E. unfold h_et in E. destruct (f (h_aut st) (h_x st) e t w etp) as [[b x]|] eqn:Ef; [|discriminate]. cbn [obind fst snd] in E. injection E as <-.
    destruct (CB _ _ _ _ _ _ _ _ (hw_aut _ K) He (hw_Q _ K) Ef) as [C1 C2]. destruct K as [H1 H2 H3 H4 H5 H6]. constructor; auto. cbn. intros H. apply orb_true_iff in H. destruct H; auto.
  Qed.

  Lemma n_nQ' : n <= nQ.
  Proof. apply (qk_n _ _ OK). Qed.
  Lemma hedge_E0 : forall e, In e (map fst (a_edges (wa_aut A0))) -> hedge e 0.
  Proof.
    intros [s l d] H. assert (H' : aut_edges (wa_aut A0) s l d) by exact H. destruct (qk_range _ _ OK _ _ _ H') as (R1 & R2 & x & -> & R3). unfold hedge, wsrc. cbn. fold n nQ; fold nQ in R1, R2; fold n in R2. ands; try lia.
    - intros Ls. unfold WSrc. fold nQ. destruct (Nat.ltb_spec d nQ); [|lia]. exists s, [x]. ands; auto; [|constructor]. econstructor; [exact H|constructor].
    - intros _. split; auto.
    - intros l E. injection E as <-. auto.
  Qed.

  Lemma hinit_aut : forall st e st', h_init_edge P X (Some f) st e = Some st' -> h_aut st' = h_aut st.
  Proof.
    intros st e st' H. unfold h_init_edge in H. destruct (e_lab e); [|discriminate].
    assert (AUT : h_aut (match w_find e (h_ew st) with Some _ => st | None => h_set_ew X st e (0%Z, 0%Z) end) = h_aut st) by (destruct (w_find e (h_ew st)); auto).
    destruct (Nat.ltb (e_src e) (pd_n P)); [injection H as <-; auto|].
    destruct (h_insert_rel P X _ e) as [st2|] eqn:E1; [cbn [obind] in H|discriminate].
    assert (E2 : h_aut st2 = h_aut st).
    { rewrite <- AUT. unfold h_insert_rel in E1. repeat match type of E1 with (_ <- ?x ;; _) = _ => destruct x as [?|]; [cbn [obind] in E1|discriminate] end. injection E1 as <-. auto. }
    destruct (find_edge e _); [cbn [obind] in H|discriminate]. unfold h_et in H. destruct (f _ _ _ _ _ _); [cbn [obind] in H|discriminate]. injection H as <-. auto.
  Qed.

  Lemma hw_init : forall x st, Q x -> h_init P X (Some f) A0 x = Some st -> hw st.
  Proof.
    intros x st HQ E. unfold h_init in E. destruct (_ || _); [discriminate|]. cbv zeta in E. destruct (Nat.leb _ _); [|discriminate].
    apply (ofold_inv _ _ _ (fun s => hw s /\ h_aut s = mk_waut A1 (wa_w A0))) with (3 := E).
    - intros s q s' _ Ks Es. unfold h_init_state in Es.
      apply (ofold_inv _ _ _ (fun s => hw s /\ h_aut s = mk_waut A1 (wa_w A0))) with (3 := Es); auto. intros s1 t s2 _ K1 E1. assert (HA := proj2 K1).
      apply (ofold_inv _ _ _ (fun s => hw s /\ h_aut s = mk_waut A1 (wa_w A0))) with (3 := E1); auto. intros s3 l s4 Hl [K3 A3] E3. rewrite HA in Hl. cbn [wa_aut] in Hl.
      apply labels_between_In in Hl. assert (He : hedge (mk_edge q l t) 0). { apply hedge_E0. unfold A1 in Hl. unfold aut_edges in Hl. rewrite (A1_edges P A0) in Hl. exact Hl. }
      split; [|rewrite <- A3; eapply hinit_aut; exact E3].
      unfold h_init_edge in E3. cbn [e_lab] in E3. destruct l as [l|]; [|discriminate]. set (e := mk_edge q (Some l) t) in *.
      set (st1 := match w_find e (h_ew s3) with None => _ | Some _ => s3 end) in *. assert (Kst1 : hw st1) by (unfold st1; destruct (w_find e (h_ew s3)); auto; apply hw_set_ew; auto). clearbody st1.
      destruct (Nat.ltb (e_src e) (pd_n P)); [injection E3 as <-; apply hw_push; auto|].
      destruct (h_insert_rel P X st1 e) as [st2|] eqn:E4; [|discriminate]. cbn [obind] in E3. apply (hw_insert_rel _ _ _ Kst1) in E4. destruct (find_edge e _) as [tr|] eqn:Ef; [|discriminate]. cbn [obind] in E3.
      eapply hw_et; [exact E4| |exact E3]. rewrite A3. change (w_of (mk_waut A1 (wa_w A0)) e) with (w_of A0 e). rewrite Z0. auto.
    - split; auto. constructor; cbn; auto; try discriminate. split; auto. cbn [wa_aut]. intros e He. replace (w_of _ e) with 0%Z by (symmetry; exact (Z0 e)). apply hedge_E0. unfold A1 in He. rewrite (A1_edges P A0) in He. auto.
  Qed.

  Lemma hedge_high : forall e v, hedge e v -> n <= e_src e -> exists x, e_lab e = Some x.
  Proof.
    intros [s l d] v ((_ & W2 & W3) & _) L. cbn in *. destruct (Nat.lt_ge_cases s nQ) as [L1|L1].
    - destruct (W2 (conj L L1)) as [W _]. destruct (qk_range _ _ OK _ _ _ W) as (_ & _ & x & Hx & _). eauto.
    - destruct (W3 L1) as (x & Hx & _). eauto.
  Qed.
  (** Following an epsilon edge. *)
  Lemma hedge_comb : forall p s l d v1 v2, hedge (mk_edge p None s) v1 -> hedge (mk_edge s l d) v2 -> hedge (mk_edge p l d) (v1 + v2)%Z.
  Proof.
    intros p s l d v1 v2 H1 H2. assert (Lp : p < n). { destruct (Nat.lt_ge_cases p n) as [|L]; auto. destruct (hedge_high _ _ H1 L) as [x Hx]. discriminate. }
    assert (Ls : n <= s) by apply H1. destruct (hedge_high _ _ H2 Ls) as [x Hx]. cbn in Hx. subst l. destruct H1 as ((S1 & _ & _) & _ & _). destruct H2 as (S2 & D2 & L2). cbn in *. specialize (S1 Lp).
    unfold hedge. cbn. ands; auto. unfold wsrc. cbn. pose proof n_nQ'. fold n nQ. ands; try lia. intros _. apply (WSrc_extend P A0 OK (mk_edge s (Some x) d) _ x p [] _ S2 eq_refl Ls S1).
  Qed.
  Lemma h_weight_hedge : forall st e w, hw st -> h_weight X st e = Some w -> hedge e w.
  Proof.
    intros st e w K E. unfold h_weight in E. destruct (find_edge e _) eqn:Ef; [|discriminate]. injection E as <-. apply found_in in Ef. apply (hw_aut _ K). auto.
  Qed.
  Lemma hw_rule : forall t l wt we st id r ls st', hw st -> hedge t wt -> e_src t < n -> e_lab t = Some l -> get_rule P (e_src t) id = Some (r, ls) ->
    h_rule X t l wt we st (id, (r, ls)) = Some st' -> hw st'.
  Proof.
    intros t l wt we st id r ls st' K Ht Hs Hl G E. unfold h_rule in E. cbn [fst snd] in E. cbv zeta in E. destruct (get_rule_facts P WP _ _ _ _ G) as [G1 [G2 G3]]. fold n in G1, G2.
    destruct (contains ls l) eqn:Hc; [|injection E as <-; auto]. destruct Ht as ((S1 & _ & _) & Ld & Ll). specialize (S1 Hs). rewrite Hl in S1. cbn [olist] in S1. specialize (Ll l Hl).
    assert (Hmt : matches (pd_nlab P) ls l) by (eapply contains_spec; eauto). assert (S2 := WSrc_reach P A0 _ _ _ _ _ S1 (PostShortProof.wrule_step P A0 _ _ _ _ _ [] G Hmt)).
    assert (Hlab : match r_op r with PUSH | SWAP => r_opl r < pd_nlab P | _ => True end).
    { destruct (r_op r) eqn:Eo; auto; apply get_rule_at in G; apply nth_error_In in G; apply (wf'_opl P (wf_wf_pda' _ WP) _ _ _ G); auto. }
    pose proof n_nQ' as LN. unfold sop_of in S2. destruct (r_op r) eqn:Er; cbn in S2.
    - destruct (qp_find (r_to r, r_opl r) (h_qp st)) as [qn|] eqn:Eq; [|discriminate]. cbn [obind] in E. rewrite (hw_qp _ K) in Eq. assert (Rq := qp_r P A0 _ _ Eq). fold nQ in Rq.
      assert (H1 : hedge (mk_edge (r_to r) (Some (r_opl r)) qn) 0).
      { unfold hedge, wsrc. cbn. fold n nQ. ands; try lia; [|intros x Ex; injection Ex as <-; auto]. intros _. unfold WSrc. fold nQ. destruct (Nat.ltb_spec qn nQ); [lia|]. exists (r_to r), (r_opl r). split; auto. constructor. }
      destruct (h_minpath X st qn) as [mo|]; [|discriminate]. cbn [obind] in E.
      match type of E with h_update X ?s _ _ _ = _ => set (st2 := s) in E; assert (K2 : hw st2) end.
      { assert (K1 := hw_update_ st _ _ (we + r_w r)%Z K H1). unfold st2. destruct (match mo with None => true | Some m => Z.ltb (we + r_w r) m end); auto.
        assert (K1' : forall i w, hw (h_set_min X (fst (h_update_ X st (mk_edge (r_to r) (Some (r_opl r)) qn) 0 (we + r_w r)%Z)) i w)) by (intros; eapply hw_ext; [exact K1|apply K1|..]; reflexivity).
        destruct (snd (snd _)); auto. apply hw_push. auto. }
      eapply hw_update; [exact K2| |exact E]. unfold hedge, wsrc. cbn. fold n nQ. ands; try lia; auto; [|intros x Ex; injection Ex as <-; auto].
      intros _. exists l. split; auto. intros p' g Hq'. assert (Eq2 := qp_i P A0 _ _ _ Hq' Eq). injection Eq2 as -> ->. auto.
    - eapply hw_update; [exact K| |exact E]. unfold hedge, wsrc. cbn. fold n nQ. ands; try lia; auto. discriminate.
    - eapply hw_update; [exact K| |exact E]. unfold hedge, wsrc. cbn. fold n nQ. ands; try lia; auto. intros x Ex; injection Ex as <-; auto.
    - eapply hw_update; [exact K| |exact E]. unfold hedge, wsrc. cbn. fold n nQ. ands; try lia; auto. intros x Ex; injection Ex as <-; auto.
  Qed.

  Lemma hw_step : forall st st', hw st -> h_step P X (Some f) ptop st = Some st' -> hw st'.
  Proof.
    intros st st' K E. unfold h_step in E. destruct (nth_error (h_ws st) _) as [[we [t tr]]|]; [|discriminate]. cbn [obind fst snd] in E. cbv zeta in E.
    set (st0 := mk_ps _ _ _ _ _ _ _ _ _ _ _) in E. assert (K0 : hw st0) by (apply (hw_ext st); auto; apply K).
    destruct (w_find t (h_ew st)) as [[wt d]|] eqn:Ew; [|discriminate]. cbn [obind fst snd] in E. assert (Ht : hedge t wt) by (eapply hw_ew; [exact K|exact Ew]).
    destruct (Z.ltb d we); [injection E as <-; auto|]. destruct (Nat.ltb (e_dst t) (pd_n P)); [discriminate|].
    destruct (h_insert_rel P X st0 t) as [st1|] eqn:E1; [|discriminate]. cbn [obind] in E. apply (hw_insert_rel _ _ _ K0) in E1.
    destruct (wa_add_edge (h_aut st1) t tr wt) as [A|] eqn:EA; [|discriminate]. cbn [obind] in E.
    assert (KA : hw (h_set_aut X st1 A)).
    { eapply hw_ext; [exact E1| |reflexivity..]. cbn. unfold wa_add_edge in EA. destruct (emplace_edge (wa_aut (h_aut st1)) t tr) as [[A' b]|] eqn:Ee; [|discriminate]. cbn [obind fst snd] in EA.
      apply emplace_cases in Ee. destruct Ee as [Ee1 Ee2]. destruct (hw_aut _ E1) as [U1 U2]. destruct b; injection EA as <-; [|split; auto].
      split; cbn [wa_aut]; [congruence|]. intros x Hx. rewrite w_of_cons. destruct (edge_eq_dec t x) as [<-|N]; auto. destruct (Ee2 x Hx) as [[_ ->]|H]; [congruence|]. apply (U2 x H). }
    destruct (h_et X (Some f) _ t tr wt we) as [st2|] eqn:E2; [|discriminate]. cbn [obind] in E. apply (hw_et _ _ _ _ _ _ KA Ht) in E2. pose proof n_nQ' as LN.
    destruct (Nat.leb_spec (pd_n P) (e_src t)) as [L|L].
    - destruct (Nat.ltb (e_src t) (h_nQ st)); [discriminate|]. destruct (h_rel2_of X st2 (e_src t)) as [fs|]; [|discriminate]. cbn [obind] in E.
      apply (ofold_inv _ _ _ hw) with (3 := E); auto. intros s1 p s2 _ Ks Es. destruct (h_weight X s1 _) as [w|] eqn:E3; [|discriminate]. cbn [obind] in Es.
      apply (h_weight_hedge _ _ _ Ks) in E3. eapply hw_update; [exact Ks| |exact Es]. rewrite Z.add_comm. eapply hedge_comb; [exact E3|]. destruct t; auto.
    - destruct (e_lab t) as [l|] eqn:El.
      + destruct (nth_error (pd_states P) (e_src t)) as [s|] eqn:Es; [|discriminate]. cbn [obind] in E. apply (ofold_inv _ _ _ hw) with (3 := E); auto. intros s1 [id [r ls]] s2 Hin Ks E3.
        apply enum_In in Hin. eapply hw_rule; [exact Ks|exact Ht|exact L|exact El| |exact E3]. unfold get_rule. rewrite Es. auto.
      + destruct (h_rel1_of P X st2 (e_dst t)) as [es|] eqn:Er; [|discriminate]. cbn [obind] in E. apply (ofold_inv _ _ _ hw) with (3 := E); auto. intros s1 e s2 Hin Ks E3.
        destruct (h_weight X s1 e) as [w|] eqn:E4; [|discriminate]. cbn [obind] in E3. destruct (Nat.ltb (e_dst e) (pd_n P)); [discriminate|]. apply (h_weight_hedge _ _ _ Ks) in E4.
        unfold h_rel1_of in Er. destruct (_ && _); [|discriminate]. injection Er as <-. apply in_rev in Hin. apply filter_In in Hin. destruct Hin as [_ He]. apply Nat.eqb_eq in He.
        eapply hw_update; [exact Ks| |exact E3]. rewrite Z.add_comm. destruct t as [a b c]. cbn in *. subst b. eapply hedge_comb; [exact Ht|]. rewrite <- He. destruct e; auto.
  Qed.
End DPost.

(** ** The search *)
Section DMain.
  Variable P : pda.
  Hypothesis WP : wf_pda P.
  Variable top : list (Z * nat) -> nat.
  Variables ptopk ptoph : nat -> list (Z * (edge * trace)) -> nat.
  Variable oob : nat -> option bool.
  Variables init fin : waut.
  Hypothesis OI : post_ok P (wa_aut init).
  Hypothesis OF : post_ok P (wa_aut fin).
  Hypothesis ZI : forall e, w_of init e = 0%Z.
  Hypothesis ZF : forall e, w_of fin e = 0%Z.
  Let n := pd_n P.
  Let Rw := pda_wrules P.
  Let accF := a_acc (fst (qp_init P (wa_aut init))).
  Let accS := a_acc (wa_aut fin).
  Let RF := hedge P init.
  Let RS := kderiv P (map fst (a_edges (wa_aut fin))).
  Notation FND := (FOUND n accF accS RF RS).
  Notation PQ := (PS n accF accS RF RS).
  Notation hwt := (hw P sprod init PQ FND).
  Notation kwt := (kw P sprod fin PQ FND).

  Lemma OFp : pre_ok P (wa_aut fin).
  Proof. apply post_ok_pre_ok in OF. apply OF. Qed.
  Lemma OFn : no_in P (wa_aut fin).
  Proof. apply post_ok_pre_ok in OF. apply OF. Qed.

  Lemma rpath_src : forall p w v a, p < n -> rpath RF p w v a -> (a = p /\ w = [] /\ v = 0%Z) \/ (n <= a /\ WSrc P init a (p, w) v).
  Proof.
    intros p w v a Hp H. induction H as [|w v a1 l x a2 H IH HE]; auto. right. assert (L2 : n <= a2) by apply HE. split; auto. destruct IH as [(-> & -> & ->)|[L1 IH]].
    - destruct HE as ((W & _) & _). cbn in W. apply W. auto.
    - destruct (hedge_high P init OI _ _ HE L1) as [y Ey]. cbn in Ey. subst l. destruct HE as (W & _). apply (WSrc_extend P init OI _ _ y _ _ _ W eq_refl L1 IH).
  Qed.
  Lemma rpath_dst : forall p w v b, p < n -> rpath RS p w v b -> WDest P fin b (p, w) v.
  Proof.
    intros p w v b Hp H. induction H as [|w v b1 l x b2 H IH HE].
    - unfold WDest. fold n. apply Nat.ltb_lt in Hp. rewrite Hp. constructor.
    - destruct (deriv_sound P WP fin (qk_n _ _ OF) OFn _ _ HE) as (y & Ey & D1 & D2).
      { intros [s l' d] Hx. destruct (qk_range _ _ OF s l' d Hx) as (_ & _ & z & Hz & _). exists z. auto. }
      cbn [e_src e_dst e_lab] in *. subst l. apply (WDest_app P fin (qk_n _ _ OF) b1 b2 (p, w) v x [y] IH D1). intros L. destruct (D2 L) as [D3 D4]. ands; auto.
      + apply (OFn b1 (Some y) b2). exact D3.
      + eapply ap_lab; [exact D3|constructor].
  Qed.
  Lemma accF_low : forall a, nth_error accF a = Some true -> a < a_size (wa_aut init) /\ aut_final (wa_aut init) a.
  Proof.
    intros a H. destruct (qo_acc _ _ (proj1 (qp_init_ok P (wa_aut init)))) as [k Ek]. unfold accF in H. rewrite Ek in H.
    destruct (Nat.lt_ge_cases a (a_size (wa_aut init))) as [L|L]; [rewrite nth_error_app1 in H by exact L; auto|].
    rewrite nth_error_app2 in H by exact L. apply nth_error_In in H. apply repeat_spec in H. discriminate.
  Qed.
  Lemma JG_run : forall a b d, JG n RF RS a b d -> nth_error accF a = Some true -> nth_error accS b = Some true ->
    run_weight Rw (aut_lang n (wa_aut init)) (aut_lang n (wa_aut fin)) d.
  Proof.
    intros a b d (p & w & va & vb & Hp & H1 & H2 & ->) Fa Fb. apply accF_low in Fa. destruct Fa as [La Fa].
    assert (R1 : exists c, aut_lang n (wa_aut init) c /\ wreach Rw c va (p, w)).
    { destruct (rpath_src _ _ _ _ Hp H1) as [(-> & -> & ->)|[L HW]].
      - exists (p, []). split; [|constructor]. split; auto. exists p. split; auto. constructor.
      - unfold WSrc in HW. apply Nat.ltb_lt in La. rewrite La in HW. destruct HW as (p0 & w0 & K1 & K2 & K3). exists (p0, w0). split; auto. split; auto. exists a. split; auto. apply npath_apath. auto. }
    assert (R2 : exists c, aut_lang n (wa_aut fin) c /\ wreach Rw (p, w) vb c).
    { assert (HW := rpath_dst _ _ _ _ Hp H2). unfold WDest in HW. fold n in HW. destruct (Nat.ltb_spec b n) as [L|L].
      - exists (b, []). split; auto. split; auto. exists b. split; auto. constructor.
      - destruct HW as (p' & w' & K1 & K2 & K3). exists (p', w'). split; auto. split; auto. exists b. auto. }
    destruct R1 as (c1 & L1 & R1). destruct R2 as (c2 & L2 & R2). exists c1, c2. ands; auto. eapply wreach_trans; eauto.
  Qed.
  Lemma FOUND_run : FND -> exists d, run_weight Rw (aut_lang n (wa_aut init)) (aut_lang n (wa_aut fin)) d.
  Proof. intros (a & b & d & H1 & H2 & H3). exists d. eapply JG_run; eauto. Qed.

  Lemma haut_RF : forall A, haut P init A -> forall q l q', aut_edges (wa_aut A) q l q' -> RF (mk_edge q l q') (w_of A (mk_edge q l q')).
  Proof. intros A [_ H] q l q' He. apply H. exact He. Qed.
  Lemma kaut_RS : forall A, kaut P fin A -> forall q l q', aut_edges (wa_aut A) q l q' -> RS (mk_edge q l q') (w_of A (mk_edge q l q')).
  Proof. intros A [_ H] q l q' He. apply H. exact He. Qed.
  Lemma CB_post : forall other, kaut P fin other -> forall A x e t w etp b x', haut P init A -> hedge P init e w -> PQ x ->
    cb_dual_post P top other A x e t w etp = Some (b, x') -> PQ x' /\ (b = true -> FND).
  Proof.
    intros other HO A x e t w etp b x' HA He HQ E. unfold cb_dual_post in E. apply (add_weak n top accF accS RF RS A other) with (7 := E); auto; [apply HA|apply HO|apply haut_RF; auto|apply kaut_RS; auto].
  Qed.
  Lemma CB_pre : forall other, haut P init other -> forall A x e t w etp b x', kaut P fin A -> kderiv P (map fst (a_edges (wa_aut fin))) e w -> PQ x ->
    cb_dual_pre P top other A x e t w etp = Some (b, x') -> PQ x' /\ (b = true -> FND).
  Proof.
    intros other HO A x e t w etp b x' HA He HQ E. unfold cb_dual_pre in E. apply (add_weak n top accF accS RF RS other A) with (7 := E); auto; [apply HO|apply HA|apply haut_RF; auto|apply kaut_RS; auto].
  Qed.

  Lemma dual_loop_weak : forall fuel ks hs b ks' hs', kwt ks -> hwt hs -> dual_loop P top ptopk ptoph oob fuel ks hs = done (b, (ks', hs')) ->
    PQ (h_x hs') /\ (b = true -> FND).
  Proof.
    intros fuel. induction fuel as [|fuel IH]; intros ks hs b ks' hs' K H E; cbn [dual_loop] in E;
      destruct (match k_ws ks, h_ws hs with _ :: _, _ :: _ => true | _, _ => false end); try discriminate;
      try (injection E as <- <- <-; split; [apply H|intros Hb; apply orb_true_iff in Hb; destruct Hb as [Hb|Hb]; [apply (kw_T _ _ _ _ _ _ K Hb)|apply (hw_T _ _ _ _ _ _ H Hb)]]).
    destruct (h_step P sprod _ ptoph hs) as [hs1|] eqn:E1; [|discriminate]. cbn [obind] in E. apply (hw_step P WP sprod _ ptoph init OI PQ FND (CB_post _ (kw_aut _ _ _ _ _ _ K)) _ _ H) in E1.
    destruct (h_found hs1) eqn:Ef.
    - injection E as <- <- <-. split; [apply E1|]. intros _. apply (hw_T _ _ _ _ _ _ E1 Ef).
    - destruct (k_step P sprod _ ptopk oob _) as [ks1|] eqn:E2; [|discriminate]. cbn [obind] in E.
      apply (kw_step P WP sprod _ ptopk oob fin OFp PQ FND (CB_pre _ (hw_aut _ _ _ _ _ _ E1))) in E2; [|destruct K as [K1 K2 K3 K4]; constructor; auto; apply E1].
      assert (H2 : hwt (h_with hs1 (k_x ks1))). { destruct E1 as [J1 J2 J3 J4 J5 J6]. constructor; auto. apply E2. }
      destruct (k_found ks1) eqn:Ek.
      + injection E as <- <- <-. split; [apply H2|]. intros _. apply (kw_T _ _ _ _ _ _ E2 Ek).
      + apply (IH _ _ _ _ _ E2 H2 E).
  Qed.

  Lemma PQ_start : forall pr, pbase n (wa_aut init) (wa_aut fin) true pr -> PQ (mk_sprod pr []).
  Proof.
    intros pr [B _]. split; [|intros ? ? ? ? []]. cbn [sp_pr]. constructor.
    - apply (pb_size _ _ _ _ _ B).
    - intros id a b _ Hp Ha. apply (pb_acc _ _ _ _ _ B _ _ _ Hp) in Ha. destruct Ha as [H1 H2]. split; auto. unfold accF.
      destruct (qo_acc _ _ (proj1 (qp_init_ok P (wa_aut init)))) as [k Ek]. rewrite Ek. rewrite nth_error_app1; auto. apply nth_error_lt in H1. auto.
    - intros a b id H. apply (pb_fast _ _ _ _ _ B) in H. apply H.
    - intros a b id H. apply (pb_back _ _ _ _ _ B eq_refl) in H. apply H.
  Qed.

  Lemma path_PQ : forall sp p d, PQ sp -> path_shortest sp = Some (Some (p, d)) -> run_weight Rw (aut_lang n (wa_aut init)) (aut_lang n (wa_aut fin)) d.
  Proof.
    intros sp p d HP E. unfold path_shortest in E. destruct (has_accepting (sp_pr sp)); [|discriminate]. destruct (min_accepting sp) as [[q w]|] eqn:Em; [|discriminate]. cbn [obind fst snd] in E.
    destruct (back_path _ _ _ _) as [p0|]; [|discriminate]. cbn [obind] in E. injection E as _ <-.
    destruct (min_found _ _ _ _ _ _ _ _ HP Em) as (a & b & H1 & H2 & H3). eapply JG_run; eauto.
  Qed.

  Theorem dual_short_sound : forall ord J fuel b J', (forall q l, Permutation (ord q l) l) -> new_sinst P ord init fin = Some J ->
    dual_short P top ptopk ptoph oob fuel J = done (b, J') ->
    (b = true -> exists d, run_weight Rw (aut_lang n (wa_aut init)) (aut_lang n (wa_aut fin)) d) /\
    (forall p d, path_shortest (si_prod J') = Some (Some (p, d)) -> run_weight Rw (aut_lang n (wa_aut init)) (aut_lang n (wa_aut fin)) d).
  Proof.
    intros ord J fuel b J' HO HN E. unfold new_sinst in HN.
    destruct (pr_new_spec (pd_n P) (wa_aut init) (wa_aut fin) true (qk_n _ _ OI) (qk_n _ _ OF) ord HO) as (pr & Epr & B & _). rewrite Epr in HN. cbn [obind] in HN. injection HN as <-.
    unfold dual_short in E. cbn [si_init si_fin si_prod sp_pr sp_best] in E.
    assert (WI : aut_wf (wa_aut init)) by (eapply VerdictProof.pre_ok_wf; apply post_ok_pre_ok; exact OI). assert (WF : aut_wf (wa_aut fin)) by (eapply VerdictProof.pre_ok_wf; apply post_ok_pre_ok; exact OF).
    destruct (initialize_spec (pd_n P) (wa_aut init) (wa_aut fin) true WI WF (qk_n _ _ OI) (qk_n _ _ OF) true pr B) as (b0 & pr' & Ei & B' & _ & Hb0 & _).
    rewrite Ei in E. cbn [obind fst snd] in E. assert (S0 := PQ_start pr' B').
    destruct b0.
    { injection E as <- <-. split; [|intros p d Hd; eapply path_PQ; [exact S0|exact Hd]]. intros _. symmetry in Hb0. destruct (has_accepting_sound _ _ _ _ _ B' Hb0) as (c & H1 & H2).
      exists 0%Z, c, c. ands; auto. constructor. }
    destruct (k_init P sprod fin _) as [ks|] eqn:Ek; [|discriminate]. cbn [obind] in E. apply (kw_init P sprod fin ZF PQ FND _ _ S0) in Ek.
    destruct (h_init P sprod _ init (k_x ks)) as [hs|] eqn:Eh; [|discriminate]. cbn [obind] in E.
    apply (hw_init P sprod _ init OI ZI PQ FND (CB_post _ (kw_aut _ _ _ _ _ _ Ek)) _ _ (kw_Q _ _ _ _ _ _ Ek)) in Eh.
    assert (R : PQ (si_prod J') /\ (b = true -> FND)).
    { destruct (k_found ks || h_found hs) eqn:Ef.
      - injection E as <- <-. cbn [si_prod]. split; [apply Eh|]. intros _. apply orb_true_iff in Ef. destruct Ef as [Ef|Ef]; [apply (kw_T _ _ _ _ _ _ Ek Ef)|apply (hw_T _ _ _ _ _ _ Eh Ef)].
      - destruct (dual_loop P top ptopk ptoph oob fuel ks hs) as [[[b1 [ks' hs']]|]|] eqn:El; try discriminate. injection E as <- <-. cbn [si_prod]. eapply dual_loop_weak; [exact Ek|exact Eh|exact El]. }
    destruct R as [R1 R2]. split; [intros Hb; apply FOUND_run; auto|]. intros p d Hd. eapply path_PQ; eauto.
  Qed.
End DMain.
