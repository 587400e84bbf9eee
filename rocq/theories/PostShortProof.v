(** The search for shortest traces with post*: the saturation is Dijkstra's algorithm over automaton edges. *)
From Coq Require Import List Arith Lia Bool ZArith Permutation Sorted.
From Verif Require Import Base BaseFacts Spec SpecFacts PdaModel PdaProof AutModel AutProof PreStarModel PreStarProof PreStarLang
  PostStarModel PostStarProof PostStarLang SolverModel QueryModel QueryProof ProductModel ProductProof UtilModel UtilProof ShortSpec ShortModel ShortProdProof.
Import ListNotations.

(** The weighted pushdown system a stored PDA stands for. *)
Definition pda_wrules (P : pda) : wpds := fun sr w =>
  exists s r ls, nth_error (pd_states P) (s_from sr) = Some s /\ In (r, ls) (ps_rules s) /\
    matches (pd_nlab P) ls (s_pre sr) /\ s_to sr = r_to r /\ s_op sr = sop_of r /\ w = r_w r.

Lemma pda_wrules_at : forall P sr w, pda_wrules P sr w <->
  exists r ls, In (r, ls) (rules_at P (s_from sr)) /\ matches (pd_nlab P) ls (s_pre sr) /\ s_to sr = r_to r /\ s_op sr = sop_of r /\ w = r_w r.
Proof.
  intros; split.
  - intros [s [r [ls [Es [Hin H]]]]]. exists r, ls. rewrite <- (nth_error_rules_at _ _ _ Es). auto.
  - intros [r [ls [Hin H]]]. pose proof (In_rules_lt _ _ _ Hin) as L. destruct (nth_error_ex _ _ _ L) as [s Es].
    exists s, r, ls. rewrite (nth_error_rules_at _ _ _ Es). auto.
Qed.

Lemma wreach_trans : forall R c1 v c2 v' c3, wreach R c1 v c2 -> wreach R c2 v' c3 -> wreach R c1 (v + v')%Z c3.
Proof.
  intros R c1 v c2 v' c3 H. induction H; intros K; [cbn; auto|]. rewrite <- Z.add_assoc. eapply wr_step; eauto.
Qed.
Lemma wreach_ctx : forall R p w v p' w' u, wreach R (p, w) v (p', w') -> wreach R (p, w ++ u) v (p', w' ++ u).
Proof.
  intros R p w v p' w' u H. remember (p, w) as c1. remember (p', w') as c2. revert p w p' w' Heqc1 Heqc2.
  induction H as [c|c1 r x c2 v c3 HR HS HW IH]; intros p w p' w' E1 E2; subst.
  - injection E2 as -> ->. constructor.
  - inversion HS as [w0 Ew Ec]. subst p w c2. econstructor; [eauto| |eapply IH; eauto].
    cbn [app]. replace (apply_op (s_op r) (s_pre r) w0 ++ u) with (apply_op (s_op r) (s_pre r) (w0 ++ u)) by (destruct (s_op r); auto).
    apply step_by_intro.
Qed.

Lemma w_find_cons : forall V (e e' : edge) (v : V) l, w_find e' ((e, v) :: l) = if edge_eq_dec e e' then Some v else w_find e' l.
Proof.
  intros. cbn. destruct (edge_eqb e e') eqn:E.
  - apply edge_eqb_eq in E. subst. destruct (edge_eq_dec e' e'); congruence.
  - destruct (edge_eq_dec e e') as [->|]; auto. rewrite edge_eqb_refl in E. discriminate.
Qed.

Lemma ofold_append : forall S A (f : S -> A -> option S) l1 l2 s, ofold f (l1 ++ l2) s = (s' <- ofold f l1 s ;; ofold f l2 s').
Proof. intros S A f l1. induction l1 as [|a l1 IH]; intros; cbn; auto. destruct (f s a); cbn; auto. Qed.
Lemma ofold_flat : forall S A B (f : S -> B -> option S) (F : S -> A -> option S) (h : A -> list B) (Inv : S -> Prop),
  (forall s a, Inv s -> F s a = ofold f (h a) s) -> (forall s b s', Inv s -> f s b = Some s' -> Inv s') ->
  forall l s, Inv s -> ofold F l s = ofold f (flat_map h l) s.
Proof.
  intros S A B f F h Inv HF Hf. assert (P1 : forall l s s', Inv s -> ofold f l s = Some s' -> Inv s').
  { induction l as [|b l IH]; intros s s' H E; cbn in E; [injection E as <-; auto|]. destruct (f s b) as [s1|] eqn:E1; [|discriminate]. eauto. }
  induction l as [|a l IH]; intros s H; cbn; auto. rewrite ofold_append, HF by auto. destruct (ofold f (h a) s) as [s1|] eqn:E; cbn; auto. apply IH. eauto.
Qed.
Lemma NoDup_join : forall A (a b : list A), NoDup a -> NoDup b -> (forall x, In x a -> ~ In x b) -> NoDup (a ++ b).
Proof.
  intros A a b Ha Hb Hd. induction Ha as [|x a Hx Ha IH]; auto. cbn. constructor.
  - intros K. apply in_app_iff in K. destruct K; auto. apply (Hd x); cbn; auto.
  - apply IH. intros y Hy. apply Hd. cbn. auto.
Qed.
Lemma NoDup_flat : forall A B (h : A -> list B) l, NoDup l -> (forall a, NoDup (h a)) -> (forall a a' b, In b (h a) -> In b (h a') -> a = a') -> NoDup (flat_map h l).
Proof.
  intros A B h l H1 H2 H3. induction H1 as [|a l Ha Hl IH]; cbn; [constructor|]. apply NoDup_join; auto.
  intros b Hb Hc. apply in_flat_map in Hc. destruct Hc as (a' & Ha' & Hb'). rewrite (H3 _ _ _ Hb Hb') in Ha. contradiction.
Qed.
Lemma lsorted_NoDup : forall l, lsorted l -> NoDup l.
Proof.
  intros l H. induction H as [|x l Hl IH Hx]; constructor; auto. intros Hin. rewrite Forall_forall in Hx. apply Hx in Hin.
  unfold lab_lt in Hin. destruct x as [x|]; cbn in Hin; [|discriminate]. apply Nat.ltb_lt in Hin. lia.
Qed.

Lemma jpath_cons : forall EF ES wF wS a b l v1 a1 b1 w v a2 b2, jstep EF ES wF wS a b l v1 a1 b1 -> jpath EF ES wF wS a1 b1 w v a2 b2 -> jpath EF ES wF wS a b (olist l ++ w) (v1 + v)%Z a2 b2.
Proof.
  intros EF ES wF wS a b l v1 a1 b1 w v a2 b2 HS HJ. induction HJ as [|w v a2 b2 l2 v2 a3 b3 HJ IH HS2].
  - rewrite app_nil_r, Z.add_0_r. replace (olist l) with ([] ++ olist l) by auto. replace v1 with (0 + v1)%Z by lia. eapply jp_snoc; eauto. constructor.
  - rewrite app_assoc, Z.add_assoc. eapply jp_snoc; eauto.
Qed.

Lemma jpath_zip : forall EF wt w v p a, wpath EF wt p w v a -> forall ES wF wS q b, (forall x y z, wt x y z = wF (mk_edge x y z)) -> (forall e, wS e = 0%Z) -> apath ES q w b -> jpath EF ES wF wS p q w v a b.
Proof.
  intros EF wt w v p a H. induction H as [p|p l p1 w v p2 HE HP IH]; intros ES wF wS q b HW ZS HA.
  - remember (@nil nat) as w0 eqn:Ew. induction HA as [q|q l q1 w q2 H1 H2 IH|q q1 w q2 H1 H2 IH]; [constructor|discriminate|].
    replace 0%Z with (0 + 0)%Z by auto. replace w with (olist None ++ w) by auto. eapply jpath_cons; [right; rewrite ZS; eauto|]. auto.
  - destruct l as [x|].
    + remember (x :: w) as w0 eqn:Ew. induction HA as [q|q l q1 w1 q2 H1 H2 IH2|q q1 w1 q2 H1 H2 IH2]; [discriminate| |].
      * injection Ew as -> ->. apply (jpath_cons _ _ _ _ _ _ (Some x) _ p1 q1 w v); [|apply IH; auto]. cbn. ands; auto.
      * specialize (IH2 Ew). replace (wt p (Some x) p1 + v)%Z with (0 + (wt p (Some x) p1 + v))%Z by lia. apply (jpath_cons _ _ _ _ _ _ None _ p q1 w1 _); auto. right. rewrite ZS. ands; auto.
    + apply (jpath_cons _ _ _ _ _ _ None _ p1 q w v); [|apply IH; auto]. left. ands; auto.
Qed.

Section Inv.
  Variable P : pda.
  Hypothesis WP : wf_pda P.
  Variable X : Type.
  Variable et : option (waut -> X -> edge -> trace -> Z -> Z -> option (bool * X)).
  Variable ptop : nat -> list (Z * (edge * trace)) -> nat.
  Hypothesis PT : forall k l, l <> [] -> exists x, nth_error l (ptop k l) = Some x /\ forall y, In y l -> (fst x <= fst y)%Z.
  Variable A0 : waut.
  Hypothesis OK : post_ok P (wa_aut A0).
  Hypothesis Z0 : forall e, w_of A0 e = 0%Z.
  Hypothesis NN : forall p id r ls, get_rule P p id = Some (r, ls) -> (0 <= r_w r)%Z.
  Let n := pd_n P.
  Let nQ := a_size (wa_aut A0).
  Let A1 := fst (qp_init P (wa_aut A0)).
  Let M := snd (qp_init P (wa_aut A0)).
  Let N := a_size A1.
  Let qp (k : nat * nat) := qp_find k M.
  Let E0 := a_edges (wa_aut A0).
  Let Rw := pda_wrules P.
  Let Hqp : qp_ok (wa_aut A0) (qp_init P (wa_aut A0)) := proj1 (qp_init_ok P (wa_aut A0)).
  Notation range := (q_range P (wa_aut A0)).
  Notation st_t := (ps_st X).

  Lemma n_nQ : n <= nQ.
  Proof. apply OK. Qed.
  Lemma nQ_N' : nQ <= N.
  Proof. apply nQ_N; auto; apply OK. Qed.
  Lemma E0_range : forall q l q', edges_of E0 q l q' -> q < nQ /\ n <= q' < nQ /\ l <> None.
  Proof. intros q l q' H. destruct (qk_range _ _ OK _ _ _ H) as [H1 [H2 [x [H3 _]]]]. unfold nQ, n. ands; auto; try lia. congruence. Qed.
  Lemma qp_r : forall k v, qp k = Some v -> nQ <= v < N.
  Proof. intros k v H. eapply qp_range; eauto; apply OK. Qed.
  Lemma qp_i : forall k1 k2 v, qp k1 = Some v -> qp k2 = Some v -> k1 = k2.
  Proof. intros k1 k2 v. eapply qp_inj; eauto. Qed.

  (** *** Where weights come from *)
  Definition WSrc (q : nat) (c : config) (v : Z) : Prop :=
    if Nat.ltb q nQ then exists p0 w0, p0 < n /\ npath (edges_of E0) p0 w0 q /\ wreach Rw (p0, w0) v c
    else exists p' g, qp (p', g) = Some q /\ wreach Rw (p', [g]) v c.
  Definition wsrc (e : edge) (b : Z) : Prop :=
    (e_src e < n -> WSrc (e_dst e) (e_src e, olist (e_lab e)) b) /\
    (n <= e_src e < nQ -> edges_of E0 (e_src e) (e_lab e) (e_dst e) /\ b = 0%Z) /\
    (nQ <= e_src e -> exists x, e_lab e = Some x /\ forall p' g, qp (p', g) = Some (e_src e) -> WSrc (e_dst e) (p', [g; x]) b).

  Lemma WSrc_reach : forall q c v c' v', WSrc q c v -> wreach Rw c v' c' -> WSrc q c' (v + v')%Z.
  Proof.
    intros q c v c' v' H Hr. unfold WSrc in *. destruct (Nat.ltb q nQ).
    - destruct H as [p0 [w0 [H1 [H2 H3]]]]. exists p0, w0; ands; auto. eapply wreach_trans; eauto.
    - destruct H as [p' [g [H1 H2]]]. exists p', g; ands; auto. eapply wreach_trans; eauto.
  Qed.

  Lemma WSrc_extend : forall e b l p u v, wsrc e b -> e_lab e = Some l -> n <= e_src e -> WSrc (e_src e) (p, u) v -> WSrc (e_dst e) (p, u ++ [l]) (v + b)%Z.
  Proof.
    intros e b l p u v (_ & W2 & W3) El Hs HS. unfold WSrc in HS. destruct (Nat.ltb_spec (e_src e) nQ) as [L|L].
    - destruct (W2 (conj Hs L)) as [He ->]. destruct (E0_range _ _ _ He) as [_ [Hb _]]. unfold WSrc. destruct (Nat.ltb_spec (e_dst e) nQ); [|lia].
      destruct HS as [p0 [w0 [H1 [H2 H3]]]]. exists p0, (w0 ++ [l]). ands; auto.
      + eapply npath_app; eauto. rewrite El in He. econstructor; eauto. constructor.
      + rewrite Z.add_0_r. apply wreach_ctx; auto.
    - destruct (W3 L) as [x [Ex H]]. rewrite El in Ex. injection Ex as <-. destruct HS as [p' [g [H1 H2]]]. rewrite Z.add_comm.
      eapply WSrc_reach; [apply (H p' g H1)|]. apply (wreach_ctx Rw _ _ _ _ _ [l]) in H2. exact H2.
  Qed.

  (** *** The state *)
  Definition ew (st : st_t) (e : edge) : option (Z * Z) := w_find e (h_ew st).
  Definition mp (st : st_t) (q : nat) : option Z :=
    if Nat.ltb q nQ then Some 0%Z else match nth_error (h_min st) (q - nQ) with Some (Some m) => Some m | _ => None end.
  Definition inA (st : st_t) (e : edge) : Prop := In e (map fst (a_edges (wa_aut (h_aut st)))).
  Definition live (st : st_t) (e : edge) : Prop := exists b d t, ew st e = Some (b, d) /\ In (d, (e, t)) (h_ws st).
  Definition known_le (st : st_t) (e : edge) (v : Z) : Prop := exists b d, ew st e = Some (b, d) /\ (b <= v)%Z.

  Record goodA (A : waut) : Prop := {
    ga_acc : a_acc (wa_aut A) = a_acc A1;
    ga_ord : a_ord (wa_aut A) = a_ord (wa_aut A0);
    ga_nd : NoDup (map fst (a_edges (wa_aut A)));
    ga_base : forall e, In e (map fst E0) -> In e (map fst (a_edges (wa_aut A)));
    ga_range : forall e, In e (map fst (a_edges (wa_aut A))) -> range e;
    ga_nn : forall e, (0 <= w_of A e)%Z;
    ga_zero : forall e, In e (map fst E0) -> w_of A e = 0%Z }.

  Record kst (D : Z) (st : st_t) : Prop := {
    k_D : (0 <= D)%Z;
    k_good : goodA (h_aut st);
    k_nQ : h_nQ st = nQ;
    k_qp : h_qp st = M;
    k_minlen : length (h_min st) = N - nQ;
    k_range : forall e v, ew st e = Some v -> range e;
    k_sound : forall e b d, ew st e = Some (b, d) -> wsrc e b;
    k_nn : forall e b d, ew st e = Some (b, d) -> (0 <= b)%Z /\ (0 <= d)%Z;
    k_pot : forall e b d, ew st e = Some (b, d) -> exists m, mp st (e_dst e) = Some m /\ d = (m + b)%Z;
    k_out : forall e b d, ew st e = Some (b, d) -> nQ <= e_src e -> exists m, mp st (e_src e) = Some m /\ (m <= d)%Z;
    k_e1 : forall p g q, qp (p, g) = Some q -> match ew st (mk_edge p (Some g) q) with None => mp st q = None | Some (b, d) => b = 0%Z /\ mp st q = Some d end;
    k_e1aut : forall e v p g, ew st e = Some v -> qp (p, g) = Some (e_dst e) -> e = mk_edge p (Some g) (e_dst e) \/ inA st (mk_edge p (Some g) (e_dst e));
    k_aut : forall e, inA st e -> exists d, ew st e = Some (w_of (h_aut st) e, d) /\ (d <= D)%Z;
    k_known : forall e b d, ew st e = Some (b, d) -> inA st e \/ exists t, In (d, (e, t)) (h_ws st);
    k_ws : forall w e t, In (w, (e, t)) (h_ws st) -> (D <= w)%Z /\ (e_src e < n \/ nQ <= e_src e) /\ exists b d, ew st e = Some (b, d) /\ (d <= w)%Z;
    k_wsnd : NoDup (map (fun x => (fst x, fst (snd x))) (h_ws st));
    k_rel1 : forall e, In e (h_rel1 st) <-> inA st e /\ n <= e_src e;
    k_rel2 : forall s f, In (s, f) (h_rel2 st) <-> inA st (mk_edge f None s) /\ nQ <= s }.

  (** The edges that a rule derives from the edge [p --l--> q] of weight [v]. *)
  Definition fired (st : st_t) (r : rule) (l q : nat) (v : Z) : Prop :=
    match r_op r with
    | POP => known_le st (mk_edge (r_to r) None q) v
    | SWAP => known_le st (mk_edge (r_to r) (Some (r_opl r)) q) v
    | NOOP => known_le st (mk_edge (r_to r) (Some l) q) v
    | PUSH => exists qn, qp (r_to r, r_opl r) = Some qn /\ known_le st (mk_edge (r_to r) (Some (r_opl r)) qn) 0%Z /\ known_le st (mk_edge qn (Some l) q) v
    end.
  Definition closed_lab (st : st_t) (p l q : nat) : Prop := forall id r ls, get_rule P p id = Some (r, ls) -> contains ls l = true ->
    fired st r l q (w_of (h_aut st) (mk_edge p (Some l) q) + r_w r)%Z.
  Record kcl (cur : option edge) (st : st_t) : Prop := {
    c_lab : forall p l q, p < n -> inA st (mk_edge p (Some l) q) -> cur = Some (mk_edge p (Some l) q) \/ live st (mk_edge p (Some l) q) \/ closed_lab st p l q;
    c_eps : forall f s l q, inA st (mk_edge f None s) -> inA st (mk_edge s (Some l) q) -> cur = Some (mk_edge f None s) \/ cur = Some (mk_edge s (Some l) q) \/
      known_le st (mk_edge f (Some l) q) (w_of (h_aut st) (mk_edge f None s) + w_of (h_aut st) (mk_edge s (Some l) q))%Z }.

  Record kle (st st' : st_t) : Prop := {
    l_aut : h_aut st' = h_aut st;
    l_rel1 : h_rel1 st' = h_rel1 st;
    l_rel2 : h_rel2 st' = h_rel2 st;
    l_x : h_x st' = h_x st;
    l_found : h_found st' = h_found st;
    l_pops : h_pops st' = h_pops st;
    l_known : forall e b d, ew st e = Some (b, d) -> exists b' d', ew st' e = Some (b', d') /\ (b' <= b)%Z;
    l_ew : forall e, inA st e -> ew st' e = ew st e;
    l_live : forall e, inA st e -> live st' e <-> live st e }.
  Lemma kle_refl : forall st, kle st st.
  Proof. intros; constructor; auto; [|tauto]. intros e b d H. exists b, d. split; auto. lia. Qed.
  Lemma inA_kle : forall st st' e, kle st st' -> inA st' e <-> inA st e.
  Proof. intros st st' e L. unfold inA. rewrite (l_aut _ _ L). tauto. Qed.
  Lemma kle_trans : forall a b c, kle a b -> kle b c -> kle a c.
  Proof.
    intros a b c H K. constructor; try (destruct H, K; congruence).
    - intros e x d He. destruct (l_known _ _ H e x d He) as (x1 & d1 & E1 & L1). destruct (l_known _ _ K e x1 d1 E1) as (x2 & d2 & E2 & L2). exists x2, d2. split; auto. lia.
    - intros e He. rewrite (l_ew _ _ K e), (l_ew _ _ H e); auto. apply (inA_kle _ _ e H); auto.
    - intros e He. rewrite (l_live _ _ K e), (l_live _ _ H e); auto; [tauto|]. apply (inA_kle _ _ e H); auto.
  Qed.
  Lemma known_mono : forall st st' e v, kle st st' -> known_le st e v -> known_le st' e v.
  Proof. intros st st' e v L (b & d & H & Hb). destruct (l_known _ _ L e b d H) as (b' & d' & H' & Hb'). exists b', d'. split; auto. lia. Qed.
  Lemma fired_mono : forall st st' r l q v, kle st st' -> fired st r l q v -> fired st' r l q v.
  Proof. intros st st' r l q v L. unfold fired. destruct (r_op r); eauto using known_mono. intros (qn & H1 & H2 & H3). exists qn. ands; eauto using known_mono. Qed.
  Lemma kcl_mono : forall cur st st', kle st st' -> kcl cur st -> kcl cur st'.
  Proof.
    intros cur st st' L [C1 C2]. constructor.
    - intros p l q Hp Hin. apply (inA_kle _ _ _ L) in Hin. destruct (C1 p l q Hp Hin) as [H|[H|H]]; auto.
      + right. left. apply (l_live _ _ L); auto.
      + right. right. intros id r ls G Hc. rewrite (l_aut _ _ L). eapply fired_mono; eauto.
    - intros f s l q H1 H2. apply (inA_kle _ _ _ L) in H1, H2. rewrite (l_aut _ _ L). destruct (C2 f s l q H1 H2) as [H|[H|H]]; auto. right. right. eapply known_mono; eauto.
  Qed.

  (** *** Updates *)
  (** An update that changes no value. *)
  Lemma same_spec : forall D st st', kst D st -> h_aut st' = h_aut st -> h_nQ st' = h_nQ st -> h_qp st' = h_qp st -> h_min st' = h_min st ->
    (forall e, ew st' e = ew st e) -> h_ws st' = h_ws st -> h_rel1 st' = h_rel1 st -> h_rel2 st' = h_rel2 st ->
    kst D st' /\ (h_x st' = h_x st -> h_found st' = h_found st -> h_pops st' = h_pops st -> kle st st') /\ (forall cur, kcl cur st -> kcl cur st').
  Proof.
    intros D st st' K Ea En Eq Em Ee Ew E1 E2.
    assert (MP : forall q, mp st' q = mp st q) by (intros; unfold mp; rewrite Em; auto).
    assert (IA : forall e, inA st' e <-> inA st e) by (intros; unfold inA; rewrite Ea; tauto).
    assert (KL : forall e v, known_le st' e v <-> known_le st e v) by (intros; unfold known_le; rewrite Ee; tauto).
    assert (LV : forall e, live st' e <-> live st e) by (intros; unfold live; rewrite Ee, Ew; tauto).
    ands.
    - pose proof K as K'. destruct K'. constructor; auto; try congruence.
      + intros e v. rewrite Ee. eauto.
      + intros e b d. rewrite Ee. eauto.
      + intros e b d. rewrite Ee. eauto.
      + intros e b d. rewrite Ee, MP. eauto.
      + intros e b d. rewrite Ee, MP. eauto.
      + intros p g q H. rewrite Ee, MP. apply (k_e1 _ _ K); auto.
      + intros e v p g. rewrite Ee, IA. eauto.
      + intros e. rewrite IA, Ee, Ea. eauto.
      + intros e b d. rewrite Ee, IA, Ew. eauto.
      + intros w e t. rewrite Ew, Ee. eauto.
      + intros e. rewrite E1, IA. auto.
      + intros s f. rewrite E2, IA. auto.
    - intros Ex Ef Ep. constructor; auto.
      intros e b d H. rewrite Ee. exists b, d. split; auto. lia.
    - intros cur [C1 C2]. constructor.
      + intros p l q Hp Hin. apply IA in Hin. rewrite LV. destruct (C1 p l q Hp Hin) as [H|[H|H]]; auto. right. right. intros id r ls G Hc.
        specialize (H id r ls G Hc). unfold fired in *. rewrite Ea. destruct (r_op r); try (apply KL; auto; fail). destruct H as (qn & H1 & H2 & H3). exists qn. rewrite !KL. auto.
      + intros f s l q H1 H2. apply IA in H1, H2. rewrite KL, Ea. auto.
  Qed.

  (** A new or better value for an edge that is not in the automaton. *)
  Lemma improve_spec : forall D st e v ww m tr mins,
    let st' := mk_ps (h_aut st) (h_nQ st) (h_qp st) mins ((e, (v, ww)) :: h_ew st) (h_ws st ++ [(ww, (e, tr))]) (h_rel1 st) (h_rel2 st) (h_found st) (h_pops st) (h_x st) in
    kst D st -> range e -> (e_src e < n \/ nQ <= e_src e) -> wsrc e v -> (0 <= v)%Z -> (D <= ww)%Z -> ~ inA st e ->
    (forall b d, ew st e = Some (b, d) -> (v <= b)%Z /\ (ww < d)%Z) -> length mins = length (h_min st) ->
    mp st' (e_dst e) = Some m -> ww = (m + v)%Z -> (forall q, q <> e_dst e -> mp st' q = mp st q) ->
    ((mp st' (e_dst e) = mp st (e_dst e) /\ (forall p g, qp (p, g) = Some (e_dst e) -> inA st (mk_edge p (Some g) (e_dst e)))) \/
     (exists p g, qp (p, g) = Some (e_dst e) /\ e = mk_edge p (Some g) (e_dst e) /\ v = 0%Z)) ->
    (nQ <= e_src e -> exists ms, mp st (e_src e) = Some ms /\ (ms <= ww)%Z) ->
    kst D st' /\ kle st st' /\ known_le st' e v.
  Proof.
    intros D st e v ww m tr mins st' K Hr Hs Hsnd Hv HD Hna Himp Hlen Hm Eww Hmp Hcase Hout.
    assert (EW : forall e', ew st' e' = if edge_eq_dec e e' then Some (v, ww) else ew st e') by (intros; apply w_find_cons).
    assert (IA : forall e', inA st' e' <-> inA st e') by (intros; unfold inA; tauto).
    assert (EWA : forall e', inA st e' -> ew st' e' = ew st e').
    { intros e' H. rewrite EW. destruct (edge_eq_dec e e') as [<-|]; [contradiction|auto]. }
    assert (WS : forall x, In x (h_ws st) -> In x (h_ws st')) by (intros; cbn; apply in_or_app; auto).
    assert (FR : forall t0, ~ In (ww, (e, t0)) (h_ws st)).
    { intros t0 H. destruct (k_ws _ _ K _ _ _ H) as (_ & _ & b & d & E & L). destruct (Himp b d E). lia. }
    assert (UN : forall e' b d, ew st e' = Some (b, d) -> e_dst e' = e_dst e -> e' = e \/ mp st' (e_dst e) = mp st (e_dst e)).
    { intros e' b d He Ed. destruct Hcase as [[C _]|(p & g & C1 & C2 & C3)]; auto. left. destruct (k_e1aut _ _ K e' (b, d) p g He) as [H|H]; [congruence| |].
      - rewrite H, Ed, <- C2. auto.
      - rewrite Ed, <- C2 in H. contradiction. }
    assert (LE : forall q m0, mp st q = Some m0 -> exists m1, mp st' q = Some m1 /\ (m1 <= m0)%Z).
    { intros q m0 Hq. destruct (Nat.eq_dec q (e_dst e)) as [->|Hne]; [|rewrite Hmp by auto; exists m0; split; auto; lia].
      destruct Hcase as [[C _]|(p & g & C1 & C2 & C3)]; [exists m0; split; [congruence|lia]|]. assert (E1 := k_e1 _ _ K p g _ C1). rewrite <- C2 in E1.
      destruct (ew st e) as [[b d]|] eqn:Ee; [|congruence]. destruct E1 as [_ E1]. rewrite Hq in E1. injection E1 as ->. destruct (Himp b d eq_refl). exists m. split; auto. lia. }
    assert (LV : forall e', inA st e' -> live st' e' <-> live st e').
    { intros e' H. unfold live. rewrite (EWA e' H). split; intros (b & d & t0 & H1 & H2); exists b, d, t0; split; auto.
      cbn in H2. apply in_app_or in H2. destruct H2 as [H2|[H2|[]]]; auto. injection H2 as _ <- _. contradiction. }
    ands.
    - pose proof K as K'. destruct K'. constructor; auto; try (cbn; auto; fail).
      + cbn. congruence.
      + intros e' x. rewrite EW. destruct (edge_eq_dec e e') as [<-|]; eauto.
      + intros e' b d. rewrite EW. destruct (edge_eq_dec e e') as [<-|]; [|eauto]. intros H. injection H as <- <-. auto.
      + intros e' b d. rewrite EW. destruct (edge_eq_dec e e') as [<-|]; [|eauto]. intros H. injection H as <- <-. split; auto. lia.
      + intros e' b d. rewrite EW. destruct (edge_eq_dec e e') as [<-|Hne].
        * intros H. injection H as <- <-. exists m. auto.
        * intros H. destruct (k_pot0 _ _ _ H) as (m0 & Em & Ed). exists m0. split; auto. destruct (Nat.eq_dec (e_dst e') (e_dst e)) as [Eq|Hq]; [|rewrite Hmp; auto].
          destruct (UN e' b d H Eq) as [K1|K1]; [congruence|]. rewrite Eq, K1, <- Eq. auto.
      + intros e' b d. rewrite EW. destruct (edge_eq_dec e e') as [<-|Hne].
        * intros H L. injection H as <- <-. destruct (Hout L) as (ms & E1 & L1). destruct (LE _ _ E1) as (m1 & E2 & L2). exists m1. split; auto. lia.
        * intros H L. destruct (k_out0 _ _ _ H L) as (ms & E1 & L1). destruct (LE _ _ E1) as (m1 & E2 & L2). exists m1. split; auto. lia.
      + intros p g q Hq. rewrite EW. destruct (edge_eq_dec e (mk_edge p (Some g) q)) as [Ee|Hne].
        * destruct Hcase as [[_ C]|(p1 & g1 & C1 & C2 & C3)].
          -- exfalso. apply Hna. assert (Eq : q = e_dst e) by (rewrite Ee; auto). rewrite Ee, Eq. apply C. rewrite <- Eq. auto.
          -- split; auto. replace q with (e_dst e) by (rewrite Ee; auto). rewrite Hm. f_equal. lia.
        * destruct (Nat.eq_dec q (e_dst e)) as [->|Hd]; [|rewrite Hmp by auto; apply (k_e1 _ _ K); auto].
          destruct Hcase as [[C _]|(p1 & g1 & C1 & C2 & C3)]; [rewrite C; apply (k_e1 _ _ K); auto|]. exfalso. apply Hne. assert (Eq := qp_i _ _ _ Hq C1). injection Eq as -> ->. auto.
      + intros e' x p g. rewrite EW. destruct (edge_eq_dec e e') as [<-|Hne]; [|eauto]. intros _ Hq. destruct Hcase as [[_ C]|(p1 & g1 & C1 & C2 & C3)]; [right; apply C; auto|].
        left. assert (Eq := qp_i _ _ _ Hq C1). injection Eq as -> ->. auto.
      + intros e' H. rewrite (EWA e' H). apply k_aut0; auto.
      + intros e' b d. rewrite EW. destruct (edge_eq_dec e e') as [<-|Hne].
        * intros H. injection H as <- <-. right. exists tr. cbn. apply in_or_app. right. left. auto.
        * intros H. destruct (k_known0 _ _ _ H) as [H1|[t0 H1]]; auto. right. exists t0. auto.
      + intros w e' t0 H. cbn in H. apply in_app_or in H. destruct H as [H|[H|[]]].
        * destruct (k_ws0 _ _ _ H) as (K1 & K2 & b & d & K3 & K4). ands; auto. rewrite EW. destruct (edge_eq_dec e e') as [<-|Hne]; [|eauto]. exists v, ww. split; auto.
          destruct (Himp b d K3). lia.
        * injection H as <- <- <-. ands; auto. rewrite EW. destruct (edge_eq_dec e e); [|congruence]. exists v, ww. split; auto. lia.
      + cbn. rewrite map_app. cbn. apply NoDup_app_snoc; auto. intros H. apply in_map_iff in H. destruct H as ([w [e' t0]] & E & H). cbn in E. injection E as -> ->. eapply FR; eauto.
    - constructor; auto. intros e' b d H. rewrite EW. destruct (edge_eq_dec e e') as [<-|Hne]; [|exists b, d; split; auto; lia]. exists v, ww. destruct (Himp b d H). auto.
    - exists v, ww. rewrite EW. destruct (edge_eq_dec e e); [|congruence]. split; auto. lia.
  Qed.

  Definition dst_ok (st : st_t) (q : nat) : Prop := forall p g, qp (p, g) = Some q -> inA st (mk_edge p (Some g) q).

  (** update_edge. *)
  Lemma update_spec : forall D st e v m tr, kst D st -> range e -> (e_src e < n \/ nQ <= e_src e) -> wsrc e v -> (0 <= v)%Z ->
    mp st (e_dst e) = Some m -> (D <= m + v)%Z -> dst_ok st (e_dst e) ->
    (nQ <= e_src e -> exists ms, mp st (e_src e) = Some ms /\ (ms <= m + v)%Z) ->
    exists st', h_update X st e v tr = Some st' /\ kst D st' /\ kle st st' /\ known_le st' e v.
  Proof.
    intros D st e v m tr K Hr Hs Hsnd Hv Hm HD Hd Hout. unfold h_update.
    assert (EW : (if Nat.ltb (e_dst e) (h_nQ st) then Some v else mo <- h_minpath X st (e_dst e) ;; m <- mo ;; Some (m + v)%Z) = Some (m + v)%Z).
    { rewrite (k_nQ _ _ K). unfold mp in Hm. destruct (Nat.ltb_spec (e_dst e) nQ) as [L|L]; [injection Hm as <-; auto|].
      unfold h_minpath. rewrite (k_nQ _ _ K). apply Nat.leb_le in L as L'. rewrite L'. destruct (nth_error (h_min st) (e_dst e - nQ)) as [[m0|]|]; try discriminate.
      injection Hm as ->. reflexivity. }
    rewrite EW. cbn [obind]. clear EW. unfold h_update_. fold (ew st e).
    assert (SAME : forall b d, ew st e = Some (b, d) -> (b <= v)%Z -> (d <= m + v)%Z ->
      let st' := h_set_ew X st e (if Z.ltb v b then v else b, if Z.ltb (m + v) d then (m + v)%Z else d) in kst D st' /\ kle st st' /\ known_le st' e v).
    { intros b d He Hb Hdd. cbv zeta. assert (E1 : Z.ltb v b = false) by (apply Z.ltb_ge; auto). assert (E2 : Z.ltb (m + v) d = false) by (apply Z.ltb_ge; auto). rewrite E1, E2.
      assert (EE : forall e', ew (h_set_ew X st e (b, d)) e' = ew st e').
      { intros e'. unfold ew, h_set_ew. cbn [h_ew]. rewrite w_find_cons. destruct (edge_eq_dec e e') as [<-|]; auto. }
      destruct (same_spec D st (h_set_ew X st e (b, d)) K) as (K1 & K2 & _); auto. ands; auto. exists b, d. rewrite EE. auto. }
    destruct (in_dec edge_eq_dec e (map fst (a_edges (wa_aut (h_aut st))))) as [Hin|Hin].
    - destruct (k_aut _ _ K e Hin) as (d & Ed & Ld). destruct (k_pot _ _ K _ _ _ Ed) as (m0 & Em & Edm). rewrite Hm in Em. injection Em as <-.
      assert (L1 : (w_of (h_aut st) e <= v)%Z) by lia. assert (L2 : (d <= m + v)%Z) by lia. destruct (SAME _ _ Ed L1 L2) as (S1 & S2 & S3).
      rewrite Ed. cbn [fst snd]. assert (E2 : Z.ltb (m + v) d = false) by (apply Z.ltb_ge; auto). rewrite E2 in *. eexists; split; [reflexivity|]. auto.
    - assert (IMP : (forall b d, ew st e = Some (b, d) -> (v <= b)%Z /\ (m + v < d)%Z) ->
        let st' := h_push X (h_set_ew X st e (v, (m + v)%Z)) (m + v)%Z e tr in kst D st' /\ kle st st' /\ known_le st' e v).
      { intros Hi. apply (improve_spec D st e v (m + v)%Z m tr (h_min st)); auto. }
      destruct (ew st e) as [[b d]|] eqn:Ee.
      + cbn [fst snd]. destruct (k_pot _ _ K _ _ _ Ee) as (m0 & Em & Edm). rewrite Hm in Em. injection Em as <-. destruct (Z.ltb_spec (m + v) d) as [L|L].
        * assert (E1 : Z.ltb v b = true) by (apply Z.ltb_lt; lia). rewrite E1. eexists; split; [reflexivity|]. apply IMP. intros b0 d0 H. injection H as <- <-. lia.
        * assert (L1 : (b <= v)%Z) by lia. specialize (SAME b d eq_refl L1 L). assert (E2 : Z.ltb (m + v) d = false) by (apply Z.ltb_ge; auto). rewrite E2 in SAME. eexists; split; [reflexivity|]. auto.
      + cbn [fst snd]. eexists; split; [reflexivity|]. apply IMP. discriminate.
  Qed.

  (** The first edge of a push rule. *)
  Lemma push_spec : forall D st p g q wd tr, kst D st -> qp (p, g) = Some q -> p < n -> g < pd_nlab P -> (D <= wd)%Z ->
    let e1 := mk_edge p (Some g) q in
    let sf := h_update_ X st e1 0%Z wd in
    exists mo, h_minpath X st q = Some mo /\
      let st2 := if (match mo with None => true | Some m => Z.ltb wd m end)
                 then let st1 := h_set_min X (fst sf) (q - h_nQ st) wd in if snd (snd sf) then h_push X st1 wd e1 tr else st1
                 else fst sf in
      kst D st2 /\ kle st st2 /\ known_le st2 e1 0%Z /\ (exists m, mp st2 q = Some m /\ (m <= wd)%Z) /\ forall q', q' <> q \/ inA st e1 -> mp st2 q' = mp st q'.
  Proof.
    intros D st p g q wd tr K Hq Hp Hg HD e1 sf. assert (Rq := qp_r _ _ Hq). assert (Lm : q - nQ < length (h_min st)) by (rewrite (k_minlen _ _ K); lia).
    destruct (nth_error_ex _ _ _ Lm) as [mo Emo]. exists mo. assert (Lq : nQ <= q) by lia. split. { unfold h_minpath. rewrite (k_nQ _ _ K). apply Nat.leb_le in Lq. rewrite Lq. auto. }
    assert (Emp : mp st q = mo). { unfold mp. destruct (Nat.ltb_spec q nQ); [lia|]. rewrite Emo. destruct mo; auto. }
    assert (MPE : forall q' st', h_min st' = upd (h_min st) (q - nQ) (Some wd) -> mp st' q' = if Nat.eqb q' q then Some wd else mp st q').
    { intros q' st' Hst. unfold mp. rewrite Hst. destruct (Nat.ltb_spec q' nQ) as [L|L]; [destruct (Nat.eqb_spec q' q); [lia|auto]|].
      destruct (Nat.eqb_spec q' q) as [->|Hne]; [rewrite nth_error_upd_eq; auto|rewrite nth_error_upd_neq; auto; lia]. }
    assert (E1 := k_e1 _ _ K p g q Hq). fold e1 in E1. rewrite Emp in E1.
    assert (SAME : forall d, ew st e1 = Some (0%Z, d) -> (d <= wd)%Z -> sf = (h_set_ew X st e1 (0%Z, d), (false, false)) /\
      kst D (fst sf) /\ kle st (fst sf) /\ known_le (fst sf) e1 0%Z /\ (exists m, mp (fst sf) q = Some m /\ (m <= wd)%Z) /\ forall q', mp (fst sf) q' = mp st q').
    { intros d He Hd. assert (E2 : sf = (h_set_ew X st e1 (0%Z, d), (false, false))).
      { unfold sf, h_update_. fold (ew st e1). rewrite He. assert (E2 : Z.ltb wd d = false) by (apply Z.ltb_ge; auto). rewrite E2. auto. }
      split; auto. rewrite E2. cbn [fst].
      assert (EE : forall e', ew (h_set_ew X st e1 (0%Z, d)) e' = ew st e').
      { intros e'. unfold ew, h_set_ew. cbn [h_ew]. rewrite w_find_cons. destruct (edge_eq_dec e1 e') as [<-|]; auto. }
      destruct (same_spec D st (h_set_ew X st e1 (0%Z, d)) K) as (K1 & K2 & _); auto. ands; auto.
      - exists 0%Z, d. rewrite EE. split; auto. lia.
      - exists d. split; auto. rewrite He in E1. change (mp st q = Some d). rewrite Emp. tauto. }
    assert (IMP : ~ inA st e1 -> (forall b d, ew st e1 = Some (b, d) -> (0 <= b)%Z /\ (wd < d)%Z) ->
      let st2 := h_push X (h_set_min X (h_set_ew X st e1 (0%Z, wd)) (q - h_nQ st) wd) wd e1 tr in
      kst D st2 /\ kle st st2 /\ known_le st2 e1 0%Z /\ (exists m, mp st2 q = Some m /\ (m <= wd)%Z) /\ forall q', q' <> q \/ inA st e1 -> mp st2 q' = mp st q').
    { intros Hni Hi st2. assert (Hst : h_min st2 = upd (h_min st) (q - nQ) (Some wd)) by (unfold st2; cbn; rewrite (k_nQ _ _ K); auto).
      destruct (improve_spec D st e1 0%Z wd wd tr (upd (h_min st) (q - nQ) (Some wd))) as (I1 & I2 & I3); auto.
      - unfold e1, q_range. cbn. ands; auto; try (unfold A1, N in *; pose proof n_nQ; fold n; fold A1; fold N; lia).
      - unfold e1, wsrc; cbn. ands; try (pose proof n_nQ; lia). intros _. unfold WSrc. destruct (Nat.ltb_spec q nQ); [lia|]. exists p, g. split; auto. constructor.
      - lia.
      - apply upd_length.
      - cbn [e_dst e1]. erewrite MPE; [|reflexivity]. rewrite Nat.eqb_refl. auto.
      - lia.
      - intros q' Hne. erewrite MPE; [|reflexivity]. cbn in Hne. destruct (Nat.eqb_spec q' q); [contradiction|auto].
      - right. exists p, g. auto.
      - cbn. pose proof n_nQ. lia.
      - assert (ES : mk_ps (h_aut st) (h_nQ st) (h_qp st) (upd (h_min st) (q - nQ) (Some wd)) ((e1, (0%Z, wd)) :: h_ew st) (h_ws st ++ [(wd, (e1, tr))]) (h_rel1 st) (h_rel2 st) (h_found st) (h_pops st) (h_x st) = st2).
        { unfold st2, h_push, h_set_min, h_set_ew. cbn. rewrite (k_nQ _ _ K). auto. }
        rewrite ES in *. ands; auto.
        + exists wd. split; [|lia]. erewrite MPE by eauto. rewrite Nat.eqb_refl. auto.
        + intros q' [Hne|]; [|contradiction]. erewrite MPE by eauto. destruct (Nat.eqb_spec q' q); [contradiction|auto]. }
    destruct (in_dec edge_eq_dec e1 (map fst (a_edges (wa_aut (h_aut st))))) as [Hin|Hin].
    - destruct (k_aut _ _ K e1 Hin) as (d & Ed & Ld). rewrite Ed in E1. destruct E1 as [E1 ->]. rewrite E1 in Ed. destruct (SAME d Ed) as (S1 & S2 & S3 & S4 & S5 & S6); [lia|].
      assert (E2 : Z.ltb wd d = false) by (apply Z.ltb_ge; lia). rewrite E2. cbv zeta. ands; auto.
    - destruct (ew st e1) as [[b d]|] eqn:Ee.
      + destruct E1 as [-> ->]. destruct (Z.ltb_spec wd d) as [L|L].
        * assert (Es : sf = (h_set_ew X st e1 (0%Z, wd), (false, true))). { unfold sf, h_update_. fold (ew st e1). rewrite Ee. apply Z.ltb_lt in L. rewrite L. auto. }
          rewrite Es. cbn [fst snd]. apply IMP; auto. intros b0 d0 H. injection H as <- <-. lia.
        * destruct (SAME d eq_refl) as (S1 & S2 & S3 & S4 & S5 & S6); [lia|]. cbv zeta. ands; auto.
      + subst mo. rewrite E1. assert (Es : sf = (h_set_ew X st e1 (0%Z, wd), (true, true))). { unfold sf, h_update_. fold (ew st e1). rewrite Ee. auto. }
        rewrite Es. cbn [fst snd]. apply IMP; auto. discriminate.
  Qed.

  Lemma wrule_step : forall p id r ls l w, get_rule P p id = Some (r, ls) -> matches (pd_nlab P) ls l ->
    wreach Rw (p, l :: w) (r_w r) (r_to r, apply_op (sop_of r) l w).
  Proof.
    intros p id r ls l w G Hm. replace (r_w r) with (r_w r + 0)%Z by lia.
    eapply (wr_step _ _ (mk_srule p l (r_to r) (sop_of r))); [|apply (step_by_intro (mk_srule p l (r_to r) (sop_of r)))|constructor].
    apply pda_wrules_at. exists r, ls. cbn. ands; auto. apply get_rule_at in G. eapply nth_error_In; eauto.
  Qed.

  Lemma t_dst_ok : forall D st t v, kst D st -> ew st t = Some v -> inA st t -> dst_ok st (e_dst t).
  Proof. intros D st t v K He Hi p g Hq. destruct (k_e1aut _ _ K t v p g He Hq) as [E|E]; auto. rewrite <- E. auto. Qed.
  Lemma dst_ok_kle : forall st st' q, kle st st' -> dst_ok st q -> dst_ok st' q.
  Proof. intros st st' q L H p g Hq. apply (inA_kle _ _ _ L). auto. Qed.

  (** One rule of the loop over the rules of the source of the edge [t] that was taken from the queue with weight [D]. *)
  Lemma rule_spec : forall D st t l wt id r ls, kst D st -> inA st t -> e_src t < n -> e_lab t = Some l -> ew st t = Some (wt, D) ->
    get_rule P (e_src t) id = Some (r, ls) ->
    exists st', h_rule X t l wt D st (id, (r, ls)) = Some st' /\ kst D st' /\ kle st st' /\ (contains ls l = true -> fired st' r l (e_dst t) (wt + r_w r)%Z).
  Proof.
    intros D st t l wt id r ls K Hin Hs Hl He G. unfold h_rule. cbn [fst snd]. cbv zeta.
    match goal with |- context [h_push _ _ _ _ ?tr] => set (TR1 := tr) end. match goal with |- context [h_update _ _ _ _ ?tr] => set (TR := tr) end.
    destruct (get_rule_facts P WP _ _ _ _ G) as [G1 [G2 G3]]. fold n in G1, G2. assert (Hrw := NN _ _ _ _ G).
    destruct (contains ls l) eqn:Hc; [|exists st; ands; auto using kle_refl; discriminate].
    assert (Hrt := k_range _ _ K _ _ He). destruct Hrt as (R1 & R2 & R3). rewrite Hl in R3. change (e_src t < N) in R1. change (n <= e_dst t < N) in R2.
    assert (Hmt : matches (pd_nlab P) ls l) by (eapply contains_spec; eauto).
    destruct (k_sound _ _ K _ _ _ He) as (S1 & _ & _). specialize (S1 Hs). rewrite Hl in S1. cbn [olist] in S1.
    assert (S2 := WSrc_reach _ _ _ _ _ S1 (wrule_step _ _ _ _ _ [] G Hmt)).
    destruct (k_nn _ _ K _ _ _ He) as [Wn _]. destruct (k_pot _ _ K _ _ _ He) as (m & Hm & ED).
    assert (DO := t_dst_ok D st t _ K He Hin). assert (LN := n_nQ). assert (LN' := nQ_N').
    assert (Hlab : match r_op r with PUSH | SWAP => r_opl r < pd_nlab P | _ => True end).
    { destruct (r_op r) eqn:Eo; auto; apply get_rule_at in G; apply nth_error_In in G; apply (wf'_opl P (wf_wf_pda' _ WP) _ _ _ G); auto. }
    unfold sop_of in S2. unfold fired. destruct (r_op r) eqn:Er; cbn in S2.
    - destruct (qp_push P (wa_aut A0) (e_src t) id r ls G Er) as [qn Hq]. change (qp (r_to r, r_opl r) = Some qn) in Hq.
      rewrite (k_qp _ _ K). fold (qp (r_to r, r_opl r)). rewrite Hq. cbn [obind].
      destruct (push_spec D st (r_to r) (r_opl r) qn (D + r_w r)%Z TR1 K Hq G2 Hlab) as (mo & Emo & Q); [lia|]. rewrite Emo. cbn [obind].
      cbv zeta in Q. destruct Q as (K2 & L2 & KL & (m2 & Em2 & Lm2) & Q). assert (Rq := qp_r _ _ Hq).
      match type of K2 with kst _ ?s => set (st2 := s) in * end.
      assert (Hm2 : mp st2 (e_dst t) = Some m). { rewrite Q; auto. destruct (Nat.eq_dec (e_dst t) qn) as [Eq|]; auto. right. rewrite <- Eq. apply DO. rewrite Eq. auto. }
      destruct (update_spec D st2 (mk_edge qn (Some l) (e_dst t)) (wt + r_w r)%Z m TR K2) as (st' & E & K3 & L3 & KL3); auto.
      + unfold q_range. cbn. fold n A1 N. ands; auto; try lia.
      + cbn. right. lia.
      + unfold wsrc. cbn. ands; try lia. intros _. exists l. split; auto. intros p' g Hq'. assert (Eq := qp_i _ _ _ Hq' Hq). injection Eq as -> ->. auto.
      + lia.
      + lia.
      + cbn. eapply dst_ok_kle; eauto.
      + cbn. intros _. exists m2. split; auto. lia.
      + exists st'. ands; auto; [eapply kle_trans; eauto|]. intros _. exists qn. ands; auto. eapply known_mono; eauto.
    - destruct (update_spec D st (mk_edge (r_to r) None (e_dst t)) (wt + r_w r)%Z m TR K) as (st' & E & K3 & L3 & KL3); auto; cbn; try lia.
      + unfold q_range. cbn. fold n A1 N. ands; auto; try lia.
      + unfold wsrc. cbn. ands; try lia. auto.
      + exists st'. ands; auto.
    - destruct (update_spec D st (mk_edge (r_to r) (Some (r_opl r)) (e_dst t)) (wt + r_w r)%Z m TR K) as (st' & E & K3 & L3 & KL3); auto; cbn; try lia.
      + unfold q_range. cbn. fold n A1 N. ands; auto; try lia.
      + unfold wsrc. cbn. ands; try lia. auto.
      + exists st'. ands; auto.
    - destruct (update_spec D st (mk_edge (r_to r) (Some l) (e_dst t)) (wt + r_w r)%Z m TR K) as (st' & E & K3 & L3 & KL3); auto; cbn; try lia.
      + unfold q_range. cbn. fold n A1 N. ands; auto; try lia.
      + unfold wsrc. cbn. ands; try lia. auto.
      + exists st'. ands; auto.
  Qed.

  (** *** Taking an edge from the queue *)
  Definition popped (st : st_t) (ws : list (Z * (edge * trace))) (k : nat) : st_t :=
    mk_ps (h_aut st) (h_nQ st) (h_qp st) (h_min st) (h_ew st) ws (h_rel1 st) (h_rel2 st) (h_found st) k (h_x st).

  Lemma NoDup_remove_mid : forall A B (f : A -> B) l1 x l2, NoDup (map f (l1 ++ x :: l2)) -> NoDup (map f (l1 ++ l2)) /\ forall y, In y (l1 ++ l2) -> f y <> f x.
  Proof.
    intros A B f l1 x l2 H. rewrite map_app in *. cbn in H. destruct (NoDup_remove _ _ _ H) as [H1 H2]. split; auto.
    intros y Hy E. apply H2. rewrite <- map_app, <- E. apply in_map. auto.
  Qed.

  (** An outdated element. *)
  Lemma stale_spec : forall D st l1 l2 we t tr b d k, kst D st -> kcl None st -> h_ws st = l1 ++ (we, (t, tr)) :: l2 -> (forall y, In y (h_ws st) -> (we <= fst y)%Z) ->
    ew st t = Some (b, d) -> (d < we)%Z ->
    let st' := popped st (l1 ++ l2) k in kst we st' /\ kcl None st' /\ (forall e, live st' e -> live st e).
  Proof.
    intros D st l1 l2 we t tr b d k K C Ew Hmin He Hd st'.
    assert (SUB : forall x, In x (l1 ++ l2) -> In x (h_ws st)). { intros x. rewrite Ew, !in_app_iff. cbn. tauto. }
    assert (KEEP : forall x, In x (h_ws st) -> x = (we, (t, tr)) \/ In x (l1 ++ l2)). { intros x. rewrite Ew, !in_app_iff. cbn. intuition auto. }
    assert (Dw : (D <= we)%Z). { apply (k_ws _ _ K we t tr). rewrite Ew. apply in_or_app. right. left. auto. }
    assert (LV : forall e, live st e -> live st' e).
    { intros e (b0 & d0 & t0 & E & H). exists b0, d0, t0. split; auto. destruct (KEEP _ H) as [H1|H1]; auto. injection H1 as -> -> ->. rewrite He in E. injection E as <- <-. lia. }
    ands.
    - pose proof K as K'. destruct K'. constructor; auto.
      + lia.
      + intros e H. destruct (k_aut0 e H) as (d0 & E & L). exists d0. split; auto. lia.
      + intros e b0 d0 E. destruct (k_known0 e b0 d0 E) as [H|[t0 H]]; auto. right. exists t0. cbn. destruct (KEEP _ H) as [H1|H1]; auto.
        injection H1 as -> -> ->. change (ew st t = Some (b0, we)) in E. rewrite He in E. injection E as <- <-. lia.
      + intros w e t0 H. cbn in H. apply SUB in H. destruct (k_ws0 _ _ _ H) as (_ & H2 & H3). ands; auto. apply (Hmin _ H).
      + cbn. rewrite Ew in k_wsnd0. apply NoDup_remove_mid in k_wsnd0. apply k_wsnd0.
    - destruct C as [C1 C2]. constructor; auto. intros p l q Hp Hin. destruct (C1 p l q Hp Hin) as [H|[H|H]]; auto.
    - intros e (b0 & d0 & t0 & E & H). exists b0, d0, t0. split; auto.
  Qed.

  Lemma add_facts : forall D st t tr wt d, kst D st -> ew st t = Some (wt, d) -> exists A', wa_add_edge (h_aut st) t tr wt = Some A' /\ goodA A' /\
    (forall e, In e (map fst (a_edges (wa_aut A'))) <-> inA st e \/ e = t) /\ w_of A' t = wt /\ (forall e, e <> t -> w_of A' e = w_of (h_aut st) e).
  Proof.
    intros D st t tr wt d K He. unfold wa_add_edge. destruct (k_good _ _ K) as [G1 G2 G3 G4 G5 G6 G7]. assert (Hr := k_range _ _ K _ _ He).
    assert (Hs : e_src t < a_size (wa_aut (h_aut st))). { unfold a_size. rewrite G1. apply Hr. }
    destruct (emplace_cases (wa_aut (h_aut st)) t tr Hs) as [[Hin Em]|[Hin Em]]; rewrite Em; cbn [obind fst snd]; eexists; (split; [reflexivity|]).
    - destruct (k_aut _ _ K t Hin) as (d0 & E & _). rewrite He in E. injection E as E _. ands; auto.
      + constructor; auto.
      + intros e. split; auto. intros [H|H]; auto. subst; auto.
    - assert (WO : forall e, w_of (mk_waut (mk_aut (a_acc (wa_aut (h_aut st))) ((t, tr) :: a_edges (wa_aut (h_aut st))) (a_ord (wa_aut (h_aut st)))) ((t, wt) :: wa_w (h_aut st))) e = if edge_eq_dec t e then wt else w_of (h_aut st) e).
      { intros e. unfold w_of. cbn [wa_w]. rewrite w_find_cons. destruct (edge_eq_dec t e); auto. }
      ands.
      + constructor; cbn; auto.
        * constructor; auto.
        * intros e [<-|H]; auto.
        * intros e. fold (w_of (mk_waut (mk_aut (a_acc (wa_aut (h_aut st))) ((t, tr) :: a_edges (wa_aut (h_aut st))) (a_ord (wa_aut (h_aut st)))) ((t, wt) :: wa_w (h_aut st))) e).
          rewrite WO. destruct (edge_eq_dec t e); auto. apply (k_nn _ _ K _ _ _ He).
        * intros e H. fold (w_of (mk_waut (mk_aut (a_acc (wa_aut (h_aut st))) ((t, tr) :: a_edges (wa_aut (h_aut st))) (a_ord (wa_aut (h_aut st)))) ((t, wt) :: wa_w (h_aut st))) e).
          rewrite WO. destruct (edge_eq_dec t e) as [->|]; auto. exfalso. apply Hin. auto.
      + intros e. cbn. unfold inA. split; intros [H|H]; auto.
      + rewrite WO. destruct (edge_eq_dec t t); congruence.
      + intros e Hne. rewrite WO. destruct (edge_eq_dec t e); congruence.
  Qed.

  (** The edge is moved to the automaton; what the callback does is left open. *)
  Lemma move_spec : forall D st l1 l2 we t tr wt k, kst D st -> kcl None st -> h_ws st = l1 ++ (we, (t, tr)) :: l2 -> (forall y, In y (h_ws st) -> (we <= fst y)%Z) ->
    ew st t = Some (wt, we) ->
    exists st1 A', h_insert_rel P X (popped st (l1 ++ l2) k) t = Some st1 /\ h_aut st1 = h_aut st /\ h_x st1 = h_x st /\ h_found st1 = h_found st /\
      wa_add_edge (h_aut st) t tr wt = Some A' /\ goodA A' /\ w_of A' t = wt /\
      forall x f, let st2 := mk_ps A' (h_nQ st1) (h_qp st1) (h_min st1) (h_ew st1) (h_ws st1) (h_rel1 st1) (h_rel2 st1) f (h_pops st1) x in
      kst we st2 /\ kcl (Some t) st2 /\ inA st2 t /\ ew st2 t = Some (wt, we) /\ ~ live st2 t /\
      (forall e, inA st2 e <-> inA st e \/ e = t) /\ (forall e, live st2 e -> live st e).
  Proof.
    intros D st l1 l2 we t tr wt k K C Ew Hmin He. assert (Hr := k_range _ _ K _ _ He).
    destruct (add_facts D st t tr wt we K He) as (A' & EA & GA & IA' & WT & WO).
    set (r1 := if Nat.leb (pd_n P) (e_src t) then t :: h_rel1 st else h_rel1 st).
    set (r2 := match e_lab t with None => if Nat.leb nQ (e_dst t) then (e_dst t, e_src t) :: h_rel2 st else h_rel2 st | Some _ => h_rel2 st end).
    exists (mk_ps (h_aut st) (h_nQ st) (h_qp st) (h_min st) (h_ew st) (l1 ++ l2) r1 r2 (h_found st) k (h_x st)), A'.
    assert (SZ : a_size (wa_aut (h_aut st)) = N). { unfold a_size. rewrite (ga_acc _ (k_good _ _ K)). reflexivity. }
    split. { unfold h_insert_rel, popped, h_size. cbn [h_aut h_nQ h_qp h_min h_ew h_ws h_rel1 h_rel2 h_found h_pops h_x]. rewrite SZ, (k_nQ _ _ K). destruct Hr as (R1 & [_ R2] & _).
      apply Nat.ltb_lt in R1, R2. change (Nat.ltb (e_src t) N = true) in R1. change (Nat.ltb (e_dst t) N = true) in R2. rewrite R1, R2. unfold r1, r2.
      destruct (Nat.leb (pd_n P) (e_src t)), (e_lab t), (Nat.leb nQ (e_dst t)); reflexivity. }
    ands; auto. intros x f st2. cbn [h_aut h_x h_found h_nQ h_qp h_min h_ew h_ws h_rel1 h_rel2 h_pops] in st2.
    assert (SUB : forall x, In x (l1 ++ l2) -> In x (h_ws st)). { intros y. rewrite Ew, !in_app_iff. cbn. tauto. }
    assert (KEEP : forall x, In x (h_ws st) -> x = (we, (t, tr)) \/ In x (l1 ++ l2)). { intros y. rewrite Ew, !in_app_iff. cbn. intuition auto. }
    assert (Dw : (D <= we)%Z). { apply (k_ws _ _ K we t tr). rewrite Ew. apply in_or_app. right. left. auto. }
    assert (ND := k_wsnd _ _ K). rewrite Ew in ND. apply NoDup_remove_mid in ND. destruct ND as [ND NT]. cbn in NT.
    assert (IA : forall e, inA st2 e <-> inA st e \/ e = t) by (intros; apply IA').
    assert (LV : forall e, e <> t -> live st e -> live st2 e).
    { intros e Hne (b0 & d0 & t0 & E & H). exists b0, d0, t0. split; auto. destruct (KEEP _ H) as [H1|H1]; auto. congruence. }
    assert (WE : forall e, inA st e -> w_of A' e = w_of (h_aut st) e).
    { intros e H. destruct (edge_eq_dec e t) as [->|Hne]; auto. destruct (k_aut _ _ K t H) as (d0 & E & _). rewrite He in E. injection E as E _. congruence. }
    ands; auto.
    - pose proof K as K'. destruct K'. constructor; auto.
      + lia.
      + intros e v p g H Hq. destruct (k_e1aut0 e v p g H Hq) as [H1|H1]; auto. right. apply IA. auto.
      + intros e H. apply IA in H. destruct H as [H| ->].
        * destruct (k_aut0 e H) as (d0 & E & L). exists d0. split; [|lia]. change (h_aut st2) with A'. rewrite WE; auto.
        * exists we. change (h_aut st2) with A'. rewrite WT. split; auto. lia.
      + intros e b0 d0 E. rewrite IA. destruct (k_known0 e b0 d0 E) as [H|[t0 H]]; auto. destruct (KEEP _ H) as [H1|H1]; [injection H1 as -> -> ->; auto|]. right. exists t0. auto.
      + intros w e t0 H. cbn in H. apply SUB in H. destruct (k_ws0 _ _ _ H) as (_ & H2 & H3). ands; auto. apply (Hmin _ H).
      + intros e. change (h_rel1 st2) with r1. rewrite IA. unfold r1. destruct (Nat.leb_spec (pd_n P) (e_src t)) as [L|L]; cbn [In]; rewrite k_rel3.
        * split; [intros [<-|[H1 H2]]; auto|]. intros [[H1| ->] H2]; auto.
        * split; [intros [H1 H2]; auto|]. intros [[H1| ->] H2]; auto. unfold n in H2. lia.
      + intros s f0. change (h_rel2 st2) with r2. rewrite IA. unfold r2. destruct t as [ts tl td]; cbn [e_lab e_dst e_src]. destruct tl as [y|].
        * rewrite k_rel4. split; [intros [H1 H2]; auto|]. intros [[H1|H1] H2]; auto; discriminate.
        * destruct (Nat.leb_spec nQ td) as [L|L]; cbn [In]; rewrite k_rel4.
          -- split; [intros [H|[H1 H2]]; [injection H as <- <-|]; auto|]. intros [[H1|H1] H2]; auto. injection H1 as -> ->. auto.
          -- split; [intros [H1 H2]; auto|]. intros [[H1|H1] H2]; auto. injection H1 as -> ->. lia.
    - destruct C as [C1 C2]. constructor.
      + intros p l q Hp Hin. apply IA in Hin. destruct (edge_eq_dec (mk_edge p (Some l) q) t) as [<-|Hne]; auto. right. destruct Hin as [Hin|Hin]; [|congruence].
        destruct (C1 p l q Hp Hin) as [H|[H|H]]; [discriminate|auto|]. right. intros id r ls G Hc. change (h_aut st2) with A'. rewrite WO by auto. apply (H id r ls G Hc).
      + intros f0 s l q H1 H2. apply IA in H1, H2. change (h_aut st2) with A'. destruct (edge_eq_dec (mk_edge f0 None s) t) as [<-|N1]; auto. destruct (edge_eq_dec (mk_edge s (Some l) q) t) as [<-|N2]; auto.
        destruct H1 as [H1|H1]; [|congruence]. destruct H2 as [H2|H2]; [|congruence]. rewrite !WO by auto. destruct (C2 f0 s l q H1 H2) as [H|[H|H]]; try discriminate. auto.
    - apply IA. auto.
    - intros (b0 & d0 & t0 & E & H). change (ew st t = Some (b0, d0)) in E. rewrite He in E. injection E as <- <-. apply (NT _ H). auto.
    - intros e (b0 & d0 & t0 & E & H). exists b0, d0, t0. split; auto.
  Qed.

  Lemma eps_src : forall D st f s, kst D st -> inA st (mk_edge f None s) -> f < n /\ n <= s < N.
  Proof.
    intros D st f s K H. destruct (k_aut _ _ K _ H) as (d & E & _). destruct (k_sound _ _ K _ _ _ E) as (_ & W2 & W3). cbn in W2, W3.
    destruct (k_range _ _ K _ _ E) as (_ & R2 & _). cbn in R2. change (n <= s < N) in R2. split; auto.
    destruct (Nat.lt_ge_cases f n) as [L|L]; auto. exfalso. destruct (Nat.lt_ge_cases f nQ) as [L1|L1].
    - destruct (W2 (conj L L1)) as [W _]. apply E0_range in W. tauto.
    - destruct (W3 L1) as (x & Ex & _). discriminate.
  Qed.

  Lemma high_lab : forall D st e, kst D st -> inA st e -> n <= e_src e -> exists x, e_lab e = Some x.
  Proof.
    intros D st [s l d] K H L. cbn in *. destruct l as [x|]; eauto. destruct (eps_src _ _ _ _ K H). lia.
  Qed.

  Lemma h_weight_in : forall st e, inA st e -> h_weight X st e = Some (w_of (h_aut st) e).
  Proof.
    intros st e H. unfold h_weight. destruct (find_edge e (a_edges (wa_aut (h_aut st)))) eqn:F; auto. apply find_edge_None in F. contradiction.
  Qed.

  (** Following an epsilon edge [p --> s] by an edge [e] from [s]: the combined edge gets a value. *)
  Lemma combine_spec : forall D st p e tr we, kst D st -> inA st (mk_edge p None (e_src e)) -> inA st e ->
    (forall m, mp st (e_dst e) = Some m -> (D <= m + we)%Z) -> we = (w_of (h_aut st) (mk_edge p None (e_src e)) + w_of (h_aut st) e)%Z ->
    exists st', h_update X st (mk_edge p (e_lab e) (e_dst e)) we tr = Some st' /\ kst D st' /\ kle st st' /\ known_le st' (mk_edge p (e_lab e) (e_dst e)) we.
  Proof.
    intros D st p e tr we K H1 H2 HD ->. destruct (eps_src _ _ _ _ K H1) as [Lp Ls]. destruct (high_lab _ _ _ K H2 (proj1 Ls)) as [x Ex].
    destruct (k_aut _ _ K _ H1) as (d1 & E1 & _). destruct (k_aut _ _ K _ H2) as (d2 & E2 & _). destruct (k_pot _ _ K _ _ _ E2) as (m & Hm & Ed).
    destruct (k_range _ _ K _ _ E2) as (R1 & R2 & R3). change (e_src e < N) in R1. change (n <= e_dst e < N) in R2. assert (LN := n_nQ). assert (LN' := nQ_N').
    destruct (k_nn _ _ K _ _ _ E1) as [W1 _]. destruct (k_nn _ _ K _ _ _ E2) as [W2 _].
    apply (update_spec D st (mk_edge p (e_lab e) (e_dst e)) _ m tr); auto; cbn; try lia.
    - unfold q_range. cbn. fold n A1 N. ands; auto; try lia. rewrite Ex in *. auto.
    - unfold wsrc. cbn. ands; try lia. intros _. rewrite Ex. cbn. destruct (k_sound _ _ K _ _ _ E1) as (S1 & _ & _). specialize (S1 Lp). cbn in S1.
      apply (WSrc_extend e _ x p [] _ (k_sound _ _ K _ _ _ E2) Ex (proj1 Ls) S1).
    - eapply t_dst_ok; eauto.
  Qed.

  Definition h_loops (t : edge) (wt we : Z) (st2 : st_t) : option st_t :=
    if Nat.leb (pd_n P) (e_src t) then
      if Nat.ltb (e_src t) (h_nQ st2) then None
      else
        fs <- h_rel2_of X st2 (e_src t) ;;
        ofold (fun st f => w <- h_weight X st (mk_edge f None (e_src t)) ;;
                 h_update X st (mk_edge f (e_lab t) (e_dst t)) (wt + w)%Z (TEps (e_src t))) fs st2
    else
      match e_lab t with
      | Some l =>
          s <- nth_error (pd_states P) (e_src t) ;;
          ofold (h_rule X t l wt we) (enum (ps_rules s)) st2
      | None =>
          es <- h_rel1_of P X st2 (e_dst t) ;;
          ofold (fun st e => w <- h_weight X st e ;;
                   if Nat.ltb (e_dst e) (pd_n P) then None
                   else h_update X st (mk_edge (e_src t) (e_lab e) (e_dst e)) (w + wt)%Z (TEps (e_dst t))) es st2
      end.

  Lemma loops_spec : forall we st2 t wt, kst we st2 -> kcl (Some t) st2 -> inA st2 t -> ew st2 t = Some (wt, we) -> (e_src t < n \/ nQ <= e_src t) ->
    exists st', h_loops t wt we st2 = Some st' /\ kst we st' /\ kle st2 st' /\ kcl None st'.
  Proof.
    intros we st2 t wt K C Hin He Hsrc. unfold h_loops. assert (LN := n_nQ). assert (LN' := nQ_N').
    assert (Hr := k_range _ _ K _ _ He). destruct Hr as (R1 & R2 & R3). change (e_src t < N) in R1. change (n <= e_dst t < N) in R2.
    destruct (k_nn _ _ K _ _ _ He) as [Wn _]. destruct (k_pot _ _ K _ _ _ He) as (m & Hm & ED).
    assert (SZ : h_size st2 = N). { unfold h_size, a_size. rewrite (ga_acc _ (k_good _ _ K)). reflexivity. }
    assert (WT : w_of (h_aut st2) t = wt). { destruct (k_aut _ _ K _ Hin) as (d & E & _). congruence. }
    destruct (Nat.leb_spec (pd_n P) (e_src t)) as [L|L]; [change (n <= e_src t) in L|change (e_src t < n) in L].
    - destruct Hsrc as [Hsrc|Hsrc]; [lia|]. rewrite (k_nQ _ _ K). destruct (Nat.ltb_spec (e_src t) nQ) as [L1|L1]; [lia|].
      unfold h_rel2_of. rewrite (k_nQ _ _ K), SZ. apply Nat.leb_le in L1 as L1'. apply Nat.ltb_lt in R1 as R1'. rewrite L1', R1'. cbn [andb obind].
      destruct (high_lab _ _ _ K Hin L) as [x Ex].
      match goal with |- context [ofold ?ff ?l st2] => destruct (ofold_rule _ _ ff (fun s => kst we s /\ kle st2 s) kle
        (fun f s => known_le s (mk_edge f (e_lab t) (e_dst t)) (w_of (h_aut st2) (mk_edge f None (e_src t)) + wt)%Z) l) with (s := st2) as (st' & E & (K' & L') & _ & Q) end.
      + apply kle_refl.
      + apply kle_trans.
      + intros f s s' H Hk. eapply known_mono; eauto.
      + intros f s Hf [Ks Ls]. apply in_rev in Hf. apply in_map_iff in Hf. destruct Hf as ([s0 f0] & Ef & Hf). cbn in Ef. subst f0. apply filter_In in Hf. destruct Hf as [Hf Eq].
        cbn in Eq. apply Nat.eqb_eq in Eq. subst s0. apply (k_rel2 _ _ K) in Hf. destruct Hf as [Hf _].
        assert (I1 : inA s (mk_edge f None (e_src t))) by (apply (inA_kle _ _ _ Ls); auto). assert (I2 : inA s t) by (apply (inA_kle _ _ _ Ls); auto).
        rewrite (h_weight_in _ _ I1). cbn [obind]. rewrite (l_aut _ _ Ls).
        destruct (combine_spec we s f t (TEps (e_src t)) (wt + w_of (h_aut st2) (mk_edge f None (e_src t)))%Z Ks I1 I2) as (s' & E & K1 & L1s & KL).
        * intros m0 Hm0. assert (Et : ew s t = Some (wt, we)) by (rewrite (l_ew _ _ Ls); auto). destruct (k_pot _ _ Ks _ _ _ Et) as (m1 & Hm1 & E1). rewrite Hm0 in Hm1. injection Hm1 as <-.
          assert (0 <= w_of (h_aut st2) (mk_edge f None (e_src t)))%Z by apply (ga_nn _ (k_good _ _ K)). lia.
        * rewrite (l_aut _ _ Ls), WT. lia.
        * exists s'. ands; auto; [eapply kle_trans; eauto|]. rewrite Z.add_comm. auto.
      + split; auto using kle_refl.
      + exists st'. ands; auto. assert (C' := kcl_mono _ _ _ L' C). destruct C' as [C1 C2]. constructor.
        * intros p l q Hp Hi. destruct (C1 p l q Hp Hi) as [H|H]; auto. exfalso. injection H as ->. cbn in L. lia.
        * intros f s l q H1 H2. right. right. destruct (C2 f s l q H1 H2) as [H|[H|H]]; auto.
          -- injection H as ->. discriminate.
          -- injection H as ->. cbn [e_src e_lab e_dst] in *. rewrite (l_aut _ _ L'), WT. apply Q. apply in_rev. rewrite rev_involutive. apply in_map_iff. exists (s, f). split; auto.
             apply filter_In. cbn. rewrite Nat.eqb_refl. split; auto. apply (k_rel2 _ _ K). split; auto. apply (inA_kle _ _ _ L'). auto.
    - destruct (e_lab t) as [l|] eqn:El.
      + destruct (nth_error_ex _ (pd_states P) (e_src t) L) as [s Es]. rewrite Es. cbn [obind].
        assert (GR : forall id r ls, In (id, (r, ls)) (enum (ps_rules s)) <-> get_rule P (e_src t) id = Some (r, ls)).
        { intros id r ls. rewrite enum_In. unfold get_rule. rewrite Es. cbn. tauto. }
        match goal with |- context [ofold ?ff ?l0 st2] => destruct (ofold_rule _ _ ff (fun s => kst we s /\ kle st2 s) kle
          (fun x s => contains (snd (snd x)) l = true -> fired s (fst (snd x)) l (e_dst t) (wt + r_w (fst (snd x)))%Z) l0) with (s := st2) as (st' & E & (K' & L') & _ & Q) end.
        * apply kle_refl.
        * apply kle_trans.
        * intros x s1 s' H Hk Hc. eapply fired_mono; eauto.
        * intros [id [r ls]] s1 Hx [Ks Ls]. apply GR in Hx. destruct (rule_spec we s1 t l wt id r ls Ks) as (s' & E & K1 & L1 & F); auto.
          -- apply (inA_kle _ _ _ Ls); auto.
          -- rewrite (l_ew _ _ Ls); auto.
          -- exists s'. ands; auto. eapply kle_trans; eauto.
        * split; auto using kle_refl.
        * exists st'. ands; auto. assert (C' := kcl_mono _ _ _ L' C). destruct C' as [C1 C2]. constructor.
          -- intros p l0 q Hp Hi. right. destruct (C1 p l0 q Hp Hi) as [H|[H|H]]; auto. right. injection H as ->. cbn [e_src e_lab e_dst] in *. injection El as ->.
             intros id r ls G Hc. rewrite (l_aut _ _ L'), WT. apply GR in G. apply (Q _ G). auto.
          -- intros f s0 l0 q H1 H2. right. right. destruct (C2 f s0 l0 q H1 H2) as [H|[H|H]]; auto.
             ++ injection H as ->. discriminate.
             ++ injection H as ->. cbn in L. destruct (eps_src _ _ _ _ K' H1). lia.
      + unfold h_rel1_of. rewrite SZ. destruct R2 as [R2a R2b]. apply Nat.leb_le in R2a as L1'. apply Nat.ltb_lt in R2b as R1'. change (Nat.leb (pd_n P) (e_dst t) = true) in L1'. rewrite L1', R1'. cbn [andb obind].
        assert (Et' : t = mk_edge (e_src t) None (e_dst t)) by (destruct t; cbn in *; congruence).
        match goal with |- context [ofold ?ff ?l0 st2] => destruct (ofold_rule _ _ ff (fun s => kst we s /\ kle st2 s) kle
          (fun e s => known_le s (mk_edge (e_src t) (e_lab e) (e_dst e)) (w_of (h_aut st2) e + wt)%Z) l0) with (s := st2) as (st' & E & (K' & L') & _ & Q) end.
        * apply kle_refl.
        * apply kle_trans.
        * intros x s1 s' H Hk. eapply known_mono; eauto.
        * intros e s Hf [Ks Ls]. apply in_rev in Hf. apply filter_In in Hf. destruct Hf as [Hf Eq].
          apply Nat.eqb_eq in Eq. apply (k_rel1 _ _ K) in Hf. destruct Hf as [Hf _].
          assert (I1 : inA s (mk_edge (e_src t) None (e_src e))) by (apply (inA_kle _ _ _ Ls); rewrite Eq, <- Et'; auto). assert (I2 : inA s e) by (apply (inA_kle _ _ _ Ls); auto).
          rewrite (h_weight_in _ _ I2). cbn [obind]. rewrite (l_aut _ _ Ls). assert (R' := ga_range _ (k_good _ _ Ks) _ I2). destruct R' as (_ & [R' _] & _).
          destruct (Nat.ltb_spec (e_dst e) (pd_n P)) as [L2|L2]; [lia|].
          destruct (combine_spec we s (e_src t) e (TEps (e_dst t)) (w_of (h_aut st2) e + wt)%Z Ks I1 I2) as (s' & E & K1 & L1s & KL).
          -- intros me Hme. assert (Et : ew s t = Some (wt, we)) by (rewrite (l_ew _ _ Ls); auto). destruct (k_pot _ _ Ks _ _ _ Et) as (m1 & Hm1 & E1).
             destruct (k_aut _ _ Ks _ I2) as (de & Ee & _). destruct (k_pot _ _ Ks _ _ _ Ee) as (m2 & Hm2 & E2). rewrite Hme in Hm2. injection Hm2 as <-. rewrite (l_aut _ _ Ls) in E2.
             destruct (Nat.lt_ge_cases (e_dst t) nQ) as [L3|L3].
             ++ unfold mp in Hm1. apply Nat.ltb_lt in L3. rewrite L3 in Hm1. injection Hm1 as <-. destruct (k_nn _ _ Ks _ _ _ Ee). lia.
             ++ destruct (k_out _ _ Ks _ _ _ Ee) as (ms & Hms & Lms); [lia|]. rewrite Eq, Hm1 in Hms. injection Hms as <-. lia.
          -- rewrite (l_aut _ _ Ls), Eq, <- Et', WT. lia.
          -- exists s'. ands; auto. eapply kle_trans; eauto.
        * split; auto using kle_refl.
        * exists st'. ands; auto. assert (C' := kcl_mono _ _ _ L' C). destruct C' as [C1 C2]. constructor.
          -- intros p l0 q Hp Hi. right. destruct (C1 p l0 q Hp Hi) as [H|[H|H]]; auto. injection H as ->. discriminate.
          -- intros f s0 l0 q H1 H2. right. right. destruct (C2 f s0 l0 q H1 H2) as [H|[H|H]]; auto.
             ++ injection H as ->. cbn [e_src e_lab e_dst] in *. rewrite (l_aut _ _ L'), WT, Z.add_comm. apply (Q (mk_edge s0 (Some l0) q)). apply in_rev. rewrite rev_involutive.
                apply filter_In. cbn. rewrite Nat.eqb_refl. split; auto. apply (k_rel1 _ _ K). cbn. split; auto. apply (inA_kle _ _ _ L'). auto.
             ++ injection H as ->. discriminate.
  Qed.

  (** *** A step *)
  Variable J : waut -> X -> Prop.
  Variable JT : waut -> X -> waut -> X -> Z -> Prop.
  Hypothesis J_none : et = None -> forall A x e tr w A', J A x -> wa_add_edge A e tr w = Some A' -> J A' x.
  Hypothesis J_call : forall f A x e tr w A' etp, et = Some f -> J A x -> goodA A -> goodA A' -> wa_add_edge A e tr w = Some A' -> w_of A' e = w -> (0 <= etp)%Z ->
    In e (map fst (a_edges (wa_aut A'))) ->
    exists b x', f A' x e tr w etp = Some (b, x') /\ if b then JT A x A' x' etp else J A' x'.

  Definition liveb (st : st_t) (e : edge) : bool :=
    match ew st e with None => false | Some (_, d) => existsb (fun x => Z.eqb (fst x) d && edge_eqb (fst (snd x)) e) (h_ws st) end.
  Lemma liveb_spec : forall st e, liveb st e = true <-> live st e.
  Proof.
    intros st e. unfold liveb, live. destruct (ew st e) as [[b d]|].
    - rewrite existsb_exists. split.
      + intros ([w [e' t]] & H & E). cbn in E. apply andb_true_iff in E. destruct E as [E1 E2]. apply Z.eqb_eq in E1. apply edge_eqb_eq in E2. subst. exists b, d, t. auto.
      + intros (b0 & d0 & t & E & H). injection E as <- <-. exists (d, (e, t)). split; auto. cbn. rewrite Z.eqb_refl, edge_eqb_refl. auto.
    - split; [discriminate|]. intros (b & d & t & E & _). discriminate.
  Qed.
  Definition inAb (st : st_t) (e : edge) : bool := if in_dec edge_eq_dec e (map fst (a_edges (wa_aut (h_aut st)))) then true else false.
  Definition pendb (st : st_t) (e : edge) : bool := negb (inAb st e) || liveb st e.
  Definition pend (st : st_t) : nat := length (filter (pendb st) (q_universe P (wa_aut A0))).
  Lemma pendb_spec : forall st e, pendb st e = true <-> ~ inA st e \/ live st e.
  Proof.
    intros st e. unfold pendb, inAb. rewrite orb_true_iff, negb_true_iff, liveb_spec. unfold inA. destruct (in_dec edge_eq_dec e (map fst (a_edges (wa_aut (h_aut st))))); intuition congruence.
  Qed.
  Lemma filter_len_le : forall (f g : edge -> bool) l, (forall x, In x l -> f x = true -> g x = true) -> length (filter f l) <= length (filter g l).
  Proof.
    intros f g l H. induction l as [|x l IH]; cbn; auto. assert (IH' : length (filter f l) <= length (filter g l)) by (apply IH; intros; apply H; cbn; auto).
    specialize (H x (or_introl eq_refl)). destruct (f x); cbn; [rewrite H by auto; cbn; lia|]. destruct (g x); cbn; lia.
  Qed.
  Lemma filter_len_lt : forall (f g : edge -> bool) l y, (forall x, In x l -> f x = true -> g x = true) -> In y l -> f y = false -> g y = true -> length (filter f l) < length (filter g l).
  Proof.
    intros f g l y H Hy Hf Hg. induction l as [|x l IH]; [destruct Hy|]. cbn [filter]. destruct Hy as [->|Hy].
    - rewrite Hf, Hg. cbn. apply le_n_S. apply filter_len_le. intros; apply H; cbn; auto.
    - assert (IH' : length (filter f l) < length (filter g l)) by (apply IH; auto; intros; apply H; cbn; auto). specialize (H x (or_introl eq_refl)).
      destruct (f x); cbn; [rewrite H by auto; cbn; lia|]. destruct (g x); cbn; lia.
  Qed.

  Lemma step_spec : forall D st, kst D st -> kcl None st -> J (h_aut st) (h_x st) -> h_found st = false -> h_ws st <> [] ->
    exists st' we, h_step P X et ptop st = Some st' /\ (D <= we)%Z /\ (forall y, In y (h_ws st) -> (we <= fst y)%Z) /\ kst we st' /\ kcl None st' /\
      (if h_found st' then et <> None /\ JT (h_aut st) (h_x st) (h_aut st') (h_x st') we else J (h_aut st') (h_x st')) /\
      (pend st' < pend st \/ pend st' <= pend st /\ length (h_ws st') < length (h_ws st)).
  Proof.
    intros D st K C HJ Hf Hws. destruct (PT (h_pops st) _ Hws) as ([we [t tr]] & Ht & Hmin). cbn [fst] in Hmin.
    unfold h_step. rewrite Ht. cbn [obind fst snd]. destruct (remove_at_split _ _ _ _ Ht) as (l1 & l2 & Ew & Er). rewrite Er.
    destruct (k_ws _ _ K we t tr) as (Dw & Hs & wt & d & He & Hd). { rewrite Ew. apply in_or_app. right. left. auto. }
    fold (ew st t). rewrite He. cbn [obind fst snd]. fold (popped st (l1 ++ l2) (Datatypes.S (h_pops st))). destruct (Z.ltb_spec d we) as [L|L].
    - destruct (stale_spec D st l1 l2 we t tr wt d (Datatypes.S (h_pops st)) K C Ew Hmin He L) as (K' & C' & LV).
      exists (popped st (l1 ++ l2) (Datatypes.S (h_pops st))), we. ands; auto.
      + cbn [h_found popped]. rewrite Hf. auto.
      + right. split.
        * apply filter_len_le. intros x _ H. apply pendb_spec in H. apply pendb_spec. destruct H as [H|H]; auto.
        * cbn. rewrite Ew, !app_length. cbn. lia.
    - assert (d = we) by lia. subst d. clear L Hd. assert (Hr := k_range _ _ K _ _ He). destruct (Nat.ltb_spec (e_dst t) (pd_n P)) as [L|L]; [destruct Hr as (_ & [Hr _] & _); lia|].
      destruct (move_spec D st l1 l2 we t tr wt (Datatypes.S (h_pops st)) K C Ew Hmin He) as (st1 & A' & E1 & Ea & Ex & Ef & EA & GA & WT & MV).
      rewrite E1. cbn [obind]. rewrite Ea, EA. cbn [obind].
      assert (INT : In t (map fst (a_edges (wa_aut A')))) by (destruct (MV (h_x st) false) as (_ & _ & Hin & _); exact Hin).
      assert (DW : (0 <= we)%Z) by (pose proof (k_D _ _ K); lia).
      assert (CB : exists x f, h_et X et (h_set_aut X st1 A') t tr wt we = Some (mk_ps A' (h_nQ st1) (h_qp st1) (h_min st1) (h_ew st1) (h_ws st1) (h_rel1 st1) (h_rel2 st1) f (h_pops st1) x) /\
        if f then et <> None /\ JT (h_aut st) (h_x st) A' x we else J A' x).
      { unfold h_et. destruct et as [f|] eqn:Et.
        - cbn [h_aut h_x h_set_aut h_found]. rewrite Ex, Ef, Hf. destruct (J_call f (h_aut st) (h_x st) t tr wt A' we eq_refl HJ (k_good _ _ K) GA EA WT DW INT) as (b & x' & Eb & HB).
          rewrite Eb. cbn [obind fst snd]. exists x', b. split; auto. destruct b; auto. split; auto. congruence.
        - exists (h_x st), false. unfold h_set_aut. rewrite Ex, Ef, Hf. split; auto. eapply J_none; eauto. }
      destruct CB as (x & f & ECB & HB). rewrite ECB. cbn [obind]. specialize (MV x f). cbv zeta in MV. match type of MV with kst _ ?s /\ _ => set (st2 := s) in * end.
      destruct MV as (K2 & C2 & Hin & He2 & NL & IA & LV). destruct (loops_spec we st2 t wt K2 C2 Hin He2 Hs) as (st' & El & K3 & L3 & C3).
      exists st', we. unfold h_loops in El. rewrite (k_nQ _ _ K2) in El. rewrite (k_nQ _ _ K). ands; auto.
      + rewrite (l_found _ _ L3), (l_aut _ _ L3), (l_x _ _ L3). exact HB.
      + left. apply filter_len_lt with (y := t).
        * intros e _ H. apply pendb_spec in H. apply pendb_spec. rewrite (inA_kle _ _ _ L3) in H. destruct H as [H|H].
          -- left. intros H1. apply H. apply IA. auto.
          -- destruct (in_dec edge_eq_dec e (map fst (a_edges (wa_aut (h_aut st))))) as [Hi|Hi]; auto. right. apply LV. apply (l_live _ _ L3); auto. apply IA. auto.
        * apply q_range_universe; auto. apply n_nQ.
        * destruct (pendb st' t) eqn:Ep; auto. apply pendb_spec in Ep. rewrite (inA_kle _ _ _ L3) in Ep. destruct Ep as [Ep|Ep]; [contradiction|]. apply (l_live _ _ L3) in Ep; auto. contradiction.
        * apply pendb_spec. right. exists wt, we, tr. split; auto. rewrite Ew. apply in_or_app. right. left. auto.
  Qed.

  (** *** The loop *)
  Definition outcome (D : Z) (r : st_t * bool) : Prop :=
    let st := fst r in
    if snd r
    then exists stp D', (D <= D')%Z /\ kst D' stp /\ kcl None stp /\ (forall y, In y (h_ws stp) -> (D' <= fst y)%Z) /\ J (h_aut stp) (h_x stp) /\ kst D' st /\ kcl None st /\ et <> None /\ JT (h_aut stp) (h_x stp) (h_aut st) (h_x st) D'
    else exists D', kst D' st /\ kcl None st /\ h_ws st = [] /\ J (h_aut st) (h_x st).

  Lemma kst_raise : forall D D' st, kst D st -> (D <= D')%Z -> (forall y, In y (h_ws st) -> (D' <= fst y)%Z) -> kst D' st.
  Proof.
    intros D D' st K L H. destruct K. constructor; auto.
    - lia.
    - intros e He. destruct (k_aut0 e He) as (d & E & Ld). exists d. split; auto. lia.
    - intros w e t Hw. destruct (k_ws0 _ _ _ Hw) as (_ & H2 & H3). ands; auto. apply (H _ Hw).
  Qed.

  Lemma run_spec : forall k m D st, kst D st -> kcl None st -> J (h_aut st) (h_x st) -> h_found st = false -> pend st <= k -> length (h_ws st) <= m ->
    exists fuel0 r, outcome D r /\ forall fuel, fuel0 <= fuel -> h_run P X et ptop fuel st = Some (Some r).
  Proof.
    induction k as [k IHk] using lt_wf_ind. induction m as [m IHm] using lt_wf_ind. intros D st K C HJ Hf Hk Hm.
    destruct (h_ws st) as [|x ws] eqn:Ew.
    - exists 0, (st, false). split.
      + exists D. ands; auto.
      + intros fuel _. destruct fuel; cbn; rewrite Ew, Hf; auto.
    - destruct (step_spec D st K C HJ Hf) as (st' & we & Es & Dw & Hmin & K' & C' & HB & Meas); [congruence|].
      destruct (h_found st') eqn:Ef'.
      + destruct HB as [Hne HB]. exists 1, (st', true). split.
        * exists st, we. cbn. ands; auto. apply (kst_raise D); auto.
        * intros fuel Hfu. destruct fuel as [|fuel]; [lia|]. cbn [h_run]. rewrite Ew, Hf. destruct et as [f|] eqn:Et; [|congruence]. rewrite Es.
          destruct fuel; cbn [h_run]; rewrite Ef'; destruct (h_ws st'); auto.
      + assert (NEXT : exists fuel0 r, outcome we r /\ forall fuel, fuel0 <= fuel -> h_run P X et ptop fuel st' = Some (Some r)).
        { destruct Meas as [M1|[M1 M2]].
          - apply (IHk (pend st') ltac:(lia) (length (h_ws st')) we st'); auto.
          - apply (IHm (length (h_ws st')) ltac:(rewrite Ew in M2; cbn in *; lia) we st'); auto. lia. }
        destruct NEXT as (fuel0 & r & Ho & Hr). exists (Datatypes.S fuel0), r. split.
        * unfold outcome in *. destruct (snd r); auto. destruct Ho as (stp & D' & H1 & H2). exists stp, D'. split; auto. lia.
        * intros fuel Hfu. destruct fuel as [|fuel]; [lia|]. cbn [h_run]. rewrite Ew, Hf. destruct et as [f|] eqn:Et; rewrite Es; apply Hr; lia.
  Qed.

  (** *** Initialisation *)
  Let A1w := mk_waut A1 (wa_w A0).
  Hypothesis J_init : forall f x e tr, et = Some f -> J A1w x -> In e (map fst E0) -> n <= e_src e ->
    exists x', f A1w x e tr (w_of A1w e) 0%Z = Some (false, x') /\ J A1w x'.

  Lemma A1_edges : a_edges A1 = E0.
  Proof. apply (qo_edges _ _ Hqp). Qed.
  Lemma A1_ord : a_ord A1 = a_ord (wa_aut A0).
  Proof. apply (qo_ord _ _ Hqp). Qed.
  Lemma A1_wf : wf_ord A1.
  Proof. intros q l. rewrite A1_ord. apply (qk_ord _ _ OK). Qed.

  Record ist (dn : list edge) (st : st_t) : Prop := {
    i_aut : h_aut st = A1w;
    i_nQ : h_nQ st = nQ;
    i_qp : h_qp st = M;
    i_min : h_min st = repeat None (N - nQ);
    i_found : h_found st = false;
    i_J : J (h_aut st) (h_x st);
    i_ew : forall e, ew st e = if in_dec edge_eq_dec e dn then Some (0%Z, 0%Z) else None;
    i_ws : forall x, In x (h_ws st) -> exists e, x = (0%Z, (e, TNull)) /\ In e dn /\ e_src e < n;
    i_ws' : forall e, In e dn -> e_src e < n -> In (0%Z, (e, TNull)) (h_ws st);
    i_nd : NoDup (map (fun x => (fst x, fst (snd x))) (h_ws st));
    i_rel1 : forall e, In e (h_rel1 st) <-> In e dn /\ n <= e_src e;
    i_rel2 : h_rel2 st = [] }.

  Lemma in_dec_snoc : forall (dn : list edge) e e', (if in_dec edge_eq_dec e' (dn ++ [e]) then Some (0%Z, 0%Z) else None) =
    (if edge_eq_dec e e' then Some (0%Z, 0%Z) else if in_dec edge_eq_dec e' dn then Some (0%Z, 0%Z) else None).
  Proof.
    intros dn e e'. destruct (in_dec edge_eq_dec e' (dn ++ [e])) as [H|H]; rewrite in_app_iff in H; cbn in H; destruct (edge_eq_dec e e'), (in_dec edge_eq_dec e' dn); auto; tauto.
  Qed.

  Lemma init_edge_spec : forall dn st e, ist dn st -> In e (map fst E0) -> ~ In e dn -> exists st', h_init_edge P X et st e = Some st' /\ ist (dn ++ [e]) st'.
  Proof.
    intros dn st e Is Hin Hnd. destruct e as [s l d] eqn:Ee. destruct (E0_range _ _ _ Hin) as (R1 & R2 & R3). rewrite <- Ee in *. unfold h_init_edge.
    assert (El : e_lab e = l) by (rewrite Ee; auto). rewrite El. destruct l as [l|]; [|congruence]. fold (ew st e). rewrite (i_ew _ _ Is). destruct (in_dec edge_eq_dec e dn); [contradiction|].
    assert (Es : e_src e = s) by (rewrite Ee; auto). assert (LN := nQ_N'). rewrite Es.
    assert (EWS : forall e', ew (h_set_ew X st e (0%Z, 0%Z)) e' = if in_dec edge_eq_dec e' (dn ++ [e]) then Some (0%Z, 0%Z) else None).
    { intros e'. rewrite in_dec_snoc, <- (i_ew _ _ Is). unfold ew, h_set_ew. cbn [h_ew]. apply w_find_cons. }
    destruct (Nat.ltb_spec s (pd_n P)) as [L|L].
    - eexists; split; [reflexivity|]. destruct Is. constructor; auto.
      + intros x Hx. cbn in Hx. apply in_app_or in Hx. destruct Hx as [Hx|[<-|[]]].
        * destruct (i_ws0 x Hx) as (e' & E & H1 & H2). exists e'. ands; auto. apply in_or_app; auto.
        * exists e. rewrite Es. ands; auto. apply in_or_app. right. left. auto.
      + intros e' H H1. cbn. apply in_app_or in H. apply in_or_app. destruct H as [H|[<-|[]]]; auto. right. left. auto.
      + cbn. rewrite map_app. cbn. apply NoDup_app_snoc; auto. intros H. apply in_map_iff in H. destruct H as (x & Ex & Hx). destruct (i_ws0 x Hx) as (e' & -> & H1 & _). cbn in Ex. injection Ex as ->. contradiction.
      + intros e'. cbn. rewrite i_rel3, in_app_iff. cbn. split; [intros [H1 H2]; auto|]. intros [[H1|[<-|[]]] H2]; auto. rewrite Es in H2. unfold n in H2. lia.
    - unfold h_insert_rel, h_size. apply Nat.leb_le in L as L'. rewrite Es, El, L'. cbn [h_set_ew h_aut h_rel1 h_rel2 h_nQ h_qp h_min h_ew h_ws h_found h_pops h_x]. rewrite (i_aut _ _ Is).
      assert (LS : s < N) by lia. apply Nat.ltb_lt in LS. change (a_size (wa_aut A1w)) with N. rewrite LS. cbn [obind]. cbn [wa_aut A1w]. rewrite A1_edges.
      destruct (find_edge e E0) as [tr|] eqn:F; [|apply find_edge_None in F; contradiction]. cbn [obind]. unfold h_et.
      assert (FIN : forall x, J A1w x -> ist (dn ++ [e]) (mk_ps A1w (h_nQ st) (h_qp st) (h_min st) ((e, (0%Z, 0%Z)) :: h_ew st) (h_ws st) (e :: h_rel1 st) (h_rel2 st) false (h_pops st) x)).
      { intros x HJ. destruct Is. constructor; auto.
        + intros y Hy. destruct (i_ws0 y Hy) as (e' & E & H1 & H2). exists e'. ands; auto. apply in_or_app; auto.
        + intros e' H H1. apply in_app_or in H. destruct H as [H|[<-|[]]]; auto. rewrite Es in H1. unfold n in H1. lia.
        + intros e'. cbn. rewrite i_rel3, in_app_iff. cbn. split; [intros [<-|[H1 H2]]; auto; rewrite Es; auto|]. intros [[H1|[<-|[]]] H2]; auto. }
      destruct et as [f|] eqn:Et.
      + cbn [h_aut h_x]. destruct (J_init f (h_x st) e tr eq_refl) as (x' & Ex & HJ); auto; [rewrite <- (i_aut _ _ Is); apply (i_J _ _ Is)|rewrite Es; auto|]. rewrite Ex. cbn [obind fst snd h_nQ h_qp h_min h_ew h_ws h_rel1 h_rel2 h_found h_pops].
        rewrite (i_found _ _ Is). eexists; split; [reflexivity|]. apply FIN; auto.
      + rewrite (i_found _ _ Is). eexists; split; [reflexivity|]. apply FIN. rewrite <- (i_aut _ _ Is). apply (i_J _ _ Is).
  Qed.

  Lemma init_edges_spec : forall l dn st, ist dn st -> (forall e, In e l -> In e (map fst E0)) -> NoDup (dn ++ l) -> exists st', ofold (h_init_edge P X et) l st = Some st' /\ ist (dn ++ l) st'.
  Proof.
    induction l as [|e l IH]; intros dn st Is Hin Hnd.
    - rewrite app_nil_r. exists st. auto.
    - destruct (init_edge_spec dn st e Is) as (st1 & E & Is1); [apply Hin; left; auto|apply NoDup_remove in Hnd; intros H; apply Hnd; apply in_or_app; auto|].
      destruct (IH (dn ++ [e]) st1 Is1) as (st' & E' & Is'); [intros; apply Hin; right; auto|rewrite <- app_assoc; auto|]. exists st'. rewrite <- app_assoc in Is'. split; auto. cbn. rewrite E. auto.
  Qed.

  Definition flat : list edge := flat_map (fun q => flat_map (fun t => map (fun l => mk_edge q l t) (labels_between A1 q t)) (tos A1 q)) (seq 0 N).
  Lemma flat_In : forall e, In e flat <-> In e (map fst E0).
  Proof.
    intros [s l d]. unfold flat. rewrite in_flat_map. assert (EE : aut_edges A1 s l d <-> In (mk_edge s l d) (map fst E0)) by (unfold aut_edges; rewrite A1_edges; reflexivity). split.
    - intros (q & _ & H). apply in_flat_map in H. destruct H as (t & _ & H). apply in_map_iff in H. destruct H as (l0 & E & H). injection E as -> -> ->. apply labels_between_In in H. tauto.
    - intros H. destruct (E0_range _ _ _ H) as (R1 & R2 & _). assert (LN := nQ_N'). apply EE in H. exists s. split; [apply in_seq; lia|]. apply in_flat_map. exists d. split; [apply tos_In; [apply A1_wf|eauto]|].
      apply in_map_iff. exists l. split; auto. apply labels_between_In. auto.
  Qed.
  Lemma flat_nd : NoDup flat.
  Proof.
    unfold flat. apply NoDup_flat.
    - apply seq_NoDup.
    - intros q. apply NoDup_flat.
      + apply tos_NoDup. apply A1_wf.
      + intros t. apply FinFun.Injective_map_NoDup; [|apply lsorted_NoDup; apply (labels_between_sorted 0 A1 A1); lia]. intros a b E. injection E as ->. auto.
      + intros a a' b H1 H2. apply in_map_iff in H1, H2. destruct H1 as (x & <- & _). destruct H2 as (y & E & _). injection E as _ ->. auto.
    - intros a a' b H1 H2. apply in_flat_map in H1, H2. destruct H1 as (t & _ & H1). destruct H2 as (t' & _ & H2). apply in_map_iff in H1, H2. destruct H1 as (x & <- & _). destruct H2 as (y & E & _). injection E as -> _ _. auto.
  Qed.

  Lemma insert_rel_aut : forall st e st', h_insert_rel P X st e = Some st' -> h_aut st' = h_aut st.
  Proof.
    intros st e st' H. unfold h_insert_rel in H. repeat match type of H with (_ <- ?x ;; _) = _ => destruct x as [?|]; [cbn [obind] in H|discriminate] end. injection H as <-. auto.
  Qed.
  Lemma init_edge_aut : forall st e st', h_init_edge P X et st e = Some st' -> h_aut st' = h_aut st.
  Proof.
    intros st e st' H. unfold h_init_edge in H. destruct (e_lab e); [|discriminate]. assert (AUT : h_aut (match w_find e (h_ew st) with Some _ => st | None => h_set_ew X st e (0%Z, 0%Z) end) = h_aut st) by (destruct (w_find e (h_ew st)); auto).
    destruct (Nat.ltb (e_src e) (pd_n P)); [injection H as <-; auto|].
    destruct (h_insert_rel P X _ e) as [st2|] eqn:E1; [cbn [obind] in H|discriminate]. apply insert_rel_aut in E1. rewrite AUT in E1.
    destruct (find_edge e _); [cbn [obind] in H|discriminate]. unfold h_et in H. destruct et as [f|]; [|injection H as <-; auto].
    destruct (f _ _ _ _ _ _); [cbn [obind] in H|discriminate]. injection H as <-. auto.
  Qed.

  Lemma A1w_good : goodA A1w.
  Proof.
    constructor; auto.
    - apply A1_ord.
    - cbn. rewrite A1_edges. apply (qk_nd _ _ OK).
    - cbn. rewrite A1_edges. auto.
    - cbn. rewrite A1_edges. intros [s l d] H. destruct (qk_range _ _ OK _ _ _ H) as [H1 [H2 [x [H3 H4]]]]. assert (LN := nQ_N'). unfold q_range. cbn. fold n A1 N. subst l. ands; auto; try lia; unfold nQ in LN; lia.
    - intros e. change (w_of A1w e) with (w_of A0 e). rewrite Z0. lia.
    - intros e _. apply Z0.
  Qed.

  Lemma init_spec : forall x, J A1w x -> exists st, h_init P X et A0 x = Some st /\ kst 0 st /\ kcl None st /\ J (h_aut st) (h_x st) /\ h_found st = false.
  Proof.
    intros x HJ. unfold h_init.
    assert (NR : negative_rules P = false).
    { unfold negative_rules. apply not_true_is_false. intros H. apply existsb_exists in H. destruct H as (s & Hs & H). apply existsb_exists in H. destruct H as ([r ls] & Hr & H). cbn in H. apply Z.ltb_lt in H.
      apply In_nth_error in Hs, Hr. destruct Hs as [p Hp]. destruct Hr as [id Hid]. assert (G : get_rule P p id = Some (r, ls)) by (unfold get_rule; rewrite Hp; auto). apply NN in G. lia. }
    assert (NE : negative_edges A0 = false).
    { unfold negative_edges. apply not_true_is_false. intros H. apply existsb_exists in H. destruct H as (e & _ & H). rewrite Z0 in H. apply Z.ltb_lt in H. lia. }
    rewrite NR, NE. cbn [orb]. assert (LN := n_nQ). assert (LN' := nQ_N'). assert (L1 : n <= N) by lia. apply Nat.leb_le in L1.
    change (fst (qp_init P (wa_aut A0))) with A1. change (snd (qp_init P (wa_aut A0))) with M. change (Nat.leb (pd_n P) (a_size A1) = true) in L1. rewrite L1. change (a_size A1) with N. change (a_size (wa_aut A0)) with nQ. fold A1w.
    set (st0 := mk_ps A1w nQ M (repeat None (N - nQ)) [] [] [] [] false 0 x : st_t).
    rewrite (ofold_flat _ _ _ (h_init_edge P X et) (h_init_state P X et) (fun q => flat_map (fun t => map (fun l => mk_edge q l t) (labels_between A1 q t)) (tos A1 q)) (fun s => h_aut s = A1w)).
    - fold flat. assert (Is0 : ist [] st0). { constructor; cbn; auto; try (intros; tauto). constructor. }
      destruct (init_edges_spec flat [] st0 Is0) as (st & E & Is); [intros e; apply flat_In|apply flat_nd|]. cbn [app] in Is. exists st. assert (HIN := flat_In).
      assert (EW : forall e, In e (map fst E0) -> ew st e = Some (0%Z, 0%Z)). { intros e H. rewrite (i_ew _ _ Is). destruct (in_dec edge_eq_dec e flat) as [H'|H']; auto. rewrite HIN in H'. contradiction. }
      assert (EW' : forall e v, ew st e = Some v -> In e (map fst E0) /\ v = (0%Z, 0%Z)). { intros e v H. rewrite (i_ew _ _ Is) in H. destruct (in_dec edge_eq_dec e flat) as [H'|H']; [|discriminate]. injection H as <-. rewrite HIN in H'. auto. }
      assert (IA : forall e, inA st e <-> In e (map fst E0)). { intros e. unfold inA. rewrite (i_aut _ _ Is). cbn. rewrite A1_edges. tauto. }
      assert (MPE : forall e, In e (map fst E0) -> mp st (e_dst e) = Some 0%Z). { intros [s l d] H. destruct (E0_range _ _ _ H) as (_ & R2 & _). unfold mp. cbn. destruct (Nat.ltb_spec d nQ); auto; lia. }
      ands; auto.
      + constructor; auto; try apply Is.
        * lia.
        * rewrite (i_aut _ _ Is). apply A1w_good.
        * rewrite (i_min _ _ Is), repeat_length. auto.
        * intros e v H. apply EW' in H. destruct H as [H _]. apply (ga_range _ A1w_good). cbn. rewrite A1_edges. auto.
        * intros e b d H. apply EW' in H. destruct H as [H Ev]. injection Ev as -> ->. destruct e as [s l d]. destruct (E0_range _ _ _ H) as (R1 & R2 & R3). unfold wsrc. cbn. ands; try lia.
          -- intros Ls. unfold WSrc. destruct (Nat.ltb_spec d nQ); [|lia]. destruct l as [l|]; [|congruence]. exists s, [l]. ands; auto; [|constructor]. econstructor; [exact H|constructor].
          -- intros _. split; auto.
        * intros e b d H. apply EW' in H. destruct H as [H Ev]. injection Ev as -> ->. lia.
        * intros e b d H. apply EW' in H. destruct H as [H Ev]. injection Ev as -> ->. exists 0%Z. split; auto.
        * intros e b d H L. apply EW' in H. destruct H as [H Ev]. destruct e as [s l d0]. destruct (E0_range _ _ _ H) as (R1 & _). cbn in L. lia.
        * intros p g q Hq. assert (R := qp_r _ _ Hq). destruct (ew st (mk_edge p (Some g) q)) as [v|] eqn:Ev.
          -- apply EW' in Ev. destruct Ev as [Ev _]. destruct (E0_range _ _ _ Ev) as (_ & R2 & _). lia.
          -- unfold mp. destruct (Nat.ltb_spec q nQ); [lia|]. rewrite (i_min _ _ Is). rewrite nth_error_repeat by lia. auto.
        * intros e v p g H Hq. apply EW' in H. destruct H as [H _]. assert (R := qp_r _ _ Hq). destruct e as [s l d]. destruct (E0_range _ _ _ H) as (_ & R2 & _). cbn in R. lia.
        * intros e H. apply IA in H. exists 0%Z. rewrite (i_aut _ _ Is). change (w_of A1w e) with (w_of A0 e). rewrite Z0, (EW e H). split; auto. lia.
        * intros e b d H. apply EW' in H. left. apply IA. apply H.
        * intros w e t H. destruct (i_ws _ _ Is _ H) as (e' & E' & H1 & H2). injection E' as -> -> ->. rewrite HIN in H1. ands; auto; [lia|]. exists 0%Z, 0%Z. split; auto. lia.
        * intros e. rewrite (i_rel1 _ _ Is), HIN, IA. tauto.
        * intros s f. rewrite (i_rel2 _ _ Is), IA. cbn. split; [tauto|]. intros [H _]. apply E0_range in H. tauto.
      + constructor.
        * intros p l q Hp H. right. left. apply IA in H. exists 0%Z, 0%Z, TNull. split; auto. apply (i_ws' _ _ Is); auto. apply HIN. auto.
        * intros f s l q H _. apply IA in H. apply E0_range in H. tauto.
      + apply Is.
      + apply Is.
    - intros s q Hs. unfold h_init_state. rewrite Hs. change (wa_aut A1w) with A1. apply (ofold_flat _ _ _ (h_init_edge P X et) _ (fun t => map (fun l => mk_edge q l t) (labels_between A1 q t)) (fun s => h_aut s = A1w)); auto.
      + intros s1 t Hs1. rewrite Hs1. change (wa_aut A1w) with A1. clear Hs1. revert s1. induction (labels_between A1 q t) as [|l ls IH]; intros s1; cbn; auto. destruct (h_init_edge P X et s1 (mk_edge q l t)); cbn; auto.
      + intros s1 e s1' H1 H2. rewrite <- H1. eapply init_edge_aut; eauto.
    - intros s1 e s1' H1 H2. rewrite <- H1. eapply init_edge_aut; eauto.
    - auto.
  Qed.

  (** *** What the automaton says about runs *)
  Definition EA (st : st_t) : edgeset := aut_edges (wa_aut (h_aut st)).
  Definition wA (st : st_t) (x : nat) (y : option nat) (z : nat) : Z := w_of (h_aut st) (mk_edge x y z).

  Lemma aut_final_low : forall D st q, kst D st -> aut_final (wa_aut (h_aut st)) q <-> q < nQ /\ aut_final (wa_aut A0) q.
  Proof.
    intros D st q K. unfold aut_final. rewrite (ga_acc _ (k_good _ _ K)). destruct (qo_acc _ _ Hqp) as [k Ek]. unfold A1. rewrite Ek. split.
    - intros H. destruct (Nat.lt_ge_cases q nQ) as [L|L]; [rewrite nth_error_app1 in H by exact L; auto|].
      rewrite nth_error_app2 in H by exact L. apply nth_error_In in H. apply repeat_spec in H. discriminate.
    - intros [L H]. rewrite nth_error_app1; auto.
  Qed.

  Lemma jsound : forall D st ES wS p w v a b, kst D st -> (forall e, wS e = 0%Z) -> p < n -> jpath (EA st) ES (w_of (h_aut st)) wS p p w v a b ->
    apath ES p w b /\ ((a = p /\ w = [] /\ v = 0%Z) \/ (n <= a /\ WSrc a (p, w) v)).
  Proof.
    intros D st ES wS p w v a b K ZS Hp HJ. induction HJ as [|w v a1 b1 l v1 a2 b2 HJ IH HS].
    - split; [constructor|]. auto.
    - destruct IH as [IH1 IH2]. assert (EXT : forall x, ES b1 x b2 -> apath ES p (w ++ olist x) b2).
      { intros x H. eapply apath_app; [exact IH1|]. destruct x as [x|]; cbn; [eapply ap_lab|eapply ap_eps]; eauto; constructor. }
      assert (EDGE : forall x, EA st a1 x a2 -> n <= a2 /\ WSrc a2 (p, w ++ olist x) (v + w_of (h_aut st) (mk_edge a1 x a2))%Z).
      { intros x H. destruct (k_aut _ _ K _ H) as (d & E & _). destruct (k_range _ _ K _ _ E) as (_ & [R _] & _). cbn in R. split; auto. assert (W := k_sound _ _ K _ _ _ E).
        destruct IH2 as [(-> & -> & ->)|[La IH2]].
        - destruct W as (W & _). cbn in W. apply W. auto.
        - destruct x as [x|].
          + apply (WSrc_extend _ _ x _ _ _ W eq_refl La IH2).
          + destruct (eps_src _ _ _ _ K H). lia. }
      destruct l as [x|]; cbn in HS.
      + destruct HS as (H1 & H2 & ->). split; auto; right; apply (EDGE (Some x)); auto.
      + destruct HS as [(H1 & -> & ->)|(H1 & -> & ->)].
        * cbn. rewrite app_nil_r. split; auto. right. destruct (EDGE None H1) as [E1 E2]. cbn in E2. rewrite app_nil_r in E2. auto.
        * split; auto. rewrite ZS, Z.add_0_r. cbn. rewrite app_nil_r. auto.
  Qed.

  Lemma jsound_run : forall D st fin wS p w v a b, kst D st -> (forall e, wS e = 0%Z) -> p < n -> jpath (EA st) (aut_edges fin) (w_of (h_aut st)) wS p p w v a b ->
    aut_final (wa_aut (h_aut st)) a -> aut_final fin b -> aut_lang n fin (p, w) /\ exists c, aut_lang n (wa_aut A0) c /\ wreach Rw c v (p, w).
  Proof.
    intros D st fin wS p w v a b K ZS Hp HJ Fa Fb. destruct (jsound D st _ wS p w v a b K ZS Hp HJ) as [H1 H2]. apply (aut_final_low _ _ _ K) in Fa. destruct Fa as [La Fa].
    assert (HL : aut_lang n fin (p, w)) by (split; auto; exists b; auto). split; auto. destruct H2 as [(-> & -> & ->)|[Lb HW]].
    - exists (p, []). split; [|constructor]. split; auto. exists p. split; auto. constructor.
    - unfold WSrc in HW. apply Nat.ltb_lt in La. rewrite La in HW. destruct HW as (p0 & w0 & K1 & K2 & K3). exists (p0, w0). split; auto. split; auto. exists a. split; auto. apply npath_apath. auto.
  Qed.

  (** The rest of a path weighs at least the smallest way to reach its beginning. *)
  Lemma rest_mp : forall D st q w c f, kst D st -> wpath (EA st) (wA st) q w c f -> n <= q -> f < nQ -> exists m, mp st q = Some m /\ (m <= c)%Z.
  Proof.
    intros D st q w c f K HP. induction HP as [q|q l q1 w c q2 HE HP IH]; intros Hq Hf.
    - exists 0%Z. unfold mp. apply Nat.ltb_lt in Hf. rewrite Hf. split; auto. lia.
    - destruct (k_aut _ _ K _ HE) as (d & E & _). destruct (k_range _ _ K _ _ E) as (_ & [R _] & _). cbn in R. destruct (IH R Hf) as (m1 & Hm1 & L1).
      destruct (k_pot _ _ K _ _ _ E) as (m & Hm & Ed). cbn [e_dst] in Hm. rewrite Hm1 in Hm. injection Hm as <-. fold (wA st q l q1) in Ed.
      destruct (Nat.lt_ge_cases q nQ) as [L|L].
      + exists 0%Z. unfold mp. apply Nat.ltb_lt in L. rewrite L. split; auto. destruct (k_nn _ _ K _ _ _ E). lia.
      + destruct (k_out _ _ K _ _ _ E L) as (m2 & Hm2 & L2). exists m2. cbn in Hm2. split; auto. lia.
  Qed.

  Definition Cfg (st : st_t) (c : config) (u : Z) : Prop :=
    fst c < n /\ exists f v, wpath (EA st) (wA st) (fst c) (snd c) v f /\ (v <= u)%Z /\ f < nQ /\ aut_final (wa_aut A0) f.

  Lemma wreach_nn : forall c v c', wreach Rw c v c' -> (0 <= v)%Z.
  Proof.
    intros c v c' H. induction H as [c|c1 r w c2 v c3 HR HS HW IH]; [lia|]. apply pda_wrules_at in HR. destruct HR as (r0 & ls & Hin & _ & _ & _ & ->).
    apply In_nth_error in Hin. destruct Hin as [id Hid]. apply get_rule_at in Hid. pose proof (NN _ _ _ _ Hid). lia.
  Qed.

  Section Below.
    Variable D : Z.
    Variable st : st_t.
    Hypothesis K : kst D st.
    Hypothesis C : kcl None st.

    (** An edge that is known with a small value is in the automaton. *)
    Lemma known_in : forall p l q b w c f, known_le st (mk_edge p l q) b -> wpath (EA st) (wA st) q w c f -> f < nQ -> n <= q -> (b + c < D)%Z ->
      inA st (mk_edge p l q) /\ (wA st p l q <= b)%Z /\ ~ live st (mk_edge p l q).
    Proof.
      intros p l q b w c f (b0 & d & E & Lb) HP Hf Hq HD. destruct (rest_mp D st q w c f K HP Hq Hf) as (m & Hm & Lm). destruct (k_pot _ _ K _ _ _ E) as (m1 & Hm1 & Ed). cbn [e_dst] in Hm1.
      rewrite Hm in Hm1. injection Hm1 as <-. assert (NW : forall t, ~ In (d, (mk_edge p l q, t)) (h_ws st)). { intros t H. destruct (k_ws _ _ K _ _ _ H). lia. }
      assert (Hin : inA st (mk_edge p l q)). { destruct (k_known _ _ K _ _ _ E) as [H|[t H]]; auto. exfalso. eapply NW; eauto. } split; auto. split.
      - destruct (k_aut _ _ K _ Hin) as (d' & E' & _). rewrite E in E'. injection E' as E' _. unfold wA. lia.
      - intros (b1 & d1 & t & E1 & H1). rewrite E in E1. injection E1 as <- <-. eapply NW; eauto.
    Qed.

    Lemma cfg_first : forall p l w u, Cfg st (p, l :: w) u -> (u < D)%Z -> exists q f c, inA st (mk_edge p (Some l) q) /\ closed_lab st p l q /\ n <= q /\ wpath (EA st) (wA st) q w c f /\
      (wA st p (Some l) q + c <= u)%Z /\ f < nQ /\ aut_final (wa_aut A0) f.
    Proof.
      intros p l w u (Hp & f & v & HP & Lv & Hf & Ff) HD. cbn [fst snd] in *.
      assert (GO : forall q b c, known_le st (mk_edge p (Some l) q) b -> wpath (EA st) (wA st) q w c f -> n <= q -> (b + c <= u)%Z -> exists q f c, inA st (mk_edge p (Some l) q) /\ closed_lab st p l q /\ n <= q /\
        wpath (EA st) (wA st) q w c f /\ (wA st p (Some l) q + c <= u)%Z /\ f < nQ /\ aut_final (wa_aut A0) f).
      { intros q b c HK HR Hq Lb. destruct (known_in p (Some l) q b w c f HK HR Hf Hq) as (H1 & H2 & H3); [lia|]. exists q, f, c. ands; auto; [|lia].
        destruct (c_lab _ _ C p l q Hp H1) as [H|[H|H]]; auto; [discriminate|contradiction]. }
      assert (INR : forall x y z, inA st (mk_edge x y z) -> n <= z). { intros x y z H. destruct (ga_range _ (k_good _ _ K) _ H) as (_ & [R _] & _). exact R. }
      assert (KN : forall x y z, inA st (mk_edge x y z) -> known_le st (mk_edge x y z) (wA st x y z)). { intros x y z H. destruct (k_aut _ _ K _ H) as (d & E & _). exists (wA st x y z), d. split; auto. lia. }
      inversion HP as [|q0 l0 q1 w1 v1 q2 H1 H2 E1 E2 E3 E4]; subst. destruct l0 as [x|].
      - injection E2 as -> ->. refine (GO q1 _ v1 (KN _ _ _ H1) H2 (INR _ _ _ H1) _). auto.
      - subst w1. destruct (eps_src _ _ _ _ K H1) as [_ Hs]. inversion H2 as [|q0 l0 q3 w1 v3 q4 H3 H4 E1 E3 E4 E5]; subst. destruct (high_lab _ _ _ K H3) as [x Ex]; [cbn; lia|]. cbn in Ex. subst l0. injection E3 as -> ->.
        destruct (c_eps _ _ C p q1 l q3 H1 H3) as [H|[H|H]]; try discriminate. fold (wA st p None q1) in H. fold (wA st q1 (Some l) q3) in H. refine (GO q3 _ v3 H H4 (INR _ _ _ H3) _). lia.
    Qed.

    Lemma cfg_step : forall r x c c' u, Rw r x -> step_by r c c' -> Cfg st c u -> (u + x < D)%Z -> Cfg st c' (u + x)%Z.
    Proof.
      intros r x c c' u HR HS HC HD. apply pda_wrules_at in HR. destruct HR as (r0 & ls & Hin & Hm & Et & Eo & ->). inversion HS as [w Ec Ec']. subst c c'.
      apply In_nth_error in Hin. destruct Hin as [id Hid]. apply get_rule_at in Hid. assert (Hrw := NN _ _ _ _ Hid). destruct (get_rule_facts P WP _ _ _ _ Hid) as [G1 [G2 G3]]. fold n in G1, G2.
      destruct (cfg_first _ _ _ _ HC) as (q & f & cw & Hi & HCl & Hq & HP & Lw & Hf & Ff); [lia|]. assert (Hc : contains ls (s_pre r) = true) by (apply (contains_spec (pd_nlab P)); eauto using matches_lt).
      specialize (HCl id r0 ls Hid Hc). fold (wA st (s_from r) (Some (s_pre r)) q) in HCl. unfold fired in HCl. rewrite Eo, Et. unfold sop_of. split; [cbn; auto|]. cbn [fst snd]. exists f.
      destruct (r_op r0) eqn:Er; cbn [apply_op].
      - destruct HCl as (qn & Hqn & K1 & K2). assert (Rq := qp_r _ _ Hqn). assert (LN := n_nQ).
        destruct (known_in _ _ _ _ _ _ _ K2 HP Hf Hq) as (I2 & W2 & _); [lia|]. assert (P2 : wpath (EA st) (wA st) qn (s_pre r :: w) (wA st qn (Some (s_pre r)) q + cw)%Z f) by (apply (wp_cons _ _ qn (Some (s_pre r)) q w cw f); auto).
        destruct (known_in _ _ _ _ _ _ _ K1 P2 Hf) as (I1 & W1 & _); [lia|lia|]. exists (wA st (r_to r0) (Some (r_opl r0)) qn + (wA st qn (Some (s_pre r)) q + cw))%Z. ands; auto; [|lia].
        apply (wp_cons _ _ (r_to r0) (Some (r_opl r0)) qn (s_pre r :: w)); auto.
      - destruct (known_in _ _ _ _ _ _ _ HCl HP Hf Hq) as (I2 & W2 & _); [lia|]. exists (wA st (r_to r0) None q + cw)%Z. ands; auto; [|lia]. apply (wp_cons _ _ (r_to r0) None q w cw f); auto.
      - destruct (known_in _ _ _ _ _ _ _ HCl HP Hf Hq) as (I2 & W2 & _); [lia|]. exists (wA st (r_to r0) (Some (r_opl r0)) q + cw)%Z. ands; auto; [|lia]. apply (wp_cons _ _ (r_to r0) (Some (r_opl r0)) q w cw f); auto.
      - destruct (known_in _ _ _ _ _ _ _ HCl HP Hf Hq) as (I2 & W2 & _); [lia|]. exists (wA st (r_to r0) (Some (s_pre r)) q + cw)%Z. ands; auto; [|lia]. apply (wp_cons _ _ (r_to r0) (Some (s_pre r)) q w cw f); auto.
    Qed.

    Lemma cfg_init : forall c, aut_lang n (wa_aut A0) c -> Cfg st c 0%Z.
    Proof.
      intros [p w] [Hp (f & HP & Hf)]. cbn [fst snd] in *. split; auto. assert (Lf : f < nQ) by (unfold nQ, a_size; apply nth_error_Some; unfold aut_final in Hf; congruence).
      exists f, 0%Z. ands; auto; [|lia]. cbn [fst snd]. clear Hp Hf Lf. induction HP as [q|q l q1 w q2 HE HP IH|q q1 w q2 HE HP IH].
      - constructor.
      - assert (HI : inA st (mk_edge q (Some l) q1)) by (apply (ga_base _ (k_good _ _ K)); exact HE). replace 0%Z with (wA st q (Some l) q1 + 0)%Z; [apply (wp_cons _ _ q (Some l) q1 w); auto|].
        unfold wA. rewrite (ga_zero _ (k_good _ _ K)); auto.
      - apply E0_range in HE. tauto.
    Qed.

    Lemma cfg_run : forall c v c', wreach Rw c v c' -> forall u, Cfg st c u -> (u + v < D)%Z -> Cfg st c' (u + v)%Z.
    Proof.
      intros c v c' H. induction H as [c|c1 r w c2 v c3 HR HS HW IH]; intros u HC HD; [rewrite Z.add_0_r; auto|]. assert (Hv := wreach_nn _ _ _ HW).
      rewrite Z.add_assoc. apply IH; [|lia]. eapply cfg_step; eauto. lia.
    Qed.

    Lemma below_wpath : forall c1 v p w, aut_lang n (wa_aut A0) c1 -> wreach Rw c1 v (p, w) -> (v < D)%Z ->
      p < n /\ exists f v', wpath (EA st) (wA st) p w v' f /\ (v' <= v)%Z /\ aut_final (wa_aut (h_aut st)) f.
    Proof.
      intros c1 v p w H1 H2 HD. destruct (cfg_run _ _ _ H2 0%Z (cfg_init _ H1)) as (Hp & f & v' & K1 & K2 & K3 & K4); [lia|]. cbn in *. split; auto. exists f, v'. ands; auto. apply (aut_final_low _ _ _ K). auto.
    Qed.

    Lemma below_jpath : forall fin wS v, (forall e, wS e = 0%Z) -> run_weight Rw (aut_lang n (wa_aut A0)) (aut_lang n fin) v -> (v < D)%Z ->
      exists p w v' a b, p < n /\ jpath (EA st) (aut_edges fin) (w_of (h_aut st)) wS p p w v' a b /\ (v' <= v)%Z /\ aut_final (wa_aut (h_aut st)) a /\ aut_final fin b.
    Proof.
      intros fin wS v ZS (c1 & [p w] & H1 & [Hp (b & Hb & Fb)] & H2) HD. cbn [fst snd] in *. destruct (below_wpath _ _ _ _ H1 H2 HD) as (_ & f & v' & K1 & K2 & K3). exists p, w, v', f, b. ands; auto.
      apply (jpath_zip _ _ _ _ _ _ K1); auto.
    Qed.
  End Below.
End Inv.

Lemma wpath_apath : forall E wt p w v q, wpath E wt p w v q -> apath E p w q.
Proof. intros E wt p w v q H. induction H as [q|q [x|] q1 w v q2 H1 H2 IH]; [constructor|eapply ap_lab; eauto|eapply ap_eps; eauto]. Qed.

(** ** Post* without early termination *)
Section NoET.
  Variable P : pda.
  Hypothesis WP : wf_pda P.
  Variable ptop : nat -> list (Z * (edge * trace)) -> nat.
  Hypothesis PT : forall k l, l <> [] -> exists x, nth_error l (ptop k l) = Some x /\ forall y, In y l -> (fst x <= fst y)%Z.
  Variable A0 : waut.
  Hypothesis OK : post_ok P (wa_aut A0).
  Hypothesis Z0 : forall e, w_of A0 e = 0%Z.
  Hypothesis NN : forall p id r ls, get_rule P p id = Some (r, ls) -> (0 <= r_w r)%Z.
  Let n := pd_n P.

  Definition wedge (A : waut) (x : nat) (y : option nat) (z : nat) : Z := w_of A (mk_edge x y z).

  Lemma short_only_spec : exists fuel0 A, (forall fuel, fuel0 <= fuel -> post_star_short_only P ptop fuel A0 = done A) /\
    forall p w, p < n ->
      (forall v f, wpath (aut_edges (wa_aut A)) (wedge A) p w v f -> aut_final (wa_aut A) f -> run_weight (pda_wrules P) (aut_lang n (wa_aut A0)) (eq (p, w)) v) /\
      (forall v, run_weight (pda_wrules P) (aut_lang n (wa_aut A0)) (eq (p, w)) v -> exists f v', wpath (aut_edges (wa_aut A)) (wedge A) p w v' f /\ aut_final (wa_aut A) f /\ (v' <= v)%Z).
  Proof.
    set (J := fun (_ : waut) (_ : unit) => True). set (JT := fun (_ : waut) (_ : unit) (_ : waut) (_ : unit) (_ : Z) => True).
    destruct (init_spec P unit None A0 OK Z0 NN J JT) with (x := tt) as (st & Ei & K & C & HJ & Hf); try exact I; try (intros; exact I); try (intros; discriminate).
    destruct (run_spec P WP unit None ptop PT A0 OK NN J JT) with (k := pend P unit A0 st) (m := length (h_ws st)) (D := 0%Z) (st := st) as (fuel0 & [st' b] & Ho & Hr); auto; try (intros; exact I); try (intros; discriminate).
    unfold outcome in Ho. cbn [fst snd] in Ho. destruct b.
    { destruct Ho as (stp & D' & _ & _ & _ & _ & _ & _ & _ & Hne & _). congruence. }
    destruct Ho as (D & K' & C' & Hw & _). exists fuel0, (h_aut st'). split.
    - intros fuel L. unfold post_star_short_only. rewrite Ei. cbn [obind]. rewrite Hr by auto. auto.
    - intros p w Hp. split.
      + intros v f HP Hff. destruct (jsound P unit A0 OK D st' (aut_edges (wa_aut (h_aut st'))) (fun _ => 0%Z) p w v f f K') as [_ H]; auto.
        { apply (jpath_zip _ _ _ _ _ _ HP); auto. eapply wpath_apath; eauto. }
        apply (aut_final_low P unit A0 D st' f K') in Hff. destruct Hff as [Lf Hff]. destruct H as [(-> & -> & ->)|[Lb HW]].
        * exists (p, []), (p, []). ands; auto; [|constructor]. split; auto. exists p. split; auto. constructor.
        * unfold WSrc in HW. apply Nat.ltb_lt in Lf. rewrite Lf in HW. destruct HW as (p0 & w0 & K1 & K2 & K3). exists (p0, w0), (p, w). ands; auto. split; auto. exists f. split; auto. apply npath_apath. auto.
      + intros v (c1 & c2 & H1 & <- & H2).
        assert (K2 : kst P unit A0 (Z.max D (v + 1)) st') by (apply (kst_raise P unit A0 D); auto; [lia|rewrite Hw; intros ? []]).
        destruct (below_wpath P WP unit A0 OK NN (Z.max D (v + 1)) st' K2 C' c1 v p w H1 H2) as (_ & f & v' & Q1 & Q2 & Q3); [lia|]. exists f, v'. ands; auto.
  Qed.
End NoET.
