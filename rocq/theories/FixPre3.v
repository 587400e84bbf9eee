(** The fixed-point saturation of pre*: initialization and the first phase. *)
From Coq Require Import List Arith Lia Bool ZArith Permutation.
From Verif Require Import Base BaseFacts Spec SpecFacts PdaModel PdaProof AutModel AutProof PreStarModel PreStarProof PreStarLang
  PostStarModel SolverModel ProductModel ProductProof UtilModel UtilProof ShortSpec ShortModel PostShortProof PreShortModel PreShortProof FixModel FixChain FixPre1 FixPre2.
Import ListNotations.

(** Default weights and traces: what the assertion in initialize asks for. *)
Definition fdefault (A : faut) : Prop := forall e t, In (e, t) (a_edges (fa_aut A)) -> t = TNull /\ fa_trace2 A e = TNull /\ fa_weight A e = Some 0%Z.

(** The enumeration of the edges of an automaton by its transition maps. *)
Definition enum_to (A : aut) (q t : nat) : list edge := map (fun l => mk_edge q l t) (labels_between A q t).
Definition enum_from (A : aut) (q : nat) : list edge := flat_map (enum_to A q) (tos A q).
Definition enum_all (A : aut) : list edge := flat_map (enum_from A) (seq 0 (a_size A)).

Lemma NoDup_flat_map : forall (X Y : Type) (f : X -> list Y) l, NoDup l -> (forall x, In x l -> NoDup (f x)) ->
  (forall x y z, In x l -> In y l -> In z (f x) -> In z (f y) -> x = y) -> NoDup (flat_map f l).
Proof.
  intros X Y f l. induction l as [|a l IH]; intros H1 H2 H3; cbn; [constructor|]. inversion H1; subst. apply NoDup_app2.
  - apply H2. left; auto.
  - apply IH; auto. + intros x Hx. apply H2. right; auto. + intros x y z Hx Hy. apply H3; right; auto.
  - intros z Hz Hz'. apply in_flat_map in Hz'. destruct Hz' as (x & Hx & Hz'). assert (a = x) by (eapply H3; eauto; [left|right]; auto). subst. contradiction.
Qed.
Lemma NoDup_lsorted : forall ls, lsorted ls -> NoDup ls.
Proof.
  intros ls H. induction H as [|a l F IH]; constructor; auto. intros Hi. rewrite Forall_forall in H. specialize (H _ Hi). destruct a; cbn in H; [|discriminate]. apply Nat.ltb_lt in H. lia.
Qed.

Section Enum.
  Variable A : aut.
  Hypothesis HO : wf_ord A.
  Hypothesis RG : forall e, In e (map fst (a_edges A)) -> e_src e < a_size A.
  Lemma enum_to_In : forall q t e, In e (enum_to A q t) <-> In e (map fst (a_edges A)) /\ e_src e = q /\ e_dst e = t.
  Proof.
    intros q t e. unfold enum_to. rewrite in_map_iff. split.
    - intros (l & <- & H). apply labels_between_In in H. auto.
    - intros (H1 & H2 & H3). exists (e_lab e). destruct e; cbn in *; subst. split; auto. apply labels_between_In. auto.
  Qed.
  Lemma enum_from_In : forall q e, In e (enum_from A q) <-> In e (map fst (a_edges A)) /\ e_src e = q.
  Proof.
    intros q e. unfold enum_from. rewrite in_flat_map. split.
    - intros (t & _ & H). apply enum_to_In in H. tauto.
    - intros (H1 & H2). exists (e_dst e). split; [|apply enum_to_In; auto]. apply tos_In; auto. exists (e_lab e). destruct e; cbn in *; subst. auto.
  Qed.
  Lemma enum_all_In : forall e, In e (enum_all A) <-> In e (map fst (a_edges A)).
  Proof.
    intros e. unfold enum_all. rewrite in_flat_map. split.
    - intros (q & _ & H). apply enum_from_In in H. tauto.
    - intros H. exists (e_src e). split; [|apply enum_from_In; auto]. apply in_seq. apply RG in H. lia.
  Qed.
  Lemma enum_all_NoDup : NoDup (enum_all A).
  Proof.
    apply NoDup_flat_map; [apply seq_NoDup|..].
    - intros q _. apply NoDup_flat_map; [apply tos_NoDup; auto|..].
      + intros t _. unfold enum_to. apply FinFun.Injective_map_NoDup; [intros a b H; congruence|]. apply NoDup_lsorted. apply (labels_between_sorted 0 A A); lia.
      + intros x y z _ _ H1 H2. apply enum_to_In in H1, H2. intuition congruence.
    - intros x y z _ _ H1 H2. apply enum_from_In in H1, H2. intuition congruence.
  Qed.
  Lemma enum_all_length : NoDup (map fst (a_edges A)) -> length (enum_all A) = length (map fst (a_edges A)).
  Proof.
    intros ND. apply Nat.le_antisymm; apply NoDup_incl_length; auto using enum_all_NoDup; intros e H; apply enum_all_In; auto.
  Qed.
End Enum.

Section FixPre3.
  Variable P : pda.
  Hypothesis WP : wf_pda P.
  Hypothesis LK : lookup_ok P.
  Variable mx : bool.
  Variable A0 : faut.
  Let N := a_size (fa_aut A0).
  Let n := pd_n P.
  Let E0 := map fst (a_edges (fa_aut A0)).
  Hypothesis HnN : n <= N.
  Hypothesis HO : wf_ord (fa_aut A0).
  Hypothesis NI : no_in P (fa_aut A0).
  Hypothesis ND0 : NoDup E0.
  Hypothesis RG0 : forall e, In e E0 -> in_range P (fa_aut A0) e.
  Hypothesis DF : fdefault A0.
  Hypothesis TWO : 2 <= length E0.
  Notation in_rng := (in_range P (fa_aut A0)).
  Notation xst := (fwst xd edge).
  Notation fle := (fle mx).
  Notation cov := (cov mx).
  Notation xbase := (xbase P A0).
  Notation sle := (sle mx).
  Notation deriv := (kderiv P E0).
  Notation unb := (unb P E0 mx).
  Notation clo := (clo P mx A0).
  Notation ghost := (ghost P mx A0).
  Notation fin_step := (fin_step P).

  (** *** Initialization *)
  Definition S1 (L : list edge) : xst := mk_fw false 0 0 [] L (mk_xd A0 (rev L) [] (repeat false n) (length L)).
  Lemma init_edges : forall l L, (forall e, In e l -> In e E0) -> ofold (fun st e => x_init_edge st e) l (S1 L) = Some (S1 (L ++ l)).
  Proof.
    induction l as [|e l IH]; intros L H; [rewrite app_nil_r; auto|]. cbn [ofold].
    assert (E : x_init_edge (S1 L) e = Some (S1 (L ++ [e]))).
    { unfold x_init_edge. cbn [fw_d S1 x_aut]. assert (He := H e (or_introl eq_refl)). destruct (AutProof.find_edge_In _ _ He) as [t Et]. rewrite Et. apply find_edge_Some in Et.
      destruct (DF _ _ Et) as (-> & -> & ->). destruct (RG0 e He) as [K _]. apply Nat.ltb_lt in K. rewrite K. unfold S1, x_emplace, x_set. cbn. rewrite rev_app_distr, app_length. cbn. rewrite Nat.add_1_r. auto. }
    rewrite E. cbn [obind]. rewrite IH; [rewrite <- app_assoc; auto|]. intros x Hx. apply H. right; auto.
  Qed.
  Lemma ofold_map : forall (S X Y : Type) (f : S -> Y -> option S) (g : X -> Y) l s, ofold (fun s x => f s (g x)) l s = ofold f (map g l) s.
  Proof. intros S X Y f g l. induction l as [|a l IH]; intros s; auto. cbn. destruct (f s (g a)); cbn; auto. Qed.
  Lemma init_state : forall q L, ofold (fun st t => ofold (fun st l => x_init_edge st (mk_edge q l t)) (labels_between (fa_aut A0) q t) st) (tos (fa_aut A0) q) (S1 L) = Some (S1 (L ++ enum_from (fa_aut A0) q)).
  Proof.
    intros q. unfold enum_from. generalize (tos (fa_aut A0) q). induction l as [|t l IH]; intros L; cbn [ofold flat_map]; [rewrite app_nil_r; auto|].
    rewrite (ofold_map _ _ _ (fun st e => x_init_edge st e) (fun lb => mk_edge q lb t)). change (map _ (labels_between (fa_aut A0) q t)) with (enum_to (fa_aut A0) q t).
    rewrite init_edges by (intros e He; apply enum_to_In in He; tauto). cbn [obind]. rewrite IH, <- app_assoc. auto.
  Qed.
  Lemma init_states : forall l L, ofold x_init_state l (S1 L) = Some (S1 (L ++ flat_map (enum_from (fa_aut A0)) l)).
  Proof.
    induction l as [|q l IH]; intros L; cbn [ofold flat_map]; [rewrite app_nil_r; auto|]. unfold x_init_state at 2. 
    change (fa_aut (x_aut (fw_d (S1 L)))) with (fa_aut A0).
    assert (E : x_init_state (S1 L) q = Some (S1 (L ++ enum_from (fa_aut A0) q))).
    { unfold x_init_state. change (fa_aut (x_aut (fw_d (S1 L)))) with (fa_aut A0). rewrite <- init_state.
      (* the automaton read in the inner loop is that of the state *)
      generalize (tos (fa_aut A0) q). intros ts. revert L. induction ts as [|t ts IHt]; intros L; cbn [ofold]; auto.
      change (fa_aut (x_aut (fw_d (S1 L)))) with (fa_aut A0).
      rewrite !(ofold_map _ _ _ (fun st e => x_init_edge st e) (fun lb => mk_edge q lb t)). change (map _ (labels_between (fa_aut A0) q t)) with (enum_to (fa_aut A0) q t).
      rewrite init_edges by (intros e He; apply enum_to_In in He; tauto). cbn [obind]. auto. }
    fold (x_init_state (S1 L) q). rewrite E. cbn [obind]. rewrite IH, <- app_assoc. auto.
  Qed.

  (** Adding the edges of POP rules into accepting states. [cur] is the state being treated. *)
  Record iinv (cur : option nat) (st : xst) : Prop := {
    in_base : xbase st;
    in_next : forall e, In e (fw_next st) <-> In e (xES st);
    in_fin : forall e, In e (xES st) -> exists v, xV st e = Some v /\ deriv e v;
    in_dst : forall e, In e (xES st) -> n <= e_dst e \/ added st (e_dst e);
    in_pop : forall e rw, added st (e_dst e) -> cur <> Some (e_dst e) -> Rp P e rw -> cov st e (Some rw);
    in_E0 : forall e, In e E0 -> cov st e (Some 0%Z);
    in_ws : fw_ws st = [];
    in_rounds : fw_rounds st = 0;
    in_done : fw_done st = false }.
  Lemma iinv_update : forall cur st e rw tr, iinv cur st -> Rp P e rw -> added st (e_dst e) ->
    exists st', x_update mx false st e (Some rw) tr = Some st' /\ iinv cur st' /\ sle st st' /\ cov st' e (Some rw).
  Proof.
    intros cur st e rw tr II R Ha. destruct (Rp_facts P WP A0 HnN _ _ R) as [F1 F2].
    destruct (x_update_spec P mx A0 false st e (Some rw) tr) as (st' & U & [(-> & U1 & U2)|(U1 & U2)]); auto; try apply II; try discriminate.
    - exists st. ands; auto using sle_refl. split; auto.
    - exists st'. assert (L : sle st st') by (eapply changed_sle; eauto; intros Hi; apply f_less_fle; auto).
      assert (HE : forall x, In x (xES st') <-> x = e \/ In x (xES st)).
      { intros x. rewrite (cg_ES _ _ _ _ _ _ U2). destruct (in_dec edge_eq_dec e (xES st)); cbn; [|intuition]. intuition. subst; auto. }
      ands; auto.
      + constructor.
        * apply U2.
        * intros x. rewrite (cg_next _ _ _ _ _ _ U2), in_app_iff, HE, (in_next _ _ II). cbn. intuition.
        * intros x Hx. rewrite (cg_V _ _ _ _ _ _ U2). destruct (edge_eq_dec x e) as [->|]; [exists rw; split; auto; apply Rp_deriv; auto|]. apply HE in Hx. destruct Hx; [contradiction|]. apply (in_fin _ _ II); auto.
        * intros x Hx. unfold added. rewrite (cg_added _ _ _ _ _ _ U2). apply HE in Hx. destruct Hx as [->|Hx]; auto. apply (in_dst _ _ II); auto.
        * intros x w Hx Hc Rx. eapply cov_mono; eauto. apply (in_pop _ _ II); auto. unfold added in *. rewrite (cg_added _ _ _ _ _ _ U2) in Hx. auto.
        * intros x Hx. eapply cov_mono; eauto. apply (in_E0 _ _ II); auto.
        * rewrite (cg_ws _ _ _ _ _ _ U2). apply II.
        * rewrite (cg_rounds _ _ _ _ _ _ U2). apply II.
        * rewrite (cg_done _ _ _ _ _ _ U2). apply II.
      + split; [apply HE; auto|]. rewrite (cg_V _ _ _ _ _ _ U2). destruct (edge_eq_dec e e); [apply fle_refl|congruence].
  Qed.

  Lemma iadd_spec : forall st q, iinv None st -> exists st', x_add_pop P mx st q = Some st' /\ iinv None st' /\ (q < n -> added st' q) /\ (forall x, added st x -> added st' x).
  Proof.
    intros st q II. unfold x_add_pop. destruct (Nat.leb_spec (pd_n P) q) as [L|L]; fold n in L; [exists st; ands; auto; lia|].
    destruct (nth_error_ex _ (x_added (fw_d st)) q) as [ad Ead]; [rewrite (xb_added _ _ _ (in_base _ _ II)); auto|]. rewrite Ead. cbn [obind]. destruct ad.
    { exists st. ands; auto. }
    destruct (nth_error_ex _ (pd_states P) q) as [sq Eq]; [exact L|]. rewrite Eq. cbn [obind].
    set (st1 := x_set_added st q).
    assert (A1 : forall x, added st1 x <-> added st x \/ x = q).
    { intros x. unfold added, st1. cbn. destruct (Nat.eq_dec q x) as [<-|Nx].
      - rewrite nth_error_upd_eq by (rewrite (xb_added _ _ _ (in_base _ _ II)); auto). tauto.
      - rewrite nth_error_upd_neq by auto. intuition congruence. }
    assert (II1 : iinv (Some q) st1).
    { destruct II as [I1 I2 I3 I4 I5 I6 I7 I8 I9]. constructor; auto.
      - destruct I1. constructor; auto. cbn. rewrite upd_length. auto.
      - intros e H. destruct (I4 e H); auto. right. apply A1. auto.
      - intros e rw Ha Hc R. apply (I5 e rw); auto; [|discriminate]. apply A1 in Ha. destruct Ha; auto. congruence. }
    destruct (rules_loop2 P WP xst (fun pre st (x : nat * (rule * labels)) =>
            match r_op (fst (snd x)) with
            | POP => x_bulk P mx false st pre (snd (snd x)) q (Some (r_w (fst (snd x)))) (TPre (fst x) None)
            | _ => Some st
            end) q sq (fun s => iinv (Some q) s /\ sle st1 s) sle
        (fun p x s => r_op (fst (snd x)) = POP -> forall l, matches (pd_nlab P) (snd (snd x)) l -> cov s (mk_edge p (Some l) q) (Some (r_w (fst (snd x))))))
        with (s := st1) as (s4 & E1 & (E2 & E3) & E6 & E7); auto using sle_refl.
    - apply sle_trans.
    - intros p x a b H Lab Ho l Hl. eapply cov_mono; eauto.
    - intros p [id [r ls]] s Hp Hv (T1 & T2). cbn [fst snd].
      destruct (visited_facts P WP _ _ _ _ _ Hv) as [V1 [V2 [V3 [V4 V5]]]]. fold n in V1, V2.
      destruct (r_op r) eqn:Er; try (exists s; ands; auto using sle_refl; discriminate). unfold x_bulk.
      destruct (ofold_rule _ _ (fun st l => x_update mx false st (mk_edge p (Some l) q) (Some (r_w r)) (TPre id None))
        (fun s0 => iinv (Some q) s0 /\ sle s s0) sle (fun l s => cov s (mk_edge p (Some l) q) (Some (r_w r))) (bulk_labels P ls)) with (s := s)
        as [st' [G1 [[G2 G3] [G4 G5]]]]; auto using sle_refl.
      + apply sle_trans.
      + intros; eapply cov_mono; eauto.
      + intros l s0 Hl (U1 & U2). apply (bulk_labels_In P (fa_aut A0) HnN) in Hl.
        destruct (iinv_update (Some q) s0 (mk_edge p (Some l) q) (r_w r) (TPre id None)) as (s' & F1 & F2 & F3 & F4); auto.
        * exists p, id, r, ls, l. rewrite V3. ands; auto.
        * cbn [e_dst]. unfold added. rewrite (sl_added _ _ _ U2), (sl_added _ _ _ T2). apply A1. auto.
        * exists s'. ands; auto. eapply sle_trans; eauto.
      + exists st'. ands; auto; [eapply sle_trans; eauto|]. intros _ l Hl. apply G5. apply (bulk_labels_In P (fa_aut A0) HnN); auto.
    - exists s4. ands; auto.
      + destruct E2 as [I1 I2 I3 I4 I5 I6 I7 I8 I9]. constructor; auto. intros e rw Ha _ R. destruct (Nat.eq_dec q (e_dst e)) as [Eqd|Nq]; [|apply I5; auto; congruence].
        destruct R as (p & id & r & ls & l & G & O & M & -> & ->). cbn [e_dst] in Eqd. rewrite <- Eqd. apply (E7 p (id, (r, ls))); auto. apply (rule_visited P WP LK); auto.
      + intros _. unfold added. rewrite (sl_added _ _ _ E3). apply A1. auto.
      + intros x Hx. unfold added. rewrite (sl_added _ _ _ E3). apply A1. auto.
  Qed.

  Lemma init_base : iinv None (S1 (enum_all (fa_aut A0))).
  Proof.
    assert (EI : forall e, In e (enum_all (fa_aut A0)) <-> In e E0) by (intros e; apply enum_all_In; auto; intros x Hx; apply RG0; auto).
    assert (NA : forall q, ~ added (S1 (enum_all (fa_aut A0))) q).
    { intros q H. unfold added in H. cbn in H. apply nth_error_In in H. apply repeat_spec in H. discriminate. }
    assert (WE : forall e, In e E0 -> fa_weight A0 e = Some 0%Z). { intros e H. apply in_map_iff in H. destruct H as ([e' t] & <- & H). apply (DF _ _ H). }
    constructor; auto.
    - constructor; auto.
      + intros e. cbn. rewrite <- in_rev. apply EI.
      + intros s p id [].
      + cbn. apply repeat_length.
      + cbn. apply enum_all_length; auto. intros x Hx; apply RG0; auto.
    - intros e H. exists 0%Z. split; [apply WE; auto|constructor; auto].
    - intros e H. left. destruct e as [a l c]. apply (NI a l c). exact H.
    - intros e rw H. destruct (NA _ H).
    - intros e H. split; auto. unfold xV. cbn. rewrite WE by auto. apply fle_refl.
  Qed.

  Theorem x_init_spec : exists st, x_init P mx A0 = Some st /\ xbase st /\ fw_ws st = [] /\ fw_rounds st = 0 /\ clo none none st /\ ghost none none st (fun _ => 0) (fun _ => 0).
  Proof.
    unfold x_init. change (mk_fw false 0 0 [] [] (mk_xd A0 [] [] (repeat false (pd_n P)) 0)) with (S1 []). rewrite init_states. cbn [app obind].
    change (flat_map (enum_from (fa_aut A0)) (seq 0 (a_size (fa_aut A0)))) with (enum_all (fa_aut A0)).
    destruct (ofold_rule _ _ (fun st q => b <- accepting (fa_aut (x_aut (fw_d st))) q ;; if (b : bool) then x_add_pop P mx st q else Some st)
      (iinv None) (fun a b => forall x, added a x -> added b x) (fun q s => q < n -> aut_final (fa_aut A0) q -> added s q) (seq 0 (a_size (fa_aut A0))))
      with (s := S1 (enum_all (fa_aut A0))) as (st2 & F1 & F2 & F3 & F4); auto using init_base.
    - intros q s Hq II. apply in_seq in Hq. unfold accepting. rewrite (xb_acc _ _ _ (in_base _ _ II)).
      destruct (nth_error_ex _ (a_acc (fa_aut A0)) q) as [b Eb]; [unfold a_size in Hq; lia|]. rewrite Eb. cbn [obind]. destruct b.
      + destruct (iadd_spec s q II) as (s' & G1 & G2 & G3 & G4). exists s'. ands; auto.
      + exists s. ands; auto. intros _ H. unfold aut_final in H. congruence.
    - rewrite F1. cbn [obind]. eexists. split; [reflexivity|]. set (st := x_set_limit st2 (x_count (fw_d st2))).
      destruct F2 as [I1 I2 I3 I4 I5 I6 I7 I8 I9].
      assert (B : xbase st) by (destruct I1; constructor; auto).
      assert (FIN : forall e, In e (xES st) -> xV st e = Some (Vz st e) /\ deriv e (Vz st e)).
      { intros e H. destruct (I3 e H) as (v & H1 & H2). unfold Vz. change (xV st e) with (xV st2 e). rewrite H1. auto. }
      assert (CH : forall e, In e (xES st) -> chain_ge P E0 mx (xES st) (Vz st) (fun _ => 0) (fun _ => 0) e (Vz st e) 0 0).
      { intros e H. exists 0, [e], 0. split; auto. constructor; auto.
        - eauto.
        - constructor; [intros []|constructor].
        - intros [|i] x Hx; cbn in Hx; [auto|destruct i; discriminate].
        - intros x [<-|[]]. auto.
        - intros x [<-|[]]. exists (Vz st e), 0%Z. ands; [apply ctx_refl|lia..]. }
      ands; auto.
      + constructor; try (intros; contradiction).
        * intros c (H1 & _ & H3 & _). destruct H3. apply I2. auto.
        * intros q Hq Ha. apply (F4 q); auto. apply in_seq. fold N. lia.
        * exact I6.
        * intros e rw Ha R. apply (I5 e rw); auto. discriminate.
        * intros e c rw (H1 & _ & H3 & _). destruct H3. apply I2. auto.
        * intros e c1 c2 rw (H1 & _ & H3 & _). destruct H3. apply I2. auto.
      + constructor; auto; try (intros; lia); change (fw_rounds st) with (fw_rounds st2); rewrite ?I8; auto.
        * intros e H1 H2. destruct (I4 e H1); [fold n in H2; lia|]. left. auto.
        * intros e H. change (fw_ws st) with (fw_ws st2) in H. rewrite I7 in H. destruct H.
        * intros e H. assert (Hi : In e (xES st)) by (apply I2; auto). split; auto.
        * intros e H. right; right; left. split; auto. apply I2. auto.
        * destruct E0 as [|e1 [|e2 l]] eqn:EE; cbn in TWO; try lia. exists e1, e2. inversion ND0 as [|a b ND1 ND2]; subst.
          assert (Q : forall e, In e (e1 :: e2 :: l) -> In e (xES st)) by (intros e H; apply (xb_E0 _ _ _ B); fold E0; rewrite EE; auto).
          ands; auto; [apply Q; left|apply Q; right; left|intros ->; apply ND1; left]; auto.
  Qed.
End FixPre3.
