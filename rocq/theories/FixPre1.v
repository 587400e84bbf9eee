(** One step of the fixed-point saturation of pre*: which updates it makes and that it makes all of them. *)
From Coq Require Import List Arith Lia Bool ZArith.
From Verif Require Import Base BaseFacts Spec SpecFacts PdaModel PdaProof AutModel AutProof PreStarModel PreStarProof PreStarLang
  PostStarModel SolverModel ProductModel UtilModel UtilProof ShortSpec ShortModel PostShortProof PreShortModel PreShortProof FixModel FixChain.
Import ListNotations.

(** The order of weights with bottom: [fle a b] says that a is at least as good as b. *)
Definition fle (mx : bool) (a b : fwt) : Prop := f_less mx b a = false.
Lemma fle_spec : forall mx a b, fle mx a b <-> match a, b with None, _ => True | Some _, None => False | Some x, Some y => (sg mx x <= sg mx y)%Z end.
Proof.
  intros mx [x|] [y|]; unfold fle, f_less, sg; try destruct mx; rewrite ?Z.ltb_ge; split; intros; try lia; auto; try discriminate; try tauto.
Qed.
Lemma fle_refl : forall mx a, fle mx a a.
Proof. intros mx [x|]; apply fle_spec; auto. lia. Qed.
Lemma fle_trans : forall mx a b c, fle mx a b -> fle mx b c -> fle mx a c.
Proof. intros mx a b c H1 H2. apply fle_spec in H1, H2. apply fle_spec. destruct a, b, c; auto; try tauto. lia. Qed.
Lemma f_less_fle : forall mx a b, f_less mx a b = true -> fle mx a b.
Proof. intros mx a b H. apply fle_spec. destruct a as [x|], b as [y|]; auto; [apply f_less_sg in H; lia|discriminate]. Qed.
Lemma fle_add : forall mx a b c d, fle mx a b -> fle mx c d -> fle mx (f_add a c) (f_add b d).
Proof.
  intros mx a b c d H1 H2. apply fle_spec in H1, H2. apply fle_spec. destruct a, b, c, d; cbn; auto; try tauto. rewrite !sg_add. lia.
Qed.
Lemma fle_None : forall mx a, fle mx None a.
Proof. intros. apply fle_spec. exact I. Qed.

Lemma fa_weight_cons : forall A es ws ss e w x, fa_weight (mk_faut es ((e, w) :: ws) ss) x = if edge_eq_dec e x then w else fa_weight (mk_faut A ws ss) x.
Proof. intros. unfold fa_weight. cbn [fa_w]. rewrite w_find_cons. destruct (edge_eq_dec e x); auto. Qed.

Lemma d_insert_In : forall d l x, In x (d_insert d l) <-> x = d \/ In x l.
Proof.
  intros d l x. induction l as [|a l IH]; cbn; [intuition|]. destruct (d_eqb a d) eqn:E.
  - destruct a as [a1 [a2 a3]], d as [d1 [d2 d3]]. unfold d_eqb in E. cbn in E. apply andb_prop in E. destruct E as [E E3]. apply andb_prop in E. destruct E as [E1 E2].
    apply Nat.eqb_eq in E1, E2, E3. subst. cbn. intuition.
  - destruct (d_ltb a d); cbn; [rewrite IH|]; intuition.
Qed.

Section FixPre.
  Variable P : pda.
  Hypothesis WP : wf_pda P.
  Variable mx : bool.
  Variable A0 : faut.
  Let N := a_size (fa_aut A0).
  Let n := pd_n P.
  Let E0 := map fst (a_edges (fa_aut A0)).
  Hypothesis HnN : n <= N.
  Hypothesis HO : wf_ord (fa_aut A0).
  Notation in_rng := (in_range P (fa_aut A0)).
  Notation xst := (fwst xd edge).
  Notation fle := (fle mx).

  Definition xES (st : xst) : list edge := map fst (a_edges (fa_aut (x_aut (fw_d st)))).
  Definition xV (st : xst) (e : edge) : fwt := fa_weight (x_aut (fw_d st)) e.
  Definition cov (st : xst) (e : edge) (w : fwt) : Prop := In e (xES st) /\ fle (xV st e) w.

  Record xbase (st : xst) : Prop := {
    xb_acc : a_acc (fa_aut (x_aut (fw_d st))) = a_acc (fa_aut A0);
    xb_ord : a_ord (fa_aut (x_aut (fw_d st))) = a_ord (fa_aut A0);
    xb_nd : NoDup (xES st);
    xb_range : forall e, In e (xES st) -> in_rng e;
    xb_src : forall e, In e (xES st) -> e_src e < n \/ In e E0;
    xb_E0 : forall e, In e E0 -> In e (xES st);
    xb_rel : forall e, In e (x_rel (fw_d st)) <-> In e (xES st);
    xb_delta : forall s p id, In (s, (p, id)) (x_delta (fw_d st)) -> exists r ls, get_rule P p id = Some (r, ls) /\ r_op r = PUSH /\
        In (mk_edge (r_to r) (Some (r_opl r)) s) (xES st);
    xb_added : length (x_added (fw_d st)) = n;
    xb_count : x_count (fw_d st) = length (xES st) }.

  Lemma xbase_size : forall st, xbase st -> a_size (fa_aut (x_aut (fw_d st))) = N.
  Proof. intros st B. unfold a_size. rewrite (xb_acc _ B). auto. Qed.
  Lemma fa_get_in : forall st e, In e (xES st) -> fa_get (x_aut (fw_d st)) e = Some (xV st e).
  Proof. intros st e H. unfold fa_get. destruct (AutProof.find_edge_In _ _ H) as [t E]. rewrite E. auto. Qed.

  (** Edge [e] gets the value [w]. *)
  Record changed (st : xst) (e : edge) (w : fwt) (st' : xst) : Prop := {
    cg_base : xbase st';
    cg_ES : xES st' = if in_dec edge_eq_dec e (xES st) then xES st else e :: xES st;
    cg_V : forall x, xV st' x = if edge_eq_dec x e then w else xV st x;
    cg_next : fw_next st' = fw_next st ++ [e];
    cg_ws : fw_ws st' = fw_ws st;
    cg_rounds : fw_rounds st' = fw_rounds st;
    cg_done : fw_done st' = fw_done st;
    cg_added : x_added (fw_d st') = x_added (fw_d st);
    cg_delta : x_delta (fw_d st') = x_delta (fw_d st);
    cg_limit : fw_limit st = x_count (fw_d st) -> fw_limit st' = x_count (fw_d st') }.

  Lemma x_update_spec : forall b st e w tr, xbase st -> in_rng e -> e_src e < n -> (b = true -> In e (xES st)) ->
    exists st', x_update mx b st e w tr = Some st' /\
      ((st' = st /\ In e (xES st) /\ fle (xV st e) w) \/
       ((In e (xES st) -> f_less mx w (xV st e) = true) /\ changed st e (if b then None else w) st')).
  Proof.
    intros b st e w tr B Hr Hs Hb. unfold x_update.
    assert (CG : forall w' tr', In e (xES st) ->
      changed st e w' (x_emplace (x_set st (mk_xd (mk_faut (fa_aut (x_aut (fw_d st))) ((e, w') :: fa_w (x_aut (fw_d st))) ((e, tr') :: fa_snd (x_aut (fw_d st)))) (x_rel (fw_d st)) (x_delta (fw_d st)) (x_added (fw_d st)) (x_count (fw_d st)))) e)).
    { intros w' tr' Hi. constructor; auto.
      - destruct B. constructor; auto.
      - destruct (in_dec edge_eq_dec e (xES st)); [reflexivity|contradiction].
      - intros x. unfold xV. cbn [fw_d x_emplace x_set x_aut]. rewrite (fa_weight_cons (fa_aut (x_aut (fw_d st)))). destruct (edge_eq_dec e x) as [->|Ne]; [destruct (edge_eq_dec x x); congruence|].
        destruct (edge_eq_dec x e); [congruence|]. destruct (x_aut (fw_d st)); reflexivity. }
    destruct b.
    - assert (Hi := Hb eq_refl). rewrite (fa_get_in _ _ Hi). cbn [obind]. destruct (f_less mx w (xV st e)) eqn:F.
      + eexists. split; [reflexivity|]. right. auto.
      + exists st. split; [reflexivity|left; auto].
    - unfold emplace_edge. rewrite (xbase_size _ B). destruct Hr as (Hr1 & Hr2 & Hr3). fold N in Hr1. assert (Hr1' := Hr1). apply Nat.ltb_lt in Hr1'. rewrite Hr1'.
      destruct (find_edge e (a_edges (fa_aut (x_aut (fw_d st))))) eqn:F; cbn [obind fst snd].
      + apply find_edge_Some in F. apply (in_map fst) in F. cbn [fst] in F. change (In e (xES st)) in F. change (fa_weight (x_aut (fw_d st)) e) with (xV st e).
        destruct (f_less mx w (xV st e)) eqn:G.
        * eexists. split; [reflexivity|]. right. auto.
        * exists st. split; [reflexivity|left; auto].
      + apply find_edge_None in F. change (~ In e (xES st)) in F. eexists. split; [reflexivity|]. right. split; [tauto|].
        match goal with |- changed _ _ _ ?s => set (st' := s) end.
        assert (HE : xES st' = e :: xES st) by reflexivity.
        constructor; auto.
        * destruct B. constructor; auto; rewrite ?HE.
          -- constructor; auto.
          -- intros x [<-|H]; auto. unfold in_range; ands; auto.
          -- intros x [<-|H]; auto.
          -- intros x H. right; auto.
          -- intros x. cbn. split; (intros [H|H]; [left; auto|right; apply xb_rel0; auto]).
          -- intros s p id H. destruct (xb_delta0 s p id H) as (r & ls & H1 & H2 & H3). exists r, ls. ands; auto. right; auto.
          -- cbn. rewrite xb_count0. reflexivity.
        * rewrite HE. destruct (in_dec edge_eq_dec e (xES st)); [contradiction|reflexivity].
        * intros x. unfold xV, st'. cbn [fw_d x_emplace x_set x_set_limit x_aut]. rewrite (fa_weight_cons (fa_aut (x_aut (fw_d st)))). destruct (edge_eq_dec e x) as [->|Ne]; [destruct (edge_eq_dec x x); congruence|].
          destruct (edge_eq_dec x e); [congruence|]. destruct (x_aut (fw_d st)); reflexivity.
  Qed.

  (** What happens to the rest of the state. *)
  Record sle (st st' : xst) : Prop := {
    sl_ES : forall e, In e (xES st) -> In e (xES st') /\ fle (xV st' e) (xV st e);
    sl_next : forall e, In e (fw_next st) -> In e (fw_next st');
    sl_V : forall e, In e (xES st) -> ~ In e (fw_next st') -> xV st' e = xV st e;
    sl_ws : fw_ws st' = fw_ws st;
    sl_rounds : fw_rounds st' = fw_rounds st;
    sl_done : fw_done st' = fw_done st;
    sl_added : x_added (fw_d st') = x_added (fw_d st);
    sl_delta : forall d, In d (x_delta (fw_d st)) -> In d (x_delta (fw_d st'));
    sl_new : forall e, In e (xES st') -> In e (xES st) \/ In e (fw_next st') }.
  Lemma sle_refl : forall st, sle st st.
  Proof. intros; constructor; auto. intros; split; auto using fle_refl. Qed.
  Lemma sle_trans : forall a b c, sle a b -> sle b c -> sle a c.
  Proof.
    intros a b c [A1 A2 A3 A4 A5 A6 A7 A8 A9] [B1 B2 B3 B4 B5 B6 B7 B8 B9]. constructor; auto; try congruence.
    - intros e H. destruct (A1 e H) as [H1 H2]. destruct (B1 e H1) as [H3 H4]. split; auto. eapply fle_trans; eauto.
    - intros e H H1. rewrite (B3 e); [apply A3; auto|apply A1; auto|auto].
    - intros e H. destruct (B9 e H) as [H1|H1]; auto. destruct (A9 e H1); auto.
  Qed.
  Lemma cov_mono : forall a b e w, sle a b -> cov a e w -> cov b e w.
  Proof. intros a b e w L [H1 H2]. destruct (sl_ES _ _ L e H1) as [H3 H4]. split; auto. eapply fle_trans; eauto. Qed.
  Lemma changed_sle : forall st e w st', (In e (xES st) -> fle w (xV st e)) -> changed st e w st' -> sle st st'.
  Proof.
    intros st e w st' Hw [C1 C2 C3 C4 C5 C6 C7 C8 C9 C10]. constructor; auto.
    - intros x Hx. split.
      + rewrite C2. destruct (in_dec edge_eq_dec e (xES st)); auto. right; auto.
      + rewrite C3. destruct (edge_eq_dec x e) as [->|]; auto using fle_refl.
    - intros x Hx. rewrite C4. apply in_or_app; auto.
    - intros x Hx Hn. rewrite C3. destruct (edge_eq_dec x e) as [->|]; auto. destruct Hn. rewrite C4. apply in_or_app. right; left; auto.
    - intros d Hd. rewrite C9. auto.
    - intros x Hx. rewrite C2 in Hx. destruct (in_dec edge_eq_dec e (xES st)); auto. destruct Hx as [<-|Hx]; auto. right. rewrite C4. apply in_or_app. right; left; auto.
  Qed.

  (** *** The updates of a step *)
  Inductive just (b : bool) (t : edge) (wt : fwt) (st : xst) : bool -> edge -> fwt -> Prop :=
  | j_pop : forall e rw, Rp P e rw -> e_dst e = e_src t -> nth_error (x_added (fw_d st)) (e_src t) = Some false -> just b t wt st false e (Some rw)
  | j_1 : forall e rw, R1 P e t rw -> just b t wt st b e (f_add (Some rw) wt)
  | j_2a : forall e c2 rw, R2 P e t c2 rw -> In c2 (xES st) -> just b t wt st b e (f_add (f_add (Some rw) wt) (xV st c2))
  | j_2b : forall e c1 rw, R2 P e c1 t rw -> In c1 (xES st) -> just b t wt st b e (f_add (f_add (Some rw) (xV st c1)) wt).

  Section Step.
    Variable b : bool.
    Variable t : edge.
    Variable wt : fwt.
    Variable I : xst -> Prop.
    Hypothesis I_base : forall st, I st -> xbase st.
    Hypothesis I_t : in_rng t.
    Hypothesis I_tin : forall st, I st -> In t (xES st).
    Hypothesis I_ex : forall st e w, I st -> just b t wt st true e w -> In e (xES st).
    Hypothesis I_upd : forall st b' e w st', I st -> just b t wt st b' e w -> e_src e < n -> (In e (xES st) -> f_less mx w (xV st e) = true) ->
      changed st e (if b' then None else w) st' -> I st'.
    Hypothesis I_delta : forall st d, I st -> xbase (x_add_delta st d) -> I (x_add_delta st d).

    Lemma Rp_facts : forall e rw, Rp P e rw -> in_rng e /\ e_src e < n.
    Proof.
      intros e rw (p & id & r & ls & l & G & O & M & -> & ->). destruct (get_rule_facts P WP _ _ _ _ G) as (K1 & K2 & K3). fold n in K1, K2.
      split; auto. unfold in_range. fold N. cbn. ands; try lia. exists l. split; auto. eapply matches_lt; eauto.
    Qed.
    Lemma R1_facts : forall e c rw, R1 P e c rw -> in_rng c -> in_rng e /\ e_src e < n.
    Proof.
      intros e c rw (p & id & r & ls & l & G & M & -> & _) (_ & H & _). destruct (get_rule_facts P WP _ _ _ _ G) as (K1 & K2 & K3). fold n in K1, K2.
      split; auto. unfold in_range. fold N. fold N in H. cbn. ands; try lia. exists l. split; auto. eapply matches_lt; eauto.
    Qed.
    Lemma R2_facts : forall e c1 c2 rw, R2 P e c1 c2 rw -> in_rng c2 -> in_rng e /\ e_src e < n.
    Proof.
      intros e c1 c2 rw (p & id & r & ls & l & G & O & M & -> & _) (_ & H & _). destruct (get_rule_facts P WP _ _ _ _ G) as (K1 & K2 & K3). fold n in K1, K2.
      split; auto. unfold in_range. fold N. fold N in H. cbn. ands; try lia. exists l. split; auto. eapply matches_lt; eauto.
    Qed.
    Lemma just_facts : forall st b' e w, I st -> just b t wt st b' e w -> in_rng e /\ e_src e < n.
    Proof.
      intros st b' e w HI J. destruct J as [e rw R _ _|e rw R|e c2 rw R Hi|e c1 rw R Hi]; [eapply Rp_facts|eapply R1_facts|eapply R2_facts|eapply R2_facts]; eauto.
      apply (xb_range _ (I_base _ HI)); auto.
    Qed.

    Lemma upd_spec : forall st b' e w tr, I st -> just b t wt st b' e w ->
      exists st', x_update mx b' st e w tr = Some st' /\ I st' /\ sle st st' /\ cov st' e w /\ x_delta (fw_d st') = x_delta (fw_d st).
    Proof.
      intros st b' e w tr HI J. destruct (just_facts _ _ _ _ HI J) as [F1 F2].
      destruct (x_update_spec b' st e w tr) as (st' & U & [(-> & U1 & U2)|(U1 & U2)]); auto.
      { intros ->. eapply I_ex; eauto. }
      - exists st. ands; auto using sle_refl. split; auto.
      - exists st'. ands; auto.
        + eapply I_upd; eauto.
        + eapply changed_sle; eauto. intros Hi. destruct b'; [apply fle_None|]. apply f_less_fle; auto.
        + split.
          * rewrite (cg_ES _ _ _ _ U2). destruct (in_dec edge_eq_dec e (xES st)); auto. left; auto.
          * rewrite (cg_V _ _ _ _ U2). destruct (edge_eq_dec e e); [|congruence]. destruct b'; auto using fle_None, fle_refl.
        + apply (cg_delta _ _ _ _ U2).
    Qed.

    Lemma bulk_spec : forall st b' p ls q w tr, I st -> wf_labels (pd_nlab P) ls ->
      (forall l s, matches (pd_nlab P) ls l -> I s -> sle st s -> just b t wt s b' (mk_edge p (Some l) q) w) ->
      exists st', x_bulk P mx b' st p ls q w tr = Some st' /\ I st' /\ sle st st' /\ x_delta (fw_d st') = x_delta (fw_d st) /\
        (forall l, matches (pd_nlab P) ls l -> cov st' (mk_edge p (Some l) q) w).
    Proof.
      intros st b' p ls q w tr HI Wl HJ. unfold x_bulk.
      destruct (ofold_rule _ _ (fun st l => x_update mx b' st (mk_edge p (Some l) q) w tr)
        (fun s => I s /\ sle st s /\ x_delta (fw_d s) = x_delta (fw_d st)) sle (fun l s => cov s (mk_edge p (Some l) q) w) (bulk_labels P ls)) with (s := st)
        as [st' [E1 [[E2 [E3 E3']] [E4 E5]]]].
      - apply sle_refl.
      - apply sle_trans.
      - intros; eapply cov_mono; eauto.
      - intros l s Hl (Is & Ls & Ds). apply (bulk_labels_In P (fa_aut A0) HnN) in Hl.
        destruct (upd_spec s b' (mk_edge p (Some l) q) w tr) as (s' & F1 & F2 & F3 & F4 & F5); auto.
        exists s'. ands; auto. eapply sle_trans; eauto. congruence.
      - ands; auto using sle_refl.
      - exists st'. ands; auto. intros l Hl. apply E5. apply (bulk_labels_In P (fa_aut A0) HnN); auto.
    Qed.

    (** [covA st st' x f]: some state between st and st' gives x the value v, and the edge is covered by f v. *)
    Definition covA (st st' : xst) (x e : edge) (f : fwt -> fwt) : Prop := exists s, sle st s /\ sle s st' /\ I s /\ cov st' e (f (xV s x)).
    Lemma covA_mono : forall st s1 s2 x e f, sle s1 s2 -> covA st s1 x e f -> covA st s2 x e f.
    Proof. intros st s1 s2 x e f L (s & H1 & H2 & H3 & H4). exists s. ands; auto. eapply sle_trans; eauto. eapply cov_mono; eauto. Qed.

    Lemma delta_spec : forall st, I st ->
      exists st', x_delta_loop P mx b st t wt = Some st' /\ I st' /\ sle st st' /\ x_delta (fw_d st') = x_delta (fw_d st) /\
        (forall p id r ls l, In (e_src t, (p, id)) (x_delta (fw_d st)) -> get_rule P p id = Some (r, ls) -> e_lab t = Some l -> matches (pd_nlab P) ls l ->
           covA st st' (mk_edge (r_to r) (Some (r_opl r)) (e_src t)) (mk_edge p (Some l) (e_dst t)) (fun v => f_add (f_add (Some (r_w r)) v) wt)).
    Proof.
      intros st HI. pose proof (I_base _ HI) as B. unfold x_delta_loop, x_delta_of, x_size. rewrite (xbase_size _ B).
      destruct I_t as (T1 & T2 & l0 & T3 & T4). fold N in T1, T2. assert (T1b := T1). apply Nat.ltb_lt in T1b. rewrite T1b. cbn [obind].
      set (ds := map snd (filter (fun d => Nat.eqb (fst d) (e_src t)) (x_delta (fw_d st)))).
      assert (Hds: forall p id, In (p, id) ds <-> In (e_src t, (p, id)) (x_delta (fw_d st))).
      { intros p id. unfold ds. rewrite in_map_iff. split.
        - intros [[s d] [E H]]. cbn in E; subst d. apply filter_In in H. destruct H as [H1 H2]. cbn in H2. apply Nat.eqb_eq in H2; subst; auto.
        - intros H. exists (e_src t, (p, id)); split; auto. apply filter_In; split; auto. cbn; apply Nat.eqb_refl. }
      destruct (ofold_rule _ _ (fun st (d : nat * nat) =>
        rl <- get_rule P (fst d) (snd d) ;;
        if contains_lab (snd rl) (e_lab t) then
          w1 <- fa_get (x_aut (fw_d st)) (mk_edge (r_to (fst rl)) (Some (r_opl (fst rl))) (e_src t)) ;;
          x_update mx b st (mk_edge (fst d) (e_lab t) (e_dst t)) (f_add (f_add (Some (r_w (fst rl))) w1) wt) (TPre (snd d) (Some (e_src t)))
        else Some st) (fun s => I s /\ sle st s /\ x_delta (fw_d s) = x_delta (fw_d st)) sle
        (fun d s => forall r ls l, get_rule P (fst d) (snd d) = Some (r, ls) -> e_lab t = Some l -> matches (pd_nlab P) ls l ->
           covA st s (mk_edge (r_to r) (Some (r_opl r)) (e_src t)) (mk_edge (fst d) (Some l) (e_dst t)) (fun v => f_add (f_add (Some (r_w r)) v) wt)) ds)
        with (s := st) as [st' [E1 [[E2 [E3 E3']] [E4 E5]]]].
      - apply sle_refl.
      - apply sle_trans.
      - intros d s s' H L r ls l H1 H2 H3. eapply covA_mono; eauto.
      - intros [p id] s Hd (Is & Ls & Ds). cbn [fst snd]. apply Hds in Hd. destruct (xb_delta _ B _ _ _ Hd) as [r [ls [G1 [G2 G3]]]].
        rewrite G1; cbn [obind fst snd]. destruct (get_rule_facts P WP _ _ _ _ G1) as [K1 [K2 K3]].
        destruct (contains_lab ls (e_lab t)) eqn:Cn.
        + assert (Hm : matches (pd_nlab P) ls l0) by (eapply (contains_matches P (fa_aut A0) ls t); eauto).
          destruct (sl_ES _ _ Ls _ G3) as [G4 _]. rewrite (fa_get_in _ _ G4). cbn [obind].
          destruct (upd_spec s b (mk_edge p (e_lab t) (e_dst t)) (f_add (f_add (Some (r_w r)) (xV s (mk_edge (r_to r) (Some (r_opl r)) (e_src t)))) wt) (TPre id (Some (e_src t))))
            as (s' & F1 & F2 & F3 & F4 & F5); auto.
          * apply (j_2b b t wt s (mk_edge p (e_lab t) (e_dst t))); auto. exists p, id, r, ls, l0. rewrite T3. cbn. ands; auto.
          * exists s'. ands; auto; [eapply sle_trans; eauto|congruence|]. intros r' ls' l G' El Hm'. injection G' as <- <-. exists s. ands; auto. rewrite <- El. auto.
        + exists s. ands; auto using sle_refl. intros r' ls' l G' El Hm'. injection G' as <- <-. exfalso. rewrite El in Cn. cbn in Cn.
          rewrite (proj2 (contains_spec _ _ _ K3 (matches_lt _ _ _ K3 Hm'))) in Cn; auto. discriminate.
      - ands; auto using sle_refl.
      - exists st'. ands; auto. intros p id r ls l Hd G El Hm. apply (E5 (p, id)) with (ls := ls); cbn; auto. apply Hds; auto.
    Qed.

    Definition rule_done (st st' : xst) (p id : nat) (r : rule) (ls : labels) : Prop :=
      match r_op r with
      | POP => nth_error (x_added (fw_d st)) (e_src t) = Some false -> forall l, matches (pd_nlab P) ls l -> cov st' (mk_edge p (Some l) (e_src t)) (Some (r_w r))
      | SWAP => e_lab t = Some (r_opl r) -> forall l, matches (pd_nlab P) ls l -> cov st' (mk_edge p (Some l) (e_dst t)) (f_add (Some (r_w r)) wt)
      | NOOP => forall l, e_lab t = Some l -> matches (pd_nlab P) ls l -> cov st' (mk_edge p (Some l) (e_dst t)) (f_add (Some (r_w r)) wt)
      | PUSH => e_lab t = Some (r_opl r) -> In (e_dst t, (p, id)) (x_delta (fw_d st')) /\
          forall c2 l, In c2 (xES st) -> e_src c2 = e_dst t -> e_lab c2 = Some l -> matches (pd_nlab P) ls l ->
            covA st st' c2 (mk_edge p (Some l) (e_dst c2)) (fun v => f_add (f_add (Some (r_w r)) wt) v)
      end.
    Lemma rule_done_mono : forall st s1 s2 p id r ls, sle s1 s2 -> rule_done st s1 p id r ls -> rule_done st s2 p id r ls.
    Proof.
      intros st s1 s2 p id r ls L H. unfold rule_done in *. destruct (r_op r); intros; try (eapply cov_mono; eauto; fail).
      destruct (H H0) as [H1 H2]. split; [apply (sl_delta _ _ L); auto|]. intros. eapply covA_mono; eauto.
    Qed.

    Lemma xbase_delta : forall st d p id r ls, xbase st -> get_rule P p id = Some (r, ls) -> r_op r = PUSH -> In (mk_edge (r_to r) (Some (r_opl r)) d) (xES st) ->
      xbase (x_add_delta st (d, (p, id))).
    Proof.
      intros st d p id r ls B G O H. destruct B. constructor; auto. intros s p' id' H'. cbn in H'. apply d_insert_In in H'. destruct H' as [H'|H']; auto.
      injection H' as -> -> ->. exists r, ls. auto.
    Qed.
    Lemma sle_delta : forall st d, sle st (x_add_delta st d).
    Proof. intros. constructor; auto. - intros e H. split; auto. apply fle_refl. - intros x H. cbn. apply d_insert_In. auto. Qed.

    Lemma rule_spec : forall st0 st p id r ls, I st -> sle st0 st -> In (id, (r, ls)) (visited (rules_at P p) (e_src t)) ->
      exists st', x_rule P mx b t wt p st (id, (r, ls)) = Some st' /\ I st' /\ sle st st' /\ rule_done st0 st' p id r ls.
    Proof.
      intros st0 st p id r ls HI L0 Hv. pose proof (I_base _ HI) as B.
      destruct (visited_facts P WP _ _ _ _ _ Hv) as [V1 [V2 [V3 [V4 V5]]]]. fold n in V1, V2.
      destruct I_t as (T1 & T2 & l0 & T3 & T4). fold N in T1, T2.
      unfold x_rule. cbn [fst snd]. unfold rule_done. destruct (r_op r) eqn:Er.
      - (* PUSH *)
        rewrite T3. cbn [lab_eqb]. destruct (Nat.eqb (r_opl r) l0) eqn:El.
        2:{ apply Nat.eqb_neq in El. exists st. ands; auto using sle_refl. intros E; congruence. }
        apply Nat.eqb_eq in El; subst l0.
        assert (Et : mk_edge (r_to r) (Some (r_opl r)) (e_dst t) = t) by (rewrite V3, <- T3; destruct t; auto).
        set (s1 := x_add_delta st (e_dst t, (p, id))) in *.
        assert (B1 : xbase s1) by (eapply xbase_delta; eauto; rewrite Et; auto).
        assert (I1 : I s1) by (apply I_delta; auto).
        assert (L1 : sle st s1) by apply sle_delta.
        unfold x_rel_of, x_size. rewrite (xbase_size _ B1). assert (T2b := T2). apply Nat.ltb_lt in T2b. rewrite T2b. cbn [obind].
        set (rs := rev (filter (fun e => Nat.eqb (e_src e) (e_dst t)) (x_rel (fw_d s1)))).
        assert (Hrs: forall e, In e rs <-> In e (xES st) /\ e_src e = e_dst t).
        { intros e. unfold rs. rewrite <- in_rev, filter_In, Nat.eqb_eq. rewrite (xb_rel _ B1). reflexivity. }
        destruct (ofold_rule _ _ (fun st e =>
              if contains_lab ls (e_lab e) then
                w2 <- fa_get (x_aut (fw_d st)) e ;;
                x_update mx b st (mk_edge p (e_lab e) (e_dst e)) (f_add (f_add (Some (r_w r)) wt) w2) (TPre id (Some (e_dst t)))
              else Some st) (fun s' => I s' /\ sle s1 s') sle
              (fun e s' => forall l, e_lab e = Some l -> matches (pd_nlab P) ls l -> covA st0 s' e (mk_edge p (Some l) (e_dst e)) (fun v => f_add (f_add (Some (r_w r)) wt) v)) rs)
          with (s := s1) as [s' [E1 [[E2 E3] [E4 E5]]]].
        + apply sle_refl.
        + apply sle_trans.
        + intros e a c H L l H1 H2. eapply covA_mono; eauto.
        + intros e s0 He (Is & Ls). apply Hrs in He. destruct He as [He1 He2].
          pose proof (xb_range _ B _ He1) as Hr'. pose proof Hr' as [Q1 [Q2 [l' [Q3 Q4]]]].
          destruct (contains_lab ls (e_lab e)) eqn:Cn.
          2:{ exists s0; ands; auto using sle_refl. intros l El Hm. exfalso. rewrite El in Cn. cbn in Cn.
              rewrite (proj2 (contains_spec _ _ _ V5 (matches_lt _ _ _ V5 Hm))) in Cn; auto. discriminate. }
          assert (Hm : matches (pd_nlab P) ls l') by (eapply (contains_matches P (fa_aut A0) ls e); eauto).
          assert (He0 : In e (xES s0)) by (apply (sl_ES _ _ Ls); auto).
          rewrite (fa_get_in _ _ He0). cbn [obind].
          destruct (upd_spec s0 b (mk_edge p (e_lab e) (e_dst e)) (f_add (f_add (Some (r_w r)) wt) (xV s0 e)) (TPre id (Some (e_dst t)))) as (s' & F1 & F2 & F3 & F4 & F5); auto.
          * apply (j_2a b t wt s0 (mk_edge p (e_lab e) (e_dst e))); auto. exists p, id, r, ls, l'. rewrite Q3. ands; auto.
          * exists s'. ands; auto; [eapply sle_trans; eauto|]. intros l El Hm'. exists s0. ands; auto; [|rewrite <- El; auto].
            eapply sle_trans; [exact L0|]. eapply sle_trans; eauto.
        + ands; auto using sle_refl.
        + exists s'. ands; auto.
          * eapply sle_trans; eauto.
          * intros _. split; [apply (sl_delta _ _ E3); cbn; apply d_insert_In; auto|]. intros c2 l H1 H2 H3 H4. apply E5; auto. apply Hrs. split; auto. apply (sl_ES _ _ L0); auto.
      - (* POP *)
        destruct (nth_error_ex _ (x_added (fw_d st)) (e_src t)) as [ad Ead]; [rewrite (xb_added _ B); auto|].
        rewrite Ead; cbn [obind]. destruct ad.
        + exists st. ands; auto using sle_refl. intros H. rewrite <- (sl_added _ _ L0), Ead in H. discriminate.
        + destruct (bulk_spec st false p ls (e_src t) (Some (r_w r)) (TPre id None)) as (s' & F1 & F2 & F3 & F4 & F5); auto.
          * intros l s Hm Is Ls. apply j_pop; cbn; auto; [|rewrite (sl_added _ _ Ls); auto]. exists p, id, r, ls, l. rewrite V3. ands; auto.
          * exists s'. ands; auto.
      - (* SWAP *)
        rewrite T3. cbn [lab_eqb]. destruct (Nat.eqb (r_opl r) l0) eqn:El.
        2:{ apply Nat.eqb_neq in El. exists st. ands; auto using sle_refl. intros E; congruence. }
        apply Nat.eqb_eq in El; subst l0.
        destruct (bulk_spec st b p ls (e_dst t) (f_add (Some (r_w r)) wt) (TPre id None)) as (s' & F1 & F2 & F3 & F4 & F5); auto.
        + intros l s Hm Is Ls. apply j_1. exists p, id, r, ls, l. ands; auto.
        + exists s'. ands; auto.
      - (* NOOP *)
        destruct (contains_lab ls (e_lab t)) eqn:Cn.
        2:{ exists st. ands; auto using sle_refl. intros l E Hm. exfalso. rewrite E in Cn. cbn in Cn. rewrite (proj2 (contains_spec _ _ _ V5 (matches_lt _ _ _ V5 Hm))) in Cn; auto. discriminate. }
        assert (Hm : matches (pd_nlab P) ls l0) by (eapply (contains_matches P (fa_aut A0) ls t); eauto).
        destruct (upd_spec st b (mk_edge p (e_lab t) (e_dst t)) (f_add (Some (r_w r)) wt) (TPre id None)) as (s' & F1 & F2 & F3 & F4 & F5); auto.
        + apply j_1. exists p, id, r, ls, l0. rewrite T3. ands; auto.
        + exists s'. ands; auto. intros l E _. rewrite <- E. auto.
    Qed.

    (** One step. *)
    Lemma step_rule : forall st, I st -> xV st t = wt ->
      exists st2, x_step_with P mx b st t = Some (if Nat.leb n (e_src t) then st2 else x_set_added st2 (e_src t), true) /\ I st2 /\ sle st st2 /\
        (forall p id r ls l, In (e_src t, (p, id)) (x_delta (fw_d st)) -> get_rule P p id = Some (r, ls) -> e_lab t = Some l -> matches (pd_nlab P) ls l ->
           covA st st2 (mk_edge (r_to r) (Some (r_opl r)) (e_src t)) (mk_edge p (Some l) (e_dst t)) (fun v => f_add (f_add (Some (r_w r)) v) wt)) /\
        (forall p id r ls, In (id, (r, ls)) (visited (rules_at P p) (e_src t)) -> rule_done st st2 p id r ls).
    Proof.
      intros st HI Hw. unfold x_step_with. rewrite (fa_get_in _ _ (I_tin _ HI)). cbn [obind]. rewrite Hw.
      destruct (delta_spec st HI) as (st1 & D1 & D2 & D3 & D4 & D5). rewrite D1. cbn [obind]. fold n.
      destruct (Nat.leb_spec n (e_src t)) as [Ln|Ln].
      - exists st1. ands; auto. intros p id r ls Hv. destruct (visited_facts P WP _ _ _ _ _ Hv) as [V1 [V2 _]]. fold n in V2. lia.
      - destruct (nth_error_ex _ (pd_states P) (e_src t)) as [s Es]; [exact Ln|]. rewrite Es. cbn [obind].
        destruct (rules_loop2 P WP xst (x_rule P mx b t wt) (e_src t) s (fun s => I s /\ sle st s) sle
          (fun p x s => rule_done st s p (fst x) (fst (snd x)) (snd (snd x))) Es) with (s := st1) as (st2 & F1 & [F2 F3] & F4 & F5); auto.
        + apply sle_refl.
        + apply sle_trans.
        + intros p x s1 s2 H L. eapply rule_done_mono; eauto.
        + intros p [id [r ls]] s1 Hp Hv [Is Ls]. destruct (rule_spec st s1 p id r ls) as (s2 & G1 & G2 & G3 & G4); auto.
          exists s2. ands; auto. eapply sle_trans; eauto.
        + rewrite F1. cbn [obind]. exists st2. ands; auto.
          * intros p id r ls l H1 H2 H3 H4. eapply covA_mono; eauto.
          * intros p id r ls Hv. apply (F5 p (id, (r, ls))). auto.
    Qed.
  End Step.
End FixPre.
