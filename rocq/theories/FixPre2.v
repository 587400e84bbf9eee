(** The fixed-point saturation of pre*: the closure of the automaton under the rules, and the first phase. *)
From Coq Require Import List Arith Lia Bool ZArith.
From Verif Require Import Base BaseFacts Spec SpecFacts PdaModel PdaProof AutModel AutProof PreStarModel PreStarProof PreStarLang
  PostStarModel SolverModel ProductModel UtilModel UtilProof ShortSpec ShortModel PostShortProof PreShortModel PreShortProof FixModel FixChain FixPre1.
Import ListNotations.

(** *** The workset *)
Section Loop.
  Variables D E : Type.
  Variable norm : list E -> list E.
  Variable step_with : bool -> fwst D E -> E -> option (fwst D E * bool).
  Notation fw_loop := (fw_loop D E norm step_with).
  Notation fw_step := (fw_step D E norm step_with).

  Lemma fw_loop_mono : forall b f st st' f', fw_loop b f st = Some (Some st') -> f <= f' -> fw_loop b f' st = Some (Some st').
  Proof.
    intros b f. induction f as [|f IH]; intros st st' f' H L; cbn in H |- *.
    - destruct f'; cbn; destruct (fw_is_done D E st); auto; discriminate.
    - destruct f'; [lia|]. cbn. destruct (fw_is_done D E st); auto. destruct (fw_step b st); [|discriminate]. apply IH; auto. lia.
  Qed.

  Definition start (Inv Fin : fwst D E -> Prop) (st : fwst D E) : Prop := (fw_is_done D E st = true /\ Fin st) \/ (fw_is_done D E st = false /\ Inv st).

  Lemma fw_loop_total : forall b (Inv Fin : fwst D E -> Prop),
    (forall st, Inv st -> fw_is_done D E st = false -> exists st', fw_step b st = Some st' /\ start Inv Fin st') ->
    forall fuel st, start Inv Fin st -> fw_loop b fuel st = Some None \/ exists st', fw_loop b fuel st = Some (Some st') /\ Fin st'.
  Proof.
    intros b Inv Fin H fuel. induction fuel as [|f IH]; intros st [[S1 S2]|[S1 S2]]; cbn; rewrite S1; eauto.
    destruct (H st S2 S1) as (st' & E1 & E2). rewrite E1. auto.
  Qed.

  Lemma fw_loop_ends : forall b (Inv Fin : fwst D E -> Prop) U,
    (forall st, Inv st -> fw_rounds st <= U) ->
    (forall st, Inv st -> fw_is_done D E st = false -> exists st', fw_step b st = Some st' /\ start Inv Fin st' /\
      (fw_rounds st < fw_rounds st' \/ (fw_rounds st' = fw_rounds st /\ length (fw_ws st') < length (fw_ws st)))) ->
    forall st, start Inv Fin st -> exists bound st', Fin st' /\ forall fuel, bound <= fuel -> fw_loop b fuel st = Some (Some st').
  Proof.
    intros b Inv Fin U HU H.
    assert (DN : forall st, start Inv Fin st -> fw_is_done D E st = true -> exists bound st', Fin st' /\ forall fuel, bound <= fuel -> fw_loop b fuel st = Some (Some st')).
    { intros st [[S1 S2]|[S1 S2]] S3; [|congruence]. exists 0, st. split; auto. intros [|f] _; cbn; rewrite S1; auto. }
    assert (K : forall k j st, U + 1 - fw_rounds st <= k -> length (fw_ws st) <= j -> start Inv Fin st -> exists bound st', Fin st' /\ forall fuel, bound <= fuel -> fw_loop b fuel st = Some (Some st')).
    { induction k as [|k IHk].
      - intros j st K1 K2 S. destruct S as [[S1 S2]|[S1 S2]]; [apply DN; [left|]; auto|]. apply HU in S2. lia.
      - induction j as [j IHj] using lt_wf_ind. intros st K1 K2 S. destruct S as [[S1 S2]|[S1 S2]]; [apply DN; [left|]; auto|].
        destruct (H st S2 S1) as (st' & E1 & E2 & E3).
        assert (R : exists bound st2, Fin st2 /\ forall fuel, bound <= fuel -> fw_loop b fuel st' = Some (Some st2)).
        { destruct E2 as [[T1 T2]|[T1 T2]]; [apply DN; [left|]; auto|]. assert (HU' := HU _ T2). assert (HU0 := HU _ S2). destruct E3 as [E3|[E3 E4]].
          - apply (IHk (length (fw_ws st'))); [lia|auto|right; auto].
          - apply (IHj (length (fw_ws st'))); [lia|lia|auto|right; auto]. }
        destruct R as (bound & st2 & R1 & R2). exists (S bound), st2. split; auto. intros [|f] L; [lia|]. cbn. rewrite S1, E1. apply R2. lia. }
    intros st S. eapply K; eauto.
  Qed.
End Loop.

Lemma edge_insert_In : forall e l x, In x (edge_insert e l) <-> x = e \/ In x l.
Proof.
  intros e l x. induction l as [|a l IH]; cbn; [intuition|]. destruct (edge_eqb a e) eqn:E.
  - apply edge_eqb_eq in E. subst. cbn. intuition.
  - destruct (edge_ltb a e); cbn; [rewrite IH|]; intuition.
Qed.
Lemma sort_edges_In : forall l x, In x (sort_edges l) <-> In x l.
Proof. intros l x. unfold sort_edges. induction l as [|a l IH]; cbn; [tauto|]. rewrite edge_insert_In, IH. intuition. Qed.
Lemma edge_insert_length : forall e l, length (edge_insert e l) <= S (length l).
Proof. intros e l. induction l as [|a l IH]; cbn; auto. destruct (edge_eqb a e); cbn; auto. destruct (edge_ltb a e); cbn; lia. Qed.
Lemma sort_edges_length : forall l, length (sort_edges l) <= length l.
Proof. intros l. unfold sort_edges. induction l as [|a l IH]; cbn; auto. assert (K := edge_insert_length a (fold_right edge_insert [] l)). lia. Qed.

Section FixPre2.
  Variable P : pda.
  Hypothesis WP : wf_pda P.
  Hypothesis LK : lookup_ok P.
  Variable mx : bool.
  Variable A0 : faut.
  Let N := a_size (fa_aut A0).
  Let n := pd_n P.
  Let E0 := map fst (a_edges (fa_aut A0)).
  Hypothesis HnN : n <= N.
  Hypothesis HO : wf_ord (fa_aut A0).
  Hypothesis NI : no_in P (fa_aut A0).
  Notation in_rng := (in_range P (fa_aut A0)).
  Notation xst := (fwst xd edge).
  Notation fle := (fle mx).
  Notation cov := (cov mx).
  Notation xbase := (xbase P A0).
  Notation sle := (sle mx).
  Notation deriv := (kderiv P E0).
  Notation unb := (unb P E0 mx).
  Notation sg := (sg mx).

  Definition none (e : edge) : Prop := False.
  Definition added (st : xst) (q : nat) : Prop := nth_error (x_added (fw_d st)) q = Some true.

  (** Edges whose current value has been processed. *)
  Definition settled (X : edge -> Prop) (st : xst) (c : edge) : Prop := In c (xES st) /\ ~ In c (fw_ws st) /\ ~ In c (fw_next st) /\ ~ X c.
  (** [C] are the edges that have been processed at least once; [X] is the edge being processed. *)
  Record clo (X C : edge -> Prop) (st : xst) : Prop := {
    cl_cE : forall c, C c -> In c (xES st);
    cl_C : forall c, settled X st c -> C c;
    cl_add : forall c, C c -> e_src c < n -> added st (e_src c);
    cl_acc : forall q, q < n -> aut_final (fa_aut A0) q -> added st q;
    cl_E0 : forall e, In e E0 -> cov st e (Some 0%Z);
    cl_pop : forall e rw, added st (e_dst e) -> Rp P e rw -> cov st e (Some rw);
    cl_1a : forall e c rw, C c -> R1 P e c rw -> In e (xES st);
    cl_1b : forall e c rw, settled X st c -> R1 P e c rw -> cov st e (f_add (Some rw) (xV st c));
    cl_d : forall c p id r ls, C c -> get_rule P p id = Some (r, ls) -> r_op r = PUSH -> r_to r = e_src c -> e_lab c = Some (r_opl r) -> In (e_dst c, (p, id)) (x_delta (fw_d st));
    cl_2a : forall e c1 c2 rw, C c1 -> C c2 -> R2 P e c1 c2 rw -> In e (xES st);
    cl_2b : forall e c1 c2 rw, settled X st c1 -> settled X st c2 -> R2 P e c1 c2 rw -> cov st e (f_add (f_add (Some rw) (xV st c1)) (xV st c2)) }.

  Lemma settled_sle : forall X st st' c, sle st st' -> settled X st' c -> settled X st c /\ xV st' c = xV st c.
  Proof.
    intros X st st' c L (H1 & H2 & H3 & H4). destruct (sl_new _ _ _ L _ H1) as [K|K]; [|contradiction]. split.
    - unfold settled. rewrite <- (sl_ws _ _ _ L). ands; auto. intros H. apply H3. apply (sl_next _ _ _ L); auto.
    - apply (sl_V _ _ _ L); auto.
  Qed.
  Lemma clo_sle : forall X C st st', sle st st' -> clo X C st -> clo X C st'.
  Proof.
    intros X C st st' L [B1 B2 B3 B4 B5 B6 B7 B8 B9 B10 B11]. unfold added in *. constructor; unfold added; rewrite ?(sl_added _ _ _ L); auto.
    - intros c H. apply (sl_ES _ _ _ L). auto.
    - intros c H. apply B2. eapply settled_sle; eauto.
    - intros e H. eapply cov_mono; eauto.
    - intros e rw H R. eapply cov_mono; eauto.
    - intros e c rw H R. apply (sl_ES _ _ _ L). eauto.
    - intros e c rw H R. destruct (settled_sle _ _ _ _ L H) as [H1 ->]. eapply cov_mono; eauto.
    - intros c p id r ls H1 H2 H3 H4 H5. apply (sl_delta _ _ _ L). eauto.
    - intros e c1 c2 rw H1 H2 R. apply (sl_ES _ _ _ L). eauto.
    - intros e c1 c2 rw H1 H2 R. destruct (settled_sle _ _ _ _ L H1) as [K1 ->]. destruct (settled_sle _ _ _ _ L H2) as [K2 ->]. eapply cov_mono; eauto.
  Qed.

  (** The state after a step. *)
  Definition fin_step (t : edge) (st : xst) : xst := if Nat.leb n (e_src t) then st else x_set_added st (e_src t).
  Lemma fin_facts : forall t st, xES (fin_step t st) = xES st /\ (forall e, xV (fin_step t st) e = xV st e) /\ fw_ws (fin_step t st) = fw_ws st /\ fw_next (fin_step t st) = fw_next st /\
    x_delta (fw_d (fin_step t st)) = x_delta (fw_d st) /\ fw_rounds (fin_step t st) = fw_rounds st /\ fw_limit (fin_step t st) = fw_limit st /\ fw_done (fin_step t st) = fw_done st /\
    x_count (fw_d (fin_step t st)) = x_count (fw_d st).
  Proof. intros t st. unfold fin_step. destruct (Nat.leb n (e_src t)); ands; auto. Qed.
  Lemma fin_base : forall t st, xbase st -> xbase (fin_step t st).
  Proof.
    intros t st B. unfold fin_step. destruct (Nat.leb n (e_src t)); auto. destruct B. constructor; auto. cbn. rewrite upd_length. auto.
  Qed.
  Lemma fin_added : forall t st q, xbase st -> added (fin_step t st) q <-> added st q \/ (q = e_src t /\ q < n).
  Proof.
    intros t st q B. unfold fin_step, added. destruct (Nat.leb_spec n (e_src t)) as [L|L].
    - split; [auto|]. intros [H|[-> H]]; auto. lia.
    - cbn. destruct (Nat.eq_dec (e_src t) q) as [<-|Ne].
      + rewrite nth_error_upd_eq by (rewrite (xb_added _ _ _ B); auto). split; auto.
      + rewrite nth_error_upd_neq by auto. split; auto. intros [H|[H _]]; auto. congruence.
  Qed.

  Lemma Rp_dst_lt : forall e rw, Rp P e rw -> e_dst e < n.
  Proof. intros e rw (p & id & r & ls & l & G & _ & _ & -> & _). apply (get_rule_facts P WP) in G. apply G. Qed.
  Lemma rule_visited : forall p id r ls q, get_rule P p id = Some (r, ls) -> r_to r = q -> In (id, (r, ls)) (visited (rules_at P p) q).
  Proof. intros. apply visited_complete; auto. apply get_rule_at; auto. Qed.

  Lemma clo_step : forall (I : xst -> Prop) C t wt st st2, clo (eq t) C st -> xbase st -> xbase st2 -> In t (xES st) -> xV st t = wt -> sle st st2 -> (forall s, I s -> xbase s) ->
    (forall p id r ls l, In (e_src t, (p, id)) (x_delta (fw_d st)) -> get_rule P p id = Some (r, ls) -> e_lab t = Some l -> matches (pd_nlab P) ls l ->
       covA mx I st st2 (mk_edge (r_to r) (Some (r_opl r)) (e_src t)) (mk_edge p (Some l) (e_dst t)) (fun v => f_add (f_add (Some (r_w r)) v) wt)) ->
    (forall p id r ls, In (id, (r, ls)) (visited (rules_at P p) (e_src t)) -> rule_done P mx t wt I st st2 p id r ls) ->
    clo none (fun c => C c \/ c = t) (fin_step t st2).
  Proof.
    intros I C t wt st st2 K B B2 Ht Hw L IB HD HR. assert (K2 := clo_sle _ _ _ _ L K). destruct (fin_facts t st2) as (F1 & F2 & F3 & F4 & F5 & _).
    assert (FC : forall e w, cov st2 e w -> cov (fin_step t st2) e w) by (intros e w [H1 H2]; split; [rewrite F1|rewrite F2]; auto).
    assert (FS : forall c, settled none (fin_step t st2) c -> c = t /\ In t (xES st2) /\ ~ In t (fw_next st2) \/ settled (eq t) st2 c).
    { intros c (H1 & H2 & H3 & H4). rewrite F1 in H1. rewrite F3 in H2. rewrite F4 in H3. destruct (edge_eq_dec c t) as [->|]; auto. right. unfold settled; ands; auto. }
    assert (VT : ~ In t (fw_next st2) -> xV st2 t = wt) by (intros H; rewrite <- Hw; apply (sl_V _ _ _ L); auto).
    (* the rules applied to t *)
    assert (D1 : forall e rw, R1 P e t rw -> cov st2 e (f_add (Some rw) wt)).
    { intros e rw (p & id & r & ls & l & G & M & -> & -> & Es & HO'). assert (V := rule_visited p id r ls (e_src t) G (eq_sym Es)). assert (Dn := HR _ _ _ _ V). unfold rule_done in Dn.
      destruct HO' as [[O El]|[O El]]; rewrite O in Dn; auto. }
    assert (D2a : forall e c2 rw, In c2 (xES st) -> R2 P e t c2 rw -> covA mx I st st2 c2 e (fun v => f_add (f_add (Some rw) wt) v)).
    { intros e c2 rw Hc (p & id & r & ls & l & G & O & M & -> & -> & Es & El & Ed & El2). assert (V := rule_visited p id r ls (e_src t) G (eq_sym Es)). assert (Dn := HR _ _ _ _ V). unfold rule_done in Dn.
      rewrite O in Dn. apply Dn; auto. }
    assert (D2b : forall e c1 rw, C c1 -> R2 P e c1 t rw -> covA mx I st st2 c1 e (fun v => f_add (f_add (Some rw) v) wt)).
    { intros e c1 rw Hc (p & id & r & ls & l & G & O & M & -> & -> & Es & El & Ed & El2). assert (Dl := cl_d _ _ _ K c1 p id r ls Hc G O (eq_sym Es) El). rewrite Ed in Dl.
      replace c1 with (mk_edge (r_to r) (Some (r_opl r)) (e_src t)); [eapply HD; eauto|]. rewrite <- Es, <- El, <- Ed. destruct c1; auto. }
    assert (CA : forall x e f, covA mx I st st2 x e f -> In e (xES st2)) by (intros x e f (s & _ & _ & _ & [H _]); auto).
    assert (CV : forall x e f, In x (xES st) -> ~ In x (fw_next st2) -> covA mx I st st2 x e f -> cov st2 e (f (xV st2 x))).
    { intros x e f Hx Hn (s & S1 & S2 & S3 & S4). rewrite (sl_V _ _ _ S2); auto. apply (sl_ES _ _ _ S1); auto. }
    constructor.
    - intros c [H|H]; rewrite F1; [apply (cl_cE _ _ _ K2); auto|]. subst c. apply (sl_ES _ _ _ L); auto.
    - intros c H. destruct (FS c H) as [(-> & _)|H']; auto. left. apply (cl_C _ _ _ K2); auto.
    - intros c [H|H] Hs; apply fin_added; auto; [left; apply (cl_add _ _ _ K2); auto|]. subst c. auto.
    - intros q Hq Ha. apply fin_added; auto. left. apply (cl_acc _ _ _ K2); auto.
    - intros e H. apply FC. apply (cl_E0 _ _ _ K2); auto.
    - intros e rw Ha R. apply FC. apply fin_added in Ha; auto. destruct Ha as [Ha|[Ha Hlt]]; [apply (cl_pop _ _ _ K2); auto|].
      destruct (nth_error_ex _ (x_added (fw_d st)) (e_dst e)) as [ad Ead]; [rewrite (xb_added _ _ _ B); auto|]. destruct ad.
      + apply (cl_pop _ _ _ K2); auto. unfold added. rewrite (sl_added _ _ _ L). auto.
      + destruct R as (p & id & r & ls & l & G & O & M & -> & ->). cbn [e_dst] in *. assert (V := rule_visited p id r ls (e_src t) G Ha). assert (Dn := HR _ _ _ _ V). unfold rule_done in Dn.
        rewrite O in Dn. rewrite Ha. apply Dn; auto. rewrite <- Ha. auto.
    - intros e c rw [H|H] R; rewrite F1; [apply (cl_1a _ _ _ K2 e c rw); auto|]. subst c. apply (D1 e rw); auto.
    - intros e c rw H R. apply FC. rewrite F2. destruct (FS c H) as [(-> & H1 & H2)|H']; [|apply (cl_1b _ _ _ K2); auto]. rewrite VT; auto.
    - intros c p id r ls [H|H] G O Es El; rewrite F5; [apply (cl_d _ _ _ K2 c p id r ls); auto|]. subst c.
      assert (V := rule_visited p id r ls (e_src t) G Es). assert (Dn := HR _ _ _ _ V). unfold rule_done in Dn. rewrite O in Dn. apply Dn; auto.
    - intros e c1 c2 rw [H1|H1] [H2|H2] R; rewrite F1; subst.
      + apply (cl_2a _ _ _ K2 e c1 c2 rw); auto.
      + eapply CA. apply (D2b e c1 rw); auto.
      + eapply CA. apply (D2a e c2 rw); auto. apply (cl_cE _ _ _ K); auto.
      + eapply CA. apply (D2a e t rw); auto.
    - intros e c1 c2 rw H1 H2 R. apply FC. rewrite !F2. destruct (FS c1 H1) as [(-> & H1' & H1n)|H1'], (FS c2 H2) as [(-> & H2' & H2n)|H2'].
      + assert (Q := CV t e _ Ht H2n (D2a e t rw Ht R)). rewrite (VT H1n) at 1. exact Q.
      + assert (H2s := settled_sle _ _ _ _ L H2'). assert (Q := CV c2 e _ (proj1 (proj1 H2s)) (proj1 (proj2 (proj2 H2'))) (D2a e c2 rw (proj1 (proj1 H2s)) R)). rewrite (VT H1n). exact Q.
      + assert (H1s := settled_sle _ _ _ _ L H1'). assert (Q := CV c1 e _ (proj1 (proj1 H1s)) (proj1 (proj2 (proj2 H1'))) (D2b e c1 rw (cl_C _ _ _ K _ (proj1 H1s)) R)). rewrite (VT H2n). exact Q.
      + apply (cl_2b _ _ _ K2); auto.
  Qed.

  (** Taking an edge from the workset, and starting a round. *)
  Definition popw (st : xst) (ws : list edge) : xst := mk_fw (fw_done st) (fw_limit st) (fw_rounds st) ws (fw_next st) (fw_d st).
  Definition refill (st : xst) : xst := mk_fw (fw_done st) (fw_limit st) (S (fw_rounds st)) (rev (sort_edges (fw_next st))) [] (fw_d st).
  Lemma clo_pop : forall C t ws st, fw_ws st = t :: ws -> clo none C st -> clo (eq t) C (popw st ws).
  Proof.
    intros C t ws st E K.
    assert (S : forall c, settled (eq t) (popw st ws) c -> settled none st c).
    { intros c (H1 & H2 & H3 & H4). unfold settled. rewrite E. ands; auto. intros [H|H]; auto. }
    destruct K as [K1 K2 K3 K4 K5 K6 K7 K8 K9 K10 K11]. constructor; auto.
    - intros e c rw H R. apply (K8 e c rw); auto.
    - intros e c1 c2 rw H1 H2 R. apply (K11 e c1 c2 rw); auto.
  Qed.
  Lemma clo_refill : forall C st, fw_ws st = [] -> clo none C st -> clo none C (refill st).
  Proof.
    intros C st E K.
    assert (S : forall c, settled none (refill st) c -> settled none st c).
    { intros c (H1 & H2 & H3 & H4). unfold settled. rewrite E. ands; auto. intros H. apply H2. cbn. rewrite <- in_rev, sort_edges_In. auto. }
    destruct K as [K1 K2 K3 K4 K5 K6 K7 K8 K9 K10 K11]. constructor; auto.
    - intros e c rw H R. apply (K8 e c rw); auto.
    - intros e c1 c2 rw H1 H2 R. apply (K11 e c1 c2 rw); auto.
  Qed.

  (** *** The first phase: the ghost state of the chain argument *)
  Definition Vz (st : xst) (e : edge) : Z := match xV st e with Some z => z | None => 0%Z end.
  Definition isadd (X : edge -> Prop) (st : xst) (q : nat) : Prop := added st q \/ exists x, X x /\ e_src x = q.
  Notation chain_ge st cr bt := (chain_ge P E0 mx (xES st) (Vz st) cr bt).
  Record ghost (X C : edge -> Prop) (st : xst) (cr : edge -> nat) (bt : nat -> nat) : Prop := {
    g_fin : forall e, In e (xES st) -> xV st e = Some (Vz st e) /\ deriv e (Vz st e);
    g_cr : forall e, In e (xES st) -> bt (e_dst e) <= cr e <= fw_rounds st;
    g_btk : forall q, bt q <= fw_rounds st;
    g_dst : forall e, In e (xES st) -> e_dst e < n -> isadd X st (e_dst e);
    g_src : forall e, In e (xES st) -> isadd X st (e_src e) -> bt (e_src e) <= S (cr e);
    g_bt0 : forall q, n <= q \/ aut_final (fa_aut A0) q -> bt q = 0;
    g_ch : forall e, In e (xES st) -> unb e \/ chain_ge st cr bt e (Vz st e) (cr e) (fw_rounds st);
    g_ws : forall e, In e (fw_ws st) -> In e (xES st) /\ (unb e \/ chain_ge st cr bt e (Vz st e) (fw_rounds st - 1) (fw_rounds st));
    g_next : forall e, In e (fw_next st) -> In e (xES st) /\ (unb e \/ chain_ge st cr bt e (Vz st e) (fw_rounds st) (fw_rounds st));
    g_new : forall e, In e (xES st) -> C e \/ (In e (fw_ws st) /\ fw_rounds st <= S (cr e)) \/ (In e (fw_next st) /\ fw_rounds st <= cr e) \/ (X e /\ fw_rounds st <= S (cr e));
    g_lvl : forall e k, In e (xES st) -> cr e = S k -> exists e', In e' (xES st) /\ cr e' = k;
    g_two : exists e1 e2, In e1 (xES st) /\ In e2 (xES st) /\ e1 <> e2 /\ cr e1 = 0 /\ cr e2 = 0;
    g_lim : fw_limit st = x_count (fw_d st);
    g_done : fw_done st = false }.

  (** What is known about the edge being processed. *)
  Record current (t : edge) (wt : Z) (st : xst) (cr : edge -> nat) (bt : nat -> nat) : Prop := {
    cu_in : In t (xES st);
    cu_der : deriv t wt;
    cu_rounds : 1 <= fw_rounds st;
    cu_ch : unb t \/ chain_ge st cr bt t wt (fw_rounds st - 1) (fw_rounds st);
    cu_bt : nth_error (x_added (fw_d st)) (e_src t) = Some false -> bt (e_src t) = fw_rounds st }.
  Definition I1 (C : edge -> Prop) (t : edge) (wt : Z) (st : xst) : Prop :=
    xbase st /\ clo (eq t) C st /\ exists cr bt, ghost (eq t) C st cr bt /\ current t wt st cr bt.

  (** One update. *)
  Lemma ghost_change : forall C t wt st cr bt e vn st', xbase st -> clo (eq t) C st -> ghost (eq t) C st cr bt -> current t wt st cr bt ->
    just P false t (Some wt) st false e (Some vn) -> e_src e < n -> (In e (xES st) -> f_less mx (Some vn) (xV st e) = true) -> changed P A0 st e (Some vn) st' ->
    ghost (eq t) C st' (cr1 (xES st) cr (fw_rounds st) e) bt /\ current t wt st' (cr1 (xES st) cr (fw_rounds st) e) bt.
  Proof.
    intros C t wt st cr bt e vn st' B K G CU J Hs Hl CG.
    set (k := fw_rounds st) in *. set (cr' := cr1 (xES st) cr k e).
    assert (He : In e (xES st) -> bt (e_dst e) <= cr e <= k /\ (sg vn < sg (Vz st e))%Z /\ deriv e (Vz st e)).
    { intros Hi. destruct (g_fin _ _ _ _ _ G e Hi) as [F1 F2]. ands; auto; [apply (g_cr _ _ _ _ _ G); auto..|]. specialize (Hl Hi). rewrite F1 in Hl. apply f_less_sg in Hl. auto. }
    assert (Hf : ~ In e (xES st) -> bt (e_dst e) <= k) by (intros _; apply (g_btk _ _ _ _ _ G)).
    assert (EES : xES st' = ES1 (xES st) e) by (rewrite (cg_ES _ _ _ _ _ _ CG); reflexivity).
    assert (EV : forall x, Vz st' x = V1 (Vz st) e vn x).
    { intros x. unfold Vz, V1. rewrite (cg_V _ _ _ _ _ _ CG). destruct (edge_eq_dec x e); auto. }
    assert (OLD := ev_old P E0 mx (xES st) (Vz st) cr bt k e vn He Hf). assert (NEW := ev_new P E0 mx (xES st) (Vz st) cr bt k e vn He Hf).
    fold cr' in OLD, NEW. rewrite <- EES in OLD, NEW. destruct NEW as (N1 & N2 & N3).
    assert (OLD' : forall x, In x (xES st) -> In x (xES st') /\ cr' x = cr x /\ (sg (Vz st' x) <= sg (Vz st x))%Z) by (intros x Hx; rewrite EV; auto).
    assert (INV : forall x, In x (xES st') -> x = e \/ In x (xES st)).
    { intros x Hx. rewrite EES in Hx. unfold ES1 in Hx. destruct (in_dec edge_eq_dec e (xES st)); auto. destruct Hx as [<-|Hx]; auto. }
    assert (R' : fw_rounds st' = k) by apply (cg_rounds _ _ _ _ _ _ CG).
    assert (AD : forall q, added st' q <-> added st q) by (intros q; unfold added; rewrite (cg_added _ _ _ _ _ _ CG); tauto).
    assert (IA : forall q, isadd (eq t) st' q <-> isadd (eq t) st q) by (intros q; unfold isadd; rewrite AD; tauto).
    assert (VE : Vz st' e = vn) by (rewrite EV; auto).
    assert (VO : forall x, x <> e -> Vz st' x = Vz st x) by (intros x Hx; rewrite EV; unfold V1; destruct (edge_eq_dec x e); congruence).
    assert (NC : ~ In e (xES st) -> cr' e = k).
    { intros H. unfold cr', cr1. destruct (in_dec edge_eq_dec e (xES st)); [contradiction|]. destruct (edge_eq_dec e e); congruence. }
    assert (MON : forall z v a, chain_ge st cr bt z v a k -> chain_ge st' cr' bt z v a k) by (intros z v a Hc; eapply chain_ge_mono; [exact OLD'|auto|apply Nat.le_refl|exact Hc]).
    (* facts about the premises *)
    assert (PR : exists d, deriv e vn /\ e_dst e = d /\ (d < n -> isadd (eq t) st d) /\
      (unb e \/ exists L b, chain P E0 mx (xES st') (V1 (Vz st) e vn) cr' bt e vn k L b) /\
      (~ In e (xES st) -> forall j, k = S j -> exists e', In e' (xES st) /\ cr e' = j)).
    { exists (e_dst e). assert (Rk := cu_rounds _ _ _ _ _ CU). assert (Hti := cu_in _ _ _ _ _ CU).
      assert (LV : forall x, In x (xES st) -> C x \/ (forall j, k = S j -> exists e', In e' (xES st) /\ cr e' = j)).
      { intros x Hx. assert (Gc := g_cr _ _ _ _ _ G x Hx). fold k in Gc.
        assert (Q : C x \/ k <= S (cr x)) by (destruct (g_new _ _ _ _ _ G x Hx) as [H|[[_ H]|[[_ H]|[_ H]]]]; fold k in H; [left; auto|right; lia..]).
        destruct Q as [Q|Q]; auto. right. intros j Ej. destruct (Nat.eq_dec (cr x) j) as [Ec|Ec]; [exists x; auto|]. apply (g_lvl _ _ _ _ _ G x); auto. lia. }
      rewrite EES. unfold cr'. remember (Some vn) as ov eqn:Eov. remember false as b' eqn:Eb in J at 2.
      destruct J as [e rw R Ed Had|e rw R|e c2 rw R Hi2|e c1 rw R Hi1]; cbn [f_add] in Eov.
      - (* POP *)
        injection Eov as <-. assert (Bt := cu_bt _ _ _ _ _ CU Had). fold k in Bt. ands; auto.
        + apply Rp_deriv; auto.
        + intros _. right. exists t. auto.
        + right. exists [e], k. eapply ev_pop; eauto. rewrite Ed. auto.
        + intros Hn. destruct (LV t Hti) as [HC|H]; auto. exfalso. assert (Q := cl_add _ _ _ K t HC). unfold added in Q. rewrite Q in Had; [discriminate|].
          rewrite <- Ed. eapply Rp_dst_lt; eauto.
      - injection Eov as Ev. assert (Ed := R1_dst _ _ _ _ R). assert (Dt := cu_der _ _ _ _ _ CU). ands; auto.
        + replace vn with (wt + rw)%Z by lia. eapply R1_deriv; eauto.
        + rewrite Ed. apply (g_dst _ _ _ _ _ G); auto.
        + destruct (cu_ch _ _ _ _ _ CU) as [U|(r & L & b0 & Q1 & Q2)]; [left; eapply ctx_unb; [eapply R1_ctx; eauto|auto]|]. fold k in Q1.
          eapply ev_1; eauto; lia.
        + intros Hn. destruct (LV t Hti) as [HC|H]; auto. exfalso. apply Hn. eapply (cl_1a _ _ _ K); eauto.
      - destruct (g_fin _ _ _ _ _ G c2 Hi2) as [F1 F2]. rewrite F1 in Eov. injection Eov as Ev. destruct (R2_dst _ _ _ _ _ R) as [Ed Es]. assert (Dt := cu_der _ _ _ _ _ CU). ands; auto.
        + rewrite <- Ev. eapply R2_deriv; eauto.
        + rewrite Ed. apply (g_dst _ _ _ _ _ G); auto.
        + destruct (cu_ch _ _ _ _ _ CU) as [U|(r & L & b0 & Q1 & Q2)]; [left; eapply ctx_unb; [eapply R2_ctx1; eauto|auto]|]. fold k in Q1.
          destruct (g_ch _ _ _ _ _ G c2 Hi2) as [U|(r2 & L2 & b2 & Q3 & Q4)]; [left; eapply ctx_unb; [eapply R2_ctx2; [exact R|exact Dt]|auto]|].
          eapply (ev_2a P E0 mx (xES st) (Vz st) cr bt k e vn He Hf Rk t c2 wt (Vz st c2)); eauto; try lia.
          destruct (Nat.le_gt_cases n (e_src c2)) as [Ln|Ln]; [rewrite (g_bt0 _ _ _ _ _ G) by auto; lia|].
          assert (S2 : bt (e_src c2) <= S (cr c2)); [|lia]. apply (g_src _ _ _ _ _ G); auto. rewrite <- Es. apply (g_dst _ _ _ _ _ G); auto. rewrite Es; auto.
        + intros Hn. destruct (LV t Hti) as [HC|H]; auto. destruct (LV c2 Hi2) as [HC2|H]; auto. exfalso. apply Hn. apply (cl_2a _ _ _ K e t c2 rw); auto.
      - destruct (g_fin _ _ _ _ _ G c1 Hi1) as [F1 F2]. rewrite F1 in Eov. injection Eov as Ev. destruct (R2_dst _ _ _ _ _ R) as [Ed Es]. assert (Dt := cu_der _ _ _ _ _ CU). ands; auto.
        + rewrite <- Ev. eapply R2_deriv; eauto.
        + rewrite Ed. apply (g_dst _ _ _ _ _ G); auto.
        + destruct (cu_ch _ _ _ _ _ CU) as [U|(r & L & b0 & Q1 & Q2)]; [left; eapply ctx_unb; [eapply R2_ctx2; [exact R|exact F2]|auto]|]. fold k in Q1.
          eapply (ev_2b P E0 mx (xES st) (Vz st) cr bt k e vn He Hf Rk c1 t (Vz st c1) wt); eauto; lia.
        + intros Hn. destruct (LV t Hti) as [HC|H]; auto. destruct (LV c1 Hi1) as [HC2|H]; auto. exfalso. apply Hn. apply (cl_2a _ _ _ K e c1 t rw); auto. }
    destruct PR as (d & PD & Pd & Pdn & Pch & Plv). subst d.
    assert (ECH : forall a, a <= k -> unb e \/ chain_ge st' cr' bt e (Vz st' e) a k).
    { intros a La. destruct Pch as [U|(L & b & Q)]; auto. right. exists k, L, b. split; [lia|]. rewrite VE. eapply chain_mono; [|auto|exact Q]. intros x Hx. ands; auto. rewrite EV. lia. }
    split.
    - constructor; rewrite ?R'.
      + intros x Hx. split.
        * rewrite (cg_V _ _ _ _ _ _ CG). destruct (edge_eq_dec x e) as [->|Nx]; [rewrite VE; auto|]. rewrite VO by auto. apply (g_fin _ _ _ _ _ G). destruct (INV x Hx); [contradiction|auto].
        * destruct (INV x Hx) as [->|Hx']; [rewrite VE; auto|]. destruct (edge_eq_dec x e) as [->|Nx]; [rewrite VE; auto|]. rewrite VO by auto. apply (g_fin _ _ _ _ _ G); auto.
      + intros x Hx. destruct (INV x Hx) as [->|Hx']; auto. destruct (OLD x Hx') as (_ & -> & _). apply (g_cr _ _ _ _ _ G); auto.
      + apply (g_btk _ _ _ _ _ G).
      + intros x Hx Hd. apply IA. destruct (INV x Hx) as [->|Hx']; auto. apply (g_dst _ _ _ _ _ G); auto.
      + intros x Hx Ha. apply IA in Ha. destruct (in_dec edge_eq_dec x (xES st)) as [Hi|Hi].
        * destruct (OLD x Hi) as (_ & -> & _). apply (g_src _ _ _ _ _ G); auto.
        * destruct (INV x Hx) as [->|]; [|contradiction]. rewrite NC by auto. assert (Q := g_btk _ _ _ _ _ G (e_src e)). fold k in Q. lia.
      + apply (g_bt0 _ _ _ _ _ G).
      + intros x Hx. destruct (edge_eq_dec x e) as [->|Nx]; [apply ECH; lia|]. destruct (INV x Hx) as [?|Hi]; [contradiction|]. rewrite VO by auto. destruct (OLD x Hi) as (_ & -> & _).
        destruct (g_ch _ _ _ _ _ G x Hi) as [U|Q]; auto.
      + intros x Hx. rewrite (cg_ws _ _ _ _ _ _ CG) in Hx. destruct (g_ws _ _ _ _ _ G x Hx) as [Q1 Q2]. split; [apply OLD; auto|].
        destruct (edge_eq_dec x e) as [->|Nx]; [apply ECH; lia|]. rewrite VO by auto. destruct Q2 as [U|Q]; auto.
      + intros x Hx. rewrite (cg_next _ _ _ _ _ _ CG) in Hx. apply in_app_or in Hx. destruct (edge_eq_dec x e) as [->|Nx]; [split; auto|]. destruct Hx as [Hx|[Hx|[]]]; [|congruence].
        destruct (g_next _ _ _ _ _ G x Hx) as [Q1 Q2]. split; [apply OLD; auto|]. rewrite VO by auto. destruct Q2 as [U|Q]; auto.
      + intros x Hx. rewrite (cg_ws _ _ _ _ _ _ CG), (cg_next _ _ _ _ _ _ CG). destruct (in_dec edge_eq_dec x (xES st)) as [Hi|Hi].
        * destruct (OLD x Hi) as (_ & -> & _). destruct (g_new _ _ _ _ _ G x Hi) as [H|[H|[[H1 H2]|H]]]; auto. right; right; left. split; auto. apply in_or_app; auto.
        * destruct (INV x Hx) as [->|]; [|contradiction]. right; right; left. rewrite NC by auto. split; auto. apply in_or_app. right; left; auto.
      + intros x j Hx Ej. destruct (in_dec edge_eq_dec x (xES st)) as [Hi|Hi].
        * destruct (OLD x Hi) as (_ & E1 & _). rewrite E1 in Ej. destruct (g_lvl _ _ _ _ _ G x j Hi Ej) as (y & Y1 & Y2). exists y. destruct (OLD y Y1) as (Y3 & -> & _). auto.
        * destruct (INV x Hx) as [->|]; [|contradiction]. rewrite NC in Ej by auto. destruct (Plv Hi j Ej) as (y & Y1 & Y2). exists y. destruct (OLD y Y1) as (Y3 & -> & _). auto.
      + destruct (g_two _ _ _ _ _ G) as (a & b & T1 & T2 & T3 & T4 & T5). exists a, b. destruct (OLD a T1) as (U1 & -> & _). destruct (OLD b T2) as (U2 & -> & _). auto.
      + apply (cg_limit _ _ _ _ _ _ CG). apply (g_lim _ _ _ _ _ G).
      + rewrite (cg_done _ _ _ _ _ _ CG). apply (g_done _ _ _ _ _ G).
    - constructor; rewrite ?R'.
      + apply OLD. apply (cu_in _ _ _ _ _ CU).
      + apply (cu_der _ _ _ _ _ CU).
      + apply (cu_rounds _ _ _ _ _ CU).
      + destruct (cu_ch _ _ _ _ _ CU) as [U|Q]; auto.
      + rewrite (cg_added _ _ _ _ _ _ CG). apply (cu_bt _ _ _ _ _ CU).
  Qed.
End FixPre2.
