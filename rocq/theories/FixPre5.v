(** The fixed-point saturation of pre*: the second phase, where values become bottom. *)
From Coq Require Import List Arith Lia Bool ZArith Permutation.
From Verif Require Import Base BaseFacts Spec SpecFacts PdaModel PdaProof AutModel AutProof PreStarModel PreStarProof PreStarLang
  PostStarModel SolverModel ProductModel ProductProof UtilModel UtilProof ShortSpec ShortModel PostShortProof PreShortModel PreShortProof FixModel FixChain FixPre1 FixPre2 FixPre3 FixPre4.
Import ListNotations.

Definition isnone (st : fwst xd edge) (e : edge) : bool := match xV st e with None => true | _ => false end.
Definition nn (st : fwst xd edge) : nat := length (filter (isnone st) (xES st)).

Lemma filter_add : forall (X : Type) (f g : X -> bool) (e : X) l, NoDup l -> In e l -> f e = false -> g e = true -> (forall x, x <> e -> g x = f x) -> length (filter g l) = S (length (filter f l)).
Proof.
  intros X f g e l Nd Hi Hf Hg Ho. induction l as [|a l IH]; [destruct Hi|]. inversion Nd as [|? ? Na Nl]; subst. cbn. destruct Hi as [->|Hi].
  - rewrite Hf, Hg. cbn. f_equal. assert (Q : forall l', ~ In e l' -> filter g l' = filter f l').
    { induction l' as [|b l' IH']; intros H; cbn; auto. rewrite (Ho b) by (intros ->; apply H; left; auto). rewrite IH'; auto. intros K. apply H. right; auto. }
    rewrite Q; auto.
  - assert (a <> e) by (intros ->; contradiction). rewrite (Ho a) by auto. destruct (f a); cbn; rewrite IH; auto.
Qed.
Lemma filter_le : forall (X : Type) (f : X -> bool) l, length (filter f l) <= length l.
Proof. intros X f l. induction l as [|a l IH]; cbn; auto. destruct (f a); cbn; lia. Qed.
Lemma filter_full : forall (X : Type) (f : X -> bool) l, length l <= length (filter f l) -> forall x, In x l -> f x = true.
Proof.
  intros X f l. induction l as [|a l IH]; intros H x Hx; [destruct Hx|]. cbn in H. assert (K := filter_le _ f l). destruct (f a) eqn:Fa; cbn in H.
  - destruct Hx as [<-|Hx]; auto. apply IH; auto. lia.
  - lia.
Qed.

Section FixPre5.
  Variable P : pda.
  Hypothesis WP : wf_pda P.
  Hypothesis LK : lookup_ok P.
  Variable mx : bool.
  Variable A0 : faut.
  Let N := a_size (fa_aut A0).
  Let n := pd_n P.
  Let E0 := map fst (a_edges (fa_aut A0)).
  Hypothesis HnN : n <= N.
  Hypothesis HO : wf_ord (fa_aut A0).
  Hypothesis NI : no_in P (fa_aut A0).
  Notation in_rng := (in_range P (fa_aut A0)).
  Notation xst := (fwst xd edge).
  Notation fle := (fle mx).
  Notation cov := (cov mx).
  Notation xbase := (xbase P A0).
  Notation sle := (sle mx).
  Notation deriv := (kderiv P E0).
  Notation unb := (unb P E0 mx).
  Notation clo := (clo P mx A0).
  Notation ghost := (ghost P mx A0).
  Notation fin_step := (fin_step P).
  Notation fin := (aut_final (fa_aut A0)).
  Notation fw_is_done := (fw_is_done xd edge).
  Notation fw_step b := (fw_step xd edge sort_edges (x_step_with P mx) b).
  Notation fw_go b := (fw_go xd edge (x_step_with P mx) b).

  (** *** The state at the end of the first phase *)
  Section Snapshot.
    Variable ES : list edge.
    Variable Vb : edge -> Z.
    Variable cr : edge -> nat.
    Variable bt : nat -> nat.
    Let M := length ES.
    Hypothesis S_M : 2 <= M.
    Hypothesis S_der : forall e, In e ES -> deriv e (Vb e).
    Hypothesis S_cr : forall e, In e ES -> bt (e_dst e) <= cr e <= M.
    Hypothesis S_src : forall e, In e ES -> bt (e_src e) <= S (cr e).
    Hypothesis S_fin : forall q, fin q -> bt q = 0.
    Hypothesis S_ch : forall e, In e ES -> unb e \/ chain_ge P E0 mx ES Vb cr bt e (Vb e) (cr e) M.

    (** Every accepting path through the edge has arbitrarily good weights. *)
    Definition PU (e : edge) : Prop := forall l f, epath ES (e_dst e) l f -> fin f -> exists x, In x (e :: l) /\ unb x.
    (** Edges changed near the end of the first phase. *)
    Definition hot (e : edge) : Prop := unb e \/ chain_ge P E0 mx ES Vb cr bt e (Vb e) (M - 1) M.

    Lemma chain_PU : forall e vn, In e ES -> (unb e \/ exists L b, chain P E0 mx (ES1 ES e) (V1 Vb e vn) (cr1 ES cr M e) bt e vn M L b) -> PU e.
    Proof.
      intros e vn He [U|(L & b & Ch)] l f Hp Hf; [exists e; split; auto; left; auto|].
      assert (E1 : ES1 ES e = ES) by (unfold ES1; destruct (in_dec edge_eq_dec e ES); [auto|contradiction]).
      assert (E2 : forall x, cr1 ES cr M e x = cr x) by (intros x; unfold cr1; destruct (in_dec edge_eq_dec e ES); [auto|contradiction]).
      destruct (path_unb P E0 mx ES Vb cr bt fin S_fin S_src) with (q := e_dst e) (l := l) (f := f) (M := L) (b := b) as (x & X1 & X2); auto.
      - intros x Hx. destruct (S_ch x Hx) as [U|(r & L' & b' & K1 & K2)]; auto. right. exists r, L', b'. split; auto. lia.
      - apply (ch_nd _ _ _ _ _ _ _ _ _ _ _ _ Ch).
      - intros x Hx. destruct (ch_base _ _ _ _ _ _ _ _ _ _ _ _ Ch x Hx) as [B1 B2]. rewrite E2 in B1. rewrite E1 in B2. auto.
      - assert (Q := ch_len _ _ _ _ _ _ _ _ _ _ _ _ Ch). fold M. lia.
      - apply (ch_bt _ _ _ _ _ _ _ _ _ _ _ _ Ch).
      - exists x. split; auto. right; auto.
    Qed.
    (** A bottom premise. *)
    Lemma PU_1 : forall e c rw, R1 P e c rw -> PU c -> PU e.
    Proof.
      intros e c rw R H l f Hp Hf. rewrite (R1_dst _ _ _ _ R) in Hp. destruct (H l f Hp Hf) as (x & [<-|Hx] & U); [|exists x; split; auto; right; auto].
      exists e. split; [left; auto|]. eapply ctx_unb; [eapply R1_ctx; eauto|auto].
    Qed.
    Lemma PU_2a : forall e c1 c2 rw, R2 P e c1 c2 rw -> In c2 ES -> PU c1 -> In c1 ES -> PU e.
    Proof.
      intros e c1 c2 rw R H2 H H1 l f Hp Hf. destruct (R2_dst _ _ _ _ _ R) as [Ed Es]. rewrite Ed in Hp.
      destruct (H (c2 :: l) f) as (x & [<-|[<-|Hx]] & U); auto; [rewrite Es; constructor; auto|..].
      - exists e. split; [left; auto|]. eapply ctx_unb; [eapply R2_ctx1; eauto|auto].
      - exists e. split; [left; auto|]. eapply ctx_unb; [eapply R2_ctx2; eauto|auto].
      - exists x. split; auto. right; auto.
    Qed.
    Lemma PU_2b : forall e c1 c2 rw, R2 P e c1 c2 rw -> In c1 ES -> PU c2 -> PU e.
    Proof.
      intros e c1 c2 rw R H1 H l f Hp Hf. destruct (R2_dst _ _ _ _ _ R) as [Ed Es]. rewrite Ed in Hp.
      destruct (H l f) as (x & [<-|Hx] & U); auto.
      - exists e. split; [left; auto|]. eapply ctx_unb; [eapply R2_ctx2; eauto|auto].
      - exists x. split; auto. right; auto.
    Qed.

    Definition vals (st : xst) : Prop := forall e, In e ES -> xV st e = Some (Vb e) \/ (xV st e = None /\ PU e).
    Definition heat (st : xst) (e : edge) : Prop := In e ES /\ (xV st e = None \/ hot e).
    Definition All (e : edge) : Prop := In e ES.
    (** The invariant without the counting of bottoms. *)
    Record inv2 (X : edge -> Prop) (st : xst) : Prop := {
      i2_base : xbase st;
      i2_ES : xES st = ES;
      i2_clo : clo X All st;
      i2_vals : vals st;
      i2_ws : forall e, In e (fw_ws st) -> heat st e;
      i2_next : forall e, In e (fw_next st) -> heat st e;
      i2_lim : fw_limit st = M;
      i2_count : x_count (fw_d st) = M;
      i2_done : fw_done st = false }.
    (** [m] edges became bottom in the round before. *)
    Definition cnt (m : nat) (st : xst) : Prop :=
      (fw_rounds st = 1 -> length (fw_next st) <= nn st) /\ (2 <= fw_rounds st -> fw_rounds st - 2 + m + length (fw_next st) <= nn st).
    Definition Inv2 (st : xst) : Prop := inv2 none st /\ fw_rounds st <= M /\ exists m, cnt m st /\ S (length (fw_ws st)) <= m.
    Definition Fin2 (st : xst) : Prop := xbase st /\ xES st = ES /\ clo none All st /\ vals st /\ ((fw_ws st = [] /\ fw_next st = []) \/ forall e, In e ES -> xV st e = None).

    Lemma Inv2_start : forall st, Inv2 st -> start xd edge Inv2 Fin2 st.
    Proof.
      intros st (I & L & m & [C1 C2] & Lm). unfold start. destruct (fw_is_done st) eqn:D; [left|right; split; auto; split; auto; split; auto; exists m; split; auto; split; auto].
      split; auto. destruct I as [I1 I2 I3 I4 I5 I6 I7 I8 I9]. unfold Fin2. ands; auto. unfold FixModel.fw_is_done in D. rewrite I9, I7 in D. cbn in D. apply Nat.eqb_eq in D.
      specialize (C2 ltac:(lia)). destruct (fw_ws st) as [|a l], (fw_next st) as [|a' l']; auto; right; cbn in Lm, C2;
        (assert (Q : length (xES st) <= nn st) by (rewrite I2; fold M; lia)); intros e He;
        (assert (K := filter_full _ (isnone st) (xES st) Q e)); rewrite I2 in K; specialize (K He); unfold isnone in K; destruct (xV st e); [discriminate|auto|discriminate|auto|discriminate|auto].
    Qed.

    (** The marking of one edge. *)
    Lemma mark : forall t wt st b' e w st', inv2 (eq t) st -> In t ES -> (wt = None -> PU t) -> (wt <> None -> wt = Some (Vb t) /\ hot t) ->
      just P true t wt st b' e w -> (In e (xES st) -> f_less mx w (xV st e) = true) -> changed P A0 st e (if b' then None else w) st' ->
      inv2 (eq t) st' /\ length (fw_next st') = S (length (fw_next st)) /\ nn st' = S (nn st) /\ fw_rounds st' = fw_rounds st /\ fw_ws st' = fw_ws st.
    Proof.
      intros t wt st b' e w st' I Ht HN HF J Hl CG. destruct I as [I1 I2 I3 I4 I5 I6 I7 I8 I9].
      assert (AD : forall x, In x ES -> nth_error (x_added (fw_d st)) (e_src x) <> Some false).
      { intros x Hx Ha. assert (Q := cl_add _ _ _ _ _ _ I3 x Hx). unfold added in Q. rewrite Q in Ha; [discriminate|]. apply nth_error_Some2 in Ha. rewrite (xb_added _ _ _ I1) in Ha. exact Ha. }
      assert (FIN : forall x, In x ES -> xV st x <> None -> xV st x = Some (Vb x)) by (intros x Hx Hn; destruct (I4 x Hx) as [H|[H _]]; auto; contradiction).
      assert (PUn : forall x, In x ES -> xV st x = None -> PU x) by (intros x Hx Hn; destruct (I4 x Hx) as [H|[_ H]]; auto; congruence).
      assert (KEY : b' = true /\ In e ES /\ (forall vn, w = Some vn -> (sg mx vn < sg mx (Vb e))%Z -> PU e) /\ (w = None -> PU e)).
      { assert (Hev : forall vn, In e ES -> (sg mx vn < sg mx (Vb e))%Z -> In e ES -> bt (e_dst e) <= cr e <= M /\ (sg mx vn < sg mx (Vb e))%Z /\ deriv e (Vb e)) by (intros vn Hi Hs _; ands; auto; apply S_cr; auto).
        assert (Hfv : In e ES -> ~ In e ES -> bt (e_dst e) <= M) by (intros; contradiction).
        remember true as bb eqn:Eb in J. destruct J as [e rw R Ed Had|e rw R|e c2 rw R Hi2|e c1 rw R Hi1]; try subst bb.
        - destruct (AD t Ht Had).
        - assert (He : In e ES) by (rewrite <- I2; apply (cl_1a _ _ _ _ _ _ I3 e t rw); auto). ands; auto.
          + intros vn Ew Hs. destruct wt as [w0|]; [|discriminate]. destruct (HF ltac:(discriminate)) as [Ewt [U|(r & L & b & K1 & K2)]].
            * intros l f Hp Hf. exists e. split; [left; auto|]. eapply ctx_unb; [eapply R1_ctx; eauto|auto].
            * injection Ewt as ->. cbn [f_add] in Ew. injection Ew as Ew. apply (chain_PU e vn He). eapply (ev_1 P E0 mx ES Vb cr bt M e vn (Hev vn He Hs) (Hfv He)) with (w := Vb t); [lia|exact R|lia|exact K2|lia|lia].
          + intros Ew. destruct wt as [w0|]; [discriminate|]. eapply PU_1; eauto.
        - rewrite I2 in Hi2. assert (He : In e ES) by (rewrite <- I2; apply (cl_2a _ _ _ _ _ _ I3 e t c2 rw); auto). destruct (R2_dst _ _ _ _ _ R) as [Ed Es]. ands; auto.
          + intros vn Ew Hs. destruct wt as [w0|]; [|discriminate]. destruct (HF ltac:(discriminate)) as [Ewt HH]. injection Ewt as ->.
            destruct (xV st c2) as [w2|] eqn:E2; [|discriminate]. assert (Q := FIN c2 Hi2). rewrite E2 in Q. specialize (Q ltac:(discriminate)). injection Q as ->. cbn [f_add] in Ew. injection Ew as Ew.
            destruct HH as [U|(r & L & b & K1 & K2)]; [intros l f Hp Hf; exists e; split; [left; auto|]; eapply ctx_unb; [eapply R2_ctx1; [exact R|apply S_der; auto]|auto]|].
            destruct (S_ch c2 Hi2) as [U|(r2 & L2 & b2 & K3 & K4)]; [intros l f Hp Hf; exists e; split; [left; auto|]; eapply ctx_unb; [eapply R2_ctx2; [exact R|apply S_der; exact Ht]|auto]|].
            apply (chain_PU e vn He). assert (Sc := S_src c2 Hi2).
            eapply (ev_2a P E0 mx ES Vb cr bt M e vn (Hev vn He Hs) (Hfv He) ltac:(lia) t c2 (Vb t) (Vb c2) rw); eauto; lia.
          + intros Ew. destruct wt as [w0|]; [|eapply PU_2a; eauto]. destruct (xV st c2) as [w2|] eqn:E2; [discriminate|]. eapply PU_2b; [exact R|auto|]. apply PUn; auto.
        - rewrite I2 in Hi1. assert (He : In e ES) by (rewrite <- I2; apply (cl_2a _ _ _ _ _ _ I3 e c1 t rw); auto). destruct (R2_dst _ _ _ _ _ R) as [Ed Es]. ands; auto.
          + intros vn Ew Hs. destruct (xV st c1) as [w1|] eqn:E1; [|discriminate]. assert (Q := FIN c1 Hi1). rewrite E1 in Q. specialize (Q ltac:(discriminate)). injection Q as ->.
            destruct wt as [w0|]; [|discriminate]. destruct (HF ltac:(discriminate)) as [Ewt HH]. injection Ewt as ->. cbn [f_add] in Ew. injection Ew as Ew.
            destruct HH as [U|(r & L & b & K1 & K2)]; [intros l f Hp Hf; exists e; split; [left; auto|]; eapply ctx_unb; [eapply R2_ctx2; [exact R|apply S_der; exact Hi1]|auto]|].
            apply (chain_PU e vn He). eapply (ev_2b P E0 mx ES Vb cr bt M e vn (Hev vn He Hs) (Hfv He) ltac:(lia) c1 t (Vb c1) (Vb t) rw); eauto; lia.
          + intros Ew. destruct wt as [w0|]; [|eapply PU_2b; eauto]. destruct (xV st c1) as [w1|] eqn:E1; [discriminate|]. eapply PU_2a; eauto. }
      destruct KEY as (-> & He & K1 & K2). rewrite I2 in Hl. specialize (Hl He).
      assert (Vold : xV st e = Some (Vb e)) by (apply FIN; auto; intros Hn; rewrite Hn in Hl; destruct w; discriminate).
      assert (PUe : PU e). { destruct w as [vn|]; auto. apply (K1 vn); auto. rewrite Vold in Hl. apply f_less_sg in Hl. exact Hl. }
      assert (E' : xES st' = ES) by (rewrite (cg_ES _ _ _ _ _ _ CG), I2; destruct (in_dec edge_eq_dec e ES); [auto|contradiction]).
      assert (HT : forall x, heat st x -> heat st' x).
      { intros x [H1 H2]. split; auto. rewrite (cg_V _ _ _ _ _ _ CG). destruct (edge_eq_dec x e); auto. }
      split; [|ands].
      - constructor; auto.
        + apply CG.
        + eapply clo_sle; [|exact I3]. eapply changed_sle; eauto. intros _. apply fle_None.
        + intros x Hx. rewrite (cg_V _ _ _ _ _ _ CG). destruct (edge_eq_dec x e) as [->|]; auto.
        + rewrite (cg_ws _ _ _ _ _ _ CG). auto.
        + rewrite (cg_next _ _ _ _ _ _ CG). intros x Hx. apply in_app_or in Hx. destruct Hx as [Hx|[<-|[]]]; auto. split; auto. left. rewrite (cg_V _ _ _ _ _ _ CG). destruct (edge_eq_dec e e); congruence.
        + rewrite (cg_limit _ _ _ _ _ _ CG) by congruence. rewrite (xb_count _ _ _ (cg_base _ _ _ _ _ _ CG)), E'. auto.
        + rewrite (xb_count _ _ _ (cg_base _ _ _ _ _ _ CG)), E'. auto.
        + rewrite (cg_done _ _ _ _ _ _ CG). auto.
      - rewrite (cg_next _ _ _ _ _ _ CG), app_length. cbn. lia.
      - unfold nn. rewrite E', I2. apply (filter_add _ _ _ e); auto.
        + rewrite <- I2. apply (xb_nd _ _ _ I1).
        + unfold isnone. rewrite Vold. auto.
        + unfold isnone. rewrite (cg_V _ _ _ _ _ _ CG). destruct (edge_eq_dec e e); congruence.
        + intros x Hx. unfold isnone. rewrite (cg_V _ _ _ _ _ _ CG). destruct (edge_eq_dec x e); congruence.
      - apply (cg_rounds _ _ _ _ _ _ CG).
      - apply (cg_ws _ _ _ _ _ _ CG).
    Qed.

    Lemma go2 : forall st t ws m, fw_ws st = t :: ws -> inv2 none st -> fw_rounds st <= M -> cnt m st -> length (fw_ws st) <= m ->
      exists st', fw_go true st = Some st' /\ Inv2 st' /\ fw_rounds st' = fw_rounds st /\ length (fw_ws st') < length (fw_ws st).
    Proof.
      intros st t ws m Ew I0 L C0 Lm. set (wt := xV st t).
      assert (Ht : heat st t) by (apply (i2_ws _ _ I0); rewrite Ew; left; auto). destruct Ht as [Ht Hh].
      set (I := fun s => inv2 (eq t) s /\ cnt m s /\ fw_rounds s = fw_rounds st /\ fw_ws s = ws).
      assert (IP : I (popw st ws)).
      { destruct I0 as [I1 I2 I3 I4 I5 I6 I7 I8 I9]. split; [|ands; auto]. constructor; auto.
        - destruct I1; constructor; auto.
        - apply clo_pop; auto.
        - intros e He. apply I5. rewrite Ew. right; auto. }
      assert (HN : wt = None -> PU t) by (intros E; destruct (i2_vals _ _ I0 t Ht) as [H|[_ H]]; auto; unfold wt in E; congruence).
      assert (HF : wt <> None -> wt = Some (Vb t) /\ hot t).
      { intros E. unfold wt in *. destruct (i2_vals _ _ I0 t Ht) as [H|[H _]]; [|contradiction]. split; auto. destruct Hh; auto. contradiction. }
      assert (TI : forall s, I s -> In t (xES s)) by (intros s (Hs & _); rewrite (i2_ES _ _ Hs); auto).
      destruct (step_rule P WP mx A0 HnN true t wt I) with (st := popw st ws) as (st2 & S1 & S2 & S3 & S4 & S5); auto.
      - intros s (Hs & _). apply Hs.
      - apply (xb_range _ _ _ (i2_base _ _ I0)). rewrite (i2_ES _ _ I0); auto.
      - intros s e w (Hs & _) J. remember true as b' eqn:Eb in J at 2. destruct J as [e rw R Ed Had|e rw R|e c2 rw R Hi2|e c1 rw R Hi1]; try discriminate.
        + apply (cl_1a _ _ _ _ _ _ (i2_clo _ _ Hs) e t rw); auto.
        + apply (cl_2a _ _ _ _ _ _ (i2_clo _ _ Hs) e t c2 rw); auto. unfold All. rewrite <- (i2_ES _ _ Hs); auto.
        + apply (cl_2a _ _ _ _ _ _ (i2_clo _ _ Hs) e c1 t rw); auto. unfold All. rewrite <- (i2_ES _ _ Hs); auto.
      - intros s b' e w s' (Hs & [Cs1 Cs2] & Rs & Ws) J Hsr Hl CG.
        destruct (mark t wt s b' e w s' Hs Ht) as (M1 & M2 & M3 & M4 & M5); auto.
        split; auto. rewrite M4, M5. ands; auto. split; rewrite M4; [intros R; specialize (Cs1 R)|intros R; specialize (Cs2 R)]; lia.
      - intros s d (Hs & Cs & Rs & Ws) Bd. split; [|ands; auto]. destruct Hs as [I1 I2 I3 I4 I5 I6 I7 I8 I9]. constructor; auto.
        eapply clo_sle; [apply sle_delta|exact I3].
      - unfold FixModel.fw_go. rewrite Ew. change (mk_fw (fw_done st) (fw_limit st) (fw_rounds st) ws (fw_next st) (fw_d st)) with (popw st ws). fold n in S1.
        rewrite S1. cbn [obind fst snd]. change (if n <=? e_src t then st2 else x_set_added st2 (e_src t)) with (fin_step t st2).
        exists (fin_step t st2). split; [reflexivity|]. destruct (fin_facts P t st2) as (F1 & F2 & F3 & F4 & F5 & F6 & F7 & F8 & F9).
        assert (K2 : clo none (fun c => All c \/ c = t) (fin_step t st2)).
        { eapply (clo_step P WP LK mx A0 HnN I All t wt (popw st ws) st2); eauto.
          - apply IP. - apply IP. - apply S2. - intros s (Hs & _). apply Hs. }
        destruct S2 as (H2 & C2 & R2 & W2). rewrite F3, F6, W2, R2. split; [|split; [reflexivity|cbn; lia]].
        assert (NE : nn (fin_step t st2) = nn st2) by (unfold nn; rewrite F1; f_equal; apply filter_ext; intros x; unfold isnone; rewrite F2; auto).
        unfold Inv2. rewrite F6, R2. split; [|split; auto].
        + destruct H2 as [I1 I2 I3 I4 I5 I6 I7 I8 I9]. constructor; rewrite ?F1, ?F3, ?F4, ?F7, ?F8, ?F9; auto.
          * apply fin_base; auto.
          * destruct K2 as [K1 K2 K3 K4 K5 K6 K7 K8 K9 K10 K11]. constructor; auto.
            -- intros c H. destruct (K2 c H) as [H'| ->]; auto.
            -- intros e c rw H R. apply (K7 e c rw); auto.
            -- intros c p id r ls H. apply (K9 c p id r ls); auto.
            -- intros e c1 c2 rw Hc1 Hc2 R. apply (K10 e c1 c2 rw); auto.
          * intros e He. rewrite F2. auto.
          * intros e He. destruct (I5 e He) as [Q1 Q2]. split; auto. rewrite F2. auto.
          * intros e He. destruct (I6 e He) as [Q1 Q2]. split; auto. rewrite F2. auto.
        + exists m. split; [|rewrite F3, W2; rewrite Ew in Lm; cbn in Lm; lia]. destruct C2 as [C2a C2b]. split; rewrite F6, F4, NE; auto.
    Qed.

    Lemma step2 : forall st, Inv2 st -> fw_is_done st = false -> exists st', fw_step true st = Some st' /\ start xd edge Inv2 Fin2 st' /\
      (fw_rounds st < fw_rounds st' \/ (fw_rounds st' = fw_rounds st /\ length (fw_ws st') < length (fw_ws st))).
    Proof.
      intros st (I0 & L & m & [C1 C2] & Lm) D. unfold FixModel.fw_step. destruct (fw_ws st) as [|t ws] eqn:Ew.
      - destruct (fw_next st) as [|x l] eqn:En.
        + eexists. split; [reflexivity|]. cbn [fw_rounds]. split; [|left; lia]. left. split; [reflexivity|]. destruct I0 as [I1 I2 I3 I4 I5 I6 I7 I8 I9].
          unfold Fin2. ands; auto; [destruct I1; constructor; auto|].
          assert (S : forall c, settled none (mk_fw true (fw_limit st) (S (fw_rounds st)) [] [] (fw_d st)) c -> settled none st c).
          { intros c (H1 & H2 & H3 & H4). unfold settled. rewrite Ew, En. ands; auto. }
          destruct I3 as [K1 K2 K3 K4 K5 K6 K7 K8 K9 K10 K11]. constructor; auto.
          * intros e c rw H R. apply (K8 e c rw); auto.
          * intros e c1 c2 rw H1 H2 R. apply (K11 e c1 c2 rw); auto.
        + rewrite <- En. change (mk_fw (fw_done st) (fw_limit st) (S (fw_rounds st)) (rev (sort_edges (fw_next st))) [] (fw_d st)) with (refill st).
          assert (D' : fw_rounds st <> M). { unfold FixModel.fw_is_done in D. rewrite (i2_done _ _ I0), (i2_lim _ _ I0) in D. cbn in D. apply Nat.eqb_neq in D. auto. }
          assert (HR : inv2 none (refill st)).
          { destruct I0 as [I1 I2 I3 I4 I5 I6 I7 I8 I9]. constructor; auto.
            - destruct I1; constructor; auto.
            - apply clo_refill; auto.
            - intros e He. cbn [refill fw_ws] in He. rewrite <- in_rev, sort_edges_In in He. apply I6. auto.
            - intros e []. }
          assert (Lr : length (fw_ws (refill st)) <= length (fw_next st)) by (cbn [refill fw_ws]; rewrite rev_length; apply sort_edges_length).
          destruct (rev (sort_edges (fw_next st))) as [|t ws] eqn:Er.
          { exfalso. assert (Q : In x (rev (sort_edges (fw_next st)))) by (rewrite <- in_rev, sort_edges_In, En; left; auto). rewrite Er in Q. destruct Q. }
          destruct (go2 (refill st) t ws (length (fw_ws (refill st)))) as (st' & G1 & G2 & G3 & G4); auto.
          * cbn [refill fw_rounds]. lia.
          * set (m' := length (fw_ws (refill st))) in *. split; change (fw_rounds (refill st)) with (S (fw_rounds st)); change (length (fw_next (refill st))) with 0; change (nn (refill st)) with (nn st); [lia|].
            intros R. rewrite En in Lr. destruct (Nat.eq_dec (fw_rounds st) 1) as [E1|E1]; [specialize (C1 E1); lia|]. specialize (C2 ltac:(lia)). cbn in Lm. lia.
          * exists st'. split; auto. split; [apply Inv2_start; auto|]. left. rewrite G3. cbn. lia.
      - destruct (go2 st t ws m Ew I0 L (conj C1 C2)) as (st' & G1 & G2 & G3 & G4); [rewrite Ew; lia|]. exists st'. split; auto. split; [apply Inv2_start; auto|]. right. rewrite <- Ew. auto.
    Qed.
    Theorem phase2_total : forall fuel st, Inv2 st -> fw_loop xd edge sort_edges (x_step_with P mx) true fuel st = Some None \/
      exists st', fw_loop xd edge sort_edges (x_step_with P mx) true fuel st = Some (Some st') /\ Fin2 st'.
    Proof.
      intros fuel st HI. eapply (fw_loop_total xd edge sort_edges (x_step_with P mx) true Inv2 Fin2); [|apply Inv2_start; auto].
      intros s Hs D. destruct (step2 s Hs D) as (s' & H1 & H2 & _). eauto.
    Qed.
    Theorem phase2_ends : forall st, Inv2 st -> exists bound st', Fin2 st' /\ forall fuel, bound <= fuel -> fw_loop xd edge sort_edges (x_step_with P mx) true fuel st = Some (Some st').
    Proof.
      intros st HI. eapply (fw_loop_ends xd edge sort_edges (x_step_with P mx) true Inv2 Fin2 M); [intros s Hs; apply Hs|apply step2|apply Inv2_start; auto].
    Qed.
  End Snapshot.
End FixPre5.
