(** TraceBack on an automaton saturated by the shortest post*: the configurations form a run whose weight is at most that of the path. *)
From Coq Require Import List Arith Lia Bool ZArith Permutation.
From Verif Require Import Base BaseFacts Spec SpecFacts PdaModel PdaProof AutModel AutProof PreStarModel PreStarProof PreStarLang
  PostStarModel PostStarProof PostStarLang SolverModel QueryModel QueryProof ProductModel ProductProof VerdictProof TraceModel TraceProof TraceSolver UtilModel UtilProof ShortSpec ShortModel PostShortProof FixSpec ShortTrace1.
Import ListNotations.

Lemma wtrace_snoc : forall R cs v, wtrace R cs v -> forall d sr x c, R sr x -> step_by sr (last cs d) c -> wtrace R (cs ++ [c]) (v + x)%Z.
Proof.
  intros R cs v H. induction H as [c0|c1 r w c2 cs v Hr Hs H IH]; intros d sr x c HR HS.
  - cbn [app last] in *. replace (0 + x)%Z with (x + 0)%Z by lia. econstructor; eauto. constructor.
  - replace (w + v + x)%Z with (w + (v + x))%Z by lia. cbn [app]. econstructor; eauto.
Qed.

Lemma tb_next_mono : forall P A f p r, tb_next P A f p = done r -> forall f', f <= f' -> tb_next P A f' p = done r.
Proof.
  intros P A f. induction f as [|f IH]; intros p r H f' L; [discriminate|]. destruct f' as [|f']; [lia|]. cbn [tb_next] in *.
  destruct (tb_body P A p) as [[|b s p'|p']|]; cbn [obind] in *; auto. apply (IH _ _ H). lia.
Qed.
Lemma tb_run_mono : forall P A f p b acc r, tb_run P A f p b acc = done r -> forall f', f <= f' -> tb_run P A f' p b acc = done r.
Proof.
  intros P A f. induction f as [|f IH]; intros p b acc r H f' L; [discriminate|]. destruct f' as [|f']; [lia|]. cbn [tb_run] in *.
  destruct (tb_next P A (S f) p) as [[[o p']|]|] eqn:E1; try discriminate. rewrite (tb_next_mono _ _ _ _ _ E1 (S f') L). unfold done at 1.
  destruct o as [[b0 s]|]; auto. apply (IH _ _ _ _ H). lia.
Qed.

Definition is_nil {T} (l : list T) : bool := match l with [] => true | _ => false end.
(** The weight of a path. *)
Fixpoint psum (W : edge -> Z) (e : nat) (es : list (option nat * nat)) : Z :=
  match es with [] => 0%Z | (l, s) :: es' => (W (mk_edge s l (pfront e es')) + psum W e es')%Z end.
Definition pwt (W : edge -> Z) (p : apth nat) : Z := psum W (ap_end p) (ap_edges p).

Section Post.
  Variable P : pda.
  Hypothesis WP : wf_pda P.
  Notation n := (pd_n P).
  Variables A0 A : aut.
  Variable W : edge -> Z.
  Hypothesis OK : post_ok P A0.
  Hypothesis NU : all_null A0.
  Notation qp := (fun k : nat * nat => qp_find k (snd (qp_init P A0))).
  Hypothesis WJ : wjs P qp W (a_edges A0) (a_edges A).
  Hypothesis ND : NoDup (map fst (a_edges A)).
  Hypothesis RG : forall e, In e (map fst (a_edges A)) -> q_range P A0 e.
  Hypothesis WN : forall e, (0 <= W e)%Z.
  Hypothesis EPS : forall q q', aut_edges A q None q' -> q < n.
  Notation E := (aut_edges A).
  Notation nQ := (a_size A0).

  Lemma sqp_r : forall k v, qp k = Some v -> nQ <= v.
  Proof. intros k v H. apply qp_find_In in H. apply (qo_range _ _ (proj1 (qp_init_ok P A0))) in H. lia. Qed.
  Lemma sqp_i : forall k1 k2 v, qp k1 = Some v -> qp k2 = Some v -> k1 = k2.
  Proof. intros k1 k2 v H1 H2. eapply qp_inj; [apply (proj1 (qp_init_ok P A0))|eauto|eauto]. Qed.

  Lemma wjs_find : forall es, wjs P qp W (a_edges A0) es -> forall e t, find_edge e es = Some t ->
    find_edge e (a_edges A0) = Some t \/ exists new older, es = new ++ (e, t) :: older /\ sjust P qp W older e t (W e).
  Proof.
    intros es H. induction H as [|older e' tr Hw IH HJ]; intros e t F; auto. cbn in F. destruct (edge_eqb e' e) eqn:Ee.
    - apply edge_eqb_eq in Ee. subst e'. right. exists [], older. inversion F; subst. auto.
    - destruct (IH e t F) as [K|[new [o [K1 K2]]]]; auto. right. exists ((e', tr) :: new), o. rewrite K1. auto.
  Qed.
  Lemma wjs_split : forall es, wjs P qp W (a_edges A0) es -> NoDup (map fst es) -> exists new, es = new ++ a_edges A0 /\ forall e, In e (map fst new) -> ~ In e (map fst (a_edges A0)).
  Proof.
    intros es H. induction H as [|older e' tr Hw IH HJ]; intros HN; [exists []; split; auto|]. cbn in HN. inversion HN as [|? ? N1 N2]; subst. destruct (IH N2) as (new & -> & H1).
    exists ((e', tr) :: new). split; auto. intros e [<-|He]; auto. intros Hi. apply N1. cbn. rewrite map_app, in_app_iff. auto.
  Qed.

  Lemma sjust_src : forall older e tr v, sjust P qp W older e tr v -> (forall q q', edges_of older q None q' -> q < n) -> e_src e < n \/ nQ <= e_src e.
  Proof.
    intros older e tr v [H|H] EP.
    - destruct H as (p & id & l & r & ls & q & -> & G & M & He & J). destruct (get_rule_facts P WP _ _ _ _ G) as [G1 [G2 G3]].
      destruct (r_op r); try (destruct J as [-> _]; cbn; auto; fail). destruct J as (qn & J1 & [[-> _]|[-> _]]); cbn; auto. apply sqp_r in J1. auto.
    - destruct H as (s & l & -> & H1 & H2 & H3). left. eauto.
  Qed.
  Lemma s_outer_orig : forall q l q', E q l q' -> n <= q < nQ -> aut_edges A0 q l q'.
  Proof.
    pose proof EPS as EP. unfold aut_edges in *. revert EP WJ. generalize (a_edges A). intros es EP H. induction H as [|older e tr Hw IH HJ]; auto.
    intros q l q' [K|K] Hq.
    - cbn in K. subst e. apply sjust_src in HJ; [cbn in HJ; lia|]. intros a a' Ha. eapply EP. right. eauto.
    - apply IH; auto. intros a a' Ha. eapply EP. right. eauto.
  Qed.
  Lemma s_outer_valid : forall e es, pvalid E e es -> n <= pfront e es < nQ -> pvalid (aut_edges A0) e es.
  Proof.
    intros e es. induction es as [|[l s] es IH]; cbn; auto. intros [H1 H2] Hn. assert (K := s_outer_orig _ _ _ H1 Hn). split; auto.
    apply IH; auto. destruct (qk_range _ _ OK _ _ _ K) as [_ [K2 _]]. auto.
  Qed.
  Lemma psum_nn : forall e es, (0 <= psum W e es)%Z.
  Proof. intros e es. induction es as [|[l s] es IH]; cbn; [lia|]. pose proof (WN (mk_edge s l (pfront e es))). lia. Qed.

  Definition wstep (x : Z) (c c' : config) : Prop := exists sr, pda_wrules P sr x /\ step_by sr c c'.

  Lemma sbody : forall p, valid E p -> ap_front p < n -> ap_end p < nQ ->
    (tb_body P A p = Some TBNone /\ valid (aut_edges A0) p) \/
    (exists s p' x, tb_body P A p = Some (TBRule true s p') /\ valid E p' /\ ap_front p' < n /\ ap_end p' = ap_end p /\
       wstep x (pconf p') (pconf p) /\ (pwt W p' + x <= pwt W p)%Z /\ meas A p' < meas A p) \/
    (exists p', tb_body P A p = Some (TBMore p') /\ valid E p' /\ ap_front p' < n /\ ap_end p' = ap_end p /\ pconf p' = pconf p /\ (pwt W p' <= pwt W p)%Z /\ meas A p' < meas A p).
  Proof.
    intros [e [|[l s] es]] HV Hn Hend; unfold valid in HV; cbn in *.
    { left. auto. }
    destruct HV as [H1 H2]. unfold tb_body, ap_front_edge, ap_pop, ap_emplace, trace_label; cbn [ap_edges ap_end fst snd obind].
    fold (pfront e es). destruct (find_edge_ex _ _ H1) as [t Ht]. cbn [ap_front ap_edges] in *. unfold ap_front_edge. rewrite Ht. cbn [obind].
    assert (HP: n <= nQ) by apply OK.
    assert (FACT: forall e t, find_edge e (a_edges A) = Some t -> ~ In e (map fst (a_edges A0)) ->
      exists older, sjust P qp W older e t (W e) /\ age (a_edges A) e = S (length older) /\
      (forall a b c, edges_of older a b c -> E a b c /\ age (a_edges A) (mk_edge a b c) <= length older)).
    { intros e0 t0 F0 N0. destruct (wjs_find _ WJ _ _ F0) as [K|[new [older [K1 K2]]]].
      - exfalso. apply N0. apply find_edge_In in K. apply (in_map fst) in K. auto.
      - exists older. split; auto. split. { rewrite K1 in *. apply age_new; auto. }
        assert (EK: a_edges A = (new ++ [(e0, t0)]) ++ older) by (rewrite K1, <- app_assoc; auto).
        intros a b c H. unfold edges_of in H. split.
        + unfold aut_edges, edges_of. rewrite EK, map_app. apply in_or_app. auto.
        + rewrite EK. apply age_old; auto. rewrite <- EK. auto. }
    unfold meas, pwt. cbn [ap_edges ap_end pmeas psum]. unfold emeas at 1 2.
    destruct (in_dec edge_eq_dec (mk_edge s l (pfront e es)) (map fst (a_edges A0))) as [K|K].
    - left. assert (T: t = TNull).
      { destruct (wjs_split _ WJ ND) as (new & En & Hnew). assert (Hi := find_edge_In _ _ _ Ht). rewrite En in Hi. apply in_app_or in Hi. destruct Hi as [Hi|Hi]; [|eapply NU; eauto].
        exfalso. apply (in_map fst) in Hi. apply (Hnew _ Hi). auto. }
      subst t. split; auto. unfold valid. cbn. split; auto. apply s_outer_valid; auto. destruct (qk_range _ _ OK _ _ _ K) as [_ [K2 _]]. auto.
    - destruct (FACT _ _ Ht K) as [older [HJ [AN IN]]].
      rewrite AN. pose proof (Nat.pow_nonzero 3 (length older)). right. destruct HJ as [HJ|HJ].
      + left. destruct HJ as (p & id & lab & r & ls & q & -> & G & M & He & J). rewrite G. cbn [obind fst].
        destruct (get_rule_facts P WP _ _ _ _ G) as [G1 [G2 G3]]. destruct (IN _ _ _ He) as [I1 I2]. apply pow3 in I2.
        assert (RW : forall p id r ls lab, get_rule P p id = Some (r, ls) -> matches (pd_nlab P) ls lab -> pda_wrules P (mk_srule p lab (r_to r) (sop_of r)) (r_w r)).
        { intros p0 id0 r0 ls0 lab0 G0 M0. apply pda_wrules_at. exists r0, ls0. cbn. ands; auto. apply get_rule_at in G0. eapply nth_error_In; eauto. }
        assert (ST: forall w, wstep (r_w r) (p, lab :: w) (r_to r, apply_op (sop_of r) lab w)).
        { intros w. eexists. split; [apply (RW _ _ _ _ _ G M)|]. apply (step_by_intro (mk_srule p lab (r_to r) (sop_of r))). }
        unfold sop_of in ST. destruct (r_op r) eqn:Er.
        * destruct J as (qn & J1 & [[J WJ1]|[J WJ1]]); inversion J; subst; [|apply sqp_r in J1; lia]. rewrite Nat.eqb_refl.
          destruct es as [|[l2 s2] es]; cbn in *. { exfalso. apply sqp_r in J1. subst. lia. }
          destruct H2 as [H2 H3]. destruct (find_edge_ex _ _ H2) as [t2 Ht2]. fold (pfront e es). rewrite Ht2. cbn [obind].
          destruct (FACT _ _ Ht2) as [older2 [HJ2 [AN2 IN2]]].
          { intros K2. destruct (qk_range _ _ OK _ _ _ K2) as [K3 _]. apply sqp_r in J1. lia. }
          destruct HJ2 as [HJ2|HJ2].
          -- destruct HJ2 as (p2 & id2 & lab2 & r2 & ls2 & q2 & -> & G' & M' & He' & J').
             destruct (get_rule_facts P WP _ _ _ _ G') as [G1' [G2' G3']]. assert (J1' := sqp_r _ _ J1).
             assert (B: r_op r2 = PUSH /\ r_to r2 = r_to r /\ r_opl r2 = r_opl r /\ l2 = Some lab2 /\ q2 = pfront e es /\ (W (mk_edge p2 (Some lab2) q2) + r_w r2 <= W (mk_edge s2 l2 (pfront e es)))%Z).
             { destruct (r_op r2); try (destruct J' as [J' _]; inversion J'; subst; lia). destruct J' as (qn2 & J3 & [[J4 J5]|[J4 J5]]); inversion J4; subst; [lia|].
               assert (KK := sqp_i _ _ _ J1 J3). inversion KK. ands; auto. }
             destruct B as (B1 & B2 & B3 & -> & -> & B4). destruct (IN2 _ _ _ He') as [I1' I2']. apply pow3 in I2'.
             eexists _, _, (r_w r2). split; [reflexivity|]. ands; auto.
             ++ unfold valid; cbn; auto.
             ++ unfold pconf. cbn. assert (HR' := RW _ _ _ _ _ G' M'). unfold sop_of in HR'. rewrite B1, B2, B3 in HR'. exists (mk_srule p2 lab2 (r_to r) (SPush (r_opl r))). split; auto.
                apply (step_by_intro (mk_srule p2 lab2 (r_to r) (SPush (r_opl r)))).
             ++ cbn [ap_edges ap_end psum pfront]. pose proof (WN (mk_edge (r_to r) (Some (r_opl r)) s2)). lia.
             ++ cbn [ap_edges ap_end pmeas pfront]. unfold emeas at 1 2. rewrite AN2. cbn [Nat.pow]. lia.
          -- exfalso. destruct HJ2 as (z & l0 & -> & H5 & H6 & H7 & _). cbn in H6. apply IN2 in H6. destruct H6 as [H6 _]. apply EPS in H6. apply sqp_r in J1. lia.
        * destruct J as [J WJ1]. inversion J; subst. rewrite Nat.eqb_refl. eexists _, _, (r_w r). split; [reflexivity|]. ands; auto.
          -- unfold valid; cbn; auto.
          -- unfold pconf. cbn. apply ST.
          -- cbn [ap_edges ap_end psum pfront]. lia.
          -- cbn [ap_edges ap_end pmeas pfront]. unfold emeas. cbn [Nat.pow]. lia.
        * destruct J as [J WJ1]. inversion J; subst. rewrite Nat.eqb_refl. eexists _, _, (r_w r). split; [reflexivity|]. ands; auto.
          -- unfold valid; cbn; auto.
          -- unfold pconf. cbn. apply ST.
          -- cbn [ap_edges ap_end psum pfront]. lia.
          -- cbn [ap_edges ap_end pmeas pfront]. unfold emeas. cbn [Nat.pow]. lia.
        * destruct J as [J WJ1]. inversion J; subst. rewrite Nat.eqb_refl. eexists _, _, (r_w r). split; [reflexivity|]. ands; auto.
          -- unfold valid; cbn; auto.
          -- unfold pconf. cbn. apply ST.
          -- cbn [ap_edges ap_end psum pfront]. lia.
          -- cbn [ap_edges ap_end pmeas pfront]. unfold emeas. cbn [Nat.pow]. lia.
      + right. destruct HJ as (z & l0 & -> & H3 & H4 & H5 & WJ1). cbn in H3, H4, H5, WJ1. subst l. destruct (IN _ _ _ H4) as [I1 I2]. destruct (IN _ _ _ H5) as [I3 I4]. apply pow3 in I2, I4.
        eexists. split; [reflexivity|]. ands; auto.
        * unfold valid; cbn; auto.
        * cbn [ap_edges ap_end psum pfront]. lia.
        * cbn [ap_edges ap_end pmeas pfront]. unfold emeas. cbn [Nat.pow]. lia.
  Qed.

  Definition Inv (p : apth nat) : Prop := valid E p /\ ap_front p < n /\ ap_end p < nQ.
  Lemma snext : forall fuel p, Inv p ->
    (tb_next P A fuel p = Some None /\ fuel <= meas A p) \/
    (exists p', tb_next P A fuel p = done (None, p') /\ Inv p' /\ valid (aut_edges A0) p' /\ ap_end p' = ap_end p /\ pconf p' = pconf p) \/
    (exists s p' x, tb_next P A fuel p = done (Some (true, s), p') /\ Inv p' /\ ap_end p' = ap_end p /\ wstep x (pconf p') (pconf p) /\ (pwt W p' + x <= pwt W p)%Z /\ meas A p' < meas A p).
  Proof.
    induction fuel as [|f IH]; intros p HI; cbn [tb_next]; [left; split; auto; lia|]. destruct HI as (V & F & L).
    destruct (sbody p V F L) as [[E1 E2]|[(s & p' & x & E1 & E2 & E3 & E4 & E5 & E6 & E7)|(p' & E1 & E2 & E3 & E4 & E5 & E6 & E7)]]; rewrite E1; cbn [obind].
    - right; left. exists p. ands; auto. split; auto.
    - right; right. exists s, p', x. ands; auto. unfold Inv. ands; auto. lia.
    - assert (HI' : Inv p') by (unfold Inv; ands; auto; lia). destruct (IH p' HI') as [[K1 K2]|[(p2 & K1 & K2 & K3 & K4 & K5)|(s & p2 & x & K1 & K2 & K3 & K4 & K5 & K6)]].
      + left. split; auto. lia.
      + right; left. exists p2. ands; auto; congruence.
      + right; right. exists s, p2, x. rewrite E5 in K4. ands; auto; try congruence; lia.
  Qed.

  Lemma srun : forall fuel p post acc, Inv p ->
    (tb_run P A fuel p post acc = Some None /\ fuel <= meas A p) \/
    exists steps p' v, tb_run P A fuel p post acc = done (acc ++ steps, p', post || negb (is_nil steps)) /\ Inv p' /\ valid (aut_edges A0) p' /\ ap_end p' = ap_end p /\
      (forall x, In x steps -> valid E (snd x)) /\ wtrace (pda_wrules P) (rev (pconf p :: map (fun x => pconf (snd x)) steps)) v /\ (v <= pwt W p)%Z /\
      hd (pconf p) (rev (pconf p :: map (fun x => pconf (snd x)) steps)) = pconf p'.
  Proof.
    induction fuel as [|f IH]; intros p post acc HI; [left; split; auto; lia|]. cbn [tb_run].
    destruct (snext (S f) p HI) as [[K1 K2]|[(p' & K1 & K2 & K3 & K4 & K5)|(s & p' & x & K1 & K2 & K3 & K4 & K5 & K6)]]; rewrite K1.
    - auto.
    - right. exists [], p', 0%Z. cbn. rewrite app_nil_r, orb_false_r. split; [auto|]. split; [auto|]. split; [auto|]. split; [auto|]. split; [tauto|]. split; [constructor|]. split; [apply psum_nn|auto].
    - cbv beta iota delta [done]. destruct (IH p' (post || true) (acc ++ [(s, p')]) K2) as [[H1 H2]|(steps & p2 & v & H1 & H2 & H3 & H4 & H5 & H6 & H7 & H8)].
      + left. split; auto. lia.
      + right. exists ((s, p') :: steps), p2, (v + x)%Z. split; [|split; [auto|split; [auto|split; [congruence|split; [|split; [|split; [lia|]]]]]]].
        * rewrite H1, <- app_assoc. cbn. rewrite !orb_true_r. auto.
        * intros y [<-|Hy]; auto. apply K2.
        * change (rev (pconf p :: map (fun x => pconf (snd x)) ((s, p') :: steps))) with (rev (pconf p' :: map (fun x => pconf (snd x)) steps) ++ [pconf p]).
          destruct K4 as (sr & R1 & R2). apply (wtrace_snoc _ _ _ H6 (pconf p') sr x); auto. cbn [rev]. rewrite last_last. auto.
        * change (rev (pconf p :: map (fun x => pconf (snd x)) ((s, p') :: steps))) with (rev (pconf p' :: map (fun x => pconf (snd x)) steps) ++ [pconf p]).
          rewrite <- H8. destruct (rev (pconf p' :: map (fun x => pconf (snd x)) steps)) eqn:Er; auto. apply (f_equal (@length _)) in Er. rewrite rev_length in Er. discriminate.
  Qed.

  (** _get_trace along a path to a final state. *)
  Lemma strace : forall p, Inv p -> exists tr v, (forall fuel, (get_trace_path P A fuel p = Some None /\ fuel <= meas A p) \/ get_trace_path P A fuel p = done tr) /\
    wtrace (pda_wrules P) tr v /\ (v <= pwt W p)%Z /\ last tr (pconf p) = pconf p /\ exists p', valid (aut_edges A0) p' /\ ap_end p' = ap_end p /\ ap_front p' < n /\ hd (pconf p) tr = pconf p'.
  Proof.
    intros p HI. assert (LL : labs_lt P E). { intros q l q' H. destruct (RG _ H) as [_ [_ H1]]. cbn in H1. auto. }
    assert (MONO : forall fuel, (get_trace_path P A fuel p = Some None /\ fuel <= meas A p) \/ exists tr, get_trace_path P A fuel p = done tr /\ exists v,
      wtrace (pda_wrules P) tr v /\ (v <= pwt W p)%Z /\ last tr (pconf p) = pconf p /\ exists p', valid (aut_edges A0) p' /\ ap_end p' = ap_end p /\ ap_front p' < n /\ hd (pconf p) tr = pconf p').
    { intros fuel. unfold get_trace_path. destruct (srun fuel p false [] HI) as [[H1 H2]|(steps & p' & v & H1 & H2 & H3 & H4 & H5 & H6 & H7 & H8)]; rewrite H1; auto.
      right. eexists. split; [reflexivity|]. cbn [app orb fst snd].
      assert (EQ : (if negb (is_nil steps) then rev (decode_edges P p :: map (fun x => decode_edges P (snd x)) steps) else decode_edges P p :: map (fun x => decode_edges P (snd x)) steps) = rev (pconf p :: map (fun x => pconf (snd x)) steps)).
      { assert (E0: decode_edges P p :: map (fun x => decode_edges P (snd x)) steps = pconf p :: map (fun x => pconf (snd x)) steps).
        { f_equal. { eapply decode_valid; eauto. apply HI. } apply map_ext_in. intros x Hx. eapply decode_valid; eauto. }
        rewrite E0. destruct steps; auto. }
      rewrite EQ. exists v. ands; auto.
      - cbn [rev]. apply last_last.
      - exists p'. ands; auto. apply H2. }
    destruct (MONO (S (meas A p))) as [[_ H]|(tr & Etr & v & HQ)]; [lia|]. exists tr, v. split; [|tauto].
    intros fuel. destruct (MONO fuel) as [H|(tr' & Etr' & _)]; auto. right.
    assert (UN : forall f f' t t', get_trace_path P A f p = done t -> get_trace_path P A f' p = done t' -> f <= f' -> t = t').
    { clear. intros f f' t t' H H' L. unfold get_trace_path in *. destruct (tb_run P A f p false []) as [[[[s q] b]|]|] eqn:E1; try discriminate.
      rewrite (tb_run_mono P A f p false [] _ E1 f' L) in H'. unfold done in *. congruence. }
    destruct (Nat.le_ge_cases fuel (S (meas A p))) as [L|L]; [rewrite (UN _ _ _ _ Etr' Etr L) in Etr'|rewrite <- (UN _ _ _ _ Etr Etr' L) in Etr']; auto.
  Qed.
End Post.
