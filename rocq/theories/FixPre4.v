(** The fixed-point saturation of pre*: the first phase. *)
From Coq Require Import List Arith Lia Bool ZArith Permutation.
From Verif Require Import Base BaseFacts Spec SpecFacts PdaModel PdaProof AutModel AutProof PreStarModel PreStarProof PreStarLang
  PostStarModel SolverModel ProductModel ProductProof UtilModel UtilProof ShortSpec ShortModel PostShortProof PreShortModel PreShortProof FixModel FixChain FixPre1 FixPre2 FixPre3.
Import ListNotations.

Lemma nth_error_Some2 : forall (A : Type) (l : list A) i x, nth_error l i = Some x -> i < length l.
Proof. intros A l i x H. apply nth_error_Some. congruence. Qed.

Section FixPre4.
  Variable P : pda.
  Hypothesis WP : wf_pda P.
  Hypothesis LK : lookup_ok P.
  Variable mx : bool.
  Variable A0 : faut.
  Let N := a_size (fa_aut A0).
  Let n := pd_n P.
  Let E0 := map fst (a_edges (fa_aut A0)).
  Hypothesis HnN : n <= N.
  Hypothesis HO : wf_ord (fa_aut A0).
  Hypothesis NI : no_in P (fa_aut A0).
  Notation in_rng := (in_range P (fa_aut A0)).
  Notation xst := (fwst xd edge).
  Notation fle := (fle mx).
  Notation cov := (cov mx).
  Notation xbase := (xbase P A0).
  Notation sle := (sle mx).
  Notation deriv := (kderiv P E0).
  Notation unb := (unb P E0 mx).
  Notation clo := (clo P mx A0).
  Notation ghost := (ghost P mx A0).
  Notation current := (current P mx A0).
  Notation I1 := (I1 P mx A0).
  Notation fin_step := (fin_step P).
  Notation chain_ge st cr bt := (chain_ge P E0 mx (xES st) (Vz st) cr bt).

  (** Taking an edge: its source gets the current round as birth time when it was not treated before. *)
  Lemma ghost_pop : forall C t ws st cr bt, fw_ws st = t :: ws -> 1 <= fw_rounds st -> xbase st -> clo none C st -> ghost none C st cr bt ->
    I1 C t (Vz st t) (popw st ws).
  Proof.
    intros C t ws st cr bt Ew Rk B K G. set (st' := popw st ws). set (k := fw_rounds st).
    assert (Ht : In t (xES st)) by (apply (g_ws _ _ _ _ _ _ _ _ G); rewrite Ew; left; auto).
    set (bt' := fun q => if Nat.eq_dec q (e_src t) then match nth_error (x_added (fw_d st)) q with Some false => k | _ => bt q end else bt q).
    assert (BD : forall e, In e (xES st) -> bt' (e_dst e) = bt (e_dst e)).
    { intros e He. unfold bt'. destruct (Nat.eq_dec (e_dst e) (e_src t)) as [E|]; auto. destruct (nth_error (x_added (fw_d st)) (e_dst e)) as [[|]|] eqn:A; auto. exfalso.
      destruct (g_dst _ _ _ _ _ _ _ _ G e He) as [H|(x & [] & _)].
      - apply nth_error_Some2 in A. rewrite (xb_added _ _ _ B) in A. exact A.
      - unfold added in H. congruence. }
    assert (BK : forall q, bt' q <= k).
    { intros q. unfold bt'. assert (Q := g_btk _ _ _ _ _ _ _ _ G q). fold k in Q. destruct (Nat.eq_dec q (e_src t)); auto. destruct (nth_error (x_added (fw_d st)) q) as [[|]|]; auto. }
    assert (MON : forall z v a, In z (xES st) -> chain_ge st cr bt z v a k -> chain_ge st' cr bt' z v a k).
    { intros z v a Hz Hc. eapply chain_ge_mono; [intros x Hx; ands; [exact Hx|auto|apply Z.le_refl]|apply BD; auto|apply Nat.le_refl|exact Hc]. }
    split; [destruct B; constructor; auto|]. split; [apply clo_pop; auto|]. exists cr, bt'. split.
    - constructor; try (apply G).
      + intros e He. change (fw_rounds st') with k. rewrite BD by auto. apply (g_cr _ _ _ _ _ _ _ _ G); auto.
      + exact BK.
      + intros e He Hd. destruct (g_dst _ _ _ _ _ _ _ _ G e He Hd) as [H|(x & [] & _)]. left; auto.
      + intros e He Ha. unfold bt'. destruct (Nat.eq_dec (e_src e) (e_src t)) as [E|Ne].
        * destruct (nth_error (x_added (fw_d st)) (e_src e)) as [[|]|] eqn:A.
          -- apply (g_src _ _ _ _ _ _ _ _ G); auto. left; auto.
          -- destruct (g_new _ _ _ _ _ _ _ _ G e He) as [H|[[_ H]|[[_ H]|[[] _]]]]; fold k in H; [|lia..]. exfalso. assert (Q := cl_add _ _ _ _ _ _ K e H). unfold added in Q. rewrite Q in A; [discriminate|].
             apply nth_error_Some2 in A. rewrite (xb_added _ _ _ B) in A. exact A.
          -- apply nth_error_None in A. rewrite (xb_added _ _ _ B) in A. rewrite (g_bt0 _ _ _ _ _ _ _ _ G); auto. lia.
        * apply (g_src _ _ _ _ _ _ _ _ G); auto. destruct Ha as [Ha|(x & <- & Hx)]; [left; auto|congruence].
      + intros q Hq. unfold bt'. rewrite (g_bt0 _ _ _ _ _ _ _ _ G q Hq). destruct (Nat.eq_dec q (e_src t)) as [E|]; auto. destruct (nth_error (x_added (fw_d st)) q) as [[|]|] eqn:A; auto. exfalso.
        assert (Lq : q < n) by (apply nth_error_Some2 in A; rewrite (xb_added _ _ _ B) in A; exact A). destruct Hq as [Hq|Hq]; [fold n in Hq; lia|].
        assert (Q := cl_acc _ _ _ _ _ _ K q Lq Hq). unfold added in Q. congruence.
      + intros e He. destruct (g_ch _ _ _ _ _ _ _ _ G e He) as [U|Q]; auto.
      + intros e He. destruct (g_ws _ _ _ _ _ _ _ _ G e) as [Q1 Q2]; [rewrite Ew; right; auto|]. split; auto. destruct Q2 as [U|Q]; auto.
      + intros e He. destruct (g_next _ _ _ _ _ _ _ _ G e He) as [Q1 Q2]. split; auto. destruct Q2 as [U|Q]; auto.
      + intros e He. destruct (g_new _ _ _ _ _ _ _ _ G e He) as [H|[[H1 H2]|[H|[[] _]]]]; auto. rewrite Ew in H1. destruct H1 as [<-|H1]; auto.
    - constructor; auto.
      + apply (g_fin _ _ _ _ _ _ _ _ G); auto.
      + destruct (g_ws _ _ _ _ _ _ _ _ G t) as [Q1 Q2]; [rewrite Ew; left; auto|]. destruct Q2 as [U|Q]; [left; exact U|right; apply MON; auto].
      + intros A. unfold bt'. destruct (Nat.eq_dec (e_src t) (e_src t)); [|congruence]. change (x_added (fw_d st')) with (x_added (fw_d st)) in A. rewrite A. reflexivity.
  Qed.

  Lemma ghost_delta : forall X C st cr bt d, ghost X C st cr bt -> ghost X C (x_add_delta st d) cr bt.
  Proof. intros X C st cr bt d [G1 G2 G3 G4 G5 G6 G7 G8 G9 G10 G11 G12 G13 G14]. constructor; auto. Qed.

  Definition Inv1 (st : xst) : Prop := xbase st /\ fw_rounds st <= fw_limit st /\ (fw_ws st = [] \/ 1 <= fw_rounds st) /\ exists C cr bt, clo none C st /\ ghost none C st cr bt.
  Definition Fin1 (st : xst) : Prop := xbase st /\ exists C, clo none C st /\
    ((fw_done st = true /\ fw_ws st = [] /\ fw_next st = [] /\ forall e, In e (xES st) -> xV st e = Some (Vz st e) /\ deriv e (Vz st e)) \/
     (fw_done st = false /\ fw_rounds st = fw_limit st /\ (fw_ws st = [] \/ 1 <= fw_rounds st) /\ exists cr bt, ghost none C st cr bt)).
  Notation fw_is_done := (fw_is_done xd edge).
  Notation fw_step b := (fw_step xd edge sort_edges (x_step_with P mx) b).
  Notation fw_go b := (fw_go xd edge (x_step_with P mx) b).

  Lemma Inv1_start : forall st, Inv1 st -> start xd edge Inv1 Fin1 st.
  Proof.
    intros st (B & L & W & C & cr & bt & K & G). unfold start. destruct (fw_is_done st) eqn:D; [left|right; split; auto; unfold Inv1; ands; eauto].
    split; auto. split; auto. exists C. split; auto. right. unfold FixModel.fw_is_done in D. rewrite (g_done _ _ _ _ _ _ _ _ G) in D. cbn in D. apply Nat.eqb_eq in D. ands; eauto. apply (g_done _ _ _ _ _ _ _ _ G).
  Qed.

  (** One step of the first phase. *)
  Lemma go1 : forall st t ws, fw_ws st = t :: ws -> Inv1 st -> 1 <= fw_rounds st ->
    exists st', fw_go false st = Some st' /\ Inv1 st' /\ fw_rounds st' = fw_rounds st /\ length (fw_ws st') < length (fw_ws st).
  Proof.
    intros st t ws Ew (B & L & W & C & cr & bt & K & G) Rk.
    assert (HI := ghost_pop C t ws st cr bt Ew Rk B K G). set (wt := Vz st t) in *.
    assert (Ht : In t (xES st)) by (apply (g_ws _ _ _ _ _ _ _ _ G); rewrite Ew; left; auto).
    set (I := fun s => I1 C t wt s).
    assert (Hw : xV (popw st ws) t = Some wt) by (apply (g_fin _ _ _ _ _ _ _ _ G); auto).
    assert (IB : forall s, I s -> xbase s) by (intros s H; apply H).
    destruct (step_rule P WP mx A0 HnN false t (Some wt) I) with (st := popw st ws) as (st2 & S1 & S2 & S3 & S4 & S5); auto.
    - apply (xb_range _ _ _ B); auto.
    - intros s (_ & _ & c & b & _ & CU). apply CU.
    - intros s e w _ J. remember true as b' eqn:Eb in J. destruct J; discriminate.
    - intros s b' e w s' (Bs & Ks & c & b & Gs & CU) J Hs Hl CG.
      assert (Eb : b' = false) by (destruct J; auto). subst b'.
      assert (Evn : exists vn, w = Some vn).
      { destruct J as [e rw R Ed Had|e rw R|e c2 rw R Hi2|e c1 rw R Hi1]; 
          [eexists; reflexivity|eexists; reflexivity|rewrite (proj1 (g_fin _ _ _ _ _ _ _ _ Gs c2 Hi2))|rewrite (proj1 (g_fin _ _ _ _ _ _ _ _ Gs c1 Hi1))]; eexists; reflexivity. }
      destruct Evn as [vn ->]. destruct (ghost_change P WP mx A0 HnN C t wt s c b e vn s' Bs Ks Gs CU J Hs Hl CG) as [G' CU'].
      split; [apply CG|]. split; [|eauto].
      eapply clo_sle; [|exact Ks]. eapply changed_sle; eauto. intros Hi. apply f_less_fle; auto.
    - intros s d (Bs & Ks & c & b & Gs & CU) Bd. split; auto. split; [eapply clo_sle; [apply sle_delta|exact Ks]|]. exists c, b. split; [apply ghost_delta; auto|].
      destruct CU as [U1 U2 U3 U4 U5]. constructor; auto.
    - assert (K2 : clo none (fun c => C c \/ c = t) (fin_step t st2)).
      { eapply (clo_step P WP LK mx A0 HnN I C t (Some wt) (popw st ws) st2); eauto; apply HI. }
      unfold FixModel.fw_go. rewrite Ew. change (mk_fw (fw_done st) (fw_limit st) (fw_rounds st) ws (fw_next st) (fw_d st)) with (popw st ws). fold n in S1.
      rewrite S1. cbn [obind fst snd]. change (if n <=? e_src t then st2 else x_set_added st2 (e_src t)) with (fin_step t st2).
      exists (fin_step t st2). split; [reflexivity|]. destruct (fin_facts P t st2) as (F1 & F2 & F3 & F4 & F5 & F6 & F7 & F8 & F9).
      destruct S2 as (B2 & K2' & c & b & G2 & CU2).
      assert (R2 : fw_rounds st2 = fw_rounds st) by (rewrite (sl_rounds _ _ _ S3); reflexivity).
      assert (W2 : fw_ws st2 = ws) by (rewrite (sl_ws _ _ _ S3); reflexivity).
      assert (LE : length (xES st) <= length (xES st2)).
      { apply NoDup_incl_length; [apply B|]. intros x Hx. apply (sl_ES _ _ _ S3). auto. }
      assert (L2 : fw_rounds st2 <= fw_limit st2).
      { rewrite R2, (g_lim _ _ _ _ _ _ _ _ G2), (xb_count _ _ _ B2). rewrite (g_lim _ _ _ _ _ _ _ _ G), (xb_count _ _ _ B) in L. lia. }
      rewrite F3, F6, W2, R2. split; [|split; [reflexivity|cbn; lia]]. split; [apply fin_base; auto|]. rewrite F3, F6, F7. split; auto. split; [right; lia|].
      exists (fun c => C c \/ c = t), c, b. split; [exact K2|].
      assert (VZ : forall e, Vz (fin_step t st2) e = Vz st2 e) by (intros e; unfold Vz; rewrite F2; auto).
      assert (AD : forall q, q < n -> (isadd (eq t) st2 q <-> isadd none (fin_step t st2) q)).
      { intros q Hq. unfold isadd. rewrite (fin_added P A0 HnN t st2 q B2). split.
        - intros [H|(x & <- & H)]; left; auto.
        - intros [[H|[H H']]|(x & [] & _)]; auto. right. exists t. auto. }
      assert (CHE : forall z v a r, chain_ge st2 c b z v a r -> FixChain.chain_ge P E0 mx (xES st2) (Vz (fin_step t st2)) c b z v a r).
      { intros z v a r Hc. eapply chain_ge_mono; [|reflexivity|apply Nat.le_refl|exact Hc]. intros x Hx. rewrite VZ. ands; auto. lia. }
      destruct G2 as [G1 G2 G3 G4 G5 G6 G7 G8 G9 G10 G11 G12 G13 G14].
      constructor; rewrite ?F1, ?F3, ?F4, ?F6, ?F7, ?F8, ?F9; auto.
      + intros e He. rewrite F2, VZ. auto.
      + intros e He Hd. apply AD; auto.
      + intros e He Ha. destruct (Nat.le_gt_cases n (e_src e)) as [Ln|Ln]; [rewrite G6; auto; lia|]. apply G5; auto. apply AD; auto.
      + intros e He. rewrite VZ. destruct (G7 e He) as [U|Q]; [left; exact U|right; apply CHE; exact Q].
      + intros e He. rewrite VZ. destruct (G8 e He) as [Q [U|Q2]]; split; auto.
      + intros e He. rewrite VZ. destruct (G9 e He) as [Q [U|Q2]]; split; auto.
      + intros e He. destruct (G10 e He) as [H|[H|[H|[H _]]]]; auto.
  Qed.

  Lemma refill_Inv1 : forall st, Inv1 st -> fw_is_done st = false -> fw_ws st = [] -> Inv1 (refill st).
  Proof.
    intros st (B & L & W & C & cr & bt & K & G) D Ew. unfold FixModel.fw_is_done in D. rewrite (g_done _ _ _ _ _ _ _ _ G) in D. cbn in D. apply Nat.eqb_neq in D.
    split; [destruct B; constructor; auto|]. cbn [refill fw_rounds fw_limit fw_ws]. split; [lia|]. split; [right; lia|]. exists C, cr, bt. split; [apply clo_refill; auto|].
    destruct G as [G1 G2 G3 G4 G5 G6 G7 G8 G9 G10 G11 G12 G13 G14]. constructor; cbn [refill fw_rounds fw_ws fw_next]; auto.
    - intros e He. destruct (G2 e He). split; auto.
    - intros e He. destruct (G7 e He) as [U|Q]; auto. right. eapply chain_ge_mono; [|reflexivity| |exact Q]; auto. intros x Hx. ands; auto. apply Z.le_refl.
    - intros e He. rewrite <- in_rev, sort_edges_In in He. destruct (G9 e He) as [H1 [U|Q]]; auto. split; auto. right. replace (S (fw_rounds st) - 1) with (fw_rounds st) by lia.
      eapply chain_ge_mono; [|reflexivity| |exact Q]; auto. intros x Hx. ands; auto. apply Z.le_refl.
    - intros e [].
    - intros e He. destruct (G10 e He) as [H|[[H1 H2]|[[H1 H2]|[[] _]]]]; auto.
      + rewrite Ew in H1. destruct H1.
      + right; left. rewrite <- in_rev, sort_edges_In. split; auto. lia.
  Qed.

  Lemma step1 : forall st, Inv1 st -> fw_is_done st = false -> exists st', fw_step false st = Some st' /\ start xd edge Inv1 Fin1 st' /\
    (fw_rounds st < fw_rounds st' \/ (fw_rounds st' = fw_rounds st /\ length (fw_ws st') < length (fw_ws st))).
  Proof.
    intros st HI D. unfold FixModel.fw_step. destruct (fw_ws st) as [|t ws] eqn:Ew.
    - destruct (fw_next st) as [|x l] eqn:En.
      + eexists. split; [reflexivity|]. cbn [fw_rounds]. split; [|left; lia]. left. split; [reflexivity|]. destruct HI as (B & L & W & C & cr & bt & K & G).
        split; [destruct B; constructor; auto|]. exists C. split.
        * assert (S : forall c, settled none (mk_fw true (fw_limit st) (S (fw_rounds st)) [] [] (fw_d st)) c -> settled none st c).
          { intros c (H1 & H2 & H3 & H4). unfold settled. rewrite Ew, En. ands; auto. }
          destruct K as [K1 K2 K3 K4 K5 K6 K7 K8 K9 K10 K11]. constructor; auto.
          -- intros e c rw H R. apply (K8 e c rw); auto.
          -- intros e c1 c2 rw H1 H2 R. apply (K11 e c1 c2 rw); auto.
        * left. ands; auto. apply G.
      + rewrite <- En. change (mk_fw (fw_done st) (fw_limit st) (S (fw_rounds st)) (rev (sort_edges (fw_next st))) [] (fw_d st)) with (refill st).
        assert (HR := refill_Inv1 st HI D Ew).
        destruct (rev (sort_edges (fw_next st))) as [|t ws] eqn:Er.
        { exfalso. assert (Q : In x (rev (sort_edges (fw_next st)))) by (rewrite <- in_rev, sort_edges_In, En; left; auto). rewrite Er in Q. destruct Q. }
        destruct (go1 (refill st) t ws) as (st' & G1 & G2 & G3 & G4); auto; [cbn; lia|]. exists st'. split; auto. split; [apply Inv1_start; auto|]. left. rewrite G3. cbn. lia.
    - assert (Rk : 1 <= fw_rounds st) by (destruct HI as (_ & _ & [W|W] & _); [congruence|auto]).
      destruct (go1 st t ws Ew HI Rk) as (st' & G1 & G2 & G3 & G4). exists st'. split; auto. split; [apply Inv1_start; auto|]. right. rewrite <- Ew. auto.
  Qed.

  Lemma Inv1_bound : forall st, Inv1 st -> fw_rounds st <= N * pd_nlab P * N.
  Proof.
    intros st (B & L & _ & C & cr & bt & K & G). rewrite (g_lim _ _ _ _ _ _ _ _ G), (xb_count _ _ _ B) in L.
    assert (Q : length (xES st) <= length (universe P (fa_aut A0))). { apply NoDup_incl_length; [apply B|]. intros x Hx. apply in_range_universe; [exact HnN|]. apply (xb_range _ _ _ B). auto. }
    rewrite universe_length in Q. fold N in Q. lia.
  Qed.

  Theorem phase1_total : forall fuel st, Inv1 st -> fw_loop xd edge sort_edges (x_step_with P mx) false fuel st = Some None \/
    exists st', fw_loop xd edge sort_edges (x_step_with P mx) false fuel st = Some (Some st') /\ Fin1 st'.
  Proof.
    intros fuel st HI. eapply (fw_loop_total xd edge sort_edges (x_step_with P mx) false Inv1 Fin1); [|apply Inv1_start; auto].
    intros s Hs D. destruct (step1 s Hs D) as (s' & H1 & H2 & _). eauto.
  Qed.
  Theorem phase1_ends : forall st, Inv1 st -> exists bound st', Fin1 st' /\ forall fuel, bound <= fuel -> fw_loop xd edge sort_edges (x_step_with P mx) false fuel st = Some (Some st').
  Proof.
    intros st HI. eapply (fw_loop_ends xd edge sort_edges (x_step_with P mx) false Inv1 Fin1 (N * pd_nlab P * N)); [apply Inv1_bound|apply step1|apply Inv1_start; auto].
  Qed.
End FixPre4.
