(** The traces of the shortest post*: runs of the reported weight. *)
From Coq Require Import List Arith Lia Bool ZArith Permutation.
From Verif Require Import Base BaseFacts Spec SpecFacts PdaModel PdaProof AutModel AutProof PreStarModel PreStarProof PreStarLang
  PostStarModel PostStarProof PostStarLang SolverModel QueryModel QueryProof ProductModel ProductProof VerdictProof TraceModel TraceProof TraceSolver UtilModel UtilProof
  ShortSpec ShortModel ShortProdProof PostShortProof ShortProof FixSpec ShortTraceModel ShortTrace1 ShortTrace2.
Import ListNotations.

Lemma ap_map_stack : forall f p, ap_stack (ap_map f p) = ap_stack p.
Proof. intros f [e es]. unfold ap_stack, ap_map. cbn. rewrite map_map. auto. Qed.
Lemma ap_map_front : forall f p, ap_front (ap_map f p) = f (ap_front p).
Proof. intros f [e [|[l s] es]]; auto. Qed.

Section Back.
  Variable P : pda.
  Notation n := (pd_n P).
  Variables F S : waut.
  Hypothesis NE : forall q q', ~ aut_edges (wa_aut S) q None q'.
  Variable sp : sprod.
  Hypothesis SB : sbase n F S sp.
  Notation f := (fun id => fst (orig_pair P (sp_pr sp) id)).

  Lemma back_weight : forall fuel q p p' d, back_path fuel sp q p = Some p' -> ap_front p = q -> dist n sp q = Some d ->
    valid (aut_edges (wa_aut F)) (ap_map f p) ->
    valid (aut_edges (wa_aut F)) (ap_map f p') /\ ap_end p' = ap_end p /\ (pwt (w_of F) (ap_map f p') <= pwt (w_of F) (ap_map f p) + d)%Z.
  Proof.
    induction fuel as [|fuel IH]; intros q p p' d E Hp Hd V; cbn [back_path] in E; destruct (b_find q (sp_best sp)) as [[[fr l] w]|] eqn:Hb; try discriminate.
    - injection E as <-. ands; auto. unfold dist, best in Hd. rewrite Hb in Hd. destruct (Nat.ltb q n); [|discriminate]. injection Hd as <-. lia.
    - destruct (sb_back _ _ _ _ SB _ _ _ _ Hb) as (Hr & d0 & v0 & a0 & b0 & a1 & b1 & K1 & K2 & K3 & K4 & K5 & K6).
      assert (Ed : d = w). { unfold dist in Hd. destruct (Nat.ltb_spec q n); [lia|]. unfold best in Hd. rewrite Hb in Hd. injection Hd as <-. auto. }
      assert (KE : aut_edges (wa_aut F) a0 l a1 /\ v0 = w_of F (mk_edge a0 l a1)).
      { destruct l as [x|]; cbn in K5; [tauto|]. destruct K5 as [K5|(K5 & _)]; [tauto|]. exfalso. eapply NE; eauto. }
      destruct KE as [KE1 KE2]. assert (F0 : f fr = a0) by (unfold orig_pair; rewrite K3; auto). assert (F1 : f q = a1) by (unfold orig_pair; rewrite K4; auto).
      assert (PF : pfront (ap_end (ap_map f p)) (ap_edges (ap_map f p)) = a1) by (rewrite <- ap_front_pfront, ap_map_front, Hp; auto).
      destruct (IH fr (ap_emplace p fr l) p' d0 E) as (V' & En & Wt); auto.
      + unfold valid, ap_emplace, ap_map in *. cbn [ap_end ap_edges map fst snd] in *. cbn [pvalid]. split; auto. rewrite PF. cbn beta in F0. rewrite F0. auto.
      + ands; auto. unfold pwt, ap_emplace, ap_map in *. cbn [ap_end ap_edges map fst snd psum] in *. rewrite PF in Wt. cbn beta in F0. rewrite F0 in Wt. lia.
    - injection E as <-. ands; auto. unfold dist, best in Hd. rewrite Hb in Hd. destruct (Nat.ltb q n); [|discriminate]. injection Hd as <-. lia.
  Qed.
End Back.

Section Trace.
  Variable P : pda.
  Hypothesis WP : wf_pda P.
  Variable top : list (Z * nat) -> nat.
  Hypothesis TM : top_max Z zcomp top.
  Hypothesis TP : top_push Z top.
  Variable ptop : nat -> list (Z * (edge * trace)) -> nat.
  Hypothesis PT : forall k l, l <> [] -> exists x, nth_error l (ptop k l) = Some x /\ forall y, In y l -> (fst x <= fst y)%Z.
  Variables init fin : waut.
  Hypothesis OK : post_ok P (wa_aut init).
  Hypothesis WS : aut_wf (wa_aut fin).
  Hypothesis HS : pd_n P <= a_size (wa_aut fin).
  Hypothesis ZI : forall e, w_of init e = 0%Z.
  Hypothesis ZF : forall e, w_of fin e = 0%Z.
  Hypothesis NN : forall p id r ls, get_rule P p id = Some (r, ls) -> (0 <= r_w r)%Z.
  Hypothesis NA : forall p, p < pd_n P -> aut_final (wa_aut init) p -> aut_final (wa_aut fin) p -> False.
  Hypothesis NU : all_null (wa_aut init).
  Hypothesis NE : forall q q', ~ aut_edges (wa_aut fin) q None q'.
  Notation n := (pd_n P).
  Notation qp := (fun k : nat * nat => qp_find k (snd (qp_init P (wa_aut init)))).
  Variable ord : nat -> list nat -> list nat.
  Hypothesis HO : forall q l, Permutation (ord q l) l.
  Variable inst : sinst.
  Hypothesis HI : new_sinst P ord init fin = Some inst.

  (** What is known of the instance after the saturation. *)
  Record after (I : sinst) : Prop := {
    af_wj : wjs P qp (w_of (si_init I)) (a_edges (wa_aut init)) (a_edges (wa_aut (si_init I)));
    af_nd : NoDup (map fst (a_edges (wa_aut (si_init I))));
    af_rg : forall e, In e (map fst (a_edges (wa_aut (si_init I)))) -> q_range P (wa_aut init) e;
    af_nn : forall e, (0 <= w_of (si_init I) e)%Z;
    af_final : forall q, aut_final (wa_aut (si_init I)) q -> aut_final (wa_aut init) q;
    af_n : n <= a_size (wa_aut (si_init I));
    af_NA : forall p, p < n -> aut_final (wa_aut (si_init I)) p -> aut_final (wa_aut fin) p -> False;
    af_sb : sbase n (si_init I) fin (si_prod I) }.

  Lemma short_after : forall fuel b I, post_star_short P top ptop fuel inst = done (b, I) -> after I.
  Proof.
    intros fuel b I HR. unfold new_sinst in HI. destruct (pr_new_spec n (wa_aut init) (wa_aut fin) false (init_size P init OK) HS ord HO) as (pr & E1 & B & Hn). rewrite E1 in HI. cbn in HI.
    assert (EI : inst = mk_sinst init fin (mk_sprod pr [])) by congruence. rewrite EI in HR. clear HI EI.
    assert (SB0 : sbase n init fin (mk_sprod pr [])).
    { constructor; cbn; auto.
      - intros id H. lia.
      - intros id f l w H. discriminate.
      - intros id H. rewrite Hn in H. exists [id]. constructor. auto. }
    assert (NI : forall e, (0 <= w_of init e)%Z) by (intros; rewrite ZI; lia).
    destruct (sp_initialize_spec n top TM TP init fin (init_wf P init fin OK HS) WS (init_size P init OK) HS NI (NSf P fin HS ZF) NA (mk_sprod pr []) SB0 Hn) as (b0 & sp & Ei & O1 & O2 & O3 & O4).
    unfold post_star_short in HR. cbn [si_init si_fin si_prod] in HR. rewrite Ei in HR. cbn [obind fst snd] in HR. destruct b0.
    - injection HR as <- <-. constructor; cbn [si_init si_prod]; auto.
      + constructor.
      + apply OK.
      + intros e He. assert (K : aut_edges (wa_aut init) (e_src e) (e_lab e) (e_dst e)) by (destruct e; exact He). destruct (qk_range _ _ OK _ _ _ K) as (K1 & K2 & x & K3 & K4).
        pose proof (nQ_N P (wa_aut init) (qk_n _ _ OK)) as Q. unfold q_range. rewrite K3. ands; auto; lia.
      + apply OK.
    - set (A1w := mk_waut (fst (qp_init P (wa_aut init))) (wa_w init)) in *.
      assert (JA : J P fin A1w sp).
      { destruct (proj1 (qp_init_ok P (wa_aut init))) as [Q1 Q2 [k Q3] Q4 Q5]. assert (EE : aut_edges (wa_aut A1w) = aut_edges (wa_aut init)) by (unfold aut_edges; cbn; rewrite Q1; auto). split; [|split].
        - eapply sbase_mono; [exact O1|apply (init_size P init OK)|auto| | |].
          + intros x y z H. rewrite EE. auto.
          + cbn. unfold a_size. rewrite Q3, app_length. lia.
          + intros q Hq. cbn. rewrite Q3, nth_error_app1; auto.
        - intros id Hid. unfold all_clean in O4. eapply clean_ext; [rewrite EE; apply O4; auto|]. auto.
        - intros H. apply O3 in H. discriminate. }
      assert (GA : goodA P init A1w) by (apply A1w_good; auto).
      pose proof (call_spec P top TM TP init fin OK WS HS ZF NA) as CS.
      destruct (init_spec P sprod (Some (cb_short P top fin)) init OK ZI NN (J P fin) (JT P fin)) with (x := sp) as (st & E & K & C & HJ & Hf); auto.
      + discriminate.
      + intros f A x e tr w A' etp Ef. injection Ef as <-. apply CS.
      + intros f x e tr Ef. injection Ef as <-. intros HJ Hin _. apply (call_again P top TM TP init fin OK WS HS ZF NA); auto. cbn. rewrite (qo_edges _ _ (proj1 (qp_init_ok P (wa_aut init)))). auto.
      + rewrite E in HR. cbn [obind] in HR.
        assert (CS' : forall f A x e tr w A' etp, Some (cb_short P top fin) = Some f -> J P fin A x -> goodA P init A -> goodA P init A' -> wa_add_edge A e tr w = Some A' -> w_of A' e = w -> (0 <= etp)%Z ->
          In e (map fst (a_edges (wa_aut A'))) -> exists b x', f A' x e tr w etp = Some (b, x') /\ if b then JT P fin A x A' x' etp else J P fin A' x').
        { intros f A x e tr w A' etp Ef. injection Ef as <-. apply CS. }
        destruct (h_run P sprod (Some (cb_short P top fin)) ptop fuel st) as [[[st' b']|]|] eqn:ER; try discriminate. injection HR as <- <-.
        assert (T0 : tinv P sprod init st) by exact (init_tinv P sprod (Some (cb_short P top fin)) init sp st E).
        assert (JN : Some (cb_short P top fin) = None -> forall A x e tr w A', J P fin A x -> wa_add_edge A e tr w = Some A' -> J P fin A' x) by discriminate.
        destruct (run_tinv P WP sprod (Some (cb_short P top fin)) ptop PT init OK NN (J P fin) (JT P fin) JN CS' fuel 0%Z st st' b' K C HJ Hf T0 ER) as [[T _] [D' K']].
        assert (G := k_good _ _ _ _ _ K').
        assert (SBF : sbase n (h_aut st') fin (h_x st')).
        { destruct (run_spec P WP sprod (Some (cb_short P top fin)) ptop PT init OK NN (J P fin) (JT P fin) JN CS') with (k := pend P sprod init st) (m := length (h_ws st)) (D := 0%Z) (st := st) as (fuel0 & [st2 b2] & Ho & Hr); auto.
          assert (E2 := Hr (fuel + fuel0) ltac:(lia)). rewrite (h_run_mono P sprod (Some (cb_short P top fin)) ptop fuel st fuel0) in E2 by (rewrite ER; discriminate). rewrite ER in E2. injection E2 as -> ->.
          unfold outcome in Ho. cbn [fst snd] in Ho. destruct b2.
          - destruct Ho as (stp & D & _ & _ & _ & _ & _ & _ & _ & _ & (T1 & _)). auto.
          - destruct Ho as (D & _ & _ & _ & (Jp1 & _)). auto. }
        constructor; cbn [si_init si_prod]; auto; try apply G.
        * intros q. unfold aut_final. rewrite (ga_acc _ _ _ G). apply A1_final; auto.
        * apply (good_n P init fin OK HS _ G).
        * apply (good_NA P init fin NA _ G).
  Qed.

  Lemma eps_src_n : forall I, after I -> forall q q', aut_edges (wa_aut (si_init I)) q None q' -> q < n.
  Proof. intros I H q q' K. destruct (af_rg _ H _ K) as (_ & _ & K1). cbn in K1. auto. Qed.

  (** The trace of a path found. *)
  Lemma trace_spec : forall I, after I -> forall p d, path_shortest (si_prod I) = Some (Some (p, d)) -> exists tr v bd,
    (forall fuel, (get_trace_post_shortest P fuel I = Some None /\ fuel <= bd) \/ get_trace_post_shortest P fuel I = done (tr, Some d)) /\
    wtrace (pda_wrules P) tr v /\ (v <= d)%Z /\ aut_lang n (wa_aut init) (hd (0, []) tr) /\ last tr (0, []) = pconf p.
  Proof.
    intros I A p d EP. pose proof (af_sb _ A) as SB. set (F := si_init I) in *. set (sp := si_prod I) in *.
    destruct (path_shortest_spec n F fin (af_n _ A) HS (af_NA _ A) sp SB) as [[_ H2]|(p0 & d0 & a & b & w & v & H1 & H2 & H3 & H4 & H5 & H6 & H7 & H8 & H9 & H10)]; [congruence|].
    rewrite H1 in EP. injection EP as -> ->. set (f := fun id => fst (orig_pair P (sp_pr sp) id)). set (p1 := ap_map f p).
    assert (FE : f (ap_end p) = a) by (unfold f, orig_pair; rewrite H4; auto).
    assert (FF : f (ap_front p) = ap_front p). { unfold f, orig_pair, pr_pair. apply Nat.ltb_lt in H3 as H3'. rewrite H3'. auto. }
    assert (FP : ap_front p1 = ap_front p) by (unfold p1; rewrite ap_map_front; auto).
    assert (BW : valid (aut_edges (wa_aut F)) p1 /\ (pwt (w_of F) p1 <= d)%Z).
    { unfold path_shortest in H1. destruct (has_accepting (sp_pr sp)) eqn:HA; [|discriminate]. destruct (min_accepting_spec n F fin (af_n _ A) HS (af_NA _ A) sp SB HA) as (q & dq & E & Hf & Hb & M). rewrite E in H1. cbn [obind fst snd] in H1.
      destruct (back_path _ _ _ _) as [p'|] eqn:EB; [|discriminate]. cbn [obind] in H1. injection H1 as -> ->. destruct (final_best n F fin (af_n _ A) HS (af_NA _ A) sp q SB Hf) as [Hq _].
      assert (Hd : dist n sp q = Some d) by (unfold dist; destruct (Nat.ltb_spec q n); [lia|auto]).
      destruct (back_weight P F fin NE sp SB _ _ _ _ d EB eq_refl Hd) as (B1 & B2 & B3); [exact Logic.I|]. split; auto. }
    destruct BW as [V1 W1].
    assert (EN : ap_end p1 < a_size (wa_aut init)). { unfold p1. cbn [ap_map ap_end]. rewrite FE. apply (af_final _ A) in H5. apply nth_error_lt in H5. auto. }
    destruct (strace P WP (wa_aut init) (wa_aut F) (w_of F) OK NU (af_wj _ A) (af_nd _ A) (af_rg _ A) (af_nn _ A) (eps_src_n I A) p1) as (tr & x & T1 & T2 & T3 & T4 & p' & T5 & T6 & T7 & T8).
    { unfold Inv. rewrite FP. auto. }
    assert (NT : tr <> []) by (inversion T2; discriminate). assert (PC : pconf p1 = pconf p) by (unfold pconf; rewrite FP; unfold p1; rewrite ap_map_stack; auto).
    exists tr, x, (meas (wa_aut F) p1). split; [|split; [auto|split; [lia|split]]].
    - intros fuel. unfold get_trace_post_shortest, get_trace_shortest. fold sp. rewrite H1. cbn [obind]. fold F f p1. destruct (T1 fuel) as [[K1 K2]|K1]; rewrite K1; auto.
    - replace (hd (0, []) tr) with (pconf p') by (rewrite <- T8; destruct tr; [congruence|auto]). apply lang_path_lang; auto. split; auto. rewrite T6. unfold p1. cbn [ap_map ap_end]. rewrite FE. apply (af_final _ A). auto.
    - rewrite <- PC, <- T4. destruct tr as [|c tr]; [congruence|]. clear. revert c. induction tr as [|c' tr IH]; intros c; auto. cbn [last]. apply (IH c').
  Qed.
End Trace.
